(* Base.v -- complex matrices: adjoint, trace form, positivity.
   Pure mathematics; the only piece of evoMPS modelled here is matmul.adot
   (matmul.py 309-315) and matmul.H (matmul.py 337-354). *)
From mathcomp Require Import all_ssreflect all_algebra.
Set Implicit Arguments.
Unset Strict Implicit.
Unset Printing Implicit Defensive.
Import GRing.Theory Num.Theory.
Local Open Scope ring_scope.

Section Base.
Variable C : numClosedFieldType.

(* matmul.H (matmul.py:337-354): m.conj().T *)
Definition adj m n (A : 'M[C]_(m, n)) : 'M[C]_(n, m) := map_mx conjC (A^T).
Local Notation "A ^†" := (adj A) (at level 2, format "A ^†").

Lemma adjE m n (A : 'M[C]_(m, n)) i j : A^† i j = (A j i)^*.
Proof. by rewrite !mxE. Qed.

Lemma adjK m n (A : 'M[C]_(m, n)) : A^†^† = A.
Proof. by apply/matrixP=> i j; rewrite !adjE conjCK. Qed.

Lemma adj_inj m n : injective (@adj m n).
Proof. by move=> A B e; rewrite -(adjK A) e adjK. Qed.

Lemma adjM m n p (A : 'M[C]_(m, n)) (B : 'M[C]_(n, p)) :
  (A *m B)^† = B^† *m A^†.
Proof. by rewrite /adj trmx_mul map_mxM. Qed.

Lemma adjD m n (A B : 'M[C]_(m, n)) : (A + B)^† = A^† + B^†.
Proof. by rewrite /adj linearD map_mxD. Qed.

Lemma adjN m n (A : 'M[C]_(m, n)) : (- A)^† = - A^†.
Proof. by apply/matrixP=> i j; rewrite !mxE rmorphN. Qed.

Lemma adjB m n (A B : 'M[C]_(m, n)) : (A - B)^† = A^† - B^†.
Proof. by rewrite adjD adjN. Qed.

Lemma adj0 m n : (0 : 'M[C]_(m, n))^† = 0.
Proof. by apply/matrixP=> i j; rewrite !mxE conjC0. Qed.

Lemma adjZ m n (a : C) (A : 'M[C]_(m, n)) : (a *: A)^† = a^* *: A^†.
Proof. by apply/matrixP=> i j; rewrite !mxE rmorphM. Qed.

Lemma adj1 n : (1%:M : 'M[C]_n)^† = 1%:M.
Proof. by rewrite /adj trmx1 map_mx1. Qed.

Lemma adj_scalar n (a : C) : (a%:M : 'M[C]_n)^† = (a^*)%:M.
Proof. by apply/matrixP=> i j; rewrite !mxE rmorphMn eq_sym. Qed.

Lemma adj_sum m n (I : Type) (r : seq I) (P : pred I) (F : I -> 'M[C]_(m, n)) :
  (\sum_(i <- r | P i) F i)^† = \sum_(i <- r | P i) (F i)^†.
Proof. by apply: (big_morph (@adj m n) (@adjD m n) (adj0 m n)). Qed.

Lemma adj_pid m n k : (pid_mx k : 'M[C]_(m, n))^† = pid_mx k.
Proof.
apply/matrixP=> i j; rewrite adjE !mxE conjC_nat eq_sym.
by case: eqP => //= ->.
Qed.

Lemma adj_const m n (a : C) : (const_mx a : 'M[C]_(m, n))^† = const_mx a^*.
Proof. by apply/matrixP=> i j; rewrite !mxE. Qed.

Lemma mxtrace_adj n (A : 'M[C]_n) : \tr (A^†) = (\tr A)^*.
Proof.
by rewrite /mxtrace rmorph_sum; apply: eq_bigr => i _; rewrite adjE.
Qed.

(* matmul.adot (matmul.py:309-315): inner(a.ravel().conj(), b.ravel()) *)
Definition adot m n (a b : 'M[C]_(m, n)) : C :=
  \sum_i \sum_j (a i j)^* * b i j.

Lemma adotE m n (a b : 'M[C]_(m, n)) : adot a b = \tr (a^† *m b).
Proof.
rewrite /adot /mxtrace exchange_big /=; apply: eq_bigr => j _.
by rewrite mxE; apply: eq_bigr => i _; rewrite adjE.
Qed.

Lemma adotDl m n (a b c : 'M[C]_(m, n)) : adot (a + b) c = adot a c + adot b c.
Proof. by rewrite !adotE adjD mulmxDl mxtraceD. Qed.
Lemma adotDr m n (a b c : 'M[C]_(m, n)) : adot a (b + c) = adot a b + adot a c.
Proof. by rewrite !adotE mulmxDr mxtraceD. Qed.
Lemma adotZl m n (x : C) (a b : 'M[C]_(m, n)) : adot (x *: a) b = x^* * adot a b.
Proof. by rewrite !adotE adjZ -scalemxAl mxtraceZ. Qed.
Lemma adotZr m n (x : C) (a b : 'M[C]_(m, n)) : adot a (x *: b) = x * adot a b.
Proof. by rewrite !adotE -scalemxAr mxtraceZ. Qed.
Lemma adot0l m n (a : 'M[C]_(m, n)) : adot 0 a = 0.
Proof. by rewrite adotE adj0 mul0mx mxtrace0. Qed.
Lemma adot0r m n (a : 'M[C]_(m, n)) : adot a 0 = 0.
Proof. by rewrite adotE mulmx0 mxtrace0. Qed.
Lemma adot_suml m n (I : Type) (r : seq I) (P : pred I)
  (F : I -> 'M[C]_(m, n)) b :
  adot (\sum_(i <- r | P i) F i) b = \sum_(i <- r | P i) adot (F i) b.
Proof.
by apply: (big_morph (fun a => adot a b) (fun x y => adotDl x y b) (adot0l b)).
Qed.
Lemma adot_sumr m n (I : Type) (r : seq I) (P : pred I)
  a (F : I -> 'M[C]_(m, n)) :
  adot a (\sum_(i <- r | P i) F i) = \sum_(i <- r | P i) adot a (F i).
Proof.
by apply: (big_morph (adot a) (adotDr a) (adot0r a)).
Qed.
Lemma adotNr m n (a b : 'M[C]_(m, n)) : adot a (- b) = - adot a b.
Proof. by rewrite -scaleN1r adotZr mulN1r. Qed.
Lemma adotNl m n (a b : 'M[C]_(m, n)) : adot (- a) b = - adot a b.
Proof. by rewrite !adotE adjN mulNmx raddfN. Qed.
Lemma adotBr m n (a b c : 'M[C]_(m, n)) : adot a (b - c) = adot a b - adot a c.
Proof. by rewrite adotDr adotNr. Qed.
Lemma adotBl m n (a b c : 'M[C]_(m, n)) : adot (a - b) c = adot a c - adot b c.
Proof. by rewrite adotDl adotNl. Qed.

Lemma adotC m n (a b : 'M[C]_(m, n)) : adot a b = (adot b a)^*.
Proof. by rewrite !adotE -mxtrace_adj adjM adjK. Qed.

Lemma adot_ge0 m n (a : 'M[C]_(m, n)) : 0 <= adot a a.
Proof.
by apply: sumr_ge0 => i _; apply: sumr_ge0 => j _; rewrite mulrC mul_conjC_ge0.
Qed.

Lemma adot_eq0 m n (a : 'M[C]_(m, n)) : (adot a a == 0) = (a == 0).
Proof.
apply/idP/eqP=> [|->]; last by rewrite adot0l.
rewrite /adot psumr_eq0 => [/allP h|i _]; last first.
  by apply: sumr_ge0 => j _; rewrite mulrC mul_conjC_ge0.
apply/matrixP=> i j; have := h i; rewrite mem_index_enum => /(_ isT) /=.
rewrite psumr_eq0 => [/allP h2|k _]; last by rewrite mulrC mul_conjC_ge0.
have := h2 j; rewrite mem_index_enum => /(_ isT) /=.
by rewrite mulrC mul_conjC_eq0 mxE => /eqP.
Qed.

Lemma adot_adj m n (a b : 'M[C]_(m, n)) : adot a^† b^† = adot b a.
Proof. by rewrite !adotE adjK mxtrace_mulC. Qed.

Lemma adot_mull m n p (a : 'M[C]_(m, n)) (b : 'M[C]_(n, p)) c :
  adot (a *m b) c = adot b (a^† *m c).
Proof. by rewrite !adotE adjM mulmxA. Qed.

Lemma adot_mulr m n p (a : 'M[C]_(m, n)) (b : 'M[C]_(n, p)) c :
  adot (a *m b) c = adot a (c *m b^†).
Proof. by rewrite !adotE adjM -mulmxA mxtrace_mulC mulmxA. Qed.

(* Hermitian and positive semi-definite matrices *)
Definition herm n (X : 'M[C]_n) := X^† = X.
Definition psd n (X : 'M[C]_n) := forall v : 'cV[C]_n, 0 <= adot v (X *m v).

Lemma herm1 n : herm (1%:M : 'M[C]_n). Proof. exact: adj1. Qed.
Lemma psd1 n : psd (1%:M : 'M[C]_n).
Proof. by move=> v; rewrite mul1mx adot_ge0. Qed.

Lemma psd_sandwich m n (X : 'M[C]_n) (B : 'M[C]_(n, m)) :
  psd X -> psd (B^† *m X *m B).
Proof. by move=> h v; rewrite -!mulmxA -adot_mull; apply: h. Qed.

Lemma psd_sum n (I : Type) (r : seq I) (P : pred I) (F : I -> 'M[C]_n) :
  (forall i, P i -> psd (F i)) -> psd (\sum_(i <- r | P i) F i).
Proof.
move=> h v; rewrite mulmx_suml adot_sumr.
by apply: sumr_ge0 => i Pi; apply: h.
Qed.

Lemma psd_gram m n (B : 'M[C]_(m, n)) : psd (B^† *m B).
Proof. by rewrite -[X in psd (X *m _)]mulmx1; apply: psd_sandwich; apply: psd1. Qed.

Lemma herm_gram m n (B : 'M[C]_(m, n)) : herm (B^† *m B).
Proof. by rewrite /herm adjM adjK. Qed.

(* a matrix unit times a matrix: diagonal entries of a psd matrix are >= 0 *)
Lemma psd_diag_ge0 n (X : 'M[C]_n) i : psd X -> 0 <= X i i.
Proof.
move=> /(_ (delta_mx i 0)); rewrite -colE /adot (bigD1 i) //= big_ord1 !mxE.
rewrite eqxx conjC1 mul1r big1 ?addr0 // => j ji.
by rewrite big_ord1 !mxE (negbTE ji) conjC0 mul0r.
Qed.

(* the (0,0) entry of an array, as ravel()[0] or [0,0] *)
Definition entry0 m n (M : 'M[C]_(m, n)) : C :=
  \sum_(i < m | i == 0%N :> nat) \sum_(j < n | j == 0%N :> nat) M i j.

End Base.

Notation "A ^†" := (adj A) (at level 2, format "A ^†") : ring_scope.
