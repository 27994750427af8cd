(* DissProofs.v -- products and sums of local operators, and the effective Hamiltonian of Diss.v *)
From mathcomp Require Import all_ssreflect all_algebra.
From mathcomp Require Import zify.
From Verif Require Import Base Spec Eps Chain ChainProofs LinAlg Struct Factor Tangent Tdvp TdvpProofs TdvpProofs2 TdvpProofs3 Diss.
Set Implicit Arguments.
Unset Strict Implicit.
Unset Printing Implicit Defensive.
Import Order.TTheory GRing.Theory Num.Theory.
Local Open Scope ring_scope.

Section Algebra.
Variables (C : numClosedFieldType) (V : lmodType C) (q : nat -> nat).
Implicit Types (phi : seq nat -> V) (c : seq nat).

Lemma setsw i j a b (d : seq nat) : i != j -> set_nth 0%N (set_nth 0%N d i a) j b = set_nth 0%N (set_nth 0%N d j b) i a.
Proof. by move=> ij; rewrite set_set_nth /= (negbTE ij). Qed.
Lemma setss i a b (d : seq nat) : set_nth 0%N (set_nth 0%N d i a) i b = set_nth 0%N d i b.
Proof. by rewrite set_set_nth /= eqxx. Qed.
Lemma op2_mul n (o o' : op2s C) phi c :
  op2 q n o' (op2 q n o phi) c = op2 q n (fun s t u v => \sum_(x < q n) \sum_(y < q n.+1) o' s t x y * o x y u v) phi c.
Proof.
rewrite /op2.
transitivity (\sum_(x < q n) \sum_(y < q n.+1) \sum_(u < q n) \sum_(v < q n.+1)
   (o' (nth 0%N c n) (nth 0%N c n.+1) x y * o x y u v) *: phi (set_nth 0%N (set_nth 0%N c n u) n.+1 v)).
  apply: eq_bigr => x _; apply: eq_bigr => y _; rewrite scaler_sumr; apply: eq_bigr => u _; rewrite scaler_sumr.
  apply: eq_bigr => v _; rewrite scalerA !nth_set_nth /= eqxx !nth_set_nth /= (ltn_eqF (ltnSn n)) eqxx; congr (_ *: phi _).
  by rewrite (setsw _ _ _ (negbT (gtn_eqF (ltnSn n)))) setss setss.
under eq_bigr => x _ do rewrite exchange_big /=.
rewrite exchange_big /=; apply: eq_bigr => u _.
under eq_bigr => x _ do rewrite exchange_big /=.
rewrite exchange_big /=; apply: eq_bigr => v _; rewrite scaler_suml; apply: eq_bigr => x _.
by rewrite scaler_suml.
Qed.
Lemma op2_lin n (a b : C) (o o' : op2s C) phi c :
  op2 q n (fun s t u v => a * o s t u v + b * o' s t u v) phi c = a *: op2 q n o phi c + b *: op2 q n o' phi c.
Proof.
rewrite /op2 !scaler_sumr -big_split /=; apply: eq_bigr => u _; rewrite !scaler_sumr -big_split /=; apply: eq_bigr => v _.
by rewrite scalerDl !scalerA.
Qed.
Lemma op3_mul n (o o' : op3s C) phi c :
  op3 q n o' (op3 q n o phi) c = op3 q n (fun s t z u v w =>
    \sum_(x < q n) \sum_(y < q n.+1) \sum_(k < q n.+2) o' s t z x y k * o x y k u v w) phi c.
Proof.
have n01 : (n == n.+1) = false by lia.
have n10 : (n.+1 == n) = false by lia.
have n02 : (n == n.+2) = false by lia.
have n20 : (n.+2 == n) = false by lia.
have n12 : (n.+1 == n.+2) = false by lia.
have n21 : (n.+2 == n.+1) = false by lia.
rewrite /op3.
transitivity (\sum_(x < q n) \sum_(y < q n.+1) \sum_(k < q n.+2) \sum_(u < q n) \sum_(v < q n.+1) \sum_(w < q n.+2)
   (o' (nth 0%N c n) (nth 0%N c n.+1) (nth 0%N c n.+2) x y k * o x y k u v w)
     *: phi (set_nth 0%N (set_nth 0%N (set_nth 0%N c n u) n.+1 v) n.+2 w)).
  apply: eq_bigr => x _; apply: eq_bigr => y _; apply: eq_bigr => k _.
  rewrite scaler_sumr; apply: eq_bigr => u _; rewrite scaler_sumr.
  apply: eq_bigr => v _; rewrite scaler_sumr; apply: eq_bigr => w _.
  rewrite scalerA; do !rewrite nth_set_nth /= ?eqxx ?n01 ?n10 ?n02 ?n20 ?n12 ?n21; congr (_ *: phi _).
  rewrite (@setsw n.+2 n) ?n20 // (@setsw n.+1 n) ?n10 // setss (@setsw n.+2 n.+1) ?n21 // setss setss.
  by [].
have ex (F : nat -> nat -> nat -> nat -> nat -> nat -> V) :
  \sum_(x < q n) \sum_(y < q n.+1) \sum_(k < q n.+2) \sum_(u < q n) \sum_(v < q n.+1) \sum_(w < q n.+2) F x y k u v w =
  \sum_(u < q n) \sum_(v < q n.+1) \sum_(w < q n.+2) \sum_(x < q n) \sum_(y < q n.+1) \sum_(k < q n.+2) F x y k u v w.
  under eq_bigr => x _ do under eq_bigr => y _ do rewrite exchange_big /=.
  under eq_bigr => x _ do rewrite exchange_big /=.
  rewrite exchange_big /=; apply: eq_bigr => u _.
  under eq_bigr => x _ do under eq_bigr => y _ do rewrite exchange_big /=.
  under eq_bigr => x _ do rewrite exchange_big /=.
  rewrite exchange_big /=; apply: eq_bigr => v _.
  under eq_bigr => x _ do under eq_bigr => y _ do rewrite exchange_big /=.
  under eq_bigr => x _ do rewrite exchange_big /=.
  by rewrite exchange_big.
rewrite (ex (fun x y k u v w => (o' (nth 0%N c n) (nth 0%N c n.+1) (nth 0%N c n.+2) x y k * o x y k u v w)
     *: phi (set_nth 0%N (set_nth 0%N (set_nth 0%N c n u) n.+1 v) n.+2 w))).
apply: eq_bigr => u _; apply: eq_bigr => v _; apply: eq_bigr => w _.
rewrite scaler_suml; apply: eq_bigr => x _; rewrite scaler_suml; apply: eq_bigr => y _.
by rewrite scaler_suml.
Qed.
Lemma op3_lin n (a b : C) (o o' : op3s C) phi c :
  op3 q n (fun s t z u v w => a * o s t z u v w + b * o' s t z u v w) phi c = a *: op3 q n o phi c + b *: op3 q n o' phi c.
Proof.
rewrite /op3 !scaler_sumr -big_split /=; apply: eq_bigr => u _; rewrite !scaler_sumr -big_split /=; apply: eq_bigr => v _.
rewrite !scaler_sumr -big_split /=; apply: eq_bigr => w _.
by rewrite scalerDl !scalerA.
Qed.
End Algebra.

Section Fold.
Variables (C : numClosedFieldType) (V : zmodType) (X : Type) (add : X -> X -> X) (act : nat -> X -> V).
Hypothesis act_add : forall n x y, act n (add x y) = act n x + act n y.
Notation tot M HL := (\sum_(j < M) (if HL (j : nat) is Some h then act j h else 0)).
Lemma add_term_sum M HL (p : nat * X) : (p.1 < M)%N -> tot M (add_term add HL p) = tot M HL + act p.1 p.2.
Proof.
move=> pM; rewrite (bigD1 (Ordinal pM)) //= [in RHS](bigD1 (Ordinal pM)) //= /add_term eqxx.
rewrite addrAC; congr (_ + _); last first.
  by apply: eq_bigr => j hj; rewrite ifF //; apply: contraNF hj => /eqP e; apply/eqP/val_inj.
by case: (HL p.1) => [h|]; rewrite ?act_add ?add0r.
Qed.
Lemma add_terms_sum M HL Ls : all (fun p : nat * X => p.1 < M)%N Ls ->
  tot M (foldl (add_term add) HL Ls) = tot M HL + \sum_(p <- Ls) act p.1 p.2.
Proof.
elim: Ls HL => [|p Ls IH] HL /=; first by rewrite big_nil addr0.
by case/andP => h1 h2; rewrite IH // add_term_sum // big_cons addrA.
Qed.
Lemma leffs_all (eff : nat -> X -> C -> C -> X) ex u k linds (P : nat -> bool) :
  all (fun p : nat * X => P p.1) (leffs eff ex u k linds) = all (fun p => P p.1) linds.
Proof. by elim: linds k => [|[n o] t IH] k //=; rewrite IH. Qed.
Lemma leffs_has (eff : nat -> X -> C -> C -> X) ex u k linds (P : nat -> bool) :
  has (fun p : nat * X => P p.1) (leffs eff ex u k linds) = has (fun p => P p.1) linds.
Proof. by elim: linds k => [|[n o] t IH] k //=; rewrite IH. Qed.
Lemma HL_present (HL : nat -> option X) Ls (j : nat) : HL j \/ has (fun p : nat * X => p.1 == j) Ls -> foldl (add_term add) HL Ls j.
Proof.
elim: Ls HL => [|p Ls IH] HL /=; first by case.
move=> h; apply: IH; rewrite /add_term.
case: h => [h|/orP[/eqP h|h]]; [left|left|by right].
  by case: ifP.
by rewrite h eqxx.
Qed.
Lemma leffs_sum (eff : nat -> X -> C -> C -> X) ex u k linds d :
  \sum_(p <- leffs eff ex u k linds) act p.1 p.2 =
  \sum_(i < size linds) act (nth d linds i).1
     (eff (nth d linds i).1 (nth d linds i).2 (ex (nth d linds i).2 (nth d linds i).1) (wiener (u (k + i)%N))).
Proof.
elim: linds k => [|[n o] t IH] k /=; first by rewrite big_nil big_ord0.
rewrite big_cons big_ord_recl /= addn0 IH; congr (_ + _); apply: eq_bigr => i _ /=.
by rewrite addSnnS.
Qed.
End Fold.

