(* LinAlg.v -- contracts of the external factorisation routines used by evoMPS (scipy.linalg.qr,
   scipy.linalg.eigh) and the mathematical facts behind them.

   The routines themselves are LAPACK wrappers and are not modelled; every theorem that involves
   them quantifies over an arbitrary routine satisfying the contract.  The lemmas qr_exists and
   eigh_exists show that the contracts can be satisfied for every input, so that such theorems are
   never vacuous. *)
From mathcomp Require Import all_ssreflect all_algebra.
From mathcomp Require Import zify.
From Verif Require Import Base.
Set Implicit Arguments.
Unset Strict Implicit.
Unset Printing Implicit Defensive.
Import Order.TTheory GRing.Theory Num.Theory.
Local Open Scope ring_scope.

Section LinAlg.
Variable C : numClosedFieldType.

(* scipy.linalg.qr(M, mode='economic'): Q is m x min(m,n) with orthonormal columns, R is
   min(m,n) x n and Q R = M *)
Definition qr_ok m n (M : 'M[C]_(m, n)) (QR : 'M[C]_(m, minn m n) * 'M[C]_(minn m n, n)) : bool :=
  (QR.1^† *m QR.1 == 1%:M) && (QR.1 *m QR.2 == M).
Definition qr_routine := forall m n, 'M[C]_(m, n) -> 'M[C]_(m, minn m n) * 'M[C]_(minn m n, n).
Definition qr_contract (qr : qr_routine) := forall m n (M : 'M[C]_(m, n)), qr_ok M (qr m n M).

(* scipy.linalg.eigh(M) for Hermitian M: real eigenvalues in ascending order and a unitary matrix
   of eigenvectors (columns) *)
Definition eigh_ok n (M : 'M[C]_n) (ee : 'rV[C]_n * 'M[C]_n) : bool :=
  [&& ee.2^† *m ee.2 == 1%:M, M *m ee.2 == ee.2 *m diag_mx ee.1,
      [forall i, ee.1 0 i \is Num.real] &
      [forall i : 'I_n, forall j : 'I_n, (i <= j)%N ==> (ee.1 0 i <= ee.1 0 j)]].
Definition eigh_routine := forall n, 'M[C]_n -> 'rV[C]_n * 'M[C]_n.
Definition eigh_contract (eigh : eigh_routine) :=
  forall n (M : 'M[C]_n), herm M -> eigh_ok M (eigh n M).

(* ---- orthonormal families ------------------------------------------------ *)
Lemma unitary_sym n (Q : 'M[C]_n) : Q^† *m Q = 1%:M -> Q *m Q^† = 1%:M.
Proof. exact: mulmx1C. Qed.

(* normalising a vector *)
Lemma normalize_row m (v : 'rV[C]_m) : v != 0 ->
  exists2 a : C, a != 0 & (a *: v) *m (a *: v)^† = 1%:M.
Proof.
move=> v0; pose w := adot v v; have w0 : 0 < w by rewrite lt_def adot_eq0 v0 adot_ge0.
exists (sqrtC w)^-1; first by rewrite invr_eq0 sqrtC_eq0 gt_eqF.
rewrite adjZ -scalemxAl -scalemxAr scalerA.
have sr : (sqrtC w)^-1 \is Num.real by rewrite realV ger0_real // sqrtC_ge0 ltW.
rewrite (CrealP sr) -invfM -expr2 sqrtCK.
apply/matrixP=> i j; rewrite !ord1 mxE [X in _ * X]mxE.
have -> : \sum_k v 0 k * v^† k 0 = w.
  rewrite /w /adot big_ord1; apply: eq_bigr => k _; by rewrite adjE mulrC.
by rewrite mulVf ?gt_eqF // mxE eqxx.
Qed.

(* Gram-Schmidt: every n <= m row vectors lie in the span of n orthonormal ones *)
Lemma gram_schmidt n m (M : 'M[C]_(n, m)) : (n <= m)%N ->
  exists2 Q : 'M[C]_(n, m), Q *m Q^† = 1%:M &
    exists2 L, M = L *m Q & forall i j : 'I_n, (j < i)%N -> L i j = 0.
Proof.
elim: n M => [|n IH] M nm.
  by exists 0; [rewrite mul0mx; apply/matrixP=> [[]] | exists 0; [apply/matrixP=> [[]] | case]].
have -> : M = col_mx (@usubmx C 1 n m M) (@dsubmx C 1 n m M) by rewrite (@vsubmxK C 1 n m).
move: (@usubmx C 1 n m M) (@dsubmx C 1 n m M) => v M'; rewrite -[n.+1]/(1 + n)%N.
have [Q QQ [L -> tL]] := IH M' (ltnW nm).
pose P := Q^† *m Q; pose u := v - v *m P.
have uQ : u *m Q^† = 0.
  by rewrite /u mulmxBl -(mulmxA v) /P -(mulmxA Q^†) QQ mulmx1 subrr.
have [w [w0 wQ [b ub]]] : exists w : 'rV[C]_m, [/\ w != 0, w *m Q^† = 0 & exists b : C, u = b *: w].
  have [u0|u0] := eqVneq u 0; last by exists u; split=> //; exists 1; rewrite scale1r.
  have rk : (\rank (kermx Q^†) != 0)%N.
    by rewrite mxrank_ker; have := rank_leq_col (Q^†); rewrite -lt0n subn_gt0 => h; apply: leq_ltn_trans h nm.
  have [w w0] : exists w, row w (kermx Q^†) != 0.
    apply/existsP; rewrite -negb_forall; apply: contra rk => /forallP h.
    rewrite mxrank_eq0; apply/eqP/row_matrixP => i; rewrite row0.
    exact/eqP/h.
  exists (row w (kermx Q^†)); split=> //; last by exists 0; rewrite scale0r.
  by rewrite -row_mul mulmx_ker row0.
have [a a0 ww] := normalize_row w0; set w' := a *: w in ww.
have w'Q : w' *m Q^† = 0 by rewrite /w' -scalemxAl wQ scaler0.
have Qw' : Q *m w'^† = 0 by rewrite -(adjK (Q *m _)) adjM adjK w'Q adj0.
exists (col_mx w' Q).
  have -> : (col_mx w' Q)^† = row_mx w'^† Q^† by rewrite /adj tr_col_mx map_row_mx.
  by rewrite mul_col_mx !mul_mx_row ww w'Q Qw' QQ (@scalar_mx_block _ 1 n).
exists (block_mx (b / a)%:M (v *m Q^†) 0 L); last first.
  move=> i j; case: (split_ordP i) => i' ->; case: (split_ordP j) => j' ->.
  - by rewrite !ord1 ltnn.
  - by rewrite /= ord1.
  - by rewrite block_mxEdl mxE.
  - by rewrite block_mxEdr ltn_add2l; exact: tL.
rewrite mul_block_col mul0mx add0r mul_scalar_mx /w' scalerA divfK // -ub.
by congr col_mx; rewrite /u /P mulmxA subrK.
Qed.

Lemma qr_exists m n (M : 'M[C]_(m, n)) : exists QR, qr_ok M QR.
Proof.
rewrite /qr_ok; have [nm|mn] : (n <= m)%N \/ (m < n)%N by lia.
  rewrite (minn_idPr nm); have [Q QQ [L eL _]] := gram_schmidt M^† nm.
  exists (Q^†, L^†); rewrite /= adjK QQ eqxx /=.
  by rewrite -adjM -eL adjK.
rewrite (minn_idPl (ltnW mn)); exists (1%:M, M).
by rewrite /= adj1 !mul1mx !eqxx.
Qed.

(* scipy.linalg.qr(M) (mode='full'): Q is m x m unitary, R is m x n upper triangular, Q R = M *)
Definition qrf_ok m n (M : 'M[C]_(m, n)) (QR : 'M[C]_m * 'M[C]_(m, n)) : bool :=
  [&& QR.1^† *m QR.1 == 1%:M, QR.1 *m QR.2 == M &
      [forall i : 'I_m, forall j : 'I_n, (j < i)%N ==> (QR.2 i j == 0)]].
Definition qrf_routine := forall m n, 'M[C]_(m, n) -> 'M[C]_m * 'M[C]_(m, n).
Definition qrf_contract (qr : qrf_routine) := forall m n (M : 'M[C]_(m, n)), qrf_ok M (qr m n M).

Lemma qr_square n (M : 'M[C]_n) : exists2 Q : 'M[C]_n, Q^† *m Q = 1%:M &
  forall i j : 'I_n, (j < i)%N -> (Q^† *m M) i j = 0.
Proof.
pose J (X : 'M[C]_n) : 'M[C]_n := \matrix_(i, j) X (rev_ord i) j.
have [Q QQ [L eL tL]] := gram_schmidt (J M^†) (leqnn n).
exists (J Q)^†.
  rewrite adjK; apply/matrixP=> i j.
  have e := congr1 (fun X : 'M[C]_n => X (rev_ord i) (rev_ord j)) QQ.
  rewrite /= [in RHS]mxE (inj_eq rev_ord_inj) in e; rewrite [RHS]mxE -e !mxE.
  by apply: eq_bigr => k _; rewrite !mxE.
move=> i j ji; rewrite adjK.
have eM : M^† = J (L *m Q) by rewrite -eL; apply/matrixP=> a b; rewrite !mxE rev_ordK.
have -> : M = (J (L *m Q))^† by rewrite -eM adjK.
transitivity ((L (rev_ord j) (rev_ord i))^*); last by rewrite tL ?conjC0 //=; have := ltn_ord i; lia.
transitivity (\sum_k (Q (rev_ord i) k) * ((L *m Q) (rev_ord j) k)^*).
  by rewrite mxE; apply: eq_bigr => k _; rewrite !mxE.
have -> : \sum_k (Q (rev_ord i) k) * ((L *m Q) (rev_ord j) k)^* = ((L *m Q *m Q^†) (rev_ord j) (rev_ord i))^*.
  by rewrite [in RHS]mxE rmorph_sum; apply: eq_bigr => k _; rewrite adjE rmorphM conjCK mulrC.
by rewrite -mulmxA QQ mulmx1.
Qed.

Lemma qrf_exists m n (M : 'M[C]_(m, n)) : exists QR, qrf_ok M QR.
Proof.
pose M1 : 'M[C]_m := \matrix_(i, j) (if insub (j : nat) is Some k then M i (k : 'I_n) else 0).
have [Q QQ tQ] := qr_square M1.
exists (Q, Q^† *m M); rewrite /qrf_ok /= QQ eqxx mulmxA (unitary_sym QQ) mul1mx eqxx /=.
apply/forallP=> i; apply/forallP=> j; apply/implyP=> ji.
have jm : (j < m)%N by apply: ltn_trans (ltn_ord i).
rewrite -(tQ i (Ordinal jm) ji) !mxE; apply/eqP; apply: eq_bigr => k _.
by rewrite !mxE; congr (_ * _); rewrite (insubT (fun x => x < n)%N (ltn_ord j)) /=; congr (M _ _); apply: val_inj.
Qed.
Definition qrf0 : qrf_routine := fun m n M => xchoose (qrf_exists M).
Lemma qrf0_ok : qrf_contract qrf0.
Proof. by move=> m n M; apply: xchooseP. Qed.

(* ---- spectral theorem ---------------------------------------------------- *)
Lemma eigenvalue_exists n (M : 'M[C]_n) : (0 < n)%N ->
  exists a, exists2 v : 'rV[C]_n, v != 0 & v *m M = a *: v.
Proof.
case: n M => // n M _.
have : size (char_poly M) != 1%N by rewrite size_char_poly.
case/closed_rootP => a ra.
have /eigenvalueP[v va v0] : eigenvalue M a by rewrite eigenvalue_root_char.
by exists a; exists v.
Qed.

Lemma mulmx_adj_row m (v : 'rV[C]_m) : v *m v^† = (adot v v)%:M.
Proof.
apply/matrixP=> i j; rewrite !ord1 [RHS]mxE eqxx mulr1n mxE /adot big_ord1.
by apply: eq_bigr => k _; rewrite adjE mulrC.
Qed.

(* k orthonormal eigenvectors of a Hermitian matrix *)
Lemma herm_eigs n (M : 'M[C]_n) k : herm M -> (k <= n)%N ->
  exists U : 'M[C]_(k, n), exists2 d : 'rV[C]_k, (forall i, d 0 i \is Num.real) &
    U *m U^† = 1%:M /\ U *m M = diag_mx d *m U.
Proof.
move=> hM; elim: k => [|k IH] kn.
  by exists 0; exists 0; [case | split; apply/matrixP => [[]]].
have [U [d dr [UU UM]]] := IH (ltnW kn).
have MU : M *m U^† = U^† *m diag_mx d.
  rewrite -[M]hM -adjM UM adjM; congr (_ *m _); apply/matrixP=> i j; rewrite !mxE rmorphMn.
  by rewrite (CrealP (dr _)) eq_sym; case: eqP => // ->.
set K := kermx U^†; pose B := row_base K.
have rk : (0 < \rank K)%N by rewrite mxrank_ker subn_gt0; apply: leq_ltn_trans (rank_leq_col _) kn.
have BU : B *m U^† = 0 by apply/eqP; rewrite -sub_kermx eq_row_base.
have /submxP[M' eM'] : (B *m M <= B)%MS.
  by rewrite eq_row_base sub_kermx -mulmxA MU mulmxA BU mul0mx.
have [a [w w0 wa]] := eigenvalue_exists M' rk.
have v0 : w *m B != 0.
  apply: contra w0 => /eqP h; apply/eqP.
  have fB : row_free B by rewrite row_base_free.
  by apply: (row_free_inj fB); rewrite h mul0mx.
have va : (w *m B) *m M = a *: (w *m B) by rewrite -mulmxA eM' mulmxA wa scalemxAl.
have vU : (w *m B) *m U^† = 0 by rewrite -mulmxA BU mulmx0.
move: (w *m B) v0 va vU => v v0 va vU {w w0 wa}.
have ar : a \is Num.real.
  apply/CrealP; have h : a *: (v *m v^†) = a^* *: (v *m v^†).
    rewrite scalemxAl -va -mulmxA -{1}[M]hM -adjM va adjZ -scalemxAr //.
  move/matrixP/(_ 0 0): h; rewrite mulmx_adj_row !mxE eqxx mulr1n => h.
  have w0 : adot v v != 0 by rewrite adot_eq0.
  by apply/esym/(mulIf w0 h).
have [x x0 ux] := normalize_row v0.
have [x' U' Uw]: [/\ (x *: v) *m M = a *: (x *: v), (x *: v) *m U^† = 0 & U *m (x *: v)^† = 0].
  split; first by rewrite -scalemxAl va !scalerA mulrC.
  - by rewrite -scalemxAl vU scaler0.
  - by rewrite -(adjK (U *m _)) adjM adjK -scalemxAl vU scaler0 adj0.
rewrite -[k.+1]/(1 + k)%N; exists (col_mx (x *: v) U); exists (row_mx a%:M d).
  move=> i; rewrite mxE; case: splitP => j _; last exact: dr.
  by rewrite mxE ord1 eqxx mulr1n.
split.
  have -> : (col_mx (x *: v) U)^† = row_mx (x *: v)^† U^† by rewrite /adj tr_col_mx map_row_mx.
  by rewrite mul_col_mx !mul_mx_row ux U' Uw UU (@scalar_mx_block _ 1 k).
rewrite diag_mx_row mul_block_col !mul0mx addr0 add0r mul_col_mx x' UM; congr col_mx.
have -> : diag_mx (a%:M : 'M_1) = a%:M by apply/matrixP => i j; rewrite !mxE !ord1 !eqxx.
by rewrite mul_scalar_mx.
Qed.

(* sorting the eigenvalues *)
Lemma eigh_exists n (M : 'M[C]_n) : herm M -> exists ee, eigh_ok M ee.
Proof.
case: n M => [|n] M hM.
  exists (0, 0); rewrite /eigh_ok; apply/and4P; split; try (by apply/eqP/matrixP => [[]]).
  - by apply/forallP => [[]].
  - by apply/forallP => [[]].
have [U [d dr [UU UM]]] := herm_eigs hM (leqnn n.+1).
pose le (i j : 'I_n.+1) := d 0 i <= d 0 j.
have le_total : total le by move=> i j; apply: real_leVge; apply: dr.
have le_trans : transitive le by move=> i j k; apply: le_trans.
pose e := sort le (enum 'I_n.+1).
have sz : size e = n.+1 by rewrite size_sort size_enum_ord.
have ue : uniq e by rewrite sort_uniq enum_uniq.
pose p (i : 'I_n.+1) := nth ord0 e i.
have p_inj : injective p.
  move=> i j /eqP; rewrite /p nth_uniq ?sz // => /eqP h; exact: val_inj.
pose V : 'M[C]_n.+1 := \matrix_(i, j) (U (p j) i)^*.
exists (\row_j d 0 (p j), V); rewrite /eigh_ok /=; apply/and4P; split.
- apply/eqP/matrixP=> i j; rewrite !mxE.
  have /matrixP/(_ (p i) (p j)) := UU; rewrite !mxE (inj_eq p_inj) => <-.
  by apply: eq_bigr => k _; rewrite !mxE conjCK.
- apply/eqP/matrixP=> i j; rewrite mul_mx_diag [RHS]mxE [LHS]mxE !mxE.
  have /matrixP/(_ (p j) i) := UM; rewrite mul_diag_mx !mxE => h.
  transitivity ((d 0 (p j) * U (p j) i)^*); last by rewrite rmorphM (CrealP (dr _)) mulrC.
  rewrite -h rmorph_sum; apply: eq_bigr => k _; rewrite !mxE rmorphM mulrC; congr (_ * _).
  by rewrite -{1}[M]hM adjE.
- by apply/forallP=> i; rewrite mxE dr.
- apply/forallP=> i; apply/forallP=> j; apply/implyP=> ij; rewrite !mxE.
  have := sort_sorted le_total (enum 'I_n.+1); rewrite -/e => se.
  have le_refl : reflexive le by move=> x; rewrite /le lexx.
  by apply: (sorted_leq_nth le_trans le_refl ord0 se i j); rewrite ?inE ?sz.
Qed.

(* hence routines satisfying the contracts exist *)
Definition qr0 : qr_routine := fun m n M => xchoose (qr_exists M).
Lemma qr0_ok : qr_contract qr0.
Proof. by move=> m n M; apply: xchooseP. Qed.

Lemma eigh_exists' n (M : 'M[C]_n) : exists ee, (M^† == M) ==> eigh_ok M ee.
Proof.
have [h|h] := eqVneq M^† M; last by exists (0, 0).
by have [ee ok] := eigh_exists h; exists ee.
Qed.
Definition eigh0 : eigh_routine := fun n M => xchoose (eigh_exists' M).
Lemma eigh0_ok : eigh_contract eigh0.
Proof. by move=> n M /eqP h; exact: (implyP (xchooseP (eigh_exists' M)) h). Qed.

End LinAlg.
