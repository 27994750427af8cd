(* P28_Optimal.v -- property theorems: truncations are best approximations (C70). *)
From mathcomp Require Import all_ssreflect all_algebra all_field zify.
From mathcomp.real_closed Require Import mxtens.
From Verif Require Import Base Spec Eps Chain ChainProofs ChainProofs2 LinAlg Factor Svd Split EckartYoung.
From Verif Require Import Struct Canon Trunc Witness P04_Canonical P09_Split.
Set Implicit Arguments.
Unset Strict Implicit.
Unset Printing Implicit Defensive.
Import Order.TTheory GRing.Theory Num.Theory.
Local Open Scope ring_scope.

(* ---- C70: splitting a two-site tensor ------------------------------------- *)
(* no pair of tensors joined by a bond that is not larger is closer to AA *)
Theorem C70_split_optimal (C : numClosedFieldType) (svd : svd_routine C) q1 q2 D0 D2
    (AA : nat -> nat -> 'M[C]_(D0, D2)) D_max ms o d (X : nat -> 'M[C]_(D0, d)) (Y : nat -> 'M[C]_(d, D2)) :
  svd_contract svd -> split_twosite svd q1 q2 AA (Some D_max) (Some ms) = Some o -> (d <= sD o)%N ->
  \sum_(s < q1) \sum_(t < q2)
    adot (AA s t - sA1 o s *m sG o *m sA2 o t) (AA s t - sA1 o s *m sG o *m sA2 o t) <=
  \sum_(s < q1) \sum_(t < q2) adot (AA s t - X s *m Y t) (AA s t - X s *m Y t).
Proof.
move=> svdP e dle; rewrite (C34_truncation_error svdP e).
move: e dle; rewrite /split_twosite; have ok := svdP _ _ (AA_mat q1 q2 AA); case: (svd _) ok => [[u s] vh] ok [<-] /=.
set k := keepD s D_max ms => dle.
pose XX : 'M[C]_(q1 * D0, d) := \matrix_(i, j) X (mxtens_unindex i).1 (mxtens_unindex i).2 j.
pose YY : 'M[C]_(d, q2 * D2) := \matrix_(i, j) Y (mxtens_unindex j).1 i (mxtens_unindex j).2.
rewrite (@frob_mat _ _ _ _ _ (fun i j => AA i j - X i *m Y j) (AA_mat q1 q2 AA - XX *m YY)); last first.
  move=> i j a b; rewrite [LHS]mxE [RHS]mxE AA_matE; congr (_ + _).
  rewrite [LHS]mxE [RHS]mxE; congr (- _); rewrite [LHS]mxE [RHS]mxE; apply: eq_bigr => x _.
  by rewrite [XX _ _]mxE [YY _ _]mxE !mxtens_indexK.
apply: le_trans (eckart_young ok XX YY).
rewrite big_map -[iota _ _]/(index_iota k (minn (q1 * D0) (q2 * D2))) big_geq_mkord /tailsq /=.
rewrite big_mkcond [X in _ <= X]big_mkcond; apply: ler_sum => i _.
have -> : svn s i = s 0 i by rewrite /svn valK.
have s0 : 0 <= s 0 i ^+ 2.
  by have [_ _ _ p _] := svd_okE ok; have := p i; rewrite /svn valK => h; rewrite exprn_ge0.
case: (leqP k i) => h; last by case: ifP.
by rewrite (leq_trans dle h).
Qed.

(* ---- C70: truncating a chain ---------------------------------------------- *)
Section State.
Variables (C : numClosedFieldType) (D q : nat -> nat) (N m : nat) (A : tensors C D) (l r : forall n, 'M[C]_(D n)).
Hypotheses (ud : up_to_date q A N l r) (D0 : D 0%N = 1%N) (DN : D N = 1%N) (mN : (m <= N)%N).
Hypotheses (r1 : r m = 1%:M) (ldiag : forall i j, i != j -> l m i j = 0).
Hypothesis (lasc : forall i j : 'I_(D m), (i <= j)%N -> l m i i <= l m j j).

(* every function of the configuration that factorises through d terms between sites m and m+1 *)
Theorem C70_rank_bound d (x y : 'I_d -> seq nat -> C) :
  \sum_(i < D m | (i < D m - d)%N) l m i i <=
  \sum_(c <- cfgs q N 0) `|amplitude N A c - \sum_k x k (take m c) * y k (drop m c)| ^+ 2.
Proof.
have [hl hr] := ud; have mk : (m + (N - m))%N = N by rewrite subnKC.
pose u0 : 'I_(D 0) := cast_ord (esym D0) ord0; pose v0 : 'I_(D N) := cast_ord (esym DN) ord0.
have uniq0 p (e : p = 1%N) (F : 'I_p -> C) : \sum_i F i = F (cast_ord (esym e) ord0).
  by move: F; subst p => F; rewrite big_ord1 cast_ord_id.
pose s1 := cfgs q m 0; pose s2 := cfgs q (N - m) m.
pose a : 'M[C]_(size s1, D m) := \matrix_(i, k) amp A m 0 (nth [::] s1 i) u0 k.
pose b : 'M[C]_(D m, size s2) := \matrix_(k, j) amp A N m (nth [::] s2 j) k v0.
pose X : 'M[C]_(size s1, d) := \matrix_(i, k) x k (nth [::] s1 i).
pose Y : 'M[C]_(d, size s2) := \matrix_(k, j) y k (nth [::] s2 j).
have aa : a^† *m a = diag_mx (\row_i l m i i).
  apply/matrixP=> i j; rewrite [RHS]mxE [X in _ = X *+ _]mxE.
  have -> : l m i i *+ (i == j) = l m i j by case: eqVneq => [->|/ldiag->].
  rewrite (lE hl mN) summxE (big_nth [::]) big_mkord [LHS]mxE; apply: eq_bigr => c _.
  by rewrite mulmx1 adjE !mxE (uniq0 _ D0) adjE.
have bb : b *m b^† = 1%:M.
  rewrite -r1; apply/matrixP=> i j; rewrite (rE hr mk) summxE (big_nth [::]) big_mkord [LHS]mxE; apply: eq_bigr => c _.
  by rewrite mulmx1 adjE !mxE (uniq0 _ DN) adjE.
apply: le_trans (best_factor (lam := fun i => l m i i) X Y bb aa lasc) _.
rewrite le_eqVlt; apply/orP; left; apply/eqP.
have -> : cfgs q N 0 = cfgs q (m + (N - m)) 0 by rewrite mk.
rewrite sum_cfgs_cat addn0 (big_nth [::]) big_mkord; apply: eq_bigr => i _.
rewrite (big_nth [::]) big_mkord; apply: eq_bigr => j _.
have h1 : size (nth [::] s1 i) = m by apply: (@size_cfgs q m 0); apply: mem_nth.
rewrite take_size_cat // drop_size_cat // /amplitude (entry0_1 _ D0 DN) /psi (amp_cat _ _ _ (p := m)) //.
rewrite normCK [RHS]mulrC.
have -> : (a *m b - X *m Y) i j =
    (amp A m 0 (nth [::] s1 i) *m amp A N m (nth [::] s2 j)) u0 v0 - \sum_k x k (nth [::] s1 i) * y k (nth [::] s2 j).
  rewrite [LHS]mxE [X in _ + X]mxE; congr (_ - _); rewrite [LHS]mxE ?[RHS]mxE; by apply: eq_bigr => k _; rewrite !mxE.
by [].
Qed.

(* every matrix product state whose bond between sites m and m+1 is not larger *)
Theorem C70_state_bound (DB : nat -> nat) (B : tensors C DB) d :
  DB 0%N = 1%N -> DB N = 1%N -> (DB m <= d)%N ->
  \sum_(i < D m | (i < D m - d)%N) l m i i <=
  \sum_(c <- cfgs q N 0) `|amplitude N A c - amplitude N B c| ^+ 2.
Proof.
move=> B0 BN Bd; have [hl _] := ud.
have nn i : 0 <= l m i i by exact: psd_diag_ge0 (l_psd hl mN).
pose x (k : 'I_(DB m)) c := amp B m 0 c (cast_ord (esym B0) ord0) k.
pose y (k : 'I_(DB m)) c := amp B N m c k (cast_ord (esym BN) ord0).
apply: (@le_trans _ _ (\sum_(i < D m | (i < D m - DB m)%N) l m i i)).
  rewrite big_mkcond [X in _ <= X]big_mkcond; apply: ler_sum => i _.
  case: ifP => h; last by case: ifP.
  by have -> : (i < D m - DB m)%N by lia.
apply: le_trans (C70_rank_bound x y) _; rewrite le_eqVlt; apply/orP; left; apply/eqP.
apply: eq_big_seq => c hc; congr (`|_ - _| ^+ 2).
have sz := size_cfgs hc.
rewrite /amplitude (entry0_1 _ B0 BN) /psi -[in RHS](cat_take_drop m c) (amp_cat _ _ _ (p := m)) ?size_takel ?sz //.
by rewrite mxE.
Qed.
End State.

(* truncating one bond of a state in right canonical form gives the closest state with that bond dimension *)
Theorem C70_single_bond_optimal (C : numClosedFieldType) (D D' q DB : nat -> nat) N m
    (A : tensors C D) (A' : tensors C D') (B : tensors C DB) (l r : forall n, 'M[C]_(D n)) :
  truncate D' N A = Some A' -> up_to_date q A N l r -> D 0%N = 1%N -> D N = 1%N -> (0 < m < N)%N ->
  (forall n, n != m -> D' n = D n) -> r m = 1%:M ->
  (forall i j, i != j -> l m i j = 0) -> (forall i j : 'I_(D m), (i <= j)%N -> l m i i <= l m j j) ->
  DB 0%N = 1%N -> DB N = 1%N -> (DB m <= D' m)%N ->
  \sum_(c <- cfgs q N 0) `|amplitude N A c - amplitude N A' c| ^+ 2 <=
  \sum_(c <- cfgs q N 0) `|amplitude N A c - amplitude N B c| ^+ 2.
Proof.
move=> tr ud D0 DN hm eqD rm ld la B0 BN Bd.
have [-> _] := C21_single_bond_error tr ud D0 DN hm eqD rm.
by apply: (C70_state_bound ud) => //; case/andP: hm => _ /ltnW.
Qed.

(* truncating all bonds: within a factor 2 (N - 1) of the best state with these bond dimensions *)
Theorem C70_quasi_optimal (C : numClosedFieldType) (D D' q DB : nat -> nat) N
    (A : tensors C D) (A' : tensors C D') (B : tensors C DB) (l : forall n, 'M[C]_(D n)) :
  truncate D' N A = Some A' -> up_l q A N 1%:M l ->
  D 0%N = 1%N -> D N = 1%N -> D' 0%N = 1%N -> D' N = 1%N ->
  (forall n (i j : 'I_(D n)), (n <= N)%N -> i != j -> l n i j = 0) ->
  (forall n (i j : 'I_(D n)), (n <= N)%N -> (i <= j)%N -> l n i i <= l n j j) ->
  (forall n, (n < N)%N -> \sum_(s < q n) A n s *m (A n s)^† = 1%:M) ->
  DB 0%N = 1%N -> DB N = 1%N -> (forall n, (n < N)%N -> (DB n <= D' n)%N) ->
  \sum_(c <- cfgs q N 0) `|amplitude N A c - amplitude N A' c| ^+ 2 <=
  (2 * N.-1)%:R * \sum_(c <- cfgs q N 0) `|amplitude N A c - amplitude N B c| ^+ 2.
Proof.
move=> tr hl D0 DN D'0 D'N ld la rt B0 BN Bd.
apply: le_trans (C21_error_bound tr hl D0 DN D'0 D'N ld rt) _.
set err := \sum_(c <- cfgs q N 0) _.
case: N tr hl D0 DN D'0 D'N ld la rt B0 BN Bd @err => [|n] tr hl D0 DN D'0 D'N ld la rt B0 BN Bd err.
  by rewrite big_geq // mul0rn mul0r.
rewrite big_nat_recr //= [X in _ + X]big_pred0 => [|i]; last first.
  have e : (D n.+1 - D' n.+1 = 0)%N by rewrite DN D'N.
  by rewrite e.
rewrite addr0 natrM -mulrA mulr_natl; apply: ler_wmuln2r.
pose r p : 'M[C]_(D p) := 1%:M.
have hr : up_r q A n.+1 1%:M r.
  by split=> // p nN; rewrite /r -(rt p nN); apply: eq_bigr => s _; rewrite mulmx1.
have -> : n%:R * err = \sum_(1 <= k < n.+1) err by rewrite sumr_const_nat subn1 mulr_natl.
rewrite big_nat [X in _ <= X]big_nat; apply: ler_sum => k /andP[k0 kn].
apply: (@C70_state_bound _ _ _ _ _ A l r) => //.
- by move: kn; lia.
- by move=> i j; apply: ld; lia.
- by move=> i j; apply: la; lia.
- by apply: Bd; lia.
Qed.

(* restore_RCF() of an arbitrary state followed by truncate(): the result approximates the normalised state within a
   factor 2 (N - 1) of the best possible *)
Theorem C70_restore_and_truncate (C : numClosedFieldType) (D D' q DB : nat -> nat) N (A : tensors C D) A' (B : tensors C DB)
    (qr : qr_routine C) (eigh : eigh_routine C) :
  qr_contract qr -> eigh_contract eigh -> eigh_unit1 eigh -> open_chain N D q -> norm2 q N A != 0 ->
  truncate D' N (RCF_A2 q A qr eigh N true) = Some A' -> D' 0%N = 1%N -> D' N = 1%N ->
  DB 0%N = 1%N -> DB N = 1%N -> (forall n, (n < N)%N -> (DB n <= D' n)%N) ->
  forall nrm, nrm = sqrtC (norm2 q N A) ->
  \sum_(c <- cfgs q N 0) `|amplitude N A c / nrm - amplitude N A' c| ^+ 2 <=
  (2 * N.-1)%:R * \sum_(c <- cfgs q N 0) `|amplitude N A c / nrm - amplitude N B c| ^+ 2.
Proof.
move=> qrP eighP e1 ch nz tr D'0 D'N B0 BN Bd nrm nE; have nz' : true -> norm2 q N A != 0 by [].
have [N0 D0 DN Dp qp] := ch; set A1 := RCF_A2 _ _ _ _ _ _ in tr.
have E c : c \in cfgs q N 0 -> amplitude N A c / nrm = amplitude N A1 c.
  by move=> hc; rewrite (C18_amplitudes_exact qrP eighP ch nz') // mulrC nE.
have Ed X : \sum_(c <- cfgs q N 0) `|amplitude N A c / nrm - X c| ^+ 2 = \sum_(c <- cfgs q N 0) `|amplitude N A1 c - X c| ^+ 2.
  by apply: eq_big_seq => c hc; rewrite E.
rewrite (Ed (amplitude N A')) (Ed (amplitude N B)) {E Ed}.
have [hl hr] := C18_up_to_date qrP eighP ch nz'.
have D0' : RCF_D D q N 0 = 1%N by apply: RCF_D_0.
have one0 (i j : 'I_(RCF_D D q N 0)) : i = j.
  by apply: val_inj => /=; case: i j => [i hi] [j hj] /=; rewrite D0' in hi hj; lia.
have key := @C70_quasi_optimal _ _ _ _ _ _ _ _ B _ tr hl.
apply: key => //.
- exact: RCF_D_N.
- case=> [|n] i j nN ne; first by case/eqP: ne; exact: one0.
  have [d hd _] := C18_l_diagonal qrP eighP ch nz' (n := n.+1) nN.
  by rewrite hd mxE (negbTE ne).
- case=> [|n] i j nN ij; first by rewrite (one0 i j).
  have [d hd [_ hs]] := C18_l_diagonal qrP eighP ch nz' (n := n.+1) nN.
  by rewrite hd !mxE !eqxx !mulr1n hs.
- move=> n nN; have [_ /(_ n nN)] := hr; rewrite !C17_r_identity // !andbF => h.
  by rewrite [RHS]h; apply: eq_bigr => s _; rewrite mulmx1.
Qed.
Print Assumptions C70_split_optimal.
Print Assumptions C70_rank_bound.
Print Assumptions C70_state_bound.
Print Assumptions C70_single_bond_optimal.
Print Assumptions C70_quasi_optimal.
Print Assumptions C70_restore_and_truncate.

(* non-vacuity: |00> + 2 |11> truncated to bond dimension 1 is 2 |11>, at squared distance 1, and no product state is
   closer *)
Section C70Example.
Variable C : numClosedFieldType.
Definition skew (n s : nat) : 'M[C]_(bellD n, bellD n.+1) :=
  if n == 0%N then \matrix_(i, j) (if s == j :> nat then j.+1%:R else 0) else \matrix_(i, j) (s == i :> nat)%:R.

Example C70_example (B : tensors C one) : exists A', [/\ truncate one 2 (skew : tensors C bellD) = Some A',
    \sum_(c <- cfgs two 2 0) `|amplitude 2 (skew : tensors C bellD) c - amplitude 2 A' c| ^+ 2 = 1
  & 1 <= \sum_(c <- cfgs two 2 0) `|amplitude 2 (skew : tensors C bellD) c - amplitude 2 B c| ^+ 2].
Proof.
pose l := calc_l two (skew : tensors C bellD) (fun n => 1%:M) 0 2.
pose r := calc_r two (skew : tensors C bellD) (fun n => 1%:M) 0 2.
have hl : up_l two (skew : tensors C bellD) 2 1%:M l by exact: calc_l_up.
have hr : up_r two (skew : tensors C bellD) 2 1%:M r by exact: calc_r_up.
have lE1 (i j : 'I_2) : l 1%N i j = (i.+1 ^ 2)%:R *+ (i == j).
  have [l0 /(_ 0%N isT) ->] := hl; rewrite l0 /eps_l_noop !big_ord_recl big_ord0 addr0 !mul1mx mxE !mxE.
  rewrite !big_ord1 !mxE /=.
  by case: i j => [[|[|//]] hi] [[|[|//]] hj] /=; rewrite ?conjC0 ?mul0r ?mulr0 ?addr0 ?add0r ?conjC1 ?mulr1 ?conjC_nat -?natrM.
have r1 : r 1%N = 1%:M.
  have [r2 /(_ 1%N isT) ->] := hr; rewrite r2; apply/matrixP=> i j.
  rewrite /eps_r_noop !big_ord_recl big_ord0 addr0 ?mulmx1 ?mul1mx mxE !mxE !big_ord1 !mxE /=.
  by case: i j => [[|[|//]] hi] [[|[|//]] hj] /=; rewrite ?conjC0 ?mul0r ?mulr0 ?addr0 ?add0r ?conjC1 ?mulr1.
have ld (i j : 'I_(bellD 1)) : i != j -> l 1%N i j = 0 by move=> ne; rewrite lE1 (negbTE ne).
have la (i j : 'I_(bellD 1)) : (i <= j)%N -> l 1%N i i <= l 1%N j j.
  by move=> ij; rewrite !lE1 !eqxx !mulr1n ler_nat leq_exp2r.
have tr : truncate one 2 (skew : tensors C bellD) = Some (trunc_A one (skew : tensors C bellD)) by [].
have sum1 : \sum_(i < bellD 1 | (i < bellD 1 - one 1)%N) l 1%N i i = 1.
  by rewrite big_mkcond !big_ord_recl big_ord0 /= lE1 eqxx !addr0.
exists (trunc_A one (skew : tensors C bellD)); split=> //.
  have eqD n : n != 1%N -> one n = bellD n by rewrite /bellD => /negbTE->.
  by have [-> _] := C21_single_bond_error tr (conj hl hr) erefl erefl (isT : (0 < 1 < 2)%N) eqD r1.
rewrite -{1}sum1; apply: (@C70_state_bound C bellD two 2 1 skew l r (conj hl hr) erefl erefl isT r1 ld la one B 1 erefl erefl isT).
Qed.
End C70Example.
