(* P03_Init.v -- property theorems: constructor, initial state, product states (C14-C16, C56). *)
From mathcomp Require Import all_ssreflect all_algebra all_field zify.
From Verif Require Import Base Spec Eps Chain ChainProofs ChainProofs2 Init Witness.
Set Implicit Arguments.
Unset Strict Implicit.
Unset Printing Implicit Defensive.
Import Order.TTheory GRing.Theory Num.Theory.

(* ---- C14 ---------------------------------------------------------------- *)
(* D, q with Python indices 0..N; q 0 is ignored *)
Theorem C14_correct_bond_dim_exact (N : nat) (D q : nat -> nat) n :
  (forall i, 1 <= i <= N -> 0 < q i) -> n <= N ->
  correct_bond_dim N q D n =
  if (0 < n) && (n < N)
  then minn (D n) (minn (\prod_(1 <= i < n.+1) q i) (\prod_(n.+1 <= i < N.+1) q i))
  else 1.
Proof. by move=> q0 nN; rewrite correct_bond_dimE. Qed.
Print Assumptions C14_correct_bond_dim_exact.

(* applying the correction twice changes nothing *)
Theorem C14_correct_bond_dim_idempotent (N : nat) (D q : nat -> nat) n :
  (forall i, 1 <= i <= N -> 0 < q i) -> n <= N ->
  correct_bond_dim N q (correct_bond_dim N q D) n = correct_bond_dim N q D n.
Proof.
move=> q0 nN; have h := fun D => C14_correct_bond_dim_exact D q0 nN.
rewrite (h (correct_bond_dim N q D)) !h; case: ifP => // hc; rewrite ?hc.
move: (D n) (\prod_(1 <= i < n.+1) q i)%N (\prod_(n.+1 <= i < N.+1) q i)%N => a b c; lia.
Qed.
Print Assumptions C14_correct_bond_dim_idempotent.

Example C14_example :
  [seq correct_bond_dim 5 (fun=> 2) (fun=> 100) n | n <- iota 0 6] = [:: 1; 2; 4; 4; 2; 1] /\
  [seq correct_bond_dim 4 (fun=> 3) (nth 0 [:: 7; 2; 50; 5; 9]) n | n <- iota 0 5] = [:: 1; 2; 9; 3; 1].
Proof.
split; rewrite /= !C14_correct_bond_dim_exact //=.
- by rewrite unlock.
- by rewrite unlock.
Qed.

(* ---- C15 ---------------------------------------------------------------- *)
Local Open Scope ring_scope.

(* initialize_state raises IndexError exactly if some bond dimension changes by more than a factor q *)
Theorem C15_no_error_iff (C : numClosedFieldType) N (D q : nat -> nat) :
  (forall n, (n <= N)%N -> (0 < D n)%N) -> (forall n, (n < N)%N -> (0 < q n)%N) ->
  initialize_state C N D q <> None <->
  (forall n, (n < N)%N -> (D n <= q n * D n.+1)%N /\ (D n.+1 <= q n * D n)%N).
Proof. exact: initialize_state_ok. Qed.
Print Assumptions C15_no_error_iff.

Theorem C15_norm_one (C : numClosedFieldType) N (D q : nat -> nat) (A : tensors C D) :
  initialize_state C N D q = Some A -> D 0%N = 1%N -> D N = 1%N ->
  (forall n, (n <= N)%N -> (0 < D n)%N) -> (forall n, (n < N)%N -> (0 < q n)%N) ->
  (forall n, (n < N)%N -> (D n <= D n.+1)%N || (D n == q n * D n.+1)%N) ->
  dotst q N (psi A N) (psi A N) = 1.
Proof.
move=> hA D1 DN D0 q0 hD.
pose l := calc_l q A (fun n => 1%:M) 0 N; pose r := calc_r q A (fun n => 1%:M) 0 N.
have [hl hr] : up_to_date q A N l r by apply: calc_lr_up_to_date.
rewrite -(norm_cut_calc (l := fun n => 1%:M) (r := fun n => 1%:M) q A erefl erefl (leqnn N)).
rewrite -/l -/r (init_l_one hA D0 q0 hD hl) // hr.1 entry0_adot //.
by rewrite (entry0_1 _ DN DN) mxE eqxx conjC1 mulr1.
Qed.
Print Assumptions C15_norm_one.

(* "full rank": both environments are positive diagonal matrices at every bond *)
Theorem C15_full_rank (C : numClosedFieldType) N (D q : nat -> nat) (A : tensors C D)
    (l r : forall n, 'M[C]_(D n)) :
  initialize_state C N D q = Some A ->
  (forall n, (n <= N)%N -> (0 < D n)%N) -> (forall n, (n < N)%N -> (0 < q n)%N) ->
  up_to_date q A N l r -> forall n, (n <= N)%N -> l n \in unitmx /\ r n \in unitmx.
Proof.
move=> hA D0 q0 h n nN; have [hl hr] := init_posdiag hA D0 q0 h nN.
by split; apply: posdiag_unit.
Qed.
Print Assumptions C15_full_rank.

(* norm 1 fails when a bond shrinks by less than a factor q: D = [1,2,1], q = 4 (this D is left
   unchanged by the constructor) *)
Definition D121 (n : nat) : nat := nth 1%N [:: 1; 2; 1]%N n.
Theorem C15_norm_one_refuted :
  (forall n, (n <= 2)%N -> correct_bond_dim 2 (fun=> 4%N) D121 n = D121 n) /\
  exists2 A : tensors Cx D121, initialize_state Cx 2 D121 (fun=> 4%N) = Some A &
    dotst (fun=> 4%N) 2 (psi A 2) (psi A 2) = 2%:R^-1.
Proof.
split.
  move=> n n2; rewrite C14_correct_bond_dim_exact //; case: n n2 => [|[|[|]]] //= _.
  by rewrite !big_nat1.
have D0 n : (n <= 2)%N -> (0 < D121 n)%N by case: n => [|[|[|]]].
case e : (initialize_state Cx 2 D121 (fun=> 4%N)) => [A|]; last first.
  have /(C15_no_error_iff Cx D0 (q := fun=> 4%N)) : forall n, (n < 2)%N -> (0 < 4)%N by [].
  by case=> _ h; case: h => // -[|[|]].
exists A => //.
pose l := calc_l (fun=> 4%N) A (fun n => 1%:M) 0 2; pose r := calc_r (fun=> 4%N) A (fun n => 1%:M) 0 2.
have [hl hr] : up_to_date (fun=> 4%N) A 2 l r by apply: calc_lr_up_to_date.
rewrite -(norm_cut_calc (l := fun n => 1%:M) (r := fun n => 1%:M) (fun=> 4%N) A erefl erefl (leqnn 2)).
rewrite -/l -/r hr.1 entry0_adot //.
have P n : (n < 2)%N -> _ := initialize_stateP e D0 (fun _ _ => isT : (0 < 4)%N) (n := n).
have [a1 b1 e0] := P 0%N isT; have [a2 b2 e1] := P 1%N isT.
have l1 : l 1%N = 1%:M by rewrite hl.2 // hl.1 e0 init_l_id.
have -> : l 2%N = (2%:R^-1)%:M.
  have i1 : (1%:M : 'M[Cx]_(D121 1)) = diag_mx (const_mx 1) by rewrite diag_const_mx.
  rewrite hl.2 // l1 e1 i1.
  rewrite init_l_diag // -[(2%:R^-1)%:M]diag_const_mx; congr diag_mx; apply/rowP => y; rewrite !mxE.
  rewrite ord1 !big_ord_recl !big_ord0 /= !mxE /=.
  rewrite !(mul0r, mul1r, mulr1, addr0, add0r).
  rewrite -mulr2n -[4%N]/(2 * 2)%N natrM invfM -mulr_natl mulrA divff ?mul1r //.
  by rewrite pnatr_eq0.
rewrite !(entry0_1 _ (erefl 1%N) (erefl 1%N)) !cast_ord_id !mxE eqxx mulr1 !mulr1n.
by rewrite fmorphV conjC_nat.
Qed.
Print Assumptions C15_norm_one_refuted.

(* the constructor can raise IndexError: N = 4, q = 2, requested D = [1,1,4,2,1] passes the
   bond-dimension correction unchanged, but grows by a factor 4 > q at site 2 *)
Definition D11421 (n : nat) : nat := nth 1%N [:: 1; 1; 4; 2; 1]%N n.
Theorem C15_constructor_raises_refuted (C : numClosedFieldType) :
  (forall n, (n <= 4)%N -> correct_bond_dim 4 two D11421 n = D11421 n) /\
  initialize_state C 4 D11421 two = None.
Proof.
split; last by [].
move=> n n4; rewrite C14_correct_bond_dim_exact //; case: n n4 => [|[|[|[|[|]]]]] //= _;
  by rewrite unlock.
Qed.
Print Assumptions C15_constructor_raises_refuted.

(* full bond dimensions 1,2,4,2,1 for q = 2 satisfy the hypotheses of C15_norm_one *)
Definition D12421 (n : nat) : nat := nth 1%N [:: 1; 2; 4; 2; 1]%N n.
Example C15_example : exists2 A : tensors Cx D12421,
  initialize_state Cx 4 D12421 two = Some A & dotst two 4 (psi A 4) (psi A 4) = 1.
Proof.
have D0 n : (n <= 4)%N -> (0 < D12421 n)%N by case: n => [|[|[|[|[|]]]]].
case e : (initialize_state Cx 4 D12421 two) => [A|]; last first.
  have [_ h] := C15_no_error_iff Cx D0 (fun _ _ => isT : (0 < 2)%N) (q := two).
  by case: h => // -[|[|[|[|]]]].
exists A => //; apply: (C15_norm_one e) => //; by case=> [|[|[|[|]]]].
Qed.

(* ---- C16 ---------------------------------------------------------------- *)
(* qp: the Python array self.q (entry 0 ignored by the constructor) *)
Theorem C16_product_state_exact (C : numClosedFieldType) N (D qp : nat -> nat) (phi : nat -> seq C)
    (A : tensors C D) c :
  set_state_product N D qp phi = Some A -> D 0%N = 1%N -> D N = 1%N ->
  (forall n, (n <= N)%N -> (0 < D n)%N) -> (forall n, (n < N)%N -> qp n = qp n.+1) ->
  c \in cfgs (fun n => qp n.+1) N 0 ->
  amplitude N A c = \prod_(i < N) nth 0 (phi i) (nth 0%N c i).
Proof. exact: set_state_productE. Qed.
Print Assumptions C16_product_state_exact.

Theorem C16_no_error (C : numClosedFieldType) N (D qp : nat -> nat) (phi : nat -> seq C) :
  (forall n, (n <= N)%N -> (0 < D n)%N) ->
  (forall n, (n < N)%N -> qp n <= qp n.+1 /\ qp n <= size (phi n))%N ->
  exists A, set_state_product N D qp phi = Some A.
Proof.
move=> D0 hq; rewrite /set_state_product; case: ifP => [_|/negbT/allPn[n]]; first by eexists.
rewrite mem_iota add0n => nN /allPn[s]; rewrite mem_iota add0n => sq.
have [a b] := hq _ nN; rewrite /= in sq.
by rewrite (leq_trans sq a) (leq_trans sq b) !D0 //; apply: ltnW.
Qed.
Print Assumptions C16_no_error.

(* q[0] = 0, as set by set_state_from_tensors and mps_from_tensors_gen: the state becomes zero *)
Theorem C16_q0_zero_refuted (C : numClosedFieldType) N (D qp : nat -> nat) (phi : nat -> seq C)
    (A : tensors C D) c :
  set_state_product N.+1 D qp phi = Some A -> qp 0%N = 0%N -> size c = N.+1 ->
  amplitude N.+1 A c = 0.
Proof. exact: set_state_product_q0. Qed.
Print Assumptions C16_q0_zero_refuted.

(* a site with a smaller physical dimension than its left neighbour: IndexError *)
Theorem C16_decreasing_q_raises_refuted (C : numClosedFieldType) N (D qp : nat -> nat) (phi : nat -> seq C) n :
  (n < N)%N -> (qp n.+1 < qp n)%N -> set_state_product N D qp phi = None.
Proof. exact: set_state_product_err. Qed.
Print Assumptions C16_decreasing_q_raises_refuted.

Example C16_example : exists2 A : tensors Cx D121,
  set_state_product 2 D121 two (fun _ => [:: 2%:R; 3%:R]) = Some A &
  amplitude 2 A [:: 0; 1]%N = 6%:R.
Proof.
have D0 n : (n <= 2)%N -> (0 < D121 n)%N by case: n => [|[|[|]]].
have [|A e] := @C16_no_error Cx 2 D121 two (fun _ => [:: 2%:R; 3%:R]) D0; first by [].
exists A => //; rewrite (C16_product_state_exact e) //.
by rewrite !big_ord_recl big_ord0 /= mulr1 -natrM.
Qed.

(* ---- C56 ---------------------------------------------------------------- *)
(* mps_from_tensors_gen accepts exactly the tensor lists whose bond dimensions do not exceed the
   Hilbert-space bounds and never change by more than a factor q; it then keeps the tensors *)
Theorem C56_from_tensors_exact (C : numClosedFieldType) N (D q : nat -> nat) (A : tensors C D) :
  (forall n, (n <= N)%N -> (0 < D n)%N) -> (forall n, (n < N)%N -> (0 < q n)%N) ->
  let Qle n := (n == 0%N) || (n == N) || (D n <= minn (\prod_(0 <= i < n) q i) (\prod_(n <= i < N) q i))%N in
  mps_from_tensors N q A =
  if [&& D 0%N == 1%N, D N == 1%N, all Qle (iota 0 N.+1) &
      all (fun n => (D n <= q n * D n.+1)%N && (D n.+1 <= q n * D n)%N) (iota 0 N)]
  then Some A else None.
Proof.
move=> D0 q0 Qle; rewrite /mps_from_tensors; set D' := correct_bond_dim _ _ _.
have q0' i : (1 <= i <= N)%N -> (0 < q i.-1)%N by move=> h; apply: q0; lia.
have QlE n : (\prod_(1 <= i < n.+1) q i.-1 = \prod_(0 <= i < n) q i)%N by rewrite big_add1.
have QrE n : (\prod_(n.+1 <= i < N.+1) q i.-1 = \prod_(n <= i < N) q i)%N by rewrite big_add1.
have hD' n : (n <= N)%N -> D' n = if ((0 < n) && (n < N))%N
    then minn (D n) (minn (\prod_(0 <= i < n) q i) (\prod_(n <= i < N) q i)) else 1%N.
  by move=> nN; rewrite /D' C14_correct_bond_dim_exact // QlE QrE.
have eqD : all (fun n => D' n == D n) (iota 0 N.+1) = [&& D 0%N == 1%N, D N == 1%N & all Qle (iota 0 N.+1)].
  apply/allP/and3P => [h|[/eqP h0 /eqP hN /allP hQ] n].
    split.
    - by have := h 0%N; rewrite mem_iota hD' // ltnn /= eq_sym; apply.
    - by have := h N; rewrite mem_iota hD' // ltnn andbF add0n ltnS leqnn eq_sym; apply.
    - apply/allP => n hn; have nN : (n <= N)%N by rewrite mem_iota add0n ltnS in hn.
      have := h n hn; rewrite hD' // /Qle.
      have [->|n0] //= := eqVneq n 0%N; have [->|nn] //= := eqVneq n N.
      rewrite lt0n n0 ltn_neqAle nn nN /= => /eqP <-.
      by rewrite geq_minr.
  move=> hn; have nN : (n <= N)%N by rewrite mem_iota add0n ltnS in hn.
  rewrite hD' //; have [->|n0] := eqVneq n 0%N; first by rewrite h0.
  have [->|nn] := eqVneq n N; first by rewrite ltnn andbF hN.
  have := hQ n hn; rewrite /Qle (negbTE n0) (negbTE nn) /= lt0n n0 ltn_neqAle nn nN /= => h.
  by rewrite (minn_idPl h).
set b2 := all _ (iota 0 N); set E := all _ _ in eqD *.
have -> : [&& D 0%N == 1%N, D N == 1%N, all Qle (iota 0 N.+1) & b2] = E && b2 by rewrite eqD -!andbA.
case e1 : E; last by case: (initialize_state _ _ _ _).
have {}eqD n : (n <= N)%N -> D' n = D n.
  by move=> nN; move/allP: e1 => /(_ n); rewrite mem_iota add0n ltnS nN => /(_ isT)/eqP.
have D0' n : (n <= N)%N -> (0 < D' n)%N by move=> nN; rewrite eqD // D0.
have ok := initialize_state_ok C D0' q0.
rewrite /=.
case: (initialize_state C N D' q) ok => [A'|] [ok1 ok2].
  have -> // : b2.
  apply/allP => n; rewrite mem_iota add0n => nN; have := ok1 _ n nN.
  by rewrite !eqD //; [case=> // -> -> | exact: ltnW].
case: ifP => // /allP h; case: ok2 => // n nN; have := h n; rewrite mem_iota add0n => /(_ nN)/andP.
by rewrite !eqD //; exact: ltnW.
Qed.
Print Assumptions C56_from_tensors_exact.

(* a perfectly valid MPS (q = 2, N = 2, bond dimension 3) is rejected with a shape error *)
Definition D131 (n : nat) : nat := nth 1%N [:: 1; 3; 1]%N n.
Theorem C56_over_complete_rejected_refuted (C : numClosedFieldType) (A : tensors C D131) :
  mps_from_tensors 2 two A = None.
Proof.
rewrite C56_from_tensors_exact //=; last by case=> [|[|[|]]].
by rewrite !big_nat1 /=.
Qed.
Print Assumptions C56_over_complete_rejected_refuted.
