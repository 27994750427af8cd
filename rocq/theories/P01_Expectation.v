(* P01_Expectation.v -- property theorems: norms, environments and local
   expectation values of the finite chain (C01-C05, C24). *)
From mathcomp Require Import all_ssreflect all_algebra all_field.
From mathcomp.real_closed Require Import mxtens.
From Verif Require Import Base Spec Eps Chain ChainProofs ChainProofs2 Multi Witness.
Set Implicit Arguments.
Unset Strict Implicit.
Unset Printing Implicit Defensive.
Import GRing.Theory Num.Theory.
Local Open Scope ring_scope.

(* calc_l() and calc_r() with default arguments make the arrays up to date, whatever
   the arrays held before, provided the boundary entries are the identity *)
Theorem C01_calc_lr_up_to_date (C : numClosedFieldType) (D q : nat -> nat) (A : tensors C D) N
    (l r : forall n, 'M[C]_(D n)) :
  l 0%N = 1%:M -> r N = 1%:M ->
  up_to_date q A N (calc_l q A l 0 N) (calc_r q A r 0 N).
Proof. exact: calc_lr_up_to_date. Qed.
Print Assumptions C01_calc_lr_up_to_date.

Theorem C01_norm_at_every_cut (C : numClosedFieldType) (D q : nat -> nat) (A : tensors C D) N
    (l r : forall n, 'M[C]_(D n)) n :
  l 0%N = 1%:M -> r N = 1%:M -> (n <= N)%N ->
  adot (calc_l q A l 0 N n) (calc_r q A r 0 N n) = dotst q N (psi A N) (psi A N).
Proof. exact: norm_cut_calc. Qed.
Print Assumptions C01_norm_at_every_cut.

(* partial updates: recomputing l from bond lo on, or r below bond hi, suffices when the rest is
   up to date (this is how calc_l(n_low=..), calc_r(n_high=..) are used after a change of one site) *)
Theorem C01_partial_recalculation (C : numClosedFieldType) (D q : nat -> nat) (A : tensors C D) N
    (l r : forall n, 'M[C]_(D n)) lo hi : (lo <= N)%N -> (hi <= N)%N ->
  l 0%N = 1%:M -> (forall n, (n < lo)%N -> l n.+1 = eps_l_noop (q n) (l n) (A n) (A n)) ->
  r N = 1%:M -> (forall n, (hi <= n < N)%N -> r n = eps_r_noop (q n) (r n.+1) (A n) (A n)) ->
  up_to_date q A N (calc_l q A l lo (N - lo)) (calc_r q A r 0 hi).
Proof.
by move=> h1 h2 h3 h4 h5 h6; split; [apply: calc_l_partial | apply: calc_r_partial].
Qed.
Print Assumptions C01_partial_recalculation.

(* the hypotheses are met and the conclusion is not trivial: the Bell chain has squared norm 2 *)
Example C01_example (l r : forall n, 'M[Cx]_(bellD n)) n :
  l 0%N = 1%:M -> r 2%N = 1%:M -> (n <= 2)%N ->
  adot (calc_l two bell l 0 2 n) (calc_r two bell r 0 2 n) = 2%:R.
Proof.
move=> l0 r2 n2; rewrite norm_cut_calc //.
have -> : dotst two 2 (psi (bell : tensors Cx bellD) 2) (psi (bell : tensors Cx bellD) 2) =
  \sum_(c <- cfgs two 2 0) (amplitude 2 (bell : tensors Cx bellD) c)^* *
                              amplitude 2 (bell : tensors Cx bellD) c.
  by apply: eq_bigr => c _; rewrite -/(adot _ _) entry0_adot.
rewrite /= !big_cons big_nil !bell_amplitude /= conjC1 conjC0 !mul0r !mul1r !add0r addr0.
by rewrite -natrD.
Qed.

Theorem C02_environments_hermitian_positive (C : numClosedFieldType) (D q : nat -> nat)
    (A : tensors C D) N (l r : forall n, 'M[C]_(D n)) n :
  l 0%N = 1%:M -> r N = 1%:M -> (n <= N)%N ->
  let l' := calc_l q A l 0 N n in let r' := calc_r q A r 0 N n in
  [/\ forall i j, l' i j = (l' j i)^*,
      forall i j, r' i j = (r' j i)^*,
      forall v : 'cV[C]_(D n), 0 <= \sum_i \sum_j (v i 0)^* * l' i j * v j 0,
      forall v : 'cV[C]_(D n), 0 <= \sum_i \sum_j (v i 0)^* * r' i j * v j 0
    & 0 <= adot l' r'].
Proof.
move=> l0 rN nN; rewrite /=.
have [hl hr] := calc_lr_up_to_date q A l0 rN.
have hv (X : 'M[C]_(D n)) (v : 'cV[C]_(D n)) :
    \sum_i \sum_j (v i 0)^* * X i j * v j 0 = adot v (X *m v).
  rewrite /adot; apply: eq_bigr => i _; rewrite big_ord1 mxE mulr_sumr.
  by apply: eq_bigr => j _; rewrite mulrA.
split.
- by move=> i j; rewrite -[in LHS](l_herm hl nN) adjE.
- by move=> i j; rewrite -[in LHS](r_herm hr nN) adjE.
- by move=> v; rewrite hv; apply: l_psd hl nN v.
- by move=> v; rewrite hv; apply: r_psd hr nN v.
- rewrite norm_cut_calc //; apply: sumr_ge0 => c _; exact: adot_ge0.
Qed.
Print Assumptions C02_environments_hermitian_positive.

Theorem C03_expect_1s_exact (C : numClosedFieldType) (D q : nat -> nat) (A : tensors C D) N
    (l r : forall n, 'M[C]_(D n)) (op : op1s C) n :
  up_to_date q A N l r -> (n < N)%N ->
  expect_1s q A l r op n = dotst q N (psi A N) (op1 q n op (psi A N)).
Proof. by case=> hl hr nN; rewrite (expect_1sE hl hr) // bdotst1. Qed.
Print Assumptions C03_expect_1s_exact.

Theorem C03_expect_1s_real (C : numClosedFieldType) (D q : nat -> nat) (A : tensors C D) N
    (l r : forall n, 'M[C]_(D n)) (op : op1s C) n :
  up_to_date q A N l r -> (n < N)%N -> herm_op1 op ->
  expect_1s q A l r op n \is Num.real.
Proof.
move=> h nN ho; rewrite (C03_expect_1s_exact _ h nN).
have -> : dotst q N (psi A N) (op1 q n op (psi A N)) =
    dotst q N (psi A N) (opwin q n 1 (fun c d => op (nth 0%N c 0) (nth 0%N d 0)) (psi A N)).
  by apply: eq_sum_cfgs => c sz; rewrite op1_win // sz.
by apply: opwin_real; rewrite ?addn1 // => c d; apply: ho.
Qed.
Print Assumptions C03_expect_1s_real.

Theorem C04_expect_2s_exact (C : numClosedFieldType) (D q : nat -> nat) (A : tensors C D) N
    (l r : forall n, 'M[C]_(D n)) (op : op2s C) n :
  up_to_date q A N l r -> (n.+1 < N)%N ->
  expect_2s q A l r op n = dotst q N (psi A N) (op2 q n op (psi A N)).
Proof. by case=> hl hr nN; rewrite (expect_2sE hl hr) // bdotst1. Qed.
Print Assumptions C04_expect_2s_exact.

Theorem C04_expect_2s_real (C : numClosedFieldType) (D q : nat -> nat) (A : tensors C D) N
    (l r : forall n, 'M[C]_(D n)) (op : op2s C) n :
  up_to_date q A N l r -> (n.+1 < N)%N -> herm_op2 op ->
  expect_2s q A l r op n \is Num.real.
Proof.
move=> h nN ho; rewrite (C04_expect_2s_exact _ h nN).
have -> : dotst q N (psi A N) (op2 q n op (psi A N)) =
    dotst q N (psi A N) (opwin q n 2 (fun c d => op (nth 0%N c 0) (nth 0%N c 1)
                                             (nth 0%N d 0) (nth 0%N d 1)) (psi A N)).
  by apply: eq_sum_cfgs => c sz; rewrite op2_win // sz.
by apply: opwin_real; rewrite ?addn2 // => c d; apply: ho.
Qed.
Print Assumptions C04_expect_2s_real.

Theorem C05_expect_3s_exact (C : numClosedFieldType) (D q : nat -> nat) (A : tensors C D) N
    (l r : forall n, 'M[C]_(D n)) (op : op3s C) n :
  up_to_date q A N l r -> (n.+2 < N)%N ->
  expect_3s q A l r op n = dotst q N (psi A N) (op3 q n op (psi A N)).
Proof. by case=> hl hr nN; rewrite (expect_3sE hl hr) // bdotst1. Qed.
Print Assumptions C05_expect_3s_exact.

(* the hypothesis up_to_date is met for every chain (in particular the Bell chain, whose
   expectation value of |0><1| x |0><1| is 1) *)
Example C04_example : exists l r, up_to_date two (bell : tensors Cx bellD) 2 l r /\
  expect_2s two (bell : tensors Cx bellD) l r
    (fun s t u v => ([:: s; t; u; v] == [:: 0; 0; 1; 1]%N)%:R) 0 = 1.
Proof.
have h := @calc_lr_up_to_date Cx bellD two (bell : tensors Cx bellD) 2
   (fun n => 1%:M) (fun n => 1%:M) erefl erefl.
do 2!eexists; split; first exact: h.
rewrite (C04_expect_2s_exact _ h) //.
have -> op : dotst two 2 (psi (bell : tensors Cx bellD) 2) (op2 two 0 op (psi (bell : tensors Cx bellD) 2)) =
  \sum_(c <- cfgs two 2 0) (amplitude 2 (bell : tensors Cx bellD) c)^* *
     \sum_(u < 2) \sum_(v < 2) op (nth 0%N c 0) (nth 0%N c 1) u v *
          amplitude 2 (bell : tensors Cx bellD) [:: val u; val v].
  apply: eq_big_seq => c /size_cfgs; case: c => [|s [|t []]] // _.
  rewrite -/(adot _ _) entry0_adot //; congr (_ * _).
  rewrite /op2 entry0_sum; apply: eq_bigr => u _; rewrite entry0_sum; apply: eq_bigr => v _.
  by rewrite /entry0 mulr_sumr; apply: eq_bigr => i _; rewrite mulr_sumr;
     apply: eq_bigr => j _; rewrite mxE.
rewrite /= !big_cons big_nil !bell_amplitude /= conjC1 conjC0 !mul0r !mul1r !add0r addr0.
by rewrite !big_ord_recl !big_ord0 !bell_amplitude /= !mulr0 !mul0r ?mulr1 !addr0 !add0r.
Qed.

(* C24: left and right maps are adjoint; both linear; dense transfer matrix *)
Theorem C24_eps_adjoint (C : numClosedFieldType) q Da Db Da' Db' (x : 'M[C]_(Da, Db))
    (y : 'M[C]_(Da', Db')) (A1 : nat -> 'M_(Da, Da')) (A2 : nat -> 'M_(Db, Db')) :
  adot (eps_l_noop q x A1 A2) y = adot x (eps_r_noop q y A1 A2).
Proof. exact: eps_adjoint. Qed.
Print Assumptions C24_eps_adjoint.

Theorem C24_eps_op_adjoint (C : numClosedFieldType) q Da Db Da' Db' (x : 'M[C]_(Da, Db))
    (y : 'M[C]_(Da', Db')) (A1 : nat -> 'M_(Da, Da')) (A2 : nat -> 'M_(Db, Db')) (op : op1s C) :
  adot (eps_l_op_1s q x A1 A2 op) y = adot x (eps_r_op_1s q y A1 A2 op).
Proof. exact: eps_adjoint_op. Qed.
Print Assumptions C24_eps_op_adjoint.

Theorem C24_eps_linear (C : numClosedFieldType) q Da Db Da' Db'
    (A1 : nat -> 'M[C]_(Da, Da')) (A2 : nat -> 'M_(Db, Db')) (a : C) :
  (forall x y, eps_l_noop q (a *: x + y) A1 A2 = a *: eps_l_noop q x A1 A2 + eps_l_noop q y A1 A2)
  /\ (forall x y, eps_r_noop q (a *: x + y) A1 A2 = a *: eps_r_noop q x A1 A2 + eps_r_noop q y A1 A2).
Proof.
by split=> x y; rewrite ?eps_l_noopD ?eps_l_noopZ ?eps_r_noopD ?eps_r_noopZ.
Qed.
Print Assumptions C24_eps_linear.

(* kron(A1,conj A2) acts on the row-major flattening like eps_r, its adjoint like eps_l *)
Theorem C24_dense_transfer_matrix (C : numClosedFieldType) q Da Db Da' Db'
    (A1 : nat -> 'M[C]_(Da, Da')) (A2 : nat -> 'M[C]_(Db, Db')) :
  (forall x i j, (dense_E q A1 A2 *m ravel x) (mxtens_index (i, j)) 0 = eps_r_noop q x A1 A2 i j) /\
  (forall x i j, ((dense_E q A1 A2)^† *m ravel x) (mxtens_index (i, j)) 0 = eps_l_noop q x A1 A2 i j).
Proof.
by split=> x i j; rewrite ?dense_E_right ?dense_E_left mxE mxtens_indexK.
Qed.
Print Assumptions C24_dense_transfer_matrix.
