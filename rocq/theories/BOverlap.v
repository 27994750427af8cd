(* BOverlap.v -- overlap of two tangent vectors of momentum p of a uniform state: EvoMPS_TDVP_Uniform._B_overlap with
   _B_overlap_calc_BR and _B_overlap_onsite (tdvp_uniform.py:985-1051, 1150-1202, 1205-1309), used by the line search
   and the conjugate gradient method.  Simplified to cells of one site (L = 1), tangent vectors of one site (M = 1) and
   other=None.  w stands for exp(1j p), so that exp(-1j p) is its conjugate.  allclose(BRblock, 0) (1031) is the exact
   test, the iterative solver is a function pinv of phase and right-hand side. *)
From mathcomp Require Import all_ssreflect all_algebra.
From mathcomp Require Import zify.
From Verif Require Import Base Spec Eps Chain ChainProofs.
Set Implicit Arguments.
Unset Strict Implicit.
Unset Printing Implicit Defensive.
Import Order.TTheory GRing.Theory Num.Theory.
Local Open Scope ring_scope.

Section Model.
Variables (C : numClosedFieldType) (q D : nat) (A : nat -> 'M[C]_D) (l r : 'M[C]_D).
(* PinvOp.matvec, right mode with pseudo=True (mps_uniform_pinv.py:63-75) *)
Definition bo_op (w : C) (X : 'M[C]_D) : 'M[C]_D := X - w *: (eps_r_noop q X A A - adot l X *: r).
(* calc_PPinv -> pinv_1mE (242-292): a solution of bo_op w v = X *)
Variable pinv : C -> 'M[C]_D -> 'M[C]_D.
Definition bo_solves (w : C) := forall X, bo_op w (pinv w X) = X.
(* _B_overlap_calc_BR: BR[0] and BRblock_fid (1021-1051); X1, X2 are the tensors of the site with B (1014-1019) *)
Definition bo_BR (w : C) (X1 X2 : nat -> 'M[C]_D) : option 'M[C]_D * C :=
  let R := eps_r_noop q r X1 X2 in
  if R == 0 then (None, 0) else let f := adot l R in (Some (pinv w (R - f *: r)), f).
(* calc_con (1240-1284) after calc_BR *)
Definition bo_con (w : C) (Y1 Y2 : nat -> 'M[C]_D) (BR : option 'M[C]_D) : C :=
  if BR is Some X then adot l (eps_r_noop q X Y1 Y2) * w else 0.
(* _B_overlap (1205-1309); for M = 1 res12 = res21 = 0 (1198-1200) *)
Definition B_overlap (w : C) (gf1 gf2 : bool) (B1 B2 : nat -> 'M[C]_D) : C :=
  let res := adot l (eps_r_noop q r B1 B2) in
  let c2 := if gf2 then (0, 0) else let p := bo_BR w^* A B2 in (bo_con w^* B1 A p.1, p.2) in
  let c1 := if gf1 then (0, 0) else let p := bo_BR w B1 A in (bo_con w A B2 p.1, p.2) in
  res + c2.1 + c1.1 - c1.2 * c2.2.
(* _B_rand_GT (1334-1350) with M = 1 *)
Definition B_GT (w : C) (x : 'M[C]_D) (B : nat -> 'M[C]_D) : nat -> 'M[C]_D :=
  fun s => B s + (A s *m x - w^* *: (x *m A s)).
End Model.

Section Facts.
Variables (C : numClosedFieldType) (q D : nat) (A : nat -> 'M[C]_D) (l r : 'M[C]_D).
Hypotheses (hl : eps_l_noop q l A A = l) (hr : eps_r_noop q r A A = r) (nrm : adot l r = 1).
Lemma adot_E (X : 'M[C]_D) : adot l (eps_r_noop q X A A) = adot l X.
Proof. by rewrite -eps_adjoint hl. Qed.
Lemma bo_op_l w X : adot l (bo_op q A l r w X) = adot l X.
Proof. by rewrite /bo_op adotBr adotZr adotBr adotZr adot_E nrm mulr1 subrr mulr0 subr0. Qed.
Lemma eps_rD1 (X : 'M[C]_D) (B B' T : nat -> 'M[C]_D) :
  eps_r_noop q X (fun s => B s + B' s) T = eps_r_noop q X B T + eps_r_noop q X B' T.
Proof. by rewrite /eps_r_noop -big_split; apply: eq_bigr => s _; rewrite !mulmxDl. Qed.
Lemma eps_rB1 (X : 'M[C]_D) a (B B' T : nat -> 'M[C]_D) :
  eps_r_noop q X (fun s => B s - a *: B' s) T = eps_r_noop q X B T - a *: eps_r_noop q X B' T.
Proof.
rewrite /eps_r_noop scaler_sumr -sumrB; apply: eq_bigr => s _.
by rewrite !mulmxBl -!scalemxAl.
Qed.
Lemma eps_rx (X x : 'M[C]_D) (B T : nat -> 'M[C]_D) : eps_r_noop q X (fun s => B s *m x) T = eps_r_noop q (x *m X) B T.
Proof. by apply: eq_bigr => s _; rewrite !mulmxA. Qed.
Lemma eps_xr (X x : 'M[C]_D) (B T : nat -> 'M[C]_D) : eps_r_noop q X (fun s => x *m B s) T = x *m eps_r_noop q X B T.
Proof. by rewrite /eps_r_noop mulmx_sumr; apply: eq_bigr => s _; rewrite !mulmxA. Qed.
Lemma eps_r_sub (X Y : 'M[C]_D) (B T : nat -> 'M[C]_D) : eps_r_noop q (X - Y) B T = eps_r_noop q X B T - eps_r_noop q Y B T.
Proof. by rewrite eps_r_noopD -scaleN1r eps_r_noopZ scaleN1r. Qed.
Lemma eps_adj (X : 'M[C]_D) (B T : nat -> 'M[C]_D) : (eps_r_noop q X B T)^† = eps_r_noop q X^† T B.
Proof. by rewrite /eps_r_noop adj_sum; apply: eq_bigr => s _; rewrite !adjM adjK mulmxA. Qed.
(* the operator is linear; solutions are unique when it is nonsingular *)
Notation op := (bo_op q A l r).
Lemma bo_opE w X : op w X = X - w *: eps_r_noop q X A A + (w * adot l X) *: r.
Proof. by rewrite /bo_op scalerBr opprB scalerA addrA addrAC. Qed.
Lemma bo_opD w X Y : op w (X + Y) = op w X + op w Y.
Proof. by rewrite !bo_opE eps_r_noopD adotDr mulrDr scalerDl scalerDr opprD addrACA [X in X + _]addrACA. Qed.
Lemma bo_opZ w a X : op w (a *: X) = a *: op w X.
Proof. by rewrite !bo_opE eps_r_noopZ adotZr !scalerDr scalerN !scalerA [w * a]mulrC [w * (a * _)]mulrCA. Qed.
Definition bo_nonsing (w : C) := forall X, op w X = 0 -> X = 0.
Lemma bo_inj w X Y : bo_nonsing w -> op w X = op w Y -> X = Y.
Proof.
move=> ns e; apply/eqP; rewrite -subr_eq0; apply/eqP/ns.
by rewrite bo_opD -scaleN1r bo_opZ e scaleN1r subrr.
Qed.
(* the value of calc_BR and calc_con, with or without the early return *)
Variable pinv : C -> 'M[C]_D -> 'M[C]_D.
Lemma bo_conE w X1 X2 Y1 Y2 : bo_solves q A l r pinv w -> bo_nonsing w ->
  exists X, [/\ op w X = eps_r_noop q r X1 X2 - adot l (eps_r_noop q r X1 X2) *: r, adot l X = 0,
    X = w *: eps_r_noop q X A A + (eps_r_noop q r X1 X2 - adot l (eps_r_noop q r X1 X2) *: r),
    bo_con q l w Y1 Y2 (bo_BR q l r pinv w X1 X2).1 = adot l (eps_r_noop q X Y1 Y2) * w
  & (bo_BR q l r pinv w X1 X2).2 = adot l (eps_r_noop q r X1 X2)].
Proof.
move=> sol ns; rewrite /bo_BR; set R := eps_r_noop q r X1 X2.
have gen X : op w X = R - adot l R *: r -> adot l X = 0 /\ X = w *: eps_r_noop q X A A + (R - adot l R *: r).
  move=> e; have l0 : adot l X = 0 by rewrite -(bo_op_l w) e adotBr adotZr nrm mulr1 subrr.
  by split=> //; rewrite -e bo_opE l0 mulr0 scale0r addr0 addrC subrK.
case: eqP => [R0|_].
  have e0 : op w 0 = R - adot l R *: r.
    by rewrite R0 adot0r scale0r subr0; have := bo_opZ w 0 0; rewrite !scale0r.
  have [a b] := gen _ e0; exists 0; split=> //; first by rewrite /= eps_r_noop0 adot0r mul0r.
  by rewrite /= R0 adot0r.
have e0 := sol (R - adot l R *: r); have [a b] := gen _ e0.
by exists (pinv w (R - adot l R *: r)).
Qed.
End Facts.
