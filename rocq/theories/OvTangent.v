(* OvTangent.v -- inner product of a sandwich state with a tangent vector of momentum p:
   EvoMPS_MPS_Sandwich.overlap_tangent (mps_sandwich.py:715-762).  Site j = n + 1 of the window is n here; bulk unit
   cells have one site (726-727).  The bond dimensions of the two bulks are D 0 and D N; PinvOp needs them to be equal
   (mps_uniform_pinv.py:42), the model does not.  w stands for exp(1j p), so that exp(-1j p) is its conjugate and
   exp(1j p j) its j-th power.  The printed gauge check (730-731) is left out. *)
From mathcomp Require Import all_ssreflect all_algebra.
From mathcomp Require Import zify.
From mathcomp.real_closed Require Import mxtens.
From Verif Require Import Base Spec Eps Chain ChainProofs Canon Multi Uniform.
Set Implicit Arguments.
Unset Strict Implicit.
Unset Printing Implicit Defensive.
Import Order.TTheory GRing.Theory Num.Theory.
Local Open Scope ring_scope.

Section Model.
Variables (C : numClosedFieldType) (D : nat -> nat) (q N : nat) (w : C).
Variables (AL : nat -> 'M[C]_(D 0)) (lL : 'M[C]_(D 0)) (AR : nat -> 'M[C]_(D N)) (rR : 'M[C]_(D N)).
Variables (A : tensors C D) (B : nat -> 'M[C]_(D 0, D N)).
(* pinv_1mE(x, [AL], [AR], lL, rR, p=p, left=True, pseudo=pseudo) (740-742; mps_uniform_pinv.py:120-195) is an iterative
   solver for op v = x, op = PinvOp.matvec.  C42 shows that matvec in left mode is the conjugate transpose of EyemE *)
Definition pinv_left_ok (pseudo : bool) (x v : 'M[C]_(D 0, D N)) : Prop :=
  (EyemE 1 q (fun _ => AL) (fun _ => AR) w pseudo (recast (D 0) (D N) lL) (recast (D 0) (D N) rR))^† *m ravel v = ravel x.
(* rs (744-746): rs[N] = rR, rs[j - 1] = eps_r_noop(rs[j], A[j], AR) *)
Definition ot_rs (n : nat) : 'M[C]_(D n, D N) :=
  rr (D' := fun _ => D N) (fun _ => q) A (fun _ => AR) (fun n => recast (D n) (D N) rR) (N - n) n.
(* l before site j = n + 1 (752, 758) *)
Fixpoint ot_l (n : nat) : 'M[C]_(D n, D 0) :=
  if n is m.+1 then eps_l_noop q (ot_l m) (A m) AL else lL.
(* ol_left_bulk (750); v is vBL *)
Definition ot_bulk (v : 'M[C]_(D 0, D N)) : C := adot v (ot_rs 0) * w^*.
(* ols_window (753-758) *)
Definition ot_window : seq C :=
  [seq w ^+ n.+1 * adot (ot_l n) (eps_r_noop q (ot_rs n.+1) (A n) B) | n <- iota 0 N].
(* overlap_tangent (715-762), return_contributions=False; pinv is the solver *)
Definition overlap_tangent (pinv : 'M[C]_(D 0, D N) -> 'M[C]_(D 0, D N)) : C :=
  ot_bulk (pinv (eps_l_noop q lL AL B)) + \sum_(x <- ot_window) x.
(* the equation solved, on arrays *)
Lemma pinv_leftE pseudo x v : pinv_left_ok pseudo x v <->
  v - w^* *: (eps_l_noop q v AL AR - (if pseudo then adot (recast (D 0) (D N) rR) v *: recast (D 0) (D N) lL else 0)) = x.
Proof.
rewrite /pinv_left_ok /EyemE; set l := recast _ _ lL; set r := recast _ _ rR.
set E := Eblock _ _ _ _; have eE y : E^† *m ravel y = ravel (eps_l_noop q y AL AR) by rewrite Eblock_left.
have -> : (1%:M - w *: (if pseudo then E - ravel r *m (ravel l)^† else E))^† *m ravel v =
    ravel (v - w^* *: (eps_l_noop q v AL AR - (if pseudo then adot r v *: l else 0))).
  have rB (y z : 'M[C]_(D 0, D N)) : ravel (y - z) = ravel y - ravel z by apply/matrixP => i j; rewrite !mxE.
  rewrite rB ravelZ rB adjB adj1 adjZ mulmxBl mul1mx -scalemxAl; congr (_ - _ *: _).
  case: pseudo; last by rewrite eE (_ : ravel 0 = 0) ?subr0 //; apply/matrixP => i j; rewrite !mxE.
  rewrite adjB adjM adjK mulmxBl eE -mulmxA ravelZ; congr (_ - _).
  have -> : (ravel r)^† *m ravel v = (adot r v)%:M by rewrite -adot_ravel [LHS]mx11_scalar adotE /mxtrace big_ord1.
  by rewrite mul_mx_scalar.
split=> [/(congr1 (@unravel C (D 0) (D N)))|->]; by rewrite ?ravelK.
Qed.
End Model.
