(* ETangent.v -- expectation values and correlations in a uniform state with one changed tensor:
   EvoMPS_TDVP_Uniform._get_tangent_lr, expect_tangent_1s, expect_tangent_2s, correlation_tangent_1s_1s
   (tdvp_uniform.py:1651-1746).  Only A[0], l[0], r[0] enter; to the right of the changed tensor B stands A2, which is
   A or the tensor of a second uniform state (s2).  All bond dimensions are D. *)
From mathcomp Require Import all_ssreflect all_algebra.
From mathcomp Require Import zify.
From Verif Require Import Base Spec Eps Chain ChainProofs ChainProofs2.
Set Implicit Arguments.
Unset Strict Implicit.
Unset Printing Implicit Defensive.
Import Order.TTheory GRing.Theory Num.Theory.
Local Open Scope ring_scope.

Section Model.
Variables (C : numClosedFieldType) (q D : nat) (A B A2 : nat -> 'M[C]_D) (l r : 'M[C]_D) (d nb : nat).
(* As (1660, 1692, 1735): [A] * nb + [B] + [A2] * (2d + 1 - nb).  Entry 0 is never used *)
Definition et_As : seq (nat -> 'M[C]_D) := nseq nb A ++ B :: nseq (2 * d + 1 - nb) A2.
Definition et_A (n : nat) : nat -> 'M[C]_D := nth A et_As n.
(* ls[n] for n <= 2d (1662-1671); o is op1.  ls[2d + 1] keeps its initial value and is not read *)
Fixpoint et_l (o : option (op1s C)) (n : nat) : 'M[C]_D :=
  match n with
  | 0%N => l
  | m.+1 =>
    if m == 0%N then
      if o is Some op1 then eps_l_op_1s q l (et_A 1) (et_A 1) op1 else eps_l_noop q l (et_A 1) (et_A 1)
    else eps_l_noop q (et_l o m) (et_A n) (et_A n)
  end.
(* rs[2d + 1 - k] (1673-1676) *)
Fixpoint et_rk (k : nat) : 'M[C]_D :=
  if k is j.+1 then eps_r_noop q (et_rk j) (et_A (2 * d + 1 - j)) (et_A (2 * d + 1 - j)) else r.
Definition et_r (n : nat) : 'M[C]_D := et_rk (2 * d + 1 - n).
(* expect_tangent_1s (1680-1697) *)
Definition expect_tangent_1s (op : op1s C) : seq C :=
  [seq adot (et_l None n.-1) (eps_r_op_1s q (et_r n) (et_A n) (et_A n) op) | n <- iota 1 (2 * d + 1)].
(* g and c of correlation_tangent_1s_1s (1723-1746); exs1 * exs2 is the elementwise product *)
Definition tangent_joint (o1 o2 : op1s C) : seq C :=
  adot (et_l (Some o1) 0) (eps_r_op_1s q (et_r 1) (et_A 1) (et_A 1) (opdot q o1 o2)) ::
  [seq adot (et_l (Some o1) n.-1) (eps_r_op_1s q (et_r n) (et_A n) (et_A n) o2) | n <- iota 2 (2 * d)].
Definition tangent_connected (o1 o2 : op1s C) : seq C :=
  [seq x.1 - x.2 | x <- zip (tangent_joint o1 o2)
    [seq y.1 * y.2 | y <- zip (expect_tangent_1s o1) (expect_tangent_1s o2)]].
End Model.
(* expect_tangent_2s (1699-1721): nb = d + 1, no second state *)
Section Model2.
Variables (C : numClosedFieldType) (q D : nat) (A B : nat -> 'M[C]_D) (l r : 'M[C]_D) (d : nat).
Definition et_list T (x y z : T) : seq T := set_nth x (set_nth x (nseq (2 * d + 2) x) d y) d.+1 z.
Definition expect_tangent_2s (op : op2s C) : seq C :=
  let AA := calc_AA A A in let AB := calc_AA A B in let BA := calc_AA B A in
  let AAs := et_list AA AB BA in
  let Cs := et_list (calc_C_mat_op_AA q q op AA) (calc_C_mat_op_AA q q op AB) (calc_C_mat_op_AA q q op BA) in
  [seq adot (et_l q A B A l d d.+1 None n.-1)
     (eps_r_op_2s_C12_AA34 q q (et_r q A B A r d d.+1 n.+1) (nth (calc_C_mat_op_AA q q op AA) Cs n) (nth AA AAs n))
  | n <- iota 1 (2 * d)].
End Model2.

Section Facts.
Variables (C : numClosedFieldType) (q D : nat) (A B A2 : nat -> 'M[C]_D) (l r : 'M[C]_D) (d nb : nat).
(* the tensors of the window: site j = n + 1 of the code is n *)
Definition et_tensors : tensors C (fun _ => D) := fun n => if (n.+1 < nb)%N then A else if n.+1 == nb then B else A2.
Lemma et_AE n : (n < 2 * d + 1)%N -> et_A A B A2 d nb n.+1 = et_tensors n.
Proof.
move=> h; rewrite /et_A /et_As nth_cat size_nseq /et_tensors nth_nseq.
case: ltnP => // h1; have [->|ne] := eqVneq n.+1 nb; first by rewrite subnn.
by case e: (n.+1 - nb)%N => [|m] /=; [move/eqP: e ne; lia|rewrite nth_nseq ifT //; lia].
Qed.
Notation N := (2 * d + 1)%N.
Lemma et_lS o n : et_l q A B A2 l d nb o n.+2 = eps_l_noop q (et_l q A B A2 l d nb o n.+1) (et_A A B A2 d nb n.+2) (et_A A B A2 d nb n.+2).
Proof. by []. Qed.
Lemma et_up_l : up_l (fun _ => q) et_tensors N l (et_l q A B A2 l d nb None : forall n : nat, 'M[C]_D).
Proof.
split=> // [] [|n] h; first by rewrite [LHS]/= et_AE.
by rewrite et_lS et_AE.
Qed.
Lemma et_up_r : up_r (fun _ => q) et_tensors N r (et_r q A B A2 r d nb : forall n : nat, 'M[C]_D).
Proof.
split=> [|n h]; rewrite /et_r ?subnn //.
have -> : (N - n = (N - n.+1).+1)%N by lia.
by rewrite /= (_ : (N - (N - n.+1) = n.+1)%N) ?et_AE //; lia.
Qed.
Lemma et_lj o1 j : (j < N)%N ->
  et_l q A B A2 l d nb (Some o1) j.+1 =
  lj (D := fun _ => D) (fun _ => q) et_tensors (et_l q A B A2 l d nb None : forall n : nat, 'M[C]_D) o1 0 j.
Proof.
elim: j => [|j IH] h; first by rewrite /= et_AE.
by rewrite et_lS et_AE // IH; [rewrite /= addn0|lia].
Qed.
End Facts.
