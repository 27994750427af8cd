(* CorrLen.v -- spectral gap of the transfer operator and correlation length of a uniform state:
   EvoMPS_MPS_Uniform.calc_E_gap and correlation_length (mps_uniform.py:463-542), as functions of the magnitudes of
   the eigenvalues that _calc_E_largest_eigenvalues returned (the eigenvalue solver is not part of this file; its retry
   loop is the subject of C52).  Magnitudes are elements of an ordered field R, sp.log is a function lg; log messages
   are left out. *)
From mathcomp Require Import all_ssreflect all_algebra.
From mathcomp Require Import zify.
Set Implicit Arguments.
Unset Strict Implicit.
Unset Printing Implicit Defensive.
Import Order.TTheory GRing.Theory Num.Theory.
Local Open Scope ring_scope.

Section Model.
Variable R : realFieldType.
(* the value of a python function: an exception, nan or a number *)
Inductive num_result := Exn | NaN | Num of R.
(* ev.sort(), read from the last entry ev[-1] on *)
Definition desc (ev : seq R) : seq R := rev (sort <=%R ev).
(* calc_E_gap (463-492); ev[-1] of an empty array is an IndexError *)
Definition calc_E_gap (ev : seq R) : num_result :=
  if size ev == 1%N then NaN else
  if desc ev is m1 :: m2 :: _ then Num ((m1 - m2) / m1) else Exn.
(* the loop 528-533; d is ev read from the end *)
Fixpoint drop_deg (tol m1 : R) (d : seq R) : seq R :=
  if d is x :: d' then if (0 < size d')%N && (m1 - x < tol) then drop_deg tol m1 d' else d else d.
(* correlation_length (494-542); L is the cell length *)
Definition correlation_length (D L : nat) (lg : R -> R) (tol : R) (ev : seq R) : num_result :=
  if D == 1%N then Num 0 else
  if desc ev is m1 :: d then
    if drop_deg tol m1 d is x :: _ then Num (- L%:R / lg x) else NaN
  else Exn.
End Model.
Arguments Exn {R}. Arguments NaN {R}.

Section Facts.
Variable R : realFieldType.
Lemma mem_desc (ev : seq R) : desc ev =i ev.
Proof. by move=> x; rewrite mem_rev mem_sort. Qed.
Lemma size_desc (ev : seq R) : size (desc ev) = size ev.
Proof. by rewrite size_rev size_sort. Qed.
Lemma desc_sorted (ev : seq R) : sorted >=%R (desc ev).
Proof. by rewrite /desc rev_sorted; apply: (sort_sorted (@le_total _ R)). Qed.
Lemma desc_min m (d : seq R) : sorted >=%R (m :: d) -> forall y, y \in d -> y <= m.
Proof.
move=> /= p y yd; have t : transitive (>=%R : rel R) by move=> a b c ab ca; exact: le_trans ca ab.
by have /allP /(_ y yd) := order_path_min t p.
Qed.
Lemma desc_perm (ev d : seq R) : perm_eq ev d -> sorted >=%R d -> desc ev = d.
Proof.
move=> p s; have t : transitive (>=%R : rel R) by move=> a b c ab ca; exact: le_trans ca ab.
apply: (sorted_eq t) => //; [|exact: desc_sorted|].
  by move=> a b /andP [/= ab ba]; apply/eqP; rewrite eq_le ba ab.
by rewrite /desc perm_rev perm_sort.
Qed.
End Facts.
