(* Witness.v -- concrete chains over the algebraic numbers used as non-vacuity examples and
   as counterexamples. *)
From mathcomp Require Import all_ssreflect all_algebra all_field zify.
From Verif Require Import Base Spec Eps Chain ChainProofs ChainProofs2.
Set Implicit Arguments.
Unset Strict Implicit.
Unset Printing Implicit Defensive.
Import GRing.Theory Num.Theory.
Local Open Scope ring_scope.

(* the scalars of all examples: algebraic numbers *)
Notation Cx := [numClosedFieldType of algC].

(* the (unnormalised) Bell state |00> + |11> as a chain of two sites with bond dimension 2 *)
Definition bellD (n : nat) : nat := if n == 1%N then 2%N else 1%N.
Definition bell (n s : nat) : 'M[Cx]_(bellD n, bellD n.+1) :=
  \matrix_(i, j) (i + j == s)%N%:R.
Definition two (n : nat) : nat := 2.

Lemma bell_amplitude s t : amplitude 2 (bell : tensors Cx bellD) [:: s; t] =
  ((s == t) && (s < 2)%N)%:R.
Proof.
rewrite /amplitude /psi /= pid_mx_1 mulmx1 (entry0_1 _ (erefl 1%N) (erefl 1%N)) !cast_ord_id.
rewrite mxE big_ord_recl big_ord1 !mxE /=.
case: s t => [|[|s]] [|[|t]]; rewrite /= ?mulr0 ?mulr1 ?mul0r ?addr0 ?add0r //.
by rewrite andbF.
Qed.

(* scalar chains: D = 1 everywhere, A n s = a n s *)
Section Scalar.
Variable C : numClosedFieldType.
Definition one (n : nat) : nat := 1%N.
Definition scal (a : nat -> nat -> C) : tensors C one := fun n s => (a n s)%:M.

Lemma psi_scal a N c : amplitude N (scal a) c = \prod_(i < size c) a i (nth 0%N c i).
Proof.
rewrite /amplitude /psi.
have h : forall n, amp (scal a) N n c = (\prod_(i < size c) a (n + i)%N (nth 0%N c i))%:M.
  elim: c => [|s c IH] n /=; first by rewrite big_ord0 /one pid_mx_1.
  by rewrite IH big_ord_recl /= addn0 scalar_mxM; congr (_ *m _%:M); apply: eq_bigr => i _;
    rewrite addSnnS.
by rewrite h (entry0_1 _ (erefl 1%N) (erefl 1%N)) !cast_ord_id mxE eqxx.
Qed.
End Scalar.
