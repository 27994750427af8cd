(* P37_ExRetry.v -- C79: retry loop of the excitation solvers. *)
From mathcomp Require Import all_ssreflect all_algebra.
From mathcomp Require Import zify.
From Verif Require Import ExRetry.
Set Implicit Arguments.
Unset Strict Implicit.
Unset Printing Implicit Defensive.

Section C79.
Variables (V X : Type) (eigsh : nat -> option V -> nat -> option X) (nev : nat).
Notation ex := (excite eigsh nev).
Notation loop := (ex_loop eigsh nev).
Notation call i c := (eigsh i c.1 c.2).
(* the arguments of call i, from those of call i - 1: changed only after a failure *)
Fixpoint args (v0 : option V) (ncv i : nat) : option V * nat :=
  if i is j.+1 then let a := args v0 ncv j in if call j a is Some _ then a else (None, maxn 20 (nev * (3 + j)))
  else (v0, ncv).
Definition ncv0 (ncv : option nat) := odflt (maxn 20 (2 * nev + 1)) ncv.

Lemma loopE n rem i v0 ncv a res calls : i + rem = n -> a = args v0 ncv i -> calls = [seq args v0 ncv j | j <- iota 0 i] ->
  (if i is j.+1 then (exists2 x, call j (args v0 ncv j) = Some x & res = Some x) \/ 0 < rem else res = None) ->
  loop n rem i a.1 a.2 res calls =
  (if n is m.+1 then if call m (args v0 ncv m) is Some x then Ret x else NoConv X else Unbound X, [seq args v0 ncv j | j <- iota 0 n]).
Proof.
elim: rem i a res calls => [|rem IH] i a res calls; rewrite ?addn0 ?addnS.
  by move=> e ea ec; rewrite /= ec -e; case: i {e ea ec} => [->|j] // [[x -> ->]|].
move=> e ea ec _; rewrite /= -surjective_pairing.
have ec' : rcons calls a = [seq args v0 ncv j | j <- iota 0 i.+1] by rewrite -[i.+1]addn1 iotaD map_cat cats1 ec ea.
case c : (eigsh i a.1 a.2) => [x|].
  by apply: (IH i.+1 a) => //; [rewrite /= -ea c|left; exists x; rewrite // -ea].
case: eqP => [en|ne]; first by rewrite ec' -en -ea c.
apply: (IH i.+1 (None, maxn 20 (nev * (3 + i)))) => //; first by rewrite /= -ea c.
by right; move: e ne; case: (rem) => // e; rewrite -e addn0.
Qed.
(* complete description: there are always max_retries calls, and the outcome is that of the last one *)
Theorem C79_outcome n v0 ncv : ex n v0 ncv =
  (if n is m.+1 then if call m (args v0 (ncv0 ncv) m) is Some x then Ret x else NoConv X else Unbound X,
   [seq args v0 (ncv0 ncv) j | j <- iota 0 n]).
Proof.
rewrite /excite (_ : (if ncv is Some c then c else _) = ncv0 ncv); last by case: ncv.
exact: (@loopE n n 0 v0 (ncv0 ncv) (v0, ncv0 ncv)).
Qed.
Corollary C79_calls n v0 ncv : size (ex n v0 ncv).2 = n.
Proof. by rewrite C79_outcome size_map size_iota. Qed.
(* a solver whose answer depends on v0 and ncv only: the result is that of the first successful call *)
Theorem C79_reproducible n v0 ncv i x : (forall j k v c, eigsh j v c = eigsh k v c) -> i < n ->
  call i (args v0 (ncv0 ncv) i) = Some x -> (ex n v0 ncv).1 = Ret x.
Proof.
move=> det lt e; rewrite C79_outcome; case: n lt => // n lt /=.
suff h k : args v0 (ncv0 ncv) (i + k) = args v0 (ncv0 ncv) i by rewrite -(subnKC (lt : i <= n)) h (det _ i) e.
elim: k => [|k IH]; first by rewrite addn0.
by rewrite addnS /= IH (det _ i) e.
Qed.
(* with the default ncv the number of vectors never shrinks from one call to the next *)
Theorem C79_ncv_default v0 i : (args v0 (ncv0 None) i).2 <= (args v0 (ncv0 None) i.+1).2.
Proof.
have h : forall k, (args v0 (ncv0 None) k).2 <= maxn 20 (nev * (3 + k)).
  elim=> [|k IH] /=; first by lia.
  by case: (eigsh _ _ _) => [_|] /=; [apply: leq_trans IH _; nia|nia].
by rewrite [args _ _ i.+1]/=; case: (eigsh _ _ _) => [_|] /=.
Qed.
End C79.

(* "maximum number of retries": a solver that converges at once and not in the last, superfluous, call; the result is
   thrown away *)
Theorem C79_success_lost_refuted (V : Type) (X : Type) (x : X) nev v0 ncv : exists eigsh : nat -> option V -> nat -> option X,
  [/\ forall v c, eigsh 0 v c = Some x, forall v c, eigsh 1 v c = Some x & (excite eigsh nev 3 v0 ncv).1 = NoConv X].
Proof. by exists (fun i _ _ => if i < 2 then Some x else None); split=> //; rewrite C79_outcome. Qed.
(* "with growing ncv": a value given by the caller is replaced by a smaller one *)
Theorem C79_ncv_shrinks_refuted (V X : Type) (v0 : option V) : exists eigsh : nat -> option V -> nat -> option X,
  (excite eigsh 6 2 v0 (Some 100)).2 = [:: (v0, 100); (None, 20)].
Proof. by exists (fun _ _ _ => None). Qed.
(* the first call fails for 20 vectors, 24 suffice *)
Definition ex_eigsh (i : nat) (v : option unit) (c : nat) : option nat := if 24 <= c then Some c else None.
Example C79_example :
  [/\ excite ex_eigsh 8 3 (Some tt) None = (Ret 24, [:: (Some tt, 20); (None, 24); (None, 24)]),
      excite ex_eigsh 6 3 (Some tt) None = (Ret 24, [:: (Some tt, 20); (None, 20); (None, 24)])
    & excite ex_eigsh 2 3 (Some tt) None = (NoConv nat, [:: (Some tt, 20); (None, 20); (None, 20)])].
Proof. by []. Qed.
Print Assumptions C79_outcome.
Print Assumptions C79_calls.
Print Assumptions C79_reproducible.
Print Assumptions C79_ncv_default.
Print Assumptions C79_success_lost_refuted.
Print Assumptions C79_ncv_shrinks_refuted.
