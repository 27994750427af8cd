(* ExRetry.v -- the retry loops of EvoMPS_TDVP_Uniform.excite_top_triv (tdvp_uniform.py:814-830) and excite_top_nontriv
   (943-959), which are the same code.  las.eigsh is a function of the number of the call (it starts from a random vector
   when v0 is None), v0 and ncv; None stands for ArpackNoConvergence.  Log messages are left out. *)
From mathcomp Require Import all_ssreflect all_algebra.
From mathcomp Require Import zify.
Set Implicit Arguments.
Unset Strict Implicit.
Unset Printing Implicit Defensive.

Section Model.
Variables (V X : Type) (eigsh : nat -> option V -> nat -> option X) (nev : nat).
(* the value returned, EvoMPSNoConvergence, or UnboundLocalError for "return res" when the loop did not run *)
Inductive ex_out := Ret of X | NoConv | Unbound.
(* for i in range(max_retries): rem iterations are left; calls records v0 and ncv of each call *)
Fixpoint ex_loop (n rem i : nat) (v0 : option V) (ncv : nat) (res : option X) (calls : seq (option V * nat)) :
    ex_out * seq (option V * nat) :=
  if rem is rem'.+1 then
    let calls := rcons calls (v0, ncv) in
    match eigsh i v0 ncv with
    | Some x => ex_loop n rem' i.+1 v0 ncv (Some x) calls
    | None => if i.+1 == n then (NoConv, calls) else ex_loop n rem' i.+1 None (maxn 20 (nev * (3 + i))) res calls
    end
  else (if res is Some x then Ret x else Unbound, calls).
Definition excite (max_retries : nat) (v0 : option V) (ncv : option nat) : ex_out * seq (option V * nat) :=
  let ncv := if ncv is Some c then c else maxn 20 (2 * nev + 1) in
  ex_loop max_retries max_retries 0 v0 ncv None [::].
End Model.
