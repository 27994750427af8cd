(* FindGround.v -- dynamics.find_ground (dynamics.py:41-81): the sequence of optimiser calls, bond dimensions and
   callback numbers.  The optimisers are functions of the system; what is known about them (C55) enters as contracts.
   Tolerances other than the choice of optimiser are part of these functions. *)
From mathcomp Require Import all_ssreflect all_algebra.
From mathcomp Require Import zify.
Set Implicit Arguments.
Unset Strict Implicit.
Unset Printing Implicit Defensive.

Section Model.
Variable S : Type.
Variable sD : S -> nat.                              (* sys.D *)
(* an optimiser call: the system returned, the indices i passed to cb_func in order, and the count i + 1 returned *)
Record opt_res := OptRes { or_sys : S; or_cbs : seq nat; or_n : nat }.
Variable im0 : S -> opt_res.                         (* opt_im_time(tol=CG_start_tol) (60-61) *)
Variable imx : nat -> S -> opt_res.                  (* opt_im_time(tol=100, expand_to_D=..., expand_tol=100) (71-75) *)
Variables (cgx cg : S -> opt_res).                   (* opt_conj_grad(tol=expand_tol) (65-67), (tol=tol) (78-79) *)
(* what was called, with the bond dimension asked for *)
Inductive fcall := CIm0 | CCgx | CImx of nat | CCg.
Record fst_ := FState { f_sys : S; f_j : nat; f_cbs : seq nat; f_calls : seq fcall }.
(* one call with cb_wrap: cb_func receives j + i with the present value of j (46-47), then j += dj *)
Definition frun (c : fcall) (f : S -> opt_res) (x : fst_) : fst_ :=
  let r := f (f_sys x) in
  FState (or_sys r) (f_j x + or_n r) (f_cbs x ++ [seq f_j x + i | i <- or_cbs r]) (rcons (f_calls x) c).
(* while sys.D < expand_to_D (64-77); fuel counts the turns allowed, None: not finished *)
Fixpoint fg_loop (fuel Dto step : nat) (x : fst_) : option fst_ :=
  if sD (f_sys x) < Dto then
    if fuel is fuel'.+1 then
      let x := frun CCgx cgx x in
      let T := minn (sD (f_sys x) + step) Dto in
      fg_loop fuel' Dto step (frun (CImx T) (imx T) x)
    else None
  else Some x.
Definition find_ground (fuel : nat) (expand_to_D : option nat) (step : nat) (s : S) : option fst_ :=
  let Dto := if expand_to_D is Some d then d else sD s in
  if fg_loop fuel Dto step (frun CIm0 im0 (FState s 0 [::] [::])) is Some x then Some (frun CCg cg x) else None.
End Model.
