(* Drivers.v -- the drivers of evoMPS/dynamics.py: evolve (12-39), _im_time_autostep (83-113),
   opt_im_time (116-161), opt_conj_grad (163-201), opt_grad_descent (203-228), and the packing of the
   state into a vector for scipy's ODE solvers (263-314).
   The tensor network object is an element of an arbitrary type S; its methods are arbitrary functions,
   so the theorems hold for every class that offers them.  Exact arithmetic over a real closed field. *)
From mathcomp Require Import all_ssreflect all_algebra.
From mathcomp Require Import zify.
Set Implicit Arguments.
Unset Strict Implicit.
Unset Printing Implicit Defensive.
Import Order.TTheory GRing.Theory Num.Theory.
Local Open Scope ring_scope.

(* ---- evolve (dynamics.py:12-39) ---------------------------------------------------------------- *)
Inductive integ := Euler | RK4 | Other.   (* integ.lower() == "euler" / "rk4" / anything else *)
Section Evolve.
Variables (R : rcfType) (S : Type).
(* what evolve does to the system, in order *)
Inductive dev := Upd | CB of nat | StepE of R & bool | StepRK of R.
(* update, the callback, take_step (step, dynexp), take_step_RK4, maxD_is_less_than(D_max) *)
Record sysops := SysOps { so_upd : S -> S; so_cb : nat -> S -> S; so_euler : R -> bool -> S -> S;
                          so_rk : R -> S -> S; so_lessD : S -> bool }.
Variables (ops : sysops) (has_cb : bool) (dt : R) (ig : integ) (dynexp : bool).
Definition dpow : R := dt ^+ 2 * Num.sqrt dt.      (* dt**(5./2.) *)
Definition ev_step (x : S * seq dev) : S * seq dev :=
  let: (s, l) := x in
  match ig with
  | Euler => let d := dynexp && so_lessD ops s in (so_euler ops dt d s, rcons l (StepE dt d))
  | RK4 => if dynexp && so_lessD ops s then
             let s := so_euler ops dpow dynexp s in
             let s := so_upd ops s in
             (so_rk ops (dt - dpow) s, l ++ [:: StepE dpow dynexp; Upd; StepRK (dt - dpow)])
           else (so_rk ops dt s, rcons l (StepRK dt))
  | Other => x
  end.
(* for i in range(num_steps + 1): rem counts the iterations left *)
Fixpoint ev_loop (num_steps rem i : nat) (x : S * seq dev) : S * seq dev :=
  if rem is rem'.+1 then
    let x := (so_upd ops x.1, rcons x.2 Upd) in
    let x := if has_cb then (so_cb ops i x.1, rcons x.2 (CB i)) else x in
    if i == num_steps then x else ev_loop num_steps rem' i.+1 (ev_step x)
  else x.
(* num_steps = int(t / dt), possibly negative; range of a non-positive number is empty *)
Definition evolve (k : int) (s : S) : S * seq dev :=
  match k with Posz n => ev_loop n n.+1 0 (s, [::]) | Negz _ => (s, [::]) end.
Definition span (e : dev) : R := match e with StepE h _ | StepRK h => h | _ => 0 end.
Definition is_upd e := if e is Upd then true else false.
Definition cb_of e := if e is CB i then Some i else None.
Definition is_step e := match e with StepE _ _ | StepRK _ => true | _ => false end.
End Evolve.
Arguments Upd {R}.
Arguments CB {R}.

(* ---- _im_time_autostep (83-113) ---------------------------------------------------------------- *)
Section Auto.
Variable R : rcfType.
Notation q a b := ((a%:R / b%:R) : R).
Definition e13 : R := (10%:R ^+ 13)^-1.
Definition autostep (dtau base eta dh pred : R) : R * R :=
  let fac := if `|dh| < 5%:R * e13 then 0 else pred / dh in
  let next := eta ^+ 2 * dtau in
  let d :=
    if fac == 0 then
      if pred != 0 then
        if dh > e13 then Num.max (dtau * q 95 100) (base * q 1 10)
        else Num.min (dtau * q 1005 1000) base
      else dtau
    else if fac < 0 then base * q 1 100
    else if `|fac| > 3%:R then Num.max (dtau * (1 - q 1 100 * (fac - 3%:R))) (base * q 1 100)
    else if (q 1 5 < fac) && (fac < 2%:R) then Num.min (dtau * (1 + q 1 1000 * Num.sqrt (2%:R - fac))) (base * 2%:R)
    else dtau in
  (d, next).
End Auto.

(* ---- opt_im_time (116-161) --------------------------------------------------------------------- *)
Section ImTime.
Variables (R : rcfType) (S : Type).
Record iops := IOps { io_upd : S -> S; io_cb : nat -> R -> S -> S; io_step : R -> bool -> S -> S;
                      io_eta : S -> R; io_h : S -> R; io_D : S -> nat }.
Variables (ops : iops) (tol base dtau0 : R) (auto_dtau : bool) (Dexp : nat) (exp_tol : R) (exp_wait : nat).
(* callbacks (index, tau) and steps (dtau, dynexp), in order *)
Inductive iev := ICB of nat & R | IStep of R & bool.
Record ist := IState { i_sys : S; i_dtau : R; i_tau : R; i_h : R; i_pred : R; i_wait : nat; i_log : seq iev }.
Definition im_conv (s : S) (wait : nat) := [&& io_eta ops s < tol, io_D ops s == Dexp & wait == 0%N].
Fixpoint im_loop (max_itr rem i : nat) (x : ist) : nat * ist :=
  let s := io_upd ops (i_sys x) in
  let s := io_cb ops i (i_tau x) s in
  let log := rcons (i_log x) (ICB i (i_tau x)) in
  let eta := io_eta ops s in
  let dh := i_h x - io_h ops s in
  let h := io_h ops s in
  if (i == max_itr) || im_conv s (i_wait x) then (i.+1, IState s (i_dtau x) (i_tau x) h (i_pred x) (i_wait x) log)
  else if rem is rem'.+1 then
    let: (dtau, pred) := if auto_dtau then autostep (i_dtau x) base eta dh (i_pred x) else (i_dtau x, i_pred x) in
    let dyn := [&& (io_D ops s < Dexp)%N, eta < exp_tol & i_wait x == 0%N] in
    let s := io_step ops dtau dyn s in
    im_loop max_itr rem' i.+1 (IState s dtau (i_tau x + dtau) h pred (if dyn then exp_wait else (i_wait x).-1) (rcons log (IStep dtau dyn)))
  else (i.+1, x).
(* returns sys, i + 1, tau, dtau; max_itr = -1 or less runs nothing and returns 0 *)
Definition opt_im_time (max_itr : int) (s : S) : nat * ist :=
  let x0 := IState s dtau0 0 0 0 0 [::] in
  match max_itr with Posz n => im_loop n n 0 x0 | Negz _ => (0%N, x0) end.
Definition isteps (l : seq iev) := pmap (fun e => if e is IStep d b then Some (d, b) else None) l.
Definition icbs (l : seq iev) := pmap (fun e => if e is ICB i t then Some (i, t) else None) l.
End ImTime.

(* ---- opt_conj_grad (163-201), opt_grad_descent (203-228): iteration counts --------------------- *)
Section Opt.
Variables (R : rcfType) (S : Type).
(* what the counts depend on: whether eta < tol holds at the i-th check is decided by the system *)
Record cops := COps { co_iter : nat -> S -> S;   (* update, calc_B_CG (or calc_B), callback of iteration i *)
                      co_step : nat -> S -> S;   (* take_step of iteration i *)
                      co_conv : S -> bool }.     (* sys.eta < tol *)
Variable ops : cops.
(* returns (i + 1, number of take_step calls, system) *)
Fixpoint cg_loop (max_itr rem i steps : nat) (s : S) : nat * nat * S :=
  let s := co_iter ops i s in
  if co_conv ops s || (i == max_itr) then (i.+1, steps, s)
  else if rem is rem'.+1 then cg_loop max_itr rem' i.+1 steps.+1 (co_step ops i s) else (i.+1, steps, s).
Definition opt_cg (max_itr : int) (s : S) : nat * nat * S :=
  match max_itr with Posz n => cg_loop n n 0 0 s | Negz _ => (0%N, 0%N, s) end.
(* the first trial step: h = min(max(h0_prev, h_init * 5), h_init * 15), or h_init * 15 *)
Definition cg_h (h_init : R) (h0_prev : option R) : R :=
  if h0_prev is Some p then Num.min (Num.max p (h_init * 5%:R)) (h_init * 15%:R) else h_init * 15%:R.
End Opt.
Section GradDescent.
Variables (S : Type) (im cg : int -> S -> nat * nat * S) (conv : S -> bool) (im_gap gap_every : nat).
(* while j < max_itr; fuel is the number of turns of the while loop allowed (None: not finished).
   The result also counts take_step calls and turns *)
Fixpoint gd_loop (fuel max_itr j steps : nat) (s : S) : option (nat * nat * S) :=
  if (j < max_itr)%N then
    if fuel is fuel'.+1 then
      let: (dj, st1, s) := im (Num.min im_gap%:Z (max_itr%:Z - j%:Z)) s in
      let j := (j + dj)%N in
      let: (dj, st2, s) := cg (Num.min gap_every%:Z (max_itr%:Z - j%:Z)) s in
      let j := (j + dj)%N in
      let steps := (steps + st1 + st2)%N in
      if conv s then Some (j, steps, s) else gd_loop fuel' max_itr j steps s
    else None
  else Some (j, steps, s).
End GradDescent.

(* ---- packing (264-277, 314-): an array is its shape and its row-major entries ------------------- *)
Section Pack.
Variable X : Type.
Record arr := Arr { a_shape : seq nat; a_data : seq X }.
Definition wf (a : arr) := size (a_data a) == (\prod_(d <- a_shape a) d)%N.
(* state_to_vec / tensors_to_vec: hstack of ravel() *)
Definition to_vec (A : seq arr) : seq X := flatten [seq a_data a | a <- A].
(* update_state_from_vec: y[ist:iend] reshaped into the old shape; the assignment raises ValueError when
   the slice is too short; superfluous entries are ignored *)
Fixpoint from_vec (A : seq arr) (y : seq X) : option (seq arr) :=
  if A is a :: A' then
    let sz := size (a_data a) in
    if size (take sz y) == sz then
      if from_vec A' (drop sz y) is Some r then Some (Arr (a_shape a) (take sz y) :: r) else None
    else None
  else Some [::].
End Pack.
