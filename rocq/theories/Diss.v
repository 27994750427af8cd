(* Diss.v -- model of EvoMPS_TDVP_Generic_Dissipative (tdvp_gen_diss.py): one Euler-Maruyama step of a quantum trajectory,
   and calc_B_1s_diss.  Sites are counted from 0 here (Python site n+1).  The samples of the Wiener process are arguments. *)
From mathcomp Require Import all_ssreflect all_algebra.
From mathcomp Require Import zify.
From Verif Require Import Base Spec Eps Chain LinAlg Struct Factor Tdvp.
Set Implicit Arguments.
Unset Strict Implicit.
Unset Printing Implicit Defensive.
Import GRing.Theory Num.Theory.
Local Open Scope ring_scope.

Section Diss.
Variables (C : numClosedFieldType) (D q : nat -> nat) (N : nat).
Variables (A : tensors C D) (l r : forall n, smat C (D n) (D n)).
Local Notation L n := (toarray (l n)).
Local Notation R n := (toarray (r n)).
Variables (eigh : eigh_routine C) (qrf : qrf_routine C) (tol : C).
Variable st : (forall n, 'M[C]_(D n)) * (nat -> C).

(* W = (u[0] + 1.j * u[1]) / sqrt(2) (tdvp_gen_diss.py:141); u k is the pair of samples for the k-th operator *)
Definition wiener (u : C * C) : C := (u.1 + 'i * u.2) / sqrtC 2%:R.

(* Leff = -0.5 * Lr.conj().T.dot(Lr) + (conj(Le) + W/dt) * L (tdvp_gen_diss.py:136-148), two- and three-site operators *)
Definition leff2 (dt : C) n (op : op2s C) (Le W : C) : op2s C := fun s t u v =>
  - 2%:R^-1 * (\sum_(x < q n) \sum_(y < q n.+1) (op x y s t)^* * op x y u v) + (Le^* + W / dt) * op s t u v.
Definition leff3 (dt : C) n (op : op3s C) (Le W : C) : op3s C := fun s t z u v w =>
  - 2%:R^-1 * (\sum_(x < q n) \sum_(y < q n.+1) \sum_(k < q n.+2) (op x y k s t z)^* * op x y k u v w)
  + (Le^* + W / dt) * op s t z u v w.

(* the loop over the Lindblad operators (tdvp_gen_diss.py:137-150); the k-th operator gets the k-th pair of samples *)
Fixpoint leffs (X : Type) (eff : nat -> X -> C -> C -> X) (ex : X -> nat -> C) (u : nat -> C * C) (k : nat) (linds : seq (nat * X)) :
    seq (nat * X) :=
  if linds is (n, op) :: t then (n, eff n op (ex op n) (wiener (u k))) :: leffs eff ex u k.+1 t else [::].

(* HL = [-1.j * hn if hn is not None else None]; HL[n] = Leff or HL[n] += Leff (tdvp_gen_diss.py:153-158) *)
Definition add_term (X : Type) (add : X -> X -> X) (HL : nat -> option X) (p : nat * X) : nat -> option X :=
  fun m => if m == p.1 then Some (if HL m is Some h then add h p.2 else p.2) else HL m.
Definition add2 (x y : op2s C) : op2s C := fun s t u v => x s t u v + y s t u v.
Definition add3 (x y : op3s C) : op3s C := fun s t z u v w => x s t z u v w + y s t z u v w.
Definition mi2 (x : op2s C) : op2s C := fun s t u v => - 'i * x s t u v.
Definition mi3 (x : op3s C) : op3s C := fun s t z u v w => - 'i * x s t z u v w.
Definition HL2 dt (ham : nat -> option (op2s C)) linds u : nat -> option (op2s C) :=
  foldl (add_term add2) (fun m => omap mi2 (ham m)) (leffs (leff2 dt) (expect_2s q A (fun n => L n) (fun n => R n)) u 0 linds).
Definition HL3 dt (ham : nat -> option (op3s C)) linds u : nat -> option (op3s C) :=
  foldl (add_term add3) (fun m => omap mi3 (ham m)) (leffs (leff3 dt) (expect_3s q A (fun n => L n) (fun n => R n)) u 0 linds).

(* self.A[n] += -dtau * B[n] with dtau = -dt (tdvp_gen.py:920-923) *)
Definition euler (dtau : C) (B : forall m, option (nat -> 'M[C]_(D m, D m.+1))) : tensors C D :=
  fun m => if (m < N)%N then if B m is Some b then fun s => A m s + - dtau *: b s else A m else A m.
(* take_step_dissipative (tdvp_gen_diss.py:102-175), right gauge, default arguments; None: an exception.  A Lindblad
   operator that does not fit on the chain makes expect_2s / expect_3s raise *)
Definition diss_step2 dt (ham : nat -> option (op2s C)) linds u : option (tensors C D) :=
  if all (fun p => p.1.+1 < N)%N linds then
    let Cs := calc_C2 q N A (HL2 dt ham linds u) in
    omap (fun p => euler (- dt) p.1) (calc_B_r2 q N A l r (calc_K2 q N A l r Cs st).1 eigh qrf tol Cs)
  else None.
Definition diss_step3 dt (ham : nat -> option (op3s C)) linds u : option (tensors C D) :=
  if all (fun p => p.1.+2 < N)%N linds then
    let Cs := calc_C3 q N A (HL3 dt ham linds u) in
    omap (fun p => euler (- dt) p.1) (calc_B_r3 q N A l r (calc_AAs A) (calc_K3 q N A l r Cs st).1 eigh qrf tol Cs)
  else None.

(* calc_B_1s_diss (tdvp_gen_diss.py:177-204) *)
Definition calc_B_1s_diss (op : op1s C) n : nat -> 'M[C]_(D n, D n.+1) :=
  let newA s := \sum_(t < q n) op s t *: A n t in
  let ev := adot (L n) (eps_r_noop (q n) (R n.+1) newA newA) in
  fun s => newA s - ev *: A n s.
End Diss.
