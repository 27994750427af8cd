(* SwTdvp.v -- model of the time-dependent variational principle of the sandwich class EvoMPS_TDVP_Sandwich
   (tdvp_sandwich.py:400-706): calc_C, calc_K, calc_x, calc_B_centre, calc_B_n, calc_B.

   Numbering.  The Python sites 1 .. N are the nonuniform window; sites <= 0 and > N are the uniform bulk states.  Python
   site n is site n + a here, with an arbitrary a >= ham_sites - 1; get_A(n) is [A (n+a)], get_l(n) is [l (n+a+1)] (the
   bond right of the site), get_r(n) is [r (n+a+1)], K[n] is [K (n+a)] (the bond left of site n), K_l[n] is [KL (n+a+1)],
   get_C(n) is [Cs (n+a)], h_expect[n] is entry n+a.  The centre site N_centre is [mc] = N_centre + a.
   The functions of tdvp_common used here (calc_K, calc_K_l, calc_x, calc_x_l, calc_Vsh, calc_l_r_roots and their
   three-site forms) are those of the finite chain, modelled in Tdvp.v; its parameter for the end of the chain is set to
   [far], beyond every site reached here. *)
From mathcomp Require Import all_ssreflect all_algebra.
From Verif Require Import Base Spec Eps Chain LinAlg Struct Factor Tdvp.
Set Implicit Arguments.
Unset Strict Implicit.
Unset Printing Implicit Defensive.
Import GRing.Theory Num.Theory.
Local Open Scope ring_scope.

Section SwTdvp.
Variables (C : numClosedFieldType) (D q : nat -> nat) (a N Nc : nat).
Local Notation bonds := (forall n, 'M[C]_(D n)).
Local Notation sbonds := (forall n, smat C (D n) (D n)).
Local Notation tens := (forall m, nat -> 'M[C]_(D m, D m.+1)).
Definition far := (a + N + 4)%N.

(* calc_C (tdvp_sandwich.py:405-443) with default arguments and a table of terms: n = 2 - ham_sites .. N;
   get_C (400-403) gives None outside -1 .. N; here every entry outside the range of the loop is None *)
Definition sw_in (hs m : nat) := (a + 2 - hs <= m <= a + N)%N.
Definition sw_C2 (A : tensors C D) (ham : nat -> op2s C) : C2arr C D := fun m =>
  if sw_in 2 m then Some (calc_C_mat_op_AA (q m) (q m.+1) (ham m) (calc_AAs A m)) else None.
Definition sw_C3 (A : tensors C D) (ham : nat -> op3s C) : C3arr C D := fun m =>
  if sw_in 3 m then
    Some (calc_C_3s_mat_op_AAA (q m) (q m.+1) (q m.+2) (ham m) (calc_AAA_AA (calc_AAs A m) (A m.+2)))
  else None.

Section Arrays.
Variables (A : tensors C D) (l r : sbonds).
Local Notation L n := (toarray (l n)).
Local Notation R n := (toarray (r n)).

(* ---- calc_K (tdvp_sandwich.py:445-487) ---------------------------------------------------------- *)
(* KR = uni_r.K[0], Kleft = K_left[-1] and hleft = h_left_uni are the results for the uniform states (UTdvp.v).
   K0, KL0: the arrays before the call.  The result is (K, K_l, h_expect, dH_expect); None is an exception.
   The right loop runs n = N, N-1, .., Nc - ham_sites + 2, the left loop n = 1 .. Nc; the left step for Python n works
   on the term n - ham_sites + 1. *)
Definition sw_lo (hs : nat) := (a + Nc + 2 - hs)%N.
Definition sw_calc_K (hs : nat) (Hr : forall m, option 'M[C]_(D m))
    (lstep : option (bonds * (nat -> C)) -> nat -> option (bonds * (nat -> C)))
    (KR : 'M[C]_(D (a + N).+1)) (Kleft : 'M[C]_(D a.+1)) (hleft : C) (K0 KL0 : bonds) :
    option (bonds * bonds * (nat -> C) * C) :=
  let st := foldl (calc_K_step q far A l hs Hr) (setK K0 KR, fun _ => 0) (rev (iota (sw_lo hs) ((a + N).+1 - sw_lo hs))) in
  if foldl lstep (Some (setK KL0 Kleft, st.2)) (iota (a + 2 - hs) Nc) is Some (KL, hx) then
    Some (st.1, KL, hx,
      adot_noconj (KL (a + Nc).+1) (R (a + Nc).+1) + adot (L (sw_lo hs)) (st.1 (sw_lo hs)) - (N + hs - 1)%:R * hleft)
  else None.
Definition sw_calc_K2 (Cs : C2arr C D) := sw_calc_K 2 (Hr2 q A r Cs) (calc_K_l2_step q A l r Cs).
Definition sw_calc_K3 (Cs : C3arr C D) := sw_calc_K 3 (Hr3 q A r Cs) (calc_K_l3_step q A l r Cs).

(* ---- tangent vector ------------------------------------------------------------------------------ *)
Variables (K KL : bonds) (hx : nat -> C).
Variables (eigh : eigh_routine C) (qrf : qrf_routine C) (tol : C).

(* try: x.inv() except AttributeError: mm.invmh(x) (tdvp_sandwich.py:547-555) *)
Definition sw_inv n (x : smat C n n) : 'M[C]_n :=
  if sinv x is Some y then toarray y else invmh eigh (toarray x).
(* self.h_expect[n]; a negative index counts from the end of the array of length N + 1 *)
Definition hx_at (m : nat) : C := if (m < a)%N then hx (m + N.+1)%N else hx m.

(* K_l_cm1 and Kcp1 (tdvp_sandwich.py:567-568) *)
Definition sw_Klc m : 'M[C]_(D m) := KL m - adot_noconj (KL m) (R m) *: L m.
Definition sw_Kcp m : 'M[C]_(D m.+1) := K m.+1 - adot (L m.+1) (K m.+1) *: R m.+1.

(* calc_B_centre, ham_sites = 2 (tdvp_sandwich.py:536-587), at site m'.+1.  The loops run over range(self.q[2]) and
   range(self.q[0]) whatever the centre site is; None: an index out of range *)
Definition sw_Bc2 m' (c cm1 : forall s : nat, nat -> 'M[C]_(_, _)) : nat -> 'M[C]_(D m'.+1, D m'.+2) :=
  let m := m'.+1 in
  let rci := sw_inv (r m.+1) in let lci := sw_inv (l m) in
  let Cc s t : 'M[C]_(D m, D m.+2) := c s t - hx_at m *: calc_AAs A m s t in
  let Ccm1 t s : 'M[C]_(D m', D m.+1) := cm1 t s - hx_at m' *: calc_AAs A m' t s in
  fun s => A m s *m sw_Kcp m *m rci
         + \sum_(t < q (a + 2)) Cc s t *m R m.+2 *m (A m.+1 t)^† *m rci
         + lci *m (sw_Klc m *m A m s + \sum_(t < q a) (A m' t)^† *m (L m' *m Ccm1 t s)).
Definition sw_B_centre2 (Cs : C2arr C D) m : option (nat -> 'M[C]_(D m, D m.+1)) :=
  match m return option (nat -> 'M[C]_(D m, D m.+1)) with
  | 0%N => None
  | m'.+1 =>
    if ((q (a + 2) <= q m'.+2) && (q a <= q m'))%N then
      if Cs m'.+1 is Some c then if Cs m' is Some cm1 then Some (sw_Bc2 c cm1) else None else None
    else None
  end.
(* ham_sites = 3 (tdvp_sandwich.py:588-605), at site m'.+2; the code calls tm.eps_r_op_2s_AA12_C34(r, Cc[s], AA), which
   is the same function as eps_r_op_2s_C12_AA34 (Eps.v) *)
Definition sw_Bc3 m' (c cm1 cm2 : forall s t : nat, nat -> 'M[C]_(_, _)) : nat -> 'M[C]_(D m'.+2, D m'.+3) :=
  let m1 := m'.+1 in let m := m'.+2 in
  let rci := sw_inv (r m.+1) in let lci := sw_inv (l m) in
  let AAA j := calc_AAA_AA (calc_AAs A j) (A j.+2) in
  let Cc s t u : 'M[C]_(D m, D m.+3) := c s t u - hx_at m *: AAA m s t u in
  let Ccm1 s t u : 'M[C]_(D m1, D m1.+3) := cm1 t s u - hx_at m1 *: AAA m1 t s u in
  let Ccm2 s t u : 'M[C]_(D m', D m'.+3) := cm2 t u s - hx_at m' *: AAA m' t u s in
  fun s => A m s *m sw_Kcp m *m rci
         + lci *m (sw_Klc m *m A m s)
         + eps_r_op_2s_C12_AA34 (q m.+1) (q m.+2) (R m.+3) (Cc s) (calc_AAs A m.+1) *m rci
         + lci *m eps_l_op_2s_AA12_C34 (q m') (q m1) (L m') (calc_AAs A m') (Ccm2 s)
         + lci *m eps_l_noop (q m1) (L m1) (A m1) (fun t => eps_r_noop (q m.+1) (R m.+2) (Ccm1 s t) (A m.+1)) *m rci.
Definition sw_B_centre3 (Cs : C3arr C D) m : option (nat -> 'M[C]_(D m, D m.+1)) :=
  match m return option (nat -> 'M[C]_(D m, D m.+1)) with
  | m'.+2 =>
    if Cs m'.+2 is Some c then if Cs m'.+1 is Some cm1 then if Cs m' is Some cm2 then Some (sw_Bc3 c cm1 cm2)
    else None else None else None
  | _ => None
  end.
(* eta_sq of the centre site (tdvp_sandwich.py:607-608) *)
Definition sw_eta_c m (B : nat -> 'M[C]_(D m, D m.+1)) : C := adot (L m) (eps_r_noop (q m) (R m.+1) B B).

(* B[s] = mmul(l_sqrt_inv, x, H(Vsh[s]), r_sqrt_inv) right of the centre (tdvp_sandwich.py:637-639) *)
Definition sw_Bpar_r m (x : 'M[C]_(D m, kr D q m)) : nat -> 'M[C]_(D m, D m.+1) :=
  fun s => toarray (l_si l eigh tol m) *m x *m (Vrh q A r eigh qrf tol m s)^† *m toarray (r_si r eigh tol m).

(* calc_B_n with set_eta=True (tdvp_sandwich.py:612-664): the outer None is an exception, the inner one the result None
   (no tangent vector); the second component is eta_sq[n] *)
Definition sw_B_n (xr : forall m, option 'M[C]_(D m, kr D q m)) (xl : forall m, option 'M[C]_(kl D q m, D m.+1))
    (Bc : forall m, option (nat -> 'M[C]_(D m, D m.+1))) m : option (Bres C D m) :=
  if m == (a + Nc)%N then omap (fun B => (Some B, sw_eta_c B)) (Bc m)
  else if (a + Nc < m)%N then
    if (D m.+1 * q m <= D m)%N then Some (None, 0)
    else omap (fun x => (Some (sw_Bpar_r x), adot x x)) (xr m)
  else
    if (q m * D m <= D m.+1)%N then Some (None, 0)
    else omap (fun x => (Some (Bpar_l A l r eigh qrf tol x), adot x x)) (xl m).
(* calc_B (tdvp_sandwich.py:666-676) *)
Definition sw_calc_B (Bn : forall m, option (Bres C D m)) :
    option ((forall m, option (nat -> 'M[C]_(D m, D m.+1))) * C) :=
  if all (fun m => Bn m) (iota a.+1 N) then
    Some (fun m => if Bn m is Some b then b.1 else None,
          sqrtC (\sum_(k < N) (if Bn (a.+1 + k)%N is Some b then b.2 else 0)))
  else None.
(* calc_x (tdvp_sandwich.py:489-533) is tm.calc_x and tm.calc_x_l and their three-site forms *)
Definition sw_calc_B2 (Cs : C2arr C D) :=
  sw_calc_B (sw_B_n (fun m => Some (x_r2 q far A l r K eigh qrf tol Cs m)) (x_l2 q A l r KL eigh qrf tol Cs) (sw_B_centre2 Cs)).
Definition sw_calc_B3 (Cs : C3arr C D) :=
  sw_calc_B (sw_B_n (x_r3 q far A l r (calc_AAs A) K eigh qrf tol Cs) (x_l3 q A l r (calc_AAs A) KL eigh qrf tol Cs) (sw_B_centre3 Cs)).
End Arrays.
End SwTdvp.
