(* Tdvp.v -- model of the time-dependent variational principle for the finite chain, class
   EvoMPS_TDVP_Generic (tdvp_gen.py): the arrays C, K, h_expect, the tangent vector parameters x and
   B in both gauges, for two- and three-site Hamiltonian terms.

   Numbering as in Chain.v: site m here is Python site m+1, bonds keep their numbers.
   self.ham[n], self.C[n] for Python n = m+1 are [ham m], [Cs m] ([None] is Python's None, also the
   initial content of the entries of self.C that are never assigned, tdvp_gen.py:285-294).
   In the right gauge self.K[n] has shape D[n-1] x D[n-1] and is called [K m] (bond m = n-1); in the
   left gauge self.K[n] has shape D[n] x D[n] and is called [KL n].
   self.l, self.r may hold structured matrices ([smat]); products with them are written on
   [toarray], the dispatch of the structured classes is the subject of C22. *)
From mathcomp Require Import all_ssreflect all_algebra.
From Verif Require Import Base Spec Eps Chain LinAlg Struct Factor.
Set Implicit Arguments.
Unset Strict Implicit.
Unset Printing Implicit Defensive.
Import GRing.Theory Num.Theory.
Local Open Scope ring_scope.

Section Tdvp.
Variables (C : numClosedFieldType) (D q : nat -> nat) (N : nat).
Local Notation bonds := (forall n, 'M[C]_(D n)).
Local Notation sbonds := (forall n, smat C (D n) (D n)).
Definition C2arr := forall m, option (nat -> nat -> 'M[C]_(D m, D m.+2)).
Definition C3arr := forall m, option (nat -> nat -> nat -> 'M[C]_(D m, D m.+3)).
Definition AAarr := forall m, nat -> nat -> 'M[C]_(D m, D m.+2).

(* self.AA[n] = tm.calc_AA(self.A[n], self.A[n+1]) (tdvp_gen.py:352-354) *)
Definition calc_AAs (A : tensors C D) : AAarr := fun m => calc_AA (A m) (A m.+1).

(* calc_C (tdvp_gen.py:325-377) with default arguments and a table of terms; Cs m is None for a None
   term and for the entries beyond n_high = N - ham_sites + 1 *)
Definition calc_C2 (A : tensors C D) (ham : nat -> option (op2s C)) : C2arr := fun m =>
  if (m.+1 < N)%N then omap (fun h => calc_C_mat_op_AA (q m) (q m.+1) h (calc_AAs A m)) (ham m)
  else None.
Definition calc_C3 (A : tensors C D) (ham : nat -> option (op3s C)) : C3arr := fun m =>
  if (m.+2 < N)%N then
    omap (fun h => calc_C_3s_mat_op_AAA (q m) (q m.+1) (q m.+2) h (calc_AAA_AA (calc_AAs A m) (A m.+2)))
         (ham m)
  else None.

(* K[n] = x, h_expect[n] = x *)
Definition setK (K : bonds) n (x : 'M[C]_(D n)) : bonds := @upd (fun n => 'M[C]_(D n)) K n x.
Definition seth (hx : nat -> C) n (x : C) : nat -> C := @upd (fun _ => C) hx n x.

Section Arrays.
Variables (A : tensors C D) (l r : sbonds).
Local Notation L n := (toarray (l n)).
Local Notation R n := (toarray (r n)).

(* ---- calc_K (tdvp_gen.py:379-416), tm.calc_K / calc_K_3s (tdvp_common.py:145-155, 182-192) ------ *)
(* the state is self.K and self.h_expect (entry m is h_expect[m+1]) *)
Definition calc_K_step (hs : nat) (Hr : forall m, option 'M[C]_(D m))
    (st : bonds * (nat -> C)) (m : nat) : bonds * (nat -> C) :=
  let: (K, hx) := st in
  if (m + hs <= N)%N then
    if Hr m is Some h then
      (setK K (eps_r_noop (q m) (K m.+1) (A m) (A m) + h),
       seth hx m (adot (L m) h))
    else (setK K (eps_r_noop (q m) (K m.+1) (A m) (A m)), seth hx m 0)
  else (setK K (0 : 'M_(D m)), hx).
(* Hr = eps_r_op_2s_C12_AA34(rp1, C, AAp1), resp. eps_r_op_3s_C123_AAA456(rp2, C, AAp1Ap2) *)
Definition Hr2 (Cs : C2arr) m : option 'M[C]_(D m) :=
  omap (fun c => eps_r_op_2s_C12_AA34 (q m) (q m.+1) (R m.+2) c (calc_AAs A m)) (Cs m).
Definition Hr3 (Cs : C3arr) m : option 'M[C]_(D m) :=
  omap (fun c => eps_r_op_3s_C123_AAA456 (q m) (q m.+1) (q m.+2) (R m.+3) c
                   (calc_AAA_AA (calc_AAs A m) (A m.+2))) (Cs m).
Definition calc_K_loop hs Hr (st : bonds * (nat -> C)) := foldl (calc_K_step hs Hr) st (rev (iota 0 N)).
Definition calc_K2 (Cs : C2arr) st := calc_K_loop 2 (Hr2 Cs) st.
Definition calc_K3 (Cs : C3arr) st := calc_K_loop 3 (Hr3 Cs) st.
(* self.H_expect = sp.asscalar(self.K[1]) (tdvp_gen.py:415-416) *)
Definition H_expect_r (st : bonds * (nat -> C)) : C := entry0 (st.1 0%N).

(* ---- calc_K_l (tdvp_gen.py:418-447), tm.calc_K_l / calc_K_3s_l (tdvp_common.py:167-179, 194-203) - *)
(* None: an exception (a None entry of C is used as an array; K[2] does not exist for N = 1).
   adot_noconj(Hl, r) = sum_ij Hl[i,j] r[j,i] (matmul.py:317-323) *)
Definition adot_noconj n (a b : 'M[C]_n) : C := \sum_i \sum_j a^T i j * b i j.
Definition calc_K_l2_step (Cs : C2arr) (st : option (bonds * (nat -> C))) (j : nat) :
    option (bonds * (nat -> C)) :=
  if st is Some (KL, hx) then
    if Cs j is Some c then
      let Hl := eps_l_op_2s_AA12_C34 (q j) (q j.+1) (L j) (calc_AAs A j) c in
      Some (setK KL (eps_l_noop (q j.+1) (KL j.+1) (A j.+1) (A j.+1) + Hl),
            seth hx j (adot_noconj Hl (R j.+2)))
    else None
  else None.
(* h_expect[n-1] with n = j+3 is entry j+1 here *)
Definition calc_K_l3_step (Cs : C3arr) (st : option (bonds * (nat -> C))) (j : nat) :
    option (bonds * (nat -> C)) :=
  if st is Some (KL, hx) then
    if Cs j is Some c then
      let Hl := eps_l_op_3s_AAA123_C456 (q j) (q j.+1) (q j.+2) (L j)
                  (calc_AAA_AA (calc_AAs A j) (A j.+2)) c in
      Some (setK KL (eps_l_noop (q j.+2) (KL j.+2) (A j.+2) (A j.+2) + Hl),
            seth hx j.+1 (adot_noconj Hl (R j.+3)))
    else None
  else None.
Definition KL_init (KL : bonds) : bonds := @setK (@setK KL 1 0) 2 0.
Definition calc_K_l2 (Cs : C2arr) (st : bonds * (nat -> C)) : option (bonds * (nat -> C)) :=
  if (N < 2)%N then None
  else foldl (calc_K_l2_step Cs) (Some (KL_init st.1, st.2)) (iota 0 (N - 1)).
Definition calc_K_l3 (Cs : C3arr) (st : bonds * (nat -> C)) : option (bonds * (nat -> C)) :=
  if (N < 2)%N then None
  else foldl (calc_K_l3_step Cs) (Some (KL_init st.1, st.2)) (iota 0 (N - 2)).
Definition H_expect_l (st : bonds * (nat -> C)) : C := entry0 (st.1 N).

(* ---- tangent vector parameters ------------------------------------------------------------------ *)
Variables (AA : AAarr) (K KL : bonds).

(* Kp1 of the wrapper calc_x (tdvp_gen.py:519-522) *)
Definition Kp1 (hs m : nat) : option 'M[C]_(D m.+1) :=
  if (m.+1 + hs <= N)%N then Some (K m.+1) else None.

Section X2.
Variable Cs : C2arr.
(* calc_x (tdvp_gen.py:487-551 calling tdvp_common.py:386-420), ham_sites = 2; Vsh[s] is D x k *)
Definition xpart2 m : option (nat -> 'M[C]_(D m, D m.+1)) :=
  match Cs m, Kp1 2 m with
  | None, None => None
  | c, kp => Some (fun s =>
      (if c is Some c' then eps_r_noop (q m.+1) (R m.+2) (c' s) (A m.+1) else 0)
      + (if kp is Some k' then A m s *m k' else 0))
  end.
Definition xleft2 m : option (nat -> 'M[C]_(D m, D m.+1)) :=
  match m return option (nat -> 'M[C]_(D m, D m.+1)) with
  | 0%N => None
  | m'.+1 => omap (fun c s => eps_l_noop (q m') (L m') (A m') (fun t => c t s)) (Cs m')
  end.
Definition calc_x2 m k (Vsh : nat -> 'M[C]_(D m.+1, k))
    (ls lsi : 'M[C]_(D m)) (rs rsi : 'M[C]_(D m.+1)) : 'M[C]_(D m, k) :=
  (if xpart2 m is Some f then ls *m \sum_(s < q m) f s *m (rsi *m Vsh s) else 0)
  + (if xleft2 m is Some f then lsi *m \sum_(s < q m) f s *m (rs *m Vsh s) else 0).

(* calc_x_l (tdvp_gen.py:553-609 calling tdvp_common.py:469-503), ham_sites = 2; VshL[s] is k x Dm1.
   None: Cm1 is None although lm2 is not (TypeError on Cm1[:, s]) *)
Definition xl_left2 m : option (nat -> 'M[C]_(D m, D m.+1)) :=
  match m return option (nat -> 'M[C]_(D m, D m.+1)) with
  | 0%N => Some (fun _ => 0)
  | m'.+1 => omap (fun c s => eps_l_noop (q m') (L m') (A m') (fun t => c t s)
                              + KL m'.+1 *m A m'.+1 s) (Cs m')
  end.
Definition calc_x_l2 m k (VshL : nat -> 'M[C]_(k, D m))
    (ls lsi : 'M[C]_(D m)) (rs rsi : 'M[C]_(D m.+1)) : option 'M[C]_(k, D m.+1) :=
  let x1 := if Cs m is Some c then
      (\sum_(s < q m) VshL s *m (ls *m eps_r_noop (q m.+1) (R m.+2) (c s) (A m.+1))) *m rsi
    else 0 in
  omap (fun f : nat -> 'M[C]_(D m, D m.+1) => x1 + (\sum_(s < q m) VshL s *m (lsi *m f s)) *m rs) (xl_left2 m).
End X2.

Section X3.
Variable Cs : C3arr.
(* calc_x_3s (tdvp_common.py:422-467).  None: the assertion "Kp1 implies C" fails, or Cm2 is None
   although lm3 is not (TypeError on Cm2[:, :, u]) *)
Definition xpart3 m : option (option (nat -> 'M[C]_(D m, D m.+1))) :=
  match Cs m, Kp1 3 m with
  | None, Some _ => None
  | None, None => Some None
  | Some c, kp => Some (Some (fun s =>
      eps_r_op_2s_C12_AA34 (q m.+1) (q m.+2) (R m.+3) (c s) (AA m.+1)
      + (if kp is Some k' then A m s *m k' else 0)))
  end.
Definition xmid3 m : option (nat -> 'M[C]_(D m, D m.+1)) :=
  match m return option (nat -> 'M[C]_(D m, D m.+1)) with
  | 0%N => None
  | m'.+1 => omap (fun (c : nat -> nat -> nat -> 'M[C]_(D m', D m'.+3)) t => \sum_(s < q m')
       (L m' *m A m' s)^† *m eps_r_noop (q m'.+2) (R m'.+3) (c s t) (A m'.+2)) (Cs m')
  end.
Definition xleft3 m : option (option (nat -> 'M[C]_(D m, D m.+1))) :=
  match m return option (option (nat -> 'M[C]_(D m, D m.+1))) with
  | m'.+2 => omap (fun c => Some (fun u =>
       eps_l_op_2s_AA12_C34 (q m') (q m'.+1) (L m') (AA m') (fun s t => c s t u))) (Cs m')
  | _ => Some None
  end.
Definition calc_x3 m k (Vsh : nat -> 'M[C]_(D m.+1, k))
    (ls lsi : 'M[C]_(D m)) (rs rsi : 'M[C]_(D m.+1)) : option 'M[C]_(D m, k) :=
  if xpart3 m is Some p1 then
    if xleft3 m is Some p3 then
      Some ((if p1 is Some f then ls *m \sum_(s < q m) f s *m (rsi *m Vsh s) else 0)
            + (if xmid3 m is Some f then lsi *m \sum_(s < q m) f s *m (rsi *m Vsh s) else 0)
            + (if p3 is Some f then lsi *m \sum_(s < q m) f s *m (rs *m Vsh s) else 0))
    else None
  else None.

(* calc_x_l_3s (tdvp_common.py:505-529); VL[s] = VshL[s]^†.  In the Cm1 term the array "part" has
   one entry for each s in range(q) with q = A.shape[0], although the index being enumerated is the
   physical index of the next site: the entry Cm1_t[s] does not exist (IndexError, None) when
   q[n] > q[n+1], and entries are missing when q[n] < q[n+1] (eps_r_noop runs over the length of its
   first tensor). *)
Definition xl_mid3 m k (VshL : nat -> 'M[C]_(k, D m)) (lsi : 'M[C]_(D m)) : option 'M[C]_(k, D m.+1) :=
  match m return (nat -> 'M[C]_(k, D m)) -> 'M[C]_(D m) -> option 'M[C]_(k, D m.+1) with
  | 0%N => fun _ _ => Some 0
  | m'.+1 => fun VshL lsi =>
      if Cs m' is Some c then
        if (q m'.+1 <= q m'.+2)%N then
          let lVL t := lsi *m (VshL t)^† in
          let part u := eps_l_op_2s_AA12_C34 (q m') (q m'.+1) (L m') (calc_AA (A m') lVL)
                          (fun s t => c s t u) in
          Some (eps_r_noop (q m'.+1) (R m'.+3) part (A m'.+2))
        else None
      else Some 0
  end VshL lsi.
Definition xl_left3 m : option (nat -> 'M[C]_(D m, D m.+1)) :=
  match m return option (nat -> 'M[C]_(D m, D m.+1)) with
  | m'.+2 => omap (fun c u =>
       eps_l_op_2s_AA12_C34 (q m') (q m'.+1) (L m') (AA m') (fun s t => c s t u)) (Cs m')
  | _ => None
  end.
Definition calc_x_l3 m k (VshL : nat -> 'M[C]_(k, D m))
    (ls lsi : 'M[C]_(D m)) (rs rsi : 'M[C]_(D m.+1)) : option 'M[C]_(k, D m.+1) :=
  let VL s := (VshL s)^† in
  let x0 := if (0 < m)%N then eps_l_noop (q m) (lsi *m KL m) VL (A m) *m rs else 0 in
  let x1 := if Cs m is Some c then
      eps_l_noop (q m) ls VL
        (fun s => eps_r_op_2s_C12_AA34 (q m.+1) (q m.+2) (R m.+3) (c s) (AA m.+1)) *m rsi else 0 in
  let x3 := if xl_left3 m is Some f then eps_l_noop (q m) lsi VL f *m rs else 0 in
  omap (fun x2 => x0 + x1 + x2 *m rsi + x3) (xl_mid3 VshL lsi).
End X3.

(* ---- B (tdvp_gen.py:712-756) -------------------------------------------------------------------- *)
Variables (eigh : eigh_routine C) (qrf : qrf_routine C) (tol : C).

(* l_s_m1, l_si_m1, r_s, r_si of calc_l_r_roots(self.l[n-1], self.r[n]) *)
Definition l_s m : smat C (D m) (D m) := (herm_sqrt_inv eigh tol (l m)).1.1.
Definition l_si m : smat C (D m) (D m) := (herm_sqrt_inv eigh tol (l m)).1.2.
Definition r_s m : smat C (D m.+1) (D m.+1) := (herm_sqrt_inv eigh tol (r m.+1)).1.1.
Definition r_si m : smat C (D m.+1) (D m.+1) := (herm_sqrt_inv eigh tol (r m.+1)).1.2.
Definition kr m := (D m.+1 * q m - D m)%N.
Definition kl m := (q m * D m - D m.+1)%N.
Definition Vrh m : nat -> 'M[C]_(D m.+1, kr m) := vsh_at qrf (q m) (A m) (r_s m).
Definition Vlh m : nat -> 'M[C]_(kl m, D m) := vshl_at qrf (q m) (A m) (l_s m).
(* B[s] = l_si_m1.dot(x).dot(r_si.dot(Vrh[s]).conj().T) *)
Definition Bpar_r m (x : 'M[C]_(D m, kr m)) : nat -> 'M[C]_(D m, D m.+1) :=
  fun s => toarray (l_si m) *m x *m (toarray (r_si m) *m Vrh m s)^†.
(* B[s] = mmul(l_si_m1, H(Vlh[s]), x, r_si) *)
Definition Bpar_l m (x : 'M[C]_(kl m, D m.+1)) : nat -> 'M[C]_(D m, D m.+1) :=
  fun s => toarray (l_si m) *m (Vlh m s)^† *m x *m toarray (r_si m).

(* x of _calc_B_r_n / _calc_B_l_n *)
Definition x_r2 Cs m := calc_x2 Cs (Vrh m) (toarray (l_s m)) (toarray (l_si m)) (toarray (r_s m)) (toarray (r_si m)).
Definition x_r3 Cs m := calc_x3 Cs (Vrh m) (toarray (l_s m)) (toarray (l_si m)) (toarray (r_s m)) (toarray (r_si m)).
Definition x_l2 Cs m := calc_x_l2 Cs (Vlh m) (toarray (l_s m)) (toarray (l_si m)) (toarray (r_s m)) (toarray (r_si m)).
Definition x_l3 Cs m := calc_x_l3 Cs (Vlh m) (toarray (l_s m)) (toarray (l_si m)) (toarray (r_s m)) (toarray (r_si m)).

(* _calc_B_r_n, _calc_B_l_n: the outer None is an exception, [Some None] is "no tangent vector
   defined for that site"; the second component is eta_sq[n] (zero when not set) *)
Definition Bres m := (option (nat -> 'M[C]_(D m, D m.+1)) * C)%type.
Definition calc_B_r_n (x : forall m, option 'M[C]_(D m, kr m)) m : option (Bres m) :=
  if (D m.+1 * q m <= D m)%N then Some (None, 0)
  else omap (fun x => (Some (Bpar_r x), adot x x)) (x m).
Definition calc_B_l_n (x : forall m, option 'M[C]_(kl m, D m.+1)) m : option (Bres m) :=
  if (q m * D m <= D m.+1)%N then Some (None, 0)
  else omap (fun x => (Some (Bpar_l x), adot x x)) (x m).

(* calc_B (tdvp_gen.py:651-696): B for all sites, and eta = sqrt(sum eta_sq) *)
Definition calc_B (Bn : forall m, option (Bres m)) :
    option ((forall m, option (nat -> 'M[C]_(D m, D m.+1))) * C) :=
  if all (fun m => Bn m) (iota 0 N) then
    Some (fun m => if Bn m is Some b then b.1 else None,
          sqrtC (\sum_(m < N) (if Bn m is Some b then b.2 else 0)))
  else None.
Definition calc_B_r2 Cs := calc_B (calc_B_r_n (fun m => Some (x_r2 Cs m))).
Definition calc_B_r3 Cs := calc_B (calc_B_r_n (x_r3 Cs)).
Definition calc_B_l2 Cs := calc_B (calc_B_l_n (x_l2 Cs)).
Definition calc_B_l3 Cs := calc_B (calc_B_l_n (x_l3 Cs)).
End Arrays.
End Tdvp.
