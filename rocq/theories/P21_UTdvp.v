(* P21_UTdvp.v -- C58 (energy density and K of the uniform chain), C59 (its tangent vector), C60 (K_left). *)
From mathcomp Require Import all_ssreflect all_algebra.
From mathcomp Require Import zify.
From Verif Require Import Base Spec Eps Eps2 Chain ChainProofs LinAlg Struct Factor Tangent BTangent Tdvp TdvpProofs
  TdvpProofs2 TdvpProofs3 Uniform UTdvp UTdvpL.
Set Implicit Arguments.
Unset Strict Implicit.
Unset Printing Implicit Defensive.
Import Order.TTheory GRing.Theory Num.Theory.
Local Open Scope ring_scope.

(* The infinite chain seen through windows: window (k0, N) holds N consecutive sites, the first of which has the
   tensor A[k0 % L]; l and r of the bonds at its ends represent the rest of the chain. *)
Section Uni.
Variables (C : numClosedFieldType) (L q D : nat) (A : nat -> nat -> 'M[C]_D) (l r : nat -> smat C D D).
Notation Ld k := (toarray (l k)).
Notation Rd k := (toarray (r k)).
Hypotheses (L0 : (0 < L)%N) (hc : consistent L q A (fun k => Ld k) (fun k => Rd k)).
Hypothesis nrm : adot (Ld L.-1) (Rd L.-1) = 1.
Notation qq := (fun _ : nat => q).
Notation prv := (Uniform.prv L).
Notation nxt := (UTdvp.nxt L).
Notation wA k0 := (Uniform.wA L A k0).
Notation wl k0 := (Uniform.wl L (fun k => Ld k) k0).
Notation wr k0 := (Uniform.wr L (fun k => Rd k) k0).
Notation at_ k0 n := ((k0 + n) %% L)%N.
(* <psi| |psi> and <psi| o |psi> of a window *)
Notation wbra k0 N phi := (bdotst qq N (wl k0 0%N) (wr k0 N) (psi (wA k0) N) phi).

Notation K2 h := (ucalc_K L q A l r (uHr2 L q A r (uC2 L q A h))).
Notation K3 h := (ucalc_K L q A l r (uHr3 L q A r (uC3 L q A h))).
Notation Ktp tp := (ucalc_K L q A l r (uHrtp L q A r (uCtp L q A tp))).

(* ---- C58 ---- *)
(* h_expect is the expectation value of the L terms of one cell, divided by L, wherever the cell starts *)
Theorem C58_energy_density_2s (h : op2s C) k0 N : (L < N)%N ->
  uh_expect L q A l (uHr2 L q A r (uC2 L q A h)) =
  (\sum_(n < L) wbra k0 N (op2 qq n h (psi (wA k0) N))) / L%:R.
Proof.
move=> LN; rewrite /uh_expect (h_totE L0 hc); congr (_ / _).
rewrite -(sum_shift k0 (fun k => adot (Ld (prv k)) (uHr2 L q A r (uC2 L q A h) k)) L0).
apply: eq_bigr => n _; rewrite [(n + k0)%N]addnC; apply: (e2w L0 hc).
by have := ltn_ord n; lia.
Qed.
Theorem C58_energy_density_3s (h : op3s C) k0 N : (L.+1 < N)%N ->
  uh_expect L q A l (uHr3 L q A r (uC3 L q A h)) =
  (\sum_(n < L) wbra k0 N (op3 qq n h (psi (wA k0) N))) / L%:R.
Proof.
move=> LN; rewrite /uh_expect (h_totE L0 hc); congr (_ / _).
rewrite -(sum_shift k0 (fun k => adot (Ld (prv k)) (uHr3 L q A r (uC3 L q A h) k)) L0).
apply: eq_bigr => n _; rewrite [(n + k0)%N]addnC; apply: (e3w L0 hc).
by have := ltn_ord n; lia.
Qed.
Theorem C58_energy_density_tp (tp : seq (op1s C * op1s C)) k0 N : (L < N)%N ->
  uh_expect L q A l (uHrtp L q A r (uCtp L q A tp)) =
  (\sum_(n < L) wbra k0 N (op2 qq n (op_of_tp tp) (psi (wA k0) N))) / L%:R.
Proof.
move=> LN; rewrite -(C58_energy_density_2s _ _ LN) /uh_expect !(h_totE L0 hc); congr (_ / _).
by apply: eq_bigr => k _; rewrite uHrtpE.
Qed.
(* a consistent, normalised state has norm one in every window *)
Theorem C58_window_norm k0 N : wbra k0 N (psi (wA k0) N) = 1.
Proof.
have e := norm_cut (wup_l k0 L0 hc N) (wup_r k0 L0 hc N) (leq0n N).
by rewrite -e -[RHS](norm_all L0 hc nrm (ltn_pmod k0 L0)) /Uniform.wl /Uniform.wr addn0.
Qed.
(* K[k0] is the action of all terms to its right, with their energy subtracted: for every N, the terms inside the N
   sites following the bond, plus K at the far end for the terms beyond *)
Theorem C58_K_2s (h : op2s C) Ki K0 k0 N (X : 'M[C]_D) : solves_r L q A l r (uHr2 L q A r (uC2 L q A h)) K0 ->
  (k0 < L)%N -> (1 < N)%N ->
  adot X (K2 h Ki K0 k0) =
    bdotst qq N X (wr k0 N) (psi (wA k0) N) (Ham2 qq N (fun _ => Some h) (psi (wA k0) N))
    - (\sum_(j < N.-1) wbra k0 N (op2 qq j h (psi (wA k0) N))) * bdotst qq N X (wr k0 N) (psi (wA k0) N) (psi (wA k0) N)
    + bdotst qq N.-1 X (K2 h Ki K0 (at_ k0 N.-1)) (psi (wA k0) N.-1) (psi (wA k0) N.-1).
Proof.
move=> sol kL N1; have e0 : at_ k0 0 = k0 by rewrite addn0 modn_small.
have := @wK_formula C L q D A l r L0 hc k0 _ _ 2 _ _ (@HrO2 C L q D A r L0 k0 h) (K_rec_all L0 hc nrm Ki sol) N X N1 isT.
rewrite e0 => ->; rewrite bdotst_Ham2 !subSS subn1; congr (_ - _ * _ + _).
by apply: eq_bigr => j _; apply: (e2w L0 hc); have := ltn_ord j; lia.
Qed.
Theorem C58_K_3s (h : op3s C) Ki K0 k0 N (X : 'M[C]_D) : solves_r L q A l r (uHr3 L q A r (uC3 L q A h)) K0 ->
  (k0 < L)%N -> (2 < N)%N ->
  adot X (K3 h Ki K0 k0) =
    bdotst qq N X (wr k0 N) (psi (wA k0) N) (Ham3 qq N (fun _ => Some h) (psi (wA k0) N))
    - (\sum_(j < N.-2) wbra k0 N (op3 qq j h (psi (wA k0) N))) * bdotst qq N X (wr k0 N) (psi (wA k0) N) (psi (wA k0) N)
    + bdotst qq N.-2 X (K3 h Ki K0 (at_ k0 N.-2)) (psi (wA k0) N.-2) (psi (wA k0) N.-2).
Proof.
move=> sol kL N1; have e0 : at_ k0 0 = k0 by rewrite addn0 modn_small.
have := @wK_formula C L q D A l r L0 hc k0 _ _ 3 _ _ (@HrO3 C L q D A r L0 k0 h) (K_rec_all L0 hc nrm Ki sol) N X N1 isT.
rewrite e0 => ->; rewrite bdotst_Ham3 !subSS subn2; congr (_ - _ * _ + _).
by apply: eq_bigr => j _; apply: (e3w L0 hc); have := ltn_ord j; lia.
Qed.
(* tensor-product terms give the same K as the dense term they denote *)
Theorem C58_K_tp tp Ki K0 : (forall k, Ktp tp Ki K0 k = K2 (op_of_tp tp) Ki K0 k) /\
  (solves_r L q A l r (uHrtp L q A r (uCtp L q A tp)) K0 <-> solves_r L q A l r (uHr2 L q A r (uC2 L q A (op_of_tp tp))) K0).
Proof.
split=> [k|].
  rewrite /ucalc_K; move: (setv _ _ _) => F; elim: (rev _) F => //= j ks IH F.
  by rewrite (_ : uK_step _ _ _ _ _ (uHrtp _ _ _ _ _) F j = uK_step L q A l r (uHr2 L q A r (uC2 L q A (op_of_tp tp))) F j) // /uK_step uHrtpE.
have e : Hr_tot L q A (uHrtp L q A r (uCtp L q A tp)) = Hr_tot L q A (uHr2 L q A r (uC2 L q A (op_of_tp tp))).
  by rewrite !(Hr_totE _ _ L0); apply: eq_bigr => k _; rewrite uHrtpE.
by rewrite /solves_r /QHr /h_tot e.
Qed.
(* <l|K> = 0 on every bond: the part of K along the fixed point is fixed *)
Theorem C58_K_traceless_2s (h : op2s C) Ki K0 k : solves_r L q A l r (uHr2 L q A r (uC2 L q A h)) K0 -> (k < L)%N ->
  adot (Ld (prv k)) (K2 h Ki K0 k) = 0.
Proof. by move=> sol kL; exact: (adot_K L0 hc nrm Ki sol kL). Qed.
Theorem C58_K_traceless_3s (h : op3s C) Ki K0 k : solves_r L q A l r (uHr3 L q A r (uC3 L q A h)) K0 -> (k < L)%N ->
  adot (Ld (prv k)) (K3 h Ki K0 k) = 0.
Proof. by move=> sol kL; exact: (adot_K L0 hc nrm Ki sol kL). Qed.

(* ---- C59 ---- *)
Variables (eigh : eigh_routine C) (qrf : qrf_routine C) (tol : C).
Hypotheses (eighP : eigh_contract eigh) (qrfP : qrf_contract qrf) (tol0 : 0 <= tol).
Hypothesis (hl : forall k, (k < L)%N -> herm (Ld k)) (hr : forall k, (k < L)%N -> herm (Rd k)).
Notation uB k y := (UTdvp.uB L A l r eigh qrf tol k y).
Notation ux2 K h := (UTdvp.ux2 L q A l r eigh qrf tol K (uC2 L q A h)).
Notation ux3 K h := (UTdvp.ux3 L q A l r eigh qrf tol K (uC3 L q A h)).
Notation uxtp K tp := (UTdvp.uxtp L q A l r eigh qrf tol K (uCtp L q A tp)).
(* the window state with the tensor of one site replaced *)
Notation with_ k0 m T N := (psi (@rep C (fun _ => D) (wA k0) m T) N).

(* every B(x) satisfies the right gauge condition *)
Theorem C59_gauge k (y : 'M[C]_(D, D * q - D)) : (k < L)%N -> \sum_(s < q) A k s *m Rd k *m (uB k y s)^† = 0.
Proof.
move=> kL; have := @uB_rgauge C L q D A l r L0 k eigh qrf tol eighP qrfP tol0 hl hr 0 y; rewrite /rgauge /eps_r_noop /= addn0 modn_small // => e.
rewrite -[RHS]e; apply: eq_bigr => s _; rewrite /Uniform.wA /Uniform.wr prv_at // addn0 modn_small //.
Qed.
(* x holds the components of H |psi> along the vectors B(y): the terms inside the window, plus K for those beyond *)
Theorem C59_components_2s (h : op2s C) Ki K0 k0 N m (y : 'M[C]_(D, D * q - D)) :
  solves_r L q A l r (uHr2 L q A r (uC2 L q A h)) K0 -> (0 < m)%N -> (m.+2 <= N)%N ->
  bdotst qq N (wl k0 0%N) (wr k0 N) (with_ k0 m (uB (at_ k0 m) y) N) (Ham2 qq N (fun _ => Some h) (psi (wA k0) N))
  + bdotst qq N.-1 (wl k0 0%N) (K2 h Ki K0 (at_ k0 N.-1)) (with_ k0 m (uB (at_ k0 m) y) N.-1) (psi (wA k0) N.-1) =
  adot y (ux2 (K2 h Ki K0) h (at_ k0 m)).
Proof.
move=> sol m0 mN.
exact: (@comp_u2 C L q D A l r L0 hc k0 eigh qrf tol eighP qrfP tol0 hl hr _ _ h N m y (K_rec_all L0 hc nrm Ki sol) m0 mN).
Qed.
Theorem C59_components_3s (h : op3s C) Ki K0 k0 N m (y : 'M[C]_(D, D * q - D)) :
  solves_r L q A l r (uHr3 L q A r (uC3 L q A h)) K0 -> (1 < m)%N -> (m.+3 <= N)%N ->
  bdotst qq N (wl k0 0%N) (wr k0 N) (with_ k0 m (uB (at_ k0 m) y) N) (Ham3 qq N (fun _ => Some h) (psi (wA k0) N))
  + bdotst qq N.-2 (wl k0 0%N) (K3 h Ki K0 (at_ k0 N.-2)) (with_ k0 m (uB (at_ k0 m) y) N.-2) (psi (wA k0) N.-2) =
  adot y (ux3 (K3 h Ki K0) h (at_ k0 m)).
Proof.
move=> sol m0 mN.
exact: (@comp_u3 C L q D A l r L0 hc k0 eigh qrf tol eighP qrfP tol0 hl hr _ _ h N m y (K_rec_all L0 hc nrm Ki sol) m0 mN).
Qed.
Theorem C59_x_tp tp K k : (k < L)%N -> uxtp K tp k = ux2 K (op_of_tp tp) k.
Proof. by move=> kL; exact: uxtpE. Qed.
(* the vectors are orthogonal to the state and, at different sites of any window, to each other *)
Theorem C59_orthogonal_to_state k0 N m (y : 'M[C]_(D, D * q - D)) : (m < N)%N ->
  bdotst qq N (wl k0 0%N) (wr k0 N) (with_ k0 m (uB (at_ k0 m) y) N) (psi (wA k0) N) = 0.
Proof.
move=> mN; have g := @uB_rgauge C L q D A l r L0 k0 eigh qrf tol eighP qrfP tol0 hl hr m y.
exact: (@brep_orth_psi C (fun _ => D) _ _ _ _ _ _ (wup_r' L0 hc k0 N) _ _ g mN).
Qed.
Theorem C59_orthogonal_sites k0 N m n (y y' : 'M[C]_(D, D * q - D)) : (m < N)%N -> (n < N)%N -> m != n ->
  bdotst qq N (wl k0 0%N) (wr k0 N) (with_ k0 m (uB (at_ k0 m) y) N) (with_ k0 n (uB (at_ k0 n) y') N) = 0.
Proof.
have g i z := @uB_rgauge C L q D A l r L0 k0 eigh qrf tol eighP qrfP tol0 hl hr i z.
have hr' := wup_r' L0 hc k0 N.
move=> mN nN; rewrite neq_ltn => /orP[lt|lt]; last first.
  exact: (@brep_orth' C (fun _ => D) _ _ _ _ _ _ hr' _ _ _ _ lt mN (g m y)).
apply: (@brep_orth C (fun _ => D) _ _ _ _ _ _ hr' _ _ _ _ lt nN).
have := congr1 (@adj _ _ _) (g n y'); rewrite adj0 => <-.
have hR : (wr k0 n.+1)^† = wr k0 n.+1 := @hwr C L D r L0 k0 hr n.+1.
rewrite /eps_r_noop adj_sum; apply: eq_bigr => s _.
by rewrite adjM adjK adjM mulmxA hR.
Qed.
(* y -> B(y) is an isometry when l and r have full rank *)
Theorem C59_isometry k0 N m (y y' : 'M[C]_(D, D * q - D)) : (m < N)%N ->
  full tol (Ld (prv (at_ k0 m))) -> full tol (Rd (at_ k0 m)) ->
  bdotst qq N (wl k0 0%N) (wr k0 N) (with_ k0 m (uB (at_ k0 m) y) N) (with_ k0 m (uB (at_ k0 m) y') N) = adot y y'.
Proof.
move=> mN fL fR; have hl0 : herm (wl k0 0%N) := hwl L0 k0 hl 0.
rewrite (@brep_gram C (fun _ => D) _ _ _ _ _ _ _ (wup_l' L0 hc k0 N) (wup_r' L0 hc k0 N) hl0) // !uBw //.
apply: (@gram_Br C (fun _ => D) qq (wA k0) (wsl L l k0) (wsr L r k0) eigh qrf tol eighP qrfP tol0 m (hwl L0 k0 hl m) (hwr L0 k0 hr m.+1)).
- exact: fL.
- by rewrite /wsr prv_at.
Qed.
(* every tensor in the right gauge is some B(y) *)
Theorem C59_complete k (T : nat -> 'M[C]_D) : (k < L)%N -> full tol (Ld (prv k)) -> full tol (Rd k) -> full tol (Rd (prv k)) ->
  \sum_(s < q) A k s *m Rd k *m (T s)^† = 0 ->
  exists y : 'M[C]_(D, D * q - D), forall s, (s < q)%N -> T s = uB k y s.
Proof.
move=> kL fL fR fR' g; have e : at_ k 0 = k by rewrite addn0 modn_small.
have e1 : toarray (wsr L r k 1) = Rd k by rewrite /wsr prv_at // e.
have := @Br_complete C (fun _ => D) qq (wA k) (wsl L l k) (wsr L r k) eigh qrf tol eighP qrfP tol0 0 (hwl L0 k hl 0) (hwr L0 k hr 1) _ _ T.
rewrite {1}/wsl e e1 => /(_ fL fR) []; last first.
- by move=> y hy; exists y => s sq; rewrite -{1}e uBw // hy.
- by rewrite /rgauge /eps_r_noop e1 -[RHS]g; apply: eq_bigr => s _; rewrite /Uniform.wA e.
- have [_ h] := hc kL; rewrite /Uniform.wA e -h; exact: full_unit fR'.
Qed.
(* so the tangent vector is the projection of H |psi>: no tensor in the gauge sees a difference between H |psi> and
   the state with B in place of A at its own site *)
Theorem C59_projection_2s (h : op2s C) Ki K0 k0 N m (T : nat -> 'M[C]_D) :
  solves_r L q A l r (uHr2 L q A r (uC2 L q A h)) K0 -> (0 < m)%N -> (m.+2 <= N)%N ->
  (forall k, (k < L)%N -> full tol (Ld k) /\ full tol (Rd k)) ->
  \sum_(s < q) A (at_ k0 m) s *m Rd (at_ k0 m) *m (T s)^† = 0 ->
  bdotst qq N (wl k0 0%N) (wr k0 N) (with_ k0 m T N) (Ham2 qq N (fun _ => Some h) (psi (wA k0) N))
  + bdotst qq N.-1 (wl k0 0%N) (K2 h Ki K0 (at_ k0 N.-1)) (with_ k0 m T N.-1) (psi (wA k0) N.-1) =
  bdotst qq N (wl k0 0%N) (wr k0 N) (with_ k0 m T N)
    (with_ k0 m (uB (at_ k0 m) (ux2 (K2 h Ki K0) h (at_ k0 m))) N).
Proof.
move=> sol m0 mN fu g; have kL := ltn_pmod (k0 + m) L0; have [fL _] := fu _ (prv_lt L0 (at_ k0 m)); have [_ fR'] := fu _ (prv_lt L0 (at_ k0 m)).
have [_ fR] := fu _ kL; have [y hy] := C59_complete kL fL fR fR' g.
have mN' : (m < N)%N by lia.
have eT n (lb rb : 'M[C]_D) phi : (m < n)%N -> bdotst qq n lb rb (with_ k0 m T n) phi = bdotst qq n lb rb (with_ k0 m (uB (at_ k0 m) y) n) phi.
  move=> mn; apply: eq_big_seq => c /cfgsP[sz hq]; have sm : (m < size c)%N by rewrite sz.
  rewrite -[c](cat_take_drop m) (drop_nth 0%N) // !(@psi_rep_cat C (fun _ => D)) ?size_take ?sm // hy //.
  by have := hq m mn; rewrite ?add0n.
rewrite !eT //; last by lia.
by rewrite C59_components_2s // C59_isometry.
Qed.
Theorem C59_projection_3s (h : op3s C) Ki K0 k0 N m (T : nat -> 'M[C]_D) :
  solves_r L q A l r (uHr3 L q A r (uC3 L q A h)) K0 -> (1 < m)%N -> (m.+3 <= N)%N ->
  (forall k, (k < L)%N -> full tol (Ld k) /\ full tol (Rd k)) ->
  \sum_(s < q) A (at_ k0 m) s *m Rd (at_ k0 m) *m (T s)^† = 0 ->
  bdotst qq N (wl k0 0%N) (wr k0 N) (with_ k0 m T N) (Ham3 qq N (fun _ => Some h) (psi (wA k0) N))
  + bdotst qq N.-2 (wl k0 0%N) (K3 h Ki K0 (at_ k0 N.-2)) (with_ k0 m T N.-2) (psi (wA k0) N.-2) =
  bdotst qq N (wl k0 0%N) (wr k0 N) (with_ k0 m T N)
    (with_ k0 m (uB (at_ k0 m) (ux3 (K3 h Ki K0) h (at_ k0 m))) N).
Proof.
move=> sol m0 mN fu g; have kL := ltn_pmod (k0 + m) L0; have [fL _] := fu _ (prv_lt L0 (at_ k0 m)); have [_ fR'] := fu _ (prv_lt L0 (at_ k0 m)).
have [_ fR] := fu _ kL; have [y hy] := C59_complete kL fL fR fR' g.
have mN' : (m < N)%N by lia.
have eT n (lb rb : 'M[C]_D) phi : (m < n)%N -> bdotst qq n lb rb (with_ k0 m T n) phi = bdotst qq n lb rb (with_ k0 m (uB (at_ k0 m) y) n) phi.
  move=> mn; apply: eq_big_seq => c /cfgsP[sz hq]; have sm : (m < size c)%N by rewrite sz.
  rewrite -[c](cat_take_drop m) (drop_nth 0%N) // !(@psi_rep_cat C (fun _ => D)) ?size_take ?sm // hy //.
  by have := hq m mn; rewrite ?add0n.
rewrite !eT //; last by lia.
by rewrite C59_components_3s // C59_isometry.
Qed.
(* calc_B returns those B and eta, the norm of the x; q <= 1 is not handled *)
Theorem C59_calc_B (x : nat -> 'M[C]_(D, D * q - D)) : (0 < D)%N ->
  (ucalc_B L A l r eigh qrf tol x = None <-> (q <= 1)%N) /\
  forall B eta, ucalc_B L A l r eigh qrf tol x = Some (B, eta) ->
    (forall k, B k = uB k (x k)) /\ eta ^+ 2 = \sum_(k < L) adot (x k) (x k).
Proof.
move=> D0; have e : (D * q <= D)%N = (q <= 1)%N by rewrite -{2}[D]muln1 leq_pmul2l.
rewrite /ucalc_B e; split; first by case: ifP.
by move=> B eta; case: ifP => // _ [<- <-]; split=> //; rewrite sqrtCK.
Qed.

(* ---- C60 ---- *)
Notation Hl2 h := (uHl2 L q A l (uC2 L q A h)).
Notation Hl3 h := (uHl3 L q A l (uC3 L q A h)).
(* the energy density returned by calc_K_l is that of calc_K *)
Theorem C60_energy_density_2s h : uhl_expect L q A r 2 (Hl2 h) = uh_expect L q A l (uHr2 L q A r (uC2 L q A h)).
Proof. exact: energy_l2. Qed.
Theorem C60_energy_density_3s h : uhl_expect L q A r 3 (Hl3 h) = uh_expect L q A l (uHr3 L q A r (uC3 L q A h)).
Proof. exact: energy_l3. Qed.
Theorem C60_tp tp k : uHltp L q A l (uCtp L q A tp) k = Hl2 (op_of_tp tp) k.
Proof. exact: uHltpE. Qed.
(* K_left[L-1] is right for every L: there is exactly one family of left environments, one per bond, that ends in it ... *)
Section Left.
Variables (w : nat) (Hl : nat -> 'M[C]_D) (KL0 : 'M[C]_D).
Hypothesis sol : solves_l L q A l r w Hl KL0.
Lemma nrm_tr : \tr (Ld L.-1 *m Rd L.-1) = 1.
Proof. by rewrite -nrm adotE (hl _) //; lia. Qed.
Lemma hR1 : herm (Rd L.-1). Proof. by apply: hr; lia. Qed.
Theorem C60_last_bond K KLi : ucalc_K_l L q A l r w Hl K KLi KL0 L.-1 = KL0 /\
  exists2 F, left_env L q A l r w Hl F /\ F L.-1 = KL0 &
  (forall k, (k < L)%N -> \tr (F k *m Rd k) = 0) /\
  forall F', left_env L q A l r w Hl F' -> F' L.-1 = KL0 -> forall k, (k < L)%N -> F' k = F k.
Proof.
split; first exact: KL_last.
have hF := left_env_fix L0 hc nrm_tr hR1 sol.
have eF : KLfix L q A l r w Hl KL0 L = KL0 := KLfix_last L0 hc nrm_tr hR1 sol.
exists (fun k => KLfix L q A l r w Hl KL0 k.+1); first by split=> //; rewrite prednK.
split; last by move=> F' h e k kL; exact: (left_env_uniq L0 h e).
by apply: (left_env_tr L0 hc nrm_tr hR1 sol hF); rewrite prednK.
Qed.
End Left.
(* ... and what that family measures: the energy of the window left of the bond, less the mean energy of each term *)
Theorem C60_window_2s (h : op2s C) F k0 N (X : 'M[C]_D) : left_env L q A l r 2 (Hl2 h) F -> (0 < N)%N ->
  \tr (F (prv (at_ k0 N)) *m X) =
  bdotst qq N (wl k0 0%N) X (psi (wA k0) N) (Ham2 qq N (fun _ => Some h) (psi (wA k0) N))
  - (\sum_(j < N.-1) wbra k0 N (op2 qq j h (psi (wA k0) N))) * bdotst qq N (wl k0 0%N) X (psi (wA k0) N) (psi (wA k0) N)
  + bdotst qq N.-1 (F (at_ k0 0%N))^† X (psi (wA k0.+1) N.-1) (psi (wA k0.+1) N.-1).
Proof.
move=> hF N0.
have HO j Y : \tr (Hl2 h (at_ k0 j) *m Y) =
    \tr (wl k0 j *m @winmat C (fun _ => D) qq (wA k0) (wA k0) j 2 (j + 2) (O2 (fun _ => Some h) j) Y).
  by move: (j + 2)%N (addn2 j) Y => p -> Y; exact: uHl2w.
have e := @wF_formula C L q D A l r L0 hc hl k0 F (Hl2 h) 2 (O2 (fun _ => Some h)) isT HO hF N X N0.
rewrite [LHS]e bdotst_Ham2 !subSS subn1; congr (_ - _ * _ + _).
  apply: eq_bigr => j _; rewrite Hl_end_at // -(e2w L0 hc); last by have := ltn_ord j; lia.
  by rewrite -(el2 q A r L0 hl) ?ltn_mod // nxt_at addn1.
by rewrite (@wF_bdot C L q D A L0 k0 F 1 isT N X 1 N0) // /wF prv_at // subn1 addn1.
Qed.
Theorem C60_window_3s (h : op3s C) F k0 N (X : 'M[C]_D) : left_env L q A l r 3 (Hl3 h) F -> (1 < N)%N ->
  \tr (F (prv (at_ k0 N)) *m X) =
  bdotst qq N (wl k0 0%N) X (psi (wA k0) N) (Ham3 qq N (fun _ => Some h) (psi (wA k0) N))
  - (\sum_(j < N.-2) wbra k0 N (op3 qq j h (psi (wA k0) N))) * bdotst qq N (wl k0 0%N) X (psi (wA k0) N) (psi (wA k0) N)
  + bdotst qq N.-2 (F (at_ k0 1%N))^† X (psi (wA k0.+2) N.-2) (psi (wA k0.+2) N.-2).
Proof.
move=> hF N0.
have HO j Y : \tr (Hl3 h (at_ k0 j) *m Y) =
    \tr (wl k0 j *m @winmat C (fun _ => D) qq (wA k0) (wA k0) j 3 (j + 3) (O3 (fun _ => Some h) j) Y).
  by move: (j + 3)%N (addn3 j) Y => p -> Y; exact: uHl3w.
have e := @wF_formula C L q D A l r L0 hc hl k0 F (Hl3 h) 3 (O3 (fun _ => Some h)) isT HO hF N X N0.
rewrite [LHS]e bdotst_Ham3 !subSS subn2; congr (_ - _ * _ + _).
  apply: eq_bigr => j _; rewrite Hl_end_at // -(e3w L0 hc); last by have := ltn_ord j; lia.
  by rewrite -(el3 q A r L0 hl) ?ltn_mod // nxt2_at addn2.
by rewrite (@wF_bdot C L q D A L0 k0 F 1 isT N X 2 N0) // /wF prv_at // subn2 addn2.
Qed.
(* with one site per cell K_left is therefore right; with more, the other bonds get the environment that calc_K_l would
   compute if the matrices K of the right half stood in place of the left ones *)
Theorem C60_one_site w Hl K KLi KL0 : L = 1%N -> solves_l L q A l r w Hl KL0 ->
  left_env L q A l r w Hl (ucalc_K_l L q A l r w Hl K KLi KL0).
Proof.
move=> L1 sol; have [e [F [hF eF] _]] := C60_last_bond sol K KLi.
have l0 : L.-1 = 0%N by rewrite L1.
have p0 : prv 0 = 0%N by rewrite prv0.
rewrite l0 in e eF; move=> k kL; have -> : k = 0%N by lia.
have h0 := hF _ L0; rewrite p0 eF in h0.
by rewrite p0 e.
Qed.
Theorem C60_other_bonds w Hl K KLi KL0 k : (k < L.-1)%N -> ucalc_K_l L q A l r w Hl K KLi KL0 k =
  eps_l_noop q (K (prv k)) (A k) (A k) + Hl_end L w Hl k - \tr (Hl_end L w Hl k *m Rd k) *: Ld k.
Proof. by move=> kL; apply: KL_loop. Qed.
End Uni.

(* ---- the witness: two sites per cell, bond dimension 2, the product state |0 0 0 ...> with a redundant bond state ---- *)
Section Wit.
Variable C : numClosedFieldType.
Definition zA (k s : nat) : 'M[C]_2 := delta_mx (inord s) 0.
Definition zl (k : nat) : smat C 2 2 := SDense (delta_mx 0 0).
Definition zr (k : nat) : smat C 2 2 := SEye C 2.
Definition zh : op2s C := fun s t u v => ((s == 1%N) && (t == 0%N) && (u == 1%N) && (v == 0%N))%:R.
Lemma zeps_l k x : eps_l_noop 2 x (zA k) (zA k) = \tr x *: delta_mx 0 0.
Proof.
rewrite /eps_l_noop [\tr x]/mxtrace scaler_suml; apply: eq_bigr => s _.
apply/matrixP => i j; rewrite /zA inord_val !mxE (bigD1 s) //= big1 ?addr0; last first.
  by move=> t ts; rewrite !mxE (negPf ts) conjC0 mul0r.
rewrite !mxE (bigD1 s) //= big1 ?addr0; last by move=> t ts; rewrite !mxE (negPf ts) /= mulr0.
by rewrite !mxE !eqxx /= conjC_nat mulrCA -natrM mulnb.
Qed.
Lemma zeps_r k x : eps_r_noop 2 x (zA k) (zA k) = (x 0 0)%:M.
Proof.
rewrite /eps_r_noop; apply/matrixP => i j; rewrite summxE (bigD1 j) //= big1 ?addr0; last first.
  move=> s sj; rewrite mxE big1 // => t _; rewrite /zA inord_val !mxE [j == s]eq_sym (negPf sj) conjC0 mulr0 //.
rewrite /zA inord_val mxE (bigD1 0) //= big1 ?addr0; last first.
  by move=> t t0; rewrite !mxE (negPf t0) andbF conjC0 mulr0.
rewrite !mxE (bigD1 0) //= big1 ?addr0; last by move=> t t0; rewrite !mxE (negPf t0) andbF mul0r.
by rewrite !mxE !eqxx andbT conjC1 mulr1 mulrC mulr_natr.
Qed.
Lemma adjd (i j : 'I_2) : (delta_mx i j : 'M[C]_2)^† = delta_mx j i.
Proof. by apply/matrixP => a b; rewrite !mxE conjC_nat andbC. Qed.
Lemma tr00 : \tr (delta_mx 0 0 : 'M[C]_2) = 1.
Proof. by rewrite /mxtrace (bigD1 0) //= big1 ?addr0 ?mxE ?eqxx // => i; rewrite mxE => /negPf ->. Qed.
Lemma z_consistent : consistent 2 2 zA (fun k => toarray (zl k)) (fun k => toarray (zr k)).
Proof. by move=> k _; rewrite zeps_l zeps_r /= mxE !eqxx mulr1n tr00 scale1r. Qed.
Lemma z_norm : adot (toarray (zl 1%N)) (toarray (zr 1%N)) = 1.
Proof. by rewrite adotE /= mulmx1 adjd tr00. Qed.
Lemma z_C k s t : (s < 2)%N -> (t < 2)%N -> uC2 2 2 zA zh k s t = ((s == 1%N) && (t == 0%N))%:R *: delta_mx 1 0.
Proof.
move=> s2 t2; rewrite /uC2 calc_C_mat_op_AAE // !big_ord_recl !big_ord0 /zh /=.
rewrite !andbF !scale0r !addr0 !add0r !andbT.
rewrite /ucalc_AA /calc_AA /zA mul_delta_mx_cond; congr (_ *: _).
have -> : inord 0 = 0 :> 'I_2 by apply: val_inj; rewrite /= inordK.
by rewrite eqxx mulr1n; congr delta_mx; apply: val_inj; rewrite /= inordK.
Qed.
Lemma z_AA k : ucalc_AA 2 zA k 1%N 0%N = delta_mx 1 0.
Proof.
rewrite /ucalc_AA /calc_AA /zA mul_delta_mx_cond.
have -> : inord 0 = 0 :> 'I_2 by apply: val_inj; rewrite /= inordK.
by rewrite eqxx mulr1n; congr delta_mx; apply: val_inj; rewrite /= inordK.
Qed.
Lemma z_one (F : nat -> nat -> 'M[C]_2) : \sum_(u < 2) \sum_(v < 2) ((u == 1%N :> nat) && (v == 0%N :> nat))%:R *: F u v = F 1%N 0%N.
Proof. by rewrite !big_ord_recl !big_ord0 /= !scale0r !scale1r !addr0 !add0r. Qed.
Notation zHr := (uHr2 2 2 zA zr (uC2 2 2 zA zh)).
Notation zHl := (uHl2 2 2 zA zl (uC2 2 2 zA zh)).
Lemma z_Hr k : zHr k = delta_mx 1 1.
Proof.
rewrite /uHr2 eps_r_op_2s_C12_AA34E.
transitivity (\sum_(u < 2) \sum_(v < 2) ((u == 1%N :> nat) && (v == 0%N :> nat))%:R *: (delta_mx 1 0 *m (ucalc_AA 2 zA k u v)^† : 'M[C]_2)).
  by apply: eq_bigr => u _; apply: eq_bigr => v _; rewrite z_C // /= mulmx1 -scalemxAl.
by rewrite (z_one (fun u v => delta_mx 1 0 *m (ucalc_AA 2 zA k u v)^†)) z_AA adjd mul_delta_mx.
Qed.
Lemma z_Hl k : zHl k = 0.
Proof.
rewrite /uHl2 eps_l_op_2s_AA12_C34E big1 // => u _; rewrite big1 // => v _.
by rewrite z_C // /= -scalemxAr mul_delta_mx_0 // scaler0 mulmx0.
Qed.
Lemma z_l11 k : adot (toarray (zl k)) (delta_mx 1 1) = 0.
Proof. by rewrite adotE /= adjd mul_delta_mx_0 // mxtrace0. Qed.
Lemma z_solves_r : solves_r 2 2 zA zl zr zHr (delta_mx 1 1).
Proof.
have e1 : Hr_tot 2 2 zA zHr = delta_mx 1 1.
  by rewrite /Hr_tot /toleft /= !z_Hr zeps_r mxE /= raddf0 addr0.
rewrite /solves_r /QHr /h_tot e1 z_l11 !scale0r !subr0 /cellR /= !zeps_r !mxE /=.
by rewrite mul0rn raddf0 subr0.
Qed.
Lemma z_solves_l : solves_l 2 2 zA zl zr 2 zHl 0.
Proof.
have e1 : lH_tot 2 2 zA 2 zHl = 0.
  by rewrite /lH_tot /toright /= !z_Hl ?zeps_l ?mxtrace0 ?scale0r ?addr0.
rewrite /solves_l /lHQ /hl_tot e1 adot_noconjE mul0mx mxtrace0 scale0r /cellL /= !zeps_l.
by rewrite mxtrace0 scale0r mxtrace0 adotE mulmx0 mxtrace0 !scale0r !subr0.
Qed.
Lemma z_K Ki : ucalc_K 2 2 zA zl zr zHr Ki (delta_mx 1 1) 1%N = delta_mx 1 1.
Proof.
rewrite -[LHS]/(eps_r_noop 2 (delta_mx 1 1) (zA 1) (zA 1) + zHr 1 - adot (toarray (zl 0%N)) (zHr 1) *: toarray (zr 0%N)).
by rewrite z_Hr z_l11 scale0r subr0 zeps_r mxE /= raddf0 add0r.
Qed.
(* with two sites per cell K_left[0] is not the left environment of its bond: all premises of C60_last_bond hold, K is what
   calc_K computes, and the component of K_left[0] along r[0], which the correct environments do not have, is 1 *)
Theorem C60_K_left_refuted : exists (A : nat -> nat -> 'M[C]_2) (l r : nat -> smat C 2 2) (h : op2s C) (K0 KL0 : 'M[C]_2),
  [/\ consistent 2 2 A (fun k => toarray (l k)) (fun k => toarray (r k)), adot (toarray (l 1%N)) (toarray (r 1%N)) = 1,
      forall k, herm (toarray (l k)) /\ herm (toarray (r k)),
      solves_r 2 2 A l r (uHr2 2 2 A r (uC2 2 2 A h)) K0 &
      solves_l 2 2 A l r 2 (uHl2 2 2 A l (uC2 2 2 A h)) KL0] /\
  forall Ki KLi, let KL := ucalc_K_l 2 2 A l r 2 (uHl2 2 2 A l (uC2 2 2 A h)) (ucalc_K 2 2 A l r (uHr2 2 2 A r (uC2 2 2 A h)) Ki K0) KLi KL0 in
    \tr (KL 0%N *m toarray (r 0%N)) = 1 /\ ~ left_env 2 2 A l r 2 (uHl2 2 2 A l (uC2 2 2 A h)) KL.
Proof.
exists zA, zl, zr, zh, (delta_mx 1 1), 0; split; first split.
- exact: z_consistent.
- exact: z_norm.
- by move=> k; split; rewrite /herm /= ?adjd ?adj1.
- exact: z_solves_r.
- exact: z_solves_l.
move=> Ki KLi KL.
have nrm := z_norm; have sl := z_solves_l.
have hl k : (k < 2)%N -> herm (toarray (zl k)) by move=> _; rewrite /herm /= adjd.
have hr k : (k < 2)%N -> herm (toarray (zr k)) by move=> _; rewrite /herm /= adj1.
have t0 : \tr (KL 0%N *m toarray (zr 0)) = 1.
  rewrite /KL KL_loop // /Hl_end z_Hl mul0mx mxtrace0 scale0r subr0 addr0 zeps_l /=.
  rewrite mulmx1 mxtraceZ tr00 mulr1 -[prv 2 0]/1%N z_K -(mul_delta_mx (0 : 'I_2) 1 1) mxtrace_mulC mul_delta_mx tr00 //.
split=> // hF; have e1 : KL 1%N = 0 by exact: (@KL_last C 2 2 2 zA zl zr isT).
have nt : \tr (toarray (zl 1%N) *m toarray (zr 1%N)) = 1 by rewrite /= mulmx1 tr00.
have h1 : herm (toarray (zr 1%N)) by exact: hr.
have := @left_env_tr C 2 2 2 zA zl zr isT z_consistent 2 zHl nt h1 0 sl KL hF e1 0%N isT.
by rewrite t0 => /eqP; rewrite oner_eq0.
Qed.
(* the same state meets the premises of C58 (and not full, so those of C59 without the completeness) *)
Example C58_example : [/\ consistent 2 2 zA (fun k => toarray (zl k)) (fun k => toarray (zr k)),
  adot (toarray (zl 1%N)) (toarray (zr 1%N)) = 1, solves_r 2 2 zA zl zr zHr (delta_mx 1 1) & zHr 0%N != 0].
Proof.
split; [exact: z_consistent | exact: z_norm | exact: z_solves_r |].
rewrite z_Hr; apply/negP => /eqP/matrixP/(_ 1 1); rewrite !mxE !eqxx /= => /eqP.
by rewrite oner_eq0.
Qed.

(* full rank: the product state |0 0 0 ...> with bond dimension 1 and two sites per cell; T puts |1> on one site *)
Definition yA (k s : nat) : 'M[C]_1 := (s == 0%N)%:R%:M.
Definition y1 (k : nat) : smat C 1 1 := SEye C 1.
Definition yT (s : nat) : 'M[C]_1 := (s == 1%N)%:R%:M.
Example C59_example (h : op2s C) (tol : C) : tol < 1 ->
  [/\ consistent 2 2 yA (fun k => toarray (y1 k)) (fun k => toarray (y1 k)), adot (toarray (y1 1)) (toarray (y1 1)) = 1,
      solves_r 2 2 yA y1 y1 (uHr2 2 2 yA y1 (uC2 2 2 yA h)) 0,
      full tol (toarray (y1 0)) & \sum_(s < 2) yA 0 s *m toarray (y1 0) *m (yT s)^† = 0].
Proof.
move=> t1.
have z0 : yA 0 1 = 0 by rewrite /yA raddf0.
have e1 x k : eps_l_noop 2 x (yA k) (yA k) = x.
  by rewrite /eps_l_noop !big_ord_recl big_ord0 -[yA k (lift _ _)]/(yA 0 1) -[yA k ord0]/(1%:M) z0 adj0 adj1 mulmx1 mul1mx mul0mx !addr0.
have e2 x k : eps_r_noop 2 x (yA k) (yA k) = x.
  by rewrite /eps_r_noop !big_ord_recl big_ord0 -[yA k (lift _ _)]/(yA 0 1) -[yA k ord0]/(1%:M) z0 adj0 adj1 mulmx1 mul1mx mulmx0 !addr0.
have tr1 (X : 'M[C]_1) : (\tr X)%:M = X by rewrite {2}[X]mx11_scalar /mxtrace big_ord1.
split.
- by move=> k _; rewrite e1 e2.
- by rewrite adotE /= adj1 mul1mx mxtrace1.
- rewrite /solves_r adotE mulmx0 mxtrace0 scale0r subr0 /cellR /= !e2 subr0.
  by rewrite /QHr /h_tot adotE /= adj1 mul1mx scalemx1 tr1 subrr.
- move=> a v v0 e; suff -> : a = 1 by [].
  have [i vi] : exists i, v i 0 != 0.
    exists 0; apply: contra v0 => /eqP e0; apply/eqP/matrixP => i j.
    by rewrite mxE [i]ord1 [j]ord1.
  move/matrixP/(_ i 0): e; rewrite /= mul1mx mxE => /eqP; rewrite -{1}[v i 0]mul1r.
  by rewrite (inj_eq (mulIf vi)) => /eqP.
- by rewrite !big_ord_recl big_ord0 z0 mul0mx mul0mx /yT /= raddf0 adj0 mulmx0 !addr0.
Qed.
End Wit.

Print Assumptions C58_energy_density_2s.
Print Assumptions C58_energy_density_3s.
Print Assumptions C58_energy_density_tp.
Print Assumptions C58_window_norm.
Print Assumptions C58_K_2s.
Print Assumptions C58_K_3s.
Print Assumptions C58_K_tp.
Print Assumptions C58_K_traceless_2s.
Print Assumptions C58_K_traceless_3s.
Print Assumptions C59_gauge.
Print Assumptions C59_components_2s.
Print Assumptions C59_components_3s.
Print Assumptions C59_x_tp.
Print Assumptions C59_orthogonal_to_state.
Print Assumptions C59_orthogonal_sites.
Print Assumptions C59_isometry.
Print Assumptions C59_complete.
Print Assumptions C59_projection_2s.
Print Assumptions C59_projection_3s.
Print Assumptions C59_calc_B.
Print Assumptions C60_energy_density_2s.
Print Assumptions C60_energy_density_3s.
Print Assumptions C60_tp.
Print Assumptions C60_last_bond.
Print Assumptions C60_window_2s.
Print Assumptions C60_window_3s.
Print Assumptions C60_one_site.
Print Assumptions C60_other_bonds.
Print Assumptions C60_K_left_refuted.
