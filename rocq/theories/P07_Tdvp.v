(* P07_Tdvp.v -- property theorems: gauge-fixed tangent vectors (C28), the energy carried by K (C29)
   and the TDVP direction as an orthogonal projection (C30). *)
From mathcomp Require Import all_ssreflect all_algebra all_field zify.
From Verif Require Import Base Spec Eps Chain ChainProofs ChainProofs2 LinAlg Struct Factor Tangent Tangent2 Tdvp
  TdvpProofs TdvpProofs2 TdvpProofs3 Witness.
Set Implicit Arguments.
Unset Strict Implicit.
Unset Printing Implicit Defensive.
Import Order.TTheory GRing.Theory Num.Theory.
Local Open Scope ring_scope.

(* ---- C28 ---------------------------------------------------------------- *)
Section C28.
Variables (C : numClosedFieldType) (D q : nat -> nat) (N : nat) (A : tensors C D).
Variables (l r : forall n, smat C (D n) (D n)).
Local Notation L n := (toarray (l n)).
Local Notation R n := (toarray (r n)).
Hypothesis upd : up_to_date q A N (fun n => L n) (fun n => R n).
Variables (eigh : eigh_routine C) (qrf : qrf_routine C) (tol : C).
Hypotheses (eighP : eigh_contract eigh) (qrfP : qrf_contract qrf) (tol0 : 0 <= tol).
Local Notation Br x := (Bpar_r A l r eigh qrf tol x).
Local Notation Bl x := (Bpar_l A l r eigh qrf tol x).

(* gauge condition and orthogonality to the state: every site, every x, l and r possibly singular *)
Theorem C28_right_gauge m (x : 'M[C]_(D m, kr D q m)) : (m < N)%N ->
  \sum_(s < q m) Br x s *m R m.+1 *m (A m s)^† = 0 /\
  dotst q N (psi (rep A (Br x)) N) (psi A N) = 0.
Proof.
move=> mN; have [hl hr] := upd.
have g := Bpar_r_gauge A eighP qrfP tol0 (hermL hl (ltnW mN)) (hermR hr mN) x.
by split; [apply/(rgauge_adj hr _ mN) | apply: (rep_orth_psi_r hr)].
Qed.
Theorem C28_left_gauge m (x : 'M[C]_(kl D q m, D m.+1)) : (m < N)%N ->
  \sum_(s < q m) (A m s)^† *m (L m *m Bl x s) = 0 /\
  dotst q N (psi (rep A (Bl x)) N) (psi A N) = 0.
Proof.
move=> mN; have [hl hr] := upd.
have g := Bpar_l_gauge A eighP qrfP tol0 (hermL hl (ltnW mN)) (hermR hr mN) x.
by split; [apply/(lgauge_adj hl _ mN) | apply: (rep_orth_psi_l hl)].
Qed.

(* tangent vectors of different sites are orthogonal *)
Theorem C28_sites_orthogonal m k (x : 'M[C]_(D m, kr D q m)) (y : 'M[C]_(D k, kr D q k))
    (x' : 'M[C]_(kl D q m, D m.+1)) (y' : 'M[C]_(kl D q k, D k.+1)) : m != k -> (m < N)%N -> (k < N)%N ->
  dotst q N (psi (rep A (Br x)) N) (psi (rep A (Br y)) N) = 0 /\
  dotst q N (psi (rep A (Bl x')) N) (psi (rep A (Bl y')) N) = 0.
Proof.
move=> mk mN kN; have [hl hr] := upd; have hL n (h : (n < N)%N) := hermL hl (ltnW h); have hR n (h : (n < N)%N) := hermR hr h.
by split; [apply: (rep_orth_r' hr) | apply: (rep_orth_l' hl)] => //;
  do ?[apply: (Bpar_r_gauge A eighP qrfP tol0) | apply: (Bpar_l_gauge A eighP qrfP tol0)]; auto.
Qed.

(* l, r with all eigenvalues above the tolerance: isometric parametrisation ... *)
Theorem C28_right_norm m (x y : 'M[C]_(D m, kr D q m)) : (m < N)%N -> full tol (L m) -> full tol (R m.+1) ->
  dotst q N (psi (rep A (Br x)) N) (psi (rep A (Br y)) N) = adot x y.
Proof.
move=> mN fL fR; have [hl hr] := upd; rewrite (rep_gram hl hr) //.
exact: (gram_Br A eighP qrfP tol0 (hermL hl (ltnW mN)) (hermR hr mN)).
Qed.
Theorem C28_left_norm m (x y : 'M[C]_(kl D q m, D m.+1)) : (m < N)%N -> full tol (L m) -> full tol (R m.+1) ->
  dotst q N (psi (rep A (Bl x)) N) (psi (rep A (Bl y)) N) = adot x y.
Proof.
move=> mN fL fR; have [hl hr] := upd; rewrite (rep_gram hl hr) //.
exact: (gram_Bl A eighP qrfP tol0 (hermL hl (ltnW mN)) (hermR hr mN)).
Qed.
(* ... of all tensors satisfying the gauge condition *)
Theorem C28_right_complete m (T : nat -> 'M[C]_(D m, D m.+1)) : (m < N)%N ->
  full tol (L m) -> full tol (R m) -> full tol (R m.+1) ->
  \sum_(s < q m) T s *m R m.+1 *m (A m s)^† = 0 ->
  exists x : 'M[C]_(D m, kr D q m), forall s, (s < q m)%N -> T s = Br x s.
Proof.
move=> mN fL fR fR1 g0; have [hl hr] := upd; have g : rgauge q A (fun n => R n) T by apply/(rgauge_adj hr _ mN).
apply: (Br_complete eighP qrfP tol0 (hermL hl (ltnW mN)) (hermR hr mN)) => //.
by have [_ e] := hr; rewrite -e //; apply: (full_unit tol0).
Qed.
Theorem C28_left_complete m (T : nat -> 'M[C]_(D m, D m.+1)) : (m < N)%N ->
  full tol (L m) -> full tol (L m.+1) -> full tol (R m.+1) ->
  \sum_(s < q m) (A m s)^† *m (L m *m T s) = 0 ->
  exists x : 'M[C]_(kl D q m, D m.+1), forall s, (s < q m)%N -> T s = Bl x s.
Proof.
move=> mN fL fL1 fR g; have [hl hr] := upd.
apply: (Bl_complete eighP qrfP tol0 (hermL hl (ltnW mN)) (hermR hr mN)) => //.
by have [_ e] := hl; rewrite -e //; apply: (full_unit tol0).
Qed.
End C28.
Print Assumptions C28_right_gauge.
Print Assumptions C28_left_gauge.
Print Assumptions C28_sites_orthogonal.
Print Assumptions C28_right_norm.
Print Assumptions C28_left_norm.
Print Assumptions C28_right_complete.
Print Assumptions C28_left_complete.

(* ---- C29 ---------------------------------------------------------------- *)
Section C29.
Variables (C : numClosedFieldType) (D q : nat -> nat) (N : nat) (A : tensors C D).
Variables (l r : forall n, smat C (D n) (D n)).
Local Notation L n := (toarray (l n)).
Local Notation R n := (toarray (r n)).
Hypothesis upd : up_to_date q A N (fun n => L n) (fun n => R n).
(* whatever self.K, self.h_expect held before *)
Variable st : (forall n, 'M[C]_(D n)) * (nat -> C).
Local Notation ev phi := (dotst q N (psi A N) (phi (psi A N))).

Lemma entry0_tr n (X : 'M[C]_n) : n = 1%N -> entry0 X = \tr X.
Proof.
move=> e; subst n; rewrite (entry0_1 _ (erefl 1%N) (erefl 1%N)) !cast_ord_id.
by rewrite /mxtrace big_ord1.
Qed.
Lemma ev_win j w p O : (j + w)%N = p -> (p <= N)%N ->
  ev (opwin q j w O) = \tr (L j *m winmat q A A j w O (R p)).
Proof.
have [hl hr] := upd; move=> jw pN; rewrite (dotst_win2 q _ _ O jw pN) (RW_up hr pN) (LW_up hl) //.
by apply: leq_trans pN; rewrite -jw leq_addr.
Qed.
Lemma ev_op2 ham j : (j.+1 < N)%N ->
  (if ham j is Some h then ev (op2 q j h) else 0) = ev (opwin q j 2 (O2 ham j)).
Proof.
move=> jN; rewrite /O2; case: (ham j) => [h|].
  by apply: eq_dotst => // c sz; apply: op2_win; rewrite sz.
by rewrite dotstE big1 // => c _; rewrite opwin0 adot0r.
Qed.
Lemma ev_op3 ham j : (j.+2 < N)%N ->
  (if ham j is Some h then ev (op3 q j h) else 0) = ev (opwin q j 3 (O3 ham j)).
Proof.
move=> jN; rewrite /O3; case: (ham j) => [h|].
  by apply: eq_dotst => // c sz; apply: op3_win; rewrite sz.
by rewrite dotstE big1 // => c _; rewrite opwin0 adot0r.
Qed.

(* calc_C; calc_K, two-site terms: adot(l[0], K[1]), H_expect and every h_expect[n] *)
Theorem C29_K_2s ham : (0 < N)%N ->
  let st' := calc_K2 q N A l r (calc_C2 q N A ham) st in
  [/\ adot (L 0) (st'.1 0%N) = ev (Ham2 q N ham),
      D 0 = 1%N -> H_expect_r st' = ev (Ham2 q N ham)
    & forall j, (j.+1 < N)%N -> st'.2 j = if ham j is Some h then ev (op2 q j h) else 0].
Proof.
have [hl hr] := upd => N0 st'.
have e : adot (L 0) (st'.1 0%N) = ev (Ham2 q N ham).
  rewrite (K_energy hl hr (isT : (1 < 2)%N) (calc_K2_rec q N A l r ham st) N0) //.
  by rewrite -dotst_Hsum; apply: eq_dotst => // c sz; rewrite Ham2E.
split=> // [D0|j jN].
  by rewrite /H_expect_r entry0_tr // -e adotE; have [-> _] := hl; rewrite adj1 mul1mx.
have [_ _ h3 _] := @calc_K_loop_ok _ _ q N A l 2 (Hr2 q A r (calc_C2 q N A ham)) st 0 N (add0n N).
have j2 : (j + 2 <= N)%N by rewrite addn2.
rewrite ev_op2 // (ev_win _ (addn2 j)) // -(Hr2E q (N := N)) // [LHS](h3 j) //.
case: (Hr2 _ _ _ _ _) => [h|] /=; last by rewrite mulmx0 mxtrace0.
by rewrite adotE (l_herm hl) // ltnW // ltnW.
Qed.
Theorem C29_K_3s ham : (0 < N)%N ->
  let st' := calc_K3 q N A l r (calc_C3 q N A ham) st in
  [/\ adot (L 0) (st'.1 0%N) = ev (Ham3 q N ham),
      D 0 = 1%N -> H_expect_r st' = ev (Ham3 q N ham)
    & forall j, (j.+2 < N)%N -> st'.2 j = if ham j is Some h then ev (op3 q j h) else 0].
Proof.
have [hl hr] := upd => N0 st'.
have e : adot (L 0) (st'.1 0%N) = ev (Ham3 q N ham).
  rewrite (K_energy hl hr (isT : (1 < 3)%N) (calc_K3_rec q N A l r ham st) N0) //.
  by rewrite -dotst_Hsum; apply: eq_dotst => // c sz; rewrite Ham3E.
split=> // [D0|j jN].
  by rewrite /H_expect_r entry0_tr // -e adotE; have [-> _] := hl; rewrite adj1 mul1mx.
have [_ _ h3 _] := @calc_K_loop_ok _ _ q N A l 3 (Hr3 q A r (calc_C3 q N A ham)) st 0 N (add0n N).
have j2 : (j + 3 <= N)%N by rewrite addn3.
rewrite ev_op3 // (ev_win _ (addn3 j)) // -(Hr3E q (N := N)) // [LHS](h3 j) //.
case: (Hr3 _ _ _ _ _) => [h|] /=; last by rewrite mulmx0 mxtrace0.
by rewrite adotE (l_herm hl) //; lia.
Qed.

(* K[n] carries the energy of all terms from site n on *)
Theorem C29_K_partial_energy ham m : (m < N)%N ->
  adot (L m) ((calc_K2 q N A l r (calc_C2 q N A ham) st).1 m) =
  \sum_(m <= j < N.-1) (if ham j is Some h then ev (op2 q j h) else 0).
Proof.
have [hl hr] := upd => mN; rewrite (K_energy hl hr (isT : (1 < 2)%N) (calc_K2_rec q N A l r ham st) mN) //.
rewrite [RHS](@big_nat_widen _ _ _ _ N.-1 N) ?leq_pred // big_nat_cond [RHS]big_nat_cond; apply: eq_big => j.
  by rewrite /= ?andbT; lia.
by move=> /andP[h1 h2]; rewrite ev_op2 //; lia.
Qed.

(* the mirrored calc_K_l: all terms present, at least two sites *)
Lemma Yg_tr O w j p : (j + w)%N = p -> (p <= N)%N ->
  \tr (Yg q w A (fun n => L n) O j p *m R p) = ev (opwin q j w (O j)).
Proof.
move=> jw pN; rewrite (ev_win _ jw pN) /winmat /Yg mulmx_sumr mulmx_suml !tr_sum; apply: eq_sum_cfgs => c sz.
rewrite mulmx_sumr mulmx_suml !tr_sum; apply: eq_bigr => d _.
rewrite -scalemxAr -scalemxAl !mxtraceZ; congr (_ * _).
by rewrite -!mulmxA mxtrace_mulC !mulmxA.
Qed.
Theorem C29_K_left_2s (ham : nat -> option (op2s C)) : (1 < N)%N -> (forall j, (j.+1 < N)%N -> ham j) ->
  exists2 st', calc_K_l2 q N A l r (calc_C2 q N A ham) st = Some st' &
  [/\ \tr (st'.1 N *m R N) = ev (Ham2 q N ham),
      D N = 1%N -> H_expect_l N st' = ev (Ham2 q N ham)
    & forall j, (j.+1 < N)%N -> st'.2 j = if ham j is Some h then ev (op2 q j h) else 0].
Proof.
have [hl hr] := upd => N1 hh; have [st' e [h1 h2]] := calc_K_l2_rec q A l r st N1 hh; exists st' => //.
have N0 : (0 < N)%N by exact: ltnW.
have eH : \tr (st'.1 N *m R N) = ev (Ham2 q N ham).
  rewrite (KL_energy hl hr (isT : (1 < 2)%N) h1 N0) // (eq_dotst q (u' := psi A N) (v' := Hsum q N 2 (O2 ham) (psi A N))) //; last first.
    by move=> c sz; rewrite Ham2E.
  rewrite dotst_Hsum [LHS](@big_nat_widen _ _ _ _ _ N); last by lia.
  by apply: eq_bigl => j; lia.
split=> // [DN|j jN].
  by rewrite /H_expect_l entry0_tr // -eH; have [-> _] := hr; rewrite mulmx1.
by rewrite h2 // ev_op2 // (Yg_tr _ (addn2 j)).
Qed.
(* three sites: the totals agree; h_expect is shifted by one entry *)
Theorem C29_K_left_3s (ham : nat -> option (op3s C)) : (1 < N)%N -> (forall j, (j.+2 < N)%N -> ham j) ->
  exists2 st', calc_K_l3 q N A l r (calc_C3 q N A ham) st = Some st' &
  [/\ \tr (st'.1 N *m R N) = ev (Ham3 q N ham),
      D N = 1%N -> H_expect_l N st' = ev (Ham3 q N ham)
    & forall j, (j.+2 < N)%N -> st'.2 j.+1 = if ham j is Some h then ev (op3 q j h) else 0].
Proof.
have [hl hr] := upd => N1 hh; have [st' e [h1 h2]] := calc_K_l3_rec q A l r st N1 hh; exists st' => //.
have N0 : (0 < N)%N by exact: ltnW.
have eH : \tr (st'.1 N *m R N) = ev (Ham3 q N ham).
  rewrite (KL_energy hl hr (isT : (1 < 3)%N) h1 N0) // (eq_dotst q (u' := psi A N) (v' := Hsum q N 3 (O3 ham) (psi A N))) //; last first.
    by move=> c sz; rewrite Ham3E.
  rewrite dotst_Hsum [LHS](@big_nat_widen _ _ _ _ _ N); last by lia.
  by apply: eq_bigl => j; lia.
split=> // [DN|j jN].
  by rewrite /H_expect_l entry0_tr // -eH; have [-> _] := hr; rewrite mulmx1.
by rewrite h2 // ev_op3 // (Yg_tr _ (addn3 j)).
Qed.
End C29.
Print Assumptions C29_K_2s.
Print Assumptions C29_K_3s.
Print Assumptions C29_K_partial_energy.
Print Assumptions C29_K_left_2s.
Print Assumptions C29_K_left_3s.

(* ---- C30 ---------------------------------------------------------------- *)
Section C30.
Variables (C : numClosedFieldType) (D q : nat -> nat) (N : nat) (A : tensors C D).
Local Notation tens := (forall m, nat -> 'M[C]_(D m, D m.+1)).
Local Notation vec := (seq nat -> 'M[C]_(D 0, D N)).
Variables (l r : forall n, smat C (D n) (D n)).
Local Notation L n := (toarray (l n)).
Local Notation R n := (toarray (r n)).
Variables (eigh : eigh_routine C) (qrf : qrf_routine C) (tol : C).
Local Notation Br x := (Bpar_r A l r eigh qrf tol x).
Local Notation Bl x := (Bpar_l A l r eigh qrf tol x).
Variable st : (forall n, 'M[C]_(D n)) * (nat -> C).
Local Notation nrm2 v := (dotst q N v v).

(* B is the tangent vector of the gauge g whose state is the orthogonal projection of Phi onto the
   tangent space, up to the component along psi; and the best approximation among the gauge-fixed *)
Definition tdvp_dir (g : forall m, (nat -> 'M[C]_(D m, D m.+1)) -> Prop) (Phi : vec) (B : tens) (eta : C) :=
  [/\ forall m, (m < N)%N -> g m (B m),
      forall T : tens, dotst q N (tvec N A T) (fun c => Phi c -
        (tvec N A B c + (dotst q N (psi A N) Phi / dotst q N (psi A N) (psi A N)) *: psi A N c)) = 0,
      forall T : tens, (forall m, (m < N)%N -> g m (T m)) ->
        nrm2 (fun c => Phi c - tvec N A B c) <= nrm2 (fun c => Phi c - tvec N A T c)
    & 0 <= eta /\ eta ^+ 2 = nrm2 (tvec N A B)].
Definition rg m (T : nat -> 'M[C]_(D m, D m.+1)) := \sum_(s < q m) T s *m R m.+1 *m (A m s)^† = 0.
Definition lg m (T : nat -> 'M[C]_(D m, D m.+1)) := \sum_(s < q m) (A m s)^† *m (L m *m T s) = 0.

Hypothesis upd : up_to_date q A N (fun n => L n) (fun n => R n).
Hypotheses (eighP : eigh_contract eigh) (qrfP : qrf_contract qrf) (tol0 : 0 <= tol).

(* the parameters x are the components of H|psi>, whatever the rank of l, r and the scipy results *)
Theorem C30_components_r2 ham m (y : 'M[C]_(D m, kr D q m)) : (m < N)%N ->
  let K := (calc_K2 q N A l r (calc_C2 q N A ham) st).1 in
  dotst q N (psi (rep A (Br y)) N) (Ham2 q N ham (psi A N)) =
  adot y (x_r2 q N A l r K eigh qrf tol (calc_C2 q N A ham) m).
Proof. by have [hl hr] := upd => mN K; apply: comp_r2 => //; apply: calc_K2_rec. Qed.
Theorem C30_components_r3 (ham : nat -> option (op3s C)) m (y : 'M[C]_(D m, kr D q m)) : (m < N)%N ->
  (forall j, (j.+2 < N)%N -> ham j) ->
  let K := (calc_K3 q N A l r (calc_C3 q N A ham) st).1 in
  exists2 x, x_r3 q N A l r (calc_AAs A) K eigh qrf tol (calc_C3 q N A ham) m = Some x &
  dotst q N (psi (rep A (Br y)) N) (Ham3 q N ham (psi A N)) = adot y x.
Proof.
have [hl hr] := upd => mN hh K; apply: comp_r3 => //; first exact: calc_K3_rec.
  by move=> h; apply: hh; apply: ltnW.
by rewrite /has_left => m2; apply: hh; lia.
Qed.
Theorem C30_components_l2 (ham : nat -> option (op2s C)) m (y : 'M[C]_(kl D q m, D m.+1)) st' : (m < N)%N ->
  calc_K_l2 q N A l r (calc_C2 q N A ham) st = Some st' -> (forall j, (j.+1 < N)%N -> ham j) ->
  exists2 x, x_l2 q A l r st'.1 eigh qrf tol (calc_C2 q N A ham) m = Some x &
  dotst q N (psi (rep A (Bl y)) N) (Ham2 q N ham (psi A N)) = adot y x.
Proof.
have [hl hr] := upd => mN e hh; have N1 : (1 < N)%N by case: ltnP e => // h; rewrite /calc_K_l2 ltnS h.
have [st2 e2 [h1 _]] := calc_K_l2_rec q A l r st N1 hh.
move: e2; rewrite e => -[e2]; subst st2; apply: comp_l2 => //.
by rewrite /has_left => m2; apply: hh; lia.
Qed.
(* for three-site terms, exactly when the physical dimensions of neighbouring sites agree *)
Theorem C30_components_l3 (ham : nat -> option (op3s C)) m (y : 'M[C]_(kl D q m, D m.+1)) st' : (m < N)%N ->
  calc_K_l3 q N A l r (calc_C3 q N A ham) st = Some st' -> (forall j, (j.+2 < N)%N -> ham j) ->
  ((0 < m)%N -> (m.+1 < N)%N -> q m = q m.+1) ->
  exists2 x, x_l3 q A l r (calc_AAs A) st'.1 eigh qrf tol (calc_C3 q N A ham) m = Some x &
  dotst q N (psi (rep A (Bl y)) N) (Ham3 q N ham (psi A N)) = adot y x.
Proof.
have [hl hr] := upd => mN e hh qq; have N1 : (1 < N)%N by case: ltnP e => // h; rewrite /calc_K_l3 ltnS h.
have [st2 e2 [h1 _]] := calc_K_l3_rec q A l r st N1 hh.
by move: e2; rewrite e => -[e2]; subst st2; apply: comp_l3.
Qed.

Hypotheses (D0 : D 0 = 1%N) (DN : D N = 1%N).
Hypotheses (fL : forall m, (m <= N)%N -> full tol (L m)) (fR : forall m, (m <= N)%N -> full tol (R m)).

Lemma proj_r (xo : forall m, option 'M[C]_(D m, kr D q m)) Phi :
  (forall m (y : 'M[C]_(D m, kr D q m)), (m < N)%N -> exists2 x, xo m = Some x &
     dotst q N (psi (rep A (Br y)) N) Phi = adot y x) ->
  exists B eta, calc_B N (calc_B_r_n A l r eigh qrf tol xo) = Some (B, eta) /\
    tdvp_dir rg Phi (otens B) eta.
Proof.
have [hl hr] := upd => hx; pose x m := odflt 0 (xo m).
have ex m : (m < N)%N -> xo m = Some (x m) by move=> mN; have [z e _] := hx m 0 mN; rewrite /x e.
have hx' m y : (m < N)%N -> dotst q N (psi (rep A (Br y)) N) Phi = adot y (x m).
  by move=> mN; have [z e ->] := hx m y mN; rewrite /x e.
have [B [eta [e1 e2 e3]]] := calc_B_rE A l r eigh qrf tol ex.
exists B, eta; split=> //.
have [p1 p2 p3 p4] := right_projection eighP qrfP tol0 hl hr D0 fL fR e2 hx'.
split=> //.
- by move=> m mN; apply/(rgauge_adj hr _ mN); exact: p1.
- move=> T gT; rewrite (p3 T) ?ler_addl ?dotst_ge0 // => m mN.
  by apply/(rgauge_adj hr _ mN); exact: gT.
- by rewrite e3 sqrtCK sqrtC_ge0 p4 sumr_ge0 // => m _; exact: adot_ge0.
Qed.
Lemma proj_l (xo : forall m, option 'M[C]_(kl D q m, D m.+1)) Phi :
  (forall m (y : 'M[C]_(kl D q m, D m.+1)), (m < N)%N -> exists2 x, xo m = Some x &
     dotst q N (psi (rep A (Bl y)) N) Phi = adot y x) ->
  exists B eta, calc_B N (calc_B_l_n A l r eigh qrf tol xo) = Some (B, eta) /\
    tdvp_dir lg Phi (otens B) eta.
Proof.
have [hl hr] := upd => hx; pose x m := odflt 0 (xo m).
have ex m : (m < N)%N -> xo m = Some (x m) by move=> mN; have [z e _] := hx m 0 mN; rewrite /x e.
have hx' m y : (m < N)%N -> dotst q N (psi (rep A (Bl y)) N) Phi = adot y (x m).
  by move=> mN; have [z e ->] := hx m y mN; rewrite /x e.
have [B [eta [e1 e2 e3]]] := calc_B_lE A l r eigh qrf tol ex.
exists B, eta; split=> //.
have [p1 p2 p3 p4] := left_projection eighP qrfP tol0 hl hr D0 DN fL fR e2 hx'.
split=> //.
- by move=> m mN; apply/(lgauge_adj hl _ mN); exact: p1.
- move=> T gT; rewrite (p3 T) ?ler_addl ?dotst_ge0 // => m mN.
  by apply/(lgauge_adj hl _ mN); exact: gT.
- by rewrite e3 sqrtCK sqrtC_ge0 p4 sumr_ge0 // => m _; exact: adot_ge0.
Qed.

Theorem C30_projection_r2 ham :
  let K := (calc_K2 q N A l r (calc_C2 q N A ham) st).1 in
  exists B eta, calc_B_r2 q N A l r K eigh qrf tol (calc_C2 q N A ham) = Some (B, eta) /\
    tdvp_dir rg (Ham2 q N ham (psi A N)) (otens B) eta.
Proof.
move=> K; apply: proj_r => m y mN; eexists; first by reflexivity.
exact: C30_components_r2.
Qed.
Theorem C30_projection_r3 (ham : nat -> option (op3s C)) : (forall j, (j.+2 < N)%N -> ham j) ->
  let K := (calc_K3 q N A l r (calc_C3 q N A ham) st).1 in
  exists B eta, calc_B_r3 q N A l r (calc_AAs A) K eigh qrf tol (calc_C3 q N A ham) = Some (B, eta) /\
    tdvp_dir rg (Ham3 q N ham (psi A N)) (otens B) eta.
Proof. by move=> hh K; apply: proj_r => m y mN; exact: C30_components_r3. Qed.
Theorem C30_projection_l2 (ham : nat -> option (op2s C)) st' : calc_K_l2 q N A l r (calc_C2 q N A ham) st = Some st' ->
  (forall j, (j.+1 < N)%N -> ham j) ->
  exists B eta, calc_B_l2 q N A l r st'.1 eigh qrf tol (calc_C2 q N A ham) = Some (B, eta) /\
    tdvp_dir lg (Ham2 q N ham (psi A N)) (otens B) eta.
Proof. by move=> e hh; apply: proj_l => m y mN; exact: C30_components_l2. Qed.
Theorem C30_projection_l3 (ham : nat -> option (op3s C)) st' : calc_K_l3 q N A l r (calc_C3 q N A ham) st = Some st' ->
  (forall j, (j.+2 < N)%N -> ham j) -> (forall m, (0 < m)%N -> (m.+1 < N)%N -> q m = q m.+1) ->
  exists B eta, calc_B_l3 q N A l r (calc_AAs A) st'.1 eigh qrf tol (calc_C3 q N A ham) = Some (B, eta) /\
    tdvp_dir lg (Ham3 q N ham (psi A N)) (otens B) eta.
Proof. by move=> e hh qq; apply: proj_l => m y mN; apply: C30_components_l3 => //; exact: qq. Qed.
End C30.
Print Assumptions C30_components_r2.
Print Assumptions C30_components_r3.
Print Assumptions C30_components_l2.
Print Assumptions C30_components_l3.
Print Assumptions C30_projection_r2.
Print Assumptions C30_projection_r3.
Print Assumptions C30_projection_l2.
Print Assumptions C30_projection_l3.

(* ---- where the properties fail --------------------------------------------------------------- *)
Section Refuted.
Variables (C : numClosedFieldType) (D q : nat -> nat) (N : nat) (A : tensors C D).
Variables (l r : forall n, smat C (D n) (D n)).
Variable st : (forall n, 'M[C]_(D n)) * (nat -> C).

(* the left-gauge sweep raises an exception as soon as one Hamiltonian term is None ... *)
Theorem C29_left_2s_none_refuted (ham : nat -> option (op2s C)) j : (j.+1 < N)%N -> ham j = None ->
  calc_K_l2 q N A l r (calc_C2 q N A ham) st = None.
Proof.
move=> jN hj; rewrite /calc_K_l2; case: ifP => // _.
have nN k : foldl (calc_K_l2_step q A l r (calc_C2 q N A ham)) None k = None by elim: k.
have -> : (N - 1 = j + (N - 1 - j))%N by lia.
have -> : (N - 1 - j = (N - j.+2).+1)%N by lia.
rewrite iotaD foldl_cat add0n [iota j _]/= [foldl _ _ (j :: _)]/=.
case: (foldl _ _ (iota 0 j)) => [[KL hx]|]; last by rewrite nN.
by rewrite /= /calc_C2 jN hj nN.
Qed.
Theorem C29_left_3s_none_refuted (ham : nat -> option (op3s C)) j : (j.+2 < N)%N -> ham j = None ->
  calc_K_l3 q N A l r (calc_C3 q N A ham) st = None.
Proof.
move=> jN hj; rewrite /calc_K_l3; case: ifP => // _.
have nN k : foldl (calc_K_l3_step q A l r (calc_C3 q N A ham)) None k = None by elim: k.
have -> : (N - 2 = j + (N - j.+3).+1)%N by lia.
rewrite iotaD foldl_cat add0n [iota j _]/= [foldl _ _ (j :: _)]/=.
case: (foldl _ _ (iota 0 j)) => [[KL hx]|]; last by rewrite nN.
by rewrite /= /calc_C3 jN hj nN.
Qed.
(* ... and on one-site chains *)
Theorem C29_left_one_site_refuted Cs Cs' : (N < 2)%N ->
  calc_K_l2 q N A l r Cs st = None /\ calc_K_l3 q N A l r Cs' st = None.
Proof. by rewrite /calc_K_l2 /calc_K_l3 => ->. Qed.
(* left gauge, three-site terms: h_expect of the first term is never assigned *)
Theorem C29_left_3s_h_expect_unset_refuted Cs st' : calc_K_l3 q N A l r Cs st = Some st' -> st'.2 0%N = st.2 0%N.
Proof.
rewrite /calc_K_l3; case: ifP => // _; move: (iota 0 (N - 2)) => s.
suff h : forall o : option ((forall n, 'M[C]_(D n)) * (nat -> C)), (forall x, o = Some x -> x.2 0%N = st.2 0%N) ->
    forall x, foldl (calc_K_l3_step q A l r Cs) o s = Some x -> x.2 0%N = st.2 0%N.
  by apply: h => x [<-].
elim: s => [|j s IH] o ho x /=; [exact: ho|apply: IH => {}x].
rewrite /calc_K_l3_step; case: o ho => // -[KL hx] ho; case: (Cs j) => // c [<-] /=.
by rewrite /seth upd_other //; exact: (ho _ erefl).
Qed.

Variables (eigh : eigh_routine C) (qrf : qrf_routine C) (tol : C).
(* right gauge, three-site terms: a None term followed by further terms fails the assertion of calc_x_3s *)
Theorem C30_r3_none_refuted (ham : nat -> option (op3s C)) K AA m : (m.+3 < N)%N -> ham m = None ->
  (D m < D m.+1 * q m)%N ->
  calc_B_r3 q N A l r AA K eigh qrf tol (calc_C3 q N A ham) = None.
Proof.
move=> mN hm hD; rewrite /calc_B_r3 /calc_B ifF //; apply/negP=> /allP /(_ m).
have mN' : (m < N)%N by lia.
have nD : (D m.+1 * q m <= D m)%N = false by rewrite leqNgt hD.
have nC : calc_C3 q N A ham m = None by rewrite /calc_C3 hm if_same.
rewrite mem_iota leq0n add0n mN' => /(_ isT).
by rewrite /calc_B_r_n nD /x_r3 /calc_x3 /xpart3 nC /Kp1 addn3 mN.
Qed.
(* left gauge, two-site terms: a None term makes calc_x_l of the next site fail *)
Theorem C30_l2_none_refuted (ham : nat -> option (op2s C)) KL m : (m.+1 < N)%N -> ham m = None ->
  (D m.+2 < q m.+1 * D m.+1)%N ->
  calc_B_l2 q N A l r KL eigh qrf tol (calc_C2 q N A ham) = None.
Proof.
move=> mN hm hD; rewrite /calc_B_l2 /calc_B ifF //; apply/negP=> /allP /(_ m.+1).
have nD : (q m.+1 * D m.+1 <= D m.+2)%N = false by rewrite leqNgt hD.
have nC : calc_C2 q N A ham m = None by rewrite /calc_C2 hm if_same.
rewrite mem_iota leq0n add0n mN => /(_ isT).
by rewrite /calc_B_l_n nD /x_l2 /calc_x_l2 /xl_left2 nC.
Qed.
(* left gauge, three-site terms: IndexError when the physical dimension decreases along the chain *)
Theorem C30_l3_dimension_refuted ham (h : op3s C) KL AA m : (m.+2 < N)%N -> ham m = Some h ->
  (q m.+2 < q m.+1)%N -> (D m.+2 < q m.+1 * D m.+1)%N ->
  calc_B_l3 q N A l r AA KL eigh qrf tol (calc_C3 q N A ham) = None.
Proof.
move=> mN hm hq hD; rewrite /calc_B_l3 /calc_B ifF //; apply/negP=> /allP /(_ m.+1).
have nD : (q m.+1 * D m.+1 <= D m.+2)%N = false by rewrite leqNgt hD.
have nq : (q m.+1 <= q m.+2)%N = false by rewrite leqNgt hq.
have [c nC] : exists c, calc_C3 q N A ham m = Some c by rewrite /calc_C3 hm mN; eexists.
rewrite mem_iota leq0n add0n (ltnW mN) => /(_ isT).
by rewrite /calc_B_l_n nD /x_l3 /calc_x_l3 /xl_mid3 nC nq.
Qed.
End Refuted.
Print Assumptions C29_left_2s_none_refuted.
Print Assumptions C29_left_3s_none_refuted.
Print Assumptions C29_left_one_site_refuted.
Print Assumptions C29_left_3s_h_expect_unset_refuted.
Print Assumptions C30_r3_none_refuted.
Print Assumptions C30_l2_none_refuted.
Print Assumptions C30_l3_dimension_refuted.

(* ---- examples: product states with bond dimension 1 -------------------------------------------- *)
Section Scal.
Variable C : numClosedFieldType.
Definition eyes (n : nat) : smat C (one n) (one n) := SEye C 1.
Lemma scal_upd (a : nat -> nat -> C) (q : nat -> nat) N : (forall n, (n < N)%N -> \sum_(s < q n) `|a n s| ^+ 2 = 1) ->
  up_to_date q (scal a) N (fun n => toarray (eyes n)) (fun n => toarray (eyes n)).
Proof.
move=> h; split; split=> // n nN; rewrite /eps_l_noop /eps_r_noop /eyes /scal /=.
  under eq_bigr do rewrite mul1mx adj_scalar -scalar_mxM mulrC -normCK.
  by rewrite -raddf_sum h.
under eq_bigr do rewrite mulmx1 adj_scalar -scalar_mxM -normCK.
by rewrite -raddf_sum h.
Qed.
Lemma scal_full tol n : tol < 1 -> full tol (toarray (eyes n)).
Proof.
move=> h a v v0; rewrite mul1mx -{1}[v]scale1r => /eqP; rewrite -subr_eq0 -scalerBl scaler_eq0 (negPf v0) orbF subr_eq0.
by move=> /eqP<-.
Qed.
Lemma psi_scalM (a : nat -> nat -> C) N c : psi (scal a) N c = (\prod_(i < size c) a i (nth 0%N c i))%:M.
Proof.
rewrite -(psi_scal a N c) /amplitude; apply/matrixP=> i j; rewrite (entry0_1 _ (erefl 1%N) (erefl 1%N)) !cast_ord_id mxE.
by rewrite (ord1 i) (ord1 j) /= mulr1n; congr (psi _ _ _ _ _); apply/val_inj.
Qed.
(* computational basis states *)
Definition delta (d s : nat) : C := (s == d)%:R.
Definition bas (c0 : seq nat) : nat -> nat -> C := fun n => delta (nth 0%N c0 n).
Lemma psi_bas c0 c : size c = size c0 -> psi (scal (bas c0)) (size c0) c = (c == c0)%:R%:M.
Proof.
move=> sz; rewrite psi_scalM; congr (_%:M); rewrite /bas /delta.
have [->|nc] := eqVneq c c0; first by rewrite big1 // => i _; rewrite eqxx.
have [i hi]: exists i : 'I_(size c), nth 0%N c i != nth 0%N c0 i.
  apply/existsP; apply: contraR nc => /existsPn h; apply/eqP/(@eq_from_nth _ 0%N) => // i ic.
  by have /negPn/eqP := h (Ordinal ic).
by rewrite (bigD1 i) //= (negPf hi) mul0r.
Qed.
Lemma rep_bas a m b N c : psi (rep (scal a) (fun s => (b s)%:M : 'M[C]_(one m, one m.+1))) N c =
  psi (scal (fun n s => if n == m then b s else a n s)) N c.
Proof.
suff h n : amp (rep (scal a) (fun s => (b s)%:M : 'M[C]_(one m, one m.+1))) N n c =
    amp (scal (fun n s => if n == m then b s else a n s)) N n c by exact: h.
elim: c n => [|s c IH] n //=; rewrite IH; congr (_ *m _).
have [e|ne] := eqVneq m n; last by rewrite rep_other // /scal eq_sym (negPf ne).
by case: n / e; rewrite rep_same /scal eqxx.
Qed.
Lemma dot_bas (q : nat -> nat) N c0 (u v : seq nat -> 'M[C]_1) a : c0 \in cfgs q N 0 ->
  (forall c, c \in cfgs q N 0 -> u c = (c == c0)%:R%:M) -> v c0 = a%:M -> dotst q N u v = a.
Proof.
move=> hc hu hv; rewrite dotstE (bigD1_seq c0) ?cfgs_uniq //= big1_seq ?addr0; last first.
  by move=> c /andP[nc hc']; rewrite hu // (negPf nc) raddf0 adotE [0^†]adj0 mul0mx mxtrace0.
by rewrite hu // eqxx hv adotE adj1 mul1mx mxtrace_scalar.
Qed.
Lemma op2_bas (q : nat -> nat) (o : op2s C) (phi : seq nat -> 'M[C]_1) d0 d1 s t : (d0 < q 0)%N -> (d1 < q 1)%N ->
  (forall u v, phi [:: u; v] = ([:: u; v] == [:: d0; d1])%:R%:M) ->
  op2 q 0 o phi [:: s; t] = (o s t d0 d1)%:M.
Proof.
move=> h0 h1 hp; rewrite /op2 /=; under eq_bigr do under eq_bigr do rewrite hp.
rewrite (bigD1 (Ordinal h0)) //= [X in _ + X]big1 ?addr0; last first.
  by move=> u nu; rewrite big1 // => v _; rewrite eqseq_cons -(inj_eq val_inj) in nu *; rewrite (negPf nu) raddf0 scaler0.
rewrite (bigD1 (Ordinal h1)) //= [X in _ + X]big1 ?addr0; last first.
  by move=> u nu; rewrite !eqseq_cons -(inj_eq val_inj) in nu *; rewrite (negPf nu) andbF raddf0 scaler0.
by rewrite eqxx -scalemx1 scalerA mulr1 scalemx1.
Qed.
Lemma op3_bas (q : nat -> nat) (o : op3s C) (phi : seq nat -> 'M[C]_1) d0 d1 d2 s t z :
  (d0 < q 0)%N -> (d1 < q 1)%N -> (d2 < q 2)%N ->
  (forall u v w, phi [:: u; v; w] = ([:: u; v; w] == [:: d0; d1; d2])%:R%:M) ->
  op3 q 0 o phi [:: s; t; z] = (o s t z d0 d1 d2)%:M.
Proof.
move=> h0 h1 h2 hp; rewrite /op3 /=; under eq_bigr do under eq_bigr do under eq_bigr do rewrite hp.
rewrite (bigD1 (Ordinal h0)) //= [X in _ + X]big1 ?addr0; last first.
  move=> u nu; rewrite big1 // => v _; rewrite big1 // => w _.
  by rewrite !eqseq_cons -(inj_eq val_inj) in nu *; rewrite (negPf nu) raddf0 scaler0.
rewrite (bigD1 (Ordinal h1)) //= [X in _ + X]big1 ?addr0; last first.
  move=> u nu; rewrite big1 // => w _.
  by rewrite !eqseq_cons -(inj_eq val_inj) in nu *; rewrite (negPf nu) andbF raddf0 scaler0.
rewrite (bigD1 (Ordinal h2)) //= [X in _ + X]big1 ?addr0; last first.
  by move=> u nu; rewrite !eqseq_cons -(inj_eq val_inj) in nu *; rewrite (negPf nu) !andbF raddf0 scaler0.
by rewrite eqxx -scalemx1 scalerA mulr1 scalemx1.
Qed.
Lemma bas_upd (q : nat -> nat) c0 : (forall n, (n < size c0)%N -> (nth 0%N c0 n < q n)%N) ->
  up_to_date q (scal (bas c0)) (size c0) (fun n => toarray (eyes n)) (fun n => toarray (eyes n)).
Proof.
move=> h; apply: scal_upd => n nN; rewrite (bigD1 (Ordinal (h n nN))) //= /bas /delta eqxx normr1 expr1n.
by rewrite big1 ?addr0 // => s ns; rewrite -(inj_eq val_inj) in ns; rewrite (negPf ns) normr0 expr0n.
Qed.

(* |00> and X (x) 1 on the two sites *)
Local Notation s00 := (scal (bas [:: 0%N; 0%N])).
Definition hX (j : nat) : option (op2s C) :=
  if j == 0%N then Some (fun s t u v => ((s + u == 1) && (t == v))%N%:R) else None.
Lemma cfgs2 q c : c \in cfgs q 2 0 -> exists s t, c = [:: s; t].
Proof. by case/cfgsP=> sz _; case: c sz => [|s [|t [|]]] // _; exists s, t. Qed.
Lemma HX c : c \in cfgs two 2 0 -> Ham2 two 2 hX (psi s00 2) c = (c == [:: 1%N; 0%N])%:R%:M.
Proof.
move=> hc; have [s [t ec]] := cfgs2 hc; rewrite {hc}ec /Ham2 big_ord1.
have hp u v : psi s00 2 [:: u; v] = ([:: u; v] == [:: 0%N; 0%N])%:R%:M by rewrite -psi_bas.
apply: etrans (@op2_bas two _ (psi s00 2) 0 0 s t isT isT hp) _.
by rewrite addn0 eqseq_cons eqseq_cons andbT.
Qed.
Definition T10 (n s : nat) : 'M[C]_(one n, one n.+1) := (if n == 0%N then delta 1 s else 0)%:M.
Lemma T10_0 c : c \in cfgs two 2 0 -> psi (rep s00 (T10 0)) 2 c = (c == [:: 1%N; 0%N])%:R%:M.
Proof.
move=> hc; have [s [t ec]] := cfgs2 hc; rewrite -(@psi_bas [:: 1%N; 0%N]) ?ec // rep_bas !psi_scalM.
by congr (_%:M); rewrite !big_ord_recl !big_ord0.
Qed.
Lemma T10E c : c \in cfgs two 2 0 -> tvec 2 s00 T10 c = (c == [:: 1%N; 0%N])%:R%:M.
Proof.
move=> hc; rewrite /tvec big_ord_recl big_ord1 T10_0 // rep_bas psi_scalM; have [s [t ->]] := cfgs2 hc.
by rewrite !big_ord_recl big_ord0 /= mul0r mulr0 raddf0 addr0.
Qed.
Lemma gT10 m : \sum_(s < two m) T10 m s *m toarray (eyes m.+1) *m (s00 m s)^† = 0.
Proof.
have e : nth 0%N [:: 0%N; 0%N] m = 0%N by case: m => [|[|[]]].
rewrite big_ord_recl big_ord1 /= !mulmx1 /scal /bas e /T10 /delta /= !adj_scalar conjC0 raddf0 mulmx0 addr0.
by rewrite if_same raddf0 mul0mx.
Qed.
(* X (x) 1 |00> = |10> lies in the tangent space: calc_B finds it, eta = 1, whatever eigh and qr return *)
Example C30_example eigh qrf (st : (forall n, 'M[C]_(one n)) * (nat -> C)) :
  eigh_contract eigh -> qrf_contract qrf ->
  let Cs := calc_C2 two 2 s00 hX in
  let K := (calc_K2 two 2 s00 eyes eyes Cs st).1 in
  exists B, calc_B_r2 two 2 s00 eyes eyes K eigh qrf 0 Cs = Some (B, 1) /\
   forall c, c \in cfgs two 2 0 -> tvec 2 s00 (otens B) c = (c == [:: 1%N; 0%N])%:R%:M.
Proof.
move=> h1 h2 Cs K; have fl m : (m <= 2)%N -> full 0 (toarray (eyes m)) by move=> _; apply: scal_full; exact: ltr01.
have U : up_to_date two s00 2 (fun n => toarray (eyes n)) (fun n => toarray (eyes n)).
  by apply: (@bas_upd _ [:: 0%N; 0%N]) => -[|[|]].
have [B [eta [e [_ _ p3 [p4 p5]]]]] := C30_projection_r2 st U h1 h2 (lexx 0) erefl fl fl hX.
have zero u v : (forall c, c \in cfgs two 2 0 -> u c = v c) ->
    dotst two 2 (fun c => u c - v c : 'M[C]_(one 0, one 2)) (fun c => u c - v c) = 0.
  by move=> huv; rewrite dotstE big1_seq // => c hc; rewrite huv // subrr adot0r.
have := p3 _ (fun m _ => gT10 m); rewrite (zero _ (tvec 2 s00 T10)); last by move=> c hc; rewrite HX // T10E.
move=> le0; have /(dotst_eq0 (q := two)) eB : dotst two 2 (fun c => Ham2 two 2 hX (psi s00 2) c - tvec 2 s00 (otens B) c)
    (fun c => Ham2 two 2 hX (psi s00 2) c - tvec 2 s00 (otens B) c) = 0.
  by apply/eqP; rewrite eq_le le0 dotst_ge0.
have tE c : c \in cfgs two 2 0 -> tvec 2 s00 (otens B) c = (c == [:: 1%N; 0%N])%:R%:M.
  by move=> hc; have /eqP := eB c hc; rewrite subr_eq0 => /eqP<-; rewrite HX.
exists B; split=> //; rewrite -[1](_ : eta = 1) //.
move: p5; rewrite (@dot_bas _ _ [:: 1%N; 0%N] _ _ 1 _ tE) ?tE //.
move=> /eqP; rewrite sqrf_eq1 => /orP[/eqP//|/eqP e1].
by move: p4; rewrite e1 oppr_ge0 => /le_lt_trans/(_ ltr01); rewrite ltxx.
Qed.
(* C28: the tangent direction |10> at |00> is B(x) for some x of norm 1 *)
Example C28_example eigh qrf : eigh_contract eigh -> qrf_contract qrf ->
  exists2 x, forall s, (s < 2)%N -> T10 0 s = Bpar_r (q := two) s00 eyes eyes eigh qrf 0 (m := 0) x s
           & adot x x = 1.
Proof.
move=> h1 h2; have fl m : full 0 (toarray (eyes m)) by apply: scal_full; exact: ltr01.
have U : up_to_date two s00 2 (fun n => toarray (eyes n)) (fun n => toarray (eyes n)).
  by apply: (@bas_upd _ [:: 0%N; 0%N]) => -[|[|]].
have [x hx] := C28_right_complete U h1 h2 (lexx 0) (isT : (0 < 2)%N) (fl _) (fl _) (fl _) (gT10 0).
exists x => //; rewrite -(C28_right_norm U h1 h2 (lexx 0) _ _ (isT : (0 < 2)%N) (fl _) (fl _)).
have e := dotst_rep_eq s00 _ (isT : (0 < 2)%N) hx; rewrite -e dotst_conj -e.
by rewrite (@dot_bas _ _ [:: 1%N; 0%N] _ _ 1 _ T10_0) ?T10_0 ?conjC1.
Qed.
(* C29, left gauge, three-site terms: |000>, the term |000><000|: its energy is 1, h_expect keeps the
   value it had before the call *)
Local Notation s000 := (scal (bas [:: 0%N; 0%N; 0%N])).
Definition h000 (j : nat) : option (op3s C) :=
  Some (fun s t u s' t' u' => ((s == 0) && (t == 0) && (u == 0) && (s' == 0) && (t' == 0) && (u' == 0))%N%:R).
Theorem C29_left_3s_h_expect_refuted : exists2 st',
  calc_K_l3 two 3 s000 eyes eyes (calc_C3 two 3 s000 h000) (fun n => 0, fun _ => 0) = Some st' &
  st'.2 0%N = 0 /\ dotst two 3 (psi s000 3) (op3 two 0 (odflt (fun _ _ _ _ _ _ => 0) (h000 0)) (psi s000 3)) = 1.
Proof.
have U : up_to_date two s000 3 (fun n => toarray (eyes n)) (fun n => toarray (eyes n)).
  by apply: (@bas_upd _ [:: 0%N; 0%N; 0%N]) => -[|[|[|]]].
have [//|st' e [_ _ h]] := @C29_K_left_3s _ _ two 3 s000 eyes eyes U (fun n => 0, fun _ => 0) h000 isT.
exists st' => //; split; first by rewrite (C29_left_3s_h_expect_unset_refuted e).
apply: (@dot_bas _ _ [:: 0%N; 0%N; 0%N]) => //.
  by move=> c /cfgsP[sz _]; rewrite -psi_bas.
have hp u v w : psi s000 3 [:: u; v; w] = ([:: u; v; w] == [:: 0%N; 0%N; 0%N])%:R%:M by rewrite -psi_bas.
exact: (@op3_bas two _ (psi s000 3) 0 0 0 0 0 0 isT isT isT hp).
Qed.

(* C30, left gauge, three-site terms, physical dimensions 1, 2, 3: |002>, h|002> = |012>.  The exact
   direction has norm 1 at the middle site; calc_x_l_3s returns x = 0, for every eigh and qr *)
Definition q123 (n : nat) : nat := n.+1.
Local Notation s002 := (scal (bas [:: 0%N; 0%N; 2%N])).
Definition h012 (j : nat) : option (op3s C) :=
  Some (fun s t u s' t' u' => ((s == 0) && (t == 1) && (u == 2) && (s' == 0) && (t' == 0) && (u' == 2))%N%:R).
Theorem C30_l3_missing_term_refuted eigh qrf : eigh_contract eigh -> qrf_contract qrf ->
  exists st' y, [/\
   calc_K_l3 q123 3 s002 eyes eyes (calc_C3 q123 3 s002 h012) (fun n => 0, fun _ => 0) = Some st',
   x_l3 q123 s002 eyes eyes (calc_AAs s002) st'.1 eigh qrf 0 (calc_C3 q123 3 s002 h012) 1 = Some 0 &
   dotst q123 3 (psi (rep s002 (Bpar_l (q := q123) s002 eyes eyes eigh qrf 0 (m := 1) y)) 3)
     (Ham3 q123 3 h012 (psi s002 3)) = 1].
Proof.
move=> h1 h2; have fl m : full 0 (toarray (eyes m)) by apply: scal_full; exact: ltr01.
have U : up_to_date q123 s002 3 (fun n => toarray (eyes n)) (fun n => toarray (eyes n)).
  by apply: (@bas_upd _ [:: 0%N; 0%N; 2%N]) => -[|[|[|]]].
have [//|st' e [h3 _]] := @calc_K_l3_rec _ _ q123 3 s002 eyes eyes h012 (fun n => 0, fun _ => 0) isT.
pose T (s : nat) : 'M[C]_(one 1, one 2) := (delta 1 s)%:M.
have g : \sum_(s < q123 1) (s002 1%N s)^† *m (toarray (eyes 1) *m T s) = 0.
  by rewrite /q123 !big_ord_recl big_ord0 /scal /bas /T /delta /= !mul1mx raddf0 mulmx0 add0r [0^†]adj0 mul0mx addr0.
have [y hy] := C28_left_complete U h1 h2 (lexx 0) (isT : (1 < 3)%N) (fl _) (fl _) (fl _) g.
exists st', y; split=> //.
  have k1 : st'.1 1%N = 0 by have [_ ->] := h3.
  rewrite /x_l3 /calc_x_l3 /xl_mid3 [calc_C3 _ _ _ _ 1%N]/= [xl_left3 _ _ _ _ _]/= [(0 < 1)%N]/=.
  have [c ->] : exists c, calc_C3 q123 3 s002 h012 0%N = Some c by eexists.
  rewrite [(_ <= _)%N]/= [omap _ _]/= k1 mulmx0; congr Some.
  rewrite {1}/eps_l_noop big1 => [|s _]; last by rewrite mul0mx mulmx0.
  rewrite mul0mx !addr0 add0r /eps_r_noop big1 ?mul0mx // => s _.
  have -> : s002 2%N s = 0 by rewrite /scal /bas /delta /= ltn_eqF ?raddf0.
  by rewrite [0^†]adj0 mulmx0.
rewrite -(dotst_rep_eq s002 (Ham3 q123 3 h012 (psi s002 3)) (isT : (1 < 3)%N) hy).
apply: (@dot_bas _ _ [:: 0%N; 1%N; 2%N]) => //.
  move=> c /cfgsP[sz _]; rewrite -(@psi_bas [:: 0%N; 1%N; 2%N]) // rep_bas !psi_scalM; congr (_%:M).
  by apply: eq_bigr => -[[|[|[|i]]] hi] _ //; rewrite sz in hi.
have hp u v w : psi s002 3 [:: u; v; w] = ([:: u; v; w] == [:: 0%N; 0%N; 2%N])%:R%:M by rewrite -psi_bas.
rewrite /Ham3 big_ord1; exact: (@op3_bas q123 _ (psi s002 3) 0 0 2 0 1 2 isT isT isT hp).
Qed.
End Scal.
Print Assumptions C29_left_3s_h_expect_refuted.
Print Assumptions C30_l3_missing_term_refuted.

(* C29: the Bell state |00> + |11>, the term |11><11| *)
Definition h11 (j : nat) : option (op2s Cx) :=
  Some (fun s t u v => ((s == 1) && (t == 1) && (u == 1) && (v == 1))%N%:R).
Definition bl : forall n, 'M[Cx]_(bellD n) := calc_l two bell (fun n => 1%:M) 0 2.
Definition br : forall n, 'M[Cx]_(bellD n) := calc_r two bell (fun n => 1%:M) 0 2.
Example C29_example (st : (forall n, 'M[Cx]_(bellD n)) * (nat -> Cx)) :
  H_expect_r (calc_K2 two 2 bell (fun n => SDense (bl n)) (fun n => SDense (br n)) (calc_C2 two 2 bell h11) st) = 1.
Proof.
have u : up_to_date two bell 2 bl br by split; [exact: calc_l_up|exact: calc_r_up].
have [_ -> // _] := @C29_K_2s _ _ two 2 bell (fun n => SDense (bl n)) (fun n => SDense (br n)) u st h11 isT.
have pE s t : psi (bell : tensors Cx bellD) 2 [:: s; t] = ((s == t) && (s < 2)%N)%:R%:M.
  apply/matrixP=> i j; rewrite -bell_amplitude /amplitude (entry0_1 _ (erefl 1%N) (erefl 1%N)) !cast_ord_id [RHS]mxE.
  by rewrite (ord1 i) (ord1 j) /= mulr1n; congr (psi _ _ _ _ _); apply/val_inj.
rewrite dotstE /= !big_cons big_nil /Ham2 !big_ord1 /h11 /= /op2 !big_ord_recl !big_ord0 /= !pE /=.
rewrite ?scale0r ?scale1r ?scaler0 ?raddf0 ?addr0 ?add0r ?adot0r ?add0r ?addr0.
by rewrite adotE adj1 mul1mx mxtrace1.
Qed.
