(* P25_MPO.v -- property theorems: Hamiltonians given as matrix product operators (C66). *)
From mathcomp Require Import all_ssreflect all_algebra zify.
From mathcomp.real_closed Require Import mxtens.
From Verif Require Import Base Spec Eps Chain ChainProofs ChainProofs2 LinAlg Struct Factor MPO Tangent Tangent2
  Tdvp TdvpProofs TdvpProofs2 TdvpProofs3 MPOEff Witness P07_Tdvp.
Set Implicit Arguments.
Unset Strict Implicit.
Unset Printing Implicit Defensive.
Import Order.TTheory GRing.Theory Num.Theory.
Local Open Scope ring_scope.

Section C66.
Variables (C : numClosedFieldType) (D q : nat -> nat) (N : nat) (A : tensors C D).
Variables (M : nat -> nat) (W : mpo C M).
Hypotheses (D0 : D 0 = 1%N) (DN : D N = 1%N) (M0 : M 0 = 1%N) (MN : M N = 1%N).
Local Notation hbonds := (forall n, 'M[C]_(D n * M n, D n)).
(* the operator: matrix elements are ordered products of the MPO matrices *)
Local Notation Hop := (opwin q 0 N (mpo_elem W 0 N)).
Local Notation nrm2 v := (dotst q N v v).

(* HL up to bond a and HR from bond b on are what the calls of calc_MPO_l / calc_MPO_rm1 produce *)
Definition envsM (HL HR : hbonds) a b :=
  [/\ HL 0%N = pid_mx 1, forall j, (j < a)%N -> HL j.+1 = calc_MPO_l q A W (HL j),
      HR N = pid_mx 1 & forall j, (b <= j < N)%N -> HR j = calc_MPO_rm1 q N A W (HR j.+1)].

Lemma envs_at HL HR a b : envsM HL HR a b -> (b <= N)%N ->
  (forall j, (j <= a)%N -> HL j = HL_at q W A j) /\ (forall j, (b <= j <= N)%N -> HR j = HR_at q N W A j).
Proof.
case=> hl0 hl hr0 hr bN; split.
  elim=> [|j IH] ja; first by rewrite HL_at0.
  rewrite hl // /calc_MPO_l HL_atS IH ?(ltnW ja) //.
  by case: eqP => // j0; subst j; rewrite HL_at0.
suff h k : (k <= N)%N -> forall j, (b <= j)%N -> (j = N - k)%N -> HR j = HR_at q N W A j.
  by move=> j /andP[bj jN]; apply: (h (N - j)%N) => //; lia.
elim: k => [|k IH] kN j bj ej; first by rewrite subn0 in ej; subst j; rewrite HR_atN.
have jN : (j < N)%N by lia.
rewrite hr ?bj // /calc_MPO_rm1 HR_atS //; congr (eps_r_noop _ _ _ _).
have e1 : HR j.+1 = HR_at q N W A j.+1 by apply: IH; lia.
case: eqP => // e; have g p : p = N -> HR_at q N W A p = pid_mx 1 by move=> ->; exact: HR_atN.
by rewrite (g _ e).
Qed.

(* matvec of the one-site and of the bond problem is the projection of the operator, in any gauge *)
Theorem C66_one_site m HL HR tau (T X : nat -> 'M[C]_(D m, D m.+1)) : (m < N)%N -> envsM HL HR m m.+1 ->
  tdot q T (fun s => tau *: ham_MPO q W (HL m) (HR m.+1) X s) =
  tau * dotst q N (psi (rep A T) N) (Hop (psi (rep A X) N)).
Proof.
move=> mN e; have [h1 h2] := envs_at e mN; rewrite (mpo_rep q A W D0 DN M0 MN) //.
rewrite h1 // h2 ?leqnn // /tdot mulr_sumr; apply: eq_bigr => s _.
by rewrite -scalemxAr mxtraceZ.
Qed.
Theorem C66_bond m HL HR tau (F G : 'M[C]_(D m)) : (m < N)%N -> envsM HL HR m m ->
  adot F (tau *: ham_MPO_G (HL m) (HR m) G) =
  tau * dotst q N (psi (rep A (fun s => F *m A m s)) N) (Hop (psi (rep A (fun s => G *m A m s)) N)).
Proof.
move=> mN e; have [h1 h2] := envs_at e (ltnW mN); rewrite (mpo_rep q A W D0 DN M0 MN) // adotZr; congr (_ * _).
rewrite h1 // h2 ?leqnn ?(ltnW mN) // /ham_MPO_G HR_atS // /tdot adotE /eps_r_noop.
rewrite !mulmx_sumr tr_sum; apply: eq_bigr => s _; rewrite /ham_MPO.
have -> : apply_MPO_local (q m) (W m) (fun s => G *m A m s) s = (G *t 1%:M) *m MA q A W m s.
  rewrite /MA !apply_MPO_localE mulmx_sumr; apply: eq_bigr => t _.
  by rewrite tensmx_mul mul1mx.
by rewrite adjM -[in RHS]mulmxA [RHS]mxtrace_mulC !mulmxA.
Qed.
(* a Hermitian operator gives Hermitian local problems *)
Theorem C66_hermitian m HL HR : (m < N)%N -> envsM HL HR m m.+1 ->
  (forall c d, mpo_elem W 0 N c d = (mpo_elem W 0 N d c)^*) ->
  forall T X : nat -> 'M[C]_(D m, D m.+1),
    tdot q T (ham_MPO q W (HL m) (HR m.+1) X) = (tdot q X (ham_MPO q W (HL m) (HR m.+1) T))^*.
Proof.
move=> mN e h T X; have [h1 h2] := envs_at e mN; rewrite h1 // h2 ?leqnn //.
rewrite -!(mpo_rep q A W D0 DN M0 MN) // /mpo_act dotst_opwin ?add0n // dotst_conj; congr (_^*).
rewrite !dotstE; apply: eq_bigr => c _; congr (adot _ _); rewrite /opwin; apply: eq_bigr => d _.
by rewrite -h.
Qed.

(* the loops produce such environments, and the energy *)
Theorem C66_loops HL0 HR0 : envsM (HL_loop q N A W HL0) (HR_loop q N A W HR0) N 0.
Proof.
split; rewrite ?HL_loopE ?HR_loopE ?HL_at0 ?HR_atN //.
- by move=> j jN; rewrite !HL_loopE ?(ltnW jN) // /calc_MPO_l HL_atS; case: eqP => // j0; subst j; rewrite HL_at0.
- move=> j jN; rewrite !HR_loopE ?(ltnW jN) // /calc_MPO_rm1 HR_atS //; congr (eps_r_noop _ _ _ _).
  case: eqP => // e; have g p : p = N -> HR_at q N W A p = pid_mx 1 by move=> ->; exact: HR_atN.
  by rewrite (g _ e).
Qed.
Theorem C66_energy HL HR : (0 < N)%N -> envsM HL HR N 0 ->
  H_expect_MPO N HL HR = dotst q N (psi A N) (Hop (psi A N)) /\
  entry0 (HR 0%N) = dotst q N (psi A N) (Hop (psi A N)).
Proof.
move=> N0 e; have [h1 h2] := envs_at e (leq0n N).
have k0 : (D 0 * M 0 = 1)%N by rewrite D0 M0.
have kN : (D N * M N = 1)%N by rewrite DN MN.
have eq_ : dotst q N (psi A N) (Hop (psi A N)) =
    \sum_(c <- cfgs q N 0) (entry0 (amp A N 0 c))^* * entry0 (amp (MA q A W) N 0 c).
  rewrite dotstE; apply: eq_big_seq => c /size_cfgs sz; rewrite -/(mpo_act q W (psi A N) c) (mpo_actE q W D0 DN M0 MN) // entry0_adot //.
  by rewrite entry0M // entry0M // entry0_adj !entry0_pid // conjC1 mul1r mulr1.
rewrite eq_ /H_expect_MPO h1 // !h2 ?leqnn ?leq0n // HR_atN entry0_adot // entry0_pid // mulr1 /HL_at /HR_at subn0.
rewrite !entry0_sum rmorph_sum; split; apply: eq_bigr => c _; rewrite entry0M // entry0M //.
  by rewrite entry0_adj entry0_pid // mulr1 rmorphM conjCK mulrC.
by rewrite entry0_adj entry0_pid // mulr1 mulrC.
Qed.

(* ---- calc_B_MPO --------------------------------------------------------------------------------- *)
Variables (l r : forall n, smat C (D n) (D n)).
Local Notation L n := (toarray (l n)).
Local Notation R n := (toarray (r n)).
Variables (eigh : eigh_routine C) (qrf : qrf_routine C) (tol : C).
Hypothesis upd : up_to_date q A N (fun n => L n) (fun n => R n).
Hypotheses (eighP : eigh_contract eigh) (qrfP : qrf_contract qrf) (tol0 : 0 <= tol).
Local Notation Br x := (Bpar_r A l r eigh qrf tol x).
Local Notation xM HL HR := (x_MPO q A W l r eigh qrf tol HL HR).

Theorem C66_components HL HR m (y : 'M[C]_(D m, kr D q m)) : (m < N)%N -> envsM HL HR m m.+1 ->
  dotst q N (psi (rep A (Br y)) N) (Hop (psi A N)) = adot y (xM HL HR m).
Proof.
have [hl hr] := upd; move=> mN e; have [h1 h2] := envs_at e mN.
have -> : dotst q N (psi (rep A (Br y)) N) (Hop (psi A N)) =
    dotst q N (psi (rep A (Br y)) N) (Hop (psi (rep A (A m)) N)).
  rewrite !dotstE; apply: eq_bigr => c _; congr (adot _ _); rewrite /opwin; apply: eq_bigr => d _.
  by rewrite psi_rep_A.
rewrite (mpo_rep q A W D0 DN M0 MN) // /x_MPO h1 // h2 ?leqnn //.
have [_ _ ->] := tdot_Br A qrf eighP tol0 (hermL hl (ltnW mN)) (hermR hr mN) y
  (ham_MPO q W (HL_at q W A m) (HR_at q N W A m.+1) (A m)).
congr (adot _ _); rewrite -mulmxA; congr (_ *m _); rewrite /eps_r_noop mulmx_sumr; apply: eq_bigr => s _.
by rewrite /ham_MPO /Vrsi adjK -/(MA q A W m s) !mulmxA.
Qed.

Hypotheses (fL : forall m, (m <= N)%N -> full tol (L m)) (fR : forall m, (m <= N)%N -> full tol (R m)).
Variables (HL0 HR0 : hbonds) (e0 : nat -> C).
Let res := calc_B_MPO q N A W l r eigh qrf tol e0 HL0 HR0.
Let B := otens res.1.1.

(* with eta_sq empty at the sites without tangent vectors, B and eta are the TDVP direction *)
Theorem C66_projection : (0 < N)%N ->
  e0 0%N = 0 -> (forall m, (m < N)%N -> (D m.+1 * q m <= D m)%N -> e0 m.+1 = 0) ->
  tdvp_dir q A (@rg C D q A r) (Hop (psi A N)) B res.1.2 /\ res.2 = dotst q N (psi A N) (Hop (psi A N)).
Proof.
have [hl hr] := upd; move=> N0 z0 z1.
have eM := C66_loops HL0 HR0; set HL := HL_loop _ _ _ _ _ in eM; set HR := HR_loop _ _ _ _ _ in eM.
split; last exact: (C66_energy N0 eM).1.
have eB m s : (m < N)%N -> B m s = Br (xM HL HR m) s.
  move=> mN; rewrite /B /otens /res /calc_B_MPO /= /B_MPO; case: ifP => h.
    by have [-> _] := Br_empty A l r eigh qrf tol (xM HL HR m) h.
  by [].
have hx m (y : 'M[C]_(D m, kr D q m)) : (m < N)%N -> dotst q N (psi (rep A (Br y)) N) (Hop (psi A N)) = adot y (xM HL HR m).
  move=> mN; apply: C66_components => //; case: eM => g1 g2 g3 g4; split=> // j hj; [apply: g2|apply: g4]; lia.
have [p1 p2 p3 p4] := right_projection eighP qrfP tol0 hl hr D0 fL fR eB hx.
split=> //.
- by move=> m mN; apply/(rgauge_adj hr _ mN); exact: p1.
- move=> T gT; rewrite (p3 T) ?ler_addl ?dotst_ge0 // => m mN.
  by apply/(rgauge_adj hr _ mN); exact: gT.
have -> : res.1.2 = sqrtC (nrm2 (tvec N A B)).
  rewrite p4 /res /calc_B_MPO /= /eta_MPO -/HL -/HR big_ord_recl /= z0 add0r; congr sqrtC; apply: eq_bigr => m _.
  rewrite /eta_sq_MPO /bump /= add1n; case: ifP => h.
    by have [_ ->] := Br_empty A l r eigh qrf tol (xM HL HR m) h; rewrite z1 // adot0r.
  by apply/Creal_ReP/ger0_real/adot_ge0.
by rewrite sqrtCK sqrtC_ge0 dotst_ge0.
Qed.

(* whatever eta_sq held at the sites without tangent vectors is added to eta^2 *)
Theorem C66_stale_eta_refuted : (0 < N)%N ->
  res.1.2 ^+ 2 = nrm2 (tvec N A B) + e0 0%N + \sum_(m < N | (D m.+1 * q m <= D m)%N) e0 m.+1.
Proof.
have [hl hr] := upd; move=> N0.
have eM := C66_loops HL0 HR0; set HL := HL_loop _ _ _ _ _ in eM; set HR := HR_loop _ _ _ _ _ in eM.
have eB m s : (m < N)%N -> B m s = Br (xM HL HR m) s.
  move=> mN; rewrite /B /otens /res /calc_B_MPO /= /B_MPO; case: ifP => h.
    by have [-> _] := Br_empty A l r eigh qrf tol (xM HL HR m) h.
  by [].
have hx m (y : 'M[C]_(D m, kr D q m)) : (m < N)%N -> dotst q N (psi (rep A (Br y)) N) (Hop (psi A N)) = adot y (xM HL HR m).
  move=> mN; apply: C66_components => //; case: eM => g1 g2 g3 g4; split=> // j hj; [apply: g2|apply: g4]; lia.
have [_ _ _ p4] := right_projection eighP qrfP tol0 hl hr D0 fL fR eB hx.
rewrite p4 /res /calc_B_MPO /= /eta_MPO -/HL -/HR sqrtCK big_ord_recl /= -addrA [in RHS]addrCA; congr (_ + _).
rewrite [X in _ = _ + X]big_mkcond -big_split; apply: eq_bigr => m _ /=.
rewrite /eta_sq_MPO /bump /= add1n; case: ifP => h.
  by have [_ ->] := Br_empty A l r eigh qrf tol (xM HL HR m) h; rewrite adot0r add0r.
by rewrite addr0; apply/Creal_ReP/ger0_real/adot_ge0.
Qed.
End C66.
Print Assumptions C66_one_site.
Print Assumptions C66_bond.
Print Assumptions C66_hermitian.
Print Assumptions C66_loops.
Print Assumptions C66_energy.
Print Assumptions C66_components.
Print Assumptions C66_projection.
Print Assumptions C66_stale_eta_refuted.

(* ---- example: |00> and the MPO of bond dimension 2 for X (x) 1 + 1 (x) |1><1| ---------------------- *)
Section Ex.
Variable C : numClosedFieldType.
Definition exM (n : nat) : nat := if n == 1%N then 2%N else 1%N.
Definition exw (n i j s t : nat) : C :=
  if n == 0%N then (if j == 0%N then (s + t == 1)%N%:R else (s == t)%:R)
  else if i == 0%N then (s == t)%:R else ((s == 1) && (t == 1))%N%:R.
Definition exW : mpo C exM := fun n s t => \matrix_(i, j) exw n i j s t.
Local Notation s00 := (scal (@bas C [:: 0%N; 0%N])).

Lemma exW_elem s t u v : mpo_elem exW 0 2 [:: s; t] [:: u; v] =
  (s + u == 1)%N%:R * (t == v)%:R + (s == u)%:R * ((t == 1) && (v == 1))%N%:R.
Proof.
rewrite /mpo_elem /= pid_mx_1 mulmx1 (entry0_1 _ (erefl 1%N) (erefl 1%N)) !cast_ord_id mxE.
by rewrite big_ord_recl big_ord1 !mxE.
Qed.
Lemma exW_act c : c \in cfgs two 2 0 -> opwin two 0 2 (mpo_elem exW 0 2) (psi s00 2) c = (c == [:: 1%N; 0%N])%:R%:M.
Proof.
move=> hc; have [s [t ec]] := cfgs2 hc; rewrite {hc}ec /opwin.
have h2 (d : seq nat) : d \in cfgs two 2 0 -> exists u v, d = [:: u; v] by exact: cfgs2.
have uc := cfgs_uniq two 2 0; have h0 : [:: 0%N; 0%N] \in cfgs two 2 0 by [].
move: (cfgs two 2 0) h2 uc h0 => cf h2 uc h0; rewrite (bigD1_seq [:: 0%N; 0%N]) //= big1_seq ?addr0; last first.
  move=> d /andP[nd hd]; have [u [v ed]] := h2 d hd; subst d.
  by rewrite psi_bas // (negPf nd) raddf0 scaler0.
rewrite psi_bas // eqxx exW_elem andbF mulr0 addr0 addn0 -scalemx1 scalerA mulr1 scalemx1 -natrM mulnb.
by rewrite !eqseq_cons andbT.
Qed.

Example C66_example eigh qrf HL0 HR0 : eigh_contract eigh -> qrf_contract qrf ->
  let res := calc_B_MPO two 2 s00 exW (@eyes C) (@eyes C) eigh qrf 0 (fun _ => 0) HL0 HR0 in
  [/\ res.1.2 = 1, res.2 = 0 &
      forall c, c \in cfgs two 2 0 -> tvec 2 s00 (otens res.1.1) c = (c == [:: 1%N; 0%N])%:R%:M].
Proof.
move=> h1 h2 res; have fl m : (m <= 2)%N -> full 0 (toarray (@eyes C m)) by move=> _; apply: scal_full; exact: ltr01.
have U : up_to_date two s00 2 (fun n => toarray (@eyes C n)) (fun n => toarray (@eyes C n)).
  by apply: (@bas_upd _ _ [:: 0%N; 0%N]) => -[|[|]].
have [[_ _ p3 [p4 p5]] p6] := @C66_projection C one two 2 s00 exM exW erefl erefl erefl erefl (@eyes C) (@eyes C) eigh qrf 0
  U h1 h2 (lexx 0) fl fl HL0 HR0 (fun _ => 0) isT erefl (fun _ _ _ => erefl).
rewrite -/res in p3 p4 p5 p6.
have zero u v : (forall c, c \in cfgs two 2 0 -> u c = v c) ->
    dotst two 2 (fun c => u c - v c : 'M[C]_(one 0, one 2)) (fun c => u c - v c) = 0.
  by move=> huv; rewrite dotstE big1_seq // => c hc; rewrite huv // subrr adot0r.
have := p3 _ (fun m _ => gT10 C m); rewrite (zero _ (tvec 2 s00 (@T10 C))); last by move=> c hc; rewrite exW_act // T10E.
set Phi := opwin _ _ _ _ _ => le0.
have /(dotst_eq0 (q := two)) eB : dotst two 2 (fun c => Phi c - tvec 2 s00 (otens res.1.1) c)
    (fun c => Phi c - tvec 2 s00 (otens res.1.1) c) = 0.
  by apply/eqP; rewrite eq_le le0 dotst_ge0.
have tE c : c \in cfgs two 2 0 -> tvec 2 s00 (otens res.1.1) c = (c == [:: 1%N; 0%N])%:R%:M.
  by move=> hc; have /eqP := eB c hc; rewrite subr_eq0 => /eqP<-; rewrite /Phi exW_act.
split=> //; last first.
  rewrite p6 (@dot_bas C two 2 [:: 0%N; 0%N] _ _ 0) // => [c hc|]; last by rewrite exW_act // raddf0.
  by have [s [t ->]] := cfgs2 hc; rewrite psi_bas.
move: p5; rewrite (@dot_bas _ _ _ [:: 1%N; 0%N] _ _ 1 _ tE) ?tE //.
move=> /eqP; rewrite sqrf_eq1 => /orP[/eqP//|/eqP e1].
by move: p4; rewrite e1 oppr_ge0 => /le_lt_trans/(_ ltr01); rewrite ltxx.
Qed.
End Ex.
