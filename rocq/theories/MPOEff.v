(* MPOEff.v -- Hamiltonians given as matrix product operators on the finite chain:
   tdvp_gen.calc_MPO_l / calc_MPO_rm1 / calc_B_MPO (tdvp_gen.py:758-811) and the apply_ham_MPO parts
   of the effective Hamiltonians (tdvp_gen.py:107-114, 168-170; the same in split_step.py:122-128,
   374-376).
   Numbering as in Chain.v: site m here is Python site m+1, and W m is the MPO tensor H[m+1]
   (H[0] is not used).  HL m, HR m belong to bond m. *)
From mathcomp Require Import all_ssreflect all_algebra zify.
From mathcomp.real_closed Require Import mxtens.
From Verif Require Import Base Spec Eps Chain ChainProofs ChainProofs2 LinAlg Struct Factor MPO Tangent Tangent2
  Tdvp TdvpProofs TdvpProofs2 TdvpProofs3.
Set Implicit Arguments.
Unset Strict Implicit.
Unset Printing Implicit Defensive.
Import Order.TTheory GRing.Theory Num.Theory.
Local Open Scope ring_scope.

Section Defs.
Variables (C : numClosedFieldType) (D q : nat -> nat) (N : nat) (A : tensors C D).
Variables (M : nat -> nat) (W : mpo C M).
Local Notation hbonds := (forall n, 'M[C]_(D n * M n, D n)).

(* AH[n] = tm.apply_MPO_local(H[n], A[n]) (tdvp_gen.py:774-775, 1234) *)
Definition MA : tensors C (fun n => D n * M n)%N := fun n => apply_MPO_local (q n) (W n) (A n).

(* calc_MPO_l (tdvp_gen.py:758-761), n = m+1: the 1 x 1 identity replaces the argument at the left end *)
Definition calc_MPO_l m (MLm1 : 'M[C]_(D m * M m, D m)) : 'M[C]_(D m.+1 * M m.+1, D m.+1) :=
  eps_l_noop (q m) (if m == 0%N then pid_mx 1 else MLm1) (MA m) (A m).
(* calc_MPO_rm1 (tdvp_gen.py:763-766), n = m+1 *)
Definition calc_MPO_rm1 m (MRn : 'M[C]_(D m.+1 * M m.+1, D m.+1)) : 'M[C]_(D m * M m, D m) :=
  eps_r_noop (q m) (if m.+1 == N then pid_mx 1 else MRn) (MA m) (A m).

(* the loops of calc_B_MPO (tdvp_gen.py:777-783) and take_step_split (1226-1235) *)
Definition setH (H : hbonds) n (x : 'M[C]_(D n * M n, D n)) : hbonds :=
  @upd (fun n => 'M[C]_(D n * M n, D n)) H n x.
Definition HR_step (H : hbonds) (m : nat) : hbonds := @setH H m (calc_MPO_rm1 (H m.+1)).
Definition HL_step (H : hbonds) (m : nat) : hbonds := @setH H m.+1 (calc_MPO_l (H m)).
Definition HR_loop (H0 : hbonds) : hbonds := foldl HR_step (@setH H0 N (pid_mx 1)) (rev (iota 0 N)).
Definition HL_loop (H0 : hbonds) : hbonds := foldl HL_step (@setH H0 0 (pid_mx 1)) (iota 0 N).

(* self.H_expect = m.adot(HL[self.N], HR[self.N]) (tdvp_gen.py:786) *)
Definition H_expect_MPO (HL HR : hbonds) : C := adot (HL N) (HR N).

(* Vari_Opt_Single_Site_Op.apply_ham_MPO (tdvp_gen.py:107-114), what is added to res[s] *)
Definition ham_MPO m (HL : 'M[C]_(D m * M m, D m)) (HR : 'M[C]_(D m.+1 * M m.+1, D m.+1))
    (X : nat -> 'M[C]_(D m, D m.+1)) s : 'M[C]_(D m, D m.+1) :=
  HL^† *m apply_MPO_local (q m) (W m) X s *m HR.
(* Vari_Opt_SC_op.apply_ham_MPO (tdvp_gen.py:168-170); sp.kron(G, sp.eye(M)) *)
Definition ham_MPO_G m (HL HR : 'M[C]_(D m * M m, D m)) (G : 'M[C]_(D m)) : 'M[C]_(D m) :=
  HL^† *m (G *t (1%:M : 'M[C]_(M m))) *m HR.

(* calc_B_MPO, the loop over sites (tdvp_gen.py:788-809) *)
Variables (l r : forall n, smat C (D n) (D n)) (eigh : eigh_routine C) (qrf : qrf_routine C) (tol : C).
Definition Vrsi m s := (toarray (r_si r eigh tol m) *m Vrh q A r eigh qrf tol m s)^†.
Definition x_MPO (HL HR : hbonds) m : 'M[C]_(D m, kr D q m) :=
  toarray (l_si l eigh tol m) *m (HL m)^† *m eps_r_noop (q m) (HR m.+1) (MA m) (Vrsi m).
Definition B_MPO (HL HR : hbonds) m : option (nat -> 'M[C]_(D m, D m.+1)) :=
  if (D m.+1 * q m <= D m)%N then None
  else Some (fun s => toarray (l_si l eigh tol m) *m x_MPO HL HR m *m Vrsi m s).
(* self.eta_sq is not cleared: entries of sites without tangent vectors, and entry 0, keep what they
   held before (e0, entry n for Python site n) *)
Definition eta_sq_MPO (HL HR : hbonds) (e0 : nat -> C) (n : nat) : C :=
  if n is m.+1 then
    if (D m.+1 * q m <= D m)%N then e0 n else 'Re (adot (x_MPO HL HR m) (x_MPO HL HR m))
  else e0 0%N.
Definition eta_MPO HL HR e0 : C := sqrtC (\sum_(n < N.+1) eta_sq_MPO HL HR e0 n).
(* B (index 0 of the list is None), eta and H_expect *)
Definition calc_B_MPO (e0 : nat -> C) (HL0 HR0 : hbonds) :=
  let HR := HR_loop HR0 in let HL := HL_loop HL0 in
  (fun m => B_MPO HL HR m, eta_MPO HL HR e0, H_expect_MPO HL HR).
End Defs.

Section Proofs.
Variables (C : numClosedFieldType) (D q : nat -> nat) (N : nat) (A : tensors C D).
Variables (M : nat -> nat) (W : mpo C M).
Hypotheses (D0 : D 0 = 1%N) (DN : D N = 1%N) (M0 : M 0 = 1%N) (MN : M N = 1%N).
Local Notation hbonds := (forall n, 'M[C]_(D n * M n, D n)).
Local Notation vec := (seq nat -> 'M[C]_(D 0, D N)).

(* the operator *)
Definition mpo_act (phi : vec) : vec := opwin q 0 N (mpo_elem W 0 N) phi.

(* environments valid at bond m *)
Definition HL_at (B : tensors C D) j : 'M[C]_(D j * M j, D j) :=
  \sum_(c <- cfgs q j 0) (amp (MA q B W) j 0 c)^† *m (pid_mx 1 : 'M[C]_(D 0 * M 0, D 0)) *m amp B j 0 c.
Definition HR_at (B : tensors C D) p : 'M[C]_(D p * M p, D p) :=
  \sum_(c <- cfgs q (N - p) p) amp (MA q B W) N p c *m (pid_mx 1 : 'M[C]_(D N * M N, D N)) *m (amp B N p c)^†.

Lemma HL_at0 B : HL_at B 0 = pid_mx 1.
Proof. by rewrite /HL_at sum_cfgs0 /= !pid_mx_1 adj1 mulmx1 mul1mx. Qed.
Lemma HL_atS B j : HL_at B j.+1 = eps_l_noop (q j) (HL_at B j) (MA q B W j) (B j).
Proof.
rewrite /HL_at sum_cfgs_rcons /eps_l_noop addn0 exchange_big /=; apply: eq_bigr => s _.
rewrite mulmx_suml mulmx_sumr; apply: eq_big_seq => c /size_cfgs sz.
by rewrite !amp_rcons ?add0n // adjM !mulmxA.
Qed.
Lemma HR_atN B : HR_at B N = pid_mx 1.
Proof. by rewrite /HR_at subnn sum_cfgs0 /= !pid_mx_1 adj1 mulmx1 mul1mx. Qed.
Lemma HR_atS B p : (p < N)%N -> HR_at B p = eps_r_noop (q p) (HR_at B p.+1) (MA q B W p) (B p).
Proof.
move=> pN; rewrite /HR_at -[(N - p)%N]subSS subSn // sum_cfgsS /eps_r_noop; apply: eq_bigr => s _.
by rewrite mulmx_sumr mulmx_suml; apply: eq_bigr => c _; rewrite !amp_cons adjM !mulmxA.
Qed.

Lemma HL_loopE H0 j : (j <= N)%N -> HL_loop q N A W H0 j = HL_at A j.
Proof.
suff h k : (k <= N)%N -> forall j, (j <= k)%N ->
    foldl (HL_step q A W) (@setH C D M H0 0 (pid_mx 1)) (iota 0 k) j = HL_at A j.
  exact: h.
elim: k => [|k IH] kN {}j.
  by rewrite leqn0 => /eqP->; rewrite /= /setH upd_same HL_at0.
rewrite -addn1 iotaD foldl_cat [foldl _ _ (iota _ 1)]/= add0n /HL_step /setH leq_eqVlt => /orP[/eqP->|].
  rewrite addn1 upd_same IH ?leqnn // 1?ltnW // /calc_MPO_l HL_atS.
  by case: eqP => // k0; subst k; rewrite HL_at0.
rewrite addn1 ltnS => jk; rewrite upd_other; last by rewrite gtn_eqF // ltnS.
by apply: IH => //; exact: ltnW.
Qed.
Lemma HR_loopE H0 j : (j <= N)%N -> HR_loop q N A W H0 j = HR_at A j.
Proof.
suff h k : (k <= N)%N -> forall j, (N - k <= j <= N)%N ->
    foldl (HR_step q N A W) (@setH C D M H0 N (pid_mx 1)) (rev (iota (N - k) k)) j = HR_at A j.
  by move=> jN; rewrite /HR_loop; have := h N (leqnn N) j; rewrite subnn; apply.
elim: k => [|k IH] kN {}j.
  by rewrite subn0 -eqn_leq => /eqP<-; rewrite /= /setH upd_same HR_atN.
have e : ((N - k.+1).+1 = N - k)%N by lia.
rewrite [iota _ k.+1]/= e rev_cons -cats1 foldl_cat [foldl _ _ [:: _]]/= {1}/HR_step {1}/setH => /andP[h1 h2].
case: (eqVneq (N - k.+1)%N j) => [ej|ne].
  case: j / ej {h1 h2}; rewrite upd_same IH ?(ltnW kN) //; last by lia.
  rewrite /calc_MPO_rm1 [RHS]HR_atS; last by lia.
  case: eqP => // k0; congr (eps_r_noop _ _ _ _).
  have g p : p = N -> HR_at A p = pid_mx 1 by move=> ->; exact: HR_atN.
  by rewrite (g _ k0).
by rewrite upd_other // IH //; lia.
Qed.

Lemma eq_HL (B B' : tensors C D) j : (forall m s, (m < j)%N -> B m s = B' m s) -> HL_at B j = HL_at B' j.
Proof.
move=> h; apply: eq_sum_cfgs => c sz; rewrite (@eq_amp _ _ B B'); last first.
  by move=> m s _; rewrite sz add0n => mj; apply: h.
rewrite (@eq_amp _ _ (MA q B W) (MA q B' W)) // => m s _; rewrite sz add0n => mj.
by rewrite /MA !apply_MPO_localE; apply: eq_bigr => t _; rewrite h.
Qed.
Lemma eq_HR (B B' : tensors C D) p : (forall m s, (p <= m < N)%N -> B m s = B' m s) -> HR_at B p = HR_at B' p.
Proof.
move=> h; apply: eq_sum_cfgs => c sz.
have e m : (p <= m)%N -> (m < p + size c)%N -> (p <= m < N)%N by rewrite sz; lia.
rewrite (@eq_amp _ _ B B'); last by move=> m s pm mp; apply: h; exact: e.
rewrite (@eq_amp _ _ (MA q B W) (MA q B' W)) // => m s pm mp.
by rewrite /MA !apply_MPO_localE; apply: eq_bigr => t _; rewrite h //; exact: e.
Qed.

Lemma entry0_inj m n (X Y : 'M[C]_(m, n)) : m = 1%N -> n = 1%N -> entry0 X = entry0 Y -> X = Y.
Proof.
move=> m1 n1; subst; rewrite !entry0_1 !cast_ord_id => e.
by apply/matrixP => i j; rewrite !ord1.
Qed.
Lemma entry0_pid m n : m = 1%N -> n = 1%N -> entry0 (pid_mx 1 : 'M[C]_(m, n)) = 1.
Proof. by move=> *; subst; rewrite entry0_1 !cast_ord_id mxE. Qed.

Lemma mpo_actE (B : tensors C D) c : size c = N ->
  mpo_act (psi B N) c =
  (pid_mx 1 : 'M[C]_(D 0 * M 0, D 0))^† *m amp (MA q B W) N 0 c *m (pid_mx 1 : 'M[C]_(D N * M N, D N)).
Proof.
move=> sz; have k0 : (D 0 * M 0 = 1)%N by rewrite D0 M0.
have kN : (D N * M N = 1)%N by rewrite DN MN.
apply: entry0_inj => //.
rewrite entry0M // entry0M // entry0_adj !entry0_pid // conjC1 mul1r mulr1.
have -> : amp (MA q B W) N 0 c = amp (apply_op_MPO q B W 0 N) N 0 c.
  apply: (@eq_amp _ _ (MA q B W) (apply_op_MPO q B W 0 N)) => m s _; rewrite sz add0n => mN.
  by rewrite /apply_op_MPO leq0n add0n mN.
rewrite (amp_mpo_in q B W (n1 := 0) (leqnn 0) (sz : (0 + size c)%N = N) (leqnn N)) sz.
rewrite /mpo_act -[in LHS](cats0 c) -[in LHS](cat0s (c ++ _)) opwin_cat // !entry0_sum.
apply: eq_bigr => d _; rewrite entry0_tens // cat0s cats0 entry0Z mulrC.
by rewrite /mpo_elem /psi add0n.
Qed.

(* matrix elements between states that differ only at site m *)
Lemma mpo_rep m (T X : nat -> 'M[C]_(D m, D m.+1)) : (m < N)%N ->
  dotst q N (psi (rep A T) N) (mpo_act (psi (rep A X) N)) = tdot q T (ham_MPO q W (HL_at A m) (HR_at A m.+1) X).
Proof.
move=> mN; rewrite /tdot /ham_MPO.
transitivity (\sum_(c <- cfgs q N 0) \tr ((amp (rep A T) N 0 c)^† *m ((pid_mx 1 : 'M[C]_(D 0 * M 0, D 0))^† *m amp (MA q (rep A X) W) N 0 c *m (pid_mx 1 : 'M[C]_(D N * M N, D N))))).
  by rewrite dotstE; apply: eq_big_seq => c /size_cfgs sz; rewrite mpo_actE // adotE.
have eN : N = (m + (1 + (N - m.+1)))%N by lia.
rewrite [X in cfgs q X 0]eN sum_cfgs_cat.
have eL (B : tensors C D) c1 (Y : nat -> 'M[C]_(D m, D m.+1)) : size c1 = m ->
    amp (@rep C D B m Y) m 0 c1 = amp B m 0 c1.
  by move=> s1; apply: eq_amp => n s _; rewrite s1 add0n => nm; rewrite rep_other // gtn_eqF.
have eR (B : tensors C D) c2 (Y : nat -> 'M[C]_(D m, D m.+1)) :
    amp (@rep C D B m Y) N m.+1 c2 = amp B N m.+1 c2.
  by apply: eq_amp => n s mn _; rewrite rep_other // ltn_eqF.
have eLM c1 : size c1 = m -> amp (MA q (rep A X) W) m 0 c1 = amp (MA q A W) m 0 c1.
  by move=> s1; apply: (@eq_amp _ _ (MA q (rep A X) W) (MA q A W)) => n s _; rewrite s1 add0n => nm; rewrite /MA rep_other // gtn_eqF.
have eRM c2 : amp (MA q (rep A X) W) N m.+1 c2 = amp (MA q A W) N m.+1 c2.
  by apply: (@eq_amp _ _ (MA q (rep A X) W) (MA q A W)) => n s mn _; rewrite /MA rep_other // ltn_eqF.
have eM s : MA q (rep A X) W m s = apply_MPO_local (q m) (W m) X s by rewrite /MA rep_same.
under eq_big_seq => c1 /size_cfgs s1 do rewrite addn0 add1n sum_cfgsS.
rewrite exchange_big; apply: eq_bigr => s _ /=.
rewrite /HL_at /HR_at adj_sum mulmx_suml mulmx_suml mulmx_sumr tr_sum.
apply: eq_big_seq => c1 /size_cfgs s1; rewrite !mulmx_sumr tr_sum; apply: eq_big_seq => c2 _.
rewrite !(@amp_cat _ _ _ _ _ m) ?s1 ?add0n // !amp_cons eL // eR eLM // eRM rep_same eM.
by rewrite !adjM adjK -!mulmxA mxtrace_mulC -!mulmxA mxtrace_mulC -!mulmxA mxtrace_mulC -!mulmxA.
Qed.
End Proofs.
