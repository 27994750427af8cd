(* Tangent.v -- matrix elements <psi[B]| O |psi[A]> between two chains with the same bond
   dimensions, and the derivative vectors psi[A with site m replaced].  Pure mathematics about the
   state vector of Spec.v; used for the TDVP (Tdvp.v). *)
From mathcomp Require Import all_ssreflect all_algebra.
From mathcomp Require Import zify.
From Verif Require Import Base Spec Eps Chain ChainProofs.
Set Implicit Arguments.
Unset Strict Implicit.
Unset Printing Implicit Defensive.
Import GRing.Theory Num.Theory.
Local Open Scope ring_scope.

Lemma tr_sum (R : ringType) n (I : Type) (s : seq I) (P : pred I) (F : I -> 'M[R]_n) :
  \tr (\sum_(i <- s | P i) F i) = \sum_(i <- s | P i) \tr (F i).
Proof. exact: raddf_sum. Qed.

Section Two.
Variables (C : numClosedFieldType) (D q : nat -> nat).
Local Notation bonds := (forall n, 'M[C]_(D n)).

(* left and right overlaps of the bra chain B with the ket chain A *)
Definition LW (B A : tensors C D) (j : nat) : 'M[C]_(D j) :=
  \sum_(c <- cfgs q j 0) (amp B j 0 c)^† *m amp A j 0 c.
Definition RW (N : nat) (B A : tensors C D) (p : nat) : 'M[C]_(D p) :=
  \sum_(c <- cfgs q (N - p) p) amp A N p c *m (amp B N p c)^†.

Lemma LW0 B A : LW B A 0 = 1%:M.
Proof. by rewrite /LW sum_cfgs0 /= pid_mx_1 adj1 mulmx1. Qed.
Lemma LWS B A j : LW B A j.+1 = eps_l_noop (q j) (LW B A j) (B j) (A j).
Proof.
rewrite /LW sum_cfgs_rcons /eps_l_noop addn0 exchange_big /=; apply: eq_bigr => s _.
rewrite mulmx_suml mulmx_sumr; apply: eq_big_seq => c /size_cfgs sz.
by rewrite !amp_rcons ?add0n // adjM !mulmxA.
Qed.
Lemma RWN N B A : RW N B A N = 1%:M.
Proof. by rewrite /RW subnn sum_cfgs0 /= pid_mx_1 adj1 mulmx1. Qed.
Lemma RWS N B A p : (p < N)%N -> RW N B A p = eps_r_noop (q p) (RW N B A p.+1) (A p) (B p).
Proof.
move=> pN; rewrite /RW -[(N - p)%N]subSS subSn // sum_cfgsS /eps_r_noop; apply: eq_bigr => s _.
by rewrite mulmx_sumr mulmx_suml; apply: eq_bigr => c _; rewrite !amp_cons adjM !mulmxA.
Qed.

(* matrix elements of a window operator *)
Definition winmat (B A : tensors C D) j w p (O : seq nat -> seq nat -> C) (R : 'M[C]_(D p)) :
  'M[C]_(D j) :=
  \sum_(c <- cfgs q w j) \sum_(d <- cfgs q w j)
     O c d *: (amp A p j d *m R *m (amp B p j c)^†).

Lemma dotst_win2 N B A j w p O : (j + w)%N = p -> (p <= N)%N ->
  dotst q N (psi B N) (opwin q j w O (psi A N)) =
  \tr (LW B A j *m winmat B A j w O (RW N B A p)).
Proof.
move=> jw pN; rewrite dotstE.
have eN : N = (j + (w + (N - p)))%N by rewrite addnA jw subnKC.
rewrite [X in cfgs q X 0]eN sum_cfgs_cat /winmat /LW /RW.
rewrite mulmx_suml tr_sum; apply: eq_big_seq => c1 /size_cfgs s1.
rewrite addn0 sum_cfgs_cat /= mulmx_sumr tr_sum; apply: eq_big_seq => c2 /size_cfgs s2.
rewrite [(w + j)%N]addnC jw.
transitivity (\sum_(c3 <- cfgs q (N - p) p) \sum_(d <- cfgs q w j) O c2 d *
   \tr ((amp B p j c2)^† *m ((amp B j 0 c1)^† *m amp A j 0 c1) *m amp A p j d *m
     (amp A N p c3 *m (amp B N p c3)^†))).
  apply: eq_big_seq => c3 /size_cfgs s3.
  rewrite opwin_cat // adot_sumr; apply: eq_big_seq => d /size_cfgs sd.
  rewrite adotZr adotE /psi (@amp_cat _ _ B _ _ j) ?s1 // (@amp_cat _ _ B _ _ p) ?s2 //.
  rewrite (@amp_cat _ _ A _ _ j) ?s1 // (@amp_cat _ _ A _ _ p) ?sd //.
  by rewrite !adjM -!mulmxA [in LHS]mxtrace_mulC -!mulmxA.
rewrite exchange_big /= mulmx_sumr tr_sum; apply: eq_bigr => d _.
rewrite -scalemxAr mxtraceZ -mulr_sumr; congr (_ * _).
rewrite -tr_sum -mulmx_sumr.
by rewrite -!mulmxA mxtrace_mulC -!mulmxA.
Qed.

Lemma dotst_cut2 N B A j : (j <= N)%N ->
  dotst q N (psi B N) (psi A N) = \tr (LW B A j *m RW N B A j).
Proof.
move=> jN; rewrite dotstE -{1}(subnKC jN) sum_cfgs_cat /LW /RW mulmx_suml tr_sum.
apply: eq_big_seq => c1 /size_cfgs s1; rewrite addn0 mulmx_sumr tr_sum.
apply: eq_big_seq => c3 /size_cfgs s3.
rewrite adotE /psi !(@amp_cat _ _ _ _ _ j) ?s1 // adjM -!mulmxA.
by rewrite mxtrace_mulC !mulmxA.
Qed.

Lemma LW_up N A (l : bonds) j : up_l q A N 1%:M l -> (j <= N)%N -> LW A A j = l j.
Proof.
move=> h jN; rewrite (lE h jN); apply: eq_bigr => c _; by rewrite mulmx1.
Qed.
Lemma RW_up N A (r : bonds) p : up_r q A N 1%:M r -> (p <= N)%N -> RW N A A p = r p.
Proof.
move=> h pN; rewrite (rE h (subnKC pN)); apply: eq_bigr => c _; by rewrite mulmx1.
Qed.

Lemma eq_LW (B B' A A' : tensors C D) j :
  (forall m s, (m < j)%N -> B m s = B' m s) -> (forall m s, (m < j)%N -> A m s = A' m s) ->
  LW B A j = LW B' A' j.
Proof.
move=> h h'; apply: eq_sum_cfgs => c sz.
rewrite (@eq_amp _ _ B B') ?(@eq_amp _ _ A A') // => m s _; rewrite sz add0n => mj.
- exact: h'.
- exact: h.
Qed.
Lemma eq_RW N (B B' A A' : tensors C D) p :
  (forall m s, (p <= m < N)%N -> B m s = B' m s) -> (forall m s, (p <= m < N)%N -> A m s = A' m s) ->
  RW N B A p = RW N B' A' p.
Proof.
move=> h h'; apply: eq_sum_cfgs => c sz.
have e m : (p <= m)%N -> (m < p + size c)%N -> (p <= m < N)%N.
  move=> pm; rewrite pm sz; case: (leqP p N) => [pN|Np]; first by rewrite subnKC.
  by rewrite (eqP (ltnW Np : (N - p)%N == 0%N)) addn0 ltnNge pm.
rewrite (@eq_amp _ _ B B') ?(@eq_amp _ _ A A') // => m s pm mp.
- exact: h' (e _ pm mp).
- exact: h (e _ pm mp).
Qed.

(* ---- chains with one site replaced -------------------------------------- *)
Definition rep (A : tensors C D) (m : nat) (T : nat -> 'M[C]_(D m, D m.+1)) : tensors C D :=
  @upd (fun n => nat -> 'M[C]_(D n, D n.+1)) A m T.
Lemma rep_same A m T : @rep A m T m = T. Proof. exact: upd_same. Qed.
Lemma rep_other A m T n : m != n -> @rep A m T n = A n. Proof. exact: upd_other. Qed.

Section Rep.
Variables (N : nat) (A : tensors C D) (l r : bonds).
Hypotheses (hl : up_l q A N 1%:M l) (hr : up_r q A N 1%:M r).
Implicit Types m k j p : nat.

Lemma LW_rep_le m T j : (j <= m)%N -> (j <= N)%N -> LW (@rep A m T) A j = l j.
Proof.
move=> jm jN; rewrite -(LW_up hl jN); apply: eq_LW => // n s nj.
by rewrite rep_other // gtn_eqF // (leq_trans nj).
Qed.
Lemma RW_rep_gt m T p : (m < p)%N -> (p <= N)%N -> RW N (@rep A m T) A p = r p.
Proof.
move=> mp pN; rewrite -(RW_up hr pN); apply: eq_RW => // n s /andP[pn nN].
by rewrite rep_other // ltn_eqF // (leq_trans mp).
Qed.
Lemma LW_rep_S m T : (m <= N)%N -> LW (@rep A m T) A m.+1 = eps_l_noop (q m) (l m) T (A m).
Proof. by move=> mN; rewrite LWS rep_same LW_rep_le. Qed.
Lemma LW_rep_step m T j : (m < j)%N ->
  LW (@rep A m T) A j.+1 = eps_l_noop (q j) (LW (@rep A m T) A j) (A j) (A j).
Proof. by move=> mj; rewrite LWS rep_other // ltn_eqF. Qed.
Lemma RW_rep_at m T : (m < N)%N -> RW N (@rep A m T) A m = eps_r_noop (q m) (r m.+1) (A m) T.
Proof. by move=> mN; rewrite RWS // rep_same RW_rep_gt. Qed.
Lemma RW_rep_step m T p : (p < m)%N -> (m <= N)%N ->
  RW N (@rep A m T) A p = eps_r_noop (q p) (RW N (@rep A m T) A p.+1) (A p) (A p).
Proof. by move=> mp mN; rewrite RWS ?rep_other ?gtn_eqF // (leq_trans mp). Qed.

(* gauge conditions *)
Definition rgauge m (T : nat -> 'M[C]_(D m, D m.+1)) := eps_r_noop (q m) (r m.+1) (A m) T = 0.
Definition lgauge m (T : nat -> 'M[C]_(D m, D m.+1)) := eps_l_noop (q m) (l m) T (A m) = 0.

Lemma RW_rep_le0 m T p : rgauge T -> (p <= m)%N -> (m < N)%N -> RW N (@rep A m T) A p = 0.
Proof.
move=> g pm mN; move: (subnKC pm); move: (m - p)%N => k; elim: k p {pm} => [|k IH] p pk.
  by rewrite addn0 in pk; rewrite pk RW_rep_at.
have pm : (p < m)%N by rewrite -pk addnS ltnS leq_addr.
by rewrite RW_rep_step ?(ltnW mN) // IH ?eps_r_noop0 // addSn -addnS.
Qed.
Lemma LW_rep_gt0 m T j : lgauge T -> (m < j)%N -> (m <= N)%N -> LW (@rep A m T) A j = 0.
Proof.
move=> g mj mN; rewrite -(subnKC mj); elim: (j - m.+1)%N => [|k IH].
  by rewrite addn0 LW_rep_S.
by rewrite addnS LW_rep_step ?IH ?eps_l_noop0 // addSn ltnS leq_addr.
Qed.

(* tangent vectors in either gauge are orthogonal to the state *)
Lemma rep_orth_psi_r m T : rgauge T -> (m < N)%N ->
  dotst q N (psi (@rep A m T) N) (psi A N) = 0.
Proof.
move=> g mN; rewrite (dotst_cut2 _ _ (ltnW mN)) (RW_rep_le0 g) // mulmx0; exact: mxtrace0.
Qed.
Lemma rep_orth_psi_l m T : lgauge T -> (m < N)%N ->
  dotst q N (psi (@rep A m T) N) (psi A N) = 0.
Proof.
move=> g mN; rewrite (@dotst_cut2 _ _ _ m.+1) // (LW_rep_gt0 g) ?mul0mx //; last exact: ltnW.
exact: mxtrace0.
Qed.

(* overlaps of two derivative vectors *)
Lemma rep_gram m (T T' : nat -> 'M[C]_(D m, D m.+1)) : (m < N)%N ->
  dotst q N (psi (rep A T) N) (psi (rep A T') N) =
  \sum_(s < q m) \tr (l m *m T' s *m r m.+1 *m (T s)^†).
Proof.
move=> mN; rewrite (dotst_cut2 _ _ (ltnW mN)) RWS // !rep_same.
rewrite (@eq_LW _ A _ A); last 2 first.
- by move=> n s nm; rewrite rep_other // gtn_eqF.
- by move=> n s nm; rewrite rep_other // gtn_eqF.
rewrite (LW_up hl (ltnW mN)) (@eq_RW _ _ A _ A); last 2 first.
- by move=> n s /andP[nm _]; rewrite rep_other // ltn_eqF.
- by move=> n s /andP[nm _]; rewrite rep_other // ltn_eqF.
rewrite (RW_up hr mN) /eps_r_noop mulmx_sumr tr_sum; apply: eq_bigr => s _.
by rewrite !mulmxA.
Qed.

Lemma rep_orth_r m k (T : nat -> 'M[C]_(D m, D m.+1)) (T' : nat -> 'M[C]_(D k, D k.+1)) :
  (m < k)%N -> (k < N)%N -> eps_r_noop (q k) (r k.+1) T' (A k) = 0 ->
  dotst q N (psi (rep A T) N) (psi (rep A T') N) = 0.
Proof.
move=> mk kN g; rewrite (dotst_cut2 _ _ (ltnW kN)) RWS // rep_same.
rewrite (@eq_RW _ _ A _ A); last 2 first.
- by move=> n s /andP[nm _]; rewrite rep_other // ltn_eqF // (ltn_trans mk).
- by move=> n s /andP[nm _]; rewrite rep_other // ltn_eqF.
rewrite (RW_up hr kN) rep_other ?ltn_eqF // g mulmx0; exact: mxtrace0.
Qed.

Lemma rgauge_adj m T : (m < N)%N -> @rgauge m T <-> eps_r_noop (q m) (r m.+1) T (A m) = 0.
Proof.
move=> mN.
have e : (eps_r_noop (q m) (r m.+1) (A m) T)^† = eps_r_noop (q m) (r m.+1) T (A m).
  rewrite /eps_r_noop adj_sum; apply: eq_bigr => s _.
  by rewrite !adjM adjK (r_herm hr mN) mulmxA.
by rewrite /rgauge -e; split=> [->|h]; [rewrite adj0 | rewrite -[LHS]adjK h adj0].
Qed.
Lemma lgauge_adj m T : (m < N)%N -> @lgauge m T <-> eps_l_noop (q m) (l m) (A m) T = 0.
Proof.
move=> mN.
have e : (eps_l_noop (q m) (l m) T (A m))^† = eps_l_noop (q m) (l m) (A m) T.
  rewrite /eps_l_noop adj_sum; apply: eq_bigr => s _.
  by rewrite !adjM adjK (l_herm hl (ltnW mN)) mulmxA.
by rewrite /lgauge -e; split=> [->|h]; [rewrite adj0 | rewrite -[LHS]adjK h adj0].
Qed.
Lemma rep_orth_l m k (T : nat -> 'M[C]_(D m, D m.+1)) (T' : nat -> 'M[C]_(D k, D k.+1)) :
  (k < m)%N -> (m < N)%N -> eps_l_noop (q k) (l k) (A k) T' = 0 ->
  dotst q N (psi (rep A T) N) (psi (rep A T') N) = 0.
Proof.
move=> km mN g; have kN := ltn_trans km mN.
rewrite (@dotst_cut2 _ _ _ k.+1) // LWS rep_same rep_other ?gtn_eqF //.
rewrite (@eq_LW _ A _ A); last 2 first.
- by move=> n s nm; rewrite rep_other // gtn_eqF // (ltn_trans nm).
- by move=> n s nm; rewrite rep_other // gtn_eqF.
rewrite (LW_up hl (ltnW kN)) g mul0mx; exact: mxtrace0.
Qed.
End Rep.

(* the derivative vector is linear in the replaced tensor *)
Lemma psi_rep_cat N (A : tensors C D) m T c1 s c2 : size c1 = m ->
  psi (@rep A m T) N (c1 ++ s :: c2) = amp A m 0 c1 *m T s *m amp A N m.+1 c2.
Proof.
move=> s1; rewrite /psi (@amp_cat _ _ _ _ _ m) ?s1 // amp_cons rep_same mulmxA.
congr (_ *m _ *m _); apply: eq_amp => n t h1 h2; rewrite rep_other //.
  by rewrite gtn_eqF // -s1.
by rewrite ltn_eqF.
Qed.
Lemma psi_rep_linear N (A : tensors C D) m (a : C) T T' c : (m < size c)%N ->
  psi (@rep A m (fun s => a *: T s + T' s)) N c =
  a *: psi (@rep A m T) N c + psi (@rep A m T') N c.
Proof.
move=> /split_at [c1 [s [c2 [-> s1]]]]; rewrite !psi_rep_cat //.
by rewrite mulmxDr mulmxDl -scalemxAr -scalemxAl.
Qed.
Lemma psi_rep_A N (A : tensors C D) m c : psi (@rep A m (A m)) N c = psi A N c.
Proof.
apply: eq_amp => n s _ _; case: (eqVneq m n) => [e|ne]; last by rewrite rep_other.
by case: n / e; rewrite rep_same.
Qed.

(* ---- the gradient of <psi[.]| H |psi[A]> for a Hamiltonian of w-site window terms ------------------ *)
Definition tdot m (T G : nat -> 'M[C]_(D m, D m.+1)) : C := \sum_(s < q m) \tr ((T s)^† *m G s).

Lemma tdotD m (T G G' : nat -> 'M[C]_(D m, D m.+1)) :
  tdot T (fun s => G s + G' s) = tdot T G + tdot T G'.
Proof. by rewrite /tdot -big_split; apply: eq_bigr => s _; rewrite mulmxDr mxtraceD. Qed.
Lemma eq_tdot m (T G G' : nat -> 'M[C]_(D m, D m.+1)) : (forall s, (s < q m)%N -> G s = G' s) -> tdot T G = tdot T G'.
Proof. by move=> h; apply: eq_bigr => s _; rewrite h. Qed.
Lemma tdot0 m (T : nat -> 'M[C]_(D m, D m.+1)) : tdot T (fun _ => 0) = 0.
Proof. by rewrite /tdot big1 // => s _; rewrite mulmx0; exact: mxtrace0. Qed.

Lemma tr_eps n Da Db (x : 'M[C]_Da) (y : 'M[C]_Db) (A1 A2 : nat -> 'M[C]_(Da, Db)) :
  \tr (eps_l_noop n x A1 A2 *m y) = \tr (x *m eps_r_noop n y A2 A1).
Proof.
rewrite /eps_l_noop /eps_r_noop mulmx_suml mulmx_sumr !tr_sum; apply: eq_bigr => s _.
by rewrite -!mulmxA mxtrace_mulC !mulmxA.
Qed.

Section Grad.
Variables (N w : nat) (A : tensors C D) (l r : bonds) (O : nat -> seq nat -> seq nat -> C).
Hypotheses (hl : up_l q A N 1%:M l) (hr : up_r q A N 1%:M r) (w2 : (1 < w)%N).

(* the operator sum_j O_j, term j acting on sites j, ..., j+w-1 *)
Definition Hsum (V : lmodType C) (phi : seq nat -> V) : seq nat -> V :=
  fun c => \sum_(0 <= j < N | (j + w <= N)%N) opwin q j w (O j) phi c.

Lemma dotst_Hsum (phi : seq nat -> 'M[C]_(D 0, D N)) :
  dotst q N phi (Hsum (psi A N)) =
  \sum_(0 <= j < N | (j + w <= N)%N) dotst q N phi (opwin q j w (O j) (psi A N)).
Proof.
rewrite [RHS]exchange_big /= dotstE; apply: eq_bigr => c _; by rewrite adot_sumr.
Qed.

Definition Yg j p : 'M[C]_(D p) :=
  \sum_(c <- cfgs q w j) \sum_(d <- cfgs q w j) O j c d *: ((amp A p j c)^† *m l j *m amp A p j d).

Definition K_rec (K : bonds) :=
  (forall j p, (j + w)%N = p -> (p <= N)%N ->
     K j = eps_r_noop (q j) (K j.+1) (A j) (A j) + winmat A A j w (O j) (r p)) /\
  (forall j, (j < N)%N -> (N < j + w)%N -> K j = 0).
Definition KL_rec (KL : bonds) :=
  (forall j p, (j + w)%N = p.+1 -> (p < N)%N ->
     KL p.+1 = eps_l_noop (q p) (KL p) (A p) (A p) + Yg j p.+1) /\
  (forall p, (0 < p < w)%N -> (p <= N)%N -> KL p = 0).

Lemma K_sum (K Lam : bonds) j0 : K_rec K -> (j0 < N)%N ->
  (forall j, (j0 <= j < N)%N -> Lam j.+1 = eps_l_noop (q j) (Lam j) (A j) (A j)) ->
  \tr (Lam j0 *m K j0) =
  \sum_(j0 <= j < N | (j + w <= N)%N) \tr (Lam j *m winmat A A j w (O j) (r (j + w)%N)).
Proof.
case=> Kr Kz jN; move: (N - j0.+1)%N (subnKC jN) => k; rewrite addSnnS.
elim: k j0 jN => [|k IH] j0 jN e hLam.
  rewrite Kz //; last by lia.
  rewrite mulmx0 big_nat_cond big1 ?mxtrace0 // => j /andP[/andP[h1 h2] h3]; lia.
have j1N : (j0.+1 < N)%N by lia.
have sN : (j0.+1 + k.+1)%N = N by lia.
have rec := IH _ j1N sN (fun j hj => hLam j (match andP hj with conj a b => introT andP (conj (ltnW a) b) end)).
rewrite big_mkcond big_ltn // -big_mkcond -rec hLam ?leqnn // tr_eps.
case: (leqP (j0 + w) N) => [h|h].
  by rewrite (Kr j0 _ erefl h) mulmxDr mxtraceD addrC.
rewrite /= ?add0r (Kz j0) // mulmx0 mxtrace0 Kz ?eps_r_noop0 ?mulmx0 ?mxtrace0 //; lia.
Qed.

Lemma KL_sum (KL Gam : bonds) m : KL_rec KL -> (m < N)%N ->
  (forall p, (p <= m)%N -> Gam p = eps_r_noop (q p) (Gam p.+1) (A p) (A p)) ->
  \tr (KL m.+1 *m Gam m.+1) =
  \sum_(0 <= j < m.+2 - w) \tr (Yg j (j + w)%N *m Gam (j + w)%N).
Proof.
case=> Kr Kz; elim: m => [|m IH] mN hG.
  rewrite (Kz 1%N) ?w2 // mul0mx big_geq; first exact: mxtrace0.
  by rewrite leqn0 subn_eq0.
case: (leqP w m.+2) => [wm|wm]; last first.
  rewrite (Kz m.+2) //= mul0mx big_geq; first exact: mxtrace0.
  by rewrite leqn0 subn_eq0.
rewrite subSn // big_nat_recr //= -IH; last 2 first.
- exact: ltnW.
- by move=> p pm; apply: hG; apply: leq_trans pm _.
have e : (m.+2 - w + w)%N = m.+2 by rewrite subnK.
by rewrite (Kr _ _ e mN) mulmxDl mxtraceD tr_eps -hG // e.
Qed.

(* terms strictly to the right, strictly to the left, and covering the replaced site *)
Lemma term_right m T j : (m < j)%N -> (j + w <= N)%N ->
  dotst q N (psi (@rep A m T) N) (opwin q j w (O j) (psi A N)) =
  \tr (LW (@rep A m T) A j *m winmat A A j w (O j) (r (j + w)%N)).
Proof.
move=> mj jw; rewrite (dotst_win2 _ _ _ erefl jw) (RW_rep_gt hr) ?(leq_trans mj) ?leq_addr //.
congr (\tr (_ *m _)); apply: eq_sum_cfgs => c sz; apply: eq_bigr => d _.
congr (_ *: (_ *m _^†)); apply: eq_amp => n s nj _.
by rewrite rep_other // ltn_eqF // (leq_trans mj).
Qed.
Lemma term_left m T j p : (j + w)%N = p -> (p <= m)%N -> (m < N)%N ->
  dotst q N (psi (@rep A m T) N) (opwin q j w (O j) (psi A N)) =
  \tr (Yg j p *m RW N (@rep A m T) A p).
Proof.
move=> jw pm mN; have pN := leq_trans pm (ltnW mN).
have jp : (j <= p)%N by rewrite -jw leq_addr.
rewrite (dotst_win2 _ _ _ jw pN) (LW_rep_le hl) ?(leq_trans jp) //.
rewrite /winmat /Yg mulmx_sumr mulmx_suml !tr_sum; apply: eq_sum_cfgs => c sz.
rewrite mulmx_sumr mulmx_suml !tr_sum; apply: eq_bigr => d _.
rewrite -scalemxAr -scalemxAl !mxtraceZ; congr (_ * _).
have -> : amp (@rep A m T) p j c = amp A p j c.
  apply: eq_amp => n s nj; rewrite sz jw => np.
  by rewrite rep_other // gtn_eqF // (leq_trans np).
by rewrite !mulmxA mxtrace_mulC !mulmxA.
Qed.
Lemma term_cover m T j p : (j + w)%N = p -> (j <= m)%N -> (m < p)%N -> (p <= N)%N ->
  dotst q N (psi (@rep A m T) N) (opwin q j w (O j) (psi A N)) =
  \tr (l j *m winmat (@rep A m T) A j w (O j) (r p)).
Proof.
move=> jw jm mp pN; have mN := leq_trans mp pN.
by rewrite (dotst_win2 _ _ _ jw pN) (LW_rep_le hl) ?(RW_rep_gt hr) ?(leq_trans jm (ltnW mN)).
Qed.

Lemma gradient m T (K KL : bonds) : K_rec K -> KL_rec KL -> (m < N)%N ->
  dotst q N (psi (@rep A m T) N) (Hsum (psi A N)) =
  tdot T (fun s => (if (0 < m)%N then KL m else 0) *m A m s *m r m.+1)
  + \sum_(m.+1 - w <= j < m.+1 | (j + w <= N)%N) \tr (l j *m winmat (@rep A m T) A j w (O j) (r (j + w)%N))
  + tdot T (fun s => l m *m A m s *m (if (m.+1 + w <= N)%N then K m.+1 else 0)).
Proof.
move=> hK hKL mN; rewrite dotst_Hsum.
have wm : (m.+1 - w <= m)%N by rewrite leq_subLR; case: (w) w2 => // n _; rewrite addSn ltnS leq_addl.
rewrite (@big_cat_nat _ _ _ m.+1) //= (@big_cat_nat _ _ _ (m.+1 - w)) //=; last exact: leqW.
congr (_ + _ + _).
- have -> : \sum_(0 <= j < m.+1 - w | (j + w <= N)%N) dotst q N (psi (@rep A m T) N) (opwin q j w (O j) (psi A N)) =
    \sum_(0 <= j < m.+1 - w) \tr (Yg j (j + w)%N *m RW N (@rep A m T) A (j + w)%N).
    rewrite big_nat_cond [RHS]big_nat_cond; apply: eq_big => [j|j].
      by rewrite andbT; case: (ltnP j (m.+1 - w)) => //= h; lia.
    move=> /andP[h _]; apply: term_left => //; lia.
  case: m T mN {wm} => [|m] T mN.
    rewrite big_geq; last by lia.
    by rewrite /= (eq_tdot _ (G' := fun=> 0)) ?tdot0 // => s _; rewrite !mul0mx.
  rewrite -(@KL_sum KL (RW N (rep A T) A)) //; last 2 first.
  - exact: ltnW.
  - by move=> p pm; apply: RW_rep_step => //; exact: ltnW.
  rewrite (RW_rep_at hr) // mulmx_sumr tr_sum; apply: eq_bigr => s _.
  by rewrite [RHS]mxtrace_mulC !mulmxA.
- rewrite big_nat_cond [RHS]big_nat_cond; apply: eq_bigr => j /andP[/andP[h1 h2] h3].
  by apply: term_cover => //; move: h1; rewrite leq_subLR addnC.
- transitivity (\sum_(m.+1 <= j < N | (j + w <= N)%N)
     \tr (LW (@rep A m T) A j *m winmat A A j w (O j) (r (j + w)%N))).
    rewrite big_nat_cond [RHS]big_nat_cond; apply: eq_bigr => j /andP[/andP[h1 h2] h3].
    exact: term_right.
  case: (leqP (m.+1 + w) N) => h; last first.
    rewrite big_nat_cond big1 => [|j /andP[/andP[h1 h2] h3]].
      by rewrite (eq_tdot _ (G' := fun=> 0)) ?tdot0 // => s _; rewrite mulmx0.
    by move: h3; rewrite leqNgt (leq_trans h) // leq_add2r.
  have m1 : (m.+1 < N)%N by lia.
  rewrite -(K_sum hK m1); last by move=> j /andP[h1 _]; apply: LW_rep_step.
  rewrite (LW_rep_S hl _ (ltnW mN)) mulmx_suml tr_sum; apply: eq_bigr => s _.
  by rewrite !mulmxA.
Qed.

(* the same for psi itself: K and KL carry the energy *)
Lemma K_energy (K : bonds) m : K_rec K -> (m < N)%N ->
  adot (l m) (K m) = \sum_(m <= j < N | (j + w <= N)%N) dotst q N (psi A N) (opwin q j w (O j) (psi A N)).
Proof.
move=> hK mN; rewrite adotE (l_herm hl (ltnW mN)) (K_sum hK mN); last first.
  by move=> j /andP[_ jN]; case: hl => _; apply.
rewrite big_nat_cond [RHS]big_nat_cond; apply: eq_bigr => j /andP[/andP[h1 h2] h3].
rewrite (dotst_win2 _ _ _ erefl h3) (LW_up hl (ltnW h2)) (RW_up hr h3) //.
Qed.
Lemma KL_energy (KL : bonds) m : KL_rec KL -> (0 < m)%N -> (m <= N)%N ->
  \tr (KL m *m r m) = \sum_(0 <= j < m.+1 - w) dotst q N (psi A N) (opwin q j w (O j) (psi A N)).
Proof.
case: m => // m hK _ mN; rewrite (KL_sum hK mN); last first.
  by move=> p pm; case: hr => _; apply; apply: leq_ltn_trans mN.
rewrite big_nat_cond [RHS]big_nat_cond; apply: eq_bigr => j /andP[/andP[_ h2] _].
have h3 : (j + w <= N)%N by move: h2; rewrite ltn_subRL addnC ltnS => /leq_trans; apply.
rewrite (dotst_win2 _ _ _ erefl h3) (LW_up hl (leq_trans (leq_addr _ _) h3)) (RW_up hr h3) //.
rewrite /winmat /Yg mulmx_sumr mulmx_suml !tr_sum; apply: eq_sum_cfgs => c sz.
rewrite mulmx_sumr mulmx_suml !tr_sum; apply: eq_bigr => d _.
rewrite -scalemxAr -scalemxAl !mxtraceZ; congr (_ * _).
by rewrite !mulmxA [RHS]mxtrace_mulC !mulmxA.
Qed.
End Grad.

End Two.
