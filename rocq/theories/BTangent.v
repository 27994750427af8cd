(* BTangent.v -- matrix elements <psi[B]| O |psi[A]> of a piece of chain between boundary matrices lb, rb, and the
   derivative vectors psi[A with site m replaced].  Pure mathematics about the state vector of Spec.v (the case
   lb = rb = 1 is Tangent.v); used for windows of the uniform chain (UTdvp.v). *)
From mathcomp Require Import all_ssreflect all_algebra.
From mathcomp Require Import zify.
From Verif Require Import Base Spec Eps Chain ChainProofs Tangent.
Set Implicit Arguments.
Unset Strict Implicit.
Unset Printing Implicit Defensive.
Import GRing.Theory Num.Theory.
Local Open Scope ring_scope.

Section Bnd.
Variables (C : numClosedFieldType) (D q : nat -> nat).
Local Notation bonds := (forall n, 'M[C]_(D n)).
Definition LWb (lb : 'M[C]_(D 0)) (B A : tensors C D) (j : nat) : 'M[C]_(D j) :=
  \sum_(c <- cfgs q j 0) (amp B j 0 c)^† *m lb *m amp A j 0 c.
Definition RWb (N : nat) (rb : 'M[C]_(D N)) (B A : tensors C D) (p : nat) : 'M[C]_(D p) :=
  \sum_(c <- cfgs q (N - p) p) amp A N p c *m rb *m (amp B N p c)^†.

Lemma LWb0 lb B A : LWb lb B A 0 = lb.
Proof. by rewrite /LWb sum_cfgs0 /= pid_mx_1 adj1 mulmx1 mul1mx. Qed.
Lemma LWbS lb B A j : LWb lb B A j.+1 = eps_l_noop (q j) (LWb lb B A j) (B j) (A j).
Proof.
rewrite /LWb sum_cfgs_rcons /eps_l_noop addn0 exchange_big /=; apply: eq_bigr => s _.
rewrite mulmx_suml mulmx_sumr; apply: eq_big_seq => c /size_cfgs sz.
by rewrite !amp_rcons ?add0n // adjM !mulmxA.
Qed.
Lemma RWbN N rb B A : @RWb N rb B A N = rb.
Proof. by rewrite /RWb subnn sum_cfgs0 /= pid_mx_1 adj1 mulmx1 mul1mx. Qed.
Lemma RWbS N rb B A p : (p < N)%N -> @RWb N rb B A p = eps_r_noop (q p) (@RWb N rb B A p.+1) (A p) (B p).
Proof.
move=> pN; rewrite /RWb -[(N - p)%N]subSS subSn // sum_cfgsS /eps_r_noop; apply: eq_bigr => s _.
by rewrite mulmx_sumr mulmx_suml; apply: eq_bigr => c _; rewrite !amp_cons adjM !mulmxA.
Qed.

Lemma bdotst_win2 N lb rb B A j w p O : (j + w)%N = p -> (p <= N)%N ->
  bdotst q N lb rb (psi B N) (opwin q j w O (psi A N)) =
  \tr (LWb lb^† B A j *m winmat q B A j w O (@RWb N rb B A p)).
Proof.
move=> jw pN; rewrite /bdotst.
have eN : N = (j + (w + (N - p)))%N by rewrite addnA jw subnKC.
rewrite [X in cfgs q X 0]eN sum_cfgs_cat /winmat /LWb /RWb.
rewrite mulmx_suml tr_sum; apply: eq_big_seq => c1 /size_cfgs s1.
rewrite addn0 sum_cfgs_cat /= mulmx_sumr tr_sum; apply: eq_big_seq => c2 /size_cfgs s2.
rewrite [(w + j)%N]addnC jw.
transitivity (\sum_(c3 <- cfgs q (N - p) p) \sum_(d <- cfgs q w j) O c2 d *
   \tr ((amp B p j c2)^† *m ((amp B j 0 c1)^† *m lb^† *m amp A j 0 c1) *m amp A p j d *m
     (amp A N p c3 *m rb *m (amp B N p c3)^†))).
  apply: eq_big_seq => c3 /size_cfgs s3.
  rewrite opwin_cat // mulmx_sumr mulmx_suml tr_sum; apply: eq_big_seq => d /size_cfgs sd.
  rewrite -scalemxAr -scalemxAl mxtraceZ; congr (_ * _).
  rewrite /psi (@amp_cat _ _ B _ _ j) ?s1 // (@amp_cat _ _ B _ _ p) ?s2 //.
  rewrite (@amp_cat _ _ A _ _ j) ?s1 // (@amp_cat _ _ A _ _ p) ?sd //.
  by rewrite !adjM -!mulmxA [in LHS]mxtrace_mulC -!mulmxA.
rewrite exchange_big /= mulmx_sumr tr_sum; apply: eq_bigr => d _.
rewrite -scalemxAr mxtraceZ -mulr_sumr; congr (_ * _).
rewrite -tr_sum -mulmx_sumr.
by rewrite -!mulmxA mxtrace_mulC -!mulmxA.
Qed.

Lemma bdotst_cut2 N lb rb B A j : (j <= N)%N ->
  bdotst q N lb rb (psi B N) (psi A N) = \tr (LWb lb^† B A j *m @RWb N rb B A j).
Proof.
move=> jN; rewrite /bdotst -{1}(subnKC jN) sum_cfgs_cat /LWb /RWb mulmx_suml tr_sum.
apply: eq_big_seq => c1 /size_cfgs s1; rewrite addn0 mulmx_sumr tr_sum.
apply: eq_big_seq => c3 /size_cfgs s3.
rewrite /psi !(@amp_cat _ _ _ _ _ j) ?s1 // adjM -!mulmxA.
by rewrite mxtrace_mulC !mulmxA.
Qed.
Lemma bdotst_LWb N lb rb B A : bdotst q N lb rb (psi B N) (psi A N) = \tr (LWb lb^† B A N *m rb).
Proof. by rewrite (bdotst_cut2 _ _ _ _ (leqnn N)) RWbN. Qed.

Lemma LWb_up N lb A (l : bonds) j : up_l q A N lb l -> (j <= N)%N -> LWb lb A A j = l j.
Proof.
case=> h0 h; elim: j => [|j IH] jN; first by rewrite LWb0 h0.
by rewrite LWbS (IH (ltnW jN)); exact/esym/h.
Qed.
Lemma RWb_up N rb A (r : bonds) p : up_r q A N rb r -> (p <= N)%N -> @RWb N rb A A p = r p.
Proof.
case=> h0 h pN; move: (N - p)%N (subnKC pN) => k; elim: k p {pN} => [|k IH] p e.
  by move: e; rewrite addn0 => ->; rewrite RWbN h0.
have pN : (p < N)%N by lia.
rewrite (RWbS rb A A pN) (IH p.+1) ?addSnnS //; exact/esym/h.
Qed.

Lemma eq_LWb lb (B B' A A' : tensors C D) j :
  (forall m s, (m < j)%N -> B m s = B' m s) -> (forall m s, (m < j)%N -> A m s = A' m s) ->
  LWb lb B A j = LWb lb B' A' j.
Proof.
move=> h h'; apply: eq_sum_cfgs => c sz.
rewrite (@eq_amp _ _ B B') ?(@eq_amp _ _ A A') // => m s _; rewrite sz add0n => mj.
- exact: h'.
- exact: h.
Qed.
Lemma eq_RWb N rb (B B' A A' : tensors C D) p :
  (forall m s, (p <= m < N)%N -> B m s = B' m s) -> (forall m s, (p <= m < N)%N -> A m s = A' m s) ->
  @RWb N rb B A p = @RWb N rb B' A' p.
Proof.
move=> h h'; apply: eq_sum_cfgs => c sz.
have e m : (p <= m)%N -> (m < p + size c)%N -> (p <= m < N)%N.
  move=> pm; rewrite pm sz; case: (leqP p N) => [pN|Np]; first by rewrite subnKC.
  by rewrite (eqP (ltnW Np : (N - p)%N == 0%N)) addn0 ltnNge pm.
rewrite (@eq_amp _ _ B B') ?(@eq_amp _ _ A A') // => m s pm mp.
- exact: h' (e _ pm mp).
- exact: h (e _ pm mp).
Qed.

Section Rep.
Variables (N : nat) (lb : 'M[C]_(D 0)) (rb : 'M[C]_(D N)) (A : tensors C D) (l r : bonds).
Hypotheses (hl : up_l q A N lb l) (hr : up_r q A N rb r).
Local Notation LW := (LWb lb). Local Notation RW := (RWb rb).
Implicit Types m k j p : nat.

Lemma LWb_rep_le m T j : (j <= m)%N -> (j <= N)%N -> LW (@rep C D A m T) A j = l j.
Proof.
move=> jm jN; rewrite -(LWb_up hl jN); apply: eq_LWb => // n s nj.
by rewrite rep_other // gtn_eqF // (leq_trans nj).
Qed.
Lemma RWb_rep_gt m T p : (m < p)%N -> (p <= N)%N -> RW (@rep C D A m T) A p = r p.
Proof.
move=> mp pN; rewrite -(RWb_up hr pN); apply: eq_RWb => // n s /andP[pn nN].
by rewrite rep_other // ltn_eqF // (leq_trans mp).
Qed.
Lemma LWb_rep_S m T : (m <= N)%N -> LW (@rep C D A m T) A m.+1 = eps_l_noop (q m) (l m) T (A m).
Proof. by move=> mN; rewrite LWbS rep_same LWb_rep_le. Qed.
Lemma LWb_rep_step m T j : (m < j)%N ->
  LW (@rep C D A m T) A j.+1 = eps_l_noop (q j) (LW (@rep C D A m T) A j) (A j) (A j).
Proof. by move=> mj; rewrite LWbS rep_other // ltn_eqF. Qed.
Lemma RWb_rep_at m T : (m < N)%N -> RW (@rep C D A m T) A m = eps_r_noop (q m) (r m.+1) (A m) T.
Proof. by move=> mN; rewrite RWbS // rep_same RWb_rep_gt. Qed.
Lemma RWb_rep_step m T p : (p < m)%N -> (m <= N)%N ->
  RW (@rep C D A m T) A p = eps_r_noop (q p) (RW (@rep C D A m T) A p.+1) (A p) (A p).
Proof. by move=> mp mN; rewrite RWbS ?rep_other ?gtn_eqF // (leq_trans mp). Qed.
Lemma RWb_rep_le0 m T p : rgauge q A r T -> (p <= m)%N -> (m < N)%N -> RW (@rep C D A m T) A p = 0.
Proof.
move=> g pm mN; move: (subnKC pm); move: (m - p)%N => k; elim: k p {pm} => [|k IH] p pk.
  by rewrite addn0 in pk; rewrite pk RWb_rep_at.
have pm : (p < m)%N by rewrite -pk addnS ltnS leq_addr.
by rewrite RWb_rep_step ?(ltnW mN) // IH ?eps_r_noop0 // addSn -addnS.
Qed.

Hypothesis hlb : herm lb.
Lemma lbE : lb^† = lb. Proof. exact: hlb. Qed.
(* gauge-fixed tangent vectors are orthogonal to the state; overlaps of two of them *)
Lemma brep_orth_psi m T : rgauge q A r T -> (m < N)%N -> bdotst q N lb rb (psi (@rep C D A m T) N) (psi A N) = 0.
Proof. by move=> g mN; rewrite (bdotst_cut2 _ _ _ _ (ltnW mN)) (RWb_rep_le0 g) // mulmx0; exact: mxtrace0. Qed.
Lemma brep_gram m (T T' : nat -> 'M[C]_(D m, D m.+1)) : (m < N)%N ->
  bdotst q N lb rb (psi (rep A T) N) (psi (rep A T') N) =
  \sum_(s < q m) \tr (l m *m T' s *m r m.+1 *m (T s)^†).
Proof.
move=> mN; rewrite (bdotst_cut2 _ _ _ _ (ltnW mN)) lbE RWbS // !rep_same.
rewrite (@eq_LWb _ _ A _ A); last 2 first.
- by move=> n s nm; rewrite rep_other // gtn_eqF.
- by move=> n s nm; rewrite rep_other // gtn_eqF.
rewrite (LWb_up hl (ltnW mN)) (@eq_RWb _ _ _ A _ A); last 2 first.
- by move=> n s /andP[nm _]; rewrite rep_other // ltn_eqF.
- by move=> n s /andP[nm _]; rewrite rep_other // ltn_eqF.
rewrite (RWb_up hr mN) /eps_r_noop mulmx_sumr tr_sum; apply: eq_bigr => s _.
by rewrite !mulmxA.
Qed.
Lemma brep_orth m k (T : nat -> 'M[C]_(D m, D m.+1)) (T' : nat -> 'M[C]_(D k, D k.+1)) :
  (m < k)%N -> (k < N)%N -> eps_r_noop (q k) (r k.+1) T' (A k) = 0 ->
  bdotst q N lb rb (psi (rep A T) N) (psi (rep A T') N) = 0.
Proof.
move=> mk kN g; rewrite (bdotst_cut2 _ _ _ _ (ltnW kN)) RWbS // rep_same.
rewrite (@eq_RWb _ _ _ A _ A); last 2 first.
- by move=> n s /andP[nm _]; rewrite rep_other // ltn_eqF // (ltn_trans mk).
- by move=> n s /andP[nm _]; rewrite rep_other // ltn_eqF.
rewrite (RWb_up hr kN) rep_other ?ltn_eqF // g mulmx0; exact: mxtrace0.
Qed.
Lemma brep_orth' m k (T : nat -> 'M[C]_(D m, D m.+1)) (T' : nat -> 'M[C]_(D k, D k.+1)) :
  (k < m)%N -> (m < N)%N -> rgauge q A r T ->
  bdotst q N lb rb (psi (rep A T) N) (psi (rep A T') N) = 0.
Proof.
move=> mk kN g; rewrite (bdotst_cut2 _ _ _ _ (ltnW kN)) RWbS // rep_same.
rewrite (@eq_RWb _ _ _ A _ A); last 2 first.
- by move=> n s /andP[nm _]; rewrite rep_other // ltn_eqF.
- by move=> n s /andP[nm _]; rewrite rep_other // ltn_eqF // (ltn_trans mk).
rewrite (RWb_up hr kN) [rep A T' m]rep_other ?ltn_eqF // g mulmx0; exact: mxtrace0.
Qed.

(* ---- terms of a Hamiltonian of w-site window terms ----------------------------------------------------- *)
Variables (w : nat) (O : nat -> seq nat -> seq nat -> C).
Lemma bterm_right m T j p : (m < j)%N -> (j + w = p)%N -> (p <= N)%N ->
  bdotst q N lb rb (psi (@rep C D A m T) N) (opwin q j w (O j) (psi A N)) =
  \tr (LW (@rep C D A m T) A j *m winmat q A A j w (O j) (r p)).
Proof.
move=> mj jw pN; rewrite (bdotst_win2 _ _ _ _ _ jw pN) lbE RWb_rep_gt //; last by lia.
congr (\tr (_ *m _)); apply: eq_sum_cfgs => c sz; apply: eq_bigr => d _.
congr (_ *: (_ *m _^†)); apply: eq_amp => n s nj _.
by rewrite rep_other // ltn_eqF // (leq_trans mj).
Qed.
Lemma bterm_left m T j p : rgauge q A r T -> (j + w)%N = p -> (p <= m)%N -> (m < N)%N ->
  bdotst q N lb rb (psi (@rep C D A m T) N) (opwin q j w (O j) (psi A N)) = 0.
Proof.
move=> g jw pm mN; have pN := leq_trans pm (ltnW mN).
rewrite (bdotst_win2 _ _ _ _ _ jw pN) (RWb_rep_le0 g) //.
rewrite (_ : winmat _ _ _ _ _ _ _ = 0) ?mulmx0 ?mxtrace0 //.
by rewrite /winmat big1 // => c _; rewrite big1 // => d _; rewrite mulmx0 mul0mx scaler0.
Qed.
Lemma bterm_cover m T j p : (j + w)%N = p -> (j <= m)%N -> (m < p)%N -> (p <= N)%N ->
  bdotst q N lb rb (psi (@rep C D A m T) N) (opwin q j w (O j) (psi A N)) =
  \tr (l j *m winmat q (@rep C D A m T) A j w (O j) (r p)).
Proof.
move=> jw jm mp pN; have mN := leq_trans mp pN.
by rewrite (bdotst_win2 _ _ _ _ _ jw pN) lbE LWb_rep_le ?RWb_rep_gt ?(leq_trans jm (ltnW mN)).
Qed.
Lemma bdotst_Hsum (phi : seq nat -> 'M[C]_(D 0, D N)) :
  bdotst q N lb rb phi (Hsum q N w O (psi A N)) =
  \sum_(0 <= j < N | (j + w <= N)%N) bdotst q N lb rb phi (opwin q j w (O j) (psi A N)).
Proof.
rewrite [RHS]exchange_big /= /bdotst; apply: eq_bigr => c _.
by rewrite /Hsum mulmx_sumr mulmx_suml tr_sum.
Qed.
End Rep.

(* K obeys the energy-subtracted recursion from bond a on *)
Definition Ksub (A : tensors C D) (r K : bonds) (w : nat) (O : nat -> seq nat -> seq nat -> C) (e : nat -> C) N a :=
  forall j p, (a <= j)%N -> (j + w)%N = p -> (p <= N)%N ->
    K j = eps_r_noop (q j) (K j.+1) (A j) (A j) + winmat q A A j w (O j) (r p) - e j *: r j.
Lemma Ksub_sum A (r K Lam : bonds) w O e N a b : Ksub A r K w O e N a -> (a <= b)%N -> (b + w <= N.+1)%N ->
  (forall j, (a <= j < b)%N -> Lam j.+1 = eps_l_noop (q j) (Lam j) (A j) (A j)) ->
  \tr (Lam a *m K a) = \sum_(a <= j < b) (\tr (Lam j *m winmat q A A j w (O j) (r (j + w)%N)) - e j * \tr (Lam j *m r j))
    + \tr (Lam b *m K b).
Proof.
move=> hK ab bN hL; move: (b - a)%N (subnKC ab) => n; elim: n b ab bN hL => [|n IH] b ab bN hL eb.
  have -> : b = a by lia.
  by rewrite big_geq // add0r.
case: b ab bN hL eb => [|b] ab bN hL eb; first by lia.
rewrite big_nat_recr /=; last by lia.
rewrite (IH b); first last.
- by lia.
- by move=> j hj; apply: hL; lia.
- by lia.
- by lia.
rewrite -[RHS]addrA; congr (_ + _); rewrite hL; last by lia.
rewrite tr_eps (hK b _ _ erefl); [|by lia|by lia].
by rewrite mulmxBr mulmxDr -scalemxAr !linearB !linearD /= mxtraceZ -addrA addrC.
Qed.
End Bnd.
