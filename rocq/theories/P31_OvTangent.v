(* P31_OvTangent.v -- C73: inner product of a sandwich state with a tangent vector of given momentum. *)
From mathcomp Require Import all_ssreflect all_algebra.
From mathcomp Require Import zify.
From mathcomp.real_closed Require Import mxtens.
From Verif Require Import Base Spec Eps Chain ChainProofs Canon Multi Uniform Block OvTangent.
Set Implicit Arguments.
Unset Strict Implicit.
Unset Printing Implicit Defensive.
Import Order.TTheory GRing.Theory Num.Theory.
Local Open Scope ring_scope.

Section Sums.
Variables (C : numClosedFieldType) (q : nat).
Local Notation qq := (fun _ : nat => q).
(* the product of one-site matrices along a configuration *)
Definition prods d (A : nat -> 'M[C]_d) (c : seq nat) : 'M[C]_d := foldr (fun s P => A s *m P) 1%:M c.
Lemma prods_cat d (A : nat -> 'M[C]_d) c1 c2 : prods A (c1 ++ c2) = prods A c1 *m prods A c2.
Proof. by elim: c1 => [|s c1 IH] /=; rewrite ?mul1mx // IH mulmxA. Qed.
Lemma amp_prods d (A : nat -> 'M[C]_d) e n c : @amp C (fun _ => d) (fun _ => A) e n c = prods A c.
Proof. by elim: c n => [|s c IH] n /=; rewrite ?pid_mx_1 // IH. Qed.
Lemma cfgs_shift k n m : cfgs qq k n = cfgs qq k m.
Proof. by elim: k n m => [|k IH] n m //=; rewrite (IH n.+1 m.+1). Qed.
Lemma sum_split (V : zmodType) k n m j (F : seq nat -> V) : k = (n + m.+1)%N ->
  \sum_(c <- cfgs qq k j) F c = \sum_(c1 <- cfgs qq n 0) \sum_(s < q) \sum_(c2 <- cfgs qq m 0) F (c1 ++ val s :: c2).
Proof.
move=> ->; rewrite (cfgs_shift _ j 0) sum_cfgs_cat; apply: eq_bigr => c1 _; rewrite sum_cfgsS; apply: eq_bigr => s _.
by rewrite (cfgs_shift _ _ 0).
Qed.
Lemma sum_prods d1 d2 (A1 : nat -> 'M[C]_d1) (A2 : nat -> 'M[C]_d2) X K :
  \sum_(c <- cfgs qq K 0) (prods A1 c)^† *m X *m prods A2 c = iter K (fun y => eps_l_noop q y A1 A2) X.
Proof.
elim: K X => [|K IH] X; first by rewrite sum_cfgs0 /= adj1 mul1mx mulmx1.
rewrite iterSr -IH sum_cfgsS (cfgs_shift _ _ 0) exchange_big; apply: eq_bigr => c _ /=.
rewrite /eps_l_noop mulmx_sumr mulmx_suml; apply: eq_bigr => s _.
by rewrite adjM !mulmxA.
Qed.
End Sums.

Section Tangent.
Variables (C : numClosedFieldType) (D : nat -> nat) (q N : nat) (w : C).
Variables (AL : nat -> 'M[C]_(D 0)) (lL : 'M[C]_(D 0)) (AR : nat -> 'M[C]_(D N)) (rR : 'M[C]_(D N)).
Variables (A : tensors C D) (B : nat -> 'M[C]_(D 0, D N)).
Local Notation qq := (fun _ : nat => q).
(* K sites of the left bulk and the window: the state, and the term of the tangent vector with B at site i *)
Definition sw_state K (c : seq nat) : 'M[C]_(D 0, D N) := prods AL (take K c) *m psi A N (drop K c).
Definition tan_term i (c : seq nat) : 'M[C]_(D 0, D N) := prods AL (take i c) *m B (nth 0%N c i) *m prods AR (drop i.+1 c).
Definition tan_ov K i : C := bdotst qq (K + N) lL rR (tan_term i) (sw_state K).
Local Notation El := (fun y : 'M[C]_(D 0, D N) => eps_l_noop q y AL AR).
Local Notation rs := (ot_rs q AR rR A).
Local Notation l_ := (ot_l q AL lL A).

Lemma ot_lE n : l_ n = \sum_(c <- cfgs qq n 0) (amp A n 0 c)^† *m lL *m prods AL c.
Proof.
elim: n => [|n IH]; first by rewrite sum_cfgs0 /= pid_mx_1 adj1 mul1mx mulmx1.
rewrite [LHS]/= IH sum_cfgs_rcons /eps_l_noop exchange_big /=; apply: eq_bigr => s _.
rewrite mulmx_suml mulmx_sumr; apply: eq_big_seq => c /size_cfgs sc.
by rewrite amp_rcons ?sc // adjM -cats1 prods_cat /= mulmx1 !mulmxA.
Qed.
Lemma ot_rsE n : (n <= N)%N -> rs n = \sum_(c <- cfgs qq (N - n) 0) amp A N n c *m rR *m (prods AR c)^†.
Proof.
move=> nN; rewrite /ot_rs (rrE _ _ _ _ (subnKC nN)) recast_id (cfgs_shift _ _ n 0); apply: eq_bigr => c _.
by rewrite amp_prods.
Qed.
Hypothesis hl : eps_l_noop q lL AL AL = lL.
Lemma left_sum K : \sum_(c <- cfgs qq K 0) (prods AL c)^† *m lL^† *m prods AL c = lL^†.
Proof.
have e : iter K (fun y => eps_l_noop q y AL AL) lL = lL by elim: K => //= K ->.
rewrite -[in RHS]e -sum_prods adj_sum; apply: eq_bigr => c _.
by rewrite !adjM adjK mulmxA.
Qed.
Lemma window_term K n : (n < N)%N -> tan_ov K (K + n) = adot (l_ n) (eps_r_noop q (rs n.+1) (A n) B).
Proof.
move=> nN; have eN : N = (n + (N - n.+1).+1)%N by lia.
rewrite ot_lE ot_rsE // /eps_r_noop adot_suml /tan_ov /bdotst sum_cfgs_cat.
under eq_bigr do rewrite (sum_split _ _ _ eN).
rewrite exchange_big; apply: eq_big_seq => c1 /size_cfgs s1; rewrite adot_sumr exchange_big; apply: eq_bigr => s _.
rewrite mulmx_sumr mulmx_suml adot_sumr exchange_big; apply: eq_bigr => c2 _ /=.
set P1 := prods AL c1; set M1 := amp A n 0 c1; set M2 := amp A N n.+1 c2; set R2 := prods AR c2.
transitivity (\sum_(c0 <- cfgs qq K 0) \tr (R2^† *m (B s)^† *m P1^† *m ((prods AL c0)^† *m lL^† *m prods AL c0) *m (M1 *m A n s *m M2 *m rR))).
  apply: eq_big_seq => c0 /size_cfgs s0.
  have -> : tan_term (K + n) (c0 ++ c1 ++ val s :: c2) = prods AL c0 *m P1 *m B s *m R2.
    have sz : size (c0 ++ c1) = (K + n)%N by rewrite size_cat s0 s1.
    rewrite /tan_term catA take_size_cat // prods_cat nth_cat sz ltnn subnn /= -addn1 -sz.
    by rewrite -cat_rcons drop_size_cat ?size_rcons ?addn1.
  have -> : sw_state K (c0 ++ c1 ++ val s :: c2) = prods AL c0 *m (M1 *m (A n s *m M2)).
    by rewrite /sw_state take_size_cat // drop_size_cat // /psi (@amp_cat C D A N 0 n) ?add0n.
  by rewrite !adjM !mulmxA.
rewrite -raddf_sum /= -mulmx_suml -mulmx_sumr left_sum adotE !adjM adjK.
rewrite -!mulmxA mxtrace_mulC -!mulmxA mxtrace_mulC -!mulmxA.
by rewrite mxtrace_mulC -!mulmxA mxtrace_mulC -!mulmxA mxtrace_mulC -!mulmxA.
Qed.
Lemma bulk_term K m : (m < K)%N -> tan_ov K (K - m.+1) = adot (iter m El (eps_l_noop q lL AL B)) (rs 0).
Proof.
move=> mK; set i := (K - m.+1)%N; have eK : K = (i + m.+1)%N by rewrite /i; lia.
rewrite -sum_prods ot_rsE // subn0 /tan_ov /bdotst sum_cfgs_cat (sum_split _ _ _ eK).
transitivity (\sum_(s < q) \sum_(c2 <- cfgs qq m 0) \sum_(c3 <- cfgs qq N 0)
    \tr ((prods AR c3)^† *m (prods AR c2)^† *m (B s)^† *m lL^† *m (AL s *m prods AL c2 *m psi A N c3 *m rR))).
  rewrite exchange_big; apply: eq_bigr => s _; rewrite exchange_big; apply: eq_big_seq => c2 /size_cfgs s2.
  rewrite (cfgs_shift q N _ 0) exchange_big; apply: eq_bigr => c3 _ /=.
  rewrite -[in RHS](left_sum i) mulmx_sumr mulmx_suml raddf_sum; apply: eq_big_seq => c1 /size_cfgs s1 /=.
  rewrite /tan_term /sw_state -catA.
  have -> : take K (c1 ++ (val s :: c2) ++ c3) = c1 ++ val s :: c2.
    by rewrite catA take_size_cat // size_cat /= s1 s2 -eK.
  have -> : drop K (c1 ++ (val s :: c2) ++ c3) = c3.
    by rewrite catA drop_size_cat // size_cat /= s1 s2 -eK.
  rewrite take_size_cat // nth_cat s1 ltnn subnn /=.
  have -> : drop i.+1 (c1 ++ val s :: c2 ++ c3) = c2 ++ c3.
    by rewrite -cat_rcons drop_size_cat // size_rcons s1.
  by rewrite !prods_cat /= !adjM !mulmxA.
rewrite adot_suml exchange_big; apply: eq_bigr => c2 _ /=.
rewrite /eps_l_noop mulmx_sumr mulmx_suml adot_suml; apply: eq_bigr => s _.
rewrite adot_sumr; apply: eq_bigr => c3 _.
rewrite adotE !adjM !adjK /psi.
by rewrite -!mulmxA mxtrace_mulC -!mulmxA mxtrace_mulC -!mulmxA mxtrace_mulC -!mulmxA mxtrace_mulC -!mulmxA mxtrace_mulC -!mulmxA mxtrace_mulC -!mulmxA.
Qed.
(* the solution of the linear system, expanded K times *)
Lemma neumann v K : pinv_left_ok q w AL lL AR rR false (eps_l_noop q lL AL B) v ->
  v = \sum_(m < K) (w^*) ^+ m *: iter m El (eps_l_noop q lL AL B) + (w^*) ^+ K *: iter K El v.
Proof.
move/pinv_leftE; rewrite subr0 => e; set x := eps_l_noop q lL AL B in e *.
have ev : v = x + w^* *: El v by rewrite -e subrK.
have iD m y z : iter m El (y + z) = iter m El y + iter m El z.
  by elim: m => //= m ->; rewrite eps_l_noopD.
have iZ m a y : iter m El (a *: y) = a *: iter m El y.
  by elim: m => //= m ->; rewrite eps_l_noopZ.
elim: K => [|K IH]; first by rewrite big_ord0 add0r scale1r.
rewrite {1}IH big_ord_recr /= -addrA; congr (_ + _).
by rewrite {1}ev iD iZ scalerDr scalerA -exprSr -iterSr.
Qed.
(* what the function computes, for every number K of bulk sites: site -m of the left bulk (m = 0, 1, ...) enters with
   the factor w^(m-1), site j of the window with w^j; the last term is the part from the sites further left *)
Theorem C73_value pinv K : pinv_left_ok q w AL lL AR rR false (eps_l_noop q lL AL B) (pinv (eps_l_noop q lL AL B)) ->
  overlap_tangent q w AL lL AR rR A B pinv =
    \sum_(m < K) w^* * w ^+ m * tan_ov K (K - m.+1) + \sum_(n < N) w ^+ n.+1 * tan_ov K (K + n)
    + w^* * w ^+ K * adot (iter K El (pinv (eps_l_noop q lL AL B))) (rs 0).
Proof.
move=> hv; rewrite /overlap_tangent /ot_bulk; set v := pinv _ in hv *.
rewrite {1}(neumann K hv) adotDl adot_suml mulrDl addrAC; congr (_ + _ + _).
- rewrite mulr_suml; apply: eq_bigr => m _; rewrite adotZl rmorphX /= conjCK bulk_term //.
  by rewrite mulrC mulrA.
- by rewrite adotZl rmorphX /= conjCK mulrC mulrA.
- rewrite /ot_window big_map -[N in iota _ N]subn0 -/(index_iota 0 N) big_mkord; apply: eq_bigr => n _.
  by rewrite window_term.
Qed.
(* momentum 0: the sum over all positions of B *)
Theorem C73_momentum0 pinv K : w = 1 -> pinv_left_ok q w AL lL AR rR false (eps_l_noop q lL AL B) (pinv (eps_l_noop q lL AL B)) ->
  overlap_tangent q w AL lL AR rR A B pinv =
    \sum_(i < K + N) tan_ov K i + adot (iter K El (pinv (eps_l_noop q lL AL B))) (rs 0).
Proof.
move=> w1 hv; rewrite (C73_value K hv) w1 conjC1 expr1n !mul1r; congr (_ + _).
rewrite big_split_ord /= (reindex_inj rev_ord_inj) /=; congr (_ + _); apply: eq_bigr => i _.
- rewrite expr1n !mul1r; congr (tan_ov _ _).
  by have := ltn_ord i; lia.
- by rewrite expr1n mul1r.
Qed.
End Tangent.

Section Trivial.
Variables (C : numClosedFieldType) (d q N : nat) (w : C).
Variables (AL AR : nat -> 'M[C]_d) (lL rR : 'M[C]_d) (A : tensors C (fun _ => d)) (B : nat -> 'M[C]_d).
(* B right of the window (where the tensors are those of the right bulk): no contribution *)
Theorem C73_right K n0 n : eps_l_noop q lL AL AL = lL -> eps_r_noop q rR AR AR = rR -> eps_r_noop q rR AR B = 0 ->
  (forall m s, (n0 <= m < N)%N -> (s < q)%N -> A m s = AR s) -> (n0 <= n < N)%N ->
  @tan_ov C (fun _ => d) q N AL lL AR rR A B K (K + n) = 0.
Proof.
move=> hl hr gf hA /andP[n0n nN]; rewrite window_term //.
have e : forall k m, (n0 <= m)%N -> (m + k)%N = N ->
    rr (D := fun _ => d) (D' := fun _ => d) (fun _ => q) A (fun _ => AR) (fun _ => recast d d rR) k m = rR.
  elim=> [|k IH] m hm em /=; first by rewrite recast_id.
  rewrite IH //; try lia.
  rewrite -[RHS]hr; apply: eq_bigr => s _; rewrite hA //; lia.
rewrite /ot_rs e; [|lia|lia].
have -> : eps_r_noop q rR (A n) B = 0.
  rewrite -[RHS]gf; apply: eq_bigr => s _; rewrite hA // n0n nN //.
by rewrite adot0r.
Qed.
(* top_triv with the same bulk on both sides: the pseudo-inverse solves the full equation *)
Theorem C73_pseudo v : AL = AR -> eps_r_noop q rR AR AR = rR -> eps_r_noop q rR AR B = 0 -> adot rR lL = 1 ->
  @pinv_left_ok C (fun _ => d) q N w AL lL AR rR true (eps_l_noop q lL AL B) v ->
  @pinv_left_ok C (fun _ => d) q N w AL lL AR rR false (eps_l_noop q lL AL B) v.
Proof.
move=> eA hr gf n1 /pinv_leftE; rewrite !recast_id => e; apply/pinv_leftE; rewrite subr0.
have z : adot rR v = 0.
  have a1 y (A1 A2 : nat -> 'M[C]_d) : adot rR (eps_l_noop q y A1 A2) = adot (eps_r_noop q rR A1 A2) y.
    by rewrite adotC eps_adjoint -adotC.
  have := congr1 (adot rR) e; rewrite adotBr adotZr adotBr adotZr n1 mulr1 !a1 eA hr gf subrr mulr0 subr0 => ->.
  by rewrite adot0l.
by rewrite z scale0r subr0 in e.
Qed.
End Trivial.
Print Assumptions C73_value.
Print Assumptions C73_momentum0.
Print Assumptions C73_right.
Print Assumptions C73_pseudo.

(* ---- bond dimension 1, a window of one site, momentum pi ---- *)
Section Example.
Variable C : numClosedFieldType.
Local Notation a := (3%:R / 5%:R : C).
Local Notation b := (4%:R / 5%:R : C).
Definition tL (s : nat) : 'M[C]_1 := (if s == 0%N then a else b)%:M.
Definition tR (s : nat) : 'M[C]_1 := (s == 0%N)%:R%:M.
Definition tB (s : nat) : 'M[C]_1 := (s == 1%N)%:R%:M.
Definition tA : tensors C (fun _ => 1%N) := fun _ => tL.
Let c5 n : (n%:R / 5%:R : C)^* = n%:R / 5%:R. Proof. by rewrite rmorphM fmorphV !rmorph_nat. Qed.
Let adjs (x : C) : (x%:M : 'M[C]_1)^† = (x^*)%:M.
Proof. by apply/matrixP => i j; rewrite !mxE !ord1 /= !mulr1n. Qed.
Lemma t_l (x : C) : eps_l_noop 2 x%:M tL tL = x%:M.
Proof.
rewrite /eps_l_noop !big_ord_recl big_ord0 /= /tL /= !adjs !c5 -!scalar_mxM addr0 -raddfD /=; congr (_%:M).
have : a * a + b * b = 1 by rewrite !mulf_div -mulrDl -!natrM -natrD divff // pnatr_eq0.
by move: a b => y z e; rewrite ![x * _]mulrC !mulrA -mulrDl e mul1r.
Qed.
Lemma t_E (x : C) : eps_l_noop 2 x%:M tL tR = (a * x)%:M.
Proof.
rewrite /eps_l_noop !big_ord_recl big_ord0 /= /tL /tR /= !adjs !c5 -!scalar_mxM !mulr0 mulr1 addr0 -raddfD /=.
by rewrite addr0.
Qed.
Lemma t_x (x : C) : eps_l_noop 2 x%:M tL tB = (b * x)%:M.
Proof.
rewrite /eps_l_noop !big_ord_recl big_ord0 /= /tL /tB /= !adjs !c5 -!scalar_mxM !mulr0 mulr1 addr0 -raddfD /=.
by rewrite add0r.
Qed.
Lemma t_r (x : C) : eps_r_noop 2 x%:M tL tR = (a * x)%:M.
Proof.
rewrite /eps_r_noop !big_ord_recl big_ord0 /= /tL /tR /= !adjs conjC0 conjC1 -!scalar_mxM !mulr0 mulr1 addr0 -raddfD /=.
by rewrite addr0.
Qed.
Lemma t_rB (x : C) : eps_r_noop 2 x%:M tL tB = (b * x)%:M.
Proof.
rewrite /eps_r_noop !big_ord_recl big_ord0 /= /tL /tB /= !adjs conjC0 conjC1 -!scalar_mxM !mulr0 mulr1 addr0 -raddfD /=.
by rewrite add0r.
Qed.
Lemma t_gf : eps_r_noop 2 1%:M tR tB = 0 :> 'M[C]_1 /\ eps_r_noop 2 1%:M tR tR = 1%:M :> 'M[C]_1.
Proof.
split; rewrite /eps_r_noop !big_ord_recl big_ord0 /= /tR /tB /= !adjs ?conjC0 ?conjC1 -!scalar_mxM ?(mulr0, mul0r, mulr1) addr0 -raddfD /= addr0 //.
by rewrite raddf0.
Qed.
Local Notation tov := (@tan_ov C (fun _ => 1%N) 2 1 tL 1%:M tR 1%:M tA tB).
Lemma t_rs0 : @ot_rs C (fun _ => 1%N) 2 1 tR 1%:M tA 0 = a%:M.
Proof. by rewrite /ot_rs /= recast_id -[RHS]/((3%:R / 5%:R)%:M) t_r mulr1. Qed.
Lemma t_bulk K m : (m < K)%N -> tov K (K - m.+1) = a ^+ m.+1 * b.
Proof.
move=> mK; rewrite bulk_term //; last exact: t_l.
rewrite t_x mulr1 t_rs0.
have -> : iter m (fun y : 'M[C]_1 => eps_l_noop 2 y tL tR) b%:M = (a ^+ m * b)%:M.
  by elim: (m) => [|k IH]; rewrite ?expr0 ?mul1r // iterS IH t_E exprS mulrA.
rewrite adotE adjs -scalar_mxM mxtrace_scalar mulr1n rmorphM rmorphX /= !c5 exprS.
by rewrite mulrC mulrA.
Qed.
Lemma t_win K : tov K K = b.
Proof.
have := @window_term C (fun _ => 1%N) 2 1 tL 1%:M tR 1%:M tA tB (t_l 1) K 0 isT; rewrite addn0 => ->.
by rewrite /ot_rs /= recast_id t_rB mulr1 adotE adj1 mul1mx mxtrace_scalar mulr1n.
Qed.
(* the factors (-1)^j give sums that tend to -1/2 (the bulk sites ..., -1, 0 and site 1); the function returns -11/10 *)
Theorem C73_momentum_refuted pinv :
  @pinv_left_ok C (fun _ => 1%N) 2 1 (-1) tL 1%:M tR 1%:M false (eps_l_noop 2 1%:M tL tB) (pinv (eps_l_noop 2 1%:M tL tB)) ->
  (forall K, \sum_(m < K) (-1) ^+ m * tov K (K - m.+1) + (-1) * tov K K = - (1 / 2%:R) - (3%:R / 10%:R) * (- a) ^+ K) /\
  @overlap_tangent C (fun _ => 1%N) 2 1 (-1) tL 1%:M tR 1%:M tA tB pinv = - (11%:R / 10%:R).
Proof.
have n2 : (2%:R : C) != 0 by rewrite pnatr_eq0.
have n5 : (5%:R : C) != 0 by rewrite pnatr_eq0.
have n10 : (10%:R : C) != 0 by rewrite pnatr_eq0.
have e1 : 1 + a = 8%:R / 5%:R by rewrite -[X in X + _](divff n5) -mulrDl -natrD.
have eab : (3%:R / 10%:R : C) * (1 + a) = a * b.
  rewrite e1 !mulf_div -!natrM; apply/eqP.
  by rewrite eqr_div ?pnatr_eq0 // -!natrM.
have e8 : (3%:R / 10%:R : C) - b = - (1 / 2%:R).
  have <- : (3%:R / 10%:R : C) + 1 / 2%:R = b.
    by rewrite addf_div // mul1r -!natrM -natrD; apply/eqP; rewrite eqr_div ?pnatr_eq0 // -!natrM.
  by rewrite opprD addrA subrr add0r.
move=> hv; split=> [K|].
  rewrite t_win mulN1r (eq_bigr (fun m : 'I_K => (- a) ^+ m * (a * b))) => [|m _]; last first.
    by rewrite t_bulk // [(- a) ^+ m]exprNn; move: a b => y z; rewrite exprSr -!mulrA.
  rewrite -mulr_suml -{}eab mulrCA mulrC [1 + a]addrC.
  have -> : (\sum_(m < K) (- a) ^+ m) * (a + 1) = 1 - (- a) ^+ K.
    by apply: oppr_inj; rewrite opprB subrX1 -mulrN opprD mulrC.
  by rewrite -e8 mulrC mulrBr mulr1 addrAC.
have ev : pinv (eps_l_noop 2 1%:M tL tB) = (1 / 2%:R)%:M.
  move/pinv_leftE: hv; rewrite subr0; set v := pinv _; rewrite t_x mulr1 [v]mx11_scalar t_E.
  rewrite rmorphN conjC1 scaleN1r opprK -raddfD /= => /(congr1 (fun M : 'M[C]_1 => M 0 0)); rewrite !mxE /= !mulr1n => e.
  congr (_%:M); apply: (@mulfI _ (1 + a)).
    by rewrite e1 mulf_neq0 ?invr_eq0 ?pnatr_eq0.
  transitivity (4%:R / 5%:R : C); first by rewrite mulrDl mul1r; exact: e.
  rewrite e1 mulf_div; apply/eqP.
  by rewrite mulr1 eqr_div ?pnatr_eq0 -?natrM ?pnatr_eq0.
rewrite /overlap_tangent /ot_bulk ev t_rs0 /ot_window /= big_seq1 /ot_rs /= recast_id t_rB.
rewrite !adotE !adjs conjC1 mul1mx -scalar_mxM !mxtrace_scalar !mulr1n mulr1 expr1 rmorphN conjC1 mulN1r mulrN1 -opprD.
rewrite rmorphM fmorphV conjC1 rmorph_nat; congr (- _).
rewrite mulf_div mul1r -natrM addf_div // -!natrM -natrD; apply/eqP.
by rewrite eqr_div ?pnatr_eq0 // -!natrM.
Qed.
(* the hypothesis holds for the exact solution, and B is right gauge-fixing *)
Lemma C73_example_pi :
  @pinv_left_ok C (fun _ => 1%N) 2 1 (-1) tL 1%:M tR 1%:M false (eps_l_noop 2 1%:M tL tB) (1 / 2%:R)%:M /\
  eps_r_noop 2 1%:M tR tB = 0 :> 'M[C]_1.
Proof.
split; last exact: t_gf.1.
apply/pinv_leftE; rewrite subr0 t_x t_E rmorphN conjC1 scaleN1r opprK -raddfD /= mulr1; congr (_%:M).
rewrite mul1r -[X in X + _]mul1r -mulrDl.
have n5 : (5%:R : C) != 0 by rewrite pnatr_eq0.
have -> : 1 + a = 8%:R / 5%:R by rewrite -[X in X + _](divff n5) -mulrDl -natrD.
by rewrite mulrAC; congr (_ / _); apply: (@mulIf _ 2%:R); rewrite ?pnatr_eq0 // divfK ?pnatr_eq0 // -natrM.
Qed.
(* momentum 0, same data: the exact sum over all sites *)
Lemma C73_example pinv K :
  @pinv_left_ok C (fun _ => 1%N) 2 1 1 tL 1%:M tR 1%:M false (eps_l_noop 2 1%:M tL tB) (pinv (eps_l_noop 2 1%:M tL tB)) ->
  @overlap_tangent C (fun _ => 1%N) 2 1 1 tL 1%:M tR 1%:M tA tB pinv =
    \sum_(i < K + 1) tov K i + adot (iter K (fun y : 'M[C]_1 => eps_l_noop 2 y tL tR) (pinv (eps_l_noop 2 1%:M tL tB))) a%:M.
Proof. by move=> hv; rewrite -t_rs0; apply: C73_momentum0 => //; exact: t_l. Qed.
End Example.
Print Assumptions C73_momentum_refuted.
Print Assumptions C73_example_pi.
Print Assumptions C73_example.
