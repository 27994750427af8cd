(* P14_Krylov.v -- C40 (step accounting of gexpmv), C41 (Arnoldi reduction). *)
From mathcomp Require Import all_ssreflect all_algebra.
From mathcomp Require Import zify.
From Verif Require Import Krylov.
Set Implicit Arguments.
Unset Strict Implicit.
Unset Printing Implicit Defensive.
Import Order.TTheory GRing.Theory Num.Theory.
Local Open Scope ring_scope.

(* ---- C40 ---- *)
Section C40.
Variables (R : realFieldType) (K : koracle R) (m : nat) (tol rndoff t_out t_new0 : R) (mxstep : nat).
Hypotheses (hr : rnd_ok K) (hp : pw_ok K) (he : est_ok K).
Hypotheses (tol0 : 0 < tol) (ro : 0 <= rndoff) (t0 : 0 <= t_out) (tn : 0 < t_new0).
Notation gexpmv := (gexpmv K m tol rndoff t_out t_new0 mxstep).
Lemma gexpmvP fuel n conv ns b xe se s : gexpmv fuel n = Some (conv, ns, b, (xe, se), s) ->
  [/\ kinv tol rndoff t_out mxstep s, t_now s = t_out \/ (0 < mxstep)%N /\ nstep s = mxstep,
      conv = (ns < mxstep)%N, ns = nstep s /\ b = brkd s &
      xe = foldl Num.max 0 (errs s) /\ se = \sum_(e <- errs s) e].
Proof.
rewrite /Krylov.gexpmv; case: ifP => // _; case e: (outer _ _ _ _ _ _ _ _) => [s1|//] [<- <- <- <- <- <-].
have [||h1 h2] := outerP hr hp tol0 he ro _ _ e.
- by [].
- split=> //=; rewrite ?big_nil ?lexx //.
  by rewrite mulr0 mulr0n mulr0n !addr0.
by split.
Qed.
(* the accepted sub-steps are positive, never overshoot, and make up the whole interval when success (or a
   breakdown) is reported *)
Theorem C40_whole_interval fuel n conv ns b xe se s : gexpmv fuel n = Some (conv, ns, b, (xe, se), s) ->
  [/\ size (acc s) = ns, all (fun t => 0 < t) (acc s), \sum_(t <- acc s) t <= t_out,
      conv -> \sum_(t <- acc s) t = t_out & b -> \sum_(t <- acc s) t = t_out].
Proof.
move=> h; have [[v1 v2 v3 v4 [v5 v6] v7 v8 v9] h2 -> [-> ->] _] := gexpmvP h.
rewrite -v1; split=> //; first by case/andP: v3.
by move=> c; case: h2 => // -[_ e]; move: c; rewrite e ltnn.
Qed.
(* without a step limit (mxstep = 0) every normal return has covered the interval ... *)
Theorem C40_no_limit fuel n conv ns b xe se s : mxstep = 0%N -> gexpmv fuel n = Some (conv, ns, b, (xe, se), s) ->
  \sum_(t <- acc s) t = t_out.
Proof. by move=> m0 h; have [[v1 _ _ _ _ _ _ _] h2 _ _ _] := gexpmvP h; rewrite -v1; case: h2 => // -[]; rewrite m0. Qed.
(* ... but is reported as not converged *)
Theorem C40_no_limit_flag_refuted fuel n conv ns b xe se s : mxstep = 0%N ->
  gexpmv fuel n = Some (conv, ns, b, (xe, se), s) -> conv = false.
Proof. by move=> m0 h; have [_ _ -> _ _] := gexpmvP h; rewrite m0. Qed.
(* the reported errors: s_error is the sum, x_error the largest of the local estimates, and the sum is controlled by
   the tolerance per unit time, up to round-off per step and one tol for a breakdown *)
Theorem C40_error_estimate fuel n conv ns b xe se s : gexpmv fuel n = Some (conv, ns, b, (xe, se), s) ->
  [/\ size (errs s) = ns, se = \sum_(e <- errs s) e, (forall e, e \in errs s -> e <= xe), (xe \in 0 :: errs s) &
      se <= delta R * tol * (\sum_(t <- acc s) t) + rndoff *+ ns + tol *+ b].
Proof.
move=> h; have [[v1 v2 v3 v4 [v5 v6] v7 v8 v9] h2 _ [-> ->] [-> ->]] := gexpmvP h.
have mono (l : seq R) x : x <= foldl Num.max x l by elim: l x => //= a l IH x; apply: le_trans (IH _); rewrite le_maxr lexx.
split=> //; last by rewrite -v1.
  elim: (errs s) {+}0 => //= a l IH x e; rewrite inE => /orP[/eqP ->|]; last exact: IH.
  by apply: le_trans (mono _ _); rewrite le_maxr lexx orbT.
elim: (errs s) {+}0 => [|a l IH] x /=; first by rewrite inE.
have := IH (Num.max x a); rewrite !inE => /orP[/eqP ->|->]; last by rewrite !orbT.
by rewrite /Num.max; case: ifP; rewrite eqxx ?orbT.
Qed.
(* every rejected trial step is followed by a strictly smaller positive one *)
Theorem C40_rejected_steps_shrink i t err d : 0 < t -> errloc m (k_est K i t) = Some (err, d) -> err > delta R * t * tol ->
  0 < newstep K tol t err d < t.
Proof. by move=> tp e h; rewrite newstep_pos ?newstep_lt //; exact: errloc_pos e. Qed.
End C40.
Print Assumptions C40_whole_interval.
Print Assumptions C40_no_limit.
Print Assumptions C40_no_limit_flag_refuted.
Print Assumptions C40_error_estimate.
Print Assumptions C40_rejected_steps_shrink.
(* vectors of length 1 are refused whatever m is; in evolve_split these are the bonds of dimension 1 *)
Theorem C40_short_vector_refuted (R : realFieldType) (K : koracle R) m tol rndoff t_out t_new0 mxstep fuel :
  gexpmv K m tol rndoff t_out t_new0 mxstep fuel 1 = None.
Proof. by rewrite /gexpmv; case: m. Qed.
Print Assumptions C40_short_vector_refuted.
(* m = 1 is accepted (it is the only possibility for vectors of length 2) but divides by zero as soon as the
   first estimate does not exceed the second *)
Theorem C40_one_vector_refuted (R : realFieldType) (K : koracle R) tol rndoff t_out t_new0 mxstep fuel n :
  0 < tol -> 0 < t_out -> 0 < t_new0 -> k_brk K 1 = false -> (forall t, (k_est K 1 t).1 <= (k_est K 1 t).2 /\ 0 < (k_est K 1 t).2) ->
  gexpmv K 1 tol rndoff t_out t_new0 mxstep fuel n = None.
Proof.
move=> tol0 t0 tn b h; rewrite /gexpmv; case: ifP => // _.
have en t : errloc 1 (k_est K 1 t) = None.
  have [h1 h2] := h t; rewrite /errloc !(le_gtF _) //; apply: (le_trans h1).
  by rewrite -[X in X <= _]mul1r ler_pmul2r // ler1n.
case: fuel => [|fuel]; rewrite /= t0 // b; case: fuel => [|fuel]; by rewrite /= en.
Qed.
Print Assumptions C40_one_vector_refuted.
(* examples: an oracle fulfilling the contracts; rounding is exact, steps are kept *)
Section C40ex.
Variable R : realFieldType.
Definition exK (brk : nat -> bool) (est : R) : koracle R :=
  KOracle brk (fun _ _ => (est *+ 20, est)) (fun x => 10%:R * (x / 10%:R)) (fun _ _ => 1).
Lemma exK_ok brk est : 0 < est -> [/\ rnd_ok (exK brk est), pw_ok (exK brk est) & est_ok (exK brk est)].
Proof.
move=> e0; split.
- move=> x x0; exists (x / 10%:R), 10%N; have -> : x / (x / 10%:R) = 10%:R by rewrite invf_div mulrCA divff ?gt_eqF // mulr1.
  split=> //.
  + by rewrite divr_gt0 ?ltr0n.
  + by rewrite ler_addl divr_ge0 ?ler0n.
  + by rewrite -[11%:R]/((10 + 1)%:R) natrD ltr_add2l ltr_pdivr_mulr ?ltr0n // mul1r ltr_nat.
  + by rewrite ler_nat.
- by move=> d x; split=> _ /=; rewrite ?ltr01 ?lexx.
- by move=> i t; rewrite /= pmulrn_lgt0.
Qed.
Lemma rnd_id (x : R) : 10%:R * (x / 10%:R) = x.
Proof. by rewrite mulrCA divff ?mulr1 // pnatr_eq0. Qed.
(* one step of length 1/2, then a breakdown that finishes the interval [0,1] *)
Example C40_example_two_steps : exists s,
  gexpmv (exK (fun i => i == 2%N) (2%:R^-1)) 3 1 0 1 (2%:R^-1) 500 5 4 = Some (true, 2%N, true, (1, 2%:R^-1 + 1), s)
  /\ acc s = [:: 2%:R^-1; 2%:R^-1].
Proof.
have h0 : (0 : R) < 2%:R^-1 by rewrite invr_gt0 ltr0n.
have h1 : (2%:R^-1 : R) < 1 by rewrite invf_lt1 ?ltr0n // ltr1n.
have hh : (1 - 2%:R^-1 : R) = 2%:R^-1.
  by apply/eqP; rewrite subr_eq -mulr2n -[_ *+ 2]mulr_natr mulVf // pnatr_eq0.
have dd : (delta R * 2%:R^-1 * 1 < 2%:R^-1) = false.
  by apply: le_gtF; rewrite mulr1 ler_pmull // ler_pdivl_mulr ?ltr0n // mul1r ler_nat.
have est : errloc 3 (2%:R^-1 *+ 20, 2%:R^-1 : R) = Some (2%:R^-1, 3%N).
  by rewrite /errloc /= mulr_natl ltr_pmuln2l.
eexists; rewrite /gexpmv /= ltr01 subr0 /newstep /= (_ : Num.min 1 2%:R^-1 = 2%:R^-1); last by rewrite minC; apply/min_idPl; exact: ltW.
rewrite est dd add0r h1 /= hh -mulr2n -[_ *+ 2]mulr_natr mulVf ?pnatr_eq0 // ltxx /=.
rewrite (max_l (ltW h0)) (max_r (ltW h0)) (max_l (@ler01 R)) (max_r (ltW h1)) !big_cons big_nil addr0.
by split.
Qed.
(* finishing exactly on the last allowed step is reported as a failure *)
Theorem C40_last_step_refuted : exists s,
  gexpmv (exK (fun i => true) 1) 3 1 0 1 1 1 5 4 = Some (false, 1%N, true, (1, 1), s) /\ \sum_(t <- acc s) t = (1 : R).
Proof.
eexists; rewrite /gexpmv /= ltr01 subr0 /= !big_cons big_nil addr0 /=.
rewrite (max_l (@ler01 R)) (max_r (@ler01 R)).
by split=> //=; rewrite big_cons big_nil addr0.
Qed.
End C40ex.
Print Assumptions C40_last_step_refuted.

(* ---- C41 ---- *)
Section C41.
Variables (C : numClosedFieldType) (n : nat) (A : 'M[C]_n) (tol : C) (v : 'cV[C]_n) (m : nat).
Hypotheses (tol0 : 0 <= tol) (v0 : v != 0).
Let beta := nrm v.
Let e0 k : 'cV[C]_k := \col_(i < k) (i == 0%N :> nat)%:R.
Definition start := [:: beta^-1 *: v].
Lemma start_ok : arn_ok A start [::].
Proof.
split=> // -[|i] [|j] //= _ _.
have n0 : nrm v != 0 by rewrite nrm_eq0.
have cn : (beta^-1)^* = beta^-1 by apply: conj_Creal; rewrite ger0_real // invr_ge0 nrm_ge0.
by rewrite vdotZl vdotZr cn -nrm_sq [X in _ * X]mulrA mulVf // mul1r mulVf // eqxx.
Qed.
Let res := arnoldi A tol m start [::].
Let vs := res.1.1.
Let cols := res.1.2.
Let brk := res.2.
Lemma resP : if brk then brk_ok A tol vs cols /\ (size vs <= m)%N else arn_ok A vs cols /\ size cols = m.
Proof. by rewrite /brk /vs /cols /res; have := arnoldiP m tol0 start_ok; case: (arnoldi _ _ _ _ _) => [[a b] []] /=. Qed.
Lemma vs0 : nth 0 vs 0 = beta^-1 *: v.
Proof.
rewrite /vs /res; have : (0 < size start)%N by []. have : nth 0 start 0 = beta^-1 *: v by [].
elim: m start [::] => [|m' IH] s c e sz //=.
case: (mgs _ _) => hs w /=; case: ifP => // _; apply: IH; last by rewrite size_rcons.
by rewrite nth_rcons sz.
Qed.
(* the basis is orthonormal *)
Theorem C41_orthonormal i j : (i < size vs)%N -> (j < size vs)%N -> vdot (nth 0 vs i) (nth 0 vs j) = (i == j)%:R.
Proof. by have := resP; case: brk => -[[]] *; auto. Qed.
(* H represents A in it: exactly for all columns but the last, up to a residual not longer than the breakdown
   tolerance for the last one *)
Theorem C41_relation_breakdown (j : 'I_(size vs)) : brk ->
  exists2 w, A *m nth 0 vs j = \sum_(i < size vs) Hred (size vs) cols i j *: nth 0 vs i + w &
             nrm w <= tol /\ ((j.+1 < size vs)%N -> w = 0).
Proof.
have := resP; case: brk => // -[[h1 h2 h3 h4 h5 [w hw nw]] sm] _.
case: (ltnP j.+1 (size vs)) => hl.
  exists 0; last by split=> //; rewrite (_ : nrm 0 = 0) //; apply/eqP; rewrite nrm_eq0.
  by rewrite addr0 h5; [apply: eq_bigr => i _; rewrite mxE | rewrite -h1; lia].
exists w => //; have ej : nat_of_ord j = (size cols).-1 by rewrite -h1; move: (ltn_ord j); lia.
by rewrite ej hw; congr (_ + _); apply: eq_bigr => i _; rewrite mxE ej.
Qed.
Theorem C41_relation_no_breakdown j : ~~ brk -> (j < m)%N ->
  size vs = m.+1 /\ A *m nth 0 vs j = \sum_(i < m.+1) hent cols i j *: nth 0 vs i.
Proof.
have := resP; case: brk => // -[[h1 h2 h3 h4] sm] _ hj; split; first by rewrite h1 sm.
by rewrite h4 ?sm // h1 sm.
Qed.
(* H is upper Hessenberg *)
Lemma hess i j : (j.+1 < i)%N -> hent cols i j = 0.
Proof.
move=> h; rewrite /hent; case: (ltnP j (size cols)) => hj; last by rewrite (nth_default [::] hj) nth_nil.
by rewrite nth_default //; have := resP; case: brk => -[[h1 h2 h3 h4 *]]; [apply: leq_trans (h4 _ hj) _ | rewrite h3].
Qed.
(* after a breakdown with zero residual every polynomial of A on v is computed by the reduced matrix; with
   a_i = t^i / i! these are all partial sums of the exponential series *)
Theorem C41_breakdown_exact : brk -> tol = 0 -> forall d (a : nat -> C),
  \sum_(i < d) a i *: iter i (mulmx A) v =
  \sum_(r < size vs) (beta *: \sum_(i < d) a i *: iter i (mulmx (Hred (size vs) cols)) (e0 (size vs))) r ord0 *: nth 0 vs r.
Proof.
move=> b t0 d a; have b0 : beta != 0 by rewrite nrm_eq0.
have sz : (0 < size vs)%N by have := resP; rewrite b => -[[]].
have rel (j : 'I_(size vs)) : A *m nth 0 vs j = \sum_(i < size vs) Hred (size vs) cols i j *: nth 0 vs i.
  have [w -> [nw _]] := C41_relation_breakdown j b.
  have /eqP : nrm w = 0 by apply/eqP; rewrite eq_le nrm_ge0 andbT -t0.
  by rewrite nrm_eq0 => /eqP ->; rewrite addr0.
have e1 : v = beta *: \sum_(r < size vs) (e0 (size vs)) r ord0 *: nth 0 vs r.
  rewrite (bigD1 (Ordinal sz)) //= big1 ?addr0; last by move=> r /negPf hr; rewrite mxE -val_eqE /= in hr *; rewrite hr scale0r.
  by rewrite mxE eqxx scale1r vs0 scalerA divff // scale1r.
have lin i x : iter i (mulmx A) (beta *: x) = beta *: iter i (mulmx A) x.
  by elim: i => //= i ->; rewrite scalemxAr.
have st i : iter i (mulmx A) v =
    beta *: \sum_(r < size vs) (iter i (mulmx (Hred (size vs) cols)) (e0 (size vs))) r ord0 *: nth 0 vs r.
  rewrite {1}e1 lin; congr (_ *: _).
  exact: (iter_invariant (V := fun r : 'I_(size vs) => nth 0 vs r) _ i rel).
under eq_bigr => i _ do rewrite st scalerA mulrC -scalerA.
rewrite -scaler_sumr; under eq_bigr => i _ do rewrite scaler_sumr.
rewrite exchange_big scaler_sumr; apply: eq_bigr => r _.
rewrite mxE summxE -[in RHS]scalerA; congr (_ *: _); rewrite scaler_suml; apply: eq_bigr => i _.
by rewrite mxE scalerA.
Qed.
(* without a breakdown the corrected (m+2) x (m+2) matrix reproduces the first m powers, that is, the Taylor
   polynomial of degree m of exp(tA) v *)
Theorem C41_taylor : ~~ brk -> forall i, (i <= m)%N ->
  iter i (mulmx A) v = \sum_(r < m.+1) (beta *: iter i (mulmx (Hcor m cols)) (e0 m.+2)) (widen_ord (leqnSn _) r) ord0 *: nth 0 vs r.
Proof.
move=> b i im; have b0 : beta != 0 by rewrite nrm_eq0.
have szv : size vs = m.+1 by have := resP; rewrite (negbTE b) => -[[h1 _ _ _] h2]; rewrite h1 h2.
have e1 : v = beta *: \sum_(r < m.+2) (e0 m.+2) r ord0 *: nth 0 vs r.
  rewrite big_ord_recl big1 ?addr0; last by move=> r _; rewrite mxE scale0r.
  by rewrite mxE scale1r vs0 scalerA divff // scale1r.
have lin i' x : iter i' (mulmx A) (beta *: x) = beta *: iter i' (mulmx A) x.
  by elim: i' => //= i' ->; rewrite scalemxAr.
rewrite {1}e1 lin (@iter_hessenberg _ _ _ A (fun r : 'I_m.+2 => nth 0 vs r) (Hcor m cols) (e0 m.+2) m i) //; first last.
- move=> j hj; have [_ ->] := C41_relation_no_breakdown b hj; rewrite [RHS]big_ord_recr /= [nth 0 vs m.+1]nth_default ?szv // scaler0 addr0.
  by apply: eq_bigr => r _; rewrite mxE /= (ltn_eqF (ltn_ord r)).
- by move=> r hr; rewrite mxE; case: (nat_of_ord r) hr.
- by move=> r c hrc; rewrite mxE ifN ?hess //; apply/negP => /andP[/eqP h1 /eqP h2]; lia.
rewrite big_ord_recr /= [nth 0 vs m.+1]nth_default ?szv // scaler0 addr0 scaler_sumr.
by apply: eq_bigr => r _; rewrite [in RHS]mxE scalerA.
Qed.
(* the subspace dimension after a breakdown does not exceed m *)
Theorem C41_breakdown_size : brk -> (0 < size vs <= m)%N.
Proof. by move=> b; have := resP; rewrite b => -[[_ -> *]]. Qed.
End C41.
Print Assumptions C41_orthonormal.
Print Assumptions C41_relation_breakdown.
Print Assumptions C41_relation_no_breakdown.
Print Assumptions C41_breakdown_exact.
Print Assumptions C41_taylor.
Print Assumptions C41_breakdown_size.

Section C41ex.
Variable C : numClosedFieldType.
Let A : 'M[C]_2 := \matrix_(i, j) (i != j)%:R.
Let v : 'cV[C]_2 := \col_i (i == ord0)%:R.
Let v' : 'cV[C]_2 := \col_i (i != ord0)%:R.
(* the exchange matrix on (1,0): one step gives the basis (1,0),(0,1); a second one would break down *)
Lemma ex_Av : A *m v = v'.
Proof. by apply/colP => i; rewrite !mxE (bigD1 ord0) //= big1 => [|j /negPf h]; rewrite !mxE ?eqxx ?h ?mulr0 ?mulr1 ?addr0. Qed.
Lemma ex_Av' : A *m v' = v.
Proof.
apply/colP => i; rewrite !mxE (bigD1 ord0) //= !mxE eqxx mulr0 add0r (bigD1 (Ordinal (isT : (1 < 2)%N))) //= big1 ?addr0.
  by rewrite !mxE /= mulr1; case: i => [[|[|]]].
by case=> [[|[|]]].
Qed.
Lemma ex_dots : [/\ vdot v v = 1, vdot v v' = 0, vdot v' v = 0 & vdot v' v' = 1].
Proof.
by split; rewrite /vdot !big_ord_recl big_ord0 !mxE /= ?rmorph0 ?rmorph1 ?mulr0 ?mul0r ?mulr1 ?addr0 ?add0r.
Qed.
Example C41_example_step : arnoldi A 0 1 (start v) [::] = ([:: v; v'], [:: [:: 0; 1]], false).
Proof.
have [d1 d2 d3 d4] := ex_dots.
rewrite /start /arnoldi /= /nrm d1 sqrtC1 invr1 !scale1r ex_Av d2 scale0r subr0 d4 sqrtC1 invr1 !scale1r.
by rewrite lt_geF ?ltr01.
Qed.
Example C41_example_breakdown : arnoldi A 0 2 (start v) [::] = ([:: v; v'], [:: [:: 0; 1]; [:: 1; 0]], true).
Proof.
have [d1 d2 d3 d4] := ex_dots.
rewrite /start /arnoldi /= /nrm d1 sqrtC1 invr1 !scale1r ex_Av d2 scale0r subr0 d4 sqrtC1 invr1 !scale1r.
rewrite lt_geF ?ltr01 //= ex_Av' d1 scale1r subrr.
have z u : vdot u 0 = 0 :> C by rewrite /vdot big1 // => i _; rewrite mxE mulr0.
by rewrite z scale0r subr0 z sqrtC0 lexx.
Qed.
End C41ex.
