(* P13_Drivers.v -- C38 (evolve), C39 (automatic step size), C53 (packing for ODE solvers), C55 (iteration limits). *)
From Coq Require Import ZArith SpecFloat.
From mathcomp Require Import all_ssreflect all_algebra.
From mathcomp Require Import zify.
From Verif Require Import Drivers.
Set Implicit Arguments.
Unset Strict Implicit.
Unset Printing Implicit Defensive.
Import Order.TTheory GRing.Theory Num.Theory.
Local Open Scope ring_scope.

(* ---- C38 ---- *)
Section C38.
Variables (R : rcfType) (S : Type) (ops : sysops R S) (has_cb : bool) (dt : R) (ig : integ) (dynexp : bool).
Notation dev := (dev R).
Notation evolve := (evolve ops has_cb dt ig dynexp).
(* what is observable at the start of every iteration *)
Definition head (i : nat) : seq dev := Upd :: (if has_cb then [:: CB i] else [::]).
Arguments head i : simpl never.
(* one integrator step *)
Definition one_step (b : seq dev) : Prop := match ig with
  | Euler => exists d, b = [:: StepE dt d]
  | RK4 => b = [:: StepRK dt] \/ b = [:: StepE (dt ^+ 2 * Num.sqrt dt) true; Upd; StepRK (dt - dt ^+ 2 * Num.sqrt dt)]
  | Other => b = [::]
  end.
Lemma ev_stepE x : exists2 b, one_step b & (ev_step ops dt ig dynexp x).2 = x.2 ++ b.
Proof.
case: x => s l; rewrite /ev_step /one_step; case: (ig).
- by eexists; [eexists; reflexivity | rewrite /= cats1].
- case: dynexp => /=; last by eexists; [left; reflexivity | rewrite /= cats1].
  by case: (so_lessD _ _); eexists; [right; reflexivity | by [] | left; reflexivity | rewrite /= cats1].
- by exists [::] => //; rewrite cats0.
Qed.
(* num_steps = n >= 0: n integrator steps; n + 1 updates and callbacks with indices 0, ..., n around them *)
Theorem C38_trace n s : exists2 bs, (size bs = n /\ forall b, List.In b bs -> one_step b) &
  (evolve n%:Z s).2 = flatten [seq head p.1 ++ p.2 | p <- zip (iota 0 n) bs] ++ head n.
Proof.
have gen rem i x : (i + rem = n)%N ->
    exists2 bs, (size bs = rem /\ forall b, List.In b bs -> one_step b) &
    (ev_loop ops has_cb dt ig dynexp n rem.+1 i x).2 =
      x.2 ++ flatten [seq head p.1 ++ p.2 | p <- zip (iota i rem) bs] ++ head n.
  elim: rem i x => [|rem IH] i x e.
    exists [::] => //=; rewrite (_ : i = n); last by lia.
    by rewrite eqxx /head; case: has_cb => /=; rewrite -!cats1 -?catA.
  rewrite [ev_loop _ _ _ _ _ _ _ _ _]/= -/(ev_loop _ _ _ _ _ _ _ _ _).
  set x1 := if has_cb then _ else _.
  have ex1 : x1.2 = x.2 ++ head i by rewrite /x1 /head; case: has_cb => /=; rewrite -!cats1 -?catA.
  have -> : (i == n) = false by lia.
  have [b hb eb] := ev_stepE x1.
  have [|bs [sb hbs] ebs] := IH i.+1 (ev_step ops dt ig dynexp x1); first by lia.
  exists (b :: bs); first by split=> [|c [<-|]] //=; [rewrite sb | exact: hbs].
  by rewrite [LHS]ebs eb ex1 /= -!catA.
exact: (gen n 0%N (s, [::])).
Qed.
Lemma one_step_span b : ig <> Other -> one_step b -> \sum_(e <- b) span e = dt.
Proof.
rewrite /one_step; case: (ig) => // _ h.
  by case: h => d ->; rewrite big_seq1.
by case: h => ->; rewrite !big_cons big_nil /= ?addr0 // add0r addrC subrK.
Qed.
(* the integrator advances the state by exactly num_steps * dt *)
Theorem C38_total_time n s : ig <> Other -> \sum_(e <- (evolve n%:Z s).2) span e = dt *+ n.
Proof.
move=> hi; have [bs [sb hb] ->] := C38_trace n s.
have hs i : \sum_(e <- head i) span e = 0 by rewrite /head; case: has_cb; rewrite !big_cons big_nil /= ?addr0.
rewrite big_cat /= hs addr0.
have -> : dt *+ n = dt *+ size (zip (iota 0 n) bs) by rewrite size_zip size_iota sb minnn.
elim: (iota 0 n) bs {sb} hb => [|i l IH] [|b bs] hb; [by rewrite big_nil|by rewrite big_nil|by rewrite big_nil|].
have -> : flatten [seq head p.1 ++ p.2 | p <- zip (i :: l) (b :: bs)] = (head i ++ b) ++ flatten [seq head p.1 ++ p.2 | p <- zip l bs] by [].
rewrite !big_cat hs [RHS]mulrS; congr (_ + _); rewrite ?IH //; first by rewrite [LHS]add0r one_step_span //; apply: hb; left.
by move=> c hc; apply: hb; right.
Qed.
(* ... and num_steps = int(t/dt) makes that the last multiple of dt not after t (t/dt >= 0) *)
Theorem C38_reached_time t n s : ig <> Other -> 0 < dt -> n%:R <= t / dt < n.+1%:R ->
  t - dt < \sum_(e <- (evolve n%:Z s).2) span e <= t.
Proof.
move=> hi d0 /andP[h1 h2]; rewrite C38_total_time // -mulr_natl -ler_pdivl_mulr // h1 andbT.
by rewrite ltr_subl_addr -[X in _ + X]mul1r -mulrDl -(natrD _ n 1) addn1 -ltr_pdivr_mulr.
Qed.
(* the log tells the whole story: the final state is the log replayed on the initial state *)
Definition run_ev (x : S) (e : dev) : S := match e with
  | Upd => so_upd ops x | CB i => so_cb ops i x | StepE h d => so_euler ops h d x | StepRK h => so_rk ops h x end.
Theorem C38_replay k s : (evolve k s).1 = foldl run_ev s (evolve k s).2.
Proof.
have st x s0 : x.1 = foldl run_ev s0 x.2 ->
    (ev_step ops dt ig dynexp x).1 = foldl run_ev s0 (ev_step ops dt ig dynexp x).2.
  case: x => x l /= ->; case: ig => /=; rewrite ?foldl_rcons //.
  by case: ifP => _ /=; rewrite ?foldl_rcons ?foldl_cat.
case: k => [n|n] //=.
have gen rem i x s0 : x.1 = foldl run_ev s0 x.2 ->
    (ev_loop ops has_cb dt ig dynexp n rem i x).1 = foldl run_ev s0 (ev_loop ops has_cb dt ig dynexp n rem i x).2.
  elim: rem i x => [//|rem IH] i x hx /=.
  set x1 := if has_cb then _ else _.
  have h1 : x1.1 = foldl run_ev s0 x1.2 by rewrite /x1; case: has_cb; rewrite /= !foldl_rcons hx.
  by case: ifP => // _; apply/IH/st.
exact: (gen n.+1 0%N (s, [::])).
Qed.
(* bond expansion is requested exactly in the states that still have room for it *)
Fixpoint flags_ok (x : S) (es : seq dev) : Prop :=
  if es is e :: es then (if e is StepE _ d then d = dynexp && so_lessD ops x else True) /\ flags_ok (run_ev x e) es else True.
Theorem C38_expansion_flag k s : flags_ok s (evolve k s).2.
Proof.
have cat x l l' : flags_ok x (l ++ l') <-> flags_ok x l /\ flags_ok (foldl run_ev x l) l'.
  by elim: l x => [|e l IH] x /=; [tauto | rewrite IH; tauto].
have rc x l e : flags_ok x (rcons l e) <-> flags_ok x l /\ (if e is StepE _ d then d = dynexp && so_lessD ops (foldl run_ev x l) else True).
  by rewrite -cats1 cat /=; tauto.
pose inv s0 (x : S * seq dev) := x.1 = foldl run_ev s0 x.2 /\ flags_ok s0 x.2.
have st x s0 : inv s0 x -> inv s0 (ev_step ops dt ig dynexp x).
  case: x => x l [] /= -> hf; rewrite /inv; case: ig => /=; rewrite ?foldl_rcons ?rc //.
  case: ifP => hd /=; rewrite ?foldl_rcons ?foldl_cat ?rc // cat; split=> //; split=> //=.
  by split=> //; rewrite hd; case/andP: hd.
case: k => [n|n] //=.
have gen rem i x s0 : inv s0 x -> inv s0 (ev_loop ops has_cb dt ig dynexp n rem i x).
  elim: rem i x => [//|rem IH] i x hx /=.
  set x1 := if has_cb then _ else _.
  have h1 : inv s0 x1.
    by case: hx => hx hf; rewrite /x1 /inv; case: has_cb => /=; rewrite ?foldl_rcons ?hx ?rc.
  by case: ifP => // _; apply/IH/st.
by have [] := gen n.+1 0%N (s, [::]) s (conj erefl I).
Qed.
(* a negative number of steps: nothing is done, not even an update *)
Theorem C38_negative k s : k < 0 -> evolve k s = (s, [::]).
Proof. by case: k. Qed.
(* an unknown integrator name is not reported: no step is made, n+1 callbacks are *)
Theorem C38_unknown_integrator_refuted n s : ig = Other -> has_cb = true ->
  [seq e <- (evolve n%:Z s).2 | is_step e] = [::] /\ pmap (@cb_of R) (evolve n%:Z s).2 = iota 0 n.+1.
Proof.
move=> hi hc; have [bs [sb hb] ->] := C38_trace n s.
have {}hb b : List.In b bs -> b = [::] by move/hb; rewrite /one_step hi.
have -> : flatten [seq head p.1 ++ p.2 | p <- zip (iota 0 n) bs] = flatten [seq head i | i <- iota 0 n].
  have: size (iota 0 n) = size bs by rewrite size_iota sb.
  elim: (iota 0 n) bs {sb} hb => [|i l IH] [|b bs] hb //= [es]; rewrite IH //; last by move=> c hc'; apply: hb; right.
  by rewrite (hb b) ?cats0 //; left.
have -> : iota 0 n.+1 = iota 0 n ++ [:: n] by rewrite -addn1 iotaD add0n.
rewrite filter_cat pmap_cat /head hc /=; split.
  by rewrite cats0; elim: (iota 0 n) => //= i l ->.
by congr (_ ++ _); elim: (iota 0 n) => //= i l ->.
Qed.
End C38.
(* the RK4 branch with dynamical expansion evolves backwards in its main step when dt > 1 *)
Theorem C38_rk4_remainder (R : rcfType) (dt : R) : 0 < dt -> (0 < dt - dpow dt) = (dt < 1).
Proof.
move=> d0; rewrite subr_gt0 /dpow expr2 -mulrA gtr_pmulr //.
apply/idP/idP => h.
  rewrite ltNge; apply: contraL h => h; rewrite -leNgt.
  rewrite -[1]mulr1; apply: ler_pmul => //; rewrite -(sqrtr1 R); exact: ler_wsqrtr.
apply: mulr_ilt1; rewrite ?sqrtr_ge0 ?ltW //.
by rewrite -(sqrtr1 R) ltr_sqrt ?ltr01.
Qed.
Theorem C38_rk4_backwards_refuted (R : rcfType) : exists dt : R, 0 < dt /\ dt - dpow dt < 0.
Proof.
exists 4%:R; split; first by rewrite ltr0n.
have e : Num.sqrt (4%:R : R) = 2%:R by rewrite (_ : 4%:R = 2%:R ^+ 2) ?sqrtr_sqr ?ger0_norm ?ler0n // -natrX.
by rewrite /dpow e subr_lt0 -natrX -natrM ltr_nat.
Qed.
(* In binary64 arithmetic int(t / dt) can lose a step although t is a multiple of dt: int(0.3 / 0.1) = 2.
   0.3 and 0.1 are the doubles 5404319552844595 * 2^-54 and 7205759403792794 * 2^-56. *)
Definition trunc_pos (x : spec_float) : Z := match x with
  | S754_finite false m e => (if Z.leb Z0 e then Z.shiftl (Zpos m) e else Z.shiftr (Zpos m) (Z.opp e))
  | _ => Z0 end.
Theorem C38_float_step_count_refuted :
  trunc_pos (SFdiv 53 1024 (S754_finite false 5404319552844595 (-54)) (S754_finite false 7205759403792794 (-56))) = Zpos (xO xH).
Proof. by vm_compute. Qed.

(* ---- C39 ---- *)
Section C39.
Variable R : rcfType.
Implicit Types dtau base eta dh pred : R.
Theorem C39_interval dtau base eta dh pred : 0 < base -> base / 100%:R <= dtau <= base * 2%:R ->
  base / 100%:R <= (autostep dtau base eta dh pred).1 <= base * 2%:R.
Proof.
move=> b0 /andP[h1 h2].
have d0 : 0 < dtau by apply: lt_le_trans h1; rewrite divr_gt0 ?ltr0n.
have n0 k : 0 <= k%:R :> R := ler0n _ k.
have c1 : base / 100%:R <= base * 2%:R.
  by rewrite ler_pdivr_mulr ?ltr0n // -mulrA ler_pmulr // -natrM ler1n.
have le100 a b : (0 < b)%N -> (b <= 100 * a)%N -> base / 100%:R <= base * (a%:R / b%:R).
  move=> b0' hab; rewrite ler_pmul2l // ler_pdivl_mulr ?ltr0n // mulrC ler_pdivr_mulr ?ltr0n //.
  by rewrite -natrM ler_nat mulnC.
have le2 a b : (0 < b)%N -> (a <= b)%N -> base * (a%:R / b%:R) <= base * 2%:R.
  move=> b0' hab; rewrite ler_pmul2l // ler_pdivr_mulr ?ltr0n // -natrM ler_nat; lia.
rewrite /autostep /=; set fac := (if `|dh| < _ then _ else _).
case: (fac == 0); [case: (pred != 0); [case: (e13 R < dh)|]|].
- rewrite le_maxr le_maxl [_ / _ <= base * _]le100 // orbT /= [base * _ <= base * 2%:R]le2 // andbT.
  apply: le_trans h2; rewrite ger_pmulr // ler_pdivr_mulr ?ltr0n // mul1r ler_nat; lia.
- rewrite le_minr le_minl (_ : base / _ <= base); last first.
    by rewrite ger_pmulr // invf_le1 ?ltr0n // ler1n.
  rewrite (_ : base / _ <= dtau * _); last first.
    by apply: (le_trans h1); rewrite ler_pmulr // ler_pdivl_mulr ?ltr0n // mul1r ler_nat; lia.
  by rewrite /= [base <= _]ler_pmulr // ler1n orbT.
- by rewrite h1.
case: (ltP fac 0) => f0; first by rewrite le100 //= le2.
case: (ltP 3%:R `|fac|) => [f3|_].
  rewrite le_maxr le_maxl [_ / _ <= base * _]le100 // orbT /= [base * _ <= base * 2%:R]le2 // andbT.
  apply: le_trans h2; rewrite ger_pmulr // ler_subl_addl ler_addr; apply: mulr_ge0; first by rewrite divr_ge0.
  by rewrite subr_ge0 ltW // -(ger0_norm f0).
case: ifP => _; last by rewrite h1.
rewrite le_minr le_minl lexx orbT c1 !andbT; apply: (le_trans h1); rewrite ler_pmulr // ler_addl.
by rewrite mulr_ge0 ?sqrtr_ge0 // divr_ge0.
Qed.
End C39.
Section C39b.
Variable R : rcfType.
Implicit Types dtau base eta dh pred : R.
(* a rise of the energy (dh = old - new < 0, by more than the resolution) throws the step back to base/100 *)
Theorem C39_energy_rise dtau base eta dh pred : 0 < pred -> dh <= - (5%:R * e13 R) ->
  (autostep dtau base eta dh pred).1 = base / 100%:R.
Proof.
move=> p0 hd; have e0 : 0 < 5%:R * e13 R by rewrite mulr_gt0 ?invr_gt0 ?exprn_gt0 ?ltr0n.
have d0 : dh < 0 by apply: le_lt_trans hd _; rewrite oppr_lt0.
have e1 : (`|dh| < 5%:R * e13 R) = false by apply/negbTE; rewrite -leNgt ltr0_norm // ler_oppr.
rewrite /autostep /= e1.
have f0 : pred / dh < 0 by rewrite pmulr_rlt0 // invr_lt0.
by rewrite lt_eqF // f0 mul1r.
Qed.
(* the very first call (dh_pred = 0) keeps the initial step whatever the first energy is *)
Theorem C39_first_call dtau base eta dh : (autostep dtau base eta dh 0).1 = dtau.
Proof. by rewrite /autostep /= mul0r if_same eqxx. Qed.
End C39b.

(* ---- C55, and C39 along a whole run ---- *)
Section C55.
Variables (R : rcfType) (S : Type) (ops : iops R S) (tol base dtau0 : R) (auto_dtau : bool).
Variables (Dexp : nat) (exp_tol : R) (exp_wait : nat).
Notation run := (opt_im_time ops tol base dtau0 auto_dtau Dexp exp_tol exp_wait).
Notation loop := (im_loop ops tol base auto_dtau Dexp exp_tol exp_wait).
Notation sizes x := [seq p.1 | p <- isteps (i_log x)].
Definition safe (d : R) := base / 100%:R <= d <= base * 2%:R.
Definition apart (l : seq (R * bool)) := forall a b, (a < b < size l)%N ->
  (nth (0, false) l a).2 -> (nth (0, false) l b).2 -> (exp_wait < b - a)%N.
Record inv (i : nat) (x : ist R S) : Prop := Inv {
  v_steps : size (isteps (i_log x)) = i;
  v_cbs : icbs (i_log x) = [seq (j, \sum_(d <- take j (sizes x)) d) | j <- iota 0 i];
  v_tau : i_tau x = \sum_(d <- sizes x) d;
  v_safe : auto_dtau -> 0 < base -> safe dtau0 -> safe (i_dtau x) /\ all safe (sizes x);
  v_apart : apart (isteps (i_log x));
  v_wait : forall a, (a < i)%N -> (nth (0, false) (isteps (i_log x)) a).2 -> (exp_wait + a < i + i_wait x)%N }.
Lemma isteps_rcons l (d : R) b : isteps (rcons l (IStep d b)) = rcons (isteps l) (d, b).
Proof. by rewrite /isteps -!cats1 pmap_cat. Qed.
Lemma isteps_rcons_cb l i (t : R) : isteps (rcons l (ICB i t)) = isteps l.
Proof. by rewrite /isteps -cats1 pmap_cat /= cats0. Qed.
Lemma icbs_rcons l (d : R) b : icbs (rcons l (IStep d b)) = icbs l.
Proof. by rewrite /icbs -cats1 pmap_cat /= cats0. Qed.
Lemma icbs_rcons_cb l i (t : R) : icbs (rcons l (ICB i t)) = rcons (icbs l) (i, t).
Proof. by rewrite /icbs -!cats1 pmap_cat. Qed.
Record result (n r : nat) (x : ist R S) : Prop := Result {
  (* between 1 and n+1 iterations, one callback each, one step between consecutive ones *)
  r_count : (0 < r <= n.+1)%N;
  r_steps : size (isteps (i_log x)) = r.-1;
  (* callback j sees the index j and the sum of the steps made before it *)
  r_cbs : icbs (i_log x) = [seq (j, \sum_(d <- take j (sizes x)) d) | j <- iota 0 r];
  r_tau : i_tau x = \sum_(d <- sizes x) d;
  (* an early end means convergence *)
  r_conv : (r <= n)%N -> im_conv ops tol Dexp (i_sys x) (i_wait x);
  r_safe : auto_dtau -> 0 < base -> safe dtau0 -> all safe (sizes x);
  r_apart : apart (isteps (i_log x)) }.
Lemma cbE i x : inv i x -> rcons (icbs (i_log x)) (i, i_tau x) = [seq (j, \sum_(d <- take j (sizes x)) d) | j <- iota 0 i.+1].
Proof.
case=> h1 h2 h3 _ _ _; rewrite h2 h3 -[i.+1]addn1 iotaD map_cat cats1 /= add0n; congr rcons; congr (_, _).
by rewrite take_oversize // size_map h1.
Qed.
Lemma loopP n rem i x : (i + rem = n)%N -> inv i x -> result n (loop n rem i x).1 (loop n rem i x).2.
Proof.
elim: rem i x => [|rem IH] i x e v; have ecb := cbE v; case: v => h1 h2 h3 h4 h5 h6.
  rewrite [loop _ _ _ _]/= (_ : i == n) /=; last by lia.
  split; rewrite ?[i_log _]/= ?isteps_rcons_cb ?icbs_rcons_cb //; try by lia.
rewrite [loop _ _ _ _]/= -/(loop _ _ _ _); set s := io_cb _ _ _ _.
have -> : (i == n) = false by lia.
rewrite orFb; case: ifP => cv.
  split; rewrite ?[i_log _]/= ?isteps_rcons_cb ?icbs_rcons_cb //; try by rewrite [fst _]/=; lia.
  by move=> a1 a2 a3; case: (h4 a1 a2 a3).
set dp := if auto_dtau then _ else _; case edp: dp => [dtau pred].
set dyn := [&& _, _ & _].
apply: IH; first by clear -e; lia.
split=> /=.
- by rewrite isteps_rcons isteps_rcons_cb size_rcons h1.
- rewrite isteps_rcons isteps_rcons_cb icbs_rcons icbs_rcons_cb ecb; apply/eq_in_map => j; rewrite mem_iota => ji.
  by rewrite map_rcons -cats1 takel_cat // size_map h1; clear -ji; lia.
- by rewrite isteps_rcons isteps_rcons_cb map_rcons -cats1 big_cat big_seq1 h3.
- move=> a1 a2 a3; have [b1 b2] := h4 a1 a2 a3.
  have sd : safe dtau.
    have := C39_interval (io_eta ops s) (i_h x - io_h ops s) (i_pred x) a2 b1.
    by move: edp; rewrite /dp a1 => ->.
  by split=> //; rewrite isteps_rcons isteps_rcons_cb map_rcons all_rcons b2 andbT.
- rewrite isteps_rcons isteps_rcons_cb => a b; rewrite size_rcons h1 => /andP[ab bi].
  rewrite !nth_rcons h1 (_ : (a < i)%N); last by clear -ab bi; lia.
  case: (ltnP b i) => bi'; first by apply: h5; rewrite h1 ab.
  rewrite (_ : b == i) /=; last by clear -bi bi'; lia.
  move=> ha /and3P[_ _ /eqP w0]; have := h6 a; rewrite w0; move=> /(_ _ ha); clear -ab bi bi'; lia.
- move=> a ai; rewrite isteps_rcons isteps_rcons_cb nth_rcons h1; case: (ltnP a i) => ai'.
    by move=> ha; have := h6 a ai' ha; case: ifP => _; clear -ai'; lia.
  by rewrite (_ : a == i) /=; [move=> ->; clear -ai ai'; lia | clear -ai ai'; lia].
Qed.
Theorem C55_im_time n s : result n (run n%:Z s).1 (run n%:Z s).2.
Proof.
apply: loopP; first by rewrite add0n.
by split=> //=; rewrite ?big_nil // => a b; rewrite ltn0 andbF.
Qed.
Theorem C55_im_time_negative k s : k < 0 -> (run k s).1 = 0%N /\ i_sys (run k s).2 = s.
Proof. by case: k. Qed.
Theorem C39_whole_run n s : auto_dtau -> 0 < base -> safe dtau0 -> all safe (sizes (run n%:Z s).2).
Proof. exact: r_safe (C55_im_time n s). Qed.
End C55.

Section C55b.
Variables (R : rcfType) (S : Type) (ops : cops S).
(* conjugate gradient: at most max_itr steps, one less than the reported count, early end only when converged *)
Theorem C55_conj_grad n s (r := opt_cg ops n%:Z s) :
  [/\ (0 < r.1.1 <= n.+1)%N, r.1.2 = r.1.1.-1 & (r.1.1 <= n)%N -> co_conv ops r.2].
Proof.
rewrite {}/r.
suff gen rem i steps t : (i + rem = n)%N -> steps = i -> let r := cg_loop ops n rem i steps t in
    [/\ (0 < r.1.1 <= n.+1)%N, r.1.2 = r.1.1.-1 & (r.1.1 <= n)%N -> co_conv ops r.2].
  by apply: gen; rewrite ?add0n.
elim: rem i steps t => [|rem IH] i steps t e es; rewrite [cg_loop _ _ _ _ _ _]/= -/(cg_loop _ _ _ _ _ _).
  by rewrite (_ : i == n) ?orbT /=; [split=> //; lia | lia].
rewrite (_ : (i == n) = false) ?orbF; last by lia.
by case: ifP => c /=; [split=> //; lia | apply: IH; lia].
Qed.
Theorem C55_conj_grad_negative k s : k < 0 -> opt_cg ops k s = (0%N, 0%N, s).
Proof. by case: k. Qed.
Theorem C55_first_step (h : R) p : 0 <= h -> h * 5%:R <= cg_h h p <= h * 15%:R.
Proof.
move=> h0; have c : h * 5%:R <= h * 15%:R by rewrite ler_wpmul2l // ler_nat.
case: p => [p|] /=; last by rewrite c lexx.
by rewrite le_minr le_minl le_maxr !lexx c !orbT.
Qed.
End C55b.

Section C55c.
Variables (S : Type) (im cg : int -> S -> nat * nat * S) (conv : S -> bool) (im_gap gap_every : nat).
(* the contract C55_im_time and C55_conj_grad establish for the two sub-optimisers *)
Definition counts (f : int -> S -> nat * nat * S) := forall k s, let r := f k s in
  if k is Posz n then (0 < r.1.1 <= n.+1)%N /\ r.1.2 = r.1.1.-1 else r.1.1 = 0%N /\ r.1.2 = 0%N.
Hypotheses (him : counts im) (hcg : counts cg).
(* the outer loop always ends, within max_itr turns; the count and the number of steps are bounded *)
Theorem C55_grad_descent max_itr s : exists r, [/\ gd_loop im cg conv im_gap gap_every max_itr max_itr 0 0 s = Some r,
  (r.1.1 <= max_itr.+1)%N & (r.1.2 <= max_itr)%N].
Proof.
suff gen fuel j steps t : (max_itr <= fuel + j)%N -> (j <= max_itr.+1)%N -> (steps <= j)%N -> (steps <= max_itr)%N ->
   exists r, [/\ gd_loop im cg conv im_gap gap_every fuel max_itr j steps t = Some r, (r.1.1 <= max_itr.+1)%N & (r.1.2 <= max_itr)%N].
  by apply: gen; rewrite ?addn0.
elim: fuel j steps t => [|fuel IH] j steps t hf hj hs hs2 /=.
  by rewrite (_ : (j < max_itr)%N = false); [exists (j, steps, t) | lia].
case: (ltnP j max_itr) => jm; last by exists (j, steps, t).
have := him (Num.min im_gap%:Z (max_itr%:Z - j%:Z)) t.
have -> : Num.min im_gap%:Z (max_itr%:Z - j%:Z) = (minn im_gap (max_itr - j))%:Z by lia.
case: (im _ _) => [[d1 st1] t1] /= [c1 c2].
have := hcg (Num.min gap_every%:Z (max_itr%:Z - (j + d1)%N%:Z)) t1.
case: (leqP (j + d1) max_itr) => jd.
  have -> : Num.min gap_every%:Z (max_itr%:Z - (j + d1)%N%:Z) = (minn gap_every (max_itr - (j + d1)))%:Z by lia.
  case: (cg _ _) => [[d2 st2] t2] /= [c3 c4].
  case: (conv t2); first by exists ((j + d1 + d2)%N, (steps + st1 + st2)%N, t2); split=> //=; lia.
  by apply: IH; lia.
have [k ->] : exists k, Num.min gap_every%:Z (max_itr%:Z - (j + d1)%N%:Z) = Negz k by exists (j + d1 - max_itr).-1; lia.
case: (cg _ _) => [[d2 st2] t2] /= [c3 c4].
case: (conv t2); first by exists ((j + d1 + d2)%N, (steps + st1 + st2)%N, t2); split=> //=; lia.
by apply: IH; lia.
Qed.
End C55c.
(* the reported count can be max_itr + 1: one iteration too many *)
Theorem C55_limit_exceeded_refuted : exists f : int -> unit -> nat * nat * unit, counts f /\
  gd_loop f f (fun _ => false) 5 1 1 1 0 0 tt = Some (2, 1, tt)%N.
Proof.
by exists (fun k s => if k is Posz n then (n.+1, n, tt) else (0%N, 0%N, tt)); split=> // -[n|n] s /=; rewrite ?ltnSn.
Qed.

(* ---- C53 ---- *)
Section C53.
Variable X : Type.
Implicit Types A : seq (arr X).
(* reading back a packed state restores every tensor, for all shapes *)
Theorem C53_roundtrip A A' : [seq a_shape a | a <- A] = [seq a_shape a | a <- A'] -> all (@wf X) A -> all (@wf X) A' ->
  from_vec A (to_vec A') = Some A'.
Proof.
elim: A A' => [|[sh d] A IH] [|[sh' d'] A'] //= [<- es] /andP[/eqP w wA] /andP[/eqP w' wA'].
rewrite /= in w w'; rewrite /to_vec /= w -w' take_size_cat // eqxx drop_size_cat //.
by rewrite -/(to_vec A') IH.
Qed.
(* a vector of the right length is stored without loss *)
Theorem C53_inverse A y : size y = size (to_vec A) ->
  exists2 A', from_vec A y = Some A' & to_vec A' = y /\ [seq a_shape a | a <- A'] = [seq a_shape a | a <- A].
Proof.
elim: A y => [|[sh d] A IH] y /=; first by move/size0nil=> ->; exists [::].
rewrite /to_vec /= size_cat -/(to_vec A) => hs.
have ht : size (take (size d) y) = size d by rewrite size_takel // hs leq_addr.
have [|A' e1 [e2 e3]] := IH (drop (size d) y); first by rewrite size_drop hs addKn.
rewrite ht eqxx e1; eexists; first by [].
by rewrite /= e3; split=> //; rewrite -/(to_vec A') e2 cat_take_drop.
Qed.
(* too short a vector raises, too long a vector is silently cut *)
Theorem C53_too_short A y : (size y < size (to_vec A))%N -> from_vec A y = None.
Proof.
elim: A y => [|[sh d] A IH] y //=; rewrite /to_vec /= size_cat -/(to_vec A) => hs.
case: eqP => // ht; rewrite IH // size_drop.
have : (size d <= size y)%N by rewrite -ht size_take; case: ifP => // /ltnW.
by lia.
Qed.
End C53.
(* evolve_scipy_ode (263-314): the flag is_first_call_in_step is a one-element list read as flag[0]; the loop
   rebinds the name to a bool (line 311), which ifunc then subscripts: TypeError *)
Inductive pyval := PyList of bool | PyBool of bool.
Definition subscript0 (v : pyval) : option bool := if v is PyList b then Some b else None.
(* one evaluation of ifunc *)
Definition ifunc (flag : pyval) : option pyval := if subscript0 flag is Some _ then Some (PyList false) else None.
Fixpoint ifuncs (k : nat) flag := if k is k'.+1 then (if ifunc flag is Some f then ifuncs k' f else None) else Some flag.
(* running i: the solver's status before step i; calls i: how often step i evaluates ifunc (RK45: at least once);
   calls0: evaluations made by the constructor.  Result: number of completed steps, None for an exception *)
Fixpoint ode_loop (running : nat -> bool) (calls : nat -> nat) (rem i : nat) (flag : pyval) : option nat :=
  if rem is rem'.+1 then
    if ~~ running i then Some i else
    if ifuncs (calls i) (PyBool true) is Some f then ode_loop running calls rem' i.+1 f else None
  else Some i.
Definition evolve_scipy_ode running calls calls0 max_steps : option nat :=
  if ifuncs calls0 (PyList true) is Some f then ode_loop running calls max_steps 0 f else None.
Theorem C53_ode_driver_refuted (running : nat -> bool) calls calls0 max_steps : (0 < max_steps)%N -> running 0%N -> (0 < calls 0)%N ->
  evolve_scipy_ode running calls calls0 max_steps = None.
Proof.
move=> m0 r0 c0; rewrite /evolve_scipy_ode; case: (ifuncs _ _) => // f.
case: max_steps m0 => // m _ /=; rewrite r0 /=.
by case: (calls 0%N) c0.
Qed.

(* ---- examples ---- *)
Section Examples.
Variable R : rcfType.
(* two Euler steps of size dt with expansion, system = number of steps made, D_max reached after one step *)
Definition ex_ops : sysops R nat := {| so_upd := id; so_cb := fun _ s => s; so_euler := fun _ _ s => s.+1;
  so_rk := fun _ s => s.+1; so_lessD := fun s => (s < 1)%N |}.
Example C38_example (dt : R) : evolve ex_ops true dt Euler true 2%:Z 0%N =
  (2%N, [:: Upd; CB 0; StepE dt true; Upd; CB 1; StepE dt false; Upd; CB 2]).
Proof. by []. Qed.
Example C38_example_rk (dt : R) : evolve ex_ops false dt RK4 true 2%:Z 0%N =
  (3%N, [:: Upd; StepE (dpow dt) true; Upd; StepRK (dt - dpow dt); Upd; StepRK dt; Upd]).
Proof. by []. Qed.
Example C38_example_time : ((3%:R : R) <= (7%:R : R) / 2%:R < (4%:R : R))%R.
Proof. by rewrite ler_pdivl_mulr ?ltr_pdivr_mulr ?ltr0n // -!natrM ler_nat ltr_nat. Qed.
Example C39_example : safe (100%:R : R) 1 /\ (autostep 1 (100%:R : R) 1 (-1) 1).1 = 1.
Proof.
split; first by rewrite /safe divff ?pnatr_eq0 // lexx -natrM ler1n.
rewrite C39_energy_rise ?ltr01 ?divff ?pnatr_eq0 // ler_oppl opprK /e13.
rewrite ler_pdivr_mulr ?exprn_gt0 ?ltr0n // mul1r exprS.
by apply: (@le_trans _ _ 10%:R); rewrite ?ler_nat // ler_pmulr ?ltr0n // exprn_ege1 // ler1n.
Qed.
(* the gradient norm drops below tol after two steps; expansion from D = 1 to D = 2 happens in the first step *)
Definition ex_iops : iops R (nat * nat) := {| io_upd := id; io_cb := fun _ _ s => s;
  io_step := fun d dyn s => (s.1.+1, s.2 + dyn)%N; io_eta := fun s => (s.1 < 2)%:R; io_h := fun _ => 0; io_D := fun s => s.2 |}.
Example C55_example : (opt_im_time ex_iops 1 1 (2%:R : R) false 2 2%:R 1 3%:Z (0, 1)%N).1 = 3%N /\
  isteps (i_log (opt_im_time ex_iops 1 1 (2%:R : R) false 2 2%:R 1 3%:Z (0, 1)%N).2) = [:: (2%:R, true); (2%:R, false)].
Proof. by rewrite /= /im_conv /= ltxx ltr01 ltr1n /=; split. Qed.
Example C53_example : from_vec [:: Arr [:: 2; 1; 1]%N [:: 0; 0] ; Arr [:: 1; 1; 2]%N [:: 0; 0 : R]]
    (to_vec [:: Arr [:: 2; 1; 1]%N [:: 1; 0]; Arr [:: 1; 1; 2]%N [:: 0; 1 : R]])
  = Some [:: Arr [:: 2; 1; 1]%N [:: 1; 0]; Arr [:: 1; 1; 2]%N [:: 0; 1 : R]] /\ wf (Arr [:: 2; 1; 1]%N [:: 1; 0 : R]).
Proof. by split=> //; rewrite /wf /= !big_cons big_nil. Qed.
Example C53_example_ode : evolve_scipy_ode (fun _ => true) (fun _ => 6%N) 2 10 = None.
Proof. by []. Qed.
End Examples.

Print Assumptions C38_trace.
Print Assumptions C38_total_time.
Print Assumptions C38_reached_time.
Print Assumptions C38_replay.
Print Assumptions C38_expansion_flag.
Print Assumptions C38_unknown_integrator_refuted.
Print Assumptions C38_rk4_remainder.
Print Assumptions C38_rk4_backwards_refuted.
Print Assumptions C38_float_step_count_refuted.
Print Assumptions C39_interval.
Print Assumptions C39_energy_rise.
Print Assumptions C39_first_call.
Print Assumptions C39_whole_run.
Print Assumptions C55_im_time.
Print Assumptions C55_conj_grad.
Print Assumptions C55_first_step.
Print Assumptions C55_grad_descent.
Print Assumptions C55_limit_exceeded_refuted.
Print Assumptions C53_roundtrip.
Print Assumptions C53_inverse.
Print Assumptions C53_too_short.
Print Assumptions C53_ode_driver_refuted.
