(* Krylov.v -- evoMPS/sexpmv.py: gexpmv (18-228).
   Part 1: the step-size controller, with the linear algebra behind oracles.
   Part 2: the Arnoldi loop (87-114) and the reduced problem, in exact arithmetic. *)
From mathcomp Require Import all_ssreflect all_algebra.
From mathcomp Require Import zify.
Set Implicit Arguments.
Unset Strict Implicit.
Unset Printing Implicit Defensive.
Import Order.TTheory GRing.Theory Num.Theory.
Local Open Scope ring_scope.

(* ---- the controller ---------------------------------------------------------------------------- *)
Section Control.
Variable R : realFieldType.
(* brk i: the Arnoldi loop of outer step i breaks down; est i t: the two error estimates p1, p2 for trial step
   t (lines 147-148); rnd: rounding to two significant digits (lines 64-65, 166-167, 195-196: log10, round,
   trunc); pw: x ** xm *)
Record koracle := KOracle { k_brk : nat -> bool; k_est : nat -> R -> R * R; k_rnd : R -> R; k_pw : nat -> R -> R }.
Variables (K : koracle) (m : nat) (tol rndoff t_out t_new0 : R) (mxstep : nat).
Definition delta : R := 12%:R / 10%:R.
Definition gamma : R := 9%:R / 10%:R.
(* lines 147-158: the local error and the exponent xm = 1/m or 1/(m-1), here its denominator;
   1.0/(m-1) raises ZeroDivisionError for m = 1 *)
Definition errloc (p : R * R) : option (R * nat) :=
  if p.1 > 10%:R * p.2 then Some (p.2, m)
  else if p.1 > p.2 then Some (p.1 * p.2 / (p.1 - p.2), m)
  else if (m == 1)%N then None else Some (p.1, m.-1).
Definition newstep (t err : R) (d : nat) : R := k_rnd K (gamma * t * k_pw K d (t * tol / err)).
(* lines 135-184: the loop over trial steps (mxreject = 0: no limit).  None: exception or fuel exhausted *)
Fixpoint trial (fuel i : nat) (t : R) : option (R * R * nat) :=
  if errloc (k_est K i t) is Some (err, d) then
    if err > delta * t * tol then
      if fuel is fuel'.+1 then trial fuel' i (newstep t err d) else None
    else Some (t, err, d)
  else None.
Record kst := KSt { t_now : R; t_new : R; nstep : nat; acc : seq R; errs : seq R; brkd : bool }.
(* lines 73-226; d0 is the exponent left over from the initialisation (xm = 1/m), used after a breakdown *)
Fixpoint outer (fuel : nat) (s : kst) : option kst :=
  if t_now s < t_out then
    if fuel is fuel'.+1 then
      let i := (nstep s).+1 in
      let r := if k_brk K i then Some (t_out - t_now s, tol, m)   (* breakdown: err_loc = tol *)
               else trial fuel i (Num.min (t_out - t_now s) (t_new s)) in
      if r is Some (t, err, d) then
        let s' := KSt (t_now s + t) (newstep t err d) i (rcons (acc s) t) (rcons (errs s) (Num.max err rndoff))
                      (brkd s || k_brk K i) in
        if (mxstep == 0)%N || (i < mxstep)%N then outer fuel' s' else Some s'
      else None
    else None
  else Some s.
(* lines 33-42 and 228; n = A.shape[0].  Result: converged?, nstep, breakdown?, (x_error, s_error), state *)
Definition gexpmv (fuel n : nat) : option (bool * nat * bool * (R * R) * kst) :=
  if (n <= m)%N || (m == 0)%N then None else
  if outer fuel (KSt 0 t_new0 0 [::] [::] false) is Some s then
    Some ((nstep s < mxstep)%N, nstep s, brkd s, (foldl Num.max 0 (errs s), \sum_(e <- errs s) e), s)
  else None.

(* contracts of the oracles: rounding keeps at least two digits (trunc(x/p1 + 0.55) * p1 with 6 <= x/p1, which
   follows from p1 = 10**(round(log10(x) - sqrt(0.1)) - 1)), the power is between 0 and 1 on (0,1] *)
Definition rnd_ok := forall x, 0 < x -> exists p1 (N : nat),
  [/\ 0 < p1, k_rnd K x = N%:R * p1, N%:R <= x / p1 + 55%:R / 100%:R, x / p1 + 55%:R / 100%:R < N.+1%:R & 6%:R <= x / p1].
Definition pw_ok := forall d x, (0 < x -> 0 < k_pw K d x) /\ (0 < x <= 1 -> k_pw K d x <= 1).
Hypotheses (hr : rnd_ok) (hp : pw_ok) (tol0 : 0 < tol).
Lemma rnd_pos x : 0 < x -> 0 < k_rnd K x.
Proof.
move=> x0; have [p [N [p0 -> h1 h2 h3]]] := hr x0; rewrite mulr_gt0 // ltr0n lt0n; apply/negP => /eqP N0.
move: h2; rewrite N0.
apply/negP; rewrite -leNgt; apply: (@le_trans _ _ 6%:R); first by rewrite ler1n.
by rewrite (le_trans h3) // ler_addl divr_ge0 ?ler0n.
Qed.
Lemma rnd_le x : 0 < x -> k_rnd K x <= 110%:R / 100%:R * x.
Proof.
move=> x0; have [p [N [p0 -> h1 _ h3]]] := hr x0.
rewrite -ler_pdivl_mulr //; apply: (le_trans h1); rewrite -(mulrA (110%:R / 100%:R)).
have -> : 110%:R / 100%:R * (x / p) = x / p + 10%:R / 100%:R * (x / p).
  by rewrite -{2}[x / p]mul1r -mulrDl; congr (_ * _); rewrite -[110%N]/(100 + 10)%N natrD mulrDl divff // pnatr_eq0.
rewrite ler_add2l; apply: (@le_trans _ _ (10%:R / 100%:R * 6%:R)); last by rewrite ler_wpmul2l // divr_ge0 ?ler0n.
by rewrite mulrAC ler_wpmul2r ?invr_ge0 ?ler0n // -natrM ler_nat.
Qed.
Lemma newstep_pos t err d : 0 < t -> 0 < err -> 0 < newstep t err d.
Proof.
move=> t0 e0; have [pp _] := hp d (t * tol / err).
have y0 : 0 < t * tol / err by rewrite divr_gt0 ?mulr_gt0.
apply: rnd_pos; apply: mulr_gt0; last exact: pp.
by rewrite mulr_gt0 // divr_gt0 ?ltr0n.
Qed.
(* a rejected step is followed by a strictly smaller one *)
Lemma newstep_lt t err d : 0 < t -> delta * t * tol < err -> newstep t err d < t.
Proof.
move=> t0 he; have d1 : 1 < delta by rewrite ltr_pdivl_mulr ?ltr0n // mul1r ltr_nat.
have d0 : 0 < delta := lt_trans ltr01 d1.
have e0 : 0 < err by apply: lt_trans he; rewrite mulr_gt0 // mulr_gt0.
have y0 : 0 < t * tol / err by rewrite divr_gt0 ?mulr_gt0.
have y1 : t * tol / err <= 1.
  rewrite ler_pdivr_mulr // mul1r; apply: ltW; apply: le_lt_trans he.
  by rewrite -[delta * _ * _]mulrA ler_pmull ?mulr_gt0 // ltW.
have [pp p1] := hp d (t * tol / err).
have {}p1 : k_pw K d (t * tol / err) <= 1 by apply: p1; rewrite y0.
have g0 : 0 < gamma * t by rewrite mulr_gt0 // divr_gt0 ?ltr0n.
have x0 : 0 < gamma * t * k_pw K d (t * tol / err) by rewrite mulr_gt0 ?pp.
apply: (le_lt_trans (rnd_le x0)); rewrite mulrA; apply: (@le_lt_trans _ _ (110%:R / 100%:R * (gamma * t))).
  rewrite -[X in _ <= X]mulr1 ler_wpmul2l // mulr_ge0 ?divr_ge0 ?ler0n //; exact: ltW.
rewrite mulrA gtr_pmull // /gamma mulf_div ltr_pdivr_mulr -?natrM ?ltr0n // mul1r ltr_nat.
by [].
Qed.
Definition est_ok := forall i t, 0 < (k_est K i t).1 /\ 0 < (k_est K i t).2.
Hypothesis he : est_ok.
Lemma errloc_pos i t err d : errloc (k_est K i t) = Some (err, d) -> 0 < err.
Proof.
have [h1 h2] := he i t; rewrite /errloc; case: ltP => _; first by case=> <-.
case: ltP => h; first by case=> <- _; rewrite divr_gt0 ?subr_gt0 // mulr_gt0.
by case: eqP => // _ [<-].
Qed.
Lemma trialP fuel i t t' err d : 0 < t -> trial fuel i t = Some (t', err, d) ->
  [/\ 0 < t', t' <= t, 0 < err & err <= delta * t' * tol].
Proof.
elim: fuel t => [|fuel IH] t t0 /=; case e: (errloc _) => [[er dd]|//]; case: ltP => h //.
- by case=> <- <- _; split=> //; exact: errloc_pos e.
- move/IH; case=> [|h1 h2 h3 h4]; first by apply: newstep_pos => //; exact: errloc_pos e.
  by split=> //; apply: (le_trans h2); apply: ltW; exact: newstep_lt.
- by case=> <- <- _; split=> //; exact: errloc_pos e.
Qed.
Record kinv (s : kst) : Prop := KInv {
  ki_sum : t_now s = \sum_(t <- acc s) t;
  ki_pos : all (fun t => 0 < t) (acc s);
  ki_le : 0 <= t_now s <= t_out;
  ki_new : 0 < t_new s;
  ki_len : size (acc s) = nstep s /\ size (errs s) = nstep s;
  ki_err : \sum_(e <- errs s) e <= delta * tol * t_now s + rndoff *+ nstep s + tol *+ brkd s;
  ki_brk : brkd s -> t_now s = t_out;
  ki_lim : (0 < mxstep)%N -> (nstep s <= mxstep)%N }.
Hypotheses (ro : 0 <= rndoff).
Lemma outerP fuel s s' : (t_now s < t_out -> ((0 < mxstep)%N -> (nstep s < mxstep)%N) /\ brkd s = false) -> kinv s ->
  outer fuel s = Some s' -> kinv s' /\ (t_now s' = t_out \/ ((0 < mxstep)%N /\ nstep s' = mxstep)).
Proof.
elim: fuel s => [|fuel IH] s hlim v; rewrite [outer _ _]/=.
  case: ltP => // h [<-]; split=> //; left; apply/eqP; rewrite eq_le h andbT.
  by case/andP: (ki_le v).
rewrite -/(outer fuel); case: ltP => h; last first.
  by case=> <-; split=> //; left; apply/eqP; rewrite eq_le h andbT; case/andP: (ki_le v).
have [hl hb] := hlim h.
set i := (nstep s).+1.
set r := if k_brk K i then _ else _.
case er: r => [[[t err] d]|//].
have [t0 tle e0 eb] : [/\ 0 < t, t <= t_out - t_now s, 0 < err & (if k_brk K i then t = t_out - t_now s /\ err = tol else err <= delta * t * tol)].
  move: er; rewrite /r; case: (k_brk K i).
    by case=> <- <- _; rewrite subr_gt0 lexx.
  have m0 : 0 < Num.min (t_out - t_now s) (t_new s) by rewrite lt_minr subr_gt0 h (ki_new v).
  move=> hh; have [h1 h2 h3 h4] := @trialP fuel.+1 i _ t err d m0 hh.
  by split=> //; apply: (le_trans h2); rewrite le_minl lexx.
set s1 := KSt _ _ _ _ _ _.
have v1 : kinv s1.
  have [h1 h2 h3 h4 [h5 h6] h7 h8 h9] := v.
  split=> /=.
  - by rewrite -cats1 big_cat big_seq1 /= h1.
  - by rewrite all_rcons t0.
  - case/andP: h3 => h3 h3'; by rewrite addr_ge0 ?(ltW t0) //= addrC -ler_subr_addr.
  - exact: newstep_pos.
  - by rewrite !size_rcons h5 h6.
  - rewrite -cats1 big_cat big_seq1 /= hb orFb mulrDr mulrSr.
    move: h7; rewrite hb mulr0n addr0 => h7.
    have hm : Num.max err rndoff <= err + rndoff by rewrite le_maxl ler_addl ro ler_addr ltW.
    have he' : err <= delta * tol * t + tol *+ k_brk K i.
      move: eb; case: (k_brk K i) => [[_ ->]|eb]; last by rewrite mulr0n addr0 mulrAC.
      by rewrite mulr1n ler_addr !mulr_ge0 ?invr_ge0 ?ler0n // ltW.
    apply: (le_trans (ler_add h7 (le_trans hm (ler_add he' (lexx _))))).
    by rewrite [_ + tol *+ _ + _]addrAC !addrA ler_add2r [_ + rndoff *+ _ + _]addrAC.
  - rewrite hb /= => hk; move: eb; rewrite hk => -[-> _]; by rewrite addrC subrK.
  - by move=> mx; apply: hl.
case: ifP => c.
  apply: IH => // h'; split; last first.
    rewrite /= hb /=; apply/negP => hk; move: eb; rewrite hk => -[et _].
    by move: h'; rewrite /= et addrC subrK ltxx.
  by move=> mx /=; case/orP: c => // /eqP e; rewrite e in mx.
case=> <-; split=> //; right => /=; move/negbT: c; rewrite negb_or -lt0n -leqNgt => /andP[mx hi]; split=> //.
by apply/eqP; rewrite eqn_leq hi andbT; exact: hl.
Qed.
End Control.

(* ---- the Arnoldi loop -------------------------------------------------------------------------- *)
Section Arnoldi.
Variables (C : numClosedFieldType) (n : nat) (A : 'M[C]_n) (tol : C).
Implicit Types (u v w : 'cV[C]_n) (vs : seq 'cV[C]_n).
(* sp.vdot, la.norm *)
Definition vdot u v : C := \sum_i (u i ord0)^* * v i ord0.
Definition nrm v : C := sqrtC (vdot v v).
(* lines 99-104: subtract the overlaps one after the other *)
Fixpoint mgs vs w : seq C * 'cV[C]_n :=
  if vs is v :: vs' then
    let h := vdot v w in let: (hs, w') := mgs vs' (w - h *: v) in (h :: hs, w')
  else ([::], w).
(* lines 95-119; cols: the columns of H; true: breakdown *)
Fixpoint arnoldi (m : nat) vs (cols : seq (seq C)) : seq 'cV[C]_n * seq (seq C) * bool :=
  if m is m'.+1 then
    let: (hs, w) := mgs vs (A *m last 0 vs) in
    let h := nrm w in
    if h <= tol then (vs, rcons cols hs, true)
    else arnoldi m' (rcons vs (h^-1 *: w)) (rcons cols (rcons hs h))
  else (vs, cols, false).
Definition hent (cols : seq (seq C)) i j : C := nth 0 (nth [::] cols j) i.
(* H[:mx,:mx] after a breakdown (mx = mbrkdwn), and without one (mx = m+2, H[m+1,m] = 1) *)
Definition Hred k cols : 'M[C]_k := \matrix_(i, j) hent cols i j.
Definition Hcor m cols : 'M[C]_(m.+2) :=
  \matrix_(i, j) if (i == m.+1 :> nat) && (j == m :> nat) then 1 else hent cols i j.

Lemma vdotDr u v w : vdot u (v + w) = vdot u v + vdot u w.
Proof. by rewrite /vdot -big_split; apply: eq_bigr => i _; rewrite mxE mulrDr. Qed.
Lemma vdotZr u a v : vdot u (a *: v) = a * vdot u v.
Proof. by rewrite /vdot big_distrr; apply: eq_bigr => i _; rewrite mxE mulrCA. Qed.
Lemma vdotNr u v : vdot u (- v) = - vdot u v.
Proof. by rewrite -scaleN1r vdotZr mulN1r. Qed.
Lemma vdotC u v : vdot u v = (vdot v u)^*.
Proof. by rewrite /vdot rmorph_sum; apply: eq_bigr => i _; rewrite rmorphM conjCK mulrC. Qed.
Lemma vdotZl u a v : vdot (a *: u) v = a^* * vdot u v.
Proof. by rewrite vdotC vdotZr rmorphM -vdotC. Qed.
Lemma vdot_ge0 v : 0 <= vdot v v.
Proof. by apply: sumr_ge0 => i _; rewrite mulrC mul_conjC_ge0. Qed.
Lemma nrm_ge0 v : 0 <= nrm v. Proof. by rewrite sqrtC_ge0 vdot_ge0. Qed.
Lemma nrm_sq v : nrm v * nrm v = vdot v v. Proof. by rewrite -expr2 sqrtCK. Qed.
Lemma nrm_eq0 v : (nrm v == 0) = (v == 0).
Proof.
rewrite sqrtC_eq0; apply/eqP/eqP => [h|->]; last by rewrite /vdot big1 // => i _; rewrite mxE mulr0.
have /psumr_eq0P h0 : forall i, true -> 0 <= (v i ord0)^* * v i ord0 by move=> i _; rewrite mulrC mul_conjC_ge0.
apply/colP => i; rewrite mxE; apply/eqP; rewrite -mul_conjC_eq0 mulrC; apply/eqP; exact: h0.
Qed.
Definition orthonormal vs := forall i j, (i < size vs)%N -> (j < size vs)%N ->
  vdot (nth 0 vs i) (nth 0 vs j) = (i == j)%:R.
Lemma mgs_size vs w : size (mgs vs w).1 = size vs.
Proof. by elim: vs w => // v vs IH w /=; move: (IH (w - vdot v w *: v)); case: (mgs _ _) => hs w' /= ->. Qed.
Lemma mgs_sum vs w : w = \sum_(i < size vs) nth 0 (mgs vs w).1 i *: nth 0 vs i + (mgs vs w).2.
Proof.
elim: vs w => [|v vs IH] w /=; first by rewrite big_ord0 add0r.
move: (IH (w - vdot v w *: v)); case: (mgs _ _) => hs w' /= e.
by rewrite big_ord_recl /= -addrA -e addrC subrK.
Qed.
Lemma mgs_perp vs w u : (forall i, (i < size vs)%N -> vdot u (nth 0 vs i) = 0) -> vdot u (mgs vs w).2 = vdot u w.
Proof.
elim: vs w => [|v vs IH] w h //=; have := IH (w - vdot v w *: v); case: (mgs _ _) => hs w' /= ->.
  by rewrite vdotDr vdotNr vdotZr (h 0%N) // mulr0 subr0.
by move=> i hi; apply: (h i.+1).
Qed.
Lemma mgs_orth vs w : orthonormal vs -> forall i, (i < size vs)%N -> vdot (nth 0 vs i) (mgs vs w).2 = 0.
Proof.
elim: vs w => [|v vs IH] w o //= i hi.
have o' : orthonormal vs by move=> a b ha hb; exact: (o a.+1 b.+1).
have := IH (w - vdot v w *: v) o'.
have := @mgs_perp vs (w - vdot v w *: v) v.
case: (mgs _ _) => hs w' /= h1 h2; case: i hi => [|i] hi; last exact: h2.
rewrite h1; last by move=> j hj; have := o 0%N j.+1; apply.
by rewrite vdotDr vdotNr vdotZr (o 0%N 0%N) // mulr1 subrr.
Qed.
Lemma orthonormal_rcons vs w : orthonormal vs -> (forall i, (i < size vs)%N -> vdot (nth 0 vs i) w = 0) -> nrm w != 0 ->
  orthonormal (rcons vs ((nrm w)^-1 *: w)).
Proof.
move=> o p n0 i j; rewrite !size_rcons !ltnS !nth_rcons => hi hj.
have cn : ((nrm w)^-1)^* = (nrm w)^-1 by apply: conj_Creal; rewrite ger0_real // invr_ge0 nrm_ge0.
have nn : vdot ((nrm w)^-1 *: w) ((nrm w)^-1 *: w) = 1.
  by rewrite vdotZl vdotZr cn -nrm_sq [X in _ * X]mulrA mulVf // mul1r mulVf.
case: (ltnP i (size vs)) => hi'; case: (ltnP j (size vs)) => hj'.
- exact: o.
- have -> : j = size vs by lia.
  by rewrite eqxx vdotZr p // mulr0 (ltn_eqF hi').
- have -> : i = size vs by lia.
  by rewrite eqxx vdotZl vdotC p // rmorph0 mulr0 eq_sym (ltn_eqF hj').
- have -> : j = size vs by lia.
  have -> : i = size vs by lia.
  by rewrite !eqxx nn.
Qed.

(* A vs_j = sum_i H_ij vs_i for the columns found so far *)
Definition relation vs (cols : seq (seq C)) j :=
  A *m nth 0 vs j = \sum_(i < size vs) hent cols i j *: nth 0 vs i.
Record arn_ok vs cols : Prop := ArnOk {
  ao_size : size vs = (size cols).+1;
  ao_orth : orthonormal vs;
  ao_col : forall j, (j < size cols)%N -> size (nth [::] cols j) = j.+2;
  ao_rel : forall j, (j < size cols)%N -> relation vs cols j }.
Record brk_ok vs cols : Prop := BrkOk {
  bo_size : size vs = size cols;
  bo_pos : (0 < size vs)%N;
  bo_orth : orthonormal vs;
  bo_col : forall j, (j < size cols)%N -> (size (nth [::] cols j) <= j.+2)%N;
  bo_rel : forall j, (j < (size cols).-1)%N -> relation vs cols j;
  bo_res : exists2 w, A *m nth 0 vs (size cols).-1 =
             \sum_(i < size vs) hent cols i (size cols).-1 *: nth 0 vs i + w & nrm w <= tol }.
Lemma relation_rcons vs cols j v hs : (j < size cols)%N -> (j < size vs)%N -> (size (nth [::] cols j) <= size vs)%N ->
  relation vs cols j -> relation (rcons vs v) (rcons cols hs) j.
Proof.
move=> hj hv hc; rewrite /relation => e.
rewrite size_rcons big_ord_recr /= nth_rcons hv e /hent nth_rcons hj (nth_default 0 (s := nth [::] cols j)) // scale0r addr0.
by apply: eq_bigr => i _; rewrite nth_rcons ltn_ord.
Qed.
Lemma relation_cols vs cols j hs : (j < size cols)%N -> relation vs cols j -> relation vs (rcons cols hs) j.
Proof. by move=> hj; rewrite /relation => ->; apply: eq_bigr => i _; rewrite /hent nth_rcons hj. Qed.
Lemma arnoldiP m vs cols : 0 <= tol -> arn_ok vs cols -> let: (vs', cols', b) := arnoldi m vs cols in
  if b then brk_ok vs' cols' /\ (size vs' < size vs + m)%N else arn_ok vs' cols' /\ size cols' = (size cols + m)%N.
Proof.
move=> t0; elim: m vs cols => [|m IH] vs cols v /=; first by rewrite addn0.
have [h1 h2 h3 h4] := v.
have lastE : last 0 vs = nth 0 vs (size cols) by rewrite (last_nth 0) h1; case: (vs) h1.
have := mgs_sum vs (A *m last 0 vs); have := mgs_size vs (A *m last 0 vs); have := @mgs_orth vs (A *m last 0 vs) h2.
case: (mgs _ _) => hs w /= p sz e.
case: ifP => hw.
  split; last by rewrite addnS ltnS leq_addr.
  split; rewrite ?size_rcons ?h1 //.
  - move=> j; rewrite ltnS nth_rcons => hj; case: ltnP => hj'; first by rewrite h3.
    by rewrite (_ : j == size cols) ?sz ?h1; [lia | lia].
  - by move=> j hj; apply: relation_cols => //; apply: h4.
  - exists w => //; rewrite -lastE {1}e h1; congr (_ + _); apply: eq_bigr => i _.
    by rewrite /hent nth_rcons ltnn eqxx.
have n0 : nrm w != 0 by apply/negP => /eqP h0; move: hw; rewrite h0 t0.
have v' : arn_ok (rcons vs ((nrm w)^-1 *: w)) (rcons cols (rcons hs (nrm w))).
  split; rewrite ?size_rcons ?h1 //.
  - exact: orthonormal_rcons.
  - move=> j hj; rewrite nth_rcons; case: ltnP => hj'; first by rewrite h3.
    by rewrite (_ : j == size cols) ?size_rcons ?sz ?h1; [lia | lia].
  - move=> j hj; case: (ltnP j (size cols)) => hj'.
      apply: relation_rcons => //; [by rewrite h1; lia | by rewrite h3 // h1; lia | exact: h4].
    have -> : j = size cols by lia.
    have szc : size hs = (size cols).+1 by rewrite sz h1.
    rewrite /relation size_rcons h1 big_ord_recr nth_rcons h1 ltnSn -lastE.
    have hc i : hent (rcons cols (rcons hs (nrm w))) i (size cols) = nth 0 (rcons hs (nrm w)) i.
      by rewrite /hent nth_rcons ltnn eqxx.
    rewrite hc [nth 0 (rcons hs _) _]nth_rcons [nth 0 (rcons vs _) (nat_of_ord ord_max)]nth_rcons /= szc h1 ltnn eqxx.
    rewrite scalerA mulfV // scale1r {1}e h1; congr (_ + _); apply: eq_bigr => i _.
    by rewrite hc !nth_rcons szc h1 ltn_ord.
have := IH _ _ v'; case: (arnoldi _ _ _) => [[vs' cols'] []] /=; rewrite ?size_rcons => -[q1 q2]; split=> //; lia.
Qed.
End Arnoldi.

(* ---- reduced problems -------------------------------------------------------------------------- *)
Section Reduced.
Variables (C : numClosedFieldType) (n k : nat) (A : 'M[C]_n) (V : 'I_k -> 'cV[C]_n) (K : 'M[C]_k) (x0 : 'cV[C]_k).
Let lift (x : 'cV[C]_k) := \sum_(r < k) x r ord0 *: V r.
(* A V = V K on all columns: every power, hence every polynomial, is represented exactly *)
Lemma iter_invariant i : (forall j, A *m V j = \sum_(r < k) K r j *: V r) ->
  iter i (mulmx A) (lift x0) = lift (iter i (mulmx K) x0).
Proof.
move=> h; elim: i => // i IH; rewrite !iterS IH /lift mulmx_sumr.
under eq_bigr => j _ do rewrite -scalemxAr h scaler_sumr.
rewrite exchange_big; apply: eq_bigr => r _; rewrite mxE scaler_suml; apply: eq_bigr => j _.
by rewrite scalerA mulrC.
Qed.
(* A V = V K only on the first d columns, K upper Hessenberg: the powers up to d are exact *)
Lemma iter_hessenberg d i : (forall r c : 'I_k, (c.+1 < r)%N -> K r c = 0) -> (forall r : 'I_k, (0 < r)%N -> x0 r ord0 = 0) ->
  (forall j : 'I_k, (j < d)%N -> A *m V j = \sum_(r < k) K r j *: V r) -> (i <= d)%N ->
  iter i (mulmx A) (lift x0) = lift (iter i (mulmx K) x0).
Proof.
move=> hK hx h; have sup i' (r : 'I_k) : (i' < r)%N -> (iter i' (mulmx K) x0) r ord0 = 0.
  elim: i' r => [|i' IH] r hr; first exact: hx.
  rewrite iterS mxE big1 // => c _; case: (ltnP i' c) => hc; first by rewrite IH // mulr0.
  by rewrite hK ?mul0r //; lia.
elim: i => // i IH id; rewrite !iterS IH; last by lia.
rewrite /lift mulmx_sumr; set y := iter i _ x0.
have e j : A *m (y j ord0 *: V j) = \sum_(r < k) (y j ord0 * K r j) *: V r.
  rewrite -scalemxAr; case: (ltnP j d) => hj.
    by rewrite h // scaler_sumr; apply: eq_bigr => r _; rewrite scalerA.
  have y0 : y j ord0 = 0 by apply: sup; lia.
  by rewrite y0 scale0r big1 // => r _; rewrite mul0r scale0r.
under eq_bigr => j _ do rewrite e.
by rewrite exchange_big; apply: eq_bigr => r _; rewrite mxE scaler_suml; apply: eq_bigr => j _; rewrite mulrC.
Qed.
End Reduced.
