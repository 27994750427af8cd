(* P20_LineSearch.v -- C54: the line search leaves the state as it found it. *)
From mathcomp Require Import all_ssreflect all_algebra.
From mathcomp Require Import zify.
From Verif Require Import Base Spec Eps Chain ChainProofs ChainProofs2 LinAlg Canon Struct Trunc Tangent2 LineSearch.
Set Implicit Arguments.
Unset Strict Implicit.
Unset Printing Implicit Defensive.
Import Order.TTheory GRing.Theory Num.Theory.
Local Open Scope ring_scope.

Section C54.
Variables (R : numFieldType) (T : nat -> Type) (E X Y Z : Type) (N : nat) (sub : forall n, T n -> R -> T n -> T n).
Notation obj := (obj R T E X Y Z).
Notation tens := (forall n, T n).
Variables (BR : Type) (bracket : R -> R -> strat R (option BR)) (brent : BR -> strat R (option R)).
Section One.
Variables (ev : obj -> obj * (R * R)) (tv : bool).
Notation find := (find_min N sub ev tv bracket brent).

(* everything take_step needs is put back: tensors, l and r, C, K and H_expect *)
Definition restored (o o' : obj) := [/\ oA o' = oA o, olr o' = olr o, oC o' = oC o, oK o' = oK o & oH o' = oH o].
Lemma searchE B dt o s : exists tau h o', search N sub ev tv bracket brent B dt o s = (Pair tau h, o') /\ restored o o'.
Proof.
rewrite /search; case: (brackets _ _ _ _ _ _ _ _ _ _ _ _) => br s2.
set c := (X in let: (_, _) := X in _); case: c => [[tau h] s3].
by exists tau, h; eexists; split; first by [].
Qed.
(* for every search procedure, every direction and whatever the trial evaluations do to the object *)
Theorem C54_restore B dt o : exists tau h o', find B dt false o = (Pair tau h, o') /\ restored o o'.
Proof. exact: searchE. Qed.
(* skipIfLower: either the search goes on and restores, or the object stays in the first trial state and a bare number is
   returned *)
Theorem C54_skip B dt o : 0 < dt -> let: (r, o') := find B dt true o in
  match r with
  | Pair _ _ => restored o o'
  | Bare t => t = dt /\ o' = (ev (set_oA o (trialA N sub (oA o) B dt (oA o)))).1
  end.
Proof.
move=> d0; rewrite /find_min /feval lt_gtF // inE gt_eqF //.
case: (ev _) => [o1 [res h]] /=; case: ifP => _ //.
by have [t [h' [o' [-> r]]]] := searchE B dt o (Srch o1 [:: 0; dt] [:: if tv then oeta o else oH o; res] [:: oH o; h]).
Qed.
Theorem C54_skip_early B dt o : 0 < dt -> let t := ev (set_oA o (trialA N sub (oA o) B dt (oA o))) in
  t.2.1 < oH t.1 -> find B dt true o = (Bare dt, t.1).
Proof.
move=> d0 /= lt; rewrite /find_min /feval lt_gtF // inE gt_eqF //.
by case: (ev _) lt => [o1 [res h]] /= ->.
Qed.
(* two failed bracketing attempts: no step *)
Theorem C54_bracket_fails B dt o : (forall a b, exists k, bracket a b = Ask 0 k /\ forall v, k v = Done R None) ->
  exists o', find B dt false o = (Pair 0 (oH o), o').
Proof.
move=> hb; have hr a b A0 B' h0 s : (run N sub ev tv A0 B' h0 (bracket a b) s).1 = None.
  have [k [-> hk]] := hb a b => /=; case: (feval _ _ _ _ _ _ _ _ _) => v s' /=; by rewrite hk.
rewrite /find_min /search /=.
set c := (run _ _ _ _ _ _ _ (bracket _ _) _); have := hr _ _ _ _ _ _ : c.1 = None; case: c => -[//|] s1 _.
set c := (run _ _ _ _ _ _ _ (bracket _ _) _); have := hr _ _ _ _ _ _ : c.1 = None; case: c => -[//|] s2 _.
by eexists.
Qed.
End One.

(* ---- the returned energy ----------------------------------------------------------------------------------------- *)
(* Ef is the energy as a function of the tensors.  Trial evaluations compute it and leave the tensors alone up to changes
   (renormalisation of the last tensor) that do not matter for the energy *)
Variables (eqv : forall n, T n -> T n -> Prop) (Ef : tens -> R) (good : tens -> Prop).
Definition energy_setup (ev : obj -> obj * (R * R)) :=
  [/\ (forall n x, @eqv n x x) /\ (forall n x y z, @eqv n x y -> eqv y z -> eqv x z),
      forall A A', same N eqv A A' -> Ef A = Ef A' /\ (good A' -> good A),
      forall o, good (oA o) -> (ev o).2.2 = Ef (oA o),
      forall o, good (oA o) -> same N eqv (oA (ev o).1) (oA o) &
      forall n x b, @eqv n (sub x 0 b) x].
Definition step (A : tens) (B : dir T) tau := trialA N sub A B tau A.
Lemma step0 ev A B : energy_setup ev -> Ef (step A B 0) = Ef A.
Proof.
move=> [[rf tr] hs _ _ s0]; apply: (hs _ _ _).1 => n nN; rewrite /step /trialA nN.
by case: (B n) => [b|]; [apply: s0 | apply: rf].
Qed.
(* tau >= 0: h_min is the energy after the step tau; tau < 0 (a penalty value): it is the old energy *)
Theorem C54_value ev tv B dt o tau h o' : energy_setup ev -> oH o = Ef (oA o) ->
  (forall t, ~~ (t < 0) -> good (step (oA o) B t)) ->
  find_min N sub ev tv bracket brent B dt false o = (Pair tau h, o') ->
  h = if tau < 0 then oH o else Ef (step (oA o) B tau).
Proof.
move=> su h0 gd; have [[rf tr] hs ee ef s0] := su.
have h0' : oH o = Ef (step (oA o) B 0) by rewrite (step0 _ _ su).
have Es A A' sA := (hs A A' sA).1; have gs A A' sA := (hs A A' sA).2.
set s0' := Srch o [:: 0] [:: if tv then oeta o else oH o] [:: oH o].
have i0 : inv N sub eqv Ef (oA o) B (oH o) s0'.
  by split; [move=> n _ _; apply: rf | by [] | case=> [|//] _ /=; rewrite ltxx].
rewrite /find_min /search.
have := @brackets_inv R T E X Y Z N sub ev tv BR bracket eqv rf tr Ef good Es gs ee ef (oA o) B (oH o) gd 2
  (dt * 9%:R / 10%:R) (dt * 3%:R / 2%:R) s0' i0.
case: (brackets _ _ _ _ _ _ _ _ _ _ _ _) => br s2 /= i2.
case: br => [b|] /=; last by case=> <- <- _; rewrite ltxx.
have := @run_inv R T E X Y Z N sub ev tv eqv rf tr Ef good Es gs ee ef (oA o) B (oH o) gd _ (brent b) s2 i2.
case: (run _ _ _ _ _ _ _ _ _) => t s3 /= [_ sz hv].
case: t => [t|] /=; last by case=> <- <- _; rewrite ltxx.
case: ifP => [ti|_] [<- <- _]; last by rewrite ltxx.
by rewrite hv ?index_mem // nth_index.
Qed.
(* calc_B_CG: the state is restored; the direction is one of the two; and a nonnegative step never raises the energy *)
Theorem C54_cg ev_h ev_t Bs Bcg dt o : energy_setup ev_h -> oH o = Ef (oA o) -> (forall A, Ef A \is Num.real) ->
  (forall t, ~~ (t < 0) -> good (step (oA o) Bs t) /\ good (step (oA o) Bcg t)) ->
  exists B tau o', [/\ calc_B_CG N sub ev_h ev_t bracket brent Bs Bcg dt false o = Some (B, tau, o'), restored o o',
    B = Bs \/ B = Bcg & 0 <= tau -> Ef (step (oA o) B tau) <= Ef (oA o)].
Proof.
move=> su h0 re gd; rewrite /calc_B_CG.
have [tau [h [o1 [e1 r1]]]] := C54_restore ev_h false Bcg dt o; rewrite e1.
have v1 := C54_value su h0 (fun t t0 => (gd t t0).2) e1.
case: eqP => [t0|_].
  exists Bs, tau, o1; split=> //; first by left.
  by rewrite t0 => _; rewrite (step0 _ _ su).
have rh : h \is Num.real by rewrite v1; case: ifP => _; rewrite ?h0 re.
rewrite (_ : ~~ false && (oH o < h) = (oH o < h)) //; case: ifP => lt; last first.
  exists Bcg, tau, o1; split=> //; first by right.
  move=> t0; move: v1; rewrite le_gtF // => <-; rewrite -h0 real_leNgt ?h0 ?re // -h0; exact: negbT.
have [tau' [h' [o2 [e2 r2]]]] := C54_restore ev_h false Bs (dt / 10%:R) o1; rewrite e2.
have [a1 a2 a3 a4 a5] := r1; have [b1 b2 b3 b4 b5] := r2.
have h01 : oH o1 = Ef (oA o1) by rewrite a5 a1.
have v2 := C54_value su h01 _ e2; rewrite a1 in v2; move/(_ (fun t t0 => (gd t t0).1)): v2; rewrite a5 => v2.
exists Bs, (if oH o < h' then 0 else tau'), o2; split=> //; [|by left|].
  by rewrite /restored b1 b2 b3 b4 b5 a1 a2 a3 a4 a5.
case: ifP => lt' t0; first by rewrite (step0 _ _ su).
move: v2; rewrite le_gtF // => e; rewrite -e -h0 real_leNgt ?lt' ?h0 ?re //.
by rewrite e re.
Qed.
End C54.

(* ---- the trial evaluation of the finite chain, two-site terms (1030-1041) ---------------------------------------- *)
Section Chain.
Variables (C : numClosedFieldType) (D q : nat -> nat) (N : nat) (ham : nat -> op2s C).
Hypotheses (N0 : (0 < N)%N) (D0 : D 0%N = 1%N) (DN : D N = 1%N).
Definition Tn n := nat -> 'M[C]_(D n, D n.+1).
Notation bonds := (forall n, 'M[C]_(D n)).
Notation obj := (obj C Tn (bonds * bonds) unit unit unit).
Definition csub n (x : Tn n) (tau : C) (b : Tn n) : Tn n := fun s => x s - tau *: b s.
(* calc_l; calc_r; simple_renorm; calc_C; sum of expect_2s(ham[n], n).real *)
Definition chain_ev (o : obj) : obj * (C * C) :=
  let A := oA o in
  let l := calc_l q A (fun n => 1%:M) 0 N in let r := calc_r q A (fun n => 1%:M) 0 N in
  if simple_renorm (A : tensors C D) N true (fun n => SDense (l n)) (fun n => SDense (r n)) is Some (A', l', r') then
    let l1 := (fun n => toarray (l' n)) in let r1 := (fun n => toarray (r' n)) in
    let h := \sum_(n < N.-1) 'Re (expect_2s q A' l1 r1 (ham n) n) in
    (Obj (A' : forall n, Tn n) (l1, r1) tt tt tt (oH o) (oeta o), (h, h))
  else (o, (0, 0)).
Definition nrm2 (A : tensors C D) : C := \sum_(c <- cfgs q N 0) `|amplitude N A c| ^+ 2.
(* <psi|H|psi> / <psi|psi> *)
Definition energy (A : tensors C D) : C :=
  \sum_(n < N.-1) 'Re (dotst q N (psi A N) (op2 q n (ham n) (psi A N))) / nrm2 A.
Definition ceqv n (x y : Tn n) := exists2 k : C, 0 < k /\ (n != N.-1 -> k = 1) & forall s, x s = k *: y s.
Lemma nrm2_ge0 A : 0 <= nrm2 A.
Proof. by apply: sumr_ge0 => c _; rewrite exprn_ge0. Qed.
Lemma prop_energy (A A' : tensors C D) k : 0 < k -> (forall c, size c = N -> psi A N c = k *: psi A' N c) ->
  nrm2 A = k ^+ 2 * nrm2 A' /\ energy A = energy A'.
Proof.
move=> k0 h; have en : nrm2 A = k ^+ 2 * nrm2 A'.
  rewrite /nrm2 mulr_sumr; apply: eq_big_seq => c /size_cfgs sz.
  by rewrite /amplitude h // entry0Z normrM exprMn (ger0_norm (ltW k0)).
split=> //; rewrite /energy; apply: eq_bigr => n _.
have -> : dotst q N (psi A N) (op2 q n (ham n) (psi A N)) = k ^+ 2 * dotst q N (psi A' N) (op2 q n (ham n) (psi A' N)).
  rewrite !dotstE mulr_sumr; apply: eq_big_seq => c /size_cfgs sz.
  have -> : op2 q n (ham n) (psi A N) c = k *: op2 q n (ham n) (psi A' N) c.
    rewrite /op2 scaler_sumr; apply: eq_bigr => u _; rewrite scaler_sumr; apply: eq_bigr => v _.
    rewrite h ?scalerA 1?mulrC // !size_set_nth sz.
    by have nN := ltn_ord n; clear -nN N0; lia.
  by rewrite h // adotZl adotZr mulrA (CrealP (ger0_real (ltW k0))) -expr2.
have r2 : k ^+ 2 \is Num.real by rewrite rpredX // ger0_real // ltW.
rewrite ReMl // en; set x := 'Re _; set y := nrm2 A'; have k2 : k ^+ 2 != 0 by rewrite expf_neq0 // gt_eqF.
by rewrite invfM mulrACA mulfV // mul1r.
Qed.
Lemma same_psi (A A' : tensors C D) : same N ceqv A A' ->
  exists2 k, 0 < k & forall c, size c = N -> psi A N c = k *: psi A' N c.
Proof.
move=> h; have Nl : (N.-1 < N)%N by rewrite prednK.
have [k [k0 _] hk] := h _ Nl; exists k => // c sz.
rewrite (_ : psi A N c = psi (scale_site N.-1 k A') N c).
  by rewrite /psi amp_scale_site sz add0n leq0n Nl.
apply: eq_amp => m s _; rewrite sz add0n => mN; rewrite /scale_site.
case: (eqVneq m N.-1) => [e|ne]; first by move: hk; rewrite -e.
by have [k' [_ /(_ ne) ->] ->] := h m mN; rewrite scale1r.
Qed.
Lemma energy_real A : energy A \is Num.real.
Proof.
apply: rpred_sum => n _; rewrite realM ?Creal_Re // realV ger0_real //; exact: nrm2_ge0.
Qed.
(* the trial evaluation of the code meets the requirements of C54_value and C54_cg, for nonzero trial states *)
Theorem C54_chain_ev : energy_setup N csub ceqv energy (fun A => nrm2 A != 0) chain_ev.
Proof.
have evE (o : obj) : nrm2 (oA o) != 0 -> (chain_ev o).2.2 = energy (oA o) /\ same N ceqv (oA (chain_ev o).1) (oA o).
  move=> n0; set A := (oA o : tensors C D).
  have [hl hr] := @calc_lr_up_to_date C D q A N (fun n => 1%:M) (fun n => 1%:M) erefl erefl.
  have [A' [l' [r' [e ud _]]]] := @simple_renormP C D q A N
    (fun n => SDense (calc_l q A (fun n => 1%:M) 0 N n)) (fun n => SDense (calc_r q A (fun n => 1%:M) 0 N n))
    _ N0 D0 DN erefl (conj hl hr) n0.
  rewrite /chain_ev e /=.
  have g0 : 0 < nrm2 A by rewrite lt_def n0 nrm2_ge0.
  have sm : same N ceqv A' A.
    move: e; rewrite /simple_renorm /renorm_norm; set nm := 'Re _.
    have nE : nm = nrm2 A.
      by rewrite /nm (lN_norm D0 DN hl); apply/Creal_ReP; rewrite ger0_real ?nrm2_ge0.
    case=> <- _ _ m mN; rewrite nE.
    case: (eqVneq m N.-1) => [em|ne].
      exists (1 / sqrtC (nrm2 A)) => [|s]; last by rewrite /scale_site em eqxx.
      by split; [rewrite div1r invr_gt0 sqrtC_gt0 | rewrite em eqxx].
    by exists 1 => [|s]; [rewrite ltr01 | rewrite /scale_site (negPf ne) scale1r].
  split=> //; have [k k0 hk] := same_psi sm; have [_ <-] := prop_energy k0 hk.
  apply: eq_bigr => n _; have nN : (n.+1 < N)%N by have := ltn_ord n; clear -N0; lia.
  have [hl' hr'] := ud; rewrite (expect_2sE hl' hr') // bdotst1.
  suff -> : nrm2 A' = 1 by rewrite invr1 mulr1.
  have := (lN_norm D0 DN hl'); rewrite -/(nrm2 A') => <-.
  move: e; rewrite /simple_renorm /renorm_norm; set nm := 'Re _.
  have nE : nm = nrm2 A.
    by rewrite /nm (lN_norm D0 DN hl); apply/Creal_ReP; rewrite ger0_real ?nrm2_ge0.
  case=> _ <- _; rewrite eqxx /= entry0Z (lN_norm D0 DN hl) -/(nrm2 A) nE mulrC div1r mulfV //.
split.
- split=> [n x|n x y z [k [k0 k1] h] [k' [k0' k1'] h']].
    by exists 1 => [|s]; rewrite ?scale1r ?ltr01.
  exists (k * k') => [|s]; last by rewrite h h' scalerA.
  by split=> [|ne]; rewrite ?mulr_gt0 // k1 // k1' // mulr1.
- move=> A A' /same_psi [k k0 hk]; have [en ->] := prop_energy k0 hk; split=> //.
  by rewrite en => n0; rewrite mulf_neq0 // expf_neq0 // gt_eqF.
- by move=> o /evE [].
- by move=> o /evE [].
- by move=> n x b; exists 1 => [|s]; rewrite ?ltr01 ?scale1r // /csub scale0r subr0.
Qed.
(* conjugate gradient on the finite chain, the two-site Hamiltonian and the trial evaluation of the code: whatever the
   search procedure does, a nonnegative step along the returned direction does not raise <H>/<psi|psi> *)
Corollary C54_cg_chain BR (bracket : C -> C -> strat C (option BR)) (brent : BR -> strat C (option C)) ev_t
    (Bs Bcg : dir Tn) dt (o : obj) : oH o = energy (oA o) ->
  (forall t, ~~ (t < 0) -> nrm2 (step N csub (oA o) Bs t) != 0 /\ nrm2 (step N csub (oA o) Bcg t) != 0) ->
  exists B tau o', [/\ calc_B_CG N csub chain_ev ev_t bracket brent Bs Bcg dt false o = Some (B, tau, o'), restored o o',
    B = Bs \/ B = Bcg & 0 <= tau -> energy (step N csub (oA o) B tau) <= energy (oA o)].
Proof. by move=> h g; apply: (C54_cg bracket brent ev_t dt C54_chain_ev h energy_real g). Qed.
End Chain.

(* ---- one site holding a number, energy 100 x^2 --------------------------------------------------------------------- *)
Section Toy.
Variable R : numFieldType.
Definition tT (n : nat) := R : Type.
Notation obj := (obj R tT unit unit unit R).
Definition tsub n (x : tT n) (tau : R) (b : tT n) : tT n := (x : R) - tau * (b : R).
Definition tE (A : forall n, tT n) : R := 100%:R * (A 0%N : R) ^+ 2.
(* the trial evaluation stores AA as calc_C does *)
Definition tev (o : obj) : obj * (R * R) :=
  (Obj (oA o) (olr o) (oC o) (oK o) (oA o 0%N : R) (oH o) (oeta o), (tE (oA o), tE (oA o))).
Definition tob (x : R) : obj := Obj (fun n => (x : tT n)) tt tt tt x (100%:R * x ^+ 2) 0.
Definition tdir : dir tT := fun n => Some (1 : R).
(* evaluates its two points, then hands over *)
Definition tbracket (a b : R) : strat R (option unit) := Ask a (fun _ => Ask b (fun _ => Done R (Some tt))).
Definition tbrent (t : R) (_ : unit) : strat R (option R) := Ask t (fun _ => Done R (Some t)).
Lemma tsetup : energy_setup 1 tsub (fun _ => eq) tE (fun _ => True) tev.
Proof.
split=> // [|A A' s|n x b]; first by split=> [//|n x y z -> ->].
  by split=> //; rewrite /tE (s 0%N isT).
by rewrite /tsub mul0r subr0.
Qed.
Local Lemma t10 (a b : nat) : (10%:R * a%:R / b%:R : R) = (10 * a)%:R / b%:R. Proof. by rewrite natrM. Qed.
Local Lemma t9 : (10%:R * 9%:R / 10%:R : R) = 9%:R.
Proof. by rewrite mulrAC mulfV ?mul1r // pnatr_eq0. Qed.
Local Lemma t15 : (10%:R * 3%:R / 2%:R : R) = 15%:R.
Proof. by rewrite -natrM (_ : 10 * 3 = 15 * 2)%N // natrM mulfK // pnatr_eq0. Qed.
Lemma tfind x t : t \notin [:: 0; 9%:R; 15%:R] -> exists o',
  find_min 1 tsub tev false tbracket (tbrent t) tdir 10%:R false (tob x) =
    (Pair t (if t < 0 then 100%:R * x ^+ 2 else 100%:R * (x - t) ^+ 2), o') /\ (~~ (t < 0) -> oAA o' = x - t).
Proof.
rewrite !inE !negb_or => /and3P[t0 t9' t15'].
rewrite /find_min /search /= t9 t15 /feval.
rewrite ltrn0 (_ : (9%:R : R) \in [:: 0] = false) ?inE ?pnatr_eq0 //=.
rewrite ltrn0 (_ : (15%:R : R) \in [:: 0; 9%:R] = false) ?inE ?pnatr_eq0 ?eqr_nat //=.
case: ifP => tn /=.
  rewrite !inE eqxx !orbT /= !(eq_sym _ t) (negPf t0) (negPf t9') (negPf t15') ?eqxx /=.
  by eexists.
case: ifP => [|_]; first by rewrite !inE (negPf t0) (negPf t9') (negPf t15').
rewrite (_ : t \in taus _ = true) /= ?inE ?eqxx ?orbT // !(eq_sym _ t) (negPf t0) (negPf t9') (negPf t15') ?eqxx /=.
by eexists; rewrite /tE /trialA /= /tsub mulr1.
Qed.
(* starting from x = 4 with dt = 10: the search evaluates 9, 15 and 4 and settles on 4, where the energy vanishes *)
Example C54_example : exists o', calc_B_CG 1 tsub tev tev tbracket (tbrent 4%:R) tdir tdir 10%:R false (tob 4%:R) = Some (tdir, 4%:R, o')
  /\ restored (tob 4%:R) o' /\ tE (step 1 tsub (oA (tob 4%:R)) tdir 4%:R) = 0.
Proof.
have [|o' [e _]] := @tfind 4%:R 4%:R; first by rewrite !inE pnatr_eq0 !eqr_nat.
have [t1 [h1 [o1 [e1 r1]]]] := C54_restore 1 tsub tbracket (tbrent 4%:R) tev false tdir 10%:R (tob 4%:R).
move: e1; rewrite e; case=> _ _ e1; exists o'; rewrite /calc_B_CG e ltrn0 subrr expr0n mulr0 pnatr_eq0 /=.
rewrite le_gtF ?e1; last by rewrite -natrX -natrM ler0n.
by split=> //; split=> //; rewrite /tE /step /trialA /= /tsub mulr1 subrr expr0n mulr0.
Qed.
(* at the minimum x = 0 the same search strategy, told to look at -1, returns it: the penalty value 1 is below the values
   8100 and 22500 of the bracket.  calc_B_CG accepts the step although the energy rises from 0 to 100 *)
Theorem C54_negative_step_refuted : energy_setup 1 tsub (fun _ => eq) tE (fun _ => True) tev /\
  (exists o', calc_B_CG 1 tsub tev tev tbracket (tbrent (- 1)) tdir tdir 10%:R false (tob 0) = Some (tdir, - 1, o')) /\
  tE (step 1 tsub (oA (tob 0)) tdir (- 1)) = 100%:R /\ oH (tob 0) = 0 /\ oH (tob 0) = tE (oA (tob 0)).
Proof.
have n1 : (-1 : R) < 0 by rewrite oppr_lt0 ltr01.
have ne k : ((k%:R : R) == -1) = false by apply/eqP => e; move: n1; rewrite -e ltrn0.
have ne0 : ((0 : R) == -1) = false by exact: (ne 0%N).
split; first exact: tsetup; split.
  have [|o' [e _]] := @tfind 0 (-1); first by rewrite !inE !(eq_sym (-1)) ne0 !ne.
  by exists o'; rewrite /calc_B_CG e eq_sym ne0 n1 ltxx.
by split; [rewrite /tE /step /trialA /= /tsub mulr1 sub0r opprK expr1n mulr1 | rewrite /tE /= expr0n mulr0].
Qed.
(* AA is that of the last trial although the tensors have been put back: from x = 4, after the search, AA = 3 *)
Theorem C54_AA_refuted : exists tau h o', find_min 1 tsub tev false tbracket (tbrent 1) tdir 10%:R false (tob 4%:R) = (Pair tau h, o')
  /\ oA o' = oA (tob 4%:R) /\ oAA (tob 4%:R) = 4%:R /\ oAA o' = 3%:R.
Proof.
have [|o' [e aa]] := @tfind 4%:R 1; first by rewrite !inE oner_eq0 !(eq_sym 1) !pnatr_eq1.
have [t1 [h1 [o1 [e1 [r1 _ _ _ _]]]]] := C54_restore 1 tsub tbracket (tbrent 1) tev false tdir 10%:R (tob 4%:R).
move: e1; rewrite e; case=> _ _ e1; exists 1; eexists; exists o'; split; first by [].
split; first by rewrite e1.
by rewrite aa ?ltr10 //; split=> //; rewrite -[X in _ - X]/(1%:R) -natrB.
Qed.
(* skipIfLower: from x = 4 with dt = 1 the object is left at x = 3 and no pair is returned *)
Theorem C54_skip_refuted : exists o', find_min 1 tsub tev false tbracket (tbrent 1) tdir 1 true (tob 4%:R) = (Bare 1, o')
  /\ oA o' 0%N = 3%:R :> R /\ oA (tob 4%:R) 0%N = 4%:R :> R.
Proof.
rewrite (@C54_skip_early R tT unit unit unit R 1 tsub unit tbracket (tbrent 1) tev false); first last.
- rewrite /= /tE /trialA /= /tsub mulr1 -[X in _ - X]/(1%:R) -natrB // ltr_pmul2l ?ltr0n //.
  by rewrite -!natrX ltr_nat.
- exact: ltr01.
by eexists; split; [by [] | split=> //; rewrite /trialA /= /tsub mulr1 -[X in _ - X]/(1%:R) -natrB].
Qed.
End Toy.

Print Assumptions C54_restore.
Print Assumptions C54_skip.
Print Assumptions C54_skip_early.
Print Assumptions C54_bracket_fails.
Print Assumptions C54_value.
Print Assumptions C54_cg.
Print Assumptions C54_chain_ev.
Print Assumptions C54_cg_chain.
Print Assumptions C54_negative_step_refuted.
Print Assumptions C54_AA_refuted.
Print Assumptions C54_skip_refuted.
