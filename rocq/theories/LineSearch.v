(* LineSearch.v -- tdvp_gen.py: find_min_h_brent (982-1099) and calc_B_CG (1102-1166). *)
From mathcomp Require Import all_ssreflect all_algebra.
From mathcomp Require Import zify.
From Verif Require Import Base.
Set Implicit Arguments.
Unset Strict Implicit.
Unset Printing Implicit Defensive.
Import Order.TTheory GRing.Theory Num.Theory.
Local Open Scope ring_scope.

Section LineSearch.
Variables (R : numFieldType) (T : nat -> Type) (E X Y Z : Type) (N : nat).
(* A0 - tau * B for a site tensor *)
Variable sub : forall n, T n -> R -> T n -> T n.
Notation tens := (forall n, T n).
(* the fields of the object that matter here: tensors, l and r, C, K, AA and AAA (and h_expect), H_expect, eta_sq.sum().
   Copies made with deepcopy are values. *)
Record obj := Obj { oA : tens; olr : E; oC : X; oK : Y; oAA : Z; oH : R; oeta : R }.
(* what a trial evaluation does after the tensors have been set (1017-1041): with use_tangvec_overlap update(restore_CF=False)
   and calc_B(set_eta=False), otherwise calc_l, calc_r, simple_renorm, calc_C and the sum of expect_2s or expect_3s.
   It may change every field of the object and yields (res, h_exp). *)
Variable ev : obj -> obj * (R * R).
Variable tv : bool.          (* use_tangvec_overlap *)

(* an adaptive search procedure (scipy.optimize bracket and brent) that asks for function values *)
Inductive strat (W : Type) := Done of W | Ask of R & (R -> strat W).

Record srch := Srch { so : obj; taus : seq R; ress : seq R; hs : seq R }.
(* 1017-1019; sites are numbered from 0 here *)
Definition dir := forall n, option (T n).
Definition trialA (A0 : tens) (B : dir) (tau : R) (A : tens) : tens := fun n =>
  if (n < N)%N then if B n is Some b then sub (A0 n) tau b else A n else A n.
Definition set_oA (o : obj) A := Obj A (olr o) (oC o) (oK o) (oAA o) (oH o) (oeta o).
(* f (1000-1048) *)
Definition feval (A0 : tens) (B : dir) (h0 tau : R) (s : srch) : R * srch :=
  if tau < 0 then
    let res := tau ^+ 2 + (if tv then oeta (so s) else h0) in
    (res, Srch (so s) (rcons (taus s) tau) (rcons (ress s) res) (rcons (hs s) h0))
  else if tau \in taus s then (nth 0 (ress s) (index tau (taus s)), s)
  else
    let: (o, (res, h)) := ev (set_oA (so s) (trialA A0 B tau (oA (so s)))) in
    (res, Srch o (rcons (taus s) tau) (rcons (ress s) res) (rcons (hs s) h)).
Fixpoint run W A0 B h0 (p : strat W) (s : srch) : W * srch :=
  match p with Done w => (w, s) | Ask tau k => let: (v, s') := feval A0 B h0 tau s in run A0 B h0 (k v) s' end.

(* scipy: bracket(f, xa, xb, maxiter=5): None is RuntimeError; brent(f, brack): None is ValueError *)
Variable BR : Type.
Variables (bracket : R -> R -> strat (option BR)) (brent : BR -> strat (option R)).
(* the attempts (1054-1072): two, the second with the interval scaled by 0.1 *)
Fixpoint brackets (k : nat) (a b : R) A0 B h0 (s : srch) : option BR * srch :=
  if k is k'.+1 then
    let: (o, s') := run A0 B h0 (bracket a b) s in
    if o is Some x then (Some x, s') else brackets k' (a / 10%:R) (b / 10%:R) A0 B h0 s'
  else (None, s).
(* result: the early return hands back a bare number, the normal one a pair *)
Inductive outcome := Bare of R | Pair of R & R.
(* 1054-1099 *)
Definition search (B : dir) (dt : R) (o : obj) (s1 : srch) : outcome * obj :=
  let A0 := oA o in let h0 := oH o in
  let: (br, s2) := brackets 2 (dt * 9%:R / 10%:R) (dt * 3%:R / 2%:R) A0 B h0 s1 in
  let: (tau, h, s3) := if br is Some b then
      let: (t, s) := run A0 B h0 (brent b) s2 in
      (* taus.index(tau_opt) raises ValueError too when the point has not been evaluated *)
      if t is Some tau then if tau \in taus s then (tau, nth 0 (hs s) (index tau (taus s)), s) else (0, h0, s) else (0, h0, s)
    else (0, h0, s2) in
  let o3 := so s3 in
  (Pair tau h, Obj A0 (olr o) (oC o) (oK o) (oAA o3) h0 (oeta o3)).
Definition find_min (B : dir) (dt : R) (skip : bool) (o : obj) : outcome * obj :=
  let s0 := Srch o [:: 0] [:: if tv then oeta o else oH o] [:: oH o] in
  if skip then
    let: (v, s) := feval (oA o) B (oH o) dt s0 in
    if v < oH (so s) then (Bare dt, so s) else search B dt o s
  else search B dt o s0.
End LineSearch.

(* calc_B_CG (1102-1166) from the tangent vector on: Bs the gradient, Bcg the conjugate direction; low: eta below the
   threshold; returns the direction, tau and the object.  The first search uses use_tangvec_overlap = low *)
Section CG.
Variables (R : numFieldType) (T : nat -> Type) (E X Y Z : Type) (N : nat) (sub : forall n, T n -> R -> T n -> T n).
Notation obj := (obj R T E X Y Z).
Variables (ev_h ev_t : obj -> obj * (R * R)) (BR : Type) (bracket : R -> R -> strat R (option BR)) (brent : BR -> strat R (option R)).
Notation find tv := (find_min N sub (if tv then ev_t else ev_h) tv bracket brent).
Definition calc_B_CG (Bs Bcg : dir T) (dt : R) (low : bool) (o : obj) : option (dir T * R * obj) :=
  let h := oH o in
  if find low Bcg dt false o is (Pair tau hm, o1) then
    if tau == 0 then Some (Bs, tau, o1)
    else if ~~ low && (h < hm) then
      if find false Bs (dt / 10%:R) false o1 is (Pair tau' hm', o2) then
        Some (Bs, if h < hm' then 0 else tau', o2)
      else None
    else Some (Bcg, tau, o1)
  else None.
End CG.

Section Facts.
Variables (R : numFieldType) (T : nat -> Type) (E X Y Z : Type) (N : nat) (sub : forall n, T n -> R -> T n -> T n).
Notation obj := (obj R T E X Y Z).
Notation tens := (forall n, T n).
Variables (ev : obj -> obj * (R * R)) (tv : bool) (BR : Type) (bracket : R -> R -> strat R (option BR)) (brent : BR -> strat R (option R)).
Notation feval := (feval N sub ev tv).
Notation run := (run N sub ev tv).
Notation trialA := (trialA N sub).

(* site tensors that count as the same state, e.g. up to a positive factor on the last site *)
Variable eqv : forall n, T n -> T n -> Prop.
Hypotheses (eqv_refl : forall n x, @eqv n x x) (eqv_trans : forall n x y z, @eqv n x y -> eqv y z -> eqv x z).
Variables (Ef : tens -> R) (good : tens -> Prop).
Definition same (A A' : tens) := forall n, (n < N)%N -> eqv (A n) (A' n).
Hypotheses (Ef_same : forall A A', same A A' -> Ef A = Ef A') (good_same : forall A A', same A A' -> good A' -> good A).
Hypothesis ev_energy : forall o, good (oA o) -> (ev o).2.2 = Ef (oA o).
Hypothesis ev_frame : forall o, good (oA o) -> same (oA (ev o).1) (oA o).
Variables (A0 : tens) (B : dir T) (h0 : R).
Hypothesis trial_good : forall tau, ~~ (tau < 0) -> good (trialA A0 B tau A0).
Hypothesis E0 : h0 = Ef (trialA A0 B 0 A0).
(* the sites that carry no tangent tensor have not been changed by the trials *)
Definition rest (A : tens) := forall n, (n < N)%N -> B n = None -> eqv (A n) (A0 n).
Definition inv (s : srch R T E X Y Z) := [/\ rest (oA (so s)), size (hs s) = size (taus s) &
  forall i, (i < size (taus s))%N -> nth 0 (hs s) i = if nth 0 (taus s) i < 0 then h0 else Ef (trialA A0 B (nth 0 (taus s) i) A0)].
Lemma trial_same tau A : rest A -> same (trialA A0 B tau A) (trialA A0 B tau A0).
Proof.
by move=> rA n nN; rewrite /trialA nN; case e: (B n) => [b|]; [apply: eqv_refl | apply: rA].
Qed.
Lemma feval_inv tau s : inv s -> inv (feval A0 B h0 tau s).2.
Proof.
move=> [rA sz hv]; rewrite /feval; case: ifP => [t0|/negbT t0].
  split=> //=; rewrite ?size_rcons ?sz // => i; rewrite ltnS leq_eqVlt !nth_rcons sz => /orP[/eqP->|iN].
    by rewrite ltnn eqxx t0.
  by rewrite iN hv.
case: ifP => // _; set o := set_oA _ _.
have st := trial_same tau rA; have gd : good (oA o) by apply: good_same st _; apply: trial_good.
have := ev_energy gd; have := ev_frame gd; case: (ev o) => o' [res h] /= fr eh.
split=> /=; rewrite ?size_rcons ?sz //.
  move=> n nN eB; apply: eqv_trans (fr n nN) _; rewrite /o /= /trialA nN eB; exact: rA.
move=> i; rewrite ltnS leq_eqVlt !nth_rcons sz => /orP[/eqP->|iN]; last by rewrite iN hv.
by rewrite ltnn eqxx (negPf t0) eh; apply: Ef_same.
Qed.
Lemma run_inv W (p : strat R W) s : inv s -> inv (run A0 B h0 p s).2.
Proof.
elim: p s => [w|tau k IH] s hs //=; have := feval_inv tau hs.
by case: (feval _ _ _ _ _) => v s' /= hs'; apply: IH.
Qed.
Lemma brackets_inv k a b s : inv s -> inv (brackets N sub ev tv bracket k a b A0 B h0 s).2.
Proof.
elim: k a b s => [|k IH] a b s hs //=; have := run_inv (bracket a b) hs.
by case: (run _ _ _ _ _) => [[x|] s'] //= hs'; apply: IH.
Qed.
End Facts.
