(* TdvpProofs3.v -- the gauge-fixing parametrisations B(x) of both gauges, and calc_B as the
   orthogonal projection of H|psi> onto the tangent space. *)
From mathcomp Require Import all_ssreflect all_algebra.
From mathcomp Require Import zify.
From Verif Require Import Base Spec Eps Chain ChainProofs LinAlg Struct Factor Tangent Tangent2 Tdvp TdvpProofs TdvpProofs2.
Set Implicit Arguments.
Unset Strict Implicit.
Unset Printing Implicit Defensive.
Import Order.TTheory GRing.Theory Num.Theory.
Local Open Scope ring_scope.

(* all eigenvalues exceed the tolerance *)
Definition full (C : numClosedFieldType) (tol : C) n (X : 'M[C]_n) :=
  forall a (v : 'cV[C]_n), v != 0 -> X *m v = a *: v -> tol < a.

Section B.
Variables (C : numClosedFieldType) (D q : nat -> nat) (N : nat).
Local Notation bonds := (forall n, 'M[C]_(D n)).
Local Notation sbonds := (forall n, smat C (D n) (D n)).
Local Notation tens := (forall m, nat -> 'M[C]_(D m, D m.+1)).
Variables (A : tensors C D) (l r : sbonds).
Local Notation L n := (toarray (l n)).
Local Notation R n := (toarray (r n)).
Variables (eigh : eigh_routine C) (qrf : qrf_routine C) (tol : C).
Hypotheses (eighP : eigh_contract eigh) (qrfP : qrf_contract qrf) (tol0 : 0 <= tol).

Local Notation ls m := (toarray (l_s l eigh tol m)).
Local Notation lsi m := (toarray (l_si l eigh tol m)).
Local Notation rs m := (toarray (r_s r eigh tol m)).
Local Notation rsi m := (toarray (r_si r eigh tol m)).
Local Notation Vr m := (Vrh q A r eigh qrf tol m).
Local Notation Vl m := (Vlh q A l eigh qrf tol m).
Local Notation Br x := (Bpar_r A l r eigh qrf tol x).
Local Notation Bl x := (Bpar_l A l r eigh qrf tol x).

Section Site.
Variable m : nat.
Hypotheses (hL : herm (L m)) (hR : herm (R m.+1)).

Lemma lsE : [/\ herm (ls m), herm (lsi m), lsi m *m L m = ls m & L m *m lsi m = ls m].
Proof. by have [h1 _ h2 _] := hsi_herm eighP tol0 hL; have [_ _ h3 h4 _] := hsi_mul eighP tol0 hL. Qed.
Lemma rsE : [/\ herm (rs m), herm (rsi m), rsi m *m R m.+1 = rs m & R m.+1 *m rsi m = rs m].
Proof. by have [h1 _ h2 _] := hsi_herm eighP tol0 hR; have [_ _ h3 h4 _] := hsi_mul eighP tol0 hR. Qed.
Lemma lsF : full tol (L m) -> [/\ ls m *m ls m = L m, ls m *m lsi m = 1%:M & lsi m *m ls m = 1%:M].
Proof. by move=> f; have [h1 h2 h3 _ _] := hsi_full eighP tol0 hL f. Qed.
Lemma rsF : full tol (R m.+1) -> [/\ rs m *m rs m = R m.+1, rs m *m rsi m = 1%:M & rsi m *m rs m = 1%:M].
Proof. by move=> f; have [h1 h2 h3 _ _] := hsi_full eighP tol0 hR f. Qed.

Lemma Bpar_r_gauge (x : 'M[C]_(D m, kr D q m)) : rgauge q A (fun n => R n) (Br x).
Proof.
have [h1 h2 h3 h4] := rsE; rewrite /rgauge /eps_r_noop.
have [v1 v2] := vsh_atP qrfP (q m) (A m) h1.
transitivity ((\sum_(s < q m) A m s *m rs m *m Vr m s) *m x^† *m lsi m); last by rewrite v1 !mul0mx.
rewrite !mulmx_suml; apply: eq_bigr => s _; rewrite /Bpar_r !adjM !adjK -h4; have [_ -> _ _] := lsE.
by rewrite !mulmxA.
Qed.
Lemma Bpar_l_gauge (x : 'M[C]_(kl D q m, D m.+1)) : lgauge q A (fun n => L n) (Bl x).
Proof.
have [h1 h2 h3 h4] := lsE; rewrite /lgauge /eps_l_noop.
have [v1 v2] := vshl_atP qrfP (q m) (A m) h1.
transitivity (rsi m *m x^† *m (\sum_(s < q m) Vl m s *m ls m *m A m s)); last by rewrite v1 !mulmx0.
rewrite !mulmx_sumr; apply: eq_bigr => s _; rewrite /Bpar_l !adjM !adjK -h3 h2; have [_ -> _ _] := rsE.
by rewrite !mulmxA.
Qed.

(* pairing with B(x) *)
Lemma tdot_Br (x : 'M[C]_(D m, kr D q m)) f :
  [/\ tdot q (Br x) (fun s => L m *m f s) = adot x (ls m *m \sum_(s < q m) f s *m (rsi m *m Vr m s)),
      tdot q (Br x) (fun s => f s *m R m.+1) = adot x (lsi m *m \sum_(s < q m) f s *m (rs m *m Vr m s))
    & tdot q (Br x) f = adot x (lsi m *m \sum_(s < q m) f s *m (rsi m *m Vr m s))].
Proof.
have [h1 h2 h3 h4] := rsE; have [g1 g2 g3 g4] := lsE.
by split; rewrite adotE !mulmx_sumr tr_sum; apply: eq_bigr => s _; rewrite /Bpar_r !adjM !adjK g2;
   rewrite -?g3 -?h4 -mulmxA [LHS]mxtrace_mulC !mulmxA.
Qed.
Lemma tdot_Bl (x : 'M[C]_(kl D q m, D m.+1)) f :
  [/\ tdot q (Bl x) (fun s => L m *m f s) = adot x ((\sum_(s < q m) Vl m s *m (ls m *m f s)) *m rsi m),
      tdot q (Bl x) (fun s => f s *m R m.+1) = adot x ((\sum_(s < q m) Vl m s *m (lsi m *m f s)) *m rs m)
    & tdot q (Bl x) f = adot x ((\sum_(s < q m) Vl m s *m (lsi m *m f s)) *m rsi m)].
Proof.
have [h1 h2 h3 h4] := rsE; have [g1 g2 g3 g4] := lsE.
by split; rewrite adotE mulmx_suml mulmx_sumr tr_sum; apply: eq_bigr => s _; rewrite /Bpar_l !adjM !adjK g2 h2;
   rewrite -?g3 -?h4 -!mulmxA [LHS]mxtrace_mulC !mulmxA.
Qed.

(* for full-rank l, r the parametrisation is isometric and reaches every gauge-fixed tensor *)
Section Full.
Hypotheses (fL : full tol (L m)) (fR : full tol (R m.+1)).
Lemma gram_Br (x y : 'M[C]_(D m, kr D q m)) :
  \sum_(s < q m) \tr (L m *m Br y s *m R m.+1 *m (Br x s)^†) = adot x y.
Proof.
have [h1 h2 h3 h4] := rsE; have [g1 g2 g3 g4] := lsE; have [f1 f2 f3] := lsF fL; have [e1 e2 e3] := rsF fR.
have [v1 v2] := vsh_atP qrfP (q m) (A m) h1.
have -> : adot x y = \sum_(s < q m) \tr (y *m ((Vr m s)^† *m Vr m s) *m x^†).
  by rewrite adotE mxtrace_mulC -{1}[y]mulmx1 -v2 mulmx_sumr mulmx_suml tr_sum.
apply: eq_bigr => s _.
have eB : L m *m Br y s = ls m *m (y *m (Vr m s)^† *m rsi m) by rewrite /Bpar_r adjM h2 !mulmxA g4.
have eB' : R m.+1 *m (Br x s)^† = rs m *m (Vr m s *m x^† *m lsi m) by rewrite /Bpar_r !adjM !adjK ?g2 ?h2 !mulmxA h4.
rewrite -mulmxA eB eB' -mulmxA mxtrace_mulC !mulmxA -[_ *m rsi m *m rs m]mulmxA e3 mulmx1.
by rewrite -[_ *m lsi m *m ls m]mulmxA f3 mulmx1.
Qed.
Lemma gram_Bl (x y : 'M[C]_(kl D q m, D m.+1)) :
  \sum_(s < q m) \tr (L m *m Bl y s *m R m.+1 *m (Bl x s)^†) = adot x y.
Proof.
have [h1 h2 h3 h4] := rsE; have [g1 g2 g3 g4] := lsE; have [f1 f2 f3] := lsF fL; have [e1 e2 e3] := rsF fR.
have [v1 v2] := vshl_atP qrfP (q m) (A m) g1.
have -> : adot x y = \sum_(s < q m) \tr (x^† *m (Vl m s *m (Vl m s)^† *m y)).
  by rewrite adotE -{1}[y]mul1mx -v2 mulmx_suml mulmx_sumr tr_sum.
apply: eq_bigr => s _.
have eB : L m *m Bl y s = ls m *m ((Vl m s)^† *m y *m rsi m) by rewrite /Bpar_l !mulmxA g4.
have eB' : R m.+1 *m (Bl x s)^† = rs m *m (x^† *m Vl m s *m lsi m).
  by rewrite /Bpar_l !adjM !adjK g2 h2 !mulmxA h4.
rewrite -mulmxA eB eB' -mulmxA mxtrace_mulC !mulmxA -[_ *m rsi m *m rs m]mulmxA e3 mulmx1.
by rewrite -[_ *m lsi m *m ls m]mulmxA f3 mulmx1 -mulmxA mxtrace_mulC !mulmxA.
Qed.
Lemma Br_complete (T : nat -> 'M[C]_(D m, D m.+1)) :
  eps_r_noop (q m) (R m.+1) (A m) (A m) \in unitmx -> rgauge q A (fun n => R n) T ->
  exists x : 'M[C]_(D m, kr D q m), forall s, (s < q m)%N -> T s = Br x s.
Proof.
have [h1 h2 h3 h4] := rsE; have [g1 g2 g3 g4] := lsE; have [f1 f2 f3] := lsF fL; have [e1 e2 e3] := rsF fR.
move=> un g; have un' : \sum_(s < q m) A m s *m rs m *m (A m s *m rs m)^† \in unitmx.
  suff -> : \sum_(s < q m) A m s *m rs m *m (A m s *m rs m)^† = eps_r_noop (q m) (R m.+1) (A m) (A m) by [].
  by apply: eq_bigr => s _; rewrite adjM h1 -e1 !mulmxA.
have hZ : \sum_(s < q m) A m s *m rs m *m (rs m *m (T s)^† *m ls m) = 0.
  transitivity (eps_r_noop (q m) (R m.+1) (A m) T *m ls m); last by rewrite g mul0mx.
  by rewrite mulmx_suml; apply: eq_bigr => s _; rewrite -e1 !mulmxA.
have [W eW] := @vsh_complete _ _ qrfP (q m) _ _ (A m) _ h1 un' _ (fun s => rs m *m (T s)^† *m ls m) hZ; exists W^† => s sq.
rewrite /Bpar_r adjM h2 mulmxA -[_ *m W^† *m _]mulmxA -adjM -eW // !adjM adjK h1 g1.
by rewrite !mulmxA f3 mul1mx -mulmxA e2 mulmx1.
Qed.
Lemma Bl_complete (T : nat -> 'M[C]_(D m, D m.+1)) :
  eps_l_noop (q m) (L m) (A m) (A m) \in unitmx -> eps_l_noop (q m) (L m) (A m) T = 0 ->
  exists x : 'M[C]_(kl D q m, D m.+1), forall s, (s < q m)%N -> T s = Bl x s.
Proof.
have [h1 h2 h3 h4] := rsE; have [g1 g2 g3 g4] := lsE; have [f1 f2 f3] := lsF fL; have [e1 e2 e3] := rsF fR.
move=> un g; have un' : \sum_(s < q m) (ls m *m A m s)^† *m (ls m *m A m s) \in unitmx.
  suff -> : \sum_(s < q m) (ls m *m A m s)^† *m (ls m *m A m s) = eps_l_noop (q m) (L m) (A m) (A m) by [].
  by apply: eq_bigr => s _; rewrite adjM g1 -f1 !mulmxA.
have hZ : \sum_(s < q m) (ls m *m A m s)^† *m (ls m *m T s *m rs m) = 0.
  transitivity (eps_l_noop (q m) (L m) (A m) T *m rs m); last by rewrite g mul0mx.
  by rewrite mulmx_suml; apply: eq_bigr => s _; rewrite adjM g1 -f1 !mulmxA.
have [W eW] := @vshl_complete _ _ qrfP (q m) _ _ (A m) _ g1 un' _ (fun s => ls m *m T s *m rs m) hZ; exists W => s sq.
rewrite /Bpar_l -[_ *m _^† *m W]mulmxA -eW //.
by rewrite !mulmxA f3 mul1mx -mulmxA e2 mulmx1.
Qed.
End Full.
Lemma Br_empty (x : 'M[C]_(D m, kr D q m)) : (D m.+1 * q m <= D m)%N -> (forall s, Br x s = 0) /\ x = 0.
Proof.
move=> h; have k0 : kr D q m = 0%N by apply/eqP; rewrite subn_eq0.
have x0 : x = 0 by apply/matrixP=> i j; have := ltn_ord j; rewrite [X in (_ < X)%N]k0.
by split=> // s; rewrite /Bpar_r x0 mulmx0 mul0mx.
Qed.
Lemma Bl_empty (x : 'M[C]_(kl D q m, D m.+1)) : (q m * D m <= D m.+1)%N -> (forall s, Bl x s = 0) /\ x = 0.
Proof.
move=> h; have k0 : kl D q m = 0%N by apply/eqP; rewrite subn_eq0.
have x0 : x = 0 by apply/matrixP=> i j; have := ltn_ord i; rewrite [X in (_ < X)%N]k0.
by split=> // s; rewrite /Bpar_l x0 mulmx0 mul0mx.
Qed.
End Site.

(* ---- calc_B --------------------------------------------------------------------------------------- *)
Definition otens (B : forall m, option (nat -> 'M[C]_(D m, D m.+1))) : tens :=
  fun m => if B m is Some b then b else fun _ => 0.

Lemma calc_B_rE (xo : forall m, option 'M[C]_(D m, kr D q m)) (x : forall m, 'M[C]_(D m, kr D q m)) :
  (forall m, (m < N)%N -> xo m = Some (x m)) ->
  exists B eta, [/\ calc_B N (calc_B_r_n A l r eigh qrf tol xo) = Some (B, eta),
    forall m s, (m < N)%N -> otens B m s = Br (x m) s & eta = sqrtC (\sum_(m < N) adot (x m) (x m))].
Proof.
move=> hx; rewrite /calc_B ifT; last first.
  by apply/allP=> m; rewrite mem_iota add0n /= => mN; rewrite /calc_B_r_n hx //; case: ifP.
do 2![eexists]; split; first by reflexivity.
  move=> m s mN; rewrite /otens /calc_B_r_n hx //; case: ifP => //= h.
  by have [-> _] := Br_empty (x m) h.
congr sqrtC; apply: eq_bigr => m _; rewrite /calc_B_r_n hx //; case: ifP => //= h.
by have [_ ->] := Br_empty (x m) h; rewrite adot0r.
Qed.
Lemma calc_B_lE (xo : forall m, option 'M[C]_(kl D q m, D m.+1)) (x : forall m, 'M[C]_(kl D q m, D m.+1)) :
  (forall m, (m < N)%N -> xo m = Some (x m)) ->
  exists B eta, [/\ calc_B N (calc_B_l_n A l r eigh qrf tol xo) = Some (B, eta),
    forall m s, (m < N)%N -> otens B m s = Bl (x m) s & eta = sqrtC (\sum_(m < N) adot (x m) (x m))].
Proof.
move=> hx; rewrite /calc_B ifT; last first.
  by apply/allP=> m; rewrite mem_iota add0n /= => mN; rewrite /calc_B_l_n hx //; case: ifP.
do 2![eexists]; split; first by reflexivity.
  move=> m s mN; rewrite /otens /calc_B_l_n hx //; case: ifP => //= h.
  by have [-> _] := Bl_empty (x m) h.
congr sqrtC; apply: eq_bigr => m _; rewrite /calc_B_l_n hx //; case: ifP => //= h.
by have [_ ->] := Bl_empty (x m) h; rewrite adot0r.
Qed.
End B.

Section Proj.
Variables (C : numClosedFieldType) (D q : nat -> nat) (N : nat).
Local Notation sbonds := (forall n, smat C (D n) (D n)).
Local Notation tens := (forall m, nat -> 'M[C]_(D m, D m.+1)).
Local Notation vec := (seq nat -> 'M[C]_(D 0, D N)).
Variables (A : tensors C D) (l r : sbonds).
Local Notation L n := (toarray (l n)).
Local Notation R n := (toarray (r n)).
Variables (eigh : eigh_routine C) (qrf : qrf_routine C) (tol : C).
Hypotheses (eighP : eigh_contract eigh) (qrfP : qrf_contract qrf) (tol0 : 0 <= tol).
Local Notation Br x := (Bpar_r A l r eigh qrf tol x).
Local Notation Bl x := (Bpar_l A l r eigh qrf tol x).
Hypotheses (hl : up_l q A N 1%:M (fun n => L n)) (hr : up_r q A N 1%:M (fun n => R n)).

Lemma hermL m : (m <= N)%N -> herm (L m). Proof. exact: (l_herm hl). Qed.
Lemma hermR m : (m <= N)%N -> herm (R m). Proof. exact: (r_herm hr). Qed.

Lemma dotst_rep_eq m (T T' : nat -> 'M[C]_(D m, D m.+1)) (Phi : vec) : (m < N)%N ->
  (forall s, (s < q m)%N -> T s = T' s) ->
  dotst q N (psi (rep A T) N) Phi = dotst q N (psi (rep A T') N) Phi.
Proof.
move=> mN e; rewrite !dotstE; apply: eq_big_seq => c /cfgsP[sz h].
congr (adot _ _); have sm : (m < size c)%N by rewrite sz.
rewrite -[c](cat_take_drop m) (drop_nth 0%N) // !psi_rep_cat ?size_take ?sm // e //.
exact: (h m).
Qed.
Lemma dotst_rep_eqr m (T T' : nat -> 'M[C]_(D m, D m.+1)) (Phi : vec) : (m < N)%N ->
  (forall s, (s < q m)%N -> T s = T' s) ->
  dotst q N Phi (psi (rep A T) N) = dotst q N Phi (psi (rep A T') N).
Proof. by move=> mN e; rewrite dotst_conj (dotst_rep_eq _ mN e) -dotst_conj. Qed.
Lemma tvec_eq (T T' : tens) c : size c = N -> (forall m s, (m < N)%N -> T m s = T' m s) ->
  tvec N A T c = tvec N A T' c.
Proof.
move=> sz e; apply: eq_bigr => m _; have sm : (m < size c)%N by rewrite sz.
by rewrite -[c](cat_take_drop m) (drop_nth 0%N) // !psi_rep_cat ?size_take ?sm // e.
Qed.

Lemma full_unit n (X : 'M[C]_n) : full tol X -> X \in unitmx.
Proof.
move=> f; rewrite -unitmx_tr -row_free_unit -kermx_eq0; apply/eqP/row_matrixP=> i; rewrite row0.
apply/eqP/negP=> /negP h; pose v := (row i (kermx X^T))^T.
have v0 : v != 0 by rewrite trmx_eq0.
have e : X *m v = 0 *: v by rewrite scale0r /v -{1}[X]trmxK -trmx_mul -row_mul mulmx_ker row0 trmx0.
by have := f 0 v v0 e; rewrite le_gtF.
Qed.

Hypotheses (D0 : D 0 = 1%N) (DN : D N = 1%N).
Hypotheses (fL : forall m, (m <= N)%N -> full tol (L m)) (fR : forall m, (m <= N)%N -> full tol (R m)).

Lemma norm_neq0 : dotst q N (psi A N) (psi A N) != 0.
Proof.
have e := norm_cut hl hr (leq0n N); rewrite bdotst1 in e; rewrite -e.
have u := full_unit (fR (leq0n N)); have [-> _] := hl.
have [a ea] := scalar_1x1 (R 0%N) D0; rewrite ea in u *.
rewrite adotE adj1 mul1mx mxtrace_scalar D0.
apply: contraL u; rewrite mulr1n => /eqP->; by rewrite unitmxE det_scalar D0 expr1 unitr0.
Qed.

(* x m holds the components of Phi along the gauge-fixed tangent vectors of site m *)
Lemma right_projection (x : forall m, 'M[C]_(D m, kr D q m)) (B : tens) (Phi : vec) :
  (forall m s, (m < N)%N -> B m s = Br (x m) s) ->
  (forall m (y : 'M[C]_(D m, kr D q m)), (m < N)%N -> dotst q N (psi (rep A (Br y)) N) Phi = adot y (x m)) ->
  [/\ forall m, (m < N)%N -> rgauge q A (fun n => R n) (B m),
      forall T : tens, dotst q N (tvec N A T) (fun c => Phi c -
        (tvec N A B c + (dotst q N (psi A N) Phi / dotst q N (psi A N) (psi A N)) *: psi A N c)) = 0,
      forall T : tens, (forall m, (m < N)%N -> rgauge q A (fun n => R n) (T m)) ->
        dotst q N (fun c => Phi c - tvec N A T c) (fun c => Phi c - tvec N A T c) =
        dotst q N (fun c => Phi c - tvec N A B c) (fun c => Phi c - tvec N A B c)
        + dotst q N (fun c => tvec N A B c - tvec N A T c) (fun c => tvec N A B c - tvec N A T c)
    & dotst q N (tvec N A B) (tvec N A B) = \sum_(m < N) adot (x m) (x m)].
Proof.
move=> eB hx.
have g m : (m < N)%N -> rgauge q A (fun n => R n) (B m).
  move=> mN; have := Bpar_r_gauge A eighP qrfP tol0 (hermL (ltnW mN)) (hermR mN) (x m).
  by rewrite /rgauge /eps_r_noop => e; rewrite -[RHS]e; apply: eq_bigr => s _; rewrite eB.
have gram m (y : 'M[C]_(D m, kr D q m)) : (m < N)%N ->
    dotst q N (psi (rep A (Br y)) N) (psi (rep A (B m)) N) = adot y (x m).
  move=> mN; rewrite (dotst_rep_eqr _ mN (T' := Br (x m))); last by move=> s _; rewrite eB.
  rewrite (rep_gram hl hr) // (gram_Br A eighP qrfP tol0 (hermL (ltnW mN)) (hermR mN)) //; [exact: fL (ltnW mN)|exact: fR].
have BPhi m (T : nat -> 'M[C]_(D m, D m.+1)) : (m < N)%N -> rgauge q A (fun n => R n) T ->
    dotst q N (psi (rep A T) N) Phi = dotst q N (psi (rep A T) N) (psi (rep A (B m)) N).
  move=> mN gT; have un : eps_r_noop (q m) (R m.+1) (A m) (A m) \in unitmx.
    by have [_ e] := hr; rewrite -e //; apply: full_unit; apply: fR; apply: ltnW.
  have [y ey] := Br_complete eighP qrfP tol0 (hermL (ltnW mN)) (hermR mN) (fL (ltnW mN)) (fR mN) un gT.
  by rewrite !(dotst_rep_eq _ mN ey) hx // gram.
have orth := rep_orth_r' hr.
have opsi m (T : nat -> 'M[C]_(D m, D m.+1)) : (m < N)%N -> rgauge q A (fun n => R n) T ->
  dotst q N (psi (rep A T) N) (psi A N) = 0 by move=> mN gT; exact: (rep_orth_psi_r hr).
have fix_ T := gauge_fix_r hr T D0 (fun m (mN : (m < N)%N) => full_unit (fR (ltnW mN))).
split=> //.
- by move=> T; apply: (proj_full orth opsi fix_ g BPhi T norm_neq0).
- by move=> T gT; apply: (closest orth g BPhi).
- rewrite (tvec_dot orth g g); apply: eq_bigr => m _; rewrite -gram //; apply: dotst_rep_eq => // s _.
  by rewrite eB.
Qed.
Lemma left_projection (x : forall m, 'M[C]_(kl D q m, D m.+1)) (B : tens) (Phi : vec) :
  (forall m s, (m < N)%N -> B m s = Bl (x m) s) ->
  (forall m (y : 'M[C]_(kl D q m, D m.+1)), (m < N)%N -> dotst q N (psi (rep A (Bl y)) N) Phi = adot y (x m)) ->
  [/\ forall m, (m < N)%N -> lgauge q A (fun n => L n) (B m),
      forall T : tens, dotst q N (tvec N A T) (fun c => Phi c -
        (tvec N A B c + (dotst q N (psi A N) Phi / dotst q N (psi A N) (psi A N)) *: psi A N c)) = 0,
      forall T : tens, (forall m, (m < N)%N -> lgauge q A (fun n => L n) (T m)) ->
        dotst q N (fun c => Phi c - tvec N A T c) (fun c => Phi c - tvec N A T c) =
        dotst q N (fun c => Phi c - tvec N A B c) (fun c => Phi c - tvec N A B c)
        + dotst q N (fun c => tvec N A B c - tvec N A T c) (fun c => tvec N A B c - tvec N A T c)
    & dotst q N (tvec N A B) (tvec N A B) = \sum_(m < N) adot (x m) (x m)].
Proof.
move=> eB hx.
have g m : (m < N)%N -> lgauge q A (fun n => L n) (B m).
  move=> mN; have := Bpar_l_gauge A eighP qrfP tol0 (hermL (ltnW mN)) (hermR mN) (x m).
  by rewrite /lgauge /eps_l_noop => e; rewrite -[RHS]e; apply: eq_bigr => s _; rewrite eB.
have gram m (y : 'M[C]_(kl D q m, D m.+1)) : (m < N)%N ->
    dotst q N (psi (rep A (Bl y)) N) (psi (rep A (B m)) N) = adot y (x m).
  move=> mN; rewrite (dotst_rep_eqr _ mN (T' := Bl (x m))); last by move=> s _; rewrite eB.
  rewrite (rep_gram hl hr) // (gram_Bl A eighP qrfP tol0 (hermL (ltnW mN)) (hermR mN)) //; [exact: fL (ltnW mN)|exact: fR].
have BPhi m (T : nat -> 'M[C]_(D m, D m.+1)) : (m < N)%N -> lgauge q A (fun n => L n) T ->
    dotst q N (psi (rep A T) N) Phi = dotst q N (psi (rep A T) N) (psi (rep A (B m)) N).
  move=> mN gT; have un : eps_l_noop (q m) (L m) (A m) (A m) \in unitmx.
    by have [_ e] := hl; rewrite -e //; apply: full_unit; apply: fL.
  have gT' : eps_l_noop (q m) (L m) (A m) T = 0 by apply/(lgauge_adj hl).
  have [y ey] := Bl_complete eighP qrfP tol0 (hermL (ltnW mN)) (hermR mN) (fL (ltnW mN)) (fR mN) un gT'.
  by rewrite !(dotst_rep_eq _ mN ey) hx // gram.
have orth := rep_orth_l' hl.
have opsi m (T : nat -> 'M[C]_(D m, D m.+1)) : (m < N)%N -> lgauge q A (fun n => L n) T ->
  dotst q N (psi (rep A T) N) (psi A N) = 0 by move=> mN gT; exact: (rep_orth_psi_l hl).
have fix_ T := gauge_fix_l hl T DN (fun m (mN : (m < N)%N) => full_unit (fL mN)).
split=> //.
- by move=> T; apply: (proj_full orth opsi fix_ g BPhi T norm_neq0).
- by move=> T gT; apply: (closest orth g BPhi).
- rewrite (tvec_dot orth g g); apply: eq_bigr => m _; rewrite -gram //; apply: dotst_rep_eq => // s _.
  by rewrite eB.
Qed.
End Proj.

(* ---- the parameters x are the components of H|psi> ---------------------------------------------- *)
Section Comp.
Variables (C : numClosedFieldType) (D q : nat -> nat) (N : nat).
Local Notation bonds := (forall n, 'M[C]_(D n)).
Local Notation sbonds := (forall n, smat C (D n) (D n)).
Variables (A : tensors C D) (l r : sbonds).
Local Notation L n := (toarray (l n)).
Local Notation R n := (toarray (r n)).
Variables (eigh : eigh_routine C) (qrf : qrf_routine C) (tol : C).
Hypotheses (eighP : eigh_contract eigh) (qrfP : qrf_contract qrf) (tol0 : 0 <= tol).
Local Notation Br x := (Bpar_r A l r eigh qrf tol x).
Local Notation Bl x := (Bpar_l A l r eigh qrf tol x).
Hypotheses (hl : up_l q A N 1%:M (fun n => L n)) (hr : up_r q A N 1%:M (fun n => R n)).

Lemma comp_r2 ham (K : bonds) m (y : 'M[C]_(D m, kr D q m)) : K_rec q N 2 A (fun n => R n) (O2 ham) K -> (m < N)%N ->
  dotst q N (psi (rep A (Br y)) N) (Ham2 q N ham (psi A N)) =
  adot y (x_r2 q N A l r K eigh qrf tol (calc_C2 q N A ham) m).
Proof.
move=> hK mN; have hL := hermL hl (ltnW mN); have hR := hermR hr mN.
have [KL hKL] := @KL_exists C D q N 2 A (fun n => L n) (O2 ham) isT.
have g := Bpar_r_gauge A eighP qrfP tol0 hL hR y; have P f := tdot_Br A qrf eighP tol0 hL hR y f.
rewrite (grad2 hl hr _ hK hKL mN) !tdotD (rgauge_KL _ mN g) add0r.
have [_ -> _] := P (gl2 q A l ham m); have [-> _ _] := P (gr2 q N A r ham m).
rewrite (eq_tdot _ (G' := fun s => L m *m (A m s *m Kpo N K 2 m))); last by move=> s _; rewrite mulmxA.
have [-> _ _] := P (fun s => A m s *m Kpo N K 2 m).
rewrite /x_r2 calc_x2E // addrC -!adotDr -mulmxDr -big_split; congr (adot _ (_ *m _ + _)).
by apply: eq_bigr => s _; rewrite [RHS]mulmxDl.
Qed.
Lemma comp_l2 ham (KL : bonds) m (y : 'M[C]_(kl D q m, D m.+1)) : KL_rec q N 2 A (fun n => L n) (O2 ham) KL -> (m < N)%N ->
  has_left ham 1 m ->
  exists2 x, x_l2 q A l r KL eigh qrf tol (calc_C2 q N A ham) m = Some x &
  dotst q N (psi (rep A (Bl y)) N) (Ham2 q N ham (psi A N)) = adot y x.
Proof.
move=> hKL mN hh; have hL := hermL hl (ltnW mN); have hR := hermR hr mN.
rewrite /x_l2 calc_x_l2E //; eexists; first by reflexivity.
have [K hK] := @K_exists C D q N 2 A (fun n => R n) (O2 ham) isT.
have g := Bpar_l_gauge A eighP qrfP tol0 hL hR y; have P f := tdot_Bl A qrf eighP tol0 hL hR y f.
rewrite (grad2 hl hr _ hK hKL mN) !tdotD; have [-> _] := lgauge_K K mN g; rewrite addr0.
have [_ -> _] := P (gl2 q A l ham m); have [-> _ _] := P (gr2 q N A r ham m).
have [_ -> _] := P (fun s => KLo KL m *m A m s).
rewrite addrC -!adotDr -mulmxDl -big_split; congr (adot _ (_ + _ *m _)).
by apply: eq_bigr => s _; rewrite [in RHS]mulmxDr [RHS]mulmxDr [RHS]addrC.
Qed.
Lemma comp_r3 ham (K : bonds) m (y : 'M[C]_(D m, kr D q m)) : K_rec q N 3 A (fun n => R n) (O3 ham) K -> (m < N)%N ->
  ((m.+3 < N)%N -> isSome (ham m)) -> has_left ham 2 m ->
  exists2 x, x_r3 q N A l r (calc_AAs A) K eigh qrf tol (calc_C3 q N A ham) m = Some x &
  dotst q N (psi (rep A (Br y)) N) (Ham3 q N ham (psi A N)) = adot y x.
Proof.
move=> hK mN h1 h2; have hL := hermL hl (ltnW mN); have hR := hermR hr mN.
rewrite /x_r3 calc_x3E //; last by move=> n nm; apply: (hermL hl); lia.
eexists; first by reflexivity.
have [KL hKL] := @KL_exists C D q N 3 A (fun n => L n) (O3 ham) isT.
have g := Bpar_r_gauge A eighP qrfP tol0 hL hR y; have P f := tdot_Br A qrf eighP tol0 hL hR y f.
rewrite (grad3 hl hr _ hK hKL mN) !tdotD (rgauge_KL _ mN g) add0r.
have [_ -> _] := P (gl3 q A l ham m); have [-> _ _] := P (gr3 q N A r ham m).
have [_ _ ->] := P (gm3 q N A l r ham m).
rewrite (eq_tdot _ (G' := fun s => L m *m (A m s *m Kpo N K 3 m))); last by move=> s _; rewrite mulmxA.
have [-> _ _] := P (fun s => A m s *m Kpo N K 3 m).
rewrite [X in X + _]addrC addrC addrA -!adotDr -mulmxDr -big_split; congr (adot _ (_ *m _ + _ + _)).
by apply: eq_bigr => s _; rewrite [RHS]mulmxDl.
Qed.
Lemma comp_l3 ham (KL : bonds) m (y : 'M[C]_(kl D q m, D m.+1)) : KL_rec q N 3 A (fun n => L n) (O3 ham) KL -> (m < N)%N ->
  ((0 < m)%N -> (m.+1 < N)%N -> q m = q m.+1) ->
  exists2 x, x_l3 q A l r (calc_AAs A) KL eigh qrf tol (calc_C3 q N A ham) m = Some x &
  dotst q N (psi (rep A (Bl y)) N) (Ham3 q N ham (psi A N)) = adot y x.
Proof.
move=> hKL mN hh; have hL := hermL hl (ltnW mN); have hR := hermR hr mN.
rewrite /x_l3 calc_x_l3E //; last by have [] := lsE eighP tol0 hL.
eexists; first by reflexivity.
have [K hK] := @K_exists C D q N 3 A (fun n => R n) (O3 ham) isT.
have g := Bpar_l_gauge A eighP qrfP tol0 hL hR y; have P f := tdot_Bl A qrf eighP tol0 hL hR y f.
rewrite (grad3 hl hr _ hK hKL mN) !tdotD; have [_ ->] := lgauge_K K mN g; rewrite addr0.
have [_ -> _] := P (gl3 q A l ham m); have [-> _ _] := P (gr3 q N A r ham m).
have [_ _ ->] := P (gm3 q N A l r ham m).
have [_ -> _] := P (fun s => KLo KL m *m A m s).
rewrite -!adotDr; congr (adot _ _); rewrite -!addrA; congr (_ + _).
  by congr (_ *m _); apply: eq_bigr => s _; rewrite !mulmxA.
by rewrite addrC [X in X + _]addrC -addrA.
Qed.
End Comp.
