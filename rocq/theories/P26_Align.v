(* P26_Align.v -- C67: fidelity per site, phase and gauge alignment of uniform states. *)
From mathcomp Require Import all_ssreflect all_algebra.
From mathcomp Require Import zify.
From mathcomp.real_closed Require Import mxtens.
From Verif Require Import Base Spec Eps Chain ChainProofs ChainProofs2 LinAlg Struct Factor Multi Svd Uniform UCanon UAlign.
From Verif Require Import P17_UCanon.
Set Implicit Arguments.
Unset Strict Implicit.
Unset Printing Implicit Defensive.
Import Order.TTheory GRing.Theory Num.Theory.
Local Open Scope ring_scope.

Lemma lcmnn n : lcmn n n = n.
Proof. by case: n => // n; rewrite /lcmn gcdnn mulnK. Qed.

Section Fid.
Variables (C : numClosedFieldType) (eig : eig_routine C).
Hypothesis eigP : eig_contract eig.
Variables (q : nat).
Definition posdef n (X : 'M[C]_n) := herm X /\ above 0 X.
Lemma posdef_pd n (X : 'M[C]_n) : posdef X -> pd X.
Proof. by case=> h1 h2; have [u e] := evd_x_full (@eigh0_ok C) false (lexx 0) h1 h2; exists (fac_evd_x (@eigh0 C) false 0 X). Qed.
(* the overlap of N sites of two infinite chains, as a map on the bond space *)
Definition overlap N L1 D1 (A1 : nat -> nat -> 'M[C]_D1) L2 D2 (A2 : nat -> nat -> 'M[C]_D2) (X : 'M[C]_(D1, D2)) :=
  \sum_(c <- cfgs (fun _ => q) N 0) psi (wA L1 A1 0) N c *m X *m (psi (wA L2 A2 0) N c)^†.
Variables (L1 L2 D1 D2 : nat) (st1 : ust C D1) (st2 : ust C D2).
Hypotheses (L10 : (0 < L1)%N) (L20 : (0 < L2)%N) (D10 : (0 < D1)%N) (D20 : (0 < D2)%N).
Let N := lcmn L1 L2.
Let N0 : (0 < N)%N. Proof. by rewrite lcmn_gt0 L10. Qed.
Lemma cellR_overlap X : cellR N q (rep_cell L1 (uA st1)) (rep_cell L2 (uA st2)) X = overlap N L1 (uA st1) L2 (uA st2) X.
Proof. by have := carry_sum q (rep_cell L1 (uA st1)) (rep_cell L2 (uA st2)) X (leqnn N); rewrite subnn carry0. Qed.
(* what the eigenvalue routine delivers *)
Lemma fidE : exists w (V : 'M[C]_(D1, D2)), [/\ fidelity_per_site eig q L1 (uA st1) L2 (uA st2) = Some (N.-root `|w|, w, V),
    V != 0, overlap N L1 (uA st1) L2 (uA st2) V = w *: V
  & forall a X, X != 0 -> overlap N L1 (uA st1) L2 (uA st2) X = a *: X -> `|a| <= `|w|].
Proof.
pose E := Eblock N q (rep_cell L1 (uA st1)) (rep_cell L2 (uA st2)).
have n0 : (0 < D1 * D2)%N by rewrite muln_gt0 D10.
have [h1 h2] := eigP E n0.
have ne : argmax_abs (eig E) <> None.
  have [a [v v0 e]] := eigenvalue_exists E^T n0.
  have [||p pin _] := h2 a v^T; first by apply: contra v0 => /eqP/(congr1 trmx); rewrite trmxK trmx0 => ->.
  - by rewrite -[E]trmxK -trmx_mul e linearZ.
  - by move: pin; case: (eig E).
case ea: (argmax_abs (eig E)) ne => [[w v]|//] _.
have [[i hi ei] mx] := argmax_absP ea.
have vin : (w, v) \in eig E by rewrite -ei mem_nth.
have [/= v0 ev] := h1 _ vin.
have cellE X a : (cellR N q (rep_cell L1 (uA st1)) (rep_cell L2 (uA st2)) X = a *: X) <-> (E *m ravel X = a *: ravel X).
  rewrite Eblock_right -ravelZ; split=> [-> //|/(congr1 (@unravel C D1 D2))]; by rewrite !ravelK.
exists w, (unravel v); split.
- by rewrite /fidelity_per_site -/N -/E ea.
- by apply: contra v0 => /eqP h; rewrite -[v]unravelK h; apply/eqP/matrixP => a b; rewrite !mxE.
- by rewrite -cellR_overlap; apply/cellE; rewrite unravelK.
- move=> a X X0; rewrite -cellR_overlap => /cellE h.
  have [|p pin pa] := h2 _ (ravel X) _ h; first by apply: contra X0 => /eqP z; rewrite -[X]ravelK z; apply/eqP/matrixP => b c; rewrite !mxE.
  apply: le_trans pa _; have := mx (index p (eig E)); rewrite index_mem pin nth_index // => /(_ isT).
  by [].
Qed.
Hypotheses (v1 : valid L1 q st1) (v2 : valid L2 q st2).
Hypotheses (pl : forall k, (k < L1)%N -> posdef (ul st1 k)) (pr : forall k, (k < L2)%N -> posdef (ur st2 k)).
Let la n := wl L1 (ul st1) 0 n.
Let rb n := wr L2 (ur st2) 0 n.
Let hla n : pd (la n). Proof. by apply/posdef_pd/pl; rewrite prv_lt. Qed.
Let hrb n : pd (rb n). Proof. by apply/posdef_pd/pr; rewrite prv_lt. Qed.
Let wlN : la 0 = la N.
Proof. by rewrite /la /wl !add0n mod0n; have := dvdn_lcml L1 L2; rewrite /dvdn -/N => /eqP ->. Qed.
Let wrN : rb 0 = rb N.
Proof. by rewrite /rb /wr !add0n mod0n; have := dvdn_lcmr L1 L2; rewrite /dvdn -/N => /eqP ->. Qed.
Let ulw n : (n < N)%N -> la n.+1 = eps_l_noop q (la n) (rep_cell L1 (uA st1) n) (rep_cell L1 (uA st1) n).
Proof. by move=> h; have [_ h'] := wup_l 0 L10 v1 N; exact: h'. Qed.
Let urw n : (n < N)%N -> rb n = eps_r_noop q (rb n.+1) (rep_cell L2 (uA st2) n) (rep_cell L2 (uA st2) n).
Proof. by move=> h; have [_ h'] := wup_r 0 L20 v2 N; exact: h'. Qed.

(* the overlap of two normalised states does not grow: d <= 1; d is the per-site modulus of the leading eigenvalue *)
Theorem C67_fidelity : exists d w (V : 'M[C]_(D1, D2)), fidelity_per_site eig q L1 (uA st1) L2 (uA st2) = Some (d, w, V) /\
  [/\ 0 <= d <= 1, d ^+ N = `|w|, V != 0, overlap N L1 (uA st1) L2 (uA st2) V = w *: V
    & forall a X, X != 0 -> overlap N L1 (uA st1) L2 (uA st2) X = a *: X -> `|a| <= `|w|].
Proof.
have [w [V [e V0 eV mx]]] := fidE; exists (N.-root `|w|), w, V; split=> //; split=> //; last by rewrite rootCK.
rewrite rootC_ge0 // normr_ge0 /=.
have b : `|w| <= 1 by apply: (window_bound (fun n _ => hla n) (fun n _ => hrb n) ulw urw wlN wrN V0); rewrite cellR_overlap.
by rewrite rootC_le1.
Qed.
(* d = 1: the two states have the same tensors up to an intertwiner; around the overlap of the unit cells it picks up w *)
Theorem C67_intertwiner d w V : fidelity_per_site eig q L1 (uA st1) L2 (uA st2) = Some (d, w, V) -> d = 1 ->
  exists g : nat -> 'M[C]_(D1, D2), [/\ g N = V *m invmx (ur st2 L2.-1), g N != 0, g 0%N = w *: g N, `|w| = 1
    & forall n s, (n < N)%N -> (s < q)%N -> uA st1 (n %% L1)%N s *m g n.+1 = g n *m uA st2 (n %% L2)%N s].
Proof.
move=> e d1; have [w' [V' [e' V0 eV mx]]] := fidE; move: e; rewrite e' => -[ed ew eV'].
rewrite -{}ew -{}eV' {w V}.
have w1 : `|w'| = 1 by rewrite -(rootCK N0 `|w'|) ed d1 expr1n.
rewrite -cellR_overlap in eV.
pose A := rep_cell L1 (uA st1); pose B := rep_cell L2 (uA st2).
exists (fun n => carry q N A B V' n *m invmx (rb n)); split=> //.
- rewrite carryN -wrN /rb /wr add0n mod0n prv0 //.
- exact: (gN0 q A B (fun n _ => hrb n) V0).
- exact: (g0w wrN eV).
- move=> n s hn hs; exact: (window_inter (fun n _ => hla n) (fun n _ => hrb n) ulw urw wlN wrN eV w1 hn hs).
Qed.
(* phase_align leaves the state and its environments alone and multiplies every eigenvalue of the overlap of the unit
   cells by a power of the phase *)
Lemma prod_phase p m : \prod_(k < m * L1) (if (k %% L1)%N == 0%N then p else 1 : C) = p ^+ m.
Proof.
elim: m => [|m IH]; first by rewrite mul0n big_ord0.
rewrite mulSn addnC big_split_ord /= IH exprSr; congr (_ * _).
rewrite (eq_bigr (fun k : 'I_L1 => if (k : nat) == 0%N then p else 1)) => [|k _]; last by rewrite /= modnMDl modn_small.
by rewrite (bigD1 (Ordinal L10)) //= big1 ?mulr1 // => k; rewrite -val_eqE /= => /negbTE ->.
Qed.
Lemma overlap_phase w X : overlap N L1 (phase_fix w (uA st1)) L2 (uA st2) X =
  (w^* / `|w|) ^+ (N %/ L1) *: overlap N L1 (uA st1) L2 (uA st2) X.
Proof.
pose st1' := Ust (phase_fix w (uA st1)) (ul st1) (ur st1).
have e : overlap N L1 (phase_fix w (uA st1)) L2 (uA st2) X = cellR N q (rep_cell L1 (phase_fix w (uA st1))) (rep_cell L2 (uA st2)) X.
  by have := carry_sum q (rep_cell L1 (uA st1')) (rep_cell L2 (uA st2)) X (leqnn N); rewrite subnn carry0.
rewrite e -cellR_overlap -[rep_cell L1 (phase_fix w (uA st1))]/(scaled (rep_cell L1 (uA st1)) (fun k => if (k %% L1)%N == 0%N then w^* / `|w| else 1)).
rewrite phase_cell; congr (_ *: _); rewrite -prod_phase.
by have -> : (N %/ L1 * L1 = N)%N by exact: divnK (dvdn_lcml L1 L2).
Qed.
Theorem C67_phase_align d w V : fidelity_per_site eig q L1 (uA st1) L2 (uA st2) = Some (d, w, V) -> w != 0 ->
  exists A', phase_align eig q L1 L2 (uA st1) (uA st2) = Some (A', w) /\
  [/\ overlap N L1 A' L2 (uA st2) V = (w * (w^* / `|w|) ^+ (N %/ L1)) *: V,
      (L2 %| L1)%N -> overlap N L1 A' L2 (uA st2) V = `|w| *: V,
      forall a X, X != 0 -> overlap N L1 A' L2 (uA st2) X = a *: X -> `|a| <= `|w|,
      valid L1 q (Ust A' (ul st1) (ur st1)) & same_state L1 st1 (Ust A' (ul st1) (ur st1))].
Proof.
move=> e w0; have [w' [V' [e' V0 eV mx]]] := fidE; have := e; rewrite e' => -[_ ew eV']; rewrite ew in eV mx; rewrite eV' in eV V0.
exists (phase_fix w (uA st1)); rewrite /phase_align e; split=> //.
have p1 k : (k < L1)%N -> `|if k == 0%N then w^* / `|w| else 1 : C| = 1.
  by case: ifP => _ _; rewrite ?phase_norm ?normr1.
split.
- by rewrite overlap_phase eV scalerA mulrC.
- move=> dv; rewrite overlap_phase eV scalerA.
  have -> : (N %/ L1 = 1)%N by rewrite /N lcmnC; have /lcmn_idPr -> := dv; rewrite divnn L10.
  by rewrite expr1 phase_one.
- move=> a X X0; rewrite overlap_phase => h.
  have p0 : w^* / `|w| != 0 by rewrite -normr_eq0 phase_norm // oner_eq0.
  have := mx (a / (w^* / `|w|) ^+ (N %/ L1)) X X0.
  rewrite normrM normfV normrX phase_norm // expr1n invr1 mulr1; apply.
  by rewrite mulrC -scalerA -h scalerA mulVf ?scale1r // expf_neq0.
- exact: scaled_cons.
- by move=> k0 M c d' sc sd; apply: scaled_dens.
Qed.
End Fid.

Section GaugeAlign.
Variables (C : numClosedFieldType) (eig : eig_routine C) (eigh : eigh_routine C).
Hypotheses (eigP : eig_contract eig) (eighP : eigh_contract eigh).
Variables (q L D : nat).
Hypotheses (L0 : (0 < L)%N) (D0 : (0 < D)%N).
(* the left transfer map of the unit cell has no other fixed points than multiples of l *)
Definition injective_state (o : ust C D) := forall X : 'M[C]_D,
  \sum_(c <- cfgs (fun _ => q) L 0) (psi (wA L (uA o) 0) L c)^† *m X *m psi (wA L (uA o) 0) L c = X -> exists c, X = c *: ul o L.-1.
Lemma cellL_sum (B : nat -> nat -> 'M[C]_D) X m : foldl (fun y k => eps_l_noop q y (B k) (B k)) X (iota 0 m) =
  \sum_(c <- cfgs (fun _ => q) m 0) (@psi C (fun _ => D) B m c)^† *m X *m @psi C (fun _ => D) B m c.
Proof.
elim: m => [|m IH]; first by rewrite sum_cfgs0 /psi /= pid_mx_1 adj1 mul1mx mulmx1.
rewrite -[m.+1]addn1 iotaD foldl_cat /= add0n IH addn1 sum_cfgs_rcons /eps_l_noop exchange_big /=.
apply: eq_bigr => s _; rewrite mulmx_suml mulmx_sumr; apply: eq_big_seq => c /size_cfgs sc.
rewrite /psi (@amp_rcons C (fun _ => D)) ?sc // adjM !mulmxA //.
Qed.
Variables (st o : ust C D).
Hypotheses (v1 : valid L q st) (vo : valid L q o).
Hypotheses (pl : forall k, (k < L)%N -> posdef (ul st k)) (pr : forall k, (k < L)%N -> posdef (ur o k)).
(* self differs from other by a gauge transformation and phases only: d = 1 *)
Theorem C67_gauge_fidelity (h hi : nat -> 'M[C]_D) (p : nat -> C) :
  (forall k, (k < L)%N -> h k *m hi k = 1%:M) -> (forall k, (k < L)%N -> `|p k| = 1) ->
  (forall k s, (k < L)%N -> (s < q)%N -> uA st k s = p k *: (h (prv L k) *m uA o k s *m hi k)) ->
  exists w V, fidelity_per_site eig q L (uA st) L (uA o) = Some (1, w, V).
Proof.
move=> hh p1 eA; have [d [w [V [e [/andP[d0 d1] dw V0 eV mx]]]]] := C67_fidelity eigP L0 L0 D0 D0 v1 vo pl pr.
move: e dw eV mx; rewrite lcmnn => e dw eV mx; exists w, V; rewrite e; congr (Some (_, _, _)).
pose X := h L.-1 *m ur o L.-1; pose bl n := prv L (n %% L)%N.
have car m : (m <= L)%N -> carry q L (rep_cell L (uA st)) (rep_cell L (uA o)) X (L - m) =
    (\prod_(L - m <= i < L) p i) *: (h (bl (L - m)%N) *m ur o (bl (L - m)%N)).
  elim: m => [|m IH] hm; first by rewrite subn0 carryN big_geq // scale1r /bl modnn prv0.
  have k1 : (L - m.+1 < L)%N by lia.
  have k2 : (L - m.+1).+1 = (L - m)%N by lia.
  rewrite carryS // k2 IH ?(ltnW hm) // eps_rZ [in RHS]big_ltn // k2 mulrC -scalerA; congr (_ *: _).
  have eb : bl (L - m)%N = (L - m.+1)%N.
    by rewrite /bl -k2 prv_next // modn_small.
  have eb' : bl (L - m.+1)%N = prv L (L - m.+1) by rewrite /bl modn_small.
  have [_ er] := vo k1; rewrite eb eb' er /eps_r_noop mulmx_sumr scaler_sumr; apply: eq_bigr => s _.
  rewrite /rep_cell modn_small // eA // -!scalemxAl; congr (_ *: _).
  by rewrite !mulmxA -(mulmxA _ (hi _)) (mulmx1C (hh _ k1)) mulmx1.
have X0 : X != 0.
  have uh : h L.-1 \in unitmx by have [] := mulmx1_unit (hh L.-1 _); first by lia.
  have ur' : ur o L.-1 \in unitmx by apply/pd_unit/posdef_pd/pr; lia.
  apply: contraTneq D0 => X0; have : X \in unitmx by rewrite unitmx_mul uh.
  rewrite X0 -eqn0Ngt unitmxE => /unitrP[y [+ _]].
  by case: (D) => // n; rewrite det0 mulr0 => /esym/eqP; rewrite oner_eq0.
have oX : overlap q L L (uA st) L (uA o) X = (\prod_(i < L) p i) *: X.
  have := cellR_overlap q L L st o X; rewrite lcmnn => <-; rewrite -carry0.
  have := car L (leqnn L); rewrite subnn => ->; rewrite big_mkord /bl mod0n prv0 //.
have := mx _ _ X0 oX; rewrite normr_prod big1 => [w1|i _]; last exact: p1.
apply/eqP; rewrite eq_le d1 /=.
have : 1 <= d ^+ L by rewrite dw.
by rewrite expr_ge1 // -lt0n.
Qed.
(* gauge_align on states with d = 1 succeeds and makes the tensors equal; the state is unchanged and the stored
   environments fit the new tensors; the old tensors are w g A' g^-1, cell by cell *)
Hypotheses (plo : forall k, (k < L)%N -> posdef (ul o k)) (inj : injective_state o).
Theorem C67_gauge_align tol w V : 0 <= tol -> fidelity_per_site eig q L (uA st) L (uA o) = Some (1, w, V) ->
  exists st' g gi, gauge_align eig eigh q L tol st o = Some (st', Some (g, gi, w)) /\
  [/\ forall k s, (k < L)%N -> (s < q)%N -> uA st' k s = uA o k s,
      valid L q st', same_state L st st',
      forall k, (k < L)%N -> [/\ g k *m gi k = 1%:M, ul st' k = (g k)^† *m ul st k *m g k & ur st' k = gi k *m ur st k *m (gi k)^†]
    & `|w| = 1 /\ forall k s, (k < L)%N -> (s < q)%N ->
        uA st k s = (if k == 0%N then w else 1) *: (g (prv L k) *m uA o k s *m gi k)].
Proof.
move=> t0 e; have [G [eGN GN0 eG0 w1 int]] := C67_intertwiner eigP L0 L0 D0 D0 v1 vo pl pr e erefl.
move: eGN GN0 eG0 int; rewrite lcmnn => eGN GN0 eG0 int0.
have int n s : (n < L)%N -> (s < q)%N -> uA st n s *m G n.+1 = G n *m uA o n s.
  by move=> hn hs; have := int0 n s hn hs; rewrite modn_small.
have w0 : w != 0 by rewrite -normr_eq0 w1 oner_eq0.
have uG n : (n <= L)%N -> G n \in unitmx.
  apply: (inter_unit (A := uA st) (B := uA o) (la := wl L (ul st) 0) (lb := wl L (ul o) 0) (w := w) (q := q)) => //.
  - by move=> m _; apply/posdef_pd/pl; rewrite prv_lt.
  - by move=> m _; apply/posdef_pd/plo; rewrite prv_lt.
  - by move=> m hm; have [_ h'] := wup_l 0 L0 v1 L; have := h' m hm; rewrite /wA add0n modn_small.
  - by move=> m hm; have [_ h'] := wup_l 0 L0 vo L; have := h' m hm; rewrite /wA add0n modn_small.
  - by rewrite /wl !add0n modnn mod0n.
  - move=> X eX; rewrite /wl add0n mod0n prv0 //; apply: inj; rewrite -[RHS]eX /cellL cellL_sum.
    apply: eq_big_seq => c /size_cfgs sc.
    have ea : psi (wA L (uA o) 0) L c = @psi C (fun _ => D) (uA o) L c.
      have gen m cs : (m + size cs <= L)%N -> amp (wA L (uA o) 0) L m cs = @amp C (fun _ => D) (uA o) L m cs.
        elim: cs m => [|t cs IH] m //= hm; rewrite IH; last by lia.
        by rewrite {1}/wA add0n modn_small //; lia.
      by apply: gen; rewrite add0n sc.
    by rewrite ea.
pose st0 := Ust (phase_fix w (uA st)) (ul st) (ur st).
have p1 k : (k < L)%N -> `|if k == 0%N then w^* / `|w| else 1 : C| = 1.
  by case: ifP => _ _; rewrite ?phase_norm ?normr1.
pose h k := G k.+1.
have inter k s : (k < L)%N -> (s < q)%N -> uA st0 k s *m h k = h (prv L k) *m uA o k s.
  move=> kL hs; rewrite /= /phase_fix /scaled -scalemxAl int // /h; case: k kL => [|k] kL /=; last by rewrite prvS // scale1r.
  by rewrite prv0 // prednK // eG0 -scalemxAl scalerA phase_one // w1 scale1r.
have [||||st' [g [gi [el [h1 h2 h3 h4]]]]] := @ga_allP C eigh q D L eighP L0 st0 o h V (fun _ => 0) (fun _ => 0) _ vo _ _ inter.
- exact: scaled_cons.
- by move=> k kL; split; [exact: (pr kL).1 | exact/pd_unit/posdef_pd/pr].
- by move=> k kL; apply: uG.
- have L1 : (L.-1 < L)%N by lia.
  by rewrite /h prednK // eGN mulmxKV //; exact/pd_unit/posdef_pd/pr.
exists st', g, gi; split.
  by rewrite /gauge_align e subrr normr0 (le_gtF t0) el.
split=> //.
- by move=> k0 M c d sc sd; rewrite h4 // /st0 /= scaled_dens.
- by move=> k kL; have [-> -> -> ->] := h2 k kL; split=> //; rewrite mulmxV // uG.
- split=> // k s kL hs; have [_ -> _ _] := h2 k kL; have [-> _ _ _] := h2 (prv L k) (prv_lt L0 k).
  rewrite -inter // -mulmxA mulmxV ?uG // mulmx1 /= /phase_fix /scaled.
  case: ifP => _; rewrite scalerA ?mulr1 ?scale1r //.
  by rewrite mulrC phase_one // w1 scale1r.
Qed.
(* a gauge-transformed copy, with a phase on every site, is brought back exactly *)
Theorem C67_gauge_copy tol (h hi : nat -> 'M[C]_D) (p : nat -> C) : 0 <= tol ->
  (forall k, (k < L)%N -> h k *m hi k = 1%:M) -> (forall k, (k < L)%N -> `|p k| = 1) ->
  (forall k s, (k < L)%N -> (s < q)%N -> uA st k s = p k *: (h (prv L k) *m uA o k s *m hi k)) ->
  exists st' g gi w, gauge_align eig eigh q L tol st o = Some (st', Some (g, gi, w)) /\
  forall k s, (k < L)%N -> (s < q)%N -> uA st' k s = uA o k s.
Proof.
move=> t0 h1 h2 h3; have [w [V e]] := C67_gauge_fidelity h1 h2 h3.
have [st' [g [gi [e' [h4 _ _ _ _]]]]] := C67_gauge_align t0 e.
by exists st', g, gi, w.
Qed.
(* when the fidelity differs from 1 by more than the tolerance nothing is changed and nothing is returned *)
Theorem C67_no_align tol d w V : fidelity_per_site eig q L (uA st) L (uA o) = Some (d, w, V) -> tol < `|d - 1| ->
  gauge_align eig eigh q L tol st o = Some (st, None).
Proof. by move=> e h; rewrite /gauge_align e h. Qed.
End GaugeAlign.
Print Assumptions C67_fidelity.
Print Assumptions C67_intertwiner.
Print Assumptions C67_phase_align.
Print Assumptions C67_gauge_fidelity.
Print Assumptions C67_gauge_align.
Print Assumptions C67_gauge_copy.
Print Assumptions C67_no_align.

(* ---- a unit cell of two sites with bond dimension 2, and a copy of it in another gauge ---- *)
Section Copy.
Variables (C : numClosedFieldType) (q L D : nat).
Hypothesis L0 : (0 < L)%N.
Definition copy (h hi : nat -> 'M[C]_D) (p : nat -> C) (o : ust C D) :=
  Ust (fun k s => p k *: (h (prv L k) *m uA o k s *m hi k)) (fun k => (hi k)^† *m ul o k *m hi k) (fun k => h k *m ur o k *m (h k)^†).
Lemma copy_valid h hi p o : (forall k, (k < L)%N -> h k *m hi k = 1%:M) -> (forall k, (k < L)%N -> `|p k| = 1) ->
  valid L q o -> valid L q (copy h hi p o).
Proof.
move=> hh p1 vo k kL; have [h1 h2] := vo k kL.
have a1 : hi (prv L k) *m h (prv L k) = 1%:M by apply/mulmx1C/hh; rewrite prv_lt.
have a2 : hi k *m h k = 1%:M by exact/mulmx1C/hh.
have a1' : (h (prv L k))^† *m (hi (prv L k))^† = 1%:M by rewrite -adjM a1 adj1.
have a2' : (h k)^† *m (hi k)^† = 1%:M by rewrite -adjM a2 adj1.
have pp : (p k)^* * p k = 1 by rewrite -normCKC p1 // expr1n.
split; rewrite /= ?h1 ?h2 /eps_l_noop /eps_r_noop mulmx_sumr mulmx_suml; apply: eq_bigr => s _.
  rewrite adjZ -!(scalemxAl, scalemxAr) scalerA pp scale1r !adjM -!mulmxA.
  by rewrite (mulmxA (h _)^†) a1' mul1mx (mulmxA (hi (prv L k))) a1 mul1mx.
rewrite adjZ -!(scalemxAl, scalemxAr) scalerA mulrC pp scale1r !adjM -!mulmxA.
by rewrite (mulmxA (hi k)) a2 mul1mx (mulmxA (h k)^†) a2' mul1mx.
Qed.
End Copy.
Section Example.
Variable C : numClosedFieldType.
Lemma x3_valid2 : valid 2 4 (x3 C).
Proof.
have [h1 h2] := @x3_valid C 0%N isT.
by move=> k kL; split; [exact: h1 | exact: h2].
Qed.
Lemma posdef_gram n (X : 'M[C]_n) : X \in unitmx -> posdef (X^† *m X).
Proof. by move=> u; split; [exact: herm_gram | exact: above_gram]. Qed.
Lemma x3_posl k : posdef (ul (x3 C) k). Proof. exact: posdef_gram (x3Y_unit C). Qed.
Lemma x3_posr k : posdef (ur (x3 C) k).
Proof. by have := posdef_gram (x3R_unit C); rewrite adjK. Qed.
Lemma x3_inj : injective_state 4 2 (x3 C).
Proof.
move=> X; rewrite -[LHS]cellL_sum /= => <-.
by eexists; rewrite -[eps_l_noop 4 _ (x3A C 1) _]/(eps_l_noop 4 _ (x3A C 0) (x3A C 0)) x3_eps_l.
Qed.
Definition xh (k : nat) : 'M[C]_2 := if k == 0%N then diag_mx (\row_i (i.+2)%:R) else 1%:M.
Definition xhi (k : nat) : 'M[C]_2 := invmx (xh k).
Definition xp (k : nat) : C := if k == 0%N then 'i else -1.
Definition x3c := copy 2 xh xhi xp (x3 C).
Lemma xh_unit k : xh k \in unitmx.
Proof.
rewrite /xh; case: ifP => _; last exact: unitmx1.
by rewrite unitmxE det_diag unitfE; apply/prodf_neq0 => i _; rewrite mxE pnatr_eq0.
Qed.
Lemma C67_example (eig : eig_routine C) (eigh : eigh_routine C) : eig_contract eig -> eigh_contract eigh ->
  (exists2 s : nat, (s < 4)%N & uA x3c 0 s <> uA (x3 C) 0 s) /\
  exists st' g gi w, gauge_align eig eigh 4 2 0 x3c (x3 C) = Some (st', Some (g, gi, w)) /\
  forall k s, (k < 2)%N -> (s < 4)%N -> uA st' k s = uA (x3 C) k s.
Proof.
move=> eP ehP; have hh k : (k < 2)%N -> xh k *m xhi k = 1%:M by move=> _; rewrite mulmxV ?xh_unit.
have pp k : (k < 2)%N -> `|xp k| = 1 by rewrite /xp; case: ifP => _ _; rewrite ?normCi ?normrN1.
split; last first.
  apply: (C67_gauge_copy eP ehP (isT : (0 < 2)%N) (isT : (0 < 2)%N) _ x3_valid2 _ _ _ x3_inj (lexx 0) hh pp).
  - exact: copy_valid x3_valid2.
  - move=> k _ /=; rewrite (_ : _ *m _ *m _ = (x3Y C *m xhi k)^† *m (x3Y C *m xhi k)); last by rewrite adjM !mulmxA.
    by apply: posdef_gram; rewrite unitmx_mul x3Y_unit unitmx_inv xh_unit.
  - by move=> k _; exact: x3_posr.
  - by move=> k _; exact: x3_posl.
  - by [].
exists 0%N => //; rewrite /= mul1mx => /(congr1 (mulmx^~ (xh 0))).
rewrite -scalemxAl mulmxKV ?xh_unit // /xh /= mul_mx_diag => /(congr1 (fun M : 'M[C]_2 => M 0 0)).
rewrite mxE [in RHS]mxE [X in _ = _ * X]mxE.
have -> : x3A C 0 0 0 0 = 3%:R^-1.
  have e0 : inord 0 = 0 :> 'I_2 by apply: val_inj; rewrite /= inordK.
  by rewrite /x3A /x3E /= e0 /x3Y mul_mx_diag mxE [X in _ * X]mxE mulr1 ent2 !mxE /= !mulr0 !mulr1 addr0.
have n3 : (3%:R^-1 : C) != 0 by rewrite invr_eq0 pnatr_eq0.
rewrite /xp mulrC => /(mulfI n3) /(congr1 (fun x : C => x ^+ 2)).
rewrite /= sqrCi -natrX => /eqP; rewrite eq_sym -subr_eq0 opprK -(natrD _ _ 1) pnatr_eq0 //.
Qed.
(* two states of bond dimension 1 that agree up to a phase, stored with unit cells of one and two sites: phase_align
   leaves an overlap whose eigenvalue is not real *)
Definition ph1 : ust C 1 := Ust (fun _ _ => (sqrtC 'i)%:M) (fun _ => 1%:M) (fun _ => 1%:M).
Definition ph2 : ust C 1 := Ust (fun _ _ => 1%:M) (fun _ => 1%:M) (fun _ => 1%:M).
Theorem C67_phase_cells_refuted (eig : eig_routine C) : eig_contract eig ->
  [/\ valid 1 1 ph1, valid 2 1 ph2 & exists A', phase_align eig 1 1 2 (uA ph1) (uA ph2) = Some (A', 'i) /\
    forall a X, X != 0 -> overlap 1 2 1 A' 2 (uA ph2) X = a *: X -> a \isn't Num.real].
Proof.
move=> eP; have n1 : `|sqrtC 'i : C| = 1 by apply/eqP; rewrite -(@pexpr_eq1 _ _ 2) ?normr_ge0 // -normrX sqrtCK normCi.
have adjs (x : C) : (x%:M : 'M[C]_1)^† = (x^*)%:M.
  by apply/matrixP => i j; rewrite !mxE !ord1 /= !mulr1n.
have V1 : valid 1 1 ph1.
  move=> k _; rewrite /= /eps_l_noop /eps_r_noop !big_ord_recl !big_ord0 !addr0 !adjs mul1mx mulmx1 -!scalar_mxM.
  by rewrite -normCKC -normCK n1 expr1n.
have V2 : valid 2 1 ph2.
  by move=> k _; rewrite /= /eps_l_noop /eps_r_noop !big_ord_recl !big_ord0 !addr0 !adj1 !mulmx1.
split=> //.
have pd1 k : (k < 1)%N -> posdef (ul ph1 k).
  by move=> _ /=; have := posdef_gram (unitmx1 C 1); rewrite adj1 mul1mx.
have pd2 k : (k < 2)%N -> posdef (ur ph2 k).
  by move=> _ /=; have := posdef_gram (unitmx1 C 1); rewrite adj1 mul1mx.
have ov A' X : overlap 1 2 1 A' 2 (uA ph2) X = A' 0%N 0%N *m A' 0%N 0%N *m X.
  rewrite /overlap !sum_cfgsS big_ord_recl big_ord0 addr0 sum_cfgsS big_ord_recl big_ord0 addr0 sum_cfgs0.
  rewrite /psi /= /wA /= pid_mx_1 mulmx1 !modn1 [X in X^†](_ : _ = (1%:M : 'M[C]_1)); last by rewrite !mul1mx pid_mx_1.
  by rewrite adj1 mulmx1.
have [d [w [V [e [d1 dw V0 eV mx]]]]] := C67_fidelity eP (isT : (0 < 1)%N) (isT : (0 < 2)%N) (isT : (0 < 1)%N) (isT : (0 < 1)%N) V1 V2 pd1 pd2.
have ew : w = 'i.
  move: eV; rewrite -[lcmn 1 2]/2%N ov -scalar_mxM -expr2 sqrtCK mul_scalar_mx => /eqP.
  by rewrite -subr_eq0 -scalerBl scaler_eq0 (negbTE V0) orbF subr_eq0 => /eqP.
rewrite {}ew in e.
exists (phase_fix 'i (uA ph1)); split; first by rewrite /phase_align e.
move=> a X X0; rewrite ov /phase_fix /scaled /= -scalemxAl -scalemxAr scalerA -!scalemxAl -scalar_mxM -[sqrtC 'i * _]expr2 sqrtCK mul_scalar_mx scalerA.
rewrite normCi divr1 => /eqP; rewrite -subr_eq0 -scalerBl scaler_eq0 (negbTE X0) orbF subr_eq0 => /eqP <-.
rewrite conjCi mulrNN -expr2 sqrCi mulN1r rpredN.
exact: nonRealCi.
Qed.
End Example.
Print Assumptions C67_example.
Print Assumptions C67_phase_cells_refuted.
