(* P30_SwOverlap.v -- C72: the overlap of two sandwich states. *)
From mathcomp Require Import all_ssreflect all_algebra.
From mathcomp Require Import zify.
From mathcomp.real_closed Require Import mxtens.
From Verif Require Import Base Spec Eps Chain ChainProofs ChainProofs2 LinAlg Struct Factor Multi Svd Canon Uniform UCanon UAlign SwOverlap.
From Verif Require Import P17_UCanon P26_Align.
Set Implicit Arguments.
Unset Strict Implicit.
Unset Printing Implicit Defensive.
Import Order.TTheory GRing.Theory Num.Theory.
Local Open Scope ring_scope.

Section Bulk.
Variables (C : numClosedFieldType) (eig : eig_routine C).
Hypothesis eigP : eig_contract eig.
Variables (q L D : nat).
Hypotheses (L0 : (0 < L)%N) (D0 : (0 < D)%N).
Local Notation qq := (fun _ : nat => q).
(* the amplitudes of one unit cell *)
Local Notation cell o c := (psi (wA L (uA o) 0) L c).
(* s is o in another gauge, up to phases, with the environments carried along *)
Definition related (s o : ust C D) (h hi : nat -> 'M[C]_D) := exists p : nat -> C, forall k, (k < L)%N ->
  [/\ h k *m hi k = 1%:M, `|p k| = 1, forall t, (t < q)%N -> uA s k t = p k *: (h (prv L k) *m uA o k t *m hi k),
      ul o k = (h k)^† *m ul s k *m h k & ur s k = h k *m ur o k *m (h k)^†].
(* the environments are the only eigenvectors of the transfer map with an eigenvalue of modulus 1 or more *)
Definition primitive_right (o : ust C D) := forall a (X : 'M[C]_D), X != 0 -> 1 <= `|a| ->
  \sum_(c <- cfgs qq L 0) cell o c *m X *m (cell o c)^† = a *: X -> exists b, X = b *: ur o L.-1.
Definition primitive_left (o : ust C D) := forall a (X : 'M[C]_D), X != 0 -> 1 <= `|a| ->
  \sum_(c <- cfgs qq L 0) (cell o c)^† *m X *m cell o c = a *: X -> exists b, X = b *: ul o L.-1.

Lemma cell_related s o h hi : related s o h hi -> exists2 ph : C, `|ph| = 1 &
  forall c, c \in cfgs qq L 0 -> cell s c = ph *: (h L.-1 *m cell o c *m hi L.-1).
Proof.
case=> p rel; exists (\prod_(0 <= k < L) p (k %% L)%N).
  by rewrite normr_prod big1 // => k _; have [] := rel (k %% L)%N (ltn_pmod _ L0).
pose H n := h (prv L (n %% L)%N); pose Hi n := hi (prv L (n %% L)%N).
move=> c cin; have := @amp_gauge C (fun _ => D) qq (wA L (uA s) 0) (wA L (uA o) 0) (fun k => p (k %% L)%N) H Hi L L 0 c (add0n L) cin.
rewrite /H /Hi mod0n modnn prv0 // => e; apply: e.
- by move=> m _; have [] := rel _ (prv_lt L0 (m %% L)%N).
- move=> m t _ tq; have [_ _ e _ _] := rel (m %% L)%N (ltn_pmod _ L0).
  by rewrite /wA add0n e // prv_next.
Qed.
Lemma right_fixed (o : ust C D) : valid L q o -> \sum_(c <- cfgs qq L 0) cell o c *m ur o L.-1 *m (cell o c)^† = ur o L.-1.
Proof.
move=> vo; have [_ hr] := wup_r 0 L0 vo L.
have e : forall k n, (n + k)%N = L -> rr qq (wA L (uA o) 0) (wA L (uA o) 0) (wr L (ur o) 0) k n = wr L (ur o) 0 n.
  elim=> [|k IH] n en //=; rewrite IH; last by rewrite addSnnS.
  by rewrite -hr // -en -addSnnS leq_addr.
have := e L 0%N (add0n L); rewrite (rrE _ _ _ _ (add0n L)).
by rewrite /wr !add0n mod0n modnn prv0.
Qed.
Lemma two_cellL (A1 A2 : nat -> nat -> 'M[C]_D) X m : foldl (fun y k => eps_l_noop q y (A1 k) (A2 k)) X (iota 0 m) =
  \sum_(c <- cfgs qq m 0) (@psi C (fun _ => D) A1 m c)^† *m X *m @psi C (fun _ => D) A2 m c.
Proof.
elim: m => [|m IH]; first by rewrite sum_cfgs0 /psi /= pid_mx_1 adj1 mul1mx mulmx1.
rewrite -[m.+1]addn1 iotaD foldl_cat /= add0n IH addn1 sum_cfgs_rcons /eps_l_noop exchange_big /=.
apply: eq_bigr => s _; rewrite mulmx_suml mulmx_sumr; apply: eq_big_seq => c /size_cfgs sc.
rewrite /psi !(@amp_rcons C (fun _ => D)) ?sc // adjM !mulmxA //.
Qed.
Lemma left_fixed (o : ust C D) : valid L q o -> \sum_(c <- cfgs qq L 0) (cell o c)^† *m ul o L.-1 *m cell o c = ul o L.-1.
Proof.
move=> vo; rewrite -[LHS]two_cellL; have [_ hl] := wup_l 0 L0 vo L.
have e : forall m, (m <= L)%N -> foldl (fun y k => eps_l_noop q y (wA L (uA o) 0 k) (wA L (uA o) 0 k)) (wl L (ul o) 0 0) (iota 0 m) = wl L (ul o) 0 m.
  elim=> [|m IH] hm //; rewrite -[m.+1]addn1 iotaD foldl_cat /= IH; last exact: ltnW.
  by rewrite addn1 hl.
have := e L (leqnn L); rewrite /wl !add0n mod0n modnn prv0 //.
Qed.
(* what the eigenvalue routine delivers for left=True *)
Lemma fidE_left (s o : ust C D) : exists w (V : 'M[C]_D), [/\ fidelity_left eig q L (uA s) L (uA o) = Some (L.-root `|w|, w, V),
    V != 0, \sum_(c <- cfgs qq L 0) (cell s c)^† *m V *m cell o c = w *: V
  & forall a X, X != 0 -> \sum_(c <- cfgs qq L 0) (cell s c)^† *m X *m cell o c = a *: X -> `|a| <= `|w|].
Proof.
rewrite /fidelity_left lcmnn; set E := (Eblock _ _ _ _)^†.
have n0 : (0 < D * D)%N by rewrite muln_gt0 D0.
have [h1 h2] := eigP E n0.
have ne : argmax_abs (eig E) <> None.
  have [a [v v0 e]] := eigenvalue_exists E^T n0.
  have [||p pin _] := h2 a v^T; first by apply: contra v0 => /eqP/(congr1 trmx); rewrite trmxK trmx0 => ->.
  - by rewrite -[E]trmxK -trmx_mul e linearZ.
  - by move: pin; case: (eig E).
case ea: (argmax_abs (eig E)) ne => [[w v]|//] _.
have [[i hi ei] mx] := argmax_absP ea.
have vin : (w, v) \in eig E by rewrite -ei mem_nth.
have [/= v0 ev] := h1 _ vin.
have cellE X a : (\sum_(c <- cfgs qq L 0) (cell s c)^† *m X *m cell o c = a *: X) <-> (E *m ravel X = a *: ravel X).
  have -> : \sum_(c <- cfgs qq L 0) (cell s c)^† *m X *m cell o c = cellL L q (rep_cell L (uA s)) (rep_cell L (uA o)) X.
    by rewrite -[LHS]two_cellL.
  rewrite Eblock_left -ravelZ; split=> [-> //|/(congr1 (@unravel C D D))]; by rewrite !ravelK.
exists w, (unravel v); split=> //.
- by apply: contra v0 => /eqP h; rewrite -[v]unravelK h; apply/eqP/matrixP => a b; rewrite !mxE.
- by apply/cellE; rewrite unravelK.
- move=> a X X0 /cellE h.
  have [|p pin pa] := h2 _ (ravel X) _ h; first by apply: contra X0 => /eqP z; rewrite -[X]ravelK z; apply/eqP/matrixP => b c; rewrite !mxE.
  apply: le_trans pa _; have := mx (index p (eig E)); rewrite index_mem pin nth_index // => /(_ isT).
  by [].
Qed.

Variables (s o : ust C D) (h hi : nat -> 'M[C]_D).
Hypotheses (rel : related s o h hi) (vo : valid L q o).
Let hh : h L.-1 *m hi L.-1 = 1%:M. Proof. by case: rel => p /(_ L.-1 _)[]; first by rewrite prednK. Qed.
Lemma right_match : posdef (ur o L.-1) -> primitive_right o -> exists w V z, [/\
  fidelity_per_site eig q L (uA s) L (uA o) = Some (1, w, V), `|z| = 1
  & right_gauge (ur s L.-1) (ur o L.-1) V = Some (z *: hi L.-1)].
Proof.
move=> pr pm; have [w [V []]] := @fidE C eig eigP q L L D D s o D0 D0; rewrite lcmnn => e V0 eV mx.
have [ph ph1 ecell] := cell_related rel; have ph0 : ph != 0 by rewrite -normr_eq0 ph1 oner_eq0.
have [uh _] := mulmx1_unit hh; have uo := pd_unit (posdef_pd pr).
have ov X : overlap q L L (uA s) L (uA o) (h L.-1 *m X) = ph *: (h L.-1 *m \sum_(c <- cfgs qq L 0) cell o c *m X *m (cell o c)^†).
  rewrite /overlap mulmx_sumr scaler_sumr; apply: eq_big_seq => c cin; rewrite ecell // -!scalemxAl; congr (_ *: _).
  by rewrite !mulmxA -(mulmxA _ (hi _)) (mulmx1C hh) mulmx1.
pose Y := hi L.-1 *m V; have eY : V = h L.-1 *m Y by rewrite /Y mulmxA hh mul1mx.
have w1 : 1 <= `|w|.
  have := mx ph (h L.-1 *m ur o L.-1); rewrite ph1; apply; last by rewrite ov right_fixed.
  by apply: unit_neq0 => //; rewrite unitmx_mul uh.
have Y0 : Y != 0 by apply: contraNneq V0 => Y0; rewrite eY Y0 mulmx0.
have eo : \sum_(c <- cfgs qq L 0) cell o c *m Y *m (cell o c)^† = (w / ph) *: Y.
  have := eV; rewrite eY ov => /(congr1 (fun X => hi L.-1 *m X)).
  rewrite -!scalemxAr !mulmxA (mulmx1C hh) !mul1mx => /(congr1 (fun X => ph^-1 *: X)).
  by rewrite !scalerA mulVf // scale1r mulrC.
have wp : 1 <= `|w / ph| by rewrite normrM normfV ph1 invr1 mulr1.
have [b eb] := pm _ _ Y0 wp eo.
have b0 : b != 0 by apply: contraNneq Y0 => b0; rewrite eb b0 scale0r.
have ew : w = ph.
  move: eo; rewrite {1}eb.
  have -> : \sum_(c <- cfgs qq L 0) cell o c *m (b *: ur o L.-1) *m (cell o c)^† = Y.
    by rewrite eb -[in RHS](right_fixed vo) scaler_sumr; apply: eq_bigr => c _; rewrite -scalemxAr -scalemxAl.
  move/eqP; rewrite -subr_eq0 -{1}[Y]scale1r -scalerBl scaler_eq0 (negbTE Y0) orbF subr_eq0 => /eqP e1.
  by rewrite -[w](divfK ph0) -e1 mul1r.
have er : ur s L.-1 = h L.-1 *m ur o L.-1 *m (h L.-1)^† by case: rel => p /(_ L.-1 _)[]; first by rewrite prednK.
have [z z1 ez] := right_gaugeE D0 hh uo pr.1 er b0.
exists w, V, z; split=> //; first by rewrite e ew ph1 rootC1.
by rewrite eY eb -scalemxAr.
Qed.
Lemma left_match : posdef (ul s L.-1) -> primitive_left o -> exists w V z, [/\
  fidelity_left eig q L (uA s) L (uA o) = Some (1, w, V), `|z| = 1
  & left_gauge (ul s L.-1) (ul o L.-1) V = Some (z *: h L.-1)].
Proof.
move=> pl pm; have [w [V [e V0 eV mx]]] := fidE_left s o.
have [ph ph1 ecell] := cell_related rel; have ph0 : ph^* != 0 by rewrite conjC_eq0 -normr_eq0 ph1 oner_eq0.
have [uh uhi] := mulmx1_unit hh; have us := pd_unit (posdef_pd pl).
have el : ul o L.-1 = (h L.-1)^† *m ul s L.-1 *m h L.-1 by case: rel => p /(_ L.-1 _)[]; first by rewrite prednK.
have ehl : (hi L.-1)^† *m ul o L.-1 = ul s L.-1 *m h L.-1 by rewrite el !mulmxA -adjM hh adj1 mul1mx.
have hh' : (h L.-1)^† *m (hi L.-1)^† = 1%:M by rewrite -adjM (mulmx1C hh) adj1.
have ov X : \sum_(c <- cfgs qq L 0) (cell s c)^† *m ((hi L.-1)^† *m X) *m cell o c =
    ph^* *: ((hi L.-1)^† *m \sum_(c <- cfgs qq L 0) (cell o c)^† *m X *m cell o c).
  rewrite mulmx_sumr scaler_sumr; apply: eq_big_seq => c cin; rewrite ecell // adjZ -!scalemxAl; congr (_ *: _).
  by rewrite !adjM !mulmxA -(mulmxA _ (h _)^†) hh' mulmx1.
pose Y := (h L.-1)^† *m V; have eY : V = (hi L.-1)^† *m Y by rewrite /Y mulmxA (mulmx1C hh') mul1mx.
have w1 : 1 <= `|w|.
  have := mx ph^* ((hi L.-1)^† *m ul o L.-1); rewrite norm_conjC ph1; apply; last by rewrite ov left_fixed.
  by rewrite ehl; apply: unit_neq0 => //; rewrite unitmx_mul us.
have Y0 : Y != 0 by apply: contraNneq V0 => Y0; rewrite eY Y0 mulmx0.
have eo : \sum_(c <- cfgs qq L 0) (cell o c)^† *m Y *m cell o c = (w / ph^*) *: Y.
  have := eV; rewrite eY ov => /(congr1 (fun X => (h L.-1)^† *m X)).
  rewrite -!scalemxAr !mulmxA hh' !mul1mx => /(congr1 (fun X => (ph^*)^-1 *: X)).
  by rewrite !scalerA mulVf // scale1r mulrC.
have wp : 1 <= `|w / ph^*| by rewrite normrM normfV norm_conjC ph1 invr1 mulr1.
have [b eb] := pm _ _ Y0 wp eo.
have b0 : b != 0 by apply: contraNneq Y0 => b0; rewrite eb b0 scale0r.
have ew : w = ph^*.
  move: eo; rewrite {1}eb.
  have -> : \sum_(c <- cfgs qq L 0) (cell o c)^† *m (b *: ul o L.-1) *m cell o c = Y.
    by rewrite eb -[in RHS](left_fixed vo) scaler_sumr; apply: eq_bigr => c _; rewrite -scalemxAr -scalemxAl.
  move/eqP; rewrite -subr_eq0 -{1}[Y]scale1r -scalerBl scaler_eq0 (negbTE Y0) orbF subr_eq0 => /eqP e1.
  by rewrite -[w](divfK ph0) -e1 mul1r.
have [z z1 ez] := left_gaugeE D0 hh us el b0.
exists w, V, z; split=> //; first by rewrite e ew norm_conjC ph1 rootC1.
by rewrite eY eb -scalemxAr ehl.
Qed.
End Bulk.

Section Overlap.
Variables (C : numClosedFieldType) (eig : eig_routine C).
Hypothesis eigP : eig_contract eig.
Variables (D q : nat -> nat) (M : nat) (tol : C).
Variables (ql Ll : nat) (sl ol : ust C (D 0)) (qr Lr : nat) (sr orr : ust C (D M.+1)) (A B : tensors C D).
Local Notation run := (sw_overlap eig q tol ql Ll sl ol qr Lr sr orr A B).
Local Notation ls := (ul sl Ll.-1).
Local Notation rs := (ur sr Lr.-1).
(* bulks whose fidelity per site differs from 1: the function returns 0 (or raises, when an eigenvector is singular) *)
Theorem C72_mismatch dL wL VL dR wR VR : fidelity_left eig ql Ll (uA sl) Ll (uA ol) = Some (dL, wL, VL) ->
  fidelity_per_site eig qr Lr (uA sr) Lr (uA orr) = Some (dR, wR, VR) ->
  ~~ (`|dL - 1| < tol) \/ ~~ (`|dR - 1| < tol) -> run = (if [&& VR \in unitmx, rs \in unitmx, ls \in unitmx & VL \in unitmx] then Some 0 else None).
Proof.
move=> eL eR h; rewrite /sw_overlap eL eR /right_gauge /left_gauge.
case: (VR \in unitmx); case: (rs \in unitmx); case: (ls \in unitmx); case: (VL \in unitmx) => //=.
by case: h => -> //; case: (`|_ - _| < tol).
Qed.
Hypotheses (Ll0 : (0 < Ll)%N) (Lr0 : (0 < Lr)%N) (D0 : (0 < D 0)%N) (DN : (0 < D M.+1)%N) (tol0 : 0 < tol).
Variables (hl hli : nat -> 'M[C]_(D 0)) (hr hri : nat -> 'M[C]_(D M.+1)).
Hypotheses (rl : related ql Ll sl ol hl hli) (rrel : related qr Lr sr orr hr hri).
Hypotheses (vl : valid Ll ql ol) (vr : valid Lr qr orr).
Hypotheses (pl : posdef ls) (pr : posdef (ur orr Lr.-1)) (pml : primitive_left ql Ll ol) (pmr : primitive_right qr Lr orr).
(* the bulks are the same up to a gauge: the window tensors of other are brought to the gauge of self at both ends *)
Lemma overlap_eval : exists2 z : C * C, `|z.1| = 1 /\ `|z.2| = 1 &
  run = Some (ov_window q A B ls (z.1 *: hl Ll.-1) rs (z.2 *: hri Lr.-1)).
Proof.
have [wL [VL [zL [eL zL1 gL]]]] := left_match eigP Ll0 D0 rl vl pl pml.
have [wR [VR [zR [eR zR1 gR]]]] := right_match eigP Lr0 DN rrel vr pr pmr.
by exists (zL, zR) => //; rewrite /sw_overlap eL eR gR gL !subrr !normr0 tol0.
Qed.
(* N >= 2: up to a phase the result is the inner product of the two states, that is the sum over the configurations of
   the window with other in the gauge of self *)
Theorem C72_overlap : (0 < M)%N -> exists2 z : C, `|z| = 1 &
  run = Some (z * bdotst q M.+1 ls rs (fun c => hl Ll.-1 *m psi B M.+1 c *m hri Lr.-1) (psi A M.+1)).
Proof.
move=> M0; have [[z1 z2] /= [n1 n2] ->] := overlap_eval; exists ((z1 * z2)^*); first by rewrite norm_conjC normrM n1 n2 mulr1.
congr Some; rewrite ov_windowE // /bdotst mulr_sumr; apply: eq_bigr => c _.
rewrite -scalemxAr -!scalemxAl scalerA adjZ -!scalemxAl mxtraceZ; congr (_^* * _).
by rewrite mulrC.
Qed.
(* the same state in two gauges: the modulus of the overlap is the squared norm *)
Theorem C72_same (ph : C) : (0 < M)%N -> `|ph| = 1 ->
  (forall c, c \in cfgs q M.+1 0 -> psi A M.+1 c = ph *: (hl Ll.-1 *m psi B M.+1 c *m hri Lr.-1)) ->
  exists2 x : C, run = Some x & `|x| = `|bdotst q M.+1 ls rs (psi A M.+1) (psi A M.+1)|.
Proof.
move=> M0 p1 e; have [z z1 ->] := C72_overlap M0; eexists; first by [].
rewrite normrM z1 mul1r.
have -> : bdotst q M.+1 ls rs (psi A M.+1) (psi A M.+1) =
    ph^* * bdotst q M.+1 ls rs (fun c => hl Ll.-1 *m psi B M.+1 c *m hri Lr.-1) (psi A M.+1).
  rewrite /bdotst mulr_sumr; apply: eq_big_seq => c cin; rewrite {1}e // adjZ -!scalemxAl mxtraceZ //.
by rewrite normrM norm_conjC p1 mul1r.
Qed.
End Overlap.
Print Assumptions C72_mismatch.
Print Assumptions C72_overlap.
Print Assumptions C72_same.

(* ---- a window of two sites between bulks of bond dimension 2, in two gauges ---- *)
Section Example.
Variable C : numClosedFieldType.
Lemma cellR1 (o : ust C 2) X : \sum_(c <- cfgs (fun _ => 4%N) 1 0) psi (wA 1 (uA o) 0) 1 c *m X *m (psi (wA 1 (uA o) 0) 1 c)^† =
  eps_r_noop 4 X (uA o 0%N) (uA o 0%N).
Proof. by rewrite sum_cfgsS; apply: eq_bigr => s _; rewrite sum_cfgs0 /psi /= pid_mx_1 mulmx1 /wA modn1. Qed.
Lemma x3_prim_right : primitive_right 4 1 (x3 C).
Proof.
move=> a X _ a1; rewrite cellR1 x3_eps_r => e; exists (a^-1 * \tr (x3l C 0 *m X)).
have a0 : a != 0 by rewrite -normr_eq0 gt_eqF // (lt_le_trans ltr01).
by rewrite -scalerA [X in _ = _ *: X]e scalerA mulVf // scale1r.
Qed.
Lemma x3_prim_left : primitive_left 4 1 (x3 C).
Proof.
move=> a X _ a1; rewrite -[LHS in LHS = _ -> _]two_cellL /= x3_eps_l => e; exists (a^-1 * \tr (X *m x3r C 0)).
have a0 : a != 0 by rewrite -normr_eq0 gt_eqF // (lt_le_trans ltr01).
by rewrite -scalerA [X in _ = _ *: X]e scalerA mulVf // scale1r.
Qed.
Definition x4 := copy 1 (@xh C) (@xhi C) (@xp C) (x3 C).
Lemma x4_rel : related 4 1 x4 (x3 C) (@xh C) (@xhi C).
Proof.
exists (@xp C); case=> // _; split=> //.
- by rewrite mulmxV ?xh_unit.
- by rewrite /xp /= normCi.
- rewrite /= -!mulmxA !(mulmxA _^† _^†) -adjM mulVmx ?xh_unit // adj1 mul1mx.
  by rewrite mulmx1.
Qed.
Lemma C72_example (eig : eig_routine C) (tol : C) (B : tensors C (fun _ => 2%N)) : eig_contract eig -> 0 < tol ->
  let A : tensors C (fun _ => 2%N) := fun n s => if n == 0%N then xh C 0 *m B n s else B n s *m xhi C 0 in
  exists2 x : C, sw_overlap (M := 1) eig (fun _ => 3%N) tol 4 1 x4 (x3 C) 4 1 x4 (x3 C) A B = Some x &
  `|x| = `|bdotst (fun _ => 3%N) 2 (ul x4 0) (ur x4 0) (psi A 2) (psi A 2)|.
Proof.
move=> eP t0 A.
have pl : posdef (ul x4 0).
  rewrite /= (_ : _ *m _ *m _ = (x3Y C *m xhi C 0)^† *m (x3Y C *m xhi C 0)); last by rewrite adjM !mulmxA.
  by apply: posdef_gram; rewrite unitmx_mul x3Y_unit unitmx_inv xh_unit.
apply: (@C72_same C eig eP (fun _ => 2%N) (fun _ => 3%N) 1 tol 4 1 x4 (x3 C) 4 1 x4 (x3 C) A B isT isT isT isT t0 _ _ _ _ x4_rel x4_rel
  (@x3_valid C) (@x3_valid C) pl (@x3_posr C 0) x3_prim_left x3_prim_right 1) => //; first exact: normr1.
move=> c /size_cfgs; case: c => [|s [|t []]] // _.
by rewrite /psi /= /A /= pid_mx_1 !mulmx1 scale1r !mulmxA.
Qed.

(* N = 1: the only site of the window enters twice.  Bond dimension 1, bulks in the product state of level 0 *)
Definition up1 : ust C 1 := Ust (fun _ s => (s == 0%N)%:R%:M) (fun _ => 1%:M) (fun _ => 1%:M).
Lemma adj_scalar1 (x : C) : (x%:M : 'M[C]_1)^† = (x^*)%:M.
Proof. by apply/matrixP => i j; rewrite !mxE !ord1 /= !mulr1n. Qed.
Lemma up1_valid : valid 1 2 up1.
Proof.
move=> k _; rewrite /= /eps_l_noop /eps_r_noop !big_ord_recl !big_ord0 /= !adj_scalar1 conjC1 conjC0 -!scalar_mxM.
by rewrite !mulr1 !mulr0 !addr0 -raddfD /= addr0.
Qed.
Lemma posdef1 n : posdef (1%:M : 'M[C]_n).
Proof. by have := posdef_gram (unitmx1 C n); rewrite adj1 mul1mx. Qed.
Lemma dim1 (X : 'M[C]_1) : X = X 0 0 *: 1%:M.
Proof. by rewrite {1}[X]mx11_scalar -scalemx1. Qed.
Lemma comm1 (X Y : 'M[C]_1) : X *m Y = Y *m X.
Proof. by rewrite (dim1 X) -scalemxAl -scalemxAr mul1mx mulmx1. Qed.
Theorem C72_single_site (eig : eig_routine C) (tol : C) q (A B : tensors C (fun _ => 1%N)) : eig_contract eig -> 0 < tol ->
  exists2 x : C, sw_overlap (M := 0) eig q tol 2 1 up1 up1 2 1 up1 up1 A B = Some x &
  `|x| = `|bdotst q 1 1%:M 1%:M (psi B 1) (psi A 1)| ^+ 2.
Proof.
move=> eP t0.
have rel : related 2 1 up1 up1 (fun _ => 1%:M) (fun _ => 1%:M).
  exists (fun _ => 1) => k _; rewrite /= ?adj1 !mulmx1; split=> //; first exact: normr1.
  by move=> t _; rewrite mul1mx mulmx1 scale1r.
have pl : primitive_left 2 1 up1 by move=> a X _ _ _; exists (X 0 0); exact: dim1.
have pr : primitive_right 2 1 up1 by move=> a X _ _ _; exists (X 0 0); exact: dim1.
have [[z1 z2] /= [n1 n2] ->] := @overlap_eval C eig eP (fun _ => 1%N) q 0 tol 2 1 up1 up1 2 1 up1 up1 A B isT isT isT isT t0 _ _ _ _ rel rel
  up1_valid up1_valid (posdef1 1) (posdef1 1) pl pr.
eexists; first by [].
pose R := \sum_(s < q 0%N) A 0%N s *m (B 0%N s)^†.
have -> : bdotst q 1 1%:M 1%:M (psi B 1) (psi A 1) = \tr R.
  rewrite /bdotst sum_cfgsS /R raddf_sum /=; apply: eq_bigr => s _.
  rewrite big_seq1 /psi /= !mulmx1 adj1 mulmx1.
  have -> : pid_mx 1 = 1%:M :> 'M[C]_1 by rewrite pid_mx_1.
  by rewrite !mulmx1 mxtrace_mulC.
rewrite /ov_window /= !recast_id.
have -> : eps_r_noop (q 0%N) 1%:M (A 0%N) (fun s => B 0%N s *m (z2 *: 1%:M)) = z2^* *: R.
  by rewrite /R scaler_sumr; apply: eq_bigr => s _; rewrite mulmx1 -scalemxAr mulmx1 adjZ -scalemxAr.
have -> : eps_r_noop (q 0%N) (z2^* *: R) (A 0%N) (fun s => z1 *: 1%:M *m B 0%N s) = (z1^* * z2^*) *: (R *m R).
  have eR : R = \sum_(s < q 0%N) A 0%N s *m (B 0%N s)^† by [].
  move: R eR => R eR; rewrite [X in _ = _ *: (_ *m X)]eR mulmx_sumr scaler_sumr; apply: eq_bigr => s _.
  rewrite -scalemxAr -!scalemxAl mul1mx adjZ -!scalemxAr scalerA mulrC; congr (_ *: _).
  by rewrite (comm1 (A 0%N s) R) mulmxA.
by rewrite adotE adj1 mul1mx mxtraceZ (dim1 R) -scalemxAl mul1mx scalerA !mxtraceZ mxtrace1 !mulr1 !normrM !norm_conjC n1 n2 !mul1r.
Qed.
Definition w1 : tensors C (fun _ => 1%N) := fun _ s => (s == 0%N)%:R%:M.
Definition w2 : tensors C (fun _ => 1%N) := fun _ s => (if s == 0%N then 3%:R / 5%:R else 4%:R / 5%:R)%:M.
(* two normalised states with <w2|w1> = 3/5: the function returns a number of modulus 9/25 *)
Theorem C72_single_site_refuted (eig : eig_routine C) (tol : C) : eig_contract eig -> 0 < tol ->
  let ip := bdotst (fun _ => 2%N) 1 1%:M 1%:M in
  [/\ ip (psi w1 1) (psi w1 1) = 1, ip (psi w2 1) (psi w2 1) = 1, ip (psi w2 1) (psi w1 1) = 3%:R / 5%:R
    & exists2 x : C, sw_overlap (M := 0) eig (fun _ => 2%N) tol 2 1 up1 up1 2 1 up1 up1 w1 w2 = Some x & `|x| = 9%:R / 25%:R].
Proof.
move=> eP t0 ip.
have ipE (A B : tensors C (fun _ => 1%N)) : ip (psi B 1) (psi A 1) = \tr ((B 0%N 0%N)^† *m A 0%N 0%N) + \tr ((B 0%N 1%N)^† *m A 0%N 1%N).
  rewrite /ip /bdotst sum_cfgsS !big_ord_recl big_ord0 addr0 !sum_cfgs0 /psi /= pid_mx_1 !mulmx1 adj1 !mulmx1 //.
have c5 n : (n%:R / 5%:R : C)^* = n%:R / 5%:R by rewrite rmorphM fmorphV !rmorph_nat.
have n5 : (5%:R : C) != 0 by rewrite pnatr_eq0.
have e3 : ip (psi w2 1) (psi w1 1) = 3%:R / 5%:R.
  by rewrite ipE /w1 /w2 /= !adj_scalar1 !c5 -!scalar_mxM mulr0 mulr1 !mxtrace_scalar !mulr1n addr0.
split=> //.
- by rewrite ipE /w1 /= !adj_scalar1 conjC1 conjC0 -!scalar_mxM mulr0 mulr1 !mxtrace_scalar !mulr1n addr0.
- rewrite ipE /w2 /= !adj_scalar1 !c5 -!scalar_mxM !mxtrace_scalar !mulr1n !mulf_div -!natrM -mulrDl -natrD divff //.
  by rewrite pnatr_eq0.
have [x ex nx] := C72_single_site (fun _ => 2%N) w1 w2 eP t0; exists x => //.
rewrite nx -/ip e3 ger0_norm ?divr_ge0 ?ler0n // expr2 mulf_div -!natrM //.
Qed.
End Example.
Print Assumptions C72_example.
Print Assumptions C72_single_site.
Print Assumptions C72_single_site_refuted.
