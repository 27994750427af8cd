(* P29_Strings.v -- C71: infinite strings of a one-site operator and symmetries of uniform states. *)
From mathcomp Require Import all_ssreflect all_algebra.
From mathcomp Require Import zify.
From mathcomp.real_closed Require Import mxtens.
From Verif Require Import Base Spec Eps Chain ChainProofs ChainProofs2 LinAlg Struct Factor Multi Svd Uniform UCanon UAlign UString.
From Verif Require Import P17_UCanon P26_Align.
Set Implicit Arguments.
Unset Strict Implicit.
Unset Printing Implicit Defensive.
Import Order.TTheory GRing.Theory Num.Theory.
Local Open Scope ring_scope.

Section Lead.
Variables (C : numClosedFieldType) (eigs1 : eigs1_routine C) (q L : nat).
Hypothesis eigsP : eigs1_contract eigs1.
(* the state after the operator was applied to the first N sites of the window starting at site k *)
Definition op_psi D (A : nat -> nat -> 'M[C]_D) (op : op1s C) k N : seq nat -> 'M[C]_D :=
  op_string (fun _ => q) op 0 N (@psi C (fun _ => D) (wA L A k) N).
Lemma op_psiE D (A : nat -> nat -> 'M[C]_D) op k N c : size c = N ->
  op_psi A op k N c = @psi C (fun _ => D) (fun n => op_dot_A q op (wA L A k n)) N c.
Proof.
move=> sz; rewrite /op_psi (op_stringE (fun _ => q) (wA L A k)) //; apply: eq_amp => n s _; rewrite add0n sz => h.
by rewrite /string_tensors leq0n add0n h.
Qed.
Lemma cellR_psi D (A : nat -> nat -> 'M[C]_D) op X :
  cellR L q (op_cell q op A) A X = \sum_(c <- cfgs (fun _ => q) L 0) op_psi A op 0 L c *m X *m (@psi C (fun _ => D) (wA L A 0) L c)^†.
Proof.
have := carry_sum q (op_cell q op A) A X (leqnn L); rewrite subnn carry0 => ->.
apply: eq_big_seq => c; rewrite mem_cfgs => /andP[/eqP sz _]; rewrite op_psiE //.
by congr (_ *m _ *m adj _); apply: eq_amp => n s _; rewrite add0n sz => h; rewrite /wA add0n modn_small.
Qed.
Lemma leadP D (A : nat -> nat -> 'M[C]_D) op : (0 < D)%N ->
  let p := string_lead eigs1 q L op A in
  [/\ adot p.2 p.2 = 1, cellR L q (op_cell q op A) A p.2 = p.1 *: p.2
    & forall a X, X != 0 -> cellR L q (op_cell q op A) A X = a *: X -> `|a| <= `|p.1|].
Proof.
rewrite /string_lead; case: eqP => [e _|_ D0] /=.
  subst D; set f := fun k : nat => \tr (\sum_(s < q) op_cell q op A k s *m (A k s)^†).
  have e1 k X : eps_r_noop q X (op_cell q op A k) (A k) = f k *: X.
    rewrite [X]mx11_scalar /eps_r_noop.
    under eq_bigr do rewrite mul_mx_scalar -scalemxAl.
    rewrite -scaler_sumr /f trace_mx11; set M := \sum_(s < q) _; by rewrite [in LHS](mx11_scalar M) !scale_scalar_mx mulrC.
  have e2 ks X : foldl (fun y k => eps_r_noop q y (op_cell q op A k) (A k)) X ks = (\prod_(k <- ks) f k) *: X.
    elim: ks X => [|k ks IH] X /=; first by rewrite big_nil scale1r.
    by rewrite IH e1 big_cons scalerA mulrC.
  have e3 X : cellR L q (op_cell q op A) A X = (\prod_(k < L) f k) *: X.
    rewrite /cellR e2; congr (_ *: _); rewrite (perm_big (iota 0 L)) /=; last by rewrite perm_rev.
    by rewrite -[in LHS](subn0 L) -/(index_iota 0 L) big_mkord.
  split=> //.
  - by rewrite adotE /mxtrace big_ord1 !mxE big_ord1 !mxE rmorph1 mulr1.
  - by move=> a X X0; rewrite e3 => /eqP; rewrite -subr_eq0 -scalerBl scaler_eq0 (negbTE X0) orbF subr_eq0 => /eqP ->.
have n0 : (0 < D * D)%N by rewrite muln_gt0 D0.
pose E := Eblock L q (op_cell q op A) A; have [h1 h2 h3] := eigsP E n0.
have cellE X a : (cellR L q (op_cell q op A) A X = a *: X) <-> (E *m ravel X = a *: ravel X).
  rewrite Eblock_right -ravelZ; split=> [-> //|/(congr1 (@unravel C D D))]; by rewrite !ravelK.
split; first by rewrite -adot_ravel unravelK.
- by apply/cellE; rewrite unravelK.
- move=> a X X0 /cellE; apply: h3.
  by apply: contra X0 => /eqP z; rewrite -[X]ravelK z; apply/eqP/matrixP => b c; rewrite !mxE.
Qed.
End Lead.

Section Gen.
Variables (C : numClosedFieldType) (eigs1 : eigs1_routine C) (q L D : nat) (st : ust C D) (op : op1s C).
Hypotheses (eigsP : eigs1_contract eigs1) (L0 : (0 < L)%N) (D0 : (0 < D)%N).
Hypotheses (v : valid L q st) (pl : forall k, (k < L)%N -> posdef (ul st k)) (pr : forall k, (k < L)%N -> posdef (ur st k)).
Hypothesis opU : op_unitary q op.
Let A := uA st.
Let Ao := op_cell q op A.
Let w := (string_lead eigs1 q L op A).1.
Let V := (string_lead eigs1 q L op A).2.
Let la n := wl L (ul st) 0 n.
Let rb n := wr L (ur st) 0 n.
Let hla n : pd (la n). Proof. by apply/posdef_pd/pl; rewrite prv_lt. Qed.
Let hrb n : pd (rb n). Proof. by apply/posdef_pd/pr; rewrite prv_lt. Qed.
Let wlN : la 0 = la L. Proof. by rewrite /la /wl !add0n mod0n modnn. Qed.
Let wrN : rb 0 = rb L. Proof. by rewrite /rb /wr !add0n mod0n modnn. Qed.
Let ula n : (n < L)%N -> la n.+1 = eps_l_noop q (la n) (A n) (A n).
Proof. by move=> h; have [_ /(_ n h)] := wup_l 0 L0 v L; rewrite /wA add0n modn_small. Qed.
Let ulw n : (n < L)%N -> la n.+1 = eps_l_noop q (la n) (Ao n) (Ao n).
Proof. by move=> h; rewrite ula // -(eps_l_unitary (A n) opU). Qed.
Let urw n : (n < L)%N -> rb n = eps_r_noop q (rb n.+1) (A n) (A n).
Proof. by move=> h; have [_ /(_ n h)] := wup_r 0 L0 v L; rewrite /wA add0n modn_small. Qed.
Let VV : adot V V = 1. Proof. by have [] := leadP q L eigsP A op D0. Qed.
Let eV : cellR L q Ao A V = w *: V. Proof. by have [] := leadP q L eigsP A op D0. Qed.
Lemma lead_max a X : X != 0 -> cellR L q Ao A X = a *: X -> `|a| <= `|w|.
Proof. by have [_ _] := leadP q L eigsP A op D0; apply. Qed.
Lemma lead_V0 : V != 0. Proof. by rewrite -adot_eq0 VV oner_eq0. Qed.
Lemma lead_le1 : `|w| <= 1.
Proof. exact: (window_bound (fun n _ => hla n) (fun n _ => hrb n) ulw urw wlN wrN lead_V0 eV). Qed.
Hypothesis w1 : `|w| = 1.
Let w0 : w != 0. Proof. by rewrite -normr_eq0 w1 oner_eq0. Qed.
Let gg n := carry q L Ao A V n *m invmx (rb n).
Let ggi n s : (n < L)%N -> (s < q)%N -> Ao n s *m gg n.+1 = gg n *m A n s.
Proof. exact: (window_inter (fun n _ => hla n) (fun n _ => hrb n) ulw urw wlN wrN eV w1). Qed.
Let gg0 : gg 0 = w *: gg L. Proof. exact: (g0w wrN eV). Qed.
Definition virtG n := w^-1 ^+ (n %/ L).+1 *: gg (n %% L).
Lemma rbL : rb L = ur st L.-1. Proof. by rewrite -wrN /rb /wr add0n mod0n prv0. Qed.
Lemma laL : la L = ul st L.-1. Proof. by rewrite -wlN /la /wl add0n mod0n prv0. Qed.
Lemma ggL : gg L = V *m invmx (ur st L.-1). Proof. by rewrite /gg carryN rbL. Qed.
Lemma virtG_mul m : virtG (m * L) = w^-1 ^+ m *: (V *m invmx (ur st L.-1)).
Proof. by rewrite /virtG mulnK // modnMl gg0 -ggL scalerA exprSr -mulrA mulVf // mulr1. Qed.
Lemma virtG0 : virtG 0 = V *m invmx (ur st L.-1).
Proof. by have := virtG_mul 0; rewrite mul0n expr0 scale1r. Qed.
Lemma virtG_step n s : (s < q)%N -> Ao (n %% L)%N s *m virtG n.+1 = virtG n *m A (n %% L)%N s.
Proof.
move=> hs; have h : (n %% L < L)%N by rewrite ltn_mod.
rewrite /virtG divnS // modnS; case: ifP => d.
  have e : (n %% L).+1 = L.
    apply/eqP; rewrite eqn_leq h /= leqNgt; apply/negP => lt.
    by move: d; rewrite /dvdn -addn1 -modnDml addn1 modn_small.
  rewrite add1n gg0 scalerA exprSr -mulrA mulVf // mulr1 -scalemxAr -scalemxAl -ggi // e.
  by [].
by rewrite add0n -scalemxAr -scalemxAl ggi.
Qed.
Lemma virtG_psi N c : size c = N -> all (fun s => s < q)%N c ->
  op_psi q L A op 0 N c *m virtG N = virtG 0 *m @psi C (fun _ => D) (wA L A 0) N c.
Proof.
move=> sz ac; rewrite op_psiE // /psi.
have gen n d : (n + size d = N)%N -> all (fun s => s < q)%N d ->
    @amp C (fun _ => D) (fun n => op_dot_A q op (wA L A 0 n)) N n d *m virtG N = virtG n *m @amp C (fun _ => D) (wA L A 0) N n d.
  elim: d n => [|s d IH] n /=; first by rewrite addn0 => <- _; rewrite pid_mx_1 mul1mx mulmx1.
  rewrite addnS -addSn => hn /andP[hs ad]; rewrite -mulmxA IH // !mulmxA; congr (_ *m _).
  by have := virtG_step n hs; rewrite /Ao /op_cell /wA add0n.
by rewrite gen // add0n.
Qed.
(* fixed points made from the intertwiner *)
Definition fixR := forall X : 'M[C]_D,
  \sum_(c <- cfgs (fun _ => q) L 0) psi (wA L (uA st) 0) L c *m X *m (psi (wA L (uA st) 0) L c)^† = X -> exists c, X = c *: ur st L.-1.
Let g := gg L.
Lemma g_neq0 : g != 0.
Proof.
apply: contra lead_V0 => /eqP h; rewrite -[V](mulmxKV (_ : ur st L.-1 \in unitmx)) -?ggL -/g ?h ?mul0mx //.
by rewrite -rbL; exact/pd_unit/hrb.
Qed.
Lemma virt_right : fixR -> exists c, g *m ur st L.-1 *m g^† = c *: ur st L.-1.
Proof.
apply.
have st1 m : (m <= L)%N -> carry q L A A (g *m ur st L.-1 *m g^†) (L - m) = gg (L - m) *m rb (L - m)%N *m (gg (L - m))^†.
  elim: m => [|m IH] h; first by rewrite subn0 carryN rbL.
  have e : (L - m.+1).+1 = (L - m)%N by lia.
  have h1 : (L - m.+1 < L)%N by lia.
  rewrite carryS // e IH ?(ltnW h) // -(eps_r_unitary (A _) opU) [in RHS]urw // /eps_r_noop mulmx_sumr mulmx_suml.
  apply: eq_bigr => s _; have := ggi h1 (ltn_ord s); rewrite e => i.
  rewrite -[op_dot_A q op (A (L - m.+1)%N) s]/(Ao (L - m.+1)%N s).
  move: (gg (L - m)%N) (gg (L - m.+1)%N) i => G1 G0 i; move: (Ao _ s) i => B i.
  by rewrite !mulmxA i -!mulmxA -!adjM i adjM !mulmxA.
have := st1 L (leqnn L); rewrite subnn carry0 gg0 wrN rbL -/g => e.
have c2 : cellR L q A A (g *m ur st L.-1 *m g^†) = g *m ur st L.-1 *m g^†.
  by rewrite e adjZ -!scalemxAl -scalemxAr scalerA -normCK w1 expr1n scale1r.
rewrite -[RHS]c2; have := carry_sum q A A (g *m ur st L.-1 *m g^†) (leqnn L); rewrite subnn carry0 => ->.
apply: eq_big_seq => c; rewrite mem_cfgs => /andP[/eqP sz _].
have ep : @psi C (fun _ => D) (wA L A 0) L c = @amp C (fun _ => D) A L 0 c.
  by apply: eq_amp => n s _; rewrite add0n sz => h; rewrite /wA add0n modn_small.
by rewrite ep.
Qed.
Lemma virt_left : injective_state q L st -> exists c, g^† *m ul st L.-1 *m g = c *: ul st L.-1.
Proof.
apply.
have st1 m : (m <= L)%N -> foldl (fun y k => eps_l_noop q y (A k) (A k)) (g^† *m ul st L.-1 *m g) (iota 0 m) = (gg m)^† *m la m *m gg m.
  elim: m => [|m IH] h.
    by rewrite /= gg0 wlN laL -/g adjZ -!scalemxAl -scalemxAr scalerA -normCKC w1 expr1n scale1r.
  rewrite -addn1 iotaD foldl_cat IH ?(ltnW h) //= add0n addn1 ulw // /eps_l_noop mulmx_sumr mulmx_suml.
  apply: eq_bigr => s _; have i := ggi h (ltn_ord s).
  move: (gg m) (gg m.+1) i => G0 G1 i; move: (Ao _ s) i => B i.
  by rewrite !mulmxA -adjM -i adjM -!mulmxA -i !mulmxA.
have := st1 L (leqnn L); rewrite laL -/g => e; rewrite -[RHS]e cellL_sum.
apply: eq_big_seq => c; rewrite mem_cfgs => /andP[/eqP sz _].
have ep : @psi C (fun _ => D) (wA L A 0) L c = @amp C (fun _ => D) A L 0 c.
  by apply: eq_amp => n s _; rewrite add0n sz => h; rewrite /wA add0n modn_small.
by rewrite ep.
Qed.
(* virtop in right canonical form *)
Definition is_unitary (X : 'M[C]_D) := X *m X^† = 1%:M.
Lemma virt_rcf : ur st L.-1 = 1%:M -> fixR ->
  virtop0 eigs1 q L false op st = sqrtC D%:R *: virtG 0 /\ is_unitary (virtop0 eigs1 q L false op st).
Proof.
move=> r1 fR; have eg : g = V by rewrite /g ggL r1 invmx1 mulmx1.
rewrite virtG0 /virtop0 /= -/A -/V r1 invmx1 mulmx1; split=> //.
have [c] := virt_right fR; rewrite r1 mulmx1 eg => eVV.
have cD : c * D%:R = 1.
  by have := VV; rewrite adotE mxtrace_mulC eVV mxtraceZ mxtrace1.
rewrite /is_unitary adjZ -scalemxAl -scalemxAr eVV !scalerA geC0_conj ?sqrtC_ge0 ?ler0n //.
by rewrite -expr2 sqrtCK mulrC cD scale1r.
Qed.
(* virtop in the symmetric gauge *)
Lemma virt_scf : ul st L.-1 = ur st L.-1 -> \tr (ul st L.-1 *m ur st L.-1) = 1 -> fixR -> injective_state q L st ->
  virtop0 eigs1 q L true op st = virtG 0 /\ is_unitary (virtop0 eigs1 q L true op st).
Proof.
move=> elr nrm fR fL; have [c' er] := virt_right fR; have [c el] := virt_left fL.
have pR : pd (ur st L.-1) by rewrite -rbL.
have uR := pd_unit pR.
rewrite elr in el; have [c0 eu] := pd_conj_unitary pR g_neq0 D0 er el.
have eg' : g^† *m g = c'%:M.
  have ki : (c'^-1 *: g) *m g^† = 1%:M by rewrite -scalemxAl eu scale_scalar_mx mulVf // gt_eqF.
  have := mulmx1C ki; rewrite -scalemxAr => /(congr1 (fun x => c' *: x)).
  by rewrite scalerA mulfV ?gt_eqF // scale1r scale_scalar_mx mulr1.
have com : g *m ur st L.-1 = ur st L.-1 *m g.
  have := congr1 (fun x => x *m g) er; rewrite /= -mulmxA eg' mul_mx_scalar -scalemxAl.
  by move=> /(scalerI (lt0r_neq0 c0)).
have VE : V = g *m ur st L.-1 by rewrite /g ggL mulmxKV.
have eX : virtop0 eigs1 q L true op st = g by rewrite /virtop0 /= -/A -/V VE com mulKmx.
split; first by rewrite eX virtG0 -ggL.
rewrite /is_unitary eX eu; congr (_%:M).
have aux (G R : 'M[C]_D) x : R^† = R -> G^† *m G = x%:M -> \tr ((G *m R)^† *m (G *m R)) = x * \tr (R *m R).
  by move=> hR hG; rewrite adjM hR -!mulmxA (mulmxA G^†) hG mul_scalar_mx -scalemxAr mxtraceZ.
by have := VV; rewrite adotE VE (aux _ _ _ (pd_herm pR) eg') -{1}elr nrm mulr1.
Qed.
End Gen.

Section Main.
Variables (C : numClosedFieldType) (eigs1 : eigs1_routine C) (pw : C -> C) (q L D : nat) (st : ust C D) (op : op1s C).
Hypotheses (eigsP : eigs1_contract eigs1) (L0 : (0 < L)%N) (D0 : (0 < D)%N) (pwP : forall z, pw z ^+ L = z).
(* expect_string_per_site_1s: the power 1/L of the leading eigenvalue of the map that the string induces on the bond *)
Theorem C71_lead : let f := string_per_site eigs1 pw q L op (uA st) in
  (exists2 V : 'M[C]_D, V != 0 &
     \sum_(c <- cfgs (fun _ => q) L 0) op_psi q L (uA st) op 0 L c *m V *m (psi (wA L (uA st) 0) L c)^† = f ^+ L *: V) /\
  forall a (X : 'M[C]_D), X != 0 ->
    \sum_(c <- cfgs (fun _ => q) L 0) op_psi q L (uA st) op 0 L c *m X *m (psi (wA L (uA st) 0) L c)^† = a *: X ->
    `|a| <= `|f| ^+ L.
Proof.
have [h1 h2 h3] := leadP q L eigsP (uA st) op D0.
rewrite /string_per_site -normrX pwP; split=> [|a X X0]; last by rewrite -cellR_psi => /h3; apply.
by eexists; [|rewrite -cellR_psi; exact: h2]; rewrite -adot_eq0 h1 oner_eq0.
Qed.
Hypotheses (v : valid L q st) (pl : forall k, (k < L)%N -> posdef (ul st k)) (pr : forall k, (k < L)%N -> posdef (ur st k)).
Hypothesis opU : op_unitary q op.
(* a unitary operator: the factor has modulus at most one *)
Theorem C71_bound : `|string_per_site eigs1 pw q L op (uA st)| <= 1.
Proof.
have := lead_le1 eigsP L0 D0 v pl pr opU; rewrite -[X in `|X| <= 1]pwP normrX /string_per_site.
by rewrite expr_le1.
Qed.
(* the operator only changes the gauge and the phase of the tensors: modulus one *)
Theorem C71_gauge (h hi : nat -> 'M[C]_D) (p : nat -> C) :
  (forall k, (k < L)%N -> h k *m hi k = 1%:M) -> (forall k, (k < L)%N -> `|p k| = 1) ->
  (forall k s, (k < L)%N -> (s < q)%N -> \sum_(t < q) op s t *: uA st k t = p k *: (h (prv L k) *m uA st k s *m hi k)) ->
  `|string_per_site eigs1 pw q L op (uA st)| = 1.
Proof.
move=> hh p1 eA; apply/eqP; rewrite eq_le C71_bound /=.
have [_ mx] := C71_lead.
pose X := h L.-1 *m ur st L.-1; pose bl n := prv L (n %% L)%N.
have car m : (m <= L)%N -> carry q L (op_cell q op (uA st)) (uA st) X (L - m) =
    (\prod_(L - m <= i < L) p i) *: (h (bl (L - m)%N) *m ur st (bl (L - m)%N)).
  elim: m => [|m IH] hm; first by rewrite subn0 carryN big_geq // scale1r /bl modnn prv0.
  have k1 : (L - m.+1 < L)%N by lia.
  have k2 : (L - m.+1).+1 = (L - m)%N by lia.
  rewrite carryS // k2 IH ?(ltnW hm) // eps_rZ [in RHS]big_ltn // k2 mulrC -scalerA; congr (_ *: _).
  have eb : bl (L - m)%N = (L - m.+1)%N by rewrite /bl -k2 prv_next // modn_small.
  have eb' : bl (L - m.+1)%N = prv L (L - m.+1) by rewrite /bl modn_small.
  have [_ er] := v k1; rewrite eb eb' er /eps_r_noop mulmx_sumr scaler_sumr; apply: eq_bigr => s _.
  rewrite /op_cell /op_dot_A eA // -!scalemxAl; congr (_ *: _).
  by rewrite !mulmxA -(mulmxA _ (hi _)) (mulmx1C (hh _ k1)) mulmx1.
have X0 : X != 0.
  have uh : h L.-1 \in unitmx by have [] := mulmx1_unit (hh L.-1 _); first by lia.
  have ur' : ur st L.-1 \in unitmx by apply/pd_unit/posdef_pd/pr; lia.
  apply: contraTneq D0 => X0; have : X \in unitmx by rewrite unitmx_mul uh.
  rewrite X0 -eqn0Ngt unitmxE => /unitrP[y [+ _]].
  by case: (D) => // n; rewrite det0 mulr0 => /esym/eqP; rewrite oner_eq0.
have oX : cellR L q (op_cell q op (uA st)) (uA st) X = (\prod_(i < L) p i) *: X.
  by rewrite -carry0; have := car L (leqnn L); rewrite subnn => ->; rewrite big_mkord /bl mod0n prv0.
have := mx _ _ X0; rewrite -cellR_psi => /(_ _ oX); rewrite normr_prod big1 => [|i _]; last exact: p1.
by rewrite expr_ge1.
Qed.

(* ---- the half chain starting at site k ---- *)
Variable k : nat.
Definition unique_right := forall X : 'M[C]_D,
  \sum_(c <- cfgs (fun _ => q) L 0) psi (wA L (uA st) k) L c *m X *m (psi (wA L (uA st) k) L c)^† = X ->
  exists c, X = c *: ur st (prv L k).
Definition unique_left := forall X : 'M[C]_D,
  \sum_(c <- cfgs (fun _ => q) L 0) (psi (wA L (uA st) k) L c)^† *m X *m psi (wA L (uA st) k) L c = X ->
  exists c, X = c *: ul st (prv L k).
(* the canonical forms that restore_RCF and restore_SCF establish, at the cut *)
Definition canonical (symm : bool) : Prop :=
  if symm then ul st (prv L k) = ur st (prv L k) /\ \tr (ul st (prv L k) *m ur st (prv L k)) = 1 else ur st (prv L k) = 1%:M.
Let s := shift_cell L k st.
Let s_valid : valid L q s.
Proof.
move=> j jL; have := v (ltn_pmod (k + j) L0); rewrite /= /prv !modnDmr !modnDml.
by have -> : (k + j + L.-1 = k + (j + L.-1))%N by rewrite addnA.
Qed.
Let s_pl j : (j < L)%N -> posdef (ul s j). Proof. by move=> _; apply: pl; rewrite ltn_mod. Qed.
Let s_pr j : (j < L)%N -> posdef (ur s j). Proof. by move=> _; apply: pr; rewrite ltn_mod. Qed.
Let s_wA n t : wA L (uA s) 0 n t = wA L (uA st) k n t. Proof. by rewrite /wA add0n /= modnDmr. Qed.
Let s_psi N c : @psi C (fun _ => D) (wA L (uA s) 0) N c = psi (wA L (uA st) k) N c.
Proof. by apply: eq_amp => n t _ _; exact: s_wA. Qed.
Let s_op_psi N c : size c = N -> op_psi q L (uA s) op 0 N c = op_psi q L (uA st) op k N c.
Proof.
move=> sz; rewrite !op_psiE //; apply: eq_amp => n t _ _.
by rewrite /op_dot_A; apply: eq_bigr => u _; rewrite s_wA.
Qed.
Let s_fixR : unique_right -> fixR q L s.
Proof.
move=> u X h; have [|c e] := u X; last by exists c.
by rewrite -[RHS]h; apply: eq_bigr => c _; rewrite s_psi.
Qed.
Let s_fixL : unique_left -> injective_state q L s.
Proof.
move=> u X h; have [|c e] := u X; last by exists c.
by rewrite -[RHS]h; apply: eq_bigr => c _; rewrite s_psi.
Qed.
Let w := (string_lead eigs1 q L op (uA s)).1.
Let virt symm : `|w| = 1 -> canonical symm -> unique_right -> (symm -> unique_left) -> exists2 x : C,
  virtop0 eigs1 q L symm op s = x *: virtG eigs1 q L s op 0 & is_unitary (virtop0 eigs1 q L symm op s).
Proof.
move=> w1 cn uR uL; case: symm cn uL => [[e1 e2] uL|e uL].
  have [h1 h2] := virt_scf eigsP L0 D0 s_valid s_pl s_pr opU w1 e1 e2 (s_fixR uR) (s_fixL (uL isT)).
  by exists 1; rewrite ?scale1r.
have [h1 h2] := virt_rcf eigsP L0 D0 s_valid s_pl s_pr opU w1 e (s_fixR uR).
by exists (sqrtC D%:R).
Qed.
(* for a symmetry, virtop is unitary and is the action of the string on the half chain: the string over the first N
   sites, followed by G N at its end, is virtop at the cut; expvals is its diagonal *)
Theorem C71_virtop symm ev ol (X : 'M[C]_D) : canonical symm -> unique_right -> (symm -> unique_left) ->
  string_density_hc eigs1 pw q L symm op k st = Some (ev, ol, X) -> `|ol| = 1 ->
  [/\ X *m X^† = 1%:M, forall i, ev i = X i i
    & exists G : nat -> 'M[C]_D, [/\ G 0%N = X, forall m, G (m * L)%N = ol^-1 ^+ (m * L) *: X
        & forall N c, size c = N -> all (fun t => t < q)%N c ->
            op_psi q L (uA st) op k N c *m G N = X *m psi (wA L (uA st) k) N c]].
Proof.
rewrite /string_density_hc -/s => cn uR uL; case: argmax_re => [ind|//]; case: ifP => // V0 [<- <- <-] ol1.
have olL : pw w ^+ L = w := pwP w.
have w1 : `|w| = 1 by rewrite -olL normrX ol1 expr1n.
have [x ex uX] := virt w1 cn uR uL; set V := virtop0 _ _ _ _ _ _ in ex uX V0 *.
set ph := _ / _; have ph1 : ph * ph^* = 1.
  rewrite -normCK /ph normrM normfV norm_conjC normr_id divff ?expr1n //.
  by rewrite normr_eq0 V0.
split; first by rewrite adjZ -scalemxAl -scalemxAr scalerA ph1 scale1r; exact: uX.
  by move=> i; rewrite mxE.
exists (fun n => (ph * x) *: virtG eigs1 q L s op n); split; first by rewrite -scalerA -ex.
- move=> m; rewrite mulnC exprM exprVn olL mulnC (virtG_mul eigsP L0 D0 w1) ex (virtG0 eigsP L0 D0 w1).
  by rewrite !scalerA; congr (_ *: _); rewrite mulrC mulrA.
- move=> N c sz ac; rewrite -s_op_psi // -scalemxAr (virtG_psi eigsP L0 D0 s_valid s_pl s_pr opU w1 sz ac).
  by rewrite ex s_psi -!scalemxAl scalerA.
Qed.
(* if the largest Schmidt coefficient is not degenerate, the phase is well defined: the first Schmidt vector has
   expectation value one *)
Theorem C71_leading symm (S : 'rV[C]_D) (i : 'I_D) : canonical symm -> unique_right -> unique_left ->
  ul st (prv L k) *m ur st (prv L k) = diag_mx S -> (forall j, S 0 j \is Num.real) -> (forall j, j != i -> S 0 j < S 0 i) ->
  `|pw (string_lead eigs1 q L op (uA s)).1| = 1 ->
  exists ev ol X, string_density_hc eigs1 pw q L symm op k st = Some (ev, ol, X) /\ ev i = 1.
Proof.
move=> cn uR uL eS Sr Smax ol1; have w1 : `|w| = 1 by rewrite -(pwP w) normrX ol1 expr1n.
have [x ex uX] := virt w1 cn uR (fun _ => uL); rewrite /string_density_hc -/s.
have [ind] := argmax_re_some (fun i => (ul s L.-1 *m ur s L.-1) i i) D0 => am; rewrite am.
set V := virtop0 _ _ _ _ _ _ in ex uX *.
have ei : ind = i.
  apply/eqP/contraT => ne; have := argmax_reP am i.
  rewrite -[ul s L.-1 *m _]/(ul st (prv L k) *m ur st (prv L k)) eS !mxE !eqxx !mulr1n !(Creal_ReP _ (Sr _)).
  by move=> h; have := lt_le_trans (Smax _ ne) h; rewrite ltxx.
have pR : pd (ur s L.-1) by apply/posdef_pd/s_pr; lia.
have uV : V^† *m V = 1%:M := mulmx1C uX.
have x0 : x != 0.
  apply/eqP => z; move: uV; rewrite ex z scale0r mulmx0 => /matrixP /(_ i i); rewrite !mxE eqxx => /esym/eqP.
  by rewrite oner_eq0.
(* V commutes with l and with r *)
have eg : V *m ur s L.-1 = ur s L.-1 *m V.
  have [c hc] := virt_right eigsP L0 D0 s_valid s_pl s_pr opU w1 (s_fixR uR).
  have hV : V *m ur s L.-1 *m V^† = (x * x^* * c) *: ur s L.-1.
    rewrite ex (virtG0 eigsP L0 D0 w1) -ggL //; move: (carry _ _ _ _ _ _ *m _) hc => g hc.
    by rewrite adjZ -!scalemxAl -scalemxAr scalerA hc scalerA.
  have hV' : V *m ur s L.-1 = (x * x^* * c) *: (ur s L.-1 *m V).
    by rewrite scalemxAl -hV -!mulmxA uV mulmx1.
  have one : x * x^* * c = 1.
    have := congr1 (fun M => \tr (V^† *m M)) hV'; rewrite /= mulmxA uV mul1mx -scalemxAr mxtraceZ mxtrace_mulC -mulmxA uX mulmx1.
    move=> /esym e; apply/(mulIf (x := \tr (ur s L.-1))); last by rewrite mul1r.
    have one0 : (1%:M : 'M[C]_D) != 0.
      by apply/eqP => /matrixP /(_ i i) /eqP; rewrite !mxE eqxx oner_eq0.
    by rewrite gt_eqF //; have := pd_tr_gt0 pR one0; rewrite mul1mx adj1 mulmx1.
  by rewrite hV' one scale1r.
have pL : pd (ul s L.-1) by apply/posdef_pd/s_pl; lia.
have el : V *m ul s L.-1 = ul s L.-1 *m V.
  have [c hc] := virt_left eigsP L0 D0 s_valid s_pl s_pr opU w1 (s_fixL uL).
  have hV : V^† *m ul s L.-1 *m V = (x^* * x * c) *: ul s L.-1.
    rewrite ex (virtG0 eigsP L0 D0 w1) -ggL //; move: (carry _ _ _ _ _ _ *m _) hc => g hc.
    by rewrite adjZ -!scalemxAl -scalemxAr scalerA hc scalerA.
  have hV' : ul s L.-1 *m V = (x^* * x * c) *: (V *m ul s L.-1).
    by rewrite scalemxAr -hV !mulmxA uX mul1mx.
  have one : x^* * x * c = 1.
    have := congr1 (fun M => \tr (V^† *m M)) hV'; rewrite /= -scalemxAr (mulmxA _ V) uV mul1mx mxtraceZ mxtrace_mulC -mulmxA uX mulmx1.
    move=> /esym e; apply/(mulIf (x := \tr (ul s L.-1))); last by rewrite mul1r.
    have one0 : (1%:M : 'M[C]_D) != 0.
      by apply/eqP => /matrixP /(_ i i) /eqP; rewrite !mxE eqxx oner_eq0.
    by rewrite gt_eqF //; have := pd_tr_gt0 pL one0; rewrite mul1mx adj1 mulmx1.
  by rewrite hV' one scale1r.
have com : V *m diag_mx S = diag_mx S *m V.
  by rewrite -eS -[ul st _ *m _]/(ul s L.-1 *m ur s L.-1) mulmxA el -mulmxA eg mulmxA.
have off j : j != i -> V i j = 0.
  move=> ne; have /matrixP/(_ i j) := com; rewrite mul_mx_diag mul_diag_mx !mxE mulrC => /eqP.
  by rewrite -subr_eq0 -mulrBl mulf_eq0 subr_eq0 (lt_eqF (Smax _ ne)) /= => /eqP.
have Vii : `|V i i| = 1.
  have /matrixP/(_ i i) := uX; rewrite !mxE (bigD1 i) //= big1 => [|j ne]; last by rewrite off // mul0r.
  by rewrite !mxE eqxx addr0 -normCK => /eqP; rewrite sqrp_eq1 // => /eqP.
rewrite ei; case: eqP => [z|_]; first by move: Vii; rewrite z normr0 => /eqP; rewrite eq_sym oner_eq0.
by do 3!eexists; split; first reflexivity; rewrite /= Vii divr1 -normCKC Vii expr1n.
Qed.

(* basis_occupancy: the probabilities of the basis states of one site *)
Theorem C71_occupancy : (k < L)%N -> \tr (ul st (prv L k) *m ur st (prv L k)) = 1 ->
  let p := basis_occupancy q L st k in
  [/\ size p = q, forall t, (t < q)%N -> nth 0 p t = udensity_1s L (uA st) (ul st) (ur st) k t t,
      forall t, (t < q)%N -> 0 <= nth 0 p t <= 1 & \sum_(t < q) nth 0 p t = 1].
Proof.
move=> kL nrm p; have [_ er] := v kL.
have pL : pd (ul st (prv L k)) by apply/posdef_pd/pl; rewrite prv_lt.
have pR : pd (ur st k) by apply/posdef_pd/pr.
have de t : udensity_1s L (uA st) (ul st) (ur st) k t t = wn (ur st k) (ul st (prv L k)) (uA st k t)^†.
  by rewrite /udensity_1s adotE (pd_herm pL) /wn adjK mxtrace_mulC.
have dge t : 0 <= udensity_1s L (uA st) (ul st) (ur st) k t t by rewrite de wn_ge0.
have pe t : (t < q)%N -> nth 0 p t = udensity_1s L (uA st) (ul st) (ur st) k t t.
  move=> h; rewrite /p /basis_occupancy (nth_map 0%N) ?size_iota // nth_iota // add0n mulmxA.
  by rewrite -/(udensity_1s L (uA st) (ul st) (ur st) k t t) (Creal_ReP _ (ger0_real (dge t))).
have sm : \sum_(t < q) nth 0 p t = 1.
  under eq_bigr => t _ do rewrite pe //.
  by rewrite -adot_sumr -/(eps_r_noop q (ur st k) (uA st k) (uA st k)) -er adotE (pd_herm pL).
split=> //; first by rewrite size_map size_iota.
move=> t h; rewrite pe // dge /= -pe // -sm (bigD1 (Ordinal h)) //= ler_addl; apply: sumr_ge0 => j _.
by rewrite pe.
Qed.
End Main.

(* ---- valence bond states: one site carries the two ends of neighbouring bonds ---- *)
Section Bond.
Variables (C : numClosedFieldType) (eigs1 : eigs1_routine C) (pw : C -> C).
Hypotheses (eigsP : eigs1_contract eigs1) (pwP : forall z, pw z ^+ 1 = z).
Notation i0 := (0 : 'I_2).
Notation i1 := (1 : 'I_2).
Definition vb (Y : 'M[C]_2) : ust C 2 := Ust (fun _ s => x3E C s *m Y) (fun _ => Y^† *m Y) (fun _ => 1%:M).
Section Fix.
Variables (Y U : 'M[C]_2) (op : op1s C).
Hypotheses (trY : \tr (Y^† *m Y) = 1) (uY : Y \in unitmx) (UU : U *m U^† = 1%:M) (UY : U *m Y = Y *m U).
Hypothesis opE : forall s, (s < 4)%N -> \sum_(t < 4) op s t *: x3E C t = U *m x3E C s *m U^†.
Lemma vb_r X : eps_r_noop 4 X (uA (vb Y) 0) (uA (vb Y) 0) = (\tr (Y *m X *m Y^†))%:M.
Proof. by rewrite -x3Er /eps_r_noop; apply: eq_bigr => s _; rewrite /= adjM !mulmxA. Qed.
Lemma vb_l X : eps_l_noop 4 X (uA (vb Y) 0) (uA (vb Y) 0) = \tr X *: (Y^† *m Y).
Proof.
transitivity (Y^† *m (\sum_(s < 4) (x3E C s)^† *m X *m x3E C s) *m Y).
  by rewrite mulmx_sumr mulmx_suml; apply: eq_bigr => s _; rewrite /= adjM !mulmxA.
by rewrite x3El mul_mx_scalar -scalemxAl.
Qed.
Lemma vb_valid : valid 1 4 (vb Y).
Proof. by move=> [|//] _; split; rewrite [RHS](vb_l, vb_r) /= ?trY ?scale1r // mulmx1 mxtrace_mulC trY. Qed.
Lemma vb_pl k : posdef (ul (vb Y) k). Proof. exact: posdef_gram. Qed.
Lemma vb_pr k : posdef (ur (vb Y) k).
Proof. by have := posdef_gram (unitmx1 C 2); rewrite adj1 mulmx1. Qed.
Lemma vb_uR k : unique_right 4 1 (vb Y) k.
Proof.
move=> X <-; exists (\tr (Y *m X *m Y^†)); rewrite [RHS]scalemx1 -vb_r.
by rewrite sum_cfgsS; apply: eq_bigr => s _; rewrite sum_cfgs0 /psi /= pid_mx_1 !mulmx1.
Qed.
Lemma vb_uL k : unique_left 4 1 (vb Y) k.
Proof.
move=> X <-; eexists; apply: etrans (vb_l X).
by rewrite sum_cfgsS; apply: eq_bigr => s _; rewrite sum_cfgs0 /psi /= pid_mx_1 !mulmx1 mulmxA.
Qed.
Lemma vb_cell k X : cellR 1 4 (op_cell 4 op (uA (shift_cell 1 k (vb Y)))) (uA (shift_cell 1 k (vb Y))) X = \tr (Y *m U^† *m X *m Y^†) *: U.
Proof.
rewrite /cellR /=; transitivity (U *m (\sum_(s < 4) x3E C s *m (Y *m U^† *m X *m Y^†) *m (x3E C s)^†)).
  rewrite mulmx_sumr; apply: eq_bigr => s _; rewrite /op_cell /op_dot_A /=.
  under eq_bigr do rewrite scalemxAl.
  rewrite -mulmx_suml opE // adjM !mulmxA; congr (_ *m _ *m _ *m _).
  rewrite -!mulmxA; congr (_ *m (_ *m _)).
  have UU' := mulmx1C UU.
  by rewrite -[Y *m U^†]mul1mx -UU' -mulmxA (mulmxA U Y) UY -(mulmxA Y U) UU mulmx1.
by rewrite x3Er mul_mx_scalar.
Qed.
Lemma vb_lead k : let p := string_lead eigs1 4 1 op (uA (shift_cell 1 k (vb Y))) in 1 <= `|p.1| /\ exists x, p.2 = x *: U.
Proof.
have [h1 h2 h3] := leadP 4 1 eigsP (uA (shift_cell 1 k (vb Y))) op (isT : (0 < 2)%N).
have U0 : U != 0 by apply/eqP => z; move: UU; rewrite z mul0mx => /matrixP/(_ i0 i0)/eqP; rewrite !mxE eq_sym oner_eq0.
have w1 : 1 <= `|(string_lead eigs1 4 1 op (uA (shift_cell 1 k (vb Y)))).1|.
  rewrite -(normr1 C); apply: (h3 1 U U0); rewrite vb_cell -(mulmxA Y) (mulmx1C UU) mulmx1 mxtrace_mulC trY.
  by [].
split=> //; move: h2 w1; rewrite vb_cell; move: (string_lead _ _ _ _ _) => [w V] /= e w1.
have w0 : w != 0 by rewrite -normr_gt0; apply: lt_le_trans w1.
by exists (w^-1 * \tr (Y *m U^† *m V *m Y^†)); rewrite -scalerA e scalerA mulVf // scale1r.
Qed.
End Fix.
(* the flip of both spins of a site, and the product of their signs *)
Definition opX : op1s C := fun s t => ((s + t)%N == 3%N)%:R.
Definition opZ : op1s C := fun s t => if s == t then (-1) ^+ (s %/ 2 + s %% 2) else 0.
Definition mX : 'M[C]_2 := \matrix_(i, j) (i != j)%:R.
Definition mZ : 'M[C]_2 := diag_mx (\row_i (-1) ^+ i).
Lemma opX_unitary : op_unitary 4 opX.
Proof.
move=> s t hs ht; rewrite !big_ord_recl big_ord0 /opX /=.
by case: s hs => [|[|[|[|//]]]] _; case: t ht => [|[|[|[|//]]]] _ /=; rewrite ?conjC0 ?conjC1 ?mul0r ?mulr0 ?mulr1 ?addr0 ?add0r.
Qed.
Lemma opZ_unitary : op_unitary 4 opZ.
Proof.
move=> s t hs ht; rewrite !big_ord_recl big_ord0 /opZ /=.
case: s hs => [|[|[|[|//]]]] _; case: t ht => [|[|[|[|//]]]] _ /=;
  by rewrite ?conjC0 ?mul0r ?mulr0 ?addr0 ?add0r // ?expr0 ?expr1 ?rmorphX ?rmorphN ?conjC1 ?rmorph1 -?expr2 -?exprMn ?mulrNN ?mulr1 ?expr1n ?sqrrN ?expr1n // -?exprD ?signr_odd.
Qed.
Lemma x3E_ord s (i j : 'I_2) : x3E C s i j = ((i == s %/ 2 :> nat) && (j == s %% 2 :> nat))%N%:R :> C \/ (4 <= s)%N.
Proof.
case: (leqP 4 s) => h; [by right | left]; rewrite mxE; congr ((_ && _)%:R).
  by rewrite -val_eqE /= inordK // ltn_divLR.
by rewrite -val_eqE /= inordK // ltn_mod.
Qed.
Lemma opX_conj s : (s < 4)%N -> \sum_(t < 4) opX s t *: x3E C t = mX *m x3E C s *m mX^†.
Proof.
move=> hs; have h : (3 - s < 4)%N by lia.
rewrite (bigD1 (Ordinal h)) //= big1 ?addr0 => [|t ne]; last first.
  rewrite /opX (_ : (s + t == 3)%N = false) ?scale0r //; apply/eqP => e; move/eqP: ne; apply; apply: val_inj => /=; lia.
rewrite /opX (_ : (s + (3 - s) == 3)%N); last by lia.
rewrite scale1r; apply/matrixP => i j.
have e n : (n < 4)%N -> forall i j, x3E C n i j = ((i == n %/ 2 :> nat) && (j == n %% 2 :> nat))%N%:R.
  by move=> hn a b; case: (x3E_ord n a b) => //; rewrite leqNgt hn.
rewrite e // mxE !big_ord_recl big_ord0 !mxE !big_ord_recl !big_ord0 !e // !mxE /=.
case: s hs h => [|[|[|[|//]]]] _ _; case: (ord2P i) => ->; case: (ord2P j) => -> /=;
  by rewrite ?conjC0 ?conjC1 ?rmorph0 ?rmorph1 ?mul0r ?mulr0 ?mulr1 ?addr0 ?add0r.
Qed.
Lemma opZ_conj s : (s < 4)%N -> \sum_(t < 4) opZ s t *: x3E C t = mZ *m x3E C s *m mZ^†.
Proof.
move=> hs; rewrite (bigD1 (Ordinal hs)) //= big1 ?addr0 => [|t ne]; last first.
  by rewrite /opZ; case: eqP => [e|_]; [move/eqP: ne; case; apply: val_inj | rewrite scale0r].
rewrite /opZ eqxx; apply/matrixP => i j.
have e n : (n < 4)%N -> forall i j, x3E C n i j = ((i == n %/ 2 :> nat) && (j == n %% 2 :> nat))%N%:R.
  by move=> hn a b; case: (x3E_ord n a b) => //; rewrite leqNgt hn.
have -> : mZ^† = mZ by apply/matrixP => a b; rewrite !mxE rmorphMn rmorphX rmorphN rmorph1 eq_sym; case: eqP => // ->.
have := e s hs i j; move: (x3E C s) => E eE; rewrite mul_mx_diag mul_diag_mx !mxE eE mulrAC -exprD.
case: andP => [[/eqP -> /eqP ->]|]; last by rewrite !mulr0.
by [].
Qed.
Lemma vb_sym Y U op k : \tr (Y^† *m Y) = 1 -> Y \in unitmx -> U *m U^† = 1%:M -> U *m Y = Y *m U -> op_unitary 4 op ->
  (forall s, (s < 4)%N -> \sum_(t < 4) op s t *: x3E C t = U *m x3E C s *m U^†) ->
  `|pw (string_lead eigs1 4 1 op (uA (shift_cell 1 k (vb Y)))).1| = 1.
Proof.
move=> trY uY UU UY opU opE; have [h _] := vb_lead trY UU UY opE k.
apply/eqP; rewrite eq_le -[pw _]expr1 pwP h andbT.
have := C71_bound eigsP (isT : (0 < 1)%N) (isT : (0 < 2)%N) pwP (vb_valid trY) (fun k _ => vb_pl uY k) (fun k _ => vb_pr Y k) opU.
by rewrite /string_per_site -[pw _]expr1 pwP.
Qed.
Lemma mX_unitary : mX *m mX^† = 1%:M.
Proof.
apply/matrixP => i j; rewrite !mxE !big_ord_recl big_ord0 !mxE /=.
by case: (ord2P i) => ->; case: (ord2P j) => -> /=; rewrite ?conjC0 ?conjC1 ?rmorph0 ?rmorph1 ?mul0r ?mulr0 ?mulr1 ?addr0 ?add0r.
Qed.
Lemma mZ_unitary : mZ *m mZ^† = 1%:M.
Proof.
apply/matrixP => i j; rewrite mul_diag_mx !mxE rmorphMn rmorphX rmorphN rmorph1 eq_sym.
by case: eqP => [->|_]; rewrite ?mulr0n ?mulr0 // mulr1n -expr2 sqrr_sign.
Qed.
(* two equal Schmidt coefficients *)
Definition Yh : 'M[C]_2 := ((sqrtC 2%:R)^-1)%:M.
Lemma Yh_tr : \tr (Yh^† *m Yh) = 1.
Proof.
have e : Yh^† = Yh.
  apply/matrixP => a b; rewrite !mxE rmorphMn eq_sym; case: eqP => // _.
  by rewrite !mulr1n geC0_conj // invr_ge0 sqrtC_ge0 ler0n.
rewrite e /Yh mul_scalar_mx scale_scalar_mx mxtrace_scalar -invfM -expr2 sqrtCK.
by rewrite -[_ *+ 2]mulr_natr mulVf // pnatr_eq0.
Qed.
Lemma Yh_unit : Yh \in unitmx.
Proof. by rewrite unitmxE det_scalar unitfE expf_eq0 /= invr_eq0 sqrtC_eq0 pnatr_eq0. Qed.
(* the comment in the code says that the largest Schmidt coefficient of a state with a symmetry is not degenerate; it
   can be, and the phase is then 0/0: flipping both spins of every site is a symmetry of the dimer state, but no
   expectation values are returned *)
Theorem C71_phase_refuted : exists (st : ust C 2) (op : op1s C),
  [/\ valid 1 4 st, forall k, posdef (ul st k) /\ posdef (ur st k), op_unitary 4 op
    & [/\ canonical 1 st 0 false, unique_right 4 1 st 0 & unique_left 4 1 st 0]] /\
  `|string_per_site eigs1 pw 4 1 op (uA st)| = 1 /\ string_density_hc eigs1 pw 4 1 false op 0 st = None.
Proof.
have UY : mX *m Yh = Yh *m mX by rewrite mul_mx_scalar mul_scalar_mx.
exists (vb Yh), opX; split; last split.
- split; [exact: vb_valid Yh_tr | move=> k; split; [exact: (vb_pl Yh_unit k) | exact: (vb_pr Yh k)] | exact: opX_unitary |].
  by split; [| exact: vb_uR | exact: vb_uL].
- exact: (vb_sym 0 Yh_tr Yh_unit mX_unitary UY opX_unitary opX_conj).
- have [_ [x ex]] := vb_lead Yh_tr mX_unitary UY opX_conj 0.
  rewrite /string_density_hc; case: argmax_re => // ind; rewrite /virtop0 ex.
  by rewrite [X in X == 0]mxE [X in _ * X]mxE [X in _ * (_ * X)]mxE eqxx !mulr0 eqxx.
Qed.
(* two different Schmidt coefficients 9/25 and 16/25: the signs of the Schmidt vectors come out *)
Definition Yd : 'M[C]_2 := diag_mx (\row_(i < 2) ((i + 3)%N%:R / 5%:R)).
Lemma Yd_adj : Yd^† = Yd.
Proof.
apply/matrixP => a b; rewrite !mxE rmorphMn eq_sym; case: eqP => // ->.
by rewrite rmorphM fmorphV !conjC_nat.
Qed.
Lemma Yd_l : Yd^† *m Yd = diag_mx (\row_(i < 2) (((i + 3) ^ 2)%N%:R / 25%:R)).
Proof.
rewrite Yd_adj /Yd mulmx_diag; congr diag_mx; apply/rowP => i; rewrite !mxE.
by rewrite mulf_div -!natrM.
Qed.
Lemma Yd_tr : \tr (Yd^† *m Yd) = 1.
Proof.
rewrite Yd_l mxtrace_diag !big_ord_recl big_ord0 !mxE /= addr0 -mulrDl -natrD divff //.
by rewrite pnatr_eq0.
Qed.
Lemma Yd_unit : Yd \in unitmx.
Proof.
rewrite unitmxE det_diag unitfE !big_ord_recl big_ord0 !mxE /= mulr1.
by rewrite !mulf_neq0 // ?invr_eq0 pnatr_eq0.
Qed.
Theorem C71_example : exists ev ol X, string_density_hc eigs1 pw 4 1 false opZ 0 (vb Yd) = Some (ev, ol, X) /\
  [/\ `|ol| = 1, X *m X^† = 1%:M, ev i1 = 1 & ev i0 = -1].
Proof.
have UY : mZ *m Yd = Yd *m mZ by rewrite /mZ /Yd !mulmx_diag; congr diag_mx; apply/rowP => i; rewrite !mxE mulrC.
have ol1 := vb_sym 0 Yd_tr Yd_unit mZ_unitary UY opZ_unitary opZ_conj.
have lt : forall j, j != i1 -> (\row_(i < 2) (((i + 3) ^ 2)%N%:R / 25%:R) : 'rV[C]_2) 0 j < (\row_(i < 2) (((i + 3) ^ 2)%N%:R / 25%:R) : 'rV[C]_2) 0 i1.
  move=> j; case: (ord2P j) => -> //= _; rewrite !mxE /= ltr_pmul2r ?ltr_nat //.
  by rewrite invr_gt0 ltr0n.
have [||ev [ol [X [e ev1]]]] := C71_leading eigsP (isT : (0 < 1)%N) (isT : (0 < 2)%N) pwP (vb_valid Yd_tr)
   (fun k _ => vb_pl Yd_unit k) (fun k _ => vb_pr Yd k) opZ_unitary (erefl _ : canonical 1 (vb Yd) 0 false) (@vb_uR Yd 0) (@vb_uL Yd 0)
   _ _ lt ol1.
- by rewrite /= mulmx1 Yd_l.
- by move=> j; rewrite mxE rpredM ?rpredV ?realn.
have oE : ol = pw (string_lead eigs1 4 1 opZ (uA (shift_cell 1 0 (vb Yd)))).1.
  by move: e; rewrite /string_density_hc; case: argmax_re => // ind; case: ifP => // _ [_ <- _].
have [xu exX _] := C71_virtop eigsP (isT : (0 < 1)%N) (isT : (0 < 2)%N) pwP (vb_valid Yd_tr)
   (fun k _ => vb_pl Yd_unit k) (fun k _ => vb_pr Yd k) opZ_unitary (erefl _ : canonical 1 (vb Yd) 0 false) (@vb_uR Yd 0)
   (fun h : false => False_ind _ (notF h)) e (etrans (congr1 _ oE) ol1).
exists ev, ol, X; split=> //; split=> //; first by rewrite oE.
have [_ [x ex]] := vb_lead Yd_tr mZ_unitary UY opZ_conj 0.
have eV : virtop0 eigs1 4 1 false opZ (shift_cell 1 0 (vb Yd)) = (sqrtC 2%:R * x) *: mZ by rewrite /virtop0 ex scalerA.
move: e; rewrite /string_density_hc eV; case: argmax_re => // ind; case: ifP => // _ [e1 _ _].
move: ev1; rewrite -{}e1; move: (_ / _) => ph.
rewrite !mxE /= !mulr1n expr1 expr0 !mulrN1 !mulr1 mulrN => /(congr1 -%R); rewrite opprK.
by [].
Qed.
End Bond.

Print Assumptions C71_lead.
Print Assumptions C71_bound.
Print Assumptions C71_gauge.
Print Assumptions C71_virtop.
Print Assumptions C71_leading.
Print Assumptions C71_occupancy.
Print Assumptions C71_phase_refuted.
Print Assumptions C71_example.
