(* P34_BGF.v -- C76: gauge fixing of a momentum tangent vector keeps the vector. *)
From mathcomp Require Import all_ssreflect all_algebra.
From mathcomp Require Import zify.
From Verif Require Import Base Spec Eps Chain ChainProofs LinAlg Struct Factor TdvpProofs3 BOverlap P33_BOverlap BGF.
Set Implicit Arguments.
Unset Strict Implicit.
Unset Printing Implicit Defensive.
Import Order.TTheory GRing.Theory Num.Theory.
Local Open Scope ring_scope.

Section C76.
Variables (C : numClosedFieldType) (q D : nat) (A : nat -> 'M[C]_D) (l r : smat C D D).
Variables (eigh : eigh_routine C) (qrf : qrf_routine C) (tol : C).
Hypotheses (eighP : eigh_contract eigh) (qrfP : qrf_contract qrf) (tol0 : 0 <= tol).
Notation Ld := (toarray l).
Notation Rd := (toarray r).
Hypotheses (lh : herm Ld) (rh : herm Rd).
Hypotheses (hl : eps_l_noop q Ld A A = Ld) (hr : eps_r_noop q Rd A A = Rd) (nrm : adot Ld Rd = 1).
Variables (pinv : C -> 'M[C]_D -> 'M[C]_D) (w : C).
Hypotheses (w1 : w * w^* = 1).
Hypotheses (sol : bo_solves q A Ld Rd pinv w) (sol' : bo_solves q A Ld Rd pinv w^*).
Hypotheses (ns : bo_nonsing q A Ld Rd w) (ns' : bo_nonsing q A Ld Rd w^*).
Notation ov := (B_overlap q A Ld Rd pinv w).
Notation GF B := (B_to_B_GF q A l r eigh qrf tol pinv w B).
Notation F B := (adot Ld (eps_r_noop q Rd B A)).
Notation ls := (gf_ls l eigh tol). Notation lsi := (gf_lsi l eigh tol).
Notation V := (gf_V q A r eigh qrf tol).
Notation gB := (gf_B A l r eigh qrf tol).

(* ---- overlaps see only the values at 0 .. q-1 and not the part along A ---- *)
Lemma eps_ext (X : 'M[C]_D) k (B B' : nat -> 'M[C]_D) (T : nat -> 'M[C]_(k, D)) : (forall s, (s < q)%N -> B s = B' s) ->
  eps_r_noop q X B T = eps_r_noop q X B' T.
Proof. by move=> e; apply: eq_bigr => s _; rewrite e. Qed.
Lemma ov_ext g g' B B' B2 : (forall s, (s < q)%N -> B s = B' s) -> ov g g' B B2 = ov g g' B' B2.
Proof.
move=> e; have h X T : eps_r_noop q X B T = eps_r_noop q X B' T := @eps_ext X D B B' T e.
rewrite /B_overlap /= /bo_BR !h.
by case: g'; case: g; do ?[case: eqP => _ /=]; rewrite ?h.
Qed.
Lemma ov_subA B B2 f : ov false false (fun s => B s - f *: A s) B2 = ov false false B B2.
Proof.
rewrite /B_overlap /=; set B' := fun s => _.
have eT (X : 'M[C]_D) (T : nat -> 'M[C]_D) : eps_r_noop q X B' T = eps_r_noop q X B T - f *: eps_r_noop q X A T by exact: eps_rB1.
have [X2 [o2 l2 _ c2 f2]] := bo_conE hl nrm A B2 B A sol' ns'.
have [X2' [o2' _ _ c2' _]] := bo_conE hl nrm A B2 B' A sol' ns'.
have [X1 [o1 _ _ c1 f1]] := bo_conE hl nrm B A A B2 sol ns.
have [X1' [o1' _ _ c1' f1']] := bo_conE hl nrm B' A A B2 sol ns.
have fE : F B' = F B - f by rewrite eT adotBr adotZr hr nrm mulr1.
have eX2 : X2' = X2 by apply: (bo_inj ns'); rewrite o2' o2.
have eX1 : X1' = X1.
  apply: (bo_inj ns); rewrite o1' o1 fE eT hr scalerBl opprB addrA subrK //.
rewrite c2 c2' c1 c1' f1 f1' f2 eX2 eX1 fE !eT !adotBr !adotZr (adot_E hl) l2 mulr0 subr0.
by rewrite mulrBl opprB; set S := adot _ _; set g := f * _; rewrite addrA [_ - g + _]addrAC [_ - g + _]addrAC subrK.
Qed.
Lemma ov_0 B2 : ov false false (fun _ => 0) B2 = 0.
Proof.
have e0 (X : 'M[C]_D) (T : nat -> 'M[C]_D) : eps_r_noop q X (fun _ => 0) T = 0 by rewrite /eps_r_noop big1 // => s _; rewrite !mul0mx.
rewrite /B_overlap /= /bo_BR !e0 eqxx /= adot0r mul0r subr0 addr0 add0r.
by case: eqP => _ //=; rewrite e0 adot0r mul0r.
Qed.

(* ---- the result satisfies the gauge-fixing condition, whatever the ranks of l and r ---- *)
Theorem C76_gf B : eps_r_noop q Rd (GF B).1 A = 0.
Proof.
rewrite /B_to_B_GF /=.
transitivity (lsi *m gf_x q A l r eigh qrf tol pinv w B *m eps_r_noop q Rd V A); last by rewrite (gf_VA q A eighP qrfP tol0 rh) mulmx0.
by rewrite /eps_r_noop mulmx_sumr; apply: eq_bigr => s _; rewrite /gf_B !mulmxA.
Qed.

Section Full.
Hypotheses (fl : full tol Ld) (fr : full tol Rd).
Lemma lsF : [/\ ls *m lsi = 1%:M, lsi *m ls = 1%:M, lsi^† = lsi & lsi *m Ld = ls].
Proof.
have [_ _ h2 _] := hsi_herm eighP tol0 lh; have [_ _ h3 h4 _] := hsi_mul eighP tol0 lh.
by have [_ g2 g3 _ _] := hsi_full eighP tol0 lh fl.
Qed.
(* the coordinates of a parametrised tensor are its parameters *)
Theorem C76_param z : (GF (gB z)).2 = z /\ forall s, (GF (gB z)).1 s = gB z s.
Proof.
have [e1 e2 _ _] := lsF.
have x0 : (GF (gB z)).2 = z.
  have g0 : eps_r_noop q Rd (gB z) A = 0.
    transitivity (lsi *m z *m eps_r_noop q Rd V A); last by rewrite (gf_VA q A eighP qrfP tol0 rh) mulmx0.
    by rewrite /eps_r_noop mulmx_sumr; apply: eq_bigr => s _; rewrite /gf_B !mulmxA.
  rewrite /B_to_B_GF /= /gf_x /bo_BR g0 eqxx /= scaler0 addr0.
  have -> : eps_r_noop q Rd (gB z) V = lsi *m z *m eps_r_noop q Rd V V.
    by rewrite /eps_r_noop mulmx_sumr; apply: eq_bigr => s _; rewrite /gf_B !mulmxA.
  by rewrite (gf_VV q A eighP qrfP tol0 rh fr) mulmx1 mulmxA e1 mul1mx.
by split=> // s; rewrite /B_to_B_GF /= -[gf_x _ _ _ _ _ _ _ _ _ _]/(GF (gB z)).2 x0.
Qed.
(* exactly what is changed: a gauge transformation, and the component along the state is removed *)
Theorem C76_exact B : exists y : 'M[C]_D, forall s, (s < q)%N -> (GF B).1 s = B_GT A w y B s - F B *: A s.
Proof.
have [_ e2 _ _] := lsF; rewrite /B_to_B_GF /= /gf_x /gf_B.
have [Y [eY ->]] : exists Y, Y = w *: eps_r_noop q Y A A + (eps_r_noop q Rd B A - F B *: Rd) /\
    (if (bo_BR q Ld Rd pinv w B A).1 is Some X then eps_r_noop q X A V else 0) = eps_r_noop q Y A V.
  rewrite /bo_BR; case: eqP => [R0|_] /=.
    by exists 0; rewrite !eps_r_noop0 R0 adot0r scale0r subr0 scaler0 addr0.
  set R := eps_r_noop q Rd B A; set Y := pinv _ _; exists Y; split=> //.
  have o := sol (R - F B *: Rd); rewrite -/R -/Y in o.
  have l0 : adot Ld Y = 0 by rewrite -(bo_op_l hl nrm w) o adotBr adotZr nrm mulr1 subrr.
  by rewrite -o bo_opE l0 mulr0 scale0r addr0 addrC subrK.
have u := full_unit tol0 fr; exists (w *: (Y *m invmx Rd)) => s sq.
set y : 'M[C]_D := w *: (Y *m invmx Rd); have yr : y *m Rd = w *: Y by rewrite /y -scalemxAl mulmxKV //.
clearbody y.
pose Zf f := fun s => B_GT A w y B s - f *: A s; set Z := Zf (F B).
have eZ k (T : nat -> 'M[C]_(k, D)) : eps_r_noop q Rd Z T = eps_r_noop q Rd B T + (eps_r_noop q (y *m Rd) A T - w^* *: (y *m eps_r_noop q Rd A T)) - F B *: eps_r_noop q Rd A T.
  rewrite /Z; move: (F B) => f; rewrite /eps_r_noop mulmx_sumr !scaler_sumr -!sumrB -big_split -sumrB; apply: eq_bigr => t _.
  by rewrite /Zf /B_GT /= !(mulmxDl, mulNmx) -!scalemxAl !mulmxA.
have z0 : eps_r_noop q Rd Z A = 0.
  have e : w *: eps_r_noop q Y A A - Y = F B *: Rd - eps_r_noop q Rd B A.
    by rewrite {2}eY opprD addrA subrr add0r opprB.
  by rewrite eZ yr hr yr eps_r_noopZ scalerA [w^* * w]mulrC w1 scale1r e addrCA subrr addr0 subrr.
rewrite -[RHS]/(Z s) (gf_complete eighP qrfP tol0 rh fr hr z0 sq) !mulmxA e2 mul1mx eZ yr (gf_AV q A eighP qrfP tol0 rh).
by rewrite mulmx0 !scaler0 !subr0 eps_r_noopZ.
Qed.
(* so all overlaps stay the same *)
Theorem C76_overlap B B2 : ov false false (GF B).1 B2 = ov false false B B2.
Proof.
have [y e] := C76_exact B; rewrite (ov_ext _ _ _ e) ov_subA.
exact: C75_gauge.
Qed.
Theorem C76_fixed B s : eps_r_noop q Rd B A = 0 -> (s < q)%N -> (GF B).1 s = B s.
Proof.
move=> g sq; have [_ e2 _ _] := lsF.
rewrite /B_to_B_GF /= /gf_x /gf_B /bo_BR g eqxx /= scaler0 addr0 !mulmxA e2 mul1mx.
by rewrite -(gf_complete eighP qrfP tol0 rh fr hr g sq).
Qed.
(* x holds coordinates with respect to which the overlap is the standard inner product *)
Theorem C76_coordinates B1 B2 : ov false false B1 B2 = adot (GF B2).2 (GF B1).2.
Proof.
have [e1 e2 e3 e4] := lsF.
rewrite -C76_overlap (C75_herm hl nrm sol sol' ns ns' lh rh B2) -(C76_overlap B2) -(C75_herm hl nrm sol sol' ns ns' lh rh (GF B2).1).
rewrite -(C75_gf1 _ _ _ _ _ (C76_gf B1)) -(C75_gf2 _ _ _ _ _ rh (C76_gf B2)) C75_gf_both.
set x1 := (GF B1).2; set x2 := (GF B2).2.
have -> : eps_r_noop q Rd (GF B1).1 (GF B2).1 = lsi *m x1 *m eps_r_noop q Rd V V *m x2^† *m lsi.
  rewrite /eps_r_noop mulmx_sumr !mulmx_suml; apply: eq_bigr => s _.
  by rewrite /B_to_B_GF /= /gf_B !adjM e3 !mulmxA.
clearbody x1 x2; rewrite (gf_VV q A eighP qrfP tol0 rh fr) mulmx1 !adotE lh mxtrace_mulC -[_ *m lsi *m Ld]mulmxA e4.
by rewrite mxtrace_mulC !mulmxA e1 mul1mx mxtrace_mulC.
Qed.
(* the overlap is positive, and only gauge transformations and the state itself have norm zero *)
Theorem C76_positive B : 0 <= ov false false B B.
Proof. by rewrite C76_coordinates adot_ge0. Qed.
Theorem C76_null B : ov false false B B = 0 <->
  exists (y : 'M[C]_D) (f : C), forall s, (s < q)%N -> B s = A s *m y - w^* *: (y *m A s) + f *: A s.
Proof.
split=> [|[y [f e]]].
  rewrite C76_coordinates => /eqP; rewrite adot_eq0 => /eqP x0.
  have [y e] := C76_exact B; exists (- y), (F B) => s sq.
  have := e s sq; rewrite {1}/B_to_B_GF /= -[gf_x _ _ _ _ _ _ _ _ _ _]/(GF B).2 x0 /gf_B mulmx0 mul0mx /B_GT.
  move/esym/eqP; rewrite subr_eq0 => /eqP <-.
  by rewrite mulmxN mulNmx scalerN opprK addrC -addrA [X in _ + X]addrC addrACA subrr addNr !addr0.
have e' s : (s < q)%N -> B s = B_GT A w y (fun t => 0 - (- f) *: A t) s.
  by move=> sq; rewrite e // /B_GT scaleNr opprK add0r addrC.
rewrite (ov_ext _ _ _ e').
rewrite (C75_gauge hl hr nrm w1 sol sol' ns ns') ov_subA ov_0 //.
Qed.
(* tangent vectors that differ by such a term have the same gauge-fixing form *)
Theorem C76_unique B y f : (GF (fun s => B_GT A w y B s - f *: A s)).2 = (GF B).2.
Proof.
set B' := fun s => _; apply/eqP; rewrite -subr_eq0 -adot_eq0 adotBr; move: (_ - (GF B).2) => z.
have [ez _] := C76_param z; rewrite -ez -!C76_coordinates ov_subA.
by rewrite (C75_gauge hl hr nrm w1 sol sol' ns ns') subrr.
Qed.
End Full.
End C76.

(* bond dimension 2, q = 4: A[2i+j] = |i><j| / sqrt 2, with transfer operator X -> (tr X / 2) 1, l = 1/2, r = 1.  The
   tangent vector x A, x the exchange of the two basis vectors, is not gauge-fixing and has norm 1 *)
Section Ex.
Variable C : numClosedFieldType.
Definition gU (s : nat) : 'M[C]_2 := \matrix_(i, j) ((i == (s %/ 2)%N :> nat) && (j == (s %% 2)%N :> nat))%:R.
Definition gA (s : nat) : 'M[C]_2 := (sqrtC 2%:R)^-1 *: gU s.
Definition gl : smat C 2 2 := SDense (2%:R^-1)%:M.
Definition gr : smat C 2 2 := SEye C 2.
Lemma n2 : (2%:R : C) != 0. Proof. by rewrite pnatr_eq0. Qed.
Lemma cc : (sqrtC 2%:R)^-1 * (sqrtC 2%:R : C)^-1^* = 2%:R^-1.
Proof. by rewrite conj_Creal ?realV ?ger0_real ?sqrtC_ge0 ?ler0n // -invfM -expr2 sqrtCK. Qed.
Lemma gU_r X : eps_r_noop 4 X gU gU = (\tr X)%:M.
Proof.
rewrite /eps_r_noop /mxtrace !big_ord_recl !big_ord0 !addr0; apply/matrixP => i j.
by elim/ord2: i; elim/ord2: j; rewrite !(mxE, big_ord_recl, big_ord0, adj_e) /= ?(rmorph0, rmorph1) !(mul0r, mulr0, mul1r, mulr1, addr0, add0r).
Qed.
Lemma gU_l X : eps_l_noop 4 X gU gU = (\tr X)%:M.
Proof.
rewrite /eps_l_noop /mxtrace !big_ord_recl !big_ord0 !addr0; apply/matrixP => i j.
by elim/ord2: i; elim/ord2: j; rewrite !(mxE, big_ord_recl, big_ord0, adj_e) /= ?(rmorph0, rmorph1) !(mul0r, mulr0, mul1r, mulr1, addr0, add0r).
Qed.
Lemma gE X : eps_r_noop 4 X gA gA = (\tr X / 2%:R)%:M.
Proof.
transitivity (2%:R^-1 *: eps_r_noop 4 X gU gU); last by rewrite gU_r scale_scalar_mx mulrC.
rewrite /eps_r_noop scaler_sumr; apply: eq_bigr => s _.
by rewrite /gA adjZ -!scalemxAl -scalemxAr scalerA cc.
Qed.
Lemma gL X : eps_l_noop 4 X gA gA = (\tr X / 2%:R)%:M.
Proof.
transitivity (2%:R^-1 *: eps_l_noop 4 X gU gU); last by rewrite gU_l scale_scalar_mx mulrC.
rewrite /eps_l_noop scaler_sumr; apply: eq_bigr => s _.
by rewrite /gA adjZ -!scalemxAl -!scalemxAr scalerA mulrC cc.
Qed.
Lemma g_adot X : adot (toarray gl) X = \tr X / 2%:R.
Proof. by rewrite adotE /= adj_scalar conj_Creal ?realV ?realn // mul_scalar_mx mxtraceZ mulrC. Qed.
Example C76_example (w tol : C) : tol < 2%:R^-1 ->
  [/\ [/\ herm (toarray gl), herm (toarray gr), full tol (toarray gl) & full tol (toarray gr)],
      [/\ eps_l_noop 4 (toarray gl) gA gA = toarray gl, eps_r_noop 4 (toarray gr) gA gA = toarray gr & adot (toarray gl) (toarray gr) = 1],
    forall v, bo_solves 4 gA (toarray gl) (toarray gr) (fun _ X => X) v /\ bo_nonsing 4 gA (toarray gl) (toarray gr) v,
    eps_r_noop 4 (toarray gr) (fun s => exx C *m gA s) gA != 0
  & B_overlap 4 gA (toarray gl) (toarray gr) (fun _ X => X) w false false (fun s => exx C *m gA s) (fun s => exx C *m gA s) = 1].
Proof.
move=> t2.
have fs (c : C) : tol < c -> full tol (c%:M : 'M[C]_2).
  move=> tc a v v0; rewrite mul_scalar_mx => /eqP; rewrite -subr_eq0 -scalerBl scaler_eq0 (negPf v0) orbF subr_eq0.
  by move/eqP <-.
have op v X : bo_op 4 gA (toarray gl) (toarray gr) v X = X.
  by rewrite /bo_op gE g_adot scale_scalar_mx mulr1 subrr scaler0 subr0.
have e1 : eps_r_noop 4 (toarray gr) gA gA = toarray gr by rewrite gE mxtrace1 divff ?n2.
have xh : (exx C)^† = exx C by apply/matrixP => i j; rewrite adj_e !mxE eq_sym conj_Creal ?realn.
have tx : \tr (exx C) = 0 by rewrite /mxtrace !big_ord_recl big_ord0 !mxE /= !addr0.
have x0 : exx C != 0 by apply/negP => /eqP /matrixP /(_ 0 1); rewrite !mxE /= => /eqP; rewrite oner_eq0.
have eR (X : 'M[C]_2) T : eps_r_noop 4 X T (fun s => exx C *m gA s) = eps_r_noop 4 X T gA *m exx C.
  by rewrite /eps_r_noop mulmx_suml; apply: eq_bigr => s _; rewrite adjM xh !mulmxA.
split.
- split; [by rewrite /herm /= adj_scalar conj_Creal ?realV ?realn|by rewrite /herm /= adj1|exact: fs|].
  by apply: (fs 1); apply: (lt_trans t2); rewrite invf_lt1 ?ltr0n // ltr1n.
- split=> //; first by rewrite gL mxtrace_scalar -mulr_natr mulVf ?n2 // mul1r.
  by rewrite g_adot mxtrace1 divff ?n2.
- by move=> v; split=> [X|X]; rewrite op.
- by rewrite eps_xr e1 mulmx1.
rewrite /B_overlap /= /bo_BR !eR !eps_xr e1 !mulmx1 !mul1mx (negPf x0) /= !g_adot tx !mul0r !scale0r !subr0.
rewrite !eps_xr !eR gE tx mul0r raddf0 mulmx0 mul0mx mxtrace0 !mul0r !addr0.
by rewrite exxx mxtrace1 divff ?n2.
Qed.
End Ex.
Print Assumptions C76_gf.
Print Assumptions C76_param.
Print Assumptions C76_exact.
Print Assumptions C76_overlap.
Print Assumptions C76_fixed.
Print Assumptions C76_coordinates.
Print Assumptions C76_positive.
Print Assumptions C76_null.
Print Assumptions C76_unique.
