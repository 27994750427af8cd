(* SwOverlap.v -- the overlap of two sandwich states: EvoMPS_MPS_Sandwich.overlap (mps_sandwich.py:629-713), with the
   left version of fidelity_per_site (mps_uniform.py:413-427, 1118-1130).  The window has N = M.+1 sites; site n + 1 of
   the code is n here.  Both states have the same bond dimensions at the ends of the window (the reshapes at 647-648
   and the products at 697-703 need this) and, a simplification, inside it.  The calls to print and the branches
   under sanity_checks (which only print) are left out; the shape tests at 630-640 hold by typing. *)
From mathcomp Require Import all_ssreflect all_algebra.
From mathcomp Require Import zify.
From mathcomp.real_closed Require Import mxtens.
From Verif Require Import Base Spec Eps Chain Canon Uniform UCanon UAlign.
Set Implicit Arguments.
Unset Strict Implicit.
Unset Printing Implicit Defensive.
Import Order.TTheory GRing.Theory Num.Theory.
Local Open Scope ring_scope.

Section Gauges.
Variables (C : numClosedFieldType) (eig : eig_routine C).
(* fidelity_per_site(other, full_output=True, left=True): la.eig(E, left=True) returns v with E^H v = conj(w) v; the
   eigenvalue itself is returned conjugated by the dense path and as it is by the sparse path, overlap ignores it *)
Definition fidelity_left q D1 D2 L1 (A1 : nat -> nat -> 'M[C]_D1) L2 (A2 : nat -> nat -> 'M[C]_D2) : option (C * C * 'M[C]_(D1, D2)) :=
  let L_ := lcmn L1 L2 in
  if argmax_abs (eig (Eblock L_ q (rep_cell L1 A1) (rep_cell L2 A2))^†) is Some (w, v)
  then Some (L_.-root `|w|, w, unravel v) else None.
(* la.norm: the Frobenius norm *)
Definition fnorm m n (X : 'M[C]_(m, n)) : C := sqrtC (adot X X).
(* gri (650-664): la.inv raises LinAlgError on a singular matrix *)
Definition right_gauge D (rs ro gRr : 'M[C]_D) : option 'M[C]_D :=
  if (gRr \in unitmx) && (rs \in unitmx) then
    let gr := (invmx gRr *m rs)^† in
    let gri := (invmx rs *m gRr)^† in
    let fac := fnorm rs / fnorm (gr *m ro *m gr^†) in
    Some ((sqrtC fac)^-1 *: gri)
  else None.
(* gl (676-683) *)
Definition left_gauge D (ls lo gLl : 'M[C]_D) : option 'M[C]_D :=
  if (ls \in unitmx) && (gLl \in unitmx) then
    let gl := invmx ls *m gLl in
    let gli := invmx gLl *m ls in
    let fac := fnorm ls / fnorm (gli^† *m lo *m gli) in
    Some ((sqrtC fac)^-1 *: gl)
  else None.
End Gauges.

Section Overlap.
Variables (C : numClosedFieldType) (eig : eig_routine C) (D q : nat -> nat) (M : nat) (tol : C).
(* the steps at 708-709: sites n .. n + k of the window; the last one carries AN = other.A[N] gri *)
Fixpoint ov_from (A B : tensors C D) (rs gri : 'M[C]_(D M.+1)) (k n : nat) : 'M[C]_(D n) :=
  if k is k'.+1 then eps_r_noop (q n) (ov_from A B rs gri k' n.+1) (A n) (B n)
  else eps_r_noop (q n) (recast (D n.+1) (D n.+1) rs) (A n) (fun s => B n s *m recast (D n.+1) (D n.+1) gri).
(* 708-713; for N = 1 range(N - 1, 1, -1) is empty, site N is site 1, and the array that the last line feeds to
   eps_r_noop has the shape of the left end *)
Definition ov_window (A B : tensors C D) (ls gl : 'M[C]_(D 0)) (rs gri : 'M[C]_(D M.+1)) : C :=
  let r := if M is M'.+1 then ov_from A B rs gri M' 1 else recast (D 1) (D 1) (ov_from A B rs gri 0 0) in
  adot ls (eps_r_noop (q 0) r (A 0%N) (fun s => gl *m B 0%N s)).
(* overlap (629-713); None: an exception.  ql and qr are the numbers of levels per site in the bulk; tol = 1E-12 *)
Definition sw_overlap (ql Ll : nat) (sl ol : ust C (D 0)) (qr Lr : nat) (sr orr : ust C (D M.+1)) (A B : tensors C D) : option C :=
  if fidelity_left eig ql Ll (uA sl) Ll (uA ol) is Some (dL, _, gLl) then
  if fidelity_per_site eig qr Lr (uA sr) Lr (uA orr) is Some (dR, _, gRr) then
  if right_gauge (ur sr Lr.-1) (ur orr Lr.-1) gRr is Some gri then
  if left_gauge (ul sl Ll.-1) (ul ol Ll.-1) gLl is Some gl then
  if ~~ (`|dL - 1| < tol) then Some 0 else
  if ~~ (`|dR - 1| < tol) then Some 0 else
  Some (ov_window A B (ul sl Ll.-1) gl (ur sr Lr.-1) gri)
  else None else None else None else None.
End Overlap.

(* ---- facts ----------------------------------------------------------------------------------------------------- *)
Section Facts.
Variable C : numClosedFieldType.
Lemma fnormZ m n (a : C) (X : 'M[C]_(m, n)) : fnorm (a *: X) = `|a| * fnorm X.
Proof.
rewrite /fnorm adotZl adotZr mulrA -normCKC rootCMl ?exprn_ge0 ?normr_ge0 //.
by rewrite sqrCK ?normr_ge0.
Qed.
Lemma fnorm_eq0 m n (X : 'M[C]_(m, n)) : (fnorm X == 0) = (X == 0).
Proof. by rewrite /fnorm rootC_eq0 // adot_eq0. Qed.
Lemma unit_neq0 D (X : 'M[C]_D) : (0 < D)%N -> X \in unitmx -> X != 0.
Proof.
case: D X => // n X _ u; apply/eqP => X0; move: u; rewrite X0 unitmxE det0 unitr0 //.
Qed.
Lemma right_gaugeE D (rs ro h hi : 'M[C]_D) c : (0 < D)%N -> h *m hi = 1%:M -> ro \in unitmx -> herm ro ->
  rs = h *m ro *m h^† -> c != 0 -> exists2 z, `|z| = 1 & right_gauge rs ro (c *: (h *m ro)) = Some (z *: hi).
Proof.
move=> D0 hh uo ho er c0; have [uh uhi] := mulmx1_unit hh; have ehi : hi = invmx h by rewrite -(mulKmx uh hi) hh mulmx1.
have n0 : `|c| != 0 by rewrite normr_eq0.
have cc0 : c^* != 0 by rewrite conjC_eq0.
have ur : rs \in unitmx by rewrite er !unitmx_mul uh uo unit_adj.
have uV : c *: (h *m ro) \in unitmx by rewrite unitmxZ ?unitfE // unitmx_mul uh.
exists (c^* / `|c|); first exact: phase_norm.
rewrite /right_gauge uV ur /=.
have -> : (invmx (c *: (h *m ro)) *m rs)^† = (c^-1)^* *: h.
  rewrite invmxZ ?unitmx_mul ?uh ?uo // er -scalemxAl adjZ; congr (_ *: _).
  by rewrite mulKmx ?unitmx_mul ?uh // adjK.
have -> : (invmx rs *m (c *: (h *m ro)))^† = c^* *: hi.
  rewrite -scalemxAr adjZ; congr (_ *: _).
  have -> : h *m ro = rs *m hi^† by rewrite er -mulmxA -adjM (mulmx1C hh) adj1 mulmx1.
  by rewrite mulKmx // adjK.
have -> : (c^-1)^* *: h *m ro *m ((c^-1)^* *: h)^† = `|c| ^- 2 *: rs.
  rewrite adjZ -!(scalemxAl, scalemxAr) scalerA -er conjCK; congr (_ *: _).
  by rewrite -normCKC normfV exprVn.
have e2 : `|(`|c| ^- 2)| = `|c| ^- 2 by rewrite ger0_norm // invr_ge0 exprn_ge0 ?normr_ge0.
rewrite fnormZ e2.
have -> : fnorm rs / (`|c| ^- 2 * fnorm rs) = `|c| ^+ 2.
  by move: (`|c| ^+ 2) => y; rewrite invfM invrK mulrCA divff ?fnorm_eq0 ?unit_neq0 // mulr1.
by rewrite sqrCK ?normr_ge0 // scalerA mulrC.
Qed.
Lemma left_gaugeE D (ls lo h hi : 'M[C]_D) c : (0 < D)%N -> h *m hi = 1%:M -> ls \in unitmx ->
  lo = h^† *m ls *m h -> c != 0 -> exists2 z, `|z| = 1 & left_gauge ls lo (c *: (ls *m h)) = Some (z *: h).
Proof.
move=> D0 hh us el c0; have [uh uhi] := mulmx1_unit hh.
have n0 : `|c| != 0 by rewrite normr_eq0.
have uV : c *: (ls *m h) \in unitmx by rewrite unitmxZ ?unitfE // unitmx_mul us.
exists (c / `|c|); first by rewrite normrM normfV normr_id divff.
rewrite /left_gauge us uV /=.
have -> : invmx ls *m (c *: (ls *m h)) = c *: h by rewrite -scalemxAr mulKmx.
have -> : invmx (c *: (ls *m h)) *m ls = c^-1 *: hi.
  rewrite invmxZ ?unitmx_mul ?us ?uh // -scalemxAl; congr (_ *: _).
  by rewrite -{2}[ls]mulmx1 -hh mulmxA mulKmx // unitmx_mul us.
have -> : (c^-1 *: hi)^† *m lo *m (c^-1 *: hi) = `|c| ^- 2 *: ls.
  rewrite adjZ -!(scalemxAl, scalemxAr) scalerA el.
  have -> : hi^† *m (h^† *m ls *m h) *m hi = ls.
    by rewrite !mulmxA -adjM hh adj1 mul1mx -mulmxA hh mulmx1.
  by congr (_ *: _); rewrite -normCKC normfV exprVn.
have e2 : `|(`|c| ^- 2)| = `|c| ^- 2 by rewrite ger0_norm // invr_ge0 exprn_ge0 ?normr_ge0.
rewrite fnormZ e2.
have -> : fnorm ls / (`|c| ^- 2 * fnorm ls) = `|c| ^+ 2.
  by move: (`|c| ^+ 2) => y; rewrite invfM invrK mulrCA divff ?fnorm_eq0 ?unit_neq0 // mulr1.
by rewrite sqrCK ?normr_ge0 // scalerA mulrC.
Qed.

Section Chains.
Variables (D q : nat -> nat).
(* two chains whose tensors differ by a gauge transformation and phases *)
Lemma amp_gauge (A B : tensors C D) (P : nat -> C) (H Hi : forall n, 'M[C]_(D n)) e k n c : (n + k)%N = e -> c \in cfgs q k n ->
  (forall m, (n <= m <= e)%N -> H m *m Hi m = 1%:M) ->
  (forall m s, (n <= m < e)%N -> (s < q m)%N -> A m s = P m *: (H m *m B m s *m Hi m.+1)) ->
  amp A e n c = (\prod_(n <= m < e) P m) *: (H n *m amp B e n c *m Hi e).
Proof.
elim: k n c => [|k IH] n c.
  rewrite addn0 => <- /=; rewrite inE => /eqP -> hh _.
  by rewrite big_geq // scale1r !amp_nil mulmx1 hh // leqnn.
move=> ek /allpairsP[[s c']] /= [sin cin ->] hh hA /=.
have ne : (n < e)%N by lia.
have hn : (n <= n < e)%N by rewrite leqnn.
have hn1 : (n <= n.+1 <= e)%N by rewrite leqnSn.
rewrite (IH n.+1 c') //; try lia; last first.
- by move=> m s' hm; apply: hA; lia.
- by move=> m hm; apply: hh; lia.
rewrite hA //; last by move: sin; rewrite mem_iota.
rewrite -scalemxAl -scalemxAr scalerA [in RHS]big_ltn //; congr (_ *: _).
by rewrite -!mulmxA (mulmxA (Hi n.+1)) (mulmx1C (hh _ hn1)) mul1mx.
Qed.
Variables (A B : tensors C D).
Lemma ov_fromE M (rs gri : 'M[C]_(D M.+1)) k n : (n + k)%N = M ->
  ov_from q A B rs gri k n = \sum_(c <- cfgs q k.+1 n) amp A M.+1 n c *m rs *m (amp B M.+1 n c *m gri)^†.
Proof.
elim: k n => [|k IH] n.
  rewrite addn0 => e; subst n; rewrite sum_cfgsS [LHS]/= !recast_id /eps_r_noop; apply: eq_bigr => s _.
  by rewrite sum_cfgs0 /= !pid_mx_1 !mulmx1.
move=> e; rewrite [LHS]/= IH ?addSnnS // [RHS]sum_cfgsS /eps_r_noop; apply: eq_bigr => s _.
rewrite mulmx_sumr mulmx_suml; apply: eq_bigr => c _.
by rewrite /= -(mulmxA (B n s)) [(B n s *m _)^†]adjM !mulmxA.
Qed.
(* the window for N >= 2 *)
Lemma ov_windowE M (ls gl : 'M[C]_(D 0)) (rs gri : 'M[C]_(D M.+1)) : (0 < M)%N ->
  ov_window q A B ls gl rs gri = bdotst q M.+1 ls rs (fun c => gl *m psi B M.+1 c *m gri) (psi A M.+1).
Proof.
case: M rs gri => // M' rs gri _; rewrite /ov_window /bdotst sum_cfgsS /eps_r_noop adot_sumr; apply: eq_bigr => s _.
rewrite ov_fromE // mulmx_sumr mulmx_suml adot_sumr; apply: eq_bigr => c _.
rewrite /psi /= adotE.
set X := amp A _ _ _; set Y := amp B _ _ _.
have -> : (gl *m (B 0%N s *m Y) *m gri)^† = (Y *m gri)^† *m (gl *m B 0%N s)^† by rewrite -adjM !mulmxA.
move: (Y *m gri)^† (gl *m B 0%N s)^† => U W.
have -> : ls^† *m (A 0%N s *m (X *m rs *m U) *m W) = (ls^† *m A 0%N s *m X *m rs) *m (U *m W) by rewrite !mulmxA.
by rewrite mxtrace_mulC !mulmxA.
Qed.
End Chains.
End Facts.
