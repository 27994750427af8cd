(* UString.v -- strings of one-site operators in uniform states: expect_string_per_site_1s (mps_uniform.py:1752-1794),
   expect_string_1s_density_hc (1577-1664), basis_occupancy (1815-1822). *)
From mathcomp Require Import all_ssreflect all_algebra.
From mathcomp Require Import zify.
From mathcomp.real_closed Require Import mxtens.
From Verif Require Import Base Spec Eps Chain ChainProofs ChainProofs2 LinAlg Struct Factor Multi Svd Uniform UCanon UAlign.
Set Implicit Arguments.
Unset Strict Implicit.
Unset Printing Implicit Defensive.
Import Order.TTheory GRing.Theory Num.Theory.
Local Open Scope ring_scope.

Section Model.
Variable C : numClosedFieldType.
(* scipy.sparse.linalg.eigs(E, which='LM', k=1): one eigenpair, the eigenvalue of maximal modulus, the eigenvector of
   norm 1 (NOTE at 1634) *)
Definition eigs1_routine := forall n, 'M[C]_n -> C * 'cV[C]_n.
Definition eigs1_contract (eigs1 : eigs1_routine) := forall n (M : 'M[C]_n), (0 < n)%N ->
  [/\ adot (eigs1 n M).2 (eigs1 n M).2 = 1, M *m (eigs1 n M).2 = (eigs1 n M).1 *: (eigs1 n M).2
    & forall a (v : 'cV[C]_n), v != 0 -> M *m v = a *: v -> `|a| <= `|(eigs1 n M).1|].
(* ssq.real.argmax(): the first index with the largest real part; ValueError on an empty array *)
Definition argmax_re n (f : 'I_n -> C) : option 'I_n :=
  if enum 'I_n is i :: s then Some (foldl (fun b x => if 'Re (f b) < 'Re (f x) then x else b) i s) else None.
Variables (eigs1 : eigs1_routine) (pw : C -> C) (q L D : nat).
(* Aop = [np.tensordot(op, A, axes=([1],[0])) for A in self.A] (1621, 1781) *)
Definition op_cell (op : op1s C) (A : nat -> nat -> 'M[C]_D) : nat -> nat -> 'M[C]_D := fun k => op_dot_A q op (A k).
(* the leading eigenpair of the mixed transfer operator of a unit cell (1623-1636, 1783-1794).  D == 1: the products of
   1 x 1 arrays, read off as a number with \tr.  The sparse operator opE is Eblock on raveled arrays (Uniform.v) *)
Definition string_lead (op : op1s C) (A : nat -> nat -> 'M[C]_D) : C * 'M[C]_D :=
  if D == 1%N then (\prod_(k < L) \tr (\sum_(s < q) op_cell op A k s *m (A k s)^†), const_mx 1)
  else let p := eigs1 (Eblock L q (op_cell op A) A) in (p.1, unravel p.2).
(* expect_string_per_site_1s (1781-1794); pw is the complex power 1/L.  For D > 1 the code returns an array of one element *)
Definition string_per_site (op : op1s C) (A : nat -> nat -> 'M[C]_D) : C := pw (string_lead op A).1.
(* Ashift = self.A[k:] + self.A[:k] (1619), and the environments seen from there *)
Definition shift_cell k (st : ust C D) : ust C D :=
  Ust (fun j => uA st ((k + j) %% L)%N) (fun j => ul st ((k + j) %% L)%N) (fun j => ur st ((k + j) %% L)%N).
(* virtop before the phase is fixed (1638-1648) *)
Definition virtop0 (symm : bool) (op : op1s C) (s : ust C D) : 'M[C]_D :=
  let V := (string_lead op (uA s)).2 in
  if symm then invmx (ur s L.-1) *m V else sqrtC D%:R *: V.
(* expect_string_1s_density_hc with return_g (1619-1661): expvals, ol_per_site, virtop.  schmidt_sq is the diagonal of
   l r for states in canonical form (1242-1244).  None: the phase is 0/0 and expvals and virtop are filled with nan *)
Definition string_density_hc (symm : bool) (op : op1s C) k (st : ust C D) : option (('I_D -> C) * C * 'M[C]_D) :=
  let s := shift_cell k st in
  let V := virtop0 symm op s in
  if argmax_re (fun i => (ul s L.-1 *m ur s L.-1) i i) is Some ind then
    if V ind ind == 0 then None else
    let phase := (V ind ind)^* / `|V ind ind| in
    Some (fun i => phase * V i i, pw (string_lead op (uA s)).1, phase *: V)
  else None.
(* basis_occupancy (1815-1822) *)
Definition basis_occupancy (st : ust C D) k : seq C :=
  [seq 'Re (adot (ul st (prv L k)) (uA st k s *m (ur st k *m (uA st k s)^†))) | s <- iota 0 q].
End Model.

(* ---- facts ----------------------------------------------------------------------------------------------------- *)
Section Facts.
Variables (C : numClosedFieldType) (q : nat).
Definition op_unitary (op : op1s C) := forall s t, (s < q)%N -> (t < q)%N -> \sum_(u < q) (op u s)^* * op u t = (s == t)%:R.

Lemma argmax_reP n (f : 'I_n -> C) i : argmax_re f = Some i -> forall j, 'Re (f j) <= 'Re (f i).
Proof.
rewrite /argmax_re; case e: (enum 'I_n) => [//|i0 s] [<-] j.
have gen (xs : seq 'I_n) b : let m := foldl (fun b x => if 'Re (f b) < 'Re (f x) then x else b) b xs in
    'Re (f b) <= 'Re (f m) /\ forall x, x \in xs -> 'Re (f x) <= 'Re (f m).
  elim: xs b => [|x xs IH] b //=.
  have [h1 h2] := IH (if 'Re (f b) < 'Re (f x) then x else b).
  set m := foldl _ _ _ in h1 h2 *; split.
  - by apply: le_trans h1; case: ifP => // /ltW.
  - move=> y; rewrite inE => /predU1P[->|]; last exact: h2.
    apply: le_trans h1; case: ifP => // /negbT.
    by rewrite -real_leNgt ?Creal_Re.
have [h1 h2] := gen s i0; have : j \in i0 :: s by rewrite -e mem_enum.
by rewrite inE => /predU1P[->|/h2].
Qed.
Lemma argmax_re_some n (f : 'I_n -> C) : (0 < n)%N -> exists i, argmax_re f = Some i.
Proof.
move=> n0; rewrite /argmax_re; case e: (enum 'I_n) => [|i s]; last by eexists.
by have := mem_enum 'I_n (Ordinal n0); rewrite e.
Qed.

Section Op.
Variables (D0 D1 : nat) (op : op1s C) (A : nat -> 'M[C]_(D0, D1)).
Hypothesis opU : op_unitary op.
Lemma op_swap (V : zmodType) (f : 'I_q -> 'I_q -> V) (h : C -> V -> V) :
  (forall t t', h 0 (f t t') = 0) -> (forall t t', h 1 (f t t') = f t t') ->
  \sum_(t < q) \sum_(t' < q) h (\sum_(u < q) (op u t)^* * op u t') (f t t') = \sum_(t < q) f t t.
Proof.
move=> h0 h1; apply: eq_bigr => t _; rewrite (bigD1 t) //= opU // eqxx h1 big1 ?addr0 // => t' ne.
by rewrite opU // (inj_eq val_inj) eq_sym (negbTE ne) h0.
Qed.
Lemma eps_l_unitary x : eps_l_noop q x (op_dot_A q op A) (op_dot_A q op A) = eps_l_noop q x A A.
Proof.
rewrite /eps_l_noop -(op_swap (f := fun t t' : 'I_q => (A t)^† *m (x *m A t')) (h := fun c y => c *: y));
  [|by move=> *; rewrite scale0r|by move=> *; rewrite scale1r].
transitivity (\sum_(s < q) \sum_(t < q) \sum_(t' < q) ((op s t)^* * op s t') *: ((A t)^† *m (x *m A t'))).
  apply: eq_bigr => s _; rewrite adj_sum mulmx_suml; apply: eq_bigr => t _.
  rewrite adjZ -scalemxAl !mulmx_sumr scaler_sumr; apply: eq_bigr => t' _.
  by rewrite -!scalemxAr scalerA.
rewrite exchange_big; apply: eq_bigr => t _; rewrite exchange_big; apply: eq_bigr => t' _.
by rewrite scaler_suml.
Qed.
Lemma eps_r_unitary x : eps_r_noop q x (op_dot_A q op A) (op_dot_A q op A) = eps_r_noop q x A A.
Proof.
rewrite /eps_r_noop -(op_swap (f := fun t t' : 'I_q => A t' *m x *m (A t)^†) (h := fun c y => c *: y));
  [|by move=> *; rewrite scale0r|by move=> *; rewrite scale1r].
transitivity (\sum_(s < q) \sum_(t < q) \sum_(t' < q) ((op s t)^* * op s t') *: (A t' *m x *m (A t)^†)).
  apply: eq_bigr => s _; rewrite adj_sum mulmx_sumr; apply: eq_bigr => t _.
  rewrite adjZ -scalemxAr !mulmx_suml scaler_sumr; apply: eq_bigr => t' _.
  by rewrite -!scalemxAl scalerA.
rewrite exchange_big; apply: eq_bigr => t _; rewrite exchange_big; apply: eq_bigr => t' _.
by rewrite scaler_suml.
Qed.
End Op.

(* a positive definite matrix *)
Lemma pd_tr_ge0 m n (R : 'M[C]_n) (Y : 'M[C]_(m, n)) : pd R -> 0 <= \tr (Y *m R *m Y^†).
Proof.
case=> P _ ->; have -> : Y *m (P^† *m P) *m Y^† = (P *m Y^†)^† *m (P *m Y^†) by rewrite adjM adjK !mulmxA.
by rewrite -adotE adot_ge0.
Qed.
Lemma pd_tr_eq0 m n (R : 'M[C]_n) (Y : 'M[C]_(m, n)) : pd R -> \tr (Y *m R *m Y^†) = 0 -> Y = 0.
Proof.
case=> P u ->; have -> : Y *m (P^† *m P) *m Y^† = (P *m Y^†)^† *m (P *m Y^†) by rewrite adjM adjK !mulmxA.
rewrite -adotE => /eqP; rewrite adot_eq0 => /eqP h.
by rewrite -[Y]adjK -[Y^†](mulKmx u) h mulmx0 adj0.
Qed.
Lemma pd_tr_gt0 m n (R : 'M[C]_n) (Y : 'M[C]_(m, n)) : pd R -> Y != 0 -> 0 < \tr (Y *m R *m Y^†).
Proof.
move=> pR Y0; rewrite lt_def pd_tr_ge0 // andbT; apply: contra Y0 => /eqP h.
by rewrite (pd_tr_eq0 pR h).
Qed.
(* a matrix that maps R to multiples of itself from both sides is a multiple of a unitary *)
Lemma pd_conj_unitary n (R g : 'M[C]_n) (c c' : C) : pd R -> g != 0 -> (0 < n)%N ->
  g *m R *m g^† = c' *: R -> g^† *m R *m g = c *: R ->
  0 < c' /\ g *m g^† = c'%:M.
Proof.
move=> pR g0 n0 er el.
have one0 : (1%:M : 'M[C]_n) != 0.
  by apply/eqP => /matrixP /(_ (Ordinal n0) (Ordinal n0)) /eqP; rewrite !mxE eqxx oner_eq0.
have tR : 0 < \tr R by have := pd_tr_gt0 pR one0; rewrite mul1mx adj1 mulmx1.
have tg : 0 < \tr (g *m R *m g^†) := pd_tr_gt0 pR g0.
have tg' : 0 < \tr (g^† *m R *m g).
  have := pd_tr_gt0 pR (_ : g^† != 0); rewrite adjK; apply.
  by apply: contra g0 => /eqP h; rewrite -[g]adjK h adj0.
have c0' : 0 < c' by move: tg; rewrite er mxtraceZ pmulr_lgt0.
have c0 : 0 < c by move: tg'; rewrite el mxtraceZ pmulr_lgt0.
pose k := sqrtC (c * c'); have k0 : 0 < k by rewrite sqrtC_gt0 mulr_gt0.
have kk : k * k = c * c' by rewrite -expr2 sqrtCK.
have hR : R^† = R := pd_herm pR.
pose P := g *m g^†; have hP : P^† = P by rewrite /P adjM adjK.
have PRP : P *m R *m P = (c * c') *: R.
  rewrite /P -!mulmxA (mulmxA R) (mulmxA _ _ g^†) (mulmxA g^†) el -scalemxAl -scalemxAr mulmxA er scalerA.
  by [].
pose W := P - k%:M; have hW : W^† = W.
  by rewrite /W adjB hP; congr (_ - _); apply/matrixP => i j; rewrite !mxE rmorphMn /= eq_sym geC0_conj // ltW.
have eq0 : P *m R *m W + k *: (W *m R) = 0.
  rewrite /W mulmxBr mulmxBl PRP scalerBr mul_mx_scalar mul_scalar_mx scalerA kk.
  by rewrite addrA subrK subrr.
have t1 : 0 <= \tr (R *m W *m R *m P *m R *m W).
  have := pd_tr_ge0 (g^† *m R *m W) pR.
  have -> : \tr (g^† *m R *m W *m R *m (g^† *m R *m W)^†) = \tr (R *m W *m R *m P *m R *m W); last by [].
  rewrite -[R *m W *m R *m P *m R *m W]mulmxA [in RHS]mxtrace_mulC -!mulmxA mxtrace_mulC.
  by rewrite !adjM adjK hW hR /P !mulmxA [RHS]mxtrace_mulC -!mulmxA [LHS]mxtrace_mulC -!mulmxA.
have t2 : \tr (R *m W *m R *m (R *m W)^†) = 0.
  have t1' : 0 <= \tr (R *m W *m R *m g *m g^† *m R *m W) by move: t1; rewrite /P !mulmxA.
  have t2p := pd_tr_ge0 (R *m W) pR.
  have := congr1 (fun x => \tr (R *m W *m R *m x)) eq0.
  rewrite /= mulmx0 mxtrace0 mulmxDr raddfD /= -scalemxAr mxtraceZ !mulmxA adjM hW hR !mulmxA.
  move=> /eqP; rewrite paddr_eq0 //; last first.
    by apply: mulr_ge0; [exact: ltW | move: t2p; rewrite adjM hW hR !mulmxA].
  by move=> /andP[_]; rewrite mulf_eq0 (gt_eqF k0) /= => /eqP.
have W0 : W = 0 by have RW := pd_tr_eq0 pR t2; rewrite -[W](mulKmx (pd_unit pR)) RW mulmx0.
have Pk : P = k%:M by apply/eqP; rewrite -subr_eq0 -/W W0.
have kc : k = c'.
  have e : \tr (g *m R *m g^†) = k * \tr R.
    rewrite mxtrace_mulC mulmxA.
    have ng : g^† *m g = k%:M.
      have ki : (k^-1 *: g) *m g^† = 1%:M by rewrite -scalemxAl -/P Pk scale_scalar_mx mulVf // gt_eqF.
      have := mulmx1C ki; rewrite -scalemxAr => /(congr1 (fun x => k *: x)).
      by rewrite scalerA mulfV ?gt_eqF // scale1r scale_scalar_mx mulr1.
    by rewrite ng mul_scalar_mx mxtraceZ.
  by move: e; rewrite er mxtraceZ => /mulIf -> //; rewrite gt_eqF.
by rewrite -/P Pk kc.
Qed.
End Facts.

(* a routine satisfying the contract: the normalised first leading pair of eig0 *)
Section Witness.
Variable C : numClosedFieldType.
Definition eigs1_0 : eigs1_routine C := fun n M =>
  if argmax_abs (@eig0 C n M) is Some (w, v) then (w, (sqrtC (adot v v))^-1 *: v) else (0, 0).
Lemma eigs1_0_ok : eigs1_contract eigs1_0.
Proof.
move=> n M n0; have [h1 h2] := eig0_ok M n0; rewrite /eigs1_0.
have ne : argmax_abs (eig0 M) <> None.
  have [a [v v0 e]] := eigenvalue_exists M^T n0.
  have [||p pin _] := h2 a v^T; first by apply: contra v0 => /eqP/(congr1 trmx); rewrite trmxK trmx0 => ->.
  - by rewrite -[M]trmxK -trmx_mul e linearZ.
  - by move: pin; case: (eig0 M).
case ea: (argmax_abs (eig0 M)) ne => [[w v]|//] _ /=.
have [[i hi ei] mx] := argmax_absP ea.
have vin : (w, v) \in eig0 M by rewrite -ei mem_nth.
have [/= v0 ev] := h1 _ vin.
have vv : 0 < adot v v by rewrite lt_def adot_eq0 v0 adot_ge0.
have sv : 0 < sqrtC (adot v v) by rewrite sqrtC_gt0.
split.
- by rewrite adotZl adotZr mulrA geC0_conj ?invr_ge0 ?(ltW sv) // -invfM -expr2 sqrtCK mulVf // gt_eqF.
- by rewrite -scalemxAr ev !scalerA mulrC.
- move=> a u u0 eu; have [p pin pa] := h2 _ _ u0 eu; apply: le_trans pa _.
  by have := mx (index p (eig0 M)); rewrite index_mem pin nth_index // => /(_ isT).
Qed.
End Witness.
