(* P17_UCanon.v -- C46: canonical forms of the uniform class. *)
From mathcomp Require Import all_ssreflect all_algebra.
From mathcomp Require Import zify.
From mathcomp.real_closed Require Import mxtens.
From Verif Require Import Base Spec Eps Chain ChainProofs ChainProofs2 LinAlg Struct Factor Multi Svd Uniform UCanon.
Set Implicit Arguments.
Unset Strict Implicit.
Unset Printing Implicit Defensive.
Import Order.TTheory GRing.Theory Num.Theory.
Local Open Scope ring_scope.

Section C46.
Variables (C : numClosedFieldType) (eigh : eigh_routine C) (chol : chol_routine C) (svd : svd_routine C).
Hypotheses (eighP : eigh_contract eigh) (cholP : chol_contract chol) (svdP : svd_contract svd).
Variables (L q D : nat).
Hypothesis L0 : (0 < L)%N.
(* same state: the reduced density matrices of all windows of the infinite chain agree *)
Definition same_state (st st' : ust C D) := forall k0 N c d, size c = N -> size d = N ->
  wdens L (uA st') (ul st') (ur st') k0 N c d = wdens L (uA st) (ul st) (ur st) k0 N c d.
Definition valid (st : ust C D) := consistent L q (uA st) (ul st) (ur st).
Definition is_diag_real (x : 'M[C]_D) := exists2 ev : 'rV[C]_D, x = diag_mx ev & forall i, ev 0 i \is Num.real.

Theorem C46_RCF tol diag_l ks st : 0 <= tol -> uniq ks -> all (fun k => k < L)%N ks -> valid st ->
  (forall k, k \in ks -> [/\ herm (ul st k), herm (ur st k) & above tol (ur st k)]) ->
  exists2 st', restore_RCF eigh chol L tol diag_l ks st = Some st' &
  [/\ valid st', same_state st st', forall k, k \in ks -> ur st' k = 1%:M /\ (diag_l -> is_diag_real (ul st' k))
    & forall k, k \notin ks -> ul st' k = ul st k /\ ur st' k = ur st k].
Proof.
move=> t0 un al hc hP.
pose P (x y : 'M[C]_D) := [/\ herm x, herm y & above tol y].
pose Q (x y : 'M[C]_D) := y = 1%:M /\ (diag_l -> is_diag_real x).
apply: (@loopP C L D q (rcf_step eigh chol L tol diag_l) P Q L0) => // s k kL [hl hr ab].
have [g [gi [lk [h1 h2 h3 h4 h5]]]] := rcf_stepP eighP cholP diag_l t0 kL hr ab hl.
by exists g, gi, lk, 1%:M; split.
Qed.
(* left canonical form without diagonalisation of r *)
Theorem C46_LCF tol ks st : 0 <= tol -> uniq ks -> all (fun k => k < L)%N ks -> valid st ->
  (forall k, k \in ks -> herm (ul st k) /\ above tol (ul st k)) ->
  exists2 st', restore_LCF eigh chol L tol false ks st = Some st' &
  [/\ valid st', same_state st st', forall k, k \in ks -> ul st' k = 1%:M
    & forall k, k \notin ks -> ul st' k = ul st k /\ ur st' k = ur st k].
Proof.
move=> t0 un al hc hP.
pose P (x y : 'M[C]_D) := herm x /\ above tol x.
pose Q (x y : 'M[C]_D) := x = 1%:M.
apply: (@loopP C L D q (lcf_step eigh chol L tol false) P Q L0) => // s k kL [hl ab].
have [g [gi [h1 h2 h3]]] := lcf_stepP eighP cholP t0 kL hl ab.
by exists g, gi, 1%:M, (gi *m ur s k *m gi^†); split.
Qed.
(* symmetric canonical form; the eigenvalues of r l are the squares of the Schmidt coefficients *)
Lemma scf_sv tol (l r : 'M[C]_D) : 0 <= tol -> herm l -> herm r -> above tol l -> above tol r -> above (tol ^+ 2) (r *m l) ->
  forall i : 'I_D, tol < svn (svd (fac_evd_x eigh false tol l *m fac_evd_x eigh true tol r)).1.2 i.
Proof.
move=> t0 hl hr abl abr ab i.
have [uX eX] := evd_x_full eighP true t0 hr abr; have [uY eY] := evd_x_full eighP false t0 hl abl.
move: uX eX uY eY; set X := fac_evd_x _ true _ _; set Y := fac_evd_x _ false _ _ => uX eX uY eY.
have := svd_okE (svdP (Y *m X)); case: (svd _) => [[U sv] Vh] /= [u1 v1 eM sp _].
rewrite diagS_D in eM; set S := diag_mx _ in eM.
have uV : Vh \in unitmx by have [] := mulmx1_unit v1.
pose e : 'cV[C]_D := delta_mx i ord0.
have e0 : e != 0 by apply/eqP => /matrixP/(_ i ord0)/eqP; rewrite !mxE !eqxx oner_eq0.
have Se : S *m e = svn sv i *: e.
  apply/matrixP => a b; rewrite mul_diag_mx !mxE (ord1 b); case: (eqVneq a i) => [->|ne]; rewrite ?andbT ?mulr1 ?mulr0 //.
have hS : S^† = S.
  apply/matrixP => a b; rewrite !mxE; case: (eqVneq a b) => [->|ne].
    by rewrite ?eqxx !mulr1n conj_Creal // ger0_real.
  by rewrite !mulr0n conjC0.
have gram : (Y *m X)^† *m (Y *m X) = Vh^† *m (S *m S) *m Vh.
  by rewrite eM !adjM hS !mulmxA -(mulmxA _ U^† U) u1 mulmx1.
have : tol ^+ 2 < svn sv i ^+ 2.
  apply: (ab _ (X *m Vh^† *m e)).
    apply: contraNneq e0 => z; have : invmx (X *m Vh^†) *m (X *m Vh^† *m e) = 0 by rewrite z mulmx0.
    rewrite mulmxA mulVmx ?mul1mx => [->//|]; rewrite unitmx_mul uX /=.
    by have [] := mulmx1_unit (mulmx1C v1).
  have -> : r *m l *m (X *m Vh^† *m e) = X *m ((Y *m X)^† *m (Y *m X)) *m (Vh^† *m e).
    by rewrite -{1}eX -eY adjM !mulmxA.
  rewrite gram !mulmxA -(mulmxA _ Vh) v1 mulmx1.
  by rewrite -!mulmxA Se -!scalemxAr Se -!scalemxAr scalerA -expr2.
by rewrite ltr_sqr ?nnegrE.
Qed.
Theorem C46_SCF tol st : 0 <= tol -> valid st ->
  (forall k, (k < L)%N -> [/\ herm (ul st k), herm (ur st k), above tol (ul st k), above tol (ur st k) & above (tol ^+ 2) (ur st k *m ul st k)]) ->
  exists2 st', restore_SCF eigh svd L tol st = Some st' &
  [/\ valid st', same_state st st' & forall k, (k < L)%N -> ul st' k = ur st' k /\
     exists2 sv : 'rV[C]_D, ul st' k = diag_mx sv & forall i, tol < sv 0 i].
Proof.
move=> t0 hc hP.
pose P (x y : 'M[C]_D) := [/\ herm x, herm y, above tol x, above tol y & above (tol ^+ 2) (y *m x)].
pose Q (x y : 'M[C]_D) := x = y /\ exists2 sv : 'rV[C]_D, x = diag_mx sv & forall i, tol < sv 0 i.
have [] := @loopP C L D q (scf_step eigh svd L tol) P Q L0 _ (iota 0 L) st (iota_uniq _ _) _ hc _.
- move=> {hc hP}st k kL [hl hr abl abr ab].
  have [g [gi [sv [h1 h2 h3 h4 h5]]]] := scf_stepP eighP svdP t0 kL hr abr hl abl (scf_sv t0 hl hr abl abr ab).
  by exists g, gi, (diag_mx sv), (diag_mx sv); split=> //; split=> //; exists sv.
- by apply/allP => k; rewrite mem_iota add0n.
- by move=> k; rewrite mem_iota add0n; apply: hP.
move=> st' e [h1 h2 h3 _]; exists st' => //; split=> // k kL; apply: h3.
by rewrite mem_iota add0n.
Qed.
(* a singular environment: the entries [-nonzeros:] of the descending singular values contain a zero, whose
   inverse square root is taken *)
Lemma fac_evd_x_sing lower tol (M : 'M[C]_D) : herm M -> M \notin unitmx -> fac_evd_x eigh lower tol M \notin unitmx.
Proof.
move=> hM sM; rewrite /fac_evd_x; have := eighP hM; case: (eigh M) => ev EV /and4P[/= /eqP u1 /eqP u2 _ _].
have u1' := unitary_sym u1; have [uE' uE] := mulmx1_unit u1.
have : diag_mx ev \notin unitmx.
  apply: contra sM => h; have : M *m EV \in unitmx by rewrite u2 unitmx_mul uE.
  by rewrite unitmx_mul => /andP[].
rewrite unitmxE det_diag unitfE negbK => /prodf_eq0[i _ /eqP ei].
set f := \row_j _; have df : diag_mx f \notin unitmx.
  rewrite unitmxE det_diag unitfE negbK; apply/prodf_eq0; exists i => //.
  by rewrite mxE ei sqrtC0 if_same.
by case: lower; rewrite ?mmul_diag_lE ?mmul_diag_rE unitmx_mul negb_and df ?orbT.
Qed.
Lemma scf_step_sing tol (st : ust C D) k : 0 <= tol -> herm (ul st k) -> herm (ur st k) ->
  (ul st k \notin unitmx) || (ur st k \notin unitmx) -> scf_step eigh svd L tol st k = None.
Proof.
move=> t0 hl hr sing; rewrite /scf_step; set M := fac_evd_x _ _ _ _ *m _.
have sM : M \notin unitmx.
  by rewrite unitmx_mul negb_and; case/orP: sing => /(fac_evd_x_sing _ tol _) -> //; rewrite orbT.
have := svd_okE (svdP M); case: (svd M) => [[U sv] Vh] /= [u1 v1 eM sp so].
rewrite diagS_D in eM.
have [uU' uU] := mulmx1_unit u1; have [uV uV'] := mulmx1_unit v1.
have : diag_mx (\row_(i < D) svn sv i) \notin unitmx.
  by apply: contra sM; rewrite eM !unitmx_mul uU uV andbT.
rewrite unitmxE det_diag unitfE negbK => /prodf_eq0[i _]; rewrite mxE => /eqP ei.
rewrite ifT //; apply/existsP.
have iD := ltn_ord i; have jD : (D.-1 < D)%N by lia.
exists (Ordinal jD) => /=.
have -> : svn sv D.-1 = 0 by apply/eqP; rewrite eq_le sp andbT -ei so //; lia.
rewrite sqrtC0 eqxx andbT /tail_start; case: ifP => // /negbT; rewrite -lt0n; lia.
Qed.
Theorem C46_SCF_singular_refuted tol (st : ust C D) k : 0 <= tol -> (k < L)%N -> herm (ul st k) -> herm (ur st k) ->
  (ul st k \notin unitmx) || (ur st k \notin unitmx) -> restore_SCF eigh svd L tol st = None.
Proof.
move=> t0 kL hl hr sing; rewrite /restore_SCF /loop.
have nn ks : foldl (fun o k' => if o is Some s then scf_step eigh svd L tol s k' else None) (@None (ust C D)) ks = None by elim: ks.
have kin : k \in iota 0 L by rewrite mem_iota.
elim: (iota 0 L) st kin hl hr sing => [//|j ks IH] st; rewrite inE => kin hl hr sing /=.
case: (eqVneq k j) kin => [<- _|ne /= kin]; first by rewrite scf_step_sing.
case e: (scf_step _ _ _ _ _ _) => [s|]; last exact: nn.
have [el er] : ul s k = ul st k /\ ur s k = ur st k.
  move: e; rewrite /scf_step; case: (svd _) => [[U sv] Vh]; case: ifP => // _ [<-] /=.
  by rewrite /setv (negbTE ne).
by apply: IH; rewrite ?el ?er.
Qed.
(* restore_LCF with diag_r: the tensors still describe the same state, with environments l', r' that are not the
   stored ones *)
Theorem C46_LCF_diag_state tol st k : 0 <= tol -> (k < L)%N -> valid st -> herm (ul st k) -> herm (ur st k) -> above tol (ul st k) ->
  exists2 st', restore_LCF eigh chol L tol true [:: k] st = Some st' & exists l' r',
    [/\ valid (Ust (uA st') l' r'), same_state st (Ust (uA st') l' r') & ul st' k = 1%:M /\ is_diag_real (ur st' k)].
Proof.
move=> t0 kL hc hl hr ab; rewrite /restore_LCF /loop /= /lcf_step.
have [x [xi [-> h1 h2 h3]]] := fac_full eighP cholP false t0 hl ab.
have hrk : herm (x *m (ur st k *m x^†)) by rewrite /herm !adjM adjK hr !mulmxA.
have := eighP hrk; case: (eigh _) => ev EV /and4P[/= /eqP u1 /eqP u2 /forallP er _].
have u1' := unitary_sym u1.
eexists; first by reflexivity.
have g1 : (x *m EV^†) *m (EV *m xi) = 1%:M by rewrite mulmxA -(mulmxA x) u1 mulmx1.
exists (setv (ul st) k ((EV *m xi)^† *m ul st k *m (EV *m xi))), (setv (ur st) k ((x *m EV^†) *m ur st k *m (x *m EV^†)^†)).
split=> /=.
- exact: gcons.
- by move=> k0 N c d sc sd /=; apply: gdens.
- by rewrite /setv !eqxx /env_rank eqxx; split=> //; exists ev.
Qed.
End C46.

(* ---- a state with bond dimension 2 whose environments are not multiples of the identity ------------------------ *)
Section Example2.
Variables (C : numClosedFieldType).
Notation i0 := (0 : 'I_2).
Notation i1 := (1 : 'I_2).
Definition x3R : 'M[C]_2 := 3%:R^-1 *: (\matrix_(i, j) if (i == 1) || (j == 0) then 1 else 0).
Definition x3Y : 'M[C]_2 := diag_mx (\row_i (i.+1)%:R).
Definition x3E (s : nat) : 'M[C]_2 := delta_mx (inord (s %/ 2)) (inord (s %% 2)).
Definition x3A (k s : nat) : 'M[C]_2 := x3R *m x3E s *m x3Y.
Definition x3l (k : nat) : 'M[C]_2 := x3Y^† *m x3Y.
Definition x3r (k : nat) : 'M[C]_2 := x3R *m x3R^†.
Definition x3 := Ust x3A x3l x3r.
Lemma deltaS (X : 'M[C]_2) (i j : 'I_2) : (delta_mx i j : 'M[C]_2)^† *m X *m delta_mx i j = X i i *: (delta_mx j j : 'M[C]_2).
Proof.
have -> : (delta_mx i j : 'M[C]_2)^† = delta_mx j i.
  by apply/matrixP => a b; rewrite !mxE andbC; case: (_ && _); rewrite ?conjC1 ?conjC0.
apply/matrixP => a b; rewrite !mxE (bigD1 i) //= big1 ?addr0; last by move=> c ne; rewrite !mxE (negbTE ne) mulr0.
rewrite !mxE eqxx /= (bigD1 i) //= big1 ?addr0; last by move=> c ne; rewrite !mxE (negbTE ne) andbF mul0r.
by rewrite !mxE eqxx andbT; case: (a == j); case: (b == j); rewrite ?mulr1 ?mulr0 ?mul1r ?mul0r.
Qed.
Lemma ord2P (i : 'I_2) : i = i0 \/ i = i1.
Proof. by case: i => [[|[|//]]] hi; [left | right]; apply: val_inj. Qed.
Lemma x3El X : \sum_(s < 4) (x3E s)^† *m X *m x3E s = (\tr X)%:M.
Proof.
under eq_bigr do rewrite deltaS.
rewrite !big_ord_recl big_ord0 /=.
have -> : inord 0 = i0 by apply: val_inj; rewrite /= inordK.
have -> : inord 1 = i1 by apply: val_inj; rewrite /= inordK.
apply/matrixP => a b; rewrite !mxE /mxtrace !big_ord_recl big_ord0 /=.
have -> : lift ord0 ord0 = i1 by apply: val_inj.
by case: (ord2P a) => ->; case: (ord2P b) => -> /=; rewrite ?eqxx ?mulr0 ?mulr1 ?mulr0n ?mulr1n ?addr0 ?add0r // addrC.
Qed.
Lemma x3Er X : \sum_(s < 4) x3E s *m X *m (x3E s)^† = (\tr X)%:M.
Proof.
have e i j : (delta_mx i j : 'M[C]_2) *m X *m (delta_mx i j)^† = X j j *: (delta_mx i i : 'M[C]_2).
  rewrite -deltaS; congr (_ *m _ *m _).
  - by apply/matrixP => a b; rewrite !mxE andbC; case: (_ && _); rewrite ?conjC1 ?conjC0.
  - by apply/matrixP => a b; rewrite !mxE andbC; case: (_ && _); rewrite ?conjC1 ?conjC0.
under eq_bigr do rewrite e.
rewrite !big_ord_recl big_ord0 /=.
have -> : inord 0 = i0 by apply: val_inj; rewrite /= inordK.
have -> : inord 1 = i1 by apply: val_inj; rewrite /= inordK.
apply/matrixP => a b; rewrite !mxE /mxtrace !big_ord_recl big_ord0 /=.
have -> : lift ord0 ord0 = i1 by apply: val_inj.
by case: (ord2P a) => ->; case: (ord2P b) => -> /=; rewrite ?eqxx ?mulr0 ?mulr1 ?mulr0n ?mulr1n ?addr0 ?add0r // addrC.
Qed.
(* the maps of the example: rank one *)
Lemma x3_eps_l X : eps_l_noop 4 X (x3A 0) (x3A 0) = \tr (X *m x3r 0) *: x3l 0.
Proof.
transitivity (x3Y^† *m (\sum_(s < 4) (x3E s)^† *m (x3R^† *m X *m x3R) *m x3E s) *m x3Y).
  rewrite mulmx_sumr mulmx_suml; apply: eq_bigr => s _; rewrite /x3A !adjM !mulmxA //.
by rewrite x3El mul_mx_scalar -scalemxAl; congr (_ *: _); rewrite -mulmxA mxtrace_mulC !mulmxA.
Qed.
Lemma x3_eps_r X : eps_r_noop 4 X (x3A 0) (x3A 0) = \tr (x3l 0 *m X) *: x3r 0.
Proof.
transitivity (x3R *m (\sum_(s < 4) x3E s *m (x3Y *m X *m x3Y^†) *m (x3E s)^†) *m x3R^†).
  rewrite mulmx_sumr mulmx_suml; apply: eq_bigr => s _; rewrite /x3A !adjM !mulmxA //.
by rewrite x3Er mul_mx_scalar -scalemxAl; congr (_ *: _); rewrite mxtrace_mulC !mulmxA.
Qed.
Lemma x3lE : x3l 0 = diag_mx (\row_i (i.+1 ^ 2)%:R).
Proof.
apply/matrixP => a b; rewrite !mxE !big_ord_recl big_ord0 /= !mxE.
by case: (ord2P a) => ->; case: (ord2P b) => -> /=; rewrite ?mulr0n ?mulr1n ?conjC0 ?mulr0 ?mul0r ?addr0 ?add0r ?conjC_nat -?natrM ?conjC1 ?mulr1.
Qed.
Lemma x3rE a b : x3r 0 a b = 9%:R^-1 * (if (a == 1) && (b == 1) then 2%:R else 1).
Proof.
rewrite !mxE !big_ord_recl big_ord0 /= !mxE.
have -> : 9%:R^-1 = 3%:R^-1 * 3%:R^-1 :> C by rewrite -invfM -natrM.
have r3 : (3%:R^-1 : C)^* = 3%:R^-1 by rewrite conj_Creal // rpredV realn.
by case: (ord2P a) => ->; case: (ord2P b) => ->; rewrite /= ?mulr1 ?mulr0 ?conjC0 ?mulr0 ?mul0r ?addr0 ?add0r r3 ?addr0 -?mulr2n ?mulr_natr.
Qed.
Lemma x3_tr : \tr (x3l 0 *m x3r 0) = 1.
Proof.
have e i : (x3l 0 *m x3r 0) i i = (i.+1 ^ 2)%:R * x3r 0 i i by rewrite x3lE mul_diag_mx [LHS]mxE [X in X * _]mxE.
rewrite /mxtrace !big_ord_recl big_ord0 !e !x3rE /= addr0 mulr1 mul1r mulrCA -natrM -[X in X + _]mulr1 -mulrDr -(natrD _ 1) mulVf //.
by rewrite pnatr_eq0.
Qed.
Lemma x3_valid : valid 1 4 x3.
Proof.
move=> [|//] _; rewrite /prv /= !x3_eps_l !x3_eps_r; split; first by rewrite x3_tr scale1r.
by rewrite x3_tr scale1r.
Qed.
Lemma herm_gram m n (X : 'M[C]_(m, n)) : herm (X^† *m X).
Proof. by rewrite /herm adjM adjK. Qed.
Lemma above_gram n (X : 'M[C]_n) : X \in unitmx -> above 0 (X^† *m X).
Proof.
move=> uX a v v0 e.
have p0 : 0 < adot v v by rewrite lt0r adot_eq0 v0 adot_ge0.
have p1 : 0 < adot (X *m v) (X *m v).
  rewrite lt0r adot_eq0 adot_ge0 andbT; apply: contraNneq v0 => z.
  by rewrite -[v]mul1mx -(mulVmx uX) -mulmxA z mulmx0.
have e2 : adot (X *m v) (X *m v) = a * adot v v by rewrite -adotZr -e adot_mull mulmxA.
by rewrite e2 pmulr_lgt0 in p1.
Qed.
Lemma x3Y_unit : x3Y \in unitmx.
Proof. by rewrite unitmxE det_diag unitfE; apply/prodf_neq0 => i _; rewrite mxE pnatr_eq0. Qed.
Lemma x3R_unit : x3R^† \in unitmx.
Proof.
have h : x3R *m (3%:R *: \matrix_(i, j) if i == j then 1 else if i == 1 then -1 else 0) = 1%:M.
  rewrite -scalemxAl -scalemxAr scalerA mulVf ?pnatr_eq0 // scale1r.
  apply/matrixP => a b; rewrite !mxE !big_ord_recl big_ord0 !mxE /=.
  by case: (ord2P a) => ->; case: (ord2P b) => -> /=; rewrite ?mulr1 ?mul1r ?mulr0 ?mul0r ?addr0 ?add0r ?subrr.
have := f_equal (@adj _ _ _) h; rewrite adjM adj1 => h'.
by have [] := mulmx1_unit h'.
Qed.
(* all hypotheses of C46_RCF, C46_LCF and C46_LCF_diag_state *)
Lemma x3_ok : [/\ valid 1 4 x3, herm (ul x3 0), herm (ur x3 0), above 0 (ul x3 0) & above 0 (ur x3 0)].
Proof.
split; [exact: x3_valid | exact: herm_gram | | exact: above_gram x3Y_unit |].
- by have := herm_gram x3R^†; rewrite adjK.
- by have := above_gram x3R_unit; rewrite adjK.
Qed.
Variables (eigh : eigh_routine C) (chol : chol_routine C).
Hypotheses (eighP : eigh_contract eigh) (cholP : chol_contract chol).
Lemma ent2 (X Y : 'M[C]_2) a b : (X *m Y) a b = X a 0 * Y 0 b + X a 1 * Y 1 b.
Proof.
rewrite mxE !big_ord_recl big_ord0 addr0; congr (_ + _ * _); [congr (X a _) | congr (Y _ b)]; exact: val_inj.
Qed.
(* a unitary 2x2 matrix with a vanishing off-diagonal entry is diagonal *)
Lemma uni2 (U : 'M[C]_2) : U^† *m U = 1%:M -> (U 0 1 == 0) = (U 1 0 == 0).
Proof.
move=> u1; have u1' := unitary_sym u1.
have c0 : (U 0 0)^* * U 0 0 + (U 1 0)^* * U 1 0 = 1 by have := f_equal (fun M : 'M[C]_2 => M 0 0) u1; rewrite /= ent2 !adjE [X in _ = X]mxE.
have c1 : U 0 0 * (U 0 0)^* + U 0 1 * (U 0 1)^* = 1 by have := f_equal (fun M : 'M[C]_2 => M 0 0) u1'; rewrite /= ent2 !adjE [X in _ = X]mxE.
have : U 0 1 * (U 0 1)^* = U 1 0 * (U 1 0)^*.
  by apply: (addrI (U 0 0 * (U 0 0)^*)); rewrite c1 -c0 mulrC; congr (_ + _); rewrite mulrC.
rewrite -!normCK => e; have := f_equal (fun x => x == 0) e.
by rewrite /= !expf_eq0 /= !normr_eq0.
Qed.
Lemma x3l_ent a b : x3l 0 a b = if a == b then (a.+1 ^ 2)%:R else 0.
Proof. by rewrite x3lE !mxE; case: eqP => // ->; rewrite mulr1n. Qed.
Lemma x3_fac x xi rk : herm_fac_with_inv eigh chol false false 0 (x3l 0) = Some (x, xi, rk) -> x 0 1 = 0 /\ x 1 0 = 0.
Proof.
have hl : herm (x3l 0) by exact: herm_gram.
case ec: (chol false (x3l 0)) => [y|].
  have [-> _] := fac_chol eigh cholP 0 hl ec => -[<- _ _].
  have [e1 /is_trig_mxP t d] := cholP hl ec.
  have y10 : y 1 0 = 0 by have := t i0 i1 isT; rewrite mxE.
  split=> //; have := f_equal (fun M : 'M[C]_2 => M 0 1) e1.
  rewrite /= ent2 !adjE x3l_ent /= y10 conjC0 mul0r addr0 => /eqP.
  by rewrite mulf_eq0 conjC_eq0 (negbTE (d _)) /= => /eqP.
rewrite /herm_fac_with_inv ec /fac_evd; have := eighP hl; case: (eigh _) => ev EV /and4P[/= /eqP u1 /eqP u2 _ /forallP so].
case: ifP => // _ [<- _ _].
have ee (a b : 'I_2) : (a.+1 ^ 2)%:R * EV a b = EV a b * ev 0 b.
  have := f_equal (fun M : 'M[C]_2 => M a b) u2; rewrite /= x3lE mul_diag_mx mul_mx_diag ![in LHS]mxE [RHS]mxE => <-.
  by rewrite mulr_natl.
have e10 : EV 1 0 = 0.
  apply/eqP; apply: contraT => ne.
  have e4 : ev 0 0 = 4%:R by apply: (mulfI ne); rewrite -ee mulrC.
  have e41 : 4%:R <= ev 0 1 by have /forallP/(_ i1) := so i0; rewrite e4.
  have z0 : EV 0 0 = 0.
    apply/eqP; apply: contraT => nz; have := ee 0 0; rewrite mulrC e4 => /(mulfI nz) /eqP.
    by rewrite eqr_nat.
  have z1 : EV 0 1 = 0.
    apply/eqP; apply: contraT => nz; have := ee 0 1; rewrite mulrC => /(mulfI nz) e.
    by move: e41; rewrite -e ler_nat.
  have := f_equal (fun M : 'M[C]_2 => M 0 0) (unitary_sym u1).
  by rewrite /= ent2 z0 z1 !mul0r addr0 [RHS]mxE => /esym/eqP; rewrite oner_eq0.
have e01 : EV 0 1 = 0 by apply/eqP; rewrite uni2 // e10.
by rewrite mmul_diag_rE mul_diag_mx; split; rewrite mxE adjE ?e10 ?e01 conjC0 mulr0.
Qed.
(* with diag_r the environments stored by restore_LCF are not those of the transformed tensors, whatever
   decompositions LAPACK returns *)
Theorem C46_LCF_diag_refuted : exists2 st', restore_LCF eigh chol 1 0 true [:: 0%N] x3 = Some st' & ~ valid 1 4 st'.
Proof.
have [hv hl hr abl abr] := x3_ok.
rewrite /restore_LCF /loop /= /lcf_step.
have [x [xi [ef h1 h2 h3]]] := fac_full eighP cholP false (lexx 0) hl abl.
have [x01 x10] := x3_fac ef; rewrite ef.
set rk := x *m (_ *m _); have hrk : herm rk by rewrite /rk /herm 2!adjM adjK (hr : (x3r 0)^† = x3r 0) !mulmxA.
have := eighP hrk; case: (eigh _) => ev EV /and4P[/= /eqP u1 /eqP u2 /forallP er _].
have u1' := unitary_sym u1.
eexists; first by reflexivity.
move=> /(_ 0%N isT) [/= + _]; rewrite /prv /= /setv /= /env_rank eqxx /gstep /= => e.
set g := EV *m xi in e; set gi := x *m EV^† in e.
have e1 : 1%:M = g^† *m eps_l_noop 4 (gi^† *m gi) (x3A 0) (x3A 0) *m g.
  rewrite {1}e /eps_l_noop mulmx_sumr mulmx_suml; apply: eq_bigr => s _.
  by rewrite mul1mx !adjM !mulmxA.
rewrite x3_eps_l -scalemxAr -scalemxAl in e1; set c := \tr _ in e1.
have e2 : x3l 0 = c *: (EV^† *m x3l 0 *m EV).
  transitivity (x^† *m 1%:M *m x); first by rewrite mulmx1.
  rewrite e1 -scalemxAr -scalemxAl; congr (_ *: _).
  have -> : x^† *m (g^† *m x3l 0 *m g) *m x = (xi *m x)^† *m (EV^† *m x3l 0 *m EV) *m (xi *m x).
    by rewrite /g [(EV *m xi)^†]adjM [(xi *m x)^†]adjM !mulmxA.
  by rewrite h2 adj1 mul1mx mulmx1.
have c1 : c = 1.
  have t0 : \tr (x3l 0) != 0.
    by rewrite x3lE mxtrace_diag !big_ord_recl big_ord0 !mxE addr0 -natrD pnatr_eq0.
  have := f_equal (@mxtrace _ _) e2; rewrite mxtraceZ.
  have -> : \tr (EV^† *m x3l 0 *m EV) = \tr (x3l 0) by rewrite mxtrace_mulC mulmxA u1' mul1mx.
  by rewrite -{1}[\tr _]mul1r => /(mulIf t0).
have e3 : EV *m x3l 0 = x3l 0 *m EV by rewrite {1}e2 c1 scale1r !mulmxA u1' mul1mx.
have E01 : EV 0 1 = 0.
  apply/eqP; apply: contraT => nz.
  have := f_equal (fun M : 'M[C]_2 => M 0 1) e3; rewrite /= [LHS]ent2 [RHS]ent2 !x3l_ent /= mulr0 mul0r add0r addr0 mulrC.
  by move/(mulIf nz)/eqP; rewrite eqr_nat.
have E10 : EV 1 0 = 0 by apply/eqP; rewrite -uni2 ?E01.
have E11 : EV 1 1 != 0.
  apply: contraTneq isT => z; have := f_equal (fun M : 'M[C]_2 => M 1 1) u1.
  by rewrite /= ent2 z E01 !mulr0 addr0 [RHS]mxE => /esym/eqP; rewrite oner_eq0.
have r01 : rk 0 1 = 0.
  have := f_equal (fun M : 'M[C]_2 => M 0 1) u2; rewrite /= mul_mx_diag [RHS]mxE E01 mul0r ent2 E01 mulr0 add0r => /eqP.
  by rewrite mulf_eq0 (negbTE E11) orbF => /eqP.
have x00 : x 0 0 != 0.
  apply: contraTneq isT => z; have := f_equal (fun M : 'M[C]_2 => M 0 0) h1.
  by rewrite /= ent2 z x01 !mul0r addr0 [RHS]mxE => /esym/eqP; rewrite oner_eq0.
have x11 : x 1 1 != 0.
  apply: contraTneq isT => z; have := f_equal (fun M : 'M[C]_2 => M 1 1) h1.
  by rewrite /= ent2 z x10 !mul0r addr0 [RHS]mxE => /esym/eqP; rewrite oner_eq0.
move: r01; rewrite /rk ent2 x01 mul0r addr0 ent2 !adjE x10 conjC0 mulr0 add0r x3rE /= mulr1 => /eqP.
by rewrite !mulf_eq0 conjC_eq0 (negbTE x00) (negbTE x11) invr_eq0 pnatr_eq0.
Qed.
Lemma above_prod n (X Y : 'M[C]_n) : X \in unitmx -> Y \in unitmx -> above 0 ((X^† *m X) *m (Y^† *m Y)).
Proof.
move=> uX uY a v v0 e; have uY' : Y^† \in unitmx.
  by have := f_equal (@adj _ _ _) (mulmxV uY); rewrite adjM adj1 => /mulmx1_unit[].
have h : X *m Y^† \in unitmx by rewrite unitmx_mul uX.
apply: (above_gram h (v := Y *m v)).
  by apply: contraNneq v0 => z; rewrite -[v]mul1mx -(mulVmx uY) -mulmxA z mulmx0.
by rewrite adjM adjK scalemxAr -e !mulmxA.
Qed.
Variable svd : svd_routine C.
Hypothesis svdP : svd_contract svd.
Example C46_example : [/\ exists2 st', restore_RCF eigh chol 1 0 true [:: 0%N] x3 = Some st' & [/\ valid 1 4 st', same_state 1 x3 st', ur st' 0 = 1%:M & is_diag_real (ul st' 0)],
  exists2 st', restore_LCF eigh chol 1 0 false [:: 0%N] x3 = Some st' & [/\ valid 1 4 st', same_state 1 x3 st' & ul st' 0 = 1%:M]
  & exists2 st', restore_SCF eigh svd 1 0 x3 = Some st' & [/\ valid 1 4 st', same_state 1 x3 st' & ul st' 0 = ur st' 0]].
Proof.
have [hv hl hr abl abr] := x3_ok; split.
- have [|st' e [h1 h2 h3 _]] := C46_RCF eighP cholP (isT : (0 < 1)%N) true (ks := [:: 0%N]) (lexx 0) isT isT hv.
    by move=> k; rewrite inE => /eqP ->.
  by exists st' => //; have [//|? h4] := h3 0%N _; split=> //; exact: h4.
- have [|st' e [h1 h2 h3 _]] := C46_LCF eighP cholP (isT : (0 < 1)%N) (ks := [:: 0%N]) (lexx 0) isT isT hv.
    by move=> k; rewrite inE => /eqP ->.
  by exists st' => //; split=> //; exact: h3.
- have [|st' e [h1 h2 h3]] := C46_SCF eighP svdP (isT : (0 < 1)%N) (lexx 0) hv.
    move=> [|//] _; split=> //; rewrite expr0n /=.
    by have := above_prod x3R_unit x3Y_unit; rewrite adjK.
  by exists st' => //; split=> //; have [] := h3 0%N isT.
Qed.
(* a product state stored with bond dimension 2 is an honest fixed point, and restore_SCF fails on it *)
Definition x4 : ust C 2 := Ust (fun _ _ => delta_mx 0 0) (fun _ => delta_mx 0 0) (fun _ => delta_mx 0 0).
Example C46_SCF_singular_example : valid 1 1 x4 /\ restore_SCF eigh svd 1 0 x4 = None.
Proof.
have ad : (delta_mx 0 0 : 'M[C]_2)^† = delta_mx 0 0.
  by apply/matrixP => a b; rewrite !mxE andbC; case: (_ && _); rewrite ?conjC1 ?conjC0.
have dd : (delta_mx 0 0 : 'M[C]_2) *m (delta_mx 0 0 : 'M[C]_2) = delta_mx 0 0 by rewrite mul_delta_mx.
split.
  by move=> [|//] _; rewrite /= /eps_l_noop /eps_r_noop !big_ord1 ad !dd.
apply: (C46_SCF_singular_refuted eighP svdP (isT : (0 < 1)%N) (st := x4) (k := 0%N)) => //=.
by rewrite unitmxE (expand_det_row _ 1) big1 ?unitr0 // => j _; rewrite mxE /= mul0r.
Qed.
End Example2.
(* the contracts are satisfiable, so the theorems above are about existing routines *)
Example C46_example_routines (C : numClosedFieldType) : [/\ eigh_contract (@eigh0 C), chol_contract (@chol0 C) & svd_contract (@svd0 C)].
Proof. by split; [exact: eigh0_ok | exact: chol0_ok | exact: svd0_ok]. Qed.

Print Assumptions C46_RCF.
Print Assumptions C46_LCF.
Print Assumptions C46_SCF.
Print Assumptions C46_SCF_singular_refuted.
Print Assumptions C46_LCF_diag_state.
Print Assumptions C46_LCF_diag_refuted.
