(* P10_Expand.v -- property theorems about dynamic bond expansion (C33). *)
From mathcomp Require Import all_ssreflect all_algebra zify.
From Verif Require Import Base Spec Eps Chain ChainProofs ChainProofs2 LinAlg Struct Factor Tangent Tangent2 Tdvp
  TdvpProofs TdvpProofs2 TdvpProofs3 Svd Expand TwoSite Witness P07_Tdvp.
Set Implicit Arguments.
Unset Strict Implicit.
Unset Printing Implicit Defensive.
Import Order.TTheory GRing.Theory Num.Theory.
Local Open Scope ring_scope.

(* ---- C33: the expanded tensors -------------------------------------------- *)
Section Block.
Variables (C : numClosedFieldType) (D : nat -> nat) (bb : forall m, bb_out C (D m) (D m.+2)) (dtau : C).
Variables (A : tensors C D) (B : forall m, option (nat -> 'M[C]_(D m, D m.+1))).
Definition euler : tensors C D := fun n s => if B n is Some b then A n s - dtau *: b s else A n s.
Local Notation A' := (take_step_dynexp bb dtau A B).

Theorem C33_block n s :
  [/\ ulsubmx (A' n s) = euler n s, ursubmx (A' n s) = (- 'i * sqrtC dtau) *: bb12 (bb n) s,
      forall m, n = m.+1 -> dlsubmx (A' m.+1 s) = (- 'i * sqrtC dtau) *: bb21 (bb m) s & drsubmx (A' n s) = 0].
Proof.
by split; rewrite /take_step_dynexp /expand ?block_mxKul ?block_mxKur ?block_mxKdr // => m _; rewrite block_mxKdl.
Qed.
Theorem C33_product n s t :
  ulsubmx (A' n s *m A' n.+1 t) = euler n s *m euler n.+1 t - dtau *: (bb12 (bb n) s *m bb21 (bb n) t).
Proof. exact: pair_product. Qed.

Lemma entry0_ul a b a' b' (X : 'M[C]_(a + a', b + b')) : (0 < a)%N -> (0 < b)%N -> entry0 X = entry0 (ulsubmx X).
Proof.
case: a b X => [|a] [|b] X // _ _; rewrite /entry0.
rewrite [LHS](big_pred1 (lshift a' (ord0 : 'I_a.+1))); last by move=> i; rewrite /= -val_eqE.
rewrite [LHS](big_pred1 (lshift b' (ord0 : 'I_b.+1))); last by move=> i; rewrite /= -val_eqE.
rewrite [RHS](big_pred1 (ord0 : 'I_a.+1)); last by move=> i; rewrite /= -val_eqE.
rewrite [RHS](big_pred1 (ord0 : 'I_b.+1)); last by move=> i; rewrite /= -val_eqE.
by rewrite !mxE.
Qed.

(* every amplitude of the new state: the Euler step, minus dtau times the two-site corrections of all
   bonds, plus dtau^2 times a polynomial (all terms explicit, for every dtau) *)
Theorem C33_state N c : D 0 = 1%N -> D N = 1%N -> size c = N ->
  amplitude N A' c = amplitude N euler c
    - dtau * (\sum_(0 <= j < N.-1) entry0 (tw N euler (fun s t => bb12 (bb j) s *m bb21 (bb j) t) c))
    + dtau ^+ 2 * \sum_(k < N) (- dtau) ^+ k * entry0 (ins bb euler N k.+2 0 c).
Proof.
move=> D0 DN sz; rewrite /amplitude /psi entry0_ul ?D0 ?DN // -/(U_ bb dtau euler N 0 c).
rewrite (@U_expansion _ _ bb dtau euler N 0 c N.+2) ?sz // !big_ord_recl /= expr0 scale1r ins0 expr1 ins1 ?sz //.
have e0Z a b x (M : 'M[C]_(a, b)) : entry0 (x *: M) = x * entry0 M.
  by rewrite /entry0 mulr_sumr; apply: eq_bigr => i _; rewrite mulr_sumr; apply: eq_bigr => j _; rewrite mxE.
rewrite !entry0D addrA; congr (_ + _ + _).
  rewrite e0Z mulNr entry0_sum; congr (- (_ * _)); apply: eq_bigr => j _.
  by rewrite /one_ins /tw subn0.
rewrite entry0_sum mulr_sumr; apply: eq_bigr => k _; rewrite e0Z /bump /= !add1n mulrA; congr (_ * _).
by rewrite !exprS expr0 mulr1 !mulrA mulrNN.
Qed.
End Block.
Print Assumptions C33_block.
Print Assumptions C33_product.
Print Assumptions C33_state.

(* ---- C33: the bond dimensions and the two-site correction ------------------ *)
Section Corr.
Variables (C : numClosedFieldType) (D q : nat -> nat) (N : nat) (A : tensors C D).
Variables (l r : forall n, smat C (D n) (D n)).
Local Notation L n := (toarray (l n)).
Local Notation R n := (toarray (r n)).
Variables (eigh : eigh_routine C) (qrf : qrf_routine C) (tol : C) (svd : svd_try C).
Variables (dD_max D_max : nat) (sv_tol : C).
Local Notation bbs Cs := (BB_2s q N A l r eigh qrf tol Cs svd dD_max D_max sv_tol).
Local Notation TX m X := (@TwoSite.TX C D q A l r eigh qrf tol m X).
Local Notation sumsq s := (\sum_(x <- s) x ^+ 2).

Lemma bD_le Cs m : (bD (bbs Cs m) <= dD_maxes D dD_max D_max m.+1)%N.
Proof.
rewrite /BB_2s; case: ifP => // _; case: (Y_2s _ _ _ _ _ _ _ _ _) => [[Y|]|] //.
case e: (tm_calc_BB_2s _ _ _ _ _ _ _ _) => [o|] //=.
by move: e; rewrite /tm_calc_BB_2s; case: (svd _) => [[[U sv] Vh]|] // [<-] /=; apply: geq_minr.
Qed.

(* D[n] + dD[n], at most dD_max more, never beyond D_max, and the boundary bonds stay *)
Theorem C33_bond_dimension Cs n :
  let D' := D_new (bbs Cs) in
  [/\ (D n <= D' n <= D n + dD_max)%N, (0 < D_max -> D' n <= maxn (D n) D_max)%N, D' 0%N = D 0%N
    & (N <= n)%N -> D' n = D n].
Proof.
rewrite /= /D_new; case: n => [|n]; rewrite [dD _ 0]/=.
  by rewrite !addn0; split; rewrite ?leqnn ?leq_addr ?leq_maxl.
have h := bD_le Cs n; rewrite /dD_maxes in h; rewrite [dD _ _]/=; split.
- by rewrite leq_addr leq_add2l; apply: leq_trans h _; case: ifP => // _; apply: geq_minr.
- by move=> D0; move: h; rewrite D0; lia.
- by rewrite addn0.
- by move=> Nn; rewrite {1}/BB_2s ltnNge Nn /= addn0.
Qed.

(* at a bond that is expanded, BB12 BB21 is the gauge-fixed two-site tensor of the rank-d part of Y:
   the squared distance is the sum of the dropped squared singular values, which are those below the
   tolerance or beyond the limit *)
Theorem C33_truncated_correction Cs m Y eta : svd_try_contract svd -> 0 <= sv_tol -> (m.+1 < N)%N ->
  Y_2s q A l r eigh qrf tol Cs m = Some (Some (Y, eta)) -> svd Y <> None -> (0 < dD_maxes D dD_max D_max m.+1)%N ->
  exists X rest, [/\ forall s t, bb12 (bbs Cs m) s *m bb21 (bbs Cs m) t = TX m X s t,
    adot (Y - X) (Y - X) = sumsq rest /\ eta = adot Y Y, (\rank X <= bD (bbs Cs m))%N,
    (bD (bbs Cs m) + size rest)%N = minn (kl D q m) (kr D q m.+1)
  & (bD (bbs Cs m) < dD_maxes D dD_max D_max m.+1)%N -> forall x, x \in rest -> ~~ (sv_tol < x)].
Proof.
move=> svdP st0 mN eY; case es : (svd Y) => [[[U sv] Vh]|] // _ dpos.
have -> : bbs Cs m = odflt (@BB C (D m) (D m.+2) 0 (fun _ => 0) (fun _ => 0))
   (tm_calc_BB_2s svd Y (Vlh q A l eigh qrf tol m) (Vrh q A r eigh qrf tol m.+1)
     (toarray (l_si l eigh tol m)) (toarray (r_si r eigh tol m.+1)) (dD_maxes D dD_max D_max m.+1) sv_tol).
  by rewrite /BB_2s mN dpos eY.
case e : (tm_calc_BB_2s _ _ _ _ _ _ _ _) => [o|]; last first.
  by move: e; rewrite /tm_calc_BB_2s es.
have [w ok [ed hp]] := bb_product svdP e; rewrite [odflt _ _]/=.
have [h1 h2 h3 h4 h5] := svd_okE ok.
set K := minn (kl D q m) (kr D q m.+1); set d := bD o.
have dK : (d <= K)%N by rewrite /d ed dDn_le.
exists (colsN d w.1.1 *m diagN d w.1.2 *m rowsN d w.2), [seq svn w.1.2 i | i <- iota d (K - d)]; split.
- by move=> s t; rewrite hp /TwoSite.TX !mulmxA.
- split; last by move: eY; rewrite /Y_2s; case: ifP => // _; case: (Cs m) => // c [<- <-].
  rewrite (svd_err ok dK) /tailsq big_map -[iota _ _]/(index_iota d K) big_geq_mkord.
  by apply: eq_bigr => i _; rewrite /svn valK.
- by rewrite -mulmxA; apply: leq_trans (mulmx_max_rank _ _) _.
- by rewrite size_map size_iota subnKC.
move=> dlt x /mapP[i]; rewrite mem_iota subnKC // => /andP[di iK] ->.
apply: dDn_tail => //.
by move: dlt di; rewrite /d ed /dDn; lia.
Qed.

(* a Hamiltonian term that is None, at a bond that could be expanded: the step raises *)
Theorem C33_missing_term_refuted (ham : nat -> option (op2s C)) m : ham m = None ->
  (D m.+1 < q m * D m)%N -> (D m.+1 < D m.+2 * q m.+1)%N ->
  Y_2s q A l r eigh qrf tol (calc_C2 q N A ham) m = None.
Proof.
move=> hm h1 h2; rewrite /Y_2s leqNgt h2 leqNgt h1 /= /calc_C2 hm.
by case: ifP.
Qed.

Hypothesis upd : up_to_date q A N (fun n => L n) (fun n => R n).
Hypotheses (eighP : eigh_contract eigh) (qrfP : qrf_contract qrf) (tol0 : 0 <= tol).
Hypothesis Dpos : forall n, (n <= N)%N -> (0 < D n)%N.
Variable ham : nat -> option (op2s C).
Hypothesis hh : forall j, (j.+1 < N)%N -> ham j.
Local Notation Cs := (calc_C2 q N A ham).
Local Notation Phi := (Ham2 q N ham (psi A N)).

(* Y as computed (nothing where a null space is empty) *)
Definition Yc m : 'M[C]_(kl D q m, kr D q m.+1) :=
  if Y_2s q A l r eigh qrf tol Cs m is Some (Some Y) then Y.1 else 0.
Definition etaBB_sq m : C := if Y_2s q A l r eigh qrf tol Cs m is Some (Some Y) then Y.2 else 0.

Lemma empty_mx a b (X : 'M[C]_(a, b)) : (a == 0%N) || (b == 0%N) -> X = 0.
Proof. by case/orP=> /eqP e; subst; rewrite ?flatmx0 ?thinmx0. Qed.

(* Y holds the components of H|psi> along the two-site variations, whatever the rank of l and r *)
Theorem C33_components m X : (m.+1 < N)%N ->
  Y_2s q A l r eigh qrf tol Cs m <> None /\ dotst q N (tw N A (TX m X)) Phi = adot X (Yc m).
Proof.
move=> mN; have [hl hr] := upd; have hm := hh mN; split.
  rewrite /Y_2s /calc_C2 mN; case: ifP => // _; by case: (ham m) hm.
rewrite (tw_ham hl hr eighP qrfP tol0 mN (Dpos (ltnW mN))) /Yc /Y_2s.
case: ifP => h.
  have -> : X = 0 by apply: empty_mx; rewrite /kl /kr !subn_eq0 orbC.
  by rewrite !adot0l.
have [c ec] : exists c, Cs m = Some c by rewrite /calc_C2 mN; case: (ham m) hm => // h' _; eexists.
rewrite ec /tm_calc_BB_Y_2s /=; congr adot; apply: eq_bigr => s _; congr (_ *m (_ *m _)).
rewrite /eps_r_noop; apply: eq_bigr => t _; rewrite adjK; congr (_ *m _ *m _).
by rewrite -(calc_C2E _ _ _ mN (ltn_ord t)) ec.
Qed.
(* the two-site variations are orthogonal to psi, to every one-site tangent vector and to each other *)
Theorem C33_orthogonal m X : (m.+1 < N)%N ->
  [/\ dotst q N (tw N A (TX m X)) (psi A N) = 0, forall T, dotst q N (tw N A (TX m X)) (tvec N A T) = 0
    & forall k X', (k.+1 < N)%N -> k != m -> dotst q N (tw N A (TX m X)) (tw N A (TX k X')) = 0].
Proof.
move=> mN; have [hl hr] := upd; have Dm := Dpos (ltnW mN).
have orth := tw_orth hl hr eighP qrfP tol0 mN Dm X.
split; first by apply: orth; left.
  move=> T; rewrite dotst_sumr big1 // => k _; apply: orth.
  case: (ltnP m k) => h; [left | right] => n s nk; rewrite rep_other //; lia.
move=> k X' kN km; rewrite (eq_dotst q (u' := tw N A (TX m X))
  (v' := fun c => \sum_a psi (rep2 A (PX A l eigh qrf tol (Dpos (ltnW kN)) a) (QX A r eigh qrf tol (Dpos (ltnW kN)) X' a)) N c)) //; last first.
  by move=> c sz; apply: tw_TX.
rewrite dotst_sumr big1 // => a _; apply: orth.
case: (ltnP m k) => h; [left | right] => n s nk; rewrite rep2_o //; lia.
Qed.

(* with full-rank l and r, the parametrisation is isometric, so the sum over the bonds of the tensors
   of Y is the orthogonal projection of H|psi> onto the two-site variations, and its squared length is
   the reported sum of etaBB_sq *)
Definition two_site (X : forall m, 'M[C]_(kl D q m, kr D q m.+1)) (c : seq nat) : 'M[C]_(D 0%N, D N) :=
  \sum_(m < N.-1) tw N A (TX m (X m)) c.
Theorem C33_projection : (forall m, (m <= N)%N -> full tol (L m) /\ full tol (R m)) ->
  (forall X, dotst q N (two_site X) (fun c => Phi c - two_site Yc c) = 0) /\
  dotst q N (two_site Yc) (two_site Yc) = \sum_(m < N.-1) etaBB_sq m.
Proof.
move=> ff; have [hl hr] := upd; have mN (m : 'I_N.-1) : (m.+1 < N)%N by have := ltn_ord m; lia.
have gram X X' : dotst q N (two_site X) (two_site X') = \sum_(m < N.-1) adot (X m) (X' m).
  rewrite dotst_suml; apply: eq_bigr => m _; rewrite dotst_sumr (bigD1 m) //= big1 ?addr0.
    apply: (tw_gram hl hr eighP qrfP tol0 (mN m) (Dpos (ltnW (mN m)))).
      by have [] := ff m (ltnW (ltnW (mN m))).
    by have [] := ff m.+2 (mN m).
  by move=> k km; have [_ _ h] := C33_orthogonal (X m) (mN m); apply: h.
split=> [X|].
  rewrite dotst_subr gram dotst_suml; apply/eqP; rewrite subr_eq0; apply/eqP; apply: eq_bigr => m _.
  by have [_ ->] := C33_components (X m) (mN m).
rewrite gram; apply: eq_bigr => m _; rewrite /Yc /etaBB_sq.
case e : (Y_2s _ _ _ _ _ _ _ _ _) => [[Y|]|]; rewrite ?adot0l //.
by move: e; rewrite /Y_2s; case: ifP => // _; case: (Cs m) => // c [<-].
Qed.
End Corr.
Print Assumptions C33_bond_dimension.
Print Assumptions C33_truncated_correction.
Print Assumptions C33_missing_term_refuted.
Print Assumptions C33_components.
Print Assumptions C33_orthogonal.
Print Assumptions C33_projection.

(* the two-site Hamiltonian X (x) X on |00>: H|00> = |11> is a two-site variation, etaBB_sq = 1 *)
Section Example.
Variable C : numClosedFieldType.
Local Notation s00 := (scal (bas C [:: 0%N; 0%N])).
Definition hXX (j : nat) : option (op2s C) :=
  if j == 0%N then Some (fun s t u v => ((s + u == 1) && (t + v == 1))%N%:R) else None.
Lemma HXX c : c \in cfgs two 2 0 -> Ham2 two 2 hXX (psi s00 2) c = (c == [:: 1%N; 1%N])%:R%:M.
Proof.
move=> hc; have [s [t ec]] := cfgs2 hc; rewrite {hc}ec /Ham2 big_ord1.
have hp u v : psi s00 2 [:: u; v] = ([:: u; v] == [:: 0%N; 0%N])%:R%:M by rewrite -psi_bas.
apply: etrans (@op2_bas _ two _ (psi s00 2) 0 0 s t isT isT hp) _.
by rewrite !addn0 eqseq_cons eqseq_cons andbT.
Qed.
Definition P1 (n s : nat) : 'M[C]_(one n, one n.+1) := (delta C 1 s)%:M.
Lemma gP1 n : (n < 2)%N -> \sum_(s < two n) (s00 n s)^† *m (toarray ((eyes C) n) *m P1 n s) = 0 /\
  \sum_(s < two n) P1 n s *m toarray ((eyes C) n.+1) *m (s00 n s)^† = 0.
Proof.
move=> n2; have e : nth 0%N [:: 0%N; 0%N] n = 0%N by case: n n2 => [|[|]].
have z (s : 'I_(two n)) : s00 n s = 0 \/ P1 n s = 0.
  by case: s => -[|[|]] // i; rewrite /scal /bas e /P1 /delta /= raddf0; [right | left].
by split; rewrite big1 // => s _; case: (z s) => ->; rewrite ?[0^†]adj0 ?mul0mx ?mulmx0 ?mul0mx.
Qed.
Example C33_example eigh qrf : eigh_contract eigh -> qrf_contract qrf ->
  etaBB_sq two 2 s00 (eyes C) (eyes C) eigh qrf 0 hXX 0 = 1.
Proof.
move=> h1 h2; have fl m : full 0 (toarray ((eyes C) m)) by apply: scal_full; exact: ltr01.
have U : up_to_date two s00 2 (fun n => toarray ((eyes C) n)) (fun n => toarray ((eyes C) n)).
  by apply: (@bas_upd _ _ [:: 0%N; 0%N]) => -[|[|]].
have [x hx] := C28_left_complete U h1 h2 (lexx 0) (isT : (0 < 2)%N) (fl _) (fl _) (fl _) (gP1 (isT : (0 < 2)%N)).1.
have [y hy] := C28_right_complete U h1 h2 (lexx 0) (isT : (1 < 2)%N) (fl _) (fl _) (fl _) (gP1 (isT : (1 < 2)%N)).2.
pose X := x *m toarray (r_si ((eyes C)) eigh 0 0) *m toarray (l_si ((eyes C)) eigh 0 1) *m y.
have D1 n : (n <= 2)%N -> (0 < one n)%N by [].
have hh j : (j.+1 < 2)%N -> hXX j by case: j.
have [_ hc] := C33_components U h1 h2 (lexx 0) D1 hh X (isT : (1 < 2)%N).
have [hl hr] := U.
have g := tw_gram hl hr h1 h2 (lexx 0) (isT : (1 < 2)%N) (isT : (0 < one 1)%N) X X (fl _) (fl _).
have eX c : c \in cfgs two 2 0 -> tw 2 s00 (TX s00 (eyes C) (eyes C) eigh qrf 0 X) c = (c == [:: 1%N; 1%N])%:R%:M.
  case/cfgsP=> sz hb; case: c sz hb => [|s [|t [|]]] // _ hb.
  have sq : (s < 2)%N := hb 0%N isT; have tq : (t < 2)%N := hb 1%N isT.
  rewrite /tw /= !pid_mx_1 mul1mx mulmx1.
  transitivity (P1 0 s *m P1 1 t).
    rewrite hx // hy // /Bpar_l /Bpar_r /TX /X adjM !mulmxA.
    have [_ -> _ _] := rsE h1 (lexx 0) (hermR hr (isT : (2 <= 2)%N)).
    by [].
  by rewrite -scalar_mxM /delta -natrM mulnb !eqseq_cons andbT.
have in11 : [:: 1%N; 1%N] \in cfgs two 2 0 by apply/cfgsP; split=> // -[|[|]].
rewrite (dot_bas in11 eX (HXX in11)) in hc.
rewrite (dot_bas in11 eX (eX _ in11)) in g.
have k1 : kl one two 0 = 1%N by []; have k2 : kr one two 1 = 1%N by [].
rewrite /etaBB_sq; have : Yc two 2 s00 (eyes C) (eyes C) eigh qrf 0 hXX 0 = if Y_2s two s00 (eyes C) (eyes C) eigh qrf 0 (calc_C2 two 2 s00 hXX) 0 is Some (Some Y) then Y.1 else 0 by [].
case e : (Y_2s _ _ _ _ _ _ _ _ _) => [[Y|]|] eY; first last.
- by move: hc; rewrite eY adot0r => /eqP; rewrite oner_eq0.
- by move: hc; rewrite eY adot0r => /eqP; rewrite oner_eq0.
have -> : Y.2 = adot Y.1 Y.1 by move: e; rewrite /Y_2s; case: (calc_C2 two 2 s00 hXX 0%N) => [c|] // [<-].
move: hc g; rewrite eY; move: (X) (Y.1); rewrite [kl _ _ _]k1 [kr _ _ _]k2 => X' Y1.
rewrite /adot !big_ord1; set a := X' _ _; set b := Y1 _ _ => hab ha.
have : (a^* * b) * (a^* * b)^* = 1 by rewrite -hab conjC1 mulr1.
by rewrite rmorphM conjCK mulrACA -ha mul1r mulrC.
Qed.
End Example.
Print Assumptions C33_example.
