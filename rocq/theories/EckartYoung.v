(* EckartYoung.v -- the truncated singular value decomposition is the best approximation by a product through a bond
   of given dimension, in the Frobenius norm.  Mathematical background of C70; no code is modelled here. *)
From mathcomp Require Import all_ssreflect all_algebra.
From mathcomp Require Import zify.
From Verif Require Import Base LinAlg Svd.
Set Implicit Arguments.
Unset Strict Implicit.
Unset Printing Implicit Defensive.
Import Order.TTheory GRing.Theory Num.Theory.
Local Open Scope ring_scope.

Section EY.
Variable C : numClosedFieldType.

(* projecting on fewer directions keeps at most the largest weights *)
Lemma weights_tail m d k (g : nat -> C) (p : 'I_m -> C) :
  (forall i j, (i <= j)%N -> g j <= g i) -> (forall i, 0 <= p i <= 1) ->
  \sum_(i < m) p i = k%:R -> k = minn m d ->
  \sum_(i < m | (d <= i)%N) g i <= \sum_(i < m) g i * (1 - p i).
Proof.
move=> gm p01 ps kE; rewrite -subr_ge0 [X in _ - X]big_mkcond -sumrB.
have c0 : \sum_(i < m) g d * ((i < d)%N%:R - p i) = 0.
  rewrite -mulr_sumr sumrB ps.
  have -> : \sum_(i < m) (i < d)%N%:R = k%:R :> C.
    rewrite -natr_sum kE; congr (_%:R); rewrite -big_mkcond /= sum1_card.
    case: (leqP m d) => h.
      rewrite (eq_card (B := predT)) ?card_ord // => i.
      by rewrite !inE; apply: leq_trans (ltn_ord i) h.
    rewrite -sum1_card -(big_ord_widen _ (fun _ => 1%N)) ?sum1_card ?card_ord //; exact: ltnW.
  by rewrite subrr mulr0.
rewrite -[X in X <= _]c0; apply: ler_sum => i _; have /andP[p0 p1] := p01 i.
case: (ltnP i d) => h.
  by rewrite subr0; apply: ler_wpmul2r; [rewrite subr_ge0 | apply: gm; exact: ltnW].
rewrite sub0r mulrN [g i * _]mulrBr mulr1 addrAC subrr add0r ler_opp2; apply: ler_wpmul2r => //; exact: gm.
Qed.

(* the part of a matrix outside the range of an isometry cannot be approximated inside it *)
Lemma proj_best m n k (Q : 'M[C]_(m, k)) (M : 'M[C]_(m, n)) (Z : 'M[C]_(k, n)) : Q^† *m Q = 1%:M ->
  adot M M - adot (Q^† *m M) (Q^† *m M) <= adot (M - Q *m Z) (M - Q *m Z).
Proof.
move=> QQ; have := adot_ge0 (Q^† *m M - Z); rewrite !adotBl !adotBr.
have -> : adot (Q *m Z) (Q *m Z) = adot Z Z by rewrite adot_unitary.
have -> : adot (Q *m Z) M = adot Z (Q^† *m M) by rewrite adot_mull.
have -> : adot M (Q *m Z) = adot (Q^† *m M) Z by rewrite [LHS]adotC adot_mull -adotC.
set a := adot M M; set b := adot (Q^† *m M) _; set c := adot (Q^† *m M) Z; set e := adot Z _; set f := adot Z Z.
move=> h; rewrite -subr_ge0; suff -> : a - c - (e - f) - (a - b) = b - c - (e - f) by [].
have aux (x y z : C) : x + y - (x - z) = z + y by rewrite opprB addrC addrA subrK.
by rewrite -[a - c - _]addrA aux addrA.
Qed.

(* the same with at most d directions in total *)
Lemma weights_tail_le m d (g : nat -> C) (p : 'I_m -> C) :
  (forall i, 0 <= g i) -> (forall i j, (i <= j)%N -> g j <= g i) -> (forall i, 0 <= p i <= 1) ->
  \sum_(i < m) p i <= d%:R ->
  \sum_(i < m | (d <= i)%N) g i <= \sum_(i < m) g i * (1 - p i).
Proof.
move=> g0 gm p01 ps; case: (leqP m d) => md.
  rewrite big_pred0 => [|i]; last by apply/negbTE; rewrite -ltnNge; apply: leq_trans (ltn_ord i) md.
  by apply: sumr_ge0 => i _; apply: mulr_ge0 => //; rewrite subr_ge0; case/andP: (p01 i).
rewrite -subr_ge0 [X in _ - X]big_mkcond -sumrB.
have c0 : 0 <= \sum_(i < m) g d * ((i < d)%N%:R - p i).
  rewrite -mulr_sumr sumrB; apply: mulr_ge0 => //; rewrite subr_ge0; apply: le_trans ps _.
  rewrite -natr_sum ler_nat -big_mkcond /= -(big_ord_widen m (fun _ => 1%N)); last exact: ltnW.
  by rewrite sum1_card card_ord.
apply: le_trans c0 _; apply: ler_sum => i _; have /andP[p0 p1] := p01 i.
case: (ltnP i d) => h.
  by rewrite subr0; apply: ler_wpmul2r; [rewrite subr_ge0 | apply: gm; exact: ltnW].
rewrite sub0r mulrN [g i * _]mulrBr mulr1 addrAC subrr add0r ler_opp2; apply: ler_wpmul2r => //; exact: gm.
Qed.

Lemma proj_best_r m n k (Q : 'M[C]_(n, k)) (M : 'M[C]_(m, n)) (Z : 'M[C]_(m, k)) : Q^† *m Q = 1%:M ->
  adot M M - adot (M *m Q) (M *m Q) <= adot (M - Z *m Q^†) (M - Z *m Q^†).
Proof.
move=> QQ; have := proj_best M^† Z^† QQ.
by rewrite -(adot_adj (M - _)) adjB adjM adjK !adot_adj -{1 2}[Q]adjK -adjM adjK adot_adj.
Qed.

Lemma gram_ge0 m n (T : 'M[C]_(m, n)) i : 0 <= (T^† *m T) i i.
Proof. by rewrite mxE; apply: sumr_ge0 => k _; rewrite adjE mulrC; exact: mul_conjC_ge0. Qed.

(* a factorisation with orthonormal rows on the right and orthogonal columns on the left, weights ascending *)
Lemma best_factor m n D d (a : 'M[C]_(m, D)) (b : 'M[C]_(D, n)) (lam : 'I_D -> C) (X : 'M[C]_(m, d)) (Y : 'M[C]_(d, n)) :
  b *m b^† = 1%:M -> a^† *m a = diag_mx (\row_i lam i) -> (forall i j : 'I_D, (i <= j)%N -> lam i <= lam j) ->
  \sum_(i < D | (i < D - d)%N) lam i <= adot (a *m b - X *m Y) (a *m b - X *m Y).
Proof.
move=> bb aa lm.
have l0 i : 0 <= lam i by have := gram_ge0 a i; rewrite aa !mxE eqxx.
have /andP[/eqP QQ /eqP YE] := qr0_ok (Y^†); set Q := (qr0 Y^†).1 in QQ YE; set R := (qr0 Y^†).2 in YE.
have -> : X *m Y = X *m R^† *m Q^† by rewrite -mulmxA -adjM YE adjK.
apply: le_trans (proj_best_r (a *m b) (X *m R^†) QQ).
pose W := b *m Q; pose p (i : 'I_D) := (W *m W^†) i i.
have trE k (Z : 'M[C]_(D, k)) : adot (a *m Z) (a *m Z) = \sum_(i < D) lam i * (Z *m Z^†) i i.
  rewrite adotE adjM -mulmxA (mulmxA a^†) aa mxtrace_mulC -mulmxA; apply: eq_bigr => i _.
  by rewrite mul_diag_mx !mxE.
rewrite -mulmxA !trE bb -/W -sumrB.
have -> : \sum_(i < D) (lam i * (1%:M : 'M[C]_D) i i - lam i * (W *m W^†) i i) = \sum_(i < D) lam i * (1 - p i).
  by apply: eq_bigr => i _; rewrite mxE eqxx mulrBr.
have p01 i : 0 <= p i <= 1.
  apply/andP; split; first by have := gram_ge0 W^† i; rewrite adjK.
  pose T := (1%:M - Q *m Q^†) *m b^†.
  have TT : T^† *m T = 1%:M - W *m W^†.
    rewrite /T /W !adjM adjK adjB adj1 adjM adjK !mulmxA -(mulmxA b) mulmxBr mulmx1 mulmxBl mul1mx.
    by rewrite !mulmxA -(mulmxA Q) QQ mulmx1 subrr subr0 mulmxBr mulmx1 mulmxBl bb !mulmxA.
  rewrite -subr_ge0; have -> : 1 - p i = (T^† *m T) i i by rewrite /p TT [RHS]mxE [X in _ = X + _]mxE eqxx [X in _ = _ + X]mxE.
  exact: gram_ge0.
have ps : \sum_(i < D) p i <= d%:R.
  have e : \sum_(i < D) p i = \tr (W^† *m W) by rewrite mxtrace_mulC.
  rewrite e /W adjM -mulmxA (mulmxA b^†).
  have kd : (minn n d)%:R <= d%:R :> C by rewrite ler_nat geq_minr.
  apply: le_trans kd; rewrite -(mxtrace1 C (minn n d)) -QQ -subr_ge0 -raddfB /=.
  pose T := (1%:M - b^† *m b) *m Q.
  have -> : Q^† *m Q - Q^† *m (b^† *m b *m Q) = T^† *m T.
    have PP : (1%:M - b^† *m b) *m (1%:M - b^† *m b) = 1%:M - b^† *m b.
      by rewrite mulmxBl mul1mx mulmxBr mulmx1 mulmxA -(mulmxA b^†) bb mulmx1 subrr subr0.
    have Ph : (1%:M - b^† *m b)^† = 1%:M - b^† *m b by rewrite adjB adj1 adjM adjK.
    have -> : T^† *m T = Q^† *m ((1%:M - b^† *m b) *m Q) by rewrite /T adjM Ph mulmxA -(mulmxA Q^†) PP -mulmxA.
    by rewrite mulmxBl mul1mx mulmxBr.
  by apply: sumr_ge0 => i _; exact: gram_ge0.
pose g i := if insub i is Some i' then lam (rev_ord i' : 'I_D) else 0.
have gE (i : 'I_D) : g i = lam (rev_ord i) by rewrite /g valK.
have := @weights_tail_le D d g (fun i => p (rev_ord i)).
have -> : \sum_(i < D) lam i * (1 - p i) = \sum_(i < D) g i * (1 - p (rev_ord i)).
  by rewrite (reindex_inj rev_ord_inj) /=; apply: eq_bigr => i _; rewrite gE.
have -> : \sum_(i < D | (i < D - d)%N) lam i = \sum_(i < D | (d <= i)%N) g i.
  rewrite (reindex_inj rev_ord_inj) /=; apply: eq_big => i; last by rewrite gE.
  by have := ltn_ord i; lia.
apply=> //.
- by move=> i; rewrite /g; case: insubP.
- move=> i j ij; rewrite /g; case: insubP => [j' hj ej|_]; last by case: insubP.
  case: insubP => [i' hi ei|]; last by rewrite (leq_ltn_trans ij hj).
  by apply: lm; rewrite /= ei ej leq_sub2l.
- by rewrite (reindex_inj rev_ord_inj) /= in ps.
Qed.

Section Main.
Variables (m n : nat) (M : 'M[C]_(m, n)) (o : svd_out C m n) (ok : svd_ok M o).
Local Notation U := o.1.1.
Local Notation sv := o.1.2.
Local Notation V := o.2.

Lemma svn_out k (s : 'rV[C]_k) i : (k <= i)%N -> svn s i = 0.
Proof. by move=> h; rewrite /svn; case: insubP => // j; rewrite ltnNge h. Qed.

Lemma diagS_sq : diagS m n (svn sv) *m (diagS m n (svn sv))^† = diag_mx (\row_(i < m) svn sv i ^+ 2).
Proof.
have [_ _ _ s0 _] := svd_okE ok; apply/matrixP=> i j; rewrite !mxE.
have re l : (svn sv l)^* = svn sv l by apply/CrealP; exact: ger0_real.
case: (ltnP i n) => hi.
  rewrite (bigD1 (Ordinal hi)) //= big1 => [|k ne]; last first.
    by rewrite mxE; case: eqP => [e|_]; [case/eqP: ne; apply: val_inj | rewrite mul0r].
  rewrite addr0 adjE !mxE eqxx mulr1n; case: (eqVneq i j) => [<-|ne].
    by rewrite eqxx !mulr1n re expr2.
  rewrite (_ : (j == i :> nat) = false) ?mulr0n ?rmorph0 ?mulr0 //.
  by apply/negbTE; rewrite eq_sym.
rewrite big1 => [|k _]; last first.
  by rewrite mxE; case: eqP => [e|_]; [move: (ltn_ord k); rewrite -e ltnNge hi | rewrite mul0r].
by rewrite svn_out ?expr0n ?mul0rn // geq_min hi orbT.
Qed.

Lemma gram_diag : M *m M^† = U *m diag_mx (\row_(i < m) svn sv i ^+ 2) *m U^†.
Proof.
have [h1 h2 h3 _ _] := svd_okE ok; rewrite {1 2}h3 !adjM -!mulmxA; congr (_ *m _).
by rewrite (mulmxA V) h2 mul1mx mulmxA diagS_sq.
Qed.

Lemma tailsqE d : tailsq o d = \sum_(i < m | (d <= i)%N) svn sv i ^+ 2.
Proof.
rewrite /tailsq big_mkcond [RHS]big_mkcond.
transitivity (\sum_(i < minn m n) (fun i => if (d <= i)%N then svn sv i ^+ 2 else 0) i).
  by apply: eq_bigr => i _; rewrite /= /svn valK.
rewrite (big_ord_widen m (fun i => if (d <= i)%N then svn sv i ^+ 2 else 0)) ?geq_minl // [LHS]big_mkcond.
by apply: eq_bigr => i _ /=; case: (ltnP i (minn m n)) => // hi; rewrite svn_out // expr0n; case: ifP.
Qed.

(* Eckart-Young: no product through a bond of dimension d is closer to M than the first d singular vectors *)
Lemma eckart_young d (X : 'M[C]_(m, d)) (Y : 'M[C]_(d, n)) :
  tailsq o d <= adot (M - X *m Y) (M - X *m Y).
Proof.
have [h1 _ _ s0 smono] := svd_okE ok.
have /andP[/eqP QQ /eqP XE] := qr0_ok X; set Q := (qr0 X).1 in QQ XE; set R := (qr0 X).2 in XE.
rewrite -XE -mulmxA; apply: le_trans (proj_best M (R *m Y) QQ).
pose W := Q^† *m U; pose g i := svn sv i ^+ 2; pose p (i : 'I_m) := (W^† *m W) i i.
have UU := mulmx1C h1.
have trE k (Z : 'M[C]_(k, m)) : \tr (Z *m diag_mx (\row_(i < m) g i) *m Z^†) = \sum_(i < m) g i * (Z^† *m Z) i i.
  rewrite -mulmxA mxtrace_mulC -mulmxA; apply: eq_bigr => i _.
  by rewrite mul_diag_mx !mxE.
have e1 : adot M M = \sum_(i < m) g i.
  rewrite adotE mxtrace_mulC gram_diag trE; apply: eq_bigr => i _.
  by rewrite h1 mxE eqxx mulr1.
have e2 : adot (Q^† *m M) (Q^† *m M) = \sum_(i < m) g i * p i.
  rewrite adotE mxtrace_mulC adjM adjK -mulmxA (mulmxA M) gram_diag !mulmxA -/W.
  rewrite -(mulmxA (W *m _)) (_ : U^† *m Q = W^†); last by rewrite /W adjM adjK.
  exact: trE.
rewrite e1 e2 tailsqE -sumrB.
have -> : \sum_(i < m) (g i - g i * p i) = \sum_(i < m) g i * (1 - p i).
  by apply: eq_bigr => i _; rewrite mulrBr mulr1.
apply: (@weights_tail m d (minn m d) g p) => //.
- by move=> i j ij; rewrite /g; apply: ler_expn2r; rewrite ?nnegrE ?s0 // smono.
- move=> i; apply/andP; split.
    rewrite /p mxE; apply: sumr_ge0 => k _; rewrite adjE mulrC; exact: mul_conjC_ge0.
  pose T := (1%:M - Q *m Q^†) *m U.
  have TT : T^† *m T = 1%:M - W^† *m W.
    rewrite /T /W !adjM adjK adjB adj1 adjM adjK !mulmxA -(mulmxA U^†) mulmxBr mulmx1 mulmxBl mul1mx.
    by rewrite !mulmxA -(mulmxA Q) QQ mulmx1 subrr subr0 mulmxBr mulmx1 mulmxBl h1 !mulmxA.
  rewrite -subr_ge0; have -> : 1 - p i = (T^† *m T) i i by rewrite /p TT [RHS]mxE [X in _ = X + _]mxE eqxx [X in _ = _ + X]mxE.
  rewrite mxE; apply: sumr_ge0 => k _; rewrite adjE mulrC; exact: mul_conjC_ge0.
- rewrite -[LHS]/(\tr (W^† *m W)) mxtrace_mulC /W adjM adjK -mulmxA (mulmxA U) UU mul1mx QQ.
  by rewrite mxtrace1.
Qed.
End Main.
End EY.
