(* P33_BOverlap.v -- C75: overlap of momentum tangent vectors of a uniform state. *)
From mathcomp Require Import all_ssreflect all_algebra.
From mathcomp Require Import zify.
From Verif Require Import Base Spec Eps Chain ChainProofs BOverlap.
Set Implicit Arguments.
Unset Strict Implicit.
Unset Printing Implicit Defensive.
Import Order.TTheory GRing.Theory Num.Theory.
Local Open Scope ring_scope.

Section C75.
Variables (C : numClosedFieldType) (q D : nat) (A : nat -> 'M[C]_D) (l r : 'M[C]_D).
Hypotheses (hl : eps_l_noop q l A A = l) (hr : eps_r_noop q r A A = r) (nrm : adot l r = 1).
Variables (pinv : C -> 'M[C]_D -> 'M[C]_D) (w : C).
Hypotheses (w1 : w * w^* = 1).
Hypotheses (sol : bo_solves q A l r pinv w) (sol' : bo_solves q A l r pinv w^*).
Hypotheses (ns : bo_nonsing q A l r w) (ns' : bo_nonsing q A l r w^*).
Notation ov := (B_overlap q A l r pinv w).
Notation F B := (adot l (eps_r_noop q r B A)).
Notation F' B := (adot l (eps_r_noop q r A B)).

Lemma cancel_sum (V : zmodType) (S a b c2 u c1 t g : V) :
  S + (a - b) + (c2 + (b - u)) + (c1 + (t - a)) - (g + (t - u)) = S + c2 + c1 - g.
Proof.
rewrite [X in X + _ - _]addrACA [a - b + _]addrA subrK addrACA opprD addrACA.
have -> : a - u + (t - a) = t - u by rewrite addrC addrA subrK.
by rewrite subrr addr0.
Qed.
Lemma swap_sum (V : zmodType) (e a b c : V) : e - a + (b - c) = b - a + (e - c).
Proof. by rewrite addrC addrACA [RHS]addrACA [- c - a]addrC. Qed.
(* adding A x - exp(-ip) x A to a tangent vector does not change its overlaps *)
Theorem C75_gauge x B1 B2 : ov false false (B_GT A w x B1) B2 = ov false false B1 B2.
Proof.
rewrite /B_overlap /=; set B := B_GT A w x B1; set R2 := eps_r_noop q r A B2.
have eT (X : 'M[C]_D) (T : nat -> 'M[C]_D) : eps_r_noop q X B T = eps_r_noop q X B1 T + (eps_r_noop q (x *m X) A T - w^* *: (x *m eps_r_noop q X A T)).
  rewrite /B /B_GT (eps_rD1 q X B1 (fun s => A s *m x - w^* *: (x *m A s)) T).
  by rewrite (eps_rB1 q X w^* (fun s => A s *m x) (fun s => x *m A s) T) eps_rx eps_xr.
have [X2 [o2 l2 e2 c2 f2]] := bo_conE hl nrm A B2 B1 A sol' ns'.
have [X2' [o2' _ _ c2' _]] := bo_conE hl nrm A B2 B A sol' ns'.
have [X1 [o1 l1 e1 c1 f1]] := bo_conE hl nrm B1 A A B2 sol ns.
have [X1' [o1' _ _ c1' f1']] := bo_conE hl nrm B A A B2 sol ns.
have eX2 : X2' = X2.
  by apply: (bo_inj ns'); rewrite o2' o2.
rewrite c2 c2' c1 c1' f1 f1' f2 eX2 {X2' o2' c2' c2 eX2 c1 c1' f1 f1' f2}.
set y := x *m r; set Y := adot l y.
have fE : F B = F B1 + (Y - w^* * Y).
  by rewrite eT adotDr adotBr adotZr (adot_E hl) hr.
have eX1 : X1' = X1 - w^* *: (y - Y *: r).
  apply: (bo_inj ns); rewrite bo_opD -scaleNr bo_opZ o1' o1 fE eT hr -/y.
  have -> : bo_op q A l r w (y - Y *: r) = y - Y *: r - w *: (eps_r_noop q y A A - Y *: r).
    rewrite bo_opE adotBr adotZr nrm mulr1 subrr mulr0 scale0r addr0.
    by rewrite eps_r_sub eps_r_noopZ hr.
  rewrite scalerBr scalerA mulNr [w^* * w]mulrC w1 scaleN1r opprK scaleNr scalerBr opprB scalerA.
  rewrite scalerDl opprD addrACA scalerBl opprB.
  by congr (_ + _); rewrite swap_sum.
rewrite eX1 fE mulrDl.
have -> : adot l (eps_r_noop q r B B2) = adot l (eps_r_noop q r B1 B2) + (adot l (eps_r_noop q y A B2) - w^* * adot l (x *m R2)).
  by rewrite eT adotDr adotBr adotZr.
have -> : adot l (eps_r_noop q X2 B A) * w^* = adot l (eps_r_noop q X2 B1 A) * w^* + (w^* * adot l (x *m R2) - w^* * Y * F' B2).
  rewrite eT adotDr mulrDl; congr (_ + _); rewrite adotBr (adot_E hl) adotZr.
  have -> : adot l (x *m X2) = w^* * adot l (x *m eps_r_noop q X2 A A) + (adot l (x *m R2) - F' B2 * Y).
    by rewrite {1}e2 mulmxDr mulmxBr -!scalemxAr adotDr adotBr !adotZr.
  rewrite [w^* * _ + _]addrC addrK mulrBl; congr (_ - _); first by rewrite mulrC.
  by rewrite [RHS]mulrC [w^* * Y]mulrC mulrA.
have -> : adot l (eps_r_noop q (X1 - w^* *: (y - Y *: r)) A B2) * w =
    adot l (eps_r_noop q X1 A B2) * w + (Y * F' B2 - adot l (eps_r_noop q y A B2)).
  rewrite eps_r_sub eps_r_noopZ eps_r_sub eps_r_noopZ adotBr adotZr adotBr adotZr mulrBl.
  by rewrite mulrAC [w^* * w]mulrC w1 mul1r opprB.
by rewrite mulrBl cancel_sum.
Qed.
(* the component along the state itself is removed, for every momentum *)
Theorem C75_parallel B2 : ov false false A B2 = 0.
Proof.
rewrite /B_overlap /=.
have [X2 [_ l2 _ c2 f2]] := bo_conE hl nrm A B2 A A sol' ns'.
have [X1 [o1 _ _ c1 f1]] := bo_conE hl nrm A A A B2 sol ns.
have X0 : X1 = 0 by apply: ns; rewrite o1 hr nrm scale1r subrr.
rewrite c2 c1 f1 f2 X0 eps_r_noop0 adot0r mul0r addr0 (adot_E hl) l2 mul0r addr0.
by rewrite hr nrm mul1r subrr.
Qed.
(* gauge-fixing tangent vectors: the flags B1_is_GF, B2_is_GF change nothing, and if both are set only the on-site term
   is left *)
Theorem C75_gf1 g B1 B2 : eps_r_noop q r B1 A = 0 -> ov true g B1 B2 = ov false g B1 B2.
Proof. by move=> e; rewrite /B_overlap /= /bo_BR e eqxx. Qed.
Theorem C75_gf2 g B1 B2 : r^† = r -> eps_r_noop q r B2 A = 0 -> ov g true B1 B2 = ov g false B1 B2.
Proof.
move=> rh e; have e' : eps_r_noop q r A B2 = 0 by rewrite -{1}rh -eps_adj e adj0.
by rewrite /B_overlap /= /bo_BR e' eqxx.
Qed.
Theorem C75_gf_both B1 B2 : ov true true B1 B2 = adot l (eps_r_noop q r B1 B2).
Proof. by rewrite /B_overlap /= mul0r subr0 !addr0. Qed.

(* the sesquilinear form is Hermitian, so that C75_gauge holds in the second argument as well *)
Section Herm.
Hypotheses (lh : l^† = l) (rh : r^† = r).
Lemma adot_conj (Z : 'M[C]_D) : (adot l Z)^* = adot l Z^†.
Proof. by rewrite -adotC -adot_adj lh. Qed.
Lemma op_adj v X : (bo_op q A l r v X)^† = bo_op q A l r v^* X^†.
Proof. by rewrite /bo_op adjB adjZ adjB adjZ eps_adj adot_conj rh. Qed.
Theorem C75_herm B1 B2 : ov false false B2 B1 = (ov false false B1 B2)^*.
Proof.
rewrite /B_overlap /=.
have [X2 [o2 _ _ c2 f2]] := bo_conE hl nrm A B2 B1 A sol' ns'.
have [X1 [o1 _ _ c1 f1]] := bo_conE hl nrm B1 A A B2 sol ns.
have [Y2 [p2 _ _ d2 g2]] := bo_conE hl nrm A B1 B2 A sol' ns'.
have [Y1 [p1 _ _ d1 g1]] := bo_conE hl nrm B2 A A B1 sol ns.
rewrite c2 c1 f1 f2 d2 d1 g1 g2.
have e1 : Y1 = X2^†.
  by apply: (bo_inj ns); rewrite p1 -[w]conjCK -op_adj o2 adjB adjZ eps_adj rh adot_conj eps_adj rh.
have e2 : Y2 = X1^†.
  by apply: (bo_inj ns'); rewrite p2 -op_adj o1 adjB adjZ eps_adj rh adot_conj eps_adj rh.
rewrite rmorphB !rmorphD !rmorphM /= !adot_conj !eps_adj rh e1 e2 conjCK [F B2 * _]mulrC.
by rewrite -!addrA; congr (_ + _); rewrite addrCA.
Qed.
Corollary C75_gauge2 x B1 B2 : ov false false B1 (B_GT A w x B2) = ov false false B1 B2.
Proof. by rewrite !(C75_herm _ B1) C75_gauge. Qed.
End Herm.
End C75.

(* ---- the sum over positions -------------------------------------------------------------------------------------- *)
Section Sum.
Variables (C : numClosedFieldType) (q D : nat) (A : nat -> 'M[C]_D) (l r : 'M[C]_D).
Hypotheses (hl : eps_l_noop q l A A = l) (hr : eps_r_noop q r A A = r) (nrm : adot l r = 1).
Local Notation qq := (fun _ : nat => q).
Local Notation E := (fun X : 'M[C]_D => eps_r_noop q X A A).
(* a window of N sites with the tensor B at site i *)
Definition one_site (B : nat -> 'M[C]_D) (i N : nat) : seq nat -> 'M[C]_D :=
  @psi C (fun _ => D) (fun n => if n == i then B else A) N.
(* <B2 at site i|B1 at site j>, and <psi|B1 at site j> *)
Definition pos_ov B1 B2 N i j : C := bdotst qq N l r (one_site B2 i N) (one_site B1 j N).
Lemma pos_rr B1 B2 N i j : pos_ov B1 B2 N i j =
  adot l (@rr C (fun _ => D) (fun _ => D) qq (fun n => if n == j then B1 else A) (fun n => if n == i then B2 else A) (fun _ => r) N 0).
Proof. exact: (@bdotst_rr C (fun _ => D) qq (fun n => if n == i then B2 else A) (fun n => if n == j then B1 else A) N l r (fun _ => r) erefl). Qed.
Lemma rr_A (K T : tensors C (fun _ => D)) (X : nat -> 'M[C]_D) k n :
  (forall m, (n <= m < n + k)%N -> K m = A /\ T m = A) -> @rr C (fun _ => D) (fun _ => D) qq K T X k n = iter k E (X (n + k)%N).
Proof.
elim: k n => [|k IH] n h /=; first by rewrite addn0.
have [|-> ->] := h n; first by lia.
by rewrite IH ?addSnnS // => m hm; apply: h; lia.
Qed.
Lemma iter_l k X : adot l (iter k E X) = adot l X.
Proof. by elim: k => //= k IH; rewrite (adot_E hl). Qed.
Lemma iter_r k : iter k E r = r.
Proof. by elim: k => //= k ->. Qed.
Lemma rr_two (K T : tensors C (fun _ => D)) a b N : (a < b < N)%N -> (forall m, m != a -> m != b -> K m = A /\ T m = A) ->
  adot l (@rr C (fun _ => D) (fun _ => D) qq K T (fun _ => r) N 0) =
  adot l (eps_r_noop q (iter (b - a.+1) E (eps_r_noop q r (K b) (T b))) (K a) (T a)).
Proof.
move=> ab h; rewrite (_ : N = a + (1 + ((b - a.+1) + (1 + (N - b.+1)))))%N; last by lia.
rewrite rr_add rr_A; last by move=> m hm; apply: h; lia.
rewrite iter_l add0n [rr _ _ _ _ _ _]/= rr_add rr_A; last by move=> m hm; apply: h; lia.
rewrite (_ : a.+1 + _ = b)%N; last by lia.
rewrite [rr _ _ _ _ _ _]/= rr_A; last by move=> m hm; apply: h; lia.
by rewrite iter_r.
Qed.
Lemma rr_one (K T : tensors C (fun _ => D)) a N : (a < N)%N -> (forall m, m != a -> K m = A /\ T m = A) ->
  adot l (@rr C (fun _ => D) (fun _ => D) qq K T (fun _ => r) N 0) = adot l (eps_r_noop q r (K a) (T a)).
Proof.
move=> aN h; rewrite (_ : N = a + (1 + (N - a.+1)))%N; last by lia.
rewrite rr_add rr_A; last by move=> m hm; apply: h; lia.
rewrite iter_l add0n [rr _ _ _ _ _ _]/= rr_A; last by move=> m hm; apply: h; lia.
by rewrite iter_r.
Qed.
Variables (pinv : C -> 'M[C]_D -> 'M[C]_D) (w : C).
Hypotheses (sol : bo_solves q A l r pinv w) (sol' : bo_solves q A l r pinv w^*).
Hypotheses (ns : bo_nonsing q A l r w) (ns' : bo_nonsing q A l r w^*).
Lemma iter_EZ k a X : iter k E (a *: X) = a *: iter k E X.
Proof. by elim: k => //= k ->; rewrite eps_r_noopZ. Qed.
Lemma iter_ED k X Y : iter k E (X + Y) = iter k E X + iter k E Y.
Proof. by elim: k => //= k ->; rewrite eps_r_noopD. Qed.
(* K terms of the geometric series *)
Lemma series v X R f Y1 Y2 K : X = v *: eps_r_noop q X A A + (R - f *: r) ->
  adot l (eps_r_noop q X Y1 Y2) * v =
  \sum_(n < K) v ^+ n.+1 * (adot l (eps_r_noop q (iter n E R) Y1 Y2) - f * adot l (eps_r_noop q r Y1 Y2)) +
  v ^+ K.+1 * adot l (eps_r_noop q (iter K E X) Y1 Y2).
Proof.
move=> e; elim: K => [|K ->]; first by rewrite big_ord0 add0r expr1 mulrC.
rewrite big_ord_recr -[RHS]addrA; congr (_ + _); rewrite [v ^+ K.+2]exprSr -mulrA -mulrDr; congr (_ * _).
rewrite {1}e iter_ED iter_EZ -scaleNr iter_ED iter_EZ iter_r -iterSr !eps_r_noopD !eps_r_noopZ !adotDr !adotZr mulNr.
by rewrite addrC.
Qed.
(* the value returned: the sum over the positions j of B1 relative to B2, at distance up to K, of exp(ip(j - i)) times
   the exact overlap without its disconnected part, plus the exact remainders; X1, X2 are orthogonal to l *)
Theorem C75_sum B1 B2 K i N : (K <= i)%N -> (i + K < N)%N ->
  let f := bdotst qq N l r (one_site A i N) (one_site B1 i N) in
  let f' := bdotst qq N l r (one_site B2 i N) (one_site A i N) in
  exists X1 X2 : 'M[C]_D, [/\ adot l X1 = 0, adot l X2 = 0 &
  B_overlap q A l r pinv w false false B1 B2 =
  (pos_ov B1 B2 N i i - f * f') +
  (\sum_(n < K) w ^+ n.+1 * (pos_ov B1 B2 N i (i + n.+1) - f * f') +
   \sum_(n < K) w^* ^+ n.+1 * (pos_ov B1 B2 N i (i - n.+1) - f * f')) +
  (w ^+ K.+1 * adot l (eps_r_noop q (iter K E X1) A B2) + w^* ^+ K.+1 * adot l (eps_r_noop q (iter K E X2) B1 A))].
Proof.
move=> Ki iN f f'.
have fE : f = adot l (eps_r_noop q r B1 A).
  rewrite /f -/(pos_ov B1 A N i i) pos_rr (@rr_one _ _ i) ?eqxx //; first by lia.
  by move=> m /negPf ->.
have fE' : f' = adot l (eps_r_noop q r A B2).
  rewrite /f' -/(pos_ov A B2 N i i) pos_rr (@rr_one _ _ i) ?eqxx //; first by lia.
  by move=> m /negPf ->.
have t0 : pos_ov B1 B2 N i i = adot l (eps_r_noop q r B1 B2).
  rewrite pos_rr (@rr_one _ _ i) ?eqxx //; first by lia.
  by move=> m /negPf ->.
have tp n : (n < K)%N -> pos_ov B1 B2 N i (i + n.+1) = adot l (eps_r_noop q (iter n E (eps_r_noop q r B1 A)) A B2).
  move=> nK; rewrite pos_rr (@rr_two _ _ i (i + n.+1)); [|by lia|by move=> m /negPf -> /negPf ->].
  have n1 : (i + n.+1 == i)%N = false by lia.
  have n3 : (i + n.+1 - i.+1 = n)%N by lia.
  by rewrite !eqxx [i == (i + n.+1)%N]eq_sym n1 n3.
have tm n : (n < K)%N -> pos_ov B1 B2 N i (i - n.+1) = adot l (eps_r_noop q (iter n E (eps_r_noop q r A B2)) B1 A).
  move=> nK; rewrite pos_rr (@rr_two _ _ (i - n.+1) i); [|by lia|by move=> m /negPf -> /negPf ->].
  have n1 : (i - n.+1 == i)%N = false by lia.
  have n3 : (i - (i - n.+1).+1 = n)%N by lia.
  by rewrite !eqxx [i == (i - n.+1)%N]eq_sym n1 n3.
have [X2 [_ l2 e2 c2 f2]] := bo_conE hl nrm A B2 B1 A sol' ns'.
have [X1 [_ l1 e1 c1 f1]] := bo_conE hl nrm B1 A A B2 sol ns.
exists X1, X2; split=> //; rewrite /B_overlap /= c2 c1 f1 f2.
rewrite (series _ _ K e1) (series _ _ K e2).
have -> : \sum_(n < K) w ^+ n.+1 * (pos_ov B1 B2 N i (i + n.+1) - f * f') = \sum_(n < K) w ^+ n.+1 *
    (adot l (eps_r_noop q (iter n E (eps_r_noop q r B1 A)) A B2) - adot l (eps_r_noop q r B1 A) * adot l (eps_r_noop q r A B2)).
  by apply: eq_bigr => n _; rewrite tp // fE fE'.
have -> : \sum_(n < K) w^* ^+ n.+1 * (pos_ov B1 B2 N i (i - n.+1) - f * f') = \sum_(n < K) w^* ^+ n.+1 *
    (adot l (eps_r_noop q (iter n E (eps_r_noop q r A B2)) B1 A) - adot l (eps_r_noop q r A B2) * adot l (eps_r_noop q r B1 A)).
  by apply: eq_bigr => n _; rewrite tm // fE fE' [_ * adot l (eps_r_noop q r A B2)]mulrC.
rewrite t0 fE fE'; set S := adot l _; set s1 := \sum_(n < K) _; set s2 := \sum_(n < K) _.
set x1 := w ^+ _ * _; set x2 := w^* ^+ _ * _; set g := _ * _.
by rewrite -[S + _ + _]addrA [LHS]addrAC -[RHS]addrA [s2 + s1 + _]addrACA [s2 + x1 + _]addrC.
Qed.
End Sum.

(* bond dimension 2: A[s] = |s><0|, with the transfer operator X -> X_00 1.  The tangent vectors x A and A x, x the
   exchange of the two basis vectors, differ by a gauge transformation and a phase; their overlap is exp(ip), all of it
   from the connected part *)
Section Ex.
Variable C : numClosedFieldType.
Definition exA (s : nat) : 'M[C]_2 := \matrix_(i, j) ((i == s :> nat) && (j == 0))%:R.
Definition exl : 'M[C]_2 := \matrix_(i, j) ((i == 0) && (j == 0))%:R.
Definition exx : 'M[C]_2 := \matrix_(i, j) (i != j)%:R.
Lemma ord2 (P : 'I_2 -> Prop) : P 0 -> P 1 -> forall i, P i.
Proof. by move=> h0 h1 [[|[|//]] h]; [have -> : Ordinal h = 0|have -> : Ordinal h = 1]; try exact: val_inj. Qed.
Lemma adj_e (X : 'M[C]_2) i j : X^† i j = (X j i)^*. Proof. by rewrite !mxE. Qed.
Lemma exE X : eps_r_noop 2 X exA exA = (X 0 0)%:M.
Proof.
rewrite /eps_r_noop !big_ord_recl big_ord0 addr0; apply/matrixP => i j.
by elim/ord2: i; elim/ord2: j; rewrite !(mxE, big_ord_recl, big_ord0, adj_e) /= ?(rmorph0, rmorph1) !(mul0r, mulr0, mul1r, mulr1, addr0, add0r).
Qed.
Lemma exL : eps_l_noop 2 exl exA exA = exl.
Proof.
rewrite /eps_l_noop !big_ord_recl big_ord0 addr0; apply/matrixP => i j.
by elim/ord2: i; elim/ord2: j; rewrite !(mxE, big_ord_recl, big_ord0, adj_e) /= ?(rmorph0, rmorph1) !(mul0r, mulr0, mul1r, mulr1, addr0, add0r).
Qed.
Lemma ex_adot X : adot exl X = X 0 0.
Proof.
by rewrite adotE /mxtrace !(mxE, big_ord_recl, big_ord0, adj_e) /= ?(rmorph0, rmorph1) !(mul0r, mulr0, mul1r, mulr1, addr0, add0r).
Qed.
Lemma ex_op w X : bo_op 2 exA exl 1%:M w X = X.
Proof. by rewrite /bo_op exE ex_adot scale_scalar_mx mulr1 subrr scaler0 subr0. Qed.
Lemma exxx : exx *m exx = 1%:M.
Proof.
apply/matrixP => i j; by elim/ord2: i; elim/ord2: j; rewrite !(mxE, big_ord_recl, big_ord0) /= !(mul0r, mulr0, mul1r, mulr1, addr0, add0r).
Qed.
Example C75_example (w : C) : [/\ eps_l_noop 2 exl exA exA = exl, eps_r_noop 2 1%:M exA exA = 1%:M, adot exl 1%:M = 1,
    forall v, bo_solves 2 exA exl 1%:M (fun _ X => X) v /\ bo_nonsing 2 exA exl 1%:M v
  & B_overlap 2 exA exl 1%:M (fun _ X => X) w false false (fun s => exx *m exA s) (fun s => exA s *m exx) = w].
Proof.
split; rewrite ?exL ?exE ?ex_adot ?mxE //.
  by move=> v; split=> [X|X]; rewrite ex_op.
have xh : exx^† = exx by apply/matrixP => i j; rewrite adj_e !mxE eq_sym conj_Creal ?realn.
have eAx X T : eps_r_noop 2 X T (fun s => exA s *m exx) = eps_r_noop 2 (X *m exx) T exA.
  by apply: eq_bigr => s _; rewrite adjM xh !mulmxA.
rewrite /B_overlap /= /bo_BR !eAx !eps_xr !exE mul1mx.
have x0 : exx 0 0 = 0 by rewrite mxE.
rewrite x0 raddf0 eqxx mulmx0 adot0r /= !add0r mulr0 subr0 mxE mulr1n mulmx1.
case: eqP => [e|_] /=; first by have /matrixP /(_ 0 1) := e; rewrite !mxE /= => /eqP; rewrite oner_eq0.
by rewrite !ex_adot x0 scale0r subr0 eAx exxx exE !mxE /= !mulr1n mul1r.
Qed.
End Ex.
Print Assumptions C75_gauge.
Print Assumptions C75_parallel.
Print Assumptions C75_gf1.
Print Assumptions C75_gf2.
Print Assumptions C75_gf_both.
Print Assumptions C75_herm.
Print Assumptions C75_gauge2.
Print Assumptions C75_sum.
