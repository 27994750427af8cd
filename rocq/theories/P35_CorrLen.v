(* P35_CorrLen.v -- C77: spectral gap and correlation length. *)
From mathcomp Require Import all_ssreflect all_algebra.
From mathcomp Require Import zify.
From Verif Require Import CorrLen.
Set Implicit Arguments.
Unset Strict Implicit.
Unset Printing Implicit Defensive.
Import Order.TTheory GRing.Theory Num.Theory.
Local Open Scope ring_scope.

Section C77.
Variable R : realFieldType.
Variables (D L : nat) (lg : R -> R) (tol : R).
Notation corr := (correlation_length D L lg tol).

(* the gap: largest and second-largest magnitude, counted with multiplicity, in whatever order the solver returned them *)
Theorem C77_gap (ev rest : seq R) m1 m2 : perm_eq ev [:: m1, m2 & rest] -> m2 <= m1 -> (forall y, y \in rest -> y <= m2) ->
  calc_E_gap ev = Num ((m1 - m2) / m1).
Proof.
move=> p h21 hr; rewrite /calc_E_gap (perm_size p) /=.
have -> // : desc ev = [:: m1, m2 & desc rest].
apply: desc_perm; first by rewrite (perm_trans p) // !perm_cons perm_sym /desc perm_rev perm_sort.
rewrite /= h21 /=; have := desc_sorted rest; case e : (desc rest) => [//|y d] /= ->; rewrite andbT.
by apply: hr; rewrite -mem_desc e mem_head.
Qed.
Theorem C77_gap_order (ev ev' : seq R) : perm_eq ev ev' -> calc_E_gap ev = calc_E_gap ev' /\ corr ev = corr ev'.
Proof.
move=> p; have e : desc ev = desc ev'.
  apply: desc_perm; last exact: desc_sorted.
  by rewrite (perm_trans p) // perm_sym /desc perm_rev perm_sort.
by rewrite /calc_E_gap /correlation_length e (perm_size p).
Qed.
(* the correlation length comes from the largest magnitude that is smaller than the maximum by tol or more, if any *)
Theorem C77_corr (ev : seq R) m1 x : D != 1%N -> 0 < tol -> m1 \in ev -> (forall y, y \in ev -> y <= m1) ->
  x \in ev -> tol <= m1 - x -> (forall y, y \in ev -> tol <= m1 - y -> y <= x) ->
  corr ev = Num (- L%:R / lg x).
Proof.
move=> D1 t0 m1e mx xe xt best; rewrite /correlation_length (negPf D1).
have := desc_sorted ev; have := mem_desc ev; case: (desc ev) => [h|m d h s].
  by have := h x; rewrite xe.
have em : m = m1.
  apply: le_anti; rewrite mx -?h ?mem_head //=; have := m1e; rewrite -h inE => /orP [/eqP -> //|].
  exact: desc_min.
have xd : x \in d.
  have := xe; rewrite -h inE em => /orP [/eqP e|//]; move: xt; rewrite e subrr.
  by move/(lt_le_trans t0); rewrite ltxx.
have hd y : y \in d -> y \in ev by move=> yd; rewrite -h inE yd orbT.
have sd : sorted >=%R d by have := s; rewrite /=; apply: path_sorted.
suff [d' ->] : exists d', drop_deg tol m d = x :: d' by [].
rewrite em; elim: d xd hd sd {s h} => // y d IH xd hd sd /=.
case: ifP => [/andP [_ yt]|/negbT].
  apply: IH; last by have := sd; rewrite /=; apply: path_sorted.
  - by have := xd; rewrite inE => /orP [/eqP e|//]; have := lt_le_trans yt xt; rewrite e ltxx.
  - by move=> z zd; apply: hd; rewrite inE zd orbT.
rewrite negb_and => nt; exists d; congr (_ :: _); apply: le_anti.
have xy : x <= y by have := xd; rewrite inE => /orP [/eqP -> //|]; exact: desc_min.
rewrite xy andbT; case/orP: nt => [|yt].
  by rewrite -leqNgt leqn0 size_eq0 => /eqP d0; move: xd; rewrite d0 inE => /eqP ->.
by apply: best; [apply: hd; rewrite mem_head|rewrite leNgt].
Qed.
(* nan only for a single eigenvalue ... *)
Theorem C77_nan (ev : seq R) : D != 1%N -> corr ev = NaN <-> size ev = 1%N.
Proof.
move=> D1; rewrite /correlation_length (negPf D1) -(size_desc ev); case: (desc ev) => [|m [|y d]] //=.
have : (0 < size (drop_deg tol m (y :: d)))%N.
  by elim: (y :: d) (isT : 0 < size (y :: d))%N => // z e IH _ /=; case: ifP => // /andP [e0 _]; exact: IH.
by rewrite -/(drop_deg tol m (y :: d)); case: (drop_deg tol m (y :: d)).
Qed.
(* ... so when no magnitude differs from the maximum by tol the smallest of the degenerate ones is used *)
Theorem C77_degenerate (ev : seq R) m1 x : D != 1%N -> (1 < size ev)%N -> m1 \in ev -> (forall y, y \in ev -> y <= m1) ->
  (forall y, y \in ev -> m1 - y < tol) -> x \in ev -> (forall y, y \in ev -> x <= y) ->
  corr ev = Num (- L%:R / lg x).
Proof.
move=> D1 s1 m1e mx deg xe mn; rewrite /correlation_length (negPf D1).
have := desc_sorted ev; have := mem_desc ev; have := size_desc ev; case: (desc ev) => [e|m d e h s].
  by move: s1; rewrite -e.
have em : m = m1.
  apply: le_anti; rewrite mx -?h ?mem_head //=; have := m1e; rewrite -h inE => /orP [/eqP -> //|].
  exact: desc_min.
have d0 : (0 < size d)%N by move: s1; rewrite -e.
have hd y : y \in d -> y \in ev by move=> yd; rewrite -h inE yd orbT.
suff e1 : drop_deg tol m d = [:: last m d].
  rewrite e1; suff -> : last m d = x by [].
  apply: le_anti; rewrite (mn (last m d)) ?andbT; last by rewrite -h mem_last.
  have := xe; rewrite -h => xd; clear -s xd; elim: d m x s xd => [|z d IH] m x s xd /=; first by move: xd; rewrite inE => /eqP ->.
  have /= /andP [zm sd] := s; have := xd; rewrite inE => /orP [/eqP ->|]; last exact: IH.
  by apply: le_trans zm; apply: IH; rewrite ?mem_head.
rewrite em; clear e h s em; case: d d0 hd => // y d _; elim: d y => [|z d IH] y hd //=.
rewrite deg ?hd ?mem_head //=; apply: (IH z) => t td; apply: hd.
by rewrite inE td orbT.
Qed.
(* the special cases: product states, and a spectrum of one eigenvalue *)
Theorem C77_product (ev : seq R) : D = 1%N -> corr ev = Num 0.
Proof. by rewrite /correlation_length => ->. Qed.
Theorem C77_gap_nan (ev : seq R) : calc_E_gap ev = NaN <-> size ev = 1%N.
Proof.
rewrite /calc_E_gap; case: eqP => [->|n] //; split=> //.
by case: (desc ev) => [|? []].
Qed.
End C77.

(* the message "No eigenvalues detected with magnitude significantly different to largest" and nan are announced for
   a spectrum whose magnitudes all agree within tol; the function returns the quotient with log 1 instead *)
Theorem C77_all_degenerate_refuted (R : realFieldType) (lg : R -> R) (tol : R) : 0 < tol ->
  exists ev : seq R, [/\ ev = [:: 1; 1; 1], forall y, y \in ev -> 1 - y < tol,
    correlation_length 3 1 lg tol ev <> NaN & correlation_length 3 1 lg tol ev = Num (-1 / lg 1)].
Proof.
move=> t0; exists [:: 1; 1; 1].
have e1 y : y \in [:: 1; 1; 1 : R] -> y = 1 by rewrite !inE => /or3P [] /eqP ->.
have v : correlation_length 3 1 lg tol [:: 1; 1; 1] = Num (-1 / lg 1).
  by apply: (@C77_degenerate R 3 1 lg tol _ 1 1); rewrite ?mem_head // => y /e1 ->; rewrite ?subrr.
by split=> // [y /e1 ->|]; rewrite ?subrr // v.
Qed.
Example C77_example (R : realFieldType) (lg : R -> R) :
  correlation_length 2 1 lg 10%:R^-1 [:: 4%:R^-1; 1; 2%:R^-1; 1] = Num (-1 / lg 2%:R^-1) /\
  calc_E_gap [:: 4%:R^-1; 1; 2%:R^-1 : R] = Num (1 - 2%:R^-1).
Proof.
have h2 : 2%:R^-1 < 1 :> R by rewrite invf_lt1 ?ltr0n // ltr1n.
have h4 : 4%:R^-1 < 2%:R^-1 :> R by rewrite ltf_pinv ?posrE ?ltr0n // ltr_nat.
have h12 : 1 - 2%:R^-1 = 2%:R^-1 :> R by rewrite [X in X - _](splitr 1) !mul1r addrK.
split.
  apply: (@C77_corr R 2 1 lg _ _ 1); rewrite ?invr_gt0 ?ltr0n ?inE ?eqxx ?orbT //.
  - by move=> y; rewrite !inE => /or4P [] /eqP -> //; rewrite ltW // (lt_trans h4).
  - by rewrite h12 lef_pinv ?posrE ?ltr0n // ler_nat.
  - move=> y; rewrite !inE => /or4P [] /eqP -> //; rewrite ?(ltW h4) // subrr.
      by rewrite leNgt invr_gt0 ltr0n.
    by rewrite leNgt invr_gt0 ltr0n.
rewrite (@C77_gap R _ [:: 4%:R^-1] 1 2%:R^-1) ?divr1 ?(ltW h2) //.
  by rewrite (perm_catCA [:: 4%:R^-1] [:: 1; 2%:R^-1] [::]).
by move=> y; rewrite inE => /eqP ->; exact: ltW.
Qed.
Print Assumptions C77_gap.
Print Assumptions C77_gap_order.
Print Assumptions C77_corr.
Print Assumptions C77_product.
Print Assumptions C77_gap_nan.
Print Assumptions C77_nan.
Print Assumptions C77_degenerate.
Print Assumptions C77_all_degenerate_refuted.
