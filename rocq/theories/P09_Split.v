(* P09_Split.v -- property theorems about splitting two-site tensors (C34). *)
From mathcomp Require Import all_ssreflect all_algebra zify.
From mathcomp.real_closed Require Import mxtens.
From Verif Require Import Base Spec LinAlg Factor Svd Split.
Set Implicit Arguments.
Unset Strict Implicit.
Unset Printing Implicit Defensive.
Import Order.TTheory GRing.Theory Num.Theory.
Local Open Scope ring_scope.

(* ---- C34 ---------------------------------------------------------------- *)
Section C34.
Variables (C : numClosedFieldType) (svd : svd_routine C) (svdP : svd_contract svd).
Variables (q1 q2 D0 D2 : nat) (AA : nat -> nat -> 'M[C]_(D0, D2)) (D_max : nat) (ms : C).
Local Notation split := (split_twosite svd q1 q2 AA (Some D_max) (Some ms)).
Local Notation full := (minn (q1 * D0) (q2 * D2)).
Local Notation sumsq s := (\sum_(x <- s) x ^+ 2).

(* the exact shape of the result; the number of kept values obeys all three limits *)
Theorem C34_bond o : split = Some o ->
  [/\ (sD o <= D_max)%N, (sD o <= full)%N, (sD o + size (srest o))%N = full,
      (sD o < minn D_max full)%N -> exists x t, srest o = x :: t /\ x < ms
    & forall x, x \in srest o -> 0 <= x].
Proof.
rewrite /split_twosite; have ok := svdP (AA_mat q1 q2 AA); case: (svd _) ok => [[u s] vh] ok [<-] /=.
have := keepD_le s D_max ms; rewrite leq_min => /andP[h1 h2]; split=> //.
- by rewrite size_map size_iota subnKC.
- move=> h; have hk := keepD_stop h; move: h; rewrite leq_min => /andP[_ h].
  by rewrite -(subnSK h) /=; exists (svn s (keepD s D_max ms)); eexists.
- by have [_ _ _ p _] := svd_okE ok; move=> x /mapP[i _ ->].
Qed.

(* isometries on both sides *)
Theorem C34_isometry o : split = Some o ->
  \sum_(s < q1) (sA1 o s)^† *m sA1 o s = 1%:M /\ \sum_(t < q2) sA2 o t *m (sA2 o t)^† = 1%:M.
Proof.
rewrite /split_twosite; have ok := svdP (AA_mat q1 q2 AA); case: (svd _) ok => [[u s] vh] ok [<-] /=.
have [h1 h2 _ _ _] := svd_okE ok.
have := keepD_le s D_max ms; rewrite !leq_min => /and3P[_ l1 l2].
by rewrite unmat1_gram unmat2_gram colsN_iso ?rowsN_iso.
Qed.

(* the squared Frobenius distance is the squared discarded weight *)
Theorem C34_truncation_error o : split = Some o ->
  \sum_(s < q1) \sum_(t < q2)
    adot (AA s t - sA1 o s *m sG o *m sA2 o t) (AA s t - sA1 o s *m sG o *m sA2 o t) = sumsq (srest o).
Proof.
rewrite /split_twosite; have ok := svdP (AA_mat q1 q2 AA); case: (svd _) ok => [[u s] vh] ok [<-] /=.
have := keepD_le s D_max ms; rewrite leq_min => /andP[_ h2].
set d := keepD s D_max ms.
rewrite (@frob_mat _ _ _ _ _ (fun i j => AA i j - unmat1 (colsN d u) i *m diagN d s *m unmat2 (rowsN d vh) j)
  (AA_mat q1 q2 AA - colsN d u *m diagN d s *m rowsN d vh)).
  rewrite (svd_err ok h2) /tailsq /= big_map -[iota _ _]/(index_iota d full) big_geq_mkord.
  by apply: eq_bigr => i _; rewrite /svn valK.
move=> i j a b; rewrite mxE [RHS]mxE AA_matE; congr (_ + _).
by rewrite mxE [RHS]mxE unmat_mul.
Qed.
(* nothing discarded but zeros: the product is the tensor *)
Theorem C34_exact o : split = Some o -> (forall x, x \in srest o -> x = 0) ->
  forall s t, (s < q1)%N -> (t < q2)%N -> sA1 o s *m sG o *m sA2 o t = AA s t.
Proof.
move=> e z s t sq tq; have := C34_truncation_error e; rewrite [RHS]big1_seq; last first.
  by move=> x /andP[_ /z ->]; rewrite expr0n.
have nn (i : 'I_q1) (j : 'I_q2) : 0 <= adot (AA i j - sA1 o i *m sG o *m sA2 o j) (AA i j - sA1 o i *m sG o *m sA2 o j).
  exact: adot_ge0.
move/psumr_eq0P => h; have {h} := h (fun i _ => sumr_ge0 _ (fun j _ => nn i j)) (Ordinal sq) isT.
move/psumr_eq0P => h; have {h} := h (fun j _ => nn (Ordinal sq) j) (Ordinal tq) isT.
by move/eqP; rewrite adot_eq0 subr_eq0 => /eqP <-.
Qed.
(* D_max and min_schmidt that cannot bite: nothing is discarded *)
Theorem C34_no_truncation o : split = Some o -> (full <= D_max)%N -> ms <= 0 ->
  srest o = [::] /\ forall s t, (s < q1)%N -> (t < q2)%N -> sA1 o s *m sG o *m sA2 o t = AA s t.
Proof.
move=> e hD hm; have [_ h2 h3 h4 h5] := C34_bond e.
have r0 : srest o = [::].
  case: (ltnP (sD o) full) => h; last by apply: size0nil; lia.
  have hm' : (sD o < minn D_max full)%N by lia.
  have [x [t [ex xm]]] := h4 hm'.
  by have := lt_le_trans xm hm; rewrite le_gtF // h5 // ex inE eqxx.
by split=> //; apply: C34_exact => // x; rewrite r0.
Qed.

Lemma sandwich_norm d (X : nat -> 'M[C]_(D0, d)) (G : 'M[C]_d) (Y : nat -> 'M[C]_(d, D2)) :
  \sum_(s < q1) (X s)^† *m X s = 1%:M -> \sum_(t < q2) Y t *m (Y t)^† = 1%:M ->
  \sum_(s < q1) \sum_(t < q2) adot (X s *m G *m Y t) (X s *m G *m Y t) = adot G G.
Proof.
move=> hX hY; transitivity (\tr (G^† *m ((\sum_(s < q1) (X s)^† *m X s) *m (G *m \sum_(t < q2) Y t *m (Y t)^†)))).
  rewrite exchange_big mulmx_sumr mulmx_sumr mulmx_sumr raddf_sum; apply: eq_bigr => t _.
  rewrite mulmx_suml mulmx_sumr raddf_sum; apply: eq_bigr => s _.
  by rewrite adotE !adjM -!mulmxA mxtrace_mulC -!mulmxA.
by rewrite hX hY mul1mx mulmx1 adotE.
Qed.
(* the tensors written back into the chain: normalised, isometric on the side the sweep comes from *)
Theorem C34_absorbed o mr A1 A2 : split = Some o -> absorb o mr = Some (A1, A2) ->
  [/\ if mr then \sum_(s < q1) (A1 s)^† *m A1 s = 1%:M else \sum_(t < q2) A2 t *m (A2 t)^† = 1%:M,
      \sum_(s < q1) \sum_(t < q2) adot (A1 s *m A2 t) (A1 s *m A2 t) = (0 < sD o)%N%:R
    & forall s t, A1 s *m A2 t = (sqrtC (adot (sG o) (sG o)))^-1 *: (sA1 o s *m sG o *m sA2 o t)].
Proof.
move=> e; have [i1 i2] := C34_isometry e; rewrite /absorb; case: ifP => // z [].
move=> e12.
have pr' s t : A1 s *m A2 t = (sqrtC (adot (sG o) (sG o)))^-1 *: (sA1 o s *m sG o *m sA2 o t).
  have -> : A1 = (A1, A2).1 by []; have -> : A2 = (A1, A2).2 by []; rewrite -e12.
  by case: (mr) => /=; rewrite -?scalemxAr -!scalemxAl -?scalemxAr -?mulmxA.
split=> //; first by case: mr e12 => -[e1 e2]; rewrite -?e1 -?e2.
transitivity (adot ((sqrtC (adot (sG o) (sG o)))^-1 *: sG o) ((sqrtC (adot (sG o) (sG o)))^-1 *: sG o)).
  rewrite -(sandwich_norm _ i1 i2); apply: eq_bigr => s _; apply: eq_bigr => t _.
  by rewrite pr' -scalemxAr -scalemxAl.
have g0 := adot_ge0 (sG o); set n2 := adot _ _ in g0 z *.
rewrite adotZl adotZr -/n2 mulrA.
have -> : ((sqrtC n2)^-1)^* = (sqrtC n2)^-1 by apply/CrealP; rewrite realV ger0_real // sqrtC_ge0.
rewrite -invfM -expr2 sqrtCK; move: z; case: posnP => [d0 _|_ /= /negbT nz].
  rewrite -[RHS](mulr0 n2^-1); congr (_ * _).
  by rewrite /n2 /adot big1 // => -[k hk]; exfalso; rewrite d0 in hk.
by rewrite mulVf.
Qed.

(* a min_schmidt above the norm of the tensor leaves a bond of dimension zero: the state is lost *)
Theorem C34_all_below o : split = Some o -> 0 <= ms ->
  \sum_(s < q1) \sum_(t < q2) adot (AA s t) (AA s t) < ms ^+ 2 -> sD o = 0%N.
Proof.
rewrite /split_twosite; have ok := svdP (AA_mat q1 q2 AA); case: (svd _) ok => [[u s] vh] ok [<-] /= m0.
rewrite (@frob_mat _ _ _ _ _ AA (AA_mat q1 q2 AA)) => [lt|i j a b]; last by rewrite AA_matE.
case: (posnP (keepD s D_max ms)) => // p; have := keepD_le s D_max ms; rewrite leq_min => /andP[_ l2].
have [_ _ _ nn _] := svd_okE ok.
have e := svd_err ok (leq0n full); have f0 : (0 < full)%N by exact: leq_trans p l2.
have z : colsN 0 u *m diagN 0 s *m rowsN 0 vh = 0.
  by apply/matrixP=> i j; rewrite [LHS]mxE big_ord0 mxE.
move: e; rewrite /= z subr0 /tailsq (bigD1 (Ordinal f0)) //= => e.
have k0 := keepD_kept p; have [] := negP k0.
have s0 : s 0 (Ordinal f0) = svn s 0 by rewrite /svn insubT.
have : svn s 0 ^+ 2 < ms ^+ 2.
  apply: le_lt_trans lt; rewrite e s0 ler_addl; apply: sumr_ge0 => i _; apply: exprn_ge0.
  by have := nn i; rewrite /svn valK.
by rewrite ltr_pexpn2r // qualifE nn.
Qed.
End C34.

(* without D_max or without min_schmidt (the defaults of evolve_split) two_site=True raises *)
Theorem C34_defaults_refuted (C : numClosedFieldType) (svd : svd_routine C) q1 q2 D0 D2
    (AA : nat -> nat -> 'M[C]_(D0, D2)) :
  (forall ms, split_twosite svd q1 q2 AA None ms = None) /\
  (forall D_max, (0 < D_max)%N -> (0 < q1 * D0)%N -> (0 < q2 * D2)%N ->
     split_twosite svd q1 q2 AA (Some D_max) None = None).
Proof.
split=> [ms|Dm d0 h1 h2]; rewrite /split_twosite; case: (svd _) => -[u s] vh //.
by case: eqP => //; lia.
Qed.
(* a non-zero tensor for which the bond vanishes, whatever scipy returns *)
Theorem C34_vanishing_refuted (C : numClosedFieldType) : exists (AA : nat -> nat -> 'M[C]_1),
  AA 0%N 0%N != 0 /\ forall svd o, svd_contract svd -> split_twosite svd 1 1 AA (Some 4%N) (Some 2%:R) = Some o ->
  sD o = 0%N.
Proof.
exists (fun _ _ => 1%:M); split=> [|svd o ok e]; first exact: matrix_nonzero1.
apply: (C34_all_below ok e); first exact: ler0n.
by rewrite !big_ord1 adotE adj1 mul1mx mxtrace_scalar -natrX ltr_nat.
Qed.
Print Assumptions C34_bond.
Print Assumptions C34_isometry.
Print Assumptions C34_truncation_error.
Print Assumptions C34_exact.
Print Assumptions C34_no_truncation.
Print Assumptions C34_absorbed.
Print Assumptions C34_all_below.
Print Assumptions C34_defaults_refuted.
Print Assumptions C34_vanishing_refuted.

(* non-vacuity: the two-site tensor with AA = 1 (D0 = D2 = 2), one of its two singular values dropped *)
Example C34_example (C : numClosedFieldType) (svd : svd_routine C) : svd_contract svd ->
  exists2 o, split_twosite svd 1 1 (fun _ _ => 1%:M : 'M[C]_2) (Some 1%N) (Some 0) = Some o &
  sD o = 1%N /\ srest o = [:: 1].
Proof.
move=> svdP; case e : (split_twosite _ _ _ _ _ _) => [o|]; last first.
  by move: e; rewrite /split_twosite; case: (svd _) => -[u s] vh.
exists o => //; have ok := svdP _ _ (AA_mat 1 1 (fun _ _ => 1%:M : 'M[C]_2)).
have A1 : AA_mat 1 1 (fun _ _ => 1%:M : 'M[C]_2) = 1%:M.
  apply/matrixP=> i j; rewrite !mxE; congr (_%:R); congr nat_of_bool.
  apply/eqP/eqP => [|-> //] h; rewrite -[i]mxtens_unindexK -[j]mxtens_unindexK.
  rewrite [mxtens_unindex i]surjective_pairing [mxtens_unindex j]surjective_pairing h.
  by congr (mxtens_index (_, _)); rewrite !ord1.
move: e; rewrite /split_twosite.
case: (svd _) ok => [[u s] vh] ok.
have [h1 h2 h3 h4 h5] := svd_okE ok; move: h3; rewrite A1 /= => h3.
have s1 i : (i < 2)%N -> svn s i = 1.
  move=> i2; have hS : (diagS 2 2 (svn s))^† *m diagS 2 2 (svn s) = 1%:M.
    have -> : diagS 2 2 (svn s) = u^† *m vh^†.
      rewrite -[u^†]mulmx1 h3 !mulmxA h1 mul1mx -mulmxA.
      by rewrite h2 mulmx1.
    by rewrite adjM !adjK -mulmxA (mulmxA u) (mulmx1C h1) mul1mx.
  move/matrixP: hS => /(_ (Ordinal i2) (Ordinal i2)); rewrite !mxE (bigD1 (Ordinal i2)) //= big1 => [|k ne].
    rewrite addr0 adjE !mxE eqxx mulr1n => sq; have p := h4 i.
    have rl : (svn s i)^* = svn s i by apply/CrealP; exact: ger0_real.
    by apply/eqP; rewrite -(@eqr_expn2 _ 2 _ _ (isT : (0 < 2)%N) p ler01) expr1n expr2 -{1}rl sq eqxx.
  by rewrite adjE !mxE (inj_eq val_inj) (negPf ne) mulr0.
rewrite /keepD /= s1 // ltr10 => -[<-] /=.
by rewrite s1.
Qed.
