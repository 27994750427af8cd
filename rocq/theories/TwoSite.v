(* TwoSite.v -- the states obtained by replacing two neighbouring tensors, and the projection of H psi
   onto the part of the two-site tangent space that is orthogonal to the one-site tangent space
   (what calc_BB_Y_2s computes).  Mathematics for Expand.v. *)
From mathcomp Require Import all_ssreflect all_algebra.
From mathcomp Require Import zify.
From Verif Require Import Base Spec Eps Chain ChainProofs LinAlg Struct Factor Tangent Tangent2 Tdvp
  TdvpProofs TdvpProofs2 TdvpProofs3 Svd Expand.
Set Implicit Arguments.
Unset Strict Implicit.
Unset Printing Implicit Defensive.
Import Order.TTheory GRing.Theory Num.Theory.
Local Open Scope ring_scope.

(* the state with sites j, j+1 replaced by the two-site tensor T *)
Definition tw (C : numClosedFieldType) (D : nat -> nat) (N : nat) (A : tensors C D) (j : nat)
    (T : nat -> nat -> 'M[C]_(D j, D j.+2)) (c : seq nat) : 'M[C]_(D 0%N, D N) :=
  amp A j 0%N (take j c) *m T (nth 0%N c j) (nth 0%N c j.+1) *m amp A N j.+2 (drop j.+2 c).

Section TwoSite.
Variables (C : numClosedFieldType) (D q : nat -> nat) (N : nat) (A : tensors C D).
Variables (l r : forall n, smat C (D n) (D n)).
Local Notation L n := (toarray (l n)).
Local Notation R n := (toarray (r n)).
Hypotheses (hl : up_l q A N 1%:M (fun n => L n)) (hr : up_r q A N 1%:M (fun n => R n)).

Definition rep2 j (P : nat -> 'M[C]_(D j, D j.+1)) (Q : nat -> 'M[C]_(D j.+1, D j.+2)) := rep (rep A P) Q.

Lemma rep2_1 j P Q : @rep2 j P Q j = P.
Proof. by rewrite /rep2 rep_other ?rep_same // gtn_eqF. Qed.
Lemma rep2_2 j P Q : @rep2 j P Q j.+1 = Q.
Proof. by rewrite /rep2 rep_same. Qed.
Lemma rep2_o j P Q n : n != j -> n != j.+1 -> @rep2 j P Q n = A n.
Proof. by move=> h1 h2; rewrite /rep2 !rep_other // eq_sym. Qed.

Lemma tw_rep2 j P Q c : size c = N -> (j.+1 < N)%N ->
  psi (@rep2 j P Q) N c = tw N A (fun s t => P s *m Q t) c.
Proof.
move=> sz jN; have j1 : (j < size c)%N by rewrite sz ltnW.
have j2 : (j.+1 < size c)%N by rewrite sz.
rewrite -{1}(cat_take_drop j c) (drop_nth 0%N j1) (drop_nth 0%N j2) /psi /tw.
have st : size (take j c) = j by rewrite size_takel // ltnW.
rewrite (@amp_cat _ _ _ N 0%N j) ?st // !amp_cons rep2_1 rep2_2.
rewrite (@eq_amp _ _ (rep2 P Q) A j 0%N) ?(@eq_amp _ _ (rep2 P Q) A N j.+2) ?mulmxA // => n s h1 h2;
  by rewrite rep2_o //; move: h1 h2; rewrite ?st; lia.
Qed.

Lemma tw_sum j k (P : 'I_k -> nat -> 'M[C]_(D j, D j.+1)) (Q : 'I_k -> nat -> 'M[C]_(D j.+1, D j.+2)) c :
  tw N A (fun s t => \sum_a P a s *m Q a t) c = \sum_a tw N A (fun s t => P a s *m Q a t) c.
Proof. by rewrite /tw mulmx_sumr mulmx_suml. Qed.

(* one pair of bra tensors with gauge conditions *)
Section Pair.
Variables (j : nat) (jN : (j.+1 < N)%N).
Variables (P : nat -> 'M[C]_(D j, D j.+1)) (Q : nat -> 'M[C]_(D j.+1, D j.+2)).
Hypotheses (gP : lgauge q A (fun n => L n) P) (gQ : rgauge q A (fun n => R n) Q).
Let jN1 : (j < N)%N := ltnW jN.
Let jN0 : (j <= N)%N := ltnW jN1.

(* ket agreeing with A up to site j, or from site j+1 on: no overlap *)
Lemma pair_L (B : tensors C D) p : (forall n s, (n < p)%N -> B n s = A n s) -> (j < p)%N -> (p <= N)%N ->
  LW q (rep2 P Q) B p = 0.
Proof.
move=> h jp pN; have e : LW q (rep2 P Q) B j.+1 = 0.
  rewrite LWS rep2_1 (@eq_LW _ _ q _ A _ A j) ?(LW_up hl jN0).
  - rewrite -[RHS]gP /eps_l_noop; apply: eq_bigr => s _; by rewrite h.
  - by move=> n s nj; rewrite rep2_o //; lia.
  - by move=> n s nj; rewrite h //; lia.
rewrite -(subnKC jp); elim: (p - j.+1)%N => [|k IH]; first by rewrite addn0.
by rewrite addnS LWS IH eps_l_noop0.
Qed.
Lemma pair_R (B : tensors C D) p : (forall n s, (p <= n < N)%N -> B n s = A n s) -> (p <= j.+1)%N ->
  RW q N (rep2 P Q) B p = 0.
Proof.
move=> h pj; have e : RW q N (rep2 P Q) B j.+1 = 0.
  rewrite RWS // rep2_2 (@eq_RW _ _ q N _ A _ A j.+2) ?(RW_up hr jN).
  - rewrite -[RHS]gQ /eps_r_noop; apply: eq_bigr => s _; by rewrite h // pj.
  - by move=> n s /andP[nj nN]; rewrite rep2_o //; lia.
  - by move=> n s /andP[nj nN]; rewrite h //; lia.
move: (subnKC pj); move: (j.+1 - p)%N => k; elim: k p h {pj} => [|k IH] p h pk.
  by rewrite addn0 in pk; rewrite pk.
rewrite RWS; last by lia.
rewrite (IH p.+1) ?eps_r_noop0 //; last by lia.
by move=> n s /andP[pn nN]; apply: h; lia.
Qed.
Lemma pair_orth_L (B : tensors C D) : (forall n s, (n <= j)%N -> B n s = A n s) ->
  dotst q N (psi (rep2 P Q) N) (psi B N) = 0.
Proof.
move=> h; rewrite (@dotst_cut2 _ _ _ _ _ _ j.+1) // (@pair_L B) // mul0mx; exact: mxtrace0.
Qed.
Lemma pair_orth_R (B : tensors C D) : (forall n s, (j < n < N)%N -> B n s = A n s) ->
  dotst q N (psi (rep2 P Q) N) (psi B N) = 0.
Proof.
move=> h; rewrite (@dotst_cut2 _ _ _ _ _ _ j.+1) // (@pair_R B) // mulmx0; exact: mxtrace0.
Qed.

(* overlap with H psi: only the term on sites j, j+1 *)
Lemma pair_ham ham : dotst q N (psi (rep2 P Q) N) (Ham2 q N ham (psi A N)) =
  \sum_(s < q j) \sum_(t < q j.+1) \tr ((P s *m Q t)^† *m (L j *m C2e q A ham j s t *m R j.+2)).
Proof.
rewrite (eq_dotst q (u' := psi (rep2 P Q) N) (v' := Hsum q N 2 (O2 ham) (psi A N))) //; last first.
  by move=> c sz; rewrite Ham2E.
have jI : j \in index_iota 0 N by rewrite mem_index_iota.
rewrite dotst_Hsum big_mkcond (bigD1_seq j jI (iota_uniq _ _)) /= addn2 jN big1 ?addr0; last first.
  move=> i ij; case: ifP => // iN.
  rewrite (dotst_win2 q _ _ _ (erefl (i + 2)%N)) //.
  have [lt|ge] := ltnP i j.
    by rewrite (@pair_R A) //; [rewrite /winmat big1 ?mulmx0 ?mxtrace0 // => c _; rewrite big1 // => d _; rewrite mulmx0 mul0mx scaler0 | lia].
  by rewrite (@pair_L A) //; [rewrite mul0mx mxtrace0 | lia | lia].
rewrite (dotst_win2 q _ _ _ (addn2 j)) // winmat2 rep2_1 rep2_2.
rewrite (@eq_LW _ _ q _ A _ A j) ?(LW_up hl jN0); [|by move=> n s nj; rewrite rep2_o //; lia | by []].
rewrite (@eq_RW _ _ q N _ A _ A j.+2) ?(RW_up hr jN); [|by move=> n s /andP[nj nN]; rewrite rep2_o //; lia | by []].
rewrite mulmx_sumr tr_sum; apply: eq_bigr => s _; rewrite mulmx_sumr tr_sum; apply: eq_bigr => t _.
by rewrite mulmxA mxtrace_mulC !mulmxA.
Qed.
(* overlaps *)
Lemma pair_gram (P' : nat -> 'M[C]_(D j, D j.+1)) (Q' : nat -> 'M[C]_(D j.+1, D j.+2)) :
  dotst q N (psi (rep2 P Q) N) (psi (rep2 P' Q') N) =
  \sum_(s < q j) \sum_(t < q j.+1) \tr ((P s *m Q t)^† *m (L j *m (P' s *m Q' t) *m R j.+2)).
Proof.
rewrite (@dotst_cut2 _ _ _ _ _ _ j) // RWS // RWS // !rep2_1 !rep2_2.
rewrite (@eq_LW _ _ q _ A _ A j) ?(LW_up hl jN0); [|by move=> n s nj; rewrite rep2_o //; lia | by move=> n s nj; rewrite rep2_o //; lia].
rewrite (@eq_RW _ _ q N _ A _ A j.+2) ?(RW_up hr jN); [|by move=> n s /andP[nj nN]; rewrite rep2_o //; lia | by move=> n s /andP[nj nN]; rewrite rep2_o //; lia].
rewrite /eps_r_noop mulmx_sumr tr_sum; apply: eq_bigr => s _.
rewrite mulmx_sumr mulmx_suml mulmx_sumr tr_sum; apply: eq_bigr => t _.
by rewrite adjM -!mulmxA [RHS]mxtrace_mulC -!mulmxA [RHS]mxtrace_mulC -!mulmxA.
Qed.
End Pair.

Variables (eigh : eigh_routine C) (qrf : qrf_routine C) (tol : C).
Hypotheses (eighP : eigh_contract eigh) (qrfP : qrf_contract qrf) (tol0 : 0 <= tol).
Local Notation ls m := (toarray (l_s l eigh tol m)).
Local Notation lsi m := (toarray (l_si l eigh tol m)).
Local Notation rs m := (toarray (r_s r eigh tol m)).
Local Notation rsi m := (toarray (r_si r eigh tol m)).
Local Notation Vl m := (Vlh q A l eigh qrf tol m).
Local Notation Vr m := (Vrh q A r eigh qrf tol m).

(* the gauge-fixed two-site tensors *)
Definition TX j (X : 'M[C]_(kl D q j, kr D q j.+1)) (s t : nat) : 'M[C]_(D j, D j.+2) :=
  lsi j *m (Vl j s)^† *m X *m (Vr j.+1 t)^† *m rsi j.+1.
Arguments TX : clear implicits.

Section Bond.
Variables (j : nat) (jN : (j.+1 < N)%N) (Dp : (0 < D j.+1)%N).
Let jN1 : (j < N)%N := ltnW jN.
Let jN0 : (j <= N)%N := ltnW jN1.
Let hL : herm (L j) := hermL hl jN0.
Let hR1 : herm (R j.+1) := hermR hr jN1.
Let hR : herm (R j.+2) := hermR hr jN.
Definition PX (a : 'I_(kl D q j)) (s : nat) : 'M[C]_(D j, D j.+1) := lsi j *m (Vl j s)^† *m delta_mx a (Ordinal Dp).
Definition QX (X : 'M[C]_(kl D q j, kr D q j.+1)) (a : 'I_(kl D q j)) (t : nat) : 'M[C]_(D j.+1, D j.+2) :=
  delta_mx (Ordinal Dp) a *m X *m (Vr j.+1 t)^† *m rsi j.+1.

Lemma PX_gauge a : lgauge q A (fun n => L n) (PX a).
Proof.
have [h1 h2 h3 h4] := lsE eighP tol0 hL; have [v1 _] := vshl_atP qrfP (q j) (A j) h1.
transitivity ((delta_mx a (Ordinal Dp))^† *m (\sum_(s < q j) Vl j s *m ls j *m A j s)); last by rewrite v1 mulmx0.
rewrite /eps_l_noop mulmx_sumr; apply: eq_bigr => s _; rewrite /PX !adjM adjK -h3 h2.
by rewrite !mulmxA.
Qed.
Lemma QX_gauge X a : rgauge q A (fun n => R n) (QX X a).
Proof.
have [h1 h2 h3 h4] := rsE eighP tol0 hR; have [v1 _] := vsh_atP qrfP (q j.+1) (A j.+1) h1.
transitivity ((\sum_(s < q j.+1) A j.+1 s *m rs j.+1 *m Vr j.+1 s) *m (delta_mx (Ordinal Dp) a *m X)^†); last by rewrite v1 mul0mx.
rewrite /eps_r_noop mulmx_suml; apply: eq_bigr => s _; rewrite /QX !adjM adjK -h4 h2.
by rewrite !mulmxA.
Qed.
Lemma TX_sum X s t : TX j X s t = \sum_a PX a s *m QX X a t.
Proof.
transitivity (lsi j *m (Vl j s)^† *m (\sum_a delta_mx a a) *m X *m (Vr j.+1 t)^† *m rsi j.+1).
  by rewrite -mx1_sum_delta mulmx1.
rewrite mulmx_sumr !mulmx_suml; apply: eq_bigr => a _; rewrite /PX /QX -!mulmxA; congr (_ *m (_ *m _)).
by rewrite [RHS]mulmxA mul_delta_mx.
Qed.
Lemma tw_TX X c : size c = N -> tw N A (TX j X) c = \sum_a psi (rep2 (PX a) (QX X a)) N c.
Proof.
move=> sz; rewrite {1}/tw TX_sum -[LHS]/(tw N A (fun s t => \sum_a PX a s *m QX X a t) c) tw_sum.
by apply: eq_bigr => a _; rewrite tw_rep2.
Qed.
(* orthogonal to every state built from tensors that agree with A on one of the two sides *)
Lemma tw_orth X (B : tensors C D) :
  (forall n s, (n <= j)%N -> B n s = A n s) \/ (forall n s, (j < n < N)%N -> B n s = A n s) ->
  dotst q N (tw N A (TX j X)) (psi B N) = 0.
Proof.
move=> h; rewrite (eq_dotst q (u' := fun c => \sum_a psi (rep2 (PX a) (QX X a)) N c) (v' := psi B N)) //; last exact: tw_TX.
rewrite dotst_suml big1 // => a _; case: h => h.
  by apply: pair_orth_L => //; apply: PX_gauge.
by apply: pair_orth_R => //; apply: QX_gauge.
Qed.
Lemma tw_ham X ham : dotst q N (tw N A (TX j X)) (Ham2 q N ham (psi A N)) =
  adot X (\sum_(s < q j) Vl j s *m (ls j *m \sum_(t < q j.+1) C2e q A ham j s t *m rs j.+1 *m Vr j.+1 t)).
Proof.
have [h1 h2 h3 h4] := lsE eighP tol0 hL; have [g1 g2 g3 g4] := rsE eighP tol0 hR.
rewrite (eq_dotst q (u' := fun c => \sum_a psi (rep2 (PX a) (QX X a)) N c) (v' := Ham2 q N ham (psi A N))) //; last exact: tw_TX.
rewrite dotst_suml; under eq_bigr => a _ do rewrite (pair_ham jN (PX_gauge a) (QX_gauge X a)).
rewrite exchange_big adotE mulmx_sumr tr_sum; apply: eq_bigr => s _.
rewrite exchange_big /= !mulmx_sumr tr_sum; apply: eq_bigr => t _.
rewrite -tr_sum -mulmx_suml -adj_sum -TX_sum /TX !adjM !adjK h2 g2 -h3 -g4.
by rewrite -!mulmxA [LHS]mxtrace_mulC -!mulmxA [LHS]mxtrace_mulC -!mulmxA.
Qed.
Lemma tw_gram X X' : full tol (L j) -> full tol (R j.+2) ->
  dotst q N (tw N A (TX j X)) (tw N A (TX j X')) = adot X X'.
Proof.
move=> fL fR; have [h1 h2 h3 h4] := lsE eighP tol0 hL; have [g1 g2 g3 g4] := rsE eighP tol0 hR.
have [f1 f2 f3] := lsF eighP tol0 hL fL; have [f4 f5 f6] := rsF eighP tol0 hR fR.
have [_ v2] := vshl_atP qrfP (q j) (A j) h1; have [_ w2] := vsh_atP qrfP (q j.+1) (A j.+1) g1.
rewrite (eq_dotst q (u' := fun c => \sum_a psi (rep2 (PX a) (QX X a)) N c)
  (v' := fun c => \sum_a psi (rep2 (PX a) (QX X' a)) N c)); [|exact: tw_TX|exact: tw_TX].
rewrite dotst_suml; under eq_bigr => a _ do (rewrite dotst_sumr; under eq_bigr => b _ do rewrite pair_gram //).
transitivity (\sum_(s < q j) \sum_(t < q j.+1) \tr ((TX j X s t)^† *m (L j *m TX j X' s t *m R j.+2))).
  under eq_bigr => a _ do rewrite exchange_big; rewrite exchange_big; apply: eq_bigr => s _.
  under eq_bigr => a _ do rewrite exchange_big; rewrite exchange_big; apply: eq_bigr => t _.
  rewrite !TX_sum adj_sum mulmx_suml tr_sum; apply: eq_bigr => a _.
  by rewrite mulmx_sumr mulmx_suml mulmx_sumr tr_sum.
transitivity (\tr ((\sum_(s < q j) Vl j s *m (Vl j s)^†) *m X' *m (\sum_(t < q j.+1) (Vr j.+1 t)^† *m Vr j.+1 t) *m X^†)).
  rewrite !mulmx_suml tr_sum; apply: eq_bigr => s _.
  rewrite mulmx_sumr mulmx_suml tr_sum; apply: eq_bigr => t _.
  rewrite /TX !adjM !adjK h2 g2 -!mulmxA.
  rewrite (mulmxA (lsi j) (L j)) h3 (mulmxA (ls j)) f2 mul1mx.
  rewrite g3.
  rewrite mxtrace_mulC -!mulmxA f5 mulmx1.
  by rewrite mxtrace_mulC -!mulmxA mxtrace_mulC -!mulmxA.
by rewrite v2 w2 mul1mx mulmx1 adotE mxtrace_mulC.
Qed.
End Bond.
End TwoSite.
