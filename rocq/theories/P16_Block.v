(* P16_Block.v -- C45 (blocking of the unit cell) and C47 (changing the site dimension). *)
From mathcomp Require Import all_ssreflect all_algebra.
From mathcomp Require Import zify.
From Verif Require Import Base Spec Eps Chain ChainProofs ChainProofs2 Multi Uniform Block P15_Uniform.
Set Implicit Arguments.
Unset Strict Implicit.
Unset Printing Implicit Defensive.
Import Order.TTheory GRing.Theory Num.Theory.
Local Open Scope ring_scope.

(* ---- C45 ---- *)
(* the configuration of the cell described by block index s: the digits of s in base q, most significant first *)
Notation digits q L s := (unflat (fun _ => q) L 0 s).
(* the block indices enumerate the configurations of the cell: a bijection (the list has no repetitions) *)
Theorem C45_bijection q L : [seq digits q L s | s <- iota 0 (q ^ L)] = cfgs (fun _ => q) L 0 /\ uniq (cfgs (fun _ => q) L 0).
Proof. by split; [exact: unflat_cfgs | exact: cfgs_uniq]. Qed.
(* digit j, with its place value *)
Theorem C45_digits q L s j : (s < q ^ L)%N -> (j < L)%N -> nth 0%N (digits q L s) j = ((s %/ q ^ (L - j.+1)) %% q)%N.
Proof.
elim: L s j => [|L IH] s j //; rewrite expnS /= dimprodQ => sb; case: j => [|j] jL /=.
  by rewrite subn1 /= modn_small //; have [q0|] := posnP (q ^ L)%N; [rewrite q0 muln0 in sb | move=> h; rewrite ltn_divLR].
have p0 : (0 < q ^ L)%N by lia.
rewrite (unflatQ _ _ _ 0) IH ?ltn_mod // subSS !modn_divl -expnS.
by rewrite modn_dvdm // dvdn_exp2l //; lia.
Qed.
Section C45.
Variables (C : numClosedFieldType) (L q D : nat) (A : nat -> nat -> 'M[C]_D).
Hypothesis L0 : (0 < L)%N.
(* one block tensor is the ordered product of the tensors of the cell *)
Theorem C45_tensor s : (s < q ^ L)%N -> blk_A L q A s = psi (wA L A 0) L (digits q L s).
Proof. exact: blk_AE. Qed.
(* every amplitude of m blocked sites is the amplitude of the m*L original sites *)
Theorem C45_amplitudes ss : all (fun s => s < q ^ L)%N ss ->
  psi (blkT L q A) (size ss) ss = psi (wA L A 0) (size ss * L) (flatten [seq digits q L s | s <- ss]).
Proof. by move=> h; rewrite /psi (@blk_amp _ _ _ _ _ L0 (size ss) ss 0 h (add0n _)). Qed.
(* transfer operators; the environments l[-1], r[-1] handed over are those of the blocked state *)
Theorem C45_transfer x : eps_r_noop (q ^ L) x (blk_A L q A) (blk_A L q A) = cellR L q A A x /\
  eps_l_noop (q ^ L) x (blk_A L q A) (blk_A L q A) = cellL L q A A x.
Proof. by rewrite blk_eps_r ?blk_eps_l. Qed.
Theorem C45_environments l r : consistent L q A l r ->
  consistent 1 (q ^ L) (fun _ => blk_A L q A) (fun _ => l L.-1) (fun _ => r L.-1).
Proof.
move=> hc k _; have [_ hr] := wup_r 0 L0 hc L; have [_ hl] := wup_l 0 L0 hc L.
have [e1 e2] : wl L l 0 0 = l L.-1 /\ wl L l 0 L = l L.-1 by rewrite /wl add0n modnn mod0n prv0.
have [e3 e4] : wr L r 0 0 = r L.-1 /\ wr L r 0 L = r L.-1 by rewrite /wr add0n modnn mod0n prv0.
rewrite blk_eps_l // blk_eps_r //; split.
  have h := lE (wup_l 0 L0 hc L) (leqnn L); rewrite e1 e2 in h; rewrite {1}h -blk_eps_l //.
  rewrite -sum_unflat dimprodQ /eps_l_noop; apply: eq_bigr => s _; by rewrite blk_AE // ?mulmxA.
have h := rE (wup_r 0 L0 hc L) (add0n L); rewrite e3 e4 in h; rewrite {1}h -blk_eps_r //.
rewrite -sum_unflat dimprodQ /eps_r_noop; apply: eq_bigr => s _; by rewrite blk_AE // ?mulmxA.
Qed.
(* the blocked Hamiltonian acts as the sum of the terms starting at the L sites of the first block *)
Theorem C45_ham (V : lmodType C) hs ham (phi : seq nat -> V) s t : (hs <= L.+1)%N -> (s < q ^ L)%N -> (t < q ^ L)%N ->
  op2 (fun _ => (q ^ L)%N) 0 (blk_ham L q hs ham) (fun ss => phi (flatten [seq digits q L w | w <- ss])) [:: s; t] =
  \sum_(k < L) opwin (fun _ => q) k hs ham phi (digits q L s ++ digits q L t).
Proof. exact: blk_hamE. Qed.
(* so the energy per block is the sum of the energies of the terms of the cell *)
Theorem C45_energy hs ham l r : (hs <= L.+1)%N -> consistent L q A l r ->
  uexpect_2s 1 (q ^ L) (fun _ => l L.-1) (fun _ => r L.-1) (ucalc_AA 1 (fun _ => blk_A L q A)) (blk_ham L q hs ham) 0 =
  \sum_(k < L) window L q A l r 0 (L + L) (opwin (fun _ => q) k hs ham).
Proof.
move=> hsL hc; have hb := C45_environments hc.
have -> : 0%N = ((0 + 0) %% 1)%N by [].
rewrite (@C44_expect_2s _ _ _ _ _ _ _ (isT : (0 < 1)%N) hb _ 0 2 0) //.
have e1 : wl L l 0 0 = l L.-1 by rewrite /wl mod0n prv0.
have e2 : wr L r 0 (L + L) = r L.-1 by rewrite /wr add0n modnDl modnn prv0.
rewrite /window /bdotst e1 e2.
set phi := psi (wA L A 0) (L + L).
have pe u v : (u < q ^ L)%N -> (v < q ^ L)%N -> psi (wA 1 (fun _ => blk_A L q A) 0) 2 [:: u; v] = phi (digits q L u ++ digits q L v).
  move=> ub vb; have := @C45_amplitudes [:: u; v]; rewrite /= ub vb => /(_ isT); rewrite cats0.
  by rewrite (_ : (2 * L = L + L)%N) // mul2n addnn.
transitivity (\sum_(s < q ^ L) \sum_(t < q ^ L) \sum_(k < L)
   \tr ((phi (digits q L s ++ digits q L t))^† *m (l L.-1)^† *m opwin (fun _ => q) k hs ham phi (digits q L s ++ digits q L t) *m r L.-1)).
  rewrite sum_cfgsS; apply: eq_bigr => s _; rewrite sum_cfgsS; apply: eq_bigr => t _; rewrite sum_cfgs0 pe; [|exact: ltn_ord s|exact: ltn_ord t].
  have -> : op2 (fun _ => (q ^ L)%N) 0 (blk_ham L q hs ham) (psi (wA 1 (fun _ => blk_A L q A) 0) 2) [:: val s; val t] =
     \sum_(k < L) opwin (fun _ => q) k hs ham phi (digits q L s ++ digits q L t).
    rewrite -C45_ham //; apply: eq_bigr => u _; apply: eq_bigr => v _; congr (_ *: _).
    by rewrite /= pe // cats0.
  by rewrite mulmx_sumr mulmx_suml raddf_sum.
transitivity (\sum_(k < L) \sum_(s < q ^ L) \sum_(t < q ^ L)
   \tr ((phi (digits q L s ++ digits q L t))^† *m (l L.-1)^† *m opwin (fun _ => q) k hs ham phi (digits q L s ++ digits q L t) *m r L.-1)).
  by rewrite [RHS]exchange_big; apply: eq_bigr => u _; rewrite [RHS]exchange_big.
apply: eq_bigr => k _; rewrite sum_cfgs_cat (cfgsQ _ L _ 0) -sum_unflat dimprodQ; apply: eq_bigr => u _.
by rewrite -sum_unflat dimprodQ.
Qed.
End C45.
Print Assumptions C45_bijection.
Print Assumptions C45_digits.
Print Assumptions C45_tensor.
Print Assumptions C45_amplitudes.
Print Assumptions C45_transfer.
Print Assumptions C45_environments.
Print Assumptions C45_ham.
Print Assumptions C45_energy.
(* two-site cell of three-level sites: index 5 is the configuration (1,2); and a state satisfying the hypotheses of
   C45_environments and C45_energy *)
Example C45_example (C : numClosedFieldType) (A : nat -> nat -> 'M[C]_2) :
  digits 3%N 2%N 5%N = [:: 1%N; 2%N] /\ blk_A 2 3 A 5 = A 0%N 1%N *m A 1%N 2%N /\ consistent 2 1 (@e2A C) (@e2l C) (@e2r C).
Proof. by split=> //; split; [rewrite /blk_A /= mulmx1 | exact: e2_consistent]. Qed.

(* ---- C47 ---- *)
Section C47.
Variables (C : numClosedFieldType) (D : nat).
Implicit Type A : nat -> nat -> 'M[C]_D.
(* enlarging: the old basis states are o, ..., o+q-1 of the new site, everything else is zero *)
Theorem C47_grow q n o A : (q < n)%N -> (o + q <= n)%N -> exists2 A', set_q q n o%:Z A = Some A' &
  (forall k s, (s < q)%N -> A' k (o + s)%N = A k s) /\ forall k s, ~~ (o <= s < o + q)%N -> A' k s = 0.
Proof.
move=> qn on; rewrite /set_q qn -PoszD /pyidx (minn_idPl _) ?(minn_idPl _) ?[(q + o)%N]addnC //; last by lia.
rewrite addnC addnK eqxx /=; eexists; first by [].
split=> k s h; last by rewrite ifN //; move: h; lia.
rewrite ifT; last by lia.
by case: eqP => [e|_]; congr (A k _); lia.
Qed.
(* shrinking with the negated offset undoes it *)
Theorem C47_round_trip q n o A A' : (q < n)%N -> (o + q <= n)%N -> (0 < q)%N -> set_q q n o%:Z A = Some A' ->
  exists2 A'', set_q n q (- o%:Z) A' = Some A'' & forall k s, (s < q)%N -> A'' k s = A k s.
Proof.
move=> qn on q0 e; have [B eB [h1 _]] := C47_grow A qn on; move: eB; rewrite e => -[eB].
rewrite /set_q ltnNge (ltnW qn) /= opprK -PoszD /pyidx (minn_idPl _); last by lia.
rewrite (minn_idPl _); last by lia.
rewrite addnK eqxx /=; eexists; first by [].
by move=> k s sq; rewrite -h1 // -eB; case: eqP => // e1; congr (A' k _); lia.
Qed.
(* amplitudes: those of the old basis states are unchanged, all others vanish *)
Theorem C47_amplitudes q n o A A' L k0 N c : (q < n)%N -> (o + q <= n)%N -> set_q q n o%:Z A = Some A' -> size c = N ->
  (all (fun s => s < q)%N c -> psi (wA L A' k0) N [seq (o + s)%N | s <- c] = psi (wA L A k0) N c) /\
  (~~ all (fun s => o <= s < o + q)%N c -> psi (wA L A' k0) N c = 0).
Proof.
move=> qn on e sz; have [B eB [h1 h0]] := C47_grow A qn on; move: eB; rewrite e => -[eB]; rewrite -{}eB in h1 h0.
rewrite /psi; move: 0%N => m; split.
  by elim: c {sz} m => [|s c IH] m //= /andP[sq cq]; rewrite IH // /wA h1.
by elim: c {sz} m => [|s c IH] m //=; rewrite negb_and => /orP[s0|c0]; [rewrite /wA h0 ?mul0mx | rewrite IH ?mulmx0].
Qed.
(* the transfer operators do not change, so the environments l, r the method keeps stay valid *)
Theorem C47_environments q n o A A' L l r : (0 < L)%N -> (q < n)%N -> (o + q <= n)%N -> set_q q n o%:Z A = Some A' ->
  consistent L q A l r -> consistent L n A' l r.
Proof.
move=> L0 qn on e hc; have [B eB [h1 h0]] := C47_grow A qn on; move: eB; rewrite e => -[eB]; rewrite -{}eB in h1 h0.
have sumE (F G : nat -> 'M[C]_D) : (forall s, (s < q)%N -> F (o + s)%N = G s) -> (forall s, ~~ (o <= s < o + q)%N -> F s = 0) ->
    \sum_(s < n) F s = \sum_(s < q) G s.
  move=> f1 f0; have -> : n = (o + (q + (n - o - q)))%N by lia.
  rewrite big_split_ord /= big1 ?add0r; last by move=> i _; apply: f0; have := ltn_ord i; lia.
  rewrite big_split_ord /= [X in _ + X]big1 ?addr0; last by move=> i _; apply: f0; lia.
  by apply: eq_bigr => i _; apply: f1.
move=> k kL; have [-> ->] := hc k kL; rewrite /eps_l_noop /eps_r_noop; split; apply/esym.
  apply: (sumE (fun s => (A' k s)^† *m (l (prv L k) *m A' k s)) (fun s => (A k s)^† *m (l (prv L k) *m A k s))) => s hs.
    by rewrite h1.
  by rewrite h0 // !mulmx0.
apply: (sumE (fun s => A' k s *m r k *m (A' k s)^†) (fun s => A k s *m r k *m (A k s)^†)) => s hs; first by rewrite h1.
by rewrite h0 // !mul0mx.
Qed.
(* shrinking with the same positive offset raises ValueError *)
Theorem C47_same_offset_refuted q n o A : (1 < q)%N -> (q < n)%N -> (0 < o <= q)%N -> set_q n q o%:Z A = None.
Proof.
move=> q1 qn /andP[o0 oq]; rewrite /set_q ltnNge (ltnW qn) /=.
have -> : pyidx n (- o%:Z) = (n - o)%N by case: o o0 oq.
have -> : (q%:Z - o%:Z = (q - o)%:Z)%R by lia.
rewrite /pyidx (minn_idPl _); last by lia.
have -> : (q - o - (n - o) = 0)%N by lia.
by have -> : (0%N == q) = false by lia.
Qed.
End C47.
Print Assumptions C47_grow.
Print Assumptions C47_round_trip.
Print Assumptions C47_amplitudes.
Print Assumptions C47_environments.
Print Assumptions C47_same_offset_refuted.
Example C47_example (C : numClosedFieldType) : exists A' : nat -> nat -> 'M[C]_1,
  set_q 2 4 1 (fun _ s => s.+1%:R%:M) = Some A' /\ [seq A' 0%N s | s <- iota 0 4] = [:: 0; 1%:M; 2%:R%:M; 0].
Proof. by eexists; split. Qed.
