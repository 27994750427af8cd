(* Expand.v -- model of the dynamical bond expansion of take_step (tdvp_gen.py:611-649, 889-921;
   tdvp_common.py:543-553, 582-612) for two-site Hamiltonian terms.

   Numbering as in Tdvp.v: site m here is Python site m+1, bonds keep their numbers; the two-site
   quantities Y[n], BB12[n], BB21[n+1], dD[n] of Python n = m+1 are indexed by m and belong to bond m+1. *)
From mathcomp Require Import all_ssreflect all_algebra.
From mathcomp Require Import zify.
From Verif Require Import Base Spec Eps Chain ChainProofs LinAlg Struct Factor Tangent Tangent2 Tdvp Svd.
Set Implicit Arguments.
Unset Strict Implicit.
Unset Printing Implicit Defensive.
Import Order.TTheory GRing.Theory Num.Theory.
Local Open Scope ring_scope.

(* scipy.linalg.svd; None is LinAlgError *)
Definition svd_try (C : numClosedFieldType) := forall m n, 'M[C]_(m, n) -> option (svd_out C m n).
Definition svd_try_contract (C : numClosedFieldType) (svd : svd_try C) :=
  forall m n (M : 'M[C]_(m, n)) o, svd m n M = Some o -> svd_ok M o.

Section Common.
Variable C : numClosedFieldType.

(* tm.calc_BB_Y_2s (tdvp_common.py:543-553): Y = sum_s Vlh[s] l_s eps_r_noop(r_s, C[s], Vr) with
   Vr[t] = Vrh[t]^†; the second component is etaBB_sq = adot(Y, Y) *)
Definition tm_calc_BB_Y_2s (q1 q2 D0 D2 k1 k2 : nat) (Cst : nat -> nat -> 'M[C]_(D0, D2))
    (Vlh : nat -> 'M[C]_(k1, D0)) (Vrh : nat -> 'M[C]_(D2, k2)) (ls : 'M[C]_D0) (rs : 'M[C]_D2) : 'M[C]_(k1, k2) * C :=
  let Y := \sum_(s < q1) Vlh s *m (ls *m eps_r_noop q2 rs (Cst s) (fun t => (Vrh t)^†)) in
  (Y, adot Y Y).

(* tm.calc_BB_2s (tdvp_common.py:582-612): dDn = min(count_nonzero(sv > sv_tol), dD_max),
   Z1 = U[:, :dDn] sqrt(s), Z2 = sqrt(s) Vh[:dDn], BB12[s] = l_si Vlh[s]^† Z1, BB21[t] = Z2 Vrh[t]^† r_si *)
Record bb_out (D0 D2 : nat) := BB { bD : nat; bb12 : nat -> 'M[C]_(D0, bD); bb21 : nat -> 'M[C]_(bD, D2) }.
Definition dDn k (sv : 'rV[C]_k) (sv_tol : C) (dD_max : nat) : nat :=
  minn #|[pred i | sv_tol < sv 0 i]| dD_max.
Definition sqrtN k d (sv : 'rV[C]_k) : 'M[C]_d := diag_mx (\row_(i < d) sqrtC (svn sv i)).
Definition tm_calc_BB_2s (svd : svd_try C) (D0 D2 k1 k2 : nat) (Y : 'M[C]_(k1, k2))
    (Vlh : nat -> 'M[C]_(k1, D0)) (Vrh : nat -> 'M[C]_(D2, k2)) (lsi : 'M[C]_D0) (rsi : 'M[C]_D2)
    (dD_max : nat) (sv_tol : C) : option (bb_out D0 D2) :=
  if svd k1 k2 Y is Some (U, sv, Vh) then
    let d := dDn sv sv_tol dD_max in
    let Z1 := colsN d U *m sqrtN d sv in
    let Z2 := sqrtN d sv *m rowsN d Vh in
    Some (BB (fun s => lsi *m (Vlh s)^† *m Z1) (fun t => Z2 *m (Vrh t)^† *m rsi))
  else None.
End Common.

Section Expand.
Variables (C : numClosedFieldType) (D q : nat -> nat) (N : nat) (A : tensors C D).
Variables (l r : forall n, smat C (D n) (D n)) (eigh : eigh_routine C) (qrf : qrf_routine C) (tol : C).
Local Notation ls m := (toarray (l_s l eigh tol m)).
Local Notation lsi m := (toarray (l_si l eigh tol m)).
Local Notation rs m := (toarray (r_s r eigh tol m)).
Local Notation rsi m := (toarray (r_si r eigh tol m)).
Local Notation Vl m := (Vlh q A l eigh qrf tol m).
Local Notation Vr m := (Vrh q A r eigh qrf tol m).
Variable Cs : C2arr C D.

(* calc_BB_Y_2s (tdvp_gen.py:611-620), entry n = m+1 of Y.  Vlh[n], Vrh[n+1] are None when the null
   spaces are empty; [Some None] is "entry not assigned".  The outer None is the exception raised when
   self.C[n] is None (C.dtype). *)
Definition Y_2s m : option (option ('M[C]_(kl D q m, kr D q m.+1) * C)) :=
  if (D m.+2 * q m.+1 <= D m.+1)%N || (q m * D m <= D m.+1)%N then Some None else
  if Cs m is Some c then
    Some (Some (tm_calc_BB_Y_2s (q m) (q m.+1) c (Vl m) (Vr m.+1) (ls m) (rs m.+1)))
  else None.

Variable svd : svd_try C.
(* calc_BB_2s (tdvp_gen.py:631-649): dD_maxes[n] = min(D_max - D[n], dD_max) if D_max > 0 else dD_max *)
Definition dD_maxes (dD_max D_max n : nat) : nat :=
  if (0 < D_max)%N then minn (D_max - D n) dD_max else dD_max.
Definition BB_2s (dD_max D_max : nat) (sv_tol : C) m : bb_out C (D m) (D m.+2) :=
  let none := @BB C (D m) (D m.+2) 0 (fun _ => 0) (fun _ => 0) in
  if (m.+1 < N)%N && (0 < dD_maxes dD_max D_max m.+1)%N then
    if Y_2s m is Some (Some Y) then
      odflt none (tm_calc_BB_2s svd Y.1 (Vl m) (Vr m.+1) (lsi m) (rsi m.+1) (dD_maxes dD_max D_max m.+1) sv_tol)
    else none
  else none.
End Expand.

(* the expanded tensors (tdvp_gen.py:894-915): self.D += dD; self._init_arrays() makes zero arrays;
   A[n][:, :oldD, :oldD] = oldA[n], upper right -1j sqrt(dtau) BB12[n], lower left
   -1j sqrt(dtau) BB21[n].  When no dD is positive the arrays are left alone, which is the same
   tensors. *)
Section Block.
Variables (C : numClosedFieldType) (D : nat -> nat) (bb : forall m, bb_out C (D m) (D m.+2)).
Definition dD (n : nat) : nat := if n is m.+1 then bD (bb m) else 0.
Definition D_new (n : nat) : nat := (D n + dD n)%N.
Definition BB21 n : nat -> 'M[C]_(dD n, D n.+1) :=
  match n return nat -> 'M[C]_(dD n, D n.+1) with 0%N => fun _ => 0 | m.+1 => bb21 (bb m) end.
Definition expand (dtau : C) (A : tensors C D) : tensors C D_new := fun n s =>
  block_mx (A n s) ((- 'i * sqrtC dtau) *: bb12 (bb n) s) ((- 'i * sqrtC dtau) *: BB21 n s) 0.
End Block.

(* take_step(dtau, dynexp=True): Euler step with B, then the expansion; bb was computed before *)
Definition take_step_dynexp (C : numClosedFieldType) (D : nat -> nat) (bb : forall m, bb_out C (D m) (D m.+2))
    (dtau : C) (A : tensors C D) (B : forall m, option (nat -> 'M[C]_(D m, D m.+1))) : tensors C (D_new bb) :=
  expand bb dtau (fun n s => if B n is Some b then A n s - dtau *: b s else A n s).

(* ---- proofs ---------------------------------------------------------------- *)
Section BlockP.
Variables (C : numClosedFieldType) (D : nat -> nat) (bb : forall m, bb_out C (D m) (D m.+2)) (dtau : C) (A : tensors C D).
Local Notation A' := (expand bb dtau A).
Local Notation dD := (dD bb).
Local Notation sg := (- 'i * sqrtC dtau : C).
Definition T2 n s t : 'M[C]_(D n, D n.+2) := bb12 (bb n) s *m bb21 (bb n) t.

Lemma sg2 : sg * sg = - dtau.
Proof. by rewrite mulrACA mulrNN -!expr2 sqrCi sqrtCK mulN1r. Qed.

Lemma ul_mul a b p a' b' p' (X : 'M[C]_(a + a', b + b')) (Z : 'M[C]_(b + b', p + p')) :
  ulsubmx (X *m Z) = ulsubmx X *m ulsubmx Z + ursubmx X *m dlsubmx Z.
Proof. by rewrite -{1}[X]submxK -{1}[Z]submxK mulmx_block block_mxKul. Qed.
Lemma dl_mul a b p a' b' p' (X : 'M[C]_(a + a', b + b')) (Z : 'M[C]_(b + b', p + p')) :
  dlsubmx (X *m Z) = dlsubmx X *m ulsubmx Z + drsubmx X *m dlsubmx Z.
Proof. by rewrite -{1}[X]submxK -{1}[Z]submxK mulmx_block block_mxKdl. Qed.

(* product of neighbouring tensors, old indices *)
Lemma pair_product n s t : ulsubmx (A' n s *m A' n.+1 t) = A n s *m A n.+1 t - dtau *: T2 n s t.
Proof.
rewrite ul_mul /expand !block_mxKul block_mxKur block_mxKdl -scalemxAl -scalemxAr scalerA sg2.
by rewrite scaleNr.
Qed.

(* amplitudes with k two-site insertions on disjoint neighbouring pairs, from site n to site e *)
Fixpoint ins (e : nat) (k : nat) (n : nat) (c : seq nat) {struct c} : 'M[C]_(D n, D e) :=
  match c with
  | [::] => if k is 0%N then pid_mx (D e) else 0
  | s :: c' => A n s *m ins e k n.+1 c' +
      match c', k with
      | t :: c'', k'.+1 => T2 n s t *m ins e k' n.+2 c''
      | _, _ => 0
      end
  end.
Definition U_ e n c := ulsubmx (amp A' e n c).
Definition Lo_ e n c := dlsubmx (amp A' e n c).

Lemma U_cons e n s c : U_ e n (s :: c) = A n s *m U_ e n.+1 c + sg *: (bb12 (bb n) s *m Lo_ e n.+1 c).
Proof. by rewrite /U_ /Lo_ amp_cons ul_mul /expand block_mxKul block_mxKur -scalemxAl. Qed.
Lemma Lo_cons e n s c : Lo_ e n.+1 (s :: c) = sg *: (bb21 (bb n) s *m U_ e n.+2 c).
Proof. by rewrite /U_ /Lo_ amp_cons dl_mul /expand block_mxKdl block_mxKdr mul0mx addr0 -scalemxAl. Qed.

Lemma U_nil e : U_ e e [::] = 1%:M.
Proof. by rewrite /U_ amp_nil /D_new scalar_mx_block block_mxKul. Qed.
Lemma Lo_nil e : Lo_ e e [::] = 0.
Proof. by rewrite /Lo_ amp_nil /D_new scalar_mx_block block_mxKdl. Qed.

(* the exact amplitudes of the expanded chain, as a polynomial in dtau *)
Lemma U_expansion e n c K : (n + size c)%N = e -> (size c < K)%N ->
  U_ e n c = \sum_(k < K) (- dtau) ^+ k *: ins e k n c.
Proof.
move: {2}(size c) (leqnn (size c)) => b; elim: b n c K => [|b IH] n [|s c] [|K] //= sb.
- rewrite addn0 => en _; subst e; rewrite U_nil big_ord_recl expr0 scale1r /= pid_mx_1 big1 ?addr0 //.
  by move=> k _; rewrite scaler0.
- rewrite addn0 => en _; subst e; rewrite U_nil big_ord_recl expr0 scale1r /= pid_mx_1 big1 ?addr0 //.
  by move=> k _; rewrite scaler0.
rewrite addnS => en sK; rewrite U_cons (IH n.+1 c K.+1) //; last by exact: leq_trans (leqnSn _).
transitivity (\sum_(k < K.+1) (- dtau) ^+ k *: (A n s *m ins e k n.+1 c) +
  \sum_(k < K.+1) (- dtau) ^+ k *: (match c, nat_of_ord k with
      | t :: c'', k'.+1 => T2 n s t *m ins e k' n.+2 c''
      | _, _ => 0
      end)); last first.
  by rewrite -big_split; apply: eq_bigr => k _; rewrite /= -scalerDr.
congr (_ + _).
  by rewrite mulmx_sumr; apply: eq_bigr => k _; rewrite -scalemxAr.
case: c sb en sK => [|t c] sb en sK.
  rewrite addn0 in en; subst e; rewrite Lo_nil mulmx0 scaler0 big1 // => k _.
  by rewrite scaler0.
rewrite Lo_cons -scalemxAr scalerA sg2 big_ord_recl /= scaler0 add0r.
rewrite (IH n.+2 c K); [| by move: sb => /=; lia | by move: en => /=; lia | by move: sK => /=; lia].
rewrite mulmxA mulmx_sumr scaler_sumr; apply: eq_bigr => k _.
by rewrite -scalemxAr scalerA -exprS.
Qed.

Lemma ins0 e n c : ins e 0 n c = amp A e n c.
Proof.
elim: c n => [|s c IH] n //=; rewrite IH; case: c {IH} => [|t c]; by rewrite addr0.
Qed.
(* one insertion: the sum over the bonds *)
Definition one_ins e n (j : nat) (c : seq nat) : 'M[C]_(D n, D e) :=
  amp A j n (take (j - n) c) *m T2 j (nth 0%N c (j - n)) (nth 0%N c (j - n).+1) *m amp A e j.+2 (drop (j - n).+2 c).
Lemma ins1 e n c : (n + size c)%N = e -> ins e 1 n c = \sum_(n <= j < e.-1) one_ins e n j c.
Proof.
elim: c n => [|s c IH] n /=; first by rewrite addn0 => ->; rewrite big_geq // leq_pred.
rewrite addnS => en; rewrite (IH n.+1) //.
case: c en {IH} => [|t c] en.
  by rewrite addn0 in en; rewrite -en !big_geq ?mulmx0 ?addr0 //= ltnS.
rewrite [RHS]big_ltn; last by move: en => /=; lia.
rewrite addrC; congr (_ + _).
  by rewrite /one_ins subnn take0 /= drop0 pid_mx_1 mul1mx ins0.
rewrite mulmx_sumr big_nat [RHS]big_nat; apply: eq_bigr => j /andP[nj je].
by rewrite /one_ins -(subnSK nj) /= !mulmxA.
Qed.
End BlockP.

Section BBP.
Variables (C : numClosedFieldType) (svd : svd_try C) (svdP : svd_try_contract svd).
Variables (D0 D2 k1 k2 : nat) (Y : 'M[C]_(k1, k2)) (Vlh : nat -> 'M[C]_(k1, D0)) (Vrh : nat -> 'M[C]_(D2, k2)).
Variables (lsi : 'M[C]_D0) (rsi : 'M[C]_D2) (dD_max : nat) (sv_tol : C).

Lemma dDn_le k (sv : 'rV[C]_k) : (dDn sv sv_tol dD_max <= k)%N.
Proof.
rewrite /dDn; apply: leq_trans (geq_minl _ _) _.
by apply: leq_trans (max_card _) _; rewrite card_ord.
Qed.
(* the values beyond the count are not above the tolerance *)
Lemma dDn_tail k (sv : 'rV[C]_k) (i : nat) : (forall i j, (i <= j)%N -> svn sv j <= svn sv i) ->
  (#|[pred i | (sv_tol < sv 0 i)%R]| <= i)%N -> (i < k)%N -> ~~ (sv_tol < svn sv i).
Proof.
move=> srt hi ik; move: hi; apply: contraL => h; rewrite -ltnNge.
have : (#|[pred j : 'I_k | (j < i.+1)%N]| <= #|[pred j | (sv_tol < sv 0 j)%R]|)%N.
  apply: subset_leq_card; apply/subsetP=> j; rewrite !inE => ji; apply: lt_le_trans h _.
  by have := srt j i ji; rewrite [svn sv j]/svn valK.
apply: leq_trans; rewrite -sum1_card -(big_ord_widen_cond k predT (fun _ => 1%N)) //.
by rewrite sum1_card card_ord.
Qed.

(* the two-site tensor BB12 BB21 *)
Lemma bb_product o : tm_calc_BB_2s svd Y Vlh Vrh lsi rsi dD_max sv_tol = Some o ->
  exists2 w, svd_ok Y w & bD o = dDn w.1.2 sv_tol dD_max /\ let d := bD o in
  forall s t, bb12 o s *m bb21 o t =
    lsi *m (Vlh s)^† *m (colsN d w.1.1 *m diagN d w.1.2 *m rowsN d w.2) *m (Vrh t)^† *m rsi.
Proof.
rewrite /tm_calc_BB_2s; case e: (svd _) => [[[U sv] Vh]|] // [<-] /=.
exists (U, sv, Vh); first exact: svdP e.
split=> //= s t; have -> : diagN (dDn sv sv_tol dD_max) sv = sqrtN (dDn sv sv_tol dD_max) sv *m sqrtN (dDn sv sv_tol dD_max) sv.
  rewrite /sqrtN mulmx_diag /diagN; congr diag_mx; apply/rowP=> i; rewrite !mxE.
  by rewrite -expr2 sqrtCK.
by rewrite !mulmxA.
Qed.
End BBP.
