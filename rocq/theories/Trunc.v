(* Trunc.v -- model of simple_renorm (mps_gen.py:387-415), truncate (608-654), auto_truncate
   (552-605), schmidt_sq (721-744) and _update_after_truncate (656-682) of EvoMPS_MPS_Generic. *)
From mathcomp Require Import all_ssreflect all_algebra.
From mathcomp Require Import zify.
From Verif Require Import Base Spec Eps Chain ChainProofs ChainProofs2 LinAlg Canon Struct.
Set Implicit Arguments.
Unset Strict Implicit.
Unset Printing Implicit Defensive.
Import Order.TTheory GRing.Theory Num.Theory.
Local Open Scope ring_scope.

Section Renorm.
Variables (C : numClosedFieldType) (D : nat -> nat) (A : tensors C D) (N : nat).
(* the arrays self.l, self.r hold dense or structured matrices *)
Local Notation sbonds := (forall n, smat C (D n) (D n)).

(* norm = self.l[N][0, 0].real; indexing an eyemat or a simple_diag_matrix raises TypeError *)
Definition renorm_norm (l : sbonds) : option C :=
  match l N with SDense _ _ M => Some ('Re (entry0 M)) | _ => None end.
Definition simple_renorm (update_r : bool) (l r : sbonds) : option (tensors C D * sbonds * sbonds) :=
  if renorm_norm l is Some norm then
    let G_N := 1 / sqrtC norm in
    let A' := scale_site N.-1 G_N A in
    let l' := fun n => if n == N then sscale (l n) (1 / norm) else l n in
    let r' := fun n => if update_r && (n < N)%N then sscale (r n) (1 / norm) else r n in
    Some (A', l', r')
  else None.
End Renorm.

Section RenormP.
Variables (C : numClosedFieldType) (D q : nat -> nat) (A : tensors C D) (N : nat).
Local Notation sbonds := (forall n, smat C (D n) (D n)).
Local Notation arr := (fun (l : sbonds) n => toarray (l n)).

Lemma dotst_ampl : D 0%N = 1%N -> D N = 1%N ->
  dotst q N (psi A N) (psi A N) = \sum_(c <- cfgs q N 0) `|amplitude N A c| ^+ 2.
Proof.
move=> D0 DN; rewrite dotstE; apply: eq_bigr => c _.
by rewrite entry0_adot // -normCKC.
Qed.

Lemma entry0Z m n a (M : 'M[C]_(m, n)) : entry0 (a *: M) = a * entry0 M.
Proof.
rewrite /entry0 mulr_sumr; apply: eq_bigr => i _; rewrite mulr_sumr; apply: eq_bigr => j _.
by rewrite mxE.
Qed.

Lemma amplitude_scale a m c : (m < N)%N -> size c = N ->
  amplitude N (scale_site m a A) c = a * amplitude N A c.
Proof. by move=> mN sz; rewrite /amplitude /psi amp_scale_site sz add0n leq0n mN entry0Z. Qed.

Lemma lN_norm (l : forall n, 'M[C]_(D n)) : D 0%N = 1%N -> D N = 1%N -> up_l q A N 1%:M l ->
  entry0 (l N) = \sum_(c <- cfgs q N 0) `|amplitude N A c| ^+ 2.
Proof.
move=> D0 DN hl; rewrite (lE hl (leqnn N)) entry0_sum; apply: eq_bigr => c _.
by rewrite mulmx1 entry0M // entry0_adj normCKC.
Qed.

Lemma simple_renormP (l r : sbonds) (M : 'M[C]_(D N)) : (0 < N)%N -> D 0%N = 1%N -> D N = 1%N ->
  l N = SDense M -> up_to_date q A N (arr l) (arr r) ->
  let nrm := \sum_(c <- cfgs q N 0) `|amplitude N A c| ^+ 2 in nrm != 0 ->
  exists A' l' r', [/\ simple_renorm A N true l r = Some (A', l', r'),
    up_to_date q A' N (arr l') (arr r') &
    forall c, size c = N -> amplitude N A' c = amplitude N A c / sqrtC nrm].
Proof.
move=> N0 D0 DN lN [hl hr] nrm n0.
have nrmE : entry0 (arr l N) = nrm by apply: (lN_norm D0 DN hl).
have nrm_ge0 : 0 <= nrm by apply: sumr_ge0 => c _; rewrite exprn_ge0.
have rN : renorm_norm N l = Some nrm.
  rewrite /renorm_norm; have := nrmE; rewrite lN /= => ->.
  by congr Some; apply/Creal_ReP; exact: ger0_real.
rewrite /simple_renorm rN; set G := 1 / sqrtC nrm.
have GG : G * G^* = 1 / nrm.
  have Gr : G \is Num.real by rewrite /G realM ?realV ?real1 // ger0_real // sqrtC_ge0.
  by rewrite (CrealP Gr) /G !div1r -invfM -expr2 sqrtCK.
eexists; eexists; eexists; split=> [//||c sz]; last first.
  by rewrite amplitude_scale // ?prednK // mulrC /G div1r.
have eN n : (n == N.-1) = (n.+1 == N) by rewrite -(eqn_add2r 1) !addn1 prednK.
have [l0 hl'] := hl; have [rN' hr'] := hr; split; split.
- by rewrite (ltn_eqF N0) l0.
- move=> n nN; rewrite (ltn_eqF nN) /scale_site.
  rewrite eN; case: (eqVneq n.+1 N) => [e'|_]; last by rewrite hl'.
  rewrite sscaleE hl' // /eps_l_noop scaler_sumr; apply: eq_bigr => s _.
  by rewrite adjZ -!scalemxAr -!scalemxAl scalerA GG.
- by rewrite ltnn rN'.
- move=> n nN; rewrite nN /= sscaleE hr' // /scale_site.
  rewrite eN; case: (eqVneq n.+1 N) => [e'|nN'].
    have -> : (n.+1 < N)%N = false by rewrite e' ltnn.
    rewrite /eps_r_noop scaler_sumr; apply: eq_bigr => s _.
    by rewrite adjZ -!scalemxAr -!scalemxAl scalerA mulrC GG.
  by rewrite ltn_neqAle nN' nN /= sscaleE eps_r_noopZ.
Qed.

End RenormP.

(* ---- truncation ------------------------------------------------------------ *)
Section Truncate.
Variables (C : numClosedFieldType) (D D' : nat -> nat).

(* M[i, j] for arbitrary indices (zero outside; only used inside) *)
Definition getmx m n (M : 'M[C]_(m, n)) (i j : nat) : C :=
  if insub i is Some i' then if insub j is Some j' then M i' j' else 0 else 0.

(* self.A[n][:] = tmp_A[n][:, -D'[n-1]:, -D'[n]:]: last D'[n-1] rows and last D'[n] columns (for
   positive D') *)
Definition trunc_A (A : tensors C D) : tensors C D' := fun n s =>
  \matrix_(i, j) getmx (A n s) (D n - D' n + i) (D n.+1 - D' n.+1 + j).

(* truncate(new_D, update=False): AssertionError when a dimension grows; ValueError from max() of
   an empty array when nothing is truncated; for new_D[n] = 0 the slice "-0:" is the whole axis,
   which cannot be assigned to an axis of length 0 unless its length is 1 *)
Definition truncate (N : nat) (A : tensors C D) : option (tensors C D') :=
  if ~~ all (fun n => (D' n <= D n)%N) (iota 0 N.+1) then None
  else if all (fun n => D' n == D n) (iota 0 N.+1) then None
  else if has (fun n => (D' n == 0%N) && (1 < D n)%N) (iota 0 N.+1) then None
  else Some (trunc_A A).

(* the selection matrix of the last D' n basis vectors of bond n *)
Definition sel (n : nat) : 'M[C]_(D' n, D n) := \matrix_(i, j) ((j == D n - D' n + i :> nat)%N)%:R.

Lemma sel_mul n k (M : 'M[C]_(D n, k)) (i : 'I_(D' n)) j : (D' n <= D n)%N ->
  (sel n *m M) i j = getmx M (D n - D' n + i) j.
Proof.
move=> h; have hi : (D n - D' n + i < D n)%N by have := ltn_ord i; lia.
rewrite /getmx (insubT (fun x => x < D n)%N hi) valK mxE (bigD1 (Ordinal hi)) //= mxE eqxx mul1r.
by rewrite big1 ?addr0 // => k' kk; rewrite mxE -[(k' == _ :> nat)]/(k' == Ordinal hi) (negbTE kk) mul0r.
Qed.

Lemma trunc_AE (A : tensors C D) n s : (D' n <= D n)%N -> (D' n.+1 <= D n.+1)%N ->
  trunc_A A n s = sel n *m A n s *m (sel n.+1)^T.
Proof.
move=> h h'; apply/matrixP=> i j; rewrite mxE -mulmxA sel_mul // /getmx.
have hi : (D n - D' n + i < D n)%N by have := ltn_ord i; lia.
have hj : (D n.+1 - D' n.+1 + j < D n.+1)%N by have := ltn_ord j; lia.
rewrite (insubT (fun x => x < D n)%N hi) (insubT (fun x => x < D n.+1)%N hj) valK /=.
rewrite mxE (bigD1 (Ordinal hj)) //= !mxE eqxx mulr1.
by rewrite big1 ?addr0 // => k' kk; rewrite !mxE -[(k' == _ :> nat)]/(k' == Ordinal hj) (negbTE kk) mulr0.
Qed.

(* sel^T sel projects on the kept basis vectors *)
Lemma selP n i j : (D' n <= D n)%N ->
  ((sel n)^T *m sel n) i j = ((i == j) && (D n - D' n <= i)%N)%:R.
Proof.
move=> h; rewrite mxE; have [hi|hi] := boolP (D n - D' n <= i)%N; last first.
  rewrite andbF big1 // => k _; rewrite !mxE.
  rewrite (_ : (i == D n - D' n + k :> nat)%N = false) ?mul0r //.
  apply/eqP => e; move: hi; rewrite e; lia.
have lt : (i - (D n - D' n) < D' n)%N by have := ltn_ord i; lia.
rewrite (bigD1 (Ordinal lt)) //= !mxE /= subnKC // eqxx mul1r big1 ?addr0 => [|k kk].
  by rewrite andbT eq_sym.
rewrite !mxE (_ : (i == D n - D' n + k :> nat)%N = false) ?mul0r //.
apply/eqP => e; case/negP: kk; rewrite -val_eqE /= e; lia.
Qed.

Lemma sel_id n (e : D' n = D n) : (sel n)^T *m sel n = 1%:M.
Proof.
by apply/matrixP=> i j; rewrite selP ?e // subnn leq0n andbT !mxE.
Qed.

Lemma sel_selT n : (D' n <= D n)%N -> sel n *m (sel n)^T = 1%:M.
Proof.
move=> h; apply/matrixP=> i j; rewrite sel_mul // /getmx.
have hi : (D n - D' n + i < D n)%N by have := ltn_ord i; lia.
rewrite (insubT (fun x => x < D n)%N hi) valK !mxE /=.
by rewrite eqn_add2l.
Qed.
End Truncate.

Section TruncP.
Variables (C : numClosedFieldType) (D D' q : nat -> nat) (A : tensors C D) (N : nat).
Variable (l : forall n, 'M[C]_(D n)).
Hypothesis hl : up_l q A N 1%:M l.
Hypothesis leD : forall n, (n <= N)%N -> (D' n <= D n)%N.
(* every discarded diagonal entry of l is zero *)
Hypothesis zero : forall n (i : 'I_(D n)), (n <= N)%N -> (i < D n - D' n)%N -> l n i i = 0.

Lemma amp_col0 n (i : 'I_(D n)) c k : (n <= N)%N -> (i < D n - D' n)%N -> c \in cfgs q n 0 ->
  amp A n 0 c k i = 0.
Proof.
move=> nN hi hc; have := zero nN hi; rewrite (lE hl nN) summxE => /eqP.
rewrite psumr_eq0; last first.
  move=> d _; rewrite mulmx1 mxE; apply: sumr_ge0 => j _.
  by rewrite adjE mulrC mul_conjC_ge0.
move=> /allP/(_ c hc); rewrite /= mulmx1 mxE psumr_eq0; last first.
  by move=> j _; rewrite adjE mulrC mul_conjC_ge0.
by move=> /allP/(_ k); rewrite mem_index_enum adjE mulrC mul_conjC_eq0 => /(_ isT)/eqP.
Qed.

Lemma amp_sel n c : (n <= N)%N -> c \in cfgs q n 0 ->
  amp A n 0 c *m ((sel C D D' n)^T *m sel C D D' n) = amp A n 0 c.
Proof.
move=> nN hc; apply/matrixP=> i j; rewrite mxE.
rewrite (bigD1 j) //= selP ?leD // eqxx /= big1 ?addr0; last first.
  by move=> k kj; rewrite selP ?leD // (negbTE kj) mulr0.
case: leqP => h; rewrite ?mulr1 // mulr0.
by rewrite (amp_col0 _ nN h hc).
Qed.

Lemma trunc_amp n c : (n <= N)%N -> D' 0%N = D 0%N -> c \in cfgs q n 0 ->
  (sel C D D' 0)^T *m amp (trunc_A D' A) n 0 c = amp A n 0 c *m (sel C D D' n)^T.
Proof.
move=> nN e0; elim: n c nN => [|n IH] c nN hc.
  move: hc => /cfgsP[/size0nil-> _] /=.
  by rewrite !pid_mx_1 mulmx1 mul1mx.
have sz := size_cfgs hc; case/lastP: c hc sz => // c s hc; rewrite size_rcons => -[sz].
have hc' : c \in cfgs q n 0.
  apply/cfgsP; split=> // i ic; case/cfgsP: hc => _ /(_ i); rewrite nth_rcons sz ic; apply; lia.
rewrite !amp_rcons ?sz // mulmxA IH ?(ltnW nN) // trunc_AE ?leD ?(ltnW nN) //.
rewrite !mulmxA -(mulmxA (amp A n 0 c)).
by rewrite amp_sel ?(ltnW nN).
Qed.

(* dropping zero Schmidt vectors changes nothing *)
Lemma trunc_zeroP c : D 0%N = 1%N -> D N = 1%N -> D' 0%N = 1%N -> D' N = 1%N ->
  c \in cfgs q N 0 -> amplitude N (trunc_A D' A) c = amplitude N A c.
Proof.
move=> D0 DN D'0 D'N hc.
have e1 n : D n = 1%N -> D' n = 1%N -> entry0 (sel C D D' n)^T = 1.
  by move=> h h'; rewrite (entry0_1 _ h h') !mxE /= h h'.
have := congr1 (@entry0 C _ _) (trunc_amp (leqnn N) (etrans D'0 (esym D0)) hc).
by rewrite !entry0M // !e1 // mul1r mulr1.
Qed.
End TruncP.

(* single-bond truncation in right canonical form *)
Section TruncOne.
Variables (C : numClosedFieldType) (D D' q : nat -> nat) (A : tensors C D) (N m : nat).
Variable (l r : forall n, 'M[C]_(D n)).
Hypothesis (hl : up_l q A N 1%:M l) (hr : up_r q A N 1%:M r).
Hypothesis (mN : (m <= N)%N) (leD : (D' m <= D m)%N) (eqD : forall n, n != m -> D' n = D n).

(* the truncated amplitude inserts the projector at bond m *)
Lemma trunc_one_amp c : (0 < m < N)%N -> D 0%N = 1%N -> D N = 1%N -> c \in cfgs q N 0 ->
  amplitude N (trunc_A D' A) c =
  entry0 (amp A m 0 (take m c) *m ((sel C D D' m)^T *m sel C D D' m) *m amp A N m (drop m c)).
Proof.
move=> /andP[m0 mlt] D0 DN hc; have sz := size_cfgs hc.
have le n : (D' n <= D n)%N by have [->//|/eqD->] := eqVneq n m.
have e1 n : n != m -> D n = 1%N -> entry0 (sel C D D' n)^T = 1.
  by move=> nm h; rewrite (entry0_1 _ h (etrans (eqD nm) h)) !mxE /= eqD // h.
have e2 n : n != m -> D n = 1%N -> entry0 (sel C D D' n) = 1.
  by move=> nm h; rewrite (entry0_1 _ (etrans (eqD nm) h) h) !mxE /= eqD // h.
have n0m : 0%N != m by rewrite eq_sym -lt0n.
have nNm : N != m by rewrite neq_ltn mlt orbT.
have id n : n != m -> (sel C D D' n)^T *m sel C D D' n = 1%:M by move=> h; apply: sel_id; apply: eqD.
have id' n : n != m -> sel C D D' n *m (sel C D D' n)^T = 1%:M by move=> h; apply: sel_selT.
(* left part *)
have L n d : (n <= m)%N -> size d = n ->
    (sel C D D' 0)^T *m amp (trunc_A D' A) n 0 d = amp A n 0 d *m (sel C D D' n)^T.
  elim: n d => [|n IH] d nm szd.
    by move: szd => /size0nil ->; rewrite /= !pid_mx_1 mulmx1 mul1mx.
  case/lastP: d szd => // d s; rewrite size_rcons => -[szd].
  rewrite !amp_rcons ?szd // mulmxA IH ?(ltnW nm) // trunc_AE //.
  by rewrite !mulmxA -(mulmxA (amp A n 0 d)) id ?mulmx1 // ltn_eqF.
have R n d : (m <= n)%N -> (n + size d)%N = N ->
    amp (trunc_A D' A) N n d *m sel C D D' N = sel C D D' n *m amp A N n d.
  elim: d n => [|s d IH] n mn /=.
    by rewrite addn0 => <-; rewrite !pid_mx_1 mulmx1 mul1mx.
  rewrite addnS -addSn => szd; rewrite -mulmxA IH // ?leqW // trunc_AE //.
  by rewrite -!mulmxA (mulmxA _ (sel C D D' n.+1)) id ?mul1mx // gtn_eqF.
have e : c = take m c ++ drop m c by rewrite cat_take_drop.
have sz1 : size (take m c) = m by rewrite size_takel // sz.
rewrite /amplitude /psi {1}e (amp_cat _ _ _ (p := m)) ?sz1 //.
rewrite -[LHS]mul1r -(e1 0%N n0m D0) -[LHS]mulr1 -(e2 N nNm DN) -!entry0M ?eqD //.
rewrite mulmxA (L m) // -!mulmxA R //; last by rewrite size_drop sz; lia.
Qed.
End TruncOne.

Lemma entry0_tr (C : numClosedFieldType) n (X : 'M[C]_n) : n = 1%N -> entry0 X = \tr X.
Proof.
move=> e; move: X; rewrite e => X.
by rewrite /entry0 /mxtrace big_mkcond big_ord1 /= big_mkcond !big_ord1.
Qed.

(* inserting a matrix at one bond *)
Section BondInsert.
Variables (C : numClosedFieldType) (D q : nat -> nat) (A : tensors C D) (N m : nat).
Variable (l r : forall n, 'M[C]_(D n)).
Hypothesis (hl : up_l q A N 1%:M l) (hr : up_r q A N 1%:M r).
Hypothesis (mN : (m <= N)%N).

Lemma bond_ins (Q : 'M[C]_(D m)) : D 0%N = 1%N -> D N = 1%N ->
  \sum_(c <- cfgs q N 0) `|entry0 (amp A m 0 (take m c) *m Q *m amp A N m (drop m c))| ^+ 2 =
  \tr (Q *m r m *m Q^† *m l m).
Proof.
move=> D0 DN; have eN : N = (m + (N - m))%N by rewrite subnKC.
transitivity (\sum_(c <- cfgs q (m + (N - m)) 0)
  `|entry0 (amp A m 0 (take m c) *m Q *m amp A N m (drop m c))| ^+ 2); first by rewrite -eN.
rewrite sum_cfgs_cat addn0 (rE hr (esym eN)) (lE hl mN) mulmx_sumr raddf_sum /=.
apply: eq_big_seq => c1 /size_cfgs sz1.
rewrite mulmx1 mulmx_sumr !mulmx_suml raddf_sum /=.
apply: eq_big_seq => c2 _; rewrite mulmx1 take_size_cat // drop_size_cat //.
rewrite normCK -entry0_adj -entry0M // !adjM.
rewrite (_ : entry0 _ = \tr (amp A m 0 c1 *m Q *m amp A N m c2 *m
   ((amp A N m c2)^† *m (Q^† *m (amp A m 0 c1)^†)))).
  by rewrite -!mulmxA mxtrace_mulC -!mulmxA.
exact: entry0_tr.
Qed.
End BondInsert.

(* truncation of several bonds in right canonical form: the error is at most twice the discarded
   weight *)
Section TruncMany.
Variables (C : numClosedFieldType) (D D' q : nat -> nat) (A : tensors C D) (N : nat).
Variable (l : forall n, 'M[C]_(D n)).
Hypothesis (hl : up_l q A N 1%:M l).
Hypothesis (ldiag : forall n (i j : 'I_(D n)), (n <= N)%N -> i != j -> l n i j = 0).
Hypothesis (hr : forall n, (n < N)%N -> \sum_(s < q n) A n s *m (A n s)^† = 1%:M).
Hypothesis (leD : forall n, (n <= N)%N -> (D' n <= D n)%N).
Hypothesis (D'0 : D' 0%N = D 0%N).

Let P n : 'M[C]_(D n) := (sel C D D' n)^T *m sel C D D' n.
Let Q n : 'M[C]_(D n) := 1%:M - P n.
Let B : tensors C D := fun n s => A n s *m P n.+1.
Let a n c := amp A n 0 c.
Let b n c := amp B n 0 c.
Let l' n : 'M[C]_(D n) := \sum_(c <- cfgs q n 0) (b n c)^† *m b n c.
Let Y n : 'M[C]_(D n) := \sum_(c <- cfgs q n 0) (a n c)^† *m b n c.
Let E n (X : 'M[C]_(D n)) : 'M[C]_(D n.+1) := \sum_(s < q n) (A n s)^† *m X *m A n s.
Definition discarded n : C := \sum_(i < D n | (i < D n - D' n)%N) l n i i.

Lemma Padj n : (n <= N)%N -> (P n)^† = P n.
Proof.
move=> nN; apply/matrixP=> i j; rewrite adjE /P !selP ?leD // conjC_nat.
by case: eqVneq => [->|]; rewrite ?eqxx // eq_sym => /negbTE->.
Qed.
Lemma PP n : (n <= N)%N -> P n *m P n = P n.
Proof. by move=> nN; rewrite /P mulmxA -(mulmxA (sel C D D' n)^T) sel_selT ?leD // mulmx1. Qed.
Lemma Qadj n : (n <= N)%N -> (Q n)^† = Q n.
Proof. by move=> nN; rewrite adjB adj1 Padj. Qed.
Lemma QQ n : (n <= N)%N -> Q n *m Q n = Q n.
Proof. by move=> nN; rewrite /Q mulmxBl mul1mx mulmxBr mulmx1 PP // subrr subr0. Qed.
Lemma P0 : P 0 = 1%:M. Proof. by rewrite /P sel_id. Qed.

Lemma QE n i j : (n <= N)%N -> Q n i j = ((i == j) && (i < D n - D' n)%N)%:R.
Proof.
move=> nN; rewrite /Q 3!mxE selP ?leD // ltnNge.
by case: (i == j); case: (_ <= _)%N; rewrite /= ?subrr ?subr0 ?oppr0 ?addr0.
Qed.

Lemma trQ n (X : 'M[C]_(D n)) : (n <= N)%N ->
  \tr (X *m Q n) = \sum_(i < D n | (i < D n - D' n)%N) X i i.
Proof.
move=> nN; rewrite /mxtrace [RHS]big_mkcond; apply: eq_bigr => i _.
rewrite mxE (bigD1 i) //= big1 ?addr0 => [|j ji]; rewrite QE //.
  by rewrite eqxx /=; case: ifP; rewrite ?mulr1 ?mulr0.
by rewrite (negbTE ji) mulr0.
Qed.

Lemma adotQ k n (X Z : 'M[C]_(k, D n)) : (n <= N)%N ->
  adot (X *m Q n) (Z *m Q n) = \tr (X^† *m Z *m Q n).
Proof.
by move=> nN; rewrite adotE adjM Qadj // -mulmxA mxtrace_mulC -!mulmxA QQ // mulmxA.
Qed.

Lemma aS n c s : c \in cfgs q n 0 -> a n.+1 (rcons c s) = a n c *m A n s.
Proof. by move=> /size_cfgs sz; rewrite /a amp_rcons ?sz. Qed.
Lemma bS n c s : c \in cfgs q n 0 -> b n.+1 (rcons c s) = b n c *m A n s *m P n.+1.
Proof. by move=> /size_cfgs sz; rewrite /b amp_rcons ?sz // /B mulmxA. Qed.
Lemma bP n c : c \in cfgs q n 0 -> (n <= N)%N -> b n c *m P n = b n c.
Proof.
case: n => [|n] hc nN; first by rewrite P0 mulmx1.
have sz := size_cfgs hc; case/lastP: c hc sz => // c s hc; rewrite size_rcons => -[sz].
by rewrite /b amp_rcons ?sz // /B mulmxA -mulmxA PP.
Qed.

Lemma sum_rec n (F : seq nat -> 'M[C]_(D n.+1)) (G : seq nat -> nat -> 'M[C]_(D n.+1)) :
  (forall c s, c \in cfgs q n 0 -> F (rcons c s) = G c s) ->
  \sum_(c <- cfgs q n.+1 0) F c = \sum_(s < q n) \sum_(c <- cfgs q n 0) G c s.
Proof.
move=> h; rewrite sum_cfgs_rcons addn0 exchange_big /=.
by apply: eq_bigr => s _; apply: eq_big_seq => c hc; rewrite h.
Qed.

Lemma lS n : (n < N)%N -> l n.+1 = E (l n).
Proof. by move=> nN; case: hl => _ h; rewrite (h n nN); apply: eq_bigr => s _; rewrite mulmxA. Qed.
Lemma YS n : (n < N)%N -> Y n.+1 = E (Y n) *m P n.+1.
Proof.
move=> nN; rewrite /Y (sum_rec (G := fun c s => (A n s)^† *m ((a n c)^† *m b n c) *m A n s *m P n.+1)).
  rewrite /E mulmx_suml; apply: eq_bigr => s _.
  by rewrite mulmx_sumr !mulmx_suml.
by move=> c s hc; rewrite aS // bS // adjM !mulmxA.
Qed.
Lemma l'S n : (n < N)%N -> l' n.+1 = P n.+1 *m E (l' n) *m P n.+1.
Proof.
move=> nN; rewrite /l' (sum_rec (G := fun c s =>
  P n.+1 *m ((A n s)^† *m ((b n c)^† *m b n c) *m A n s) *m P n.+1)).
  rewrite /E mulmx_sumr mulmx_suml; apply: eq_bigr => s _.
  by rewrite !mulmx_sumr !mulmx_suml mulmx_sumr mulmx_suml.
by move=> c s hc; rewrite bS // (adjM _ (P n.+1)) adjM Padj // !mulmxA.
Qed.

Lemma psd_add n (X Z : 'M[C]_n) : psd X -> psd Z -> psd (X + Z).
Proof. by move=> h k v; rewrite mulmxDl adotDr addr_ge0. Qed.

Lemma E_psd n (X : 'M[C]_(D n)) : psd X -> psd (E X).
Proof. by move=> h; apply: psd_sum => s _; apply: psd_sandwich. Qed.
Lemma EB n (X Z : 'M[C]_(D n)) : E (X - Z) = E X - E Z.
Proof.
by rewrite /E -sumrB; apply: eq_bigr => s _; rewrite mulmxBr mulmxBl.
Qed.

Lemma lPl n : (n <= N)%N -> l n *m P n = P n *m l n.
Proof.
move=> nN; apply/matrixP=> i j; rewrite !mxE (bigD1 j) //= [RHS](bigD1 i) //=.
rewrite !big1 ?addr0 => [|k kj|k kj].
- rewrite /P !selP ?leD // !eqxx /=.
  by have [->|ij] := eqVneq i j; [rewrite mulrC | rewrite ldiag // mul0r mulr0].
- by rewrite /P selP ?leD // eq_sym (negbTE kj) mul0r.
- by rewrite /P selP ?leD // (negbTE kj) mulr0.
Qed.

Lemma ll'_psd n : (n <= N)%N -> psd (l n - l' n).
Proof.
elim: n => [|n IH] nN.
  rewrite /l' sum_cfgs0 /b /= pid_mx_1 adj1 mul1mx; case: hl => -> _.
  by rewrite subrr => v; rewrite mul0mx adot0r.
have -> : l n.+1 - l' n.+1 =
    (Q n.+1)^† *m l n.+1 *m Q n.+1 + (P n.+1)^† *m E (l n - l' n) *m P n.+1.
  rewrite Qadj // Padj // EB -lS // (mulmxBr (P n.+1)) (mulmxBl (P n.+1 *m l n.+1)) l'S // addrA; congr (_ - _).
  have e : P n.+1 *m l n.+1 *m P n.+1 = l n.+1 *m P n.+1 by rewrite -lPl // -mulmxA PP.
  by rewrite /Q mulmxBl mul1mx mulmxBr mulmx1 mulmxBl e -lPl // subrr subr0 subrK.
apply: psd_add; apply: psd_sandwich; first by exact: l_psd hl nN.
by apply: E_psd; apply: IH; exact: ltnW.
Qed.

Lemma trE n (X : 'M[C]_(D n)) : (n < N)%N -> \tr (E X) = \tr X.
Proof.
move=> nN; rewrite /E raddf_sum /=.
transitivity (\tr (X *m \sum_(s < q n) A n s *m (A n s)^†)); last by rewrite hr // mulmx1.
rewrite mulmx_sumr raddf_sum /=; apply: eq_bigr => s _.
by rewrite -mulmxA mxtrace_mulC -mulmxA.
Qed.

Lemma re_adot m n (X Z : 'M[C]_(m, n)) : 'Re (adot X Z) *+ 2 <= adot X X + adot Z Z.
Proof.
rewrite -subr_ge0; have := adot_ge0 (X - Z).
rewrite !(adotBl, adotBr) (adotC Z X).
suff -> : 'Re (adot X Z) *+ 2 = adot X Z + (adot X Z)^*.
  by congr (0 <= _); rewrite opprB !opprD addrACA addrC -!addrA; congr (_ + _); rewrite addrC addrA.
by rewrite ReE -mulr_natr mulfVK // pnatr_eq0.
Qed.

Lemma ReD (x y : C) : 'Re (x + y) = 'Re x + 'Re y.
Proof. exact: raddfD. Qed.

(* one more truncated bond costs at most its discarded weight *)
Lemma step_bound n : (n < N)%N ->
  'Re (\tr (l n.+1 - Y n.+1)) *+ 2 <= 'Re (\tr (l n - Y n)) *+ 2 + discarded n.+1 *+ 2.
Proof.
move=> nN.
have -> : l n.+1 - Y n.+1 = E (l n - Y n) + E (Y n) *m Q n.+1.
  by rewrite EB lS // YS // /Q mulmxBr mulmx1 addrA subrK.
rewrite mxtraceD trE // ReD mulrnDl ler_add2l.
have -> : \tr (E (Y n) *m Q n.+1) =
    \sum_(s < q n) \sum_(c <- cfgs q n 0) adot (a n c *m A n s *m Q n.+1) (b n c *m A n s *m Q n.+1).
  rewrite /E mulmx_suml raddf_sum; apply: eq_bigr => s _ /=.
  rewrite /Y mulmx_sumr !mulmx_suml raddf_sum; apply: eq_bigr => c _ /=.
  by rewrite adotQ // adjM !mulmxA.
have h1 : \sum_(s < q n) \sum_(c <- cfgs q n 0) adot (a n c *m A n s *m Q n.+1) (a n c *m A n s *m Q n.+1)
   = discarded n.+1.
  rewrite /discarded -trQ // lS // /E mulmx_suml raddf_sum; apply: eq_bigr => s _ /=.
  rewrite (lE hl (ltnW nN)) mulmx_sumr !mulmx_suml raddf_sum; apply: eq_bigr => c _ /=.
  by rewrite mulmx1 adotQ // adjM !mulmxA.
have h2 : \sum_(s < q n) \sum_(c <- cfgs q n 0) adot (b n c *m A n s *m Q n.+1) (b n c *m A n s *m Q n.+1)
   <= discarded n.+1.
  rewrite (_ : \sum_(s < q n) _ = \tr (E (l' n) *m Q n.+1)).
    rewrite trQ // /discarded lS //; apply: ler_sum => i _.
    rewrite -subr_ge0; have := psd_diag_ge0 i (E_psd (ll'_psd (ltnW nN))).
    by rewrite EB !mxE.
  rewrite /E mulmx_suml raddf_sum; apply: eq_bigr => s _ /=.
  rewrite /l' mulmx_sumr !mulmx_suml raddf_sum; apply: eq_bigr => c _ /=.
  by rewrite adotQ // adjM !mulmxA.
rewrite raddf_sum [in X in _ <= X]mulr2n -{1}h1.
apply: le_trans (_ : _ <= \sum_(s < q n) \sum_(c <- cfgs q n 0) adot (a n c *m A n s *m Q n.+1) (a n c *m A n s *m Q n.+1) +
   \sum_(s < q n) \sum_(c <- cfgs q n 0) adot (b n c *m A n s *m Q n.+1) (b n c *m A n s *m Q n.+1)) _.
  rewrite -sumrMnl -big_split /=; apply: ler_sum => s _.
  rewrite raddf_sum -sumrMnl -big_split /=; apply: ler_sum => c _.
  exact: re_adot.
by rewrite ler_add2l.
Qed.

Lemma trunc_bound : 
  \sum_(c <- cfgs q N 0) adot (a N c - b N c) (a N c - b N c) <=
  (\sum_(1 <= n < N.+1) discarded n) *+ 2.
Proof.
have h n : (n <= N)%N -> 'Re (\tr (l n - Y n)) *+ 2 <= (\sum_(1 <= k < n.+1) discarded k) *+ 2.
  elim: n => [|n IH] nN.
    rewrite big_geq // mul0rn /Y sum_cfgs0 /a /b /= pid_mx_1 adj1 mul1mx; case: hl => -> _.
    by rewrite subrr raddf0 (raddf0 [additive of _]) mul0rn.
  apply: le_trans (step_bound nN) _.
  by rewrite [X in _ <= X *+ 2]big_nat_recr //= mulrnDl ler_add2r; apply: IH; exact: ltnW.
apply: le_trans (h N (leqnn N)).
have -> : \sum_(c <- cfgs q N 0) adot (a N c - b N c) (a N c - b N c) =
  \tr (l N) + \tr (l' N) - 'Re (\tr (Y N)) *+ 2.
  have e1 : \tr (l N) = \sum_(c <- cfgs q N 0) adot (a N c) (a N c).
    by rewrite (lE hl (leqnn N)) raddf_sum; apply: eq_bigr => c _; rewrite adotE mulmx1.
  have e2 : \tr (l' N) = \sum_(c <- cfgs q N 0) adot (b N c) (b N c).
    by rewrite raddf_sum; apply: eq_bigr => c _; rewrite adotE.
  have e3 : 'Re (\tr (Y N)) = \sum_(c <- cfgs q N 0) 'Re (adot (a N c) (b N c)).
    rewrite (_ : \tr (Y N) = \sum_(c <- cfgs q N 0) adot (a N c) (b N c)) ?raddf_sum //.
    by apply: eq_bigr => c _; rewrite adotE.
  rewrite e1 e2 e3 -sumrMnl -big_split -sumrB /=.
  apply: eq_bigr => c _; rewrite !(adotBl, adotBr) (adotC (b N c)).
  have -> : 'Re (adot (a N c) (b N c)) *+ 2 = adot (a N c) (b N c) + (adot (a N c) (b N c))^*.
    by rewrite ReE -mulr_natr mulfVK // pnatr_eq0.
  by rewrite opprB opprD addrACA addrC -!addrA; congr (_ + _); rewrite addrC -addrA.
have lreal : 'Re (\tr (l N)) = \tr (l N).
  apply/Creal_ReP; apply: rpred_sum => i _; apply: ger0_real; apply: psd_diag_ge0.
  exact: l_psd hl (leqnn N).
rewrite raddfB /= (raddfB [additive of _]) /= lreal mulrnBl ler_add2r mulr2n ler_add2l -subr_ge0 -raddfB.
by apply: sumr_ge0 => i _; apply: psd_diag_ge0; exact: ll'_psd.
Qed.

Lemma trunc_b n c : (n <= N)%N -> c \in cfgs q n 0 ->
  (sel C D D' 0)^T *m amp (trunc_A D' A) n 0 c = b n c *m (sel C D D' n)^T.
Proof.
elim: n c => [|n IH] c nN hc.
  move: hc => /cfgsP[/size0nil-> _] /=.
  by rewrite /b /= !pid_mx_1 mulmx1 mul1mx.
have sz := size_cfgs hc; case/lastP: c hc sz => // c s hc; rewrite size_rcons => -[sz].
have hc' : c \in cfgs q n 0.
  apply/cfgsP; split=> // i ic; case/cfgsP: hc => _ /(_ i); rewrite nth_rcons sz ic; apply; lia.
rewrite bS // amp_rcons ?sz // mulmxA IH ?(ltnW nN) // trunc_AE ?leD ?(ltnW nN) //.
rewrite !mulmxA -(mulmxA (b n c)) -/(P n) bP ?(ltnW nN) //.
by rewrite -!mulmxA sel_selT ?leD // mulmx1.
Qed.
End TruncMany.

(* mirror image: discarding bond indices of zero r-weight *)
Section TruncR.
Variables (C : numClosedFieldType) (D D' q : nat -> nat) (A : tensors C D) (N : nat).
Variable (r : forall n, 'M[C]_(D n)).
Hypothesis hr : up_r q A N 1%:M r.
Hypothesis leD : forall n, (n <= N)%N -> (D' n <= D n)%N.
Hypothesis zero : forall n (i : 'I_(D n)), (n <= N)%N -> (i < D n - D' n)%N -> r n i i = 0.

Lemma amp_row0 n (i : 'I_(D n)) c k : (n <= N)%N -> (i < D n - D' n)%N -> c \in cfgs q (N - n) n ->
  amp A N n c i k = 0.
Proof.
move=> nN hi hc; have := zero nN hi; rewrite (rE hr (subnKC nN)) summxE => /eqP.
rewrite psumr_eq0; last first.
  move=> d _; rewrite mulmx1 mxE; apply: sumr_ge0 => j _.
  by rewrite adjE mul_conjC_ge0.
move=> /allP/(_ c hc); rewrite /= mulmx1 mxE psumr_eq0; last first.
  by move=> j _; rewrite adjE mul_conjC_ge0.
by move=> /allP/(_ k); rewrite mem_index_enum adjE mul_conjC_eq0 => /(_ isT)/eqP.
Qed.

Lemma sel_amp n c : (n <= N)%N -> c \in cfgs q (N - n) n ->
  (sel C D D' n)^T *m sel C D D' n *m amp A N n c = amp A N n c.
Proof.
move=> nN hc; apply/matrixP=> i j; rewrite mxE.
rewrite (bigD1 i) //= selP ?leD // eqxx /= big1 ?addr0; last first.
  by move=> k kj; rewrite selP ?leD // eq_sym (negbTE kj) mul0r.
case: leqP => h; rewrite ?mul1r // mul0r.
by rewrite (amp_row0 _ nN h hc).
Qed.

Lemma trunc_ampr k n c : (n + k)%N = N -> D' N = D N -> c \in cfgs q k n ->
  amp (trunc_A D' A) N n c *m sel C D D' N = sel C D D' n *m amp A N n c.
Proof.
move=> + eN; elim: k n c => [|k IH] n c nk hc.
  move: hc => /cfgsP[/size0nil-> _] /=; rewrite addn0 in nk; rewrite -nk.
  by rewrite !pid_mx_1 mulmx1 mul1mx.
have sz := size_cfgs hc; case: c hc sz => // s c hc [sz].
have hc' : c \in cfgs q k n.+1.
  apply/cfgsP; split=> // i ic; case/cfgsP: hc => _ /(_ i.+1); rewrite /= addnS -addSn; apply; lia.
rewrite addnS -addSn in nk.
have nN : (n < N)%N by rewrite -nk leq_addr.
have kN : (N - n.+1 = k)%N by rewrite -nk addKn.
rewrite /= -mulmxA IH // trunc_AE ?leD ?(ltnW nN) //.
by rewrite -!mulmxA (mulmxA _ (sel C D D' n.+1)) sel_amp ?kN.
Qed.

Lemma trunc_zero_rP c : D 0%N = 1%N -> D N = 1%N -> D' 0%N = 1%N -> D' N = 1%N ->
  c \in cfgs q N 0 -> amplitude N (trunc_A D' A) c = amplitude N A c.
Proof.
move=> D0 DN D'0 D'N hc.
have e1 n : D n = 1%N -> D' n = 1%N -> entry0 (sel C D D' n) = 1.
  by move=> h h'; rewrite (entry0_1 _ h' h) !mxE /= h h'.
have := congr1 (@entry0 C _ _) (trunc_ampr (add0n N) (etrans D'N (esym DN)) hc).
by rewrite !entry0M // !e1 // mul1r mulr1.
Qed.
End TruncR.

(* ---- auto_truncate --------------------------------------------------------- *)
Section Auto.
Variables (C : numClosedFieldType) (D : nat -> nat) (N : nat).
(* new_D[n] = count_nonzero(abs(x[n].diag) > zero_tol) for n = 1..N; new_D[0] = D[0]; x is self.l
   (canonical_form 'right') or self.r ('left') *)
Definition auto_D (zero_tol : C) (x : forall n, 'M[C]_(D n)) (n : nat) : nat :=
  if (n == 0%N) || (N < n)%N then D n
  else count (fun i : 'I_(D n) => zero_tol < `|x n i i|) (enum 'I_(D n)).

(* auto_truncate (mps_gen.py:552-605) with update=False: inl = returned False with the tensors
   unchanged, inr = truncated *)
Definition auto_truncate (zero_tol : C) (x : forall n, 'M[C]_(D n)) (A : tensors C D) :
    option (tensors C D + tensors C (auto_D zero_tol x)) :=
  if all (fun n => auto_D zero_tol x n == D n) (iota 0 N.+1) then Some (inl A)
  else omap inr (truncate (auto_D zero_tol x) N A).

Lemma auto_D_le tol x n : (auto_D tol x n <= D n)%N.
Proof.
rewrite /auto_D; case: ifP => // _.
by rewrite (leq_trans (count_size _ _)) // size_enum_ord.
Qed.

(* with a sorted diagonal the kept (last) entries are exactly those above the tolerance *)
Lemma sorted_count n (d : 'I_n -> C) (tol : C) (i : 'I_n) : tol \is Num.real ->
  (forall i, d i \is Num.real) -> (forall i j : 'I_n, (i <= j)%N -> d i <= d j) ->
  (i < n - count (fun i => tol < d i)%R (enum 'I_n))%N = (d i <= tol).
Proof.
move=> tr dr hs; set k := count _ _.
have kn : (k <= n)%N by rewrite (leq_trans (count_size _ _)) // size_enum_ord.
apply/idP/idP => [|h].
  apply: contraTT; rewrite real_leNgt // negbK => h.
  rewrite -leqNgt leq_subLR /k -[X in (X <= _)%N](size_enum_ord n).
  rewrite -(count_predC (fun i => tol < d i)) leq_add2l.
  rewrite (leq_trans (n := count (fun j : 'I_n => (j < i)%N) (enum 'I_n))) //.
    apply: sub_count => j /=; apply: contraR; rewrite -leqNgt => ij.
    exact: lt_le_trans h (hs _ _ ij).
  rewrite -(count_map (val : 'I_n -> nat) (fun j => j < i)%N) val_enum_ord.
  rewrite -[X in (_ <= X)%N](size_iota 0 i) -size_filter.
  apply: uniq_leq_size; first by rewrite filter_uniq // iota_uniq.
  by move=> j; rewrite mem_filter !mem_iota /= add0n => /andP[->].
rewrite ltn_subRL addnC -[X in (_ < X)%N](size_enum_ord n) -(count_predC (fun i => tol < d i)).
rewrite addnC ltn_add2l.
rewrite (leq_trans (n := count (fun j : 'I_n => (j <= i)%N) (enum 'I_n))) //.
  rewrite -(count_map (val : 'I_n -> nat) (fun j => j <= i)%N) val_enum_ord.
  rewrite -[X in (X <= _)%N](size_iota 0 i.+1) -size_filter.
  apply: uniq_leq_size; first by rewrite iota_uniq.
  move=> j; rewrite mem_filter !mem_iota /= !add0n => ji; rewrite -ltnS ji /=.
  by apply: leq_trans ji _.
apply: sub_count => j /= ij; rewrite -real_leNgt //.
by apply: le_trans (hs _ _ ij) h.
Qed.

Lemma auto_D_dropped tol (x : forall n, 'M[C]_(D n)) n (i : 'I_(D n)) : (0 < n <= N)%N -> tol \is Num.real ->
  (forall i, 0 <= x n i i) -> (forall i j : 'I_(D n), (i <= j)%N -> x n i i <= x n j j) ->
  (i < D n - auto_D tol x n)%N = (x n i i <= tol).
Proof.
move=> /andP[n0 nN] tr x0 xs; rewrite /auto_D (gtn_eqF n0) [(N < n)%N]ltnNge nN /=.
rewrite -(@sorted_count (D n) (fun i => x n i i)) //; last by move=> j; apply: ger0_real.
by congr (_ < _ - _)%N; apply: eq_count => j; rewrite /= ger0_norm.
Qed.
End Auto.

(* ---- schmidt_sq ------------------------------------------------------------ *)
Section Schmidt.
Variables (C : numClosedFieldType).
(* la.eigvals: some list of the n eigenvalues *)
Definition eigvals_routine := forall n, 'M[C]_n -> 'rV[C]_n.
Definition eigvals_contract (eigvals : eigvals_routine) :=
  forall n (M : 'M[C]_n), char_poly M = \prod_i ('X - (eigvals n M 0 i)%:P).

(* schmidt_sq (mps_gen.py:721-744) *)
Definition schmidt_sq (eigvals : eigvals_routine) n (l r : smat C n n) : 'rV[C]_n :=
  match mmul2 l r in smat _ m k return 'rV[C]_k -> 'rV[C]_k with
  | SDiag _ d => fun _ => d
  | _ => fun e => e
  end (eigvals n (toarray (mmul2 l r))).

Lemma schmidt_sq_diag eigvals n (d : 'rV[C]_n) : schmidt_sq eigvals (SDiag d) (SEye C n) = d.
Proof. by []. Qed.

Lemma eigvals_exists n (M : 'M[C]_n) : exists e : 'rV[C]_n, char_poly M == \prod_i ('X - (e 0 i)%:P).
Proof.
have [s hs] := closed_field_poly_normal (char_poly M).
have lc : lead_coef (char_poly M) = 1 by apply/eqP; exact: char_poly_monic.
rewrite lc scale1r in hs.
have sz : size s = n by have := size_char_poly M; rewrite hs size_prod_XsubC => -[].
exists (\row_i nth 0 s i); rewrite hs (big_nth 0) sz big_mkord; apply/eqP/eq_bigr => i _.
by rewrite mxE.
Qed.
Definition eigvals0 : eigvals_routine := fun n M => xchoose (eigvals_exists M).
Lemma eigvals0_ok : eigvals_contract eigvals0.
Proof. by move=> n M; apply/eqP; exact: (xchooseP (eigvals_exists M)). Qed.
End Schmidt.

Section SchmidtP.
Variables (C : numClosedFieldType) (D q : nat -> nat) (A : tensors C D) (N m k : nat).
Variables (l r : forall n, 'M[C]_(D n)).
Hypotheses (hl : up_l q A N 1%:M l) (hr : up_r q A N 1%:M r) (mk : (m + k)%N = N).
Hypotheses (D0 : D 0%N = 1%N) (DN : D N = 1%N).

(* the reduced density matrix of the first m sites, from the amplitudes alone *)
Definition rho_left (c c' : seq nat) : C :=
  \sum_(d <- cfgs q k m) amplitude N A (c ++ d) * (amplitude N A (c' ++ d))^*.

Lemma rho_leftE c c' : size c = m -> size c' = m ->
  rho_left c c' = entry0 (amp A m 0 c *m r m *m (amp A m 0 c')^†).
Proof.
move=> sz sz'; rewrite (rE hr mk) mulmx_sumr mulmx_suml entry0_sum; apply: eq_bigr => d _.
rewrite /amplitude /psi (amp_cat _ _ _ (p := m)) // (amp_cat _ _ _ (p := m)) //.
by rewrite -entry0_adj -entry0M // adjM mulmx1 !mulmxA.
Qed.

Lemma row_dim1 d0 n (M : 'M[C]_n) (a : C) : d0 = 1%N ->
  (exists2 v : 'M[C]_(d0, n), v != 0 & v *m M = a *: v) <-> eigenvalue M a.
Proof.
move=> e; subst d0; split=> [[v v0 h]|/eigenvalueP[v h v0]]; last by exists v.
by apply/eigenvalueP; exists v.
Qed.

(* the non-zero eigenvalues of l r are those of the reduced density matrix *)
Lemma schmidt_eig a : a != 0 ->
  eigenvalue (l m *m r m) a <->
  (exists2 phi : seq nat -> C, (exists2 c, c \in cfgs q m 0 & phi c != 0) &
     forall c', c' \in cfgs q m 0 -> \sum_(c <- cfgs q m 0) phi c * rho_left c c' = a * phi c').
Proof.
move=> a0; have mN : (m <= N)%N by rewrite -mk leq_addr.
apply: iff_trans (iff_sym (row_dim1 _ _ D0)) _.
pose X c := amp A m 0 c.
have lS : l m = \sum_(c <- cfgs q m 0) (X c)^† *m X c.
  by rewrite (lE hl mN); apply: eq_bigr => c _; rewrite mulmx1.
have sc (M : 'M[C]_(D 0)) k' (V : 'M[C]_(D 0, k')) : M *m V = entry0 M *: V.
  rewrite -mul_scalar_mx; congr (_ *m _); apply/matrixP=> i j; rewrite (entry0_1 M D0 D0) !mxE.
  have all1 (x y : 'I_(D 0)) : x = y by apply: val_inj; case: x y => [x hx] [y hy] /=; lia.
  by rewrite (all1 i j) eqxx; congr (M _ _); apply: all1.
split.
  move=> [v v0 hv]; pose phi c := entry0 (v *m (X c)^†); exists phi; last first.
    move=> c' hc'; rewrite /phi -entry0Z scalemxAl -hv lS mulmx_suml mulmx_sumr mulmx_suml entry0_sum.
    apply: eq_big_seq => c hc; rewrite rho_leftE ?(size_cfgs hc) ?(size_cfgs hc') // -entry0M //.
    by rewrite -/(X c) -/(X c') !mulmxA.
  case: (boolP (has (fun c => phi c != 0) (cfgs q m 0))) => [/hasP[c hc h]|]; first by exists c.
  move=> /hasPn h; case/negP: v0; have := hv.
  rewrite lS mulmx_suml mulmx_sumr big_seq big1 => [/esym/eqP|c /h].
    by rewrite scaler_eq0 (negbTE a0).
  by rewrite negbK => /eqP; rewrite /phi => e; rewrite !mulmxA -mulmxA sc e scale0r.
move=> [phi [c0 hc0 p0] h]; exists (\sum_(c <- cfgs q m 0) phi c *: (X c *m r m)).
  apply/eqP=> z; case/negP: p0; rewrite -(mulrI_eq0 _ (mulfI a0)) -h //.
  have := congr1 (fun Z => entry0 (Z *m (X c0)^†)) z; rewrite mul0mx entry00 => e.
  apply/eqP; rewrite -[RHS]e mulmx_suml entry0_sum; apply: eq_big_seq => c hc.
  by rewrite rho_leftE ?(size_cfgs hc) ?(size_cfgs hc0) // -scalemxAl entry0Z.
rewrite lS mulmx_suml mulmx_sumr scaler_sumr; apply: eq_big_seq => c' hc'.
rewrite scalerA -h // scaler_suml mulmx_suml; apply: eq_big_seq => c hc.
rewrite rho_leftE ?(size_cfgs hc) ?(size_cfgs hc') // -scalemxAl -scalerA; congr (_ *: _).
by rewrite -sc -/(X c) -/(X c') !mulmxA.
Qed.
End SchmidtP.
