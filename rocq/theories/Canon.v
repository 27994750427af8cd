(* Canon.v -- model of the canonical-form sweeps: tdvp_common.restore_RCF_r_seq, restore_RCF_l,
   restore_RCF_l_seq, restore_LCF_l_seq, restore_LCF_r, restore_LCF_r_seq and of
   EvoMPS_MPS_Generic.restore_RCF / restore_LCF with use_QR=True (mps_gen.py:432-549).

   scipy.linalg.qr and scipy.linalg.eigh are arbitrary routines [qr], [eigh]; their contracts are
   in LinAlg.v.  The QR sweeps change the bond dimensions; the new dimensions are computed by the
   model exactly as the code obtains them from the shapes of the returned factors.
   Not modelled: the sanity_checks branches (they only log) and in-place aliasing (the sweeps
   overwrite A[n] after its last use). *)
From mathcomp Require Import all_ssreflect all_algebra.
From mathcomp Require Import zify.
From mathcomp.real_closed Require Import mxtens.
From Verif Require Import Base Spec Eps Chain ChainProofs ChainProofs2 LinAlg.
Set Implicit Arguments.
Unset Strict Implicit.
Unset Printing Implicit Defensive.
Import Order.TTheory GRing.Theory Num.Theory.
Local Open Scope ring_scope.

Section Reshape.
Variable C : numClosedFieldType.

(* numpy: sp.array([F(s) for s in range(q)]).reshape((q * m, n)), C order *)
Definition stack q m n (F : nat -> 'M[C]_(m, n)) : 'M[C]_(q * m, n) :=
  \matrix_(w, j) F (mxtens_unindex w).1 (mxtens_unindex w).2 j.
(* numpy: M.reshape((q, m, n))[s] *)
Definition unstack q m n (M : 'M[C]_(q * m, n)) (s : nat) : 'M[C]_(m, n) :=
  if insub s is Some s' then \matrix_(i, j) M (mxtens_index (s', i)) j else 0.

(* the index is the row-major one *)
Lemma stack_index q m (s : 'I_q) (i : 'I_m) : mxtens_index (s, i) = (s * m + i)%N :> nat.
Proof. by []. Qed.

Lemma unstack_stack q m n (F : nat -> 'M[C]_(m, n)) s : (s < q)%N -> unstack (stack q F) s = F s.
Proof.
move=> sq; rewrite /unstack insubT /=.
by apply/matrixP=> i j; rewrite !mxE mxtens_indexK.
Qed.

Lemma unstack_mul q m n p (M : 'M[C]_(q * m, n)) (R : 'M[C]_(n, p)) s :
  unstack (M *m R) s = unstack M s *m R.
Proof.
rewrite /unstack; case: insub => [s'|]; last by rewrite mul0mx.
by apply/matrixP=> i j; rewrite !mxE; apply: eq_bigr => k _; rewrite mxE.
Qed.

Lemma sum_mxtens (V : zmodType) q m (F : 'I_(q * m) -> V) :
  \sum_w F w = \sum_(s < q) \sum_(i < m) F (mxtens_index (s, i)).
Proof.
rewrite pair_bigA /= (reindex (@mxtens_index q m)) /=.
  by apply: eq_bigr => [[s i]].
by exists (@mxtens_unindex q m) => w _; rewrite ?mxtens_indexK ?mxtens_unindexK.
Qed.

Lemma unstack_gram q m n (M : 'M[C]_(q * m, n)) :
  \sum_(s < q) (unstack M s)^† *m unstack M s = M^† *m M.
Proof.
apply/matrixP=> i j; rewrite summxE mxE sum_mxtens; apply: eq_bigr => s _.
by rewrite mxE /unstack valK; apply: eq_bigr => k _; rewrite !mxE.
Qed.

(* re-typing an array whose shape is known to be (m', n'); the identity when the shapes agree *)
Definition recast m n m' n' (M : 'M[C]_(m, n)) : 'M[C]_(m', n') := pid_mx m *m M *m pid_mx n.
Lemma recast_id m n (M : 'M[C]_(m, n)) : recast m n M = M.
Proof. by rewrite /recast !pid_mx_1 mul1mx mulmx1. Qed.
End Reshape.

(* ---- gauge transformations ----------------------------------------------- *)
Section Gauge.
Variables (C : numClosedFieldType) (q : nat -> nat) (D D' : nat -> nat).
Variables (A : tensors C D) (B : tensors C D') (X : forall n, 'M[C]_(D n, D' n)).

Lemma gauge_amp e n c : c \in cfgs q (e - n) n -> (n <= e)%N ->
  (forall m s, (n <= m < e)%N -> (s < q m)%N -> X m *m B m s = A m s *m X m.+1) ->
  X n *m amp B e n c = amp A e n c *m X e.
Proof.
move=> hc ne h; have sz := size_cfgs hc.
elim: c n hc ne sz h => [|s c IH] n hc ne sz h /=.
  have e1 : n = e by move: sz => /=; lia.
  by move: e1 {hc ne sz h} => ->; rewrite !pid_mx_1 mulmx1 mul1mx.
have ne' : (n < e)%N by move: sz => /=; lia.
have e1 : (e - n = (e - n.+1).+1)%N by lia.
move: hc; rewrite e1 => /allpairsP[[s' c'] /= [hs hc [es ec]]]; subst s' c'.
rewrite mem_iota add0n /= in hs.
rewrite mulmxA h ?leqnn // -mulmxA (IH n.+1) ?mulmxA //; first by move: sz => /=; lia.
by move=> m t /andP[h1 h2]; apply: h; rewrite (ltnW h1).
Qed.
End Gauge.

(* ---- the sweeps ----------------------------------------------------------- *)
Section RightQR.
Variables (C : numClosedFieldType) (D q : nat -> nat) (A : tensors C D) (qr : qr_routine C).
(* GN : the optional gauge matrix for the right end (GN=None is the identity).  It is given as a
   family indexed by bonds of which only the entry at bond N is used. *)
Variables (Dg : nat -> nat) (GN : forall n, 'M[C]_(D n, Dg n)).

(* restore_RCF_r_seq (tdvp_common.py:735-785) after k steps, the last one at site n: new bond
   dimension, the matrix Gh, and the new site tensor *)
Fixpoint rcf_D (k n : nat) : nat :=
  if k is k'.+1 then minn (q n * rcf_D k' n.+1) (D n) else Dg n.
Fixpoint rcf_Gh (k n : nat) : 'M[C]_(rcf_D k n, D n) :=
  match k return 'M[C]_(rcf_D k n, D n) with
  | k'.+1 =>
      let AG := stack (q n) (fun s => rcf_Gh k' n.+1 *m (A n s)^†) in (qr AG).2
  | 0%N => (GN n)^†
  end.
Definition rcf_site (k n : nat) (s : nat) : 'M[C]_(rcf_D k.+1 n, rcf_D k n.+1) :=
  let AG := stack (q n) (fun s => rcf_Gh k n.+1 *m (A n s)^†) in (unstack (qr AG).1 s)^†.

Variable N : nat.
Definition rcfD (n : nat) : nat := rcf_D (N - n) n.
Definition rcfA : tensors C rcfD := fun n s => recast _ _ (rcf_site (N - n.+1) n s).
(* the returned gauge matrix Gh.conj().T *)
Definition rcfG (n : nat) : 'M[C]_(D n, rcfD n) := (rcf_Gh (N - n) n)^†.

Hypothesis qrP : qr_contract qr.

Lemma rcf_stepP n s : (n < N)%N -> (s < q n)%N -> rcfG n *m rcfA n s = A n s *m rcfG n.+1.
Proof.
move=> nN sq; rewrite /rcfG /rcfA /rcfD.
have e : (N - n = (N - n.+1).+1)%N by lia.
move: (N - n)%N e => k ->; rewrite recast_id.
move: (N - n.+1)%N => {}k; rewrite /rcf_site -adjM.
have /andP[_ /eqP h] := qrP (stack (q n) (fun s => rcf_Gh k n.+1 *m (A n s)^†)).
by rewrite -unstack_mul /= h unstack_stack // adjM adjK.
Qed.

Lemma rcf_orthoP n : (n < N)%N -> \sum_(s < q n) rcfA n s *m (rcfA n s)^† = 1%:M.
Proof.
move=> nN; rewrite /rcfA /rcfD.
have e : (N - n = (N - n.+1).+1)%N by lia.
move: (N - n)%N e => k ->; move: (N - n.+1)%N => {}k.
have /andP[/eqP h _] := qrP (stack (q n) (fun s => rcf_Gh k n.+1 *m (A n s)^†)).
rewrite -h -unstack_gram; apply: eq_bigr => s _; by rewrite recast_id /rcf_site /= adjK.
Qed.

Lemma rcfD_N : rcfD N = Dg N. Proof. by rewrite /rcfD subnn. Qed.
Lemma rcfD_S n : (n < N)%N -> rcfD n = minn (q n * rcfD n.+1) (D n).
Proof.
move=> nN; rewrite /rcfD; have -> : (N - n = (N - n.+1).+1)%N by lia.
by [].
Qed.

Lemma rcf_amp n c : (n <= N)%N -> c \in cfgs q (N - n) n ->
  rcfG n *m amp rcfA N n c = amp A N n c *m rcfG N.
Proof.
move=> nN hc; apply: (gauge_amp hc nN) => m s /andP[_ mN] sq; exact: rcf_stepP.
Qed.

End RightQR.

(* restore_RCF_l (tdvp_common.py:908-972), called with lm1 and Gm1 given; returns l[n], G, G_i and
   the new tensor *)
Definition restore_RCF_l (C : numClosedFieldType) (eigh : eigh_routine C) q Dl Dr
    (A : nat -> 'M[C]_(Dl, Dr)) (lm1 Gm1 : 'M[C]_Dl) :
    ('M[C]_Dr * 'M[C]_Dr * 'M[C]_Dr) * (nat -> 'M[C]_(Dl, Dr)) :=
  let x := Gm1^† *m (lm1 *m Gm1) in
  let M := eps_l_noop q x A A in
  let: (ev, EV) := eigh _ M in
  let G_i := EV in
  ((diag_mx ev, EV^†, G_i), fun s => Gm1 *m (A s *m G_i)).

(* restore_LCF_r (tdvp_common.py:1098-1128), called with r and Gi given; returns r[n-1], Gm1, Gm1_i
   and the new tensor *)
Definition restore_LCF_r (C : numClosedFieldType) (eigh : eigh_routine C) q Dl Dr
    (A : nat -> 'M[C]_(Dl, Dr)) (r Gi : 'M[C]_Dr) :
    ('M[C]_Dl * 'M[C]_Dl * 'M[C]_Dl) * (nat -> 'M[C]_(Dl, Dr)) :=
  let x := Gi *m (r *m Gi^†) in
  let M := eps_r_noop q x A A in
  let: (ev, EV) := eigh _ M in
  let Gm1 := EV^† in
  ((diag_mx ev, Gm1, EV), fun s => Gm1 *m (A s *m Gi)).

Section DiagL.
Variables (C : numClosedFieldType) (D q : nat -> nat) (A : tensors C D) (eigh : eigh_routine C).
Local Notation bonds := (forall n, 'M[C]_(D n)).

(* restore_RCF_l_seq (tdvp_common.py:787-818) with G0=None: the triple (l[n], G, Gi) after site n *)
Variable l0 : 'M[C]_(D 0).
Fixpoint rcfl (n : nat) : 'M[C]_(D n) * 'M[C]_(D n) * 'M[C]_(D n) :=
  if n is n'.+1 then (restore_RCF_l eigh (q n') (A n') (rcfl n').1.1 (rcfl n').1.2).1
  else (l0, 1%:M, 1%:M).
Definition rcfl_l : bonds := fun n => (rcfl n).1.1.
Definition rcfl_G : bonds := fun n => (rcfl n).1.2.
Definition rcfl_A : tensors C D :=
  fun n => (restore_RCF_l eigh (q n) (A n) (rcfl n).1.1 (rcfl n).1.2).2.

Hypothesis eighP : eigh_contract eigh.
Variable N : nat.
Hypothesis l0h : herm l0.

Lemma diag_herm n (d : 'rV[C]_n) : (forall i, d 0 i \is Num.real) -> herm (diag_mx d).
Proof.
move=> dr; apply/matrixP=> i j; rewrite adjE !mxE eq_sym rmorphMn /=.
by case: eqP => [->|]; rewrite ?mulr0n ?mulr1n // (CrealP (dr _)).
Qed.

Lemma eps_l_herm Da Db qn (x : 'M[C]_Da) (B : nat -> 'M[C]_(Da, Db)) : herm x ->
  herm (eps_l_noop qn x B B).
Proof.
move=> hx; rewrite /herm /eps_l_noop adj_sum; apply: eq_bigr => s _.
by rewrite !adjM hx adjK mulmxA.
Qed.
Lemma eps_r_herm Da Db qn (x : 'M[C]_Db) (B : nat -> 'M[C]_(Da, Db)) : herm x ->
  herm (eps_r_noop qn x B B).
Proof.
move=> hx; rewrite /herm /eps_r_noop adj_sum; apply: eq_bigr => s _.
by rewrite !adjM hx adjK mulmxA.
Qed.

Lemma eigh_split n (M : 'M[C]_n) : herm M ->
  let ee := eigh M in
  [/\ ee.2^† *m ee.2 = 1%:M, ee.2 *m ee.2^† = 1%:M, diag_mx ee.1 = ee.2^† *m M *m ee.2,
      forall i, ee.1 0 i \is Num.real & forall i j : 'I_n, (i <= j)%N -> ee.1 0 i <= ee.1 0 j].
Proof.
move=> hM ee; have /and4P[/eqP h1 /eqP h2 /forallP h3 /forallP h4] := eighP hM.
split=> //; first exact: unitary_sym.
- by rewrite -mulmxA h2 mulmxA h1 mul1mx.
- by move=> i j ij; move/forallP/(_ j)/implyP: (h4 i); apply.
Qed.

Lemma rcfl_inv n : [/\ herm (rcfl_l n), (rcfl_G n)^† *m rcfl_G n = 1%:M,
  (rcfl n).2 = (rcfl_G n)^† &
  rcfl_l n.+1 = eps_l_noop (q n) (rcfl_l n) (rcfl_A n) (rcfl_A n) /\
  forall s, rcfl_A n s = rcfl_G n *m A n s *m (rcfl_G n.+1)^†].
Proof.
have step m : herm (rcfl_l m) -> [/\ herm (rcfl_l m.+1), (rcfl_G m.+1)^† *m rcfl_G m.+1 = 1%:M,
   (rcfl m.+1).2 = (rcfl_G m.+1)^†, rcfl_l m.+1 = eps_l_noop (q m) (rcfl_l m) (rcfl_A m) (rcfl_A m)
   & forall s, rcfl_A m s = rcfl_G m *m A m s *m (rcfl_G m.+1)^†].
  rewrite /rcfl_l /rcfl_G /rcfl_A /=; move: (rcfl m) => [[l G] Gi] /= hl.
  have hx : herm (G^† *m (l *m G)) by rewrite /herm !adjM adjK hl mulmxA.
  have hM := @eps_l_herm _ _ (q m) _ (A m) hx.
  rewrite /restore_RCF_l; set M := eps_l_noop _ _ _ _ in hM *.
  have := eigh_split hM; case: (eigh M) => ev EV /= [h1 h2 h3 h4 _].
  split=> //.
  - exact: diag_herm.
  - by rewrite adjK.
  - by rewrite adjK.
  - rewrite h3 /M /eps_l_noop mulmx_sumr mulmx_suml; apply: eq_bigr => s _.
    by rewrite !adjM !mulmxA.
  - by move=> s; rewrite adjK mulmxA.
have hl : forall m, herm (rcfl_l m) by elim=> [//|m IH]; case: (step m IH).
have [h1 h2 h3 h4 h5] := step n (hl n); split=> //.
- case: n {h1 h2 h3 h4 h5} => [|n]; first by rewrite /rcfl_G /= adj1 mul1mx.
  by case: (step n (hl n)).
- case: n {h1 h2 h3 h4 h5} => [|n]; first by rewrite /rcfl_G /= adj1.
  by case: (step n (hl n)).
Qed.

Lemma rcfl_up : up_l q rcfl_A N l0 rcfl_l.
Proof. by split=> // n _; case: (rcfl_inv n) => _ _ _ []. Qed.

Lemma rcfl_gauge n s : (rcfl_G n)^† *m rcfl_A n s = A n s *m (rcfl_G n.+1)^†.
Proof.
have [_ h _ [_ ->]] := rcfl_inv n.
by rewrite !mulmxA h mul1mx.
Qed.

Lemma rcfl_amp e n c : c \in cfgs q (e - n) n -> (n <= e)%N ->
  (rcfl_G n)^† *m amp rcfl_A e n c = amp A e n c *m (rcfl_G e)^†.
Proof.
by move=> hc ne; apply: (gauge_amp (X := fun n => (rcfl_G n)^†) hc ne) => m s _ _; exact: rcfl_gauge.
Qed.

(* r[n] = G r[n] G^H after the transformation *)
Lemma rcfl_r n (x : 'M[C]_(D n.+1)) :
  eps_r_noop (q n) (rcfl_G n.+1 *m x *m (rcfl_G n.+1)^†) (rcfl_A n) (rcfl_A n) =
  rcfl_G n *m eps_r_noop (q n) x (A n) (A n) *m (rcfl_G n)^†.
Proof.
have [_ h _ [_ hA]] := rcfl_inv n; have [_ h' _ _] := rcfl_inv n.+1.
rewrite /eps_r_noop mulmx_sumr mulmx_suml; apply: eq_bigr => s _.
rewrite hA !adjM !adjK !mulmxA -(mulmxA _ (rcfl_G n.+1)^†) h' mulmx1.
by rewrite -(mulmxA _ (rcfl_G n.+1)^†) h' mulmx1.
Qed.

Lemma rcfl_diag n : exists2 d : 'rV[C]_(D n.+1), rcfl_l n.+1 = diag_mx d &
  (forall i, d 0 i \is Num.real) /\ (forall i j : 'I_(D n.+1), (i <= j)%N -> d 0 i <= d 0 j).
Proof.
have [hl _ _ _] := rcfl_inv n; move: hl; rewrite /rcfl_l /=.
move: (rcfl n) => [[l G] Gi] /= hl.
have hx : herm (G^† *m (l *m G)) by rewrite /herm !adjM adjK hl mulmxA.
have := eigh_split (@eps_l_herm _ _ (q n) _ (A n) hx).
rewrite /restore_RCF_l; set M := eps_l_noop _ _ _ _; case: (eigh M) => ev EV /= [_ _ _ h4 h5].
by exists ev.
Qed.

End DiagL.

Section LeftQR.
Variables (C : numClosedFieldType) (D q : nat -> nat) (A : tensors C D) (qr : qr_routine C).
(* G0 : the optional gauge matrix for the left end (G0=None is the identity) *)
Variables (Dg : nat) (G0 : 'M[C]_(Dg, D 0)).

(* restore_LCF_l_seq (tdvp_common.py:974-1023) *)
Fixpoint lcf_D (n : nat) : nat := if n is n'.+1 then minn (q n' * lcf_D n') (D n) else Dg.
Fixpoint lcf_G (n : nat) : 'M[C]_(lcf_D n, D n) :=
  match n return 'M[C]_(lcf_D n, D n) with
  | n'.+1 => let GA := stack (q n') (fun s => lcf_G n' *m A n' s) in (qr GA).2
  | 0%N => G0
  end.
Definition lcf_A : tensors C lcf_D := fun n s =>
  let GA := stack (q n) (fun s => lcf_G n *m A n s) in unstack (qr GA).1 s.
(* the shape of l[n] after the sweep: l[n] = mm.eyemat(D) with D = A[n].shape[2] *before* the
   replacement of A[n] (tdvp_common.py:1003 and 1015) *)
Definition lcf_l_shape (n : nat) : nat := if n is n'.+1 then D n else Dg.

Hypothesis qrP : qr_contract qr.

Lemma lcf_stepP n s : (s < q n)%N -> lcf_G n *m A n s = lcf_A n s *m lcf_G n.+1.
Proof.
move=> sq; rewrite /lcf_A /=.
have /andP[_ /eqP h] := qrP (stack (q n) (fun s => lcf_G n *m A n s)).
by rewrite -unstack_mul h unstack_stack.
Qed.

Lemma lcf_orthoP n : \sum_(s < q n) (lcf_A n s)^† *m lcf_A n s = 1%:M.
Proof.
have /andP[/eqP h _] := qrP (stack (q n) (fun s => lcf_G n *m A n s)).
by rewrite -h -unstack_gram.
Qed.

Lemma lcf_amp e n c : (n <= e)%N -> c \in cfgs q (e - n) n ->
  lcf_G n *m amp A e n c = amp lcf_A e n c *m lcf_G e.
Proof.
move=> nN hc; apply: (gauge_amp (A := lcf_A) (X := lcf_G) hc nN) => m s _ sq; exact: lcf_stepP.
Qed.
End LeftQR.

Section DiagR.
Variables (C : numClosedFieldType) (D q : nat -> nat) (A : tensors C D) (eigh : eigh_routine C).
Local Notation bonds := (forall n, 'M[C]_(D n)).

(* restore_LCF_r_seq (tdvp_common.py:1025-1054) with GiN=None: the triple (r[n], G, Gi) after k
   steps, the last one at site n; r is the array before the call (only r[N] is used) *)
Variable r : bonds.
Fixpoint lcfr (k n : nat) : 'M[C]_(D n) * 'M[C]_(D n) * 'M[C]_(D n) :=
  if k is k'.+1 then (restore_LCF_r eigh (q n) (A n) (lcfr k' n.+1).1.1 (lcfr k' n.+1).2).1
  else (r n, 1%:M, 1%:M).
Variable N : nat.
Definition lcfr_r : bonds := fun n => (lcfr (N - n) n).1.1.
Definition lcfr_Gi : bonds := fun n => (lcfr (N - n) n).2.
Definition lcfr_A : tensors C D := fun n =>
  (restore_LCF_r eigh (q n) (A n) (lcfr (N - n.+1) n.+1).1.1 (lcfr (N - n.+1) n.+1).2).2.

Hypothesis eighP : eigh_contract eigh.
Hypothesis rh : herm (r N).

Lemma lcfr_step k n : herm (lcfr k n.+1).1.1 ->
  let A' := (restore_LCF_r eigh (q n) (A n) (lcfr k n.+1).1.1 (lcfr k n.+1).2).2 in
  [/\ herm (lcfr k.+1 n).1.1, (lcfr k.+1 n).2^† *m (lcfr k.+1 n).2 = 1%:M,
   (lcfr k.+1 n).1.1 = eps_r_noop (q n) (lcfr k n.+1).1.1 A' A',
   (forall s, A' s = (lcfr k.+1 n).2^† *m A n s *m (lcfr k n.+1).2) &
   exists2 d : 'rV[C]_(D n), (lcfr k.+1 n).1.1 = diag_mx d &
   (forall i, d 0 i \is Num.real) /\ (forall i j : 'I_(D n), (i <= j)%N -> d 0 i <= d 0 j)].
Proof.
rewrite /=; move: (lcfr k n.+1) => [[r' G] Gi] /= hr.
have hx : herm (Gi *m (r' *m Gi^†)) by rewrite /herm !adjM adjK hr mulmxA.
have hM := @eps_r_herm _ _ _ (q n) _ (A n) hx.
rewrite /restore_LCF_r; set M := eps_r_noop _ _ _ _ in hM *.
have := eigh_split eighP hM; case: (eigh M) => ev EV /= [h1 h2 h3 h4 h5].
split=> //; [exact: diag_herm| |by move=> s; rewrite mulmxA|by exists ev].
rewrite h3 /M /eps_r_noop mulmx_sumr mulmx_suml; apply: eq_bigr => s _.
by rewrite !adjM adjK !mulmxA.
Qed.

Lemma lcfr_herm n : (n <= N)%N -> herm (lcfr (N - n) n).1.1.
Proof.
move=> nN; move: (subnKC nN); move: (N - n)%N => k; elim: k n {nN} => [|k IH] n.
  by rewrite addn0 => ->.
by rewrite addnS -addSn => /IH /lcfr_step[].
Qed.

Lemma lcfr_inv n : (n < N)%N -> [/\ (lcfr_Gi n)^† *m lcfr_Gi n = 1%:M,
   lcfr_r n = eps_r_noop (q n) (lcfr_r n.+1) (lcfr_A n) (lcfr_A n),
   forall s, lcfr_A n s = (lcfr_Gi n)^† *m A n s *m lcfr_Gi n.+1 &
   exists2 d : 'rV[C]_(D n), lcfr_r n = diag_mx d &
   (forall i, d 0 i \is Num.real) /\ (forall i j : 'I_(D n), (i <= j)%N -> d 0 i <= d 0 j)].
Proof.
move=> nN; rewrite /lcfr_Gi /lcfr_r /lcfr_A; have -> : (N - n = (N - n.+1).+1)%N by lia.
by have [_ h1 h2 h3 h4] := lcfr_step (lcfr_herm nN).
Qed.

Lemma lcfr_Gi_unitary n : (n <= N)%N -> (lcfr_Gi n)^† *m lcfr_Gi n = 1%:M.
Proof.
rewrite leq_eqVlt => /orP[/eqP->|/lcfr_inv[]] //.
by rewrite /lcfr_Gi subnn /= adj1 mul1mx.
Qed.

Lemma lcfr_up : up_r q lcfr_A N (r N) lcfr_r.
Proof. by split=> [|n nN]; [rewrite /lcfr_r subnn | case: (lcfr_inv nN)]. Qed.

Lemma lcfr_gauge n s : (n < N)%N -> lcfr_Gi n *m lcfr_A n s = A n s *m lcfr_Gi n.+1.
Proof.
move=> nN; have [h _ -> _] := lcfr_inv nN.
by rewrite !mulmxA (unitary_sym h) mul1mx.
Qed.

Lemma lcfr_amp e n c : c \in cfgs q (e - n) n -> (n <= e)%N -> (e <= N)%N ->
  lcfr_Gi n *m amp lcfr_A e n c = amp A e n c *m lcfr_Gi e.
Proof.
move=> hc ne eN; apply: (gauge_amp (X := lcfr_Gi) hc ne) => m s /andP[_ me] _.
by apply: lcfr_gauge; apply: leq_trans eN.
Qed.

Lemma lcfr_l n (x : 'M[C]_(D n)) : (n < N)%N ->
  eps_l_noop (q n) ((lcfr_Gi n)^† *m x *m lcfr_Gi n) (lcfr_A n) (lcfr_A n) =
  (lcfr_Gi n.+1)^† *m eps_l_noop (q n) x (A n) (A n) *m lcfr_Gi n.+1.
Proof.
move=> nN; have [h _ hA _] := lcfr_inv nN; have h' := unitary_sym h.
rewrite /eps_l_noop mulmx_sumr mulmx_suml; apply: eq_bigr => s _.
rewrite hA !adjM !adjK !mulmxA -(mulmxA _ (lcfr_Gi n) (lcfr_Gi n)^†) h' mulmx1.
by rewrite -(mulmxA _ (lcfr_Gi n) (lcfr_Gi n)^†) h' mulmx1.
Qed.
End DiagR.

(* ---- restore_RCF / restore_LCF ------------------------------------------- *)
(* self.A[m] *= a *)
Definition scale_site (C : numClosedFieldType) (D : nat -> nat) (m : nat) (a : C) (A : tensors C D) :
  tensors C D := fun n s => if n == m then a *: A n s else A n s.

Lemma amp_scale_site (C : numClosedFieldType) (D : nat -> nat) m a (A : tensors C D) e n c :
  amp (scale_site m a A) e n c = (if (n <= m < n + size c)%N then a else 1) *: amp A e n c.
Proof.
elim: c n => [|s c IH] n; first by rewrite /= addn0 (_ : (n <= m < n)%N = false) ?scale1r //; lia.
rewrite /= IH /scale_site -addSnnS; case: (eqVneq n m) => [->|nm].
  rewrite ltnn /= scale1r -scalemxAl leqnn /= (_ : (m < m.+1 + size c)%N = true) //; lia.
rewrite -scalemxAr (_ : (n < m < n.+1 + size c)%N = (n <= m < n.+1 + size c)%N) //.
by rewrite ltn_neqAle nm.
Qed.

(* G / abs(G) resp. G (mps_gen.py:474-480 and 524-530) *)
Definition cf_factor (C : numClosedFieldType) (normalize : bool) (g : C) : C :=
  if normalize then g / `|g| else g.

Section RestoreRCF.
Variables (C : numClosedFieldType) (D q : nat -> nat) (A : tensors C D).
Variables (qr : qr_routine C) (eigh : eigh_routine C) (N : nat) (normalize : bool).

Definition RCF_D : nat -> nat := rcfD D q D N.
Definition RCF_G0 : 'M[C]_(D 0, RCF_D 0) := rcfG q A qr (fun n => 1%:M) N 0.
(* restore_RCF (mps_gen.py:432-497), use_QR=True, after "if normalize_mps" *)
Definition RCF_A1 : tensors C RCF_D :=
  scale_site 0 (cf_factor normalize (entry0 RCF_G0)) (rcfA q A qr (fun n => 1%:M) N).
Definition RCF_r : forall n, 'M[C]_(RCF_D n) := fun n =>
  if n == 0%N then (if normalize then 1 else `|entry0 RCF_G0| ^+ 2)%:M else 1%:M.
(* ... diag_l=False, update_l=True: calc_l() from the current array l *)
Definition RCF_l (l : forall n, 'M[C]_(RCF_D n)) := calc_l q RCF_A1 l 0 N.
(* ... diag_l=True *)
Definition RCF_A2 : tensors C RCF_D := rcfl_A q RCF_A1 eigh 1%:M.
Definition RCF_l2 : forall n, 'M[C]_(RCF_D n) := rcfl_l q RCF_A1 eigh 1%:M.
(* the 1x1 matrix by which restore_RCF_l multiplies the last site *)
Definition RCF_GN : 'M[C]_(RCF_D N) := (rcfl_G q RCF_A1 eigh 1%:M N)^†.

Hypotheses (qrP : qr_contract qr) (eighP : eigh_contract eigh).
Hypotheses (N0 : (0 < N)%N) (D0 : D 0%N = 1%N) (DN : D N = 1%N).
Hypotheses (Dpos : forall n, (n <= N)%N -> (0 < D n)%N) (qpos : forall n, (n < N)%N -> (0 < q n)%N).

Lemma RCF_D_N : RCF_D N = 1%N. Proof. by rewrite /RCF_D rcfD_N. Qed.
Lemma RCF_D_pos n : (n <= N)%N -> (0 < RCF_D n)%N.
Proof.
move=> nN; rewrite -(subKn nN); move: (leq_subr n N); move: (N - n)%N => k.
elim: k => [|k IH] kN; first by rewrite subn0 RCF_D_N.
have e : (N - k = (N - k.+1).+1)%N by lia.
rewrite /RCF_D rcfD_S; last by lia.
rewrite leq_min muln_gt0 qpos; last by lia.
by rewrite -e IH ?Dpos //; lia.
Qed.
Lemma RCF_D_0 : RCF_D 0 = 1%N.
Proof.
have := RCF_D_pos (leq0n N); rewrite /RCF_D rcfD_S // D0; move: (_ * _)%N => x; lia.
Qed.

Local Notation g := (entry0 RCF_G0).
Local Notation B := (rcfA q A qr (fun n => 1%:M) N).

Lemma RCF_GN1 : rcfG q A qr (fun n => 1%:M) N N = pid_mx (D N) :> 'M[C]_(D N, RCF_D N).
Proof. by rewrite /RCF_D /rcfG /rcfD subnn /= adjK pid_mx_1. Qed.

Lemma RCF_amp0 c : c \in cfgs q N 0 -> amplitude N A c = g * amplitude N B c.
Proof.
move=> hc; rewrite /amplitude /psi -entry0M ?D0 ?RCF_D_0 ?RCF_D_N //.
rewrite -/RCF_D (rcf_amp A _ qrP (leq0n N)) ?subn0 // RCF_GN1.
have h1 : entry0 (pid_mx (D N) : 'M[C]_(D N, RCF_D N)) = 1.
  by rewrite RCF_D_N DN pid_mx_1 entry0_1 !cast_ord_id mxE.
by rewrite entry0M ?h1 ?mulr1 ?RCF_D_N.
exact: RCF_D_N.
Qed.

Lemma rcfB_up : up_r q B N 1%:M (fun n => 1%:M).
Proof.
split=> // n nN; rewrite -(@rcf_orthoP C D q A qr D (fun n => 1%:M) N qrP n nN) /eps_r_noop.
by apply: eq_bigr => s _; rewrite mulmx1.
Qed.

Lemma rcfB_norm : \sum_(c <- cfgs q N 0) `|amplitude N B c| ^+ 2 = 1.
Proof.
have := rE rcfB_up (add0n N) => /(congr1 (@entry0 C _ _)).
have -> : entry0 (1%:M : 'M[C]_(rcfD D q D N 0)) = 1.
  by rewrite -/RCF_D RCF_D_0 entry0_1 !cast_ord_id mxE.
move=> h; rewrite [RHS]h entry0_sum; apply: eq_bigr => c _.
rewrite mulmx1 entry0M; [by rewrite entry0_adj -normCK|exact: RCF_D_0|exact: RCF_D_N|exact: RCF_D_0].
Qed.

Lemma RCF_norm : \sum_(c <- cfgs q N 0) `|amplitude N A c| ^+ 2 = `|g| ^+ 2.
Proof.
rewrite -[RHS]mulr1 -rcfB_norm mulr_sumr; apply: eq_big_seq => c hc.
by rewrite RCF_amp0 // normrM exprMn.
Qed.

Lemma RCF_A1_amp c : size c = N -> amplitude N RCF_A1 c = cf_factor normalize g * amplitude N B c.
Proof.
move=> sz; rewrite /amplitude /psi amp_scale_site sz N0 /= /entry0 mulr_sumr.
apply: eq_bigr => i _; rewrite mulr_sumr; apply: eq_bigr => j _; by rewrite mxE.
Qed.

Lemma RCF_A1P c : (normalize -> g != 0) -> c \in cfgs q N 0 ->
  amplitude N RCF_A1 c = (if normalize then `|g|^-1 else 1) * amplitude N A c.
Proof.
move=> g0 hc; rewrite RCF_A1_amp ?(size_cfgs hc) // RCF_amp0 // mulrA; congr (_ * _).
by rewrite /cf_factor; case: normalize g0 => [_|_]; rewrite ?mul1r // mulrC.
Qed.

Lemma RCF_r_up : (normalize -> g != 0) -> up_r q RCF_A1 N 1%:M RCF_r.
Proof.
move=> g0; split=> [|n nN]; first by rewrite /RCF_r -[N]prednK.
rewrite {2}/RCF_r /= /RCF_A1 /scale_site; have [_ hr] := rcfB_up.
rewrite /RCF_r; have [e|n0] /= := eqVneq n 0%N; last exact: hr.
subst n; transitivity ((cf_factor normalize g * (cf_factor normalize g)^*)%:M : 'M[C]_(RCF_D 0)).
  congr (_%:M); rewrite -normCK /cf_factor; case: normalize g0 => // /(_ isT) h.
  by rewrite normf_div normr_id divff ?normr_eq0 // expr1n.
rewrite -scalemx1 (hr 0%N N0) /eps_r_noop scaler_sumr; apply: eq_bigr => s _.
by rewrite adjZ -scalemxAr -!scalemxAl scalerA mulrC.
Qed.

Lemma RCF_l_up l : l 0%N = 1%:M -> up_l q RCF_A1 N 1%:M (RCF_l l).
Proof. by move=> <-; apply: calc_l_up. Qed.

Lemma RCF_GN_unit : `|entry0 RCF_GN| = 1.
Proof.
have [_ h _ _] := @rcfl_inv C RCF_D q RCF_A1 eigh 1%:M eighP (herm1 _ _) N.
have := congr1 (@entry0 C _ _) h; rewrite -{1}/RCF_GN entry0M ?RCF_D_N //.
have -> : rcfl_G q RCF_A1 eigh 1%:M N = RCF_GN^† by rewrite /RCF_GN adjK.
rewrite entry0_adj -normCK.
have -> : entry0 (1%:M : 'M[C]_(RCF_D N)) = 1 by rewrite RCF_D_N entry0_1 !cast_ord_id mxE.
by move=> /eqP; rewrite sqrp_eq1 ?normr_ge0 // => /eqP.
Qed.

Lemma RCF_A2_amp c : c \in cfgs q N 0 ->
  amplitude N RCF_A2 c = amplitude N RCF_A1 c * entry0 RCF_GN.
Proof.
move=> hc; rewrite /amplitude /psi -entry0M ?RCF_D_N ?RCF_D_0 // /RCF_GN.
have := @rcfl_amp C RCF_D q RCF_A1 eigh 1%:M eighP (herm1 _ _) N 0 c; rewrite subn0 => /(_ hc isT) <-.
by rewrite /rcfl_G /= adj1 mul1mx.
Qed.

Lemma RCF_l2_up : up_l q RCF_A2 N 1%:M RCF_l2.
Proof. exact: rcfl_up eighP N (herm1 _ _). Qed.

Lemma RCF_r_up2 : (normalize -> g != 0) -> up_r q RCF_A2 N 1%:M RCF_r.
Proof.
move=> g0; have [rN hr] := RCF_r_up g0; split=> // n nN.
pose G n := rcfl_G q RCF_A1 eigh 1%:M n.
have GU m : G m *m (G m)^† = 1%:M.
  by have [_ h _ _] := @rcfl_inv C RCF_D q RCF_A1 eigh 1%:M eighP (herm1 _ _) m; apply: unitary_sym.
have Gr m : G m *m RCF_r m *m (G m)^† = RCF_r m.
  rewrite /RCF_r; case: eqP => _; last by rewrite mulmx1 GU.
  by rewrite mul_mx_scalar -scalemxAl GU scalemx1.
rewrite -(Gr n.+1) /RCF_A2 (@rcfl_r C RCF_D q RCF_A1 eigh 1%:M eighP (herm1 _ _)).
by rewrite -(hr n nN) -/(G n) Gr.
Qed.
End RestoreRCF.

Section RestoreLCF.
Variables (C : numClosedFieldType) (D q : nat -> nat) (A : tensors C D).
Variables (qr : qr_routine C) (eigh : eigh_routine C) (N : nat) (normalize : bool).

Definition LCF_D : nat -> nat := lcf_D D q (D 0).
Definition LCF_GN : 'M[C]_(LCF_D N, D N) := lcf_G q A qr 1%:M N.
(* restore_LCF (mps_gen.py:499-549), use_QR=True, after "if normalize_mps" *)
Definition LCF_A1 : tensors C LCF_D :=
  scale_site N.-1 (cf_factor normalize (entry0 LCF_GN)) (lcf_A q A qr 1%:M).
(* the shape and the scalar factor of the (multiple of the) identity matrix stored in l[n] *)
Definition LCF_l_shape (n : nat) : nat := lcf_l_shape D (D 0) n.
Definition LCF_l_factor (n : nat) : C :=
  if (n == N) && ~~ normalize then `|entry0 LCF_GN| ^+ 2 else 1.
(* ... diag_r=False, update_r=True: calc_r() *)
Definition LCF_r (r : forall n, 'M[C]_(LCF_D n)) := calc_r q LCF_A1 r 0 N.
(* ... diag_r=True *)
Definition LCF_A2 (r : forall n, 'M[C]_(LCF_D n)) : tensors C LCF_D := lcfr_A q LCF_A1 eigh r N.
Definition LCF_r2 (r : forall n, 'M[C]_(LCF_D n)) : forall n, 'M[C]_(LCF_D n) := lcfr_r q LCF_A1 eigh r N.
Definition LCF_G0 (r : forall n, 'M[C]_(LCF_D n)) : 'M[C]_(LCF_D 0) := (lcfr_Gi q LCF_A1 eigh r N 0)^†.

Hypotheses (qrP : qr_contract qr) (eighP : eigh_contract eigh).
Hypotheses (N0 : (0 < N)%N) (D0 : D 0%N = 1%N) (DN : D N = 1%N).
Hypotheses (Dpos : forall n, (n <= N)%N -> (0 < D n)%N) (qpos : forall n, (n < N)%N -> (0 < q n)%N).

Lemma LCF_D_0 : LCF_D 0 = 1%N. Proof. by rewrite /LCF_D. Qed.
Lemma LCF_D_pos n : (n <= N)%N -> (0 < LCF_D n)%N.
Proof.
elim: n => [|n IH] nN; first by rewrite LCF_D_0.
by rewrite /LCF_D /= leq_min muln_gt0 qpos // IH ?Dpos // ltnW.
Qed.
Lemma LCF_D_N : LCF_D N = 1%N.
Proof.
have := LCF_D_pos (leqnn N); rewrite /LCF_D -(prednK N0) /= (prednK N0) DN.
by move: (_ * _)%N => x; lia.
Qed.

Local Notation g := (entry0 LCF_GN).
Local Notation B := (lcf_A q A qr (1%:M : 'M[C]_(D 0))).

Lemma entry0_id n : n = 1%N -> entry0 (1%:M : 'M[C]_n) = 1.
Proof. by move=> ->; rewrite entry0_1 !cast_ord_id mxE. Qed.

Lemma LCF_amp0 c : c \in cfgs q N 0 -> amplitude N A c = g * amplitude N B c.
Proof.
move=> hc; rewrite mulrC /amplitude /psi -entry0M ?LCF_D_N //.
by rewrite -(lcf_amp A 1%:M qrP (leq0n N)) ?subn0 //= mul1mx.
exact: LCF_D_N.
Qed.

Lemma lcfB_up : up_l q B N 1%:M (fun n => 1%:M).
Proof.
split=> // n nN; rewrite -(lcf_orthoP q A 1%:M qrP n) /eps_l_noop.
by apply: eq_bigr => s _; rewrite mul1mx.
Qed.

Lemma lcfB_norm : \sum_(c <- cfgs q N 0) `|amplitude N B c| ^+ 2 = 1.
Proof.
have := lE lcfB_up (leqnn N) => /(congr1 (@entry0 C _ _)).
rewrite entry0_id; last exact: LCF_D_N.
move=> h; rewrite [RHS]h entry0_sum; apply: eq_bigr => c _.
rewrite mulmx1 entry0M; [by rewrite entry0_adj normCKC|exact: LCF_D_N|exact: LCF_D_0|exact: LCF_D_N].
Qed.

Lemma LCF_norm : \sum_(c <- cfgs q N 0) `|amplitude N A c| ^+ 2 = `|g| ^+ 2.
Proof.
rewrite -[RHS]mulr1 -lcfB_norm mulr_sumr; apply: eq_big_seq => c hc.
by rewrite LCF_amp0 // normrM exprMn.
Qed.

Lemma LCF_A1_amp c : size c = N -> amplitude N LCF_A1 c = cf_factor normalize g * amplitude N B c.
Proof.
move=> sz; rewrite /amplitude /psi amp_scale_site sz add0n /= (_ : (N.-1 < N)%N = true); last by lia.
rewrite /entry0 mulr_sumr.
apply: eq_bigr => i _; rewrite mulr_sumr; apply: eq_bigr => j _; by rewrite mxE.
Qed.

Lemma LCF_A1P c : (normalize -> g != 0) -> c \in cfgs q N 0 ->
  amplitude N LCF_A1 c = (if normalize then `|g|^-1 else 1) * amplitude N A c.
Proof.
move=> g0 hc; rewrite LCF_A1_amp ?(size_cfgs hc) // LCF_amp0 // mulrA; congr (_ * _).
by rewrite /cf_factor; case: normalize g0 => [_|_]; rewrite ?mul1r // mulrC.
Qed.

Lemma LCF_l_up : (normalize -> g != 0) -> up_l q LCF_A1 N 1%:M (fun n => (LCF_l_factor n)%:M).
Proof.
move=> g0; split=> [|n nN]; first by rewrite /LCF_l_factor eq_sym (gtn_eqF N0).
rewrite {2}/LCF_l_factor (ltn_eqF nN) /= /LCF_A1 /scale_site; have [_ hl] := lcfB_up.
have e : (n == N.-1) = (n.+1 == N) by lia.
rewrite /LCF_l_factor e; have [e'|_] := eqVneq n.+1 N; last by rewrite /= (hl _ nN).
transitivity ((cf_factor normalize g * (cf_factor normalize g)^*)%:M : 'M[C]_(LCF_D n.+1)).
  congr (_%:M); rewrite -normCK /cf_factor; case: normalize g0 => // /(_ isT) h.
  by rewrite normf_div normr_id divff ?normr_eq0 // expr1n.
rewrite -scalemx1 (hl n nN) /eps_l_noop scaler_sumr; apply: eq_bigr => s _.
by rewrite adjZ -!scalemxAr -!scalemxAl scalerA.
Qed.

Variable r : forall n, 'M[C]_(LCF_D n).
Hypothesis rN : r N = 1%:M.
Let rh : herm (r N). Proof. by rewrite rN; apply: herm1. Qed.

Lemma LCF_r_up : up_r q LCF_A1 N 1%:M (LCF_r r).
Proof. by rewrite -rN; apply: calc_r_up. Qed.

Lemma LCF_G0_unit : `|entry0 (LCF_G0 r)| = 1.
Proof.
have h := lcfr_Gi_unitary q LCF_A1 eighP rh (leq0n N).
have := congr1 (@entry0 C _ _) h; rewrite entry0M ?LCF_D_0 //.
have -> : lcfr_Gi q LCF_A1 eigh r N 0 = (LCF_G0 r)^† by rewrite /LCF_G0 adjK.
rewrite adjK entry0_adj -normCK entry0_id ?LCF_D_0 //.
by move=> /eqP; rewrite sqrp_eq1 ?normr_ge0 // => /eqP.
Qed.

Lemma LCF_A2_amp c : c \in cfgs q N 0 ->
  amplitude N (LCF_A2 r) c = entry0 (LCF_G0 r) * amplitude N LCF_A1 c.
Proof.
move=> hc; have := @lcfr_amp C LCF_D q LCF_A1 eigh r N eighP rh N 0 c.
rewrite subn0 => /(_ hc isT (leqnn N)).
have -> : lcfr_Gi q LCF_A1 eigh r N N = 1%:M by rewrite /lcfr_Gi subnn.
rewrite mulmx1 /amplitude /psi => <-; rewrite -entry0M ?LCF_D_N ?LCF_D_0 //.
by rewrite mulmxA /LCF_G0 (lcfr_Gi_unitary q LCF_A1 eighP rh (leq0n N)) mul1mx.
Qed.

Lemma LCF_r2_up : up_r q (LCF_A2 r) N 1%:M (LCF_r2 r).
Proof. by rewrite -rN; exact: lcfr_up eighP rh. Qed.

Lemma LCF_l_up2 : (normalize -> g != 0) ->
  up_l q (LCF_A2 r) N 1%:M (fun n => (LCF_l_factor n)%:M).
Proof.
move=> g0; have [l0 hl] := LCF_l_up g0; split=> // n nN.
pose G n := lcfr_Gi q LCF_A1 eigh r N n.
have GU m : (m <= N)%N -> (G m)^† *m G m = 1%:M by apply: lcfr_Gi_unitary.
have Gl m (a : C) : (m <= N)%N -> (G m)^† *m a%:M *m G m = a%:M.
  by move=> mN; rewrite mul_mx_scalar -scalemxAl GU // scalemx1.
rewrite -(Gl n _ (ltnW nN)) /LCF_A2 (@lcfr_l C LCF_D q LCF_A1 eigh r N eighP rh) //.
by rewrite -(hl n nN) -/(G n.+1) Gl.
Qed.
End RestoreLCF.
