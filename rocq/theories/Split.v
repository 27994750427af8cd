(* Split.v -- model of split_twosite and of the code that writes its results back into the chain
   (split_step.py:559-572, 657-675), used by the two-site split-step integrator and by two-site DMRG. *)
From mathcomp Require Import all_ssreflect all_algebra.
From mathcomp.real_closed Require Import mxtens.
From mathcomp Require Import zify.
From Verif Require Import Base Spec LinAlg Factor Svd.
Set Implicit Arguments.
Unset Strict Implicit.
Unset Printing Implicit Defensive.
Import Order.TTheory GRing.Theory Num.Theory.
Local Open Scope ring_scope.

Section Split.
Variables (C : numClosedFieldType) (svd : svd_routine C) (q1 q2 D0 D2 : nat).
Implicit Type AA : nat -> nat -> 'M[C]_(D0, D2).

(* AA_mat = reshape(transpose(AA, [0,2,1,3]), [q1 * D0, q2 * D2]) (split_step.py:659-661) *)
Definition AA_mat AA : 'M[C]_(q1 * D0, q2 * D2) :=
  \matrix_(i, j) AA (mxtens_unindex i).1 (mxtens_unindex j).1 (mxtens_unindex i).2 (mxtens_unindex j).2.
(* A1 = reshape(u, [q1, D0, D1]); A2 = transpose(reshape(vh, [D1, q2, D2]), [1,0,2]) (671-672) *)
Definition unmat1 d (u : 'M[C]_(q1 * D0, d)) (s : nat) : 'M[C]_(D0, d) :=
  \matrix_(a, k) if insub s is Some s' then u (mxtens_index (s', a)) k else 0.
Definition unmat2 d (vh : 'M[C]_(d, q2 * D2)) (t : nat) : 'M[C]_(d, D2) :=
  \matrix_(k, b) if insub t is Some t' then vh k (mxtens_index (t', b)) else 0.

Record split_out := Split {
  sD : nat; sA1 : nat -> 'M[C]_(D0, sD); sG : 'M[C]_sD; sA2 : nat -> 'M[C]_(sD, D2); srest : seq C }.

(* D1 = min(D_max, len(s)); for i in range(D1): if s[i] < min_schmidt: D1 = i; break (663-667) *)
Definition keepD k (sv : 'rV[C]_k) (Dmax : nat) (ms : C) : nat :=
  find (fun i => svn sv i < ms) (iota 0 (minn Dmax k)).

(* split_twosite(AA, D_max, min_schmidt) (657-675).  None: the TypeError raised by min(None, len(s)),
   or by s[i] < None in the first pass of the loop (skipped only if range(D1) is empty). *)
Definition split_twosite AA (D_max : option nat) (min_schmidt : option C) : option split_out :=
  let: (u, s, vh) := svd (AA_mat AA) in
  let res D1 := Split (unmat1 (colsN D1 u)) (diagN D1 s) (unmat2 (rowsN D1 vh))
                      [seq svn s i | i <- iota D1 (minn (q1 * D0) (q2 * D2) - D1)] in
  match D_max, min_schmidt with
  | Some Dmax, Some ms => Some (res (keepD s Dmax ms))
  | Some Dmax, None => if minn Dmax (minn (q1 * D0) (q2 * D2)) == 0%N then Some (res 0%N) else None
  | None, _ => None
  end.

(* evolve_AA / opt_AA after the split (559-572): G /= sqrt(adot(G, G)); G is absorbed into the tensor
   on the side the sweep moves to.  None: division by zero (numpy: nan entries). *)
Definition absorb (o : split_out) (moving_right : bool) :
    option ((nat -> 'M[C]_(D0, sD o)) * (nat -> 'M[C]_(sD o, D2))) :=
  let n2 := adot (sG o) (sG o) in
  if (0 < sD o)%N && (n2 == 0) then None else
  let G := (sqrtC n2)^-1 *: sG o in
  Some (if moving_right then (sA1 o, fun t => G *m sA2 o t) else (fun s => sA1 o s *m G, sA2 o)).

(* ---- facts ----------------------------------------------------------------- *)
Lemma unmat1E d (u : 'M[C]_(q1 * D0, d)) (s : 'I_q1) a k : unmat1 u s a k = u (mxtens_index (s, a)) k.
Proof. by rewrite mxE valK. Qed.
Lemma unmat2E d (vh : 'M[C]_(d, q2 * D2)) (t : 'I_q2) k b : unmat2 vh t k b = vh k (mxtens_index (t, b)).
Proof. by rewrite mxE valK. Qed.
Lemma AA_matE AA (s : 'I_q1) (t : 'I_q2) a b : AA_mat AA (mxtens_index (s, a)) (mxtens_index (t, b)) = AA s t a b.
Proof. by rewrite mxE !mxtens_indexK. Qed.

Lemma unmat_mul d (u : 'M[C]_(q1 * D0, d)) (G : 'M[C]_d) (vh : 'M[C]_(d, q2 * D2)) (s : 'I_q1) (t : 'I_q2) a b :
  (unmat1 u s *m G *m unmat2 vh t) a b = (u *m G *m vh) (mxtens_index (s, a)) (mxtens_index (t, b)).
Proof.
rewrite [LHS]mxE [RHS]mxE; apply: eq_bigr => k _; rewrite unmat2E; congr (_ * _).
by rewrite [LHS]mxE [RHS]mxE; apply: eq_bigr => k' _; rewrite unmat1E.
Qed.
Lemma unmat1_gram d (u : 'M[C]_(q1 * D0, d)) : \sum_(s < q1) (unmat1 u s)^† *m unmat1 u s = u^† *m u.
Proof.
apply/matrixP=> k k'; rewrite summxE [RHS]mxE.
transitivity (\sum_(s < q1) \sum_(a < D0) (u (mxtens_index (s, a)) k)^* * u (mxtens_index (s, a)) k').
  by apply: eq_bigr => s _; rewrite mxE; apply: eq_bigr => a _; rewrite adjE !unmat1E.
rewrite -(sum_tens (fun s a => (u (mxtens_index (s, a)) k)^* * u (mxtens_index (s, a)) k')).
by apply: eq_bigr => w _; rewrite adjE -surjective_pairing mxtens_unindexK.
Qed.
Lemma unmat2_gram d (vh : 'M[C]_(d, q2 * D2)) : \sum_(t < q2) unmat2 vh t *m (unmat2 vh t)^† = vh *m vh^†.
Proof.
apply/matrixP=> k k'; rewrite summxE [RHS]mxE.
transitivity (\sum_(t < q2) \sum_(b < D2) vh k (mxtens_index (t, b)) * (vh k' (mxtens_index (t, b)))^*).
  by apply: eq_bigr => s _; rewrite mxE; apply: eq_bigr => a _; rewrite adjE !unmat2E.
rewrite -(sum_tens (fun t b => vh k (mxtens_index (t, b)) * (vh k' (mxtens_index (t, b)))^*)).
by apply: eq_bigr => w _; rewrite adjE -surjective_pairing mxtens_unindexK.
Qed.
(* the Frobenius norm of a two-site tensor *)
Lemma frob_mat AA (X : 'M[C]_(q1 * D0, q2 * D2)) :
  (forall (s : 'I_q1) (t : 'I_q2) a b, AA s t a b = X (mxtens_index (s, a)) (mxtens_index (t, b))) ->
  \sum_(s < q1) \sum_(t < q2) adot (AA s t) (AA s t) = adot X X.
Proof.
move=> h; rewrite [RHS]/adot.
transitivity (\sum_(s < q1) \sum_(a < D0) \sum_(t < q2) \sum_(b < D2)
   (X (mxtens_index (s, a)) (mxtens_index (t, b)))^* * X (mxtens_index (s, a)) (mxtens_index (t, b))).
  apply: eq_bigr => s _; rewrite exchange_big /=; apply: eq_bigr => t _.
  by apply: eq_bigr => a _; apply: eq_bigr => b _; rewrite !h.
rewrite -(sum_tens (fun s a => \sum_(t < q2) \sum_(b < D2)
   (X (mxtens_index (s, a)) (mxtens_index (t, b)))^* * X (mxtens_index (s, a)) (mxtens_index (t, b)))).
apply: eq_bigr => w _; rewrite -surjective_pairing mxtens_unindexK.
rewrite -(sum_tens (fun t b => (X w (mxtens_index (t, b)))^* * X w (mxtens_index (t, b)))).
by apply: eq_bigr => v _; rewrite -surjective_pairing mxtens_unindexK.
Qed.

Lemma keepD_le k (sv : 'rV[C]_k) Dmax ms : (keepD sv Dmax ms <= minn Dmax k)%N.
Proof. by rewrite /keepD -{2}(size_iota 0 (minn Dmax k)) find_size. Qed.
Lemma keepD_kept k (sv : 'rV[C]_k) Dmax ms i : (i < keepD sv Dmax ms)%N -> ~~ (svn sv i < ms).
Proof.
move=> h; have := before_find 0%N h; rewrite nth_iota ?add0n; first by move=> ->.
exact: leq_trans h (keepD_le _ _ _).
Qed.
Lemma keepD_stop k (sv : 'rV[C]_k) Dmax ms : (keepD sv Dmax ms < minn Dmax k)%N ->
  svn sv (keepD sv Dmax ms) < ms.
Proof.
move=> h; have hf : has (fun i => svn sv i < ms) (iota 0 (minn Dmax k)).
  by rewrite has_find size_iota.
by have := nth_find 0%N hf; rewrite nth_iota ?add0n.
Qed.
End Split.
