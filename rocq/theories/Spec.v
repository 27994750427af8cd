(* Spec.v -- the independent specification: the state vector of an open chain.

   Nothing here refers to the algorithms of evoMPS.  A chain of sites has site
   dimensions [q] and bond dimensions [D]; site number n (0-based here, site
   n+1 in Python) carries matrices [A n s] of shape D n x D n.+1, one for every
   value s of the physical index ("A[n] is a q[n] x D[n-1] x D[n] tensor",
   mps_gen.py:70-72 and 107-113).  The state vector assigns to a configuration
   c = [:: s_0; ...; s_{N-1}] the ordered product A 0 s_0 *m ... *m A (N-1) s_{N-1},
   a D 0 x D N matrix (a number for open boundary conditions, D 0 = D N = 1). *)
From mathcomp Require Import all_ssreflect all_algebra.
From Verif Require Import Base.
Set Implicit Arguments.
Unset Strict Implicit.
Unset Printing Implicit Defensive.
Import GRing.Theory Num.Theory.
Local Open Scope ring_scope.

(* all configurations of k consecutive sites n, n+1, ..., n+k-1 *)
Fixpoint cfgs (q : nat -> nat) (k n : nat) : seq (seq nat) :=
  if k is k'.+1 then [seq s :: c | s <- iota 0 (q n), c <- cfgs q k' n.+1]
  else [:: [::]].

Lemma mem_cfgs q k n c :
  (c \in cfgs q k n) =
  (size c == k) && all (fun i => (nth 0 c i < q (n + i))%N) (iota 0 k).
Proof.
elim: k n c => [|k IH] n c /=.
  by rewrite inE andbT; case: c.
apply/allpairsP/idP => [[[s c'] /= [hs hc' ->]]|].
  rewrite mem_iota in hs; rewrite IH in hc'.
  case/andP: hc' => /eqP sz /allP h; rewrite /= sz eqxx /= addn0.
  move: hs => /= ->/=; apply/allP => i; rewrite mem_iota => /andP[i0 ik].
  case: i i0 ik => // i _; rewrite add1n => ik /=.
  by rewrite addnS -addSn; apply: h; rewrite mem_iota.
case: c => [|s c] //.
rewrite /= eqSS addn0 => /andP[sz /andP[hs /allP h]].
exists (s, c); split=> //=; first by rewrite mem_iota.
rewrite IH sz /=; apply/allP=> i; rewrite mem_iota => /andP[_ ik].
have := h i.+1; rewrite mem_iota /= add1n ltnS => /(_ ik).
by rewrite addnS -addSn.
Qed.

Lemma cfgsP q k n c :
  reflect (size c = k /\ forall i, (i < k)%N -> (nth 0 c i < q (n + i)%N)%N)
          (c \in cfgs q k n).
Proof.
rewrite mem_cfgs; apply: (iffP andP) => [[/eqP sz /allP h]|[sz h]]; split=> //.
- by move=> i ik; apply: h; rewrite mem_iota.
- by apply/eqP.
- by apply/allP => i; rewrite mem_iota => /andP[_ ik]; apply: h.
Qed.

Lemma cfgs_uniq q k n : uniq (cfgs q k n).
Proof.
elim: k n => [|k IH] n //=.
apply: allpairs_uniq => //; first exact: iota_uniq.
by move=> [s c] [s' c'] _ _ /= [-> ->].
Qed.

Lemma size_cfgs q k n c : c \in cfgs q k n -> size c = k.
Proof. by case/cfgsP. Qed.


Section Sums.
Variables (V : zmodType) (q : nat -> nat).

Lemma sum_cfgs0 n (F : seq nat -> V) : \sum_(c <- cfgs q 0 n) F c = F [::].
Proof. by rewrite big_seq1. Qed.

Lemma sum_cfgsS k n (F : seq nat -> V) :
  \sum_(c <- cfgs q k.+1 n) F c =
  \sum_(s < q n) \sum_(c <- cfgs q k n.+1) F (val s :: c).
Proof.
rewrite /= big_allpairs_dep /=.
by rewrite -(subn0 (q n)) -/(index_iota 0 (q n)) big_mkord subn0.
Qed.

Lemma sum_cfgs_cat k1 k2 n (F : seq nat -> V) :
  \sum_(c <- cfgs q (k1 + k2) n) F c =
  \sum_(c1 <- cfgs q k1 n) \sum_(c2 <- cfgs q k2 (k1 + n)) F (c1 ++ c2).
Proof.
elim: k1 n F => [|k1 IH] n F; first by rewrite add0n sum_cfgs0.
rewrite addSn !sum_cfgsS; apply: eq_bigr => s _.
by rewrite IH; apply: eq_bigr => c1 _; rewrite addnS.
Qed.

Lemma eq_sum_cfgs k n (F G : seq nat -> V) :
  (forall c, size c = k -> F c = G c) ->
  \sum_(c <- cfgs q k n) F c = \sum_(c <- cfgs q k n) G c.
Proof. by move=> h; apply: eq_big_seq => c /size_cfgs; apply: h. Qed.

Lemma sum_cfgs_rcons k n (F : seq nat -> V) :
  \sum_(c <- cfgs q k.+1 n) F c =
  \sum_(c <- cfgs q k n) \sum_(s < q (k + n)) F (rcons c s).
Proof.
rewrite -addn1 sum_cfgs_cat; apply: eq_bigr => c _.
rewrite sum_cfgsS; apply: eq_bigr => s _.
by rewrite sum_cfgs0 cats1.
Qed.

End Sums.

Section State.
Variable C : numClosedFieldType.

(* site tensors of a chain with bond dimensions D *)
Definition tensors (D : nat -> nat) := forall n, nat -> 'M[C]_(D n, D n.+1).

Section OneChain.
Variables (D : nat -> nat) (A : tensors D).

(* ordered matrix product over sites n, n+1, ..., e-1 (with e = n + size c); the closing
   factor is the identity, pid_mx (D e) : 'M_(D e, D e) = 1%:M *)
Fixpoint amp (e n : nat) (c : seq nat) : 'M[C]_(D n, D e) :=
  if c is s :: c' then A n s *m amp e n.+1 c' else pid_mx (D e).

(* the state vector of the chain of N sites *)
Definition psi (N : nat) (c : seq nat) : 'M[C]_(D 0, D N) := amp N 0 c.

Lemma amp_nil e : amp e e [::] = 1%:M.
Proof. by rewrite /= pid_mx_1. Qed.

Lemma amp_cons e n s c : amp e n (s :: c) = A n s *m amp e n.+1 c.
Proof. by []. Qed.

Lemma amp_one n s : amp n.+1 n [:: s] = A n s.
Proof. by rewrite /= pid_mx_1 mulmx1. Qed.

Lemma amp_cat e n p c1 c2 : (n + size c1)%N = p ->
  amp e n (c1 ++ c2) = amp p n c1 *m amp e p c2.
Proof.
elim: c1 n => [|s c1 IH] n /=; first by rewrite addn0 => <-; rewrite pid_mx_1 mul1mx.
by rewrite addnS -addSn => /IH ->; rewrite mulmxA.
Qed.

Lemma amp_rcons e n c s : (n + size c)%N = e ->
  amp e.+1 n (rcons c s) = amp e n c *m A e s.
Proof. by move=> h; rewrite -cats1 (amp_cat _ _ h) amp_one. Qed.

End OneChain.

Lemma eq_amp D (A B : tensors D) e n c :
  (forall m s, (n <= m)%N -> (m < n + size c)%N -> A m s = B m s) ->
  amp A e n c = amp B e n c.
Proof.
elim: c n => [|s c IH] n //= h.
rewrite h ?leqnn ?addnS ?ltnS ?leq_addr // IH // => m s' nm mn.
by apply: h; [exact: ltnW | rewrite /= addnS -addSn].
Qed.

(* ---- operators acting on amplitude functions ---------------------------- *)
Section Ops.
Variables (V : lmodType C) (q : nat -> nat).
Implicit Types phi : seq nat -> V.

(* single-site operator o[s,t] = <s|o|t> acting on site m *)
Definition op1 (m : nat) (o : nat -> nat -> C) phi : seq nat -> V :=
  fun c => \sum_(t < q m) o (nth 0%N c m) t *: phi (set_nth 0%N c m t).

(* two-site operator o[s,t,u,v] = <st|o|uv> acting on sites m, m+1 *)
Definition op2 (m : nat) (o : nat -> nat -> nat -> nat -> C) phi : seq nat -> V :=
  fun c => \sum_(u < q m) \sum_(v < q m.+1)
    o (nth 0%N c m) (nth 0%N c m.+1) u v
    *: phi (set_nth 0%N (set_nth 0%N c m u) m.+1 v).

(* three-site operator o[s,t,u,v,w,x] = <stu|o|vwx> on sites m, m+1, m+2 *)
Definition op3 (m : nat) (o : nat -> nat -> nat -> nat -> nat -> nat -> C) phi :
  seq nat -> V :=
  fun c => \sum_(u < q m) \sum_(v < q m.+1) \sum_(w < q m.+2)
    o (nth 0%N c m) (nth 0%N c m.+1) (nth 0%N c m.+2) u v w
    *: phi (set_nth 0%N (set_nth 0%N (set_nth 0%N c m u) m.+1 v) m.+2 w).

(* the same operator applied at each of the j sites n, n+1, ..., n+j-1 *)
Fixpoint op_string (o : nat -> nat -> C) (n j : nat) phi : seq nat -> V :=
  if j is j'.+1 then op1 n o (op_string o n.+1 j' phi) else phi.

(* a general operator <c|O|d> on the window of w sites starting at site m *)
Definition opwin (m w : nat) (O : seq nat -> seq nat -> C) phi : seq nat -> V :=
  fun c => \sum_(d <- cfgs q w m)
     O (take w (drop m c)) d *: phi (take m c ++ d ++ drop (w + m) c).

End Ops.

(* Hermitian operators *)
Definition herm_op1 (o : nat -> nat -> C) := forall s t, o s t = (o t s)^*.
Definition herm_op2 (o : nat -> nat -> nat -> nat -> C) :=
  forall s t u v, o s t u v = (o u v s t)^*.

(* ---- inner products of state vectors ------------------------------------ *)
(* <phi|phi'>, summing over all configurations of N sites (and over the
   boundary indices, which are trivial for D 0 = D N = 1) *)
Definition dotst (q : nat -> nat) (N : nat) m n (phi phi' : seq nat -> 'M[C]_(m, n)) : C :=
  \sum_(c <- cfgs q N 0) \sum_i \sum_j (phi c i j)^* * phi' c i j.

(* the same with arbitrary boundary density matrices (left lb, right rb), used
   for chains embedded in an environment *)
Definition bdotst (q : nat -> nat) (N : nat) m n (lb : 'M[C]_m) (rb : 'M[C]_n)
    (phi phi' : seq nat -> 'M[C]_(m, n)) : C :=
  \sum_(c <- cfgs q N 0) \tr ((phi c)^† *m lb^† *m phi' c *m rb).

(* amplitude of a configuration for open boundary conditions (D 0 = D N = 1): the single entry *)
Definition amplitude (N : nat) D (A : tensors D) (c : seq nat) : C := entry0 (psi A N c).

(* reduced density matrices: sum over all other sites of conj psi(..s..) psi(..t..), i.e.
   <t|rho|s> in the usual notation *)
Definition rdm1 (q : nat -> nat) (N : nat) m n (phi : seq nat -> 'M[C]_(m, n)) (k s t : nat) : C :=
  \sum_(c1 <- cfgs q k 0) \sum_(c3 <- cfgs q (N - k.+1) k.+1)
    adot (phi (c1 ++ s :: c3)) (phi (c1 ++ t :: c3)).
(* two sites k1 < k2 *)
Definition rdm2 (q : nat -> nat) (N : nat) m n (phi : seq nat -> 'M[C]_(m, n))
    (k1 k2 s1 t1 s2 t2 : nat) : C :=
  \sum_(c1 <- cfgs q k1 0) \sum_(c2 <- cfgs q (k2 - k1.+1) k1.+1)
    \sum_(c3 <- cfgs q (N - k2.+1) k2.+1)
    adot (phi (c1 ++ s1 :: c2 ++ s2 :: c3)) (phi (c1 ++ t1 :: c2 ++ t2 :: c3)).

Lemma dotstE q N m n (phi phi' : seq nat -> 'M[C]_(m, n)) :
  dotst q N phi phi' = \sum_(c <- cfgs q N 0) adot (phi c) (phi' c).
Proof. by []. Qed.

Lemma bdotst1 q N m n (phi phi' : seq nat -> 'M[C]_(m, n)) :
  bdotst q N 1%:M 1%:M phi phi' = dotst q N phi phi'.
Proof.
by apply: eq_bigr => c _; rewrite adj1 !mulmx1 -adotE.
Qed.

End State.
