(* Struct.v -- model of the structured matrix classes of matmul.py (eyemat, simple_diag_matrix), of
   mmul, mmul_diag, dot_inplace, adot, adot_noconj, H, sqrtmh and invmh.

   A value of type [smat m n] is a Python object of shape (m, n): a dense ndarray, a
   simple_diag_matrix or an eyemat.  isinstance tests and method dispatch become pattern matching.
   dtypes are not modelled (all scalars are exact complex numbers). *)
From mathcomp Require Import all_ssreflect all_algebra.
From mathcomp.real_closed Require Import mxtens.
From Verif Require Import Base LinAlg.
Set Implicit Arguments.
Unset Strict Implicit.
Unset Printing Implicit Defensive.
Import Order.TTheory GRing.Theory Num.Theory.
Local Open Scope ring_scope.

Section Struct.
Variable C : numClosedFieldType.

Inductive smat : nat -> nat -> Type :=
| SDense m n of 'M[C]_(m, n) : smat m n     (* numpy.ndarray *)
| SDiag n of 'rV[C]_n : smat n n            (* simple_diag_matrix(diag) *)
| SEye n : smat n n.                        (* eyemat(D) *)

(* toarray (matmul.py:26-27, 188-189), also __array__ and .A; the identity on ndarrays *)
Definition toarray m n (a : smat m n) : 'M[C]_(m, n) :=
  match a with
  | SDense _ _ M => M
  | SDiag _ d => \matrix_(i, j) if i == j then d 0 i else 0 (* sp.diag *)
  | SEye _ => 1%:M
  end.

(* mmul_diag (matmul.py:397-417), act_right=True: multiply(Adiag, B.T).T; act_right=False:
   multiply(Adiag, B), broadcasting over rows *)
Definition mmul_diag_r m n (d : 'rV[C]_m) (B : 'M[C]_(m, n)) : 'M[C]_(m, n) :=
  (\matrix_(i, j) (d 0 j * B^T i j))^T.
Definition mmul_diag_l m n (d : 'rV[C]_n) (B : 'M[C]_(m, n)) : 'M[C]_(m, n) :=
  \matrix_(i, j) (d 0 j * B i j).

(* dot (matmul.py:78-82, 144-150; ndarray.dot converts its argument with __array__) *)
Definition dot m n p (a : smat m n) : smat n p -> smat m p :=
  match a in smat m n return smat n p -> smat m p with
  | SDense m n M => fun b => SDense (M *m toarray b)
  | SDiag n d => fun b =>
      match b in smat n p return 'rV[C]_n -> smat n p with
      | SDense n p B => fun d => SDense (mmul_diag_r d B)
      | SDiag n e => fun d => SDiag (\row_i (d 0 i * e 0 i))
      | SEye n => fun d => SDiag d
      end d
  | SEye n => fun b => b
  end.

(* x.dot_left(res) (matmul.py:84-88, 152-158) *)
Definition dot_left m n p (a : smat m n) (x : smat n p) : option (smat m p) :=
  match x in smat n p return smat m n -> option (smat m p) with
  | SDense _ _ _ => fun _ => None (* AttributeError: ndarray has no dot_left *)
  | SDiag n d => fun a => Some
      (match a in smat m n return 'rV[C]_n -> smat m n with
       | SDense m n A => fun d => SDense (mmul_diag_l d A)
       | SDiag n e => fun d => SDiag (\row_i (d 0 i * e 0 i))
       | SEye n => fun d => SDiag d
       end d)
  | SEye n => fun a => Some a
  end a.

(* one step of mmul (matmul.py:247-284): try x.dot_left(res), except: res.dot(x) *)
Definition mmul2 m n p (res : smat m n) (x : smat n p) : smat m p :=
  if dot_left res x is Some y then y else dot res x.
(* mmul of a chain of square arguments, and of three arguments of any shape *)
Definition mmul n (a : smat n n) (args : seq (smat n n)) : smat n n := foldl (@mmul2 n n n) a args.
Definition mmul3 m n p k (a : smat m n) (b : smat n p) (c : smat p k) := mmul2 (mmul2 a b) c.

(* dot_inplace(A, B, out) (matmul.py:295-307): value written to out *)
Definition dot_inplace m n p (a : smat m n) : smat n p -> 'M[C]_(m, p) :=
  match a in smat m n return smat n p -> 'M[C]_(m, p) with
  | SEye n => fun b => toarray b
  | SDense m n A => fun b =>
      match b in smat n p return 'M[C]_(m, n) -> 'M[C]_(m, p) with
      | SEye _ => fun A => A
      | SDiag _ d => fun A => mmul_diag_l d A
      | SDense _ _ B => fun A => A *m B
      end A
  | SDiag n d => fun b =>
      match b in smat n p return 'rV[C]_n -> 'M[C]_(n, p) with
      | SEye _ => fun d => toarray (SDiag d)
      | SDiag _ e => fun d => mmul_diag_r d (toarray (SDiag e)) (* mmul_diag(A.diag, B): B.T is B *)
      | SDense _ _ B => fun d => mmul_diag_r d B
      end d
  end.

(* conj, transpose (T), and H (matmul.py:90-94, 160-164, 337-354) *)
Definition sconj m n (a : smat m n) : smat m n :=
  match a with
  | SDense _ _ M => SDense (map_mx conjC M)
  | SDiag _ d => SDiag (map_mx conjC d)
  | SEye n => SEye n
  end.
Definition str m n (a : smat m n) : smat n m :=
  match a in smat m n return smat n m with
  | SDense _ _ M => SDense M^T
  | SDiag _ d => SDiag d
  | SEye n => SEye n
  end.
Definition sH m n (a : smat m n) : smat n m := sconj (str a).

(* trace(offset) (matmul.py:96-100, 182-186) *)
Definition strace m n (a : smat m n) (offset : int) : C :=
  match a with
  | SDense m n M => \sum_(i < m) \sum_(j < n) (if (j : int) == (i : int) + offset then M i j else 0)
  | SDiag n d => if offset == 0 then \sum_(i < n) d 0 i else 0
  | SEye n => if offset == 0 then n%:R else 0
  end.

(* diagonal() (matmul.py:102-103, 179-180) *)
Definition sdiagonal n (a : smat n n) : nat -> C :=
  fun i => if insub i is Some i' then toarray a i' i' else 0.

(* inv(), sqrt() of the structured classes (matmul.py:105-109, 166-170) *)
Definition sinv n (a : smat n n) : option (smat n n) :=
  match a in smat m n return option (smat m n) with
  | SDense _ _ _ => None (* ndarray has no method inv *)
  | SDiag _ d => Some (SDiag (\row_i (d 0 i)^-1))
  | SEye n => Some (SEye n)
  end.
Definition ssqrt n (a : smat n n) : option (smat n n) :=
  match a in smat m n return option (smat m n) with
  | SDense _ _ _ => None
  | SDiag _ d => Some (SDiag (\row_i sqrtC (d 0 i)))
  | SEye n => Some (SEye n)
  end.

(* __mul__ / __rmul__ with a scalar, __mul__ with an array of the same shape (elementwise),
   __add__ and __sub__ (matmul.py:29-66, 194-226) *)
Definition sscale m n (a : smat m n) (x : C) : smat m n :=
  match a with
  | SDense _ _ M => SDense (x *: M)
  | SDiag _ d => SDiag (\row_i (d 0 i * x))
  | SEye n => SDiag (\row_(i < n) (1 * x))
  end.
Definition smul_elem n (a : smat n n) (M : 'M[C]_n) : smat n n :=
  match a in smat m n return 'M[C]_(m, n) -> smat m n with
  | SDense _ _ A => fun M => SDense (\matrix_(i, j) (A i j * M i j))
  | SDiag _ d => fun M => SDiag (\row_i (d 0 i * M i i))
  | SEye n => fun M => SDiag (\row_i M i i)
  end M.
Definition sadd m n (a : smat m n) (M : 'M[C]_(m, n)) : 'M[C]_(m, n) := toarray a + M.
Definition ssub m n (a : smat m n) (M : 'M[C]_(m, n)) : 'M[C]_(m, n) := toarray a - M.

(* ravel() (matmul.py:111-112, 172-173): row-major list of all entries; adot and adot_noconj *)
Definition sravel m n (a : smat m n) : 'rV[C]_(m * n) := \row_w toarray a (mxtens_unindex w).1 (mxtens_unindex w).2.
Definition sadot m n (a b : smat m n) : C := \sum_w (sravel a 0 w)^* * sravel b 0 w.
Definition sadot_noconj m n (a : smat m n) (b : smat n m) : C := \sum_w sravel (str a) 0 w * sravel b 0 w.

(* ---- agreement with dense matrices ---------------------------------------- *)
Lemma toarray_diag n (d : 'rV[C]_n) : toarray (SDiag d) = diag_mx d.
Proof.
apply/matrixP=> i j; rewrite !mxE; case: eqP => [->|]; by rewrite ?mulr1n ?mulr0n.
Qed.

Lemma mmul_diag_rE m n (d : 'rV[C]_m) (B : 'M[C]_(m, n)) : mmul_diag_r d B = diag_mx d *m B.
Proof. by rewrite mul_diag_mx; apply/matrixP=> i j; rewrite !mxE. Qed.
Lemma mmul_diag_lE m n (d : 'rV[C]_n) (B : 'M[C]_(m, n)) : mmul_diag_l d B = B *m diag_mx d.
Proof. by rewrite mul_mx_diag; apply/matrixP=> i j; rewrite !mxE mulrC. Qed.

Lemma diag_mx_mul n (d e : 'rV[C]_n) : diag_mx (\row_i (d 0 i * e 0 i)) = diag_mx d *m diag_mx e.
Proof.
by rewrite mul_diag_mx; apply/matrixP=> i j; rewrite !mxE mulrnAr.
Qed.

Lemma dotE m n p (a : smat m n) (b : smat n p) : toarray (dot a b) = toarray a *m toarray b.
Proof.
case: a b => {m n} [m n M|n d|n] b //=; last by rewrite mul1mx.
rewrite -/(toarray (SDiag d)) toarray_diag.
case: b d => {n p} [n p B|n e|n] d /=; rewrite ?mmul_diag_rE // -?/(toarray (SDiag _)) ?toarray_diag.
- by rewrite diag_mx_mul.
- by rewrite mulmx1.
Qed.

Lemma dot_leftE m n p (a : smat m n) (x : smat n p) y :
  dot_left a x = Some y -> toarray y = toarray a *m toarray x.
Proof.
rewrite /dot_left; case: x a y => {n p} [n p M|n d|n] a y //= [<-]; last by rewrite mulmx1.
rewrite -/(toarray (SDiag d)) toarray_diag.
case: a d {y} => {m n} [m n M|n e|n] d /=; rewrite ?mmul_diag_lE // -?/(toarray (SDiag _)) ?toarray_diag.
- rewrite -diag_mx_mul; congr diag_mx; apply/rowP=> i; by rewrite !mxE mulrC.
- by rewrite mul1mx.
Qed.

Lemma mmul2E m n p (a : smat m n) (x : smat n p) : toarray (mmul2 a x) = toarray a *m toarray x.
Proof.
rewrite /mmul2; case e: (dot_left a x) => [y|]; last exact: dotE.
exact: dot_leftE.
Qed.

Lemma mmulE n (a : smat n n) args :
  toarray (mmul a args) = foldl (fun M x => M *m toarray x) (toarray a) args.
Proof. by elim: args a => [//|x args IH] a /=; rewrite IH mmul2E. Qed.

Lemma dot_inplaceE m n p (a : smat m n) (b : smat n p) : dot_inplace a b = toarray a *m toarray b.
Proof.
case: a b => {m n} [m n M|n d|n] b /=; last by rewrite mul1mx.
- case: b M => {n p} [n p B|n e|n] M //=; last by rewrite mulmx1.
  by rewrite mmul_diag_lE -/(toarray (SDiag e)) toarray_diag.
- rewrite -/(toarray (SDiag d)) toarray_diag.
  case: b d => {n p} [n p B|n e|n] d /=; rewrite ?mmul_diag_rE //.
  by rewrite mulmx1 -/(toarray (SDiag d)) toarray_diag.
Qed.

Lemma sconjE m n (a : smat m n) : toarray (sconj a) = map_mx conjC (toarray a).
Proof.
case: a => {m n} [m n M|n d|n] //=; apply/matrixP=> i j; rewrite !mxE; last by rewrite rmorph_nat.
by case: eqP => //; rewrite conjC0.
Qed.
Lemma strE m n (a : smat m n) : toarray (str a) = (toarray a)^T.
Proof.
case: a => {m n} [m n M|n d|n] //=; last by rewrite trmx1.
by apply/matrixP=> i j; rewrite !mxE eq_sym; case: eqP => // ->.
Qed.
Lemma sHE m n (a : smat m n) : toarray (sH a) = (toarray a)^†.
Proof. by rewrite /sH sconjE strE. Qed.

Lemma sum_offset n (f : 'I_n -> C) (i : 'I_n) (k : int) :
  \sum_(j < n) (if (j : int) == (i : int) + k then (if i == j then f i else 0) else 0) =
  if k == 0 then f i else 0.
Proof.
rewrite (bigD1 i) //= eqxx big1 ?addr0 => [|j ji]; last first.
  by rewrite eq_sym in ji; rewrite (negbTE ji) if_same.
by rewrite -{1}[(i : int)]addr0 (inj_eq (addrI _)) eq_sym.
Qed.

Lemma straceE m n (a : smat m n) (k : int) :
  strace a k = \sum_(i < m) \sum_(j < n) (if (j : int) == (i : int) + k then toarray a i j else 0).
Proof.
case: a => {m n} [m n M|n d|n] //=.
- transitivity (\sum_(i < n) if k == 0 then d 0 i else 0).
    by case: eqP => // _; rewrite big1.
  apply: eq_bigr => i _; rewrite -(sum_offset (fun i => d 0 i) i).
  by apply: eq_bigr => j _; rewrite mxE.
- transitivity (\sum_(i < n) (if k == 0 then 1 else 0) : C).
    case: (k == 0); last by rewrite big1.
    by rewrite sumr_const card_ord.
  apply: eq_bigr => i _; rewrite -(sum_offset (fun i => 1) i).
  by apply: eq_bigr => j _; rewrite mxE; case: (i == j).
Qed.

Lemma sscaleE m n (a : smat m n) x : toarray (sscale a x) = x *: toarray a.
Proof.
case: a => {m n} [m n M|n d|n] //=; apply/matrixP=> i j; rewrite !mxE.
  by case: eqP => _; rewrite ?mulr0 // mulrC.
by case: eqP => _; rewrite ?mulr0 // mul1r mulr1.
Qed.

Lemma smul_elemE n (a : smat n n) (M : 'M[C]_n) i j :
  toarray (smul_elem a M) i j = toarray a i j * M i j.
Proof.
suff h m k (b : smat m k) : forall (M' : 'M[C]_(m, k)) i j, toarray
   (match b in smat m n return 'M[C]_(m, n) -> smat m n with
    | SDense _ _ A => fun M => SDense (\matrix_(i, j) (A i j * M i j))
    | SDiag _ d => fun M => SDiag (\row_i (d 0 i * M i i))
    | SEye n => fun M => SDiag (\row_i M i i)
    end M') i j = toarray b i j * M' i j by exact: h.
case: b => {m k} [m k B|k d|k] M' i' j'; rewrite !mxE //; case: eqP => [->|_]; rewrite ?mul0r ?mul1r //.
Qed.

Lemma sinvE n (a : smat n n) b : sinv a = Some b -> (forall i, toarray a i i != 0) ->
  toarray a *m toarray b = 1%:M.
Proof.
suff h m k (x : smat m k) : forall (y : smat m k), forall e : m = k,
   match x in smat m n return option (smat m n) with
   | SDense _ _ _ => None
   | SDiag _ d => Some (SDiag (\row_i (d 0 i)^-1))
   | SEye n => Some (SEye n)
   end = Some y -> (forall i : 'I_m, toarray x i (cast_ord e i) != 0) ->
   toarray x *m castmx (e, erefl) (toarray y) = castmx (erefl, e) (1%:M : 'M_m).
  move=> e1 e2; have := h n n a b erefl e1; rewrite !castmx_id; apply=> i; rewrite cast_ord_id; exact: e2.
case: x => {m k} [m k B|k d|k] y e //= [<-]; rewrite (eq_axiomK e) !castmx_id => nz.
- rewrite -/(toarray (SDiag d)) -/(toarray (SDiag _)) !toarray_diag -diag_mx_mul.
  apply/matrixP=> i j; rewrite !mxE; case: eqP => // _; rewrite ?mulr0n // divff //.
  by have := nz i; rewrite mxE cast_ord_id eqxx.
- by rewrite mulmx1.
Qed.

Lemma ssqrtE n (a : smat n n) b : ssqrt a = Some b -> toarray b *m toarray b = toarray a.
Proof.
suff h m k (x : smat m k) : forall (y : smat m k), forall e : m = k,
   match x in smat m n return option (smat m n) with
   | SDense _ _ _ => None
   | SDiag _ d => Some (SDiag (\row_i sqrtC (d 0 i)))
   | SEye n => Some (SEye n)
   end = Some y ->
   toarray y *m castmx (e, erefl) (toarray y) = toarray x.
  by move=> e1; have := h n n a b erefl e1; rewrite !castmx_id.
case: x => {m k} [m k B|k d|k] y e //= [<-]; rewrite (eq_axiomK e) !castmx_id.
- rewrite -/(toarray (SDiag d)) -/(toarray (SDiag _)) !toarray_diag -diag_mx_mul; congr diag_mx.
  by apply/rowP=> i; rewrite !mxE -expr2 sqrtCK.
- by rewrite mulmx1.
Qed.

Lemma sum_ravel m n (F : 'I_m -> 'I_n -> C) :
  \sum_w F (mxtens_unindex w).1 (mxtens_unindex w).2 = \sum_i \sum_j F i j.
Proof.
rewrite pair_bigA [LHS](reindex (@mxtens_index m n)).
  by apply: eq_bigr => [[i j]] _; rewrite (mxtens_indexK (i, j)).
by exists (@mxtens_unindex m n) => w _; rewrite ?mxtens_indexK ?mxtens_unindexK.
Qed.

Lemma sadotE m n (a b : smat m n) : sadot a b = \tr ((toarray a)^† *m toarray b).
Proof.
rewrite -adotE /adot -(sum_ravel (fun i j => (toarray a i j)^* * toarray b i j)).
by apply: eq_bigr => w _; rewrite !mxE.
Qed.
Lemma sadot_noconjE m n (a : smat m n) (b : smat n m) :
  sadot_noconj a b = \tr (toarray a *m toarray b).
Proof.
rewrite /sadot_noconj.
transitivity (\sum_i \sum_j (toarray a)^T i j * toarray b i j).
  rewrite -(sum_ravel (fun i j => (toarray a)^T i j * toarray b i j)).
  by apply: eq_bigr => w _; rewrite !mxE strE mxE.
rewrite /mxtrace exchange_big /=; apply: eq_bigr => i _; rewrite mxE.
by apply: eq_bigr => j _; rewrite mxE.
Qed.

(* ---- functions of Hermitian matrices -------------------------------------- *)
Variable eigh : eigh_routine C.
(* sqrtmh (matmul.py:356-395) and invmh (419-432) without evd *)
Definition sqrtmh n (A : 'M[C]_n) : 'M[C]_n :=
  let: (ev, EV) := eigh A in
  let ev := \row_i sqrtC (ev 0 i) in
  let B := mmul_diag_r ev EV^† in EV *m B.
Definition invmh n (A : 'M[C]_n) : 'M[C]_n :=
  let: (ev, EV) := eigh A in
  let ev := \row_i (ev 0 i)^-1 in
  let B := mmul_diag_r ev EV^† in EV *m B.

Hypothesis eighP : eigh_contract eigh.
Lemma sqrtmhE n (A : 'M[C]_n) : herm A -> sqrtmh A *m sqrtmh A = A.
Proof.
move=> hA; have /and4P[/eqP h1 /eqP h2 _ _] := eighP hA.
rewrite /sqrtmh; case: (eigh A) h1 h2 => ev EV /= h1 h2.
rewrite !mmul_diag_rE !mulmxA -(mulmxA _ EV^† EV) h1 mulmx1 -(mulmxA EV) -diag_mx_mul.
have -> : (\row_i ((\row_i0 sqrtC (ev 0 i0)) 0 i * (\row_i0 sqrtC (ev 0 i0)) 0 i)) = ev.
  by apply/rowP=> i; rewrite !mxE -expr2 sqrtCK.
by rewrite -h2 -mulmxA (unitary_sym h1) mulmx1.
Qed.
Lemma sqrtmh_herm n (A : 'M[C]_n) : herm A -> psd A -> herm (sqrtmh A).
Proof.
move=> hA pA; have /and4P[/eqP h1 /eqP h2 _ _] := eighP hA.
rewrite /sqrtmh; case: (eigh A) h1 h2 => ev EV /= h1 h2.
rewrite /herm mmul_diag_rE !adjM adjK -mulmxA; congr (_ *m (_ *m _)).
apply/matrixP=> i j; rewrite !mxE rmorphMn /= eq_sym; case: eqP => [->|_]; rewrite ?mulr0n ?mulr1n //.
have e k : 0 <= ev 0 k.
  have := psd_diag_ge0 k (psd_sandwich EV pA); rewrite -mulmxA h2 mulmxA h1 mul1mx mxE eqxx.
  by rewrite mulr1n.
by apply/CrealP/ger0_real; rewrite sqrtC_ge0.
Qed.
Lemma invmhE n (A : 'M[C]_n) : herm A -> A \in unitmx -> invmh A = invmx A.
Proof.
move=> hA uA; have /and4P[/eqP h1 /eqP h2 _ _] := eighP hA.
rewrite /invmh; case: (eigh A) h1 h2 => ev EV /= h1 h2.
have eA : A = EV *m diag_mx ev *m EV^† by rewrite -h2 -mulmxA (unitary_sym h1) mulmx1.
have nz i : ev 0 i != 0.
  have : diag_mx ev \in unitmx.
    have -> : diag_mx ev = EV^† *m A *m EV by rewrite -mulmxA h2 mulmxA h1 mul1mx.
    have uE : EV \in unitmx by case/mulmx1_unit: h1.
    have uE' : EV^† \in unitmx by case/mulmx1_unit: h1.
    by rewrite !unitmx_mul uE uE' uA.
  rewrite unitmxE det_diag unitfE => /prodf_neq0; exact.
apply: (@row_free_inj _ _ _ _ A _ ); rewrite ?row_free_unit // mulVmx //.
rewrite eA mmul_diag_rE !mulmxA -(mulmxA _ EV^† EV) h1 mulmx1 -(mulmxA EV) -diag_mx_mul.
have -> : diag_mx (\row_i ((\row_i0 (ev 0 i0)^-1) 0 i * ev 0 i)) = 1%:M.
  by apply/matrixP=> i j; rewrite !mxE mulVf.
by rewrite mulmx1 (unitary_sym h1).
Qed.
End Struct.

(* simple_diag_matrix.dot / dot_left for two diagonal matrices of arbitrary sizes
   (matmul.py:144-146, 152-154): numpy's elementwise product of two one-dimensional arrays, which
   broadcasts an array of length one and raises ValueError for other unequal lengths *)
Definition diag_dot_diag (C : numClosedFieldType) (d e : seq C) : option (seq C) :=
  if size d == size e then Some [seq x.1 * x.2 | x <- zip d e]
  else if size d == 1%N then Some [seq nth 0 d 0 * y | y <- e]
  else if size e == 1%N then Some [seq x * nth 0 e 0 | x <- d]
  else None.
