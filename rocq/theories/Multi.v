(* Multi.v -- eps_r_noop_multi (core_common.py:262-327): several ket and bra tensors, grouped
   differently, contracted with a mixed-radix decoding of one flat index; and the dense
   transfer matrix (mps_uniform_pinv.py:82-104, mps_uniform.py:295-316). *)
From mathcomp Require Import all_ssreflect all_algebra zify.
From mathcomp.real_closed Require Import mxtens.
From Verif Require Import Base Spec Eps Chain ChainProofs.
Set Implicit Arguments.
Unset Strict Implicit.
Unset Printing Implicit Defensive.
Import GRing.Theory Num.Theory.
Local Open Scope ring_scope.

(* product of the k dimensions from position n on *)
Fixpoint dimprod (q : nat -> nat) (k n : nat) : nat :=
  if k is k'.+1 then (q n * dimprod q k' n.+1)%N else 1%N.

Section Model.
Variable C : numClosedFieldType.
Variables (D : nat -> nat) (A : tensors C D) (dims : nat -> nat).

(* core_common.py:304-307 (ket) and 313-316 (bra): product of the tensors j, ..., j+k-1, the tensor
   in position i taken at index (s // prod_{later dims}) % dim_i.  The numpy arrays A1dims,
   A1dims_prod hold the reversed dimensions and their cumulative products. *)
Fixpoint multi_prod (s : nat) (e k j : nat) : 'M[C]_(D j, D e) :=
  if k is k'.+1
  then A j ((s %/ dimprod dims k' j.+1) %% dims j)%N *m multi_prod s e k' j.+1
  else pid_mx (D e).
End Model.

(* core_common.py:286-327, with n1 ket tensors A1 and n2 bra tensors A2 *)
Definition eps_r_noop_multi (C : numClosedFieldType) (D1 D2 : nat -> nat) (n1 n2 : nat)
    (dims1 dims2 : nat -> nat) (A1 : tensors C D1) (A2 : tensors C D2)
    (x : 'M[C]_(D1 n1, D2 n2)) : 'M[C]_(D1 0%N, D2 0%N) :=
  \sum_(s < dimprod dims1 n1 0%N)
    multi_prod A1 dims1 s n1 n1 0%N *m (x *m (multi_prod A2 dims2 s n2 n2 0%N)^†).

(* ---- C-order flattening of a group of sites ------------------------------ *)
(* the configuration of k sites starting at site n with flat (row-major) index w *)
Fixpoint unflat (q : nat -> nat) (k n w : nat) : seq nat :=
  if k is k'.+1
  then (w %/ dimprod q k' n.+1)%N :: unflat q k' n.+1 (w %% dimprod q k' n.+1)
  else [::].

Lemma size_unflat q k n w : size (unflat q k n w) = k.
Proof. by elim: k n w => [|k IH] n w //=; rewrite IH. Qed.

Lemma sum_unflat (V : zmodType) q k n (F : seq nat -> V) :
  \sum_(w < dimprod q k n) F (unflat q k n w) = \sum_(c <- cfgs q k n) F c.
Proof.
elim: k n F => [|k IH] n F; first by rewrite big_ord1 big_seq1.
rewrite sum_cfgsS /= (sum_divmod (q n) (dimprod q k n.+1) (fun a b => F (a :: unflat q k n.+1 b))).
by apply: eq_bigr => s _; rewrite (IH n.+1 (fun c => F (val s :: c))).
Qed.

Lemma dimprod_add q k1 k2 n : dimprod q (k1 + k2) n = (dimprod q k1 n * dimprod q k2 (k1 + n))%N.
Proof.
elim: k1 n => [|k1 IH] n; first by rewrite mul1n.
by rewrite addSn /= IH mulnA addnS.
Qed.

Lemma unflat_cat q k1 k2 n w : (w < dimprod q (k1 + k2) n)%N ->
  unflat q (k1 + k2) n w =
  unflat q k1 n (w %/ dimprod q k2 (k1 + n)) ++
  unflat q k2 (k1 + n) (w %% dimprod q k2 (k1 + n)).
Proof.
elim: k1 n w => [|k1 IH] n w wlt; first by rewrite modn_small.
have P0 : (0 < dimprod q (k1 + k2) n.+1)%N.
  by rewrite lt0n; apply: contraL wlt => /eqP; rewrite /= => ->; rewrite muln0.
rewrite /= IH ?ltn_pmod // dimprod_add addnS.
set P1 := dimprod _ k1 _; set P2 := dimprod _ k2 _.
rewrite modn_dvdm ?dvdn_mull // mulnC divnMA; congr (_ :: unflat _ _ _ _ ++ _).
have [->|P20] := posnP P2; first by rewrite mul0n !divn0 mod0n.
by rewrite divn_modl ?dvdn_mulr // mulKn.
Qed.

(* ---- grouped tensors ------------------------------------------------------ *)
(* a chain of sites with dimensions q is cut into groups: group j comprises the a j sites
   starting at site st j.  T j c is the (unflattened) tensor of group j at the configuration c
   of its sites, shape (q.., q.., D j, D j.+1). *)
Section Groups.
Variables (C : numClosedFieldType) (q : nat -> nat) (D : nat -> nat).
Variable T : forall j, seq nat -> 'M[C]_(D j, D j.+1).
Variable a : nat -> nat.

(* number of sites in groups j, ..., j+k-1 *)
Fixpoint nsites (k j : nat) : nat := if k is k'.+1 then (a j + nsites k' j.+1)%N else 0%N.

(* specification: ordered product of the group tensors for a joint configuration *)
Fixpoint gprod (e k j : nat) (c : seq nat) : 'M[C]_(D j, D e) :=
  if k is k'.+1 then T j (take (a j) c) *m gprod e k' j.+1 (drop (a j) c)
  else pid_mx (D e).

(* A1t.reshape((prod(shape[:-2]), ...)) for every group (core_common.py:289-290); group j starts at
   site nsites j 0 *)
Definition group_start (j : nat) := nsites j 0.
Definition gdims (j : nat) : nat := dimprod q (a j) (group_start j).
Definition gflat : tensors C D := fun j w => T j (unflat q (a j) (group_start j) w).

Lemma nsites_rcons k j : nsites k.+1 j = (nsites k j + a (k + j))%N.
Proof.
elim: k j => [|k IH] j; first by rewrite /= addn0.
by rewrite [LHS]/= -/(nsites k.+1 j.+1) IH /= addnA addnS.
Qed.

Lemma dimprod_groups k j :
  dimprod gdims k j = dimprod q (nsites k j) (group_start j).
Proof.
elim: k j => [|k IH] j //=; rewrite IH dimprod_add /gdims; congr (_ * dimprod _ _ _)%N.
by rewrite /group_start nsites_rcons addn0 addnC.
Qed.

Lemma dimprod_gt0 k n : (forall i, 0 < q i)%N -> (0 < dimprod q k n)%N.
Proof. by move=> h; elim: k n => [|k IH] n //=; rewrite muln_gt0 h IH. Qed.

Lemma multi_prodE s e k j : (forall i, 0 < q i)%N ->
  multi_prod gflat gdims s e k j =
  gprod e k j (unflat q (nsites k j) (group_start j) (s %% dimprod q (nsites k j) (group_start j))).
Proof.
move=> q0; elim: k j => [|k IH] j //=.
rewrite IH dimprod_groups unflat_cat ?ltn_pmod ?dimprod_gt0 // dimprod_add.
have -> : (a j + group_start j)%N = group_start j.+1 by rewrite /group_start nsites_rcons addn0 addnC.
set P2 := dimprod q (nsites k j.+1) _; set P1 := dimprod q (a j) _.
have P20 : (0 < P2)%N by apply: dimprod_gt0.
rewrite take_size_cat ?size_unflat // drop_size_cat ?size_unflat //.
rewrite modn_dvdm ?dvdn_mull //; congr (T _ (unflat _ _ _ _) *m _).
by rewrite divn_modl ?dvdn_mull // mulnK.
Qed.
End Groups.

Lemma eps_r_noop_multiE (C : numClosedFieldType) (q : nat -> nat) (D1 D2 : nat -> nat)
    (T1 : forall j, seq nat -> 'M[C]_(D1 j, D1 j.+1)) (T2 : forall j, seq nat -> 'M[C]_(D2 j, D2 j.+1))
    (a1 a2 : nat -> nat) (n1 n2 K : nat) (x : 'M[C]_(D1 n1, D2 n2)) :
  (forall i, 0 < q i)%N -> nsites a1 n1 0 = K -> nsites a2 n2 0 = K ->
  eps_r_noop_multi (gdims q a1) (gdims q a2) (gflat q T1 a1) (gflat q T2 a2) x =
  \sum_(c <- cfgs q K 0) gprod T1 a1 n1 n1 0 c *m x *m (gprod T2 a2 n2 n2 0 c)^†.
Proof.
move=> q0 h1 h2; rewrite /eps_r_noop_multi dimprod_groups h1 /group_start /=.
rewrite -(sum_unflat q K 0 (fun c => gprod T1 a1 n1 n1 0 c *m x *m (gprod T2 a2 n2 n2 0 c)^†)).
apply: eq_bigr => w _; rewrite !multi_prodE // h1 h2 /group_start /= modn_small //.
by rewrite mulmxA.
Qed.

(* ---- the dense transfer matrix -------------------------------------------- *)
Section Kron.
Variable C : numClosedFieldType.

(* x.ravel(): row-major flattening *)
Definition ravel m n (x : 'M[C]_(m, n)) : 'cV[C]_(m * n) :=
  \col_k x (mxtens_unindex k).1 (mxtens_unindex k).2.

(* E = sum_s kron(A1[s], conj(A2[s])) (mps_uniform_pinv.py:86-88, mps_uniform.py:311-313) *)
Definition dense_E q Da Db Da' Db' (A1 : nat -> 'M[C]_(Da, Da')) (A2 : nat -> 'M[C]_(Db, Db')) :
    'M[C]_(Da * Db, Da' * Db') :=
  \sum_(s < q) A1 s *t map_mx conjC (A2 s).

Lemma ravel_inj m n : injective (@ravel m n).
Proof.
move=> x y /matrixP h; apply/matrixP => i j.
by have := h (mxtens_index (i, j)) 0; rewrite !mxE mxtens_indexK.
Qed.

Lemma sum_tens (V : zmodType) m n (F : 'I_(m * n) -> V) :
  \sum_k F k = \sum_(i < m) \sum_(j < n) F (mxtens_index (i, j)).
Proof.
rewrite pair_big /= (reindex (@mxtens_index m n)) /=; first by apply: eq_bigr => -[i j].
exists (@mxtens_unindex m n) => k _; [exact: mxtens_indexK | exact: mxtens_unindexK].
Qed.

Lemma kron_ravel Da Db Da' Db' (A : 'M[C]_(Da, Da')) (B : 'M[C]_(Db, Db')) (x : 'M[C]_(Da', Db')) :
  (A *t map_mx conjC B) *m ravel x = ravel (A *m x *m B^†).
Proof.
apply/matrixP => k z; rewrite ord1 => {z}; rewrite !mxE.
case: (mxtens_indexP k) => i j; rewrite mxtens_indexK /= sum_tens.
rewrite exchange_big; apply: eq_bigr => b _; rewrite mxE mulr_suml.
apply: eq_bigr => a _; rewrite tensmxE !mxE mxtens_indexK /=.
by rewrite mulrAC.
Qed.

Lemma dense_E_right q Da Db Da' Db' (A1 : nat -> 'M[C]_(Da, Da')) (A2 : nat -> 'M[C]_(Db, Db'))
    (x : 'M[C]_(Da', Db')) :
  dense_E q A1 A2 *m ravel x = ravel (eps_r_noop q x A1 A2).
Proof.
rewrite /dense_E mulmx_suml /eps_r_noop.
have -> : ravel (\sum_(s < q) A1 s *m x *m (A2 s)^†) = \sum_(s < q) ravel (A1 s *m x *m (A2 s)^†).
  by apply/matrixP => k z; rewrite mxE !summxE; apply: eq_bigr => s _; rewrite [RHS]mxE.
by apply: eq_bigr => s _; rewrite kron_ravel.
Qed.

Lemma adot_ravel m n (x y : 'M[C]_(m, n)) : adot (ravel x) (ravel y) = adot x y.
Proof.
rewrite /adot; under eq_bigr => k _ do rewrite big_ord1.
rewrite sum_tens; apply: eq_bigr => i _; apply: eq_bigr => j _.
by rewrite !mxE mxtens_indexK.
Qed.

Lemma dense_E_left q Da Db Da' Db' (A1 : nat -> 'M[C]_(Da, Da')) (A2 : nat -> 'M[C]_(Db, Db'))
    (x : 'M[C]_(Da, Db)) :
  (dense_E q A1 A2)^† *m ravel x = ravel (eps_l_noop q x A1 A2).
Proof.
suff h (v : 'cV[C]_(Da' * Db')) :
    adot ((dense_E q A1 A2)^† *m ravel x) v = adot (ravel (eps_l_noop q x A1 A2)) v.
  apply/eqP; rewrite -subr_eq0 -adot_eq0 adotBl h -adotBl subrr adot0l //.
have -> : v = ravel (\matrix_(i, j) v (mxtens_index (i, j)) 0).
  apply/matrixP => k z; rewrite ord1 !mxE -surjective_pairing mxtens_unindexK //.
by rewrite adot_mull adjK dense_E_right !adot_ravel eps_adjoint.
Qed.

End Kron.
