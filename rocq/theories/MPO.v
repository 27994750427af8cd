(* MPO.v -- matrix product operators on the finite chain:
   core_common.eps_r_op_MPO, mps_gen.expect_MPO / apply_op_MPO and
   tdvp_common.apply_MPO_local. *)
From mathcomp Require Import all_ssreflect all_algebra zify.
From mathcomp.real_closed Require Import mxtens.
From Verif Require Import Base Spec Eps Chain ChainProofs ChainProofs2.
Set Implicit Arguments.
Unset Strict Implicit.
Unset Printing Implicit Defensive.
Import GRing.Theory Num.Theory.
Local Open Scope ring_scope.

Section MPO.
Variable C : numClosedFieldType.

(* an MPO with bond dimensions M, indexed by the site on which its tensors act:
   for the Python list MPO applied from site n1 on,
   MPO[j][a,b,s,t] = W (n1+j) s t a b  (shape [mL,mR,pbra,pket]) *)
Definition mpo (M : nat -> nat) := forall n, nat -> nat -> 'M[C]_(M n, M n.+1).

(* ---- specification ------------------------------------------------------- *)
(* ordered product of the MPO matrices of sites n, n+1, ... for bra configuration c and
   ket configuration d *)
Fixpoint wprod M (W : mpo M) (e n : nat) (c d : seq nat) : 'M[C]_(M n, M e) :=
  match c, d with
  | s :: c', t :: d' => W n s t *m wprod W e n.+1 c' d'
  | _, _ => pid_mx (M e)
  end.
(* matrix element <c|O|d> of the operator represented by k MPO tensors on sites n1, ..., n1+k-1
   (outer MPO bonds of dimension M n1 = M (n1+k) = 1) *)
Definition mpo_elem M (W : mpo M) (n1 k : nat) (c d : seq nat) : C :=
  entry0 (wprod W (n1 + k) n1 c d).

(* ---- model ---------------------------------------------------------------- *)
(* core_common.eps_r_op_MPO (core_common.py:256-260): the three tensordots;
   x: [M2,Dket,Dbra] is a function of the MPO index *)
Definition eps_r_op_MPO q Da Db Da' Db' M1 M2 (x : 'I_M2 -> 'M[C]_(Da', Db'))
   (A1 : nat -> 'M[C]_(Da, Da')) (A2 : nat -> 'M[C]_(Db, Db'))
   (op : nat -> nat -> 'M[C]_(M1, M2)) : 'I_M1 -> 'M[C]_(Da, Db) :=
  let A1x := fun (p : nat) (b : 'I_M2) => A1 p *m x b in                (* [p, D1ket, xM, xD2bra] *)
  let A1xop := fun (a : 'I_M1) (s : nat) =>
     \sum_(b < M2) \sum_(t < q) op s t a b *: A1x t b in                (* [M1,pbra,D1ket,xD2bra] *)
  fun a => \sum_(s < q) A1xop a s *m (A2 s)^†.

Section OnChain.
Variables (D q : nat -> nat) (A : tensors C D) (M : nat -> nat) (W : mpo M).

(* expect_MPO (mps_gen.py:1040-1052): x at bond n when k sites of the MPO are to the right.  The
   starting x is r[n_end] with a leading axis of length 1. *)
Fixpoint mpo_x (r : forall n, 'M[C]_(D n)) (k n : nat) : 'I_(M n) -> 'M[C]_(D n) :=
  match k return 'I_(M n) -> 'M[C]_(D n) with
  | k'.+1 => eps_r_op_MPO (q n) (mpo_x r k' (n := n.+1)) (A n) (A n) (W n)
  | 0%N => fun _ => r n
  end.
(* the final reshape drops the leading axis of length M n1 = 1 *)
Definition expect_MPO (l r : forall n, 'M[C]_(D n)) (k n1 : nat) : C :=
  adot (l n1) (\sum_(a < M n1 | a == 0%N :> nat) mpo_x r k a).

(* tdvp_common.apply_MPO_local (tdvp_common.py:346-354): tensordot over the ket index, transpose
   to [pbra, D1,M1, D2,M2], C-order reshape to (q, D1*M1, D2*M2) *)
Definition apply_MPO_local q D1 D2 M1 M2 (Mn : nat -> nat -> 'M[C]_(M1, M2))
   (An : nat -> 'M[C]_(D1, D2)) : nat -> 'M[C]_(D1 * M1, D2 * M2) :=
  fun s => \matrix_(i, j)
    \sum_(t < q) Mn s t (mxtens_unindex i).2 (mxtens_unindex j).2
                 * An t (mxtens_unindex i).1 (mxtens_unindex j).1.

(* apply_op_MPO (mps_gen.py:1169-1175), do_update=False: k tensors applied at sites n1, ...,
   n1+k-1.  The new bond dimension is D n * M n; outside the window M n = 1 and the
   tensor is the unchanged array, written with an extra axis of length 1. *)
Definition apply_op_MPO (n1 k : nat) : tensors C (fun n => D n * M n)%N :=
  fun n s => if (n1 <= n < n1 + k)%N then apply_MPO_local (q n) (W n) (A n) s
             else A n s *t (pid_mx 1 : 'M_(M n, M n.+1)).

(* ---- proofs ---------------------------------------------------------------- *)
Lemma mpo_xE (r : forall n, 'M[C]_(D n)) k n e a : (n + k)%N = e ->
  mpo_x r k a = \sum_(c <- cfgs q k n) \sum_(d <- cfgs q k n)
     (\sum_(b < M e) wprod W e n c d a b) *: (amp A e n d *m r e *m (amp A e n c)^†).
Proof.
elim: k n a => [|k IH] n a /=.
  rewrite addn0 => e0; subst e; rewrite !big_seq1 /= !pid_mx_1 adj1 mul1mx mulmx1.
  rewrite (bigD1 a) //= mxE eqxx /= big1 ?addr0 ?scale1r // => b /negbTE ba.
  by rewrite mxE eq_sym ba.
rewrite addnS -addSn => h; rewrite -!/(cfgs q k.+1 n) sum_cfgsS /eps_r_op_MPO.
apply: eq_bigr => s _; rewrite mulmx_suml.
under eq_bigr => b _.
  rewrite mulmx_suml.
  under eq_bigr => t _ do rewrite (IH _ _ h) mulmx_sumr scaler_sumr mulmx_suml.
  rewrite exchange_big /=.
  over.
rewrite exchange_big /=; apply: eq_bigr => c _.
under eq_bigr => b _.
  under eq_bigr => t _ do rewrite mulmx_sumr scaler_sumr mulmx_suml.
  over.
rewrite exchange_big /= sum_cfgsS; apply: eq_bigr => t _.
rewrite exchange_big /=; apply: eq_bigr => d _.
under eq_bigr => b _.
  rewrite -scalemxAr scalerA -scalemxAl.
  over.
rewrite -scaler_suml /= adjM !mulmxA; congr (_ *: _).
under [RHS]eq_bigr => b _ do rewrite mxE.
by rewrite exchange_big /=; apply: eq_bigr => b _; rewrite mulr_sumr.
Qed.

Section Expect.
Variables (N : nat) (lb : 'M[C]_(D 0)) (rb : 'M[C]_(D N)) (l r : forall n, 'M[C]_(D n)).
Hypotheses (hl : up_l q A N lb l) (hr : up_r q A N rb r).

Lemma expect_MPOE n1 k : (n1 + k <= N)%N -> M n1 = 1%N -> M (n1 + k) = 1%N ->
  expect_MPO l r k n1 =
  bdotst q N lb rb (psi A N) (opwin q n1 k (mpo_elem W n1 k) (psi A N)).
Proof.
move=> h M1 M2; rewrite (bdotst_opwin _ hl hr (erefl (n1 + k)%N) h) /expect_MPO.
congr (adot _ _).
etransitivity; first by apply: eq_bigr => a _; apply: (mpo_xE r a (erefl (n1 + k)%N)).
rewrite exchange_big /=; apply: eq_bigr => c _; rewrite exchange_big /=; apply: eq_bigr => d _.
rewrite -scaler_suml; congr (_ *: _); rewrite /mpo_elem /entry0; apply: eq_bigr => a _.
by apply: eq_bigl => b; move: b; rewrite M2 => b; rewrite ord1.
Qed.
End Expect.

(* apply_MPO_local is a sum of Kronecker products *)
Lemma apply_MPO_localE q' D1 D2 M1 M2 (Mn : nat -> nat -> 'M[C]_(M1, M2))
   (An : nat -> 'M[C]_(D1, D2)) s :
  apply_MPO_local q' Mn An s = \sum_(t < q') An t *t Mn s t.
Proof.
apply/matrixP => i j; rewrite mxE summxE; apply: eq_bigr => t _.
by rewrite mxE mulrC.
Qed.

Lemma pid_tens a b : (pid_mx (a * b) : 'M[C]_(a * b)) = pid_mx a *t pid_mx b.
Proof.
rewrite !pid_mx_1; apply/matrixP => i j.
case: (mxtens_indexP i) => i1 i2; case: (mxtens_indexP j) => j1 j2.
rewrite tensmxE !mxE -natrM mulnb; congr (_%:R : C); congr (nat_of_bool _).
apply/eqP/andP=> [/(congr1 (@mxtens_unindex _ _))|[/eqP-> /eqP->]] //.
by rewrite !mxtens_indexK => -[-> ->].
Qed.

(* amplitudes on a window inside the MPO *)
Lemma amp_mpo_in n1 k e n c : (n1 <= n)%N -> (n + size c)%N = e -> (e <= n1 + k)%N ->
  amp (apply_op_MPO n1 k) e n c =
  \sum_(d <- cfgs q (size c) n) amp A e n d *t wprod W e n c d.
Proof.
elim: c n => [|s c IH] n n1n /=.
  by rewrite addn0 => ->; rewrite big_seq1 /= -pid_tens.
rewrite addnS -addSn => h1 h2; rewrite -/(cfgs q (size c).+1 n) sum_cfgsS.
have hin : (n1 <= n < n1 + k)%N by rewrite n1n; lia.
rewrite {1}/apply_op_MPO hin apply_MPO_localE IH //; last exact: leqW.
rewrite mulmx_suml; apply: eq_bigr => t _; rewrite mulmx_sumr; apply: eq_bigr => d _.
by rewrite tensmx_mul.
Qed.

(* outside the MPO *)
Fixpoint pidprod (e n k : nat) : 'M[C]_(M n, M e) :=
  if k is k'.+1 then (pid_mx 1 : 'M_(M n, M n.+1)) *m pidprod e n.+1 k' else pid_mx (M e).

Lemma amp_mpo_out n1 k e n c : (n + size c)%N = e -> (e <= n1)%N || (n1 + k <= n)%N ->
  amp (apply_op_MPO n1 k) e n c = amp A e n c *t pidprod e n (size c).
Proof.
elim: c n => [|s c IH] n /=.
  by rewrite addn0 => -> _; rewrite -pid_tens.
rewrite addnS -addSn => h1 h2.
have hout : (n1 <= n < n1 + k)%N = false by apply/negP => /andP[h3 h4]; lia.
rewrite {1}/apply_op_MPO hout IH ?tensmx_mul //; lia.
Qed.

Lemma entry0_tens a b c d (X : 'M[C]_(a, b)) (Y : 'M[C]_(c, d)) :
  a = 1%N -> b = 1%N -> c = 1%N -> d = 1%N -> entry0 (X *t Y) = entry0 X * entry0 Y.
Proof.
move=> *; subst.
rewrite (entry0_1 X erefl erefl) (entry0_1 Y erefl erefl) (entry0_1 (X *t Y) (muln1 1%N) (muln1 1%N)).
by rewrite mxE !cast_ord_id; congr (X _ _ * Y _ _); rewrite ?ord1; apply/esym/ord1.
Qed.

Lemma entry0_pidprod e n k : (n + k)%N = e -> (forall p, (n <= p <= e)%N -> M p = 1%N) ->
  entry0 (pidprod e n k) = 1.
Proof.
elim: k n => [|k IH] n /=.
  rewrite addn0 => e0 h; subst e; have M1 : M n = 1%N by rewrite h ?leqnn.
  by rewrite (entry0_1 _ M1 M1) mxE /= M1.
rewrite addnS -addSn => h1 h.
have M1 : M n = 1%N by apply: h; lia.
have M2 : M n.+1 = 1%N by apply: h; lia.
have M3 : M e = 1%N by apply: h; lia.
rewrite entry0M // IH // => [|p hp]; last by apply: h; lia.
by rewrite (entry0_1 _ M1 M2) mxE mulr1.
Qed.

Lemma entry0Z m n (x : C) (X : 'M[C]_(m, n)) : entry0 (x *: X) = x * entry0 X.
Proof.
rewrite /entry0 mulr_sumr; apply: eq_bigr => i _; rewrite mulr_sumr.
by apply: eq_bigr => j _; rewrite mxE.
Qed.

Lemma apply_op_MPOE N n1 k c : (n1 + k <= N)%N -> size c = N ->
  D 0%N = 1%N -> D N = 1%N ->
  (forall n, (n <= n1)%N || (n1 + k <= n)%N -> M n = 1%N) ->
  amplitude N (apply_op_MPO n1 k) c =
  entry0 (opwin q n1 k (mpo_elem W n1 k) (psi A N) c).
Proof.
move=> h sz D0 DN hM.
have n1N : (n1 <= N)%N by lia.
pose c1 := take n1 c; pose c2 := take k (drop n1 c); pose c3 := drop (k + n1) c.
have ec : c = c1 ++ c2 ++ c3 by rewrite /c1 /c2 /c3 -drop_drop !cat_take_drop.
have s1 : size c1 = n1 by rewrite size_takel // sz.
have s2 : size c2 = k by rewrite size_takel // size_drop sz; lia.
have s3 : size c3 = (N - (k + n1))%N by rewrite size_drop sz.
clearbody c1 c2 c3; subst c.
have e1 : (0 + size c1)%N = n1 by rewrite s1.
have e2 : (n1 + size c2)%N = (n1 + k)%N by rewrite s2.
have e3 : (n1 + k + size c3)%N = N by rewrite s3; lia.
rewrite /amplitude /psi opwin_cat // (amp_cat _ _ _ e1) (amp_cat _ _ _ e2).
rewrite (amp_mpo_out (k := k) e1) ?leqnn // (amp_mpo_out (n1 := n1) e3) ?leqnn ?orbT //.
rewrite (amp_mpo_in (k := k) (leqnn n1) e2 (leqnn _)) s2.
rewrite mulmx_suml mulmx_sumr !entry0_sum; apply: eq_big_seq => d /size_cfgs sd.
have ed : (n1 + size d)%N = (n1 + k)%N by rewrite sd.
rewrite !tensmx_mul entry0_tens //; try by [apply: hM; lia | apply: hM; rewrite leqnn ?orbT].
  rewrite /psi (amp_cat _ _ _ e1) (amp_cat _ _ _ ed) entry0Z mulrC; congr (_ * _).
  rewrite !entry0M ?entry0_pidprod ?mul1r ?mulr1 //; try by apply: hM; lia.
  - by move=> p hp; apply: hM; lia.
  - by move=> p hp; apply: hM; lia.
Qed.

End OnChain.
End MPO.
