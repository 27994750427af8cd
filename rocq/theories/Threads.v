(* Threads.v -- model of the C extension eps_maps_c.pyx: the OpenMP-parallel transfer maps
   eps_l_noop_inplace / eps_r_noop_inplace, written on flat memory.

   Arrays are flat (C-contiguous, row-major) functions from offsets to scalars, as seen by the
   BLAS calls.  A thread's work is a list of single-element stores; a schedule is an arbitrary list of
   thread numbers, each entry lets that thread perform its next store.  Hence every
   interleaving of the chunks, at the granularity of single array elements, is covered; OpenMP
   assigning several chunks to one thread gives a subset of these interleavings.
   BLAS zgemm/zaxpy are modelled by their reference definition (column-major, leading dimensions,
   'n'/'c' flags); blocking inside BLAS is not modelled.  Not modelled: memory faults for an `out`
   array of the wrong shape (boundscheck is off in the source), integer overflow, rounding. *)
From mathcomp Require Import all_ssreflect all_algebra.
From mathcomp Require Import zify.
From Verif Require Import Base Eps Struct.
Set Implicit Arguments.
Unset Strict Implicit.
Unset Printing Implicit Defensive.
Import Order.TTheory GRing.Theory Num.Theory.
Local Open Scope ring_scope.

Section Mem.
Variable C : numClosedFieldType.

(* (false, k): element k of the scratch array A1Hx / A1x; (true, k): element k of outs *)
Definition loc := (bool * nat)%type.
Definition mem := loc -> C.
Record action := Act { addr : loc; val : mem -> C }.
Definition exec (m : mem) (a : action) : mem := fun l => if l == addr a then val a m else m l.
Definition execs (m : mem) (p : seq action) : mem := foldl exec m p.

(* threads: remaining stores of each thread *)
Definition cstate := (mem * (nat -> seq action))%type.
Definition cstep (st : cstate) (i : nat) : cstate :=
  if st.2 i is a :: p then (exec st.1 a, fun j => if j == i then p else st.2 j) else st.
Definition crun (st : cstate) (sched : seq nat) : cstate := foldl cstep st sched.

Fixpoint all_act (P : action -> Prop) (p : seq action) : Prop :=
  if p is a :: p' then P a /\ all_act P p' else True.

(* a store of thread i touches and reads only locations of thread i *)
Definition owned (own : loc -> nat) i (a : action) :=
  own (addr a) = i /\
  forall m1 m2, (forall l, own l = i -> m1 l = m2 l) -> val a m1 = val a m2.

Lemma all_act_cat (P : action -> Prop) p p' : all_act P (p ++ p') <-> all_act P p /\ all_act P p'.
Proof. by elim: p => [|a p IH] /=; [tauto | rewrite IH; tauto]. Qed.

Lemma all_act_map (T : eqType) (P : action -> Prop) (f : T -> action) s :
  (forall t, t \in s -> P (f t)) -> all_act P (map f s).
Proof.
elim: s => //= t s IH h; split; first by apply: h; rewrite mem_head.
by apply: IH => u us; apply: h; rewrite in_cons us orbT.
Qed.

Lemma execs_cat m p p' : execs m (p ++ p') = execs (execs m p) p'.
Proof. exact: foldl_cat. Qed.

Lemma execs_agree own i p m1 m2 : all_act (owned own i) p ->
  (forall l, own l = i -> m1 l = m2 l) -> forall l, own l = i -> execs m1 p l = execs m2 p l.
Proof.
elim: p m1 m2 => [|a p IH] m1 m2 //= [[oa va] op] h; apply: IH => // l ol.
by rewrite /exec; case: ifP => // _; [apply: va | apply: h].
Qed.

Lemma crun_inv own sched : forall st, (forall i, all_act (owned own i) (st.2 i)) ->
  (forall i, all_act (owned own i) ((crun st sched).2 i)) /\
  (forall i l, own l = i -> execs (crun st sched).1 ((crun st sched).2 i) l = execs st.1 (st.2 i) l).
Proof.
elim: sched => [|j sched IH] st h //=.
have step : (forall i, all_act (owned own i) ((cstep st j).2 i)) /\
    (forall i l, own l = i -> execs (cstep st j).1 ((cstep st j).2 i) l = execs st.1 (st.2 i) l).
  rewrite /cstep; case E: (st.2 j) => [|a p] //=.
  have := h j; rewrite E /= => -[[oa va] op]; split=> i; first by case: eqP => [->|].
  move=> l ol; case: eqP => [ij|ij]; first by rewrite ij E.
  apply: (execs_agree (h i)) => // l' ol'; rewrite /exec; case: eqP => // el.
  by case: ij; rewrite -ol' el oa.
have [s1 s2] := step; have [c1 c2] := IH _ s1; split=> // i l ol.
by rewrite c2 // s2.
Qed.

(* whatever the schedule, once every thread has finished each location holds what its owner
   would have computed alone *)
Lemma crunP own n m (prog : nat -> seq action) sched :
  (forall i, all_act (owned own i) (prog i)) ->
  (forall i, (i < n)%N -> (crun (m, prog) sched).2 i = [::]) ->
  forall l, (own l < n)%N -> (crun (m, prog) sched).1 l = execs m (prog (own l)) l.
Proof.
move=> h fin l ln; have [_ c] := @crun_inv own sched (m, prog) h.
by rewrite -(c (own l) l erefl) fin.
Qed.

(* ---- batches of independent stores ---------------------------------------- *)
Section Batch.
Variables (T : eqType) (f : T -> action) (P : pred loc).

Lemma execs_other m p l : all_act (fun a => addr a != l) p -> execs m p l = m l.
Proof. by elim: p m => [|a p IH] m //= [al ap]; rewrite IH // /exec eq_sym (negbTE al). Qed.

Lemma execs_batch ts m t : uniq (map (addr \o f) ts) ->
  (forall u, u \in ts -> P (addr (f u)) /\
     forall m1 m2, m1 (addr (f u)) = m2 (addr (f u)) -> (forall l, ~~ P l -> m1 l = m2 l) ->
       val (f u) m1 = val (f u) m2) ->
  t \in ts -> execs m (map f ts) (addr (f t)) = val (f t) m.
Proof.
elim: ts m => [|u ts IH] m //= /andP[un uq] h; rewrite in_cons.
have [-> _|nt /= tts] := eqVneq t u.
  rewrite execs_other; first by rewrite /exec eqxx.
  apply: all_act_map => v vts; apply: contra un => /eqP e; apply/mapP; by exists v.
rewrite IH //; last by move=> v vts; apply: h; rewrite in_cons vts orbT.
have [|_ hv] := h t; first by rewrite in_cons tts orbT.
apply: hv => [|l nl]; rewrite /exec.
  case: eqP => // e; case/negP: un; apply/mapP; exists t => //=.
case: eqP => // e; have [pu _] := h u (mem_head _ _); by rewrite e pu in nl.
Qed.
End Batch.

(* ---- BLAS zgemm, reference semantics --------------------------------------- *)
(* op(X)[i,l] of a column-major X with leading dimension ld; 'n' (t=false) or 'c' (t=true) *)
Definition gop (t : bool) (X : nat -> C) ld i l := if t then (X (l + i * ld)%N)^* else X (i + l * ld)%N.

(* Cm[i + j ldc] := alpha sum_l op(A)[i,l] op(B)[l,j] + beta Cm[i + j ldc], i < M, j < N, l < K;
   A and B may be arrays in memory *)
Definition zgemm (ta tb : bool) (M N K : nat) (alpha : C) (A : mem -> nat -> C) lda
    (B : mem -> nat -> C) ldb (beta : C) (dst : loc) ldc : seq action :=
  [seq (let a := (dst.1, dst.2 + (ij.1 + ij.2 * ldc))%N in
        Act a (fun m => alpha * (\sum_(l < K) gop ta (A m) lda ij.1 l * gop tb (B m) ldb l ij.2) + beta * m a))
   | ij <- [seq (i, j) | j <- iota 0 N, i <- iota 0 M]].

(* region of an N x ld row-major array starting at dst *)
Definition region (dst : loc) sz : pred loc := fun l => (l.1 == dst.1) && (dst.2 <= l.2 < dst.2 + sz)%N.

Lemma in_ij M N ij : (ij \in [seq (i, j) | j <- iota 0 N, i <- iota 0 M]) = (ij.1 < M)%N && (ij.2 < N)%N.
Proof.
apply/allpairsP/idP => [[[j i] /= [hj hi ->]]|/andP[hi hj]] /=.
  by move: hj hi; rewrite !mem_iota /= !add0n => -> ->.
by exists (ij.2, ij.1); rewrite !mem_iota /= !add0n hi hj -surjective_pairing.
Qed.

Lemma uniq_addr (dst : loc) M N ld : (M <= ld)%N ->
  uniq [seq ((dst.1, dst.2 + (ij.1 + ij.2 * ld))%N : loc) | ij <- [seq (i, j) | j <- iota 0 N, i <- iota 0 M]].
Proof.
move=> Ml; rewrite map_inj_in_uniq.
  by apply: allpairs_uniq; rewrite ?iota_uniq // => -[a b] [c d] _ _ /= [-> ->].
move=> [i j] [i' j']; rewrite !in_ij /= => /andP[hi hj] /andP[hi' hj'] [e].
have {e} e : (i + j * ld = i' + j' * ld)%N by lia.
have ld0 : (0 < ld)%N by lia.
have : ((i + j * ld) %% ld = (i' + j' * ld) %% ld)%N by rewrite e.
rewrite !(addnC _ (_ * ld)%N) !modnMDl !modn_small; try lia.
by move=> ei; subst i'; move: e => /addnI /eqP; rewrite eqn_pmul2r // => /eqP ->.
Qed.

Lemma zgemm_own own i0 ta tb M N K al A lda B ldb be dst ldc :
  (forall i j, (i < M)%N -> (j < N)%N -> own (dst.1, dst.2 + (i + j * ldc))%N = i0) ->
  (forall m1 m2, (forall l, own l = i0 -> m1 l = m2 l) -> forall i l, (i < M)%N -> (l < K)%N ->
     gop ta (A m1) lda i l = gop ta (A m2) lda i l) ->
  (forall m1 m2, (forall l, own l = i0 -> m1 l = m2 l) -> forall l j, (l < K)%N -> (j < N)%N ->
     gop tb (B m1) ldb l j = gop tb (B m2) ldb l j) ->
  all_act (owned own i0) (zgemm ta tb M N K al A lda B ldb be dst ldc).
Proof.
move=> hd hA hB; apply: all_act_map => -[i j]; rewrite in_ij /= => /andP[hi hj]; split=> /=; first exact: hd.
move=> m1 m2 h; rewrite (h _ (hd _ _ hi hj)); congr (_ * _ + _); apply: eq_bigr => l _.
by rewrite (hA _ _ h) // (hB _ _ h).
Qed.

Lemma zgemmP ta tb M N K al A lda B ldb be dst ldc m : (M <= ldc)%N ->
  (forall m1 m2, (forall l, ~~ region dst (N * ldc) l -> m1 l = m2 l) -> forall i l, (i < M)%N -> (l < K)%N ->
     gop ta (A m1) lda i l = gop ta (A m2) lda i l) ->
  (forall m1 m2, (forall l, ~~ region dst (N * ldc) l -> m1 l = m2 l) -> forall l j, (l < K)%N -> (j < N)%N ->
     gop tb (B m1) ldb l j = gop tb (B m2) ldb l j) ->
  (forall i j, (i < M)%N -> (j < N)%N ->
     execs m (zgemm ta tb M N K al A lda B ldb be dst ldc) (dst.1, dst.2 + (i + j * ldc))%N =
     al * (\sum_(l < K) gop ta (A m) lda i l * gop tb (B m) ldb l j) + be * m (dst.1, dst.2 + (i + j * ldc))%N) /\
  (forall l, ~~ region dst (N * ldc) l -> execs m (zgemm ta tb M N K al A lda B ldb be dst ldc) l = m l).
Proof.
move=> Ml hA hB.
have inR i j : (i < M)%N -> (j < N)%N -> region dst (N * ldc) (dst.1, dst.2 + (i + j * ldc))%N.
  by move=> hi hj; rewrite /region eqxx /=; apply/andP; split; nia.
split=> [i j hi hj|l nl].
  rewrite /zgemm.
  apply: (@execs_batch _ (fun ij : nat * nat => Act (dst.1, dst.2 + (ij.1 + ij.2 * ldc))%N
    (fun m => al * (\sum_(l < K) gop ta (A m) lda ij.1 l * gop tb (B m) ldb l ij.2) + be * m (dst.1, dst.2 + (ij.1 + ij.2 * ldc))%N))
    (region dst (N * ldc)) _ m (i, j)); last by rewrite in_ij /= hi hj.
    exact: uniq_addr.
  move=> [i' j']; rewrite in_ij /= => /andP[hi' hj']; split; first exact: inR.
  move=> m1 m2 e h; rewrite e; congr (_ * _ + _); apply: eq_bigr => l _.
  by rewrite (hA _ _ h) // (hB _ _ h).
apply: execs_other; apply: all_act_map => -[i j]; rewrite in_ij /= => /andP[hi hj].
by apply: contraNneq nl => <-; apply: inR.
Qed.

(* ---- gdmm (eps_maps_c.pyx:190-212): multiply by a diagonal matrix ---------------------- *)
(* X: R x S row-major at pointer X; HX: out[j,i] = conj(X[i,j]) Y[i]; else out[i,j] = X[i,j] Y[j] *)
Definition gdmm (HX : bool) (R S : nat) (X : nat -> C) (Y : nat -> C) (dst : loc) : seq action :=
  if HX then
    [seq Act (dst.1, dst.2 + (ij.1 + ij.2 * R))%N (fun _ => (X (ij.1 * S + ij.2)%N)^* * Y ij.1)
     | ij <- [seq (i, j) | j <- iota 0 S, i <- iota 0 R]]
  else
    [seq Act (dst.1, dst.2 + (ij.1 + ij.2 * S))%N (fun _ => X (ij.2 * S + ij.1)%N * Y ij.1)
     | ij <- [seq (i, j) | j <- iota 0 R, i <- iota 0 S]].

(* ---- the inner kernels (eps_maps_c.pyx:214-345) ------------------------------------------ *)
(* x is dense (flat, Dx columns), diagonal (vector) or the identity *)
Inductive xkind := XDense of (nat -> C) | XDiag of (nat -> C) | XId.

Section Kernels.
(* shapes: A1 q x p1 x p2, A2 q x p3 x p4, flat row-major; i is the chunk number, s the absolute
   physical index (slice A1_[si:sf] starts at si) *)
Variables (p1 p2 p3 p4 : nat) (A1 A2 : nat -> C) (x : xkind).
Let A1s s := fun (_ : mem) k => A1 (s * (p1 * p2) + k)%N.
Let A2s s := fun (_ : mem) k => A2 (s * (p3 * p4) + k)%N.
Let scr i sz := fun (m : mem) k => m (false, i * sz + k)%N.

(* eps_l_noop_dense / _diag / _id, body of the loop over s.
   dense: M1 = x.shape[1] = p3, N1 = A1.shape[2] = p2, K1 = A1.shape[1] = p1;
          M2 = A2.shape[2] = p4, N2 = A1Hx.shape[0] = p2, K2 = A1Hx.shape[1] = p3 *)
Definition kern_l (i s : nat) : seq action :=
  match x with
  | XDense xf =>
      zgemm false true p3 p2 p1 1 (fun _ => xf) p3 (A1s s) p2 0 (false, i * (p2 * p3))%N p3 ++
      zgemm false false p4 p2 p3 1 (A2s s) p4 (scr i (p2 * p3)) p3 1 (true, i * (p2 * p4))%N p4
  | XDiag xd =>
      gdmm true p1 p2 (fun k => A1 (s * (p1 * p2) + k)%N) xd (false, i * (p2 * p1))%N ++
      zgemm false false p4 p2 p1 1 (A2s s) p4 (scr i (p2 * p1)) p1 1 (true, i * (p2 * p4))%N p4
  | XId =>
      zgemm false true p4 p2 p3 1 (A2s s) p4 (A1s s) p2 1 (true, i * (p2 * p4))%N p4
  end.

(* eps_r_noop_dense / _diag / _id.
   dense: M1 = x.shape[1] = p4, N1 = A1.shape[1] = p1, K1 = A1.shape[2] = p2;
          M2 = A2.shape[1] = p3, K2 = A1x.shape[1] = p4, N2 = A1x.shape[0] = p1 *)
Definition kern_r (i s : nat) : seq action :=
  match x with
  | XDense xf =>
      zgemm false false p4 p1 p2 1 (fun _ => xf) p4 (A1s s) p2 0 (false, i * (p1 * p4))%N p4 ++
      zgemm true false p3 p1 p4 1 (A2s s) p4 (scr i (p1 * p4)) p4 1 (true, i * (p1 * p3))%N p3
  | XDiag xd =>
      gdmm false p1 p2 (fun k => A1 (s * (p1 * p2) + k)%N) xd (false, i * (p1 * p2))%N ++
      zgemm true false p3 p1 p2 1 (A2s s) p2 (scr i (p1 * p2)) p2 1 (true, i * (p1 * p3))%N p3
  | XId =>
      zgemm true false p3 p1 p2 1 (A2s s) p2 (A1s s) p2 1 (true, i * (p1 * p3))%N p3
  end.
End Kernels.

(* ---- the drivers (eps_maps_c.pyx:34-107, 115-186) ------------------------------------- *)
Section Driver.
Variables (kern : nat -> nat -> seq action) (Nout threads d : nat) (sched : seq nat).

Definition num_chunks := minn threads d.
Definition lpc := maxn 1 (d %/ num_chunks).
Definition si i := (i * lpc)%N.
Definition sf i := if i == num_chunks.-1 then d else (i.+1 * lpc)%N.
Definition chunk_prog i : seq action :=
  if (i < num_chunks)%N then flatten [seq kern i s | s <- iota (si i) (sf i - si i)] else [::].

(* np.zeros for the work arrays, the prange loop under the schedule, then the zaxpy sums.  With one
   chunk the kernel accumulates directly into out (here: the only block of outs).  d = 0 makes the
   division d // num_chunks raise ZeroDivisionError (None). *)
Definition final_mem : mem := (crun (fun _ => 0, chunk_prog) sched).1.
Definition complete := forall i, (i < num_chunks)%N -> (crun (fun _ => 0, chunk_prog) sched).2 i = [::].
Definition eps_noop_c : option (nat -> C) :=
  if num_chunks == 0%N then None
  else if num_chunks == 1%N then Some (fun k => final_mem (true, k))
  else Some (fun k => foldl (fun o i => 1 * final_mem (true, i * Nout + k)%N + o) 0 (iota 0 num_chunks)).
End Driver.
End Mem.

Section ThreadsP.
Variable C : numClosedFieldType.
Notation mem := (mem C).
Notation action := (action C).

(* which chunk a location belongs to *)
Definition chunk_of (Ssz Nout : nat) (l : loc) : nat := if l.1 then (l.2 %/ Nout)%N else (l.2 %/ Ssz)%N.

Lemma chunk_off sz i k : (k < sz)%N -> ((i * sz + k) %/ sz = i)%N.
Proof. by move=> h; rewrite divnMDl ?divn_small ?addn0 //; lia. Qed.

Lemma gdmmP (HX : bool) R S (X Y : nat -> C) dst (m : mem) :
  (forall i j, (i < R)%N -> (j < S)%N ->
     execs m (gdmm HX R S X Y dst) (dst.1, dst.2 + (if HX then i + j * R else j + i * S))%N =
     if HX then (X (i * S + j)%N)^* * Y i else X (i * S + j)%N * Y j) /\
  (forall l, ~~ region dst (R * S) l -> execs m (gdmm HX R S X Y dst) l = m l).
Proof.
rewrite /gdmm; case: HX; split.
- move=> i j hi hj.
  apply: (@execs_batch _ _ (fun ij : nat * nat => Act (dst.1, dst.2 + (ij.1 + ij.2 * R))%N (fun _ => (X (ij.1 * S + ij.2)%N)^* * Y ij.1)) predT _ m (i, j)).
  + exact: uniq_addr.
  + by [].
  + by rewrite in_ij /= hi hj.
- move=> l nl; apply: execs_other; apply: all_act_map => -[i j]; rewrite in_ij /= => /andP[hi hj].
  apply: contraNneq nl => <-; rewrite /region eqxx /=; apply/andP; split; nia.
- move=> i j hi hj.
  apply: (@execs_batch _ _ (fun ij : nat * nat => Act (dst.1, dst.2 + (ij.1 + ij.2 * S))%N (fun _ => X (ij.2 * S + ij.1)%N * Y ij.1)) predT _ m (j, i)).
  + exact: uniq_addr.
  + by [].
  + by rewrite in_ij /= hi hj.
move=> l nl; apply: execs_other; apply: all_act_map => -[i j]; rewrite in_ij /= => /andP[hi hj].
apply: contraNneq nl => <-; rewrite /region eqxx /=; apply/andP; split; nia.
Qed.

Lemma gdmm_own own i0 HX R S (X Y : nat -> C) (dst : loc) :
  (forall k, (k < R * S)%N -> own (dst.1, dst.2 + k)%N = i0) -> all_act (owned own i0) (gdmm HX R S X Y dst).
Proof.
move=> h; rewrite /gdmm; case: HX; apply: all_act_map => -[i j]; rewrite in_ij /= => /andP[hi hj];
  split=> //=; apply: h; nia.
Qed.

(* ---- one iteration of a kernel: outs += contribution, whatever the scratch holds ---- *)
Definition kern_ok Ssz Nout (kern : nat -> nat -> seq action) (d : nat) (F : nat -> nat -> C) :=
  forall i s, (s < d)%N ->
  all_act (owned (chunk_of Ssz Nout) i) (kern i s) /\
  forall m k, (k < Nout)%N ->
    execs m (kern i s) (true, i * Nout + k)%N = m (true, i * Nout + k)%N + F s k.

(* row-major arrays *)
Definition rowmajor3 q a b (f : nat -> C) (A : nat -> 'M[C]_(a, b)) :=
  forall s (i : 'I_a) (j : 'I_b), (s < q)%N -> f (s * (a * b) + (i * b + j))%N = A s i j.
Definition rowmajor a b (f : nat -> C) (A : 'M[C]_(a, b)) :=
  forall (i : 'I_a) (j : 'I_b), f (i * b + j)%N = A i j.
Definition represents a b (x : xkind C) (X : 'M[C]_(a, b)) :=
  match x with
  | XDense f => rowmajor f X
  | XDiag f => a = b /\ forall i j, X i j = if i == j :> nat then f i else 0
  | XId => a = b /\ forall i j, X i j = (i == j :> nat)%:R
  end.

Lemma ord_split a b k : (k < a * b)%N -> exists (i : 'I_a) (j : 'I_b), k = (i * b + j)%N.
Proof.
move=> h; have b0 : (0 < b)%N by nia.
have hi : (k %/ b < a)%N by rewrite ltn_divLR.
by exists (Ordinal hi), (Ordinal (ltn_pmod k b0)); rewrite /= -divn_eq.
Qed.

(* contribution of the physical index s *)
Definition mxflat a b (M : 'M[C]_(a, b)) (k : nat) : C :=
  match insub (k %/ b)%N, insub (k %% b)%N with Some i, Some j => M i j | _, _ => 0 end.
Lemma mxflatE a b (M : 'M[C]_(a, b)) (i : 'I_a) (j : 'I_b) : mxflat M (i * b + j)%N = M i j.
Proof.
rewrite /mxflat chunk_off // modnMDl modn_small //.
by rewrite !insubT //= => ? ?; congr (M _ _); apply: val_inj.
Qed.

Section Kern.
Variables (q Da Db Da' Db' : nat) (A1 : nat -> 'M[C]_(Da, Da')) (A2 : nat -> 'M[C]_(Db, Db')).
Variables (f1 f2 : nat -> C).
Hypothesis (h1 : rowmajor3 q f1 A1) (h2 : rowmajor3 q f2 A2).


Lemma rm (a b : nat) (i : 'I_a) (j : 'I_b) : (i * b + j)%N = (j + i * b)%N.
Proof. by rewrite addnC. Qed.

Lemma chunk_true Ssz Nout i k : (k < Nout)%N -> chunk_of Ssz Nout (true, i * Nout + k)%N = i.
Proof. by move=> h; rewrite /chunk_of /= chunk_off. Qed.
Lemma chunk_false Ssz Nout i k : (k < Ssz)%N -> chunk_of Ssz Nout (false, i * Ssz + k)%N = i.
Proof. by move=> h; rewrite /chunk_of /= chunk_off. Qed.

Lemma kern_lP (x : 'M[C]_(Da, Db)) (xk : xkind C) : represents xk x ->
  kern_ok (Da' * Db) (Da' * Db') (kern_l Da Da' Db Db' f1 f2 xk) q
    (fun s => mxflat ((A1 s)^† *m (x *m A2 s))).
Proof.
case: xk => [xf|xd|] /= hx i s sq; split.
- apply/all_act_cat; split; apply: zgemm_own => //=.
  + by move=> i' j hi hj; apply: chunk_false; nia.
  + by move=> i' j hi hj; apply: chunk_true; nia.
  + move=> m1 m2 h l j hl hj; rewrite /gop; apply: h; apply: chunk_false; nia.
- move=> m k /ord_split[a [b ->]]; rewrite mxflatE execs_cat.
  set m1 := execs m _.
  have [|//|//|e1 u1] := @zgemmP C false true Db Da' Da 1 (fun _ => xf) Db (fun _ k => f1 (s * (Da * Da') + k)%N) Da' 0 (false, i * (Da' * Db))%N Db m; first by [].
  rewrite -/m1 /= in e1 u1.
  have [|//|m3 m4 h l j hl hj|e2 _] := @zgemmP C false false Db' Da' Db 1 (fun _ k => f2 (s * (Db * Db') + k)%N) Db'
     (fun (m : mem) k => m (false, i * (Da' * Db) + k)%N) Db 1 (true, i * (Da' * Db'))%N Db' m1; first by [].
    by rewrite /gop; apply: h; rewrite /region.
  rewrite /= in e2; rewrite rm e2 // !mul1r addrC; congr (_ + _); first by apply: u1; rewrite /region.
  rewrite mulmxA mxE; apply: eq_bigr => l _; rewrite mulrC /gop e1 // mul1r mul0r addr0 -rm h2 //; congr (_ * _).
  rewrite mxE; apply: eq_bigr => l' _; by rewrite /gop -!rm hx h1 // adjE mulrC.
- have [eD hx2] := hx; apply/all_act_cat; split.
    by apply: gdmm_own => k hk /=; rewrite -eD; apply: chunk_false; nia.
  apply: zgemm_own => //=.
    by move=> i' j hi hj; apply: chunk_true; nia.
  move=> m1 m2 h l j hl hj; rewrite /gop; apply: h; rewrite -eD; apply: chunk_false; nia.
- move=> m k /ord_split[a [b ->]]; rewrite mxflatE execs_cat; set m1 := execs m _.
  have [e1 u1] := gdmmP true Da Da' (fun k => f1 (s * (Da * Da') + k)%N) xd (false, i * (Da' * Da))%N m.
  rewrite -/m1 /= in e1 u1.
  have [|//|m3 m4 h l j hl hj|e2 _] := @zgemmP C false false Db' Da' Da 1 (fun _ k => f2 (s * (Db * Db') + k)%N) Db'
     (fun (m : mem) k => m (false, i * (Da' * Da) + k)%N) Da 1 (true, i * (Da' * Db'))%N Db' m1; first by [].
    by rewrite /gop; apply: h; rewrite /region.
  have [eD hx2] := hx.
  rewrite /= in e2; rewrite rm e2 // !mul1r addrC; congr (_ + _); first by apply: u1; rewrite /region.
  rewrite mulmxA mxE; subst Db; apply: eq_bigr => l _; rewrite mulrC /gop e1 // -rm h2 // h1 //; congr (_ * _).
  rewrite mxE (bigD1 l) //= big1 ?addr0 => [|l' nl]; first by rewrite hx2 eqxx adjE.
  by rewrite hx2 ifN ?mulr0.
- apply: zgemm_own => //= i' j hi hj; apply: chunk_true; nia.
move=> m k /ord_split[a [b ->]]; rewrite mxflatE.
have [//|//|//|e2 _] := @zgemmP C false true Db' Da' Db 1 (fun _ k => f2 (s * (Db * Db') + k)%N) Db'
     (fun _ k => f1 (s * (Da * Da') + k)%N) Da' 1 (true, i * (Da' * Db'))%N Db' m.
have [eD hx2] := hx.
rewrite /= in e2; rewrite rm e2 // !mul1r addrC; congr (_ + _).
subst Db; have -> : x = 1%:M by apply/matrixP=> u v; rewrite hx2 mxE.
by rewrite mul1mx mxE; apply: eq_bigr => l _; rewrite mulrC /gop -!rm h2 // h1 // adjE.
Qed.

Lemma kern_rP (x : 'M[C]_(Da', Db')) (xk : xkind C) : represents xk x ->
  kern_ok (Da * Db') (Da * Db) (kern_r Da Da' Db Db' f1 f2 xk) q
    (fun s => mxflat ((A1 s *m x) *m (A2 s)^†)).
Proof.
case: xk => [xf|xd|] /= hx i s sq; split.
- apply/all_act_cat; split; apply: zgemm_own => //=.
  + by move=> i' j hi hj; apply: chunk_false; nia.
  + by move=> i' j hi hj; apply: chunk_true; nia.
  + move=> m1 m2 h l j hl hj; rewrite /gop; apply: h; apply: chunk_false; nia.
- move=> m k /ord_split[a [b ->]]; rewrite mxflatE execs_cat.
  set m1 := execs m _.
  have [|//|//|e1 u1] := @zgemmP C false false Db' Da Da' 1 (fun _ => xf) Db' (fun _ k => f1 (s * (Da * Da') + k)%N) Da' 0 (false, i * (Da * Db'))%N Db' m; first by [].
  rewrite -/m1 /= in e1 u1.
  have [|//|m3 m4 h l j hl hj|e2 _] := @zgemmP C true false Db Da Db' 1 (fun _ k => f2 (s * (Db * Db') + k)%N) Db'
     (fun (m : mem) k => m (false, i * (Da * Db') + k)%N) Db' 1 (true, i * (Da * Db))%N Db m1; first by [].
    by rewrite /gop; apply: h; rewrite /region.
  rewrite /= in e2; rewrite rm e2 // !mul1r addrC; congr (_ + _); first by apply: u1; rewrite /region.
  rewrite mxE; apply: eq_bigr => l _; rewrite mulrC /gop e1 // mul1r mul0r addr0 -rm h2 // adjE; congr (_ * _).
  rewrite mxE; apply: eq_bigr => l' _; by rewrite /gop -!rm hx h1 // mulrC.
- have [eD hx2] := hx; apply/all_act_cat; split.
    by apply: gdmm_own => k hk /=; rewrite -eD; apply: chunk_false; nia.
  apply: zgemm_own => //=.
    by move=> i' j hi hj; apply: chunk_true; nia.
  move=> m1 m2 h l j hl hj; rewrite /gop; apply: h; rewrite -eD; apply: chunk_false; nia.
- move=> m k /ord_split[a [b ->]]; rewrite mxflatE execs_cat; set m1 := execs m _.
  have [e1 u1] := gdmmP false Da Da' (fun k => f1 (s * (Da * Da') + k)%N) xd (false, i * (Da * Da'))%N m.
  rewrite -/m1 /= in e1 u1.
  have [|//|m3 m4 h l j hl hj|e2 _] := @zgemmP C true false Db Da Da' 1 (fun _ k => f2 (s * (Db * Db') + k)%N) Da'
     (fun (m : mem) k => m (false, i * (Da * Da') + k)%N) Da' 1 (true, i * (Da * Db))%N Db m1; first by [].
    by rewrite /gop; apply: h; rewrite /region.
  have [eD hx2] := hx.
  rewrite /= in e2; rewrite rm e2 // !mul1r addrC; congr (_ + _); first by apply: u1; rewrite /region.
  rewrite mxE; subst Db'; apply: eq_bigr => l _; rewrite mulrC /gop e1 // -rm h2 // h1 // adjE; congr (_ * _).
  rewrite mxE (bigD1 l) //= big1 ?addr0 => [|l' nl]; first by rewrite hx2 eqxx.
  by rewrite hx2 ifN ?mulr0.
- apply: zgemm_own => //= i' j hi hj; apply: chunk_true; nia.
move=> m k /ord_split[a [b ->]]; rewrite mxflatE.
have [//|//|//|e2 _] := @zgemmP C true false Db Da Da' 1 (fun _ k => f2 (s * (Db * Db') + k)%N) Da'
     (fun _ k => f1 (s * (Da * Da') + k)%N) Da' 1 (true, i * (Da * Db))%N Db m.
have [eD hx2] := hx.
rewrite /= in e2; rewrite rm e2 // !mul1r addrC; congr (_ + _).
subst Db'; have -> : x = 1%:M by apply/matrixP=> u v; rewrite hx2 mxE.
by rewrite mulmx1 mxE; apply: eq_bigr => l _; rewrite mulrC /gop -!rm h2 // h1 // adjE.
Qed.
End Kern.

(* ---- chunks ---------------------------------------------------------------------- *)
Section Drv.
Variables (Ssz Nout threads d : nat) (kern : nat -> nat -> seq action) (F : nat -> nat -> C).
Hypotheses (kP : kern_ok Ssz Nout kern d F) (t0 : (0 < threads)%N).
Let n := num_chunks threads d.

Lemma sf_le i : (i < n)%N -> (si threads d i <= sf threads d i <= d)%N.
Proof.
move=> hi; rewrite /si /sf /lpc -/n.
have nd : (n * (d %/ n) <= d)%N by rewrite mulnC leq_trunc_div.
have q1 : (0 < d %/ n)%N by rewrite divn_gt0; [rewrite /n /num_chunks geq_minr | lia].
have -> : maxn 1 (d %/ n) = (d %/ n)%N by lia.
by case: eqP => h; nia.
Qed.

Lemma chunk_sum (f : nat -> C) : (0 < d)%N ->
  \sum_(i < n) \sum_(si threads d i <= s < sf threads d i) f s = \sum_(0 <= s < d) f s.
Proof.
move=> d0; have n0 : (0 < n)%N by rewrite /n /num_chunks; lia.
have pre j : (j < n)%N -> \sum_(i < j) \sum_(si threads d i <= s < sf threads d i) f s =
    \sum_(0 <= s < si threads d j) f s.
  elim: j => [|j IH] hj; first by rewrite big_ord0 /si mul0n big_geq.
  rewrite big_ord_recr /= IH; last by lia.
  have e : sf threads d j = si threads d j.+1.
    by rewrite /sf /si -/n; case: eqP => // h; lia.
  by rewrite e -big_cat_nat //= /si; lia.
have e : n = n.-1.+1 by lia.
rewrite e big_ord_recr /= pre; last by lia.
have h := @sf_le n.-1; have eN : sf threads d n.-1 = d by rewrite /sf eqxx.
rewrite eN in h *; rewrite -big_cat_nat //=; lia.
Qed.

Lemma exec_iter i s k m c : (k < Nout)%N -> (s + c <= d)%N ->
  execs m (flatten [seq kern i s' | s' <- iota s c]) (true, i * Nout + k)%N =
  m (true, i * Nout + k)%N + \sum_(s <= s' < s + c) F s' k.
Proof.
move=> hk; elim: c s m => [|c IH] s m hs /=; first by rewrite addn0 big_geq // addr0.
rewrite execs_cat IH; last by lia.
have [_ h] := kP i (s := s) ltac:(lia).
by rewrite h // -addrA addSnnS [in RHS]big_ltn //; lia.
Qed.

Lemma prog_own i : all_act (owned (chunk_of Ssz Nout) i) (chunk_prog kern threads d i).
Proof.
rewrite /chunk_prog; case: ifP => // hi; have := sf_le hi; move: (si _ _ _) (sf _ _ _) => a b ab.
have : (a + (b - a) <= d)%N by lia.
move: (b - a)%N {ab} => c; elim: c a => [|c IH] a h //=; apply/all_act_cat; split.
  by have [] := kP i (s := a) ltac:(lia).
by apply: IH; lia.
Qed.

Lemma eps_noop_cP sched k : (0 < d)%N -> (k < Nout)%N -> complete kern threads d sched ->
  exists2 out, eps_noop_c kern Nout threads d sched = Some out & out k = \sum_(s < d) F s k.
Proof.
move=> d0 hk fin; have n0 : (0 < n)%N by rewrite /n /num_chunks; lia.
have fm i : (i < n)%N -> final_mem kern threads d sched (true, i * Nout + k)%N =
    \sum_(si threads d i <= s < sf threads d i) F s k.
  move=> hi; rewrite /final_mem (crunP prog_own fin) chunk_true //.
  have := sf_le hi => hs; rewrite /chunk_prog hi exec_iter //; last by lia.
  by rewrite add0r; congr (\sum_(_ <= s < _) _); lia.
rewrite /eps_noop_c -/n; case: eqP => [h|_]; first by lia.
case: eqP => [n1|_].
  eexists; first by [].
  have := fm 0%N n0; rewrite mul0n add0n => ->.
  by rewrite -(big_mkord predT (fun s => F s k)) -chunk_sum // n1 big_ord1.
eexists; first by [].
rewrite -(big_mkord predT (fun s => F s k)) -chunk_sum // -(big_mkord predT (fun i => \sum_(si threads d i <= s < sf threads d i) F s k)).
have -> : forall o, foldl (fun o i => 1 * final_mem kern threads d sched (true, i * Nout + k)%N + o) o (iota 0 n) =
  o + \sum_(i <- iota 0 n) final_mem kern threads d sched (true, i * Nout + k)%N.
  elim: (iota 0 n) => [|i t IH] o /=; first by rewrite big_nil addr0.
  by rewrite IH big_cons mul1r addrA [o + _]addrC.
rewrite add0r /index_iota subn0; apply: eq_big_seq => i; rewrite mem_iota add0n => hi; exact: fm.
Qed.
End Drv.
End ThreadsP.
