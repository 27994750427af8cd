(* P05_Threads.v -- properties C23 and C57: the C extension's threaded transfer maps. *)
From mathcomp Require Import all_ssreflect all_algebra all_field.
From mathcomp Require Import zify.
From Verif Require Import Base Eps Threads Witness.
Set Implicit Arguments.
Unset Strict Implicit.
Unset Printing Implicit Defensive.
Import Order.TTheory GRing.Theory Num.Theory.
Local Open Scope ring_scope.

Section C23.
Variables (C : numClosedFieldType) (q Da Db Da' Db' threads : nat).
Variables (A1 : nat -> 'M[C]_(Da, Da')) (A2 : nat -> 'M[C]_(Db, Db')) (f1 f2 : nat -> C).
Hypotheses (h1 : rowmajor3 q f1 A1) (h2 : rowmajor3 q f2 A2).

(* For every thread count, every schedule in which all chunks finish, and every representation of x,
   the returned (row-major) array is the plain sum over the physical index. *)
Theorem C23_eps_l_threads (x : 'M[C]_(Da, Db)) xk sched : represents xk x -> (0 < q)%N -> (0 < threads)%N ->
  complete (kern_l Da Da' Db Db' f1 f2 xk) threads q sched ->
  exists2 out, eps_noop_c (kern_l Da Da' Db Db' f1 f2 xk) (Da' * Db') threads q sched = Some out &
    forall (i : 'I_Da') (j : 'I_Db'), out (i * Db' + j)%N = (\sum_(s < q) (A1 s)^† *m x *m A2 s) i j.
Proof.
move=> hx q0 t0 fin.
have h := fun k hk => @eps_noop_cP _ _ _ _ _ _ _ (kern_lP h1 h2 hx) t0 sched k q0 hk fin.
case E: (eps_noop_c _ _ _ _ _) => [out|]; last first.
  move: E; rewrite /eps_noop_c /num_chunks; case: eqP => [|_]; [lia|by case: eqP].
exists out => // i j; have [|o] := h (i * Db' + j)%N; first by have := ltn_ord i; have := ltn_ord j; nia.
rewrite E => -[->] ->; rewrite summxE; apply: eq_bigr => s _; by rewrite mxflatE mulmxA.
Qed.

Theorem C23_eps_r_threads (x : 'M[C]_(Da', Db')) xk sched : represents xk x -> (0 < q)%N -> (0 < threads)%N ->
  complete (kern_r Da Da' Db Db' f1 f2 xk) threads q sched ->
  exists2 out, eps_noop_c (kern_r Da Da' Db Db' f1 f2 xk) (Da * Db) threads q sched = Some out &
    forall (i : 'I_Da) (j : 'I_Db), out (i * Db + j)%N = (\sum_(s < q) A1 s *m x *m (A2 s)^†) i j.
Proof.
move=> hx q0 t0 fin.
have h := fun k hk => @eps_noop_cP _ _ _ _ _ _ _ (kern_rP h1 h2 hx) t0 sched k q0 hk fin.
case E: (eps_noop_c _ _ _ _ _) => [out|]; last first.
  move: E; rewrite /eps_noop_c /num_chunks; case: eqP => [|_]; [lia|by case: eqP].
exists out => // i j; have [|o] := h (i * Db + j)%N; first by have := ltn_ord i; have := ltn_ord j; nia.
by rewrite E => -[->] ->; rewrite summxE; apply: eq_bigr => s _; rewrite mxflatE.
Qed.

(* No data race: there is an assignment of shared locations to chunks such that the stores of
   chunk i only read and write locations of chunk i. *)
Theorem C23_race_free : (0 < threads)%N -> exists own : loc -> nat,
  (forall (x : 'M[C]_(Da, Db)) xk i, represents xk x ->
     all_act (owned own i) (chunk_prog (kern_l Da Da' Db Db' f1 f2 xk) threads q i)).
Proof.
move=> t0; exists (chunk_of (Da' * Db) (Da' * Db')) => x xk i hx.
exact: (prog_own (kern_lP h1 h2 hx)).
Qed.

(* C57: one iteration of each inner kernel -- the BLAS calls with swapped, column-major arguments --
   adds the row-major matrix product to the output block, whatever the work array holds, and leaves
   the output blocks of other chunks alone *)
Theorem C57_left_kernel (x : 'M[C]_(Da, Db)) xk i s m (a : 'I_Da') (b : 'I_Db') : represents xk x -> (s < q)%N ->
  execs m (kern_l Da Da' Db Db' f1 f2 xk i s) (true, i * (Da' * Db') + (a * Db' + b))%N =
  m (true, i * (Da' * Db') + (a * Db' + b))%N + ((A1 s)^† *m x *m A2 s) a b.
Proof.
move=> hx hs; have [_ h] := kern_lP h1 h2 hx i hs.
rewrite h ?mxflatE ?mulmxA //; by have := ltn_ord a; have := ltn_ord b; nia.
Qed.

Theorem C57_right_kernel (x : 'M[C]_(Da', Db')) xk i s m (a : 'I_Da) (b : 'I_Db) : represents xk x -> (s < q)%N ->
  execs m (kern_r Da Da' Db Db' f1 f2 xk i s) (true, i * (Da * Db) + (a * Db + b))%N =
  m (true, i * (Da * Db) + (a * Db + b))%N + (A1 s *m x *m (A2 s)^†) a b.
Proof.
move=> hx hs; have [_ h] := kern_rP h1 h2 hx i hs.
rewrite h ?mxflatE //; by have := ltn_ord a; have := ltn_ord b; nia.
Qed.

Theorem C57_kernels_stay_in_block (xl : 'M[C]_(Da, Db)) xkl (xr : 'M[C]_(Da', Db')) xkr i s m j k :
  represents xkl xl -> represents xkr xr -> (s < q)%N -> j <> i ->
  ((k < Da' * Db')%N -> execs m (kern_l Da Da' Db Db' f1 f2 xkl i s) (true, j * (Da' * Db') + k)%N = m (true, j * (Da' * Db') + k)%N) /\
  ((k < Da * Db)%N -> execs m (kern_r Da Da' Db Db' f1 f2 xkr i s) (true, j * (Da * Db) + k)%N = m (true, j * (Da * Db) + k)%N).
Proof.
move=> hl hr hs ij; split=> hk; apply: execs_other.
  have [h _] := kern_lP h1 h2 hl i hs; move: h; elim: (kern_l _ _ _ _ _ _ _ _ _) => //= a p IH [[oa _] /IH hp]; split=> //.
  by apply: contra_not_neq ij => e; rewrite -oa e chunk_true.
have [h _] := kern_rP h1 h2 hr i hs; move: h; elim: (kern_r _ _ _ _ _ _ _ _ _) => //= a p IH [[oa _] /IH hp]; split=> //.
by apply: contra_not_neq ij => e; rewrite -oa e chunk_true.
Qed.
End C23.
Print Assumptions C23_eps_l_threads.
Print Assumptions C23_eps_r_threads.
Print Assumptions C23_race_free.
Print Assumptions C57_left_kernel.
Print Assumptions C57_right_kernel.
Print Assumptions C57_kernels_stay_in_block.

(* every program has a complete schedule (so the hypothesis of the theorems is always reachable): for
   instance one chunk after the other *)
Theorem C23_complete_schedule_exists (C : numClosedFieldType) (kern : nat -> nat -> seq (action C)) threads d :
  exists sched, complete kern threads d sched.
Proof.
pose n := num_chunks threads d; pose p := chunk_prog kern threads d.
pose sched k := flatten [seq nseq (size (p i)) i | i <- iota 0 k].
exists (sched n) => i hi.
have drain a k : forall (m : mem C) rem, size (rem a) = k ->
    (crun (m, rem) (nseq k a)).2 =1 fun j => if j == a then [::] else rem j.
  elim: k => [|k IH] m r e j /=; first by case: eqP => [->|//]; apply: size0nil.
  rewrite /crun /= -/(crun _ _) /cstep /=; case E: (r a) e => [|b t] //= [e].
  by rewrite IH /= ?eqxx //; case: eqP.
have all k m rem : (forall i, (i < k)%N -> rem i = p i) -> forall i, (crun (m, rem) (sched k)).2 i = if (i < k)%N then [::] else rem i.
  elim: k => [|k IH] h j //.
  have es : sched k.+1 = sched k ++ nseq (size (p k)) k by rewrite /sched -addn1 iotaD map_cat flatten_cat /= cats0.
  have -> : crun (m, rem) (sched k.+1) = crun (crun (m, rem) (sched k)) (nseq (size (p k)) k) by rewrite es /crun foldl_cat.
  have := IH (fun i hi => h i (ltnW hi)); case: (crun (m, rem) (sched k)) => m' rem' /= IHk.
  have ek : rem' k = p k by rewrite IHk ltnn h.
  rewrite (drain k _ m' rem' (congr1 size ek)) IHk [in RHS]ltnS [in RHS]leq_eqVlt.
  by case: (j == k).  
by have := all n (fun _ => 0) p (fun _ _ => erefl) i; rewrite hi.
Qed.
Print Assumptions C23_complete_schedule_exists.

(* finding: physical dimension 0 raises ZeroDivisionError for every thread count *)
Theorem C23_zero_dim_raises_refuted (C : numClosedFieldType) (kern : nat -> nat -> seq (action C)) Nout threads sched :
  eps_noop_c kern Nout threads 0 sched = None.
Proof. by rewrite /eps_noop_c /num_chunks minn0. Qed.
Print Assumptions C23_zero_dim_raises_refuted.

(* the chunks cover the physical index exactly once *)
Theorem C23_chunks_partition threads d s : (0 < threads)%N -> (s < d)%N ->
  exists! i, (i < num_chunks threads d)%N /\ (si threads d i <= s < sf threads d i)%N.
Proof.
move=> t0 sd; set n := num_chunks threads d.
have n0 : (0 < n)%N by rewrite /n /num_chunks; lia.
pose L := (d %/ n)%N; have L0 : (0 < L)%N by rewrite divn_gt0 // /n /num_chunks geq_minr.
have eL : lpc threads d = L by rewrite /lpc -/n -/L; lia.
have nd : (n * L <= d)%N by rewrite mulnC leq_trunc_div.
rewrite /si /sf eL -/n; exists (minn n.-1 (s %/ L)); split.
  have e := divn_eq s L; have hm := ltn_pmod s L0; split; first by lia.
  case: eqP => [h|h].
    rewrite h; have h2 : (n.-1 <= s %/ L)%N by lia.
    by rewrite sd andbT; nia.
  have -> : minn n.-1 (s %/ L) = (s %/ L)%N by lia.
  by apply/andP; split; nia.
move=> i [hi]; have e := divn_eq s L; have hm := ltn_pmod s L0.
case: eqP => [-> |h] /andP[a b].
  have : (n.-1 <= s %/ L)%N by rewrite leq_divRL.
  lia.
have ei : i = (s %/ L)%N by apply/eqP; rewrite eqn_leq leq_divRL // a /= -ltnS ltn_divLR.
lia.
Qed.
Print Assumptions C23_chunks_partition.

(* a 2-thread run over 3 physical indices with 1x1 tensors A1[s] = A2[s] = s+1, x = 1: the two
   chunks {0} and {1,2} are interleaved store by store; the result is 1 + 4 + 9 *)
Example C23_example :
  let f : nat -> Cx := fun k => (k.+1)%:R in
  let kern := kern_l 1 1 1 1 f f (XDense (fun _ => 1)) in
  complete kern 2 3 [:: 0; 1; 1; 0; 1; 1]%N /\
  exists2 out, eps_noop_c kern 1 2 3 [:: 0; 1; 1; 0; 1; 1]%N = Some out & out 0%N = 14%:R.
Proof.
move=> f kern; have fin : complete kern 2 3 [:: 0; 1; 1; 0; 1; 1]%N by case=> [|[|]].
split=> //.
have h : rowmajor3 3 f (fun s => (s.+1)%:R%:M : 'M[Cx]_1).
  by move=> s i j _; rewrite !ord1 !mxE /f !muln1 !addn0.
have [|//|//|out e ho] := C23_eps_l_threads h h (x := 1%:M) _ _ _ fin.
  by move=> i j; rewrite !ord1 mxE.
exists out => //; have := ho 0 0; rewrite muln1 addn0 => ->.
rewrite !big_ord_recl big_ord0 addr0 !mulmx1 !mxE !big_ord1 !adjE !mxE /= !mulr1n !conjC_nat -!natrM -!natrD.
by rewrite conjC1 -[1]/(1%:R) -natrD.
Qed.
