(* P12_Schedule.v -- C36 (sweep schedule of evolve_split) and C37 (take_step_split). *)
From mathcomp Require Import all_ssreflect all_algebra.
From mathcomp Require Import zify.
From Verif Require Import Schedule.
Set Implicit Arguments.
Unset Strict Implicit.
Unset Printing Implicit Defensive.

(* can_increase_D (split_step.py:855-860) with mps.D an array of length lenD; D[-1] is the last entry;
   the comparisons short-circuit; an index past the end raises IndexError *)
Definition canD (lenD Dmax : nat) (q D : nat -> nat) n : option bool :=
  let Dm := if n is n'.+1 then D n' else D lenD.-1 in
  if ~~ (D n < Dmax) then Some false
  else if ~~ (D n < Dm * q n) then Some false
  else if n.+1 < lenD then Some (D n < D n.+1 * q n.+1) else None.

Section C36.
Variables (T B G : Type) (N : nat) (I : impl T B G) (O : opts).
Notation trace := (@trace T B).

(* Whatever the local solvers return, whatever can_increase_D answers, and however the one-site and two-site
   moves are mixed: started in right-canonical form, every local problem of every step is posed with
   left-canonical tensors to its left, right-canonical tensors to its right, and with environments KL, KR
   recomputed from exactly the tensors present at that moment.  Afterwards the centre is back at site 1. *)
Theorem C36_environments_current lc rc k A D s' : impl_ok N I lc rc -> 0 < N ->
  (forall j, 1 < j <= N -> rc j (A j)) ->
  steps N I O k (init N I A D) = Some s' ->
  [/\ forall i, i < size (tr s') -> forall e0, good N I lc rc (nth e0 (tr s') i),
      forall j, 1 < j <= N -> rc j (sA s' j) &
      forall j, 1 < j <= N.+1 -> sKR s' j = envR N I (sA s') j].
Proof.
move=> ok N0 hA st; have f0 : fresh N I lc rc 1 2 (init N I A D) by exact: init_fresh.
have [_ h2 _ h4 _ _ h7] : fresh N I lc rc 1 2 s' by apply: steps_fresh st.
split=> //.
move=> i; elim: (tr s') h7 i => // e t IH [he ht] [|i] //= hi e0; exact: IH.
Qed.

Lemma rev_iotaS a : rev (iota 1 a.+1) = a.+1 :: rev (iota 1 a).
Proof. by rewrite -[in LHS](addn1 a) iotaD rev_cat /= add1n. Qed.
Lemma iotaS a : iota 1 a.+1 = rcons (iota 1 a) a.+1.
Proof. by rewrite -[in LHS](addn1 a) iotaD /= add1n cats1. Qed.

Lemma choose1 n (s : st T B) : o_two O = false -> choose O s n = Some false.
Proof. by rewrite /choose => ->. Qed.

Lemma run_total body ns f (s : st T B) : (forall n s, n \in ns -> exists2 s', body n s = Some s' & trace s' = trace s ++ f n) ->
  exists2 s', run body ns s = Some s' & trace s' = trace s ++ flatten [seq f n | n <- ns].
Proof.
elim: ns s => [|n ns IH] s h; first by exists s; rewrite ?cats0.
have [s1 e1 t1] := h n s (mem_head _ _).
have [|s2 e2 t2] := IH s1; first by move=> m t mi; apply: h; rewrite inE mi orbT.
by exists s2; rewrite /= ?e1 // t2 t1 catA.
Qed.

(* One-site mode never raises in the schedule itself, and a step is the schedule
   A1 G1 A2 ... G(N-1) AN followed by its mirror image: a symmetric splitting. *)
Theorem C36_one_site s : o_two O = false -> o_DMRG O = false ->
  exists2 s', step N I O s = Some s' & trace s' = trace s ++ sched1 N ++ rev (sched1 N).
Proof.
move=> t1 dm.
have [n s0 _|s1 e1 r1] := @run_total (lr_body N I O) (iota 1 N)
  (fun n => (KA, n, true) :: (if (n < N) && ~~ o_DMRG O then [:: (KG, n, false)] else [::])) s.
  by exists (right_move_1site N I O n s0); rewrite ?trace_r1 // /lr_body choose1.
have [n s0 _|s2 e2 r2] := @run_total (rl_body I O) (rev (iota 1 N))
  (fun n => (KA, n, true) :: (if (1 < n) && ~~ o_DMRG O then [:: (KG, n.-1, false)] else [::])) s1.
  by exists (left_move_1site I O n s0); rewrite ?trace_l1 // /rl_body choose1.
exists s2; first by rewrite /step /sweep_lr /sweep_rl e1.
rewrite r2 r1 -catA; congr (_ ++ (_ ++ _)).
  have h k : k <= N -> flatten [seq (KA, n, true) :: (if (n < N) && ~~ o_DMRG O then [:: (KG, n, false)] else [::]) | n <- iota 1 k]
    = sched1 k ++ (if (0 < k < N) then [:: (KG, k, false)] else [::]).
    elim: k => // k IH kN; rewrite iotaS map_rcons flatten_rcons IH; last by lia.
    rewrite dm andbT /= -!catA; congr (_ ++ _).
    by case: (k) kN => // k' kN /=; rewrite kN.
  by rewrite h // ltnn andbF cats0.
elim: (N) => // k IH; rewrite rev_iotaS /= IH dm andbT !rev_cat -catA /=.
by case: (k).
Qed.

(* DMRG mode: only the sites are optimised, left to right and back *)
Theorem C36_one_site_DMRG s : o_two O = false -> o_DMRG O = true ->
  exists2 s', step N I O s = Some s' &
    trace s' = trace s ++ [seq (KA, n, true) | n <- iota 1 N] ++ [seq (KA, n, true) | n <- rev (iota 1 N)].
Proof.
move=> t1 dm.
have [n s0 _|s1 e1 r1] := @run_total (lr_body N I O) (iota 1 N) (fun n => [:: (KA, n, true)]) s.
  by exists (right_move_1site N I O n s0); rewrite ?trace_r1 ?dm ?andbF // /lr_body choose1.
have [n s0 _|s2 e2 r2] := @run_total (rl_body I O) (rev (iota 1 N)) (fun n => [:: (KA, n, true)]) s1.
  by exists (left_move_1site I O n s0); rewrite ?trace_l1 ?dm ?andbF // /rl_body choose1.
exists s2; first by rewrite /step /sweep_lr /sweep_rl e1.
have fl l : flatten [seq [:: (KA, n, true)] | n <- l] = [seq (KA, n, true) | n <- l] by elim: l => //= x l ->.
by rewrite r2 r1 -catA !fl.
Qed.

(* Two-site mode on every bond (switch_to_1site off, can_increase_D not raising):
   AA1 A2 AA2 ... AA(N-1) and back, where the single sites run backwards. *)
Theorem C36_two_site s : o_two O = true -> o_switch O = false -> o_DMRG O = false ->
  (forall D n, o_can O D n <> None) ->
  exists2 s', step N I O s = Some s' & trace s' = trace s ++ sched2 N.-1 ++ rev (sched2 N.-1).
Proof.
move=> t2 sw dm cn.
have ch n (s0 : st T B) : choose O s0 n = Some true.
  by rewrite /choose t2 sw; case e: (o_can O _ n) => [c|]; rewrite ?orbT //; case: (cn _ _ e).
have [n s0 nN|s1 e1 r1] := @run_total (lr_body N I O) (iota 1 N)
  (fun n => if n == N then [::] else (KAA, n, true) :: (if (n < N.-1) && ~~ o_DMRG O then [:: (KA, n.+1, false)] else [::])) s.
  rewrite /lr_body ch; case: eqP => e; eexists; [by []| |by []|by rewrite trace_r2].
  move: nN; rewrite mem_iota => nN; rewrite !trace_r2 -catA; congr (_ ++ _).
  by rewrite (_ : n.+1 == N) ?cats0 //; lia.
have [n s0 nN|s2 e2 r2] := @run_total (rl_body I O) (rev (iota 1 N))
  (fun n => if n.-1 == 0 then [::] else (KAA, n.-1, true) :: (if (1 < n.-1) && ~~ o_DMRG O then [:: (KA, n.-1, false)] else [::])) s1.
  rewrite /rl_body ch; case: eqP => e; eexists; [by []| |by []|by rewrite trace_l2].
  by rewrite /left_move_2site -/(left_move_2site I O n.-1 s0) trace_l2.
exists s2; first by rewrite /step /sweep_lr /sweep_rl e1.
rewrite r2 r1 -catA; congr (_ ++ (_ ++ _)).
  case: (N) => // M; rewrite [M.+1.-1]/=.
  have h k : k <= M -> flatten [seq (if n == M.+1 then [::] else (KAA, n, true) :: (if (n < M) && ~~ o_DMRG O then [:: (KA, n.+1, false)] else [::])) | n <- iota 1 k]
    = sched2 k ++ (if (0 < k < M) then [:: (KA, k.+1, false)] else [::]).
    elim: k => // k IH kN; rewrite iotaS map_rcons flatten_rcons IH; last by lia.
    rewrite dm andbT /= -!catA; congr (_ ++ _).
    rewrite (_ : k.+1 == M.+1 = false); last by lia.
    by case: (k) kN => // k' kN /=; rewrite kN.
  by rewrite iotaS map_rcons flatten_rcons eqxx cats0 h // ltnn andbF cats0.
case: (N) => // M; rewrite [M.+1.-1]/=; elim: M => // k IH; rewrite rev_iotaS /=.
rewrite IH dm andbT !rev_cat -catA /=.
by case: (k).
Qed.

(* ... but on a finite chain (mps.D has length N+1) two-site mode can never finish a sweep once D_max > 1:
   can_increase_D(N) reads D[N+1]. *)
Lemma lr_D n s s' : n < N -> (forall t, 0 < i_ldim I t) -> (forall r n kl kr A, 0 < (i_evAA I r n kl kr A).2) ->
  (forall j, j <= N -> 0 < sD s j) -> lr_body N I O n s = Some s' ->
  sD s' N = sD s N /\ (forall j, j <= N -> 0 < sD s' j).
Proof.
move=> nN hl hA hD; rewrite /lr_body; case: (choose _ _ _) => // -[] [<-].
  have uL m t : sD (update_Heff_left I m t) = sD t by rewrite /update_Heff_left; case: ifP.
  have r2 m t : m < N -> (forall j, j <= N -> 0 < sD t j) ->
      sD (right_move_2site N I O m t) N = sD t N /\ forall j, j <= N -> 0 < sD (right_move_2site N I O m t) j.
    move=> mN ht; rewrite /right_move_2site (_ : m == N = false); last by lia.
    have e : sD (if (m < N.-1) && ~~ o_DMRG O then evolve_A I false m.+1 (update_Heff_left I m (evolve_AA I true m t))
                 else update_Heff_left I m (evolve_AA I true m t)) = sD (evolve_AA I true m t).
      by case: ifP => _ /=; rewrite uL.
    rewrite {}e /evolve_AA; have := hA true m (sKL t m.-1) (sKR t m.+2) (sA t).
    case: (i_evAA _ _ _ _ _ _) => [[a b] d] /= d0; split; first by rewrite fupd_other //; lia.
    by move=> j jN; rewrite /fupd; case: eqP => // _; apply: ht.
  have [h1 h2] := r2 n s nN hD.
  case: eqP => // e; rewrite {1 3}/right_move_2site (_ : n.+1 == N); last by lia.
  by split.
have uL m t : sD (update_Heff_left I m t) = sD t by rewrite /update_Heff_left; case: ifP.
rewrite /right_move_1site nN; case: (i_lcf _ _ _) => a g.
by case: (o_DMRG O) => /=; rewrite ?uL /=; (split; [by rewrite fupd_other //; lia | move=> j jN; rewrite /fupd; case: eqP => // _; apply: hD]).
Qed.
Theorem C36_two_site_finite_refuted Dmax q s : 0 < N -> o_two O = true -> o_can O = canD N.+1 Dmax q ->
  (forall t, 0 < i_ldim I t) -> (forall r n kl kr A, 0 < (i_evAA I r n kl kr A).2) ->
  (forall j, j <= N -> 0 < sD s j) -> sD s N = 1 -> 1 < Dmax -> 1 < q N ->
  step N I O s = None.
Proof.
move=> N0 t2 cn hl hA hD DN Dm qN; rewrite /step /sweep_lr.
suff h a s0 : 0 < a <= N -> (forall j, j <= N -> 0 < sD s0 j) -> sD s0 N = 1 -> run (lr_body N I O) (iota a (N.+1 - a)) s0 = None.
  by have := h 1 s; rewrite subSS subn0 => -> //; lia.
move: {2}(N - a) (leqnn (N - a)) => k; elim: k a s0 => [|k IH] a s0 hk a0 h0 h1.
  have e : a = N by lia.
  subst a; rewrite (_ : N.+1 - N = 1) /=; last by lia.
  suff -> : lr_body N I O N s0 = None by [].
  rewrite /lr_body /choose t2 cn /canD h1 Dm /= ltnn.
  case: (N) N0 (h0 N.-1) qN => // M _ hM qN /=.
  suff -> : 1 < sD s0 M * q M.+1 by [].
  by apply: (leq_trans qN); rewrite -{1}(mul1n (q _)) leq_mul2r hM ?orbT.
have [aN|aN] := ltnP a N; last by apply: IH => //; lia.
rewrite (_ : N.+1 - a = (N.+1 - a.+1).+1) /=; last by lia.
case e: (lr_body N I O a s0) => [s1|//]; have [e1 e2] := lr_D aN hl hA h0 e.
by apply: IH; rewrite ?e1 //; lia.
Qed.

(* With switch_to_1site the guard against evolving the last site twice does not work: `continue` at n = N-1
   does not skip n = N.  If bond N-1 is updated with a two-site move and site N with a one-site move, site N
   is evolved forward twice in a row with no backward step in between. *)
Theorem C36_switch_double_evolution s1 : 1 < N -> o_two O = true ->
  (forall D, o_can O D N.-1 = Some true) -> o_switch O = true -> (forall D, o_can O D N = Some false) ->
  exists2 s', run (lr_body N I O) [:: N.-1; N] s1 = Some s' & trace s' = trace s1 ++ [:: (KAA, N.-1, true); (KA, N, true)].
Proof.
move=> N1 t2 c1 sw c2; rewrite /= /lr_body /choose t2 c1 c2 sw /= eqxx.
eexists; first by [].
rewrite trace_r1 ltnn /= !trace_r2 prednK; last by lia.
have e1 : (N.-1 == N) = false by lia.
have e2 : (N <= N.-1) = false by lia.
by rewrite eqxx cats0 e1 e2 /= -catA.
Qed.
End C36.

(* the step handed to the local solvers: dtau *= -1; complex -> fac = 1j and dtau = imag(dtau) (468-481,
   the same in take_step_split, tdvp_gen.py:1203-1216) *)
Section Factor.
Import GRing.Theory Num.Theory.
Local Open Scope ring_scope.
Variable C : numClosedFieldType.
Definition eff_dtau (dtau : C) : C :=
  let d := - dtau in if 'Im d != 0 then 'i * 'Im d else d.
(* exp(eff_dtau H) is the requested evolution exactly for purely real or purely imaginary steps *)
Theorem C36_time_step dtau : eff_dtau dtau = - dtau <-> 'Im dtau = 0 \/ 'Re dtau = 0.
Proof.
have iN : 'Im (- dtau) = - 'Im dtau by rewrite raddfN.
have rN : 'Re (- dtau) = - 'Re dtau by rewrite raddfN.
rewrite /eff_dtau; case: eqP => [h|h] /=.
  by split=> // _; left; apply/eqP; rewrite -oppr_eq0 -iN h.
split=> [e|[e|e]]; first right.
- have : 'Re (- dtau) = 0 by rewrite -e -[X in 'Re X]add0r Re_rect ?Creal_Im ?rpred0.
  by rewrite rN => /eqP; rewrite oppr_eq0 => /eqP.
- by case: h; rewrite iN e oppr0.
- by rewrite [RHS]Crect rN e oppr0 add0r.
Qed.
Theorem C36_time_step_refuted : eff_dtau (1 + 'i) <> - (1 + 'i).
Proof.
have r1 : 'Re (1 + 'i : C) = 1 by rewrite -[X in 1 + X]mulr1 Re_rect ?rpred1.
have i1 : 'Im (1 + 'i : C) = 1 by rewrite -[X in 1 + X]mulr1 Im_rect ?rpred1.
move/C36_time_step; rewrite r1 i1 => -[] /eqP; by rewrite oner_eq0.
Qed.
End Factor.

(* ---- C37 ---- *)
(* take_step_split (tdvp_gen.py:1178-1390): only what decides whether it can finish.  Python's tuple
   assignment raises ValueError unless the lengths agree. *)
Definition unpack (X : Type) (k : nat) (t : seq X) : option (seq X) := if size t == k then Some t else None.
(* what the call gexpmv(...) (sexpmv.py:18-228) can do: raise, or return the six values of line 228 *)
Definition gexpmv_result (X : Type) (r : option (seq X)) : Prop := if r is Some t then size t = 6 else True.
Section C37.
Variables (X : Type) (gexpmv : nat -> option (seq X)).  (* the result of the call made for site n *)
Hypothesis gexpmvP : forall n, gexpmv_result (gexpmv n).
(* evolve_A, line 1253; opt_A does not call gexpmv *)
Definition ts_site (DMRG : bool) n (log : seq nat) : option (seq nat) :=
  if DMRG then Some (rcons log n)
  else if gexpmv n is Some t then (if unpack 5 t is Some _ then Some (rcons log n) else None) else None.
(* evolve_G, line 1269 *)
Definition ts_bond (DMRG : bool) n (log : seq nat) : option (seq nat) :=
  if DMRG then Some log
  else if gexpmv n is Some t then (if unpack 5 t is Some _ then Some log else None) else None.
Fixpoint ts_loop (DMRG : bool) (bond : nat -> bool) (ns : seq nat) log : option (seq nat) :=
  if ns is n :: ns' then
    if ts_site DMRG n log is Some l1 then
      if (if bond n then ts_bond DMRG n l1 else Some l1) is Some l2 then ts_loop DMRG bond ns' l2 else None
    else None
  else Some log.
(* KL[2] = ... at line 1225: IndexError for N = 1 *)
Definition take_step_split (DMRG : bool) (N : nat) : option (seq nat) :=
  if N < 2 then None else
  if ts_loop DMRG (fun n => n < N) (iota 1 N) [::] is Some l1 then ts_loop DMRG (fun n => 1 < n) (rev (iota 1 N)) l1 else None.

(* every call that asks for time evolution raises *)
Theorem C37_evolution_refuted N : take_step_split false N = None.
Proof.
rewrite /take_step_split; case: ltnP => // N2; case: N N2 => // N _ /=.
rewrite /ts_site; case e: (gexpmv 1) => [t|//]; have := gexpmvP 1; rewrite e /gexpmv_result /unpack => ->.
by [].
Qed.
(* the DMRG variant optimises each site once per direction, for every chain of at least two sites *)
Theorem C37_DMRG N : 1 < N -> take_step_split true N = Some (iota 1 N ++ rev (iota 1 N)).
Proof.
move=> N2; rewrite /take_step_split ltnNge N2 /=.
have h b l log : ts_loop true b l log = Some (log ++ l).
  by elim: l log => [|n l IH] log /=; rewrite ?cats0 // if_same IH -cats1 -catA.
by rewrite !h.
Qed.
Theorem C37_single_site_refuted DMRG : take_step_split DMRG 1 = None.
Proof. by []. Qed.
End C37.

(* ---- a concrete instance: a tensor is (gauge tag, number), an environment is the list of numbers below it *)
Definition ex_impl : impl (nat * nat) (seq nat) nat :=
  {| i_evA := fun fwd n kl kr A => (0, (A n).2 + (if fwd then 3 else 1) + size (odflt [::] kl));
     i_evG := fun n kl kr A g => g + size (odflt [::] kr);
     i_evAA := fun right n kl kr A => if right then ((1, (A n).2), (0, (A n.+1).2.+1), 2) else ((0, (A n).2.+1), (2, (A n.+1).2), 2);
     i_lcf := fun n t => ((1, t.2), t.2); i_rcf := fun n t => (t.2, (2, t.2));
     i_absr := fun g t => (0, g + t.2); i_absl := fun t g => (0, t.2 + g);
     i_ldim := fun _ => 2; i_rdim := fun _ => 2;
     i_hasL := fun n => 1 < n; i_hasR := fun n => n < 3;
     i_updL := fun n K A => (A n).2 :: odflt [::] K; i_updR := fun n K A => (A n).2 :: odflt [::] K;
     i_KLb := None; i_KRb := None |}.
Definition ex_lc (n : nat) (t : nat * nat) := t.1 = 1.
Definition ex_rc (n : nat) (t : nat * nat) := t.1 = 2.
Definition ex_A (n : nat) : nat * nat := (if n == 1 then 0 else 2, n).
Example C36_example_ok : impl_ok 3 ex_impl ex_lc ex_rc.
Proof.
by split=> //= [j K A A' j0 h|j K A A' jN h]; rewrite h // ?j0 ?jN ?leqnn.
Qed.
Definition opt (two switch : bool) can := {| o_DMRG := false; o_two := two; o_switch := switch; o_can := can |}.
Definition ex_s0 D := init 3 ex_impl ex_A D.
Definition tr_of (r : option (st (nat * nat) (seq nat))) := if r is Some s then trace s else [::].
(* one step in one-site mode *)
Example C36_example_one : tr_of (step 3 ex_impl (opt false false (canD 4 9 (fun _ => 2))) (ex_s0 (fun _ => 1))) =
  [:: (KA, 1, true); (KG, 1, false); (KA, 2, true); (KG, 2, false); (KA, 3, true);
      (KA, 3, true); (KG, 2, false); (KA, 2, true); (KG, 1, false); (KA, 1, true)].
Proof. by vm_compute. Qed.
(* the hypotheses of C36_environments_current hold and two steps run to the end *)
Example C36_example_env : (forall j, 1 < j <= 3 -> ex_rc j (ex_A j)) /\
  (exists s', steps 3 ex_impl (opt false false (canD 4 9 (fun _ => 2))) 2 (ex_s0 (fun _ => 1)) = Some s').
Proof.
split=> [j /andP[j1 _]|]; first by rewrite /ex_rc /ex_A (_ : j == 1 = false) //; lia.
by eexists; vm_compute.
Qed.
(* two-site mode where mps.D has N+2 entries (sandwich) *)
Example C36_example_two : tr_of (step 3 ex_impl (opt true false (canD 5 9 (fun _ => 2))) (ex_s0 (fun _ => 1))) =
  [:: (KAA, 1, true); (KA, 2, false); (KAA, 2, true); (KAA, 2, true); (KA, 2, false); (KAA, 1, true)].
Proof. by vm_compute. Qed.
(* ... and where it has N+1 *)
Example C36_example_index_error : step 3 ex_impl (opt true false (canD 4 9 (fun _ => 2))) (ex_s0 (fun _ => 1)) = None.
Proof. by vm_compute. Qed.
(* D_max reached at bond 3 but not at bonds 1 and 2: site 3 is evolved by (2,3) and again on its own *)
Example C36_example_switch : tr_of (sweep_lr 3 ex_impl (opt true true (canD 5 4 (fun _ => 2)))
    (ex_s0 (fun n => if n < 3 then 1 else 4))) =
  [:: (KAA, 1, true); (KA, 2, false); (KAA, 2, true); (KA, 3, true)].
Proof. by vm_compute. Qed.
Example C37_example : gexpmv_result (Some [:: 1; 1; 3; 0; 20; 7]) /\ take_step_split (fun _ => Some [:: 1; 1; 3; 0; 20; 7]) true 3 = Some [:: 1; 2; 3; 3; 2; 1].
Proof. by []. Qed.

Print Assumptions C36_environments_current.
Print Assumptions C36_one_site.
Print Assumptions C36_one_site_DMRG.
Print Assumptions C36_two_site.
Print Assumptions C36_two_site_finite_refuted.
Print Assumptions C36_switch_double_evolution.
Print Assumptions C36_time_step.
Print Assumptions C36_time_step_refuted.
Print Assumptions C37_evolution_refuted.
Print Assumptions C37_DMRG.
Print Assumptions C37_single_site_refuted.
