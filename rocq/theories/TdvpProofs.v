(* TdvpProofs.v -- the arrays of Tdvp.v computed for an up-to-date state satisfy the recursions of
   Tangent.v, and the parameters x are the gradient of <Phi(x)|H|psi>. *)
From mathcomp Require Import all_ssreflect all_algebra.
From mathcomp Require Import zify.
From Verif Require Import Base Spec Eps Chain ChainProofs LinAlg Struct Factor Tangent Tangent2 Tdvp.
Set Implicit Arguments.
Unset Strict Implicit.
Unset Printing Implicit Defensive.
Import GRing.Theory Num.Theory.
Local Open Scope ring_scope.

(* the Hamiltonians: sums of two- / three-site terms, None being no term *)
Definition Ham2 (C : numClosedFieldType) (V : lmodType C) (q : nat -> nat) (N : nat)
  (ham : nat -> option (op2s C)) (phi : seq nat -> V) : seq nat -> V :=
  fun c => \sum_(j < N.-1) (if ham j is Some h then op2 q j h phi c else 0).
Definition Ham3 (C : numClosedFieldType) (V : lmodType C) (q : nat -> nat) (N : nat)
  (ham : nat -> option (op3s C)) (phi : seq nat -> V) : seq nat -> V :=
  fun c => \sum_(j < N.-2) (if ham j is Some h then op3 q j h phi c else 0).

Section P.
Variables (C : numClosedFieldType) (D q : nat -> nat) (N : nat).
Local Notation bonds := (forall n, 'M[C]_(D n)).
Local Notation sbonds := (forall n, smat C (D n) (D n)).

Definition O2 (ham : nat -> option (op2s C)) (j : nat) (c d : seq nat) : C :=
  if ham j is Some h then h (nth 0%N c 0) (nth 0%N c 1) (nth 0%N d 0) (nth 0%N d 1) else 0.
Definition O3 (ham : nat -> option (op3s C)) (j : nat) (c d : seq nat) : C :=
  if ham j is Some h then h (nth 0%N c 0) (nth 0%N c 1) (nth 0%N c 2)
                            (nth 0%N d 0) (nth 0%N d 1) (nth 0%N d 2) else 0.

Lemma opwin0 (V : lmodType C) j w (phi : seq nat -> V) c : opwin q j w (fun _ _ => 0) phi c = 0.
Proof. by rewrite /opwin big1 // => d _; rewrite scale0r. Qed.

Lemma Ham2E ham (phi : seq nat -> 'M[C]_(D 0, D N)) c : size c = N ->
  Ham2 q N ham phi c = Hsum q N 2 (O2 ham) phi c.
Proof.
move=> sz; rewrite /Ham2 /Hsum -(big_mkord xpredT (fun j => if ham j is Some h then op2 q j h phi c else 0)).
rewrite (@big_nat_widen _ _ _ _ N.-1 N) ?leq_pred // big_nat_cond [RHS]big_nat_cond; apply: eq_big => j.
  by rewrite /= ?andbT; lia.
move=> /andP[h1 /= h2]; rewrite /O2; case: (ham j) => [h|]; last by rewrite opwin0.
by apply: op2_win; rewrite sz; lia.
Qed.
Lemma Ham3E ham (phi : seq nat -> 'M[C]_(D 0, D N)) c : size c = N ->
  Ham3 q N ham phi c = Hsum q N 3 (O3 ham) phi c.
Proof.
move=> sz; rewrite /Ham3 /Hsum -(big_mkord xpredT (fun j => if ham j is Some h then op3 q j h phi c else 0)).
rewrite (@big_nat_widen _ _ _ _ N.-2 N); last by lia.
rewrite big_nat_cond [RHS]big_nat_cond; apply: eq_big => j.
  by rewrite /= ?andbT; lia.
move=> /andP[h1 /= h2]; rewrite /O3; case: (ham j) => [h|]; last by rewrite opwin0.
by apply: op3_win; rewrite sz; lia.
Qed.

Variables (A : tensors C D) (l r : sbonds).
Local Notation L n := (toarray (l n)).
Local Notation R n := (toarray (r n)).

(* ---- loops ------------------------------------------------------------------------------------- *)
Section Loop.
Variables (hs : nat) (Hr : forall m, option 'M[C]_(D m)).
Lemma calc_K_loop_ok (st : bonds * (nat -> C)) lo cnt : (lo + cnt = N)%N ->
  let st' := foldl (calc_K_step q N A l hs Hr) st (rev (iota lo cnt)) in
  [/\ forall j, (lo <= j)%N -> (j + hs <= N)%N -> (0 < hs)%N ->
        st'.1 j = eps_r_noop (q j) (st'.1 j.+1) (A j) (A j) + odflt 0 (Hr j),
      forall j, (lo <= j < N)%N -> (N < j + hs)%N -> st'.1 j = 0,
      forall j, (lo <= j)%N -> (j + hs <= N)%N -> (0 < hs)%N ->
        st'.2 j = if Hr j is Some h then adot (L j) h else 0
    & forall j, (N < j + hs)%N -> st'.2 j = st.2 j].
Proof.
elim: cnt lo => [|cnt IH] lo e /=.
  by split=> // j; lia.
have [h1 h2 h3 h4] := IH lo.+1 (etrans (addSnnS _ _) e).
rewrite rev_cons -cats1 foldl_cat /=.
move: (foldl _ _ (rev (iota lo.+1 cnt))) h1 h2 h3 h4 => [K hx] /= h1 h2 h3 h4.
have kn (K' : bonds) n (x : 'M_(D n)) : setK K' x n = x by exact: upd_same.
have ko (K' : bonds) n (x : 'M_(D n)) j : n != j -> setK K' x j = K' j by exact: upd_other.
have hn (h' : nat -> C) n x : seth h' n x n = x by exact: (@upd_same (fun _ => C)).
have ho (h' : nat -> C) n x j : n != j -> seth h' n x j = h' j by exact: (@upd_other (fun _ => C)).
split.
- move=> j lj jN h0; case: (eqVneq lo j) => [ej|ne].
    case: j / ej lj jN => _ jN; rewrite jN; case: (Hr lo) => [x|] /=; rewrite kn ko ?addr0 //; lia.
  have jj : lo != j.+1 by lia.
  have lj' : (lo < j)%N by lia.
  by case: ifP => // _; [case: (Hr lo) => [x|] |]; rewrite /= !ko // h1.
- move=> j lj jN; case: (eqVneq lo j) => [ej|ne].
    by case: j / ej lj jN => _ jN; rewrite leqNgt jN /= kn.
  have lj' : (lo < j < N)%N by lia.
  by case: ifP => // _; [case: (Hr lo) => [x|] |]; rewrite /= !ko // h2.
- move=> j lj jN h0; case: (eqVneq lo j) => [ej|ne].
    by case: j / ej lj jN => _ jN; rewrite jN; case: (Hr lo) => [x|] /=; rewrite hn.
  have lj' : (lo < j)%N by lia.
  by case: ifP => // _; [case: (Hr lo) => [x|] /=; rewrite !ho // h3 | rewrite /= h3].
- move=> j jN; case: ifP => h; last exact: h4.
  have ne : lo != j by lia.
  by case: (Hr lo) => [x|] /=; rewrite !ho // h4.
Qed.
End Loop.

Lemma calc_K_l2_ok (Cs : C2arr C D) st : (1 < N)%N -> (forall j, (j.+1 < N)%N -> Cs j) ->
  exists2 st', calc_K_l2 q N A l r Cs st = Some st' &
   [/\ st'.1 1%N = 0,
      forall j c, (j.+1 < N)%N -> Cs j = Some c ->
       let Hl := eps_l_op_2s_AA12_C34 (q j) (q j.+1) (L j) (calc_AAs A j) c in
       st'.1 j.+2 = eps_l_noop (q j.+1) (st'.1 j.+1) (A j.+1) (A j.+1) + Hl /\
       st'.2 j = adot_noconj Hl (R j.+2)
     & forall j, (N <= j.+1)%N -> st'.2 j = st.2 j].
Proof.
move=> N1 hC; rewrite /calc_K_l2 ltnNge N1 /=.
have kn (K' : bonds) n (x : 'M_(D n)) : setK K' x n = x by exact: upd_same.
have ko (K' : bonds) n (x : 'M_(D n)) j : n != j -> setK K' x j = K' j by exact: upd_other.
have hn (h' : nat -> C) n x : seth h' n x n = x by exact: (@upd_same (fun _ => C)).
have ho (h' : nat -> C) n x j : n != j -> seth h' n x j = h' j by exact: (@upd_other (fun _ => C)).
suff loop cnt : (cnt <= N - 1)%N -> exists2 st',
   foldl (calc_K_l2_step q A l r Cs) (Some (KL_init st.1, st.2)) (iota 0 cnt) = Some st' &
   [/\ st'.1 1%N = 0,
      forall j c, (j < cnt)%N -> Cs j = Some c ->
       let Hl := eps_l_op_2s_AA12_C34 (q j) (q j.+1) (L j) (calc_AAs A j) c in
       st'.1 j.+2 = eps_l_noop (q j.+1) (st'.1 j.+1) (A j.+1) (A j.+1) + Hl /\
       st'.2 j = adot_noconj Hl (R j.+2)
     & forall j, (cnt <= j)%N -> st'.2 j = st.2 j].
  have [st' e [h1 h2 h3]] := loop _ (leqnn _); exists st' => //; split=> // [j c jN|j jN].
    by apply: h2; lia.
  by apply: h3; lia.
elim: cnt => [|cnt IH] cN.
  by exists (KL_init st.1, st.2) => //; split=> //=; rewrite /KL_init ko ?kn.
have eI : iota 0 cnt.+1 = iota 0 cnt ++ [:: cnt] by rewrite -addn1 iotaD.
rewrite eI foldl_cat; have [[K hx] e [/= h1 h2 h3]] := IH (ltnW cN).
rewrite e /=.
have hcc : Cs cnt by apply: hC; lia.
case ec : (Cs cnt) hcc => [c|] // _; eexists; first by [].
split=> /=; first by rewrite ko.
- move=> j c' jc; case: (eqVneq cnt j) => [ej|ne].
    case: j / ej c' jc => c' _; rewrite ec => [[<-]]; rewrite kn hn; split=> //.
    by rewrite ko //; lia.
  move=> ec'; have jc' : (j < cnt)%N by lia.
  have [e1 e2] := h2 j c' jc' ec'.
  by rewrite !ko ?ho ?e2 ?e1 //; lia.
- by move=> j jc; rewrite ho ?h3 //; lia.
Qed.

Lemma calc_K_l3_ok (Cs : C3arr C D) st : (1 < N)%N -> (forall j, (j.+2 < N)%N -> Cs j) ->
  exists2 st', calc_K_l3 q N A l r Cs st = Some st' &
   [/\ st'.1 1%N = 0, st'.1 2%N = 0,
      forall j c, (j.+2 < N)%N -> Cs j = Some c ->
       let Hl := eps_l_op_3s_AAA123_C456 (q j) (q j.+1) (q j.+2) (L j)
                   (calc_AAA_AA (calc_AAs A j) (A j.+2)) c in
       st'.1 j.+3 = eps_l_noop (q j.+2) (st'.1 j.+2) (A j.+2) (A j.+2) + Hl /\
       st'.2 j.+1 = adot_noconj Hl (R j.+3)
     & (forall j, (N <= j.+1)%N -> st'.2 j = st.2 j) /\ st'.2 0%N = st.2 0%N].
Proof.
move=> N1 hC; rewrite /calc_K_l3 ltnNge N1 /=.
have kn (K' : bonds) n (x : 'M_(D n)) : setK K' x n = x by exact: upd_same.
have ko (K' : bonds) n (x : 'M_(D n)) j : n != j -> setK K' x j = K' j by exact: upd_other.
have hn (h' : nat -> C) n x : seth h' n x n = x by exact: (@upd_same (fun _ => C)).
have ho (h' : nat -> C) n x j : n != j -> seth h' n x j = h' j by exact: (@upd_other (fun _ => C)).
suff loop cnt : (cnt <= N - 2)%N -> exists2 st',
   foldl (calc_K_l3_step q A l r Cs) (Some (KL_init st.1, st.2)) (iota 0 cnt) = Some st' &
   [/\ st'.1 1%N = 0, st'.1 2%N = 0,
      forall j c, (j < cnt)%N -> Cs j = Some c ->
       let Hl := eps_l_op_3s_AAA123_C456 (q j) (q j.+1) (q j.+2) (L j)
                   (calc_AAA_AA (calc_AAs A j) (A j.+2)) c in
       st'.1 j.+3 = eps_l_noop (q j.+2) (st'.1 j.+2) (A j.+2) (A j.+2) + Hl /\
       st'.2 j.+1 = adot_noconj Hl (R j.+3)
     & (forall j, (cnt < j)%N -> st'.2 j = st.2 j) /\ st'.2 0%N = st.2 0%N].
  have [st' e [h1 h2 h3 [h4 h5]]] := loop _ (leqnn _); exists st' => //; split=> // [j c jN|].
    by apply: h3; lia.
  by split=> // j jN; apply: h4; lia.
elim: cnt => [|cnt IH] cN.
  by exists (KL_init st.1, st.2) => //; split=> //=; rewrite /KL_init ?kn // ko ?kn.
have eI : iota 0 cnt.+1 = iota 0 cnt ++ [:: cnt] by rewrite -addn1 iotaD.
rewrite eI foldl_cat; have [[K hx] e [/= h1 h2 h3 [h4 h5]]] := IH (ltnW cN).
rewrite e /=.
have hcc : Cs cnt by apply: hC; lia.
case ec : (Cs cnt) hcc => [c|] // _; eexists; first by [].
split=> /=; [by rewrite ko | by rewrite ko | |].
- move=> j c' jc; case: (eqVneq cnt j) => [ej|ne].
    case: j / ej c' jc => c' _; rewrite ec => [[<-]]; rewrite kn hn; split=> //.
    by rewrite ko //; lia.
  move=> ec'; have jc' : (j < cnt)%N by lia.
  have [e1 e2] := h3 j c' jc' ec'.
  by rewrite !ko ?ho ?e2 ?e1 //; lia.
- by split=> [j jc|]; [rewrite ho ?h4 //; lia | rewrite ho].
Qed.

(* ---- windows ----------------------------------------------------------------------------------- *)
Lemma winmat2 j (A' : tensors C D) ham (X : 'M[C]_(D j.+2)) :
  winmat q A' A j 2 (O2 ham j) X =
  \sum_(s < q j) \sum_(t < q j.+1)
    (if ham j is Some h then \sum_(u < q j) \sum_(v < q j.+1) h s t u v *: (A j u *m A j.+1 v) else 0)
    *m X *m (A' j s *m A' j.+1 t)^†.
Proof.
rewrite /winmat sum_cfgsS; apply: eq_bigr => s _; rewrite sum_cfgsS; apply: eq_bigr => t _; rewrite sum_cfgs0.
rewrite sum_cfgsS /O2; case: (ham j) => [h|]; last first.
  by rewrite !mul0mx big1 // => u _; rewrite big1_seq // => c _; rewrite scale0r.
rewrite !mulmx_suml; apply: eq_bigr => u _; rewrite !mulmx_suml sum_cfgsS; apply: eq_bigr => v _.
by rewrite sum_cfgs0 /= !pid_mx_1 !mulmx1 -!scalemxAl.
Qed.
Lemma winmat3 j (A' : tensors C D) ham (X : 'M[C]_(D j.+3)) :
  winmat q A' A j 3 (O3 ham j) X =
  \sum_(s < q j) \sum_(t < q j.+1) \sum_(z < q j.+2)
    (if ham j is Some h then \sum_(u < q j) \sum_(v < q j.+1) \sum_(w < q j.+2)
        h s t z u v w *: (A j u *m A j.+1 v *m A j.+2 w) else 0)
    *m X *m (A' j s *m A' j.+1 t *m A' j.+2 z)^†.
Proof.
rewrite /winmat sum_cfgsS; apply: eq_bigr => s _; rewrite sum_cfgsS; apply: eq_bigr => t _.
rewrite sum_cfgsS; apply: eq_bigr => z _; rewrite sum_cfgs0.
rewrite sum_cfgsS /O3; case: (ham j) => [h|]; last first.
  by rewrite !mul0mx big1 // => u _; rewrite big1_seq // => c _; rewrite scale0r.
rewrite !mulmx_suml; apply: eq_bigr => u _; rewrite !mulmx_suml sum_cfgsS; apply: eq_bigr => v _.
rewrite !mulmx_suml sum_cfgsS; apply: eq_bigr => w _.
by rewrite sum_cfgs0 /= !pid_mx_1 !mulmx1 -!scalemxAl !mulmxA.
Qed.

(* the tensors C, entrywise; zero where there is no term *)
Definition C2e ham j (s t : nat) : 'M[C]_(D j, D j.+2) :=
  if ham j is Some h then \sum_(u < q j) \sum_(v < q j.+1) (h : op2s C) s t u v *: (A j u *m A j.+1 v) else 0.
Definition C3e ham j (s t z : nat) : 'M[C]_(D j, D j.+3) :=
  if ham j is Some h then \sum_(u < q j) \sum_(v < q j.+1) \sum_(w < q j.+2)
        (h : op3s C) s t z u v w *: (A j u *m A j.+1 v *m A j.+2 w) else 0.

Lemma calc_C2E ham j s t : (j.+1 < N)%N -> (t < q j.+1)%N ->
  (if calc_C2 q N A ham j is Some c then c s t else 0) = C2e ham j s t.
Proof.
move=> jN tq; rewrite /calc_C2 jN /C2e; case: (ham j) => //= h.
by rewrite calc_C_mat_op_AAE.
Qed.
Lemma calc_C3E ham j s t z : (j.+2 < N)%N -> (t < q j.+1)%N -> (z < q j.+2)%N ->
  (if calc_C3 q N A ham j is Some c then c s t z else 0) = C3e ham j s t z.
Proof.
move=> jN tq zq; rewrite /calc_C3 jN /C3e; case: (ham j) => //= h.
by rewrite calc_C_3s_mat_op_AAAE.
Qed.

Lemma Hr2E ham j : (j.+1 < N)%N ->
  odflt 0 (Hr2 q A r (calc_C2 q N A ham) j) = winmat q A A j 2 (O2 ham j) (R j.+2).
Proof.
move=> jN; rewrite winmat2 /Hr2; have := calc_C2E ham; move: (calc_C2 q N A ham) => Cs hC.
transitivity (\sum_(s < q j) \sum_(t < q j.+1) (if Cs j is Some c then c s t else 0) *m R j.+2 *m (A j s *m A j.+1 t)^†).
  case: (Cs j) => [c|] /=; last by rewrite big1 // => s _; rewrite big1 // => t _; rewrite !mul0mx.
  by rewrite eps_r_op_2s_C12_AA34E.
by apply: eq_bigr => s _; apply: eq_bigr => t _; rewrite hC.
Qed.
Lemma Hr3E ham j : (j.+2 < N)%N ->
  odflt 0 (Hr3 q A r (calc_C3 q N A ham) j) = winmat q A A j 3 (O3 ham j) (R j.+3).
Proof.
move=> jN; rewrite winmat3 /Hr3; have := calc_C3E ham; move: (calc_C3 q N A ham) => Cs hC.
transitivity (\sum_(s < q j) \sum_(t < q j.+1) \sum_(z < q j.+2) (if Cs j is Some c then c s t z else 0) *m R j.+3 *m (A j s *m A j.+1 t *m A j.+2 z)^†).
  case: (Cs j) => [c|] /=; last by rewrite big1 // => s _; rewrite big1 // => t _; rewrite big1 // => z _; rewrite !mul0mx.
  by rewrite eps_r_op_3s_C123_AAA456E.
by apply: eq_bigr => s _; apply: eq_bigr => t _; apply: eq_bigr => z _; rewrite hC.
Qed.

Lemma Hl2E ham j c : (j.+1 < N)%N -> calc_C2 q N A ham j = Some c ->
  eps_l_op_2s_AA12_C34 (q j) (q j.+1) (L j) (calc_AAs A j) c = Yg q 2 A (fun n => L n) (O2 ham) j j.+2.
Proof.
move=> jN ec; have := calc_C2E ham; move: ec; move: (calc_C2 q N A ham) => Cs ec hC.
rewrite /Yg sum_cfgsS eps_l_op_2s_AA12_C34E; apply: eq_bigr => s _.
rewrite sum_cfgsS; apply: eq_bigr => t _; rewrite sum_cfgs0.
have := hC j s t jN (ltn_ord t); rewrite ec => ->; rewrite /C2e sum_cfgsS /O2; case: (ham j) => [h|]; last first.
  by rewrite !mulmx0 big1 // => u _; rewrite big1_seq // => d _; rewrite scale0r.
rewrite !mulmx_sumr; apply: eq_bigr => u _; rewrite !mulmx_sumr sum_cfgsS; apply: eq_bigr => v _.
by rewrite sum_cfgs0 /= !pid_mx_1 !mulmx1 -!scalemxAr /calc_AAs /calc_AA !mulmxA.
Qed.
Lemma Hl3E ham j c : (j.+2 < N)%N -> calc_C3 q N A ham j = Some c ->
  eps_l_op_3s_AAA123_C456 (q j) (q j.+1) (q j.+2) (L j) (calc_AAA_AA (calc_AAs A j) (A j.+2)) c =
  Yg q 3 A (fun n => L n) (O3 ham) j j.+3.
Proof.
move=> jN ec; have := calc_C3E ham; move: ec; move: (calc_C3 q N A ham) => Cs ec hC.
rewrite /Yg sum_cfgsS eps_l_op_3s_AAA123_C456E; apply: eq_bigr => s _.
rewrite sum_cfgsS; apply: eq_bigr => t _; rewrite sum_cfgsS; apply: eq_bigr => z _; rewrite sum_cfgs0.
have := hC j s t z jN (ltn_ord t) (ltn_ord z); rewrite ec => ->; rewrite /C3e sum_cfgsS /O3; case: (ham j) => [h|]; last first.
  by rewrite !mulmx0 big1 // => u _; rewrite big1_seq // => d _; rewrite scale0r.
rewrite !mulmx_sumr; apply: eq_bigr => u _; rewrite !mulmx_sumr sum_cfgsS; apply: eq_bigr => v _.
rewrite !mulmx_sumr sum_cfgsS; apply: eq_bigr => w _.
by rewrite sum_cfgs0 /= !pid_mx_1 !mulmx1 -!scalemxAr /calc_AAA_AA /calc_AAs /calc_AA !mulmxA.
Qed.

(* K satisfies the recursion *)
Lemma calc_K2_rec ham st :
  K_rec q N 2 A (fun n => R n) (O2 ham) (calc_K2 q N A l r (calc_C2 q N A ham) st).1.
Proof.
have [h1 h2 _ _] := @calc_K_loop_ok 2 (Hr2 q A r (calc_C2 q N A ham)) st 0 N (add0n N).
split=> [j p|j jN]; last by apply: h2.
rewrite addn2 => <- jN; have j2 : (j + 2 <= N)%N by rewrite addn2.
by rewrite [LHS](h1 j) // Hr2E.
Qed.
Lemma calc_K3_rec ham st :
  K_rec q N 3 A (fun n => R n) (O3 ham) (calc_K3 q N A l r (calc_C3 q N A ham) st).1.
Proof.
have [h1 h2 _ _] := @calc_K_loop_ok 3 (Hr3 q A r (calc_C3 q N A ham)) st 0 N (add0n N).
split=> [j p|j jN]; last by apply: h2.
rewrite addn3 => <- jN; have j2 : (j + 3 <= N)%N by rewrite addn3.
by rewrite [LHS](h1 j) // Hr3E.
Qed.
Lemma calc_K_l2_rec (ham : nat -> option (op2s C)) st : (1 < N)%N -> (forall j, (j.+1 < N)%N -> ham j) ->
  exists2 st', calc_K_l2 q N A l r (calc_C2 q N A ham) st = Some st' &
    KL_rec q N 2 A (fun n => L n) (O2 ham) st'.1 /\
    forall j, (j.+1 < N)%N -> st'.2 j = \tr (Yg q 2 A (fun n => L n) (O2 ham) j j.+2 *m R j.+2).
Proof.
move=> N1 hh; have hC j : (j.+1 < N)%N -> calc_C2 q N A ham j.
  by move=> jN; rewrite /calc_C2 jN; have := hh j jN; case: (ham j).
have [st' e [h1 h2 h3]] := calc_K_l2_ok st N1 hC; exists st' => //.
have tr2 n (a b : 'M[C]_n) : adot_noconj a b = \tr (a *m b).
  rewrite /adot_noconj /mxtrace exchange_big; apply: eq_bigr => i _; rewrite mxE; apply: eq_bigr => j _.
  by rewrite mxE.
have hh2 j : (j.+1 < N)%N -> exists c, calc_C2 q N A ham j = Some c.
  by move=> jN; have := hC j jN; case: (calc_C2 q N A ham j) => // c _; exists c.
split; first split.
- move=> j p e1 pN; have ep : p = j.+1 by lia.
  move: e1 pN; rewrite ep => _ jN; have [c ec] := hh2 j jN.
  by have [-> _] := h2 j c jN ec; rewrite (Hl2E jN ec).
- by move=> [|[|p]].
- move=> j jN; have [c ec] := hh2 j jN.
  by have [_ ->] := h2 j c jN ec; rewrite (Hl2E jN ec) tr2.
Qed.
Lemma calc_K_l3_rec (ham : nat -> option (op3s C)) st : (1 < N)%N -> (forall j, (j.+2 < N)%N -> ham j) ->
  exists2 st', calc_K_l3 q N A l r (calc_C3 q N A ham) st = Some st' &
    KL_rec q N 3 A (fun n => L n) (O3 ham) st'.1 /\
    forall j, (j.+2 < N)%N -> st'.2 j.+1 = \tr (Yg q 3 A (fun n => L n) (O3 ham) j j.+3 *m R j.+3).
Proof.
move=> N1 hh; have hC j : (j.+2 < N)%N -> calc_C3 q N A ham j.
  by move=> jN; rewrite /calc_C3 jN; have := hh j jN; case: (ham j).
have [st' e [h1 h1' h2 h3]] := calc_K_l3_ok st N1 hC; exists st' => //.
have tr2 n (a b : 'M[C]_n) : adot_noconj a b = \tr (a *m b).
  rewrite /adot_noconj /mxtrace exchange_big; apply: eq_bigr => i _; rewrite mxE; apply: eq_bigr => j _.
  by rewrite mxE.
have hh2 j : (j.+2 < N)%N -> exists c, calc_C3 q N A ham j = Some c.
  by move=> jN; have := hC j jN; case: (calc_C3 q N A ham j) => // c _; exists c.
split; first split.
- move=> j p e1 pN; have ep : p = j.+2 by lia.
  move: e1 pN; rewrite ep => _ jN; have [c ec] := hh2 j jN.
  by have [-> _] := h2 j c jN ec; rewrite (Hl3E jN ec).
- by move=> [|[|[|p]]].
- move=> j jN; have [c ec] := hh2 j jN.
  by have [_ ->] := h2 j c jN ec; rewrite (Hl3E jN ec) tr2.
Qed.
End P.
