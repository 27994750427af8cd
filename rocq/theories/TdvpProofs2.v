(* TdvpProofs2.v -- the parameters x computed by calc_x, calc_x_l, calc_x_3s, calc_x_l_3s are the
   components of H|psi> along the gauge-fixed tangent vectors, in both gauges. *)
From mathcomp Require Import all_ssreflect all_algebra.
From mathcomp Require Import zify.
From Verif Require Import Base Spec Eps Chain ChainProofs LinAlg Struct Factor Tangent Tangent2 Tdvp TdvpProofs.
Set Implicit Arguments.
Unset Strict Implicit.
Unset Printing Implicit Defensive.
Import GRing.Theory Num.Theory.
Local Open Scope ring_scope.

Section Exist.
Variables (C : numClosedFieldType) (D q : nat -> nat) (N w : nat).
Local Notation bonds := (forall n, 'M[C]_(D n)).
Variables (A : tensors C D) (l r : bonds) (O : nat -> seq nat -> seq nat -> C).

Lemma KL_exists : (0 < w)%N -> exists KL : bonds, KL_rec q N w A l O KL.
Proof.
move=> w0; pose KL := bonds_up (fun p Y => if (w <= p.+1)%N
   then eps_l_noop (q p) Y (A p) (A p) + Yg q w A l O (p.+1 - w) p.+1 else (0 : 'M[C]_(D p.+1))).
have KLS p : KL p.+1 = if (w <= p.+1)%N
   then eps_l_noop (q p) (KL p) (A p) (A p) + Yg q w A l O (p.+1 - w) p.+1 else (0 : 'M[C]_(D p.+1)) by [].
exists KL; split=> [j p e pN|[//|p] pw pN].
  have h : (w <= p.+1)%N by lia.
  have ej : j = (p.+1 - w)%N by lia.
  by rewrite ej KLS h.
have h : (w <= p.+1)%N = false by lia.
by rewrite KLS h.
Qed.
Lemma K_exists : (0 < w)%N -> exists K : bonds, K_rec q N w A r O K.
Proof.
move=> w0; have [K [K1 K2]] := bonds_down (N := N) (fun j Y => if (j + w <= N)%N
   then eps_r_noop (q j) Y (A j) (A j) + winmat q A A j w (O j) (r (j + w)%N) else (0 : 'M[C]_(D j))) 0.
exists K; split=> [j p e pN|j jN jw].
  by subst p; rewrite (K2 j) ?pN //; lia.
by rewrite (K2 j) // leqNgt jw.
Qed.
End Exist.

Section Cover.
Variables (C : numClosedFieldType) (D q : nat -> nat) (A : tensors C D).

Lemma cover2a m T ham (lm : 'M[C]_(D m)) (R : 'M[C]_(D m.+2)) :
  \tr (lm *m winmat q (@rep C D A m T) A m 2 (O2 ham m) R) =
  tdot q T (fun s => lm *m eps_r_noop (q m.+1) R (C2e q A ham m s) (A m.+1)).
Proof.
rewrite winmat2 rep_same rep_other; last by lia.
rewrite mulmx_sumr tr_sum; apply: eq_bigr => s _; rewrite mulmx_sumr [in RHS]mulmx_sumr mulmx_sumr !tr_sum.
apply: eq_bigr => t _; rewrite adjM -/(C2e q A ham m s t) [RHS]mxtrace_mulC.
by rewrite !mulmxA.
Qed.
Lemma cover2b m (T : nat -> 'M[C]_(D m.+1, D m.+2)) ham (lm : 'M[C]_(D m)) (R : 'M[C]_(D m.+2)) :
  \tr (lm *m winmat q (rep A T) A m 2 (O2 ham m) R) =
  tdot q T (fun t => eps_l_noop (q m) lm (A m) (fun s => C2e q A ham m s t) *m R).
Proof.
rewrite winmat2 rep_same rep_other; last by lia.
rewrite exchange_big mulmx_sumr tr_sum; apply: eq_bigr => t _.
rewrite mulmx_sumr mulmx_suml [in RHS]mulmx_sumr !tr_sum.
apply: eq_bigr => s _; rewrite adjM -/(C2e q A ham m s t).
by rewrite [RHS]mxtrace_mulC !mulmxA [LHS]mxtrace_mulC !mulmxA.
Qed.
Lemma cover3a m T ham (lm : 'M[C]_(D m)) (R : 'M[C]_(D m.+3)) :
  \tr (lm *m winmat q (@rep C D A m T) A m 3 (O3 ham m) R) =
  tdot q T (fun s => lm *m eps_r_op_2s_C12_AA34 (q m.+1) (q m.+2) R (C3e q A ham m s) (calc_AAs A m.+1)).
Proof.
rewrite winmat3 rep_same !rep_other; try lia.
rewrite mulmx_sumr tr_sum; apply: eq_bigr => s _; rewrite eps_r_op_2s_C12_AA34E.
rewrite mulmx_sumr [in RHS]mulmx_sumr mulmx_sumr !tr_sum.
apply: eq_bigr => t _; rewrite mulmx_sumr [in RHS]mulmx_sumr mulmx_sumr !tr_sum; apply: eq_bigr => z _.
rewrite -[T s *m _ *m _]mulmxA adjM /calc_AAs /calc_AA -/(C3e q A ham m s t z) [RHS]mxtrace_mulC.
by rewrite !mulmxA.
Qed.
Lemma cover3b m (T : nat -> 'M[C]_(D m.+1, D m.+2)) ham (lm : 'M[C]_(D m)) (R : 'M[C]_(D m.+3)) :
  \tr (lm *m winmat q (rep A T) A m 3 (O3 ham m) R) =
  tdot q T (fun t => \sum_(s < q m) (A m s)^† *m lm *m
               eps_r_noop (q m.+2) R (C3e q A ham m s t) (A m.+2)).
Proof.
rewrite winmat3 rep_same !rep_other; try lia.
rewrite exchange_big mulmx_sumr tr_sum; apply: eq_bigr => t _.
rewrite mulmx_sumr [in RHS]mulmx_sumr !tr_sum.
apply: eq_bigr => s _; rewrite mulmx_sumr [in RHS]mulmx_sumr mulmx_sumr !tr_sum; apply: eq_bigr => z _.
rewrite !adjM -/(C3e q A ham m s t z).
by rewrite [RHS]mxtrace_mulC !mulmxA [LHS]mxtrace_mulC !mulmxA.
Qed.
Lemma cover3c m (T : nat -> 'M[C]_(D m.+2, D m.+3)) ham (lm : 'M[C]_(D m)) (R : 'M[C]_(D m.+3)) :
  \tr (lm *m winmat q (rep A T) A m 3 (O3 ham m) R) =
  tdot q T (fun z => eps_l_op_2s_AA12_C34 (q m) (q m.+1) lm (calc_AAs A m) (fun s t => C3e q A ham m s t z) *m R).
Proof.
rewrite winmat3 rep_same !rep_other; try lia.
transitivity (\sum_(z < q m.+2) \sum_(s < q m) \sum_(t < q m.+1)
   \tr (lm *m (C3e q A ham m s t z *m R *m (A m s *m A m.+1 t *m T z)^†))).
  rewrite [RHS]exchange_big mulmx_sumr tr_sum; apply: eq_bigr => s _.
  rewrite [RHS]exchange_big mulmx_sumr tr_sum; apply: eq_bigr => t _.
  by rewrite mulmx_sumr tr_sum.
apply: eq_bigr => z _; rewrite eps_l_op_2s_AA12_C34E mulmx_suml mulmx_sumr tr_sum; apply: eq_bigr => s _.
rewrite mulmx_suml mulmx_sumr tr_sum; apply: eq_bigr => t _.
rewrite [in LHS]adjM /calc_AAs /calc_AA.
by rewrite [RHS]mxtrace_mulC !mulmxA [LHS]mxtrace_mulC !mulmxA.
Qed.
End Cover.

Section Grad2.
Variables (C : numClosedFieldType) (D q : nat -> nat) (N : nat).
Local Notation bonds := (forall n, 'M[C]_(D n)).
Local Notation sbonds := (forall n, smat C (D n) (D n)).
Variables (A : tensors C D) (l r : sbonds).
Local Notation L n := (toarray (l n)).
Local Notation R n := (toarray (r n)).
Hypotheses (hl : up_l q A N 1%:M (fun n => L n)) (hr : up_r q A N 1%:M (fun n => R n)).

Lemma tdotN m (T G : nat -> 'M[C]_(D m, D m.+1)) : (forall s, (s < q m)%N -> G s = 0) -> tdot q T G = 0.
Proof. by move=> h; rewrite (eq_tdot _ (G' := fun=> 0)) ?tdot0. Qed.

(* the terms covering site m *)
Definition gl2 ham m : nat -> 'M[C]_(D m, D m.+1) :=
  match m return nat -> 'M[C]_(D m, D m.+1) with
  | 0%N => fun _ => 0
  | m'.+1 => fun t => eps_l_noop (q m') (L m') (A m') (fun s => C2e q A ham m' s t)
  end.
Definition gr2 ham m : nat -> 'M[C]_(D m, D m.+1) := fun s =>
  if (m.+1 < N)%N then eps_r_noop (q m.+1) (R m.+2) (C2e q A ham m s) (A m.+1) else 0.
Definition gl3 ham m : nat -> 'M[C]_(D m, D m.+1) :=
  match m return nat -> 'M[C]_(D m, D m.+1) with
  | m'.+2 => fun z => eps_l_op_2s_AA12_C34 (q m') (q m'.+1) (L m') (calc_AAs A m') (fun s t => C3e q A ham m' s t z)
  | _ => fun _ => 0
  end.
Definition gm3 ham m : nat -> 'M[C]_(D m, D m.+1) :=
  match m return nat -> 'M[C]_(D m, D m.+1) with
  | m'.+1 => fun t => if (m'.+2 < N)%N then \sum_(s < q m') (A m' s)^† *m L m' *m
               eps_r_noop (q m'.+2) (R m'.+3) (C3e q A ham m' s t) (A m'.+2) else 0
  | _ => fun _ => 0
  end.
Definition gr3 ham m : nat -> 'M[C]_(D m, D m.+1) := fun s =>
  if (m.+2 < N)%N then eps_r_op_2s_C12_AA34 (q m.+1) (q m.+2) (R m.+3) (C3e q A ham m s) (calc_AAs A m.+1) else 0.
Definition Kpo (K : bonds) hs m : 'M[C]_(D m.+1) := if (m.+1 + hs <= N)%N then K m.+1 else 0.
Definition KLo (KL : bonds) m : 'M[C]_(D m) := if (0 < m)%N then KL m else 0.

Lemma grad2 ham K KL m T : K_rec q N 2 A (fun n => R n) (O2 ham) K ->
  KL_rec q N 2 A (fun n => L n) (O2 ham) KL -> (m < N)%N ->
  dotst q N (psi (@rep C D A m T) N) (Ham2 q N ham (psi A N)) =
  tdot q T (fun s => KLo KL m *m A m s *m R m.+1 + gl2 ham m s *m R m.+1
                     + (L m *m gr2 ham m s + L m *m A m s *m Kpo K 2 m)).
Proof.
move=> hK hKL mN; rewrite !tdotD (eq_dotst q (u' := psi (rep A T) N) (v' := Hsum q N 2 (O2 ham) (psi A N))) //; last first.
  by move=> c sz; apply: Ham2E.
rewrite (gradient hl hr _ _ hK hKL mN) // -!addrA; congr (_ + _).
rewrite addrA; congr (_ + _).
have last p : p = m.+2 -> (if (p <= N)%N then \tr (L m *m winmat q (rep A T) A m 2 (O2 ham m) (R p)) else 0) =
    tdot q T (fun s => L m *m gr2 ham m s).
  move=> ->; rewrite /gr2; case: ifP => h; first exact: cover2a.
  by rewrite tdotN // => s _; rewrite mulmx0.
rewrite big_mkcond big_nat_recr /=; last by lia.
rewrite last ?addn2 //; congr (_ + _).
case: m T mN last => [|m] T mN last.
  by rewrite big_geq // tdotN // => s _; rewrite mul0mx.
rewrite (_ : (m.+2 - 2)%N = m); last by lia.
rewrite big_nat1; have e : (m + 2 = m.+2)%N by lia.
suff H p : p = m.+2 -> (if (p <= N)%N then \tr (L m *m winmat q (rep A T) A m 2 (O2 ham m) (R p)) else 0) =
  tdot q T (fun t => gl2 ham m.+1 t *m R m.+2) by exact: H.
by move=> ->; rewrite mN; apply: cover2b.
Qed.

Lemma grad3 ham K KL m T : K_rec q N 3 A (fun n => R n) (O3 ham) K ->
  KL_rec q N 3 A (fun n => L n) (O3 ham) KL -> (m < N)%N ->
  dotst q N (psi (@rep C D A m T) N) (Ham3 q N ham (psi A N)) =
  tdot q T (fun s => KLo KL m *m A m s *m R m.+1 + (gl3 ham m s *m R m.+1 + gm3 ham m s)
                     + (L m *m gr3 ham m s + L m *m A m s *m Kpo K 3 m)).
Proof.
move=> hK hKL mN; rewrite !tdotD (eq_dotst q (u' := psi (rep A T) N) (v' := Hsum q N 3 (O3 ham) (psi A N))) //; last first.
  by move=> c sz; apply: Ham3E.
rewrite (gradient hl hr _ _ hK hKL mN) // -!addrA; congr (_ + _).
rewrite !addrA; congr (_ + _).
have last p : p = m.+3 -> (if (p <= N)%N then \tr (L m *m winmat q (rep A T) A m 3 (O3 ham m) (R p)) else 0) =
    tdot q T (fun s => L m *m gr3 ham m s).
  move=> ->; rewrite /gr3; case: ifP => h; first exact: cover3a.
  by rewrite tdotN // => s _; rewrite mulmx0.
rewrite big_mkcond big_nat_recr /=; last by lia.
rewrite last ?addn3 //; congr (_ + _).
case: m T mN last => [|m] T mN last.
  by rewrite big_geq // !tdotN ?addr0 // => s _; rewrite mul0mx.
have mid p : p = m.+3 -> (if (p <= N)%N then \tr (L m *m winmat q (rep A T) A m 3 (O3 ham m) (R p)) else 0) =
    tdot q T (fun s => gm3 ham m.+1 s).
  move=> ->; rewrite /gm3; case: ifP => h; first exact: cover3b.
  by rewrite tdotN.
rewrite big_nat_recr /=; last by lia.
rewrite mid ?addn3 //; congr (_ + _).
case: m T mN last mid => [|m] T mN last mid.
  by rewrite big_geq // tdotN // => s _; rewrite mul0mx.
rewrite (_ : (m.+3 - 3)%N = m); last by lia.
rewrite big_nat1; have e : (m + 3 = m.+3)%N by lia.
suff H p : p = m.+3 -> (if (p <= N)%N then \tr (L m *m winmat q (rep A T) A m 3 (O3 ham m) (R p)) else 0) =
  tdot q T (fun t => gl3 ham m.+2 t *m R m.+3) by exact: H.
by move=> ->; rewrite mN; apply: cover3c.
Qed.

(* gauge conditions remove one of the two energy terms *)
Lemma rgauge_KL KL m T : (m < N)%N -> rgauge q A (fun n => R n) T ->
  tdot q T (fun s => KLo KL m *m A m s *m R m.+1) = 0.
Proof.
move=> mN g; transitivity (\tr (KLo KL m *m eps_r_noop (q m) (R m.+1) (A m) T)); last by rewrite g mulmx0 mxtrace0.
rewrite mulmx_sumr tr_sum; apply: eq_bigr => s _; by rewrite mxtrace_mulC !mulmxA.
Qed.
Lemma lgauge_K K m T : (m < N)%N -> lgauge q A (fun n => L n) T ->
  tdot q T (fun s => L m *m A m s *m Kpo K 2 m) = 0 /\ tdot q T (fun s => L m *m A m s *m Kpo K 3 m) = 0.
Proof.
move=> mN g.
suff H X : tdot q T (fun s => L m *m A m s *m X) = 0 by [].
transitivity (\tr (eps_l_noop (q m) (L m) T (A m) *m X)); last by rewrite g mul0mx mxtrace0.
rewrite mulmx_suml tr_sum; apply: eq_bigr => s _; by rewrite !mulmxA.
Qed.
End Grad2.

(* ---- calc_x and calc_x_l as gradients ------------------------------------------------------------ *)
Section X.
Variables (C : numClosedFieldType) (D q : nat -> nat) (N : nat).
Local Notation bonds := (forall n, 'M[C]_(D n)).
Local Notation sbonds := (forall n, smat C (D n) (D n)).
Variables (A : tensors C D) (l r : sbonds) (K KL : bonds).
Local Notation L n := (toarray (l n)).
Local Notation R n := (toarray (r n)).

Lemma eps_l_noop_eq n Da Db Da' Db' (x : 'M[C]_(Da, Db)) (T : nat -> 'M[C]_(Da, Da')) (G G' : nat -> 'M[C]_(Db, Db')) :
  (forall s, (s < n)%N -> G s = G' s) -> eps_l_noop n x T G = eps_l_noop n x T G'.
Proof. by move=> h; apply: eq_bigr => s _; rewrite h. Qed.
Lemma eps_r_noop_eq n Da Db Da' Db' (x : 'M[C]_(Da', Db')) (G G' : nat -> 'M[C]_(Da, Da')) (T : nat -> 'M[C]_(Db, Db')) :
  (forall s, (s < n)%N -> G s = G' s) -> eps_r_noop n x G T = eps_r_noop n x G' T.
Proof. by move=> h; apply: eq_bigr => s _; rewrite h. Qed.

Lemma calc_C2_ge ham m : (N <= m.+1)%N -> calc_C2 q N A ham m = None.
Proof. by move=> h; rewrite /calc_C2 ltnNge h. Qed.
Lemma calc_C3_ge ham m : (N <= m.+2)%N -> calc_C3 q N A ham m = None.
Proof. by move=> h; rewrite /calc_C3 ltnNge h. Qed.

(* calc_C2 as a total tensor *)
Lemma gr2E ham m s :
  (if calc_C2 q N A ham m is Some c then eps_r_noop (q m.+1) (R m.+2) (c s) (A m.+1) else 0) = gr2 q N A r ham m s.
Proof.
rewrite /gr2; case: ifP => h; last by rewrite calc_C2_ge // leqNgt h.
have e0 t := @calc_C2E _ _ q _ A ham m s t h; move: e0; case: (calc_C2 _ _ _ _ _) => [c|] e.
  by apply: eps_r_noop_eq => t tq; apply: e.
by rewrite /eps_r_noop big1 // => t _; rewrite -e // !mul0mx.
Qed.
Lemma gl2E ham m s : (m.+1 < N)%N -> (s < q m.+1)%N ->
  (if calc_C2 q N A ham m is Some c then eps_l_noop (q m) (L m) (A m) (fun t => c t s) else 0) = gl2 q A l ham m.+1 s.
Proof.
move=> h sq; rewrite /gl2; have e0 t := @calc_C2E _ _ q _ A ham m t s h sq; move: e0; case: (calc_C2 _ _ _ _ _) => [c|] e.
  by apply: eps_l_noop_eq => t tq; apply: e.
by rewrite /eps_l_noop big1 // => t _; rewrite -e // !mulmx0.
Qed.

Lemma calc_x2E ham m k (V : nat -> 'M[C]_(D m.+1, k)) ls lsi rs rsi : (m < N)%N ->
  calc_x2 q N A l r K (calc_C2 q N A ham) V ls lsi rs rsi =
  ls *m (\sum_(s < q m) (gr2 q N A r ham m s + A m s *m Kpo N K 2 m) *m (rsi *m V s))
  + lsi *m (\sum_(s < q m) gl2 q A l ham m s *m (rs *m V s)).
Proof.
move=> mN; rewrite /calc_x2; congr (_ + _).
  have eK s : (if Kp1 N K 2 m is Some k' then A m s *m k' else 0) = A m s *m Kpo N K 2 m.
    by rewrite /Kp1 /Kpo; case: ifP; rewrite ?mulmx0.
  rewrite /xpart2; have := gr2E ham m; case: (calc_C2 _ _ _ _ _) => [c|] eg.
    by congr (_ *m _); apply: eq_bigr => s _; rewrite -eg -eK.
  have := eK; case: (Kp1 _ _ _ _) => [k'|] e2.
    by congr (_ *m _); apply: eq_bigr => s _; rewrite -eg -e2.
  by rewrite big1 ?mulmx0 // => s _; rewrite -eg -e2 addr0 mul0mx.
case: m V ls lsi rs rsi mN => [|m] V ls lsi rs rsi mN.
  by rewrite big1 ?mulmx0 // => s _; rewrite mul0mx.
have := gl2E ham mN; rewrite /xleft2; case: (calc_C2 _ _ _ _ _) => [c|] eg.
  by congr (_ *m _); apply: eq_bigr => s _; rewrite -eg.
by rewrite big1 ?mulmx0 // => s _; rewrite -eg // mul0mx.
Qed.

Definition has_left (B : Type) (ham : nat -> option B) k m := (k <= m)%N -> isSome (ham (m - k)%N).

Lemma calc_x_l2E ham m k (V : nat -> 'M[C]_(k, D m)) ls lsi rs rsi : (m < N)%N -> has_left ham 1 m ->
  calc_x_l2 q A l r KL (calc_C2 q N A ham) V ls lsi rs rsi = Some (
  (\sum_(s < q m) V s *m (ls *m gr2 q N A r ham m s)) *m rsi
  + (\sum_(s < q m) V s *m (lsi *m (gl2 q A l ham m s + KLo KL m *m A m s))) *m rs).
Proof.
move=> mN hh; rewrite /calc_x_l2.
have -> : (if calc_C2 q N A ham m is Some c then
      (\sum_(s < q m) V s *m (ls *m eps_r_noop (q m.+1) (R m.+2) (c s) (A m.+1))) *m rsi else 0) =
      (\sum_(s < q m) V s *m (ls *m gr2 q N A r ham m s)) *m rsi.
  have := gr2E ham m; case: (calc_C2 _ _ _ _ _) => [c|] eg.
    by congr (_ *m _); apply: eq_bigr => s _; rewrite -eg.
  by rewrite big1 ?mul0mx // => s _; rewrite -eg !mulmx0.
case: m V ls lsi rs rsi mN hh => [|m] V ls lsi rs rsi mN hh.
  by congr (Some (_ + _ *m _)); apply: eq_bigr => s _; rewrite /KLo /= mul0mx addr0.
have := gl2E ham mN; rewrite /xl_left2; case e : (calc_C2 _ _ _ _ _) => [c|] eg.
  by congr (Some (_ + _ *m _)); apply: eq_bigr => s _; rewrite -eg.
by move: e (hh isT); rewrite /calc_C2 mN subn1 /=; case: (ham m).
Qed.

(* three-site *)
Lemma eps_r2_eq n1 n2 Da Db Da' Db' (x : 'M[C]_(Da', Db')) (c c' : nat -> nat -> 'M[C]_(Da, Da')) (AA : nat -> nat -> 'M[C]_(Db, Db')) :
  (forall s t, (s < n1)%N -> (t < n2)%N -> c s t = c' s t) ->
  eps_r_op_2s_C12_AA34 n1 n2 x c AA = eps_r_op_2s_C12_AA34 n1 n2 x c' AA.
Proof. by move=> h; rewrite !eps_r_op_2s_C12_AA34E; apply: eq_bigr => s _; apply: eq_bigr => t _; rewrite h. Qed.
Lemma eps_l2_eq n1 n2 Da Db Da' Db' (x : 'M[C]_(Da, Db)) (c c' : nat -> nat -> 'M[C]_(Db, Db')) (AA : nat -> nat -> 'M[C]_(Da, Da')) :
  (forall s t, (s < n1)%N -> (t < n2)%N -> c s t = c' s t) ->
  eps_l_op_2s_AA12_C34 n1 n2 x AA c = eps_l_op_2s_AA12_C34 n1 n2 x AA c'.
Proof. by move=> h; rewrite !eps_l_op_2s_AA12_C34E; apply: eq_bigr => s _; apply: eq_bigr => t _; rewrite h. Qed.

Lemma gr3E ham m s :
  (if calc_C3 q N A ham m is Some c then
     eps_r_op_2s_C12_AA34 (q m.+1) (q m.+2) (R m.+3) (c s) (calc_AAs A m.+1) else 0) = gr3 q N A r ham m s.
Proof.
rewrite /gr3; case: ifP => h; last by rewrite calc_C3_ge // leqNgt h.
have e0 t z := @calc_C3E _ _ q _ A ham m s t z h; move: e0; case: (calc_C3 _ _ _ _ _) => [c|] e.
  by apply: eps_r2_eq => t z tq zq; apply: e.
by rewrite eps_r_op_2s_C12_AA34E big1 // => t _; rewrite big1 // => z _; rewrite -e // !mul0mx.
Qed.
Lemma gl3E ham m z : (m.+2 < N)%N -> (z < q m.+2)%N ->
  (if calc_C3 q N A ham m is Some c then
     eps_l_op_2s_AA12_C34 (q m) (q m.+1) (L m) (calc_AAs A m) (fun s t => c s t z) else 0) = gl3 q A l ham m.+2 z.
Proof.
move=> h zq; rewrite /gl3; have e0 s t (tq : (t < q m.+1)%N) := @calc_C3E _ _ q _ A ham m s t z h tq zq.
move: e0; case: (calc_C3 _ _ _ _ _) => [c|] e.
  by apply: eps_l2_eq => s t sq tq; apply: e.
by rewrite eps_l_op_2s_AA12_C34E big1 // => s _; rewrite big1 // => t _; rewrite -e // !mulmx0.
Qed.
Lemma gm3E ham m t : (t < q m.+1)%N ->
  (if calc_C3 q N A ham m is Some c then
     \sum_(s < q m) (A m s)^† *m L m *m eps_r_noop (q m.+2) (R m.+3) (c s t) (A m.+2) else 0) = gm3 q N A l r ham m.+1 t.
Proof.
move=> tq; rewrite /gm3; case: ifP => h; last by rewrite calc_C3_ge // leqNgt h.
have e0 s z := @calc_C3E _ _ q _ A ham m s t z h tq.
move: e0; case: (calc_C3 _ _ _ _ _) => [c|] e.
  by apply: eq_bigr => s _; congr (_ *m _); apply: eps_r_noop_eq => z zq; apply: e.
rewrite big1 // => s _; rewrite [X in _ *m X](_ : _ = 0) ?mulmx0 //.
by rewrite /eps_r_noop big1 // => z _; rewrite -e // !mul0mx.
Qed.

Lemma calc_x3E ham m k (V : nat -> 'M[C]_(D m.+1, k)) ls lsi rs rsi : (m < N)%N ->
  (forall n, (n < m)%N -> herm (L n)) ->
  ((m.+3 < N)%N -> isSome (ham m)) -> has_left ham 2 m ->
  calc_x3 q N A l r (calc_AAs A) K (calc_C3 q N A ham) V ls lsi rs rsi = Some (
  ls *m (\sum_(s < q m) (gr3 q N A r ham m s + A m s *m Kpo N K 3 m) *m (rsi *m V s))
  + lsi *m (\sum_(s < q m) gm3 q N A l r ham m s *m (rsi *m V s))
  + lsi *m (\sum_(s < q m) gl3 q A l ham m s *m (rs *m V s))).
Proof.
move=> mN hL h1 h2; rewrite /calc_x3.
have e1 : exists2 p1, xpart3 q N A r (calc_AAs A) K (calc_C3 q N A ham) m = Some p1 &
   (if p1 is Some f then ls *m (\sum_(s < q m) f s *m (rsi *m V s)) else 0) =
   ls *m (\sum_(s < q m) (gr3 q N A r ham m s + A m s *m Kpo N K 3 m) *m (rsi *m V s)).
  have eK s : (if Kp1 N K 3 m is Some k' then A m s *m k' else 0) = A m s *m Kpo N K 3 m.
    by rewrite /Kp1 /Kpo; case: ifP; rewrite ?mulmx0.
  rewrite /xpart3; have := gr3E ham m; case ec : (calc_C3 _ _ _ _ _) => [c|] eg.
    by eexists; first reflexivity; congr (_ *m _); apply: eq_bigr => s _; rewrite -eg -eK.
  have h : (m.+1 + 3 <= N)%N = false.
    apply/negP => h; have h3 : (m.+3 < N)%N by lia.
    have h4 : (m.+2 < N)%N by lia.
    by move: ec (h1 h3); rewrite /calc_C3 h4; case: (ham m).
  rewrite /Kp1 /Kpo h; eexists; first reflexivity.
  by rewrite big1 ?mulmx0 // => s _; rewrite -eg mulmx0 addr0 mul0mx.
have e3 : exists2 p3, xleft3 q l (calc_AAs A) (calc_C3 q N A ham) m = Some p3 &
   (if p3 is Some f then lsi *m (\sum_(s < q m) f s *m (rs *m V s)) else 0) =
   lsi *m (\sum_(s < q m) gl3 q A l ham m s *m (rs *m V s)).
  case: m V ls lsi rs rsi mN h1 h2 {hL e1} => [|[|m]] V ls lsi rs rsi mN h1 h2; try
    by eexists; [reflexivity | rewrite big1 ?mulmx0 // => s _; rewrite mul0mx].
  have := gl3E ham mN; rewrite /xleft3; case ec : (calc_C3 _ _ _ _ _) => [c|] eg.
    by eexists; first reflexivity; congr (_ *m _); apply: eq_bigr => s _; rewrite -eg.
  by move: ec (h2 isT); rewrite /calc_C3 mN subSS subn1 /=; case: (ham m).
have [p1 -> ->] := e1; have [p3 -> ->] := e3; congr (Some (_ + _ + _)).
case: m V ls lsi rs rsi mN hL {h1 h2 e1 e3 p1 p3} => [|m] V ls lsi rs rsi mN hL.
  by rewrite big1 ?mulmx0 // => s _; rewrite mul0mx.
have := gm3E ham (m := m); rewrite /xmid3; case: (calc_C3 _ _ _ _ _) => [c|] eg; rewrite [omap _ _]/=.
  congr (_ *m _); apply: eq_bigr => t _; rewrite -eg //; congr (_ *m _).
  by apply: eq_bigr => s _; rewrite adjM hL.
by rewrite big1 ?mulmx0 // => s _; rewrite -eg // mul0mx.
Qed.

Lemma calc_x_l3E ham m k (V : nat -> 'M[C]_(k, D m)) ls lsi rs rsi : (m < N)%N -> herm lsi ->
  ((0 < m)%N -> (m.+1 < N)%N -> q m = q m.+1) ->
  calc_x_l3 q A l r (calc_AAs A) KL (calc_C3 q N A ham) V ls lsi rs rsi = Some (
  (\sum_(s < q m) V s *m (lsi *m KLo KL m *m A m s)) *m rs
  + (\sum_(s < q m) V s *m (ls *m gr3 q N A r ham m s)) *m rsi
  + (\sum_(s < q m) V s *m (lsi *m gm3 q N A l r ham m s)) *m rsi
  + (\sum_(s < q m) V s *m (lsi *m gl3 q A l ham m s)) *m rs).
Proof.
move=> mN hlsi hq; rewrite /calc_x_l3.
have e0 : (if (0 < m)%N then eps_l_noop (q m) (lsi *m KL m) (fun s => (V s)^†) (A m) *m rs else 0) =
   (\sum_(s < q m) V s *m (lsi *m KLo KL m *m A m s)) *m rs.
  rewrite /KLo; case: ifP => h; last by rewrite big1 ?mul0mx // => s _; rewrite mulmx0 mul0mx mulmx0.
  by congr (_ *m _); apply: eq_bigr => s _; rewrite adjK.
have e1 : (if calc_C3 q N A ham m is Some c then eps_l_noop (q m) ls (fun s => (V s)^†)
     (fun s => eps_r_op_2s_C12_AA34 (q m.+1) (q m.+2) (R m.+3) (c s) (calc_AAs A m.+1)) *m rsi else 0) =
   (\sum_(s < q m) V s *m (ls *m gr3 q N A r ham m s)) *m rsi.
  have := gr3E ham m; case: (calc_C3 _ _ _ _ _) => [c|] eg.
    by congr (_ *m _); apply: eq_bigr => s _; rewrite -eg adjK.
  by rewrite big1 ?mul0mx // => s _; rewrite -eg !mulmx0.
have e3 : (if xl_left3 q l (calc_AAs A) (calc_C3 q N A ham) m is Some f then
    eps_l_noop (q m) lsi (fun s => (V s)^†) f *m rs else 0) =
    (\sum_(s < q m) V s *m (lsi *m gl3 q A l ham m s)) *m rs.
  case: m V ls lsi rs rsi mN {e0 e1 hlsi hq} => [|[|m]] V ls lsi rs rsi mN; try
    by rewrite /xl_left3 big1 ?mul0mx // => s _; rewrite !mulmx0.
  have := gl3E ham mN; rewrite /xl_left3; case: (calc_C3 _ _ _ _ _) => [c|] eg; rewrite [omap _ _]/=.
    by congr (_ *m _); apply: eq_bigr => s _; rewrite -eg // adjK.
  by rewrite big1 ?mul0mx // => s _; rewrite -eg // !mulmx0.
have e2 : xl_mid3 q A l r (calc_C3 q N A ham) V lsi = Some (\sum_(s < q m) V s *m (lsi *m gm3 q N A l r ham m s)).
  case: m V ls lsi rs rsi mN hlsi hq {e0 e1 e3} => [|m] V ls lsi rs rsi mN hlsi hq.
    by rewrite /xl_mid3 big1 // => s _; rewrite !mulmx0.
  have := gm3E ham (m := m); rewrite /xl_mid3; case ec: (calc_C3 _ _ _ _ _) => [c|] eg.
    have m2 : (m.+2 < N)%N by case: (ltnP m.+2 N) ec => // h; rewrite calc_C3_ge.
    have eq := hq isT m2; rewrite -eq leqnn; congr Some.
    transitivity (\sum_(t < q m.+1) \sum_(s < q m) \sum_(u < q m.+2)
       V t *m (lsi *m ((A m s)^† *m L m *m (c s t u *m R m.+3 *m (A m.+2 u)^†)))); last first.
      apply: eq_bigr => t _; rewrite -eg // !mulmx_sumr; apply: eq_bigr => s _.
      by rewrite /eps_r_noop !mulmx_sumr.
    rewrite /eps_r_noop -eq.
    transitivity (\sum_(u < q m.+1) \sum_(t < q m.+1) \sum_(s < q m)
       V t *m (lsi *m ((A m s)^† *m L m *m (c s t u *m R m.+3 *m (A m.+2 u)^†)))).
      apply: eq_bigr => u _; rewrite eps_l_op_2s_AA12_C34E exchange_big !mulmx_suml; apply: eq_bigr => t _.
      rewrite !mulmx_suml; apply: eq_bigr => s _.
      by rewrite /calc_AA !adjM adjK hlsi !mulmxA.
    rewrite exchange_big; apply: eq_bigr => t _; rewrite exchange_big; apply: eq_bigr => s _.
    by [].
  by rewrite big1 // => s _; rewrite -eg // !mulmx0.
by rewrite e0 e1 e2 e3 /=.
Qed.
End X.
