(* P02_Correlations.v -- property theorems: two-point functions, inner products, reduced density
   matrices, operator application (C06-C13, C25). *)
From mathcomp Require Import all_ssreflect all_algebra all_field zify.
From mathcomp.real_closed Require Import mxtens.
From Verif Require Import Base Spec Eps Chain ChainProofs ChainProofs2 Density2 MPO Multi Eps2 Witness P01_Expectation.
Set Implicit Arguments.
Unset Strict Implicit.
Unset Printing Implicit Defensive.
Import GRing.Theory Num.Theory.
Local Open Scope ring_scope.

(* ---- C06 ---------------------------------------------------------------- *)
Theorem C06_expect_1s_1s_exact (C : numClosedFieldType) (D q : nat -> nat) (A : tensors C D) N
    (l r : forall n, 'M[C]_(D n)) (o1 o2 : op1s C) n1 d :
  up_to_date q A N l r -> (0 < d)%N -> (n1 + d < N)%N ->
  expect_1s_1s_ret q A l r o1 o2 n1 d =
    dotst q N (psi A N) (op1 q n1 o1 (op1 q (n1 + d) o2 (psi A N))).
Proof.
case=> hl hr; case: d => // d _ h.
by rewrite /expect_1s_1s_ret (expect_1s_1sE hl hr) // bdotst1.
Qed.
Print Assumptions C06_expect_1s_1s_exact.

Theorem C06_intermediates (C : numClosedFieldType) (D q : nat -> nat) (A : tensors C D) N
    (l r : forall n, 'M[C]_(D n)) (o1 o2 : op1s C) n1 j :
  up_to_date q A N l r -> (n1 + j < N)%N ->
  expect_1s_1s q A l r o1 o2 n1 j =
    dotst q N (psi A N) (op1 q n1 o1 (op1 q (n1 + j) o2 (psi A N))).
Proof.
case=> hl hr h; rewrite -bdotst1; case: j h => [|j] h.
  by rewrite addn0 in h *; apply: expect_1s_1s0.
exact: expect_1s_1sE.
Qed.
Print Assumptions C06_intermediates.

(* ---- C07 ---------------------------------------------------------------- *)
Theorem C07_inner_exact (C : numClosedFieldType) (D D' q : nat -> nat) N
    (A : tensors C D) (B : tensors C D') :
  D 0%N = 1%N -> D N = 1%N -> D' 0%N = 1%N -> D' N = 1%N ->
  inner q N A B = \sum_(c <- cfgs q N 0) (amplitude N B c)^* * amplitude N A c.
Proof. exact: innerE. Qed.
Print Assumptions C07_inner_exact.

Theorem C07_inner_conj_sym (C : numClosedFieldType) (D D' q : nat -> nat) N
    (A : tensors C D) (B : tensors C D') :
  D 0%N = 1%N -> D N = 1%N -> D' 0%N = 1%N -> D' N = 1%N ->
  inner q N B A = (inner q N A B)^*.
Proof.
move=> *; rewrite !innerE // rmorph_sum; apply: eq_bigr => c _.
by rewrite rmorphM conjCK mulrC.
Qed.
Print Assumptions C07_inner_conj_sym.

Theorem C07_inner_self_norm (C : numClosedFieldType) (D q : nat -> nat) N (A : tensors C D) :
  D 0%N = 1%N -> D N = 1%N ->
  inner q N A A = \sum_(c <- cfgs q N 0) `|amplitude N A c| ^+ 2 /\
  inner q N A A = dotst q N (psi A N) (psi A N).
Proof.
move=> h1 h2; rewrite innerE //; split; apply: eq_bigr => c _; first by rewrite normCK mulrC.
by rewrite -/(adot _ _) entry0_adot.
Qed.
Print Assumptions C07_inner_self_norm.

Example C07_example : inner two 2 (bell : tensors Cx bellD) (scal (fun n s => (s == 0%N)%:R : Cx)) = 1.
Proof.
rewrite C07_inner_exact //= !big_cons big_nil !bell_amplitude !psi_scal /=.
by rewrite !big_ord_recl !big_ord0 /= !mulr1 !mulr0 conjC1 conjC0 ?mul0r ?mulr0 ?mulr1 ?addr0.
Qed.

(* ---- C08 ---------------------------------------------------------------- *)
Theorem C08_density_1s_exact (C : numClosedFieldType) (D q : nat -> nat) (A : tensors C D) N
    (l r : forall n, 'M[C]_(D n)) n s t :
  up_to_date q A N l r -> (n < N)%N ->
  density_1s A l r n s t = rdm1 q N (psi A N) n s t.
Proof.
case=> hl hr nN; rewrite (density_1sE hl hr) //; apply: eq_bigr => c1 _; apply: eq_bigr => c3 _.
by rewrite adj1 !mulmx1 adotE.
Qed.
Print Assumptions C08_density_1s_exact.

Lemma swap4 (V : zmodType) (I J K L : Type) (ri : seq I) (rj : seq J) (rk : seq K) (rl : seq L)
    (F : I -> J -> K -> L -> V) :
  \sum_(i <- ri) \sum_(j <- rj) \sum_(k <- rk) \sum_(l <- rl) F i j k l =
  \sum_(k <- rk) \sum_(l <- rl) \sum_(i <- ri) \sum_(j <- rj) F i j k l.
Proof.
transitivity (\sum_(i <- ri) \sum_(k <- rk) \sum_(l <- rl) \sum_(j <- rj) F i j k l).
  by apply: eq_bigr => i _; rewrite exchange_big; apply: eq_bigr => k _; rewrite exchange_big.
by rewrite exchange_big; apply: eq_bigr => k _; rewrite exchange_big.
Qed.

Theorem C08_density_1s_hermitian_trace (C : numClosedFieldType) (D q : nat -> nat) (A : tensors C D) N
    (l r : forall n, 'M[C]_(D n)) n (op : op1s C) :
  up_to_date q A N l r -> (n < N)%N ->
  [/\ forall s t, density_1s A l r n s t = (density_1s A l r n t s)^*,
      forall v : nat -> C, 0 <= \sum_(s < q n) \sum_(t < q n) v s * density_1s A l r n s t * (v t)^*,
      \sum_(s < q n) density_1s A l r n s s = dotst q N (psi A N) (psi A N)
    & \sum_(s < q n) \sum_(t < q n) density_1s A l r n s t * op s t = expect_1s q A l r op n].
Proof.
move=> h nN.
have trop (o : op1s C) : \sum_(s < q n) \sum_(t < q n) density_1s A l r n s t * o s t = expect_1s q A l r o n.
  rewrite /expect_1s /= eps_r_op_1sE adot_sumr; apply: eq_bigr => s _; rewrite adot_sumr.
  by apply: eq_bigr => t _; rewrite adotZr mulrC.
split=> //.
- move=> s t; rewrite !(C08_density_1s_exact _ _ h) // /rdm1 rmorph_sum; apply: eq_bigr => c1 _.
  by rewrite rmorph_sum; apply: eq_bigr => c3 _; rewrite -adotC.
- move=> v.
  have -> : \sum_(s < q n) \sum_(t < q n) v s * density_1s A l r n s t * (v t)^* =
    \sum_(c1 <- cfgs q n 0) \sum_(c3 <- cfgs q (N - n.+1) n.+1)
      adot (\sum_(s < q n) (v s)^* *: psi A N (c1 ++ val s :: c3))
           (\sum_(s < q n) (v s)^* *: psi A N (c1 ++ val s :: c3)).
    transitivity (\sum_(s < q n) \sum_(t < q n) \sum_(c1 <- cfgs q n 0)
      \sum_(c3 <- cfgs q (N - n.+1) n.+1)
        (v s * adot (psi A N (c1 ++ val s :: c3)) (psi A N (c1 ++ val t :: c3)) * (v t)^*)).
      apply: eq_bigr => s _; apply: eq_bigr => t _; rewrite (C08_density_1s_exact _ _ h nN) /rdm1.
      by rewrite mulr_sumr mulr_suml; apply: eq_bigr => c1 _; rewrite mulr_sumr mulr_suml.
    rewrite swap4; apply: eq_bigr => c1 _; apply: eq_bigr => c3 _.
    rewrite adot_suml; apply: eq_bigr => s _; rewrite adot_sumr; apply: eq_bigr => t _.
    by rewrite adotZl adotZr conjCK -!mulrA; congr (_ * _); rewrite mulrC.
  by apply: sumr_ge0 => c1 _; apply: sumr_ge0 => c3 _; apply: adot_ge0.
- have e : (n + (N - n.+1).+1)%N = N by lia.
  transitivity (\sum_(c <- cfgs q (n + (N - n.+1).+1) 0) adot (psi A N c) (psi A N c)); last by rewrite e.
  rewrite sum_cfgs_cat addn0.
  transitivity (\sum_(s < q n) rdm1 q N (psi A N) n s s).
    by apply: eq_bigr => s _; rewrite (C08_density_1s_exact _ _ h nN).
  by rewrite exchange_big /=; apply: eq_bigr => c1 _; rewrite sum_cfgsS.
Qed.
Print Assumptions C08_density_1s_hermitian_trace.

(* Reading the result as an operator, tr(rho op) = sum_{s,t} rho[s,t] op[t,s] is NOT the expectation
   value: density_1s returns the transpose (equivalently the complex conjugate) of the reduced
   density matrix.  Witness: one site, (|0> + i|1>), op = |0><1|. *)
Theorem C08_trace_with_op_refuted :
  exists (A : tensors Cx one) (l r : forall n, 'M[Cx]_(one n)) (op : op1s Cx),
    up_to_date two A 1 l r /\
    \sum_(s < 2) \sum_(t < 2) density_1s A l r 0 s t * op t s != expect_1s two A l r op 0.
Proof.
pose A : tensors Cx one := scal (fun _ s => if s == 0%N then 1 else 'i).
pose l := calc_l two A (fun=> 1%:M) 0 1; pose r := calc_r two A (fun=> 1%:M) 0 1.
have h : up_to_date two A 1 l r by apply: calc_lr_up_to_date.
exists A, l, r, (fun s t => ((s == 0%N) && (t == 1%N))%:R); split=> //.
have d s t : density_1s A l r 0 s t = (if s == 0%N then 1 else 'i)^* * (if t == 0%N then 1 else 'i).
  have p u : psi A 1 [:: u] = A 0%N u by apply: amp_one.
  by rewrite (C08_density_1s_exact _ _ h) // /rdm1 !big_seq1 !p /adot !big_ord1 !mxE eqxx.
have [_ _ _ <-] := C08_density_1s_hermitian_trace (fun s t => ((s == 0%N) && (t == 1%N))%:R) h (ltn0Sn 0).
rewrite !big_ord_recl !big_ord0 /= !d /= !mulr0 !addr0 ?add0r !mulr1 conjCi conjC1 mul1r.
by rewrite -subr_eq0 -opprD oppr_eq0 -mulr2n mulrn_eq0 /= neq0Ci.
Qed.
Print Assumptions C08_trace_with_op_refuted.

(* ---- C09 ---------------------------------------------------------------- *)
Theorem C09_density_2s_exact (C : numClosedFieldType) (D q : nat -> nat) (A : tensors C D) N
    (l r : forall n, 'M[C]_(D n)) n1 n2 : up_to_date q A N l r -> (n1 < n2 < N)%N ->
  q n1 = q n2 \/ q n1 = 1%N ->
  exists2 rho, density_2s q A l r n1 n2 = Some rho &
  forall s1 t1 s2 t2, (s1 < q n1)%N -> (t1 < q n1)%N -> (s2 < q n2)%N -> (t2 < q n2)%N ->
    rho (s1 * q n2 + s2)%N (t1 * q n2 + t2)%N = Some (rdm2 q N (psi A N) n1 n2 s1 t1 s2 t2).
Proof.
case=> hl hr /andP[n12 n2N] hq; rewrite /density_2s.
have [rho -> hrho] := density_2s_fill_ok (density_2s_val q A l r n1 (n2 - n1.+1)) hq.
exists rho => // s1 t1 s2 t2 *; rewrite hrho // (density_2s_valE hl hr _ _ _ _ (subnKC n12 : (n1.+1 + (n2 - n1.+1))%N = n2) n2N).
congr Some; apply: eq_bigr => c1 _; apply: eq_bigr => c2 _; apply: eq_bigr => c3 _.
by rewrite adj1 !mulmx1 adotE.
Qed.
Print Assumptions C09_density_2s_exact.

(* the documented layout rho[s*q[n1]+u, t*q[n1]+v] fails whenever the two sites have different
   dimensions (and q[n1] > 1): IndexError if q[n2] < q[n1], entries overwritten and an
   uninitialised last entry if q[n1] < q[n2] -- for every state *)
Theorem C09_unequal_dims_refuted (C : numClosedFieldType) (D q : nat -> nat) (A : tensors C D)
    (l r : forall n, 'M[C]_(D n)) n1 n2 :
  ((0 < q n2 < q n1)%N -> density_2s q A l r n1 n2 = None) /\
  ((1 < q n1 < q n2)%N -> exists2 rho, density_2s q A l r n1 n2 = Some rho &
      rho (q n1 * q n2).-1 (q n1 * q n2).-1 = None).
Proof.
by split=> h; [apply: density_2s_fill_oob | apply: density_2s_fill_uninit].
Qed.
Print Assumptions C09_unequal_dims_refuted.

(* ---- C10 ---------------------------------------------------------------- *)
Theorem C10_apply_op_1s_exact (C : numClosedFieldType) (D q : nat -> nat) (A : tensors C D) N
    (op : op1s C) n c : (n < N)%N -> size c = N ->
  psi (apply_op_1s q A op n) N c = op1 q n op (psi A N) c.
Proof. by move=> *; rewrite apply_op_1sE. Qed.
Print Assumptions C10_apply_op_1s_exact.

Lemma set_nth_self (T : Type) (x0 : T) c m : (m < size c)%N -> set_nth x0 c m (nth x0 c m) = c.
Proof.
move=> h; apply: (@eq_from_nth _ x0); rewrite size_set_nth; first exact/maxn_idPr.
by move=> i _; rewrite nth_set_nth /=; case: eqP => // ->.
Qed.

Theorem C10_apply_op_1s_identity (C : numClosedFieldType) (D q : nat -> nat) (A : tensors C D) N n c :
  (n < N)%N -> c \in cfgs q N 0 ->
  psi (apply_op_1s q A (fun s t => (s == t)%:R) n) N c = psi A N c.
Proof.
move=> nN /cfgsP[sz hc]; rewrite apply_op_1sE // /op1.
have hcn := hc _ nN; rewrite (bigD1 (Ordinal hcn)) //= eqxx scale1r big1 ?addr0.
  by rewrite set_nth_self // sz.
by move=> t; rewrite eq_sym -val_eqE /= => /negbTE ->; rewrite scale0r.
Qed.

Theorem C10_apply_op_1s_compose (C : numClosedFieldType) (D q : nat -> nat) (A : tensors C D) N
    (o1 o2 : op1s C) n c : (n < N)%N -> size c = N ->
  psi (apply_op_1s q (apply_op_1s q A o2 n) o1 n) N c = psi (apply_op_1s q A (opdot (q n) o1 o2) n) N c.
Proof.
move=> nN sz; rewrite !apply_op_1sE // -op1_comp ?sz // /op1; apply: eq_bigr => t _; congr (_ *: _).
by rewrite apply_op_1sE // size_set_nth sz; apply/maxn_idPr.
Qed.
Print Assumptions C10_apply_op_1s_compose.

Theorem C10_apply_op_1s_commute (C : numClosedFieldType) (D q : nat -> nat) (A : tensors C D)
    (o1 o2 : op1s C) (n m p s : nat) : n != m ->
  apply_op_1s q (apply_op_1s q A o2 m) o1 n p s = apply_op_1s q (apply_op_1s q A o1 n) o2 m p s.
Proof.
move=> nm; rewrite /apply_op_1s.
case: (p =P n) => [pn|pn]; case: (p =P m) => [pm|pm] //.
by rewrite -pn -pm eqxx in nm.
Qed.

(* ---- C11 ---------------------------------------------------------------- *)
Theorem C11_expect_MPO_exact (C : numClosedFieldType) (D q M : nat -> nat) (A : tensors C D)
    (W : mpo C M) N (l r : forall n, 'M[C]_(D n)) n1 k :
  up_to_date q A N l r -> (n1 + k <= N)%N -> M n1 = 1%N -> M (n1 + k)%N = 1%N ->
  expect_MPO q A W l r k n1 = dotst q N (psi A N) (opwin q n1 k (mpo_elem W n1 k) (psi A N)).
Proof. by case=> hl hr *; rewrite (expect_MPOE _ hl hr) // bdotst1. Qed.
Print Assumptions C11_expect_MPO_exact.

Theorem C11_apply_op_MPO_exact (C : numClosedFieldType) (D q M : nat -> nat) (A : tensors C D)
    (W : mpo C M) N n1 k c :
  (n1 + k <= N)%N -> size c = N -> D 0%N = 1%N -> D N = 1%N ->
  (forall n, (n <= n1)%N || (n1 + k <= n)%N -> M n = 1%N) ->
  amplitude N (apply_op_MPO q A W n1 k) c = entry0 (opwin q n1 k (mpo_elem W n1 k) (psi A N) c).
Proof. exact: apply_op_MPOE. Qed.
Print Assumptions C11_apply_op_MPO_exact.

(* consequence: the overlap <psi|O psi> computed by inner from the state produced by apply_op_MPO is
   the number returned by expect_MPO *)
Theorem C11_inner_apply_is_expect (C : numClosedFieldType) (D q M : nat -> nat) (A : tensors C D)
    (W : mpo C M) N (l r : forall n, 'M[C]_(D n)) n1 k :
  up_to_date q A N l r -> (n1 + k <= N)%N -> D 0%N = 1%N -> D N = 1%N ->
  (forall n, (n <= n1)%N || (n1 + k <= n)%N -> M n = 1%N) ->
  inner q N (apply_op_MPO q A W n1 k) A = expect_MPO q A W l r k n1.
Proof.
move=> h kN D0 DN M1.
rewrite (C11_expect_MPO_exact _ h) ?M1 ?leqnn ?orbT // innerE ?D0 ?DN ?M1 ?kN ?orbT //.
apply: eq_sum_cfgs => c sz; rewrite -/(adot _ _) entry0_adot // apply_op_MPOE //.
Qed.
Print Assumptions C11_inner_apply_is_expect.

(* ---- C12 ---------------------------------------------------------------- *)
(* what expect_string_1s computes: entry k belongs to the string of length k+2 and the operator acts
   on the bra, i.e. the value is <op^dagger ... op^dagger> *)
Theorem C12_expect_string_exact (C : numClosedFieldType) (D q : nat -> nat) (A : tensors C D) N
    (l r : forall n, 'M[C]_(D n)) (op : op1s C) n d :
  up_to_date q A N l r -> (0 < d)%N -> (n + d < N)%N ->
  exists2 res, expect_string_1s q A l r op n d = Some res &
  size res = d /\ forall k, (k < d)%N ->
    nth 0 res k = (dotst q N (psi A N) (op_string q op n k.+2 (psi A N)))^*.
Proof.
case=> hl hr d0 hN; have [res -> [sz hres]] := expect_string_1sE hl hr op d0 hN.
by exists res => //; split=> // k kd; rewrite hres // bdotst1 dotstC.
Qed.
Print Assumptions C12_expect_string_exact.

(* "strings with lengths 1 to d": entry k is not the value of the string of length k+1 *)
Theorem C12_documented_lengths_refuted :
  exists (A : tensors Cx one) (l r : forall n, 'M[Cx]_(one n)) (op : op1s Cx) res,
    [/\ up_to_date one A 2 l r, expect_string_1s one A l r op 0 1 = Some res &
     nth 0 res 0 != dotst one 2 (psi A 2) (op_string one op 0 1 (psi A 2))].
Proof.
pose A : tensors Cx one := scal (fun _ _ => 1).
pose l := calc_l one A (fun=> 1%:M) 0 2; pose r := calc_r one A (fun=> 1%:M) 0 2.
have h : up_to_date one A 2 l r by apply: calc_lr_up_to_date.
have [res e [_ hres]] := C12_expect_string_exact (fun _ _ => 2%:R) h (isT : (0 < 1)%N) (isT : (0 + 1 < 2)%N).
exists A, l, r, (fun _ _ => 2%:R), res; split=> //; rewrite hres //.
have p s t : psi A 2 [:: s; t] = 1%:M.
  by rewrite /psi /= /A /scal /one pid_mx_1 !mulmx1.
have d1 (phi phi' : seq nat -> 'M[Cx]_(1, 1)) :
   dotst one 2 phi phi' = adot (phi [:: 0; 0]%N) (phi' [:: 0; 0]%N).
  by rewrite dotstE /= !big_cons big_nil addr0.
rewrite !d1 /= /op1 /= !big_ord1 /= !p !adotZr.
have -> : adot (1%:M : 'M[Cx]_1) 1%:M = 1 by rewrite /adot !big_ord1 !mxE eqxx conjC1 mulr1.
rewrite !mulr1 rmorphM !conjC_nat -natrM eqr_nat //.
Qed.
Print Assumptions C12_documented_lengths_refuted.

Theorem C12_zero_length_raises_refuted (C : numClosedFieldType) (D q : nat -> nat) (A : tensors C D)
    (l r : forall n, 'M[C]_(D n)) (op : op1s C) n : expect_string_1s q A l r op n 0 = None.
Proof. by []. Qed.

(* ---- C13 ---------------------------------------------------------------- *)
Theorem C13_correlation_exact (C : numClosedFieldType) (D q : nat -> nat) (A : tensors C D) N
    (l r : forall n, 'M[C]_(D n)) (o1 o2 : op1s C) n1 j :
  up_to_date q A N l r -> (n1 + j < N)%N ->
  correlation_1s_1s q A l r o1 o2 n1 j =
    dotst q N (psi A N) (op1 q n1 o1 (op1 q (n1 + j) o2 (psi A N))) -
    dotst q N (psi A N) (op1 q n1 o1 (psi A N)) *
    dotst q N (psi A N) (op1 q (n1 + j) o2 (psi A N)).
Proof.
move=> h nN; rewrite /correlation_1s_1s (C06_intermediates _ _ h) // !(C03_expect_1s_exact _ h) //.
by apply: leq_ltn_trans nN; rewrite leq_addr.
Qed.
Print Assumptions C13_correlation_exact.

Lemma take_tile (T : Type) (s : seq T) k : (0 < k)%N ->
  take (size s) (flatten (nseq k s)) = s.
Proof. by case: k => // k _; rewrite /= take_size_cat. Qed.

(* with return_exvals=True both extra results are the values of op1: op2 does not enter *)
Theorem C13_exvals_exact (C : numClosedFieldType) (D q : nat -> nat) (A : tensors C D)
    (l r : forall n, 'M[C]_(D n)) (o1 o2 : op1s C) n1 d : (0 < d)%N ->
  let ex1 := [seq expect_1s q A l r o1 (n1 + j)%N | j <- iota 0 d.+1] in
  correlation_exvals q A l r o1 o2 n1 d = Some (ex1, ex1).
Proof.
move=> d0 ex1; have sz : size ex1 = d.+1 by rewrite size_map size_iota.
have t : take d.+1 (flatten (nseq (d.+1 %/ d).+1 ex1)) = ex1 by rewrite -sz take_tile.
by rewrite /correlation_exvals eqn0Ngt d0 -/ex1 t.
Qed.
Print Assumptions C13_exvals_exact.

Theorem C13_second_exvals_refuted :
  exists (A : tensors Cx one) (l r : forall n, 'M[Cx]_(one n)) (o1 o2 : op1s Cx) res,
    [/\ up_to_date one A 2 l r, correlation_exvals one A l r o1 o2 0 1 = Some res &
     nth 0 res.2 0 != expect_1s one A l r o2 0].
Proof.
pose A : tensors Cx one := scal (fun _ _ => 1).
pose l := calc_l one A (fun=> 1%:M) 0 2; pose r := calc_r one A (fun=> 1%:M) 0 2.
have h : up_to_date one A 2 l r by apply: calc_lr_up_to_date.
have e := C13_exvals_exact one A l r (fun _ _ => 1) (fun _ _ => 0) 0 (isT : (0 < 1)%N).
pose x1 := [seq expect_1s one A l r (fun=> (fun=> 1)) (0 + j)%N | j <- iota 0 2].
exists A, l, r, (fun _ _ => 1), (fun _ _ => 0), (x1, x1); split; [exact: h | exact: e |].
rewrite [nth _ _ _]/=.
rewrite !(C03_expect_1s_exact _ h) // !dotstE /= !big_cons !big_nil !addr0 /op1 !big_ord1 /= scale0r scale1r.
rewrite adot0r.
have p s t : psi A 2 [:: s; t] = 1%:M by rewrite /psi /= /A /scal /one pid_mx_1 !mulmx1.
by rewrite !p /adot !big_ord1 !mxE eqxx conjC1 mulr1 oner_eq0.
Qed.
Print Assumptions C13_second_exvals_refuted.

Theorem C13_zero_distance_raises_refuted (C : numClosedFieldType) (D q : nat -> nat) (A : tensors C D)
    (l r : forall n, 'M[C]_(D n)) (o1 o2 : op1s C) n1 :
  correlation_exvals q A l r o1 o2 n1 0 = None.
Proof. by []. Qed.

(* ---- C25 ---------------------------------------------------------------- *)
Theorem C25_right_map_variants (C : numClosedFieldType) q q' Da Dm Da' Db Dm' Db'
    (A1 : nat -> 'M[C]_(Da, Dm)) (A2 : nat -> 'M[C]_(Dm, Da'))
    (A3 : nat -> 'M[C]_(Db, Dm')) (A4 : nat -> 'M[C]_(Dm', Db')) (op : op2s C) (x : 'M[C]_(Da', Db')) :
  let AA12 := calc_AA A1 A2 in let AA34 := calc_AA A3 A4 in
  let C12 := calc_C_mat_op_AA q q' op AA12 in
  let C34 := calc_C_conj_mat_op_AA q q' op AA34 in
  let spec := \sum_(u < q) \sum_(v < q') \sum_(s < q) \sum_(t < q')
     op u v s t *: (A1 s *m A2 t *m x *m (A3 u *m A4 v)^†) in
  [/\ eps_r_op_2s_A q q' x A1 A2 A3 A4 op = spec,
      eps_r_op_2s_AA12 q q' x AA12 A3 A4 op = spec /\ eps_r_op_2s_AA_func_op q q' x AA12 AA34 op = spec,
      eps_r_op_2s_C12 q q' x C12 A3 A4 = spec /\ eps_r_op_2s_C12_AA34 q q' x C12 AA34 = spec,
      eps_r_op_2s_C34 q q' x A1 A2 C34 = spec
    & eps_r_op_2s_C12_AA34 q q' x AA12 C34 = spec].
Proof.
move=> *; split; rewrite ?eps_r_op_2s_AE ?eps_r_op_2s_AA12E ?eps_r_op_2s_AA_func_opE ?eps_r_op_2s_C12E //.
- by rewrite eps_r_op_2s_C12_AA34_op.
- by rewrite eps_r_op_2s_C34E.
- by rewrite eps_r_op_2s_AA12_C34E.
Qed.
Print Assumptions C25_right_map_variants.

Theorem C25_left_map_variants (C : numClosedFieldType) q q' Da Dm Da' Db Dm' Db'
    (A1 : nat -> 'M[C]_(Da, Dm)) (A2 : nat -> 'M[C]_(Dm, Da'))
    (A3 : nat -> 'M[C]_(Db, Dm')) (A4 : nat -> 'M[C]_(Dm', Db')) (op : op2s C) (x : 'M[C]_(Da, Db)) :
  let AA12 := calc_AA A1 A2 in
  let C34 := calc_C_mat_op_AA q q' op (calc_AA A3 A4) in
  let spec := \sum_(u < q) \sum_(v < q') \sum_(s < q) \sum_(t < q')
     op u v s t *: ((A1 u *m A2 v)^† *m x *m (A3 s *m A4 t)) in
  eps_l_op_2s_AA12_C34 q q' x AA12 C34 = spec /\ eps_l_op_2s_A1_A2_C34 q q' x A1 A2 C34 = spec.
Proof. by move=> *; rewrite eps_l_op_2s_AA12_C34_op eps_l_op_2s_A1_A2_C34_op. Qed.
Print Assumptions C25_left_map_variants.

Theorem C25_calc_C_variants (C : numClosedFieldType) q q' Da Dm Da'
    (A1 : nat -> 'M[C]_(Da, Dm)) (A2 : nat -> 'M[C]_(Dm, Da')) (op : op2s C) u v :
  (u < q)%N -> (v < q')%N ->
  let spec := \sum_(s < q) \sum_(t < q') op u v s t *: (A1 s *m A2 t) in
  [/\ calc_C_func_op q q' op A1 A2 u v = spec,
      calc_C_func_op_AA q q' op (calc_AA A1 A2) u v = spec,
      calc_C_mat_op_AA q q' op (calc_AA A1 A2) u v = spec
    & calc_C_mat_op_AA_tensordot q q' op (calc_AA A1 A2) u v = spec].
Proof. by move=> uq vq spec; rewrite calc_C_func_opE calc_C_func_op_AAE calc_C_mat_op_AAE. Qed.
Print Assumptions C25_calc_C_variants.

(* operators given as sums of tensor products sum_o o.1 (x) o.2 *)
Theorem C25_tensor_product_variants (C : numClosedFieldType) q q' Da Dm Da' Db Dm' Db'
    (A1 : nat -> 'M[C]_(Da, Dm)) (A2 : nat -> 'M[C]_(Dm, Da'))
    (A3 : nat -> 'M[C]_(Db, Dm')) (A4 : nat -> 'M[C]_(Dm', Db')) (tp : seq (op1s C * op1s C))
    (x : 'M[C]_(Da', Db')) (y : 'M[C]_(Da, Db)) :
  let op := fun s t u v => \sum_(o <- tp) o.1 s u * o.2 t v in
  [/\ forall s t, (t < q')%N ->
        calc_C_mat_op_tp q q' tp A1 A2 s t = \sum_(u < q) \sum_(v < q') op s t u v *: (A1 u *m A2 v),
      eps_r_op_2s_C12_tp q q' x (calc_C_tp q q' tp A1 A2) A3 A4 = eps_r_op_2s_A q q' x A1 A2 A3 A4 op
    & eps_l_op_2s_C34_tp q q' y A1 A2 (calc_C_tp q q' tp A3 A4) =
      eps_l_op_2s_A1_A2_C34 q q' y A1 A2 (calc_C_mat_op_AA q q' op (calc_AA A3 A4))].
Proof.
move=> op; split=> [s t tq||].
- by rewrite calc_C_mat_op_tpE // calc_C_mat_op_AAE.
- by rewrite eps_r_op_2s_C12_tpE eps_r_op_2s_AE.
- by rewrite eps_l_op_2s_C34_tpE eps_l_op_2s_A1_A2_C34_op.
Qed.
Print Assumptions C25_tensor_product_variants.

Theorem C25_noop_multi_exact (C : numClosedFieldType) (q : nat -> nat) (D1 D2 : nat -> nat)
    (T1 : forall j, seq nat -> 'M[C]_(D1 j, D1 j.+1)) (T2 : forall j, seq nat -> 'M[C]_(D2 j, D2 j.+1))
    (a1 a2 : nat -> nat) (n1 n2 K : nat) (x : 'M[C]_(D1 n1, D2 n2)) :
  (forall i, 0 < q i)%N -> nsites a1 n1 0 = K -> nsites a2 n2 0 = K ->
  eps_r_noop_multi (gdims q a1) (gdims q a2) (gflat q T1 a1) (gflat q T2 a2) x =
  \sum_(c <- cfgs q K 0) gprod T1 a1 n1 n1 0 c *m x *m (gprod T2 a2 n2 n2 0 c)^†.
Proof. exact: eps_r_noop_multiE. Qed.
Print Assumptions C25_noop_multi_exact.

(* ---- examples: the Bell state |00> + |11> -------------------------------- *)
Lemma entry0_op1 (C : numClosedFieldType) q m n k (o : op1s C) (phi : seq nat -> 'M[C]_(m, n)) c :
  entry0 (op1 q k o phi c) = op1 q k o (fun c => entry0 (phi c) : C^o) c.
Proof. by rewrite /op1 entry0_sum; apply: eq_bigr => t _; rewrite entry0Z. Qed.

Definition sz (s t : nat) : Cx := (s == t)%:R * (if s == 0%N then 1 else -1).

Lemma dotst_entry0 (C : numClosedFieldType) q N m n (phi phi' : seq nat -> 'M[C]_(m, n)) :
  m = 1%N -> n = 1%N ->
  dotst q N phi phi' = \sum_(c <- cfgs q N 0) (entry0 (phi c))^* * entry0 (phi' c).
Proof. by move=> m1 n1; rewrite dotstE; apply: eq_bigr => c _; rewrite entry0_adot. Qed.

Lemma op1_diag (C : numClosedFieldType) (V : lmodType C) q k (f : nat -> C) (phi : seq nat -> V) c :
  (k < size c)%N -> (nth 0%N c k < q k)%N ->
  op1 q k (fun s t => (s == t)%:R * f s) phi c = f (nth 0%N c k) *: phi c.
Proof.
move=> kc cq; rewrite /op1 (bigD1 (Ordinal cq)) //= eqxx mul1r set_nth_self // big1 ?addr0 // => t.
by rewrite eq_sym -val_eqE /= => /negbTE ->; rewrite mul0r scale0r.
Qed.

(* <sz sz> = 2 while <sz> = 0 on both sites: the connected correlator is 2 *)
Example C06_example (l r : forall n, 'M[Cx]_(bellD n)) : up_to_date two bell 2 l r ->
  expect_1s_1s_ret two bell l r sz sz 0 1 = 2%:R /\
  correlation_1s_1s two bell l r sz sz 0 1 = 2%:R.
Proof.
move=> h; have a := bell_amplitude; rewrite /amplitude in a.
have e11 : dotst two 2 (psi (bell : tensors Cx bellD) 2) (op1 two 0 sz (op1 two 1 sz (psi (bell : tensors Cx bellD) 2))) = 2%:R.
  rewrite dotst_entry0 //= !big_cons big_nil !op1_diag //= !entry0Z !a /=.
  rewrite !(mulr0, mul0r, mulr1, mul1r, addr0, add0r, conjC0, conjC1).
  by rewrite mulrNN mulr1 -[2%:R]/(1 + 1).
rewrite (C06_expect_1s_1s_exact _ _ h) // (C13_correlation_exact _ _ h) // !e11; split=> //.
rewrite [X in _ - X * _]dotst_entry0 //= !big_cons big_nil !op1_diag //= !entry0Z !a /=.
rewrite !(mulr0, mul0r, mulr1, mul1r, addr0, add0r, conjC0, conjC1).
by rewrite subrr mul0r subr0.
Qed.

Example C09_example (l r : forall n, 'M[Cx]_(bellD n)) : up_to_date two bell 2 l r ->
  exists2 rho, density_2s two bell l r 0 1 = Some rho & rho 0%N 3%N = Some 1 /\ rho 1%N 1%N = Some 0.
Proof.
move=> h; have [rho e hrho] := C09_density_2s_exact h (isT : (0 < 1 < 2)%N) (or_introl erefl).
exists rho => //; have := hrho 0%N 1%N 0%N 1%N isT isT isT isT.
have := hrho 0%N 0%N 1%N 1%N isT isT isT isT; rewrite /= => -> ->; rewrite /rdm2 /= !big_seq1.
have a := bell_amplitude; rewrite /amplitude in a.
by rewrite !entry0_adot // !a /= conjC1 conjC0 mulr1 mul0r.
Qed.
