(* P11_Heff.v -- property theorems about the effective Hamiltonians of the split-step integrator (C35). *)
From mathcomp Require Import all_ssreflect all_algebra zify.
From Verif Require Import Base Spec Eps Chain ChainProofs ChainProofs2 LinAlg Struct Tangent Tangent2 Tdvp
  TdvpProofs TdvpProofs2 TwoSite Heff Heff2 Witness P07_Tdvp.
Set Implicit Arguments.
Unset Strict Implicit.
Unset Printing Implicit Defensive.
Import Order.TTheory GRing.Theory Num.Theory.
Local Open Scope ring_scope.

Section C35.
Variables (C : numClosedFieldType) (D q : nat -> nat) (N : nat) (A : tensors C D).
Variables (h2 : nat -> op2s C) (h3 : nat -> op3s C).
Local Notation ham2 := (fun j => Some (h2 j)).
Local Notation ham3 := (fun j => Some (h3 j)).
Local Notation obonds := (forall n, option 'M[C]_(D n)).

(* KL up to bond a and KR from bond b on are what the calls of update_Heff_left / update_Heff_right produce *)
Definition envs2 (KL KR : obonds) a b := [/\ KL 0%N = None, forall j, (j < a)%N -> KL j.+1 = upd_left2 q A h2 (KL j),
  KR N = None & forall j, (b <= j < N)%N -> KR j = upd_right2 q N A h2 (KR j.+1)].
Definition envs3 (KL KR : obonds) a b := [/\ KL 0%N = None, forall j, (j < a)%N -> KL j.+1 = upd_left3 q A h3 (KL j),
  KR N = None & forall j, (b <= j < N)%N -> KR j = upd_right3 q N A h3 (KR j.+1)].
(* sites below a left-canonical, sites from b on right-canonical *)
Definition gauge a b := (forall j, (j < a)%N -> eps_l_noop (q j) 1%:M (A j) (A j) = 1%:M) /\
  (forall j, (b <= j < N)%N -> eps_r_noop (q j) 1%:M (A j) (A j) = 1%:M).

(* matrix elements of H between states that differ from psi in one tensor *)
Theorem C35_one_site_2s m KL KR tau (T X : nat -> 'M[C]_(D m, D m.+1)) : (m < N)%N -> gauge m m.+1 -> envs2 KL KR m m.+1 ->
  tdot q T (fun s => tau *: heff1_2 q N A h2 (KL m) (KR m.+1) X s) =
  tau * dotst q N (psi (rep A T) N) (Ham2 q N ham2 (psi (rep A X) N)).
Proof.
move=> mN g [k1 k2 k3 k4]; rewrite (proj1_2 mN g X k3 k4 k1 k2) /tdot mulr_sumr; apply: eq_bigr => s _.
by rewrite -scalemxAr mxtraceZ.
Qed.
Theorem C35_one_site_3s m KL KR tau (T X : nat -> 'M[C]_(D m, D m.+1)) : (m < N)%N -> gauge m m.+1 -> envs3 KL KR m m.+1 ->
  tdot q T (fun s => tau *: heff1_3 q N A h3 (KL m) (KR m.+1) X s) =
  tau * dotst q N (psi (rep A T) N) (Ham3 q N ham3 (psi (rep A X) N)).
Proof.
move=> mN g [k1 k2 k3 k4]; rewrite (proj1_3 mN g X k3 k4 k1 k2) /tdot mulr_sumr; apply: eq_bigr => s _.
by rewrite -scalemxAr mxtraceZ.
Qed.
(* ... in the bond matrix: G is multiplied into A[m+1] *)
Theorem C35_bond_2s m KL KR tau (F G : 'M[C]_(D m.+1)) : (m.+1 < N)%N -> gauge m.+1 m.+1 -> envs2 KL KR m.+1 m.+1 ->
  adot F (tau *: heffG_2 q A h2 (KL m.+1) (KR m.+1) G) =
  tau * dotst q N (psi (@rep C D A m.+1 (fun s => F *m A m.+1 s)) N) (Ham2 q N ham2 (psi (@rep C D A m.+1 (fun s => G *m A m.+1 s)) N)).
Proof.
move=> mN g [k1 k2 k3 k4]; have g' : central q N A m.+1 by split=> [|j /andP[h h']]; [exact: g.1 | apply: g.2; lia].
by rewrite adotZr -(projG_2 mN g' _ k3 k4 k1 k2) //; apply: g.2; lia.
Qed.
Theorem C35_bond_3s m KL KR tau (F G : 'M[C]_(D m.+1)) : (m.+1 < N)%N -> gauge m.+1 m.+1 -> envs3 KL KR m.+1 m.+1 ->
  adot F (tau *: heffG_3 q N A h3 (KL m.+1) (KR m.+1) G) =
  tau * dotst q N (psi (@rep C D A m.+1 (fun s => F *m A m.+1 s)) N) (Ham3 q N ham3 (psi (@rep C D A m.+1 (fun s => G *m A m.+1 s)) N)).
Proof.
move=> mN g [k1 k2 k3 k4]; have g' : central q N A m.+1 by split=> [|j /andP[h h']]; [exact: g.1 | apply: g.2; lia].
by rewrite adotZr -(projG_3 mN g' _ k3 k4 k1 k2) //; apply: g.2; lia.
Qed.
(* ... in a two-site tensor *)
Theorem C35_two_site_2s m KL KR tau (T X : nat -> nat -> 'M[C]_(D m, D m.+2)) : (m.+1 < N)%N -> (0 < D m.+1)%N ->
  gauge m m.+2 -> envs2 KL KR m m.+2 ->
  tdot2 q T (fun s t => tau *: heff2_2 q N A h2 (KL m) (KR m.+2) X s t) =
  tau * dotst q N (tw N A T) (Ham2 q N ham2 (tw N A X)).
Proof.
move=> mN Dp g [k1 k2 k3 k4]; rewrite (proj2_2 mN g k3 k4 k1 k2 Dp) /tdot2 mulr_sumr; apply: eq_bigr => s _.
by rewrite mulr_sumr; apply: eq_bigr => t _; rewrite -scalemxAr mxtraceZ.
Qed.

(* norms: the tensors are an orthonormal parametrisation of the states, so the operators above are the
   compressions of H, and eigenvalues / Rayleigh quotients of Heff are those of H on these states *)
Theorem C35_norm m (T X : nat -> 'M[C]_(D m, D m.+1)) : (m < N)%N -> gauge m m.+1 ->
  dotst q N (psi (rep A T) N) (psi (rep A X) N) = tdot q T X.
Proof.
move=> mN g; pose l (n : nat) : 'M[C]_(D n) := LW q A A n; pose r n := RW q N A A n.
have hl : up_l q A N 1%:M l by split; [exact: LW0 | move=> n _; exact: LWS].
have hr : up_r q A N 1%:M r by split; [exact: RWN | move=> n nN; exact: RWS].
have l1 j : (j <= m)%N -> l j = 1%:M.
  elim: j => [|j IH] jm; first exact: LW0.
  by rewrite /l LWS -/(l j) IH ?g.1 // ltnW.
have r1 j : (m < j <= N)%N -> r j = 1%:M.
  move: {2}(N - j)%N (leqnn (N - j)%N) => k; elim: k j => [|k IH] j kj /andP[mj jN].
    by have e : j = N by [lia]; subst j; rewrite /r RWN.
  case: (ltnP j N) => h; last by have e : j = N by [lia]; subst j; rewrite /r RWN.
  by rewrite /r RWS // -/(r j.+1) IH ?g.2 //; lia.
rewrite (rep_gram hl hr _ _ mN); apply: eq_bigr => s _; rewrite l1 // r1 ?mN ?ltnSn // mul1mx mulmx1.
exact: mxtrace_mulC.
Qed.

(* Hermiticity *)
Definition herm_op3 (o : op3s C) := forall s t z u v w, o s t z u v w = (o u v w s t z)^*.
Lemma Ham2_herm (u v : seq nat -> 'M[C]_(D 0%N, D N)) : (forall j, herm_op2 (h2 j)) ->
  dotst q N u (Ham2 q N ham2 v) = (dotst q N v (Ham2 q N ham2 u))^*.
Proof.
move=> h; have e (x y : seq nat -> 'M[C]_(D 0%N, D N)) : dotst q N x (Ham2 q N ham2 y) = dotst q N x (Hsum q N 2 (O2 ham2) y).
  by apply: eq_dotst => // c sz; apply: Ham2E.
by rewrite !e; apply: Hsum_herm => i c d; rewrite /O2 h.
Qed.
Lemma Ham3_herm (u v : seq nat -> 'M[C]_(D 0%N, D N)) : (forall j, herm_op3 (h3 j)) ->
  dotst q N u (Ham3 q N ham3 v) = (dotst q N v (Ham3 q N ham3 u))^*.
Proof.
move=> h; have e (x y : seq nat -> 'M[C]_(D 0%N, D N)) : dotst q N x (Ham3 q N ham3 y) = dotst q N x (Hsum q N 3 (O3 ham3) y).
  by apply: eq_dotst => // c sz; apply: Ham3E.
by rewrite !e; apply: Hsum_herm => i c d; rewrite /O3 h.
Qed.
Theorem C35_hermitian_2s m KL KR : (forall j, herm_op2 (h2 j)) -> (m < N)%N ->
  [/\ gauge m m.+1 -> envs2 KL KR m m.+1 -> forall T X : nat -> 'M[C]_(D m, D m.+1),
        tdot q T (heff1_2 q N A h2 (KL m) (KR m.+1) X) = (tdot q X (heff1_2 q N A h2 (KL m) (KR m.+1) T))^*,
      (m.+1 < N)%N -> gauge m.+1 m.+1 -> envs2 KL KR m.+1 m.+1 -> forall F G,
        adot F (heffG_2 q A h2 (KL m.+1) (KR m.+1) G) = (adot G (heffG_2 q A h2 (KL m.+1) (KR m.+1) F))^*
    & (m.+1 < N)%N -> (0 < D m.+1)%N -> gauge m m.+2 -> envs2 KL KR m m.+2 -> forall T X : nat -> nat -> 'M[C]_(D m, D m.+2),
        tdot2 q T (heff2_2 q N A h2 (KL m) (KR m.+2) X) = (tdot2 q X (heff2_2 q N A h2 (KL m) (KR m.+2) T))^*].
Proof.
move=> h mN; split=> [g [k1 k2 k3 k4] T X | m1 g [k1 k2 k3 k4] F G | m1 Dp g [k1 k2 k3 k4] T X].
- by rewrite -(proj1_2 mN g X k3 k4 k1 k2) -(proj1_2 mN g T k3 k4 k1 k2) Ham2_herm.
- have g' : central q N A m.+1 by split=> [|j /andP[j1 j2]]; [exact: g.1 | apply: g.2; lia].
  have rc : eps_r_noop (q m.+1) 1%:M (A m.+1) (A m.+1) = 1%:M by apply: g.2; lia.
  have e := projG_2 m1 g' rc k3 k4 k1 k2.
  by rewrite -(e F G) -(e G F) Ham2_herm.
- have e := proj2_2 m1 g k3 k4 k1 k2 Dp; by rewrite -(e T X) -(e X T) Ham2_herm.
Qed.
Theorem C35_hermitian_3s m KL KR : (forall j, herm_op3 (h3 j)) -> (m < N)%N ->
  (gauge m m.+1 -> envs3 KL KR m m.+1 -> forall T X : nat -> 'M[C]_(D m, D m.+1),
        tdot q T (heff1_3 q N A h3 (KL m) (KR m.+1) X) = (tdot q X (heff1_3 q N A h3 (KL m) (KR m.+1) T))^*) /\
  ((m.+1 < N)%N -> gauge m.+1 m.+1 -> envs3 KL KR m.+1 m.+1 -> forall F G,
        adot F (heffG_3 q N A h3 (KL m.+1) (KR m.+1) G) = (adot G (heffG_3 q N A h3 (KL m.+1) (KR m.+1) F))^*).
Proof.
move=> h mN; split=> [g [k1 k2 k3 k4] T X | m1 g [k1 k2 k3 k4] F G].
- by rewrite -(proj1_3 mN g X k3 k4 k1 k2) -(proj1_3 mN g T k3 k4 k1 k2) Ham3_herm.
- have g' : central q N A m.+1 by split=> [|j /andP[j1 j2]]; [exact: g.1 | apply: g.2; lia].
  have rc : eps_r_noop (q m.+1) 1%:M (A m.+1) (A m.+1) = 1%:M by apply: g.2; lia.
  have e := projG_3 m1 g' rc k3 k4 k1 k2.
  by rewrite -(e F G) -(e G F) Ham3_herm.
Qed.
End C35.
Print Assumptions C35_one_site_2s.
Print Assumptions C35_one_site_3s.
Print Assumptions C35_bond_2s.
Print Assumptions C35_bond_3s.
Print Assumptions C35_two_site_2s.
Print Assumptions C35_norm.
Print Assumptions C35_hermitian_2s.
Print Assumptions C35_hermitian_3s.

(* ---- the two-site operator is wrong for three-site Hamiltonians ---------------------------------- *)
(* |0..> with sigma_y on site 2 of 3, as a three-site term: the term n-1,n,n+1 is missing .T.conj(),
   so the operator applied is the complex conjugate *)
Section Refute.
Variable C : numClosedFieldType.
Definition sy (t v : nat) : C := if (t == 0%N) && (v == 1%N) then - 'i else if (t == 1%N) && (v == 0%N) then 'i else 0.
Definition hy (j : nat) : op3s C := fun s t z u v w => ((s == u) && (z == w))%:R * sy t v.
Definition Xy (s t : nat) : 'M[C]_1 := ((s == 0%N) && (t == 0%N))%:R%:M.
Definition Ty (s t : nat) : 'M[C]_1 := ((s == 1%N) && (t == 0%N))%:R%:M.
Local Notation A0 := (scal (bas C [:: 0%N; 0%N; 0%N])).
Lemma hy_herm j : herm_op3 (hy j).
Proof.
move=> s t z u v w; rewrite /hy rmorphM rmorph_nat eq_sym (eq_sym w); congr (_ * _).
rewrite /sy; case: (t) => [|[|t']]; case: (v) => [|[|v']] //=; rewrite ?conjC0 ?rmorphN ?conjCi ?opprK //.
Qed.
Theorem C35_two_site_3s_refuted :
  [/\ forall j, herm_op3 (hy j), gauge two 3 A0 1 3, @envs3 C one two 3 A0 hy (fun=> None) (fun=> None) 1 3,
      dotst two 3 (@tw C one 3 A0 1 Ty) (Ham3 two 3 (fun j => Some (hy j)) (@tw C one 3 A0 1 Xy)) = 'i
    & @tdot2 C one two 1 Ty (heff2_3 two 3 A0 hy None None Xy) = - 'i].
Proof.
have aE n s : (n < 3)%N -> A0 n s = (s == 0%N)%:R%:M by case: n => [|[|[|]]].
have twE (T : nat -> nat -> 'M[C]_1) s t z : @tw C one 3 A0 1 T [:: s; t; z] = (s == 0%N)%:R *: T t z.
  by rewrite /tw /= !pid_mx_1 mulmx1 aE // mulmx1 mul_scalar_mx.
split.
- exact: hy_herm.
- split=> [[|j] //= _|j]; last by lia.
  rewrite /eps_l_noop big_ord_recl big_ord1 /= !aE //= raddf0 !mul1mx mulmx0 addr0.
  by rewrite adj1 mulmx1.
- by split=> // [[|j] //| j]; lia.
- apply: (@dot_bas _ two 3 [:: 0%N; 1%N; 0%N]) => //.
    move=> c /cfgsP[sz _]; case: c sz => [|s [|t [|z []]]] // _; rewrite twE /Ty !eqseq_cons andbT.
    by rewrite scale_scalar_mx -natrM mulnb.
  rewrite /Ham3 big_ord1.
  apply: etrans (@op3_bas _ two _ _ 0 0 0 _ _ _ isT isT isT _) _.
    by move=> u v w; rewrite twE /Xy !eqseq_cons andbT scale_scalar_mx -natrM mulnb.
  by rewrite /hy /sy /= mul1r.
- have tz s t (M : 'M[C]_1) : ~~ ((s == 1%N) && (t == 0%N)) -> \tr ((Ty s t)^† *m M) = 0.
    by move=> h; rewrite /Ty (negPf h) raddf0 adj0 mul0mx mxtrace0.
  have eE (o : op1s C) : eps_l_op_1s (two 0) (1%:M : 'M[C]_1) (A0 0%N) (A0 0%N) o = (o 0%N 0%N)^*%:M.
    rewrite eps_l_op_1sE !big_ord_recl !big_ord0 /= !addr0 !aE //= raddf0 !mul1mx !mulmx0 adj0 mul0mx.
    by rewrite !scaler0 !addr0 adj1 mulmx1 scale_scalar_mx mulr1.
  rewrite /tdot2 !big_ord_recl !big_ord0 /= /heff2_3 /K2 /right2_3a /right2_3b /= !addr0 !add0r.
  rewrite (tz 0%N) // (tz 0%N) // (tz (bump 0 0) (bump 0 0)) // !addr0 !add0r /Ty /= adj1 mul1mx.
  rewrite !big_ord_recl !big_ord0 /= !addr0 !eE /Xy /= raddf0 !mulmx0 !addr0 mulmx1 mxtrace_scalar.
  by rewrite /hy /sy /= mul1r conjCi.
Qed.
End Refute.
Print Assumptions C35_two_site_3s_refuted.

(* ---- example: five sites |11x11>, H = sum of (n_j + n_(j+1)), the centre tensor replaced ---------- *)
Section Example.
Variable C : numClosedFieldType.
Local Notation A1 := (scal (bas C [:: 1%N; 1%N; 1%N; 1%N; 1%N])).
Definition hn (j : nat) : op2s C := fun s t u v => ((s == u) && (t == v))%:R * (s + t)%:R.
Definition Kn (n : nat) : option 'M[C]_1 := if (n == 2%N) || (n == 3%N) then Some 2%:R%:M else None.
Lemma hn_herm j : herm_op2 (hn j).
Proof.
move=> s t u v; rewrite /hn rmorphM !rmorph_nat (eq_sym u) (eq_sym v).
by case: eqP => [->|_]; case: eqP => [->|_]; rewrite ?mul0r.
Qed.
Example C35_example :
  [/\ gauge two 5 A1 2 3, @envs2 C one two 5 A1 hn Kn Kn 2 3
    & forall s0 : nat, (s0 < 2)%N ->
      let X := fun s => (delta C s0 s)%:M : 'M[C]_(one 2, one 3) in
      dotst two 5 (psi (rep A1 X) 5) (Ham2 two 5 (fun j => Some (hn j)) (psi (rep A1 X) 5)) = (6 + 2 * s0)%:R].
Proof.
have aE n s : (n < 5)%N -> A1 n s = (s == 1%N)%:R%:M by case: n => [|[|[|[|[|]]]]].
have z1 n : (n < 5)%N -> A1 n 0%N = 0 by move=> h; rewrite aE // raddf0.
have o1 n : (n < 5)%N -> A1 n 1%N = 1%:M by move=> h; rewrite aE.
have gl n : (n < 5)%N -> eps_l_noop (two n) (1%:M : 'M[C]_1) (A1 n) (A1 n) = 1%:M.
  by move=> h; rewrite /eps_l_noop !big_ord_recl big_ord0 /= z1 // o1 // !mulmx0 add0r addr0 adj1 !mul1mx.
have gr n : (n < 5)%N -> eps_r_noop (two n) (1%:M : 'M[C]_1) (A1 n) (A1 n) = 1%:M.
  by move=> h; rewrite /eps_r_noop !big_ord_recl big_ord0 /= z1 // o1 // !mul0mx add0r addr0 adj1 !mulmx1.
have cE (P Q : nat -> 'M[C]_1) s t : (s < 2)%N -> (t < 2)%N ->
    calc_C_mat_op_AA 2 2 (hn 0) (calc_AA P Q) s t = (s + t)%:R *: (P s *m Q t).
  move=> hs ht; rewrite calc_C_mat_op_AAE // !big_ord_recl !big_ord0 /= /hn /calc_AA.
  by case: s hs => [|[|]] // _; case: t ht => [|[|]] // _; rewrite /= ?mul0r ?mul1r ?scale0r ?addr0 ?add0r.
have hg : gauge two 5 A1 2 3.
  by split=> [j jj|j /andP[_ jj]]; [apply: gl; lia | apply: gr].
have he : @envs2 C one two 5 A1 hn Kn Kn 2 3.
  split=> // [[|[|j]] //= _|j].
    rewrite /Kn /=; congr Some; rewrite eps_l_noop0 add0r eps_l_op_2s_AA12_C34E !big_ord_recl !big_ord0 /=.
    rewrite !addr0 !cE // /calc_AA !z1 // !o1 // !mul0mx !mulmx0 !adj0 !mul0mx !add0r mulmx1 adj1 !mul1mx.
    by rewrite -scalemx1.
  case/andP; case: j => [|[|[|[|[|j]]]]] //= _ _.
  rewrite /Kn /upd_right2 /=; congr Some; rewrite eps_r_noop0 add0r eps_r_op_2s_C12_AA34E !big_ord_recl !big_ord0 /=.
  rewrite !addr0 !cE // /calc_AA !z1 // !o1 // !mul0mx !mulmx0 !scaler0 !mul0mx !add0r !mulmx1 adj1 ?mulmx1.
  by rewrite -scalemx1.
split=> // s0 hs0 X.
have := C35_one_site_2s 1 X X (isT : (2 < 5)%N) hg he; rewrite mul1r => <-.
transitivity (\sum_(s < 2) \tr ((X s)^† *m ((6 + 2 * s)%:R *: X s))).
  apply: eq_bigr => s _; rewrite scale1r /heff1_2 /left1_2 /right1_2 /K1 /= /eps_l_noop /eps_r_noop.
  rewrite !big_ord_recl !big_ord0 /= !(cE, addr0) // !z1 // !o1 // !adj0 !mul0mx !mulmx0 !add0r adj1 !mul1mx !mulmx1.
  rewrite -scalemx1 -scalemxAl -scalemxAr mul1mx mulmx1 -!scalerDl -!natrD.
  by congr (\tr (_ *m (_%:R *: _))); move: (nat_of_ord s) => k; rewrite /bump leq0n addn0; lia.
rewrite !big_ord_recl big_ord0 /= addr0 -!scalemxAr !mxtraceZ /X /delta.
case: s0 hs0 X => [|[|]] //= _ _; rewrite raddf0 ?mulmx0 ?mxtrace0 ?mulr0 ?addr0 ?add0r adj1 mulmx1 mxtrace1 mulr1 //.
Qed.
End Example.
Print Assumptions C35_example.
