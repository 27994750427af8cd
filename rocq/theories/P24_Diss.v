(* P24_Diss.v -- C64: the stochastic step of the dissipative class; C65: calc_B_1s_diss. *)
From mathcomp Require Import all_ssreflect all_algebra.
From mathcomp Require Import zify.
From Verif Require Import Base Spec Eps Chain ChainProofs LinAlg Struct Factor Tangent Tangent2 Tdvp TdvpProofs TdvpProofs2 TdvpProofs3
  P01_Expectation P07_Tdvp Witness Diss DissProofs.
Set Implicit Arguments.
Unset Strict Implicit.
Unset Printing Implicit Defensive.
Import Order.TTheory GRing.Theory Num.Theory.
Local Open Scope ring_scope.

Section C64.
Variables (C : numClosedFieldType) (D q : nat -> nat) (N : nat) (A : tensors C D).
Local Notation tens := (forall m, nat -> 'M[C]_(D m, D m.+1)).
Variables (l r : forall n, smat C (D n) (D n)).
Local Notation L n := (toarray (l n)).
Local Notation R n := (toarray (r n)).
Variables (eigh : eigh_routine C) (qrf : qrf_routine C) (tol : C).
Variable st : (forall n, 'M[C]_(D n)) * (nat -> C).
Hypothesis upd : up_to_date q A N (fun n => L n) (fun n => R n).
Hypotheses (eighP : eigh_contract eigh) (qrfP : qrf_contract qrf) (tol0 : 0 <= tol).
Hypothesis D0 : D 0 = 1%N.
Hypotheses (fL : forall m, (m <= N)%N -> full tol (L m)) (fR : forall m, (m <= N)%N -> full tol (R m)).
Variables (dt : C) (u : nat -> C * C).
Local Notation "<< f , g >>" := (dotst q N f g) (at level 0, format "<< f ,  g >>").
Local Notation state := (psi A N).
Local Notation W k := (((u k).1 + 'i * (u k).2) / sqrtC 2%:R).

(* A' = A + dt B, where B is the gauge-fixed tangent vector closest to Phi; the state keeps its norm to first order *)
Definition trajectory_step (Phi : seq nat -> 'M[C]_(D 0, D N)) (A' : tens) := exists B : tens,
  [/\ forall m s, (m < N)%N -> A' m s = A m s + dt *: B m s,
      forall m, (m < N)%N -> \sum_(s < q m) B m s *m R m.+1 *m (A m s)^† = 0,
      forall T : tens, << tvec N A T, fun c => Phi c - (tvec N A B c + (<< state, Phi >> / << state, state >>) *: state c) >> = 0
    & << state, tvec N A B >> = 0].

Lemma euler_step Phi Phi' (B : forall m, option (nat -> 'M[C]_(D m, D m.+1))) eta : (forall c, Phi' c = Phi c) ->
  @tdvp_dir C D q N A (@rg C D q A r) Phi' (otens B) eta -> trajectory_step Phi (euler N A (- dt) B).
Proof.
have [hl hr] := upd => eP; case=> h1 h2 _ _; exists (otens B); split=> //.
- by move=> m s mN; rewrite /euler mN /otens; case: (B m) => [b|]; rewrite ?opprK ?scaler0 ?addr0.
- have eD : << state, Phi' >> = << state, Phi >> by apply: eq_dotst => [c _|c _]; [reflexivity|exact: eP].
  move=> T; apply: etrans (h2 T); apply: eq_dotst => c _; [reflexivity|by rewrite eP eD].
rewrite /tvec dotst_sumr big1 // => m _; rewrite dotst_conj; apply/eqP; rewrite conjC_eq0; apply/eqP.
by apply: (rep_orth_psi_r hr) => //; apply/(rgauge_adj hr _ (ltn_ord m)); exact: h1.
Qed.

Section Two.
Variables (ham : nat -> option (op2s C)) (linds : seq (nat * op2s C)).
Local Notation site k := (nth (0%N, fun _ _ _ _ => 0) linds k).1.
Local Notation lind k := (nth (0%N, fun _ _ _ _ => 0) linds k).2.
Definition dag2 (o : op2s C) : op2s C := fun s t u v => (o u v s t)^*.
(* -i H psi + sum_k ( - 1/2 L^+ L + conj<L> L + (W/dt) L ) psi: dt times this is the Euler-Maruyama increment *)
Definition increment2 (c : seq nat) : 'M[C]_(D 0, D N) :=
  - 'i *: Ham2 q N ham state c + \sum_(k < size linds)
    (- 2%:R^-1 *: op2 q (site k) (dag2 (lind k)) (op2 q (site k) (lind k) state) c
     + (<< state, op2 q (site k) (lind k) state >>^* + W k / dt) *: op2 q (site k) (lind k) state c).
Lemma HL2_sum c : all (fun p : nat * op2s C => p.1.+1 < N)%N linds ->
  Ham2 q N (HL2 q A l r dt ham linds u) state c = increment2 c.
Proof.
move=> hL; rewrite /Ham2 /HL2.
have hL' : all (fun p : nat * op2s C => p.1 < N.-1)%N linds by apply: sub_all hL => p /=; lia.
rewrite (@add_terms_sum _ _ (@add2 C) (fun j h => op2 q j h state c)).
- rewrite (@leffs_sum C _ _ (fun j h => op2 q j h state c) _ _ _ _ _ (0%N, fun _ _ _ _ => 0)) /increment2; congr (_ + _).
    rewrite /Ham2 scaler_sumr; apply: eq_bigr => j _; case: (ham j) => [h|] /=; last by rewrite scaler0.
    have := op2_lin q j (- 'i) 0 h h state c; rewrite scale0r addr0 => <-; rewrite /op2.
    by apply: eq_bigr => x _; apply: eq_bigr => y _; rewrite /mi2 mul0r addr0.
  apply: eq_bigr => k _; rewrite add0n (C04_expect_2s_exact _ upd); last first.
    by have /all_nthP h := hL; apply: (h (0%N, fun _ _ _ _ => 0)).
  by rewrite op2_mul -op2_lin.
- by move=> n x y; have := op2_lin q n 1 1 x y state c; rewrite !scale1r => <-; rewrite /op2; apply: eq_bigr => v _; apply: eq_bigr => w _; rewrite !mul1r.
- by rewrite (@leffs_all C _ _ _ _ _ _ (fun n => n < N.-1)%N).
Qed.
Theorem C64_step_2s : all (fun p : nat * op2s C => p.1.+1 < N)%N linds ->
  exists2 A', diss_step2 q N A l r eigh qrf tol st dt ham linds u = Some A' & trajectory_step increment2 A'.
Proof.
move=> hL; rewrite /diss_step2 hL.
have [B [eta [-> h]]] := C30_projection_r2 st upd eighP qrfP tol0 D0 fL fR (HL2 q A l r dt ham linds u).
by exists (euler N A (- dt) B) => //; apply: euler_step h => c; apply: HL2_sum.
Qed.
End Two.

Section Three.
Variables (ham : nat -> option (op3s C)) (linds : seq (nat * op3s C)).
Local Notation site k := (nth (0%N, fun _ _ _ _ _ _ => 0) linds k).1.
Local Notation lind k := (nth (0%N, fun _ _ _ _ _ _ => 0) linds k).2.
Definition dag3 (o : op3s C) : op3s C := fun s t z u v w => (o u v w s t z)^*.
Definition increment3 (c : seq nat) : 'M[C]_(D 0, D N) :=
  - 'i *: Ham3 q N ham state c + \sum_(k < size linds)
    (- 2%:R^-1 *: op3 q (site k) (dag3 (lind k)) (op3 q (site k) (lind k) state) c
     + (<< state, op3 q (site k) (lind k) state >>^* + W k / dt) *: op3 q (site k) (lind k) state c).
Lemma HL3_sum c : all (fun p : nat * op3s C => p.1.+2 < N)%N linds ->
  Ham3 q N (HL3 q A l r dt ham linds u) state c = increment3 c.
Proof.
move=> hL; rewrite /Ham3 /HL3.
have hL' : all (fun p : nat * op3s C => p.1 < N.-2)%N linds by apply: sub_all hL => p /=; lia.
rewrite (@add_terms_sum _ _ (@add3 C) (fun j h => op3 q j h state c)).
- rewrite (@leffs_sum C _ _ (fun j h => op3 q j h state c) _ _ _ _ _ (0%N, fun _ _ _ _ _ _ => 0)) /increment3; congr (_ + _).
    rewrite /Ham3 scaler_sumr; apply: eq_bigr => j _; case: (ham j) => [h|] /=; last by rewrite scaler0.
    have := op3_lin q j (- 'i) 0 h h state c; rewrite scale0r addr0 => <-; rewrite /op3.
    by apply: eq_bigr => x _; apply: eq_bigr => y _; apply: eq_bigr => z _; rewrite /mi3 mul0r addr0.
  apply: eq_bigr => k _; rewrite add0n (C05_expect_3s_exact _ upd); last first.
    by have /all_nthP h := hL; apply: (h (0%N, fun _ _ _ _ _ _ => 0)).
  by rewrite op3_mul -op3_lin.
- move=> n x y; have := op3_lin q n 1 1 x y state c; rewrite !scale1r => <-; rewrite /op3.
  by apply: eq_bigr => v _; apply: eq_bigr => w _; apply: eq_bigr => z _; rewrite !mul1r.
- by rewrite (@leffs_all C _ _ _ _ _ _ (fun n => n < N.-2)%N).
Qed.
(* every site that can start a three-site term needs a Hamiltonian term or a Lindblad operator (see C30) *)
Theorem C64_step_3s : all (fun p : nat * op3s C => p.1.+2 < N)%N linds ->
  (forall j, (j.+2 < N)%N -> ham j \/ has (fun p : nat * op3s C => p.1 == j) linds) ->
  exists2 A', diss_step3 q N A l r eigh qrf tol st dt ham linds u = Some A' & trajectory_step increment3 A'.
Proof.
move=> hL hh; rewrite /diss_step3 hL.
have hH j : (j.+2 < N)%N -> HL3 q A l r dt ham linds u j.
  move=> jN; apply: HL_present; case: (hh j jN) => h; first by left; rewrite /=; case: (ham j) h.
  by right; rewrite (@leffs_has _ _ _ _ _ _ _ (fun n => n == j)).
have [B [eta [-> h]]] := C30_projection_r3 st upd eighP qrfP tol0 D0 fL fR hH.
by exists (euler N A (- dt) B) => //; apply: euler_step h => c; apply: HL3_sum.
Qed.
End Three.

(* an operator that does not fit on the chain *)
Theorem C64_misplaced (ham2 : nat -> option (op2s C)) ham3 linds2 linds3 :
  (has (fun p : nat * op2s C => N <= p.1.+1)%N linds2 -> diss_step2 q N A l r eigh qrf tol st dt ham2 linds2 u = None) /\
  (has (fun p : nat * op3s C => N <= p.1.+2)%N linds3 -> diss_step3 q N A l r eigh qrf tol st dt ham3 linds3 u = None).
Proof.
by split=> h; rewrite /diss_step2 /diss_step3 ifF //; apply/negbTE; rewrite -has_predC; apply: sub_has h => p /=; rewrite -leqNgt.
Qed.
End C64.

Section C65.
Variables (C : numClosedFieldType) (D q : nat -> nat) (N : nat) (A : tensors C D).
Variables (l r : forall n, smat C (D n) (D n)).
Local Notation "<< f , g >>" := (dotst q N f g) (at level 0, format "<< f ,  g >>").
Local Notation state := (psi A N).
Local Notation B op n := (calc_B_1s_diss q A l r op n).
Hypothesis upd : up_to_date q A N (fun n => toarray (l n)) (fun n => toarray (r n)).

Lemma psi_op1 (op : op1s C) n c : size c = N -> (n < N)%N ->
  psi (@rep C D A n (fun s => \sum_(t < q n) op s t *: A n t)) N c = op1 q n op state c.
Proof.
move=> sz nN; rewrite -sz in nN; have [c1 [s [c2 [-> s1]]]] := split_at nN.
rewrite psi_rep_cat // /op1 mulmx_sumr mulmx_suml; apply: eq_bigr => t _.
rewrite nth_cat1 // set_nth_cat1 // -scalemxAr -scalemxAl /psi (@amp_cat _ _ _ _ _ n) ?s1 // amp_cons.
by rewrite mulmxA.
Qed.
(* the state with the tensor of site n replaced by the result: op - <op^+ op> applied to the state *)
Theorem C65_result (op : op1s C) n c : (n < N)%N -> size c = N -> psi (@rep C D A n (B op n)) N c =
  op1 q n op state c - << op1 q n op state, op1 q n op state >> *: state c.
Proof.
move=> nN sz; have [hl hr] := upd.
have -> : << op1 q n op state, op1 q n op state >> = adot (toarray (l n)) (eps_r_noop (q n) (toarray (r n.+1))
    (fun s => \sum_(t < q n) op s t *: A n t) (fun s => \sum_(t < q n) op s t *: A n t)).
  rewrite -(eq_dotst q (fun c h => psi_op1 op h nN) (fun c h => psi_op1 op h nN)) (rep_gram hl hr) //.
  rewrite adotE (hermL hl (ltnW nN)) /eps_r_noop mulmx_sumr tr_sum.
  by apply: eq_bigr => s _; rewrite !mulmxA.
set e := adot _ _; rewrite -(psi_op1 op sz nN) -(psi_rep_A N A n c).
have := @psi_rep_linear C D N A n (- e) (A n) (fun s => \sum_(t < q n) op s t *: A n t) c.
rewrite sz scaleNr addrC => <- //; move: (nN); rewrite -[X in (_ < X)%N]sz => /split_at [c1 [s [c2 [-> s1]]]]; rewrite !psi_rep_cat //.
by congr (_ *m _ *m _); rewrite /calc_B_1s_diss scaleNr addrC.
Qed.
Theorem C65_overlap (op : op1s C) n : (n < N)%N ->
  << state, psi (@rep C D A n (B op n)) N >> = << state, op1 q n op state >> - << op1 q n op state, op1 q n op state >> * << state, state >>.
Proof.
move=> nN; rewrite -dotst_scaler -dotst_subr; apply: eq_dotst => // c sz.
exact: C65_result.
Qed.
(* it is orthogonal to a normalised state when <op^+ op> = <op>, e.g. for projectors ... *)
Theorem C65_projector (op : op1s C) n : (n < N)%N -> << state, state >> = 1 ->
  << op1 q n op state, op1 q n op state >> = << state, op1 q n op state >> -> << state, psi (@rep C D A n (B op n)) N >> = 0.
Proof. by move=> nN n1 e; rewrite C65_overlap // n1 mulr1 e subrr. Qed.
(* ... but not in general: twice the identity leaves every normalised state in place, yet the result overlaps with it *)
Theorem C65_orthogonal_refuted n : (n < N)%N -> << state, state >> = 1 ->
  << state, psi (@rep C D A n (B (fun s t => ((s == t) * 2)%N%:R) n)) N >> = - 2%:R.
Proof.
move=> nN n1; set op : op1s C := fun s t => _; rewrite C65_overlap //.
have e c : c \in cfgs q N 0 -> op1 q n op state c = 2%:R *: state c.
  move=> hc; have /cfgsP[sz hv] := hc; rewrite /op1.
  have hn : (nth 0%N c n < q n)%N by apply: (hv n nN).
  rewrite (bigD1 (Ordinal hn)) //= big1 ?addr0; last first.
    move=> t ht; rewrite /op; have -> : (nth 0%N c n == t) = false by apply: contraNF ht => /eqP h; apply/eqP/val_inj.
    by rewrite mul0n scale0r.
  rewrite /op eqxx mul1n; congr (_ *: psi A N _).
  by apply: (@eq_from_nth _ 0%N); rewrite ?size_set_nth ?(maxn_idPr _) ?sz // => i iN; rewrite nth_set_nth /=; case: eqP => // ->.
have e1 : << state, op1 q n op state >> = 2%:R.
  transitivity (2%:R * << state, state >>); last by rewrite n1 mulr1.
  by rewrite -dotst_scaler !dotstE; apply: eq_big_seq => c hc; rewrite e.
have e2 : << op1 q n op state, op1 q n op state >> = 4%:R.
  have -> : << op1 q n op state, op1 q n op state >> = << fun c => 2%:R *: state c, fun c => 2%:R *: state c >>.
    by rewrite !dotstE; apply: eq_big_seq => c hc; rewrite e.
  by rewrite dotst_scaler dotst_scalel n1 mulr1 conjC_nat -natrM.
by rewrite e1 e2 n1 mulr1 -[4%N]/(2 + 2)%N natrD opprD addrA subrr add0r.
Qed.
End C65.
Print Assumptions C64_step_2s.
Print Assumptions C64_step_3s.
Print Assumptions C64_misplaced.
Print Assumptions C65_result.
Print Assumptions C65_overlap.
Print Assumptions C65_projector.
Print Assumptions C65_orthogonal_refuted.

Section Instance.
Variable C : numClosedFieldType.
Notation s00 := (scal (bas C [:: 0%N; 0%N])).
Notation xx := (fun s t u v => ((s + u == 1) && (t == v))%N%:R : C).
(* |00>, no Hamiltonian, the Lindblad operator X (x) 1: the increment is -1/2 |00> + (W/dt) |10>, so the step moves the
   first spin by W and leaves the norm alone *)
Example C64_example eigh qrf (st : (forall n, 'M[C]_(one n)) * (nat -> C)) dt (u : nat -> C * C) :
  eigh_contract eigh -> qrf_contract qrf ->
  exists A', [/\ diss_step2 two 2 s00 (@eyes C) (@eyes C) eigh qrf 0 st dt (fun _ => None) [:: (0%N, xx)] u = Some A',
    @trajectory_step C one two 2 s00 (@eyes C) dt (@increment2 C one two 2 s00 dt u (fun _ => None) [:: (0%N, xx)]) A' &
    @increment2 C one two 2 s00 dt u (fun _ => None) [:: (0%N, xx)] [:: 1%N; 0%N] = ((u 0%N).1 + 'i * (u 0%N).2) / sqrtC 2%:R / dt *: 1%:M].
Proof.
move=> h1 h2; have fl m : (m <= 2)%N -> full 0 (toarray (eyes C m)) by move=> _; apply: scal_full; exact: ltr01.
have U : up_to_date two s00 2 (fun n => toarray (eyes C n)) (fun n => toarray (eyes C n)).
  by apply: (@bas_upd C _ [:: 0%N; 0%N]) => -[|[|]].
have [A' e1 e2] := @C64_step_2s C one two 2 s00 _ _ eigh qrf 0 st U h1 h2 (lexx 0) erefl fl fl dt u (fun _ => None) [:: (0%N, xx)] isT.
exists A'; split=> //.
rewrite /increment2 big_ord1 /= /Ham2 big_ord1 scaler0 add0r.
have hp x y : psi s00 2 [:: x; y] = ([:: x; y] == [:: 0%N; 0%N])%:R%:M by rewrite -psi_bas.
have o2 s t : op2 two 0 xx (psi s00 2) [:: s; t] = (xx s t 0%N 0%N)%:M by apply: op2_bas.
have -> : dotst two 2 (psi s00 2) (op2 two 0 xx (psi s00 2)) = 0.
  by apply: (@dot_bas C two 2 [:: 0%N; 0%N]) => // [c hc|]; [have [s [t ->]] := cfgs2 hc; exact: hp|rewrite o2].
rewrite op2_mul (@op2_bas C two _ (psi s00 2) 0 0 _ _ isT isT hp) o2 /= conjC0 add0r !big_ord_recl !big_ord0 /dag2 /=.
by rewrite !(mulr0, mul0r, mul1r, mulr1, addr0, add0r, conjC0, raddf0, scaler0).
Qed.
End Instance.
