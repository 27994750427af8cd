(* UTdvp.v -- evoMPS/tdvp_uniform.py, class EvoMPS_TDVP_Uniform: the arrays C, K, K_left, the energy density h_expect
   and the tangent vector parameters x and B of the uniform chain, for two-site, three-site and tensor-product
   Hamiltonian terms.  Numbering as in Uniform.v: index k is taken modulo the cell length L, prv L k is (k-1) % L;
   self.l, self.r may hold structured matrices.  The linear solver behind calc_PPinv (pinv_1mE) is a parameter; the
   operator it works with is the subject of C42. *)
From mathcomp Require Import all_ssreflect all_algebra.
From mathcomp Require Import zify.
From Verif Require Import Base Spec Eps Eps2 Chain ChainProofs LinAlg Struct Factor Tangent BTangent Tdvp TdvpProofs
  TdvpProofs2 TdvpProofs3 Uniform.
Set Implicit Arguments.
Unset Strict Implicit.
Unset Printing Implicit Defensive.
Import Order.TTheory GRing.Theory Num.Theory.
Local Open Scope ring_scope.

Section Model.
Variables (C : numClosedFieldType) (L q D : nat) (A : nat -> nat -> 'M[C]_D) (l r : nat -> smat C D D).
Local Notation Ld k := (toarray (l k)).
Local Notation Rd k := (toarray (r k)).
Notation prv := (prv L).
Definition nxt k := (k.+1 %% L)%N.

(* calc_C (tdvp_uniform.py:206-240) after self.calc_AA() *)
Definition uC2 (h : op2s C) k := calc_C_mat_op_AA q q h (ucalc_AA L A k).
Definition uC3 (h : op3s C) k := calc_C_3s_mat_op_AAA q q q h (calc_AAA_AA (ucalc_AA L A k) (A (k.+2 %% L))).
Definition uCtp (tp : seq (op1s C * op1s C)) k := calc_C_tp q q tp (A k) (A (nxt k)).
(* Hr of tm.calc_K, tm.calc_K_3s, tm.calc_K_tp and of the loops of calc_K (307-330) *)
Definition uHr2 (Cs : nat -> nat -> nat -> 'M[C]_D) k := eps_r_op_2s_C12_AA34 q q (Rd (nxt k)) (Cs k) (ucalc_AA L A k).
Definition uHr3 (Cs : nat -> nat -> nat -> nat -> 'M[C]_D) k :=
  eps_r_op_3s_C123_AAA456 q q q (Rd (k.+2 %% L)%N) (Cs k) (calc_AAA_AA (ucalc_AA L A k) (A (k.+2 %% L))).
Definition uHrtp (Cs : nat -> seq ((nat -> 'M[C]_D) * (nat -> 'M[C]_D))) k :=
  eps_r_op_2s_C12_tp q q (Rd (nxt k)) (Cs k) (A k) (A (nxt k)).
(* Hl of tm.calc_K_l etc. and of the loops of calc_K_l (389-412), the term starting at site k *)
Definition uHl2 (Cs : nat -> nat -> nat -> 'M[C]_D) k := eps_l_op_2s_AA12_C34 q q (Ld (prv k)) (ucalc_AA L A k) (Cs k).
Definition uHl3 (Cs : nat -> nat -> nat -> nat -> 'M[C]_D) k :=
  eps_l_op_3s_AAA123_C456 q q q (Ld (prv k)) (calc_AAA_AA (ucalc_AA L A k) (A (k.+2 %% L))) (Cs k).
Definition uHltp (Cs : nat -> seq ((nat -> 'M[C]_D) * (nat -> 'M[C]_D))) k :=
  eps_l_op_2s_C34_tp q q (Ld (prv k)) (A k) (A (nxt k)) (Cs k).

(* calc_K (294-359); Hr as above *)
Section CalcK.
Variable Hr : nat -> 'M[C]_D.
(* for j in range(k - 1, -1, -1): Hrk = tm.eps_r_noop(Hrk, self.A[j], self.A[j]) *)
Definition toleft k (x : 'M[C]_D) := foldl (fun y j => eps_r_noop q y (A j) (A j)) x (rev (iota 0 k)).
Definition Hr_tot := foldl (fun acc k => acc + toleft k (Hr k)) (Hr 0%N) (iota 1 L.-1).
Definition h_tot := adot (Ld L.-1) Hr_tot.
Definition QHr := Hr_tot - h_tot *: Rd L.-1.
Definition uh_expect := h_tot / L%:R.
(* the loop k = L-1, ..., 1; K0 is the result of calc_PPinv *)
Definition uK_step (K : nat -> 'M[C]_D) k :=
  setv K k (eps_r_noop q (K (nxt k)) (A k) (A k) + Hr k - adot (Ld (prv k)) (Hr k) *: Rd (prv k)).
Definition ucalc_K (K : nat -> 'M[C]_D) (K0 : 'M[C]_D) := foldl uK_step (setv K 0%N K0) (rev (iota 1 L.-1)).
(* what the solver is asked for: (1 - (E - |r)(l|)) K0 = QHr *)
Definition solves_r K0 := K0 - (cellR L q A A K0 - adot (Ld L.-1) K0 *: Rd L.-1) = QHr.
End CalcK.

(* calc_K_l (369-454); w = ham_sites, Hl as above; j in range((k + w) % L, L) *)
Section CalcKl.
Variables (w : nat) (Hl : nat -> 'M[C]_D).
Definition toright k (x : 'M[C]_D) := foldl (fun y j => eps_l_noop q y (A j) (A j)) x (iota k (L - k)).
(* sp.arange(-(w-1), L - w) % L, preceded by the term starting at (L - w) % L; here negative numbers are
   represented modulo L by adding w L *)
Definition lH_tot := foldl (fun acc k => acc + toright ((k + w) %% L) (Hl k)) (Hl ((w * L + L - w) %% L)%N)
  [seq ((w * L + L.+1 - w + i) %% L)%N | i <- iota 0 L.-1].
Definition hl_tot := adot_noconj lH_tot (Rd L.-1).
Definition lHQ := lH_tot - hl_tot *: Ld L.-1.
Definition uhl_expect := hl_tot / L%:R.
(* the loop k = 0, ..., L-2: the term ending at site k starts at (k + 1 - w) % L; the argument Km1 is
   self.K[(k - 1) % L], not self.K_left[(k - 1) % L] *)
Definition uKl_step (K KL : nat -> 'M[C]_D) k :=
  let h := Hl ((w * L + k.+1 - w) %% L)%N in
  setv KL k (eps_l_noop q (K (prv k)) (A k) (A k) + h - adot_noconj h (Rd k) *: Ld k).
Definition ucalc_K_l (K KL : nat -> 'M[C]_D) (KL0 : 'M[C]_D) := foldl (uKl_step K) (setv KL L.-1 KL0) (iota 0 L.-1).
Definition solves_l KL0 := KL0 - (cellL L q A A KL0 - adot (Rd L.-1) KL0 *: Ld L.-1) = lHQ.
End CalcKl.

(* ---- calc_B (491-552) ------------------------------------------------------------------------------- *)
Variables (eigh : eigh_routine C) (qrf : qrf_routine C) (tol : C).
(* calc_l_r_roots (481-489) *)
Definition ul_s k : 'M[C]_D := toarray (herm_sqrt_inv eigh tol (l k)).1.1.
Definition ul_si k : 'M[C]_D := toarray (herm_sqrt_inv eigh tol (l k)).1.2.
Definition ur_s k : smat C D D := (herm_sqrt_inv eigh tol (r k)).1.1.
Definition ur_si k : 'M[C]_D := toarray (herm_sqrt_inv eigh tol (r k)).1.2.
Definition uVsh k : nat -> 'M[C]_(D, D * q - D) := vsh_at qrf q (A k) (ur_s k).
(* get_B_from_x (456-479) *)
Definition uB k (x : 'M[C]_(D, D * q - D)) : nat -> 'M[C]_D := fun s => ul_si (prv k) *m x *m (ur_si k *m uVsh k s)^†.
Variable K : nat -> 'M[C]_D.
(* tm.calc_x (tdvp_common.py:386-420) with the arguments of 519-524 *)
Definition ux2 (Cs : nat -> nat -> nat -> 'M[C]_D) k : 'M[C]_(D, D * q - D) :=
  ul_s (prv k) *m (\sum_(s < q) (eps_r_noop q (Rd (nxt k)) (Cs k s) (A (nxt k)) + A k s *m K (nxt k)) *m (ur_si k *m uVsh k s))
  + ul_si (prv k) *m (\sum_(s < q) eps_l_noop q (Ld (prv (prv k))) (A (prv k)) (fun t => Cs (prv k) t s) *m
                        (toarray (ur_s k) *m uVsh k s)).
(* tm.calc_x_tp (tdvp_common.py:356-382) with the arguments of 513-518 *)
Definition uxtp (Cs : nat -> seq ((nat -> 'M[C]_D) * (nat -> 'M[C]_D))) k : 'M[C]_(D, D * q - D) :=
  let V s := (uVsh k s)^† in
  let Vri s := V s *m ur_si k in
  ul_s (prv k) *m eps_r_op_2s_C12_tp q q (Rd (nxt k)) (Cs k) Vri (A (nxt k))
  + \sum_(c <- Cs (prv k)) ul_si (prv k) *m (eps_l_noop q (Ld (prv (prv k))) (A (prv k)) c.1 *m
                                             eps_r_noop q (toarray (ur_s k)) c.2 V)
  + ul_s (prv k) *m eps_r_noop q (K (nxt k)) (A k) Vri.
(* tm.calc_x_3s (tdvp_common.py:422-467) with the arguments of 526-533 *)
Definition ux3 (Cs : nat -> nat -> nat -> nat -> 'M[C]_D) k : 'M[C]_(D, D * q - D) :=
  ul_s (prv k) *m (\sum_(s < q) (eps_r_op_2s_C12_AA34 q q (Rd (k.+2 %% L)%N) (Cs k s) (ucalc_AA L A (nxt k)) + A k s *m K (nxt k))
                     *m (ur_si k *m uVsh k s))
  + ul_si (prv k) *m (\sum_(t < q) (\sum_(s < q) (Ld (prv (prv k)) *m A (prv k) s)^† *m
                        eps_r_noop q (Rd (nxt k)) (Cs (prv k) s t) (A (nxt k))) *m (ur_si k *m uVsh k t))
  + ul_si (prv k) *m (\sum_(u < q) eps_l_op_2s_AA12_C34 q q (Ld (prv (prv (prv k)))) (ucalc_AA L A (prv (prv k)))
                        (fun s t => Cs (prv (prv k)) s t u) *m (toarray (ur_s k) *m uVsh k u)).
(* None: calc_Vsh returns None when q D - D <= 0 and calc_x fails on it *)
Definition ucalc_B (x : nat -> 'M[C]_(D, D * q - D)) : option ((nat -> nat -> 'M[C]_D) * C) :=
  if (D * q <= D)%N then None else Some (fun k => uB k (x k), sqrtC (\sum_(k < L) adot (x k) (x k))).
End Model.

(* ---- tensor-product terms ----------------------------------------------------------------------------- *)
Section Tp.
Variables (C : numClosedFieldType) (q0 q1 q2 D0 D1 D2 D3 k : nat).
Variables (Am1 : nat -> 'M[C]_(D0, D1)) (A : nat -> 'M[C]_(D1, D2)) (Ap1 : nat -> 'M[C]_(D2, D3)) (V : nat -> 'M[C]_(D2, k)).
Variables (rsi : 'M[C]_D2).
Hypothesis hs : herm rsi.
Lemma xtp_K (K : 'M[C]_D2) : eps_r_noop q1 K A (fun s => (V s)^† *m rsi) = \sum_(s < q1) (A s *m K) *m (rsi *m V s).
Proof. by apply: eq_bigr => s _; rewrite adjM adjK (_ : rsi^† = rsi) //; exact: hs. Qed.
Lemma xtp_C tp (rp1 : 'M[C]_D3) : eps_r_op_2s_C12_tp q1 q2 rp1 (calc_C_tp q1 q2 tp A Ap1) (fun s => (V s)^† *m rsi) Ap1 =
  \sum_(s < q1) eps_r_noop q2 rp1 (calc_C_mat_op_AA q1 q2 (op_of_tp tp) (calc_AA A Ap1) s) Ap1 *m (rsi *m V s).
Proof.
rewrite eps_r_op_2s_C12_tpE -eps_r_op_2s_C12_AA34_op eps_r_op_2s_C12_AA34E; apply: eq_bigr => s _.
rewrite /eps_r_noop mulmx_suml; apply: eq_bigr => t _.
by rewrite /calc_AA !adjM adjK (_ : rsi^† = rsi) ?mulmxA //; exact: hs.
Qed.
Lemma xtp_Cm1 tp (lm2 : 'M[C]_D0) (lsi : 'M[C]_D1) (rs : 'M[C]_D2) :
  \sum_(c <- calc_C_tp q0 q1 tp Am1 A) lsi *m (eps_l_noop q0 lm2 Am1 c.1 *m eps_r_noop q1 rs c.2 (fun s => (V s)^†)) =
  lsi *m \sum_(s < q1) eps_l_noop q0 lm2 Am1 (fun t => calc_C_mat_op_AA q0 q1 (op_of_tp tp) (calc_AA Am1 A) t s) *m (rs *m V s).
Proof.
rewrite -mulmx_sumr; congr (_ *m _); rewrite /calc_C_tp big_map.
transitivity (\sum_(o <- tp) \sum_(s < q1) \sum_(t < q0)
  ((Am1 t)^† *m lm2 *m calc_AA (op_dot_A q0 o.1 Am1) (op_dot_A q1 o.2 A) t s) *m (rs *m V s)).
  apply: eq_bigr => o _; rewrite /eps_r_noop mulmx_sumr; apply: eq_bigr => s _.
  rewrite /eps_l_noop mulmx_suml; apply: eq_bigr => t _; by rewrite /calc_AA /= adjK !mulmxA.
rewrite exchange_big; apply: eq_bigr => s _; rewrite exchange_big /eps_l_noop mulmx_suml; apply: eq_bigr => t _.
rewrite -calc_C_mat_op_tpE // /calc_C_mat_op_tp.
by rewrite 2!mulmx_sumr mulmx_suml; apply: eq_bigr => o _; rewrite !mulmxA.
Qed.
End Tp.

(* ---- K ------------------------------------------------------------------------------------------------ *)
Section KProofs.
Variables (C : numClosedFieldType) (L q D : nat) (A : nat -> nat -> 'M[C]_D) (l r : nat -> smat C D D).
Local Notation Ld k := (toarray (l k)).
Local Notation Rd k := (toarray (r k)).
Hypotheses (L0 : (0 < L)%N) (hc : consistent L q A (fun k => Ld k) (fun k => Rd k)).
Hypothesis nrm : adot (Ld L.-1) (Rd L.-1) = 1.
Local Notation prv := (prv L). Local Notation nxt := (nxt L).
Local Notation toleft := (toleft q A).

Lemma toleftS n x : toleft n.+1 x = toleft n (eps_r_noop q x (A n) (A n)).
Proof. by rewrite /UTdvp.toleft -[n.+1]addn1 iotaD rev_cat. Qed.
Lemma toleftD n x y : toleft n (x + y) = toleft n x + toleft n y.
Proof. by elim: n x y => // n IH x y; rewrite !toleftS eps_r_noopD IH. Qed.
Lemma toleftZ n a x : toleft n (a *: x) = a *: toleft n x.
Proof. by elim: n x => // n IH x; rewrite !toleftS eps_r_noopZ IH. Qed.
Lemma toleftB n x y : toleft n (x - y) = toleft n x - toleft n y.
Proof. by rewrite -scaleN1r toleftD toleftZ scaleN1r. Qed.
Lemma toleft_r n : (n < L)%N -> toleft n (Rd (prv n)) = Rd L.-1.
Proof.
elim: n => [|n IH] nL; first by rewrite prv0.
rewrite toleftS prvS //; have nL' := ltnW nL; have [_ <-] := hc nL'; exact: IH.
Qed.
Lemma toleft_adot n x : (n < L)%N -> adot (Ld L.-1) (toleft n x) = adot (Ld (prv n)) x.
Proof.
elim: n x => [|n IH] x nL; first by rewrite prv0.
have nL' := ltnW nL; rewrite toleftS IH // prvS // -eps_adjoint; by have [<- _] := hc nL'.
Qed.
Lemma toleft_cell x : toleft L x = cellR L q A A x. Proof. by []. Qed.
Lemma norm_all k : (k < L)%N -> adot (Ld (prv k)) (Rd (prv k)) = 1.
Proof. by move=> kL; rewrite -toleft_adot // toleft_r. Qed.

Variable Hr : nat -> 'M[C]_D.
Local Notation e k := (adot (Ld (prv k)) (Hr k)).
Local Notation Hr_tot := (Hr_tot L q A Hr).
Lemma Hr_totE : Hr_tot = \sum_(k < L) toleft k (Hr k).
Proof.
rewrite /UTdvp.Hr_tot; have gen n : foldl (fun acc k => acc + toleft k (Hr k)) (Hr 0%N) (iota 1 n) = \sum_(k < n.+1) toleft k (Hr k).
  elim: n => [|n IH]; first by rewrite big_ord1.
  have e : iota 1 n.+1 = iota 1 n ++ [:: n.+1] by rewrite -[X in iota 1 X]addn1 iotaD add1n.
  by rewrite e foldl_cat IH [RHS]big_ord_recr.
by rewrite gen prednK.
Qed.
Lemma h_totE : h_tot L q A l Hr = \sum_(k < L) e k.
Proof. by rewrite /h_tot Hr_totE adot_sumr; apply: eq_bigr => k _; rewrite toleft_adot. Qed.

Variables (Ki : nat -> 'M[C]_D) (K0 : 'M[C]_D).
Hypothesis sol : solves_r L q A l r Hr K0.
Local Notation K := (ucalc_K L q A l r Hr Ki K0).

Lemma K_at0 : K 0%N = K0.
Proof.
rewrite /ucalc_K; have gen ks (F : nat -> 'M[C]_D) : all (fun k => 0 < k)%N ks -> foldl (uK_step L q A l r Hr) F ks 0%N = F 0%N.
  by elim: ks F => //= k ks IH F /andP[k0 /IH ->]; rewrite /uK_step /setv ifN //; lia.
by rewrite gen /setv // all_rev; apply/allP => k; rewrite mem_iota; lia.
Qed.
Lemma K_loop k0 : (0 < k0 < L)%N -> K k0 = eps_r_noop q (K (nxt k0)) (A k0) (A k0) + Hr k0 - e k0 *: Rd (prv k0).
Proof.
have gen n (F : nat -> 'M[C]_D) : (n < L)%N -> let G := foldl (uK_step L q A l r Hr) F (rev (iota (L - n) n)) in
    (forall k, (k < L - n)%N -> G k = F k) /\
    (forall k, (L - n <= k < L)%N -> (0 < k)%N -> G k = eps_r_noop q (G (nxt k)) (A k) (A k) + Hr k - e k *: Rd (prv k)).
  elim: n F => [|n IH] F hn /=; first by split=> // k; lia.
  have [|h1 h2] := IH F; first by lia.
  rewrite rev_cons -cats1 foldl_cat (_ : (L - n.+1).+1 = (L - n)%N); last by lia.
  rewrite /=; set G := foldl _ F _ in h1 h2 *; split=> k hk.
    by rewrite /uK_step /setv ifN; [apply: h1; lia | lia].
  move=> kp; rewrite {2}/uK_step /setv.
  have -> : (nxt k == (L - n.+1)%N) = false.
    rewrite /UTdvp.nxt; case: (ltnP k.+1 L) => h; first by rewrite modn_small //; lia.
    rewrite (_ : k.+1 = L) ?modnn; lia.
  rewrite /uK_step /setv; case: (altP (k =P (L - n.+1)%N)) => [->//|ne].
  by apply: h2 => //; lia.
move=> hk; have [|_ h] := gen L.-1 (setv Ki 0%N K0); first by lia.
rewrite /ucalc_K (_ : rev (iota 1 L.-1) = rev (iota (L - L.-1) L.-1)); last by rewrite (_ : L - L.-1 = 1)%N //; lia.
by apply: h; lia.
Qed.
Lemma adot_K0 : adot (Ld L.-1) K0 = 0.
Proof.
have := congr1 (adot (Ld L.-1)) sol; rewrite /QHr !adotBr !adotZr nrm !mulr1 -/(h_tot L q A l Hr) subrr.
have -> : adot (Ld L.-1) (cellR L q A A K0) = adot (Ld L.-1) K0.
  rewrite -toleft_cell -{2 3}(prednK L0) toleftS toleft_adot; last by lia.
  rewrite -eps_adjoint; by have [|<- _] := hc (k := L.-1); first by lia.
by rewrite opprB addrC subrK.
Qed.
Lemma acaux (a b c x y : 'M[C]_D) : a + (b + c) - (x + y) = a + c - y + b - x.
Proof. by rewrite opprD !addrA [a + b + c]addrAC [a + c - y + b]addrAC [RHS]addrAC. Qed.
Lemma K_rec_all k : (k < L)%N -> K k = eps_r_noop q (K (nxt k)) (A k) (A k) + Hr k - e k *: Rd (prv k).
Proof.
case: k => [|k] kL; last by apply: K_loop.
have inv n : (0 < n <= L)%N ->
    toleft n (K (n %% L)%N) + \sum_(k < n) toleft k (Hr k) - (\sum_(k < n) e k) *: Rd L.-1 =
    eps_r_noop q (K (nxt 0%N)) (A 0%N) (A 0%N) + Hr 0%N - e 0%N *: Rd (prv 0%N).
  elim: n => // n IH hn; case: (posnP n) => [->|n0]; first by rewrite !big_ord1 toleftS !prv0.
  have nL : (n < L)%N by lia.
  have hn' : (0 < n <= L)%N by lia.
  rewrite -(IH hn') [(n %% L)%N]modn_small // (K_loop (k0 := n)); last by lia.
  rewrite toleftB toleftD toleftZ toleft_r // -toleftS !big_ord_recr /= scalerDl /UTdvp.nxt.
  exact: acaux.
rewrite K_at0 -(inv L) ?leqnn ?L0 // modnn K_at0 -Hr_totE -h_totE toleft_cell.
move/eqP: sol; rewrite adot_K0 scale0r subr0 subr_eq => /eqP {1}->.
by rewrite /QHr addrC addrA.
Qed.
Lemma adot_K k : (k < L)%N -> adot (Ld (prv k)) (K k) = 0.
Proof.
have gen n : (n < L)%N -> adot (Ld (prv (L.-1 - n)%N)) (K (L.-1 - n)%N) = 0.
  elim: n => [|n IH] nL.
    rewrite subn0 K_rec_all; last by lia.
    rewrite adotBr adotDr adotZr norm_all; last by lia.
    rewrite mulr1 addrK -eps_adjoint; have [|<- _] := hc (k := L.-1); first by lia.
    by rewrite (_ : nxt L.-1 = 0%N) ?K_at0 ?adot_K0 // /UTdvp.nxt prednK // modnn.
  rewrite K_rec_all; last by lia.
  rewrite adotBr adotDr adotZr norm_all; last by lia.
  rewrite mulr1 addrK -eps_adjoint; have [|<- _] := hc (k := (L.-1 - n.+1)%N); first by lia.
  have e1 : nxt (L.-1 - n.+1) = (L.-1 - n)%N by rewrite /UTdvp.nxt modn_small; lia.
  rewrite e1 -[RHS]IH; last by lia.
  congr (adot (Ld _) _); rewrite -[in RHS]e1 /UTdvp.nxt prv_next // modn_small //; lia.
move=> kL; have := gen (L.-1 - k)%N; rewrite subKn; last by lia.
by apply; lia.
Qed.
End KProofs.

(* ---- windows of the infinite chain -------------------------------------------------------------------- *)
Section Windows.
Variables (C : numClosedFieldType) (L q D : nat) (A : nat -> nat -> 'M[C]_D) (l r : nat -> smat C D D).
Local Notation Ld k := (toarray (l k)).
Local Notation Rd k := (toarray (r k)).
Hypotheses (L0 : (0 < L)%N) (hc : consistent L q A (fun k => Ld k) (fun k => Rd k)).
Local Notation prv := (prv L). Local Notation nxt := (nxt L).
Variable k0 : nat.
Local Notation qq := (fun _ : nat => q).
Local Notation wA := (wA L A k0).
Local Notation wl := (wl L (fun k => Ld k) k0).
Local Notation wr := (wr L (fun k => Rd k) k0).
Local Notation at_ n := ((k0 + n) %% L)%N.
Definition wsl (n : nat) : smat C D D := l (prv (at_ n)).
Definition wsr (n : nat) : smat C D D := r (prv (at_ n)).
Lemma nxt_at n : nxt (at_ n) = at_ n.+1. Proof. exact: modS1. Qed.
Lemma nxt2_at n : ((at_ n).+2 %% L)%N = at_ n.+2. Proof. exact: modS2. Qed.
Lemma prv_at n : prv (at_ n.+1) = at_ n. Proof. by rewrite addnS prv_next. Qed.
Lemma wAA n : ucalc_AA L A (at_ n) = calc_AAs wA n.
Proof. by rewrite /ucalc_AA /calc_AAs modS1. Qed.
Lemma uHr2w (h : op2s C) j : uHr2 L q A r (uC2 L q A h) (at_ j) =
  @winmat C (fun _ => D) qq wA wA j 2 j.+2 (O2 (fun _ => Some h) j) (wr j.+2).
Proof.
have := @Hr2E C (fun _ => D) qq j.+2 wA wsr (fun _ => Some h) j (leqnn _).
rewrite /Hr2 /calc_C2 leqnn /= => <-.
by rewrite /uHr2 /uC2 wAA nxt_at /wsr prv_at.
Qed.
Lemma uHr3w (h : op3s C) j : uHr3 L q A r (uC3 L q A h) (at_ j) =
  @winmat C (fun _ => D) qq wA wA j 3 j.+3 (O3 (fun _ => Some h) j) (wr j.+3).
Proof.
have := @Hr3E C (fun _ => D) qq j.+3 wA wsr (fun _ => Some h) j (leqnn _).
rewrite /Hr3 /calc_C3 leqnn /= => <-.
by rewrite /uHr3 /uC3 wAA nxt2_at /wsr prv_at.
Qed.
Lemma uHrtpE tp k : uHrtp L q A r (uCtp L q A tp) k = uHr2 L q A r (uC2 L q A (op_of_tp tp)) k.
Proof. by rewrite /uHrtp /uCtp eps_r_op_2s_C12_tpE /uHr2 /uC2 eps_r_op_2s_C12_AA34_op. Qed.
Lemma wup_l' N : up_l qq wA N (wl 0%N) (fun n => toarray (wsl n)). Proof. exact: (wup_l k0 L0 hc). Qed.
Lemma wup_r' N : up_r qq wA N (wr N) (fun n => toarray (wsr n)). Proof. exact: (wup_r k0 L0 hc). Qed.
(* <psi| h |psi> for the term starting at site n of the window *)
Lemma e2w h N n : (n.+1 < N)%N -> adot (Ld (prv (at_ n))) (uHr2 L q A r (uC2 L q A h) (at_ n)) =
  bdotst qq N (wl 0%N) (wr N) (psi wA N) (op2 qq n h (psi wA N)).
Proof.
move=> nN; rewrite -(expect_2sE (wup_l k0 L0 hc N) (wup_r k0 L0 hc N)) //.
by rewrite /uHr2 /uC2 wAA nxt_at /expect_2s /Uniform.wr prv_at.
Qed.
Lemma calc_AAA_AAE D0 D1 D2 D3 (A1 : nat -> 'M[C]_(D0, D1)) (A2 : nat -> 'M[C]_(D1, D2)) (A3 : nat -> 'M[C]_(D2, D3)) :
  calc_AAA_AA (calc_AA A1 A2) A3 = calc_AAA A1 A2 A3.
Proof. by []. Qed.
Lemma e3w h N n : (n.+2 < N)%N -> adot (Ld (prv (at_ n))) (uHr3 L q A r (uC3 L q A h) (at_ n)) =
  bdotst qq N (wl 0%N) (wr N) (psi wA N) (op3 qq n h (psi wA N)).
Proof.
move=> nN; rewrite -(expect_3sE (wup_l k0 L0 hc N) (wup_r k0 L0 hc N)) //.
by rewrite /uHr3 /uC3 wAA nxt2_at /expect_3s /Uniform.wr prv_at.
Qed.

Section K.
Variables (K : nat -> 'M[C]_D) (Hr : nat -> 'M[C]_D) (w : nat) (O : nat -> seq nat -> seq nat -> C) (ev : nat -> C).
Hypothesis HrO : forall j, Hr (at_ j) = @winmat C (fun _ => D) qq wA wA j w (j + w) (O j) (wr (j + w)%N).
Hypothesis Krec : forall k, (k < L)%N -> K k = eps_r_noop q (K (nxt k)) (A k) (A k) + Hr k - ev k *: Rd (prv k).
Definition wK n := K (at_ n).
Lemma wKsub N a : @Ksub C (fun _ => D) qq wA wr wK w O (fun j => ev (at_ j)) N a.
Proof.
move=> j p _ <- _; rewrite /wK Krec ?ltn_pmod //.
by rewrite HrO nxt_at.
Qed.
Lemma wK_formula N (X : 'M[C]_D) : (w <= N)%N -> (0 < w)%N ->
  adot X (K (at_ 0)) = bdotst qq N X (wr N) (psi wA N) (Hsum qq N w O (psi wA N))
    - (\sum_(j < N.+1 - w) ev (at_ j)) * bdotst qq N X (wr N) (psi wA N) (psi wA N)
    + bdotst qq (N.+1 - w) X (wK (N.+1 - w)) (psi wA (N.+1 - w)) (psi wA (N.+1 - w)).
Proof.
move=> wN w0; have bN : (N.+1 - w + w <= N.+1)%N by lia.
have hLam j : (0 <= j < N.+1 - w)%N -> LWb qq X^† wA wA j.+1 = eps_l_noop q (LWb qq X^† wA wA j) (wA j) (wA j).
  by move=> _; rewrite LWbS.
rewrite adotE -(LWb0 qq X^† wA wA) (Ksub_sum (@wKsub N 0) (leq0n _) bN hLam); congr (_ + _); last by rewrite bdotst_LWb.
rewrite sumrB; congr (_ - _).
  rewrite bdotst_Hsum.
  rewrite (@big_cat_nat _ _ _ (N.+1 - w) 0 N) ?leq_subr //; last by lia.
  rewrite [X in _ = _ + X]big_nat_cond [X in _ = _ + X]big1 ?addr0; last by move=> j; lia.
  rewrite [RHS]big_nat_cond [LHS]big_nat_cond; apply: eq_big => j; first by lia.
  move=> /andP[hj _]; have hp : (j + w <= N)%N by lia.
  by rewrite (@bdotst_win2 _ (fun _ => D) _ _ _ _ _ _ _ _ _ _ erefl hp) (@RWb_up _ (fun _ => D) _ _ _ _ _ _ (wup_r' N) hp).
rewrite -(big_mkord xpredT (fun j => ev (at_ j))) mulr_suml !big_nat; apply: eq_bigr => j hj.
have jN : (j <= N)%N by lia.
by rewrite (@bdotst_cut2 _ (fun _ => D) _ _ _ _ _ _ _ jN) (@RWb_up _ (fun _ => D) _ _ _ _ _ _ (wup_r' N) jN).
Qed.

(* gauge-fixed derivative vectors: K stands for the part of the chain beyond the window *)
Lemma bcomp N m (T : nat -> 'M[C]_D) : (0 < w)%N -> (w <= m.+1)%N -> (m + w <= N)%N -> herm (wl 0%N) ->
  @rgauge C (fun _ => D) qq wA wr m T ->
  bdotst qq N (wl 0%N) (wr N) (psi (@rep C (fun _ => D) wA m T) N) (Hsum qq N w O (psi wA N))
  + bdotst qq (N.+1 - w) (wl 0%N) (wK (N.+1 - w)) (psi (@rep C (fun _ => D) wA m T) (N.+1 - w)) (psi wA (N.+1 - w)) =
  \sum_(m.+1 - w <= j < m.+1) \tr (wl j *m @winmat C (fun _ => D) qq (@rep C (fun _ => D) wA m T) wA j w (j + w) (O j) (wr (j + w)%N))
  + \tr (eps_l_noop q (wl m) T (wA m) *m wK m.+1).
Proof.
move=> w0 wm mN hl0 g; have hl := wup_l' N; have hr := wup_r' N.
have mN' : (m < N)%N by lia.
pose Lam := LWb qq (wl 0%N) (@rep C (fun _ => D) wA m T) wA.
have hLam j : (m.+1 <= j < N.+1 - w)%N -> Lam j.+1 = eps_l_noop q (Lam j) (wA j) (wA j).
  by move=> hj; rewrite /Lam (@LWb_rep_step C (fun _ => D)) //; lia.
have bN : (N.+1 - w + w <= N.+1)%N by lia.
have mb : (m.+1 <= N.+1 - w)%N by lia.
have eK := Ksub_sum (@wKsub N m.+1) mb bN hLam.
rewrite bdotst_LWb (_ : (wl 0%N)^† = wl 0%N); last exact: hl0.
rewrite -(@LWb_rep_S C (fun _ => D) _ _ _ _ _ hl _ T (ltnW mN')) eK addrA; congr (_ + _).
rewrite bdotst_Hsum (@big_cat_nat _ _ _ (N.+1 - w) 0 N) ?leq_subr //; last by lia.
rewrite [X in _ + X = _]big_nat_cond [X in _ + X = _]big1 ?addr0; last by move=> j; lia.
rewrite (@big_cat_nat _ _ _ m.+1) //= (@big_cat_nat _ _ _ (m.+1 - w) 0 m.+1) //= ?leq_subr //.
rewrite [X in X + _ + _ = _]big_nat_cond [X in X + _ + _ = _]big1 ?add0r; last first.
  move=> j /andP[/andP[_ hj] _]; apply: (@bterm_left C (fun _ => D) _ _ _ _ _ _ hr _ _ _ _ _ _ g erefl) => //; lia.
congr (_ + _).
  rewrite big_nat_cond [RHS]big_nat_cond; apply: eq_big => j; first by lia.
  move=> /andP[/andP[h1 h2] h3]; apply: (@bterm_cover C (fun _ => D) _ _ _ _ _ _ _ hl hr hl0 _ _ _ _ _ _ erefl) => //; lia.
rewrite big_nat_cond [RHS]big_nat_cond; apply: eq_big => j; first by lia.
move=> /andP[/andP[h1 h2] h3]; rewrite (@bterm_right C (fun _ => D) _ _ _ _ _ _ hr hl0 _ _ _ _ _ _ h1 erefl) //.
have jN : (j <= N)%N by lia.
have /esym := @brep_orth_psi C (fun _ => D) _ _ (wl 0%N) _ _ _ hr _ _ g mN'.
rewrite (@bdotst_cut2 _ (fun _ => D) _ _ _ _ _ _ _ jN) (_ : (wl 0%N)^† = wl 0%N); last exact: hl0.
by rewrite (@RWb_rep_gt C (fun _ => D) _ _ _ _ _ hr) // => <-; rewrite mulr0 subr0.
Qed.

Lemma tr_eps_l_K m (T : nat -> 'M[C]_D) (X : 'M[C]_D) :
  \tr (eps_l_noop q (wl m) T (wA m) *m X) = @tdot C (fun _ => D) qq m T (fun s => wl m *m (wA m s *m X)).
Proof. by rewrite /eps_l_noop mulmx_suml tr_sum /tdot; apply: eq_bigr => s _; rewrite !mulmxA. Qed.

Section B.
Variables (eigh : eigh_routine C) (qrf : qrf_routine C) (tol : C).
Hypotheses (eighP : eigh_contract eigh) (qrfP : qrf_contract qrf) (tol0 : 0 <= tol).
Hypothesis (hl : forall k, (k < L)%N -> herm (Ld k)) (hr : forall k, (k < L)%N -> herm (Rd k)).
Local Notation uB k y := (uB L A l r eigh qrf tol k y).
Lemma prv_lt k : (prv k < L)%N. Proof. by rewrite /Uniform.prv ltn_mod. Qed.
Lemma at_lt n : (at_ n < L)%N. Proof. by rewrite ltn_mod. Qed.
Lemma hwl n : herm (toarray (wsl n)). Proof. exact/hl/prv_lt. Qed.
Lemma hwr n : herm (toarray (wsr n)). Proof. exact/hr/prv_lt. Qed.
Lemma uBw m (y : 'M[C]_(D, D * q - D)) : uB (at_ m) y = @Bpar_r C (fun _ => D) qq wA wsl wsr eigh qrf tol m y.
Proof. by rewrite /UTdvp.uB /Bpar_r /uVsh /Vrh /ur_s /ur_si /r_s /r_si /wsr prv_at. Qed.
Lemma uB_rgauge m (y : 'M[C]_(D, D * q - D)) : @rgauge C (fun _ => D) qq wA wr m (uB (at_ m) y).
Proof. by rewrite uBw; exact: (@Bpar_r_gauge C (fun _ => D) qq wA wsl wsr eigh qrf tol eighP qrfP tol0 m (hwl m) (hwr m.+1) y). Qed.
Lemma uB_tdot m (y : 'M[C]_(D, D * q - D)) f :
  [/\ @tdot C (fun _ => D) qq m (uB (at_ m) y) (fun s => wl m *m f s) =
        adot y (ul_s l eigh tol (prv (at_ m)) *m \sum_(s < q) f s *m (ur_si r eigh tol (at_ m) *m uVsh q A r eigh qrf tol (at_ m) s)),
      @tdot C (fun _ => D) qq m (uB (at_ m) y) (fun s => f s *m wr m.+1) =
        adot y (ul_si l eigh tol (prv (at_ m)) *m \sum_(s < q) f s *m (toarray (ur_s r eigh tol (at_ m)) *m uVsh q A r eigh qrf tol (at_ m) s))
    & @tdot C (fun _ => D) qq m (uB (at_ m) y) f =
        adot y (ul_si l eigh tol (prv (at_ m)) *m \sum_(s < q) f s *m (ur_si r eigh tol (at_ m) *m uVsh q A r eigh qrf tol (at_ m) s))].
Proof.
have [] := @tdot_Br C (fun _ => D) qq wA wsl wsr eigh qrf tol eighP tol0 m (hwl m) (hwr m.+1) y f.
rewrite uBw /Vrh /uVsh /ur_s /ur_si /r_s /r_si /wsr prv_at => h1 h2 h3.
by split; [exact: h1|rewrite /Uniform.wr prv_at; exact: h2|exact: h3].
Qed.
Lemma Ce2 (h : op2s C) j s t : (t < q)%N -> uC2 L q A h (at_ j) s t = @C2e C (fun _ => D) qq wA (fun _ => Some h) j s t.
Proof.
move=> tq; have := @calc_C2E C (fun _ => D) qq j.+2 wA (fun _ => Some h) j s t (ltnSn _) tq.
by rewrite /calc_C2 ltnSn /= => <-; rewrite /uC2 wAA.
Qed.
Lemma Ce3 (h : op3s C) j s t z : (t < q)%N -> (z < q)%N ->
  uC3 L q A h (at_ j) s t z = @C3e C (fun _ => D) qq wA (fun _ => Some h) j s t z.
Proof.
move=> tq zq; have := @calc_C3E C (fun _ => D) qq j.+3 wA (fun _ => Some h) j s t z (ltnSn _) tq zq.
by rewrite /calc_C3 ltnSn /= => <-; rewrite /uC3 wAA nxt2_at.
Qed.
End B.
End K.

(* the components of H |psi> along the gauge-fixed derivative vectors are the entries of x *)
Section Comp.
Variables (eigh : eigh_routine C) (qrf : qrf_routine C) (tol : C).
Hypotheses (eighP : eigh_contract eigh) (qrfP : qrf_contract qrf) (tol0 : 0 <= tol).
Hypothesis (hl : forall k, (k < L)%N -> herm (Ld k)) (hr : forall k, (k < L)%N -> herm (Rd k)).
Variables (K : nat -> 'M[C]_D) (ev : nat -> C).
Local Notation uB k y := (uB L A l r eigh qrf tol k y).
Lemma uxtpE tp k : (k < L)%N ->
  uxtp L q A l r eigh qrf tol K (uCtp L q A tp) k = ux2 L q A l r eigh qrf tol K (uC2 L q A (op_of_tp tp)) k.
Proof.
move=> kL; have [_ _ h _] := hsi_herm eighP tol0 (hr kL).
rewrite /uxtp /ux2 /uCtp xtp_C // xtp_K // xtp_Cm1 addrAC; congr (_ + _).
  by rewrite -mulmxDr -big_split; congr (_ *m _); apply: eq_bigr => s _; rewrite [RHS]mulmxDl.
Qed.
Lemma HrO2 (h : op2s C) j : uHr2 L q A r (uC2 L q A h) (at_ j) =
  @winmat C (fun _ => D) qq wA wA j 2 (j + 2) (O2 (fun _ => Some h) j) (wr (j + 2)%N).
Proof. by move: (j + 2)%N (addn2 j) => p ->; exact: uHr2w. Qed.
Lemma HrO3 (h : op3s C) j : uHr3 L q A r (uC3 L q A h) (at_ j) =
  @winmat C (fun _ => D) qq wA wA j 3 (j + 3) (O3 (fun _ => Some h) j) (wr (j + 3)%N).
Proof. by move: (j + 3)%N (addn3 j) => p ->; exact: uHr3w. Qed.
Lemma bdotst_Ham2 (h : op2s C) N lb rb (phi phi' : seq nat -> 'M[C]_D) :
  bdotst qq N lb rb phi (Ham2 qq N (fun _ => Some h) phi') =
  bdotst qq N lb rb phi (Hsum qq N 2 (O2 (fun _ => Some h)) phi').
Proof. by rewrite /bdotst; apply: eq_sum_cfgs => c sz; rewrite (@Ham2E C (fun _ => D)). Qed.
Lemma bdotst_Ham3 (h : op3s C) N lb rb (phi phi' : seq nat -> 'M[C]_D) :
  bdotst qq N lb rb phi (Ham3 qq N (fun _ => Some h) phi') =
  bdotst qq N lb rb phi (Hsum qq N 3 (O3 (fun _ => Some h)) phi').
Proof. by rewrite /bdotst; apply: eq_sum_cfgs => c sz; rewrite (@Ham3E C (fun _ => D)). Qed.
Lemma comp_u2 (h : op2s C) N m (y : 'M[C]_(D, D * q - D)) :
  (forall k, (k < L)%N -> K k = eps_r_noop q (K (nxt k)) (A k) (A k) + uHr2 L q A r (uC2 L q A h) k - ev k *: Rd (prv k)) ->
  (0 < m)%N -> (m.+2 <= N)%N ->
  bdotst qq N (wl 0%N) (wr N) (psi (@rep C (fun _ => D) wA m (uB (at_ m) y)) N) (Ham2 qq N (fun _ => Some h) (psi wA N))
  + bdotst qq N.-1 (wl 0%N) (wK K N.-1) (psi (@rep C (fun _ => D) wA m (uB (at_ m) y)) N.-1) (psi wA N.-1) =
  adot y (ux2 L q A l r eigh qrf tol K (uC2 L q A h) (at_ m)).
Proof.
move=> hK m0 mN; case: m m0 mN y => // m _ mN y.
have g := uB_rgauge eighP qrfP tol0 hl hr m.+1 y.
have P f := uB_tdot qrf eighP tol0 hl hr m.+1 y f.
have mN' : (m.+1 + 2 <= N)%N by lia.
have wm : (2 <= m.+2)%N by [].
have := bcomp (@HrO2 h) hK isT wm mN' (hwl hl 0) g.
rewrite bdotst_Ham2 !subSS subn1 => ->.
rewrite subn0 big_nat_recr //= big_nat1 tr_eps_l_K.
move: (m + 2)%N (addn2 m) (m.+1 + 2)%N (addn2 m.+1) => p -> p' ->.
have e1 := @cover2b C (fun _ => D) qq wA m (uB (at_ m.+1) y) (fun _ => Some h) (wl m) (wr m.+2).
have e2 := @cover2a C (fun _ => D) qq wA m.+1 (uB (at_ m.+1) y) (fun _ => Some h) (wl m.+1) (wr m.+3).
transitivity (adot y (ul_si l eigh tol (prv (at_ m.+1)) *m \sum_(s < q) @gl2 C (fun _ => D) qq wA wsl (fun _ => Some h) m.+1 s *m
    (toarray (ur_s r eigh tol (at_ m.+1)) *m uVsh q A r eigh qrf tol (at_ m.+1) s))
  + adot y (ul_s l eigh tol (prv (at_ m.+1)) *m \sum_(s < q) eps_r_noop q (wr m.+3) (@C2e C (fun _ => D) qq wA (fun _ => Some h) m.+1 s) (wA m.+2) *m
    (ur_si r eigh tol (at_ m.+1) *m uVsh q A r eigh qrf tol (at_ m.+1) s))
  + adot y (ul_s l eigh tol (prv (at_ m.+1)) *m \sum_(s < q) (wA m.+1 s *m wK K m.+2) *m
    (ur_si r eigh tol (at_ m.+1) *m uVsh q A r eigh qrf tol (at_ m.+1) s))).
  congr (_ + _ + _); first by rewrite e1; have [_ <- _] := P (@gl2 C (fun _ => D) qq wA wsl (fun _ => Some h) m.+1).
  - by rewrite e2; have [<- _ _] := P (fun s => eps_r_noop q (wr m.+3) (@C2e C (fun _ => D) qq wA (fun _ => Some h) m.+1 s) (wA m.+2)).
  - by have [<- _ _] := P (fun s => wA m.+1 s *m wK K m.+2).
rewrite -addrA addrC -!adotDr.
rewrite -mulmxDr -big_split /ux2.
congr (adot y _); apply: congr2; apply: (congr1 (mulmx _)).
  apply: eq_bigr => s _; rewrite /= -mulmxDl; congr ((_ + _) *m _).
    rewrite nxt_at [in RHS]/eps_r_noop [LHS]/eps_r_noop /Uniform.wr prv_at; apply: eq_bigr => t _.
    by rewrite -Ce2 // ltn_ord.
  by rewrite /wK nxt_at.
apply: eq_bigr => s _; congr (_ *m _); rewrite /gl2 prv_at /eps_l_noop; apply: eq_bigr => t _.
by rewrite -Ce2.
Qed.
Lemma comp_u3 (h : op3s C) N m (y : 'M[C]_(D, D * q - D)) :
  (forall k, (k < L)%N -> K k = eps_r_noop q (K (nxt k)) (A k) (A k) + uHr3 L q A r (uC3 L q A h) k - ev k *: Rd (prv k)) ->
  (1 < m)%N -> (m.+3 <= N)%N ->
  bdotst qq N (wl 0%N) (wr N) (psi (@rep C (fun _ => D) wA m (uB (at_ m) y)) N) (Ham3 qq N (fun _ => Some h) (psi wA N))
  + bdotst qq N.-2 (wl 0%N) (wK K N.-2) (psi (@rep C (fun _ => D) wA m (uB (at_ m) y)) N.-2) (psi wA N.-2) =
  adot y (ux3 L q A l r eigh qrf tol K (uC3 L q A h) (at_ m)).
Proof.
move=> hK m0 mN; case: m m0 mN y => // -[//|m] _ mN y.
have g := uB_rgauge eighP qrfP tol0 hl hr m.+2 y.
have P f := uB_tdot qrf eighP tol0 hl hr m.+2 y f.
have mN' : (m.+2 + 3 <= N)%N by lia.
have wm : (3 <= m.+3)%N by [].
have := bcomp (@HrO3 h) hK isT wm mN' (hwl hl 0) g.
rewrite bdotst_Ham3 !subSS subn2 => ->.
rewrite subn0 big_nat_recr ?leqW // big_nat_recr // big_nat1 /= tr_eps_l_K.
move: (m + 3)%N (addn3 m) (m.+1 + 3)%N (addn3 m.+1) (m.+2 + 3)%N (addn3 m.+2) => p -> p' -> p'' ->.
set ham := (fun _ : nat => Some h).
have e1 := @cover3c C (fun _ => D) qq wA m (uB (at_ m.+2) y) ham (wl m) (wr m.+3).
have e2 := @cover3b C (fun _ => D) qq wA m.+1 (uB (at_ m.+2) y) ham (wl m.+1) (wr m.+4).
have e3 := @cover3a C (fun _ => D) qq wA m.+2 (uB (at_ m.+2) y) ham (wl m.+2) (wr m.+4.+1).
pose f1 := @gl3 C (fun _ => D) qq wA wsl ham m.+2.
pose f2 := (fun t => \sum_(s < q) (wA m.+1 s)^† *m wl m.+1 *m eps_r_noop q (wr m.+4) (@C3e C (fun _ => D) qq wA ham m.+1 s t) (wA m.+3)).
pose f3 := (fun s => eps_r_op_2s_C12_AA34 q q (wr m.+4.+1) (@C3e C (fun _ => D) qq wA ham m.+2 s) (calc_AAs (D := fun _ => D) wA m.+3)).
transitivity (adot y (ul_si l eigh tol (prv (at_ m.+2)) *m \sum_(s < q) f1 s *m
    (toarray (ur_s r eigh tol (at_ m.+2)) *m uVsh q A r eigh qrf tol (at_ m.+2) s))
  + adot y (ul_si l eigh tol (prv (at_ m.+2)) *m \sum_(s < q) f2 s *m
    (ur_si r eigh tol (at_ m.+2) *m uVsh q A r eigh qrf tol (at_ m.+2) s))
  + adot y (ul_s l eigh tol (prv (at_ m.+2)) *m \sum_(s < q) f3 s *m
    (ur_si r eigh tol (at_ m.+2) *m uVsh q A r eigh qrf tol (at_ m.+2) s))
  + adot y (ul_s l eigh tol (prv (at_ m.+2)) *m \sum_(s < q) (wA m.+2 s *m wK K m.+3) *m
    (ur_si r eigh tol (at_ m.+2) *m uVsh q A r eigh qrf tol (at_ m.+2) s))).
  congr (_ + _ + _ + _).
  - by rewrite e1; have [_ <- _] := P f1.
  - by rewrite e2; have [_ _ <-] := P f2.
  - by rewrite e3; have [<- _ _] := P f3.
  - by have [<- _ _] := P (fun s => wA m.+2 s *m wK K m.+3).
rewrite -addrA addrC [X in _ + X]addrC addrA -!adotDr -mulmxDr -big_split /ux3.
congr (adot y _); apply: congr2; first apply: congr2; apply: (congr1 (mulmx _)).
- apply: eq_bigr => s _; rewrite /= -mulmxDl; congr ((_ + _) *m _).
    rewrite nxt_at nxt2_at /f3 !eps_r_op_2s_C12_AA34E /Uniform.wr prv_at wAA; apply: eq_bigr => t _; apply: eq_bigr => z _.
    by rewrite -Ce3 // ltn_ord.
  by rewrite /wK nxt_at.
- apply: eq_bigr => t _; congr (_ *m _); rewrite /f2 !prv_at nxt_at; apply: eq_bigr => s _.
  have hh : (wl m.+1)^† = wl m.+1 by exact: hwl hl m.+1.
  rewrite /Uniform.wl prv_at in hh; rewrite adjM hh /Uniform.wl prv_at /eps_r_noop; congr (_ *m _).
  rewrite /Uniform.wr prv_at; apply: eq_bigr => z _.
  by rewrite -Ce3 ?ltn_ord.
- apply: eq_bigr => z _; congr (_ *m _); rewrite /f1 /gl3 !prv_at wAA !eps_l_op_2s_AA12_C34E.
  by apply: eq_bigr => s _; apply: eq_bigr => t _; rewrite -Ce3 ?ltn_ord.
Qed.
End Comp.
End Windows.
