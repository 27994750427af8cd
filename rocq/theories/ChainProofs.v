(* ChainProofs.v -- the transfer-map recursions compute sums over configurations. *)
From mathcomp Require Import all_ssreflect all_algebra.
From Verif Require Import Base Spec Eps Chain.
Set Implicit Arguments.
Unset Strict Implicit.
Unset Printing Implicit Defensive.
Import GRing.Theory Num.Theory.
Local Open Scope ring_scope.

(* ---- the loops establish up-to-date arrays ------------------------------ *)
Section Loops.
Variables (C : numClosedFieldType) (D q : nat -> nat) (A : tensors C D).
Local Notation bonds := (forall n, 'M[C]_(D n)).

Lemma calc_l_rec (l : bonds) lo cnt :
  calc_l q A l lo cnt.+1 = calc_l_step q A (calc_l q A l lo cnt) (lo + cnt).
Proof. by rewrite /calc_l -addn1 iotaD foldl_cat. Qed.

Lemma calc_l_ok (l : bonds) lo cnt :
  (forall n, (n <= lo)%N -> calc_l q A l lo cnt n = l n) /\
  (forall n, (lo <= n < lo + cnt)%N ->
     calc_l q A l lo cnt n.+1 =
     eps_l_noop (q n) (calc_l q A l lo cnt n) (A n) (A n)).
Proof.
elim: cnt => [|cnt [IH1 IH2]]; first by split=> // n; rewrite addn0; case: ltngtP.
have step n : n != (lo + cnt).+1 ->
    calc_l q A l lo cnt.+1 n = calc_l q A l lo cnt n.
  by move=> h; rewrite calc_l_rec /calc_l_step upd_other // eq_sym.
split=> n.
  move=> nlo; rewrite step ?IH1 //; apply: contraTneq nlo => ->.
  by rewrite -ltnNge ltnS leq_addr.
rewrite addnS ltnS => /andP[lon]; rewrite leq_eqVlt => /orP[/eqP->|lt].
  rewrite calc_l_rec {1}/calc_l_step upd_same /calc_l_step upd_other //.
  by rewrite eq_sym neq_ltn ltnSn.
rewrite step ?IH2 ?lon // ?step // neq_ltn ?ltnS ?lt ?(leqW lt) //.
by rewrite ltnW.
Qed.

Lemma calc_r_rec (r : bonds) lo cnt :
  calc_r q A r lo cnt.+1 =
  calc_r_step q A (calc_r q A r lo.+1 cnt) lo.
Proof. by rewrite /calc_r /= rev_cons -cats1 foldl_cat. Qed.

Lemma calc_r_ok (r : bonds) lo cnt :
  (forall n, (lo + cnt <= n)%N -> calc_r q A r lo cnt n = r n) /\
  (forall n, (n < lo)%N -> calc_r q A r lo cnt n = r n) /\
  (forall n, (lo <= n < lo + cnt)%N ->
     calc_r q A r lo cnt n =
     eps_r_noop (q n) (calc_r q A r lo cnt n.+1) (A n) (A n)).
Proof.
elim: cnt lo => [|cnt IH] lo; first by split=> //; split=> // n; rewrite addn0; case: ltngtP.
have [IH0 [IH1 IH2]] := IH lo.+1; rewrite addnS -addSn.
have step n : n != lo -> calc_r q A r lo cnt.+1 n = calc_r q A r lo.+1 cnt n.
  by move=> h; rewrite calc_r_rec /calc_r_step upd_other // eq_sym.
split; [|split] => n.
- move=> h; rewrite step ?IH0 //; apply: contraTneq h => ->.
  by rewrite -ltnNge ltn_addr // ltnSn.
- by move=> h; rewrite step ?IH1 // 1?ltnW // neq_ltn h.
case/andP; rewrite leq_eqVlt => /orP[/eqP<- _|lt lt2].
  rewrite {1}calc_r_rec {1}/calc_r_step upd_same step //.
  by rewrite neq_ltn ltnSn orbT.
have nlo : n != lo by rewrite neq_ltn lt orbT.
have nlo1 : n.+1 != lo by rewrite neq_ltn (ltn_trans lt) ?orbT.
by rewrite (step n nlo) (step n.+1 nlo1); apply: IH2; rewrite lt.
Qed.

(* calc_l() / calc_r() with default arguments, from any array whose boundary entry is set *)
Lemma calc_l_up N (l : bonds) : up_l q A N (l 0%N) (calc_l q A l 0 N).
Proof.
have [h1 h2] := calc_l_ok l 0 N; split; first exact: h1.
by move=> n nN; apply: h2; rewrite add0n.
Qed.
Lemma calc_r_up N (r : bonds) : up_r q A N (r N) (calc_r q A r 0 N).
Proof.
have [h1 [_ h2]] := calc_r_ok r 0 N; split; first exact: h1.
by move=> n nN; apply: h2; rewrite add0n.
Qed.

(* partial recomputation keeps the arrays up to date *)
Lemma calc_l_partial N lb (l : bonds) lo : (lo <= N)%N ->
  (l 0%N = lb /\ forall n, (n < lo)%N -> l n.+1 = eps_l_noop (q n) (l n) (A n) (A n)) ->
  up_l q A N lb (calc_l q A l lo (N - lo)).
Proof.
move=> loN [l0 h]; have [h1 h2] := calc_l_ok l lo (N - lo); split; first by rewrite h1.
move=> n nN; have [nlo|lon] := ltnP n lo; last by rewrite h2 // lon subnKC.
by rewrite (h1 n.+1 nlo) (h1 n (ltnW nlo)) h.
Qed.
Lemma calc_r_partial N (rb : 'M_(D N)) (r : bonds) hi : (hi <= N)%N ->
  (r N = rb /\ forall n, (hi <= n < N)%N -> r n = eps_r_noop (q n) (r n.+1) (A n) (A n)) ->
  up_r q A N rb (calc_r q A r 0 hi).
Proof.
move=> hiN [r0 h]; have [h1 [_ h2]] := calc_r_ok r 0 hi; split; first by rewrite h1.
move=> n nN; have [nlo|lon] := ltnP n hi; first by rewrite h2.
by rewrite (h1 n lon) (h1 n.+1 (leqW lon)) h // lon.
Qed.
End Loops.

(* ---- two-chain right recursion ------------------------------------------ *)
Section TwoChains.
Variables (C : numClosedFieldType) (D D' q : nat -> nat).

Fixpoint rr (B : tensors C D) (A : tensors C D') (X : forall n, 'M[C]_(D n, D' n))
    (k n : nat) : 'M[C]_(D n, D' n) :=
  if k is k'.+1 then eps_r_noop (q n) (rr B A X k' n.+1) (B n) (A n) else X n.

Lemma rr_add B A X k1 k2 n :
  rr B A X (k1 + k2) n = rr B A (rr B A X k2) k1 n.
Proof. by elim: k1 n => [|k1 IH] n //=; rewrite IH. Qed.

Lemma rrE B A X e k n : (n + k)%N = e ->
  rr B A X k n = \sum_(c <- cfgs q k n) amp B e n c *m X e *m (amp A e n c)^†.
Proof.
elim: k n => [|k IH] n /=.
  by rewrite addn0 => <-; rewrite big_seq1 /= !pid_mx_1 adj1 mul1mx mulmx1.
rewrite addnS -addSn => h; rewrite -/(cfgs q k.+1 n) sum_cfgsS /eps_r_noop.
apply: eq_bigr => s _; rewrite (IH _ h) mulmx_sumr mulmx_suml.
by apply: eq_bigr => c _; rewrite /= adjM !mulmxA.
Qed.

Lemma eq_rr B B' A A' X X' k n :
  (forall m, (n <= m < n + k)%N -> forall s, (s < q m)%N -> B m s = B' m s) ->
  (forall m, (n <= m < n + k)%N -> forall s, (s < q m)%N -> A m s = A' m s) ->
  X (n + k)%N = X' (n + k)%N -> rr B A X k n = rr B' A' X' k n.
Proof.
elim: k n => [|k IH] n /= hB hA; first by rewrite addn0.
rewrite addnS -addSn => hX; rewrite (IH n.+1) //.
- by apply: eq_bigr => s _; rewrite hB ?hA // leqnn addnS leq_addr.
- by move=> m /andP[h1 h2]; apply: hB; rewrite ltnW //= addnS -addSn.
- by move=> m /andP[h1 h2]; apply: hA; rewrite ltnW //= addnS -addSn.
Qed.
End TwoChains.

Section Moves.
Variables (C : numClosedFieldType) (D q : nat -> nat) (A : tensors C D).
Local Notation bonds := (forall n, 'M[C]_(D n)).

(* moving the left environment through the chain *)
Lemma l_move N lb (l : bonds) m (Y : bonds) : up_l q A N lb l -> (m <= N)%N ->
  adot lb (rr q A A Y m 0) = adot (l m) (Y m).
Proof.
case=> l0 hl; elim: m Y => [|m IH] Y mN; first by rewrite /= l0.
have := rr_add q A A Y m 1 0; rewrite addn1 => ->.
by rewrite IH ?(ltnW mN) //= (hl m mN) eps_adjoint.
Qed.

Lemma r_rr N (rb : 'M_(D N)) (r : bonds) k n : up_r q A N rb r -> (n + k)%N = N ->
  r n = rr q A A r k n.
Proof.
case=> rN hr; elim: k n => [|k IH] n //=; rewrite addnS -addSn => h.
by rewrite -IH // hr // -h addSn ltnS leq_addr.
Qed.

Lemma rr_r N (rb : 'M_(D N)) (r : bonds) k n : up_r q A N rb r -> (n + k <= N)%N ->
  rr q A A r k n = r n.
Proof.
case=> rN hr; elim: k n => [|k IH] n //=; rewrite addnS -addSn => h.
by rewrite IH // -hr // (leq_trans _ h) // addSn ltnS leq_addr.
Qed.

Lemma rE N (rb : 'M_(D N)) (r : bonds) k n : up_r q A N rb r -> (n + k)%N = N ->
  r n = \sum_(c <- cfgs q k n) amp A N n c *m rb *m (amp A N n c)^†.
Proof. by move=> h nk; rewrite (r_rr h nk) (rrE _ _ _ _ nk); case: h => -> _. Qed.

Lemma lE N lb (l : bonds) n : up_l q A N lb l -> (n <= N)%N ->
  l n = \sum_(c <- cfgs q n 0) (amp A n 0 c)^† *m lb *m amp A n 0 c.
Proof.
case=> l0 hl; elim: n => [|n IH] nN.
  by rewrite l0 sum_cfgs0 /= pid_mx_1 adj1 mul1mx mulmx1.
rewrite hl // IH ?(ltnW nN) // sum_cfgs_rcons addn0 exchange_big /=.
rewrite /eps_l_noop; apply: eq_bigr => s _.
rewrite mulmx_suml mulmx_sumr; apply: eq_big_seq => c /size_cfgs sz.
by rewrite amp_rcons ?add0n // adjM !mulmxA.
Qed.

(* l and r are Hermitian and positive *)
Lemma l_herm N (l : bonds) n : up_l q A N 1%:M l -> (n <= N)%N -> herm (l n).
Proof.
move=> h nN; rewrite /herm (lE h nN) adj_sum; apply: eq_bigr => c _.
by rewrite mulmx1 adjM adjK.
Qed.
Lemma l_psd N (l : bonds) n : up_l q A N 1%:M l -> (n <= N)%N -> psd (l n).
Proof.
move=> h nN; rewrite (lE h nN); apply: psd_sum => c _.
by rewrite mulmx1; apply: psd_gram.
Qed.
Lemma r_herm N (r : bonds) n : up_r q A N 1%:M r -> (n <= N)%N -> herm (r n).
Proof.
move=> h nN; rewrite /herm (rE h (subnKC nN)) adj_sum; apply: eq_bigr => c _.
by rewrite mulmx1 adjM adjK.
Qed.
Lemma r_psd N (r : bonds) n : up_r q A N 1%:M r -> (n <= N)%N -> psd (r n).
Proof.
move=> h nN; rewrite (rE h (subnKC nN)); apply: psd_sum => c _.
by rewrite mulmx1 -{1}[amp _ _ _ _]adjK; apply: psd_gram.
Qed.

(* overlap of two state vectors over the same bond dimensions, arbitrary boundary *)
Lemma bdotst_rr (B : tensors C D) N lb (rb : 'M[C]_(D N)) (X : bonds) : X N = rb ->
  bdotst q N lb rb (psi A N) (psi B N) = adot lb (rr q B A X N 0).
Proof.
move=> XN; rewrite /bdotst (rrE _ _ _ _ (add0n N)) XN adot_sumr; apply: eq_bigr => c _.
rewrite adotE -!mulmxA mxtrace_mulC.
by rewrite -!mulmxA mulmxA mxtrace_mulC -!mulmxA.
Qed.

(* norm at every cut *)
Lemma norm_cut N lb (rb : 'M[C]_(D N)) (l r : bonds) n :
  up_l q A N lb l -> up_r q A N rb r -> (n <= N)%N ->
  adot (l n) (r n) = bdotst q N lb rb (psi A N) (psi A N).
Proof.
move=> hl hr nN; rewrite (bdotst_rr A lb (X := r)); last by case: hr.
rewrite -(l_move r hl nN) -[in RHS](subnKC nN) rr_add.
congr (adot _ _); apply: eq_rr => //; rewrite add0n.
by apply: r_rr hr _; rewrite subnKC.
Qed.

End Moves.

(* ---- operators on state vectors ----------------------------------------- *)
Section Ops.
Variables (C : numClosedFieldType) (D q : nat -> nat) (A : tensors C D).
Local Notation bonds := (forall n, 'M[C]_(D n)).

Lemma set_nth_cat (c1 c2 : seq nat) s t : set_nth 0%N (c1 ++ s :: c2) (size c1) t = c1 ++ t :: c2.
Proof. by elim: c1 => //= x c1 ->. Qed.

Lemma split_at (c : seq nat) m : (m < size c)%N ->
  exists c1 s c2, c = c1 ++ s :: c2 /\ size c1 = m.
Proof.
move=> h; exists (take m c), (nth 0%N c m), (drop m.+1 c).
by rewrite -drop_nth // cat_take_drop size_takel // ltnW.
Qed.

Lemma opwin_cat (V : lmodType C) m w O (phi : seq nat -> V) c1 c2 c3 :
  size c1 = m -> size c2 = w ->
  opwin q m w O phi (c1 ++ c2 ++ c3) =
  \sum_(d <- cfgs q w m) O c2 d *: phi (c1 ++ d ++ c3).
Proof.
move=> s1 s2; rewrite /opwin; apply: eq_bigr => d _.
rewrite take_size_cat // drop_size_cat // take_size_cat //.
by rewrite -drop_drop (drop_size_cat _ s1) (drop_size_cat _ s2).
Qed.

Lemma bdotst_opwin N lb (rb : 'M[C]_(D N)) (l r : bonds) O m w p :
  up_l q A N lb l -> up_r q A N rb r -> (m + w)%N = p -> (p <= N)%N ->
  bdotst q N lb rb (psi A N) (opwin q m w O (psi A N)) =
  adot (l m) (\sum_(c <- cfgs q w m) \sum_(d <- cfgs q w m)
     O c d *: (amp A p m d *m r p *m (amp A p m c)^†)).
Proof.
move=> hl hr mp pN.
have mN : (m <= N)%N by apply: leq_trans pN; rewrite -mp leq_addr.
have eN : N = (m + (w + (N - p)))%N by rewrite addnA mp subnKC.
rewrite /bdotst [in cfgs q N 0]eN sum_cfgs_cat addn0.
under eq_bigr => c1 _ do rewrite sum_cfgs_cat.
rewrite (addnC w m) mp.
rewrite (lE hl mN) adot_suml; apply: eq_big_seq => c1 /size_cfgs s1.
rewrite adot_sumr; apply: eq_big_seq => c2 /size_cfgs s2.
have ep : (p + (N - p))%N = N by rewrite subnKC.
transitivity (\sum_(c3 <- cfgs q (N - p) p) \sum_(d <- cfgs q w m)
   O c2 d * \tr ((psi A N (c1 ++ c2 ++ c3))^† *m lb^† *m psi A N (c1 ++ d ++ c3) *m rb)).
  apply: eq_bigr => c3 _; rewrite opwin_cat // mulmx_sumr mulmx_suml raddf_sum /=.
  by apply: eq_bigr => d _; rewrite -scalemxAr -scalemxAl mxtraceZ.
rewrite exchange_big /= adot_sumr; apply: eq_big_seq => d /size_cfgs sd.
rewrite adotZr -mulr_sumr; congr (_ * _).
rewrite (rE hr ep) mulmx_sumr mulmx_suml adot_sumr; apply: eq_big_seq => c3 /size_cfgs s3.
have e1 : (0 + size c1)%N = m by rewrite add0n.
have e2 : (m + size c2)%N = p by rewrite s2.
have ed : (m + size d)%N = p by rewrite sd.
rewrite /psi !(amp_cat _ _ _ e1) (amp_cat _ _ _ e2) (amp_cat _ _ _ ed).
rewrite adotE !adjM adjK -!mulmxA [LHS]mxtrace_mulC -!mulmxA.
by rewrite [LHS]mxtrace_mulC -!mulmxA.
Qed.

(* applying a one-site operator to the tensors = applying it to the state (C10) *)
Lemma apply_op_1sE N m (op : op1s C) c : (m < N)%N -> size c = N ->
  psi (apply_op_1s q A op m) N c = op1 q m op (psi A N) c.
Proof.
move=> mN sz; have [|c1 [s [c2 [ec sz1]]]] := @split_at c m; first by rewrite sz.
rewrite /op1 ec.
have -> : nth 0%N (c1 ++ s :: c2) m = s by rewrite -sz1 nth_cat ltnn subnn.
have e1 : (0 + size c1)%N = m by rewrite add0n.
rewrite /psi (amp_cat _ _ _ e1) /= {2}/apply_op_1s eqxx.
rewrite (eq_amp (B := A)) => [|p s' _]; last first.
  by rewrite add0n sz1 /apply_op_1s => pm; rewrite (ltn_eqF pm).
rewrite [X in _ *m (_ *m X)](eq_amp (B := A)) => [|p s' pm _]; last first.
  by rewrite /apply_op_1s (gtn_eqF pm).
rewrite mulmx_suml mulmx_sumr; apply: eq_bigr => t _.
rewrite -[in set_nth _ _ m]sz1 set_nth_cat (amp_cat _ _ _ e1) /=.
by rewrite -scalemxAl -scalemxAr.
Qed.

(* expectation of a product of one-site operators via modified kets *)
Lemma bdotst_op1 N lb (rb : 'M[C]_(D N)) (phi : seq nat -> 'M_(D 0, D N)) m op :
  (m < N)%N ->
  bdotst q N lb rb phi (op1 q m op (psi A N)) =
  bdotst q N lb rb phi (psi (apply_op_1s q A op m) N).
Proof.
by move=> mN; apply: eq_sum_cfgs => c sz; rewrite apply_op_1sE.
Qed.

Lemma set_nth_cat1 (c1 c2 : seq nat) m s t : size c1 = m ->
  set_nth 0%N (c1 ++ s :: c2) m t = c1 ++ t :: c2.
Proof. by move<-; apply: set_nth_cat. Qed.
Lemma nth_cat1 (c1 c2 : seq nat) m s : size c1 = m -> nth 0%N (c1 ++ s :: c2) m = s.
Proof. by move<-; rewrite nth_cat ltnn subnn. Qed.
Lemma cat_cons1 (T : Type) (c1 c2 : seq T) a : c1 ++ a :: c2 = rcons c1 a ++ c2.
Proof. by rewrite cat_rcons. Qed.

Lemma op1_win (V : lmodType C) m (o : op1s C) (phi : seq nat -> V) c : (m < size c)%N ->
  op1 q m o phi c = opwin q m 1 (fun c d => o (nth 0%N c 0) (nth 0%N d 0)) phi c.
Proof.
move=> /split_at [c1 [s [c2 [-> s1]]]].
rewrite (@opwin_cat _ m 1 _ phi c1 [:: s] c2) // sum_cfgsS /op1.
apply: eq_bigr => t _; rewrite sum_cfgs0 /=.
by rewrite nth_cat1 // set_nth_cat1.
Qed.

Lemma op2_win (V : lmodType C) m (o : op2s C) (phi : seq nat -> V) c : (m.+1 < size c)%N ->
  op2 q m o phi c =
  opwin q m 2 (fun c d => o (nth 0%N c 0) (nth 0%N c 1) (nth 0%N d 0) (nth 0%N d 1)) phi c.
Proof.
move=> h; have /split_at [c1 [s [c2 [ec s1]]]] := ltnW h.
have : (0 < size c2)%N by move: h; rewrite ec size_cat /= s1 addnS ltnS -{1}(addn0 m) ltn_add2l.
case: c2 ec => // t c2 ec _; rewrite ec => {h ec}.
rewrite (@opwin_cat _ m 2 _ phi c1 [:: s; t] c2) // sum_cfgsS /op2.
apply: eq_bigr => u _; rewrite sum_cfgsS; apply: eq_bigr => v _; rewrite sum_cfgs0 /=.
have s1' x : size (rcons c1 x) = m.+1 by rewrite size_rcons s1.
rewrite nth_cat1 // set_nth_cat1 //.
rewrite (cat_cons1 c1 (t :: c2) s) (cat_cons1 c1 (t :: c2) u).
by rewrite nth_cat1 // set_nth_cat1 // !cat_rcons.
Qed.

Lemma op3_win (V : lmodType C) m (o : op3s C) (phi : seq nat -> V) c : (m.+2 < size c)%N ->
  op3 q m o phi c =
  opwin q m 3 (fun c d => o (nth 0%N c 0) (nth 0%N c 1) (nth 0%N c 2)
                          (nth 0%N d 0) (nth 0%N d 1) (nth 0%N d 2)) phi c.
Proof.
move=> h; have /split_at [c1 [s [c2 [ec s1]]]] := ltnW (ltnW h).
have : (1 < size c2)%N by move: h; rewrite ec size_cat /= s1 addnS ltnS -{1}(addn1 m) ltn_add2l.
case: c2 ec => [|t [|t' c2]] // ec _; rewrite ec => {h ec}.
rewrite (@opwin_cat _ m 3 _ phi c1 [:: s; t; t'] c2) // sum_cfgsS /op3.
apply: eq_bigr => u _; rewrite sum_cfgsS; apply: eq_bigr => v _.
rewrite sum_cfgsS; apply: eq_bigr => w _; rewrite sum_cfgs0 /=.
have s1' x : size (rcons c1 x) = m.+1 by rewrite size_rcons s1.
have s1'' x y : size (rcons (rcons c1 x) y) = m.+2 by rewrite size_rcons s1'.
rewrite nth_cat1 // set_nth_cat1 //.
rewrite (cat_cons1 c1 (t :: t' :: c2) s) (cat_cons1 c1 (t :: t' :: c2) u).
rewrite nth_cat1 // set_nth_cat1 //.
rewrite (cat_cons1 _ (t' :: c2) t) (cat_cons1 _ (t' :: c2) v).
by rewrite nth_cat1 // set_nth_cat1 // !cat_rcons.
Qed.

Section Expect.
Variables (N : nat) (lb : 'M[C]_(D 0)) (rb : 'M[C]_(D N)) (l r : bonds).
Hypotheses (hl : up_l q A N lb l) (hr : up_r q A N rb r).

Lemma bdotst_win m w (P P' : (seq nat -> 'M[C]_(D 0, D N)) -> seq nat -> 'M[C]_(D 0, D N)) :
  (forall c, (m + w <= size c)%N -> P (psi A N) c = P' (psi A N) c) -> (m + w <= N)%N ->
  bdotst q N lb rb (psi A N) (P (psi A N)) = bdotst q N lb rb (psi A N) (P' (psi A N)).
Proof. by move=> h mw; apply: eq_sum_cfgs => c sz; rewrite h // sz. Qed.

Lemma expect_1sE op m : (m < N)%N ->
  expect_1s q A l r op m = bdotst q N lb rb (psi A N) (op1 q m op (psi A N)).
Proof.
move=> mN; rewrite (@bdotst_win m 1 _ (opwin q m 1 (fun c d => op (nth 0%N c 0) (nth 0%N d 0)))).
- rewrite (bdotst_opwin _ hl hr (addn1 m) mN) /expect_1s; congr (adot _ _).
  rewrite eps_r_op_1sE sum_cfgsS; apply: eq_bigr => s _; rewrite sum_cfgs0.
  rewrite sum_cfgsS; apply: eq_bigr => t _; rewrite sum_cfgs0.
  by rewrite !amp_one.
- by move=> c; rewrite addn1 => h; apply: op1_win.
- by rewrite addn1.
Qed.

Lemma expect_2sE op m : (m.+1 < N)%N ->
  expect_2s q A l r op m = bdotst q N lb rb (psi A N) (op2 q m op (psi A N)).
Proof.
move=> mN; rewrite (@bdotst_win m 2 _ (opwin q m 2
  (fun c d => op (nth 0%N c 0) (nth 0%N c 1) (nth 0%N d 0) (nth 0%N d 1)))).
- rewrite (bdotst_opwin _ hl hr (addn2 m) mN) /expect_2s; congr (adot _ _).
  rewrite eps_r_op_2s_C12_AA34E sum_cfgsS; apply: eq_bigr => s _.
  rewrite sum_cfgsS; apply: eq_bigr => t _; rewrite sum_cfgs0.
  rewrite calc_C_mat_op_AAE // !mulmx_suml sum_cfgsS; apply: eq_bigr => u _.
  rewrite !mulmx_suml sum_cfgsS; apply: eq_bigr => v _; rewrite sum_cfgs0.
  by rewrite /= pid_mx_1 !mulmx1 -!scalemxAl.
- by move=> c; rewrite addn2 => h; apply: op2_win.
- by rewrite addn2.
Qed.

Lemma expect_3sE op m : (m.+2 < N)%N ->
  expect_3s q A l r op m = bdotst q N lb rb (psi A N) (op3 q m op (psi A N)).
Proof.
move=> mN; rewrite (@bdotst_win m 3 _ (opwin q m 3
  (fun c d => op (nth 0%N c 0) (nth 0%N c 1) (nth 0%N c 2)
                 (nth 0%N d 0) (nth 0%N d 1) (nth 0%N d 2)))).
- rewrite (bdotst_opwin _ hl hr (addn3 m) mN) /expect_3s; congr (adot _ _).
  rewrite eps_r_op_3s_C123_AAA456E sum_cfgsS; apply: eq_bigr => s _.
  rewrite sum_cfgsS; apply: eq_bigr => t _; rewrite sum_cfgsS; apply: eq_bigr => t' _.
  rewrite sum_cfgs0 calc_C_3s_mat_op_AAAE // !mulmx_suml sum_cfgsS; apply: eq_bigr => u _.
  rewrite !mulmx_suml sum_cfgsS; apply: eq_bigr => v _.
  rewrite !mulmx_suml sum_cfgsS; apply: eq_bigr => w _; rewrite sum_cfgs0.
  by rewrite /= pid_mx_1 !mulmx1 /calc_AAA !mulmxA -!scalemxAl.
- by move=> c; rewrite addn3 => h; apply: op3_win.
- by rewrite addn3.
Qed.

End Expect.
End Ops.

Section Final1.
Variables (C : numClosedFieldType) (D q : nat -> nat) (A : tensors C D) (N : nat).
Local Notation bonds := (forall n, 'M[C]_(D n)).

Lemma calc_lr_up_to_date (l r : bonds) : l 0%N = 1%:M -> r N = 1%:M ->
  up_to_date q A N (calc_l q A l 0 N) (calc_r q A r 0 N).
Proof.
move=> l0 rN; split; first by rewrite -l0; exact: calc_l_up.
by rewrite -rN; exact: calc_r_up.
Qed.

Lemma norm_cut_calc (l r : bonds) n : l 0%N = 1%:M -> r N = 1%:M -> (n <= N)%N ->
  adot (calc_l q A l 0 N n) (calc_r q A r 0 N n) = dotst q N (psi A N) (psi A N).
Proof.
by move=> l0 rN nN; have [hl hr] := calc_lr_up_to_date l0 rN; rewrite (norm_cut hl hr nN) bdotst1.
Qed.
End Final1.
