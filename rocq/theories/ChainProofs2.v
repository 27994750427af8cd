(* ChainProofs2.v -- window lemmas: two-point functions, strings, reduced density
   matrices, inner products. *)
From mathcomp Require Import all_ssreflect all_algebra.
From Verif Require Import Base Spec Eps Chain ChainProofs.
Set Implicit Arguments.
Unset Strict Implicit.
Unset Printing Implicit Defensive.
Import GRing.Theory Num.Theory.
Local Open Scope ring_scope.

(* eps_l with the operator absorbed in the first tensor *)
Lemma eps_l_op_1s_ket (C : numClosedFieldType) q Da Db Da' Db' (x : 'M[C]_(Da, Db))
  (A1 : nat -> 'M_(Da, Da')) (A2 : nat -> 'M_(Db, Db')) op :
  eps_l_op_1s q x A1 A2 op = eps_l_noop q x (op_dot_A q op A1) A2.
Proof.
rewrite eps_l_op_1sE exchange_big /=; apply: eq_bigr => s _.
rewrite /op_dot_A adj_sum mulmx_suml; apply: eq_bigr => t _.
by rewrite adjZ -scalemxAl.
Qed.

Section Win.
Variables (C : numClosedFieldType) (D D' q : nat -> nat).

(* left recursion over k sites starting at bond m *)
Fixpoint llw (B : tensors C D) (A : tensors C D') (m : nat) (x : 'M[C]_(D m, D' m)) (k : nat) :
    'M[C]_(D (k + m), D' (k + m)) :=
  match k return 'M[C]_(D (k + m), D' (k + m)) with
  | k'.+1 => eps_l_noop (q (k' + m)%N) (llw B A x k') (B (k' + m)%N) (A (k' + m)%N)
  | 0%N => x
  end.

Lemma llw_move B A m (x : 'M[C]_(D m, D' m)) k (Y : forall n, 'M[C]_(D n, D' n)) :
  adot (llw B A x k) (Y (k + m)%N) = adot x (rr q B A Y k m).
Proof.
elim: k Y => [|k IH] Y //.
have := rr_add q B A Y k 1 m; rewrite addn1 => ->.
by rewrite -IH /= eps_adjoint.
Qed.

Lemma eq_llw B B' A A' m (x x' : 'M[C]_(D m, D' m)) k : x = x' ->
  (forall p s, (m <= p < k + m)%N -> (s < q p)%N -> B p s = B' p s) ->
  (forall p s, (m <= p < k + m)%N -> (s < q p)%N -> A p s = A' p s) ->
  llw B A x k = llw B' A' x' k.
Proof.
move=> ex; elim: k => [|k IH] //= hB hA; rewrite IH; last first.
- by move=> p s /andP[h1 h2]; apply: hA; rewrite h1 addSn ltnS ltnW.
- by move=> p s /andP[h1 h2]; apply: hB; rewrite h1 addSn ltnS ltnW.
by apply: eq_bigr => s _; rewrite hA ?hB // leq_addl addSn ltnSn.
Qed.
End Win.

Section Win2.
Variables (C : numClosedFieldType) (D q : nat -> nat) (A : tensors C D).
Local Notation bonds := (forall n, 'M[C]_(D n)).
Variables (N : nat) (lb : 'M[C]_(D 0)) (rb : 'M[C]_(D N)) (l r : bonds).
Hypotheses (hl : up_l q A N lb l) (hr : up_r q A N rb r).

(* B and B' differ from A only on the window [m, k+m) *)
Lemma bdotst_window (B B' : tensors C D) m k : (k + m <= N)%N ->
  (forall p s, ~~ (m <= p < k + m)%N -> (s < q p)%N -> B p s = A p s) ->
  (forall p s, ~~ (m <= p < k + m)%N -> (s < q p)%N -> B' p s = A p s) ->
  bdotst q N lb rb (psi B' N) (psi B N) = adot (llw q B B' (l m) k) (r (k + m)%N).
Proof.
move=> kN hB hB'.
have mN : (m <= N)%N by apply: leq_trans kN; rewrite leq_addl.
rewrite (bdotst_rr q B' B lb (X := r)); last by case: hr.
have eN : N = (m + (k + (N - (k + m))))%N by rewrite addnA (addnC m) subnKC.
rewrite [in rr _ _ _ _ N]eN rr_add.
rewrite (eq_rr (B' := A) (A' := A) (X' := rr q B B' r (k + (N - (k + m))))) //; last 2 first.
- by move=> p /andP[_ h] s sq; rewrite hB // negb_and -ltnNge h.
- by move=> p /andP[_ h] s sq; rewrite hB' // negb_and -ltnNge h.
rewrite (l_move _ hl mN) rr_add -llw_move; congr (adot _ _).
rewrite (eq_rr (B' := A) (A' := A) (X' := r)) //.
- by rewrite (rr_r hr) // subnKC.
- by move=> p /andP[h _] s sq; rewrite hB // negb_and -leqNgt h orbT.
- by move=> p /andP[h _] s sq; rewrite hB' // negb_and -leqNgt h orbT.
Qed.

(* matrix element of the reduced density matrix of a window *)
Lemma win_elem m w p c2 d : (m + w)%N = p -> (p <= N)%N -> size c2 = w -> size d = w ->
  \sum_(c1 <- cfgs q m 0) \sum_(c3 <- cfgs q (N - p) p)
   \tr ((psi A N (c1 ++ c2 ++ c3))^† *m lb^† *m psi A N (c1 ++ d ++ c3) *m rb) =
  adot (l m) (amp A p m d *m r p *m (amp A p m c2)^†).
Proof.
move=> mp pN s2 sd.
have mN : (m <= N)%N by apply: leq_trans pN; rewrite -mp leq_addr.
rewrite (lE hl mN) adot_suml; apply: eq_big_seq => c1 /size_cfgs s1.
have ep : (p + (N - p))%N = N by rewrite subnKC.
rewrite (rE hr ep) mulmx_sumr mulmx_suml adot_sumr; apply: eq_big_seq => c3 /size_cfgs s3.
have e1 : (0 + size c1)%N = m by rewrite add0n.
have e2 : (m + size c2)%N = p by rewrite s2.
have ed : (m + size d)%N = p by rewrite sd.
rewrite /psi !(amp_cat _ _ _ e1) (amp_cat _ _ _ e2) (amp_cat _ _ _ ed).
rewrite adotE !adjM adjK -!mulmxA [LHS]mxtrace_mulC -!mulmxA.
by rewrite [LHS]mxtrace_mulC -!mulmxA.
Qed.

(* density_1s *)
Lemma density_1sE n s t : (n < N)%N ->
  density_1s A l r n s t =
  \sum_(c1 <- cfgs q n 0) \sum_(c3 <- cfgs q (N - n.+1) n.+1)
   \tr ((psi A N (c1 ++ s :: c3))^† *m lb^† *m psi A N (c1 ++ t :: c3) *m rb).
Proof.
move=> nN; rewrite (@win_elem n 1 n.+1 [:: s] [:: t]) ?addn1 //.
by rewrite !amp_one.
Qed.

Lemma density_rnE (X : bonds) k n e : (n + k)%N = e ->
  density_rn q A k n X = \sum_(c <- cfgs q k n) amp A e n c *m X e *m (amp A e n c)^†.
Proof.
move=> h; rewrite -(rrE q A A X h).
by elim: k n {h} => [|k IH] n //=; rewrite IH.
Qed.

Lemma density_2s_valE n1 k s1 t1 s2 t2 n2 : (n1.+1 + k)%N = n2 -> (n2 < N)%N ->
  density_2s_val q A l r n1 k s1 t1 s2 t2 =
  \sum_(c1 <- cfgs q n1 0) \sum_(c2 <- cfgs q k n1.+1) \sum_(c3 <- cfgs q (N - n2.+1) n2.+1)
   \tr ((psi A N (c1 ++ s1 :: c2 ++ s2 :: c3))^† *m lb^† *m
        psi A N (c1 ++ t1 :: c2 ++ t2 :: c3) *m rb).
Proof.
move=> h n2N; rewrite /density_2s_val (density_rnE _ h).
rewrite mulmx_sumr mulmx_suml adot_sumr [RHS]exchange_big /=.
apply: eq_big_seq => c2 /size_cfgs sz2.
transitivity (adot (l n1) (amp A n2.+1 n1 (t1 :: c2 ++ [:: t2]) *m r n2.+1 *m
                           (amp A n2.+1 n1 (s1 :: c2 ++ [:: s2]))^†)).
  have ec : (n1.+1 + size c2)%N = n2 by rewrite sz2.
  by rewrite /= !(amp_cat _ _ _ ec) !amp_one !adjM !mulmxA.
have hs x : size (x :: c2 ++ [:: t2]) = k.+2 by rewrite /= size_cat sz2 addn1.
have hs' x : size (x :: c2 ++ [:: s2]) = k.+2 by rewrite /= size_cat sz2 addn1.
rewrite -(@win_elem n1 k.+2 n2.+1 (s1 :: c2 ++ [:: s2]) (t1 :: c2 ++ [:: t2])) //.
  by apply: eq_bigr => c1 _; apply: eq_bigr => c3 _; rewrite /= -!catA.
by rewrite -h addSn !addnS.
Qed.

(* the two-point function *)
Lemma ljE op1 op2 n1 n2 j : (n1 < n2)%N -> (j + n1 < n2)%N ->
  lj q A l op1 n1 j =
  llw q (apply_op_1s q (apply_op_1s q A op2 n2) op1 n1) A (l n1) j.+1.
Proof.
move=> n12; elim: j => [|j IH] h.
  rewrite /= eps_l_op_1s_ket; apply: eq_bigr => s _.
  rewrite /apply_op_1s eqxx /op_dot_A; congr (_^† *m _); apply: eq_bigr => t _.
  by rewrite (ltn_eqF n12).
rewrite /= IH; last by apply: leq_trans h; rewrite ltnS addSn leqnSn.
have e1 : ((j + n1).+1 == n1) = false by rewrite gtn_eqF // ltnS leq_addl.
have e2 : ((j + n1).+1 == n2) = false by rewrite ltn_eqF.
by apply: eq_bigr => s _; rewrite /apply_op_1s e1 e2.
Qed.

Lemma expect_1s_1s_llw op1 op2 n1 j : (j.+1 + n1 < N)%N ->
  expect_1s_1s q A l r op1 op2 n1 j.+1 =
  bdotst q N lb rb (psi A N)
    (psi (apply_op_1s q (apply_op_1s q A op2 (j.+1 + n1)) op1 n1) N).
Proof.
move=> h; set B := apply_op_1s q _ op1 n1.
have n12 : (n1 < j.+1 + n1)%N by rewrite ltnS leq_addl.
have hB p s : ~~ (n1 <= p < j.+2 + n1)%N -> (s < q p)%N -> B p s = A p s.
  rewrite negb_and -ltnNge -leqNgt /B /apply_op_1s => hp _.
  have hp1 : (p == n1) = false.
    case/orP: hp => hp; first by rewrite ltn_eqF.
    by rewrite gtn_eqF // (leq_trans _ hp) // ltnW // ltnS.
  have hp2 : (p == (j.+1 + n1)%N) = false.
    case/orP: hp => hp; first by rewrite ltn_eqF // (ltn_trans hp).
    by rewrite gtn_eqF.
  by rewrite hp1 hp2.
rewrite (bdotst_window (m := n1) (k := j.+2) h hB) //.
rewrite /expect_1s_1s (@ljE _ op2 _ (j.+1 + n1)) // -/B.
have e1 : ((j + n1).+1 == n1) = false by rewrite gtn_eqF // ltnS leq_addl.
have e2 : ((j + n1).+1 == (j.+1 + n1)%N) by rewrite addSn.
rewrite eps_l_op_1s_ket /=; congr (adot _ _); apply: eq_bigr => s _.
by have -> : B (j + n1).+1 s = op_dot_A (q (j + n1).+1) op2 (A (j + n1).+1) s
  by rewrite /B /apply_op_1s e1 e2.
Qed.

(* two one-site operators as modified tensors *)
Lemma op1_op1_psi o1 o2 n1 n2 c : (n1 < N)%N -> (n2 < N)%N -> n1 != n2 -> size c = N ->
  op1 q n1 o1 (op1 q n2 o2 (psi A N)) c =
  psi (apply_op_1s q (apply_op_1s q A o2 n2) o1 n1) N c.
Proof.
move=> h1 h2 h12 sz; rewrite apply_op_1sE // /Spec.op1; apply: eq_bigr => t _; congr (_ *: _).
by rewrite apply_op_1sE // size_set_nth sz; apply/maxn_idPr.
Qed.

Lemma expect_1s_1sE op1 op2 n1 j : (n1 + j.+1 < N)%N ->
  expect_1s_1s q A l r op1 op2 n1 j.+1 =
  bdotst q N lb rb (psi A N) (Spec.op1 q n1 op1 (Spec.op1 q (n1 + j.+1) op2 (psi A N))).
Proof.
rewrite addnC => h; rewrite expect_1s_1s_llw //; apply: eq_sum_cfgs => c sz.
rewrite op1_op1_psi //; first by apply: leq_trans h; rewrite ltnS leq_addl.
by rewrite ltn_eqF // ltnS leq_addl.
Qed.

(* on-site product *)
Lemma op1_comp o1 o2 n (phi : seq nat -> 'M[C]_(D 0, D N)) c : (n < size c)%N ->
  op1 q n o1 (op1 q n o2 phi) c = op1 q n (opdot (q n) o1 o2) phi c.
Proof.
move=> h; rewrite /Spec.op1 /opdot.
under [RHS]eq_bigr => t _ do rewrite scaler_suml.
rewrite [RHS]exchange_big /=; apply: eq_bigr => u _; rewrite scaler_sumr.
apply: eq_bigr => t _; rewrite nth_set_nth /= eqxx scalerA.
have [c1 [s [c2 [-> sz]]]] := split_at h.
by rewrite !set_nth_cat1.
Qed.

Lemma expect_1s_1s0 op1 op2 n : (n < N)%N ->
  expect_1s_1s q A l r op1 op2 n 0 =
  bdotst q N lb rb (psi A N) (Spec.op1 q n op1 (Spec.op1 q n op2 (psi A N))).
Proof.
move=> h; rewrite /= (expect_1sE hl hr) //; apply: eq_sum_cfgs => c sz.
by rewrite op1_comp // sz.
Qed.

(* strings *)
Definition string_tensors (op : op1s C) (n j : nat) : tensors C D :=
  fun p s => if (n <= p < n + j)%N then op_dot_A (q p) op (A p) s else A p s.

Lemma string_xE op n i j : (i <= j)%N ->
  string_x q A l op n i = llw q A (string_tensors op n j) (l n) i.
Proof.
elim: i => [|i IH] h //=; rewrite IH ?(ltnW h) //.
apply: eq_bigr => s _; congr (_ *m (_ *m _)).
have hh : (i + n < n + j)%N by rewrite addnC ltn_add2l.
by rewrite /string_tensors leq_addl hh.
Qed.

Lemma string_valE op n j : (n + j <= N)%N ->
  adot (string_x q A l op n j) (r (j + n)%N) =
  bdotst q N lb rb (psi (string_tensors op n j) N) (psi A N).
Proof.
move=> h; rewrite (bdotst_window (m := n) (k := j)) //.
- by rewrite (string_xE _ _ (leqnn j)).
- by rewrite addnC.
- by move=> p s hp _; rewrite /string_tensors addnC (negbTE hp).
Qed.

(* the string tensors are the operator applied at every site of the window *)
Lemma op_stringE op n j c : (n + j <= N)%N -> size c = N ->
  op_string q op n j (psi A N) c = psi (string_tensors op n j) N c.
Proof.
elim: j n c => [|j IH] n c h sz.
  apply: eq_amp => p s _ _; rewrite /string_tensors addn0.
  by rewrite (leqNgt n p); case: ltnP.
have nN : (n < N)%N by apply: leq_trans h; rewrite addnS ltnS leq_addr.
transitivity (op1 q n op (psi (string_tensors op n.+1 j) N) c).
  rewrite /= /Spec.op1; apply: eq_bigr => t _; rewrite IH //; first by rewrite addSn -addnS.
  by rewrite size_set_nth sz; apply/maxn_idPr.
rewrite -apply_op_1sE //; apply: eq_amp => p s _ _.
rewrite /apply_op_1s /string_tensors.
case: (ltngtP p n) => [pn|pn|->].
- by [].
- by rewrite addSn addnS.
- by rewrite addnS ltnS leq_addr.
Qed.

(* the whole result array of expect_string_1s *)
Lemma foldl_string (f : nat -> C) d k x0 :
  let F := fun res i => set_nth 0 res (if i == 0%N then d.-1 else i.-1) (f i) in
  (k <= d)%N -> (0 < d)%N -> size x0 = d ->
  let res := foldl F x0 (iota 0 k.+1) in
  size res = d /\ forall i, (i < k)%N -> nth 0 res i = f i.+1.
Proof.
move=> F kd d0 sx0; elim: k kd => [|k IH] kd.
  split=> //=; rewrite size_set_nth sx0; apply/maxn_idPr.
  by case: d d0 {kd F sx0}.
have -> : iota 0 k.+2 = rcons (iota 0 k.+1) k.+1.
  by rewrite -addn1 iotaD cats1.
rewrite /= -/(iota _ _) foldl_rcons.
have {IH} := IH (ltnW kd); rewrite /=; set res := foldl _ _ _ => -[sz h].
rewrite /F /=; split; first by rewrite size_set_nth sz; apply/maxn_idPr.
move=> i ik; rewrite nth_set_nth /=; case: eqP => [->//|/eqP ne].
by apply: h; rewrite ltn_neqAle ne.
Qed.

Lemma expect_string_1sE op n d : (0 < d)%N -> (n + d < N)%N ->
  exists2 res, expect_string_1s q A l r op n d = Some res &
  size res = d /\ forall k, (k < d)%N ->
    nth 0 res k = bdotst q N lb rb (op_string q op n k.+2 (psi A N)) (psi A N).
Proof.
move=> d0 hN; rewrite /expect_string_1s eqn0Ngt d0 /=.
eexists; first by [].
have [] := @foldl_string (fun i => adot (string_x q A l op n i.+1) (r (i.+1 + n)%N)) d d (nseq d 0)
  (leqnn d) d0 (size_nseq _ _).
set res := foldl _ _ _ => sz h; split=> // k kd; rewrite h //.
have kN : (n + k.+2 <= N)%N by apply: leq_trans hN; rewrite !addnS !ltnS ltn_add2l.
rewrite string_valE //; apply: eq_sum_cfgs => c szc.
by rewrite -op_stringE.
Qed.

End Win2.

(* ---- inner products ------------------------------------------------------ *)
Section Inner.
Variables (C : numClosedFieldType) (q : nat -> nat) (N : nat).

Lemma entry0_1 m n (M : 'M[C]_(m, n)) (hm : m = 1%N) (hn : n = 1%N) :
  entry0 M = M (cast_ord (esym hm) ord0) (cast_ord (esym hn) ord0).
Proof.
subst m n; rewrite /entry0 (big_pred1 ord0) => [|i]; last by rewrite ord1.
by rewrite (big_pred1 ord0) => [|i]; [rewrite !cast_ord_id | rewrite ord1].
Qed.

Lemma entry0D m n (M M' : 'M[C]_(m, n)) : entry0 (M + M') = entry0 M + entry0 M'.
Proof.
rewrite /entry0 -big_split; apply: eq_bigr => i _; rewrite -big_split.
by apply: eq_bigr => j _; rewrite mxE.
Qed.
Lemma entry00 m n : entry0 (0 : 'M[C]_(m, n)) = 0.
Proof. by rewrite /entry0 big1 // => i _; rewrite big1 // => j _; rewrite mxE. Qed.
Lemma entry0_sum m n (I : Type) (s : seq I) (P : pred I) (F : I -> 'M[C]_(m, n)) :
  entry0 (\sum_(i <- s | P i) F i) = \sum_(i <- s | P i) entry0 (F i).
Proof. exact: (big_morph (@entry0 C m n) (@entry0D m n) (entry00 m n)). Qed.

Lemma entry0M m n p (M : 'M[C]_(m, n)) (M' : 'M[C]_(n, p)) :
  m = 1%N -> n = 1%N -> p = 1%N -> entry0 (M *m M') = entry0 M * entry0 M'.
Proof.
by move=> *; subst; rewrite !entry0_1 !cast_ord_id mxE big_ord1.
Qed.
Lemma entry0_adj m n (M : 'M[C]_(m, n)) : entry0 (M^†) = (entry0 M)^*.
Proof.
rewrite /entry0 exchange_big rmorph_sum; apply: eq_bigr => i _.
by rewrite rmorph_sum; apply: eq_bigr => j _; rewrite adjE.
Qed.
Lemma entry0_adot m n (M M' : 'M[C]_(m, n)) : m = 1%N -> n = 1%N ->
  adot M M' = (entry0 M)^* * entry0 M'.
Proof. by move=> *; subst; rewrite !entry0_1 !cast_ord_id /adot !big_ord1. Qed.

Lemma inner_rE D D' (A : tensors C D) (B : tensors C D') k n :
  inner_r q A B k n = rr q A B (fun n => pid_mx (D n)) k n.
Proof. by elim: k n => [|k IH] n //=; rewrite IH. Qed.

Lemma innerE D D' (A : tensors C D) (B : tensors C D') :
  D 0%N = 1%N -> D N = 1%N -> D' 0%N = 1%N -> D' N = 1%N ->
  inner q N A B = \sum_(c <- cfgs q N 0) (amplitude N B c)^* * amplitude N A c.
Proof.
move=> h1 h2 h3 h4; rewrite /inner inner_rE (rrE _ _ _ _ (add0n N)) entry0_sum.
apply: eq_bigr => c _; rewrite !entry0M // entry0_adj mulrC; congr (_ * _).
have -> : entry0 (pid_mx (D N) : 'M[C]_(D N, D' N)) = 1.
  by rewrite h2 h4 pid_mx_1 entry0_1 !cast_ord_id mxE.
by rewrite mulr1.
Qed.
End Inner.

(* ---- Hermitian operators have real expectation values -------------------- *)
Section Herm.
Variables (C : numClosedFieldType) (q : nat -> nat) (N : nat) (a b : nat).
Implicit Types phi : seq nat -> 'M[C]_(a, b).

Lemma dotstC phi phi' : dotst q N phi phi' = (dotst q N phi' phi)^*.
Proof. by rewrite !dotstE rmorph_sum; apply: eq_bigr => c _; rewrite adotC. Qed.

Lemma dotst_opwin m w O phi phi' : (m + w <= N)%N ->
  dotst q N phi (opwin q m w O phi') =
  dotst q N (opwin q m w (fun c d => (O d c)^*) phi) phi'.
Proof.
move=> mw; rewrite !dotstE.
have -> : N = (m + (w + (N - (m + w))))%N by rewrite addnA subnKC.
rewrite !sum_cfgs_cat addn0; apply: eq_big_seq => c1 /size_cfgs s1.
rewrite !sum_cfgs_cat.
transitivity (\sum_(c2 <- cfgs q w m) \sum_(d <- cfgs q w m)
  \sum_(c3 <- cfgs q (N - (m + w)) (w + m)) O c2 d * adot (phi (c1 ++ c2 ++ c3)) (phi' (c1 ++ d ++ c3))).
  apply: eq_big_seq => c2 /size_cfgs s2; rewrite [RHS]exchange_big /=.
  apply: eq_bigr => c3 _; rewrite opwin_cat // adot_sumr.
  by apply: eq_bigr => d _; rewrite adotZr.
rewrite [LHS]exchange_big /=; apply: eq_big_seq => d /size_cfgs sd; rewrite [LHS]exchange_big /=.
apply: eq_bigr => c3 _; rewrite opwin_cat // adot_suml.
by apply: eq_bigr => c2 _; rewrite adotZl conjCK.
Qed.

Lemma opwin_real m w O phi : (m + w <= N)%N -> (forall c d, O c d = (O d c)^*) ->
  dotst q N phi (opwin q m w O phi) \is Num.real.
Proof.
move=> mw h; rewrite CrealE -dotstC dotst_opwin //.
apply/eqP; apply: eq_sum_cfgs => c _; rewrite -/(adot _ _) -/(adot _ _); congr (adot _ _).
rewrite /opwin; apply: eq_bigr => d _.
by rewrite -h.
Qed.
End Herm.
