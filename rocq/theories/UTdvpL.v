(* UTdvpL.v -- the left environment K_left of the uniform class (tdvp_uniform.py:369-454, modelled in UTdvp.v). *)
From mathcomp Require Import all_ssreflect all_algebra.
From mathcomp Require Import zify.
From Verif Require Import Base Spec Eps Eps2 Chain ChainProofs LinAlg Struct Factor Tangent BTangent Tdvp TdvpProofs
  TdvpProofs2 TdvpProofs3 Uniform UTdvp.
Set Implicit Arguments.
Unset Strict Implicit.
Unset Printing Implicit Defensive.
Import Order.TTheory GRing.Theory Num.Theory.
Local Open Scope ring_scope.

Lemma adot_noconjE (C : numClosedFieldType) n (a b : 'M[C]_n) : adot_noconj a b = \tr (a *m b).
Proof.
rewrite /adot_noconj exchange_big; apply: eq_bigr => i _; rewrite mxE; apply: eq_bigr => j _.
by rewrite mxE.
Qed.

Section Left.
Variables (C : numClosedFieldType) (L q D : nat) (A : nat -> nat -> 'M[C]_D) (l r : nat -> smat C D D).
Local Notation Ld k := (toarray (l k)).
Local Notation Rd k := (toarray (r k)).
Hypotheses (L0 : (0 < L)%N) (hc : consistent L q A (fun k => Ld k) (fun k => Rd k)).
Local Notation prv := (prv L). Local Notation nxt := (nxt L).
Local Notation toright := (toright L q A).

Lemma tr_eps (x y : 'M[C]_D) k : \tr (eps_l_noop q x (A k) (A k) *m y) = \tr (x *m eps_r_noop q y (A k) (A k)).
Proof.
rewrite /eps_l_noop /eps_r_noop mulmx_suml mulmx_sumr !tr_sum; apply: eq_bigr => s _.
by rewrite !mulmxA [RHS]mxtrace_mulC !mulmxA.
Qed.
Lemma toright_end x : toright L x = x. Proof. by rewrite /UTdvp.toright subnn. Qed.
Lemma torightS k x : (k < L)%N -> toright k x = toright k.+1 (eps_l_noop q x (A k) (A k)).
Proof. by move=> kL; rewrite /UTdvp.toright (_ : L - k = (L - k.+1).+1)%N //; lia. Qed.
Lemma toright_cell x : toright 0 x = cellL L q A A x. Proof. by rewrite /UTdvp.toright subn0. Qed.
Lemma toright_tr i x : (i < L)%N -> \tr (toright i.+1 x *m Rd L.-1) = \tr (x *m Rd i).
Proof.
move=> iL; move e: (L.-1 - i)%N => n; elim: n i iL x e => [|n IH] i iL x en.
  have -> : i = L.-1 by lia.
  by rewrite prednK // toright_end.
rewrite torightS; last by lia.
have iL' : (i.+1 < L)%N by lia.
by rewrite IH // ?tr_eps; [have [_ <-] := hc iL'; rewrite prvS | lia].
Qed.
Lemma cell_tr x : \tr (cellL L q A A x *m Rd L.-1) = \tr (x *m Rd L.-1).
Proof.
rewrite -toright_cell torightS // toright_tr // tr_eps; have [_ <-] := hc L0.
by rewrite prv0.
Qed.
Lemma torightD k x y : (k <= L)%N -> toright k (x + y) = toright k x + toright k y.
Proof.
move=> kL; move e: (L - k)%N => n; elim: n k kL x y e => [|n IH] k kL x y en.
  by have -> : k = L; [lia | rewrite !toright_end].
have kL' : (k < L)%N by lia.
by rewrite !(torightS _ kL') eps_l_noopD IH //; lia.
Qed.
Lemma torightZ k a x : (k <= L)%N -> toright k (a *: x) = a *: toright k x.
Proof.
move=> kL; move e: (L - k)%N => n; elim: n k kL x e => [|n IH] k kL x en.
  by have -> : k = L; [lia | rewrite !toright_end].
have kL' : (k < L)%N by lia.
by rewrite !(torightS _ kL') eps_l_noopZ IH //; lia.
Qed.
Lemma toright_l k : (k < L)%N -> toright k.+1 (Ld k) = Ld L.-1.
Proof.
move=> kL; move e: (L.-1 - k)%N => n; elim: n k kL e => [|n IH] k kL en.
  by have -> : k = L.-1; [lia | rewrite prednK // toright_end].
have kL' : (k.+1 < L)%N by lia.
by rewrite torightS // -(IH k.+1) //; [have [-> _] := hc kL'; rewrite prvS | lia].
Qed.

Variables (w : nat) (Hl : nat -> 'M[C]_D).
(* the term that ends at site i *)
Definition Hl_end i := Hl ((w * L + i.+1 - w) %% L)%N.
Lemma lH_totE : lH_tot L q A w Hl = \sum_(i < L) toright i.+1 (Hl_end i).
Proof.
rewrite /lH_tot.
have -> : Hl ((w * L + L - w) %% L)%N = toright L.-1.+1 (Hl_end L.-1) by rewrite /Hl_end prednK // toright_end.
have ww : (w <= w * L)%N by rewrite leq_pmulr.
have gen n a : (n <= L.-1)%N ->
    foldl (fun acc k => acc + toright ((k + w) %% L) (Hl k)) a [seq ((w * L + L.+1 - w + i) %% L)%N | i <- iota 0 n] =
    a + \sum_(i < n) toright i.+1 (Hl_end i).
  elim: n => [|n IH] nL; first by rewrite big_ord0 addr0.
  have -> : iota 0 n.+1 = iota 0 n ++ [:: n] by rewrite -[n.+1]addn1 iotaD.
  rewrite map_cat foldl_cat IH; last by lia.
  rewrite big_ord_recr /= addrA; congr (_ + _).
  have -> : ((w * L + L.+1 - w + n) %% L = (w * L + n.+1 - w) %% L)%N.
    by rewrite -(modnDr (w * L + n.+1 - w)); congr (_ %% _)%N; lia.
  rewrite modnDml subnK; last by lia.
  by rewrite modnMDl modn_small //; lia.
rewrite gen // addrC -(big_mkord xpredT (fun i => toright i.+1 (Hl_end i))).
rewrite -(big_mkord xpredT (fun i => toright i.+1 (Hl_end i))).
by rewrite -(big_nat_recr L.-1 0 (fun i => toright i.+1 (Hl_end i))) // prednK.
Qed.
Lemma hl_totE : hl_tot L q A r w Hl = \sum_(i < L) \tr (Hl_end i *m Rd i).
Proof.
by rewrite /hl_tot adot_noconjE lH_totE mulmx_suml tr_sum; apply: eq_bigr => i _; rewrite toright_tr.
Qed.

Hypothesis nrm : \tr (Ld L.-1 *m Rd L.-1) = 1.
Hypothesis hR : herm (Rd L.-1).
Variable KL0 : 'M[C]_D.
Hypothesis sol : solves_l L q A l r w Hl KL0.
Lemma KL0_tr : \tr (KL0 *m Rd L.-1) = 0.
Proof.
have := congr1 (fun X => \tr (X *m Rd L.-1)) sol.
rewrite /lHQ !mulmxBl -!scalemxAl !raddfB /= !mxtraceZ nrm cell_tr !mulr1 -(adot_noconjE (lH_tot L q A w Hl)) -/(hl_tot L q A r w Hl) subrr.
by rewrite opprK addrA subrr add0r adotE (_ : (Rd L.-1)^† = Rd L.-1) // mxtrace_mulC.
Qed.
(* the equation of the whole cell, with the energy of the terms subtracted *)
Lemma KL0_cell : KL0 = cellL L q A A KL0 + \sum_(i < L) toright i.+1 (Hl_end i) - (\sum_(i < L) \tr (Hl_end i *m Rd i)) *: Ld L.-1.
Proof.
move/eqP: sol; rewrite /lHQ adotE (_ : (Rd L.-1)^† = Rd L.-1) // mxtrace_mulC KL0_tr scale0r subr0 subr_eq => /eqP {1}->.
by rewrite addrC addrA lH_totE hl_totE.
Qed.

(* the left environments of all bonds *)
Definition left_env (F : nat -> 'M[C]_D) := forall k, (k < L)%N ->
  F k = eps_l_noop q (F (prv k)) (A k) (A k) + Hl_end k - \tr (Hl_end k *m Rd k) *: Ld k.
(* the loop as it would be with self.K_left[k - 1] on its right *)
Fixpoint KLfix k := if k is k'.+1 then
    eps_l_noop q (KLfix k') (A k') (A k') + Hl_end k' - \tr (Hl_end k' *m Rd k') *: Ld k' else KL0.
Lemma KLfix_cell n : (n <= L)%N -> toright n (KLfix n) =
  cellL L q A A KL0 + \sum_(i < n) toright i.+1 (Hl_end i) - (\sum_(i < n) \tr (Hl_end i *m Rd i)) *: Ld L.-1.
Proof.
elim: n => [|n IH] nL; first by rewrite toright_cell !big_ord0 addr0 scale0r subr0.
rewrite /= -scaleNr !torightD ?torightZ // toright_l // -torightS // IH; last by lia.
rewrite !big_ord_recr /= scalerDl scaleNr opprD !addrA; congr (_ - _).
by rewrite addrAC.
Qed.
Lemma KLfix_last : KLfix L = KL0.
Proof. by have := KLfix_cell (leqnn L); rewrite toright_end -KL0_cell. Qed.
Lemma left_env_fix : left_env (fun k => KLfix k.+1).
Proof.
move=> k kL; rewrite -[LHS]/(eps_l_noop q (KLfix k) (A k) (A k) + Hl_end k - \tr (Hl_end k *m Rd k) *: Ld k).
case: k kL => [|k] kL; last by rewrite prvS.
by rewrite prv0 // prednK // KLfix_last.
Qed.
Lemma left_env_uniq F : left_env F -> F L.-1 = KL0 -> forall k, (k < L)%N -> F k = KLfix k.+1.
Proof.
move=> hF e; elim=> [|k IH] kL; rewrite hF //; first by rewrite prv0 // e.
by rewrite prvS // IH //; lia.
Qed.
Lemma left_env_tr F : left_env F -> F L.-1 = KL0 -> forall k, (k < L)%N -> \tr (F k *m Rd k) = 0.
Proof.
have nall k : (k < L)%N -> \tr (Ld k *m Rd k) = 1 by move=> kL; rewrite -toright_tr // toright_l.
move=> hF e; elim=> [|k IH] kL; rewrite hF // mulmxBl mulmxDl -scalemxAl !raddfB !raddfD /= mxtraceZ nall // mulr1 addrK tr_eps.
  by have [_ <-] := hc kL; rewrite prv0 // e KL0_tr.
by have [_ <-] := hc kL; rewrite prvS // IH //; lia.
Qed.

(* what calc_K_l leaves behind *)
Variables (K KLi : nat -> 'M[C]_D).
Local Notation KL := (ucalc_K_l L q A l r w Hl K KLi KL0).
Lemma KL_last : KL L.-1 = KL0.
Proof.
rewrite /ucalc_K_l.
have gen ks (F : nat -> 'M[C]_D) : all (fun k => k != L.-1) ks -> foldl (uKl_step L q A l r w Hl K) F ks L.-1 = F L.-1.
  elim: ks F => //= k ks IH F /andP[k1 /IH ->]; rewrite /uKl_step /setv; case: eqP => // e; by rewrite e eqxx in k1.
by rewrite gen /setv ?eqxx //; apply/allP => k; rewrite mem_iota; lia.
Qed.
Lemma KL_loop k : (k < L.-1)%N ->
  KL k = eps_l_noop q (K (prv k)) (A k) (A k) + Hl_end k - \tr (Hl_end k *m Rd k) *: Ld k.
Proof.
move=> kL; rewrite /ucalc_K_l.
have gen n (F : nat -> 'M[C]_D) j : foldl (uKl_step L q A l r w Hl K) F (iota 0 n) j =
    if (j < n)%N then eps_l_noop q (K (prv j)) (A j) (A j) + Hl_end j - \tr (Hl_end j *m Rd j) *: Ld j else F j.
  elim: n j => [|n IH] j //.
  have -> : iota 0 n.+1 = iota 0 n ++ [:: n] by rewrite -[n.+1]addn1 iotaD.
  rewrite foldl_cat /= {1}/uKl_step /setv -/(Hl_end n) adot_noconjE; case: (altP (j =P n)) => [->|ne].
    by rewrite ltnSn.
  by rewrite IH ltnS [in RHS]leq_eqVlt (negPf ne).
by rewrite gen kL.
Qed.
End Left.

Lemma sum_shift (V : zmodType) L c (f : nat -> V) : (0 < L)%N -> \sum_(i < L) f ((i + c) %% L)%N = \sum_(i < L) f i.
Proof.
move=> L0; elim: c f => [|c IH] f.
  by apply: eq_bigr => i _; rewrite addn0 modn_small.
rewrite -[RHS](IH f); case: L L0 IH => // n _ IH.
transitivity (\sum_(i < n.+1) f ((i.+1 %% n.+1 + c) %% n.+1)%N).
  by apply: eq_bigr => i _; rewrite modnDml addSnnS.
rewrite big_ord_recr [RHS]big_ord_recl /= modnn addrC; congr (_ + _).
by apply: eq_bigr => i _; rewrite /= modnDml.
Qed.

Section WinL.
Variables (C : numClosedFieldType) (L q D : nat) (A : nat -> nat -> 'M[C]_D) (l r : nat -> smat C D D).
Local Notation Ld k := (toarray (l k)).
Local Notation Rd k := (toarray (r k)).
Hypotheses (L0 : (0 < L)%N) (hc : consistent L q A (fun k => Ld k) (fun k => Rd k)).
Hypothesis hl : forall k, (k < L)%N -> herm (Ld k).
Local Notation prv := (prv L). Local Notation nxt := (nxt L).
Local Notation qq := (fun _ : nat => q).
Variable k0 : nat.
Local Notation wA := (wA L A k0).
Local Notation wl := (wl L (fun k => Ld k) k0).
Local Notation wr := (wr L (fun k => Rd k) k0).
Local Notation at_ n := ((k0 + n) %% L)%N.
Lemma uHl2w (h : op2s C) j X : \tr (uHl2 L q A l (uC2 L q A h) (at_ j) *m X) =
  \tr (wl j *m @winmat C (fun _ => D) qq wA wA j 2 j.+2 (O2 (fun _ => Some h) j) X).
Proof.
rewrite (@winmat2 C (fun _ => D)) /uHl2 eps_l_op_2s_AA12_C34E mulmx_suml mulmx_sumr !tr_sum; apply: eq_bigr => s _.
rewrite mulmx_suml mulmx_sumr !tr_sum; apply: eq_bigr => t _.
by rewrite Ce2 // wAA /C2e !mulmxA [RHS]mxtrace_mulC !mulmxA.
Qed.
Lemma uHl3w (h : op3s C) j X : \tr (uHl3 L q A l (uC3 L q A h) (at_ j) *m X) =
  \tr (wl j *m @winmat C (fun _ => D) qq wA wA j 3 j.+3 (O3 (fun _ => Some h) j) X).
Proof.
rewrite (@winmat3 C (fun _ => D)) /uHl3 eps_l_op_3s_AAA123_C456E mulmx_suml mulmx_sumr !tr_sum; apply: eq_bigr => s _.
rewrite mulmx_suml mulmx_sumr !tr_sum; apply: eq_bigr => t _.
rewrite mulmx_suml mulmx_sumr !tr_sum; apply: eq_bigr => z _.
by rewrite Ce3 // wAA nxt2_at // /C3e !mulmxA [RHS]mxtrace_mulC !mulmxA.
Qed.
Lemma uHltpE tp k : uHltp L q A l (uCtp L q A tp) k = uHl2 L q A l (uC2 L q A (op_of_tp tp)) k.
Proof. by rewrite /uHltp /uCtp eps_l_op_2s_C34_tpE /uHl2 /uC2 eps_l_op_2s_AA12_C34_op. Qed.

Section F.
Variables (F Hl : nat -> 'M[C]_D) (w : nat) (O : nat -> seq nat -> seq nat -> C).
Hypothesis w0 : (0 < w)%N.
Hypothesis HlO : forall j X, \tr (Hl (at_ j) *m X) = \tr (wl j *m @winmat C (fun _ => D) qq wA wA j w (j + w) (O j) X).
Hypothesis hF : left_env L q A l r w Hl F.
Local Notation ev i := (\tr (Hl_end L w Hl i *m Rd i)).
Definition wF n := F (prv (at_ n)).
Lemma Hl_end_at j : Hl_end L w Hl (at_ (j + w.-1)) = Hl (at_ j).
Proof.
rewrite /Hl_end; congr (Hl _); have ww : (w <= w * L)%N by rewrite leq_pmulr.
apply/eqP; rewrite -(eqn_modDr w) subnK; last by lia.
by rewrite modnMDl -addnA -addn1 modnDml; apply/eqP; congr (_ %% _)%N; lia.
Qed.
Lemma wF_S n : wF n.+1 = eps_l_noop q (wF n) (wA n) (wA n) + Hl_end L w Hl (at_ n) - ev (at_ n) *: wl n.+1.
Proof. by rewrite /wF /Uniform.wl prv_at // hF ?ltn_mod. Qed.
Lemma wF_formula N (X : 'M[C]_D) : (w <= N.+1)%N ->
  \tr (wF N *m X) = bdotst qq N (wl 0%N) X (psi wA N) (Hsum qq N w O (psi wA N))
    - (\sum_(j < N.+1 - w) ev (at_ (j + w.-1))) * bdotst qq N (wl 0%N) X (psi wA N) (psi wA N)
    + \tr (wF w.-1 *m @RWb C (fun _ => D) qq N X wA wA w.-1).
Proof.
move=> wN; have hl0 : (wl 0%N)^† = wl 0%N by apply: hl; exact: prv_lt.
pose RW p := @RWb C (fun _ => D) qq N X wA wA p.
have eL j : LWb qq (wl 0%N) wA wA j = wl j := @LWb_up C (fun _ => D) qq j (wl 0%N) wA _ j (wup_l' L0 hc k0 j) (leqnn _).
have st n : (n < N)%N -> \tr (wF n.+1 *m RW n.+1) = \tr (wF n *m RW n)
   + (\tr (Hl_end L w Hl (at_ n) *m RW n.+1) - ev (at_ n) * bdotst qq N (wl 0%N) X (psi wA N) (psi wA N)).
  move=> nN; rewrite wF_S mulmxBl mulmxDl -scalemxAl raddfB raddfD /= mxtraceZ.
  have eR : RW n = eps_r_noop q (RW n.+1) (wA n) (wA n) := @RWbS C (fun _ => D) qq N X wA wA n nN.
  rewrite [X in X + _ - _]tr_eps -[eps_r_noop _ _ _ _]eR.
  by rewrite (@bdotst_cut2 _ (fun _ => D) _ _ _ _ _ _ _ nN) hl0 eL addrA.
have gen m : (m <= N.+1 - w)%N -> \tr (wF (m + w.-1) *m RW (m + w.-1)%N) = \tr (wF w.-1 *m RW w.-1)
    + \sum_(j < m) (bdotst qq N (wl 0%N) X (psi wA N) (opwin qq j w (O j) (psi wA N))
                    - ev (at_ (j + w.-1)) * bdotst qq N (wl 0%N) X (psi wA N) (psi wA N)).
  elim: m => [|m IH] hm; first by rewrite big_ord0 addr0.
  rewrite addSn st; last by lia.
  rewrite IH; last by lia.
  rewrite big_ord_recr /= [RHS]addrA Hl_end_at; congr (_ + (_ - _)).
  have e1 : ((m + w.-1).+1 = m + w)%N by lia.
  have e2 : (m + w <= N)%N by lia.
  by rewrite e1 HlO (@bdotst_win2 _ (fun _ => D) _ _ _ _ _ _ _ _ _ _ erefl e2) hl0 eL.
have := gen _ (leqnn _); rewrite (_ : N.+1 - w + w.-1 = N)%N; last by lia.
rewrite {1}/RW RWbN => ->; rewrite addrC sumrB -mulr_suml; congr (_ - _ + _).
rewrite bdotst_Hsum (@big_cat_nat _ _ _ (N.+1 - w) 0 N) ?leq_subr //; last by lia.
rewrite [X in _ = _ + X]big_nat_cond [X in _ = _ + X]big1 ?addr0; last by move=> j; lia.
rewrite -(big_mkord xpredT (fun j => bdotst qq N (wl 0%N) X (psi wA N) (opwin qq j w (O j) (psi wA N)))).
by rewrite [RHS]big_nat_cond [LHS]big_nat_cond; apply: eq_big => j //; lia.
Qed.
Lemma RWb_shift N (X : 'M[C]_D) p : (p <= N)%N -> @RWb C (fun _ => D) qq N X wA wA p =
  @RWb C (fun _ => D) qq (N - p) X (Uniform.wA L A (k0 + p)) (Uniform.wA L A (k0 + p)) 0.
Proof.
move=> pN.
have gen n j : (N - j = n)%N -> (p <= j <= N)%N -> @RWb C (fun _ => D) qq N X wA wA j =
   @RWb C (fun _ => D) qq (N - p) X (Uniform.wA L A (k0 + p)) (Uniform.wA L A (k0 + p)) (j - p).
  elim: n j => [|n IH] j en hj.
    have -> : j = N by lia.
    by rewrite !RWbN.
  have jN : (j < N)%N by lia.
  have jN' : (j - p < N - p)%N by lia.
  rewrite (@RWbS C (fun _ => D) _ _ _ _ _ _ jN) (@RWbS C (fun _ => D) _ _ _ _ _ _ jN').
  have ej : ((j - p).+1 = j.+1 - p)%N by lia.
  rewrite ej -IH; [|lia|lia].
  have -> : Uniform.wA L A (k0 + p)%N (j - p)%N = wA j; last by [].
  by rewrite /Uniform.wA -addnA subnKC //; lia.
by have := gen (N - p)%N p erefl; rewrite subnn leqnn; exact.
Qed.
Lemma wF_bdot N (X : 'M[C]_D) p : (p <= N)%N -> \tr (wF p *m @RWb C (fun _ => D) qq N X wA wA p) =
  bdotst qq (N - p) (wF p)^† X (psi (Uniform.wA L A (k0 + p)) (N - p)) (psi (Uniform.wA L A (k0 + p)) (N - p)).
Proof.
by move=> pN; rewrite (@bdotst_cut2 _ (fun _ => D) _ _ _ _ _ _ _ (leq0n _)) adjK LWb0 RWb_shift.
Qed.
End F.
End WinL.

Section EnergyL.
Variables (C : numClosedFieldType) (L q D : nat) (A : nat -> nat -> 'M[C]_D) (l r : nat -> smat C D D).
Local Notation Ld k := (toarray (l k)).
Local Notation Rd k := (toarray (r k)).
Hypothesis (L0 : (0 < L)%N).
Hypothesis hl : forall k, (k < L)%N -> herm (Ld k).
Local Notation prv := (prv L). Local Notation nxt := (nxt L).
Lemma el2 (h : op2s C) k : (k < L)%N ->
  \tr (uHl2 L q A l (uC2 L q A h) k *m Rd (nxt k)) = adot (Ld (prv k)) (uHr2 L q A r (uC2 L q A h) k).
Proof.
move=> kL; have e : ((k + 0) %% L)%N = k by rewrite addn0 modn_small.
have h2 := uHr2w q A r L0 k h 0; rewrite e in h2; rewrite h2 adotE (hl (prv_lt L0 _)).
have h1 := @uHl2w C L q D A l k h 0 (Uniform.wr L (fun k => Rd k) k 2); rewrite e /Uniform.wl e in h1.
by rewrite -h1 /Uniform.wr prv_at // /UTdvp.nxt addn1.
Qed.
Lemma el3 (h : op3s C) k : (k < L)%N ->
  \tr (uHl3 L q A l (uC3 L q A h) k *m Rd (k.+2 %% L)%N) = adot (Ld (prv k)) (uHr3 L q A r (uC3 L q A h) k).
Proof.
move=> kL; have e : ((k + 0) %% L)%N = k by rewrite addn0 modn_small.
have h2 := uHr3w q A r L0 k h 0; rewrite e in h2; rewrite h2 adotE (hl (prv_lt L0 _)).
have h1 := @uHl3w C L q D A l k h 0 (Uniform.wr L (fun k => Rd k) k 3); rewrite e /Uniform.wl e in h1.
by rewrite -h1 /Uniform.wr prv_at // /UTdvp.nxt addn2.
Qed.
Lemma idx_lt w i : ((w * L + i.+1 - w) %% L < L)%N. Proof. by rewrite ltn_mod. Qed.
Lemma end2 (h : op2s C) i : (i < L)%N -> \tr (Hl_end L 2 (uHl2 L q A l (uC2 L q A h)) i *m Rd i) =
  adot (Ld (prv ((i + (2 * L - 1)) %% L)%N)) (uHr2 L q A r (uC2 L q A h) ((i + (2 * L - 1)) %% L)%N).
Proof.
move=> iL; have e : ((i + (2 * L - 1)) %% L = (2 * L + i.+1 - 2) %% L)%N by congr (_ %% _)%N; lia.
rewrite e -el2 ?idx_lt // /Hl_end; congr (\tr (_ *m Rd _)).
rewrite /UTdvp.nxt -addn1 modnDml (_ : 2 * L + i.+1 - 2 + 1 = 2 * L + i)%N; last by lia.
by rewrite modnMDl modn_small.
Qed.
Lemma end3 (h : op3s C) i : (i < L)%N -> \tr (Hl_end L 3 (uHl3 L q A l (uC3 L q A h)) i *m Rd i) =
  adot (Ld (prv ((i + (3 * L - 2)) %% L)%N)) (uHr3 L q A r (uC3 L q A h) ((i + (3 * L - 2)) %% L)%N).
Proof.
move=> iL; have e : ((i + (3 * L - 2)) %% L = (3 * L + i.+1 - 3) %% L)%N by congr (_ %% _)%N; lia.
rewrite e -el3 ?idx_lt // /Hl_end; congr (\tr (_ *m Rd _)).
by rewrite -addn2 modnDml (_ : 3 * L + i.+1 - 3 + 2 = 3 * L + i)%N ?modnMDl ?modn_small //; lia.
Qed.
Hypothesis hc : consistent L q A (fun k => Ld k) (fun k => Rd k).
Hypothesis nrm : adot (Ld L.-1) (Rd L.-1) = 1.
Lemma energy_l2 (h : op2s C) : uhl_expect L q A r 2 (uHl2 L q A l (uC2 L q A h)) = uh_expect L q A l (uHr2 L q A r (uC2 L q A h)).
Proof.
rewrite /uhl_expect /uh_expect (hl_totE L0 hc) (h_totE L0 hc); congr (_ / _).
rewrite -(sum_shift (2 * L - 1) (fun k => adot (Ld (prv k)) (uHr2 L q A r (uC2 L q A h) k)) L0).
by apply: eq_bigr => i _; exact: end2.
Qed.
Lemma energy_l3 (h : op3s C) : uhl_expect L q A r 3 (uHl3 L q A l (uC3 L q A h)) = uh_expect L q A l (uHr3 L q A r (uC3 L q A h)).
Proof.
rewrite /uhl_expect /uh_expect (hl_totE L0 hc) (h_totE L0 hc); congr (_ / _).
rewrite -(sum_shift (3 * L - 2) (fun k => adot (Ld (prv k)) (uHr3 L q A r (uC3 L q A h) k)) L0).
by apply: eq_bigr => i _; exact: end3.
Qed.
End EnergyL.
