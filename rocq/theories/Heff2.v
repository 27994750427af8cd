(* Heff2.v -- the two-site effective Hamiltonian of evoMPS/split_step.py: Vari_Opt_Two_Site_Op (147-328). *)
From mathcomp Require Import all_ssreflect all_algebra.
From mathcomp Require Import zify.
From Verif Require Import Base Spec Eps Chain ChainProofs ChainProofs2 LinAlg Struct Tangent Tangent2 Tdvp TdvpProofs TdvpProofs2 TwoSite Heff.
Set Implicit Arguments.
Unset Strict Implicit.
Unset Printing Implicit Defensive.
Import GRing.Theory Num.Theory.
Local Open Scope ring_scope.

Section Defs.
Variables (C : numClosedFieldType) (D q : nat -> nat) (N : nat) (A : tensors C D).
Variables (h2 : nat -> op2s C) (h3 : nat -> op3s C).
Definition ten2 j := nat -> nat -> 'M[C]_(D j, D j.+2).

(* apply_ham_local, ham_sites == 2 (split_step.py:199-237), sites n = j+1 and n+1.
   term n-1,n: tmp[s_out,s_in] = eps_l_op_1s(1, A[n-1], A[n-1], ham[n-1][:,s_out,:,s_in]).T.conj() *)
Definition left2_2 j : ten2 j -> ten2 j :=
  match j return ten2 j -> ten2 j with
  | 0%N => fun _ _ _ => 0
  | j'.+1 => fun T s t => \sum_(s' < q j'.+1)
      (eps_l_op_1s (q j') (1%:M : 'M[C]_(D j')) (A j') (A j') (fun a b => h2 j' a s b s'))^† *m T s' t
  end.
Definition right2_2 j (T : ten2 j) : ten2 j := fun s t =>
  if (j.+2 < N)%N then \sum_(t' < q j.+1)
      T s t' *m eps_r_op_1s (q j.+2) (1%:M : 'M[C]_(D j.+3)) (A j.+2) (A j.+2) (fun a b => h2 j.+1 t a t' b)
  else 0.
(* the disconnected parts (split_step.py:291-301); KL = KL[n-1], KR = KR[n+2] *)
Definition K2 j (KL : option 'M[C]_(D j)) (KR : option 'M[C]_(D j.+2)) (T : ten2 j) : ten2 j := fun s t =>
  (if KL is Some K then K *m T s t else 0) + (if KR is Some K then T s t *m K else 0).
Definition heff2_2 j KL KR (T : ten2 j) : ten2 j := fun s t =>
  left2_2 T s t + calc_C_mat_op_AA (q j) (q j.+1) (h2 j) T s t + right2_2 T s t + K2 KL KR T s t.

(* apply_ham_local, ham_sites == 3 (split_step.py:239-289) *)
Definition left2_3a j : ten2 j -> ten2 j :=  (* term n-2,n-1,n *)
  match j return ten2 j -> ten2 j with
  | j'.+2 => fun T s t => \sum_(s' < q j'.+2)
      eps_l_op_2s_AA12_C34 (q j') (q j'.+1) (1%:M : 'M[C]_(D j')) (calc_AAs A j')
        (calc_C_mat_op_AA (q j') (q j'.+1) (fun a b c d => h3 j' a b s c d s') (calc_AAs A j')) *m T s' t
  | _ => fun _ _ _ => 0
  end.
Definition left2_3b j : ten2 j -> ten2 j :=  (* term n-1,n,n+1, without the .T.conj() *)
  match j return ten2 j -> ten2 j with
  | j'.+1 => fun T s t => \sum_(s' < q j'.+1) \sum_(t' < q j'.+2)
      eps_l_op_1s (q j') (1%:M : 'M[C]_(D j')) (A j') (A j') (fun a b => h3 j' a s t b s' t') *m T s' t'
  | _ => fun _ _ _ => 0
  end.
Definition right2_3a j (T : ten2 j) : ten2 j := fun s t =>  (* term n,n+1,n+2 *)
  if (j.+2 < N)%N then \sum_(s' < q j) \sum_(t' < q j.+1)
      T s' t' *m eps_r_op_1s (q j.+2) (1%:M : 'M[C]_(D j.+3)) (A j.+2) (A j.+2) (fun a b => h3 j s t a s' t' b)
  else 0.
Definition right2_3b j (T : ten2 j) : ten2 j := fun s t =>  (* term n+1,n+2,n+3: eps_r_op_2s_AA12_C34(r, AA, C) *)
  if (j.+3 < N)%N then \sum_(t' < q j.+1)
      T s t' *m eps_r_op_2s_C12_AA34 (q j.+2) (q j.+3) (1%:M : 'M[C]_(D j.+4)) (calc_AAs A j.+2)
        (calc_C_mat_op_AA (q j.+2) (q j.+3) (fun a b c d => h3 j.+1 t a b t' c d) (calc_AAs A j.+2))
  else 0.
Definition heff2_3 j KL KR (T : ten2 j) : ten2 j := fun s t =>
  left2_3a T s t + left2_3b T s t + right2_3a T s t + right2_3b T s t + K2 KL KR T s t.
End Defs.

Definition tdot2 (C : numClosedFieldType) (D q : nat -> nat) j (T X : nat -> nat -> 'M[C]_(D j, D j.+2)) : C :=
  \sum_(s < q j) \sum_(t < q j.+1) \tr ((T s t)^† *m X s t).

(* sums of window operators and their adjoints *)
Section Adj.
Variables (C : numClosedFieldType) (q : nat -> nat) (N a b w : nat) (O : nat -> seq nat -> seq nat -> C).
Implicit Types u v : seq nat -> 'M[C]_(a, b).
Lemma Hsum_adj u v :
  dotst q N u (Hsum q N w O v) = dotst q N (Hsum q N w (fun i c d => (O i d c)^*) u) v.
Proof.
rewrite dotst_sumr dotst_suml big_nat_cond [RHS]big_nat_cond; apply: eq_bigr => i /andP[_ h].
exact: dotst_opwin.
Qed.
Lemma Hsum_herm u v : (forall i c d, O i c d = (O i d c)^*) ->
  dotst q N u (Hsum q N w O v) = (dotst q N v (Hsum q N w O u))^*.
Proof.
move=> h; rewrite Hsum_adj dotstC; congr (_^*).
apply: eq_dotst => // c _; rewrite /Hsum; apply: eq_bigr => i _; rewrite /opwin; apply: eq_bigr => d _.
by rewrite -h.
Qed.
End Adj.

Section Bilinear.
Variables (C : numClosedFieldType) (D q : nat -> nat) (N : nat) (A : tensors C D) (h2 : nat -> op2s C) (j : nat).
Local Notation t2 := (nat -> nat -> 'M[C]_(D j, D j.+2)).
Lemma tdot2_suml (I : finType) (T : I -> t2) (X : t2) :
  tdot2 q (fun s t => \sum_i T i s t) X = \sum_i tdot2 q (T i) X.
Proof.
rewrite /tdot2 [RHS]exchange_big; apply: eq_bigr => s _; rewrite [RHS]exchange_big; apply: eq_bigr => t _.
by rewrite adj_sum mulmx_suml tr_sum.
Qed.
Lemma tdot2_sumr (I : finType) (T : t2) (X : I -> t2) :
  tdot2 q T (fun s t => \sum_i X i s t) = \sum_i tdot2 q T (X i).
Proof.
rewrite /tdot2 [RHS]exchange_big; apply: eq_bigr => s _; rewrite [RHS]exchange_big; apply: eq_bigr => t _.
by rewrite mulmx_sumr tr_sum.
Qed.
Lemma tdot2D (T X Y : t2) : tdot2 q T (fun s t => X s t + Y s t) = tdot2 q T X + tdot2 q T Y.
Proof.
rewrite /tdot2 -big_split; apply: eq_bigr => s _; rewrite -big_split; apply: eq_bigr => t _.
by rewrite mulmxDr mxtraceD.
Qed.
Lemma eq_tdot2 (T T' X X' : t2) : (forall s t, (s < q j)%N -> (t < q j.+1)%N -> T s t = T' s t) ->
  (forall s t, (s < q j)%N -> (t < q j.+1)%N -> X s t = X' s t) -> tdot2 q T X = tdot2 q T' X'.
Proof. by move=> h h'; apply: eq_bigr => s _; apply: eq_bigr => t _; rewrite h ?h'. Qed.
Lemma eq_heff2_2 KL KR (X Y : t2) s t : (forall s t, (s < q j)%N -> (t < q j.+1)%N -> X s t = Y s t) ->
  (s < q j)%N -> (t < q j.+1)%N -> heff2_2 q N A h2 KL KR X s t = heff2_2 q N A h2 KL KR Y s t.
Proof.
move=> h sq tq; rewrite /heff2_2 /K2 h //; congr (_ + _ + _ + _).
- by move: X Y h sq tq; case: (j) => [|j'] X Y h sq tq //=; apply: eq_bigr => s' _; rewrite h.
- by rewrite !calc_C_mat_op_AAE //; apply: eq_bigr => u _; apply: eq_bigr => v _; rewrite h.
- by rewrite /right2_2; case: ifP => // _; apply: eq_bigr => t' _; rewrite h.
Qed.
Lemma heff2_2_sum KL KR (I : finType) (X : I -> t2) s t : (t < q j.+1)%N ->
  heff2_2 q N A h2 KL KR (fun s t => \sum_i X i s t) s t = \sum_i heff2_2 q N A h2 KL KR (X i) s t.
Proof.
move=> tq; rewrite /heff2_2 !big_split /=; congr (_ + _ + _ + _).
- move: X; case: (j) => [|j'] X /=; first by rewrite big1.
  by rewrite exchange_big; apply: eq_bigr => s' _; rewrite mulmx_sumr.
- rewrite calc_C_mat_op_AAE //.
  under [in RHS]eq_bigr => i _ do rewrite calc_C_mat_op_AAE //.
  rewrite [RHS]exchange_big; apply: eq_bigr => u _; rewrite [RHS]exchange_big; apply: eq_bigr => v _.
  by rewrite scaler_sumr.
- rewrite /right2_2; case: ifP => _; last by rewrite big1.
  by rewrite exchange_big; apply: eq_bigr => s' _; rewrite mulmx_suml.
- rewrite /K2; congr (_ + _).
    by case: KL => [k|]; rewrite ?mulmx_sumr // big1.
  by case: KR => [k|]; rewrite ?mulmx_suml // big1.
Qed.
End Bilinear.

Section Proj.
Variables (C : numClosedFieldType) (D q : nat -> nat) (N : nat) (A : tensors C D) (h2 : nat -> op2s C).
Local Notation ham := (fun j => Some (h2 j)).
Variables (j : nat) (jN : (j.+1 < N)%N).
(* left-canonical before j, right-canonical after j+1 *)
Definition central2 := (forall i, (i < j)%N -> eps_l_noop (q i) 1%:M (A i) (A i) = 1%:M) /\
  (forall i, (j.+1 < i < N)%N -> eps_r_noop (q i) 1%:M (A i) (A i) = 1%:M).
Hypothesis cg : central2.
Variables (KL KR : forall n, option 'M[C]_(D n)).
Hypotheses (KRN : KR N = None) (KRs : forall i, (j.+1 < i < N)%N -> KR i = upd_right2 q N A h2 (KR i.+1)).
Hypotheses (KL0 : KL 0 = None) (KLs : forall i, (i < j)%N -> KL i.+1 = upd_left2 q A h2 (KL i)).
Let K i : 'M[C]_(D i) := odflt 0 (KR i).
Let KLv i : 'M[C]_(D i) := odflt 0 (KL i).

Section Pair.
Variables (P P' : nat -> 'M[C]_(D j, D j.+1)) (Q Q' : nat -> 'M[C]_(D j.+1, D j.+2)).
Local Notation B := (rep2 A P Q).
Local Notation B' := (rep2 A P' Q').
Lemma LW2_1 i : (i <= j)%N -> LW q B' B i = 1%:M.
Proof.
elim: i => [|i IH] ij; first exact: LW0.
by rewrite LWS IH ?(ltnW ij) // !rep2_o ?cg.1 //; lia.
Qed.
Lemma RW2_1 i : (j.+1 < i <= N)%N -> RW q N B' B i = 1%:M.
Proof.
move: {2}(N - i)%N (leqnn (N - i)%N) => k; elim: k i => [|k IH] i ki /andP[ji iN].
  by have e : i = N by [lia]; subst i; rewrite RWN.
case: (ltnP i N) => h; last by have e : i = N by [lia]; subst i; rewrite RWN.
rewrite RWS // IH; [|lia|lia].
by rewrite !rep2_o ?cg.2 //; lia.
Qed.
Lemma winmat_o i p (Y : 'M[C]_(D p)) : (i + 2 <= j)%N || (j.+1 < i)%N ->
  winmat q B' B i 2 (O2 ham i) Y = winmat q A A i 2 (O2 ham i) Y.
Proof.
move=> hi; rewrite /winmat; apply: eq_big_seq => c hc; apply: eq_big_seq => d hd.
have sc := size_cfgs hc; have sd := size_cfgs hd.
by congr (_ *: (_ *m _ *m _^†)); apply: eq_amp => n s h1; rewrite ?sc ?sd => h2'; rewrite rep2_o //; lia.
Qed.
Let PQ s t := P s *m Q t.
Let PQ' s t := P' s *m Q' t.
Lemma RWj : RW q N B' B j = \sum_(s < q j) \sum_(t < q j.+1) PQ s t *m (PQ' s t)^†.
Proof.
rewrite RWS; last exact: ltnW.
rewrite RWS // rep2_1 rep2_2 rep2_1 rep2_2 RW2_1 ?leqnn //= /eps_r_noop; apply: eq_bigr => s _.
rewrite mulmx_sumr mulmx_suml; apply: eq_bigr => t _.
by rewrite /PQ /PQ' adjM mulmx1 !mulmxA.
Qed.
Lemma LWj2 : LW q B' B j.+2 = \sum_(s < q j) \sum_(t < q j.+1) (PQ' s t)^† *m PQ s t.
Proof.
rewrite !LWS !rep2_1 !rep2_2 LW2_1 // /eps_l_noop exchange_big; apply: eq_bigr => t _.
rewrite mulmx_suml mulmx_sumr; apply: eq_bigr => s _.
by rewrite /PQ /PQ' adjM mul1mx !mulmxA.
Qed.
Local Notation O := (O2 ham).
Lemma KLj : exists KL', KL_rec q N 2 A (fun n => 1%:M) O KL' /\ ((0 < j)%N -> KL' j = KLv j).
Proof.
have [KL' hKL] := KL_exists q N A (fun n => 1%:M) O (isT : (0 < 2)%N); exists KL'; split=> // j0.
apply: (KL_agree hKL (K := KLv) (m := j)) => //; first exact: (KLrec KLs).
- exact: (KLz KLs).
- by apply: ltnW; apply: ltnW.
- by rewrite j0 /=.
Qed.
Lemma KRj : exists K', K_rec q N 2 A (fun n => 1%:M) O K' /\ ((j.+2 < N)%N -> K' j.+2 = K j.+2).
Proof.
have [K' hK] := K_exists q N A (fun n => 1%:M) O (isT : (0 < 2)%N); exists K'; split=> // j2.
apply: (K_agree hK (K := K) (m := j.+1)) => //; first exact: (KRrec KRs).
- exact: (KRz KRs).
- by rewrite ltnSn.
Qed.
Lemma K2E (k : option 'M[C]_(D j)) (k' : option 'M[C]_(D j.+2)) (T : nat -> nat -> 'M[C]_(D j, D j.+2)) s t :
  K2 k k' T s t = odflt 0 k *m T s t + T s t *m odflt 0 k'.
Proof. by case: k k' => [k|] [k'|] //=; rewrite /K2 ?mul0mx ?mulmx0. Qed.

Lemma twL : \sum_(0 <= i < j.-1 | (i + 2 <= N)%N) dotst q N (psi B' N) (opwin q i 2 (O i) (psi B N)) =
  tdot2 q PQ' (fun s t => odflt 0 (KL j) *m PQ s t).
Proof.
have z0 n : n = 0%N -> KL n = None by move=> ->.
have [KL' [hKL eK]] := KLj.
case: (posnP j) => j0.
  rewrite big_geq; last by lia.
  by rewrite z0 // /tdot2 big1 // => s _; rewrite big1 // => t _; rewrite mul0mx mulmx0 mxtrace0.
have ej : j = j.-1.+1 by lia.
transitivity (\sum_(0 <= i < j.-1.+2 - 2) \tr (Yg q 2 A (fun n => 1%:M) O i (i + 2)%N *m RW q N B' B (i + 2)%N)).
  rewrite big_nat_cond (_ : (j.-1.+2 - 2 = j.-1)%N); last by lia.
  rewrite [RHS]big_nat_cond; apply: eq_big => [i|i /andP[/andP[_ h] _]].
    by rewrite andbT; case: (ltnP i j.-1) => //= h; lia.
  have h2' : (i + 2 <= N)%N by lia.
  rewrite (dotst_win2 _ _ _ _ (erefl (i + 2)%N)) // LW2_1 ?mul1mx ?winmat_o; [|lia|lia].
  rewrite /winmat /Yg mulmx_suml !tr_sum; apply: eq_bigr => c _.
  rewrite mulmx_suml !tr_sum; apply: eq_bigr => d _.
  rewrite -scalemxAl !mxtraceZ mulmx1; congr (_ * _).
  by rewrite mxtrace_mulC !mulmxA.
rewrite -(KL_sum (isT : (1 < 2)%N) (Gam := RW q N B' B) hKL); last 2 first.
- by lia.
- move=> p pj; rewrite RWS; last by lia.
  by rewrite !rep2_o //; lia.
suff H n : n = j -> \tr (KL' n *m RW q N B' B n) = tdot2 q PQ' (fun s t => odflt 0 (KL j) *m PQ s t) by apply: H.
move=> ->; rewrite eK // RWj mulmx_sumr tr_sum; apply: eq_bigr => s _; rewrite mulmx_sumr tr_sum; apply: eq_bigr => t _.
by rewrite mxtrace_mulC -mulmxA mxtrace_mulC -mulmxA mxtrace_mulC.
Qed.
Lemma twR : \sum_(j.+2 <= i < N | (i + 2 <= N)%N) dotst q N (psi B' N) (opwin q i 2 (O i) (psi B N)) =
  tdot2 q PQ' (fun s t => PQ s t *m odflt 0 (KR j.+2)).
Proof.
have zN n : n = N -> KR n = None by move=> ->.
have [K' [hK eK]] := KRj.
case: (ltnP j.+2 N) => j2; last first.
  rewrite big_geq // zN; last by lia.
  by rewrite /tdot2 big1 // => s _; rewrite big1 // => t _; rewrite !mulmx0 mxtrace0.
transitivity (\sum_(j.+2 <= i < N | (i + 2 <= N)%N) \tr (LW q B' B i *m winmat q A A i 2 (O i) (1%:M : 'M[C]_(D (i + 2)%N)))).
  rewrite big_nat_cond [RHS]big_nat_cond; apply: eq_bigr => i /andP[/andP[h h1] h2'].
  rewrite (dotst_win2 _ _ _ _ (erefl (i + 2)%N)) // RW2_1 ?winmat_o //; [by rewrite h orbT | lia].
rewrite -(K_sum (isT : (1 < 2)%N) (Lam := LW q B' B) hK) //; last first.
  by move=> i /andP[ji iN]; rewrite LWS !rep2_o //; lia.
rewrite eK // LWj2 mulmx_suml tr_sum; apply: eq_bigr => s _; rewrite mulmx_suml tr_sum; apply: eq_bigr => t _.
by rewrite mulmxA.
Qed.
Lemma tw_mid : \tr (LW q B' B j *m winmat q B' B j 2 (O j) (RW q N B' B j.+2)) =
  tdot2 q PQ' (calc_C_mat_op_AA (q j) (q j.+1) (h2 j) PQ).
Proof.
rewrite LW2_1 // RW2_1 ?leqnn // mul1mx winmat2 tr_sum; apply: eq_bigr => s _; rewrite tr_sum; apply: eq_bigr => t _.
by rewrite !rep2_1 !rep2_2 calc_C_mat_op_AAE // mulmx1 mxtrace_mulC.
Qed.
Lemma tw_right : (j.+2 < N)%N -> \tr (LW q B' B j.+1 *m winmat q B' B j.+1 2 (O j.+1) (RW q N B' B j.+3)) =
  tdot2 q PQ' (right2_2 q N A h2 PQ).
Proof.
move=> j2; rewrite RW2_1; last by lia.
rewrite winmat2 LWS LW2_1 // !rep2_1 !rep2_2 !rep2_o; try lia.
rewrite mulmx_suml tr_sum; apply: eq_bigr => s _.
rewrite mulmx_sumr tr_sum; apply: eq_bigr => t _; rewrite /right2_2 j2.
transitivity (\tr ((P' s)^† *m (1%:M *m P s) *m ((\sum_(t' < q j.+1) Q t' *m
   eps_r_op_1s (q j.+2) (1%:M : 'M[C]_(D j.+3)) (A j.+2) (A j.+2) (fun a b => h2 j.+1 t a t' b)) *m (Q' t)^†))).
  congr (\tr (_ *m _)); rewrite mulmx_suml.
  under [LHS]eq_bigr => v _ do rewrite mulmx1 !mulmx_suml.
  rewrite exchange_big; apply: eq_bigr => u _; rewrite eps_r_op_1sE mulmx_sumr mulmx_suml; apply: eq_bigr => v _.
  rewrite !mulmx_suml mulmx_sumr mulmx_suml; apply: eq_bigr => w _.
  by rewrite -!scalemxAl -scalemxAr -scalemxAl adjM mulmx1 !mulmxA.
rewrite /PQ' /PQ mul1mx adjM -!mulmxA [RHS]mxtrace_mulC -!mulmxA; congr (\tr (_ *m _)).
by rewrite mulmx_suml mulmx_suml mulmx_sumr; apply: eq_bigr => t' _; rewrite !mulmxA.
Qed.
End Pair.
End Proj.

Section Left.
Variables (C : numClosedFieldType) (D q : nat -> nat) (N : nat) (A : tensors C D) (h2 : nat -> op2s C).
Variables (j : nat) (jN : (j.+2 < N)%N) (cg : central2 q N A j.+1).
Variables (P P' : nat -> 'M[C]_(D j.+1, D j.+2)) (Q Q' : nat -> 'M[C]_(D j.+2, D j.+3)).
Local Notation B := (rep2 A P Q).
Local Notation B' := (rep2 A P' Q').
Lemma tw_left : \tr (LW q B' B j *m winmat q B' B j 2 (O2 (fun i => Some (h2 i)) j) (RW q N B' B j.+2)) =
  tdot2 q (fun s t => P' s *m Q' t) (left2_2 q A h2 (fun s t => P s *m Q t)).
Proof.
pose M s s' := (eps_l_op_1s (q j) (1%:M : 'M[C]_(D j)) (A j) (A j) (fun a b => h2 j a s b s'))^†.
have eM s : \sum_(a < q j) (A j a)^† *m (\sum_(b < q j) \sum_(s' < q j.+1) h2 j a s b s' *: (A j b *m P s')) =
    \sum_(s' < q j.+1) M s s' *m P s'.
  under [LHS]eq_bigr => a _ do rewrite exchange_big /= mulmx_sumr.
  rewrite exchange_big; apply: eq_bigr => s' _; rewrite /M eps_l_op_1sE exchange_big /= adj_sum mulmx_suml.
  apply: eq_bigr => a _ /=; rewrite mulmx_sumr adj_sum mulmx_suml; apply: eq_bigr => b _.
  by rewrite -scalemxAr adjZ conjCK -scalemxAl mul1mx adjM adjK mulmxA.
rewrite (LW2_1 _ cg) // mul1mx winmat2 RWS // (RW2_1 jN cg) ?leqnn // !rep2_1 !rep2_2 !rep2_o; try lia.
rewrite exchange_big tr_sum; apply: eq_bigr => s _.
transitivity (\tr ((\sum_(s' < q j.+1) M s s' *m P s') *m eps_r_noop (q j.+2) 1%:M Q Q' *m (P' s)^†)).
  rewrite -eM !mulmx_suml !tr_sum; apply: eq_bigr => a _; rewrite adjM.
  by rewrite mulmxA mxtrace_mulC !mulmxA.
rewrite /eps_r_noop mulmx_sumr mulmx_suml tr_sum; apply: eq_bigr => t _.
rewrite mulmx1 adjM [RHS]mxtrace_mulC !mulmxA; congr (\tr (_ *m _ *m _)).
by rewrite mulmx_suml; apply: eq_bigr => s' _; rewrite mulmxA.
Qed.
End Left.

Section Proj2.
Variables (C : numClosedFieldType) (D q : nat -> nat) (N : nat) (A : tensors C D) (h2 : nat -> op2s C).
Local Notation ham := (fun j => Some (h2 j)).
Variables (j : nat) (jN : (j.+1 < N)%N).
Hypothesis cg : central2 q N A j.
Variables (KL KR : forall n, option 'M[C]_(D n)).
Hypotheses (KRN : KR N = None) (KRs : forall i, (j.+1 < i < N)%N -> KR i = upd_right2 q N A h2 (KR i.+1)).
Hypotheses (KL0 : KL 0 = None) (KLs : forall i, (i < j)%N -> KL i.+1 = upd_left2 q A h2 (KL i)).

Lemma proj2_pair (P P' : nat -> 'M[C]_(D j, D j.+1)) (Q Q' : nat -> 'M[C]_(D j.+1, D j.+2)) :
  dotst q N (psi (rep2 A P' Q') N) (Ham2 q N ham (psi (rep2 A P Q) N)) =
  tdot2 q (fun s t => P' s *m Q' t) (heff2_2 q N A h2 (KL j) (KR j.+2) (fun s t => P s *m Q t)).
Proof.
rewrite (eq_dotst q (u' := psi (rep2 A P' Q') N) (v' := Hsum q N 2 (O2 ham) (psi (rep2 A P Q) N))) //; last first.
  by move=> c sz; apply: Ham2E.
rewrite dotst_Hsum (@big_cat_nat _ _ _ j.+2) //=.
rewrite (@big_cat_nat _ _ _ j.-1) //=; last by lia.
rewrite (twL jN cg KL0 KLs) (twR jN cg KRN KRs).
rewrite [X in _ + X + _]big_mkcond big_nat_recr /=; last by lia.
rewrite big_nat_recr /=; last by lia.
have eR p : p = j.+3 -> (if (p <= N)%N then dotst q N (psi (rep2 A P' Q') N) (opwin q j.+1 2 (O2 ham j.+1) (psi (rep2 A P Q) N)) else 0)
  = tdot2 q (fun s t => P' s *m Q' t) (right2_2 q N A h2 (fun s t => P s *m Q t)).
  move=> ep; subst p; case: ifP => h.
    by rewrite (dotst_win2 _ _ _ _ (addn2 j.+1)) // (tw_right h2 jN cg).
  by rewrite /right2_2 h /tdot2 big1 // => s _; rewrite big1 // => t _; rewrite mulmx0 mxtrace0.
rewrite eR ?addn2 // jN (dotst_win2 _ _ _ _ (addn2 j)) // (tw_mid h2 jN cg).
have eL : \sum_(j.-1 <= i < j) (if (i + 2 <= N)%N then dotst q N (psi (rep2 A P' Q') N) (opwin q i 2 (O2 ham i) (psi (rep2 A P Q) N)) else 0)
  = tdot2 q (fun s t => P' s *m Q' t) (left2_2 q A h2 (fun s t => P s *m Q t)).
  move: jN cg P P' Q Q' {eR}; case: (j) => [|j'] jN' cg' P1 P1' Q1 Q1'.
    by rewrite big_geq // /tdot2 big1 // => s _; rewrite big1 // => t _; rewrite mulmx0 mxtrace0.
  rewrite big_nat1 addn2 ltnW // (dotst_win2 _ _ _ _ (addn2 j')) ?(tw_left h2 jN' cg') //.
  exact: ltnW.
rewrite eL /heff2_2 tdot2D tdot2D tdot2D.
rewrite (eq_tdot2 (T' := fun s t => P' s *m Q' t) (X := K2 (KL j) (KR j.+2) (fun s t => P s *m Q t))
  (X' := fun s t => odflt 0 (KL j) *m (P s *m Q t) + (P s *m Q t) *m odflt 0 (KR j.+2))) //; last first.
  by move=> s t _ _; rewrite K2E.
by rewrite tdot2D !addrA; congr (_ + _); rewrite [RHS]addrC !addrA.
Qed.

Hypothesis Dp : (0 < D j.+1)%N.
Let I := ('I_(q j) * 'I_(D j))%type.
Definition dP (k : I) (s : nat) : 'M[C]_(D j, D j.+1) := (s == k.1)%:R *: delta_mx k.2 (Ordinal Dp).
Definition dQ (T : nat -> nat -> 'M[C]_(D j, D j.+2)) (k : I) (t : nat) : 'M[C]_(D j.+1, D j.+2) :=
  delta_mx (Ordinal Dp) k.2 *m T k.1 t.
Lemma dPQ T s t : (s < q j)%N -> T s t = \sum_(k : I) dP k s *m dQ T k t.
Proof.
move=> sq; rewrite -(pair_bigA _ (fun a b => dP (a, b) s *m dQ T (a, b) t)) /=.
rewrite (bigD1 (Ordinal sq)) //= [X in _ + X]big1 ?addr0 => [|a ne].
  rewrite -[LHS]mul1mx mx1_sum_delta mulmx_suml; apply: eq_bigr => b _.
  by rewrite /dP /dQ /= eqxx scale1r mulmxA mul_delta_mx.
rewrite big1 // => b _; rewrite /dP /= (_ : (s == a) = false) ?scale0r ?mul0mx //.
by apply/negbTE; move: ne; rewrite -val_eqE /= eq_sym.
Qed.
Lemma dotst_tw T (v : seq nat -> 'M[C]_(D 0%N, D N)) : dotst q N (tw N A T) v = \sum_(k : I) dotst q N (psi (rep2 A (dP k) (dQ T k)) N) v.
Proof.
rewrite -dotst_suml !dotstE; apply: eq_big_seq => c hc; congr (adot _ _).
have sz := size_cfgs hc.
have sq : (nth 0%N c j < q j)%N by move/cfgsP: hc => [_ /(_ j)]; rewrite add0n; apply; lia.
under [RHS]eq_bigr => k _ do rewrite tw_rep2 //.
by rewrite /tw (dPQ T _ sq) mulmx_sumr mulmx_suml.
Qed.
Lemma proj2_2 T X : dotst q N (tw N A T) (Ham2 q N ham (tw N A X)) =
  tdot2 q T (heff2_2 q N A h2 (KL j) (KR j.+2) X).
Proof.
have eH (v : seq nat -> 'M[C]_(D 0%N, D N)) u : dotst q N u (Ham2 q N ham v) = dotst q N u (Hsum q N 2 (O2 ham) v).
  by apply: eq_dotst => // c sz; apply: Ham2E.
transitivity (\sum_(k : I) \sum_(k' : I) tdot2 q (fun s t => dP k s *m dQ T k t)
   (heff2_2 q N A h2 (KL j) (KR j.+2) (fun s t => dP k' s *m dQ X k' t))).
  rewrite dotst_tw; apply: eq_bigr => k _.
  rewrite eH Hsum_adj dotstC dotst_tw rmorph_sum; apply: eq_bigr => k' _.
  by rewrite -dotstC -Hsum_adj -eH proj2_pair.
under eq_bigr => k _ do rewrite -tdot2_sumr.
rewrite -tdot2_suml; apply: eq_tdot2 => s t sq tq; first by rewrite -dPQ.
rewrite -heff2_2_sum //; apply: eq_heff2_2 => // s' t' s'q _; by rewrite -dPQ.
Qed.
End Proj2.
