(* Heff.v -- the effective Hamiltonians of the split-step integrator and DMRG: evoMPS/split_step.py
   Vari_Opt_Single_Site_Op (17-145), Vari_Opt_Two_Site_Op (147-328), Vari_Opt_SC_op (330-434),
   update_Heff_left / update_Heff_right (677-730), and the older versions in evoMPS/tdvp_gen.py
   (25-217), which are the same with t.l, t.r for the identities, t.K for KR.
   Tensors are passed as functions instead of flattened vectors (x.reshape); the MPO parts
   (apply_ham_MPO) are in MPOEff.v.  KL m, KR m belong to bond m: Python's KL[m] and KR[m+1]. *)
From mathcomp Require Import all_ssreflect all_algebra.
From mathcomp Require Import zify.
From Verif Require Import Base Spec Eps Chain ChainProofs ChainProofs2 LinAlg Struct Tangent Tangent2 Tdvp TdvpProofs TdvpProofs2.
Set Implicit Arguments.
Unset Strict Implicit.
Unset Printing Implicit Defensive.
Import GRing.Theory Num.Theory.
Local Open Scope ring_scope.

Section Defs.
Variables (C : numClosedFieldType) (D q : nat -> nat) (N : nat) (A : tensors C D).
Local Notation obonds := (forall n, option 'M[C]_(D n)).
Variables (h2 : nat -> op2s C) (h3 : nat -> op3s C).

(* update_Heff_right(n), n = m+1 (split_step.py:701-730): the new KR[n], None when nothing is assigned;
   KRp is KR[n+1] *)
Definition upd_right2 m (KRp : option 'M[C]_(D m.+1)) : option 'M[C]_(D m) :=
  if (m.+1 < N)%N then
    let AA := calc_AA (A m) (A m.+1) in
    let Cn := calc_C_mat_op_AA (q m) (q m.+1) (h2 m) AA in
    Some (eps_r_noop (q m) (odflt 0 KRp) (A m) (A m) +
          eps_r_op_2s_C12_AA34 (q m) (q m.+1) (1%:M : 'M[C]_(D m.+2)) Cn AA)
  else None.
Definition upd_right3 m (KRp : option 'M[C]_(D m.+1)) : option 'M[C]_(D m) :=
  if (m.+2 < N)%N then
    let AAA := calc_AAA_AA (calc_AAs A m) (A m.+2) in
    let Cn := calc_C_3s_mat_op_AAA (q m) (q m.+1) (q m.+2) (h3 m) AAA in
    Some (eps_r_noop (q m) (odflt 0 KRp) (A m) (A m) +
          eps_r_op_3s_C123_AAA456 (q m) (q m.+1) (q m.+2) (1%:M : 'M[C]_(D m.+3)) Cn AAA)
  else None.
(* update_Heff_left(n), n = m+1 (split_step.py:677-699): the new KL[n] *)
Definition upd_left2 m (KLm : option 'M[C]_(D m)) : option 'M[C]_(D m.+1) :=
  match m return option 'M[C]_(D m) -> option 'M[C]_(D m.+1) with
  | 0%N => fun _ => None
  | m'.+1 => fun KLm =>
    let AA := calc_AA (A m') (A m'.+1) in
    let Cn := calc_C_mat_op_AA (q m') (q m'.+1) (h2 m') AA in
    Some (eps_l_noop (q m'.+1) (odflt 0 KLm) (A m'.+1) (A m'.+1) +
          eps_l_op_2s_AA12_C34 (q m') (q m'.+1) (1%:M : 'M[C]_(D m')) AA Cn)
  end KLm.
Definition upd_left3 m (KLm : option 'M[C]_(D m)) : option 'M[C]_(D m.+1) :=
  match m return option 'M[C]_(D m) -> option 'M[C]_(D m.+1) with
  | m'.+2 => fun KLm =>
    let AAA := calc_AAA_AA (calc_AAs A m') (A m'.+2) in
    let Cn := calc_C_3s_mat_op_AAA (q m') (q m'.+1) (q m'.+2) (h3 m') AAA in
    Some (eps_l_noop (q m'.+2) (odflt 0 KLm) (A m'.+2) (A m'.+2) +
          eps_l_op_3s_AAA123_C456 (q m') (q m'.+1) (q m'.+2) (1%:M : 'M[C]_(D m')) AAA Cn)
  | _ => fun _ => None
  end KLm.

(* Vari_Opt_Single_Site_Op.apply_ham_local (split_step.py:62-118) for site n = m+1, An = X; KL = KL[n-1],
   KR = KR[n+1] *)
Definition K1 m (KL : option 'M[C]_(D m)) (KR : option 'M[C]_(D m.+1)) (X : nat -> 'M[C]_(D m, D m.+1)) s : 'M[C]_(D m, D m.+1) :=
  (if KL is Some K then K *m X s else 0) + (if KR is Some K then X s *m K else 0).
Definition left1_2 m : (nat -> 'M[C]_(D m, D m.+1)) -> nat -> 'M[C]_(D m, D m.+1) :=
  match m return (nat -> 'M[C]_(D m, D m.+1)) -> nat -> 'M[C]_(D m, D m.+1) with
  | 0%N => fun _ _ => 0
  | m'.+1 => fun X t =>
    let Cn := calc_C_mat_op_AA (q m') (q m'.+1) (h2 m') (calc_AA (A m') X) in
    eps_l_noop (q m') (1%:M : 'M[C]_(D m')) (A m') (fun s => Cn s t)
  end.
Definition right1_2 m (X : nat -> 'M[C]_(D m, D m.+1)) s : 'M[C]_(D m, D m.+1) :=
  if (m.+1 < N)%N then
    let Cn := calc_C_mat_op_AA (q m) (q m.+1) (h2 m) (calc_AA X (A m.+1)) in
    eps_r_noop (q m.+1) (1%:M : 'M[C]_(D m.+2)) (Cn s) (A m.+1)
  else 0.
Definition heff1_2 m KL KR (X : nat -> 'M[C]_(D m, D m.+1)) s : 'M[C]_(D m, D m.+1) :=
  left1_2 X s + right1_2 X s + K1 KL KR X s.
Definition left1_3 m : (nat -> 'M[C]_(D m, D m.+1)) -> nat -> 'M[C]_(D m, D m.+1) :=
  match m return (nat -> 'M[C]_(D m, D m.+1)) -> nat -> 'M[C]_(D m, D m.+1) with
  | m'.+2 => fun X z =>
    let Cn := calc_C_3s_mat_op_AAA (q m') (q m'.+1) (q m'.+2) (h3 m') (calc_AAA_AA (calc_AAs A m') X) in
    eps_l_op_2s_AA12_C34 (q m') (q m'.+1) (1%:M : 'M[C]_(D m')) (calc_AAs A m') (fun s t => Cn s t z)
  | _ => fun _ _ => 0
  end.
Definition mid1_3 m : (nat -> 'M[C]_(D m, D m.+1)) -> nat -> 'M[C]_(D m, D m.+1) :=
  match m return (nat -> 'M[C]_(D m, D m.+1)) -> nat -> 'M[C]_(D m, D m.+1) with
  | m'.+1 => fun X t =>
    if (m'.+2 < N)%N then
      let Cn := calc_C_3s_mat_op_AAA (q m') (q m'.+1) (q m'.+2) (h3 m') (calc_AAA_AA (calc_AA (A m') X) (A m'.+2)) in
      \sum_(u < q m') (A m' u)^† *m eps_r_noop (q m'.+2) (1%:M : 'M[C]_(D m'.+3)) (Cn u t) (A m'.+2)
    else 0
  | _ => fun _ _ => 0
  end.
Definition right1_3 m (X : nat -> 'M[C]_(D m, D m.+1)) s : 'M[C]_(D m, D m.+1) :=
  if (m.+2 < N)%N then
    let Cn := calc_C_3s_mat_op_AAA (q m) (q m.+1) (q m.+2) (h3 m) (calc_AAA_AA (calc_AA X (A m.+1)) (A m.+2)) in
    eps_r_op_2s_C12_AA34 (q m.+1) (q m.+2) (1%:M : 'M[C]_(D m.+3)) (Cn s) (calc_AAs A m.+1)
  else 0.
Definition heff1_3 m KL KR (X : nat -> 'M[C]_(D m, D m.+1)) s : 'M[C]_(D m, D m.+1) :=
  left1_3 X s + mid1_3 X s + right1_3 X s + K1 KL KR X s.

(* Vari_Opt_SC_op.apply_ham_local (split_step.py:376-414) for the bond between sites m+1 and m+2
   (Python n = m+1), square G; KL = KL[n], KR = KR[n+1] *)
Definition GA m (G : 'M[C]_(D m.+1)) t : 'M[C]_(D m.+1, D m.+2) := G *m A m.+1 t.
Definition Ksc m (KL KR : option 'M[C]_(D m.+1)) (G : 'M[C]_(D m.+1)) : 'M[C]_(D m.+1) :=
  (if KL is Some K then K *m G else 0) + (if KR is Some K then G *m K else 0).
Definition heffG_2 m KL KR (G : 'M[C]_(D m.+1)) : 'M[C]_(D m.+1) :=
  let Cn := calc_C_mat_op_AA (q m) (q m.+1) (h2 m) (calc_AA (A m) (GA G)) in
  Ksc KL KR G + \sum_(s < q m) (A m s)^† *m eps_r_noop (q m.+1) (1%:M : 'M[C]_(D m.+2)) (Cn s) (A m.+1).
Definition scleft m : 'M[C]_(D m.+1) -> 'M[C]_(D m.+1) :=
  match m return 'M[C]_(D m.+1) -> 'M[C]_(D m.+1) with
  | 0%N => fun _ => 0
  | m'.+1 => fun G =>
    let Cn := calc_C_3s_mat_op_AAA (q m') (q m'.+1) (q m'.+2) (h3 m') (calc_AAA_AA (calc_AAs A m') (GA G)) in
    \sum_(z < q m'.+2) eps_l_op_2s_AA12_C34 (q m') (q m'.+1) (1%:M : 'M[C]_(D m')) (calc_AAs A m') (fun s t => Cn s t z)
      *m (A m'.+2 z)^†
  end.
Definition scright m (G : 'M[C]_(D m.+1)) : 'M[C]_(D m.+1) :=
  if (m.+2 < N)%N then
    let Cn := calc_C_3s_mat_op_AAA (q m) (q m.+1) (q m.+2) (h3 m) (calc_AAA_AAr (A m) (calc_AA (GA G) (A m.+2))) in
    \sum_(s < q m) (A m s)^† *m eps_r_op_2s_C12_AA34 (q m.+1) (q m.+2) (1%:M : 'M[C]_(D m.+3)) (Cn s) (calc_AAs A m.+1)
  else 0.
Definition heffG_3 m KL KR (G : 'M[C]_(D m.+1)) : 'M[C]_(D m.+1) := Ksc KL KR G + scright G + scleft G.
End Defs.

(* ---- environments ------------------------------------------------------------------------------ *)
Section Env.
Variables (C : numClosedFieldType) (D q : nat -> nat) (N w : nat) (A A' : tensors C D).
Local Notation bonds := (forall n, 'M[C]_(D n)).
Variables (O : nat -> seq nat -> seq nat -> C) (r' l' : bonds) (m : nat).

Lemma winmat_eq (B B' : tensors C D) j p (X : 'M[C]_(D p)) : (forall n, (j <= n)%N -> B' n = B n) ->
  winmat q B' B' j w (O j) X = winmat q B B j w (O j) X.
Proof.
move=> e; rewrite /winmat; apply: eq_big_seq => c _; apply: eq_big_seq => d _.
by rewrite !(@eq_amp _ _ B' B) // => n s jn _; rewrite e.
Qed.
Lemma K_agree (K K' : bonds) : K_rec q N w A' r' O K' ->
  (forall j p, (m < j)%N -> (j + w)%N = p -> (p <= N)%N ->
     K j = eps_r_noop (q j) (K j.+1) (A j) (A j) + winmat q A A j w (O j) (1%:M : 'M[C]_(D p))) ->
  (forall j, (m < j < N)%N -> (N < j + w)%N -> K j = 0) -> (1 < w)%N ->
  (forall j, (m < j)%N -> A' j = A j) -> (forall j, (m < j <= N)%N -> r' j = 1%:M) ->
  forall j, (m < j < N)%N -> K' j = K j.
Proof.
move=> [k1 k2] h1 h2 w0 eA er j; move: {2}(N - j)%N (leqnn (N - j)%N) => k; elim: k j => [|k IH] j kj /andP[mj jN].
  by lia.
case: (leqP (j + w) N) => jw; last by rewrite k2 // h2 // mj.
rewrite (k1 j _ erefl) // (h1 j _ mj erefl) // eA //; congr (_ + _).
  by rewrite IH //; lia.
rewrite er; last by lia.
by apply: winmat_eq => n jn; apply: eA; lia.
Qed.
Lemma KL_agree (K K' : bonds) : KL_rec q N w A' l' O K' ->
  (forall j p, (p < m)%N -> (j + w)%N = p.+1 ->
     K p.+1 = eps_l_noop (q p) (K p) (A p) (A p) + Yg q w A (fun n => 1%:M) O j p.+1) ->
  (forall p, (0 < p < w)%N -> (p <= m)%N -> K p = 0) -> (1 < w)%N -> (m <= N)%N ->
  (forall j, (j < m)%N -> A' j = A j) -> (forall j, (j < m)%N -> l' j = 1%:M) ->
  forall j, (0 < j <= m)%N -> K' j = K j.
Proof.
move=> [k1 k2] h1 h2 w0 mN eA el; case=> // j; elim: j => [|j IH] /andP[_ jm].
  by rewrite k2 ?h2 //; lia.
case: (ltnP j.+2 w) => jw; first by rewrite k2 ?h2 //; lia.
have e : ((j.+2 - w) + w)%N = j.+2 by lia.
rewrite (k1 _ _ e) ?(h1 _ _ _ e) //; try lia.
rewrite eA // IH ?(ltnW jm) //; congr (_ + _); rewrite /Yg el; last by lia.
apply: eq_big_seq => c hc; apply: eq_big_seq => d hd.
by rewrite !(@eq_amp _ _ A' A) // => n s jn; rewrite (size_cfgs hc, size_cfgs hd) => h; rewrite eA //; lia.
Qed.
End Env.

Section Glue.
Variables (C : numClosedFieldType) (D q : nat -> nat) (N : nat) (A : tensors C D) (l r : forall n, smat C (D n) (D n)).
Local Notation som h := (fun j => Some (h j)).
Lemma C2E (h2 : nat -> op2s C) (B : tensors C D) j s t : (t < q j.+1)%N ->
  calc_C_mat_op_AA (q j) (q j.+1) (h2 j) (calc_AA (B j) (B j.+1)) s t = C2e q B (som h2) j s t.
Proof. by move=> tq; rewrite calc_C_mat_op_AAE. Qed.
Lemma C3E (h3 : nat -> op3s C) (B : tensors C D) j s t z : (t < q j.+1)%N -> (z < q j.+2)%N ->
  calc_C_3s_mat_op_AAA (q j) (q j.+1) (q j.+2) (h3 j) (calc_AAA_AA (calc_AA (B j) (B j.+1)) (B j.+2)) s t z = C3e q B (som h3) j s t z.
Proof. by move=> tq zq; rewrite calc_C_3s_mat_op_AAAE. Qed.

Variable m : nat.
Variable X : nat -> 'M[C]_(D m, D m.+1).
Hypotheses (l1 : forall j, (j <= m)%N -> toarray (l j) = 1%:M) (r1 : forall j, (m < j <= N)%N -> toarray (r j) = 1%:M).

Lemma left1_2E h2 s : (s < q m)%N -> gl2 q (rep A X) l (som h2) m s = left1_2 q A h2 X s.
Proof.
move: X l1; case: m => [|m'] Y el sq //=; rewrite el ?leqnSn // rep_other; last by lia.
rewrite /eps_l_noop; apply: eq_bigr => t _; congr (_ *m (_ *m _)).
by rewrite -C2E // rep_same rep_other //; lia.
Qed.
Lemma right1_2E h2 s : gr2 q N (rep A X) r (som h2) m s = right1_2 q N A h2 X s.
Proof.
rewrite /gr2 /right1_2; case: ifP => // mN1; rewrite /= r1 ?mN1; last by lia.
rewrite rep_other; last by lia.
rewrite /eps_r_noop; apply: eq_bigr => t _; congr (_ *m _ *m _).
by rewrite -C2E // rep_same rep_other //; lia.
Qed.
Lemma left1_3E h3 s : (s < q m)%N -> gl3 q (rep A X) l (som h3) m s = left1_3 q A h3 X s.
Proof.
move: X l1; case: m => [|[|m']] Y el sq //=; rewrite el; last by lia.
rewrite !eps_l_op_2s_AA12_C34E; apply: eq_bigr => t _; apply: eq_bigr => u _.
have e1 : rep A Y m' = A m' by rewrite rep_other //; lia.
have e2 : rep A Y m'.+1 = A m'.+1 by rewrite rep_other //; lia.
by rewrite /calc_AAs e1 e2; congr (_ *m (_ *m _)); rewrite -C3E // rep_same e1 e2.
Qed.
Lemma mid1_3E h3 s : (s < q m)%N -> gm3 q N (rep A X) l r (som h3) m s = mid1_3 q N A h3 X s.
Proof.
move: X l1 r1; case: m => [|m'] Y el er sq //=; case: ifP => // mN; apply: eq_bigr => u _.
have e1 : rep A Y m' = A m' by rewrite rep_other //; lia.
have e2 : rep A Y m'.+2 = A m'.+2 by rewrite rep_other //; lia.
rewrite el // er ?mN ?leqnn ?andbT; last by lia.
rewrite mulmx1 e1 e2; congr (_ *m _); rewrite /eps_r_noop; apply: eq_bigr => z _; congr (_ *m _ *m _).
by rewrite -C3E // rep_same e1 e2.
Qed.
Lemma right1_3E h3 s : gr3 q N (rep A X) r (som h3) m s = right1_3 q N A h3 X s.
Proof.
rewrite /gr3 /right1_3; case: ifP => // mN2; rewrite r1 ?mN2; last by lia.
have e1 : rep A X m.+1 = A m.+1 by rewrite rep_other //; lia.
have e2 : rep A X m.+2 = A m.+2 by rewrite rep_other //; lia.
rewrite !eps_r_op_2s_C12_AA34E; apply: eq_bigr => t _; apply: eq_bigr => z _.
by rewrite /calc_AAs e1 e2; congr (_ *m _ *m _); rewrite -C3E // rep_same e1 e2.
Qed.
Lemma K1E (KL : option 'M[C]_(D m)) (KR : option 'M[C]_(D m.+1)) s :
  K1 KL KR X s = odflt 0 KL *m X s + X s *m odflt 0 KR.
Proof. by case: KL KR => [k|] [k'|] //=; rewrite /K1 ?mul0mx ?mulmx0. Qed.
End Glue.

(* ---- projections of the Hamiltonian ------------------------------------------------------------- *)
Section One.
Variables (C : numClosedFieldType) (D q : nat -> nat) (N : nat) (A : tensors C D).
Local Notation bonds := (forall n, 'M[C]_(D n)).
Local Notation obonds := (forall n, option 'M[C]_(D n)).
Variables (m : nat) (mN : (m < N)%N).
(* central gauge: left-canonical below m, right-canonical above *)
Definition central := (forall j, (j < m)%N -> eps_l_noop (q j) 1%:M (A j) (A j) = 1%:M) /\
  (forall j, (m < j < N)%N -> eps_r_noop (q j) 1%:M (A j) (A j) = 1%:M).
Hypothesis cg : central.
Variable X : nat -> 'M[C]_(D m, D m.+1).
Local Notation A' := (rep A X).
Let l' n : smat C (D n) (D n) := SDense (LW q A' A' n).
Let r' n : smat C (D n) (D n) := SDense (RW q N A' A' n).
Lemma repX : A' m = X. Proof. exact: rep_same. Qed.
Lemma repo j : j != m -> A' j = A j. Proof. by move=> h; apply: rep_other; rewrite eq_sym. Qed.

Lemma upl : up_l q A' N 1%:M (fun n => toarray (l' n)).
Proof. by split; [exact: LW0 | move=> n _; exact: LWS]. Qed.
Lemma upr : up_r q A' N 1%:M (fun n => toarray (r' n)).
Proof. by split; [exact: RWN | move=> n nN; exact: RWS]. Qed.
Lemma l1 j : (j <= m)%N -> LW q A' A' j = 1%:M.
Proof.
elim: j => [|j IH] jm; first exact: LW0.
by rewrite LWS IH ?(ltnW jm) // repo ?cg.1 //; lia.
Qed.
Lemma r1 j : (m < j <= N)%N -> RW q N A' A' j = 1%:M.
Proof.
move: {2}(N - j)%N (leqnn (N - j)%N) => k; elim: k j => [|k IH] j kj /andP[mj jN].
  by have e : j = N by [lia]; subst j; rewrite RWN.
case: (ltnP j N) => h; last by have e : j = N by [lia]; subst j; rewrite RWN.
rewrite RWS // IH; [|lia|lia].
by rewrite repo ?cg.2 //; lia.
Qed.

Variables (KL KR : obonds).
Let K j : 'M[C]_(D j) := odflt 0 (KR j).
Let KLv j : 'M[C]_(D j) := odflt 0 (KL j).

Lemma rep_rep T c : psi (rep A' T) N c = psi (@rep C D A m T) N c.
Proof.
apply: eq_amp => n s _ _; have [e|ne] := eqVneq m n; last by rewrite !rep_other.
by subst n; rewrite !rep_same.
Qed.

Section Two.
Variable h2 : nat -> op2s C.
Local Notation ham := (fun j => Some (h2 j)).
Hypotheses (KRN : KR N = None) (KRs : forall j, (m < j < N)%N -> KR j = upd_right2 q N A h2 (KR j.+1)).
Hypotheses (KL0 : KL 0 = None) (KLs : forall j, (j < m)%N -> KL j.+1 = upd_left2 q A h2 (KL j)).

Lemma KRrec j p : (m < j)%N -> (j + 2)%N = p -> (p <= N)%N ->
  K j = eps_r_noop (q j) (K j.+1) (A j) (A j) + winmat q A A j 2 (O2 ham j) (1%:M : 'M[C]_(D p)).
Proof.
rewrite addn2 => mj ep pN; subst p; rewrite /K (KRs (j := j)) ?mj ?(ltnW pN) // /upd_right2 pN /=; congr (_ + _).
rewrite winmat2 eps_r_op_2s_C12_AA34E; apply: eq_bigr => s _; apply: eq_bigr => t _.
by rewrite C2E.
Qed.
Lemma KRz j : (m < j < N)%N -> (N < j + 2)%N -> K j = 0.
Proof. by rewrite addn2 => jj Nj; rewrite /K KRs // /upd_right2 ltnNge -ltnS Nj. Qed.
Lemma KLrec j p : (p < m)%N -> (j + 2)%N = p.+1 ->
  KLv p.+1 = eps_l_noop (q p) (KLv p) (A p) (A p) + Yg q 2 A (fun n => 1%:M) (O2 ham) j p.+1.
Proof.
rewrite addn2 => pm [ep]; subst p; rewrite /KLv (KLs pm) /upd_left2 /=; congr (_ + _).
rewrite /Yg sum_cfgsS eps_l_op_2s_AA12_C34E; apply: eq_bigr => s _.
rewrite sum_cfgsS; apply: eq_bigr => t _; rewrite sum_cfgs0 C2E // /C2e sum_cfgsS.
rewrite !mulmx_sumr; apply: eq_bigr => u _; rewrite !mulmx_sumr sum_cfgsS; apply: eq_bigr => v _.
by rewrite sum_cfgs0 /= !pid_mx_1 !mulmx1 -!scalemxAr /calc_AAs /calc_AA mul1mx !mulmxA.
Qed.
Lemma KLz p : (0 < p < 2)%N -> (p <= m)%N -> KLv p = 0.
Proof. by case: p => [|[|p]] //= _ pm; rewrite /KLv (KLs pm). Qed.

Lemma proj1_2 T : dotst q N (psi (@rep C D A m T) N) (Ham2 q N ham (psi A' N)) =
  tdot q T (heff1_2 q N A h2 (KL m) (KR m.+1) X).
Proof.
have [K' hK] := K_exists q N A' (fun n => RW q N A' A' n) (O2 ham) (isT : (0 < 2)%N).
have [KL' hKL] := KL_exists q N A' (fun n => LW q A' A' n) (O2 ham) (isT : (0 < 2)%N).
rewrite (eq_dotst q (u' := psi (rep A' T) N) (v' := Ham2 q N ham (psi A' N))) //; last by move=> c _; rewrite rep_rep.
rewrite (grad2 upl upr (K := K') (KL := KL')) //.
apply: eq_tdot => s sq; rewrite repX /= l1 // r1 ?mN ?ltnSn // !mulmx1 !mul1mx -!addrA; rewrite /heff1_2.
have z0 n : n = 0%N -> KL n = None by move=> ->.
have zN n : n = N -> KR n = None by move=> ->.
have eL : KLo KL' m = odflt 0 (KL m).
  rewrite /KLo; case: ltnP => m0; last by rewrite z0 //; lia.
  rewrite (KL_agree (K := KLv) (m := m) (A := A) (l' := fun n => LW q A' A' n) hKL) ?m0 //=; first exact: KLrec.
  - exact: KLz.
  - exact: ltnW.
  - by move=> j jm; rewrite repo //; lia.
  - by move=> j jm; rewrite l1 // ltnW.
have eR : Kpo N K' 2 m = odflt 0 (KR m.+1).
  rewrite /Kpo; case: ifP => m2.
    rewrite (K_agree (K := K) (m := m) (A := A) (r' := fun n => RW q N A' A' n) hK) //; last by lia.
    - exact: KRrec.
    - exact: KRz.
    - by move=> j jm; rewrite repo //; lia.
    - by move=> j jm; rewrite r1.
  case: (ltnP m.+1 N) => m1; last by rewrite zN //; lia.
  by rewrite -/(K m.+1) KRz //; lia.
rewrite eL eR left1_2E ?right1_2E ?K1E //.
- by rewrite addrC -!addrA; congr (_ + (_ + _)); rewrite addrC.
- by move=> j jj; apply: r1.
- by move=> j jj; apply: l1.
Qed.
End Two.

Section Three.
Variable h3 : nat -> op3s C.
Local Notation ham := (fun j => Some (h3 j)).
Hypotheses (KRN : KR N = None) (KRs : forall j, (m < j < N)%N -> KR j = upd_right3 q N A h3 (KR j.+1)).
Hypotheses (KL0 : KL 0 = None) (KLs : forall j, (j < m)%N -> KL j.+1 = upd_left3 q A h3 (KL j)).

Lemma KRrec3 j p : (m < j)%N -> (j + 3)%N = p -> (p <= N)%N ->
  K j = eps_r_noop (q j) (K j.+1) (A j) (A j) + winmat q A A j 3 (O3 ham j) (1%:M : 'M[C]_(D p)).
Proof.
rewrite addn3 => mj ep pN; subst p; rewrite /K (KRs (j := j)) ?mj /=; last by lia.
rewrite /upd_right3 pN /=; congr (_ + _).
rewrite winmat3 eps_r_op_3s_C123_AAA456E; apply: eq_bigr => s _; apply: eq_bigr => t _; apply: eq_bigr => z _.
by rewrite /calc_AAs C3E.
Qed.
Lemma KRz3 j : (m < j < N)%N -> (N < j + 3)%N -> K j = 0.
Proof. by rewrite addn3 => jj Nj; rewrite /K KRs // /upd_right3 ltnNge -ltnS Nj. Qed.
Lemma KLrec3 j p : (p < m)%N -> (j + 3)%N = p.+1 ->
  KLv p.+1 = eps_l_noop (q p) (KLv p) (A p) (A p) + Yg q 3 A (fun n => 1%:M) (O3 ham) j p.+1.
Proof.
rewrite addn3 => pm [ep]; subst p; rewrite /KLv (KLs pm) /upd_left3 /=; congr (_ + _).
rewrite /Yg sum_cfgsS eps_l_op_3s_AAA123_C456E; apply: eq_bigr => s _.
rewrite sum_cfgsS; apply: eq_bigr => t _; rewrite sum_cfgsS; apply: eq_bigr => z _.
rewrite sum_cfgs0 /calc_AAs C3E // /C3e sum_cfgsS !mulmx_sumr; apply: eq_bigr => u _.
rewrite !mulmx_sumr sum_cfgsS; apply: eq_bigr => v _; rewrite !mulmx_sumr sum_cfgsS; apply: eq_bigr => w _.
by rewrite sum_cfgs0 /= !pid_mx_1 !mulmx1 -!scalemxAr /calc_AAA_AA /calc_AA mul1mx !mulmxA.
Qed.
Lemma KLz3 p : (0 < p < 3)%N -> (p <= m)%N -> KLv p = 0.
Proof. by case: p => [|[|[|p]]] //= _ pm; rewrite /KLv (KLs pm). Qed.

Lemma proj1_3 T : dotst q N (psi (@rep C D A m T) N) (Ham3 q N ham (psi A' N)) =
  tdot q T (heff1_3 q N A h3 (KL m) (KR m.+1) X).
Proof.
have [K' hK] := K_exists q N A' (fun n => RW q N A' A' n) (O3 ham) (isT : (0 < 3)%N).
have [KL' hKL] := KL_exists q N A' (fun n => LW q A' A' n) (O3 ham) (isT : (0 < 3)%N).
rewrite (eq_dotst q (u' := psi (rep A' T) N) (v' := Ham3 q N ham (psi A' N))) //; last by move=> c _; rewrite rep_rep.
rewrite (grad3 upl upr (K := K') (KL := KL')) //.
apply: eq_tdot => s sq; rewrite repX /= l1 // r1 ?mN ?ltnSn // !mulmx1 !mul1mx -!addrA; rewrite /heff1_3.
have z0 n : n = 0%N -> KL n = None by move=> ->.
have zN n : n = N -> KR n = None by move=> ->.
have eL : KLo KL' m = odflt 0 (KL m).
  rewrite /KLo; case: ltnP => m0; last by rewrite z0 //; lia.
  rewrite (KL_agree (K := KLv) (m := m) (A := A) (l' := fun n => LW q A' A' n) hKL) ?m0 //=; first exact: KLrec3.
  - exact: KLz3.
  - exact: ltnW.
  - by move=> j jm; rewrite repo //; lia.
  - by move=> j jm; rewrite l1 // ltnW.
have eR : Kpo N K' 3 m = odflt 0 (KR m.+1).
  rewrite /Kpo; case: ifP => m2.
    rewrite (K_agree (K := K) (m := m) (A := A) (r' := fun n => RW q N A' A' n) hK) //; last by lia.
    - exact: KRrec3.
    - exact: KRz3.
    - by move=> j jm; rewrite repo //; lia.
    - by move=> j jm; rewrite r1.
  case: (ltnP m.+1 N) => m1; last by rewrite zN //; lia.
  by rewrite -/(K m.+1) KRz3 //; lia.
rewrite eL eR left1_3E ?mid1_3E ?right1_3E ?K1E //.
- by rewrite addrC -!addrA; congr (_ + (_ + (_ + _))); rewrite addrC.
- by move=> j jj; apply: r1.
- by move=> j jj; apply: l1.
- by move=> j jj; apply: r1.
- by move=> j jj; apply: l1.
Qed.
End Three.
End One.

(* ---- the bond matrix ------------------------------------------------------------------------------ *)
Section SC.
Variables (C : numClosedFieldType) (D q : nat -> nat) (N : nat) (A : tensors C D) (m : nat).
Hypotheses (mN : (m.+1 < N)%N) (cg : central q N A m.+1).
Hypothesis rc : eps_r_noop (q m.+1) 1%:M (A m.+1) (A m.+1) = 1%:M.
Variables (KL KR : forall n, option 'M[C]_(D n)).

Lemma tdot_GA (F : 'M[C]_(D m.+1)) Y : tdot q (GA A F) Y = adot F (\sum_(t < q m.+1) Y t *m (A m.+1 t)^†).
Proof.
rewrite adotE mulmx_sumr tr_sum; apply: eq_bigr => t _.
by rewrite /GA adjM -mulmxA mxtrace_mulC -mulmxA.
Qed.
Lemma KscE (k k' : option 'M[C]_(D m.+1)) G : Ksc k k' G = odflt 0 k *m G + G *m odflt 0 k'.
Proof. by case: k k' => [k|] [k'|] //=; rewrite /Ksc ?mul0mx ?mulmx0. Qed.
(* the two disconnected parts *)
Lemma sum_GA (G K : 'M[C]_(D m.+1)) : \sum_(t < q m.+1) K *m GA A G t *m (A m.+1 t)^† = K *m G.
Proof.
rewrite -[in RHS](mulmx1 G) -rc /eps_r_noop !mulmx_sumr; apply: eq_bigr => t _.
by rewrite /GA mulmx1 !mulmxA.
Qed.

Section Two.
Variable h2 : nat -> op2s C.
Hypotheses (KRN : KR N = None) (KRs : forall j, (m < j < N)%N -> KR j = upd_right2 q N A h2 (KR j.+1)).
Hypotheses (KL0 : KL 0 = None) (KLs : forall j, (j < m.+1)%N -> KL j.+1 = upd_left2 q A h2 (KL j)).
Lemma projG_2 F G : dotst q N (psi (rep A (GA A F)) N) (Ham2 q N (fun j => Some (h2 j)) (psi (rep A (GA A G)) N)) =
  adot F (heffG_2 q A h2 (KL m.+1) (KR m.+1) G).
Proof.
rewrite (proj1_2 mN cg _ (KL := KL) (KR := KR)) //; last by move=> j /andP[jm jN]; apply: KRs; lia.
rewrite tdot_GA; congr (adot _ _); rewrite /heff1_2 /heffG_2 KscE.
transitivity (odflt 0 (KL m.+1) *m G + (\sum_(t < q m.+1) left1_2 q A h2 (GA A G) t *m (A m.+1 t)^†) +
   \sum_(t < q m.+1) (right1_2 q N A h2 (GA A G) t + GA A G t *m odflt 0 (KR m.+2)) *m (A m.+1 t)^†).
  rewrite -sum_GA -!big_split; apply: eq_bigr => t _ /=.
  by rewrite K1E !mulmxDl !addrA; congr (_ + _); rewrite addrC !addrA.
rewrite -!addrA; congr (_ + _); rewrite addrC; congr (_ + _).
  rewrite (KRs (j := m.+1)) ?ltnSn // /upd_right2; rewrite /right1_2; case: ifP => m2 /=; last first.
    rewrite (_ : KR m.+2 = None) ?mulmx0 ?big1 // => [t _|]; first by rewrite mulmx0 addr0 mul0mx.
    have zN n : n = N -> KR n = None by move=> ->.
    by apply: zN; lia.
  rewrite mulmxDr [RHS]addrC eps_r_op_2s_C12_AA34E /eps_r_noop !mulmx_sumr -big_split; apply: eq_bigr => t _ /=.
  rewrite mulmxDl /GA; congr (_ + _); last by rewrite !mulmxA.
  rewrite mulmx_suml mulmx_sumr; apply: eq_bigr => u _.
  rewrite !mulmx1 !calc_C_mat_op_AAE // /calc_AA adjM !mulmxA; congr (_ *m _ *m _).
  rewrite mulmx_sumr; apply: eq_bigr => v _; rewrite mulmx_sumr; apply: eq_bigr => w _.
  by rewrite -scalemxAr !mulmxA.
rewrite /= /eps_l_noop /eps_r_noop; under eq_bigr => t _ do rewrite mulmx_suml.
rewrite exchange_big; apply: eq_bigr => s _; rewrite mulmx_sumr; apply: eq_bigr => t _.
by rewrite mul1mx mulmx1 mulmxA.
Qed.
End Two.

Section Three.
Variable h3 : nat -> op3s C.
Hypotheses (KRN : KR N = None) (KRs : forall j, (m < j < N)%N -> KR j = upd_right3 q N A h3 (KR j.+1)).
Hypotheses (KL0 : KL 0 = None) (KLs : forall j, (j < m.+1)%N -> KL j.+1 = upd_left3 q A h3 (KL j)).
Lemma projG_3 F G : dotst q N (psi (rep A (GA A F)) N) (Ham3 q N (fun j => Some (h3 j)) (psi (rep A (GA A G)) N)) =
  adot F (heffG_3 q N A h3 (KL m.+1) (KR m.+1) G).
Proof.
rewrite (proj1_3 mN cg _ (KL := KL) (KR := KR)) //; last by move=> j /andP[jm jN]; apply: KRs; lia.
rewrite tdot_GA; congr (adot _ _); rewrite /heff1_3 /heffG_3 KscE.
transitivity (odflt 0 (KL m.+1) *m G + (\sum_(t < q m.+1) left1_3 q A h3 (GA A G) t *m (A m.+1 t)^†) +
   (\sum_(t < q m.+1) mid1_3 q N A h3 (GA A G) t *m (A m.+1 t)^†) +
   \sum_(t < q m.+1) (right1_3 q N A h3 (GA A G) t + GA A G t *m odflt 0 (KR m.+2)) *m (A m.+1 t)^†).
  rewrite -sum_GA -!big_split; apply: eq_bigr => t _ /=.
  by rewrite K1E !mulmxDl !addrA; congr (_ + _); rewrite addrC !addrA.
have eK : \sum_(t < q m.+1) (right1_3 q N A h3 (GA A G) t + GA A G t *m odflt 0 (KR m.+2)) *m (A m.+1 t)^† =
    G *m odflt 0 (KR m.+1).
  rewrite (KRs (j := m.+1)) ?ltnSn // /upd_right3; rewrite /right1_3; case: ifP => m2 /=; last first.
    have zN n : n = N -> KR n = None by move=> ->.
    have -> : odflt 0 (KR m.+2) = 0.
      case: (ltnP m.+2 N) => m3; last by rewrite zN //; lia.
      rewrite KRs ?m3 /upd_right3 ?andbT; last by lia.
      by rewrite (_ : (m.+4 < N)%N = false) //; lia.
    by rewrite mulmx0 big1 // => t _; rewrite mulmx0 addr0 mul0mx.
  rewrite mulmxDr [RHS]addrC eps_r_op_3s_C123_AAA456E /eps_r_noop !mulmx_sumr -big_split; apply: eq_bigr => t _ /=.
  rewrite mulmxDl /GA; congr (_ + _); last by rewrite !mulmxA.
  rewrite eps_r_op_2s_C12_AA34E mulmx_suml mulmx_sumr; apply: eq_bigr => u _.
  rewrite mulmx_suml mulmx_sumr; apply: eq_bigr => v _.
  rewrite !mulmx1 !calc_C_3s_mat_op_AAAE // /calc_AAA_AA /calc_AAs /calc_AA !adjM !mulmxA; congr (_ *m _ *m _ *m _).
  rewrite mulmx_sumr; apply: eq_bigr => i _; rewrite mulmx_sumr; apply: eq_bigr => j _.
  rewrite mulmx_sumr; apply: eq_bigr => k _.
  by rewrite -scalemxAr !mulmxA.
rewrite eK -!addrA; congr (_ + _).
have eM : \sum_(t < q m.+1) mid1_3 q N A h3 (GA A G) t *m (A m.+1 t)^† = scright q N A h3 G.
  rewrite /mid1_3 /scright; case: ifP => m2; last by rewrite big1 // => t _; rewrite mul0mx.
  under eq_bigr => t _ do rewrite mulmx_suml.
  rewrite exchange_big; apply: eq_bigr => s _; rewrite eps_r_op_2s_C12_AA34E mulmx_sumr; apply: eq_bigr => t _.
  rewrite /eps_r_noop -mulmxA; congr (_ *m _); rewrite mulmx_suml; apply: eq_bigr => z _.
  rewrite !mulmx1 !calc_C_3s_mat_op_AAAE // /calc_AAs /calc_AA adjM mulmxA; congr (_ *m _ *m _).
  by apply: eq_bigr => i _; apply: eq_bigr => j _; apply: eq_bigr => k _; rewrite /calc_AAA_AA /calc_AAA_AAr !mulmxA.
rewrite eM addrA [RHS]addrC; congr (_ + _); rewrite addrC; congr (_ + _).
by move: G {eK eM}; case: (m) => [|m'] G //; rewrite big1 // => t _; rewrite mul0mx.
Qed.
End Three.
End SC.
