(* SwTdvpProofs3.v -- the sandwich class with three-site terms. *)
From mathcomp Require Import all_ssreflect all_algebra.
From mathcomp Require Import zify.
From Verif Require Import Base Spec Eps Chain ChainProofs LinAlg Struct Factor Tangent Tangent2 BTangent BMix Tdvp TdvpProofs
  TdvpProofs2 TdvpProofs3 UTdvpL SwTdvp SwTdvpProofs.
Set Implicit Arguments.
Unset Strict Implicit.
Unset Printing Implicit Defensive.
Import Order.TTheory GRing.Theory Num.Theory.
Local Open Scope ring_scope.

Lemma centre_sandwich3 (C : fieldType) n m (L : 'M[C]_n) (R : 'M[C]_m) (X1 X3 Y2 Y4 Z : 'M[C]_(n, m)) :
  L \in unitmx -> R \in unitmx ->
  L *m (X1 *m invmx R + invmx L *m Y2 + X3 *m invmx R + invmx L *m Y4 + invmx L *m Z *m invmx R) *m R =
  L *m X1 + Y2 *m R + L *m X3 + Y4 *m R + Z.
Proof.
move=> uL uR; rewrite !mulmxDr !mulmxDl !mulmxA !mulmxV // !mul1mx -!mulmxA.
by rewrite !mulVmx // !mulmx1.
Qed.
Lemma centre_shuffle3 (V : zmodType) (x1 x2 x3 x4 x5 y1 y2 y3 y4 y5 : V) :
  x1 + x2 + x3 + x4 + x5 + (- y1 - y2 - y3 - y4 - y5) = x5 - y2 + (x1 - y1) + (x4 - y3) + (x2 - y5) + (x3 - y4).
Proof. by rewrite !addrA [LHS](ACl (5*7*1*6*4*8*2*10*3*9)). Qed.

Section Three.
Variables (C : numClosedFieldType) (D q : nat -> nat) (a N Nc M : nat).
Local Notation bonds := (forall n, 'M[C]_(D n)).
Local Notation sbonds := (forall n, smat C (D n) (D n)).
Variables (lb : 'M[C]_(D 0)) (rb : 'M[C]_(D M)) (A : tensors C D) (l r : sbonds).
Local Notation L n := (toarray (l n)).
Local Notation R n := (toarray (r n)).
Hypotheses (hl : up_l q A M lb (fun n => L n)) (hr : up_r q A M rb (fun n => R n)) (hlb : herm lb) (hrb : herm rb).
Variables (eigh : eigh_routine C) (qrf : qrf_routine C) (tol : C).
Hypotheses (eighP : eigh_contract eigh) (qrfP : qrf_contract qrf) (tol0 : 0 <= tol).
Hypotheses (ha : (1 < a)%N) (hNc : (0 < Nc <= N)%N) (hM : (a + N + 3 <= M)%N).
Variables (ham : nat -> op3s C) (e : nat -> C) (Kb KLb : bonds).
Local Notation ham' := (fun m => Some (ham m)).
Local Notation O := (O3 ham').
Hypotheses (hK : Ksub q A (fun n => R n) Kb 3 O e M (a + N).+1) (hKL : KLsub q 3 A (fun n => L n) O e KLb a.+1).
Hypothesis he : forall j, (a.-1 <= j <= a + N)%N -> e j = 0.
Local Notation G := (Gfun q 3 lb rb A O e Kb KLb).
Local Notation bd := (bdotst q M lb rb).
Local Notation fr := (far a N).
Local Notation Cs := (sw_C3 q a N A ham).
Local Notation en j := (bd (psi A M) (opwin q j 3 (O j) (psi A M))).

Lemma sw_C3E m : (a.-1 <= m <= a + N)%N -> Cs m = calc_C3 q fr A ham' m.
Proof.
move=> hm; rewrite /sw_C3 /calc_C3 /sw_in ifT; last by lia.
by rewrite ifT //= /far; lia.
Qed.
Lemma sw_C3_some m : (a.-1 <= m <= a + N)%N -> exists c, Cs m = Some c.
Proof. by move=> hm; rewrite /sw_C3 /sw_in ifT; [eexists; reflexivity | lia]. Qed.
Lemma Gfun_ends3 (Kg KLg : bonds) B : Kg (M.+1 - 3)%N = Kb (M.+1 - 3)%N -> KLg 2%N = KLb 2%N ->
  Gfun q 3 lb rb A O e Kg KLg B = G B.
Proof. by move=> h1 h2; rewrite /Gfun h1 /= h2. Qed.
Lemma exp_win3 j : (j.+3 <= M)%N -> \tr (L j *m winmat q A A j 3 (O j) (R j.+3)) = en j.
Proof.
move=> jM; have jM' : (j + 3 <= M)%N by lia.
have jM2 : (j <= M)%N by lia.
rewrite (bdotst_win2 _ _ _ _ _ _ erefl jM') (lbE hlb) (LWb_up hl jM2) (RWb_up hr jM').
by rewrite addn3.
Qed.

(* the energy read off at a window site *)
Lemma sw_energy3 (Kg KLg : bonds) m : Ksub q A (fun n => R n) Kg 3 O e M 0 -> (forall k, KLsub q 3 A (fun n => L n) O e KLg k) ->
  (forall B, Gfun q 3 lb rb A O e Kg KLg B = G B) -> (a <= m.+1)%N -> (m.+2 <= a + N)%N ->
  G A = \tr (KLg m.+2 *m R m.+2) + \tr (L m.+3 *m Kg m.+3) + en m.+2 + en m.+1 + en m.
Proof.
move=> k1 g1 eG h1 h2; have [_ upl] := hl; have [_ upr] := hr.
have mM : (m.+2 < M)%N by lia.
have -> : G A = G (rep A (A m.+2)) by rewrite Gfun_id.
rewrite -eG (gradient_b hl hr hlb (isT : (1 < 3)%N) (A m.+2) k1 (g1 m.+2)) //; [|lia|by move=> j h3 h4; apply: he; lia].
rewrite big_nat_recr /=; last by lia.
rewrite big_nat_recr /=; last by lia.
have -> : (m.+3 - 3 = m)%N by lia.
rewrite big_nat1 !addn3.
have wid j X : winmat q (rep A (A m.+2)) A j 3 (O j) X = winmat q A A j 3 (O j) X.
  apply: eq_sum_cfgs => c sz; apply: eq_bigr => d _; congr (_ *: (_ *m _)); congr (_^†).
  by rewrite amp_rep_id.
rewrite !wid !exp_win3; try lia.
rewrite (upr m.+2 mM) (upl m.+2 mM).
have -> : \tr (KLg m.+2 *m eps_r_noop (q m.+2) (R m.+3) (A m.+2) (A m.+2)) = tdot q (A m.+2) (fun s => KLg m.+2 *m A m.+2 s *m R m.+3).
  by rewrite mulmx_sumr tr_sum; apply: eq_bigr => s _; rewrite mxtrace_mulC !mulmxA mxtrace_mulC !mulmxA -mxtrace_mulC !mulmxA.
have -> : \tr (eps_l_noop (q m.+2) (L m.+2) (A m.+2) (A m.+2) *m Kg m.+3) = tdot q (A m.+2) (fun s => L m.+2 *m A m.+2 s *m Kg m.+3).
  by rewrite mulmx_suml tr_sum; apply: eq_bigr => s _; rewrite !mulmxA.
by rewrite !addrA [LHS](ACl (1*5*4*3*2)).
Qed.

(* what calc_K leaves in h_expect: entry j of the left loop is the energy of the term j - 1 *)
Definition hx3_spec (hx : nat -> C) :=
  (forall j, (a <= j < a + Nc)%N -> hx j = en j.-1) /\ (forall j, (a + Nc <= j <= a + N)%N -> hx j = en j).

Lemma sw_K3 hleft K0 KL0 : exists K KL hx Kg KLg, [/\
  @sw_calc_K3 C D q a N Nc A l r Cs (Kb (a + N).+1) (KLb a.+1) hleft K0 KL0 = Some (K, KL, hx, G A - (N + 2)%:R * hleft),
  hx3_spec hx,
  Ksub q A (fun n => R n) Kg 3 O e M 0 /\ (forall k, KLsub q 3 A (fun n => L n) O e KLg k),
  forall B, Gfun q 3 lb rb A O e Kg KLg B = G B &
  (forall n, ((a + Nc).-1 <= n <= (a + N).+1)%N -> K n = Kg n) /\ (forall n, (a < n <= (a + Nc).+1)%N -> KL n = KLg n)].
Proof.
have [Kg k1 k2] := Ksub_ext (isT : (0 < 3)%N) hK; have [KLg g1 g2] := KLsub_ext (isT : (0 < 3)%N) hKL.
have eG B : Gfun q 3 lb rb A O e Kg KLg B = G B by apply: Gfun_ends3; [apply: k2; lia | apply: g2; lia].
have eH j : (a.-1 <= j <= a + N)%N -> isSome (Hr3 q A r Cs j) /\ odflt 0 (Hr3 q A r Cs j) = winmat q A A j 3 (O j) (R j.+3).
  move=> hj; have [c ec] := sw_C3_some hj; split; first by rewrite /Hr3 ec.
  have jf : (j.+2 < fr)%N by rewrite /far; lia.
  by rewrite -(Hr3E q A r ham' jf) /Hr3 -sw_C3E.
have lo : sw_lo a Nc 3 = (a + Nc).-1 by rewrite /sw_lo; lia.
have cnt : ((a + Nc).-1 + ((a + N).+1 - (a + Nc).-1) = (a + N).+1)%N by lia.
have [] := @swK_loop C D q fr A l 3 (Hr3 q A r Cs) Kg ((a + N).+1 - (a + Nc).-1) (a + Nc).-1 (setK K0 (Kb (a + N).+1), fun _ => 0).
- by rewrite cnt /far; lia.
- by rewrite cnt /= setK_same k2.
- rewrite cnt => j hj; have hj' : (a.-1 <= j <= a + N)%N by lia.
  have [s1 s2] := eH j hj'; split=> //; rewrite s2 (k1 j (j + 3)%N) //; last by lia.
  by rewrite he // scale0r subr0 addn3.
rewrite cnt /sw_calc_K3 /sw_calc_K lo; move: (foldl _ _ _) => [K hx] /= i1 i2 i3.
have ea : (a.-1.+2 = a.+1)%N by lia.
have [] := @swKL3_loop C D q A l r Cs KLg (fun j => Yg q 3 A (fun n => L n) O j j.+3) Nc a.-1 (setK KL0 (KLb a.+1), hx).
- by rewrite ea /= setK_same g2.
- move=> j hj; have hj' : (a.-1 <= j <= a + N)%N by lia.
  have [c ec] := sw_C3_some hj'; exists c => //; have jf : (j.+2 < fr)%N by rewrite /far; lia.
  split; first by apply: (Hl3E l jf); rewrite -sw_C3E.
  by rewrite (g1 j.+3 j j.+2) ?addn3 // he // scale0r subr0.
move=> [KL hx'] eKL [/= j1 j2 j3].
have -> : (a + 2 - 3 = a.-1)%N by lia.
rewrite eKL; exists K, KL, hx', Kg, KLg.
have eY j : (j.+3 <= M)%N -> \tr (Yg q 3 A (fun n => L n) O j j.+3 *m R j.+3) = en j.
  by move=> hj; rewrite -exp_win3 //; apply: Yg_tr; rewrite ?addn3.
split=> //.
- congr (Some (_, _, _, _ - _)); last by have -> : (N + 3 - 1 = N + 2)%N by lia.
  rewrite adot_noconjE adotE (bl_herm hl hlb); last by lia.
  rewrite j1; last by lia.
  rewrite i1; last by lia.
  have [m emc] : exists m, (a + Nc = m.+2)%N by exists (a + Nc - 2)%N; lia.
  have [hm1 hm2] : (a <= m.+1)%N /\ (m.+2 <= a + N)%N by lia.
  rewrite (sw_energy3 k1 g1 eG hm1 hm2) emc [_.+2.-1]/=.
  rewrite (g1 m.+3 m m.+2) ?addn3 // he ?scale0r ?subr0; last by lia.
  rewrite mulmxDl raddfD /= eY; last by lia.
  rewrite (k1 m.+1 m.+4) ?addn3 //; last by lia.
  rewrite he ?scale0r ?subr0; last by lia.
  rewrite mulmxDr raddfD /= exp_win3; last by lia.
  have [_ upl] := hl; have [_ upr] := hr.
  have [mM1 mM2] : (m.+1 < M)%N /\ (m.+2 < M)%N by lia.
  have -> : \tr (L m.+1 *m eps_r_noop (q m.+1) (Kg m.+2) (A m.+1) (A m.+1)) = \tr (L m.+2 *m Kg m.+2).
    by rewrite (upl m.+1 mM1) Tangent.tr_eps.
  rewrite (k1 m.+2 m.+4.+1) ?addn3 //; last by lia.
  rewrite he ?scale0r ?subr0; last by lia.
  rewrite mulmxDr raddfD /= exp_win3; last by lia.
  rewrite -[\tr (L m.+2 *m eps_r_noop _ _ _ _)]Tangent.tr_eps -(upl m.+2 mM2) Tangent.tr_eps -(upr m.+2 mM2).
  by rewrite !addrA [LHS](ACl (1*3*4*5*2)).
- split=> j hj.
    have ej : j = j.-1.+1 by lia.
    by rewrite {1}ej j2; [apply: eY; lia | lia].
  rewrite j3; last by lia.
  rewrite i2; last by lia.
  have hj' : (a.-1 <= j <= a + N)%N by lia.
  have [_ ->] := eH j hj'; rewrite adotE (bl_herm hl hlb) ?exp_win3 //; lia.
- by split=> n hn; [apply: i1; lia | apply: j1; lia].
Qed.

(* ---- the tangent vector ---- *)
Hypotheses (fL : forall m, (a < m <= a + N)%N -> full tol (L m)) (fR : forall m, (a < m <= a + N)%N -> full tol (R m.+1)).
Hypothesis hq : forall m, (a < m < a + Nc)%N -> q m = q m.+1.
Local Notation Br x := (Bpar_r A l r eigh qrf tol x).
Local Notation Bl x := (Bpar_l A l r eigh qrf tol x).
Variables (K KL Kg KLg : bonds) (hx : nat -> C).
Hypotheses (k1 : Ksub q A (fun n => R n) Kg 3 O e M 0) (g1 : forall k, KLsub q 3 A (fun n => L n) O e KLg k).
Hypothesis eG : forall B, Gfun q 3 lb rb A O e Kg KLg B = G B.
Hypotheses (eK : forall n, ((a + Nc).-1 <= n <= (a + N).+1)%N -> K n = Kg n) (eKL : forall n, (a < n <= (a + Nc).+1)%N -> KL n = KLg n).

Lemma sw_gr3 m T : (a < m <= a + N)%N -> G (@rep C D A m T) =
  tdot q T (fun s => KLg m *m A m s *m R m.+1) + tdot q T (fun s => gl3 q A l ham' m s *m R m.+1)
  + tdot q T (gm3 q fr A l r ham' m)
  + tdot q T (fun s => L m *m gr3 q fr A r ham' m s) + tdot q T (fun s => L m *m A m s *m Kg m.+1).
Proof.
by move=> hm; rewrite -eG (sw_grad3 hl hr hlb (far := fr) T k1 g1) //; [lia|lia|rewrite /far; lia|move=> j h1 h2; apply: he; lia].
Qed.

Lemma sw_xr3 m : (a + Nc < m <= a + N)%N -> exists2 x,
  x_r3 q fr A l r (calc_AAs A) K eigh qrf tol Cs m = Some x & forall y, G (rep A (Br y)) = adot y x.
Proof.
move=> hm; have mM : (m < M)%N by lia.
have mf : (m < fr)%N by rewrite /far; lia.
have -> : x_r3 q fr A l r (calc_AAs A) K eigh qrf tol Cs m = x_r3 q fr A l r (calc_AAs A) K eigh qrf tol (calc_C3 q fr A ham') m.
  rewrite /x_r3 /calc_x3 /xpart3 sw_C3E; last by lia.
  case: m hm {mM mf} => [|[|m']] hm //; try lia.
  rewrite /xleft3 /xmid3 sw_C3E; last by lia.
  by rewrite sw_C3E //; lia.
rewrite /x_r3 calc_x3E //; last by move=> n nm; apply: (bl_herm hl hlb); lia.
eexists; first by reflexivity.
move=> y; have hL := bl_herm hl hlb (ltnW mM); have hR := br_herm hr hrb mM.
have g := Bpar_r_gauge A eighP qrfP tol0 hL hR y; have P f := tdot_Br A qrf eighP tol0 hL hR y f.
rewrite sw_gr3; last by lia.
have -> : tdot q (Br y) (fun s => KLg m *m A m s *m R m.+1) = 0.
  transitivity (\tr (KLg m *m eps_r_noop (q m) (R m.+1) (A m) (Br y))); last by rewrite g mulmx0 mxtrace0.
  by rewrite mulmx_sumr tr_sum; apply: eq_bigr => s _; rewrite mxtrace_mulC !mulmxA.
rewrite add0r; have [_ -> _] := P (gl3 q A l ham' m); have [-> _ _] := P (gr3 q fr A r ham' m).
have [_ _ ->] := P (gm3 q fr A l r ham' m).
rewrite (eq_tdot _ (G' := fun s => L m *m (A m s *m Kg m.+1))); last by move=> s _; rewrite mulmxA.
have [-> _ _] := P (fun s => A m s *m Kg m.+1).
rewrite -addrA [X in X + _]addrC addrC addrA -!adotDr -mulmxDr -big_split; congr (adot _ (_ *m _ + _ + _)).
apply: eq_bigr => s _; rewrite [RHS]mulmxDl /Kpo eK ?ifT //; rewrite /far; lia.
Qed.

Lemma sw_xl3 m : (a < m < a + Nc)%N -> exists2 x,
  x_l3 q A l r (calc_AAs A) KL eigh qrf tol Cs m = Some x & forall y, G (rep A (Bl y)) = adot y x.
Proof.
move=> hm; have mM : (m < M)%N by lia.
have mf : (m < fr)%N by rewrite /far; lia.
have hL := bl_herm hl hlb (ltnW mM); have hR := br_herm hr hrb mM.
have -> : x_l3 q A l r (calc_AAs A) KL eigh qrf tol Cs m = x_l3 q A l r (calc_AAs A) KL eigh qrf tol (calc_C3 q fr A ham') m.
  rewrite /x_l3 /calc_x_l3 sw_C3E; last by lia.
  case: m hm {mM mf hL hR} => [|[|m']] hm //; try lia.
  rewrite /xl_left3 /xl_mid3 sw_C3E; last by lia.
  by rewrite sw_C3E //; lia.
rewrite /x_l3 calc_x_l3E //; [|by have [] := lsE eighP tol0 hL|by move=> _ _; apply: hq].
eexists; first by reflexivity.
move=> y; have g := Bpar_l_gauge A eighP qrfP tol0 hL hR y; have P f := tdot_Bl A qrf eighP tol0 hL hR y f.
rewrite sw_gr3; last by lia.
have -> : tdot q (Bl y) (fun s => L m *m A m s *m Kg m.+1) = 0.
  transitivity (\tr (eps_l_noop (q m) (L m) (Bl y) (A m) *m Kg m.+1)); last by rewrite g mul0mx mxtrace0.
  by rewrite mulmx_suml tr_sum; apply: eq_bigr => s _; rewrite !mulmxA.
rewrite addr0; have [_ -> _] := P (gl3 q A l ham' m); have [-> _ _] := P (gr3 q fr A r ham' m).
have [_ _ ->] := P (gm3 q fr A l r ham' m).
have [_ -> _] := P (fun s => KLg m *m A m s).
have -> : KLo KL m = KLg m by rewrite /KLo ifT ?eKL //; lia.
rewrite -!adotDr; congr (adot _ _); rewrite -!addrA; congr (_ + _).
  by congr (_ *m _); apply: eq_bigr => s _; rewrite !mulmxA.
by rewrite addrC [X in X + _]addrC -addrA.
Qed.

(* the centre site; the numbers subtracted add up to E *)
Definition sw_E3 m := \tr (KLg m *m R m) + \tr (L m.+1 *m Kg m.+1) + hx_at a N hx m + hx_at a N hx m.-1 + hx_at a N hx m.-2.
Lemma sw_c3 : exists2 B, sw_B_centre3 q a N A l r K KL hx eigh Cs (a + Nc)%N = Some B &
  forall T : nat -> 'M[C]_(D (a + Nc), D (a + Nc).+1),
  G (rep A T) - sw_E3 (a + Nc) * bd (psi (rep A T) M) (psi A M) = bd (psi (rep A T) M) (psi (rep A B) M).
Proof.
have hmc : (a < a + Nc <= a + N)%N by lia.
have eKc : K (a + Nc).+1 = Kg (a + Nc).+1 by apply: eK; lia.
have eKLc : KL (a + Nc) = KLg (a + Nc) by apply: eKL; lia.
have hL := bl_herm hl hlb (_ : (a + Nc <= M)%N); have hR := br_herm hr hrb (_ : ((a + Nc).+1 <= M)%N).
have hL1 := bl_herm hl hlb (_ : ((a + Nc).+1 <= M)%N).
have uL : L (a + Nc) \in unitmx by apply: full_unit tol0 _ _ _; apply: fL.
have uR : R (a + Nc).+1 \in unitmx by apply: full_unit tol0 _ _ _; apply: fR.
have gr T := sw_gr3 T hmc.
have mM : ((a + Nc).+2 < M)%N by lia.
have mf : ((a + Nc).+2 < fr)%N by rewrite /far; lia.
have h2 : (a.-1 <= (a + Nc).-2)%N by lia.
have h3 : (1 < a + Nc)%N by lia.
move: hL hR hL1 uL uR mM mf gr hmc eKc eKLc h2 h3; rewrite /sw_E3.
case: (a + Nc)%N => [|[|m']] //; rewrite -[m'.+2.-1]/m'.+1 -[m'.+2.-2]/m' => hL hR hL1 uL uR mM mf gr hmc eKc eKLc h2 _.
have [c ec] : exists c, Cs m'.+2 = Some c by apply: sw_C3_some; lia.
have [c1 ec1] : exists c, Cs m'.+1 = Some c by apply: sw_C3_some; lia.
have [c2 ec2] : exists c, Cs m' = Some c by apply: sw_C3_some; lia.
have hL' : herm (L m'.+2) by apply: hL; lia.
have hR' : herm (R m'.+3) by apply: hR; lia.
have hL1' : herm (L m'.+3) by apply: hL1; lia.
rewrite /sw_B_centre3 ec ec1 ec2; eexists; first by reflexivity.
move=> T; set E := _ + hx_at a N hx m'; have mM' : (m'.+2 < M)%N by lia.
have -> : bd (psi (rep A T) M) (psi A M) = tdot q T (fun s => L m'.+2 *m A m'.+2 s *m R m'.+3).
  transitivity (bd (psi (rep A T) M) (psi (rep A (A m'.+2)) M)).
    by apply: bd_extr => d _; symmetry; exact: (@amp_rep_id C D A M 0 m'.+2 d).
  rewrite (brep_gram hl hr hlb _ _ mM'); apply: eq_bigr => s _.
  by rewrite mxtrace_mulC !mulmxA.
rewrite (brep_gram hl hr hlb _ _ mM') gr.
rewrite -tdotD -tdotD -tdotD -tdotD /tdot mulr_sumr -sumrB; apply: eq_bigr => s _.
rewrite [RHS]mxtrace_mulC -mxtraceZ -raddfB /= scalemxAr -mulmxBr; congr (\tr (_ *m _)).
have er := gr3E q fr A r ham' m'.+2 s; rewrite -sw_C3E ?ec in er; last by lia.
have em := gm3E fr A l r ham' (ltn_ord s); rewrite -sw_C3E ?ec1 in em; last by lia.
have m'f : (m'.+2 < fr)%N by lia.
have el := gl3E A l ham' m'f (ltn_ord s); rewrite -sw_C3E ?ec2 in el; last by lia.
have [_ upl] := hl; have [_ upr] := hr.
have [r3 r4] := (upr m'.+3 (ltnW mM), upr m'.+4 mM).
have [n0 n1] : (m' < M)%N /\ (m'.+1 < M)%N by lia.
have [l1 l2] := (upl m' n0, upl m'.+1 n1).
rewrite /sw_Bc3 !(sw_invE eighP) //.
have -> : eps_r_op_2s_C12_AA34 (q m'.+3) (q m'.+4) (R m'.+4.+1)
     (fun t u => c s t u - hx_at a N hx m'.+2 *: calc_AAA_AA (calc_AAs A m'.+2) (A m'.+4) s t u) (calc_AAs A m'.+3) =
    gr3 q fr A r ham' m'.+2 s - hx_at a N hx m'.+2 *: (A m'.+2 s *m R m'.+3).
  rewrite -er !eps_r_op_2s_C12_AA34E r3 /eps_r_noop mulmx_sumr scaler_sumr -sumrB; apply: eq_bigr => t _.
  rewrite r4 /eps_r_noop !(mulmx_sumr, mulmx_suml) scaler_sumr -sumrB; apply: eq_bigr => u _.
  by rewrite !mulmxBl -!scalemxAl /calc_AAA_AA /calc_AAs /calc_AA adjM !mulmxA.
have -> : eps_l_op_2s_AA12_C34 (q m') (q m'.+1) (L m') (calc_AAs A m')
     (fun t u => c2 t u s - hx_at a N hx m' *: calc_AAA_AA (calc_AAs A m') (A m'.+2) t u s) =
    gl3 q A l ham' m'.+2 s - hx_at a N hx m' *: (L m'.+2 *m A m'.+2 s).
  rewrite -el !eps_l_op_2s_AA12_C34E l2 /eps_l_noop exchange_big [X in X - _]exchange_big.
  rewrite mulmx_suml scaler_sumr -sumrB; apply: eq_bigr => u _.
  rewrite l1 /eps_l_noop !(mulmx_sumr, mulmx_suml) scaler_sumr -sumrB; apply: eq_bigr => t _.
  by rewrite !mulmxBr -!scalemxAr /calc_AAA_AA /calc_AAs /calc_AA adjM !mulmxA.
have -> : eps_l_noop (q m'.+1) (L m'.+1) (A m'.+1) (fun t => eps_r_noop (q m'.+3) (R m'.+4)
     (fun u => c1 t s u - hx_at a N hx m'.+1 *: calc_AAA_AA (calc_AAs A m'.+1) (A m'.+3) t s u) (A m'.+3)) =
    gm3 q fr A l r ham' m'.+2 s - hx_at a N hx m'.+1 *: (L m'.+2 *m A m'.+2 s *m R m'.+3).
  rewrite -em l2 /eps_l_noop !mulmx_suml scaler_sumr -sumrB; apply: eq_bigr => t _.
  rewrite -!mulmxA scalemxAr -mulmxBr; congr (_ *m _); rewrite scalemxAr -mulmxBr; congr (_ *m _).
  rewrite r3 /eps_r_noop !(mulmx_sumr, mulmx_suml) scaler_sumr -sumrB; apply: eq_bigr => u _.
  by rewrite !mulmxBl -!scalemxAl /calc_AAA_AA /calc_AAs /calc_AA !mulmxA.
rewrite centre_sandwich3 // /sw_Kcp /sw_Klc adot_noconjE adotE hL1' eKc eKLc /E.
rewrite !mulmxDr !mulmxDl !mulmxN !mulNmx -!scalemxAr -!scalemxAl !mulmxA !scalerDl !opprD.
exact: centre_shuffle3.
Qed.
End Three.

Section Main3.
Variables (C : numClosedFieldType) (D q : nat -> nat) (a N Nc M : nat).
Local Notation bonds := (forall n, 'M[C]_(D n)).
Local Notation sbonds := (forall n, smat C (D n) (D n)).
Variables (lb : 'M[C]_(D 0)) (rb : 'M[C]_(D M)) (A : tensors C D) (l r : sbonds).
Local Notation L n := (toarray (l n)).
Local Notation R n := (toarray (r n)).
Variables (eigh : eigh_routine C) (qrf : qrf_routine C) (tol : C).
Variables (ham : nat -> op3s C) (e : nat -> C) (Kb KLb : bonds).
Local Notation O := (O3 (fun m => Some (ham m))).
Local Notation G := (Gfun q 3 lb rb A O e Kb KLb).
Local Notation bd := (bdotst q M lb rb).
Local Notation Cs := (sw_C3 q a N A ham).
Local Notation en j := (bd (psi A M) (opwin q j 3 (O j) (psi A M))).

(* the energy not subtracted at the centre site, minus the one subtracted in its place *)
Definition sw_miss : C := en (a + Nc).-1 - (if Nc == 1%N then en (a + N)%N else en (a + Nc - 3)%N).

Theorem sw_tdvp3 hleft K0 KL0 :
  up_l q A M lb (fun n => L n) -> up_r q A M rb (fun n => R n) -> herm lb -> herm rb ->
  eigh_contract eigh -> qrf_contract qrf -> 0 <= tol ->
  (1 < a)%N -> (0 < Nc <= N)%N -> (a + N + 3 <= M)%N ->
  Ksub q A (fun n => R n) Kb 3 O e M (a + N).+1 -> KLsub q 3 A (fun n => L n) O e KLb a.+1 ->
  (forall j, (a.-1 <= j <= a + N)%N -> e j = 0) ->
  (forall m, (a < m <= a + N)%N -> full tol (L m)) -> (forall m, (a < m <= a + N)%N -> full tol (R m.+1)) ->
  (forall m, (a < m < a + Nc)%N -> q m = q m.+1) ->
  exists K KL hx B eta,
  [/\ @sw_calc_K3 C D q a N Nc A l r Cs (Kb (a + N).+1) (KLb a.+1) hleft K0 KL0 = Some (K, KL, hx, G A - (N + 2)%:R * hleft),
      (forall j, (a <= j < a + Nc)%N -> hx j = en j.-1) /\ (forall j, (a + Nc <= j <= a + N)%N -> hx j = en j),
      sw_calc_B3 q a N Nc A l r K KL hx eigh qrf tol Cs = Some (B, eta),
      forall m (T : nat -> 'M[C]_(D m, D m.+1)), (a < m <= a + N)%N ->
        G (rep A T) - (G A - sw_miss) * bd (psi (rep A T) M) (psi A M) = bd (psi (rep A T) M) (sw_tv a N M A B) &
      [/\ forall m, (a < m < a + Nc)%N -> lgauge q A (fun n => L n) (otens B m),
          forall m, (a + Nc < m <= a + N)%N -> rgauge q A (fun n => R n) (otens B m),
          eta = sqrtC (bd (sw_tv a N M A B) (sw_tv a N M A B)) &
          bd (psi A M) (sw_tv a N M A B) = G A * (1 - bd (psi A M) (psi A M)) + sw_miss * bd (psi A M) (psi A M)]].
Proof.
move=> hl hr hlb hrb eighP qrfP tol0 ha hNc hM hK hKL he fL fR hq.
have [K [KL [hx [Kg [KLg [eC ehx [k1 g1] eG [eK eKL]]]]]]] := sw_K3 hl hr hlb tol0 ha hNc hM hK hKL he hleft K0 KL0.
have hxr m := sw_xr3 hl hr hlb hrb eighP qrfP tol0 ha hNc hM he k1 g1 eG eK (m := m).
have hxl m := sw_xl3 hl hr hlb hrb eighP qrfP tol0 ha hNc hM he hq k1 g1 eG eKL (m := m).
have hBc := sw_c3 hl hr hlb hrb eighP tol0 ha hNc hM he fL fR hx k1 g1 eG eK eKL.
have ee : sw_E3 a N l r Kg KLg hx (a + Nc) = G A - sw_miss.
  have [m emc] : exists m, (a + Nc = m.+2)%N by exists (a + Nc - 2)%N; lia.
  have [hm1 hm2] : (a <= m.+1)%N /\ (m.+2 <= a + N)%N by lia.
  rewrite (sw_energy3 hl hr hlb tol0 ha hNc hM he k1 g1 eG hm1 hm2) /sw_E3 /sw_miss emc /= /hx_at.
  have [h1 h2] := ehx.
  have [-> ->] : (m.+2 < a)%N = false /\ (m.+1 < a)%N = false by lia.
  rewrite h2; last by lia.
  rewrite h1 /=; last by lia.
  case: (eqVneq Nc 1%N) => eN.
    rewrite ifT; last by lia.
    have -> : (m + N.+1 = a + N)%N by lia.
    rewrite h2; last by lia.
    by rewrite opprB addrA [RHS](ACl (1*2*3*5*6*(4*7))) /= subrr addr0.
  rewrite ifF; last by lia.
  rewrite h1; last by lia.
  have -> : (m.+2 - 3 = m.-1)%N by lia.
  by rewrite opprB addrA [RHS](ACl (1*2*3*5*6*(4*7))) /= subrr addr0.
rewrite ee in hBc.
have [B [eta [eB pr [gl gr] eeta _]]] := sw_B_all hl hr hlb hrb eighP qrfP tol0 (isT : (1 < 3)%N) ha hNc hM fL fR hxr hxl hBc.
exists K, KL, hx, B, eta; split=> //; split=> //.
have hmc : (a < a + Nc <= a + N)%N by lia.
have := pr (a + Nc)%N (A (a + Nc)%N) hmc.
have idA : forall x, bd (psi (rep A (A (a + Nc)%N)) M) x = bd (psi A M) x.
  by move=> x; apply: bd_ext => c _; exact: (@amp_rep_id C D A M 0 (a + Nc) c).
by rewrite !idA Gfun_id mulrBr mulr1 mulrBl opprB addrA => <-; rewrite addrAC.
Qed.
End Main3.
