(* BMix.v -- a piece of a longer chain: sites 0 .. M-1 between boundary matrices lb, rb, with the Hamiltonian terms beyond
   its ends represented by matrices KL (left) and K (right).  Derivative of <psi[.]| H |psi[A]> with respect to the tensor
   of one site, and the reduction of arbitrary derivative vectors to gauge-fixed ones around a centre site.
   Mathematics only; used for the sandwich class (SwTdvp.v). *)
From mathcomp Require Import all_ssreflect all_algebra.
From mathcomp Require Import zify.
From Verif Require Import Base Spec Eps Chain ChainProofs Tangent Tangent2 BTangent.
Set Implicit Arguments.
Unset Strict Implicit.
Unset Printing Implicit Defensive.
Import GRing.Theory Num.Theory.
Local Open Scope ring_scope.

Section Mix.
Variables (C : numClosedFieldType) (D q : nat -> nat).
Local Notation bonds := (forall n, 'M[C]_(D n)).

(* the sites p .. p'-1 between the matrices X and Y, bra tensors B, ket tensors A *)
Definition seg p p' (X : 'M[C]_(D p)) (Y : 'M[C]_(D p')) (B A : tensors C D) : C :=
  \sum_(c <- cfgs q (p' - p) p) \tr ((amp B p' p c)^† *m X *m amp A p' p c *m Y).
Lemma seg_L p' X Y B A : @seg 0 p' X Y B A = \tr (LWb q X B A p' *m Y).
Proof. by rewrite /seg /LWb subn0 mulmx_suml tr_sum. Qed.
Lemma seg_R p p' X Y B A : @seg p p' X Y B A = \tr (X *m @RWb C D q p' Y B A p).
Proof.
rewrite /seg /RWb mulmx_sumr tr_sum; apply: eq_bigr => c _.
by rewrite -!mulmxA mxtrace_mulC !mulmxA.
Qed.

(* ---- tensors with one site replaced ---- *)
Lemma amp_rep (A : tensors C D) p' p m T c1 s c2 : (p + size c1 = m)%N ->
  amp (@rep C D A m T) p' p (c1 ++ s :: c2) = amp A m p c1 *m T s *m amp A p' m.+1 c2.
Proof.
move=> e; rewrite (@amp_cat _ _ (rep A T) _ _ m) // amp_cons rep_same mulmxA.
by congr (_ *m _ *m _); apply: eq_amp => n t nn n'; rewrite rep_other //; lia.
Qed.
Lemma amp_rep_add (A : tensors C D) p' p m T T' c : (p <= m < p + size c)%N ->
  amp (@rep C D A m (fun s => T s + T' s)) p' p c = amp (@rep C D A m T) p' p c + amp (@rep C D A m T') p' p c.
Proof.
move=> h; have sm : (m - p < size c)%N by lia.
have ec : c = take (m - p) c ++ nth 0%N c (m - p) :: drop (m - p).+1 c by rewrite -drop_nth // cat_take_drop.
have st : (p + size (take (m - p) c) = m)%N by rewrite size_take sm; lia.
by rewrite ec !amp_rep // mulmxDr mulmxDl.
Qed.
Lemma amp_rep_move (A : tensors C D) p' p m (Y : 'M[C]_(D m.+1)) c : (p <= m)%N -> (m.+1 < p + size c)%N ->
  amp (@rep C D A m (fun s => A m s *m Y)) p' p c = amp (@rep C D A m.+1 (fun s => Y *m A m.+1 s)) p' p c.
Proof.
move=> h1 h2; have s1 : (m - p < size c)%N by lia.
have s2 : ((m - p).+1 < size c)%N by lia.
have st : (p + size (take (m - p) c) = m)%N by rewrite size_take s1; lia.
have ec : c = take (m - p) c ++ nth 0%N c (m - p) :: nth 0%N c (m - p).+1 :: drop (m - p).+2 c.
  by rewrite -drop_nth // -drop_nth // cat_take_drop.
move: (take (m - p)%N c) (nth 0%N c (m - p)%N) (nth 0%N c (m - p).+1) (drop (m - p).+2 c) st ec => c1 u v c2 st ->.
rewrite amp_rep // amp_cons -cat_rcons amp_rep; last by rewrite size_rcons addnS st.
by rewrite amp_rcons // !mulmxA.
Qed.
Lemma amp_rep_id (A : tensors C D) p' p m c : amp (@rep C D A m (A m)) p' p c = amp A p' p c.
Proof.
apply: eq_amp => n s _ _; case: (eqVneq m n) => [<-|ne]; first by rewrite rep_same.
by rewrite rep_other.
Qed.
Lemma amp_rep_ext (A : tensors C D) p' p m T T' c : (forall s, (s < q m)%N -> T s = T' s) ->
  c \in cfgs q (p' - p) p -> amp (@rep C D A m T) p' p c = amp (@rep C D A m T') p' p c.
Proof.
move=> e /cfgsP[sz hq]; case: (boolP (p <= m < p + size c)%N) => h; last first.
  apply: eq_amp => n s n1 n2; have ne : m != n by apply: contraNneq h => ->; rewrite n1.
  by rewrite !rep_other.
have sm : (m - p < size c)%N by lia.
have ec : c = take (m - p) c ++ nth 0%N c (m - p) :: drop (m - p).+1 c by rewrite -drop_nth // cat_take_drop.
have st : (p + size (take (m - p) c) = m)%N by rewrite size_take sm; lia.
rewrite ec !amp_rep // e //; move: (hq (m - p)%N); rewrite sz in sm; move=> /(_ sm).
by have -> : (p + (m - p) = m)%N by lia.
Qed.

(* ---- the energy functional ---- *)
Variables (M w : nat) (lb : 'M[C]_(D 0)) (rb : 'M[C]_(D M)) (A : tensors C D) (l r : bonds).
Hypotheses (hl : up_l q A M lb l) (hr : up_r q A M rb r) (hlb : herm lb) (w2 : (1 < w)%N).
Variables (O : nat -> seq nat -> seq nat -> C) (e : nat -> C) (K KL : bonds).
Local Notation bd := (bdotst q M lb rb).

(* <psi[B]| H |psi[A]>: the terms inside, less numbers e_j, and those beyond either end *)
Definition Gfun (B : tensors C D) : C :=
  bd (psi B M) (Hsum q M w O (psi A M)) - (\sum_(j < M.+1 - w) e j) * bd (psi B M) (psi A M)
  + seg lb (K (M.+1 - w)) B A + seg (KL w.-1) rb B A.

Definition KLsub (k : nat) := forall j p, (j + w)%N = p.+1 -> (p < k)%N ->
  KL p.+1 = eps_l_noop (q p) (KL p) (A p) (A p) + Yg q w A l O j p.+1 - e j *: l p.+1.

Lemma KLsub_sum k (Gam : bonds) n : KLsub k -> (n + w.-1 <= k)%N ->
  (forall p, (p < n + w.-1)%N -> Gam p = eps_r_noop (q p) (Gam p.+1) (A p) (A p)) ->
  \tr (KL (n + w.-1)%N *m Gam (n + w.-1)%N) =
  \tr (KL w.-1 *m Gam w.-1) + \sum_(j < n) (\tr (Yg q w A l O j (j + w)%N *m Gam (j + w)%N) - e j * \tr (l (j + w)%N *m Gam (j + w)%N)).
Proof.
move=> hK; elim: n => [|n IH] nk hG; first by rewrite big_ord0 addr0.
have e1 : (n + w)%N = (n + w.-1).+1 by lia.
rewrite big_ord_recr /= [RHS]addrA -IH; [|lia|by move=> p hp; apply: hG; lia].
have nk' : (n + w.-1 < k)%N by lia.
move: (n + w)%N e1 => p ep; subst p; rewrite addSn (hK n _ _ nk'); last by lia.
rewrite mulmxBl mulmxDl -scalemxAl raddfB raddfD /= mxtraceZ Tangent.tr_eps -hG; last by lia.
by rewrite addrA.
Qed.

Lemma Yg_tr j p (Y : 'M[C]_(D p)) B : (j + w)%N = p -> (forall m s, (j <= m < p)%N -> B m s = A m s) ->
  \tr (Yg q w A l O j p *m Y) = \tr (l j *m winmat q B A j w (O j) Y).
Proof.
move=> jw hB; rewrite /winmat /Yg mulmx_sumr mulmx_suml !tr_sum; apply: eq_sum_cfgs => c sz.
rewrite mulmx_sumr mulmx_suml !tr_sum; apply: eq_bigr => d _.
rewrite -scalemxAr -scalemxAl !mxtraceZ; congr (_ * _).
have -> : amp B p j c = amp A p j c by apply: eq_amp => n s nj; rewrite sz => np; apply: hB; lia.
by rewrite !mulmxA [RHS]mxtrace_mulC !mulmxA.
Qed.

Lemma gradient_b k0 k1 m T : Ksub q A r K w O e M k0 -> KLsub k1 -> (k0 <= m.+1)%N -> (m <= k1)%N ->
  (w.-1 <= m)%N -> (m + w <= M)%N -> (forall j, (m < j + w)%N -> (j <= m)%N -> e j = 0) ->
  Gfun (@rep C D A m T) = tdot q T (fun s => KL m *m A m s *m r m.+1)
  + \sum_(m.+1 - w <= j < m.+1) \tr (l j *m winmat q (@rep C D A m T) A j w (O j) (r (j + w)%N))
  + tdot q T (fun s => l m *m A m s *m K m.+1).
Proof.
move=> hK hKL mk0 mk1 wm mM he; have mM' : (m < M)%N by lia.
pose Lam := LWb q lb (@rep C D A m T) A; pose Gam := @RWb C D q M rb (@rep C D A m T) A.
have hLam j : (m.+1 <= j < M.+1 - w)%N -> Lam j.+1 = eps_l_noop (q j) (Lam j) (A j) (A j).
  by move=> hj; rewrite /Lam LWb_rep_step //; lia.
have hGam p : (p < m.+1 - w + w.-1)%N -> Gam p = eps_r_noop (q p) (Gam p.+1) (A p) (A p).
  by move=> hp; rewrite /Gam RWb_rep_step //; lia.
have cut j : (j <= M)%N -> bd (psi (rep A T) M) (psi A M) = \tr (Lam j *m Gam j).
  by move=> jM; rewrite (bdotst_cut2 _ _ _ _ _ jM) (lbE hlb).
have hK' : Ksub q A r K w O e M m.+1 by move=> j p hj; apply: hK; lia.
have b1 : (m < M.+1 - w)%N by lia.
have b2 : (M.+1 - w + w <= M.+1)%N by lia.
have eK := Ksub_sum hK' b1 b2 hLam.
have em : (m.+1 - w + w.-1 = m)%N by lia.
have eKL := @KLsub_sum k1 Gam (m.+1 - w) hKL _ hGam; move: eKL; rewrite em => eKL.
have t1 : tdot q T (fun s => l m *m A m s *m K m.+1) = \tr (Lam m.+1 *m K m.+1).
  by rewrite /Lam (LWb_rep_S hl T (ltnW mM')) mulmx_suml tr_sum; apply: eq_bigr => s _; rewrite !mulmxA.
have t2 : tdot q T (fun s => KL m *m A m s *m r m.+1) = \tr (KL m *m Gam m).
  rewrite /Gam (RWb_rep_at hr T mM') mulmx_sumr tr_sum; apply: eq_bigr => s _.
  by rewrite mxtrace_mulC !mulmxA.
rewrite t1 t2 eK.
rewrite eKL; last by lia.
set X := bd (psi (rep A T) M) (psi A M) in cut *; pose t j := bd (psi (rep A T) M) (opwin q j w (O j) (psi A M)).
have s1 : \sum_(j < m.+1 - w) (\tr (Yg q w A l O j (j + w)%N *m Gam (j + w)%N) - e j * \tr (l (j + w)%N *m Gam (j + w)%N)) =
    \sum_(j < m.+1 - w) (t j - e j * X).
  apply: eq_bigr => j _; have jm := ltn_ord j; have jM : (j + w <= M)%N by lia.
  rewrite (cut _ jM) /Lam (LWb_rep_le hl) //; last by lia.
  congr (_ - _); rewrite /t (bdotst_win2 _ _ _ _ _ _ erefl jM) (lbE hlb) (LWb_rep_le hl); [|lia|lia].
  by apply: Yg_tr => // n s hn; rewrite rep_other //; lia.
have s3 : \sum_(m.+1 <= j < M.+1 - w) (\tr (Lam j *m winmat q A A j w (O j) (r (j + w)%N)) - e j * \tr (Lam j *m r j)) =
    \sum_(m.+1 <= j < M.+1 - w) (t j - e j * X).
  rewrite !big_nat; apply: eq_bigr => j hj; have jM : (j + w <= M)%N by lia.
  have jM' : (j <= M)%N by lia.
  rewrite /t (bterm_right hr hlb _ _ _ erefl jM); last by lia.
  by rewrite (cut _ jM') /Gam (RWb_rep_gt hr) //; lia.
have s2 : \sum_(m.+1 - w <= j < m.+1) \tr (l j *m winmat q (rep A T) A j w (O j) (r (j + w)%N)) =
    \sum_(m.+1 - w <= j < m.+1) (t j - e j * X).
  rewrite !big_nat; apply: eq_bigr => j hj; have jM : (j + w <= M)%N by lia.
  rewrite (he j); [|lia|lia]; rewrite mul0r subr0 /t (bterm_cover hl hr hlb _ _ erefl) //; lia.
have sH : bd (psi (rep A T) M) (Hsum q M w O (psi A M)) - (\sum_(j < M.+1 - w) e j) * X = \sum_(0 <= j < M.+1 - w) (t j - e j * X).
  rewrite sumrB -mulr_suml; congr (_ - _ * _); last by rewrite big_mkord.
  rewrite bdotst_Hsum (@big_cat_nat _ _ _ (M.+1 - w) 0 M) ?leq_subr //; last by lia.
  rewrite [X in _ + X = _]big_nat_cond [X in _ + X = _]big1 ?addr0; last by move=> j; lia.
  by rewrite [LHS]big_nat_cond [RHS]big_nat_cond; apply: eq_big => [j|//]; lia.
rewrite /Gfun -/X sH seg_L seg_R -/(Lam _) -/(Gam _) s1 s2 s3.
rewrite (@big_cat_nat _ _ _ m.+1 0 (M.+1 - w)) //=.
rewrite (@big_cat_nat _ _ _ (m.+1 - w) 0 m.+1) //= ?leq_subr //.
rewrite -(big_mkord xpredT (fun j => t j - e j * X)) [\tr (KL _ *m _) + _]addrC -!addrA; congr (_ + _).
by rewrite [RHS]addrC -!addrA.
Qed.

(* ---- the functional of the bra tensors is additive in the tensor of a site, and moves along gauge transformations ---- *)
Lemma bd_add (phi phi1 phi2 Phi : seq nat -> 'M[C]_(D 0, D M)) : (forall c, size c = M -> phi c = phi1 c + phi2 c) ->
  bd phi Phi = bd phi1 Phi + bd phi2 Phi.
Proof.
move=> h; rewrite /bdotst -big_split; apply: eq_big_seq => c /size_cfgs sz /=.
by rewrite h // adjD !mulmxDl raddfD.
Qed.
Lemma bd_ext (phi phi' Phi : seq nat -> 'M[C]_(D 0, D M)) : (forall c, c \in cfgs q M 0 -> phi c = phi' c) ->
  bd phi Phi = bd phi' Phi.
Proof. by move=> h; apply: eq_big_seq => c hc; rewrite h. Qed.
Lemma seg_add p p' X Y (B B1 B2 : tensors C D) :
  (forall c, size c = (p' - p)%N -> amp B p' p c = amp B1 p' p c + amp B2 p' p c) ->
  @seg p p' X Y B A = @seg p p' X Y B1 A + @seg p p' X Y B2 A.
Proof.
move=> h; rewrite /seg -big_split; apply: eq_big_seq => c /size_cfgs sz /=.
by rewrite h // adjD !mulmxDl raddfD.
Qed.
Lemma seg_ext p p' X Y (B B' : tensors C D) :
  (forall c, c \in cfgs q (p' - p) p -> amp B p' p c = amp B' p' p c) -> @seg p p' X Y B A = @seg p p' X Y B' A.
Proof. by move=> h; apply: eq_big_seq => c hc; rewrite h. Qed.

(* a site whose variations all pieces of the functional see *)
Definition inner m := [&& w.-1 <= m, m.+1 <= M.+1 - w & m < M]%N.
Lemma Gfun_add m T T' : inner m ->
  Gfun (@rep C D A m (fun s => T s + T' s)) = Gfun (@rep C D A m T) + Gfun (@rep C D A m T').
Proof.
case/and3P=> h1 h2 h3; rewrite /Gfun.
have hp c : size c = M -> psi (@rep C D A m (fun s => T s + T' s)) M c = psi (@rep C D A m T) M c + psi (@rep C D A m T') M c.
  by move=> sz; apply: (@amp_rep_add A M 0 m T T' c); rewrite sz.
have h1' c : size c = (M.+1 - w - 0)%N -> amp (@rep C D A m (fun s => T s + T' s)) (M.+1 - w) 0 c =
    amp (@rep C D A m T) (M.+1 - w) 0 c + amp (@rep C D A m T') (M.+1 - w) 0 c.
  by move=> sz; apply: amp_rep_add; rewrite sz; lia.
have h2' c : size c = (M - w.-1)%N -> amp (@rep C D A m (fun s => T s + T' s)) M w.-1 c =
    amp (@rep C D A m T) M w.-1 c + amp (@rep C D A m T') M w.-1 c.
  by move=> sz; apply: amp_rep_add; rewrite sz; lia.
rewrite !(bd_add _ hp) (seg_add _ _ h1') (seg_add _ _ h2').
rewrite mulrDr opprD.
by rewrite [X in X + _ + _ = _]addrACA [X in X + _ = _]addrACA [LHS]addrACA.
Qed.
Lemma Gfun_ext m T T' : (forall s, (s < q m)%N -> T s = T' s) -> Gfun (@rep C D A m T) = Gfun (@rep C D A m T').
Proof.
move=> h; rewrite /Gfun.
have hp c : c \in cfgs q M 0 -> psi (@rep C D A m T) M c = psi (@rep C D A m T') M c.
  by move=> hc; apply: (@amp_rep_ext A M 0 m T T' c); rewrite ?subn0.
by rewrite !(bd_ext _ hp); congr (_ + _ + _); apply: seg_ext => c; apply: amp_rep_ext.
Qed.
Lemma Gfun_move m (Y : 'M[C]_(D m.+1)) : inner m -> inner m.+1 ->
  Gfun (@rep C D A m (fun s => A m s *m Y)) = Gfun (@rep C D A m.+1 (fun s => Y *m A m.+1 s)).
Proof.
case/and3P=> h1 h2 h3 /and3P[k1 k2 k3]; rewrite /Gfun.
have hp c : c \in cfgs q M 0 -> psi (@rep C D A m (fun s => A m s *m Y)) M c = psi (@rep C D A m.+1 (fun s => Y *m A m.+1 s)) M c.
  by move=> /size_cfgs sz; apply: (@amp_rep_move A M 0 m Y c); rewrite ?sz.
rewrite !(bd_ext _ hp); congr (_ + _ + _); apply: seg_ext => c /size_cfgs sz; apply: amp_rep_move; rewrite ?sz; lia.
Qed.
Lemma Gfun_id m : Gfun (@rep C D A m (A m)) = Gfun A.
Proof.
rewrite /Gfun.
have hp c : c \in cfgs q M 0 -> psi (@rep C D A m (A m)) M c = psi A M c by move=> _; exact: amp_rep_id.
by rewrite !(bd_ext _ hp); congr (_ + _ + _); apply: seg_ext => c _; exact: amp_rep_id.
Qed.

(* ---- orthogonality in the left gauge ---- *)
Lemma bl_orth_psi m (T : nat -> 'M[C]_(D m, D m.+1)) : lgauge q A l T -> (m < M)%N -> bd (psi (rep A T) M) (psi A M) = 0.
Proof.
move=> g mM; rewrite (bdotst_cut2 _ _ _ _ _ mM) (lbE hlb) (LWb_rep_S hl T (ltnW mM)).
by rewrite (_ : eps_l_noop _ _ _ _ = 0) ?mul0mx ?mxtrace0.
Qed.
Lemma bl_orth m k (T : nat -> 'M[C]_(D m, D m.+1)) (T' : nat -> 'M[C]_(D k, D k.+1)) : (m < k)%N -> (k < M)%N ->
  lgauge q A l T -> bd (psi (rep A T) M) (psi (rep A T') M) = 0.
Proof.
move=> mk kM g; have mM := ltn_trans mk kM; rewrite (bdotst_cut2 _ _ _ _ _ mM) (lbE hlb) LWbS rep_same [rep A T' m]rep_other; last by lia.
rewrite (@eq_LWb _ _ _ _ _ A _ A); last 2 first.
- by move=> n s nm; rewrite rep_other //; lia.
- by move=> n s nm; rewrite rep_other //; lia.
by rewrite (LWb_up hl (ltnW mM)) (_ : eps_l_noop _ _ _ _ = 0) ?mul0mx ?mxtrace0.
Qed.
Lemma bl_orth' m k (T : nat -> 'M[C]_(D m, D m.+1)) (T' : nat -> 'M[C]_(D k, D k.+1)) : (k < m)%N -> (m < M)%N ->
  eps_l_noop (q k) (l k) (A k) T' = 0 -> bd (psi (rep A T) M) (psi (rep A T') M) = 0.
Proof.
move=> mk kM g; have mM := ltn_trans mk kM; rewrite (bdotst_cut2 _ _ _ _ _ mM) (lbE hlb) LWbS [rep A T k]rep_other ?rep_same; last by lia.
rewrite (@eq_LWb _ _ _ _ _ A _ A); last 2 first.
- by move=> n s nm; rewrite rep_other //; lia.
- by move=> n s nm; rewrite rep_other //; lia.
by rewrite (LWb_up hl (ltnW mM)) g ?mul0mx ?mxtrace0.
Qed.
End Mix.

(* ---- functionals that vanish on the gauge-fixed tensors vanish ---- *)
Section Fix.
Variables (C : numClosedFieldType) (D q : nat -> nat) (A : tensors C D) (l r : forall n, 'M[C]_(D n)).
Variables (m1 mc m2 : nat) (F : forall m, (nat -> 'M[C]_(D m, D m.+1)) -> C).
Hypothesis h12 : (m1 <= mc < m2)%N.
Hypothesis up_l' : forall m, (m1 <= m < mc)%N -> l m.+1 = eps_l_noop (q m) (l m) (A m) (A m).
Hypothesis up_r' : forall m, (mc < m < m2)%N -> r m = eps_r_noop (q m) (r m.+1) (A m) (A m).
Hypothesis ul : forall m, (m1 <= m < mc)%N -> l m.+1 \in unitmx.
Hypothesis ur : forall m, (mc < m < m2)%N -> r m \in unitmx.
Hypothesis F_add : forall m T T', (m1 <= m < m2)%N -> @F m (fun s => T s + T' s) = F T + F T'.
Hypothesis F_ext : forall m T T', (forall s, (s < q m)%N -> T s = T' s) -> @F m T = @F m T'.
Hypothesis F_move : forall m Y, (m1 <= m)%N -> (m.+1 < m2)%N -> @F m (fun s => A m s *m Y) = @F m.+1 (fun s => Y *m A m.+1 s).
Hypothesis F_c : forall T, @F mc T = 0.
Hypothesis F_l : forall m T, (m1 <= m < mc)%N -> eps_l_noop (q m) (l m) (A m) T = 0 -> @F m T = 0.
Hypothesis F_r : forall m T, (mc < m < m2)%N -> eps_r_noop (q m) (r m.+1) T (A m) = 0 -> @F m T = 0.

Lemma F_all m T : (m1 <= m < m2)%N -> @F m T = 0.
Proof.
have left k n T' : (n + k = mc)%N -> (m1 <= n)%N -> @F n T' = 0.
  elim: k n T' => [|k IH] n T' e h1.
    by move: T'; rewrite addn0 in e; rewrite e.
  have hn : (m1 <= n < mc)%N by lia.
  pose Y := invmx (l n.+1) *m eps_l_noop (q n) (l n) (A n) T'.
  have -> : F T' = F (fun s => (T' s - A n s *m Y) + A n s *m Y) by apply: F_ext => s _; rewrite subrK.
  rewrite F_add; last by lia.
  rewrite F_move //; last by lia.
  rewrite [X in _ + X]IH ?addr0; [apply: F_l => // | lia | lia].
  transitivity (eps_l_noop (q n) (l n) (A n) T' - eps_l_noop (q n) (l n) (A n) (A n) *m Y).
    by rewrite /eps_l_noop mulmx_suml -sumrB; apply: eq_bigr => s _; rewrite !mulmxBr !mulmxA.
  by rewrite -up_l' // /Y mulKVmx ?subrr // ul.
have right k n T' : (mc + k = n)%N -> (n < m2)%N -> @F n T' = 0.
  elim: k n T' => [|k IH] n T' e h1.
    by move: T'; rewrite addn0 in e; rewrite -e.
  case: n e h1 T' => [|n] e h1 T'; first by lia.
  have hn : (mc < n.+1 < m2)%N by lia.
  pose Y := eps_r_noop (q n.+1) (r n.+2) T' (A n.+1) *m invmx (r n.+1).
  have -> : F T' = F (fun s => (T' s - Y *m A n.+1 s) + Y *m A n.+1 s) by apply: F_ext => s _; rewrite subrK.
  rewrite F_add; last by lia.
  rewrite -(@F_move n Y); [|lia|lia].
  rewrite [X in _ + X]IH ?addr0; [apply: F_r => // | lia | lia].
  transitivity (eps_r_noop (q n.+1) (r n.+2) T' (A n.+1) - Y *m eps_r_noop (q n.+1) (r n.+2) (A n.+1) (A n.+1)).
    by rewrite /eps_r_noop mulmx_sumr -sumrB; apply: eq_bigr => s _; rewrite !mulmxBl !mulmxA.
  by rewrite -up_r' // /Y mulmxKV ?subrr // ur.
move=> hm; case: (leqP m mc) => h; [apply: (left (mc - m)%N) | apply: (right (m - mc)%N)]; lia.
Qed.
End Fix.

(* ---- the tangent vector that represents the functional ---- *)
Section Proj.
Variables (C : numClosedFieldType) (D q : nat -> nat).
Local Notation bonds := (forall n, 'M[C]_(D n)).
Variables (M w : nat) (lb : 'M[C]_(D 0)) (rb : 'M[C]_(D M)) (A : tensors C D) (l r : bonds).
Hypotheses (hl : up_l q A M lb l) (hr : up_r q A M rb r) (hlb : herm lb) (hrb : herm rb).
Local Notation bd := (bdotst q M lb rb).

Lemma bl_herm n : (n <= M)%N -> herm (l n).
Proof.
elim: n => [|n IH] nM; first by have [-> _] := hl.
have [_ e] := hl; rewrite /herm e // /eps_l_noop adj_sum; apply: eq_bigr => s _.
by rewrite !adjM adjK (IH (ltnW nM)) !mulmxA.
Qed.
Lemma br_herm n : (n <= M)%N -> herm (r n).
Proof.
move=> nM; move: (subnKC nM); move: (M - n)%N => k; elim: k n {nM} => [|k IH] n e.
  by rewrite addn0 in e; move: (r) hr; rewrite e => r' [-> _].
have nM : (n < M)%N by lia.
have [_ er] := hr; rewrite /herm er // /eps_r_noop adj_sum; apply: eq_bigr => s _.
by rewrite !adjM adjK (IH n.+1) ?mulmxA //; lia.
Qed.
Lemma blgauge_adj m (T : nat -> 'M[C]_(D m, D m.+1)) : (m < M)%N -> lgauge q A l T <-> eps_l_noop (q m) (l m) (A m) T = 0.
Proof.
move=> mM; have e : (eps_l_noop (q m) (l m) (A m) T)^† = eps_l_noop (q m) (l m) T (A m).
  by rewrite /eps_l_noop adj_sum; apply: eq_bigr => s _; rewrite !adjM adjK (bl_herm (ltnW mM)) mulmxA.
by rewrite /lgauge -e; split=> [h|->]; [rewrite -[LHS]adjK h adj0 | rewrite adj0].
Qed.
Lemma brgauge_adj m (T : nat -> 'M[C]_(D m, D m.+1)) : (m < M)%N -> rgauge q A r T <-> eps_r_noop (q m) (r m.+1) T (A m) = 0.
Proof.
move=> mM; have e : (eps_r_noop (q m) (r m.+1) T (A m))^† = eps_r_noop (q m) (r m.+1) (A m) T.
  by rewrite /eps_r_noop adj_sum; apply: eq_bigr => s _; rewrite !adjM adjK (br_herm mM) mulmxA.
by rewrite /rgauge -e; split=> [h|->]; [rewrite -[LHS]adjK h adj0 | rewrite adj0].
Qed.

Lemma bd_sumr n (phi : seq nat -> 'M[C]_(D 0, D M)) (f : nat -> seq nat -> 'M[C]_(D 0, D M)) :
  bd phi (fun c => \sum_(k < n) f k c) = \sum_(k < n) bd phi (f k).
Proof.
rewrite /bdotst [RHS]exchange_big; apply: eq_bigr => c _ /=.
by rewrite mulmx_sumr mulmx_suml tr_sum.
Qed.
Lemma bd_suml n (Phi : seq nat -> 'M[C]_(D 0, D M)) (f : nat -> seq nat -> 'M[C]_(D 0, D M)) :
  bd (fun c => \sum_(k < n) f k c) Phi = \sum_(k < n) bd (f k) Phi.
Proof.
rewrite /bdotst [RHS]exchange_big; apply: eq_bigr => c _ /=.
by rewrite adj_sum !mulmx_suml tr_sum.
Qed.
Lemma bd_extr (phi Phi Phi' : seq nat -> 'M[C]_(D 0, D M)) : (forall c, c \in cfgs q M 0 -> Phi c = Phi' c) ->
  bd phi Phi = bd phi Phi'.
Proof. by move=> h; apply: eq_big_seq => c hc; rewrite h. Qed.

Hypothesis w2 : (1 < w)%N.
Variables (O : nat -> seq nat -> seq nat -> C) (e : nat -> C) (K KL : bonds).
Local Notation G := (Gfun q w lb rb A O e K KL).

(* sites m1 .. m1+n-1, centre mc *)
Variables (m1 mc n : nat) (B : forall m, nat -> 'M[C]_(D m, D m.+1)) (E : C).
Hypotheses (hm1 : (w.-1 <= m1)%N) (hm2 : (m1 + n + w <= M.+1)%N) (hmc : (m1 <= mc < m1 + n)%N).
Hypothesis ul : forall m, (m1 <= m < mc)%N -> l m.+1 \in unitmx.
Hypothesis ur : forall m, (mc < m < m1 + n)%N -> r m \in unitmx.
Hypothesis BL : forall m, (m1 <= m < mc)%N -> lgauge q A l (B m) /\ forall T : nat -> 'M[C]_(D m, D m.+1), lgauge q A l T ->
  G (rep A T) = bd (psi (rep A T) M) (psi (rep A (B m)) M).
Hypothesis BR : forall m, (mc < m < m1 + n)%N -> rgauge q A r (B m) /\ forall T : nat -> 'M[C]_(D m, D m.+1), rgauge q A r T ->
  G (rep A T) = bd (psi (rep A T) M) (psi (rep A (B m)) M).
Hypothesis BC : forall T : nat -> 'M[C]_(D mc, D mc.+1),
  G (rep A T) - E * bd (psi (rep A T) M) (psi A M) = bd (psi (rep A T) M) (psi (rep A (B mc)) M).

Definition tvw (c : seq nat) : 'M[C]_(D 0, D M) := \sum_(k < n) psi (rep A (B (m1 + k)%N)) M c.

(* only the tangent vector of the same site is seen *)
Lemma tvw_same m T : (m1 <= m < m1 + n)%N ->
  ((m < mc)%N -> lgauge q A l T) -> ((mc < m)%N -> rgauge q A r T) ->
  bd (psi (@rep C D A m T) M) tvw = bd (psi (@rep C D A m T) M) (psi (rep A (B m)) M).
Proof.
move=> hm gl gr; rewrite /tvw (bd_sumr n _ (fun k => psi (rep A (B (m1 + k)%N)) M)).
have mn : (m - m1 < n)%N by lia.
rewrite (bigD1 (Ordinal mn)) //= big1 ?addr0; first by rewrite subnKC //; lia.
move=> k /eqP ne; have kn := ltn_ord k.
have {ne} ne : (m1 + k)%N != m by apply/eqP=> h; apply: ne; apply/val_inj => /=; lia.
have k0 : (m1 + k < m1 + n)%N by lia.
move: (m1 + k)%N (leq_addr k m1) k0 ne => k' k1 k2 ne.
have mM : (m < M)%N by lia.
have kM : (k' < M)%N by lia.
case: (ltngtP k' m) ne => // c _.
- case: (ltnP k' mc) => c2; last by apply: (brep_orth' lb hr) => //; apply: gr; lia.
  have hk : (m1 <= k' < mc)%N by lia.
  by apply: (bl_orth' rb hl hlb w2) => //; apply/(blgauge_adj _ kM); have [] := BL hk.
- case: (ltnP mc k') => c2; last by apply: (bl_orth rb hl hlb w2) => //; apply: gl; lia.
  have hk : (mc < k' < m1 + n)%N by lia.
  by apply: (brep_orth lb hr) => //; apply/(brgauge_adj _ kM); have [] := BR hk.
Qed.

Lemma tvw_proj m T : (m1 <= m < m1 + n)%N ->
  G (@rep C D A m T) - E * bd (psi (rep A T) M) (psi A M) = bd (psi (rep A T) M) tvw.
Proof.
pose F k (T : nat -> 'M[C]_(D k, D k.+1)) := G (rep A T) - E * bd (psi (rep A T) M) (psi A M) - bd (psi (rep A T) M) tvw.
have inn k : (m1 <= k < m1 + n)%N -> inner M w k by rewrite /inner; lia.
move=> hm; suff h0 : @F m T = 0 by apply/eqP; rewrite -subr_eq0 -/(F m T) h0.
have hp k Ta Tb c : (m1 <= k < m1 + n)%N -> size c = M ->
    psi (@rep C D A k (fun s => Ta s + Tb s)) M c = psi (@rep C D A k Ta) M c + psi (@rep C D A k Tb) M c.
  by move=> hk sz; apply: (@amp_rep_add C D A M 0 k Ta Tb c); rewrite sz; lia.
apply: (@F_all C D q A l r m1 mc (m1 + n) F _ _ _ ul ur) => //.
- by move=> k hk; have [_ ->] := hl => //; lia.
- by move=> k hk; have [_ ->] := hr => //; lia.
- move=> k Ta Tb hk; rewrite /F (Gfun_add _ _ _ _ w2 _ _ _ _ _ _ (inn _ hk)).
  rewrite !(bd_add _ _ _ _ (fun c => hp k Ta Tb c hk)) mulrDr !opprD.
  by rewrite [X in X + _ = _]addrACA [LHS]addrACA.
- move=> k Ta Tb h; rewrite /F (Gfun_ext _ _ _ _ _ _ _ _ h).
  have h' c : c \in cfgs q M 0 -> psi (@rep C D A k Ta) M c = psi (@rep C D A k Tb) M c.
    by move=> hc; apply: (@amp_rep_ext C D q A M 0 k Ta Tb c); rewrite ?subn0.
  by rewrite !(bd_ext _ _ _ h').
- move=> k Y h1 h2; have i1 : inner M w k by apply: inn; lia.
  have i2 : inner M w k.+1 by apply: inn; lia.
  rewrite /F (Gfun_move _ _ _ _ w2 _ _ _ _ _ i1 i2).
  have h' c : c \in cfgs q M 0 -> psi (@rep C D A k (fun s => A k s *m Y)) M c = psi (@rep C D A k.+1 (fun s => Y *m A k.+1 s)) M c.
    by move=> /size_cfgs sz; apply: (@amp_rep_move C D A M 0 k Y c); rewrite ?sz //; lia.
  by rewrite !(bd_ext _ _ _ h').
- by move=> Tc; rewrite /F BC tvw_same ?subrr //; lia.
- move=> k Tk hk g; have kM : (k < M)%N by lia.
  have gk : lgauge q A l Tk by apply/(blgauge_adj _ kM).
  have [_ h] := BL hk; rewrite /F h // (bl_orth_psi rb hl hlb gk kM) mulr0 subr0 tvw_same ?subrr //; lia.
- move=> k Tk hk g; have kM : (k < M)%N by lia.
  have gk : rgauge q A r Tk by apply/(brgauge_adj _ kM).
  have [_ h] := BR hk; rewrite /F h // (brep_orth_psi lb hr gk kM) mulr0 subr0 tvw_same ?subrr //; lia.
Qed.
Lemma tvw_norm : bd tvw tvw = \sum_(k < n) bd (psi (rep A (B (m1 + k)%N)) M) (psi (rep A (B (m1 + k)%N)) M).
Proof.
rewrite {1}/tvw (bd_suml n _ (fun k => psi (rep A (B (m1 + k)%N)) M)); apply: eq_bigr => k _; have kn := ltn_ord k.
apply: tvw_same => [|h|h]; first by lia.
- have hk : (m1 <= m1 + k < mc)%N by lia.
  by have [] := BL hk.
- have hk : (mc < m1 + k < m1 + n)%N by lia.
  by have [] := BR hk.
Qed.
End Proj.

(* ---- continuing the families of matrices through the piece ---- *)
Section Ext.
Variables (C : numClosedFieldType) (D q : nat -> nat).
Local Notation bonds := (forall n, 'M[C]_(D n)).
Variables (M w : nat) (A : tensors C D) (l r : bonds) (O : nat -> seq nat -> seq nat -> C) (e : nat -> C).
Hypothesis w0 : (0 < w)%N.

Lemma Ksub_ext (K : bonds) k0 : Ksub q A r K w O e M k0 ->
  exists2 K' : bonds, Ksub q A r K' w O e M 0 & forall n, (k0 <= n)%N -> K' n = K n.
Proof.
move=> hK; have [X [X1 X2]] := @Tangent2.bonds_down C D k0 (fun j Y => eps_r_noop (q j) Y (A j) (A j) + winmat q A A j w (O j) (r (j + w)%N) - e j *: r j) (K k0).
exists (fun n => if (n < k0)%N then X n else K n); last by move=> n h; rewrite ltnNge h.
move=> j p _ <- jM; case: ifP => h; last first.
  by rewrite (hK j (j + w)%N) //; [rewrite ifN //|]; lia.
rewrite X2 //; case: ifP => // h'; have ek : k0 = j.+1 by lia.
by move: X1; rewrite ek => ->.
Qed.
Fixpoint KL_up (k1 : nat) (KL : bonds) (n : nat) : 'M[C]_(D n) :=
  match n return 'M[C]_(D n) with
  | 0%N => KL 0%N
  | p.+1 => if (p < k1)%N then KL p.+1 else
      eps_l_noop (q p) (KL_up k1 KL p) (A p) (A p) + Yg q w A l O (p.+1 - w) p.+1 - e (p.+1 - w)%N *: l p.+1
  end.
Lemma KLsub_ext (KL : bonds) k1 : KLsub q w A l O e KL k1 ->
  exists2 KL' : bonds, forall k, KLsub q w A l O e KL' k & forall n, (n <= k1)%N -> KL' n = KL n.
Proof.
move=> hK; have eq n : (n <= k1)%N -> KL_up k1 KL n = KL n by case: n => //= n ->.
exists (KL_up k1 KL) => // k j p jp pk; case: (ltnP p k1) => h.
  by rewrite !eq ?(ltnW h) //; apply: hK.
have -> : j = (p.+1 - w)%N by lia.
by rewrite /= ltnNge h.
Qed.
End Ext.
