(* P22_SwCanon.v -- C61: restore_CF of the sandwich class. *)
From mathcomp Require Import all_ssreflect all_algebra.
From mathcomp Require Import zify.
From Verif Require Import Base Spec Eps Chain ChainProofs LinAlg Struct Factor Canon Uniform UCanon SwCanon P17_UCanon.
Set Implicit Arguments.
Unset Strict Implicit.
Unset Printing Implicit Defensive.
Import Order.TTheory GRing.Theory Num.Theory.
Local Open Scope ring_scope.

Section C61.
Variables (C : numClosedFieldType) (eigh : eigh_routine C) (chol : chol_routine C).
Hypotheses (eighP : eigh_contract eigh) (cholP : chol_contract chol).
Variables (N m LL LR qb : nat) (D q : nat -> nat).
Hypotheses (LL0 : (0 < LL)%N) (LR0 : (0 < LR)%N) (mN : (m < N)%N).
Notation bonds := (forall n, 'M[C]_(D n)).
Notation sw := (sw C N D).

(* the true environments of the window in state s *)
Definition true_l (s : sw) (ll : bonds) := ll 0%N = ul (bL s) LL.-1 /\
  forall n, (n < N)%N -> ll n.+1 = eps_l_noop (q n) (ll n) (wA s n) (wA s n).
Definition true_r (s : sw) (rr : bonds) := rr N = ur (bR s) LR.-1 /\
  forall n, (n < N)%N -> rr n = eps_r_noop (q n) (rr n.+1) (wA s n) (wA s n).
(* every environment that is factorised is Hermitian with eigenvalues above the tolerance *)
Definition full_rank (tol : C) (s : sw) (ll rr : bonds) :=
  [/\ forall k, (k < LR)%N -> herm (ur (bR s) k) /\ above tol (ur (bR s) k),
      forall k, (k < LL)%N -> herm (ul (bL s) k) /\ above tol (ul (bL s) k),
      forall n, (m < n <= N)%N -> above tol (rr n) & forall n, (n <= m)%N -> above tol (ll n)].
(* the canonical form of the sandwich: bond m+1 is left of the centre site *)
Definition canonical (s : sw) :=
  [/\ forall n, (n <= m)%N -> wl s n = 1%:M /\ rdiag (wr s n),
      forall n, (m < n <= N)%N -> wr s n = 1%:M /\ rdiag (wl s n),
      (forall k, (k < LL)%N -> ul (bL s) k = 1%:M) /\ (forall k, (k < LR)%N -> ur (bR s) k = 1%:M),
      true_l s (wl s) & true_r s (wr s)].

Lemma ugauge_refl n L (L0 : (0 < L)%N) (b : ust C n) : ugauge L (fun _ => 1%:M) b b.
Proof. by move=> k kL; rewrite unitmx1 invmx1 adj1; split=> // *; rewrite ?mulmx1 !mul1mx ?mulmx1. Qed.
Lemma eps_l_ext Da Db qn (x : 'M[C]_Da) (A B : nat -> 'M[C]_(Da, Db)) : (forall t, A t = B t) ->
  eps_l_noop qn x A A = eps_l_noop qn x B B.
Proof. by move=> e; rewrite /eps_l_noop; apply: eq_bigr => t _; rewrite !e. Qed.
Lemma eps_r_ext Da Db qn (x : 'M[C]_Db) (A B : nat -> 'M[C]_(Da, Db)) : (forall t, A t = B t) ->
  eps_r_noop qn x A A = eps_r_noop qn x B B.
Proof. by move=> e; rewrite /eps_r_noop; apply: eq_bigr => t _; rewrite !e. Qed.
Lemma eps_l_gauge Da Db qn (x g : 'M[C]_Da) (h : 'M[C]_Db) (A B : nat -> 'M[C]_(Da, Db)) : g \in unitmx ->
  (forall t, B t = invmx g *m A t *m h) -> eps_l_noop qn (g^† *m x *m g) B B = h^† *m eps_l_noop qn x A A *m h.
Proof.
move=> ug e; have vv : (invmx g)^† *m g^† = 1%:M by rewrite -adjM mulmxV // adj1.
rewrite /eps_l_noop mulmx_sumr mulmx_suml; apply: eq_bigr => t _; rewrite !e !adjM.
rewrite -!mulmxA (mulmxA (invmx g)^†) vv mul1mx (mulmxA g) mulmxV // mul1mx.
by rewrite !mulmxA.
Qed.
Lemma eps_r_gauge Da Db qn (x h : 'M[C]_Db) (g : 'M[C]_Da) (A B : nat -> 'M[C]_(Da, Db)) : h \in unitmx ->
  (forall t, B t = invmx g *m A t *m h) -> eps_r_noop qn (invmx h *m x *m (invmx h)^†) B B = invmx g *m eps_r_noop qn x A A *m (invmx g)^†.
Proof.
move=> ug e; have vv : (invmx h)^† *m h^† = 1%:M by rewrite -adjM mulmxV // adj1.
rewrite /eps_r_noop mulmx_sumr mulmx_suml; apply: eq_bigr => t _; rewrite !e !adjM.
rewrite -!mulmxA (mulmxA h (invmx _)) mulmxV // mul1mx (mulmxA (invmx h)^†) vv mul1mx.
by rewrite !mulmxA.
Qed.

Lemma adot1E n (x y : 'M[C]_n) : adot 1%:M (x *m y *m x^†) = \tr (x^† *m x *m y).
Proof. by rewrite adotE adj1 mul1mx mxtrace_mulC mulmxA. Qed.
Lemma eps_r_norm Da Db qn (A : nat -> 'M[C]_(Da, Db)) : 0 <= adot 1%:M (eps_r_noop qn 1%:M A A).
Proof.
rewrite /eps_r_noop adot_sumr; apply: sumr_ge0 => t _.
by rewrite mulmx1 adotE adj1 mul1mx mxtrace_mulC -adotE adot_ge0.
Qed.

(* after _restore_CF_ONR *)
Lemma onrP tol (s : sw) ll rr : 0 <= tol -> true_l s ll -> true_r s rr -> full_rank tol s ll rr ->
  exists s1 s2 gl g gr, [/\ onr_right eigh chol m LR q tol s = Some s1, onr_left eigh chol m LL q tol s1 = Some s2,
    sgauge m LL LR 1 gl g gr s s2,
    [/\ forall n, (n <= m)%N -> wl s2 n = 1%:M, forall n, (m < n <= N)%N -> wr s2 n = 1%:M,
        forall j, (j < m)%N -> eps_l_noop (q j) 1%:M (wA s2 j) (wA s2 j) = 1%:M,
        forall j, (m < j < N)%N -> eps_r_noop (q j) 1%:M (wA s2 j) (wA s2 j) = 1%:M
      & adot 1%:M (eps_r_noop (q m) 1%:M (wA s2 m) (wA s2 m)) = adot (ll m) (rr m)]
  & (forall k, (k < LL)%N -> ul (bL s2) k = 1%:M) /\ (forall k, (k < LR)%N -> ur (bR s2) k = 1%:M) /\ rN1 s2 = 1%:M].
Proof.
move=> t0 [ll0 llS] [rrN rrS] [hR hL ar al].
have [s1 [gr [gR [e1 [[ub1 r1] eN hgR [a1 a2 a3] [w1 b1 rn1]]]]]] := onr_rightP eighP cholP LL0 LR0 mN t0 rrN rrS hR ar.
have ll0' : ll 0%N = ul (bL s1) LL.-1 by rewrite b1.
have llS' n : (n < m)%N -> ll n.+1 = eps_l_noop (q n) (ll n) (wA s1 n) (wA s1 n).
  by move=> nm; rewrite llS ?a3 //; lia.
have hL' k : (k < LL)%N -> herm (ul (bL s1) k) /\ above tol (ul (bL s1) k) by rewrite b1; apply: hL.
have [s2 [gl [gL [e2 [[ub2 l2] e0 hgL [c1 c2 c3] [w2 b2 rn2]]]]]] := onr_leftP eighP cholP LL0 LR0 mN t0 ll0' llS' hL' al.
pose g : bonds := fun n => if (n <= m)%N then gL n else gR n.
have gl_ n : (n <= m)%N -> g n = gL n by rewrite /g => ->.
have gr_ n : (m < n)%N -> g n = gR n by move=> h; rewrite /g leqNgt h.
have gu n : (n <= N)%N -> g n \in unitmx.
  move=> nN; have [nm|nm] := leqP n m; first by rewrite gl_ //; have [] := hgL n nm.
  by rewrite gr_ //; have [] := hgR n; first by rewrite nm.
have eA n t : (n < N)%N -> wA s2 n t = invmx (g n) *m wA s n t *m g n.+1.
  move=> nN; case: (ltngtP n m) => nm.
  - by rewrite c1 // a3 // !gl_ // ltnW.
  - by rewrite c3 // a1 ?nm // !gr_ // leqW.
  - by rewrite nm c2 a2 gl_ // gr_ // mulmxA.
have gl1 n : (n <= m)%N -> (g n)^† *m ll n *m g n = 1%:M by move=> nm; rewrite gl_ //; have [] := hgL n nm.
have gr1 n : (m < n <= N)%N -> invmx (g n) *m rr n *m (invmx (g n))^† = 1%:M.
  move=> hn; have [nm _] := andP hn; rewrite gr_ //; have [u <- _] := hgR n hn.
  by rewrite mulmxA mulVmx // mul1mx -adjM mulVmx // adj1.
exists s1, s2, gl, g, gr; split=> //.
- split=> //.
  + by rewrite -b1.
  + by rewrite b2.
  + by move=> n t nN; rewrite eA //; case: eqP => _; rewrite scale1r.
  + by rewrite e0 eN gl_ // gr_.
- split.
  + by move=> n /hgL[].
  + by move=> n /hgR[]; rewrite w2.
  + move=> j jm; have jN : (j < N)%N by lia.
    rewrite -{1}(gl1 j (ltnW jm)) (eps_l_gauge _ _ _ (eA j ^~ jN)) ?gu //; last by lia.
    by rewrite -llS // gl1.
  + move=> j hj; have jN : (j < N)%N by lia.
    have hj1 : (m < j.+1 <= N)%N by lia.
    rewrite -{1}(gr1 j.+1 hj1) (eps_r_gauge _ _ (gu _ jN) (eA j ^~ jN)).
    by rewrite -rrS // gr1 //; lia.
  + have hj1 : (m < m.+1 <= N)%N by lia.
    rewrite -(gr1 m.+1 hj1) (eps_r_gauge _ _ (gu _ mN) (eA m ^~ mN)) -rrS // adot1E.
    have e := gl1 m (leqnn m); have um : g m \in unitmx by apply: gu; lia.
    have vv : (invmx (g m))^† *m (g m)^† = 1%:M by rewrite -adjM mulmxV // adj1.
    have eg : (invmx (g m))^† *m invmx (g m) = ll m.
      have -> : ll m = (invmx (g m))^† *m ((g m)^† *m ll m *m g m) *m invmx (g m) by rewrite !mulmxA vv mul1mx mulmxK.
      by rewrite e mulmx1.
    by rewrite adotE -eg adjM adjK.
- by rewrite b2 rn2.
Qed.

Lemma unit_gauge n (u : 'M[C]_n) : u^† *m u = 1%:M ->
  [/\ u \in unitmx, u^† *m 1%:M *m u = 1%:M & invmx u *m 1%:M *m (invmx u)^† = 1%:M].
Proof. by move=> h; have [u1 e] := unitary_inv h; split=> //; rewrite mulmx1 // e adjK. Qed.
Lemma restore_CFP tol eps (s : sw) ll rr : 0 <= tol -> true_l s ll -> true_r s rr -> full_rank tol s ll rr ->
  exists s' a gl g gr, [/\ restore_CF eigh chol m LL LR qb q tol eps s = Some s',
     sgauge m LL LR a gl g gr s s', canonical s' /\ 0 <= adot (ll m) (rr m),
     adot (wl s' m) (wr s' m) = `|a| ^+ 2 * adot (ll m) (rr m)
   & a = (if eps < `|1 - adot (ll m) (rr m)| then 1 / sqrtC (adot (ll m) (rr m)) else 1) /\
     [/\ rN1 s' = 1%:M & lN1 s' = eps_l_noop qb (wl s' N) (uA (bR s') 0%N) (uA (bR s') 0%N)]].
Proof.
move=> t0 tl tr fr; have [s1 [s2 [gl [g [gr [e1 e2 sg [w1 w2 f1 f2 nm] [l2 [r2 rn2]]]]]]]] := onrP t0 tl tr fr.
set norm := adot (ll m) (rr m); set a := if eps < _ then _ else _.
have w2m : wr s2 m.+1 = 1%:M by apply: w2; lia.
have nm' : adot (wl s2 m) (eps_r_noop (q m) (wr s2 m.+1) (wA s2 m) (wA s2 m)) = norm by rewrite w1 // w2m nm.
pose s3 := renorm m q eps s2.
have A3 n t : wA s3 n t = (if n == m then a else 1) *: wA s2 n t.
  rewrite /s3 /renorm nm' /a /=; case: ifP => _ /=.
    case: eqP => [->|/eqP ne]; first by rewrite upd_same.
    by rewrite upd_other 1?eq_sym // scale1r.
  by case: eqP; rewrite scale1r.
have A3' n : n != m -> forall t, wA s3 n t = wA s2 n t by move=> ne t; rewrite A3 (negbTE ne) scale1r.
have wr3 n : (m < n)%N -> wr s3 n = wr s2 n by move=> hn; rewrite /s3 /renorm /= upd_other //; lia.
have wr3m : wr s3 m.+1 = 1%:M by rewrite wr3.
have [s4 [gl4 [g4 [e4 [[u4 l4] e40 [h4 h4'] [A4 r4] [k1 k2 k3 k4]]]]]] := @diag_leftP C eigh eighP N m LL LR D q LL0 LR0 mN s3 wr3m l2.
have wl4m : wl s4 m = 1%:M by rewrite k1 /s3 /renorm /= w1.
have r4b k : (k < LR)%N -> ur (bR s4) k = 1%:M by rewrite k2; apply: r2.
have [s5 [gr5 [g5 [e5 [[u5 r5] e5N [h5 h5'] [A5 l5] [j1 j2 j3 j4]]]]]] := @diag_rightP C eigh eighP N m LL LR D q LL0 LR0 mN s4 wl4m r4b.
pose s' := Sw (wA s5) (wl s5) (wr s5) (eps_l_noop qb (wl s5 N) (uA (bR s5) 0%N) (uA (bR s5) 0%N)) (rN1 s5) (bL s5) (bR s5).
have G4 n : (g4 n)^† *m g4 n = 1%:M.
  by have [nm1|nm1] := leqP n m; [have [] := h4 n nm1|have [-> _] := h4' n nm1; rewrite adj1 mul1mx].
have G5 n : (n <= N)%N -> (g5 n)^† *m g5 n = 1%:M.
  move=> nN; have [nm1|nm1] := leqP n m; first by have [-> _] := h5' n nm1; rewrite adj1 mul1mx.
  by have [] := h5 n; first by rewrite nm1.
have sg3 : sgauge m LL LR a (fun _ => 1%:M) (fun _ => 1%:M) (fun _ => 1%:M) s2 s3.
  split.
  - exact: ugauge_refl.
  - exact: ugauge_refl.
  - by move=> n _; rewrite unitmx1.
  - by move=> n t _; rewrite A3 invmx1 mul1mx mulmx1.
  - by [].
have sg4 : sgauge m LL LR 1 gl4 g4 (fun _ => 1%:M) s3 s4.
  split=> //.
  - by rewrite k2; apply: ugauge_refl.
  - by move=> n _; have [] := unit_gauge (G4 n).
  - move=> n t nN; have -> : (if n == m then 1 else 1 : C) = 1 by case: eqP.
    rewrite scale1r; have [nm1|nm1] := leqP n m; first by rewrite A4.
    have [-> _] := h4' n nm1; have [-> _] := h4' n.+1 (leqW nm1); by rewrite k4 // invmx1 mul1mx mulmx1.
  - by have [-> _] := h4' N mN.
have sg5 : sgauge m LL LR 1 (fun _ => 1%:M) g5 gr5 s4 s'.
  split=> //.
  - by rewrite /= j2; apply: ugauge_refl.
  - by move=> n nN; have [] := unit_gauge (G5 n nN).
  - move=> n t nN; have -> : (if n == m then 1 else 1 : C) = 1 by case: eqP.
    rewrite scale1r /=; have [nm1|nm1] := leqP m n; first by rewrite A5 ?nm1.
    have [-> _] := h5' n (ltnW nm1); have [-> _] := h5' n.+1 nm1; by rewrite j4 // invmx1 mul1mx mulmx1.
  - by have [-> _] := h5' 0%N isT.
have sg' := sgauge_trans LL0 LR0 mN (sgauge_trans LL0 LR0 mN (sgauge_trans LL0 LR0 mN sg sg3) sg4) sg5.
have can : canonical s'.
  split.
  - move=> n hn /=; have [_ ->] := h5' n hn; rewrite k1 j1 /s3 /renorm /= w1 //.
    by have [] := h4 n hn.
  - move=> n hn /=; have [_ ?] := h5 n hn; split=> //; have [hn' _] := andP hn.
    by rewrite j1; have [_ ->] := h4' n hn'; rewrite wr3 // w2.
  - by split=> k kL /=; [rewrite j2 l4|rewrite r5].
  - split=> [|n nN] /=.
      have [_ ->] := h5' 0%N isT; rewrite k1 /s3 /renorm /= w1 // j2 l4 // prednK //.
    have [nm1|nm1] := leqP m n; first by rewrite l5 // nm1.
    have [_ ->] := h5' n (ltnW nm1); have [_ ->] := h5' n.+1 nm1; rewrite k1 /s3 /renorm /= !w1 //; last by lia.
    rewrite j4 //; have [u v _] := unit_gauge (G4 n).
    have := eps_l_gauge (q n) 1%:M u (A4 n ^~ (ltnW nm1)); rewrite v (eps_l_ext _ _ (A3' n _)); last by lia.
    by rewrite f1 // mulmx1 G4.
  - split=> [|n nN] /=; first by rewrite j1 r5 ?prednK //; have [_ ->] := h4' N mN; rewrite wr3 // w2 // mN leqnn.
    rewrite j1; case: (ltngtP n m) => nm1.
    + by rewrite j4 // r4 // ltnW.
    + have [_ ->] := h4' n nm1; have [_ ->] := h4' n.+1 (leqW nm1); rewrite !wr3 ?leqW // (w2 n) ?(w2 n.+1); try by lia.
      have [u _ v] := unit_gauge (G5 n.+1 nN); have [_ _ v'] := unit_gauge (G5 n (ltnW nN)).
      have hn : (m <= n < N)%N by lia.
      have := eps_r_gauge (q n) 1%:M u (A5 n ^~ hn); rewrite v => ->.
      by rewrite k4 // (eps_r_ext _ _ (A3' n _)) ?f2 ?nm1 ?v' //; lia.
    + rewrite nm1 r4 //; have [_ ->] := h4' m.+1 (leqnn _); rewrite wr3m.
      have [u _ v] := unit_gauge (G5 m.+1 mN); have hn : (m <= m < N)%N by lia.
      have := eps_r_gauge (q m) 1%:M u (A5 m ^~ hn); rewrite v => ->.
      by have [-> _] := h5' m (leqnn m); rewrite invmx1 adj1 mul1mx mulmx1.
exists s', (1 * a * 1 * 1); do 3 eexists; split; last 1 first.
- by rewrite mul1r !mulr1; split=> //; split=> //=; rewrite j3 k3 /s3 /renorm.
- by rewrite /restore_CF e1 /= e2 /= -/s3 e4 /= e5.
- exact: sg'.
- by split=> //; rewrite /norm -nm; apply: eps_r_norm.
- rewrite mul1r !mulr1 /=; have [_ ->] := h5' m (leqnn m); rewrite wl4m j1 r4 //; have [g1 ->] := h4' m.+1 (leqnn _).
  have eA t : wA s4 m t = invmx (g4 m) *m wA s3 m t *m 1%:M by rewrite A4 // g1.
  have [u4' e4i] := unitary_inv (G4 m).
  have := eps_r_gauge (q m) 1%:M (unitmx1 C _) eA; rewrite invmx1 adj1 !mulmx1 wr3m => ->.
  rewrite adot1E e4i adjK (unitary_sym (G4 m)) mul1mx.
  have -> : eps_r_noop (q m) 1%:M (wA s3 m) (wA s3 m) = `|a| ^+ 2 *: eps_r_noop (q m) 1%:M (wA s2 m) (wA s2 m).
    rewrite /eps_r_noop scaler_sumr; apply: eq_bigr => t _; rewrite A3 eqxx adjZ -scalemxAr -!scalemxAl scalerA normCK.
    by rewrite mulrC.
  by rewrite linearZ /= /norm -nm adotE adj1 mul1mx.
Qed.

(* restore_CF succeeds and leaves the canonical form; the stored environments are the true ones *)
Theorem C61_canonical tol eps (s : sw) ll rr : 0 <= tol -> true_l s ll -> true_r s rr -> full_rank tol s ll rr ->
  exists s', restore_CF eigh chol m LL LR qb q tol eps s = Some s' /\
  [/\ forall n, (n <= m)%N -> wl s' n = 1%:M /\ rdiag (wr s' n),
      forall n, (m < n <= N)%N -> wr s' n = 1%:M /\ rdiag (wl s' n),
      (forall k, (k < LL)%N -> ul (bL s') k = 1%:M) /\ (forall k, (k < LR)%N -> ur (bR s') k = 1%:M),
      true_l s' (wl s') /\ true_r s' (wr s')
    & rN1 s' = 1%:M /\ lN1 s' = eps_l_noop qb (wl s' N) (uA (bR s') 0%N) (uA (bR s') 0%N)].
Proof.
move=> t0 tl tr fr; have [s' [a [gl [g [gr [e _ [[h1 h2 h3 h4 h5] _] _ [_ [h6 h7]]]]]]]] := restore_CFP eps t0 tl tr fr.
by exists s'.
Qed.

(* it keeps the state: every stretch of the chain around the window has the same reduced density matrix, up to the
   factor k that normalises it; a state whose norm is already within eps of 1 is not rescaled *)
Theorem C61_same_state tol eps (s s' : sw) ll rr : 0 <= tol -> true_l s ll -> true_r s rr -> full_rank tol s ll rr ->
  adot (ll m) (rr m) != 0 -> restore_CF eigh chol m LL LR qb q tol eps s = Some s' ->
  exists k : C, [/\ forall k0 nl nr c d, (LL %| k0 + nl)%N -> sized N nl nr c -> sized N nl nr d ->
      sdens LL LR s' k0 nl nr c d = k * sdens LL LR s k0 nl nr c d,
    forall n, (n <= N)%N -> adot (wl s' n) (wr s' n) = k * adot (ll m) (rr m)
  & if eps < `|1 - adot (ll m) (rr m)| then k * adot (ll m) (rr m) = 1 else k = 1].
Proof.
move=> t0 tl tr fr n0; have [s2 [a [gl [g [gr [-> sg [[h1 h2 h3 h4 h5] ge] en [ea _]]]]]]] := restore_CFP eps t0 tl tr fr.
move=> [<-]; exists (`|a| ^+ 2); split.
- by move=> k0 nl nr c d dv sc sd; apply: (sgauge_dens LL0 LR0 mN sg).
- have st n : (n < N)%N -> adot (wl s2 n.+1) (wr s2 n.+1) = adot (wl s2 n) (wr s2 n).
    by move=> nN; have [_ /(_ n nN) ->] := h4; have [_ /(_ n nN) ->] := h5; rewrite eps_adjoint.
  have to0 n : (n <= N)%N -> adot (wl s2 n) (wr s2 n) = adot (wl s2 0%N) (wr s2 0%N).
    by elim: n => // n IH nN; rewrite st // IH // ltnW.
  by move=> n nN; rewrite to0 // -(to0 m (ltnW mN)).
- case: (eps < _) ea => ->; last by rewrite normr1 expr1n.
  rewrite mul1r normfV ger0_norm ?sqrtC_ge0 // exprVn sqrtCK mulVf //.
Qed.

(* the bulks stay the same uniform states: fixed points again, and the same up to a gauge transformation *)
Theorem C61_bulks tol eps (s s' : sw) ll rr qL qR : 0 <= tol -> true_l s ll -> true_r s rr -> full_rank tol s ll rr ->
  restore_CF eigh chol m LL LR qb q tol eps s = Some s' ->
  consistent LL qL (uA (bL s)) (ul (bL s)) (ur (bL s)) -> consistent LR qR (uA (bR s)) (ul (bR s)) (ur (bR s)) ->
  [/\ consistent LL qL (uA (bL s')) (ul (bL s')) (ur (bL s')), consistent LR qR (uA (bR s')) (ul (bR s')) (ur (bR s')),
      exists gl, ugauge LL gl (bL s) (bL s') & exists gr, ugauge LR gr (bR s) (bR s')].
Proof.
move=> t0 tl tr fr; have [s2 [a [gl [g [gr [-> [vl vr _ _ _] _ _ _]]]]]] := restore_CFP eps t0 tl tr fr.
move=> [<-] cL cR; split.
- exact: (@ugauge_cons C LL (D 0) LL0 qL gl _ _ vl cL).
- exact: (@ugauge_cons C LR (D N) LR0 qR gr _ _ vr cR).
- by exists gl.
- by exists gr.
Qed.
End C61.

Print Assumptions C61_canonical.
Print Assumptions C61_same_state.
Print Assumptions C61_bulks.

(* a window of three sites between two bulks of C46_example, its centre site scaled by 2 *)
Section Example61.
Variables (C : numClosedFieldType) (eigh : eigh_routine C) (chol : chol_routine C).
Hypotheses (eighP : eigh_contract eigh) (cholP : chol_contract chol).
Definition xs : sw C 3 (fun _ => 2%N) := @Sw C 3 (fun _ => 2%N) (fun n t => (if n == 1%N then 2%:R else 1) *: x3A C 0 t)
  (fun _ => 0) (fun _ => 0) 0 0 (x3 C) (x3 C).
Definition xl (n : nat) : 'M[C]_2 := if (n <= 1)%N then x3l C 0 else 4%:R *: x3l C 0.
Definition xr (n : nat) : 'M[C]_2 := if (n <= 1)%N then 4%:R *: x3r C 0 else x3r C 0.
Example C61_example : exists s', restore_CF eigh chol 1 1 1 4 (fun _ => 4%N) 0 0 xs = Some s' /\
  [/\ wl s' 1%N = 1%:M, wr s' 2%N = 1%:M, rdiag (wr s' 1%N) & adot (wl s' 1%N) (wr s' 1%N) = 1].
Proof.
have [hv hl hr al ar] := x3_ok C.
have [e1 e2] := hv 0%N isT; rewrite /= in e1 e2.
have el (a b : C) : a ^* = a -> eps_l_noop 4 (b *: x3l C 0) (fun t => a *: x3A C 0 t) (fun t => a *: x3A C 0 t) = (a * a * b) *: x3l C 0.
  move=> ra; rewrite [in RHS]e1 /eps_l_noop scaler_sumr; apply: eq_bigr => t _.
  rewrite adjZ ra; do ?[rewrite -scalemxAl|rewrite -scalemxAr]; rewrite !scalerA; congr (_ *: _).
  by rewrite -?mulrA; congr (_ * _); rewrite mulrC.
have er (a b : C) : a ^* = a -> eps_r_noop 4 (b *: x3r C 0) (fun t => a *: x3A C 0 t) (fun t => a *: x3A C 0 t) = (a * a * b) *: x3r C 0.
  move=> ra; rewrite [in RHS]e2 /eps_r_noop scaler_sumr; apply: eq_bigr => t _.
  rewrite adjZ ra; do ?[rewrite -scalemxAl|rewrite -scalemxAr]; rewrite !scalerA; congr (_ *: _).
  by rewrite -?mulrA; congr (_ * _); rewrite mulrC.
have c1 : (1 : C)^* = 1 by rewrite conjC1.
have c2 : (2%:R : C)^* = 2%:R by rewrite rmorph_nat.
have sc (M : 'M[C]_2) : herm M -> above 0 M -> above 0 (4%:R *: M).
  move=> hM aM x v v0 e; have p4 : (0 : C) < 4%:R by rewrite ltr0n.
  have := aM (4%:R^-1 * x) v v0; rewrite -scalerA -e -scalemxAl scalerA mulVf ?scale1r ?pnatr_eq0 // => /(_ erefl).
  by rewrite pmulr_rgt0 // invr_gt0.
have nrm : adot (x3l C 0) (4%:R *: x3r C 0) = 4%:R by rewrite adotZr adotE hl x3_tr mulr1.
have e4 : (2%:R * 2%:R : C) = 4%:R by rewrite -natrM.
have tl : true_l (N := 3) (D := fun _ => 2%N) 1 (fun _ => 4%N) xs xl.
  split=> // -[|[|[|//]]] _; rewrite /xl /=.
  - by rewrite -{2}[x3l C 0]scale1r el // !mul1r scale1r.
  - by rewrite -{2}[x3l C 0]scale1r el // mulr1 e4.
  - by rewrite el // !mul1r.
have tr : true_r (N := 3) (D := fun _ => 2%N) 1 (fun _ => 4%N) xs xr.
  split=> // -[|[|[|//]]] _; rewrite /xr /=.
  - by rewrite er // !mul1r.
  - by rewrite -{2}[x3r C 0]scale1r er // mulr1 e4.
  - by rewrite -{2}[x3r C 0]scale1r er // !mul1r scale1r.
have fr : full_rank (N := 3) (D := fun _ => 2%N) 1 1 1 0 xs xl xr.
  split=> [[|//] _|[|//] _|n hn|n hn] //.
  - by rewrite /xr leqNgt; case/andP: hn => -> _.
  - by rewrite /xl hn.
have n0 : adot (xl 1) (xr 1) != 0 by rewrite nrm pnatr_eq0.
have [s' [e [h1 h2 _ _ _]]] := C61_canonical eighP cholP 4 (isT : 0 < 1)%N (isT : 0 < 1)%N (isT : 1 < 3)%N 0 (lexx 0) tl tr fr.
have [k [_ k2 k3]] := C61_same_state eighP cholP (isT : 0 < 1)%N (isT : 0 < 1)%N (isT : 1 < 3)%N (lexx 0) tl tr fr n0 e.
exists s'; split=> //; have [] := h1 1%N isT; have [] := h2 2%N isT => r2 _ l1 r1; split=> //.
rewrite k2 //; move: k3; rewrite nrm; case: ifP => // /negP[].
rewrite normr_gt0 subr_eq0 eq_sym.
by rewrite pnatr_eq1.
Qed.
End Example61.
Print Assumptions C61_example.
