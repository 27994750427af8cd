(* Tangent2.v -- the tangent space of the set of matrix product states with fixed bond dimensions:
   gauge fixing, orthogonal projection, minimality.  Mathematics only. *)
From mathcomp Require Import all_ssreflect all_algebra.
From mathcomp Require Import zify.
From Verif Require Import Base Spec Eps Chain ChainProofs Tangent.
Set Implicit Arguments.
Unset Strict Implicit.
Unset Printing Implicit Defensive.
Import GRing.Theory Num.Theory.
Local Open Scope ring_scope.

Section Vec.
Variables (C : numClosedFieldType) (q : nat -> nat) (N m n : nat).
Local Notation vec := (seq nat -> 'M[C]_(m, n)).
Implicit Types u v x : vec.
Lemma dotst_addr u v x : dotst q N u (fun c => v c + x c) = dotst q N u v + dotst q N u x.
Proof. by rewrite !dotstE -big_split; apply: eq_bigr => c _; rewrite adotDr. Qed.
Lemma dotst_scaler u a v : dotst q N u (fun c => a *: v c) = a * dotst q N u v.
Proof. by rewrite !dotstE mulr_sumr; apply: eq_bigr => c _; rewrite adotZr. Qed.
Lemma dotst_subr u v x : dotst q N u (fun c => v c - x c) = dotst q N u v - dotst q N u x.
Proof. by rewrite !dotstE -sumrB; apply: eq_bigr => c _; rewrite adotBr. Qed.
Lemma dotst_sumr u (I : Type) (s : seq I) (P : pred I) (F : I -> vec) :
  dotst q N u (fun c => \sum_(i <- s | P i) F i c) = \sum_(i <- s | P i) dotst q N u (F i).
Proof. by rewrite [RHS]exchange_big /= dotstE; apply: eq_bigr => c _; rewrite adot_sumr. Qed.
Lemma dotst_conj u v : dotst q N u v = (dotst q N v u)^*.
Proof. by rewrite !dotstE rmorph_sum; apply: eq_bigr => c _; rewrite adotC. Qed.
Lemma dotst_addl u v x : dotst q N (fun c => u c + v c) x = dotst q N u x + dotst q N v x.
Proof. by rewrite !dotstE -big_split; apply: eq_bigr => c _; rewrite adotDl. Qed.
Lemma dotst_scalel u a v : dotst q N (fun c => a *: u c) v = a^* * dotst q N u v.
Proof. by rewrite !dotstE mulr_sumr; apply: eq_bigr => c _; rewrite adotZl. Qed.
Lemma dotst_subl u v x : dotst q N (fun c => u c - v c) x = dotst q N u x - dotst q N v x.
Proof. by rewrite !dotstE -sumrB; apply: eq_bigr => c _; rewrite adotBl. Qed.
Lemma dotst_suml v (I : Type) (s : seq I) (P : pred I) (F : I -> vec) :
  dotst q N (fun c => \sum_(i <- s | P i) F i c) v = \sum_(i <- s | P i) dotst q N (F i) v.
Proof. by rewrite [RHS]exchange_big /= dotstE; apply: eq_bigr => c _; rewrite adot_suml. Qed.
Lemma eq_dotst u u' v v' : (forall c, size c = N -> u c = u' c) -> (forall c, size c = N -> v c = v' c) ->
  dotst q N u v = dotst q N u' v'.
Proof. by move=> h h'; apply: eq_sum_cfgs => c sz; rewrite h // h'. Qed.
Lemma dotst_ge0 u : 0 <= dotst q N u u.
Proof. by rewrite dotstE; apply: sumr_ge0 => c _; exact: adot_ge0. Qed.
Lemma dotst_eq0 u : dotst q N u u = 0 -> forall c, c \in cfgs q N 0 -> u c = 0.
Proof.
rewrite dotstE => /eqP; rewrite psumr_eq0 => [/allP h c cN|c _]; last exact: adot_ge0.
by have := h c cN; rewrite /= adot_eq0 => /eqP.
Qed.
Lemma pythagoras u v : dotst q N u v = 0 ->
  dotst q N (fun c => u c + v c) (fun c => u c + v c) = dotst q N u u + dotst q N v v.
Proof.
move=> h; rewrite dotst_addl !dotst_addr h (dotst_conj v u) h conjC0.
by rewrite addr0 add0r.
Qed.
End Vec.

Section Tan.
Variables (C : numClosedFieldType) (D q : nat -> nat) (N : nat).
Local Notation bonds := (forall n, 'M[C]_(D n)).
Local Notation tens := (forall m, nat -> 'M[C]_(D m, D m.+1)).

Lemma bonds_down (F : forall m, 'M[C]_(D m.+1) -> 'M[C]_(D m)) (x : 'M[C]_(D N)) :
  exists X : bonds, X N = x /\ forall m, (m < N)%N -> X m = F m (X m.+1).
Proof.
suff h k : (k <= N)%N -> exists X : bonds, X N = x /\ forall m, (N - k <= m < N)%N -> X m = F m (X m.+1).
  by have [X [X1 X2]] := h N (leqnn N); exists X; split=> // m mN; apply: X2; rewrite subnn.
elim: k => [|k IH] kN.
  exists (@upd (fun n => 'M[C]_(D n)) (fun n => 0) N x); split; first exact: upd_same.
  move=> m; lia.
have [X [X1 X2]] := IH (ltnW kN); have e : ((N - k.+1).+1 = N - k)%N by lia.
exists (@upd (fun n => 'M[C]_(D n)) X (N - k.+1) (F _ (X (N - k.+1).+1))); split.
  by rewrite upd_other //; lia.
move=> m h; case: (eqVneq (N - k.+1)%N m) => [em|ne].
  by case: m / em {h}; rewrite upd_same upd_other //; lia.
rewrite !upd_other //; last by lia.
by apply: X2; lia.
Qed.

Fixpoint bonds_up (F : forall m, 'M[C]_(D m) -> 'M[C]_(D m.+1)) (n : nat) : 'M[C]_(D n) :=
  if n is m.+1 then F m (bonds_up F m) else 0.

Variable A : tensors C D.
Local Notation vec := (seq nat -> 'M[C]_(D 0, D N)).

(* the tangent vector with parameters T *)
Definition tvec (T : tens) : vec := fun c => \sum_(m < N) psi (rep A (T m)) N c.

(* adding X_m A_m - A_m X_{m+1} to T only changes the tangent vector at the ends of the chain *)
Lemma tvec_gauge (T : tens) (X : bonds) c : size c = N ->
  tvec (fun m s => T m s + (X m *m A m s - A m s *m X m.+1)) c =
  tvec T c + (X 0%N *m psi A N c - psi A N c *m X N).
Proof.
move=> sz; rewrite /tvec.
pose f m := amp A m 0 (take m c) *m X m *m amp A N m (drop m c).
have e (m : 'I_N) : psi (rep A (fun s => T m s + (X m *m A m s - A m s *m X m.+1))) N c =
    psi (rep A (T m)) N c + (f m - f m.+1).
  have mN := ltn_ord m; have sm : (m < size c)%N by rewrite sz.
  have ec : c = take m c ++ nth 0%N c m :: drop m.+1 c by rewrite -drop_nth // cat_take_drop.
  have st : size (take m c) = m by rewrite size_take sm.
  have e1 : f m = amp A m 0 (take m c) *m (X m *m A m (nth 0%N c m)) *m amp A N m.+1 (drop m.+1 c).
    by rewrite /f (drop_nth 0%N) // amp_cons !mulmxA.
  have e2 : f m.+1 = amp A m 0 (take m c) *m (A m (nth 0%N c m) *m X m.+1) *m amp A N m.+1 (drop m.+1 c).
    by rewrite /f (take_nth 0%N) // amp_rcons ?st // !mulmxA.
  rewrite e1 e2 ec !psi_rep_cat // -ec mulmxDr mulmxDl; congr (_ + _).
  by rewrite -mulmxBl -mulmxBr.
rewrite (eq_bigr _ (fun m _ => e m)) big_split /=; congr (_ + _).
rewrite -(big_mkord xpredT (fun m => f m - f m.+1)).
have -> : \sum_(0 <= m < N) (f m - f m.+1) = f 0%N - f N.
  transitivity (- \sum_(0 <= m < N) (f m.+1 - f m)).
    by rewrite -sumrN; apply: eq_bigr => m _; rewrite opprB.
  by rewrite telescope_sumr // opprB.
have dN : drop N c = [::] by apply: drop_oversize; rewrite sz.
rewrite /f take0 drop0 dN take_oversize ?sz //.
by rewrite !amp_nil mul1mx mulmx1.
Qed.

Lemma scalar_1x1 n (X : 'M[C]_n) : n = 1%N -> exists a, X = a%:M.
Proof. by move=> e; subst n; exists (X 0 0); apply/matrixP=> i j; rewrite !ord1 mxE eqxx. Qed.

Variables (l r : bonds).
Hypotheses (hl : up_l q A N 1%:M l) (hr : up_r q A N 1%:M r).

(* every tangent vector is a multiple of the state plus a gauge-fixed tangent vector *)
Lemma gauge_fix_r (T : tens) : D 0 = 1%N -> (forall m, (m < N)%N -> r m \in unitmx) ->
  exists a, exists T' : tens, (forall m, (m < N)%N -> rgauge q A r (T' m)) /\
    forall c, size c = N -> tvec T c = a *: psi A N c + tvec T' c.
Proof.
move=> D0 ur.
have [X [X1 X2]] := bonds_down (fun m Y =>
  ((\sum_(s < q m) A m s *m Y *m r m.+1 *m (A m s)^†) - eps_r_noop (q m) (r m.+1) (T m) (A m)) *m invmx (r m)) 0.
have [a ea] := scalar_1x1 (X 0%N) D0.
exists (- a), (fun m s => T m s + (X m *m A m s - A m s *m X m.+1)); split=> [m mN|c sz].
  apply/(rgauge_adj hr _ mN).
  have -> : eps_r_noop (q m) (r m.+1) (fun s => T m s + (X m *m A m s - A m s *m X m.+1)) (A m) =
     eps_r_noop (q m) (r m.+1) (T m) (A m) + (X m *m r m - \sum_(s < q m) A m s *m X m.+1 *m r m.+1 *m (A m s)^†).
    have [_ hr'] := hr; rewrite (hr' m mN) /eps_r_noop mulmx_sumr -sumrB -big_split; apply: eq_bigr => s _.
    by rewrite !mulmxDl !mulNmx !mulmxA.
  by rewrite (X2 m mN) mulmxKV ?ur // [_ - eps_r_noop _ _ _ _]addrC -addrA subrr addr0 addrN.
rewrite tvec_gauge // X1 ea mulmx0 subr0 mul_scalar_mx.
by rewrite addrC -addrA -scalerDl addrN scale0r addr0.
Qed.
Lemma gauge_fix_l (T : tens) : D N = 1%N -> (forall m, (m < N)%N -> l m.+1 \in unitmx) ->
  exists a, exists T' : tens, (forall m, (m < N)%N -> lgauge q A l (T' m)) /\
    forall c, size c = N -> tvec T c = a *: psi A N c + tvec T' c.
Proof.
move=> D0 ul.
pose X := bonds_up (fun m Y => invmx (l m.+1) *m
  ((\sum_(s < q m) (A m s)^† *m l m *m Y *m A m s) + eps_l_noop (q m) (l m) (A m) (T m))).
have X2 m : X m.+1 = invmx (l m.+1) *m
  ((\sum_(s < q m) (A m s)^† *m l m *m X m *m A m s) + eps_l_noop (q m) (l m) (A m) (T m)) by [].
have X1 : X 0%N = 0 by [].
move: X X1 X2 => X X1 X2.
have [a ea] := scalar_1x1 (X N) D0.
exists a, (fun m s => T m s + (X m *m A m s - A m s *m X m.+1)); split=> [m mN|c sz].
  apply/(lgauge_adj hl _ mN).
  have -> : eps_l_noop (q m) (l m) (A m) (fun s => T m s + (X m *m A m s - A m s *m X m.+1)) =
     eps_l_noop (q m) (l m) (A m) (T m) + (\sum_(s < q m) (A m s)^† *m l m *m X m *m A m s - l m.+1 *m X m.+1).
    have [_ hl'] := hl; rewrite (hl' m mN) /eps_l_noop mulmx_suml -sumrB -big_split; apply: eq_bigr => s _.
    by rewrite !mulmxDr !mulmxN !mulmxA.
  rewrite X2 mulKVmx ?ul //; set E := eps_l_noop _ _ _ _; set Z := \sum_(_ < _) _.
  by rewrite opprD (addrA Z) addrN sub0r addrN.
rewrite tvec_gauge // X1 ea mul0mx sub0r mul_mx_scalar.
by rewrite [_ - _]addrC addrA addrN add0r.
Qed.

Lemma rep_orth_r' m k (T : nat -> 'M[C]_(D m, D m.+1)) (T' : nat -> 'M[C]_(D k, D k.+1)) :
  m != k -> (m < N)%N -> (k < N)%N -> rgauge q A r T -> rgauge q A r T' ->
  dotst q N (psi (rep A T) N) (psi (rep A T') N) = 0.
Proof.
move=> mk mN kN g g'; case: (ltngtP m k) mk => // h _.
  by apply: (rep_orth_r hr) => //; apply/(rgauge_adj hr).
by rewrite dotst_conj (rep_orth_r hr) ?conjC0 //; apply/(rgauge_adj hr).
Qed.
Lemma rep_orth_l' m k (T : nat -> 'M[C]_(D m, D m.+1)) (T' : nat -> 'M[C]_(D k, D k.+1)) :
  m != k -> (m < N)%N -> (k < N)%N -> lgauge q A l T -> lgauge q A l T' ->
  dotst q N (psi (rep A T) N) (psi (rep A T') N) = 0.
Proof.
move=> mk mN kN g g'; case: (ltngtP m k) mk => // h _.
  by rewrite dotst_conj (rep_orth_l hl) ?conjC0 //; apply/(lgauge_adj hl).
by apply: (rep_orth_l hl) => //; apply/(lgauge_adj hl).
Qed.

(* abstract projection theorem: g is one of the two gauges *)
Section Proj.
Variable g : forall m, (nat -> 'M[C]_(D m, D m.+1)) -> Prop.
Hypothesis g_orth : forall m k (T : nat -> 'M[C]_(D m, D m.+1)) (T' : nat -> 'M[C]_(D k, D k.+1)),
  m != k -> (m < N)%N -> (k < N)%N -> g T -> g T' -> dotst q N (psi (rep A T) N) (psi (rep A T') N) = 0.
Hypothesis g_psi : forall m (T : nat -> 'M[C]_(D m, D m.+1)), (m < N)%N -> g T ->
  dotst q N (psi (rep A T) N) (psi A N) = 0.
Hypothesis g_fix : forall T : tens, exists a, exists T' : tens, (forall m, (m < N)%N -> g (T' m)) /\
    forall c, size c = N -> tvec T c = a *: psi A N c + tvec T' c.

Variables (B : tens) (Phi : vec).
Hypothesis gB : forall m, (m < N)%N -> g (B m).
Hypothesis BPhi : forall m (T : nat -> 'M[C]_(D m, D m.+1)), (m < N)%N -> g T ->
  dotst q N (psi (rep A T) N) Phi = dotst q N (psi (rep A T) N) (psi (rep A (B m)) N).

Lemma tvec_dot (T T' : tens) : (forall m, (m < N)%N -> g (T m)) -> (forall m, (m < N)%N -> g (T' m)) ->
  dotst q N (tvec T) (tvec T') = \sum_(m < N) dotst q N (psi (rep A (T m)) N) (psi (rep A (T' m)) N).
Proof.
move=> gT gT'; rewrite dotst_suml; apply: eq_bigr => m _; rewrite dotst_sumr (bigD1 m) //= big1 ?addr0 //.
by move=> k km; apply: g_orth => //; [rewrite eq_sym | exact: gT | exact: gT'].
Qed.
Lemma tvec_psi (T : tens) : (forall m, (m < N)%N -> g (T m)) -> dotst q N (tvec T) (psi A N) = 0.
Proof. by move=> gT; rewrite dotst_suml big1 // => m _; apply: g_psi => //; exact: gT. Qed.

Lemma proj_gauged (T : tens) : (forall m, (m < N)%N -> g (T m)) ->
  dotst q N (tvec T) (fun c => Phi c - tvec B c) = 0.
Proof.
move=> gT; rewrite dotst_subr tvec_dot // dotst_suml -sumrB big1 // => m _.
by rewrite BPhi ?subrr //; exact: gT.
Qed.

(* tvec B + (<psi|Phi>/<psi|psi>) psi is the orthogonal projection of Phi on the tangent space *)
Lemma proj_full (T : tens) : dotst q N (psi A N) (psi A N) != 0 ->
  dotst q N (tvec T) (fun c => Phi c -
    (tvec B c + (dotst q N (psi A N) Phi / dotst q N (psi A N) (psi A N)) *: psi A N c)) = 0.
Proof.
move=> n0; have [a [T' [gT' eT]]] := g_fix T.
rewrite (eq_dotst q eT (fun c _ => erefl)) dotst_addl dotst_scalel.
have e0 : forall u, dotst q N u (fun c => Phi c - (tvec B c + (dotst q N (psi A N) Phi / dotst q N (psi A N) (psi A N)) *: psi A N c)) =
   dotst q N u Phi - dotst q N u (tvec B) - dotst q N (psi A N) Phi / dotst q N (psi A N) (psi A N) * dotst q N u (psi A N).
  by move=> u; rewrite dotst_subr dotst_addr dotst_scaler opprD addrA.
rewrite !e0 divfK // (dotst_conj _ _ (psi A N) (tvec B)) tvec_psi // conjC0 subr0 subrr mulr0 add0r.
by rewrite (tvec_psi gT') mulr0 subr0 -dotst_subr proj_gauged.
Qed.

(* hence it is the closest point, and the only one *)
Lemma closest (T : tens) : (forall m, (m < N)%N -> g (T m)) ->
  dotst q N (fun c => Phi c - tvec T c) (fun c => Phi c - tvec T c) =
  dotst q N (fun c => Phi c - tvec B c) (fun c => Phi c - tvec B c)
  + dotst q N (fun c => tvec B c - tvec T c) (fun c => tvec B c - tvec T c).
Proof.
move=> gT; rewrite -pythagoras.
  by apply: eq_dotst => c _; rewrite addrA subrK.
rewrite dotst_conj dotst_subl (proj_gauged gB) (proj_gauged gT) subrr; exact: conjC0.
Qed.
End Proj.
End Tan.
