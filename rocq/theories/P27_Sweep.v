(* P27_Sweep.v -- property theorems about the one-site sweeps of evolve_split: DMRG never raises the energy
   (C68), real-time split-step evolution conserves norm and energy (C69). *)
From mathcomp Require Import all_ssreflect all_algebra zify.
From Verif Require Import Base Spec Eps Chain ChainProofs ChainProofs2 LinAlg Struct Tangent Tangent2 Tdvp
  TdvpProofs TdvpProofs2 Canon Heff Heff2 Witness P07_Tdvp P11_Heff Sweep SweepSolver.
Set Implicit Arguments.
Unset Strict Implicit.
Unset Printing Implicit Defensive.
Import Order.TTheory GRing.Theory Num.Theory.
Local Open Scope ring_scope.

Section Gen.
Variables (C : numClosedFieldType) (D q : nat -> nat) (N : nat).
Local Notation ten m := (nat -> 'M[C]_(D m, D m.+1)).
Local Notation obonds := (forall n, option 'M[C]_(D n)).
Local Notation vec := (seq nat -> 'M[C]_(D 0%N, D N)).
Variables (updL : tensors C D -> forall m, option 'M[C]_(D m) -> option 'M[C]_(D m.+1))
  (updR : tensors C D -> forall m, option 'M[C]_(D m.+1) -> option 'M[C]_(D m))
  (heff : tensors C D -> forall m, option 'M[C]_(D m) -> option 'M[C]_(D m.+1) -> ten m -> ten m)
  (heffG : tensors C D -> forall m, option 'M[C]_(D m.+1) -> option 'M[C]_(D m.+1) -> 'M[C]_(D m.+1) -> 'M[C]_(D m.+1)).
Variables (qr : qr_routine C) (eigsh : eigsh_routine C D) (expA : expA_routine C D) (expG : expG_routine C).
Variables (DMRG : bool) (fac dtau : C).
Variable H : vec -> vec.

Definition nrm (A : tensors C D) := dotst q N (psi A N) (psi A N).
Definition En (A : tensors C D) := dotst q N (psi A N) (H (psi A N)).
Definition envs A (KL KR : obonds) a b := [/\ KL 0%N = None, forall j, (j < a)%N -> KL j.+1 = updL A (KL j),
  KR N = None & forall j, (b <= j < N)%N -> KR j = updR A (KR j.+1)].

Hypothesis locL : forall A A' m k, (forall j, (j <= m)%N -> A j = A' j) -> @updL A m k = updL A' k.
Hypothesis locR : forall A A' m k, (forall j, (m <= j)%N -> A j = A' j) -> @updR A m k = updR A' k.
Hypothesis Hherm : forall u v, dotst q N u (H v) = (dotst q N v (H u))^*.
Hypothesis proj1 : forall A m KL KR (T X : ten m), (m < N)%N -> gauge q N A m m.+1 -> envs A KL KR m m.+1 ->
  tdot q T (heff A (KL m) (KR m.+1) X) = dotst q N (psi (rep A T) N) (H (psi (rep A X) N)).
Hypothesis projG : forall A m KL KR (F G : 'M[C]_(D m.+1)), (m.+1 < N)%N -> gauge q N A m.+1 m.+1 -> envs A KL KR m.+1 m.+1 ->
  adot F (heffG A (KL m.+1) (KR m.+1) G) =
  dotst q N (psi (@rep C D A m.+1 (fun s => F *m A m.+1 s)) N) (H (psi (@rep C D A m.+1 (fun s => G *m A m.+1 s)) N)).
Hypothesis qrP : qr_contract qr.
Hypothesis dims : dims_ok D q N.

(* ---- states ---------------------------------------------------------------- *)
Definition eqst (A B : tensors C D) := forall c, c \in cfgs q N 0 -> psi A N c = psi B N c.
Lemma eqst_sym A B : eqst A B -> eqst B A. Proof. by move=> h c hc; rewrite h. Qed.
Lemma eqst_trans A B E : eqst A B -> eqst B E -> eqst A E. Proof. by move=> h h' c hc; rewrite h // h'. Qed.
Lemma eqst_dotl A B (v : vec) : eqst A B -> dotst q N (psi A N) v = dotst q N (psi B N) v.
Proof. by move=> h; rewrite !dotstE; apply: eq_big_seq => c hc; rewrite h. Qed.
Lemma eqst_nrm A B : eqst A B -> nrm A = nrm B.
Proof. by move=> h; rewrite /nrm (eqst_dotl _ h) dotstC (eqst_dotl _ h) -dotstC. Qed.
Lemma eqst_En A B : eqst A B -> En A = En B.
Proof. by move=> h; rewrite /En (eqst_dotl _ h) Hherm (eqst_dotl _ h) -Hherm. Qed.
Lemma eqst_pt A B : (forall m s, (m < N)%N -> (s < q m)%N -> A m s = B m s) -> eqst A B.
Proof.
move=> h c hc; have := @gauge_amp C q D D B A (fun=> 1%:M) N 0 c; rewrite subn0 => /(_ hc isT).
rewrite mul1mx mulmx1; apply=> m s /andP[_ mN] sq; by rewrite mul1mx mulmx1 h.
Qed.
Lemma eqst_self A m : eqst (@rep C D A m (A m)) A.
Proof.
apply: eqst_pt => j s _ _; case: (eqVneq m j) => [<-|h]; first by rewrite rep_same.
by rewrite rep_other.
Qed.
(* a matrix between sites m and m+1 may be absorbed either way *)
Lemma eqst_shift A m (G : 'M[C]_(D m.+1)) : (m.+1 < N)%N ->
  eqst (@rep C D A m (fun s => A m s *m G)) (@rep C D A m.+1 (fun s => G *m A m.+1 s)).
Proof.
move=> mN c hc.
pose X : forall n, 'M[C]_(D n) := @upd (fun n => 'M[C]_(D n)) (fun=> 1%:M) m.+1 G.
have X1 n : m.+1 != n -> X n = 1%:M by move=> h; rewrite /X upd_other.
have Xm : X m.+1 = G by rewrite /X upd_same.
have := @gauge_amp C q D D (@rep C D A m.+1 (fun s => G *m A m.+1 s)) (@rep C D A m (fun s => A m s *m G)) X N 0 c.
rewrite subn0 => /(_ hc isT); rewrite !X1 ?mul1mx ?mulmx1 //; last by rewrite ltn_eqF.
apply=> j s /andP[_ jN] sq.
case: (eqVneq m j) => [<-|mj].
  by rewrite rep_same X1 ?gtn_eqF // mul1mx Xm rep_other // gtn_eqF.
rewrite rep_other //; case: (eqVneq m.+1 j) => [<-|mj'].
  by rewrite rep_same Xm X1 ?mulmx1 // ltn_eqF.
by rewrite rep_other // !X1 ?mul1mx ?mulmx1.
Qed.

(* ---- the QR steps ------------------------------------------------------------- *)
Lemma lcf1P m (X : ten m) : (m < N)%N ->
  (forall s, (s < q m)%N -> (lcf1 q qr X).1 s *m (lcf1 q qr X).2 = X s) /\
  eps_l_noop (q m) 1%:M (lcf1 q qr X).1 (lcf1 q qr X).1 = 1%:M.
Proof.
move=> mN; have [d1 _] := dims mN; rewrite /lcf1 /=.
have /andP[/eqP h1 /eqP h2] := qrP (stack (q m) X).
move: h1 h2; case: (qr _) => Q R /=; move: Q R.
have e : minn (q m * D m) (D m.+1) = D m.+1 by apply/minn_idPr.
rewrite e => Q R h1 h2; rewrite recast_id; split=> [s sq|].
  by rewrite recast_id -unstack_mul h2 unstack_stack.
rewrite -h1 -unstack_gram; apply: eq_bigr => s _; by rewrite recast_id ?mulmx1 ?mul1mx.
Qed.
Lemma rcf1P m (X : ten m) : (m < N)%N ->
  (forall s, (s < q m)%N -> (rcf1 q qr X).1 *m (rcf1 q qr X).2 s = X s) /\
  eps_r_noop (q m) 1%:M (rcf1 q qr X).2 (rcf1 q qr X).2 = 1%:M.
Proof.
move=> mN; have [_ d1] := dims mN; rewrite /rcf1 /=.
have /andP[/eqP h1 /eqP h2] := qrP (stack (q m) (fun s => (X s)^†)).
move: h1 h2; case: (qr _) => Q R /=; move: Q R.
have e : minn (q m * D m.+1) (D m) = D m by apply/minn_idPr.
rewrite e => Q R h1 h2; rewrite recast_id; split=> [s sq|].
  by rewrite recast_id -adjM -unstack_mul h2 unstack_stack // adjK.
have : (Q^† *m Q)^† = 1%:M by rewrite h1 adj1.
rewrite adjM adjK -unstack_gram => <-; apply: eq_bigr => s _; by rewrite recast_id ?mulmx1 ?mul1mx adjK.
Qed.

(* ---- the local problems --------------------------------------------------------- *)
Definition inv m (w : sw C D) := gauge q N (wA w) m m.+1 /\ envs (wA w) (wKL w) (wKR w) m m.+1.

Lemma inv_rep m w (T : ten m) : inv m w -> inv m (Sw (rep (wA w) T) (wKL w) (wKR w)).
Proof.
move=> [[g1 g2] [e1 e2 e3 e4]]; split; first split=> j.
- by move=> jm; rewrite /= rep_other ?g1 // gtn_eqF.
- by case/andP=> mj jN; rewrite /= rep_other ?g2 ?mj // ltn_eqF.
split=> //= j.
- move=> jm; rewrite e2 //; apply: locL => i ij; rewrite rep_other // gtn_eqF //; exact: leq_ltn_trans jm.
- case/andP=> mj jN; rewrite e4 ?mj //; apply: locR => i ij; rewrite rep_other // ltn_eqF //; exact: leq_trans ij.
Qed.

Lemma tdotZ m (T X : ten m) a b : tdot q (fun s => a *: T s) (fun s => b *: X s) = a^* * b * tdot q T X.
Proof.
rewrite /tdot mulr_sumr; apply: eq_bigr => s _; rewrite adjZ -scalemxAl -scalemxAr !mxtraceZ; by rewrite mulrA.
Qed.
Lemma nrm_rep m w (T : ten m) : (m < N)%N -> inv m w -> nrm (rep (wA w) T) = tdot q T T.
Proof. by move=> mN [g _]; rewrite /nrm C35_norm. Qed.
Lemma En_rep m w (T : ten m) : (m < N)%N -> inv m w ->
  En (rep (wA w) T) = tdot q T (heff (wA w) (wKL w m) (wKR w m.+1) T).
Proof. by move=> mN [g e]; rewrite /En -(proj1 T T mN g e). Qed.
Lemma heff_herm m w : (m < N)%N -> inv m w -> herm_ten q (heff (wA w) (wKL w m) (wKR w m.+1)).
Proof. by move=> mN [g e] T X; rewrite !(proj1 _ _ mN g e) Hherm. Qed.
Lemma tdotZl m (T X : ten m) a : tdot q (fun s => a *: T s) X = a^* * tdot q T X.
Proof. by rewrite /tdot mulr_sumr; apply: eq_bigr => s _; rewrite adjZ -scalemxAl mxtraceZ. Qed.
Lemma eq_tdotr m (T X Y : ten m) : (forall s, (s < q m)%N -> X s = Y s) -> tdot q T X = tdot q T Y.
Proof. by move=> e; apply: eq_bigr => s _; rewrite e. Qed.
Lemma eq_tdotl m (T X Y : ten m) : (forall s, (s < q m)%N -> X s = Y s) -> tdot q X T = tdot q Y T.
Proof. by move=> e; apply: eq_bigr => s _; rewrite e. Qed.
Lemma herm_scale m (h : ten m -> ten m) (X : ten m) a : herm_ten q h ->
  tdot q (fun s => a *: X s) (h (fun s => a *: X s)) = a * a^* * tdot q X (h X).
Proof. by move=> hh; rewrite tdotZl hh tdotZl rmorphM conjCK -hh mulrA (mulrC a). Qed.
Lemma unit_sq (x : C) : 0 < x -> (sqrtC x)^-1 * ((sqrtC x)^-1)^* = x^-1.
Proof.
move=> x0; have s0 : 0 <= (sqrtC x)^-1 by rewrite invr_ge0 sqrtC_ge0 ltW.
by rewrite (conj_Creal (ger0_real s0)) -expr2 exprVn sqrtCK.
Qed.
Lemma tdot_ge0 m (X : ten m) : 0 <= tdot q X X.
Proof. by apply: sumr_ge0 => s _; rewrite -adotE adot_ge0. Qed.

(* what a local solve with result X leaves behind *)
Lemma unit_val m w (X : ten m) : (m < N)%N -> inv m w -> 0 < tdot q X X ->
  nrm (rep (wA w) (unit_ten q X)) = 1 /\
  En (rep (wA w) (unit_ten q X)) = tdot q X (heff (wA w) (wKL w m) (wKR w m.+1) X) / tdot q X X.
Proof.
move=> mN I X0; rewrite (nrm_rep _ mN I) (En_rep _ mN I) /unit_ten tdotZ mulrC [_^* * _]mulrC unit_sq //.
rewrite mulfV ?gt_eqF //; split=> //.
by rewrite herm_scale ?unit_sq 1?mulrC //; apply: heff_herm.
Qed.

Lemma inv_solve step m w : inv m w -> inv m (solveA q heff eigsh expA DMRG fac step m w).
Proof. exact: inv_rep. Qed.

(* ---- moving the centre ------------------------------------------------------------ *)
Local Notation sgG := (@solveG C D heffG expG DMRG fac).
Definition invb m (w : sw C D) := gauge q N (wA w) m m /\ envs (wA w) (wKL w) (wKR w) m m.
(* the chain with the centre matrix G between sites m+1 and m+2 (bond m+1) *)
Definition ctr A m (G : 'M[C]_(D m.+1)) := @rep C D A m.+1 (fun s => G *m A m.+1 s).
Arguments ctr A m G : clear implicits.

Lemma tdot_ctr A m (F G : 'M[C]_(D m.+1)) : eps_r_noop (q m.+1) 1%:M (A m.+1) (A m.+1) = 1%:M ->
  @tdot C D q m.+1 (fun s => F *m A m.+1 s) (fun s => G *m A m.+1 s) = adot F G.
Proof.
move=> e; rewrite (@tdot_GA C D q A m F (fun s => G *m A m.+1 s)); congr (adot _ _).
rewrite -[RHS]mulmx1 -[in RHS]e /eps_r_noop mulmx_sumr; apply: eq_bigr => s _.
by rewrite ?mulmx1 ?mul1mx ?mulmxA.
Qed.
Lemma ctr_val m w (G : 'M[C]_(D m.+1)) : (m.+1 < N)%N -> invb m.+1 w ->
  nrm (ctr (wA w) m G) = adot G G /\ En (ctr (wA w) m G) = adot G (heffG (wA w) (wKL w m.+1) (wKR w m.+1) G).
Proof.
move=> mN [[g1 g2] e]; split; last by rewrite /En (projG G G mN (conj g1 g2) e).
rewrite /nrm /ctr C35_norm // ?tdot_ctr ?g2 ?leqnn //.
by split=> // j /andP[jm jN]; apply: g2; rewrite jN (leq_trans _ jm).
Qed.
Lemma heffG_herm m w : (m.+1 < N)%N -> invb m.+1 w -> herm_G (heffG (wA w) (wKL w m.+1) (wKR w m.+1)).
Proof. by move=> mN [g e] F G; rewrite !(projG _ _ mN g e) Hherm. Qed.

Local Notation RM := (right_move q N updL heff heffG qr eigsh expA expG DMRG fac dtau).
Local Notation LM := (left_move q updR heff heffG qr eigsh expA expG DMRG fac dtau).
Local Notation sA := (solveA q heff eigsh expA DMRG fac (dtau / 2%:R)).

(* right_move: solve, then the centre matrix G between m and m+1, possibly evolved *)
Lemma right_moveP m w : (m.+1 < N)%N -> inv m w -> exists w2 G,
  [/\ invb m.+1 w2, eqst (wA (sA m w)) (ctr (wA w2) m G), inv m.+1 (RM m w)
    & wA (RM m w) = ctr (wA w2) m (sgG (- (dtau / 2%:R)) w2 G)].
Proof.
move=> mN /(inv_solve (dtau / 2%:R)); rewrite /right_move mN; move: (sA m w) => w1 I.
have [g [e1 e2 e3 e4]] := I; have [q1 q2] := lcf1P (wA w1 m) (ltnW mN).
case E: (lcf1 _ _ _) q1 q2 => [Q G] /= q1 q2.
set A2 := rep (wA w1) Q; set w2 := Sw A2 _ _; exists w2, G.
have A2o j : m != j -> A2 j = wA w1 j by move=> h; rewrite /A2 rep_other.
have A2m : A2 m = Q by rewrite /A2 rep_same.
have K2 j : (j <= m)%N -> wKL w2 j = wKL w1 j.
  by move=> jm; rewrite /w2 /= /setb upd_other // gtn_eqF.
have K2m : wKL w2 m.+1 = updL A2 (wKL w2 m) by rewrite (K2 _ (leqnn _)) /w2 /= /setb upd_same.
have wE : wA w2 = A2 by [].
have RE : wKR w2 = wKR w1 by [].
have Ib : invb m.+1 w2.
  split; split; rewrite ?wE ?RE.
  - move=> j jm; case: (eqVneq m j) => [<-|mj]; first by rewrite A2m.
    rewrite A2o //; apply: g.1; move: jm mj; rewrite ltnS leq_eqVlt eq_sym => /orP[/eqP->|//]; by rewrite eqxx.
  - by move=> j /andP[mj jN]; rewrite A2o ?g.2 ?mj // ltn_eqF.
  - by rewrite K2.
  - move=> j; rewrite ltnS leq_eqVlt => /orP[/eqP->|jm]; first exact: K2m.
    rewrite !K2 ?e2 //; last exact: ltnW.
    by apply: locL => i ij; rewrite A2o // gtn_eqF // (leq_ltn_trans ij).
  - by [].
  - move=> j /andP[mj jN]; rewrite e4 ?mj //; apply: locR => i ij; rewrite A2o // ltn_eqF //; exact: leq_trans ij.
have st : eqst (wA w1) (ctr A2 m G).
  apply: eqst_trans (eqst_shift A2 G mN); apply: eqst_pt => j s jN sq.
  case: (eqVneq m j) => [|mj]; last by rewrite rep_other // A2o.
  by move=> e; subst j; rewrite rep_same A2m q1.
split=> //.
have := @inv_rep m.+1 w2 (fun s => sgG (- (dtau / 2%:R)) w2 G *m A2 m.+1 s); apply.
case: Ib => [[b1 b2] [c1 c2 c3 c4]]; split; split=> // j /andP[jm jN]; [apply: b2 | apply: c4]; by rewrite jN (ltnW jm).
Qed.
Lemma left_moveP m w : (m.+1 < N)%N -> inv m.+1 w -> exists w2 G,
  [/\ invb m.+1 w2, eqst (wA (sA m.+1 w)) (ctr (wA w2) m G), inv m (LM m.+1 w)
    & eqst (wA (LM m.+1 w)) (ctr (wA w2) m (sgG (- (dtau / 2%:R)) w2 G))].
Proof.
move=> mN /(inv_solve (dtau / 2%:R)); rewrite /left_move; move: (sA m.+1 w) => w1 I.
have [g [e1 e2 e3 e4]] := I; have [q1 q2] := rcf1P (wA w1 m.+1) mN.
case E: (rcf1 _ _ _) q1 q2 => [G Q] /= q1 q2.
set A2 := @rep C D (wA w1) m.+1 Q; set w2 := Sw A2 _ _; exists w2, G.
have A2o j : m.+1 != j -> A2 j = wA w1 j by move=> h; rewrite /A2 rep_other.
have A2m : A2 m.+1 = Q by rewrite /A2 rep_same.
have K2 j : (m.+1 < j)%N -> wKR w2 j = wKR w1 j.
  by move=> jm; rewrite /w2 /= /setb upd_other // ltn_eqF.
have K2m : wKR w2 m.+1 = updR A2 (wKR w2 m.+2) by rewrite (K2 _ (leqnn _)) /w2 /= /setb upd_same.
have wE : wA w2 = A2 by [].
have LE : wKL w2 = wKL w1 by [].
have Ib : invb m.+1 w2.
  split; split; rewrite ?wE ?LE.
  - by move=> j jm; rewrite A2o ?g.1 // gtn_eqF.
  - move=> j /andP[mj jN]; move: mj; rewrite leq_eqVlt => /orP[/eqP e|mj]; first by subst j; rewrite A2m.
    by rewrite A2o ?g.2 ?mj // ltn_eqF.
  - by [].
  - move=> j jm; rewrite e2 //; apply: locL => i ij; rewrite A2o // gtn_eqF //; exact: leq_ltn_trans jm.
  - by rewrite K2.
  - move=> j /andP[mj jN]; move: mj; rewrite leq_eqVlt => /orP[/eqP e|mj]; first by subst j; exact: K2m.
    rewrite (K2 _ mj) (K2 _ (leqW mj)) e4 ?mj //.
    by apply: locR => i ij; rewrite A2o // ltn_eqF // (leq_trans mj).
have st : eqst (wA w1) (ctr A2 m G).
  apply: eqst_pt => j s jN sq; rewrite /ctr.
  case: (eqVneq m.+1 j) => [e|mj]; last by rewrite rep_other // A2o.
  by subst j; rewrite rep_same A2m q1.
split=> //; last by apply: eqst_shift.
have := @inv_rep m w2 (fun s => A2 m s *m sgG (- (dtau / 2%:R)) w2 G); apply.
case: Ib => [[b1 b2] [c1 c2 c3 c4]]; split; split=> // j jm; [apply: b1 | apply: c2]; exact: ltnW.
Qed.
Lemma left_move0 w : (0 < N)%N -> inv 0 w ->
  [/\ wA (LM 0 w) = wA (sA 0 w), inv 0 (LM 0 w) & wKR (LM 0 w) 0%N = updR (wA (LM 0 w)) (wKR (LM 0 w) 1%N)].
Proof.
move=> N0 /(inv_solve (dtau / 2%:R)); rewrite /left_move; move: (sA 0%N w) => w1 [g [e1 e2 e3 e4]].
split=> //; last by rewrite /= /setb upd_same upd_other.
split=> //; split=> //=; first by rewrite /setb upd_other // ltn_eqF.
move=> j /andP[j0 jN]; rewrite /setb !upd_other ?ltn_eqF // e4 ?j0 //.
Qed.
Lemma init_inv A : gauge q N A 0 1 ->
  let w := sweep_init N updR A in wA w = A /\ inv 0 w.
Proof.
move=> g; rewrite /sweep_init.
have gen n m : (m + n)%N = N ->
    let w := foldl (fun w m => init_R updR m w) (Sw A (fun=> None) (fun=> None)) (rev (iota m n)) in
    wA w = A /\ envs A (wKL w) (wKR w) 0 m.
  elim: n m => [|n IH] m mn.
    by split=> //; split=> // j; rewrite -mn addn0 => /andP[h /(leq_ltn_trans h)]; rewrite ltnn.
  have [h [e1 e2 e3 e4]] := IH m.+1 ltac:(by rewrite addSnnS).
  rewrite [iota m n.+1]/= rev_cons foldl_rcons; move: h e1 e2 e3 e4; set w := foldl _ _ _ => h e1 e2 e3 e4.
  rewrite /init_R /=; split=> //; split=> //.
    by rewrite /setb upd_other // ltn_eqF // -mn -addSnnS leq_addr.
  move=> j /andP[]; rewrite leq_eqVlt => /orP[/eqP e|mj] jN.
    by subst j; rewrite /setb upd_same upd_other ?h // ltn_eqF.
  have sE i : (m < i)%N -> setb (wKR w) (updR (wA w) (wKR w m.+1)) i = wKR w i by move=> h'; rewrite /setb upd_other // ltn_eqF.
  by rewrite (sE _ mj) (sE _ (leqW mj)) e4 ?mj.
have [h e] := gen N 0%N (add0n N); split=> //; split; rewrite h //.
by case: e => e1 e2 e3 e4; split=> // j /andP[_ jN]; apply: e4.
Qed.

(* ---- whole sweeps ---------------------------------------------------------------------- *)
Local Notation SW := (sweep q N updL updR heff heffG qr eigsh expA expG DMRG fac dtau).
Section Rel.
Variable P : sw C D -> sw C D -> Prop.
Hypothesis Ptr : forall a b c, P a b -> P b c -> P a c.
Hypothesis Psolve : forall m w, (m < N)%N -> inv m w -> P w (sA m w).
Hypothesis Peq : forall a b c : sw C D, eqst (wA b) (wA c) -> P a b -> P a c.
Hypothesis PG : forall m w (w0 w1 w2 : sw C D) G, (m.+1 < N)%N -> invb m.+1 w ->
  eqst (wA w1) (ctr (wA w) m G) -> P w0 w1 -> eqst (wA w2) (ctr (wA w) m (sgG (- (dtau / 2%:R)) w G)) -> P w0 w2.

Lemma P_right m w : (m < N)%N -> inv m w -> P w (RM m w).
Proof.
move=> mN I; case: (ltnP m.+1 N) => h; last by rewrite /right_move ltnNge h; apply: Psolve.
have [w2 [G [i1 i2 i3 i4]]] := right_moveP h I.
by apply: (PG h i1 i2 (Psolve mN I)) => //; rewrite i4.
Qed.
Lemma P_left m w : (m < N)%N -> inv m w -> P w (LM m w).
Proof.
case: m => [|m] mN I.
  have [e _ _] := left_move0 mN I; apply: (@Peq _ (sA 0%N w)); last exact: Psolve.
  by rewrite e.
have [w2 [G [i1 i2 i3 i4]]] := left_moveP mN I.
by apply: (PG mN i1 i2 (Psolve mN I)).
Qed.
Lemma sweepP w : (0 < N)%N -> inv 0 w -> [/\ P w (SW w), inv 0 (SW w) & exists2 v, inv 0 v & SW w = LM 0 v].
Proof.
move=> N0 I; rewrite /sweep.
have right n m v : (m + n.+1)%N = N -> inv m v ->
    P v (foldl (fun w m => RM m w) v (iota m n.+1)) /\ inv N.-1 (foldl (fun w m => RM m w) v (iota m n.+1)).
  elim: n m v => [|n IH] m v mn J.
    have e : m = N.-1 by rewrite -mn addn1. 
    have mN : (m < N)%N by rewrite -mn addn1.
    rewrite [foldl _ _ _]/=; split; first exact: P_right.
    by rewrite -e /right_move -mn addn1 ltnn; apply: inv_solve.
  have mN : (m.+1 < N)%N by rewrite -mn !addnS !ltnS leq_addr.
  have [w2 [G [_ _ J' _]]] := right_moveP mN J.
  have [h1 h2] := IH m.+1 _ ltac:(by rewrite addSnnS) J'; split; last exact: h2.
  exact: Ptr (P_right (ltnW mN) J) h1.
have left n v : (n < N)%N -> inv n v ->
    let v' := foldl (fun w m => LM m w) v (rev (iota 0 n.+1)) in
    [/\ P v v', inv 0 v' & exists2 u, inv 0 u & v' = LM 0 u].
  elim: n v => [|n IH] v nN J.
    have [_ J' _] := left_move0 nN J; split=> //; first exact: P_left.
    by exists v.
  have [w2 [G [_ _ J' _]]] := left_moveP nN J.
  rewrite -[n.+2]addn1 iotaD rev_cat add0n; change (rev (iota n.+1 1)) with [:: n.+1].
  rewrite [foldl _ _ _]/=; have [h1 h2 h3] := IH _ (ltnW nN) J'; split; [|exact: h2|exact: h3].
  exact: Ptr (P_left nN J) h1.
have e : N = N.-1.+1 by rewrite prednK.
have [r1 r2] := right N.-1 0%N w ltac:(by rewrite add0n -e) I.
move: r1 r2; rewrite -e => r1 r2.
have [l1 l2 l3] := left N.-1 _ ltac:(by rewrite {2}e) r2.
move: l1 l2 l3; rewrite -e => l1 l2 l3; split=> //; exact: Ptr r1 l1.
Qed.
End Rel.

(* DMRG *)
Section DMRG.
Hypothesis dm : DMRG = true.
Hypothesis eigshP : eigsh_contract q eigsh.
Hypothesis qpos : forall m, (m < N)%N -> (0 < q m)%N.
Hypothesis Dpos : forall m, (m <= N)%N -> (0 < D m)%N.

(* a local solve: norm one, and no other choice of the tensor has a lower energy *)
Lemma dm_solve m w : (m < N)%N -> inv m w -> nrm (wA (sA m w)) = 1 /\
  forall T : ten m, En (wA (sA m w)) * nrm (rep (wA w) T) <= En (rep (wA w) T).
Proof.
move=> mN I; have hh := heff_herm mN I; rewrite /solveA dm.
have [X0 [ev [h1 h2]]] := eigshP (wA w m) (qpos mN) (Dpos (ltnW mN)) (Dpos mN) hh.
move: X0 h1; set X := eigsh _ _ => X0 h1; rewrite [wA (Sw _ _ _)]/=.
have [n1 e1] := unit_val mN I X0; split=> // T; rewrite e1 (nrm_rep _ mN I) (En_rep _ mN I).
have -> : tdot q X (heff (wA w) (wKL w m) (wKR w m.+1) X) / tdot q X X = ev; last exact: h2.
have e : tdot q X (heff (wA w) (wKL w m) (wKR w m.+1) X) = ev * tdot q X X.
  by rewrite (eq_tdotr _ h1) /tdot mulr_sumr; apply: eq_bigr => s _; rewrite -scalemxAr mxtraceZ.
by rewrite e mulfK // gt_eqF.
Qed.
Definition lower (w w' : sw C D) := nrm (wA w') = 1 /\ En (wA w') * nrm (wA w) <= En (wA w).
Lemma nrm_ge0 A : 0 <= nrm A. Proof. exact: dotst_ge0. Qed.
Lemma lower_tr a b c : lower a b -> lower b c -> lower a c.
Proof.
move=> [n1 e1] [n2 e2]; split=> //; apply: le_trans e1; apply: ler_wpmul2r; first exact: nrm_ge0.
by rewrite -[En (wA c)]mulr1 -n1.
Qed.
Lemma lower_solve m w : (m < N)%N -> inv m w -> lower w (sA m w).
Proof.
move=> mN I; have [h1 h2] := dm_solve mN I; split=> //.
by have := h2 (wA w m); rewrite (eqst_nrm (@eqst_self _ m)) (eqst_En (@eqst_self _ m)).
Qed.
Lemma lower_eq (a b c : sw C D) : eqst (wA b) (wA c) -> lower a b -> lower a c.
Proof. by move=> e; rewrite /lower (eqst_nrm e) (eqst_En e). Qed.
Lemma lower_G m w (w0 w1 w2 : sw C D) G : (m.+1 < N)%N -> invb m.+1 w ->
  eqst (wA w1) (ctr (wA w) m G) -> lower w0 w1 -> eqst (wA w2) (ctr (wA w) m (sgG (- (dtau / 2%:R)) w G)) -> lower w0 w2.
Proof.
move=> mN I e1 l1; rewrite /solveG dm => e2; apply: lower_eq l1; exact: eqst_trans e1 (eqst_sym e2).
Qed.
Lemma dmrg_sweep A : (0 < N)%N -> gauge q N A 0 1 -> forall k,
  let B j := wA (sweeps q N updL updR heff heffG qr eigsh expA expG DMRG fac dtau j A) in
  [/\ gauge q N (B k) 0 1, nrm (B k.+1) = 1, En (B k.+1) * nrm (B k) <= En (B k)
    & forall T : ten 0, En (B k.+1) * nrm (rep (B k.+1) T) <= En (rep (B k.+1) T)].
Proof.
move=> N0 g k B; have [iA I0] := init_inv g.
have inv_k j : inv 0 (sweeps q N updL updR heff heffG qr eigsh expA expG DMRG fac dtau j A).
  by elim: j => [|j IH] //; have [_ h _] := sweepP lower_tr lower_solve lower_eq lower_G N0 IH.
have [[n1 e1] _ [v Iv ev]] := sweepP lower_tr lower_solve lower_eq lower_G N0 (inv_k k).
split=> //; first by case: (inv_k k).
move=> T; have [eA _ _] := left_move0 N0 Iv.
have BE : B k.+1 = wA (sA 0%N v) by rewrite -eA -ev.
have [_ h] := dm_solve N0 Iv; rewrite BE; have := h T.
have e : eqst (rep (wA v) T) (rep (wA (sA 0%N v)) T).
  apply: eqst_pt => j s _ _; case: (eqVneq 0%N j) => [<-|h']; first by rewrite !rep_same.
  by rewrite !rep_other //= rep_other.
by rewrite (eqst_nrm e) (eqst_En e).
Qed.
(* every move on the way *)
Lemma dmrg_moves m w : (m < N)%N -> inv m w -> lower w (RM m w) /\ lower w (LM m w).
Proof.
move=> mN I; split; [apply: P_right | apply: P_left] => //;
  by [exact: lower_solve | exact: lower_eq | exact: lower_G].
Qed.
End DMRG.

(* real-time evolution *)
Section Real.
Hypothesis rt : DMRG = false.
Hypothesis facP : fac = 'i.
Hypothesis dtP : dtau \is Num.real.
Hypothesis expAP : expA_contract q expA.
Hypothesis expGP : expG_contract expG.

Definition conserved (w w' : sw C D) := nrm (wA w) = 1 -> nrm (wA w') = 1 /\ En (wA w') = En (wA w).
Lemma cons_tr a b c : conserved a b -> conserved b c -> conserved a c.
Proof. by move=> h1 h2 n; have [n1 e1] := h1 n; have [n2 e2] := h2 n1; rewrite e2. Qed.
Lemma cons_eq (a b c : sw C D) : eqst (wA b) (wA c) -> conserved a b -> conserved a c.
Proof. by move=> e; rewrite /conserved (eqst_nrm e) (eqst_En e). Qed.
Lemma half_real : dtau / 2%:R \is Num.real.
Proof. by rewrite rpredM // rpredV realn. Qed.
Lemma cons_solve m w : (m < N)%N -> inv m w -> conserved w (sA m w).
Proof.
move=> mN I n1; have hh := heff_herm mN I; rewrite /solveA rt facP.
have [U [u1 u2 u3]] := expAP half_real hh.
set X := expA _ _ _; rewrite [wA (Sw _ _ _)]/=.
have XU s : (s < q m)%N -> X s = U (wA w m) s by move=> sq; apply: u3.
have tX : tdot q X X = 1.
  by rewrite (eq_tdotr _ XU) (eq_tdotl _ XU) u1 -n1 -(eqst_nrm (@eqst_self _ m)) (nrm_rep _ mN I).
have [h1 h2] := unit_val mN I (X := X) ltac:(by rewrite tX ltr01); split=> //; rewrite h2 tX divr1.
rewrite (eq_tdotl _ XU) hh (eq_tdotl _ XU) -hh.
rewrite -(eq_tdotr _ (fun s sq => u2 (wA w m) s sq)) u1 -(En_rep _ mN I).
exact: eqst_En (@eqst_self _ m).
Qed.
Lemma cons_G m w (w0 w1 w2 : sw C D) G : (m.+1 < N)%N -> invb m.+1 w ->
  eqst (wA w1) (ctr (wA w) m G) -> conserved w0 w1 -> eqst (wA w2) (ctr (wA w) m (sgG (- (dtau / 2%:R)) w G)) -> conserved w0 w2.
Proof.
move=> mN I e1 l1 e2 n0; have [n1 E1] := l1 n0; rewrite (eqst_nrm e2) (eqst_En e2) -E1 (eqst_En e1).
have hh := heffG_herm mN I; have hr : - (dtau / 2%:R) \is Num.real by rewrite rpredN half_real.
have [U [u1 u2 u3]] := expGP hr hh.
rewrite /solveG rt facP u3 /unit_mx u1.
have gn : adot G G = 1 by have [<- _] := ctr_val G mN I; rewrite -(eqst_nrm e1).
rewrite gn sqrtC1 invr1 scale1r; have [-> ->] := ctr_val (U G) mN I; have [_ ->] := ctr_val G mN I.
by rewrite u1 gn -u2 u1.
Qed.
Lemma real_sweep A : (0 < N)%N -> gauge q N A 0 1 -> nrm A = 1 -> forall k,
  let B := wA (sweeps q N updL updR heff heffG qr eigsh expA expG DMRG fac dtau k A) in
  [/\ gauge q N B 0 1, nrm B = 1 & En B = En A].
Proof.
move=> N0 g n1 k; have [iA I0] := init_inv g.
elim: k => [|k [g' n' e']]; first by rewrite /sweeps /= iA.
have gen j : inv 0 (sweeps q N updL updR heff heffG qr eigsh expA expG DMRG fac dtau j A).
  by elim: j => [|j IH] //; have [_ h _] := sweepP cons_tr cons_solve cons_eq cons_G N0 IH.
have [c1 i1 _] := sweepP cons_tr cons_solve cons_eq cons_G N0 (gen k).
have [n2 e2] := c1 n'; split=> //; first by case: i1.
by rewrite -e' -e2.
Qed.
End Real.
End Gen.

(* ---- the two kinds of Hamiltonian -------------------------------------------------------- *)
Section Thm.
Variables (C : numClosedFieldType) (D q : nat -> nat) (N : nat).
Variables (h2 : nat -> op2s C) (h3 : nat -> op3s C).
Local Notation ham2 := (fun j => Some (h2 j)).
Local Notation ham3 := (fun j => Some (h3 j)).
Local Notation ten m := (nat -> 'M[C]_(D m, D m.+1)).
Variables (qr : qr_routine C) (eigsh : eigsh_routine C D) (expA : expA_routine C D) (expG : expG_routine C).
Hypotheses (qrP : qr_contract qr) (dims : dims_ok D q N).

Lemma locL2 A A' m k : (forall j, (j <= m)%N -> A j = A' j) -> @upd_left2 C D q A h2 m k = upd_left2 q A' h2 k.
Proof. by case: m k => [|m] k e //=; rewrite !e. Qed.
Lemma locR2 A A' m k : (forall j, (m <= j)%N -> A j = A' j) -> @upd_right2 C D q N A h2 m k = upd_right2 q N A' h2 k.
Proof. by move=> e; rewrite /upd_right2 !e. Qed.
Lemma locL3 A A' m k : (forall j, (j <= m)%N -> A j = A' j) -> @upd_left3 C D q A h3 m k = upd_left3 q A' h3 k.
Proof. by case: m k => [|[|m]] k e //=; rewrite /calc_AAs !e // ltnW. Qed.
Lemma locR3 A A' m k : (forall j, (m <= j)%N -> A j = A' j) -> @upd_right3 C D q N A h3 m k = upd_right3 q N A' h3 k.
Proof. by move=> e; rewrite /upd_right3 /calc_AAs !e //; lia. Qed.

(* energy and norm of the state of the tensors A *)
Local Notation norm A := (dotst q N (psi A N) (psi A N)).
Local Notation E2 A := (dotst q N (psi A N) (Ham2 q N ham2 (psi A N))).
Local Notation E3 A := (dotst q N (psi A N) (Ham3 q N ham3 (psi A N))).
(* sites 2..N right-canonical, as evolve_split requires *)
Local Notation rcf A := (gauge q N A 0 1).

(* DMRG: after every sweep the state is normalised, the energy per norm has not gone up, and no other first
   tensor gives a lower energy *)
Theorem C68_dmrg_2s A : (forall j, herm_op2 (h2 j)) -> eigsh_contract q eigsh ->
  (forall m, (m < N)%N -> (0 < q m)%N) -> (forall m, (m <= N)%N -> (0 < D m)%N) -> (0 < N)%N -> rcf A -> forall k,
  let B j := wA (dmrg2 q N h2 qr eigsh expA expG j A) in
  [/\ rcf (B k), norm (B k.+1) = 1, E2 (B k.+1) * norm (B k) <= E2 (B k)
    & forall T : ten 0, E2 (B k.+1) * norm (rep (B k.+1) T) <= E2 (rep (B k.+1) T)].
Proof.
move=> hh eP qp Dp N0 g k.
apply: (@dmrg_sweep C D q N _ _ _ _ qr eigsh expA expG true 1 0 (Ham2 q N ham2) locL2 locR2) => //.
- by move=> u v; apply: Ham2_herm.
- by move=> A' m KL KR T X mN gA [e1 e3 e4 e5]; rewrite -[RHS]mul1r -(C35_one_site_2s (KL := KL) (KR := KR)) //; apply: eq_tdotr => s _; rewrite scale1r.
Qed.
Theorem C68_dmrg_3s A : (forall j, herm_op3 (h3 j)) -> eigsh_contract q eigsh ->
  (forall m, (m < N)%N -> (0 < q m)%N) -> (forall m, (m <= N)%N -> (0 < D m)%N) -> (0 < N)%N -> rcf A -> forall k,
  let B j := wA (dmrg3 q N h3 qr eigsh expA expG j A) in
  [/\ rcf (B k), norm (B k.+1) = 1, E3 (B k.+1) * norm (B k) <= E3 (B k)
    & forall T : ten 0, E3 (B k.+1) * norm (rep (B k.+1) T) <= E3 (rep (B k.+1) T)].
Proof.
move=> hh eP qp Dp N0 g k.
apply: (@dmrg_sweep C D q N _ _ _ _ qr eigsh expA expG true 1 0 (Ham3 q N ham3) locL3 locR3) => //.
- by move=> u v; apply: Ham3_herm.
- by move=> A' m KL KR T X mN gA [e1 e3 e4 e5]; rewrite -[RHS]mul1r -(C35_one_site_3s (KL := KL) (KR := KR)) //; apply: eq_tdotr => s _; rewrite scale1r.
Qed.

(* real-time split-step evolution: norm and energy are conserved exactly *)
Theorem C69_conservation_2s A dtau : (forall j, herm_op2 (h2 j)) -> expA_contract q expA -> expG_contract expG ->
  'Im dtau != 0 -> (0 < N)%N -> rcf A -> norm A = 1 -> forall k,
  let B := wA (evolve2 q N h2 qr eigsh expA expG dtau k A) in [/\ rcf B, norm B = 1 & E2 B = E2 A].
Proof.
move=> hh aP gP d0 N0 g n1 k; rewrite /evolve2 /split_dtau.
have -> : 'Im (- dtau) != 0 by rewrite raddfN oppr_eq0.
apply: (@real_sweep C D q N _ _ _ _ qr eigsh expA expG false 'i ('Im (- dtau)) (Ham2 q N ham2) locL2 locR2) => //.
- by move=> u v; apply: Ham2_herm.
- by move=> A' m KL KR T X mN gA [e1 e3 e4 e5]; rewrite -[RHS]mul1r -(C35_one_site_2s (KL := KL) (KR := KR)) //; apply: eq_tdotr => s _; rewrite scale1r.
- by move=> A' m KL KR F G mN gA eA; rewrite -[RHS]mul1r -(C35_bond_2s _ _ _ mN gA eA) scale1r.
Qed.
Theorem C69_conservation_3s A dtau : (forall j, herm_op3 (h3 j)) -> expA_contract q expA -> expG_contract expG ->
  'Im dtau != 0 -> (0 < N)%N -> rcf A -> norm A = 1 -> forall k,
  let B := wA (evolve3 q N h3 qr eigsh expA expG dtau k A) in [/\ rcf B, norm B = 1 & E3 B = E3 A].
Proof.
move=> hh aP gP d0 N0 g n1 k; rewrite /evolve3 /split_dtau.
have -> : 'Im (- dtau) != 0 by rewrite raddfN oppr_eq0.
apply: (@real_sweep C D q N _ _ _ _ qr eigsh expA expG false 'i ('Im (- dtau)) (Ham3 q N ham3) locL3 locR3) => //.
- by move=> u v; apply: Ham3_herm.
- by move=> A' m KL KR T X mN gA [e1 e3 e4 e5]; rewrite -[RHS]mul1r -(C35_one_site_3s (KL := KL) (KR := KR)) //; apply: eq_tdotr => s _; rewrite scale1r.
- by move=> A' m KL KR F G mN gA eA; rewrite -[RHS]mul1r -(C35_bond_3s _ _ _ mN gA eA) scale1r.
Qed.
(* a complex step loses its real part: evolve_split with dtau = a + i b evolves by i b only, so the
   energy does not go down however large the imaginary-time part a is *)
Theorem C69_complex_step_refuted (dtau : C) : 'Im dtau != 0 ->
  evolve2 q N h2 qr eigsh expA expG dtau = evolve2 q N h2 qr eigsh expA expG ('i * 'Im dtau) /\
  evolve3 q N h3 qr eigsh expA expG dtau = evolve3 q N h3 qr eigsh expA expG ('i * 'Im dtau).
Proof.
move=> d0; have e : 'Im ('i * 'Im dtau) = 'Im dtau.
  by rewrite -[X in 'Im X]add0r Im_rect ?rpred0 ?Creal_Im.
have e' : split_dtau dtau = split_dtau ('i * 'Im dtau) by rewrite /split_dtau !raddfN /= e oppr_eq0 d0.
by rewrite /evolve2 /evolve3 e'.
Qed.
End Thm.
Print Assumptions C68_dmrg_2s.
Print Assumptions C68_dmrg_3s.
Print Assumptions C69_conservation_2s.
Print Assumptions C69_conservation_3s.
Print Assumptions C69_complex_step_refuted.

(* ---- examples: two spins |11> ---------------------------------------------------------------- *)
Section Example.
Variable C : numClosedFieldType.
Local Notation A1 := (scal (bas C [:: 1%N; 1%N])).
Local Notation Eh h A := (dotst two 2 (psi A 2) (Ham2 two 2 (fun j => Some (h j)) (psi A 2))).
Lemma ex_dims : dims_ok one two 2. Proof. by []. Qed.
Lemma ex_rcf : gauge two 2 A1 0 1.
Proof.
split=> // j /andP[j1 j2]; have -> : j = 1%N by lia.
rewrite /eps_r_noop !big_ord_recl big_ord0 /= /scal /bas /delta /= raddf0 !mul0mx add0r addr0.
by rewrite adj1 !mulmx1.
Qed.
(* a product of one-dimensional tensors *)
Lemma ex_sum (B : tensors C one) (f : seq nat -> C) (v : seq nat -> 'M[C]_1) :
  (forall s t, (s < 2)%N -> (t < 2)%N -> v [:: s; t] = f [:: s; t] *: (B 0%N s *m B 1%N t)) ->
  dotst two 2 (psi B 2) v =
  \sum_(s < 2) \sum_(t < 2) f [:: s : nat; t : nat] * adot (B 0%N s *m B 1%N t) (B 0%N s *m B 1%N t).
Proof.
move=> e; rewrite dotstE /= !big_cons big_nil !big_ord_recl !big_ord0 /= !e // !adotZr /psi /= !pid_mx_1 !mulmx1.
by rewrite !addr0 !addrA.
Qed.
Lemma ex_hn (B : tensors C one) s t : (s < 2)%N -> (t < 2)%N ->
  Ham2 two 2 (fun j => Some (@hn C j)) (psi B 2) [:: s; t] = (s + t)%:R *: (B 0%N s *m B 1%N t).
Proof.
move=> hs ht; rewrite /Ham2 big_ord1 /op2 !big_ord_recl !big_ord0 /= /hn /psi /= !pid_mx_1 !mulmx1.
by case: s hs => [|[|]] // _; case: t ht => [|[|]] // _; rewrite /= ?mul0r ?mul1r ?scale0r ?addr0 ?add0r.
Qed.
Lemma ex_E (B : tensors C one) : Eh (@hn C) B =
  \sum_(s < 2) \sum_(t < 2) (s + t)%:R * adot (B 0%N s *m B 1%N t) (B 0%N s *m B 1%N t).
Proof. by rewrite (@ex_sum B (fun c => (nth 0%N c 0 + nth 0%N c 1)%:R)) // => s t hs ht; rewrite ex_hn. Qed.
Lemma ex_n (B : tensors C one) : dotst two 2 (psi B 2) (psi B 2) =
  \sum_(s < 2) \sum_(t < 2) adot (B 0%N s *m B 1%N t) (B 0%N s *m B 1%N t).
Proof.
rewrite (@ex_sum B (fun=> 1)) => [|s t _ _]; last by rewrite scale1r /psi /= !pid_mx_1 !mulmx1.
by apply: eq_bigr => s _; apply: eq_bigr => t _; rewrite mul1r.
Qed.
(* DMRG for the number operators: the energy 2 of |11> is lowered to at most 1 by the first sweep *)
Example C68_example :
  [/\ Eh (@hn C) A1 = 2%:R, eigsh_contract two (@eigsh0 C one two)
    & let B := wA (@dmrg2 C one two 2 (@hn C) (@qr0 C) (@eigsh0 C one two) (@expA0 C one two) (@expG0 C) 1 A1) in
      dotst two 2 (psi B 2) (psi B 2) = 1 /\ Eh (@hn C) B <= 1].
Proof.
split; [|exact: eigsh0_ok|].
  rewrite ex_E !big_ord_recl !big_ord0 /= /scal /bas /delta /= raddf0 !mul0mx !mulmx0 mul1mx.
  rewrite !adotE !adj0 !mul0mx !mxtrace0 !mulr0 !add0r adj1 mul1mx mxtrace1 mulr1 !addr0 //.
move=> B; have th k := C68_dmrg_2s (@expA0 C one two) (@expG0 C) (@qr0_ok C) ex_dims (@hn_herm C) (@eigsh0_ok C one two) (fun _ _ => isT) (fun _ _ => isT) isT ex_rcf k.
have [_ n1 _ opt] := th 0%N; have [[_ g] _ _ _] := th 1%N; split=> //.
pose T s : 'M[C]_1 := (s == 0%N)%:R%:M; have := opt T; rewrite -/B.
have r1 : @rep C one B 0%N T 1%N = B 1%N by rewrite rep_other.
have r0 : @rep C one B 0%N T 0%N = T by rewrite rep_same.
have b1 : adot (B 1%N 0%N) (B 1%N 0%N) + adot (B 1%N 1%N) (B 1%N 1%N) = 1.
  have := congr1 mxtrace (g 1%N isT); rewrite -/B mxtrace1 /eps_r_noop !big_ord_recl big_ord0 addr0 /= => h; rewrite -[RHS]/((one 1)%:R) -h {h}.
  rewrite mxtraceD !mulmx1 !adotE; congr (_ + _); exact: mxtrace_mulC.
rewrite ex_n [X in _ <= X]ex_E r0 r1 !big_ord_recl !big_ord0 /= /T /= raddf0 !mul0mx !mul1mx !addr0.
have z : adot (0 : 'M[C]_1) 0 = 0 by rewrite adotE mulmx0 mxtrace0.
rewrite !z b1 !mulr0 !mul0r !add0r ?addr0 mulr1 => h; apply: le_trans h _.
by rewrite mul1r -b1 ler_addr adot_ge0.
Qed.

(* split-step evolution: H with all matrix elements one, |11> is not an eigenstate *)
Definition hones (j : nat) : op2s C := fun _ _ _ _ => 1.
Example C69_example k :
  let B := wA (@evolve2 C one two 2 hones (@qr0 C) (@eigsh0 C one two) (@expA0 C one two) (@expG0 C) 'i k A1) in
  dotst two 2 (psi B 2) (psi B 2) = 1 /\ Eh hones B = 1.
Proof.
have n1 : dotst two 2 (psi A1 2) (psi A1 2) = 1.
  rewrite ex_n !big_ord_recl !big_ord0 /= /scal /bas /delta /= raddf0 !mul0mx !mulmx0 mul1mx.
  by rewrite !adotE !adj0 !mul0mx !mxtrace0 !add0r adj1 mul1mx mxtrace1 !addr0.
have hh j : herm_op2 (hones j) by move=> s t u v; rewrite /hones rmorph1.
have e1 : Eh hones A1 = 1.
  apply: (@dot_bas _ two 2 [:: 1%N; 1%N]) => //.
    by move=> c /cfgsP[sz _]; rewrite psi_bas.
  rewrite /Ham2 big_ord1; apply: etrans (@op2_bas _ two _ _ 1 1 _ _ isT isT _) _.
    by move=> u v; rewrite (@psi_bas _ [:: 1%N; 1%N]).
  by rewrite /hones.
have i0 : 'Im ('i : C) != 0 by rewrite Im_i oner_neq0.
have [_ h1 h2] := C69_conservation_2s (@eigsh0 C one two) (@qr0_ok C) ex_dims hh (@expA0_ok C one two) (@expG0_ok C) i0 isT ex_rcf n1 k.
by rewrite /= h1 h2.
Qed.
End Example.
Print Assumptions C68_example.
Print Assumptions C69_example.
