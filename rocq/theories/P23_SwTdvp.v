(* P23_SwTdvp.v -- C62, C63: energies and tangent vector of the sandwich class, two- and three-site terms. *)
From mathcomp Require Import all_ssreflect all_algebra.
From mathcomp Require Import zify.
From Verif Require Import Base Spec Eps Eps2 Chain ChainProofs LinAlg Struct Factor Tangent Tangent2 BTangent BMix Tdvp
  TdvpProofs TdvpProofs2 TdvpProofs3 Uniform UTdvp UTdvpL SwTdvp SwTdvpProofs SwTdvpProofs3 SwBulk.
Set Implicit Arguments.
Unset Strict Implicit.
Unset Printing Implicit Defensive.
Import Order.TTheory GRing.Theory Num.Theory.
Local Open Scope ring_scope.

(* The infinite chain is seen through M sites: sites 0 .. a are the right end of the left bulk, a+1 .. a+N the window, the
   rest the left end of the right bulk; lb and rb stand for what lies beyond.  Kb and KLb measure the energy of the terms
   beyond a bond, with a number e j subtracted for every term j of a bulk (Ksub, KLsub: the recursions they satisfy; e is
   zero for the terms that touch the window).  Gfun B is <B| H |psi> for the whole chain:

     <B| sum_j (h_j - e_j) |psi>  over the terms inside the M sites  +  the same beyond, through Kb and KLb.          *)
Section General.
Variables (C : numClosedFieldType) (D q : nat -> nat) (a N Nc M : nat).
Notation bonds := (forall n, 'M[C]_(D n)).
Variables (lb : 'M[C]_(D 0)) (rb : 'M[C]_(D M)) (A : tensors C D) (l r : forall n, smat C (D n) (D n)).
Notation L n := (toarray (l n)).
Notation R n := (toarray (r n)).
Variables (eigh : eigh_routine C) (qrf : qrf_routine C) (tol : C).
Hypotheses (hl : up_l q A M lb (fun n => L n)) (hr : up_r q A M rb (fun n => R n)) (hlb : herm lb) (hrb : herm rb).
Hypotheses (eighP : eigh_contract eigh) (qrfP : qrf_contract qrf) (tol0 : 0 <= tol).
Hypothesis hNc : (0 < Nc <= N)%N.
Hypotheses (fL : forall m, (a < m <= a + N)%N -> full tol (L m)) (fR : forall m, (a < m <= a + N)%N -> full tol (R m.+1)).
Variables (e : nat -> C) (Kb KLb : bonds) (hleft : C) (K0 KL0 : bonds).
Notation bra B phi := (bdotst q M lb rb (psi B M) phi).
Notation state := (psi A M).
(* the state with the tensor of site m replaced by T *)
Notation with_ m T := (@rep C D A m T).
(* sum over the window sites of the state with A replaced by B there *)
Notation tangent B := (sw_tv a N M A B).

Section Two.
Variable ham : nat -> op2s C.
Notation O := (O2 (fun m => Some (ham m))).
Notation H_ B := (Gfun q 2 lb rb A O e Kb KLb B).
Notation calc_K := (@sw_calc_K2 C D q a N Nc A l r (sw_C2 q a N A ham) (Kb (a + N).+1) (KLb a.+1) hleft K0 KL0).
Notation calc_B := (fun K KL hx => sw_calc_B2 q a N Nc A l r K KL hx eigh qrf tol (sw_C2 q a N A ham)).
Hypotheses (ha : (0 < a)%N) (hM : (a + N + 2 <= M)%N).
Hypotheses (hK : Ksub q A (fun n => R n) Kb 2 O e M (a + N).+1) (hKL : KLsub q 2 A (fun n => L n) O e KLb a.+1).
Hypothesis he : forall j, (a <= j <= a + N)%N -> e j = 0.
Hypotheses (q2 : q (a + 2)%N = q (a + Nc).+1) (q0 : q a = q (a + Nc).-1).

(* dH_expect is the energy less N + 1 times the given energy density, h_expect[n] the energy of the term n (n = 0 .. N) *)
Theorem C62_energies : exists K KL hx, calc_K = Some (K, KL, hx, H_ A - (N + 1)%:R * hleft) /\
  forall j, (a <= j <= a + N)%N -> hx j = bra A (opwin q j 2 (O j) state).
Proof.
have [K [KL [hx [B [eta [e1 e2 _ _ _]]]]]] := sw_tdvp2 hleft K0 KL0 hl hr hlb hrb eighP qrfP tol0 ha hNc hM hK hKL he fL fR q2 q0.
by exists K, KL, hx.
Qed.
(* calc_B finds the tangent vector in which every single-site variation of the window sees H - E, E the energy *)
Theorem C62_projection K KL hx dH : calc_K = Some (K, KL, hx, dH) -> exists B eta, calc_B K KL hx = Some (B, eta) /\
  forall m (T : nat -> 'M[C]_(D m, D m.+1)), (a < m <= a + N)%N ->
  H_ (with_ m T) - H_ A * bra (with_ m T) state = bra (with_ m T) (tangent B).
Proof.
have [K' [KL' [hx' [B [eta [e1 _ e2 e3 _]]]]]] := sw_tdvp2 hleft K0 KL0 hl hr hlb hrb eighP qrfP tol0 ha hNc hM hK hKL he fL fR q2 q0.
by rewrite e1 => -[<- <- <- _]; exists B, eta.
Qed.
(* gauge conditions, eta = the norm of the tangent vector, and no change of the norm of a normalised state *)
Theorem C62_gauge_norm K KL hx dH : calc_K = Some (K, KL, hx, dH) -> exists B eta, [/\ calc_B K KL hx = Some (B, eta),
  forall m, (a < m < a + Nc)%N -> \sum_(s < q m) (A m s)^† *m L m *m otens B m s = 0,
  forall m, (a + Nc < m <= a + N)%N -> \sum_(s < q m) A m s *m R m.+1 *m (otens B m s)^† = 0,
  eta = sqrtC (bdotst q M lb rb (tangent B) (tangent B)) &
  bra A state = 1 -> bra A (tangent B) = 0].
Proof.
have [K' [KL' [hx' [B [eta [e1 _ e2 _ [e3 e4 e5 e6]]]]]]] := sw_tdvp2 hleft K0 KL0 hl hr hlb hrb eighP qrfP tol0 ha hNc hM hK hKL he fL fR q2 q0.
rewrite e1 => -[<- <- <- _]; exists B, eta; split=> //.
- move=> m hm; have := e3 m hm; rewrite /lgauge /eps_l_noop => /(congr1 (@adj _ _ _)); rewrite adj0 adj_sum => h; rewrite -[RHS]h; apply: eq_bigr => s _.
  by rewrite !adjM adjK (bl_herm hl hlb) //; lia.
- by move=> n1; rewrite e6 n1 subrr mulr0.
Qed.
End Two.

Section Three.
Variable ham : nat -> op3s C.
Notation O := (O3 (fun m => Some (ham m))).
Notation H_ B := (Gfun q 3 lb rb A O e Kb KLb B).
Notation energy j := (bra A (opwin q j 3 (O j) state)).
Notation calc_K := (@sw_calc_K3 C D q a N Nc A l r (sw_C3 q a N A ham) (Kb (a + N).+1) (KLb a.+1) hleft K0 KL0).
Notation calc_B := (fun K KL hx => sw_calc_B3 q a N Nc A l r K KL hx eigh qrf tol (sw_C3 q a N A ham)).
Hypotheses (ha : (1 < a)%N) (hM : (a + N + 3 <= M)%N).
Hypotheses (hK : Ksub q A (fun n => R n) Kb 3 O e M (a + N).+1) (hKL : KLsub q 3 A (fun n => L n) O e KLb a.+1).
Hypothesis he : forall j, (a.-1 <= j <= a + N)%N -> e j = 0.
Hypothesis hq : forall m, (a < m < a + Nc)%N -> q m = q m.+1.

(* dH_expect is the energy less N + 2 times the given energy density; the entries of h_expect from the centre on are
   the energies of their terms, those left of the centre the energies of the terms one site further left *)
Theorem C63_energies : exists K KL hx, [/\ calc_K = Some (K, KL, hx, H_ A - (N + 2)%:R * hleft),
  forall j, (a + Nc <= j <= a + N)%N -> hx j = energy j & forall j, (a <= j < a + Nc)%N -> hx j = energy j.-1].
Proof.
have [K [KL [hx [B [eta [e1 [e2 e3] _ _ _]]]]]] := sw_tdvp3 hleft K0 KL0 hl hr hlb hrb eighP qrfP tol0 ha hNc hM hK hKL he fL fR hq.
by exists K, KL, hx.
Qed.
(* E': the energy with the entries of h_expect used by calc_B_centre in place of the energies of the terms centre-1 and centre-2 *)
Definition energy_used : C := H_ A - (energy (a + Nc).-1 - (if Nc == 1%N then energy (a + N)%N else energy (a + Nc - 3)%N)).
(* calc_B finds the tangent vector in which every single-site variation of the window sees H - E' *)
Theorem C63_tangent K KL hx dH : calc_K = Some (K, KL, hx, dH) -> exists B eta, [/\ calc_B K KL hx = Some (B, eta),
  forall m (T : nat -> 'M[C]_(D m, D m.+1)), (a < m <= a + N)%N ->
    H_ (with_ m T) - energy_used * bra (with_ m T) state = bra (with_ m T) (tangent B),
  forall m, (a < m < a + Nc)%N -> \sum_(s < q m) (A m s)^† *m L m *m otens B m s = 0,
  forall m, (a + Nc < m <= a + N)%N -> \sum_(s < q m) A m s *m R m.+1 *m (otens B m s)^† = 0 &
  eta = sqrtC (bdotst q M lb rb (tangent B) (tangent B)) /\
  (bra A state = 1 -> bra A (tangent B) = H_ A - energy_used)].
Proof.
have [K' [KL' [hx' [B [eta [e1 _ e2 pr [e3 e4 e5 e6]]]]]]] := sw_tdvp3 hleft K0 KL0 hl hr hlb hrb eighP qrfP tol0 ha hNc hM hK hKL he fL fR hq.
rewrite e1 => -[<- <- <- _]; exists B, eta; split=> //.
- move=> m hm; have := e3 m hm; rewrite /lgauge /eps_l_noop => /(congr1 (@adj _ _ _)); rewrite adj0 adj_sum => h; rewrite -[RHS]h; apply: eq_bigr => s _.
  by rewrite !adjM adjK (bl_herm hl hlb) //; lia.
- by split=> // n1; rewrite e6 n1 subrr mulr0 add0r mulr1 /energy_used opprB addrC subrK.
Qed.
(* ... so it is the projection of H |psi> when the two terms have the same energy, for instance in a uniform state *)
Theorem C63_projection K KL hx dH B eta : calc_K = Some (K, KL, hx, dH) -> calc_B K KL hx = Some (B, eta) ->
  energy (a + Nc).-1 = (if Nc == 1%N then energy (a + N)%N else energy (a + Nc - 3)%N) ->
  forall m (T : nat -> 'M[C]_(D m, D m.+1)), (a < m <= a + N)%N ->
  H_ (with_ m T) - H_ A * bra (with_ m T) state = bra (with_ m T) (tangent B).
Proof.
move=> e1 e2 e3; have [B' [eta' [e4 e5 _ _ _]]] := C63_tangent e1.
by move: e4 e5; rewrite e2 /energy_used e3 subrr subr0 => -[-> _].
Qed.
End Three.
End General.

(* ---- the two bulks are uniform states: their K matrices, as calc_K and calc_K_l of the uniform class compute them, meet
   the premises on Kb and KLb ---- *)
Section Bulks.
Variables (C : numClosedFieldType) (D q a N Nc M : nat).
Notation DD := (fun _ : nat => D).
Notation qq := (fun _ : nat => q).
(* the uniform states uni_l and uni_r *)
Variables (LL LR : nat) (Al Ar : nat -> nat -> 'M[C]_D) (ll lr rl rr : nat -> smat C D D).
Hypotheses (LL0 : (0 < LL)%N) (LR0 : (0 < LR)%N).
Hypotheses (cl : consistent LL q Al (fun k => toarray (ll k)) (fun k => toarray (lr k)))
           (cr : consistent LR q Ar (fun k => toarray (rl k)) (fun k => toarray (rr k))).
Hypotheses (nl : adot (toarray (ll LL.-1)) (toarray (lr LL.-1)) = 1) (nr : adot (toarray (rl LR.-1)) (toarray (rr LR.-1)) = 1).
Hypotheses (hll : forall k, (k < LL)%N -> herm (toarray (ll k))) (hlr : forall k, (k < LL)%N -> herm (toarray (lr k))).
(* the chain: k0 + a + 1 is a multiple of LL, so the last tensor of uni_l is the one next to the window *)
Variables (A : tensors C DD) (l r : nat -> smat C D D) (k0 : nat).
Hypothesis hk0 : ((k0 + a.+1) %% LL = 0)%N.
Hypotheses (hAl : forall j s, (j <= a)%N -> A j s = Al ((k0 + j) %% LL)%N s)
           (hAr : forall j s, A ((a + N).+1 + j)%N s = Ar (j %% LR)%N s).
Hypotheses (hLl : forall j, (j <= a.+1)%N -> toarray (l j) = toarray (ll (Uniform.prv LL ((k0 + j) %% LL)))).
Hypotheses (hRr : forall j, toarray (r ((a + N).+1 + j)%N) = toarray (rr (Uniform.prv LR (j %% LR)))).
Hypotheses (hl : up_l qq A M (toarray (l 0%N)) (fun n => toarray (l n))) (hr : up_r qq A M (toarray (r M)) (fun n => toarray (r n))).
Hypotheses (hl0 : herm (toarray (l 0%N))) (hrM : herm (toarray (r M))).
Variables (eigh : eigh_routine C) (qrf : qrf_routine C) (tol : C).
Hypotheses (eighP : eigh_contract eigh) (qrfP : qrf_contract qrf) (tol0 : 0 <= tol).
Hypothesis hNc : (0 < Nc <= N)%N.
Hypotheses (fL : forall m, (a < m <= a + N)%N -> full tol (toarray (l m)))
           (fR : forall m, (a < m <= a + N)%N -> full tol (toarray (r m.+1))).
Variables (Kl Ki KLi : nat -> 'M[C]_D) (Kr0 Kl0 : 'M[C]_D) (hleft : C) (K0 KL0 : nat -> 'M[C]_D).
Notation bra B phi := (bdotst qq M (toarray (l 0%N)) (toarray (r M)) (psi B M) phi).
Notation with_ m T := (@rep C DD A m T).
Notation tangent B := (@sw_tv C DD a N M A B).

Section Two.
(* the terms of the left bulk are hbl, those of the right bulk hbr *)
Variables (ham : nat -> op2s C) (hbl hbr : op2s C).
Hypotheses (hl_ham : forall j, (j < a)%N -> ham j = hbl) (hr_ham : forall j, (a + N < j)%N -> ham j = hbr).
Notation Hr := (uHr2 LR q Ar rr (uC2 LR q Ar hbr)).
Notation Hl := (uHl2 LL q Al ll (uC2 LL q Al hbl)).
Definition e2 j : C := if (j < a)%N then \tr (Hl ((k0 + j) %% LL)%N *m toarray (lr ((k0 + j.+1) %% LL)%N))
  else if (a + N < j)%N then adot (toarray (rl (Uniform.prv LR ((j - (a + N).+1) %% LR)))) (Hr ((j - (a + N).+1) %% LR)%N) else 0.
Notation O := (O2 (fun m => Some (ham m))).
Notation KR := (ucalc_K LR q Ar rl rr Hr Ki Kr0).
Notation KLft := (ucalc_K_l LL q Al ll lr 2 Hl Kl KLi Kl0).
Theorem C62_uniform : solves_r LR q Ar rl rr Hr Kr0 -> solves_l LL q Al ll lr 2 Hl Kl0 -> (0 < a)%N -> (a + N + 2 <= M)%N ->
  exists KLb : nat -> 'M[C]_D, let H_ B := @Gfun C DD qq M 2 (toarray (l 0%N)) (toarray (r M)) A O e2
      (fun j => KR ((j - (a + N).+1) %% LR)%N) KLb B in
  exists K KL hx B eta,
  [/\ @KLsub C DD qq 2 A (fun n => toarray (l n)) O e2 KLb a.+1,
      @sw_calc_K2 C DD qq a N Nc A l r (@sw_C2 C DD qq a N A ham) (KR 0%N) (KLft LL.-1) hleft K0 KL0
        = Some (K, KL, hx, H_ A - (N + 1)%:R * hleft),
      @sw_calc_B2 C DD qq a N Nc A l r K KL hx eigh qrf tol (@sw_C2 C DD qq a N A ham) = Some (B, eta) &
      forall m (T : nat -> 'M[C]_D), (a < m <= a + N)%N ->
        H_ (with_ m T) - H_ A * bra (with_ m T) (psi A M) = bra (with_ m T) (tangent B)].
Proof.
move=> sr sl ha hM.
have hK : @Ksub C DD qq A (fun n => toarray (r n)) (fun j => KR ((j - (a + N).+1) %% LR)%N) 2 O e2 M (a + N).+1.
  apply: (@bulk_r2 C LR q D Ar rl rr LR0 cr nr A r (a + N).+1 Ki Kr0 hAr hRr hbr) => // j; rewrite /e2.
  by rewrite ifF ?ifT; [congr (adot (toarray (rl (Uniform.prv LR (_ %% LR)))) (Hr (_ %% LR)))| |]; lia.
have [KLb hKL eb] := @bulk_l2 C LL q D Al ll lr LL0 cl nl A l hll hlr a.+1 k0 Kl0 hk0 hAl hLl hbl ham e2 Kl KLi hl_ham sl
  (fun j hj => ifT _ _ (hj : (j < a)%N)).
exists KLb; move=> H_.
have he j : (a <= j <= a + N)%N -> e2 j = 0 by move=> hj; rewrite /e2 !ifF //; lia.
have [K [KL [hx [B [eta [e1 _ e3 e4 _]]]]]] := @sw_tdvp2 C DD qq a N Nc M _ _ A l r eigh qrf tol ham e2 _ KLb hleft K0 KL0
  hl hr hl0 hrM eighP qrfP tol0 ha hNc hM hK hKL he fL fR erefl erefl.
exists K, KL, hx, B, eta; split=> //.
by rewrite -[X in Some (_, X)]/(H_ A - _) -eb -e1 subnn mod0n.
Qed.
End Two.

Section Three.
Variables (ham : nat -> op3s C) (hbl hbr : op3s C).
Hypotheses (hl_ham : forall j, (j < a.-1)%N -> ham j = hbl) (hr_ham : forall j, (a + N < j)%N -> ham j = hbr).
Notation Hr := (uHr3 LR q Ar rr (uC3 LR q Ar hbr)).
Notation Hl := (uHl3 LL q Al ll (uC3 LL q Al hbl)).
Definition e3 j : C := if (j < a.-1)%N then \tr (Hl ((k0 + j) %% LL)%N *m toarray (lr ((k0 + j.+2) %% LL)%N))
  else if (a + N < j)%N then adot (toarray (rl (Uniform.prv LR ((j - (a + N).+1) %% LR)))) (Hr ((j - (a + N).+1) %% LR)%N) else 0.
Notation O := (O3 (fun m => Some (ham m))).
Notation energy j := (bra A (opwin qq j 3 (O j) (psi A M))).
Notation KR := (ucalc_K LR q Ar rl rr Hr Ki Kr0).
Notation KLft := (ucalc_K_l LL q Al ll lr 3 Hl Kl KLi Kl0).
Theorem C63_uniform : solves_r LR q Ar rl rr Hr Kr0 -> solves_l LL q Al ll lr 3 Hl Kl0 -> (1 < a)%N -> (a + N + 3 <= M)%N ->
  exists KLb : nat -> 'M[C]_D, let H_ B := @Gfun C DD qq M 3 (toarray (l 0%N)) (toarray (r M)) A O e3
      (fun j => KR ((j - (a + N).+1) %% LR)%N) KLb B in
  exists K KL hx B eta,
  [/\ @KLsub C DD qq 3 A (fun n => toarray (l n)) O e3 KLb a.+1,
      @sw_calc_K3 C DD qq a N Nc A l r (@sw_C3 C DD qq a N A ham) (KR 0%N) (KLft LL.-1) hleft K0 KL0
        = Some (K, KL, hx, H_ A - (N + 2)%:R * hleft),
      @sw_calc_B3 C DD qq a N Nc A l r K KL hx eigh qrf tol (@sw_C3 C DD qq a N A ham) = Some (B, eta) &
      forall m (T : nat -> 'M[C]_D), (a < m <= a + N)%N ->
        H_ (with_ m T) - (H_ A - (energy (a + Nc).-1 - (if Nc == 1%N then energy (a + N)%N else energy (a + Nc - 3)%N)))
          * bra (with_ m T) (psi A M) = bra (with_ m T) (tangent B)].
Proof.
move=> sr sl ha hM.
have hK : @Ksub C DD qq A (fun n => toarray (r n)) (fun j => KR ((j - (a + N).+1) %% LR)%N) 3 O e3 M (a + N).+1.
  apply: (@bulk_r3 C LR q D Ar rl rr LR0 cr nr A r (a + N).+1 Ki Kr0 hAr hRr hbr) => // j; rewrite /e3.
  by rewrite ifF ?ifT; [congr (adot (toarray (rl (Uniform.prv LR (_ %% LR)))) (Hr (_ %% LR)))| |]; lia.
have hle j : (j.+3 <= a.+1)%N -> (j < a.-1)%N by lia.
have [KLb hKL eb] := @bulk_l3 C LL q D Al ll lr LL0 cl nl A l hll hlr a.+1 k0 Kl0 hk0 hAl hLl hbl ham e3 Kl KLi
  (fun j hj => hl_ham (hle j hj)) sl (fun j hj => ifT _ _ (hle j hj)).
exists KLb; move=> H_.
have he j : (a.-1 <= j <= a + N)%N -> e3 j = 0 by move=> hj; rewrite /e3 !ifF //; lia.
have [K [KL [hx [B [eta [e1 _ e2 e4 _]]]]]] := @sw_tdvp3 C DD qq a N Nc M _ _ A l r eigh qrf tol ham e3 _ KLb hleft K0 KL0
  hl hr hl0 hrM eighP qrfP tol0 ha hNc hM hK hKL he fL fR (fun _ _ => erefl).
exists K, KL, hx, B, eta; split=> //.
by rewrite -[X in Some (_, X)]/(H_ A - _) -eb -e1 subnn mod0n.
Qed.
End Three.
End Bulks.

(* ---- an instance: bond dimension 1, the state |0 0 0 ...>, a window of one site in a chain of seven ---- *)
Section Instance.
Variable C : numClosedFieldType.
Notation one := (fun _ : nat => 1%N).
Notation two := (fun _ : nat => 2%N).
Definition xA : tensors C one := fun _ s => (s == 0%N)%:R%:M.
Definition xI (n : nat) : smat C 1 1 := SEye C 1.
Lemma x_l n (x : 'M[C]_1) : eps_l_noop 2 x (xA n) (xA n) = x.
Proof.
rewrite /eps_l_noop !big_ord_recl big_ord0 -[xA n (lift _ _)]/(0%:R%:M) -[xA n ord0]/(1%:M).
by rewrite raddf0 adj0 adj1 mulmx1 mul1mx mul0mx !addr0.
Qed.
Lemma x_r n (x : 'M[C]_1) : eps_r_noop 2 x (xA n) (xA n) = x.
Proof.
rewrite /eps_r_noop !big_ord_recl big_ord0 -[xA n (lift _ _)]/(0%:R%:M) -[xA n ord0]/(1%:M).
by rewrite raddf0 adj0 adj1 mulmx1 mul1mx mulmx0 !addr0.
Qed.
Lemma x_up_l M : @up_l C one two xA M 1%:M (fun n => toarray (xI n)).
Proof. by split=> // n _; rewrite x_l. Qed.
Lemma x_up_r M : @up_r C one two xA M 1%:M (fun n => toarray (xI n)).
Proof. by split=> // n _; rewrite x_r. Qed.
Lemma x_full tol : tol < 1 -> full tol (1%:M : 'M[C]_1).
Proof.
move=> t1 a v v0 e; suff -> : a = 1 by [].
have [i vi] : exists i, v i 0 != 0.
  exists 0; apply: contra v0 => /eqP e0; apply/eqP/matrixP => i j.
  by rewrite mxE [i]ord1 [j]ord1.
move/matrixP/(_ i 0): e; rewrite /= mul1mx mxE => /eqP; rewrite -{1}[v i 0]mul1r.
by rewrite (inj_eq (mulIf vi)) => /eqP.
Qed.
Lemma x_norm M : bdotst two M (1%:M : 'M[C]_1) 1%:M (psi xA M) (psi xA M) = 1.
Proof.
rewrite (@bdotst_cut2 C one two M _ _ xA xA 0%N (leq0n M)) adj1.
by rewrite (LWb_up (x_up_l M) (leq0n M)) (RWb_up (x_up_r M) (leq0n M)) /= mulmx1 mxtrace1.
Qed.
Lemma x_win2 h j (X : 'M[C]_1) : @winmat C one two xA xA j 2 j.+2 (O2 (fun m => Some (h m)) j) X = h j 0%N 0%N 0%N 0%N *: X.
Proof.
rewrite (@winmat2 C one two) /= !big_ord_recl !big_ord0 /xA /= !(raddf0, mulmx0, mul0mx, adj0, scaler0, addr0, mulmx1, adj1).
by rewrite -scalemxAl mul1mx.
Qed.
Lemma x_win3 h j (X : 'M[C]_1) : @winmat C one two xA xA j 3 j.+3 (O3 (fun m => Some (h m)) j) X = h j 0%N 0%N 0%N 0%N 0%N 0%N *: X.
Proof.
rewrite (@winmat3 C one two) /= !big_ord_recl !big_ord0 /xA /= !(raddf0, mulmx0, mul0mx, adj0, scaler0, addr0, mulmx1, adj1).
by rewrite -scalemxAl mul1mx.
Qed.
Lemma x_Y w (O : nat -> seq nat -> seq nat -> C) j : (1 < w)%N -> @winmat C one two xA xA j w (j + w)%N (O j) 1%:M = 0 ->
  @Yg C one two w xA (fun n => toarray (xI n)) O j (j + w) = 0.
Proof.
move=> w2 e; have := @Yg_tr C one two w xA (fun n => toarray (xI n)) w2 O j _ 1%:M xA erefl (fun _ _ _ => erefl).
rewrite mulmx1 e mulmx0 mxtrace0 trace_mx11 => h.
by apply/matrixP => i k; rewrite [i]ord1 [k]ord1 h mxE.
Qed.
Lemma x_G M w (O : nat -> seq nat -> seq nat -> C) (B : tensors C one) :
  @Gfun C one two M w 1%:M 1%:M xA O (fun _ => 0) (fun _ => 0) (fun _ => 0) B = bdotst two M 1%:M 1%:M (psi B M) (Hsum two M w O (psi xA M)).
Proof. by rewrite /Gfun seg_L seg_R mulmx0 mul0mx mxtrace0 !addr0 big1 // mul0r subr0. Qed.
Lemma x_en w (O : nat -> seq nat -> seq nat -> C) M j h : (j + w <= M)%N -> @winmat C one two xA xA j w (j + w)%N (O j) 1%:M = h *: 1%:M ->
  bdotst two M (1%:M : 'M[C]_1) 1%:M (psi xA M) (opwin two j w (O j) (psi xA M)) = h.
Proof.
move=> jM e; rewrite (@bdotst_win2 C one two M _ _ xA xA j w _ (O j) erefl jM) adj1.
rewrite (LWb_up (x_up_l M)); last by lia.
by rewrite (RWb_up (x_up_r M) jM) [X in \tr (_ *m X)]e /= mul1mx mxtraceZ mxtrace1 mulr1.
Qed.
(* the premises of C62 hold for this state and every Hamiltonian whose terms outside the window vanish on |0 0> *)
Example C62_example (eigh : eigh_routine C) (qrf : qrf_routine C) (tol : C) (ham : nat -> op2s C) :
  eigh_contract eigh -> qrf_contract qrf -> 0 <= tol < 1 -> ham 0%N 0%N 0%N 0%N 0%N = 0 -> (forall j, (2 < j)%N -> ham j 0%N 0%N 0%N 0%N = 0) ->
  exists K KL hx B eta, [/\ @sw_calc_K2 C one two 1 1 1 xA xI xI (@sw_C2 C one two 1 1 xA ham) 0 0 0 (fun _ => 0) (fun _ => 0)
      = Some (K, KL, hx, ham 1%N 0%N 0%N 0%N 0%N + ham 2%N 0%N 0%N 0%N 0%N),
    @sw_calc_B2 C one two 1 1 1 xA xI xI K KL hx eigh qrf tol (@sw_C2 C one two 1 1 xA ham) = Some (B, eta) &
    forall T : nat -> 'M[C]_1, let bra phi := bdotst two 4 1%:M 1%:M (psi (@rep C one xA 2 T) 4) phi in
      bra (Hsum two 4 2 (O2 (fun m => Some (ham m))) (psi xA 4)) - (ham 1%N 0%N 0%N 0%N 0%N + ham 2%N 0%N 0%N 0%N 0%N) * bra (psi xA 4)
        = bra (@sw_tv C one 1 1 4 xA B)].
Proof.
move=> eP qP /andP[t0 t1] h0 h3.
have hK : @Ksub C one two xA (fun n => toarray (xI n)) (fun _ => 0) 2 (O2 (fun m => Some (ham m))) (fun _ => 0) 4 3.
  move=> j p hj <- hp; rewrite addn2 x_win2 h3; last by lia.
  by rewrite x_r !scale0r addr0 subr0.
have hKL : @KLsub C one two 2 xA (fun n => toarray (xI n)) (O2 (fun m => Some (ham m))) (fun _ => 0) (fun _ => 0) 2.
  move=> j p hj hp; have ej : j = 0%N by lia.
  rewrite -hj ej x_Y //; first by rewrite x_l scale0r addr0 subr0.
  by rewrite x_win2 h0 scale0r.
have f m : full tol (toarray (xI m)) by apply: x_full.
have ee j : (j < 3)%N -> bdotst two 4 (1%:M : 'M[C]_1) 1%:M (psi xA 4) (opwin two j 2 (O2 (fun m => Some (ham m)) j) (psi xA 4)) = ham j 0%N 0%N 0%N 0%N.
  move=> hj; apply: x_en; first by lia.
  by rewrite addn2; apply: x_win2.
have [K [KL [hx [B [eta [e1 _ e2 e3 _]]]]]] := @sw_tdvp2 C one two 1 1 1 4 _ _ xA xI xI eigh qrf tol ham (fun _ => 0) (fun _ => 0)
  (fun _ => 0) 0 (fun _ => 0) (fun _ => 0) (x_up_l 4) (x_up_r 4) (herm1 _ _) (herm1 _ _) eP qP t0 isT isT isT hK hKL (fun _ _ => erefl)
  (fun m _ => f m) (fun m _ => f m.+1) erefl erefl.
exists K, KL, hx, B, eta.
have eG : @Gfun C one two 4 2 1%:M 1%:M xA (O2 (fun m => Some (ham m))) (fun _ => 0) (fun _ => 0) (fun _ => 0) xA
  = ham 1%N 0%N 0%N 0%N 0%N + ham 2%N 0%N 0%N 0%N 0%N.
  rewrite x_G bdotst_Hsum /index_iota /= !big_cons big_nil /= addr0.
  by rewrite -[O2 _ 0%N]/(O2 _ 0%N) !ee // h0 add0r.
split=> //; first by rewrite e1 eG mulr0 subr0.
by move=> T bra; have := e3 2%N T isT; rewrite eG x_G.
Qed.

(* Three-site terms: with the one term |000><000| on the sites a, a+1, a+2 the state is normalised and has energy 1, but the
   tangent vector that calc_B finds overlaps with the state: a step changes the norm to first order. *)
Theorem C63_centre_refuted (eigh : eigh_routine C) (qrf : qrf_routine C) (tol : C) :
  eigh_contract eigh -> qrf_contract qrf -> 0 <= tol < 1 ->
  let ham : nat -> op3s C := fun j s t z u v w => ((j == 2) && (s + t + z + u + v + w == 0))%N%:R in
  exists K KL hx B eta, [/\ @sw_calc_K3 C one two 2 1 1 xA xI xI (@sw_C3 C one two 2 1 xA ham) 0 0 0 (fun _ => 0) (fun _ => 0)
      = Some (K, KL, hx, 1),
    @sw_calc_B3 C one two 2 1 1 xA xI xI K KL hx eigh qrf tol (@sw_C3 C one two 2 1 xA ham) = Some (B, eta),
    bdotst two 6 (1%:M : 'M[C]_1) 1%:M (psi xA 6) (psi xA 6) = 1 &
    bdotst two 6 (1%:M : 'M[C]_1) 1%:M (psi xA 6) (@sw_tv C one 2 1 6 xA B) = 1].
Proof.
move=> eP qP /andP[t0 t1] ham; set O := O3 (fun m => Some (ham m)).
have hm (j : nat) : (j != 2)%N -> ham j 0%N 0%N 0%N 0%N 0%N 0%N = 0 by rewrite /ham => /negbTE ->.
have hK : @Ksub C one two xA (fun n => toarray (xI n)) (fun _ => 0) 3 O (fun _ => 0) 6 4.
  move=> j p hj <- hp; rewrite addn3 x_win3 hm; last by lia.
  by rewrite x_r !scale0r addr0 subr0.
have hKL : @KLsub C one two 3 xA (fun n => toarray (xI n)) O (fun _ => 0) (fun _ => 0) 3.
  move=> j p hj hp; have ej : j = 0%N by lia.
  rewrite -hj ej x_Y //; first by rewrite x_l scale0r addr0 subr0.
  by rewrite x_win3 hm // scale0r.
have f m : full tol (toarray (xI m)) by apply: x_full.
have ee (j : nat) : (j < 4)%N -> bdotst two 6 (1%:M : 'M[C]_1) 1%:M (psi xA 6) (opwin two j 3 (O j) (psi xA 6)) = (j == 2%N)%:R.
  move=> hj; apply: x_en; first by lia.
  by rewrite addn3 x_win3 /ham eqxx andbT.
have [K [KL [hx [B [eta [e1 _ e2 _ [_ _ _ e6]]]]]]] := @sw_tdvp3 C one two 2 1 1 6 _ _ xA xI xI eigh qrf tol ham (fun _ => 0) (fun _ => 0)
  (fun _ => 0) 0 (fun _ => 0) (fun _ => 0) (x_up_l 6) (x_up_r 6) (herm1 _ _) (herm1 _ _) eP qP t0 isT isT isT hK hKL (fun _ _ => erefl)
  (fun m _ => f m) (fun m _ => f m.+1) (fun _ _ => erefl).
exists K, KL, hx, B, eta.
have eG : @Gfun C one two 6 3 1%:M 1%:M xA O (fun _ => 0) (fun _ => 0) (fun _ => 0) xA = 1.
  rewrite x_G bdotst_Hsum /index_iota /= !big_cons big_nil /= addr0.
  by rewrite !ee // !add0r addr0.
split=> //; [by rewrite e1 eG mulr0 subr0|exact: x_norm|].
move: e6; rewrite x_norm subrr mulr0 add0r mulr1 => ->; rewrite /sw_miss /=.
by rewrite (ee 2%N isT) (ee 3%N isT) subr0.
Qed.
End Instance.
Print Assumptions C62_energies.
Print Assumptions C62_projection.
Print Assumptions C62_gauge_norm.
Print Assumptions C62_uniform.
Print Assumptions C63_energies.
Print Assumptions C63_tangent.
Print Assumptions C63_projection.
Print Assumptions C63_uniform.
Print Assumptions C63_centre_refuted.

