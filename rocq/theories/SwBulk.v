(* SwBulk.v -- the K matrices of the uniform states outside the window satisfy the premises on the two bulks. *)
From mathcomp Require Import all_ssreflect all_algebra.
From mathcomp Require Import zify.
From Verif Require Import Base Spec Eps Eps2 Chain ChainProofs LinAlg Struct Factor Tangent BTangent BMix Tdvp TdvpProofs
  TdvpProofs2 TdvpProofs3 Uniform UTdvp UTdvpL P21_UTdvp.
Set Implicit Arguments.
Unset Strict Implicit.
Unset Printing Implicit Defensive.
Import Order.TTheory GRing.Theory Num.Theory.
Local Open Scope ring_scope.

Lemma tr_sep (C : fieldType) n m (X Y : 'M[C]_(n, m)) : (forall Z, \tr (X *m Z) = \tr (Y *m Z)) -> X = Y.
Proof.
move=> h; apply/matrixP => i j; have := h (delta_mx j i).
have e (W : 'M[C]_(n, m)) : \tr (W *m delta_mx j i) = W i j.
  rewrite /mxtrace (bigD1 i) //= big1 ?addr0; last first.
    by move=> k ki; rewrite mxE big1 // => t _; rewrite mxE (negPf ki) andbF mulr0.
  rewrite mxE (bigD1 j) //= big1 ?addr0; first by rewrite mxE !eqxx mulr1.
  by move=> t tj; rewrite mxE (negPf tj) mulr0.
by rewrite !e.
Qed.

Section Bulk.
Variables (C : numClosedFieldType) (L q D : nat) (uA : nat -> nat -> 'M[C]_D) (ul ur : nat -> smat C D D).
Notation Ld k := (toarray (ul k)).
Notation Rd k := (toarray (ur k)).
Hypotheses (L0 : (0 < L)%N) (hc : consistent L q uA (fun k => Ld k) (fun k => Rd k)).
Hypothesis nrm : adot (Ld L.-1) (Rd L.-1) = 1.
Notation qq := (fun _ : nat => q).
Notation DD := (fun _ : nat => D).
Notation prv := (Uniform.prv L).
Notation wA k0 := (Uniform.wA L uA k0).
Notation wl k0 := (Uniform.wl L (fun k => Ld k) k0).
Notation wr k0 := (Uniform.wr L (fun k => Rd k) k0).
Variables (A : tensors C DD) (l r : nat -> smat C D D).

(* the chain from site b on is the uniform state, cell starting at b *)
Section Right.
Variables (b : nat) (Ki : nat -> 'M[C]_D) (K0 : 'M[C]_D).
Hypothesis hA : forall j s, A (b + j)%N s = wA 0 j s.
Hypothesis hR : forall j, toarray (r (b + j)%N) = wr 0 j.
Lemma bulk_r2 (h : op2s C) (ham : nat -> op2s C) (e : nat -> C) M : (forall j, (b <= j)%N -> ham j = h) ->
  let Hr := uHr2 L q uA ur (uC2 L q uA h) in
  solves_r L q uA ul ur Hr K0 -> (forall j, e (b + j)%N = adot (Ld (prv (j %% L))) (Hr (j %% L)%N)) ->
  @Ksub C DD qq A (fun n => toarray (r n)) (fun j => ucalc_K L q uA ul ur Hr Ki K0 ((j - b) %% L)) 2
    (O2 (fun m => Some (ham m))) e M b.
Proof.
move=> hh Hr sol he j p bj <- _; have -> : j = (b + (j - b))%N by lia.
move: (j - b)%N => i; rewrite addnC addnK.
have er := @wKsub C L q D uA ur L0 0 _ Hr 2 _ _ (@HrO2 C L q D uA ur L0 0 h) (K_rec_all L0 hc nrm Ki sol) (i + 2) 0 i (i + 2)%N (leq0n _) erefl (leqnn _).
rewrite /wK add0n add0n in er; rewrite [LHS]er; congr (_ + _ - _ *: _).
- have -> : ((i + b).+1 - b = i.+1)%N by lia.
  by rewrite /eps_r_noop; apply: eq_bigr => s _; rewrite addnC !hA.
- move: (i + 2)%N (addn2 i) (i + b + 2)%N (addn2 (i + b)) {er} => _ -> _ ->.
  rewrite !(@winmat2 C DD) hh; last by lia.
  have e0 s : A (i + b)%N s = wA 0 i s by rewrite addnC hA.
  have e1 s : A (i + b).+1 s = wA 0 i.+1 s by rewrite addnC -addnS hA.
  have -> : toarray (r (i + b).+2) = wr 0 i.+2 by rewrite addnC -!addnS hR.
  apply: eq_bigr => s _; apply: eq_bigr => t _; rewrite !e0 !e1; congr (_ *m _ *m _).
  by apply: eq_bigr => u _; apply: eq_bigr => v _; rewrite !e0 !e1.
- by rewrite addnC he.
- by rewrite addnC hR.
Qed.
Lemma bulk_r3 (h : op3s C) (ham : nat -> op3s C) (e : nat -> C) M : (forall j, (b <= j)%N -> ham j = h) ->
  let Hr := uHr3 L q uA ur (uC3 L q uA h) in
  solves_r L q uA ul ur Hr K0 -> (forall j, e (b + j)%N = adot (Ld (prv (j %% L))) (Hr (j %% L)%N)) ->
  @Ksub C DD qq A (fun n => toarray (r n)) (fun j => ucalc_K L q uA ul ur Hr Ki K0 ((j - b) %% L)) 3
    (O3 (fun m => Some (ham m))) e M b.
Proof.
move=> hh Hr sol he j p bj <- _; have -> : j = (b + (j - b))%N by lia.
move: (j - b)%N => i; rewrite addnC addnK.
have er := @wKsub C L q D uA ur L0 0 _ Hr 3 _ _ (@HrO3 C L q D uA ur L0 0 h) (K_rec_all L0 hc nrm Ki sol) (i + 3) 0 i (i + 3)%N (leq0n _) erefl (leqnn _).
rewrite /wK add0n add0n in er; rewrite [LHS]er; congr (_ + _ - _ *: _).
- have -> : ((i + b).+1 - b = i.+1)%N by lia.
  by rewrite /eps_r_noop; apply: eq_bigr => s _; rewrite addnC !hA.
- move: (i + 3)%N (addn3 i) (i + b + 3)%N (addn3 (i + b)) {er} => _ -> _ ->.
  rewrite !(@winmat3 C DD) hh; last by lia.
  have e0 s : A (i + b)%N s = wA 0 i s by rewrite addnC hA.
  have e1 s : A (i + b).+1 s = wA 0 i.+1 s by rewrite addnC -addnS hA.
  have e2 s : A (i + b).+2 s = wA 0 i.+2 s by rewrite addnC -!addnS hA.
  have -> : toarray (r (i + b).+3) = wr 0 i.+3 by rewrite addnC -!addnS hR.
  apply: eq_bigr => s _; apply: eq_bigr => t _; apply: eq_bigr => z _; rewrite !e0 !e1 !e2; congr (_ *m _ *m _).
  by apply: eq_bigr => u _; apply: eq_bigr => v _; apply: eq_bigr => w _; rewrite !e0 !e1 !e2.
- by rewrite addnC he.
- by rewrite addnC hR.
Qed.
End Right.

(* the chain up to bond b is the uniform state, cell ending at b *)
Section Left.
Hypothesis hl : forall k, (k < L)%N -> herm (Ld k).
Hypothesis hr : forall k, (k < L)%N -> herm (Rd k).
Variables (b k0 : nat) (KL0 : 'M[C]_D).
Hypothesis hk0 : ((k0 + b) %% L = 0)%N.
Hypothesis hA : forall j s, (j < b)%N -> A j s = wA k0 j s.
Hypothesis hL : forall j, (j <= b)%N -> toarray (l j) = wl k0 j.
Lemma bulk_l2 (h : op2s C) (ham : nat -> op2s C) (e : nat -> C) K KLi : (forall j, (j.+2 <= b)%N -> ham j = h) ->
  let Hl := uHl2 L q uA ul (uC2 L q uA h) in
  solves_l L q uA ul ur 2 Hl KL0 ->
  (forall j, (j.+2 <= b)%N -> e j = \tr (Hl ((k0 + j) %% L)%N *m Rd ((k0 + j.+1) %% L)%N)) ->
  exists2 KL : nat -> 'M[C]_D, @KLsub C DD qq 2 A (fun n => toarray (l n)) (O2 (fun m => Some (ham m))) e KL b &
    KL b = ucalc_K_l L q uA ul ur 2 Hl K KLi KL0 L.-1.
Proof.
move=> hh Hl sol he; have [-> [F [hF eF] _]] := C60_last_bond L0 hc nrm (lexx (0 : C)) hl hr sol K KLi.
have HO j Y : \tr (Hl ((k0 + j) %% L)%N *m Y) =
    \tr (wl k0 j *m @winmat C DD qq (wA k0) (wA k0) j 2 (j + 2) (O2 (fun _ => Some h) j) Y).
  by move: (j + 2)%N (addn2 j) Y => p -> Y; exact: uHl2w.
exists (wF L k0 F); last by rewrite /wF hk0 prv0.
move=> j p jp pb; have ep : p = j.+1 by lia.
rewrite {p}ep in pb jp *.
have es := @wF_S C L q D uA ul ur L0 k0 F Hl 2 hF j.+1.
have eh := @Hl_end_at C L D L0 k0 Hl 2 isT j; rewrite addn1 in eh.
rewrite [LHS]es eh; congr (_ + _ - _ *: _).
- by rewrite /eps_l_noop; apply: eq_bigr => s _; rewrite !hA.
- apply: tr_sep => Z; rewrite HO.
  have -> : \tr (Yg qq 2 A (fun n => toarray (l n)) (O2 (fun m => Some (ham m))) j j.+2 *m Z) =
     \tr (toarray (l j) *m @winmat C DD qq A A j 2 j.+2 (O2 (fun m => Some (ham m)) j) Z).
    by apply: (@Yg_tr C DD) => //; rewrite addn2.
  move: (j + 2)%N (addn2 j) => _ ->; rewrite !(@winmat2 C DD) hh ?hL //; try lia.
  have e0 s : A j s = wA k0 j s by rewrite hA //; lia.
  have e1 s : A j.+1 s = wA k0 j.+1 s by rewrite hA.
  congr (\tr (_ *m _)).
  apply: eq_bigr => s _; apply: eq_bigr => t _; rewrite !e0 !e1; congr (_ *m _ *m _).
  by apply: eq_bigr => u _; apply: eq_bigr => v _; rewrite !e0 !e1.
- by rewrite he.
- by rewrite hL.
Qed.
Lemma bulk_l3 (h : op3s C) (ham : nat -> op3s C) (e : nat -> C) K KLi : (forall j, (j.+3 <= b)%N -> ham j = h) ->
  let Hl := uHl3 L q uA ul (uC3 L q uA h) in
  solves_l L q uA ul ur 3 Hl KL0 ->
  (forall j, (j.+3 <= b)%N -> e j = \tr (Hl ((k0 + j) %% L)%N *m Rd ((k0 + j.+2) %% L)%N)) ->
  exists2 KL : nat -> 'M[C]_D, @KLsub C DD qq 3 A (fun n => toarray (l n)) (O3 (fun m => Some (ham m))) e KL b &
    KL b = ucalc_K_l L q uA ul ur 3 Hl K KLi KL0 L.-1.
Proof.
move=> hh Hl sol he; have [-> [F [hF eF] _]] := C60_last_bond L0 hc nrm (lexx (0 : C)) hl hr sol K KLi.
have HO j Y : \tr (Hl ((k0 + j) %% L)%N *m Y) =
    \tr (wl k0 j *m @winmat C DD qq (wA k0) (wA k0) j 3 (j + 3) (O3 (fun _ => Some h) j) Y).
  by move: (j + 3)%N (addn3 j) Y => p -> Y; exact: uHl3w.
exists (wF L k0 F); last by rewrite /wF hk0 prv0.
move=> j p jp pb; have ep : p = j.+2 by lia.
rewrite {p}ep in pb jp *.
have es := @wF_S C L q D uA ul ur L0 k0 F Hl 3 hF j.+2.
have eh := @Hl_end_at C L D L0 k0 Hl 3 isT j; rewrite addn2 in eh.
rewrite [LHS]es eh; congr (_ + _ - _ *: _).
- by rewrite /eps_l_noop; apply: eq_bigr => s _; rewrite !hA.
- apply: tr_sep => Z; rewrite HO.
  have -> : \tr (Yg qq 3 A (fun n => toarray (l n)) (O3 (fun m => Some (ham m))) j j.+3 *m Z) =
     \tr (toarray (l j) *m @winmat C DD qq A A j 3 j.+3 (O3 (fun m => Some (ham m)) j) Z).
    by apply: (@Yg_tr C DD) => //; rewrite addn3.
  move: (j + 3)%N (addn3 j) => _ ->; rewrite !(@winmat3 C DD) hh ?hL //; try lia.
  have e0 s : A j s = wA k0 j s by rewrite hA //; lia.
  have e1 s : A j.+1 s = wA k0 j.+1 s by rewrite hA //; lia.
  have e2 s : A j.+2 s = wA k0 j.+2 s by rewrite hA.
  congr (\tr (_ *m _)).
  apply: eq_bigr => s _; apply: eq_bigr => t _; apply: eq_bigr => z _; rewrite !e0 !e1 !e2; congr (_ *m _ *m _).
  by apply: eq_bigr => u _; apply: eq_bigr => v _; apply: eq_bigr => w _; rewrite !e0 !e1 !e2.
- by rewrite he.
- by rewrite hL.
Qed.
End Left.
End Bulk.
