(* Steps.v -- the integrators of the TDVP classes as programs on an explicit memory of arrays:
   take_step_RK4 of the finite class (tdvp_gen.py:932-980), of the sandwich class
   (tdvp_sandwich.py:839-902) and of the uniform class (tdvp_uniform.py:681-736), and the
   memory-saving Euler step (tdvp_gen.py:849-868).

   Each site n has its own memory of arrays (elements of the vector space V n of tensors of that
   site); names such as self.A[n], A0[n], B[n], B_fin[n] hold references into it.  "x[n] = e" binds
   the name to a fresh array, "x[n] += e" overwrites the array it refers to.  Sharing between
   different sites is not modelled (the arrays have different shapes in general).
   "update(); calc_B" is an arbitrary vector field f: tensors -> B per site, None where calc_B_n
   returns None.  The bookkeeping of eta and etaBB is not modelled. *)
From mathcomp Require Import all_ssreflect all_algebra.
From mathcomp Require Import zify.
From Verif Require Import Base Spec Eps Chain.
Set Implicit Arguments.
Unset Strict Implicit.
Unset Printing Implicit Defensive.
Import GRing.Theory Num.Theory.
Local Open Scope ring_scope.

Section Mem.
Variables (C : numClosedFieldType) (V : nat -> lmodType C) (N : nat).
Local Notation tens := (forall n, V n).

(* the arrays of one site and the references held by self.A[n], A0[n], B[n], B_fin[n] *)
Record cell n := Cell { mem : nat -> V n; nxt : nat; rA : nat; rA0 : nat; rB : option nat; rF : option nat }.
Definition state := forall n, cell n.
Section Cell.
Variable n : nat.
Implicit Type c : cell n.
Definition store c p v := Cell (fun p' => if p' == p then v else mem c p') (nxt c) (rA c) (rA0 c) (rB c) (rF c).
Definition fresh c v := Cell (fun p' => if p' == nxt c then v else mem c p') (nxt c).+1 (rA c) (rA0 c) (rB c) (rF c).
Definition bindA c v := let c' := fresh c v in Cell (mem c') (nxt c') (nxt c) (rA0 c') (rB c') (rF c').
Definition bindA0 c v := let c' := fresh c v in Cell (mem c') (nxt c') (rA c') (nxt c) (rB c') (rF c').
Definition bindB c (o : option (V n)) :=
  if o is Some v then let c' := fresh c v in Cell (mem c') (nxt c') (rA c') (rA0 c') (Some (nxt c)) (rF c')
  else Cell (mem c) (nxt c) (rA c) (rA0 c) None (rF c).
Definition setF c p := Cell (mem c) (nxt c) (rA c) (rA0 c) (rB c) p.
Definition setB c p := Cell (mem c) (nxt c) (rA c) (rA0 c) p (rF c).
End Cell.
(* the tensors self.A *)
Definition tA (s : state) : tens := fun n => mem (s n) (rA (s n)).

(* for n in range(1, N+1): body; None is an exception *)
Definition sites (body : forall n, state -> option (cell n)) (s : option state) : option state :=
  foldl (fun o n => obind (fun s => omap (fun c => @upd cell s n c) (body n s)) o) s (iota 0 N).
(* a body that only looks at its own site *)
Definition own (body : forall n, cell n -> option (cell n)) n (s : state) := body n (s n).

Variable f : tens -> forall n, option (V n).
Variable dtau : C.

(* A0 = [An.copy() ...] *)
Definition rk_copy n (c : cell n) := Some (bindA0 c (mem c (rA c))).
(* B = self.calc_B(): new arrays *)
Definition rk_calc n (s : state) := Some (bindB (s n) (f (tA s) n)).
(* B_fin = B_i[:] for a list B_i of the caller, resp. B_fin = B[:]: the same arrays *)
Definition rk_caller (Bi : forall n, option nat) n (c : cell n) := Some (setF (setB c (Bi n)) (Bi n)).
Definition rk_fin n (c : cell n) := Some (setF c (rB c)).
(* self.A[n] += -dtau/2 * B_fin[n]  (finite);  self.A[n] = A0[n] - dtau/2 * B[n]  (sandwich) *)
Definition rk_half1 (inplace : bool) n (c : cell n) :=
  Some (if rB c is Some p then
    if inplace then store c (rA c) (mem c (rA c) + (- dtau / 2%:R) *: mem c p)
    else bindA c (mem c (rA0 c) - (dtau / 2%:R) *: mem c p) else c).
(* self.A[n] = A0[n] - h * B[n]; B_fin[n] += 2 * B[n] *)
Definition rk_mid (h : C) n (c : cell n) :=
  if rB c is Some p then
    if rF c is Some p' then
      let c' := bindA c (mem c (rA0 c) - h *: mem c p) in
      Some (store c' p' (mem c' p' + 2%:R *: mem c' p))
    else None
  else Some c.
(* B = self.calc_B_n(n); B_fin[n] += B *)
Definition rk_last n (s : state) :=
  let c := bindB (s n) (f (tA s) n) in
  if rB c is Some p then
    if rF c is Some p' then Some (store c p' (mem c p' + mem c p)) else None
  else Some c.
(* self.A[n] = A0[n] - dtau/6 * B_fin[n] *)
Definition rk_end n (c : cell n) :=
  Some (if rF c is Some p then bindA c (mem c (rA0 c) - (dtau / 6%:R) *: mem c p) else c).

Definition rk4_rest inplace (s : option state) : option state :=
  sites (own rk_end) (sites rk_last
    (sites (own (rk_mid dtau)) (sites rk_calc
    (sites (own (rk_mid (dtau / 2%:R))) (sites rk_calc
    (sites (own (rk_half1 inplace)) s)))))).
Definition take_step_RK4 inplace (s : state) : option state :=
  rk4_rest inplace (sites (own rk_fin) (sites rk_calc (sites (own rk_copy) (Some s)))).
(* with the B_i argument: references to arrays owned by the caller *)
Definition take_step_RK4_B inplace (Bi : forall n, option nat) (s : state) : option state :=
  rk4_rest inplace (sites (own (rk_caller Bi)) (sites (own rk_copy) (Some s))).

(* ---- proofs --------------------------------------------------------------------------------------- *)
Lemma sites_spec body (J : state -> Prop) (Pre Post : forall n, cell n -> Prop) s0 :
  (forall n s, (n < N)%N -> J s -> Pre n (s n) ->
     exists2 c, body n s = Some c & Post n c /\ J (@upd cell s n c)) ->
  J s0 -> (forall n, (n < N)%N -> Pre n (s0 n)) ->
  exists2 s', sites body (Some s0) = Some s' &
    [/\ J s', forall n, (n < N)%N -> Post n (s' n) & forall n, (N <= n)%N -> s' n = s0 n].
Proof.
move=> hb J0 P0.
suff h k : (k <= N)%N -> exists2 s', foldl (fun o n => obind (fun s => omap (fun c => @upd cell s n c) (body n s)) o) (Some s0) (iota 0 k) = Some s' &
    [/\ J s', forall n, (n < k)%N -> Post n (s' n) & forall n, (k <= n)%N -> s' n = s0 n] by exact: (h N (leqnn N)).
elim: k => [|k IH] kN; first by exists s0.
have [s1 e [j1 h1 h2]] := IH (ltnW kN).
have [c ec [pc jc]] := hb k s1 kN j1 (eq_rect_r (@Pre k) (P0 k kN) (h2 k (leqnn k))).
exists (@upd cell s1 k c); first by rewrite -addn1 iotaD foldl_cat e add0n /= ec.
split; [exact: jc|move=> n nk|move=> n nk].
  have [e1|ne] := eqVneq k n; first by case: n / e1 nk => _; rewrite upd_same; exact: pc.
  by rewrite upd_other //; apply: h1; rewrite ltn_neqAle eq_sym ne -ltnS.
rewrite upd_other; last by rewrite ltn_eqF.
by apply: h2; exact: ltnW.
Qed.

Definition Ok n (c : cell n) (x x0 : V n) (b F : option (V n)) (d : bool) :=
  [/\ [/\ mem c (rA c) = x, mem c (rA0 c) = x0, omap (mem c) (rB c) = b & omap (mem c) (rF c) = F],
      [/\ (rA c < nxt c)%N, (rA0 c < nxt c)%N & rA c != rA0 c],
      forall p, rB c = Some p -> [&& (p < nxt c)%N, p != rA c & p != rA0 c],
      forall p, rF c = Some p -> [&& (p < nxt c)%N, p != rA c & p != rA0 c]
    & d -> forall p, rF c = Some p -> rB c <> Some p].
Lemma fresh_ne (c p : nat) : (p < c)%N -> (p == c) = false. Proof. exact: ltn_eqF. Qed.

Lemma calc_ok n (c : cell n) x x0 b F d o : Ok c x x0 b F d -> Ok (bindB c o) x x0 o F true.
Proof.
move=> [[h1 h2 h3 h4] [l1 l2 ne] hB hF hd]; case: o => [v|] /=; split=> //=.
- rewrite (fresh_ne l1) (fresh_ne l2) eqxx h1 h2; split=> //.
  by move: h4 hF; case: (rF c) => //= p h4 /(_ p erefl) /and3P[lp _ _]; rewrite fresh_ne.
- by rewrite !ltnS !(ltnW l1) !(ltnW l2).
- by move=> p [<-]; rewrite ltnSn ![nxt c == _]eq_sym !fresh_ne.
- by move=> p /hF /and3P[lp -> ->]; rewrite ltnW.
- by move=> _ p /hF /and3P[lp _ _] [e]; move: lp; rewrite e ltnn.
Qed.
Lemma mid_ok h n (c : cell n) x x0 b F : Ok c x x0 b F true -> isSome b = isSome F ->
  exists2 c', rk_mid h c = Some c' &
  Ok c' (if b is Some v then x0 - h *: v else x) x0 b
    (if b is Some v then omap (fun w => w + 2%:R *: v) F else F) true.
Proof.
move=> [[h1 h2 h3 h4] [l1 l2 ne] hB hF hd]; rewrite /rk_mid.
move: h3 h4 hB hF hd; case eB: (rB c) => [p|] /=; last first.
  by move=> <- <- hB hF hd; case eF: (rF c) => // _; exists c => //; split; rewrite ?eB ?eF.
move=> <-; case eF: (rF c) => [p'|] /= <- hB hF hd; last by [].
move=> _.
have /and3P[lp p1 p2] := hB p erefl; have /and3P[lp' p1' p2'] := hF p' erefl.
have np : p' != p by apply/eqP=> e; apply: (hd isT p' erefl); rewrite e.
eexists; first by reflexivity.
split=> /=; rewrite ?eB ?eF /=.
- have e1 : (nxt c == p') = false by rewrite eq_sym ltn_eqF.
  have e2 : (rA0 c == p') = false by rewrite eq_sym (negPf p2').
  have e4 : (p == p') = false by rewrite eq_sym (negPf np).
  by rewrite !eqxx e1 e2 e4 (fresh_ne l2) (fresh_ne lp) (fresh_ne lp') h2.
- by rewrite !ltnS leqnn (ltnW l2) eq_sym ltn_eqF.
- by move=> p0 [<-]; rewrite ltnW // ltn_eqF // p2.
- by move=> p0 [<-]; rewrite ltnW // ltn_eqF // p2'.
- by move=> _ p0 [<-] [e]; rewrite e eqxx in np.
Qed.
Lemma half_ok i n (c : cell n) x0 b d : Ok c x0 x0 b b d -> rB c = rF c ->
  Ok (if rB c is Some p then
    if i then store c (rA c) (mem c (rA c) + (- dtau / 2%:R) *: mem c p)
    else bindA c (mem c (rA0 c) - (dtau / 2%:R) *: mem c p) else c)
   (if b is Some v then x0 - (dtau / 2%:R) *: v else x0) x0 b b false.
Proof.
move=> [[h1 h2 h3 h4] [l1 l2 ne] hB hF hd] e.
case eB: (rB c) h3 => [p|] /=; last first.
  by move=> eb; split=> //; split=> //; rewrite ?eB -?e ?eB // -eb.
have /and3P[lp p1 p2] := hB _ eB; move=> <-; case: i; split=> //=.
- by rewrite eqxx h1 [rA0 c == _]eq_sym (negPf ne) h2 -e eB /= (negPf p1) mulNr scaleNr.
- by rewrite eqxx (fresh_ne l2) h2 -e eB /= (fresh_ne lp).
- by rewrite ltnSn eq_sym ltn_eqF // ltnW // ltnS ltnW.
- by move=> p0 /hB /and3P[lp0 _ ->]; rewrite ltnW // ltn_eqF.
- by move=> p0 /hF /and3P[lp0 _ ->]; rewrite ltnW // ltn_eqF.
Qed.

(* the classical formula; a site without tangent vector does not move *)
Definition Kf (A : tens) : tens := fun n => if (n < N)%N then odflt 0 (f A n) else 0.
Definition move_ (A : tens) (h : C) (k : tens) : tens := fun n => A n - h *: k n.
Section Classical.
Variable A : tens.
Variable k1 : tens.
Definition k2 := Kf (move_ A (dtau / 2%:R) k1).
Definition k3 := Kf (move_ A (dtau / 2%:R) k2).
Definition k4 := Kf (move_ A dtau k3).
Definition rk4_sum : tens := fun n => k1 n + 2%:R *: k2 n + 2%:R *: k3 n + k4 n.
Definition rk4 : tens := move_ A (dtau / 6%:R) rk4_sum.
End Classical.

Hypothesis fext : forall A A' n, (forall m, A m = A' m) -> f A n = f A' n.
Hypothesis fpat : forall A A' n, (n < N)%N -> isSome (f A n) = isSome (f A' n).

Lemma KfE A n : (n < N)%N -> Kf A n = odflt 0 (f A n). Proof. by rewrite /Kf => ->. Qed.

(* after the first stage has been prepared: B = B_fin = b1, A = A0 = X0 *)
Lemma rest_ok i (s : state) (X0 : tens) (b1 : forall n, option (V n)) :
  (forall n, (n < N)%N -> Ok (s n) (X0 n) (X0 n) (b1 n) (b1 n) false /\ rB (s n) = rF (s n)) ->
  (forall n, tA s n = X0 n) ->
  (forall n A, (n < N)%N -> isSome (b1 n) = isSome (f A n)) ->
  let k1 : tens := fun n => if (n < N)%N then odflt 0 (b1 n) else 0 in
  exists2 s', rk4_rest i (Some s) = Some s' &
  [/\ forall n, tA s' n = rk4 X0 k1 n,
      forall n, (N <= n)%N -> s' n = s n
    & forall n p, (n < N)%N -> rF (s n) = Some p -> mem (s' n) p = rk4_sum X0 k1 n].
Proof.
move=> h0 hA pat k1.
pose X1 := move_ X0 (dtau / 2%:R) k1; pose X2 := move_ X0 (dtau / 2%:R) (k2 X0 k1); pose X3 := move_ X0 dtau (k3 X0 k1).
pose rFeq n (c : cell n) := rF c = rF (s n).
pose J0 (s' : state) := True.
(* stage 1 *)
case: (@sites_spec (own (rk_half1 i)) J0
  (fun n c => Ok c (X0 n) (X0 n) (b1 n) (b1 n) false /\ rB c = rF c /\ rFeq n c)
  (fun n c => Ok c (X1 n) (X0 n) (b1 n) (b1 n) false /\ rFeq n c) s)
  => [n t nN _ [H1 [H2 H3]]|//|n nN|s1 e1 [_ p1 q1]].
- eexists; first by reflexivity.
  split=> //; split.
    have := half_ok i H1 H2; rewrite /X1 /move_ /k1 nN.
    by case: (b1 n) => [v|] //=; rewrite scaler0 subr0.
  by rewrite /rFeq -H3; case: (rB (t n)) => // p; case: i.
- by have [a b] := h0 n nN.
have t1 n : tA s1 n = X1 n.
  case: (ltnP n N) => nN; first by have [[[]]] := p1 n nN.
  by rewrite /tA q1 // -/(tA s n) hA /X1 /move_ /k1 ltnNge nN scaler0 subr0.
(* k2 *)
pose JX (X : tens) (s' : state) := forall n, tA s' n = X n.
have calc X (F : forall n, option (V n)) d (t0 : state) :
    (forall n, (n < N)%N -> Ok (t0 n) (X n) (X0 n) (b1 n) (F n) d /\ rFeq n (t0 n)) \/
    (exists b, forall n, (n < N)%N -> Ok (t0 n) (X n) (X0 n) (b n) (F n) d /\ rFeq n (t0 n)) ->
    JX X t0 -> exists2 t', sites rk_calc (Some t0) = Some t' &
    [/\ JX X t', forall n, (n < N)%N -> Ok (t' n) (X n) (X0 n) (f X n) (F n) true /\ rFeq n (t' n)
      & forall n, (N <= n)%N -> t' n = t0 n].
  move=> hh jx; case: (@sites_spec rk_calc (JX X)
    (fun n c => exists b, Ok c (X n) (X0 n) b (F n) d /\ rFeq n c)
    (fun n c => Ok c (X n) (X0 n) (f X n) (F n) true /\ rFeq n c) t0)
    => [n t nN jt [b [H1 H2]]|//|n nN|t' et [jt pt qt]]; last first.
  - by exists t'.
  - by case: hh => [|[b]] /(_ n nN) ?; eexists; eassumption.
  eexists; first by reflexivity.
  have H3 := calc_ok (f (tA t) n) H1; rewrite (fext n jt) in H3 *.
  split; first by split=> //; rewrite /rFeq -H2; case: (f X n).
  move=> k; have [ek|nk] := eqVneq n k; last by rewrite /tA upd_other //; exact: (jt k).
  by case: k / ek; rewrite /tA upd_same; case: H3 => [[]].
have [s2 e2 [j2 p2 q2]] := calc X1 b1 false s1 (or_introl p1) t1.
(* move with k2, add it *)
have mid h X (F : forall n, option (V n)) (t0 : state) :
    (forall n, (n < N)%N -> isSome (F n) = isSome (f X n)) ->
    (forall n, (n < N)%N -> (if f X n is Some _ then True else X n = X0 n)) ->
    (forall n, (n < N)%N -> Ok (t0 n) (X n) (X0 n) (f X n) (F n) true /\ rFeq n (t0 n)) ->
    (forall n, (N <= n)%N -> t0 n = s n) ->
    exists2 t', sites (own (rk_mid h)) (Some t0) = Some t' &
    [/\ JX (move_ X0 h (Kf X)) t',
        forall n, (n < N)%N -> Ok (t' n) (move_ X0 h (Kf X) n) (X0 n) (f X n) (omap (fun w => w + 2%:R *: Kf X n) (F n)) true /\ rFeq n (t' n)
      & forall n, (N <= n)%N -> t' n = s n].
  move=> pF hX hp ht; case: (@sites_spec (own (rk_mid h)) J0
    (fun n c => Ok c (X n) (X0 n) (f X n) (F n) true /\ rFeq n c)
    (fun n c => Ok c (move_ X0 h (Kf X) n) (X0 n) (f X n) (omap (fun w => w + 2%:R *: Kf X n) (F n)) true /\ rFeq n c) t0) => [n t nN _ [H1 H2]|//|//|t' et [_ pt qt]]; last first.
  - exists t' => //; split=> //; last by move=> n nN; rewrite qt // ht.
    move=> n; case: (ltnP n N) => nN; first by have [[[]]] := pt n nN.
    by rewrite /tA qt // ht // -/(tA s n) hA /move_ /Kf ltnNge nN scaler0 subr0.
  - have [c' ec H3] := mid_ok h H1 (esym (pF n nN)).
    exists c'; first exact: ec.
    split=> //; split; last first.
      move: ec; rewrite /own /rk_mid /rFeq -H2; case: (rB (t n)) => [p|]; last by case=> <-.
      by case eF: (rF (t n)) => [p'|] // [<-].
    move: H3; rewrite /move_ KfE //; have := hX n nN; case: (f X n) (pF n nN) => [v|] //= pn; case: (F n) pn => // _ -> H.
    by rewrite scaler0 subr0.
have nf X Y n : (n < N)%N -> f X n = None -> Kf Y n = 0.
  by move=> nN e; have := fpat X Y nN; rewrite e /Kf nN; case: (f Y n).
have [||s3 e3 [j3 p3 q3]] := mid (dtau / 2%:R) X1 b1 s2 (fun n nN => pat n X1 nN) _ p2.
- move=> n nN; case E: (f X1 n) => [v|] //; rewrite /X1 /move_ /k1 nN.
  by have := pat n X1 nN; rewrite E; case: (b1 n) => //=; rewrite scaler0 subr0.
- by move=> n nN; rewrite q2 // q1.
have [s4 e4 [j4 p4 q4]] := calc X2 (fun n => omap (fun w => w + 2%:R *: k2 X0 k1 n) (b1 n)) true s3
  (or_intror (ex_intro _ _ p3)) j3.
have [|||s5 e5 [j5 p5 q5]] := mid dtau X2 (fun n => omap (fun w => w + 2%:R *: k2 X0 k1 n) (b1 n)) s4 _ _ p4.
- by move=> n nN; rewrite -(pat n X2 nN); case: (b1 n).
- move=> n nN; case E: (f X2 n) => [v|] //.
  by rewrite /X2 /move_ /k2 (nf _ _ _ nN E) scaler0 subr0.
- by move=> n nN; rewrite q4 // q3.
(* k4 *)
pose F5 n := omap (fun w => w + 2%:R *: k3 X0 k1 n) (omap (fun w => w + 2%:R *: k2 X0 k1 n) (b1 n)).
case: (@sites_spec rk_last (JX X3)
  (fun n c => Ok c (X3 n) (X0 n) (f X2 n) (F5 n) true /\ rFeq n c)
  (fun n c => [/\ mem c (rA0 c) = X0 n, rFeq n c, (forall p, rF c = Some p -> (p < nxt c)%N) & omap (mem c) (rF c) = omap (fun w => w + k4 X0 k1 n) (F5 n)]) s5)
  => [n t nN jt [H1 H2]|//|//|s6 e6 [j6 p6 q6]].
  rewrite /rk_last (fext n jt).
  have H3 := calc_ok (f X3 n) H1.
  have hf : isSome (F5 n) = isSome (f X3 n) by rewrite -(pat n X3 nN) /F5; case: (b1 n).
  have eF : rF (bindB (t n) (f X3 n)) = rF (t n) by case: (f X3 n).
  case: H3 => [[g1 g2 g3 g4] [l1 l2 l3] hB hF hd].
  move: g3 g4 hB hF hd; case eB: (rB _) => [p|] /=; last first.
    move=> e0; rewrite -e0 /= in hf; case E: (F5 n) hf => // _ g4 hB hF _.
    exists (bindB (t n) (f X3 n)) => //; split.
      by split=> //; [rewrite /rFeq eF | move=> p /hF /and3P[]].
    move=> k; have [ek|nk] := eqVneq n k; last by rewrite /tA upd_other //; exact: (jt k).
    by case: k / ek; rewrite /tA upd_same g1.
  case eF': (rF _) => [p'|] /=; last by move=> g3 g4; rewrite -g3 -g4 in hf.
  move=> g3 g4 hB hF hd; have /and3P[lp' n1 n2] := hF p' erefl.
  eexists; first by reflexivity.
  split; first (split=> /=).
  - by rewrite [_ == p']eq_sym (negPf n2) g2.
  - by rewrite /rFeq -H2 -eF.
  - by move=> p0; rewrite eF' => -[<-].
  - rewrite eF' /= eqxx -g4 /=; congr (Some (_ + _)).
    by rewrite /k4 KfE //; exact: (congr1 (odflt 0) g3).
  move=> k; have [ek|nk] := eqVneq n k; last by rewrite /tA upd_other //; exact: (jt k).
  by case: k / ek; rewrite /tA upd_same /= [_ == p']eq_sym (negPf n1) g1.
case: (@sites_spec (own rk_end) J0
  (fun n c => [/\ mem c (rA0 c) = X0 n, rFeq n c, (forall p, rF c = Some p -> (p < nxt c)%N), omap (mem c) (rF c) = omap (fun w => w + k4 X0 k1 n) (F5 n) & mem c (rA c) = X3 n])
  (fun n c => mem c (rA c) = rk4 X0 k1 n /\ forall p, rF (s n) = Some p -> mem c p = rk4_sum X0 k1 n) s6)
  => [n t nN _ [a b c d e]|//|n nN|s7 e7 [_ p7 q7]]; last first.
- exists s7; first by rewrite /rk4_rest e1 e2 e3 e4 e5 e6.
  have qq n : (N <= n)%N -> s7 n = s n by move=> nN; rewrite q7 // q6 // q5.
  split=> // [n|n p nN]; last by have [_] := p7 n nN; apply.
  case: (ltnP n N) => nN; first by have [] := p7 n nN.
  rewrite /tA qq // -/(tA s n) hA /rk4 /move_ /rk4_sum /k4 /k3 /k2 /Kf /k1.
  by rewrite ltnNge nN /= !scaler0 !addr0 scaler0 subr0.
- by have [a b c d] := p6 n nN; split=> //; exact: (j6 n).
- eexists; first by reflexivity.
  split=> //; rewrite /rk_end -b.
  have e12 : b1 n = None -> rk4 X0 k1 n = X0 n.
    move=> E; have N0 Y : f Y n = None by have := pat n Y nN; rewrite E; case: (f Y n).
    by rewrite /rk4 /move_ /rk4_sum /k4 /k3 /k2 !KfE // !N0 /k1 nN E /= !scaler0 !addr0 scaler0 subr0.
  case eF: (rF (t n)) d => [p|] /=.
    rewrite /F5; case E: (b1 n) => [v|] //= [d].
    have S : mem (t n) p = rk4_sum X0 k1 n by rewrite d /rk4_sum /k1 nN E.
    by rewrite eqxx a S; split=> // p0 [<-]; rewrite fresh_ne ?S //; exact: c.
  rewrite /F5; case E: (b1 n) => // _; split=> //; rewrite e12 // e /X3 /move_ /k3 KfE //.
  by have := pat n (move_ X0 (dtau / 2%:R) (k2 X0 k1)) nN; rewrite E; case: (f _ n) => //=; rewrite scaler0 subr0.
Qed.

Lemma copy_ok (s : state) : (forall n, (n < N)%N -> (rA (s n) < nxt (s n))%N) ->
  exists2 s', sites (own rk_copy) (Some s) = Some s' &
  [/\ forall n, (n < N)%N -> s' n = bindA0 (s n) (mem (s n) (rA (s n))),
      forall n, (N <= n)%N -> s' n = s n & forall n, tA s' n = tA s n].
Proof.
move=> lA; case: (@sites_spec (own rk_copy) (fun _ => True) (fun n c => c = s n)
  (fun n c => c = bindA0 (s n) (mem (s n) (rA (s n)))) s) => [n t nN _ <-|//|//|s' es [_ ps qs]].
  by eexists; first by reflexivity.
exists s' => //; split=> // n; case: (ltnP n N) => nN; last by rewrite /tA qs.
by rewrite /tA ps //= (fresh_ne (lA n nN)).
Qed.

(* take_step_RK4 without B_i *)
Lemma take_step_RK4_ok i (s : state) : (forall n, (n < N)%N -> (rA (s n) < nxt (s n))%N) ->
  exists2 s', take_step_RK4 i s = Some s' & forall n, tA s' n = rk4 (tA s) (Kf (tA s)) n.
Proof.
move=> lA; have [s1 e1 [p1 q1 t1]] := copy_ok lA; pose X0 := tA s.
case: (@sites_spec rk_calc (fun t => forall n, tA t n = X0 n) (fun n c => c = bindA0 (s n) (X0 n))
  (fun n c => c = bindB (bindA0 (s n) (X0 n)) (f X0 n)) s1) => [n t nN jt ec|//|//|s2 e2 [j2 p2 q2]].
  eexists; first by reflexivity.
  rewrite (fext n jt) ec; split=> // k; have [ek|nk] := eqVneq n k; last by rewrite /tA upd_other //; exact: (jt k).
  case: k / ek; rewrite /tA upd_same; case: (f X0 n) => [v|] /=; last by rewrite (fresh_ne (lA n nN)).
  by rewrite (fresh_ne (leqW (lA n nN))) (fresh_ne (lA n nN)).
case: (@sites_spec (own rk_fin) (fun t => forall n, tA t n = X0 n) (fun n c => c = bindB (bindA0 (s n) (X0 n)) (f X0 n))
  (fun n c => c = let c' := bindB (bindA0 (s n) (X0 n)) (f X0 n) in setF c' (rB c')) s2) => [n t nN jt ec|//|//|s3 e3 [j3 p3 q3]].
  eexists; first by reflexivity.
  rewrite ec; split=> // k; have [ek|nk] := eqVneq n k; last by rewrite /tA upd_other //; exact: (jt k).
  by case: k / ek; rewrite /tA upd_same -ec; exact: (jt n).
have [|||s4 e4 [h4 _ _]] := @rest_ok i s3 X0 (f X0).
- move=> n nN; rewrite p3 //; have l0 := lA n nN.
  case: (f X0 n) => [v|] /=; split=> //; split=> //=.
  + by rewrite (fresh_ne (leqW l0)) (fresh_ne l0) !eqxx (fresh_ne (leqnn _)).
  + by rewrite (ltn_eqF l0); split=> //; exact: leqW (leqW l0).
  + by move=> p [<-]; rewrite ltnSn (gtn_eqF (leqnn _)) (gtn_eqF (leqW l0)).
  + by move=> p [<-]; rewrite ltnSn (gtn_eqF (leqnn _)) (gtn_eqF (leqW l0)).
  + by rewrite (fresh_ne l0) eqxx.
  + by rewrite (ltn_eqF l0); split=> //; exact: leqW l0.
- exact: j3.
- by move=> n A nN; exact: fpat.
exists s4; first by rewrite /take_step_RK4 e1 e2 e3.
exact: h4.
Qed.

(* take_step_RK4(dtau, B_i): the caller's arrays are used as k1 and end up holding the weighted sum *)
Lemma take_step_RK4_B_ok i (Bi : forall n : nat, option nat) (s : state) :
  (forall n, (n < N)%N -> (rA (s n) < nxt (s n))%N) ->
  (forall n p, (n < N)%N -> Bi n = Some p -> (p < nxt (s n))%N && (p != rA (s n))) ->
  (forall n A, (n < N)%N -> isSome (Bi n) = isSome (f A n)) ->
  let k1 : tens := fun n => if (n < N)%N then odflt 0 (omap (mem (s n)) (Bi n)) else 0 in
  exists2 s', take_step_RK4_B i Bi s = Some s' &
    (forall n, tA s' n = rk4 (tA s) k1 n) /\
    (forall n p, (n < N)%N -> Bi n = Some p -> mem (s' n) p = rk4_sum (tA s) k1 n).
Proof.
move=> lA hB pat k1; have [s1 e1 [p1 q1 t1]] := copy_ok lA; pose X0 := tA s.
case: (@sites_spec (own (rk_caller Bi)) (fun t => forall n, tA t n = X0 n) (fun n c => c = bindA0 (s n) (X0 n))
  (fun n c => c = setF (setB (bindA0 (s n) (X0 n)) (Bi n)) (Bi n)) s1) => [n t nN jt ec|//|//|s2 e2 [j2 p2 q2]].
  eexists; first by reflexivity.
  rewrite ec; split=> // k; have [ek|nk] := eqVneq n k; last by rewrite /tA upd_other //; exact: (jt k).
  by case: k / ek; rewrite /tA upd_same /= (fresh_ne (lA n nN)).
have [|||s4 e4 [h4 _ h5]] := @rest_ok i s2 X0 (fun n => omap (mem (s n)) (Bi n)).
- move=> n nN; rewrite p2 //; have l0 := lA n nN; have := hB n _ nN.
  case eB: (Bi n) => [p|] hp /=; split=> //; split=> //=; rewrite ?(fresh_ne l0) ?eqxx //.
  + by have /andP[lp _] := hp p erefl; rewrite (fresh_ne lp).
  + by split=> //; exact: leqW l0.
  + by move=> p0 [<-]; have /andP[lp np] := hp p erefl; rewrite np (ltn_eqF lp) leqW.
  + by move=> p0 [<-]; have /andP[lp np] := hp p erefl; rewrite np (ltn_eqF lp) leqW.
  + by split=> //; exact: leqW l0.
- exact: j2.
- by move=> n A nN; rewrite -(pat n A nN); case: (Bi n).
exists s4; first by rewrite /take_step_RK4_B e1 e2.
split=> [|n p nN eB]; first exact: h4.
by apply: h5 => //; rewrite p2.
Qed.
End Mem.

(* ---- take_step_RK4 of the uniform class (tdvp_uniform.py:681-736), without dynexp -------------------
   The block of L tensors all has one shape, so one vector space V serves all sites; calc_B
   (tdvp_uniform.py:491-552) returns a list without None.  "B_fin += 2 * B[k]" (line 729) adds an
   array to a Python list: numpy's __radd__ takes precedence over list extension, the list is turned
   into an array and 2 * B[k] is broadcast over all of its L entries. *)
Section Uniform.
Variables (C : numClosedFieldType) (V : lmodType C) (L : nat).
Local Notation tens := (nat -> V).
Definition put (A : tens) k v : tens := fun j => if j == k then v else A j.
Definition bcast (F : tens) (v : V) : tens := fun j => F j + v.
Variable f : tens -> tens.
Variable dtau : C.
Definition u_euler (h : C) (A B : tens) : tens := foldl (fun A k => put A k (A k - h *: B k)) A (iota 0 L).
Definition u_mid (h : C) (A0 B : tens) (st : tens * tens) : tens * tens :=
  foldl (fun st k => (put st.1 k (A0 k - h *: B k), put st.2 k (st.2 k + 2%:R *: B k))) st (iota 0 L).
Definition u_third (h : C) (A0 B : tens) (st : tens * tens) : tens * tens :=
  foldl (fun st k => (put st.1 k (A0 k - h *: B k), bcast st.2 (2%:R *: B k))) st (iota 0 L).
Definition u_last (h : C) (A0 B : tens) (st : tens * tens) : tens * tens :=
  foldl (fun st k => let F := put st.2 k (st.2 k + B k) in (put st.1 k (A0 k - h *: F k), F)) st (iota 0 L).
(* tensors after the step, and the caller's B_i after it (rebound by the broadcast, so it keeps the
   value from the second stage) *)
Definition take_step_RK4_u (A0 k1 : tens) : tens * tens :=
  let A1 := u_euler (dtau / 2%:R) A0 k1 in
  let st2 := u_mid (dtau / 2%:R) A0 (f A1) (A1, k1) in
  let st3 := u_third dtau A0 (f st2.1) st2 in
  let st4 := u_last (dtau / 6%:R) A0 (f st3.1) st3 in
  (st4.1, st2.2).

Lemma put_loop (T : Type) (st0 : T) (body : T -> nat -> T) (J : nat -> T -> Prop) :
  J 0%N st0 -> (forall k t, (k < L)%N -> J k t -> J k.+1 (body t k)) -> J L (foldl body st0 (iota 0 L)).
Proof.
move=> J0 hb; suff h k : (k <= L)%N -> J k (foldl body st0 (iota 0 k)) by exact: h.
elim: k => [|k IH] kL //; rewrite -addn1 iotaD foldl_cat add0n /= addn1.
by apply: hb => //; apply: IH; exact: ltnW.
Qed.
Lemma u_eulerE h A B k : u_euler h A B k = if (k < L)%N then A k - h *: B k else A k.
Proof.
move: k; rewrite /u_euler.
apply: (@put_loop _ A _ (fun m t => forall k, t k = if (k < m)%N then A k - h *: B k else A k)) => // m t mL IH k.
by rewrite /put ltnS leq_eqVlt; case: eqP => [->|_] /=; rewrite IH ?ltnn.
Qed.
Lemma u_midE h A0 B A F k : let st := u_mid h A0 B (A, F) in
  st.1 k = (if (k < L)%N then A0 k - h *: B k else A k) /\ st.2 k = if (k < L)%N then F k + 2%:R *: B k else F k.
Proof.
move: k; rewrite /u_mid.
apply: (@put_loop _ (A, F) _ (fun m t => forall k, t.1 k = (if (k < m)%N then A0 k - h *: B k else A k) /\
  t.2 k = if (k < m)%N then F k + 2%:R *: B k else F k)) => // m t mL IH k.
rewrite /put ltnS leq_eqVlt /=; case: eqP => [->|_] /=; last exact: IH.
by rewrite (IH m).2 ltnn.
Qed.
Lemma u_thirdE h A0 B A F k : let st := u_third h A0 B (A, F) in
  st.1 k = (if (k < L)%N then A0 k - h *: B k else A k) /\ st.2 k = F k + 2%:R *: \sum_(j < L) B j.
Proof.
move: k; rewrite /u_third.
apply: (@put_loop _ (A, F) _ (fun m t => forall k, t.1 k = (if (k < m)%N then A0 k - h *: B k else A k) /\
  t.2 k = F k + 2%:R *: \sum_(j < m) B j)) => [k|m t mL IH k] /=; first by rewrite big_ord0 scaler0 addr0.
rewrite /put /bcast ltnS leq_eqVlt big_ord_recr /= scalerDr addrA (IH k).2; split=> //.
by case: eqP => [->|_] //=; exact: (IH k).1.
Qed.
Lemma u_lastE h A0 B A F k : let st := u_last h A0 B (A, F) in
  st.1 k = (if (k < L)%N then A0 k - h *: (F k + B k) else A k).
Proof.
suff H : forall k, (u_last h A0 B (A, F)).1 k = (if (k < L)%N then A0 k - h *: (F k + B k) else A k) /\
  (u_last h A0 B (A, F)).2 k = if (k < L)%N then F k + B k else F k by move=> /=; exact: (H k).1.
rewrite /u_last.
apply: (@put_loop _ (A, F) _ (fun m t => forall k, t.1 k = (if (k < m)%N then A0 k - h *: (F k + B k) else A k) /\
  t.2 k = if (k < m)%N then F k + B k else F k)) => // m t mL IH {}k.
rewrite /put ltnS leq_eqVlt /= eqxx; case: eqP => [->|_] /=; last exact: IH.
by rewrite (IH m).2 ltnn.
Qed.

Hypothesis fext : forall A A', (forall k, A k = A' k) -> forall k, f A k = f A' k.
(* the tangent vectors of the four stages, on the L sites *)
Definition Ku (A : tens) : tens := fun k => if (k < L)%N then f A k else 0.
Definition mv (A : tens) (h : C) (k : tens) : tens := fun n => A n - h *: k n.
Lemma take_step_RK4_uE A0 k1 : (forall k, (L <= k)%N -> k1 k = 0) ->
  let k2 := Ku (mv A0 (dtau / 2%:R) k1) in let k3 := Ku (mv A0 (dtau / 2%:R) k2) in let k4 := Ku (mv A0 dtau k3) in
  (forall k, (take_step_RK4_u A0 k1).1 k =
     if (k < L)%N then A0 k - (dtau / 6%:R) *: (k1 k + 2%:R *: k2 k + 2%:R *: (\sum_(j < L) k3 j) + k4 k) else A0 k) /\
  (forall k, (take_step_RK4_u A0 k1).2 k = k1 k + 2%:R *: k2 k).
Proof.
move=> k10 k2 k3 k4; rewrite /take_step_RK4_u.
set A1 := u_euler _ _ _; set st2 := u_mid _ _ _ _; set st3 := u_third _ _ _ _.
have a1 k : A1 k = mv A0 (dtau / 2%:R) k1 k.
  by rewrite /A1 u_eulerE /mv; case: ltnP => // h; rewrite k10 // scaler0 subr0.
have f2 k : (k < L)%N -> f A1 k = k2 k by move=> h; rewrite /k2 /Ku h; exact: fext.
have a2 k : st2.1 k = mv A0 (dtau / 2%:R) k2 k.
  rewrite /st2 (u_midE _ _ _ _ _ k).1 /mv; case: ltnP => h; first by rewrite f2.
  by rewrite /k2 /Ku ltnNge h /= scaler0 subr0 a1 /mv k10 // scaler0 subr0.
have F2 k : st2.2 k = k1 k + 2%:R *: k2 k.
  rewrite /st2 (u_midE _ _ _ _ _ k).2; case: ltnP => h; first by rewrite f2.
  by rewrite /k2 /Ku ltnNge h /= scaler0 addr0.
have f3 k : (k < L)%N -> f st2.1 k = k3 k by move=> h; rewrite /k3 /Ku h; exact: fext.
have es3 : st3 = u_third dtau A0 (f st2.1) (st2.1, st2.2) by rewrite -surjective_pairing.
have a3 k : st3.1 k = mv A0 dtau k3 k.
  rewrite es3 (u_thirdE _ _ _ _ _ k).1 /mv; case: ltnP => h; first by rewrite f3.
  by rewrite a2 /mv /k3 /k2 /Ku ltnNge h /= !scaler0 !subr0.
have F3 k : st3.2 k = k1 k + 2%:R *: k2 k + 2%:R *: \sum_(j < L) k3 j.
  by rewrite es3 (u_thirdE _ _ _ _ _ k).2 F2; congr (_ + _ *: _); apply: eq_bigr => j _; rewrite f3.
split=> k /=; last exact: F2.
have -> : u_last (dtau / 6%:R) A0 (f st3.1) st3 = u_last (dtau / 6%:R) A0 (f st3.1) (st3.1, st3.2) by rewrite -surjective_pairing.
rewrite u_lastE; case: ltnP => h; last by rewrite a3 /mv /k3 /Ku ltnNge h /= scaler0 subr0.
by rewrite F3 /k4 /Ku h (fext a3 k).
Qed.
End Uniform.

(* ---- take_step(dtau, save_memory=True) (tdvp_gen.py:849-868) and take_step(dtau) (870-929, without
   dynexp) -------------------------------------------------------------------------------------------
   [bn A n] is calc_B_n(n) while self.A holds A and all other arrays (l, r, K, C, AA) keep the values
   of the last update(); the outer None is an exception, the inner one "no B defined".  w = ham_sites - 1;
   the Python loop variable n runs from 1 to N + ham_sites - 1, here from 0.  [sub A b] is A - dtau * b.
   The counters eta_sq are not modelled (the two variants fill them with the same numbers, but the
   memory-saving one does not set self.eta). *)
Section SaveMemory.
Variables (N w : nat) (T : nat -> Type) (sub : forall n, T n -> T n -> T n).
Local Notation arr := (forall n, T n).
Local Notation barr := (forall n, option (T n)).
Variable bn : arr -> forall n, option (option (T n)).
Definition sm_apply (A : arr) (B : barr) m : arr * barr :=
  if B m is Some b then (@upd T A m (sub (A m) b), @upd (fun n => option (T n)) B m None) else (A, B).
Definition sm_step (o : option (arr * barr)) n : option (arr * barr) :=
  if o is Some (A, B) then
    let o1 := if (n < N)%N then omap (fun b => @upd (fun n => option (T n)) B n b) (bn A n) else Some B in
    if o1 is Some B1 then Some (if (w <= n)%N then sm_apply A B1 (n - w) else (A, B1)) else None
  else None.
(* "assert all(x is None for x in B)" *)
Definition isNone (X : Type) (o : option X) := if o is Some _ then false else true.
Definition save_memory_step (A : arr) : option arr :=
  if foldl sm_step (Some (A, fun _ => None)) (iota 0 (N + w)) is Some (A', B) then
    if all (fun n => isNone (B n)) (iota 0 N) then Some A' else None
  else None.
Definition plain_step (A : arr) : option arr :=
  if all (fun n => isSome (bn A n)) (iota 0 N) then
    Some (fun n => if (n < N)%N then if bn A n is Some (Some b) then sub (A n) b else A n else A n)
  else None.

Hypothesis bn_local : forall A A' n, (forall m, (n <= m + w)%N -> A m = A' m) -> bn A n = bn A' n.
Lemma save_memory_ok A : match plain_step A, save_memory_step A with
  | Some A1, Some A2 => forall n, A1 n = A2 n
  | None, None => True
  | _, _ => False end.
Proof.
pose fin n := if bn A n is Some (Some b) then sub (A n) b else A n.
pose val n := if bn A n is Some b then b else None.
pose I j (A' : arr) (B' : barr) :=
  (forall m, A' m = if (m + w < j)%N then fin m else A m) /\
  (forall m, B' m = if (m < j)%N && (m < N)%N && (j <= m + w)%N then val m else None).
have apply_ok j A' B1 : (j < N + w)%N -> (forall m, A' m = if (m + w < j)%N then fin m else A m) ->
    (forall m, B1 m = if (m < j.+1)%N && (m < N)%N && (j <= m + w)%N then val m else None) ->
    exists A2 B2, (if (w <= j)%N then sm_apply A' B1 (j - w) else (A', B1)) = (A2, B2) /\ I j.+1 A2 B2.
  move=> jN hA hB; case: leqP => wj; last first.
    exists A', B1; do 2!split=> //; move=> m; [rewrite hA|rewrite hB].
      by have [-> ->] : (m + w < j)%N = false /\ (m + w < j.+1)%N = false by lia.
    by have -> : (j <= m + w)%N = (j < m + w)%N by lia.
  set m0 := (j - w)%N; have em : j = (m0 + w)%N by rewrite subnK.
  have e0 : B1 m0 = val m0 by rewrite hB; have -> : (m0 < j.+1)%N && (m0 < N)%N && (j <= m0 + w)%N by lia.
  rewrite /sm_apply e0; case E: (val m0) => [b|].
    eexists _, _; split; first by reflexivity.
    split=> m; have [e|ne] := eqVneq m0 m.
    - case: m / e; rewrite upd_same hA em ltnn ltnSn.
      by move: E; rewrite /fin /val; case: (bn A m0) => // o ->.
    - by rewrite upd_other // hA; have -> : (m + w < j)%N = (m + w < j.+1)%N by lia.
    - case: m / e; rewrite upd_same; have -> // : (m0 < j.+1)%N && (m0 < N)%N && (j < m0 + w)%N = false by lia.
    - rewrite upd_other // hB; have -> // : (m < j.+1)%N && (m < N)%N && (j <= m + w)%N = (m < j.+1)%N && (m < N)%N && (j < m + w)%N by lia.
  exists A', B1; split=> //; split=> m; have [e|ne] := eqVneq m0 m.
  - case: m / e; rewrite hA em ltnn ltnSn.
    by move: E; rewrite /fin /val; case: (bn A m0) => // o ->.
  - by rewrite hA; have -> : (m + w < j)%N = (m + w < j.+1)%N by lia.
  - by case: m / e; rewrite e0 E; case: ifP.
  - by rewrite hB; have -> // : (m < j.+1)%N && (m < N)%N && (j <= m + w)%N = (m < j.+1)%N && (m < N)%N && (j < m + w)%N by lia.
have inv j : (j <= N + w)%N ->
    if all (fun n => isSome (bn A n)) (iota 0 (minn j N)) then
      exists A' B', foldl sm_step (Some (A, fun _ => None)) (iota 0 j) = Some (A', B') /\ I j A' B'
    else foldl sm_step (Some (A, fun _ => None)) (iota 0 j) = None.
  elim: j => [|j IH] jN; first by rewrite min0n /=; exists A, (fun _ => None).
  have {IH} := IH (ltnW jN); rewrite -[in iota 0 j.+1]addn1 iotaD foldl_cat add0n /=.
  set st := foldl _ _ _.
  case: (ltnP j N) => jN'; last first.
    have -> : minn j.+1 N = N by lia.
    case: (all _ _) => /=; last by move=> ->.
    move=> [A' [B' [-> [hA hB]]]]; rewrite /= (ltnNge j) jN' /=.
    have [|A2 [B2 [-> h2]]] := apply_ok j A' B' jN hA; last by exists A2, B2.
    by move=> m; rewrite hB; have -> : (m < j)%N && (m < N)%N = (m < j.+1)%N && (m < N)%N by lia.
  have -> : minn j.+1 N = j.+1 by lia.
  rewrite -[in iota 0 j.+1]addn1 iotaD all_cat add0n /= andbT.
  case: (all _ (iota 0 j)) => /=; last by move=> ->.
  move=> [A' [B' [-> [hA hB]]]]; rewrite /= jN'.
  have -> : bn A' j = bn A j.
    by apply: bn_local => m jm; rewrite hA; have -> : (m + w < j)%N = false by lia.
  case E: (bn A j) => [b|] //=.
  have [|A2 [B2 [-> h2]]] := apply_ok j A' (@upd (fun n => option (T n)) B' j b) jN hA; last by exists A2, B2.
  move=> m; have [e|ne] := eqVneq j m.
    case: m / e; rewrite upd_same ltnSn jN' leq_addr /=; by rewrite /val E.
  by rewrite upd_other // hB; have -> : (m < j.+1)%N = (m < j)%N by lia.
have := inv (N + w)%N (leqnn _); rewrite /plain_step /save_memory_step.
have -> : minn (N + w) N = N by lia.
case: (all _ _) => /=; last by move=> ->.
move=> [A' [B' [-> [hA hB]]]].
have -> : all (fun n => isNone (B' n)) (iota 0 N).
  apply/allP => n; rewrite mem_iota add0n => /andP[_ nN]; rewrite hB.
  by have -> : (n < N + w)%N && (n < N)%N && (N + w <= n + w)%N = false by lia.
by move=> n; rewrite hA ltn_add2r; case: ltnP.
Qed.
End SaveMemory.
