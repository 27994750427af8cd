(* SwCanon.v -- canonical form of the sandwich class (mps_sandwich.py:326-477): _restore_CF_ONR, _restore_CF_diag and
   restore_CF after the two calls of calc_lr, with tm.restore_RCF_r and tm.restore_LCF_l.

   Site n + 1 of the code is site n here, bond n is bond n.  The window has N sites, m + 1 = N_centre.  The bulks have
   LL and LR sites per cell and the bond dimensions D 0 and D N.  Simplifications: both bulks have the site dimension
   q[0] (the loops over s of _restore_CF_diag use q[0] for both); sanity checks and debugging output are left out. *)
From mathcomp Require Import all_ssreflect all_algebra.
From mathcomp Require Import zify.
From Verif Require Import Base Spec Eps Chain ChainProofs LinAlg Struct Factor Canon Svd Uniform UCanon.
Set Implicit Arguments.
Unset Strict Implicit.
Unset Printing Implicit Defensive.
Import Order.TTheory GRing.Theory Num.Theory.
Local Open Scope ring_scope.

(* ---- loops that carry data from bond to bond and rewrite the tensor they pass ---- *)
Section Sweep.
Variables (T S : nat -> Type).
Section R.
Variable F : forall j, S j -> T j.+1 -> option (T j * S j).
Definition stepR (o : option ((forall n, T n) * (forall n, S n))) j :=
  if o is Some (Y, A) then if F (A j) (Y j.+1) is Some (y, a) then Some (upd Y y, upd A a) else None else None.
Definition sweepR lo cnt Y A := foldl stepR (Some (Y, A)) (rev (iota lo cnt)).
Lemma sweepRP (P : forall n, T n -> Prop) lo cnt (Y : forall n, T n) (A : forall n, S n) : P (lo + cnt)%N (Y (lo + cnt)%N) ->
  (forall j y, (lo <= j < lo + cnt)%N -> P j.+1 y -> exists y' a', F (A j) y = Some (y', a') /\ P j y') ->
  exists Y' A', [/\ sweepR lo cnt Y A = Some (Y', A'), forall n, (lo <= n <= lo + cnt)%N -> P n (Y' n),
    forall j, (lo <= j < lo + cnt)%N -> F (A j) (Y' j.+1) = Some (Y' j, A' j)
    & forall n, ~~ (lo <= n < lo + cnt)%N -> Y' n = Y n /\ A' n = A n].
Proof.
rewrite /sweepR; elim: cnt lo => [|cnt IH] lo P0 hF.
  exists Y, A; split=> // [n hn|j hj]; last by lia.
  by have -> : n = (lo + 0)%N by lia.
have [||Y1 [A1 [e h1 h2 h3]]] := IH lo.+1.
- by rewrite addSnnS.
- by move=> j y hj; apply: hF; lia.
have P1 : P lo.+1 (Y1 lo.+1) by apply: h1; lia.
have eA : A1 lo = A lo by have [] := h3 lo _; first by rewrite ltnn.
have lo1 : (lo <= lo < lo + cnt.+1)%N by lia.
have [y [a [eF Py]]] := hF lo (Y1 lo.+1) lo1 P1.
exists (upd Y1 y), (upd A1 a); split.
- by rewrite /= rev_cons -cats1 foldl_cat e /= eA eF.
- move=> n hn; case: (eqVneq lo n) => [<-|ne]; first by rewrite upd_same.
  by rewrite upd_other //; apply: h1; lia.
- move=> j hj; have ne1 : lo != j.+1 by lia.
  rewrite (upd_other _ _ ne1); case: (eqVneq lo j) => [<-|ne]; first by rewrite !upd_same.
  by rewrite !upd_other //; apply: h2; lia.
- move=> n hn; have ne : lo != n by lia.
  by rewrite !upd_other //; apply: h3; lia.
Qed.
End R.
Section Lft.
Variable F : forall j, S j -> T j -> option (T j.+1 * S j).
Definition stepL (o : option ((forall n, T n) * (forall n, S n))) j :=
  if o is Some (Y, A) then if F (A j) (Y j) is Some (y, a) then Some (upd Y y, upd A a) else None else None.
Definition sweepL lo cnt Y A := foldl stepL (Some (Y, A)) (iota lo cnt).
Lemma sweepLP (P : forall n, T n -> Prop) lo cnt (Y : forall n, T n) (A : forall n, S n) : P lo (Y lo) ->
  (forall j y, (lo <= j < lo + cnt)%N -> P j y -> exists y' a', F (A j) y = Some (y', a') /\ P j.+1 y') ->
  exists Y' A', [/\ sweepL lo cnt Y A = Some (Y', A'), forall n, (lo <= n <= lo + cnt)%N -> P n (Y' n),
    forall j, (lo <= j < lo + cnt)%N -> F (A j) (Y' j) = Some (Y' j.+1, A' j)
    & forall n, (~~ (lo < n <= lo + cnt)%N -> Y' n = Y n) /\ (~~ (lo <= n < lo + cnt)%N -> A' n = A n)].
Proof.
rewrite /sweepL; elim: cnt => [|cnt IH] P0 hF.
  exists Y, A; split=> // [n hn|j hj]; last by lia.
  by have -> : n = lo by lia.
have [||Y1 [A1 [e h1 h2 h3]]] := IH.
- by [].
- by move=> j y hj; apply: hF; lia.
have P1 : P (lo + cnt)%N (Y1 (lo + cnt)%N) by apply: h1; lia.
have eA : A1 (lo + cnt)%N = A (lo + cnt)%N by have [_ ->] := h3 (lo + cnt)%N; [|lia].
have lo1 : (lo <= lo + cnt < lo + cnt.+1)%N by lia.
have [y [a [eF Py]]] := hF _ _ lo1 P1.
exists (upd Y1 y), (upd A1 a); split.
- by rewrite -[in iota _ _]addn1 iotaD foldl_cat e /= eA eF.
- move=> n hn; case: (eqVneq (lo + cnt).+1 n) => [<-|ne]; first by rewrite upd_same.
  by rewrite upd_other //; apply: h1; lia.
- move=> j hj; have ne1 : (lo + cnt).+1 != j by lia.
  rewrite (upd_other _ _ ne1); case: (eqVneq (lo + cnt)%N j) => [<-|ne]; first by rewrite !upd_same.
  have ne2 : (lo + cnt).+1 != j.+1 by lia.
  by rewrite !upd_other //; apply: h2; lia.
- move=> n; have [k1 k2] := h3 n; split=> hn.
    by rewrite upd_other ?k1 //; lia.
  by rewrite upd_other ?k2 //; lia.
Qed.
End Lft.
End Sweep.

Section Model.
Variables (C : numClosedFieldType) (eigh : eigh_routine C) (chol : chol_routine C).

(* restore_RCF(diag_l=False, ret_g=True) and restore_LCF(diag_r=False, ret_g=True) of mps_uniform.py (796-966): as in
   UCanon.v, with the lists G and G_i *)
Section Bulk.
Variables (L D : nat).
Definition gfac := 'M[C]_D -> 'M[C]_D -> option ('M[C]_D * 'M[C]_D * 'M[C]_D * 'M[C]_D).
Definition rcf_fac (tol : C) : gfac := fun l r =>
  if herm_fac_with_inv eigh chol false true tol r is Some (G, Gi, rank) then Some (G, Gi, G^† *m (l *m G), env_rank C D rank) else None.
Definition lcf_fac (tol : C) : gfac := fun l r =>
  if herm_fac_with_inv eigh chol false false tol l is Some (Gi, G, rank) then Some (G, Gi, env_rank C D rank, Gi *m (r *m Gi^†)) else None.
Definition gstate := (ust C D * (nat -> 'M[C]_D) * (nat -> 'M[C]_D))%type.
Definition gl_step (F : gfac) (o : option gstate) k : option gstate :=
  if o is Some (st, G, Gi) then
    if F (ul st k) (ur st k) is Some (g, gi, lk, rk) then
      Some (Ust (gstep L k gi g (uA st)) (setv (ul st) k lk) (setv (ur st) k rk), setv G k g, setv Gi k gi)
    else None
  else None.
Definition gloop F ks (st : ust C D) : option gstate := foldl (gl_step F) (Some (st, fun _ => 0, fun _ => 0)) ks.
Definition restore_RCF_g tol := gloop (rcf_fac tol) (iota 0 L).
Definition restore_LCF_g tol := gloop (lcf_fac tol) (iota 0 L).
(* the same states as in UCanon.v *)
Lemma gloop_st F (step : ust C D -> nat -> option (ust C D)) ks st :
  (forall st k, step st k = if F (ul st k) (ur st k) is Some (g, gi, lk, rk) then
     Some (Ust (gstep L k gi g (uA st)) (setv (ul st) k lk) (setv (ur st) k rk)) else None) ->
  omap (fun x => x.1.1) (gloop F ks st) = loop step ks st.
Proof.
move=> hs; rewrite /gloop /loop.
suff gen G Gi : omap (fun x => x.1.1) (foldl (gl_step F) (Some (st, G, Gi)) ks) =
    foldl (fun o k => if o is Some s then step s k else None) (Some st) ks by exact: gen.
elim: ks st G Gi => [|k ks IH] st G Gi //=; rewrite hs.
case: (F _ _) => [[[[g gi] lk] rk]|]; first exact: IH.
by elim: ks {IH}.
Qed.
Lemma restore_RCF_gE tol st : omap (fun x => x.1.1) (restore_RCF_g tol st) = restore_RCF eigh chol L tol false (iota 0 L) st.
Proof. by apply: gloop_st => s k; rewrite /rcf_step /rcf_fac; case: (herm_fac_with_inv _ _ _ _ _ _) => [[[g gi] rk]|]. Qed.
Lemma restore_LCF_gE tol st : omap (fun x => x.1.1) (restore_LCF_g tol st) = restore_LCF eigh chol L tol false (iota 0 L) st.
Proof. by apply: gloop_st => s k; rewrite /lcf_step /lcf_fac; case: (herm_fac_with_inv _ _ _ _ _ _) => [[[g gi] rk]|]. Qed.
End Bulk.

(* restore_RCF_r (tdvp_common.py:821-906) with r and G_n_i given: (r[n-1], G_nm1_i) and the new tensor *)
Definition restore_RCF_r q Dl Dr (tol : C) (A : nat -> 'M[C]_(Dl, Dr)) (y : 'M[C]_Dr * 'M[C]_Dr) :
    option (('M[C]_Dl * 'M[C]_Dl) * (nat -> 'M[C]_(Dl, Dr))) :=
  let: (r, Gi) := y in
  let M := eps_r_noop q (Gi *m (r *m Gi^†)) A A in
  if herm_fac_with_inv eigh chol false false tol M is Some (X, Xi, rank) then
    Some ((env_rank C Dl rank, X^†), fun s => Xi^† *m A s *m Gi)
  else None.
(* restore_LCF_l (tdvp_common.py:1056-1096) with lm1 and Gm1 given: (l[n], G) and the new tensor *)
Definition restore_LCF_l q Dl Dr (tol : C) (A : nat -> 'M[C]_(Dl, Dr)) (y : 'M[C]_Dl * 'M[C]_Dl) :
    option (('M[C]_Dr * 'M[C]_Dr) * (nat -> 'M[C]_(Dl, Dr))) :=
  let: (lm1, Gm1) := y in
  let M := eps_l_noop q (Gm1^† *m (lm1 *m Gm1)) A A in
  if herm_fac_with_inv eigh chol false false tol M is Some (G, Gi, rank) then
    Some ((env_rank C Dr rank, G), fun s => Gm1 *m A s *m Gi)
  else None.
(* Canon.restore_LCF_r and restore_RCF_l with the data carried along: (r[n-1], Gm1_i), (l[n], G) *)
Definition diag_r q Dl Dr (A : nat -> 'M[C]_(Dl, Dr)) (y : 'M[C]_Dr * 'M[C]_Dr) :
    option (('M[C]_Dl * 'M[C]_Dl) * (nat -> 'M[C]_(Dl, Dr))) :=
  let: ((r, _, Gi), A') := Canon.restore_LCF_r eigh q A y.1 y.2 in Some ((r, Gi), A').
Definition diag_l q Dl Dr (A : nat -> 'M[C]_(Dl, Dr)) (y : 'M[C]_Dl * 'M[C]_Dl) :
    option (('M[C]_Dr * 'M[C]_Dr) * (nat -> 'M[C]_(Dl, Dr))) :=
  let: ((l, G, _), A') := Canon.restore_RCF_l eigh q A y.1 y.2 in Some ((l, G), A').

Variables (N m LL LR qb : nat) (D q : nat -> nat).
Local Notation bonds := (forall n, 'M[C]_(D n)).
Record sw := Sw { wA : tensors C D; wl : bonds; wr : bonds; lN1 : 'M[C]_(D N); rN1 : 'M[C]_(D N);
                  bL : ust C (D 0); bR : ust C (D N) }.
Local Notation T := (fun n => ('M[C]_(D n) * 'M[C]_(D n))%type).
Local Notation S := (fun n => nat -> 'M[C]_(D n, D n.+1)).
Definition zip2 (x y : bonds) : forall n, T n := fun n => (x n, y n).
Definition zero : bonds := fun n => 0.

(* _restore_CF_ONR (326-364); the sites right of the centre, from N down *)
Definition onr_right (tol : C) (st : sw) : option sw :=
  if restore_RCF_g LR tol (bR st) is Some (b, G, _) then
    let Y := upd (zip2 (wr st) zero) ((ur b LR.-1, G LR.-1) : T N) in
    if @sweepR T S (fun j a y => restore_RCF_r (q j) tol a y) m.+1 (N - m.+1) Y (wA st) is Some (Y', A') then
      let A2 := upd A' ((fun s => A' m s *m (Y' m.+1).2) : S m) in
      Some (Sw A2 (wl st) (fun n => (Y' n).1) (lN1 st) (Y' N).1 (bL st) b)
    else None
  else None.
(* the sites left of the centre, from 1 up *)
Definition onr_left (tol : C) (st : sw) : option sw :=
  if restore_LCF_g LL tol (bL st) is Some (b, _, Gi) then
    let Y := upd (zip2 (wl st) zero) ((ul b LL.-1, Gi LL.-1) : T 0%N) in
    if @sweepL T S (fun j a y => restore_LCF_l (q j) tol a y) 0 m Y (wA st) is Some (Y', A') then
      let A2 := upd A' ((fun s => (Y' m).2 *m A' m s) : S m) in
      Some (Sw A2 (fun n => (Y' n).1) (wr st) (lN1 st) (rN1 st) b (bR st))
    else None
  else None.
(* simple_renorm(update_lr=False) (278-285) after self.r[nc - 1] = tm.eps_r_noop(...) (435-436) *)
Definition renorm (eps : C) (st : sw) : sw :=
  let rm : 'M[C]_(D m) := eps_r_noop (q m) (wr st m.+1) (wA st m) (wA st m) in
  let norm := adot (wl st m) rm in
  let A' := if eps < `|1 - norm| then upd (wA st) ((fun s => (1 / sqrtC norm) *: wA st m s) : S m) else wA st in
  Sw A' (wl st) (upd (wr st) rm) (lN1 st) (rN1 st) (bL st) (bR st).
(* _restore_CF_diag (367-401) *)
Definition diag_left (st : sw) : option sw :=
  let Y := upd (zip2 (wr st) zero) ((wr st m.+1, 1%:M) : T m.+1) in
  if @sweepR T S (fun j a y => diag_r (q j) a y) 0 m.+1 Y (wA st) is Some (Y', A') then
    let Ui := (Y' 0%N).2 in let U := Ui^† in
    let b := bL st in
    Some (Sw A' (wl st) (fun n => (Y' n).1) (lN1 st) (rN1 st)
       (Ust (gstep LL LL.-1 U Ui (uA b)) (ul b) (setv (ur b) LL.-1 (U *m (ur b LL.-1 *m U^†)))) (bR st))
  else None.
Definition diag_right (st : sw) : option sw :=
  let Y := upd (zip2 (wl st) zero) ((wl st m, 1%:M) : T m) in
  if @sweepL T S (fun j a y => diag_l (q j) a y) m (N - m) Y (wA st) is Some (Y', A') then
    let U := (Y' N).2 in let Ui := U^† in
    let b := bR st in
    Some (Sw A' (fun n => (Y' n).1) (wr st) (lN1 st) (rN1 st) (bL st)
       (Ust (gstep LR LR.-1 U Ui (uA b)) (setv (ul b) LR.-1 (Ui^† *m (ul b LR.-1 *m Ui))) (ur b)))
  else None.
(* restore_CF (403-477) after the calls of calc_lr *)
Definition restore_CF (tol eps : C) (st : sw) : option sw :=
  obind (fun s1 => obind (fun s2 => obind (fun s3 => omap (fun s4 =>
    Sw (wA s4) (wl s4) (wr s4) (eps_l_noop qb (wl s4 N) (uA (bR s4) 0%N) (uA (bR s4) 0%N)) (rN1 s4) (bL s4) (bR s4))
  (diag_right s3)) (diag_left (renorm eps s2))) (onr_left tol s1)) (onr_right tol st).
End Model.

(* ---- the bulks: G and G_i are the gauge transformation ---- *)
Lemma invmxM (C : numClosedFieldType) n (x y : 'M[C]_n) : x \in unitmx -> y \in unitmx -> invmx (x *m y) = invmx y *m invmx x.
Proof.
move=> ux uy; have uxy : x *m y \in unitmx by rewrite unitmx_mul ux.
have h : (x *m y) *m (invmx y *m invmx x) = 1%:M by rewrite mulmxA -(mulmxA x) mulmxV // mulmx1 mulmxV.
by rewrite -[LHS]mulmx1 -h mulKmx.
Qed.
Section BulkP.
Variables (C : numClosedFieldType) (L D : nat).
Hypothesis L0 : (0 < L)%N.
Lemma gloopP (F : gfac C D) st : (forall k, (k < L)%N -> F (ul st k) (ur st k) != None) ->
  exists st' G Gi, [/\ gloop L F (iota 0 L) st = Some (st', G, Gi),
    forall k, (k < L)%N -> F (ul st k) (ur st k) = Some (G k, Gi k, ul st' k, ur st' k)
    & forall j s, (j < L)%N -> uA st' j s = Gi (prv L j) *m uA st j s *m G j].
Proof.
move=> hF.
have gen n : (n <= L)%N -> exists st' G Gi, [/\ gloop L F (iota 0 n) st = Some (st', G, Gi),
    forall k, (k < n)%N -> F (ul st k) (ur st k) = Some (G k, Gi k, ul st' k, ur st' k),
    forall k, (n <= k)%N -> ul st' k = ul st k /\ ur st' k = ur st k
    & forall j s, (j < L)%N -> uA st' j s = (if (prv L j < n)%N then Gi (prv L j) else 1%:M) *m uA st j s *m
                                            (if (j < n)%N then G j else 1%:M)].
  elim: n => [|n IH] nL.
    by exists st, (fun _ => 0), (fun _ => 0); split=> // j s _; rewrite !ltn0 mulmx1 mul1mx.
  have [|st' [G [Gi [e h1 h2 h3]]]] := IH; first by lia.
  have [e1 e2] := h2 n (leqnn n).
  case ef: (F (ul st n) (ur st n)) (hF n nL) => [[[[g gi] lk] rk]|//] _.
  eexists; exists (setv G n g), (setv Gi n gi); split.
  - rewrite -[n.+1]addn1 /gloop iotaD foldl_cat; move: e; rewrite /gloop => -> /=.
    by rewrite e1 e2 ef.
  - move=> k kn; rewrite /= /setv; case: eqP => [->|ne]; first by rewrite ef.
    by apply: h1; lia.
  - move=> k kn; rewrite /= /setv; case: eqP => [ek|_]; first by lia.
    by apply: h2; lia.
  - move=> j s jL; rewrite /= /gstep h3 // /setv.
    have -> : (j == n.+1 %% L)%N = (prv L j == n).
      by have := hit_prv L0 nL j; rewrite modn_small // => ->.
    rewrite !ltnS [(prv L j <= n)%N]leq_eqVlt [(j <= n)%N]leq_eqVlt.
    case: (eqVneq (prv L j) n) => [->|ne]; case: (eqVneq j n) => [->|ne'] /=; rewrite ?ltnn ?mul1mx ?mulmx1 ?mulmxA //.
have [st' [G [Gi [e h1 h2 h3]]]] := gen L (leqnn L).
by exists st', G, Gi; split=> // j s jL; rewrite h3 // prv_lt // jL.
Qed.

(* b' is b with the gauge g *)
Definition ugauge (g : nat -> 'M[C]_D) (b b' : ust C D) := forall k, (k < L)%N ->
  [/\ g k \in unitmx, forall s, uA b' k s = invmx (g (prv L k)) *m uA b k s *m g k,
      ul b' k = (g k)^† *m ul b k *m g k & ur b' k = invmx (g k) *m ur b k *m (invmx (g k))^†].
Lemma ugauge_trans g g' b b' b'' : ugauge g b b' -> ugauge g' b' b'' -> ugauge (fun k => g k *m g' k) b b''.
Proof.
move=> h h' k kL; have [u1 e1 e2 e3] := h k kL; have [u1' e1' e2' e3'] := h' k kL.
have [v _ _ _] := h _ (prv_lt L0 k); have [v' _ _ _] := h' _ (prv_lt L0 k).
split; first by rewrite unitmx_mul u1.
- by move=> s; rewrite e1' e1 invmxM // !mulmxA.
- by rewrite e2' e2 adjM !mulmxA.
- by rewrite e3' e3 invmxM // adjM !mulmxA.
Qed.
Lemma ugauge_amp g b b' k0 e n c : ugauge g b b' -> (n + size c)%N = e ->
  amp (Uniform.wA L (uA b') k0) e n c =
  invmx (g (prv L ((k0 + n) %% L))) *m amp (Uniform.wA L (uA b) k0) e n c *m g (prv L ((k0 + e) %% L)).
Proof.
move=> h; elim: c n => [|s c IH] n /=.
  rewrite addn0 pid_mx_1 mulmx1 => <-.
  by have [u _ _ _] := h _ (prv_lt L0 ((k0 + n) %% L)); rewrite mulVmx.
rewrite addnS -addSn => es; rewrite IH // /Uniform.wA.
have [u eA _ _] := h _ (ltn_pmod (k0 + n) L0).
by rewrite eA addnS prv_next // -!mulmxA (mulmxA (g _) (invmx _)) mulmxV // mul1mx.
Qed.
Lemma ugauge_cons q g b b' : ugauge g b b' -> consistent L q (uA b) (ul b) (ur b) -> consistent L q (uA b') (ul b') (ur b').
Proof.
move=> h hc k kL; have [u eA el er] := h _ kL; have [v _ el' er'] := h _ (prv_lt L0 k); have [h1 h2] := hc _ kL.
have vv : (invmx (g (prv L k)))^† *m (g (prv L k))^† = 1%:M by rewrite -adjM mulmxV // adj1.
have uu : (g k)^† *m (invmx (g k))^† = 1%:M by rewrite -adjM mulVmx // adj1.
have uu' : (invmx (g k))^† *m (g k)^† = 1%:M by rewrite -adjM mulmxV // adj1.
split.
  rewrite el h1 el' /eps_l_noop mulmx_sumr mulmx_suml; apply: eq_bigr => s _; rewrite eA !adjM.
  rewrite -!mulmxA (mulmxA (invmx (g (prv L k)))^†) vv mul1mx (mulmxA (g (prv L k))) mulmxV // mul1mx.
  by rewrite !mulmxA.
rewrite er er' h2 /eps_r_noop mulmx_sumr mulmx_suml; apply: eq_bigr => s _; rewrite eA !adjM.
rewrite -!mulmxA (mulmxA (g k) (invmx _)) mulmxV // mul1mx (mulmxA (invmx (g k))^†) uu' mul1mx.
by rewrite !mulmxA.
Qed.
(* a unitary transformation of the last bond, as at the end of the two halves of _restore_CF_diag *)
Lemma ugauge_last (u : 'M[C]_D) b : u^† *m u = 1%:M ->
  ugauge (fun k => if k == L.-1 then u else 1%:M) b
   (Ust (gstep L L.-1 u^† u (uA b)) (setv (ul b) L.-1 (u^† *m (ul b L.-1 *m u))) (setv (ur b) L.-1 (u^† *m (ur b L.-1 *m u)))).
Proof.
move=> uu; have [uu' uu2] := mulmx1_unit uu; have ei : invmx u = u^† by rewrite -[RHS](mulmxK uu2) uu mul1mx.
move=> k kL; split.
- by case: eqP => // _; rewrite unitmx1.
- move=> s; rewrite /= /gstep prednK // modnn.
  have pl : (L.-1 < L)%N by rewrite prednK.
  have -> : (prv L k == L.-1) = (k == 0%N).
    by have := hit_prv L0 (pl) k; rewrite modn_small // => ->; rewrite prednK // modnn.
  by case: (eqVneq k 0%N); case: (eqVneq k L.-1); rewrite ?invmx1 ?mul1mx ?mulmx1 ?ei.
- by rewrite /= /setv; case: eqP => [->|_]; rewrite ?mulmxA // adj1 mul1mx mulmx1.
- by rewrite /= /setv; case: eqP => [->|_]; rewrite ?invmx1 ?ei ?adjK ?mulmxA // adj1 mul1mx mulmx1.
Qed.
End BulkP.

(* ---- the window ---- *)
Section SwP.
Variables (C : numClosedFieldType) (eigh : eigh_routine C) (chol : chol_routine C).
Hypotheses (eighP : eigh_contract eigh) (cholP : chol_contract chol).
Variables (N m LL LR qb : nat) (D q : nat -> nat).
Hypotheses (LL0 : (0 < LL)%N) (LR0 : (0 < LR)%N) (mN : (m < N)%N).
Local Notation bonds := (forall n, 'M[C]_(D n)).
Local Notation sw := (sw C N D).
Local Notation T := (fun n => ('M[C]_(D n) * 'M[C]_(D n))%type).
Local Notation S := (fun n => nat -> 'M[C]_(D n, D n.+1)).

(* s' is s with the gauge gl, g, gr and with site m scaled by a *)
Definition sgauge (a : C) (gl : nat -> 'M[C]_(D 0)) (g : bonds) (gr : nat -> 'M[C]_(D N)) (s s' : sw) :=
  [/\ ugauge LL gl (bL s) (bL s'), ugauge LR gr (bR s) (bR s'), forall n, (n <= N)%N -> g n \in unitmx,
      forall n t, (n < N)%N -> wA s' n t = (if n == m then a else 1) *: (invmx (g n) *m wA s n t *m g n.+1)
    & gl LL.-1 = g 0%N /\ gr LR.-1 = g N].
Lemma sgauge_trans a gl g gr a' gl' g' gr' s s' s'' : sgauge a gl g gr s s' -> sgauge a' gl' g' gr' s' s'' ->
  sgauge (a * a') (fun k => gl k *m gl' k) (fun n => g n *m g' n) (fun k => gr k *m gr' k) s s''.
Proof.
move=> [h1 h2 h3 h4 [h5 h6]] [k1 k2 k3 k4 [k5 k6]]; split.
- exact: ugauge_trans h1 k1.
- exact: ugauge_trans h2 k2.
- by move=> n nN; rewrite unitmx_mul h3 // k3.
- move=> n t nN; rewrite k4 // h4 // -scalemxAr -scalemxAl scalerA invmxM ?h3 ?k3 //; try by lia.
  by rewrite !mulmxA; congr (_ *: _); case: eqP; rewrite ?mul1r // mulrC.
- by rewrite h5 h6 k5 k6.
Qed.
Lemma sgauge_amp a gl g gr s s' n c : sgauge a gl g gr s s' -> (n + size c)%N = N ->
  amp (wA s') N n c = (if (n <= m)%N then a else 1) *: (invmx (g n) *m amp (wA s) N n c *m g N).
Proof.
move=> [_ _ h3 h4 _]; elim: c n => [|t c IH] n /=.
  rewrite addn0 => nN; rewrite nN pid_mx_1 mulmx1 leqNgt mN /= scale1r.
  by rewrite mulVmx // h3.
rewrite addnS -addSn => es; have nN : (n < N)%N by lia.
rewrite IH // h4 // -scalemxAr -scalemxAl scalerA -!mulmxA (mulmxA (g n.+1)) mulmxV ?h3 // mul1mx.
congr (_ *: _); case: (ltngtP n m) => h; rewrite ?mulr1 ?mul1r //.
Qed.

(* reduced density matrix of a stretch of the infinite chain made of nl sites of the left bulk (from its site k0 to the
   end of a cell), the window and nr sites of the right bulk *)
Definition stretch (s : sw) k0 nl nr (c : seq nat * seq nat * seq nat) : 'M[C]_(D 0, D N) :=
  psi (Uniform.wA LL (uA (bL s)) k0) nl c.1.1 *m psi (wA s) N c.1.2 *m psi (Uniform.wA LR (uA (bR s)) 0) nr c.2.
Definition sdens (s : sw) k0 nl nr c d : C :=
  \tr ((stretch s k0 nl nr c)^† *m (Uniform.wl LL (ul (bL s)) k0 0)^† *m stretch s k0 nl nr d *m Uniform.wr LR (ur (bR s)) 0 nr).
Definition sized nl nr (c : seq nat * seq nat * seq nat) := [/\ size c.1.1 = nl, size c.1.2 = N & size c.2 = nr].
Lemma sgauge_dens a gl g gr s s' k0 nl nr c d : sgauge a gl g gr s s' -> (LL %| k0 + nl)%N ->
  sized nl nr c -> sized nl nr d -> sdens s' k0 nl nr c d = `|a| ^+ 2 * sdens s k0 nl nr c d.
Proof.
move=> h dv sc sd; have [hl hr hu _ [e0 eN]] := h.
set x := gl (prv LL ((k0 + 0) %% LL)); set y := gr (prv LR ((0 + nr) %% LR)).
have ux : x \in unitmx by have [] := hl _ (prv_lt LL0 ((k0 + 0) %% LL)).
have uy : y \in unitmx by have [] := hr _ (prv_lt LR0 ((0 + nr) %% LR)).
have es e : sized nl nr e -> stretch s' k0 nl nr e = a *: (invmx x *m stretch s k0 nl nr e *m y).
  move=> [z1 z2 z3]; rewrite /stretch /psi (@ugauge_amp _ _ _ LL0 _ _ _ k0 nl 0 _ hl) ?add0n //.
  rewrite (sgauge_amp h) ?add0n // (@ugauge_amp _ _ _ LR0 _ _ _ 0 nr 0 _ hr) ?add0n // -/x.
  rewrite (eqP dv) mod0n !prv0 // e0 eN -scalemxAr -scalemxAl; congr (_ *: _).
  rewrite -!mulmxA (mulmxA (g 0%N)) mulmxV ?hu // mul1mx (mulmxA (g N)) mulmxV ?hu // mul1mx.
  by rewrite /y add0n !mulmxA.
rewrite /sdens !es // /Uniform.wl /Uniform.wr.
have [_ _ -> _] := hl _ (prv_lt LL0 ((k0 + 0) %% LL)); have [_ _ _ ->] := hr _ (prv_lt LR0 ((0 + nr) %% LR)).
rewrite -/x -/y adjZ -!scalemxAr -!scalemxAl !mxtraceZ.
rewrite mulrA normCK; congr (_ * _); rewrite !adjM adjK.
have x1 : (invmx x)^† *m x^† = 1%:M by rewrite -adjM mulmxV // adj1.
have y1 : (invmx y)^† *m y^† = 1%:M by rewrite -adjM mulmxV // adj1.
rewrite -!mulmxA mxtrace_mulC -!mulmxA y1 mulmx1 (mulmxA y) mulmxV // mul1mx.
by rewrite (mulmxA (invmx x)^†) x1 mul1mx (mulmxA x) mulmxV // mul1mx.
Qed.

(* _restore_CF_ONR on environments of full rank *)
Section Onr.
Variables (tol : C) (s : sw) (ll rr : bonds).
Hypothesis t0 : 0 <= tol.
Hypotheses (rrN : rr N = ur (bR s) LR.-1)
  (rrS : forall n, (n < N)%N -> rr n = eps_r_noop (q n) (rr n.+1) (wA s n) (wA s n)).
Hypotheses (ll0 : ll 0%N = ul (bL s) LL.-1)
  (llS : forall n, (n < m)%N -> ll n.+1 = eps_l_noop (q n) (ll n) (wA s n) (wA s n)).
Hypothesis hbR : forall k, (k < LR)%N -> herm (ur (bR s) k) /\ above tol (ur (bR s) k).
Hypothesis hbL : forall k, (k < LL)%N -> herm (ul (bL s) k) /\ above tol (ul (bL s) k).
Hypothesis hrr : forall n, (m < n <= N)%N -> above tol (rr n).
Hypothesis hll : forall n, (n <= m)%N -> above tol (ll n).
Lemma rr_herm n : (n <= N)%N -> herm (rr n).
Proof.
move=> nN; rewrite -(subKn nN); elim: (N - n)%N => [|i IH]; first by rewrite subn0 rrN; have [] := hbR (k := LR.-1); first by lia.
have [iN|iN] := leqP N i; first by have <- : (N - i = N - i.+1)%N by lia.
have e : ((N - i.+1).+1 = N - i)%N by lia.
rewrite rrS; last by lia.
by apply: eps_r_herm; rewrite e.
Qed.
Lemma ll_herm n : (n <= m)%N -> herm (ll n).
Proof.
elim: n => [|n IH] nN; first by rewrite ll0; have [] := hbL (k := LL.-1); first by lia.
by rewrite llS //; apply: eps_l_herm; apply: IH; lia.
Qed.
Lemma inv_of n (x xi : 'M[C]_n) : x *m xi = 1%:M -> xi = invmx x /\ x \in unitmx.
Proof. by move=> e; have [u _] := mulmx1_unit e; split=> //; rewrite -[LHS](mulKmx u) e mulmx1. Qed.
Lemma rcf_r_full Dl Dr qn (A : nat -> 'M[C]_(Dl, Dr)) (g M : 'M[C]_Dr) (M' : 'M[C]_Dl) :
  g *m g^† = M -> M' = eps_r_noop qn M A A -> herm M' -> above tol M' ->
  exists g', [/\ restore_RCF_r eigh chol qn tol A (1%:M, g) = Some ((1%:M, g'), fun t => invmx g' *m A t *m g),
                 g' \in unitmx & g' *m g'^† = M'].
Proof.
move=> eg eM hM ab; have [x [xi [e e1 e2 e3]]] := fac_full eighP cholP false t0 hM ab.
have [|ei u] := @inv_of _ x^† xi^†; first by rewrite -adjM e2 adj1.
by exists x^†; split=> //; rewrite ?adjK // /restore_RCF_r mul1mx eg -eM e /env_rank eqxx -ei.
Qed.
Lemma lcf_l_full Dl Dr qn (A : nat -> 'M[C]_(Dl, Dr)) (g M : 'M[C]_Dl) (M' : 'M[C]_Dr) :
  g^† *m g = M -> M' = eps_l_noop qn M A A -> herm M' -> above tol M' ->
  exists g', [/\ restore_LCF_l eigh chol qn tol A (1%:M, g) = Some ((1%:M, g'), fun t => g *m A t *m invmx g'),
                 g' \in unitmx & g'^† *m g' = M'].
Proof.
move=> eg eM hM ab; have [x [xi [e e1 e2 e3]]] := fac_full eighP cholP false t0 hM ab.
have [ei u] := inv_of e1.
by exists x; split=> //; rewrite /restore_LCF_l mul1mx eg -eM e /env_rank eqxx -ei.
Qed.
Lemma onr_rightP : exists s1 gR (g : bonds), onr_right eigh chol m LR q tol s = Some s1 /\
  [/\ ugauge LR gR (bR s) (bR s1) /\ (forall k, (k < LR)%N -> ur (bR s1) k = 1%:M), gR LR.-1 = g N,
      forall n, (m < n <= N)%N -> [/\ g n \in unitmx, g n *m (g n)^† = rr n & wr s1 n = 1%:M],
      [/\ forall j t, (m < j < N)%N -> wA s1 j t = invmx (g j) *m wA s j t *m g j.+1,
          forall t, wA s1 m t = wA s m t *m g m.+1 & forall j, (j < m)%N -> wA s1 j = wA s j]
    & [/\ wl s1 = wl s, bL s1 = bL s & rN1 s1 = 1%:M]].
Proof.
have hF k : (k < LR)%N -> exists x xi, [/\ rcf_fac eigh chol tol (ul (bR s) k) (ur (bR s) k) =
    Some (x, xi, x^† *m (ul (bR s) k *m x), 1%:M), x *m xi = 1%:M & x *m x^† = ur (bR s) k].
  move=> kL; have [hr ab] := hbR kL; have [x [xi [e h1 h2 h3]]] := fac_full eighP cholP true t0 hr ab.
  by exists x, xi; split=> //; rewrite /rcf_fac e /env_rank eqxx.
have [|b [G [Gi [eb h1 h2]]]] := @gloopP C LR (D N) LR0 (rcf_fac eigh chol tol) (bR s).
  by move=> k /hF[x [xi [-> _ _]]].
have hG k : (k < LR)%N -> [/\ G k \in unitmx, Gi k = invmx (G k), G k *m (G k)^† = ur (bR s) k,
    ul b k = (G k)^† *m ul (bR s) k *m G k & ur b k = 1%:M].
  move=> kL; have [x [xi [e e1 e2]]] := hF k kL; have := h1 k kL; rewrite e => -[<- <- <- <-].
  by have [-> u] := inv_of e1; split=> //; rewrite mulmxA.
have pR : (LR.-1 < LR)%N by rewrite prednK.
have ub : ugauge LR G (bR s) b.
  move=> k kL; have [u ei eg el er] := hG k kL; have [_ ei' _ _ _] := hG _ (prv_lt LR0 k); split=> //.
    by move=> t; rewrite h2 // ei'.
  by rewrite er -eg mulmxA mulVmx // mul1mx -adjM mulVmx // adj1.
pose P n (y : T n) := [/\ y.1 = 1%:M, y.2 \in unitmx & y.2 *m y.2^† = rr n].
pose Y : forall n, T n := upd (zip2 (wr s) (zero C D)) ((ur b LR.-1, G LR.-1) : T N).
have eN : (m.+1 + (N - m.+1) = N)%N by lia.
have YN : Y N = (ur b LR.-1, G LR.-1) by rewrite /Y upd_same.
have [||Y' [A' [es k1 k2 k3]]] := @sweepRP T S (fun j a y => restore_RCF_r eigh chol (q j) tol a y) P m.+1 (N - m.+1) Y (wA s).
- by rewrite eN YN /P /=; have [u _ eg _ er] := hG _ pR; rewrite er eg rrN.
- move=> j [r g] hj [/= -> ug eg].
  have [|||g' [e u1 u2]] := rcf_r_full (A := wA s j) eg (rrS (n := j) _); try by lia.
  + by apply: rr_herm; lia.
  + by apply: hrr; lia.
  by eexists; eexists; split; first by exact: e.
exists (Sw (upd A' ((fun t => A' m t *m (Y' m.+1).2) : S m)) (wl s) (fun n => (Y' n).1) (lN1 s) (Y' N).1 (bL s) b).
exists G, (fun n => (Y' n).2); split.
  by rewrite /onr_right /restore_RCF_g eb -/Y es.
have PN n : (m < n <= N)%N -> P n (Y' n) by move=> hn; apply: k1; lia.
have N1 : (m < N <= N)%N by lia.
split=> /=.
- by split=> // k /hG[].
- have [|-> _] := k3 N; first by lia.
  by rewrite YN.
- by move=> n /PN[].
- split.
  + move=> j t hj; have ne : m != j by lia.
    have hj' : (m.+1 <= j < m.+1 + (N - m.+1))%N by lia.
    rewrite upd_other //; have := k2 j hj'.
    have [|r1 ug eg] := PN j.+1 _; first by lia.
    case: (Y' j.+1) r1 ug eg => r g /= -> ug eg.
    have [|||g' [e u1 u2]] := rcf_r_full (A := wA s j) eg (rrS (n := j) _); try by lia.
      by apply: rr_herm; lia.
      by apply: hrr; lia.
    by move=> h; have := etrans (esym e) h => -[<- <-].
  + move=> t; rewrite upd_same; have [|_ ->] := k3 m; first by lia.
    by [].
  + move=> j hj; have ne : m != j by lia.
    by rewrite upd_other //; have [|_ ->] := k3 j; first by lia.
- by split=> //; have [] := PN N N1.
Qed.
Lemma onr_leftP : exists s1 gL (g : bonds), onr_left eigh chol m LL q tol s = Some s1 /\
  [/\ ugauge LL gL (bL s) (bL s1) /\ (forall k, (k < LL)%N -> ul (bL s1) k = 1%:M), gL LL.-1 = g 0%N,
      forall n, (n <= m)%N -> [/\ g n \in unitmx, (g n)^† *m ll n *m g n = 1%:M & wl s1 n = 1%:M],
      [/\ forall j t, (j < m)%N -> wA s1 j t = invmx (g j) *m wA s j t *m g j.+1,
          forall t, wA s1 m t = invmx (g m) *m wA s m t & forall j, (m < j)%N -> wA s1 j = wA s j]
    & [/\ wr s1 = wr s, bR s1 = bR s & rN1 s1 = rN1 s]].
Proof.
have hF k : (k < LL)%N -> exists x xi, [/\ lcf_fac eigh chol tol (ul (bL s) k) (ur (bL s) k) =
    Some (xi, x, 1%:M, x *m (ur (bL s) k *m x^†)), xi *m x = 1%:M & x^† *m x = ul (bL s) k].
  move=> kL; have [hr ab] := hbL kL; have [x [xi [e h1 h2 h3]]] := fac_full eighP cholP false t0 hr ab.
  by exists x, xi; split=> //; rewrite /lcf_fac e /env_rank eqxx.
have [|b [G [Gi [eb h1 h2]]]] := @gloopP C LL (D 0) LL0 (lcf_fac eigh chol tol) (bL s).
  by move=> k /hF[x [xi [-> _ _]]].
have hG k : (k < LL)%N -> [/\ G k \in unitmx, Gi k = invmx (G k), (Gi k)^† *m Gi k = ul (bL s) k,
    ul b k = 1%:M & ur b k = Gi k *m ur (bL s) k *m (Gi k)^†].
  move=> kL; have [x [xi [e e1 e2]]] := hF k kL; have := h1 k kL; rewrite e => -[<- <- <- <-].
  by have [<- u] := inv_of e1; split=> //; rewrite mulmxA.
have pR : (LL.-1 < LL)%N by rewrite prednK.
have ub : ugauge LL G (bL s) b.
  move=> k kL; have [u ei eg el er] := hG k kL; have [_ ei' _ _ _] := hG _ (prv_lt LL0 k); split=> //.
  - by move=> t; rewrite h2 // ei'.
  - by rewrite el -eg ei mulmxA -adjM mulVmx // adj1 mul1mx mulVmx.
  - by rewrite er ei.
pose P n (y : T n) := [/\ y.1 = 1%:M, y.2 \in unitmx & y.2^† *m y.2 = ll n].
pose Y : forall n, T n := upd (zip2 (wl s) (zero C D)) ((ul b LL.-1, Gi LL.-1) : T 0%N).
have Y0 : Y 0%N = (ul b LL.-1, Gi LL.-1) by rewrite /Y upd_same.
have [||Y' [A' [es k1 k2 k3]]] := @sweepLP T S (fun j a y => restore_LCF_l eigh chol (q j) tol a y) P 0 m Y (wA s).
- by rewrite Y0 /P /=; have [u e eg el _] := hG _ pR; rewrite el eg ll0 e unitmx_inv.
- move=> j [l g] hj [/= -> ug eg].
  have [|||g' [e u1 u2]] := lcf_l_full (A := wA s j) eg (llS (n := j) _); try by lia.
  + by apply: ll_herm; lia.
  + by apply: hll; lia.
  by eexists; eexists; split; first by exact: e.
exists (Sw (upd A' ((fun t => (Y' m).2 *m A' m t) : S m)) (fun n => (Y' n).1) (wr s) (lN1 s) (rN1 s) b (bR s)).
exists G, (fun n => invmx (Y' n).2); split.
  by rewrite /onr_left /restore_LCF_g eb -/Y es.
have PN n : (n <= m)%N -> P n (Y' n) by move=> hn; apply: k1; lia.
split=> /=.
- by split=> // k /hG[].
- have [/(_ isT) -> _] := k3 0%N.
  by rewrite Y0 /=; have [u -> _ _ _] := hG _ pR; rewrite invmxK.
- move=> n /PN[e1 u e2]; rewrite unitmx_inv; split=> //.
  by rewrite -e2 mulmxA -adjM mulmxV // adj1 mul1mx mulmxV.
- split.
  + move=> j t hj; have ne : m != j by lia.
    rewrite upd_other //; have := k2 j _; rewrite add0n => /(_ hj).
    have [|r1 ug eg] := PN j _; first by lia.
    rewrite invmxK; case: (Y' j) r1 ug eg => r g /= -> ug eg.
    have [|||g' [e u1 u2]] := lcf_l_full (A := wA s j) eg (llS (n := j) _); try by lia.
      by apply: ll_herm; lia.
      by apply: hll; lia.
    by move=> h; have := etrans (esym e) h => -[<- <-].
  + move=> t; rewrite upd_same; have [_ ->] := k3 m; last by lia.
    by rewrite invmxK.
  + move=> j hj; have ne : m != j by lia.
    by rewrite upd_other //; have [_ ->] := k3 j; last by lia.
- by [].
Qed.
End Onr.

(* _restore_CF_diag *)
Definition rdiag n (M : 'M[C]_n) := exists d : 'rV[C]_n, [/\ M = diag_mx d, forall i, d 0 i \is Num.real &
  forall i j : 'I_n, (i <= j)%N -> d 0 i <= d 0 j].
Lemma rdiag_herm n (M : 'M[C]_n) : rdiag M -> herm M.
Proof. by move=> [d [-> dr _]]; apply: diag_herm. Qed.
Lemma diag_r_step Dl Dr qn (A : nat -> 'M[C]_(Dl, Dr)) (r g : 'M[C]_Dr) : herm r ->
  exists r' g', [/\ diag_r eigh qn A (r, g) = Some ((r', g'), fun t => g'^† *m (A t *m g)), g'^† *m g' = 1%:M, rdiag r' &
    r' = eps_r_noop qn r (fun t => g'^† *m (A t *m g)) (fun t => g'^† *m (A t *m g))].
Proof.
move=> hr; rewrite /diag_r /Canon.restore_LCF_r /=; set M := eps_r_noop _ _ _ _.
have hM : herm M by apply: eps_r_herm; rewrite /herm !adjM hr adjK mulmxA.
have := eigh_split eighP hM; case: (eigh M) => ev EV /= [u1 u2 ed er es].
exists (diag_mx ev), EV; split=> //; first by exists ev.
rewrite ed /M /eps_r_noop mulmx_sumr mulmx_suml; apply: eq_bigr => t _.
by rewrite !adjM adjK !mulmxA.
Qed.
Lemma diag_l_step Dl Dr qn (A : nat -> 'M[C]_(Dl, Dr)) (l g : 'M[C]_Dl) : herm l ->
  exists l' g', [/\ diag_l eigh qn A (l, g) = Some ((l', g'^†), fun t => g *m (A t *m g')), g'^† *m g' = 1%:M, rdiag l' &
    l' = eps_l_noop qn l (fun t => g *m (A t *m g')) (fun t => g *m (A t *m g'))].
Proof.
move=> hr; rewrite /diag_l /Canon.restore_RCF_l /=; set M := eps_l_noop _ _ _ _.
have hM : herm M by apply: eps_l_herm; rewrite /herm !adjM hr adjK mulmxA.
have := eigh_split eighP hM; case: (eigh M) => ev EV /= [u1 u2 ed er es].
exists (diag_mx ev), EV; split=> //; first by exists ev.
rewrite ed /M /eps_l_noop mulmx_sumr mulmx_suml; apply: eq_bigr => t _.
by rewrite !adjM !mulmxA.
Qed.
Lemma unitary_inv n (u : 'M[C]_n) : u^† *m u = 1%:M -> u \in unitmx /\ invmx u = u^†.
Proof. by move=> uu; have [_ uu2] := mulmx1_unit uu; split=> //; rewrite -[RHS](mulmxK uu2) uu mul1mx. Qed.

Lemma diag_leftP (s : sw) : wr s m.+1 = 1%:M -> (forall k, (k < LL)%N -> ul (bL s) k = 1%:M) ->
  exists s1 gL (g : bonds), diag_left eigh m LL q s = Some s1 /\
  [/\ ugauge LL gL (bL s) (bL s1) /\ (forall k, (k < LL)%N -> ul (bL s1) k = 1%:M), gL LL.-1 = g 0%N,
      (forall n, (n <= m)%N -> (g n)^† *m g n = 1%:M /\ rdiag (wr s1 n)) /\ (forall n, (m < n)%N -> g n = 1%:M /\ wr s1 n = wr s n),
      (forall j t, (j <= m)%N -> wA s1 j t = invmx (g j) *m wA s j t *m g j.+1) /\
      (forall j, (j <= m)%N -> wr s1 j = eps_r_noop (q j) (wr s1 j.+1) (wA s1 j) (wA s1 j))
    & [/\ wl s1 = wl s, bR s1 = bR s, rN1 s1 = rN1 s & forall j, (m < j)%N -> wA s1 j = wA s j]].
Proof.
move=> r1 l1.
pose P n (y : T n) := [/\ y.2^† *m y.2 = 1%:M, (n == m.+1) -> y = (1%:M, 1%:M), (n <= m)%N -> rdiag y.1 & herm y.1].
pose Y : forall n, T n := upd (zip2 (wr s) (zero C D)) ((wr s m.+1, 1%:M) : T m.+1).
have h1 : herm (1%:M : 'M[C]_(D m.+1)) by exact: adj1.
have [||Y' [A' [es k1 k2 k3]]] := @sweepRP T S (fun j a y => diag_r eigh (q j) a y) P 0 m.+1 Y (wA s).
- by rewrite /P add0n /Y upd_same r1 /=; split=> //; [rewrite adj1 mul1mx|rewrite ltnn].
- move=> j [r g] hj [_ _ _ /= hr]; have [r' [g' [e e1 e2 e3]]] := diag_r_step (q j) (wA s j) g hr.
  eexists; eexists; split; first by exact: e.
  by split=> //=; [move=> /eqP ej; lia|exact: rdiag_herm].
have PN n : (n <= m.+1)%N -> P n (Y' n) by move=> hn; apply: k1; lia.
have [U0 _ _ _] := PN 0%N isT.
pose g : bonds := fun n => if (n <= m.+1)%N then (Y' n).2 else 1%:M.
pose b := bL s.
exists (Sw A' (wl s) (fun n => (Y' n).1) (lN1 s) (rN1 s)
       (Ust (gstep LL LL.-1 (Y' 0%N).2^† (Y' 0%N).2 (uA b)) (ul b) (setv (ur b) LL.-1 ((Y' 0%N).2^† *m (ur b LL.-1 *m (Y' 0%N).2^†^†)))) (bR s)).
exists (fun k => if k == LL.-1 then (Y' 0%N).2 else 1%:M), g; split; first by rewrite /diag_left -/Y es.
have step j : (j <= m)%N -> (forall t, A' j t = (Y' j).2^† *m (wA s j t *m (Y' j.+1).2)) /\ 
     (Y' j).1 = eps_r_noop (q j) (Y' j.+1).1 (A' j) (A' j).
  move=> jm; have jm' : (0 <= j < 0 + m.+1)%N by lia.
  have [_ _ _] := PN j.+1 jm; have := k2 j jm'; case: (Y' j.+1) => r gg /= e hr.
  have [r' [g' [e' e1 e2 e3]]] := diag_r_step (q j) (wA s j) gg hr.
  by have := etrans (esym e) e' => -[-> ->].
have eg n : (n <= m.+1)%N -> g n = (Y' n).2 by rewrite /g => ->.
split=> /=.
- split=> // k kL; have [v1 v2 v3 v4] := ugauge_last LL0 b U0 kL; split=> //=; last by rewrite adjK.
  by rewrite -v3 /= /setv; case: eqP => // ->; rewrite /b !l1 ?prednK // mul1mx U0.
- by rewrite eqxx eg.
- split=> n hn.
    have [|u _ rd _] := PN n; first by lia.
    by rewrite eg ?leqW //; split=> //; apply: rd.
  have [nm|nm] := ltnP m.+1 n.
    have ne : m.+1 != n by lia.
    have [|eY _] := k3 n; first by lia.
    by rewrite /g leqNgt nm /=; split=> //; rewrite eY /Y upd_other.
  have en : n = m.+1 by lia.
  by rewrite en eg //; have [_ /(_ (eqxx _)) -> _ _] := PN _ (leqnn m.+1); rewrite r1.
- split=> j; last by move=> jm; have [] := step j jm.
  move=> t jm; have [/(_ t) -> _] := step j jm; rewrite !eg //; last by lia.
  have [|u _ _ _] := PN j; first by lia.
  by have [_ ->] := unitary_inv u; rewrite mulmxA.
- by split=> // j hj; have [|_ ->] := k3 j; first by lia.
Qed.
Lemma diag_rightP (s : sw) : wl s m = 1%:M -> (forall k, (k < LR)%N -> ur (bR s) k = 1%:M) ->
  exists s1 gR (g : bonds), diag_right eigh m LR q s = Some s1 /\
  [/\ ugauge LR gR (bR s) (bR s1) /\ (forall k, (k < LR)%N -> ur (bR s1) k = 1%:M), gR LR.-1 = g N,
      (forall n, (m < n <= N)%N -> (g n)^† *m g n = 1%:M /\ rdiag (wl s1 n)) /\ (forall n, (n <= m)%N -> g n = 1%:M /\ wl s1 n = wl s n),
      (forall j t, (m <= j < N)%N -> wA s1 j t = invmx (g j) *m wA s j t *m g j.+1) /\
      (forall j, (m <= j < N)%N -> wl s1 j.+1 = eps_l_noop (q j) (wl s1 j) (wA s1 j) (wA s1 j))
    & [/\ wr s1 = wr s, bL s1 = bL s, rN1 s1 = rN1 s & forall j, (j < m)%N -> wA s1 j = wA s j]].
Proof.
move=> l1 r1.
pose P n (y : T n) := [/\ y.2 *m y.2^† = 1%:M, (n == m) -> y = (1%:M, 1%:M), (m < n)%N -> rdiag y.1 & herm y.1].
pose Y : forall n, T n := upd (zip2 (wl s) (zero C D)) ((wl s m, 1%:M) : T m).
have h1 : herm (1%:M : 'M[C]_(D m)) by exact: adj1.
have eN : (m + (N - m) = N)%N by lia.
have [||Y' [A' [es k1 k2 k3]]] := @sweepLP T S (fun j a y => diag_l eigh (q j) a y) P m (N - m) Y (wA s).
- by rewrite /P /Y upd_same l1 /=; split=> //; [rewrite adj1 mul1mx|rewrite ltnn].
- move=> j [l g] hj [_ _ _ /= hr]; have [l' [g' [e e1 e2 e3]]] := diag_l_step (q j) (wA s j) g hr.
  eexists; eexists; split; first by exact: e.
  by split=> //=; [rewrite adjK|move=> /eqP ej; lia|exact: rdiag_herm].
have PN n : (m <= n <= N)%N -> P n (Y' n) by move=> hn; apply: k1; lia.
have U0 : (Y' N).2^†^† *m (Y' N).2^† = 1%:M by rewrite adjK; have [] := PN N; first by lia.
pose g : bonds := fun n => if (m <= n)%N then (Y' n).2^† else 1%:M.
pose b := bR s.
exists (Sw A' (fun n => (Y' n).1) (wr s) (lN1 s) (rN1 s) (bL s)
       (Ust (gstep LR LR.-1 (Y' N).2 (Y' N).2^† (uA b)) (setv (ul b) LR.-1 ((Y' N).2^†^† *m (ul b LR.-1 *m (Y' N).2^†))) (ur b))).
exists (fun k => if k == LR.-1 then (Y' N).2^† else 1%:M), g; split; first by rewrite /diag_right -/Y es.
have step j : (m <= j < N)%N -> (forall t, A' j t = (Y' j).2 *m (wA s j t *m (Y' j.+1).2^†)) /\ 
     (Y' j.+1).1 = eps_l_noop (q j) (Y' j).1 (A' j) (A' j).
  move=> jm; have jm' : (m <= j < m + (N - m))%N by lia.
  have [|_ _ _] := PN j; first by lia.
  have := k2 j jm'; case: (Y' j) => l gg /= e hr.
  have [l' [g' [e' e1 e2 e3]]] := diag_l_step (q j) (wA s j) gg hr.
  have := etrans (esym e) e' => -[-> ->]; split=> //= t; by rewrite adjK.
have eg n : (m <= n)%N -> g n = (Y' n).2^† by rewrite /g => ->.
split=> /=.
- split=> // k kL; have [v1 v2 v3 v4] := ugauge_last LR0 b U0 kL; split=> //=.
    by move=> t; rewrite -v2 /= adjK.
  by rewrite -v4 /= /setv; case: eqP => // ->; rewrite /b !r1 ?prednK // mul1mx U0.
- by rewrite eqxx eg // ltnW.
- split=> n hn.
    have [|u _ rd _] := PN n; first by lia.
    by rewrite eg ?adjK; [split=> //; apply: rd; case/andP: hn|lia].
  have [nm|nm] := ltnP n m.
    have ne : m != n by lia.
    have [/(_ _)eY _] := k3 n; rewrite eY; last by lia.
    by rewrite /g leqNgt nm /=; split=> //; rewrite /Y upd_other.
  have en : n = m by lia.
  have [|_ /(_ (eqxx _)) e1 _ _] := PN m; first by lia.
  by rewrite en eg // e1 /= adj1 l1.
- split=> j; last by move=> jm; have [] := step j jm.
  move=> t jm; have [/(_ t) -> _] := step j jm; rewrite !eg //; try by lia.
  have [|u _ _ _] := PN j; first by lia.
  have [|_ ->] := @unitary_inv _ (Y' j).2^†; first by rewrite adjK.
  by rewrite adjK mulmxA.
- by split=> // j hj; have [_ ->] := k3 j; last by lia.
Qed.
End SwP.
