(* P18_Sandwich.v -- C48: the site accessors of the sandwich class describe one infinite chain;
   C49: growing the window does not change it. *)
From mathcomp Require Import all_ssreflect all_algebra.
From mathcomp Require Import zify.
From Verif Require Import Base Spec Eps Sandwich.
Set Implicit Arguments.
Unset Strict Implicit.
Unset Printing Implicit Defensive.
Import Order.TTheory GRing.Theory Num.Theory.
Local Open Scope ring_scope.

(* ---- arrays of varying shape: a shape mismatch (ValueError in dot) is the value None -------------------------- *)
Section Dyn.
Variable C : numClosedFieldType.
Definition dmx := {d : nat & 'M[C]_d}.
Definition env := option dmx.
Definition dten := {dd : nat * nat & (nat * (nat -> 'M[C]_(dd.1, dd.2)))%type}.
Definition cst d d' (x : 'M[C]_d) : option 'M[C]_d' :=
  match eqVneq d d' with EqNotNeq e => Some (castmx (e, e) x) | _ => None end.
(* eps_l_noop(x, A, A) and eps_r_noop(x, A, A) (core_common.py:82-207) *)
Definition depsl (x : env) (A : dten) : env :=
  if x is Some (existT d x) then
    if cst (projT1 A).1 x is Some y then Some (existT _ (projT1 A).2 (eps_l_noop (projT2 A).1 y (projT2 A).2 (projT2 A).2)) else None
  else None.
Definition depsr (x : env) (A : dten) : env :=
  if x is Some (existT d x) then
    if cst (projT1 A).2 x is Some y then Some (existT _ (projT1 A).1 (eps_r_noop (projT2 A).1 y (projT2 A).2 (projT2 A).2)) else None
  else None.
(* adot(l, r) *)
Definition ddot (x y : env) : C := match x, y with
  | Some (existT d x), Some (existT d' y) => if cst d' x is Some x' then adot x' y else 0
  | _, _ => 0 end.
Definition dvsc (a : C) (x : env) : env := if x is Some (existT d x) then Some (existT _ d (a *: x)) else None.
Definition dtsc (a : C) (A : dten) : dten := existT _ (projT1 A) ((projT2 A).1, fun s => a *: (projT2 A).2 s).
Lemma cst_id d (x : 'M[C]_d) : cst d x = Some x.
Proof. by rewrite /cst; case: eqVneq => [e|/eqP//]; rewrite castmx_id. Qed.
Lemma cst_ne d d' (x : 'M[C]_d) : d != d' -> cst d' x = None.
Proof. by rewrite /cst; case: eqVneq => // -> /eqP. Qed.
Lemma dyn_laws : laws depsl depsr ddot dvsc dtsc.
Proof.
split.
- move=> [[d x]|//] [[d' y]|] [[d1 d2] [q A]] /=; last by case: (cst d1 x).
  case: (eqVneq d d1) => [e1|n1]; last first.
    rewrite cst_ne //=; case: (cst d2 y) => [y'|//] /=; by rewrite cst_ne.
  case: d1 / e1 A => A /=; rewrite (@cst_id d x) /=.
  case: (eqVneq d' d2) => [e2|n2]; last by rewrite !cst_ne // eq_sym.
  case: d2 / e2 A => A; rewrite /= in A *; rewrite (@cst_id d' (eps_l_noop q x A A)) (@cst_id d' y) /= (@cst_id d x); exact: eps_adjoint.
- move=> c [[d x]|//] [[d1 d2] [q A]] /=; case: (cst d2 x) => [y|//] /=.
  congr (Some (existT _ _ _)); rewrite /eps_r_noop scaler_sumr; apply: eq_bigr => s _.
  by rewrite adjZ -!scalemxAl -scalemxAr scalerA.
- move=> a [[d x]|] [[d' y]|] //=; rewrite ?mulr0 //.
  by case: (cst d' x) => [x'|]; rewrite ?mulr0 // adotZr.
Qed.
End Dyn.

Section C48.
Variables (T V : Type) (epsl epsr : V -> T -> V).
Notation sw := (sw T V).
Notation bulk := (bulk T V).
(* at site n the accessors satisfy the recursions of one infinite chain *)
Definition l_at (s : sw) n := get_l epsl s n = epsl (get_l epsl s (n - 1)) (get_A s n).
Definition r_at (s : sw) n := get_r epsr s (n - 1) = epsr (get_r epsr s n) (get_A s n).
Definition bulks_ok (s : sw) := bulk_ok epsl epsr (uL s) /\ bulk_ok epsl epsr (uR s).

(* after update() the recursions hold at every site left of and inside the window, whatever the unit cells *)
Theorem C48_left (s : sw) (s' := update_lr epsl epsr s) : bulks_ok s ->
  (forall n, n <= (sN s).+1%:Z -> l_at s' n) /\ (forall n, n <= (sN s)%:Z -> r_at s' n).
Proof.
move=> [okL okR]; have ok := update_lr_ok epsl epsr s.
by split=> n hn; [apply: (@get_lE_left _ _ _ epsr) | apply: (@get_rE_left _ _ epsl)].
Qed.
(* and at every site of the infinite chain when the window is a multiple of the right unit cell and r[N + 1] is right *)
Theorem C48_all (s : sw) (s' := update_lr epsl epsr s) : bulks_ok s -> (bL (uR s) %| sN s)%N ->
  (forall n, l_at s' n) /\ (sr s (sN s).+1 = br (uR s) 0%N -> forall n, r_at s' n).
Proof.
move=> ok dv; have [hl hr] := C48_left ok; have [okL okR] := ok; have ok' := update_lr_ok epsl epsr s.
split=> [n|e n].
  case: (lerP n (sN s).+1%:Z) => h; first exact: hl.
  by apply: (@get_lE_right _ _ _ epsr).
case: (lerP n (sN s)%:Z) => h; first exact: hr.
by apply: (@get_rE_right _ _ epsl) => //; rewrite [LHS]update_lr_r.
Qed.
(* single-site unit cell on the right: r[N + 1] = r[N], as left behind by grow_left and grow_right, is right *)
Theorem C48_grown_single_site z m (s : sw) (s' := update_lr epsl epsr (grow_left z m s)) : bulks_ok s -> bL (uR s) = 1%N ->
  sr s (sN s) = br (uR s) 0%N -> (forall n, l_at s' n) /\ forall n, r_at s' n.
Proof.
move=> ok R1 e; have [|hl hr] := @C48_all (grow_left z m s) ok.
  by rewrite /= R1 dvd1n.
by split=> //; apply: hr => /=; rewrite /setn eqxx.
Qed.
(* a fresh object with one bulk, already before update() *)
Theorem C48_init N (g : bulk) (s := sw_init N g None) : bulk_ok epsl epsr g -> (bL g %| N)%N ->
  (forall n, l_at s n) /\ forall n, r_at s n.
Proof.
move=> ok dv; have [ok' e] := init_lr_ok ok dv.
split=> n.
  case: (lerP n N.+1%:Z) => h; first by apply: (@get_lE_left _ _ _ epsr).
  by apply: (@get_lE_right _ _ _ epsr).
case: (lerP n N%:Z) => h; first by apply: (@get_rE_left _ _ epsl).
by apply: (@get_rE_right _ _ epsl).
Qed.
(* get_r(n, r_np1 = r(n+1)) agrees with get_r(n) to the left of the window *)
Theorem C48_r_np1 (s : sw) n : n < 0 -> get_r_np1 epsr s n (get_r epsr s (n + 1)) = get_r epsr s n.
Proof.
move=> h; rewrite /get_r_np1 !get_r_l; [|lia|lia].
have -> : (absz n = absz (n + 1)%R + 1)%N by lia.
by rewrite iotaD foldl_cat /= add0n; congr (epsr _ (bA _ (midx _ _))); lia.
Qed.

(* ---- the norm ------------------------------------------------------------------------------------------------- *)
Variables (C : numClosedFieldType) (dot : V -> V -> C) (vsc : C -> V -> V) (tsc : C -> T -> T).
Hypothesis lw : laws epsl epsr dot vsc tsc.
Definition norm_at (s : sw) n := dot (get_l epsl s n) (get_r epsr s n).
Theorem C48_norm_const (s : sw) (s' := update_lr epsl epsr s) n n' : bulks_ok s -> 
  n <= (sN s)%:Z /\ n' <= (sN s)%:Z \/ (bL (uR s) %| sN s)%N /\ sr s (sN s).+1 = br (uR s) 0%N ->
  norm_at s' n = norm_at s' n'.
Proof.
move=> [okL okR] [[h h']|[dv e]]; have ok' := update_lr_ok epsl epsr s.
  exact: (dot_const lw).
by apply: (dot_const_all lw) => //; rewrite [LHS]update_lr_r.
Qed.
(* update(restore_CF=False): the recursions hold afterwards, only the centre tensor is rescaled and the norm is one *)
Theorem C48_update_norm tol (s : sw) : bulks_ok s -> (0 < sNc s <= sN s)%N ->
  0 < norm_at (update_lr epsl epsr s) 0 -> tol < `|1 - norm_at (update_lr epsl epsr s) 0| ->
  exists2 s', update_norm epsl epsr dot tsc tol s = Some s' &
  [/\ forall n, n <= (sN s)%:Z -> l_at s' n /\ r_at s' n, forall n, n <= (sN s)%:Z -> norm_at s' n = 1,
      forall n, n != (sNc s)%:Z -> get_A s' n = get_A s n &
      exists2 a : C, 0 < a & get_A s' (sNc s)%:Z = tsc a (get_A s (sNc s)%:Z)].
Proof.
move=> [okL okR] hc n0 nt.
case e: (update_norm epsl epsr dot tsc tol s) => [s'|]; last by move: e; rewrite /update_norm; case: (sNc s) hc.
exists s' => //; have [ok [eL eR eN] hA hn] := update_normP lw hc e.
have g0 s0 : (0 < bL (uL s0))%N -> lr_ok epsl epsr s0 -> get_l epsl s0 0 = sl s0 0%N.
  by move=> L0 [-> _ _ _ _]; rewrite get_l_l // sub0r midxN1.
have L0 : (0 < bL (uL s))%N by case: okL.
have hn0 : norm_at (update_lr epsl epsr s) 0 = dot (sl (update_lr epsl epsr s) 0%N) (sr (update_lr epsl epsr s) 0%N).
  by rewrite /norm_at g0 ?get_r_w //; apply: update_lr_ok.
move: hn; rewrite -hn0 => /(_ n0); rewrite nt => -[hAc hnorm].
have okL' : bulk_ok epsl epsr (uL s') by rewrite eL.
have okR' : bulk_ok epsl epsr (uR s') by rewrite eR.
split.
- move=> n h; split; first by apply: (@get_lE_left _ _ _ epsr) => //; rewrite eN; lia.
  by apply: (@get_rE_left _ _ epsl) => //; rewrite eN.
- move=> n h; rewrite /norm_at (@dot_const _ _ _ _ _ _ _ _ lw s' n 0) ?eN //.
  by rewrite -[RHS]hnorm g0 ?get_r_w // eL.
- move=> n h; rewrite /get_A eL eR eN; case: ifP => // h1; case: ifP => // h2; apply: hA; lia.
- exists (1 / sqrtC (norm_at (update_lr epsl epsr s) 0)).
    by apply: divr_gt0; rewrite ?ltr01 ?sqrtC_gt0.
  by rewrite !get_A_w ?eN; [exact: hAc | lia | lia | lia | lia].
Qed.
End C48.

(* ---- shapes ----------------------------------------------------------------------------------------------------- *)
Section Shapes.
Variable C : numClosedFieldType.
Notation sw := (sw (dten C) (env C)).
Definition shape (A : dten C) : nat * nat * nat := ((projT2 A).1, (projT1 A).1, (projT1 A).2).
Definition bulk_shape (b : bulk (dten C) (env C)) := forall k, (k < bL b)%N -> shape (bA b k) = (bq b, bD b, bD b).
Definition win_shape (s : sw) := [/\ forall n, (0 < n <= sN s)%N -> shape (sA s n) = (sq s n, sD s n.-1, sD s n),
  sD s 0%N = bD (uL s), sD s (sN s) = bD (uR s) & (0 < bL (uL s))%N && (0 < bL (uR s))%N].
(* get_A(n) is a get_q(n) x get_D(n - 1) x get_D(n) tensor at every site of the chain *)
Theorem C48_shapes (s : sw) n : bulk_shape (uL s) -> bulk_shape (uR s) -> win_shape s ->
  shape (get_A s n) = (get_q s n, get_D s (n - 1), get_D s n).
Proof.
move=> bl br [hw D0 DN /andP[L0 R0]]; rewrite /get_A /get_q /get_D.
case: (ltrP n 1) => h1.
  rewrite bl ?midx_lt // ifT; last by lia.
  case: (ltrP n 0) => h2 //; have -> : n = 0 by lia.
  by rewrite (_ : ((sN s)%:Z < 0) = false) ?D0 //; lia.
case: (ltrP (sN s)%:Z n) => h2; last first.
  rewrite hw; last by lia.
  rewrite !ifN; [|lia|lia|lia]; congr (_, sD s _, _); lia.
rewrite br ?midx_lt // ifN; last by lia.
case: (ltrP (sN s)%:Z (n - 1)) => h3; first by rewrite ifN //; lia.
by rewrite (_ : absz (n - 1) = sN s) ?DN ?ifN //; lia.
Qed.
End Shapes.

Section C49.
Variables (T V : Type) (epsl epsr : V -> T -> V).
Notation sw := (sw T V).
Notation bulks_ok := (@bulks_ok T V epsl epsr).
(* grow_left(m): the same chain, relabelled by m * L *)
Theorem C49_grow_left z m (s : sw) (s' := grow_left z m s) (M := (m * bL (uL s))%:Z) : bulks_ok s ->
  [/\ forall n, get_A s' (n + M) = get_A s n, forall n, get_D s' (n + M) = get_D s n,
      sq s 0%N = bq (uL s) -> forall n, get_q s' (n + M) = get_q s n &
      (sN s')%:Z = (sN s)%:Z + M /\ (sgl s')%:Z = (sgl s)%:Z + M].
Proof.
move=> [[L0 _] _]; split.
- by move=> n; apply: grow_leftA.
- move=> n; rewrite /get_D /s' /grow_left /=; case: (ltrP n 0) => h0.
    case: (ltrP (n + M) 0) => h1 //; rewrite ifN /M; last by lia.
    by rewrite ifT //; lia.
  rewrite ifN; last by lia.
  have -> : (((sN s + m * bL (uL s))%N%:Z < n + M) = ((sN s)%:Z < n))%R by rewrite /M; lia.
  case: ifP => // h1; rewrite ifN; last by rewrite /M; lia.
  by congr (sD s _); rewrite /M; lia.
- move=> q0 n; rewrite /get_q /s' /grow_left /=; case: (ltrP n 1) => h0.
    case: (ltrP (n + M) 1) => h1 //; rewrite ifN; last by rewrite /M in h1 *; lia.
    case: ifP => // h2; rewrite -q0; congr (sq s _); rewrite /M in h1 h2 *; lia.
  rewrite ifN; last by lia.
  have -> : (((sN s + m * bL (uL s))%N%:Z < n + M) = ((sN s)%:Z < n))%R by rewrite /M; lia.
  case: ifP => // h1; rewrite ifN; last by rewrite /M; lia.
  by congr (sq s _); rewrite /M; lia.
- by rewrite /s' /= !PoszD.
Qed.
(* with the environments, once they have been recomputed *)
Theorem C49_grow_left_lr z m (s0 : sw) (s := update_lr epsl epsr s0) (s' := update_lr epsl epsr (grow_left z m s))
    (M := (m * bL (uL s))%:Z) : bulks_ok s0 ->
  (forall n, n <= (sN s).+1%:Z -> get_l epsl s' (n + M) = get_l epsl s n) /\ (forall n, n <= (sN s)%:Z -> get_r epsr s' (n + M) = get_r epsr s n).
Proof.
move=> [okL okR]; have ok := update_lr_ok epsl epsr s0.
by split=> n hn; [apply: (@grow_left_l _ _ epsl epsr) | apply: (@grow_left_r _ _ epsl epsr)].
Qed.
(* grow_right(m), m > 0: the same chain with the same labels; get_D(N + 1) and get_q(N + 1) now read the stored lists *)
Theorem C49_grow_right z m (s : sw) : bulks_ok s -> (0 < m)%N ->
  exists2 s', grow_right z m s = Some s' &
  [/\ forall n, get_A s' n = get_A s n, sD s (sN s).+1 = bD (uR s) -> forall n, get_D s' n = get_D s n,
      sq s (sN s).+1 = bq (uR s) -> forall n, get_q s' n = get_q s n &
      sN s' = (sN s + m * bL (uR s))%N /\ sgr s' = (sgr s + m * bL (uR s))%N].
Proof.
move=> [_ [R0 _]] m0; have M0 : (m * bL (uR s) == 0)%N = false by rewrite muln_eq0 !eqn0Ngt m0 R0.
case e: (grow_right z m s) => [s'|]; last by move: e; rewrite /grow_right M0.
exists s' => //; have eA n := grow_rightA n R0 e.
move: e; rewrite /grow_right M0 => -[es]; split=> //; try by rewrite -es.
- move=> D1 n; rewrite -es /get_D /=; case: (ltrP n 0) => h0 //.
  case: (ltrP (sN s)%:Z n) => h1; last by rewrite ifN ?ifT //; lia.
  case: ifP => // h2; case: ifP => // h3; rewrite -D1; congr (sD s _); lia.
- move=> D1 n; rewrite -es /get_q /=; case: (ltrP n 1) => h0 //.
  case: (ltrP (sN s)%:Z n) => h1; last by rewrite ifN ?ifT //; lia.
  case: ifP => // h2; case: ifP => // h3; rewrite -D1; congr (sq s _); lia.
Qed.
Theorem C49_grow_right_lr z m (s0 : sw) (s := update_lr epsl epsr s0) s' : bulks_ok s0 -> grow_right z m s = Some s' ->
  (forall n, n <= (sN s).+1%:Z -> get_l epsl (update_lr epsl epsr s') n = get_l epsl s n) /\
  (forall n, n <= (sN s)%:Z -> get_r epsr (update_lr epsl epsr s') n = get_r epsr s n).
Proof.
move=> [okL okR] e; have ok := update_lr_ok epsl epsr s0.
by split=> n hn; [apply: (@grow_right_l _ _ epsl epsr _ _ _ _ _ _ _ _ e) | apply: (@grow_right_r _ _ epsl epsr _ _ _ _ _ _ _ _ e)].
Qed.
(* grow_right(0) raises for every state *)
Theorem C49_grow_right_zero_refuted z (s : sw) : grow_right z 0 s = None.
Proof. by []. Qed.

(* TDVP class: the centre site follows the tensor it was on exactly when the left unit cell has one site (or m = 0) *)
Theorem C49_centre z m (s : sw) (s' := tdvp_grow_left z m s) :
  ((sNc s')%:Z == (sNc s)%:Z + (m * bL (uL s))%:Z) = (m == 0%N) || (bL (uL s) == 1%N).
Proof.
rewrite /s' /= -PoszD eqz_nat eqn_add2l.
case: m {s'} => [|m]; first by rewrite mul0n eqxx.
by rewrite -{1}[m.+1]muln1 eqn_pmul2l // eq_sym.
Qed.

(* ---- Hamiltonian terms (two-site; list of N + 1 terms) --------------------------------------------------------- *)
Variables (X : Type) (hl hr : X).
(* the terms of the infinite chain: bulk terms left and right of the list *)
Definition chain_ham (h : seq X) (n : int) : option X :=
  if n < 0 then Some hl else if n < (size h)%:Z then pyidx h n else Some hr.
Theorem C49_ham_left m L h n : chain_ham (ham_grow_left hl m L h) (n + (m * L)%:Z) = chain_ham h n.
Proof.
rewrite /chain_ham /ham_grow_left size_cat size_nseq; set M := (m * L)%N.
have -> : (n + M%:Z < (M + size h)%N%:Z) = (n < (size h)%:Z) by lia.
case: (ltrP n 0) => h0.
  case: ifP => // h1; rewrite ifT; last by lia.
  rewrite /pyidx ifT; last by lia.
  have hM : (absz (n + M%:Z)%R < M)%N by lia.
  rewrite drop_cat size_nseq hM.
  have -> (k K : nat) (y : seq X) : (k < K)%N -> ohead (drop k (nseq K hl) ++ y) = Some hl.
    by elim: K k => [//|K IH] [|k] //= /IH.
  by [].
  exact: hM.
rewrite ifN; last by lia.
case: ifP => // h1; rewrite /pyidx ifT; last by lia.
rewrite ifT // drop_cat size_nseq ifN; last by lia.
by congr (ohead (drop _ _)); lia.
Qed.
Theorem C49_ham_right m L h n : chain_ham (ham_grow_right hr m L h) n = chain_ham h n.
Proof.
rewrite /chain_ham /ham_grow_right size_cat size_nseq; set M := (m * L)%N.
case: (ltrP n 0) => h0 //.
case: (ltrP n (size h)%:Z) => h1.
  rewrite ifT; last by lia.
  rewrite /pyidx h0 drop_cat ifT; last by lia.
  by case e: (drop _ h) => [|x y] //; move/(congr1 size): e; rewrite size_drop /=; lia.
case: ifP => // h2; rewrite /pyidx h0 drop_cat ifN; last by lia.
set k := (absz n - size h)%N; have hk : (k < M)%N by rewrite /k; lia.
elim: M k hk {h2} => [//|M IH] [|k] //=; exact: IH.
Qed.
(* three-site Hamiltonian: calc_C starts at n = -1, where self.ham[-1] is the LAST term of the list *)
Theorem C49_ham3_refuted (h : seq X) (x : X) : pyidx (rcons h x) (-1) = Some x.
Proof. by rewrite /pyidx /= size_rcons /= subn1 /= -cats1 drop_size_cat. Qed.
End C49.

(* ---- concrete chains: one-dimensional bonds ------------------------------------------------------------------- *)
Section Concrete.
Variable C : numClosedFieldType.
Definition T1 := nat -> 'M[C]_1.
Definition V1 := 'M[C]_1.
Definition el (x : V1) (A : T1) : V1 := eps_l_noop 1 x A A.
Definition er (x : V1) (A : T1) : V1 := eps_r_noop 1 x A A.
Definition cten (a : C) : T1 := fun=> a%:M.
Lemma elE (x a : C) : el x%:M (cten a) = (x * (a * a^*))%:M.
Proof. by rewrite /el /eps_l_noop big_ord1 /cten adj_scalar -!scalar_mxM mulrCA [a^* * _]mulrC. Qed.
Lemma erE (x a : C) : er x%:M (cten a) = (x * (a * a^*))%:M.
Proof. by rewrite /er /eps_r_noop big_ord1 /cten adj_scalar -!scalar_mxM -mulrA mulrCA. Qed.
(* unit cell of two sites: A = 2, 1/2; l = 4, 1; r = 1, 4 *)
Definition b2 : bulk T1 V1 := Bulk 2 1 1 (fun k => cten (if k is 0%N then 2%:R else 2%:R^-1))
  (fun k => (if k is 0%N then 4%:R else 1)%:M) (fun k => (if k is 0%N then 1 else 4%:R)%:M).
Lemma b2_ok : bulk_ok el er b2.
Proof.
have e4 : (2%:R * 2%:R^* : C) = 4%:R by rewrite conjC_nat -natrM.
have e4' : (2%:R^-1 * 2%:R^-1^* : C) = 4%:R^-1 by rewrite fmorphV conjC_nat -invfM -natrM.
split=> // -[|[|//]] _; rewrite /= ?elE ?erE ?e4 ?e4' ?mul1r ?mulr1.
all: rewrite ?divff ?pnatr_eq0 //.
Qed.
Example example_chain n : @l_at T1 V1 el (sw_init 4 b2 None) n /\ @r_at T1 V1 er (sw_init 4 b2 None) n.
Proof. by have [h1 h2] := C48_init b2_ok (isT : (bL b2 %| 4)%N). Qed.
Lemma sc_neq (a b : nat) : a != b -> (a%:R : C)%:M <> b%:R%:M :> V1.
Proof. by move=> ab /matrixP/(_ 0 0); rewrite !mxE eqxx !mulr1n => /eqP; rewrite eqr_nat (negPf ab). Qed.
(* the window is not a multiple of the unit cell: get_A(3) is uni_r.A[(3 - N - 1) % 2], but get_l(3) uses
   uni_r.A[(3 - 1) % 2], for all environments recomputed by update() *)
Theorem C48_offset_refuted (s := update_lr el er (sw_init 1 b2 None)) : ~ @l_at T1 V1 el s 3.
Proof.
have e4 : (2%:R * 2%:R^* : C) = 4%:R by rewrite conjC_nat -natrM.
have e4' : (2%:R^-1 * 2%:R^-1^* : C) = 4%:R^-1 by rewrite fmorphV conjC_nat -invfM -natrM.
have eq : sl s 2 = (16%:R : C)%:M.
  by rewrite /s /= /setn /= !elE e4 mul1r -natrM.
rewrite /l_at get_l_r // get_l_w // (get_A_r (s := s)) //.
have -> : sl s (absz (3 - 1 : int)) = sl s 2 by [].
rewrite eq /= /midx !(elE, e4, e4').
rewrite -[16%:R]/((4 * 4)%:R) {2}natrM mulfK ?pnatr_eq0 // -natrM.
exact: sc_neq.
Qed.
(* after growing, r[N + 1] = r[N] is wrong for a two-site unit cell *)
Theorem C48_rN1_refuted z m (s := update_lr el er (grow_left z m (sw_init 2 b2 None))) :
  ~ @r_at T1 V1 er s (sN s).+1%:Z.
Proof.
have e4 : (2%:R * 2%:R^* : C) = 4%:R by rewrite conjC_nat -natrM.
rewrite /r_at (_ : (sN s).+1%:Z - 1 = (sN s)%:Z); last by lia.
rewrite !get_r_w; [|lia|lia|lia|lia].
have ok := update_lr_ok el er (grow_left z m (sw_init 2 b2 None)).
have [_ hN _ _ _] := ok; rewrite -/s in hN.
have hN1 : sr s (sN s).+1 = sr (grow_left z m (sw_init 2 b2 None)) (sN s).+1 by rewrite [LHS]update_lr_r.
rewrite [absz (sN s)%:Z]/= [absz (sN s).+1%:Z]/= hN hN1 (get_A_r (s := s)); last by lia.
rewrite (_ : (sN s).+1%:Z - (sN s)%:Z - 1 = 0) ?midx0; last by lia.
rewrite /s /= /setn eqxx /midx /= erE e4 -natrM; exact: sc_neq.
Qed.
(* __init__ with another bulk on the right fills r[N + 1] from the left bulk, and update() does not repair it *)
Definition b1 (x : C) : bulk T1 V1 := Bulk 1 1 1 (fun=> cten 1) (fun=> 1%:M) (fun=> x%:M).
Lemma b1_ok x : bulk_ok el er (b1 x).
Proof. by split=> // -[|//] _ /=; rewrite elE erE conjC1 !mulr1. Qed.
Theorem C48_uni_right_refuted (s := update_lr el er (sw_init 2 (b1 1) (Some (b1 2%:R)))) :
  @bulks_ok T1 V1 el er s /\ ~ @r_at T1 V1 er s 3.
Proof.
split; first by split; apply: b1_ok.
rewrite /r_at !get_r_w //.
have -> : sr s (absz (3 : int)) = 1%:M by [].
have -> : sr s (absz (3 - 1 : int)) = 2%:R%:M by [].
by rewrite (get_A_r (s := s)) //= erE conjC1 !mulr1 => h; apply: (@sc_neq 2 1) => //; rewrite h.
Qed.
(* a one-site window: N_centre = N // 2 = 0 and update(restore_CF=False) fails *)
Theorem C48_one_site_window_refuted (dot : V1 -> V1 -> C) (tsc : C -> T1 -> T1) tol g right : update_norm el er dot tsc tol (sw_init 1 g right) = None :> option (sw T1 V1).
Proof. by []. Qed.
(* the TDVP class moves the centre to another tensor when the unit cell has two sites *)
Theorem C49_centre_refuted z (s := sw_init 4 b2 None) (s' := tdvp_grow_left z 1 s) :
  (forall n, get_A s' (n + 2) = get_A s n) /\ get_A s' (sNc s')%:Z <> get_A s (sNc s)%:Z.
Proof.
split; first by move=> n; rewrite -[RHS](grow_leftA z 1 (s := s) n isT).
move=> /(congr1 (fun A : T1 => A 0%N)) /matrixP/(_ 0 0); rewrite /= /cten !mxE eqxx !mulr1n.
move=> /(congr1 ( *%R 2%:R)); rewrite divff ?pnatr_eq0 // -natrM => /eqP.
by rewrite -[1]/(1%:R) eqr_nat.
Qed.
Example example_grow z : exists2 s', grow_right z 3 (sw_init 4 b2 None) = Some s' & sN s' = 10%N /\ forall n, get_A s' n = get_A (sw_init 4 b2 None) n.
Proof.
have ok : @bulks_ok T1 V1 el er (sw_init 4 b2 None) by split; apply: b2_ok.
by have [s' e [h _ _ [h2 _]]] := C49_grow_right z ok (isT : (0 < 3)%N); exists s'.
Qed.
End Concrete.
(* the renormalisation at work: a window tensor 3 between trivial bulks, shapes checked dynamically *)
Section ConcreteNorm.
Variable C : numClosedFieldType.
Definition dm (x : C) : env C := Some (existT _ 1%N (x%:M : 'M[C]_1)).
Definition dt (a : C) : dten C := existT _ (1%N, 1%N) (1%N, fun=> a%:M).
Definition db : bulk (dten C) (env C) := Bulk 1 1 1 (fun=> dt 1) (fun=> dm 1) (fun=> dm 1).
Lemma deE (x a : C) : depsl (dm x) (dt a) = dm (x * (a * a^*)) /\ depsr (dm x) (dt a) = dm (x * (a * a^*)).
Proof. by rewrite /depsl /depsr /= !cst_id /=; split; congr (Some (existT _ _ _)); [apply: elE | apply: erE]. Qed.
Lemma db_ok : bulk_ok (@depsl C) (@depsr C) db.
Proof.
have [e1 e2] := deE 1 1; rewrite conjC1 !mulr1 in e1 e2.
by split.
Qed.
Definition ds : sw (dten C) (env C) := set_A (sw_init 2 db None) (fun n => if n == 1%N then dt 3%:R else dt 1).
Example example_norm : exists2 s', update_norm (@depsl C) (@depsr C) (@ddot C) (@dtsc C) 0 ds = Some s' &
  (forall n, n <= 2 -> norm_at (@depsl C) (@depsr C) (@ddot C) s' n = 1) /\
  exists2 a : C, 0 < a & get_A s' 1 = dtsc a (dt 3%:R).
Proof.
have n9 : norm_at (@depsl C) (@depsr C) (@ddot C) (update_lr (@depsl C) (@depsr C) ds) 0 = 9%:R.
  rewrite /norm_at.
  have -> : get_r (@depsr C) (update_lr (@depsl C) (@depsr C) ds) 0 = depsr (depsr (dm 1) (dt 1)) (dt 3%:R) by [].
  have -> : get_l (@depsl C) (update_lr (@depsl C) (@depsr C) ds) 0 = dm 1 by [].
  rewrite !(deE _ _).2 /= cst_id conjC1 !mulr1 mul1r conjC_nat -natrM.
  by rewrite /adot !big_ord1 !mxE eqxx conjC1 mul1r.
have [||||s' e [_ h2 _ h4]] := @C48_update_norm _ _ _ _ _ _ _ _ (dyn_laws C) 0 ds _ _ _ _; rewrite ?n9 ?ltr0n //.
- by split; apply: db_ok.
- by rewrite -normrN opprB -[1]/(1%:R) -natrB // normr_nat ltr0n.
by exists s'.
Qed.
Example example_shapes n : shape (get_A ds n) = (get_q ds n, get_D ds (n - 1), get_D ds n).
Proof. by apply: C48_shapes => //; split=> // -[|[|[|//]]]. Qed.
End ConcreteNorm.

Print Assumptions C48_left.
Print Assumptions C48_all.
Print Assumptions C48_grown_single_site.
Print Assumptions C48_init.
Print Assumptions C48_r_np1.
Print Assumptions C48_norm_const.
Print Assumptions C48_update_norm.
Print Assumptions C48_shapes.
Print Assumptions C48_offset_refuted.
Print Assumptions C48_rN1_refuted.
Print Assumptions C48_uni_right_refuted.
Print Assumptions C48_one_site_window_refuted.
Print Assumptions C49_grow_left.
Print Assumptions C49_grow_left_lr.
Print Assumptions C49_grow_right.
Print Assumptions C49_grow_right_lr.
Print Assumptions C49_grow_right_zero_refuted.
Print Assumptions C49_centre.
Print Assumptions C49_centre_refuted.
Print Assumptions C49_ham_left.
Print Assumptions C49_ham_right.
Print Assumptions C49_ham3_refuted.
