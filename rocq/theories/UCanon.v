(* UCanon.v -- canonical forms of the uniform class: restore_SCF (mps_uniform.py:713-794), restore_RCF (796-892),
   restore_LCF (894-986).  Sanity checks off (they only log).  l[k], r[k] enter as dense matrices (the class converts
   structured ones through __array__). *)
From mathcomp Require Import all_ssreflect all_algebra.
From mathcomp Require Import zify.
From mathcomp.real_closed Require Import mxtens.
From Verif Require Import Base Spec Eps Chain ChainProofs ChainProofs2 LinAlg Struct Factor Multi Svd Uniform.
Set Implicit Arguments.
Unset Strict Implicit.
Unset Printing Implicit Defensive.
Import Order.TTheory GRing.Theory Num.Theory.
Local Open Scope ring_scope.

Section Gauge.
Variables (C : numClosedFieldType) (L D : nat).
(* self.A[j][s] = gi . self.A[j][s]; self.A[k][s] = self.A[k][s] . g with j = (k + 1) % L, in this order (749-752,
   850-853, 947-950) *)
Definition gstep k (gi g : 'M[C]_D) (A : nat -> nat -> 'M[C]_D) : nat -> nat -> 'M[C]_D := fun j s =>
  let a := if j == (k.+1 %% L)%N then gi *m A j s else A j s in if j == k then a *m g else a.
Hypothesis L0 : (0 < L)%N.
Section Step.
Variables (q k : nat) (gi g : 'M[C]_D) (A : nat -> nat -> 'M[C]_D) (l r : nat -> 'M[C]_D).
Hypotheses (kL : (k < L)%N) (gig : gi *m g = 1%:M).
Let ggi : g *m gi = 1%:M. Proof. exact: mulmx1C. Qed.
Let A' := gstep k gi g A.
Let l' := setv l k (g^† *m l k *m g).
Let r' := setv r k (gi *m r k *m gi^†).
(* is the bond left of site j the one being transformed? *)
Let hit (j : nat) := (j %% L == k.+1 %% L)%N.
Lemma hitS j : (j %% L == k)%N = hit j.+1.
Proof.
apply/eqP/eqP => [<-|e]; first by rewrite -[j.+1]addn1 -[(_ %% _).+1]addn1 modnDml.
have h : (j.+1 = k.+1 %[mod L])%N by [].
move: h; rewrite -[j.+1]addn1 -[k.+1]addn1 => /eqP; rewrite eqn_modDr => /eqP ->.
exact: modn_small.
Qed.
Lemma hit_prv j : (prv L (j %% L) == k) = hit j.
Proof. by rewrite /prv hitS /hit -addnS prednK // modnDr modn_mod. Qed.
Let Lf k0 n : 'M[C]_D := if hit (k0 + n) then gi else 1%:M.
Let Rf k0 n : 'M[C]_D := if hit (k0 + n) then g else 1%:M.
Lemma RLf k0 n : Rf k0 n *m Lf k0 n = 1%:M. Proof. by rewrite /Rf /Lf; case: ifP; rewrite ?ggi ?mulmx1. Qed.
Lemma LRf k0 n : Lf k0 n *m Rf k0 n = 1%:M. Proof. by rewrite /Rf /Lf; case: ifP; rewrite ?gig ?mulmx1. Qed.
Lemma gA k0 n s : wA L A' k0 n s = Lf k0 n *m wA L A k0 n s *m Rf k0 n.+1.
Proof. by rewrite /wA /A' /gstep hitS -addnS /Lf /Rf /hit; case: ifP; case: ifP; rewrite ?mul1mx ?mulmx1. Qed.
Lemma gl k0 n : wl L l' k0 n = (Rf k0 n)^† *m wl L l k0 n *m Rf k0 n.
Proof.
rewrite /wl /l' /setv hit_prv /Rf; case: ifP => h; last by rewrite adj1 mul1mx mulmx1.
by move: h; rewrite -hit_prv => /eqP ->.
Qed.
Lemma gr k0 n : wr L r' k0 n = Lf k0 n *m wr L r k0 n *m (Lf k0 n)^†.
Proof.
rewrite /wr /r' /setv hit_prv /Lf; case: ifP => h; last by rewrite adj1 mul1mx mulmx1.
by move: h; rewrite -hit_prv => /eqP ->.
Qed.
Lemma gamp k0 e n c : (n + size c)%N = e -> amp (wA L A' k0) e n c = Lf k0 n *m amp (wA L A k0) e n c *m Rf k0 e.
Proof.
elim: c n => [|s c IH] n /=; first by rewrite addn0 pid_mx_1 mulmx1 => <-; rewrite LRf.
rewrite addnS -addSn => h; rewrite IH // gA -!mulmxA (mulmxA (Rf k0 n.+1) (Lf k0 n.+1)) RLf mul1mx.
by [].
Qed.
(* reduced density matrix of the window of N sites starting at site k0: <d|rho|c> *)
Definition wdens (B : nat -> nat -> 'M[C]_D) (x y : nat -> 'M[C]_D) k0 N (c d : seq nat) : C :=
  \tr ((psi (wA L B k0) N c)^† *m (wl L x k0 0)^† *m psi (wA L B k0) N d *m wr L y k0 N).
Lemma gdens k0 N c d : size c = N -> size d = N -> wdens A' l' r' k0 N c d = wdens A l r k0 N c d.
Proof.
move=> sc sd; rewrite /wdens /psi !gamp ?add0n // gl gr !adjM adjK.
have e1 : (Lf k0 0)^† *m (Rf k0 0)^† = 1%:M by rewrite -adjM RLf adj1.
have e2 : (Lf k0 N)^† *m (Rf k0 N)^† = 1%:M by rewrite -adjM RLf adj1.
rewrite -!mulmxA mxtrace_mulC -!mulmxA e2 mulmx1.
rewrite (mulmxA (Rf k0 N) (Lf k0 N)) RLf mul1mx.
rewrite (mulmxA (Lf k0 0)^†) e1 mul1mx (mulmxA (Rf k0 0) (Lf k0 0)) RLf mul1mx.
by [].
Qed.
Lemma gcons : consistent L q A l r -> consistent L q A' l' r'.
Proof.
move=> hc j jL; have [h1 h2] := hc j jL.
have ej : ((0 + j) %% L = j)%N by rewrite add0n modn_small.
have eA s : A' j s = Lf 0 j *m A j s *m Rf 0 j.+1 by have := gA 0 j s; rewrite /wA ej.
have el : l' (prv L j) = (Rf 0 j)^† *m l (prv L j) *m Rf 0 j by have := gl 0 j; rewrite /wl ej.
have er : r' (prv L j) = Lf 0 j *m r (prv L j) *m (Lf 0 j)^† by have := gr 0 j; rewrite /wr ej.
have el1 : l' j = (Rf 0 j.+1)^† *m l j *m Rf 0 j.+1 by have := gl 0 j.+1; rewrite wlS ?ej // wlS ?ej.
have er1 : r' j = Lf 0 j.+1 *m r j *m (Lf 0 j.+1)^† by have := gr 0 j.+1; rewrite wrS ?ej // wrS ?ej.
have e1 n : (Lf 0 n)^† *m (Rf 0 n)^† = 1%:M by rewrite -adjM RLf adj1.
split.
  rewrite el1 h1 el /eps_l_noop mulmx_sumr mulmx_suml; apply: eq_bigr => s _; rewrite eA !adjM.
  rewrite -!mulmxA (mulmxA (Lf 0 j)^†) e1 mul1mx (mulmxA (Rf 0 j) (Lf 0 j)) RLf mul1mx.
  by rewrite !mulmxA.
rewrite er h2 er1 /eps_r_noop mulmx_sumr mulmx_suml; apply: eq_bigr => s _; rewrite eA !adjM.
rewrite -!mulmxA (mulmxA (Rf 0 j.+1) (Lf 0 j.+1)) RLf mul1mx (mulmxA (Lf 0 j.+1)^†) e1 mul1mx.
by rewrite !mulmxA.
Qed.
End Step.
End Gauge.

(* ---- the three canonical forms -------------------------------------------------------------------------------- *)
Section Forms.
Variables (C : numClosedFieldType) (eigh : eigh_routine C) (chol : chol_routine C) (svd : svd_routine C).
Variables (L D : nat).
Record ust := Ust { uA : nat -> nat -> 'M[C]_D; ul : nat -> 'M[C]_D; ur : nat -> 'M[C]_D }.
(* v = zeros(D); v[-rank:] = 1; simple_diag_matrix(v), or eyemat(D) when rank == D *)
Definition env_rank (rank : nat) : 'M[C]_D :=
  if rank == D then 1%:M else diag_mx (\row_(i < D) if (tail_start D rank <= i)%N then 1 else 0).
(* restore_RCF, one turn of the loop over ks (832-861) *)
Definition rcf_step (tol : C) (diag_l : bool) (st : ust) (k : nat) : option ust :=
  if herm_fac_with_inv eigh chol false true tol (ur st k) is Some (G, Gi, rank) then
    let lk := G^† *m (ul st k *m G) in
    let: (G', Gi', lk') := if diag_l then let: (ev, EV) := eigh lk in (G *m EV, EV^† *m Gi, diag_mx ev) else (G, Gi, lk) in
    Some (Ust (gstep L k Gi' G' (uA st)) (setv (ul st) k lk') (setv (ur st) k (env_rank rank)))
  else None.
(* restore_LCF (930-958): herm_fac_with_inv(lower=False) returns (G_i, G) *)
Definition lcf_step (tol : C) (diag_r : bool) (st : ust) (k : nat) : option ust :=
  if herm_fac_with_inv eigh chol false false tol (ul st k) is Some (Gi, G, rank) then
    let rk := Gi *m (ur st k *m Gi^†) in
    let: (G', Gi', rk') := if diag_r then let: (ev, EV) := eigh rk in (EV *m G, Gi *m EV^†, diag_mx ev) else (G, Gi, rk) in
    Some (Ust (gstep L k Gi' G' (uA st)) (setv (ul st) k (env_rank rank)) (setv (ur st) k rk'))
  else None.
(* herm_fac_with_inv(force_evd=True, calc_inv=False): no division, always a factor *)
Definition fac_evd_x (lower : bool) (tol : C) n (M : 'M[C]_n) : 'M[C]_n :=
  let: (ev, EV) := eigh M in
  let nonzeros := #|[pred i | (tol < ev 0 i)%R]| in
  let ev_sq := \row_(i < n) if (tail_start n nonzeros <= i)%N then sqrtC (ev 0 i) else 0 in
  if lower then mmul_diag_l ev_sq EV else mmul_diag_r ev_sq EV^†.
(* restore_SCF (725-752, 793-794) with force_evd=True; sv are the singular values in descending order, but the
   entries [-nonzeros:] are inverted.  None: division by zero (inf and nan entries) *)
Definition scf_step (tol : C) (st : ust) (k : nat) : option ust :=
  let X := fac_evd_x true tol (ur st k) in
  let Y := fac_evd_x false tol (ul st k) in
  let: (U, sv, Vh) := svd (Y *m X) in
  let nonzeros := #|[pred i : 'I_D | (tol < svn sv i)%R]| in
  let inv := fun i : 'I_D => (tail_start D nonzeros <= i)%N in
  if [exists i, inv i && (sqrtC (svn sv i) == 0)] then None else
  let Srti := diag_mx (\row_i if inv i then 1 / sqrtC (svn sv i) else 0) in
  let g := Srti *m U^† *m Y in
  let g_i := X *m Vh^† *m Srti in
  let S := diagS D D (svn sv) in
  Some (Ust (gstep L k g g_i (uA st)) (setv (ul st) k S) (setv (ur st) k S)).
(* the loops *)
Definition loop (step : ust -> nat -> option ust) (ks : seq nat) (st : ust) : option ust :=
  foldl (fun o k => if o is Some s then step s k else None) (Some st) ks.
Definition restore_RCF tol diag_l ks := loop (rcf_step tol diag_l) ks.
Definition restore_LCF tol diag_r ks := loop (lcf_step tol diag_r) ks.
Definition restore_SCF tol := loop (scf_step tol) (iota 0 L).

Hypotheses (eighP : eigh_contract eigh) (cholP : chol_contract chol) (svdP : svd_contract svd).
Definition above (tol : C) n (M : 'M[C]_n) := forall a (v : 'cV[C]_n), v != 0 -> M *m v = a *: v -> tol < a.

Lemma evd_full lower tol n (M : 'M[C]_n) : 0 <= tol -> herm M -> above tol M ->
  exists x xi, [/\ fac_evd eigh lower tol M = Some (x, xi, n), x *m xi = 1%:M,
    xi *m x = 1%:M & (if lower then x *m x^† else x^† *m x) = M].
Proof.
move=> t0 hM ab; have [EV [ev [k [[h1 h2 er [kn kE]] eF]]]] := fac_evdE eighP tol hM.
have evt i : tol < ev 0 i.
  by have [c1 c2] := specf_col ev i h1; apply: (ab _ _ c2); rewrite {1}h2.
have ek : k = n.
  case: n M hM ab EV ev h1 h2 er kn kE eF evt => [|n] M hM ab EV ev h1 h2 er kn kE eF evt; first by lia.
  by have := kE ord0; rewrite evt => /esym; rewrite leqn0 subn_eq0 => h; apply/eqP; rewrite eqn_leq kn.
have [ex ex2] : fac_evd eigh lower tol M != None /\ True.
  split=> //; rewrite eF ifN //; rewrite negb_exists; apply/forallP => i; rewrite negb_and.
  by rewrite (gt_eqF (le_lt_trans t0 (evt i))) orbT.
case e: (fac_evd eigh lower tol M) ex => [[[x xi] k']|//] _.
have ek' : k' = n by move: e; rewrite eF; case: ifP => // _ [_ _ <-].
rewrite {}ek' in e *; exists x, xi.
have [n0|n0] := posnP n.
  have tr (U V : 'M[C]_n) : U = V by apply/matrixP => i; have := ltn_ord i; rewrite {2}n0.
  by split; [by [] | exact: tr | exact: tr | exact: tr].
have [_ h3 _ /= [h4 _ _ _]] := fac_evd_prod eighP t0 hM e n0; rewrite eye_tail1 in h3.
by case: lower e h3 h4 {eF} => e h3 h4; have h5 := mulmx1C h3; split=> //; rewrite h4 h5 mul1mx.
Qed.
Lemma fac_full lower tol n (M : 'M[C]_n) : 0 <= tol -> herm M -> above tol M ->
  exists x xi, [/\ herm_fac_with_inv eigh chol false lower tol M = Some (x, xi, n), x *m xi = 1%:M,
    xi *m x = 1%:M & (if lower then x *m x^† else x^† *m x) = M].
Proof.
move=> t0 hM ab; rewrite /herm_fac_with_inv; case ec: (chol lower M) => [x|]; last exact: evd_full.
have [] := fac_chol eigh cholP tol hM ec; rewrite /herm_fac_with_inv ec => e [h1 h2 h3 _ _].
by exists x, (invmx x); split.
Qed.
Lemma evd_x_full lower tol n (M : 'M[C]_n) : 0 <= tol -> herm M -> above tol M -> let x := fac_evd_x lower tol M in
  x \in unitmx /\ (if lower then x *m x^† else x^† *m x) = M.
Proof.
move=> t0 hM ab; have [x [xi [e h1 h2 h3]]] := evd_full lower t0 hM ab.
have -> : fac_evd_x lower tol M = x.
  move: e; rewrite /fac_evd_x /fac_evd; case: (eigh M) => ev EV; case: ifP => // _.
  by case: lower {h3} => -[].
by split=> //; have [] := mulmx1_unit h1.
Qed.
(* one step on a full-rank environment *)
Lemma rcf_stepP tol diag_l st k : 0 <= tol -> (k < L)%N -> herm (ur st k) -> above tol (ur st k) -> herm (ul st k) ->
  exists g gi lk, [/\ gi *m g = 1%:M, rcf_step tol diag_l st k = Some (Ust (gstep L k gi g (uA st)) (setv (ul st) k lk) (setv (ur st) k 1%:M)),
    lk = g^† *m ul st k *m g, gi *m ur st k *m gi^† = 1%:M & diag_l -> exists2 ev : 'rV[C]_D, lk = diag_mx ev & forall i, ev 0 i \is Num.real].
Proof.
move=> t0 kL hr ab hl; rewrite /rcf_step; have [x [xi [-> h1 h2 h3]]] := fac_full true t0 hr ab.
have h4 : xi *m ur st k *m xi^† = 1%:M by rewrite -h3 !mulmxA h2 mul1mx -adjM h2 adj1.
rewrite /env_rank eqxx; case: diag_l; last first.
  by exists x, xi, (x^† *m (ul st k *m x)); split=> //; rewrite mulmxA.
have hlk : herm (x^† *m (ul st k *m x)) by rewrite /herm !adjM adjK hl mulmxA.
have := eighP hlk; case: (eigh _) => ev EV /and4P[/= /eqP u1 /eqP u2 /forallP er _].
have u1' := unitary_sym u1.
exists (x *m EV), (EV^† *m xi), (diag_mx ev); split=> //.
- by rewrite mulmxA -(mulmxA EV^†) h2 mulmx1.
- have -> : (x *m EV)^† *m ul st k *m (x *m EV) = EV^† *m (x^† *m (ul st k *m x) *m EV) by rewrite adjM !mulmxA.
  by rewrite u2 mulmxA u1 mul1mx.
- have -> : EV^† *m xi *m ur st k *m (EV^† *m xi)^† = EV^† *m (xi *m ur st k *m xi^†) *m EV by rewrite adjM adjK !mulmxA.
  by rewrite h4 mulmx1.
- by move=> _; exists ev.
Qed.
Lemma lcf_stepP tol st k : 0 <= tol -> (k < L)%N -> herm (ul st k) -> above tol (ul st k) ->
  exists g gi, [/\ gi *m g = 1%:M, lcf_step tol false st k = Some (Ust (gstep L k gi g (uA st)) (setv (ul st) k 1%:M) (setv (ur st) k (gi *m ur st k *m gi^†)))
    & g^† *m ul st k *m g = 1%:M].
Proof.
move=> t0 kL hl ab; rewrite /lcf_step; have [x [xi [-> h1 h2 h3]]] := fac_full false t0 hl ab.
exists xi, x; split=> //; first by rewrite /env_rank eqxx mulmxA.
by rewrite -h3 !mulmxA -!adjM h1 adj1 mul1mx.
Qed.
Lemma diagS_D (f : nat -> C) : diagS D D f = diag_mx (\row_i f i).
Proof. by apply/matrixP => i j; rewrite !mxE. Qed.
Lemma scf_stepP tol st k : 0 <= tol -> (k < L)%N -> herm (ur st k) -> above tol (ur st k) -> herm (ul st k) -> above tol (ul st k) ->
  (forall i : 'I_D, tol < svn (svd (fac_evd_x false tol (ul st k) *m fac_evd_x true tol (ur st k))).1.2 i) ->
  exists g gi sv, [/\ gi *m g = 1%:M, scf_step tol st k = Some (Ust (gstep L k gi g (uA st)) (setv (ul st) k (diag_mx sv)) (setv (ur st) k (diag_mx sv))),
    diag_mx sv = g^† *m ul st k *m g, diag_mx sv = gi *m ur st k *m gi^† & forall i, tol < sv 0 i].
Proof.
move=> t0 kL hr abr hl abl; rewrite /scf_step.
have [uX eX] := evd_x_full true t0 hr abr; have [uY eY] := evd_x_full false t0 hl abl.
set X := fac_evd_x true _ _ in uX eX *; set Y := fac_evd_x false _ _ in uY eY *.
have := svd_okE (svdP (Y *m X)); case: (svd _) => [[U sv] Vh] /= [u1 v1 eM _ _] ab.
have -> : #|[pred i : 'I_D | tol < svn sv i]| = D by rewrite (eq_card (B := predT)) ?card_ord // => i; rewrite inE ab.
have ts i : (tail_start D D <= i)%N by rewrite /tail_start subnn; case: ifP.
have sp (i : 'I_D) : 0 < svn sv i by apply: le_lt_trans t0 (ab i).
rewrite ifN; last by rewrite negb_exists; apply/forallP => i; rewrite negb_and sqrtC_eq0 (gt_eqF (sp i)) orbT.
set Srti := diag_mx _; rewrite diagS_D; rewrite diagS_D in eM; set S := diag_mx _ in eM *.
have eSrti : Srti = diag_mx (\row_i (sqrtC (svn sv i))^-1) by congr diag_mx; apply/rowP => i; rewrite !mxE ts div1r.
have hS : Srti^† = Srti.
  rewrite eSrti; apply/matrixP => i j; rewrite !mxE; case: (eqVneq i j) => [->|ne].
    by rewrite ?eqxx !mulr1n conj_Creal // rpredV ger0_real // sqrtC_ge0 ltW //.
  by rewrite !mulr0n conjC0.
have SS : Srti *m S *m Srti = 1%:M.
  rewrite eSrti -!diag_mx_mul; apply/matrixP => i j; rewrite !mxE; congr (_ *+ _).
  have n0 : sqrtC (svn sv j) != 0 by rewrite sqrtC_eq0 gt_eqF.
  by rewrite mulrAC -invfM -expr2 sqrtCK mulVf // gt_eqF.
have hSS : S^† = S.
  apply/matrixP => i j; rewrite !mxE; case: (eqVneq i j) => [->|ne].
    by rewrite ?eqxx !mulr1n conj_Creal // ger0_real // ltW.
  by rewrite !mulr0n conjC0.
have SSS : Srti *m S *m S *m Srti = S.
  rewrite eSrti -!diag_mx_mul; apply/matrixP => i j; rewrite !mxE; congr (_ *+ _).
  have n0 : sqrtC (svn sv j) != 0 by rewrite sqrtC_eq0 gt_eqF.
  by rewrite mulrAC [_^-1 * _ * _^-1]mulrAC -invfM -expr2 sqrtCK mulVf ?mul1r // gt_eqF.
have v1' : Vh^† *m Vh = 1%:M by exact: mulmx1C.
exists (X *m Vh^† *m Srti), (Srti *m U^† *m Y), (\row_i svn sv i); split=> //.
- have -> : Srti *m U^† *m Y *m (X *m Vh^† *m Srti) = Srti *m (U^† *m (Y *m X) *m Vh^†) *m Srti by rewrite !mulmxA.
  have -> : U^† *m (Y *m X) *m Vh^† = S by rewrite eM !mulmxA u1 mul1mx -mulmxA v1 mulmx1.
  exact: SS.
- have -> : (X *m Vh^† *m Srti)^† *m ul st k *m (X *m Vh^† *m Srti) = Srti *m Vh *m ((Y *m X)^† *m (Y *m X)) *m Vh^† *m Srti.
    by rewrite -eY !adjM adjK hS !mulmxA.
  have -> : (Y *m X)^† *m (Y *m X) = Vh^† *m (S *m S) *m Vh.
    by rewrite eM !adjM hSS !mulmxA -(mulmxA _ U^† U) u1 mulmx1.
  rewrite !mulmxA -(mulmxA Srti Vh) v1 mulmx1 -(mulmxA _ Vh) v1 mulmx1.
  by rewrite SSS.
- have -> : Srti *m U^† *m Y *m ur st k *m (Srti *m U^† *m Y)^† = Srti *m U^† *m ((Y *m X) *m (Y *m X)^†) *m U *m Srti.
    by rewrite -eX !adjM adjK hS !mulmxA.
  have -> : (Y *m X) *m (Y *m X)^† = U *m (S *m S) *m U^†.
    by rewrite eM !adjM hSS !mulmxA -(mulmxA _ Vh Vh^†) v1 mulmx1.
  rewrite !mulmxA -(mulmxA Srti U^†) u1 mulmx1 -(mulmxA _ U^†) u1 mulmx1.
  by rewrite SSS.
- by move=> i; rewrite mxE.
Qed.
(* the loops: every turn transforms one bond, the others are untouched *)
Section Loop.
Variables (q : nat) (step : ust -> nat -> option ust) (P Q : 'M[C]_D -> 'M[C]_D -> Prop).
Hypothesis L0 : (0 < L)%N.
Hypothesis stepP : forall st k, (k < L)%N -> P (ul st k) (ur st k) -> exists g gi lk rk,
  [/\ gi *m g = 1%:M, step st k = Some (Ust (gstep L k gi g (uA st)) (setv (ul st) k lk) (setv (ur st) k rk)),
     lk = g^† *m ul st k *m g, rk = gi *m ur st k *m gi^† & Q lk rk].
Lemma loopP ks st : uniq ks -> all (fun k => k < L)%N ks -> consistent L q (uA st) (ul st) (ur st) ->
  (forall k, k \in ks -> P (ul st k) (ur st k)) -> exists2 st', loop step ks st = Some st' &
  [/\ consistent L q (uA st') (ul st') (ur st'),
     forall k0 N c d, size c = N -> size d = N -> wdens L (uA st') (ul st') (ur st') k0 N c d = wdens L (uA st) (ul st) (ur st) k0 N c d,
     forall k, k \in ks -> Q (ul st' k) (ur st' k) & forall k, k \notin ks -> ul st' k = ul st k /\ ur st' k = ur st k].
Proof.
elim: ks st => [|k ks IH] st; first by move=> _ _ hc _; exists st.
move=> /= /andP[kn un] /andP[kL al] hc hP.
have [g [gi [lk [rk [g1 es el er hQ]]]]] := stepP kL (hP k (mem_head _ _)).
have [||st' e [h1 h2 h3 h4]] := IH (Ust (gstep L k gi g (uA st)) (setv (ul st) k lk) (setv (ur st) k rk)) un al.
- by rewrite /= el er; apply: gcons.
- move=> k' k'in; rewrite /= /setv; case: eqP => [ek|_]; first by rewrite -ek k'in in kn.
  by apply: hP; rewrite inE k'in orbT.
exists st'; first by rewrite /loop /= es.
split=> //.
- by move=> k0 N c d sc sd; rewrite h2 //= el er; apply: gdens.
- move=> k'; rewrite inE => /orP[/eqP ->|]; last exact: h3.
  by have [-> ->] := h4 k kn; rewrite /= /setv !eqxx.
- move=> k'; rewrite inE negb_or => /andP[ne nin]; have [-> ->] := h4 k' nin.
  by rewrite /= /setv (negbTE ne).
Qed.
End Loop.
End Forms.
