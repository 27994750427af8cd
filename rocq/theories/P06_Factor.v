(* P06_Factor.v -- property theorems: Hermitian square roots and factorisations (C26) and null spaces
   (C27). *)
From mathcomp Require Import all_ssreflect all_algebra all_field zify.
From mathcomp.real_closed Require Import mxtens.
From Verif Require Import Base Spec Eps Chain LinAlg Struct Factor Witness.
Set Implicit Arguments.
Unset Strict Implicit.
Unset Printing Implicit Defensive.
Import Order.TTheory GRing.Theory Num.Theory.
Local Open Scope ring_scope.

(* ---- C26 ---------------------------------------------------------------- *)
Section C26.
Variable C : numClosedFieldType.
Variables (eigh : eigh_routine C) (chol : chol_routine C).
Hypotheses (eighP : eigh_contract eigh) (cholP : chol_contract chol).

(* Every Hermitian matrix, every representation (dense, diagonal, identity), every tolerance >= 0:
   both results are Hermitian and positive semi-definite, they commute, their product P is an
   idempotent commuting with X, X times the inverse root is the root, and root^2 = P X.  The
   returned rank is the rank of the root. *)
Theorem C26_herm_sqrt_inv (tol : C) n (x : smat C n n) : 0 <= tol -> herm (toarray x) ->
  let: (X_s, X_i, rk) := herm_sqrt_inv eigh tol x in
  let X := toarray x in let s := toarray X_s in let si := toarray X_i in let P := s *m si in
  [/\ [/\ herm s, psd s, herm si & psd si], [/\ P = si *m s, P *m P = P, si *m X = s & X *m si = s],
      s *m s = P *m X & rk = \rank s].
Proof.
move=> t0 hx; have h1 := hsi_herm eighP t0 hx; have [a1 a2 a3 a4 a5] := hsi_mul eighP t0 hx.
have [h3 _] := hsi_rank eighP t0 hx.
by move: h1 a1 a2 a3 a4 a5 h3; case: (herm_sqrt_inv _ _ _) => -[X_s X_i] rk /=.
Qed.

(* P is the spectral projector: it keeps the eigenvectors with eigenvalue > tol, kills the others *)
Theorem C26_support_projector (tol : C) n (x : smat C n n) a (v : 'cV[C]_n) :
  0 <= tol -> herm (toarray x) -> ~~ is_eye x -> toarray x *m v = a *: v ->
  let: (X_s, X_i, _) := herm_sqrt_inv eigh tol x in
  toarray X_s *m toarray X_i *m v = if tol < a then v else 0.
Proof.
move=> t0 hx ne e; have := hsi_proj eighP t0 hx ne e.
by case: (herm_sqrt_inv _ _ _) => -[X_s X_i] rk.
Qed.

(* positive definite input (all eigenvalues above the tolerance): exact root, exact inverse root *)
Theorem C26_positive_definite (tol : C) n (x : smat C n n) : 0 <= tol -> herm (toarray x) ->
  (forall a (v : 'cV[C]_n), v != 0 -> toarray x *m v = a *: v -> tol < a) ->
  let: (X_s, X_i, rk) := herm_sqrt_inv eigh tol x in
  [/\ toarray X_s *m toarray X_s = toarray x, toarray X_s *m toarray X_i = 1%:M,
      toarray X_i *m toarray X_s = 1%:M, toarray X_i *m toarray X_i = invmx (toarray x) & rk = n].
Proof.
move=> t0 hx full; have := hsi_full eighP t0 hx full.
by case: (herm_sqrt_inv _ _ _) => -[X_s X_i] rk.
Qed.

(* positive semi-definite input with zero_tol = 0: exact root and pseudo-inverse, exact rank *)
Theorem C26_positive_semidefinite n (x : smat C n n) : herm (toarray x) -> psd (toarray x) ->
  let: (X_s, X_i, rk) := herm_sqrt_inv eigh 0 x in
  [/\ toarray X_s *m toarray X_s = toarray x,
      toarray x *m (toarray X_i *m toarray X_i) *m toarray x = toarray x & rk = \rank (toarray x)].
Proof.
move=> hx px; have := hsi_psd eighP (lexx 0) hx px (erefl 0).
by case: (herm_sqrt_inv _ _ _) => -[X_s X_i] rk.
Qed.

(* herm_fac_with_inv, Cholesky branch *)
Theorem C26_fac_cholesky lower (tol : C) n (A x : 'M[C]_n) : herm A -> chol lower A = Some x ->
  exists2 xi, herm_fac_with_inv eigh chol false lower tol A = Some (x, xi, n) &
  [/\ (if lower then x *m x^† else x^† *m x) = A, x *m xi = 1%:M, xi *m x = 1%:M,
      (if lower then xi *m A *m xi^† else xi^† *m A *m xi) = 1%:M & n = \rank x].
Proof. by move=> hA ex; exists (invmx x); have [] := fac_chol eigh cholP tol hA ex. Qed.

(* herm_fac_with_inv, eigenvalue branch (force_evd=True, or Cholesky failed), at least one
   eigenvalue above the tolerance.  P projects onto the eigenvalues above the tolerance. *)
Theorem C26_fac_evd force lower (tol : C) n (A x xi : 'M[C]_n) k : 0 <= tol -> herm A ->
  force || ~~ chol lower A -> herm_fac_with_inv eigh chol force lower tol A = Some (x, xi, k) ->
  (0 < k)%N ->
  [/\ k = \rank x,
      (if lower then xi *m x else x *m xi) = eye_tail C n k,
      (if lower then xi *m A *m xi^† else xi^† *m A *m xi) = eye_tail C n k &
      let P := if lower then x *m xi else xi *m x in
      [/\ (if lower then x *m x^† else x^† *m x) = P *m A, herm P, P *m P = P
        & forall a (v : 'cV[C]_n), A *m v = a *: v -> P *m v = if tol < a then v else 0]].
Proof.
move=> t0 hA fc e; apply: (fac_evd_prod eighP t0 hA); rewrite -e /herm_fac_with_inv.
by case: force fc {e} => //=; case: (chol lower A).
Qed.

(* ... the eigenvalue branch divides by zero exactly when no eigenvalue exceeds the tolerance
   and the matrix is singular *)
Theorem C26_fac_division_by_zero lower (tol : C) n (A : 'M[C]_n) : 0 <= tol -> herm A ->
  herm_fac_with_inv eigh chol true lower tol A = None <->
  ((forall a (v : 'cV[C]_n), v != 0 -> A *m v = a *: v -> a <= tol) /\ A \notin unitmx).
Proof. by move=> t0 hA; exact: (fac_evd_None eighP t0 hA). Qed.

(* finding: the slice [-0:] is the whole array, so rank 0 inverts zeros ... *)
Theorem C26_fac_rank0_refuted lower (tol : C) n : 0 <= tol ->
  herm_fac_with_inv eigh chol true lower tol (0 : 'M[C]_n.+1) = None.
Proof.
move=> t0; apply/C26_fac_division_by_zero => //; first by rewrite /herm adj0.
split; last by rewrite unitmxE det0 ?unitr0.
move=> a v v0; rewrite mul0mx => /esym/eqP; rewrite scaler_eq0 (negPf v0) orbF => /eqP->.
exact: t0.
Qed.
(* ... or keeps every eigenvalue that should have been discarded *)
Theorem C26_fac_keeps_small_refuted lower n :
  exists2 r, herm_fac_with_inv eigh chol true lower 2%:R (1%:M : 'M[C]_n.+1) = Some r
           & r.2 = 0%N /\ \rank r.1.1 = n.+1.
Proof.
have t0 : (0 : C) <= 2%:R by rewrite ler0n.
have hA : herm (1%:M : 'M[C]_n.+1) by exact: herm1.
have ev1 : noev (2%:R : C) (1%:M : 'M[C]_n.+1).
  move=> a v v0; rewrite mul1mx -{1}[v]scale1r => /eqP; rewrite -subr_eq0 -scalerBl scaler_eq0 (negPf v0) orbF.
  by rewrite subr_eq0 => /eqP <-; rewrite ler1n.
have [EV [ev [k [[h1 h2 er [kn kE]] eF]]]] := fac_evdE eighP 2%:R hA.
have e1 i : ev 0 i = 1.
  have [c1 c2] := specf_col ev i h1; move: c1; rewrite -h2 mul1mx -{1}[col i EV]scale1r => /eqP.
  by rewrite -subr_eq0 -scalerBl scaler_eq0 (negPf c2) orbF subr_eq0 => /eqP <-.
have k0 : k = 0%N.
  apply/eqP; rewrite -leqn0 leqNgt; apply/negP=> kp.
  by have := kE ord_max; rewrite e1 le_gtF ?ler1n //= => /esym/negbT; rewrite -ltnNge; lia.
rewrite /herm_fac_with_inv eF k0 /tail_start eqxx ifN; last first.
  by rewrite negb_exists; apply/forallP=> i; rewrite e1 oner_eq0.
eexists; first by reflexivity.
split=> //=; have -> : \row_(i < n.+1) sqrtC (ev 0 i) = const_mx 1.
  by apply/rowP=> i; rewrite !mxE e1 sqrtC1.
have uE : EV \in unitmx by case/mulmx1_unit: h1.
have uE' : EV^† \in unitmx by case/mulmx1_unit: h1.
by case: lower; rewrite diag_const_mx ?mulmx1 ?mul1mx mxrank_unit.
Qed.
End C26.
Print Assumptions C26_herm_sqrt_inv.
Print Assumptions C26_support_projector.
Print Assumptions C26_positive_definite.
Print Assumptions C26_positive_semidefinite.
Print Assumptions C26_fac_cholesky.
Print Assumptions C26_fac_evd.
Print Assumptions C26_fac_division_by_zero.
Print Assumptions C26_fac_rank0_refuted.
Print Assumptions C26_fac_keeps_small_refuted.

(* non-vacuity: diag(4, 0) as a simple_diag_matrix with zero_tol = 1 *)
Example C26_example (eigh : eigh_routine Cx) :
  let d := \row_(i < 2) (if i == 0 then 4%:R else 0 : Cx) in
  let: (X_s, X_i, rk) := herm_sqrt_inv eigh 1 (SDiag d) in
  [/\ toarray X_s 0 0 = 2%:R, toarray X_i 0 0 = 2%:R^-1, toarray X_s 1 1 = 0, toarray X_i 1 1 = 0 & rk = 1%N].
Proof.
have t4 : (4%:R <= 1 :> Cx) = false by rewrite lern1.
have s4 : sqrtC (4%:R : Cx) = 2%:R.
  by rewrite (_ : 4%:R = 2%:R ^+ 2); [rewrite sqrCK ?ler0n | rewrite -natrX].
rewrite /= /herm_sqrt_inv /=; split; rewrite ?mxE /= ?t4 ?ler01 ?s4 ?div1r //.
have -> : ev_rank 1 (\row_(i < 2) (if i == 0 then 4%:R else 0 : Cx)) =
    (2 - #|pred1 (ord_max : 'I_2)|)%N; last by rewrite card1.
rewrite /ev_rank; congr (_ - _)%N; apply: eq_card => i; rewrite !inE mxE.
by case: (unliftP ord0 i) => [j|] ->; rewrite ?ord1 //= ?t4 ?ler01.
Qed.
(* the eigenvalue and Cholesky contracts can be met, and Cholesky succeeds on the identity *)
Example C26_example_chol n : exists x, @chol0 Cx n true 1%:M = Some x.
Proof.
have : posdefb (1%:M : 'M[Cx]_n); last by rewrite /chol0; move: (xchoose _) => y ->; exists y.
rewrite /posdefb adj1 eqxx /=; apply/forallP=> i.
have /and4P[/eqP h1 /eqP h2 _ _] := @eigh0_ok Cx n 1%:M (@herm1 Cx n).
have : 1%:M = diag_mx (@eigh0 Cx n 1%:M).1 by rewrite -[RHS]mul1mx -[X in _ = X *m diag_mx _]h1 -mulmxA -h2 mul1mx h1.
by move/matrixP/(_ i i); rewrite !mxE !eqxx !mulr1n => <-; rewrite ltr01.
Qed.

(* ---- C27 ---------------------------------------------------------------- *)
Section C27.
Variables (C : numClosedFieldType) (qrf : qrf_routine C).
Hypothesis qrfP : qrf_contract qrf.

(* an m x k matrix: k - m orthonormal columns annihilated by A (shape by typing) *)
Theorem C27_nullspace_qr m k (A : 'M[C]_(m, k)) :
  A *m nullspace_qr qrf A = 0 /\ (nullspace_qr qrf A)^† *m nullspace_qr qrf A = 1%:M.
Proof. exact: nullspace_qrP. Qed.
(* a basis of the whole null space when the rows of A are linearly independent *)
Theorem C27_nullspace_complete m k (A : 'M[C]_(m, k)) : \rank A = m ->
  forall v : 'cV[C]_k, A *m v = 0 -> exists y, v = nullspace_qr qrf A *m y.
Proof. by move=> rA v; exact: nullspace_qr_complete. Qed.
(* finding: for rank-deficient A part of the null space is missing: the documented "n is the
   estimated dimension of the nullspace" fails, e.g. for the 1 x 1 zero matrix *)
Theorem C27_nullspace_rank_deficient_refuted :
  exists m k (A : 'M[C]_(m, k)) (v : 'cV[C]_k), A *m v = 0 /\ forall y, v <> nullspace_qr qrf A *m y.
Proof.
exists 1%N, 1%N, 0, (const_mx 1); split; first by rewrite mul0mx.
move=> y e; have := congr1 (fun M : 'cV[C]_1 => M 0 0) e; rewrite !mxE big_ord0.
by move/eqP; rewrite oner_eq0.
Qed.
End C27.
Print Assumptions C27_nullspace_qr.
Print Assumptions C27_nullspace_complete.
Print Assumptions C27_nullspace_rank_deficient_refuted.

(* the contract of the full QR decomposition can be met for every matrix; and the null space of
   the row (1 0) consists of one column whose first entry vanishes *)
Example C27_example :
  nullspace_qr (@qrf0 Cx) (delta_mx 0 0 : 'M_(1, 2)) 0 0 = 0 /\ qrf_contract (@qrf0 Cx).
Proof.
split; last exact: qrf0_ok.
have [h _] := C27_nullspace_qr (@qrf0_ok Cx) (delta_mx 0 0 : 'M_(1, 2)).
have := congr1 (fun M : 'M[Cx]_(_, _) => M 0 0) h; rewrite !mxE big_ord_recl big_ord1 !mxE /= mul1r mul0r addr0.
by move=> e; rewrite -[RHS]e.
Qed.
