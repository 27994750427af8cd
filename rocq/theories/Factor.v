(* Factor.v -- model of tdvp_common.herm_sqrt_inv, calc_l_r_roots, herm_fac_with_inv, calc_Vsh,
   calc_Vsh_l and of nullspace.nullspace_qr, matmul.invtr.

   LAPACK (eigh, qr in full mode, cholesky) enters through the contracts of LinAlg.v and through
   [chol_contract] below.  trtri on a triangular matrix is modelled by its meaning: None when a
   diagonal entry is zero, the inverse otherwise.  sanity_checks=False throughout (the checks only
   write log messages). *)
From mathcomp Require Import all_ssreflect all_algebra.
From mathcomp Require Import zify.
From mathcomp.real_closed Require Import mxtens.
From Verif Require Import Base LinAlg Struct.
Set Implicit Arguments.
Unset Strict Implicit.
Unset Printing Implicit Defensive.
Import Order.TTheory GRing.Theory Num.Theory.
Local Open Scope ring_scope.

Section Factor.
Variable C : numClosedFieldType.
Variable eigh : eigh_routine C.
Variable qrf : qrf_routine C.

(* isinstance(x, eyemat) and the attribute .diag (simple_diag_matrix only) *)
Definition is_eye m n (x : smat C m n) : bool := if x is SEye _ then true else false.
Definition attr_diag m n (x : smat C m n) : option 'rV[C]_n :=
  match x with SDiag _ d => Some d | _ => None end.

(* the two vectors ev_sqrt and ev_sqrt_i of herm_sqrt_inv (tdvp_common.py:218-227): entries with
   ev <= zero_tol are set to zero in both *)
Definition ev_sqrt (tol : C) n (ev : 'rV[C]_n) : 'rV[C]_n :=
  \row_i if ev 0 i <= tol then 0 else sqrtC (ev 0 i).
Definition ev_sqrt_i (tol : C) n (ev : 'rV[C]_n) : 'rV[C]_n :=
  \row_i if ev 0 i <= tol then 0 else 1 / sqrtC (ev 0 i).
Definition ev_rank (tol : C) n (ev : 'rV[C]_n) : nat := (n - #|[pred i | (ev 0 i <= tol)%R]|)%N.

(* herm_sqrt_inv(x, zero_tol, return_rank=True) (tdvp_common.py:206-268) *)
Definition herm_sqrt_inv (tol : C) n (x : smat C n n) : smat C n n * smat C n n * nat :=
  if is_eye x then (x, x, n)
  else if attr_diag x is Some ev then (SDiag (ev_sqrt tol ev), SDiag (ev_sqrt_i tol ev), ev_rank tol ev)
  else let: (ev, EV) := eigh (toarray x) in
       (SDense (EV *m mmul_diag_r (ev_sqrt tol ev) EV^†),
        SDense (EV *m mmul_diag_r (ev_sqrt_i tol ev) EV^†), ev_rank tol ev).

(* calc_l_r_roots (tdvp_common.py:270-275) *)
Definition calc_l_r_roots (tol : C) m n (lm1 : smat C m m) (r : smat C n n) :=
  let: (l_sqrt, l_sqrt_i, _) := herm_sqrt_inv tol lm1 in
  let: (r_sqrt, r_sqrt_i, _) := herm_sqrt_inv tol r in
  (l_sqrt, l_sqrt_i, r_sqrt, r_sqrt_i).

(* la.cholesky(A, lower): None is LinAlgError; otherwise a triangular factor with non-zero diagonal *)
Definition chol_routine := forall n, bool -> 'M[C]_n -> option 'M[C]_n.
Definition chol_ok n (lower : bool) (A x : 'M[C]_n) : Prop :=
  [/\ (if lower then x *m x^† else x^† *m x) = A, is_trig_mx (if lower then x else x^T)
    & forall i, x i i != 0].
Definition chol_contract (chol : chol_routine) :=
  forall n lower (A x : 'M[C]_n), herm A -> chol n lower A = Some x -> chol_ok lower A x.
Variable chol : chol_routine.

(* matmul.invtr (matmul.py:435-467) *)
Definition invtr n (x : 'M[C]_n) : option 'M[C]_n :=
  if [exists i, x i i == 0] then None else Some (invmx x).

(* herm_fac_with_inv(A, lower, zero_tol, return_rank=True, calc_inv=True, force_evd)
   (tdvp_common.py:614-733).  v[-k:] is the last k entries for k > 0 and the whole array for k = 0.
   None: a division by zero (numpy then returns inf/nan entries). *)
Definition tail_start (n k : nat) : nat := if k == 0%N then 0%N else (n - k)%N.
Definition fac_evd (lower : bool) (tol : C) n (A : 'M[C]_n) : option ('M[C]_n * 'M[C]_n * nat) :=
  let: (ev, EV) := eigh A in
  let nonzeros := #|[pred i | (tol < ev 0 i)%R]| in
  let ev_sq := \row_(i < n) if (tail_start n nonzeros <= i)%N then sqrtC (ev 0 i) else 0 in
  let ev_sq_i := \row_(i < n) if (tail_start n nonzeros <= i)%N then 1 / ev_sq 0 i else 0 in
  if [exists i : 'I_n, (tail_start n nonzeros <= i)%N && (ev_sq 0 i == 0)] then None else
  if lower then Some (mmul_diag_l ev_sq EV, mmul_diag_r ev_sq_i EV^†, nonzeros)
  else Some (mmul_diag_r ev_sq EV^†, mmul_diag_l ev_sq_i EV, nonzeros).
Definition herm_fac_with_inv (force_evd lower : bool) (tol : C) n (A : 'M[C]_n) :=
  if force_evd then fac_evd lower tol A
  else if chol lower A is Some x then
         if invtr x is Some xi then Some (x, xi, n) else fac_evd lower tol A
       else fac_evd lower tol A.

(* nullspace_qr (nullspace.py:98-126): Q, R = qr(A.T); Q[:, R.shape[1]:].conj() *)
Lemma ns_lt m k (j : 'I_(k - m)) : (m + j < k)%N.
Proof. have := ltn_ord j; lia. Qed.
Definition ns_idx m k (j : 'I_(k - m)) : 'I_k := Ordinal (ns_lt j).
Definition nullspace_qr m k (A : 'M[C]_(m, k)) : 'M[C]_(k, k - m) :=
  let: (Q, R) := qrf A^T in \matrix_(i, j) (Q i (ns_idx j))^*.

(* calc_Vsh (tdvp_common.py:277-310): R[d, s, a] = (r_s A[s]^†)[d, a] reshaped to (D*q, Dm1); the
   rows of Vconj are reshaped to (D, q) and the whole array transposed, so
   Vsh[s][d, k] = ns[d*q + s, k].  None when q*D - Dm1 <= 0. *)
Section Vsh.
Variables (q Dm1 D : nat) (A : nat -> 'M[C]_(Dm1, D)).
Definition vsh_R (r_s : smat C D D) : 'M[C]_(D * q, Dm1) :=
  \matrix_(w, a) toarray (dot r_s (SDense (A (mxtens_unindex w).2)^†)) (mxtens_unindex w).1 a.
Definition vsh_at (r_s : smat C D D) (s : nat) : 'M[C]_(D, D * q - Dm1) :=
  \matrix_(d, k) if insub s is Some s' then nullspace_qr (vsh_R r_s)^† (mxtens_index (d, s')) k else 0.
Definition calc_Vsh (r_s : smat C D D) : option (nat -> 'M[C]_(D, D * q - Dm1)) :=
  if (D * q <= Dm1)%N then None else Some (vsh_at r_s).

(* calc_Vsh_l (tdvp_common.py:312-344): L[a, s, d] = (lm1_sqrt A[s])^†[a, d] reshaped to
   (D, q*Dm1), V = nullspace_qr(L) reshaped to (q, Dm1, .), Vsh[s] = V[s]^†. *)
Definition vshl_L (l_s : smat C Dm1 Dm1) : 'M[C]_(D, q * Dm1) :=
  \matrix_(a, w) (toarray (dot l_s (SDense (A (mxtens_unindex w).1))))^† a (mxtens_unindex w).2.
Definition vshl_at (l_s : smat C Dm1 Dm1) (s : nat) : 'M[C]_(q * Dm1 - D, Dm1) :=
  (\matrix_(d, k) if insub s is Some s' then nullspace_qr (vshl_L l_s) (mxtens_index (s', d)) k else 0)^†.
Definition calc_Vsh_l (l_s : smat C Dm1 Dm1) : option (nat -> 'M[C]_(q * Dm1 - D, Dm1)) :=
  if (q * Dm1 <= D)%N then None else Some (vshl_at l_s).
End Vsh.

Lemma is_eyeE m n (x : smat C m n) : is_eye x -> forall i j, toarray x i j = (i == j :> nat)%:R.
Proof. by case: x => //= k _ i j; rewrite mxE. Qed.
Lemma attr_diagE m n (x : smat C m n) ev : attr_diag x = Some ev ->
  forall i j, toarray x i j = if i == j :> nat then ev 0 j else 0.
Proof.
case: x ev => //= k d ev [<-] i j; rewrite mxE.
by case: eqP => [->|h]; [rewrite eqxx | case: eqP => // /val_inj].
Qed.

(* ---- linear algebra ------------------------------------------------------ *)
Lemma rank_diag n (d : 'rV[C]_n) : \rank (diag_mx d) = #|[pred i | d 0 i != 0]|.
Proof.
rewrite -sum1_card big_mkcond /=.
elim: n d => [|n IH] d; first by rewrite big_ord0 (flatmx0 (diag_mx d)) mxrank0.
have -> : diag_mx d = block_mx (diag_mx (@lsubmx C 1 1 n d)) 0 0 (diag_mx (@rsubmx C 1 1 n d)).
  by rewrite -{1}(@hsubmxK C 1 1 n d) (@diag_mx_row C n 1).
rewrite (@rank_diag_block_mx C 1 1 n n) IH big_ord_recl; congr (_ + _)%N.
  have -> : diag_mx (@lsubmx C 1 1 n d) = (d 0 0)%:M.
    by apply/matrixP=> i j; rewrite !mxE !ord1; congr (d _ _ *+ _); apply: val_inj.
  rewrite inE; case: eqP => [->|/eqP h]; first by rewrite raddf0 mxrank0.
  by rewrite -scalemx1 mxrank_scale_nz // mxrank1.
by apply: eq_bigr => i _; rewrite !inE mxE; congr (if d _ _ != 0 then _ else _); apply: val_inj.
Qed.

(* spectral functions of a Hermitian matrix *)
Definition specf n (EV : 'M[C]_n) (f : 'rV[C]_n) : 'M[C]_n := EV *m diag_mx f *m EV^†.
Definition rmul n (f g : 'rV[C]_n) : 'rV[C]_n := \row_i (f 0 i * g 0 i).

Lemma specfM n (EV : 'M[C]_n) (f g : 'rV[C]_n) : EV^† *m EV = 1%:M ->
  specf EV f *m specf EV g = specf EV (rmul f g).
Proof. by move=> h; rewrite /specf !mulmxA -(mulmxA _ EV^† EV) h mulmx1 -(mulmxA EV) -diag_mx_mul. Qed.
Lemma specf_herm n (EV : 'M[C]_n) (f : 'rV[C]_n) : (forall i, f 0 i \is Num.real) -> herm (specf EV f).
Proof.
move=> fr; rewrite /herm /specf !adjM adjK mulmxA; congr (_ *m _ *m _).
by apply/matrixP=> i j; rewrite !mxE rmorphMn /= eq_sym; case: eqP => [->|_]; rewrite ?mulr0n // (CrealP (fr _)).
Qed.
Lemma specf_psd n (EV : 'M[C]_n) (f : 'rV[C]_n) : (forall i, 0 <= f 0 i) -> psd (specf EV f).
Proof.
move=> f0; have -> : specf EV f = (diag_mx (\row_i sqrtC (f 0 i)) *m EV^†)^† *m (diag_mx (\row_i sqrtC (f 0 i)) *m EV^†).
  rewrite adjM adjK /specf !mulmxA -!(mulmxA EV); congr (_ *m (_ *m _)).
  have -> : (diag_mx (\row_i sqrtC (f 0 i)))^† = diag_mx (\row_i sqrtC (f 0 i)).
    apply/matrixP=> i j; rewrite !mxE rmorphMn /= eq_sym; case: eqP => [->|_]; rewrite ?mulr0n // !mulr1n.
    by apply/CrealP/ger0_real; rewrite sqrtC_ge0.
  by rewrite -diag_mx_mul; congr diag_mx; apply/rowP=> i; rewrite !mxE -expr2 sqrtCK.
exact: psd_gram.
Qed.
Lemma specf1 n (EV : 'M[C]_n) (f : 'rV[C]_n) : EV^† *m EV = 1%:M -> (forall i, f 0 i = 1) -> specf EV f = 1%:M.
Proof.
move=> h f1; have -> : specf EV f = EV *m EV^†; last exact: unitary_sym.
by rewrite /specf; congr (_ *m _); have -> : f = const_mx 1; [apply/rowP=> i; rewrite f1 mxE | rewrite diag_const_mx mulmx1].
Qed.
Lemma specf_rank n (EV : 'M[C]_n) (f : 'rV[C]_n) : EV^† *m EV = 1%:M -> \rank (specf EV f) = #|[pred i | f 0 i != 0]|.
Proof.
move=> h; rewrite /specf -rank_diag mxrankMfree.
  have fE : row_full EV by rewrite row_full_unit; case/mulmx1_unit: h.
  by rewrite (eqmxMfull _ fE).
by rewrite row_free_unit; case/mulmx1_unit: h.
Qed.
Lemma specf_eigen n (EV : 'M[C]_n) (ev f : 'rV[C]_n) a (v : 'cV[C]_n) : EV^† *m EV = 1%:M ->
  specf EV ev *m v = a *: v -> forall b, (forall i, ev 0 i = a -> f 0 i = b) -> specf EV f *m v = b *: v.
Proof.
move=> h; pose w := EV^† *m v; have ew : EV *m w = v by rewrite /w mulmxA (unitary_sym h) mul1mx.
have wE : EV^† *m v = w by []. move: w ew wE => w ew wE.
rewrite -{2}ew => e b hb.
have {}e : diag_mx ev *m w = a *: w.
  have : EV^† *m (specf EV ev *m v) = EV^† *m (a *: (EV *m w)) by rewrite e.
  by rewrite /specf !mulmxA h mul1mx -mulmxA wE -scalemxAr mulmxA h mul1mx.
rewrite /specf -!mulmxA wE; rewrite -[in RHS]ew scalemxAr; congr (_ *m _).
apply/matrixP=> i j; have := congr1 (fun M : 'cV[C]_n => M i j) e; rewrite !mul_diag_mx !mxE.
have [->|w0] := eqVneq (w i j) 0; first by rewrite !mulr0.
by move/(mulIf w0)/hb => ->.
Qed.
Lemma specf_col n (EV : 'M[C]_n) (ev : 'rV[C]_n) i : EV^† *m EV = 1%:M ->
  specf EV ev *m col i EV = ev 0 i *: col i EV /\ col i EV != 0.
Proof.
move=> h; split.
  rewrite colE /specf mulmxA -(mulmxA _ EV^† EV) h mulmx1 -mulmxA scalemxAr; congr (_ *m _).
  by apply/matrixP=> j k; rewrite mul_diag_mx !mxE; case: eqP => [->|_]; rewrite ?mulr0.
apply/eqP=> h0; have := congr1 (fun M : 'M[C]_n => M i i) h.
rewrite /= mxE [RHS]mxE eqxx big1 => [|k _]; first by move/eqP; rewrite eq_sym oner_eq0.
by have := congr1 (fun M : 'cV[C]_n => M k 0) h0; rewrite !mxE => ->; rewrite mulr0.
Qed.

(* ---- herm_sqrt_inv ------------------------------------------------------- *)
Hypothesis eighP : eigh_contract eigh.

(* every branch of herm_sqrt_inv is a spectral function; [kept i] says that eigenvalue i survives *)
Lemma herm_sqrt_invE (tol : C) n (x : smat C n n) : 0 <= tol -> herm (toarray x) ->
  exists EV : 'M[C]_n, exists ev : 'rV[C]_n, exists kept : pred 'I_n,
  [/\ EV^† *m EV = 1%:M, toarray x = specf EV ev, forall i, ev 0 i \is Num.real,
      forall i, kept i -> 0 < ev 0 i & forall i, kept i = is_eye x || (tol < ev 0 i)] /\
  [/\ toarray (herm_sqrt_inv tol x).1.1 = specf EV (\row_i if kept i then sqrtC (ev 0 i) else 0),
      toarray (herm_sqrt_inv tol x).1.2 = specf EV (\row_i if kept i then (sqrtC (ev 0 i))^-1 else 0)
    & (herm_sqrt_inv tol x).2 = #|kept|].
Proof.
move=> t0 hx; rewrite /herm_sqrt_inv.
have specd (f : 'rV[C]_n) : specf 1%:M f = diag_mx f by rewrite /specf adj1 mul1mx mulmx1.
have rankE (ev : 'rV[C]_n) : (forall i, ev 0 i \is Num.real) ->
    ev_rank tol ev = #|[pred i | (tol < ev 0 i)%R]|.
  move=> er; rewrite /ev_rank -[X in (X - _)%N](card_ord n) -(cardC [pred i | (tol < ev 0 i)%R]).
  rewrite [X in (_ + X - _)%N](_ : _ = #|[pred i | (ev 0 i <= tol)%R]|) ?addnK //.
  by apply: eq_card => i; rewrite !inE -real_leNgt // ger0_real.
have condE (ev : 'rV[C]_n) i : (forall i, ev 0 i \is Num.real) -> (ev 0 i <= tol) = ~~ (tol < ev 0 i).
  by move=> er; rewrite real_ltNge ?negbK // ger0_real.
have [isE|nE] := boolP (is_eye x).
  have e1 : toarray x = 1%:M by apply/matrixP=> i j; rewrite (is_eyeE isE) mxE.
  exists 1%:M, (const_mx 1), predT; split; split=> //=; rewrite ?adj1 ?mul1mx ?e1 ?specd ?diag_const_mx //.
  - by move=> i; rewrite mxE real1.
  - by move=> i _; rewrite mxE ltr01.
  - by rewrite -diag_const_mx; congr diag_mx; apply/rowP=> i; rewrite !mxE sqrtC1.
  - by rewrite -diag_const_mx; congr diag_mx; apply/rowP=> i; rewrite !mxE sqrtC1 invr1.
  - by rewrite card_ord.
case ed: (attr_diag x) => [ev|] /=.
  have e1 : toarray x = diag_mx ev.
    apply/matrixP=> i j; rewrite (attr_diagE ed) !mxE -val_eqE /=.
    by case: eqP => [/val_inj->|]; rewrite ?mulr1n ?mulr0n.
  have er i : ev 0 i \is Num.real.
    by apply/CrealP; have /matrixP/(_ i i) := hx; rewrite e1 !mxE !eqxx !mulr1n.
  exists 1%:M, ev, [pred i | (tol < ev 0 i)%R]; split; split=> //=; rewrite ?adj1 ?mul1mx ?e1 ?specd ?rankE //.
  - by move=> i; exact: le_lt_trans.
  - apply/matrixP=> i j; rewrite !mxE condE //.
    by case: eqP => [->|_]; rewrite ?mulr0n // mulr1n; case: (tol < _).
  - apply/matrixP=> i j; rewrite !mxE condE //.
    by case: eqP => [->|_]; rewrite ?mulr0n // mulr1n; case: (tol < _); rewrite //= div1r.
have := eighP hx; case: (eigh (toarray x)) => ev EV /and4P[/= /eqP h1 /eqP h2 /forallP er _].
exists EV, ev, [pred i | (tol < ev 0 i)%R]; split; split=> //=; rewrite ?rankE //.
- by rewrite /specf -h2 -mulmxA (unitary_sym h1) mulmx1.
- by move=> i; exact: le_lt_trans.
- rewrite mmul_diag_rE /specf mulmxA; congr (_ *m diag_mx _ *m _); apply/rowP=> i; rewrite !mxE condE //.
  by case: (tol < _).
- rewrite mmul_diag_rE /specf mulmxA; congr (_ *m diag_mx _ *m _); apply/rowP=> i; rewrite !mxE condE //.
  by case: (tol < _); rewrite //= div1r.
Qed.

Section SqrtInv.
Variables (tol : C) (n : nat) (x : smat C n n).
Hypotheses (tol0 : 0 <= tol) (hx : herm (toarray x)).
Let X := toarray x.
Let S := toarray (herm_sqrt_inv tol x).1.1.
Let Si := toarray (herm_sqrt_inv tol x).1.2.

Lemma hsi_herm : [/\ herm S, psd S, herm Si & psd Si].
Proof.
have [EV [ev [kept [[h1 h2 er kp _] [e1 e2 _]]]]] := herm_sqrt_invE tol0 hx.
rewrite /S /Si e1 e2.
have p1 i : 0 <= (\row_j if kept j then sqrtC (ev 0 j) else 0) 0 i.
  by rewrite mxE; case: ifP => // /kp h; rewrite sqrtC_ge0 ltW.
have p2 i : 0 <= (\row_j if kept j then (sqrtC (ev 0 j))^-1 else 0) 0 i.
  by rewrite mxE; case: ifP => // /kp h; rewrite invr_ge0 sqrtC_ge0 ltW.
by split; [apply: specf_herm => i; apply/ger0_real | apply: specf_psd | apply: specf_herm => i; apply/ger0_real | apply: specf_psd].
Qed.

Lemma hsi_mul : [/\ S *m Si = Si *m S, (S *m Si) *m (S *m Si) = S *m Si, Si *m X = S, X *m Si = S
                  & S *m S = (S *m Si) *m X].
Proof.
have [EV [ev [kept [[h1 h2 er kp _] [e1 e2 _]]]]] := herm_sqrt_invE tol0 hx.
rewrite /S /Si /X h2 e1 e2 !specfM //; split; congr specf; apply/rowP=> i; rewrite !mxE ?(mulrC (if kept i then sqrtC _ else 0)) //;
  case: ifP => [/kp h|_]; rewrite ?mulr0 ?mul0r //; have s0 : sqrtC (ev 0 i) != 0 by rewrite sqrtC_eq0 gt_eqF.
- by rewrite mulVf ?mulr1.
- by rewrite -{2}[ev 0 i]sqrtCK expr2 mulKf.
- by rewrite -{1}[ev 0 i]sqrtCK expr2 -mulrA divff ?mulr1.
- by rewrite mulVf // mul1r -expr2 sqrtCK.
Qed.

Lemma hsi_rank : (herm_sqrt_inv tol x).2 = \rank S /\ \rank Si = \rank S.
Proof.
have [EV [ev [kept [[h1 h2 er kp _] [e1 e2 ->]]]]] := herm_sqrt_invE tol0 hx.
rewrite /S /Si e1 e2 !specf_rank //; split; apply: eq_card => i; rewrite !inE !mxE -?topredE /=;
  case: ifP => [/kp h|_]; rewrite ?eqxx ?invr_eq0 ?sqrtC_eq0 ?gt_eqF //.
Qed.

(* S Si is the spectral projector onto the eigenvalues above the tolerance *)
Lemma hsi_proj a (v : 'cV[C]_n) : ~~ is_eye x -> X *m v = a *: v ->
  (S *m Si) *m v = if tol < a then v else 0.
Proof.
move=> ne; have [EV [ev [kept [[h1 h2 er kp kE] [e1 e2 _]]]]] := herm_sqrt_invE tol0 hx.
rewrite /S /Si /X h2 e1 e2 specfM // => e.
have -> : (if tol < a then v else 0) = (nat_of_bool (tol < a)%R)%:R *: v by case: ifP; rewrite ?scale1r ?scale0r.
apply: (specf_eigen h1 e) => i ei; rewrite !mxE kE (negPf ne) /= ei; case: ifP => [h|_]; rewrite ?mulr0 //.
by rewrite divff // sqrtC_eq0 gt_eqF // (le_lt_trans tol0 h).
Qed.

(* full rank: an honest square root and its inverse *)
Lemma hsi_full : (forall a (v : 'cV[C]_n), v != 0 -> X *m v = a *: v -> tol < a) ->
  [/\ S *m S = X, S *m Si = 1%:M, Si *m S = 1%:M, Si *m Si = invmx X & (herm_sqrt_inv tol x).2 = n].
Proof.
move=> full; have [EV [ev [kept [[h1 h2 er kp kE] [e1 e2 e3]]]]] := herm_sqrt_invE tol0 hx.
have ka i : kept i.
  have [c1 c2] := specf_col ev i h1; rewrite kE; apply/orP; right; apply: (full _ _ c2).
  by rewrite -c1 -h2.
have sq : S *m S = X.
  rewrite /S /X h2 e1 specfM //; congr specf; apply/rowP=> i; rewrite !mxE ka -expr2 sqrtCK //.
have s1 : S *m Si = 1%:M.
  rewrite /S /Si e1 e2 specfM //; apply: specf1 => // i; rewrite !mxE ka divff //.
  by rewrite sqrtC_eq0 gt_eqF // kp.
have s2 : Si *m S = 1%:M by apply: mulmx1C.
have e4 : (Si *m Si) *m X = 1%:M by rewrite -sq mulmxA -(mulmxA Si Si S) s2 mulmx1 s2.
split=> //; last by rewrite e3 -[RHS](card_ord n); apply: eq_card => i; rewrite -topredE /= ka.
have uX : X \in unitmx by case/mulmx1_unit: e4.
by rewrite -[LHS]mulmx1 -(mulmxV uX) mulmxA e4 mul1mx.
Qed.

(* positive semi-definite matrix with zero_tol = 0: exact root and Moore-Penrose pseudo-inverse *)
Lemma hsi_psd : psd X -> tol = 0 ->
  [/\ S *m S = X, X *m (Si *m Si) *m X = X & (herm_sqrt_inv tol x).2 = \rank X].
Proof.
move=> pX t0; have [EV [ev [kept [[h1 h2 er kp kE] [e1 e2 e3]]]]] := herm_sqrt_invE tol0 hx.
have ev0 i : 0 <= ev 0 i.
  have := psd_diag_ge0 i (psd_sandwich EV pX); rewrite /X h2 /specf !mulmxA h1 mul1mx -mulmxA h1 mulmx1 mxE eqxx.
  by rewrite mulr1n.
have k0 i : kept i = (0 < ev 0 i).
  by apply/idP/idP => [/kp|h] //; rewrite kE t0 h orbT.
have nk i : kept i = false -> ev 0 i = 0.
  by rewrite k0 lt_def ev0 andbT => /negbFE/eqP.
have sq : S *m S = X.
  rewrite /S /X h2 e1 specfM //; congr specf; apply/rowP=> i; rewrite !mxE.
  by case: ifP => [_|/nk ->]; rewrite -expr2 ?sqrtCK // expr0n.
split=> //.
- have [_ _ a1 a2 _] := hsi_mul.
  by rewrite mulmxA a2 -mulmxA a1 sq.
- rewrite e3 /X h2 specf_rank //; apply: eq_card => i; rewrite -topredE /= !inE k0 lt_def ev0 andbT //.
Qed.
End SqrtInv.

(* ---- herm_fac_with_inv --------------------------------------------------- *)
Lemma upper_card n (P : pred 'I_n) : (forall i j : 'I_n, (i <= j)%N -> P i -> P j) ->
  forall i : 'I_n, P i = (n - #|P| <= i)%N.
Proof.
move=> up i; have cP := cardC P; rewrite card_ord in cP.
have -> : (n - #|P| = #|predC P|)%N by apply: (canLR (addKn _)); exact/esym.
have cl m : (m <= n)%N -> #|[pred j : 'I_n | (j < m)%N]| = m.
  by move=> mn; rewrite -sum1_card (big_ord_narrow mn) sum1_card card_ord.
apply/idP/idP => h.
  rewrite -[X in (_ <= X)%N](cl i (ltnW (ltn_ord i))); apply/subset_leq_card/subsetP => j.
  rewrite !inE; apply: contraR; rewrite -leqNgt => ij; exact: up ij h.
apply: contraLR h => nP; rewrite -ltnNge -[X in (X <= _)%N](cl i.+1 (ltn_ord i)).
apply/subset_leq_card/subsetP => j; rewrite !inE ltnS => ji; apply: contra nP; exact: up.
Qed.

(* the matrix 'eye' of the sanity checks: ones in the last k diagonal positions *)
Definition eye_tail n k : 'M[C]_n := \matrix_(i, j) ((i == j) && (n - k <= i)%N)%:R.
Lemma eye_tail1 n : eye_tail n n = 1%:M.
Proof. by apply/matrixP=> i j; rewrite !mxE subnn leq0n andbT. Qed.
Lemma eye_tailE n k (f : 'rV[C]_n) : (forall i, f 0 i = (n - k <= i)%N%:R) -> diag_mx f = eye_tail n k.
Proof.
move=> h; apply/matrixP=> i j; rewrite !mxE; case: eqP => [->|_]; last by rewrite mulr0n.
by rewrite mulr1n h.
Qed.

Section FacEvd.
Variables (tol : C) (n : nat) (A : 'M[C]_n).
Hypotheses (tol0 : 0 <= tol) (hA : herm A).
Definition noev := forall a (v : 'cV[C]_n), v != 0 -> A *m v = a *: v -> a <= tol.

Lemma fac_evdE : exists EV : 'M[C]_n, exists ev : 'rV[C]_n, exists k : nat,
  [/\ EV^† *m EV = 1%:M, A = specf EV ev, forall i, ev 0 i \is Num.real &
      (k <= n)%N /\ forall i, (tol < ev 0 i) = (n - k <= i)%N] /\
  forall lower, fac_evd lower tol A =
    if [exists i : 'I_n, (tail_start n k <= i)%N && (ev 0 i == 0)] then None else
    let f := \row_(i < n) if (tail_start n k <= i)%N then sqrtC (ev 0 i) else 0 in
    let g := \row_(i < n) if (tail_start n k <= i)%N then (sqrtC (ev 0 i))^-1 else 0 in
    Some (if lower then EV *m diag_mx f else diag_mx f *m EV^†,
          if lower then diag_mx g *m EV^† else EV *m diag_mx g, k).
Proof.
rewrite /fac_evd; have := eighP hA; case: (eigh A) => ev EV /and4P[/= /eqP h1 /eqP h2 /forallP er /forallP so].
have up (i j : 'I_n) : (i <= j)%N -> tol < ev 0 i -> tol < ev 0 j.
  move=> ij h; apply: lt_le_trans h _; exact: (implyP (forallP (so i) j)).
exists EV, ev, #|[pred i | (tol < ev 0 i)%R]|; split.
  split=> //; first by rewrite /specf -h2 -mulmxA (unitary_sym h1) mulmx1.
  by split; [rewrite -[X in (_ <= X)%N](card_ord n); exact: max_card | move=> i; exact: (upper_card up)].
move: #|_| => k lower.
have -> : [exists i : 'I_n, (tail_start n k <= i)%N &&
    ((\row_(i < n) (if (tail_start n k <= i)%N then sqrtC (ev 0 i) else 0)) 0 i == 0)] =
    [exists i : 'I_n, (tail_start n k <= i)%N && (ev 0 i == 0)].
  by apply: eq_existsb => i; rewrite !mxE; case: ifP => //= _; rewrite sqrtC_eq0.
case: ifP => // _.
have -> : \row_(i < n) (if (tail_start n k <= i)%N
    then 1 / (\row_i0 (if (tail_start n k <= i0)%N then sqrtC (ev 0 i0) else 0)) 0 i else 0) =
    \row_(i < n) if (tail_start n k <= i)%N then (sqrtC (ev 0 i))^-1 else 0.
  by apply/rowP=> i; rewrite !mxE; case: ifP => // ->; rewrite div1r.
by case: lower; rewrite mmul_diag_rE mmul_diag_lE.
Qed.

(* the division by zero happens exactly for singular matrices without eigenvalue above zero_tol *)
Lemma fac_evd_None lower : fac_evd lower tol A = None <-> noev /\ A \notin unitmx.
Proof.
have [EV [ev [k [[h1 h2 er [kn kE]] ->]]]] := fac_evdE.
have un : (A \in unitmx) = [forall i, ev 0 i != 0].
  have uE : EV \in unitmx by case/mulmx1_unit: h1.
  have uE' : EV^† \in unitmx by case/mulmx1_unit: h1.
  rewrite h2 /specf !unitmx_mul uE uE' andbT /= unitmxE det_diag unitfE.
  apply/idP/forallP => [/prodf_neq0 h i|h]; [exact: h | by apply/prodf_neq0].
have nE : noev <-> k = 0%N.
  split=> [ne|k0 a v v0 e].
    apply/eqP; rewrite -leqn0 leqNgt; apply/negP => k0.
    have n0 : (n.-1 < n)%N by rewrite prednK // (leq_trans k0 kn).
    have := kE (Ordinal n0); have [c1 c2] := specf_col ev (Ordinal n0) h1.
    have := ne _ _ c2; rewrite h2 => /(_ _ c1) h.
    by rewrite le_gtF //= => /esym/negbT; rewrite -ltnNge; lia.
  have ar : a \is Num.real.
    have := specf_eigen h1 (_ : specf EV ev *m v = a *: v).
    rewrite -h2 => /(_ (\row_i (ev 0 i == a)%:R) e 1) h.
    apply: contraR v0 => ar; rewrite -[v]scale1r -h.
      have -> : \row_i (ev 0 i == a)%:R = 0 :> 'rV[C]_n.
        by apply/rowP=> i; rewrite !mxE; case: eqP => // ea; rewrite -ea er in ar.
      by rewrite /specf linear0 mulmx0 !mul0mx.
    by move=> i <-; rewrite mxE eqxx.
  rewrite (real_leNgt ar (ger0_real tol0)); apply/negP=> ta.
  have := specf_eigen h1 (_ : specf EV ev *m v = a *: v).
  rewrite -h2 => /(_ 0 e 1) h; case/negP: v0; rewrite -[v]scale1r -h; first by rewrite /specf linear0 mulmx0 !mul0mx.
  by move=> i ea; have := kE i; rewrite ea ta k0 subn0 leqNgt ltn_ord.
rewrite un; split.
  case: ifP => // /existsP[i /andP[t0 e0]] _; have k0 : k = 0%N.
    move: t0; rewrite /tail_start; case: eqP => // _; rewrite -kE (eqP e0) => h.
    by have := lt_le_trans h tol0; rewrite ltxx.
  by split; [apply/nE | rewrite negb_forall; apply/existsP; exists i; rewrite e0].
move=> [/nE k0]; rewrite negb_forall => /existsP[i]; rewrite negbK => e0.
by rewrite ifT //; apply/existsP; exists i; rewrite /tail_start k0 eqxx leq0n e0.
Qed.

Lemma fac_evd_prod lower x xi k : fac_evd lower tol A = Some (x, xi, k) -> (0 < k)%N ->
  [/\ k = \rank x,
      (if lower then xi *m x else x *m xi) = eye_tail n k,
      (if lower then xi *m A *m xi^† else xi^† *m A *m xi) = eye_tail n k &
      let P := if lower then x *m xi else xi *m x in
      [/\ (if lower then x *m x^† else x^† *m x) = P *m A, herm P, P *m P = P
        & forall a (v : 'cV[C]_n), A *m v = a *: v -> P *m v = if tol < a then v else 0]].
Proof.
have [EV [ev [k' [[h1 h2 er [kn kE]] ->]]]] := fac_evdE.
case: ifP => // nz [<- <- <-] k0; rewrite /tail_start (gtn_eqF k0) /=.
have f0 (i : 'I_n) : (n - k' <= i)%N -> 0 < ev 0 i by rewrite -kE => h; exact: le_lt_trans h.
set f := \row_i _; set g := \row_i _.
have s0 (i : 'I_n) : (n - k' <= i)%N -> sqrtC (ev 0 i) != 0 by move/f0 => h; rewrite sqrtC_eq0 gt_eqF.
have rf : (diag_mx f)^† = diag_mx f.
  apply/matrixP=> i j; rewrite !mxE rmorphMn /= eq_sym; case: eqP => [->|_]; rewrite ?mulr0n // !mulr1n.
  by case: ifP => [/f0 h|_]; rewrite ?conjC0 //; apply/CrealP/ger0_real; rewrite sqrtC_ge0 ltW.
have rg : (diag_mx g)^† = diag_mx g.
  apply/matrixP=> i j; rewrite !mxE rmorphMn /= eq_sym; case: eqP => [->|_]; rewrite ?mulr0n // !mulr1n.
  by case: ifP => [/f0 h|_]; rewrite ?conjC0 //; apply/CrealP/ger0_real; rewrite invr_ge0 sqrtC_ge0 ltW.
have fg : diag_mx f *m diag_mx g = eye_tail n k'.
  rewrite -diag_mx_mul; apply: eye_tailE => i; rewrite !mxE; case: ifP => [/s0 h|_]; rewrite ?mulr0 //.
  by rewrite divff.
have gf : diag_mx g *m diag_mx f = eye_tail n k'.
  rewrite -diag_mx_mul; apply: eye_tailE => i; rewrite !mxE; case: ifP => [/s0 h|_]; rewrite ?mulr0 //.
  by rewrite mulVf.
have geg : diag_mx g *m diag_mx ev *m diag_mx g = eye_tail n k'.
  rewrite -!diag_mx_mul; apply: eye_tailE => i; rewrite !mxE; case: ifP => [h|_]; rewrite ?mulr0 //.
  by rewrite -{2}[ev 0 i]sqrtCK expr2 mulKf ?divff ?s0.
have dd : eye_tail n k' = diag_mx (\row_(i < n) (n - k' <= i)%N%:R).
  by apply/esym/eye_tailE => i; rewrite mxE.
pose t : 'rV[C]_n := \row_(i < n) (n - k' <= i)%N%:R.
have PE : (if lower then EV *m diag_mx f *m (diag_mx g *m EV^†) else EV *m diag_mx g *m (diag_mx f *m EV^†)) = specf EV t.
  by case: (lower); rewrite /specf !mulmxA -(mulmxA EV) ?fg ?gf dd.
have uE : EV \in unitmx by case/mulmx1_unit: h1.
have uE' : EV^† \in unitmx by case/mulmx1_unit: h1.
have fE : row_full EV by rewrite row_full_unit.
split.
- have -> : \rank (if lower then EV *m diag_mx f else diag_mx f *m EV^†) = \rank (diag_mx f).
    case: (lower); first by rewrite (eqmxMfull _ fE).
    by rewrite mxrankMfree // row_free_unit.
  rewrite rank_diag; have <- : #|[pred i : 'I_n | (n - k' <= i)%N]| = k'.
    have := cardC [pred i : 'I_n | (n - k' <= i)%N]; rewrite card_ord.
    have -> : #|predC [pred i : 'I_n | (n - k' <= i)%N]| = (n - k')%N.
      rewrite (eq_card (_ : _ =i [pred i : 'I_n | (i < n - k')%N])) => [|i]; last by rewrite !inE -ltnNge.
      by rewrite -sum1_card (big_ord_narrow (leq_subr k' n)) sum1_card card_ord.
    by move=> h; apply/eqP; rewrite -(eqn_add2r (n - k')) h subnKC.
  by apply: eq_card => i; rewrite !inE mxE; case: ifP => [/s0 ->|_]; rewrite ?eqxx.
- by case: (lower); rewrite !mulmxA -(mulmxA _ EV^† EV) h1 mulmx1.
- case: (lower); rewrite h2 /specf ?adjM rg ?adjK !mulmxA -(mulmxA _ EV^† EV) h1 mulmx1 -(mulmxA _ EV^† EV) h1 mulmx1 //.
move: PE; rewrite [X in X = _ -> _](_ : _ = if lower then
  (if lower then EV *m diag_mx f else diag_mx f *m EV^†) *m (if lower then diag_mx g *m EV^† else EV *m diag_mx g)
  else (if lower then diag_mx g *m EV^† else EV *m diag_mx g) *m (if lower then EV *m diag_mx f else diag_mx f *m EV^†));
  last by case: (lower).
move=> ->; split.
- have -> : (if lower then (if lower then EV *m diag_mx f else diag_mx f *m EV^†) *m
      (if lower then EV *m diag_mx f else diag_mx f *m EV^†)^†
    else (if lower then EV *m diag_mx f else diag_mx f *m EV^†)^† *m
      (if lower then EV *m diag_mx f else diag_mx f *m EV^†)) = specf EV (rmul f f).
    by case: (lower); rewrite adjM rf ?adjK /specf !mulmxA -(mulmxA EV) -diag_mx_mul.
  rewrite [in RHS]h2 specfM //; congr specf; apply/rowP=> i; rewrite !mxE; case: ifP => _; rewrite ?mulr0 ?mul0r //.
  by rewrite mul1r -expr2 sqrtCK.
- by apply: specf_herm => i; rewrite mxE realn.
- by rewrite specfM //; congr specf; apply/rowP=> i; rewrite !mxE; case: (_ <= _)%N; rewrite ?mulr1 ?mulr0.
- move=> a v; rewrite [in X in X -> _]h2 => e.
  have -> : (if tol < a then v else 0) = (nat_of_bool (tol < a)%R)%:R *: v by case: ifP; rewrite ?scale1r ?scale0r.
  by apply: (specf_eigen h1 e) => i ei; rewrite mxE -kE ei.
Qed.
End FacEvd.

Hypothesis cholP : chol_contract chol.

Lemma chol_unit n lower (A x : 'M[C]_n) : chol_ok lower A x -> x \in unitmx.
Proof.
case=> _ tx dx; have : (if lower then x else x^T) \in unitmx.
  rewrite unitmxE det_trig // unitfE; apply/prodf_neq0 => i _.
  by case: (lower); rewrite ?mxE dx.
by case: (lower); rewrite ?unitmx_tr.
Qed.

(* Cholesky branch: exact factor, exact inverse *)
Lemma fac_chol lower tol n (A x : 'M[C]_n) : herm A -> chol lower A = Some x ->
  herm_fac_with_inv false lower tol A = Some (x, invmx x, n) /\
  [/\ (if lower then x *m x^† else x^† *m x) = A, x *m invmx x = 1%:M, invmx x *m x = 1%:M,
      (if lower then invmx x *m A *m (invmx x)^† else (invmx x)^† *m A *m invmx x) = 1%:M
    & n = \rank x].
Proof.
move=> hA ex; have ok := cholP hA ex; have ux := chol_unit ok; case: ok => eA _ dx.
rewrite /herm_fac_with_inv ex /invtr ifN; last by rewrite negb_exists; apply/forallP.
split=> //; split=> //; rewrite ?mulmxV ?mulVmx ?mxrank_unit //.
have ex' : (invmx x *m x)^† = 1%:M by rewrite mulVmx // adj1.
have ex2 : (x *m invmx x)^† = 1%:M by rewrite mulmxV // adj1.
rewrite adjM in ex'; rewrite adjM in ex2.
case: (lower) eA => <-; rewrite !mulmxA ?mulVmx ?mul1mx //.
by rewrite ex2 mul1mx mulmxV.
Qed.

(* ---- nullspace_qr -------------------------------------------------------- *)
Hypothesis qrfP : qrf_contract qrf.

Lemma nullspace_qrP m k (A : 'M[C]_(m, k)) :
  A *m nullspace_qr A = 0 /\ (nullspace_qr A)^† *m nullspace_qr A = 1%:M.
Proof.
rewrite /nullspace_qr; have := qrfP A^T; case: (qrf A^T) => Q R /and3P[/= /eqP qq /eqP qr /forallP tr].
have qE (a b : 'I_k) : \sum_l (Q l a)^* * Q l b = (a == b)%:R.
  have := congr1 (fun M : 'M[C]_k => M a b) qq; rewrite !mxE => <-.
  by apply: eq_bigr => l _; rewrite adjE.
split.
  apply/matrixP=> i j; rewrite !mxE.
  have aE l : A i l = \sum_p Q l p * R p i.
    by have := congr1 (fun M : 'M[C]_(k, m) => M l i) qr; rewrite !mxE => <-.
  transitivity (\sum_p R p i * \sum_l (Q l (ns_idx j))^* * Q l p).
    under eq_bigr => l _ do rewrite mxE aE mulr_suml.
    rewrite exchange_big /=; apply: eq_bigr => p _; rewrite mulr_sumr; apply: eq_bigr => l _.
    by rewrite (mulrC (Q l p)) -mulrA (mulrC (Q l p)).
  rewrite (bigD1 (ns_idx j)) //= qE eqxx mulr1 big1 => [|p pj]; last by rewrite qE eq_sym (negPf pj) mulr0.
  rewrite addr0; apply/eqP/(implyP (forallP (tr (ns_idx j)) i)); rewrite /= ltn_addr //.
apply/matrixP=> i j; rewrite !mxE.
transitivity (\sum_l (Q l (ns_idx j))^* * Q l (ns_idx i)).
  by apply: eq_bigr => l _; rewrite !mxE conjCK mulrC.
rewrite qE eq_sym; congr (_%:R); congr nat_of_bool; apply/eqP/eqP => [|-> //].
by move/(congr1 val) => /= /addnI/val_inj.
Qed.

(* with linearly independent rows the columns span the whole null space *)
Lemma nullspace_qr_complete m k (A : 'M[C]_(m, k)) : \rank A = m ->
  forall p (v : 'M[C]_(k, p)), A *m v = 0 -> exists y, v = nullspace_qr A *m y.
Proof.
move=> rA p v Av; have [h1 h2] := nullspace_qrP A.
set N := nullspace_qr A in h1 h2 *.
have mk : (m <= k)%N by rewrite -rA rank_leq_col.
have rN : \rank N = (k - m)%N.
  apply/eqP; rewrite eqn_leq rank_leq_col /=.
  by have := mxrankM_maxr N^† N; rewrite h2 mxrank1.
have sub : (N^T <= kermx A^T)%MS by rewrite sub_kermx -trmx_mul h1 trmx0.
have /eqmxP eq : (N^T == kermx A^T)%MS by rewrite -(mxrank_leqif_eq sub) mxrank_ker !mxrank_tr rN rA.
have : (v^T <= kermx A^T)%MS by rewrite sub_kermx -trmx_mul Av trmx0.
rewrite -eq => /submxP[y e]; exists y^T.
by rewrite -[v]trmxK e trmx_mul trmxK.
Qed.

(* ---- gauge-fixing bases -------------------------------------------------- *)
Section VshP.
Variables (q Dm1 D : nat) (A : nat -> 'M[C]_(Dm1, D)).

Lemma sum_tens m n (F : 'I_m -> 'I_n -> C) :
  \sum_w F (mxtens_unindex w).1 (mxtens_unindex w).2 = \sum_i \sum_j F i j.
Proof.
rewrite pair_big (reindex (@mxtens_index m n)); last first.
  by exists (@mxtens_unindex m n) => x _; rewrite ?mxtens_indexK ?mxtens_unindexK.
by apply: eq_bigr => ij _; rewrite mxtens_indexK; case: ij.
Qed.

Lemma vsh_atP (r_s : smat C D D) : herm (toarray r_s) ->
  \sum_(s < q) A s *m toarray r_s *m vsh_at q A r_s s = 0 /\
  \sum_(s < q) (vsh_at q A r_s s)^† *m vsh_at q A r_s s = 1%:M.
Proof.
move=> hr; have [h1 h2] := nullspace_qrP (vsh_R q A r_s)^†.
have vE (s : 'I_q) d k : vsh_at q A r_s s d k = nullspace_qr (vsh_R q A r_s)^† (mxtens_index (d, s)) k.
  by rewrite mxE valK.
split; apply/matrixP=> a k.
  have e : ((vsh_R q A r_s)^† *m nullspace_qr (vsh_R q A r_s)^†) a k = 0 by rewrite h1 mxE.
  rewrite [RHS]mxE -e [RHS]mxE.
  transitivity (\sum_(d < D) \sum_(s < q) (A s *m toarray r_s) a d * vsh_at q A r_s s d k).
    by rewrite exchange_big /= summxE; apply: eq_bigr => s _; rewrite mxE.
  rewrite -(sum_tens (fun d (s : 'I_q) => (A s *m toarray r_s) a d * vsh_at q A r_s s d k)).
  apply: eq_bigr => w _; rewrite vE -surjective_pairing mxtens_unindexK; congr (_ * _).
  by rewrite [RHS]adjE /vsh_R [in RHS]mxE dotE /= -[RHS]adjE adjM adjK hr.
rewrite -h2 [RHS]mxE.
transitivity (\sum_(d < D) \sum_(s < q) (vsh_at q A r_s s)^† a d * vsh_at q A r_s s d k).
  by rewrite exchange_big /= summxE; apply: eq_bigr => s _; rewrite mxE.
rewrite -(sum_tens (fun d (s : 'I_q) => (vsh_at q A r_s s)^† a d * vsh_at q A r_s s d k)).
by apply: eq_bigr => w _; rewrite adjE !vE -surjective_pairing mxtens_unindexK adjE.
Qed.

Lemma vshl_atP (l_s : smat C Dm1 Dm1) : herm (toarray l_s) ->
  \sum_(s < q) vshl_at q A l_s s *m toarray l_s *m A s = 0 /\
  \sum_(s < q) vshl_at q A l_s s *m (vshl_at q A l_s s)^† = 1%:M.
Proof.
move=> hl; have [h1 h2] := nullspace_qrP (vshl_L q A l_s).
have vE (s : 'I_q) d k : (vshl_at q A l_s s)^† d k = nullspace_qr (vshl_L q A l_s) (mxtens_index (s, d)) k.
  by rewrite adjK mxE valK.
split; apply/matrixP=> k a.
  have e : ((vshl_L q A l_s *m nullspace_qr (vshl_L q A l_s)) a k)^* = 0 by rewrite h1 mxE conjC0.
  rewrite [RHS]mxE -e [X in _ = X^*]mxE rmorph_sum.
  transitivity (\sum_(s < q) \sum_(d < Dm1) ((vshl_at q A l_s s)^† d k)^* * (toarray l_s *m A s) d a).
    rewrite summxE; apply: eq_bigr => s _; rewrite -mulmxA mxE; apply: eq_bigr => d _.
    by rewrite [in RHS]adjE conjCK.
  rewrite -(sum_tens (fun (s : 'I_q) d => ((vshl_at q A l_s s)^† d k)^* * (toarray l_s *m A s) d a)).
  apply: eq_bigr => w _; rewrite vE -surjective_pairing mxtens_unindexK mulrC rmorphM; congr (_ * _).
  by rewrite /vshl_L [in RHS]mxE adjE dotE conjCK.
rewrite -h2 [RHS]mxE.
transitivity (\sum_(s < q) \sum_(d < Dm1) ((vshl_at q A l_s s)^† d k)^* * (vshl_at q A l_s s)^† d a).
  rewrite summxE; apply: eq_bigr => s _; rewrite mxE; apply: eq_bigr => d _.
  by rewrite [X in _ = X^* * _]adjE conjCK.
rewrite -(sum_tens (fun (s : 'I_q) d => ((vshl_at q A l_s s)^† d k)^* * (vshl_at q A l_s s)^† d a)).
by apply: eq_bigr => w _; rewrite !vE -surjective_pairing mxtens_unindexK adjE.
Qed.

(* completeness: everything annihilated by the stacked tensors is parametrised by the basis *)
Lemma vsh_complete (r_s : smat C D D) : herm (toarray r_s) ->
  \sum_(s < q) A s *m toarray r_s *m (A s *m toarray r_s)^† \in unitmx ->
  forall p (Z : nat -> 'M[C]_(D, p)), \sum_(s < q) A s *m toarray r_s *m Z s = 0 ->
  exists W, forall s, (s < q)%N -> Z s = vsh_at q A r_s s *m W.
Proof.
move=> hr un p Z hZ; set M := (vsh_R q A r_s)^†.
have ME a w : M a w = (A (mxtens_unindex w).2 *m toarray r_s) a (mxtens_unindex w).1.
  by rewrite /M adjE /vsh_R [in LHS]mxE dotE /= -[LHS]adjE adjM adjK hr.
have MM : M *m M^† = \sum_(s < q) A s *m toarray r_s *m (A s *m toarray r_s)^†.
  apply/matrixP=> a b; rewrite mxE summxE.
  transitivity (\sum_(d < D) \sum_(s < q) (A s *m toarray r_s) a d * (A s *m toarray r_s)^† d b).
    rewrite -(sum_tens (fun d (s : 'I_q) => (A s *m toarray r_s) a d * (A s *m toarray r_s)^† d b)).
    by apply: eq_bigr => w _; rewrite ME [in LHS]adjE ME [in RHS]adjE.
  by rewrite exchange_big; apply: eq_bigr => s _; rewrite [RHS]mxE.
have rM : \rank M = Dm1.
  apply/eqP; rewrite eqn_leq rank_leq_row /=.
  by have := mxrankM_maxl M M^†; rewrite MM mxrank_unit.
pose v : 'M[C]_(D * q, p) := \matrix_(w, k) Z (mxtens_unindex w).2 (mxtens_unindex w).1 k.
have Mv : M *m v = 0.
  apply/matrixP=> a k; rewrite -hZ mxE summxE.
  transitivity (\sum_(d < D) \sum_(s < q) (A s *m toarray r_s) a d * Z s d k).
    rewrite -(sum_tens (fun d (s : 'I_q) => (A s *m toarray r_s) a d * Z s d k)).
    by apply: eq_bigr => w _; rewrite ME [v _ _]mxE.
  by rewrite exchange_big; apply: eq_bigr => s _; rewrite [RHS]mxE.
have [W eW] := nullspace_qr_complete rM Mv; exists W => s sq.
apply/matrixP=> d k; have := congr1 (fun X : 'M[C]_(D * q, p) => X (mxtens_index (d, Ordinal sq)) k) eW.
rewrite mxE mxtens_indexK /= => ->; rewrite mxE [RHS]mxE; apply: eq_bigr => j _; congr (_ * _).
rewrite mxE; case: insubP => [s' _ es|]; last by rewrite sq.
by congr (nullspace_qr _ (mxtens_index (_, _)) _); apply: val_inj.
Qed.
Lemma vshl_complete (l_s : smat C Dm1 Dm1) : herm (toarray l_s) ->
  \sum_(s < q) (toarray l_s *m A s)^† *m (toarray l_s *m A s) \in unitmx ->
  forall p (Z : nat -> 'M[C]_(Dm1, p)), \sum_(s < q) (toarray l_s *m A s)^† *m Z s = 0 ->
  exists W, forall s, (s < q)%N -> Z s = (vshl_at q A l_s s)^† *m W.
Proof.
move=> hl un p Z hZ; set M := vshl_L q A l_s.
have ME a w : M a w = (toarray l_s *m A (mxtens_unindex w).1)^† a (mxtens_unindex w).2.
  by rewrite /M /vshl_L [LHS]mxE dotE.
have MM : M *m M^† = \sum_(s < q) (toarray l_s *m A s)^† *m (toarray l_s *m A s).
  apply/matrixP=> a b; rewrite mxE summxE.
  transitivity (\sum_(s < q) \sum_(d < Dm1) (toarray l_s *m A s)^† a d * (toarray l_s *m A s) d b).
    rewrite -(sum_tens (fun (s : 'I_q) d => (toarray l_s *m A s)^† a d * (toarray l_s *m A s) d b)).
    by apply: eq_bigr => w _; rewrite [M^† _ _]adjE !ME; congr (_ * _); rewrite [X in X^*]adjE conjCK.
  by apply: eq_bigr => s _; rewrite [RHS]mxE.
have rM : \rank M = D.
  apply/eqP; rewrite eqn_leq rank_leq_row /=.
  by have := mxrankM_maxl M M^†; rewrite MM mxrank_unit.
pose v : 'M[C]_(q * Dm1, p) := \matrix_(w, k) Z (mxtens_unindex w).1 (mxtens_unindex w).2 k.
have Mv : M *m v = 0.
  apply/matrixP=> a k; rewrite -hZ mxE summxE.
  transitivity (\sum_(s < q) \sum_(d < Dm1) (toarray l_s *m A s)^† a d * Z s d k).
    rewrite -(sum_tens (fun (s : 'I_q) d => (toarray l_s *m A s)^† a d * Z s d k)).
    by apply: eq_bigr => w _; rewrite ME [v _ _]mxE.
  by apply: eq_bigr => s _; rewrite [RHS]mxE.
have [W eW] := nullspace_qr_complete rM Mv; exists W => s sq.
apply/matrixP=> d k; have := congr1 (fun X : 'M[C]_(q * Dm1, p) => X (mxtens_index (Ordinal sq, d)) k) eW.
rewrite mxE mxtens_indexK /= => ->; rewrite mxE [RHS]mxE; apply: eq_bigr => j _; congr (_ * _).
rewrite /vshl_at adjK mxE; case: insubP => [s' _ es|]; last by rewrite sq.
by congr (nullspace_qr _ (mxtens_index (_, _)) _); apply: val_inj.
Qed.
End VshP.

End Factor.

(* a Cholesky routine that succeeds on every positive definite matrix *)
Section Chol0.
Variable C : numClosedFieldType.
Definition chol_okb n (lower : bool) (A x : 'M[C]_n) : bool :=
  [&& (if lower then x *m x^† else x^† *m x) == A, is_trig_mx (if lower then x else x^T)
    & [forall i, x i i != 0]].
Lemma chol_okP n lower (A x : 'M[C]_n) : reflect (chol_ok lower A x) (chol_okb lower A x).
Proof.
apply: (iffP and3P) => [[/eqP h1 h2 /forallP h3]|[h1 h2 h3]]; split=> //; first exact/eqP.
exact/forallP.
Qed.
Definition posdefb n (A : 'M[C]_n) : bool :=
  (A^† == A) && [forall i, 0 < (@eigh0 C n A).1 0 i].

Lemma chol_exists n lower (A : 'M[C]_n) : exists x, posdefb A ==> chol_okb lower A x.
Proof.
have [/andP[/eqP hA /forallP pA]|_] := boolP (posdefb A); last by exists 0.
pose S := @sqrtmh C (@eigh0 C) n A.
have sS : S *m S = A by exact: (sqrtmhE (@eigh0_ok C) hA).
have [h1 h2] : (@eigh0 C n A).2^† *m (@eigh0 C n A).2 = 1%:M /\
    A *m (@eigh0 C n A).2 = (@eigh0 C n A).2 *m diag_mx (@eigh0 C n A).1.
  by have /and4P[/eqP a /eqP b _ _] := eigh0_ok hA.
have pdA : psd A.
  have -> : A = specf (@eigh0 C n A).2 (@eigh0 C n A).1.
    by rewrite /specf -h2 -mulmxA (unitary_sym h1) mulmx1.
  by apply: specf_psd => i; exact: ltW.
have hS : herm S by exact: (sqrtmh_herm (@eigh0_ok C) hA pdA).
have uA : A \in unitmx.
  have uE : (@eigh0 C n A).2 \in unitmx by case/mulmx1_unit: h1.
  have : A *m (@eigh0 C n A).2 \in unitmx.
    rewrite h2 unitmx_mul uE unitmxE det_diag unitfE; apply/prodf_neq0 => i _; by rewrite gt_eqF.
  by rewrite unitmx_mul => /andP[].
have [[Q R] /and3P[/= /eqP qq /eqP qr /forallP tr]] := qrf_exists S.
have rr : R^† *m R = A.
  have : S^† *m S = A by rewrite hS.
  by rewrite -qr adjM mulmxA -(mulmxA R^†) qq mulmx1.
have tR : is_trig_mx R^T.
  by apply/is_trig_mxP => i j ij; rewrite mxE; apply/eqP/(implyP (forallP (tr j) i)).
have uR : R \in unitmx by move: uA; rewrite -rr unitmx_mul => /andP[].
have dR i : R i i != 0.
  have : R^T \in unitmx by rewrite unitmx_tr.
  by rewrite unitmxE det_trig // unitfE => /prodf_neq0/(_ i isT); rewrite mxE.
exists (if lower then R^† else R); apply/chol_okP.
case: lower; split=> //; rewrite ?adjK //.
- apply/is_trig_mxP => i j ij; rewrite adjE; move/is_trig_mxP: tR => /(_ i j ij).
  by rewrite mxE => ->; rewrite conjC0.
- by move=> i; rewrite adjE conjC_eq0.
Qed.
Definition chol0 : chol_routine C := fun n lower A =>
  if posdefb A then Some (xchoose (chol_exists lower A)) else None.
Lemma chol0_ok : chol_contract chol0.
Proof.
move=> n lower A x hA; rewrite /chol0; case: ifP => // pA [<-]; apply/chol_okP.
exact: (implyP (xchooseP (chol_exists lower A)) pA).
Qed.
End Chol0.
