(* Svd.v -- contract of scipy.linalg.svd and the existence of singular value decompositions, so that
   theorems quantifying over a routine with this contract are not vacuous. *)
From mathcomp Require Import all_ssreflect all_algebra.
From mathcomp Require Import zify.
From Verif Require Import Base LinAlg.
Set Implicit Arguments.
Unset Strict Implicit.
Unset Printing Implicit Defensive.
Import Order.TTheory GRing.Theory Num.Theory.
Local Open Scope ring_scope.

Section Svd.
Variable C : numClosedFieldType.

(* the m x n matrix with sv on its diagonal *)
Definition diagS m n (sv : nat -> C) : 'M[C]_(m, n) := \matrix_(i, j) (sv i *+ (i == j :> nat)).
(* scipy.linalg.svd(M): U (m x m) and Vh (n x n) unitary, min(m, n) singular values, non-negative and
   in descending order, M = U S Vh.  The array of singular values is a function on indices. *)
Definition svd_out m n := ('M[C]_m * 'rV[C]_(minn m n) * 'M[C]_n)%type.
Definition svn k (sv : 'rV[C]_k) (i : nat) : C := if insub i is Some j then sv 0 j else 0.
Definition svd_ok m n (M : 'M[C]_(m, n)) (o : svd_out m n) : bool :=
  [&& o.1.1^† *m o.1.1 == 1%:M, o.2 *m o.2^† == 1%:M,
      M == o.1.1 *m diagS m n (svn o.1.2) *m o.2,
      [forall i, 0 <= o.1.2 0 i] &
      [forall i : 'I_(minn m n), forall j : 'I_(minn m n), (i <= j)%N ==> (o.1.2 0 j <= o.1.2 0 i)]].
Definition svd_routine := forall m n, 'M[C]_(m, n) -> svd_out m n.
Definition svd_contract (svd : svd_routine) := forall m n (M : 'M[C]_(m, n)), svd_ok M (svd m n M).

Lemma adot_unitary m n p (Q : 'M[C]_(p, m)) (x y : 'M[C]_(m, n)) : Q^† *m Q = 1%:M -> adot (Q *m x) (Q *m y) = adot x y.
Proof. by move=> h; rewrite !adotE adjM -mulmxA (mulmxA Q^†) h mul1mx. Qed.

(* a unit vector is the first column of a unitary matrix *)
Lemma unit_first m (u : 'cV[C]_(1 + m)) : adot u u = 1 ->
  exists2 Q : 'M[C]_(1 + m), Q^† *m Q = 1%:M & Q *m col_mx 1%:M 0 = u.
Proof.
move=> u1; have [[Q R] /and3P[/eqP /= QQ /eqP eM /forallP up]] := qrf_exists u.
have eR : R = (R 0 0) *: col_mx 1%:M 0.
  apply/matrixP=> i j; rewrite !ord1 [RHS]mxE [col_mx _ _ _ _]mxE; case: splitP => k ek.
    have -> : i = 0 by apply: val_inj; rewrite /= ek ord1.
    by rewrite !ord1 mxE eqxx mulr1.
  rewrite mxE mulr0; apply/eqP; have /forallP/(_ 0)/implyP := up i; apply.
  by rewrite ek.
set e0 : 'cV[C]_(1 + m) := col_mx 1%:M 0 in eR *.
have e01 : adot e0 e0 = 1.
  rewrite adotE /e0.
  have -> : (col_mx 1%:M 0 : 'cV[C]_(1 + m))^† = row_mx 1%:M 0.
    by rewrite /adj tr_col_mx map_row_mx trmx1 trmx0 map_mx1 map_mx0.
  by rewrite mul_row_col mul0mx addr0 mul1mx mxtrace_scalar.
have r1 : (R 0 0)^* * R 0 0 = 1.
  by rewrite -[RHS]u1 -eM [in RHS]eR adot_unitary // adotZl adotZr e01 mulr1.
exists (R 0 0 *: Q).
  by rewrite adjZ -scalemxAl -scalemxAr scalerA QQ r1 scale1r.
by rewrite -scalemxAl scalemxAr -eR.
Qed.

Lemma largest_eig n (G : 'M[C]_n.+1) : herm G -> exists a (v : 'cV[C]_n.+1),
  [/\ a \is Num.real, adot v v = 1, G *m v = a *: v & forall x : 'cV[C]_n.+1, adot x (G *m x) <= a * adot x x].
Proof.
move=> hG; have [[ev EV] /and4P[/= /eqP h1 /eqP h2 /forallP h3 /forallP h4]] := eigh_exists hG.
have h1' := mulmx1C h1.
have cE i : col i EV = EV *m delta_mx i 0 by rewrite colE.
exists (ev 0 ord_max), (col ord_max EV); split=> //.
- rewrite cE adot_unitary // adotE.
  by rewrite /adj trmx_delta map_delta_mx mul_delta_mx /mxtrace big_ord1 mxE !eqxx.
- rewrite cE mulmxA h2 -mulmxA scalemxAr; congr (_ *m _).
  apply/matrixP=> i j; rewrite !ord1 mul_diag_mx !mxE; case: eqP => [->|] //=.
  by rewrite !mulr0.
- move=> x; have [y ->] : exists y, x = EV *m y by exists (EV^† *m x); rewrite mulmxA h1' mul1mx.
  rewrite mulmxA h2 -mulmxA !(@adot_unitary _ _ _ EV) //.
  rewrite /adot mulr_sumr; apply: ler_sum => i _.
  rewrite !big_ord1 mul_diag_mx mxE mulrCA; apply: ler_wpmul2r.
    by rewrite mulrC mul_conjC_ge0.
  by have /forallP/(_ ord_max)/implyP := h4 i; apply; exact: leq_ord.
Qed.

Lemma diagS_block m n (sv : nat -> C) :
  diagS (1 + m) (1 + n) sv = block_mx (sv 0%N)%:M 0 0 (diagS m n (fun k => sv k.+1)).
Proof.
apply/matrixP=> i j; rewrite mxE [RHS]mxE; case: splitP => k ek; rewrite [RHS]mxE; case: splitP => p ep;
  by rewrite !mxE ek ep ?ord1.
Qed.

Lemma block_unitary m (U : 'M[C]_m) : U^† *m U = 1%:M ->
  (block_mx (1%:M : 'M[C]_1) 0 0 U)^† *m block_mx 1%:M 0 0 U = 1%:M.
Proof.
move=> h; rewrite /adj tr_block_mx map_block_mx trmx1 !trmx0 map_mx1 !map_mx0.
by rewrite mulmx_block -/(adj U) h !mul1mx !mul0mx !mulmx0 !addr0 !add0r -scalar_mx_block.
Qed.

Lemma svd_nat m n (Y : 'M[C]_(m, n)) : exists (U : 'M[C]_m) (sv : nat -> C) (V : 'M[C]_n),
  [/\ U^† *m U = 1%:M, V *m V^† = 1%:M, Y = U *m diagS m n sv *m V,
      forall i, 0 <= sv i /\ ((minn m n <= i)%N -> sv i = 0) & forall i j, (i <= j)%N -> sv j <= sv i].
Proof.
elim: m n Y => [|m IH] n Y.
  exists 1%:M, (fun _ => 0), 1%:M; rewrite !adj1 !mulmx1; split=> //.
  by apply/matrixP => [[]].
case: n Y => [|n] Y.
  exists 1%:M, (fun _ => 0), 1%:M; rewrite !adj1 !mulmx1; split=> //.
  by apply/matrixP => i [].
have [lam [v [lr v1 Gv rq]]] := largest_eig (herm_gram Y).
have YE x : adot (Y *m x) (Y *m x) = adot x (Y^† *m Y *m x) :> C by rewrite adot_mull mulmxA.
have lE : adot (Y *m v) (Y *m v) = lam by rewrite YE Gv adotZr v1 mulr1.
have l0 : 0 <= lam by rewrite -lE adot_ge0.
have [lz|lnz] := eqVneq lam 0.
  exists 1%:M, (fun _ => 0), 1%:M; rewrite !adj1 !mulmx1; split=> //.
  apply/matrixP=> i j; rewrite mul1mx [RHS]mxE mul0rn.
  have /eqP : Y *m delta_mx j (0 : 'I_1) == 0.
    rewrite -adot_eq0 eq_le adot_ge0 andbT.
    by rewrite YE (le_trans (rq _)) // lz mul0r.
  by move/matrixP/(_ i 0); rewrite -colE !mxE.
set s := sqrtC lam; have s2 : s * s = lam by rewrite -expr2 sqrtCK.
have s0 : 0 < s by rewrite sqrtC_gt0 lt_def lnz l0.
have sn : s != 0 by rewrite gt_eqF.
have sr : (s^-1)^* = s^-1 by apply/CrealP; rewrite realV gtr0_real.
pose u : 'cV[C]_(1 + m) := s^-1 *: (Y *m v).
have u1 : adot u u = 1 by rewrite /u adotZl adotZr lE sr mulrA -invfM s2 mulVf.
have [U0 UU0 U0e] := unit_first u1; have [V0 VV0 V0e] := @unit_first n v v1.
have UU0' := mulmx1C UU0; have VV0' := mulmx1C VV0.
pose B : 'M[C]_(1 + m, 1 + n) := U0^† *m Y *m V0.
have BY : Y = U0 *m B *m V0^† by rewrite /B !mulmxA UU0' mul1mx -mulmxA VV0' mulmx1.
have Bc : B *m col_mx 1%:M 0 = s *: col_mx 1%:M 0.
  rewrite /B -mulmxA V0e -mulmxA; have -> : Y *m v = s *: u by rewrite /u scalerA mulfV // scale1r.
  by rewrite -scalemxAr -U0e mulmxA UU0 mul1mx.
have Br : B^† *m col_mx 1%:M 0 = s *: col_mx 1%:M 0.
  rewrite /B !adjM adjK -mulmxA -mulmxA U0e /u -!scalemxAr (mulmxA Y^†) Gv -V0e -scalemxAr mulmxA VV0 mul1mx scalerA.
  by rewrite -s2 mulrA mulVf // mul1r.
clearbody B.
have eB : B = block_mx s%:M 0 0 (drsubmx B).
  rewrite -{1}[B]submxK; congr block_mx.
  - move: Bc; rewrite -{1}[B]submxK mul_block_col !mulmx0 !addr0 !mulmx1 scale_col_mx => /eq_col_mx[-> _].
    by rewrite scalemx1.
  - move: Br; rewrite -{1}[B]submxK /adj tr_block_mx map_block_mx mul_block_col !mulmx0 !addr0 !mulmx1 scale_col_mx.
    by case/eq_col_mx => _; rewrite scaler0 -/(adj _) => h; apply: adj_inj; rewrite h adj0.
  - by move: Bc; rewrite -{1}[B]submxK mul_block_col !mulmx0 !addr0 !mulmx1 scale_col_mx scaler0 => /eq_col_mx[_ ->].
have [U1 [sv1 [V1 [UU1 VV1 e1 pos1 srt1]]]] := IH n (drsubmx B).
pose U : 'M[C]_(1 + m) := U0 *m block_mx 1%:M 0 0 U1.
pose V : 'M[C]_(1 + n) := block_mx 1%:M 0 0 V1 *m V0^†.
pose sv (k : nat) : C := if k is k'.+1 then sv1 k' else s.
have top : sv1 0%N <= s.
  have [z|p] := posnP (minn m n).
    by have [_ ->] := pos1 0%N; rewrite ?z // ltW.
  have [pm pn] : (0 < m)%N /\ (0 < n)%N by lia.
  pose e : 'cV[C]_n := delta_mx (Ordinal pn) 0.
  pose x : 'cV[C]_(1 + n) := V0 *m col_mx 0 (V1^† *m e).
  have ce k (y : 'cV[C]_k) : adot (col_mx (0 : 'cV[C]_1) y) (col_mx 0 y) = adot y y.
    by rewrite !adotE /adj tr_col_mx map_row_mx mul_row_col trmx0 map_mx0 mul0mx add0r.
  have de k (o : 'I_k) : adot (delta_mx o 0 : 'cV[C]_k) (delta_mx o 0) = 1.
    by rewrite adotE /adj trmx_delta map_delta_mx mul_delta_mx /mxtrace big_ord1 mxE !eqxx.
  have VV1' := mulmx1C VV1.
  have x1 : adot x x = 1 by rewrite /x adot_unitary // ce adot_unitary ?adjK // de.
  have Yx : Y *m x = U0 *m col_mx 0 (U1 *m (sv1 0%N *: delta_mx (Ordinal pm) 0)).
    rewrite /x BY -!mulmxA (mulmxA V0^†) VV0 mul1mx; congr (_ *m _).
    rewrite eB mul_block_col !mulmx0 !mul0mx !add0r; congr col_mx.
    rewrite e1 -!mulmxA (mulmxA V1) VV1 mul1mx; congr (_ *m _).
    apply/matrixP=> i j; rewrite !ord1 /e -colE !mxE /=.
    by rewrite eqxx andbT mulr_natr; case: i => [[|i] hi].
  have := rq x; rewrite -YE Yx x1 mulr1 adot_unitary // ce adot_unitary // adotZl adotZr de mulr1.
  have [p0 _] := pos1 0%N.
  have -> : (sv1 0%N)^* = sv1 0%N by apply/CrealP; exact: ger0_real.
  by rewrite -s2 -!expr2 ler_sqr // qualifE ltW.
exists U, sv, V; split.
- by rewrite /U adjM -mulmxA (mulmxA U0^†) UU0 mul1mx block_unitary.
- have h : (V1^†)^† *m V1^† = 1%:M by rewrite adjK.
  rewrite /V adjM adjK -mulmxA (mulmxA V0^†) VV0 mul1mx.
  have ab (W : 'M[C]_n) : (block_mx (1%:M : 'M[C]_1) 0 0 W)^† = block_mx 1%:M 0 0 W^†.
    by rewrite /adj tr_block_mx map_block_mx !trmx1 !map_mx1 !trmx0 !map_mx0.
  by have := block_unitary h; rewrite !ab adjK.
- rewrite {1}BY eB e1 /U /V -[diagS m.+1 n.+1 sv]/(diagS (1 + m) (1 + n) sv) diagS_block.
  have -> : block_mx s%:M 0 0 (U1 *m diagS m n sv1 *m V1) =
    (block_mx 1%:M 0 0 U1 : 'M[C]_(1 + m)) *m (block_mx s%:M 0 0 (diagS m n sv1) : 'M_(1 + m, 1 + n)) *m
    (block_mx 1%:M 0 0 V1 : 'M_(1 + n)).
    by rewrite !mulmx_block !mul1mx !mulmx1 !mul0mx !mulmx0 ?mul0mx ?mulmx0 !addr0 !add0r mul0mx.
  by rewrite !mulmxA.
- case=> [|i] /=; first by split; [exact: ltW | rewrite minnSS].
  by have [h1 h2] := pos1 i; split=> //; rewrite minnSS ltnS.
- case=> [|i] [|j] //= ij; last exact: srt1.
  by apply: le_trans top; apply: srt1.
Qed.

Lemma svd_exists m n (M : 'M[C]_(m, n)) : exists o, svd_ok M o.
Proof.
have [U [sv [V [UU VV e pos srt]]]] := svd_nat M.
exists (U, \row_i sv i, V); rewrite /svd_ok /=; apply/and5P; split.
- exact/eqP.
- exact/eqP.
- apply/eqP; rewrite e; congr (_ *m _ *m _); apply/matrixP=> i j; rewrite !mxE /svn.
  case: eqP => // ij; case: insubP => [k _ <-|h]; first by rewrite mxE.
  by have := ltn_ord i; have := ltn_ord j; lia.
- by apply/forallP=> i; rewrite mxE; have [] := pos i.
- by apply/forallP=> i; apply/forallP=> j; apply/implyP; rewrite !mxE; exact: srt.
Qed.
Definition svd0 : svd_routine := fun m n M => xchoose (svd_exists M).
Lemma svd0_ok : svd_contract svd0.
Proof. by move=> m n M; exact: (xchooseP (svd_exists M)). Qed.

(* ---- truncation to the first d singular values ---------------------------- *)
(* U[:, :d] and V[:d, :] *)
Definition colsN m k d (U : 'M[C]_(m, k)) : 'M[C]_(m, d) :=
  \matrix_(i, j) if insub (val j) is Some j' then U i j' else 0.
Definition rowsN n k d (V : 'M[C]_(k, n)) : 'M[C]_(d, n) :=
  \matrix_(i, j) if insub (val i) is Some i' then V i' j else 0.
(* diag(s[:d]) *)
Definition diagN k d (sv : 'rV[C]_k) : 'M[C]_d := diag_mx (\row_(i < d) svn sv i).
Definition cut d (sv : nat -> C) (i : nat) : C := if (i < d)%N then sv i else 0.

Lemma colsNE m d (U : 'M[C]_m) : colsN d U = U *m pid_mx d.
Proof.
apply/matrixP=> i j; rewrite !mxE; case: insubP => [k kd ek|].
  rewrite (bigD1 k) //= mxE ek eqxx /= ltn_ord mulr1 big1 ?addr0 // => k' ne.
  by rewrite mxE -ek (inj_eq val_inj) (negPf ne) mulr0.
by move=> h; rewrite big1 // => k _; rewrite mxE; case: eqP => [e|_]; [move: h; rewrite /= -e ltn_ord | rewrite mulr0].
Qed.
Lemma rowsNE n d (V : 'M[C]_n) : rowsN d V = pid_mx d *m V.
Proof.
apply/matrixP=> i j; rewrite !mxE; case: insubP => [k kd ek|].
  rewrite (bigD1 k) //= mxE ek eqxx /= ltn_ord mul1r big1 ?addr0 // => k' ne.
  by rewrite mxE -ek eq_sym (inj_eq val_inj) (negPf ne) mul0r.
by move=> h; rewrite big1 // => k _; rewrite mxE; case: eqP => [e|_]; [move: h; rewrite /= e ltn_ord | rewrite mul0r].
Qed.
Lemma colsN_iso m d (U : 'M[C]_m) : U^† *m U = 1%:M -> (d <= m)%N -> (colsN d U)^† *m colsN d U = 1%:M.
Proof.
move=> UU dm; rewrite colsNE adjM -mulmxA (mulmxA U^†) UU mul1mx adj_pid mul_pid_mx.
by rewrite minnn (minn_idPr dm) pid_mx_1.
Qed.
Lemma rowsN_iso n d (V : 'M[C]_n) : V *m V^† = 1%:M -> (d <= n)%N -> rowsN d V *m (rowsN d V)^† = 1%:M.
Proof.
move=> VV dn; rewrite rowsNE adjM -mulmxA (mulmxA V) VV mul1mx adj_pid mul_pid_mx.
by rewrite minnn (minn_idPr dn) pid_mx_1.
Qed.
Lemma pid_diag_pid m n d k (sv : 'rV[C]_k) : (d <= m)%N -> (d <= n)%N ->
  pid_mx d *m diagN d sv *m pid_mx d = diagS m n (cut d (svn sv)).
Proof.
move=> dm dn; apply/matrixP=> i j; rewrite mul_mx_diag !mxE /cut.
case: (ltnP i d) => id; last first.
  rewrite mul0rn big1 // => k' _; rewrite !mxE; case: eqP => [e|_]; last by rewrite !mul0r.
  by have := ltn_ord k'; rewrite -e ltnNge id.
rewrite (bigD1 (Ordinal id)) //= !mxE /= eqxx id /= mul1r big1 ?addr0; last first.
  by move=> k' ne; rewrite !mxE; case: eqP => [e|_]; [rewrite -(inj_eq val_inj) /= -e eqxx in ne | rewrite !mul0r].
by rewrite andbT mulr_natr.
Qed.

Section Out.
Variables (m n : nat) (M : 'M[C]_(m, n)) (o : svd_out m n) (ok : svd_ok M o).
Local Notation U := o.1.1.
Local Notation sv := o.1.2.
Local Notation V := o.2.

Lemma svd_okE : [/\ U^† *m U = 1%:M, V *m V^† = 1%:M, M = U *m diagS m n (svn sv) *m V,
  forall i, 0 <= svn sv i & forall i j, (i <= j)%N -> svn sv j <= svn sv i].
Proof.
have /and5P[/eqP h1 /eqP h2 /eqP h3 /forallP h4 /forallP h5] := ok; split=> //.
  by move=> i; rewrite /svn; case: insubP.
move=> i j ij; rewrite /svn; case: insubP => [j' hj ej|_]; last by case: insubP.
case: insubP => [i' hi ei|]; last by rewrite (leq_ltn_trans ij hj).
by have /forallP/(_ j')/implyP := h5 i'; apply; rewrite ei ej.
Qed.

(* the product of the truncated factors *)
Lemma svd_cut d : (d <= minn m n)%N ->
  colsN d U *m diagN d sv *m rowsN d V = U *m diagS m n (cut d (svn sv)) *m V.
Proof.
rewrite leq_min => /andP[dm dn]; rewrite colsNE rowsNE -(pid_diag_pid sv dm dn).
by rewrite !mulmxA.
Qed.

Lemma adot_unitary_r p k j (Q : 'M[C]_(k, j)) (x y : 'M[C]_(p, k)) : Q *m Q^† = 1%:M -> adot (x *m Q) (y *m Q) = adot x y.
Proof. by move=> h; rewrite !adotE adjM mxtrace_mulC mulmxA -(mulmxA y) h mulmx1 mxtrace_mulC. Qed.

(* sum of the squares of s[d:] *)
Definition tailsq d : C := \sum_(i < minn m n | (d <= i)%N) sv 0 i ^+ 2.

Lemma adot_diagS (f : nat -> C) : adot (diagS m n f) (diagS m n f) = \sum_(i < minn m n) (f i)^* * f i.
Proof.
rewrite /adot.
have e (i : 'I_m) : \sum_(j < n) (diagS m n f i j)^* * diagS m n f i j = if (i < n)%N then (f i)^* * f i else 0.
  case: ifP => [hi|hi].
    rewrite (bigD1 (Ordinal hi)) //= !mxE eqxx mulr1n big1 ?addr0 // => j ne.
    rewrite !mxE; case: eqP => [e|_]; last by rewrite mulr0n mulr0.
    by rewrite -(inj_eq val_inj) /= e eqxx in ne.
  by rewrite big1 // => j _; rewrite !mxE; case: eqP => [e|_]; [rewrite e ltn_ord in hi | rewrite mulr0n mulr0].
rewrite (eq_bigr _ (fun i _ => e i)) -big_mkcond /=.
rewrite [RHS](big_ord_widen m (fun i => (f i)^* * f i) (geq_minl m n)); apply: eq_bigl => i.
by rewrite leq_min ltn_ord.
Qed.

Lemma svd_err d : (d <= minn m n)%N ->
  let E := M - colsN d U *m diagN d sv *m rowsN d V in adot E E = tailsq d.
Proof.
move=> dmn; have [h1 h2 h3 h4 h5] := svd_okE; rewrite svd_cut // {1}h3 -mulmxBl -mulmxBr.
rewrite /= adot_unitary_r // adot_unitary //.
have -> : diagS m n (svn sv) - diagS m n (cut d (svn sv)) = diagS m n (fun i => svn sv i - cut d (svn sv) i).
  by apply/matrixP=> i j; rewrite !mxE -mulrnBl.
rewrite adot_diagS /tailsq [RHS]big_mkcond; apply: eq_bigr => i _; rewrite /cut.
have svi : svn sv i = sv 0 i by rewrite /svn valK.
case: (ltnP i d) => _; first by rewrite subrr mulr0.
rewrite subr0 svi expr2; congr (_ * _); apply/CrealP.
by have := h4 i; rewrite svi; exact: ger0_real.
Qed.
End Out.
End Svd.
