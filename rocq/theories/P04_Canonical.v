(* P04_Canonical.v -- property theorems: canonical forms, renormalisation, truncation and structured
   matrices (C17-C22). *)
From mathcomp Require Import all_ssreflect all_algebra all_field zify.
From Verif Require Import Base Spec Eps Chain ChainProofs ChainProofs2 LinAlg Struct Canon Trunc Witness.
Set Implicit Arguments.
Unset Strict Implicit.
Unset Printing Implicit Defensive.
Import Order.TTheory GRing.Theory Num.Theory.
Local Open Scope ring_scope.

(* the squared norm, from the amplitudes *)
Definition norm2 (C : numClosedFieldType) (D q : nat -> nat) (N : nat) (A : tensors C D) : C :=
  \sum_(c <- cfgs q N 0) `|amplitude N A c| ^+ 2.

(* an admissible open chain *)
Definition open_chain (N : nat) (D q : nat -> nat) : Prop :=
  [/\ (0 < N)%N, D 0%N = 1%N, D N = 1%N, forall n, (n <= N)%N -> (0 < D n)%N &
      forall n, (n < N)%N -> (0 < q n)%N].

Lemma bell_chain : open_chain 2 bellD two.
Proof. by split=> // n; case: n => [|[|[|]]]. Qed.
Lemma bell_norm2 : norm2 two 2 (bell : tensors Cx bellD) = 2%:R.
Proof.
rewrite /norm2 unlock /= !bell_amplitude /=.
by rewrite normr0 !normr1 expr0n !expr1n /= !addr0 !add0r.
Qed.

Section NormPos.
Variables (C : numClosedFieldType) (D q : nat -> nat) (N : nat) (A : tensors C D).
Lemma norm2_ge0 : 0 <= norm2 q N A.
Proof. by apply: sumr_ge0 => c _; rewrite exprn_ge0. Qed.
End NormPos.

(* ---- C17 ---------------------------------------------------------------- *)
Section C17.
Variables (C : numClosedFieldType) (D q : nat -> nat) (N : nat) (A : tensors C D).
Variable qr : qr_routine C.
Hypotheses (qrP : qr_contract qr) (ch : open_chain N D q).

Lemma g_norm : `|entry0 (RCF_G0 q A qr N)| = sqrtC (norm2 q N A).
Proof.
case: ch => N0 D0 DN Dp qp; rewrite /norm2 (RCF_norm A qrP N0 D0 DN Dp qp).
by rewrite sqrCK.
Qed.
Lemma g_neq0 (b : bool) : (b -> norm2 q N A != 0) -> (b -> entry0 (RCF_G0 q A qr N) != 0).
Proof.
move=> h /h; apply: contraNN => /eqP e; have := g_norm; rewrite e normr0 => e'.
by rewrite -(sqrtCK (norm2 q N A)) -e' expr0n.
Qed.

(* amplitudes after restore_RCF(diag_l=False): divided by the norm, or unchanged *)
Theorem C17_amplitudes_normalize c : norm2 q N A != 0 -> c \in cfgs q N 0 ->
  amplitude N (RCF_A1 q A qr N true) c = amplitude N A c / sqrtC (norm2 q N A).
Proof.
case: ch => N0 D0 DN Dp qp nz hc.
rewrite (RCF_A1P qrP N0 D0 DN Dp qp) //; first by rewrite g_norm mulrC.
exact: (@g_neq0 true).
Qed.
Theorem C17_amplitudes_keep c : c \in cfgs q N 0 ->
  amplitude N (RCF_A1 q A qr N false) c = amplitude N A c.
Proof.
by case: ch => N0 D0 DN Dp qp hc; rewrite (RCF_A1P qrP N0 D0 DN Dp qp) // mul1r.
Qed.

(* right orthonormality: r as recorded by restore_RCF is what calc_r computes, and is the identity
   (r[0] is the squared norm when normalize_mps is False) *)
Theorem C17_r_up_to_date (normalize : bool) : (normalize -> norm2 q N A != 0) ->
  up_r q (RCF_A1 q A qr N normalize) N 1%:M (RCF_r q A qr N normalize).
Proof. by case: ch => N0 D0 DN Dp qp nz; apply: RCF_r_up => //; apply: g_neq0. Qed.
Theorem C17_r_identity normalize n : RCF_r q A qr N normalize n =
  if (n == 0%N) && ~~ normalize then (norm2 q N A)%:M else 1%:M.
Proof.
rewrite /RCF_r; case: eqP => //= _; case: normalize => //=.
by rewrite g_norm sqrtCK.
Qed.
Theorem C17_isometries normalize n : (0 < n < N)%N -> \sum_(s < q n)
  RCF_A1 q A qr N normalize n s *m (RCF_A1 q A qr N normalize n s)^† = 1%:M.
Proof.
move=> /andP[n0 nN]; rewrite -(@rcf_orthoP C D q A qr D (fun n => 1%:M) N qrP n nN); apply: eq_bigr => s _.
by rewrite /RCF_A1 /scale_site (gtn_eqF n0).
Qed.

(* with update_l, l is what calc_l computes, so the state is up to date *)
Theorem C17_l_up_to_date normalize (l : forall n, 'M[C]_(RCF_D D q N n)) : l 0%N = 1%:M ->
  up_l q (RCF_A1 q A qr N normalize) N 1%:M (RCF_l A qr normalize l).
Proof. exact: RCF_l_up. Qed.

(* bond dimensions: never larger, and at most what the sites to the right support *)
Theorem C17_bond_dims : RCF_D D q N N = 1%N /\ (forall n, (n < N)%N ->
  RCF_D D q N n = minn (D n) (q n * RCF_D D q N n.+1)).
Proof.
case: ch => N0 D0 DN Dp qp; split=> [|n nN]; first exact: RCF_D_N.
by rewrite /RCF_D rcfD_S // minnC.
Qed.
Theorem C17_bond_dims_bound n : (n <= N)%N ->
  (0 < RCF_D D q N n <= \prod_(n <= i < N) q i)%N /\ (RCF_D D q N n <= D n)%N.
Proof.
case: (ch) => N0 D0 DN Dp qp nN; have [hN hS] := C17_bond_dims.
rewrite (RCF_D_pos (D := D) (q := q)) //= ; split; last first.
  by move: nN; rewrite leq_eqVlt => /orP[/eqP->|/hS->]; rewrite ?hN ?DN // geq_minl.
rewrite -(subKn nN); move: (leq_subr n N); move: (N - n)%N => k.
elim: k => [|k IH] kN; first by rewrite subn0 hN big_geq.
have e : (N - k = (N - k.+1).+1)%N by lia.
rewrite hS; last by lia.
rewrite big_ltn; last by lia.
by rewrite (leq_trans (geq_minr _ _)) // -e leq_mul2l IH ?orbT //; lia.
Qed.
End C17.
Print Assumptions C17_amplitudes_normalize.
Print Assumptions C17_amplitudes_keep.
Print Assumptions C17_r_up_to_date.
Print Assumptions C17_r_identity.
Print Assumptions C17_isometries.
Print Assumptions C17_l_up_to_date.
Print Assumptions C17_bond_dims.
Print Assumptions C17_bond_dims_bound.

(* restore_RCF on the Bell state |00>+|11>: amplitude 1/sqrt 2 at 00, 0 at 01; and a chain with a
   superfluous bond dimension is reduced *)
Example C17_example :
  amplitude 2 (RCF_A1 two (bell : tensors Cx bellD) (@qr0 _) 2 true) [:: 0; 0]%N = (sqrtC 2%:R)^-1 /\
  amplitude 2 (RCF_A1 two (bell : tensors Cx bellD) (@qr0 _) 2 true) [:: 0; 1]%N = 0.
Proof.
have nz : norm2 two 2 (bell : tensors Cx bellD) != 0 by rewrite bell_norm2 pnatr_eq0.
have h := C17_amplitudes_normalize (@qr0_ok Cx) bell_chain nz.
by rewrite !h // !bell_amplitude /= bell_norm2 mul1r mul0r.
Qed.
Example C17_example_dims : [seq RCF_D (nth 1 [:: 1; 5; 9; 1]) (fun=> 2) 3 n | n <- iota 0 4]%N = [:: 1; 4; 2; 1]%N.
Proof. by []. Qed.

(* ---- C18 ---------------------------------------------------------------- *)
(* LAPACK's eigenvector of a 1x1 matrix is 1 (an implementation fact, used only where stated) *)
Definition eigh_unit1 (C : numClosedFieldType) (eigh : eigh_routine C) : Prop :=
  forall n (M : 'M[C]_n), n = 1%N -> entry0 (eigh n M).2 = 1.

Section C18.
Variables (C : numClosedFieldType) (D q : nat -> nat) (N : nat) (A : tensors C D).
Variables (qr : qr_routine C) (eigh : eigh_routine C) (normalize : bool).
Hypotheses (qrP : qr_contract qr) (eighP : eigh_contract eigh) (ch : open_chain N D q).
Hypothesis nz : normalize -> norm2 q N A != 0.

Local Notation D' := (RCF_D D q N).
Local Notation A' := (RCF_A2 q A qr eigh N normalize).
Local Notation l' := (RCF_l2 q A qr eigh N normalize).
Local Notation r' := (RCF_r q A qr N normalize).

(* restore_RCF(diag_l=True) multiplies all amplitudes by one number: of modulus 1 times the
   normalisation ... *)
Theorem C18_amplitudes : exists2 u : C, `|u| = 1 & forall c, c \in cfgs q N 0 ->
  amplitude N A' c = u * (if normalize then (sqrtC (norm2 q N A))^-1 else 1) * amplitude N A c.
Proof.
case: (ch) => N0 D0 DN Dp qp; exists (entry0 (RCF_GN q A qr eigh N normalize)).
  exact: RCF_GN_unit.
move=> c hc; rewrite RCF_A2_amp // mulrC -mulrA; congr (_ * _).
rewrite (RCF_A1P qrP N0 D0 DN Dp qp) ?g_norm //; exact: g_neq0.
Qed.
(* ... and exactly 1 if eigh returns the eigenvector 1 for 1x1 matrices, as LAPACK does *)
Theorem C18_amplitudes_exact c : eigh_unit1 eigh -> c \in cfgs q N 0 ->
  amplitude N A' c = (if normalize then (sqrtC (norm2 q N A))^-1 else 1) * amplitude N A c.
Proof.
case: (ch) => N0 D0 DN Dp qp e1 hc; rewrite RCF_A2_amp //.
have -> : entry0 (RCF_GN q A qr eigh N normalize) = 1.
  rewrite /RCF_GN; have := RCF_D_N q DN; move: (RCF_A1 _ _ _ _ _); rewrite -[N in RCF_D _ _ N]/(N).
  move: (RCF_D D q N) => D1; case: (N) N0 => // n _ A1 Dn1.
  rewrite /rcfl_G /= /restore_RCF_l; set M := eps_l_noop _ _ _ _; have := e1 _ M Dn1.
  by case: (eigh M) => ev EV /=; rewrite adjK.
rewrite mulr1 (RCF_A1P qrP N0 D0 DN Dp qp) ?g_norm //; exact: g_neq0.
Qed.

(* l and r recorded by restore_RCF are up to date *)
Theorem C18_up_to_date : up_to_date q A' N l' r'.
Proof.
case: (ch) => N0 D0 DN Dp qp; split; first exact: RCF_l2_up.
by apply: RCF_r_up2 => //; apply: g_neq0.
Qed.

(* l[n] is diagonal with non-negative ascending entries *)
Theorem C18_l_diagonal n : (0 < n <= N)%N -> exists2 d : 'rV[C]_(D' n), l' n = diag_mx d &
  (forall i, 0 <= d 0 i) /\ (forall i j : 'I_(D' n), (i <= j)%N -> d 0 i <= d 0 j).
Proof.
case: n => // n /andP[_ nN].
have [d hd [_ hs]] := @rcfl_diag C D' q (RCF_A1 q A qr N normalize) eigh 1%:M eighP (herm1 _ _) n.
exists d => //; split=> // i.
have [hl _] := C18_up_to_date; have := psd_diag_ge0 i (l_psd hl nN).
by rewrite /RCF_l2 hd mxE eqxx.
Qed.

(* ... whose sum is the squared norm of the returned state *)
Theorem C18_l_trace n : (0 < n <= N)%N ->
  \tr (l' n) = if normalize then 1 else norm2 q N A.
Proof.
case: (ch) => N0 D0 DN Dp qp /andP[n0 nN]; have [hl hr] := C18_up_to_date.
have e : norm2 q N A' = if normalize then 1 else norm2 q N A.
  have [u u1 hu] := C18_amplitudes; rewrite /norm2 (eq_big_seq (fun c =>
    (if normalize then (norm2 q N A)^-1 else 1) * `|amplitude N A c| ^+ 2)).
    rewrite -mulr_sumr -/(norm2 q N A); case: (normalize) nz => [h|_]; last by rewrite mul1r.
    by rewrite mulVf ?h.
  move=> c hc; rewrite hu // !normrM !exprMn u1 expr1n mul1r; congr (_ * _).
  case: (normalize); last by rewrite normr1 expr1n.
  by rewrite normfV exprVn ger0_norm ?sqrtC_ge0 ?norm2_ge0 // sqrtCK.
rewrite -e /norm2 -dotst_ampl; [|exact: RCF_D_0|exact: RCF_D_N].
rewrite -bdotst1 -(norm_cut hl hr nN) adotE.
have -> : r' n = 1%:M by rewrite C17_r_identity // (gtn_eqF n0).
by rewrite mulmx1 (l_herm hl nN).
Qed.

(* schmidt_sq(n) returns the squares of the coefficients of a Schmidt decomposition: with
   left_i(c1) = A'[1]..A'[n] (i-th column) and right_i(c2) = A'[n+1]..A'[N] (i-th row) *)
Theorem C18_schmidt n d eigvals c1 c2 : (0 < n < N)%N -> l' n = diag_mx d ->
  c1 \in cfgs q n 0 -> c2 \in cfgs q (N - n) n ->
  let left (i : 'I_(D' n)) c := entry0 (col i (amp A' n 0 c)) in
  let right (i : 'I_(D' n)) c := entry0 (row i (amp A' N n c)) in
  [/\ schmidt_sq eigvals (SDiag d) (SEye C (D' n)) = d,
   amplitude N A' (c1 ++ c2) = \sum_i left i c1 * right i c2,
   forall i j, \sum_(c <- cfgs q (N - n) n) right i c * (right j c)^* = (i == j)%:R &
   forall i j, \sum_(c <- cfgs q n 0) (left i c)^* * left j c = (d 0 i) *+ (i == j)].
Proof.
case: (ch) => N0 D0 DN Dp qp /andP[n0 nN] hd hc1 hc2 left right.
have [hl hr] := C18_up_to_date.
have D0' : D' 0 = 1%N by apply: RCF_D_0.
have DN' : D' N = 1%N by apply: RCF_D_N.
have le c i : left i c = amp A' n 0 c (cast_ord (esym D0') 0) i.
  rewrite /left (entry0_1 _ D0' (erefl 1%N)) mxE; congr (_ _ _).
have ri c i : right i c = amp A' N n c i (cast_ord (esym DN') 0).
  by rewrite /right (entry0_1 _ (erefl 1%N) DN') mxE.
have all0 (x : 'I_(D' 0)) : x = cast_ord (esym D0') 0.
  by apply: val_inj; case: x => [x hx] /=; lia.
have allN (x : 'I_(D' N)) : x = cast_ord (esym DN') 0.
  by apply: val_inj; case: x => [x hx] /=; lia.
split=> //.
- rewrite /amplitude /psi (amp_cat _ _ _ (p := n)) ?(size_cfgs hc1) //.
  rewrite (entry0_1 _ D0' DN') mxE; apply: eq_bigr => i _.
  by rewrite le ri.
- move=> i j; have /matrixP/(_ i j) := rE hr (subnKC (ltnW nN)).
  rewrite C17_r_identity // (gtn_eqF n0) /= mxE => ->; rewrite summxE; apply: eq_bigr => c _.
  rewrite mulmx1 mxE (bigD1 (cast_ord (esym DN') 0)) //= big1 ?addr0 ?adjE ?ri // => k.
  by rewrite (allN k) eqxx.
- move=> i j; have /matrixP/(_ i j) := lE hl (ltnW nN).
  rewrite hd mxE => ->; rewrite summxE; apply: eq_bigr => c _.
  rewrite mulmx1 mxE (bigD1 (cast_ord (esym D0') 0)) //= big1 ?addr0 ?adjE ?le // => k.
  by rewrite (all0 k) eqxx.
Qed.
End C18.

(* without canonical form, schmidt_sq returns the eigenvalues of l r: the non-zero ones are exactly
   the non-zero eigenvalues of the reduced density matrix of the sites on the left *)
Theorem C18_schmidt_sq_general (C : numClosedFieldType) (D q : nat -> nat) (N m k : nat)
    (A : tensors C D) (l r : forall n, smat C (D n) (D n)) eigvals (L R : 'M[C]_(D m)) a :
  D 0%N = 1%N -> D N = 1%N -> (m + k)%N = N -> eigvals_contract eigvals ->
  up_to_date q A N (fun n => toarray (l n)) (fun n => toarray (r n)) ->
  l m = SDense L -> r m = SDense R -> a != 0 ->
  (exists i, schmidt_sq eigvals (l m) (r m) 0 i = a) <->
  exists2 phi : seq nat -> C, (exists2 c, c \in cfgs q m 0 & phi c != 0) &
    forall c', c' \in cfgs q m 0 ->
      \sum_(c <- cfgs q m 0) phi c *
        (\sum_(d <- cfgs q k m) amplitude N A (c ++ d) * (amplitude N A (c' ++ d))^*) = a * phi c'.
Proof.
move=> D0 DN mk eP [hl hr] lm rm a0.
apply: iff_trans (schmidt_eig hl hr mk D0 DN a0).
rewrite eigenvalue_root_char lm rm /schmidt_sq /= eP; split.
  move=> [i <-]; rewrite /root horner_prod; apply/prodf_eq0; exists i => //.
  by rewrite !hornerE subrr.
rewrite /root horner_prod => /prodf_eq0[i _]; rewrite !hornerE subr_eq0 => /eqP e.
by exists i.
Qed.
Print Assumptions C18_amplitudes.
Print Assumptions C18_amplitudes_exact.
Print Assumptions C18_up_to_date.
Print Assumptions C18_l_diagonal.
Print Assumptions C18_l_trace.
Print Assumptions C18_schmidt.
Print Assumptions C18_schmidt_sq_general.

Example C18_example : let A' := RCF_A2 two (bell : tensors Cx bellD) (@qr0 _) (@eigh0 _) 2 true in
  `|amplitude 2 A' [:: 1; 1]%N| = (sqrtC 2%:R)^-1 /\
  \tr (RCF_l2 two (bell : tensors Cx bellD) (@qr0 _) (@eigh0 _) 2 true 1) = 1.
Proof.
have nz : true -> norm2 two 2 (bell : tensors Cx bellD) != 0 by rewrite bell_norm2 pnatr_eq0.
move=> A'; split; last exact: (C18_l_trace (@qr0_ok Cx) (@eigh0_ok Cx) bell_chain nz).
have [u u1 h] := C18_amplitudes (@qr0_ok Cx) (@eigh0_ok Cx) bell_chain nz.
rewrite h // bell_amplitude mulr1 normrM u1 mul1r bell_norm2 normfV ger0_norm //.
by rewrite sqrtC_ge0 ler0n.
Qed.

(* ---- C19 ---------------------------------------------------------------- *)
Section C19.
Variables (C : numClosedFieldType) (D q : nat -> nat) (N : nat) (A : tensors C D).
Variables (qr : qr_routine C) (eigh : eigh_routine C) (normalize : bool).
Hypotheses (qrP : qr_contract qr) (eighP : eigh_contract eigh) (ch : open_chain N D q).
Hypothesis nz : normalize -> norm2 q N A != 0.
Local Notation D' := (LCF_D D q).
Local Notation A1 := (LCF_A1 q A qr N normalize).
Local Notation lf := (LCF_l_factor q A qr N normalize).
Variable r : forall n, 'M[C]_(D' n).
Hypothesis rN : r N = 1%:M.
Local Notation A2 := (LCF_A2 A qr eigh N normalize r).

Lemma gl_norm : `|entry0 (LCF_GN q A qr N)| = sqrtC (norm2 q N A).
Proof.
case: ch => N0 D0 DN Dp qp; rewrite /norm2 (LCF_norm A qrP N0 D0 DN Dp qp).
by rewrite sqrCK.
Qed.
Lemma gl_neq0 : normalize -> entry0 (LCF_GN q A qr N) != 0.
Proof.
move=> /nz; apply: contraNN => /eqP e; have := gl_norm; rewrite e normr0 => e'.
by rewrite -(sqrtCK (norm2 q N A)) -e' expr0n.
Qed.

Theorem C19_amplitudes_qr c : c \in cfgs q N 0 ->
  amplitude N A1 c = (if normalize then (sqrtC (norm2 q N A))^-1 else 1) * amplitude N A c.
Proof.
case: ch => N0 D0 DN Dp qp hc; rewrite (LCF_A1P qrP N0 D0 DN Dp qp) ?gl_norm //; exact: gl_neq0.
Qed.
(* after diag_r the amplitudes are multiplied by one more number of modulus 1 *)
Theorem C19_amplitudes : exists2 u : C, `|u| = 1 & forall c, c \in cfgs q N 0 ->
  amplitude N A2 c = u * (if normalize then (sqrtC (norm2 q N A))^-1 else 1) * amplitude N A c.
Proof.
case: (ch) => N0 D0 DN Dp qp; exists (entry0 (LCF_G0 A qr eigh N normalize r)).
  exact: LCF_G0_unit.
by move=> c hc; rewrite LCF_A2_amp // C19_amplitudes_qr // mulrA.
Qed.

(* left orthonormality, before and after the diagonalisation of r: the matrices l[n] that calc_l
   would compute are the identity (l[N] is the squared norm when normalize_mps is False) *)
Theorem C19_l_identity :
  up_l q A1 N 1%:M (fun n => if (n == N) && ~~ normalize then (norm2 q N A)%:M else 1%:M) /\
  up_l q A2 N 1%:M (fun n => if (n == N) && ~~ normalize then (norm2 q N A)%:M else 1%:M).
Proof.
case: (ch) => N0 D0 DN Dp qp.
have e n : (if (n == N) && ~~ normalize then (norm2 q N A)%:M else 1%:M) = (lf n)%:M :> 'M[C]_(D' n).
  by rewrite /LCF_l_factor gl_norm sqrtCK; case: ifP.
have ext (B : tensors C D') : up_l q B N 1%:M (fun n => (lf n)%:M) ->
    up_l q B N 1%:M (fun n => if (n == N) && ~~ normalize then (norm2 q N A)%:M else 1%:M).
  by move=> [h0 hs]; split=> [|n nN]; rewrite !e // hs.
by split; apply: ext; [apply: LCF_l_up | apply: LCF_l_up2] => //; exact: gl_neq0.
Qed.

(* r is up to date, diagonal, non-negative and ascending *)
Theorem C19_r_up_to_date : up_r q A1 N 1%:M (LCF_r A qr N normalize r) /\
  up_r q A2 N 1%:M (LCF_r2 A qr eigh N normalize r).
Proof. by split; [apply: LCF_r_up | apply: LCF_r2_up]. Qed.
Theorem C19_r_diagonal n : (n < N)%N ->
  exists2 d : 'rV[C]_(D' n), LCF_r2 A qr eigh N normalize r n = diag_mx d &
  (forall i, 0 <= d 0 i) /\ (forall i j : 'I_(D' n), (i <= j)%N -> d 0 i <= d 0 j).
Proof.
move=> nN; have rh : herm (r N) by rewrite rN; apply: herm1.
have [_ _ _ [d hd [_ hs]]] := @lcfr_inv C D' q A1 eigh r N eighP rh n nN.
exists d => //; split=> // i.
have [_ hr] := C19_r_up_to_date; have := psd_diag_ge0 i (r_psd hr (ltnW nN)).
by rewrite /LCF_r2 hd mxE eqxx.
Qed.

Theorem C19_bond_dims : D' 0 = 1%N /\ (forall n, D' n.+1 = minn (D n.+1) (q n * D' n)) /\ D' N = 1%N.
Proof.
case: (ch) => N0 D0 DN Dp qp; split; [exact: LCF_D_0|split=> [n|]]; last exact: LCF_D_N.
by rewrite /LCF_D /= minnC.
Qed.

(* the recorded l[n] = eyemat(D) has the size of the old bond: right exactly if the sweep did not
   reduce that bond dimension *)
Theorem C19_recorded_l_shape n : (LCF_l_shape D n == D' n) = (n == 0%N) || (D n <= q n.-1 * D' n.-1)%N.
Proof.
case: n => [|n] /=; first by rewrite /LCF_l_shape /LCF_D /= eqxx.
by rewrite /LCF_l_shape /LCF_D /= eq_sym minnC; apply/eqP/idP => [/minn_idPl|/minn_idPl].
Qed.
End C19.

(* the claim that the recorded l[n] has the shape of the new bond is false: D = 1,3,1 with q = 2 *)
Theorem C19_recorded_l_shape_refuted : exists D q, open_chain 2 D q /\ LCF_l_shape D 1 <> LCF_D D q 1.
Proof.
exists (nth 1%N [:: 1; 3; 1]%N), two; split; last by [].
by split=> // n; case: n => [|[|[|]]].
Qed.
Print Assumptions C19_amplitudes_qr.
Print Assumptions C19_amplitudes.
Print Assumptions C19_l_identity.
Print Assumptions C19_r_up_to_date.
Print Assumptions C19_r_diagonal.
Print Assumptions C19_bond_dims.
Print Assumptions C19_recorded_l_shape.
Print Assumptions C19_recorded_l_shape_refuted.

Example C19_example :
  `|amplitude 2 (LCF_A2 (q := two) (bell : tensors Cx bellD) (@qr0 _) (@eigh0 _) 2 true (fun n => 1%:M)) [:: 1; 1]%N|
  = (sqrtC 2%:R)^-1.
Proof.
have nz : true -> norm2 two 2 (bell : tensors Cx bellD) != 0 by rewrite bell_norm2 pnatr_eq0.
have [u u1 h] := C19_amplitudes (@qr0_ok Cx) (@eigh0_ok Cx) bell_chain nz (r := fun n => 1%:M) erefl.
rewrite h // bell_amplitude mulr1 normrM u1 mul1r bell_norm2 normfV ger0_norm //.
by rewrite sqrtC_ge0 ler0n.
Qed.

(* ---- C20 ---------------------------------------------------------------- *)
(* simple_renorm on an up-to-date state whose l[N] is an ndarray: succeeds, every amplitude is divided
   by the norm, and the adjusted l, r are again up to date *)
Theorem C20_simple_renorm (C : numClosedFieldType) (D q : nat -> nat) (N : nat) (A : tensors C D)
    (l r : forall n, smat C (D n) (D n)) (M : 'M[C]_(D N)) :
  (0 < N)%N -> D 0%N = 1%N -> D N = 1%N -> l N = SDense M ->
  up_to_date q A N (fun n => toarray (l n)) (fun n => toarray (r n)) -> norm2 q N A != 0 ->
  exists A' l' r', [/\ simple_renorm A N true l r = Some (A', l', r'),
    up_to_date q A' N (fun n => toarray (l' n)) (fun n => toarray (r' n)),
    (forall c, size c = N -> amplitude N A' c = amplitude N A c / sqrtC (norm2 q N A)) &
    norm2 q N A' = 1].
Proof.
move=> N0 D0 DN lN up nz; have [A' [l' [r' [h1 h2 h3]]]] := simple_renormP N0 D0 DN lN up nz.
exists A', l', r'; split=> //; rewrite -(mulVf nz) {3}/norm2 mulr_sumr.
apply: eq_big_seq => c /size_cfgs/h3 ->.
rewrite normrM exprMn mulrC normfV exprVn ger0_norm ?sqrtCK //.
by rewrite sqrtC_ge0 norm2_ge0.
Qed.
Print Assumptions C20_simple_renorm.

(* with update_r=False only l stays up to date *)
Theorem C20_without_update_r (C : numClosedFieldType) (D q : nat -> nat) (N : nat) (A : tensors C D)
    (l r : forall n, smat C (D n) (D n)) (M : 'M[C]_(D N)) :
  l N = SDense M ->
  exists A' l' r', simple_renorm A N true l r = Some (A', l', r') /\
    simple_renorm A N false l r = Some (A', l', r).
Proof. by move=> lN; rewrite /simple_renorm /renorm_norm lN; do 3!eexists; split. Qed.
Print Assumptions C20_without_update_r.

(* The universal claim is false: when l[N] is stored as a structured matrix the function raises
   TypeError.  restore_RCF(diag_l=True) stores l[N] as a simple_diag_matrix. *)
Theorem C20_structured_l_raises_refuted (C : numClosedFieldType) (D : nat -> nat) (N : nat)
    (A : tensors C D) (l r : forall n, smat C (D n) (D n)) b :
  (exists d : 'rV[C]_(D N), l N = SDiag d) \/ l N = SEye C (D N) -> simple_renorm A N b l r = None.
Proof. by rewrite /simple_renorm /renorm_norm => -[[d ->]|->]. Qed.
Print Assumptions C20_structured_l_raises_refuted.

(* non-vacuity: the Bell chain with l, r from calc_l and calc_r *)
Example C20_example : exists A' l' r',
  simple_renorm (bell : tensors Cx bellD) 2 true
    (fun n => SDense (calc_l two (bell : tensors Cx bellD) (fun n => 1%:M) 0 2 n))
    (fun n => SDense (calc_r two (bell : tensors Cx bellD) (fun n => 1%:M) 0 2 n)) = Some (A', l', r') /\
  amplitude 2 A' [:: 1; 1]%N = (sqrtC 2%:R)^-1.
Proof.
have nz : norm2 two 2 (bell : tensors Cx bellD) != 0 by rewrite bell_norm2 pnatr_eq0.
have up := calc_lr_up_to_date (N := 2) two (bell : tensors Cx bellD) (l := fun n => 1%:M)
  (r := fun n => 1%:M) erefl erefl.
have [A' [l' [r' [h1 _ h3 _]]]] := C20_simple_renorm (isT : (0 < 2)%N) (erefl (bellD 0)) (erefl (bellD 2))
  (erefl : (fun n => SDense (calc_l two (bell : tensors Cx bellD) (fun n => 1%:M) 0 2 n)) 2%N = _)
  (up : up_to_date two (bell : tensors Cx bellD) 2
     (fun n => toarray ((fun n => SDense (calc_l two (bell : tensors Cx bellD) (fun n => 1%:M) 0 2 n)) n))
     (fun n => toarray ((fun n => SDense (calc_r two (bell : tensors Cx bellD) (fun n => 1%:M) 0 2 n)) n))) nz.
by exists A', l', r'; split=> //; rewrite h3 // bell_amplitude bell_norm2 mul1r.
Qed.

(* ---- C21 ---------------------------------------------------------------- *)
(* truncate(new_D) returns normally exactly if no bond dimension grows, at least one shrinks, and
   none is set to 0 (other than a bond of dimension 1) *)
Theorem C21_truncate_defined (C : numClosedFieldType) (D D' : nat -> nat) N (A : tensors C D) :
  truncate D' N A <> None <->
  [/\ forall n, (n <= N)%N -> (D' n <= D n)%N, exists2 n, (n <= N)%N & D' n <> D n &
      forall n, (n <= N)%N -> D' n = 0%N -> (D n <= 1)%N].
Proof.
have mem n : (n \in iota 0 N.+1) = (n <= N)%N by rewrite mem_iota.
rewrite /truncate; move: (iota 0 N.+1) mem => s mem; case: allP => h1 /=; last first.
  by split=> // -[h _ _]; case: h1 => n; rewrite mem; apply: h.
have h1' n : (n <= N)%N -> (D' n <= D n)%N by rewrite -mem; apply: h1.
case: allP => h2 /=.
  split=> // -[_ [n nN h] _]; case: h; apply/eqP; apply: h2; by rewrite mem.
have h2' : exists2 n, (n <= N)%N & D' n <> D n.
  move/allP: h2 => /allPn[n]; rewrite mem => nN /eqP h; by exists n.
case: hasP => h3; split=> //.
  case: h3 => n; rewrite mem => nN /andP[/eqP e h] [_ _ k]; have := k n nN e; lia.
move=> _; split=> // n nN e; rewrite leqNgt; apply/negP => h; case: h3; exists n; first by rewrite mem.
by rewrite e eqxx h.
Qed.
Print Assumptions C21_truncate_defined.

(* discarding bond indices of zero l-weight changes no amplitude; the canonical form is not needed *)
Theorem C21_zero_weight_lossless (C : numClosedFieldType) (D D' q : nat -> nat) N
    (A : tensors C D) (A' : tensors C D') (l : forall n, 'M[C]_(D n)) c :
  truncate D' N A = Some A' -> up_l q A N 1%:M l ->
  D 0%N = 1%N -> D N = 1%N -> D' 0%N = 1%N -> D' N = 1%N ->
  (forall n (i : 'I_(D n)), (n <= N)%N -> (i < D n - D' n)%N -> l n i i = 0) ->
  c \in cfgs q N 0 -> amplitude N A' c = amplitude N A c.
Proof.
move=> tr hl D0 DN D'0 D'N z hc.
have : truncate D' N A <> None by rewrite tr.
move/C21_truncate_defined=> [le _ _].
move: tr; rewrite /truncate; do 3?case: ifP => // _; move=> [<-].
exact: trunc_zeroP hl le z c D0 DN D'0 D'N hc.
Qed.
Theorem C21_zero_weight_lossless_left (C : numClosedFieldType) (D D' q : nat -> nat) N
    (A : tensors C D) (A' : tensors C D') (r : forall n, 'M[C]_(D n)) c :
  truncate D' N A = Some A' -> up_r q A N 1%:M r ->
  D 0%N = 1%N -> D N = 1%N -> D' 0%N = 1%N -> D' N = 1%N ->
  (forall n (i : 'I_(D n)), (n <= N)%N -> (i < D n - D' n)%N -> r n i i = 0) ->
  c \in cfgs q N 0 -> amplitude N A' c = amplitude N A c.
Proof.
move=> tr hr D0 DN D'0 D'N z hc.
have : truncate D' N A <> None by rewrite tr.
move/C21_truncate_defined=> [le _ _].
move: tr; rewrite /truncate; do 3?case: ifP => // _; move=> [<-].
exact: trunc_zero_rP hr le z c D0 DN D'0 D'N hc.
Qed.
Print Assumptions C21_zero_weight_lossless.
Print Assumptions C21_zero_weight_lossless_left.

(* truncating one bond in right canonical form: the squared distance is the discarded l-weight, and
   the squared norm drops by it *)
Theorem C21_single_bond_error (C : numClosedFieldType) (D D' q : nat -> nat) N m
    (A : tensors C D) (A' : tensors C D') (l r : forall n, 'M[C]_(D n)) :
  truncate D' N A = Some A' -> up_to_date q A N l r -> D 0%N = 1%N -> D N = 1%N -> (0 < m < N)%N ->
  (forall n, n != m -> D' n = D n) -> r m = 1%:M ->
  \sum_(c <- cfgs q N 0) `|amplitude N A c - amplitude N A' c| ^+ 2 =
    \sum_(i < D m | (i < D m - D' m)%N) l m i i /\
  norm2 q N A' = norm2 q N A - \sum_(i < D m | (i < D m - D' m)%N) l m i i.
Proof.
move=> tr [hl hr] D0 DN hm eqD rm.
have : truncate D' N A <> None by rewrite tr.
move/C21_truncate_defined=> [le _ _].
have {tr} -> : A' = trunc_A D' A.
  by move: tr; rewrite /truncate; do 3?case: ifP => // _; move=> [<-].
have mN : (m <= N)%N by case/andP: hm => _ /ltnW.
have leD := le m mN.
set P := (sel C D D' m)^T *m sel C D D' m; pose Q : 'M[C]_(D m) := 1%:M - P.
have Padj : P^† = P.
  apply/matrixP=> i j; rewrite adjE /P !selP // conjC_nat.
  by case: eqVneq => [->|]; rewrite ?eqxx // eq_sym => /negbTE->.
have PP : P *m P = P by rewrite /P mulmxA -(mulmxA (sel C D D' m)^T) sel_selT // mulmx1.
have Qadj : Q^† = Q by rewrite adjB adj1 Padj.
have QQ : Q *m Q = Q by rewrite /Q mulmxBl mul1mx mulmxBr mulmx1 PP subrr subr0.
have trP : \tr (P *m l m) = \sum_(i < D m | ~~ (i < D m - D' m)%N) l m i i.
  rewrite /mxtrace [RHS]big_mkcond; apply: eq_bigr => i _.
  rewrite mxE (bigD1 i) //= big1 ?addr0 => [|j ji]; rewrite /P selP //.
    by rewrite eqxx -leqNgt /=; case: ifP; rewrite ?mul1r ?mul0r.
  by rewrite eq_sym (negbTE ji) mul0r.
have trl : \tr (l m) = norm2 q N A.
  rewrite /norm2 -dotst_ampl // -bdotst1 -(norm_cut hl hr mN) adotE rm mulmx1.
  by rewrite (l_herm hl mN).
have trlE : \tr (l m) = \sum_(i < D m | (i < D m - D' m)%N) l m i i + \tr (P *m l m).
  by rewrite trP /mxtrace (bigID (fun i : 'I_(D m) => (i < D m - D' m)%N)).
have amplD c : c \in cfgs q N 0 -> amplitude N A c - amplitude N (trunc_A D' A) c =
    entry0 (amp A m 0 (take m c) *m Q *m amp A N m (drop m c)).
  move=> hc; have sz := size_cfgs hc.
  rewrite (@trunc_one_amp C D D' q A N m mN leD eqD c hm D0 DN hc) -/P.
  rewrite {1}/amplitude /psi -{1}(cat_take_drop m c) (amp_cat _ _ _ (p := m)); last first.
    by rewrite size_takel ?sz.
  rewrite /Q mulmxBr mulmx1 mulmxBl entry0D; congr (_ + _).
  by rewrite -scaleN1r entry0Z mulN1r.
split.
  transitivity (\sum_(c <- cfgs q N 0) `|entry0 (amp A m 0 (take m c) *m Q *m amp A N m (drop m c))| ^+ 2).
    by apply: eq_big_seq => c hc; rewrite amplD.
  rewrite (bond_ins hl hr mN _ D0 DN) rm mulmx1 Qadj QQ /Q mulmxBl mul1mx raddfB /= trlE.
  by rewrite addrK.
have -> : norm2 q N (trunc_A D' A) = \tr (P *m l m).
  transitivity (\tr (P *m r m *m P^† *m l m)); last by rewrite rm mulmx1 Padj PP.
  rewrite -(bond_ins hl hr mN _ D0 DN).
  apply: eq_big_seq => c hc.
  by rewrite (@trunc_one_amp C D D' q A N m mN leD eqD c hm D0 DN hc).
by rewrite -trl trlE addrC addKr.
Qed.
Print Assumptions C21_single_bond_error.

(* truncating any number of bonds in right canonical form with diagonal l: the squared distance is at
   most twice the total discarded weight *)
Theorem C21_error_bound (C : numClosedFieldType) (D D' q : nat -> nat) N
    (A : tensors C D) (A' : tensors C D') (l : forall n, 'M[C]_(D n)) :
  truncate D' N A = Some A' -> up_l q A N 1%:M l ->
  D 0%N = 1%N -> D N = 1%N -> D' 0%N = 1%N -> D' N = 1%N ->
  (forall n (i j : 'I_(D n)), (n <= N)%N -> i != j -> l n i j = 0) ->
  (forall n, (n < N)%N -> \sum_(s < q n) A n s *m (A n s)^† = 1%:M) ->
  \sum_(c <- cfgs q N 0) `|amplitude N A c - amplitude N A' c| ^+ 2 <=
  (\sum_(1 <= n < N.+1) \sum_(i < D n | (i < D n - D' n)%N) l n i i) *+ 2.
Proof.
move=> tr hl D0 DN D'0 D'N dg rt.
have : truncate D' N A <> None by rewrite tr.
move/C21_truncate_defined=> [le _ _].
have {tr} -> : A' = trunc_A D' A.
  by move: tr; rewrite /truncate; do 3?case: ifP => // _; move=> [<-].
have h := trunc_bound hl dg rt le; apply: le_trans (h).
rewrite le_eqVlt; apply/orP; left; apply/eqP; apply: eq_big_seq => c hc.
have e1 n : D n = 1%N -> D' n = 1%N -> entry0 (sel C D D' n)^T = 1.
  by move=> h1 h2; rewrite (entry0_1 _ h1 h2) !mxE /= h1 h2.
have := congr1 (@entry0 C _ _) (trunc_b A le (etrans D'0 (esym D0)) (leqnn N) hc).
rewrite !entry0M // !e1 // mul1r mulr1 => e2; rewrite {2}/amplitude /psi e2.
rewrite entry0_adot // normCKC entry0D -scaleN1r entry0Z mulN1r.
by [].
Qed.
Print Assumptions C21_error_bound.

(* auto_truncate in the form left by restore_RCF: with zero_tol = 0 it never raises, the state is
   unchanged, and the new bond dimensions are the Schmidt ranks *)
Section C21Auto.
Variables (C : numClosedFieldType) (D q : nat -> nat) (N : nat) (A : tensors C D).
Variables (l : forall n, 'M[C]_(D n)) (tol : C).
Hypotheses (hl : up_l q A N 1%:M l) (D0 : D 0%N = 1%N) (DN : D N = 1%N) (tol0 : 0 <= tol).
Hypothesis sorted : forall n (i j : 'I_(D n)), (0 < n <= N)%N -> (i <= j)%N -> l n i i <= l n j j.
Hypothesis big : forall n, (n <= N)%N -> exists i : 'I_(D n), tol < l n i i.

Lemma auto_pos n : (n <= N)%N -> (0 < auto_D N tol l n)%N.
Proof.
move=> nN; have [i hi] := big nN; rewrite /auto_D; case: ifP => _.
  by apply: leq_ltn_trans (ltn_ord i).
rewrite -has_count; apply/hasP; exists i; rewrite ?mem_enum //.
by rewrite ger0_norm // psd_diag_ge0 //; exact: l_psd hl nN.
Qed.

Theorem C21_auto_truncate_total : auto_truncate N tol l A <> None.
Proof.
rewrite /auto_truncate; case: ifP => // h; case e : (truncate _ N A) => [//|] _.
have : ~ (truncate (auto_D N tol l) N A <> None) by rewrite e.
apply; apply/C21_truncate_defined; split=> [n _| |n nN e0]; first exact: auto_D_le.
  move/negbT: h => /allPn[n]; rewrite mem_iota add0n ltnS => nN /eqP ne; by exists n.
by have := auto_pos nN; rewrite e0.
Qed.

(* a bond index is discarded exactly if its weight does not exceed the tolerance *)
Theorem C21_auto_truncate_discards n (i : 'I_(D n)) : (0 < n <= N)%N ->
  (i < D n - auto_D N tol l n)%N = (l n i i <= tol).
Proof.
move=> nN; apply: auto_D_dropped => //; first exact: ger0_real.
- by move=> j; apply: psd_diag_ge0; apply: l_psd hl _; case/andP: nN.
- by move=> j k; apply: sorted.
Qed.
End C21Auto.

Theorem C21_auto_truncate_lossless (C : numClosedFieldType) (D q : nat -> nat) (N : nat)
    (A : tensors C D) (l : forall n, 'M[C]_(D n)) : (0 < N)%N -> D 0%N = 1%N -> D N = 1%N ->
  up_l q A N 1%:M l -> norm2 q N A != 0 ->
  (forall n (i j : 'I_(D n)), (0 < n <= N)%N -> (i <= j)%N -> l n i i <= l n j j) ->
  (forall n, (n < N)%N -> \sum_(s < q n) A n s *m (A n s)^† = 1%:M) ->
  match auto_truncate N 0 l A with
  | None => False
  | Some (inl A') => A' = A
  | Some (inr A') => forall c, c \in cfgs q N 0 -> amplitude N A' c = amplitude N A c
  end.
Proof.
move=> N0 D0 DN hl nz srt rt.
have big n : (n <= N)%N -> exists i : 'I_(D n), 0 < l n i i.
  move=> nN; have tr : \tr (l n) = norm2 q N A.
    have hr : up_r q A N 1%:M (fun n => 1%:M).
      split=> // m mN; rewrite -(rt m mN) /eps_r_noop; apply: eq_bigr => s _; by rewrite mulmx1.
    rewrite /norm2 -dotst_ampl // -bdotst1 -(norm_cut hl hr nN) adotE mulmx1.
    by rewrite (l_herm hl nN).
  have ge i : 0 <= l n i i by apply: psd_diag_ge0; exact: l_psd hl nN.
  have : \sum_i l n i i != 0 by rewrite -/(mxtrace (l n)) tr.
  rewrite psumr_eq0 => [/allPn[i _ h]|i _ //]; by exists i; rewrite lt_neqAle eq_sym h ge.
have tot := C21_auto_truncate_total hl big.
move: tot; rewrite /auto_truncate; case: ifP => [//|h].
case e : (truncate _ N A) => [A'|] //= _ c hc.
have aN : auto_D N 0 l N = 1%N.
  apply/eqP; rewrite eqn_leq (auto_pos hl big) // andbT.
  by apply: leq_trans (auto_D_le _ _ _ _) _; rewrite DN.
apply: (C21_zero_weight_lossless e hl D0 DN _ aN) => // n i nN hi.
have [n0|n0] := posnP n; first by subst n; move: hi; rewrite /auto_D /= subnn.
apply/eqP; rewrite eq_le; apply/andP; split; last by apply: psd_diag_ge0; exact: l_psd hl nN.
by rewrite -(C21_auto_truncate_discards hl (lexx 0) srt) // n0 nN.
Qed.
Print Assumptions C21_auto_truncate_total.
Print Assumptions C21_auto_truncate_discards.
Print Assumptions C21_auto_truncate_lossless.

(* findings: truncating to the present dimensions raises (max of an empty array), and a bond dimension
   0 keeps the whole range of the old index, so that the assignment raises *)
Theorem C21_no_change_raises_refuted (C : numClosedFieldType) (D : nat -> nat) N (A : tensors C D) :
  truncate D N A = None.
Proof.
case e : (truncate D N A) => [A'|] //.
have /C21_truncate_defined[_ [n _ h] _] : truncate D N A <> None by rewrite e.
by [].
Qed.
Theorem C21_zero_dimension_raises_refuted (C : numClosedFieldType) (D D' : nat -> nat) N (A : tensors C D) n :
  (n <= N)%N -> D' n = 0%N -> (1 < D n)%N -> truncate D' N A = None.
Proof.
move=> nN h0 h1; case e : (truncate D' N A) => [A'|] //.
have /C21_truncate_defined[_ _ h] : truncate D' N A <> None by rewrite e.
by have := h n nN h0; lia.
Qed.
Print Assumptions C21_no_change_raises_refuted.
Print Assumptions C21_zero_dimension_raises_refuted.

(* restore_RCF() followed by auto_truncate(zero_tol=0): the state is only normalised, up to a number
   of modulus 1 *)
Theorem C21_restore_and_truncate (C : numClosedFieldType) (D q : nat -> nat) (N : nat)
    (A : tensors C D) (qr : qr_routine C) (eigh : eigh_routine C) :
  qr_contract qr -> eigh_contract eigh -> open_chain N D q -> norm2 q N A != 0 ->
  let A' := RCF_A2 q A qr eigh N true in let l' := RCF_l2 q A qr eigh N true in
  exists2 u : C, `|u| = 1 &
  match auto_truncate N 0 l' A' with
  | None => False
  | Some (inl B) => forall c, c \in cfgs q N 0 -> amplitude N B c = u * amplitude N A c / sqrtC (norm2 q N A)
  | Some (inr B) => forall c, c \in cfgs q N 0 -> amplitude N B c = u * amplitude N A c / sqrtC (norm2 q N A)
  end.
Proof.
move=> qrP eighP ch nz A' l'; have nz' : true -> norm2 q N A != 0 by [].
have [u u1 hu] := C18_amplitudes qrP eighP ch nz'; exists u => //.
have hu' c : c \in cfgs q N 0 -> amplitude N A' c = u * amplitude N A c / sqrtC (norm2 q N A).
  by move=> hc; rewrite hu // mulrAC.
have [hl hr] := C18_up_to_date qrP eighP ch nz'.
have [N0 D0 DN Dp qp] := ch.
have nA' : norm2 q N A' != 0.
  have e := C18_l_trace qrP eighP ch nz' (n := N); rewrite N0 leqnn /= in e.
  rewrite /norm2 -(lN_norm _ _ hl); [|exact: RCF_D_0|exact: RCF_D_N].
  by rewrite entry0_tr ?e ?oner_eq0 //; exact: RCF_D_N.
have srt n (i j : 'I_(RCF_D D q N n)) : (0 < n <= N)%N -> (i <= j)%N -> l' n i i <= l' n j j.
  move=> hn ij; have [d hd [_ hs]] := C18_l_diagonal qrP eighP ch nz' hn.
  by rewrite /l' hd !mxE !eqxx !mulr1n hs.
have rt n : (n < N)%N -> \sum_(s < q n) A' n s *m (A' n s)^† = 1%:M.
  move=> nN; have [_ /(_ n nN)] := hr; rewrite !C17_r_identity // !andbF => h.
  by rewrite [RHS]h; apply: eq_bigr => s _; rewrite mulmx1.
have D0' : RCF_D D q N 0 = 1%N by apply: RCF_D_0.
have DN' : RCF_D D q N N = 1%N by apply: RCF_D_N.
have := C21_auto_truncate_lossless N0 D0' DN' hl nA' srt rt.
case: (auto_truncate _ _ _ _) => [[B|B]|] //; first by move=> -> c; exact: hu'.
by move=> h c hc; rewrite h // hu'.
Qed.
Print Assumptions C21_restore_and_truncate.

(* non-vacuity: |01> written with a superfluous bond index, truncated to bond dimension 1 *)
Definition padded (n s : nat) : 'M[Cx]_(bellD n, bellD n.+1) :=
  if n == 0%N then \matrix_(i, j) ((s == 0%N) && (j == 1%N :> nat))%:R
  else \matrix_(i, j) (if i == 0%N :> nat then 7%:R else (s == 1%N)%:R).
Example C21_example : exists A', [/\ truncate one 2 (padded : tensors Cx bellD) = Some A',
  amplitude 2 A' [:: 0; 1]%N = 1 & amplitude 2 A' [:: 0; 0]%N = 0].
Proof.
pose l := calc_l two (padded : tensors Cx bellD) (fun n => 1%:M) 0 2.
have hl : up_l two (padded : tensors Cx bellD) 2 1%:M l by exact: calc_l_up.
exists (trunc_A one (padded : tensors Cx bellD)).
have e : truncate one 2 (padded : tensors Cx bellD) = Some (trunc_A one (padded : tensors Cx bellD)) by [].
have z n (i : 'I_(bellD n)) : (n <= 2)%N -> (i < bellD n - one n)%N -> l n i i = 0.
  case: n i => [|[|[|//]]] i _ hi; [by case: (notF hi) | | by case: (notF hi)]; have [l0 /(_ 0%N isT) ->] := hl.
  rewrite l0 /eps_l_noop !big_ord_recl big_ord0 addr0 mxE !mxE !big_ord1 !mxE /=.
  have -> : (i == 1%N :> nat) = false by case: (i : nat) hi.
  by rewrite !big_ord_recl !big_ord0 !mxE /= conjC0 !mul0r addr0.
have h := fun c => C21_zero_weight_lossless (c := c) e hl erefl erefl erefl erefl z.
have a s t : amplitude 2 (padded : tensors Cx bellD) [:: s; t] = ((s == 0%N) && (t == 1%N))%:R.
  rewrite /amplitude /psi /= pid_mx_1 mulmx1 (entry0_1 _ (erefl 1%N) (erefl 1%N)) !cast_ord_id.
  rewrite mxE big_ord_recl big_ord1 !mxE /= andbF mul0r add0r andbT.
  by case: (s == 0%N); rewrite ?mul1r ?mul0r.
by split=> //; rewrite h // a.
Qed.

(* ---- C22 ---------------------------------------------------------------- *)
(* toarray is the matrix an object of matmul.py stands for *)
Theorem C22_dot (C : numClosedFieldType) m n p (a : smat C m n) (b : smat C n p) :
  toarray (dot a b) = toarray a *m toarray b /\
  (forall y, dot_left a b = Some y -> toarray y = toarray a *m toarray b) /\
  dot_inplace a b = toarray a *m toarray b.
Proof. by split; [exact: dotE | split; [exact: dot_leftE | exact: dot_inplaceE]]. Qed.

(* mmul over any mixture of representations, any number of factors *)
Theorem C22_mmul (C : numClosedFieldType) n (a : smat C n n) args :
  toarray (mmul a args) = foldl (fun M x => M *m toarray x) (toarray a) args.
Proof. exact: mmulE. Qed.
Theorem C22_mmul3 (C : numClosedFieldType) m n p k (a : smat C m n) (b : smat C n p) (c : smat C p k) :
  toarray (mmul3 a b c) = toarray a *m toarray b *m toarray c.
Proof. by rewrite /mmul3 !mmul2E. Qed.

Theorem C22_H (C : numClosedFieldType) m n (a : smat C m n) :
  toarray (sconj a) = map_mx conjC (toarray a) /\ toarray (str a) = (toarray a)^T /\
  toarray (sH a) = (toarray a)^†.
Proof. by rewrite sconjE strE sHE. Qed.

Theorem C22_trace (C : numClosedFieldType) m n (a : smat C m n) (k : int) :
  strace a k = \sum_(i < m) \sum_(j < n) (if (j : int) == (i : int) + k then toarray a i j else 0).
Proof. exact: straceE. Qed.

Theorem C22_scale_elementwise (C : numClosedFieldType) n (a : smat C n n) x (M : 'M[C]_n) i j :
  toarray (sscale a x) = x *: toarray a /\ toarray (smul_elem a M) i j = toarray a i j * M i j.
Proof. by rewrite sscaleE smul_elemE. Qed.

(* inv and sqrt are defined exactly for the structured classes *)
Theorem C22_inv_sqrt (C : numClosedFieldType) n (a b : smat C n n) :
  (sinv a = Some b -> (forall i, toarray a i i != 0) -> toarray a *m toarray b = 1%:M) /\
  (ssqrt a = Some b -> toarray b *m toarray b = toarray a).
Proof. by split; [exact: sinvE | exact: ssqrtE]. Qed.

Theorem C22_adot (C : numClosedFieldType) m n (a b : smat C m n) (c : smat C n m) :
  sadot a b = \tr ((toarray a)^† *m toarray b) /\ sadot_noconj a c = \tr (toarray a *m toarray c).
Proof. by rewrite sadotE sadot_noconjE. Qed.

Theorem C22_sqrtmh_invmh (C : numClosedFieldType) (eigh : eigh_routine C) n (A : 'M[C]_n) :
  eigh_contract eigh -> herm A ->
  sqrtmh eigh A *m sqrtmh eigh A = A /\ (psd A -> herm (sqrtmh eigh A)) /\
  (A \in unitmx -> invmh eigh A = invmx A).
Proof.
by move=> eP hA; split; [exact: sqrtmhE | split; [exact: sqrtmh_herm | exact: invmhE]].
Qed.
Print Assumptions C22_dot.
Print Assumptions C22_mmul.
Print Assumptions C22_mmul3.
Print Assumptions C22_H.
Print Assumptions C22_trace.
Print Assumptions C22_scale_elementwise.
Print Assumptions C22_inv_sqrt.
Print Assumptions C22_adot.
Print Assumptions C22_sqrtmh_invmh.

(* finding: the product of two simple_diag_matrix objects is defined for matching sizes only if the
   dense product is, except that a size-1 matrix is silently broadcast *)
Theorem C22_diag_dot_shapes (C : numClosedFieldType) (d e : seq C) :
  diag_dot_diag d e <> None <-> size d = size e \/ size d = 1%N \/ size e = 1%N.
Proof.
rewrite /diag_dot_diag; case: eqVneq => [->|h1]; first by split=> // _; left.
case: eqVneq => [->|h2]; first by split=> // _; right; left.
case: eqVneq => [->|h3]; first by split=> // _; right; right.
by split=> // -[/eqP|[/eqP|/eqP]]; rewrite ?(negbTE h1) ?(negbTE h2) ?(negbTE h3).
Qed.
Theorem C22_diag_broadcast_refuted : exists d e : seq Cx, size d <> size e /\
  diag_dot_diag d e = Some [:: 2%:R * 3%:R; 2%:R * 5%:R].
Proof. by exists [:: 2%:R], [:: 3%:R; 5%:R]. Qed.
Print Assumptions C22_diag_dot_shapes.
Print Assumptions C22_diag_broadcast_refuted.

Example C22_example (M : 'M[Cx]_2) :
  let d : 'rV[Cx]_2 := \row_i (i.+1)%:R in
  toarray (mmul (SDiag d) [:: SEye Cx 2; SDense M; SDiag d]) = \matrix_(i, j) ((i.+1)%:R * M i j * (j.+1)%:R) /\
  exists d', mmul (SDiag d) [:: SEye Cx 2; SDiag d] = SDiag d'.
Proof.
split; last by eexists.
rewrite C22_mmul /= -!/(toarray (SDiag _)) !toarray_diag mulmx1.
by apply/matrixP=> i j; rewrite mul_mx_diag mul_diag_mx !mxE.
Qed.
