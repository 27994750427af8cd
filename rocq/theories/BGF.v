(* BGF.v -- gauge fixing of a momentum tangent vector of a uniform state: EvoMPS_TDVP_Uniform._B_to_B_GF
   (tdvp_uniform.py:1053-1111), which the conjugate gradient method applies to the previous direction (1435).
   Simplified as in BOverlap.v: cells of one site (L = 1), tangent vectors of one site (M = 1), w stands for exp(1j p).
   The roots of l, r and the null space Vsh are those of tdvp_common (Factor.v), as calc_l_r_roots and _calc_Vsh leave
   them in the attributes. *)
From mathcomp Require Import all_ssreflect all_algebra.
From mathcomp Require Import zify.
From Verif Require Import Base Spec Eps Chain ChainProofs LinAlg Struct Factor TdvpProofs3 BOverlap.
Set Implicit Arguments.
Unset Strict Implicit.
Unset Printing Implicit Defensive.
Import Order.TTheory GRing.Theory Num.Theory.
Local Open Scope ring_scope.

Section Model.
Variables (C : numClosedFieldType) (q D : nat) (A : nat -> 'M[C]_D) (l r : smat C D D).
Variables (eigh : eigh_routine C) (qrf : qrf_routine C) (tol : C) (pinv : C -> 'M[C]_D -> 'M[C]_D).
(* self.l_sqrt, l_sqrt_i, r_sqrt, r_sqrt_i (tdvp_common.py:206-268) *)
Definition gf_ls : 'M[C]_D := toarray (herm_sqrt_inv eigh tol l).1.1.
Definition gf_lsi : 'M[C]_D := toarray (herm_sqrt_inv eigh tol l).1.2.
Definition gf_rs : smat C D D := (herm_sqrt_inv eigh tol r).1.1.
Definition gf_rsi : 'M[C]_D := toarray (herm_sqrt_inv eigh tol r).1.2.
(* VRr_si (1066-1070) *)
Definition gf_V (s : nat) : 'M[C]_(D * q - D, D) := (gf_rsi *m vsh_at qrf q A gf_rs s)^†.
(* x (1073-1103): BR_ is 0 when _B_overlap_calc_BR returned None; for M = 1 the loops over s and j have one pass *)
Definition gf_x (w : C) (B : nat -> 'M[C]_D) : 'M[C]_(D, D * q - D) :=
  let BR_ := if (bo_BR q (toarray l) (toarray r) pinv w B A).1 is Some X then eps_r_noop q X A gf_V else 0 in
  gf_ls *m (eps_r_noop q (toarray r) B gf_V + w *: BR_).
(* newB (1105-1109) *)
Definition gf_B (x : 'M[C]_(D, D * q - D)) (s : nat) : 'M[C]_D := gf_lsi *m x *m gf_V s.
Definition B_to_B_GF (w : C) (B : nat -> 'M[C]_D) : (nat -> 'M[C]_D) * 'M[C]_(D, D * q - D) :=
  let x := gf_x w B in (gf_B x, x).
End Model.

Section Facts.
Variables (C : numClosedFieldType) (q D : nat) (A : nat -> 'M[C]_D) (l r : smat C D D).
Variables (eigh : eigh_routine C) (qrf : qrf_routine C) (tol : C) (pinv : C -> 'M[C]_D -> 'M[C]_D).
Hypotheses (eighP : eigh_contract eigh) (qrfP : qrf_contract qrf) (tol0 : 0 <= tol).
Notation Ld := (toarray l).
Notation Rd := (toarray r).
Hypotheses (lh : herm Ld) (rh : herm Rd).
Notation ls := (gf_ls l eigh tol). Notation lsi := (gf_lsi l eigh tol).
Notation rs := (toarray (gf_rs r eigh tol)). Notation rsi := (gf_rsi r eigh tol).
Notation V := (gf_V q A r eigh qrf tol).
Lemma gf_AV : eps_r_noop q Rd A V = 0.
Proof.
have [h1 _ h2 _] := hsi_herm eighP tol0 rh; have [_ _ h3 h4 _] := hsi_mul eighP tol0 rh.
have [v1 _] := vsh_atP qrfP q A h1; rewrite -[RHS]v1; apply: eq_bigr => s _.
by rewrite /gf_V adjK /gf_rsi -h4 !mulmxA.
Qed.
Lemma gf_VA : eps_r_noop q Rd V A = 0.
Proof.
have := congr1 (@adj C _ _) gf_AV; rewrite adj0 => <-.
rewrite /eps_r_noop adj_sum; apply: eq_bigr => s _; by rewrite !adjM adjK mulmxA rh.
Qed.
Section Full.
Hypotheses (fl : full tol Ld) (fr : full tol Rd).
Lemma gf_VV : eps_r_noop q Rd V V = 1%:M.
Proof.
have [h1 _ h2 _] := hsi_herm eighP tol0 rh; have [_ _ h3 h4 _] := hsi_mul eighP tol0 rh.
have [_ g2 g3 _ _] := hsi_full eighP tol0 rh fr.
have [_ v2] := vsh_atP qrfP q A h1; rewrite -[RHS]v2; apply: eq_bigr => s _.
rewrite /gf_V adjK adjM /gf_rsi h2 -!mulmxA; congr (_ *m _).
by rewrite !mulmxA h3 g2 mul1mx.
Qed.
Hypothesis hr : eps_r_noop q Rd A A = Rd.
(* every gauge-fixing tensor is parametrised, with coordinates eps_r (r, Z, V) *)
Lemma gf_complete (Z : nat -> 'M[C]_D) s : eps_r_noop q Rd Z A = 0 -> (s < q)%N -> Z s = eps_r_noop q Rd Z V *m V s.
Proof.
move=> z0 sq.
have [h1 _ h2 _] := hsi_herm eighP tol0 rh; have [_ _ h3 h4 _] := hsi_mul eighP tol0 rh.
have [g1 g2 g3 _ _] := hsi_full eighP tol0 rh fr.
have un : \sum_(t < q) A t *m rs *m (A t *m rs)^† \in unitmx.
  have -> : \sum_(t < q) A t *m rs *m (A t *m rs)^† = Rd; last exact: full_unit fr.
  rewrite -[RHS]hr; apply: eq_bigr => t _; by rewrite adjM h1 !mulmxA -[_ *m rs *m rs]mulmxA g1.
have [|W hW] := @vsh_complete C qrf qrfP q D D A (gf_rs r eigh tol) h1 un _ (fun t => rs *m (Z t)^†).
  transitivity ((eps_r_noop q Rd Z A)^†); last by rewrite z0 adj0.
  rewrite /eps_r_noop [RHS]adj_sum; apply: eq_bigr => t _.
  by rewrite !adjM adjK rh !mulmxA -[_ *m rs *m rs]mulmxA g1.
have e t : (t < q)%N -> Z t = W^† *m V t.
  move=> tq; rewrite /gf_V -adjM -mulmxA -hW // mulmxA g3 mul1mx adjK //.
rewrite {1}e //; congr (_ *m _).
transitivity (W^† *m eps_r_noop q Rd V V); first by rewrite gf_VV mulmx1.
by rewrite /eps_r_noop mulmx_sumr; apply: eq_bigr => t _; rewrite [in RHS]e // !mulmxA.
Qed.
End Full.
End Facts.
