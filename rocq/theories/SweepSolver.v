(* SweepSolver.v -- the contract of the local eigensolver (Sweep.v, eigsh_contract) can be met: eigsh0 writes
   the operator as a matrix and takes the first column of a Hermitian eigendecomposition.  Likewise for the
   exponential: the Cayley transform (1 + i t h / 2) / (1 - i t h / 2) is a unitary function of h. *)
From mathcomp Require Import all_ssreflect all_algebra.
From Verif Require Import Base Spec Eps Chain LinAlg Struct Tangent Tdvp Canon Heff Sweep.
Set Implicit Arguments.
Unset Strict Implicit.
Unset Printing Implicit Defensive.
Import Order.TTheory GRing.Theory Num.Theory.
Local Open Scope ring_scope.

Section Solver.
Variables (C : numClosedFieldType) (D q : nat -> nat).
Local Notation ten m := (nat -> 'M[C]_(D m, D m.+1)).
Definition ix m : finType := [finType of 'I_(q m) * ('I_(D m) * 'I_(D m.+1))].
Local Notation dim m := #|ix m|.
Definition coef m (T : ten m) (i : ix m) : C := T i.1 i.2.1 i.2.2.
Definition vec_of m (T : ten m) : 'cV[C]_(dim m) := \col_i coef T (enum_val i).
Definition ten_of m (x : 'cV[C]_(dim m)) : ten m := fun s =>
  \matrix_(a, b) (if insub s is Some s' then x (enum_rank ((s', (a, b)) : ix m)) 0 else 0).
Definition eb m (i : 'I_(dim m)) : ten m := ten_of (delta_mx i 0).
Definition mat_of m (op : ten m -> ten m) : 'M[C]_(dim m) := \matrix_(i, j) tdot q (eb i) (op (eb j)).
Definition eigsh0 : eigsh_routine C D := fun m op _ =>
  ten_of (\col_i (if insub 0%N is Some k then (eigh0 (mat_of op)).2 i k else 0)).

Lemma coef_ten m (x : 'cV[C]_(dim m)) i : coef (ten_of x) i = x (enum_rank i) 0.
Proof. by case: i => [s [a b]]; rewrite /coef /ten_of mxE /= valK. Qed.
Lemma vec_tenK m (x : 'cV[C]_(dim m)) : vec_of (ten_of x) = x.
Proof. by apply/colP=> i; rewrite mxE coef_ten enum_valK. Qed.
Lemma tdot_coef m (T X : ten m) : tdot q T X = \sum_(i : ix m) (coef T i)^* * coef X i.
Proof.
rewrite -(pair_bigA _ (fun s (p : 'I_(D m) * 'I_(D m.+1)) => (coef T (s, p))^* * coef X (s, p))) /=.
apply: eq_bigr => s _; rewrite -adotE /adot pair_bigA /=; by apply: eq_bigr => [[a b] _].
Qed.
Lemma tdot_vec m (T X : ten m) : tdot q T X = adot (vec_of T) (vec_of X).
Proof.
rewrite tdot_coef /adot (reindex (@enum_val _ (ix m))) /=; last first.
  by exists enum_rank => i _; [exact: enum_valK | exact: enum_rankK].
by apply: eq_bigr => i _; rewrite big_ord1 !mxE.
Qed.
Lemma tdot_conj m (T X : ten m) : tdot q T X = (tdot q X T)^*.
Proof. by rewrite !tdot_coef rmorph_sum; apply: eq_bigr => i _; rewrite rmorphM conjCK mulrC. Qed.
Lemma tdot_eb m (X : ten m) i : tdot q (eb i) X = vec_of X i 0.
Proof.
rewrite tdot_vec vec_tenK /adot (bigD1 i) //= big_ord1 big1 => [|j ji]; last first.
  by rewrite big_ord1 mxE (negPf ji) /= rmorph0 mul0r.
by rewrite mxE !eqxx rmorph1 mul1r addr0.
Qed.
Lemma vec_op m (op : ten m -> ten m) (T : ten m) : herm_ten q op -> vec_of (op T) = mat_of op *m vec_of T.
Proof.
move=> h; apply/colP=> i.
have mE j : mat_of op i j = (vec_of (op (eb i)) j 0)^* by rewrite -tdot_eb mxE h.
rewrite -tdot_eb h tdot_vec /adot rmorph_sum mxE; apply: eq_bigr => j _.
by rewrite big_ord1 rmorphM conjCK mE mulrC.
Qed.
Lemma mat_herm m (op : ten m -> ten m) : herm_ten q op -> herm (mat_of op).
Proof. by move=> h; apply/matrixP=> i j; rewrite adjE !mxE -h. Qed.

Lemma eigsh0_ok : eigsh_contract q eigsh0.
Proof.
move=> m op v0 q0 D0 D1 h; have hM := mat_herm h; have /and4P[/eqP V1 /eqP MV _ /forallP lam] := eigh0_ok hM.
have n0 : (0 < dim m)%N by rewrite !card_prod !card_ord !muln_gt0 q0 D0.
pose k0 := Ordinal n0; pose V := (eigh0 (mat_of op)).2; pose d := (eigh0 (mat_of op)).1.
have XE : vec_of (eigsh0 op v0) = col k0 V.
  rewrite /eigsh0 vec_tenK; apply/colP=> i; rewrite !mxE insubT /=; congr (V _ _); exact: val_inj.
have V2 : V *m V^† = 1%:M by apply: unitary_sym.
have adv (x : 'cV[C]_(dim m)) : adot x x = adot (V^† *m x) (V^† *m x).
  by rewrite !adotE adjM adjK -mulmxA (mulmxA V) V2 mul1mx.
rewrite /=; split.
  rewrite tdot_vec XE adv colE mulmxA V1 mul1mx /adot (bigD1 k0) //= big_ord1 mxE !eqxx rmorph1 mulr1.
  rewrite big1 ?addr0 ?ltr01 // => i ik; by rewrite big_ord1 mxE (negPf ik) mulr0.
exists (d 0 k0); split=> [s sq|T].
  have e : vec_of (op (eigsh0 op v0)) = d 0 k0 *: vec_of (eigsh0 op v0).
    rewrite vec_op // XE !colE mulmxA MV -/V -/d -mulmxA scalemxAr; congr (_ *m _).
    apply/colP=> i; rewrite mul_diag_mx !mxE; case: eqP => [->|]; by rewrite ?mulr0.
  move: (eigsh0 op v0) e => X e; apply/matrixP=> a b; rewrite mxE.
  have := congr1 (fun x : 'cV[C]_(dim m) => x (enum_rank ((Ordinal sq, (a, b)) : ix m)) 0) e.
  by rewrite /vec_of !mxE enum_rankK.
rewrite !tdot_vec vec_op //; set x := vec_of T.
have -> : mat_of op = V *m diag_mx d *m V^† by rewrite -MV -mulmxA V2 mulmx1.
have -> : adot x (V *m diag_mx d *m V^† *m x) = adot (V^† *m x) (diag_mx d *m (V^† *m x)).
  by rewrite !adotE adjM adjK -!mulmxA.
rewrite adv /adot mulr_sumr; apply: ler_sum => i _; rewrite !big_ord1.
move: (V^† *m x) => y; rewrite mul_diag_mx [(\matrix_(_, _) _) _ _]mxE [X in _ <= X]mulrCA.
apply: ler_wpmul2r; first by rewrite mulrC -normCK exprn_ge0.
by have /forallP/(_ i)/implyP := lam k0; apply.
Qed.

(* ---- a unitary function of a Hermitian operator -------------------------------------------- *)
Definition cay (x : C) : C := (1 + 'i * x) / (1 - 'i * x).
Lemma cay_unit x : x \is Num.real -> (cay x)^* * cay x = 1.
Proof.
move=> xr; have p0 : (1 + 'i * x) * (1 - 'i * x) != 0.
  rewrite mulrC -subr_sqr expr1n exprMn sqrCi mulN1r opprK gt_eqF //.
  by apply: ltr_paddr; rewrite ?ltr01 // real_exprn_even_ge0.
move: p0; rewrite mulf_eq0 negb_or => /andP[p1 p2].
rewrite /cay fmorph_div rmorphD rmorphB rmorph1 rmorphM conjCi (conj_Creal xr) mulNr opprK.
by rewrite mulf_div [X in _ / X]mulrC divff // mulf_neq0.
Qed.
Definition cayW n (t : C) (M : 'M[C]_n) : 'M[C]_n :=
  (eigh0 M).2 *m diag_mx (\row_i cay (t / 2%:R * (eigh0 M).1 0 i)) *m (eigh0 M).2^†.
Lemma cayWP n t (M : 'M[C]_n) : t \is Num.real -> herm M ->
  (cayW t M)^† *m cayW t M = 1%:M /\ cayW t M *m M = M *m cayW t M.
Proof.
move=> tr hM; have /and4P[/eqP V1 /eqP MV /forallP re _] := eigh0_ok hM.
rewrite /cayW; move: (eigh0 M) V1 MV re => [d V] /= V1 MV re; have V2 := unitary_sym V1.
set F := diag_mx _; have F1 : F^† *m F = 1%:M.
  apply/matrixP=> i j; rewrite mxE (bigD1 i) //= big1 => [|k ki]; last by rewrite adjE !mxE (negPf ki) mulr0n rmorph0 mul0r.
  rewrite adjE !mxE eqxx mulr1n addr0; case: (eqVneq i j) => [_|ij]; last by rewrite mulr0n mulr0.
  by rewrite mulr1n cay_unit // rpredM // rpredM // rpredV realn.
split; first by rewrite !adjM adjK -!mulmxA (mulmxA V^† V) V1 mul1mx (mulmxA F^†) F1 mul1mx V2.
have ME : M = V *m diag_mx d *m V^† by rewrite -MV -mulmxA V2 mulmx1.
rewrite ME -!mulmxA !(mulmxA V^† V) V1 !mul1mx; congr (_ *m _); rewrite !mulmxA; congr (_ *m _).
by rewrite /F !mulmx_diag; congr diag_mx; apply/rowP=> i; rewrite !mxE mulrC.
Qed.
Lemma ten_eq m (T X : ten m) s : vec_of T = vec_of X -> (s < q m)%N -> T s = X s.
Proof.
move=> e sq; apply/matrixP=> a b.
have := congr1 (fun x : 'cV[C]_(dim m) => x (enum_rank ((Ordinal sq, (a, b)) : ix m)) 0) e.
by rewrite /vec_of !mxE enum_rankK.
Qed.
Definition expA0 : expA_routine C D := fun m t op T =>
  ten_of (cayW t (mat_of (fun X s => - 'i *: op X s)) *m vec_of T).
Lemma expA0_ok : expA_contract q expA0.
Proof.
move=> m t h tr hh; exists (fun T => ten_of (cayW t (mat_of h) *m vec_of T)).
have [w1 w2] := cayWP tr (mat_herm hh); split=> [T X|T s sq|T s sq].
- by rewrite !tdot_vec !vec_tenK !adotE adjM -mulmxA (mulmxA _ (cayW _ _)) w1 mul1mx.
- apply: ten_eq sq; rewrite vec_tenK.
  by rewrite (vec_op T hh) (vec_op _ hh) vec_tenK mulmxA w2 -mulmxA.
- rewrite /expA0; have -> // : mat_of (fun X s => - 'i *: ('i *: h X s)) = mat_of h.
  apply/matrixP=> i j; rewrite !mxE; apply: eq_bigr => u _.
  by rewrite scalerA mulNr -expr2 sqrCi opprK scale1r.
Qed.
End Solver.

(* the same for centre matrices: one site of dimension one *)
Section SolverG.
Variable C : numClosedFieldType.
Definition expG0 : expG_routine C := fun d t op G =>
  @expA0 C (fun=> d) (fun=> 1%N) 0%N t (fun X _ => op (X 0%N)) (fun=> G) 0%N.
Lemma expG0_ok : expG_contract expG0.
Proof.
move=> d t h tr hh.
have tE (T X : nat -> 'M[C]_d) : @tdot C (fun=> d) (fun=> 1%N) 0%N T X = adot (T 0%N) (X 0%N).
  by rewrite /tdot big_ord1 adotE.
have hh' : @herm_ten C (fun=> d) (fun=> 1%N) 0%N (fun X _ => h (X 0%N)) by move=> T X; rewrite !tE.
have [U [u1 u2 u3]] := @expA0_ok C (fun=> d) (fun=> 1%N) 0%N t _ tr hh'.
have cE (F G : nat -> 'M[C]_d) : F 0%N = G 0%N -> U F 0%N = U G 0%N.
  by move=> e; rewrite -!u3 // /expA0; congr (ten_of (_ *m _) _); apply/colP=> i; rewrite !mxE /coef; case: (enum_val i) => [[[|//] ?] ?] /=; rewrite e.
exists (fun G => U (fun=> G) 0%N); split=> [F G|F|F].
- by rewrite -tE u1 tE.
- by rewrite -(u2 (fun=> F) 0%N isT); apply: cE.
- by rewrite -u3.
Qed.
End SolverG.
