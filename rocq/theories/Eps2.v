(* Eps2.v -- all implementations of the two-site operator maps agree. *)
From mathcomp Require Import all_ssreflect all_algebra.
From Verif Require Import Base Spec Eps.
Set Implicit Arguments.
Unset Strict Implicit.
Unset Printing Implicit Defensive.
Import GRing.Theory Num.Theory.
Local Open Scope ring_scope.

Section TwoSite.
Variable C : numClosedFieldType.
Variables (q q' Da Dm Da' Db Dm' Db' : nat).
Variables (A1 : nat -> 'M[C]_(Da, Dm)) (A2 : nat -> 'M[C]_(Dm, Da')).
Variables (A3 : nat -> 'M[C]_(Db, Dm')) (A4 : nat -> 'M[C]_(Dm', Db')).

(* specification: sum over all matrix elements <uv|op|st> *)
Definition map2s_r (op : op2s C) (x : 'M[C]_(Da', Db')) : 'M[C]_(Da, Db) :=
  \sum_(u < q) \sum_(v < q') \sum_(s < q) \sum_(t < q')
    op u v s t *: (A1 s *m A2 t *m x *m (A3 u *m A4 v)^†).
Definition map2s_l (op : op2s C) (x : 'M[C]_(Da, Db)) : 'M[C]_(Da', Db') :=
  \sum_(u < q) \sum_(v < q') \sum_(s < q) \sum_(t < q')
    op u v s t *: ((A1 u *m A2 v)^† *m x *m (A3 s *m A4 t)).

Lemma eps_r_op_2s_AE op x : eps_r_op_2s_A q q' x A1 A2 A3 A4 op = map2s_r op x.
Proof.
apply: eq_bigr => u _; apply: eq_bigr => v _; rewrite mulmx_suml; apply: eq_bigr => s _.
rewrite mulmx_suml; apply: eq_bigr => t _.
by rewrite /= ifnz_scale -scalemxAl !mulmxA.
Qed.

Lemma eps_r_op_2s_AA12E op x : eps_r_op_2s_AA12 q q' x (calc_AA A1 A2) A3 A4 op = map2s_r op x.
Proof. by rewrite -eps_r_op_2s_AE. Qed.

Lemma eps_r_op_2s_AA_func_opE op x :
  eps_r_op_2s_AA_func_op q q' x (calc_AA A1 A2) (calc_AA A3 A4) op = map2s_r op x.
Proof. by rewrite -eps_r_op_2s_AE. Qed.

Lemma eps_r_op_2s_C12E op x :
  eps_r_op_2s_C12 q q' x (calc_C_mat_op_AA q q' op (calc_AA A1 A2)) A3 A4 = map2s_r op x.
Proof.
apply: eq_bigr => u _; apply: eq_bigr => v _; rewrite calc_C_mat_op_AAE // mulmx_suml.
apply: eq_bigr => s _; rewrite mulmx_suml; apply: eq_bigr => t _.
by rewrite -scalemxAl !mulmxA.
Qed.

Lemma eps_r_op_2s_C12_AA34_op op x :
  eps_r_op_2s_C12_AA34 q q' x (calc_C_mat_op_AA q q' op (calc_AA A1 A2)) (calc_AA A3 A4) = map2s_r op x.
Proof.
rewrite eps_r_op_2s_C12_AA34E -eps_r_op_2s_C12E; apply: eq_bigr => u _; apply: eq_bigr => v _.
by rewrite !mulmxA.
Qed.

Lemma swap22 (V : zmodType) (F : nat -> nat -> nat -> nat -> V) :
  \sum_(u < q) \sum_(v < q') \sum_(s < q) \sum_(t < q') F u v s t =
  \sum_(u < q) \sum_(v < q') \sum_(s < q) \sum_(t < q') F s t u v.
Proof.
transitivity (\sum_(u < q) \sum_(s < q) \sum_(v < q') \sum_(t < q') F u v s t).
  by apply: eq_bigr => u _; rewrite exchange_big.
rewrite exchange_big; apply: eq_bigr => s _ /=.
transitivity (\sum_(u < q) \sum_(t < q') \sum_(v < q') F u v s t).
  by apply: eq_bigr => u _; rewrite exchange_big.
by rewrite exchange_big.
Qed.

Lemma eps_r_op_2s_C34E op x :
  eps_r_op_2s_C34 q q' x A1 A2 (calc_C_conj_mat_op_AA q q' op (calc_AA A3 A4)) = map2s_r op x.
Proof.
rewrite /map2s_r (swap22 (fun u v s t => op u v s t *: (A1 s *m A2 t *m x *m (A3 u *m A4 v)^†))); apply: eq_bigr => u _; apply: eq_bigr => v _.
rewrite calc_C_conj_mat_op_AAE // adj_sum !mulmx_sumr; apply: eq_bigr => s _.
rewrite adj_sum !mulmx_sumr; apply: eq_bigr => t _.
by rewrite adjZ conjCK -!scalemxAr !mulmxA.
Qed.

Lemma eps_r_op_2s_AA12_C34E op x :
  eps_r_op_2s_C12_AA34 q q' x (calc_AA A1 A2) (calc_C_conj_mat_op_AA q q' op (calc_AA A3 A4)) =
  map2s_r op x.
Proof.
rewrite eps_r_op_2s_C12_AA34E -eps_r_op_2s_C34E; apply: eq_bigr => u _; apply: eq_bigr => v _.
by rewrite /calc_AA !mulmxA.
Qed.

Lemma calc_C_variants op u v : (u < q)%N -> (v < q')%N ->
  [/\ calc_C_func_op q q' op A1 A2 u v = calc_C_mat_op_AA q q' op (calc_AA A1 A2) u v,
      calc_C_func_op_AA q q' op (calc_AA A1 A2) u v = calc_C_mat_op_AA q q' op (calc_AA A1 A2) u v
    & calc_C_mat_op_AA_tensordot q q' op (calc_AA A1 A2) u v = calc_C_mat_op_AA q q' op (calc_AA A1 A2) u v].
Proof.
by move=> uq vq; rewrite calc_C_func_opE calc_C_func_op_AAE calc_C_mat_op_AAE.
Qed.

(* sums of tensor products of one-site operators *)
Definition op_of_tp (tp : seq (op1s C * op1s C)) : op2s C :=
  fun s t u v => \sum_(o <- tp) o.1 s u * o.2 t v.

Lemma calc_C_mat_op_tpE tp s t : (t < q')%N ->
  calc_C_mat_op_tp q q' tp A1 A2 s t = calc_C_mat_op_AA q q' (op_of_tp tp) (calc_AA A1 A2) s t.
Proof.
move=> tq; rewrite calc_C_mat_op_AAE // /calc_C_mat_op_tp /calc_AA /op_dot_A.
transitivity (\sum_(o <- tp) \sum_(u < q) \sum_(v < q') (o.1 s u * o.2 t v) *: (A1 u *m A2 v)).
  apply: eq_bigr => o _; rewrite mulmx_suml; apply: eq_bigr => u _; rewrite mulmx_sumr.
  by apply: eq_bigr => v _; rewrite -scalemxAl -scalemxAr scalerA.
rewrite exchange_big; apply: eq_bigr => u _; rewrite exchange_big; apply: eq_bigr => v _.
by rewrite /op_of_tp scaler_suml.
Qed.

Lemma eps_r_op_2s_C12_tpE tp x :
  eps_r_op_2s_C12_tp q q' x (calc_C_tp q q' tp A1 A2) A3 A4 = map2s_r (op_of_tp tp) x.
Proof.
rewrite -eps_r_op_2s_C12E /eps_r_op_2s_C12_tp big_map.
transitivity (\sum_(o <- tp) \sum_(u < q) \sum_(v < q')
   calc_AA (op_dot_A q o.1 A1) (op_dot_A q' o.2 A2) u v *m (x *m (A3 u *m A4 v)^†)).
  apply: eq_bigr => o _; rewrite /eps_r_noop; apply: eq_bigr => u _ /=.
  rewrite mulmx_sumr mulmx_suml; apply: eq_bigr => v _.
  by rewrite /calc_AA adjM !mulmxA.
rewrite exchange_big; apply: eq_bigr => u _; rewrite exchange_big; apply: eq_bigr => v _.
by rewrite -calc_C_mat_op_tpE // /calc_C_mat_op_tp mulmx_suml.
Qed.

Lemma eps_l_op_2s_AA12_C34_op op x :
  eps_l_op_2s_AA12_C34 q q' x (calc_AA A1 A2) (calc_C_mat_op_AA q q' op (calc_AA A3 A4)) = map2s_l op x.
Proof.
rewrite eps_l_op_2s_AA12_C34E; apply: eq_bigr => u _; apply: eq_bigr => v _.
rewrite calc_C_mat_op_AAE // !mulmx_sumr; apply: eq_bigr => s _.
rewrite !mulmx_sumr; apply: eq_bigr => t _.
by rewrite -!scalemxAr mulmxA.
Qed.

Lemma eps_l_op_2s_A1_A2_C34_op op x :
  eps_l_op_2s_A1_A2_C34 q q' x A1 A2 (calc_C_mat_op_AA q q' op (calc_AA A3 A4)) = map2s_l op x.
Proof. by rewrite -eps_l_op_2s_AA12_C34_op eps_l_op_2s_AA12_C34E. Qed.

(* the left and right maps of adjoint operators are adjoint to each other *)
Lemma map2s_adjoint op x y :
  adot (map2s_l op x) y = adot x (map2s_r (fun s t u v => (op u v s t)^*) y).
Proof.
rewrite /map2s_l /map2s_r
  (swap22 (fun u v s t => op u v s t *: ((A1 u *m A2 v)^† *m x *m (A3 s *m A4 t)))).
rewrite adot_suml adot_sumr; apply: eq_bigr => u _.
rewrite adot_suml adot_sumr; apply: eq_bigr => v _.
rewrite adot_suml adot_sumr; apply: eq_bigr => s _.
rewrite adot_suml adot_sumr; apply: eq_bigr => t _.
rewrite adotZl adotZr; congr (_ * _).
by rewrite adot_mulr adot_mull adjK !mulmxA.
Qed.

End TwoSite.

Section TwoSiteTpLeft.
Variable C : numClosedFieldType.
Variables (q q' Da Dm Da' Db Dm' Db' : nat).
Variables (A1 : nat -> 'M[C]_(Da, Dm)) (A2 : nat -> 'M[C]_(Dm, Da')).
Variables (A3 : nat -> 'M[C]_(Db, Dm')) (A4 : nat -> 'M[C]_(Dm', Db')).
Lemma eps_l_op_2s_C34_tpE tp x :
  eps_l_op_2s_C34_tp q q' x A1 A2 (calc_C_tp q q' tp A3 A4) = map2s_l q q' A1 A2 A3 A4 (op_of_tp tp) x.
Proof.
rewrite -eps_l_op_2s_A1_A2_C34_op /eps_l_op_2s_C34_tp big_map.
transitivity (\sum_(o <- tp) \sum_(u < q) \sum_(v < q')
   (A1 u *m A2 v)^† *m (x *m calc_AA (op_dot_A q o.1 A3) (op_dot_A q' o.2 A4) u v)).
  apply: eq_bigr => o _; rewrite /eps_l_noop exchange_big; apply: eq_bigr => v _ /=.
  rewrite mulmx_suml mulmx_sumr; apply: eq_bigr => u _.
  by rewrite /calc_AA adjM !mulmxA.
rewrite exchange_big; apply: eq_bigr => u _; rewrite exchange_big; apply: eq_bigr => v _.
by rewrite -calc_C_mat_op_tpE // /calc_C_mat_op_tp !mulmx_sumr.
Qed.
End TwoSiteTpLeft.
