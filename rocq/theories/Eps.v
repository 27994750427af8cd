(* Eps.v -- model of the single-site and two-/three-site transfer maps of
   evoMPS (core_common.py and the top of tdvp_common.py).

   A site tensor is a function [nat -> 'M_(Dl,Dr)] of the physical index; its
   first shape component (the physical dimension) is passed explicitly as [q].
   Accumulation loops "out += f(s)" over range(q), starting from zeros, are
   written as finite sums.  Matrices are exact (no rounding). *)
From mathcomp Require Import all_ssreflect all_algebra.
From Verif Require Import Base.
Set Implicit Arguments.
Unset Strict Implicit.
Unset Printing Implicit Defensive.
Import GRing.Theory Num.Theory.
Local Open Scope ring_scope.

Section Eps.
Variable C : numClosedFieldType.

Definition op1s := nat -> nat -> C.
Definition op2s := nat -> nat -> nat -> nat -> C.
Definition op3s := nat -> nat -> nat -> nat -> nat -> nat -> C.

(* core_common.eps_l_noop / eps_l_noop_inplace (core_common.py:82-147):
   for s: out += A1[s]^H . (x . A2[s]) *)
Definition eps_l_noop q Da Db Da' Db' (x : 'M[C]_(Da, Db))
    (A1 : nat -> 'M[C]_(Da, Da')) (A2 : nat -> 'M[C]_(Db, Db')) : 'M[C]_(Da', Db') :=
  \sum_(s < q) (A1 s)^† *m (x *m A2 s).

(* core_common.eps_r_noop / eps_r_noop_inplace (core_common.py:149-207):
   for s: out += (A1[s] . x) . A2[s]^H *)
Definition eps_r_noop q Da Db Da' Db' (x : 'M[C]_(Da', Db'))
    (A1 : nat -> 'M[C]_(Da, Da')) (A2 : nat -> 'M[C]_(Db, Db')) : 'M[C]_(Da, Db) :=
  \sum_(s < q) (A1 s *m x) *m (A2 s)^†.

(* core_common.eps_l_op_1s (core_common.py:209-245); the "if o_st != 0" guard is kept *)
Definition eps_l_op_1s q Da Db Da' Db' (x : 'M[C]_(Da, Db))
    (A1 : nat -> 'M[C]_(Da, Da')) (A2 : nat -> 'M[C]_(Db, Db')) (op : op1s) :
    'M[C]_(Da', Db') :=
  \sum_(s < q) \sum_(t < q)
    (let o_st := (op t s)^* in
     if o_st != 0 then o_st *: ((A1 s)^† *m (x *m A2 t)) else 0).

(* core_common.eps_r_op_1s (core_common.py:330-361) *)
Definition eps_r_op_1s q Da Db Da' Db' (x : 'M[C]_(Da', Db'))
    (A1 : nat -> 'M[C]_(Da, Da')) (A2 : nat -> 'M[C]_(Db, Db')) (op : op1s) :
    'M[C]_(Da, Db) :=
  \sum_(s < q) \sum_(t < q)
    (let o_st := op s t in
     if o_st != 0 then o_st *: (A1 t *m (x *m (A2 s)^†)) else 0).

(* core_common.calc_AA (core_common.py:13-24) *)
Definition calc_AA D0 D1 D2 (A : nat -> 'M[C]_(D0, D1)) (Ap1 : nat -> 'M[C]_(D1, D2)) :
  nat -> nat -> 'M[C]_(D0, D2) := fun u v => A u *m Ap1 v.

(* core_common.calc_AAA (core_common.py:33-50) *)
Definition calc_AAA D0 D1 D2 D3 (A : nat -> 'M[C]_(D0, D1))
  (Ap1 : nat -> 'M[C]_(D1, D2)) (Ap2 : nat -> 'M[C]_(D2, D3)) :
  nat -> nat -> nat -> 'M[C]_(D0, D3) := fun u v w => (A u *m Ap1 v) *m Ap2 w.

(* core_common.calc_AAA_AA (core_common.py:52-65) *)
Definition calc_AAA_AA D0 D2 D3 (AA : nat -> nat -> 'M[C]_(D0, D2))
  (Ap2 : nat -> 'M[C]_(D2, D3)) : nat -> nat -> nat -> 'M[C]_(D0, D3) :=
  fun u v w => AA u v *m Ap2 w.

(* core_common.calc_AAA_AAr (core_common.py:67-80) *)
Definition calc_AAA_AAr D0 D1 D3 (A : nat -> 'M[C]_(D0, D1))
  (AAp1 : nat -> nat -> 'M[C]_(D1, D3)) : nat -> nat -> nat -> 'M[C]_(D0, D3) :=
  fun u v w => A u *m AAp1 v w.

(* numpy C-order reshape (a, b, ...) -> (a*b, ...) of the two / three leading
   (physical) axes, and back *)
Definition flat2 (V : Type) (q' : nat) (X : nat -> nat -> V) : nat -> V :=
  fun w => X (w %/ q')%N (w %% q')%N.
Definition unflat2 (V : Type) (q' : nat) (X : nat -> V) : nat -> nat -> V :=
  fun u v => X (u * q' + v)%N.
Definition flat3 (V : Type) (q' q'' : nat) (X : nat -> nat -> nat -> V) : nat -> V :=
  fun w => X (w %/ (q' * q''))%N (w %% (q' * q'') %/ q'')%N (w %% q'')%N.
Definition unflat3 (V : Type) (q' q'' : nat) (X : nat -> V) : nat -> nat -> nat -> V :=
  fun u v w => X (u * (q' * q'') + (v * q'' + w))%N.

(* tdvp_common.calc_C_mat_op_AA (tdvp_common.py:73-77): both arrays are reshaped to
   matrices, multiplied, and reshaped back.  (The bond indices are merged into the
   column index, on which the product acts entry by entry.) *)
Definition calc_C_mat_op_AA q q' D0 D2 (op : op2s) (AA : nat -> nat -> 'M[C]_(D0, D2)) :
  nat -> nat -> 'M[C]_(D0, D2) :=
  let AA_ := flat2 q' AA in
  let op_ := flat2 q' (fun s t => flat2 q' (op s t)) in
  let C_ := fun a => \sum_(w < q * q') op_ a w *: AA_ w in
  unflat2 q' C_.

(* tdvp_common.calc_C_mat_op_AA_tensordot (tdvp_common.py:70-71) *)
Definition calc_C_mat_op_AA_tensordot q q' D0 D2 (op : op2s)
  (AA : nat -> nat -> 'M[C]_(D0, D2)) : nat -> nat -> 'M[C]_(D0, D2) :=
  fun s t => \sum_(u < q) \sum_(v < q') op s t u v *: AA u v.

(* tdvp_common.calc_C_conj_mat_op_AA (tdvp_common.py:91-95) *)
Definition calc_C_conj_mat_op_AA q q' D0 D2 (op : op2s) (AA : nat -> nat -> 'M[C]_(D0, D2)) :
  nat -> nat -> 'M[C]_(D0, D2) :=
  let AA_ := flat2 q' AA in
  let op_ := flat2 q' (fun s t => flat2 q' (op s t)) in
  let C_ := fun a => \sum_(w < q * q') (op_ w a)^* *: AA_ w in
  unflat2 q' C_.

(* tdvp_common.calc_C_3s_mat_op_AAA (tdvp_common.py:79-85) *)
Definition calc_C_3s_mat_op_AAA q q' q'' D0 D3 (op : op3s)
  (AAA : nat -> nat -> nat -> 'M[C]_(D0, D3)) : nat -> nat -> nat -> 'M[C]_(D0, D3) :=
  let AAA_ := flat3 q' q'' AAA in
  let op_ := flat3 q' q'' (fun s t u => flat3 q' q'' (op s t u)) in
  let C_ := fun a => \sum_(w < q * (q' * q'')) op_ a w *: AAA_ w in
  unflat3 q' q'' C_.

(* core_common.calc_C_func_op (core_common.py:514-526), accumulating into C[s,t] *)
Definition calc_C_func_op q q' D0 D1 D2 (op : op2s)
  (A : nat -> 'M[C]_(D0, D1)) (Ap1 : nat -> 'M[C]_(D1, D2)) : nat -> nat -> 'M[C]_(D0, D2) :=
  fun s t => \sum_(u < q) \sum_(v < q')
    (if op s t u v != 0 then op s t u v *: (A u *m Ap1 v) else 0).

(* core_common.calc_C_func_op_AA (core_common.py:528-540) *)
Definition calc_C_func_op_AA q q' D0 D2 (op : op2s)
  (AA : nat -> nat -> 'M[C]_(D0, D2)) : nat -> nat -> 'M[C]_(D0, D2) :=
  fun s t => \sum_(u < q) \sum_(v < q')
    (if op s t u v != 0 then op s t u v *: AA u v else 0).

(* tdvp_common.calc_C_mat_op_tp (tdvp_common.py:102-114): operator given as a sum of tensor products *)
Definition op_dot_A q D0 D1 (o : op1s) (A : nat -> 'M[C]_(D0, D1)) : nat -> 'M[C]_(D0, D1) :=
  fun s => \sum_(t < q) o s t *: A t.
Definition calc_C_mat_op_tp q q' D0 D1 D2 (op_tp : seq (op1s * op1s))
  (A : nat -> 'M[C]_(D0, D1)) (Ap1 : nat -> 'M[C]_(D1, D2)) : nat -> nat -> 'M[C]_(D0, D2) :=
  fun s t => \sum_(o <- op_tp) calc_AA (op_dot_A q o.1 A) (op_dot_A q' o.2 Ap1) s t.
(* tdvp_common.calc_C_tp (tdvp_common.py:116-124) *)
Definition calc_C_tp q q' D0 D1 D2 (op_tp : seq (op1s * op1s))
  (A : nat -> 'M[C]_(D0, D1)) (Ap1 : nat -> 'M[C]_(D1, D2)) :
  seq ((nat -> 'M[C]_(D0, D1)) * (nat -> 'M[C]_(D1, D2))) :=
  [seq (op_dot_A q o.1 A, op_dot_A q' o.2 Ap1) | o <- op_tp].

(* tdvp_common.eps_r_op_2s_AA12_C34 = eps_r_op_2s_C12_AA34 (tdvp_common.py:37-43) *)
Definition eps_r_op_2s_C12_AA34 q q' Da Db Da' Db' (x : 'M[C]_(Da', Db'))
    (C12 : nat -> nat -> 'M[C]_(Da, Da')) (AA34 : nat -> nat -> 'M[C]_(Db, Db')) :
    'M[C]_(Da, Db) :=
  eps_r_noop (q * q') x (flat2 q' C12) (flat2 q' AA34).

(* tdvp_common.eps_l_op_2s_AA12_C34 (tdvp_common.py:45-49) *)
Definition eps_l_op_2s_AA12_C34 q q' Da Db Da' Db' (x : 'M[C]_(Da, Db))
    (AA12 : nat -> nat -> 'M[C]_(Da, Da')) (C34 : nat -> nat -> 'M[C]_(Db, Db')) :
    'M[C]_(Da', Db') :=
  eps_l_noop (q * q') x (flat2 q' AA12) (flat2 q' C34).

(* tdvp_common.eps_l_op_2s_A1_A2_C34 (tdvp_common.py:51-56) *)
Definition eps_l_op_2s_A1_A2_C34 q q' Da Dm Db Da' Db' (x : 'M[C]_(Da, Db))
    (A1 : nat -> 'M[C]_(Da, Dm)) (A2 : nat -> 'M[C]_(Dm, Da'))
    (C34 : nat -> nat -> 'M[C]_(Db, Db')) : 'M[C]_(Da', Db') :=
  \sum_(u < q) \sum_(v < q') (A1 u *m A2 v)^† *m (x *m C34 u v).

(* tdvp_common.eps_r_op_3s_C123_AAA456 (tdvp_common.py:58-62) *)
Definition eps_r_op_3s_C123_AAA456 q q' q'' Da Db Da' Db' (x : 'M[C]_(Da', Db'))
    (C123 : nat -> nat -> nat -> 'M[C]_(Da, Da'))
    (AAA456 : nat -> nat -> nat -> 'M[C]_(Db, Db')) : 'M[C]_(Da, Db) :=
  eps_r_noop (q * (q' * q'')) x (flat3 q' q'' C123) (flat3 q' q'' AAA456).

(* tdvp_common.eps_l_op_3s_AAA123_C456 (tdvp_common.py:64-68) *)
Definition eps_l_op_3s_AAA123_C456 q q' q'' Da Db Da' Db' (x : 'M[C]_(Da, Db))
    (AAA123 : nat -> nat -> nat -> 'M[C]_(Da, Da'))
    (C456 : nat -> nat -> nat -> 'M[C]_(Db, Db')) : 'M[C]_(Da', Db') :=
  eps_l_noop (q * (q' * q'')) x (flat3 q' q'' AAA123) (flat3 q' q'' C456).

(* core_common.eps_r_op_2s_A (core_common.py:363-400) *)
Definition eps_r_op_2s_A q q' Da Dm Db Dm' Da' Db' (x : 'M[C]_(Da', Db'))
    (A1 : nat -> 'M[C]_(Da, Dm)) (A2 : nat -> 'M[C]_(Dm, Da'))
    (A3 : nat -> 'M[C]_(Db, Dm')) (A4 : nat -> 'M[C]_(Dm', Db')) (op : op2s) :
    'M[C]_(Da, Db) :=
  \sum_(u < q) \sum_(v < q')
   (\sum_(s < q) \sum_(t < q')
     (let opval := op u v s t in
      if opval != 0 then opval *: (A1 s *m A2 t) else 0))
   *m (x *m (A3 u *m A4 v)^†).

(* core_common.eps_r_op_2s_AA12 (core_common.py:402-438) *)
Definition eps_r_op_2s_AA12 q q' Da Db Dm' Da' Db' (x : 'M[C]_(Da', Db'))
    (AA12 : nat -> nat -> 'M[C]_(Da, Da'))
    (A3 : nat -> 'M[C]_(Db, Dm')) (A4 : nat -> 'M[C]_(Dm', Db')) (op : op2s) :
    'M[C]_(Da, Db) :=
  \sum_(u < q) \sum_(v < q')
   (\sum_(s < q) \sum_(t < q')
     (let opval := op u v s t in if opval != 0 then opval *: AA12 s t else 0))
   *m (x *m (A3 u *m A4 v)^†).

(* core_common.eps_r_op_2s_AA_func_op (core_common.py:440-475) *)
Definition eps_r_op_2s_AA_func_op q q' Da Db Da' Db' (x : 'M[C]_(Da', Db'))
    (AA12 : nat -> nat -> 'M[C]_(Da, Da')) (AA34 : nat -> nat -> 'M[C]_(Db, Db'))
    (op : op2s) : 'M[C]_(Da, Db) :=
  \sum_(u < q) \sum_(v < q')
   (\sum_(s < q) \sum_(t < q')
     (let opval := op u v s t in if opval != 0 then opval *: AA12 s t else 0))
   *m (x *m (AA34 u v)^†).

(* core_common.eps_r_op_2s_C12 (core_common.py:477-505) *)
Definition eps_r_op_2s_C12 q q' Da Db Dm' Da' Db' (x : 'M[C]_(Da', Db'))
    (C12 : nat -> nat -> 'M[C]_(Da, Da'))
    (A3 : nat -> 'M[C]_(Db, Dm')) (A4 : nat -> 'M[C]_(Dm', Db')) : 'M[C]_(Da, Db) :=
  \sum_(u < q) \sum_(v < q') C12 u v *m (x *m (A3 u *m A4 v)^†).

(* core_common.eps_r_op_2s_C34 (core_common.py:507-512) *)
Definition eps_r_op_2s_C34 q q' Da Dm Db Da' Db' (x : 'M[C]_(Da', Db'))
    (A1 : nat -> 'M[C]_(Da, Dm)) (A2 : nat -> 'M[C]_(Dm, Da'))
    (C34 : nat -> nat -> 'M[C]_(Db, Db')) : 'M[C]_(Da, Db) :=
  \sum_(u < q) \sum_(v < q') (A1 u *m A2 v) *m (x *m (C34 u v)^†).

(* tdvp_common.eps_r_op_2s_C12_tp (tdvp_common.py:132-136), eps_l_op_2s_C34_tp (126-130) *)
Definition eps_r_op_2s_C12_tp q q' Da Dm Db Dm' Da' Db' (x : 'M[C]_(Da', Db'))
    (C12_tp : seq ((nat -> 'M[C]_(Da, Dm)) * (nat -> 'M[C]_(Dm, Da'))))
    (A1 : nat -> 'M[C]_(Db, Dm')) (A2 : nat -> 'M[C]_(Dm', Db')) : 'M[C]_(Da, Db) :=
  \sum_(c <- C12_tp) eps_r_noop q (eps_r_noop q' x c.2 A2) c.1 A1.
Definition eps_l_op_2s_C34_tp q q' Da Dm Db Dm' Da' Db' (x : 'M[C]_(Da, Db))
    (A1 : nat -> 'M[C]_(Da, Dm)) (A2 : nat -> 'M[C]_(Dm, Da'))
    (C34_tp : seq ((nat -> 'M[C]_(Db, Dm')) * (nat -> 'M[C]_(Dm', Db')))) : 'M[C]_(Da', Db') :=
  \sum_(c <- C34_tp) eps_l_noop q' (eps_l_noop q x A1 c.1) A2 c.2.

(* ======================= elementary facts ================================ *)

Lemma ifnz_scale m n (o : C) (X : 'M[C]_(m, n)) :
  (if o != 0 then o *: X else 0) = o *: X.
Proof. by case: eqP => //= ->; rewrite scale0r. Qed.

Lemma sum_divmod (V : zmodType) (q q' : nat) (F : nat -> nat -> V) :
  \sum_(w < q * q') F (w %/ q')%N (w %% q')%N = \sum_(u < q) \sum_(v < q') F u v.
Proof.
elim: q => [|q IH]; first by rewrite mul0n !big_ord0.
rewrite big_ord_recr /= -IH mulSnr big_split_ord /=; congr (_ + _).
apply: eq_bigr => v _.
have q0 : (0 < q')%N by apply: leq_ltn_trans (ltn_ord v).
by rewrite divnMDl // divn_small // addn0 modnMDl modn_small.
Qed.

Lemma sum_flat2 (V : zmodType) (q q' : nat) (F : nat -> nat -> V) :
  \sum_(w < q * q') flat2 q' F w = \sum_(u < q) \sum_(v < q') F u v.
Proof. exact: sum_divmod. Qed.

Lemma flat2K (V : Type) q' (F : nat -> nat -> V) u v :
  (v < q')%N -> flat2 q' F (u * q' + v)%N = F u v.
Proof.
move=> vq; rewrite /flat2 divnMDl ?modnMDl; last exact: leq_ltn_trans vq.
by rewrite divn_small // addn0 modn_small.
Qed.

Lemma sum_flat3 (V : zmodType) (q q' q'' : nat) (F : nat -> nat -> nat -> V) :
  \sum_(w < q * (q' * q'')) flat3 q' q'' F w =
  \sum_(u < q) \sum_(v < q') \sum_(w < q'') F u v w.
Proof.
transitivity (\sum_(u < q) \sum_(a < q' * q'') F u (a %/ q'')%N (a %% q'')%N).
  rewrite -(sum_divmod q (q' * q'') (fun u a => F u (a %/ q'')%N (a %% q'')%N)).
  apply: eq_bigr => w _; rewrite /flat3.
  by rewrite modn_dvdm // dvdn_mull.
by apply: eq_bigr => u _; rewrite (sum_divmod q' q'' (F u)).
Qed.

Lemma flat3K (V : Type) q' q'' (F : nat -> nat -> nat -> V) u v w :
  (v < q')%N -> (w < q'')%N ->
  flat3 q' q'' F (u * (q' * q'') + (v * q'' + w))%N = F u v w.
Proof.
move=> vq wq; rewrite /flat3.
have q''0 : (0 < q'')%N by apply: leq_ltn_trans wq.
have lt : (v * q'' + w < q' * q'')%N.
  apply: (@leq_trans (v.+1 * q'')%N); last by rewrite leq_mul2r vq orbT.
  by rewrite mulSnr ltn_add2l.
rewrite divnMDl; last exact: leq_ltn_trans lt.
rewrite divn_small // addn0 modnMDl (modn_small lt) divnMDl // divn_small // addn0.
by rewrite -(modn_dvdm _ (dvdn_mull q' (dvdnn q''))) modnMDl modn_dvdm ?dvdn_mull // modnMDl modn_small.
Qed.

(* linearity in the matrix argument *)
Lemma eps_r_noopD q Da Db Da' Db' (x y : 'M[C]_(Da', Db'))
  (A1 : nat -> 'M_(Da, Da')) (A2 : nat -> 'M_(Db, Db')) :
  eps_r_noop q (x + y) A1 A2 = eps_r_noop q x A1 A2 + eps_r_noop q y A1 A2.
Proof.
by rewrite /eps_r_noop -big_split; apply: eq_bigr => s _; rewrite mulmxDr mulmxDl.
Qed.
Lemma eps_r_noopZ q Da Db Da' Db' a (x : 'M[C]_(Da', Db'))
  (A1 : nat -> 'M_(Da, Da')) (A2 : nat -> 'M_(Db, Db')) :
  eps_r_noop q (a *: x) A1 A2 = a *: eps_r_noop q x A1 A2.
Proof.
by rewrite /eps_r_noop scaler_sumr; apply: eq_bigr => s _; rewrite -scalemxAr -scalemxAl.
Qed.
Lemma eps_r_noop0 q Da Db Da' Db'
  (A1 : nat -> 'M_(Da, Da')) (A2 : nat -> 'M_(Db, Db')) :
  eps_r_noop q (0 : 'M[C]_(Da', Db')) A1 A2 = 0.
Proof. by rewrite /eps_r_noop big1 // => s _; rewrite mulmx0 mul0mx. Qed.
Lemma eps_r_noop_sum q Da Db Da' Db' (I : Type) (r : seq I) (P : pred I)
  (F : I -> 'M[C]_(Da', Db')) (A1 : nat -> 'M_(Da, Da')) (A2 : nat -> 'M_(Db, Db')) :
  eps_r_noop q (\sum_(i <- r | P i) F i) A1 A2 = \sum_(i <- r | P i) eps_r_noop q (F i) A1 A2.
Proof.
apply: (big_morph (fun x => eps_r_noop q x A1 A2)) => [x y|]; last exact: eps_r_noop0.
exact: eps_r_noopD.
Qed.
Lemma eps_l_noopD q Da Db Da' Db' (x y : 'M[C]_(Da, Db))
  (A1 : nat -> 'M_(Da, Da')) (A2 : nat -> 'M_(Db, Db')) :
  eps_l_noop q (x + y) A1 A2 = eps_l_noop q x A1 A2 + eps_l_noop q y A1 A2.
Proof.
by rewrite /eps_l_noop -big_split; apply: eq_bigr => s _; rewrite mulmxDl mulmxDr.
Qed.
Lemma eps_l_noopZ q Da Db Da' Db' a (x : 'M[C]_(Da, Db))
  (A1 : nat -> 'M_(Da, Da')) (A2 : nat -> 'M_(Db, Db')) :
  eps_l_noop q (a *: x) A1 A2 = a *: eps_l_noop q x A1 A2.
Proof.
by rewrite /eps_l_noop scaler_sumr; apply: eq_bigr => s _; rewrite -scalemxAl -scalemxAr.
Qed.
Lemma eps_l_noop0 q Da Db Da' Db'
  (A1 : nat -> 'M_(Da, Da')) (A2 : nat -> 'M_(Db, Db')) :
  eps_l_noop q (0 : 'M[C]_(Da, Db)) A1 A2 = 0.
Proof. by rewrite /eps_l_noop big1 // => s _; rewrite mul0mx mulmx0. Qed.
Lemma eps_l_noop_sum q Da Db Da' Db' (I : Type) (r : seq I) (P : pred I)
  (F : I -> 'M[C]_(Da, Db)) (A1 : nat -> 'M_(Da, Da')) (A2 : nat -> 'M_(Db, Db')) :
  eps_l_noop q (\sum_(i <- r | P i) F i) A1 A2 = \sum_(i <- r | P i) eps_l_noop q (F i) A1 A2.
Proof.
apply: (big_morph (fun x => eps_l_noop q x A1 A2)) => [x y|]; last exact: eps_l_noop0.
exact: eps_l_noopD.
Qed.

Lemma eps_l_op_1sE q Da Db Da' Db' (x : 'M[C]_(Da, Db))
  (A1 : nat -> 'M_(Da, Da')) (A2 : nat -> 'M_(Db, Db')) op :
  eps_l_op_1s q x A1 A2 op =
  \sum_(s < q) \sum_(t < q) (op t s)^* *: ((A1 s)^† *m (x *m A2 t)).
Proof. by apply: eq_bigr => s _; apply: eq_bigr => t _; rewrite /= ifnz_scale. Qed.

Lemma eps_r_op_1sE q Da Db Da' Db' (x : 'M[C]_(Da', Db'))
  (A1 : nat -> 'M_(Da, Da')) (A2 : nat -> 'M_(Db, Db')) op :
  eps_r_op_1s q x A1 A2 op =
  \sum_(s < q) \sum_(t < q) op s t *: (A1 t *m x *m (A2 s)^†).
Proof.
by apply: eq_bigr => s _; apply: eq_bigr => t _; rewrite /= ifnz_scale mulmxA.
Qed.

(* the same with the operator absorbed in the ket *)
Lemma eps_r_op_1s_ket q Da Db Da' Db' (x : 'M[C]_(Da', Db'))
  (A1 : nat -> 'M_(Da, Da')) (A2 : nat -> 'M_(Db, Db')) op :
  eps_r_op_1s q x A1 A2 op = eps_r_noop q x (op_dot_A q op A1) A2.
Proof.
rewrite eps_r_op_1sE; apply: eq_bigr => s _.
rewrite /op_dot_A !mulmx_suml; apply: eq_bigr => t _.
by rewrite -!scalemxAl.
Qed.

(* ---- adjointness (C24) -------------------------------------------------- *)
Lemma eps_adjoint q Da Db Da' Db' (x : 'M[C]_(Da, Db)) (y : 'M[C]_(Da', Db'))
  (A1 : nat -> 'M_(Da, Da')) (A2 : nat -> 'M_(Db, Db')) :
  adot (eps_l_noop q x A1 A2) y = adot x (eps_r_noop q y A1 A2).
Proof.
rewrite /eps_l_noop /eps_r_noop adot_suml adot_sumr; apply: eq_bigr => s _.
by rewrite adot_mull adjK adot_mulr.
Qed.

Lemma eps_adjoint_op q Da Db Da' Db' (x : 'M[C]_(Da, Db)) (y : 'M[C]_(Da', Db'))
  (A1 : nat -> 'M_(Da, Da')) (A2 : nat -> 'M_(Db, Db')) op :
  adot (eps_l_op_1s q x A1 A2 op) y = adot x (eps_r_op_1s q y A1 A2 op).
Proof.
rewrite eps_l_op_1sE eps_r_op_1sE [in RHS]exchange_big /= adot_suml adot_sumr.
apply: eq_bigr => s _; rewrite adot_suml adot_sumr; apply: eq_bigr => t _.
by rewrite adotZl adotZr conjCK adot_mull adjK adot_mulr.
Qed.

(* ---- all C / two-site map variants agree (C25) -------------------------- *)
Lemma calc_C_mat_op_AAE q q' D0 D2 op (AA : nat -> nat -> 'M[C]_(D0, D2)) s t :
  (t < q')%N ->
  calc_C_mat_op_AA q q' op AA s t = \sum_(u < q) \sum_(v < q') op s t u v *: AA u v.
Proof.
move=> tq; rewrite /calc_C_mat_op_AA /unflat2.
rewrite -(sum_divmod q q' (fun u v => op s t u v *: AA u v)).
apply: eq_bigr => w _; rewrite flat2K //.
Qed.

Lemma calc_C_conj_mat_op_AAE q q' D0 D2 op (AA : nat -> nat -> 'M[C]_(D0, D2)) s t :
  (t < q')%N ->
  calc_C_conj_mat_op_AA q q' op AA s t =
  \sum_(u < q) \sum_(v < q') (op u v s t)^* *: AA u v.
Proof.
move=> tq; rewrite /calc_C_conj_mat_op_AA /unflat2.
rewrite -(sum_divmod q q' (fun u v => (op u v s t)^* *: AA u v)).
apply: eq_bigr => w _; rewrite {1}/flat2 flat2K //.
Qed.

Lemma calc_C_3s_mat_op_AAAE q q' q'' D0 D3 op
  (AAA : nat -> nat -> nat -> 'M[C]_(D0, D3)) s t u :
  (t < q')%N -> (u < q'')%N ->
  calc_C_3s_mat_op_AAA q q' q'' op AAA s t u =
  \sum_(v < q) \sum_(w < q') \sum_(x < q'') op s t u v w x *: AAA v w x.
Proof.
move=> tq uq; rewrite /calc_C_3s_mat_op_AAA /unflat3.
rewrite -(sum_flat3 q q' q'' (fun v w x => op s t u v w x *: AAA v w x)).
by apply: eq_bigr => w _; rewrite flat3K.
Qed.

Lemma calc_C_func_opE q q' D0 D1 D2 op (A : nat -> 'M[C]_(D0, D1))
  (Ap1 : nat -> 'M[C]_(D1, D2)) s t :
  calc_C_func_op q q' op A Ap1 s t =
  \sum_(u < q) \sum_(v < q') op s t u v *: (A u *m Ap1 v).
Proof. by apply: eq_bigr => u _; apply: eq_bigr => v _; rewrite /= ifnz_scale. Qed.

Lemma calc_C_func_op_AAE q q' D0 D2 op (AA : nat -> nat -> 'M[C]_(D0, D2)) s t :
  calc_C_func_op_AA q q' op AA s t =
  \sum_(u < q) \sum_(v < q') op s t u v *: AA u v.
Proof. by apply: eq_bigr => u _; apply: eq_bigr => v _; rewrite /= ifnz_scale. Qed.

Lemma eps_r_op_2s_C12_AA34E q q' Da Db Da' Db' (x : 'M[C]_(Da', Db'))
    (C12 : nat -> nat -> 'M[C]_(Da, Da')) (AA34 : nat -> nat -> 'M[C]_(Db, Db')) :
  eps_r_op_2s_C12_AA34 q q' x C12 AA34 =
  \sum_(u < q) \sum_(v < q') C12 u v *m x *m (AA34 u v)^†.
Proof.
exact: (sum_divmod q q' (fun u v => C12 u v *m x *m (AA34 u v)^†)).
Qed.

Lemma eps_l_op_2s_AA12_C34E q q' Da Db Da' Db' (x : 'M[C]_(Da, Db))
    (AA12 : nat -> nat -> 'M[C]_(Da, Da')) (C34 : nat -> nat -> 'M[C]_(Db, Db')) :
  eps_l_op_2s_AA12_C34 q q' x AA12 C34 =
  \sum_(u < q) \sum_(v < q') (AA12 u v)^† *m (x *m C34 u v).
Proof.
exact: (sum_divmod q q' (fun u v => (AA12 u v)^† *m (x *m C34 u v))).
Qed.

Lemma eps_r_op_3s_C123_AAA456E q q' q'' Da Db Da' Db' (x : 'M[C]_(Da', Db'))
    (C123 : nat -> nat -> nat -> 'M[C]_(Da, Da'))
    (AAA456 : nat -> nat -> nat -> 'M[C]_(Db, Db')) :
  eps_r_op_3s_C123_AAA456 q q' q'' x C123 AAA456 =
  \sum_(u < q) \sum_(v < q') \sum_(w < q'') C123 u v w *m x *m (AAA456 u v w)^†.
Proof.
exact: (sum_flat3 q q' q'' (fun u v w => C123 u v w *m x *m (AAA456 u v w)^†)).
Qed.

Lemma eps_l_op_3s_AAA123_C456E q q' q'' Da Db Da' Db' (x : 'M[C]_(Da, Db))
    (AAA123 : nat -> nat -> nat -> 'M[C]_(Da, Da'))
    (C456 : nat -> nat -> nat -> 'M[C]_(Db, Db')) :
  eps_l_op_3s_AAA123_C456 q q' q'' x AAA123 C456 =
  \sum_(u < q) \sum_(v < q') \sum_(w < q'') (AAA123 u v w)^† *m (x *m C456 u v w).
Proof.
exact: (sum_flat3 q q' q'' (fun u v w => (AAA123 u v w)^† *m (x *m C456 u v w))).
Qed.

End Eps.
