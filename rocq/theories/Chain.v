(* Chain.v -- model of the finite open chain class EvoMPS_MPS_Generic
   (mps_gen.py): environments, inner products, expectation values, reduced
   density matrices and operator application.

   Numbering.  Bonds keep their Python number 0..N.  Site n here (0-based) is
   site n+1 in Python: [A n] is self.A[n+1], [q n] is self.q[n+1], so that
   [A n s] has shape D n x D n.+1.  An array of bond matrices self.l / self.r
   is a dependent function [forall n, 'M_(D n)]. *)
From mathcomp Require Import all_ssreflect all_algebra.
From Verif Require Import Base Spec Eps.
Set Implicit Arguments.
Unset Strict Implicit.
Unset Printing Implicit Defensive.
Import GRing.Theory Num.Theory.
Local Open Scope ring_scope.

(* assignment to one entry of an array whose entries have different shapes:
   a[m] = x *)
Definition upd (T : nat -> Type) (f : forall n, T n) (m : nat) (x : T m) : forall n, T n :=
  fun n => match m =P n with
           | ReflectT e => eq_rect m T x n e
           | ReflectF _ => f n
           end.

Lemma upd_same (T : nat -> Type) (f : forall n, T n) m (x : T m) : upd f x m = x.
Proof.
rewrite /upd; case: eqP => // e.
by rewrite (eq_axiomK e).
Qed.

Lemma upd_other (T : nat -> Type) (f : forall n, T n) m (x : T m) n :
  m != n -> upd f x n = f n.
Proof. by rewrite /upd; case: eqP. Qed.

Section Chain.
Variables (C : numClosedFieldType) (D q : nat -> nat).
Local Notation bonds := (forall n, 'M[C]_(D n)).

(* ---- environments ------------------------------------------------------- *)
Section Env.
Variable A : tensors C D.

(* body of the loop of calc_l (mps_gen.py:360-361), for Python site n+1:
   self.l[n+1] = eps_l_noop(self.l[n], self.A[n+1], self.A[n+1]) *)
Definition calc_l_step (l : bonds) (n : nat) : bonds :=
  upd l (eps_l_noop (q n) (l n) (A n) (A n) : 'M_(D n.+1)).

(* calc_l(n_low, n_high) (mps_gen.py:350-361) with n_low = lo+1, n_high = lo+cnt;
   the defaults (-1,-1) are lo = 0, cnt = N *)
Definition calc_l (l : bonds) (lo cnt : nat) : bonds := foldl calc_l_step l (iota lo cnt).

(* body of the loop of calc_r (mps_gen.py:373-374):
   self.r[n] = eps_r_noop(self.r[n+1], self.A[n+1], self.A[n+1]) *)
Definition calc_r_step (r : bonds) (n : nat) : bonds :=
  upd r (eps_r_noop (q n) (r n.+1) (A n) (A n) : 'M_(D n)).

(* calc_r(n_low, n_high) (mps_gen.py:363-374), bonds lo, ..., lo+cnt-1 visited downwards;
   defaults are lo = 0, cnt = N *)
Definition calc_r (r : bonds) (lo cnt : nat) : bonds :=
  foldl calc_r_step r (rev (iota lo cnt)).

(* "The state must be up-to-date -- see self.update()!": what calc_l / calc_r establish *)
Definition up_l (N : nat) (lb : 'M[C]_(D 0)) (l : bonds) :=
  l 0%N = lb /\ forall n, (n < N)%N -> l n.+1 = eps_l_noop (q n) (l n) (A n) (A n).
Definition up_r (N : nat) (rb : 'M[C]_(D N)) (r : bonds) :=
  r N = rb /\ forall n, (n < N)%N -> r n = eps_r_noop (q n) (r n.+1) (A n) (A n).
Definition up_to_date (N : nat) (l r : bonds) := up_l N 1%:M l /\ @up_r N 1%:M r.

(* ---- expectation values ------------------------------------------------- *)
Variables (l r : bonds).

(* expect_1s (mps_gen.py:779-806); site n is Python site n+1 *)
Definition expect_1s (op : op1s C) (n : nat) : C :=
  let res := eps_r_op_1s (q n) (r n.+1) (A n) (A n) op in adot (l n) res.

(* expect_2s (mps_gen.py:808-840) *)
Definition expect_2s (op : op2s C) (n : nat) : C :=
  let AA := calc_AA (A n) (A n.+1) in
  let C' := calc_C_mat_op_AA (q n) (q n.+1) op AA in
  let res := eps_r_op_2s_C12_AA34 (q n) (q n.+1) (r n.+2) C' AA in
  adot (l n) res.

(* expect_3s (mps_gen.py:842-877) *)
Definition expect_3s (op : op3s C) (n : nat) : C :=
  let AAA := calc_AAA (A n) (A n.+1) (A n.+2) in
  let C' := calc_C_3s_mat_op_AAA (q n) (q n.+1) (q n.+2) op AAA in
  let res := eps_r_op_3s_C123_AAA456 (q n) (q n.+1) (q n.+2) (r n.+3) C' AAA in
  adot (l n) res.

(* op1.dot(op2) for q x q matrices *)
Definition opdot (qn : nat) (op1 op2 : op1s C) : op1s C :=
  fun s t => \sum_(u < qn) op1 s u * op2 u t.

(* expect_1s_1s (mps_gen.py:879-940): the running left vector lj after j
   plain sites to the right of n1 ... *)
Fixpoint lj (op1 : op1s C) (n1 j : nat) : 'M[C]_(D (j + n1).+1) :=
  if j is j'.+1
  then eps_l_noop (q (j' + n1)%N.+1) (lj op1 n1 j') (A (j' + n1)%N.+1) (A (j' + n1)%N.+1)
  else eps_l_op_1s (q n1) (l n1) (A n1) (A n1) op1.
(* ... and entry j of the result (res[0] is filled only with return_intermediates=True) *)
Definition expect_1s_1s (op1 op2 : op1s C) (n1 j : nat) : C :=
  if j is j'.+1
  then adot (eps_l_op_1s (q (j' + n1)%N.+1) (lj op1 n1 j') (A (j' + n1)%N.+1) (A (j' + n1)%N.+1) op2)
            (r (j' + n1)%N.+2)
  else expect_1s (opdot (q n1) op1 op2) n1.
(* the value returned with return_intermediates=False, d = n2 - n1 >= 0: res[-1]; for d = 0 the
   array entry res[0] was never written and is still zero *)
Definition expect_1s_1s_ret (op1 op2 : op1s C) (n1 d : nat) : C :=
  if d == 0%N then 0 else expect_1s_1s op1 op2 n1 d.

(* correlation_1s_1s (mps_gen.py:942-996).  ccf[j] for 0 <= j <= d *)
Definition correlation_1s_1s (op1 op2 : op1s C) (n1 j : nat) : C :=
  expect_1s_1s op1 op2 n1 j - expect_1s op1 n1 * expect_1s op2 (n1 + j)%N.
(* return_exvals=True (mps_gen.py:991-994): sp.tile(ex1, [(d+1)//d + 1])[:d+1] twice;
   (d+1)//d raises ZeroDivisionError for d = 0.  Both entries tile ex1. *)
Definition correlation_exvals (op1 op2 : op1s C) (n1 d : nat) : option (seq C * seq C) :=
  let ex1 := [seq expect_1s op1 (n1 + j)%N | j <- iota 0 d.+1] in
  if d == 0%N then None
  else let tile := take d.+1 (flatten (nseq ((d.+1 %/ d).+1) ex1)) in Some (tile, tile).

(* expect_string_1s (mps_gen.py:998-1013): x after i sites; and the array of results, with
   res[j-n-1] for j = n .. n+d, where index -1 is the last entry *)
Fixpoint string_x (op : op1s C) (n i : nat) : 'M[C]_(D (i + n)) :=
  match i return 'M[C]_(D (i + n)) with
  | i'.+1 =>
      eps_l_noop (q (i' + n)%N) (string_x op n i') (A (i' + n)%N) (op_dot_A (q (i' + n)%N) op (A (i' + n)%N))
  | 0%N => l n
  end.
Definition expect_string_1s (op : op1s C) (n d : nat) : option (seq C) :=
  if d == 0%N then None (* res[-1] on an empty array: IndexError *)
  else Some (foldl (fun res i =>
        set_nth 0 res (if i == 0%N then d.-1 else i.-1) (adot (string_x op n i.+1) (r (i.+1 + n)%N)))
      (nseq d 0) (iota 0 d.+1)).

(* density_1s (mps_gen.py:1054-1080): rho[s,t] *)
Definition density_1s (n : nat) (s t : nat) : C :=
  adot (l n) (A n t *m r n.+1 *m (A n s)^†).

(* density_2s (mps_gen.py:1082-1117): value "tmp" computed for (s1,t1,s2,t2);
   n2 = n1 + 1 + k (0-based), the loop over n in reversed(range(n1+1,n2)) *)
Fixpoint density_rn (k n : nat) (X : forall p, 'M[C]_(D p)) : 'M[C]_(D n) :=
  if k is k'.+1 then eps_r_noop (q n) (density_rn k' n.+1 X) (A n) (A n) else X n.
Definition density_2s_val (n1 k : nat) (s1 t1 s2 t2 : nat) : C :=
  let r_n := density_rn k n1.+1 (fun p => A p t2 *m r p.+1 *m (A p s2)^†) in
  adot (l n1) (A n1 t1 *m r_n *m (A n1 s1)^†).

End Env.

(* ---- operator application ----------------------------------------------- *)
(* apply_op_1s (mps_gen.py:1119-1150), do_update=False: newAn[s] += A[n][t]*op[s,t] *)
Definition apply_op_1s (A : tensors C D) (op : op1s C) (m : nat) : tensors C D :=
  fun n s => if n == m then \sum_(t < q n) op s t *: A n t else A n s.

End Chain.

Arguments up_r {C D} q A N rb r.
Arguments up_l {C D} q A N lb l.

(* inner (mps_gen.py:376-385): r = self.r[N]; for n = N..1: r = eps_r_noop(r, self.A[n], other.A[n]).
   self.r[N] is the D[N] x D[N] identity (set by _init_arrays), used as a D[N] x D'[N] matrix. *)
Fixpoint inner_r (C : numClosedFieldType) (D D' q : nat -> nat)
    (A : tensors C D) (B : tensors C D') (k n : nat) : 'M[C]_(D n, D' n) :=
  if k is k'.+1 then eps_r_noop (q n) (inner_r q A B k' n.+1) (A n) (B n)
  else pid_mx (D n).
Definition inner (C : numClosedFieldType) (D D' q : nat -> nat) (N : nat)
    (A : tensors C D) (B : tensors C D') : C := entry0 (inner_r q A B N 0).
