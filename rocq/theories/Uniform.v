(* Uniform.v -- evoMPS/mps_uniform.py and mps_uniform_pinv.py: the transfer operator of a unit cell, its
   matrix-free wrappers (EOp, PinvOp), dominant eigenvectors (calc_lr and the two solvers behind it), expectation
   values.  Site and bond numbers are taken modulo the cell length L: A k (0 <= k < L) is self.A[k], l k and r k are
   self.l[k] and self.r[k], both belonging to the bond to the right of site k; self.l[k-1] for k = 0 is Python's
   self.l[-1] = self.l[L-1], here l (prv k). *)
From mathcomp Require Import all_ssreflect all_algebra.
From mathcomp Require Import zify.
From mathcomp.real_closed Require Import mxtens.
From Verif Require Import Base Spec Eps Chain ChainProofs ChainProofs2 Multi.
Set Implicit Arguments.
Unset Strict Implicit.
Unset Printing Implicit Defensive.
Import Order.TTheory GRing.Theory Num.Theory.
Local Open Scope ring_scope.

(* ---- the cell transfer operator and its two wrappers on explicit memory ------------------------- *)
Section Cell.
Variables (C : numClosedFieldType) (L q D1 D2 : nat).
Variables (A1 : nat -> nat -> 'M[C]_D1) (A2 : nat -> nat -> 'M[C]_D2).
Implicit Types x y : 'M[C]_(D1, D2).
(* what the loops compute *)
Definition cellL x := foldl (fun y k => eps_l_noop q y (A1 k) (A2 k)) x (iota 0 L).
Definition cellR x := foldl (fun y k => eps_r_noop q y (A1 k) (A2 k)) x (rev (iota 0 L)).

(* memory: a store of D1 x D2 arrays *)
Definition mem := nat -> 'M[C]_(D1, D2).
Definition put (h : mem) a x : mem := fun b => if b == a then x else h b.
(* eps_l_noop_inplace, eps_r_noop_inplace (core_common.py:111-147, 176-207): out.fill(0), then accumulate, reading x
   from memory every time *)
Definition inplace_l (h : mem) (x k out : nat) : mem :=
  foldl (fun h s => put h out (h out + (A1 k s)^† *m (h x *m A2 k s))) (put h out 0) (iota 0 q).
Definition inplace_r (h : mem) (x k out : nat) : mem :=
  foldl (fun h s => put h out (h out + (A1 k s *m h x) *m (A2 k s)^†)) (put h out 0) (iota 0 q).
Definition inplace (left : bool) := if left then inplace_l else inplace_r.
(* the loops of EOp.matvec (mps_uniform.py:76-87) and PinvOp.matvec (mps_uniform_pinv.py:48-52, 65-69):
   out = eps(res, A1[n], A2[n], out); tmp = res; res = out; out = tmp *)
Definition pingpong left (st : mem * nat * nat) (k : nat) : mem * nat * nat :=
  let: (h, res, out) := st in (inplace left h res k out, out, res).
Definition order (left : bool) : seq nat := if left then iota 0 L else rev (iota 0 L).
(* EOp.matvec (mps_uniform.py:64-90): out1 at 0, out2 at 1, the caller's vector at v; the array returned is a view
   of the buffer res *)
Definition eop_matvec left (h : mem) (v : nat) : mem * nat :=
  let: (h', res, _) := foldl (pingpong left) (put h 0%N (h v), 0%N, 1%N) (order left) in (h', res).
(* PinvOp.matvec (mps_uniform_pinv.py:40-80): tmp at 0, out at 1, caller's vector at v, lL at pl, rL at pr;
   w = exp(ip), conj w = exp(-ip).  The result is copied *)
Definition pinv_matvec (w : C) left pseudo (h : mem) (v pl pr : nat) : mem * 'M[C]_(D1, D2) :=
  let: (h, res, out) := foldl (pingpong left) (put h 0%N (h v), 0%N, 1%N) (order left) in
  let a := if left then pl else pr in
  let b := if left then pr else pl in
  let ph := if left then w^* else w in
  let h := if pseudo then
      let h := put h out (h a) in                       (* out[:] = lL / rL *)
      let h := put h out (adot (h b) (h v) *: h out) in (* out *= m.adot(rL / lL, x) *)
      put h res (h res - h out)                         (* res -= out *)
    else h in
  let h := put h res ((- ph) *: h res) in
  let h := put h res (h res + h v) in (h, h res).
(* pinv_1mE_brute (mps_uniform_pinv.py:82-104) before the inversion; _get_dense_transfer_op_block
   (mps_uniform.py:295-316) for k = 0 and equal cell lengths *)
Definition Eblock : 'M[C]_(D1 * D2) := foldl (fun E k => E *m dense_E q (A1 k) (A2 k)) 1%:M (iota 0 L).
Definition EyemE (w : C) pseudo (l r : 'M[C]_(D1, D2)) : 'M[C]_(D1 * D2) :=
  1%:M - w *: (if pseudo then Eblock - ravel r *m (ravel l)^† else Eblock).
(* pinv_1mE_brute_LOP (106-118) before the inversion: the columns are op.matvec(e_i) *)
Definition unravel (v : 'cV[C]_(D1 * D2)) : 'M[C]_(D1, D2) := \matrix_(i, j) v (mxtens_index (i, j)) ord0.
Definition brute_LOP (w : C) left pseudo (l r : 'M[C]_(D1, D2)) : 'M[C]_(D1 * D2) :=
  let bop := \matrix_(i, j) ravel (pinv_matvec w left pseudo
     (fun a => if a == 2%N then unravel (delta_mx j ord0) else if a == 3%N then l else r) 2 3 4).2 i ord0 in
  if left then bop^† else bop.

Lemma inplace_l_out h (x k out : nat) : x != out -> inplace_l h x k out out = eps_l_noop q (h x) (A1 k) (A2 k)
  /\ forall b, b != out -> inplace_l h x k out b = h b.
Proof.
move=> xo; rewrite /inplace_l /eps_l_noop.
have -> : \sum_(s < q) (A1 k s)^† *m (h x *m A2 k s) = 0 + \sum_(s <- iota 0 q) (A1 k s)^† *m (h x *m A2 k s).
  by rewrite add0r -[q in RHS]subn0 -/(index_iota 0 q) big_mkord.
have gen ss (h0 : mem) : (forall b, b != out -> h0 b = h b) ->
    (foldl (fun h s => put h out (h out + (A1 k s)^† *m (h x *m A2 k s))) h0 ss out =
       h0 out + \sum_(s <- ss) (A1 k s)^† *m (h x *m A2 k s)) /\
    forall b, b != out -> foldl (fun h s => put h out (h out + (A1 k s)^† *m (h x *m A2 k s))) h0 ss b = h b.
  elim: ss h0 => [|s ss IH] h0 e /=; first by rewrite big_nil addr0.
  have [|-> h2] := IH (put h0 out (h0 out + (A1 k s)^† *m (h0 x *m A2 k s))).
    by move=> b hb; rewrite /put (negbTE hb) e.
  by split=> //; rewrite {1}/put eqxx big_cons addrA (e x xo).
have [|h1 h2] := gen (iota 0 q) (put h out 0); first by move=> b hb; rewrite /put (negbTE hb).
by rewrite h1 {1}/put eqxx.
Qed.
Lemma inplace_r_out h (x k out : nat) : x != out -> inplace_r h x k out out = eps_r_noop q (h x) (A1 k) (A2 k)
  /\ forall b, b != out -> inplace_r h x k out b = h b.
Proof.
move=> xo; rewrite /inplace_r /eps_r_noop.
have -> : \sum_(s < q) A1 k s *m h x *m (A2 k s)^† = 0 + \sum_(s <- iota 0 q) A1 k s *m h x *m (A2 k s)^†.
  by rewrite add0r -[q in RHS]subn0 -/(index_iota 0 q) big_mkord.
have gen ss (h0 : mem) : (forall b, b != out -> h0 b = h b) ->
    (foldl (fun h s => put h out (h out + A1 k s *m h x *m (A2 k s)^†)) h0 ss out =
       h0 out + \sum_(s <- ss) A1 k s *m h x *m (A2 k s)^†) /\
    forall b, b != out -> foldl (fun h s => put h out (h out + A1 k s *m h x *m (A2 k s)^†)) h0 ss b = h b.
  elim: ss h0 => [|s ss IH] h0 e /=; first by rewrite big_nil addr0.
  have [|-> h2] := IH (put h0 out (h0 out + A1 k s *m h0 x *m (A2 k s)^†)).
    by move=> b hb; rewrite /put (negbTE hb) e.
  by split=> //; rewrite {1}/put eqxx big_cons addrA (e x xo).
have [|h1 h2] := gen (iota 0 q) (put h out 0); first by move=> b hb; rewrite /put (negbTE hb).
by rewrite h1 {1}/put eqxx.
Qed.
Definition emap (left : bool) y k := if left then eps_l_noop q y (A1 k) (A2 k) else eps_r_noop q y (A1 k) (A2 k).
Definition cell (left : bool) := if left then cellL else cellR.
Lemma inplaceP left h (x k out : nat) : x != out -> inplace left h x k out out = emap left (h x) k
  /\ forall b, b != out -> inplace left h x k out b = h b.
Proof. by case: left => /= ?; [exact: inplace_l_out | exact: inplace_r_out]. Qed.
(* the buffers never coincide and nothing else is written *)
Lemma pingpongP left ks h (res out : nat) : res != out ->
  let: (h', res', out') := foldl (pingpong left) (h, res, out) ks in
  [/\ h' res' = foldl (emap left) (h res) ks, (forall b, b != res -> b != out -> h' b = h b) &
      (res', out') = if odd (size ks) then (out, res) else (res, out)].
Proof.
elim: ks h res out => [|k ks IH] h res out ne //=.
have [e1 e2] := inplaceP left h k ne.
have ne' : out != res by rewrite eq_sym.
have := IH (inplace left h res k out) out res ne'; case: (foldl _ _ _) => [[h' res'] out'] [-> h2 ->].
split; first by rewrite e1.
  by move=> b b1 b2; rewrite h2 // e2.
by case: (odd _).
Qed.
Lemma orderE left x : foldl (emap left) x (order left) = cell left x.
Proof. by case: left. Qed.
Lemma size_order left : size (order left) = L.
Proof. by rewrite /order; case: left; rewrite ?size_rev size_iota. Qed.

(* adjointness and linearity *)
Lemma cell_adjoint x y : adot (cellL x) y = adot x (cellR y).
Proof.
rewrite /cellL /cellR; elim: L 0%N x y => [|n IH] k x y //=.
by rewrite rev_cons -cats1 foldl_cat /= IH eps_adjoint.
Qed.
Lemma eps_rD k x y : eps_r_noop q (x + y) (A1 k) (A2 k) = eps_r_noop q x (A1 k) (A2 k) + eps_r_noop q y (A1 k) (A2 k).
Proof. by rewrite /eps_r_noop -big_split; apply: eq_bigr => s _; rewrite mulmxDr mulmxDl. Qed.
Lemma eps_rZ k a x : eps_r_noop q (a *: x) (A1 k) (A2 k) = a *: eps_r_noop q x (A1 k) (A2 k).
Proof. by rewrite /eps_r_noop scaler_sumr; apply: eq_bigr => s _; rewrite -scalemxAr -scalemxAl. Qed.
Lemma eps_lZ k a x : eps_l_noop q (a *: x) (A1 k) (A2 k) = a *: eps_l_noop q x (A1 k) (A2 k).
Proof. by rewrite /eps_l_noop scaler_sumr; apply: eq_bigr => s _; rewrite -scalemxAl -scalemxAr. Qed.
Lemma cellRD x y : cellR (x + y) = cellR x + cellR y.
Proof. by rewrite /cellR; elim: (rev _) x y => //= k ks IH x y; rewrite eps_rD IH. Qed.
Lemma cellRZ a x : cellR (a *: x) = a *: cellR x.
Proof. by rewrite /cellR; elim: (rev _) x => //= k ks IH x; rewrite eps_rZ IH. Qed.
Lemma cellLZ a x : cellL (a *: x) = a *: cellL x.
Proof. by rewrite /cellL; elim: (iota _ _) x => //= k ks IH x; rewrite eps_lZ IH. Qed.
Lemma Eblock_right x : Eblock *m ravel x = ravel (cellR x).
Proof.
rewrite /Eblock /cellR.
have gen ks (E : 'M[C]_(D1 * D2)) y : foldl (fun E k => E *m dense_E q (A1 k) (A2 k)) E ks *m ravel y =
    E *m ravel (foldl (fun y k => eps_r_noop q y (A1 k) (A2 k)) y (rev ks)).
  elim: ks E y => [|k ks IH] E y //=.
  by rewrite rev_cons -cats1 foldl_cat IH /= -mulmxA dense_E_right.
by rewrite gen mul1mx.
Qed.
Lemma ravelK x : unravel (ravel x) = x.
Proof. by apply/matrixP => i j; rewrite !mxE mxtens_indexK. Qed.
Lemma unravelK v : ravel (unravel v) = v.
Proof. by apply/matrixP => k z; rewrite ord1 !mxE -surjective_pairing mxtens_unindexK. Qed.
Lemma adot_nd n (u v : 'cV[C]_n) : (forall w, adot w u = adot w v) -> u = v.
Proof. by move=> h; apply/eqP; rewrite -subr_eq0 -adot_eq0 adotBr h -adotBr subrr adot0r. Qed.
Lemma Eblock_left x : Eblock^† *m ravel x = ravel (cellL x).
Proof.
apply: adot_nd => w; rewrite -[w]unravelK -adot_mull Eblock_right !adot_ravel.
by rewrite adotC -cell_adjoint -adotC.
Qed.
End Cell.

(* ---- calc_lr --------------------------------------------------------------------------------- *)
Section CalcLR.
Variables (C : numClosedFieldType) (L q D : nat) (A : nat -> nat -> 'M[C]_D).
Definition prv k := ((k + L.-1) %% L)%N.
Definition setv (f : nat -> 'M[C]_D) a x : nat -> 'M[C]_D := fun b => if b == a then x else f b.
(* mps_uniform.py:658-663 *)
Definition fill_r (r : nat -> 'M[C]_D) :=
  foldl (fun r k => setv r k.-1 (eps_r_noop q (r k) (A k) (A k))) r (rev (iota 1 L.-1)).
Definition fill_l (l : nat -> 'M[C]_D) :=
  foldl (fun l k => setv l k (eps_l_noop q (l (prv k)) (A k) (A k))) l (iota 0 L.-1).
(* 634-656: normalisation; None: ValueError (math.sqrt of a negative number) or ZeroDivisionError *)
Definition normalise (symm : bool) (lL rL : 'M[C]_D) : option ('M[C]_D * 'M[C]_D) :=
  let norm := 'Re (adot lL rL) in
  if 0 < norm then
    let c := (sqrtC norm)^-1 in
    let l := c *: lL in let r := c *: rL in
    Some (if symm then (l, r) else let fac := D%:R / 'Re (\tr r) in (fac^-1 *: l, fac *: r))
  else None.
Definition calc_lr_fin symm (l0 r0 : nat -> 'M[C]_D) (lL rL : 'M[C]_D) :=
  if normalise symm lL rL is Some (l, r) then Some (fill_l (setv l0 L.-1 l), fill_r (setv r0 L.-1 r)) else None.
(* 613-647: up to two attempts of the solver (second one with reset starting vectors); the second one is used even
   when its vectors are orthogonal as well *)
Definition calc_lr symm (l0 r0 : nat -> 'M[C]_D) (eps10 : C) (sol : nat -> 'M[C]_D * 'M[C]_D) :=
  let: (lL, rL) := if `|'Re (adot (sol 0%N).1 (sol 0%N).2)| < eps10 then sol 1%N else sol 0%N in
  calc_lr_fin symm l0 r0 lL rL.
Hypothesis L0 : (0 < L)%N.
Lemma prv_lt k : (prv k < L)%N. Proof. by rewrite ltn_mod. Qed.
Lemma prvS k : (k.+1 < L)%N -> prv k.+1 = k.
Proof. by move=> h; rewrite /prv addSnnS prednK // -modnDmr modnn addn0 modn_small // ltnW. Qed.
Lemma prv0 : prv 0 = L.-1. Proof. by rewrite /prv add0n modn_small // prednK. Qed.
Lemma prv_next k : prv (k.+1 %% L) = (k %% L)%N.
Proof. by rewrite /prv modnDml addSnnS prednK // -modnDmr modnn addn0. Qed.
Lemma fill_lP l : fill_l l L.-1 = l L.-1 /\
  forall k, (k < L.-1)%N -> fill_l l k = eps_l_noop q (fill_l l (prv k)) (A k) (A k).
Proof.
have gen n : (n <= L.-1)%N -> let f := foldl (fun l k => setv l k (eps_l_noop q (l (prv k)) (A k) (A k))) l (iota 0 n) in
    (forall k, (n <= k)%N -> f k = l k) /\ forall k, (k < n)%N -> f k = eps_l_noop q (f (prv k)) (A k) (A k).
  elim: n => [|n IH] hn //; have [|h1 h2] := IH; first by lia.
  rewrite -[n.+1]addn1 iotaD foldl_cat /= add0n; set f := foldl _ l _ in h1 h2 *; split=> k hk.
    by rewrite /setv ifN; [apply: h1; lia | apply/eqP; lia].
  have pk : (prv k == n) = false.
    case: k hk => [|k] hk; first by rewrite prv0; lia.
    by rewrite prvS; lia.
  rewrite {2}/setv pk /setv; case: eqP => [->//|ne]; apply: h2; lia.
have [h1 h2] := gen _ (leqnn _); by split=> //; apply: h1.
Qed.
Lemma fill_rP r : fill_r r L.-1 = r L.-1 /\
  forall k, (0 < k < L)%N -> fill_r r k.-1 = eps_r_noop q (fill_r r k) (A k) (A k).
Proof.
have gen n : (n < L)%N -> let f := foldl (fun r k => setv r k.-1 (eps_r_noop q (r k) (A k) (A k))) r (rev (iota (L - n) n)) in
    (forall k, (L <= k.+1 + n)%N -> (L - n.+1 < k)%N -> (k < L.-1)%N -> True) /\
    (f L.-1 = r L.-1) /\ (forall k, (L - n <= k < L)%N -> f k.-1 = eps_r_noop q (f k) (A k) (A k)).
  elim: n => [|n IH] hn /=; first by split=> //; split=> // k; lia.
  have [|_ [h1 h2]] := IH; first by lia.
  split=> //; rewrite rev_cons -cats1 foldl_cat (_ : (L - n.+1).+1 = (L - n)%N); last by lia.
  rewrite /=; set f := foldl _ r _ in h1 h2 *; split; first by rewrite /setv ifN //; apply/eqP; lia.
  move=> k hk; rewrite {2}/setv (_ : (k == (L - n.+1).-1) = false); last by lia.
  rewrite /setv; case: (altP (k =P (L - n.+1)%N)) => [->|ne]; first by rewrite eqxx.
  rewrite ifN; last by apply/eqP; lia.
  by apply: h2; lia.
have [|_ [h1 h2]] := gen L.-1; first by lia.
rewrite /fill_r (_ : rev (iota 1 L.-1) = rev (iota (L - L.-1) L.-1)); last by rewrite (_ : L - L.-1 = 1)%N //; lia.
by split=> // k hk; apply: h2; lia.
Qed.
(* the environments of all offsets *)
Definition consistent (l r : nat -> 'M[C]_D) := forall k, (k < L)%N ->
  l k = eps_l_noop q (l (prv k)) (A k) (A k) /\ r (prv k) = eps_r_noop q (r k) (A k) (A k).
Lemma fill_consistent l r : cellL L q A A (l L.-1) = l L.-1 -> cellR L q A A (r L.-1) = r L.-1 ->
  consistent (fill_l l) (fill_r r).
Proof.
move=> fl fr; have [l1 l2] := fill_lP l; have [r1 r2] := fill_rP r.
have lk n : (n < L)%N -> foldl (fun y k => eps_l_noop q y (A k) (A k)) (fill_l l L.-1) (iota 0 n) = fill_l l (prv n).
  elim: n => [|n IH] hn; first by rewrite prv0.
  rewrite -[n.+1]addn1 iotaD foldl_cat IH; last by lia.
  by rewrite /= add0n addn1 prvS // [in RHS]l2 //; lia.
have rk n : (n < L)%N -> foldl (fun y k => eps_r_noop q y (A k) (A k)) (fill_r r L.-1) (rev (iota (L - n) n)) = fill_r r (L - n).-1.
  elim: n => [|n IH] hn /=; first by rewrite subn0.
  rewrite rev_cons -cats1 foldl_cat (_ : (L - n.+1).+1 = (L - n)%N); last by lia.
  rewrite IH /=; last by lia.
  rewrite (_ : (L - n).-1 = (L - n.+1)%N); last by lia.
  by rewrite -r2 //; lia.
have L1 : (L.-1 < L)%N by lia.
have eL : L = (L.-1 + 1)%N by lia.
move=> k kL; split.
  case: (ltnP k L.-1) => hk; first exact: l2.
  have -> : k = L.-1 by lia.
  have e : cellL L q A A (l L.-1) =
      eps_l_noop q (foldl (fun y k => eps_l_noop q y (A k) (A k)) (l L.-1) (iota 0 L.-1)) (A L.-1) (A L.-1).
    by rewrite /cellL [X in foldl _ _ (iota 0 X)]eL iotaD foldl_cat /= add0n.
  by rewrite -(lk _ L1) l1 -e.
case: k kL => [|k] kL; last by rewrite prvS // -[k in LHS]/(k.+1.-1) r2.
have := rk _ L1; rewrite (_ : L - L.-1 = 1)%N; last by lia.
move=> /= e1.
have e : cellR L q A A (r L.-1) =
    eps_r_noop q (foldl (fun y k => eps_r_noop q y (A k) (A k)) (r L.-1) (rev (iota 1 L.-1))) (A 0%N) (A 0%N).
  by rewrite /cellR [X in foldl _ _ (rev (iota 0 X))]eL addn1 /= rev_cons -cats1 foldl_cat.
by rewrite -e1 prv0 r1 -e.
Qed.
End CalcLR.

(* ---- rescaling the tensors ------------------------------------------------------------------- *)
Section Scale.
Variables (C : numClosedFieldType) (L q D : nat) (A : nat -> nat -> 'M[C]_D) (c : nat -> C).
Definition scaled : nat -> nat -> 'M[C]_D := fun k s => c k *: A k s.
Lemma eps_l_scaled k x : eps_l_noop q x (scaled k) (scaled k) = (c k * (c k)^*) *: eps_l_noop q x (A k) (A k).
Proof.
rewrite /eps_l_noop scaler_sumr; apply: eq_bigr => s _.
by rewrite /scaled adjZ -scalemxAl -scalemxAr -scalemxAr scalerA mulrC.
Qed.
Lemma eps_r_scaled k x : eps_r_noop q x (scaled k) (scaled k) = (c k * (c k)^*) *: eps_r_noop q x (A k) (A k).
Proof.
rewrite /eps_r_noop scaler_sumr; apply: eq_bigr => s _.
by rewrite /scaled adjZ -scalemxAl -scalemxAl -scalemxAr scalerA mulrC.
Qed.
Lemma cellL_scaled x : cellL L q scaled scaled x = (\prod_(k < L) (c k * (c k)^*)) *: cellL L q A A x.
Proof.
rewrite /cellL -(big_mkord xpredT (fun k => c k * (c k)^*)) /index_iota subn0.
elim: (iota 0 L) x => [|k ks IH] x /=; first by rewrite big_nil scale1r.
have lin (y : 'M[C]_D) a : foldl (fun y k => eps_l_noop q y (A k) (A k)) (a *: y) ks =
    a *: foldl (fun y k => eps_l_noop q y (A k) (A k)) y ks by elim: ks y {IH} => //= j ks IH y; rewrite eps_lZ IH.
by rewrite IH eps_l_scaled big_cons lin scalerA mulrC.
Qed.
Lemma cellR_scaled x : cellR L q scaled scaled x = (\prod_(k < L) (c k * (c k)^*)) *: cellR L q A A x.
Proof.
rewrite /cellR -(big_mkord xpredT (fun k => c k * (c k)^*)) /index_iota subn0.
have -> : \prod_(k <- iota 0 L) (c k * (c k)^*) = \prod_(k <- rev (iota 0 L)) (c k * (c k)^*).
  by apply: perm_big; rewrite perm_sym perm_rev.
elim: (rev (iota 0 L)) x => [|k ks IH] x /=; first by rewrite big_nil scale1r.
have lin (y : 'M[C]_D) a : foldl (fun y k => eps_r_noop q y (A k) (A k)) (a *: y) ks =
    a *: foldl (fun y k => eps_r_noop q y (A k) (A k)) y ks by elim: ks y {IH} => //= j ks IH y; rewrite eps_rZ IH.
by rewrite IH eps_r_scaled big_cons lin scalerA mulrC.
Qed.
End Scale.

(* _calc_lr_brute (mps_uniform.py:318-334): ev, vl, vr are the eigenvalue of largest modulus and its left and right
   eigenvectors as returned by la.eig (left: vl^H E = ev vl^H), reshaped to matrices *)
Section Brute.
Variables (C : numClosedFieldType) (L q D : nat) (A : nat -> nat -> 'M[C]_D).
Definition brute_A (ev : C) := scaled A (fun k => if k == 0%N then (sqrtC ev)^-1 else 1).
Definition brute_lr (vl vr : 'M[C]_D) : 'M[C]_D * 'M[C]_D :=
  let norm := adot vl vr in ((sqrtC norm)^-1 *: vl, (sqrtC norm)^-1 *: vr).
Definition eig_pair (ev : C) (vl vr : 'M[C]_D) :=
  Eblock L q A A *m ravel vr = ev *: ravel vr /\ (ravel vl)^† *m Eblock L q A A = ev *: (ravel vl)^†.
(* the rescaling in _calc_lr_ARPACK (393-396): every tensor is multiplied by fac = (1/sqrt(ev))**(1/L) *)
Definition arpack_A (fac : C) := scaled A (fun _ => fac).
Lemma ravelZ m n a (x : 'M[C]_(m, n)) : ravel (a *: x) = a *: ravel x.
Proof. by apply/matrixP => i j; rewrite !mxE. Qed.
Lemma eig_pairP ev vl vr : eig_pair ev vl vr -> cellR L q A A vr = ev *: vr /\ cellL L q A A vl = ev^* *: vl.
Proof.
case=> h1 h2; split; apply: ravel_inj; rewrite ravelZ; first by rewrite -Eblock_right.
by rewrite -Eblock_left -[ravel vl in LHS]adjK -adjM h2 adjZ adjK.
Qed.
End Brute.

(* ---- the retry loop (mps_uniform.py:361-383, 442-458) ------------------------------------------ *)
(* ok i: try number i returns acceptable eigenvalues.  The loop variable i keeps its last value; None: exception
   (EvoMPSNoConvergence, or NameError for max_retries = 0) *)
Fixpoint retry_loop (ok : nat -> bool) (rem i : nat) : option nat :=
  if rem is rem'.+1 then if ok i then Some i else if rem' == 0%N then Some i else retry_loop ok rem' i.+1 else None.
Definition retry (ok : nat -> bool) (max_retries : nat) : option nat :=
  if retry_loop ok max_retries 0 is Some i then if i == max_retries.-1 then None else Some i else None.

(* ---- expectation values ------------------------------------------------------------------------ *)
Section Expect.
Variables (C : numClosedFieldType) (L q D : nat) (A : nat -> nat -> 'M[C]_D) (l r : nat -> 'M[C]_D).
Notation prv := (prv L).
(* expect_1s (1281-1307), 0 <= k < L *)
Definition uexpect_1s (op : op1s C) k := adot (l (prv k)) (eps_r_op_1s q (r k) (A k) (A k) op).
(* expect_1s_1s (1309-1371): lj before step j (j = 1..d), and entry j of res *)
Fixpoint ulj (op1 : op1s C) k j : 'M[C]_D :=
  if j is j'.+1 then eps_l_noop q (ulj op1 k j') (A ((k + j) %% L)) (A ((k + j) %% L))
  else eps_l_op_1s q (l (prv k)) (A k) (A k) op1.
Definition uexpect_1s_1s (op1 op2 : op1s C) k j :=
  if j is j'.+1 then adot (eps_l_op_1s q (ulj op1 k j') (A ((k + j) %% L)) (A ((k + j) %% L)) op2) (r ((k + j) %% L))
  else uexpect_1s (opdot q op1 op2) k.
(* the assertion d > 0; without intermediates the last entry *)
Definition uexpect_1s_1s_ret op1 op2 k d := if d == 0%N then None else Some (uexpect_1s_1s op1 op2 k d).
(* correlation_1s_1s (1373-1428): ccf[n]; ex1_ and ex2_ *)
Definition ucorrelation op1 op2 k n := uexpect_1s_1s op1 op2 k n - uexpect_1s op1 k * uexpect_1s op2 ((k + n) %% L).
Definition ucorrelation_exvals (op1 op2 : op1s C) k d : seq C * seq C :=
  let ex1 := [seq uexpect_1s op1 ((k + j) %% L) | j <- iota 0 L] in
  let tile := take d.+1 (flatten (nseq ((d.+1 %/ L).+1) ex1)) in (tile, tile).
(* expect_2s (1430-1458): AA is whatever self.AA[k] holds; r[k] *)
Definition uexpect_2s (AA : nat -> nat -> nat -> 'M[C]_D) (op : op2s C) k :=
  adot (l (prv k)) (eps_r_op_2s_C12_AA34 q q (r k) (calc_C_mat_op_AA q q op (AA k)) (AA k)).
(* calc_AA (1042-1047) *)
Definition ucalc_AA k := calc_AA (A k) (A (k.+1 %% L)).
(* expect_2s_tp (1460-1485) *)
Definition uexpect_2s_tp (tp : seq (op1s C * op1s C)) k :=
  adot (l (prv k)) (eps_r_op_2s_C12_tp q q (r k) (calc_C_tp q q tp (A k) (A (k.+1 %% L))) (A k) (A (k.+1 %% L))).
(* expect_3s (1487-1518) *)
Definition uexpect_3s (op : op3s C) k :=
  let AAA := calc_AAA (A k) (A (k.+1 %% L)) (A (k.+2 %% L)) in
  adot (l (prv k)) (eps_r_op_3s_C123_AAA456 q q q (r (k.+2 %% L)) (calc_C_3s_mat_op_AAA q q q op AAA) AAA).
(* density_1s (1520-1542) *)
Definition udensity_1s k s t := adot (l (prv k)) (A k t *m r k *m (A k s)^†).
(* expect_string_1s (1796-1813) *)
Fixpoint ustring_x (op : op1s C) k i : 'M[C]_D :=
  if i is i'.+1 then eps_l_noop q (ustring_x op k i') (A ((k + i') %% L)) (op_dot_A q op (A ((k + i') %% L)))
  else l (prv k).
Definition ustring (op : op1s C) k d : seq C := [seq adot (ustring_x op k i.+1) (r ((k + i) %% L)) | i <- iota 0 d.+1].

(* a window of the infinite chain, starting at site k0 *)
Variable k0 : nat.
Definition wA : tensors C (fun _ => D) := fun n => A ((k0 + n) %% L).
Definition wl : forall n : nat, 'M[C]_D := fun n => l (prv ((k0 + n) %% L)).
Definition wr : forall n : nat, 'M[C]_D := fun n => r (prv ((k0 + n) %% L)).
Hypotheses (L0 : (0 < L)%N) (hc : consistent L q A l r).
Lemma wrS n : wr n.+1 = r ((k0 + n) %% L). Proof. by rewrite /wr addnS prv_next. Qed.
Lemma wlS n : wl n.+1 = l ((k0 + n) %% L). Proof. by rewrite /wl addnS prv_next. Qed.
Lemma wup_l N : up_l (fun _ => q) wA N (wl 0%N) wl.
Proof. by split=> // n _; rewrite wlS; have [] := hc (ltn_pmod (k0 + n) L0). Qed.
Lemma wup_r N : up_r (fun _ => q) wA N (wr N) wr.
Proof. by split=> // n _; rewrite wrS; have [] := hc (ltn_pmod (k0 + n) L0). Qed.
Lemma w_1s op n : uexpect_1s op ((k0 + n) %% L) = Chain.expect_1s (fun _ => q) wA wl wr op n.
Proof. by rewrite /uexpect_1s /Chain.expect_1s wrS. Qed.
Lemma modS n i : ((((k0 + n) %% L) + i) %% L = (k0 + (i + n)) %% L)%N.
Proof. by rewrite modnDml addnC addnCA. Qed.
Lemma modS1 n : (((k0 + n) %% L).+1 %% L = (k0 + n.+1) %% L)%N.
Proof. by rewrite -addn1 modS add1n. Qed.
Lemma modS2 n : (((k0 + n) %% L).+2 %% L = (k0 + n.+2) %% L)%N.
Proof. by rewrite -addn2 modS add2n. Qed.
Lemma w_lj op n j : ulj op ((k0 + n) %% L) j = lj (fun _ => q) wA wl op n j.
Proof. by elim: j => //= j ->; rewrite modS. Qed.
Lemma w_1s1s op1 op2 n j : uexpect_1s_1s op1 op2 ((k0 + n) %% L) j = Chain.expect_1s_1s (fun _ => q) wA wl wr op1 op2 n j.
Proof. by case: j => [|j] /=; [rewrite w_1s | rewrite w_lj wrS modS]. Qed.
Lemma w_3s op n : uexpect_3s op ((k0 + n) %% L) = Chain.expect_3s (fun _ => q) wA wl wr op n.
Proof.
rewrite /uexpect_3s /Chain.expect_3s wrS.
by rewrite modS1 modS2.
Qed.
Lemma w_string op n i : ustring_x op ((k0 + n) %% L) i = string_x (fun _ => q) wA wl op n i.
Proof. by elim: i => //= i ->; rewrite modS. Qed.
(* the window formula of expect_2s with the right environment at the proper bond *)
Lemma w_2s op n : r ((k0 + n) %% L) = r ((k0 + n.+1) %% L) ->
  uexpect_2s ucalc_AA op ((k0 + n) %% L) = Chain.expect_2s (fun _ => q) wA wl wr op n.
Proof.
move=> e; rewrite /uexpect_2s /Chain.expect_2s wrS -e /ucalc_AA.
by rewrite modS1.
Qed.
End Expect.
