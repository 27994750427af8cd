(* Density2.v -- the filling loop of density_2s (mps_gen.py:1106-1117), with numpy's
   flat indices, bounds checks and uninitialised memory. *)
From mathcomp Require Import all_ssreflect all_algebra zify.
From Verif Require Import Base Spec Eps Chain ChainProofs ChainProofs2.
Set Implicit Arguments.
Unset Strict Implicit.
Unset Printing Implicit Defensive.

(* an array under construction: every entry is either uninitialised (None, from
   sp.empty) or holds a value; the whole is None after an IndexError *)
Section Fill.
Variable T : eqType.
Definition arr2 := nat -> nat -> option T.

(* rho[i, j] = v on an n x n array: numpy raises IndexError outside the range *)
Definition setitem2 (n : nat) (rho : option arr2) (w : (nat * nat) * T) : option arr2 :=
  if rho is Some a then
    let: ((i, j), v) := w in
    if (i < n) && (j < n)
    then Some (fun i' j' => if (i' == i) && (j' == j) then Some v else a i' j')
    else None
  else None.

(* density_2s (mps_gen.py:1106-1117): rho = sp.empty((q1*q2, q1*q2)); four nested loops
   s2, t2, s1, t1 writing rho[s1*q[n1]+s2, t1*q[n1]+t2] = val s1 t1 s2 t2 *)
Definition density_2s_writes (q1 q2 : nat) (val : nat -> nat -> nat -> nat -> T) :
    seq ((nat * nat) * T) :=
  flatten [seq flatten [seq flatten [seq
    [seq ((s1 * q1 + s2, t1 * q1 + t2), val s1 t1 s2 t2) | t1 <- iota 0 q1]
    | s1 <- iota 0 q1] | t2 <- iota 0 q2] | s2 <- iota 0 q2].
Definition density_2s_fill (q1 q2 : nat) (val : nat -> nat -> nat -> nat -> T) : option arr2 :=
  foldl (setitem2 (q1 * q2)) (Some (fun _ _ => None)) (density_2s_writes q1 q2 val).

(* ---- the write list ------------------------------------------------------ *)
Definition inrange n (w : (nat * nat) * T) := (w.1.1 < n) && (w.1.2 < n).

Lemma fill_none n ws : foldl (setitem2 n) None ws = None.
Proof. by elim: ws. Qed.

Lemma fill_oob n ws a : ~~ all (inrange n) ws -> foldl (setitem2 n) (Some a) ws = None.
Proof.
elim: ws a => [|[[i0 j0] v] ws IH] a //=; rewrite /inrange /=.
by case: ((i0 < n) && (j0 < n)) => /= h; [apply: IH | rewrite fill_none].
Qed.

(* the final content of an entry: some write to it happened last, or none happened *)
Lemma fill_some n ws a : all (inrange n) ws ->
  exists2 b, foldl (setitem2 n) (Some a) ws = Some b &
   forall i j, (exists2 v, ((i, j), v) \in ws & b i j = Some v) \/
               ((forall v, ((i, j), v) \notin ws) /\ b i j = a i j).
Proof.
elim: ws a => [|[[i0 j0] v] ws IH] a /=; first by exists a => // i j; right.
rewrite {1}/inrange /= => /andP[-> /= h].
have [b -> hb] := IH (fun i' j' => if (i' == i0) && (j' == j0) then Some v else a i' j') h.
exists b => // i j; case: (hb i j) => [[v' v'in bv]|[hn ->]].
  by left; exists v' => //; rewrite inE v'in orbT.
case: ifP => e; [left; exists v => // | right; split=> // v'].
  by case/andP: e => /eqP-> /eqP->; rewrite mem_head.
by rewrite inE negb_or hn andbT !xpair_eqE e.
Qed.

Lemma mem_writes q1 q2 val i j v : reflect
  (exists s1 t1 s2 t2, [/\ s1 < q1, t1 < q1, s2 < q2 & t2 < q2] /\
     [/\ i = s1 * q1 + s2, j = t1 * q1 + t2 & v = val s1 t1 s2 t2])
  (((i, j), v) \in density_2s_writes q1 q2 val).
Proof.
apply: (iffP flatten_mapP) => [[s2 hs2 /flatten_mapP[t2 ht2 /flatten_mapP[s1 hs1 /mapP[t1 ht1 [-> -> ->]]]]]|].
  by move: hs1 hs2 ht1 ht2; rewrite !mem_iota /= !add0n => *; exists s1, t1, s2, t2.
case=> s1 [t1 [s2 [t2 [[h1 h2 h3 h4] [-> -> ->]]]]].
exists s2; first by rewrite mem_iota.
apply/flatten_mapP; exists t2; first by rewrite mem_iota.
apply/flatten_mapP; exists s1; first by rewrite mem_iota.
by apply/mapP; exists t1; first by rewrite mem_iota.
Qed.

Lemma mulq_lt q1 q2 s u : s < q1 -> u < q2 -> s * q2 + u < q1 * q2.
Proof.
move=> h1 h2; apply: (@leq_trans (s.+1 * q2)); first by rewrite mulSnr ltn_add2l.
by rewrite leq_mul2r h1 orbT.
Qed.

(* correct domain: equal dimensions, or a trivial first site *)
Lemma density_2s_fill_ok q1 q2 val : q1 = q2 \/ q1 = 1 ->
  exists2 rho, density_2s_fill q1 q2 val = Some rho &
  forall s1 t1 s2 t2, s1 < q1 -> t1 < q1 -> s2 < q2 -> t2 < q2 ->
    rho (s1 * q2 + s2) (t1 * q2 + t2) = Some (val s1 t1 s2 t2).
Proof.
move=> hq.
have eqq s u : s < q1 -> s * q1 + u = s * q2 + u.
  by case: hq => [->//|->]; case: s.
have inj s u s' u' : s < q1 -> s' < q1 -> u < q2 -> u' < q2 ->
    s * q2 + u = s' * q2 + u' -> s = s' /\ u = u'.
  move=> _ _ uq uq' e; have q0 : 0 < q2 by apply: leq_ltn_trans uq.
  have := congr1 (divn^~ q2) e; rewrite !divnMDl // !divn_small // !addn0 => es; split=> //.
  by move: e; rewrite es => /addnI.
have hr : all (inrange (q1 * q2)) (density_2s_writes q1 q2 val).
  apply/allP => -[[i j] v] /mem_writes[s1 [t1 [s2 [t2 [[h1 h2 h3 h4] [-> -> _]]]]]].
  by rewrite /inrange /= !eqq // !mulq_lt.
have [rho e hrho] := fill_some (fun _ _ => None) hr.
exists rho => // s1 t1 s2 t2 h1 h2 h3 h4.
case: (hrho (s1 * q2 + s2) (t1 * q2 + t2)) => [[v /mem_writes hv ->]|[hn _]].
  case: hv => s1' [t1' [s2' [t2' [[h1' h2' h3' h4'] [e1 e2 ->]]]]].
  rewrite eqq // in e1; rewrite eqq // in e2.
  by have [-> ->] := inj _ _ _ _ h1 h1' h3 h3' e1; have [-> ->] := inj _ _ _ _ h2 h2' h4 h4' e2.
case/negP: (hn (val s1 t1 s2 t2)); apply/mem_writes; exists s1, t1, s2, t2.
by split=> //; rewrite !eqq.
Qed.

(* too large first dimension: IndexError *)
Lemma density_2s_fill_oob q1 q2 val : 0 < q2 < q1 -> density_2s_fill q1 q2 val = None.
Proof.
case/andP=> q20 q21; apply: fill_oob; apply/negP => /allP h.
have q1p : q1.-1 < q1 by rewrite prednK // (ltn_trans q20).
have q2p : q2.-1 < q2 by rewrite prednK.
have /h : ((q1.-1 * q1 + q2.-1, q1.-1 * q1 + q2.-1), val q1.-1 q1.-1 q2.-1 q2.-1)
    \in density_2s_writes q1 q2 val.
  by apply/mem_writes; exists q1.-1, q1.-1, q2.-1, q2.-1.
rewrite /inrange /= andbb ltnNge => /negP; apply.
clear h q1p q2p; nia.
Qed.

(* too small first dimension: the last diagonal entry is never written *)
Lemma density_2s_fill_uninit q1 q2 val : 1 < q1 < q2 ->
  exists2 rho, density_2s_fill q1 q2 val = Some rho &
  rho (q1 * q2).-1 (q1 * q2).-1 = None.
Proof.
case/andP=> q10 q12.
have hr : all (inrange (q1 * q2)) (density_2s_writes q1 q2 val).
  apply/allP => -[[i j] v] /mem_writes[s1 [t1 [s2 [t2 [[h1 h2 h3 h4] [-> -> _]]]]]].
  by rewrite /inrange /=; nia.
have [rho e hrho] := fill_some (fun _ _ => None) hr.
exists rho => //; case: (hrho (q1 * q2).-1 (q1 * q2).-1) => [[v /mem_writes hv _]|[]//].
by case: hv => s1 [t1 [s2 [t2 [[h1 h2 h3 h4] [e1 _ _]]]]]; nia.
Qed.

End Fill.

(* density_2s (mps_gen.py:1082-1117) for 0-based sites n1 < n2 *)
Definition density_2s (C : numClosedFieldType) (D q : nat -> nat) (A : tensors C D)
    (l r : forall n, 'M[C]_(D n)) (n1 n2 : nat) : option (arr2 C) :=
  density_2s_fill (q n1) (q n2) (density_2s_val q A l r n1 (n2 - n1.+1)).
