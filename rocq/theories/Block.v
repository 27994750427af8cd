(* Block.v -- blocking a uniform state with an L-site unit cell into one site of dimension q^L:
   MPS_Uniform.convert_to_TI_blocked (mps_uniform.py:243-270) and the Hamiltonian part of
   EvoMPS_TDVP_Uniform.convert_to_TI_blocked (tdvp_uniform.py:167-184). *)
From mathcomp Require Import all_ssreflect all_algebra.
From mathcomp Require Import zify.
From mathcomp.real_closed Require Import mxtens.
From Verif Require Import Base Spec Eps Chain ChainProofs ChainProofs2 Multi Uniform.
Set Implicit Arguments.
Unset Strict Implicit.
Unset Printing Implicit Defensive.
Import Order.TTheory GRing.Theory Num.Theory.
Local Open Scope ring_scope.

(* numpy.kron of two square matrices; the second one is n2 x n2 *)
Definition kron (C : ringType) (n2 : nat) (M1 M2 : nat -> nat -> C) : nat -> nat -> C :=
  fun i j => M1 (i %/ n2)%N (j %/ n2)%N * M2 (i %% n2)%N (j %% n2)%N.
Definition eye (C : ringType) : nat -> nat -> C := fun i j => (i == j)%:R.

Section Block.
Variables (C : numClosedFieldType) (L q D : nat) (A : nat -> nat -> 'M[C]_D).
Notation Q := (fun _ : nat => q).
(* mps_uniform.py:253-258 *)
Definition blk_A (s : nat) : 'M[C]_D :=
  foldl (fun M k => A (L - k - 1) ((s %/ q ^ k) %% q)%N *m M) 1%:M (iota 0 L).
(* tdvp_uniform.py:175-183.  ham c d = <c|h|d> for configurations of hs = ham_sites sites; oldham is its
   reshape to a square matrix, the result has four axes of length q^L *)
Definition oldham hs (ham : seq nat -> seq nat -> C) : nat -> nat -> C :=
  fun i j => ham (unflat Q hs 0 i) (unflat Q hs 0 j).
Definition blk_ham_mat hs (ham : seq nat -> seq nat -> C) : nat -> nat -> C := fun i j =>
  \sum_(k < L) kron (q ^ (2 * L - k - hs)) (kron (q ^ hs) (@eye C) (oldham hs ham)) (@eye C) i j.
Definition blk_ham hs ham : op2s C := fun s t u v => blk_ham_mat hs ham (s * q ^ L + t)%N (u * q ^ L + v)%N.

Lemma dimprodQ k n : dimprod Q k n = (q ^ k)%N.
Proof. by elim: k n => [|k IH] n //=; rewrite IH expnS. Qed.
Lemma unflatQ k n m w : unflat Q k n w = unflat Q k m w.
Proof. by elim: k n m w => [|k IH] n m w //=; rewrite !dimprodQ (IH n.+1 m.+1). Qed.
Lemma cfgsQ k n m : cfgs Q k n = cfgs Q k m.
Proof. by elim: k n m => [|k IH] n m //=; rewrite (IH n.+1 m.+1). Qed.

(* the index order of the block is the lexicographic order of the configurations *)
Lemma map_iota_mul (T : Type) (f : nat -> T) a b :
  [seq f w | w <- iota 0 (a * b)] = flatten [seq [seq f (i * b + j)%N | j <- iota 0 b] | i <- iota 0 a].
Proof.
elim: a => [|a IH] //; rewrite mulSnr iotaD map_cat IH -[a.+1]addn1 iotaD map_cat flatten_cat; congr (_ ++ _).
by rewrite /= cats0 add0n -[(a * b)%N]addn0 iotaDl -map_comp; apply: eq_map => j /=; rewrite addn0.
Qed.
Lemma unflat_cfgs k n : [seq unflat Q k n w | w <- iota 0 (q ^ k)] = cfgs Q k n.
Proof.
elim: k n => [|k IH] n //; rewrite expnS map_iota_mul /=; congr flatten; apply/eq_in_map => i _.
rewrite -IH -map_comp; apply/eq_in_map => j; rewrite mem_iota add0n /= dimprodQ => jb.
by rewrite divnMDl ?modnMDl ?divn_small ?addn0 ?modn_small //; lia.
Qed.
Lemma unflat_inj k n w w' : (w < q ^ k)%N -> (w' < q ^ k)%N -> unflat Q k n w = unflat Q k n w' -> w = w'.
Proof.
elim: k n w w' => [|k IH] n w w'; first by rewrite expn0 => h h' _; lia.
rewrite expnS /= dimprodQ => h h' [e1 /IH e2].
have p0 : (0 < q ^ k)%N by lia.
by rewrite (divn_eq w (q ^ k)) (divn_eq w' (q ^ k)) e1 e2 // ltn_pmod.
Qed.
Lemma unflat_in k n w : (w < q ^ k)%N -> unflat Q k n w \in cfgs Q k n.
Proof. by move=> h; rewrite -unflat_cfgs; apply: map_f; rewrite mem_iota. Qed.
Lemma unflat_catQ k1 k2 s t : (s < q ^ k1)%N -> (t < q ^ k2)%N ->
  unflat Q (k1 + k2) 0 (s * q ^ k2 + t) = unflat Q k1 0 s ++ unflat Q k2 0 t.
Proof.
move=> sb tb; rewrite unflat_cat ?dimprodQ ?expnD; last first.
  by apply: (@leq_trans (s.+1 * q ^ k2)); rewrite ?leq_mul2r ?sb ?orbT // mulSn addnC ltn_add2r.
rewrite divnMDl ?modnMDl ?(modn_small tb) ?(divn_small tb) ?addn0; last by lia.
by rewrite (unflatQ k2 _ 0).
Qed.

Hypothesis L0 : (0 < L)%N.
Notation W := (wA L A 0).
Lemma blk_AE s : (s < q ^ L)%N -> blk_A s = amp W L 0 (unflat Q L 0 s).
Proof.
move=> sb.
have gen j : (j <= L)%N -> foldl (fun M k => A (L - k - 1) ((s %/ q ^ k) %% q)%N *m M) 1%:M (iota 0 j) =
    amp W L (L - j) (unflat Q j (L - j) (s %% q ^ j)).
  elim: j => [|j IH] jL; first by rewrite subn0 amp_nil.
  rewrite -[j.+1 in LHS]addn1 iotaD foldl_cat /= IH; last by lia.
  rewrite add0n dimprodQ expnS modn_divl modn_dvdm ?dvdn_mull //.
  have -> : (L - j = (L - j.+1).+1)%N by lia.
  congr (_ *m _); rewrite /wA add0n (@modn_small (L - j.+1) L); last by lia.
  by congr (A _ _); lia.
by rewrite /blk_A gen // subnn modn_small.
Qed.
Lemma amp_period e n c : amp W (e + L) (n + L) c = amp W e n c.
Proof.
elim: c n => [|s c IH] n //=; rewrite -addSn IH; congr (_ *m _).
by rewrite /wA add0n addnC modnDl.
Qed.
Lemma amp_periodM m e n c : amp W (m * L + e) (m * L + n) c = amp W e n c.
Proof. by elim: m => [|m IH] //; rewrite -IH mulSnr addnAC [(_ + L + n)%N]addnAC amp_period. Qed.
(* amplitudes of the blocked chain *)
Definition blkT : tensors C (fun _ => D) := fun _ => blk_A.
Lemma blk_amp m (ss : seq nat) n : all (fun s => s < q ^ L)%N ss -> (n + size ss)%N = m ->
  amp blkT m n ss = amp W (m * L) (n * L) (flatten [seq unflat Q L 0 s | s <- ss]).
Proof.
elim: ss n => [|s ss IH] n /=; first by rewrite !pid_mx_1.
case/andP=> sb ssb nm; rewrite (IH n.+1) //; last by rewrite addSn -addnS.
rewrite (@amp_cat _ _ _ _ _ (n.+1 * L)%N); last by rewrite size_unflat mulSnr.
congr (_ *m _); rewrite /blkT (blk_AE sb) -[LHS](amp_periodM n) addn0.
by rewrite -mulSnr.
Qed.
(* the transfer operator of the blocked site is the one of the cell *)
Lemma blk_eps_r x : eps_r_noop (q ^ L) x blk_A blk_A = cellR L q A A x.
Proof.
have gen k n : (n + k = L)%N -> foldl (fun y k => eps_r_noop q y (A k) (A k)) x (rev (iota n k)) = rr Q W W (fun _ => x) k n.
  elim: k n => [|k IH] n h //=; rewrite rev_cons foldl_rcons IH; last by lia.
  by rewrite /wA add0n modn_small //; lia.
rewrite /cellR gen // (rrE _ _ _ _ (add0n L)) -sum_unflat dimprodQ /eps_r_noop.
by apply: eq_bigr => s _; rewrite blk_AE // ?mulmxA.
Qed.
Lemma blk_eps_l x : eps_l_noop (q ^ L) x blk_A blk_A = cellL L q A A x.
Proof.
apply: (@ravel_inj C); apply: adot_nd => w; rewrite -[w]unravelK !adot_ravel.
by rewrite adotC [RHS]adotC eps_adjoint blk_eps_r cell_adjoint.
Qed.

(* ---- the blocked Hamiltonian ---------------------------------------------------------------------------------- *)
Lemma split3 k hs rest i : (i < q ^ (k + (hs + rest)))%N ->
  let a := (i %/ q ^ rest %/ q ^ hs)%N in let b := (i %/ q ^ rest %% q ^ hs)%N in let e := (i %% q ^ rest)%N in
  unflat Q (k + (hs + rest)) 0 i = unflat Q k 0 a ++ unflat Q hs 0 b ++ unflat Q rest 0 e /\
  [/\ (a < q ^ k)%N, (b < q ^ hs)%N & (e < q ^ rest)%N].
Proof.
move=> ib /=; have : (0 < q ^ (k + (hs + rest)))%N by lia.
rewrite !expnD !muln_gt0 => /and3P[k0 h0 r0].
have ab : (i %/ q ^ rest %/ q ^ hs < q ^ k)%N.
  by rewrite -divnMA ltn_divLR ?muln_gt0 ?h0 ?r0 // [(q ^ rest * _)%N]mulnC -!expnD.
split; last by rewrite !ltn_mod h0 r0 ab.
rewrite unflat_cat ?dimprodQ // unflat_cat; last by rewrite dimprodQ ltn_mod expnD muln_gt0 h0.
rewrite !dimprodQ !(unflatQ _ _ 0); congr (unflat _ _ _ _ ++ (unflat _ _ _ _ ++ unflat _ _ _ _)).
- by rewrite expnD mulnC divnMA.
- by rewrite expnD modn_divl.
- by rewrite expnD modn_dvdm ?dvdn_mull.
Qed.
Lemma eye_unflat k a b : (a < q ^ k)%N -> (b < q ^ k)%N -> eye C a b = (unflat Q k 0 a == unflat Q k 0 b)%:R.
Proof.
move=> ha hb; rewrite /eye; have -> // : (a == b) = (unflat Q k 0 a == unflat Q k 0 b).
by apply/eqP/eqP => [->//|]; apply: unflat_inj.
Qed.
Lemma cat3 (T : Type) k hs (X Y Z : seq T) : size X = k -> size Y = hs ->
  [/\ take k (X ++ Y ++ Z) = X, take hs (drop k (X ++ Y ++ Z)) = Y & drop (hs + k) (X ++ Y ++ Z) = Z].
Proof.
move=> <- <-; rewrite take_size_cat // drop_size_cat // take_size_cat //; split=> //.
by rewrite catA drop_size_cat // size_cat addnC.
Qed.
Lemma blk_ham_elem hs ham s t u v : (hs <= L.+1)%N -> (s < q ^ L)%N -> (t < q ^ L)%N -> (u < q ^ L)%N -> (v < q ^ L)%N ->
  let c := unflat Q L 0 s ++ unflat Q L 0 t in let d := unflat Q L 0 u ++ unflat Q L 0 v in
  blk_ham hs ham s t u v =
  \sum_(k < L) (take k c == take k d)%:R * ham (take hs (drop k c)) (take hs (drop k d)) * (drop (hs + k) c == drop (hs + k) d)%:R.
Proof.
move=> hsL sb tb ub vb c d; rewrite /blk_ham /blk_ham_mat; apply: eq_bigr => k _.
have lt s' t' : (s' < q ^ L)%N -> (t' < q ^ L)%N -> (s' * q ^ L + t' < q ^ (L + L))%N.
  move=> h1 h2; rewrite expnD; apply: (@leq_trans (s'.+1 * q ^ L)); rewrite ?leq_mul2r ?h1 ?orbT //.
  by rewrite mulSn addnC ltn_add2r.
have kb := ltn_ord k; have e2 : (L + L = k + (hs + (2 * L - k - hs)))%N by lia.
move: (lt s t sb tb) (lt u v ub vb) (unflat_catQ sb tb) (unflat_catQ ub vb).
set i := (s * _ + t)%N; set j := (u * _ + v)%N; rewrite e2 => ib jb; rewrite -/c -/d.
have [-> [a1 b1 e1]] := split3 ib; have [-> [a1' b1' e1']] := split3 jb => ec ed.
rewrite -ec -ed.
have sz n w : size (unflat Q n 0 w) = n by exact: size_unflat.
have [-> -> ->] := cat3 (unflat Q (2 * L - k - hs) 0 (i %% q ^ (2 * L - k - hs))) (sz k (i %/ q ^ (2 * L - k - hs) %/ q ^ hs)%N) (sz hs (i %/ q ^ (2 * L - k - hs) %% q ^ hs)%N).
have [-> -> ->] := cat3 (unflat Q (2 * L - k - hs) 0 (j %% q ^ (2 * L - k - hs))) (sz k (j %/ q ^ (2 * L - k - hs) %/ q ^ hs)%N) (sz hs (j %/ q ^ (2 * L - k - hs) %% q ^ hs)%N).
by rewrite /kron (eye_unflat a1 a1') (eye_unflat e1 e1').
Qed.
Lemma sum_delta (V : lmodType C) (T : eqType) (xs : seq T) a (G : T -> V) : uniq xs -> a \in xs ->
  \sum_(x <- xs) (a == x)%:R *: G x = G a.
Proof.
move=> un ain; rewrite (bigD1_seq a) //= eqxx scale1r big1_seq ?addr0 // => x /andP[xa _].
by rewrite eq_sym (negbTE xa) scale0r.
Qed.
Lemma blk_hamE (V : lmodType C) hs ham (phi : seq nat -> V) s t : (hs <= L.+1)%N -> (s < q ^ L)%N -> (t < q ^ L)%N ->
  op2 (fun _ => (q ^ L)%N) 0 (blk_ham hs ham) (fun ss => phi (flatten [seq unflat Q L 0 w | w <- ss])) [:: s; t] =
  \sum_(k < L) opwin Q k hs ham phi (unflat Q L 0 s ++ unflat Q L 0 t).
Proof.
move=> hsL sb tb; set c := _ ++ _.
pose F (k : nat) d := ((take k c == take k d)%:R * ham (take hs (drop k c)) (take hs (drop k d)) * (drop (hs + k) c == drop (hs + k) d)%:R) *: phi d.
transitivity (\sum_(u < q ^ L) \sum_(v < q ^ L) \sum_(k < L) F k (unflat Q L 0 u ++ unflat Q L 0 v)).
  apply: eq_bigr => u _; apply: eq_bigr => v _; rewrite /= cats0 blk_ham_elem // scaler_suml.
  by [].
transitivity (\sum_(k < L) \sum_(d <- cfgs Q (L + L) 0) F k d).
  under [RHS]eq_bigr => k _ do rewrite sum_cfgs_cat (cfgsQ L _ 0) -sum_unflat dimprodQ.
  under [RHS]eq_bigr => k _ do under eq_bigr => u _ do rewrite -sum_unflat dimprodQ.
  rewrite [RHS]exchange_big; apply: eq_bigr => u _; rewrite [RHS]exchange_big; apply: eq_bigr => v _; by [].
apply: eq_bigr => k _; have kb := ltn_ord k.
have e2 : (L + L = k + (hs + (2 * L - k - hs)))%N by lia.
have szc : size c = (L + L)%N by rewrite size_cat !size_unflat.
have [_ cin] : size c = (L + L)%N /\ forall i, (i < L + L)%N -> (nth 0%N c i < q)%N.
  apply: (@cfgsP Q (L + L) 0 c); rewrite /c -(unflat_catQ sb tb); apply: unflat_in; rewrite expnD.
  by apply: (@leq_trans (s.+1 * q ^ L)); rewrite ?leq_mul2r ?sb ?orbT // mulSn addnC ltn_add2r.
rewrite e2 sum_cfgs_cat /opwin.
rewrite -(@sum_delta V _ (cfgs Q k 0) (take k c) (fun x => \sum_(y <- cfgs Q hs k) ham (take hs (drop k c)) y *: phi (x ++ y ++ drop (hs + k) c))); first last.
- apply/cfgsP; split; first by rewrite size_takel // szc; lia.
  by move=> i ik; rewrite nth_take //; apply: cin; lia.
- exact: cfgs_uniq.
apply: eq_big_seq => x /size_cfgs xk; rewrite sum_cfgs_cat addn0 scaler_sumr; apply: eq_big_seq => y /size_cfgs yh.
rewrite -(@sum_delta V _ (cfgs Q (2 * L - k - hs) (hs + k)) (drop (hs + k) c) (fun z => phi (x ++ y ++ z))); first last.
- apply/cfgsP; split; first by rewrite size_drop szc; lia.
  by move=> i ik; rewrite nth_drop; apply: cin; lia.
- exact: cfgs_uniq.
rewrite !scaler_sumr; apply: eq_big_seq => z _; rewrite /F; have [-> -> ->] := cat3 z xk yh.
by rewrite !scalerA.
Qed.
End Block.

(* ---- set_q (mps_uniform.py:1824-1851) ------------------------------------------------------------------------- *)
(* resolution of a slice bound against an axis of length n: negative values count from the end, then clipping *)
Definition pyidx (n : nat) (a : int) : nat := match a with Posz p => minn p n | Negz m => (n - m.+1)%N end.
(* None: ValueError (could not broadcast); an axis of length 1 is broadcast *)
Definition set_q (C : numClosedFieldType) (D oldq newq : nat) (offset : int) (A : nat -> nat -> 'M[C]_D) :
    option (nat -> nat -> 'M[C]_D) :=
  if (oldq < newq)%N then
    let lo := pyidx newq offset in let hi := pyidx newq (oldq%:Z + offset)%R in
    if ((hi - lo)%N == oldq) || (oldq == 1%N) then
      Some (fun k s => if (lo <= s < hi)%N then A k (if oldq == 1%N then 0%N else (s - lo)%N) else 0)
    else None
  else
    let lo := pyidx oldq (- offset)%R in let hi := pyidx oldq (newq%:Z - offset)%R in
    if ((hi - lo)%N == newq) || ((hi - lo)%N == 1%N) then
      Some (fun k s => A k (if (hi - lo)%N == 1%N then lo else (lo + s)%N))
    else None.
