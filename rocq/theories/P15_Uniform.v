(* P15_Uniform.v -- C42 (pseudo-inverse operators), C43 (dominant eigenvectors), C44 (expectation values),
   C51 (buffers of the transfer operator), C52 (retry loop). *)
From mathcomp Require Import all_ssreflect all_algebra.
From mathcomp Require Import zify.
From mathcomp.real_closed Require Import mxtens.
From Verif Require Import Base Spec Eps Chain ChainProofs ChainProofs2 Eps2 Multi Uniform.
Set Implicit Arguments.
Unset Strict Implicit.
Unset Printing Implicit Defensive.
Import Order.TTheory GRing.Theory Num.Theory.
Local Open Scope ring_scope.

(* ---- C51 ---- *)
Section C51.
Variables (C : numClosedFieldType) (L q D1 D2 : nat) (A1 : nat -> nat -> 'M[C]_D1) (A2 : nat -> nat -> 'M[C]_D2).
(* for every cell length the result is the composition of the L maps, the caller's vector (any array other than
   the two buffers) is untouched; the result is found in buffer out1 for even L, out2 for odd L *)
Theorem C51_matvec left (h : mem C D1 D2) v : (1 < v)%N -> let: (h', res) := eop_matvec L q A1 A2 left h v in
  [/\ h' res = cell L q A1 A2 left (h v), res = odd L & forall b, (1 < b)%N -> h' b = h b].
Proof.
move=> v1; rewrite /eop_matvec.
have := @pingpongP C q D1 D2 A1 A2 left (order L left) (put h 0%N (h v)) 0 1 isT.
case: (foldl _ _ _) => [[h' res] out] [-> hb].
rewrite size_order => e1; split; first by rewrite /put eqxx orderE.
  by move: e1; case: (odd L) => -[-> _].
by move=> b b1; rewrite hb; [rewrite /put ifN //; lia | lia | lia].
Qed.
(* the returned array is a buffer: the next call of the same operator overwrites it *)
Theorem C51_result_not_kept left (h : mem C D1 D2) v v2 : (1 < v)%N -> (1 < v2)%N ->
  let: (h1, res1) := eop_matvec L q A1 A2 left h v in
  let: (h2, res2) := eop_matvec L q A1 A2 left h1 v2 in
  res2 = res1 /\ h2 res1 = cell L q A1 A2 left (h v2).
Proof.
move=> v1 v21; have := C51_matvec left h v1; case: (eop_matvec _ _ _ _ _ _ _) => h1 res1 [e1 e2 e3].
have := C51_matvec left h1 v21; case: (eop_matvec _ _ _ _ _ _ _) => h2 res2 [e4 e5 e6].
by rewrite e5 -{1}e2; split=> //; rewrite e2 -e5 e4 e3.
Qed.
End C51.
Print Assumptions C51_matvec.
Print Assumptions C51_result_not_kept.

(* ---- C42 ---- *)
Section C42.
Variables (C : numClosedFieldType) (L q D1 D2 : nat) (A1 : nat -> nat -> 'M[C]_D1) (A2 : nat -> nat -> 'M[C]_D2).
Variable w : C.
Notation cellL := (cellL L q A1 A2).
Notation cellR := (cellR L q A1 A2).
Notation pinv_matvec := (pinv_matvec L q A1 A2 w).
(* the operators applied: 1 - exp(ip) (E - |r)(l|) and, in left mode, its adjoint *)
Definition opR (pseudo : bool) (l r x : 'M[C]_(D1, D2)) := x - w *: (cellR x - (if pseudo then adot l x *: r else 0)).
Definition opL (pseudo : bool) (l r x : 'M[C]_(D1, D2)) := x - w^* *: (cellL x - (if pseudo then adot r x *: l else 0)).
Theorem C42_matvec left pseudo (h : mem C D1 D2) v pl pr : (1 < v)%N -> (1 < pl)%N -> (1 < pr)%N ->
  let: (h', y) := pinv_matvec left pseudo h v pl pr in
  y = (if left then opL else opR) pseudo (h pl) (h pr) (h v) /\ forall b, (1 < b)%N -> h' b = h b.
Proof.
move=> v1 l1 r1; rewrite /Uniform.pinv_matvec.
have := @pingpongP C q D1 D2 A1 A2 left (order L left) (put h 0%N (h v)) 0 1 isT.
case: (foldl _ _ _) => [[h1 res] out] [e1 hb e2].
have {}hb b : (1 < b)%N -> h1 b = h b by move=> b1; rewrite hb; [rewrite /put ifN //; lia | lia | lia].
rewrite size_order in e2.
have ro : (res == out) = false by move: e2; case: (odd L) => -[-> ->].
have big b : (1 < b)%N -> (b == res) = false /\ (b == out) = false.
  by move: e2; case: (odd L) => -[-> ->]; lia.
have [vr vo] := big _ v1.
have [plr plo] := big _ l1.
have [prr pro] := big _ r1.
rewrite orderE /put eqxx in e1.
have or : (out == res) = false by rewrite eq_sym.
split; last first.
  by move=> b b1; have [br bo] := big _ b1; case: pseudo; rewrite /put br ?bo ?br hb.
rewrite /opL /opR; case: pseudo; case: left e1 => /= e1; rewrite /put ?eqxx ?ro ?vr ?vo ?plr ?plo ?prr ?pro ?or ?eqxx e1 !hb //.
all: by rewrite ?subr0 scaleNr addrC.
Qed.
(* left and right mode are adjoint to each other *)
Theorem C42_adjoint pseudo l r x y : adot (opL pseudo l r y) x = adot y (opR pseudo l r x).
Proof.
rewrite /opL /opR adotBl adotBr adotZl adotZr conjCK !adotBl !adotBr cell_adjoint; congr (_ - _ * (_ - _)).
case: pseudo; last by rewrite adot0l adot0r.
by rewrite adotZl adotZr -adotC mulrC.
Qed.
(* and agree with the dense construction *)
Theorem C42_dense pseudo l r x :
  EyemE L q A1 A2 w pseudo l r *m ravel x = ravel (opR pseudo l r x) /\
  (EyemE L q A1 A2 w pseudo l r)^† *m ravel x = ravel (opL pseudo l r x).
Proof.
have rD (a b : 'M[C]_(D1, D2)) : ravel (a - b) = ravel a - ravel b by apply/matrixP => i j; rewrite !mxE.
have right y : EyemE L q A1 A2 w pseudo l r *m ravel y = ravel (opR pseudo l r y).
  rewrite /EyemE /opR rD ravelZ rD mulmxBl mul1mx -scalemxAl; congr (_ - _ *: _).
  case: pseudo; last by rewrite Eblock_right (_ : ravel 0 = 0) ?subr0 //; apply/matrixP => i j; rewrite !mxE.
  rewrite mulmxBl Eblock_right ravelZ; congr (_ - _).
  rewrite -mulmxA -adot_ravel adotE.
  by rewrite [X in _ *m X]mx11_scalar mul_mx_scalar trace_mx11.
split=> //; apply: adot_nd => v; rewrite -adot_mull -[v]unravelK right !adot_ravel.
by rewrite adotC -C42_adjoint -adotC.
Qed.
(* so do the matrices assembled column by column, in both modes *)
Theorem C42_brute_LOP left pseudo l r : brute_LOP L q A1 A2 w left pseudo l r = EyemE L q A1 A2 w pseudo l r.
Proof.
set E := EyemE _ _ _ _ _ _ _ _.
have col (M : 'M[C]_(D1 * D2)) i j : M i j = (M *m (delta_mx j ord0 : 'cV[C]_(D1 * D2))) i ord0.
  have -> : M *m (delta_mx j ord0 : 'cV[C]_(D1 * D2)) = col j M by rewrite colE.
  by rewrite mxE.
pose h j : mem C D1 D2 := fun a => if a == 2%N then unravel (delta_mx j ord0) else if a == 3%N then l else r.
have mv lf j : (pinv_matvec lf pseudo (h j) 2 3 4).2 = (if lf then opL else opR) pseudo l r (unravel (delta_mx j ord0)).
  by have := @C42_matvec lf pseudo (h j) 2 3 4 isT isT isT; case: (pinv_matvec _ _ _ _ _ _) => h' y [].
rewrite /brute_LOP; case: left.
  apply: adj_inj; rewrite adjK; apply/matrixP => i j; rewrite [LHS]mxE -/(h j) mv.
  by have [_ <-] := C42_dense pseudo l r (unravel (delta_mx j ord0)); rewrite unravelK -col adjE.
apply/matrixP => i j; rewrite [LHS]mxE -/(h j) mv.
by have [<- _] := C42_dense pseudo l r (unravel (delta_mx j ord0)); rewrite unravelK -col.
Qed.
(* p = 0: with normalised fixed points a solution of the pseudo-inverse equation for a source orthogonal to l solves
   the equation of the singular operator 1 - E and is orthogonal to l *)
Theorem C42_pseudo_inverse l r x y : w = 1 -> cellL l = l -> adot l r = 1 -> opR true l r y = x -> adot l x = 0 ->
  adot l y = 0 /\ y - cellR y = x.
Proof.
rewrite /opR => -> fl n1 e hx.
have h0 : adot l y = 0.
  by rewrite -hx -e scale1r adotBr adotBr -cell_adjoint fl adotZr n1 mulr1 subrr subr0.
by split=> //; rewrite -e scale1r h0 scale0r subr0.
Qed.
Theorem C42_pseudo_inverse_left l r x y : w = 1 -> cellR r = r -> adot l r = 1 -> opL true l r y = x -> adot r x = 0 ->
  adot r y = 0 /\ y - cellL y = x.
Proof.
rewrite /opL => -> fr n1 e hx; rewrite conjC1 scale1r in e.
have n2 : adot r l = 1 by rewrite adotC n1 conjC1.
have h0 : adot r y = 0.
  rewrite -hx -e adotBr adotBr adotZr n2 mulr1.
  by rewrite (_ : adot r (cellL y) = adot r y) ?subrr ?subr0 // adotC cell_adjoint fr -adotC.
by split=> //; rewrite -e h0 scale0r subr0.
Qed.
End C42.
Print Assumptions C42_matvec.
Print Assumptions C42_adjoint.
Print Assumptions C42_dense.
Print Assumptions C42_brute_LOP.
Print Assumptions C42_pseudo_inverse.
Print Assumptions C42_pseudo_inverse_left.

(* ---- C52 ---- *)
(* the loop succeeds exactly when a try before the last permitted one does *)
Theorem C52_retry ok n i : retry ok n = Some i <-> [/\ (i.+1 < n)%N, ok i & forall j, (j < i)%N -> ~~ ok j].
Proof.
have gen rem a : (0 < rem)%N -> exists i, [/\ retry_loop ok rem a = Some i, (a <= i < a + rem)%N,
    (forall j, (a <= j < i)%N -> ~~ ok j) & ok i \/ i = (a + rem).-1].
  elim: rem a => // rem IH a _ /=; case oka: (ok a).
    by exists a; split=> //; [lia | move=> j; lia | left].
  case: eqP => [->|r0]; first by exists a; split=> //; [lia | move=> j; lia | right; lia].
  have [|k [-> h1 h2 h3]] := IH a.+1; first by lia.
  exists k; split=> //; [lia | | by case: h3 => h3; [left | right; rewrite h3; lia]].
  by move=> j hj; case: (ltngtP a j) => [h|h|<-]; [apply: h2; lia | lia | rewrite oka].
rewrite /retry; case: (posnP n) => [->|n0]; first by split=> // -[]; lia.
have [k [-> h1 h2 h3]] := gen n 0%N n0; case: eqP => hk; split=> //.
- case=> i1 i2 i3; have [ki|ik|e] := ltngtP k i; [lia | | lia].
  by have := h2 i; rewrite ik i2 => /(_ isT).
- by case=> <-; split; [lia | by case: h3 => // h3; lia | move=> j hj; apply: h2].
- case=> i1 i2 i3; congr Some; have [ki|ik|//] := ltngtP k i.
    by case: h3 => [h3|]; [have := i3 k ki; rewrite h3 | lia].
  by have := h2 i; rewrite ik i2 => /(_ isT).
Qed.
Print Assumptions C52_retry.
(* success on the last permitted try is reported as failure; one permitted try always fails *)
Theorem C52_last_try_refuted n ok : (forall j, (j.+1 < n)%N -> ~~ ok j) -> retry ok n = None.
Proof.
move=> h; case e: (retry ok n) => [i|//]; have /C52_retry [i1 i2 _] := e.
by have := h i i1; rewrite i2.
Qed.
Theorem C52_single_try_refuted ok : retry ok 1 = None.
Proof. exact: C52_last_try_refuted. Qed.
Print Assumptions C52_last_try_refuted.
Print Assumptions C52_single_try_refuted.
Example C52_example : retry (fun i => i == 2%N) 4 = Some 2%N /\ retry (fun i => i == 3%N) 4 = None.
Proof. by []. Qed.

(* ---- C43 ---- *)
Section C43.
Variables (C : numClosedFieldType) (L q D : nat) (A : nat -> nat -> 'M[C]_D).
Hypothesis L0 : (0 < L)%N.
Notation cellL := (cellL L q A A).
Notation cellR := (cellR L q A A).
Notation calc_lr_fin := (calc_lr_fin L q A).
Lemma normaliseP symm (lL rL l r : 'M[C]_D) : normalise symm lL rL = Some (l, r) -> exists a b : C, l = a *: lL /\ r = b *: rL.
Proof.
rewrite /normalise; case: ifP => // _; case: symm => -[<- <-]; first by do 2!eexists.
by eexists; eexists; rewrite !scalerA.
Qed.
(* fixed points at the cell boundary determine environments that are consistent at every bond *)
Theorem C43_consistent symm l0 r0 lL rL l r : cellL lL = lL -> cellR rL = rL ->
  calc_lr_fin symm l0 r0 lL rL = Some (l, r) -> consistent L q A l r.
Proof.
move=> fl fr; rewrite /Uniform.calc_lr_fin; case e: (normalise _ _ _) => [[l' r']|//] [<- <-].
have [a [b [-> ->]]] := normaliseP e.
by apply: fill_consistent; rewrite // /setv eqxx ?cellLZ ?cellRZ ?fl ?fr.
Qed.
(* ... so they are fixed points of the cell transfer operator of every offset (this is what the class's own sanity
   check evaluates) *)
Theorem C43_fixed_point_everywhere l r k : consistent L q A l r -> (k < L)%N ->
  foldl (fun y j => eps_l_noop q y (A (j %% L)) (A (j %% L))) (l k) (iota k.+1 L) = l k /\
  foldl (fun y j => eps_r_noop q y (A (j %% L)) (A (j %% L))) (r k) (rev (iota k.+1 L)) = r k.
Proof.
move=> h kL; have nx j : l (j.+1 %% L)%N = eps_l_noop q (l (j %% L)%N) (A (j.+1 %% L)) (A (j.+1 %% L))
    /\ r (j %% L)%N = eps_r_noop q (r (j.+1 %% L)%N) (A (j.+1 %% L)) (A (j.+1 %% L)).
  by have [h1 h2] := h _ (ltn_pmod j.+1 L0); rewrite prv_next // in h1 h2.
have kk : ((k + L) %% L = k)%N by rewrite modnDr modn_small.
split.
  suff gen n : foldl (fun y j => eps_l_noop q y (A (j %% L)) (A (j %% L))) (l (k %% L)%N) (iota k.+1 n) = l ((k + n) %% L)%N.
    by have := gen L; rewrite kk modn_small.
  elim: n => [|n IH]; first by rewrite addn0.
  by rewrite -{1}[n.+1]addn1 iotaD foldl_cat IH /= addnS addSn; have [<- _] := nx (k + n)%N.
suff gen n : forall k, foldl (fun y j => eps_r_noop q y (A (j %% L)) (A (j %% L))) (r ((k + n) %% L)%N) (rev (iota k.+1 n)) = r (k %% L)%N.
  by have := gen L k; rewrite kk modn_small.
elim: n => [|n IH] k'; first by rewrite addn0.
rewrite /= rev_cons -cats1 foldl_cat addnS -addSn IH /=.
by have [_ <-] := nx k'.
Qed.
(* the norm per cell is the same at every bond *)
Theorem C43_norm_everywhere l r k j : consistent L q A l r -> (k < L)%N -> (j < L)%N -> adot (l k) (r k) = adot (l j) (r j).
Proof.
move=> h; have st i : adot (l (i.+1 %% L)%N) (r (i.+1 %% L)%N) = adot (l (i %% L)%N) (r (i %% L)%N).
  have [h1 h2] := h _ (ltn_pmod i.+1 L0); rewrite prv_next // in h1 h2.
  by rewrite h1 h2 eps_adjoint.
have z i : adot (l (i %% L)%N) (r (i %% L)%N) = adot (l (0 %% L)%N) (r (0 %% L)%N) by elim: i => // i IH; rewrite st.
by move=> kL jL; have := z k; rewrite -(z j) !modn_small.
Qed.
(* its value: exactly 1 when the overlap of the eigenvectors is real (always so for Hermitian ones) *)
Theorem C43_norm_value symm l0 r0 lL rL l r : cellL lL = lL -> cellR rL = rL ->
  calc_lr_fin symm l0 r0 lL rL = Some (l, r) -> symm \/ (0 < D)%N /\ 'Re (\tr rL) != 0 ->
  forall k, (k < L)%N -> adot (l k) (r k) = adot lL rL / 'Re (adot lL rL).
Proof.
move=> fl fr e hs k kL; have cons := C43_consistent fl fr e.
have L1 : (L.-1 < L)%N by lia.
rewrite (C43_norm_everywhere cons kL L1); move: e; rewrite /Uniform.calc_lr_fin.
case en: (normalise _ _ _) => [[l' r']|//] [<- <-].
have [-> _] := fill_lP q A L0 (setv l0 L.-1 l'); have [-> _] := fill_rP q A L0 (setv r0 L.-1 r').
rewrite /setv eqxx; move: en; rewrite /normalise; set n := 'Re _; case: ifP => // n0.
have cr : ((sqrtC n)^-1)^* = (sqrtC n)^-1 by rewrite conj_Creal // rpredV ger0_real // sqrtC_ge0 ltW.
have core : adot ((sqrtC n)^-1 *: lL) ((sqrtC n)^-1 *: rL) = adot lL rL / n.
  by rewrite adotZl adotZr cr mulrA -invfM -expr2 sqrtCK mulrC.
case: symm hs => [_ [<- <-]//|[//|[D0 t0]]] [<- <-].
set fac := _ / _.
have f0 : fac != 0.
  rewrite mulf_neq0 ?invr_eq0 //; first by rewrite pnatr_eq0 -lt0n.
  rewrite mxtraceZ ReMl ?mulf_neq0 // ?rpredV ?invr_eq0 ?sqrtC_eq0 ?gt_eqF //.
  by rewrite ger0_real // sqrtC_ge0 ltW.
have fr' : fac^* = fac by rewrite conj_Creal // rpred_div // ?Creal_Re // realn.
by rewrite adotZl adotZr fmorphV fr' mulrA mulVf // mul1r core.
Qed.
Theorem C43_normalised symm l0 r0 lL rL l r : cellL lL = lL -> cellR rL = rL -> herm lL -> herm rL ->
  calc_lr_fin symm l0 r0 lL rL = Some (l, r) -> symm \/ (0 < D)%N /\ 'Re (\tr rL) != 0 ->
  forall k, (k < L)%N -> adot (l k) (r k) = 1.
Proof.
move=> fl fr hl hr e hs k kL; rewrite (C43_norm_value fl fr e hs kL).
have re : 'Re (adot lL rL) = adot lL rL.
  by apply/eqP; rewrite eq_sym; apply/eqP; apply/esym/Creal_ReP; rewrite CrealE -adotC -adot_adj hl hr.
move: e; rewrite /Uniform.calc_lr_fin /normalise; case: ifP => // n0 _.
by rewrite re divff // -re gt_eqF.
Qed.
(* without the symmetric gauge, r at the cell boundary has trace D *)
Theorem C43_trace l0 r0 lL rL l r : calc_lr_fin false l0 r0 lL rL = Some (l, r) -> 'Re (\tr rL) != 0 ->
  \tr rL \is Num.real -> \tr (r L.-1) = D%:R.
Proof.
rewrite /Uniform.calc_lr_fin; case en: (normalise _ _ _) => [[l' r']|//] [_ <-] t0 tr.
have [-> _] := fill_rP q A L0 (setv r0 L.-1 r'); rewrite /setv eqxx.
move: en; rewrite /normalise; case: ifP => // n0 [_ <-].
have tr' : \tr ((sqrtC ('Re (adot lL rL)))^-1 *: rL) \is Num.real.
  by rewrite mxtraceZ rpredM // rpredV ger0_real // sqrtC_ge0 ltW.
set rr := _ *: rL in tr' *; rewrite mxtraceZ (Creal_ReP _ tr') mulfVK // /rr mxtraceZ mulf_neq0 //.
  by rewrite invr_eq0 sqrtC_eq0 gt_eqF.
by move: t0; rewrite (Creal_ReP _ tr).
Qed.
(* the only failure: an overlap that is not positive *)
Theorem C43_failure symm l0 r0 lL rL : calc_lr_fin symm l0 r0 lL rL = None <-> ~~ (0 < 'Re (adot lL rL)).
Proof. by rewrite /Uniform.calc_lr_fin /normalise; case: ifP => // _; case: symm. Qed.
(* the dense solver: after its rescaling the returned matrices are fixed points; their overlap has modulus 1, but is
   1 only if the overlap of the eigenvectors was positive *)
Theorem C43_brute ev vl vr : eig_pair L q A ev vl vr -> 0 < ev -> adot vl vr != 0 ->
  let: (l, r) := brute_lr vl vr in let A' := brute_A A ev in
  [/\ Uniform.cellL L q A' A' l = l, Uniform.cellR L q A' A' r = r & adot l r = adot vl vr / `|adot vl vr|].
Proof.
move=> /eig_pairP [er el] ev0 n0 /=; rewrite conj_Creal ?gtr0_real // in el.
have pr : \prod_(k < L) ((if k == 0%N :> nat then (sqrtC ev)^-1 else 1) * ((if k == 0%N :> nat then (sqrtC ev)^-1 else 1))^*) = ev^-1.
  rewrite -(prednK L0) big_ord_recl /= big1 ?mulr1; last by move=> i _; rewrite conjC1 mulr1.
  rewrite (conj_Creal (_ : (sqrtC ev)^-1 \is Num.real)) -?invfM -?expr2 ?sqrtCK //.
  by rewrite rpredV ger0_real // sqrtC_ge0 ltW.
have evn : ev != 0 by rewrite gt_eqF.
split.
- by rewrite cellL_scaled pr cellLZ el !scalerA mulrAC mulVf // mul1r.
- by rewrite cellR_scaled pr cellRZ er !scalerA mulrAC mulVf // mul1r.
set n := adot vl vr; rewrite adotZl adotZr -/n mulrA -normCKC normfV -[in RHS](sqrtCK n) normrX mulrC; congr (_ * _).
  by rewrite sqrtCK.
by rewrite exprVn.
Qed.
(* the iterative solver rescales every tensor: same conclusion for fac**L = 1/sqrt(ev) *)
Theorem C43_iterative_rescale ev fac lL rL : 0 < ev -> fac ^+ L = (sqrtC ev)^-1 -> cellL lL = ev *: lL -> cellR rL = ev *: rL ->
  let A' := arpack_A A fac in Uniform.cellL L q A' A' lL = lL /\ Uniform.cellR L q A' A' rL = rL.
Proof.
move=> ev0 hf el er /=.
have pr : \prod_(k < L) (fac * fac^*) = ev^-1.
  rewrite prodr_const card_ord -normCK -exprM mulnC exprM -normrX hf normCK (conj_Creal (_ : (sqrtC ev)^-1 \is Num.real)) -?invfM -?expr2 ?sqrtCK //.
  by rewrite rpredV ger0_real // sqrtC_ge0 ltW.
have evn : ev != 0 by rewrite gt_eqF.
by rewrite cellL_scaled cellR_scaled pr el er !scalerA mulVf // !scale1r.
Qed.
End C43.
Print Assumptions C43_consistent.
Print Assumptions C43_fixed_point_everywhere.
Print Assumptions C43_norm_everywhere.
Print Assumptions C43_norm_value.
Print Assumptions C43_normalised.
Print Assumptions C43_trace.
Print Assumptions C43_failure.
Print Assumptions C43_brute.
Print Assumptions C43_iterative_rescale.

(* ---- C44 ---- *)
Section C44.
Variables (C : numClosedFieldType) (L q D : nat) (A : nat -> nat -> 'M[C]_D) (l r : nat -> 'M[C]_D).
Hypotheses (L0 : (0 < L)%N) (hc : consistent L q A l r).
(* <psi|O|psi> on the window of N sites starting at site k0 of the infinite chain, with the environments at its two
   ends as boundary densities *)
Definition window k0 N (O : (seq nat -> 'M[C]_D) -> seq nat -> 'M[C]_D) : C :=
  bdotst (fun _ => q) N (wl L l k0 0) (wr L r k0 N) (psi (wA L A k0) N) (O (psi (wA L A k0) N)).
Theorem C44_expect_1s op k0 N n : (n < N)%N -> uexpect_1s L q A l r op ((k0 + n) %% L) = window k0 N (op1 (fun _ => q) n op).
Proof. by move=> nN; rewrite (w_1s q A l r k0 L0) (expect_1sE (wup_l k0 L0 hc N) (wup_r k0 L0 hc N)). Qed.
Theorem C44_expect_1s_1s o1 o2 k0 N n j : (n + j < N)%N ->
  uexpect_1s_1s L q A l r o1 o2 ((k0 + n) %% L) j = window k0 N (fun phi => op1 (fun _ => q) n o1 (op1 (fun _ => q) (n + j) o2 phi)).
Proof.
move=> nN; rewrite (w_1s1s q A l r k0 L0); case: j nN => [|j] nN.
  by rewrite addn0 in nN *; rewrite (expect_1s_1s0 (wup_l k0 L0 hc N) (wup_r k0 L0 hc N)).
by rewrite (expect_1s_1sE (wup_l k0 L0 hc N) (wup_r k0 L0 hc N)).
Qed.
Theorem C44_expect_3s op k0 N n : (n.+2 < N)%N -> uexpect_3s L q A l r op ((k0 + n) %% L) = window k0 N (op3 (fun _ => q) n op).
Proof. by move=> nN; rewrite (w_3s q A l r k0 L0) (expect_3sE (wup_l k0 L0 hc N) (wup_r k0 L0 hc N)). Qed.
(* entry n of the connected correlation function *)
Theorem C44_correlation o1 o2 k0 N j : (j < N)%N ->
  ucorrelation L q A l r o1 o2 (k0 %% L) j =
  window k0 N (fun phi => op1 (fun _ => q) 0 o1 (op1 (fun _ => q) j o2 phi)) -
  window k0 N (op1 (fun _ => q) 0 o1) * window k0 N (op1 (fun _ => q) j o2).
Proof.
move=> jN; have N0 : (0 < N)%N by lia.
rewrite /ucorrelation modnDml -(C44_expect_1s o2 k0 jN) -(C44_expect_1s o1 k0 N0) addn0.
by have := @C44_expect_1s_1s o1 o2 k0 N 0 j; rewrite add0n addn0 => ->.
Qed.
(* expect_string_1s: entry i is the value of the string of length i+1, of the adjoint operator; d+1 entries instead
   of the documented lengths 1 to d *)
Theorem C44_string op k0 N n d : (n + d < N)%N -> size (ustring L q A l r op ((k0 + n) %% L) d) = d.+1 /\
  forall i, (i <= d)%N -> nth 0 (ustring L q A l r op ((k0 + n) %% L) d) i =
    bdotst (fun _ => q) N (wl L l k0 0) (wr L r k0 N) (op_string (fun _ => q) op n i.+1 (psi (wA L A k0) N)) (psi (wA L A k0) N).
Proof.
move=> nN; rewrite size_map size_iota; split=> // i id; rewrite (nth_map 0%N) ?size_iota // nth_iota // add0n.
have niN : (n + i.+1 <= N)%N by lia.
rewrite w_string (_ : r _ = wr L r k0 (i.+1 + n)); last by rewrite addSn wrS // modS.
rewrite (string_valE (wup_l k0 L0 hc N) (wup_r k0 L0 hc N) op niN); apply: eq_sum_cfgs => c sz.
by rewrite op_stringE.
Qed.
(* density_1s: rho[s,t] = <t|rho|s>, the transpose of the reduced density matrix *)
Theorem C44_density_transposed (op : op1s C) k :
  \sum_(s < q) \sum_(t < q) op s t * udensity_1s L A l r k s t = uexpect_1s L q A l r op k.
Proof.
rewrite /uexpect_1s /udensity_1s /eps_r_op_1s adot_sumr; apply: eq_bigr => s _.
rewrite adot_sumr; apply: eq_bigr => t _ /=; rewrite mulmxA.
by case: eqP => [->|_]; rewrite ?mul0r ?adot0r // adotZr.
Qed.
(* expect_2s: right when self.AA is current and r[k] = r[k+1] (one-site cells, right canonical form) *)
Theorem C44_expect_2s op k0 N n : (n.+1 < N)%N -> r ((k0 + n) %% L) = r ((k0 + n.+1) %% L) ->
  uexpect_2s L q l r (ucalc_AA L A) op ((k0 + n) %% L) = window k0 N (op2 (fun _ => q) n op).
Proof. by move=> nN e; rewrite (w_2s _ _ _ L0 _ e) (expect_2sE (wup_l k0 L0 hc N) (wup_r k0 L0 hc N)). Qed.
Theorem C44_expect_2s_tp tp k0 N n : (n.+1 < N)%N -> r ((k0 + n) %% L) = r ((k0 + n.+1) %% L) ->
  uexpect_2s_tp L q A l r tp ((k0 + n) %% L) = window k0 N (op2 (fun _ => q) n (op_of_tp tp)).
Proof.
move=> nN e; rewrite -C44_expect_2s // /uexpect_2s_tp /uexpect_2s eps_r_op_2s_C12_tpE.
by rewrite eps_r_op_2s_C12_AA34_op.
Qed.
End C44.
Section Ex2.
Variable C : numClosedFieldType.
Definition e2A (k : nat) (s : nat) : 'M[C]_1 := if k == 0%N then 2%:R%:M else (2%:R^-1)%:M.
Definition e2l (k : nat) : 'M[C]_1 := if k == 0%N then 4%:R%:M else 1%:M.
Definition e2r (k : nat) : 'M[C]_1 := if k == 0%N then (4%:R^-1)%:M else 1%:M.
Lemma two4 : (2%:R * 2%:R : C) = 4%:R. Proof. by rewrite -natrM. Qed.
Lemma sc_r x (a : C) : eps_r_noop 1 (x%:M : 'M[C]_1) (fun _ => a%:M) (fun _ => a%:M) = (a * x * a^*)%:M.
Proof. by rewrite /eps_r_noop big_ord1 adj_scalar ?mulmxA -!scalar_mxM. Qed.
Lemma sc_l x (a : C) : eps_l_noop 1 (x%:M : 'M[C]_1) (fun _ => a%:M) (fun _ => a%:M) = (a^* * x * a)%:M.
Proof. by rewrite /eps_l_noop big_ord1 adj_scalar ?mulmxA -!scalar_mxM. Qed.
Lemma e2_consistent : consistent 2 1 e2A e2l e2r.
Proof.
have n2 : (2%:R : C) != 0 by rewrite pnatr_eq0.
have cn m : ((m%:R : C))^* = m%:R by rewrite conj_Creal // realn.
have cv m : ((m%:R^-1 : C))^* = m%:R^-1 by rewrite conj_Creal // rpredV realn.
case=> [|[|k]] // _; split; rewrite /prv /e2A /e2l /e2r /= -?two4; rewrite ?(sc_r, sc_l) ?cn ?cv ?mulr1 //; congr scalar_mx.
- by rewrite invfM mulrA mulfV // mul1r mulVf.
- by rewrite mulrA mulVf // mul1r mulfV.
- by rewrite invfM.
Qed.
Lemma e2_AA k s t : (k < 2)%N -> ucalc_AA 2 e2A k s t = 1%:M.
Proof.
have n2 : (2%:R : C) != 0 by rewrite pnatr_eq0.
by case: k => [|[|//]] _; rewrite /ucalc_AA /calc_AA /e2A /= -scalar_mxM ?mulfV ?mulVf.
Qed.
Lemma e2_val (AA : nat -> nat -> 'M[C]_1) (x y : 'M[C]_1) (e : C) : (forall s t, AA s t = e%:M) ->
  adot x (eps_r_op_2s_C12_AA34 1 1 y (calc_C_mat_op_AA 1 1 (fun _ _ _ _ => 1) AA) AA) = e * e^* * ((x 0 0)^* * y 0 0).
Proof.
move=> h; rewrite eps_r_op_2s_C12_AA34E !big_ord1 /= calc_C_mat_op_AAE // !big_ord1 !h scale1r.
rewrite adotE /mxtrace big_ord1 !(mxE, big_ord1) /= mulr1n.
by rewrite -!mulrA [y 0 0 * _]mulrC [e^* * (_ * _)]mulrCA [RHS]mulrCA.
Qed.
Theorem C44_expect_2s_refuted : exists (A : nat -> nat -> 'M[C]_1) (l r : nat -> 'M[C]_1) (op : op2s C),
  consistent 2 1 A l r /\ uexpect_2s 2 1 l r (ucalc_AA 2 A) op 0 != window 2 1 A l r 0 2 (op2 (fun _ => 1%N) 0 op) /\
  uexpect_2s 2 1 l r (ucalc_AA 2 A) op 0 = 4%:R^-1 /\ window 2 1 A l r 0 2 (op2 (fun _ => 1%N) 0 op) = 1.
Proof.
exists e2A, e2l, e2r, (fun _ _ _ _ => 1).
have v1 : uexpect_2s 2 1 e2l e2r (ucalc_AA 2 e2A) (fun _ _ _ _ => 1) 0 = 4%:R^-1.
  rewrite /uexpect_2s (@e2_val _ _ _ 1); last by move=> s t; rewrite e2_AA.
  by rewrite /prv /e2l /e2r /= !mxE /= !mulr1n conjC1 !mul1r.
have v2 : window 2 1 e2A e2l e2r 0 2 (op2 (fun _ => 1%N) 0 (fun _ _ _ _ => 1)) = 1.
  rewrite /window -(expect_2sE (wup_l 0 (isT : (0 < 2)%N) e2_consistent 2) (wup_r 0 (isT : (0 < 2)%N) e2_consistent 2)) //.
  rewrite /Chain.expect_2s (@e2_val _ _ _ 1); last by move=> s t; have := e2_AA s t (isT : (0 < 2)%N).
  by rewrite /wl /wr /prv /e2l /e2r /= !mxE /= !mulr1n conjC1 !mul1r.
split; first exact: e2_consistent.
by rewrite v1 v2; split=> //; rewrite invr_eq1 (eqr_nat C 4 1).
Qed.
(* update() of MPS_Uniform leaves self.AA at zero: every two-site expectation value reads 0 *)
Theorem C44_expect_2s_stale_refuted (L q D : nat) (l r : nat -> 'M[C]_D) op k :
  uexpect_2s L q l r (fun _ _ _ => 0) op k = 0.
Proof.
rewrite /uexpect_2s eps_r_op_2s_C12_AA34E big1 ?adot0r // => u _; rewrite big1 // => v _.
by rewrite adj0 mulmx0.
Qed.
(* return_exvals: the second list repeats the values of the first operator *)
Theorem C44_exvals_refuted : exists (A : nat -> nat -> 'M[C]_1) (l r : nat -> 'M[C]_1) (o1 o2 : op1s C),
  consistent 2 1 A l r /\ nth 0 (ucorrelation_exvals 2 1 A l r o1 o2 0 3).2 0 = 0 /\ uexpect_1s 2 1 A l r o2 0 = 1.
Proof.
exists e2A, e2l, e2r, (fun _ _ => 0), (fun _ _ => 1); split; first exact: e2_consistent.
split=> [|]; first by rewrite /= /uexpect_1s /eps_r_op_1s !big_ord1 eqxx adot0r.
rewrite /uexpect_1s /eps_r_op_1s !big_ord1 oner_eq0 /= scale1r mulmxA.
have [_ h] := e2_consistent (isT : (0 < 2)%N).
have -> : e2A 0 0 *m e2r 0 *m (e2A 0 0)^† = e2r 1 by symmetry; move: h; rewrite /eps_r_noop big_ord1.
by rewrite adotE /e2l /e2r /prv /= adj1 mulmx1 mxtrace1.
Qed.
(* the hypotheses of the positive theorems on a two-site cell with different tensors and environments: three sites of
   the infinite chain, starting at the second tensor of the cell *)
Example C44_example : uexpect_1s 2 1 e2A e2l e2r (fun _ _ => 3%:R) 1 = 3%:R /\
  window 2 1 e2A e2l e2r 1 3 (op1 (fun _ => 1%N) 2 (fun _ _ => 3%:R)) = 3%:R.
Proof.
have h : uexpect_1s 2 1 e2A e2l e2r (fun _ _ => 3%:R) 1 = 3%:R.
  rewrite /uexpect_1s /eps_r_op_1s !big_ord1 (eqr_nat C 3 0) /= adotZr mulmxA.
  have [_ h] := e2_consistent (isT : (1 < 2)%N).
  have -> : e2A 1 0 *m e2r 1 *m (e2A 1 0)^† = e2r 0 by symmetry; move: h; rewrite /eps_r_noop big_ord1.
  rewrite /e2l /e2r /prv /= adotE /mxtrace big_ord1 !(mxE, big_ord1) /= !mulr1n conj_Creal ?realn //.
  by rewrite mulfV ?mulr1 ?pnatr_eq0.
by split=> //; rewrite -(@C44_expect_1s _ _ _ _ _ _ _ (isT : (0 < 2)%N) e2_consistent _ 1 3 2).
Qed.
(* the same cell for C43: fixed points of the cell operator, the trace convention and the fill *)
Example C43_example : cellL 2 1 e2A e2A (e2l 1) = e2l 1 /\ cellR 2 1 e2A e2A (e2r 1) = e2r 1 /\
  exists l r, calc_lr_fin 2 1 e2A false (fun _ => 0) (fun _ => 0) (e2l 1) (e2r 1) = Some (l, r) /\
    l 0%N = 4%:R%:M /\ r 0%N = (4%:R^-1)%:M.
Proof.
have [l0 r1] := e2_consistent (isT : (0 < 2)%N).
have [l1 r0] := e2_consistent (isT : (1 < 2)%N).
have fl : cellL 2 1 e2A e2A (e2l 1) = e2l 1 by rewrite /cellL /= -l0 -l1.
have fr : cellR 2 1 e2A e2A (e2r 1) = e2r 1 by rewrite /cellR /= -r0 -r1.
split=> //; split=> //.
have one : 'Re (adot (e2l 1) (e2r 1)) = 1 by rewrite adotE /e2l /e2r /= adj1 mulmx1 mxtrace1 (Creal_ReP _ _) ?rpred1.
have tr1 : 'Re (\tr (e2r 1)) = 1 by rewrite /e2r /= mxtrace1 (Creal_ReP _ _) ?rpred1.
do 2!eexists; rewrite /calc_lr_fin /normalise one ltr01 sqrtC1 invr1 !scale1r tr1 divr1 invr1 !scale1r; split; first by [].
by rewrite /fill_l /fill_r /setv /=; split; [exact: esym l0 | exact: esym r0].
Qed.
(* three sites, all tensors 2: the result 4*4*4 is in buffer 1 (out2), the caller's array 5 keeps its value *)
Example C51_example : let: (h', res) := eop_matvec 3 1 (fun _ _ => 2%:R%:M) (fun _ _ => 2%:R%:M) false (fun a => a%:R%:M : 'M[C]_1) 5 in
  [/\ res = 1%N, h' res = (4%:R * (4%:R * (4%:R * 5%:R)))%:M & h' 5%N = 5%:R%:M].
Proof.
set E := eop_matvec _ _ _ _ _ _ _.
have : let: (h', res) := E in [/\ h' res = cell 3 1 (fun _ _ => 2%:R%:M) (fun _ _ => 2%:R%:M) false 5%:R%:M, res = 1%N &
  forall b, (1 < b)%N -> h' b = b%:R%:M] 
  by have := @C51_matvec C 3 1 1 1 (fun _ _ => 2%:R%:M) (fun _ _ => 2%:R%:M) false (fun a => a%:R%:M) 5 isT.
case: E => h' res [e1 e2 e3]; rewrite e1 e2 e3 //; split=> //.
rewrite /cell /cellR /= !sc_r conj_Creal ?realn //.
have m (x : C) : 2%:R * x * 2%:R = 4%:R * x by rewrite mulrAC two4.
by rewrite !m.
Qed.
(* GHZ tensors A_s = |s><s|: the transfer operator keeps the diagonal; l = 1, r = 1/2 *)
Definition ghzA (k s : nat) : 'M[C]_2 := \matrix_(i, j) ((i == j) && (i == s :> nat))%:R.
Example C42_example : let l := 1%:M in let r := 2%:R^-1 *: 1%:M in let x := delta_mx ord0 (lift ord0 ord0) in
  [/\ cellL 1 2 ghzA ghzA l = l, adot l r = 1, adot l x = 0, x != 0 & opR 1 2 ghzA ghzA 1 true l r x = x].
Proof.
have g k s (i j : 'I_2) : ghzA k s i j = ((i == j) && (i == s :> nat))%:R by rewrite mxE.
have adx : adot 1%:M (delta_mx ord0 (lift ord0 ord0) : 'M[C]_2) = 0.
  by rewrite adotE adj1 mul1mx /mxtrace big_ord_recl big_ord1 !mxE /= addr0.
have e2 (i : 'I_2) : i = ord0 \/ i = lift ord0 ord0 by case: i => [[|[|//]] h]; [left | right]; apply: val_inj.
have ga k s : (ghzA k s)^† = ghzA k s.
  apply/matrixP => i j; rewrite adjE !g eq_sym; case: eqP => [->|_] /=; first by rewrite conj_Creal ?realn.
  by rewrite conjC0.
have gM k s (M : 'M[C]_2) i j : (ghzA k s *m M *m ghzA k s) i j = ((i == s :> nat) && (j == s :> nat))%:R * M i j.
  rewrite !(mxE, big_ord_recl, big_ord0).
  by have [->|->] := e2 i; have [->|->] := e2 j; rewrite /=;
    case: s => [|[|s]] /=; rewrite ?mul0r ?mulr0 ?mul1r ?mul0r ?mulr0 ?mulr1 ?addr0 ?add0r ?mul0r ?addr0.
have cl : cellL 1 2 ghzA ghzA 1%:M = 1%:M.
  rewrite /cellL /= /eps_l_noop big_ord_recl big_ord1 !ga ?mulmxA; apply/matrixP => i j; rewrite mxE !gM !mxE.
  by have [->|->] := e2 i; have [->|->] := e2 j; rewrite /= ?mul0r ?mul1r ?addr0 ?add0r.
have cr : cellR 1 2 ghzA ghzA (delta_mx ord0 (lift ord0 ord0)) = 0.
  rewrite /cellR /= /eps_r_noop big_ord_recl big_ord1 !ga ?mulmxA; apply/matrixP => i j; rewrite mxE !gM !mxE.
  by have [->|->] := e2 i; have [->|->] := e2 j; rewrite /= ?mul0r ?mulr0 ?mul1r ?addr0 ?add0r.
split=> //.
- by rewrite adotZr adotE adj1 mul1mx mxtrace1 mulVf // pnatr_eq0.
- by apply/eqP => /matrixP /(_ ord0 (lift ord0 ord0)) /eqP; rewrite !mxE oner_eq0.
- by rewrite /opR cr adx scale0r !subr0 scaler0 subr0.
Qed.
End Ex2.
(* _calc_lr_brute: the normalisation of the two eigenvectors by a complex square root does not make the overlap
   positive, and calc_lr then takes the (real) square root of a negative number *)
Theorem C43_brute_sign_refuted (C : numClosedFieldType) : exists vl vr : 'M[C]_1,
  eig_pair 1 1 (fun _ _ => 1%:M) 1 vl vr /\
  calc_lr_fin 1 1 (fun _ _ => 1%:M) true (fun _ => 0) (fun _ => 0) (brute_lr vl vr).1 (brute_lr vl vr).2 = None.
Proof.
exists (-1)%:M, 1%:M; split; last first.
  rewrite /calc_lr_fin /normalise /= adotZl adotZr.
  have -> : adot ((-1)%:M : 'M[C]_1) 1%:M = -1.
    by rewrite adotE mulmx1 adj_scalar mxtrace_scalar rmorphN conjC1.
  rewrite mulrA [_ * (sqrtC _)^-1]mulrC -normCK normfV exprVn -normrX sqrtCK normrN normr1 invr1 mulrN1.
  by rewrite raddfN /= (Creal_ReP _ _) ?rpred1 // oppr_gt0 ltr10.
split.
  by rewrite Eblock_right scale1r /cellR /= /eps_r_noop big_ord1 adj1 !mulmx1.
by rewrite -[Eblock _ _ _ _]adjK -adjM Eblock_left scale1r /cellL /= /eps_l_noop big_ord1 adj1 mulmx1 mul1mx.
Qed.
Print Assumptions C43_brute_sign_refuted.
Print Assumptions C44_expect_1s.
Print Assumptions C44_expect_1s_1s.
Print Assumptions C44_expect_3s.
Print Assumptions C44_correlation.
Print Assumptions C44_string.
Print Assumptions C44_density_transposed.
Print Assumptions C44_expect_2s.
Print Assumptions C44_expect_2s_tp.
Print Assumptions C44_expect_2s_refuted.
Print Assumptions C44_expect_2s_stale_refuted.
Print Assumptions C44_exvals_refuted.
