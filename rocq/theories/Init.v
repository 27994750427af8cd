(* Init.v -- constructor: bond dimension correction and the initial state
   (mps_gen.py:19-41, 127-141, 181-235). *)
From mathcomp Require Import all_ssreflect all_algebra zify.
From Verif Require Import Base Spec Eps Chain ChainProofs ChainProofs2.
Set Implicit Arguments.
Unset Strict Implicit.
Unset Printing Implicit Defensive.
Import Order.TTheory GRing.Theory Num.Theory.

(* ---- correct_bond_dim_open_chain (mps_gen.py:19-41) ----------------------
   D and q are numpy integer arrays of length N+1, here functions on 0..N with the Python
   indices; q 0 is ignored.  Values are unbounded naturals (numpy int64 in the code). *)
Section BondDim.
Variables (N : nat) (q : nat -> nat).

Definition setD (D : nat -> nat) (n v : nat) : nat -> nat := fun i => if i == n then v else D i.
Definition Dmax (D : nat -> nat) : nat := \max_(i < N.+1) D i.

(* loop body: "if qacc < D.max(): qacc *= q[k]";  "if D[n] > qacc: D[n] = qacc" *)
Definition corr_step (k n : nat) (st : (nat -> nat) * nat) : (nat -> nat) * nat :=
  let: (D, qacc) := st in
  let qacc := if qacc < Dmax D then qacc * q k else qacc in
  let D := if qacc < D n then setD D n qacc else D in
  (D, qacc).

(* for n in range(N - 1, -1, -1): ... q[n + 1] *)
Definition corr_right (D : nat -> nat) : nat -> nat :=
  (foldl (fun st n => corr_step n.+1 n st) (D, 1) (rev (iota 0 N))).1.
(* for n in range(1, N + 1): ... q[n] *)
Definition corr_left (D : nat -> nat) : nat -> nat :=
  (foldl (fun st n => corr_step n n st) (D, 1) (iota 1 N)).1.

Definition correct_bond_dim (D : nat -> nat) : nat -> nat :=
  corr_left (corr_right (setD (setD D 0 1) N 1)).

(* dimensions of the Hilbert spaces left and right of bond n *)
Definition Qleft (n : nat) : nat := \prod_(1 <= i < n.+1) q i.
Definition Qright (n : nat) : nat := \prod_(n.+1 <= i < N.+1) q i.

Hypothesis q_pos : forall i, 1 <= i <= N -> 0 < q i.

Lemma Dmax_ge D n : n <= N -> D n <= Dmax D.
Proof. by move=> nN; apply: (leq_bigmax (Ordinal (nN : n < N.+1))). Qed.

Lemma Dmax_le D D' : (forall i, i <= N -> D' i <= D i) -> Dmax D' <= Dmax D.
Proof.
move=> h; apply/bigmax_leqP => i _; apply: leq_trans (Dmax_ge _ (ltn_ord i)).
by apply: h; rewrite -ltnS.
Qed.

(* the accumulator either is the exact product or already exceeds every bond dimension *)
Lemma corr_right_inv D k : k <= N ->
  let st := foldl (fun st n => corr_step n.+1 n st) (D, 1) (rev (iota (N - k) k)) in
  [/\ (forall i, i <= N -> N - k <= i < N -> st.1 i = minn (D i) (Qright i)),
      (forall i, ~~ (N - k <= i < N) -> st.1 i = D i) &
      st.2 = Qright (N - k) \/ (Dmax st.1 <= st.2 <= Qright (N - k))].
Proof.
elim: k => [|k IH] kN.
  rewrite subn0 /=; split=> // [i _|]; first by lia.
  by left; rewrite /Qright big_geq.
have e : iota (N - k.+1) k.+1 = (N - k.+1) :: iota (N - k) k by rewrite /= -subSn.
rewrite e rev_cons -cats1 foldl_cat /=.
move: (IH (ltnW kN)); set st := foldl _ _ _; case: st => [D1 qa] /= [h1 h2 h3].
have hQ : Qright (N - k.+1) = q (N - k.+1).+1 * Qright (N - k).
  rewrite /Qright big_ltn; last by lia.
  by congr (_ * _); have -> : (N - k.+1).+1 = N - k by lia.
have Q0 : 0 < q (N - k.+1).+1 by apply: q_pos; lia.
set m := N - k.+1 in hQ Q0 *; have mN : m < N by rewrite /m; lia.
have mk : m.+1 = N - k by rewrite /m; lia.
have hm : D1 m = D m by apply: h2; lia.
set qb := if qa < Dmax D1 then _ else _.
have hqb : qb = Qright m \/ (Dmax D1 <= qb <= Qright m).
  rewrite /qb hQ; case: ltnP => hlt.
    case: h3 => [->|/andP[a b]]; first by left; rewrite mulnC.
    by move: hlt; rewrite ltnNge a.
  right; rewrite hlt /=; case: h3 => [->|/andP[a b]]; first by rewrite leq_pmull.
  by apply: leq_trans b _; rewrite leq_pmull.
have hmin : minn (D m) qb = minn (D m) (Qright m).
  case: hqb => [->//|/andP[a b]].
  have c : D m <= qb by rewrite -hm; apply: leq_trans a; apply: Dmax_ge; lia.
  by rewrite (minn_idPl c) (minn_idPl (leq_trans c b)).
set D2 := if qb < D1 m then _ else _.
have hD2 i : D2 i = if i == m then minn (D m) (Qright m) else D1 i.
  rewrite /D2 hm -hmin; case: (ltnP qb (D m)) => c; rewrite /setD; case: eqP => // ei.
  by rewrite ei hm.
split.
- move=> i iN im; rewrite hD2; case: eqP => [->//|ne]; apply: h1 => //; lia.
- move=> i im; rewrite hD2; case: eqP => [ei|ne]; first by move: im; rewrite ei leqnn mN.
  by apply: h2; lia.
case: hqb => [->|/andP[a b]]; first by left.
right; rewrite b andbT; apply: leq_trans a; apply: Dmax_le => i iN; rewrite hD2.
by case: eqP => // ->; rewrite hm geq_minl.
Qed.

Lemma corr_rightE D i : i <= N -> corr_right D i = if i < N then minn (D i) (Qright i) else D i.
Proof.
move=> iN; have [h1 h2 _] := corr_right_inv D (leqnn N).
rewrite subnn in h1 h2; rewrite /corr_right; case: ltnP => h; first by rewrite h1.
by rewrite h2 // -leqNgt.
Qed.

Lemma corr_left_inv D k : k <= N ->
  let st := foldl (fun st n => corr_step n n st) (D, 1) (iota 1 k) in
  [/\ (forall i, 1 <= i <= k -> st.1 i = minn (D i) (Qleft i)),
      (forall i, ~~ (1 <= i <= k) -> st.1 i = D i) &
      st.2 = Qleft k \/ (Dmax st.1 <= st.2 <= Qleft k)].
Proof.
elim: k => [|k IH] kN.
  rewrite /=; split=> // [i|]; first by lia.
  by left; rewrite /Qleft big_geq.
have e : iota 1 k.+1 = iota 1 k ++ [:: k.+1] by rewrite -(addn1 k) iotaD addnC.
rewrite e foldl_cat /=.
move: (IH (ltnW kN)); set st := foldl _ _ _; case: st => [D1 qa] /= [h1 h2 h3].
have hQ : Qleft k.+1 = Qleft k * q k.+1 by rewrite /Qleft big_nat_recr.
have Q0 : 0 < q k.+1 by apply: q_pos; lia.
set m := k.+1 in hQ Q0 *.
have hm : D1 m = D m by apply: h2; lia.
set qb := if qa < Dmax D1 then _ else _.
have hqb : qb = Qleft m \/ (Dmax D1 <= qb <= Qleft m).
  rewrite /qb hQ; case: ltnP => hlt.
    case: h3 => [->|/andP[a b]]; first by left.
    by move: hlt; rewrite ltnNge a.
  right; rewrite hlt /=; case: h3 => [->|/andP[a b]]; first by rewrite leq_pmulr.
  by apply: leq_trans b _; rewrite leq_pmulr.
have hmin : minn (D m) qb = minn (D m) (Qleft m).
  case: hqb => [->//|/andP[a b]].
  have c : D m <= qb by rewrite -hm; apply: leq_trans a; apply: Dmax_ge; lia.
  by rewrite (minn_idPl c) (minn_idPl (leq_trans c b)).
set D2 := if qb < D1 m then _ else _.
have hD2 i : D2 i = if i == m then minn (D m) (Qleft m) else D1 i.
  rewrite /D2 hm -hmin; case: (ltnP qb (D m)) => c; rewrite /setD; case: eqP => // ei.
  by rewrite ei hm.
split.
- move=> i im; rewrite hD2; case: eqP => [->//|ne]; apply: h1 => //; lia.
- move=> i im; rewrite hD2; case: eqP => [ei|ne]; first by move: im; rewrite ei /m; lia.
  by apply: h2; lia.
case: hqb => [->|/andP[a b]]; first by left.
right; rewrite b andbT; apply: leq_trans a; apply: Dmax_le => i iN; rewrite hD2.
by case: eqP => // ->; rewrite hm geq_minl.
Qed.

Lemma corr_leftE D i : i <= N -> corr_left D i = if 0 < i then minn (D i) (Qleft i) else D i.
Proof.
move=> iN; have [h1 h2 _] := corr_left_inv D (leqnn N).
rewrite /corr_left; case: ltnP => h; first by rewrite h1 // h.
by rewrite h2 // ltnNge h.
Qed.

Lemma Qleft_pos n : n <= N -> 0 < Qleft n.
Proof.
move=> nN; rewrite /Qleft big_nat_cond prodn_cond_gt0 // => i; rewrite andbT => h.
by apply: q_pos; lia.
Qed.

Lemma Qright_pos n : 0 < Qright n.
Proof.
rewrite /Qright big_nat_cond prodn_cond_gt0 // => i; rewrite andbT => h.
by apply: q_pos; lia.
Qed.

Lemma correct_bond_dimE D n : n <= N ->
  correct_bond_dim D n =
  if (0 < n) && (n < N) then minn (D n) (minn (Qleft n) (Qright n)) else 1.
Proof.
move=> nN; rewrite /correct_bond_dim corr_leftE // corr_rightE // /setD.
have p1 := Qleft_pos nN; have p2 := Qright_pos n.
have [->|n0] := eqVneq n 0.
  rewrite ltnn /=; case: eqP => [<-//|ne]; rewrite lt0n eq_sym; case: eqP => // _.
  by apply/minn_idPl; apply: Qright_pos.
rewrite lt0n n0 /=; have [e|ne] := eqVneq n N.
  by rewrite e ltnn; apply/minn_idPl; rewrite -e.
by rewrite ltn_neqAle ne nN /= [minn (Qleft _) _]minnC minnA.
Qed.

End BondDim.

(* ---- initialize_state (mps_gen.py:181-209) -------------------------------- *)
Local Open Scope ring_scope.
Section InitState.
Variable C : numClosedFieldType.

(* the index loop of the unequal case: list of the index triples (s, x, y) written, in order; k is
   the number of remaining iterations *)
Fixpoint fill_loop (Dl Dr k x y s : nat) : seq (nat * nat * nat) :=
  if k is k'.+1 then
    (s, x, y) ::
    (let x := x.+1 in
     let y := y.+1 in
     if (Dl <= x)%N then fill_loop Dl Dr k' 0 y s.+1
     else if (Dr <= y)%N then fill_loop Dl Dr k' x 0 s.+1
     else fill_loop Dl Dr k' x y s)
  else [::].

(* indices written for one site with physical dimension q and bond dimensions Dl, Dr;
   sp.fill_diagonal(self.A[n][s], f) in the square case *)
Definition init_writes (q Dl Dr : nat) : seq (nat * nat * nat) :=
  if Dl == Dr then [seq (s, x, x) | s <- iota 0 q, x <- iota 0 Dl]
  else fill_loop Dl Dr (maxn Dr Dl) 0 0 0.

Definition in_shape (q Dl Dr : nat) (w : nat * nat * nat) : bool :=
  (w.1.1 < q)%N && (w.1.2 < Dl)%N && (w.2 < Dr)%N.

Definition init_f (q Dl Dr : nat) : C :=
  if (Dl < Dr)%N then 1 else sqrtC (q%:R^-1).

Definition init_tensor (q Dl Dr : nat) : nat -> 'M[C]_(Dl, Dr) :=
  fun s => \matrix_(x, y)
    if (s, val x, val y) \in init_writes q Dl Dr then init_f q Dl Dr else 0.

(* None is the IndexError raised by an assignment outside the array *)
Definition initialize_state (N : nat) (D q : nat -> nat) : option (tensors C D) :=
  if all (fun n => all (in_shape (q n) (D n) (D n.+1)) (init_writes (q n) (D n) (D n.+1))) (iota 0 N)
  then Some (fun n => init_tensor (q n) (D n) (D n.+1)) else None.

Lemma fill_loop_grow Dl Dr k i : (0 < Dl < Dr)%N -> (i + k <= Dr)%N ->
  fill_loop Dl Dr k (i %% Dl) i (i %/ Dl) = [seq (j %/ Dl, j %% Dl, j)%N | j <- iota i k].
Proof.
case/andP=> d0 dd; elim: k i => [|k IH] i h //=; congr (_ :: _).
have e := divn_eq i Dl; have lt := ltn_pmod i d0.
case: leqP => c.
  have e1 : i.+1 = ((i %/ Dl).+1 * Dl)%N by rewrite mulSn; lia.
  have a : (i.+1 %% Dl = 0)%N by rewrite e1 modnMl.
  have b : (i.+1 %/ Dl = (i %/ Dl).+1)%N by rewrite {1}e1 mulnK.
  by rewrite -IH; [rewrite a b | lia].
have e1 : i.+1 = (i %/ Dl * Dl + (i %% Dl).+1)%N by lia.
have a : (i.+1 %% Dl = (i %% Dl).+1)%N by rewrite {1}e1 modnMDl modn_small.
have b : (i.+1 %/ Dl = i %/ Dl)%N by rewrite {1}e1 divnMDl // (divn_small c) addn0.
case: leqP => c2; last by rewrite -IH; [rewrite a b | lia].
by case: k IH h => // k IH h; lia.
Qed.

Lemma fill_loop_shrink Dl Dr k i : (0 < Dr < Dl)%N -> (i + k <= Dl)%N ->
  fill_loop Dl Dr k i (i %% Dr) (i %/ Dr) = [seq (j %/ Dr, j, j %% Dr)%N | j <- iota i k].
Proof.
case/andP=> d0 dd; elim: k i => [|k IH] i h //=; congr (_ :: _).
have e := divn_eq i Dr; have lt := ltn_pmod i d0.
case: leqP => c2; first by case: k IH h => // k IH h; lia.
case: leqP => c.
  have e1 : i.+1 = ((i %/ Dr).+1 * Dr)%N by rewrite mulSn; lia.
  have a : (i.+1 %% Dr = 0)%N by rewrite e1 modnMl.
  have b : (i.+1 %/ Dr = (i %/ Dr).+1)%N by rewrite {1}e1 mulnK.
  by rewrite -IH; [rewrite a b | lia].
have e1 : i.+1 = (i %/ Dr * Dr + (i %% Dr).+1)%N by lia.
have a : (i.+1 %% Dr = (i %% Dr).+1)%N by rewrite {1}e1 modnMDl modn_small.
have b : (i.+1 %/ Dr = i %/ Dr)%N by rewrite {1}e1 divnMDl // (divn_small c) addn0.
by rewrite -IH; [rewrite a b | lia].
Qed.

(* which entries are written *)
Lemma mem_init_writes q Dl Dr s x y : (0 < Dl)%N -> (0 < Dr)%N -> (s < q)%N -> (x < Dl)%N -> (y < Dr)%N ->
  ((s, x, y) \in init_writes q Dl Dr) =
  if Dl == Dr then x == y else if (Dl < Dr)%N then y == (s * Dl + x)%N else x == (s * Dr + y)%N.
Proof.
move=> l0 r0 sq xl yr; rewrite /init_writes; case: eqP => [e|ne].
  apply/allpairsP/eqP => [[[s' x'] /= [_ _ [_ -> ->]]] //|<-].
  by exists (s, x); split=> //=; rewrite mem_iota.
case: ltnP => lr.
  have := @fill_loop_grow Dl Dr Dr 0; rewrite mod0n div0n l0 lr add0n ?(maxn_idPl (ltnW lr)) => -> //.
  apply/mapP/eqP => [[j hj [-> -> ->]]|ey]; first exact: divn_eq.
  exists y; first by rewrite mem_iota.
  by rewrite ey divnMDl // modnMDl divn_small // modn_small // addn0.
have lr' : (Dr < Dl)%N by lia.
have := @fill_loop_shrink Dl Dr Dl 0; rewrite mod0n div0n r0 lr' add0n ?(maxn_idPr (ltnW lr')) => -> //.
apply/mapP/eqP => [[j hj [-> -> ->]]|ex]; first exact: divn_eq.
exists x; first by rewrite mem_iota.
by rewrite ex divnMDl // modnMDl divn_small // modn_small // addn0.
Qed.

(* the assignments stay inside the array exactly if no bond changes by more than a factor q *)
Lemma init_in_shape q Dl Dr : (0 < q)%N -> (0 < Dl)%N -> (0 < Dr)%N ->
  all (in_shape q Dl Dr) (init_writes q Dl Dr) = (Dl <= q * Dr)%N && (Dr <= q * Dl)%N.
Proof.
move=> q0 l0 r0; rewrite /init_writes; case: eqP => [e|ne].
  rewrite -e !leq_pmull //; apply/allP => w /allpairsP[[s x] /= [hs hx ->]].
  by rewrite !mem_iota /= in hs hx; rewrite /in_shape /= hs hx.
case: (ltnP Dl Dr) => lr.
  have := @fill_loop_grow Dl Dr Dr 0; rewrite mod0n div0n l0 lr add0n ?(maxn_idPl (ltnW lr)) => -> //.
  have -> : (Dl <= q * Dr)%N by nia.
  apply/allP/idP => [h|h w /mapP[j hj ->]] /=.
    have /h : ((Dr.-1 %/ Dl, Dr.-1 %% Dl, Dr.-1)%N) \in [seq (j %/ Dl, j %% Dl, j)%N | j <- iota 0 Dr].
      by apply/mapP; exists Dr.-1 => //; rewrite mem_iota; lia.
    by rewrite /in_shape /= => /andP[/andP[h1 _] _]; rewrite ltn_divLR // in h1; lia.
  rewrite mem_iota /= add0n in hj; rewrite /in_shape /= hj ltn_pmod // ltn_divLR //; lia.
have lr' : (Dr < Dl)%N by lia.
have := @fill_loop_shrink Dl Dr Dl 0; rewrite mod0n div0n r0 lr' add0n ?(maxn_idPr (ltnW lr')) => -> //.
have -> : (Dr <= q * Dl)%N by nia.
rewrite andbT; apply/allP/idP => [h|h w /mapP[j hj ->]] /=.
  have /h : ((Dl.-1 %/ Dr, Dl.-1, Dl.-1 %% Dr)%N) \in [seq (j %/ Dr, j, j %% Dr)%N | j <- iota 0 Dl].
    by apply/mapP; exists Dl.-1 => //; rewrite mem_iota; lia.
  by rewrite /in_shape /= => /andP[/andP[h1 _] _]; rewrite ltn_divLR // in h1; lia.
rewrite mem_iota /= add0n in hj; rewrite /in_shape /= hj ltn_pmod // ltn_divLR //; lia.
Qed.

Section Site.
Variables (q Dl Dr : nat).
Hypotheses (q0 : (0 < q)%N) (l0 : (0 < Dl)%N) (r0 : (0 < Dr)%N).
Hypotheses (h1 : (Dl <= q * Dr)%N) (h2 : (Dr <= q * Dl)%N).
Let R (s x y : nat) : bool :=
  if Dl == Dr then x == y else if (Dl < Dr)%N then y == (s * Dl + x)%N else x == (s * Dr + y)%N.
Let f2 : C := if (Dl < Dr)%N then 1 else q%:R^-1.
Local Notation A := (init_tensor q Dl Dr).

Lemma init_f2E : (init_f q Dl Dr)^* * init_f q Dl Dr = f2.
Proof.
rewrite /init_f /f2; case: ifP => _; first by rewrite conjC1 mulr1.
have h : 0 <= (q%:R^-1 : C) by rewrite invr_ge0 ler0n.
have hr : sqrtC (q%:R^-1 : C) \is Num.real by rewrite ger0_real // sqrtC_ge0.
by rewrite (CrealP hr) -expr2 sqrtCK.
Qed.

Lemma f2_gt0 : 0 < f2.
Proof. by rewrite /f2; case: ifP => _; rewrite ?ltr01 // invr_gt0 ltr0n. Qed.

Lemma init_tensorE s x y : (s < q)%N -> A s x y = (R s x y)%:R * init_f q Dl Dr.
Proof.
move=> sq; rewrite mxE (mem_init_writes l0 r0 sq (ltn_ord x) (ltn_ord y)).
by rewrite /R; case: (if Dl == Dr then _ else _); rewrite ?mul1r ?mul0r.
Qed.

Lemma R_funl s x y y' : (y < Dr)%N -> (y' < Dr)%N -> R s x y -> R s x y' -> y = y'.
Proof.
rewrite /R => hy hy'; case: eqP => [_ /eqP -> /eqP //|_].
by case: ltnP => _ /eqP -> /eqP // /addnI.
Qed.
Lemma R_funr s x x' y : (x < Dl)%N -> (x' < Dl)%N -> R s x y -> R s x' y -> x = x'.
Proof.
rewrite /R => hx hx'; case: eqP => [_ /eqP -> /eqP //|_].
by case: ltnP => _ /eqP -> /eqP // /addnI.
Qed.

Lemma init_prod s x y s' x' y' : (s < q)%N -> (s' < q)%N ->
  (A s x y)^* * A s' x' y' = ((R s x y) && (R s' x' y'))%:R * f2.
Proof.
move=> hs hs'; rewrite !init_tensorE // rmorphM conjC_nat -init_f2E mulrACA -natrM mulnb.
by congr (_ * _).
Qed.

Lemma init_l_diag (v : 'rV[C]_Dl) :
  eps_l_noop q (diag_mx v) A A =
  diag_mx (\row_y \sum_(s < q) \sum_(x < Dl) (R s x y)%:R * f2 * v 0 x).
Proof.
apply/matrixP => y y'; rewrite summxE !mxE.
transitivity (\sum_(s < q) \sum_(x < Dl) ((R s x y) && (R s x y'))%:R * f2 * v 0 x).
  apply: eq_bigr => s _; rewrite mxE; apply: eq_bigr => x _.
  by rewrite adjE mul_diag_mx [(\matrix_(_, _) _) _ _]mxE mulrCA init_prod // mulrC.
case: eqP => [<-|ne].
  by rewrite mulr1n; apply: eq_bigr => s _; apply: eq_bigr => x _; rewrite andbb.
rewrite mulr0n big1 // => s _; rewrite big1 // => x _.
case: andP => [[a b]|_]; last by rewrite !mul0r.
by case: ne; apply/val_inj/(R_funl _ _ a b).
Qed.

Lemma init_r_diag (v : 'rV[C]_Dr) :
  eps_r_noop q (diag_mx v) A A =
  diag_mx (\row_x \sum_(s < q) \sum_(y < Dr) (R s x y)%:R * f2 * v 0 y).
Proof.
apply/matrixP => x x'; rewrite summxE !mxE.
transitivity (\sum_(s < q) \sum_(y < Dr) ((R s x y) && (R s x' y))%:R * f2 * v 0 y).
  apply: eq_bigr => s _; rewrite mxE; apply: eq_bigr => y _.
  rewrite adjE mul_mx_diag [(\matrix_(_, _) _) _ _]mxE mulrAC [A s x y * _]mulrC init_prod //.
  by rewrite andbC.
case: eqP => [<-|ne].
  by rewrite mulr1n; apply: eq_bigr => s _; apply: eq_bigr => y _; rewrite andbb.
rewrite mulr0n big1 // => s _; rewrite big1 // => y _.
case: andP => [[a b]|_]; last by rewrite !mul0r.
by case: ne; apply/val_inj/(R_funr _ _ a b).
Qed.

(* every column and every row is hit *)
Lemma R_col y : (y < Dr)%N -> exists s, exists x, [/\ (s < q)%N, (x < Dl)%N & R s x y].
Proof.
move=> hy; rewrite /R; case: eqP => [e|_]; first by exists 0%N, y; rewrite e eqxx.
case: ltnP => c.
  exists (y %/ Dl)%N, (y %% Dl)%N; rewrite ltn_pmod // -divn_eq eqxx ltn_divLR //; split=> //.
  exact: leq_trans hy h2.
by exists 0%N, y; split=> //; apply: leq_trans hy c.
Qed.
Lemma R_row x : (x < Dl)%N -> exists s, exists y, [/\ (s < q)%N, (y < Dr)%N & R s x y].
Proof.
move=> hx; rewrite /R; case: eqP => [e|_]; first by exists 0%N, x; rewrite -e eqxx.
case: ltnP => c; first by exists 0%N, x; split=> //; apply: ltn_trans hx c.
exists (x %/ Dr)%N, (x %% Dr)%N; rewrite ltn_pmod // -divn_eq eqxx ltn_divLR //; split=> //.
exact: leq_trans hx h1.
Qed.

Lemma init_l_pos (v : 'rV[C]_Dl) : (forall x, 0 < v 0 x) ->
  exists2 w : 'rV[C]_Dr, (forall y, 0 < w 0 y) & eps_l_noop q (diag_mx v) A A = diag_mx w.
Proof.
move=> v0; eexists; last exact: init_l_diag.
move=> y; rewrite mxE; have [s0 [x0 [hs hx hR]]] := R_col (ltn_ord y).
have t0 s (x : 'I_Dl) : 0 <= (R s x y)%:R * f2 * v 0 x.
  by apply: mulr_ge0; [apply: mulr_ge0; [exact: ler0n | exact: ltW f2_gt0] | exact: ltW].
rewrite (bigD1 (Ordinal hs)) //= ltr_paddr //; first by apply: sumr_ge0 => s _; apply: sumr_ge0.
rewrite (bigD1 (Ordinal hx)) //= ltr_paddr //; first by apply: sumr_ge0.
by rewrite hR mul1r mulr_gt0 ?f2_gt0.
Qed.

Lemma init_r_pos (v : 'rV[C]_Dr) : (forall x, 0 < v 0 x) ->
  exists2 w : 'rV[C]_Dl, (forall y, 0 < w 0 y) & eps_r_noop q (diag_mx v) A A = diag_mx w.
Proof.
move=> v0; eexists; last exact: init_r_diag.
move=> x; rewrite mxE; have [s0 [y0 [hs hy hR]]] := R_row (ltn_ord x).
have t0 s (y : 'I_Dr) : 0 <= (R s x y)%:R * f2 * v 0 y.
  by apply: mulr_ge0; [apply: mulr_ge0; [exact: ler0n | exact: ltW f2_gt0] | exact: ltW].
rewrite (bigD1 (Ordinal hs)) //= ltr_paddr //; first by apply: sumr_ge0 => s _; apply: sumr_ge0.
rewrite (bigD1 (Ordinal hy)) //= ltr_paddr //; first by apply: sumr_ge0.
by rewrite hR mul1r mulr_gt0 ?f2_gt0.
Qed.

(* the left environment 1 is reproduced unless the bond shrinks by less than a factor q *)
Lemma init_l_id : (Dl <= Dr)%N || (Dl == q * Dr)%N -> eps_l_noop q 1%:M A A = 1%:M.
Proof.
move=> hD; have e1 : (1%:M : 'M[C]_Dl) = diag_mx (const_mx 1) by rewrite diag_const_mx.
rewrite e1 init_l_diag -diag_const_mx; congr diag_mx; apply/rowP => y; rewrite !mxE.
under eq_bigr => s _ do under eq_bigr => x _ do rewrite mxE mulr1.
rewrite /R /f2; case: eqP => [e|ne].
  have -> : (Dl < Dr)%N = false by rewrite e ltnn.
  have hy : (y < Dl)%N by rewrite e.
  under eq_bigr => s _.
    rewrite (bigD1 (Ordinal hy)) //= eqxx mul1r big1 ?addr0; last first.
      by move=> x; rewrite -val_eqE /= => /negbTE ->; rewrite mul0r.
    over.
  by rewrite sumr_const card_ord -mulr_natl divff // pnatr_eq0 -lt0n.
case: ltnP => c.
  transitivity (\sum_(w < q * Dl) ((y == w :> nat)%:R : C)).
    have := sum_divmod q Dl (fun s x => ((y == s * Dl + x :> nat)%N%:R : C)) => sdm.
    transitivity (\sum_(w < q * Dl) ((y == (w %/ Dl) * Dl + w %% Dl :> nat)%N%:R : C)).
      by rewrite sdm; apply: eq_bigr => s _; apply: eq_bigr => x _; rewrite mulr1.
    by apply: eq_bigr => w _; rewrite -divn_eq.
  have hy : (y < q * Dl)%N by apply: leq_trans h2.
  rewrite (bigD1 (Ordinal hy)) //= eqxx big1 ?addr0 // => w.
  by rewrite -val_eqE /= eq_sym => /negbTE ->.
have e : Dl = (q * Dr)%N.
  by case/orP: hD => [|/eqP//]; lia.
have bnd (s : 'I_q) : (s * Dr + y < Dl)%N.
  by rewrite e; have := ltn_ord s; have := ltn_ord y; nia.
under eq_bigr => s _.
  rewrite (bigD1 (Ordinal (bnd s))) //= eqxx mul1r big1 ?addr0; last first.
    by move=> x; rewrite -val_eqE /= => /negbTE ->; rewrite mul0r.
  over.
by rewrite sumr_const card_ord -mulr_natl divff // pnatr_eq0 -lt0n.
Qed.
End Site.

End InitState.
Arguments init_tensor {C} q Dl Dr s.

Section InitChain.
Variable C : numClosedFieldType.

(* positive diagonal environments *)
Definition posdiag n (X : 'M[C]_n) := exists2 v : 'rV[C]_n, (forall i, 0 < v 0 i) & X = diag_mx v.

Lemma posdiag1 n : posdiag (1%:M : 'M[C]_n).
Proof.
exists (const_mx 1); first by move=> i; rewrite mxE ltr01.
by rewrite diag_const_mx.
Qed.

Lemma posdiag_unit n (X : 'M[C]_n) : posdiag X -> X \in unitmx.
Proof.
case=> v v0 ->; rewrite unitmxE det_diag unitfE prodf_seq_neq0.
by apply/allP => i _; rewrite /= gt_eqF.
Qed.

Lemma initialize_stateP N (D q : nat -> nat) (A : tensors C D) :
  initialize_state C N D q = Some A -> (forall n, (n <= N)%N -> (0 < D n)%N) ->
  (forall n, (n < N)%N -> (0 < q n)%N) ->
  forall n, (n < N)%N -> [/\ (D n <= q n * D n.+1)%N, (D n.+1 <= q n * D n)%N &
    A n = init_tensor (q n) (D n) (D n.+1)].
Proof.
rewrite /initialize_state; case: ifP => // /allP h [<-] D0 q0 n nN.
have := h n; rewrite mem_iota add0n nN init_in_shape ?q0 ?D0 //; last exact: ltnW.
by move=> /(_ isT)/andP[a b].
Qed.

Lemma initialize_state_ok N (D q : nat -> nat) : (forall n, (n <= N)%N -> (0 < D n)%N) ->
  (forall n, (n < N)%N -> (0 < q n)%N) ->
  initialize_state C N D q <> None <->
  (forall n, (n < N)%N -> (D n <= q n * D n.+1)%N /\ (D n.+1 <= q n * D n)%N).
Proof.
move=> D0 q0; rewrite /initialize_state; case: ifP => h; split=> //.
  move=> _ n nN; move/allP: h => /(_ n); rewrite mem_iota add0n nN init_in_shape ?q0 ?D0 //; last exact: ltnW.
  by move=> /(_ isT)/andP.
move=> hn; move/negbT/allPn: h => [n]; rewrite mem_iota add0n => nN.
rewrite init_in_shape ?q0 ?D0 //; last exact: ltnW.
by have [-> ->] := hn _ nN.
Qed.

Lemma init_l_one N (D q : nat -> nat) (A : tensors C D) (l : forall n, 'M[C]_(D n)) :
  initialize_state C N D q = Some A -> (forall n, (n <= N)%N -> (0 < D n)%N) ->
  (forall n, (n < N)%N -> (0 < q n)%N) ->
  (forall n, (n < N)%N -> (D n <= D n.+1)%N || (D n == q n * D n.+1)%N) ->
  up_l q A N 1%:M l -> forall n, (n <= N)%N -> l n = 1%:M.
Proof.
move=> hA D0 q0 hD [l0 hl]; elim=> [|n IH] nN; first exact: l0.
have [h1 h2 eA] := initialize_stateP hA D0 q0 nN.
rewrite hl // IH ?(ltnW nN) // eA init_l_id //; [exact: q0 | exact/D0/ltnW | exact: D0 | exact: hD].
Qed.

Lemma init_posdiag N (D q : nat -> nat) (A : tensors C D) (l r : forall n, 'M[C]_(D n)) :
  initialize_state C N D q = Some A -> (forall n, (n <= N)%N -> (0 < D n)%N) ->
  (forall n, (n < N)%N -> (0 < q n)%N) ->
  up_to_date q A N l r -> forall n, (n <= N)%N -> posdiag (l n) /\ posdiag (r n).
Proof.
move=> hA D0 q0 [[l0 hl] [rN hr]] n nN; split.
  elim: n nN => [|n IH] nN; first by rewrite l0; apply: posdiag1.
  have [h1 h2 eA] := initialize_stateP hA D0 q0 nN.
  have [v v0 e] := IH (ltnW nN); rewrite hl // e eA.
  have [w w0 ->] := init_l_pos (q0 _ nN) (D0 _ (ltnW nN)) (D0 _ nN) h2 v0.
  by exists w.
elim: (N - n)%N {-2}n nN (erefl (N - n)%N) => [|k IH] m mN e.
  have -> : m = N by lia.
  by rewrite rN; apply: posdiag1.
have mN' : (m < N)%N by lia.
have [h1 h2 eA] := initialize_stateP hA D0 q0 mN'.
have [|v v0 ev] := IH m.+1 mN'; first by lia.
rewrite hr // ev eA.
have [w w0 ->] := init_r_pos (q0 _ mN') (D0 _ mN) (D0 _ mN') h1 v0.
by exists w.
Qed.

(* ---- set_state_product (mps_gen.py:212-235) --------------------------------
   qp is the Python array self.q with the ignored entry qp 0; psi n is the vector psi[n] (a list);
   the loop for site n+1 runs over range(self.q[n]).  None: IndexError. *)
Definition set_state_product (N : nat) (D qp : nat -> nat) (psi : nat -> seq C) : option (tensors C D) :=
  if all (fun n => all (fun s => (s < size (psi n)) && (s < qp n.+1) && (0 < D n) && (0 < D n.+1))%N
                       (iota 0 (qp n))) (iota 0 N)
  then Some (fun n s => if (s < qp n)%N then nth 0 (psi n) s *: pid_mx 1 else 0)
  else None.

Lemma amp_product (D : nat -> nat) (a : nat -> nat -> C) (A : tensors C D) N n c :
  (n + size c)%N = N -> D N = 1%N -> (forall m, (n <= m <= N)%N -> (0 < D m)%N) ->
  (forall m s, (n <= m < N)%N -> A m s = a m s *: pid_mx 1) ->
  amp A N n c = (\prod_(i < size c) a (n + i)%N (nth 0%N c i)) *: pid_mx 1.
Proof.
elim: c n => [|s c IH] n /=.
  by rewrite addn0 => e DN _ _; subst n; rewrite big_ord0 scale1r DN.
rewrite addnS -addSn => h DN D0 hA; rewrite IH //; last first.
- by move=> m s' hm; apply: hA; lia.
- by move=> m hm; apply: D0; lia.
rewrite hA; last by lia.
rewrite -scalemxAl -scalemxAr scalerA mul_pid_mx big_ord_recl /= addn0.
have -> : minn (D n.+1) (minn 1 1) = 1%N by rewrite minnn; apply/minn_idPr; apply: D0; lia.
congr (_ * _ *: _); apply: eq_bigr => i _; by rewrite addSnnS.
Qed.

Lemma set_state_productE N D qp psi A c : set_state_product N D qp psi = Some A ->
  D 0%N = 1%N -> D N = 1%N -> (forall n, (n <= N)%N -> (0 < D n)%N) ->
  (forall n, (n < N)%N -> qp n = qp n.+1) -> c \in cfgs (fun n => qp n.+1) N 0 ->
  amplitude N A c = \prod_(i < N) nth 0 (psi i) (nth 0%N c i).
Proof.
rewrite /set_state_product; case: ifP => // _ [eA] D1 DN D0 hq /cfgsP[sz hc].
have e : (0 + size c)%N = N by rewrite sz.
have := @amp_product D (fun n s => if (s < qp n)%N then nth 0 (psi n) s else 0) A N 0 c e DN.
rewrite /amplitude /Spec.psi => ->.
- rewrite (entry0_1 _ D1 DN) !mxE /= mulr1 sz; apply: eq_bigr => i _.
  by rewrite add0n hq // (hc _ (ltn_ord i)).
- by move=> m hm; apply: D0; case/andP: hm.
- by move=> m s _; rewrite -eA; case: ifP => _; rewrite ?scale0r.
Qed.

Lemma set_state_product_q0 N D qp psi A c : set_state_product N.+1 D qp psi = Some A ->
  qp 0%N = 0%N -> size c = N.+1 -> amplitude N.+1 A c = 0.
Proof.
rewrite /set_state_product; case: ifP => // _ [<-] q0; case: c => // s c _.
by rewrite /amplitude /Spec.psi /= q0 mul0mx entry00.
Qed.

Lemma set_state_product_err N D qp psi n : (n < N)%N -> (qp n.+1 < qp n)%N ->
  set_state_product N D qp psi = None.
Proof.
move=> nN h; rewrite /set_state_product; case: ifP => // /allP /(_ n).
rewrite mem_iota add0n nN => /(_ isT) /allP /(_ (qp n.+1)).
by rewrite mem_iota add0n h ltnn andbF /= => /(_ isT).
Qed.

(* ---- mps_from_tensors_gen (mps_gen.py:43-58) --------------------------------
   D, q (site n is Python site n+1) are read off the shapes of the given tensors; the constructor
   corrects D and fills the arrays; the assignment s.A[n][:] = A[n] needs equal shapes (dimensions of
   the source equal to 1 could broadcast, but the corrected dimension is then 1 as well). *)
Definition mps_from_tensors (N : nat) (D q : nat -> nat) (A : tensors C D) : option (tensors C D) :=
  let D' := correct_bond_dim N (fun n => q n.-1) D in
  if initialize_state C N D' q is None then None
  else if all (fun n => D' n == D n) (iota 0 N.+1) then Some A else None.

End InitChain.
