(* SwTdvpProofs.v -- the sandwich class: the loops of calc_K, the gradient at a window site, the centre site. *)
From mathcomp Require Import all_ssreflect all_algebra.
From mathcomp Require Import zify.
From Verif Require Import Base Spec Eps Chain ChainProofs LinAlg Struct Factor Tangent Tangent2 BTangent BMix Tdvp TdvpProofs
  TdvpProofs2 TdvpProofs3 UTdvpL SwTdvp.
Set Implicit Arguments.
Unset Strict Implicit.
Unset Printing Implicit Defensive.
Import Order.TTheory GRing.Theory Num.Theory.
Local Open Scope ring_scope.

Lemma iotaSr lo n : iota lo n.+1 = rcons (iota lo n) (lo + n)%N.
Proof. by rewrite -addn1 iotaD cats1. Qed.

Section Loops.
Variables (C : numClosedFieldType) (D q : nat -> nat) (far : nat).
Local Notation bonds := (forall n, 'M[C]_(D n)).
Local Notation sbonds := (forall n, smat C (D n) (D n)).
Variables (A : tensors C D) (l r : sbonds).
Local Notation L n := (toarray (l n)).
Local Notation R n := (toarray (r n)).

Lemma setK_same (K : bonds) n x : @setK C D K n x n = x. Proof. exact: upd_same. Qed.
Lemma setK_other (K : bonds) n x k : n != k -> @setK C D K n x k = K k. Proof. by move=> h; exact: upd_other. Qed.
Lemma seth_same (hx : nat -> C) n x : seth hx n x n = x. Proof. exact: upd_same. Qed.
Lemma seth_other (hx : nat -> C) n x k : n != k -> seth hx n x k = hx k. Proof. by move=> h; exact: upd_other. Qed.

Lemma swK_loop hs (Hr : forall m, option 'M[C]_(D m)) (Kg : bonds) cnt lo (st : bonds * (nat -> C)) :
  (lo + cnt + hs <= far.+1)%N -> st.1 (lo + cnt)%N = Kg (lo + cnt)%N ->
  (forall j, (lo <= j < lo + cnt)%N -> isSome (Hr j) /\ Kg j = eps_r_noop (q j) (Kg j.+1) (A j) (A j) + odflt 0 (Hr j)) ->
  let st' := foldl (calc_K_step q far A l hs Hr) st (rev (iota lo cnt)) in
  [/\ forall n, (lo <= n <= lo + cnt)%N -> st'.1 n = Kg n,
      forall n, (lo <= n < lo + cnt)%N -> st'.2 n = adot (L n) (odflt 0 (Hr n))
    & forall n, ~~ (lo <= n < lo + cnt)%N -> st'.1 n = st.1 n /\ st'.2 n = st.2 n].
Proof.
elim: cnt lo => [|cnt IH] lo hf e0 h /=.
  split=> //; last by move=> n; lia.
  by move=> n hn; have -> : n = (lo + 0)%N by lia.
have c1 : (lo.+1 + cnt + hs <= far.+1)%N by lia.
have c2 : st.1 (lo.+1 + cnt)%N = Kg (lo.+1 + cnt)%N by rewrite addSnnS.
have c3 j : (lo.+1 <= j < lo.+1 + cnt)%N -> isSome (Hr j) /\ Kg j = eps_r_noop (q j) (Kg j.+1) (A j) (A j) + odflt 0 (Hr j).
  by move=> hj; apply: h; lia.
have [i1 i2 i3] := IH lo.+1 c1 c2 c3.
rewrite rev_cons foldl_rcons; move: (foldl _ _ _) i1 i2 i3 => [K hx] /= i1 i2 i3.
have hf' : (lo + hs <= far)%N by lia.
have hlo : (lo <= lo < lo + cnt.+1)%N by lia.
have [] := h lo hlo; rewrite /calc_K_step hf' => s0 s1; case eh: (Hr lo) s0 s1 => [x|] //= _ s1.
split=> n hn /=.
- case: (eqVneq lo n) => [<-|ne]; last by rewrite setK_other // i1 //; lia.
  by rewrite setK_same s1 i1 //; lia.
- case: (eqVneq lo n) => [<-|ne]; last by rewrite seth_other // i2 //; lia.
  by rewrite seth_same eh.
- have ne : lo != n by apply/eqP=> e; lia.
  by rewrite setK_other // seth_other //; apply: i3; lia.
Qed.

Lemma swKL2_loop (Cs : C2arr C D) (Kg : bonds) (Hl : forall j, 'M[C]_(D j.+2)) cnt lo (st : bonds * (nat -> C)) :
  st.1 lo.+1 = Kg lo.+1 ->
  (forall j, (lo <= j < lo + cnt)%N -> exists2 c, Cs j = Some c &
     eps_l_op_2s_AA12_C34 (q j) (q j.+1) (L j) (calc_AAs A j) c = Hl j /\
     Kg j.+2 = eps_l_noop (q j.+1) (Kg j.+1) (A j.+1) (A j.+1) + Hl j) ->
  exists2 st', foldl (calc_K_l2_step q A l r Cs) (Some st) (iota lo cnt) = Some st' &
  [/\ forall n, (lo < n <= lo + cnt + 1)%N -> st'.1 n = Kg n,
      forall n, (lo <= n < lo + cnt)%N -> st'.2 n = \tr (Hl n *m R n.+2)
    & forall n, ~~ (lo <= n < lo + cnt)%N -> st'.2 n = st.2 n].
Proof.
move=> e0; elim: cnt => [|cnt IH] h.
  exists st => //; split=> //; last by move=> n; lia.
  by move=> n hn; have -> : n = lo.+1 by lia.
have [j hj|[K hx] e [i1 i2 i3]] := IH; first by apply: h; lia.
rewrite iotaSr foldl_rcons e /=; move: i1 i2 i3 => /= i1 i2 i3.
have hlo : (lo <= lo + cnt < lo + cnt.+1)%N by lia.
have [c -> [-> ek]] := h _ hlo; eexists; first by reflexivity.
split=> n hn /=.
- case: (eqVneq (lo + cnt).+2 n) => [<-|ne]; last by rewrite setK_other // i1 //; lia.
  by rewrite setK_same ek i1 //; lia.
- case: (eqVneq (lo + cnt)%N n) => [<-|ne]; last by rewrite seth_other // i2 //; lia.
  by rewrite seth_same adot_noconjE.
- have ne : (lo + cnt)%N != n by apply/eqP=> e'; lia.
  by rewrite seth_other // i3 //; lia.
Qed.
Lemma swKL3_loop (Cs : C3arr C D) (Kg : bonds) (Hl : forall j, 'M[C]_(D j.+3)) cnt lo (st : bonds * (nat -> C)) :
  st.1 lo.+2 = Kg lo.+2 ->
  (forall j, (lo <= j < lo + cnt)%N -> exists2 c, Cs j = Some c &
     eps_l_op_3s_AAA123_C456 (q j) (q j.+1) (q j.+2) (L j) (calc_AAA_AA (calc_AAs A j) (A j.+2)) c = Hl j /\
     Kg j.+3 = eps_l_noop (q j.+2) (Kg j.+2) (A j.+2) (A j.+2) + Hl j) ->
  exists2 st', foldl (calc_K_l3_step q A l r Cs) (Some st) (iota lo cnt) = Some st' &
  [/\ forall n, (lo.+1 < n <= lo + cnt + 2)%N -> st'.1 n = Kg n,
      forall n, (lo <= n < lo + cnt)%N -> st'.2 n.+1 = \tr (Hl n *m R n.+3)
    & forall n, ~~ (lo < n <= lo + cnt)%N -> st'.2 n = st.2 n].
Proof.
move=> e0; elim: cnt => [|cnt IH] h.
  exists st => //; split=> //; last by move=> n; lia.
  by move=> n hn; have -> : n = lo.+2 by lia.
have [j hj|[K hx] e [i1 i2 i3]] := IH; first by apply: h; lia.
rewrite iotaSr foldl_rcons e /=; move: i1 i2 i3 => /= i1 i2 i3.
have hlo : (lo <= lo + cnt < lo + cnt.+1)%N by lia.
have [c -> [-> ek]] := h _ hlo; eexists; first by reflexivity.
split=> n hn /=.
- case: (eqVneq (lo + cnt).+3 n) => [<-|ne]; last by rewrite setK_other // i1 //; lia.
  by rewrite setK_same ek i1 //; lia.
- case: (eqVneq (lo + cnt)%N n) => [<-|ne]; last by rewrite seth_other ?eqSS // i2 //; lia.
  by rewrite seth_same adot_noconjE.
- have ne : (lo + cnt).+1 != n by apply/eqP=> e'; lia.
  by rewrite seth_other // i3 //; lia.
Qed.
End Loops.

(* ---- the gradient at a site, two- and three-site terms ---- *)
Section Grad.
Variables (C : numClosedFieldType) (D q : nat -> nat).
Local Notation bonds := (forall n, 'M[C]_(D n)).
Local Notation sbonds := (forall n, smat C (D n) (D n)).
Variables (M far : nat) (lb : 'M[C]_(D 0)) (rb : 'M[C]_(D M)) (A : tensors C D) (l r : sbonds).
Local Notation L n := (toarray (l n)).
Local Notation R n := (toarray (r n)).
Hypotheses (hl : up_l q A M lb (fun n => L n)) (hr : up_r q A M rb (fun n => R n)) (hlb : herm lb).
Variables (e : nat -> C) (K KL : bonds).

Lemma sw_grad2 ham m T : Ksub q A (fun n => R n) K 2 (O2 ham) e M 0 -> (forall k, KLsub q 2 A (fun n => L n) (O2 ham) e KL k) ->
  (0 < m)%N -> (m.+2 <= M)%N -> (m.+2 < far)%N -> (forall j, (m <= j.+1)%N -> (j <= m)%N -> e j = 0) ->
  Gfun q 2 lb rb A (O2 ham) e K KL (@rep C D A m T) =
  tdot q T (fun s => KL m *m A m s *m R m.+1) + tdot q T (fun s => gl2 q A l ham m s *m R m.+1)
  + tdot q T (fun s => L m *m gr2 q far A r ham m s) + tdot q T (fun s => L m *m A m s *m K m.+1).
Proof.
move=> hK hKL m0 mM mf he; rewrite (gradient_b hl hr hlb (isT : (1 < 2)%N) T hK (hKL m)) //; [| lia| by move=> j h1 h2; apply: he; lia].
rewrite -!addrA; congr (_ + _); rewrite addrA; congr (_ + _).
case: m m0 mM mf {he} T => // m _ mM mf T; rewrite big_nat_recr /=; last by lia.
have -> : (m.+2 - 2 = m)%N by lia.
rewrite big_nat1 addn2 addn2 cover2b cover2a; congr (_ + _); apply: eq_tdot => s _.
by rewrite /gr2 ifT //; lia.
Qed.
Lemma sw_grad3 ham m T : Ksub q A (fun n => R n) K 3 (O3 ham) e M 0 -> (forall k, KLsub q 3 A (fun n => L n) (O3 ham) e KL k) ->
  (1 < m)%N -> (m.+3 <= M)%N -> (m.+3 < far)%N -> (forall j, (m <= j.+2)%N -> (j <= m)%N -> e j = 0) ->
  Gfun q 3 lb rb A (O3 ham) e K KL (@rep C D A m T) =
  tdot q T (fun s => KL m *m A m s *m R m.+1) + tdot q T (fun s => gl3 q A l ham m s *m R m.+1)
  + tdot q T (gm3 q far A l r ham m)
  + tdot q T (fun s => L m *m gr3 q far A r ham m s) + tdot q T (fun s => L m *m A m s *m K m.+1).
Proof.
move=> hK hKL m0 mM mf he; rewrite (gradient_b hl hr hlb (isT : (1 < 3)%N) T hK (hKL m)) //; [| lia| by move=> j h1 h2; apply: he; lia].
rewrite -!addrA; congr (_ + _); rewrite !addrA; congr (_ + _).
case: m m0 mM mf {he} T => [|[|m]] // _ mM mf T; rewrite big_nat_recr /=; last by lia.
rewrite big_nat_recr /=; last by lia.
have -> : (m.+3 - 3 = m)%N by lia.
rewrite big_nat1 !addn3 cover3c cover3b cover3a; congr (_ + _ + _); apply: eq_tdot => s _.
  by rewrite ifT //; lia.
by rewrite /gr3 ifT //; lia.
Qed.
End Grad.

(* ---- gauge-fixed sites: x holds the components of the functional ---- *)
Section Site.
Variables (C : numClosedFieldType) (D q : nat -> nat).
Local Notation bonds := (forall n, 'M[C]_(D n)).
Local Notation sbonds := (forall n, smat C (D n) (D n)).
Variables (M : nat) (lb : 'M[C]_(D 0)) (rb : 'M[C]_(D M)) (A : tensors C D) (l r : sbonds).
Local Notation L n := (toarray (l n)).
Local Notation R n := (toarray (r n)).
Hypotheses (hl : up_l q A M lb (fun n => L n)) (hr : up_r q A M rb (fun n => R n)) (hlb : herm lb) (hrb : herm rb).
Variables (eigh : eigh_routine C) (qrf : qrf_routine C) (tol : C).
Hypotheses (eighP : eigh_contract eigh) (qrfP : qrf_contract qrf) (tol0 : 0 <= tol).
Local Notation Br x := (Bpar_r A l r eigh qrf tol x).
Local Notation Bl x := (Bpar_l A l r eigh qrf tol x).
Local Notation bd := (bdotst q M lb rb).
Variable m : nat.
Hypotheses (mM : (m < M)%N) (fL : full tol (L m)) (fR : full tol (R m.+1)).
Variable Gf : (nat -> 'M[C]_(D m, D m.+1)) -> C.
Hypothesis Gext : forall T T', (forall s, (s < q m)%N -> T s = T' s) -> Gf T = Gf T'.
Let hL := bl_herm hl hlb (ltnW mM).
Let hR := br_herm hr hrb mM.

Lemma rep_psi_ext T T' Phi : (forall s, (s < q m)%N -> T s = T' s) ->
  bd (psi (@rep C D A m T) M) Phi = bd (psi (@rep C D A m T') M) Phi.
Proof.
move=> h; apply: bd_ext => c hc; apply: (@amp_rep_ext C D q A M 0 m T T' c); rewrite ?subn0 //.
Qed.
Lemma rep_psi_extr T T' phi : (forall s, (s < q m)%N -> T s = T' s) ->
  bd phi (psi (@rep C D A m T) M) = bd phi (psi (@rep C D A m T') M).
Proof.
move=> h; apply: bd_extr => c hc; apply: (@amp_rep_ext C D q A M 0 m T T' c); rewrite ?subn0 //.
Qed.
Lemma site_r (x : 'M[C]_(D m, kr D q m)) T : R m \in unitmx -> (forall y, Gf (Br y) = adot y x) ->
  rgauge q A (fun n => R n) T -> Gf T = bd (psi (rep A T) M) (psi (rep A (Br x)) M).
Proof.
move=> u hx g; have un : eps_r_noop (q m) (R m.+1) (A m) (A m) \in unitmx by have [_ <-] := hr.
have [y ey] := Br_complete eighP qrfP tol0 hL hR fL fR un g.
rewrite (Gext ey) hx (rep_psi_ext _ ey) (brep_gram hl hr hlb _ _ mM).
by rewrite (gram_Br A eighP qrfP tol0 hL hR).
Qed.
Lemma site_l (x : 'M[C]_(kl D q m, D m.+1)) T : L m.+1 \in unitmx -> (forall y, Gf (Bl y) = adot y x) ->
  lgauge q A (fun n => L n) T -> Gf T = bd (psi (rep A T) M) (psi (rep A (Bl x)) M).
Proof.
move=> u hx g; have un : eps_l_noop (q m) (L m) (A m) (A m) \in unitmx by have [_ <-] := hl.
have g' := iffLR (blgauge_adj hl hlb T mM) g.
have [y ey] := Bl_complete eighP qrfP tol0 hL hR fL fR un g'.
rewrite (Gext ey) hx (rep_psi_ext _ ey) (brep_gram hl hr hlb _ _ mM).
by rewrite (gram_Bl A eighP qrfP tol0 hL hR).
Qed.
Lemma sw_Bpar_rE (x : 'M[C]_(D m, kr D q m)) s : sw_Bpar_r A l r eigh qrf tol x s = Br x s.
Proof.
have [h1 h2 h3 h4] := rsE eighP tol0 hR.
by rewrite /sw_Bpar_r /Bpar_r adjM h2 !mulmxA.
Qed.
Lemma norm_r (x : 'M[C]_(D m, kr D q m)) : bd (psi (rep A (Br x)) M) (psi (rep A (Br x)) M) = adot x x.
Proof. by rewrite (brep_gram hl hr hlb _ _ mM) (gram_Br A eighP qrfP tol0 hL hR). Qed.
Lemma norm_l (x : 'M[C]_(kl D q m, D m.+1)) : bd (psi (rep A (Bl x)) M) (psi (rep A (Bl x)) M) = adot x x.
Proof. by rewrite (brep_gram hl hr hlb _ _ mM) (gram_Bl A eighP qrfP tol0 hL hR). Qed.
Lemma norm_c (B : nat -> 'M[C]_(D m, D m.+1)) : bd (psi (rep A B) M) (psi (rep A B) M) = sw_eta_c q l r B.
Proof.
rewrite (brep_gram hl hr hlb _ _ mM) /sw_eta_c adotE hL /eps_r_noop mulmx_sumr tr_sum.
by apply: eq_bigr => s _; rewrite !mulmxA.
Qed.
End Site.

Lemma sw_invE (C : numClosedFieldType) (eigh : eigh_routine C) n (x : smat C n n) : eigh_contract eigh -> herm (toarray x) ->
  toarray x \in unitmx -> sw_inv eigh x = invmx (toarray x).
Proof.
move=> eP hx ux; rewrite /sw_inv; case es: (sinv x) => [y|]; last exact: invmhE.
suff h : toarray x *m toarray y = 1%:M by rewrite -[LHS](mulKmx ux) h mulmx1.
apply: sinvE => // i; move: es ux {hx}; move: i.
have gen k (z : smat C n k) (ek : k = n) : isSome (match z in smat _ m0 n0 return option (smat C m0 n0) with
   | SDense _ _ _ => None | SDiag _ d => Some (SDiag (\row_i (d 0 i)^-1)) | SEye n0 => Some (SEye C n0) end) ->
   castmx (erefl, ek) (toarray z) \in unitmx -> forall i : 'I_n, castmx (erefl, ek) (toarray z) i i != 0.
  case: z ek => [n1 n2 d|n1 d|n1] ek //=; rewrite (eq_irrelevance ek erefl) castmx_id => _.
    have -> : \matrix_(i, j) (if i == j then d 0 i else 0) = diag_mx d.
      by apply/matrixP=> i j; rewrite !mxE; case: (i == j).
    rewrite unitmxE det_diag => /unitrP[w [h _]] i; rewrite !mxE eqxx mulr1n.
    by apply/eqP=> h0; move: h; rewrite (bigD1 i) //= h0 mul0r mulr0 => /eqP; rewrite eq_sym oner_eq0.
  by move=> _ i; rewrite !mxE eqxx oner_eq0.
move=> i es u; have hs : isSome (sinv x) by rewrite es.
by have := gen n x erefl hs; rewrite castmx_id => g; apply: g.
Qed.

(* ---- calc_B from its parts ---- *)
Section All.
Variables (C : numClosedFieldType) (D q : nat -> nat) (a N Nc M w : nat).
Local Notation bonds := (forall n, 'M[C]_(D n)).
Local Notation sbonds := (forall n, smat C (D n) (D n)).
Variables (lb : 'M[C]_(D 0)) (rb : 'M[C]_(D M)) (A : tensors C D) (l r : sbonds).
Local Notation L n := (toarray (l n)).
Local Notation R n := (toarray (r n)).
Hypotheses (hl : up_l q A M lb (fun n => L n)) (hr : up_r q A M rb (fun n => R n)) (hlb : herm lb) (hrb : herm rb).
Variables (eigh : eigh_routine C) (qrf : qrf_routine C) (tol : C).
Hypotheses (eighP : eigh_contract eigh) (qrfP : qrf_contract qrf) (tol0 : 0 <= tol).
Hypotheses (w2 : (1 < w)%N) (ha : (w.-1 <= a)%N) (hNc : (0 < Nc <= N)%N) (hM : (a + N + w <= M)%N).
Variables (O : nat -> seq nat -> seq nat -> C) (e : nat -> C) (Kb KLb : bonds).
Hypotheses (fL : forall m, (a < m <= a + N)%N -> full tol (L m)) (fR : forall m, (a < m <= a + N)%N -> full tol (R m.+1)).
Local Notation G := (Gfun q w lb rb A O e Kb KLb).
Local Notation bd := (bdotst q M lb rb).
Local Notation Br x := (Bpar_r A l r eigh qrf tol x).
Local Notation Bl x := (Bpar_l A l r eigh qrf tol x).
Variables (xr : forall m, option 'M[C]_(D m, kr D q m)) (xl : forall m, option 'M[C]_(kl D q m, D m.+1)).
Variables (Bc : forall m, option (nat -> 'M[C]_(D m, D m.+1))) (E : C).
Hypothesis hxr : forall m, (a + Nc < m <= a + N)%N -> exists2 x, xr m = Some x & forall y, G (rep A (Br y)) = adot y x.
Hypothesis hxl : forall m, (a < m < a + Nc)%N -> exists2 x, xl m = Some x & forall y, G (rep A (Bl y)) = adot y x.
Hypothesis hBc : exists2 B, Bc (a + Nc)%N = Some B & forall T : nat -> 'M[C]_(D (a + Nc), D (a + Nc).+1),
  G (rep A T) - E * bd (psi (rep A T) M) (psi A M) = bd (psi (rep A T) M) (psi (rep A B) M).

(* the tangent vector of the whole window *)
Definition sw_tv (B : forall m, option (nat -> 'M[C]_(D m, D m.+1))) := tvw M A a.+1 N (otens B).

Lemma sw_B_all : exists B eta,
  [/\ sw_calc_B a N (sw_B_n a Nc A l r eigh qrf tol xr xl Bc) = Some (B, eta),
      forall m (T : nat -> 'M[C]_(D m, D m.+1)), (a < m <= a + N)%N ->
        G (rep A T) - E * bd (psi (rep A T) M) (psi A M) = bd (psi (rep A T) M) (sw_tv B),
      (forall m, (a < m < a + Nc)%N -> lgauge q A (fun n => L n) (otens B m)) /\
      (forall m, (a + Nc < m <= a + N)%N -> rgauge q A (fun n => R n) (otens B m)),
      eta = sqrtC (bd (sw_tv B) (sw_tv B)) &
      Bc (a + Nc)%N = B (a + Nc)%N].
Proof.
have unL m : (a < m <= a + N)%N -> L m \in unitmx by move=> h; apply: full_unit tol0 _ _ _; exact: fL.
have unR m : (a < m <= a + N)%N -> R m.+1 \in unitmx by move=> h; apply: full_unit tol0 _ _ _; exact: fR.
pose Bn := sw_B_n a Nc A l r eigh qrf tol xr xl Bc.
pose B : forall m, option (nat -> 'M[C]_(D m, D m.+1)) := fun m => if Bn m is Some b then b.1 else None.
have hall : all (fun m => Bn m) (iota a.+1 N).
  apply/allP=> m; rewrite mem_iota => hm; rewrite /Bn /sw_B_n; case: eqP => [->|ne].
    by have [b ->] := hBc.
  case: ifP => h1.
    by case: ifP => // _; have [|x -> _] // := hxr (m := m); lia.
  by case: ifP => // _; have [|x -> _] // := hxl (m := m); lia.
exists B, (sqrtC (\sum_(k < N) (if Bn (a.+1 + k)%N is Some b then b.2 else 0))).
have eBr m : (a + Nc < m <= a + N)%N -> exists x : 'M[C]_(D m, kr D q m), [/\ forall s, otens B m s = Br x s,
    (forall y, G (rep A (Br y)) = adot y x) & (if Bn m is Some b then b.2 else 0) = adot x x].
  move=> hm; have [x ex hx] := hxr hm; exists x; have mM : (m < M)%N by lia.
  have ne : (m == a + Nc)%N = false by apply/eqP; lia.
  have h1 : (a + Nc < m)%N by lia.
  split=> // [s|]; rewrite /otens /B /Bn /sw_B_n ne h1; case: ifP => /= h.
  - by have [-> _] := Br_empty A l r eigh qrf tol x h.
  - by rewrite ex /= (sw_Bpar_rE l hr hrb qrf eighP tol0 mM).
  - by have [_ ->] := Br_empty A l r eigh qrf tol x h; rewrite adot0r.
  - by rewrite ex.
have eBl m : (a < m < a + Nc)%N -> exists x : 'M[C]_(kl D q m, D m.+1), [/\ forall s, otens B m s = Bl x s,
    (forall y, G (rep A (Bl y)) = adot y x) & (if Bn m is Some b then b.2 else 0) = adot x x].
  move=> hm; have [x ex hx] := hxl hm; exists x; have mM : (m < M)%N by lia.
  have ne : (m == a + Nc)%N = false by apply/eqP; lia.
  have h1 : (a + Nc < m)%N = false by lia.
  split=> // [s|]; rewrite /otens /B /Bn /sw_B_n ne h1; case: ifP => /= h.
  - by have [-> _] := Bl_empty A l r eigh qrf tol x h.
  - by rewrite ex /=.
  - by have [_ ->] := Bl_empty A l r eigh qrf tol x h; rewrite adot0r.
  - by rewrite ex.
have [Bcc eBc hBcc] := hBc.
have eBn : Bn (a + Nc)%N = Some (Some Bcc, sw_eta_c q l r Bcc) by rewrite /Bn /sw_B_n eqxx eBc.
have eB : otens B (a + Nc)%N = Bcc by rewrite /otens /B eBn.
have gl m : (a < m < a + Nc)%N -> lgauge q A (fun n => L n) (otens B m).
  move=> hm; have [x [ex _ _]] := eBl m hm; have mM : (m < M)%N by lia.
  have := Bpar_l_gauge A eighP qrfP tol0 (bl_herm hl hlb (ltnW mM)) (br_herm hr hrb mM) x.
  by rewrite /lgauge /eps_l_noop => g; rewrite -[RHS]g; apply: eq_bigr => s _; rewrite ex.
have gr m : (a + Nc < m <= a + N)%N -> rgauge q A (fun n => R n) (otens B m).
  move=> hm; have [x [ex _ _]] := eBr m hm; have mM : (m < M)%N by lia.
  have := Bpar_r_gauge A eighP qrfP tol0 (bl_herm hl hlb (ltnW mM)) (br_herm hr hrb mM) x.
  by rewrite /rgauge /eps_r_noop => g; rewrite -[RHS]g; apply: eq_bigr => s _; rewrite ex.
have BL m : (a.+1 <= m < a + Nc)%N -> lgauge q A (fun n => L n) (otens B m) /\ forall T : nat -> 'M[C]_(D m, D m.+1),
    lgauge q A (fun n => L n) T -> G (rep A T) = bd (psi (rep A T) M) (psi (rep A (otens B m)) M).
  move=> hm; split; first exact: gl.
  move=> T gT; have [x [ex hx _]] := eBl m hm; have mM : (m < M)%N by lia.
  rewrite (rep_psi_extr lb rb A (T' := Bl x)); last by move=> s _; rewrite ex.
  apply: (site_l hl hr hlb hrb eighP qrfP tol0 mM _ _ (Gf := fun T => G (rep A T)) _ _ hx gT); [apply: fL|apply: fR| |apply: unL]; try lia.
  by move=> T1 T2; apply: Gfun_ext.
have BR m : (a + Nc < m < a.+1 + N)%N -> rgauge q A (fun n => R n) (otens B m) /\ forall T : nat -> 'M[C]_(D m, D m.+1),
    rgauge q A (fun n => R n) T -> G (rep A T) = bd (psi (rep A T) M) (psi (rep A (otens B m)) M).
  move=> hm; have hm' : (a + Nc < m <= a + N)%N by lia.
  split; first exact: gr.
  move=> T gT; have [x [ex hx _]] := eBr m hm'; have mM : (m < M)%N by lia.
  rewrite (rep_psi_extr lb rb A (T' := Br x)); last by move=> s _; rewrite ex.
  apply: (site_r hl hr hlb hrb eighP qrfP tol0 mM _ _ (Gf := fun T => G (rep A T)) _ _ hx gT); [apply: fL|apply: fR| |]; try lia.
    by move=> T1 T2; apply: Gfun_ext.
  have -> : m = m.-1.+1 by lia.
  by apply: unR; lia.
have hmc : (a.+1 <= a + Nc < a.+1 + N)%N by lia.
have hm1 : (w.-1 <= a.+1)%N by lia.
have hm2 : (a.+1 + N + w <= M.+1)%N by lia.
split=> //.
- by rewrite /sw_calc_B hall.
- move=> m T hm; apply: (tvw_proj hl hr hlb hrb w2 hm1 hm2 hmc _ _ BL BR) => //.
  + by move=> k hk; apply: unL; lia.
  + by move=> k hk; have -> : k = k.-1.+1; [lia | apply: unR; lia].
  + by rewrite eB.
- congr sqrtC; rewrite /sw_tv (tvw_norm hl hr hlb hrb w2 hm1 hm2 hmc BL BR); apply: eq_bigr => k _; have kN := ltn_ord k.
  have kM : (a.+1 + k < M)%N by lia.
  have hk : (a < a.+1 + k <= a + N)%N by lia.
  move: (a.+1 + k)%N kM hk => m mM hm.
  case: (ltngtP m (a + Nc)) => c.
  + have hml : (a < m < a + Nc)%N by lia.
    have [x [ex _ ->]] := eBl m hml; rewrite (rep_psi_extr lb rb A (T' := Bl x)); last by move=> s _; rewrite ex.
    rewrite (rep_psi_ext lb rb A (T' := Bl x)); last by move=> s _; rewrite ex.
    by rewrite (norm_l hl hr hlb hrb eighP qrfP tol0 mM) //; [apply: fL | apply: fR].
  + have hmr : (a + Nc < m <= a + N)%N by lia.
    have [x [ex _ ->]] := eBr m hmr; rewrite (rep_psi_extr lb rb A (T' := Br x)); last by move=> s _; rewrite ex.
    rewrite (rep_psi_ext lb rb A (T' := Br x)); last by move=> s _; rewrite ex.
    by rewrite (norm_r hl hr hlb hrb eighP qrfP tol0 mM) //; [apply: fL | apply: fR].
  + by move: mM; rewrite c => mM; rewrite eBn eB (norm_c hl hr hlb mM).
- by rewrite /B eBn eBc.
Qed.
End All.

Lemma centre_shuffle (V : zmodType) (x1 x2 x3 x4 y1 y2 y3 y4 : V) :
  x1 + x2 + x3 + x4 + (- y1 - y2 - y3 - y4) = x4 - y2 + (x3 - y3) + (x1 - y1 + (x2 - y4)).
Proof. by rewrite !addrA [LHS](ACl (4*6*3*7*1*5*2*8)). Qed.

Lemma centre_sandwich (C : fieldType) n m (L : 'M[C]_n) (R : 'M[C]_m) (X Y : 'M[C]_(n, m)) : L \in unitmx -> R \in unitmx ->
  L *m (X *m invmx R + invmx L *m Y) *m R = L *m X + Y *m R.
Proof. by move=> uL uR; rewrite mulmxDr mulmxDl !mulmxA mulmxV // mul1mx -!mulmxA mulVmx // mulmx1. Qed.

(* ---- nearest-neighbour terms ---- *)
Section Two.
Variables (C : numClosedFieldType) (D q : nat -> nat) (a N Nc M : nat).
Local Notation bonds := (forall n, 'M[C]_(D n)).
Local Notation sbonds := (forall n, smat C (D n) (D n)).
Variables (lb : 'M[C]_(D 0)) (rb : 'M[C]_(D M)) (A : tensors C D) (l r : sbonds).
Local Notation L n := (toarray (l n)).
Local Notation R n := (toarray (r n)).
Hypotheses (hl : up_l q A M lb (fun n => L n)) (hr : up_r q A M rb (fun n => R n)) (hlb : herm lb) (hrb : herm rb).
Variables (eigh : eigh_routine C) (qrf : qrf_routine C) (tol : C).
Hypotheses (eighP : eigh_contract eigh) (qrfP : qrf_contract qrf) (tol0 : 0 <= tol).
Hypotheses (ha : (0 < a)%N) (hNc : (0 < Nc <= N)%N) (hM : (a + N + 2 <= M)%N).
Variables (ham : nat -> op2s C) (e : nat -> C) (Kb KLb : bonds).
Local Notation ham' := (fun m => Some (ham m)).
Local Notation O := (O2 ham').
Hypotheses (hK : Ksub q A (fun n => R n) Kb 2 O e M (a + N).+1) (hKL : KLsub q 2 A (fun n => L n) O e KLb a.+1).
Hypothesis he : forall j, (a <= j <= a + N)%N -> e j = 0.
Local Notation G := (Gfun q 2 lb rb A O e Kb KLb).
Local Notation bd := (bdotst q M lb rb).
Local Notation fr := (far a N).
Local Notation Cs := (sw_C2 q a N A ham).

Lemma sw_C2E m : (a <= m <= a + N)%N -> Cs m = calc_C2 q fr A ham' m.
Proof.
move=> hm; rewrite /sw_C2 /calc_C2 /sw_in ifT; last by lia.
by rewrite ifT //= /far; lia.
Qed.
Lemma sw_C2_some m : (a <= m <= a + N)%N -> exists c, Cs m = Some c.
Proof. by move=> hm; rewrite /sw_C2 /sw_in ifT; [eexists | lia]. Qed.
Lemma Gfun_ends (Kg KLg : bonds) B : Kg (M.+1 - 2)%N = Kb (M.+1 - 2)%N -> KLg 1%N = KLb 1%N ->
  Gfun q 2 lb rb A O e Kg KLg B = G B.
Proof. by move=> h1 h2; rewrite /Gfun h1 /= h2. Qed.

Lemma exp_win j : (j.+2 <= M)%N -> \tr (L j *m winmat q A A j 2 (O j) (R j.+2)) = bd (psi A M) (opwin q j 2 (O j) (psi A M)).
Proof.
move=> jM; have jM' : (j + 2 <= M)%N by lia.
have jM2 : (j <= M)%N by lia.
rewrite (bdotst_win2 _ _ _ _ _ _ erefl jM') (lbE hlb) (LWb_up hl jM2) (RWb_up hr jM').
by rewrite addn2.
Qed.

Lemma sw_K2 hleft K0 KL0 : exists K KL hx Kg KLg, [/\
  @sw_calc_K2 C D q a N Nc A l r Cs (Kb (a + N).+1) (KLb a.+1) hleft K0 KL0 = Some (K, KL, hx, G A - (N + 1)%:R * hleft),
  forall j, (a <= j <= a + N)%N -> hx j = bd (psi A M) (opwin q j 2 (O j) (psi A M)),
  Ksub q A (fun n => R n) Kg 2 O e M 0 /\ (forall k, KLsub q 2 A (fun n => L n) O e KLg k),
  forall B, Gfun q 2 lb rb A O e Kg KLg B = G B &
  (forall n, (a + Nc <= n <= (a + N).+1)%N -> K n = Kg n) /\ (forall n, (a < n <= (a + Nc).+1)%N -> KL n = KLg n)].
Proof.
have [Kg k1 k2] := Ksub_ext (isT : (0 < 2)%N) hK; have [KLg g1 g2] := KLsub_ext (isT : (0 < 2)%N) hKL.
have eG B : Gfun q 2 lb rb A O e Kg KLg B = G B by apply: Gfun_ends; [apply: k2; lia | apply: g2; lia].
have eH j : (a <= j <= a + N)%N -> isSome (Hr2 q A r Cs j) /\ odflt 0 (Hr2 q A r Cs j) = winmat q A A j 2 (O j) (R j.+2).
  move=> hj; have [c ec] := sw_C2_some hj; split; first by rewrite /Hr2 ec.
  have jf : (j.+1 < fr)%N by rewrite /far; lia.
  by rewrite -(Hr2E q A r ham' jf) /Hr2 -sw_C2E.
have lo : sw_lo a Nc 2 = (a + Nc)%N by rewrite /sw_lo; lia.
have cnt : (a + Nc + ((a + N).+1 - (a + Nc)) = (a + N).+1)%N by lia.
have [] := @swK_loop C D q fr A l 2 (Hr2 q A r Cs) Kg ((a + N).+1 - (a + Nc)) (a + Nc) (setK K0 (Kb (a + N).+1), fun _ => 0).
- by rewrite cnt /far; lia.
- by rewrite cnt /= setK_same k2.
- rewrite cnt => j hj; have hj' : (a <= j <= a + N)%N by lia.
  have [s1 s2] := eH j hj'; split=> //; rewrite s2 (k1 j (j + 2)%N) //; last by lia.
  by rewrite he // scale0r subr0 addn2.
rewrite cnt /sw_calc_K2 /sw_calc_K lo; move: (foldl _ _ _) => [K hx] /= i1 i2 i3.
have [] := @swKL2_loop C D q A l r Cs KLg (fun j => Yg q 2 A (fun n => L n) O j j.+2) Nc a (setK KL0 (KLb a.+1), hx).
- by rewrite /= setK_same g2.
- move=> j hj; have hj' : (a <= j <= a + N)%N by lia.
  have [c ec] := sw_C2_some hj'; exists c => //; have jf : (j.+1 < fr)%N by rewrite /far; lia.
  split; first by apply: (Hl2E l jf); rewrite -sw_C2E.
  by rewrite (g1 j.+2 j j.+1) ?addn2 // he // scale0r subr0.
move=> [KL hx'] eKL [/= j1 j2 j3].
have -> : (a + 2 - 2 = a)%N by lia.
rewrite eKL; exists K, KL, hx', Kg, KLg.
have ehx j : (a <= j <= a + N)%N -> hx' j = \tr (L j *m winmat q A A j 2 (O j) (R j.+2)).
  move=> hj; case: (ltnP j (a + Nc)%N) => h.
    by rewrite j2; [apply: Yg_tr; rewrite ?addn2 | lia].
  rewrite j3; last by lia.
  rewrite i2; last by lia.
  have [_ ->] := eH j hj; rewrite adotE (bl_herm hl hlb) //; lia.
split=> //.
- congr (Some (_, _, _, _ - _)); last by have -> : (N + 2 - 1 = N + 1)%N by lia.
  have -> : G A = G (rep A (A (a + Nc)%N)) by rewrite Gfun_id.
  have mc0 : (0 < a + Nc)%N by lia.
  rewrite -eG (sw_grad2 hl hr hlb (far := fr) _ k1 g1 mc0); [|lia|rewrite /far; lia|by move=> j h1 h2; apply: he; lia].
  rewrite adot_noconjE adotE (bl_herm hl hlb); last by lia.
  rewrite j1; last by lia.
  rewrite i1; last by lia.
  case emc: (a + Nc)%N mc0 => [//|m'] _; rewrite -addrA; congr (_ + _).
    rewrite (g1 m'.+2 m' m'.+1) ?addn2 // he ?scale0r ?subr0; last by lia.
    rewrite mulmxDl raddfD /=; congr (_ + _).
      by rewrite /eps_l_noop mulmx_suml tr_sum; apply: eq_bigr => s _; rewrite !mulmxA.
    rewrite (@Yg_tr C D q 2 A (fun n => L n) isT O m' m'.+2 (R m'.+2) (rep A (A m'.+1))) ?addn2 //.
      by rewrite cover2b.
    by move=> n s _; case: (eqVneq m'.+1 n) => [<-|ne]; [rewrite rep_same | rewrite rep_other].
  rewrite (k1 m'.+1 m'.+3) ?addn2 //; last by lia.
  rewrite he ?scale0r ?subr0; last by lia.
  rewrite mulmxDr raddfD /= addrC; congr (_ + _).
    have -> : winmat q A A m'.+1 2 (O m'.+1) (R m'.+3) = winmat q (rep A (A m'.+1)) A m'.+1 2 (O m'.+1) (R m'.+3).
      apply: eq_sum_cfgs => c sz; apply: eq_bigr => d _; congr (_ *: (_ *m _)); congr (_^†).
      by rewrite amp_rep_id.
    rewrite cover2a; apply: eq_tdot => s _; rewrite /gr2 ifT // /far; lia.
  rewrite /eps_r_noop mulmx_sumr tr_sum; apply: eq_bigr => s _.
  by rewrite !mulmxA [LHS]mxtrace_mulC !mulmxA.
- by move=> j hj; rewrite ehx // exp_win //; lia.
- by split=> n hn; [apply: i1; lia | apply: j1; lia].
Qed.

(* ---- the tangent vector ---- *)
Hypotheses (fL : forall m, (a < m <= a + N)%N -> full tol (L m)) (fR : forall m, (a < m <= a + N)%N -> full tol (R m.+1)).
Hypotheses (q2 : q (a + 2)%N = q (a + Nc).+1) (q0 : q a = q (a + Nc).-1).
Local Notation Br x := (Bpar_r A l r eigh qrf tol x).
Local Notation Bl x := (Bpar_l A l r eigh qrf tol x).
Variables (K KL Kg KLg : bonds) (hx : nat -> C).
Hypotheses (k1 : Ksub q A (fun n => R n) Kg 2 O e M 0) (g1 : forall k, KLsub q 2 A (fun n => L n) O e KLg k).
Hypothesis eG : forall B, Gfun q 2 lb rb A O e Kg KLg B = G B.
Hypotheses (eK : forall n, (a + Nc <= n <= (a + N).+1)%N -> K n = Kg n) (eKL : forall n, (a < n <= (a + Nc).+1)%N -> KL n = KLg n).

Lemma sw_gr m T : (a < m <= a + N)%N -> G (@rep C D A m T) =
  tdot q T (fun s => KLg m *m A m s *m R m.+1) + tdot q T (fun s => gl2 q A l ham' m s *m R m.+1)
  + tdot q T (fun s => L m *m gr2 q fr A r ham' m s) + tdot q T (fun s => L m *m A m s *m Kg m.+1).
Proof.
by move=> hm; rewrite -eG (sw_grad2 hl hr hlb (far := fr) T k1 g1) //; [lia|lia|rewrite /far; lia|move=> j h1 h2; apply: he; lia].
Qed.

Lemma sw_xr2 m : (a + Nc < m <= a + N)%N -> exists2 x,
  Some (x_r2 q fr A l r K eigh qrf tol Cs m) = Some x & forall y, G (rep A (Br y)) = adot y x.
Proof.
move=> hm; eexists; first by reflexivity.
move=> y; have mM : (m < M)%N by lia.
have hL := bl_herm hl hlb (ltnW mM); have hR := br_herm hr hrb mM.
have g := Bpar_r_gauge A eighP qrfP tol0 hL hR y; have P f := tdot_Br A qrf eighP tol0 hL hR y f.
rewrite sw_gr; last by lia.
have -> : tdot q (Br y) (fun s => KLg m *m A m s *m R m.+1) = 0.
  transitivity (\tr (KLg m *m eps_r_noop (q m) (R m.+1) (A m) (Br y))); last by rewrite g mulmx0 mxtrace0.
  by rewrite mulmx_sumr tr_sum; apply: eq_bigr => s _; rewrite mxtrace_mulC !mulmxA.
rewrite add0r; have [_ -> _] := P (gl2 q A l ham' m); have [-> _ _] := P (gr2 q fr A r ham' m).
rewrite (eq_tdot _ (G' := fun s => L m *m (A m s *m Kg m.+1))); last by move=> s _; rewrite mulmxA.
have [-> _ _] := P (fun s => A m s *m Kg m.+1).
have -> : x_r2 q fr A l r K eigh qrf tol Cs m = x_r2 q fr A l r K eigh qrf tol (calc_C2 q fr A ham') m.
  rewrite /x_r2 /calc_x2 /xpart2 sw_C2E; last by lia.
  congr (_ + _); case: m hm {mM hL hR y g P} => [|m'] hm //=; by rewrite sw_C2E //; lia.
have mf : (m < fr)%N by rewrite /far; lia.
rewrite /x_r2 calc_x2E // -addrA addrC -!adotDr -mulmxDr -big_split; congr (adot _ (_ *m _ + _)).
apply: eq_bigr => s _; rewrite [RHS]mulmxDl /Kpo eK ?ifT //; rewrite /far; lia.
Qed.
Lemma sw_xl2 m : (a < m < a + Nc)%N -> exists2 x,
  x_l2 q A l r KL eigh qrf tol Cs m = Some x & forall y, G (rep A (Bl y)) = adot y x.
Proof.
move=> hm; have mM : (m < M)%N by lia.
have mf : (m < fr)%N by rewrite /far; lia.
have -> : x_l2 q A l r KL eigh qrf tol Cs m = x_l2 q A l r KL eigh qrf tol (calc_C2 q fr A ham') m.
  rewrite /x_l2 /calc_x_l2 sw_C2E; last by lia.
  by congr (omap _ _); case: m hm {mM mf} => [|m'] hm //=; rewrite sw_C2E //; lia.
rewrite /x_l2 calc_x_l2E //; eexists; first by reflexivity.
move=> y; have hL := bl_herm hl hlb (ltnW mM); have hR := br_herm hr hrb mM.
have g := Bpar_l_gauge A eighP qrfP tol0 hL hR y; have P f := tdot_Bl A qrf eighP tol0 hL hR y f.
rewrite sw_gr; last by lia.
have -> : tdot q (Bl y) (fun s => L m *m A m s *m Kg m.+1) = 0.
  transitivity (\tr (eps_l_noop (q m) (L m) (Bl y) (A m) *m Kg m.+1)); last by rewrite g mul0mx mxtrace0.
  by rewrite mulmx_suml tr_sum; apply: eq_bigr => s _; rewrite !mulmxA.
rewrite addr0; have [_ -> _] := P (gl2 q A l ham' m); have [-> _ _] := P (gr2 q fr A r ham' m).
have [_ -> _] := P (fun s => KLg m *m A m s).
rewrite addrC -!adotDr -mulmxDl -big_split; congr (adot _ (_ + _ *m _)).
apply: eq_bigr => s _; rewrite [in RHS]mulmxDr [RHS]mulmxDr [RHS]addrC /KLo ifT; last by lia.
by rewrite eKL //; lia.
Qed.

(* the centre site; the numbers subtracted add up to E *)
Definition sw_E2 m := \tr (KLg m *m R m) + \tr (L m.+1 *m Kg m.+1) + hx_at a N hx m + hx_at a N hx m.-1.
Lemma sw_c2 : exists2 B, sw_B_centre2 q a N A l r K KL hx eigh Cs (a + Nc)%N = Some B &
  forall T : nat -> 'M[C]_(D (a + Nc), D (a + Nc).+1),
  G (rep A T) - sw_E2 (a + Nc) * bd (psi (rep A T) M) (psi A M) = bd (psi (rep A T) M) (psi (rep A B) M).
Proof.
have hmc : (a < a + Nc <= a + N)%N by lia.
have hcl : (a <= (a + Nc).-1 <= a + N)%N by lia.
have hcr : (a <= a + Nc <= a + N)%N by lia.
have eKc : K (a + Nc).+1 = Kg (a + Nc).+1 by apply: eK; lia.
have eKLc : KL (a + Nc) = KLg (a + Nc) by apply: eKL; lia.
have hL := bl_herm hl hlb (_ : (a + Nc <= M)%N); have hR := br_herm hr hrb (_ : ((a + Nc).+1 <= M)%N).
have hL1 := bl_herm hl hlb (_ : ((a + Nc).+1 <= M)%N).
have uL : L (a + Nc) \in unitmx by apply: full_unit tol0 _ _ _; apply: fL.
have uR : R (a + Nc).+1 \in unitmx by apply: full_unit tol0 _ _ _; apply: fR.
have [c ec] := sw_C2_some hcr; have [c' ec'] := sw_C2_some hcl.
have e1 := sw_C2E hcr; have e2 := sw_C2E hcl.
have mM : ((a + Nc).+1 < M)%N by lia.
have mf : ((a + Nc).+1 < fr)%N by rewrite /far; lia.
have gr T := sw_gr T hmc.
move: hL hR hL1 uL uR c' ec' e1 e2 mM mf gr hmc q2 q0 eKc eKLc c ec {hcl hcr}; rewrite /sw_E2.
case: (a + Nc)%N => // m'; rewrite -[m'.+1.-1]/m' => hL hR hL1 uL uR c' ec' e1 e2 mM mf gr hmc q2' q0' eKc eKLc c ec.
have hL' : herm (L m'.+1) by apply: hL; lia.
have hR' : herm (R m'.+2) by apply: hR; lia.
have hL1' : herm (L m'.+2) by apply: hL1; lia.
rewrite /sw_B_centre2 q2' q0' !leqnn /= ec ec'; eexists; first by reflexivity.
move=> T; set E := _ + hx_at a N hx m'; have mM' : (m'.+1 < M)%N by lia.
have -> : bd (psi (rep A T) M) (psi A M) = tdot q T (fun s => L m'.+1 *m A m'.+1 s *m R m'.+2).
  transitivity (bd (psi (rep A T) M) (psi (rep A (A m'.+1)) M)).
    by apply: bd_extr => d _; symmetry; exact: (@amp_rep_id C D A M 0 m'.+1 d).
  rewrite (brep_gram hl hr hlb _ _ mM'); apply: eq_bigr => s _.
  by rewrite mxtrace_mulC !mulmxA.
rewrite (brep_gram hl hr hlb _ _ mM') gr.
rewrite -tdotD -tdotD -tdotD /tdot mulr_sumr -sumrB; apply: eq_bigr => s _.
rewrite [RHS]mxtrace_mulC -mxtraceZ -raddfB /= scalemxAr -mulmxBr; congr (\tr (_ *m _)).
have er := gr2E q fr A r ham' m'.+1 s; rewrite -e1 ec in er.
have m'f : (m'.+1 < fr)%N by lia.
have el := gl2E A l ham' m'f (ltn_ord s); rewrite -e2 ec' in el.
have [_ upl] := hl; have [_ upr] := hr.
have upr1 := upr m'.+2 mM; have upl1 := upl m'; have m'M : (m' < M)%N by lia.
rewrite /sw_Bc2 q2' q0' !(sw_invE eighP) //.
have -> : \sum_(t < q m'.+2) (c s t - hx_at a N hx m'.+1 *: calc_AAs A m'.+1 s t) *m R m'.+3 *m (A m'.+2 t)^† *m invmx (R m'.+2) =
    (gr2 q fr A r ham' m'.+1 s - hx_at a N hx m'.+1 *: (A m'.+1 s *m R m'.+2)) *m invmx (R m'.+2).
  rewrite -mulmx_suml; congr (_ *m _); rewrite -er /eps_r_noop upr1 mulmx_sumr scaler_sumr -sumrB; apply: eq_bigr => t _.
  by rewrite !mulmxBl -!scalemxAl !mulmxA.
have -> : \sum_(t < q m') (A m' t)^† *m (L m' *m (c' t s - hx_at a N hx m' *: calc_AAs A m' t s)) =
    gl2 q A l ham' m'.+1 s - hx_at a N hx m' *: (L m'.+1 *m A m'.+1 s).
  rewrite -el upl1 // /eps_l_noop mulmx_suml scaler_sumr -sumrB; apply: eq_bigr => t _.
  by rewrite !mulmxBr -!scalemxAr !mulmxA.
rewrite -mulmxDl centre_sandwich //.
rewrite /sw_Kcp /sw_Klc adot_noconjE adotE hL1' eKc eKLc /E.
rewrite !mulmxDr !mulmxDl !mulmxN !mulNmx -!scalemxAr -!scalemxAl !mulmxA !scalerDl !opprD.
exact: centre_shuffle.
Qed.

Lemma sw_E2G : (forall j, (a <= j <= a + N)%N -> hx j = bd (psi A M) (opwin q j 2 (O j) (psi A M))) ->
  sw_E2 (a + Nc) = G A.
Proof.
move=> ehx; have hmc : (a < a + Nc <= a + N)%N by lia.
have -> : G A = G (rep A (A (a + Nc)%N)) by rewrite Gfun_id.
rewrite (sw_gr _ hmc) /sw_E2 /hx_at !ifF; [|lia|lia].
rewrite !ehx; [|lia|lia].
have mM : ((a + Nc).+2 <= M)%N by lia.
have mf : ((a + Nc).+2 <= fr)%N by rewrite /far; lia.
have [_ upl] := hl; have [_ upr] := hr.
case emc: (a + Nc)%N hmc mM mf => [//|m'] hmc mM mf.
have m'M : (m'.+1 < M)%N by lia.
rewrite -!exp_win //=; try lia.
have wid j X : winmat q A A j 2 (O j) X = winmat q (rep A (A m'.+1)) A j 2 (O j) X.
  apply: eq_sum_cfgs => c sz; apply: eq_bigr => d _; congr (_ *: (_ *m _)); congr (_^†).
  by rewrite amp_rep_id.
rewrite 2!wid cover2b cover2a (upl m'.+1 m'M) (upr m'.+1 m'M).
have -> : \tr (KLg m'.+1 *m eps_r_noop (q m'.+1) (R m'.+2) (A m'.+1) (A m'.+1)) = tdot q (A m'.+1) (fun s => KLg m'.+1 *m A m'.+1 s *m R m'.+2).
  by rewrite mulmx_sumr tr_sum; apply: eq_bigr => s _; rewrite mxtrace_mulC !mulmxA mxtrace_mulC !mulmxA -mxtrace_mulC !mulmxA.
have -> : \tr (eps_l_noop (q m'.+1) (L m'.+1) (A m'.+1) (A m'.+1) *m Kg m'.+2) = tdot q (A m'.+1) (fun s => L m'.+1 *m A m'.+1 s *m Kg m'.+2).
  by rewrite mulmx_suml tr_sum; apply: eq_bigr => s _; rewrite !mulmxA.
have -> : tdot q (A m'.+1) (fun s => L m'.+1 *m gr2 q fr A r ham' m'.+1 s) = 
  tdot q (A m'.+1) (fun s => L m'.+1 *m eps_r_noop (q m'.+2) (R m'.+3) (C2e q A ham' m'.+1 s) (A m'.+2)).
  by apply: eq_tdot => s _; rewrite /gr2 ifT //.
by rewrite [LHS](ACl (1*4*3*2)).
Qed.
End Two.

Section Main2.
Variables (C : numClosedFieldType) (D q : nat -> nat) (a N Nc M : nat).
Local Notation bonds := (forall n, 'M[C]_(D n)).
Local Notation sbonds := (forall n, smat C (D n) (D n)).
Variables (lb : 'M[C]_(D 0)) (rb : 'M[C]_(D M)) (A : tensors C D) (l r : sbonds).
Local Notation L n := (toarray (l n)).
Local Notation R n := (toarray (r n)).
Variables (eigh : eigh_routine C) (qrf : qrf_routine C) (tol : C).
Variables (ham : nat -> op2s C) (e : nat -> C) (Kb KLb : bonds).
Local Notation O := (O2 (fun m => Some (ham m))).
Local Notation G := (Gfun q 2 lb rb A O e Kb KLb).
Local Notation bd := (bdotst q M lb rb).
Local Notation Cs := (sw_C2 q a N A ham).

Theorem sw_tdvp2 hleft K0 KL0 :
  up_l q A M lb (fun n => L n) -> up_r q A M rb (fun n => R n) -> herm lb -> herm rb ->
  eigh_contract eigh -> qrf_contract qrf -> 0 <= tol ->
  (0 < a)%N -> (0 < Nc <= N)%N -> (a + N + 2 <= M)%N ->
  Ksub q A (fun n => R n) Kb 2 O e M (a + N).+1 -> KLsub q 2 A (fun n => L n) O e KLb a.+1 ->
  (forall j, (a <= j <= a + N)%N -> e j = 0) ->
  (forall m, (a < m <= a + N)%N -> full tol (L m)) -> (forall m, (a < m <= a + N)%N -> full tol (R m.+1)) ->
  q (a + 2)%N = q (a + Nc).+1 -> q a = q (a + Nc).-1 ->
  exists K KL hx B eta,
  [/\ @sw_calc_K2 C D q a N Nc A l r Cs (Kb (a + N).+1) (KLb a.+1) hleft K0 KL0 = Some (K, KL, hx, G A - (N + 1)%:R * hleft),
      forall j, (a <= j <= a + N)%N -> hx j = bd (psi A M) (opwin q j 2 (O j) (psi A M)),
      sw_calc_B2 q a N Nc A l r K KL hx eigh qrf tol Cs = Some (B, eta),
      forall m (T : nat -> 'M[C]_(D m, D m.+1)), (a < m <= a + N)%N ->
        G (rep A T) - G A * bd (psi (rep A T) M) (psi A M) = bd (psi (rep A T) M) (sw_tv a N M A B) &
      [/\ forall m, (a < m < a + Nc)%N -> lgauge q A (fun n => L n) (otens B m),
          forall m, (a + Nc < m <= a + N)%N -> rgauge q A (fun n => R n) (otens B m),
          eta = sqrtC (bd (sw_tv a N M A B) (sw_tv a N M A B)) &
          bd (psi A M) (sw_tv a N M A B) = G A * (1 - bd (psi A M) (psi A M))]].
Proof.
move=> hl hr hlb hrb eighP qrfP tol0 ha hNc hM hK hKL he fL fR q2 q0.
have [K [KL [hx [Kg [KLg [eC ehx [k1 g1] eG [eK eKL]]]]]]] := sw_K2 hl hr hlb tol0 ha hNc hM hK hKL he hleft K0 KL0.
have hxr m := sw_xr2 hl hr hlb hrb eighP qrfP tol0 ha hNc hM he q2 q0 k1 g1 eG eK (m := m).
have hxl m := sw_xl2 hl hr hlb hrb eighP qrfP tol0 ha hNc hM he q2 q0 k1 g1 eG eKL (m := m).
have hBc := sw_c2 hl hr hlb hrb eighP tol0 ha hNc hM he fL fR q2 q0 hx k1 g1 eG eK eKL.
rewrite (sw_E2G hl hr hlb tol0 ha hNc hM he q2 q0 k1 g1 eG ehx) in hBc.
have ha' : (2.-1 <= a)%N by [].
have [B [eta [eB pr [gl gr] eeta _]]] := sw_B_all hl hr hlb hrb eighP qrfP tol0 (isT : (1 < 2)%N) ha' hNc hM fL fR hxr hxl hBc.
exists K, KL, hx, B, eta; split=> //; split=> //.
have hmc : (a < a + Nc <= a + N)%N by lia.
have := pr (a + Nc)%N (A (a + Nc)%N) hmc.
have idA : forall x, bd (psi (rep A (A (a + Nc)%N)) M) x = bd (psi A M) x.
  by move=> x; apply: bd_ext => c _; exact: (@amp_rep_id C D A M 0 (a + Nc) c).
by rewrite !idA Gfun_id mulrBr mulr1 => <-.
Qed.
End Main2.
