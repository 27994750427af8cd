(* P19_Persist.v -- C50: saving and loading round-trips. *)
From mathcomp Require Import all_ssreflect all_algebra.
From mathcomp Require Import zify.
From Verif Require Import Base Sandwich Persist.
Set Implicit Arguments.
Unset Strict Implicit.
Unset Printing Implicit Defensive.
Import Order.TTheory GRing.Theory Num.Theory.
Local Open Scope ring_scope.

Section Finite.
Variable S : zmodType.
Notation fin := (fin S).
Lemma wf_shape2 (s : fin) n : fin_wf s -> (n < fN s)%N -> obind (@shape2 S) (item (fA s) n.+1) = Some (fD s n.+1).
Proof.
move=> [_ sz h] nN; have [|a e sh] := h n.+1; first by lia.
by rewrite /item sz ltnS nN /= e /= sh.
Qed.
(* finite chain, loader that accepts pickled arrays: tensors and bond dimensions come back, q stays that of the target *)
Theorem C50_finite (s t : fin) : fin_wf s -> fN t = fN s ->
  exists2 t', fin_load true (fin_save s) t = Some t' &
  [/\ fA t' = fA s, fN t' = fN s, forall n, (n <= fN s)%N -> fD t' n = fD s n, fq t' = fq t &
      (forall n, (0 < n <= fN s)%N -> fq t n = fq s n) -> fin_wf t'].
Proof.
move=> wf eN; have [D0 sz h] := wf.
have [|D' e [h0 h1 h2]] := @load_DP S (fA s) (fN t) (fD t).
  by move=> n; rewrite eN => nN; exists (fD s n.+1); apply: wf_shape2.
have hD n : (n <= fN s)%N -> D' n = fD s n.
  by case: n => [|n] hn; rewrite ?h0 ?D0 //; have := h1 n; rewrite eN wf_shape2 // => /(_ hn) [].
exists (Fin (fN t) D' (fq t) (fA s)); first by rewrite /fin_load /= e.
split=> //= hq; split=> //=; first by rewrite eN.
move=> n; rewrite eN => hn; have [a ea sh] := h n hn; exists a => //.
by rewrite sh hq // !hD //; lia.
Qed.
(* with the default of NumPy >= 1.16.3 every load fails *)
Theorem C50_finite_default_refuted (s t : fin) : fin_load false (fin_save s) t = None.
Proof. by []. Qed.
(* the site dimensions are not recovered: loading succeeds but leaves an object whose q contradicts its tensors *)
Theorem C50_finite_q_refuted (s t : fin) n : fin_wf s -> fN t = fN s -> (0 < n <= fN s)%N -> fq t n != fq s n ->
  exists2 t', fin_load true (fin_save s) t = Some t' & ~ fin_wf t'.
Proof.
move=> wf eN hn ne; have [t' e [eA eN' _ eq _]] := C50_finite wf eN; exists t' => // -[_ _ /(_ n)].
rewrite eA eN' eq => /(_ hn)[a ea sh]; have [_ _ /(_ n hn)[a' ea' sh']] := wf.
by move: sh; rewrite ea in ea'; case: ea' => ->; rewrite sh' => -[e1]; rewrite e1 eqxx in ne.
Qed.
(* a file with too few sites is refused; one with too many is accepted and the chain is cut open: D[N] is whatever the
   longer chain has at that bond *)
Theorem C50_finite_short (s t : fin) : fin_wf s -> (fN s < fN t)%N -> fin_load true (fin_save s) t = None.
Proof.
move=> [_ sz _] lt; rewrite /fin_load /= /load_D.
have -> : fN t = (fN s + (fN t - fN s).-1.+1)%N by lia.
rewrite iotaD foldl_cat /= add0n.
have -> : item (fA s) (fN s).+1 = None by rewrite /item sz ltnn.
set x := foldl _ _ (iota 0 _); case: x => [D|] /=; by elim: (iota _ _).
Qed.
Theorem C50_finite_long_refuted (s t : fin) : fin_wf s -> (fN t < fN s)%N ->
  exists2 t', fin_load true (fin_save s) t = Some t' & fN t' = fN t /\ fD t' (fN t) = fD s (fN t).
Proof.
move=> wf lt; have [D0 sz h] := wf.
have [|D' e [h0 h1 h2]] := @load_DP S (fA s) (fN t) (fD t).
  by move=> n nN; exists (fD s n.+1); apply: wf_shape2 => //; lia.
exists (Fin (fN t) D' (fq t) (fA s)); first by rewrite /fin_load /= e.
split=> //=; case eN: (fN t) => [|n]; first by rewrite h0 D0.
have nN : (n < fN s)%N by rewrite eN in lt; lia.
by have := h1 n; rewrite eN ltnSn (wf_shape2 wf nN) => /(_ isT)[].
Qed.
End Finite.

Section Uniform.
Variables (S : zmodType) (W U : Type) (w : W).
Notation uni := (uni S W U).
Variables (init : nat -> nat -> nat -> uni -> uni) (expandD truncD : nat -> uni -> uni).
Notation import := (import_state init expandD truncD).
Lemma importE (s : uni) u : uni_wf s -> let f := export_state w s u in
  (if size (shp (e0 f)) == 3%N then [:: e0 f] else if size (shp (e0 f)) == 4%N then unstack (e0 f) else [:: e0 f]) = nA s.
Proof.
case: s => L D q A l r K us [/= L0 sz sh _]; rewrite /export_state /=.
have s0 a : shp (head a A) = [:: q; D; D] by rewrite -nth0 sh.
case: (L =P 1%N) => [L1|L1] /=.
  by rewrite s0 /=; case: A sz {sh s0}; rewrite L1 // => a [|].
rewrite s0 /= (@stackK _ _ [:: q; D; D]) //; first by move=> e; move: sz L0; rewrite e => <-.
by move=> a k; rewrite sz; apply: sh.
Qed.
Lemma sh0E (s : uni) : uni_wf s -> sh0 (nA s) = [:: nq s; nD s; nD s].
Proof. by move=> [L0 _ sh _]; rewrite /sh0 -nth0 sh. Qed.
(* every setting of the flags: tensors, boundary environments and K come back; the other environments are left *)
Theorem C50_uniform (s t : uni) u ex tr eq sq : uni_wf s -> uni_wf t -> nL t = nL s -> nq t = nq s -> nD t = nD s ->
  exists2 t', import (export_state w s u) ex tr eq sq t = Ret true t' &
  [/\ nA t' = nA s, uni_wf t', last w (nl t') = last w (nl s) /\ last w (nr t') = last w (nr s), head w (nK t') = head w (nK s) &
      nu t' = (if u is Some x then x else nu s) /\
      forall k, (k.+1 < nL s)%N -> nth w (nl t') k = nth w (nl t) k /\ nth w (nr t') k = nth w (nr t) k].
Proof.
move=> ws wt eL eq' eD; rewrite /import_state importE //= !sh0E // eq' eD eL.
have [L0 sz sh [sl sr sK]] := ws; have [_ szt sht [tl tr' tK]] := wt.
rewrite sz !eqxx /=.
have ll (x : seq W) v : size x = nL s -> last w (set_last x v) = v /\ size (set_last x v) = nL s /\
    forall k, (k.+1 < nL s)%N -> nth w (set_last x v) k = nth w x k.
  case: x => [|y z] e; first by rewrite -e in L0.
  rewrite last_rcons size_rcons size_belast; split=> //; split=> [//|k hk].
  have hk' : (k < size z)%N by move: hk; rewrite -e.
  rewrite nth_rcons size_belast hk'; elim: z y k {e hk} hk' => [//|a z IH] y [|k] //= hk'; exact: IH.
have [a1 [a2 a3]] := ll (nl t) (last w (nl s)) ltac:(by rewrite tl).
have [b1 [b2 b3]] := ll (nr t) (last w (nr s)) ltac:(by rewrite tr').
eexists; first by [].
split=> //=.
- split=> //=; rewrite ?eL ?eq' ?eD //; split=> //.
  by case: (nK t) tK => //= *; rewrite -eL.
- by case: (nK t) tK => //= e; rewrite -eL -e in L0.
- by split=> // k hk; rewrite a3 ?b3.
Qed.
(* another shape and no flag: refused ... *)
Theorem C50_uniform_refuse (s t : uni) u : uni_wf s -> uni_wf t -> ~~ [&& nL t == nL s, nq t == nq s & nD t == nD s] ->
  import (export_state w s u) false false false false t = Ret false (set_user t (if u is Some x then x else nu s)).
Proof.
move=> ws wt ne; rewrite /import_state importE //= !sh0E // ifN //.
have [_ -> _ _] := ws; apply: contraNN ne => /andP[/eqP-> /eqP[-> -> _]].
by rewrite !eqxx.
Qed.
(* ... but the user data of the object are overwritten nevertheless *)
Theorem C50_uniform_userdata_refuted (s t : uni) x : uni_wf s -> uni_wf t -> ~~ [&& nL t == nL s, nq t == nq s & nD t == nD s] ->
  nu t <> x -> st_of (import (export_state w s (Some x)) false false false false t) <> t.
Proof. by move=> ws wt ne hx; rewrite C50_uniform_refuse //= => e; apply: hx; rewrite -e. Qed.
(* expand: the saved tensors are put into an object of the saved size, which is then expanded *)
Theorem C50_uniform_expand (s t : uni) u tr eq sq : uni_wf s -> uni_wf t -> nL t = nL s -> nq t = nq s -> (nD s < nD t)%N ->
  let t1 := set_user t (if u is Some x then x else nu s) in
  import (export_state w s u) true tr eq sq t
    = Ret true (expandD (nD t) (put (nA s) (export_state w s u) (init (nD s) (nq s) (nL s) t1))).
Proof.
move=> ws wt eL eq' lt /=; rewrite /import_state importE //= !sh0E // ifN; last first.
  by rewrite negb_and; apply/orP; right; apply/eqP => -[_ e _]; rewrite e ltnn in lt.
have [_ sz _ _] := ws; rewrite /d0 /d1 /d2 /= sz eL eq' !eqxx /= ifT //; exact: ltnW.
Qed.
(* expand_q and shrink_q raise whenever they would be needed; expand_q leaves the smaller tensors in the object *)
Theorem C50_uniform_expand_q_refuted (s t : uni) u sq : uni_wf s -> uni_wf t -> nL t = nL s -> nD t = nD s -> (nq s < nq t)%N ->
  exists2 t', import (export_state w s u) false false true sq t = Raise t' & nA t' = nA s.
Proof.
move=> ws wt eL eD lt; rewrite /import_state importE //= !sh0E // ifN; last first.
  by rewrite negb_and; apply/orP; right; apply/eqP => -[e _ _]; rewrite e ltnn in lt.
have [_ sz _ _] := ws; rewrite /d0 /d1 /d2 /= sz eL eD !eqxx /= ifT; last by rewrite andbT ltnW.
by eexists.
Qed.
Theorem C50_uniform_shrink_q_refuted (s t : uni) u eq : uni_wf s -> uni_wf t -> nL t = nL s -> nD t = nD s -> (nq t < nq s)%N ->
  exists2 t', import (export_state w s u) false false eq true t = Raise t' & nA t' = nA t.
Proof.
move=> ws wt eL eD lt; rewrite /import_state importE //= !sh0E // ifN; last first.
  by rewrite negb_and; apply/orP; right; apply/eqP => -[e _ _]; rewrite e ltnn in lt.
have [_ sz _ _] := ws; rewrite /d0 /d1 /d2 /= sz eL eD !eqxx /= andbT leqNgt lt /= andbF.
by rewrite ifT; [eexists | rewrite andbT ltnW].
Qed.
End Uniform.

Section SandwichFiles.
Variables (T V U : Type) (t0 : T) (epsl epsr : V -> T -> V) (dq dl dr : T -> nat).
Notation sw := (sw T V).
Notation bulk := (bulk T V).
Notation save := (@sw_save T V U).
Lemma save_size (s : sw) u : size (g0 (save s u)) = (sN s + 3)%N.
Proof. by rewrite /= size_cat size_map size_iota /=; lia. Qed.
Lemma save_0 (s : sw) u : lst (nth (ENone T) (g0 (save s u)) 0) = Some (cell (uL s)).
Proof. by []. Qed.
Lemma save_mid (s : sw) u : tens (take (sN s) (behead (g0 (save s u)))) = Some [seq sA s n | n <- iota 1 (sN s)].
Proof.
rewrite /= take_cat size_map size_iota ltnn subnn take0 cats0.
by rewrite -[RHS]tensE -map_comp.
Qed.
Lemma save_R (s : sw) u : lst (nth (ENone T) (g0 (save s u)) (sN s).+1) = Some (cell (uR s)).
Proof. by rewrite /= nth_cat size_map size_iota ltnn subnn. Qed.
Lemma midA (s : sw) n : (0 < n <= sN s)%N -> nth t0 [seq sA s n | n <- iota 1 (sN s)] n.-1 = sA s n.
Proof. by move=> hn; rewrite (nth_map 0%N) ?size_iota ?nth_iota; [congr (sA s _); lia | lia | lia]. Qed.

(* from_file: the same chain; the bond dimensions are read off the tensors; q is that of the left bulk everywhere *)
Variables (bupd : bulk -> bulk) (b0 : bulk).
Theorem C50_sandwich_from_file (s : sw) u z :
  (0 < bL (uL s))%N -> (0 < bL (uR s))%N ->
  (forall b, bL (bupd b) = bL b) ->
  (* the bulks are normalised, so that their update leaves the tensors alone *)
  (forall b, cell b = cell (uL s) \/ cell b = cell (uR s) -> forall k, (k < bL b)%N -> bA (bupd b) k = bA b k) ->
  exists2 s', from_file t0 epsl epsr dq dl dr bupd b0 (save s u) z = Some s' &
  [/\ forall n, get_A s' n = get_A s n, sN s' = sN s,
      (forall n, (n <= sN s)%N -> n = 0%N /\ sD s 0%N = dl (bA (uL s) 0%N) \/ (0 < n)%N /\ sD s n = dr (sA s n)) ->
        forall n, (n <= sN s)%N -> sD s' n = sD s n,
      sD s' (sN s).+1 = dl (bA (uR s) 0%N) & forall n, sq s' n = dq (bA (uL s) 0%N)].
Proof.
move=> L0 R0 hL hA; rewrite /from_file save_size addnK.
have -> : (sN s + 3 - 2 = (sN s).+1)%N by lia.
rewrite save_0 save_mid save_R.
eexists; first by []. 
have sz : size [seq sA s n | n <- iota 1 (sN s)] = sN s by rewrite size_map size_iota.
have cb (b : bulk) x y p r : cell (Bulk (size (cell b)) x y (nth t0 (cell b)) p r) = cell b.
  by rewrite /cell /= size_map size_iota; apply/eq_in_map => k; rewrite mem_iota /= => hk; rewrite cellE.
have eb (b : bulk) k : cell b = cell (uL s) \/ cell b = cell (uR s) -> (k < bL b)%N -> bA (bulk_of t0 dq dl bupd b0 (cell b)) k = bA b k.
  move=> hb hk; rewrite /bulk_of hA /=; [exact: cellE | by rewrite cb | by rewrite size_cell].
have eL (b : bulk) : bL (bulk_of t0 dq dl bupd b0 (cell b)) = bL b by rewrite /bulk_of hL /= size_cell.
have h0 (b : bulk) : (0 < bL b)%N -> head t0 (cell b) = bA b 0%N by move=> b1; rewrite -nth0 cellE.
split.
- move=> n; rewrite update_lrA /get_A /= sz !eL; case: ifP => h1; first by rewrite eb ?midx_lt //; left.
  case: ifP => h2; first by rewrite eb ?midx_lt //; right.
  by rewrite midA //; lia.
- by rewrite /= sz.
- move=> hD n hn /=; rewrite sz; case: (hD n hn) => [[-> ->]|[n0 ->]]; first by rewrite h0.
  by rewrite ifN ?hn ?midA //; lia.
- by rewrite /= sz ifN ?ltnn ?h0.
- by move=> n /=; rewrite h0.
Qed.

(* load_state into an object with the same window and unit cells: the same chain; D and q stay those of the target *)
Definition loaded (f : swfile T V U) (t : sw) AL AC AR : sw :=
  Sw (sN t) (fun n => nth t0 AC n.-1) (setn (sl t) 0%N (g1 f)) (setn (setn (sr t) (sN t) (g4 f)) (sN t).+1 (g4 f))
     (sD t) (sq t) (set_bl (set_br (set_bA t0 (uL t) AL) (g2 f)) (g1 f)) (set_br (set_bl (set_bA t0 (uR t) AR) (g5 f)) (g4 f))
     (sNc t) (g7 f).1 (g7 f).2.
Lemma sw_loadE (f : swfile T V U) g z (t : sw) AL AC AR : size (g0 f) = (sN t + 3)%N -> lst (nth (ENone T) (g0 f) 0) = Some AL ->
  tens (take (sN t) (behead (g0 f))) = Some AC -> lst (nth (ENone T) (g0 f) (sN t).+1) = Some AR ->
  sw_load t0 f g z t = Some (true, loaded f t AL AC AR).
Proof. by move=> h0 h1 h2 h3; rewrite /sw_load h0 eqxx andbF eqxx /= h1 h2 h3. Qed.
Lemma loadedA (s t : sw) u n : sN t = sN s -> bL (uL t) = bL (uL s) -> bL (uR t) = bL (uR s) ->
  (0 < bL (uL s))%N -> (0 < bL (uR s))%N ->
  get_A (loaded (save s u) t (cell (uL s)) [seq sA s n | n <- iota 1 (sN s)] (cell (uR s))) n = get_A s n.
Proof.
move=> eN eL eR L0 R0; rewrite /get_A [sN (loaded _ _ _ _ _)]/= [uL (loaded _ _ _ _ _)]/= [uR (loaded _ _ _ _ _)]/= eN.
rewrite [bA _]/= [bL (set_bl _ _)]/= [bA (set_br _ _)]/= [bL (set_br _ _)]/= eL eR.
case: ifP => h1; first by rewrite cellE ?midx_lt.
case: ifP => h2; first by rewrite cellE ?midx_lt.
by rewrite -[RHS]midA //; lia.
Qed.
Theorem C50_sandwich_load (s t : sw) u g z : sN t = sN s -> bL (uL t) = bL (uL s) -> bL (uR t) = bL (uR s) ->
  (0 < bL (uL s))%N -> (0 < bL (uR s))%N ->
  exists2 t', sw_load t0 (save s u) g z t = Some (true, t') &
  [/\ forall n, get_A t' n = get_A s n, sl t' 0%N = sl s 0%N /\ sr t' (sN s) = sr s (sN s),
      sgl t' = sgl s /\ sgr t' = sgr s & sD t' = sD t /\ sq t' = sq t].
Proof.
move=> eN eL eR L0 R0; exists (loaded (save s u) t (cell (uL s)) [seq sA s n | n <- iota 1 (sN s)] (cell (uR s))).
  by apply: sw_loadE; rewrite ?eN ?save_size ?save_0 ?save_mid ?save_R.
split=> //; first by move=> n; apply: loadedA.
by rewrite /= /setn eN (ltn_eqF (ltnSn _)) !eqxx.
Qed.
(* another window length and no autogrow: refused, nothing changed *)
Theorem C50_sandwich_refuse (s t : sw) u z : sN t <> sN s -> sw_load t0 (save s u) false z t = Some (false, t).
Proof. by move=> ne; rewrite /sw_load save_size andFb eqn_add2r eq_sym ifT //; apply/eqP. Qed.
Lemma grow_load (s t : sw) u z : (sN t < sN s)%N ->
  sw_load t0 (save s u) true z t = sw_load t0 (save s u) false z (grow_left z (sN s - sN t) t).
Proof.
move=> lt; rewrite {1}/sw_load save_size eqn_add2r andTb eq_sym ltn_eqF //= ltn_add2r ltnNge ltnW //= addnK.
by rewrite /sw_load save_size.
Qed.
(* autogrow to a longer window with single-site unit cells *)
Theorem C50_sandwich_autogrow (s t : sw) u z : (sN t < sN s)%N -> bL (uL t) = 1%N -> bL (uL s) = 1%N -> bL (uR t) = bL (uR s) ->
  (0 < bL (uR s))%N ->
  exists2 t', sw_load t0 (save s u) true z t = Some (true, t') & sN t' = sN s /\ forall n, get_A t' n = get_A s n.
Proof.
move=> lt L1 L1' eR R0; pose t1 := grow_left z (sN s - sN t) t.
have eN : sN t1 = sN s by rewrite /t1 /= L1; lia.
rewrite grow_load // -/t1.
have [|||||t' e [hA _ _ _]] := @C50_sandwich_load s t1 u false z; rewrite ?L1' //.
exists t' => //; split=> //; move: e.
rewrite (@sw_loadE (save s u) false z t1 (cell (uL s)) [seq sA s n | n <- iota 1 (sN s)] (cell (uR s)))
  ?eN ?save_size ?save_0 ?save_mid ?save_R //.
by case=> <-.
Qed.
(* with a longer unit cell grow_left adds too many sites: the state is refused and the window left with a wrong length *)
Theorem C50_sandwich_autogrow_refuted (s t : sw) u z : (sN t < sN s)%N -> (1 < bL (uL t))%N ->
  exists2 t', sw_load t0 (save s u) true z t = Some (false, t') & sN t' = (sN t + (sN s - sN t) * bL (uL t))%N /\ sN t' <> sN s.
Proof.
move=> lt L2; pose t1 := grow_left z (sN s - sN t) t.
have eN : sN t1 = (sN t + (sN s - sN t) * bL (uL t))%N by [].
have ne : sN t1 <> sN s by rewrite eN; nia.
by exists t1 => //; rewrite grow_load // C50_sandwich_refuse.
Qed.
(* a shorter window: exception *)
Theorem C50_sandwich_autoshrink_refuted (s t : sw) u z : (sN s < sN t)%N -> sw_load t0 (save s u) true z t = None.
Proof. by move=> lt; rewrite /sw_load save_size eqn_add2r ltn_eqF //= ltn_add2r lt. Qed.
(* TDVP class: the file contains K matrices; their truth value is taken, which raises for every D > 1 *)
Theorem C50_tdvp_sandwich_load_refuted (f : swfile T V U) D nz K6 g z (t : sw) : (1 < D)%N -> tdvp_load t0 f (Some (D, nz)) K6 g z t = None.
Proof.
move=> D2; rewrite /tdvp_load /truth; case: (sw_load _ _ _ _ _) => // r.
by rewrite !ifN //; nia.
Qed.
(* it works for D = 1 and for files written by the plain class (None instead of K) *)
Theorem C50_tdvp_sandwich_load (f : swfile T V U) K3 K6 g z (t : sw) : (if K3 is Some (D, _) then D == 1%N else true) ->
  (if K6 is Some (D, _) then D == 1%N else true) -> tdvp_load t0 f K3 K6 g z t = sw_load t0 f g z t.
Proof.
rewrite /tdvp_load; case: (sw_load _ _ _ _ _) => // r.
by case: K3 => [[D nz]|] /= => [/eqP->|_]; case: K6 => [[D' nz']|] /= => [/eqP->|_].
Qed.
End SandwichFiles.

(* ---- examples ------------------------------------------------------------------------------------------------------ *)
Section Examples.
Definition za (d0 d1 d2 : nat) : arr [zmodType of int] := Arr [:: d0; d1; d2] (fun i => (sumn i)%:Z).
Definition f3 : fin [zmodType of int] := Fin 3 (fun n => nth 1%N [:: 1; 2; 2; 1]%N n) (fun=> 2%N)
  [:: PNone _; PArr (za 2 1 2); PArr (za 2 2 2); PArr (za 2 2 1)].
Definition g3 : fin [zmodType of int] := Fin 3 (fun=> 1%N) (fun=> 2%N) [::].
Example example_finite : exists2 t', fin_load true (fin_save f3) g3 = Some t' & fA t' = fA f3 /\ fin_wf t'.
Proof.
have wf : fin_wf f3 by split=> // -[|[|[|[|//]]]] // _; eexists.
by have [t' e [h1 _ _ _ h5]] := C50_finite wf (erefl : fN g3 = fN f3); exists t' => //; split=> //; apply: h5.
Qed.
Definition u2 : uni [zmodType of int] nat unit := Uni 2 3 2 [:: za 2 3 3; za 2 3 3] [:: 5; 7]%N [:: 1; 2]%N [:: 9; 9]%N tt.
Definition u2' : uni [zmodType of int] nat unit := Uni 2 3 2 [:: Arr [:: 2; 3; 3]%N (fun=> 0); Arr [:: 2; 3; 3]%N (fun=> 1)] [:: 0; 0]%N [:: 0; 0]%N [:: 0; 0]%N tt.
Example example_uniform init ex tr : exists2 t', import_state init ex tr (export_state 0%N u2 None) false false false false u2' = Ret true t' &
  nA t' = nA u2 /\ nl t' = [:: 0; 7]%N.
Proof.
have wf : uni_wf u2 by split=> // a [|[|//]].
have wf' : uni_wf u2' by split=> // a [|[|//]].
have [t' e [h1 [_ _ _ [h2 _ _]] [h3 _] _ [_ h4]]] := C50_uniform 0%N init ex tr None false false false false wf wf' erefl erefl erefl.
exists t' => //; split=> //.
have [n0 _] := h4 0%N isT; move: h2 h3 n0; move: e => [<-] //.
Qed.
Definition bk : bulk nat nat := Bulk 2 1 1 (fun k => k.+4) (fun=> 1%N) (fun=> 1%N).
Definition sx : sw nat nat := Sw 3 (fun n => (10 * n)%N) (fun=> 1%N) (fun=> 1%N) (fun=> 1%N) (fun=> 1%N) bk bk 1 0 0.
Example example_sandwich z : exists2 t', sw_load 0%N (sw_save sx (None : option unit)) true z (sw_init 3 bk None) = Some (true, t') &
  forall n, get_A t' n = get_A sx n.
Proof.
by have [t' e [h _ _ _]] := @C50_sandwich_load nat nat unit 0%N sx (sw_init 3 bk None) None true z erefl erefl erefl isT isT; exists t'.
Qed.
End Examples.

Print Assumptions C50_finite.
Print Assumptions C50_finite_default_refuted.
Print Assumptions C50_finite_q_refuted.
Print Assumptions C50_finite_short.
Print Assumptions C50_finite_long_refuted.
Print Assumptions C50_uniform.
Print Assumptions C50_uniform_refuse.
Print Assumptions C50_uniform_userdata_refuted.
Print Assumptions C50_uniform_expand.
Print Assumptions C50_uniform_expand_q_refuted.
Print Assumptions C50_uniform_shrink_q_refuted.
Print Assumptions C50_sandwich_from_file.
Print Assumptions C50_sandwich_load.
Print Assumptions C50_sandwich_refuse.
Print Assumptions C50_sandwich_autogrow.
Print Assumptions C50_sandwich_autogrow_refuted.
Print Assumptions C50_sandwich_autoshrink_refuted.
Print Assumptions C50_tdvp_sandwich_load_refuted.
Print Assumptions C50_tdvp_sandwich_load.
