(* Sandwich.v -- mps_sandwich.py, tdvp_sandwich.py: a finite window between two uniform bulks. *)
From mathcomp Require Import all_ssreflect all_algebra.
From mathcomp Require Import zify.
From Verif Require Import Base.
Set Implicit Arguments.
Unset Strict Implicit.
Unset Printing Implicit Defensive.
Import Order.TTheory GRing.Theory Num.Theory.
Local Open Scope ring_scope.

(* The site accessors, calc_l, calc_r and the growing of the window only move tensors and environments around and
   apply the two transfer maps.  They are modelled for arbitrary types T of site tensors and V of environments with
   arbitrary maps epsl x A = eps_l_noop(x, A, A) and epsr x A = eps_r_noop(x, A, A); P18 instantiates them with
   matrices of varying dimension. *)
Section Sandwich.
Variables (T V : Type) (epsl epsr : V -> T -> V).

(* EvoMPS_MPS_Uniform: L, D, q, A, l, r (lists of length L) and, for the TDVP class, AA and the Hamiltonian term.
   x[-1] is x[L - 1] *)
Record bulk := Bulk { bL : nat; bD : nat; bq : nat; bA : nat -> T; bl : nat -> V; br : nat -> V }.
Definition uprv L k := ((k + L.-1) %% L)%N.
(* environments as left behind by calc_lr *)
Definition bulk_ok (b : bulk) := (0 < bL b)%N /\ forall k, (k < bL b)%N ->
  bl b k = epsl (bl b (uprv (bL b) k)) (bA b k) /\ br b (uprv (bL b) k) = epsr (br b k) (bA b k).

(* Python: n % L for an integer n and L > 0, as an index *)
Definition midx (n : int) (L : nat) : nat := absz (n %% L)%Z.

(* EvoMPS_MPS_Sandwich (57-131): A[1..N], l[0..N+1], r[0..N+1], D[0..N+1], q[0..N+1] *)
Record sw := Sw { sN : nat; sA : nat -> T; sl : nat -> V; sr : nat -> V; sD : nat -> nat; sq : nat -> nat;
  uL : bulk; uR : bulk; sNc : nat; sgl : nat; sgr : nat }.
Definition setn X (f : nat -> X) a x : nat -> X := fun b => if b == a then x else f b.
Definition set_l s f := Sw (sN s) (sA s) f (sr s) (sD s) (sq s) (uL s) (uR s) (sNc s) (sgl s) (sgr s).
Definition set_r s f := Sw (sN s) (sA s) (sl s) f (sD s) (sq s) (uL s) (uR s) (sNc s) (sgl s) (sgr s).

(* __init__(N, uni_ground, uni_right) (57-114) after the bulks have been updated: the whole window is filled from
   the left bulk *)
Definition sw_init (N : nat) (g : bulk) (right : option bulk) : sw :=
  Sw N (fun n => bA g (midx (n%:Z - 1) (bL g))) (fun n => bl g (midx (n%:Z - 1) (bL g))) (fun n => br g (midx (n%:Z - 1) (bL g)))
     (fun=> bD g) (fun=> bq g) g (if right is Some b then b else g) (N %/ 2) 0 0.

(* calc_l(n_low, n_high) (250-264, mps_gen.py:350-361); None is the default -1 *)
Definition calc_l (lo hi : option nat) (s : sw) : sw :=
  let n_low := if lo is Some a then a else 1%N in
  let n_high := if hi is Some a then a else sN s in
  let l0 := setn (sl s) 0%N (bl (uL s) (bL (uL s)).-1) in
  let l1 := foldl (fun l n => setn l n (epsl (l n.-1) (sA s n))) l0 (iota n_low (n_high.+1 - n_low)) in
  set_l s (setn l1 (sN s).+1 (epsl (l1 (sN s)) (bA (uR s) 0%N))).
(* calc_r(n_low, n_high) (266-277, mps_gen.py:363-374) *)
Definition calc_r (lo hi : option nat) (s : sw) : sw :=
  let n_low := if lo is Some a then a else 0%N in
  let n_high1 := if hi is Some a then a.+1 else sN s in
  let r0 := setn (sr s) (sN s) (br (uR s) (bL (uR s)).-1) in
  set_r s (foldl (fun r n => setn r n (epsr (r n.+1) (sA s n.+1))) r0 (rev (iota n_low (n_high1 - n_low)))).
(* update(restore_CF=False, normalize=False) (241-247) *)
Definition update_lr (s : sw) : sw := calc_r None None (calc_l None None s).

(* get_D, get_q, get_A (577-597) *)
Definition get_D s (n : int) : nat := if n < 0 then bD (uL s) else if n > (sN s)%:Z then bD (uR s) else sD s (absz n).
Definition get_q s (n : int) : nat := if n < 1 then bq (uL s) else if n > (sN s)%:Z then bq (uR s) else sq s (absz n).
Definition get_A s (n : int) : T :=
  if n < 1 then bA (uL s) (midx (n - 1) (bL (uL s)))
  else if n > (sN s)%:Z then bA (uR s) (midx (n - (sN s)%:Z - 1) (bL (uR s))) else sA s (absz n).
(* get_l (599-610): the loop runs over m = (j - 1) % L for j = N + 2, ..., n *)
Definition get_l s (n : int) : V :=
  if (0 < n) && (n <= (sN s).+1%:Z) then sl s (absz n)
  else if n < 1 then bl (uL s) (midx (n - 1) (bL (uL s)))
  else foldl (fun x j => epsl x (bA (uR s) (midx (j%:Z - 1) (bL (uR s))))) (sl s (sN s).+1) (iota (sN s).+2 (absz n - (sN s).+1)).
(* get_r (612-627): for n < 0 over m = (j - 1) % L for j = 0, -1, ..., n + 1 *)
Definition get_r s (n : int) : V :=
  if (0 <= n) && (n <= (sN s).+1%:Z) then sr s (absz n)
  else if n > (sN s).+1%:Z then br (uR s) (midx (n - 1) (bL (uR s)))
  else foldl (fun x j => epsr x (bA (uL s) (midx (- j%:Z - 1) (bL (uL s))))) (sr s 0%N) (iota 0 (absz n)).
(* get_r(n, r_np1) for n < 0 *)
Definition get_r_np1 s (n : int) (x : V) : V := epsr x (bA (uL s) (midx n (bL (uL s)))).

(* grow_left(m) (500-535); D, q, A shifted, the new sites filled from the left bulk; all environments but l[0], r[N]
   and r[N + 1] are zero matrices afterwards (zl, zr) *)
Definition grow_left (z : nat -> V) (m0 : nat) (s : sw) : sw :=
  let m := (m0 * bL (uL s))%N in
  let N := (sN s + m)%N in
  let rN := sr s (sN s) in
  Sw N (fun n => if (n.-1 < m)%N then bA (uL s) (n.-1 %% bL (uL s)) else sA s (n - m))
     (setn z 0%N (sl s 0%N)) (setn (setn z N rN) N.+1 rN)
     (fun n => if (n < m)%N then bD (uL s) else sD s (n - m)) (fun n => if (n < m)%N then bq (uL s) else sq s (n - m))
     (uL s) (uR s) (sNc s) (sgl s + m) (sgr s).
(* grow_right(m) (538-573); D[:-m] = oldD raises ValueError for m = 0 *)
Definition grow_right (z : nat -> V) (m0 : nat) (s : sw) : option sw :=
  let m := (m0 * bL (uR s))%N in
  let N := (sN s + m)%N in
  let rN := sr s (sN s) in
  if m == 0%N then None else
  Some (Sw N (fun n => if (n <= sN s)%N then sA s n else bA (uR s) ((n - (sN s).+1) %% bL (uR s)))
     (setn z 0%N (sl s 0%N)) (setn (setn z N rN) N.+1 rN)
     (fun n => if (n < (sN s).+2)%N then sD s n else bD (uR s)) (fun n => if (n < (sN s).+2)%N then sq s n else bq (uR s))
     (uL s) (uR s) (sNc s) (sgl s) (sgr s + m)).
(* EvoMPS_TDVP_Sandwich.grow_left (904-908) additionally does N_centre += m *)
Definition tdvp_grow_left z m0 s : sw := let s' := grow_left z m0 s in
  Sw (sN s') (sA s') (sl s') (sr s') (sD s') (sq s') (uL s') (uR s') (sNc s' + m0) (sgl s') (sgr s').

(* the Hamiltonian terms: term n acts on the sites n, n+1(, n+2); calc_C (405-441) reads self.ham[n], a Python list index *)
Definition pyidx X (h : seq X) (n : int) : option X :=
  if 0 <= n then ohead (drop (absz n) h) else if (absz n <= size h)%N then ohead (drop (size h - absz n) h) else None.
(* EvoMPS_TDVP_Sandwich.grow_left (904-908), grow_right (910-913): [uni_l.ham] * m * L + list(ham), list(ham) + ... *)
Definition ham_grow_left X (hl : X) (m L : nat) (h : seq X) : seq X := nseq (m * L) hl ++ h.
Definition ham_grow_right X (hr : X) (m L : nat) (h : seq X) : seq X := h ++ nseq (m * L) hr.

(* ---- indices ------------------------------------------------------------------------------------------------ *)
Lemma midxE (n : int) L : (0 < L)%N -> (midx n L)%:Z = (n %% L)%Z.
Proof. by move=> L0; rewrite /midx gez0_abs // modz_ge0 //; lia. Qed.
Lemma midx_lt (n : int) L : (0 < L)%N -> (midx n L < L)%N.
Proof. by move=> L0; have := midxE n L0; have := ltz_mod n (d := L) ltac:(lia); lia. Qed.
Lemma midx_eq (n n' : int) L : (0 < L)%N -> (n = n' %[mod L])%Z -> midx n L = midx n' L.
Proof. by move=> L0 e; rewrite /midx e. Qed.
Lemma midx_nat (n L : nat) : midx n%:Z L = (n %% L)%N.
Proof. by rewrite /midx modz_nat. Qed.
Lemma midx_prv (n : int) L : (0 < L)%N -> midx (n - 1) L = uprv L (midx n L).
Proof.
move=> L0; apply/eqP; rewrite -eqz_nat midxE // /uprv -modz_nat PoszD midxE //.
apply/eqP; rewrite modzDml -modzDr; congr (_ %% _)%Z.
lia.
Qed.
Lemma midx_addM (n : int) (m L : nat) : (0 < L)%N -> midx (n + (m * L)%:Z) L = midx n L.
Proof. by move=> L0; apply: midx_eq => //; rewrite addrC PoszM modzMDl. Qed.
Lemma midxN1 L : (0 < L)%N -> midx (-1) L = L.-1.
Proof.
move=> L0; apply/eqP; rewrite -eqz_nat midxE // -modzDr (_ : -1 + L%:Z = L.-1%:Z); last by lia.
by rewrite modz_nat modn_small //; lia.
Qed.
Lemma midx0 L : midx 0 L = 0%N.
Proof. by rewrite /midx mod0z. Qed.
(* ---- the loops of calc_l and calc_r ------------------------------------------------------------------------ *)
Section Loops.
Variables (A : nat -> T).
Definition lloop (l : nat -> V) a k := foldl (fun l n => setn l n (epsl (l n.-1) (A n))) l (iota a k).
Definition rloop (r : nat -> V) a k := foldl (fun r n => setn r n (epsr (r n.+1) (A n.+1))) r (rev (iota a k)).
Lemma lloopP l a k : (0 < a)%N -> (forall j, ~~ (a <= j < a + k)%N -> lloop l a k j = l j) /\
  forall j, (a <= j < a + k)%N -> lloop l a k j = epsl (lloop l a k j.-1) (A j).
Proof.
move=> a0; elim: k => [|k [IH1 IH2]]; first by split=> j; [|lia].
have e : lloop l a k.+1 = setn (lloop l a k) (a + k)%N (epsl (lloop l a k (a + k)%N.-1) (A (a + k)%N)).
  by rewrite /lloop -[k.+1]addn1 iotaD foldl_cat.
rewrite e /setn; split=> j hj.
  case: eqP => [ej|_]; first by lia.
  by apply: IH1; lia.
case: eqP => [->|ne]; first by rewrite ifN //; lia.
rewrite IH2 ?ifN //; first by lia.
by lia.
Qed.
Lemma rloopP r a k : (forall j, ~~ (a <= j < a + k)%N -> rloop r a k j = r j) /\
  forall j, (a <= j < a + k)%N -> rloop r a k j = epsr (rloop r a k j.+1) (A j.+1).
Proof.
elim: k a => [|k IH] a; first by split=> j; [|lia].
have [IH1 IH2] := IH a.+1.
have e : rloop r a k.+1 = setn (rloop r a.+1 k) a (epsr (rloop r a.+1 k a.+1) (A a.+1)).
  by rewrite /rloop /= rev_cons -cats1 foldl_cat.
rewrite e /setn; split=> j hj.
  case: eqP => [ej|_]; first by lia.
  by apply: IH1; lia.
case: eqP => [->|ne]; first by rewrite ifN //; lia.
rewrite IH2 ?ifN //; first by lia.
by lia.
Qed.
End Loops.
(* update() leaves environments that satisfy the recursion inside the window *)
Definition lr_ok (s : sw) := [/\ sl s 0%N = bl (uL s) (bL (uL s)).-1, sr s (sN s) = br (uR s) (bL (uR s)).-1,
  forall n, (0 < n <= sN s)%N -> sl s n = epsl (sl s n.-1) (sA s n),
  forall n, (0 < n <= sN s)%N -> sr s n.-1 = epsr (sr s n) (sA s n) &
  sl s (sN s).+1 = epsl (sl s (sN s)) (bA (uR s) 0%N)].
Lemma update_lr_ok s : lr_ok (update_lr s).
Proof.
rewrite /update_lr /calc_r /calc_l /lr_ok /set_l /set_r /= subn0 subn1 /=.
rewrite -/(lloop (sA s) _ 1 (sN s)) -/(rloop (sA s) _ 0 (sN s)).
set l0 := setn (sl s) _ _; set r0 := setn (sr s) _ _.
have [l1 l2] := lloopP (sA s) l0 (sN s) (isT : (0 < 1)%N).
have [r1 r2] := rloopP (sA s) r0 0 (sN s).
split.
- by rewrite /setn /= l1.
- by rewrite r1 ?/r0 /setn ?eqxx //; lia.
- move=> n hn; rewrite /setn !ifN; [by apply: l2; lia | by lia | by lia].
- by move=> n hn; rewrite r2; [rewrite prednK //; lia | lia].
- by rewrite /setn eqxx ifN //; lia.
Qed.
Lemma update_lr_r s : sr (update_lr s) (sN s).+1 = sr s (sN s).+1.
Proof.
rewrite /update_lr /calc_r /calc_l /set_l /set_r /= subn0.
rewrite -/(rloop (sA s) _ 0 (sN s)).
have [r1 _] := rloopP (sA s) (setn (sr s) (sN s) (br (uR s) (bL (uR s)).-1)) 0 (sN s).
by rewrite r1 /setn; [rewrite ifN //; lia | lia].
Qed.
Lemma update_lrA s n : get_A (update_lr s) n = get_A s n.
Proof. by []. Qed.

(* the branches of the accessors *)
Lemma get_A_l s n : n < 1 -> get_A s n = bA (uL s) (midx (n - 1) (bL (uL s))).
Proof. by rewrite /get_A => ->. Qed.
Lemma get_A_r s n : (sN s)%:Z < n -> get_A s n = bA (uR s) (midx (n - (sN s)%:Z - 1) (bL (uR s))).
Proof. by rewrite /get_A => h; rewrite h ifF //; lia. Qed.
Lemma get_A_w s n : 0 < n -> n <= (sN s)%:Z -> get_A s n = sA s (absz n).
Proof. by rewrite /get_A => h1 h2; rewrite !ifF //; lia. Qed.
Lemma get_l_w s n : 0 < n -> n <= (sN s).+1%:Z -> get_l s n = sl s (absz n).
Proof. by rewrite /get_l => -> ->. Qed.
Lemma get_l_l s n : n < 1 -> get_l s n = bl (uL s) (midx (n - 1) (bL (uL s))).
Proof. by rewrite /get_l => h; rewrite h ifF //; lia. Qed.
Lemma get_l_r s n : (sN s).+1%:Z < n -> get_l s n = foldl (fun x j => epsl x (bA (uR s) (midx (j%:Z - 1) (bL (uR s))))) (sl s (sN s).+1) (iota (sN s).+2 (absz n - (sN s).+1)).
Proof. by rewrite /get_l => h; rewrite !ifF //; lia. Qed.
Lemma get_r_w s n : 0 <= n -> n <= (sN s).+1%:Z -> get_r s n = sr s (absz n).
Proof. by rewrite /get_r => -> ->. Qed.
Lemma get_r_r s n : (sN s).+1%:Z < n -> get_r s n = br (uR s) (midx (n - 1) (bL (uR s))).
Proof. by rewrite /get_r => h; rewrite h ifF //; lia. Qed.
Lemma get_r_l s n : n <= 0 -> get_r s n = foldl (fun x j => epsr x (bA (uL s) (midx (- j%:Z - 1) (bL (uL s))))) (sr s 0%N) (iota 0 (absz n)).
Proof.
rewrite /get_r => h; case: (ltrP n 0) => h0; last by have -> : n = 0 by lia.
by rewrite !ifF //; lia.
Qed.

(* ---- one chain ------------------------------------------------------------------------------------------------ *)
Section Chain.
Variable (s : sw).
Hypotheses (okL : bulk_ok (uL s)) (okR : bulk_ok (uR s)) (ok : lr_ok s).
Let N := sN s.
Let L0 : (0 < bL (uL s))%N. Proof. by case: okL. Qed.
Let R0 : (0 < bL (uR s))%N. Proof. by case: okR. Qed.
Lemma get_lE_left n : n <= N.+1%:Z -> get_l s n = epsl (get_l s (n - 1)) (get_A s n).
Proof.
move=> hn; have [l0 rN hl hr lN1] := ok; rewrite /get_l /get_A -/N.
case: (ltrP n 1) => n1.
  have -> : (0 < n) = false by lia.
  have -> : (0 < n - 1) = false by lia.
  rewrite /= !ifT //; last by lia.
  by have [_ h] := okL; have [] := h _ (midx_lt (n - 1) L0); rewrite -midx_prv.
rewrite ifT; last by lia.
case: (ltrP N%:Z n) => nN.
  have en : n = N.+1 by lia.
  have -> : absz n = N.+1 by lia.
  rewrite lN1 -/N en.
  have -> : midx (N.+1%:Z - N%:Z - 1) (bL (uR s)) = 0%N.
    by rewrite (_ : N.+1%:Z - N%:Z - 1 = 0) ?midx0 //; lia.
  case: (posnP N) => N0; last by rewrite ifT; [congr (epsl (sl s _) _); lia | lia].
  have -> : (0 < N.+1%:Z - 1) = false by lia.
  rewrite /= ifT; last by lia.
  by rewrite {1}N0 l0 (_ : N.+1%:Z - 1 - 1 = -1) ?midxN1 //; lia.
rewrite hl -/N; last by lia.
case: (ltrP 1 n) => n2; first by rewrite ifT; [congr (epsl (sl s _) _); lia | lia].
have -> : n = 1 by lia.
by rewrite /= l0 sub0r midxN1.
Qed.
Lemma get_lE_right n : (bL (uR s) %| N)%N -> N.+1%:Z < n -> get_l s n = epsl (get_l s (n - 1)) (get_A s n).
Proof.
move=> dv hn; have [k en] : exists k : nat, n = (N + k.+2)%N%:Z by exists (absz n - N.+2)%N; lia.
rewrite get_l_r // get_A_r -/N; last by lia.
have -> : (absz n - N.+1 = k + 1)%N by lia.
rewrite iotaD foldl_cat /=.
have -> : midx ((N.+2 + k)%N%:Z - 1) (bL (uR s)) = midx (n - N%:Z - 1) (bL (uR s)).
  by case/dvdnP: dv => m eN; rewrite -(midx_addM (n - N%:Z - 1) m R0) -eN; congr (midx _ _); rewrite en; lia.
congr (epsl _ _); case: (posnP k) => k0.
  by rewrite get_l_w -?/N; [rewrite k0 /=; congr (sl s _); lia | lia | lia].
by rewrite get_l_r -/N; [congr (foldl _ _ (iota _ _)); lia | lia].
Qed.
Lemma get_rE_left n : n <= N%:Z -> get_r s (n - 1) = epsr (get_r s n) (get_A s n).
Proof.
move=> hn; have [l0 rN hl hr lN1] := ok.
case: (ltrP n 1) => n1.
  rewrite !get_r_l; [|lia|lia]; rewrite get_A_l //.
  have -> : (absz (n - 1) = absz n + 1)%N by lia.
  rewrite iotaD foldl_cat /= add0n; congr (epsr _ (bA _ (midx _ _))); lia.
rewrite get_r_w; [|lia|lia]; rewrite get_r_w; [|lia|lia]; rewrite get_A_w; [|lia|lia].
by rewrite -hr -/N; [congr (sr s _); lia | lia].
Qed.
Lemma get_rE_right n : (bL (uR s) %| N)%N -> sr s N.+1 = br (uR s) 0%N -> N%:Z < n ->
  get_r s (n - 1) = epsr (get_r s n) (get_A s n).
Proof.
move=> dv eN1 hn; have [l0 rN hl hr lN1] := ok.
have [m eN] := dvdnP dv.
have ind : midx (n - N%:Z - 1) (bL (uR s)) = midx (n - 1) (bL (uR s)).
  by rewrite -(midx_addM (n - N%:Z - 1) m R0) -eN; congr (midx _ _); lia.
have e1 : br (uR s) (midx (n - 1 - 1) (bL (uR s))) = epsr (br (uR s) (midx (n - 1) (bL (uR s)))) (bA (uR s) (midx (n - 1) (bL (uR s)))).
  by have [_ h] := okR; have [_] := h _ (midx_lt (n - 1) R0); rewrite -midx_prv.
have cN j : midx (N%:Z + j) (bL (uR s)) = midx j (bL (uR s)) by rewrite addrC eN midx_addM.
rewrite get_A_r // ind.
case: (ltrP N.+1%:Z n) => n2.
  rewrite (get_r_r n2) -e1.
  case: (ltrP N.+2%:Z n) => n3; first by rewrite get_r_r //; lia.
  have en : n = N.+2 by lia.
  rewrite get_r_w; [|lia|lia]; rewrite (_ : absz (n - 1) = N.+1); last by lia.
  by rewrite eN1 (_ : n - 1 - 1 = N%:Z + 0) ?cN ?midx0 //; lia.
have en : n = N.+1 by lia.
rewrite get_r_w; [|lia|lia]; rewrite get_r_w; [|lia|lia].
have -> : absz (n - 1) = N by lia.
have -> : absz n = N.+1 by lia.
rewrite rN eN1; move: e1.
have -> : n - 1 - 1 = N%:Z + -1 by lia.
have -> : n - 1 = N%:Z + 0 by lia.
by rewrite !cN midx0 midxN1.
Qed.
End Chain.
(* __init__ with one bulk and a window length divisible by L *)
Lemma init_lr_ok N g : bulk_ok g -> (bL g %| N)%N -> lr_ok (sw_init N g None) /\ sr (sw_init N g None) N.+1 = br g 0%N.
Proof.
move=> [L0 ok] /dvdnP[m eN].
have cN j : midx (N%:Z + j) (bL g) = midx j (bL g) by rewrite addrC eN midx_addM.
have m1 (n : nat) : (0 < n)%N -> midx (n.-1%:Z - 1) (bL g) = uprv (bL g) (midx (n%:Z - 1) (bL g)).
  by move=> n0; rewrite -midx_prv //; congr (midx _ _); lia.
split; last by rewrite /= (_ : N.+1%:Z - 1 = N%:Z + 0) ?cN ?midx0 //; lia.
rewrite /lr_ok /=; split.
- by rewrite sub0r midxN1.
- by rewrite cN midxN1.
- move=> n /andP[n0 _]; rewrite m1 //; have [] := ok _ (midx_lt (n%:Z - 1) L0); done.
- move=> n /andP[n0 _]; rewrite m1 //; have [] := ok _ (midx_lt (n%:Z - 1) L0); done.
- rewrite (_ : N.+1%:Z - 1 = N%:Z + 0) ?cN ?midx0; last by lia.
  by rewrite midxN1 //; have [] := ok 0%N L0; rewrite /uprv add0n modn_small //; lia.
Qed.
(* ---- growing --------------------------------------------------------------------------------------------------- *)
Lemma grow_leftA z m s n : (0 < bL (uL s))%N -> get_A (grow_left z m s) (n + (m * bL (uL s))%:Z) = get_A s n.
Proof.
move=> L0; set M := (m * bL (uL s))%N; rewrite /get_A /grow_left /= -/M.
have mm k : midx (k + M%:Z) (bL (uL s)) = midx k (bL (uL s)) by rewrite midx_addM.
case: (ltrP (n + M%:Z) 1) => h1.
  by rewrite ifT; [rewrite -addrA [M%:Z - 1]addrC addrA mm | lia].
case: (ltrP (sN s + M)%N%:Z (n + M%:Z)) => h2.
  by rewrite ifF ?ifT; [congr (bA _ (midx _ _)); lia | lia | lia].
case: (ltrP n 1) => h3.
  rewrite ifT; last by lia.
  rewrite -(mm (n - 1)) -midx_nat; congr (bA _ (midx _ _)); lia.
by rewrite ifF ?ifF; [congr (sA s _); lia | lia | lia].
Qed.
Lemma grow_rightA z m s s' n : (0 < bL (uR s))%N -> grow_right z m s = Some s' -> get_A s' n = get_A s n.
Proof.
move=> L0; rewrite /grow_right; case: eqP => // M0 [<-]; set M := (m * bL (uR s))%N; rewrite /get_A /= -/M.
have mm k : midx (k + M%:Z) (bL (uR s)) = midx k (bL (uR s)) by rewrite midx_addM.
case: (ltrP n 1) => h1 //; case: (ltrP (sN s + M)%N%:Z n) => h2.
  rewrite ifT; last by lia.
  by rewrite -mm; congr (bA _ (midx _ _)); lia.
case: (ltrP (sN s)%:Z n) => h3.
  by rewrite ifN; [rewrite -midx_nat; congr (bA _ (midx _ _)); lia | lia].
by rewrite ifT //; lia.
Qed.
Lemma down_ind (f g : int -> V) n0 : f n0 = g n0 -> (forall n, n <= n0 -> f n = g n -> f (n - 1) = g (n - 1)) ->
  forall n, n <= n0 -> f n = g n.
Proof.
move=> h0 h n hn; have [k ->] : exists k : nat, n = n0 - k%:Z by exists (absz (n0 - n)); lia.
elim: k {hn} => [|k IH]; first by rewrite subr0.
have -> : n0 - k.+1%:Z = n0 - k%:Z - 1 by lia.
by apply: h => //; lia.
Qed.
Lemma up_ind (f g : int -> V) n0 n1 : f n0 = g n0 -> (forall n, n <= n1 -> f (n - 1) = g (n - 1) -> f n = g n) ->
  forall n, n0 <= n <= n1 -> f n = g n.
Proof.
move=> h0 h n hn; have [k ek] : exists k : nat, n = n0 + k%:Z by exists (absz (n - n0)); lia.
elim: k n hn ek => [|k IH] n hn ek; first by rewrite ek addr0.
by apply: h => //; [lia | apply: IH; lia].
Qed.
Lemma grow_left_l z m s n : bulk_ok (uL s) -> bulk_ok (uR s) -> lr_ok s -> n <= (sN s).+1%:Z ->
  get_l (update_lr (grow_left z m s)) (n + (m * bL (uL s))%:Z) = get_l s n.
Proof.
move=> okL okR ok hn; have L0 : (0 < bL (uL s))%N by case: okL.
set M := (m * bL (uL s))%N; set s' := update_lr _.
have ok' : lr_ok s' by exact: update_lr_ok.
have mm k : midx (k + M%:Z) (bL (uL s)) = midx k (bL (uL s)) by rewrite midx_addM.
have low k : k <= - M%:Z -> get_l s' (k + M%:Z) = get_l s k.
  move=> hk; rewrite get_l_l ?get_l_l; [|lia|lia].
  by rewrite (_ : k + M%:Z - 1 = k - 1 + M%:Z) ?mm //; lia.
case: (lerP n (- M%:Z)) => h; first exact: low.
apply: (@up_ind (fun n => get_l s' (n + M%:Z)) (get_l s) (- M%:Z) (sN s).+1%:Z); last by lia.
  exact: low.
move=> k hk e; rewrite (@get_lE_left s') //; last by rewrite /s' /= -/M; lia.
rewrite (@get_lE_left s) // -e (_ : k + M%:Z - 1 = k - 1 + M%:Z); last by lia.
by rewrite update_lrA grow_leftA.
Qed.
Lemma grow_left_r z m s n : bulk_ok (uL s) -> bulk_ok (uR s) -> lr_ok s -> n <= (sN s)%:Z ->
  get_r (update_lr (grow_left z m s)) (n + (m * bL (uL s))%:Z) = get_r s n.
Proof.
move=> okL okR ok hn; have L0 : (0 < bL (uL s))%N by case: okL.
set M := (m * bL (uL s))%N; set s' := update_lr _.
have ok' : lr_ok s' by exact: update_lr_ok.
apply: (@down_ind (fun n => get_r s' (n + M%:Z)) (get_r s) (sN s)%:Z) => //.
  rewrite -PoszD get_r_w ?get_r_w; try lia; last by rewrite /s' /= -/M; lia.
  have [_ -> _ _ _] := ok; have [_ h _ _ _] := ok'; move: h; rewrite /s' /= -/M.
  by move=> h; rewrite -[RHS]h.
move=> k hk e; rewrite (_ : k - 1 + M%:Z = k + M%:Z - 1); last by lia.
rewrite (@get_rE_left s') //; last by rewrite /s' /= -/M; lia.
by rewrite (@get_rE_left s) // e update_lrA grow_leftA.
Qed.
Lemma grow_right_l z m s s' n : bulk_ok (uL s) -> bulk_ok (uR s) -> lr_ok s -> grow_right z m s = Some s' -> n <= (sN s).+1%:Z ->
  get_l (update_lr s') n = get_l s n.
Proof.
move=> okL okR ok e; have R0 : (0 < bL (uR s))%N by case: okR.
have eA k := grow_rightA k R0 e.
have [eL eR eN] : [/\ uL s' = uL s, uR s' = uR s & (sN s < sN s')%N].
  by move: e; rewrite /grow_right; case: eqP => // M0 [<-] /=; split=> //; lia.
set s2 := update_lr _; have ok' : lr_ok s2 by exact: update_lr_ok.
have okL' : bulk_ok (uL s2) by rewrite /= eL.
have okR' : bulk_ok (uR s2) by rewrite /= eR.
move=> hn; case: (lerP n 0) => h; first by rewrite !get_l_l /= ?eL //; lia.
apply: (@up_ind (get_l s2) (get_l s) 0 (sN s).+1%:Z); last by lia.
  by rewrite !get_l_l /= ?eL.
move=> k hk ek; rewrite (@get_lE_left s2) //; last by rewrite /s2 /=; lia.
by rewrite (@get_lE_left s) // ek update_lrA eA.
Qed.
Lemma grow_right_r z m s s' n : bulk_ok (uL s) -> bulk_ok (uR s) -> lr_ok s -> grow_right z m s = Some s' -> n <= (sN s)%:Z ->
  get_r (update_lr s') n = get_r s n.
Proof.
move=> okL okR ok e; have R0 : (0 < bL (uR s))%N by case: okR.
have eA k := grow_rightA k R0 e.
have [eL eR eN] : [/\ uL s' = uL s, uR s' = uR s & sN s' = (sN s + m * bL (uR s))%N].
  by move: e; rewrite /grow_right; case: eqP => // M0 [<-].
set s2 := update_lr _; have ok' : lr_ok s2 by exact: update_lr_ok.
have okL' : bulk_ok (uL s2) by rewrite /= eL.
have okR' : bulk_ok (uR s2) by rewrite /= eR.
set M := (m * bL (uR s))%N in eN.
have h1 k : (sN s)%:Z <= k <= (sN s')%:Z -> get_r s2 k = br (uR s) (midx (k - (sN s)%:Z - 1) (bL (uR s))).
  pose f k := if k < (sN s)%:Z then get_r s2 k else br (uR s) (midx (k - (sN s)%:Z - 1) (bL (uR s))).
  move=> /andP[k1 k2]; have -> : br (uR s) (midx (k - (sN s)%:Z - 1) (bL (uR s))) = f k by rewrite /f ltNge k1.
  apply: (@down_ind (get_r s2) f (sN s')%:Z) => //.
    rewrite /f ifF; last by lia.
    have [_ h _ _ _] := ok'; rewrite get_r_w /=; [|lia|lia].
    rewrite -[LHS]/(sr s2 (sN s2)) h /= eR; congr (br _ _).
    rewrite (_ : (sN s')%:Z - (sN s)%:Z - 1 = -1 + M%:Z) ?midx_addM ?midxN1 //; lia.
  move=> j hj ej; rewrite /f; case: (ltrP (j - 1) (sN s)%:Z) => // h.
  rewrite (@get_rE_left s2) // ej /f ifF; last by lia.
  rewrite update_lrA eA get_A_r; last by lia.
  have [_ hb] := okR; have [_] := hb _ (midx_lt (j - (sN s)%:Z - 1) R0).
  by rewrite -midx_prv // => <-; congr (br _ (midx _ _)); lia.
apply: (@down_ind (get_r s2) (get_r s) (sN s)%:Z).
  rewrite h1; last by lia.
  rewrite get_r_w; [|lia|lia]; have [_ -> _ _ _] := ok.
  by rewrite subrr sub0r midxN1.
move=> k hk ek; rewrite (@get_rE_left s2) //; last by rewrite /s2 /=; lia.
by rewrite (@get_rE_left s) // ek update_lrA eA.
Qed.

(* ---- normalisation --------------------------------------------------------------------------------------------- *)
Section Norm.
Variables (C : numClosedFieldType) (dot : V -> V -> C) (vsc : C -> V -> V) (tsc : C -> T -> T).
Record laws := Laws { dot_adj : forall x y A, dot (epsl x A) y = dot x (epsr y A);
  epsr_tsc : forall c x A, epsr x (tsc c A) = vsc (c * c^*) (epsr x A);
  dot_vr : forall a x y, dot x (vsc a y) = a * dot x y }.
Definition set_A s f := Sw (sN s) f (sl s) (sr s) (sD s) (sq s) (uL s) (uR s) (sNc s) (sgl s) (sgr s).
(* simple_renorm (278-289) *)
Definition simple_renorm (tol : C) (s : sw) : sw :=
  let c := sNc s in
  let norm := dot (sl s c.-1) (sr s c.-1) in
  let s1 := if `|1 - norm| > tol then set_A s (setn (sA s) c (tsc (1 / sqrtC norm) (sA s c))) else s in
  calc_r None (Some c.-1) (calc_l (Some c) None s1).
(* update(restore_CF=False) (241-244); for N_centre = 0 the index -1 hits the None at the end of l *)
Definition update_norm (tol : C) (s : sw) : option sw :=
  if sNc s is c.+1 then Some (simple_renorm tol (calc_r (Some c) None (calc_l None (Some c) s))) else None.
Hypothesis lw : laws.
Lemma dot_const s n n' : bulk_ok (uL s) -> bulk_ok (uR s) -> lr_ok s -> n <= (sN s)%:Z -> n' <= (sN s)%:Z ->
  dot (get_l s n) (get_r s n) = dot (get_l s n') (get_r s n').
Proof.
move=> okL okR ok.
have st k : k <= (sN s)%:Z -> dot (get_l s (k - 1)) (get_r s (k - 1)) = dot (get_l s k) (get_r s k).
  by move=> hk; rewrite (@get_rE_left s) // [in RHS](@get_lE_left s) ?(dot_adj lw) //; lia.
have all k : k <= (sN s)%:Z -> dot (get_l s k) (get_r s k) = dot (get_l s (sN s)%:Z) (get_r s (sN s)%:Z).
  move=> hk; have [j ->] : exists j : nat, k = (sN s)%:Z - j%:Z by exists (absz ((sN s)%:Z - k)); lia.
  elim: j {hk} => [|j IH]; first by rewrite subr0.
  by rewrite (_ : _ - j.+1%:Z = (sN s)%:Z - j%:Z - 1) ?st ?IH //; lia.
by move=> h1 h2; rewrite !all.
Qed.
Lemma dot_const_all s n n' : bulk_ok (uL s) -> bulk_ok (uR s) -> lr_ok s -> (bL (uR s) %| sN s)%N -> sr s (sN s).+1 = br (uR s) 0%N ->
  dot (get_l s n) (get_r s n) = dot (get_l s n') (get_r s n').
Proof.
move=> okL okR ok dv e1.
have st k : (sN s)%:Z < k -> dot (get_l s (k - 1)) (get_r s (k - 1)) = dot (get_l s k) (get_r s k).
  move=> hk; rewrite (@get_rE_right s) // [in RHS](_ : get_l s k = epsl (get_l s (k - 1)) (get_A s k)) ?(dot_adj lw) //.
  by case: (lerP k (sN s).+1%:Z) => h; [apply: get_lE_left | apply: get_lE_right].
have all k : dot (get_l s k) (get_r s k) = dot (get_l s (sN s)%:Z) (get_r s (sN s)%:Z).
  case: (lerP k (sN s)%:Z) => h; first exact: dot_const.
  have [j ->] : exists j : nat, k = (sN s)%:Z + j%:Z by exists (absz (k - (sN s)%:Z)); lia.
  elim: j {h} => [|j IH]; first by rewrite addr0.
  by rewrite -st -?IH; [congr (dot (get_l s _) (get_r s _)); lia | lia].
by rewrite !all.
Qed.
Lemma dot_win s j : lr_ok s -> (j <= sN s)%N -> dot (sl s j) (sr s j) = dot (sl s 0%N) (sr s 0%N).
Proof.
move=> [l0 rN hl hr lN1]; elim: j => [//|j IH] hj.
by rewrite -IH ?(ltnW hj) // hl // (dot_adj lw) -hr.
Qed.
Lemma update_normP tol s s' : (0 < sNc s <= sN s)%N -> update_norm tol s = Some s' ->
  let nrm := dot (sl (update_lr s) 0%N) (sr (update_lr s) 0%N) in
  [/\ lr_ok s', [/\ uL s' = uL s, uR s' = uR s & sN s' = sN s], 
     forall n, n != sNc s -> sA s' n = sA s n
   & 0 < nrm -> if `|1 - nrm| > tol then sA s' (sNc s) = tsc (1 / sqrtC nrm) (sA s (sNc s)) /\ dot (sl s' 0%N) (sr s' 0%N) = 1
     else sA s' (sNc s) = sA s (sNc s) /\ dot (sl s' 0%N) (sr s' 0%N) = nrm].
Proof.
case ec: (sNc s) => [//|c] /= cN; rewrite /update_norm ec => -[<-] {s'}.
have ok := update_lr_ok s; have [l0 rN hl hr lN1] := ok.
have {}hl n : (0 < n <= sN s)%N -> sl (update_lr s) n = epsl (sl (update_lr s) n.-1) (sA s n) by exact: hl.
have {}hr n : (0 < n <= sN s)%N -> sr (update_lr s) n.-1 = epsr (sr (update_lr s) n) (sA s n) by exact: hr.
have {}rN : sr (update_lr s) (sN s) = br (uR s) (bL (uR s)).-1 by exact: rN.
set nrm := dot _ _; set s1 := calc_r (Some c) None _.
pose la := setn (sl s) 0%N (bl (uL s) (bL (uL s)).-1); pose ra := setn (sr s) (sN s) (br (uR s) (bL (uR s)).-1).
have [l1 l2] := lloopP (sA s) la c (isT : (0 < 1)%N).
have [r1 r2] := rloopP (sA s) ra c (sN s - c).
have es1 j : (j <= c)%N -> sl s1 j = lloop (sA s) la 1 c j.
  by move=> hj; rewrite /s1 /= subn1 /= -/(lloop (sA s) la 1 c) {1}/setn ifN //; lia.
have er1 j : sr s1 j = rloop (sA s) ra c (sN s - c) j by [].
have [eA eN eNc eL] : [/\ sA s1 = sA s, sN s1 = sN s, sNc s1 = c.+1 & uL s1 = uL s] by rewrite /s1 /= ec.
have eR : uR s1 = uR s by [].
have lrec j : (0 < j <= c)%N -> sl s1 j = epsl (sl s1 j.-1) (sA s j).
  move=> hj; have h1 : (j <= c)%N by lia.
  have h2 : (j.-1 <= c)%N by lia.
  by rewrite (es1 j h1) (es1 _ h2) l2 //; lia.
have rrec j : (c < j <= sN s)%N -> sr s1 j.-1 = epsr (sr s1 j) (sA s j).
  move=> hj; have h1 : (c <= j.-1 < c + (sN s - c))%N by lia.
  by rewrite (er1 j.-1) (er1 j) (r2 _ h1) prednK //; lia.
have sl0 : sl s1 0%N = bl (uL s) (bL (uL s)).-1 by rewrite es1 // l1.
have srN : sr s1 (sN s) = br (uR s) (bL (uR s)).-1 by rewrite er1 r1 /ra /setn ?eqxx //; lia.
have lE j : (j <= c)%N -> sl s1 j = sl (update_lr s) j.
  elim: j => [|j IH] hj; first by rewrite sl0 l0.
  rewrite lrec // hl; last by lia.
  by rewrite -pred_Sn IH //; lia.
have rE j : (j <= sN s - c)%N -> sr s1 (sN s - j) = sr (update_lr s) (sN s - j).
  elim: j => [|j IH] hj; first by rewrite subn0 srN rN.
  rewrite subnS rrec; last by lia.
  rewrite hr; last by lia.
  by rewrite IH //; lia.
have enrm : dot (sl s1 c) (sr s1 c) = nrm.
  rewrite lE // -[X in sr s1 X](@subKn c (sN s)); last by lia.
  rewrite rE // subKn; last by lia.
  by rewrite dot_win //=; lia.
rewrite /simple_renorm eNc [c.+1.-1]/= enrm eA.
set A' := setn (sA s) c.+1 (tsc (1 / sqrtC nrm) (sA s c.+1)).
set s2 := if _ then _ else s1.
have [e2l e2r e2N [e2L e2R]] : [/\ sl s2 = sl s1, sr s2 = sr s1, sN s2 = sN s & uL s2 = uL s /\ uR s2 = uR s] by rewrite /s2; case: ifP.
have e2A n : n != c.+1 -> sA s2 n = sA s n by rewrite /s2; case: ifP; rewrite /= /A' /setn ?eA // => _ /negbTE ->.
set s3 := calc_r _ _ _.
pose lb := setn (sl s1) 0%N (bl (uL s) (bL (uL s)).-1); pose rb := setn (sr s1) (sN s) (br (uR s) (bL (uR s)).-1).
have [l3 l4] := lloopP (sA s2) lb (sN s - c) (isT : (0 < c.+1)%N).
have [r3 r4] := rloopP (sA s2) rb 0 c.+1.
have es3 j : (j <= sN s)%N -> sl s3 j = lloop (sA s2) lb c.+1 (sN s - c) j.
  by move=> hj; rewrite /s3 /= e2N e2l e2L subSS -/(lloop (sA s2) lb c.+1 (sN s - c)) {1}/setn ifN //; lia.
have es3N : sl s3 (sN s).+1 = epsl (sl s3 (sN s)) (bA (uR s) 0%N).
  by rewrite (es3 (sN s) (leqnn _)) /s3 /= e2N e2l e2L e2R subSS -/(lloop (sA s2) lb c.+1 (sN s - c)) {1}/setn eqxx.
have er3 j : sr s3 j = rloop (sA s2) rb 0 c.+1 j.
  by rewrite /s3 /= e2N e2r e2R.
have [eN3 eL3 eR3 eA3] : [/\ sN s3 = sN s, uL s3 = uL s, uR s3 = uR s & sA s3 = sA s2] by rewrite /s3 /= e2N e2L e2R.
have ok3 : lr_ok s3.
  split; rewrite ?eN3 ?eL3 ?eR3 ?eA3.
  - by rewrite es3 // l3.
  - by rewrite er3 r3 /rb /setn ?eqxx //; lia.
  - move=> n hn; have h1 : (n <= sN s)%N by lia.
    have h2 : (n.-1 <= sN s)%N by lia.
    rewrite (es3 _ h1) (es3 _ h2); case: (leqP n c) => nc; last by rewrite l4 //; lia.
    rewrite l3; last by lia.
    rewrite l3; last by lia.
    rewrite e2A; last by lia.
    rewrite /lb {1}/setn ifN_eq; last by lia.
    rewrite lrec; last by lia.
    by rewrite /setn; case: eqP => // ->; rewrite sl0.
  - move=> n hn; rewrite (er3 n.-1) (er3 n); case: (leqP n c.+1) => nc; first by rewrite r4 ?prednK //; lia.
    rewrite r3; last by lia.
    rewrite r3; last by lia.
    rewrite e2A; last by lia.
    rewrite /rb {1}/setn ifN_eq; last by lia.
    rewrite rrec; last by lia.
    by rewrite /setn; case: eqP => // ->; rewrite srN.
  - exact: es3N.
split=> //.
move=> n0.
have sc : sl s3 c = sl s1 c.
  rewrite es3; last by lia.
  rewrite l3; last by lia.
  by rewrite /lb /setn; case: eqP => // ->.
have rc1 : sr s3 c.+1 = sr s1 c.+1.
  by rewrite er3 r3; [rewrite /rb /setn; case: eqP => // -> | lia].
have rc : sr s3 c = epsr (sr s1 c.+1) (sA s2 c.+1).
  by have [_ _ _ h _] := ok3; rewrite -rc1 -eA3 -h // eN3; lia.
have rc' : sr s1 c = epsr (sr s1 c.+1) (sA s c.+1) by rewrite -rrec //; lia.
rewrite -(@dot_win s3 c) //; last by rewrite eN3; lia.
have e2c : sA s2 c.+1 = if `|1 - nrm| > tol then tsc (1 / sqrtC nrm) (sA s c.+1) else sA s c.+1.
  by rewrite /s2; case: ifP => _ //=; rewrite /A' /setn eqxx.
rewrite sc rc eA3; case: ifP => ht; rewrite ht in e2c; rewrite e2c; last by split=> //; rewrite -rc' enrm.
split=> //; rewrite (epsr_tsc lw) (dot_vr lw) -rc' enrm.
have sr0 : 0 < sqrtC nrm by rewrite sqrtC_gt0.
rewrite conj_Creal; last by rewrite div1r rpredV gtr0_real.
by rewrite div1r -invfM -expr2 sqrtCK mulVf // gt_eqF.
Qed.
End Norm.
End Sandwich.
