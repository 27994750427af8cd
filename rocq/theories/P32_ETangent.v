(* P32_ETangent.v -- C74: expectation values and correlations in a uniform state with one changed tensor. *)
From mathcomp Require Import all_ssreflect all_algebra.
From mathcomp Require Import zify.
From Verif Require Import Base Spec Eps Chain ChainProofs ChainProofs2 ETangent.
Set Implicit Arguments.
Unset Strict Implicit.
Unset Printing Implicit Defensive.
Import Order.TTheory GRing.Theory Num.Theory.
Local Open Scope ring_scope.

Section C74.
Variables (C : numClosedFieldType) (q D : nat) (A B A2 : nat -> 'M[C]_D) (l r : 'M[C]_D) (d nb : nat).
Notation N := (2 * d + 1)%N.
(* the window of 2d + 1 sites, counted from 1: A before site nb, B at site nb, A2 after it *)
Definition tan_psi : seq nat -> 'M[C]_D :=
  @psi C (fun _ => D) (fun n => if (n.+1 < nb)%N then A else if n.+1 == nb then B else A2) N.
(* <psi|O|psi> on the window, with l and r as boundary densities *)
Definition tan_val (O : (seq nat -> 'M[C]_D) -> seq nat -> 'M[C]_D) : C :=
  bdotst (fun _ => q) N l r tan_psi (O tan_psi).
Notation at1 n o := (op1 (fun _ => q) n o).
Let hl := et_up_l q A B A2 l d nb.
Let hr := et_up_r q A B A2 r d nb.

(* expect_tangent_1s: entry i is the value of the operator at site i + 1; the state is not normalised *)
Theorem C74_expect_1s op : size (expect_tangent_1s q A B A2 l r d nb op) = N /\
  forall i, (i < N)%N -> nth 0 (expect_tangent_1s q A B A2 l r d nb op) i = tan_val (at1 i op).
Proof.
rewrite size_map size_iota; split=> // i h; rewrite (nth_map 0%N) ?size_iota // nth_iota // add1n /=.
by rewrite et_AE //; exact: (expect_1sE hl hr op h).
Qed.
(* g of correlation_tangent_1s_1s: the first operator acts at site 1, the second at site i + 1 *)
Theorem C74_joint o1 o2 : size (tangent_joint q A B A2 l r d nb o1 o2) = N /\
  forall i, (i < N)%N -> nth 0 (tangent_joint q A B A2 l r d nb o1 o2) i = tan_val (fun phi => at1 0 o1 (at1 i o2 phi)).
Proof.
rewrite /= size_map size_iota addn1; split=> // -[|i] h.
  rewrite [LHS]/= et_AE; last by lia.
  have h0 : (0 < N)%N by lia.
  by have := expect_1s_1s0 hl hr o1 o2 h0.
have h' : (i.+1 < N)%N by lia.
rewrite [LHS]/= (nth_map 0%N) ?size_iota; last by lia.
rewrite nth_iota; last by lia.
rewrite !addSn add0n et_AE // et_lj; last by lia.
have h1 : (0 + i.+1 < N)%N by lia.
have := expect_1s_1sE hl hr o1 o2 h1; rewrite add0n; apply: etrans.
by rewrite /expect_1s_1s eps_adjoint_op addn0.
Qed.
(* c of correlation_tangent_1s_1s: the product subtracted is that of the two values at site i + 1 *)
Theorem C74_connected o1 o2 : size (tangent_connected q A B A2 l r d nb o1 o2) = N /\
  forall i, (i < N)%N -> nth 0 (tangent_connected q A B A2 l r d nb o1 o2) i =
    tan_val (fun phi => at1 0 o1 (at1 i o2 phi)) - tan_val (at1 i o1) * tan_val (at1 i o2).
Proof.
have [s0 h0] := C74_joint o1 o2; have [s1 h1] := C74_expect_1s o1; have [s2 h2] := C74_expect_1s o2.
have sz : size (zip (expect_tangent_1s q A B A2 l r d nb o1) (expect_tangent_1s q A B A2 l r d nb o2)) = N.
  by rewrite size_zip s1 s2 minnn.
rewrite /tangent_connected size_map size_zip size_map sz s0 minnn; split=> // i h.
rewrite (nth_map (0, 0)); last by rewrite size_zip size_map sz s0 minnn.
rewrite nth_zip ?size_map ?sz ?s0 //= h0 // (nth_map (0, 0)) ?sz // nth_zip ?s1 ?s2 //=.
by rewrite h1 // h2.
Qed.
(* it is the connected correlation of site 1 with site i + 1 exactly when the first operator has the same value at the
   two sites, or the second one has the value 0 *)
Theorem C74_connected_iff o1 o2 i : (i < N)%N ->
  nth 0 (tangent_connected q A B A2 l r d nb o1 o2) i =
    tan_val (fun phi => at1 0 o1 (at1 i o2 phi)) - tan_val (at1 0 o1) * tan_val (at1 i o2) <->
  tan_val (at1 i o1) = tan_val (at1 0 o1) \/ tan_val (at1 i o2) = 0.
Proof.
move=> h; have [_ /(_ i h) ->] := C74_connected o1 o2; split=> [/addrI /oppr_inj /eqP|].
  by rewrite -subr_eq0 -mulrBl mulf_eq0 subr_eq0 => /orP[/eqP ->|/eqP ->]; [left|right].
by case=> ->; rewrite ?mulr0.
Qed.
(* the norm of the window state, for environments that are fixed points of the tensors next to them *)
Theorem C74_norm : (0 < nb <= N)%N -> eps_l_noop q l A A = l -> eps_r_noop q r A2 A2 = r ->
  tan_val id = adot l (eps_r_noop q r B B).
Proof.
move=> hn el er; case en: nb hn => [//|n] hn.
have tE : et_tensors A B A2 nb n = B by rewrite /et_tensors en ltnn eqxx.
have nN : (n <= N)%N by lia.
have <- : adot (et_l q A B A2 l d nb None n) (et_r q A B A2 r d nb n) = tan_val id := norm_cut hl hr nN.
have lE m : (m <= n)%N -> et_l q A B A2 l d nb None m = l.
  elim: m => [//|m IH] h; have [_ /(_ m) ->] := hl; last by lia.
  by rewrite IH; [rewrite /et_tensors en ifT // ltnS; lia|lia].
have rE k : (n < N - k)%N -> et_r q A B A2 r d nb (N - k) = r.
  elim: k => [|k IH] h; first by have [e _] := hr; rewrite subn0.
  have [_ /(_ (N - k.+1)%N)] := hr; rewrite (_ : (N - k.+1).+1 = N - k)%N; last by lia.
  move=> ->; last by lia.
  rewrite IH; last by lia.
  rewrite /et_tensors en ifF; last by lia.
  by rewrite ifF //; lia.
rewrite lE //; have [_ /(_ n) ->] := hr; last by lia.
rewrite tE (_ : n.+1 = N - (N - n.+1))%N; last by lia.
by rewrite rE //; lia.
Qed.
End C74.
Section C74b.
Variables (C : numClosedFieldType) (q D : nat) (A B : nat -> 'M[C]_D) (l r : 'M[C]_D) (d : nat).
(* nb = 0: the changed tensor is outside the window and has no effect *)
Theorem C74_outside (A2 B' : nat -> 'M[C]_D) op :
  expect_tangent_1s q A B A2 l r d 0 op = expect_tangent_1s q A B' A2 l r d 0 op.
Proof.
have [s h] := C74_expect_1s q A B A2 l r d 0 op; have [s' h'] := C74_expect_1s q A B' A2 l r d 0 op.
by apply: (@eq_from_nth _ 0) => [|i]; rewrite s ?s' // => hi; rewrite h // h'.
Qed.
(* expect_tangent_2s: B at the middle of the window, entry i is the value of the operator at the sites i + 1, i + 2 *)
Theorem C74_expect_2s op : size (expect_tangent_2s q A B l r d op) = (2 * d)%N /\
  forall i, (i < 2 * d)%N -> nth 0 (expect_tangent_2s q A B l r d op) i = tan_val q A B A l r d d.+1 (op2 (fun _ => q) i op).
Proof.
rewrite size_map size_iota; split=> // i h; rewrite (nth_map 0%N) ?size_iota // nth_iota // add1n.
have lE T (x y z : T) n : (n < 2 * d + 2)%N ->
    nth x (et_list d x y z) n = if n == d.+1 then z else if n == d then y else x.
  by move=> hn; rewrite /et_list nth_set_nth /= nth_set_nth /= nth_nseq hn.
rewrite !lE; try lia.
have hi : (i.+1 < 2 * d + 1)%N by lia.
have := expect_2sE (et_up_l q A B A l d d.+1) (et_up_r q A B A r d d.+1) op hi; apply: etrans.
rewrite /expect_2s; set T := et_tensors A B A d.+1.
have tE n : T n = if n == d then B else A by rewrite /T /et_tensors ltnS eqSS; case: ltngtP.
rewrite !tE eqSS; have [->|_] := eqVneq i d; first by rewrite ifF //; lia.
by case: (i.+1 == d).
Qed.
(* no changed tensor, a fixed point on either side: every entry is the expectation value in the uniform state, and c is
   the connected correlation function *)
Theorem C74_uniform nb op i : (i < 2 * d + 1)%N -> eps_l_noop q l A A = l -> eps_r_noop q r A A = r ->
  nth 0 (expect_tangent_1s q A A A l r d nb op) i = adot l (eps_r_op_1s q r A A op).
Proof.
move=> h el er; have tE n : et_tensors A A A nb n = A by rewrite /et_tensors; case: ifP => // _; case: ifP.
have lE m : (m <= 2 * d + 1)%N -> et_l q A A A l d nb None m = l.
  elim: m => [//|m IH] hm; have [_ /(_ m hm) ->] := et_up_l q A A A l d nb.
  by rewrite tE IH //; lia.
have rE k : (k <= 2 * d + 1)%N -> et_r q A A A r d nb (2 * d + 1 - k) = r.
  elim: k => [|k IH] hk; first by have [e _] := et_up_r q A A A r d nb; rewrite subn0.
  have [_ /(_ (2 * d + 1 - k.+1)%N)] := et_up_r q A A A r d nb.
  rewrite (_ : (2 * d + 1 - k.+1).+1 = 2 * d + 1 - k)%N; last by lia.
  by move=> ->; [rewrite tE IH //; lia|lia].
rewrite (nth_map 0%N) ?size_iota // nth_iota // add1n et_AE // tE lE /=; last by lia.
by rewrite (_ : i.+1 = 2 * d + 1 - (2 * d + 1 - i.+1))%N ?rE //; lia.
Qed.
Corollary C74_uniform_connected nb o1 o2 i : (i < 2 * d + 1)%N -> eps_l_noop q l A A = l -> eps_r_noop q r A A = r ->
  nth 0 (tangent_connected q A A A l r d nb o1 o2) i =
    tan_val q A A A l r d nb (fun phi => op1 (fun _ => q) 0 o1 (op1 (fun _ => q) i o2 phi)) -
    tan_val q A A A l r d nb (op1 (fun _ => q) 0 o1) * tan_val q A A A l r d nb (op1 (fun _ => q) i o2).
Proof.
move=> h el er; have h0 : (0 < 2 * d + 1)%N by lia.
have [_ e] := C74_expect_1s q A A A l r d nb o1.
by apply/(C74_connected_iff q A A A l r nb o1 o2 h); left; rewrite -!e // !C74_uniform.
Qed.
End C74b.

(* a product state 0 1 0 of three two-level systems; Z has the values 1, -1, 1 and the connected correlation of sites 1
   and 2 is zero, but c has the entry -2 *)
Section Ex.
Variable C : numClosedFieldType.
Definition ket (b : nat) : nat -> 'M[C]_1 := fun s => (s == b)%:R%:M.
Definition opZ : op1s C := fun s t => if s == t then (-1) ^+ s else 0.
Lemma ket_l b x : (b < 2)%N -> eps_l_noop 2 (x%:M : 'M[C]_1) (ket b) (ket b) = x%:M.
Proof.
by case: b => [|[|//]] _; rewrite /eps_l_noop !big_ord_recl big_ord0 /ket /= adj1 !raddf0 ?mul0mx ?mul1mx ?mulmx1 ?addr0 ?add0r.
Qed.
Lemma ket_r b x : (b < 2)%N -> eps_r_noop 2 (x%:M : 'M[C]_1) (ket b) (ket b) = x%:M.
Proof.
by case: b => [|[|//]] _; rewrite /eps_r_noop !big_ord_recl big_ord0 /ket /= adj1 !raddf0 ?mul0mx ?mul1mx ?mulmx1 ?addr0 ?add0r.
Qed.
Lemma ket_rop b x op : (b < 2)%N -> eps_r_op_1s 2 (x%:M : 'M[C]_1) (ket b) (ket b) op = (op b b * x)%:M.
Proof.
by case: b => [|[|//]] _; rewrite eps_r_op_1sE !big_ord_recl !big_ord0 /ket /= adj1 !raddf0
  !(adj0, mul0mx, mul1mx, mulmx1, mulmx0, scaler0, addr0, add0r) scale_scalar_mx.
Qed.
Lemma ket_lop b x op : (b < 2)%N -> eps_l_op_1s 2 (x%:M : 'M[C]_1) (ket b) (ket b) op = ((op b b)^* * x)%:M.
Proof.
by case: b => [|[|//]] _; rewrite eps_l_op_1sE !big_ord_recl !big_ord0 /ket /= adj1 !raddf0
  !(adj0, mul0mx, mul1mx, mulmx1, mulmx0, scaler0, addr0, add0r) scale_scalar_mx.
Qed.
Lemma ex_A n : (0 < n < 4)%N -> et_A (ket 0) (ket 1) (ket 0) 1 2 n = ket (n == 2%N).
Proof. by case: n => [|[|[|[|n]]]]. Qed.
Lemma ex_r n : (0 < n < 4)%N -> et_r 2 (ket 0) (ket 1) (ket 0) (1%:M : 'M[C]_1) 1 2 n = 1%:M.
Proof. by case: n => [|[|[|[|n]]]] // _; rewrite /et_r /= ?ex_A //= ?ket_r. Qed.
Lemma ex_l n : (n < 3)%N -> et_l 2 (ket 0) (ket 1) (ket 0) (1%:M : 'M[C]_1) 1 2 None n = 1%:M.
Proof. by case: n => [|[|[|n]]] // _; rewrite /= ?ex_A //= ?ket_l. Qed.
Lemma ex_exp op : expect_tangent_1s 2 (ket 0) (ket 1) (ket 0) (1%:M : 'M[C]_1) 1%:M 1 2 op =
  [:: op 0%N 0%N; op 1%N 1%N; op 0%N 0%N].
Proof.
have ad (x : C) : adot (1%:M : 'M[C]_1) x%:M = x by rewrite adotE adj1 mul1mx mxtrace_scalar.
rewrite /expect_tangent_1s [iota 1 _]/= !map_cons.
rewrite !ex_A // !ex_r // !ex_l // !ket_rop //.
by rewrite !ad !mulr1.
Qed.
Lemma ex_joint o1 o2 : tangent_joint 2 (ket 0) (ket 1) (ket 0) (1%:M : 'M[C]_1) 1%:M 1 2 o1 o2 =
  [:: opdot 2 o1 o2 0%N 0%N; o1 0%N 0%N * o2 1%N 1%N; o1 0%N 0%N * o2 0%N 0%N].
Proof.
have ad (x y : C) : adot (x%:M : 'M[C]_1) y%:M = x^* * y.
  by rewrite adotE adj_scalar -scalar_mxM mxtrace_scalar.
rewrite /tangent_joint [iota 2 _]/= !map_cons.
rewrite /= !ex_A // !ex_r // !ket_lop // !ket_l // !ket_rop // !ad.
by rewrite !mulr1 conjC1 conjCK mul1r.
Qed.
Theorem C74_connected_refuted : exists (A B : nat -> 'M[C]_1) (l r : 'M[C]_1) (o1 o2 : op1s C),
  [/\ eps_l_noop 2 l A A = l, eps_r_noop 2 r A A = r, adot l (eps_r_noop 2 r B B) = 1,
      nth 0 (tangent_connected 2 A B A l r 1 2 o1 o2) 1 = - 2%:R
    & tan_val 2 A B A l r 1 2 (fun phi => op1 (fun _ => 2%N) 0 o1 (op1 (fun _ => 2%N) 1 o2 phi)) -
      tan_val 2 A B A l r 1 2 (op1 (fun _ => 2%N) 0 o1) * tan_val 2 A B A l r 1 2 (op1 (fun _ => 2%N) 1 o2) = 0].
Proof.
exists (ket 0), (ket 1), 1%:M, 1%:M, opZ, opZ; split; rewrite ?ket_l ?ket_r //.
- by rewrite adotE adj1 mul1mx mxtrace1.
- by rewrite /tangent_connected ex_exp ex_joint /= /opZ /= expr1 !expr0 mul1r mulrNN mulr1 -opprD -mulr2n.
- have [_ j] := C74_joint 2 (ket 0) (ket 1) (ket 0) (1%:M : 'M[C]_1) 1%:M 1 2 opZ opZ.
  have [_ e] := C74_expect_1s 2 (ket 0) (ket 1) (ket 0) (1%:M : 'M[C]_1) 1%:M 1 2 opZ.
  rewrite -(j 1%N) // -(e 0%N) // -(e 1%N) // ex_joint ex_exp /= /opZ /= expr1 expr0.
  by rewrite subrr.
Qed.
(* the values themselves, and the entries of c that are right *)
Example C74_example : expect_tangent_1s 2 (ket 0) (ket 1) (ket 0) (1%:M : 'M[C]_1) 1%:M 1 2 opZ = [:: 1; -1; 1] /\
  tangent_connected 2 (ket 0) (ket 1) (ket 0) (1%:M : 'M[C]_1) 1%:M 1 2 opZ opZ = [:: 0; -2%:R; 0].
Proof.
rewrite /tangent_connected ex_exp ex_joint /= /opdot !big_ord_recl big_ord0 /opZ /= expr1 !expr0.
by rewrite !(mul1r, mul0r, mulr0, addr0) mulrNN mulr1 subrr -opprD -mulr2n.
Qed.
End Ex.
Print Assumptions C74_expect_1s.
Print Assumptions C74_joint.
Print Assumptions C74_connected.
Print Assumptions C74_connected_iff.
Print Assumptions C74_norm.
Print Assumptions C74_outside.
Print Assumptions C74_expect_2s.
Print Assumptions C74_uniform.
Print Assumptions C74_uniform_connected.
Print Assumptions C74_connected_refuted.
