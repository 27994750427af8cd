(* P36_FindGround.v -- C78: the ground state driver find_ground. *)
From mathcomp Require Import all_ssreflect all_algebra.
From mathcomp Require Import zify.
From Verif Require Import Drivers P13_Drivers FindGround.
Set Implicit Arguments.
Unset Strict Implicit.
Unset Printing Implicit Defensive.

Section C78.
Variables (S : Type) (sD : S -> nat).
Variables (im0 : S -> opt_res S) (imx : nat -> S -> opt_res S) (cgx cg : S -> opt_res S).
Notation fg := (find_ground sD im0 imx cgx cg).
Notation loop := (fg_loop sD imx cgx).
(* established for opt_im_time and opt_conj_grad: callbacks 0, 1, ..., n - 1 and n is returned *)
Definition numbers (f : S -> opt_res S) := forall s, or_cbs (f s) = iota 0 (or_n (f s)).

Lemma frun_cbs c f (x : fst_ S) : numbers f -> f_cbs x = iota 0 (f_j x) -> f_cbs (frun c f x) = iota 0 (f_j (frun c f x)).
Proof.
move=> h e; have := iotaDl (f_j x) 0 (or_n (f (f_sys x))); rewrite addn0 => e1.
by rewrite /= h e iotaD add0n e1.
Qed.
(* the callbacks of all stages are numbered consecutively, nothing twice, nothing left out *)
Theorem C78_callbacks fuel Dto step s x : numbers im0 -> (forall T, numbers (imx T)) -> numbers cgx -> numbers cg ->
  fg fuel Dto step s = Some x -> f_cbs x = iota 0 (f_j x).
Proof.
move=> h0 hx hc hg; rewrite /find_ground; set d := if Dto is Some d then d else _.
have : f_cbs (frun CIm0 im0 (FState s 0 [::] [::])) = iota 0 (f_j (frun CIm0 im0 (FState s 0 [::] [::]))) by exact: frun_cbs.
move: (frun CIm0 _ _) => y hy; case e : (loop fuel d step y) => [z|] // [<-]; apply: frun_cbs => //.
elim: fuel y hy e => [|fuel IH] y hy /=; case: ifP => _; [by []|by case=> <-| |by case=> <-].
by apply: IH; apply: frun_cbs => //; apply: frun_cbs.
Qed.
(* when it returns, the wanted bond dimension was reached before the last optimisation *)
Theorem C78_reached fuel Dto step s x : fg fuel (Some Dto) step s = Some x ->
  exists y, [/\ x = frun CCg cg y, Dto <= sD (f_sys y) & last CCg (f_calls x) = CCg].
Proof.
rewrite /find_ground; case e : (loop _ _ _ _) => [z|] // [<-]; exists z; split=> //; last by rewrite /= last_rcons.
move: e; move: (frun CIm0 _ _) => y; elim: fuel y => [|fuel IH] y /=; case: ltnP => // h; try by case=> <-.
exact: IH.
Qed.
(* whenever the first stage leaves the bond dimension large enough (at least the initial one if expand_to_D is not
   given) there is no expansion *)
Theorem C78_no_expansion fuel Dto step s : odflt (sD s) Dto <= sD (or_sys (im0 s)) ->
  exists2 x, fg fuel Dto step s = Some x & f_calls x = [:: CIm0; CCg].
Proof.
move=> h; rewrite /find_ground (_ : (if Dto is Some d then d else sD s) = odflt (sD s) Dto); last by case: Dto {h}.
by case: fuel => [|fuel] /=; rewrite ltnNge h /=; eexists.
Qed.
(* if the conjugate gradient stage keeps the bond dimension and the expansion reaches the one asked for, each turn asks
   for expand_step more but never for more than expand_to_D, and the loop ends after the least number of turns *)
Definition asked (D step Dto n : nat) : seq fcall := flatten [seq [:: CCgx; CImx (minn (D + i.+1 * step) Dto)] | i <- iota 0 n].
Theorem C78_expansion fuel Dto step s n (D := sD (or_sys (im0 s))) :
  (forall t, sD (or_sys (cgx t)) = sD t) -> (forall T t, sD t < T -> sD (or_sys (imx T t)) = T) ->
  0 < step -> Dto <= D + n * step -> (0 < n -> D + n.-1 * step < Dto) -> n <= fuel ->
  exists x y, [/\ fg fuel (Some Dto) step s = Some x, x = frun CCg cg y, sD (f_sys y) = maxn D Dto
    & f_calls x = CIm0 :: rcons (asked D step Dto n) CCg].
Proof.
move=> hc hi st0 big least nf; rewrite /find_ground.
suff gen m fuel' (y : fst_ S) : m <= n -> sD (f_sys y) = (if m == 0 then D else minn (D + m * step) Dto) -> n <= fuel' + m ->
    f_calls y = CIm0 :: asked D step Dto m ->
    exists z, [/\ loop fuel' Dto step y = Some z, sD (f_sys z) = maxn D Dto & f_calls z = CIm0 :: asked D step Dto n].
  have [||//||z [-> hz cz]] := gen 0 fuel (frun CIm0 im0 (FState s 0 [::] [::])) => //; first by rewrite addn0.
  by exists (frun CCg cg z), z; split=> //=; rewrite cz.
move: {2}(n - m) (leqnn (n - m)) => k; elim: k m fuel' y => [|k IH] m fuel' y hk mn hD hf hy.
  have em : m = n by lia.
  rewrite em in hD hy.
  have [h1 h2] : Dto <= sD (f_sys y) /\ sD (f_sys y) = maxn D Dto.
    rewrite hD; case: eqP => [n0|n0]; first by move: big; rewrite n0; lia.
    have n1 : 0 < n by lia.
    have l1 := least n1; move: (n.-1 * step) (n * step) l1 big => a b; lia.
  by exists y; case: fuel' {hf} => [|fuel'] /=; rewrite ltnNge h1.
have [em|ltm] := eqVneq m n; first by apply: (IH m fuel' y) => //; rewrite em subnn.
have {}ltm : m < n by lia.
have lt1 : D + m * step < Dto.
  have := least (leq_trans (ltn0Sn m) ltm); nia.
have hD' : sD (f_sys y) = D + m * step by rewrite hD; case: eqP => [->|_]; lia.
case: fuel' hf => [|fuel'] hf; first by lia.
rewrite /= hD' lt1 hc hD'; apply: (IH m.+1) => //; try by lia.
- rewrite /= hi; first by rewrite mulSn; congr minn; lia.
  by rewrite hc hD'; lia.
- rewrite /= hy /= -!cats1 /asked -[m.+1]addn1 iotaD map_cat flatten_cat /= add0n -catA /=.
  by have -> : D + m * step + step = D + m.+1 * step by rewrite mulSn; lia.
Qed.
(* an expansion stage that does not raise the bond dimension is repeated for ever *)
Theorem C78_stuck fuel Dto step s : sD (or_sys (im0 s)) < Dto ->
  (forall t, sD t < Dto -> sD (or_sys (cgx t)) < Dto) -> (forall T t, sD t < Dto -> sD (or_sys (imx T t)) < Dto) ->
  fg fuel (Some Dto) step s = None.
Proof.
move=> h0 hc hi; rewrite /find_ground.
suff gen : forall y, sD (f_sys y) < Dto -> loop fuel Dto step y = None by rewrite gen.
elim: fuel => [|fuel IH] y h /=; rewrite h //; apply: IH => /=.
by apply: hi; apply: hc.
Qed.
End C78.

(* ---- with the model of opt_im_time (Drivers.v) in place of the function imx ---- *)
Section WithImTime.
Import GRing.Theory Num.Theory.
Local Open Scope ring_scope.
Variables (R : rcfType) (S : Type) (ops : iops R S) (tol base dtau0 : R) (auto : bool) (exp_tol : R) (wait : nat).
Definition im_res (n : nat) (T : nat) (s : S) : opt_res S :=
  let r := opt_im_time ops tol base dtau0 auto T exp_tol wait n%:Z s in
  OptRes (i_sys r.2) [seq c.1 | c <- icbs (i_log r.2)] r.1.
Theorem C78_im_numbers n T : numbers (im_res n T).
Proof.
move=> s; rewrite /im_res /= (r_cbs (C55_im_time ops tol base dtau0 auto T exp_tol wait n s)) -map_comp.
by rewrite (eq_map (f2 := id)) ?map_id.
Qed.
(* max_itr = 0 means "no steps"; with a larger bond dimension wanted find_ground does not return *)
Theorem C78_max_itr_0_refuted (im0 cg : S -> opt_res S) cgx fuel Dto step s :
  (forall t, io_D ops (io_upd ops t) = io_D ops t) -> (forall i tau t, io_D ops (io_cb ops i tau t) = io_D ops t) ->
  (forall t, io_D ops (or_sys (cgx t)) = io_D ops t) -> (io_D ops (or_sys (im0 s)) < Dto)%N ->
  find_ground (io_D ops) im0 (im_res 0) cgx cg fuel (Some Dto) step s = None.
Proof.
move=> hu hcb hc h0; apply: C78_stuck => // [t|T t] h; first by rewrite hc.
by rewrite /im_res /= hcb hu.
Qed.
End WithImTime.

(* the bond dimension as system: from 2 to 7 in steps of 2, each optimiser making two iterations *)
Section Ex.
Definition ex_im0 (d : nat) := OptRes d [:: 0; 1] 2.
Definition ex_imx (T d : nat) := OptRes T [:: 0; 1] 2.
Example C78_example : find_ground id ex_im0 ex_imx ex_im0 ex_im0 3 (Some 7) 2 2 =
  Some (FState 7 16 (iota 0 16) [:: CIm0; CCgx; CImx 4; CCgx; CImx 6; CCgx; CImx 7; CCg]) /\
  find_ground id ex_im0 ex_imx ex_im0 ex_im0 2 (Some 7) 2 2 = None.
Proof. by []. Qed.
End Ex.
Print Assumptions C78_callbacks.
Print Assumptions C78_reached.
Print Assumptions C78_no_expansion.
Print Assumptions C78_expansion.
Print Assumptions C78_stuck.
Print Assumptions C78_im_numbers.
Print Assumptions C78_max_itr_0_refuted.
