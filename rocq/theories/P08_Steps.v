(* P08_Steps.v -- the integrators: Runge-Kutta steps (C31) and the memory-saving Euler step (C32). *)
From mathcomp Require Import all_ssreflect all_algebra.
From mathcomp Require Import zify.
From Verif Require Import Base Spec Eps Chain LinAlg Struct Factor Tdvp Steps.
Set Implicit Arguments.
Unset Strict Implicit.
Unset Printing Implicit Defensive.
Import GRing.Theory Num.Theory.
Local Open Scope ring_scope.

(* ===== C31 ============================================================================================ *)
Section C31.
Variables (C : numClosedFieldType) (V : nat -> lmodType C) (N : nat).
Local Notation tens := (forall n, V n).
(* update() followed by calc_B(): depends on the tensors only through their values; whether B[n] is
   None does not depend on the tensors (see C31_none_pattern_r / _l) *)
Variable f : tens -> forall n, option (V n).
Hypothesis fext : forall A A' n, (forall m, A m = A' m) -> f A n = f A' n.
Hypothesis fpat : forall A A' n, (n < N)%N -> isSome (f A n) = isSome (f A' n).
Variable dtau : C.
(* B[n], zero where there is none *)
Local Notation K A := (fun n => if (n < N)%N then odflt 0 (f A n) else 0).
Local Notation back A h k := (fun n => A n - h *: k n).

(* finite class (in place first half step) and sandwich class *)
Theorem C31_rk4 inplace (s : state V) : (forall n, (n < N)%N -> (rA (s n) < nxt (s n))%N) ->
  let A0 := tA s in
  let k1 : tens := K A0 in
  let k2 : tens := K (back A0 (dtau / 2%:R) k1) in
  let k3 : tens := K (back A0 (dtau / 2%:R) k2) in
  let k4 : tens := K (back A0 (dtau) k3) in
  exists2 s', take_step_RK4 N f dtau inplace s = Some s' &
    forall n, tA s' n = A0 n - (dtau / 6%:R) *: (k1 n + 2%:R *: k2 n + 2%:R *: k3 n + k4 n).
Proof. by move=> lA A0 k1 k2 k3 k4; exact: take_step_RK4_ok. Qed.

(* with B_i: the given arrays serve as k1; they are overwritten and end up holding the weighted sum *)
Theorem C31_rk4_given_B inplace (Bi : nat -> option nat) (s : state V) :
  (forall n, (n < N)%N -> (rA (s n) < nxt (s n))%N) ->
  (forall n p, (n < N)%N -> Bi n = Some p -> (p < nxt (s n))%N && (p != rA (s n))) ->
  (forall n A, (n < N)%N -> isSome (Bi n) = isSome (f A n)) ->
  let A0 := tA s in
  let k1 : tens := fun n => if (n < N)%N then odflt 0 (omap (mem (s n)) (Bi n)) else 0 in
  let k2 : tens := K (back A0 (dtau / 2%:R) k1) in
  let k3 : tens := K (back A0 (dtau / 2%:R) k2) in
  let k4 : tens := K (back A0 (dtau) k3) in
  let sum n := k1 n + 2%:R *: k2 n + 2%:R *: k3 n + k4 n in
  exists2 s', take_step_RK4_B N f dtau inplace Bi s = Some s' &
    (forall n, tA s' n = A0 n - (dtau / 6%:R) *: sum n) /\
    (forall n p, (n < N)%N -> Bi n = Some p -> mem (s' n) p = sum n).
Proof. by move=> lA hB pat A0 k1 k2 k3 k4 sum; exact: take_step_RK4_B_ok. Qed.
End C31.

(* the hypothesis on the None pattern holds for both gauges: a B is defined iff the number of columns
   of V (which only depends on bond and site dimensions) is positive *)
Theorem C31_none_pattern_r (C : numClosedFieldType) (D q : nat -> nat) (A : tensors C D)
  (l r : forall n, smat C (D n) (D n)) eigh qrf tol x m b :
  calc_B_r_n (q := q) A l r eigh qrf tol x m = Some b -> isSome b.1 = (D m < D m.+1 * q m)%N.
Proof. by rewrite /calc_B_r_n; case: leqP => _; [case=> <-|case: (x m) => // a [<-]]. Qed.
Theorem C31_none_pattern_l (C : numClosedFieldType) (D q : nat -> nat) (A : tensors C D)
  (l r : forall n, smat C (D n) (D n)) eigh qrf tol x m b :
  calc_B_l_n (q := q) A l r eigh qrf tol x m = Some b -> isSome b.1 = (D m.+1 < q m * D m)%N.
Proof. by rewrite /calc_B_l_n; case: leqP => _; [case=> <-|case: (x m) => // a [<-]]. Qed.

Section C31u.
Variables (C : numClosedFieldType) (V : lmodType C) (L : nat).
Local Notation tens := (nat -> V).
Variable f : tens -> tens.
Hypothesis fext : forall A A', (forall k, A k = A' k) -> forall k, f A k = f A' k.
Variable dtau : C.
Local Notation K A := (fun k => if (k < L)%N then f A k else 0).
Local Notation back A h k := (fun n => A n - h *: k n).

(* what the uniform class computes: every site receives the sum of k3 over the unit cell *)
Theorem C31_uniform_formula (A0 k1 : tens) : (forall k, (L <= k)%N -> k1 k = 0) ->
  let k2 : tens := K (back A0 (dtau / 2%:R) k1) in
  let k3 : tens := K (back A0 (dtau / 2%:R) k2) in
  let k4 : tens := K (back A0 (dtau) k3) in
  (forall k, (k < L)%N -> (take_step_RK4_u L f dtau A0 k1).1 k =
     A0 k - (dtau / 6%:R) *: (k1 k + 2%:R *: k2 k + 2%:R *: (\sum_(j < L) k3 j) + k4 k)) /\
  (forall k, (take_step_RK4_u L f dtau A0 k1).2 k = k1 k + 2%:R *: k2 k).
Proof.
move=> k10 k2 k3 k4; have [h1 h2] := take_step_RK4_uE dtau fext A0 k10.
by split=> // k kL; rewrite h1 kL.
Qed.

(* so it is the classical step for a one-site unit cell *)
Theorem C31_uniform_one_site (A0 k1 : tens) : L = 1%N -> (forall k, (L <= k)%N -> k1 k = 0) ->
  let k2 : tens := K (back A0 (dtau / 2%:R) k1) in
  let k3 : tens := K (back A0 (dtau / 2%:R) k2) in
  let k4 : tens := K (back A0 (dtau) k3) in
  (take_step_RK4_u L f dtau A0 k1).1 0%N =
     A0 0%N - (dtau / 6%:R) *: (k1 0%N + 2%:R *: k2 0%N + 2%:R *: k3 0%N + k4 0%N).
Proof.
move=> L1 k10 k2 k3 k4; have [h1 _] := C31_uniform_formula A0 k10.
rewrite h1; last (by rewrite L1); congr (_ - _ *: (_ + _ *: _ + _)).
have S (g : tens) M : M = 1%N -> \sum_(j < M) g j = g 0%N by move=> ->; rewrite big_ord1.
exact: (S k3 L L1).
Qed.
End C31u.


(* two sites per cell, exponential decay dA/dtau = -A, all tensors 1, dtau = 6: the classical value is
   1 - 6 + 6^2/2 - 6^3/6 + 6^4/24 = 31 at each site (and the program gives it for one site per cell);
   for two sites per cell the program gives 17 *)
Section Num.
Variable C : numClosedFieldType.
Definition decay (A : nat -> C^o) (k : nat) : C^o := if (k < 2)%N then A k else 0.
Definition ones (L k : nat) : C^o := if (k < L)%N then 1 else 0.
Lemma six2 : 6%:R / 2%:R = 3%:R :> C.
Proof. by rewrite (natrM C 3 2) mulfK // pnatr_eq0. Qed.
Lemma six6 : 6%:R / 6%:R = 1 :> C.
Proof. by rewrite divff // pnatr_eq0. Qed.
Lemma decay_ext (A A' : nat -> C^o) : (forall k, A k = A' k) -> forall k, decay A k = decay A' k.
Proof. by move=> e k; rewrite /decay e. Qed.

Lemma num1 : 1 - 3%:R * 1 = - 2%:R :> C. Proof. by rewrite mulr1 -opprB -(natrB _ (isT : (1 <= 3)%N)). Qed.
Lemma num2 : 1 - 3%:R * - 2%:R = 7%:R :> C. Proof. by rewrite mulrN opprK -natrM -(natrD _ 1 6). Qed.
Lemma num3 : 1 - 6%:R * 7%:R = - 41%:R :> C. Proof. by rewrite -natrM -opprB -(natrB _ (isT : (1 <= 42)%N)). Qed.
Lemma num4gen (a b c d : C) : a - (a - b + c - d) = b + d - c.
Proof. by rewrite !opprD !opprK !addrA subrr add0r addrAC. Qed.
Lemma num4 x : 1 - 1 * (1 + 2%:R * - 2%:R + 2%:R * x%:R + - 41%:R) = 45%:R - (2 * x)%:R :> C.
Proof.
by rewrite mul1r mulrN -!natrM num4gen -natrD.
Qed.
Example C31_uniform_example : (take_step_RK4_u 1 decay 6%:R (ones 1) (ones 1)).1 0%N = 31%:R :> C.
Proof.
rewrite (C31_uniform_one_site decay_ext) //; last by case.
rewrite six2 six6 /decay /ones /= /GRing.scale /= num1 num2 num3 num4.
by rewrite -natrB.
Qed.
Theorem C31_uniform_refuted : exists (f : (nat -> C^o) -> nat -> C^o) dtau A0,
  [/\ forall A A', (forall k, A k = A' k) -> forall k, f A k = f A' k,
      (take_step_RK4_u 1 f dtau (A0 1%N) (A0 1%N)).1 0%N = 31%:R,
      forall k, (k < 2)%N -> f (A0 2%N) k = A0 2%N k
    & (take_step_RK4_u 2 f dtau (A0 2%N) (f (A0 2%N))).1 0%N = 17%:R].
Proof.
exists decay, 6%:R, ones; split; [exact: decay_ext|exact: C31_uniform_example| |].
  by move=> k k2; rewrite /decay k2.
have k10 k : (2 <= k)%N -> decay (ones 2) k = 0 by move=> k2; rewrite /decay ltnNge k2.
have [h _] := C31_uniform_formula decay_ext 6%:R (ones 2) k10.
rewrite h // big_ord_recl big_ord1 six2 six6 /decay /ones /= /GRing.scale /= num1 num2 num3 -natrD num4.
by rewrite -natrB.
Qed.
(* the finite program on the same problem, with a None site in the middle that stays put, and a
   caller who passes B_i *)
Definition cell0 (n : nat) : cell (fun _ => [lmodType C of C^o]) n :=
  Cell (fun _ => 1) 2 0 0 None None.
Definition decay3 (A : nat -> C^o) (n : nat) : option C^o := if n == 1%N then None else Some (A n).
Example C31_example inplace : exists2 s', take_step_RK4 3 decay3 6%:R inplace cell0 = Some s' &
  [/\ tA s' 0%N = 31%:R, tA s' 1%N = 1 & tA s' 2%N = 31%:R].
Proof.
have h1 (A A' : nat -> C^o) n : (forall m, A m = A' m) -> decay3 A n = decay3 A' n.
  by move=> eA; rewrite /decay3 eA.
have h2 (A A' : nat -> C^o) n : (n < 3)%N -> isSome (decay3 A n) = isSome (decay3 A' n).
  by move=> _; rewrite /decay3; case: ifP.
have [//|s' e h] := C31_rk4 h1 h2 6%:R inplace (s := cell0).
exists s'; first exact: e.
have S a b : a *: (b : C^o) = a * b by [].
split; rewrite h /decay3 /=; clear h e; rewrite ?six2 ?six6 /tA /= ?S.
- by rewrite num1 num2 num3 num4 -natrB.
- by rewrite !mulr0 !addr0 mulr0 subr0.
- by rewrite num1 num2 num3 num4 -natrB.
Qed.
Theorem C31_caller_array_refuted inplace : exists (f : (nat -> C^o) -> nat -> option C^o) (Bi : nat -> option nat) s s',
  [/\ take_step_RK4_B 1 f 6%:R inplace Bi s = Some s', Bi 0%N = Some 1%N,
      mem (s 0%N) 1%N = 1 & mem (s' 0%N) 1%N = - 30%:R].
Proof.
pose Bi (n : nat) := if n == 1%N then None else Some 1%N.
have h1 (A A' : nat -> C^o) n : (forall m, A m = A' m) -> decay3 A n = decay3 A' n.
  by move=> eA; rewrite /decay3 eA.
have h2 (A A' : nat -> C^o) n : (n < 1)%N -> isSome (decay3 A n) = isSome (decay3 A' n).
  by move=> _; rewrite /decay3; case: ifP.
have [//|||s' e [_ h]] := C31_rk4_given_B h1 h2 6%:R inplace (Bi := Bi) (s := cell0).
- by move=> [|n] p //= _ [<-].
- by move=> [|n].
have S a b : a *: (b : C^o) = a * b by [].
exists decay3, Bi, cell0, s'; split; [exact: e|by []|by []|].
rewrite (h 0%N 1%N) // /decay3 /=; clear h e; rewrite ?six2 /tA /= ?S num1 num2 num3.
rewrite mulrN -!natrM -[1 - _]opprB -(natrB _ (isT : (1 <= 4)%N)) -opprB -[_ + 14%:R]addrC -(natrB _ (isT : (3 <= 14)%N)).
by rewrite -(natrB _ (isT : (11 <= 41)%N)).
Qed.
End Num.
Print Assumptions C31_rk4.
Print Assumptions C31_rk4_given_B.
Print Assumptions C31_none_pattern_r.
Print Assumptions C31_none_pattern_l.
Print Assumptions C31_uniform_formula.
Print Assumptions C31_uniform_one_site.
Print Assumptions C31_uniform_refuted.
Print Assumptions C31_caller_array_refuted.

(* ===== C32 ============================================================================================ *)
Section C32.
Variables (C : numClosedFieldType) (D q : nat -> nat) (N : nat).
Variables (l r : forall n, smat C (D n) (D n)) (K : forall n, 'M[C]_(D n)).
Variables (eigh : eigh_routine C) (qrf : qrf_routine C) (tol dtau : C).
Local Notation T := (fun m => nat -> 'M[C]_(D m, D m.+1)).
(* self.A[n] += -dtau * B[n] *)
Definition euler m (A B : T m) : T m := fun s => A s - dtau *: B s.
(* calc_B_n(n) in the right gauge with the arrays of the last update(), two- and three-site terms *)
Definition B_now2 (Cs : C2arr C D) (A : tensors C D) m : option (option (T m)) :=
  omap fst (calc_B_r_n A l r eigh qrf tol (fun m => Some (x_r2 q N A l r K eigh qrf tol Cs m)) m).
Definition B_now3 (AA : AAarr C D) (Cs : C3arr C D) (A : tensors C D) m : option (option (T m)) :=
  omap fst (calc_B_r_n A l r eigh qrf tol (x_r3 q N A l r AA K eigh qrf tol Cs) m).

Lemma B_now2_local Cs (A A' : tensors C D) n : (forall m, (n <= m + 1)%N -> A m = A' m) -> B_now2 Cs A n = B_now2 Cs A' n.
Proof.
move=> h; rewrite /B_now2 /calc_B_r_n; case: leqP => _; first by [].
have e0 : A n = A' n by apply: h; rewrite leq_addr.
have e1 : A n.+1 = A' n.+1 by apply: h; rewrite addn1 leqW.
have eV : Vrh q A r eigh qrf tol n = Vrh q A' r eigh qrf tol n by rewrite /Vrh e0.
have -> : x_r2 q N A l r K eigh qrf tol Cs n = x_r2 q N A' l r K eigh qrf tol Cs n.
  rewrite /x_r2 /calc_x2 eV.
  have -> : xpart2 q N A r K Cs n = xpart2 q N A' r K Cs n by rewrite /xpart2 e0 e1.
  by have -> : xleft2 q A l Cs n = xleft2 q A' l Cs n by case: n h {e0 e1 eV} => // n h; rewrite /= h ?addn1.
by rewrite /Bpar_r eV.
Qed.
Lemma B_now3_local AA Cs (A A' : tensors C D) n : (forall m, (n <= m + 2)%N -> A m = A' m) -> B_now3 AA Cs A n = B_now3 AA Cs A' n.
Proof.
move=> h; rewrite /B_now3 /calc_B_r_n; case: leqP => _; first by [].
have e0 : A n = A' n by apply: h; rewrite leq_addr.
have eV : Vrh q A r eigh qrf tol n = Vrh q A' r eigh qrf tol n by rewrite /Vrh e0.
have -> : x_r3 q N A l r AA K eigh qrf tol Cs n = x_r3 q N A' l r AA K eigh qrf tol Cs n.
  rewrite /x_r3 /calc_x3 eV.
  have -> : xpart3 q N A r AA K Cs n = xpart3 q N A' r AA K Cs n by rewrite /xpart3 e0.
  have -> // : xmid3 q A l r Cs n = xmid3 q A' l r Cs n.
  case: n h {e0 eV} => // n h; rewrite /= (h n); last by rewrite addn2 ltnS leqW.
  by rewrite (h n.+2) // addn2 ltnS !leqW.
by rewrite /Bpar_r eV.
Qed.

(* both variants raise, or both succeed with equal tensors; in particular the final assertion of the
   memory-saving variant never fails *)
Theorem C32_save_memory_2s (Cs : C2arr C D) (A : tensors C D) :
  match plain_step N euler (B_now2 Cs) A, save_memory_step N 1 euler (B_now2 Cs) A with
  | Some A1, Some A2 => forall n, A1 n = A2 n
  | None, None => True
  | _, _ => False end.
Proof. by apply: save_memory_ok => A1 A2 n; exact: B_now2_local. Qed.
Theorem C32_save_memory_3s (AA : AAarr C D) (Cs : C3arr C D) (A : tensors C D) :
  match plain_step N euler (B_now3 AA Cs) A, save_memory_step N 2 euler (B_now3 AA Cs) A with
  | Some A1, Some A2 => forall n, A1 n = A2 n
  | None, None => True
  | _, _ => False end.
Proof. by apply: save_memory_ok => A1 A2 n; exact: B_now3_local. Qed.
(* the ordinary step is the Euler step along the tangent vector calc_B() of the original tensors *)
Theorem C32_plain_2s (Cs : C2arr C D) (A : tensors C D) B eta :
  calc_B_r2 q N A l r K eigh qrf tol Cs = Some (B, eta) ->
  exists2 A1, plain_step N euler (B_now2 Cs) A = Some A1 &
    forall n s, (n < N)%N -> A1 n s = A n s - dtau *: (if B n is Some b then b s else 0).
Proof.
rewrite /calc_B_r2 /calc_B /plain_step /B_now2; case: ifP => // h [<- _].
have -> : all (fun n => isSome (omap fst (calc_B_r_n A l r eigh qrf tol (fun m => Some (x_r2 q N A l r K eigh qrf tol Cs m)) n))) (iota 0 N).
  by apply/allP => n /(allP h); case: (calc_B_r_n _ _ _ _ _ _ _ _).
eexists; first by reflexivity.
move=> n s nN; rewrite /= nN; case: (calc_B_r_n _ _ _ _ _ _ _ _) => [[[b|] y]|] //=; rewrite ?scaler0 ?subr0 //.
Qed.
Theorem C32_plain_3s (AA : AAarr C D) (Cs : C3arr C D) (A : tensors C D) B eta :
  calc_B_r3 q N A l r AA K eigh qrf tol Cs = Some (B, eta) ->
  exists2 A1, plain_step N euler (B_now3 AA Cs) A = Some A1 &
    forall n s, (n < N)%N -> A1 n s = A n s - dtau *: (if B n is Some b then b s else 0).
Proof.
rewrite /calc_B_r3 /calc_B /plain_step /B_now3; case: ifP => // h [<- _].
have -> : all (fun n => isSome (omap fst (calc_B_r_n A l r eigh qrf tol (x_r3 q N A l r AA K eigh qrf tol Cs) n))) (iota 0 N).
  by apply/allP => n /(allP h); case: (calc_B_r_n _ _ _ _ _ _ _ _).
eexists; first by reflexivity.
move=> n s nN; rewrite /= nN; case: (calc_B_r_n _ _ _ _ _ _ _ _) => [[[b|] y]|] //=; rewrite ?scaler0 ?subr0 //.
Qed.
End C32.
(* a nearest-neighbour field on three sites: the sweep reproduces the Euler step *)
Definition nn (A : nat -> nat) n : option (option nat) := Some (Some (A n.-1 + A n + A n.+1)%N).
Example C32_example :
  let A0 n := if (n < 3)%N then n.+1 else 0%N in
  let f (o : option (nat -> nat)) := omap (fun A => [seq A n | n <- iota 0 3]) o in
  f (plain_step 3 (fun n => addn) nn A0) = Some [:: 5; 8; 8]%N /\
  f (save_memory_step 3 1 (fun n => addn) nn A0) = Some [:: 5; 8; 8]%N.
Proof.
move=> A0 f; split=> //.
have loc : forall (A A' : nat -> nat) n, (forall m, (n <= m + 1)%N -> A m = A' m) -> nn A n = nn A' n.
  move=> A1 A2 n h; rewrite /nn (h n.-1); last by lia.
  by rewrite (h n) ?(h n.+1) //; lia.
have := save_memory_ok 3 (fun n => addn) loc A0.
by rewrite /plain_step /=; case: save_memory_step => [A|] //= h; rewrite /f /= -!h.
Qed.
Print Assumptions C32_save_memory_2s.
Print Assumptions C32_save_memory_3s.
Print Assumptions C32_plain_2s.
Print Assumptions C32_plain_3s.
