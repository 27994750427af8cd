(* Sweep.v -- the one-site sweeps of evolve_split (evoMPS/split_step.py:437-895) with numbers: DMRG and
   split-step time evolution, two_site=False.
   The local solvers scipy.sparse.linalg.eigsh and gexpmv are arbitrary routines eigsh, expA, expG; their
   contracts are below.  The tensors and operators are those of Heff.v, the QR steps those of Canon.v.
   Simplified: exact arithmetic; site tensors are functions instead of flattened vectors; bond dimensions
   are fixed (recast), which is what the code does when D[n] <= q[n] D[n-1] and D[n-1] <= q[n] D[n]
   (dims_ok), otherwise the QR decompositions shrink the bonds; KL[n] = None is written where the code
   leaves the initial None in place; KL_bulk = KR_bulk = None (finite chain); debug off.
   Not modelled: norm_est, the info dictionaries, cb_func, printing, HMPO, the two-site moves
   (their schedule is in Schedule.v, their local problem in Heff2.v / Split.v), ham_is_Herm=False with
   DMRG=True (scipy's eigs rejects which='SA'). *)
From mathcomp Require Import all_ssreflect all_algebra.
From mathcomp Require Import zify.
From Verif Require Import Base Spec Eps Chain LinAlg Struct Tangent Tdvp Canon Heff.
Set Implicit Arguments.
Unset Strict Implicit.
Unset Printing Implicit Defensive.
Import Order.TTheory GRing.Theory Num.Theory.
Local Open Scope ring_scope.

Section Model.
Variables (C : numClosedFieldType) (D q : nat -> nat) (N : nat).
Local Notation ten m := (nat -> 'M[C]_(D m, D m.+1)).
Local Notation obonds := (forall n, option 'M[C]_(D n)).

(* ---- the local solvers ---------------------------------------------------- *)
(* Hermitian operators on site tensors / centre matrices *)
Definition herm_ten m (op : ten m -> ten m) := forall T X, tdot q T (op X) = (tdot q X (op T))^*.
Definition herm_G d (op : 'M[C]_d -> 'M[C]_d) := forall F G, adot F (op G) = (adot G (op F))^*.
(* las.eigsh(lop, k=1, which='SA', v0=A[n]) (split_step.py:612-613): an eigenvector of the smallest eigenvalue *)
Definition eigsh_routine := forall m, (ten m -> ten m) -> ten m -> ten m.
Definition eigsh_contract (eigsh : eigsh_routine) := forall m op (v0 : ten m),
  (0 < q m)%N -> (0 < D m)%N -> (0 < D m.+1)%N -> herm_ten op ->
  let X := eigsh m op v0 in 0 < tdot q X X /\
  exists ev : C, (forall s, (s < q m)%N -> op X s = ev *: X s) /\ forall T, ev * tdot q T T <= tdot q T (op T).
(* gexpmv(lop, v, t) = exp(t lop) v (split_step.py:509, 588) for lop = i h, h Hermitian, t real: a unitary that
   commutes with h *)
Definition expA_routine := forall m, C -> (ten m -> ten m) -> ten m -> ten m.
Definition expA_contract (expA : expA_routine) := forall m t (h : ten m -> ten m), t \is Num.real -> herm_ten h ->
  exists U : ten m -> ten m, [/\ forall T X, tdot q (U T) (U X) = tdot q T X,
    forall T s, (s < q m)%N -> U (h T) s = h (U T) s
  & forall T s, (s < q m)%N -> expA m t (fun X s => 'i *: h X s) T s = U T s].
Definition expG_routine := forall d, C -> ('M[C]_d -> 'M[C]_d) -> 'M[C]_d -> 'M[C]_d.
Definition expG_contract (expG : expG_routine) := forall d t (h : 'M[C]_d -> 'M[C]_d), t \is Num.real -> herm_G h ->
  exists U : 'M[C]_d -> 'M[C]_d, [/\ forall F G, adot (U F) (U G) = adot F G,
    forall F, U (h F) = h (U F) & forall F, expG d t (fun X => 'i *: h X) F = U F].

(* the bond dimensions the QR steps leave alone *)
Definition dims_ok := forall m, (m < N)%N -> (D m.+1 <= q m * D m)%N /\ (D m <= q m * D m.+1)%N.

(* the prologue (split_step.py:467-480): fac and the real step *)
Definition split_dtau (dtau : C) : C * C := if 'Im (- dtau) != 0 then ('i, 'Im (- dtau)) else (1, - dtau).

Record sw := Sw { wA : tensors C D; wKL : obonds; wKR : obonds }.
Definition setb (K : obonds) m (x : option 'M[C]_(D m)) : obonds := @upd (fun n => option 'M[C]_(D n)) K m x.

(* the routines and the Hamiltonian: updL A m KL[n-1] / updR A m KR[n+1] are update_Heff_left(n) / right(n),
   heff the one-site operator, heffG the centre-matrix operator; n = m+1 (Heff.v) *)
Variables (updL : tensors C D -> forall m, option 'M[C]_(D m) -> option 'M[C]_(D m.+1))
  (updR : tensors C D -> forall m, option 'M[C]_(D m.+1) -> option 'M[C]_(D m))
  (heff : tensors C D -> forall m, option 'M[C]_(D m) -> option 'M[C]_(D m.+1) -> ten m -> ten m)
  (heffG : tensors C D -> forall m, option 'M[C]_(D m.+1) -> option 'M[C]_(D m.+1) -> 'M[C]_(D m.+1) -> 'M[C]_(D m.+1)).
Variables (qr : qr_routine C) (eigsh : eigsh_routine) (expA : expA_routine) (expG : expG_routine).
Variables (DMRG : bool) (fac dtau : C).

(* X /= sqrt(adot(X, X)) *)
Definition unit_ten m (X : ten m) : ten m := fun s => (sqrtC (tdot q X X))^-1 *: X s.
Definition unit_mx d (G : 'M[C]_d) : 'M[C]_d := (sqrtC (adot G G))^-1 *: G.

(* opt_A(n) (604-620) / evolve_A(n, step) (487-523) *)
Definition solveA step m (w : sw) : sw :=
  let op X := heff (wA w) (wKL w m) (wKR w m.+1) X in
  let X := if DMRG then eigsh op (wA w m) else expA step (fun X s => fac *: op X s) (wA w m) in
  Sw (rep (wA w) (unit_ten X)) (wKL w) (wKR w).
(* evolve_G(n, step, G) (572-602), n = m+1; skipped by DMRG *)
Definition solveG step m (w : sw) (G : 'M[C]_(D m.+1)) : 'M[C]_(D m.+1) :=
  if DMRG then G else
  let op X := heffG (wA w) (wKL w m.+1) (wKR w m.+1) X in
  unit_mx (expG step (fun X => fac *: op X) G).
(* tm.restore_LCF_l_seq(A[n-1:n+1], ...) (tdvp_common.py:974-1023) with one site: A = Q G *)
Definition lcf1 m (X : ten m) : ten m * 'M[C]_(D m.+1) :=
  let QR := qr (stack (q m) X) in
  (fun s => recast _ _ (unstack QR.1 s), recast _ _ QR.2).
(* tm.restore_RCF_r_seq (tdvp_common.py:735-785) with one site: A = G Q *)
Definition rcf1 m (X : ten m) : 'M[C]_(D m) * ten m :=
  let QR := qr (stack (q m) (fun s => (X s)^†)) in
  (recast _ _ (QR.2)^†, fun s => recast _ _ (unstack QR.1 s)^†).
(* right_move_1site(n) (733-763) *)
Definition right_move m (w : sw) : sw :=
  let w1 := solveA (dtau / 2%:R) m w in
  if (m.+1 < N)%N then
    let (Q, G) := lcf1 (wA w1 m) in
    let A2 := rep (wA w1) Q in
    let w2 := Sw A2 (setb (wKL w1) (updL A2 (wKL w1 m))) (wKR w1) in
    let G' := solveG (- (dtau / 2%:R)) w2 G in
    Sw (@rep C D A2 m.+1 (fun s => G' *m A2 m.+1 s)) (wKL w2) (wKR w2)
  else w1.
(* left_move_1site(n) (789-815) *)
Definition left_move m (w : sw) : sw :=
  let w1 := solveA (dtau / 2%:R) m w in
  match m return sw -> sw with
  | 0%N => fun w1 => Sw (wA w1) (wKL w1) (@setb (wKR w1) 0 (updR (wA w1) (wKR w1 1%N)))
  | m'.+1 => fun w1 =>
    let (G, Q) := rcf1 (wA w1 m'.+1) in
    let A2 := @rep C D (wA w1) m'.+1 Q in
    let w2 := Sw A2 (wKL w1) (@setb (wKR w1) m'.+1 (updR A2 (wKR w1 m'.+2))) in
    let G' := solveG (- (dtau / 2%:R)) w2 G in
    Sw (@rep C D A2 m' (fun s => A2 m' s *m G')) (wKL w2) (wKR w2)
  end w1.
(* the initial environments (838-842) *)
Definition init_R m (w : sw) : sw := Sw (wA w) (wKL w) (setb (wKR w) (updR (wA w) (wKR w m.+1))).
Definition sweep_init (A : tensors C D) : sw :=
  foldl (fun w m => init_R m w) (Sw A (fun=> None) (fun=> None)) (rev (iota 0 N)).
(* one step (862-895): the sweep to the right and the one back *)
Definition sweep (w : sw) : sw :=
  foldl (fun w m => left_move m w) (foldl (fun w m => right_move m w) w (iota 0 N)) (rev (iota 0 N)).
(* num_steps steps *)
Definition sweeps k (A : tensors C D) : sw := iter k sweep (sweep_init A).
End Model.

(* the two kinds of Hamiltonian *)
Section Inst.
Variables (C : numClosedFieldType) (D q : nat -> nat) (N : nat) (h2 : nat -> op2s C) (h3 : nat -> op3s C).
Variables (qr : qr_routine C) (eigsh : eigsh_routine C D) (expA : expA_routine C D) (expG : expG_routine C).
Definition sweeps2 DMRG fac dtau k A : sw C D :=
  sweeps q N (fun A m => @upd_left2 C D q A h2 m) (fun A m => @upd_right2 C D q N A h2 m)
    (fun A m => @heff1_2 C D q N A h2 m) (fun A m => @heffG_2 C D q A h2 m) qr eigsh expA expG DMRG fac dtau k A.
Definition sweeps3 DMRG fac dtau k A : sw C D :=
  sweeps q N (fun A m => @upd_left3 C D q A h3 m) (fun A m => @upd_right3 C D q N A h3 m)
    (fun A m => @heff1_3 C D q N A h3 m) (fun A m => @heffG_3 C D q N A h3 m) qr eigsh expA expG DMRG fac dtau k A.
(* evolve_split(..., DMRG=True) and evolve_split(..., dtau) *)
Definition dmrg2 := sweeps2 true 1 0.
Definition dmrg3 := sweeps3 true 1 0.
Definition evolve2 dtau := let (f, d) := split_dtau dtau in sweeps2 false f d.
Definition evolve3 dtau := let (f, d) := split_dtau dtau in sweeps3 false f d.
End Inst.
