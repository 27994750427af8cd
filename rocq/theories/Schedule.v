(* Schedule.v -- the sweep schedule of evolve_split (evoMPS/split_step.py:437-910).
   Control flow and array traffic are modelled exactly; the numerical routines are arbitrary functions
   (they are modelled in Heff.v / Split.v / Canon.v).  Site tensors, environments and centre matrices are
   elements of abstract types, so the theorems hold for every implementation of the local solvers.
   Not modelled: printing, cb_func, debug mode, HMPO (update_Heff_right is called at line 842 before
   HMA exists, so HMPO is unusable: NameError), the Krylov info dictionaries, norm_est. *)
From mathcomp Require Import all_ssreflect.
From mathcomp Require Import zify.
Set Implicit Arguments.
Unset Strict Implicit.
Unset Printing Implicit Defensive.

Definition fupd (X : Type) (f : nat -> X) n x : nat -> X := fun j => if j == n then x else f j.
Lemma fupd_same X (f : nat -> X) n x : fupd f n x n = x. Proof. by rewrite /fupd eqxx. Qed.
Lemma fupd_other X (f : nat -> X) n x j : j != n -> fupd f n x j = f j.
Proof. by rewrite /fupd => /negPf->. Qed.

(* which local problem is solved: one site, the bond right of a site, two sites *)
Inductive kind := KA | KG | KAA.

(* the numerical routines a run of evolve_split calls; T, B, G: site tensors, environments, centre matrices *)
Record impl (T B G : Type) := Impl {
  i_evA : bool -> nat -> option B -> option B -> (nat -> T) -> T;       (* evolve_A / opt_A: forward?, n, KL[n-1], KR[n+1], A *)
  i_evG : nat -> option B -> option B -> (nat -> T) -> G -> G;          (* evolve_G: n, KL[n], KR[n+1], A, G *)
  i_evAA : bool -> nat -> option B -> option B -> (nat -> T) -> T * T * nat; (* evolve_AA / opt_AA: moving_right, n, KL[n-1], KR[n+2], A; new tensors and D_new *)
  i_lcf : nat -> T -> T * G; i_rcf : nat -> T -> G * T;                 (* restore_LCF_l_seq, restore_RCF_r_seq *)
  i_absr : G -> T -> T; i_absl : T -> G -> T;                           (* G . A[n+1],  A[n-1] . G *)
  i_ldim : T -> nat; i_rdim : T -> nat;                                 (* shape[1], shape[2] *)
  (* update_Heff_left/right: hasL n / hasR n = the branch that assigns KL[n] / KR[n] is taken *)
  i_hasL : nat -> bool; i_hasR : nat -> bool;
  i_updL : nat -> option B -> (nat -> T) -> B; i_updR : nat -> option B -> (nat -> T) -> B;
  i_KLb : option B; i_KRb : option B }.                                 (* KL_bulk, KR_bulk *)
Record opts := Opts { o_DMRG : bool; o_two : bool; o_switch : bool;
  (* can_increase_D as a function of mps.D: None for an exception *)
  o_can : (nat -> nat) -> nat -> option bool }.
Record ev (T B : Type) := Ev { ek : kind; en : nat; efwd : bool; eKL : option B; eKR : option B; eA : nat -> T }.
Record st (T B : Type) := St { sA : nat -> T; sKL : nat -> option B; sKR : nat -> option B; sD : nat -> nat; tr : seq (ev T B) }.

Section Sched.
Variables (T B G : Type) (N : nat) (I : impl T B G) (O : opts).
Local Notation ev := (ev T B).
Local Notation st := (st T B).
Local Notation evA := (i_evA I). Local Notation evG := (i_evG I). Local Notation evAA := (i_evAA I).
Local Notation lcf := (i_lcf I). Local Notation rcf := (i_rcf I).
Local Notation absr := (i_absr I). Local Notation absl := (i_absl I).
Local Notation ldim := (i_ldim I). Local Notation rdim := (i_rdim I).
Local Notation hasL := (i_hasL I). Local Notation hasR := (i_hasR I).
Local Notation updL := (i_updL I). Local Notation updR := (i_updR I).
Local Notation KLb := (i_KLb I). Local Notation KRb := (i_KRb I).
Local Notation DMRG := (o_DMRG O). Local Notation two_site := (o_two O).
Local Notation switch := (o_switch O). Local Notation can := (o_can O).

Definition setA (s : st) A : st := St A (sKL s) (sKR s) (sD s) (tr s).
Definition setD (s : st) n d : st := St (sA s) (sKL s) (sKR s) (fupd (sD s) n d) (tr s).

(* evolve_A (487-523), opt_A (604-620) *)
Definition evolve_A fwd n (s : st) : st :=
  let kl := sKL s n.-1 in let kr := sKR s n.+1 in
  St (fupd (sA s) n (evA fwd n kl kr (sA s))) (sKL s) (sKR s) (sD s)
     (rcons (tr s) (Ev KA n fwd kl kr (sA s))).
(* evolve_AA (525-572), opt_AA (622-655) *)
Definition evolve_AA right n (s : st) : st :=
  let kl := sKL s n.-1 in let kr := sKR s n.+2 in
  let: (a, b, d) := evAA right n kl kr (sA s) in
  St (fupd (fupd (sA s) n a) n.+1 b) (sKL s) (sKR s) (fupd (sD s) n d)
     (rcons (tr s) (Ev KAA n true kl kr (sA s))).
(* evolve_G (574-602), always backwards *)
Definition evolve_G n (g : G) (s : st) : G * st :=
  let kl := sKL s n in let kr := sKR s n.+1 in
  (evG n kl kr (sA s) g, St (sA s) (sKL s) (sKR s) (sD s) (rcons (tr s) (Ev KG n false kl kr (sA s)))).
(* update_Heff_left (677-702), update_Heff_right (704-730) *)
Definition update_Heff_left n (s : st) : st :=
  if hasL n then St (sA s) (fupd (sKL s) n (Some (updL n (sKL s n.-1) (sA s)))) (sKR s) (sD s) (tr s) else s.
Definition update_Heff_right n (s : st) : st :=
  if hasR n then St (sA s) (sKL s) (fupd (sKR s) n (Some (updR n (sKR s n.+1) (sA s)))) (sD s) (tr s) else s.

(* right_move_1site (732-757) *)
Definition right_move_1site n (s : st) : st :=
  let s := evolve_A true n s in
  if (n < N)%N then
    let: (a, g) := lcf n (sA s n) in
    let s := update_Heff_left n (setA s (fupd (sA s) n a)) in
    let: (g, s) := if DMRG then (g, s) else evolve_G n g s in
    let b := absr g (sA s n.+1) in
    setD (setA s (fupd (sA s) n.+1 b)) n (ldim b)
  else s.
(* right_move_2site (759-780) *)
Definition right_move_2site n (s : st) : st :=
  if n == N then s else
  let s := update_Heff_left n (evolve_AA true n s) in
  if (n < N.-1)%N && ~~ DMRG then evolve_A false n.+1 s else s.
(* left_move_1site (782-807) *)
Definition left_move_1site n (s : st) : st :=
  let s := evolve_A true n s in
  if (1 < n)%N then
    let: (g, a) := rcf n (sA s n) in
    let s := update_Heff_right n (setA s (fupd (sA s) n a)) in
    let: (g, s) := if DMRG then (g, s) else evolve_G n.-1 g s in
    let b := absl (sA s n.-1) g in
    setD (setA s (fupd (sA s) n.-1 b)) n.-1 (rdim b)
  else update_Heff_right n s.
(* left_move_2site (809-834) *)
Definition left_move_2site n (s : st) : st :=
  if n == 0 then s else
  let s := update_Heff_right n.+1 (evolve_AA false n s) in
  let s := if n == 1 then update_Heff_right 1 s else s in
  if ~~ DMRG && (1 < n)%N then evolve_A false n s else s.

(* the test `two_site and (can_increase_D(n) or not switch_to_1site)` *)
Definition choose (s : st) n : option bool :=
  if two_site then (if can (sD s) n is Some c then Some (c || ~~ switch) else None) else Some false.
(* the bodies of the two loops (862-895).  The `continue` statements are the last statement of the body *)
Definition lr_body n (s : st) : option st :=
  if choose s n is Some two then
    Some (if two then let s := right_move_2site n s in
                      if n == N.-1 then right_move_2site n.+1 s else s
          else right_move_1site n s)
  else None.
Definition rl_body n (s : st) : option st :=
  if choose s n.-1 is Some two then
    Some (if two then let s := left_move_2site n.-1 s in
                      if n == 2 then left_move_2site 0 s else s
          else left_move_1site n s)
  else None.
Fixpoint run (body : nat -> st -> option st) (ns : seq nat) (s : st) : option st :=
  if ns is n :: ns' then (if body n s is Some s' then run body ns' s' else None) else Some s.
Definition sweep_lr := run lr_body (iota 1 N).
Definition sweep_rl := run rl_body (rev (iota 1 N)).
Definition step s := if sweep_lr s is Some s' then sweep_rl s' else None.
Fixpoint steps k s := if k is k'.+1 then (if step s is Some s' then steps k' s' else None) else Some s.
(* the initial environments (836-842) *)
Definition init A D : st :=
  foldr update_Heff_right (St A (fun j => if j == 0 then KLb else None) (fun j => if j == N.+1 then KRb else None) D [::])
    (iota 1 N).

(* ---- what the environments should be ---------------------------------------------------------- *)
Fixpoint envL (A : nat -> T) j : option B :=
  if j is j'.+1 then (if hasL j then Some (updL j (envL A j') A) else None) else KLb.
(* envR A j : the environment right of site j-1, j <= N+1 *)
Fixpoint envRr (A : nat -> T) k : option B :=
  if k is k'.+1 then (if hasR (N.+1 - k) then Some (updR (N.+1 - k) (envRr A k') A) else None) else KRb.
Definition envR A j := envRr A (N.+1 - j).
Lemma envR_last A : envR A N.+1 = KRb. Proof. by rewrite /envR subnn. Qed.
Lemma envR_step A j : j <= N -> envR A j = if hasR j then Some (updR j (envR A j.+1) A) else None.
Proof.
move=> jN; rewrite /envR subSn //= (_ : N.+1 - (N - j).+1 = j); last by lia.
by rewrite (_ : N.+1 - j.+1 = N - j) //; lia.
Qed.
(* environments only read the tensors on their side; the gauge routines deliver canonical tensors *)
Variables (lc rc : nat -> T -> Prop).
Record impl_ok : Prop := ImplOk {
  locL : forall j K A A', 0 < j -> (forall i, 0 < i <= j -> A i = A' i) -> updL j K A = updL j K A';
  locR : forall j K A A', j <= N -> (forall i, j <= i <= N -> A i = A' i) -> updR j K A = updR j K A';
  lcfP : forall n t, lc n (lcf n t).1;
  rcfP : forall n t, rc n (rcf n t).2;
  evAAl : forall n kl kr A, lc n (evAA true n kl kr A).1.1;
  evAAr : forall n kl kr A, rc n.+1 (evAA false n kl kr A).1.2 }.
Hypothesis ok : impl_ok.
Lemma eq_envL A A' j : (forall i, 0 < i <= j -> A i = A' i) -> envL A j = envL A' j.
Proof.
elim: j => [|j IH] h //=; case: ifP => // _; rewrite IH ?(locL ok _ _ (A' := A')) // => i ij.
by apply: h; lia.
Qed.
Lemma eq_envR A A' j : (forall i, j <= i <= N -> A i = A' i) -> envR A j = envR A' j.
Proof.
case: (leqP j N) => [|jN _]; last by rewrite /envR (_ : N.+1 - j = 0) //; lia.
move: {2}(N - j) (leqnn (N - j)) => k; elim: k j => [|k IH] j kj jN h.
  have e : j = N by lia.
  by subst j; rewrite (envR_step A jN) (envR_step A' jN) !envR_last (locR ok _ jN h).
rewrite (envR_step A jN) (envR_step A' jN) (locR ok _ jN h).
suff -> : envR A j.+1 = envR A' j.+1 by [].
case: (ltnP j N) => jN'; last by have -> : j = N by [lia]; rewrite !envR_last.
by apply: IH => [||i ij]; [lia | lia | apply: h; lia].
Qed.

(* the local problem is set up with sites below a left-canonical, sites from b on right-canonical, and
   environments of exactly the current tensors *)
Definition ready a b (A : nat -> T) (kl kr : option B) :=
  [/\ forall j, 0 < j < a -> lc j (A j), forall j, b <= j <= N -> rc j (A j), kl = envL A a.-1 & kr = envR A b].
Definition good (e : ev) := match ek e with
  | KA => ready (en e) (en e).+1 (eA e) (eKL e) (eKR e)
  | KG => ready (en e).+1 (en e).+1 (eA e) (eKL e) (eKR e)
  | KAA => ready (en e) (en e).+2 (eA e) (eKL e) (eKR e)
  end.
Fixpoint allgood (t : seq ev) : Prop := if t is e :: t' then good e /\ allgood t' else True.
Lemma allgood_rcons t e : allgood (rcons t e) <-> allgood t /\ good e.
Proof. by elim: t => [|x t IH] /=; [split=> [[]|[]] | rewrite IH; tauto]. Qed.

(* KL below a and KR from b on are current; entries that are never assigned are None *)
Record fresh a b (s : st) : Prop := Fresh {
  f_lc : forall j, 0 < j < a -> lc j (sA s j);
  f_rc : forall j, b <= j <= N -> rc j (sA s j);
  f_KL : forall j, j < a -> sKL s j = envL (sA s) j;
  f_KR : forall j, b <= j <= N.+1 -> sKR s j = envR (sA s) j;
  f_nL : forall j, 0 < j -> ~~ hasL j -> sKL s j = None;
  f_nR : forall j, j <= N -> ~~ hasR j -> sKR s j = None;
  f_ev : allgood (tr s) }.

Lemma fresh_evA fwd n s : 0 < n <= N -> fresh n n.+1 s -> fresh n n.+1 (evolve_A fwd n s).
Proof.
case/andP=> n0 nN [h1 h2 h3 h4 h5 h6 h7]; split=> //=.
- by move=> j jn; rewrite fupd_other; [exact: h1 | lia].
- by move=> j jn; rewrite fupd_other; [exact: h2 | lia].
- by move=> j jn; rewrite h3 //; apply: eq_envL => i ij; rewrite fupd_other //; lia.
- by move=> j jn; rewrite h4 //; apply: eq_envR => i ij; rewrite fupd_other //; lia.
- apply/allgood_rcons; split=> //; split=> //=; first by apply: h3; lia.
  by apply: h4; lia.
Qed.
Lemma fresh_updL n s b : 0 < n < b -> lc n (sA s n) -> fresh n b s -> fresh n.+1 b (update_Heff_left n s).
Proof.
case/andP=> n0 nb hn [h1 h2 h3 h4 h5 h6 h7].
have h1' j : 0 < j < n.+1 -> lc j (sA s j).
  by move=> jn; case: (ltngtP j n) => [jn'|jn'|->] //; [apply: h1; lia | lia].
have en : envL (sA s) n = if hasL n then Some (updL n (sKL s n.-1) (sA s)) else None.
  by case: n n0 nb hn h1 h3 h1' => // n n0 nb hn h1 h3 h1' /=; rewrite h3.
rewrite /update_Heff_left; case: ifP => hL; split=> //=.
- move=> j jn; case: (ltngtP j n) => jn'; [|lia|].
    by rewrite fupd_other ?h3 //; lia.
  by subst j; rewrite fupd_same en hL.
- by move=> j j0 nh; rewrite fupd_other ?h5 //; apply/eqP => e; subst j; rewrite hL in nh.
- move=> j jn; case: (ltngtP j n) => jn'; [exact: h3|lia|].
  by subst j; rewrite en hL h5 // hL.
Qed.
Lemma fresh_updR n s a : a <= n <= N -> rc n (sA s n) -> fresh a n.+1 s -> fresh a n (update_Heff_right n s).
Proof.
case/andP=> n0 nb hn [h1 h2 h3 h4 h5 h6 h7].
have h1' j : n <= j <= N -> rc j (sA s j).
  by move=> jn; case: (ltngtP j n) => [jn'|jn'|->] //; [lia | apply: h2; lia].
have en : envR (sA s) n = if hasR n then Some (updR n (sKR s n.+1) (sA s)) else None.
  by rewrite envR_step // h4 //; lia.
rewrite /update_Heff_right; case: ifP => hL; split=> //=.
- move=> j jn; case: (ltngtP j n) => jn'; [lia| |].
    by rewrite fupd_other ?h4 //; lia.
  by subst j; rewrite fupd_same en hL.
- by move=> j j0 nh; rewrite fupd_other ?h6 //; apply/eqP => e; subst j; rewrite hL in nh.
- move=> j jn; case: (ltngtP j n) => jn'; [lia|apply: h4; lia|].
  by subst j; rewrite en hL h6 // hL.
Qed.
(* replacing tensors strictly between *)
Lemma fresh_setA a b s A d : fresh a b s -> (forall j, 0 < j < a -> A j = sA s j) ->
  (forall j, b <= j <= N -> A j = sA s j) -> fresh a b (St A (sKL s) (sKR s) d (tr s)).
Proof.
move=> [h1 h2 h3 h4 h5 h6 h7] e1 e2; split=> //=.
- by move=> j jj; rewrite e1 //; exact: h1.
- by move=> j jj; rewrite e2 //; exact: h2.
- by move=> j jj; rewrite h3 //; apply: eq_envL => i ij; rewrite e1 //; lia.
- by move=> j jj; rewrite h4 //; apply: eq_envR => i ij; rewrite e2 //; lia.
Qed.
Lemma fresh_weak a b a' b' s : a' <= a -> b <= b' -> fresh a b s -> fresh a' b' s.
Proof.
by move=> ha hb [h1 h2 h3 h4 h5 h6 h7]; split=> // j jj; [apply: h1|apply: h2|apply: h3|apply: h4]; lia.
Qed.
Lemma fresh_evG n g s : 0 < n < N -> fresh n.+1 n.+1 s -> fresh n.+1 n.+1 (evolve_G n g s).2.
Proof.
case/andP=> n0 nN [h1 h2 h3 h4 h5 h6 h7]; split=> //=.
apply/allgood_rcons; split=> //; split=> //=; first by apply: h3.
by apply: h4; lia.
Qed.

Lemma right1_fresh n s : 0 < n <= N -> fresh n n.+1 s ->
  let n' := if n < N then n.+1 else n in fresh n' n'.+1 (right_move_1site n s).
Proof.
move=> hn f /=; have f1 := fresh_evA true hn f; rewrite /right_move_1site; case: ifP => nN //.
set s1 := evolve_A true n s in f1 *; case e : (lcf n (sA s1 n)) => [a g].
set s2 := setA _ _.
have f2 : fresh n n.+1 s2.
  by apply: fresh_setA => // j jj; rewrite fupd_other //; lia.
have f3 : fresh n.+1 n.+1 (update_Heff_left n s2).
  apply: fresh_updL => //; [lia|]; rewrite /= fupd_same.
  by have := lcfP ok n (sA s1 n); rewrite e.
have fin g' s' : fresh n.+1 n.+1 s' -> fresh n.+1 n.+2
    (setD (setA s' (fupd (sA s') n.+1 (absr g' (sA s' n.+1)))) n (ldim (absr g' (sA s' n.+1)))).
  move=> f'; apply: (@fresh_setA n.+1 n.+2 s' (fupd (sA s') n.+1 (absr g' (sA s' n.+1)))).
  - by apply: fresh_weak f'.
  - by move=> j jj; rewrite fupd_other //; lia.
  - by move=> j jj; rewrite fupd_other //; lia.
case: DMRG; first exact: fin.
by rewrite /evolve_G; apply: fin; apply: (fresh_evG g (s := update_Heff_left n s2)) => //; lia.
Qed.
Lemma right2_fresh n s : 0 < n <= N -> fresh n n.+1 s ->
  let n' := if n < N then n.+1 else n in fresh n' n'.+1 (right_move_2site n s).
Proof.
move=> hn f /=; rewrite /right_move_2site; case: eqP => [e|ne].
  by rewrite (_ : (n < N) = false) //; lia.
have nN : n < N by lia.
rewrite nN.
have f2 : fresh n n.+2 (evolve_AA true n s) /\ lc n (sA (evolve_AA true n s) n).
  have := evAAl ok n (sKL s n.-1) (sKR s n.+2) (sA s); rewrite /evolve_AA.
  case: (evAA _ _ _ _ _) => [[a b] d] /= hl; split; last by rewrite fupd_other ?fupd_same //; lia.
  have fw : fresh n n.+2 s by apply: fresh_weak f.
  have := @fresh_setA n n.+2 _ (fupd (fupd (sA s) n a) n.+1 b) (fupd (sD s) n d) fw.
  case=> [j jj|j jj|h1 h2 h3 h4 h5 h6 h7]; try by rewrite !fupd_other //; lia.
  split=> //=; apply/allgood_rcons; split=> //; split=> //=.
  - by case: f => g1 *; apply: g1.
  - by case: fw => _ g2 *; apply: g2.
  - by case: f => _ _ g3 *; apply: g3; lia.
  - by case: fw => _ _ _ g4 *; apply: g4; lia.
have [f3 hl] := f2.
have f4 : fresh n.+1 n.+2 (update_Heff_left n (evolve_AA true n s)) by apply: fresh_updL => //; lia.
case: ifP => // /andP[n1 _]; apply: fresh_evA => //; lia.
Qed.
(* recomputing KR[1] while the centre sits at site 1 *)
Lemma fresh_updR1 n s a : n <= N -> fresh a n.+1 s -> fresh a n.+1 (update_Heff_right n s).
Proof.
move=> nN [h1 h2 h3 h4 h5 h6 h7]; rewrite /update_Heff_right; case: ifP => hR; split=> //=.
- by move=> j jn; rewrite fupd_other ?h4 //; lia.
- by move=> j j0 nh; rewrite fupd_other ?h6 //; apply/eqP => e; subst j; rewrite hR in nh.
Qed.
Lemma left1_fresh n s : 0 < n <= N -> fresh n n.+1 s ->
  let n' := if 1 < n then n.-1 else n in fresh n' n'.+1 (left_move_1site n s).
Proof.
move=> hn f /=; have f1 := fresh_evA true hn f; rewrite /left_move_1site; case: ifP => n1; last first.
  by apply: fresh_updR1 => //; lia.
set s1 := evolve_A true n s in f1 *; case e : (rcf n (sA s1 n)) => [g a].
set s2 := setA _ _.
have f2 : fresh n n.+1 s2.
  by apply: fresh_setA => // j jj; rewrite fupd_other //; lia.
have f3 : fresh n n (update_Heff_right n s2).
  apply: fresh_updR => //; [lia|]; rewrite /= fupd_same.
  by have := rcfP ok n (sA s1 n); rewrite e.
have fin g' s' : fresh n n s' -> fresh n.-1 n.-1.+1
    (setD (setA s' (fupd (sA s') n.-1 (absl (sA s' n.-1) g'))) n.-1 (rdim (absl (sA s' n.-1) g'))).
  move=> f'; apply: (@fresh_setA n.-1 n.-1.+1 s' (fupd (sA s') n.-1 (absl (sA s' n.-1) g'))).
  - by apply: fresh_weak f'; lia.
  - by move=> j jj; rewrite fupd_other //; lia.
  - by move=> j jj; rewrite fupd_other //; lia.
case: DMRG; first exact: fin.
rewrite /evolve_G; apply: fin; have h : 0 < n.-1 < N -> fresh n n (update_Heff_right n s2) -> fresh n n (evolve_G n.-1 g (update_Heff_right n s2)).2.
  by case: (n) n1 => // m _; exact: fresh_evG.
by apply: h => //; lia.
Qed.
Lemma left2_fresh n s : n < N -> fresh n.+1 n.+2 s ->
  let n' := if 0 < n then n else 1 in fresh n' n'.+1 (left_move_2site n s).
Proof.
move=> hn f /=; rewrite /left_move_2site; case: (posnP n) => [e|n0]; first by subst n.
have f2 : fresh n n.+2 (evolve_AA false n s) /\ rc n.+1 (sA (evolve_AA false n s) n.+1).
  have := evAAr ok n (sKL s n.-1) (sKR s n.+2) (sA s); rewrite /evolve_AA.
  case: (evAA _ _ _ _ _) => [[a b] d] /= hl; split; last by rewrite fupd_same.
  have fw : fresh n n.+2 s by apply: fresh_weak f.
  have := @fresh_setA n n.+2 _ (fupd (fupd (sA s) n a) n.+1 b) (fupd (sD s) n d) fw.
  case=> [j jj|j jj|h1 h2 h3 h4 h5 h6 h7]; try by rewrite !fupd_other //; lia.
  split=> //=; apply/allgood_rcons; split=> //; split=> //=.
  - by case: fw => g1 *; apply: g1.
  - by case: fw => _ g2 *; apply: g2.
  - by case: fw => _ _ g3 *; apply: g3; lia.
  - by case: fw => _ _ _ g4 *; apply: g4; lia.
have [f3 hr] := f2.
have f4 : fresh n n.+1 (update_Heff_right n.+1 (evolve_AA false n s)) by apply: fresh_updR => //; lia.
have f5 : fresh n n.+1 (if n == 1 then update_Heff_right 1 (update_Heff_right n.+1 (evolve_AA false n s))
                        else update_Heff_right n.+1 (evolve_AA false n s)).
  by case: eqP => // e; subst n; apply: fresh_updR1 => //; lia.
by case: ifP => // /andP[_ n1]; apply: fresh_evA => //; lia.
Qed.

(* ---- the sweeps ------------------------------------------------------------------------------- *)
Lemma lr_fresh n s s' : 0 < n <= N -> fresh n n.+1 s -> lr_body n s = Some s' ->
  let n' := if n < N then n.+1 else n in fresh n' n'.+1 s'.
Proof.
move=> hn f; rewrite /lr_body; case: (choose s n) => // -[] [<-]; last exact: right1_fresh.
have f1 := right2_fresh hn f; case: eqP => [e|//].
by rewrite /right_move_2site {1}(_ : n.+1 == N); [exact: f1 | lia].
Qed.
Lemma rl_fresh n s s' : 0 < n <= N -> fresh n n.+1 s -> rl_body n s = Some s' ->
  let n' := if 1 < n then n.-1 else n in fresh n' n'.+1 s'.
Proof.
move=> hn f; rewrite /rl_body; case: (choose s n.-1) => // -[] [<-]; last exact: left1_fresh.
have f1 : let n' := if 1 < n then n.-1 else n in fresh n' n'.+1 (left_move_2site n.-1 s).
  have := @left2_fresh n.-1 s; rewrite prednK; last by lia.
  move=> /(_ _ f) /=; rewrite (_ : (0 < n.-1) = (1 < n)); last by lia.
  case: ifP => n1 h; first by apply: h; lia.
  have e1 : n = 1 by lia.
  by subst n; apply: h; lia.
by case: eqP => [e|//]; exact: f1.
Qed.
Lemma run_lr a s s' : 0 < a -> a <= N -> fresh a a.+1 s -> run lr_body (iota a (N.+1 - a)) s = Some s' ->
  fresh N N.+1 s'.
Proof.
move: {2}(N - a) (leqnn (N - a)) => k; elim: k a s => [|k IH] a s hk a0 aN f.
  have e : a = N by lia.
  subst a; rewrite (_ : N.+1 - N = 1) /=; last by lia.
  case e: (lr_body N s) => [s1|//] [<-]; have := lr_fresh (n := N) _ f e.
  by rewrite ltnn /=; apply; rewrite a0 leqnn.
rewrite (_ : N.+1 - a = (N - a).+1) /=; last by lia.
case e: (lr_body a s) => [s1|//]; have := lr_fresh (n := a) _ f e; rewrite a0 aN => /(_ isT) /=.
case: (ltnP a N) => aN' f1.
  rewrite (_ : N - a = N.+1 - a.+1); last by lia.
  by apply: IH => //; lia.
have e1 : a = N by lia.
by subst a; rewrite subnn /= => -[<-].
Qed.
Lemma run_rl a s s' : 0 < a -> a <= N -> fresh a a.+1 s -> run rl_body (rev (iota 1 a)) s = Some s' -> fresh 1 2 s'.
Proof.
elim: a s => // a IH s _ aN f.
have -> : rev (iota 1 a.+1) = a.+1 :: rev (iota 1 a) by rewrite -[in LHS](addn1 a) iotaD rev_cat /= add1n.
rewrite /=.
case e: (rl_body a.+1 s) => [s1|//]; have := rl_fresh (n := a.+1) _ f e => /(_ aN) /=.
case: (ltnP 1 a.+1) => a0 f1; first by apply: IH => //; lia.
have e0 : a = 0 by lia.
by subst a => /= -[<-].
Qed.
Lemma step_fresh s s' : 0 < N -> fresh 1 2 s -> step s = Some s' -> fresh 1 2 s'.
Proof.
move=> N0 f; rewrite /step /sweep_lr /sweep_rl; case e: (run _ _ s) => [s1|//]; apply: run_rl => //.
by apply: run_lr f _ => //; rewrite subSS subn0.
Qed.
Lemma steps_fresh k s s' : 0 < N -> fresh 1 2 s -> steps k s = Some s' -> fresh 1 2 s'.
Proof.
move=> N0; elim: k s => [|k IH] s f /=; first by case=> <-.
by case e: (step s) => [s1|//]; apply: IH; apply: step_fresh e.
Qed.
Lemma init_fresh A D : 0 < N -> (forall j, 1 < j <= N -> rc j (A j)) -> fresh 1 2 (init A D).
Proof.
move=> N0 hrc; rewrite /init; set s0 := St _ _ _ _ _.
have sAE l : sA (foldr update_Heff_right s0 l) = A.
  by elim: l => //= n l <-; rewrite /update_Heff_right; case: ifP.
have f0 : fresh 1 N.+1 s0.
  split=> //=; try by move=> j jj; lia.
  - by move=> j j1; rewrite (_ : j = 0) //; lia.
  - by move=> j jj; rewrite (_ : j = N.+1) ?eqxx ?envR_last //; lia.
  - by move=> j j0 _; rewrite (_ : j == 0 = false) //; lia.
  - by move=> j j0 _; rewrite (_ : j == N.+1 = false) //; lia.
have inv k : k < N -> fresh 1 (N.+1 - k) (foldr update_Heff_right s0 (iota (N.+1 - k) k)).
  elim: k => [|k IH] kN; first by rewrite subn0.
  rewrite /= (_ : (N.+1 - k.+1).+1 = N.+1 - k); last by lia.
  apply: fresh_updR; first by lia.
    by rewrite sAE; apply: hrc; lia.
  by rewrite (_ : (N.+1 - k.+1).+1 = N.+1 - k); [apply: IH; lia | lia].
have := inv N.-1; rewrite (_ : N.+1 - N.-1 = 2); last by lia.
move=> h; rewrite (_ : iota 1 N = 1 :: iota 2 N.-1); last by rewrite -{1}(prednK N0).
by apply: fresh_updR1 => //; apply: h; lia.
Qed.

(* ---- traces ----------------------------------------------------------------------------------- *)
Definition sig (e : ev) := (ek e, en e, efwd e).
Definition trace (s : st) := [seq sig e | e <- tr s].
Lemma run_trace body f ns s s' : (forall n s s', n \in ns -> body n s = Some s' -> trace s' = trace s ++ f n) ->
  run body ns s = Some s' -> trace s' = trace s ++ flatten [seq f n | n <- ns].
Proof.
elim: ns s => [|n ns IH] s h /=; first by case=> <-; rewrite cats0.
case e: (body n s) => [s1|//] r; rewrite (IH s1) //; first by rewrite (h _ _ _ _ e) ?mem_head // catA.
by move=> m t t' mi; apply: h; rewrite inE mi orbT.
Qed.
Lemma run_some body ns s : (forall n s, n \in ns -> body n s <> None) -> run body ns s <> None.
Proof.
elim: ns s => [|n ns IH] s h //=; case e: (body n s) => [s1|]; last by case: (h n s (mem_head _ _)).
by apply: IH => m t mi; apply: h; rewrite inE mi orbT.
Qed.
Lemma trace_updL n s : trace (update_Heff_left n s) = trace s. Proof. by rewrite /update_Heff_left; case: ifP. Qed.
Lemma trace_updR n s : trace (update_Heff_right n s) = trace s. Proof. by rewrite /update_Heff_right; case: ifP. Qed.
Lemma trace_setA s A : trace (setA s A) = trace s. Proof. by []. Qed.
Lemma trace_setD s n d : trace (setD s n d) = trace s. Proof. by []. Qed.
Lemma trace_evA fwd n s : trace (evolve_A fwd n s) = rcons (trace s) (KA, n, fwd).
Proof. by rewrite /trace map_rcons. Qed.
Lemma trace_evAA r n s : trace (evolve_AA r n s) = rcons (trace s) (KAA, n, true).
Proof. by rewrite /evolve_AA; case: (evAA _ _ _ _ _) => [[a b] d]; rewrite /trace map_rcons. Qed.
Lemma trace_evG n g s : trace (evolve_G n g s).2 = rcons (trace s) (KG, n, false).
Proof. by rewrite /trace map_rcons. Qed.

Lemma trace_r1 n s : trace (right_move_1site n s) =
  trace s ++ (KA, n, true) :: (if (n < N) && ~~ DMRG then [:: (KG, n, false)] else [::]).
Proof.
rewrite /right_move_1site; case: ifP => nN /=; last by rewrite trace_evA cats1.
case: (lcf _ _) => a g; case: DMRG => /=; rewrite trace_setD trace_setA.
  by rewrite trace_updL trace_setA trace_evA cats1.
by rewrite -[trace _]/(trace (evolve_G n g _).2) trace_evG trace_updL trace_setA trace_evA -!cats1 -catA.
Qed.
Lemma trace_l1 n s : trace (left_move_1site n s) =
  trace s ++ (KA, n, true) :: (if (1 < n) && ~~ DMRG then [:: (KG, n.-1, false)] else [::]).
Proof.
rewrite /left_move_1site; case: ifP => nN /=; last by rewrite trace_updR trace_evA cats1.
case: (rcf _ _) => g a; case: DMRG => /=; rewrite trace_setD trace_setA.
  by rewrite trace_updR trace_setA trace_evA cats1.
by rewrite -[trace _]/(trace (evolve_G n.-1 g _).2) trace_evG trace_updR trace_setA trace_evA -!cats1 -catA.
Qed.
Lemma trace_r2 n s : trace (right_move_2site n s) =
  trace s ++ if n == N then [::] else (KAA, n, true) :: (if (n < N.-1) && ~~ DMRG then [:: (KA, n.+1, false)] else [::]).
Proof.
rewrite /right_move_2site; case: eqP => // [_|_]; first by rewrite cats0.
by case: ifP => _; rewrite ?trace_evA trace_updL trace_evAA -!cats1 -?catA.
Qed.
Lemma trace_l2 n s : trace (left_move_2site n s) =
  trace s ++ if n == 0 then [::] else (KAA, n, true) :: (if (1 < n) && ~~ DMRG then [:: (KA, n, false)] else [::]).
Proof.
rewrite /left_move_2site; case: eqP => // [_|_]; first by rewrite cats0.
rewrite andbC; case: ifP => _; case: ifP => _; rewrite ?trace_evA ?trace_updR trace_evAA -!cats1 -?catA //.
Qed.
End Sched.
Arguments Impl {T B G}.

(* ---- the reference schedules ------------------------------------------------------------------ *)
(* one-site: site 1 forward, bond 1 backward, site 2 forward, ..., site k forward *)
Fixpoint sched1 k : seq (kind * nat * bool) :=
  if k is k'.+1 then sched1 k' ++ (if k' == 0 then [::] else [:: (KG, k', false)]) ++ [:: (KA, k, true)] else [::].
(* two-site: sites (1,2) forward, site 2 backward, sites (2,3) forward, ..., sites (k,k+1) forward *)
Fixpoint sched2 k : seq (kind * nat * bool) :=
  if k is k'.+1 then sched2 k' ++ (if k' == 0 then [::] else [:: (KA, k, false)]) ++ [:: (KAA, k, true)] else [::].
