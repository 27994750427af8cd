(* Persist.v -- saving and loading: mps_gen.py save_state/load_state, tdvp_uniform.py export_state/import_state,
   mps_sandwich.py save_state/load_state/from_file, tdvp_sandwich.py load_state. *)
From mathcomp Require Import all_ssreflect all_algebra.
From mathcomp Require Import zify.
From Verif Require Import Base Sandwich.
Set Implicit Arguments.
Unset Strict Implicit.
Unset Printing Implicit Defensive.
Import Order.TTheory GRing.Theory Num.Theory.
Local Open Scope ring_scope.

Section Values.
Variable S : zmodType.
(* numeric arrays: shape and entries *)
Record arr := Arr { shp : seq nat; dat : seq nat -> S }.
Definition arr0 := Arr [::] (fun=> 0).
(* Python values that are put into files: None, numeric arrays, lists, arrays of dtype object *)
Inductive pv := PNone | PArr of arr | PList of seq pv | PObj of seq pv.
(* numpy.save followed by numpy.load(allow_pickle): NumPy's contract.  An array of dtype object is pickled and
   numpy.load refuses it with ValueError unless allow_pickle is true (the default is False since NumPy 1.16.3) *)
Definition np_load (allow_pickle : bool) (file : pv) : option pv :=
  if file is PObj _ then if allow_pickle then Some file else None else Some file.

(* ---- finite chain: mps_gen.py ---------------------------------------------------------------------------------- *)
(* N, D[0..N], q[0..N], A: object array of N + 1 entries, A[0] = None (127-141) *)
Record fin := Fin { fN : nat; fD : nat -> nat; fq : nat -> nat; fA : seq pv }.
(* save_state (1178-1188) *)
Definition fin_save (s : fin) : pv := PObj (fA s).
(* tmp_A[n].shape[2]: IndexError / AttributeError is None *)
Definition shape2 (v : pv) : option nat := if v is PArr a then (if shp a is [:: _, _, d & _] then Some d else None) else None.
Definition item (A : seq pv) n : option pv := if (n < size A)%N then Some (nth PNone A n) else None.
(* load_state (1190-1211) with do_update = False *)
Definition load_D (A : seq pv) (N : nat) (D : nat -> nat) : option (nat -> nat) :=
  foldl (fun o n => if o is Some D then if obind shape2 (item A n.+1) is Some d then Some (setn D n.+1 d) else None else None)
    (Some (setn D 0%N 1%N)) (iota 0 N).
Definition fin_load (allow_pickle : bool) (file : pv) (t : fin) : option fin :=
  if np_load allow_pickle file is Some (PObj A) then
    if load_D A (fN t) (fD t) is Some D then Some (Fin (fN t) D (fq t) A) else None
  else None.
Definition fin_wf (s : fin) := [/\ fD s 0%N = 1%N, size (fA s) = (fN s).+1 &
  forall n, (0 < n <= fN s)%N -> exists2 a, nth PNone (fA s) n = PArr a & shp a = [:: fq s n; fD s n.-1; fD s n]].

Lemma load_DP A N D : (forall n, (n < N)%N -> exists d, obind shape2 (item A n.+1) = Some d) ->
  exists2 D', load_D A N D = Some D' &
  [/\ D' 0%N = 1%N, forall n, (n < N)%N -> obind shape2 (item A n.+1) = Some (D' n.+1) & forall n, (N < n)%N -> D' n = D n].
Proof.
rewrite /load_D; elim: N => [|N IH] h.
  by exists (setn D 0%N 1%N) => //; rewrite /setn; split=> // -[|n].
have [D' e [h0 h1 h2]] := IH (fun n nN => h n (ltnW nN)).
have [d ed] := h N (ltnSn _).
exists (setn D' N.+1 d).
  by rewrite -[N.+1]addn1 iotaD foldl_cat e /= add0n ed addn1.
split=> [|n nN|n nN].
- by rewrite /setn.
- rewrite /setn; case: (eqVneq n.+1 N.+1) => [[->] //|ne].
  by rewrite h1 //; move: nN ne; rewrite ltnS leq_eqVlt eqSS => /orP[/eqP->|//]; rewrite eqxx.
- by rewrite /setn ifN ?h2 //; lia.
Qed.

(* ---- uniform chain: tdvp_uniform.py ------------------------------------------------------------------------------ *)
Variable (W U : Type).      (* environments and K; user data *)
Record uni := Uni { nL : nat; nD : nat; nq : nat; nA : seq arr; nl : seq W; nr : seq W; nK : seq W; nu : U }.
(* sp.array(list of arrays of equal shape) and list(array) *)
Definition stack (As : seq arr) : arr :=
  Arr (size As :: shp (head arr0 As)) (fun i => dat (nth arr0 As (head 0%N i)) (behead i)).
Definition unstack (a : arr) : seq arr :=
  [seq Arr (behead (shp a)) (fun i => dat a (k :: i)) | k <- iota 0 (head 0%N (shp a))].
(* the exported object array: A, l[-1], r[-1], K[0], userdata *)
Record ufile := UFile { e0 : arr; e1 : W; e2 : W; e3 : W; e4 : U }.
(* export_state (1485-1502) *)
Definition export_state (w : W) (s : uni) (userdata : option U) : ufile :=
  UFile (if nL s == 1%N then head arr0 (nA s) else stack (nA s)) (last w (nl s)) (last w (nr s)) (head w (nK s))
        (if userdata is Some u then u else nu s).
(* x[-1] = v, x[0] = v for a list *)
Definition set_last (x : seq W) v := if x is y :: z then rcons (belast y z) v else x.
Definition set_head (x : seq W) v := if x is y :: z then v :: z else x.
(* import_state (1507-1593), do_update = False.  The result carries the state of the object, also when an exception
   leaves it half-changed.  expand_D (mps_uniform 1854-1907), update followed by truncate (596-, 1017-1040) and
   _init_arrays (272-) are parameters *)
Inductive res := Ret of bool & uni | Raise of uni.
Definition st_of r := match r with Ret _ s => s | Raise s => s end.
Variables (init : nat -> nat -> nat -> uni -> uni) (expandD truncD : nat -> uni -> uni).
Definition put (A : seq arr) (f : ufile) (s : uni) : uni :=
  Uni (nL s) (nD s) (nq s) A (set_last (nl s) (e1 f)) (set_last (nr s) (e2 f)) (set_head (nK s) (e3 f)) (nu s).
Definition set_user (s : uni) u := Uni (nL s) (nD s) (nq s) (nA s) (nl s) (nr s) (nK s) u.
Definition sh0 (A : seq arr) := shp (head arr0 A).
Definition d0 s := nth 0%N s 0. Definition d1 s := nth 0%N s 1. Definition d2 s := nth 0%N s 2.
Definition import_state (f : ufile) (expand truncate expand_q shrink_q : bool) (s0 : uni) : res :=
  let s := set_user s0 (e4 f) in
  let newA := if size (shp (e0 f)) == 3%N then [:: e0 f] else if size (shp (e0 f)) == 4%N then unstack (e0 f) else [:: e0 f] in
  let n := sh0 newA in let o := sh0 (nA s) in
  let sq := (size newA == nL s) && (size n == 3%N) && (d1 n == d2 n) in
  if (size newA == nL s) && (n == o) then Ret true (put newA f s)
  else if [&& expand, sq, d0 n == d0 o & (d1 n <= d1 o)%N] then
    Ret true (expandD (nD s) (put newA f (init (d1 n) (nq s) (nL s) s)))
  else if [&& truncate, sq, d0 n == d0 o & (d1 n >= d1 o)%N] then
    Ret true (truncD (nD s) (put newA f (init (d1 n) (nq s) (nL s) s)))
  else if [&& expand_q, sq, (d0 n <= d0 o)%N & d1 n == d1 o] then       (* self.expand_q does not exist *)
    Raise (put newA f (init (nD s) (d0 n) (nL s) s))
  else if [&& shrink_q, sq, (d0 n >= d0 o)%N & d1 n == d1 o] then Raise s   (* _init_arrays without L *)
  else Ret false s.
Definition uni_wf (s : uni) := [/\ (0 < nL s)%N, size (nA s) = nL s, forall a k, (k < nL s)%N -> shp (nth a (nA s) k) = [:: nq s; nD s; nD s] &
  [/\ size (nl s) = nL s, size (nr s) = nL s & size (nK s) = nL s]].

Lemma stackK As sh : As <> [::] -> (forall a k, (k < size As)%N -> shp (nth a As k) = sh) -> unstack (stack As) = As.
Proof.
move=> nz h; apply: (@eq_from_nth _ arr0); first by rewrite size_map size_iota.
move=> k; rewrite size_map size_iota /= => hk.
rewrite (nth_map 0%N) ?size_iota // nth_iota // add0n /=.
have -> : shp (head arr0 As) = shp (nth arr0 As k) by rewrite -nth0 !h //; case: (As) hk.
by case: (nth arr0 As k).
Qed.
End Values.

(* ---- sandwich ------------------------------------------------------------------------------------------------------ *)
Section SwFiles.
Variables (T V U : Type) (t0 : T) (epsl epsr : V -> T -> V).
Variables (dq dl dr : T -> nat).      (* shape[0], shape[1], shape[2] *)
Notation sw := (sw T V).
Notation bulk := (bulk T V).
(* entries of the saved object array: None, a tensor, or the list of the tensors of a unit cell *)
Inductive ent := ENone | ETen of T | EList of seq T.
Record swfile := SwFile { g0 : seq ent; g1 : V; g2 : V; g4 : V; g5 : V; g7 : nat * nat; g8 : option U }.
Definition cell (b : bulk) := [seq bA b k | k <- iota 0 (bL b)].
(* save_state (197-215): A has N + 3 entries *)
Definition sw_save (s : sw) (u : option U) : swfile :=
  SwFile (EList (cell (uL s)) :: [seq ETen (sA s n) | n <- iota 1 (sN s)] ++ [:: EList (cell (uR s)); ENone])
    (sl s 0%N) (br (uL s) (bL (uL s)).-1) (sr s (sN s)) (bl (uR s) (bL (uR s)).-1) (sgl s, sgr s) u.
Definition ten e := if e is ETen a then Some a else None.
Definition lst e := if e is EList x then Some x else None.
(* from_file (174-178), from_tensors (134-171).  bupd: uniform update(restore_CF=False); b0: fresh uniform object *)
Variables (bupd : bulk -> bulk) (b0 : bulk).
Definition bulk_of (As : seq T) : bulk :=
  bupd (Bulk (size As) (dl (head t0 As)) (dq (head t0 As)) (nth t0 As) (bl b0) (br b0)).
Definition from_tensors (AL AC AR : seq T) (z : nat -> V) : sw :=
  let N := size AC in
  update_lr epsl epsr (Sw N (fun n => nth t0 AC n.-1) z z
    (fun n => if n == 0%N then dl (head t0 AL) else if (n <= N)%N then dr (nth t0 AC n.-1) else dl (head t0 AR))
    (fun=> dq (head t0 AL)) (bulk_of AL) (bulk_of AR) (N %/ 2) 0 0).
Fixpoint tens (es : seq ent) : option (seq T) :=
  if es is e :: es' then if ten e is Some a then omap (cons a) (tens es') else None else Some [::].
Definition from_file (f : swfile) (z : nat -> V) : option sw :=
  let es := g0 f in
  let mid := take (size es - 3) (behead es) in                                           (* tensors[1:-2] *)
  match lst (nth ENone es 0), tens mid, lst (nth ENone es (size es - 2)) with
  | Some AL, Some AC, Some AR => Some (from_tensors AL AC AR z) | _, _, _ => None end.

(* load_state (764-822) with do_update=False: None is an exception; the flag is false when the method returns early
   with a message *)
Definition set_bA (b : bulk) As := Bulk (bL b) (bD b) (bq b) (nth t0 As) (bl b) (br b).
Definition set_bl (b : bulk) x := Bulk (bL b) (bD b) (bq b) (bA b) (setn (bl b) (bL b).-1 x) (br b).
Definition set_br (b : bulk) x := Bulk (bL b) (bD b) (bq b) (bA b) (bl b) (setn (br b) (bL b).-1 x).
Definition sw_load (f : swfile) (autogrow : bool) (z : nat -> V) (s0 : sw) : option (bool * sw) :=
  let n0 := size (g0 f) in
  let s1 := if autogrow && (n0 != (sN s0 + 3)%N) then
      if (n0 < sN s0 + 3)%N then None else Some (grow_left z (n0 - 3 - sN s0) s0)      (* negative m: ValueError *)
    else Some s0 in
  if s1 is Some s then
    if n0 != (sN s + 3)%N then Some (false, s) else
    match lst (nth ENone (g0 f) 0), tens (take (sN s) (behead (g0 f))), lst (nth ENone (g0 f) (sN s).+1) with
    | Some AL, Some AC, Some AR => Some (true,
        Sw (sN s) (fun n => nth t0 AC n.-1) (setn (sl s) 0%N (g1 f)) (setn (setn (sr s) (sN s) (g4 f)) (sN s).+1 (g4 f))
           (sD s) (sq s) (set_bl (set_br (set_bA (uL s) AL) (g2 f)) (g1 f)) (set_br (set_bl (set_bA (uR s) AR) (g5 f)) (g4 f))
           (sNc s) (g7 f).1 (g7 f).2)
    | _, _, _ => None end
  else None.
(* tdvp_sandwich.py load_state (935-949): truth value of a numeric array: ValueError unless it has exactly one entry;
   K saved as a D x D array whose [0, 0] entry is nonzero iff nz *)
Definition truth (D : nat) (nz : bool) : option bool := if (D * D == 1)%N then Some nz else if (D * D == 0)%N then Some false else None.
Definition tdvp_load (f : swfile) (K3 K6 : option (nat * bool)) autogrow z s0 : option (bool * sw) :=
  if sw_load f autogrow z s0 is Some r then
    let t K := if K is Some (D, nz) then truth D nz else Some false in
    if t K3 is Some _ then if t K6 is Some _ then Some r else None else None
  else None.

Lemma tensE (As : seq T) : tens [seq ETen a | a <- As] = Some As.
Proof. by elim: As => //= a As ->. Qed.
Lemma cellE (b : bulk) k : (k < bL b)%N -> nth t0 (cell b) k = bA b k.
Proof. by move=> h; rewrite (nth_map 0%N) ?size_iota // nth_iota. Qed.
Lemma size_cell (b : bulk) : size (cell b) = bL b.
Proof. by rewrite size_map size_iota. Qed.
End SwFiles.
