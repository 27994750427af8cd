(* UAlign.v -- comparing two uniform states: fidelity_per_site (mps_uniform.py:1081-1134), phase_align (1136-1156),
   gauge_align (1158-1221), with the eigenvalue routine behind them (_calc_E_largest_eigenvalues, 413-461, and
   _get_dense_transfer_op_block, 295-316).  The retry loop of the sparse path is in Uniform.v (retry). *)
From mathcomp Require Import all_ssreflect all_algebra.
From mathcomp Require Import zify.
From mathcomp.real_closed Require Import mxtens.
From Verif Require Import Base Spec Eps Chain ChainProofs ChainProofs2 LinAlg Struct Factor Multi Svd Uniform UCanon.
Set Implicit Arguments.
Unset Strict Implicit.
Unset Printing Implicit Defensive.
Import Order.TTheory GRing.Theory Num.Theory.
Local Open Scope ring_scope.

(* ---- scipy.linalg.eig / scipy.sparse.linalg.eigs(which='LM'): a non-empty list of eigenpairs among which there is
   one with an eigenvalue of maximal modulus ---- *)
Section Eig.
Variable C : numClosedFieldType.
Definition eig_routine := forall n, 'M[C]_n -> seq (C * 'cV[C]_n).
Definition eig_ok n (M : 'M[C]_n) (ps : seq (C * 'cV[C]_n)) :=
  (forall p, p \in ps -> p.2 != 0 /\ M *m p.2 = p.1 *: p.2) /\
  (forall a (v : 'cV[C]_n), v != 0 -> M *m v = a *: v -> exists2 p, p \in ps & `|a| <= `|p.1|).
Definition eig_contract (eig : eig_routine) := forall n (M : 'M[C]_n), (0 < n)%N -> eig_ok M (eig n M).
(* abs(ev).argmax(): the first entry of maximal modulus; argmax of an empty array raises ValueError *)
Definition argmax_abs T (ps : seq (C * T)) : option (C * T) :=
  if ps is p :: ps' then Some (foldl (fun b x => if `|b.1| < `|x.1| then x else b) p ps') else None.
End Eig.

Section Align.
Variables (C : numClosedFieldType) (eig : eig_routine C) (eigh : eigh_routine C).
Variables (q D1 D2 : nat).
(* As1 = list(self.A) * (L_ // self.L), As2 likewise (301-303, 430-433) *)
Definition rep_cell D L (A : nat -> nat -> 'M[C]_D) : nat -> nat -> 'M[C]_D := fun k => A (k %% L)%N.
(* fidelity_per_site with full_output (413-427, 1115-1129): d, w and V, the eigenvector as a D1 x D2 matrix *)
Definition fidelity_per_site L1 (A1 : nat -> nat -> 'M[C]_D1) L2 (A2 : nat -> nat -> 'M[C]_D2) : option (C * C * 'M[C]_(D1, D2)) :=
  let L_ := lcmn L1 L2 in
  if argmax_abs (eig (Eblock L_ q (rep_cell L1 A1) (rep_cell L2 A2))) is Some (w, v)
  then Some (L_.-root `|w|, w, unravel v) else None.
End Align.

Section Align2.
Variables (C : numClosedFieldType) (eig : eig_routine C) (eigh : eigh_routine C).
Variables (q D L : nat).
(* self.A[0] *= phi.conj() / abs(phi) (1154, 1187) *)
Definition phase_fix (w : C) (A : nat -> nat -> 'M[C]_D) := scaled A (fun k => if k == 0%N then w^* / `|w| else 1).
(* phase_align (1152-1156): the new tensors and phi *)
Definition phase_align L2 D2 (A : nat -> nat -> 'M[C]_D) (A2 : nat -> nat -> 'M[C]_D2) : option ((nat -> nat -> 'M[C]_D) * C) :=
  if fidelity_per_site eig q L A L2 A2 is Some (_, w, _) then Some (phase_fix w A, w) else None.
(* one turn of the loop of gauge_align (1194-1219), both states with unit cells of L sites.
   other.r[k].inv().dotleft raises AttributeError for every kind of r[k] (no class has that method), so the except
   branch is always taken; invmh converts r[k] to a dense array *)
Definition ga_state := (ust C D * (nat -> 'M[C]_D) * (nat -> 'M[C]_D))%type.
Definition ga_gRk (gRL : 'M[C]_D) (o st : ust C D) k : 'M[C]_D :=
  if k == L.-1 then gRL else eps_r_noop q (ur o k.+1) (uA st k.+1) (uA o k.+1).
Definition ga_step (gRL : 'M[C]_D) (o : ust C D) (s : ga_state) (k : nat) : option ga_state :=
  let: (st, g, gi) := s in
  let gk := ga_gRk gRL o st k *m invmh eigh (ur o k) in
  if gk \in unitmx then
    let gik := invmx gk in
    Some (Ust (gstep L k gik gk (uA st)) (setv (ul st) k (gk^† *m (ul st k *m gk))) (setv (ur st) k (gik *m (ur st k *m gik^†))),
          setv g k gk, setv gi k gik)
  else None.
Definition ga_loop gRL o (ks : seq nat) (s : ga_state) : option ga_state :=
  foldl (fun x k => if x is Some s then ga_step gRL o s k else None) (Some s) ks.
(* gauge_align (1183-1221).  Outer None: an exception; inner None: the function returned without changing anything *)
Definition gauge_align (tol : C) (st o : ust C D) : option (ust C D * option ((nat -> 'M[C]_D) * (nat -> 'M[C]_D) * C)) :=
  if fidelity_per_site eig q L (uA st) L (uA o) is Some (d, w, gRL) then
    if tol < `|d - 1| then Some (st, None) else
    if ga_loop gRL o (rev (iota 0 L)) (Ust (phase_fix w (uA st)) (ul st) (ur st), fun _ => 0, fun _ => 0) is Some (st', g, gi)
    then Some (st', Some (g, gi, w)) else None
  else None.
End Align2.

(* ---- facts ----------------------------------------------------------------------------------------------------- *)
Section EigFacts.
Variable C : numClosedFieldType.
Lemma argmax_absP T (ps : seq (C * T)) p : argmax_abs ps = Some p ->
  (exists2 i, (i < size ps)%N & nth p ps i = p) /\ forall i, (i < size ps)%N -> `|(nth p ps i).1| <= `|p.1|.
Proof.
case: ps => [//|p0 ps] [<-] {p}.
have gen (xs : seq (C * T)) b : let m := foldl (fun b x => if `|b.1| < `|x.1| then x else b) b xs in
    [/\ `|b.1| <= `|m.1|, m = b \/ (exists2 i, (i < size xs)%N & nth m xs i = m) & forall i, (i < size xs)%N -> `|(nth m xs i).1| <= `|m.1|].
  elim: xs b => [|x xs IH] b /=; first by split=> //; left.
  have [h1 h2 h3] := IH (if `|b.1| < `|x.1| then x else b).
  set m := foldl _ _ _ in h1 h2 h3 *; split.
  - apply: le_trans h1; case: ifP => // h; exact: ltW.
  - case: h2 => [e|[i hi e]]; last by right; exists i.+1.
    by rewrite {1 2}e; case: ifP => h; [right; exists 0%N; rewrite //= e h | left].
  - move=> [|i] hi; last exact: h3.
    apply: le_trans h1 => /=; case: ifP => // /negbT.
    by rewrite -real_leNgt ?normr_real.
have [h1 h2 h3] := gen ps p0; split.
  case: h2 => [e|[i hi e]]; last by exists i.+1.
  by exists 0%N => //=; rewrite e.
by move=> [|i] hi //; exact: h3.
Qed.
(* a routine satisfying the contract *)
Definition eig0 : eig_routine C := fun n M =>
  [seq (a, (nz_row (kermx (M - a%:M)^T))^T) | a <- sval (closed_field_poly_normal (char_poly M))].
Lemma eig0_ok : eig_contract eig0.
Proof.
move=> n M _; rewrite /eig0; case: closed_field_poly_normal => rs /= eP.
have lc : lead_coef (char_poly M) = 1 by apply/eqP/char_poly_monic.
rewrite lc scale1r in eP.
have ev a (v : 'cV[C]_n) : v != 0 -> M *m v = a *: v -> a \in rs.
  move=> v0 e; rewrite -root_prod_XsubC -eP -eigenvalue_root_char; apply: contraTT v0 => h.
  have uM : (M - a%:M) \in unitmx.
    move: h; rewrite /eigenvalue /eigenspace negbK => /eqP k0; rewrite -row_free_unit -kermx_eq0.
    by rewrite k0.
  rewrite negbK -(mulKmx uM v) (_ : (M - a%:M) *m v = 0) ?mulmx0 //.
  by rewrite mulmxBl mul_scalar_mx e subrr.
split; last by move=> a v v0 e; exists (a, (nz_row (kermx (M - a%:M)^T))^T) => //; apply/mapP; exists a => //; exact: ev v0 e.
move=> p /mapP[a]; rewrite -root_prod_XsubC -eP -eigenvalue_root_char => h -> /=.
have nu : ~~ ((M - a%:M) \in unitmx).
  apply/negP => u; move: h; rewrite /eigenvalue /eigenspace; rewrite -row_free_unit -kermx_eq0 in u.
  by rewrite (eqP u) eqxx.
have k0 : kermx (M - a%:M)^T != 0 by rewrite kermx_eq0 row_free_unit unitmx_tr.
have := nz_row_sub (kermx (M - a%:M)^T) => /sub_kermxP hv; split.
  by apply: contra k0 => /eqP/(congr1 trmx); rewrite trmxK trmx0 => /eqP; rewrite nz_row_eq0.
have := congr1 trmx hv; rewrite trmx_mul trmxK trmx0 mulmxBl mul_scalar_mx => /eqP.
by rewrite subr_eq0 => /eqP.
Qed.
End EigFacts.

Section Gap.
Variables (C : numClosedFieldType) (D1 D2 : nat).
(* the norm of X weighted with l and r *)
Definition wn (l : 'M[C]_D1) (r : 'M[C]_D2) (X : 'M[C]_(D1, D2)) : C := \tr (X^† *m l *m X *m r).
Definition pd n (X : 'M[C]_n) := exists2 P : 'M[C]_n, P \in unitmx & X = P^† *m P.
Lemma pd_herm n (X : 'M[C]_n) : pd X -> herm X. Proof. by case=> P _ ->; rewrite /herm adjM adjK. Qed.
Lemma unit_adj n (P : 'M[C]_n) : P \in unitmx -> P^† \in unitmx.
Proof. by move=> u; have := congr1 (@adj C _ _) (mulmxV u); rewrite adjM adj1 => /mulmx1_unit[]. Qed.
Lemma pd_unit n (X : 'M[C]_n) : pd X -> X \in unitmx.
Proof. by case=> P u ->; rewrite unitmx_mul u unit_adj. Qed.
Lemma wn_ge0 l r X : pd l -> pd r -> 0 <= wn l r X.
Proof.
case=> P _ -> [Q _ ->]; rewrite /wn.
suff -> : \tr (X^† *m (P^† *m P) *m X *m (Q^† *m Q)) = adot (P *m X *m Q^†) (P *m X *m Q^†) by exact: adot_ge0.
by rewrite adotE !adjM adjK -!mulmxA [RHS]mxtrace_mulC -!mulmxA.
Qed.
Lemma wn_eq0 l r X : pd l -> pd r -> wn l r X = 0 -> X = 0.
Proof.
case=> P uP -> [Q uQ ->]; rewrite /wn.
have -> : \tr (X^† *m (P^† *m P) *m X *m (Q^† *m Q)) = adot (P *m X *m Q^†) (P *m X *m Q^†).
  by rewrite adotE !adjM adjK -!mulmxA [RHS]mxtrace_mulC -!mulmxA.
move/eqP; rewrite adot_eq0 => /eqP h; rewrite -[X](mulKmx uP) -[P *m X](mulmxK (unit_adj uQ)) h.
by rewrite mul0mx mulmx0.
Qed.
Lemma wnZ l r X a : wn l r (a *: X) = `|a| ^+ 2 * wn l r X.
Proof. by rewrite /wn adjZ -!scalemxAl -scalemxAr -scalemxAl scalerA mxtraceZ normCKC. Qed.
Lemma wn_real l r X : herm l -> herm r -> (wn l r X)^* = wn l r X.
Proof.
move=> hl hr; have e n (M : 'M[C]_n) : (\tr M)^* = \tr M^†.
  by rewrite /mxtrace rmorph_sum; apply: eq_bigr => i _; rewrite adjE.
by rewrite /wn e !adjM adjK hl hr mxtrace_mulC !mulmxA.
Qed.
(* one site: the loss of weighted norm is the failure of g to intertwine the two tensors *)
Lemma gap q (A : nat -> 'M[C]_D1) (B : nat -> 'M[C]_D2) l0 l1 r0 r1 (g0 g1 : 'M[C]_(D1, D2)) :
  herm l0 -> herm r0 -> herm r1 -> l1 = eps_l_noop q l0 A A -> r0 = eps_r_noop q r1 B B ->
  eps_r_noop q (g1 *m r1) A B = g0 *m r0 ->
  \sum_(s < q) wn l0 r1 (A s *m g1 - g0 *m B s) = wn l1 r1 g1 - wn l0 r0 g0.
Proof.
move=> hl hr0 hr el er eg.
have e n (M : 'M[C]_n) : (\tr M)^* = \tr M^†.
  by rewrite /mxtrace rmorph_sum; apply: eq_bigr => i _; rewrite adjE.
pose x s := \tr (g0^† *m l0 *m (A s *m (g1 *m r1) *m (B s)^†)).
have ex : \sum_(s < q) x s = wn l0 r0 g0.
  by rewrite /x -raddf_sum -mulmx_sumr -/(eps_r_noop q (g1 *m r1) A B) eg /wn !mulmxA.
have term s : wn l0 r1 (A s *m g1 - g0 *m B s) =
    \tr (g1^† *m ((A s)^† *m l0 *m A s) *m g1 *m r1) - x s - (x s)^* + \tr (g0^† *m l0 *m g0 *m (B s *m r1 *m (B s)^†)).
  rewrite /wn /x e (_ : (A s *m g1 - g0 *m B s)^† = g1^† *m (A s)^† - (B s)^† *m g0^†); last first.
    by rewrite -!adjM; apply/matrixP => i j; rewrite !mxE rmorphB.
  rewrite !mulmxBl !mulmxBr !mulmxBl !raddfB /= !adjM !adjK hl hr -!mulmxA opprK.
  rewrite [\tr ((B s)^† *m (g0^† *m (l0 *m (A s *m _)))) ]mxtrace_mulC [\tr ((B s)^† *m (g0^† *m (l0 *m (g0 *m _)))) ]mxtrace_mulC.
  have -> : \tr (B s *m (r1 *m (g1^† *m ((A s)^† *m (l0 *m g0))))) = \tr (g1^† *m ((A s)^† *m (l0 *m (g0 *m (B s *m r1))))).
    by rewrite mulmxA mxtrace_mulC -!mulmxA.
  by rewrite -!mulmxA !addrA; congr (_ + _); rewrite addrAC.
under eq_bigr do rewrite term.
rewrite big_split /= !sumrB ex -rmorph_sum /= ex wn_real //.
rewrite (_ : \sum_(i < q) \tr (g1^† *m ((A i)^† *m l0 *m A i) *m g1 *m r1) = wn l1 r1 g1); last first.
  rewrite -raddf_sum -!mulmx_suml -mulmx_sumr el /= /wn /eps_l_noop; congr (\tr (_ *m _ *m _ *m _)).
  by apply: eq_bigr => s _; rewrite mulmxA.
rewrite (_ : \sum_(i < q) \tr (g0^† *m l0 *m g0 *m (B i *m r1 *m (B i)^†)) = wn l0 r0 g0).
  by rewrite subrK.
by rewrite -raddf_sum -mulmx_sumr er.
Qed.
End Gap.

Section Window.
Variables (C : numClosedFieldType) (q D1 D2 N : nat) (A : nat -> nat -> 'M[C]_D1) (B : nat -> nat -> 'M[C]_D2).
Variables (la : nat -> 'M[C]_D1) (rb : nat -> 'M[C]_D2).
(* the eigenvector carried to the left through the sites N-1, ..., n *)
Definition carry (V : 'M[C]_(D1, D2)) n := foldl (fun y k => eps_r_noop q y (A k) (B k)) V (rev (iota n (N - n))).
Lemma carryN V : carry V N = V. Proof. by rewrite /carry subnn. Qed.
Lemma carry0 V : carry V 0 = cellR N q A B V. Proof. by rewrite /carry subn0. Qed.
Lemma carryS V n : (n < N)%N -> carry V n = eps_r_noop q (carry V n.+1) (A n) (B n).
Proof.
move=> h; rewrite /carry (_ : N - n = (N - n.+1).+1)%N; last by lia.
by rewrite /= rev_cons -cats1 foldl_cat.
Qed.
Lemma carry_sum V m : (m <= N)%N -> carry V (N - m) = \sum_(c <- cfgs (fun _ => q) m (N - m))
  @amp C (fun _ => D1) A N (N - m) c *m V *m (@amp C (fun _ => D2) B N (N - m) c)^†.
Proof.
elim: m => [|m IH] h; first by rewrite subn0 sum_cfgs0 carryN /= !pid_mx_1 adj1 mul1mx mulmx1.
have e : (N - m.+1).+1 = (N - m)%N by lia.
rewrite sum_cfgsS carryS ?e ?IH ?(ltnW h) //; last by lia.
apply: eq_bigr => s _; rewrite mulmx_sumr mulmx_suml; apply: eq_bigr => c _ /=.
by rewrite e adjM !mulmxA.
Qed.
Hypotheses (hl : forall n, (n <= N)%N -> pd (la n)) (hr : forall n, (n <= N)%N -> pd (rb n)).
Hypotheses (ul : forall n, (n < N)%N -> la n.+1 = eps_l_noop q (la n) (A n) (A n))
           (ur : forall n, (n < N)%N -> rb n = eps_r_noop q (rb n.+1) (B n) (B n)).
Hypotheses (cl : la 0 = la N) (cr : rb 0 = rb N).
Variables (w : C) (V : 'M[C]_(D1, D2)).
Hypotheses (V0 : V != 0) (eV : cellR N q A B V = w *: V).
Let g n := carry V n *m invmx (rb n).
Lemma window_gap : \sum_(n < N) \sum_(s < q) wn (la n) (rb n.+1) (A n s *m g n.+1 - g n *m B n s) =
  (1 - `|w| ^+ 2) * wn (la N) (rb N) (g N).
Proof.
have st n : (n < N)%N -> \sum_(s < q) wn (la n) (rb n.+1) (A n s *m g n.+1 - g n *m B n s) =
    wn (la n.+1) (rb n.+1) (g n.+1) - wn (la n) (rb n) (g n).
  move=> h; apply: gap; [exact/pd_herm/hl/ltnW | exact/pd_herm/hr/ltnW | exact/pd_herm/hr | exact: ul | exact: ur |].
  rewrite /g !mulmxKV ?(pd_unit (hr _)) //; first by rewrite [RHS]carryS.
  exact: ltnW.
have tel m : (m <= N)%N -> \sum_(n < m) \sum_(s < q) wn (la n) (rb n.+1) (A n s *m g n.+1 - g n *m B n s) =
    wn (la m) (rb m) (g m) - wn (la 0) (rb 0) (g 0).
  elim: m => [|m IH] h; first by rewrite big_ord0 subrr.
  by rewrite big_ord_recr /= IH ?st //; [rewrite addrC addrA subrK | exact: ltnW].
rewrite tel // /g carryN carry0 eV cl cr -scalemxAl wnZ.
by rewrite mulrBl mul1r.
Qed.
Lemma gN0 : g N != 0.
Proof. by apply: contra V0 => /eqP h; rewrite -(carryN V) -[carry V N](mulmxKV (pd_unit (hr (leqnn N)))) -/(g N) h mul0mx. Qed.
Lemma window_bound : `|w| <= 1.
Proof.
have : 0 <= (1 - `|w| ^+ 2) * wn (la N) (rb N) (g N).
  rewrite -window_gap; apply: sumr_ge0 => n _; apply: sumr_ge0 => s _.
  by apply: wn_ge0; [exact/hl/ltnW | exact: hr].
have pos : 0 < wn (la N) (rb N) (g N).
  rewrite lt_def (wn_ge0 _ (hl (leqnn N)) (hr (leqnn N))) andbT; apply: contra gN0 => /eqP h.
  by rewrite (wn_eq0 (hl (leqnn N)) (hr (leqnn N)) h).
by rewrite pmulr_lge0 // subr_ge0 expr_le1.
Qed.
Lemma window_inter : `|w| = 1 -> forall n s, (n < N)%N -> (s < q)%N -> A n s *m g n.+1 = g n *m B n s.
Proof.
move=> w1 n s hn hs; have := window_gap; rewrite w1 expr1n subrr mul0r => /eqP.
rewrite psumr_eq0; last first.
  by move=> i _; apply: sumr_ge0 => t _; apply: wn_ge0; [exact/hl/ltnW | exact: hr].
move=> /allP /(_ (Ordinal hn) (mem_index_enum _)) /=; rewrite psumr_eq0; last first.
  by move=> t _; apply: wn_ge0; [exact/hl/ltnW | exact: hr].
move=> /allP /(_ (Ordinal hs) (mem_index_enum _)) /= /eqP h.
by apply/eqP; rewrite -subr_eq0 (wn_eq0 (hl (ltnW hn)) (hr hn) h).
Qed.
Lemma g0w : g 0 = w *: g N. Proof. by rewrite /g carryN carry0 eV cr -scalemxAl. Qed.
End Window.

(* an intertwiner into a state with a unique left fixed point is invertible *)
Section Invertible.
Variables (C : numClosedFieldType) (q D N : nat) (A B : nat -> nat -> 'M[C]_D) (la lb g : nat -> 'M[C]_D) (w : C).
Hypotheses (hl : forall n, (n <= N)%N -> pd (la n)) (hlb : forall n, (n <= N)%N -> pd (lb n)).
Hypotheses (ul : forall n, (n < N)%N -> la n.+1 = eps_l_noop q (la n) (A n) (A n))
           (ulb : forall n, (n < N)%N -> lb n.+1 = eps_l_noop q (lb n) (B n) (B n)).
Hypotheses (cl : la 0 = la N) (w1 : `|w| = 1) (eg : g 0 = w *: g N) (g0 : g N != 0).
Hypothesis inter : forall n s, (n < N)%N -> (s < q)%N -> A n s *m g n.+1 = g n *m B n s.
Hypothesis inj : forall X, cellL N q B B X = X -> exists c, X = c *: lb 0.
Lemma inter_unit j : (j <= N)%N -> g j \in unitmx.
Proof.
pose G n := (g n)^† *m la n *m g n.
have GS n : (n < N)%N -> G n.+1 = eps_l_noop q (G n) (B n) (B n).
  move=> h; rewrite /G ul // /eps_l_noop mulmx_sumr mulmx_suml; apply: eq_bigr => s _.
  have e := inter h (ltn_ord s); rewrite !mulmxA -adjM e -!mulmxA e adjM !mulmxA.
  by [].
have fold m : (m <= N)%N -> foldl (fun y k => eps_l_noop q y (B k) (B k)) (G 0%N) (iota 0 m) = G m.
  elim: m => [|m IH] h //; rewrite -[m.+1]addn1 iotaD foldl_cat IH /= ?add0n ?addn1 ?GS //.
  exact: ltnW.
have eGN : G 0%N = G N.
  by rewrite /G cl eg adjZ -!scalemxAl -scalemxAr scalerA -normCKC w1 expr1n scale1r.
have [c ec] := inj (etrans (fold N (leqnn N)) (esym eGN)).
have Gc m : (m <= N)%N -> G m = c *: lb m.
  elim: m => [|m IH] h; first exact: ec.
  by rewrite GS // IH ?(ltnW h) // ulb // -eps_lZ.
have c0 : c != 0.
  apply: contra g0 => /eqP c0; have /eqP := Gc N (leqnn N); rewrite c0 scale0r /G.
  have [P uP ->] := hl (leqnn N) => /eqP h.
  have : adot (P *m g N) (P *m g N) = 0 by rewrite adotE adjM -mulmxA (mulmxA P^†) mulmxA h mxtrace0.
  by move/eqP; rewrite adot_eq0 => /eqP h'; rewrite -[g N](mulKmx uP) h' mulmx0.
move=> h; have : G j \in unitmx by rewrite Gc // unitmxZ ?unitfE //; exact/pd_unit/hlb.
by rewrite /G unitmx_mul => /andP[_ ->].
Qed.
End Invertible.

(* ---- the phase ---- *)
Section Phase.
Variables (C : numClosedFieldType) (q D L : nat).
Lemma phase_norm (w : C) : w != 0 -> `|w^* / `|w| | = 1.
Proof. by move=> w0; rewrite normrM normfV normr_id norm_conjC mulfV // normr_eq0. Qed.
Lemma phase_one (w : C) : w != 0 -> w^* / `|w| * w = `|w|.
Proof. by move=> w0; rewrite mulrAC -normCKC expr2 mulfK // normr_eq0. Qed.
Variables (A : nat -> nat -> 'M[C]_D).
Lemma scaled_cons (c : nat -> C) l r : (forall k, (k < L)%N -> `|c k| = 1) -> consistent L q A l r -> consistent L q (scaled A c) l r.
Proof.
move=> c1 hc k kL; have [h1 h2] := hc k kL.
by rewrite eps_l_scaled eps_r_scaled -normCK c1 // expr1n !scale1r.
Qed.
Lemma scaled_amp (c : nat -> C) k0 e n cs : (n + size cs)%N = e ->
  amp (wA L (scaled A c) k0) e n cs = (\prod_(n <= i < e) c ((k0 + i) %% L)%N) *: amp (wA L A k0) e n cs.
Proof.
elim: cs n => [|s cs IH] n /=; first by rewrite addn0 => <-; rewrite big_geq // scale1r.
rewrite addnS -addSn => h; rewrite IH // -scalemxAr {1}/wA /scaled -scalemxAl scalerA mulrC.
by rewrite [in RHS]big_ltn //; lia.
Qed.
Lemma scaled_dens (c : nat -> C) l r k0 N cs ds : (0 < L)%N -> (forall k, (k < L)%N -> `|c k| = 1) -> size cs = N -> size ds = N ->
  wdens L (scaled A c) l r k0 N cs ds = wdens L A l r k0 N cs ds.
Proof.
move=> L0 c1 h1 h2; rewrite /wdens /psi !scaled_amp ?add0n // adjZ.
rewrite -!scalemxAl -scalemxAr -scalemxAl scalerA -normCKC normr_prod.
rewrite (eq_bigr (fun _ => 1)) => [|i _]; last by rewrite c1 // ltn_mod.
by rewrite big1 // expr1n scale1r.
Qed.
Lemma phase_eps D2 (A2 : nat -> nat -> 'M[C]_D2) (c : nat -> C) k x :
  eps_r_noop q x (scaled A c k) (A2 k) = c k *: eps_r_noop q x (A k) (A2 k).
Proof. by rewrite /eps_r_noop scaler_sumr; apply: eq_bigr => s _; rewrite /scaled -!scalemxAl. Qed.
Lemma phase_cell D2 (A2 : nat -> nat -> 'M[C]_D2) (c : nat -> C) N x :
  cellR N q (scaled A c) A2 x = (\prod_(k < N) c k) *: cellR N q A A2 x.
Proof.
rewrite -(carry0 q N) -(carry0 q N).
have gen m : (m <= N)%N -> carry q N (scaled A c) A2 x (N - m) = (\prod_(N - m <= k < N) c k) *: carry q N A A2 x (N - m).
  elim: m => [|m IH] h; first by rewrite subn0 !carryN big_geq // scale1r.
  have hm : (N - m.+1 < N)%N by lia.
  have em : (N - m.+1).+1 = (N - m)%N by lia.
  by rewrite (carryS q (scaled A c) _ _ hm) (carryS q A _ _ hm) em IH ?(ltnW h) // eps_rZ phase_eps scalerA mulrC [in RHS]big_ltn // em.
by have := gen N (leqnn N); rewrite subnn big_mkord.
Qed.
End Phase.

(* ---- the loop of gauge_align ---- *)
Section Loop.
Variables (C : numClosedFieldType) (eigh : eigh_routine C) (q D L : nat).
Hypotheses (eighP : eigh_contract eigh) (L0 : (0 < L)%N).
Variables (st0 o : ust C D) (h : nat -> 'M[C]_D) (gRL : 'M[C]_D) (gz giz : nat -> 'M[C]_D).
Hypotheses (v0 : consistent L q (uA st0) (ul st0) (ur st0)) (vo : consistent L q (uA o) (ul o) (ur o)).
Hypotheses (ro : forall k, (k < L)%N -> herm (ur o k) /\ ur o k \in unitmx) (uh : forall k, (k < L)%N -> h k \in unitmx).
Hypothesis inter : forall k s, (k < L)%N -> (s < q)%N -> uA st0 k s *m h k = h (prv L k) *m uA o k s.
Hypothesis eR : gRL = h L.-1 *m ur o L.-1.
Lemma ga_loopP m : (m <= L)%N -> exists st g gi, ga_loop eigh q L gRL o (rev (iota (L - m) m)) (st0, gz, giz) = Some (st, g, gi) /\
  [/\ consistent L q (uA st) (ul st) (ur st),
      forall k, (L - m <= k < L)%N -> [/\ g k = h k, gi k = invmx (h k), ul st k = (h k)^† *m ul st0 k *m h k
          & ur st k = invmx (h k) *m ur st0 k *m (invmx (h k))^†],
      forall k, (k < L - m)%N -> ul st k = ul st0 k /\ ur st k = ur st0 k,
      forall k s, (k < L)%N -> uA st k s = (if (L - m <= prv L k)%N then invmx (h (prv L k)) else 1%:M) *m uA st0 k s *m
          (if (L - m <= k)%N then h k else 1%:M)
    & forall k0 N c d, size c = N -> size d = N -> wdens L (uA st) (ul st) (ur st) k0 N c d = wdens L (uA st0) (ul st0) (ur st0) k0 N c d].
Proof.
elim: m => [|m IH] hm.
  exists st0, gz, giz; rewrite subn0; split=> //; split=> //; first by move=> k; lia.
  move=> k s kL; rewrite leqNgt prv_lt // /= leqNgt kL /= mul1mx mulmx1 //.
have [st [g [gi [e [h1 h2 h3 h4 h5]]]]] := IH (ltnW hm).
pose k := (L - m.+1)%N; have ek : (L - m = k.+1)%N by rewrite /k; lia.
have kL : (k < L)%N by rewrite /k; lia.
have egk : ga_gRk q L gRL o st k *m invmh eigh (ur o k) = h k.
  have [hr ur'] := ro kL; rewrite invmhE // /ga_gRk; case: eqP => [ek1|nk]; first by rewrite eR -ek1 mulmxK.
  have k1 : (k.+1 < L)%N by lia.
  have e1 s : (s < q)%N -> uA st k.+1 s = h k *m uA o k.+1 s.
    move=> hs; rewrite h4 // prvS // ek ltnn leqnn mul1mx inter // prvS //.
  rewrite /eps_r_noop (eq_bigr (fun s : 'I_q => h k *m (uA o k.+1 s *m ur o k.+1 *m (uA o k.+1 s)^†))) => [|s _]; last first.
    by rewrite e1 // !mulmxA.
  rewrite -mulmx_sumr; have [_ e2] := vo k1; rewrite prvS // in e2.
  by rewrite -/(eps_r_noop q (ur o k.+1) (uA o k.+1) (uA o k.+1)) -e2 mulmxK.
have uk := uh kL.
exists (Ust (gstep L k (invmx (h k)) (h k) (uA st)) (setv (ul st) k ((h k)^† *m (ul st k *m h k)))
          (setv (ur st) k (invmx (h k) *m (ur st k *m (invmx (h k))^†)))), (setv g k (h k)), (setv gi k (invmx (h k))).
have nk : ul st k = ul st0 k /\ ur st k = ur st0 k by apply: h3; rewrite ek.
split.
  rewrite -/k /= -ek rev_cons -cats1 /ga_loop foldl_cat -/(ga_loop _ _ _ _ _ _ _) e /=.
  by rewrite egk uk.
rewrite -/k !mulmxA; split=> /=.
- by apply: gcons => //; rewrite mulVmx.
- move=> j hj; rewrite /setv; case: eqP => [->|nj]; first by have [-> ->] := nk.
  by apply: h2; lia.
- move=> j hj; rewrite /setv; case: eqP => [|nj]; first by lia.
  by apply: h3; lia.
- move=> j s jL; rewrite /gstep h4 // ek.
  have ej : (j == k.+1 %% L)%N = (prv L j == k).
    by have := hit_prv L0 kL j; rewrite modn_small // => ->.
  rewrite ej; case: (eqVneq (prv L j) k) => [ep|np].
    rewrite ep ltnn leqnn; case: (eqVneq j k) => [->|nj]; first by rewrite ltnn leqnn mul1mx mulmx1.
    by rewrite mul1mx !mulmxA (_ : (k < j)%N = (k <= j)%N) //; lia.
  have -> : (k < prv L j)%N = (k <= prv L j)%N by lia.
  case: (eqVneq j k) => [->|nj]; first by rewrite ltnn leqnn mulmx1.
  by rewrite (_ : (k < j)%N = (k <= j)%N) //; lia.
- by move=> k0 N c d sc sd; rewrite -h5 //; apply: gdens => //; rewrite mulVmx.
Qed.
Lemma ga_allP : exists st g gi, ga_loop eigh q L gRL o (rev (iota 0 L)) (st0, gz, giz) = Some (st, g, gi) /\
  [/\ consistent L q (uA st) (ul st) (ur st),
      forall k, (k < L)%N -> [/\ g k = h k, gi k = invmx (h k), ul st k = (h k)^† *m ul st0 k *m h k
          & ur st k = invmx (h k) *m ur st0 k *m (invmx (h k))^†],
      forall k s, (k < L)%N -> (s < q)%N -> uA st k s = uA o k s
    & forall k0 N c d, size c = N -> size d = N -> wdens L (uA st) (ul st) (ur st) k0 N c d = wdens L (uA st0) (ul st0) (ur st0) k0 N c d].
Proof.
have [st [g [gi]]] := ga_loopP (leqnn L); rewrite subnn => -[e [h1 h2 _ h4 h5]].
exists st, g, gi; split=> //; split=> // k s kL hs.
by rewrite h4 //= -mulmxA inter // mulmxA mulVmx ?mul1mx // uh // prv_lt.
Qed.
End Loop.
