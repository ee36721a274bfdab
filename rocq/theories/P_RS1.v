(** Proofs about the power-iteration sketcher RS1. *)
From mathcomp Require Import all_ssreflect all_algebra.
From mathcomp Require Import zify.
From Verif Require Import Base Arr Lapack Exact MxLib LapackSpec Rng Aware.
Set Implicit Arguments.
Unset Strict Implicit.
Unset Printing Implicit Defensive.
Import Order.TTheory GRing.Theory Num.Theory.

(** * Schedule, for arbitrary scalars *)
Section Schedule.
Context {T : Type} {O : ops T} {G : Type}.
Implicit Types (s : st G T).

(** Events of passes number [a+1 .. np] out of [np]: pass [i] multiplies by A'
    iff [np - i] is even (so the last one always does), and the stabilizer runs
    after pass [i] iff [p] divides [i]. *)
Definition pass_ev (np p i : nat) : seq (event T) :=
  EvPass (~~ odd (np - i)) :: nseq (p %| i) EvStab.
Definition sched (np p a : nat) : seq (event T) :=
  flatten [seq pass_ev np p i | i <- iota a.+1 (np - a)].

(** A generator of sketching operators that logs nothing itself. *)
Definition quiet (gen : nat -> nat -> M G T (pyop T)) : Prop :=
  forall a b s s' X, gen a b s = (s', X) -> evs s' = evs s.

Lemma passA_inv A Sk s s' (Y : arr T) : passA A Sk s = (s', inr Y) ->
  evs s' = rcons (evs s) (EvPass false) /\ mul_l A Sk = Ok Y.
Proof. by rewrite /passA bind_emitE /lift => -[<- ->]. Qed.

Lemma passAt_inv A Sk s s' (Y : arr T) : passAt A Sk s = (s', inr Y) ->
  evs s' = rcons (evs s) (EvPass true) /\ mul_l (mtr A) Sk = Ok Y.
Proof. by rewrite /passAt bind_emitE /lift => -[<- ->]. Qed.

Lemma maybe_stab_inv stab pps done Sk s s' (Y : arr T) :
  maybe_stab stab pps done Sk s = (s', inr Y) ->
  evs s' = evs s ++ nseq (absz pps %| done) EvStab.
Proof.
rewrite /maybe_stab; case: eqP => // _; case: ifP => _.
  by rewrite /stabilize bind_emitE /lift => -[<- _]; rewrite /= cats1.
by case=> <- _; rewrite cats0.
Qed.

Lemma sched_done np p : sched np p np = [::].
Proof. by rewrite /sched subnn. Qed.

Lemma sched_step np p a : (a < np)%N ->
  sched np p a = pass_ev np p a.+1 ++ sched np p a.+1.
Proof. by move=> lt; rewrite /sched -[(np - a)%N]prednK ?subn_gt0 // -subnS. Qed.

Lemma rs1_loop_sched stab pps A q : forall done Sk s s' Y,
  rs1_loop stab pps A q done Sk s = (s', inr Y) ->
  evs s' = evs s ++ sched (done + 2 * q) (absz pps) done.
Proof.
elim: q => [|q IH] done Sk s s' Y /=.
  by case=> <- _; rewrite muln0 addn0 sched_done cats0.
move=> H; case: (bind_inv H) => s1 [S1 [H1 {}H]].
case: (bind_inv H) => s2 [S2 [H2 {}H]]; case: (bind_inv H) => s3 [S3 [H3 {}H]].
case: (bind_inv H) => s4 [S4 [H4 {}H]].
case: (passA_inv H1) => e1 _; case: (passAt_inv H3) => e3 _.
rewrite (IH _ _ _ _ _ H) (maybe_stab_inv H4) e3 (maybe_stab_inv H2) e1.
have -> : (done.+2 + 2 * q = done + 2 * q.+1)%N by lia.
set np := (done + 2 * q.+1)%N.
rewrite (@sched_step np _ done); last by rewrite /np; lia.
rewrite (@sched_step np _ done.+1); last by rewrite /np; lia.
rewrite /pass_ev (_ : odd (np - done.+1) = true); last by rewrite /np; lia.
rewrite (_ : odd (np - done.+2) = false); last by rewrite /np; lia.
by rewrite -!cats1 /= -!catA.
Qed.

Lemma RS1_sched gen np stab pps A k s s' Y :
  quiet gen -> (0 < pps)%R ->
  RS1 gen np stab pps A k s = (s', inr Y) ->
  (0 <= np)%R /\
  evs s' = evs s ++ EvDraw (if odd (absz np) then nr A else nc A) k
                 :: sched (absz np) (absz pps) 0.
Proof.
move=> qg pps0; rewrite /RS1; case: (boolP (0 <= np)%R) => np0; last by rewrite bind_passertF.
rewrite bind_passertT /= => H; split=> //; move: H; set n := absz np.
case: ifP => on.
  move=> H; case: (bind_inv H) => s1 [S1 []]; rewrite /draw bind_emitE => H1 {}H.
  rewrite (rs1_loop_sched H) (qg _ _ _ _ _ H1) (negbTE on) -cats1 -catA /=.
  by rewrite add0n (_ : 2 * (n %/ 2) = n)%N //; lia.
move=> H; case: (bind_inv H) => s1 [S1 []]; rewrite /draw bind_emitE => H1 {}H.
have /= e1 := qg _ _ _ _ _ H1.
case: (bind_inv H) => s2 [S2 [H2 {}H]]; case: (bind_inv H) => s3 [S3 [H3 {}H]].
case: (passAt_inv H2) => e2 _; rewrite (rs1_loop_sched H).
have -> : (1 + 2 * (n.-1 %/ 2) = n)%N by lia.
rewrite (negbFE on) (@sched_step n _ 0) ?odd_gt0 ?(negbFE on) //.
have -> : evs s3 = evs s2 ++ nseq (absz pps %| 1) EvStab.
  move: H3; rewrite dvdn1; case: ifP => [/eqP->|ne1].
    by rewrite /stabilize bind_emitE /lift => -[<- _]; rewrite /= cats1.
  case=> <- _; rewrite (_ : absz pps == 1%N = false) ?cats0 //.
  by apply/negP => /eqP ab; move/eqP: ne1; apply; lia.
rewrite e2 e1 /pass_ev (_ : odd (n - 1) = false); last by lia.
by rewrite -!cats1 /= -!catA.
Qed.

Lemma RS1_neg gen (np : int) stab pps A k s : (np < 0)%R ->
  RS1 gen np stab pps A k s = (s, inl AssertionError).
Proof. by move=> np0; rewrite /RS1 leNgt np0 bind_passertF. Qed.

(** The announced number of passes is the number of recorded products. *)
Definition passes (l : seq (event T)) : nat :=
  count (fun e => if e is EvPass _ then true else false) l.

Lemma passes_cat l1 l2 : passes (l1 ++ l2) = (passes l1 + passes l2)%N.
Proof. exact: count_cat. Qed.

Lemma passes_sched np p a : (a <= np)%N -> passes (sched np p a) = (np - a)%N.
Proof.
move=> le; rewrite -{1}(subKn le); move: (np - a)%N (leq_subr a np) => d.
elim: d => [|d IH] dn; first by rewrite subn0 sched_done.
rewrite sched_step; last by lia.
rewrite passes_cat /= (_ : (np - d.+1).+1 = np - d)%N; last by lia.
rewrite IH; last by lia.
by rewrite (_ : passes (nseq _ _) = 0%N) //; case: (_ %| _).
Qed.

End Schedule.

(** * Range and shape, in exact arithmetic *)
Section Range.
Local Open Scope ring_scope.
Variables (R : rcfType) (G : Type).
Implicit Types (s : st G R).

(** The un-stabilised iterate promised by the documentation. *)
Definition krylov m n k (A : 'M[R]_(m, n)) (q : nat) (X : 'M[R]_(n, k)) : 'M[R]_(n, k) :=
  iter q (fun Y => A^T *m (A *m Y)) X.

(** A stabilizer returns a matrix of the same shape whose range contains the
    range of its argument. *)
Definition stab_spec (stab : arr R -> res (arr R)) : Prop :=
  forall m k (X : 'M[R]_(m, k)), (0 < k)%N -> (k <= m)%N ->
  exists (Y : 'M[R]_(m, k)) (U : 'M[R]_k), stab (ofmx X) = Ok (ofmx Y) /\ X = Y *m U.

Lemma orth_stab (L : lapack R) : qr_spec L -> stab_spec (orth L).
Proof.
move=> qrL m k X k0 km; have [Q [U [E _ _ XE]]] := qr_tall X qrL k0 km.
by exists Q, U; rewrite /orth E.
Qed.

Lemma lu_stab (L : lapack R) : lu_spec L -> stab_spec (lu_stabilize L).
Proof.
move=> luL m k X k0 km; have := luL _ _ X (leq_trans k0 km) k0.
rewrite (minn_idPr km) => -[P [Lo [U [E _ _ _ XE]]]].
by exists (P *m Lo), U; rewrite /lu_stabilize E /= mmulE.
Qed.

Lemma passAE m n k (A : 'M[R]_(m, n)) (X : 'M[R]_(n, k)) s :
  passA (ofmx A) (PyArr (ofmx X)) s =
  (St (gen s) (rcons (evs s) (EvPass false)), inr (ofmx (A *m X))).
Proof. by rewrite /passA bind_emitE /= mmulE. Qed.

Lemma passAtE m n k (A : 'M[R]_(m, n)) (X : 'M[R]_(m, k)) s :
  passAt (ofmx A) (PyArr (ofmx X)) s =
  (St (gen s) (rcons (evs s) (EvPass true)), inr (ofmx (A^T *m X))).
Proof. by rewrite /passAt bind_emitE /= mtrE mmulE. Qed.

Lemma maybe_stabP stab (pps : int) done m k (X : 'M[R]_(m, k)) s :
  stab_spec stab -> pps <> 0 -> (0 < k)%N -> (k <= m)%N ->
  exists s' (Y : 'M[R]_(m, k)) (U : 'M[R]_k),
    [/\ maybe_stab stab pps done (ofmx X) s = (s', inr (ofmx Y)), X = Y *m U &
        gen s' = gen s].
Proof.
move=> st pps0 k0 km; rewrite /maybe_stab.
case: eqP => [p0|_]; first by case: pps0; lia.
case: ifP => _; last by exists s, X, 1%:M; rewrite mulmx1.
have [Y [U [E XE]]] := st _ _ X k0 km.
by eexists _, Y, U; rewrite /stabilize bind_emitE E; split.
Qed.

Lemma rs1_loopP stab (pps : int) m n k (A : 'M[R]_(m, n)) :
  stab_spec stab -> pps <> 0 -> (0 < k)%N -> (k <= minn m n)%N ->
  forall q done (X : 'M[R]_(n, k)) (K : 'M[R]_(n, k)) (W : 'M[R]_k) s,
  K = X *m W ->
  exists s' (Y : 'M[R]_(n, k)) (W' : 'M[R]_k),
    [/\ rs1_loop stab pps (ofmx A) q done (PyArr (ofmx X)) s = (s', inr (PyArr (ofmx Y))),
        krylov A q K = Y *m W' & gen s' = gen s].
Proof.
move=> st pps0 k0; rewrite leq_min => /andP[km kn].
elim=> [|q IH] done X K W s KE; first by exists s, X, W.
rewrite /= (bindE _ (passAE _ _ _)).
set s1 := St _ _.
have [s2 [Y2 [U2 [E2 XE2 g2]]]] := maybe_stabP done.+1 (A *m X) s1 st pps0 k0 km.
rewrite (bindE _ E2) (bindE _ (passAtE _ _ _)).
set s3 := St _ _.
have [s4 [Y4 [U4 [E4 XE4 g4]]]] := maybe_stabP done.+2 (A^T *m Y2) s3 st pps0 k0 kn.
rewrite (bindE _ E4).
have KE' : A^T *m (A *m K) = Y4 *m (U4 *m U2 *m W).
  by rewrite KE (mulmxA A) XE2 -(mulmxA Y2) (mulmxA A^T) XE4 !mulmxA.
have [s' [Y [W' [E KK g]]]] := IH done.+2 Y4 _ _ s4 KE'.
exists s', Y, W'; split=> //; last by rewrite g g4 /= g2.
by rewrite -KK /krylov -iterSr.
Qed.

(** Even number of passes. *)
Lemma RS1_even gen (np : nat) stab (pps : int) m n k (A : 'M[R]_(m, n)) s s1
    (X0 : 'M[R]_(n, k)) :
  stab_spec stab -> 0 < pps -> ~~ odd np -> (0 < k)%N -> (k <= minn m n)%N ->
  draw gen n k s = (s1, inr (PyArr (ofmx X0))) ->
  exists s' (Y : 'M[R]_(n, k)) (W : 'M[R]_k),
    [/\ RS1 gen np%:Z stab pps (ofmx A) k s = (s', inr (PyArr (ofmx Y))),
        krylov A (np %/ 2) X0 = Y *m W & Base.gen s' = Base.gen s1].
Proof.
move=> st pps0 onp k0 kmn E; rewrite /RS1 bind_passertT /= onp.
rewrite (bindE _ E).
have pps1 : pps <> 0 by lia.
have [s' [Y [W [-> KE g]]]] := rs1_loopP A st pps1 k0 kmn (np %/ 2) 0 s1 (esym (mulmx1 X0)).
by exists s', Y, W.
Qed.

(** Odd number of passes. *)
Lemma RS1_odd gen (np : nat) stab (pps : int) m n k (A : 'M[R]_(m, n)) s s1
    (X0 : 'M[R]_(m, k)) :
  stab_spec stab -> 0 < pps -> odd np -> (0 < k)%N -> (k <= minn m n)%N ->
  draw gen m k s = (s1, inr (PyArr (ofmx X0))) ->
  exists s' (Y : 'M[R]_(n, k)) (W : 'M[R]_k),
    [/\ RS1 gen np%:Z stab pps (ofmx A) k s = (s', inr (PyArr (ofmx Y))),
        krylov A (np %/ 2) (A^T *m X0) = Y *m W & Base.gen s' = Base.gen s1].
Proof.
move=> st pps0 onp k0 kmn E; rewrite /RS1 bind_passertT /= onp /=.
rewrite (bindE _ E) (bindE _ (passAtE _ _ _)); set s2 := St _ _.
have kn : (k <= n)%N by move: kmn; rewrite leq_min => /andP[].
have pps1 : pps <> 0 by lia.
have [s3 [Y3 [U3 [E3 XE3 g3]]]] : exists s3 (Y : 'M[R]_(n, k)) (U : 'M[R]_k),
    [/\ (if pps == 1 then stabilize stab (ofmx (A^T *m X0)) else ret (ofmx (A^T *m X0))) s2
        = (s3, inr (ofmx Y)), A^T *m X0 = Y *m U & Base.gen s3 = Base.gen s2].
  case: ifP => _; last by exists s2, (A^T *m X0), 1%:M; rewrite mulmx1.
  have [Y [U [E' XE]]] := st _ _ (A^T *m X0) k0 kn.
  by eexists _, Y, U; rewrite /stabilize bind_emitE E'; split.
rewrite (bindE _ E3).
have [s' [Y [W [-> KE g]]]] := rs1_loopP A st pps1 k0 kmn (np.-1 %/ 2) 1 s3 XE3.
exists s', Y, W; split=> //; last by rewrite g g3.
by rewrite -KE; congr krylov; lia.
Qed.

(** Full rank of the un-stabilised iterate gives equality of ranges. *)
Lemma range_eq n k (K Y : 'M[R]_(n, k)) (W : 'M[R]_k) :
  K = Y *m W -> \rank K = k -> W \in unitmx /\ Y = K *m invmx W.
Proof.
move=> KE rK; have uW : W \in unitmx.
  apply/full_col_unit/inj_full_col => v Wv; apply: (full_col_inj rK).
  by rewrite KE -mulmxA Wv mulmx0.
by split=> //; rewrite KE mulmxK.
Qed.

End Range.
