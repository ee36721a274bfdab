(** Proofs about RF1 and QB1, and totality of the Gaussian power sketch. *)
From mathcomp Require Import all_ssreflect all_algebra.
From mathcomp Require Import zify.
From Verif Require Import Base Arr Lapack Exact MxLib LapackSpec Rng Aware RangeFinders QB.
From Verif Require Import P_RS1 P_QB2.
Set Implicit Arguments.
Unset Strict Implicit.
Unset Printing Implicit Defensive.
Import Order.TTheory GRing.Theory Num.Theory.

(** * Argument checks, for arbitrary scalars *)
Section Checks.
Context {T : Type} {O : ops T} {G : Type}.
Variable L : lapack T.
Implicit Types (s : st G T) (A : arr T).

Lemma RF1_bad rso A (k : int) tol s :
  ~~ ((0 < k)%R && (k <= (minn (nr A) (nc A))%:Z)%R) ->
  RF1 L rso A k tol s = (s, inl AssertionError).
Proof.
rewrite negb_and /RF1; case: (boolP (0 < k)%R) => k0 /=; last by rewrite bind_passertF.
by rewrite bind_passertT => /negbTE ->; rewrite bind_passertF.
Qed.

Lemma RF1_warn rso A (k : int) t s :
  (0 < k)%R -> (k <= (minn (nr A) (nc A))%:Z)%R ->
  RF1 L rso A k (Some t) s =
  RF1 L rso A k None (St (gen s) (rcons (evs s) (EvWarn W_rf_tol))).
Proof. by move=> k0 kmn; rewrite /RF1 k0 kmn. Qed.

Definition tol_bad (tol : option T) : bool :=
  if tol is Some t then ~~ ((o0 <= t)%O && (t < o1)%O) else false.

Lemma QB1_bad rf A (k : int) tol s :
  ~~ ((0 < k)%R && (k <= (minn (nr A) (nc A))%:Z)%R) || tol_bad tol ->
  QB1 rf A k tol s = (s, inl AssertionError).
Proof.
rewrite /QB1; case: (boolP (0 < k)%R) => k0 /=; last by rewrite bind_passertF.
rewrite bind_passertT; case: (boolP (k <= _)%R) => kmn /=; last by rewrite bind_passertF.
rewrite bind_passertT; case: tol => //= t; rewrite negb_and /bind.
by case: (o0 <= t)%O => //=; rewrite /passert => /negbTE ->.
Qed.

Lemma QB2_bad rf blk ow A (k : int) tol s : ~~ (0 < k)%R ->
  QB2 L rf blk ow A k tol s = (s, inl AssertionError).
Proof. by move=> k0; rewrite /QB2 (negbTE k0) bind_passertF. Qed.

Lemma QB2_clamp rf blk ow A (k : int) tol s :
  ((minn (nr A) (nc A))%:Z < k)%R -> (0 < minn (nr A) (nc A))%N ->
  QB2 L rf blk ow A k tol s =
  QB2 L rf blk ow A (minn (nr A) (nc A))%:Z tol
      (St (gen s) (rcons (evs s) (EvWarn W_qb2_rank))).
Proof.
move=> kmn mn0; rewrite /QB2 (_ : 0 < k)%R; last by lia.
rewrite (_ : 0 < (minn (nr A) (nc A))%:Z)%R; last by lia.
rewrite !bind_passertT (_ : (k <= _)%R = false); last by lia.
by rewrite lexx.
Qed.

Lemma QB3_bad sk_op blk A (k : int) tol s :
  ~~ ((0 < k)%R && (k < (minn (nr A) (nc A))%:Z)%R) ->
  QB3 L sk_op blk A k tol s = (s, inl AssertionError).
Proof.
rewrite negb_and /QB3; case: (boolP (0 < k)%R) => k0 /=; last by rewrite bind_passertF.
by rewrite bind_passertT => /negbTE ->; rewrite bind_passertF.
Qed.

End Checks.

(** * Exact arithmetic *)
Section RF.
Local Open Scope ring_scope.
Variables (R : rcfType) (G : Type) (L : lapack R).
Implicit Types (s : st G R).

Lemma wf_ofmx (a : arr R) m n : wf a -> nr a = m -> nc a = n ->
  exists X : 'M[R]_(m, n), a = ofmx X.
Proof. by move=> wfa <- <-; exists (tomx a); rewrite -mk_ofmx. Qed.

(** A row sketcher that always delivers a dense n-by-k matrix. *)
Definition rso_total (rso : rowsketcher (T:=R) (G:=G)) : Prop :=
  forall m n (A : 'M[R]_(m, n)) (k : nat) s, (0 < k)%N -> (k <= minn m n)%N ->
  exists s' (X : 'M[R]_(n, k)),
    rso (ofmx A) k s = (s', inr (PyArr (ofmx X))) /\
    exists2 l, evs s' = evs s ++ l & noRF l.

Lemma gaussianP (r : rng_ops G R) a b s : rng_ok r -> (0 < a)%N -> (0 < b)%N ->
  exists s' (X : 'M[R]_(a, b)),
    skopGA r a b s = (s', inr (PyArr (ofmx X))) /\ evs s' = evs s.
Proof.
move=> rok a0 b0; rewrite /skopGA /gaussian_operator.
rewrite ifN; last by rewrite -lt0n leq_min a0.
rewrite /bind /getgen.
set sc := osqrt _; have := ok_normal rok (gen s) sc a b.
case: (r_normal _ _ _ _ _) => g' Y /= [wfY [nrY ncY]].
have [X ->] := wf_ofmx wfY nrY ncY.
by exists (St g' (evs s)), X.
Qed.

Lemma skopGA_quiet (r : rng_ops G R) : quiet (skopGA r).
Proof.
move=> a b s s' X; rewrite /skopGA /gaussian_operator; case: ifP => _.
  by case=> <-.
by rewrite /bind /getgen; case: (r_normal _ _ _ _ _) => g' Y [<-].
Qed.

Lemma drawE (r : rng_ops G R) a b s : rng_ok r -> (0 < a)%N -> (0 < b)%N ->
  exists s' (X : 'M[R]_(a, b)),
    draw (skopGA r) a b s = (s', inr (PyArr (ofmx X))) /\
    evs s' = rcons (evs s) (EvDraw a b).
Proof.
move=> rok a0 b0; rewrite /draw bind_emitE.
by have [s' [X [-> ev]]] := gaussianP (St (gen s) (rcons (evs s) (EvDraw a b))) rok a0 b0; exists s', X.
Qed.

Lemma noRF_sched np p a : noRF (sched (T:=R) np p a).
Proof.
rewrite /sched; elim: (iota _ _) => //= i l IH.
by rewrite noRF_cat IH andbT; case: (dvdn p i).
Qed.

Lemma RS1_total (r : rng_ops G R) (np : int) stab (pps : int) :
  rng_ok r -> stab_spec stab -> 0 < pps -> 0 <= np ->
  rso_total (RS1 (skopGA r) np stab pps).
Proof.
move=> rok st pps0 np0 m n A k s k0 kmn.
have [q ->] : exists q : nat, np = q%:Z by exists (absz np); lia.
have [km kn] : (k <= m)%N /\ (k <= n)%N by move: kmn; rewrite leq_min => /andP.
enough (H : exists s' (Y : 'M[R]_(n, k)),
    RS1 (skopGA r) q%:Z stab pps (ofmx A) k s = (s', inr (PyArr (ofmx Y)))).
  case: H => s' [Y E]; exists s', Y; split=> //.
  have [_ ->] := RS1_sched (skopGA_quiet (r:=r)) pps0 E.
  by eexists; [reflexivity | rewrite /= noRF_sched].
case: (boolP (odd q)) => oq.
  have [s1 [X [E _]]] := drawE s rok (leq_trans k0 km) k0.
  have [s' [Y [W [E' _ _]]]] := RS1_odd A st pps0 oq k0 kmn E; exists s', Y; exact: E'.
have [s1 [X [E _]]] := drawE s rok (leq_trans k0 kn) k0.
have [s' [Y [W [E' _ _]]]] := RS1_even A st pps0 oq k0 kmn E; exists s', Y; exact: E'.
Qed.

Hypothesis qrL : qr_spec L.

(** RF1, in terms of the sketch it obtained. *)
Lemma RF1P rso m n (A : 'M[R]_(m, n)) k s s1 (X : 'M[R]_(n, k)) :
  (0 < k)%N -> (k <= minn m n)%N ->
  rso (ofmx A) k s = (s1, inr (PyArr (ofmx X))) ->
  exists (Q : 'M[R]_(m, k)) (U : 'M[R]_k),
    [/\ RF1 L rso (ofmx A) k%:Z None s =
        (St (gen s1) (rcons (evs s1) (EvPass false)), inr (ofmx Q)),
        orthonormal Q & A *m X = Q *m U].
Proof.
move=> k0 kmn E.
have km : (k <= m)%N by move: kmn; rewrite leq_min => /andP[].
rewrite /RF1 (_ : (0 < k%:Z)%R) ?bind_passertT; last by lia.
rewrite (_ : (k%:Z <= _)%R) ?bind_passertT; last by rewrite /=; lia.
rewrite (bindE _ E) (bindE _ (passAE _ _ _)).
have [Q [U [EQ oQ _ XE]]] := qr_tall (A *m X) qrL k0 km.
by exists Q, U; rewrite EQ bind_liftE.
Qed.

Lemma RF1_shape rso : rso_total rso -> rf_shape (RF1 L rso).
Proof.
move=> rsoP m n A b s b0 bmn.
have [s1 [X [E [l evl nl]]]] := rsoP _ _ A b s b0 bmn.
have [Q [U [E' _ _]]] := RF1P b0 bmn E.
exists (St (gen s1) (rcons (evs s1) (EvPass false))), Q; split=> //=.
by exists (rcons l (EvPass false)); [rewrite evl rcons_cat | rewrite -cats1 noRF_cat nl].
Qed.

Lemma QB1P rf m n (A : 'M[R]_(m, n)) (k : nat) tol s s1 c (Q : 'M[R]_(m, c)) :
  (0 < k)%N -> (k <= minn m n)%N -> ~~ tol_bad tol ->
  rf (ofmx A) k%:Z tol s = (s1, inr (ofmx Q)) ->
  QB1 rf (ofmx A) k%:Z tol s =
  (St (gen s1) (rcons (evs s1) (EvPass true)), inr (ofmx Q, ofmx (Q^T *m A))).
Proof.
move=> k0 kmn tb E.
rewrite /QB1 (_ : (0 < k%:Z)%R) ?bind_passertT; last by lia.
rewrite (_ : (k%:Z <= _)%R) ?bind_passertT; last by rewrite /=; lia.
have -> : forall f : unit -> M G R (arr R * arr R),
    bind (if tol is Some t then passert (o0 <= t)%O >>> passert (t < o1)%O else ret tt) f s
    = f tt s.
  by case: tol tb {E} => //= t; rewrite negbK => /andP[h1 h2] f; rewrite h1 h2.
by rewrite (bindE _ E) (bindE _ (passQtAE _ _ _)).
Qed.

(** QB2: everything at once. *)
Lemma QB2P (rf : rangefinder) (blk : int) ow m n (A : 'M[R]_(m, n)) (k : int) tol s :
  rf_shape rf -> (0 < m)%N -> (0 < n)%N -> 0 < k -> 0 < blk ->
  exists s' l c (Q : 'M[R]_(m, c)) (B : 'M[R]_(c, n)) (F : 'M[R]_(m, c)),
    [/\ QB2 L rf blk ow (ofmx A) k tol s =
          (s', inr (ofmx Q, ofmx B, ofmx (if ow then A - Q *m B else A))),
        (0 < c <= minn (absz k) (minn m n))%N,
        (c < minn (absz k) (minn m n))%N ->
          exists t, [/\ tol = Some t, 0 < t & fro (A - Q *m B) <= t * fro A],
        fro2 (A - Q *m B) = fro2 A - fro2 B &
        [/\ evs s' = evs s ++ l, rf_outputs l F &
            \rank F = c ->
            [/\ orthonormal Q, B = Q^T *m A & exists Y, Q = F *m Y]]].
Proof.
move=> rfP m0 n0 k0 blk0; rewrite /QB2 k0 bind_passertT.
have -> : minn (nr (ofmx A)) (nc (ofmx A)) = minn m n by [].
set kk := minn (absz k) (minn m n).
have kk0 : (0 < kk)%N by rewrite /kk; lia.
have kkmn : (kk <= minn m n)%N by rewrite geq_minr.
have [s0 [l0 [E0 ev0 nl0]]] : exists (s0 : st G R) (l0 : seq (event R)),
    [/\ (if k <= (minn m n)%:Z then ret (absz k)
         else emit (EvWarn W_qb2_rank) >>> ret (minn m n)) s = (s0, inr kk),
        evs s0 = evs s ++ l0 & noRF l0].
  case: ifP => le; last first.
    exists (St (gen s) (rcons (evs s) (EvWarn W_qb2_rank))), [:: EvWarn W_qb2_rank]; rewrite bind_emitE; split; [|by rewrite /= cats1|by []].
    by rewrite /ret; congr (_, inr _); rewrite /kk; lia.
  exists s, [::]; rewrite cats0; split=> //; rewrite /ret; congr (_, inr _).
  by rewrite /kk; lia.
rewrite (bindE _ E0) kkmn bind_passertT.
rewrite !mzerosE -[X in qb2_loop _ _ _ _ _ _ _ _ X](_ : ofmx (A - (0 : 'M_(m, 0)) *m (0 : 'M_(0, n))) = _);
  last by rewrite mul0mx subr0.
have sq0 : use_tol tol -> sqnorm0 (ofmx A) = fro2 (A - (0 : 'M_(m, 0)) *m (0 : 'M_(0, n))).
  by rewrite /sqnorm0 mnormE mul0mx subr0 => _; rewrite /osq /= -expr2 sqr_fro.
have fr0 : fro2 (A - (0 : 'M_(m, 0)) *m (0 : 'M_(0, n))) = fro2 A - fro2 (0 : 'M[R]_(0, n)).
  by rewrite mul0mx fro20 !subr0.
have good0 : \rank (0 : 'M[R]_(m, 0)) = 0%N ->
    qb2_good A (0 : 'M_(m, 0)) (0 : 'M_(0, n)) (0 : 'M_(m, 0)).
  move=> _; split; first exact: orthonormal0.
    by apply/matrixP; case.
  by exists 0; rewrite mulmx0.
have fk : (kk - 0 <= kk.+1)%N by rewrite subn0.
have [s' [l [c [Q [B [F [E /andP[c0 ck] lt fr [evl ext good]]]]]]]] :=
  @qb2_loopP R G L qrL rf kk (use_tol tol) (abs_sq_tol (ofmx A) tol) m n A rfP kkmn
    kk.+1 0%N 0 0 0 blk _ s0 kk0 fk blk0 sq0 fr0 good0.
exists s', (l0 ++ l), c, Q, B, F; split=> //.
- rewrite (bindE _ E) /=; congr (_, inr _).
  by case: (ow).
- by rewrite c0.
- move=> clt; have [ut le] := lt clt; case: tol ut le {E lt sq0} => //= t t0 le.
  exists t; split=> //; rewrite -(@ler_pexpn2r _ 2) ?nnegrE ?mulr_ge0 ?fro_ge0 ?(ltW t0) //.
  rewrite exprMn !sqr_fro mulrC; apply: le_trans le _.
  by rewrite /sqnorm0 mnormE /osq /= -!expr2 sqr_fro.
split=> //; first by rewrite evl ev0 catA.
exact: rf_ext_pre.
Qed.

End RF.
