(** QB stack: pass counts (any scalars), block-size independence, and the
    failure of orthonormality of QB2 on rank-deficient input. *)
From mathcomp Require Import all_ssreflect all_algebra.
From mathcomp Require Import zify.
From Verif Require Import Base Arr Lapack Exact MxLib LapackSpec Rng Aware RangeFinders QB.
From Verif Require Import P_RS1 P_QB2 P_RF P_QB3.
Set Implicit Arguments.
Unset Strict Implicit.
Unset Printing Implicit Defensive.
Import Order.TTheory GRing.Theory Num.Theory.

(** * Pass counts, for arbitrary scalars *)
Section Passes.
Context {T : Type} {O : ops T} {G : Type}.
Variables (L : lapack T) (r : rng_ops G T).
Implicit Types (s : st G T) (A : arr T).

Lemma skopGA_quiet' : quiet (skopGA r).
Proof.
move=> a b s s' X; rewrite /skopGA /gaussian_operator; case: ifP => _.
  by case=> <-.
by rewrite /bind /getgen; case: (r_normal _ _ _ _ _) => g' Y [<-].
Qed.

Lemma with_rng_inv X (a : rngarg) (c : M G T X) s s' x :
  with_rng r a c s = (s', x) ->
  exists s0 s1, [/\ c s0 = (s1, x), evs s0 = evs s & evs s' = evs s1].
Proof.
case: a => [|z|v] /=; first by move=> E; exists s, s'.
  case E: (c _) => [s1 y] [<- <-].
  by exists (St (r_seed r z) (evs s)), s1.
case E: (c _) => [s1 y] [<- <-].
by exists (St (r_seeds r v) (evs s)), s1.
Qed.

(** Number of rangefinder calls (blocks) recorded in a log. *)
Definition blocks (l : seq (event T)) : nat :=
  count (fun e => if e is EvRF _ then true else false) l.

Lemma blocks_cat l1 l2 : blocks (l1 ++ l2) = (blocks l1 + blocks l2)%N.
Proof. exact: count_cat. Qed.

Lemma blocks_sched np p a : blocks (sched np p a) = 0%N.
Proof.
rewrite /sched; elim: (iota _ _) => //= i l IH; rewrite blocks_cat IH.
by case: (dvdn p i).
Qed.

Lemma RF1_passes stab (np pps : int) A k tol s s' Q : (0 < pps)%R ->
  RF1 L (RS1 (skopGA r) np stab pps) A k tol s = (s', inr Q) ->
  exists2 l, evs s' = evs s ++ l & passes l = (absz np).+1 /\ blocks l = 0%N.
Proof.
move=> pps0; rewrite /RF1.
case: (0 < k)%R; last by rewrite bind_passertF.
rewrite bind_passertT; case: (k <= _)%R; last by rewrite bind_passertF.
rewrite bind_passertT => H.
case: (bind_inv H) => s1 [[] [H1 {}H]]; case: (bind_inv H) => s2 [S2 [H2 {}H]].
case: (bind_inv H) => s3 [S3 [H3 {}H]]; case: (bind_inv H) => s4 [S4 [H4 {}H]].
have [l1 e1 [p1 b1]] : exists2 l, evs s1 = evs s ++ l & passes l = 0%N /\ blocks l = 0%N.
  case: (tol) H1 => [t|] [<-]; last by exists [::]; rewrite ?cats0.
  by exists [:: EvWarn W_rf_tol]; rewrite //= cats1.
have [np0 e2] := RS1_sched skopGA_quiet' pps0 H2.
case: (passA_inv H3) => e3 _.
have e4 : evs s' = evs s3 by case: H => <- _; move: H4; rewrite /lift => -[<- _].
eexists; first by rewrite e4 e3 e2 e1 -cats1 -!catA.
have e c : EvDraw c (absz k) :: sched (absz np) (absz pps) 0 ++ [:: EvPass false] =
    [:: EvDraw c (absz k)] ++ (sched (absz np) (absz pps) 0 ++ [:: EvPass false]) :> seq (event T).
  by [].
rewrite ?cat_cons e !passes_cat !blocks_cat passes_sched // blocks_sched.
by rewrite p1 b1 subn0 /=; split; lia.
Qed.

Lemma rf1_passes A k (np : int) a s s' Q :
  rf1 L r A k np a s = (s', inr Q) -> (1 <= np)%R /\
  exists2 l, evs s' = evs s ++ l & passes l = absz np.
Proof.
move/with_rng_inv => [s0 [s1 [E e0 e1]]].
have np1 : (1 <= np)%R.
  move: E; rewrite /RF1; case: (0 < k)%R; last by rewrite bind_passertF.
  rewrite bind_passertT; case: (k <= _)%R; last by rewrite bind_passertF.
  rewrite bind_passertT => H; case: (bind_inv H) => s2 [x [_ {}H]].
  case: (bind_inv H) => s3 [S3 [H3 _]].
  by have [] := RS1_sched skopGA_quiet' (ltr01 : 0 < 1 :> int)%R H3; lia.
split=> //; have [l el [pl _]] := RF1_passes (ltr01 : 0 < 1 :> int)%R E.
by exists l; rewrite ?e1 ?el ?e0 // pl; lia.
Qed.

Lemma passQtA_inv Q A s s' B : passQtA Q A s = (s', inr B) ->
  evs s' = rcons (evs s) (EvPass true).
Proof. by rewrite /passQtA bind_emitE /lift => -[<- _]. Qed.

Lemma QB1_inv rf A (k : int) tol s s' QB :
  QB1 rf A k tol s = (s', inr QB) ->
  exists s1 Q, rf A k tol s = (s1, inr Q) /\ evs s' = rcons (evs s1) (EvPass true).
Proof.
rewrite /QB1; case: (0 < k)%R; last by rewrite bind_passertF.
rewrite bind_passertT; case: (k <= _)%R; last by rewrite bind_passertF.
rewrite bind_passertT => H; case: (bind_inv H) => s1 [[] [H1 {}H]].
have -> : s = s1.
  case: (tol) H1 => [t|] [] //; rewrite /bind /passert.
  by case: (o0 <= t)%O => //; case: (t < o1)%O => // -[].
case: (bind_inv H) => s2 [Q [H2 {}H]]; case: (bind_inv H) => s3 [B [H3 {}H]].
by exists s2, Q; split=> //; case: H => <- _; rewrite (passQtA_inv H3).
Qed.

Lemma qb_passes (np : int) A k a s s' QB :
  qb L r np A k a s = (s', inr QB) -> (2 <= np)%R /\
  exists2 l, evs s' = evs s ++ l & passes l = absz np.
Proof.
move/with_rng_inv => [s0 [s1 [E e0 e1]]].
have [s2 [Q [E2 e2]]] := QB1_inv E.
have np2 : (2 <= np)%R.
  move: E2; rewrite /RF1; case: (0 < k)%R; last by rewrite bind_passertF.
  rewrite bind_passertT; case: (k <= _)%R; last by rewrite bind_passertF.
  rewrite bind_passertT => H; case: (bind_inv H) => s3 [x [_ {}H]].
  case: (bind_inv H) => s4 [S3 [H3 _]].
  by have [] := RS1_sched skopGA_quiet' (ltr01 : 0 < 1 :> int)%R H3; lia.
split=> //; have [l el [pl _]] := RF1_passes (ltr01 : 0 < 1 :> int)%R E2.
exists (rcons l (EvPass true)); first by rewrite e1 e2 el e0 rcons_cat.
by rewrite -cats1 passes_cat pl /=; lia.
Qed.

(** Each block of QB2 costs the passes of the rangefinder plus one. *)
Lemma qb2_loop_passes rf (p : nat) k utol abs : 
  (forall A k tol s s' Q, rf A k tol s = (s', inr Q) ->
     exists2 l, evs s' = evs s ++ l & passes l = p /\ blocks l = 0%N) ->
  forall fuel blk sqn A Q B s s' X,
  qb2_loop L fuel rf k utol abs blk sqn A Q B s = (s', inr X) ->
  exists2 l, evs s' = evs s ++ l & passes l = (p.+1 * blocks l)%N /\ (0 < blocks l)%N.
Proof.
move=> rfP; elim=> [//|fuel IH] blk sqn A Q B s s' X /= H.
case: (bind_inv H) => s1 [Qi [H1 {}H]]; case: (bind_inv H) => s2 [[] [H2 {}H]].
case: (bind_inv H) => s3 [x3 [H3 {}H]]; case: (bind_inv H) => s4 [x4 [H4 {}H]].
case: (bind_inv H) => s5 [x5 [H5 {}H]]; case: (bind_inv H) => s6 [x6 [H6 {}H]].
case: (bind_inv H) => s7 [x7 [H7 {}H]]; case: (bind_inv H) => s8 [x8 [H8 {}H]].
case: (bind_inv H) => s9 [x9 [H9 {}H]].
have [l el [pl bl]] := rfP _ _ _ _ _ _ H1.
have e9 : evs s9 = evs s ++ (l ++ [:: EvRF Qi; EvPass true]).
  have -> : evs s9 = evs s5.
    by case: H9 => <- _; case: H8 => <- _; case: H7 => <- _; case: H6 => <- _.
  rewrite (passQtA_inv H5); case: H4 => <- _; case: H3 => <- _.
  by case: H2 => <- /=; rewrite el -!cats1 -!catA.
have pb : passes (l ++ [:: EvRF Qi; EvPass true]) = p.+1 /\
          blocks (l ++ [:: EvRF Qi; EvPass true]) = 1%N.
  by rewrite passes_cat blocks_cat pl bl /= addn1.
move: H; case: ifP => _; last case: ifP => _.
- by case=> <- _; eexists; [exact: e9 | case: pb => -> ->; rewrite muln1].
- by case=> <- _; eexists; [exact: e9 | case: pb => -> ->; rewrite muln1].
move/IH => [l' el' [pl' bl']]; eexists; first by rewrite el' e9 -catA.
rewrite passes_cat blocks_cat; case: pb => -> ->; rewrite pl'.
by rewrite mulnDr muln1.
Qed.

Lemma qb_b_passes (np blk : int) ow A k tol a s s' X :
  qb_b L r np blk ow A k tol a s = (s', inr X) ->
  exists2 l, evs s' = evs s ++ l & (2 <= np)%R /\
    [/\ passes l = (absz np * blocks l)%N & (0 < blocks l)%N].
Proof.
move/with_rng_inv => [s0 [s1 [E e0 e1]]].
move: E; rewrite /QB2; case: (0 < k)%R; last by rewrite bind_passertF.
rewrite bind_passertT => H; case: (bind_inv H) => s2 [k' [H2 {}H]].
case: (bind_inv H) => s3 [[] [H3 {}H]]; case: (bind_inv H) => s4 [QBA [H4 {}H]].
have rfP : forall A k tol s s' Q,
   RF1 L (RS1 (skopGA r) (np - 2)%R (orth L) 1%R) A k tol s = (s', inr Q) ->
     exists2 l, evs s' = evs s ++ l & passes l = (absz (np - 2)%R).+1 /\ blocks l = 0%N.
  by move=> *; apply: RF1_passes; last by eauto.
have [l el [pl bl]] := qb2_loop_passes rfP H4.
have np2 : (2 <= np)%R.
  move: H4 => /= H4; case: (bind_inv H4) => s5 [Qi [H5 _]].
  move: H5; rewrite /RF1; case: (0 < _)%R; last by rewrite bind_passertF.
  rewrite bind_passertT; case: (_ <= _)%R; last by rewrite bind_passertF.
  rewrite bind_passertT => H5; case: (bind_inv H5) => s6 [x [_ {}H5]].
  case: (bind_inv H5) => s7 [S3 [H7 _]].
  by have [] := RS1_sched skopGA_quiet' (ltr01 : 0 < 1 :> int)%R H7; lia.
have [l2 el2 [pl2 bl2]] : exists2 l, evs s2 = evs s0 ++ l & passes l = 0%N /\ blocks l = 0%N.
  move: H2; case: ifP => _; first by case=> <- _; exists [::]; rewrite ?cats0.
  by rewrite bind_emitE => -[<- _]; exists [:: EvWarn W_qb2_rank]; rewrite //= cats1.
have e3 : evs s3 = evs s2 by move: H3; rewrite /passert; case: ifP => _ // -[<-].
exists (l2 ++ l).
  by rewrite e1; case: H => <- _; rewrite el e3 el2 e0 catA.
split=> //; rewrite !passes_cat !blocks_cat pl2 bl2 pl !add0n; split=> //.
by congr (_ * _)%N; lia.
Qed.

Lemma qb3_loop_evs k blk utol abs Sk Gm H : forall todo i sqn Q B s s' X,
  qb3_loop L todo i k blk utol abs Sk Gm H sqn Q B s = (s', inr X) -> s' = s.
Proof.
have liftS X (c : res X) s s' x : lift c s = (s', inr x) -> s' = s by case.
elim=> [|todo IH] i sqn Q B s s' X /=; first by case.
move=> E.
do 15! (let s1 := fresh "s1" in let x1 := fresh "x" in let H1 := fresh "H1" in
  destruct (bind_inv E) as [s1 [x1 [H1 E1]]]; apply liftS in H1; subst s1; clear E; rename E1 into E).
by move: E; case: ifP => _; [case | exact: IH].
Qed.

Lemma qb_b_pe_passes (np blk : int) A k tol a s s' X :
  qb_b_pe L r np blk A k tol a s = (s', inr X) -> (1 <= np)%R /\
  exists2 l, evs s' = evs s ++ l & passes l = (absz np).+1.
Proof.
move/with_rng_inv => [s0 [s1 [E e0 e1]]].
move: E; rewrite /QB3; case: (0 < k)%R; last by rewrite bind_passertF.
rewrite bind_passertT; case: (k < _)%R; last by rewrite bind_passertF.
rewrite bind_passertT => H; case: (bind_inv H) => s2 [Sk [H2 {}H]].
have [np0 e2] := RS1_sched skopGA_quiet' (ltr01 : 0 < 1 :> int)%R H2.
split; first by lia.
case: Sk H2 H => [|Sk|Sk|Sk] H2 H //.
case: (bind_inv H) => s3 [x3 [H3 {}H]]; case: (bind_inv H) => s4 [x4 [H4 {}H]].
case: (passA_inv H3) => e3 _; case: (passAt_inv H4) => e4 _.
have e5 : s1 = s4.
  move: H; case: ifP => _ //; case: ifP => _; first by case.
  exact: qb3_loop_evs.
eexists; first by rewrite e1 e5 e4 e3 e2 e0 -!cats1 -!catA.
by rewrite /= !passes_cat passes_sched //= subn0; lia.
Qed.

End Passes.

Section Exact.
Local Open Scope ring_scope.
Variables (R : rcfType) (G : Type) (L : lapack R).
Implicit Types (s : st G R).
Hypothesis qrL : qr_spec L.

(** The orthogonal projector on the column space of a full-column-rank [Y]. *)
Definition projector m k (Y : 'M[R]_(m, k)) : 'M[R]_m :=
  Y *m invmx (Y^T *m Y) *m Y^T.

Lemma projectorE m k (Q Y : 'M[R]_(m, k)) (U : 'M[R]_k) :
  orthonormal Q -> U \in unitmx -> Y = Q *m U -> projector Y = Q *m Q^T.
Proof.
move=> oQ uU ->; rewrite /projector trmx_mul !mulmxA -(mulmxA U^T) oQ mulmx1.
have uU' : U^T \in unitmx by rewrite unitmx_tr.
have -> : invmx (U^T *m U) = invmx U *m invmx U^T.
  apply: (can_inj (mulKmx uU)); apply: (can_inj (mulKmx uU')).
  rewrite mulKVmx // mulmxV // [U^T *m (U *m _)]mulmxA mulmxV //.
  by rewrite unitmx_mul uU uU'.
by rewrite -!mulmxA mulKVmx // mulKmx.
Qed.

Lemma QB3_full (sk_op : rowsketcher) (blk : int) m n (A : 'M[R]_(m, n)) (k : nat) tol s s1
    (S : 'M[R]_(n, k)) :
  (0 < k)%N -> (k < minn m n)%N -> 0 < blk -> ~~ use_tol tol ->
  sk_op (ofmx A) k s = (s1, inr (PyArr (ofmx S))) -> \rank (A *m S) = k ->
  exists (Q : 'M[R]_(m, k)) (B : 'M[R]_(k, n)),
    [/\ (QB3 L sk_op blk (ofmx A) k%:Z tol s).2 = Ok (ofmx Q, ofmx B),
        orthonormal Q, B = Q^T *m A & Q *m B = projector (A *m S) *m A].
Proof.
move=> k0 kmn b0 nt E rk.
have [[c [Q [B [EQ [oQ BE [U uU UE]] /andP[c0 ck] st _]]]]|[_ [c' ck]]] :=
  QB3P qrL tol k0 kmn b0 E; last by rewrite colblk_rank // ltnn.
have cE : c = k.
  apply/eqP; rewrite eqn_leq ck leqNgt; apply/negP => /st[t [tE t0 _ _]].
  by move: nt; rewrite tE /use_tol /olt /= t0.
subst c; exists Q, B; rewrite EQ; split=> //.
by rewrite colblk_full in UE; rewrite (projectorE oQ uU UE) BE mulmxA.
Qed.

Lemma QB3_deficient (sk_op : rowsketcher) (blk : int) m n (A : 'M[R]_(m, n)) (k : nat) tol s s1
    (S : 'M[R]_(n, k)) :
  (0 < k)%N -> (k < minn m n)%N -> 0 < blk -> ~~ use_tol tol ->
  sk_op (ofmx A) k s = (s1, inr (PyArr (ofmx S))) -> (\rank (A *m S) < k)%N ->
  (QB3 L sk_op blk (ofmx A) k%:Z tol s).2 = Err LinAlgError.
Proof.
move=> k0 kmn b0 nt E rk.
have [[c [Q [B [EQ [oQ BE [U uU UE]] /andP[c0 ck] st _]]]]|[-> //]] :=
  QB3P qrL tol k0 kmn b0 E.
have cE : c = k.
  apply/eqP; rewrite eqn_leq ck leqNgt; apply/negP => /st[t [tE t0 _ _]].
  by move: nt; rewrite tE /use_tol /olt /= t0.
subst c; move: rk; rewrite colblk_full in UE.
by rewrite UE; have := (rank_unit_mul U oQ).2 uU => ->; rewrite ltnn.
Qed.

Lemma QB1_full (rso : rowsketcher) m n (A : 'M[R]_(m, n)) (k : nat) s s1 (S : 'M[R]_(n, k)) :
  (0 < k)%N -> (k <= minn m n)%N ->
  rso (ofmx A) k s = (s1, inr (PyArr (ofmx S))) ->
  exists (Q : 'M[R]_(m, k)) (U : 'M[R]_k),
    [/\ QB1 (RF1 L rso) (ofmx A) k%:Z None s =
        (St (gen s1) (evs s1 ++ [:: EvPass false; EvPass true]), inr (ofmx Q, ofmx (Q^T *m A))),
        orthonormal Q, A *m S = Q *m U &
        \rank (A *m S) = k -> U \in unitmx /\ Q *m (Q^T *m A) = projector (A *m S) *m A].
Proof.
move=> k0 kmn E; have [Q [U [E1 oQ QU]]] := RF1P qrL k0 kmn E.
exists Q, U; split=> //.
  by rewrite (@QB1P _ _ _ _ _ A k None s _ _ Q k0 kmn _ E1) //= -!cats1 -catA.
rewrite QU => /(rank_unit_mul U oQ) uU; split=> //.
by rewrite (projectorE oQ uU erefl) mulmxA.
Qed.

(** ** QB2 on rank-deficient input *)
Definition rank1 (q : 'cV[R]_2) : 'M[R]_2 := q *m q^T.

Lemma unit_cv_dot (q q' : 'cV[R]_2) (c : 'M[R]_1) :
  orthonormal q -> orthonormal q' -> q = q' *m c -> q' *m q'^T = q *m q^T.
Proof.
move=> oq oq' E; symmetry; apply: (@proj_eq _ _ _ q q' 1%:M c) => //; rewrite ?unitmx1 //.
by rewrite mulmx1.
Qed.

(** The QR factor of the zero column. *)
Lemma qr_zero : exists2 q0 : 'cV[R]_2, orthonormal q0 &
  exists U : 'M[R]_1, l_qr L (ofmx (0 : 'cV[R]_2)) = Ok (ofmx q0, ofmx U).
Proof.
have [q0 [U [E o _ _]]] := qr_tall (0 : 'cV[R]_2) qrL (isT : 0 < 1)%N (isT : 1 <= 2)%N.
by exists q0 => //; exists U.
Qed.

Lemma qr_line (q0 : 'cV[R]_2) (U0 c : 'M[R]_1) : orthonormal q0 ->
  l_qr L (ofmx (0 : 'cV[R]_2)) = Ok (ofmx q0, ofmx U0) ->
  exists (q : 'cV[R]_2) (U : 'M[R]_1),
    [/\ l_qr L (ofmx (q0 *m c)) = Ok (ofmx q, ofmx U), orthonormal q &
        q *m q^T = q0 *m q0^T].
Proof.
move=> o0 E0; case: (eqVneq c 0) => [->|c0].
  by rewrite mulmx0; exists q0, U0.
have [q [U [E o _ QU]]] := qr_tall (q0 *m c) qrL (isT : 0 < 1)%N (isT : 1 <= 2)%N.
exists q, U; split=> //.
have uc : c \in unitmx by rewrite unitmxE det_mx11 unitfE; apply: contra c0 => /eqP c0;
  apply/eqP/matrixP => i j; rewrite !ord1 mxE.
by apply: (@unit_cv_dot q0 q (U *m invmx c)) => //; rewrite mulmxA -QU mulmxK.
Qed.

(** One iteration of QB2 without tolerance. *)
Lemma qb2_stepE (rf : rangefinder) fuel (k : nat) abs m n b c (A : 'M[R]_(m, n))
    (Q : 'M[R]_(m, c)) (B : 'M[R]_(c, n)) sqn s s1 (Fi Qi : 'M[R]_(m, b)) (U : arr R) :
  (c + b <= k)%N ->
  rf (ofmx A) b%:Z None s = (s1, inr (ofmx Fi)) ->
  l_qr L (ofmx (Fi - Q *m (Q^T *m Fi))) = Ok (ofmx Qi, U) ->
  exists s2, qb2_loop L fuel.+1 rf k false abs b%:Z sqn (ofmx A) (ofmx Q) (ofmx B) s =
  (if (k <= c + b)%N
   then ret (ofmx (row_mx Q Qi), ofmx (col_mx B (Qi^T *m A)), ofmx (A - Qi *m (Qi^T *m A)))
   else qb2_loop L fuel rf k false abs b%:Z sqn (ofmx (A - Qi *m (Qi^T *m A)))
          (ofmx (row_mx Q Qi)) (ofmx (col_mx B (Qi^T *m A)))) s2.
Proof.
move=> cbk E1 E2; eexists.
rewrite /= (_ : (k%:Z < _)%R = false); last by lia.
rewrite (bindE _ E1) bind_emitE project_outE bind_liftE E2 bind_liftE /=.
rewrite (bindE _ (passQtAE _ _ _)) hstackE bind_liftE vstackE bind_liftE.
by rewrite mmulE bind_liftE msubE bind_liftE /=.
Qed.

Lemma QB2_loses_orthonormality (rso : rowsketcher) ow s :
  rso_total rso ->
  exists (q0 : 'cV[R]_2) (Q B : 'M[R]_2),
    [/\ orthonormal q0,
        (exists U, l_qr L (ofmx (0 : 'cV[R]_2)) = Ok (ofmx q0, U)),
        (exists s' A', QB2 L (RF1 L rso) 1 ow (ofmx (q0 *m q0^T)) 2 None s
          = (s', inr (ofmx Q, ofmx B, A'))) &
        ~ orthonormal Q].
Proof.
move=> rsoP; have [q0 o0 [U0 E0]] := qr_zero.
set A := q0 *m q0^T.
have RF0 (X : 'M[R]_2) s1 : (X = A \/ X = 0) -> exists s2 (q : 'cV[R]_2),
    [/\ RF1 L rso (ofmx X) 1 None s1 = (s2, inr (ofmx q)), orthonormal q,
        q *m q^T = A & X = 0 -> q = q0].
  move=> XA; have [s2 [Y [EY _]]] := rsoP _ _ X 1%N s1 isT isT.
  have [q [U [Eq oq qq X0]]] : exists (q : 'cV[R]_2) (U : 'M[R]_1),
      [/\ l_qr L (ofmx (X *m Y)) = Ok (ofmx q, ofmx U), orthonormal q,
          q *m q^T = A & X = 0 -> q = q0].
    case: XA => ->; last by rewrite mul0mx; exists q0, U0.
    have [q [U [Eq oq qq]]] := qr_line (q0^T *m Y) o0 E0.
    exists q, U; rewrite -mulmxA; split=> // A0.
    have := congr1 (mulmx q0^T) A0; rewrite mulmx0 mulmxA o0 mul1mx => /(congr1 trmx).
    rewrite trmxK trmx0 => z; move: o0; rewrite /orthonormal z mulmx0 => /matrixP/(_ 0 0).
    by rewrite !mxE => /esym/eqP; rewrite oner_eq0.
  eexists _, q; split; [|exact: oq|exact: qq|exact: X0].
  by rewrite /RF1 !bind_passertT (bindE _ EY) (bindE _ (passAE _ _ _)) Eq.
have [s2 [q1 [ER1 oq1 qq1 _]]] := RF0 A s (or_introl erefl).
have [q1' [U1 [E1' oq1' qq1']]] : exists (q : 'cV[R]_2) (U : 'M[R]_1),
    [/\ l_qr L (ofmx (q1 - (0 : 'M_(2, 0)) *m ((0 : 'M_(2, 0))^T *m q1))) = Ok (ofmx q, ofmx U),
        orthonormal q & q *m q^T = A].
  rewrite mul0mx subr0.
  have [q [U [E o _ QU]]] := qr_tall q1 qrL (isT : 0 < 1)%N (isT : 1 <= 2)%N.
  exists q, U; split=> //; rewrite (@unit_cv_dot q1 q U) //.
have AqE : A - q1' *m (q1'^T *m A) = 0.
  by rewrite mulmxA qq1' /A mulmxA -(mulmxA q0) o0 mulmx1 subrr.
have [s3 L1] := @qb2_stepE (RF1 L rso) 2 2 (abs_sq_tol (ofmx A) None) 2 2 1 0 A 0 0
  (sqnorm0 (ofmx A)) s s2 q1 q1' (ofmx U1) isT ER1 E1'.
have [s4 [q2 [ER2 _ _ q2E]]] := RF0 0 s3 (or_intror erefl).
have {q2E} q2E : q2 = q0 by apply: q2E.
rewrite -AqE q2E in ER2.
set Q1 := row_mx (0 : 'M[R]_(2, 0)) q1'.
have E2 : l_qr L (ofmx (q0 - Q1 *m (Q1^T *m q0))) = Ok (ofmx q0, ofmx U0).
  rewrite -E0; congr (l_qr L (ofmx _)).
  rewrite /Q1 tr_row_mx mul_col_mx mul_row_col mul0mx add0r mulmxA qq1' /A.
  by rewrite -mulmxA o0 mulmx1 subrr.
have [s5 L2] := @qb2_stepE (RF1 L rso) 1 2 (abs_sq_tol (ofmx A) None) 2 2 1 (0 + 1) _ Q1
  (col_mx (0 : 'M_(0, 2)) (q1'^T *m A)) (sqnorm0 (ofmx A)) s3 s4 q0 q0 (ofmx U0) isT ER2 E2.
exists q0, (row_mx Q1 q0), (col_mx (col_mx (0 : 'M_(0, 2)) (q1'^T *m A)) (q0^T *m (A - q1' *m (q1'^T *m A)))).
split=> //; first by exists (ofmx U0).
  eexists _, _; rewrite /QB2 bind_passertT bind_retE bind_passertT !mzerosE.
  by rewrite (bindE _ (etrans L1 L2 : _ = (s5, inr (_, _, _)))).
move=> /(@orthonormal_row_mxP _ 2 (0 + 1) 1 Q1 q0)[_ _].
rewrite /Q1 tr_row_mx mul_col_mx => /eqP; rewrite col_mx_eq0 => /andP[_ /eqP z].
have : q0 = 0 by rewrite -[q0]mulmx1 -o0 mulmxA -/A -qq1' -mulmxA z mulmx0.
move=> z0; move: o0; rewrite /orthonormal z0 mulmx0 => /matrixP/(_ 0 0).
by rewrite !mxE => /esym/eqP; rewrite oner_eq0.
Qed.

End Exact.
