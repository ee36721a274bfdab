(** Proofs about QB2 (blocked QB with full tolerance control). *)
From mathcomp Require Import all_ssreflect all_algebra.
From mathcomp Require Import zify.
From Verif Require Import Base Arr Lapack Exact MxLib LapackSpec Rng Aware RangeFinders QB.
Set Implicit Arguments.
Unset Strict Implicit.
Unset Printing Implicit Defensive.
Import Order.TTheory GRing.Theory Num.Theory.
Local Open Scope ring_scope.

(** Events that are not rangefinder outputs. *)
Definition noRF T (l : seq (event T)) : bool :=
  all (fun e => if e is EvRF _ then false else true) l.

(** [rf_ext F l F']: [F'] is [F] followed, side by side, by the matrices that
    the events [l] record as rangefinder outputs. *)
Inductive rf_ext (R : rcfType) (m : nat) :
    forall c, 'M[R]_(m, c) -> seq (event R) -> forall c', 'M[R]_(m, c') -> Prop :=
  | ext_nil c (F : 'M[R]_(m, c)) l : noRF l -> rf_ext F l F
  | ext_cons c (F : 'M[R]_(m, c)) l1 l2 b (Fi : 'M[R]_(m, b)) c' (F' : 'M[R]_(m, c')) :
      noRF l1 -> rf_ext (row_mx F Fi) l2 F' -> rf_ext F (l1 ++ EvRF (ofmx Fi) :: l2) F'.

(** [rf_outputs l F]: the rangefinder outputs recorded in [l], put side by
    side, form [F]. *)
Definition rf_outputs (R : rcfType) (m : nat) (l : seq (event R)) c (F : 'M[R]_(m, c)) :=
  rf_ext (0 : 'M[R]_(m, 0)) l F.

(** A rangefinder that answers every admissible request with a matrix of the
    requested shape.  Nothing is said about the quality of the columns. *)
Definition rf_shape (R : rcfType) (G : Type) (rf : rangefinder (T:=R) (G:=G)) : Prop :=
  forall m n (A : 'M[R]_(m, n)) (b : nat) (s : st G R),
  (0 < b)%N -> (b <= minn m n)%N ->
  exists s' (F : 'M[R]_(m, b)),
    rf (ofmx A) b%:Z None s = (s', inr (ofmx F)) /\
    exists2 l, evs s' = evs s ++ l & noRF l.

Section QB2.
Variables (R : rcfType) (G : Type) (L : lapack R).
Hypothesis qrL : qr_spec L.

Lemma project_outE m b c (Qi : 'M[R]_(m, b)) (Q : 'M[R]_(m, c)) :
  project_out (ofmx Qi) (ofmx Q) = Ok (ofmx (Qi - Q *m (Q^T *m Qi))).
Proof. by rewrite /project_out mtrE mmulE /= mmulE /= msubE. Qed.

Lemma passQtAE m n c (Q : 'M[R]_(m, c)) (A : 'M[R]_(m, n)) (s : st G R) :
  passQtA (ofmx Q) (ofmx A) s =
  (St (gen s) (rcons (evs s) (EvPass true)), inr (ofmx (Q^T *m A))).
Proof. by rewrite /passQtA bind_emitE mtrE mmulE. Qed.

Lemma noRF_cat T (l1 l2 : seq (event T)) : noRF (l1 ++ l2) = noRF l1 && noRF l2.
Proof. by rewrite /noRF all_cat. Qed.

Lemma rf_ext_rank m c (F : 'M[R]_(m, c)) l c' (F' : 'M[R]_(m, c')) :
  rf_ext F l F' -> \rank F' = c' -> \rank F = c.
Proof. by elim=> // {}c {}F l1 l2 b Fi {}c' {}F' n1 _ IH /IH /full_col_left. Qed.

Lemma rf_ext_pre m c (F : 'M[R]_(m, c)) l0 l c' (F' : 'M[R]_(m, c')) :
  noRF l0 -> rf_ext F l F' -> rf_ext F (l0 ++ l) F'.
Proof.
move=> n0; case: c' F' / => [c1 F1 l1 n1|c1 F1 l1 l2 b Fi c' F' n1 ext].
  by apply: ext_nil; rewrite noRF_cat n0.
by rewrite catA; apply: ext_cons ext; rewrite noRF_cat n0.
Qed.

(** Effect of one block on the residual. *)
Lemma qb2_block m n c b (A0 : 'M[R]_(m, n)) (Q : 'M[R]_(m, c)) (B : 'M[R]_(c, n))
    (Qi : 'M[R]_(m, b)) :
  let A := A0 - Q *m B in
  let Bi := Qi^T *m A in
  A - Qi *m Bi = A0 - row_mx Q Qi *m col_mx B Bi.
Proof. by rewrite /= mul_row_col opprD addrA. Qed.

(** Orthogonality of a new block, when the requested columns are independent of
    the previous ones. *)
Lemma qb2_newblock m c b (Q : 'M[R]_(m, c)) (F : 'M[R]_(m, c)) (Fi Qi : 'M[R]_(m, b))
    (U : 'M[R]_b) (Y : 'M[R]_c) :
  orthonormal Q -> Q = F *m Y -> orthonormal Qi ->
  Fi - Q *m (Q^T *m Fi) = Qi *m U ->
  \rank (row_mx F Fi) = (c + b)%N ->
  [/\ U \in unitmx, Q^T *m Qi = 0 &
      exists Y', row_mx Q Qi = row_mx F Fi *m Y'].
Proof.
move=> oQ QFY oQi EP rFF.
have uU : U \in unitmx.
  apply/full_col_unit; apply: inj_full_col => v Uv.
  have : row_mx F Fi *m col_mx (- (Y *m (Q^T *m Fi *m v))) v = 0.
    rewrite mul_row_col mulmxN (mulmxA F) -QFY addrC -(mulmxA Q^T) !mulmxA.
    have := congr1 (mulmx^~ v) EP; rewrite -(mulmxA Qi) Uv mulmx0 mulmxBl => <-.
    by rewrite !mulmxA.
  by move/(full_col_inj rFF)/eqP; rewrite col_mx_eq0 => /andP[_ /eqP].
have QiE : Qi = (Fi - Q *m (Q^T *m Fi)) *m invmx U by rewrite EP mulmxK.
have QQi : Q^T *m Qi = 0.
  by rewrite QiE mulmxA ortho_resid // mul0mx.
split=> //.
exists (row_mx (col_mx Y 0) (col_mx (- (Y *m (Q^T *m Fi)) *m invmx U) (invmx U))).
rewrite mul_mx_row !mul_row_col mulmx0 addr0 -QFY; congr row_mx.
by rewrite {1}QiE mulmxBl addrC !mulmxA mulmxN mulNmx {1}QFY !mulmxA.
Qed.

(** What holds of (Q, B) as soon as the rangefinder outputs [F] so far are
    linearly independent. *)
Definition qb2_good m n c (A0 : 'M[R]_(m, n)) (Q : 'M[R]_(m, c)) (B : 'M[R]_(c, n))
    (F : 'M[R]_(m, c)) : Prop :=
  [/\ orthonormal Q, B = Q^T *m A0 & exists Y, Q = F *m Y].

Lemma qb2_loopP (rf : rangefinder) (k : nat) (utol : bool) (abs : R) m n
    (A0 : 'M[R]_(m, n)) :
  rf_shape rf -> (k <= minn m n)%N ->
  forall fuel c (Q : 'M[R]_(m, c)) (B : 'M[R]_(c, n)) (F : 'M[R]_(m, c))
         (blk : int) (sqn : R) (s : st G R),
  (c < k)%N -> (k - c <= fuel)%N -> 0 < blk ->
  (utol -> sqn = fro2 (A0 - Q *m B)) ->
  fro2 (A0 - Q *m B) = fro2 A0 - fro2 B ->
  (\rank F = c -> qb2_good A0 Q B F) ->
  exists s' l c' (Q' : 'M[R]_(m, c')) (B' : 'M[R]_(c', n)) (F' : 'M[R]_(m, c')),
    [/\ qb2_loop L fuel rf k utol abs blk sqn (ofmx (A0 - Q *m B)) (ofmx Q) (ofmx B) s
        = (s', inr (ofmx Q', ofmx B', ofmx (A0 - Q' *m B'))),
        (c < c' <= k)%N,
        (c' < k)%N -> utol /\ fro2 (A0 - Q' *m B') <= abs,
        fro2 (A0 - Q' *m B') = fro2 A0 - fro2 B' &
        [/\ evs s' = evs s ++ l, rf_ext F l F' &
            \rank F' = c' -> qb2_good A0 Q' B' F']].
Proof.
move=> rfP kmn; elim=> [|fuel IH] c Q B F blk sqn s ck fk blk0 sqnE froE good.
  by move: fk; rewrite leqn0 subn_eq0 leqNgt ck.
have [km kn] : (k <= m)%N /\ (k <= n)%N by move: kmn; rewrite leq_min => /andP.
rewrite /=; set blk' := if _ then _ else _.
have [b blkE [b0 bk]] : exists2 b : nat, blk' = b%:Z & (0 < b)%N /\ (c + b <= k)%N.
  by exists (absz blk'); rewrite /blk'; case: ifP => H; lia.
rewrite blkE.
have bk' : (b <= k)%N by rewrite (leq_trans _ bk) // leq_addl.
have [s1 [Fi [E1 [l1 evl1 n1]]]] := rfP _ _ (A0 - Q *m B) b s b0 (leq_trans bk' kmn).
rewrite (bindE _ E1) bind_emitE project_outE bind_liftE.
set P := Fi - _; have bm : (b <= m)%N := leq_trans bk' km.
have [Qi [U [EQ oQi tU PE]]] := qr_tall P qrL b0 bm.
rewrite EQ bind_liftE /=.
rewrite (bindE _ (passQtAE _ _ _)) hstackE bind_liftE vstackE bind_liftE.
rewrite mmulE bind_liftE msubE bind_liftE.
set Bi := Qi^T *m (A0 - Q *m B).
rewrite qb2_block -/Bi mnormE.
set Q1 := row_mx Q Qi; set B1 := col_mx B Bi.
have fE : fro2 (A0 - Q1 *m B1) = fro2 (A0 - Q *m B) - fro2 Bi.
  by rewrite -qb2_block fro2_resid.
have fE1 : fro2 (A0 - Q1 *m B1) = fro2 A0 - fro2 B1.
  by rewrite fE froE /B1 fro2_col_mx opprD addrA.
set sqn1 := if utol then _ else _.
have sqn1E : utol -> sqn1 = fro2 (A0 - Q1 *m B1).
  by move=> ut; rewrite /sqn1 ut /= sqnE // /osq /= -expr2 sqr_fro fE.
set s2 := St _ _.
have evs2 : evs s2 = evs s ++ (l1 ++ EvRF (ofmx Fi) :: [:: EvPass true]).
  by rewrite /s2 /= evl1 -!cats1 -!catA.
have good1 : \rank (row_mx F Fi) = (c + b)%N -> qb2_good A0 Q1 B1 (row_mx F Fi).
  move=> rF; have [oQ BE [Y QFY]] := good (full_col_left rF).
  have [uU QQi [Y' Y'E]] := qb2_newblock oQ QFY oQi PE rF.
  split; last by exists Y'.
    exact: orthonormal_row_mx.
  rewrite /B1 /Q1 tr_row_mx mul_col_mx -BE; congr col_mx.
  rewrite /Bi mulmxBr mulmxA (_ : Qi^T *m Q = 0) ?mul0mx ?subr0 //.
  by rewrite -[Q]trmxK -trmx_mul QQi trmx0.
have stop : ((c + b < k)%N -> utol /\ fro2 (A0 - Q1 *m B1) <= abs) ->
  exists s' l c' (Q' : 'M[R]_(m, c')) (B' : 'M[R]_(c', n)) (F' : 'M[R]_(m, c')),
    [/\ ret (ofmx Q1, ofmx B1, ofmx (A0 - Q1 *m B1)) s2
        = (s', inr (ofmx Q', ofmx B', ofmx (A0 - Q' *m B'))),
        (c < c' <= k)%N,
        (c' < k)%N -> utol /\ fro2 (A0 - Q' *m B') <= abs,
        fro2 (A0 - Q' *m B') = fro2 A0 - fro2 B' &
        [/\ evs s' = evs s ++ l, rf_ext F l F' &
            \rank F' = c' -> qb2_good A0 Q' B' F']].
  move=> H; exists s2, (l1 ++ EvRF (ofmx Fi) :: [:: EvPass true]), (c + b)%N.
  exists Q1, B1, (row_mx F Fi); split=> //; first by rewrite bk -addn1 leq_add2l b0.
  by split=> //; apply: ext_cons => //; apply: ext_nil.
case: ifP => [/andP[ut /=]|Hn].
  by rewrite sqn1E // => le; apply: stop.
case: ifP => kB.
  by apply: stop; rewrite ltnNge kB.
have ckb : (c + b < k)%N by rewrite ltnNge kB.
have fuel1 : (k - (c + b) <= fuel)%N by lia.
have b0z : 0 < b%:Z :> int by lia.
have [s' [l [c' [Q' [B' [F' [run cc' lt fr [evl ext good']]]]]]]] :=
  IH _ Q1 B1 _ b%:Z sqn1 s2 ckb fuel1 b0z sqn1E fE1 good1.
exists s', ((l1 ++ EvRF (ofmx Fi) :: [:: EvPass true]) ++ l), c', Q', B', F'; split=> //.
  by case/andP: cc' => cc' ->; rewrite (leq_ltn_trans _ cc') // leq_addr.
split=> //; first by rewrite evl evs2 -!catA.
rewrite -catA; apply: ext_cons => //=.
exact: (@rf_ext_pre _ _ _ [:: EvPass true]).
Qed.

End QB2.
