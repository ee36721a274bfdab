(** Proofs about QB3. *)
From mathcomp Require Import all_ssreflect all_algebra.
From mathcomp Require Import zify.
From Verif Require Import Base Arr Lapack Exact MxLib LapackSpec Rng Aware RangeFinders QB.
From Verif Require Import P_RS1 P_QB2 P_RF.
Set Implicit Arguments.
Unset Strict Implicit.
Unset Printing Implicit Defensive.
Import Order.TTheory GRing.Theory Num.Theory.
Local Open Scope ring_scope.

Section QB3.
Variables (R : rcfType) (G : Type) (L : lapack R).
Implicit Types (s : st G R).

(** The projection onto a column space does not depend on its orthonormal
    basis. *)
Lemma proj_eq m c (Q Q' : 'M[R]_(m, c)) (U U' : 'M[R]_c) :
  orthonormal Q -> orthonormal Q' -> U \in unitmx -> Q *m U = Q' *m U' ->
  Q *m Q^T = Q' *m Q'^T.
Proof.
move=> oQ oQ' uU E.
have {}E : Q = Q' *m (U' *m invmx U) by rewrite mulmxA -E mulmxK.
set W := U' *m invmx U in E.
have WW : W^T *m W = 1%:M.
  by move: oQ; rewrite {1}/orthonormal E trmx_mul mulmxA -(mulmxA W^T) oQ' mulmx1.
have WW' : W *m W^T = 1%:M by apply: mulmx1C.
by rewrite E trmx_mul mulmxA -(mulmxA Q') WW' mulmx1.
Qed.

Lemma rank_unit_mul m c (Q : 'M[R]_(m, c)) (U : 'M[R]_c) :
  orthonormal Q -> (\rank (Q *m U) = c) <-> (U \in unitmx).
Proof.
move=> oQ; rewrite -full_col_unit; split=> H; apply: inj_full_col => v E.
  by apply: (full_col_inj H); rewrite -mulmxA E mulmx0.
by apply: (full_col_inj H); rewrite -[LHS]mul1mx -oQ -mulmxA (mulmxA Q) E mulmx0.
Qed.

Section Step.
Variables (m n c d : nat) (A : 'M[R]_(m, n)) (Si : 'M[R]_(n, d)).
Variables (Q : 'M[R]_(m, c)) (Q1 Q2 : 'M[R]_(m, d)) (R1 R2 : 'M[R]_d).
Let B := Q^T *m A.
Let Yi := A *m Si - Q *m (B *m Si).
Hypotheses (oQ : orthonormal Q) (oQ1 : orthonormal Q1) (oQ2 : orthonormal Q2).
Hypothesis (E1 : Yi = Q1 *m R1).
Hypothesis (E2 : Q1 - Q *m (Q^T *m Q1) = Q2 *m R2).

Lemma qb3_QY : Q^T *m Yi = 0.
Proof. by rewrite /Yi /B -mulmxA ortho_resid. Qed.

Lemma qb3_rhs : (A^T *m (A *m Si))^T - Yi^T *m Q *m B - (B *m Si)^T *m B = Yi^T *m A.
Proof.
have -> : Yi^T *m Q = 0 by rewrite -[Q]trmxK -trmx_mul qb3_QY trmx0.
rewrite mul0mx subr0 /Yi [(_ - _)^T]linearB /= mulmxBl; congr (_ - _).
  by rewrite !trmx_mul trmxK -!mulmxA.
by rewrite /B !trmx_mul trmxK ?mulmxA.
Qed.

Lemma qb3_unit : (R2 *m R1 \in unitmx) = (R1 \in unitmx).
Proof.
rewrite unitmx_mul andbC; case: (boolP (R1 \in unitmx)) => //= u1.
have Q1E : Q1 = Yi *m invmx R1 by rewrite E1 mulmxK.
move: E2; rewrite {2}Q1E (mulmxA Q^T) qb3_QY mul0mx mulmx0 subr0 => Q12.
by apply/(rank_unit_mul R2 oQ2); rewrite -Q12 orthonormal_rank.
Qed.

Lemma qb3_ok : R2 *m R1 \in unitmx ->
  Q2 *m (R2 *m R1) = Yi /\
  [/\ orthonormal (row_mx Q Q2), invmx (R2 *m R1)^T *m (Yi^T *m A) = Q2^T *m A &
      Q^T *m Q2 = 0].
Proof.
move=> u; have u1 : R1 \in unitmx by rewrite -qb3_unit.
have Q1E : Q1 = Yi *m invmx R1 by rewrite E1 mulmxK.
have YE : Q2 *m (R2 *m R1) = Yi.
  by rewrite mulmxA -E2 {2}Q1E (mulmxA Q^T) qb3_QY mul0mx mulmx0 subr0.
have QQ2 : Q^T *m Q2 = 0.
  by rewrite -[Q2](mulmxK u) YE mulmxA qb3_QY mul0mx.
split=> //; split=> //; first exact: orthonormal_row_mx.
by rewrite -{1}YE [(Q2 *m _)^T]trmx_mul -mulmxA mulKmx ?unitmx_tr.
Qed.

End Step.

(** What QB3 maintains: [Q] is an orthonormal basis of the first [c] columns of
    the sketch [A S]. *)
Definition qb3_good m n k (A : 'M[R]_(m, n)) (S : 'M[R]_(n, k)) c
    (Q : 'M[R]_(m, c)) (B : 'M[R]_(c, n)) : Prop :=
  [/\ orthonormal Q, B = Q^T *m A &
      exists2 U : 'M[R]_c, U \in unitmx & colblk (A *m S) 0 c = Q *m U].

Hypothesis qrL : qr_spec L.

(** No earlier block boundary met the tolerance. *)
Definition qb3_first m n (A : 'M[R]_(m, n)) (blk : nat) (abs : R) c (Q : 'M[R]_(m, c)) : Prop :=
  forall j, (0 < j)%N -> (j * blk < c)%N ->
  abs < fro2 (A - colblk Q 0 (j * blk) *m (colblk Q 0 (j * blk))^T *m A).

Lemma qb3_loopP (k blk N : nat) (utol : bool) (abs : R) m n
    (A : 'M[R]_(m, n)) (S : 'M[R]_(n, k)) s :
  (0 < blk)%N -> (k <= minn m n)%N -> (k <= N * blk)%N -> (N.-1 * blk < k)%N ->
  forall todo i c (Q : 'M[R]_(m, c)) (B : 'M[R]_(c, n)) (sqn : R),
  (i + todo = N)%N -> c = minn (i * blk) k ->
  (utol -> sqn = fro2 (A - Q *m B)) ->
  qb3_good A S Q B ->
  (utol -> qb3_first A blk abs Q) ->
  ((0 < i)%N -> utol -> abs < fro2 (A - Q *m B)) ->
  (exists c' (Q' : 'M[R]_(m, c')) (B' : 'M[R]_(c', n)),
    [/\ qb3_loop L todo i k blk utol abs (ofmx S) (ofmx (A *m S))
           (ofmx (A^T *m (A *m S))) sqn (ofmx Q) (ofmx B) s = (s, inr (ofmx Q', ofmx B')),
        qb3_good A S Q' B', (c + (0 < todo) <= c' <= k)%N,
        (c' < k)%N -> [/\ utol, (blk %| c')%N & fro2 (A - Q' *m B') <= abs] &
        utol -> qb3_first A blk abs Q']) \/
  (qb3_loop L todo i k blk utol abs (ofmx S) (ofmx (A *m S))
      (ofmx (A^T *m (A *m S))) sqn (ofmx Q) (ofmx B) s = (s, inl LinAlgError) /\
   exists2 c', (c' <= k)%N & (\rank (colblk (A *m S) 0 c') < c')%N).
Proof.
move=> blk0 kmn kN Nk; elim=> [|todo IH] i c Q B sqn iN cE sqnE good first notyet.
  have ck : c = k by rewrite cE; move: iN; rewrite addn0 => ->; rewrite (minn_idPr kN).
  left; exists c, Q, B; split=> [//|//||lt|//]; first by rewrite addn0 ck !leqnn.
  by move: (lt); rewrite {1}ck ltnn.
have ik : (i * blk < k)%N.
  by apply: leq_ltn_trans Nk; rewrite leq_mul2r; apply/orP; right; lia.
have {}cE : c = (i * blk)%N by rewrite cE; apply/minn_idPl/ltnW.
rewrite [qb3_loop _ _ _ _ _ _ _ _ _ _ _ _ _]/= -/qb3_loop -cE.
set b := minn _ k.
have cb : (c < b)%N by rewrite /b leq_min {1}cE ltn_mul2r blk0 ltnSn cE.
have bk : (b <= k)%N by rewrite geq_minr.
rewrite !cslice_colblk (minn_idPl (ltnW (leq_trans cb bk))).
set d := slen k c b.
have dE : (c + d = b)%N by rewrite /d /slen; lia.
have d0 : (0 < d)%N by lia.
have [km kn] : (k <= m)%N /\ (k <= n)%N by move: kmn; rewrite leq_min => /andP.
have dm : (d <= m)%N by lia.
case: good => oQ BE [U uU UE].
rewrite -!mul_colblk; set Si := colblk S c d.
rewrite mmulE bind_liftE mmulE bind_liftE msubE bind_liftE.
have [Q1 [R1 [EQ1 oQ1 tR1 E1]]] := qr_tall (A *m Si - Q *m (B *m Si)) qrL d0 dm.
rewrite EQ1 bind_liftE project_outE bind_liftE.
have [Q2 [R2 [EQ2 oQ2 tR2 E2]]] := qr_tall (Q1 - Q *m (Q^T *m Q1)) qrL d0 dm.
rewrite EQ2 bind_liftE.
rewrite mmulE bind_liftE !mtrE mmulE bind_liftE mmulE bind_liftE msubE bind_liftE.
rewrite mmulE bind_liftE msubE bind_liftE BE.
rewrite BE in E1.
rewrite (qb3_rhs A Si oQ) solve_triE; last exact: uptri_mul.
have uE := qb3_unit oQ oQ1 oQ2 E1 E2.
have QU : colblk (A *m S) 0 (c + d) = row_mx (Q *m U) (A *m Si).
  by rewrite -colblk_cat add0n -UE mul_colblk.
case: ifP => [u|nu]; last first.
  right; split; first by [].
  exists (c + d)%N; first by rewrite dE.
  rewrite QU ltn_neqAle rank_leq_col andbT; apply/eqP => rk.
  move: nu; rewrite uE => /negP; apply.
  apply/(rank_unit_mul R1 oQ1); rewrite -E1; apply: inj_full_col => v Yv.
  have : row_mx (Q *m U) (A *m Si) *m col_mx (- (invmx U *m (Q^T *m A *m Si *m v))) v = 0.
    rewrite mul_row_col mulmxN -(mulmxA Q) mulKVmx // addrC.
    by move: Yv; rewrite mulmxBl !mulmxA.
  by move/(full_col_inj rk)/eqP; rewrite col_mx_eq0 => /andP[_ /eqP].
have [YE [oQQ BiE QQ2]] := qb3_ok oQ oQ1 oQ2 E1 E2 u.
rewrite bind_liftE BiE hstackE bind_liftE vstackE bind_liftE.
have BB : col_mx (Q^T *m A) (Q2^T *m A) = (row_mx Q Q2)^T *m A.
  by rewrite tr_row_mx mul_col_mx.
have good' : qb3_good A S (row_mx Q Q2) (col_mx (Q^T *m A) (Q2^T *m A)).
  split=> //; exists (block_mx U (Q^T *m A *m Si) 0 (R2 *m R1)).
    by rewrite unitmxE det_ublock unitrM -!unitmxE uU u.
  rewrite QU mul_row_block mulmx0 addr0 YE; congr row_mx.
  by rewrite addrC mulmxA subrK.
have sqn' : utol -> (if utol then (sqn - osq (mnorm (ofmx (Q2^T *m A))))%O else sqn)
            = fro2 (A - row_mx Q Q2 *m col_mx (Q^T *m A) (Q2^T *m A)).
  move=> ut; rewrite ut mnormE /osq /= -expr2 sqr_fro (sqnE ut) BE BB.
  rewrite !fro2_resid // -BB fro2_col_mx.
  by rewrite opprD addrA.
have first' : utol -> qb3_first A blk abs (row_mx Q Q2).
  move=> ut j j0 jb0; have jb : (j * blk < b)%N by rewrite -dE.
  have jc : (j * blk <= c)%N.
    have : (j * blk < i.+1 * blk)%N by apply: leq_trans jb _; rewrite geq_minl.
    by rewrite ltn_mul2r blk0 /= ltnS cE leq_mul2r => ->; rewrite orbT.
  have -> : colblk (row_mx Q Q2) 0 (j * blk) = colblk Q 0 (j * blk).
    apply/matrixP => x y; rewrite !mxE add0n.
    have yc : (y < c)%N by apply: leq_trans (ltn_ord y) jc.
    rewrite (mxe_ord _ (ltn_ord x) yc) (mxe_ord _ (ltn_ord x) (ltn_addr d yc)) mxE.
    by case: splitP => z /= yz; [congr (Q _ _); apply: val_inj | move: yc; rewrite yz; lia].
  move: jc; rewrite leq_eqVlt => /orP[/eqP jc|jc]; last exact: first.
  have i0 : (0 < i)%N by move: cE; rewrite -jc; case: (i) => //; lia.
  have PE : colblk Q 0 (j * blk) *m (colblk Q 0 (j * blk))^T = Q *m Q^T.
    by rewrite jc colblk_full.
  by rewrite PE -mulmxA -BE; apply: notyet.
case: ifP => [/andP[ut le]|nle].
  left; exists (c + d)%N, (row_mx Q Q2), (col_mx (Q^T *m A) (Q2^T *m A)); split=> //.
  - by rewrite leq_add2l d0 dE.
  - move=> ltk; split=> //; last by rewrite -sqn' // ut.
    rewrite dE (_ : b = (i.+1 * blk)%N) ?dvdn_mull //.
    by move: ltk; rewrite dE /b; set x := (i.+1 * blk)%N; lia.
have [] := IH i.+1 (c + d)%N (row_mx Q Q2) (col_mx (Q^T *m A) (Q2^T *m A))
  (if utol then (sqn - osq (mnorm (ofmx (Q2^T *m A))))%O else sqn) _ _ sqn' good' first' _.
- by rewrite addSnnS.
- by rewrite dE.
- by move=> _ ut; rewrite ltNge; apply/negP => le; move: nle; rewrite sqn' // ut /= /ole /= le.
- case=> c' [Q' [B' [E g /andP[cc ck] st fi]]]; left; exists c', Q', B'; split=> //.
  by rewrite ck (leq_trans _ (leq_trans (leq_addr _ _) cc)) // leq_add2l.
by right.
Qed.

Lemma colblk_rank m n (X : 'M[R]_(m, n)) c : (c <= n)%N -> \rank X = n ->
  \rank (colblk X 0 c) = c.
Proof.
move=> cn rX; apply: inj_full_col => v; rewrite colblkE -mulmxA => /(full_col_inj rX) E.
apply/matrixP => i j; have := congr1 (fun M : 'M_(_, _) => M (widen_ord cn i) j) E.
rewrite !mxE (bigD1 i) //= !mxE add0n eqxx mul1r big1 ?addr0 // => l ne.
by rewrite mxE add0n /= val_eqE eq_sym (negbTE ne) mul0r.
Qed.

Lemma QB3P (sk_op : rowsketcher) (blk : int) m n (A : 'M[R]_(m, n)) (k : nat) tol s s1
    (S : 'M[R]_(n, k)) :
  (0 < k)%N -> (k < minn m n)%N -> 0 < blk ->
  sk_op (ofmx A) k s = (s1, inr (PyArr (ofmx S))) ->
  let s2 := St (gen s1) (evs s1 ++ [:: EvPass false; EvPass true]) in
  (exists c (Q : 'M[R]_(m, c)) (B : 'M[R]_(c, n)),
    [/\ QB3 L sk_op blk (ofmx A) k%:Z tol s = (s2, inr (ofmx Q, ofmx B)),
        qb3_good A S Q B, (0 < c <= k)%N,
        (c < k)%N -> exists t, [/\ tol = Some t, 0 < t, (absz blk %| c)%N &
                                  fro (A - Q *m B) <= t * fro A] &
        forall t, tol = Some t -> 0 < t ->
          forall j, (0 < j)%N -> (j * absz blk < c)%N ->
          let Q0 := colblk Q 0 (j * absz blk) in t * fro A < fro (A - Q0 *m Q0^T *m A)]) \/
  (QB3 L sk_op blk (ofmx A) k%:Z tol s = (s2, inl LinAlgError) /\
   exists2 c', (c' <= k)%N & (\rank (colblk (A *m S) 0 c') < c')%N).
Proof.
move=> k0 kmn b0 E s2.
rewrite /QB3 (_ : (0 < k%:Z)%R) ?bind_passertT; last by lia.
rewrite (_ : (k%:Z < _)%R) ?bind_passertT; last by rewrite /=; lia.
rewrite (bindE _ E) (bindE _ (passAE _ _ _)) (bindE _ (passAtE _ _ _)).
rewrite -!cats1 -catA /= -/s2.
rewrite (_ : (blk == 0) = false); last by apply/eqP; lia.
rewrite (_ : (blk < 0) = false); last by lia.
set b := absz blk; have bp : (0 < b)%N by rewrite /b; lia.
set N := ((k + b).-1 %/ b)%N.
have kN : (k <= N * b)%N.
  have := divn_eq (k + b).-1 b; have := ltn_pmod (k + b).-1 bp; rewrite -/N.
  by set x := (N * b)%N; lia.
have Nk : (N.-1 * b < k)%N.
  have := divn_eq (k + b).-1 b; rewrite -/N -(subn1 N) mulnBl mul1n.
  by set x := (N * b)%N; lia.
have sq0 : use_tol tol -> sqnorm0 (ofmx A) = fro2 (A - (0 : 'M_(m, 0)) *m (0 : 'M_(0, n))).
  by rewrite /sqnorm0 mnormE mul0mx subr0 => _; rewrite /osq /= -expr2 sqr_fro.
have g0 : qb3_good A S (0 : 'M_(m, 0)) (0 : 'M_(0, n)).
  split; first exact: orthonormal0.
    by apply/matrixP; case.
  by exists 1%:M; [rewrite unitmx1 | apply/matrixP => i; case].
have f0 : use_tol tol -> qb3_first A b (abs_sq_tol (ofmx A) tol) (0 : 'M[R]_(m, 0)).
  by move=> _ j _; rewrite ltn0.
have tolE t : tol = Some t -> 0 < t -> use_tol tol /\
    abs_sq_tol (ofmx A) tol = (t * fro A) ^+ 2.
  move=> -> t0; split; first by rewrite /use_tol /olt.
  by rewrite /abs_sq_tol /sqnorm0 mnormE /osq /= -!expr2 exprMn mulrC.
have tE0 t (t0 : 0 < t) X : ((t * fro A) ^+ 2 < fro2 X) = (t * fro A < @fro R m n X).
  by rewrite -sqr_fro ltr_pexpn2r ?nnegrE ?mulr_ge0 ?fro_ge0 ?(ltW t0).
have nr0 : nr (ofmx A) = m by []. have nc0 : nc (ofmx A) = n by [].
rewrite !mzerosE.
have cE0 : 0%N = minn (0 * b) k by rewrite mul0n min0n.
have no0 : (0 < 0)%N -> use_tol tol -> abs_sq_tol (ofmx A) tol
    < fro2 (A - (0 : 'M_(m, 0)) *m (0 : 'M_(0, n))) by [].
have N0 : (0 < N)%N by case: (N) kN k0 => //; rewrite mul0n; lia.
have [[c [Q [B [EL g /andP[c0 ck] st fi]]]]|[EL H]] :=
  @qb3_loopP k b N (use_tol tol) (abs_sq_tol (ofmx A) tol) m n A S s2 bp (ltnW kmn) kN Nk
    N 0%N 0%N 0 0 _ (add0n N) cE0 sq0 g0 f0 no0; last by right.
left; exists c, Q, B; split=> //.
- by rewrite ck andbT; move: c0; rewrite N0.
- move=> ltk; have [ut dv le] := st ltk.
  case: tol ut le tolE {sq0 f0 no0 EL st fi} => //= t t0 le tolE; exists t; split=> //.
  have [_ aE] := tolE t erefl t0; move: le; rewrite aE => le.
  by rewrite leNgt -tE0 // -leNgt.
move=> t tt t0 j j0 jc; have [ut aE] := tolE t tt t0.
by have := fi ut j j0 jc; rewrite aE tE0.
Qed.

End QB3.
