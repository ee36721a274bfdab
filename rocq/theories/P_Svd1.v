(** Proofs about the driver svd1. *)
From mathcomp Require Import all_ssreflect all_algebra.
From mathcomp Require Import zify.
From Verif Require Import Base Arr Lapack Exact MxLib LapackSpec LapackExists Rng Aware RangeFinders QB.
From Verif Require Import P_RS1 P_QB2 P_RF P_QBx P_QBfin P_Svd Sel SvdEvd P_SvdEvd.
Set Implicit Arguments.
Unset Strict Implicit.
Unset Printing Implicit Defensive.
Import Order.TTheory GRing.Theory Num.Theory.
Local Open Scope ring_scope.

Lemma with_rng_evs (R : rcfType) (G : Type) X (r : rng_ops G R) a (c : M G R X)
    (P : seq (event R) -> res X -> Prop) s :
  (forall s0, evs s0 = evs s -> exists s1 x, c s0 = (s1, x) /\ P (evs s1) x) ->
  exists s' x, with_rng r a c s = (s', x) /\ P (evs s') x.
Proof.
move=> H; case: a => [|z|v] /=; first exact: H.
  by have [s1 [x [-> p]]] := H (St (r_seed r z) (evs s)) erefl; exists (St (gen s) (evs s1)), x.
by have [s1 [x [-> p]]] := H (St (r_seeds r v) (evs s)) erefl; exists (St (gen s) (evs s1)), x.
Qed.

Section Svd1.
Variables (R : rcfType) (G : Type) (L : lapack R) (r : rng_ops G R).
Hypotheses (qrL : qr_spec L) (svdL : svd_spec L) (rok : rng_ok r).

(** The result of a QB factorisation of [A] as QB2 delivers it: [F] collects
    the rangefinder outputs recorded in the log [l]. *)
Record qb2_result m n c (A : 'M[R]_(m, n)) (kk : nat) (tol : option R) (l : seq (event R))
    (Q : 'M[R]_(m, c)) (B : 'M[R]_(c, n)) (F : 'M[R]_(m, c)) : Prop := Qb2Result {
  qr_c : (0 < c <= minn kk (minn m n))%N;
  qr_tol : (c < minn kk (minn m n))%N ->
     exists t, [/\ tol = Some t, 0 < t & fro (A - Q *m B) <= t * fro A];
  qr_fro : fro2 (A - Q *m B) = fro2 A - fro2 B;
  qr_log : rf_outputs l F;
  qr_orth : \rank F = c -> [/\ orthonormal Q, B = Q^T *m A & exists Y, Q = F *m Y] }.

Lemma QB2_noovP rf (blk : int) m n (A : 'M[R]_(m, n)) (k : int) tol (s : st G R) :
  rf_shape rf -> (0 < m)%N -> (0 < n)%N -> 0 < k -> 0 < blk ->
  exists s' l c (Q : 'M[R]_(m, c)) (B : 'M[R]_(c, n)) (F : 'M[R]_(m, c)),
    [/\ QB2_noov L rf blk (ofmx A) k tol s = (s', inr (ofmx Q, ofmx B)),
        evs s' = evs s ++ l & qb2_result A (absz k) tol l Q B F].
Proof.
move=> rfP m0 n0 k0 b0.
have [s1 [l [c [Q [B [F [E h1 h2 h3 [h4 h5 h6]]]]]]]] := QB2P qrL false A tol s rfP m0 n0 k0 b0.
by exists s1, l, c, Q, B, F; split=> //; rewrite /QB2_noov (bindE _ E).
Qed.

Lemma svd1P (np blk : int) m n (A : 'M[R]_(m, n)) (k over : int) tol a (s : st G R) :
  2 <= np -> (0 < m)%N -> (0 < n)%N -> 0 < k + over -> 0 < blk ->
  exists s' l c (Q : 'M[R]_(m, c)) (B : 'M[R]_(c, n)) (F : 'M[R]_(m, c))
      (U : 'M[R]_(c, minn c n)) (sg : 'cV[R]_(minn c n)) (Vh : 'M[R]_(minn c n, n)) e,
    [/\ svd1 L r (ofmx A) k over tol np blk a s =
          (s', inr (ofmx (Q *m colblk U 0 e), ofcv (topv sg e), ofmx (rowblk Vh 0 e))),
        evs s' = evs s ++ l, qb2_result A (absz (k + over)) tol l Q B F,
        is_svd B U sg Vh &
        (e <= svd_top k over (minn c n))%N /\
        forall i : 'I_(minn c n), (i < svd_top k over (minn c n))%N -> (i < e)%N = (@cut R <= sg i 0)].
Proof.
move=> np2 m0 n0 k0 b0; have np0 : 0 <= np - 2 by lia.
pose (c0 := SVD1 L (QB2_noov L (RF1 L (RS1 (skopGA r) (np - 2) (orth L) 1)) blk) (ofmx A) k tol over).
have [s0 e0|s' [x [E [l [c [Q [B [F [U [sg [Vh [e [xE h1 h2 h3 h4]]]]]]]]]]]]] := @with_rng_evs _ _ _ r a c0
  (fun ev x => exists l c (Q : 'M[R]_(m, c)) (B : 'M[R]_(c, n)) (F : 'M[R]_(m, c))
      (U : 'M[R]_(c, minn c n)) (sg : 'cV[R]_(minn c n)) (Vh : 'M[R]_(minn c n, n)) e,
    [/\ x = inr (ofmx (Q *m colblk U 0 e), ofcv (topv sg e), ofmx (rowblk Vh 0 e)),
        ev = evs s ++ l, qb2_result A (absz (k + over)) tol l Q B F,
        is_svd B U sg Vh &
        (e <= svd_top k over (minn c n))%N /\
        forall i : 'I_(minn c n), (i < svd_top k over (minn c n))%N -> (i < e)%N = (@cut R <= sg i 0)]) s _.
  have [s1 [l [c [Q [B [F [E1 ev1 res]]]]]]] :=
    QB2_noovP A tol s0 (gauss_rf qrL rok np0) m0 n0 k0 b0.
  have [c1 _] := andP (qr_c res).
  have [U [sg [Vh [e [E2 sv h1 h2]]]]] := SVD1P svdL c1 n0 E1.
  eexists s1, _; split; first exact: E2.
  by exists l, c, Q, B, F, U, sg, Vh, e; rewrite ev1 e0.
by exists s', l, c, Q, B, F, U, sg, Vh, e; rewrite -xE.
Qed.

(** Matrices of tiny norm give an empty result. *)
Lemma svd1_tiny (np blk : int) m n (A : 'M[R]_(m, n)) (k over : int) tol a (s : st G R) :
  2 <= np -> (0 < m)%N -> (0 < n)%N -> 0 < k + over -> 0 < blk -> fro A < @cut R ->
  exists s' (U : 'M[R]_(m, 0)) (sg : 'cV[R]_0) (Vh : 'M[R]_(0, n)),
    svd1 L r (ofmx A) k over tol np blk a s = (s', inr (ofmx U, ofcv sg, ofmx Vh)).
Proof.
move=> np2 m0 n0 k0 b0 tiny.
have [s' [l [c [Q [B [F [U [sg [Vh [e [E _ res sv [le h]]]]]]]]]]]] :=
  svd1P A tol a s np2 m0 n0 k0 b0.
suff e0 : e = 0%N by subst e; eexists _, _, _, _; exact: E.
apply/eqP; rewrite -leqn0 leqNgt; apply/negP => e0.
have lt : (0 < minn c n)%N by apply: leq_trans (leq_trans e0 le) (svd_top_le _ _ _).
have := h (Ordinal lt) (leq_trans e0 le); rewrite e0 => /esym/idP; apply/negP; rewrite -ltNge.
apply: le_lt_trans tiny; rewrite -(@ler_pexpn2r _ 2) ?nnegrE ?fro_ge0 ?(sv_ge0 sv) // sqr_fro.
apply: le_trans (le_fro2_topv _ _) _; rewrite -(fro2_svd sv) -subr_ge0 -(qr_fro res).
exact: fro2_ge0.
Qed.

Lemma svd1_refuted (np blk : int) (t : R) a (s : st G R) : 2 <= np -> 0 < blk -> 0 < t < 1 ->
  exists (A : 'M[R]_1) s' e (U : 'M[R]_(1, e)) (sg : 'cV[R]_e) (Vh : 'M[R]_(e, 1)),
    [/\ A != 0, svd1 L r (ofmx A) 1 0 (Some t) np blk a s = (s', inr (ofmx U, ofcv sg, ofmx Vh)) &
        t * fro A < fro (A - U *m diag_mx sg^T *m Vh)].
Proof.
move=> np2 b0 /andP[t0 t1]; pose x : R := @cut R / 2%:R.
have x0 : 0 < x by rewrite mulr_gt0 ?cut_gt0 // invr_gt0 ltr0n.
have fx : fro (x%:M : 'M[R]_1) = x.
  rewrite /fro fro2_cvE big_ord1 mxE eqxx mulr1n sqrtr_sqr ger0_norm //; exact: ltW.
have tiny : fro (x%:M : 'M[R]_1) < @cut R.
  by rewrite fx /x ltr_pdivr_mulr ?ltr0n // mulr_natr mulr2n ltr_addl cut_gt0.
have [s' [U [sg [Vh E]]]] := @svd1_tiny np blk 1 1 x%:M 1 0 (Some t) a s np2 isT isT isT b0 tiny.
exists x%:M, s', 0%N, U, sg, Vh; split=> //.
  by apply/eqP=> /matrixP/(_ 0 0)/eqP; rewrite !mxE eqxx mulr1n gt_eqF.
have -> : U *m diag_mx sg^T *m Vh = 0 by apply/matrixP=> i j; rewrite !mxE big_ord0.
by rewrite subr0 fx gtr_pmull.
Qed.

Lemma ortho_sq m c (Q : 'M[R]_(m, c)) : c = m -> orthonormal Q -> Q *m Q^T = 1%:M.
Proof. by move=> e; subst c; exact: orthonormal_sq. Qed.

(** Full accuracy, up to what the absolute cut-off removes. *)
Lemma qb_full m n c (A : 'M[R]_(m, n)) (Q : 'M[R]_(m, c)) (F : 'M[R]_(m, c)) :
  c = minn m n -> \rank F = c -> orthonormal Q -> (exists Y, Q = F *m Y) ->
  (F^T <= A^T)%MS \/ (m <= n)%N -> A = Q *m (Q^T *m A).
Proof.
move=> cE rF oQ [Y QE] H.
have H' : (Q^T == A^T)%MS \/ c = m.
  case: H => [sub|mn]; last by right; rewrite cE; apply/minn_idPl.
  have sQ : (Q^T <= A^T)%MS by rewrite QE trmx_mul (submx_trans (submxMl _ _)).
  left; rewrite -(geq_leqif (mxrank_leqif_eq sQ)) !mxrank_tr (orthonormal_rank oQ) [X in (_ <= X)%N]cE.
  by rewrite leq_min rank_leq_row rank_leq_col.
case: H' => [/andP[_ /submxP[D DE]]|cm].
  have AE : A = Q *m D^T by rewrite -[A]trmxK DE trmx_mul trmxK.
  by rewrite {2}AE [Q^T *m _]mulmxA oQ mul1mx.
by rewrite mulmxA (ortho_sq cm oQ) mul1mx.
Qed.

Lemma svd1_accuracy (np blk : int) m n (A : 'M[R]_(m, n)) (k : int) (t : R) a (s : st G R) :
  2 <= np -> (0 < m)%N -> (0 < n)%N -> (minn m n)%:Z <= k -> 0 < blk -> 0 < t ->
  exists s' l c (F : 'M[R]_(m, c)) e (U : 'M[R]_(m, e)) (sg : 'cV[R]_e) (Vh : 'M[R]_(e, n)),
    [/\ svd1 L r (ofmx A) k 0 (Some t) np blk a s = (s', inr (ofmx U, ofcv sg, ofmx Vh)),
        evs s' = evs s ++ l, rf_outputs l F &
        \rank F = c -> (F^T <= A^T)%MS \/ (m <= n)%N ->
        fro2 (A - U *m diag_mx sg^T *m Vh) <= t ^+ 2 * fro2 A + (minn m n)%:R * (10%:R * 2%:R ^- 52) ^+ 2].
Proof.
move=> np2 m0 n0 km b0 t0; have k0 : 0 < k + 0 by rewrite addr0; lia.
have [s' [l [c [Q [B [F [U [sg [Vh [e [E ev res sv [le h]]]]]]]]]]]] :=
  svd1P A (Some t) a s np2 m0 n0 k0 b0.
exists s', l, c, F, e, (Q *m colblk U 0 e), (topv sg e), (rowblk Vh 0 e).
split=> //; first exact: qr_log res.
move=> rF side; have [oQ BE FY] := qr_orth res rF.
have eq : (e <= minn c n)%N := leq_trans le (svd_top_le _ _ _).
have [_ _ _ ->] := svd_trunc sv eq oQ BE.
have drop : fro2 sg - fro2 (topv sg e) <= (minn c n)%:R * @cut R ^+ 2.
  apply: fro2_topv_drop => // i ei; rewrite ger0_norm ?(sv_ge0 sv) //.
  by have := h i (ltn_ord i); rewrite ltnNge ei /= => /esym/negbT; rewrite -ltNge => /ltW.
have AB : fro2 (A - Q *m B) <= t ^+ 2 * fro2 A.
  case: (ltnP c (minn (absz (k + 0)) (minn m n))) => [/(qr_tol res)[_ [[<-] _ ab]]|cge].
    rewrite -!sqr_fro -exprMn ler_pexpn2r ?nnegrE ?fro_ge0 // mulr_ge0 ?fro_ge0 //; exact: ltW.
  have cE : c = minn m n.
    by have /andP[_ c2] := qr_c res; apply/eqP; rewrite eqn_leq; move: c2 cge; rewrite addr0; lia.
  rewrite BE -(qb_full cE rF oQ FY side) subrr fro20 mulr_ge0 ?fro2_ge0 ?sqr_ge0 //.
have -> : fro2 A - fro2 (topv sg e) = fro2 (A - Q *m B) + (fro2 sg - fro2 (topv sg e)).
  by rewrite (qr_fro res) (fro2_svd sv) addrA addrNK.
apply: ler_add => //; apply: le_trans drop _; rewrite ler_wpmul2r ?sqr_ge0 // ler_nat.
by have /andP[_ c2] := qr_c res; move: c2; lia.
Qed.

End Svd1.

(** ** The statement of C13 *)
Section C13.
Variables (R : rcfType) (G : Type) (L : lapack R).

Lemma svd1_form (qb : qbdec) m n c (A : 'M[R]_(m, n)) (k : int) tol (over : int) (s s1 : st G R)
    (Q : 'M[R]_(m, c)) (B : 'M[R]_(c, n)) :
  svd_spec L -> (0 < c)%N -> (0 < n)%N -> 0 <= k -> orthonormal Q ->
  qb (ofmx A) (k + over) tol s = (s1, inr (ofmx Q, ofmx B)) ->
  exists e (U : 'M[R]_(m, e)) (sg : 'cV[R]_e) (Vh : 'M[R]_(e, n))
      q (U0 : 'M[R]_(c, q)) (s0 : 'cV[R]_q) (Vh0 : 'M[R]_(q, n)),
    [/\ SVD1 L qb (ofmx A) k tol over s = (s1, inr (ofmx U, ofcv sg, ofmx Vh)),
        [/\ orthonormal U, orthonormal Vh^T,
            forall i, 10%:R * 2%:R ^- 52 <= sg i 0 &
            forall i j : 'I_e, (i <= j)%N -> sg j 0 <= sg i 0],
        [/\ B = U0 *m diag_mx s0^T *m Vh0, orthonormal U0, orthonormal Vh0^T &
            forall i j : 'I_q, (i <= j)%N -> s0 j 0 <= s0 i 0],
        [/\ U = Q *m colblk U0 0 e, sg = rowblk s0 0 e & Vh = rowblk Vh0 0 e] &
        [/\ (e <= minn c n)%N, q = minn c n, 0 < over -> (e <= absz k)%N,
            forall i : 'I_q, (e <= i)%N -> (0 < over -> (i < absz k)%N) -> s0 i 0 < 10%:R * 2%:R ^- 52 &
            e = q -> U *m diag_mx sg^T *m Vh = Q *m B]].
Proof.
move=> svdL c0 n0 k0 oQ E.
have [U [sg [Vh [e [E1 sv le h]]]]] := SVD1P svdL c0 n0 E.
have eq := leq_trans le (svd_top_le _ _ _).
exists e, (Q *m colblk U 0 e), (topv sg e), (rowblk Vh 0 e), (minn c n), U, sg, Vh.
split=> //.
- split.
  + by apply: orthonormalM => //; apply: orthonormal_colblk => //; exact: sv_U sv.
  + by rewrite -[Vh]trmxK -tr_colblk trmxK; apply: orthonormal_colblk => //; exact: sv_V sv.
  + move=> i; have lt := leq_trans (ltn_ord i) eq.
    by rewrite (topvE _ lt) -/(cut R) -(h (Ordinal lt)) //= (leq_trans _ le).
  by move=> i j ij; rewrite !(topvE _ (leq_trans (ltn_ord _) eq)) (sv_sort sv).
- by split; [exact: sv_eq sv | exact: sv_U sv | exact: sv_V sv | exact: sv_sort sv].
have topE i : (i < minn c n)%N -> (i < svd_top k over (minn c n))%N = ((0 < over) ==> (i < absz k)%N).
  move=> iq; rewrite /svd_top; case: (0 < over) => //=.
  by case: k k0 {E E1 le h} => // k' _; rewrite minEle; case: ifP => /= h; move: h iq; clear; lia.
split=> //.
- move=> o; have [e0|] := posnP e; first by rewrite e0.
  move=> e0; have lt : (e.-1 < minn c n)%N by rewrite prednK.
  by have := topE _ lt; rewrite o (_ : (_ < svd_top _ _ _)%N) ?prednK // => /esym.
- move=> i ei o; rewrite -/(cut R) ltNge -h; first by rewrite -leqNgt.
  by rewrite topE //; apply/implyP.
move=> ee; rewrite ee; have -> : colblk U 0 (minn c n) = U by rewrite colblk_full.
by rewrite /topv !rowblk_full (sv_eq sv) !mulmxA.
Qed.

(** With [B = Q'A] the error is exactly accounted for. *)
Lemma svd1_error (qb : qbdec) m n c (A : 'M[R]_(m, n)) (k : int) tol (over : int) (s s1 : st G R)
    (Q : 'M[R]_(m, c)) :
  svd_spec L -> (0 < c)%N -> (0 < n)%N -> orthonormal Q ->
  qb (ofmx A) (k + over) tol s = (s1, inr (ofmx Q, ofmx (Q^T *m A))) ->
  exists e (U : 'M[R]_(m, e)) (sg : 'cV[R]_e) (Vh : 'M[R]_(e, n)),
    [/\ SVD1 L qb (ofmx A) k tol over s = (s1, inr (ofmx U, ofcv sg, ofmx Vh)),
        U^T *m A *m Vh^T = diag_mx sg^T &
        fro2 (A - U *m diag_mx sg^T *m Vh) = fro2 A - fro2 sg].
Proof.
move=> svdL c0 n0 oQ E.
have [U [sg [Vh [e [E1 sv le h]]]]] := SVD1P svdL c0 n0 E.
have eq := leq_trans le (svd_top_le _ _ _).
exists e, (Q *m colblk U 0 e), (topv sg e), (rowblk Vh 0 e); split=> //;
by have [] := svd_trunc sv eq oQ erefl.
Qed.

End C13.
