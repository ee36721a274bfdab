(** SPO, SPU1: objective, exactness, log contents; wrap_up. *)
From mathcomp Require Import all_ssreflect all_algebra.
From mathcomp Require Import zify.
From Verif Require Import Base Arr Lapack Exact MxLib RingTac LapackSpec Rng Aware Pcg P_Pcg Lsqr P_Lsqr P_Iter.
From Verif Require Import Precond LstSq P_Precond P_Svd P_Pcss1 Chol P_LS.
Set Implicit Arguments.
Unset Strict Implicit.
Unset Printing Implicit Defensive.
Import Order.TTheory GRing.Theory Num.Theory.
Local Open Scope ring_scope.

Section LsqrPc.
Variable R : rcfType.

(** What the drivers need to know about an undamped LSQR call. *)
Lemma lsqr_pc m n (A : 'M[R]_(m, n)) op (b : 'cV[R]_m) (start : option 'cV[R]_n)
    (tol conlim : R) (lim : int) :
  let x0 := lsqr_x0 start in
  let call l := lsqr op (ofcv b) 0 tol tol conlim (Some l) false (omap (@ofcv R n) start) in
  lin_is op A -> 0 <= lim -> [\/ b != 0, start = None | b = A *m x0] ->
  exists out (x : 'cV[R]_n),
  [/\ call lim = Ok out, q_x out = ofcv x, fro2 (b - A *m x) <= fro2 (b - A *m x0),
      lim = 0 -> x = x0 &
  [/\ exists c, x - x0 = A^T *m c,
      tol <= 0 -> conlim_ok A 0 conlim -> (minn m n <= absz lim)%N -> A^T *m (b - A *m x) = 0,
      A^T *m (b - A *m x0) = 0 -> x = x0 /\ q_errs out = EScal 0 &
      A^T *m (b - A *m x0) <> 0 -> exists es, [/\ q_errs out = EArr es, (size es <= absz lim)%N,
        (size es <= minn m n)%N &
        forall i, (i < size es)%N -> exists out1 (x1 : 'cV[R]_n),
          [/\ call i%:Z = Ok out1, q_x out1 = ofcv x1 & nth 0 es i = fro (A^T *m (b - A *m x1))]]]].
Proof.
move=> x0 call opA l0 h.
have unf := lsqr_unfold opA b start 0 tol tol conlim false.
have lz : forall out x, call 0 = Ok out -> q_x out = ofcv x -> x = x0.
  move=> out x; rewrite /call unf /=; case: ifP => _ [<-] /=; last by move/ofcv_inj.
  by move/ofcv_inj.
have [bA|/eqP bA] := eqVneq b (A *m x0).
  have E : call lim = Ok (LsqrOut (ofcv x0) 0 0 0 0 0 0 (EScal 0) 0 (vzeros n)).
    by rewrite /call unf /= -/x0 -bA subrr fro0 eqxx.
  exists (LsqrOut (ofcv x0) 0 0 0 0 0 0 (EScal 0) 0 (vzeros n)), x0.
  split; rewrite -?bA ?subrr ?fro20 ?mulmx0 //; split=> //.
  by exists 0; rewrite mulmx0.
have bs : b != 0 \/ start = None by case: h => // ?; [left | right].
have [out [x [E ok _ alt]]] := lsqrP opA 0 tol tol conlim false (lim := Some lim) l0 bs.
have gE y : (Ab A 0)^T *m rb A b x0 0 y = A^T *m (b - A *m y).
  by rewrite Ab_rb expr0n /= scale0r subr0.
exists out, x; split=> //; first exact: lq_x ok.
- by move: (lq_le ok); rewrite -/x0 fro_le !fro2_rb expr0n /= !mul0r !addr0.
- by move=> lm; apply: lz (lq_x ok); rewrite -lm.
have [x' [x'E it1 it2 it3]] := lsqr_finite_lemma opA (lim := Some lim) l0 bs E.
have xx : x' = x by apply: (@ofcv_inj R); rewrite -x'E (lq_x ok).
rewrite xx in it3; split.
- exact: lq_rng ok.
- by move=> t0 cl le; have := it3 t0 t0 cl le; rewrite expr0n /= scale0r subr0.
- by rewrite -gE => g0; case: alt => [[_ -> _ _ ->]|[[/eqP]]].
rewrite -gE => g0; case: alt => [[]//|[_ [es [eE sz H]] _]].
exists es; split=> //; rewrite ?sz; try by case: (lq_itn ok).
move=> i; rewrite -sz => lt; have [o1 [x1 [E1 ok1 _ nE _]]] := H i lt.
by exists o1, x1; split=> //; [exact: lq_x ok1 | rewrite nE gE].
Qed.

End LsqrPc.

(** ** Preconditioning by a subspace embedding *)
Section Embed.
Variable R : rcfType.

(** [B] distorts the squared lengths of the columns' combinations of [A] by
    factors between [lo] and [hi]. *)
Definition embeds p q n (B : 'M[R]_(p, n)) (A : 'M[R]_(q, n)) (lo hi : R) : Prop :=
  forall v : 'cV[R]_n, lo * fro2 (A *m v) <= fro2 (B *m v) <= hi * fro2 (A *m v).

Lemma embeds_lift m d n (A : 'M[R]_(m, n)) (S : 'M[R]_(d, m)) lo hi dl
    p (Ab : 'M[R]_(p, n)) q (Ab' : 'M[R]_(q, n)) :
  0 <= dl -> lo <= 1 -> 1 <= hi -> embeds (S *m A) A lo hi ->
  lifted (S *m A) dl Ab -> lifted A dl Ab' -> embeds Ab Ab' lo hi.
Proof.
move=> d0 l1 h1 em lA lA' v; have /andP[e1 e2] := em v.
have f0 : 0 <= dl * fro2 v by rewrite mulr_ge0 ?fro2_ge0.
rewrite (lf_norm lA) (lf_norm lA') (mulrDr lo) (mulrDr hi) !ler_add //.
  by rewrite -[X in X <= _]mul1r ler_wpmul2r.
by rewrite -[X in _ <= X]mul1r ler_wpmul2r.
Qed.

(** Kernel inclusion gives row-space inclusion. *)
Lemma ker_sub p q n (B : 'M[R]_(p, n)) (A : 'M[R]_(q, n)) :
  (forall v : 'cV[R]_n, B *m v = 0 -> A *m v = 0) -> (A <= B)%MS.
Proof.
move=> H; rewrite submxE; apply/eqP/matrixP => i j.
have Bc : B *m col j (cokermx B) = 0 by rewrite colE mulmxA mulmx_coker mul0mx.
by have := H _ Bc; rewrite colE mulmxA -colE => /colP/(_ i); rewrite !mxE.
Qed.

Lemma embeds_sub p q n (B : 'M[R]_(p, n)) (A : 'M[R]_(q, n)) lo hi :
  0 < lo -> embeds B A lo hi -> (A <= B)%MS /\ (B <= A)%MS.
Proof.
move=> l0 em; split; apply: ker_sub => v E; apply/eqP; rewrite -fro2_eq0; have := em v.
  rewrite E fro20 => /andP[h _]; rewrite eq_le fro2_ge0 andbT.
  by move: h; rewrite pmulr_rle0.
by rewrite E fro20 !mulr0 => /andP[h1 h2]; rewrite eq_le h1 h2.
Qed.

Lemma fro2_cols m n (X : 'M[R]_(m, n)) : fro2 X = \sum_j fro2 (col j X).
Proof.
rewrite /fro2 exchange_big; apply: eq_bigr => j _; apply: eq_bigr => i _.
by rewrite big_ord1 mxE.
Qed.

Section Pc.
Variables (p q n k : nat) (B : 'M[R]_(p, n)) (A : 'M[R]_(q, n)) (M0 : 'M[R]_(n, k)) (lo hi : R).
Hypotheses (l0 : 0 < lo) (em : embeds B A lo hi) (oM : orthonormal (B *m M0)).

Lemma pc_bounds (v : 'cV[R]_k) :
  lo * fro2 (A *m M0 *m v) <= fro2 v /\ fro2 v <= hi * fro2 (A *m M0 *m v).
Proof.
have vE : fro2 (B *m (M0 *m v)) = fro2 v by rewrite mulmxA fro2_ortho.
by have /andP[] := em (M0 *m v); rewrite vE mulmxA.
Qed.

Lemma pc_fro2 : lo * fro2 (A *m M0) <= k%:R.
Proof.
rewrite fro2_cols mulr_sumr.
apply: (@le_trans _ _ (\sum_(j < k) 1)); last by rewrite sumr_const card_ord.
apply: ler_sum => j _; rewrite colE; apply: le_trans (pc_bounds _).1 _.
rewrite fro2_cv; rewrite trmx_delta mul_delta_mx mxE eqxx //=.
Qed.

Hypothesis (rng : exists W, M0 = B^T *m W).
Hypothesis (rk : \rank B = k).

Lemma pc_grad (r : 'cV[R]_q) : (A *m M0)^T *m r = 0 -> A^T *m r = 0.
Proof.
move=> g0; have [W WE] := rng; have [AB _] := embeds_sub l0 em.
have sub : (M0^T <= B)%MS by rewrite WE trmx_mul trmxK submxMl.
have rM : \rank M0 = k.
  apply/eqP; rewrite eqn_leq rank_leq_col -{1}(orthonormal_rank oM).
  exact: mxrankM_maxr.
have BM : (B <= M0^T)%MS by rewrite -(geq_leqif (mxrank_leqif_sup sub)) rk mxrank_tr rM.
have /submxP[D AE] := submx_trans AB BM.
have AtE : A^T = M0 *m D^T by rewrite AE trmx_mul trmxK.
have h0 : M0^T *m (A^T *m r) = 0 by rewrite mulmxA -trmx_mul.
apply/eqP; rewrite -fro2_eq0 fro2_cv {1}AtE -mulmxA trmx_mul -mulmxA h0 mulmx0 mxE.
exact: eqxx.
Qed.

Lemma pc_rng : exists W, M0 = A^T *m W.
Proof.
have [W WE] := rng; have [_ /submxP[D BE]] := embeds_sub l0 em.
by exists (D^T *m W); rewrite WE BE trmx_mul mulmxA.
Qed.

(** The default condition limit of LSQR cannot interfere. *)
Lemma pc_conlim cl : 0 < hi -> 1 <= cl -> (n ^ 2)%:R * hi < lo * (cl - 1) ^+ 2 ->
  conlim_ok (A *m M0) 0 cl /\ conlim_ok (A *m M0)^T 0 cl.
Proof.
move=> h0 c1 cnd; have e1 : (2%:R ^- 52 : R) <= 1.
  by rewrite invf_le1 ?exprn_gt0 ?ltr0n //; apply: exprn_ege1; rewrite ler1n.
have kn : (k <= n)%N by rewrite -(orthonormal_rank oM); apply: leq_trans (mxrankM_maxr _ _) (rank_leq_row _).
have key j : (j <= k)%N -> fro2 (A *m M0) *+ j < hi^-1 * (cl - 2%:R ^- 52) ^+ 2.
  move=> jk; apply: (@le_lt_trans _ _ (k%:R / lo *+ j)).
    by rewrite ler_wmuln2r // ler_pdivl_mulr // mulrC pc_fro2.
  apply: (@le_lt_trans _ _ ((n ^ 2)%:R / lo)).
    rewrite -mulrnAl ler_wpmul2r ?invr_ge0 ?(ltW l0) // -mulrnA ler_nat.
    by rewrite expnS expn1 leq_mul // (leq_trans jk).
  apply: (@lt_le_trans _ _ (hi^-1 * (cl - 1) ^+ 2)).
    by rewrite ltr_pdivr_mulr // -(ltr_pmul2l h0) mulrC -mulrA mulVKf ?gt_eqF // [X in _ < X]mulrC.
  by rewrite ler_wpmul2l ?invr_ge0 ?(ltW h0) // ler_pexpn2r ?nnegrE ?subr_ge0 // ?(le_trans e1) // ler_sub.
split; right; exists hi^-1; split; rewrite ?invr_ge0 ?(ltW h0) ?(le_trans e1) //.
- move=> c; set y := _ *m c; rewrite /= expr0n /= mul0r addr0.
  by rewrite -(ler_pmul2l h0) mulVKf ?gt_eqF //; exact: (pc_bounds y).2.
- by rewrite expr0n /= mul0rn addr0; apply: key; rewrite geq_minr.
- move=> c /=; rewrite trmxK expr0n /= mul0r addr0.
  rewrite -(ler_pmul2l h0) mulVKf ?gt_eqF //; set X := A *m M0; set y := X *m c.
  have [y0|yn0] := eqVneq (fro2 y) 0; first by rewrite y0 mulr_ge0 ?fro2_ge0 ?ltW.
  have yp : 0 < fro2 y by rewrite lt_neqAle eq_sym yn0 fro2_ge0.
  rewrite -(ler_pmul2l yp); have cs := fip_le c (X^T *m y).
  have yE : fip c (X^T *m y) = fro2 y by rewrite fro2_tr /fip mulmxA -trmx_mul.
  rewrite yE -expr2 in cs *; apply: (le_trans cs).
  by rewrite mulrA ler_wpmul2r ?fro2_ge0 // mulrC; exact: (pc_bounds c).2.
- by rewrite expr0n /= mul0rn addr0 fro2_trmx; apply: key; rewrite geq_minl.
Qed.
End Pc.
End Embed.
