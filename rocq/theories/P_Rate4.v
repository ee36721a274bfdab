(** Proofs of C90: the convergence rates of SPU1, SPS1 and SPS2. *)
From mathcomp Require Import all_ssreflect all_algebra.
From mathcomp Require Import zify.
From Verif Require Import Base Arr Lapack Exact MxLib RingTac LapackSpec Rng Aware LapackExists Pcg P_Pcg P_Pcg2 Lsqr P_Lsqr P_Iter P_Iter2.
From Verif Require Import Precond LstSq SaddleSys P_Precond P_Svd P_Pcss1 Chol P_LS P_LS2 P_LS3 P_LS4 P_LS5 P_LS6 P_LS7.
From Verif Require Import P_Rate P_Rate2 P_Rate3.
Set Implicit Arguments.
Unset Strict Implicit.
Unset Printing Implicit Defensive.
Import Order.TTheory GRing.Theory Num.Theory.
Local Open Scope ring_scope.

Section Mx.
Variable R : rcfType.

Lemma dot_le n (x y : 'cV[R]_n) : dot x y ^+ 2 <= fro2 x * fro2 y.
Proof. by rewrite /dot (_ : (x^T *m y) 0 0 = fip x y) ?fip_le // /fip /mxtrace big_ord1. Qed.

(** Bounds of a matrix hold for its transpose on its range. *)
Lemma tr_bnd q k (B : 'M[R]_(q, k)) (mu L : R) : 0 <= mu -> 0 <= L ->
  (forall v : 'cV[R]_k, mu * fro2 v <= fro2 (B *m v) <= L * fro2 v) ->
  forall v : 'cV[R]_k, let w := B *m v in mu * fro2 w <= fro2 (B^T *m w) <= L * fro2 w.
Proof.
move=> mu0 L0 bnd v; cbv zeta; set w := B *m v.
have w0 := fro2_ge0 w; have g0 := fro2_ge0 (B^T *m w).
have up : fro2 (B^T *m w) <= L * fro2 w.
  have [->|gn] := eqVneq (fro2 (B^T *m w)) 0; first exact: mulr_ge0.
  have gp : 0 < fro2 (B^T *m w) by rewrite lt_neqAle eq_sym gn.
  have gE : fro2 (B^T *m w) = dot w (B *m (B^T *m w)) by rewrite dotM dotxx.
  rewrite -(ler_pmul2l gp) -expr2 {1}gE; apply: le_trans (dot_le _ _) _.
  rewrite mulrA mulrC ler_wpmul2r // mulrC; by have /andP[] := bnd (B^T *m w).
rewrite up andbT.
have [->|wn] := eqVneq (fro2 w) 0; first by rewrite mulr0.
have wp : 0 < fro2 w by rewrite lt_neqAle eq_sym wn.
have wE : fro2 w = dot (B^T *m w) v by rewrite -dotxx {2}/w dotM.
rewrite -(ler_pmul2l wp) mulrCA -expr2 {1}wE dotC.
apply: le_trans (ler_wpmul2l mu0 (dot_le _ _)) _; rewrite mulrA ler_wpmul2r //.
by have /andP[] := bnd v.
Qed.

Lemma tr_unitB q k (B : 'M[R]_(q, k)) (y : 'cV[R]_q) (mu : R) : 0 < mu ->
  (forall v : 'cV[R]_k, mu * fro2 v <= fro2 (B *m v)) -> B *m (B^T *m y) = 0 -> B^T *m y = 0.
Proof.
move=> mu0 bnd e; have := bnd (B^T *m y); rewrite e fro20 pmulr_rle0 // => h.
by apply/eqP; rewrite -fro2_eq0 eq_le h fro2_ge0.
Qed.
End Mx.

(** ** SPU1 *)
Section Spu.
Variables (R : rcfType) (G : Type) (L : lapack R).
Variables (g : nat -> nat -> M G R (pyop R)) (sf : rat) (m n : nat).
Variables (A : 'M[R]_(m, n)) (c : 'cV[R]_n) (tol : R).
Hypotheses (ok : lsq_ok g sf m n) (svd : svd_spec L).
Notation call lim logging clk s := (SPU1 L g sf (ofmx A) (ofcv c) tol lim logging clk s).

(** The minimum-norm least squares solution of [A^T y = c]. *)
Lemma spu_min (ys : 'cV[R]_m) : ridge_min A^T c 0 ys -> A *m (c - A^T *m ys) = 0 /\ exists w, ys = A *m w.
Proof.
move=> mn; have [op opA] : exists op, lin_is op A^T.
  by have [m' [Ab' [op [[opE opM _ aE mE] _]]]] := a_lift_precondP A^T (lexx 0) (is_pc_dense (1%:M : 'M[R]_m));
     exists op; move: opM; rewrite ltxx in mE; subst m'; move: aE;
     rewrite sqrtr0 /a_lift /= eqxx => e; rewrite -(ofmx_inj (ok_inj e : ofmx _ = ofmx _)) mulmx1.
have [y [w [yE g0]]] := lsq_sol opA (b := c) (start := None) 0 (or_intror erefl).
rewrite expr0n /= scale0r subr0 in g0; rewrite /lsqr_x0 subr0 in yE.
have mn' := ridge_minP (lifted0 _) (lifted0_b _ _) g0 yE.
rewrite (ridge_min_uniq (lexx 0) mn mn'); split; first by move: g0; rewrite trmxK.
by exists w; rewrite yE trmxK.
Qed.

Section Call.
Variables (d : nat) (Sm : 'M[R]_(d, m)) (k : nat) (M0 : 'M[R]_(n, k)) (op : linop R).
Hypotheses (su : svd_setup L (Sm *m A) M0) (opA : lin_is op (A *m M0)).
Variables (lo hi : R).
Hypotheses (em : embeds (Sm *m A) A lo hi) (lo0 : 0 < lo <= hi) (cl : svd_clean L (Sm *m A)).

Lemma spu_call_rate (lim : int) q (y ys : 'cV[R]_m) : 0 <= lim ->
  spu_call c tol M0 op lim = Ok q -> q_x q = ofcv y -> ridge_min A^T c 0 ys ->
  lo * fro2 (y - ys) <= hi * (cheb lo hi (errs_n (q_errs q)) ^+ 2 * fro2 ys) /\
  (tol <= 0 -> (n ^ 2)%:R * hi < lo * (10%:R ^+ 8 - 1) ^+ 2 ->
   lo * fro2 (y - ys) <= hi * (cheb lo hi (absz lim) ^+ 2 * fro2 ys)).
Proof.
move=> lim0 E yE mn; have /andP[l0 lh] := lo0; have h0 : 0 < hi := lt_le_trans l0 lh.
have muL : 0 <= hi^-1 <= lo^-1 by rewrite invr_ge0 ltW //= lef_pinv ?posrE.
have L0 : 0 < lo^-1 by rewrite invr_gt0.
have m0 : 0 < hi^-1 by rewrite invr_gt0.
pose B := A *m M0.
have bnd (v : 'cV[R]_k) : hi^-1 * fro2 v <= fro2 (B *m v) <= lo^-1 * fro2 v :=
  pc_rate_bnd v l0 h0 em (ss_orth su).
have tb := tr_bnd (ltW m0) (ltW L0) bnd.
have bnd' (c' : 'cV[R]_k) : let w := (B^T)^T *m c' in hi^-1 * fro2 w <= fro2 (B^T *m w) <= lo^-1 * fro2 w.
  by rewrite trmxK; exact: tb.
have [s1 [ws ysE]] := spu_min mn.
have [W WE] := ss_rng su.
have r0 : M0^T *m (c - A^T *m ys) = 0.
  by rewrite WE !trmx_mul !trmxK -!mulmxA s1 !mulmx0.
have gE (v : 'cV[R]_m) : M0^T *m c - B^T *m v = B^T *m (ys - v).
  have -> : M0^T *m c = B^T *m ys.
    by apply/eqP; rewrite -subr_eq0 -[X in _ == X]r0 /B trmx_mul mulmxBr -mulmxA.
  by rewrite mulmxBr.
have rngB (x : 'cV[R]_n) : exists v, A *m x = B *m v.
  have sub : (M0^T <= Sm *m A)%MS by rewrite WE trmx_mul trmxK submxMl.
  have rM : \rank M0 = k.
    apply/eqP; rewrite eqn_leq rank_leq_col -{1}(orthonormal_rank (ss_orth su)).
    exact: mxrankM_maxr.
  have BM : (Sm *m A <= M0^T)%MS by rewrite -(geq_leqif (mxrank_leqif_sup sub)) (ss_rank su cl) mxrank_tr rM.
  have [AB _] := embeds_sub l0 em; have /submxP[D AE] := submx_trans AB BM.
  have uN : M0^T *m M0 \in unitmx by apply: gram_unit.
  exists (invmx (M0^T *m M0) *m (M0^T *m x)).
  by rewrite /B AE -!mulmxA [M0^T *m (M0 *m _)]mulmxA mulKVmx.
have [q' [y' [E' yE' _ _ [[w wE] _ _ _]]]] :=
  lsqr_pc tol conlim_dflt (b := M0^T *m c) (start := None) (lo_trP opA) lim0 (Or32 _ _ erefl).
move: E'; rewrite -[lsqr _ _ _ _ _ _ _ _ _]/(spu_call c tol M0 op lim) E => -[qq].
have {q' qq yE'} yy : y' = y by apply: (@ofcv_inj R); rewrite -yE' -qq.
subst y'; move: wE; rewrite /lsqr_x0 subr0 trmxK -/B => yB.
have [vs vsE] := rngB ws; rewrite -ysE in vsE.
have H1 : fro2 (B^T *m (ys - y)) >= hi^-1 * fro2 (y - ys).
  have -> : fro2 (y - ys) = fro2 (ys - y) by rewrite -opprB fro2N.
  have -> : ys - y = B *m (vs - w) by rewrite mulmxBr -vsE -yB.
  by have /andP[] := tb (vs - w).
have H2 : fro2 (B^T *m ys) <= lo^-1 * fro2 ys by rewrite vsE; have /andP[] := tb vs.
have [F1 F2] := lsqr_pc_rate (lo_trP opA) lim0 (Or32 _ _ erefl) muL L0 bnd' E yE.
have fin i : (forall z, fro2 (M0^T *m c - B^T *m y) <= fro2 (M0^T *m c - B^T *m z) + cheb hi^-1 lo^-1 i ^+ 2 *
     (fro2 (M0^T *m c - B^T *m lsqr_x0 None) - fro2 (M0^T *m c - B^T *m z))) ->
   lo * fro2 (y - ys) <= hi * (cheb lo hi i ^+ 2 * fro2 ys).
  move=> /(_ ys); rewrite !gE /lsqr_x0 subrr subr0 mulmx0 fro20 add0r subr0 cheb_inv // => h.
  have := le_trans H1 (le_trans h (ler_wpmul2l (sqr_ge0 _) H2)).
  by rewrite ler_pdivr_mull // [_ * (lo^-1 * _)]mulrCA [hi * (lo^-1 * _)]mulrCA ler_pdivl_mull.
split; first exact: fin.
move=> t0 cnd; apply: fin; apply: F2 => //.
have clE : conlim_dflt = 10%:R ^+ 8 :> R by rewrite /conlim_dflt onatE opowE.
have c1 : 1 <= conlim_dflt :> R by rewrite clE exprn_ege1 // ler1n.
by have [_] := pc_conlim l0 em (ss_orth su) h0 c1 (eq_ind_r (fun t => _ < lo * (t - 1) ^+ 2) cnd clE).
Qed.
End Call.

Lemma spu_rate_lemma lim lg clk s s' y l : 0 <= lim -> call lim lg clk s = (s', inr (y, l)) ->
  exists d (Sm : 'M[R]_(d, m)) (yv : 'cV[R]_m) k,
  [/\ drew g sf n s s' Sm, y = ofcv yv, lg -> exists es, errors l = Some es /\ size es = k.+1 &
  forall lo hi ys, embeds (Sm *m A) A lo hi -> 0 < lo <= hi -> svd_clean L (Sm *m A) -> ridge_min A^T c 0 ys ->
    lo * fro2 (yv - ys) <= hi * (cheb lo hi k ^+ 2 * fro2 ys) /\
    (tol <= 0 -> (n ^ 2)%:R * hi < lo * (10%:R ^+ 8 - 1) ^+ 2 ->
     lo * fro2 (yv - ys) <= hi * (cheb lo hi (absz lim) ^+ 2 * fro2 ys))].
Proof.
move=> l0; have [d [s1 [Sk [Sm [k [M0 [[dE gE] pS su bad good]]]]]]] :=
  spu1_run A c tol svd s (lk_shape ok) (lk_sf ok) (lk_gen ok).
have [c0|/eqP c0] := eqVneq c 0; first by rewrite bad.
have [op [opA run]] := good c0.
have [q [yv [E yE _ _ [_ e0 e1]]]] := spu_callP c tol su opA l0.
rewrite (run lim lg clk _ _ E yE) => e; have e' := log_ret_inv e.
exists d, Sm, yv, (errs_n (q_errs q)); split.
- by case: e' => <- _; split=> //; exists Sk.
- by case: e' => _ <-.
- move=> lgE; move: e; rewrite lgE.
  have [/eqP g0|/eqP g0] := boolP (A *m M0 *m (M0^T *m (c - A^T *m 0)) == 0).
    by have [_ ->] := e0 g0.
  have [es [-> _ _ _]] := e1 g0 => -[_ _ <-].
  by eexists; split; first reflexivity.
by move=> lo hi ys em h cl mn; apply: (spu_call_rate su opA em h cl l0 E yE mn).
Qed.
End Spu.

(** ** SPS2 *)
Section Sps2.
Variables (R : rcfType) (G : Type) (L : lapack R).
Variables (g : nat -> nat -> M G R (pyop R)) (sf : rat) (m n : nat).
Variables (A : 'M[R]_(m, n)) (b : option 'cV[R]_m) (c : option 'cV[R]_n) (dl tol : R).
Hypotheses (ok : lsq_ok g sf m n) (svd : svd_spec L) (dl0 : 0 <= dl).
Local Notation b0 := (vdef b).
Local Notation c0 := (vdef c).
Notation call lim logging clk s := (SPS2 L g sf (@PcSS2 R (rcf_ops R)) (ofmx A) (omap (@ofcv R m) b)
  (omap (@ofcv R n) c) dl tol lim logging clk s).
(** Squared error in the norm of the saddle point system. *)
Definition serr (xs x : 'cV[R]_n) : R := fro2 (A *m (x - xs)) + dl * fro2 (x - xs).

Section Call.
Variables (d : nat) (Sm : 'M[R]_(d, m)) (p : nat) (As : 'M[R]_(p, n)) (k : nat) (M0 : 'M[R]_(n, k)).
Variables (Vh : 'M[R]_(k, n)) (m' : nat) (Ab : 'M[R]_(m', n)) (Sg : 'M[R]_(p, m')) (ba : 'cV[R]_m').
Variables (start : option 'cV[R]_k).
Hypotheses (su : sps2_setup L A b c dl Sm As M0 Vh Ab Sg ba start).

Lemma sps2_call_rate (lim : int) : 0 <= lim -> exists out (x : 'cV[R]_n),
  [/\ sps2_call tol M0 Ab ba start lim = Ok out, o_x out = Some (ofcv x) &
  forall lo hi xs, embeds (Sm *m A) A lo hi -> 0 < lo <= 1 -> 1 <= hi -> svd_clean L As ->
    saddle A b0 c0 dl xs (b0 - A *m xs) ->
    serr xs x <= cheb lo hi (errs_n (o_errs out)) ^+ 2 * serr xs (M0 *m lsqr_x0 start) /\
    (tol <= 0 -> (n ^ 2)%:R * hi < lo * (10%:R ^+ 8 - 1) ^+ 2 ->
     serr xs x <= cheb lo hi (absz lim) ^+ 2 * serr xs (M0 *m lsqr_x0 start))].
Proof.
move=> lim0.
have [m1 [Ab1 [op [[opE opM _ aE mE] bbE]]]] := a_lift_precondP Ab (lexx 0) (is_pc_dense M0).
rewrite ltxx in mE; subst m1.
have AbE : Ab1 = Ab.
  by move: aE; rewrite sqrtr0 /a_lift /= eqxx => e; rewrite -(ofmx_inj (ok_inj e : ofmx _ = ofmx _)).
subst Ab1.
have acc : [\/ ba != 0, start = None | ba = (Ab *m M0) *m lsqr_x0 start].
  have := s2_st su => /=; case: ifP => h ->; first by constructor 2.
  by constructor 1; apply: contraFneq h => ->; rewrite fro0 fro_ge0.
have pok i q z := (pcss2_over (A := Ab) (b := ba) (is_pc_dense M0) (c := None) isT tol i start opE (lifted0_b Ab ba)).2 q z.
have [q [w [E xE _ _ _]]] := lsqr_pc tol conlim_dflt opM lim0 acc.
exists (SOut (Some (ofcv (M0 *m w))) (ofcv (ba - Ab *m (M0 *m w))) (q_errs q) (ofmx M0)), (M0 *m w).
split=> //; first exact: pok E xE.
move=> lo hi xs em /andP[l0 l1] h1 cl /saddleP xsE.
have h0 : 0 < hi by apply: lt_le_trans ltr01 h1.
have em' := embeds_lift dl0 l1 h1 em (s2_l su) (s2_l' su).
have lh : lo <= hi by apply: le_trans l1 h1.
have muL : 0 <= hi^-1 <= lo^-1 by rewrite invr_ge0 ltW //= lef_pinv ?posrE.
have L0 : 0 < lo^-1 by rewrite invr_gt0.
have oM := ss_orth (s2_ss su); have rM := ss_rng (s2_ss su); have kr := ss_rank (s2_ss su) cl.
have bnd (c' : 'cV[R]_m') : let y := (Ab *m M0)^T *m c' in
    hi^-1 * fro2 y <= fro2 (Ab *m M0 *m y) <= lo^-1 * fro2 y.
  by move=> y; exact: pc_rate_bnd em' oM.
have [z [c1 [_ g0]]] := lsq_sol opM (b := ba) (start := None) 0 (or_intror erefl).
rewrite expr0n /= scale0r subr0 in g0.
have := pc_grad l0 em' oM rM kr g0; rewrite -mulmxA => g1.
(* c is in the row space of the sketch *)
have [e' cE] : exists e', c0 = As^T *m e'.
  have [/submxP[D AE] _] := embeds_sub l0 em'.
  have AtE : A^T *m b0 = Ab^T *m (ba - ba) + A^T *m b0 by rewrite subrr mulmx0 add0r.
  have -> : c0 = A^T *m b0 - (A^T *m A + dl%:M) *m xs by rewrite xsE opprB addrC subrK.
  rewrite -(lf_gram (s2_l' su)).
  have [f fE] : exists f, A^T = Ab^T *m f.
    have : (A <= Ab)%MS.
      apply: ker_sub => v v0; apply/eqP; rewrite -fro2_eq0 eq_le fro2_ge0 andbT.
      have := lf_norm (s2_l' su) v; rewrite v0 fro20 => ->.
      by rewrite ler_addl mulr_ge0 ?fro2_ge0.
    by move=> /submxP[F {1}->]; exists F^T; rewrite trmx_mul.
  exists (D^T *m (f *m b0 - Ab *m xs)).
  by rewrite fE {1 2}AE !trmx_mul -!mulmxA -!mulmxBr.
have NE : Ab^T *m ba = A^T *m b0 - c0 by rewrite (s2_b su) {1}cE (s2_V su _ cl) -cE.
have g2 : Ab^T *m (Ab *m (M0 *m z)) = Ab^T *m ba.
  by apply/esym/eqP; rewrite -subr_eq0 -mulmxBr g1.
have Dk : Ab *m (M0 *m z - xs) = 0.
  apply/eqP; rewrite -fro2_eq0 fro2_cv trmx_mul -mulmxA [Ab *m (_ - _)]mulmxBr [Ab^T *m (_ - _)]mulmxBr g2.
  have -> : Ab^T *m (Ab *m xs) = Ab^T *m ba by rewrite mulmxA (lf_gram (s2_l' su)) xsE NE.
  by rewrite subrr mulmx0 mxE.
have oE (v : 'cV[R]_k) : fro2 (ba - Ab *m M0 *m v) = fro2 (ba - Ab *m M0 *m z) + serr xs (M0 *m v).
  rewrite /serr -(lf_norm (s2_l' su)).
  have -> : Ab *m (M0 *m v - xs) = Ab *m (M0 *m (v - z)).
    have -> : M0 *m v - xs = M0 *m (v - z) + (M0 *m z - xs) by rewrite mulmxBr addrA subrK.
    by rewrite mulmxDr Dk addr0.
  have -> : ba - Ab *m M0 *m v = (ba - Ab *m M0 *m z) - Ab *m (M0 *m (v - z)).
    by rewrite mulmxBr mulmxBr !mulmxA opprB addrA subrK.
  rewrite fro2B; have -> : fip (ba - Ab *m M0 *m z) (Ab *m (M0 *m (v - z))) = 0.
    by rewrite fipC /fip trmx_mul -[Ab *m M0 *m z]mulmxA -mulmxA g1 mulmx0 raddf0.
  by rewrite mulr0 subr0.
have s0 : serr xs (M0 *m z) = 0.
  by rewrite /serr -(lf_norm (s2_l' su)) Dk fro20.
have [F1 F2] := lsqr_pc_rate opM lim0 acc muL L0 bnd E xE.
have fin i : (forall z, fro2 (ba - Ab *m M0 *m w) <= fro2 (ba - Ab *m M0 *m z) + cheb hi^-1 lo^-1 i ^+ 2 *
     (fro2 (ba - Ab *m M0 *m lsqr_x0 start) - fro2 (ba - Ab *m M0 *m z))) ->
   serr xs (M0 *m w) <= cheb lo hi i ^+ 2 * serr xs (M0 *m lsqr_x0 start).
  move=> /(_ z); rewrite [fro2 (ba - Ab *m M0 *m w)]oE [fro2 (ba - Ab *m M0 *m lsqr_x0 _)]oE cheb_inv //.
  by rewrite ler_add2l addrAC subrr add0r.
split; first exact: fin.
move=> t0 cnd; apply: fin; apply: F2 => //.
have clE : conlim_dflt = 10%:R ^+ 8 :> R by rewrite /conlim_dflt onatE opowE.
have cl1 : 1 <= conlim_dflt :> R by rewrite clE exprn_ege1 // ler1n.
by have [] := pc_conlim l0 em' oM h0 cl1 (eq_ind_r (fun t => _ < lo * (t - 1) ^+ 2) cnd clE).
Qed.
End Call.

Lemma sps2_rate_lemma lim lg clk s s' x y l : 0 <= lim -> call lim lg clk s = (s', inr (x, y, l)) ->
  exists d (Sm : 'M[R]_(d, m)) (xv x0 : 'cV[R]_n) k,
  [/\ drew g sf n s s' Sm, x = ofcv xv /\ y = ofcv (b0 - A *m xv),
      forall clk, call 0 false clk s = (s', inr (ofcv x0, ofcv (b0 - A *m x0), log_of false clk)),
      lg -> exists es, errors l = Some es /\ size es = k.+1 &
  forall lo hi xs, embeds (Sm *m A) A lo hi -> 0 < lo <= 1 -> 1 <= hi -> lift_clean L dl (Sm *m A) ->
    saddle A b0 c0 dl xs (b0 - A *m xs) ->
    serr xs xv <= cheb lo hi k ^+ 2 * serr xs x0 /\
    (tol <= 0 -> (n ^ 2)%:R * hi < lo * (10%:R ^+ 8 - 1) ^+ 2 ->
     serr xs xv <= cheb lo hi (absz lim) ^+ 2 * serr xs x0)].
Proof.
move=> l0.
have [d [s1 [Sk [Sm [dE gE pS [p [As [k [M0 [Vh [m' [Ab [Sg [ba [start [su run]]]]]]]]]]]]]]]] :=
  sps2_run A b c tol svd (@PcSS2 R (rcf_ops R)) s (lk_shape ok) (lk_sf ok) (lk_gen ok) dl0.
have [out [xv [E [xE RE] _ _ [_ e0 e1]]]] := sps2_callP tol su dl0 l0.
have [out0 [x0 [E0 [xE0 RE0] _ /(_ erefl) z0 _]]] := sps2_callP tol su dl0 (lexx 0).
rewrite (run lim lg clk _ _ E xE RE) => e; have e' := log_ret_inv e.
exists d, Sm, xv, (M0 *m lsqr_x0 start), (errs_n (o_errs out)); split.
- by case: e' => <- _; split=> //; exists Sk.
- by case: e' => _ [<- <-].
- by move=> clk'; rewrite (run 0 false clk' _ _ E0 xE0 RE0) -z0; case: e' => <- _.
- move=> lgE; move: e; rewrite lgE; move: e0 e1; set ng := (M0^T *m _) => e0 e1.
  have [g0|/eqP g0] := eqVneq ng 0; first by have [_ ->] := e0 g0.
  by have [es [-> _ _ _]] := e1 g0 => -[_ _ _ <-]; eexists; split; first reflexivity.
move=> lo hi xs em lo1 hi1 cl sd.
have [out' [x' [E' xE' H]]] := sps2_call_rate su l0.
have oo : out' = out by move: E'; rewrite E => -[].
have xx : x' = xv by apply: (@ofcv_inj R); move: xE'; rewrite oo xE => -[].
move: H; rewrite oo xx => H; apply: H => //.
by move=> U0 s0 Vh0; exact: cl _ _ _ _ (s2_a su).
Qed.
End Sps2.

(** ** SPS1 *)
Section Sps1.
Variables (R : rcfType) (G : Type) (L : lapack R).
Variables (g : nat -> nat -> M G R (pyop R)) (sf : rat) (m n : nat).
Variables (A : 'M[R]_(m, n)) (b : option 'cV[R]_m) (c : option 'cV[R]_n) (dl tol : R).
Hypotheses (svd : svd_spec L).
Hypotheses (hA : \rank A = n \/ 0 < dl) (dl0 : 0 <= dl) (tol0 : 0 <= tol).
Local Notation b0 := (vdef b).
Local Notation c0 := (vdef c).
Let H := A^T *m A + dl%:M.
Let rhs := A^T *m b0 - c0.
Let t := trunc_rat (sf * n%:R).
Notation call strat lim logging clk s := (SPS1 L g sf (@PcSS1 R (rcf_ops R)) strat (ofmx A) (omap (@ofcv R m) b)
  (omap (@ofcv R n) c) dl tol lim logging clk s).

Lemma serrE (xs x : 'cV[R]_n) : serr A dl xs x = energy H xs x.
Proof.
rewrite /serr /energy /H; move: (x - xs) => v.
by rewrite mulmxDl mul_scalar_mx dotDr dotZr dotxx -mulmxA dotM trmxK dotxx.
Qed.

(** The rate of PcSS1 with a preconditioner of full rank. *)
Lemma pcss1_rate lim (M0 : 'M[R]_n) (zo : option 'cV[R]_n) (mu Lh : R) out : \rank M0 = n ->
  0 <= mu <= Lh -> 0 < Lh ->
  (forall e : 'cV[R]_n, let g := H *m e in mu * dot e g <= fro2 (M0^T *m g) <= Lh * dot e g) ->
  PcSS1 (ofmx A) (Some (ofcv b0)) (omap (@ofcv R n) c) dl tol lim (ofmx M0) false (omap (@ofcv R n) zo) = Ok out ->
  exists (x : 'cV[R]_n) es, [/\ o_x out = Some (ofcv x), o_errs out = EArr es &
    forall xs, H *m xs = rhs ->
    serr A dl xs x <= cheb mu Lh (size es) ^+ 2 * serr A dl xs (if zo is Some z then M0 *m z else 0)].
Proof.
move=> rM muL L0 bnd.
rewrite (@pcss1_pcg R m n A (Some b0) c dl tol lim n M0 zo None (ofmx M0)) ?eqxx //.
set x0 := (if zo is Some z then M0 *m z else 0) => E0; case: (rbind_inv E0) => -[x es] [E {}E0].
have [y [_ xE _ _ _]] := pcg_log_lemma (mv_gramE A dl) (pre_fullE M0) E.
subst x; move: E0; rewrite mvE [rbind (Ok _) _]/= vsubE => -[<-].
exists y, es; split=> // xs xsE.
have pH : spd H := gram_spd dl0 hA.
have pP : spd (M0 *m M0^T) by apply: pre_full_spd; apply/full_col_unit.
have bnd' (e : 'cV[R]_n) : let g := H *m e in mu * dot e g <= dot g (M0 *m M0^T *m g) <= Lh * dot e g.
  by move=> gg; rewrite -mulmxA dotM dotxx; exact: bnd.
have := pcg_rate_lemma (mv_gramE A dl) (pre_fullE M0) pH pP tol0 muL L0 bnd' E.
have -> : invmx (A^T *m A + dl%:M) *m (A^T *m vdef (Some b0) - c0) = xs.
  by rewrite -[A^T *m vdef _ - _]/rhs -xsE mulKmx // spd_unit.
by rewrite !serrE.
Qed.

Lemma sps1_rate_lemma strat lim lg clk s s' x y l : (0 < n)%N -> n%:R < 2%:R ^+ 52 :> R -> n%:Z <= t ->
  strat <> NOther -> gen_ok g (absz t) m -> 0 <= lim ->
  call strat lim lg clk s = (s', inr (x, y, l)) ->
  exists Sk (Sm : 'M[R]_(absz t, m)),
  [/\ g (absz t) m (St (gen s) (rcons (evs s) (EvDraw (absz t) m))) = (s', inr Sk), py_is Sk Sm &
  \rank (Sm *m A) = n \/ 0 < dl -> lift_clean L dl (Sm *m A) ->
  exists (xv x0 : 'cV[R]_n) k,
  [/\ x = Some (ofcv xv) /\ y = ofcv (b0 - A *m xv),
      forall clk, call strat 0 false clk s = (s', inr (Some (ofcv x0), ofcv (b0 - A *m x0), log_of false clk)),
      lg -> exists es, errors l = Some es /\ size es = k.+1 &
  forall lo hi xs, embeds (Sm *m A) A lo hi -> 0 < lo <= 1 -> 1 <= hi ->
    saddle A b0 c0 dl xs (b0 - A *m xs) ->
    serr A dl xs xv <= cheb lo hi k ^+ 2 * serr A dl xs x0 /\
    (tol = 0 -> serr A dl xs xv <= cheb lo hi (absz lim) ^+ 2 * serr A dl xs x0)]].
Proof.
move=> n0 n52 nt sO gok l0.
have [s1 [Sk [Sm [p [As [k [M0 [U [sg [Vh [zo [[gE pS] [lA aE] [sp ss] gp [zE run]]]]]]]]]]]]] :=
  sps1_full A b c tol svd (@PcSS1 R (rcf_ops R)) s n0 nt dl0 sO gok.
have drE : s' = s1 -> g (absz t) m (St (gen s) (rcons (evs s) (EvDraw (absz t) m))) = (s', inr Sk) by move=> ->.
rewrite run => E; have s1E : s1 = s' by case: E.
exists Sk, Sm; split=> //; first exact: drE.
move=> h cl.
have cl' : svd_clean L As by move=> U0 s0 Vh0; exact: cl _ _ _ _ aE.
have rkn : \rank As = n by apply/(lifted_rank dl0 lA).
have kn : k = n by rewrite -(ss_rank ss).
have oM := ss_orth ss.
have run' lim' lg' clk' := run lim' lg' clk'.
clear run gp zE sp ss drE; subst k.
have rM : \rank M0 = n.
  apply/eqP; rewrite eqn_leq rank_leq_col -{1}(orthonormal_rank oM).
  exact: mxrankM_maxr.
have gp : good_pc M0 by left.
pose x0 : 'cV[R]_n := if zo is Some z then M0 *m z else 0.
have [xv [es [P' [E1 sz _ ex]]]] := @pcss1_good R m n A (Some b0) c dl tol lim n M0 zo dl0 hA gp l0 tol0.
have [xv' [es' [xx ee _ _ st]]] := @pcss1_log R m n A (Some b0) c dl tol lim n M0 zo _ (or_intror gp) dl0 E1.
case: xx => /ofcv_inj xx; case: ee => ee; subst xv' es'.
have sl : (size es <= absz lim)%N.
  by have [_ [? [_ _ [es' [[<-] //]]]]] := @pcss1_y R m n A (Some b0) c dl tol lim _ _ _ _ E1.
have [x1 [es1 [P1 [E0 sz0 _ _]]]] := @pcss1_good R m n A (Some b0) c dl tol 0 n M0 zo dl0 hA gp (lexx 0) tol0.
have [x1' [es1' [xx ee _ nil _]]] := @pcss1_log R m n A (Some b0) c dl tol 0 n M0 zo _ (or_intror gp) dl0 E0.
case: xx => /ofcv_inj xx; case: ee => ee; subst x1' es1'.
have sl0 : es1 = [::].
  have [_ [? [_ _ [es' [[<-] le]]]]] := @pcss1_y R m n A (Some b0) c dl tol 0 _ _ _ _ E0.
  by move: le; rewrite leqn0 size_eq0 => /eqP.
have {nil} x1E : x1 = x0 by rewrite (nil sl0) eqxx.
move: E; rewrite E1 /sps_ret => E; have [_ [xE yE]] := log_ret_inv E.
exists xv, x0, (size es); split.
- by rewrite -xE -yE.
- by move=> clk'; rewrite run' E0 s1E -x1E.
- by move=> lgE; move: E; rewrite lgE => -[_ _ _ <-]; eexists; split; first reflexivity.
move=> lo hi xs em /andP[lo0 lo1] hi1 /saddleP xsE.
have h0 : 0 < hi by apply: lt_le_trans ltr01 hi1.
have lh : lo <= hi by apply: le_trans lo1 hi1.
have muL : 0 <= hi^-1 <= lo^-1 by rewrite invr_ge0 ltW //= lef_pinv ?posrE.
have L0 : 0 < lo^-1 by rewrite invr_gt0.
have [p' [Ab [_ [[_ _ lA' _ _] _]]]] := a_lift_precondP A dl0 (is_pc_dense (0 : 'M[R]_(n, 0))).
have em' := embeds_lift dl0 lo1 hi1 em lA lA'.
have bB (v : 'cV[R]_n) : hi^-1 * fro2 v <= fro2 (Ab *m M0 *m v) <= lo^-1 * fro2 v :=
  pc_rate_bnd v lo0 h0 em' oM.
have m0 : 0 <= hi^-1 by rewrite invr_ge0 ltW.
have bnd (e : 'cV[R]_n) : let g := H *m e in hi^-1 * dot e g <= fro2 (M0^T *m g) <= lo^-1 * dot e g.
  have uM : M0 \in unitmx by apply/full_col_unit.
  cbv zeta; rewrite /H -(lf_gram lA').
  have -> : dot e (Ab^T *m Ab *m e) = fro2 (Ab *m M0 *m (invmx M0 *m e)).
    by rewrite -mulmxA dotM trmxK dotxx -mulmxA mulKVmx.
  have -> : M0^T *m (Ab^T *m Ab *m e) = (Ab *m M0)^T *m (Ab *m M0 *m (invmx M0 *m e)).
    by rewrite -[Ab *m M0 *m _]mulmxA mulKVmx // trmx_mul -!mulmxA.
  exact: tr_bnd m0 (ltW L0) bB _.
have [xv' [es' [xx ee Hr]]] := pcss1_rate rM muL L0 bnd E1.
case: xx => /ofcv_inj xx; case: ee => ee; subst xv' es'.
have := Hr xs xsE; rewrite cheb_inv // -/x0 => {}Hr.
split=> // t0; move: sl; rewrite leq_eqVlt => /orP[/eqP <- //|lt].
have := st lt; cbv zeta; rewrite t0 mul0r => le.
have r0 : rhs - H *m xv = 0 by apply/eqP; rewrite -fro_eq0 eq_le le fro_ge0.
rewrite {1}serrE /energy mulmxBr xsE -/rhs.
have -> : H *m xv - (A^T *m b0 - c0) = 0 by rewrite -/rhs -opprB r0 oppr0.
rewrite /dot mulmx0 mxE mulr_ge0 ?sqr_ge0 //.
by rewrite /serr addr_ge0 ?mulr_ge0 ?fro2_ge0.
Qed.
End Sps1.

(** ** Concrete cases: two equations for one unknown, of which the sketch keeps the first. *)
Section Wit.
Variable R : rcfType.
Notation XL := (exact_lapack R).
Definition wit_c21 : 'M[R]_(2, 1) := const_mx 1.
Local Notation A2 := wit_c21.
Definition wit_half : R := 2%:R^-1.

Lemma wit_keep (Sm : 'M[R]_(1, 2)) : Sm = 1 *: \matrix_(i, j) (i == j :> nat)%:R ->
  [/\ Sm *m A2 = 1%:M, embeds (Sm *m A2) A2 wit_half 1 & svd_clean XL (Sm *m A2)].
Proof.
move=> SmE; have S1 : Sm *m A2 = 1%:M.
  rewrite SmE scale1r; apply/matrixP => i j; rewrite !ord1 !mxE big_ord_recl big_ord1 !mxE /=.
  by rewrite mul1r mul0r addr0.
split=> //; last by apply: svd_clean1 => //; exact: exact_svd.
have colE (v : 'cV[R]_1) : A2 *m v = \col_(i < 2) (if i == 0 then v 0 0 else v 0 0).
  by apply/colP => i; rewrite !mxE big_ord1 !mxE mul1r if_same.
move=> v; rewrite S1 mul1mx mul1r colE fro2_row2 -mulr2n -(mulr_natl (_ ^+ 2)) mulKf ?pnatr_eq0 //.
have -> : fro2 v = v 0 0 ^+ 2 by rewrite fro2_cv mxE big_ord1 mxE -expr2.
by rewrite lexx /= mulr_natl mulr2n ler_addl sqr_ge0.
Qed.

Lemma wit_half_b : 0 < wit_half <= 1 /\ wit_half < 1.
Proof. by rewrite /wit_half invr_gt0 ltr0n invf_le1 ?ltr0n ?ler1n // invf_lt1 ?ltr0n ?ltr1n. Qed.

Lemma wit_gram : A2^T *m A2 = 2%:R%:M.
Proof. by apply/matrixP => i j; rewrite !ord1 !mxE big_ord_recl big_ord1 !mxE /= !mul1r mulr1n -mulr2n. Qed.

Lemma spu_rate_wit (s : st nat R) : let c : 'cV[R]_1 := 4%:R%:M in exists s1 (y : 'cV[R]_2),
  SPU1 XL (scale_gen 1) 1 (ofmx A2) (ofcv c) 0 5 false (clk0 R) s = (s1, inr (ofcv y, log_of false (clk0 R))) /\
  exists d (Sm : 'M[R]_(d, 2)), [/\ drew (scale_gen 1) 1 1 s s1 Sm, embeds (Sm *m A2) A2 wit_half 1,
    svd_clean XL (Sm *m A2) & ridge_min A2^T c 0 (const_mx 2%:R)].
Proof.
move=> c; have ok : lsq_ok (scale_gen (1 : R)) 1 2 1 by exact: scale_lsq_ok.
have [s1 [d [Sm [dr [_ good]]]]] := spu_lemma A2 c 0 ok (@exact_svd R) s.
have c0 : c <> 0 by move=> /matrixP/(_ 0 0)/eqP; rewrite !mxE /= mulr1n pnatr_eq0.
have [k [M0 [_ H]]] := good c0; have [y [es [E _ _ _ _]]] := H 5 isT.
exists s1, y; split; first by rewrite E.
have d1 : d = 1%N by have [] := dr; rewrite mul1r (@trunc_rat_uniq _ 1) // => -[].
have SmE := drew_scale dr; subst d; have [_ h1 h2] := wit_keep SmE.
exists 1%N, Sm; split=> //.
have yE : (const_mx 2%:R : 'cV[R]_2) = A2 *m (2%:R%:M : 'cV[R]_1).
  by apply/matrixP => i j; rewrite !ord1 !mxE big_ord1 !mxE mul1r eqxx mulr1n.
apply: (ridge_minP (w := 2%:R%:M) (lifted0 _) (lifted0_b _ _)); rewrite trmxK ?yE //.
by rewrite mulmxA wit_gram -scalar_mxM -natrM subrr mulmx0.
Qed.

Lemma wit_saddle (b : 'cV[R]_2) : saddle A2 b 0 0 (wit_half *: (A2^T *m b)) (b - A2 *m (wit_half *: (A2^T *m b))).
Proof.
apply/saddleP; rewrite wit_gram subr0 raddf0 addr0 mul_scalar_mx scalerA /wit_half divff ?scale1r //.
by rewrite pnatr_eq0.
Qed.

Lemma sps2_rate_wit (s : st nat R) (b : 'cV[R]_2) : exists s1 (x : 'cV[R]_1) y,
  SPS2 XL (scale_gen 1) 1 (@PcSS2 R (rcf_ops R)) (ofmx A2) (Some (ofcv b)) None 0 0 5 false (clk0 R) s =
    (s1, inr (ofcv x, y, log_of false (clk0 R))) /\
  exists d (Sm : 'M[R]_(d, 2)) xs, [/\ drew (scale_gen 1) 1 1 s s1 Sm, embeds (Sm *m A2) A2 wit_half 1,
    lift_clean XL 0 (Sm *m A2) & saddle A2 b 0 0 xs (b - A2 *m xs)].
Proof.
have ok : lsq_ok (scale_gen (1 : R)) 1 2 1 by exact: scale_lsq_ok.
have svd : svd_spec XL := @exact_svd R.
have [s1 [d [Sm [dr [k [M0 [Pc [x0 [_ _ H]]]]]]]]] := sps2_lemma A2 (Some b) None 0 ok svd (lexx 0) s.
have [x [es [E _ _ _ _]]] := H 5 isT.
exists s1, x; eexists; split; first by rewrite E.
have d1 : d = 1%N by have [] := dr; rewrite mul1r (@trunc_rat_uniq _ 1) // => -[].
have SmE := drew_scale dr; subst d; have [_ h1 h2] := wit_keep SmE.
exists 1%N, Sm; eexists; split; [by [] | by [] | exact: lift_clean1 | exact: wit_saddle].
Qed.

Lemma sps1_rate_wit (s : st nat R) (b : 'cV[R]_2) : let t := absz (trunc_rat (1 * 1%:R)) in
  exists s1 (x : 'cV[R]_1) y,
  SPS1 XL (scale_gen 1) 1 (@PcSS1 R (rcf_ops R)) NLeft (ofmx A2) (Some (ofcv b)) None 0 0 5 false (clk0 R) s =
    (s1, inr (Some (ofcv x), y, log_of false (clk0 R))) /\
  exists Sk (Sm : 'M[R]_(t, 2)) xs,
    [/\ scale_gen 1 t 2 (St (gen s) (rcons (evs s) (EvDraw t 2))) = (s1, inr Sk), py_is Sk Sm,
        embeds (Sm *m A2) A2 wit_half 1, \rank (Sm *m A2) = 1%N &
        lift_clean XL 0 (Sm *m A2) /\ saddle A2 b 0 0 xs (b - A2 *m xs)].
Proof.
move=> t; have svd : svd_spec XL := @exact_svd R.
have t1 : trunc_rat (1 * 1%:R) = 1 by rewrite mul1r (@trunc_rat_uniq _ 1).
have rA : \rank A2 = 1%N.
  by apply: inj_full_col => v /(congr1 (mulmx A2^T)); rewrite mulmxA wit_gram mul_scalar_mx mulmx0 => /eqP;
     rewrite scaler_eq0 pnatr_eq0 /= => /eqP.
have n52 : 1%:R < 2%:R ^+ 52 :> R by rewrite exprn_egt1 // ltr1n.
have nt : 1%:Z <= trunc_rat (1 * 1%:R) by rewrite t1.
have gk : gen_ok (scale_gen (1 : R)) t 2 by exact: scale_gen_ok.
have sO : NLeft <> NOther by [].
have [s1 [Sk [Sm [gE pS H]]]] :=
  sps1_full_lemma (strat := NLeft) (Some b) None svd (or_introl rA) (lexx 0) (lexx 0) s isT n52 nt sO gk.
have [S1 em cl] : [/\ \rank (Sm *m A2) = 1%N, embeds (Sm *m A2) A2 wit_half 1 & lift_clean XL 0 (Sm *m A2)].
  have SmE : Sm = 1 *: \matrix_(i, j) (i == j :> nat)%:R.
    move: gE; rewrite /scale_gen /ret => -[_ sk]; have := py_r pS 1%:M; rewrite -sk /= mmulE => e.
    by have := ofmx_inj (ok_inj e : ofmx _ = ofmx _); rewrite !mulmx1.
  have tE : t = 1%N by rewrite /t t1.
  clear H gE pS; rewrite -/t in Sm SmE *; move: (t) tE Sm SmE => d -> Sm SmE.
  have [S1 h1 h2] := wit_keep SmE; split=> //; first by rewrite S1 mxrank1.
  exact: lift_clean1.
have [|s2 [x0 {}H]] := H.
  by left=> S0; move: S1; rewrite S0 mxrank0.
have [x [es [E _ _ _ _]]] := H 5 isT.
have E1 := E false (clk0 R); rewrite /log_ret in E1.
have [Sk' [Sm' [gE' _ _]]] := sps1_rate_lemma (b := Some b) (c := None) svd (or_introl rA) (lexx 0) (lexx 0) isT n52 nt sO gk (isT : 0%:Z <= 5%:Z) E1.
have s12 : s2 = s1 by move: gE'; rewrite gE => -[].
by exists s1, x; eexists; split; [rewrite -s12; exact: E1 | exists Sk, Sm; eexists; split; [| | | |split; [|exact: wit_saddle]]].
Qed.
End Wit.
