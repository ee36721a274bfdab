(** Proofs of C94, continued: the range sketchers and the drivers. *)
From mathcomp Require Import all_ssreflect all_algebra.
From mathcomp Require Import zify.
From Verif Require Import Base Arr Lapack Exact MxLib RingTac LapackSpec LapackExists Rng Aware RangeFinders QB.
From Verif Require Import P_RS1 P_QB2 P_RF P_QB3 P_QBx P_QBfin P_Pcg Chol P_Svd Sel SvdEvd P_SvdEvd P_Svd1 P_Evd.
From Verif Require Import P_Opt P_Opt2 Sketching P_Sketch2 P_Interp2 P_Interp4 P_Iso P_LS2 P_Embed P_Embed2 P_Embed3 P_Prob.
Set Implicit Arguments.
Unset Strict Implicit.
Unset Printing Implicit Defensive.
Import Order.TTheory GRing.Theory Num.Theory.
Local Open Scope ring_scope.

(** The leading and the trailing part of a singular value decomposition. *)
Section Top.
Variable R : rcfType.

Lemma svd_top m n q r (A : 'M[R]_(m, n)) (U : 'M[R]_(m, q)) (t : 'cV[R]_q) (Vh : 'M[R]_(q, n)) :
  A = U *m diag_mx t^T *m Vh -> orthonormal U -> orthonormal Vh^T -> (r <= q)%N ->
  exists (V : 'M[R]_(n, r)) (U1 : 'M[R]_(m, r)), let D := diag_mx (topv t r)^T in let F := A - A *m V *m V^T in
  [/\ orthonormal V, orthonormal U1, A *m V = U1 *m D, A^T *m U1 = V *m D &
  [/\ F *m V = 0, F^T *m U1 = 0, fro2 F = \sum_(i < q | (r <= i)%N) t i 0 ^+ 2 &
      forall sg, 0 <= sg -> (forall i : 'I_q, (r <= i)%N -> `|t i 0| <= sg) ->
      forall v : 'cV[R]_n, fro2 (F *m v) <= sg ^+ 2 * fro2 v]].
Proof.
move=> AE oU oV rq.
pose J := selmx R q 0 r; pose V := (rowblk Vh 0 r)^T; pose U1 := U *m J.
have VV : Vh *m Vh^T = 1%:M by have := oV; rewrite /orthonormal trmxK.
have VJ : V = Vh^T *m J by rewrite /V rowblkE trmx_mul trmxK.
have oVV : orthonormal V by rewrite VJ; apply: orthonormalM => //; exact: selmxP.
have VhV : Vh *m V = J by rewrite VJ mulmxA VV mul1mx.
have AV : A *m V = U1 *m diag_mx (topv t r)^T.
  by rewrite /U1 AE -[LHS]mulmxA VhV -[LHS]mulmxA diag_selmx // mulmxA.
have oU1 : orthonormal U1 by apply: orthonormalM => //; exact: selmxP.
have AU : A^T *m U1 = V *m diag_mx (topv t r)^T.
  rewrite /U1 AE !trmx_mul tr_diag_mx !mulmxA -[_ *m U^T *m U]mulmxA oU mulmx1.
  by rewrite -[Vh^T *m _ *m J]mulmxA diag_selmx // VJ !mulmxA.
have FV : (A - A *m V *m V^T) *m V = 0 by rewrite mulmxBl -[A *m V *m V^T *m V]mulmxA oVV mulmx1 subrr.
exists V, U1; cbv zeta; split=> //; split=> //.
- rewrite linearB /= mulmxBl AU trmx_mul trmxK AV trmx_mul tr_diag_mx -!mulmxA oU1 mulmx1; exact: subrr.
- rewrite -topv_tail // -fro2_trmx linearB /= [(A *m V *m V^T)^T]trmx_mul trmxK [(A *m V)^T]trmx_mul.
  rewrite fro2_resid // fro2_trmx -trmx_mul fro2_trmx AV fro2_ortho // fro2_diag; congr (_ - _).
  by rewrite AE -mulmxA fro2_ortho // -fro2_trmx trmx_mul fro2_ortho // fro2_trmx fro2_diag.
move=> sg sg0 lo v; set v' := v - V *m (V^T *m v).
have -> : (A - A *m V *m V^T) *m v = A *m v' by rewrite mulmxBl mulmxBr !mulmxA.
have v'le : fro2 v' <= fro2 v.
  rewrite /v' fro2_resid //; have := fro2_ge0 (V^T *m v).
  by rewrite ler_subl_addr ler_addl.
apply: le_trans (_ : sg ^+ 2 * fro2 v' <= _); last by rewrite ler_wpmul2l ?sqr_ge0.
rewrite AE fro2_svd_mul //; apply: le_trans (_ : sg ^+ 2 * fro2 (Vh *m v') <= _); last first.
  by rewrite ler_wpmul2l ?sqr_ge0 //; have := fro2_proj v' oV; rewrite trmxK.
rewrite fro2_sum mulr_sumr; apply: ler_sum => i _.
have [ir|ri] := ltnP i r; last first.
  rewrite ler_wpmul2r ?sqr_ge0 // -real_normK ?num_real // ler_pexpn2r ?nnegrE //; exact: lo.
have -> : (Vh *m v') i 0 = topv (Vh *m v') r (Ordinal ir) 0.
  by rewrite (@topvE _ _ _ _ (Ordinal ir) (ltn_ord i)); congr (_ _ 0); apply: val_inj.
have -> : topv (Vh *m v') r = 0.
  rewrite /topv rowblkE /v' mulmxBr [Vh *m (V *m _)]mulmxA VhV mulmxBr [_ *m (J *m _)]mulmxA selmxP // mul1mx.
  by rewrite /V trmxK rowblkE !mulmxA subrr.
by rewrite mxE expr0n !mulr0.
Qed.
End Top.

Section Captures.
Variables (R : rcfType) (G : Type) (E : (G -> R) -> R) (L : lapack R) (r : rng_ops G R).
Hypotheses (mE : mean E) (pE : positive E) (rok : rng_ok r).
Add Field capt_field : (rcf_field R).

(** The draw of the range sketcher is the Gaussian matrix of C91. *)
Lemma draw_gauss a b g es : (0 < a)%N -> (0 < b)%N ->
  exists s1, draw (skopGA r) a b (St g es) =
    (s1, inr (PyArr (ofmx (outmat a b (gaussian_operator r true a b (St g [::])))))).
Proof using rok.
move=> a0 b0; have [s1 [X [e1 _]]] := drawE (St g es) rok a0 b0.
exists s1; rewrite e1; congr (_, inr (PyArr (ofmx _))).
move: e1; rewrite /draw bind_emitE => e1.
have {}e1 : gaussian_operator r true a b (St g (rcons es (EvDraw a b))) = (s1, inr (PyArr (ofmx X))) by [].
by rewrite gauss_call // -(gauss_call rok _ (rcons es (EvDraw a b))) // e1 /outmat /= (opmat_acts (acts_arr X)).
Qed.

(** Every orthonormal basis covering the sketched range has projection error at most [bd]. *)
Definition captures m n (A : 'M[R]_(m, n)) l (rso : arr R -> nat -> M G R (pyop R)) (s : st G R) (bd : R) : Prop :=
  exists s1 (Y : 'M[R]_(n, l)), rso (ofmx A) l s = (s1, inr (PyArr (ofmx Y))) /\
  forall c (Q : 'M[R]_(m, c)) (U : 'M[R]_(c, l)), orthonormal Q -> A *m Y = Q *m U ->
    fro2 (A - Q *m (Q^T *m A)) <= bd.

(** The start of the power iteration: the drawn matrix, multiplied by A^T for an odd number of passes. *)
Definition kstart m n l (A : 'M[R]_(m, n)) (np : nat) : 'M[R]_(if odd np then m else n, l) -> 'M[R]_(n, l) :=
  if odd np as b return 'M[R]_(if b then m else n, l) -> 'M[R]_(n, l) then fun X => A^T *m X else fun X => X.

Lemma gauss_krylov (np : nat) m n l q rk (A : 'M[R]_(m, n))
    (U : 'M[R]_(m, q)) (t : 'cV[R]_q) (Vh : 'M[R]_(q, n)) (sg tau e th : R) :
  (0 < l)%N -> (l <= minn m n)%N ->
  uncorrelated E r (if odd np then m else n) l -> normal4 E r (if odd np then m else n) l ->
  A = U *m diag_mx t^T *m Vh -> orthonormal U -> orthonormal Vh^T -> (rk <= q)%N ->
  0 <= sg -> (forall i : 'I_q, (rk <= i)%N -> `|t i 0| <= sg) ->
  ((0 < np)%N -> 0 < tau /\ forall i : 'I_q, (i < rk)%N -> tau <= `|t i 0|) ->
  0 < e < 1 -> 0 < th ->
  exists (V : 'M[R]_(n, rk)) (D : 'M[R]_rk), let F := A - A *m V *m V^T in
  [/\ orthonormal V, A^T *m (A *m V) = V *m D, (forall i : 'I_q, (i < rk)%N -> t i 0 != 0) -> D \in unitmx,
      fro2 F = \sum_(i < q | (rk <= i)%N) t i 0 ^+ 2 &
  exists B : G -> bool, E (fun g => (~~ B g)%:R) <= (rk * rk + rk)%:R / (l%:R * e ^+ 2) + rk%:R / (l%:R * th) /\
  forall g, B g ->
    let X0 := outmat (if odd np then m else n) l (gaussian_operator r true (if odd np then m else n) l (St g [::])) in
    let K := krylov A (np %/ 2) (kstart A X0) in
    exists Z : 'M[R]_(l, rk), V^T *m K *m Z = 1%:M /\
      fro2 (F *m K *m Z) <= (sg / tau) ^+ (2 * np) * (th / (1 - e) ^+ 2) * fro2 F].
Proof using mE pE rok.
move=> l0 lmn un n4 AE oU oVh rq sg0 lo hi e01 th0.
have [V [U1 []]] := svd_top AE oU oVh rq; cbv zeta.
set D := diag_mx _; set F := A - _ => oV oU1 AV AU [FV FU F2 Fs].
have {}Fs := Fs sg sg0 lo.
have lm : (l <= m)%N by move: lmn; rewrite leq_min => /andP[].
have ln : (l <= n)%N by move: lmn; rewrite leq_min => /andP[].
have VD : A^T *m (A *m V) = V *m (D *m D) by rewrite AV mulmxA AU mulmxA.
have At (t0 : (0 < np)%N) (y : 'cV[R]_rk) : tau ^+ 2 * fro2 y <= fro2 (D *m y).
  have [tau0 h] := hi t0.
  rewrite mul_diag_mx !fro2_sum mulr_sumr; apply: ler_sum => i _.
  rewrite mxE exprMn ler_wpmul2r ?sqr_ge0 // [_^T _ _]mxE.
  have lt := leq_trans (ltn_ord i) rq; rewrite (topvE _ lt) -[X in _ <= X]real_normK ?num_real //.
  by rewrite ler_pexpn2r ?nnegrE ?(ltW tau0) //; apply: h => /=.
have uD : (forall i : 'I_q, (i < rk)%N -> t i 0 != 0) -> D *m D \in unitmx.
  move=> nz; rewrite unitmx_mul andbb unitmxE det_diag unitfE prodf_seq_neq0; apply/allP => i _ /=.
  by rewrite mxE (topvE _ (leq_trans (ltn_ord i) rq)); apply: nz => /=.
have [B [EB HB]] : exists B : G -> bool,
    E (fun g => (~~ B g)%:R) <= (rk * rk + rk)%:R / (l%:R * e ^+ 2) + rk%:R / (l%:R * th) /\
    forall g, B g ->
      let X0 := outmat (if odd np then m else n) l (gaussian_operator r true (if odd np then m else n) l (St g [::])) in
      let K0 : 'M[R]_(n, l) := kstart A X0 in
      exists W0 : 'M[R]_(l, rk), V^T *m K0 *m W0 = 1%:M /\
        fro2 (F *m K0 *m W0) <= (sg / tau) ^+ (2 * odd np) * (th / (1 - e) ^+ 2) * fro2 F.
  rewrite /kstart; case: (boolP (odd np)) un n4 => o un n4; cbv beta iota zeta in un, n4 |- *; last first.
    have W := gauss_wmom_tall mE rok [::] un n4 l0 ln.
    have [B [EB HB]] := sketch_event mE pE (lexx 0) e01 th0 oV FV W.
    by exists B; split=> // g /HB[X [h1 h2 _]]; exists X; split=> //; rewrite (muln0 2%N) expr0 mul1r.
  have np0 : (0 < np)%N by case: (np) o.
  have [tau0 hi0] := hi np0.
  have W := gauss_wmom_tall mE rok [::] un n4 l0 lm.
  have [B [EB HB]] := sketch_event mE pE (lexx 0) e01 th0 oU1 FU W.
  exists B; split=> // g /HB[X]; set S := outmat _ _ _ => -[h1 h2 _].
  pose D' : 'M[R]_rk := diag_mx (\row_i (topv t rk i 0)^-1).
  have DD : D *m D' = 1%:M.
    rewrite /D /D' mulmx_diag -diag_const_mx; congr diag_mx; apply/rowP=> i.
    rewrite [LHS]mxE [_^T _ _]mxE [X in _ * X]mxE [RHS]mxE divff //.
    have lt := leq_trans (ltn_ord i) rq; have := hi0 (Ordinal lt) (ltn_ord i).
    by rewrite (topvE _ lt) -normr_gt0; apply: lt_le_trans.
  exists (X *m D'); split.
    have -> : V^T *m (A^T *m S) *m (X *m D') = D *m (U1^T *m S *m X) *m D'.
      have -> : D *m (U1^T *m S *m X) = (U1 *m D)^T *m S *m X by rewrite trmx_mul tr_diag_mx !mulmxA.
      by rewrite -AV trmx_mul !mulmxA.
    by rewrite h1 mulmx1.
  have FA : F *m A^T = F *m F^T.
    have -> : A^T = V *m (V^T *m A^T) + F^T.
      by rewrite /F linearB /= !trmx_mul trmxK addrC subrK.
    by rewrite mulmxDr mulmxA FV mul0mx add0r.
  rewrite -[F *m _ *m _]mulmxA -[A^T *m S *m _]mulmxA mulmxA FA -!mulmxA.
  apply: le_trans (fro2_mul_col _ Fs) _; rewrite muln1 [(sg / tau) ^+ 2]expr_div_n.
  rewrite -[X in _ <= X]mulrA -[X in _ <= X]mulrA ler_wpmul2l ?sqr_ge0 //.
  have -> : F^T *m (S *m (X *m D')) = (F^T *m S *m X) *m D' by rewrite !mulmxA.
  apply: le_trans (_ : tau ^- 2 * fro2 (F^T *m S *m X) <= _).
    rewrite -fro2_trmx trmx_mul tr_diag_mx -[X in _ <= _ * X]fro2_trmx.
    apply: fro2_mul_col => v; rewrite ler_pdivl_mull ?exprn_gt0 //.
    by apply: le_trans (At np0 _) _; rewrite mulmxA DD mul1mx.
  by rewrite ler_pmul2l ?invr_gt0 ?exprn_gt0 //; move: h2; rewrite fro2_trmx.
exists V, (D *m D); cbv zeta; split=> //; exists B; split=> // g /HB {HB}; cbv zeta.
set X0 := outmat _ _ _; set K0 := (X in V^T *m X) => -[W0 [VW Wb]].
have [np0|np0] := posnP np.
  exists W0; move: VW Wb; rewrite -/K0; move: (K0) => K; rewrite np0 /= => VW Wb.
  by rewrite VW; split.
have At' (y : 'cV[R]_rk) : tau ^+ 2 * fro2 y <= fro2 (A *m V *m y).
  rewrite AV -mulmxA fro2_ortho //.
  exact: (At np0 y).
have [Z [ZE Zb]] := power_bound (np %/ 2) oV VD VW Fs (hi np0).1 At'.
exists Z; split=> //; apply: le_trans Zb _.
apply: le_trans (ler_wpmul2l _ Wb) _; first by rewrite exprn_even_ge0 // oddM.
rewrite !mulrA -exprD; have -> // : (4 * (np %/ 2) + 2 * odd np = 2 * np)%N.
by have := divn_eq np 2; rewrite modn2; move: (odd np) => [] /=; lia.
Qed.

Lemma gauss_range (np : nat) stab (pps : int) m n l q rk (A : 'M[R]_(m, n))
    (U : 'M[R]_(m, q)) (t : 'cV[R]_q) (Vh : 'M[R]_(q, n)) (sg tau e th : R) :
  stab_spec stab -> 0 < pps -> (0 < l)%N -> (l <= minn m n)%N ->
  uncorrelated E r (if odd np then m else n) l -> normal4 E r (if odd np then m else n) l ->
  A = U *m diag_mx t^T *m Vh -> orthonormal U -> orthonormal Vh^T -> (rk <= q)%N ->
  0 <= sg -> (forall i : 'I_q, (rk <= i)%N -> `|t i 0| <= sg) ->
  ((0 < np)%N -> 0 < tau /\ forall i : 'I_q, (i < rk)%N -> tau <= `|t i 0|) ->
  0 < e < 1 -> 0 < th ->
  exists B : G -> bool, E (fun g => (~~ B g)%:R) <= (rk * rk + rk)%:R / (l%:R * e ^+ 2) + rk%:R / (l%:R * th) /\
  forall g es, B g -> captures A l (RS1 (skopGA r) np%:Z stab pps) (St g es)
    ((1 + (sg / tau) ^+ (2 * np) * (th / (1 - e) ^+ 2)) * \sum_(i < q | (rk <= i)%N) t i 0 ^+ 2).
Proof using mE pE rok.
move=> st p0 l0 lmn un n4 AE oU oVh rq sg0 lo hi e01 th0.
have [V [D []]] := gauss_krylov l0 lmn un n4 AE oU oVh rq sg0 lo hi e01 th0.
cbv zeta; set F := A - _ => oV VD _ F2 [B [EB HB]].
exists B; split=> // g es /HB {HB}; cbv zeta; set X0 := outmat _ _ _ => -[Z [ZE Zb]].
have d0 : (0 < (if odd np then m else n))%N by case: (odd np); lia.
have [s1 Ed] := draw_gauss g es d0 l0.
have [s' [Y [W [EY KE _]]]] := RS1_range A st p0 l0 lmn Ed.
exists s', Y; split=> // c Q U' oQ QU.
have {}KE : krylov A (np %/ 2) (kstart A X0) = Y *m W by exact: KE.
rewrite KE in ZE Zb.
have := sketch_bound oQ QU oV (W := W *m Z); rewrite !mulmxA => H.
move: ZE Zb; rewrite !mulmxA => ZE Zb.
apply: le_trans (H ZE) _; rewrite -F2 mulrDl mul1r ler_add2l -/F; rewrite mulmxA; exact: Zb.
Qed.
End Captures.

(** ** The blocks of QB2 never increase the residual *)
Section Blocks.
Variables (R : rcfType) (G : Type) (L : lapack R).
Hypothesis qrL : qr_spec L.

Lemma qb2_step (rf : rangefinder) (k : nat) utol abs m n (X : 'M[R]_(m, n)) fuel c (Q : 'M[R]_(m, c))
    (B : 'M[R]_(c, n)) (blk : int) (b : nat) sqn (s s1 : st G R) (Fi : 'M[R]_(m, b)) :
  (if (k%:Z < c%:Z + blk)%R then (k%:Z - c%:Z)%R else blk) = b%:Z -> (0 < b <= m)%N ->
  rf (ofmx X) b%:Z None s = (s1, inr (ofmx Fi)) ->
  exists (Qi : 'M[R]_(m, b)) (U : 'M[R]_b) s2 sqn2 b1, let X1 := X - Qi *m (Qi^T *m X) in
    [/\ orthonormal Qi, Fi - Q *m (Q^T *m Fi) = Qi *m U &
        qb2_loop L fuel.+1 rf k utol abs blk sqn (ofmx X) (ofmx Q) (ofmx B) s =
        (if b1 then ret (ofmx (row_mx Q Qi), ofmx (col_mx B (Qi^T *m X)), ofmx X1)
         else if (k <= c + b)%N then ret (ofmx (row_mx Q Qi), ofmx (col_mx B (Qi^T *m X)), ofmx X1)
         else qb2_loop L fuel rf k utol abs b%:Z sqn2 (ofmx X1) (ofmx (row_mx Q Qi)) (ofmx (col_mx B (Qi^T *m X)))) s2].
Proof using qrL.
move=> bE /andP[b0 bm] E1.
have [Qi [U [EQ oQi tU PE]]] := qr_tall (Fi - Q *m (Q^T *m Fi)) qrL b0 bm.
do 5 eexists; split; [exact: oQi | exact: PE |].
rewrite [qb2_loop _ _ _ _ _ _ _ _ _ _ _]/= bE (bindE _ E1) bind_emitE project_outE bind_liftE EQ bind_liftE [_.1]/=.
rewrite (bindE _ (passQtAE _ _ _)) hstackE bind_liftE vstackE bind_liftE mmulE bind_liftE msubE bind_liftE nr_ofmx.
reflexivity.
Qed.

Lemma qb2_loop_mono (rf : rangefinder) (k : nat) utol abs m n : rf_shape rf -> (k <= minn m n)%N ->
  forall fuel c (Q : 'M[R]_(m, c)) (B : 'M[R]_(c, n)) (X : 'M[R]_(m, n)) (blk : int) sqn (s s' : st G R) out,
  (c < k)%N -> 0 < blk ->
  qb2_loop L fuel rf k utol abs blk sqn (ofmx X) (ofmx Q) (ofmx B) s = (s', inr out) ->
  exists X' : 'M[R]_(m, n), out.2 = ofmx X' /\ fro2 X' <= fro2 X.
Proof using qrL.
move=> rfP kmn; elim=> [|fuel IH] c Q B X blk sqn s s' out ck b0; first by [].
have [b bE [b1 bk]] : exists2 b : nat, (if (k%:Z < c%:Z + blk)%R then (k%:Z - c%:Z)%R else blk) = b%:Z &
    (0 < b)%N /\ (c + b <= k)%N.
  by exists (absz (if (k%:Z < c%:Z + blk)%R then (k%:Z - c%:Z)%R else blk)); case: ifP => H; lia.
have bmn : (b <= minn m n)%N by rewrite (leq_trans _ kmn) // (leq_trans _ bk) // leq_addl.
have bm : (0 < b <= m)%N by rewrite b1 (leq_trans bmn) // geq_minl.
have [s1 [Fi [E1 _]]] := rfP _ _ X b s b1 bmn.
have [Qi [U [s2 [sqn2 [b2 [oQ _ ->]]]]]] := qb2_step utol abs fuel Q B sqn bE bm E1.
have le1 : fro2 (X - Qi *m (Qi^T *m X)) <= fro2 X.
  by rewrite fro2_resid // ler_subl_addr ler_addl fro2_ge0.
case: b2; first by case=> _ <-; exists (X - Qi *m (Qi^T *m X)).
case: ifP => kc; first by case=> _ <-; exists (X - Qi *m (Qi^T *m X)).
have ck' : (c + b < k)%N by rewrite ltnNge kc.
have b0' : 0 < b%:Z :> int by lia.
move/(IH _ _ _ _ _ _ _ _ _ ck' b0') => [X' [e le]]; exists X'; split=> //; exact: le_trans le1.
Qed.

Lemma qb2_loop_first (rso : rowsketcher) (k : nat) utol abs m n (A : 'M[R]_(m, n)) fuel (blk : int) (b : nat) sqn
    (s s' : st G R) out bd :
  rf_shape (RF1 L rso) -> (k <= minn m n)%N -> (0 < k)%N -> 0 < blk -> b%:Z = Num.min blk k%:Z ->
  captures A b rso s bd ->
  qb2_loop L fuel.+1 (RF1 L rso) k utol abs blk sqn (ofmx A) (ofmx (0 : 'M[R]_(m, 0))) (ofmx (0 : 'M[R]_(0, n))) s =
    (s', inr out) ->
  exists X' : 'M[R]_(m, n), out.2 = ofmx X' /\ fro2 X' <= bd.
Proof using qrL.
move=> rfP kmn k0 bl0 bE [s1 [Y [EY HY]]].
have bE' : (if (k%:Z < 0%N%:Z + blk)%R then (k%:Z - 0%N%:Z)%R else blk) = b%:Z.
  by move: bE; case: ifP => h; case: (ltrP blk k%:Z); lia.
have b0 : (0 < b)%N by move: bE; case: (ltrP blk k%:Z); lia.
have bk : (b <= k)%N by move: bE; case: (ltrP blk k%:Z); lia.
have bm : (0 < b <= m)%N by lia.
have bmn : (b <= minn m n)%N by exact: leq_trans kmn.
have [Fi [V [E1 oF AY]]] := RF1P qrL b0 bmn EY.
have [Qi [U [s2 [sqn2 [b2 [oQ FU ->]]]]]] := qb2_step utol abs fuel 0 0 sqn bE' bm E1.
have le1 : fro2 (A - Qi *m (Qi^T *m A)) <= bd.
  by apply: (HY _ Qi (U *m V)) => //; rewrite AY mulmxA -FU mul0mx subr0.
case: b2; first by case=> _ <-; exists (A - Qi *m (Qi^T *m A)).
case: ifP => kc; first by case=> _ <-; exists (A - Qi *m (Qi^T *m A)).
have ck' : (0 + b < k)%N by rewrite ltnNge kc.
have b0' : 0 < b%:Z :> int by lia.
move/(qb2_loop_mono rfP kmn ck' b0') => [X' [e le]]; exists X'; split=> //; exact: le_trans le1.
Qed.

Lemma QB2_captures (rso : rowsketcher) (blk : int) ow m n (A : 'M[R]_(m, n)) (k : int) tol (b : nat) g es bd :
  rf_shape (RF1 L rso) -> (0 < m)%N -> (0 < n)%N -> 0 < k -> 0 < blk ->
  b%:Z = Num.min blk (minn (absz k) (minn m n))%:Z ->
  (forall es, captures A b rso (St g es : st G R) bd) ->
  exists s' c (Q : 'M[R]_(m, c)) (B : 'M[R]_(c, n)),
    QB2 L (RF1 L rso) blk ow (ofmx A) k tol (St g es) =
      (s', inr (ofmx Q, ofmx B, ofmx (if ow then A - Q *m B else A))) /\
    fro2 (A - Q *m B) <= bd.
Proof using qrL.
move=> rfP m0 n0 k0 b0 bE cap.
have [s1 [l [c1 [Q1 [B1 [F [E1 _ _ _ _]]]]]]] := QB2P qrL ow A tol (St g es) rfP m0 n0 k0 b0.
have [s2 [l2 [c2 [Q2 [B2 [F2 [E2 _ _ _ _]]]]]]] := QB2P qrL true A tol (St g es) rfP m0 n0 k0 b0.
exists s1, c1, Q1, B1; split=> //.
move: E1 E2; rewrite /QB2 k0 !bind_passertT.
set c0 := (if _ then _ else _); set kk := minn _ _ in bE.
have [es0 E0] : exists es0, c0 (St g es) = (St g es0, inr kk).
  rewrite /c0; case: ifP; rewrite nr_ofmx nc_ofmx => le.
    by exists es; rewrite /ret; congr (_, inr _); rewrite /kk; lia.
  by exists (rcons es (EvWarn W_qb2_rank)); rewrite bind_emitE /ret; congr (_, inr _); rewrite /kk; lia.
have kkmn : (kk <= minn m n)%N by rewrite geq_minr.
have kk0 : (0 < kk)%N by rewrite /kk; lia.
rewrite !(bindE _ E0) nr_ofmx nc_ofmx kkmn !bind_passertT !mzerosE.
set q := qb2_loop _ _ _ _ _ _ _ _ _ _ _ => E1 E2.
case: (bind_inv E1) => s3 [[[xq xb] xa] [H1 _]].
have [X' [xE le]] := qb2_loop_first rfP kkmn kk0 b0 bE (cap es0) H1.
move: E1 E2; rewrite !(bindE _ H1) => E1 E2; have [_ xQ1 xB1 _] := inr3 E1; have [_ xQ2 xB2] := inr3 E2.
have /= -> := xE => /ofmx_inj XE.
have [Ec [QE BE]] := ofmx_inj2 (etrans (esym xQ1) xQ2) (etrans (esym xB1) xB2).
by clear E1 E2 F F2 xQ1 xQ2 xB1 xB2; subst c2; rewrite !castmx_id in QE BE; subst Q2 B2; rewrite -XE.
Qed.

Lemma QB2_captures1 (rso : rowsketcher) (blk : int) ow m n (A : 'M[R]_(m, n)) (k : int) tol g es bd
    (b := minn (absz k) (minn m n)) :
  rf_shape (RF1 L rso) -> (0 < m)%N -> (0 < n)%N -> 0 < k -> b%:Z <= blk ->
  (forall es, captures A b rso (St g es : st G R) bd) ->
  exists s' (Q : 'M[R]_(m, b)) A',
    [/\ QB2 L (RF1 L rso) blk ow (ofmx A) k tol (St g es) = (s', inr (ofmx Q, ofmx (Q^T *m A), A')),
        orthonormal Q & fro2 (A - Q *m (Q^T *m A)) <= bd].
Proof using qrL.
move=> rfP m0 n0 k0 bb cap.
have b0 : 0 < blk by move: bb; rewrite /b; lia.
have bE : b%:Z = Num.min blk (minn (absz k) (minn m n))%:Z by move: bb; rewrite /b; case: ltrP; lia.
have [s1 [c [Q [B [E1 le]]]]] := QB2_captures ow tol es rfP m0 n0 k0 b0 bE cap.
have [s2 [Q2 [A' [E2 oQ]]]] := QB2_single qrL ow A tol (St g es) rfP m0 n0 k0 bb.
exists s2, Q2, A'; split=> //.
have [_ EQ EB _] := inr3 (etrans (esym E1) E2).
have [Ec [QE BE]] := ofmx_inj2 EQ EB; clear E1 E2 EQ EB bE.
by move: Q2 oQ QE BE => Q2 oQ; move: Ec; rewrite -/b => Ec; subst c; rewrite !castmx_id => QE BE; move: le; rewrite -BE -QE.
Qed.
End Blocks.

(** A singular value decomposition A = U diag(t) Vh (in any order) split after [rk] entries: the trailing
    ones at most sg; with power iterations ([np] > 0) the leading ones at least tau > 0. *)
Definition sing_split (R : rcfType) m n q (A : 'M[R]_(m, n)) (U : 'M[R]_(m, q)) (t : 'cV[R]_q)
    (Vh : 'M[R]_(q, n)) (rk np : nat) (sg tau : R) : Prop :=
  [/\ A = U *m diag_mx t^T *m Vh, orthonormal U, orthonormal Vh^T, (rk <= q)%N &
  [/\ 0 <= sg, forall i : 'I_q, (rk <= i)%N -> `|t i 0| <= sg &
      (0 < np)%N -> 0 < tau /\ forall i : 'I_q, (i < rk)%N -> tau <= `|t i 0|]].

(** Error bound after [np] power passes and failure probability with [l] sketch columns. *)
Definition sketch_err (R : rcfType) q (t : 'cV[R]_q) (rk np : nat) (sg tau e th : R) : R :=
  (1 + (sg / tau) ^+ (2 * np) * (th / (1 - e) ^+ 2)) * \sum_(i < q | (rk <= i)%N) t i 0 ^+ 2.
Definition fail_prob (R : rcfType) (rk l : nat) (e th : R) : R :=
  (rk * rk + rk)%:R / (l%:R * e ^+ 2) + rk%:R / (l%:R * th).

Section Drv.
Variables (R : rcfType) (G : Type) (E : (G -> R) -> R) (L : lapack R) (r : rng_ops G R).
Hypotheses (mE : mean E) (pE : positive E) (rok : rng_ok r) (qrL : qr_spec L).
Variables (m n q : nat) (A : 'M[R]_(m, n)) (U : 'M[R]_(m, q)) (t : 'cV[R]_q) (Vh : 'M[R]_(q, n)).
Variables (rk np : nat) (sg tau e th : R).
Hypotheses (spl : sing_split A U t Vh rk np sg tau) (e01 : 0 < e < 1) (th0 : 0 < th).
Local Notation law l := (uncorrelated E r (if odd np then m else n) l /\ normal4 E r (if odd np then m else n) l).
Local Notation err := (sketch_err t rk np sg tau e th).
Local Notation rs := (RS1 (skopGA r) np%:Z (orth L) 1).

Lemma prob_range l : (0 < l)%N -> (l <= minn m n)%N -> law l ->
  exists B : G -> bool, E (fun g => (~~ B g)%:R) <= fail_prob rk l e th /\
  forall g es, B g -> captures A l rs (St g es) err.
Proof using mE pE rok qrL spl e01 th0.
move=> l0 lmn [un n4]; case: spl => AE oU oV rq [sg0 lo hi].
exact: (gauss_range mE pE rok (orth_stab qrL) _ l0 lmn un n4 AE oU oV rq sg0 lo hi e01 th0).
Qed.

Lemma rf1_prob l : (0 < l <= minn m n)%N -> law l ->
  exists B : G -> bool, E (fun g => (~~ B g)%:R) <= fail_prob rk l e th /\
  forall g es, B g -> exists Q : 'M[R]_(m, l),
    [/\ (rf1 L r (ofmx A) l%:Z np.+1%:Z RGen (St g es)).2 = inr (ofmx Q), orthonormal Q &
        fro2 (A - Q *m (Q^T *m A)) <= err].
Proof using mE pE rok qrL spl e01 th0.
move=> /andP[l0 lmn] lw; have [B [EB HB]] := prob_range l0 lmn lw.
exists B; split=> // g es Bg; rewrite /rf1 /= (_ : np.+1%:Z - 1 = np%:Z) //; last by lia.
have [s1 [Y [EY HY]]] := HB g (rcons es (EvWarn W_rf_tol)) Bg.
have [Q [V [E1 oQ AY]]] := RF1P qrL l0 lmn EY.
have lz : (0 < l%:Z)%R by lia.
exists Q; split=> //; last exact: HY AY.
by rewrite RF1_warn ?nr_ofmx ?nc_ofmx // E1.
Qed.

Lemma qb_prob l : (0 < l <= minn m n)%N -> law l ->
  exists B : G -> bool, E (fun g => (~~ B g)%:R) <= fail_prob rk l e th /\
  forall g es, B g -> exists Q : 'M[R]_(m, l),
    [/\ (qb L r np.+2%:Z (ofmx A) l%:Z RGen (St g es)).2 = inr (ofmx Q, ofmx (Q^T *m A)), orthonormal Q &
        fro2 (A - Q *m (Q^T *m A)) <= err].
Proof using mE pE rok qrL spl e01 th0.
move=> /andP[l0 lmn] lw; have [B [EB HB]] := prob_range l0 lmn lw.
exists B; split=> // g es Bg; rewrite /qb /= (_ : np.+2%:Z - 2 = np%:Z) //; last by lia.
have [s1 [Y [EY HY]]] := HB g es Bg.
have [Q [V [_ EQ oQ [AY _ _]]]] := QB1_all qrL l0 lmn EY.
by exists Q; split=> //; exact: HY AY.
Qed.

Lemma rf_gauss : rf_shape (RF1 L rs).
Proof using rok qrL. exact: gauss_rf. Qed.

Lemma qb_b_prob (blk k : int) l : (0 < m)%N -> (0 < n)%N -> 0 < k -> 0 < blk ->
  l%:Z = Num.min blk (Num.min k (minn m n)%:Z) -> law l ->
  exists B : G -> bool, E (fun g => (~~ B g)%:R) <= fail_prob rk l e th /\
  forall g es ow tol, B g -> exists c (Q : 'M[R]_(m, c)) (B : 'M[R]_(c, n)),
    (qb_b L r np.+2%:Z blk ow (ofmx A) k tol RGen (St g es)).2 =
      inr (ofmx Q, ofmx B, ofmx (if ow then A - Q *m B else A)) /\
    fro2 (A - Q *m B) <= err.
Proof using mE pE rok qrL spl e01 th0.
move=> m0 n0 k0 b0 lE lw.
have lE' : l%:Z = Num.min blk (minn (absz k) (minn m n))%:Z.
  rewrite lE; congr Num.min; case: (ltrP k); lia.
have l0 : (0 < l)%N by move: lE'; case: ltrP; lia.
have lmn : (l <= minn m n)%N by move: lE'; case: ltrP; lia.
have [B [EB HB]] := prob_range l0 lmn lw.
exists B; split=> // g es ow tol Bg; rewrite /qb_b /= (_ : np.+2%:Z - 2 = np%:Z) //; last by lia.
have [s' [c [Q [B' [E1 le]]]]] := QB2_captures qrL ow tol es rf_gauss m0 n0 k0 b0 lE' (fun es => HB g es Bg).
by exists c, Q, B'; rewrite E1.
Qed.

Lemma noov_single (blk k : int) tol g es : (0 < m)%N -> (0 < n)%N -> 0 < k ->
  (minn (absz k) (minn m n))%:Z <= blk ->
  (forall es, captures A (minn (absz k) (minn m n)) rs (St g es) err) ->
  exists s' (Q : 'M[R]_(m, minn (absz k) (minn m n))),
   [/\ QB2_noov L (RF1 L rs) blk (ofmx A) k tol (St g es) = (s', inr (ofmx Q, ofmx (Q^T *m A))),
       orthonormal Q & fro2 (A - Q *m (Q^T *m A)) <= err].
Proof using rok qrL.
move=> m0 n0 k0 kb cap.
have [s' [Q [A' [E1 oQ le]]]] := QB2_captures1 qrL false tol es rf_gauss m0 n0 k0 kb cap.
by exists s', Q; rewrite /QB2_noov (bindE _ E1).
Qed.

Lemma svd1_prob (blk k over : int) l : svd_spec L -> (0 < m)%N -> (0 < n)%N -> 0 <= k -> 0 < k + over ->
  l%:Z = Num.min (k + over) (minn m n)%:Z -> l%:Z <= blk -> law l ->
  exists B : G -> bool, E (fun g => (~~ B g)%:R) <= fail_prob rk l e th /\
  forall g es tol, B g -> exists c (Us : 'M[R]_(m, c)) (s : 'cV[R]_c) (Vs : 'M[R]_(c, n)),
    (svd1 L r (ofmx A) k over tol np.+2%:Z blk RGen (St g es)).2 = inr (ofmx Us, ofcv s, ofmx Vs) /\
    forall X : 'M[R]_(m, n), (\rank X <= absz k)%N ->
      fro2 (A - Us *m diag_mx s^T *m Vs) <= err + fro2 (A - X) + (minn l n)%:R * (10%:R * 2%:R ^- 52) ^+ 2.
Proof using mE pE rok qrL spl e01 th0.
move=> svdL m0 n0 k0 ko lE lb lw.
have lE' : l = minn (absz (k + over)) (minn m n) by move: lE; case: ltrP; lia.
have l0 : (0 < l)%N by move: lE'; lia.
have lmn : (l <= minn m n)%N by move: lE'; lia.
have [B [EB HB]] := prob_range l0 lmn lw.
exists B; split=> // g es tol Bg; rewrite /svd1 /= (_ : np.+2%:Z - 2 = np%:Z) //; last by lia.
move: l lE lE' l0 lmn lb lw B EB HB Bg => _ _ -> l0 lmn lb lw B EB HB Bg.
have [s' [Q [E1 oQ le]]] := noov_single tol es m0 n0 ko lb (fun es => HB g es Bg).
have [c [Us [s [Vs [ES h _]]]]] := svd1_best svdL l0 n0 k0 oQ E1.
exists c, Us, s, Vs; split; first by rewrite ES.
by move=> X rX; apply: le_trans (h X rX) _; rewrite !ler_add2r.
Qed.
End Drv.

Section DrvE.
Variables (R : rcfType) (G : Type) (E : (G -> R) -> R) (L : lapack R) (r : rng_ops G R).
Hypotheses (mE : mean E) (pE : positive E) (rok : rng_ok r) (qrL : qr_spec L).
Lemma evd1_prob (asort : seq R -> seq nat) n q (A : 'M[R]_n) (U : 'M[R]_(n, q)) (t : 'cV[R]_q) (Vh : 'M[R]_(q, n))
    (rk np : nat) (sg tau e th : R) (blk k over : int) l :
  sing_split A U t Vh rk np sg tau -> 0 < e < 1 -> 0 < th ->
  eigh_spec L -> argsort_spec asort -> A^T = A -> 0 < k <= n%:Z -> 0 < k + over ->
  l%:Z = Num.min (k + over) n%:Z -> l%:Z <= blk -> uncorrelated E r n l -> normal4 E r n l ->
  exists B : G -> bool, E (fun g => (~~ B g)%:R) <= fail_prob rk l e th /\
  forall g es tol, B g -> (if tol is Some x then 0 <= x else true) ->
    exists c (V : 'M[R]_(n, c)) (lam : 'cV[R]_c),
    (evd1 L r asort (ofmx A) k tol over np.+2%:Z blk RGen (St g es)).2 = inr (ofmx V, ofcv lam) /\
    forall X : 'M[R]_n, (\rank X <= absz k)%N ->
      fro2 (A - V *m diag_mx lam^T *m V^T) <=
      2%:R * sketch_err t rk np sg tau e th + fro2 (A - X) + l%:R * (10%:R * 2%:R ^- 52) ^+ 2.
Proof using mE pE rok qrL.
move=> spl e01 th0 eighL asP sA kn ko lE lb un n4.
have n0 : (0 < n)%N by lia.
have lE' : l = minn (absz (k + over)) (minn n n) by move: lE; case: ltrP; lia.
have l0 : (0 < l)%N by move: lE'; lia.
have lmn : (l <= minn n n)%N by move: lE'; lia.
have lw : uncorrelated E r (if odd np then n else n) l /\ normal4 E r (if odd np then n else n) l.
  by case: (odd np).
have [B [EB HB]] := prob_range mE pE rok qrL spl e01 th0 l0 lmn lw.
exists B; split=> // g es tol Bg tolP; rewrite /evd1 bind_passertT // /with_rng (_ : np.+2%:Z - 2 = np%:Z) //; last by lia.
move: l lE lE' l0 lmn lb lw un n4 B EB HB Bg => _ _ -> l0 lmn lb lw _ _ B EB HB Bg.
have tolP' : (if half_tol tol is Some t then 0 <= t else true) = true.
  rewrite half_tolE; case: (tol) tolP => //= x x0; by rewrite divr_ge0 ?ler0n.
have [s' [Q [E1 oQ le]]] := noov_single rok qrL (omap (fun t => t / 2%:R) (half_tol tol)) es n0 n0 ko lb (fun es => HB g es Bg).
have [c [V [lam [ES h _]]]] := evd1_best eighL asP sA kn tolP' l0 oQ E1.
exists c, V, lam; split; first by rewrite ES.
by move=> X rX; apply: le_trans (h X rX) _; rewrite !ler_add2r ler_pmul2l ?ltr0n.
Qed.
End DrvE.

(** Witness *)
Section Wit.
Variable R : rcfType.
Local Notation e := (9%:R / 10%:R : R).
Lemma wit_fail : (1 * 1 + 1)%:R / (8%:R * e ^+ 2) + 1%:R / (8%:R * 1) < 2%:R^-1 :> R.
Proof.
have e2 : e ^+ 2 = 81%:R / 100%:R by rewrite exprMn exprVn -!natrX.
have p : 0 < 8%:R * e ^+ 2 by rewrite e2 mulr_gt0 ?divr_gt0 ?ltr0n.
have h1 : (1 * 1 + 1)%:R / (8%:R * e ^+ 2) < 3%:R / 8%:R.
  rewrite ltr_pdivr_mulr // mulrA divfK ?pnatr_eq0 // e2 mulrA -natrM.
  by rewrite ltr_pdivl_mulr ?ltr0n // -natrM ltr_nat.
have -> : 2%:R^-1 = 3%:R / 8%:R + 1 / 8%:R :> R.
  rewrite -mulrDl -[X in (_ + X)]/(1%:R) -natrD.
  by apply: (mulIf (x := 8%:R)); rewrite ?pnatr_eq0 // divfK ?pnatr_eq0 // (natrM R 2 4) mulKf ?pnatr_eq0.
by rewrite mulr1 ltr_add2r.
Qed.
Lemma wit_err : (1 + (2%:R^-1 / 1) ^+ (2 * 4) * (1 / (1 - e) ^+ 2)) * (7%:R / 4%:R) < 1 + 7%:R / 4%:R :> R.
Proof.
have t0 : 10%:R != 0 :> R by rewrite pnatr_eq0.
have -> : 1 - e = 10%:R^-1.
  by apply: (mulIf t0); rewrite mulrBl divfK // mulVf // mul1r -natrB.
rewrite mulrDl mul1r addrC ltr_add2r divr1 div1r !exprVn invrK -!natrX.
have p : 0 < (2 ^ (2 * 4))%:R :> R by rewrite ltr0n.
rewrite -mulrA ltr_pdivr_mull // mulr1 mulrA -natrM ltr_pdivr_mulr ?ltr0n // -natrM ltr_nat.
by [].
Qed.
End Wit.

Lemma prob_wit (R : rcfType) :
  let t : 'cV[R]_8 := \col_i (if i == 0 then 1 else 2%:R^-1) in
  let A := diag_mx t^T in let e : R := 9%:R / 10%:R in
  [/\ sing_split A 1%:M t 1%:M 1 4 2%:R^-1 1, 0 < e < 1,
      (1 * 1 + 1)%:R / (8%:R * e ^+ 2) + 1%:R / (8%:R * 1) < 2%:R^-1,
      (1 + (2%:R^-1 / 1) ^+ (2 * 4) * (1 / (1 - e) ^+ 2)) * (\sum_(i < 8 | (1 <= i)%N) t i 0 ^+ 2) < fro2 A &
      uncorrelated (@ga_mean R 8 8) (ga_rng R 8 8) 8 8 /\ normal4 (@ga_mean R 8 8) (ga_rng R 8 8) 8 8].
Proof.
move=> t A e.
have tE (i : 'I_8) : t i 0 = if i == 0 then 1 else 2%:R^-1 by rewrite mxE.
have i0 (x : 'I_8) : (x == 0) = (x == 0%N :> nat) by [].
split.
- split; [by rewrite /A mul1mx mulmx1 | exact: ortho1 | by rewrite trmx1; exact: ortho1 | by [] |].
  split=> [|i|_]; first by rewrite invr_ge0 ler0n.
    by rewrite tE i0; case: eqP => [-> //|_ _]; rewrite ger0_norm ?invr_ge0 ?ler0n.
  split=> [|i]; first exact: ltr01.
  by rewrite tE i0 ltnS leqn0 => ->; rewrite normr1.
- exact: emb_wit_e.
- exact: wit_fail.
- have sE : \sum_(i < 8 | (1 <= i)%N) t i 0 ^+ 2 = 7%:R / 4%:R.
    rewrite big_mkcond !big_ord_recl big_ord0 !tE /= add0r addr0 exprVn -natrX.
    have -> : 7%:R = 1 + 1 + 1 + 1 + 1 + 1 + 1 :> R by rewrite !mulrS mulr0n addr0 !addrA.
    by rewrite !mulrDl !mul1r !addrA.
  have fE : fro2 A = 1 + 7%:R / 4%:R.
    rewrite /A fro2_diag fro2_sum (bigID (fun i : 'I_8 => (1 <= i)%N)) /= sE addrC; congr (_ + _).
    by rewrite (big_pred1 ord0) ?tE ?expr1n // => i; rewrite -leqNgt leqn0.
  rewrite sE fE.
  exact: wit_err.
split; [exact: ga_uncorrelated | exact: ga_normal4].
Qed.
