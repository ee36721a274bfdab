(** Proofs of C93: the drivers with an SJLT sketch, with quantified failure
    probability. *)
From mathcomp Require Import all_ssreflect all_algebra.
From mathcomp Require Import zify.
From Verif Require Import Base Arr Lapack Exact MxLib RingTac LapackSpec LapackExists Rng Aware.
From Verif Require Import Sel Sketching P_Sketch P_Sketch2 P_Sketch3 P_Sjlt P_Iso P_Interp2 P_Svd P_Precond.
From Verif Require Import Pcg P_Pcg P_Pcss1 Precond LstSq SaddleSys Drivers P_LS P_LS2 P_LS3 P_LS4 P_LS5 P_LS6 P_LS7.
From Verif Require Import P_Rate P_Rate2 P_Rate3 P_Rate4 P_Drivers P_Embed.
Set Implicit Arguments.
Unset Strict Implicit.
Unset Printing Implicit Defensive.
Import Order.TTheory GRing.Theory Num.Theory.
Local Open Scope ring_scope.

(** ** No singular value is cut off *)
Section Clean.
Variable R : rcfType.

Lemma lt_cut (x y mu La : R) n : 0 <= x -> 0 <= y -> x ^+ 2 <= La -> mu <= y ^+ 2 -> (n ^ 2)%:R * La < mu * 2%:R ^+ 104 ->
  x * n%:R * 2%:R ^- 52 < y.
Proof.
move=> x0 y0 xL my h; have p : 0 < 2%:R ^+ 52 :> R by rewrite exprn_gt0 ?ltr0n.
rewrite ltr_pdivr_mulr // -(ltr_pexpn2r (_ : 0 < 2)%N) ?nnegrE ?mulr_ge0 ?ler0n ?(ltW p) //.
rewrite (exprMn 2 x) (exprMn 2 y) -exprM; apply: (@le_lt_trans _ _ ((n ^ 2)%:R * La)).
  by rewrite mulrC -natrX ler_wpmul2l ?ler0n.
by apply: (lt_le_trans h); rewrite ler_wpmul2r // exprn_ge0 ?ler0n.
Qed.

Lemma clean_bnd (L : lapack R) p n (X : 'M[R]_(p, n)) mu La : svd_spec L -> (0 < p)%N -> (0 < n)%N ->
  (forall v : 'cV[R]_n, mu * fro2 v <= fro2 (X *m v) <= La * fro2 v) -> (n ^ 2)%:R * La < mu * 2%:R ^+ 104 ->
  forall U s Vh, l_svd L (ofmx X) = Ok (U, s, Vh) -> cut_clean n s.
Proof.
move=> svd p0 n0 bnd cnd U s Vh E.
have [U0 [s0 [V0 [[E' oU oV XE] [s_ge _]]]]] := svd _ _ X p0 n0.
move: E; rewrite E' => -[_ <- _] t ts; right.
have col i : mu <= s0 i 0 ^+ 2 <= La.
  have := bnd (V0^T *m delta_mx i 0).
  have VV : V0 *m V0^T = 1%:M by rewrite -{1}[V0]trmxK oV.
  rewrite XE -!mulmxA !(mulmxA V0) VV mul1mx (fro2_ortho _ oV) !(fro2_ortho _ oU).
  have d1 : fro2 (delta_mx i 0 : 'cV[R]_(minn p n)) = 1.
    rewrite /fro2 (bigD1 i) //= big_ord1 mxE !eqxx expr1n big1 ?addr0 // => j ji.
    by rewrite big_ord1 mxE (negPf ji) expr0n.
  have -> : diag_mx s0^T *m delta_mx i 0 = s0 i 0 *: delta_mx i 0 :> 'cV[R]_(minn p n).
    apply/matrixP=> a b; rewrite mul_diag_mx !mxE.
    by have [->|] := eqVneq a i; rewrite //= !mulr0.
  by rewrite fro2Z d1 !mulr1.
have q0 : (0 < minn p n)%N by rewrite leq_min p0.
have [i lt <-] := nthP 0 ts; move: lt; rewrite size_ofcv => lt.
rewrite (nth_ofcv _ lt) (nth_ofcv _ q0).
have /andP[_ h1] := col (Ordinal q0); have /andP[h2 _] := col (Ordinal lt).
exact: lt_cut h1 h2 cnd.
Qed.

Variables (m n d : nat) (A : 'M[R]_(m, n)) (Sm : 'M[R]_(d, m)) (dl a c e : R).
Hypotheses (dl0 : 0 <= dl) (e0 : 0 < e < 1) (em : embeds (Sm *m A) A (1 - e) (1 + e)).
Hypothesis bA : forall v : 'cV[R]_n, a * fro2 v <= fro2 (A *m v) <= c * fro2 v.

Lemma lift_bnd p (X : 'M[R]_(p, n)) : lifted (Sm *m A) dl X ->
  forall v : 'cV[R]_n, (1 - e) * (a + dl) * fro2 v <= fro2 (X *m v) <= (1 + e) * (c + dl) * fro2 v.
Proof using dl0 e0 em bA.
move=> lX v; have [p' [Ab' lA]] : exists p' (Ab' : 'M[R]_(p', n)), lifted A dl Ab'.
  by exists (m + n)%N, (col_mx A (Num.sqrt dl)%:M); exact: liftedS.
case/andP: e0 => e0' e1.
have lo1 : 1 - e <= 1 by rewrite ler_subl_addr ler_addl ltW.
have hi1 : 1 <= 1 + e by rewrite ler_addl ltW.
have /(_ v)/andP[h1 h2] := embeds_lift dl0 lo1 hi1 em lX lA.
have fE : fro2 (Ab' *m v) = fro2 (A *m v) + dl * fro2 v.
  exact: lf_norm.
have /andP[b1 b2] := bA v; rewrite fE in h1 h2.
apply/andP; split.
  apply: le_trans h1; rewrite -mulrA ler_wpmul2l ?subr_ge0 ?(ltW e1) // mulrDl ler_add2r //.
apply: le_trans h2 _; rewrite -mulrA ler_wpmul2l ?(le_trans ler01) // mulrDl ler_add2r //.
Qed.

Hypothesis n0 : (0 < n)%N.
Hypothesis cnd : (n ^ 2)%:R * ((1 + e) * (c + dl)) < (1 - e) * (a + dl) * 2%:R ^+ 104.

Lemma clean_lift (L : lapack R) p (X : 'M[R]_(p, n)) : svd_spec L -> (0 < p)%N -> lifted (Sm *m A) dl X ->
  forall U s Vh, l_svd L (ofmx X) = Ok (U, s, Vh) -> cut_clean n s.
Proof using dl0 e0 em bA n0 cnd.
by move=> svd p0 lX; apply: (clean_bnd svd p0 n0 (lift_bnd lX)).
Qed.

Lemma clean_sketch (L : lapack R) md : svd_spec L -> (0 < d)%N -> sketch_clean L md dl (Sm *m A).
Proof using dl0 e0 em bA n0 cnd.
move=> svd d0 _ X U s Vh; have [p [Ab [bb [lA _ dp -> _]]]] := lift_exists (Sm *m A) dl 0.
rewrite (max_idPr dl0) in lA => -[<-]; exact: (clean_lift svd (leq_trans d0 dp) lA).
Qed.

Lemma clean_a_lift (L : lapack R) : svd_spec L -> (0 < d)%N -> lift_clean L dl (Sm *m A).
Proof using dl0 e0 em bA n0 cnd.
move=> svd d0 X U s Vh; rewrite a_liftE sqrtr_eq0 => -[<-].
have [dp|dp] := leP dl 0.
  have z : dl = 0 by apply/eqP; rewrite eq_le dp dl0.
  by apply: clean_lift => //; rewrite z; exact: lifted0.
apply: clean_lift => //; last exact: liftedS.
by rewrite addn_gt0 d0.
Qed.

Lemma clean_pos : 0 < a + dl.
Proof using dl0 e0 bA n0 cnd.
case/andP: e0 => e0' e1.
have c0 : 0 <= c.
  have := bA (const_mx 1); have f0 : 0 < fro2 (const_mx 1 : 'cV[R]_n).
    rewrite lt_neqAle fro2_ge0 andbT eq_sym fro2_eq0; apply/eqP=> /matrixP/(_ (Ordinal n0) 0)/eqP.
    by rewrite !mxE oner_eq0.
  case/andP=> _ h; rewrite -(pmulr_lge0 _ f0); apply: le_trans h; exact: fro2_ge0.
have : 0 < (1 - e) * (a + dl) * 2%:R ^+ 104.
  apply: le_lt_trans cnd; rewrite mulr_ge0 ?ler0n // mulr_ge0 ?addr_ge0 ?ler01 // ltW //.
rewrite pmulr_lgt0 ?exprn_gt0 ?ltr0n // pmulr_rgt0 // subr_gt0 //.
Qed.

Lemma bnd_rank (x : R) p (B : 'M[R]_(p, n)) : 0 < x -> (forall v : 'cV[R]_n, x * fro2 v <= fro2 (B *m v)) -> \rank B = n.
Proof.
move=> x0 h; apply/eqP; rewrite -mxrank_tr -/(row_free _) -kermx_eq0; apply/rowV0P=> v /sub_kermxP e1.
have := h v^T; have -> : B *m v^T = 0 by rewrite -[LHS]trmxK trmx_mul trmxK e1 trmx0.
rewrite fro20 pmulr_rle0 // fro2_trmx => le; apply/eqP; rewrite -fro2_eq0 eq_le le; exact: fro2_ge0.
Qed.

Lemma clean_rank : \rank A = n \/ 0 < dl.
Proof using dl0 e0 bA n0 cnd.
have := clean_pos; move: dl0; rewrite le_eqVlt => /orP[/eqP<-|]; last by right.
rewrite addr0 => a0; left; apply: (bnd_rank a0) => v; by have /andP[] := bA v.
Qed.

Lemma clean_rankS : \rank (Sm *m A) = n \/ 0 < dl.
Proof using dl0 e0 bA n0 cnd em.
have := clean_pos; move: dl0; rewrite le_eqVlt => /orP[/eqP<-|]; last by right.
rewrite addr0 => a0; left; case/andP: e0 => e0' e1.
apply: (@bnd_rank ((1 - e) * a)) => [|v]; first by rewrite mulr_gt0 ?subr_gt0.
have /andP[h _] := em v; apply: le_trans h; rewrite -mulrA ler_wpmul2l ?subr_ge0 ?(ltW e1) //.
by have /andP[] := bA v.
Qed.
End Clean.

(** ** The sketch drawn by a driver *)
Section Draw.
Variables (R : rcfType) (G : Type) (E : (G -> R) -> R) (r : rng_ops G R).
Hypotheses (mE : mean E) (pE : positive E) (rok : rng_ok r).
Variables (d m nnz : nat).
Hypotheses (d0 : (0 < d)%N) (dm : (d <= m)%N) (z0 : (0 < nnz)%N) (zd : (nnz <= d)%N).
Notation C g := (choices r d nnz false m g).
Hypothesis rs : random_signs4 E (fun g => (C g).2) (fun g => (r_random r (C g).1 (m * nnz)).2) (m * nnz).
Hypothesis ps : pair_samples E (fun g => (C g).2) d nnz m.

Lemma sj_drawn g es s1 Sk (Sm : 'M[R]_(d, m)) : @skopSJ R (rcf_ops R) G r nnz d m (St g es) = (s1, inr Sk) -> py_is Sk Sm ->
  Sm = outmat d m (sjlt_operator r d m RGen nnz (St g [::])).
Proof using rok d0 dm zd.
move=> E1 pS; transitivity (outmat d m (sjlt_operator r d m RGen nnz (St g es))); last by rewrite !sj_S.
rewrite [sjlt_operator _ _ _ _ _ _]E1 /outmat /=.
apply/matrixP=> i j; rewrite [RHS]mxE (py_rv pS) /= (nth_ofcv _ (ltn_ord i)) mxE (bigD1 j) //=.
rewrite mxE !eqxx mulr1 big1 ?addr0 => [|k kj]; last by rewrite mxE (negPf kj) mulr0.
by congr (Sm _ _); apply: val_inj.
Qed.

Lemma sj_event n (A : 'M[R]_(m, n)) e : 0 < e ->
  exists B : G -> bool, E (fun g => (~~ B g)%:R) <= (n * n + n)%:R / (d%:R * e ^+ 2) /\
  forall g es s1 Sk (Sm : 'M[R]_(d, m)), B g -> @skopSJ R (rcf_ops R) G r nnz d m (St g es) = (s1, inr Sk) ->
    py_is Sk Sm -> embeds (Sm *m A) A (1 - e) (1 + e).
Proof using mE pE rok d0 dm z0 zd rs ps.
move=> e0; have [B [PB hB]] := embed_event mE pE A ler01 e0 (sj_wmom mE rok [::] d0 dm z0 zd rs ps).
by exists B; split=> // g es s1 Sk Sm /hB Bg E1 pS; rewrite (sj_drawn E1 pS).
Qed.

Lemma sj_event2 n (A : 'M[R]_(m, n)) b e : 0 < e ->
  exists B : G -> bool, E (fun g => (~~ B g)%:R) <= ((n + 1) * (n + 1) + (n + 1))%:R / (d%:R * e ^+ 2) /\
  forall g es s1 Sk (Sm : 'M[R]_(d, m)), B g -> @skopSJ R (rcf_ops R) G r nnz d m (St g es) = (s1, inr Sk) ->
    py_is Sk Sm -> embeds2 Sm A b (1 - e) (1 + e).
Proof using mE pE rok d0 dm z0 zd rs ps.
move=> e0; have [B [PB hB]] := embed2_event mE pE A b ler01 e0 (sj_wmom mE rok [::] d0 dm z0 zd rs ps).
by exists B; split=> // g es s1 Sk Sm /hB Bg E1 pS; rewrite (sj_drawn E1 pS).
Qed.
End Draw.

(** The sign and row draws of an SJLT operator with d rows and m columns. *)
Definition sjlt_law (R : rcfType) (G : Type) (E : (G -> R) -> R) (r : rng_ops G R) (d m nnz : nat) : Prop :=
  let C g := choices r d nnz false m g in
  random_signs4 E (fun g => (C g).2) (fun g => (r_random r (C g).1 (m * nnz)).2) (m * nnz) /\
  pair_samples E (fun g => (C g).2) d nnz m.

(** ** Products and subspaces under a random operator *)
Section Amm.
Variables (R : rcfType) (G : Type) (E : (G -> R) -> R) (r : rng_ops G R).
Hypotheses (mE : mean E) (rok : rng_ok r).

Lemma amm_sketch d m n p (S : G -> 'M[R]_(d, m)) (A : 'M[R]_(m, n)) (B : 'M[R]_(m, p)) s : 0 <= s ->
  wmom E d s (fun g => (S g)^T *m S g - 1%:M) ->
  E (fun g => fro2 ((S g *m A)^T *m (S g *m B) - A^T *m B)) <= (fro2 A * fro2 B + fro2 (A^T *m B)) / d%:R.
Proof using mE.
move=> s0 HW.
have -> : E (fun g => fro2 ((S g *m A)^T *m (S g *m B) - A^T *m B)) =
          E (fun g => fro2 (A^T *m ((S g)^T *m S g - 1%:M) *m B)).
  by apply: (mean_ext mE) => g; rewrite mulmxBr mulmxBl mulmx1 trmx_mul !mulmxA.
exact: (amm mE s0 HW A B).
Qed.

Lemma gauss_amm d m n p (A : 'M[R]_(m, n)) (B : 'M[R]_(m, p)) es :
  uncorrelated E r d m -> normal4 E r d m -> (0 < d <= m)%N ->
  let S g := outmat d m (gaussian_operator r true d m (St g es)) in
  E (fun g => fro2 ((S g *m A)^T *m (S g *m B) - A^T *m B)) <= (fro2 A * fro2 B + fro2 (A^T *m B)) / d%:R.
Proof using mE rok.
move=> un n4 /andP[d0 dm]; cbv zeta; apply: (amm_sketch A B (lexx 0)); exact: (gauss_wmom mE rok es un n4 d0 dm).
Qed.

Lemma sjlt_amm d m nnz n p (A : 'M[R]_(m, n)) (B : 'M[R]_(m, p)) es :
  sjlt_law E r d m nnz -> (0 < nnz <= d)%N -> (d <= m)%N ->
  let S g := outmat d m (sjlt_operator r d m RGen nnz (St g es)) in
  E (fun g => fro2 ((S g *m A)^T *m (S g *m B) - A^T *m B)) <= (fro2 A * fro2 B + fro2 (A^T *m B)) / d%:R.
Proof using mE rok.
move=> [rs ps] /andP[z0 zd] dm; cbv zeta; have d0 := leq_trans z0 zd; apply: (amm_sketch A B ler01).
exact: (sj_wmom mE rok es d0 dm z0 zd rs ps).
Qed.

Hypothesis pE : positive E.

Lemma gauss_embed d m n (A : 'M[R]_(m, n)) e es :
  uncorrelated E r d m -> normal4 E r d m -> (0 < d <= m)%N -> 0 < e ->
  let S g := outmat d m (gaussian_operator r true d m (St g es)) in
  exists B : G -> bool, E (fun g => (~~ B g)%:R) <= (n * n + n)%:R / (d%:R * e ^+ 2) /\
    forall g, B g -> embeds (S g *m A) A (1 - e) (1 + e).
Proof using mE pE rok.
move=> un n4 /andP[d0 dm] e0 S; apply: (embed_event mE pE A (lexx 0) e0); exact: (gauss_wmom mE rok es un n4 d0 dm).
Qed.

Lemma sjlt_embed d m nnz n (A : 'M[R]_(m, n)) e es :
  sjlt_law E r d m nnz -> (0 < nnz <= d)%N -> (d <= m)%N -> 0 < e ->
  let S g := outmat d m (sjlt_operator r d m RGen nnz (St g es)) in
  exists B : G -> bool, E (fun g => (~~ B g)%:R) <= (n * n + n)%:R / (d%:R * e ^+ 2) /\
    forall g, B g -> embeds (S g *m A) A (1 - e) (1 + e).
Proof using mE pE rok.
move=> [rs ps] /andP[z0 zd] dm e0 S; have d0 := leq_trans z0 zd; apply: (embed_event mE pE A ler01 e0).
exact: (sj_wmom mE rok es d0 dm z0 zd rs ps).
Qed.
End Amm.

Section Prob.
Variables (R : rcfType) (G : Type) (E : (G -> R) -> R) (L : lapack R) (r : rng_ops G R).
Hypotheses (mE : mean E) (pE : positive E) (rok : rng_ok r).
Variables (m n : nat) (A : 'M[R]_(m, n)) (sf : rat) (nnz d : nat) (e : R).
Hypotheses (nm : (0 < n <= m)%N) (zn : (0 < nnz <= n)%N) (sfn : n%:Z <= trunc_rat (sf * n%:R)).
Hypotheses (e01 : 0 < e < 1).

Let e0 : 0 < e. Proof. by case/andP: e01. Qed.
Let lo1 : 0 < 1 - e <= 1.
Proof. by case/andP: e01 => h1 h2; rewrite subr_gt0 h2 ler_subl_addr ler_addl ltW. Qed.
Let hi1 : 1 <= 1 + e. Proof. by rewrite ler_addl ltW. Qed.
Let z0 : (0 < nnz)%N. Proof. by case/andP: zn. Qed.
Let ok : lsq_ok (@skopSJ R (rcf_ops R) G r nnz) sf m n. Proof. exact: sj_lsq_ok. Qed.

Section Min.
Hypotheses (dE : d%:Z = Num.min (trunc_rat (sf * n%:R)) m%:Z) (law : sjlt_law E r d m nnz).
Let d0 : (0 < d)%N. Proof. by move: dE sfn nm; lia. Qed.
Let dm : (d <= m)%N. Proof. by move: dE; lia. Qed.
Let zd : (nnz <= d)%N. Proof. by move: dE sfn nm zn; lia. Qed.

Lemma drew_d s s1 d' (Sm : 'M[R]_(d', m)) : drew (@skopSJ R (rcf_ops R) G r nnz) sf n s s1 Sm -> d' = d.
Proof. by case=> h _; move: h dE; lia. Qed.

Lemma sso1_prob b : lstsq_spec L ->
  exists B : G -> bool, E (fun g => (~~ B g)%:R) <= ((n + 1) * (n + 1) + (n + 1))%:R / (d%:R * e ^+ 2) /\
  forall g es dl, B g -> 0 <= dl -> exists x : 'cV[R]_n,
    (sso1 L r (ofmx A) (ofcv b) dl RGen sf nnz (St g es)).2 = inr (ofcv x) /\
    forall z, (1 - e) * ridge A b dl x <= (1 + e) * ridge A b dl z.
Proof.
move=> ls; have [rs ps] := law.
have [B [PB hB]] := sj_event2 mE pE rok d0 dm z0 zd rs ps A b e0.
exists B; split=> // g es dl Bg dl0.
have [s1 [d' [Sm [x [dE' [s0 [Sk [gE kE pS]]] Ex H]]]]] := sso1_quality_lemma A b None 1 (St g es) ls ok dl0.
have dd : d' = d by move: dE' dE; lia.
subst d'; exists x; split; first by rewrite /sso1 /= Ex.
apply: H; last by right; case/andP: lo1.
case: s0 gE kE => g' es' /= -> kE; exact: hB kE pS.
Qed.

Section Spo.
Variables (a c dl : R).
Hypothesis dl0 : 0 <= dl.
Hypothesis bA : forall v : 'cV[R]_n, a * fro2 v <= fro2 (A *m v) <= c * fro2 v.
Hypothesis cnd : (n ^ 2)%:R * ((1 + e) * (c + dl)) < (1 - e) * (a + dl) * 2%:R ^+ 104.

Lemma spo_prob b : qr_spec L -> svd_spec L ->
  exists B : G -> bool, E (fun g => (~~ B g)%:R) <= ((n + 1) * (n + 1) + (n + 1))%:R / (d%:R * e ^+ 2) /\
  forall g es md tol lim clk x l, B g -> md <> MOther -> 0 <= lim ->
    (spo3 L r (ofmx A) (ofcv b) dl tol lim RGen sf nnz md clk (St g es)).2 = inr (x, l) ->
  exists (xv : 'cV[R]_n) k,
  [/\ x = ofcv xv, exists es, errors l = Some es /\ size es = k.+1,
    forall z, (1 - e) * ridge A b dl xv <= (1 - e + cheb (1 - e) (1 + e) k ^+ 2 * (1 + e - (1 - e))) * ridge A b dl z &
    tol <= 0 -> (n ^ 2)%:R * (1 + e) < (1 - e) * (10%:R ^+ 8 - 1) ^+ 2 ->
    forall z, (1 - e) * ridge A b dl xv <=
      (1 - e + cheb (1 - e) (1 + e) (absz lim) ^+ 2 * (1 + e - (1 - e))) * ridge A b dl z].
Proof.
move=> qr svd; have [rs ps] := law.
have [B [PB hB]] := sj_event2 mE pE rok d0 dm z0 zd rs ps A b e0.
exists B; split=> // g es md tol lim clk x l Bg mO l0; rewrite /spo3 /= => E'.
case E1 : (SPO L (@skopSJ R (rcf_ops R) G r nnz) sf md (ofmx A) (ofcv b) dl tol lim true clk (St g es)) E' => [s' o] /= oE.
rewrite {}oE in E1; case/andP: nm => n0 _.
have rk : \rank A = n \/ 0 < dl by exact: (clean_rank dl0 e01 bA n0 cnd).
have [d' [Sm [xv [k [dr xE lgE H]]]]] := spo_quality_lemma ok qr svd dl0 mO l0 rk E1.
have dd := drew_d dr; subst d'; have [_ [Sk [kE pS]]] := dr.
have em2 := hB _ _ _ _ _ Bg kE pS; have em := embeds2_1 em2.
have [H1 H2] := H _ _ em2 lo1 hi1 (clean_sketch dl0 e01 em bA n0 cnd svd d0).
by exists xv, k; split=> //; exact: lgE.
Qed.
End Spo.

Section Spu.
Variables (a c : R).
Hypothesis bA : forall v : 'cV[R]_n, a * fro2 v <= fro2 (A *m v) <= c * fro2 v.
Hypothesis cnd : (n ^ 2)%:R * ((1 + e) * c) < (1 - e) * a * 2%:R ^+ 104.

Lemma spu_prob : svd_spec L ->
  exists B : G -> bool, E (fun g => (~~ B g)%:R) <= (n * n + n)%:R / (d%:R * e ^+ 2) /\
  forall g es (rhs : 'cV[R]_n) tol lim clk y l, B g -> 0 <= lim ->
    (spu1 L r (ofmx A) (ofcv rhs) tol lim RGen sf nnz clk (St g es)).2 = inr (y, l) ->
  exists (yv : 'cV[R]_m) k,
  [/\ y = ofcv yv, exists es, errors l = Some es /\ size es = k.+1,
    forall ys, ridge_min A^T rhs 0 ys ->
      (1 - e) * fro2 (yv - ys) <= (1 + e) * (cheb (1 - e) (1 + e) k ^+ 2 * fro2 ys) &
    tol <= 0 -> (n ^ 2)%:R * (1 + e) < (1 - e) * (10%:R ^+ 8 - 1) ^+ 2 -> forall ys, ridge_min A^T rhs 0 ys ->
      (1 - e) * fro2 (yv - ys) <= (1 + e) * (cheb (1 - e) (1 + e) (absz lim) ^+ 2 * fro2 ys)].
Proof.
move=> svd; have [rs ps] := law.
have [B [PB hB]] := sj_event mE pE rok d0 dm z0 zd rs ps A e0.
exists B; split=> // g es rhs tol lim clk y l Bg l0; rewrite /spu1 /= => E'.
case E1 : (SPU1 L (@skopSJ R (rcf_ops R) G r nnz) sf (ofmx A) (ofcv rhs) tol lim true clk (St g es)) E' => [s' o] /= oE.
rewrite {}oE in E1; case/andP: nm => n0 _.
have [d' [Sm [yv [k [dr yE lgE H]]]]] := spu_rate_lemma ok svd l0 E1.
have dd := drew_d dr; subst d'; have [_ [Sk [kE pS]]] := dr.
have em := hB _ _ _ _ _ Bg kE pS.
have cl : svd_clean L (Sm *m A).
  apply: (clean_lift (lexx 0) e01 em bA n0 _ svd d0 (lifted0 _)); by rewrite !addr0.
have lh : 0 < 1 - e <= 1 + e by case/andP: lo1 => -> h /=; apply: le_trans h hi1.
exists yv, k; split=> //; first exact: lgE.
  by move=> ys /(H _ _ _ em lh cl)[].
by move=> t1 t2 ys /(H _ _ _ em lh cl)[_]; apply.
Qed.
End Spu.
End Min.

Section Sps.
Hypotheses (dE : d%:Z = trunc_rat (sf * n%:R)) (dm : (d <= m)%N) (law : sjlt_law E r d m nnz).
Let d0 : (0 < d)%N. Proof. by move: dE sfn nm; lia. Qed.
Let zd : (nnz <= d)%N. Proof. by move: dE sfn nm zn; lia. Qed.
Variables (a c0 dl : R).
Hypothesis dl0 : 0 <= dl.
Hypothesis bA : forall v : 'cV[R]_n, a * fro2 v <= fro2 (A *m v) <= c0 * fro2 v.
Hypothesis cnd : (n ^ 2)%:R * ((1 + e) * (c0 + dl)) < (1 - e) * (a + dl) * 2%:R ^+ 104.

Lemma sps_prob : svd_spec L -> n%:R < 2%:R ^+ 52 :> R ->
  exists B : G -> bool, E (fun g => (~~ B g)%:R) <= (n * n + n)%:R / (d%:R * e ^+ 2) /\
  forall g es (b : option 'cV[R]_m) (c : option 'cV[R]_n) tol lim clk, B g -> 0 <= tol -> 0 <= lim ->
  exists (xv x0 : 'cV[R]_n) k l,
  [/\ (sps L r (ofmx A) (omap (@ofcv R m) b) (omap (@ofcv R n) c) dl tol lim RGen sf nnz SpsPcg clk (St g es)).2 =
        inr (Some (ofcv xv), ofcv (vdef b - A *m xv), l),
      exists s1, forall clk,
        SPS1 L (@skopSJ R (rcf_ops R) G r nnz) sf (@PcSS1 R (rcf_ops R)) NLeft (ofmx A) (omap (@ofcv R m) b) (omap (@ofcv R n) c)
          dl tol 0 false clk (St g es) = (s1, inr (Some (ofcv x0), ofcv (vdef b - A *m x0), log_of false clk)),
      exists es, errors l = Some es /\ size es = k.+1 &
  forall xs, saddle A (vdef b) (vdef c) dl xs (vdef b - A *m xs) ->
    serr A dl xs xv <= cheb (1 - e) (1 + e) k ^+ 2 * serr A dl xs x0 /\
    (tol = 0 -> serr A dl xs xv <= cheb (1 - e) (1 + e) (absz lim) ^+ 2 * serr A dl xs x0)].
Proof.
move=> svd n52; have [rs ps] := law.
have [B [PB hB]] := sj_event mE pE rok d0 dm z0 zd rs ps A e0.
exists B; split=> // g es b c tol lim clk Bg t0 l0; rewrite /sps /=.
case/andP: nm => n0 nm'.
have rk : \rank A = n \/ 0 < dl by exact: (clean_rank dl0 e01 bA n0 cnd).
have dt : absz (trunc_rat (sf * n%:R)) = d by rewrite -dE.
have sO : NLeft <> NOther by [].
have gk : gen_ok (@skopSJ R (rcf_ops R) G r nnz) (absz (trunc_rat (sf * n%:R))) m.
  by apply: sj_gen_ok; rewrite ?dt //; exact: leq_trans d0 dm.
have [sr [Skr [Smr [gEr pSr Hr]]]] := sps1_full_lemma (strat := NLeft) b c svd rk dl0 t0 (St g es) n0 n52 sfn sO gk.
have slv : sps1_solves L (@skopSJ R (rcf_ops R) G r nnz) sf NLeft A b c dl tol (St g es).
  apply: Hr; move: Smr gEr pSr; rewrite dt => Smr gEr pSr.
  have emr := hB _ _ _ _ _ Bg gEr pSr.
  case: (clean_rankS dl0 e01 emr bA n0 cnd) => [rr|]; last by right.
  by left=> z; move: rr n0; rewrite z mxrank0 => <-.
have [xr [l [oE _]]] := sps_ret clk slv l0.
case E1 : (SPS1 L (@skopSJ R (rcf_ops R) G r nnz) sf (@PcSS1 R (rcf_ops R)) NLeft (ofmx A) (omap (@ofcv R m) b)
  (omap (@ofcv R n) c) dl tol lim true clk (St g es)) oE => [s' o] /= oE.
rewrite {}oE in E1 *.
have [Sk [Sm [gE pS H]]] := sps1_rate_lemma svd rk dl0 t0 n0 n52 sfn sO gk l0 E1.
move: Sm gE pS H; rewrite dt => Sm gE pS H.
have em := hB _ _ _ _ _ Bg gE pS.
have cl := clean_a_lift dl0 e01 em bA n0 cnd svd d0.
have [xv [x0 [k [[h1 h1'] h2 h3 h4]]]] := H (clean_rankS dl0 e01 em bA n0 cnd) cl.
have xE : xr = xv by case: h1 => /ofcv_inj.
rewrite {}xE in E1 *.
exists xv, x0, k, l; split=> //; [by exists s' | exact: h3 | ].
by move=> xs sd; exact: (h4 _ _ _ em lo1 hi1 sd).
Qed.
End Sps.
End Prob.
