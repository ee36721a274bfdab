(** Proofs of C102, continued: one-block QB2 and svd1 in rounded arithmetic. *)
From mathcomp Require Import all_ssreflect all_algebra.
From mathcomp Require Import zify.
From Verif Require Import Base Arr Lapack Exact MxLib RingTac Sel LapackSpec LapackExists Rng Aware RangeFinders QB SvdEvd Shape Inexact Float.
From Verif Require Import Sketching P_Sketch2 P_Iso P_Embed P_Embed2 P_Prob P_Prob2 P_Prob4 P_Opt P_Opt2.
From Verif Require Import P_Shape P_ShapeLS P_RF P_Inexact P_Inexact4 P_Embed3 P_Float P_Float2 P_Float3 P_Float5 P_Float7 P_Float10.
Set Implicit Arguments.
Unset Strict Implicit.
Unset Printing Implicit Defensive.
Import Order.TTheory GRing.Theory Num.Theory.
Local Open Scope ring_scope.

Lemma rsafe_bind_at (G T Y Z : Type) (X : exn -> Prop) (Q : Y -> Prop) (P : Z -> Prop) (c : M G T Y) f s :
  rsafe X Q (c s).2 -> (forall y, Q y -> safe X P (f y)) -> rsafe X P (bind c f s).2.
Proof. by move=> h hf; rewrite /bind; move: h; case: (c s) => s' [e|y] //= /hf. Qed.

Section One.
Context {R : rcfType} {T : Type} {O : ops T} {G : Type}.
Variables (v : T -> R) (u : R) (X : exn -> Prop) (L : lapack T) (eta dl : R).
Hypotheses (F : fl_arith O v u) (qrL : qr_fl v X L eta dl) (e01 : 0 <= eta < 1) (dl0 : 0 <= dl).
Local Notation g := (gam u).
Local Notation mv := (@mval R T O v).
Add Field one_field : (rcf_field R).

Let e0 : 0 <= eta. Proof using e01. by case/andP: e01. Qed.
Let u0 : 0 <= u. Proof using F. exact: fl_u0 F. Qed.

Lemma fl_project_none m j (Qi Q : arr T) : shaped m j Qi -> shaped m 0 Q ->
  rsafe X (fun Q' => shaped m j Q' /\ fro (mv m j Q' - mv m j Qi) <= u * fro (mv m j Qi)) (project_out Qi Q).
Proof using F.
move=> sQi sQ; rewrite /project_out.
have := fl_mmul F X (sh_mtr sQ) sQi; case: (mmul _ _) => [e|W] //= [sW _].
have := fl_mmul F X sQ sW; case: (mmul _ _) => [e|P] //= [sP hP].
have P0 : mv m j P = 0.
  apply/eqP; rewrite -fro_eq0 -(subr0 (mv m j P)); apply/eqP/le_anti; rewrite fro_ge0 andbT.
  move: hP; rewrite [mv m 0 Q]thinmx0 mul0mx fro0 mul0r mulr0 //.
by have := fl_msub F X sQi sP; rewrite P0 subr0.
Qed.

Lemma requant m k n (AS : 'M[R]_(m, k)) (Q0 Q' Q1 : 'M[R]_(m, k)) (U0 U1 : 'M[R]_k) sk p : 0 <= sk -> 0 <= p ->
  near_ortho eta Q0 -> fro AS <= p -> fro (AS - Q0 *m U0) <= sk * p ->
  fro (Q' - Q0) <= u * fro Q0 -> fro (Q' - Q1 *m U1) <= dl * fro Q' ->
  sk = fl_sketch dl u n -> fro (AS - Q1 *m (U1 *m U0)) <= fl_sketch2 eta dl u n k * p.
Proof using F e01 dl0.
move=> sk0 p0 nQ pA h0 h1 h2 skE; have [_ e1] := andP e01.
have -> : AS - Q1 *m (U1 *m U0) = (AS - Q0 *m U0) + ((Q' - Q1 *m U1) - (Q' - Q0)) *m U0.
  have -> : Q' - Q1 *m U1 - (Q' - Q0) = Q0 - Q1 *m U1 by rewrite opprB addrC addrA subrK.
  by rewrite mulmxBl mulmxA addrA subrK.
apply: le_trans (ler_froD _ _) _; rewrite [X in _ <= X]mulrDl -skE; apply: ler_add => //.
apply: le_trans (fro_mul_le _ _) _.
have q0 := near_fro e0 nQ.
have t0 : 0 < Num.sqrt (1 - eta) by rewrite sqrtr_gt0 subr_gt0.
have hU : fro U0 <= (Num.sqrt (1 - eta))^-1 * ((1 + sk) * p).
  have := near_lo U0 e01 nQ; rewrite mulrC => /le_trans; apply; apply: ler_wpmul2l; first by rewrite invr_ge0 ltW.
  rewrite -[Q0 *m U0](subKr AS); apply: le_trans (ler_froD _ _) _; rewrite froN [X in _ <= X]mulrDl mul1r.
  exact: ler_add.
have hQ' : fro Q' <= (1 + u) * fro Q0.
  by rewrite -(subrK Q0 Q') addrC; apply: le_trans (ler_froD _ _) _; rewrite mulrDl mul1r ler_add2l.
rewrite -[X in _ <= X]mulrA -[X in _ <= _ * X]mulrA; apply: ler_pmul; rewrite ?fro_ge0 //.
apply: le_trans (ler_froD _ _) _; rewrite froN.
apply: le_trans (ler_add (le_trans h2 (ler_wpmul2l dl0 hQ')) h1) _.
have -> : dl * ((1 + u) * fro Q0) + u * fro Q0 = (u + dl * (1 + u)) * fro Q0 by move: (fro Q0) => x; rring.
by apply: ler_wpmul2l q0; rewrite addr_ge0 // mulr_ge0 // (addr_ge0 ler01 u0).
Qed.

Lemma skerr_ge0 n : 0 <= fl_sketch dl u n.
Proof using F dl0. by rewrite addr_ge0 // mulr_ge0 ?(gam_ge0 u0) // (addr_ge0 ler01 dl0). Qed.

Lemma sk2_ge0 n k : 0 <= fl_sketch2 eta dl u n k.
Proof using F dl0.
have s0 := skerr_ge0 n; have s1 := addr_ge0 ler01 s0; have u1 := addr_ge0 ler01 u0.
by rewrite addr_ge0 // !mulr_ge0 ?sqrtr_ge0 ?invr_ge0 ?sqrtr_ge0 // addr_ge0 // mulr_ge0.
Qed.

(** QB2 with a single block, from a state in which the sketching object draws S. *)
Lemma fl_QB2_one rso m n k b (PS : 'M[R]_(n, k) -> Prop) A tol (s : st G T) :
  (0 < k)%N -> (k <= minn m n)%N -> (k <= b)%N -> shaped m n A ->
  rsafe X (fun S => exists2 B, S = PyArr B & shaped n k B /\ PS (mv n k B)) (rso A k s).2 ->
  rsafe X (fun QB => [/\ shaped m k QB.1, shaped k n QB.2, near_ortho eta (mv m k QB.1),
      fro (mv k n QB.2 - (mv m k QB.1)^T *m mv m n A) <= fl_beta eta u m k * fro (mv m n A) &
      exists (S : 'M[R]_(n, k)) (U : 'M[R]_k),
      PS S /\ fro (mv m n A *m S - mv m k QB.1 *m U) <= fl_sketch2 eta dl u n k * (fro (mv m n A) * fro S)])
    (QB2_noov L (RF1 L rso) b%:Z A k%:Z tol s).2.
Proof using F qrL e01 dl0.
move=> k0 kmn kb sA hr; have [_ eA1 eA2] := sA.
have km : (k <= m)%N by move: kmn; rewrite leq_min => /andP[].
have hrf : rsafe X (fun Q => [/\ shaped m k Q, near_ortho eta (mv m k Q) & exists (S : 'M[R]_(n, k)) (U : 'M[R]_k),
      PS S /\ fro (mv m n A *m S - mv m k Q *m U) <= fl_sketch dl u n * (fro (mv m n A) * fro S)]) (RF1 L rso A k%:Z None s).2.
  have hr' : safe X (fun S => exists2 B, S = PyArr B & shaped n k B /\ PS (mv n k B)) ((fun A k (_ : st G T) => rso A k s) A k).
    by move=> s'.
  have := @fl_RF1 R T O G v u X L eta dl F qrL (fun A k (_ : st G T) => rso A k s) m n k PS A None dl0 k0 kmn sA hr' s.
  by rewrite /RF1 /bind /passert; do 2!case: (ifP _) => //=.
rewrite /QB2_noov; apply: (rsafe_bind_at (Q := fun x => let QB := x.1 in
    [/\ shaped m k QB.1, shaped k n QB.2, near_ortho eta (mv m k QB.1),
      fro (mv k n QB.2 - (mv m k QB.1)^T *m mv m n A) <= fl_beta eta u m k * fro (mv m n A) &
      exists (S : 'M[R]_(n, k)) (U : 'M[R]_k),
      PS S /\ fro (mv m n A *m S - mv m k QB.1 *m U) <= fl_sketch2 eta dl u n k * (fro (mv m n A) * fro S)])); last first.
  by move=> x h s'.
have k0z : (0 < k%:Z) = true by lia.
rewrite /QB2 eA1 eA2 k0z bind_passertT.
cbv zeta; rewrite lez_nat kmn.
have rb Y Z (x : Y) (h : Y -> M G T Z) : bind (ret x) h s = h x s by [].
rewrite rb absz_nat kmn bind_passertT.
apply: (rsafe_bind_at (Q := fun x : arr T * arr T * arr T => let QB := x.1 in
    [/\ shaped m k QB.1, shaped k n QB.2, near_ortho eta (mv m k QB.1),
      fro (mv k n QB.2 - (mv m k QB.1)^T *m mv m n A) <= fl_beta eta u m k * fro (mv m n A) &
      exists (S : 'M[R]_(n, k)) (U : 'M[R]_k),
      PS S /\ fro (mv m n A *m S - mv m k QB.1 *m U) <= fl_sketch2 eta dl u n k * (fro (mv m n A) * fro S)])); last first.
  by move=> x h s'.
rewrite [qb2_loop]lock -lock /= -/(qb2_loop L).
have -> : (if (k%:Z < 0%:Z + b%:Z) then (k%:Z - 0%:Z) else b%:Z) = k%:Z by case: ifP; lia.
apply: rsafe_bind_at hrf _ => Qi [sQi nQi [S [U [pS hS]]]]; apply: safe_emit.
apply: safe_bind (safe_lift (fl_project_none sQi (sh_mk _ _ _))) _ => Qi' [sQi' hQi'].
apply: safe_bind (safe_lift (fl_qr qrL k0 km sQi')) _ => QR [s1 _ nQ hQR].
apply: safe_bind (fl_passQtA X F e01 s1 sA nQ) _ => Bi [sBi hB].
apply: safe_bind (safe_lift (fl_hstack v X (sh_mk m 0 _) s1)) _ => Q' [sQ' eQ'].
apply: safe_bind (safe_lift (fl_vstack v X (sh_mk 0 n _) sBi)) _ => B' [sB' eB'].
apply: safe_bind (safe_lift (fl_mmul F X s1 sBi)) _ => P [sP hP].
apply: safe_bind (safe_lift (fl_msub F X sA sP)) _ => A' [sA' hA'].
have [_ eB'1 _] := sB'.
have fin : let QB := (Q', B') in
    [/\ shaped m k QB.1, shaped k n QB.2, near_ortho eta (mv m k QB.1),
      fro (mv k n QB.2 - (mv m k QB.1)^T *m mv m n A) <= fl_beta eta u m k * fro (mv m n A) &
      exists (S : 'M[R]_(n, k)) (U : 'M[R]_k),
      PS S /\ fro (mv m n A *m S - mv m k QB.1 *m U) <= fl_sketch2 eta dl u n k * (fro (mv m n A) * fro S)].
  have EQ : mv m k Q' = mv m k QR.1 by rewrite -[RHS](row_thin_mx (mv m 0 (mzeros m 0))); exact: eQ'.
  have EB : mv k n B' = mv k n Bi by rewrite -[RHS](col_flat_mx (mv 0 n (mzeros 0 n))); exact: eB'.
  split=> //=; rewrite ?EQ ?EB //.
  exists S, (mv k k QR.2 *m U); split=> //.
  apply: (requant (skerr_ge0 n) _ nQi _ hS hQi' hQR (erefl _)); first by rewrite mulr_ge0 ?fro_ge0.
  exact: fro_mul_le.
cbv zeta; case: ifP => st; first exact: safe_ret.
by rewrite eB'1 add0n leqnn; exact: safe_ret.
Qed.
End One.

(** ** Gaussian sketches: with the stated probability the error of any Q spanning the sketch up
    to a relative error sk is bounded through the singular values. *)
Section Gauss.
Context {R : rcfType} {T : Type} {O : ops T} {G : Type}.
Variables (E : (G -> R) -> R) (v : T -> R) (u : R) (X : exn -> Prop) (L : lapack T) (r : rng_ops G T) (eta dl mu : R).
Hypotheses (mE : mean E) (pE : positive E) (rok : rng_ok r).
Hypotheses (F : fl_arith O v u) (lsh : lap_shapes X L) (qrL : qr_fl v X L eta dl) (e01 : 0 <= eta < 1) (dl0 : 0 <= dl).
Local Notation g_ := (gam u).
Local Notation mv := (@mval R T O v).
Add Field ga_field : (rcf_field R).

Lemma gauss_core m n l q rk (A : arr T) (U : 'M[R]_(m, q)) (t : 'cV[R]_q) (Vh : 'M[R]_(q, n)) e th tp :
  (0 < l <= minn m n)%N -> shaped m n A -> fl_uncorrelated v E r n l -> fl_normal4 v E r n l ->
  mv m n A = U *m diag_mx t^T *m Vh -> orthonormal U -> orthonormal Vh^T -> (rk <= q)%N ->
  0 < e < 1 -> 0 < th -> 0 < tp ->
  exists B : G -> bool, E (fun g => (~~ B g)%:R) <= (rk * rk + rk)%:R / (l%:R * e ^+ 2) + rk%:R / (l%:R * th) + tp^-1 /\
  forall g, B g -> let Sm := mv n l (r_normal r g (@gscale T O n l) n l).2 in
  forall (sk : R) (Q : 'M[R]_(m, l)) (B' : 'M[R]_(l, n)) (V' : 'M[R]_l), 0 <= sk ->
    near_ortho eta Q -> fro (mv m n A *m Sm - Q *m V') <= sk * (fro (mv m n A) * fro Sm) ->
    fro (B' - Q^T *m mv m n A) <= fl_beta eta u m l * fro (mv m n A) ->
    fro (mv m n A - Q *m B') <=
      (1 + rho eta) * (Num.sqrt ((1 + th / (1 - e) ^+ 2) * \sum_(i < q | (rk <= i)%N) t i 0 ^+ 2) +
                       sk * Num.sqrt (tp * n%:R / (1 - e)) * fro (mv m n A)) +
      (rho eta + (1 + eta) * Num.sqrt l%:R * g_ m.+1) * fro (mv m n A).
Proof using mE pE rok F e01.
move=> /andP[l0 lmn] sA un n4 AE oU oVh rq ee th0 tp0.
have [V [U1 []]] := svd_top AE oU oVh rq; cbv zeta.
set D := diag_mx _; set Z := mv m n A - _ => oV oU1 AV AU [FV FU F2 _].
have ln : (l <= n)%N by move: lmn; rewrite leq_min => /andP[].
have n0 : (0 < n)%N by exact: leq_trans ln.
have nl0 : (0 < minn n l)%N by rewrite leq_min n0.
have sg0 := gscale_pos F nl0; set sg := v (gscale n l) in sg0.
have sgn : sg != 0 by exact: lt0r_neq0.
pose r' := @real_rng R T O G v r n l; have rok' : rng_ok r' by exact: real_rng_ok.
have un' := real_unc mE sgn un; have n4' := real_n4 mE sgn n4; rewrite -/r' in un' n4'.
have W := gauss_wmom_tall mE rok' [::] un' n4' l0 ln.
have [_ iso] := gauss_iso mE rok' [::] un' n0 l0; have {}iso := iso ln.
have [B [EB HB]] := sketch_event mE pE (lexx 0) ee th0 oV FV W.
have PA := sketch_size mE pE (1%:M : 'M[R]_n) tp0 iso.
pose (S g := outmat n l (gaussian_operator r' true n l (St g [::]))).
pose f g := fro2 (1%:M *m S g).
exists (fun g => B g && (f g <= tp * fro2 (1%:M : 'M[R]_n))); split.
  apply: le_trans (_ : E (fun g => (~~ B g)%:R + (~~ (f g <= tp * fro2 (1%:M : 'M[R]_n)))%:R) <= _).
    apply: (mean_le mE pE) => g; rewrite negb_and.
    by case: (B g); case: (f g <= _); rewrite /= ?addr0 ?add0r ?ler_addl ?ler01.
  by rewrite (mean_add mE) ler_add.
move=> g /andP[/HB {HB EB}]; rewrite -/(S g) => -[Y [VX Fl zX]] fA.
have e1 : 0 < 1 - e by rewrite subr_gt0; case/andP: ee.
cbv zeta; set Sm := mv n l (r_normal r g (@gscale T O n l) n l).2.
have [c c0 SE] : exists2 c, 0 < c & S g = c *: Sm.
  exists (Num.sqrt (minn n l)%:R^-1 / sg); first by rewrite divr_gt0 // sqrtr_gt0 invr_gt0 ltr0n.
  by apply/matrixP=> i j; rewrite /S gauss_call // !mxE /= el_mk.
move=> sk Q B' V' sk0 nQ hS hB.
have w2 : Num.sqrt (1 - e)^-1 ^+ 2 = (1 - e)^-1 by rewrite sqr_sqrtr // invr_ge0 ltW.
have w0 : 0 <= c * Num.sqrt (1 - e)^-1 by rewrite mulr_ge0 ?(ltW c0) ?sqrtr_ge0.
have VW : V^T *m Sm *m (c *: Y) = 1%:M by rewrite -VX SE -!scalemxAr -scalemxAl.
have Ww (z : 'cV[R]_l) : fro2 ((c *: Y)^T *m z) <= (c * Num.sqrt (1 - e)^-1) ^+ 2 * fro2 z.
  have tE : (c *: Y)^T = c *: Y^T by rewrite linearZ.
  rewrite tE -scalemxAl fro2Z [(c * _) ^+ 2]exprMn w2 -[_ / _ * _]mulrA.
  by apply: ler_wpmul2l; [exact: sqr_ge0|exact: zX].
have := near_sketch_abs e01 w0 nQ hS oV VW Ww; cbv zeta; rewrite -/Z => h.
have -> : mv m n A - Q *m B' = (mv m n A - Q *m (Q^T *m mv m n A)) - Q *m (B' - Q^T *m mv m n A).
  by rewrite mulmxBr opprB addrA subrK.
have /andP[eta0 _] := e01.
apply: le_trans (ler_froD _ _) _; rewrite froN [X in _ <= _ + X]mulrDl addrA; apply: ler_add; last first.
  apply: le_trans (near_up _ eta0 nQ) _; apply: le_trans (ler_wpmul2l (sqrtr_ge0 _) hB) _.
  have e10 : 0 <= 1 + eta by rewrite (addr_ge0 ler01 eta0).
  rewrite /fl_beta !mulrA; apply: ler_wpmul2r; first exact: fro_ge0; rewrite le_eqVlt; apply/orP; left; apply/eqP.
  by rewrite -{3}(sqr_sqrtr e10); move: (Num.sqrt _) (Num.sqrt _) (g_ _) => x y z; rring.
apply: le_trans h _; rewrite ler_add2r.
have r0 : 0 <= rho eta by rewrite mulr_ge0 ?sqrtr_ge0.
have r1 : 0 <= 1 + rho eta by rewrite (addr_ge0 ler01 r0).
apply: ler_wpmul2l => //; apply: ler_add.
  apply: ler_wsqrtr; rewrite -F2 mulrDl mul1r ler_add2l.
  by move: Fl; rewrite SE -!scalemxAr -scalemxAl.
have h' : c * fro Sm <= Num.sqrt (tp * n%:R).
  have := ler_wsqrtr fA; rewrite /f mul1mx SE fro2Z fro2_1 (@sqrtrM _ (c ^+ 2)) ?sqr_ge0 // sqrtr_sqr.
  by rewrite ger0_norm ?(ltW c0).
have -> : c * Num.sqrt (1 - e)^-1 * (sk * (fro (mv m n A) * fro Sm)) =
  sk * (c * fro Sm * Num.sqrt (1 - e)^-1) * fro (mv m n A).
  by move: (Num.sqrt _) (fro _) (fro _) (c) => x y z w; rring.
apply: ler_wpmul2r; first exact: fro_ge0.
apply: ler_wpmul2l => //; rewrite (@sqrtrM _ (tp * n%:R)); last by rewrite mulr_ge0 ?(ltW tp0) ?ler0n.
by apply: ler_wpmul2r; [exact: sqrtr_ge0|].
Qed.

Hypotheses (fsvd : svd_fl v X L mu) (mu0 : 0 <= mu).
Local Notation ct := (v (@cut10 T O)).
Local Notation vV := (@vval R T O v).

Lemma svd1_ok_le m n k l (Am : 'M[R]_(m, n)) (e0 e1 : R) x : e0 <= e1 -> svd_ok v eta mu u k l Am e0 x -> svd_ok v eta mu u k l Am e1 x.
Proof using F e01 mu0.
move=> le [e ek [h1 h2 hY]]; exists e => //; split=> // Y rY; apply: le_trans (hY Y rY) _.
have u0 := fl_u0 F; have /andP[eta0 _] := e01.
have r0 : 0 <= Num.sqrt (1 + eta) by exact: sqrtr_ge0.
have t0 : 0 <= (Num.sqrt (1 - eta))^-1 by rewrite invr_ge0 sqrtr_ge0.
have d0 : 0 <= fl_du eta mu u l by exact: (du_ge0 l eta mu0 u0).
have s0 : 0 <= fl_svd eta mu u l.
  have m1 := addr_ge0 ler01 mu0.
  by rewrite addr_ge0 // mulr_ge0 // addr_ge0 // ?mulr_ge0 ?ler0n // addr_ge0.
apply: ler_add; first by rewrite !ler_add2r; apply: ler_wpmul2l le; rewrite (addr_ge0 ler01) // mulr_ge0.
by apply: ler_wpmul2l => //; apply: ler_wpmul2l => //; rewrite ler_add2l.
Qed.

Lemma SVD1_at (qb : @qbdec T G) m n (A : arr T) k (over : nat) tol (s : st G T) (PQ : arr T -> arr T -> Prop) :
  let l := (k + over)%N in (0 < l <= n)%N ->
  rsafe X (fun QB => [/\ shaped m l QB.1, shaped l n QB.2, near_ortho eta (mv m l QB.1) & PQ QB.1 QB.2]) (qb A l%:Z tol s).2 ->
  rsafe X (fun x => exists Q B, PQ Q B /\ svd_ok v eta mu u k l (mv m n A) (fro (mv m n A - mv m l Q *m mv l n B)) x)
    (SVD1 L qb A k%:Z tol over%:Z s).2.
Proof using F e01 fsvd mu0.
move=> l /andP[l0 ln] hqb; have n0 : (0 < n)%N := leq_trans l0 ln.
have lE : k%:Z + over%:Z = l%:Z by [].
pose PQ' c Q B := c = l /\ PQ Q B.
have hqb' : safe X (fun QB => exists2 c, (0 < c)%N & [/\ shaped m c QB.1, shaped c n QB.2, near_ortho eta (mv m c QB.1) &
    PQ' c QB.1 QB.2]) ((fun _ _ _ (_ : st G T) => qb A l%:Z tol s) A (k%:Z + over%:Z) tol).
  by move=> s'; apply: rsafe_weak hqb _ => QB [h1 h2 h3 h4]; exists l.
have := @fl_SVD1 R T O G v u mu eta X L F fsvd mu0 e01 (fun _ _ _ (_ : st G T) => qb A l%:Z tol s) m n A k tol over%:Z PQ' n0 hqb' s.
have -> : SVD1 L (fun _ _ _ (_ : st G T) => qb A l%:Z tol s) A k%:Z tol over%:Z s = SVD1 L qb A k%:Z tol over%:Z s.
  by rewrite /SVD1 lE.
move=> H; apply: rsafe_weak H _ => x [c [Q [B [e [[[cE hE] ec] eo sh pr [hB hY]]]]]]; subst c.
have u0 := fl_u0 F; have /andP[eta0 e1] := e01.
have lm : minn l n = l by apply/minn_idPl.
rewrite lm in ec hY.
exists Q, B; split=> //.
exists e; first by case: (posnP over) => o0; [move: ec; rewrite /l o0 addn0|apply: eo; rewrite ltz_nat].
split=> // Y rY; apply: le_trans (hY Y rY) _; rewrite ler_add2l; apply: ler_wpmul2l hB.
have d0 : 0 <= fl_du eta mu u l by exact: (du_ge0 l eta mu0 u0).
have m1 := addr_ge0 ler01 mu0; have r0 : 0 <= Num.sqrt (1 + eta) by exact: sqrtr_ge0.
by rewrite addr_ge0 // mulr_ge0 // addr_ge0 // ?mulr_ge0 ?ler0n // addr_ge0.
Qed.

Lemma fl_svd1_prob m n k over b q rk (A : arr T) (U : 'M[R]_(m, q)) (t : 'cV[R]_q) (Vh : 'M[R]_(q, n)) e th tp tol :
  let l := (k + over)%N in
  (0 < l <= minn m n)%N -> (l <= b)%N -> shaped m n A -> fl_uncorrelated v E r n l -> fl_normal4 v E r n l ->
  mv m n A = U *m diag_mx t^T *m Vh -> orthonormal U -> orthonormal Vh^T -> (rk <= q)%N ->
  0 < e < 1 -> 0 < th -> 0 < tp ->
  exists B : G -> bool, E (fun g => (~~ B g)%:R) <= (rk * rk + rk)%:R / (l%:R * e ^+ 2) + rk%:R / (l%:R * th) + tp^-1 /\
  forall g es, B g ->
  let w := Num.sqrt ((1 + th / (1 - e) ^+ 2) * \sum_(i < q | (rk <= i)%N) t i 0 ^+ 2) in
  let w' := Num.sqrt (tp * n%:R / (1 - e)) in
  rsafe X (svd_ok v eta mu u k l (mv m n A) (fl_qb_one eta dl u m n l w w' (fro (mv m n A))))
    (svd1 L r A k%:Z over%:Z tol 2 b%:Z RGen (St g es)).2.
Proof using mE pE rok F qrL e01 dl0 fsvd mu0.
move=> l hl lb sA un n4 AE oU oVh rq ee th0 tp0.
have [B [EB HB]] := gauss_core hl sA un n4 AE oU oVh rq ee th0 tp0.
exists B; split=> // g es /HB HS; cbv zeta.
have /andP[l0 lmn] := hl; have ln : (l <= n)%N by move: lmn; rewrite leq_min => /andP[].
have n0 : (0 < n)%N by exact: leq_trans ln.
have nl0 : (0 < minn n l)%N by rewrite leq_min n0.
set Sm := mv n l _ in HS; cbv zeta in HS.
have hr : rsafe X (fun S => exists2 B, S = PyArr B & shaped n l B /\
    (fun S' : 'M[R]_(n, l) => S' = Sm) (mv n l B)) (RS1 (skopGA r) 0 (orth L) 1 A l (St g es)).2.
  have [_ _ eA2] := sA.
  rewrite /RS1 bind_passertT // /= eA2 /draw /skopGA /gaussian_operator gtn_eqF // -/(gscale n l).
  rewrite /bind /emit /getgen /=; have := ok_normal rok g (@gscale T O n l) n l; rewrite /Sm.
  case: (r_normal _ _ _ _ _) => g' M /= [w [a b']]; by exists M => //; split.
have H := fl_QB2_one F qrL e01 dl0 (PS := fun S' => S' = Sm) tol l0 lmn lb sA hr.
have l0n : (0 < l <= n)%N by rewrite l0.
apply: rsafe_weak (@SVD1_at (QB2_noov L (RF1 L (RS1 (skopGA r) 0 (orth L) 1)) b%:Z) m n A k over tol (St g es)
  (fun Q B => fro (mv m n A - mv m l Q *m mv l n B) <= fl_qb_one eta dl u m n l
    (Num.sqrt ((1 + th / (1 - e) ^+ 2) * \sum_(i < q | (rk <= i)%N) t i 0 ^+ 2)) (Num.sqrt (tp * n%:R / (1 - e)))
    (fro (mv m n A))) l0n _) _; last first.
  by move=> x [Q [B' [le ok]]]; exact: svd1_ok_le le ok.
apply: rsafe_weak H _ => QB [h1 h2 h3 h4 [S [V' [SE hS]]]]; split=> //.
by rewrite {}SE in hS; apply: (HS _ _ _ V') => //; exact: (sk2_ge0 eta F dl0).
Qed.

(** svd1 with one block: error within rounding of the best possible for the range found. *)
Lemma fl_svd1_any m n k over b (np : int) (A : arr T) tol a :
  let l := (k + over)%N in (0 < l <= minn m n)%N -> (l <= b)%N -> 2 <= np -> shaped m n A ->
  safe X (fun x => exists2 Q : 'M[R]_(m, l), near_ortho eta Q & forall C : 'M[R]_(l, n),
      svd_ok v eta mu u k l (mv m n A)
        ((1 + rho eta) * fro (mv m n A - Q *m C) + (rho eta + (1 + eta) * Num.sqrt l%:R * g_ m.+1) * fro (mv m n A)) x)
    (svd1 L r A k%:Z over%:Z tol np b%:Z a).
Proof using rok F lsh qrL e01 dl0 fsvd mu0.
move=> l /andP[l0 lmn] lb np2 sA; apply: safe_rng => s.
have ln : (l <= n)%N by move: lmn; rewrite leq_min => /andP[].
have hr : rsafe X (fun S => exists2 B, S = PyArr B & shaped n l B /\ (fun _ : 'M[R]_(n, l) => True) (mv n l B))
    (RS1 (skopGA r) (np - 2) (orth L) 1 A l s).2.
  have np0 : 0 <= np - 2 by lia.
  by apply: rsafe_weak (safe_RS1 lsh rok np0 l0 lmn sA s) _ => S [B -> sB]; exists B.
have H := fl_QB2_one F qrL e01 dl0 (PS := fun _ => True) tol l0 lmn lb sA hr.
have l0n : (0 < l <= n)%N by rewrite l0.
pose PQ Q B := near_ortho eta (mv m l Q) /\ forall C : 'M[R]_(l, n), fro (mv m n A - mv m l Q *m mv l n B) <=
  (1 + rho eta) * fro (mv m n A - mv m l Q *m C) + (rho eta + (1 + eta) * Num.sqrt l%:R * g_ m.+1) * fro (mv m n A).
apply: rsafe_weak (@SVD1_at (QB2_noov L (RF1 L (RS1 (skopGA r) (np - 2) (orth L) 1)) b%:Z) m n A k over tol s
  PQ l0n _) _; last first.
  by move=> x [Q [B' [[nQ le] ok]]]; exists (mv m l Q) => // C; exact: svd1_ok_le (le C) ok.
apply: rsafe_weak H _ => QB [h1 h2 h3 h4 _]; split=> //; split=> // C.
exact: (fl_best F e01).
Qed.
End Gauss.

(** ** An inexact SVD meeting the contract: exact factors, singular values too large by mu. *)
Section Wit.
Variables (R : rcfType) (u eta mu : R).
Hypothesis u01 : 0 <= u < 1.

Definition bent_svd : lapack R := {|
  l_qr := l_qr (bent_lapack eta);
  l_qrp := l_qrp (exact_lapack R);
  l_svd := fun A => match l_svd (exact_lapack R) A with
    | inr x => Ok (x.1.1, [seq (1 + mu) * y | y <- x.1.2], x.2)
    | inl e => Err e end;
  l_eigh := l_eigh (exact_lapack R);
  l_lu := l_lu (exact_lapack R);
  l_lstsq := l_lstsq (exact_lapack R);
  l_dct := id;
  l_idct := id
|}.

Local Notation mb := (@mval R R (bent_ops u) id).
Local Notation vb := (@vval R R (bent_ops u) id).

Lemma vb_map n (s : 'cV[R]_n) c : vb n [seq c * y | y <- ofcv s] = c *: s.
Proof.
apply/matrixP=> i j; rewrite !mxE ord1 /ev (nth_map 0) ?size_ofcv // -[s i 0]ev_ofcv.
by [].
Qed.

Lemma bent_svdE A : l_svd bent_svd A = match l_svd (exact_lapack R) A with
    | inr x => Ok (x.1.1, [seq (1 + mu) * y | y <- x.1.2], x.2)
    | inl e => Err e end.
Proof. by []. Qed.

Lemma bent_svd_fl : 0 <= mu -> @svd_fl R R (bent_ops u) id (fun _ => False) bent_svd mu.
Proof using.
move=> mu0 m n A m0 n0 sA; have [U [s [V [[E oU oV AE] [s0 ss]]]]] := exact_svd (mb m n A) m0 n0.
have E2 : l_svd (exact_lapack R) A = Ok (ofmx U, ofcv s, ofmx V) by rewrite {1}(sh_id sA).
rewrite bent_svdE E2 /rsafe; cbv zeta; split.
- exact: sh_ofmx.
- by rewrite size_map size_ofcv.
- exact: sh_ofmx.
- move=> i j /andP[ij jq]; have iq := leq_ltn_trans ij jq; have m1 := addr_ge0 ler01 mu0.
  have e0 k : (k < minn m n)%N -> @ev R (bent_ops u) [seq (1 + mu) * y | y <- ofcv s] k = (1 + mu) * @ev R (rcf_ops R) (ofcv s) k.
    by move=> kq; rewrite /ev (nth_map 0) ?size_ofcv.
  rewrite !e0 // !ev_ofcv_nat mulr_ge0 //=; apply: ler_wpmul2l => //; exact: ss.
exists U, V; split=> //; rewrite ?mb_ofmx ?subrr ?fro0 //.
rewrite vb_map linearZ /= -/(diag_mx _).
have -> : diag_mx ((1 + mu) *: s^T) = (1 + mu) *: diag_mx s^T by rewrite linearZ.
rewrite -scalemxAr -scalemxAl -AE; set B := mb m n A.
have -> : B - (1 + mu) *: B = (- mu) *: B by rewrite scalerDl scale1r opprD addrA subrr add0r scaleNr.
by rewrite /fro fro2Z sqrtrM ?sqr_ge0 // sqrtr_sqr normrN ger0_norm.
Qed.

Lemma bent_svd_shapes : 0 <= mu -> @lap_shapes R (bent_ops u) (fun _ => False) bent_svd.
Proof.
move=> mu0; have [h1 h2 h3 h4 h5] := @bent_shapes R u eta; split=> // m n A m0 n0 sA.
by have := bent_svd_fl mu0 m0 n0 sA; case: (l_svd _ _) => // x [].
Qed.

Lemma svd_wit : 0 < u -> 0 < eta -> 0 < mu -> let O := bent_ops u in let E := @ga_mean R 8 8 in let r := ga_rng R 8 8 in
  [/\ fl_arith O id u /\ @oadd R O 1 1 <> 2%:R,
      [/\ @lap_shapes R O (fun _ => False) bent_svd, @qr_fl R R O id (fun _ => False) bent_svd eta 0 &
          @svd_fl R R O id (fun _ => False) bent_svd mu],
      ~ svd_spec bent_svd &
      [/\ mean E, positive E, @rng_ok _ R O r, @fl_uncorrelated R R O _ id E r 8 8 & @fl_normal4 R R O _ id E r 8 8]].
Proof using u01.
move=> u0 e0 m0; have [h1 h2 [h3 h4 h5] h6 h7] := float_wit u01 u0 e0; split=> //.
  by split=> //; [exact: bent_svd_shapes (ltW m0)|exact: bent_svd_fl (ltW m0)].
move=> sp; have [U [s [V [[E oU oV AE] _]]]] := sp 1%N 1%N 1%:M isT isT.
have [U' [s' [V' [[E' oU' oV' AE'] _]]]] := exact_svd (1%:M : 'M[R]_1) isT isT.
move: E; rewrite bent_svdE E'.
have inj Y (x y : Y) : (Ok x : res Y) = Ok y -> x = y by case.
move=> E3; have EE := inj _ _ _ E3; have EU := ofmx_inj (congr1 (fun x => x.1.1) EE); have EV := ofmx_inj (congr1 snd EE).
have Es : [seq (1 + mu) * y | y <- ofcv s'] = ofcv s by exact: (congr1 (fun x => x.1.2) EE).
subst U' V'.
have sE : s = (1 + mu) *: s' by rewrite -[RHS]vb_map Es; apply/colP=> i; rewrite [RHS]mxE; exact: (esym (ev_ofcv s i)).
have : (1%:M : 'M[R]_1) = (1 + mu) *: 1%:M.
  by rewrite {1}AE sE linearZ /= linearZ /= -scalemxAr -scalemxAl -AE'.
move/matrixP/(_ 0 0); rewrite !mxE eqxx mulr1 => /eqP; rewrite -subr_eq0 opprD addrA subrr add0r oppr_eq0.
by rewrite gt_eqF.
Qed.
End Wit.

Lemma svd_const_zero (R : rcfType) m n c (w w' a : R) :
  [/\ fl_du 0 0 0 c = 0 :> R, fl_svd 0 0 0 c = 0 :> R, fl_sketch2 0 0 0 n c = 0 :> R & fl_qb_one 0 0 0 m n c w w' a = w].
Proof.
have g0 i : gam (0 : R) i = 0 by rewrite /gam addr0 expr1n subrr.
have d0 : fl_du 0 0 0 c = 0 :> R by rewrite /fl_du g0 mulr0 mul0r addr0.
have s0 : fl_sketch2 0 0 0 n c = 0 :> R by rewrite /fl_sketch2 /fl_sketch g0 !(mulr0, mul0r, addr0).
split=> //; first by rewrite /fl_svd d0 !(mulr0, mul0r, addr0).
by rewrite /fl_qb_one /rho s0 g0 !(mulr0, mul0r, addr0) mul1r.
Qed.
