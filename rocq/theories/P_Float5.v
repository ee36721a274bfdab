(** Proofs of C100, continued: qb with a Gaussian sketch in rounded arithmetic. *)
From mathcomp Require Import all_ssreflect all_algebra.
From mathcomp Require Import zify.
From Verif Require Import Base Arr Lapack Exact MxLib RingTac LapackSpec LapackExists Rng Aware RangeFinders QB Shape Inexact Float.
From Verif Require Import Sketching P_Sketch2 P_Iso P_Embed P_Embed2 P_Prob P_Prob2 P_Prob4 P_Opt P_Opt2.
From Verif Require Import P_Shape P_Inexact P_Float P_Float2 P_Float3.
Set Implicit Arguments.
Unset Strict Implicit.
Unset Printing Implicit Defensive.
Import Order.TTheory GRing.Theory Num.Theory.
Local Open Scope ring_scope.

Section Scale.
Context {R : rcfType} {T : Type} {O : ops T}.
Variables (v : T -> R) (u : R).
Hypothesis (F : fl_arith O v u).

Lemma near_pos (x a : R) : 0 < a -> `|x - a| <= u * a -> 0 < x.
Proof using F.
move=> a0; rewrite ler_norml => /andP[h _]; rewrite -(ltr_add2r (- a)) add0r; apply: lt_le_trans h.
by rewrite ltr_opp2 gtr_pmull // (fl_u1 F).
Qed.

Lemma onat_pos n : 0 <= v (onat n) /\ ((0 < n)%N -> 0 < v (onat n)).
Proof using F.
elim: n => [|n [IH _]]; first by rewrite /= (fl_0 F).
have p : 0 < v (onat n) + v o1 by rewrite (fl_1 F) ltr_paddl // ltr01.
have := fl_add F (@onat T O n) (@o1 T O); rewrite [X in _ <= _ * X]ger0_norm ?(ltW p) // => /(near_pos p) h.
by rewrite /= ltW.
Qed.

Definition gscale (m n : nat) : T := osqrt (odiv o1 (onat (minn m n))).

Lemma gscale_pos m n : (0 < minn m n)%N -> 0 < v (gscale m n).
Proof using F.
move=> mn0; have [_ /(_ mn0) p] := onat_pos (minn m n).
have d0 : 0 < v o1 / v (onat (minn m n)) by rewrite divr_gt0 // (fl_1 F) ltr01.
have := fl_div F (@o1 T O) (lt0r_neq0 p); rewrite [X in _ <= _ * X]ger0_norm ?(ltW d0) // => /(near_pos d0) q.
by apply: (@near_pos _ (Num.sqrt (v (odiv o1 (onat (minn m n)))))); [rewrite sqrtr_gt0|exact: (fl_sqrt F (ltW q))].
Qed.
End Scale.

(** The generator of real numbers delivering the values of the draw used by the sketch,
    divided by its standard deviation. *)
Section Real.
Context {R : rcfType} {T : Type} {O : ops T} {G : Type}.
Variables (v : T -> R) (r : rng_ops G T) (n l : nat).
Let sg := gscale n l.
Add Field real_field : (rcf_field R).

Definition real_rng : rng_ops G R := {|
  r_normal := fun g c m' n' => (g, mk m' n' (fun i j => c / v sg * v (el (r_normal r g sg n l).2 i j)));
  r_stdnormal := fun g m' n' => (g, mk m' n' (fun _ _ => 0));
  r_random := fun g n' => (g, nseq n' 0);
  r_choice := fun g p k b => (g, if b then nseq k 0%N else iota 0 k);
  r_perm := fun g n' => (g, iota 0 n');
  r_seed := r_seed r; r_seeds := r_seeds r |}.

Lemma real_rng_ok : rng_ok real_rng.
Proof.
split=> /=.
- by move=> g s m' n'; split; [exact: wf_mk|].
- by move=> g m' n'; split; [exact: wf_mk|].
- by move=> g n'; rewrite size_nseq.
- move=> g p k [] /=; rewrite ?orbF /=.
    move=> pk _; rewrite size_nseq; split=> //; apply/allP=> i /nseqP [-> k0].
    by move: pk; rewrite -(negbK (k == 0)%N) -lt0n k0 orbF.
  move=> _ kp; rewrite size_iota iota_uniq; split=> //; apply/allP=> i.
  by rewrite mem_iota => /andP[_ /leq_trans]; apply.
by [].
Qed.

Lemma real_unc (E : (G -> R) -> R) : mean E -> v sg != 0 -> fl_uncorrelated v E r n l -> uncorrelated E real_rng n l.
Proof.
move=> mE s0 un c i j i' j' hi hj hi' hj' /=.
transitivity (E (fun g => (c / v sg) ^+ 2 * (v (el (r_normal r g sg n l).2 i j) * v (el (r_normal r g sg n l).2 i' j')))).
  by apply: (mean_ext mE) => g; rewrite !el_mk // expr2 mulrACA.
rewrite (mean_scale mE) un // exprMn mulrA -[c ^+ 2 * _ * _]mulrA -exprMn mulVf // expr1n mulr1 //.
Qed.

Lemma real_n4 (E : (G -> R) -> R) : mean E -> v sg != 0 -> fl_normal4 v E r n l -> normal4 E real_rng n l.
Proof.
move=> mE s0 n4 c i1 j1 i2 j2 i3 j3 i4 j4 h1 k1 h2 k2 h3 k3 h4 k4 x; rewrite /x /=.
pose y g i j := v (@el T O (r_normal r g sg n l).2 i j).
transitivity (E (fun g => (c / v sg) ^+ 4 * (y g i1 j1 * y g i2 j2 * (y g i3 j3 * y g i4 j4)))).
  apply: (mean_ext mE) => g; rewrite !el_mk // -/(y g i1 j1) -/(y g i2 j2) -/(y g i3 j3) -/(y g i4 j4).
  by move: (y g i1 j1) (y g i2 j2) (y g i3 j3) (y g i4 j4) (c / v sg) => y1 y2 y3 y4 k; rring.
rewrite (mean_scale mE) (n4 sg) // exprMn mulrA -[c ^+ 4 * _ * _]mulrA -exprMn mulVf // expr1n mulr1 //.
Qed.
End Real.

Section Prob.
Context {R : rcfType} {T : Type} {O : ops T} {G : Type}.
Variables (E : (G -> R) -> R) (v : T -> R) (u : R) (X : exn -> Prop) (L : lapack T) (r : rng_ops G T) (eta dl : R).
Hypotheses (mE : mean E) (pE : positive E) (rok : rng_ok r).
Hypotheses (F : fl_arith O v u) (lsh : lap_shapes X L) (qrL : qr_fl v X L eta dl) (e01 : 0 <= eta < 1).
Local Notation g_ := (gam u).
Local Notation mv := (@mval R T O v).
Add Field pr5_field : (rcf_field R).

Lemma QB1_const rso (A : arr T) k (s : st G T) :
  QB1 (RF1 L rso) A k None s = QB1 (RF1 L (fun A k _ => rso A k s)) A k None s.
Proof. by rewrite /QB1 /RF1 /bind /passert; do 4!case: (ifP _) => //=. Qed.

Lemma fl_prob m n l q rk (A : arr T) (U : 'M[R]_(m, q)) (t : 'cV[R]_q) (Vh : 'M[R]_(q, n)) e th tp :
  0 <= dl -> (0 < l <= minn m n)%N -> shaped m n A -> fl_uncorrelated v E r n l -> fl_normal4 v E r n l ->
  mv m n A = U *m diag_mx t^T *m Vh -> orthonormal U -> orthonormal Vh^T -> (rk <= q)%N ->
  0 < e < 1 -> 0 < th -> 0 < tp ->
  exists B : G -> bool, E (fun g => (~~ B g)%:R) <= (rk * rk + rk)%:R / (l%:R * e ^+ 2) + rk%:R / (l%:R * th) + tp^-1 /\
  forall g es, B g ->
  rsafe X (fun QB => let Am := mv m n A in
    [/\ shaped m l QB.1 /\ shaped l n QB.2, near_ortho eta (mv m l QB.1) &
        fro (Am - mv m l QB.1 *m mv l n QB.2) <=
        (1 + rho eta) * (Num.sqrt ((1 + th / (1 - e) ^+ 2) * \sum_(i < q | (rk <= i)%N) t i 0 ^+ 2) +
                         fl_sketch dl u n * Num.sqrt (tp * n%:R / (1 - e)) * fro Am) +
        (rho eta + (1 + eta) * Num.sqrt l%:R * g_ m.+1) * fro Am])
    (qb L r 2 A l%:Z RGen (St g es)).2.
Proof using mE pE rok F lsh qrL e01.
move=> dl0 /andP[l0 lmn] sA un n4 AE oU oVh rq ee th0 tp0.
have [V [U1 []]] := svd_top AE oU oVh rq; cbv zeta.
set D := diag_mx _; set Z := mv m n A - _ => oV oU1 AV AU [FV FU F2 _].
have ln : (l <= n)%N by move: lmn; rewrite leq_min => /andP[].
have n0 : (0 < n)%N by exact: leq_trans ln.
have nl0 : (0 < minn n l)%N by rewrite leq_min n0.
have sg0 := gscale_pos F nl0; set sg := v (gscale n l) in sg0.
have sgn : sg != 0 by exact: lt0r_neq0.
pose r' := @real_rng R T O G v r n l; have rok' : rng_ok r' by exact: real_rng_ok.
have un' := real_unc mE sgn un; have n4' := real_n4 mE sgn n4; rewrite -/r' in un' n4'.
have W := gauss_wmom_tall mE rok' [::] un' n4' l0 ln.
have [_ iso] := gauss_iso mE rok' [::] un' n0 l0; have {}iso := iso ln.
have [B [EB HB]] := sketch_event mE pE (lexx 0) ee th0 oV FV W.
have PA := sketch_size mE pE (1%:M : 'M[R]_n) tp0 iso.
pose (S g := outmat n l (gaussian_operator r' true n l (St g [::]))).
pose f g := fro2 (1%:M *m S g).
exists (fun g => B g && (f g <= tp * fro2 (1%:M : 'M[R]_n))); split.
  apply: le_trans (_ : E (fun g => (~~ B g)%:R + (~~ (f g <= tp * fro2 (1%:M : 'M[R]_n)))%:R) <= _).
    apply: (mean_le mE pE) => g; rewrite negb_and.
    by case: (B g); case: (f g <= _); rewrite /= ?addr0 ?add0r ?ler_addl ?ler01.
  by rewrite (mean_add mE) ler_add.
move=> g es /andP[/HB {HB EB}]; rewrite -/(S g) => -[Y [VX Fl zX]] fA.
have e1 : 0 < 1 - e by rewrite subr_gt0; case/andP: ee.
pose Sm := mv n l (r_normal r g (@gscale T O n l) n l).2.
have [c c0 SE] : exists2 c, 0 < c & S g = c *: Sm.
  exists (Num.sqrt (minn n l)%:R^-1 / sg); first by rewrite divr_gt0 // sqrtr_gt0 invr_gt0 ltr0n.
  by apply/matrixP=> i j; rewrite /S gauss_call // !mxE /= el_mk.
pose (rso := fun (A : arr T) k (_ : st G T) => RS1 (skopGA r) 0 (orth L) 1 A k (St g es)).
have hr : safe X (fun S => exists2 B, S = PyArr B & shaped n l B /\
    (fun S' : 'M[R]_(n, l) => S' = Sm) (mv n l B)) (rso A l).
  move=> s; rewrite /rso; have [_ _ eA2] := sA.
  rewrite /RS1 bind_passertT // /= eA2 /draw /skopGA /gaussian_operator gtn_eqF // -/(gscale n l).
  rewrite /bind /emit /getgen /=; have := ok_normal rok g (@gscale T O n l) n l; rewrite /Sm.
  case: (r_normal _ _ _ _ _) => g' M /= [w [a b]]; by exists M => //; split.
have H := fl_qb1 (PS := fun S' => S' = Sm) F qrL e01 dl0 l0 lmn sA hr (St g es).
have -> : qb L r 2 A l%:Z RGen (St g es) = QB1 (RF1 L rso) A l%:Z None (St g es) by rewrite /qb /with_rng QB1_const.
apply: rsafe_weak H _ => QB [h1 h2 _ [S' SE' HS]]; split=> //; rewrite {}SE' in HS.
have w2 : Num.sqrt (1 - e)^-1 ^+ 2 = (1 - e)^-1 by rewrite sqr_sqrtr // invr_ge0 ltW.
have w0 : 0 <= c * Num.sqrt (1 - e)^-1 by rewrite mulr_ge0 ?(ltW c0) ?sqrtr_ge0.
have VW : V^T *m Sm *m (c *: Y) = 1%:M by rewrite -VX SE -!scalemxAr -scalemxAl.
have Ww (z : 'cV[R]_l) : fro2 ((c *: Y)^T *m z) <= (c * Num.sqrt (1 - e)^-1) ^+ 2 * fro2 z.
  have tE : (c *: Y)^T = c *: Y^T by rewrite linearZ.
  rewrite tE -scalemxAl fro2Z [(c * _) ^+ 2]exprMn w2 -[_ / _ * _]mulrA.
  by apply: ler_wpmul2l; [exact: sqr_ge0|exact: zX].
have := HS _ _ V (c *: Y) w0 oV VW Ww; cbv zeta; rewrite -/Z => /le_trans; apply; rewrite ler_add2r.
have /andP[eta0 _] := e01.
have r0 : 0 <= rho eta by rewrite mulr_ge0 ?sqrtr_ge0.
have r1 : 0 <= 1 + rho eta by rewrite (addr_ge0 ler01 r0).
have u0 := fl_u0 F.
apply: ler_wpmul2l => //; apply: ler_add.
  apply: ler_wsqrtr; rewrite -F2 mulrDl mul1r ler_add2l.
  by move: Fl; rewrite SE -!scalemxAr -scalemxAl.
have sk0 : 0 <= fl_sketch dl u n.
  by rewrite addr_ge0 // mulr_ge0 ?(gam_ge0 u0) // (addr_ge0 ler01 dl0).
apply: ler_wpmul2r; first exact: fro_ge0.
have h : c * fro Sm <= Num.sqrt (tp * n%:R).
  have := ler_wsqrtr fA; rewrite /f mul1mx SE fro2Z fro2_1 (@sqrtrM _ (c ^+ 2)) ?sqr_ge0 // sqrtr_sqr.
  by rewrite ger0_norm ?(ltW c0).
have -> : c * Num.sqrt (1 - e)^-1 * fl_sketch dl u n * fro Sm =
  fl_sketch dl u n * (c * fro Sm * Num.sqrt (1 - e)^-1).
  by move: (Num.sqrt _) (fl_sketch _ _ _) (fro _) (c) => x y z w; rring.
apply: ler_wpmul2l => //; rewrite (@sqrtrM _ (tp * n%:R)); last by rewrite mulr_ge0 ?(ltW tp0) ?ler0n.
by apply: ler_wpmul2r; [exact: sqrtr_ge0|].
Qed.
End Prob.
