(** Properties C91-C93: what a random sketch does on average and with what
    probability, and what follows for the drivers.  [mean E]: E is a normalised
    linear functional on functions of the generator state (an expectation);
    [positive E]: it is monotone, so E (~~ B) is the probability that B fails.
    [outmat d m x]: the d x m matrix of the operator returned by a call with
    outcome x.  [uncorrelated], [normal4]: second and fourth moments of
    rng.normal; [sjlt_law]: signs and row choices of the SJLT draws. *)
From mathcomp Require Import all_ssreflect all_algebra.
From Verif Require Import Base Arr Lapack Exact MxLib LapackSpec LapackExists Rng Aware Sel Sketching.
From Verif Require Import Pcg Precond LstSq SaddleSys Drivers P_Iso P_LS P_LS2 P_Rate P_Rate2 P_Rate3 P_Rate4 P_Drivers.
From Verif Require Import P_Embed P_Embed2 P_Embed3.
Set Implicit Arguments.
Unset Strict Implicit.
Unset Printing Implicit Defensive.
Import Order.TTheory GRing.Theory Num.Theory.
Local Open Scope ring_scope.

(** ** C91: sketched matrix products. *)
Theorem C91_gaussian_product (R : rcfType) (G : Type) (E : (G -> R) -> R) (r : rng_ops G R) d m n p
    (A : 'M[R]_(m, n)) (B : 'M[R]_(m, p)) es :
  mean E -> rng_ok r -> uncorrelated E r d m -> normal4 E r d m -> (0 < d <= m)%N ->
  let S g := outmat d m (gaussian_operator r true d m (St g es)) in
  E (fun g => fro2 ((S g *m A)^T *m (S g *m B) - A^T *m B)) <= (fro2 A * fro2 B + fro2 (A^T *m B)) / d%:R.
Proof. by move=> mE rok un n4 dm; exact (gauss_amm mE rok A B es un n4 dm). Qed.
Print Assumptions C91_gaussian_product.

Theorem C91_sjlt_product (R : rcfType) (G : Type) (E : (G -> R) -> R) (r : rng_ops G R) d m nnz n p
    (A : 'M[R]_(m, n)) (B : 'M[R]_(m, p)) es :
  mean E -> rng_ok r -> sjlt_law E r d m nnz -> (0 < nnz <= d)%N -> (d <= m)%N ->
  let S g := outmat d m (sjlt_operator r d m RGen nnz (St g es)) in
  E (fun g => fro2 ((S g *m A)^T *m (S g *m B) - A^T *m B)) <= (fro2 A * fro2 B + fro2 (A^T *m B)) / d%:R.
Proof. by move=> mE rok law zd dm; exact (sjlt_amm mE rok A B es law zd dm). Qed.
Print Assumptions C91_sjlt_product.

(** For every size there are generators with these laws. *)
Example C91_gaussian_hyps (R : rcfType) (d m : nat) :
  [/\ mean (@ga_mean R d m), positive (@ga_mean R d m), rng_ok (ga_rng R d m),
      uncorrelated (@ga_mean R d m) (ga_rng R d m) d m & normal4 (@ga_mean R d m) (ga_rng R d m) d m].
Proof. by split; [exact: ga_meanP | exact: ga_meanpos | exact: ga_rng_ok | exact: ga_uncorrelated | exact: ga_normal4]. Qed.

Example C91_sjlt_hyps (R : rcfType) (d m nnz : nat) : (nnz <= d.+1)%N ->
  [/\ mean (@sj_mean R d m nnz), positive (@sj_mean R d m nnz), rng_ok (sj_rng R d m nnz) &
      sjlt_law (@sj_mean R d m nnz) (sj_rng R d m nnz) d.+1 m nnz].
Proof. by move=> zd; split; [exact: sj_meanP | exact: sj_meanpos | exact: sj_rng_ok | exact: sj_law]. Qed.

(** ** C92: subspace embeddings with quantified failure probability. *)
Theorem C92_gaussian_embedding (R : rcfType) (G : Type) (E : (G -> R) -> R) (r : rng_ops G R) d m n
    (A : 'M[R]_(m, n)) (e : R) es :
  mean E -> positive E -> rng_ok r -> uncorrelated E r d m -> normal4 E r d m -> (0 < d <= m)%N -> 0 < e ->
  let S g := outmat d m (gaussian_operator r true d m (St g es)) in
  exists B : G -> bool, E (fun g => (~~ B g)%:R) <= (n * n + n)%:R / (d%:R * e ^+ 2) /\
  forall g, B g -> forall v : 'cV[R]_n,
    (1 - e) * fro2 (A *m v) <= fro2 (S g *m A *m v) <= (1 + e) * fro2 (A *m v).
Proof. by move=> mE pE rok un n4 dm e0; exact (gauss_embed mE rok pE A es un n4 dm e0). Qed.
Print Assumptions C92_gaussian_embedding.

Theorem C92_sjlt_embedding (R : rcfType) (G : Type) (E : (G -> R) -> R) (r : rng_ops G R) d m nnz n
    (A : 'M[R]_(m, n)) (e : R) es :
  mean E -> positive E -> rng_ok r -> sjlt_law E r d m nnz -> (0 < nnz <= d)%N -> (d <= m)%N -> 0 < e ->
  let S g := outmat d m (sjlt_operator r d m RGen nnz (St g es)) in
  exists B : G -> bool, E (fun g => (~~ B g)%:R) <= (n * n + n)%:R / (d%:R * e ^+ 2) /\
  forall g, B g -> forall v : 'cV[R]_n,
    (1 - e) * fro2 (A *m v) <= fro2 (S g *m A *m v) <= (1 + e) * fro2 (A *m v).
Proof. by move=> mE pE rok law zd dm e0; exact (sjlt_embed mE rok pE A es law zd dm e0). Qed.
Print Assumptions C92_sjlt_embedding.

(** The probability in question is below 1 for, e.g., d = 8, n = 1, e = 9/10. *)
Example C92_hyps (R : rcfType) : let e : R := 9%:R / 10%:R in
  [/\ sjlt_law (@sj_mean R 7 8 1) (sj_rng R 7 8 1) 8 8 1, 0 < e < 1 & (1 * 1 + 1)%:R / (8%:R * e ^+ 2) < 1].
Proof.
move=> e; split; [exact: sj_law | exact: emb_wit_e | ].
apply: le_lt_trans (@emb_wit_bound R); rewrite ler_wpmul2r ?ler_nat //.
by rewrite invr_ge0 mulr_ge0 ?ler0n // exprn_ge0 // divr_ge0 ?ler0n.
Qed.

(** ** C93: the drivers, with the SJLT sketches they draw themselves. *)
Theorem C93_sso1 (R : rcfType) (G : Type) (E : (G -> R) -> R) (L : lapack R) (r : rng_ops G R) m n
    (A : 'M[R]_(m, n)) (b : 'cV[R]_m) (sf : rat) nnz d (e : R) :
  let f dl (x : 'cV[R]_n) := fro2 (b - A *m x) + dl * fro2 x in
  mean E -> positive E -> rng_ok r -> (0 < n <= m)%N -> (0 < nnz <= n)%N -> n%:Z <= trunc_rat (sf * n%:R) ->
  0 < e < 1 -> d%:Z = Num.min (trunc_rat (sf * n%:R)) m%:Z -> sjlt_law E r d m nnz -> lstsq_spec L ->
  exists B : G -> bool, E (fun g => (~~ B g)%:R) <= ((n + 1) * (n + 1) + (n + 1))%:R / (d%:R * e ^+ 2) /\
  forall g es dl, B g -> 0 <= dl -> exists x : 'cV[R]_n,
    (sso1 L r (ofmx A) (ofcv b) dl RGen sf nnz (St g es)).2 = inr (ofcv x) /\
    forall z, (1 - e) * f dl x <= (1 + e) * f dl z.
Proof.
move=> f mE pE rok nm zn sfn e01 dE law ls.
exact (sso1_prob mE pE rok A nm zn sfn e01 dE law b ls).
Qed.
Print Assumptions C93_sso1.

Theorem C93_spo (R : rcfType) (G : Type) (E : (G -> R) -> R) (L : lapack R) (r : rng_ops G R) m n
    (A : 'M[R]_(m, n)) (b : 'cV[R]_m) (sf : rat) nnz d (e a c dl : R) :
  let f (x : 'cV[R]_n) := fro2 (b - A *m x) + dl * fro2 x in
  let rho := (Num.sqrt (1 + e) - Num.sqrt (1 - e)) / (Num.sqrt (1 + e) + Num.sqrt (1 - e)) in
  let fac k := (2%:R * rho ^+ k / (1 + rho ^+ (k * 2))) ^+ 2 in
  mean E -> positive E -> rng_ok r -> (0 < n <= m)%N -> (0 < nnz <= n)%N -> n%:Z <= trunc_rat (sf * n%:R) ->
  0 < e < 1 -> d%:Z = Num.min (trunc_rat (sf * n%:R)) m%:Z -> sjlt_law E r d m nnz ->
  0 <= dl -> (forall v : 'cV[R]_n, a * fro2 v <= fro2 (A *m v) <= c * fro2 v) ->
  (n ^ 2)%:R * ((1 + e) * (c + dl)) < (1 - e) * (a + dl) * 2%:R ^+ 104 ->
  qr_spec L -> svd_spec L ->
  exists B : G -> bool, E (fun g => (~~ B g)%:R) <= ((n + 1) * (n + 1) + (n + 1))%:R / (d%:R * e ^+ 2) /\
  forall g es md tol lim clk x l, B g -> md <> MOther -> 0 <= lim ->
    (spo3 L r (ofmx A) (ofcv b) dl tol lim RGen sf nnz md clk (St g es)).2 = inr (x, l) ->
  exists (xv : 'cV[R]_n) k,
  [/\ x = ofcv xv, exists es, errors l = Some es /\ size es = k.+1,
    forall z, (1 - e) * f xv <= (1 - e + fac k * (1 + e - (1 - e))) * f z &
    tol <= 0 -> (n ^ 2)%:R * (1 + e) < (1 - e) * (10%:R ^+ 8 - 1) ^+ 2 ->
    forall z, (1 - e) * f xv <= (1 - e + fac (absz lim) * (1 + e - (1 - e))) * f z].
Proof.
move=> f rho fac mE pE rok nm zn sfn e01 dE law dl0 bA cnd qr svd.
exact (spo_prob mE pE rok nm zn sfn e01 dE law dl0 bA cnd b qr svd).
Qed.
Print Assumptions C93_spo.

Theorem C93_spu1 (R : rcfType) (G : Type) (E : (G -> R) -> R) (L : lapack R) (r : rng_ops G R) m n
    (A : 'M[R]_(m, n)) (sf : rat) nnz d (e a c : R) :
  let rho := (Num.sqrt (1 + e) - Num.sqrt (1 - e)) / (Num.sqrt (1 + e) + Num.sqrt (1 - e)) in
  let fac k := (2%:R * rho ^+ k / (1 + rho ^+ (k * 2))) ^+ 2 in
  mean E -> positive E -> rng_ok r -> (0 < n <= m)%N -> (0 < nnz <= n)%N -> n%:Z <= trunc_rat (sf * n%:R) ->
  0 < e < 1 -> d%:Z = Num.min (trunc_rat (sf * n%:R)) m%:Z -> sjlt_law E r d m nnz ->
  (forall v : 'cV[R]_n, a * fro2 v <= fro2 (A *m v) <= c * fro2 v) ->
  (n ^ 2)%:R * ((1 + e) * c) < (1 - e) * a * 2%:R ^+ 104 -> svd_spec L ->
  exists B : G -> bool, E (fun g => (~~ B g)%:R) <= (n * n + n)%:R / (d%:R * e ^+ 2) /\
  forall g es (rhs : 'cV[R]_n) tol lim clk y l, B g -> 0 <= lim ->
    (spu1 L r (ofmx A) (ofcv rhs) tol lim RGen sf nnz clk (St g es)).2 = inr (y, l) ->
  exists (yv : 'cV[R]_m) k,
  [/\ y = ofcv yv, exists es, errors l = Some es /\ size es = k.+1,
    forall ys, ridge_min A^T rhs 0 ys -> (1 - e) * fro2 (yv - ys) <= (1 + e) * (fac k * fro2 ys) &
    tol <= 0 -> (n ^ 2)%:R * (1 + e) < (1 - e) * (10%:R ^+ 8 - 1) ^+ 2 -> forall ys, ridge_min A^T rhs 0 ys ->
      (1 - e) * fro2 (yv - ys) <= (1 + e) * (fac (absz lim) * fro2 ys)].
Proof.
move=> rho fac mE pE rok nm zn sfn e01 dE law bA cnd svd.
exact (spu_prob mE pE rok nm zn sfn e01 dE law bA cnd svd).
Qed.
Print Assumptions C93_spu1.

Theorem C93_sps_pcg (R : rcfType) (G : Type) (E : (G -> R) -> R) (L : lapack R) (r : rng_ops G R) m n
    (A : 'M[R]_(m, n)) (sf : rat) nnz d (e lo hi dl : R) :
  let rho := (Num.sqrt (1 + e) - Num.sqrt (1 - e)) / (Num.sqrt (1 + e) + Num.sqrt (1 - e)) in
  let fac k := (2%:R * rho ^+ k / (1 + rho ^+ (k * 2))) ^+ 2 in
  let err xs (x : 'cV[R]_n) := fro2 (A *m (x - xs)) + dl * fro2 (x - xs) in
  mean E -> positive E -> rng_ok r -> (0 < n <= m)%N -> (0 < nnz <= n)%N -> n%:Z <= trunc_rat (sf * n%:R) ->
  0 < e < 1 -> d%:Z = trunc_rat (sf * n%:R) -> (d <= m)%N -> sjlt_law E r d m nnz ->
  0 <= dl -> (forall v : 'cV[R]_n, lo * fro2 v <= fro2 (A *m v) <= hi * fro2 v) ->
  (n ^ 2)%:R * ((1 + e) * (hi + dl)) < (1 - e) * (lo + dl) * 2%:R ^+ 104 ->
  svd_spec L -> n%:R < 2%:R ^+ 52 :> R ->
  exists B : G -> bool, E (fun g => (~~ B g)%:R) <= (n * n + n)%:R / (d%:R * e ^+ 2) /\
  forall g es (b : option 'cV[R]_m) (c : option 'cV[R]_n) tol lim clk, B g -> 0 <= tol -> 0 <= lim ->
  let b0 := if b is Some b then b else 0 in let c0 := if c is Some c then c else 0 in
  exists (xv x0 : 'cV[R]_n) k l,
  [/\ (sps L r (ofmx A) (omap (@ofcv R m) b) (omap (@ofcv R n) c) dl tol lim RGen sf nnz SpsPcg clk (St g es)).2 =
        inr (Some (ofcv xv), ofcv (b0 - A *m xv), l),
      exists s1, forall clk,
        SPS1 L (@skopSJ R (rcf_ops R) G r nnz) sf (@PcSS1 R (rcf_ops R)) NLeft (ofmx A) (omap (@ofcv R m) b) (omap (@ofcv R n) c)
          dl tol 0 false clk (St g es) = (s1, inr (Some (ofcv x0), ofcv (b0 - A *m x0), log_of false clk)),
      exists es, errors l = Some es /\ size es = k.+1 &
  forall xs, A^T *m (b0 - A *m xs) - dl *: xs = c0 ->
    err xs xv <= fac k * err xs x0 /\ (tol = 0 -> err xs xv <= fac (absz lim) * err xs x0)].
Proof.
move=> rho fac err mE pE rok nm zn sfn e01 dE dm law dl0 bA cnd svd n52.
have [B [PB H]] := sps_prob mE pE rok nm zn sfn e01 dE dm law dl0 bA cnd svd n52.
exists B; split=> // g es b c tol lim clk Bg t0 l0 b0 c0.
have [xv [x0 [k [l [h1 h2 h3 h4]]]]] := H g es b c tol lim clk Bg t0 l0.
exists xv, x0, k, l; split=> // xs sd; apply: h4; split=> //; by rewrite subrK.
Qed.
Print Assumptions C93_sps_pcg.

(** All hypotheses hold together, with a failure bound below 1. *)
Example C93_hyps (R : rcfType) : let e : R := 9%:R / 10%:R in let A : 'M[R]_(8, 1) := const_mx 1 in
  [/\ [/\ mean (@sj_mean R 7 8 1), positive (@sj_mean R 7 8 1), rng_ok (sj_rng R 7 8 1) &
        sjlt_law (@sj_mean R 7 8 1) (sj_rng R 7 8 1) 8 8 1],
      [/\ lstsq_spec (exact_lapack R), qr_spec (exact_lapack R) & svd_spec (exact_lapack R)],
      [/\ 8%:Z = Num.min (trunc_rat (8%:Q * 1%:R)) 8%:Z, 8%:Z = trunc_rat (8%:Q * 1%:R) & 1%:Z <= trunc_rat (8%:Q * 1%:R)],
      [/\ forall v : 'cV[R]_1, 8%:R * fro2 v <= fro2 (A *m v) <= 8%:R * fro2 v &
        forall dl : R, 0 <= dl -> (1 ^ 2)%:R * ((1 + e) * (8%:R + dl)) < (1 - e) * (8%:R + dl) * 2%:R ^+ 104] &
      0 < e < 1 /\ ((1 + 1) * (1 + 1) + (1 + 1))%:R / (8%:R * e ^+ 2) < 1].
Proof.
move=> e A; have [d1 d2] := emb_wit_d; split.
- by split; [exact: sj_meanP | exact: sj_meanpos | exact: sj_rng_ok | exact: sj_law].
- by split; [exact: exact_lstsq | exact: exact_qr | exact: exact_svd].
- by split=> //; rewrite -d2.
- by split; [exact: emb_wit_A | exact: emb_wit_cnd].
- by split; [exact: emb_wit_e | exact: emb_wit_bound].
Qed.
