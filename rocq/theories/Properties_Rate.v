(** Properties C79-C82 and C90: how fast the iterative solvers converge, and how good
    sketched solutions are. *)
From mathcomp Require Import all_ssreflect all_algebra.
From Verif Require Import Base Arr Lapack Exact MxLib LapackSpec Rng Aware LapackExists P_QBfin Pcg P_Pcg Lsqr P_Lsqr P_Iter P_Iter2.
From Verif Require Import Precond LstSq SaddleSys P_Precond P_Svd P_Pcss1 Chol P_LS P_LS2 P_LS3 P_LS4 P_LS5 P_LS6 P_LS7.
From Verif Require Import P_Rate P_Rate2 P_Rate3 P_Rate4.
Set Implicit Arguments.
Unset Strict Implicit.
Unset Printing Implicit Defensive.
Import Order.TTheory GRing.Theory Num.Theory.
Local Open Scope ring_scope.

(** ** C79: PCG. After [size es] iterations the energy of the error has shrunk by
    the square of 2 rho^k / (1 + rho^2k), where rho comes from bounds mu, L of
    the spectrum of P H. *)
Theorem C79_pcg_rate (R : rcfType) n (H P : 'M[R]_n) mvH mvP (b x0 : 'cV[R]_n) (tol : R)
    (lim : int) y es (mu L : R) :
  let err (y : 'cV[R]_n) := y - invmx H *m b in
  let energy y := ((err y)^T *m (H *m err y)) 0 0 in
  let rho := (Num.sqrt L - Num.sqrt mu) / (Num.sqrt L + Num.sqrt mu) in
  let k := size es in
  op_is mvH H -> op_is mvP P -> spd H -> spd P -> 0 <= tol ->
  0 <= mu <= L -> 0 < L ->
  (forall e : 'cV[R]_n, let g := H *m e in
     mu * (e^T *m g) 0 0 <= (g^T *m (P *m g)) 0 0 <= L * (e^T *m g) 0 0) ->
  pcg mvH (ofcv b) mvP lim tol (ofcv x0) = Ok (ofcv y, es) ->
  energy y <= (2%:R * rho ^+ k / (1 + rho ^+ (k * 2))) ^+ 2 * energy x0.
Proof. by move=> err energy rho k HH HP pH pP t0 muL L0 bnd E; exact (pcg_rate_lemma HH HP pH pP t0 muL L0 bnd E). Qed.
Print Assumptions C79_pcg_rate.

Example C79_hyps (R : rcfType) : op_is (mv (ofmx (wit_D R))) (wit_D R) /\ spd (wit_D R) /\
  forall e : 'cV[R]_2, let g := wit_D R *m e in 1 * (e^T *m g) 0 0 <= (g^T *m (1%:M *m g)) 0 0 <= 2%:R * (e^T *m g) 0 0.
Proof. by split; [exact: mv_op_is | exact: wit_D_pcg]. Qed.

(** ** C80: LSQR. [z] is any competitor, so also a minimiser. *)
Theorem C80_lsqr_rate (R : rcfType) m n (A : 'M[R]_(m, n)) op (b : 'cV[R]_m)
    (start : option 'cV[R]_n) (d atol btol conlim : R) cv (lim : option int) out (mu L : R) :
  let x0 := if start is Some x then x else 0 in
  let obj x := fro2 (b - A *m x) + d ^+ 2 * fro2 (x - x0) in
  let rho := (Num.sqrt L - Num.sqrt mu) / (Num.sqrt L + Num.sqrt mu) in
  let k := q_itn out in
  lin_is op A -> 0 <= lim_of n lim -> b != 0 \/ start = None -> 0 <= mu <= L -> 0 < L ->
  (forall c : 'cV[R]_m, let y := A^T *m c in
     mu * fro2 y <= fro2 (A *m y) + d ^+ 2 * fro2 y <= L * fro2 y) ->
  lsqr op (ofcv b) d atol btol conlim lim cv (omap (@ofcv R n) start) = Ok out ->
  exists x : 'cV[R]_n, q_x out = ofcv x /\
    forall z, obj x <= obj z + (2%:R * rho ^+ k / (1 + rho ^+ (k * 2))) ^+ 2 * (obj x0 - obj z).
Proof.
by move=> x0 obj rho k opA l0 bs muL L0 bnd; exact (@lsqr_rate_lemma _ _ _ _ _ opA _ _ _ _ _ _ _ _ l0 bs _ _ muL L0 bnd out).
Qed.
Print Assumptions C80_lsqr_rate.

Example C80_hyps (R : rcfType) (c : 'cV[R]_2) : let y := (wit_D R)^T *m c in
  1 * fro2 y <= fro2 (wit_D R *m y) + 0 ^+ 2 * fro2 y <= 4%:R * fro2 y.
Proof. exact: wit_D_lsqr. Qed.

(** ** C81: SPO converges at a rate set by the distortion of the sketch alone.
    [x0] is the starting point, [k] the number of iterations. *)
Theorem C81_spo_rate (R : rcfType) (G : Type) (L : lapack R) (g : nat -> nat -> M G R (pyop R)) (sf : rat)
    (md : spo_mode) m n (A : 'M[R]_(m, n)) (b : 'cV[R]_m) (dl tol : R) lim lg clk s s' x l :
  let f (x : 'cV[R]_n) := fro2 (b - A *m x) + dl * fro2 x in
  let rho lo hi := (Num.sqrt hi - Num.sqrt lo) / (Num.sqrt hi + Num.sqrt lo) in
  let fac lo hi k := (2%:R * rho lo hi ^+ k / (1 + rho lo hi ^+ (k * 2))) ^+ 2 in
  lsq_ok g sf m n -> qr_spec L -> svd_spec L -> 0 <= dl -> md <> MOther -> 0 <= lim ->
  SPO L g sf md (ofmx A) (ofcv b) dl tol lim lg clk s = (s', inr (x, l)) ->
  exists d (Sm : 'M[R]_(d, m)) (xv x0 : 'cV[R]_n) k,
  [/\ drew g sf n s s' Sm, x = ofcv xv,
      forall clk, SPO L g sf md (ofmx A) (ofcv b) dl tol 0 false clk s = (s', inr (ofcv x0, log_of false clk)),
      lg -> exists es, errors l = Some es /\ size es = k.+1 &
  forall lo hi, (forall v : 'cV[R]_n, lo * fro2 (A *m v) <= fro2 (Sm *m A *m v) <= hi * fro2 (A *m v)) ->
    0 < lo <= 1 -> 1 <= hi -> sketch_clean L md dl (Sm *m A) ->
    (forall z, f xv <= f z + fac lo hi k * (f x0 - f z)) /\
    (tol <= 0 -> (n ^ 2)%:R * hi < lo * (10%:R ^+ 8 - 1) ^+ 2 ->
     forall z, f xv <= f z + fac lo hi (absz lim) * (f x0 - f z))].
Proof.
move=> f rho fac ok qr svd d0 mO l0 E.
have [d [Sm [xv [x0 [k [h1 h2 h3 h4 H]]]]]] := spo_rate_lemma ok qr svd d0 mO l0 E.
by exists d, Sm, xv, x0, k; split=> // lo hi e1 e2 e3 e4; have [H1 [H2 _]] := H lo hi e1 e2 e3 e4.
Qed.
Print Assumptions C81_spo_rate.

Example C81_run (R : rcfType) (s : st nat R) (b : 'cV[R]_3) (dl : R) : 0 <= dl ->
  exists s' (x : 'cV[R]_3), SPO (exact_lapack R) (scale_gen 2%:R) 1 MQr (ofmx (wit_A R)) (ofcv b) dl 0 2 false (clk0 R) s =
    (s', inr (ofcv x, log_of false (clk0 R))) /\
  exists d (Sm : 'M[R]_(d, 3)), [/\ drew (scale_gen 2%:R) 1 3 s s' Sm, embeds2 Sm (wit_A R) b 1 4%:R & \rank (wit_A R) = 3%N].
Proof. by move=> d0; exact: (spo_wit2 s b (@wit_A_unit R) d0). Qed.

(** ** C82: the quality of sketch-and-solve, and of SPO after k iterations,
    when the sketch distorts squared lengths on span [A b] by lo..hi. *)
Theorem C82_sso1_quality (R : rcfType) (G : Type) (L : lapack R) (g : nat -> nat -> M G R (pyop R)) (sf : rat)
    m n (A : 'M[R]_(m, n)) (b : 'cV[R]_m) (dl : R) (tol : option R) (lim : int) s :
  let f (x : 'cV[R]_n) := fro2 (b - A *m x) + dl * fro2 x in
  lstsq_spec L -> lsq_ok g sf m n -> 0 <= dl ->
  exists s1 d (Sm : 'M[R]_(d, m)) (x : 'cV[R]_n),
  [/\ d%:Z = Num.min (trunc_rat (sf * n%:R)) m%:Z,
      exists s0 Sk, [/\ gen s0 = gen s, g d m s0 = (s1, inr Sk) & py_is Sk Sm],
      SSO1 L g sf (ofmx A) (ofcv b) dl tol lim s = (s1, inr (ofcv x)) &
      forall lo hi, (forall (v : 'cV[R]_n) t, let y := A *m v + t *: b in
                       lo * fro2 y <= fro2 (Sm *m y) <= hi * fro2 y) ->
        dl = 0 \/ lo <= 1 /\ 1 <= hi ->
        forall z, lo * f x <= hi * f z].
Proof. move=> f; exact: sso1_quality_lemma. Qed.
Print Assumptions C82_sso1_quality.

Theorem C82_spo_quality (R : rcfType) (G : Type) (L : lapack R) (g : nat -> nat -> M G R (pyop R)) (sf : rat)
    (md : spo_mode) m n (A : 'M[R]_(m, n)) (b : 'cV[R]_m) (dl tol : R) lim lg clk s s' x l :
  let f (x : 'cV[R]_n) := fro2 (b - A *m x) + dl * fro2 x in
  let rho lo hi := (Num.sqrt hi - Num.sqrt lo) / (Num.sqrt hi + Num.sqrt lo) in
  let fac lo hi k := (2%:R * rho lo hi ^+ k / (1 + rho lo hi ^+ (k * 2))) ^+ 2 in
  lsq_ok g sf m n -> qr_spec L -> svd_spec L -> 0 <= dl -> md <> MOther -> 0 <= lim -> \rank A = n \/ 0 < dl ->
  SPO L g sf md (ofmx A) (ofcv b) dl tol lim lg clk s = (s', inr (x, l)) ->
  exists d (Sm : 'M[R]_(d, m)) (xv : 'cV[R]_n) k,
  [/\ drew g sf n s s' Sm, x = ofcv xv,
      lg -> exists es, errors l = Some es /\ size es = k.+1 &
  forall lo hi, (forall (v : 'cV[R]_n) t, let y := A *m v + t *: b in
                   lo * fro2 y <= fro2 (Sm *m y) <= hi * fro2 y) ->
    0 < lo <= 1 -> 1 <= hi -> sketch_clean L md dl (Sm *m A) ->
    (forall z, lo * f xv <= (lo + fac lo hi k * (hi - lo)) * f z) /\
    (tol <= 0 -> (n ^ 2)%:R * hi < lo * (10%:R ^+ 8 - 1) ^+ 2 ->
     forall z, lo * f xv <= (lo + fac lo hi (absz lim) * (hi - lo)) * f z)].
Proof. by move=> f rho fac ok qr svd d0 mO l0 rk E; exact (spo_quality_lemma ok qr svd d0 mO l0 rk E). Qed.
Print Assumptions C82_spo_quality.

(** ** C90: convergence rates of SPU1, SPS2 and SPS1. *)
Theorem C90_spu1_rate (R : rcfType) (G : Type) (L : lapack R) (g : nat -> nat -> M G R (pyop R)) (sf : rat)
    m n (A : 'M[R]_(m, n)) (c : 'cV[R]_n) (tol : R) lim lg clk s s' y l :
  let rho lo hi := (Num.sqrt hi - Num.sqrt lo) / (Num.sqrt hi + Num.sqrt lo) in
  let fac lo hi k := (2%:R * rho lo hi ^+ k / (1 + rho lo hi ^+ (k * 2))) ^+ 2 in
  lsq_ok g sf m n -> svd_spec L -> 0 <= lim ->
  SPU1 L g sf (ofmx A) (ofcv c) tol lim lg clk s = (s', inr (y, l)) ->
  exists d (Sm : 'M[R]_(d, m)) (yv : 'cV[R]_m) k,
  [/\ drew g sf n s s' Sm, y = ofcv yv, lg -> exists es, errors l = Some es /\ size es = k.+1 &
  forall lo hi ys, (forall v : 'cV[R]_n, lo * fro2 (A *m v) <= fro2 (Sm *m A *m v) <= hi * fro2 (A *m v)) ->
    0 < lo <= hi -> svd_clean L (Sm *m A) -> ridge_min A^T c 0 ys ->
    lo * fro2 (yv - ys) <= hi * (fac lo hi k * fro2 ys) /\
    (tol <= 0 -> (n ^ 2)%:R * hi < lo * (10%:R ^+ 8 - 1) ^+ 2 ->
     lo * fro2 (yv - ys) <= hi * (fac lo hi (absz lim) * fro2 ys))].
Proof. by move=> rho fac ok svd l0 E; exact (spu_rate_lemma ok svd l0 E). Qed.
Print Assumptions C90_spu1_rate.

Example C90_spu1_run (R : rcfType) (s : st nat R) : let c : 'cV[R]_1 := 4%:R%:M in
  let A2 : 'M[R]_(2, 1) := const_mx 1 in exists s1 (y : 'cV[R]_2),
  SPU1 (exact_lapack R) (scale_gen 1) 1 (ofmx A2) (ofcv c) 0 5 false (clk0 R) s =
    (s1, inr (ofcv y, log_of false (clk0 R))) /\
  exists d (Sm : 'M[R]_(d, 2)), [/\ drew (scale_gen 1) 1 1 s s1 Sm, embeds (Sm *m A2) A2 2%:R^-1 1,
    svd_clean (exact_lapack R) (Sm *m A2) & ridge_min A2^T c 0 (const_mx 2%:R)].
Proof. exact: spu_rate_wit. Qed.

Theorem C90_sps2_rate (R : rcfType) (G : Type) (L : lapack R) (g : nat -> nat -> M G R (pyop R)) (sf : rat)
    m n (A : 'M[R]_(m, n)) (b : option 'cV[R]_m) (c : option 'cV[R]_n) (dl tol : R) lim lg clk s s' x y l :
  let b0 := if b is Some b then b else 0 in
  let c0 := if c is Some c then c else 0 in
  let e xs (x : 'cV[R]_n) := fro2 (A *m (x - xs)) + dl * fro2 (x - xs) in
  let rho lo hi := (Num.sqrt hi - Num.sqrt lo) / (Num.sqrt hi + Num.sqrt lo) in
  let fac lo hi k := (2%:R * rho lo hi ^+ k / (1 + rho lo hi ^+ (k * 2))) ^+ 2 in
  lsq_ok g sf m n -> svd_spec L -> 0 <= dl -> 0 <= lim ->
  SPS2 L g sf (@PcSS2 R (rcf_ops R)) (ofmx A) (omap (@ofcv R m) b) (omap (@ofcv R n) c) dl tol lim lg clk s =
    (s', inr (x, y, l)) ->
  exists d (Sm : 'M[R]_(d, m)) (xv x0 : 'cV[R]_n) k,
  [/\ drew g sf n s s' Sm, x = ofcv xv /\ y = ofcv (b0 - A *m xv),
      forall clk, SPS2 L g sf (@PcSS2 R (rcf_ops R)) (ofmx A) (omap (@ofcv R m) b) (omap (@ofcv R n) c) dl tol
        0 false clk s = (s', inr (ofcv x0, ofcv (b0 - A *m x0), log_of false clk)),
      lg -> exists es, errors l = Some es /\ size es = k.+1 &
  forall lo hi xs, (forall v : 'cV[R]_n, lo * fro2 (A *m v) <= fro2 (Sm *m A *m v) <= hi * fro2 (A *m v)) ->
    0 < lo <= 1 -> 1 <= hi -> lift_clean L dl (Sm *m A) -> saddle A b0 c0 dl xs (b0 - A *m xs) ->
    e xs xv <= fac lo hi k * e xs x0 /\
    (tol <= 0 -> (n ^ 2)%:R * hi < lo * (10%:R ^+ 8 - 1) ^+ 2 -> e xs xv <= fac lo hi (absz lim) * e xs x0)].
Proof. by move=> b0 c0 e rho fac ok svd d0 l0 E; exact (sps2_rate_lemma ok svd d0 l0 E). Qed.
Print Assumptions C90_sps2_rate.

Example C90_sps2_run (R : rcfType) (s : st nat R) (b : 'cV[R]_2) : let A2 : 'M[R]_(2, 1) := const_mx 1 in
  exists s1 (x : 'cV[R]_1) y,
  SPS2 (exact_lapack R) (scale_gen 1) 1 (@PcSS2 R (rcf_ops R)) (ofmx A2) (Some (ofcv b)) None 0 0 5 false (clk0 R) s =
    (s1, inr (ofcv x, y, log_of false (clk0 R))) /\
  exists d (Sm : 'M[R]_(d, 2)) xs, [/\ drew (scale_gen 1) 1 1 s s1 Sm, embeds (Sm *m A2) A2 2%:R^-1 1,
    lift_clean (exact_lapack R) 0 (Sm *m A2) & saddle A2 b 0 0 xs (b - A2 *m xs)].
Proof. exact: sps2_rate_wit. Qed.

Theorem C90_sps1_rate (R : rcfType) (G : Type) (L : lapack R) (g : nat -> nat -> M G R (pyop R)) (sf : rat)
    m n (A : 'M[R]_(m, n)) (b : option 'cV[R]_m) (c : option 'cV[R]_n) (dl tol : R) strat lim lg clk s s' x y l :
  let b0 := if b is Some b then b else 0 in
  let c0 := if c is Some c then c else 0 in
  let e xs (x : 'cV[R]_n) := fro2 (A *m (x - xs)) + dl * fro2 (x - xs) in
  let rho lo hi := (Num.sqrt hi - Num.sqrt lo) / (Num.sqrt hi + Num.sqrt lo) in
  let fac lo hi k := (2%:R * rho lo hi ^+ k / (1 + rho lo hi ^+ (k * 2))) ^+ 2 in
  let t := trunc_rat (sf * n%:R) in
  svd_spec L -> (\rank A = n \/ 0 < dl) -> 0 <= dl -> 0 <= tol ->
  (0 < n)%N -> n%:R < 2%:R ^+ 52 :> R -> n%:Z <= t -> strat <> NOther -> gen_ok g (absz t) m -> 0 <= lim ->
  SPS1 L g sf (@PcSS1 R (rcf_ops R)) strat (ofmx A) (omap (@ofcv R m) b) (omap (@ofcv R n) c) dl tol lim lg clk s =
    (s', inr (x, y, l)) ->
  exists Sk (Sm : 'M[R]_(absz t, m)),
  [/\ g (absz t) m (St (gen s) (rcons (evs s) (EvDraw (absz t) m))) = (s', inr Sk), py_is Sk Sm &
  \rank (Sm *m A) = n \/ 0 < dl -> lift_clean L dl (Sm *m A) ->
  exists (xv x0 : 'cV[R]_n) k,
  [/\ x = Some (ofcv xv) /\ y = ofcv (b0 - A *m xv),
      forall clk, SPS1 L g sf (@PcSS1 R (rcf_ops R)) strat (ofmx A) (omap (@ofcv R m) b) (omap (@ofcv R n) c) dl tol
        0 false clk s = (s', inr (Some (ofcv x0), ofcv (b0 - A *m x0), log_of false clk)),
      lg -> exists es, errors l = Some es /\ size es = k.+1 &
  forall lo hi xs, (forall v : 'cV[R]_n, lo * fro2 (A *m v) <= fro2 (Sm *m A *m v) <= hi * fro2 (A *m v)) ->
    0 < lo <= 1 -> 1 <= hi -> saddle A b0 c0 dl xs (b0 - A *m xs) ->
    e xs xv <= fac lo hi k * e xs x0 /\ (tol = 0 -> e xs xv <= fac lo hi (absz lim) * e xs x0)]].
Proof.
by move=> b0 c0 e rho fac t svd hA d0 t0 n0 n52 nt sO gk l0 E;
   exact (sps1_rate_lemma svd hA d0 t0 n0 n52 nt sO gk l0 E).
Qed.
Print Assumptions C90_sps1_rate.

Example C90_sps1_run (R : rcfType) (s : st nat R) (b : 'cV[R]_2) : let A2 : 'M[R]_(2, 1) := const_mx 1 in
  let t := absz (trunc_rat (1 * 1%:R)) in exists s1 (x : 'cV[R]_1) y,
  SPS1 (exact_lapack R) (scale_gen 1) 1 (@PcSS1 R (rcf_ops R)) NLeft (ofmx A2) (Some (ofcv b)) None 0 0 5 false
    (clk0 R) s = (s1, inr (Some (ofcv x), y, log_of false (clk0 R))) /\
  exists Sk (Sm : 'M[R]_(t, 2)) xs,
    [/\ scale_gen 1 t 2 (St (gen s) (rcons (evs s) (EvDraw t 2))) = (s1, inr Sk), py_is Sk Sm,
        embeds (Sm *m A2) A2 2%:R^-1 1, \rank (Sm *m A2) = 1%N &
        lift_clean (exact_lapack R) 0 (Sm *m A2) /\ saddle A2 b 0 0 xs (b - A2 *m xs)].
Proof. exact: sps1_rate_wit. Qed.
