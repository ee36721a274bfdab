(** Property theorems about the procedural least squares and saddle point
    drivers (SJLT sketch).  [sjlt_mat nnz S]: every column of S has exactly nnz
    non-zeros, each plus or minus 1/sqrt(nnz).  [.2] is the outcome of a call;
    the rng argument [a] and the state [s] are arbitrary. *)
From mathcomp Require Import all_ssreflect all_algebra.
From Verif Require Import Base Arr Lapack Exact MxLib LapackSpec LapackExists Rng Aware.
From Verif Require Import Precond LstSq SaddleSys P_LS3 P_LS5 P_LS6 Sketching Drivers P_Drivers.
Set Implicit Arguments.
Unset Strict Implicit.
Unset Printing Implicit Defensive.
Import Order.TTheory GRing.Theory Num.Theory.
Local Open Scope ring_scope.

(** ** C71: sso1, spo1, spo3, spu1. *)
Theorem C71_sso1 (R : rcfType) (G : Type) (L : lapack R) (r : rng_ops G R) m n (A : 'M[R]_(m, n)) sf nnz
    (b : 'cV[R]_m) dl a (s : st G R) :
  rng_ok r -> (0 < n <= m)%N -> (0 < nnz <= n)%N -> n%:Z <= trunc_rat (sf * n%:R) -> lstsq_spec L -> 0 <= dl ->
  exists d (Sm : 'M[R]_(d, m)) (x : 'cV[R]_n),
  [/\ (sso1 L r (ofmx A) (ofcv b) dl a sf nnz s).2 = inr (ofcv x),
      d%:Z = Num.min (trunc_rat (sf * n%:R)) m%:Z, sjlt_mat nnz Sm &
      forall z : 'cV[R]_n,
        fro2 (Sm *m b - Sm *m A *m x) + dl * fro2 x <= fro2 (Sm *m b - Sm *m A *m z) + dl * fro2 z /\
        (fro2 (Sm *m b - Sm *m A *m z) + dl * fro2 z = fro2 (Sm *m b - Sm *m A *m x) + dl * fro2 x ->
         fro2 x <= fro2 z)].
Proof. by move=> h1 h2 h3 h4 h5 h6; exact (sso1_drv h1 A h2 h3 h4 b a s h5 h6). Qed.
Print Assumptions C71_sso1.

Theorem C71_spo (R : rcfType) (G : Type) (L : lapack R) (r : rng_ops G R) m n (A : 'M[R]_(m, n)) sf nnz
    (b : 'cV[R]_m) dl tol lim a md clk (s : st G R) x l :
  rng_ok r -> (0 < n <= m)%N -> (0 < nnz <= n)%N -> n%:Z <= trunc_rat (sf * n%:R) ->
  qr_spec L -> svd_spec L -> 0 <= dl -> md <> MOther -> 0 <= lim ->
  (spo3 L r (ofmx A) (ofcv b) dl tol lim a sf nnz md clk s).2 = inr (x, l) ->
  exists d (Sm : 'M[R]_(d, m)) (xv : 'cV[R]_n),
  [/\ d%:Z = Num.min (trunc_rat (sf * n%:R)) m%:Z, sjlt_mat nnz Sm, x = ofcv xv,
      fro2 (b - A *m xv) + dl * fro2 xv <= fro2 b &
  forall lo hi, (forall v : 'cV[R]_n, lo * fro2 (A *m v) <= fro2 (Sm *m A *m v) <= hi * fro2 (A *m v)) ->
    0 < lo <= 1 -> 1 <= hi -> (n ^ 2)%:R * hi < lo * (10%:R ^+ 8 - 1) ^+ 2 ->
    sketch_clean L md dl (Sm *m A) -> tol <= 0 -> (n <= absz lim)%N ->
    forall z : 'cV[R]_n,
      fro2 (b - A *m xv) + dl * fro2 xv <= fro2 (b - A *m z) + dl * fro2 z /\
      (fro2 (b - A *m z) + dl * fro2 z = fro2 (b - A *m xv) + dl * fro2 xv -> fro2 xv <= fro2 z)].
Proof. by move=> h1 h2 h3 h4 h5 h6 h7 h8 h9 h10; exact (spo3_drv h1 h2 h3 h4 h5 h6 h7 h8 h9 h10). Qed.
Print Assumptions C71_spo.

Theorem C71_spo1_is_svd_mode (R : rcfType) (G : Type) (L : lapack R) (r : rng_ops G R) A sf nnz b dl tol lim a clk :
  spo1 L r A b dl tol lim a sf nnz clk = spo3 L r A b dl tol lim a sf nnz MSvd clk.
Proof. by []. Qed.
Print Assumptions C71_spo1_is_svd_mode.

(** These drivers always log, and the log cannot be built for b = 0. *)
Theorem C71_spo1_zero_rhs (R : rcfType) (G : Type) (L : lapack R) (r : rng_ops G R) m n (A : 'M[R]_(m, n)) sf nnz
    dl tol lim a clk (s : st G R) :
  rng_ok r -> (0 < n <= m)%N -> (0 < nnz <= n)%N -> n%:Z <= trunc_rat (sf * n%:R) ->
  qr_spec L -> svd_spec L -> 0 <= dl -> 0 <= lim ->
  (spo1 L r (ofmx A) (ofcv (0 : 'cV[R]_m)) dl tol lim a sf nnz clk s).2 = inl ValueError.
Proof. by move=> h1 h2 h3 h4 h5 h6 h7 h8; exact (spo1_zero_drv h1 A h2 h3 h4 tol a clk s h5 h6 h7 h8). Qed.
Print Assumptions C71_spo1_zero_rhs.

Theorem C71_spu1 (R : rcfType) (G : Type) (L : lapack R) (r : rng_ops G R) m n (A : 'M[R]_(m, n)) sf nnz
    (c : 'cV[R]_n) (tol : R) lim a clk (s : st G R) :
  rng_ok r -> (0 < n <= m)%N -> (0 < nnz <= n)%N -> n%:Z <= trunc_rat (sf * n%:R) ->
  svd_spec L -> c != 0 -> (exists e, c = A^T *m e) -> tol <= 0 -> 0 <= lim -> (n <= absz lim)%N ->
  exists d (Sm : 'M[R]_(d, m)), sjlt_mat nnz Sm /\
  forall lo hi, (forall v : 'cV[R]_n, lo * fro2 (A *m v) <= fro2 (Sm *m A *m v) <= hi * fro2 (A *m v)) ->
    0 < lo -> 0 < hi -> (n ^ 2)%:R * hi < lo * (10%:R ^+ 8 - 1) ^+ 2 -> svd_clean L (Sm *m A) ->
    exists (y : 'cV[R]_m) l,
    [/\ (spu1 L r (ofmx A) (ofcv c) tol lim a sf nnz clk s).2 = inr (ofcv y, l), A^T *m y = c &
        forall z, A^T *m z = c -> fro2 y <= fro2 z].
Proof. by move=> h1 h2 h3 h4 h5 h6 h7 h8 h9 h10; exact (spu1_drv h1 h2 h3 h4 a clk s h5 h6 h7 h8 h9 h10). Qed.
Print Assumptions C71_spu1.

(** A right-hand side orthogonal to the rows of A (the least squares solution is
    then zero) makes spu1 raise. *)
Theorem C71_spu1_orthogonal_rhs (R : rcfType) (G : Type) (L : lapack R) (r : rng_ops G R) m n (A : 'M[R]_(m, n)) sf nnz
    (c : 'cV[R]_n) (tol : R) lim a clk (s : st G R) :
  rng_ok r -> (0 < n <= m)%N -> (0 < nnz <= n)%N -> n%:Z <= trunc_rat (sf * n%:R) ->
  svd_spec L -> A *m c = 0 -> 0 <= lim ->
  exists e, (spu1 L r (ofmx A) (ofcv c) tol lim a sf nnz clk s).2 = inl e.
Proof. by move=> h1 h2 h3 h4 h5 h6 h7; exact (spu1_orth_drv h1 h2 h3 h4 tol a clk s h5 h6 h7). Qed.
Print Assumptions C71_spu1_orthogonal_rhs.

Example C71_hyps (R : rcfType) :
  [/\ rng_ok (@toy_rng R (rcf_ops R)), lstsq_spec (exact_lapack R), qr_spec (exact_lapack R),
      svd_spec (exact_lapack R) & [&& (0 < 2 <= 7)%N, (0 < 2 <= 2)%N & (2%:Z <= trunc_rat (3%:Q * 2%:R))]].
Proof. by split; [exact: toy_rng_ok | exact: exact_lstsq | exact: exact_qr | exact: exact_svd | ]. Qed.

(** A rank-deficient A and a non-zero c orthogonal to its rows. *)
Example C71_orthogonal_hyp (R : rcfType) :
  let A : 'M[R]_(3, 2) := \matrix_(i, j) (j == 0)%:R in
  let c : 'cV[R]_2 := \matrix_(i, j) (i != 0)%:R in A *m c = 0 /\ c != 0.
Proof.
split; first by apply/matrixP=> i j; rewrite !mxE big_ord_recl big_ord1 !mxE /= mulr0 mul0r addr0.
by apply/eqP => /matrixP/(_ 1 0)/eqP; rewrite !mxE /= oner_eq0.
Qed.

(** ** C72: sps. *)
Theorem C72_sps_pcg (R : rcfType) (G : Type) (L : lapack R) (r : rng_ops G R) m n (A : 'M[R]_(m, n)) sf nnz
    (b : option 'cV[R]_m) (c : option 'cV[R]_n) dl tol lim a clk (s : st G R) :
  let t := trunc_rat (sf * n%:R) in
  let b0 := if b is Some b then b else 0 in
  let c0 := if c is Some c then c else 0 in
  rng_ok r -> svd_spec L -> \rank A = n \/ 0 < dl -> 0 <= dl -> 0 <= tol -> (0 < n)%N -> (0 < m)%N -> (0 < nnz)%N ->
  n%:R < 2%:R ^+ 52 :> R -> n%:Z <= t -> 0 <= lim ->
  exists Sm : 'M[R]_(absz t, m),
  ((nnz <= absz t <= m)%N -> sjlt_mat nnz Sm) /\
  (Sm *m A <> 0 \/ 0 < dl -> exists (x : 'cV[R]_n) l,
     (sps L r (ofmx A) (omap (@ofcv R m) b) (omap (@ofcv R n) c) dl tol lim a sf nnz SpsPcg clk s).2 =
       inr (Some (ofcv x), ofcv (b0 - A *m x), l) /\
     ((n <= absz lim)%N -> tol = 0 -> A^T *m (b0 - A *m x) - dl *: x = c0)).
Proof. by move=> t b0 c0 h1 h2 h3 h4 h5 h6 h7 h8 h9 h10 h11; exact (sps_pcg h1 b c a clk s h2 h3 h4 h5 h6 h7 h8 h9 h10 h11). Qed.
Print Assumptions C72_sps_pcg.

Theorem C72_sps_pcg_small_sketch (R : rcfType) (G : Type) (L : lapack R) (r : rng_ops G R) m n (A : 'M[R]_(m, n)) sf nnz
    (b : option 'cV[R]_m) (c : option 'cV[R]_n) dl tol lim a clk (s : st G R) :
  let t := trunc_rat (sf * n%:R) in
  let b0 := if b is Some b then b else 0 in
  let c0 := if c is Some c then c else 0 in
  rng_ok r -> qr_spec L -> svd_spec L -> 0 <= dl -> 0 <= tol -> (n <= m)%N -> (0 < nnz)%N ->
  0 < t < n%:Z -> \rank A = n -> 0 <= lim ->
  exists (x : 'cV[R]_n) l,
     (sps L r (ofmx A) (omap (@ofcv R m) b) (omap (@ofcv R n) c) dl tol lim a sf nnz SpsPcg clk s).2 =
       inr (Some (ofcv x), ofcv (b0 - A *m x), l) /\
     ((n <= absz lim)%N -> tol = 0 -> A^T *m (b0 - A *m x) - dl *: x = c0).
Proof. by move=> t b0 c0 h1 h2 h3 h4 h5 h6 h7 h8 h9 h10; exact (sps_pcg_small h1 b c a clk s h2 h3 h4 h5 h6 h7 h8 h9 h10). Qed.
Print Assumptions C72_sps_pcg_small_sketch.

(** The documented alternative method fails for every genuine saddle point
    system. *)
Theorem C72_sps_lsqr_raises (R : rcfType) (G : Type) (L : lapack R) (r : rng_ops G R) m n (A : 'M[R]_(m, n)) sf nnz
    (b : 'cV[R]_m) (c : 'cV[R]_n) (dl tol : R) lim a clk (s : st G R) :
  rng_ok r -> svd_spec L -> 0 <= dl -> (0 < n)%N -> (0 < m)%N -> (0 < nnz)%N -> n%:Z <= trunc_rat (sf * n%:R) ->
  b != 0 -> c != 0 ->
  (sps L r (ofmx A) (Some (ofcv b)) (Some (ofcv c)) dl tol lim a sf nnz SpsLsqr clk s).2 = inl ValueError.
Proof. exact: sps_lsqr. Qed.
Print Assumptions C72_sps_lsqr_raises.

Theorem C72_sps_method (T : Type) (O : ops T) (G : Type) (L : lapack T) (r : rng_ops G T) A b c dl tol lim a sf nnz clk
    (s : st G T) :
  sps L r A b c dl tol lim a sf nnz SpsOther clk s = (s, inl ValueError).
Proof. by []. Qed.
Print Assumptions C72_sps_method.

Example C72_hyps (R : rcfType) :
  [/\ rng_ok (@toy_rng R (rcf_ops R)), svd_spec (exact_lapack R), \rank (1%:M : 'M[R]_3) = 3%N,
      (3%:R < 2%:R ^+ 52 :> R) & (3%:Z <= trunc_rat (3%:Q * 3%:R)) && (0 < trunc_rat ((2%:Q / 3%:Q) * 3%:R) < 3%:Z)].
Proof.
split=> //; [exact: toy_rng_ok | exact: exact_svd | by rewrite mxrank1 | ].
by rewrite -natrX ltr_nat.
Qed.
