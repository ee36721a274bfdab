(** Specification of C100: rounded arithmetic.  [v] reads a machine number as a real
    number and every operation is correct up to a relative error [u] (the standard model
    of floating-point arithmetic: no overflow, underflow or NaN occurs).  For IEEE doubles
    u = 2^-53. *)
From mathcomp Require Import all_ssreflect all_algebra.
From Verif Require Import Base Arr Lapack Exact MxLib Rng Shape Inexact SvdEvd.
Set Implicit Arguments.
Unset Strict Implicit.
Unset Printing Implicit Defensive.
Import Order.TTheory GRing.Theory Num.Theory.
Local Open Scope ring_scope.

Record fl_arith (R : rcfType) (T : Type) (O : ops T) (v : T -> R) (u : R) : Prop := FlArith {
  fl_u : 0 <= u < 1;
  fl_0 : v o0 = 0;
  fl_1 : v o1 = 1;
  fl_opp : forall x, v (oopp x) = - v x;
  fl_add : forall x y, `|v (oadd x y) - (v x + v y)| <= u * `|v x + v y|;
  fl_sub : forall x y, `|v (osub x y) - (v x - v y)| <= u * `|v x - v y|;
  fl_mul : forall x y, `|v (omul x y) - v x * v y| <= u * `|v x * v y|;
  fl_div : forall x y, v y != 0 -> `|v (odiv x y) - v x / v y| <= u * `|v x / v y|;
  fl_sqrt : forall x, 0 <= v x -> `|v (osqrt x) - Num.sqrt (v x)| <= u * Num.sqrt (v x);
  fl_le : forall x y, ole x y = (v x <= v y);
  fl_lt : forall x y, olt x y = (v x < v y);
  fl_eq : forall x y, oeq x y = (v x == v y)
}.

Section Float.
Context {R : rcfType} {T : Type} {O : ops T}.
Variable v : T -> R.

(** The real matrix held by an array, the real vector held by a 1-D array. *)
Definition mval (m n : nat) (A : arr T) : 'M[R]_(m, n) := \matrix_(i, j) v (el A i j).
Definition vval (n : nat) (x : seq T) : 'cV[R]_n := \col_i v (ev x i).

(** QR with backward error: raises an exception in [X] or returns factors whose values
    satisfy the contract of [Inexact]. *)
Definition qr_fl (X : exn -> Prop) (L : lapack T) (eta dl : R) : Prop :=
  forall m n A, (0 < m)%N -> (0 < n)%N -> shaped m n A ->
  rsafe X (fun QU => [/\ shaped m (minn m n) QU.1, shaped (minn m n) n QU.2,
      near_ortho eta (mval m (minn m n) QU.1) &
      fro (mval m n A - mval m (minn m n) QU.1 *m mval (minn m n) n QU.2) <= dl * fro (mval m n A)]) (l_qr L A).

(** Least squares (one right-hand side) up to a relative excess [tau] of the residual norm. *)
Definition lstsq_fl (X : exn -> Prop) (L : lapack T) (tau : R) : Prop :=
  forall m n A b, (0 < m)%N -> (0 < n)%N -> shaped m n A -> shaped m 1 b ->
  rsafe X (fun x => shaped n 1 x /\ forall y : 'cV[R]_n,
      fro (mval m n A *m mval n 1 x - mval m 1 b) <= (1 + tau) * fro (mval m n A *m y - mval m 1 b)) (l_lstsq L A b).

End Float.

(** Relative error after [n] roundings. *)
Definition gam (R : rcfType) (u : R) (n : nat) : R := (1 + u) ^+ n - 1.

(** Error constants of the QB drivers on m x n matrices with at most k columns: the product
    [Q.T @ A], the sketch [A @ S] with its QR, one step of the blocked loop (residual array,
    squared norm), and the accumulated squared norm. *)
Section Const.
Variables (R : rcfType) (eta dl u : R).
Definition fl_beta m k : R := gam u m.+1 * (Num.sqrt (1 + eta) * Num.sqrt k%:R).
Definition fl_sketch n : R := (1 + dl) * gam u n.+1 + dl.
Definition fl_omega m k : R :=
  (1 + u) * gam u k.+1 * (Num.sqrt (1 + eta) * Num.sqrt k%:R) * ((Num.sqrt (1 - eta))^-1 + fl_beta m k) +
  u * (1 + Num.sqrt (1 + eta) * fl_beta m k).
Definition fl_kappa m k : R :=
  let w := fl_omega m k + Num.sqrt (1 + eta) * fl_beta m k in
  eta / (1 - eta) + w * (2%:R + w) + fl_beta m k * (2%:R / Num.sqrt (1 - eta) + fl_beta m k).
Definition fl_K m n k : R := (1 + fl_kappa m k) * (1 + u) ^+ (k + n + 5) - 1.
(** After j blocks: distance of the residual array from A - Q B, and error of the squared norm, both relative. *)
Definition fl_drift m n k j : R := j%:R * fl_omega m k * (1 + fl_K m n k) ^+ j.
Definition fl_sq m n k j : R := (gam u (m + n + 4) + j%:R * fl_K m n k) * (1 + fl_K m n k) ^+ j.
End Const.

(** ceil(c / b) *)
Definition nblk (b c : nat) : nat := (c + b).-1 %/ b.

(** The values of rng.normal(0, scale, (m, n)) have the second and fourth moments of
    independent N(0, scale^2) variables. *)
Section Moments.
Context {R : rcfType} {T : Type} {O : ops T} {G : Type}.
Variables (v : T -> R) (E : (G -> R) -> R) (r : rng_ops G T) (m n : nat).
Definition fl_uncorrelated : Prop :=
  forall c i j i' j', (i < m)%N -> (j < n)%N -> (i' < m)%N -> (j' < n)%N ->
  E (fun g => v (el (r_normal r g c m n).2 i j) * v (el (r_normal r g c m n).2 i' j')) =
  v c ^+ 2 * ((i == i') && (j == j'))%:R.
Definition fl_normal4 : Prop :=
  forall c (i1 j1 i2 j2 i3 j3 i4 j4 : nat),
  (i1 < m)%N -> (j1 < n)%N -> (i2 < m)%N -> (j2 < n)%N -> (i3 < m)%N -> (j3 < n)%N -> (i4 < m)%N -> (j4 < n)%N ->
  let x g i j := v (el (r_normal r g c m n).2 i j) in
  E (fun g => x g i1 j1 * x g i2 j2 * (x g i3 j3 * x g i4 j4)) =
  v c ^+ 4 * (((i1 == i2) && (j1 == j2) && (i3 == i4) && (j3 == j4))%:R +
              ((i1 == i3) && (j1 == j3) && (i2 == i4) && (j2 == j4))%:R +
              ((i1 == i4) && (j1 == j4) && (i2 == i3) && (j2 == j3))%:R).
End Moments.

(** Rounding errors made in forming the sketched least squares problem with sketch S and regularisation dl, felt at z. *)
Definition sso_err (R : rcfType) (u : R) d m n (S : 'M[R]_(d, m)) (A : 'M[R]_(m, n)) (b : 'cV[R]_m) (dl : R)
    (z : 'cV[R]_n) : R :=
  gam u m.+1 * fro S * (fro A * fro z + fro b) + gam u 2 * Num.sqrt dl * fro z.

(** Conjugate gradients for H x = b with ||b|| = bn, ||H z|| <= h ||z||, products with H off by at most a ||z||,
    and iterates of norm at most xi: a bound on one update of the iterate, the error of a residual computed afresh,
    the error added by one update of the residual, and the error after at most nine updates. *)
Section PcgGap.
Variables (R : rcfType) (u a h bn xi : R).
Definition fl_upd : R := (xi + xi / (1 - u)) / (1 - u).
Definition fl_fresh : R := a * xi + u * (bn + (h + a) * xi).
Definition fl_rec : R :=
  h * (u * (xi / (1 - u)) + u * fl_upd) + a * fl_upd + u * ((h + a) * fl_upd) +
  u * (bn + h * xi + (1 + u) * ((h + a) * fl_upd)).
Definition pcg_gap : R := (1 + u) ^+ 9 * (fl_fresh + 9%:R * fl_rec).
End PcgGap.

(** A routine multiplying vectors by H up to a relative error, and one that keeps the length. *)
Definition op_fl (R : rcfType) (T : Type) {O : ops T} (v : T -> R) n (f : seq T -> res (seq T)) (H : 'M[R]_n) (a : R) : Prop :=
  forall x y, size x = n -> f x = Ok y -> size y = n /\ fro (vval v n y - H *m vval v n x) <= a * fro (vval v n x).
Definition op_len (T : Type) n (f : seq T -> res (seq T)) : Prop :=
  forall x y, size x = n -> f x = Ok y -> size y = n.

(** An optional 1-D array, [None] standing for zeros; the error of one product with A^T A + delta I
    formed as A^T (A x) + delta x, for ||A||_F = al and |delta| = dl. *)
Definition ovval (R : rcfType) (T : Type) {O : ops T} (v : T -> R) n (x : option (seq T)) : 'cV[R]_n :=
  if x is Some x then vval v n x else 0.
Definition gram_err (R : rcfType) (u : R) m n (al dl : R) : R := gam u (m + n + 3) * al ^+ 2 + gam u 2 * dl.

(** SVD as delivered by a backward stable routine: within [mu] of factors of an exact SVD of a
    matrix within [mu], relatively, of A; the singular values are non-negative and sorted. *)
Definition svd_fl (R : rcfType) (T : Type) {O : ops T} (v : T -> R) (X : exn -> Prop) (L : lapack T) (mu : R) : Prop :=
  forall m n A, (0 < m)%N -> (0 < n)%N -> shaped m n A ->
  rsafe X (fun USV => let q := minn m n in
    [/\ shaped m q USV.1.1, size USV.1.2 = q, shaped q n USV.2,
        forall i j, (i <= j < q)%N -> 0 <= v (ev USV.1.2 j) <= v (ev USV.1.2 i) &
        exists (U : 'M[R]_(m, q)) (V : 'M[R]_(q, n)),
        [/\ orthonormal U, orthonormal V^T, fro (mval v m q USV.1.1 - U) <= mu, fro (mval v q n USV.2 - V) <= mu &
            fro (mval v m n A - U *m diag_mx (vval v q USV.1.2)^T *m V) <= mu * fro (mval v m n A)]]) (l_svd L A).

(** Constants of SVD1 for a factor Q with c columns: distance of the computed U from Q times an
    orthonormal factor, and the rounding error relative to the norm of B. *)
Definition fl_du (R : rcfType) (eta mu u : R) c : R :=
  Num.sqrt (1 + eta) * mu + gam u c.+1 * (Num.sqrt (1 + eta) * Num.sqrt c%:R * (Num.sqrt c%:R + mu)).
Definition fl_svd (R : rcfType) (eta mu u : R) c : R :=
  let r := Num.sqrt (1 + eta) in let d := fl_du eta mu u c in
  r * (2%:R * mu + eta) + (d + (r + d) * mu) * (1 + mu).

(** Error of A S against the range of the Q of a one-block QB2: the block is projected onto the
    complement of nothing (one rounding) and factored again. *)
Definition fl_sketch2 (R : rcfType) (eta dl u : R) n k : R :=
  let om := (u + dl * (1 + u)) * (Num.sqrt (1 + eta) * Num.sqrt k%:R) in
  fl_sketch dl u n + om * ((Num.sqrt (1 - eta))^-1 * (1 + fl_sketch dl u n)).

(** Error of a one-block QB2 with l columns for an m x n matrix of norm a, when the exact
    structural bound is w and the sketch amplifies its rounding errors by w'. *)
Definition fl_qb_one (R : rcfType) (eta dl u : R) m n l (w w' a : R) : R :=
  (1 + rho eta) * (w + fl_sketch2 eta dl u n l * w' * a) +
  (rho eta + (1 + eta) * Num.sqrt l%:R * gam u m.+1) * a.

(** An acceptable answer of svd1 for a matrix A, target rank k and l sampled columns, when the QB factorisation
    has the error e0: at most k triplets, factors orthonormal up to rounding, values sorted and not below the
    cut-off, and an error compared with that of any matrix Y of rank at most k. *)
Definition svd_ok (R : rcfType) (T : Type) {O : ops T} (v : T -> R) (eta mu u : R) m n k l (A : 'M[R]_(m, n)) (e0 : R)
    (x : arr T * seq T * arr T) : Prop :=
  let r := Num.sqrt (1 + eta) in let t := (Num.sqrt (1 - eta))^-1 in
  exists2 e, (e <= k)%N &
    [/\ [/\ shaped m e x.1.1, size x.1.2 = e & shaped e n x.2],
        [/\ forall i, (i < e)%N -> 0 <= v (ev x.1.2 i) /\ v cut10 <= v (ev x.1.2 i),
            forall i j, (i <= j < e)%N -> v (ev x.1.2 j) <= v (ev x.1.2 i),
            near_ortho (eta + fl_du eta mu u l * (r + t + fl_du eta mu u l)) (mval v m e x.1.1) &
            near_ortho (mu * (2%:R + mu)) (mval v e n x.2)^T] &
        forall Y : 'M[R]_(m, n), (\rank Y <= k)%N ->
          fro (A - mval v m e x.1.1 *m diag_mx (vval v e x.1.2)^T *m mval v e n x.2) <=
          (1 + r * t) * e0 + r * t * fro (A - Y) + r * Num.sqrt l%:R * `|v cut10| +
          fl_svd eta mu u l * (t * (fro A + e0))].
