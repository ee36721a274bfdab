(** Specification for the Cholesky factorisation and the Nystrom eigendecomposition in rounded arithmetic
    (property C108). *)
From mathcomp Require Import all_ssreflect all_algebra.
From Verif Require Import Base Arr Lapack Exact MxLib LapackSpec Rng Aware Shape Inexact Float FloatInterp FloatEvd.
Set Implicit Arguments.
Unset Strict Implicit.
Unset Printing Implicit Defensive.
Import Order.TTheory GRing.Theory Num.Theory.
Local Open Scope ring_scope.

(** Relative residual of a Cholesky factorisation of order n. *)
Definition fl_chol (R : rcfType) (u : R) (n : nat) : R := gam u n.+1 + ((1 - u)^-1 ^+ 3 - 1).

(** Error constants of the Nystrom eigendecomposition of an n x n matrix A with a sketch S of p columns and the
    shift nu: a = ||A||, sg = ||S||, y = ||(A + nu I) S||, kap a lower bound on the eigenvalues of
    K = S^T (A + nu I) S, and ze the norm of the coefficients K^-1 S^T (A + nu I). *)
Section NysConst.
Variables (R : rcfType) (u mu : R) (n p : nat) (a nu sg y kap ze : R).
(** Error of the computed (A + nu I) S; squared norm of the Cholesky factor; distance of its Gram matrix from K;
    smallest singular value of the factor; norm of B; residual of the triangular solve. *)
Definition ny_e0 : R := gam u n.+2 * ((a + nu) * sg).
Definition ny_l2 : R := (1 + Num.sqrt p%:R * gam u n.+1) * (sg * (y + ny_e0)) / (1 - fl_chol u p).
Definition ny_e2 : R := Num.sqrt 2%:R * (gam u n.+1 * (sg * (y + ny_e0)) + sg * ny_e0) + fl_chol u p * ny_l2.
Definition ny_s : R := Num.sqrt (kap - ny_e2).
Definition ny_b : R := (y + ny_e0) / (ny_s - fl_tri u p * Num.sqrt ny_l2).
Definition ny_e1 : R := ny_e0 + fl_tri u p * (Num.sqrt ny_l2 * ny_b).
Definition ny_cond : bool := [&& fl_chol u p < 1, ny_e2 < kap & fl_tri u p * Num.sqrt ny_l2 < ny_s].
(** K is positive definite by a margin that rounding errors cannot consume. *)
Definition ny_def : bool := (fl_chol u p < 1) && (ny_e2 + fl_chol u p * ny_l2 < kap).
(** Error of the decomposition before and after truncation and shift. *)
Definition ny_err : R := ny_e1 * ze + ny_b / ny_s * (ny_e1 + ny_e2 * ze) + mu * (2%:R + mu) * ny_b ^+ 2.
Definition ny_rnd : R :=
  (gam u 2 + mu * (2%:R + mu) * (1 + gam u 2)) * ((1 + mu) ^+ 2 * ny_b ^+ 2 + nu * Num.sqrt p%:R).
End NysConst.

(** Error constants of the Cholesky preconditioner of a d x n sketch with squared norm s2 and the regularisation dl:
    error of the Gram matrix; squared norm of the factor; error of R^T R; and K = sketch' sketch + dl I, whose
    eigenvalues are at least kap, is positive definite by a margin that rounding errors cannot consume. *)
Section GramConst.
Variables (R : rcfType) (u : R) (d n : nat) (s2 dl kap : R).
Definition gr_e : R := gam u d.+2 * (s2 + dl * Num.sqrt n%:R).
Definition gr_l2 : R := (1 + gam u d.+2) * (s2 + n%:R * dl) / (1 - fl_chol u n).
Definition gr_err : R := gr_e + fl_chol u n * gr_l2.
Definition gr_def : bool := (fl_chol u n < 1) && (gr_err + fl_chol u n * gr_l2 < kap).
End GramConst.

Section FloatNys.
Context {R : rcfType} {T : Type} {O : ops T}.
Variable v : T -> R.

(** An acceptable Cholesky factor of the matrix given by the lower triangle of C. *)
Definition chol_ok (u : R) n (C Lo : arr T) : Prop :=
  let Lm := mval v n n Lo in let M := lowval v n C in
  [/\ shaped n n Lo, forall i j : 'I_n, (i < j)%N -> Lm i j = 0, forall i : 'I_n, 0 < Lm i i,
      fro (M - Lm *m Lm^T) <= fl_chol u n * fro2 Lm & (1 - fl_chol u n) * fro2 Lm <= \tr M].

(** S is the result of j steps of the stabilised power method with A, started from S0, each step rounded: nearly
    orthonormal columns that span the product of A and the previous basis up to ep. *)
Fixpoint pow_chain (eta ep : R) n p (A : 'M[R]_n) (S0 : 'M[R]_(n, p)) j (S : 'M[R]_(n, p)) : Prop :=
  if j is j'.+1 then exists S1, pow_chain eta ep A S0 j' S1 /\
    (near_ortho eta S /\ exists U : 'M[R]_p, fro (A *m S1 - S *m U) <= ep * (fro A * fro S1))
  else S = S0.

(** An acceptable answer of EVD2 for a symmetric matrix A, target rank k and the sketch S: at most k pairs,
    eigenvectors orthonormal up to rounding, every eigenvalue after the first positive, the distance of the answer from
    the Nystrom approximation of the shifted matrix compared with that of any matrix X of the same rank, and fewer than
    k pairs only if that approximation is, up to the shift, of rank one more.  The shift is sqrt(n) * eps * ||A S||. *)
Definition nys_ok (u mu : R) n p k (A : 'M[R]_n) (S : 'M[R]_(n, p)) (x : arr T * seq T) : Prop :=
  exists nu f e,
  [/\ 0 <= nu, 0 <= f, `|f - fro (A *m S)| <= gam u n.+1 * (fro A * fro S),
      `|nu ^+ 2 - n%:R * v oeps ^+ 2 * f ^+ 2| <= gam u (n + n + p + 9) * (n%:R * v oeps ^+ 2 * f ^+ 2) &
      (e <= k)%N] /\
  let V := mval v n e x.1 in let lam := vval v e x.2 in let Y := (A + nu%:M) *m S in
  [/\ shaped n e x.1, size x.2 = e, near_ortho (mu * (2%:R + mu)) V, forall i, (0 < i < e)%N -> 0 < v (ev x.2 i) &
      forall kap (Z : 'M[R]_(p, n)), S^T *m Y *m Z = Y^T ->
        (forall w : 'cV[R]_p, kap * fro2 w <= \tr (w^T *m (S^T *m Y) *m w)) ->
        ny_cond u n p (fro A) nu (fro S) (fro Y) kap ->
        let err := ny_err u mu n p (fro A) nu (fro S) (fro Y) kap (fro Z) in
        let rnd := ny_rnd u mu n p (fro A) nu (fro S) (fro Y) kap in
        (forall X : 'M[R]_n, (\rank X <= e)%N ->
           fro (Y *m Z - V *m diag_mx lam^T *m V^T) <= fro (Y *m Z - X) + 2%:R * err + nu * Num.sqrt p%:R + rnd) /\
        ((e < k)%N -> exists2 X : 'M[R]_n, (\rank X <= e.+1)%N &
           fro (Y *m Z - X) <= Num.sqrt p%:R * (nu / (1 - u)) + err)].

(** An acceptable triangular preconditioner of the sketch As with regularisation dl: || R w ||^2 is
    || As w ||^2 + dl || w ||^2 up to rounding, for every w. *)
Definition tri_pre_ok (u : R) d n (As : 'M[R]_(d, n)) (dl : R) (Rt : arr T) : Prop :=
  let Rm := mval v n n Rt in
  [/\ shaped n n Rt, forall i j : 'I_n, (j < i)%N -> Rm i j = 0, forall i : 'I_n, 0 < Rm i i &
      forall w : 'cV[R]_n, `|fro2 (Rm *m w) - (fro2 (As *m w) + dl * fro2 w)| <= gr_err u d n (fro2 As) dl * fro2 w].

(** The only reason for EVD2 to raise LinAlgError, the SVD apart: for the shift it computed, K is not safely positive
    definite. *)
Definition nys_fail (u : R) n p (A : 'M[R]_n) (S : 'M[R]_(n, p)) : Prop :=
  exists nu f,
  [/\ 0 <= nu, 0 <= f, `|f - fro (A *m S)| <= gam u n.+1 * (fro A * fro S) &
      `|nu ^+ 2 - n%:R * v oeps ^+ 2 * f ^+ 2| <= gam u (n + n + p + 9) * (n%:R * v oeps ^+ 2 * f ^+ 2)] /\
  let Y := (A + nu%:M) *m S in
  forall kap, (forall w : 'cV[R]_p, kap * fro2 w <= \tr (w^T *m (S^T *m Y) *m w)) ->
    ~~ ny_def u n p (fro A) nu (fro S) (fro Y) kap.

(** The only reason for SPO to raise LinAlgError in its Cholesky mode: for the sketch As of A that it computed with the
    operator S, As' As + dl I is not safely positive definite. *)
Definition spo_fail (u : R) d m n (S : 'M[R]_(d, m)) (A : 'M[R]_(m, n)) (dl : R) : Prop :=
  exists2 As : 'M[R]_(d, n), fro (As - S *m A) <= gam u m.+1 * (fro S * fro A) &
    forall kap, (forall w : 'cV[R]_n, kap * fro2 w <= fro2 (As *m w) + dl * fro2 w) -> ~~ gr_def u d n (fro2 As) dl kap.

(** The only reason for SPO to raise LinAlgError in its QR mode, with a QR factorisation of backward error qd: the
    sketch As that it computed, lifted by sqrt(dl) I, has a singular value of the size of the rounding errors. *)
Definition spo_qr_fail (u qd : R) d m n (S : 'M[R]_(d, m)) (A : 'M[R]_(m, n)) (dl : R) : Prop :=
  exists2 As : 'M[R]_(d, n), fro (As - S *m A) <= gam u m.+1 * (fro S * fro A) &
    forall kap, (forall w : 'cV[R]_n, kap * fro2 w <= fro2 (As *m w) + dl * fro2 w) ->
      kap <= (qd * (1 + gam u 2) + gam u 2) ^+ 2 * (fro2 As + n%:R * dl).

(** The second factor that la.qr returns is upper triangular; the zeros are written by LAPACK, not computed. *)
Definition qr_tri (L : lapack T) : Prop :=
  forall A Q U, l_qr L A = Ok (Q, U) -> forall i j, (j < i < nr U)%N -> (j < nc U)%N -> v (el U i j) = 0.
End FloatNys.
