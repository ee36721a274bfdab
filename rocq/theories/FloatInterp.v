(** Specification for triangular solves and interpolative decompositions in rounded arithmetic (property C107). *)
From mathcomp Require Import all_ssreflect all_algebra.
From Verif Require Import Base Arr Lapack Exact MxLib LapackSpec Rng Aware Shape Inexact Float.
Set Implicit Arguments.
Unset Strict Implicit.
Unset Printing Implicit Defensive.
Import Order.TTheory GRing.Theory Num.Theory.
Local Open Scope ring_scope.

(** Relative residual of a triangular solve with n unknowns. *)
Definition fl_tri (R : rcfType) (u : R) (n : nat) : R := gam u n.+1 + ((1 - u)^-1 ^+ 2 - 1).

Section FloatInterp.
Context {R : rcfType} {T : Type} {O : ops T}.
Variable v : T -> R.

(** The matrix [la.solve_triangular(U, ., lower, trans)] solves with: one triangle of U, transposed if asked. *)
Definition tri_val (lower trans : bool) n (U : arr T) : 'M[R]_n :=
  \matrix_(i, j) if (if lower (+) trans then j <= i else i <= j)%N
                 then v (if trans then el U j i else el U i j) else 0.

(** QR with column pivoting and backward error. *)
Definition qrp_fl (X : exn -> Prop) (L : lapack T) (eta dl : R) : Prop :=
  forall m n A, (0 < m)%N -> (0 < n)%N -> shaped m n A ->
  rsafe X (fun QUJ => let q := minn m n in
    [/\ shaped m q QUJ.1.1, shaped q n QUJ.1.2, perm_eq QUJ.2 (iota 0 n), near_ortho eta (mval v m q QUJ.1.1) &
        (forall i j, (j < i < q)%N -> v (el QUJ.1.2 i j) = 0) /\
        fro ((\matrix_(i, j) v (el A i (nth 0%N QUJ.2 j))) - mval v m q QUJ.1.1 *m mval v q n QUJ.1.2)
          <= dl * fro (mval v m n A)]) (l_qrp L A).

(** Columns and rows of an array picked by an index list. *)
Definition cols_at m k (A : arr T) (J : seq nat) : 'M[R]_(m, k) := \matrix_(i, j) v (el A i (nth 0%N J j)).
Definition rows_at k n (A : arr T) (J : seq nat) : 'M[R]_(k, n) := \matrix_(i, j) v (el A (nth 0%N J i) j).

(** Rounding error of the interpolation of Y, relative to the norm of Y, for an interpolation matrix of norm x
    compared with one of norm w. *)
Definition fl_id (eta dl u : R) k (x w : R) : R :=
  let r := Num.sqrt (1 + eta) in let t := (Num.sqrt (1 - eta))^-1 in
  r * (fl_tri u k * (t * (1 + dl)) * x + t * dl * (1 + w)) + dl * (1 + x).

(** An acceptable column interpolation (X, J) of Y: k distinct columns, which X reproduces exactly, and an error
    compared with that of any other matrix W on the same columns. *)
Definition id_ok (eta dl u : R) m n k (Y : arr T) (XJ : arr T * seq nat) : Prop :=
  let C := cols_at m k Y XJ.2 in let X := mval v k n XJ.1 in
  [/\ shaped k n XJ.1, skel n k XJ.2, cols_at k k XJ.1 XJ.2 = 1%:M &
      forall W : 'M[R]_(k, n), fro (mval v m n Y - C *m X) <=
        Num.sqrt (1 + eta) / Num.sqrt (1 - eta) * fro (mval v m n Y - C *m W) +
        fl_id eta dl u k (fro X) (fro W) * fro (mval v m n Y)].

(** The same for rows. *)
Definition rid_ok (eta dl u : R) m n k (Y : arr T) (XJ : arr T * seq nat) : Prop :=
  let C := rows_at k n Y XJ.2 in let X := mval v m k XJ.1 in
  [/\ shaped m k XJ.1, skel m k XJ.2, rows_at k k XJ.1 XJ.2 = 1%:M &
      forall W : 'M[R]_(m, k), fro (mval v m n Y - X *m C) <=
        Num.sqrt (1 + eta) / Num.sqrt (1 - eta) * fro (mval v m n Y - W *m C) +
        fl_id eta dl u k (fro X) (fro W) * fro (mval v m n Y)].

(** The k x k submatrix in the rows I and columns J. *)
Definition core_at k (A : arr T) (I J : seq nat) : 'M[R]_k := \matrix_(i, j) v (el A (nth 0%N I i) (nth 0%N J j)).

(** Bound on || A - A[:, J] X || after sketching with S (products of q terms): x, w, t, s, a are the norms of X, of a
    competing matrix W, of a reconstruction T, of S and of A; e1 is the error of the reconstruction
    || A - T S^T A ||, e2 the sketched error || S^T (A - A[:, J] W) ||. *)
Definition osid_err (eta dl u : R) (q k : nat) (x w t s a e1 e2 : R) : R :=
  let d := gam u q.+1 * (s * a) in
  (1 + x) * (e1 + t * d) +
  t * (Num.sqrt (1 + eta) / Num.sqrt (1 - eta) * (e2 + d * (1 + w)) + fl_id eta dl u k x w * (s * a + d)).

(** Answers (X, J) of a column ID made from the sketch S, and (Z, I) of a row ID. *)
Definition osid_cols (eta dl u : R) m n c k (A : arr T) (S : 'M[R]_(m, c)) (XJ : arr T * seq nat) : Prop :=
  let X := mval v k n XJ.1 in let A' := mval v m n A in let C := cols_at m k A XJ.2 in
  [/\ shaped k n XJ.1, skel n k XJ.2, cols_at k k XJ.1 XJ.2 = 1%:M &
      forall (W : 'M[R]_(k, n)) (V : 'M[R]_(m, c)), fro (A' - C *m X) <=
        osid_err eta dl u m k (fro X) (fro W) (fro V) (fro S) (fro A')
          (fro (A' - V *m (S^T *m A'))) (fro (S^T *m (A' - C *m W)))].
Definition osid_rows (eta dl u : R) m n c k (A : arr T) (S : 'M[R]_(n, c)) (ZI : arr T * seq nat) : Prop :=
  let Z := mval v m k ZI.1 in let A' := mval v m n A in let C := rows_at k n A ZI.2 in
  [/\ shaped m k ZI.1, skel m k ZI.2, rows_at k k ZI.1 ZI.2 = 1%:M &
      forall (W : 'M[R]_(m, k)) (V : 'M[R]_(c, n)), fro (A' - Z *m C) <=
        osid_err eta dl u n k (fro Z) (fro W) (fro V) (fro S) (fro A')
          (fro (A' - A' *m S *m V)) (fro ((A' - W *m C) *m S))].

(** Least squares with several right-hand sides, up to a relative excess [tau] of the residual norm. *)
Definition lstsqs_fl (X : exn -> Prop) (L : lapack T) (tau : R) : Prop :=
  forall m n p A B, (0 < m)%N -> (0 < n)%N -> (0 < p)%N -> shaped m n A -> shaped m p B ->
  rsafe X (fun x => shaped n p x /\ forall y : 'M[R]_(n, p),
      fro (mval v m n A *m mval v n p x - mval v m p B) <= (1 + tau) * fro (mval v m n A *m y - mval v m p B)) (l_lstsq L A B).
End FloatInterp.
