(** Specification for EVD1 and evd1 in rounded arithmetic (property C105). *)
From mathcomp Require Import all_ssreflect all_algebra.
From Verif Require Import Base Arr Lapack Exact MxLib LapackSpec Rng Aware RangeFinders QB SvdEvd Shape Inexact Float.
Set Implicit Arguments.
Unset Strict Implicit.
Unset Printing Implicit Defensive.
Import Order.TTheory GRing.Theory Num.Theory.
Local Open Scope ring_scope.

Section FloatEvd.
Context {R : rcfType} {T : Type} {O : ops T}.
Variable v : T -> R.

(** The symmetric matrix [la.eigh] sees: the lower triangle of its argument, mirrored. *)
Definition lowval n (C : arr T) : 'M[R]_n := \matrix_(i, j) v (el C (maxn i j) (minn i j)).

(** Symmetric eigenvalue decomposition as delivered by a backward stable routine: within [mu] of
    the orthonormal factor of an exact decomposition of a matrix within [mu], relatively, of the
    argument.  Nothing is said about the order of the eigenvalues. *)
Definition eigh_fl (X : exn -> Prop) (L : lapack T) (mu : R) : Prop :=
  forall n C, (0 < n)%N -> shaped n n C ->
  rsafe X (fun LU => [/\ size LU.1 = n, shaped n n LU.2 &
    exists U : 'M[R]_n, [/\ orthonormal U, fro (mval v n n LU.2 - U) <= mu &
      fro (lowval n C - U *m diag_mx (vval v n LU.1)^T *m U^T) <= mu * fro (lowval n C)]]) (l_eigh L C).

(** [np.argsort] on the entries' values. *)
Definition argsort_fl (asort : seq T -> seq nat) : Prop :=
  forall w, perm_eq (asort w) (iota 0 (size w)) /\
  forall i j, (i <= j < size w)%N -> v (ev w (nth 0%N (asort w) i)) <= v (ev w (nth 0%N (asort w) j)).

(** Multiplying by -1 reverses the order (IEEE arithmetic does it without error). *)
Definition neg_rev : Prop :=
  forall x y, v (omul (oopp o1) x) <= v (omul (oopp o1) y) -> v y <= v x.

(** The distance of the lower triangle of the computed [B @ Q] from Q^T A Q, and the rounding
    error of the whole decomposition, both relative to the norm of A. *)
Definition fl_low (eta beta u : R) n c : R :=
  let r := Num.sqrt (1 + eta) in
  Num.sqrt 2%:R * (gam u n.+1 * ((r + beta) * (r * Num.sqrt c%:R)) + r * beta).
Definition fl_evd (eta mu beta u : R) n c : R :=
  let r := Num.sqrt (1 + eta) in let h := fl_low eta beta u n c in let d := fl_du eta mu u c in
  (2%:R + eta) * (r * beta) + 2%:R * (1 + eta) * (h + mu * (1 + eta + h)) +
  d * (2%:R * r + d) * ((1 + mu) * (1 + eta + h)).

(** An acceptable answer of evd1 for a symmetric matrix A, target rank k and c sampled columns,
    when the QB factorisation has the error e0 and its B is within beta of Q^T A: at most k pairs,
    eigenvectors orthonormal up to rounding, eigenvalues of decreasing magnitude above the cut-off,
    and an error compared with that of any matrix Y of rank at most k. *)
Definition evd_ok (eta mu beta u : R) n k c (A : 'M[R]_n) (e0 : R) (x : arr T * seq T) : Prop :=
  let r := Num.sqrt (1 + eta) in let t := (Num.sqrt (1 - eta))^-1 in let d := fl_du eta mu u c in
  exists2 e, (e <= minn k c)%N &
    [/\ shaped n e x.1, size x.2 = e,
        (forall i, (i < e)%N -> v cut10 < `|v (ev x.2 i)|) /\
        forall i j, (i <= j < e)%N -> `|v (ev x.2 j)| <= `|v (ev x.2 i)|,
        near_ortho (eta + d * (r + t + d)) (mval v n e x.1) &
        forall Y : 'M[R]_n, (\rank Y <= k)%N ->
          fro (A - mval v n e x.1 *m diag_mx (vval v e x.2)^T *m (mval v n e x.1)^T) <=
          (2%:R + eta) * e0 + (1 + eta) ^+ 2 * fro (A - Y) + (1 + eta) * Num.sqrt c%:R * `|v cut10| +
          fl_evd eta mu beta u n c * fro A].
End FloatEvd.
