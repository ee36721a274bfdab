(** Specification of C99: factorisations that satisfy their contract only up to an error. *)
From mathcomp Require Import all_ssreflect all_algebra.
From Verif Require Import Base Arr Lapack Exact MxLib LapackSpec.
Set Implicit Arguments.
Unset Strict Implicit.
Unset Printing Implicit Defensive.
Import Order.TTheory GRing.Theory Num.Theory.
Local Open Scope ring_scope.

Section Near.
Variable R : rcfType.

(** The spectral norm of [Q^T Q - I] is at most [eta]. *)
Definition near_ortho (eta : R) m c (Q : 'M[R]_(m, c)) : Prop :=
  forall v : 'cV[R]_c, fro2 ((Q^T *m Q - 1%:M) *m v) <= eta ^+ 2 * fro2 v.

(** Economic QR as delivered by a backward stable routine: the columns of Q are
    orthonormal up to [eta] and Q U reproduces A up to the relative error [dl]. *)
Definition qr_near (L : lapack R) (eta dl : R) : Prop :=
  forall m n (A : 'M[R]_(m, n)), (0 < m)%N -> (0 < n)%N ->
  exists (Q : 'M[R]_(m, minn m n)) (U : 'M[R]_(minn m n, n)),
    [/\ l_qr L (ofmx A) = Ok (ofmx Q, ofmx U), near_ortho eta Q & fro (A - Q *m U) <= dl * fro A].

(** Least squares up to a relative excess [dl] of the residual norm (columnwise). *)
Definition lstsq_near (L : lapack R) (dl : R) : Prop :=
  forall m n (A : 'M[R]_(m, n)) (b : 'cV[R]_m), (0 < m)%N -> (0 < n)%N ->
  exists x : 'cV[R]_n, l_lstsq L (ofmx A) (ofmx b) = Ok (ofmx x) /\
    forall y, fro (A *m x - b) <= (1 + dl) * fro (A *m y - b).

(** What the loss of orthogonality costs in the approximation error. *)
Definition rho (eta : R) : R := eta * Num.sqrt ((1 + eta) / (1 - eta)).

End Near.
