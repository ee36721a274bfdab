(** Property C111: the preconditioned operators handed to LSQR, in rounded arithmetic.  Scalar operations have a
    relative error of at most u ([fl_arith]); the regularised matrix is [lifted_mx], the guarantees are [tri_op_ok] and
    [mat_op_ok]. *)
From mathcomp Require Import all_ssreflect all_algebra.
From Verif Require Import Base Arr Lapack Exact MxLib Rng Pcg Lsqr Precond Shape Float FloatInterp FloatPre.
From Verif Require Import P_Float7 P_Float24.
Set Implicit Arguments.
Unset Strict Implicit.
Unset Printing Implicit Defensive.
Import Order.TTheory GRing.Theory Num.Theory.
Local Open Scope ring_scope.

(** A triangular preconditioner: backward error of both maps, adjointness up to rounding, and no exception unless a
    diagonal entry is zero. *)
Theorem C111_tri (R : rcfType) (T : Type) (O : ops T) (v : T -> R) (u : R) m n (A P : arr T) (dl : T) :
  fl_arith O v u -> shaped m n A -> 0 <= v dl -> shaped n n P ->
  exists m' (Ab : 'M[R]_(m', n)) op,
  [/\ a_lift_precond A dl P true 1 = Ok op, (lo_nr op, lo_nc op) = (m', n), lifted_mx (mval v m n A) (v dl) Ab,
      tri_op_ok v u m Ab (tri_val v false false n P) P op &
      (forall i, (i < n)%N -> v (el P i i) != 0) ->
        (forall z, size z = n -> exists f, lo_mv op z = Ok f) /\ (forall w, size w = m' -> exists b, lo_rmv op w = Ok b)].
Proof. move=> h1 h2 h3 h4; exact (pre_tri h1 h2 h3 h4). Qed.
Print Assumptions C111_tri.

(** A preconditioner given as a matrix (the SVD mode): the same, and no exception at all. *)
Theorem C111_mat (R : rcfType) (T : Type) (O : ops T) (v : T -> R) (u : R) m n k (A P : arr T) (dl : T) :
  fl_arith O v u -> shaped m n A -> 0 <= v dl -> shaped n k P ->
  exists m' (Ab : 'M[R]_(m', n)) op,
  [/\ a_lift_precond A dl P false 1 = Ok op, (lo_nr op, lo_nc op) = (m', k), lifted_mx (mval v m n A) (v dl) Ab &
      mat_op_ok v u m Ab (mval v n k P) P op].
Proof. move=> h1 h2 h3 h4; exact (pre_mat h1 h2 h3 h4). Qed.
Print Assumptions C111_mat.

(** The constants vanish in exact arithmetic. *)
Theorem C111_exact (R : rcfType) n : gam 0 n = 0 :> R /\ fl_tri 0 n = 0 :> R.
Proof. exact (pre_const_zero R n). Qed.
Print Assumptions C111_exact.

(** An arithmetic in which no addition is exact, a regularised problem, and a triangular preconditioner in it. *)
Example C111_hyps (R : rcfType) (u : R) : 0 <= u < 1 -> 0 < u ->
  let O := bent_ops u in let A := @mk R 3 2 (fun i j => (i + j)%:R) in
  let P := @mk R 2 2 (fun i j => if (i <= j)%N then (i + j).+1%:R else 0) in
  [/\ fl_arith O id u /\ @oadd R O 1 1 <> 2%:R, @shaped R O 3 2 A, @shaped R O 2 2 P &
      forall i, (i < 2)%N -> @el R O P i i != 0].
Proof. move=> h1 h2; exact (pre_wit h1 h2). Qed.
