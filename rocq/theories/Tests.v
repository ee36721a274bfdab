(** Tests of the model: the definitions used in the theorems, run on IEEE
    doubles (Coq's primitive floats) on the documented examples.  These check
    the model, they are not proofs about it. *)
From Coq Require Import PrimFloat.
From mathcomp Require Import all_ssreflect all_algebra.
From Verif Require Import Base Arr Lapack Rng Pcg Lsqr.
Set Implicit Arguments.
Unset Strict Implicit.
Unset Printing Implicit Defensive.

#[local] Instance float_ops : ops float := {|
  o0 := 0%float; o1 := 1%float;
  oadd := PrimFloat.add; osub := PrimFloat.sub; omul := PrimFloat.mul; odiv := PrimFloat.div;
  oopp := PrimFloat.opp; osqrt := PrimFloat.sqrt;
  ole := PrimFloat.leb; olt := PrimFloat.ltb; oeq := PrimFloat.eqb |}.

(** A dense array as a LinearOperator. *)
Definition dense_op (A : arr float) : linop float :=
  LinOp (nr A) (nc A) (mv A) (mmul A) (mv (mtr A)) (mmul (mtr A)).

Definition near (tol : float) (x y : float) : bool := PrimFloat.ltb (PrimFloat.abs (x - y)%float) tol.
Definition nears tol (x y : seq float) : bool := (size x == size y) && all (fun p => near tol p.1 p.2) (zip x y).

(** lsqr.py 257-309, the three examples of the docstring, with the default
    parameters of lsqr.py 99.  The documented residual norms come out to the last
    digit. *)
Definition A3 : arr float := Arr 3 2 [:: [:: 1; 0]; [:: 1; 1]; [:: 0; 1]]%float.
Definition lsqr_dflt (b : seq float) :=
  lsqr (dense_op A3) b 0%float 1e-8%float 1e-8%float 1e8%float None false None.

Example lsqr_doc1 :
  (if lsqr_dflt [:: 0; 0; 0]%float is inr q then (q_istop q == 0) && nears 1e-300%float (q_x q) [:: 0; 0]%float
   else false) = true.
Proof. by vm_compute. Qed.

Example lsqr_doc2 :
  (if lsqr_dflt [:: 1; 0; -1]%float is inr q then
     [&& q_istop q == 1, q_itn q == 1, nears 1e-12%float (q_x q) [:: 1; -1]%float &
         PrimFloat.eqb (q_r1norm q) 4.440892098500627e-16%float] else false) = true.
Proof. by vm_compute. Qed.

Example lsqr_doc3 :
  (if lsqr_dflt [:: 1; 0.01; -1]%float is inr q then
     [&& q_istop q == 2, nears 1e-8%float (q_x q) [:: 1.00333333; -0.99666667]%float &
         PrimFloat.eqb (q_r1norm q) 0.005773502691896255%float] else false) = true.
Proof. by vm_compute. Qed.

(** pcg.py with the identity as preconditioner on a 2-by-2 system: the exact
    solution after two iterations, with a log entry for each. *)
Definition H2 : arr float := Arr 2 2 [:: [:: 4; 1]; [:: 1; 3]]%float.
Example pcg_2x2 :
  (if pcg (mv H2) [:: 1; 2]%float (fun x => inr x) 5 1e-10%float [:: 2; 1]%float is inr (x, es) then
     nears 1e-14%float x [:: 0.09090909090909091; 0.63636363636363636]%float && (size es == 2)
   else false) = true.
Proof. by vm_compute. Qed.

(** The third example needs two iterations; cut short after one, it reports the
    limit (lsqr.py 511). *)
Example lsqr_first_stop :
  (if lsqr_dflt [:: 1; 0.01; -1]%float is inr q then
     (q_itn q == 2) &&
     (if lsqr (dense_op A3) [:: 1; 0.01; -1]%float 0%float 1e-8%float 1e-8%float 1e8%float (Some 1%R) false None
        is inr q1 then (q_istop q1 == 7) && (q_itn q1 == 1) else false)
   else false) = true.
Proof. by vm_compute. Qed.

(** Doubles meet the hypotheses of C96 and C97 on the scalars; NaN as regularisation does not. *)
From Verif Require Import Shape P_Shape P_ShapeLS LapackExists.
Example float_reg : reg_ok 0.25%float /\ reg_ok 0%float /\ reg_ok 4.9406564584124654e-324%float /\ zero_ok float.
Proof. by vm_compute. Qed.
Example float_reg_nan : ~ reg_ok nan.
Proof. by vm_compute. Qed.
Example float_lapack : lap_shapes (fun _ => False) (@zero_lapack float float_ops) /\ rng_ok (@toy_rng float float_ops).
Proof. by split; [exact: zero_shapes|exact: toy_rng_ok]. Qed.
