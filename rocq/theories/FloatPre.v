(** Specification of the preconditioned operators in rounded arithmetic. *)
From mathcomp Require Import all_ssreflect all_algebra.
From Verif Require Import Base Arr Lapack Exact MxLib Rng Pcg Lsqr Precond Float FloatInterp.
Set Implicit Arguments.
Unset Strict Implicit.
Unset Printing Implicit Defensive.
Import Order.TTheory GRing.Theory Num.Theory.
Local Open Scope ring_scope.

Section FloatPre.
Context {R : rcfType} {T : Type} {O : ops T}.
Variables (v : T -> R) (u : R).

(** The matrix of the regularised problem: A, or A above sqrt(dl) I if dl is positive. *)
Definition lifted_mx m n (A : 'M[R]_(m, n)) (dl : R) m' (Ab : 'M[R]_(m', n)) : Prop :=
  if 0 < dl then m' = (m + n)%N /\ ofmx Ab = ofmx (col_mx A (Num.sqrt dl)%:M) else m' = m /\ ofmx Ab = ofmx A.

(** The operator Ab U^-1 for an upper triangular U: the forward map computes y with U y = z up to a backward error
    and Ab y, the adjoint map Ab' w and b with U' b equal to it up to a backward error; the two are adjoint to each other
    up to rounding. *)
Definition tri_op_ok m n m' (Ab : 'M[R]_(m', n)) (U : 'M[R]_n) (P : arr T) (op : linop T) : Prop :=
  [/\ forall z f, size z = n -> lo_mv op z = Ok f -> size f = m' /\ exists2 y, M_fwd P true z = Ok y &
        let yv := vval v n y in
        [/\ size y = n, fro (vval v n z - U *m yv) <= fl_tri u n * (fro U * fro yv) &
            fro (vval v m' f - Ab *m yv) <= gam u n.+3 * (fro Ab * fro yv)],
      forall w b, size w = m' -> lo_rmv op w = Ok b -> size b = n /\ exists a : 'cV[R]_n,
        fro (a - Ab^T *m vval v m' w) <= gam u m.+3 * (fro Ab * fro (vval v m' w)) /\
        fro (a - U^T *m vval v n b) <= fl_tri u n * (fro U * fro (vval v n b)) &
      forall z y f w b, size z = n -> size w = m' -> M_fwd P true z = Ok y -> lo_mv op z = Ok f -> lo_rmv op w = Ok b ->
        let yv := vval v n y in let wv := vval v m' w in let bv := vval v n b in
        `|fip (vval v m' f) wv - fip (vval v n z) bv| <=
          (gam u n.+3 + gam u m.+3) * (fro Ab * fro yv * fro wv) + 2%:R * fl_tri u n * (fro U * fro yv * fro bv)].

(** The operator Ab N for a matrix N given explicitly. *)
Definition mat_op_ok m n k m' (Ab : 'M[R]_(m', n)) (N : 'M[R]_(n, k)) (P : arr T) (op : linop T) : Prop :=
  [/\ forall z, size z = k -> exists f y, [/\ lo_mv op z = Ok f, M_fwd P false z = Ok y, size f = m' /\ size y = n,
        fro (vval v n y - N *m vval v k z) <= gam u k.+1 * (fro N * fro (vval v k z)) &
        fro (vval v m' f - Ab *m vval v n y) <= gam u n.+3 * (fro Ab * fro (vval v n y))],
      forall w, size w = m' -> exists b (a : 'cV[R]_n), [/\ lo_rmv op w = Ok b, size b = k,
        fro (a - Ab^T *m vval v m' w) <= gam u m.+3 * (fro Ab * fro (vval v m' w)) &
        fro (vval v k b - N^T *m a) <= gam u n.+1 * (fro N * fro a)] &
      forall z y f w b, size z = k -> size w = m' -> M_fwd P false z = Ok y -> lo_mv op z = Ok f -> lo_rmv op w = Ok b ->
        let zv := vval v k z in let yv := vval v n y in let wv := vval v m' w in
        `|fip (vval v m' f) wv - fip zv (vval v k b)| <=
          (gam u n.+3 + gam u m.+3) * (fro Ab * fro yv * fro wv) +
          (gam u k.+1 + gam u n.+1) * (1 + gam u m.+3) * (fro N * fro zv * (fro Ab * fro wv))].
End FloatPre.
