(** Proofs for C11: the two stabilizers keep the range. *)
From mathcomp Require Import all_ssreflect all_algebra.
From Verif Require Import Base Arr Lapack Exact MxLib LapackSpec Aware.
Set Implicit Arguments.
Unset Strict Implicit.
Unset Printing Implicit Defensive.
Import Order.TTheory GRing.Theory Num.Theory.
Local Open Scope ring_scope.

Section Stab.
Variable R : rcfType.

Lemma span_eq m k (X Y : 'M[R]_(m, k)) U : X = Y *m U -> (X^T <= Y^T)%MS /\ (\rank X = k -> (X^T == Y^T)%MS).
Proof.
move=> XE; have s : (X^T <= Y^T)%MS by rewrite XE trmx_mul; exact: submxMl.
split=> // rX; rewrite -(geq_leqif (mxrank_leqif_eq s)) !mxrank_tr rX; exact: rank_leq_col.
Qed.

Lemma stabilizers (L : lapack R) m k (X : 'M[R]_(m, k)) : qr_spec L -> lu_spec L -> (0 < k)%N -> (k <= m)%N ->
  (exists Q : 'M[R]_(m, k), [/\ orth L (ofmx X) = Ok (ofmx Q), orthonormal Q, (X^T <= Q^T)%MS & \rank X = k -> (X^T == Q^T)%MS]) /\
  exists (P : 'M[R]_m) (Lo : 'M[R]_(m, k)), [/\ lu_stabilize L (ofmx X) = Ok (ofmx (P *m Lo)), is_perm_mx P,
    lotri Lo /\ (forall i : 'I_k, mxe Lo i i = 1), (X^T <= (P *m Lo)^T)%MS & \rank X = k -> (X^T == (P *m Lo)^T)%MS].
Proof.
move=> qrL luL k0 km; split.
  have [Q [U [E oQ _ XE]]] := qr_tall X qrL k0 km; have [h1 h2] := span_eq XE.
  by exists Q; split=> //; rewrite /orth E.
have := luL _ _ X (leq_trans k0 km) k0; rewrite (minn_idPr km) => -[P [Lo [U [E pP tL _ XE]]]].
have [h1 h2] := span_eq XE.
by exists P, Lo; split=> //; rewrite /lu_stabilize E /= mmulE.
Qed.
End Stab.
