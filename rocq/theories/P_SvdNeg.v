(** Proofs of C13, continued: SVD1 called with a negative target rank. *)
From mathcomp Require Import all_ssreflect all_algebra.
From mathcomp Require Import zify.
From Verif Require Import Base Arr Lapack Exact MxLib LapackSpec Rng Aware RangeFinders QB SvdEvd P_Svd P_SvdEvd P_Svd1.
Set Implicit Arguments.
Unset Strict Implicit.
Unset Printing Implicit Defensive.
Import Order.TTheory GRing.Theory Num.Theory.
Local Open Scope ring_scope.

Lemma svd1_neg (R : rcfType) (G : Type) (L : lapack R) (qb : qbdec) m n c (A : 'M[R]_(m, n)) (p : nat) tol (over : int)
    (s s1 : st G R) (Q : 'M[R]_(m, c)) (B : 'M[R]_(c, n)) :
  svd_spec L -> (0 < c)%N -> (0 < n)%N -> (0 < p)%N -> 0 < over ->
  qb (ofmx A) (- p%:Z + over) tol s = (s1, inr (ofmx Q, ofmx B)) ->
  let q := minn c n in
  exists e (U0 : 'M[R]_(c, q)) (s0 : 'cV[R]_q) (Vh0 : 'M[R]_(q, n)),
    [/\ SVD1 L qb (ofmx A) (- p%:Z) tol over s = (s1, inr (ofmx (Q *m colblk U0 0 e), ofcv (rowblk s0 0 e), ofmx (rowblk Vh0 0 e))),
        [/\ B = U0 *m diag_mx s0^T *m Vh0, orthonormal U0, orthonormal Vh0^T &
            forall i j : 'I_q, (i <= j)%N -> s0 j 0 <= s0 i 0],
        (e <= q - p)%N &
        forall i : 'I_q, (i < q - p)%N -> (i < e)%N = (10%:R * 2%:R ^- 52 <= s0 i 0)].
Proof.
move=> svdL c0 n0 p0 o0 E q; have [U [sg [Vh [e [E1 sv le h]]]]] := SVD1P svdL c0 n0 E.
have tE : svd_top (- p%:Z) over (minn c n) = (q - p)%N.
  have mE : Order.min (- p%:Z) (minn c n)%:Z = - p%:Z by rewrite minEle ifT //; clear; lia.
  by rewrite /svd_top o0 mE; case: (p) p0.
rewrite tE in le h; exists e, U, sg, Vh; split=> //.
by split; [exact: sv_eq sv | exact: sv_U sv | exact: sv_V sv | exact: sv_sort sv].
Qed.
