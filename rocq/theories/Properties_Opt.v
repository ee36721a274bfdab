(** Properties C83-C86: accuracy of the decompositions compared with the best
    possible approximation of the requested rank. *)
From mathcomp Require Import all_ssreflect all_algebra.
From Verif Require Import Base Arr Lapack Exact MxLib LapackSpec LapackExists Rng Aware RangeFinders QB.
From Verif Require Import P_RS1 P_QBfin P_Svd P_SvdEvd P_Evd SvdEvd P_Evd2 P_Evd3 P_Opt P_Opt2 P_Opt3.
Set Implicit Arguments.
Unset Strict Implicit.
Unset Printing Implicit Defensive.
Import Order.TTheory GRing.Theory Num.Theory.
Local Open Scope ring_scope.

(** ** C83: what a sketch loses. For every reference subspace V that the sketch
    sees (V' S has a right inverse W), the error of Q B is at most that of the
    projection onto V plus the part of it that leaks through the sketch. *)
Theorem C83_qb1_error (R : rcfType) (G : Type) (L : lapack R) (rso : rowsketcher) m n
    (A : 'M[R]_(m, n)) (k : nat) (s s1 : st G R) (S : 'M[R]_(n, k)) :
  qr_spec L -> (0 < k)%N -> (k <= minn m n)%N ->
  rso (ofmx A) k s = (s1, inr (PyArr (ofmx S))) ->
  exists (Q : 'M[R]_(m, k)) (B : 'M[R]_(k, n)),
    (QB1 (RF1 L rso) (ofmx A) k%:Z None s).2 = Ok (ofmx Q, ofmx B) /\
    forall r (V : 'M[R]_(n, r)) (W : 'M[R]_(k, r)),
      orthonormal V -> V^T *m S *m W = 1%:M ->
      let E := A - A *m V *m V^T in
      fro2 (A - Q *m B) <= fro2 E + fro2 (E *m S *m W).
Proof. exact: qb1_bound. Qed.
Print Assumptions C83_qb1_error.

Theorem C83_qb3_error (R : rcfType) (G : Type) (L : lapack R) (sk_op : rowsketcher) (blk : int) m n
    (A : 'M[R]_(m, n)) (k : nat) tol (s s1 : st G R) (S : 'M[R]_(n, k)) :
  qr_spec L -> (0 < k)%N -> (k < minn m n)%N -> 0 < blk -> ~~ use_tol tol ->
  sk_op (ofmx A) k s = (s1, inr (PyArr (ofmx S))) -> \rank (A *m S) = k ->
  exists (Q : 'M[R]_(m, k)) (B : 'M[R]_(k, n)),
    (QB3 L sk_op blk (ofmx A) k%:Z tol s).2 = Ok (ofmx Q, ofmx B) /\
    forall r (V : 'M[R]_(n, r)) (W : 'M[R]_(k, r)),
      orthonormal V -> V^T *m S *m W = 1%:M ->
      let E := A - A *m V *m V^T in
      fro2 (A - Q *m B) <= fro2 E + fro2 (E *m S *m W).
Proof. exact: qb3_bound. Qed.
Print Assumptions C83_qb3_error.

(** A sketch that keeps the rank loses nothing at all. *)
Theorem C83_qb1_exact (R : rcfType) (G : Type) (L : lapack R) (rso : rowsketcher) m n
    (A : 'M[R]_(m, n)) (k : nat) (s s1 : st G R) (S : 'M[R]_(n, k)) :
  qr_spec L -> (0 < k)%N -> (k <= minn m n)%N ->
  rso (ofmx A) k s = (s1, inr (PyArr (ofmx S))) -> \rank (A *m S) = \rank A ->
  exists (Q : 'M[R]_(m, k)) (B : 'M[R]_(k, n)),
    (QB1 (RF1 L rso) (ofmx A) k%:Z None s).2 = Ok (ofmx Q, ofmx B) /\ A = Q *m B.
Proof. exact: qb1_exact. Qed.
Print Assumptions C83_qb1_exact.

(** A sketch, a reference subspace it sees, and a nonzero error. *)
Example C83_hyps (R : rcfType) (s : st nat R) :
  let A := wit_A R in
  exists s1 (S V : 'M[R]_(3, 2)) (W : 'M[R]_2),
    [/\ RS1 (skopGA (T:=R) toy_rng) 0 (orth (exact_lapack R)) 1 (ofmx A) 2 s = (s1, inr (PyArr (ofmx S))),
        orthonormal V, V^T *m S *m W = 1%:M, \rank (A *m S) = 2%N & A - A *m V *m V^T != 0].
Proof. exact: opt_wit_sketch. Qed.

(** ** C84: power iterations. With num_passes passes of the sketcher, the part
    that leaks through the sketch is damped by the ratio of the singular values
    after and before position r, to the power 4 (num_passes / 2). *)
Theorem C84_qb1_power (R : rcfType) (G : Type) (L : lapack R) gen (np : nat) stab (pps : int) m n (k : nat)
    (A : 'M[R]_(m, n)) (s s1 : st G R) (X0 : 'M[R]_(if odd np then m else n, k)) :
  qr_spec L -> stab_spec stab -> 0 < pps -> (0 < k)%N -> (k <= minn m n)%N ->
  draw gen (if odd np then m else n) k s = (s1, inr (PyArr (ofmx X0))) ->
  let K0 : 'M[R]_(n, k) :=
    (if odd np as b return 'M[R]_(if b then m else n, k) -> 'M[R]_(n, k)
     then fun X => A^T *m X else fun X => X) X0 in
  exists (Q : 'M[R]_(m, k)) (B : 'M[R]_(k, n)),
    (QB1 (RF1 L (RS1 gen np%:Z stab pps)) (ofmx A) k%:Z None s).2 = Ok (ofmx Q, ofmx B) /\
    forall q r (U : 'M[R]_(m, q)) (t : 'cV[R]_q) (Vh : 'M[R]_(q, n)) (W0 : 'M[R]_(k, r)) (sg tau : R),
      A = U *m diag_mx t^T *m Vh -> orthonormal U -> orthonormal Vh^T -> (r <= q)%N ->
      (forall i : 'I_q, (r <= i)%N -> `|t i 0| <= sg) ->
      0 < tau -> (forall i : 'I_q, (i < r)%N -> tau <= `|t i 0|) ->
      rowblk Vh 0 r *m K0 *m W0 = 1%:M ->
      let E := A - A *m (rowblk Vh 0 r)^T *m rowblk Vh 0 r in
      fro2 (A - Q *m B) <= \sum_(i < q | (r <= i)%N) t i 0 ^+ 2 +
        (sg / tau) ^+ (4 * (np %/ 2)) * fro2 (E *m K0 *m W0).
Proof. exact: qb1_power_svd. Qed.
Print Assumptions C84_qb1_power.

(** diag(3,2,1) with two passes, k = r = 2: the ratio is 1/2. *)
Example C84_hyps (R : rcfType) (s : st nat R) :
  let A := wit_A R in let t : 'cV[R]_3 := \col_i (3 - i)%:R in
  exists s1 (X0 : 'M[R]_(3, 2)),
    [/\ stab_spec (orth (exact_lapack R)),
        draw (skopGA (T:=R) toy_rng) 3 2 s = (s1, inr (PyArr (ofmx X0))),
        A = 1%:M *m diag_mx t^T *m 1%:M,
        rowblk (1%:M : 'M[R]_3) 0 2 *m X0 *m 1%:M = 1%:M &
        (forall i : 'I_3, (2 <= i)%N -> `|t i 0| <= 1) /\ (forall i : 'I_3, (i < 2)%N -> 2%:R <= `|t i 0|)].
Proof. exact: opt_wit_power. Qed.

(** ** C85: SVD1 against every matrix X of rank at most k, and its singular
    values against the true ones. *)
Theorem C85_svd1_best (R : rcfType) (G : Type) (L : lapack R) (qb : qbdec) m n c (A : 'M[R]_(m, n)) (k : int)
    tol (over : int) (s s1 : st G R) (Q : 'M[R]_(m, c)) :
  svd_spec L -> (0 < c)%N -> (0 < n)%N -> 0 <= k -> orthonormal Q ->
  qb (ofmx A) (k + over) tol s = (s1, inr (ofmx Q, ofmx (Q^T *m A))) ->
  exists e (U : 'M[R]_(m, e)) (sg : 'cV[R]_e) (Vh : 'M[R]_(e, n)),
    [/\ SVD1 L qb (ofmx A) k tol over s = (s1, inr (ofmx U, ofcv sg, ofmx Vh)),
        forall X : 'M[R]_(m, n), (\rank X <= absz k)%N ->
          fro2 (A - U *m diag_mx sg^T *m Vh) <=
          fro2 (A - Q *m (Q^T *m A)) + fro2 (A - X) + (minn c n)%:R * (10%:R * 2%:R ^- 52) ^+ 2 &
        forall q (U' : 'M[R]_(m, q)) (t : 'cV[R]_q) (Vh' : 'M[R]_(q, n)),
          A = U' *m diag_mx t^T *m Vh' -> orthonormal U' -> orthonormal Vh'^T ->
          (forall j, 0 <= t j 0) -> (forall i j : 'I_q, (i <= j)%N -> t j 0 <= t i 0) ->
          (forall (i : 'I_e) (j : 'I_q), i = j :> nat ->
             sg i 0 <= t j 0 /\ t j 0 ^+ 2 <= sg i 0 ^+ 2 + fro2 (A - Q *m (Q^T *m A))) /\
          (forall j : 'I_q, (e <= j)%N -> (0 < over -> (j < absz k)%N) ->
             t j 0 ^+ 2 <= (10%:R * 2%:R ^- 52) ^+ 2 + fro2 (A - Q *m (Q^T *m A)))].
Proof. exact: svd1_best. Qed.
Print Assumptions C85_svd1_best.

(** ** C86: EVD1 against every matrix X of rank at most k, and its eigenvalues
    against the true ones (ordered by magnitude). *)
Theorem C86_evd1_best (R : rcfType) (G : Type) (L : lapack R) (asort : seq R -> seq nat) (qb : qbdec) n c
    (A : 'M[R]_n) (k : int) tol (over : int) (s s1 : st G R) (Q : 'M[R]_(n, c)) :
  eigh_spec L -> argsort_spec asort ->
  A^T = A -> 0 < k <= n%:Z -> (if tol is Some t then 0 <= t else true) -> (0 < c)%N ->
  orthonormal Q ->
  qb (ofmx A) (k + over) (omap (fun t => t / 2%:R) tol) s = (s1, inr (ofmx Q, ofmx (Q^T *m A))) ->
  exists r (V : 'M[R]_(n, r)) (lam : 'cV[R]_r),
    [/\ EVD1 L asort qb (ofmx A) k tol over s = (s1, inr (ofmx V, ofcv lam)),
        forall X : 'M[R]_n, (\rank X <= absz k)%N ->
          fro2 (A - V *m diag_mx lam^T *m V^T) <=
          2%:R * fro2 (A - Q *m (Q^T *m A)) + fro2 (A - X) + c%:R * (10%:R * 2%:R ^- 52) ^+ 2 &
        forall (W : 'M[R]_n) (t : 'cV[R]_n),
          A = W *m diag_mx t^T *m W^T -> orthonormal W ->
          (forall i j : 'I_n, (i <= j)%N -> `|t j 0| <= `|t i 0|) ->
          (forall (i : 'I_r) (j : 'I_n), i = j :> nat ->
             `|lam i 0| <= `|t j 0| <= `|lam i 0| + 2%:R * fro (A - Q *m (Q^T *m A))) /\
          (forall j : 'I_n, (r <= j < absz k)%N ->
             `|t j 0| <= 10%:R * 2%:R ^- 52 + 2%:R * fro (A - Q *m (Q^T *m A)))].
Proof. exact: evd1_best. Qed.
Print Assumptions C86_evd1_best.

(** A run meeting the hypotheses of C85 and C86: k = 1 with oversampling 1 on
    diag(3,2,1), compared with diag(3,0,0). *)
Example C85_C86_hyps (R : rcfType) (s : st nat R) :
  let A := wit_A R in let t : 'cV[R]_3 := \col_i (3 - i)%:R in
  [/\ svd_spec (exact_lapack R), eigh_spec (exact_lapack R), argsort_spec (@sort_idx R) &
  [/\ exists s1 (Q : 'M[R]_(3, 2)), [/\ orthonormal Q,
        QB1 (RF1 (exact_lapack R) (RS1 (skopGA (T:=R) toy_rng) 0 (orth (exact_lapack R)) 1))
          (ofmx A) (1 + 1) None s = (s1, inr (ofmx Q, ofmx (Q^T *m A))) &
        A - Q *m (Q^T *m A) != 0],
      A = 1%:M *m diag_mx t^T *m 1%:M,
      forall i j : 'I_3, (i <= j)%N -> t j 0 <= t i 0,
      forall j, 0 <= t j 0 &
      exists X : 'M[R]_3, (\rank X <= 1)%N /\ fro2 (A - X) = 5%:R]].
Proof. exact: opt_wit_dec. Qed.
