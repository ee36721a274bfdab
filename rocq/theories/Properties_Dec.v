(** Properties C12 (drivers), C13-C18, C62-C64: SVD and eigenvalue drivers. *)
From mathcomp Require Import all_ssreflect all_algebra.
From Verif Require Import Base Arr Lapack Exact MxLib LapackSpec LapackExists Rng Aware RangeFinders QB.
From Verif Require Import P_RS1 P_QB2 P_RF P_QBx P_QBfin P_Pcg SvdEvd P_SvdEvd P_Svd1 P_SvdNeg P_Evd P_Evd2 P_Evd3.
Set Implicit Arguments.
Unset Strict Implicit.
Unset Printing Implicit Defensive.
Import Order.TTheory GRing.Theory Num.Theory.
Local Open Scope ring_scope.

(** ** C03 (addition): the rank condition is met by every single-block run, and
    the recorded matrix is determined by the log. *)
Theorem C03_single_block_rank (R : rcfType) (G : Type) (L : lapack R) (rso : rowsketcher)
    (blk : int) (ow : bool) m n (A : 'M[R]_(m, n)) (k : int) tol (s : st G R) :
  qr_spec L -> rso_total rso -> (0 < m)%N -> (0 < n)%N -> 0 < k ->
  (minn (absz k) (minn m n))%:Z <= blk ->
  exists s' l (Q F : 'M[R]_(m, minn (absz k) (minn m n))) A',
    [/\ QB2 L (RF1 L rso) blk ow (ofmx A) k tol s = (s', inr (ofmx Q, ofmx (Q^T *m A), A')),
        evs s' = evs s ++ l, rf_outputs l F, \rank F = minn (absz k) (minn m n) & orthonormal Q].
Proof. move=> qrL; exact: QB2_single_log. Qed.
Print Assumptions C03_single_block_rank.

Theorem C03_log_determines (R : rcfType) m (l : seq (event R)) c1 (F1 : 'M[R]_(m, c1))
    c2 (F2 : 'M[R]_(m, c2)) :
  rf_outputs l F1 -> rf_outputs l F2 -> ofmx F1 = ofmx F2.
Proof. exact: rf_outputs_inj. Qed.
Print Assumptions C03_log_determines.

(** ** C12: passes made by the decomposition drivers (any scalar type). *)
Theorem C12_svd1_passes (T : Type) (O : ops T) (G : Type) (L : lapack T) (r : rng_ops G T)
    A k over tol (np blk : int) a (s s' : st G T) X :
  svd1 L r A k over tol np blk a s = (s', inr X) ->
  exists2 l, evs s' = evs s ++ l & (2 <= np)%R /\
    count (fun e => if e is EvPass _ then true else false) l =
      (absz np * count (fun e => if e is EvRF _ then true else false) l)%N /\
    (0 < count (fun e => if e is EvRF _ then true else false) l)%N.
Proof. exact: svd1_passes. Qed.
Print Assumptions C12_svd1_passes.

Theorem C12_evd1_passes (T : Type) (O : ops T) (G : Type) (L : lapack T) (r : rng_ops G T)
    asort A k tol over (np blk : int) a (s s' : st G T) X :
  evd1 L r asort A k tol over np blk a s = (s', inr X) ->
  exists2 l, evs s' = evs s ++ l & (2 <= np)%R /\
    count (fun e => if e is EvPass _ then true else false) l =
      (absz np * count (fun e => if e is EvRF _ then true else false) l)%N /\
    (0 < count (fun e => if e is EvRF _ then true else false) l)%N.
Proof. exact: evd1_passes. Qed.
Print Assumptions C12_evd1_passes.

Theorem C12_evd2_passes (T : Type) (O : ops T) (G : Type) (L : lapack T) (r : rng_ops G T)
    A k over (np : int) a (s s' : st G T) X :
  evd2 L r A k over np a s = (s', inr X) -> (1 <= np)%R /\
  exists2 l, evs s' = evs s ++ l &
    count (fun e => if e is EvPass _ then true else false) l = absz np.
Proof. exact: evd2_passes. Qed.
Print Assumptions C12_evd2_passes.

(** ** C13: the form of SVD1's result for any QB decomposer with orthonormal Q. *)
Theorem C13_svd1_form (R : rcfType) (G : Type) (L : lapack R) (qb : qbdec) m n c
    (A : 'M[R]_(m, n)) (k : int) tol (over : int) (s s1 : st G R)
    (Q : 'M[R]_(m, c)) (B : 'M[R]_(c, n)) :
  svd_spec L -> (0 < c)%N -> (0 < n)%N -> 0 <= k -> orthonormal Q ->
  qb (ofmx A) (k + over) tol s = (s1, inr (ofmx Q, ofmx B)) ->
  exists e (U : 'M[R]_(m, e)) (sg : 'cV[R]_e) (Vh : 'M[R]_(e, n))
      q (U0 : 'M[R]_(c, q)) (s0 : 'cV[R]_q) (Vh0 : 'M[R]_(q, n)),
    [/\ SVD1 L qb (ofmx A) k tol over s = (s1, inr (ofmx U, ofcv sg, ofmx Vh)),
        [/\ orthonormal U, orthonormal Vh^T,
            forall i, 10%:R * 2%:R ^- 52 <= sg i 0 &
            forall i j : 'I_e, (i <= j)%N -> sg j 0 <= sg i 0],
        [/\ B = U0 *m diag_mx s0^T *m Vh0, orthonormal U0, orthonormal Vh0^T &
            forall i j : 'I_q, (i <= j)%N -> s0 j 0 <= s0 i 0],
        [/\ U = Q *m colblk U0 0 e, sg = rowblk s0 0 e & Vh = rowblk Vh0 0 e] &
        [/\ (e <= minn c n)%N, q = minn c n, 0 < over -> (e <= absz k)%N,
            forall i : 'I_q, (e <= i)%N -> (0 < over -> (i < absz k)%N) -> s0 i 0 < 10%:R * 2%:R ^- 52 &
            e = q -> U *m diag_mx sg^T *m Vh = Q *m B]].
Proof. exact: svd1_form. Qed.
Print Assumptions C13_svd1_form.

(** A negative target rank k = -p is accepted although documented as forbidden: as long as k + over
    is acceptable to the QB decomposer, the p smallest singular values of B are dropped. *)
Theorem C13_svd1_negative_k (R : rcfType) (G : Type) (L : lapack R) (qb : qbdec) m n c (A : 'M[R]_(m, n)) (p : nat) tol
    (over : int) (s s1 : st G R) (Q : 'M[R]_(m, c)) (B : 'M[R]_(c, n)) :
  svd_spec L -> (0 < c)%N -> (0 < n)%N -> (0 < p)%N -> 0 < over ->
  qb (ofmx A) (- p%:Z + over) tol s = (s1, inr (ofmx Q, ofmx B)) ->
  let q := minn c n in
  exists e (U0 : 'M[R]_(c, q)) (s0 : 'cV[R]_q) (Vh0 : 'M[R]_(q, n)),
    [/\ SVD1 L qb (ofmx A) (- p%:Z) tol over s = (s1, inr (ofmx (Q *m colblk U0 0 e), ofcv (rowblk s0 0 e), ofmx (rowblk Vh0 0 e))),
        [/\ B = U0 *m diag_mx s0^T *m Vh0, orthonormal U0, orthonormal Vh0^T &
            forall i j : 'I_q, (i <= j)%N -> s0 j 0 <= s0 i 0],
        (e <= q - p)%N &
        forall i : 'I_q, (i < q - p)%N -> (i < e)%N = (10%:R * 2%:R ^- 52 <= s0 i 0)].
Proof. move=> h1 h2 h3 h4 h5 h6; exact (svd1_neg h1 h2 h3 h4 h5 h6). Qed.
Print Assumptions C13_svd1_negative_k.

(** A decomposer meeting the hypotheses: QB2 on a 3-by-3 matrix, one block. *)
Example C13_hyps (R : rcfType) (s : st nat R) :
  exists s1 (Q B : 'M[R]_(3, 3)),
    [/\ svd_spec (exact_lapack R), orthonormal Q &
        QB2_noov (exact_lapack R) (@wit_rf R) 3 (ofmx (wit_A R)) (2 + 1) None s =
        (s1, inr (ofmx Q, ofmx B))].
Proof.
have [s' [Q [A' [E oQ]]]] := wit_single None s.
exists s', Q, (Q^T *m wit_A R); split; [exact: exact_svd | exact: oQ |].
by rewrite /QB2_noov (bindE _ E).
Qed.

Example C13_negative_hyps (R : rcfType) (s : st nat R) :
  exists s1 (Q B : 'M[R]_(3, 3)),
    svd_spec (exact_lapack R) /\
    QB2_noov (exact_lapack R) (@wit_rf R) 3 (ofmx (wit_A R)) (- 1%N%:Z + 4) None s = (s1, inr (ofmx Q, ofmx B)).
Proof.
have e : - 1%N%:Z + 4 = 3 :> int by [].
have [s' [Q [B [h1 _ h2]]]] := C13_hyps s; exists s', Q, B; split; first exact h1.
rewrite e; exact h2.
Qed.

(** ** C14 (refuted): the documented relative tolerance is not met for matrices
    of tiny norm, because singular values below 10*eps are dropped whatever the
    norm of A. *)
Theorem C14_svd1_tolerance_refuted (R : rcfType) (G : Type) (L : lapack R) (r : rng_ops G R)
    (np blk : int) (t : R) a (s : st G R) :
  qr_spec L -> svd_spec L -> rng_ok r -> 2 <= np -> 0 < blk -> 0 < t < 1 ->
  exists (A : 'M[R]_1) s' e (U : 'M[R]_(1, e)) (sg : 'cV[R]_e) (Vh : 'M[R]_(e, 1)),
    [/\ A != 0, svd1 L r (ofmx A) 1 0 (Some t) np blk a s = (s', inr (ofmx U, ofcv sg, ofmx Vh)) &
        t * fro A < fro (A - U *m diag_mx sg^T *m Vh)].
Proof. move=> h1 h2 h3; exact: svd1_refuted. Qed.
Print Assumptions C14_svd1_tolerance_refuted.

(** What holds instead: the tolerance plus the dropped singular values, when the
    recorded rangefinder columns are independent. *)
Theorem C14_svd1_accuracy (R : rcfType) (G : Type) (L : lapack R) (r : rng_ops G R)
    (np blk : int) m n (A : 'M[R]_(m, n)) (k : int) (t : R) a (s : st G R) :
  qr_spec L -> svd_spec L -> rng_ok r ->
  2 <= np -> (0 < m)%N -> (0 < n)%N -> (minn m n)%:Z <= k -> 0 < blk -> 0 < t ->
  exists s' l c (F : 'M[R]_(m, c)) e (U : 'M[R]_(m, e)) (sg : 'cV[R]_e) (Vh : 'M[R]_(e, n)),
    [/\ svd1 L r (ofmx A) k 0 (Some t) np blk a s = (s', inr (ofmx U, ofcv sg, ofmx Vh)),
        evs s' = evs s ++ l, rf_outputs l F &
        \rank F = c -> (F^T <= A^T)%MS \/ (m <= n)%N ->
        fro2 (A - U *m diag_mx sg^T *m Vh) <= t ^+ 2 * fro2 A + (minn m n)%:R * (10%:R * 2%:R ^- 52) ^+ 2].
Proof. move=> h1 h2 h3; exact: svd1_accuracy. Qed.
Print Assumptions C14_svd1_accuracy.

Example C14_hyps (R : rcfType) :
  [/\ qr_spec (exact_lapack R), svd_spec (exact_lapack R), rng_ok (toy_rng (T := R)) &
      0 < (2%:R^-1 : R) < 1].
Proof.
split; [exact: exact_qr | exact: exact_svd | exact: toy_rng_ok |].
by rewrite invr_gt0 ltr0n invf_lt1 ?ltr0n // ltr1n.
Qed.

(** ** C15: the form of EVD1's result. *)
Theorem C15_evd1_form (R : rcfType) (G : Type) (L : lapack R) (asort : seq R -> seq nat) (qb : qbdec)
    n c (A : 'M[R]_n) (k : int) tol (over : int) (s s1 : st G R) (Q : 'M[R]_(n, c)) :
  eigh_spec L -> argsort_spec asort ->
  A^T = A -> 0 < k <= n%:Z -> (if tol is Some t then 0 <= t else true) -> (0 < c)%N ->
  orthonormal Q ->
  qb (ofmx A) (k + over) (omap (fun t => t / 2%:R) tol) s = (s1, inr (ofmx Q, ofmx (Q^T *m A))) ->
  exists r (V : 'M[R]_(n, r)) (lam : 'cV[R]_r),
    [/\ EVD1 L asort qb (ofmx A) k tol over s = (s1, inr (ofmx V, ofcv lam)),
        (r <= minn (absz k) c)%N,
        [/\ orthonormal V, V^T *m A *m V = diag_mx lam^T,
            (exists X, V = Q *m X) & Q^T *m (A *m V - V *m diag_mx lam^T) = 0],
        (forall i, 10%:R * 2%:R ^- 52 < `|lam i 0|) /\
        (forall i j : 'I_r, (i <= j)%N -> `|lam j 0| <= `|lam i 0|) &
        [/\ fro2 (A - V *m diag_mx lam^T *m V^T) = fro2 A - fro2 lam,
            (r < absz k)%N -> fro2 (Q^T *m A *m Q) - fro2 lam <= c%:R * (10%:R * 2%:R ^- 52) ^+ 2 &
            r = c -> fro2 (Q^T *m A *m Q) = fro2 lam]].
Proof. move=> h1 h2; exact: EVD1_form. Qed.
Print Assumptions C15_evd1_form.

Example C15_hyps (R : rcfType) (s : st nat R) :
  [/\ eigh_spec (exact_lapack R), argsort_spec (@sort_idx R), (wit_A R)^T = wit_A R &
  exists s1 (Q : 'M[R]_(3, 3)), orthonormal Q /\
        QB2_noov (exact_lapack R) (@wit_rf R) 3 (ofmx (wit_A R)) (2 + 1) None s =
        (s1, inr (ofmx Q, ofmx (Q^T *m wit_A R)))].
Proof.
split; [exact: exact_eigh | exact: sort_idxP | exact: tr_diag_mx |].
have [s' [Q [A' [E oQ]]]] := wit_single None s.
by exists s', Q; split; [exact: oQ | rewrite /QB2_noov (bindE _ E)].
Qed.

(** ** C16: error bound of EVD1 in terms of the QB error. *)
Theorem C16_evd1_error (R : rcfType) (G : Type) (L : lapack R) (asort : seq R -> seq nat) (qb : qbdec)
    n c (A : 'M[R]_n) (k : int) (t : R) (over : int) (s s1 : st G R) (Q : 'M[R]_(n, c)) :
  eigh_spec L -> argsort_spec asort ->
  A^T = A -> 0 < k <= n%:Z -> 0 <= t -> (0 < c)%N -> orthonormal Q ->
  qb (ofmx A) (k + over) (Some (t / 2%:R)) s = (s1, inr (ofmx Q, ofmx (Q^T *m A))) ->
  fro (A - Q *m (Q^T *m A)) <= t / 2%:R * fro A ->
  exists r (V : 'M[R]_(n, r)) (lam : 'cV[R]_r),
    [/\ EVD1 L asort qb (ofmx A) k (Some t) over s = (s1, inr (ofmx V, ofcv lam)),
        r = c -> fro (A - V *m diag_mx lam^T *m V^T) <= t * fro A &
        (r < absz k)%N -> fro2 (A - V *m diag_mx lam^T *m V^T) <=
           t ^+ 2 * fro2 A + c%:R * (10%:R * 2%:R ^- 52) ^+ 2].
Proof. exact: EVD1_error. Qed.
Print Assumptions C16_evd1_error.

(** The hypothesis on the QB error is met with t = 0 by the run of [C15_hyps]:
    a square orthonormal Q reproduces A. *)
Example C16_hyps (R : rcfType) (s : st nat R) :
  exists s1 (Q : 'M[R]_(3, 3)), [/\ orthonormal Q,
     fro (wit_A R - Q *m (Q^T *m wit_A R)) <= 0 / 2%:R * fro (wit_A R) &
     QB2_noov (exact_lapack R) (@wit_rf R) 3 (ofmx (wit_A R)) (2 + 1) (Some (0 / 2%:R)) s =
        (s1, inr (ofmx Q, ofmx (Q^T *m wit_A R)))].
Proof.
have [s' [Q [A' [E oQ]]]] := wit_single (Some (0 / 2%:R)) s.
exists s', Q; split; [exact: oQ | | by rewrite /QB2_noov (bindE _ E)].
by rewrite mul0r mul0r mulmxA (ortho_sq erefl oQ) mul1mx subrr fro0.
Qed.

(** ** C17 (refuted): evd2 does not return min(k, rank A) eigenpairs. *)
Theorem C17_evd2_rank_refuted (R : rcfType) (s : st nat R) :
  exists (A : 'M[R]_3) s' e (V : 'M[R]_(3, e)) (lamb : 'cV[R]_e),
  [/\ psd A, evd2 (exact_lapack R) toy_rng (ofmx A) 2 0 1 RGen s = (s', inr (ofmx V, ofcv lamb)) &
      (e < minn 2 (\rank A))%N].
Proof. exact: evd2_refuted. Qed.
Print Assumptions C17_evd2_rank_refuted.

(** The defect is systematic: whenever 0 < rank A < k, at least one eigenpair is
    lost, for every sketch and every conformant LAPACK. *)
Theorem C17_evd2_loses_pairs (R : rcfType) (G : Type) (L : lapack R) (sk_op : rowsketcher) n (A : 'M[R]_n)
    (k over : int) (s s1 : st G R) p (S : 'M[R]_(n, p)) :
  svd_spec L -> psd A -> (0 < \rank A < absz k)%N -> 0 < k < n%:Z -> 0 <= k + over -> (absz k <= p)%N ->
  sk_op (ofmx A) (absz (k + over)) s = (s1, inr (PyArr (ofmx S))) ->
  \rank S = p -> A *m S != 0 ->
  exists s2 e (V : 'M[R]_(n, e)) (lamb : 'cV[R]_e),
    EVD2 L sk_op (ofmx A) k None over s = (s2, inr (ofmx V, ofcv lamb)) /\ (e < \rank A)%N.
Proof. by move=> h1 h2 h3 h4 h5 h6 h7; apply: EVD2_loses h7 h2 h3 h6. Qed.
Print Assumptions C17_evd2_loses_pairs.

(** ** C18: EVD2 is the truncated Nystrom approximation, or raises LinAlgError. *)
Theorem C18_evd2_nystrom (R : rcfType) (G : Type) (L : lapack R) (sk_op : rowsketcher) n (A : 'M[R]_n)
    (k over : int) (s s1 : st G R) p (S : 'M[R]_(n, p)) :
  svd_spec L -> A^T = A -> 0 < k < n%:Z -> 0 <= k + over -> (absz k <= p)%N ->
  sk_op (ofmx A) (absz (k + over)) s = (s1, inr (PyArr (ofmx S))) ->
  let nu := Num.sqrt n%:R * 2%:R ^- 52 * fro (A *m S) in
  let Y := (A + nu%:M) *m S in
  (~ spd (S^T *m Y) -> exists s2, EVD2 L sk_op (ofmx A) k None over s = (s2, inl LinAlgError)) /\
  (spd (S^T *m Y) -> exists s2 e (V : 'M[R]_(n, e)) (lamb : 'cV[R]_e) q (W : 'M[R]_(n, q)) (d : 'cV[R]_q),
     [/\ EVD2 L sk_op (ofmx A) k None over s = (s2, inr (ofmx V, ofcv lamb)),
         (e <= absz k <= q)%N,
         [/\ orthonormal W, forall i j : 'I_q, (i <= j)%N -> d j 0 <= d i 0 &
             Y *m invmx (S^T *m Y) *m Y^T = W *m diag_mx d^T *m W^T],
         orthonormal V /\ V = colblk W 0 e &
         forall (i : 'I_e) (j : 'I_q), i = j :> nat -> lamb i 0 + nu = d j 0]).
Proof. move=> h1 h2 h3 h4 h5 h6; exact: EVD2_nystrom h6 h2 h5. Qed.
Print Assumptions C18_evd2_nystrom.

(** When the Cholesky factorisation succeeds, and when it cannot. *)
Theorem C18_evd2_definite (R : rcfType) n p (A : 'M[R]_n) (S : 'M[R]_(n, p)) :
  let nu := Num.sqrt n%:R * 2%:R ^- 52 * fro (A *m S) in
  let C := S^T *m ((A + nu%:M) *m S) in
  [/\ psd A -> \rank S = p -> A *m S != 0 -> spd C,
      (n < p)%N -> ~ spd C &
      (0 < p)%N -> A *m S = 0 -> ~ spd C].
Proof. exact: EVD2_definite. Qed.
Print Assumptions C18_evd2_definite.

Theorem C18_evd2_driver (R : rcfType) (G : Type) (L : lapack R) (r : rng_ops G R) n (A : 'M[R]_n)
    (k over np : int) a (s : st G R) :
  qr_spec L -> svd_spec L -> rng_ok r ->
  A^T = A -> 0 < k < n%:Z -> 0 <= over -> (absz (k + over)%R <= n)%N -> 1 <= np ->
  exists s' x, evd2 L r (ofmx A) k over np a s = (s', x) /\
    (x = inl LinAlgError \/
     exists (S : 'M[R]_(n, absz (k + over)%R)) e (V : 'M[R]_(n, e)) (lamb : 'cV[R]_e),
       x = inr (ofmx V, ofcv lamb) /\ evd2_result A S (absz k) V lamb).
Proof. move=> h1 h2 h3; exact: evd2_driver. Qed.
Print Assumptions C18_evd2_driver.

Example C18_hyps (R : rcfType) (s : st nat R) : exists s1,
  [/\ psd (e11 R 2), \rank (colblk (1%:M : 'M[R]_3) 0 2) = 2%N,
      e11 R 2 *m colblk (1%:M : 'M[R]_3) 0 2 != 0 &
      RS1 (skopGA (T:=R) toy_rng) 0 (orth (exact_lapack R)) 1 (ofmx (e11 R 2)) 2 s =
        (s1, inr (PyArr (ofmx (colblk (1%:M : 'M[R]_3) 0 2))))].
Proof. exact: evd2_hyps. Qed.

(** ** C62 (refuted): evd1 does not meet its documented relative tolerance on
    matrices of tiny norm; the bound that holds. *)
Theorem C62_evd1_tolerance_refuted (R : rcfType) (G : Type) (L : lapack R) (asort : seq R -> seq nat)
    (r : rng_ops G R) (np blk : int) (t : R) a (s : st G R) :
  qr_spec L -> eigh_spec L -> argsort_spec asort -> rng_ok r -> 2 <= np -> 0 < blk -> 0 < t < 1 ->
  exists (A : 'M[R]_1) s' e (V : 'M[R]_(1, e)) (lam : 'cV[R]_e),
    [/\ A != 0, A^T = A, evd1 L r asort (ofmx A) 1 (Some t) 0 np blk a s = (s', inr (ofmx V, ofcv lam)) &
        t * fro A < fro (A - V *m diag_mx lam^T *m V^T)].
Proof. move=> h1 h2 h3 h4; exact: evd1_refuted. Qed.
Print Assumptions C62_evd1_tolerance_refuted.

Theorem C62_evd1_accuracy (R : rcfType) (G : Type) (L : lapack R) (asort : seq R -> seq nat)
    (r : rng_ops G R) (np blk : int) n (A : 'M[R]_n) (t : R) a (s : st G R) :
  qr_spec L -> eigh_spec L -> argsort_spec asort -> rng_ok r ->
  2 <= np -> A^T = A -> (0 < n)%N -> 0 < blk -> 0 < t ->
  exists s' l c (F : 'M[R]_(n, c)) x,
    [/\ evd1 L r asort (ofmx A) n%:Z (Some t) 0 np blk a s = (s', x),
        evs s' = evs s ++ l, rf_outputs l F &
        \rank F = c -> exists e (V : 'M[R]_(n, e)) (lam : 'cV[R]_e),
          [/\ x = inr (ofmx V, ofcv lam), orthonormal V, V^T *m A *m V = diag_mx lam^T &
              fro2 (A - V *m diag_mx lam^T *m V^T) <=
                (t / 2%:R) ^+ 2 * fro2 A + n%:R * (10%:R * 2%:R ^- 52) ^+ 2]].
Proof. move=> h1 h2 h3 h4; exact: evd1_accuracy. Qed.
Print Assumptions C62_evd1_accuracy.

Theorem C62_evd1_single_block (R : rcfType) (G : Type) (L : lapack R) (asort : seq R -> seq nat)
    (r : rng_ops G R) (np blk : int) n (A : 'M[R]_n) (t : R) a (s : st G R) :
  qr_spec L -> eigh_spec L -> argsort_spec asort -> rng_ok r ->
  2 <= np -> A^T = A -> (0 < n)%N -> n%:Z <= blk -> 0 <= t ->
  exists s' e (V : 'M[R]_(n, e)) (lam : 'cV[R]_e),
    [/\ evd1 L r asort (ofmx A) n%:Z (Some t) 0 np blk a s = (s', inr (ofmx V, ofcv lam)),
        orthonormal V, V^T *m A *m V = diag_mx lam^T,
        (forall i, 10%:R * 2%:R ^- 52 < `|lam i 0|) &
        fro2 (A - V *m diag_mx lam^T *m V^T) <= n%:R * (10%:R * 2%:R ^- 52) ^+ 2].
Proof. move=> h1 h2 h3 h4; exact: evd1_single. Qed.
Print Assumptions C62_evd1_single_block.

Example C62_hyps (R : rcfType) :
  [/\ qr_spec (exact_lapack R), eigh_spec (exact_lapack R), argsort_spec (@sort_idx R) &
      rng_ok (toy_rng (T := R))].
Proof. split; [exact: exact_qr | exact: exact_eigh | exact: sort_idxP | exact: toy_rng_ok]. Qed.

(** ** C63: on a positive semidefinite matrix EVD2 never overestimates, and for
    k > 1 every returned eigenvalue estimate is positive. *)
Theorem C63_evd2_underestimates (R : rcfType) (G : Type) (L : lapack R) (sk_op : rowsketcher) n (A : 'M[R]_n)
    (k over : int) (s s1 s2 : st G R) p (S : 'M[R]_(n, p)) e (V : 'M[R]_(n, e)) (lamb : 'cV[R]_e) :
  svd_spec L -> psd A -> 0 < k < n%:Z -> 0 <= k + over -> (0 < p)%N ->
  sk_op (ofmx A) (absz (k + over)) s = (s1, inr (PyArr (ofmx S))) ->
  EVD2 L sk_op (ofmx A) k None over s = (s2, inr (ofmx V, ofcv lamb)) ->
  [/\ orthonormal V, forall i j : 'I_e, (i <= j)%N -> lamb j 0 <= lamb i 0,
      (1 < absz k)%N -> forall i, 0 < lamb i 0 &
      forall y : 'cV[R]_e, (y^T *m diag_mx lamb^T *m y) 0 0 <= ((V *m y)^T *m A *m (V *m y)) 0 0].
Proof. move=> h1 h2 h3 h4 h5 h6; exact: (EVD2_under h1 h3 h4 h6 h2 h5). Qed.
Print Assumptions C63_evd2_underestimates.

(** ** C64: error of SVD1 (Pythagoras). *)
Theorem C64_svd1_error (R : rcfType) (G : Type) (L : lapack R) (qb : qbdec) m n c
    (A : 'M[R]_(m, n)) (k : int) tol (over : int) (s s1 : st G R) (Q : 'M[R]_(m, c)) :
  svd_spec L -> (0 < c)%N -> (0 < n)%N -> orthonormal Q ->
  qb (ofmx A) (k + over) tol s = (s1, inr (ofmx Q, ofmx (Q^T *m A))) ->
  exists e (U : 'M[R]_(m, e)) (sg : 'cV[R]_e) (Vh : 'M[R]_(e, n)),
    [/\ SVD1 L qb (ofmx A) k tol over s = (s1, inr (ofmx U, ofcv sg, ofmx Vh)),
        U^T *m A *m Vh^T = diag_mx sg^T &
        fro2 (A - U *m diag_mx sg^T *m Vh) = fro2 A - fro2 sg].
Proof. exact: svd1_error. Qed.
Print Assumptions C64_svd1_error.
