(** Properties C01-C12: sketchers, range finders and QB factorisations. *)
From mathcomp Require Import all_ssreflect all_algebra.
From Verif Require Import Base Arr Lapack Exact MxLib LapackSpec LapackExists Rng Aware RangeFinders QB.
From Verif Require Import P_RS1 P_Stab P_QB2 P_RF P_QB3 P_QBx P_QBfin.
Set Implicit Arguments.
Unset Strict Implicit.
Unset Printing Implicit Defensive.
Import Order.TTheory GRing.Theory Num.Theory.
Local Open Scope ring_scope.

(** ** C01: QB2 stops only at the target rank or at the tolerance. *)
Theorem C01_qb2_stops (R : rcfType) (G : Type) (L : lapack R) (rf : rangefinder)
    (blk : int) (ow : bool) m n (A : 'M[R]_(m, n)) (k : int) tol (s : st G R) :
  qr_spec L -> rf_shape rf -> (0 < m)%N -> (0 < n)%N -> 0 < k -> 0 < blk ->
  exists s' c (Q : 'M[R]_(m, c)) (B : 'M[R]_(c, n)) A',
    [/\ QB2 L rf blk ow (ofmx A) k tol s = (s', inr (ofmx Q, ofmx B, A')),
        (0 < c <= minn (absz k) (minn m n))%N &
        (c < minn (absz k) (minn m n))%N ->
          exists t, [/\ tol = Some t, 0 < t & fro (A - Q *m B) <= t * fro A]].
Proof. move=> qrL; exact: QB2_stops. Qed.
Print Assumptions C01_qb2_stops.

Example C01_hyps (R : rcfType) :
  [/\ qr_spec (exact_lapack R), rf_shape (@wit_rf R), wit_A R != 0,
      (0 < 2 :> int) & (0 < 1 :> int)].
Proof.
split=> //; [exact: exact_qr | exact: wit_rf_shape |].
apply: contraTneq (wit_A_unit R) => ->; rewrite unitmxE det0 unitr0 //.
Qed.

(** The procedural driver, from the random generator up. *)
Theorem C01_qb_b (R : rcfType) (G : Type) (L : lapack R) (r : rng_ops G R)
    (np blk : int) (ow : bool) m n (A : 'M[R]_(m, n)) (k : int) tol a (s : st G R) :
  qr_spec L -> rng_ok r -> 2 <= np -> (0 < m)%N -> (0 < n)%N -> 0 < k -> 0 < blk ->
  exists s' c (Q : 'M[R]_(m, c)) (B : 'M[R]_(c, n)),
    [/\ qb_b L r np blk ow (ofmx A) k tol a s =
          (s', inr (ofmx Q, ofmx B, ofmx (if ow then A - Q *m B else A))),
        (0 < c <= minn (absz k) (minn m n))%N,
        fro2 (A - Q *m B) = fro2 A - fro2 B &
        (c < minn (absz k) (minn m n))%N ->
          exists t, [/\ tol = Some t, 0 < t & fro (A - Q *m B) <= t * fro A]].
Proof. move=> qrL; exact: qb_b_stops. Qed.
Print Assumptions C01_qb_b.

Example C01_qb_b_hyps (R : rcfType) :
  qr_spec (exact_lapack R) /\ rng_ok (toy_rng (T := R)).
Proof. by split; [exact: exact_qr | exact: toy_rng_ok]. Qed.

(** ** C02: the residual accounting of QB2 is exact. *)
Theorem C02_qb2_accounting (R : rcfType) (G : Type) (L : lapack R) (rf : rangefinder)
    (blk : int) (ow : bool) m n (A : 'M[R]_(m, n)) (k : int) tol (s s' : st G R) A'
    c (Q : 'M[R]_(m, c)) (B : 'M[R]_(c, n)) :
  qr_spec L -> rf_shape rf -> (0 < m)%N -> (0 < n)%N -> 0 < k -> 0 < blk ->
  QB2 L rf blk ow (ofmx A) k tol s = (s', inr (ofmx Q, ofmx B, A')) ->
  fro2 (A - Q *m B) = fro2 A - fro2 B.
Proof. move=> qrL rfP m0 n0 k0 b0 E; exact (proj1 (QB2_run qrL rfP m0 n0 k0 b0 E)). Qed.
Print Assumptions C02_qb2_accounting.

Example C02_hyps (R : rcfType) (s : st nat R) :
  exists s' c (Q : 'M[R]_(3, c)) (B : 'M[R]_(c, 3)) A',
    QB2 (exact_lapack R) (@wit_rf R) 1 false (ofmx (wit_A R)) 2 None s
    = (s', inr (ofmx Q, ofmx B, A')).
Proof.
have [s' [c [Q [B [A' [E _ _]]]]]] := @C01_qb2_stops R nat (exact_lapack R) (@wit_rf R) 1 false
  3 3 (wit_A R) 2 None s (exact_qr (R:=R)) (@wit_rf_shape R) isT isT isT isT.
by exists s', c, Q, B, A'.
Qed.

(** ** C03: orthonormal Q and B = Q'A when the recorded rangefinder columns are
    linearly independent. *)
Theorem C03_qb2_orthonormal (R : rcfType) (G : Type) (L : lapack R) (rf : rangefinder)
    (blk : int) (ow : bool) m n (A : 'M[R]_(m, n)) (k : int) tol (s : st G R) :
  qr_spec L -> rf_shape rf -> (0 < m)%N -> (0 < n)%N -> 0 < k -> 0 < blk ->
  exists s' l c (Q : 'M[R]_(m, c)) (B : 'M[R]_(c, n)) (F : 'M[R]_(m, c)) A',
    [/\ QB2 L rf blk ow (ofmx A) k tol s = (s', inr (ofmx Q, ofmx B, A')),
        evs s' = evs s ++ l, rf_outputs l F &
        \rank F = c ->
        [/\ orthonormal Q, B = Q^T *m A & exists Y, Q = F *m Y]].
Proof. move=> qrL; exact: QB2_orth. Qed.
Print Assumptions C03_qb2_orthonormal.

(** ** C04 (refuted): orthonormality of Q is not unconditional.  For every QR
    routine meeting its contract and every row sketcher there is a 2-by-2
    matrix on which QB2, asked for k = 2 in blocks of one column without a
    tolerance, returns a Q whose columns are not orthonormal. *)
Theorem C04_qb2_orthonormality_refuted (R : rcfType) (G : Type) (L : lapack R)
    (rso : rowsketcher) (ow : bool) (s : st G R) :
  qr_spec L -> rso_total rso ->
  exists (A Q B : 'M[R]_2) s' A',
    QB2 L (RF1 L rso) 1 ow (ofmx A) 2 None s = (s', inr (ofmx Q, ofmx B, A')) /\
    ~ orthonormal Q.
Proof. move=> qrL; exact: QB2_refuted. Qed.
Print Assumptions C04_qb2_orthonormality_refuted.

Theorem C04_qb_b_orthonormality_refuted (R : rcfType) (G : Type) (L : lapack R)
    (r : rng_ops G R) (np : int) (ow : bool) (s : st G R) :
  qr_spec L -> rng_ok r -> 2 <= np ->
  exists (A Q B : 'M[R]_2) s' A',
    qb_b L r np 1 ow (ofmx A) 2 None RGen s = (s', inr (ofmx Q, ofmx B, A')) /\
    ~ orthonormal Q.
Proof. move=> qrL; exact: qb_b_refuted. Qed.
Print Assumptions C04_qb_b_orthonormality_refuted.

Example C04_hyps (R : rcfType) :
  rso_total (RS1 (skopGA (T:=R) toy_rng) 0 (orth (exact_lapack R)) 1).
Proof. exact: wit_rso. Qed.

(** ** C05: effect of QB2 on the caller's array. *)
Theorem C05_qb2_caller_array (R : rcfType) (G : Type) (L : lapack R) (rf : rangefinder)
    (blk : int) (ow : bool) m n (A : 'M[R]_(m, n)) (k : int) tol (s s' : st G R) A'
    c (Q : 'M[R]_(m, c)) (B : 'M[R]_(c, n)) :
  qr_spec L -> rf_shape rf -> (0 < m)%N -> (0 < n)%N -> 0 < k -> 0 < blk ->
  QB2 L rf blk ow (ofmx A) k tol s = (s', inr (ofmx Q, ofmx B, A')) ->
  A' = ofmx (if ow then A - Q *m B else A).
Proof. move=> qrL rfP m0 n0 k0 b0 E; exact (proj2 (QB2_run qrL rfP m0 n0 k0 b0 E)). Qed.
Print Assumptions C05_qb2_caller_array.

(** ** C06: QB3 computes the projection on range(A S) for every block size. *)
Theorem C06_qb3_projection (R : rcfType) (G : Type) (L : lapack R) (sk_op : rowsketcher)
    (blk : int) m n (A : 'M[R]_(m, n)) (k : nat) tol (s s1 s' : st G R)
    (S : 'M[R]_(n, k)) c (Q : 'M[R]_(m, c)) (B : 'M[R]_(c, n)) :
  qr_spec L -> (0 < k)%N -> (k < minn m n)%N -> 0 < blk ->
  sk_op (ofmx A) k s = (s1, inr (PyArr (ofmx S))) ->
  QB3 L sk_op blk (ofmx A) k%:Z tol s = (s', inr (ofmx Q, ofmx B)) ->
  [/\ orthonormal Q, B = Q^T *m A,
      exists2 i, (0 < i)%N & c = minn (i * absz blk) k &
      (c < k)%N -> exists t, [/\ tol = Some t, 0 < t & fro (A - Q *m B) <= t * fro A]].
Proof. move=> qrL; exact: QB3_run. Qed.
Print Assumptions C06_qb3_projection.

Theorem C06_qb3_block_independent (R : rcfType) (G : Type) (L : lapack R) (sk_op : rowsketcher)
    (b1 b2 : int) m n (A : 'M[R]_(m, n)) (k : nat) tol1 tol2 (s s1 : st G R) (S : 'M[R]_(n, k)) :
  qr_spec L -> (0 < k)%N -> (k < minn m n)%N -> 0 < b1 -> 0 < b2 ->
  ~~ use_tol tol1 -> ~~ use_tol tol2 ->
  sk_op (ofmx A) k s = (s1, inr (PyArr (ofmx S))) -> \rank (A *m S) = k ->
  exists (Q1 Q2 Q3 : 'M[R]_(m, k)) (B1 B2 B3 : 'M[R]_(k, n)),
    [/\ (QB3 L sk_op b1 (ofmx A) k%:Z tol1 s).2 = Ok (ofmx Q1, ofmx B1),
        (QB3 L sk_op b2 (ofmx A) k%:Z tol2 s).2 = Ok (ofmx Q2, ofmx B2),
        (QB1 (RF1 L sk_op) (ofmx A) k%:Z None s).2 = Ok (ofmx Q3, ofmx B3),
        Q1 *m B1 = Q2 *m B2 & Q1 *m B1 = Q3 *m B3].
Proof. move=> qrL; exact: QB3_blk. Qed.
Print Assumptions C06_qb3_block_independent.

Theorem C06_qb3_equals_projector (R : rcfType) (G : Type) (L : lapack R) (sk_op : rowsketcher)
    (blk : int) m n (A : 'M[R]_(m, n)) (k : nat) tol (s s1 : st G R) (S : 'M[R]_(n, k)) :
  qr_spec L -> (0 < k)%N -> (k < minn m n)%N -> 0 < blk -> ~~ use_tol tol ->
  sk_op (ofmx A) k s = (s1, inr (PyArr (ofmx S))) -> \rank (A *m S) = k ->
  let Y := A *m S in
  exists (Q : 'M[R]_(m, k)) (B : 'M[R]_(k, n)),
    [/\ (QB3 L sk_op blk (ofmx A) k%:Z tol s).2 = Ok (ofmx Q, ofmx B),
        orthonormal Q, B = Q^T *m A & Q *m B = Y *m invmx (Y^T *m Y) *m Y^T *m A].
Proof. move=> qrL; exact: QB3_full. Qed.
Print Assumptions C06_qb3_equals_projector.

Example C06_hyps (R : rcfType) (s : st nat R) :
  exists s1 (S : 'M[R]_(3, 2)),
    RS1 (skopGA (T:=R) toy_rng) 0 (orth (exact_lapack R)) 1 (ofmx (1%:M : 'M[R]_3)) 2 s
      = (s1, inr (PyArr (ofmx S))) /\ \rank ((1%:M : 'M[R]_3) *m S) = 2%N.
Proof.
have [s1 E] := @wit_sketch R 3 2 s isT isT.
exists s1, (colblk 1%:M 0 2); split=> //; rewrite mul1mx.
apply: inj_full_col => v /matrixP V; apply/colP=> i; rewrite mxE.
have := V (widen_ord (isT : (2 <= 3)%N) i) 0; rewrite !mxE => <-.
rewrite (bigD1 i) //= !mxE big1 ?addr0 => [|j ji]; rewrite ?mxE ?add0n.
  by rewrite (mxe_ord _ (leq_trans (ltn_ord i) (isT : (2 <= 3)%N)) (leq_trans (ltn_ord i) (isT : (2 <= 3)%N))) mxE eqxx mul1r.
rewrite (mxe_ord _ (leq_trans (ltn_ord i) (isT : (2 <= 3)%N)) (leq_trans (ltn_ord j) (isT : (2 <= 3)%N))) mxE.
by rewrite -val_eqE /= eq_sym val_eqE (negbTE ji) mul0r.
Qed.

(** ** C07: early stopping of QB3, its column count, and its failure mode. *)
Theorem C07_qb3_early_stop (R : rcfType) (G : Type) (L : lapack R) (sk_op : rowsketcher)
    (blk : int) m n (A : 'M[R]_(m, n)) (k : nat) tol (s s1 : st G R) (S : 'M[R]_(n, k)) :
  qr_spec L -> (0 < k)%N -> (k < minn m n)%N -> 0 < blk ->
  sk_op (ofmx A) k s = (s1, inr (PyArr (ofmx S))) ->
  let s2 := St (gen s1) (evs s1 ++ [:: EvPass false; EvPass true]) in
  (exists c (Q : 'M[R]_(m, c)) (B : 'M[R]_(c, n)),
    [/\ QB3 L sk_op blk (ofmx A) k%:Z tol s = (s2, inr (ofmx Q, ofmx B)),
        qb3_good A S Q B, (0 < c <= k)%N,
        (c < k)%N -> exists t, [/\ tol = Some t, 0 < t, (absz blk %| c)%N &
                                  fro (A - Q *m B) <= t * fro A] &
        forall t, tol = Some t -> 0 < t ->
          forall j, (0 < j)%N -> (j * absz blk < c)%N ->
          let Q0 := colblk Q 0 (j * absz blk) in t * fro A < fro (A - Q0 *m Q0^T *m A)]) \/
  (QB3 L sk_op blk (ofmx A) k%:Z tol s = (s2, inl LinAlgError) /\
   exists2 c', (c' <= k)%N & (\rank (colblk (A *m S) 0 c') < c')%N).
Proof. move=> qrL; exact: QB3P. Qed.
Print Assumptions C07_qb3_early_stop.

Theorem C07_qb3_rank_deficient (R : rcfType) (G : Type) (L : lapack R) (sk_op : rowsketcher)
    (blk : int) m n (A : 'M[R]_(m, n)) (k : nat) tol (s s1 : st G R) (S : 'M[R]_(n, k)) :
  qr_spec L -> (0 < k)%N -> (k < minn m n)%N -> 0 < blk -> ~~ use_tol tol ->
  sk_op (ofmx A) k s = (s1, inr (PyArr (ofmx S))) -> (\rank (A *m S) < k)%N ->
  (QB3 L sk_op blk (ofmx A) k%:Z tol s).2 = Err LinAlgError.
Proof. move=> qrL; exact: QB3_deficient. Qed.
Print Assumptions C07_qb3_rank_deficient.

Example C07_deficient_hyps (R : rcfType) (s : st nat R) :
  exists s1 (S : 'M[R]_(3, 2)),
    RS1 (skopGA (T:=R) toy_rng) 0 (orth (exact_lapack R)) 1 (ofmx (0 : 'M[R]_3)) 2 s
      = (s1, inr (PyArr (ofmx S))) /\ (\rank ((0%R : 'M[R]_3) *m S) < 2)%N.
Proof.
have [s1 [S [E _]]] := wit_rso (0%R : 'M[R]_3) s (isT : (0 < 2)%N) isT.
by exists s1, S; split; [exact: E | rewrite mul0mx mxrank0].
Qed.

(** ** C08: QB1 and RF1. *)
Theorem C08_qb1 (R : rcfType) (G : Type) (L : lapack R) (rso : rowsketcher) m n
    (A : 'M[R]_(m, n)) (k : nat) (s s1 : st G R) (S : 'M[R]_(n, k)) :
  qr_spec L -> (0 < k)%N -> (k <= minn m n)%N ->
  rso (ofmx A) k s = (s1, inr (PyArr (ofmx S))) ->
  exists (Q : 'M[R]_(m, k)) (U : 'M[R]_k),
    [/\ (RF1 L rso (ofmx A) k%:Z None s).2 = Ok (ofmx Q),
        (QB1 (RF1 L rso) (ofmx A) k%:Z None s).2 = Ok (ofmx Q, ofmx (Q^T *m A)),
        orthonormal Q &
        [/\ A *m S = Q *m U, \rank (A *m S) = k -> Q = A *m S *m invmx U /\ U \in unitmx &
            fro2 A = fro2 (A - Q *m (Q^T *m A)) + fro2 (Q^T *m A)]].
Proof. move=> qrL; exact: QB1_all. Qed.
Print Assumptions C08_qb1.

(** ** C09: argument validation, for any scalar type.  The state is returned
    untouched: no random number has been drawn and no pass made. *)
Theorem C09_rf1_rejects (T : Type) (O : ops T) (G : Type) (L : lapack T) rso (A : arr T)
    (k : int) tol (s : st G T) :
  ~~ ((0 < k) && (k <= (minn (nr A) (nc A))%:Z)) ->
  RF1 L rso A k tol s = (s, inl AssertionError).
Proof. exact: RF1_bad. Qed.
Print Assumptions C09_rf1_rejects.

Theorem C09_rf1_warns (T : Type) (O : ops T) (G : Type) (L : lapack T) rso (A : arr T)
    (k : int) t (s : st G T) :
  0 < k -> k <= (minn (nr A) (nc A))%:Z ->
  RF1 L rso A k (Some t) s =
  RF1 L rso A k None (St (gen s) (rcons (evs s) (EvWarn W_rf_tol))).
Proof. exact: RF1_warn. Qed.
Print Assumptions C09_rf1_warns.

Theorem C09_qb1_rejects (T : Type) (O : ops T) (G : Type) rf (A : arr T) (k : int) tol (s : st G T) :
  ~~ ((0 < k) && (k <= (minn (nr A) (nc A))%:Z)) ||
  (if tol is Some t then ~~ ((o0 <= t)%O && (t < o1)%O) else false) ->
  QB1 rf A k tol s = (s, inl AssertionError).
Proof. exact: QB1_bad. Qed.
Print Assumptions C09_qb1_rejects.

Theorem C09_qb2_rejects (T : Type) (O : ops T) (G : Type) (L : lapack T) rf blk ow (A : arr T)
    (k : int) tol (s : st G T) :
  ~~ (0 < k) -> QB2 L rf blk ow A k tol s = (s, inl AssertionError).
Proof. exact: QB2_bad. Qed.
Print Assumptions C09_qb2_rejects.

Theorem C09_qb2_clamps (T : Type) (O : ops T) (G : Type) (L : lapack T) rf blk ow (A : arr T)
    (k : int) tol (s : st G T) :
  (minn (nr A) (nc A))%:Z < k -> (0 < minn (nr A) (nc A))%N ->
  QB2 L rf blk ow A k tol s =
  QB2 L rf blk ow A (minn (nr A) (nc A))%:Z tol
      (St (gen s) (rcons (evs s) (EvWarn W_qb2_rank))).
Proof. exact: QB2_clamp. Qed.
Print Assumptions C09_qb2_clamps.

Theorem C09_qb3_rejects (T : Type) (O : ops T) (G : Type) (L : lapack T) sk_op blk (A : arr T)
    (k : int) tol (s : st G T) :
  ~~ ((0 < k) && (k < (minn (nr A) (nc A))%:Z)) ->
  QB3 L sk_op blk A k tol s = (s, inl AssertionError).
Proof. exact: QB3_bad. Qed.
Print Assumptions C09_qb3_rejects.

Example C09_hyps (R : rcfType) :
  let A := ofmx (wit_A R) in
  [/\ ~~ ((0 < -1 :> int) && (-1 <= (minn (nr A) (nc A))%:Z)),
      ~~ ((0 < 4 :> int) && (4 <= (minn (nr A) (nc A))%:Z)),
      ~~ ((0 < 3 :> int) && (3 < (minn (nr A) (nc A))%:Z)) &
      (minn (nr A) (nc A))%:Z < 4].
Proof. by []. Qed.

(** ** C10: pass and stabilisation schedule of RS1 (any scalar type).  The
    i-th of [np] products is with A' iff np - i is even, and is followed by the
    stabilizer iff [passes_per_stab] divides i. *)
Theorem C10_rs1_schedule (T : Type) (O : ops T) (G : Type) gen (np : int) stab (pps : int)
    (A : arr T) k (s s' : st G T) Y :
  (forall a b s s' X, gen a b s = (s', X) -> evs s' = evs s) -> 0 < pps ->
  RS1 gen np stab pps A k s = (s', inr Y) ->
  0 <= np /\
  evs s' = evs s ++ EvDraw (if odd (absz np) then nr A else nc A) k ::
    flatten [seq EvPass (~~ odd (absz np - i)) :: nseq (absz pps %| i) EvStab
            | i <- iota 1 (absz np - 0)].
Proof. exact: RS1_sched. Qed.
Print Assumptions C10_rs1_schedule.

Theorem C10_rs1_negative (T : Type) (O : ops T) (G : Type) gen (np : int) stab (pps : int)
    (A : arr T) k (s : st G T) :
  np < 0 -> RS1 gen np stab pps A k s = (s, inl AssertionError).
Proof. exact: RS1_neg. Qed.
Print Assumptions C10_rs1_negative.

(** With the Gaussian operator the call succeeds and returns an n-by-k array. *)
Theorem C10_rs1_shape (R : rcfType) (G : Type) (r : rng_ops G R) (np : int) stab (pps : int) :
  rng_ok r -> stab_spec stab -> 0 < pps -> 0 <= np ->
  rso_total (RS1 (skopGA r) np stab pps).
Proof. exact: RS1_total. Qed.
Print Assumptions C10_rs1_shape.

Example C10_hyps (R : rcfType) :
  [/\ stab_spec (orth (exact_lapack R)), stab_spec (lu_stabilize (exact_lapack R)) &
      forall a b (s s' : st nat R) X, skopGA toy_rng a b s = (s', X) -> evs s' = evs s].
Proof.
split; first exact/orth_stab/exact_qr; first exact/lu_stab/exact_lu.
exact: skopGA_quiet.
Qed.

(** The stabilizers orth and lu_stabilize return m-by-k arrays whose columns span the range of
    their argument: Q orthonormal; P L with P a permutation and L unit lower trapezoidal. *)
Theorem C11_stabilizers (R : rcfType) (L : lapack R) m k (X : 'M[R]_(m, k)) : qr_spec L -> lu_spec L -> (0 < k)%N -> (k <= m)%N ->
  (exists Q : 'M[R]_(m, k), [/\ orth L (ofmx X) = Ok (ofmx Q), orthonormal Q, (X^T <= Q^T)%MS & \rank X = k -> (X^T == Q^T)%MS]) /\
  exists (P : 'M[R]_m) (Lo : 'M[R]_(m, k)), [/\ lu_stabilize L (ofmx X) = Ok (ofmx (P *m Lo)), is_perm_mx P,
    lotri Lo /\ (forall i : 'I_k, mxe Lo i i = 1), (X^T <= (P *m Lo)^T)%MS & \rank X = k -> (X^T == (P *m Lo)^T)%MS].
Proof. exact: stabilizers. Qed.
Print Assumptions C11_stabilizers.

Example C11_stabilizers_hyps (R : rcfType) :
  qr_spec (exact_lapack R) /\ lu_spec (exact_lapack R).
Proof. by split; [exact: exact_qr|exact: exact_lu]. Qed.

(** ** C11: Krylov range of RS1, for every stabilisation frequency. *)
Theorem C11_rs1_range (R : rcfType) (G : Type) gen (np : nat) stab (pps : int) m n k
    (A : 'M[R]_(m, n)) (s s1 : st G R) (X0 : 'M[R]_(if odd np then m else n, k)) :
  stab_spec stab -> 0 < pps -> (0 < k)%N -> (k <= minn m n)%N ->
  draw gen (if odd np then m else n) k s = (s1, inr (PyArr (ofmx X0))) ->
  let K0 : 'M[R]_(n, k) :=
    (if odd np as b return 'M[R]_(if b then m else n, k) -> 'M[R]_(n, k)
     then fun X => A^T *m X else fun X => X) X0 in
  let K := iter (np %/ 2) (fun Y => A^T *m (A *m Y)) K0 in
  exists s' (Y : 'M[R]_(n, k)) (W : 'M[R]_k),
    [/\ RS1 gen np%:Z stab pps (ofmx A) k s = (s', inr (PyArr (ofmx Y))),
        K = Y *m W & \rank K = k -> W \in unitmx /\ Y = K *m invmx W].
Proof. exact: RS1_range. Qed.
Print Assumptions C11_rs1_range.

(** ** C12 (first part): pass counts (any scalar type). *)
Theorem C12_rf1_passes (T : Type) (O : ops T) (G : Type) (L : lapack T) (r : rng_ops G T)
    (A : arr T) k (np : int) a (s s' : st G T) Q :
  rf1 L r A k np a s = (s', inr Q) -> 1 <= np /\
  exists2 l, evs s' = evs s ++ l &
    count (fun e => if e is EvPass _ then true else false) l = absz np.
Proof. exact: rf1_passes. Qed.
Print Assumptions C12_rf1_passes.

Theorem C12_qb_passes (T : Type) (O : ops T) (G : Type) (L : lapack T) (r : rng_ops G T)
    (np : int) (A : arr T) k a (s s' : st G T) QB :
  qb L r np A k a s = (s', inr QB) -> 2 <= np /\
  exists2 l, evs s' = evs s ++ l &
    count (fun e => if e is EvPass _ then true else false) l = absz np.
Proof. exact: qb_passes. Qed.
Print Assumptions C12_qb_passes.

Theorem C12_qb_b_passes (T : Type) (O : ops T) (G : Type) (L : lapack T) (r : rng_ops G T)
    (np blk : int) ow (A : arr T) k tol a (s s' : st G T) X :
  qb_b L r np blk ow A k tol a s = (s', inr X) ->
  exists2 l, evs s' = evs s ++ l & 2 <= np /\
    [/\ count (fun e => if e is EvPass _ then true else false) l =
        (absz np * count (fun e => if e is EvRF _ then true else false) l)%N &
        (0 < count (fun e => if e is EvRF _ then true else false) l)%N].
Proof. exact: qb_b_passes. Qed.
Print Assumptions C12_qb_b_passes.

(** [qb_b_pe] makes one pass more than its [num_passes] argument. *)
Theorem C12_qb_b_pe_passes (T : Type) (O : ops T) (G : Type) (L : lapack T) (r : rng_ops G T)
    (np blk : int) (A : arr T) k tol a (s s' : st G T) X :
  qb_b_pe L r np blk A k tol a s = (s', inr X) -> 1 <= np /\
  exists2 l, evs s' = evs s ++ l &
    count (fun e => if e is EvPass _ then true else false) l = (absz np).+1.
Proof. exact: qb_b_pe_passes. Qed.
Print Assumptions C12_qb_b_pe_passes.

Example C12_hyps (R : rcfType) (s : st nat R) :
  exists s' X, qb_b (exact_lapack R) toy_rng 4 1 false (ofmx (wit_A R)) 2 None RGen s = (s', inr X).
Proof.
have [s' [c [Q [B [E _ _ _]]]]] := @C01_qb_b R nat (exact_lapack R) toy_rng 4 1 false
  3 3 (wit_A R) 2 None RGen s (exact_qr (R:=R)) (@toy_rng_ok _ _) isT isT isT isT isT.
by eexists; eexists; exact: E.
Qed.
