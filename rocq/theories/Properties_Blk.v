(** Property C106: with two passes, the blocks drawn by blocked QB act as one sketch.  [blk_sketch r n b k g c]
    is the n-by-c matrix of the first c of k Gaussian columns drawn b at a time from state g, and
    [blk_generic] says that A times it has the largest possible rank at every block boundary. *)
From mathcomp Require Import all_ssreflect all_algebra.
From Verif Require Import Base Arr Lapack Exact MxLib LapackSpec LapackExists Rng Aware RangeFinders QB SvdEvd.
From Verif Require Import P_Iso P_Embed P_Embed3 P_Prob P_Prob2 P_Evd Blk P_Blk.
Set Implicit Arguments.
Unset Strict Implicit.
Unset Printing Implicit Defensive.
Import Order.TTheory GRing.Theory Num.Theory.
Local Open Scope ring_scope.

(** The error of qb_b is exactly the smallest one any matrix A S W has, S being all columns drawn. *)
Theorem C106_qb_b (R : rcfType) (G : Type) (L : lapack R) (r : rng_ops G R) m n (A : 'M[R]_(m, n)) (blk k : int)
    ow tol g es :
  rng_ok r -> qr_spec L -> (0 < m)%N -> (0 < n)%N -> 0 < k -> 0 < blk ->
  let l := minn (absz k) (minn m n) in let S := blk_sketch r n (absz blk) l g in
  exists c (Q : 'M[R]_(m, c)) (B : 'M[R]_(c, n)),
  [/\ (qb_b L r 2 blk ow (ofmx A) k tol RGen (St g es)).2 =
        inr (ofmx Q, ofmx B, ofmx (if ow then A - Q *m B else A)),
      (0 < c <= l)%N,
      (c < l)%N -> exists t, [/\ tol = Some t, 0 < t & fro (A - Q *m B) <= t * fro A],
      blk_generic r (absz blk) l A g ->
        (exists W, Q *m B = A *m S c *m W) /\ forall W, fro2 (A - Q *m B) <= fro2 (A - A *m S c *m W) &
      \rank (A *m S c) = c -> [/\ orthonormal Q, B = Q^T *m A & exists Y, Q = A *m S c *m Y]].
Proof. move=> h1 h2 h3 h4 h5 h6; exact (qb_b_blk h1 h2 A h3 h4 h5 h6 ow tol g es). Qed.
Print Assumptions C106_qb_b.

(** The block size has no influence on the approximation, as long as the columns drawn are the same up to an
    invertible recombination (such as the scale of the last block). *)
Theorem C106_block_size (R : rcfType) (G : Type) (L : lapack R) (r : rng_ops G R) m n (A : 'M[R]_(m, n)) (k : int) l
    (b1 b2 : int) ow1 ow2 g1 g2 es1 es2 (M : 'M[R]_l) :
  rng_ok r -> qr_spec L -> (0 < m)%N -> (0 < n)%N -> 0 < k -> l%:Z = Num.min k (minn m n)%:Z ->
  0 < b1 -> 0 < b2 -> M \in unitmx ->
  blk_sketch r n (absz b2) l g2 l = blk_sketch r n (absz b1) l g1 l *m M ->
  blk_generic r (absz b1) l A g1 -> blk_generic r (absz b2) l A g2 ->
  exists (Q1 Q2 : 'M[R]_(m, l)) (B1 B2 : 'M[R]_(l, n)),
  [/\ (qb_b L r 2 b1 ow1 (ofmx A) k None RGen (St g1 es1)).2 =
        inr (ofmx Q1, ofmx B1, ofmx (if ow1 then A - Q1 *m B1 else A)),
      (qb_b L r 2 b2 ow2 (ofmx A) k None RGen (St g2 es2)).2 =
        inr (ofmx Q2, ofmx B2, ofmx (if ow2 then A - Q2 *m B2 else A)) &
      Q1 *m B1 = Q2 *m B2].
Proof.
move=> h1 h2 h3 h4 h5 h6 h7 h8 h9 h10 h11 h12.
exact (qb_b_two h1 h2 h3 h4 h5 h6 ow1 ow2 es1 es2 h7 h8 h9 h10 h11 h12).
Qed.
Print Assumptions C106_block_size.

(** The error bound of C94 with the total number of columns in place of the width of the first block. *)
Theorem C106_qb_b_prob (R : rcfType) (G : Type) (E : (G -> R) -> R) (L : lapack R) (r : rng_ops G R)
    m n q (A : 'M[R]_(m, n)) (U : 'M[R]_(m, q)) (t : 'cV[R]_q) (Vh : 'M[R]_(q, n)) (rk : nat) (sg tau e th : R)
    (blk k : int) l :
  mean E -> positive E -> rng_ok r -> qr_spec L ->
  sing_split A U t Vh rk 0 sg tau -> 0 < e < 1 -> 0 < th ->
  (0 < m)%N -> (0 < n)%N -> 0 < k -> 0 < blk -> l%:Z = Num.min k (minn m n)%:Z ->
  uncorrelated E (blk_rng r n (absz blk) l) n l -> normal4 E (blk_rng r n (absz blk) l) n l ->
  exists D : G -> bool, E (fun g => (~~ D g)%:R) <= fail_prob rk l e th /\
  forall g es ow tol, D g -> blk_generic r (absz blk) l A g ->
  exists c (Q : 'M[R]_(m, c)) (B : 'M[R]_(c, n)),
    (qb_b L r 2 blk ow (ofmx A) k tol RGen (St g es)).2 =
      inr (ofmx Q, ofmx B, ofmx (if ow then A - Q *m B else A)) /\
    (fro2 (A - Q *m B) <= sketch_err t rk 0 sg tau e th \/
     exists x, [/\ tol = Some x, 0 < x & fro (A - Q *m B) <= x * fro A]).
Proof.
move=> h1 h2 h3 h4 h5 h6 h7 h8 h9 h10 h11 h12 h13 h14.
exact (qb_b_blk_prob h1 h2 h3 h4 h5 h6 h7 h8 h9 h10 h11 h12 h13 h14).
Qed.
Print Assumptions C106_qb_b_prob.

(** svd1 and evd1 with two passes and any block size. *)
Theorem C106_svd1_prob (R : rcfType) (G : Type) (E : (G -> R) -> R) (L : lapack R) (r : rng_ops G R)
    m n q (A : 'M[R]_(m, n)) (U : 'M[R]_(m, q)) (t : 'cV[R]_q) (Vh : 'M[R]_(q, n)) (rk : nat) (sg tau e th : R)
    (blk k over : int) l :
  mean E -> positive E -> rng_ok r -> qr_spec L ->
  sing_split A U t Vh rk 0 sg tau -> 0 < e < 1 -> 0 < th ->
  svd_spec L -> (0 < m)%N -> (0 < n)%N -> 0 <= k -> 0 < k + over -> 0 < blk ->
  l%:Z = Num.min (k + over) (minn m n)%:Z ->
  uncorrelated E (blk_rng r n (absz blk) l) n l -> normal4 E (blk_rng r n (absz blk) l) n l ->
  exists D : G -> bool, E (fun g => (~~ D g)%:R) <= fail_prob rk l e th /\
  forall g es tol, D g -> \rank (A *m blk_sketch r n (absz blk) l g l) = l ->
    (if tol is Some x then x <= 0 else true) ->
  exists c (Us : 'M[R]_(m, c)) (s : 'cV[R]_c) (Vs : 'M[R]_(c, n)),
    (svd1 L r (ofmx A) k over tol 2 blk RGen (St g es)).2 = inr (ofmx Us, ofcv s, ofmx Vs) /\
    forall X : 'M[R]_(m, n), (\rank X <= absz k)%N ->
      fro2 (A - Us *m diag_mx s^T *m Vs) <=
      sketch_err t rk 0 sg tau e th + fro2 (A - X) + (minn l n)%:R * (10%:R * 2%:R ^- 52) ^+ 2.
Proof.
move=> h1 h2 h3 h4 h5 h6 h7 h8 h9 h10 h11 h12 h13 h14 h15 h16.
exact (svd1_blk_prob h1 h2 h3 h4 h5 h6 h7 h8 h9 h10 h11 h12 h13 h14 h15 h16).
Qed.
Print Assumptions C106_svd1_prob.

Theorem C106_evd1_prob (R : rcfType) (G : Type) (E : (G -> R) -> R) (L : lapack R) (r : rng_ops G R)
    (asort : seq R -> seq nat) n q (A : 'M[R]_n) (U : 'M[R]_(n, q)) (t : 'cV[R]_q) (Vh : 'M[R]_(q, n))
    (rk : nat) (sg tau e th : R) (blk k over : int) l :
  mean E -> positive E -> rng_ok r -> qr_spec L ->
  sing_split A U t Vh rk 0 sg tau -> 0 < e < 1 -> 0 < th ->
  eigh_spec L -> argsort_spec asort -> A^T = A -> 0 < k <= n%:Z -> 0 < k + over -> 0 < blk ->
  l%:Z = Num.min (k + over) n%:Z ->
  uncorrelated E (blk_rng r n (absz blk) l) n l -> normal4 E (blk_rng r n (absz blk) l) n l ->
  exists D : G -> bool, E (fun g => (~~ D g)%:R) <= fail_prob rk l e th /\
  forall g es tol, D g -> \rank (A *m blk_sketch r n (absz blk) l g l) = l ->
    (if tol is Some x then x == 0 else true) ->
    exists c (V : 'M[R]_(n, c)) (lam : 'cV[R]_c),
    (evd1 L r asort (ofmx A) k tol over 2 blk RGen (St g es)).2 = inr (ofmx V, ofcv lam) /\
    forall X : 'M[R]_n, (\rank X <= absz k)%N ->
      fro2 (A - V *m diag_mx lam^T *m V^T) <=
      2%:R * sketch_err t rk 0 sg tau e th + fro2 (A - X) + l%:R * (10%:R * 2%:R ^- 52) ^+ 2.
Proof.
move=> h1 h2 h3 h4 h5 h6 h7 h8 h9 h10 h11 h12 h13 h14 h15 h16.
exact (evd1_blk_prob h1 h2 h3 h4 h5 h6 h7 h8 h9 h10 h11 h12 h13 h14 h15 h16).
Qed.
Print Assumptions C106_evd1_prob.

(** An 8-by-8 matrix of full rank, 8 columns in blocks of 3, 3 and 2, and a generator that hands out the
    columns of one array of independent entries with the first four normal moments. *)
Example C106_hyps (R : rcfType) :
  let t : 'cV[R]_8 := \col_i (if i == 0 then 1 else 2%:R^-1) in
  let A := diag_mx t^T in let e : R := 9%:R / 10%:R in
  [/\ sing_split A 1%:M t 1%:M 1 0 2%:R^-1 1, 0 < e < 1, fail_prob 1 8 e 1 < 2%:R^-1,
      [/\ mean (@pg_mean R 8), positive (@pg_mean R 8) & rng_ok (pg_rng R 8)] &
      [/\ uncorrelated (@pg_mean R 8) (blk_rng (pg_rng R 8) 8 3 8) 8 8,
          normal4 (@pg_mean R 8) (blk_rng (pg_rng R 8) 8 3 8) 8 8,
          blk_generic (pg_rng R 8) 3 8 A (pg_one 8),
          \rank (A *m blk_sketch (pg_rng R 8) 8 3 8 (pg_one 8) 8) = 8%N &
          blk_width 3 8 2 = 2%N /\
          exists2 M : 'M[R]_8, M \in unitmx &
          blk_sketch (pg_rng R 8) 8 8 8 (pg_one 8) 8 = blk_sketch (pg_rng R 8) 8 3 8 (pg_one 8) 8 *m M]].
Proof. exact: blk_wit. Qed.
