(** Property C94: errors of the low rank drivers with the Gaussian sketches they
    draw themselves, against the singular values of the data, with the failure
    probability.  [mean E], [positive E]: E is an expectation over the generator
    state, so E (~~ B) is the probability that B fails; [uncorrelated], [normal4]:
    second and fourth moments of rng.normal.  [sing_split A U t Vh rk np sg tau]:
    a singular value decomposition split after [rk] entries, the trailing ones at
    most [sg] and, if [np] > 0, the leading ones at least [tau] > 0.
    [np] counts the passes over A beyond the minimum (power iterations). *)
From mathcomp Require Import all_ssreflect all_algebra.
From Verif Require Import Base Arr Lapack Exact MxLib LapackSpec LapackExists Rng Aware RangeFinders QB SvdEvd.
From Verif Require Import P_Evd P_Iso P_Embed P_Embed3 P_Prob P_Prob2 P_ProbPe.
Set Implicit Arguments.
Unset Strict Implicit.
Unset Printing Implicit Defensive.
Import Order.TTheory GRing.Theory Num.Theory.
Local Open Scope ring_scope.

Theorem C94_rf1 (R : rcfType) (G : Type) (E : (G -> R) -> R) (L : lapack R) (r : rng_ops G R) m n q
    (A : 'M[R]_(m, n)) (U : 'M[R]_(m, q)) (t : 'cV[R]_q) (Vh : 'M[R]_(q, n)) (rk np l : nat) (sg tau e th : R) :
  mean E -> positive E -> rng_ok r -> qr_spec L -> sing_split A U t Vh rk np sg tau -> 0 < e < 1 -> 0 < th ->
  (0 < l <= minn m n)%N -> uncorrelated E r (if odd np then m else n) l -> normal4 E r (if odd np then m else n) l ->
  exists B : G -> bool,
    E (fun g => (~~ B g)%:R) <= (rk * rk + rk)%:R / (l%:R * e ^+ 2) + rk%:R / (l%:R * th) /\
  forall g es, B g -> exists Q : 'M[R]_(m, l),
    [/\ (rf1 L r (ofmx A) l%:Z np.+1%:Z RGen (St g es)).2 = inr (ofmx Q), orthonormal Q &
        fro2 (A - Q *m (Q^T *m A)) <=
        (1 + (sg / tau) ^+ (2 * np) * (th / (1 - e) ^+ 2)) * \sum_(i < q | (rk <= i)%N) t i 0 ^+ 2].
Proof. by move=> h1 h2 h3 h4 h5 h6 h7 h8 h9 h10; exact (rf1_prob h1 h2 h3 h4 h5 h6 h7 h8 (conj h9 h10)). Qed.
Print Assumptions C94_rf1.

Theorem C94_qb (R : rcfType) (G : Type) (E : (G -> R) -> R) (L : lapack R) (r : rng_ops G R) m n q
    (A : 'M[R]_(m, n)) (U : 'M[R]_(m, q)) (t : 'cV[R]_q) (Vh : 'M[R]_(q, n)) (rk np l : nat) (sg tau e th : R) :
  mean E -> positive E -> rng_ok r -> qr_spec L -> sing_split A U t Vh rk np sg tau -> 0 < e < 1 -> 0 < th ->
  (0 < l <= minn m n)%N -> uncorrelated E r (if odd np then m else n) l -> normal4 E r (if odd np then m else n) l ->
  exists B : G -> bool,
    E (fun g => (~~ B g)%:R) <= (rk * rk + rk)%:R / (l%:R * e ^+ 2) + rk%:R / (l%:R * th) /\
  forall g es, B g -> exists Q : 'M[R]_(m, l),
    [/\ (qb L r np.+2%:Z (ofmx A) l%:Z RGen (St g es)).2 = inr (ofmx Q, ofmx (Q^T *m A)), orthonormal Q &
        fro2 (A - Q *m (Q^T *m A)) <=
        (1 + (sg / tau) ^+ (2 * np) * (th / (1 - e) ^+ 2)) * \sum_(i < q | (rk <= i)%N) t i 0 ^+ 2].
Proof. by move=> h1 h2 h3 h4 h5 h6 h7 h8 h9 h10; exact (qb_prob h1 h2 h3 h4 h5 h6 h7 h8 (conj h9 h10)). Qed.
Print Assumptions C94_qb.

(** qb_b with any block size and tolerance: [l] is the width of the first block. *)
Theorem C94_qb_b (R : rcfType) (G : Type) (E : (G -> R) -> R) (L : lapack R) (r : rng_ops G R) m n q
    (A : 'M[R]_(m, n)) (U : 'M[R]_(m, q)) (t : 'cV[R]_q) (Vh : 'M[R]_(q, n)) (rk np l : nat) (sg tau e th : R)
    (blk k : int) :
  mean E -> positive E -> rng_ok r -> qr_spec L -> sing_split A U t Vh rk np sg tau -> 0 < e < 1 -> 0 < th ->
  (0 < m)%N -> (0 < n)%N -> 0 < k -> 0 < blk -> l%:Z = Num.min blk (Num.min k (minn m n)%:Z) ->
  uncorrelated E r (if odd np then m else n) l -> normal4 E r (if odd np then m else n) l ->
  exists B : G -> bool,
    E (fun g => (~~ B g)%:R) <= (rk * rk + rk)%:R / (l%:R * e ^+ 2) + rk%:R / (l%:R * th) /\
  forall g es ow tol, B g -> exists c (Q : 'M[R]_(m, c)) (Bm : 'M[R]_(c, n)),
    (qb_b L r np.+2%:Z blk ow (ofmx A) k tol RGen (St g es)).2 =
      inr (ofmx Q, ofmx Bm, ofmx (if ow then A - Q *m Bm else A)) /\
    fro2 (A - Q *m Bm) <=
    (1 + (sg / tau) ^+ (2 * np) * (th / (1 - e) ^+ 2)) * \sum_(i < q | (rk <= i)%N) t i 0 ^+ 2.
Proof.
by move=> h1 h2 h3 h4 h5 h6 h7 h8 h9 k0 b0 lE u n4; exact (qb_b_prob h1 h2 h3 h4 h5 h6 h7 h8 h9 k0 b0 lE (conj u n4)).
Qed.
Print Assumptions C94_qb_b.

(** qb_b_pe with any block size: all k columns with the error bound, or fewer with the tolerance met;
    it raises only if the sketch A @ Y it formed is rank deficient. *)
Theorem C94_qb_b_pe (R : rcfType) (G : Type) (E : (G -> R) -> R) (L : lapack R) (r : rng_ops G R) m n q
    (A : 'M[R]_(m, n)) (U : 'M[R]_(m, q)) (t : 'cV[R]_q) (Vh : 'M[R]_(q, n)) (rk np : nat) (sg tau e th : R)
    (k : nat) (blk : int) :
  mean E -> positive E -> rng_ok r -> qr_spec L -> sing_split A U t Vh rk np sg tau -> 0 < e < 1 -> 0 < th ->
  (0 < k)%N -> (k < minn m n)%N -> 0 < blk ->
  uncorrelated E r (if odd np then m else n) k -> normal4 E r (if odd np then m else n) k ->
  exists B : G -> bool,
    E (fun g => (~~ B g)%:R) <= (rk * rk + rk)%:R / (k%:R * e ^+ 2) + rk%:R / (k%:R * th) /\
  forall g es tol, B g ->
  exists s1 (Y : 'M[R]_(n, k)), RS1 (skopGA r) np%:Z (orth L) 1 (ofmx A) k (St g es) = (s1, inr (PyArr (ofmx Y))) /\
  ((exists c (Q : 'M[R]_(m, c)),
    [/\ (qb_b_pe L r np.+1%:Z blk (ofmx A) k%:Z tol RGen (St g es)).2 = inr (ofmx Q, ofmx (Q^T *m A)), orthonormal Q &
      c = k /\ fro2 (A - Q *m (Q^T *m A)) <=
        (1 + (sg / tau) ^+ (2 * np) * (th / (1 - e) ^+ 2)) * (\sum_(i < q | (rk <= i)%N) t i 0 ^+ 2) \/
      (c < k)%N /\ exists x, [/\ tol = Some x, 0 < x & fro (A - Q *m (Q^T *m A)) <= x * fro A]]) \/
   (qb_b_pe L r np.+1%:Z blk (ofmx A) k%:Z tol RGen (St g es)).2 = inl LinAlgError /\ (\rank (A *m Y) < k)%N).
Proof.
move=> h1 h2 h3 h4 h5 h6 h7 h8 h9 h10 h11 h12.
exact (qb_b_pe_prob h1 h2 h3 h4 h5 h6 h7 h8 h9 h10 h11 h12).
Qed.
Print Assumptions C94_qb_b_pe.

(** svd1 with a block size covering the rank: k + over or min(m, n) columns are sketched. *)
Theorem C94_svd1 (R : rcfType) (G : Type) (E : (G -> R) -> R) (L : lapack R) (r : rng_ops G R) m n q
    (A : 'M[R]_(m, n)) (U : 'M[R]_(m, q)) (t : 'cV[R]_q) (Vh : 'M[R]_(q, n)) (rk np l : nat) (sg tau e th : R)
    (blk k over : int) :
  mean E -> positive E -> rng_ok r -> qr_spec L -> sing_split A U t Vh rk np sg tau -> 0 < e < 1 -> 0 < th ->
  svd_spec L -> (0 < m)%N -> (0 < n)%N -> 0 <= k -> 0 < k + over ->
  l%:Z = Num.min (k + over) (minn m n)%:Z -> l%:Z <= blk ->
  uncorrelated E r (if odd np then m else n) l -> normal4 E r (if odd np then m else n) l ->
  exists B : G -> bool,
    E (fun g => (~~ B g)%:R) <= (rk * rk + rk)%:R / (l%:R * e ^+ 2) + rk%:R / (l%:R * th) /\
  forall g es tol, B g -> exists c (Us : 'M[R]_(m, c)) (s : 'cV[R]_c) (Vs : 'M[R]_(c, n)),
    (svd1 L r (ofmx A) k over tol np.+2%:Z blk RGen (St g es)).2 = inr (ofmx Us, ofcv s, ofmx Vs) /\
    forall X : 'M[R]_(m, n), (\rank X <= absz k)%N ->
      fro2 (A - Us *m diag_mx s^T *m Vs) <=
      (1 + (sg / tau) ^+ (2 * np) * (th / (1 - e) ^+ 2)) * (\sum_(i < q | (rk <= i)%N) t i 0 ^+ 2) +
      fro2 (A - X) + (minn l n)%:R * (10%:R * 2%:R ^- 52) ^+ 2.
Proof.
move=> h1 h2 h3 h4 h5 h6 h7 h8 h9 h10 k0 ko lE lb u n4.
exact (svd1_prob h1 h2 h3 h4 h5 h6 h7 h8 h9 h10 k0 ko lE lb (conj u n4)).
Qed.
Print Assumptions C94_svd1.

Theorem C94_evd1 (R : rcfType) (G : Type) (E : (G -> R) -> R) (L : lapack R) (r : rng_ops G R)
    (asort : seq R -> seq nat) n q (A : 'M[R]_n) (U : 'M[R]_(n, q)) (t : 'cV[R]_q) (Vh : 'M[R]_(q, n))
    (rk np l : nat) (sg tau e th : R) (blk k over : int) :
  mean E -> positive E -> rng_ok r -> qr_spec L -> sing_split A U t Vh rk np sg tau -> 0 < e < 1 -> 0 < th ->
  eigh_spec L -> argsort_spec asort -> A^T = A -> 0 < k <= n%:Z -> 0 < k + over ->
  l%:Z = Num.min (k + over) n%:Z -> l%:Z <= blk -> uncorrelated E r n l -> normal4 E r n l ->
  exists B : G -> bool,
    E (fun g => (~~ B g)%:R) <= (rk * rk + rk)%:R / (l%:R * e ^+ 2) + rk%:R / (l%:R * th) /\
  forall g es tol, B g -> (if tol is Some x then 0 <= x else true) ->
    exists c (V : 'M[R]_(n, c)) (lam : 'cV[R]_c),
    (evd1 L r asort (ofmx A) k tol over np.+2%:Z blk RGen (St g es)).2 = inr (ofmx V, ofcv lam) /\
    forall X : 'M[R]_n, (\rank X <= absz k)%N ->
      fro2 (A - V *m diag_mx lam^T *m V^T) <=
      2%:R * ((1 + (sg / tau) ^+ (2 * np) * (th / (1 - e) ^+ 2)) * \sum_(i < q | (rk <= i)%N) t i 0 ^+ 2) +
      fro2 (A - X) + l%:R * (10%:R * 2%:R ^- 52) ^+ 2.
Proof.
move=> h1 h2 h3 h4 h5 h6 h7 h8 h9 h10 kn ko lE lb u n4.
exact (evd1_prob h1 h2 h3 h4 h5 h6 h7 h8 h9 h10 kn ko lE lb u n4).
Qed.
Print Assumptions C94_evd1.

(** An 8 x 8 matrix with singular values 1, 1/2, ..., 1/2: 8 sketch columns and 4 extra passes beat the
    zero approximation with probability above 1/2. *)
Example C94_hyps (R : rcfType) :
  let t : 'cV[R]_8 := \col_i (if i == 0 then 1 else 2%:R^-1) in
  let A := diag_mx t^T in let e : R := 9%:R / 10%:R in
  [/\ sing_split A 1%:M t 1%:M 1 4 2%:R^-1 1, 0 < e < 1,
      (1 * 1 + 1)%:R / (8%:R * e ^+ 2) + 1%:R / (8%:R * 1) < 2%:R^-1,
      (1 + (2%:R^-1 / 1) ^+ (2 * 4) * (1 / (1 - e) ^+ 2)) * (\sum_(i < 8 | (1 <= i)%N) t i 0 ^+ 2) < fro2 A &
      uncorrelated (@ga_mean R 8 8) (ga_rng R 8 8) 8 8 /\ normal4 (@ga_mean R 8 8) (ga_rng R 8 8) 8 8].
Proof. exact: prob_wit. Qed.
