(** Property C98: errors of the interpolative decompositions with the Gaussian
    sketches they draw themselves, against the singular values of the data, with
    the failure probability.  [mean E], [positive E]: E is an expectation over the
    generator state, so E (~~ B) is the probability that B fails; [uncorrelated],
    [normal4]: second and fourth moments of rng.normal.  [sing_split A U t Vh rk p
    sg tau]: a singular value decomposition split after [rk] <= k entries, the
    trailing ones at most [sg] and, if p > 0, the leading ones at least [tau] > 0.
    [np] is the number of passes over A used by the row sketcher,
    [id_fail rk l np e th u] = (rk^2 + rk) / (l e^2) + rk / (l th) (+ 1 / u if np = 0) and
    [id_err t rk k np sg tau e th u] = ((4^k + 2) (1 + (sg/tau)^(2 (np - 1)) th / (1 - e)^2)
      + (2 4^k + 1) c) (sum of the squared trailing singular values), c = u / (1 - e) if np = 0, else 1.
    Each driver returns a decomposition within the bound or raises; it cannot raise
    if [rk] = k and the leading singular values are nonzero. *)
From mathcomp Require Import all_ssreflect all_algebra.
From Verif Require Import Base Arr Lapack Exact MxLib LapackSpec LapackExists Rng Aware RangeFinders Interp Sel.
From Verif Require Import P_Iso P_Embed P_Embed3 P_Prob P_Prob2 P_Prob4.
Set Implicit Arguments.
Unset Strict Implicit.
Unset Printing Implicit Defensive.
Import Order.TTheory GRing.Theory Num.Theory.
Local Open Scope ring_scope.

Theorem C98_osid1_row (R : rcfType) (G : Type) (E : (G -> R) -> R) (L : lapack R) (r : rng_ops G R) m n q
    (A : 'M[R]_(m, n)) (U : 'M[R]_(m, q)) (t : 'cV[R]_q) (Vh : 'M[R]_(q, n)) (rk k l np : nat) (over : int)
    (sg tau e th u : R) :
  mean E -> positive E -> rng_ok r -> qr_spec L -> qrp_spec L ->
  sing_split A U t Vh rk np.-1 sg tau -> 0 < e < 1 -> 0 < th -> 0 < u ->
  (0 < k)%N -> (rk <= k)%N -> (0 < l)%N -> (l <= minn m n)%N -> l%:Z = k%:Z + over ->
  uncorrelated E r (if odd np then m else n) l /\ normal4 E r (if odd np then m else n) l ->
  exists B : G -> bool, E (fun g => (~~ B g)%:R) <= id_fail rk l np e th u /\
  forall g es, B g ->
    (exists (Z : 'M[R]_(m, k)) I, (osid1 L r (ofmx A) k over np.+1%:Z 0 RGen (St g es)).2 = inr (ofmx Z, I) /\
       3%:R * fro2 (A - Z *m rowsel A I k) <= 2%:R * (m - k)%:R * id_err t rk k np sg tau e th u) \/
    (~ (rk = k /\ forall i : 'I_q, (i < rk)%N -> t i 0 != 0) /\
     exists x, (osid1 L r (ofmx A) k over np.+1%:Z 0 RGen (St g es)).2 = inl x).
Proof. move=> h1 h2 h3 h4 h5 h6 h7 h8 h9 h10 h11 h12 h13 h14 h15; exact (osid1_row_prob h1 h2 h3 h4 h5 h6 h7 h8 h9 h10 h11 h12 h13 h14 h15). Qed.
Print Assumptions C98_osid1_row.

Theorem C98_osid1_col (R : rcfType) (G : Type) (E : (G -> R) -> R) (L : lapack R) (r : rng_ops G R) m n q
    (A : 'M[R]_(m, n)) (U : 'M[R]_(m, q)) (t : 'cV[R]_q) (Vh : 'M[R]_(q, n)) (rk k l np : nat) (over : int)
    (sg tau e th u : R) :
  mean E -> positive E -> rng_ok r -> qr_spec L -> qrp_spec L ->
  sing_split A U t Vh rk np.-1 sg tau -> 0 < e < 1 -> 0 < th -> 0 < u ->
  (0 < k)%N -> (rk <= k)%N -> (0 < l)%N -> (l <= minn m n)%N -> l%:Z = k%:Z + over ->
  uncorrelated E r (if odd np then n else m) l /\ normal4 E r (if odd np then n else m) l ->
  exists B : G -> bool, E (fun g => (~~ B g)%:R) <= id_fail rk l np e th u /\
  forall g es, B g ->
    (exists (X : 'M[R]_(k, n)) J, (osid1 L r (ofmx A) k over np.+1%:Z 1 RGen (St g es)).2 = inr (ofmx X, J) /\
       3%:R * fro2 (A - colsel A J k *m X) <= 2%:R * (n - k)%:R * id_err t rk k np sg tau e th u) \/
    (~ (rk = k /\ forall i : 'I_q, (i < rk)%N -> t i 0 != 0) /\
     exists x, (osid1 L r (ofmx A) k over np.+1%:Z 1 RGen (St g es)).2 = inl x).
Proof. move=> h1 h2 h3 h4 h5 h6 h7 h8 h9 h10 h11 h12 h13 h14 h15; exact (osid1_col_prob h1 h2 h3 h4 h5 h6 h7 h8 h9 h10 h11 h12 h13 h14 h15). Qed.
Print Assumptions C98_osid1_col.

Theorem C98_osid2_row (R : rcfType) (G : Type) (E : (G -> R) -> R) (L : lapack R) (r : rng_ops G R) m n q
    (A : 'M[R]_(m, n)) (U : 'M[R]_(m, q)) (t : 'cV[R]_q) (Vh : 'M[R]_(q, n)) (rk k l np : nat) (over : int)
    (sg tau e th u : R) :
  mean E -> positive E -> rng_ok r -> qr_spec L -> qrp_spec L ->
  sing_split A U t Vh rk np.-1 sg tau -> 0 < e < 1 -> 0 < th -> 0 < u ->
  (0 < k)%N -> (rk <= k)%N -> (0 < l)%N -> (l <= minn m n)%N -> l%:Z = k%:Z + over ->
  lstsq_spec L -> (k <= m)%N -> (rk = k /\ forall i : 'I_q, (i < rk)%N -> t i 0 != 0) ->
  uncorrelated E r (if odd np then m else n) l /\ normal4 E r (if odd np then m else n) l ->
  exists B : G -> bool, E (fun g => (~~ B g)%:R) <= id_fail rk l np e th u /\
  forall g es, B g -> exists (Z : 'M[R]_(m, k)) I,
    (osid2 L r (ofmx A) k over np.+1%:Z 0 RGen (St g es)).2 = inr (ofmx Z, I) /\
    3%:R * fro2 (A - Z *m rowsel A I k) <= 2%:R * (m - k)%:R * id_err t rk k np sg tau e th u.
Proof. move=> h1 h2 h3 h4 h5 h6 h7 h8 h9 h10 h11 h12 h13 h14 h15 h16 h17 h18; exact (osid2_row_prob h1 h2 h3 h4 h5 h6 h7 h8 h9 h10 h11 h12 h13 h14 h15 h16 h17 h18). Qed.
Print Assumptions C98_osid2_row.

Theorem C98_osid2_col (R : rcfType) (G : Type) (E : (G -> R) -> R) (L : lapack R) (r : rng_ops G R) m n q
    (A : 'M[R]_(m, n)) (U : 'M[R]_(m, q)) (t : 'cV[R]_q) (Vh : 'M[R]_(q, n)) (rk k l np : nat) (over : int)
    (sg tau e th u : R) :
  mean E -> positive E -> rng_ok r -> qr_spec L -> qrp_spec L ->
  sing_split A U t Vh rk np.-1 sg tau -> 0 < e < 1 -> 0 < th -> 0 < u ->
  (0 < k)%N -> (rk <= k)%N -> (0 < l)%N -> (l <= minn m n)%N -> l%:Z = k%:Z + over ->
  lstsq_spec L -> (k <= n)%N -> (rk = k /\ forall i : 'I_q, (i < rk)%N -> t i 0 != 0) ->
  uncorrelated E r (if odd np then n else m) l /\ normal4 E r (if odd np then n else m) l ->
  exists B : G -> bool, E (fun g => (~~ B g)%:R) <= id_fail rk l np e th u /\
  forall g es, B g -> exists (X : 'M[R]_(k, n)) J,
    (osid2 L r (ofmx A) k over np.+1%:Z 1 RGen (St g es)).2 = inr (ofmx X, J) /\
    3%:R * fro2 (A - colsel A J k *m X) <= 2%:R * (n - k)%:R * id_err t rk k np sg tau e th u.
Proof. move=> h1 h2 h3 h4 h5 h6 h7 h8 h9 h10 h11 h12 h13 h14 h15 h16 h17 h18; exact (osid2_col_prob h1 h2 h3 h4 h5 h6 h7 h8 h9 h10 h11 h12 h13 h14 h15 h16 h17 h18). Qed.
Print Assumptions C98_osid2_col.

Theorem C98_tsid1 (R : rcfType) (G : Type) (E : (G -> R) -> R) (L : lapack R) (r : rng_ops G R) m n q
    (A : 'M[R]_(m, n)) (U : 'M[R]_(m, q)) (t : 'cV[R]_q) (Vh : 'M[R]_(q, n)) (rk k l np : nat) (over : int)
    (sg tau e th u : R) :
  mean E -> positive E -> rng_ok r -> qr_spec L -> qrp_spec L ->
  sing_split A U t Vh rk np.-1 sg tau -> 0 < e < 1 -> 0 < th -> 0 < u ->
  (0 < k)%N -> (rk <= k)%N -> (0 < l)%N -> (l <= minn m n)%N -> l%:Z = k%:Z + over ->
  uncorrelated E r (if odd np then minn m n else maxn m n) l /\
  normal4 E r (if odd np then minn m n else maxn m n) l ->
  exists B : G -> bool, E (fun g => (~~ B g)%:R) <= id_fail rk l np e th u /\
  forall g es, B g ->
    (exists (Z : 'M[R]_(m, k)) I (X : 'M[R]_(k, n)) J,
       (tsid1 L r (ofmx A) k over np.+1%:Z RGen (St g es)).2 = inr (ofmx Z, I, ofmx X, J) /\
       3%:R * fro2 (A - Z *m rowsel (colsel A J k) I k *m X) <=
       2%:R * (minn m n - k)%:R * id_err t rk k np sg tau e th u) \/
    (~ (rk = k /\ forall i : 'I_q, (i < rk)%N -> t i 0 != 0) /\
     exists x, (tsid1 L r (ofmx A) k over np.+1%:Z RGen (St g es)).2 = inl x).
Proof. move=> h1 h2 h3 h4 h5 h6 h7 h8 h9 h10 h11 h12 h13 h14 h15; exact (tsid1_prob h1 h2 h3 h4 h5 h6 h7 h8 h9 h10 h11 h12 h13 h14 h15). Qed.
Print Assumptions C98_tsid1.

Theorem C98_cur1 (R : rcfType) (G : Type) (E : (G -> R) -> R) (L : lapack R) (r : rng_ops G R) m n q
    (A : 'M[R]_(m, n)) (U : 'M[R]_(m, q)) (t : 'cV[R]_q) (Vh : 'M[R]_(q, n)) (rk k l np : nat) (over : int)
    (sg tau e th u : R) :
  mean E -> positive E -> rng_ok r -> qr_spec L -> qrp_spec L ->
  sing_split A U t Vh rk np.-1 sg tau -> 0 < e < 1 -> 0 < th -> 0 < u ->
  (0 < k)%N -> (rk <= k)%N -> (0 < l)%N -> (l <= minn m n)%N -> l%:Z = k%:Z + over ->
  lstsq_spec L ->
  uncorrelated E r (if odd np then minn m n else maxn m n) l /\
  normal4 E r (if odd np then minn m n else maxn m n) l ->
  exists B : G -> bool, E (fun g => (~~ B g)%:R) <= id_fail rk l np e th u /\
  forall g es, B g ->
    (exists J (C : 'M[R]_k) I,
       (cur1 L r (ofmx A) k over np.+2%:Z RGen (St g es)).2 = inr (J, ofmx C, I) /\
       9%:R * fro2 (A - colsel A J k *m C *m rowsel A I k) <=
       4%:R * (3%:R + (3%:R * k%:R + (maxn m n - k)%:R * (4%:R ^+ k - 1))) *
       ((minn m n - k)%:R * id_err t rk k np sg tau e th u)) \/
    (~ (rk = k /\ forall i : 'I_q, (i < rk)%N -> t i 0 != 0) /\
     exists x, (cur1 L r (ofmx A) k over np.+2%:Z RGen (St g es)).2 = inl x).
Proof. move=> h1 h2 h3 h4 h5 h6 h7 h8 h9 h10 h11 h12 h13 h14 h15 h16; exact (cur1_prob h1 h2 h3 h4 h5 h6 h7 h8 h9 h10 h11 h12 h13 h14 h15 h16). Qed.
Print Assumptions C98_cur1.

(** An 8 x 8 matrix with singular values 1, 1/100, ..., 1/100, k = 1, 8 sketch columns and 3 passes before
    the decomposition: the bound beats the zero approximation with probability above 1/2. *)
Example C98_hyps (R : rcfType) :
  let t : 'cV[R]_8 := \col_i (if i == 0 then 1 else 100%:R^-1) in
  let A := diag_mx t^T in let e : R := 9%:R / 10%:R in
  [/\ sing_split A 1%:M t 1%:M 1 3.-1 100%:R^-1 1, forall i : 'I_8, (i < 1)%N -> t i 0 != 0,
      id_fail 1 8 3 e 1 1 < 2%:R^-1, 2%:R * (8 - 1)%:R * id_err t 1 1 3 100%:R^-1 1 e 1 1 < 3%:R * fro2 A &
      uncorrelated (@ga_mean R 8 8) (ga_rng R 8 8) 8 8 /\ normal4 (@ga_mean R 8 8) (ga_rng R 8 8) 8 8].
Proof. exact: id_prob_wit. Qed.
