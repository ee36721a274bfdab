(** Property C100: the accuracy guarantees in rounded arithmetic.  Every scalar operation of
    the program has a relative error of at most u ([fl_arith], the standard model of
    floating-point arithmetic), QR has a backward error ([qr_fl]: || Q^T Q - I || <= eta and
    || A - Q U ||_F <= dl || A ||_F), lstsq is within 1 + tau of the least residual
    ([lstsq_fl]); any of them may instead raise an exception in X.  [mval v] is the real matrix
    held by an array.  The bounds are on what is returned: Q and B are the computed arrays. *)
From mathcomp Require Import all_ssreflect all_algebra.
From Verif Require Import Base Arr Lapack Exact MxLib LapackSpec LapackExists Rng Aware RangeFinders QB Shape Inexact Float.
From Verif Require Import Pcg Precond LstSq P_LS P_Iso P_Embed P_Embed3 P_Prob P_Rate3 P_Inexact4.
From Verif Require Import P_Float2 P_Float4 P_Float5 P_Float6 P_Float7.
Set Implicit Arguments.
Unset Strict Implicit.
Unset Printing Implicit Defensive.
Import Order.TTheory GRing.Theory Num.Theory.
Local Open Scope ring_scope.

(** qb: shapes, near-orthonormal Q, and an error within rounding of the best one for that Q. *)
Theorem C100_qb (R : rcfType) (T : Type) (O : ops T) (G : Type) (v : T -> R) (u : R) (X : exn -> Prop) (L : lapack T)
    (r : rng_ops G T) (eta dl : R) m n (A : arr T) k (np : int) a :
  fl_arith O v u -> lap_shapes X L -> qr_fl v X L eta dl -> 0 <= eta < 1 -> 0 <= dl -> rng_ok r ->
  2 <= np -> (0 < k)%N -> (k <= minn m n)%N -> shaped m n A ->
  safe X (fun QB => let A := mval v m n A in let Q := mval v m k QB.1 in let B := mval v k n QB.2 in
    [/\ shaped m k QB.1 /\ shaped k n QB.2, near_ortho eta Q &
      forall C : 'M[R]_(k, n),
        fro (A - Q *m B) <= (1 + rho eta) * fro (A - Q *m C) + (rho eta + (1 + eta) * Num.sqrt k%:R * gam u m.+1) * fro A])
    (qb L r np A k%:Z a).
Proof. move=> h1 h2 h3 h4 h5 h6 h7 h8 h9 h10; exact (fl_qb h1 h2 h3 h4 a h5 h6 h7 h8 h9 h10). Qed.
Print Assumptions C100_qb.

(** QB1 over RF1 with any sketching object: the structural bound, with the rounding errors of
    the sketch A @ S and its QR amplified by w, a bound on the norm of W. *)
Theorem C100_qb1 (R : rcfType) (T : Type) (O : ops T) (G : Type) (v : T -> R) (u : R) (X : exn -> Prop) (L : lapack T)
    (eta dl : R) rso m n k (PS : 'M[R]_(n, k) -> Prop) (A : arr T) :
  fl_arith O v u -> qr_fl v X L eta dl -> 0 <= eta < 1 -> 0 <= dl ->
  (0 < k)%N -> (k <= minn m n)%N -> shaped m n A ->
  safe X (fun S => exists2 B, S = PyArr B & shaped n k B /\ PS (mval v n k B)) (rso A k) ->
  safe X (fun QB => let A := mval v m n A in let Q := mval v m k QB.1 in let B := mval v k n QB.2 in
    [/\ shaped m k QB.1 /\ shaped k n QB.2, near_ortho eta Q,
      forall C : 'M[R]_(k, n),
        fro (A - Q *m B) <= (1 + rho eta) * fro (A - Q *m C) + (rho eta + (1 + eta) * Num.sqrt k%:R * gam u m.+1) * fro A &
      exists2 S : 'M[R]_(n, k), PS S &
        forall r w (V : 'M[R]_(n, r)) (W : 'M[R]_(k, r)), 0 <= w -> orthonormal V -> V^T *m S *m W = 1%:M ->
          (forall v : 'cV[R]_k, fro2 (W^T *m v) <= w ^+ 2 * fro2 v) ->
          let Z := A - A *m V *m V^T in
          fro (A - Q *m B) <=
          (1 + rho eta) * (Num.sqrt (fro2 Z + fro2 (Z *m S *m W)) + w * fl_sketch dl u n * fro S * fro A) +
          (rho eta + (1 + eta) * Num.sqrt k%:R * gam u m.+1) * fro A])
    (QB1 (RF1 L rso) A k%:Z None : M G T _).
Proof. move=> h1 h2 h3 h4 h5 h6 h7 h8; exact (fl_qb1 h1 h2 h3 h4 h5 h6 h7 h8). Qed.
Print Assumptions C100_qb1.

(** qb with a Gaussian sketch against the singular values t of the matrix held by A. *)
Theorem C100_qb_prob (R : rcfType) (T : Type) (O : ops T) (G : Type) (E : (G -> R) -> R) (v : T -> R) (u : R)
    (X : exn -> Prop) (L : lapack T) (r : rng_ops G T) (eta dl : R)
    m n l q rk (A : arr T) (U : 'M[R]_(m, q)) (t : 'cV[R]_q) (Vh : 'M[R]_(q, n)) e th tp :
  mean E -> positive E -> rng_ok r -> fl_arith O v u -> lap_shapes X L -> qr_fl v X L eta dl -> 0 <= eta < 1 -> 0 <= dl ->
  (0 < l <= minn m n)%N -> shaped m n A -> fl_uncorrelated v E r n l -> fl_normal4 v E r n l ->
  mval v m n A = U *m diag_mx t^T *m Vh -> orthonormal U -> orthonormal Vh^T -> (rk <= q)%N ->
  0 < e < 1 -> 0 < th -> 0 < tp ->
  exists B : G -> bool, E (fun g => (~~ B g)%:R) <= (rk * rk + rk)%:R / (l%:R * e ^+ 2) + rk%:R / (l%:R * th) + tp^-1 /\
  forall g es, B g ->
  rsafe X (fun QB => let Am := mval v m n A in
    [/\ shaped m l QB.1 /\ shaped l n QB.2, near_ortho eta (mval v m l QB.1) &
        fro (Am - mval v m l QB.1 *m mval v l n QB.2) <=
        (1 + rho eta) * (Num.sqrt ((1 + th / (1 - e) ^+ 2) * \sum_(i < q | (rk <= i)%N) t i 0 ^+ 2) +
                         fl_sketch dl u n * Num.sqrt (tp * n%:R / (1 - e)) * fro Am) +
        (rho eta + (1 + eta) * Num.sqrt l%:R * gam u m.+1) * fro Am])
    (qb L r 2 A l%:Z RGen (St g es)).2.
Proof.
move=> h1 h2 h3 h4 h5 h6 h7 h8 h9 h10 h11 h12 h13 h14 h15 h16 h17 h18 h19.
exact (fl_prob h1 h2 h3 h4 h5 h6 h7 h8 h9 h10 h11 h12 h13 h14 h15 h16 h17 h18 h19).
Qed.
Print Assumptions C100_qb_prob.

(** Blocked QB over any rangefinder answering with the requested shape.  With overwriting, A is
    left holding A - Q B up to the drift; an early stop meets the tolerance up to rounding. *)
Theorem C100_qb2 (R : rcfType) (T : Type) (O : ops T) (G : Type) (v : T -> R) (u : R) (X : exn -> Prop) (L : lapack T)
    (eta dl : R) (rf : @rangefinder T G) m n (k : int) b ov (A : arr T) tol :
  fl_arith O v u -> lap_shapes X L -> qr_fl v X L eta dl -> 0 <= eta < 1 ->
  (forall A j, (0 < j <= minn m n)%N -> shaped m n A -> safe X (shaped m j) (rf A j%:Z None : M G T _)) ->
  (0 < minn m n)%N -> 0 < k -> (0 < b)%N -> shaped m n A ->
  let kk := minn (absz k) (minn m n) in
  safe X (fun x => exists2 c, blocks b kk c &
    let Am := mval v m n A in let E := Am - mval v m c x.1.1 *m mval v c n x.1.2 in
    [/\ shaped m c x.1.1 /\ shaped c n x.1.2,
        if ov then shaped m n x.2 /\ fro (E - mval v m n x.2) <= fl_drift eta u m n kk (nblk b c) * fro Am else x.2 = A &
        (c < kk)%N -> exists2 t, tol = Some t & 0 < v t /\
          fro E <= (Num.sqrt ((1 + u) ^+ (m + n + 6) * v t ^+ 2 + fl_sq eta u m n kk (nblk b c)) +
                    fl_drift eta u m n kk (nblk b c)) * fro Am]) (QB2 L rf b%:Z ov A k tol).
Proof. move=> h1 h2 h3 h4 h5 h6 h7 h8 h9; exact (fl_QB2 h1 h2 h3 h4 ov tol h5 h6 h7 h8 h9). Qed.
Print Assumptions C100_qb2.

Theorem C100_qb_b (R : rcfType) (T : Type) (O : ops T) (G : Type) (v : T -> R) (u : R) (X : exn -> Prop) (L : lapack T)
    (eta dl : R) (r : rng_ops G T) (np : int) m n (k : int) b ov (A : arr T) tol a :
  fl_arith O v u -> lap_shapes X L -> qr_fl v X L eta dl -> 0 <= eta < 1 ->
  rng_ok r -> 2 <= np -> (0 < minn m n)%N -> 0 < k -> (0 < b)%N -> shaped m n A ->
  let kk := minn (absz k) (minn m n) in
  safe X (fun x => exists2 c, blocks b kk c &
    let Am := mval v m n A in let E := Am - mval v m c x.1.1 *m mval v c n x.1.2 in
    [/\ shaped m c x.1.1 /\ shaped c n x.1.2,
        if ov then shaped m n x.2 /\ fro (E - mval v m n x.2) <= fl_drift eta u m n kk (nblk b c) * fro Am else x.2 = A &
        (c < kk)%N -> exists2 t, tol = Some t & 0 < v t /\
          fro E <= (Num.sqrt ((1 + u) ^+ (m + n + 6) * v t ^+ 2 + fl_sq eta u m n kk (nblk b c)) +
                    fl_drift eta u m n kk (nblk b c)) * fro Am]) (qb_b L r np b%:Z ov A k tol a).
Proof. move=> h1 h2 h3 h4 h5 h6 h7 h8 h9 h10; exact (fl_qb_b h1 h2 h3 h4 ov tol a h5 h6 h7 h8 h9 h10). Qed.
Print Assumptions C100_qb_b.

(** Sketch-and-solve: near-optimal for the sketched problem, and for the original one if the
    sketch embeds the column space of (A, b). *)
Theorem C100_sso1 (R : rcfType) (T : Type) (O : ops T) (G : Type) (v : T -> R) (u : R) (X : exn -> Prop) (L : lapack T)
    (tau : R) (gen : nat -> nat -> M G T (pyop T)) (PS : forall d m, 'M[R]_(d, m) -> Prop)
    (sf : rat) m n (A : arr T) (b : seq T) (delta : T) tol it :
  fl_arith O v u -> lstsq_fl v X L tau -> 0 <= tau ->
  (forall d m, (0 < d)%N -> (0 < m)%N ->
    safe X (fun S => exists2 B, S = PyArr B \/ S = PySp B & shaped d m B /\ PS d m (mval v d m B)) (gen d m)) ->
  (0 < n <= m)%N -> sf_ok sf n -> shaped m n A -> size b = m ->
  let Am := mval v m n A in let bm := vval v m b in let dl := Num.max (v delta) 0 in
  safe X (fun x => size x = n /\ exists d (S : 'M[R]_(d, m)),
    [/\ d%:Z = Num.min (trunc_rat (sf * n%:R)) m%:Z, PS d m S,
        forall z, Num.sqrt (ridge (S *m Am) (S *m bm) dl (vval v n x)) <=
          (1 + tau) * (Num.sqrt (ridge (S *m Am) (S *m bm) dl z) + sso_err u S Am bm dl z) +
          sso_err u S Am bm dl (vval v n x) &
        forall lo hi, 0 <= lo -> 0 <= hi -> embeds2 S Am bm lo hi -> dl = 0 \/ lo <= 1 /\ 1 <= hi ->
        forall z, Num.sqrt lo * Num.sqrt (ridge Am bm dl (vval v n x)) <=
          (1 + tau) * (Num.sqrt hi * Num.sqrt (ridge Am bm dl z) + sso_err u S Am bm dl z) +
          sso_err u S Am bm dl (vval v n x)])
    (SSO1 L gen sf A b delta tol it).
Proof. move=> h1 h2 h3 h4 h5 h6 h7 h8; exact (fl_SSO1 h1 h2 h3 h4 delta tol it h5 h6 h7 h8). Qed.
Print Assumptions C100_sso1.

(** The size of the constants: gam u n is at most n u / (1 - n u), and without rounding errors nothing is left. *)
Theorem C100_constants (R : rcfType) :
  (forall (u : R) n, 0 <= u -> n%:R * u < 1 -> gam u n <= n%:R * u / (1 - n%:R * u)) /\
  forall m n k j, [/\ @fl_sketch R 0 0 n = 0, @fl_beta R 0 0 m k = 0, @fl_drift R 0 0 m n k j = 0 & @fl_sq R 0 0 m n k j = 0].
Proof. split; [exact: gam_classic|exact: const_zero]. Qed.
Print Assumptions C100_constants.

(** An arithmetic in which no addition, product, quotient or square root is exact, with a QR
    whose Q is not orthonormal, satisfying every hypothesis above. *)
Example C100_hyps (R : rcfType) (u eta : R) : 0 <= u < 1 -> 0 < u -> 0 < eta ->
  let O := bent_ops u in let E := @ga_mean R 8 8 in let r := ga_rng R 8 8 in
  [/\ fl_arith O id u, @oadd R O 1 1 <> 2%:R,
      [/\ @lap_shapes R O (fun _ => False) (bent_lapack eta), @qr_fl R R O id (fun _ => False) (bent_lapack eta) eta 0 &
          @lstsq_fl R R O id (fun _ => False) (bent_lapack eta) 0],
      ~ qr_spec (bent_lapack eta) &
      [/\ mean E, positive E, @rng_ok _ R O r, @fl_uncorrelated R R O _ id E r 8 8 & @fl_normal4 R R O _ id E r 8 8]].
Proof. move=> h1 h2 h3; exact (float_wit h1 h2 h3). Qed.
