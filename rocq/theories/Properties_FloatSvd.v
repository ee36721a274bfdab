(** Property C102: the randomised SVD in rounded arithmetic.  Scalar operations have a relative
    error of at most u ([fl_arith]), QR a backward error ([qr_fl]), and LAPACK's SVD is within mu
    of an exact decomposition ([svd_fl]); any of them may instead raise an exception in X.  The
    statements are about the arrays returned. *)
From mathcomp Require Import all_ssreflect all_algebra.
From Verif Require Import Base Arr Lapack Exact MxLib LapackSpec LapackExists Rng Aware RangeFinders QB SvdEvd Shape Inexact Float.
From Verif Require Import P_Iso P_Embed P_Prob P_Embed3 P_Float7 P_Float10 P_Float11.
Set Implicit Arguments.
Unset Strict Implicit.
Unset Printing Implicit Defensive.
Import Order.TTheory GRing.Theory Num.Theory.
Local Open Scope ring_scope.

(** SVD1 over any QB whose Q is nearly orthonormal (PQ is whatever else is known of the answer of
    that QB). *)
Theorem C102_SVD1 (R : rcfType) (T : Type) (O : ops T) (G : Type) (v : T -> R) (u mu eta : R) (X : exn -> Prop)
    (L : lapack T) (qb : @qbdec T G) m n (A : arr T) k tol (over : int) (PQ : nat -> arr T -> arr T -> Prop) :
  fl_arith O v u -> svd_fl v X L mu -> 0 <= mu -> 0 <= eta < 1 -> (0 < n)%N ->
  safe X (fun QB => exists2 c, (0 < c)%N &
      [/\ shaped m c QB.1, shaped c n QB.2, near_ortho eta (mval v m c QB.1) & PQ c QB.1 QB.2]) (qb A (k%:Z + over) tol) ->
  let r := Num.sqrt (1 + eta) in let t := (Num.sqrt (1 - eta))^-1 in let Am := mval v m n A in
  safe X (fun x => exists c Q B e, [/\ PQ c Q B /\ (e <= minn c n)%N, 0 < over -> (e <= k)%N,
    [/\ shaped m e x.1.1, size x.1.2 = e & shaped e n x.2],
    [/\ forall i, (i < e)%N -> 0 <= v (ev x.1.2 i) /\ v cut10 <= v (ev x.1.2 i),
        forall i j, (i <= j < e)%N -> v (ev x.1.2 j) <= v (ev x.1.2 i),
        near_ortho (eta + fl_du eta mu u c * (r + t + fl_du eta mu u c)) (mval v m e x.1.1) &
        near_ortho (mu * (2%:R + mu)) (mval v e n x.2)^T] &
    let E0 := fro (Am - mval v m c Q *m mval v c n B) in
    fro (mval v c n B) <= t * (fro Am + E0) /\
    forall Y : 'M[R]_(m, n), (\rank Y <= k)%N ->
      fro (Am - mval v m e x.1.1 *m diag_mx (vval v e x.1.2)^T *m mval v e n x.2) <=
      (1 + r * t) * E0 + r * t * fro (Am - Y) + r * Num.sqrt (minn c n)%:R * `|v cut10| +
      fl_svd eta mu u c * fro (mval v c n B)])
    (SVD1 L qb A k%:Z tol over).
Proof. move=> h1 h2 h3 h4 h5 h6; exact (fl_SVD1 h1 h2 h3 h4 h5 h6). Qed.
Print Assumptions C102_SVD1.

(** svd1 with a block size of at least k + over (a single block): the error of the range found is
    within rounding of the least one, whatever the passes, the tolerance and the generator. *)
Theorem C102_svd1 (R : rcfType) (T : Type) (O : ops T) (G : Type) (v : T -> R) (u : R) (X : exn -> Prop) (L : lapack T)
    (r : rng_ops G T) (eta dl mu : R) m n k over b (np : int) (A : arr T) tol a :
  rng_ok r -> fl_arith O v u -> lap_shapes X L -> qr_fl v X L eta dl -> 0 <= eta < 1 -> 0 <= dl ->
  svd_fl v X L mu -> 0 <= mu ->
  let l := (k + over)%N in (0 < l <= minn m n)%N -> (l <= b)%N -> 2 <= np -> shaped m n A ->
  safe X (fun x => exists2 Q : 'M[R]_(m, l), near_ortho eta Q & forall C : 'M[R]_(l, n),
      svd_ok v eta mu u k l (mval v m n A)
        ((1 + rho eta) * fro (mval v m n A - Q *m C) +
         (rho eta + (1 + eta) * Num.sqrt l%:R * gam u m.+1) * fro (mval v m n A)) x)
    (svd1 L r A k%:Z over%:Z tol np b%:Z a).
Proof.
move=> h1 h2 h3 h4 h5 h6 h7 h8 l h9 h10 h11 h12; exact (fl_svd1_any h1 h2 h3 h4 h5 h6 h7 h8 tol a h9 h10 h11 h12).
Qed.
Print Assumptions C102_svd1.

(** svd1 with a Gaussian sketch and two passes, against the singular values t of the matrix. *)
Theorem C102_svd1_prob (R : rcfType) (T : Type) (O : ops T) (G : Type) (E : (G -> R) -> R) (v : T -> R) (u : R)
    (X : exn -> Prop) (L : lapack T) (r : rng_ops G T) (eta dl mu : R)
    m n k over b q rk (A : arr T) (U : 'M[R]_(m, q)) (t : 'cV[R]_q) (Vh : 'M[R]_(q, n)) e th tp tol :
  mean E -> positive E -> rng_ok r -> fl_arith O v u -> qr_fl v X L eta dl -> 0 <= eta < 1 -> 0 <= dl ->
  svd_fl v X L mu -> 0 <= mu ->
  let l := (k + over)%N in
  (0 < l <= minn m n)%N -> (l <= b)%N -> shaped m n A -> fl_uncorrelated v E r n l -> fl_normal4 v E r n l ->
  mval v m n A = U *m diag_mx t^T *m Vh -> orthonormal U -> orthonormal Vh^T -> (rk <= q)%N ->
  0 < e < 1 -> 0 < th -> 0 < tp ->
  exists B : G -> bool, E (fun g => (~~ B g)%:R) <= (rk * rk + rk)%:R / (l%:R * e ^+ 2) + rk%:R / (l%:R * th) + tp^-1 /\
  forall g es, B g ->
  let w := Num.sqrt ((1 + th / (1 - e) ^+ 2) * \sum_(i < q | (rk <= i)%N) t i 0 ^+ 2) in
  let w' := Num.sqrt (tp * n%:R / (1 - e)) in
  rsafe X (svd_ok v eta mu u k l (mval v m n A) (fl_qb_one eta dl u m n l w w' (fro (mval v m n A))))
    (svd1 L r A k%:Z over%:Z tol 2 b%:Z RGen (St g es)).2.
Proof.
move=> h1 h2 h3 h4 h5 h6 h7 h8 h9 l h10 h11 h12 h13 h14 h15 h16 h17 h18 h19 h20 h21.
exact (fl_svd1_prob h1 h2 h3 h4 h5 h6 h7 h8 h9 tol h10 h11 h12 h13 h14 h15 h16 h17 h18 h19 h20 h21).
Qed.
Print Assumptions C102_svd1_prob.

(** In exact arithmetic every rounding term of these bounds vanishes. *)
Theorem C102_exact (R : rcfType) m n c (w w' a : R) :
  [/\ fl_du 0 0 0 c = 0 :> R, fl_svd 0 0 0 c = 0 :> R, fl_sketch2 0 0 0 n c = 0 :> R & fl_qb_one 0 0 0 m n c w w' a = w].
Proof. exact (svd_const_zero m n c w w' a). Qed.
Print Assumptions C102_exact.

(** An arithmetic in which no addition is exact, with an inexact QR and an inexact SVD, meets the hypotheses. *)
Example C102_hyps (R : rcfType) (u eta mu : R) : 0 <= u < 1 -> 0 < u -> 0 < eta -> 0 < mu ->
  let O := bent_ops u in let E := @ga_mean R 8 8 in let r := ga_rng R 8 8 in
  [/\ fl_arith O id u /\ @oadd R O 1 1 <> 2%:R,
      [/\ @lap_shapes R O (fun _ => False) (bent_svd eta mu), @qr_fl R R O id (fun _ => False) (bent_svd eta mu) eta 0 &
          @svd_fl R R O id (fun _ => False) (bent_svd eta mu) mu],
      ~ svd_spec (bent_svd eta mu) &
      [/\ mean E, positive E, @rng_ok _ R O r, @fl_uncorrelated R R O _ id E r 8 8 & @fl_normal4 R R O _ id E r 8 8]].
Proof. move=> h1 h2 h3 h4; exact (svd_wit h1 h2 h3 h4). Qed.
