(** Property C105: the randomised symmetric eigenvalue decomposition in rounded arithmetic.  Scalar
    operations have a relative error of at most u ([fl_arith]), QR a backward error ([qr_fl]), LAPACK's
    eigensolver is within mu of an exact decomposition of the lower triangle it reads ([eigh_fl]); any of
    them may instead raise an exception in X.  The statements are about the arrays returned ([evd_ok]). *)
From mathcomp Require Import all_ssreflect all_algebra.
From Verif Require Import Base Arr Lapack Exact MxLib LapackSpec LapackExists Rng Aware RangeFinders QB SvdEvd Shape Inexact Float FloatEvd.
From Verif Require Import P_Iso P_Embed P_Prob P_Embed3 P_Evd P_Evd3 P_Float7 P_Float10 P_Float11 P_Float13.
Set Implicit Arguments.
Unset Strict Implicit.
Unset Printing Implicit Defensive.
Import Order.TTheory GRing.Theory Num.Theory.
Local Open Scope ring_scope.

(** EVD1 over any QB whose Q is nearly orthonormal and whose B is close to Q^T A (PQ is whatever else is
    known of the answer of that QB). *)
Theorem C105_EVD1 (R : rcfType) (T : Type) (O : ops T) (G : Type) (v : T -> R) (u mu eta : R) (X : exn -> Prop)
    (L : lapack T) (asort : seq T -> seq nat) (qb : @qbdec T G) n (A : arr T) k tol (over : int) (beta : nat -> R)
    (PQ : nat -> arr T -> arr T -> Prop) :
  fl_arith O v u -> eigh_fl v X L mu -> argsort_fl v asort -> neg_rev v -> 0 <= mu -> 0 <= eta < 1 ->
  (0 < k <= n)%N -> (if tol is Some t then ole o0 t else true) ->
  shaped n n A -> (mval v n n A)^T = mval v n n A -> (forall c, 0 <= beta c) ->
  safe X (fun QB => exists2 c, (0 < c)%N &
      [/\ shaped n c QB.1, shaped c n QB.2, near_ortho eta (mval v n c QB.1),
          fro (mval v c n QB.2 - (mval v n c QB.1)^T *m mval v n n A) <= beta c * fro (mval v n n A) & PQ c QB.1 QB.2])
    (qb A (k%:Z + over) (half_tol tol)) ->
  safe X (fun x => exists c Q B, PQ c Q B /\
      evd_ok v eta mu (beta c) u k c (mval v n n A) (fro (mval v n n A - mval v n c Q *m mval v c n B)) x)
    (EVD1 L asort qb A k%:Z tol over).
Proof.
move=> h1 h2 h3 h4 h5 h6 h7 h8 h9 h10 h11 h12; exact (fl_EVD1 h1 h2 h3 h4 h5 h6 h7 h8 h9 h10 h11 h12).
Qed.
Print Assumptions C105_EVD1.

(** evd1 with a block size of at least k + over (a single block): the error of the range found is
    within rounding of the least one, whatever the passes, the tolerance and the generator. *)
Theorem C105_evd1 (R : rcfType) (T : Type) (O : ops T) (G : Type) (v : T -> R) (u : R) (X : exn -> Prop) (L : lapack T)
    (asort : seq T -> seq nat) (r : rng_ops G T) (eta dl mu : R) n k over b (np : int) (A : arr T) tol a :
  rng_ok r -> fl_arith O v u -> lap_shapes X L -> qr_fl v X L eta dl -> 0 <= eta < 1 -> 0 <= dl ->
  eigh_fl v X L mu -> argsort_fl v asort -> neg_rev v -> 0 <= mu ->
  let l := (k + over)%N in (0 < k)%N -> (l <= n)%N -> (l <= b)%N -> 2 <= np ->
  (if tol is Some t then ole o0 (odiv t (onat 2)) else true) ->
  shaped n n A -> (mval v n n A)^T = mval v n n A ->
  safe X (fun x => exists2 Q : 'M[R]_(n, l), near_ortho eta Q & forall C : 'M[R]_(l, n),
      evd_ok v eta mu (fl_beta eta u n l) u k l (mval v n n A)
        ((1 + rho eta) * fro (mval v n n A - Q *m C) +
         (rho eta + (1 + eta) * Num.sqrt l%:R * gam u n.+1) * fro (mval v n n A)) x)
    (evd1 L r asort A k%:Z tol over%:Z np b%:Z a).
Proof.
move=> h1 h2 h3 h4 h5 h6 h7 h8 h9 h10 l h11 h12 h13 h14 h15 h16 h17.
exact (fl_evd1_any h1 h2 h3 h4 h5 h6 h7 h8 h9 h10 a h11 h12 h13 h14 h15 h16 h17).
Qed.
Print Assumptions C105_evd1.

(** evd1 with a Gaussian sketch and two passes, against the eigenvalues t of the matrix. *)
Theorem C105_evd1_prob (R : rcfType) (T : Type) (O : ops T) (G : Type) (E : (G -> R) -> R) (v : T -> R) (u : R)
    (X : exn -> Prop) (L : lapack T) (asort : seq T -> seq nat) (r : rng_ops G T) (eta dl mu : R)
    n k over b q rk (A : arr T) (W : 'M[R]_(n, q)) (t : 'cV[R]_q) e th tp tol :
  mean E -> positive E -> rng_ok r -> fl_arith O v u -> qr_fl v X L eta dl -> 0 <= eta < 1 -> 0 <= dl ->
  eigh_fl v X L mu -> argsort_fl v asort -> neg_rev v -> 0 <= mu ->
  let l := (k + over)%N in
  (0 < k)%N -> (l <= n)%N -> (l <= b)%N -> (if tol is Some t then ole o0 (odiv t (onat 2)) else true) ->
  shaped n n A -> fl_uncorrelated v E r n l -> fl_normal4 v E r n l ->
  mval v n n A = W *m diag_mx t^T *m W^T -> orthonormal W -> (rk <= q)%N ->
  0 < e < 1 -> 0 < th -> 0 < tp ->
  exists B : G -> bool, E (fun g => (~~ B g)%:R) <= (rk * rk + rk)%:R / (l%:R * e ^+ 2) + rk%:R / (l%:R * th) + tp^-1 /\
  forall g es, B g ->
  let w := Num.sqrt ((1 + th / (1 - e) ^+ 2) * \sum_(i < q | (rk <= i)%N) t i 0 ^+ 2) in
  let w' := Num.sqrt (tp * n%:R / (1 - e)) in
  rsafe X (evd_ok v eta mu (fl_beta eta u n l) u k l (mval v n n A)
             (fl_qb_one eta dl u n n l w w' (fro (mval v n n A))))
    (evd1 L r asort A k%:Z tol over%:Z 2 b%:Z RGen (St g es)).2.
Proof.
move=> h1 h2 h3 h4 h5 h6 h7 h8 h9 h10 h11 l h12 h13 h14 h15 h16 h17 h18 h19 h20 h21 h22 h23 h24.
exact (fl_evd1_prob h1 h2 h3 h4 h5 h6 h7 h8 h9 h10 h11 h12 h13 h14 h15 h16 h17 h18 h19 h20 h21 h22 h23 h24).
Qed.
Print Assumptions C105_evd1_prob.

(** In exact arithmetic the rounding terms of these bounds vanish. *)
Theorem C105_exact (R : rcfType) n c : fl_beta 0 0 n c = 0 :> R /\ fl_evd 0 0 0 0 n c = 0 :> R.
Proof. exact (evd_const_zero R n c). Qed.
Print Assumptions C105_exact.

(** An arithmetic in which no addition is exact, with an inexact QR and an inexact eigensolver, meets the
    hypotheses. *)
Example C105_hyps (R : rcfType) (u eta mu : R) : 0 <= u < 1 -> 0 < u -> 0 < eta -> 0 < mu ->
  let O := bent_ops u in let E := @ga_mean R 8 8 in let r := ga_rng R 8 8 in
  [/\ fl_arith O id u /\ @oadd R O 1 1 <> 2%:R,
      [/\ @lap_shapes R O (fun _ => False) (bent_evd eta mu), @qr_fl R R O id (fun _ => False) (bent_evd eta mu) eta 0 &
          @eigh_fl R R O id (fun _ => False) (bent_evd eta mu) mu],
      ~ eigh_spec (bent_evd eta mu),
      @argsort_fl R R O id (@sort_idx R) /\ @neg_rev R R O id &
      [/\ mean E, positive E, @rng_ok _ R O r, @fl_uncorrelated R R O _ id E r 8 8 & @fl_normal4 R R O _ id E r 8 8]].
Proof. move=> h1 h2 h3 h4; exact (evd_wit h1 h2 h3 h4). Qed.
