(** Property C108: the Cholesky factorisation and the Nystrom eigendecomposition in rounded arithmetic.  Scalar
    operations have a relative error of at most u ([fl_arith]), QR a backward error ([qr_fl]), LAPACK's SVD is
    within mu of an exact decomposition ([svd_fl]); the Cholesky factorisation and the triangular solve are the
    model's loops, run in the rounded arithmetic.  The statements are about the arrays returned ([chol_ok],
    [nys_ok]). *)
From mathcomp Require Import all_ssreflect all_algebra.
From Verif Require Import Base Arr Lapack Exact MxLib LapackSpec LapackExists Rng Aware RangeFinders QB SvdEvd Shape Inexact Float FloatEvd FloatNys.
From Verif Require Import P_Float5 P_Embed3 P_Float7 P_Float10 P_Float11 P_Float17 P_Float20.
Set Implicit Arguments.
Unset Strict Implicit.
Unset Printing Implicit Defensive.
Import Order.TTheory GRing.Theory Num.Theory.
Local Open Scope ring_scope.

(** A Cholesky factor, if returned, is lower triangular with a positive diagonal and reproduces the matrix given by
    the lower triangle up to a relative residual. *)
Theorem C108_cholesky (R : rcfType) (T : Type) (O : ops T) (v : T -> R) (u : R) (X : exn -> Prop) n (C : arr T) :
  fl_arith O v u -> X LinAlgError -> shaped n n C -> rsafe X (chol_ok v u n C) (cholesky C).
Proof. move=> h1 h2 h3; exact (fl_cholesky h1 h2 h3). Qed.
Print Assumptions C108_cholesky.

(** EVD2 over any row sketcher (PS is what is known of its answer). *)
Theorem C108_EVD2 (R : rcfType) (T : Type) (O : ops T) (G : Type) (v : T -> R) (u mu : R) (X : exn -> Prop)
    (L : lapack T) n k (over : int) (A : arr T) (sk_op : @rowsketcher T G)
    (PS : 'M[R]_(n, absz (k%:Z + over)) -> Prop) (s : st G T) :
  fl_arith O v u -> svd_fl v X L mu -> 0 <= mu -> X LinAlgError -> (0 < k < n)%N -> 0 <= over ->
  shaped n n A -> (mval v n n A)^T = mval v n n A -> let p := absz (k%:Z + over) in
  rsafe X (fun S => exists2 D, S = PyArr D & shaped n p D /\ PS (mval v n p D)) (sk_op A p s).2 ->
  rsafe X (fun x => exists2 S, PS S & nys_ok v u mu k (mval v n n A) S x) (EVD2 L sk_op A k%:Z None over s).2.
Proof. move=> h1 h2 h3 h4 h5 h6 h7 h8 p h9; exact (fl_EVD2_sk h1 h2 h3 h4 h5 h6 h7 h8 h9). Qed.
Print Assumptions C108_EVD2.

(** The driver evd2 with np + 1 passes: the sketch is the result of np rounded steps of the power method started from
    the Gaussian drawn. *)
Theorem C108_evd2 (R : rcfType) (T : Type) (O : ops T) (G : Type) (v : T -> R) (u mu eta dl : R) (X : exn -> Prop)
    (L : lapack T) (r : rng_ops G T) n k (over : int) (A : arr T) np g es :
  fl_arith O v u -> svd_fl v X L mu -> 0 <= mu -> X LinAlgError -> (0 < k < n)%N -> 0 <= over ->
  shaped n n A -> (mval v n n A)^T = mval v n n A -> rng_ok r ->
  qr_fl v X L eta dl -> 0 <= eta < 1 -> 0 <= dl -> let p := absz (k%:Z + over) in (p <= n)%N ->
  rsafe X (fun x => exists2 S, pow_chain eta (fl_sketch dl u n) (mval v n n A)
                                 (mval v n p (r_normal r g (@gscale T O n p) n p).2) np S &
                               nys_ok v u mu k (mval v n n A) S x)
    (evd2 L r A k%:Z over np.+1%:Z RGen (St g es)).2.
Proof.
move=> h1 h2 h3 h4 h5 h6 h7 h8 h9 h10 h11 h12 p h13; exact (fl_evd2 h1 h2 h3 h4 h5 h6 h7 h8 h9 h10 h11 h12 h13 np g es).
Qed.
Print Assumptions C108_evd2.

(** With one pass there is no power step: the sketch is the Gaussian drawn, and may have any number of columns. *)
Theorem C108_evd2_one (R : rcfType) (T : Type) (O : ops T) (G : Type) (v : T -> R) (u mu : R) (X : exn -> Prop)
    (L : lapack T) (r : rng_ops G T) n k (over : int) (A : arr T) g es :
  fl_arith O v u -> svd_fl v X L mu -> 0 <= mu -> X LinAlgError -> (0 < k < n)%N -> 0 <= over ->
  shaped n n A -> (mval v n n A)^T = mval v n n A -> rng_ok r -> let p := absz (k%:Z + over) in
  rsafe X (nys_ok v u mu k (mval v n n A) (mval v n p (r_normal r g (@gscale T O n p) n p).2))
    (evd2 L r A k%:Z over 1 RGen (St g es)).2.
Proof. move=> h1 h2 h3 h4 h5 h6 h7 h8 h9 p; exact (fl_evd2_one h1 h2 h3 h4 h5 h6 h7 h8 h9 g es). Qed.
Print Assumptions C108_evd2_one.

(** The coefficients the bound speaks of exist as soon as K = S^T (A + nu I) S is coercive. *)
Theorem C108_coefficients (R : rcfType) n p (K : 'M[R]_p) (Y : 'M[R]_(n, p)) kap : 0 < kap ->
  (forall w : 'cV[R]_p, kap * fro2 w <= \tr (w^T *m K *m w)) -> exists Z : 'M[R]_(p, n), K *m Z = Y^T.
Proof. move=> h1 h2; exact (nys_coeff Y h1 h2). Qed.
Print Assumptions C108_coefficients.

(** In exact arithmetic the condition of the bound is that K is positive definite, and the rounding terms vanish. *)
Theorem C108_exact (R : rcfType) n p (a nu sg y kap ze : R) :
  fl_chol 0 p = 0 :> R /\ (0 < kap -> ny_cond 0 n p a nu sg y kap /\ ny_err 0 0 n p a nu sg y kap ze = 0 /\
    ny_rnd 0 0 n p a nu sg y kap = 0).
Proof. exact (nys_const_zero n p a nu sg y kap ze). Qed.
Print Assumptions C108_exact.

(** An arithmetic in which no addition is exact, with an inexact QR and SVD, meets the hypotheses. *)
Example C108_hyps (R : rcfType) (u eta mu : R) : 0 <= u < 1 -> 0 < u -> 0 < eta -> 0 < mu ->
  let O := bent_ops u in let X := fun e => e = LinAlgError in let L := bent_svd eta mu in
  [/\ fl_arith O id u /\ @oadd R O 1 1 <> 2%:R, @qr_fl R R O id X L eta 0, @svd_fl R R O id X L mu /\ ~ svd_spec L &
      @rng_ok _ R O (ga_rng R 8 8)].
Proof. move=> h1 h2 h3 h4; exact (nys_wit h1 h2 h3 h4). Qed.
