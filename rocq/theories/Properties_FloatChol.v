(** Property C109: when the Cholesky factorisations of the library succeed in rounded arithmetic.  Scalar operations
    have a relative error of at most u ([fl_arith]).  A factorisation can raise LinAlgError only if the matrix is not
    positive definite by a margin that the rounding errors cannot consume ([ny_def], [gr_def]). *)
From mathcomp Require Import all_ssreflect all_algebra.
From Verif Require Import Base Arr Lapack Exact MxLib LapackSpec Rng Aware RangeFinders QB SvdEvd LstSq Drivers Shape Inexact Float FloatEvd FloatNys.
From Verif Require Import P_Inexact4 P_Float7 P_Float5 P_Float21 P_Float23 P_Float25.
Set Implicit Arguments.
Unset Strict Implicit.
Unset Printing Implicit Defensive.
Import Order.TTheory GRing.Theory Num.Theory.
Local Open Scope ring_scope.

(** The Cholesky factorisation of a matrix whose eigenvalues are at least kap succeeds if kap is large enough. *)
Theorem C109_cholesky (R : rcfType) (T : Type) (O : ops T) (v : T -> R) (u : R) n (C : arr T) kap :
  fl_arith O v u -> 0 <= kap -> fl_chol u n < 1 ->
  (forall w : 'cV[R]_n, kap * fro2 w <= \tr (w^T *m lowval v n C *m w)) ->
  2%:R * fl_chol u n * \tr (lowval v n C) < (1 - fl_chol u n) * kap -> shaped n n C ->
  exists2 Lo, cholesky C = Ok Lo & chol_ok v u n C Lo.
Proof. move=> h1 h2 h3 h4 h5 h6; exact (fl_cholesky_ok h1 h2 h3 h4 h5 h6). Qed.
Print Assumptions C109_cholesky.

(** EVD2 over any row sketcher: LAPACK's SVD and the sketcher apart, it raises nothing but LinAlgError, and that only
    if K = S^T (A + nu I) S is not safely positive definite for the shift nu it computed. *)
Theorem C109_EVD2 (R : rcfType) (T : Type) (O : ops T) (G : Type) (v : T -> R) (u mu : R) (X : exn -> Prop)
    (L : lapack T) n k (over : int) (A : arr T) (sk_op : @rowsketcher T G)
    (PS : 'M[R]_(n, absz (k%:Z + over)) -> Prop) (s : st G T) :
  fl_arith O v u -> svd_fl v X L mu -> (0 < k < n)%N -> 0 <= over ->
  shaped n n A -> (mval v n n A)^T = mval v n n A -> let p := absz (k%:Z + over) in
  rsafe X (fun S => exists2 D, S = PyArr D & shaped n p D /\ PS (mval v n p D)) (sk_op A p s).2 ->
  rsafe (fun e => X e \/ e = LinAlgError /\ exists2 S, PS S & nys_fail v u (mval v n n A) S) (fun _ => True)
    (EVD2 L sk_op A k%:Z None over s).2.
Proof. move=> h1 h2 h3 h4 h5 h6 p h7; exact (fl_EVD2_sk_fail h1 h2 h3 h4 h5 h6 h7). Qed.
Print Assumptions C109_EVD2.

(** The driver evd2 with np + 1 passes. *)
Theorem C109_evd2 (R : rcfType) (T : Type) (O : ops T) (G : Type) (v : T -> R) (u mu eta dl : R) (X : exn -> Prop)
    (L : lapack T) (r : rng_ops G T) n k (over : int) (A : arr T) np g es :
  fl_arith O v u -> svd_fl v X L mu -> (0 < k < n)%N -> 0 <= over ->
  shaped n n A -> (mval v n n A)^T = mval v n n A -> rng_ok r ->
  qr_fl v X L eta dl -> 0 <= eta < 1 -> 0 <= dl -> let p := absz (k%:Z + over) in (p <= n)%N ->
  rsafe (fun e => X e \/ e = LinAlgError /\
           exists2 S, pow_chain eta (fl_sketch dl u n) (mval v n n A)
                        (mval v n p (r_normal r g (@gscale T O n p) n p).2) np S &
                      nys_fail v u (mval v n n A) S)
    (fun _ => True) (evd2 L r A k%:Z over np.+1%:Z RGen (St g es)).2.
Proof.
move=> h1 h2 h3 h4 h5 h6 h7 h8 h9 h10 p h11; exact (fl_evd2_fail h1 h2 h3 h4 h5 h6 h7 np g es h8 h9 h10 h11).
Qed.
Print Assumptions C109_evd2.

(** One pass: the sketch is the Gaussian drawn, of any width. *)
Theorem C109_evd2_one (R : rcfType) (T : Type) (O : ops T) (G : Type) (v : T -> R) (u mu : R) (X : exn -> Prop)
    (L : lapack T) (r : rng_ops G T) n k (over : int) (A : arr T) g es :
  fl_arith O v u -> svd_fl v X L mu -> (0 < k < n)%N -> 0 <= over ->
  shaped n n A -> (mval v n n A)^T = mval v n n A -> rng_ok r -> let p := absz (k%:Z + over) in
  rsafe (fun e => X e \/ e = LinAlgError /\
           nys_fail v u (mval v n n A) (mval v n p (r_normal r g (@gscale T O n p) n p).2))
    (fun _ => True) (evd2 L r A k%:Z over 1 RGen (St g es)).2.
Proof. move=> h1 h2 h3 h4 h5 h6 h7 p; exact (fl_evd2_one_fail h1 h2 h3 h4 h5 h6 h7 g es). Qed.
Print Assumptions C109_evd2_one.

(** The Cholesky mode of SPO's factorisation step, whatever LAPACK does: it never raises on a sketch that is safely of
    full rank (or safely regularised), and R is then a rounded square root of sketch' sketch + dl I. *)
Theorem C109_spo (R : rcfType) (T : Type) (O : ops T) (v : T -> R) (u : R) (L : lapack T) d n m (As B : arr T) (dl : T)
    (S : pyop T) (b : seq T) kap :
  fl_arith O v u -> shaped d n As -> 0 <= v dl -> S = PyArr B \/ S = PySp B -> shaped d m B -> size b = m ->
  let A := mval v d n As in
  (forall w : 'cV[R]_n, kap * fro2 w <= fro2 (A *m w) + v dl * fro2 w) -> gr_def u d n (fro2 A) (v dl) kap ->
  rsafe (fun _ => False) (fun x => [/\ tri_pre_ok v u A (v dl) x.1.1, size x.1.2 = n & size x.2 = n])
    (spo_factor L MChol S As b dl d n).
Proof. move=> h1 h2 h3 h4 h5 h6 A h7 h8; exact (fl_spo_chol h1 h2 h3 L h4 h5 h6 h7 h8). Qed.
Print Assumptions C109_spo.

(** A whole call of SPO in Cholesky mode, whatever LAPACK does and whatever the sketching operator: the operator's own
    exceptions apart (and those of NaNs and of the log, see C97), it raises nothing but LinAlgError, and that only if
    the sketch it computed is not safely of full rank (or safely regularised).  In particular no triangular solve
    raises.  Otherwise it returns n numbers and a log of at most [it] iterations. *)
Theorem C109_spo_call (R : rcfType) (T : Type) (O : ops T) (G : Type) (v : T -> R) (u : R) (X : exn -> Prop)
    (L : lapack T) (gen : nat -> nat -> M G T (pyop T)) (PS : nat -> pyop T -> Prop) m n (A : arr T) (dl : T)
    (sf : rat) (b : seq T) (tol : T) (it : int) (lg : bool) clk :
  fl_arith O v u -> shaped m n A -> 0 <= v dl ->
  (forall d, (0 < d)%N -> safe X (fun S => (exists2 B, S = PyArr B \/ S = PySp B & shaped d m B) /\ PS d S) (gen d m)) ->
  X Unmodelled -> (lg -> X ValueError) -> (0 < n <= m)%N -> sf_ok sf n -> size b = m -> 0 <= it ->
  safe (fun e => X e \/ e = LinAlgError /\ exists d S B,
          [/\ (n <= d <= m)%N, PS d S, S = PyArr B \/ S = PySp B, shaped d m B &
              spo_fail u (mval v d m B) (mval v m n A) (v dl)])
    (fun xl => size xl.1 = n /\ log_le lg it xl.2) (SPO L gen sf MChol A b dl tol it lg clk).
Proof.
move=> h1 h2 h3 h4 h5 h6 h7 h8 h9 h10.
exact (fl_SPO_chol_fail h1 h2 h3 (X := X) L (gen := gen) (PS := PS) h4 tol clk h5 h6 h7 h8 h9 h10).
Qed.
Print Assumptions C109_spo_call.

(** The QR mode, with a QR factorisation of backward error qd whose second factor is triangular: LinAlgError only if the
    lifted sketch has a singular value of the size of the rounding errors. *)
Theorem C109_spo_qr (R : rcfType) (T : Type) (O : ops T) (G : Type) (v : T -> R) (u eta qd : R) (X : exn -> Prop)
    (L : lapack T) (gen : nat -> nat -> M G T (pyop T)) (PS : nat -> pyop T -> Prop) m n (A : arr T) (dl : T)
    (sf : rat) (b : seq T) (tol : T) (it : int) (lg : bool) clk :
  fl_arith O v u -> shaped m n A -> 0 <= v dl ->
  (forall d, (0 < d)%N -> safe X (fun S => (exists2 B, S = PyArr B \/ S = PySp B & shaped d m B) /\ PS d S) (gen d m)) ->
  qr_fl v X L eta qd -> qr_tri v L -> 0 <= qd ->
  X Unmodelled -> (lg -> X ValueError) -> (0 < n <= m)%N -> sf_ok sf n -> size b = m -> 0 <= it ->
  safe (fun e => X e \/ e = LinAlgError /\ exists d S B,
          [/\ (n <= d <= m)%N, PS d S, S = PyArr B \/ S = PySp B, shaped d m B &
              spo_qr_fail u qd (mval v d m B) (mval v m n A) (v dl)])
    (fun xl => size xl.1 = n /\ log_le lg it xl.2) (SPO L gen sf MQr A b dl tol it lg clk).
Proof.
move=> h1 h2 h3 h4 g1 g2 g3 h5 h6 h7 h8 h9 h10.
exact (fl_SPO_qr_fail h1 h2 h3 (X := X) (L := L) (gen := gen) (PS := PS) h4 g1 g2 tol clk h5 h6 g3 h7 h8 h9 h10).
Qed.
Print Assumptions C109_spo_qr.

(** The driver spo3 in either triangular mode; S is an operator that SkOpSJ can return. *)
Theorem C109_spo3_chol (R : rcfType) (T : Type) (O : ops T) (G : Type) (v : T -> R) (u : R) (X : exn -> Prop)
    (L : lapack T) (r : rng_ops G T) m n (A : arr T) (dl : T) (b : seq T) (tol : T) (it : int) (a : rngarg) (sf : rat)
    (nnz : nat) clk :
  fl_arith O v u -> shaped m n A -> 0 <= v dl -> X Unmodelled -> X ValueError -> (0 < n <= m)%N -> sf_ok sf n ->
  size b = m -> 0 <= it ->
  safe (fun e => X e \/ e = LinAlgError /\ exists d S B,
      [/\ (n <= d <= m)%N, exists s, (skopSJ r nnz d m s).2 = Ok S, S = PyArr B \/ S = PySp B, shaped d m B &
          spo_fail u (mval v d m B) (mval v m n A) (v dl)])
    (fun xl => size xl.1 = n /\ log_le true it xl.2) (spo3 L r A b dl tol it a sf nnz MChol clk).
Proof. move=> h1 h2 h3 h4 h5 h6 h7 h8 h9; exact (fl_spo3_chol L r h1 tol a nnz clk h2 h3 h4 h5 h6 h7 h8 h9). Qed.
Print Assumptions C109_spo3_chol.
Theorem C109_spo3_qr (R : rcfType) (T : Type) (O : ops T) (G : Type) (v : T -> R) (u eta qd : R) (X : exn -> Prop)
    (L : lapack T) (r : rng_ops G T) m n (A : arr T) (dl : T) (b : seq T) (tol : T) (it : int) (a : rngarg) (sf : rat)
    (nnz : nat) clk :
  fl_arith O v u -> shaped m n A -> 0 <= v dl -> X Unmodelled -> X ValueError -> (0 < n <= m)%N -> sf_ok sf n ->
  size b = m -> 0 <= it -> qr_fl v X L eta qd -> qr_tri v L -> 0 <= qd ->
  safe (fun e => X e \/ e = LinAlgError /\ exists d S B,
      [/\ (n <= d <= m)%N, exists s, (skopSJ r nnz d m s).2 = Ok S, S = PyArr B \/ S = PySp B, shaped d m B &
          spo_qr_fail u qd (mval v d m B) (mval v m n A) (v dl)])
    (fun xl => size xl.1 = n /\ log_le true it xl.2) (spo3 L r A b dl tol it a sf nnz MQr clk).
Proof.
move=> h1 h2 h3 h4 h5 h6 h7 h8 h9 g1 g2 g3; exact (fl_spo3_qr r h1 tol a nnz clk h2 h3 h4 h5 h6 h7 h8 h9 g1 g2 g3).
Qed.
Print Assumptions C109_spo3_qr.

(** A QR factorisation that is not exact meets the contract. *)
Example C109_qr_hyps (R : rcfType) (u eta : R) : 0 <= u < 1 -> 0 < u -> 0 < eta ->
  @qr_fl R R (bent_ops u) id (fun _ => False) (bent_lapack eta) eta 0 /\ @qr_tri R R (bent_ops u) id (bent_lapack eta).
Proof. move=> h1 h2 h3; split; [by have [_ _ [_ h _] _ _] := float_wit h1 h2 h3|exact: bent_qr_tri]. Qed.

(** The hypotheses of [C109_spo_call] hold of an inexact arithmetic and the operator of ones. *)
Example C109_call_hyps (R : rcfType) (u : R) (L : lapack R) (tol : R) clk : 0 < u -> 100%:R * u <= 1 ->
  let O := bent_ops u in let A := @mk R 1 1 (fun _ _ => 1) in
  safe (fun e => e = Unmodelled \/ e = LinAlgError /\ exists d (S : pyop R) B,
          [/\ (1 <= d <= 1)%N, S = PyArr (@mk R d 1 (fun _ _ => 1)), S = PyArr B \/ S = PySp B, @shaped R O d 1 B &
              spo_fail u (@mval R R O id d 1 B) (@mval R R O id 1 1 A) 0])
    (fun xl => size xl.1 = 1%N /\ log_le false 5 xl.2)
    (@SPO R O unit L (fun d m => ret (PyArr (@mk R d m (fun _ _ => 1)))) 3%:R MChol A [:: 1] 0 tol 5 false clk).
Proof. move=> h1 h2; exact (spo_call_wit L tol clk h1 h2). Qed.

(** In exact arithmetic the margins are positive definiteness itself. *)
Theorem C109_exact (R : rcfType) n p d (a nu sg y kap s2 dl : R) :
  [/\ fl_chol 0 n = 0 :> R, ny_def 0 n p a nu sg y kap = (0 < kap), gr_err 0 d n s2 dl = 0 &
      gr_def 0 d n s2 dl kap = (0 < kap)].
Proof. exact (chol_const_zero n p d a nu sg y kap s2 dl). Qed.
Print Assumptions C109_exact.

(** An arithmetic in which no addition is exact, and a sketch that is safely of full rank in it. *)
Example C109_hyps (R : rcfType) (u : R) : 0 < u -> 100%:R * u <= 1 ->
  let O := bent_ops u in let As := @mk R 1 1 (fun _ _ => 1) in
  [/\ fl_arith O id u /\ @oadd R O 1 1 <> 2%:R, @shaped R O 1 1 As,
      forall w : 'cV[R]_1, 1 * fro2 w <= fro2 (@mval R R O id 1 1 As *m w) + 0 * fro2 w &
      gr_def u 1 1 (fro2 (@mval R R O id 1 1 As)) 0 1].
Proof. move=> h1 h2; exact (chol_wit h1 h2). Qed.
