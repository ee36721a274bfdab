(** Property C107: triangular solves and the interpolative decompositions in rounded arithmetic.  Scalar
    operations have a relative error of at most u ([fl_arith]), QR with pivoting a backward error ([qrp_fl]),
    lstsq is within 1 + tau of the least residual ([lstsqs_fl]); any of them may instead raise an exception
    in X.  The statements are about the arrays and index vectors returned. *)
From mathcomp Require Import all_ssreflect all_algebra.
From Verif Require Import Base Arr Lapack Exact MxLib LapackSpec LapackExists Rng Aware RangeFinders QB Interp Shape Inexact Float FloatInterp.
From Verif Require Import P_Shape P_Embed3 P_Float5 P_Float7 P_Float14 P_Float15 P_Float16.
Set Implicit Arguments.
Unset Strict Implicit.
Unset Printing Implicit Defensive.
Import Order.TTheory GRing.Theory Num.Theory.
Local Open Scope ring_scope.

(** la.solve_triangular by substitution, all four variants: LinAlgError, or a solution with a residual of
    order n u relative to the product of the norms, whatever the condition number. *)
Theorem C107_solve_tri (R : rcfType) (T : Type) (O : ops T) (v : T -> R) (u : R) (X : exn -> Prop) lower trans n p
    (U B : arr T) : fl_arith O v u -> X LinAlgError -> shaped n n U -> shaped n p B ->
  rsafe X (fun Z => shaped n p Z /\
    fro (mval v n p B - tri_val v lower trans n U *m mval v n p Z) <=
    fl_tri u n * (fro (tri_val v lower trans n U) * fro (mval v n p Z))) (solve_tri lower trans U B).
Proof. move=> h1 h2 h3 h4; exact (fl_solve_tri h1 lower trans h2 h3 h4). Qed.
Print Assumptions C107_solve_tri.

(** qrcp_osid: the chosen columns (rows) are reproduced exactly, and the error is compared with that of any
    other interpolation matrix on the same columns (rows). *)
Theorem C107_qrcp_osid (R : rcfType) (T : Type) (O : ops T) (v : T -> R) (u : R) (X : exn -> Prop) (L : lapack T)
    (eta dl : R) m n k (Y : arr T) : fl_arith O v u -> qrp_fl v X L eta dl -> 0 <= eta < 1 -> X LinAlgError ->
  (0 < k)%N -> (k <= minn m n)%N -> shaped m n Y ->
  rsafe X (id_ok v eta dl u m n k Y) (qrcp_osid L Y k 1) /\ rsafe X (rid_ok v eta dl u m n k Y) (qrcp_osid L Y k 0).
Proof. move=> h1 h2 h3 h4 h5 h6 h7; exact (fl_qrcp_osid h1 h2 h3 h4 h5 h6 h7). Qed.
Print Assumptions C107_qrcp_osid.

(** OSID1 over any sketching object (PS is whatever is known of its sketch). *)
Theorem C107_OSID1_col (R : rcfType) (T : Type) (O : ops T) (G : Type) (v : T -> R) (u : R) (X : exn -> Prop)
    (L : lapack T) (eta dl : R) (sk : @rowsketcher T G) m n k (over : int) (A : arr T) (s : st G T)
    (PS : 'M[R]_(m, absz (k%:Z + over)) -> Prop) :
  fl_arith O v u -> qrp_fl v X L eta dl -> 0 <= eta < 1 -> 0 <= dl -> X LinAlgError ->
  (0 < k)%N -> 0 <= over -> k%:Z + over <= (minn m n)%:Z -> shaped m n A ->
  let c := absz (k%:Z + over) in
  rsafe X (fun S => exists2 B, S = PyArr B & shaped m c B /\ PS (mval v m c B)) (sk (mtr A) c s).2 ->
  rsafe X (fun XJ => exists2 S, PS S & osid_cols v eta dl u n k A S XJ) (OSID1 L sk A k over 1 s).2.
Proof. move=> h1 h2 h3 h4 h5 h6 h7 h8 h9 c h10; exact (fl_osid_cols h1 h2 h3 h4 h5 h6 h7 h8 h9 h10). Qed.
Print Assumptions C107_OSID1_col.

Theorem C107_OSID1_row (R : rcfType) (T : Type) (O : ops T) (G : Type) (v : T -> R) (u : R) (X : exn -> Prop)
    (L : lapack T) (eta dl : R) (sk : @rowsketcher T G) m n k (over : int) (A : arr T) (s : st G T)
    (PS : 'M[R]_(n, absz (k%:Z + over)) -> Prop) :
  fl_arith O v u -> qrp_fl v X L eta dl -> 0 <= eta < 1 -> 0 <= dl -> X LinAlgError ->
  (0 < k)%N -> 0 <= over -> k%:Z + over <= (minn m n)%:Z -> shaped m n A ->
  let c := absz (k%:Z + over) in
  rsafe X (fun S => exists2 B, S = PyArr B & shaped n c B /\ PS (mval v n c B)) (sk A c s).2 ->
  rsafe X (fun ZI => exists2 S, PS S & osid_rows v eta dl u m k A S ZI) (OSID1 L sk A k over 0 s).2.
Proof. move=> h1 h2 h3 h4 h5 h6 h7 h8 h9 c h10; exact (fl_osid_rows h1 h2 h3 h4 h5 h6 h7 h8 h9 h10). Qed.
Print Assumptions C107_OSID1_row.

(** osid1 with p = 1: the sketch is the Gaussian matrix drawn. *)
Theorem C107_osid1 (R : rcfType) (T : Type) (O : ops T) (G : Type) (v : T -> R) (u : R) (X : exn -> Prop)
    (L : lapack T) (r : rng_ops G T) (eta dl : R) m n k (over : int) (A : arr T) (g : G) es :
  fl_arith O v u -> qrp_fl v X L eta dl -> 0 <= eta < 1 -> 0 <= dl -> X LinAlgError -> rng_ok r ->
  (0 < k)%N -> 0 <= over -> k%:Z + over <= (minn m n)%:Z -> shaped m n A ->
  let c := absz (k%:Z + over) in let S d := mval v d c (r_normal r g (gscale d c) d c).2 in
  rsafe X (osid_cols v eta dl u n k A (S m)) (osid1 L r A k over 1 1 RGen (St g es)).2 /\
  rsafe X (osid_rows v eta dl u m k A (S n)) (osid1 L r A k over 1 0 RGen (St g es)).2.
Proof.
move=> h1 h2 h3 h4 h5 h6 h7 h8 h9 h10 c S.
exact (conj (fl_osid1_cols h1 h2 h3 h4 h5 h6 g es h7 h8 h9 h10) (fl_osid1_rows h1 h2 h3 h4 h5 h6 g es h7 h8 h9 h10)).
Qed.
Print Assumptions C107_osid1.

(** OSID2: within 1 + tau of the least error for the columns (rows) it chose. *)
Theorem C107_OSID2_col (R : rcfType) (T : Type) (O : ops T) (G : Type) (v : T -> R) (X : exn -> Prop)
    (L : lapack T) (tau : R) (sk : @rowsketcher T G) m n k (over c : int) (A : arr T) (s : st G T) :
  lap_shapes X L -> lstsqs_fl v X L tau -> (0 < k)%N -> (k <= minn m n)%N -> shaped m n A -> 0 < c -> k%:Z + over = c ->
  rsafe X (shop m (absz c)) (sk (mtr A) (absz c) s).2 ->
  rsafe X (fun XJ => [/\ shaped k n XJ.1, skel n k XJ.2 & forall W : 'M[R]_(k, n),
    fro (mval v m n A - cols_at v m k A XJ.2 *m mval v k n XJ.1) <=
    (1 + tau) * fro (mval v m n A - cols_at v m k A XJ.2 *m W)]) (OSID2 L sk A k over 1 s).2.
Proof. move=> h1 h2 h3 h4 h5 h6 h7 h8; exact (fl_osid2_cols h1 h2 h3 h4 h5 h6 h7 h8). Qed.
Print Assumptions C107_OSID2_col.

Theorem C107_OSID2_row (R : rcfType) (T : Type) (O : ops T) (G : Type) (v : T -> R) (X : exn -> Prop)
    (L : lapack T) (tau : R) (sk : @rowsketcher T G) m n k (over c : int) (A : arr T) (s : st G T) :
  lap_shapes X L -> lstsqs_fl v X L tau -> (0 < k)%N -> (k <= minn m n)%N -> shaped m n A -> 0 < c -> k%:Z + over = c ->
  rsafe X (shop n (absz c)) (sk A (absz c) s).2 ->
  rsafe X (fun ZI => [/\ shaped m k ZI.1, skel m k ZI.2 & forall W : 'M[R]_(m, k),
    fro (mval v m n A - mval v m k ZI.1 *m rows_at v k n A ZI.2) <=
    (1 + tau) * fro (mval v m n A - W *m rows_at v k n A ZI.2)]) (OSID2 L sk A k over 0 s).2.
Proof. move=> h1 h2 h3 h4 h5 h6 h7 h8; exact (fl_osid2_rows h1 h2 h3 h4 h5 h6 h7 h8). Qed.
Print Assumptions C107_OSID2_row.

(** TSID1 over any one-sided ID (P is whatever is known of its answer). *)
Theorem C107_TSID1_tall (R : rcfType) (T : Type) (O : ops T) (G : Type) (v : T -> R) (u : R) (X : exn -> Prop)
    (L : lapack T) (eta dl : R) (osid : @osid_t T G) m n k (over : int) (A : arr T) (s : st G T)
    (P : arr T * seq nat -> Prop) :
  fl_arith O v u -> qrp_fl v X L eta dl -> 0 <= eta < 1 -> 0 <= dl -> X LinAlgError ->
  (0 < k)%N -> (k <= minn m n)%N -> shaped m n A -> (n < m)%N ->
  rsafe X (fun XJ => [/\ shaped k n XJ.1, skel n k XJ.2 & P XJ]) (osid A k over 1 s).2 ->
  rsafe X (fun x => let Z := x.1.1.1 in let I := x.1.1.2 in let Y := x.1.2 in let J := x.2 in
    [/\ P (Y, J), shaped m k Z /\ shaped k n Y, skel m k I /\ skel n k J, rows_at v k k Z I = 1%:M &
        forall W : 'M[R]_(m, k), fro (mval v m n A - mval v m k Z *m core_at v k A I J *m mval v k n Y) <=
          fro (mval v m n A - cols_at v m k A J *m mval v k n Y) +
          (Num.sqrt (1 + eta) / Num.sqrt (1 - eta) * fro (cols_at v m k A J - W *m core_at v k A I J) +
           fl_id eta dl u k (fro (mval v m k Z)) (fro W) * fro (cols_at v m k A J)) * fro (mval v k n Y)])
    (TSID1 L osid A k over s).2.
Proof. move=> h1 h2 h3 h4 h5 h6 h7 h8 h9 h10; exact (fl_tsid_tall h1 h2 h3 h4 h5 h6 h7 h8 h9 h10). Qed.
Print Assumptions C107_TSID1_tall.

Theorem C107_TSID1_wide (R : rcfType) (T : Type) (O : ops T) (G : Type) (v : T -> R) (u : R) (X : exn -> Prop)
    (L : lapack T) (eta dl : R) (osid : @osid_t T G) m n k (over : int) (A : arr T) (s : st G T)
    (P : arr T * seq nat -> Prop) :
  fl_arith O v u -> qrp_fl v X L eta dl -> 0 <= eta < 1 -> 0 <= dl -> X LinAlgError ->
  (0 < k)%N -> (k <= minn m n)%N -> shaped m n A -> (m <= n)%N ->
  rsafe X (fun ZI => [/\ shaped m k ZI.1, skel m k ZI.2 & P ZI]) (osid A k over 0 s).2 ->
  rsafe X (fun x => let Z := x.1.1.1 in let I := x.1.1.2 in let Y := x.1.2 in let J := x.2 in
    [/\ P (Z, I), shaped m k Z /\ shaped k n Y, skel m k I /\ skel n k J, cols_at v k k Y J = 1%:M &
        forall W : 'M[R]_(k, n), fro (mval v m n A - mval v m k Z *m core_at v k A I J *m mval v k n Y) <=
          fro (mval v m n A - mval v m k Z *m rows_at v k n A I) +
          fro (mval v m k Z) * (Num.sqrt (1 + eta) / Num.sqrt (1 - eta) * fro (rows_at v k n A I - core_at v k A I J *m W) +
           fl_id eta dl u k (fro (mval v k n Y)) (fro W) * fro (rows_at v k n A I))])
    (TSID1 L osid A k over s).2.
Proof. move=> h1 h2 h3 h4 h5 h6 h7 h8 h9 h10; exact (fl_tsid_wide h1 h2 h3 h4 h5 h6 h7 h8 h9 h10). Qed.
Print Assumptions C107_TSID1_wide.

(** CUR1 over any one-sided ID: its error exceeds that of the ID by what the best linking matrix loses. *)
Theorem C107_CUR1_tall (R : rcfType) (T : Type) (O : ops T) (G : Type) (v : T -> R) (X : exn -> Prop)
    (L : lapack T) (tau : R) (osid : @osid_t T G) m n k (over : int) (A : arr T) (s : st G T)
    (P : arr T * seq nat -> Prop) :
  lap_shapes X L -> lstsqs_fl v X L tau -> (0 < k)%N -> (k <= minn m n)%N -> shaped m n A -> (n < m)%N ->
  rsafe X (fun XJ => [/\ shaped k n XJ.1, skel n k XJ.2 & P XJ]) (osid A k over 1 s).2 ->
  rsafe X (fun x => let J := x.1.1 in let U := x.1.2 in let I := x.2 in
    [/\ shaped k k U, skel m k I /\ skel n k J & exists2 Y, shaped k n Y /\ P (Y, J) &
        forall W : 'M[R]_k, fro (mval v m n A - cols_at v m k A J *m mval v k k U *m rows_at v k n A I) <=
          fro (mval v m n A - cols_at v m k A J *m mval v k n Y) +
          (1 + tau) * fro (cols_at v m k A J) * fro (mval v k n Y - W *m rows_at v k n A I)]) (CUR1 L osid A k over s).2.
Proof. move=> h1 h2 h3 h4 h5 h6 h7; exact (fl_cur_tall h1 h2 h3 h4 h5 h6 h7). Qed.
Print Assumptions C107_CUR1_tall.

Theorem C107_CUR1_wide (R : rcfType) (T : Type) (O : ops T) (G : Type) (v : T -> R) (X : exn -> Prop)
    (L : lapack T) (tau : R) (osid : @osid_t T G) m n k (over : int) (A : arr T) (s : st G T)
    (P : arr T * seq nat -> Prop) :
  lap_shapes X L -> lstsqs_fl v X L tau -> (0 < k)%N -> (k <= minn m n)%N -> shaped m n A -> (m <= n)%N ->
  rsafe X (fun ZI => [/\ shaped m k ZI.1, skel m k ZI.2 & P ZI]) (osid A k over 0 s).2 ->
  rsafe X (fun x => let J := x.1.1 in let U := x.1.2 in let I := x.2 in
    [/\ shaped k k U, skel m k I /\ skel n k J & exists2 Z, shaped m k Z /\ P (Z, I) &
        forall W : 'M[R]_k, fro (mval v m n A - cols_at v m k A J *m mval v k k U *m rows_at v k n A I) <=
          fro (mval v m n A - mval v m k Z *m rows_at v k n A I) +
          (1 + tau) * fro (mval v m k Z - cols_at v m k A J *m W) * fro (rows_at v k n A I)]) (CUR1 L osid A k over s).2.
Proof. move=> h1 h2 h3 h4 h5 h6 h7; exact (fl_cur_wide h1 h2 h3 h4 h5 h6 h7). Qed.
Print Assumptions C107_CUR1_wide.

(** In exact arithmetic the rounding terms of these bounds vanish. *)
Theorem C107_exact (R : rcfType) k (x w : R) : fl_tri 0 k = 0 :> R /\ fl_id 0 0 0 k x w = 0 /\
  forall q (t s a e1 e2 : R), osid_err 0 0 0 q k x w t s a e1 e2 = (1 + x) * e1 + t * e2.
Proof. exact (id_const_zero k x w). Qed.
Print Assumptions C107_exact.

(** An arithmetic in which no addition is exact, with an inexact pivoted QR, meets the hypotheses. *)
Example C107_hyps (R : rcfType) (u eta : R) : 0 <= u < 1 -> 0 <= eta -> 0 < u -> 0 < eta ->
  let O := bent_ops u in let X := fun e => e = LinAlgError in
  [/\ fl_arith O id u /\ @oadd R O 1 1 <> 2%:R, @lap_shapes R O X (bent_id eta),
      @qrp_fl R R O id X (bent_id eta) eta 0 /\ ~ qrp_spec (bent_id eta), @lstsqs_fl R R O id X (bent_id eta) 0 &
      @rng_ok _ R O (ga_rng R 8 8)].
Proof. move=> h1 h2 h3 h4; exact (id_wit h1 h2 h3 h4). Qed.
