(** Property theorems about interpolative and CUR decompositions and the linear
    algebra wrappers.  [colsel A J k] is A[:, J] and [rowsel A I k] is A[I, :]
    for index vectors of length k. *)
From mathcomp Require Import all_ssreflect all_algebra.
From Verif Require Import Base Arr Lapack Exact MxLib LapackSpec LapackExists Rng Aware RangeFinders QB.
From Verif Require Import P_Svd P_Evd3 Sel Interp P_Interp P_Interp2 P_Interp3 Wrappers W_Interp F_Interp P_Interp4.
Set Implicit Arguments.
Unset Strict Implicit.
Unset Printing Implicit Defensive.
Import Order.TTheory GRing.Theory Num.Theory.
Local Open Scope ring_scope.

(** ** C12 (continued): pass counts. *)
Theorem C12_rocs1_passes (T : Type) (O : ops T) (G : Type) (L : lapack T) (r : rng_ops G T)
    A k (over p axis : int) a (s s' : st G T) J :
  rocs1 L r A k over p axis a s = (s', inr J) -> (1 <= p)%R /\
  exists2 l, evs s' = evs s ++ l &
    count (fun e => if e is EvPass _ then true else false) l = absz p.
Proof. exact: rocs1_passes. Qed.
Print Assumptions C12_rocs1_passes.

Theorem C12_osid1_passes (T : Type) (O : ops T) (G : Type) (L : lapack T) (r : rng_ops G T)
    A k (over p axis : int) a (s s' : st G T) X :
  osid1 L r A k over p axis a s = (s', inr X) -> (1 <= p)%R /\
  exists2 l, evs s' = evs s ++ l &
    count (fun e => if e is EvPass _ then true else false) l = absz p.
Proof. exact: osid1_passes. Qed.
Print Assumptions C12_osid1_passes.

Theorem C12_tsid1_passes (T : Type) (O : ops T) (G : Type) (L : lapack T) (r : rng_ops G T)
    A k (over p : int) a (s s' : st G T) X :
  tsid1 L r A k over p a s = (s', inr X) -> (1 <= p)%R /\
  exists2 l, evs s' = evs s ++ l &
    count (fun e => if e is EvPass _ then true else false) l = absz p.
Proof. exact: tsid1_passes. Qed.
Print Assumptions C12_tsid1_passes.

(** osid2 needs one pass more than its [p]. *)
Theorem C12_osid2_one_pass_more (T : Type) (O : ops T) (G : Type) (L : lapack T) (r : rng_ops G T)
    A k (over p axis : int) a (s s' : st G T) X :
  osid2 L r A k over p axis a s = (s', inr X) -> (1 <= p)%R /\
  exists2 l, evs s' = evs s ++ l &
    count (fun e => if e is EvPass _ then true else false) l = (absz p).+1.
Proof. exact: osid2_passes. Qed.
Print Assumptions C12_osid2_one_pass_more.

Theorem C12_osid2_passes_refuted (R : rcfType) (s : st nat R) :
  exists A k (over p axis : int) s' x l,
  [/\ osid2 (exact_lapack R) toy_rng A k over p axis RGen s = (s', inr x), evs s' = evs s ++ l &
      count (fun e => if e is EvPass _ then true else false) l <> absz p].
Proof. exact: osid2_refuted. Qed.
Print Assumptions C12_osid2_passes_refuted.

(** ** C65: cur1 makes one pass fewer than its [p], and cannot be used with p = 1. *)
Theorem C65_cur1_one_pass_fewer (T : Type) (O : ops T) (G : Type) (L : lapack T) (r : rng_ops G T)
    A k (over p : int) a (s s' : st G T) X :
  cur1 L r A k over p a s = (s', inr X) -> (2 <= p)%R /\
  exists2 l, evs s' = evs s ++ l &
    (count (fun e => if e is EvPass _ then true else false) l).+1 = absz p.
Proof. exact: cur1_passes. Qed.
Print Assumptions C65_cur1_one_pass_fewer.

Theorem C65_cur1_single_pass_raises (T : Type) (O : ops T) (G : Type) (L : lapack T) (r : rng_ops G T)
    A k (over p : int) a (s : st G T) :
  (p < 2)%R -> (0 <= k%:Z + over)%R -> (cur1 L r A k over p a s).2 = inl AssertionError.
Proof. exact: cur1_few. Qed.
Print Assumptions C65_cur1_single_pass_raises.

Theorem C65_cur1_passes_refuted (R : rcfType) (s : st nat R) :
  exists A k (over p : int) s' x l,
  [/\ cur1 (exact_lapack R) toy_rng A k over p RGen s = (s', inr x), evs s' = evs s ++ l &
      count (fun e => if e is EvPass _ then true else false) l <> absz p].
Proof. exact: cur1_refuted. Qed.
Print Assumptions C65_cur1_passes_refuted.

(** ** C19: one-sided ID. *)
Theorem C19_qrcp_osid_col (R : rcfType) (L : lapack R) m n (Y : 'M[R]_(m, n)) k :
  qrp_spec L -> (0 < k)%N -> (k <= \rank Y)%N ->
  exists (X : 'M[R]_(k, n)) J,
    [/\ qrcp_osid L (ofmx Y) k 1 = Ok (ofmx X, J),
        size J = k /\ uniq J /\ all (fun j => (j < n)%N) J,
        colsel X J k = 1%:M,
        colsel (colsel Y J k *m X) J k = colsel Y J k &
        \rank Y = k -> Y = colsel Y J k *m X].
Proof. exact: qrcp_col_prop. Qed.
Print Assumptions C19_qrcp_osid_col.

Theorem C19_qrcp_osid_row (R : rcfType) (L : lapack R) m n (Y : 'M[R]_(m, n)) k :
  qrp_spec L -> (0 < k)%N -> (k <= \rank Y)%N ->
  exists (Z : 'M[R]_(m, k)) I,
    [/\ qrcp_osid L (ofmx Y) k 0 = Ok (ofmx Z, I),
        size I = k /\ uniq I /\ all (fun i => (i < m)%N) I,
        rowsel Z I k = 1%:M,
        rowsel (Z *m rowsel Y I k) I k = rowsel Y I k &
        \rank Y = k -> Y = Z *m rowsel Y I k].
Proof. exact: qrcp_row_prop. Qed.
Print Assumptions C19_qrcp_osid_row.

Example C19_qrcp_hyps (R : rcfType) : qrp_spec (exact_lapack R) /\ \rank (S32 R) = 2%N.
Proof. split; [exact: exact_qrp | exact: S32_rank]. Qed.

(** Asking for more columns than the rank is always reported as an exception. *)
Theorem C19_qrcp_osid_deficient (R : rcfType) (L : lapack R) m n (Y : 'M[R]_(m, n)) k :
  qrp_spec L -> (0 < m)%N -> (0 < n)%N -> (0 < k)%N -> (\rank Y < k)%N ->
  exists e e', [/\ qrcp_osid L (ofmx Y) k 1 = Err e, qrcp_osid L (ofmx Y) k 0 = Err e',
    (k <= minn m n)%N -> e = LinAlgError /\ e' = LinAlgError,
    e = LinAlgError \/ e = ValueError & e' = LinAlgError \/ e' = ValueError].
Proof. exact: qrcp_deficient_prop. Qed.
Print Assumptions C19_qrcp_osid_deficient.

Example C19_deficient_hyps (R : rcfType) :
  [/\ (0 < 3)%N, (0 < 2)%N, (\rank (S32 R) < 3)%N & (\rank (0%R : 'M[R]_(3, 2)) < 1)%N].
Proof. by rewrite S32_rank mxrank0. Qed.

Theorem C19_osid1_col (R : rcfType) (G : Type) (L : lapack R) (r : rng_ops G R) m n (A : 'M[R]_(m, n))
    k (over p : int) a (s s' : st G R) XJ :
  qr_spec L -> qrp_spec L -> rng_ok r ->
  (0 < k)%N -> 0 < k%:Z + over -> (absz (k%:Z + over)%R <= minn m n)%N ->
  osid1 L r (ofmx A) k over p 1 a s = (s', inr XJ) ->
  exists (X : 'M[R]_(k, n)) J,
    [/\ XJ = (ofmx X, J),
        size J = k /\ uniq J /\ all (fun j => (j < n)%N) J,
        colsel X J k = 1%:M,
        colsel (colsel A J k *m X) J k = colsel A J k &
        \rank A = k -> A = colsel A J k *m X].
Proof. move=> h1 h2 h3; exact: osid1_col_prop. Qed.
Print Assumptions C19_osid1_col.

Theorem C19_osid1_row (R : rcfType) (G : Type) (L : lapack R) (r : rng_ops G R) m n (A : 'M[R]_(m, n))
    k (over p : int) a (s s' : st G R) ZI :
  qr_spec L -> qrp_spec L -> rng_ok r ->
  (0 < k)%N -> 0 < k%:Z + over -> (absz (k%:Z + over)%R <= minn m n)%N ->
  osid1 L r (ofmx A) k over p 0 a s = (s', inr ZI) ->
  exists (Z : 'M[R]_(m, k)) I,
    [/\ ZI = (ofmx Z, I),
        size I = k /\ uniq I /\ all (fun i => (i < m)%N) I,
        rowsel Z I k = 1%:M,
        rowsel (Z *m rowsel A I k) I k = rowsel A I k &
        \rank A = k -> A = Z *m rowsel A I k].
Proof. move=> h1 h2 h3; exact: osid1_row_prop. Qed.
Print Assumptions C19_osid1_row.

Example C19_osid1_runs (R : rcfType) (s : st nat R) :
  (exists s' (X : 'M[R]_(2, 3)) J,
     osid1 (exact_lapack R) toy_rng (ofmx (1%:M : 'M[R]_3)) 2%N 0 1 1 RGen s = (s', inr (ofmx X, J))) /\
  (exists s' (Z : 'M[R]_(3, 2)) I,
     osid1 (exact_lapack R) toy_rng (ofmx (1%:M : 'M[R]_3)) 2%N 0 1 0 RGen s = (s', inr (ofmx Z, I))).
Proof. split; [exact: wit_osid1_col_drv | exact: wit_osid1_row_drv]. Qed.

(** A request above the rank of A never succeeds. *)
Theorem C19_osid1_rank_needed (R : rcfType) (G : Type) (L : lapack R) (r : rng_ops G R) m n (A : 'M[R]_(m, n))
    k (over p axis : int) a (s s' : st G R) X :
  qr_spec L -> qrp_spec L -> rng_ok r ->
  (0 < k)%N -> 0 < k%:Z + over -> (absz (k%:Z + over)%R <= minn m n)%N ->
  osid1 L r (ofmx A) k over p axis a s = (s', inr X) -> (k <= \rank A)%N.
Proof. move=> h1 h2 h3; exact: osid1_rank_prop. Qed.
Print Assumptions C19_osid1_rank_needed.

(** ** C20: OSID2. *)
Theorem C20_osid2_col (R : rcfType) (G : Type) (L : lapack R) (sk_op : rowsketcher) m n (A : 'M[R]_(m, n))
    k (over : int) p (S : 'M[R]_(m, p)) (s s1 : st G R) :
  qrp_spec L -> lstsq_spec L -> (0 < k)%N -> (k <= n)%N -> (0 < m)%N -> (0 < p)%N -> 0 <= k%:Z + over ->
  sk_op (ofmx A^T) (absz (k%:Z + over)) s = (s1, inr (PyArr (ofmx S))) ->
  exists s' (X : 'M[R]_(k, n)) J,
    [/\ OSID2 L sk_op (ofmx A) k over 1 s = (s', inr (ofmx X, J)),
        size J = k /\ uniq J /\ all (fun j => (j < n)%N) J,
        colsel (colsel A J k *m X) J k = colsel A J k &
        forall X', fro2 (A - colsel A J k *m X) <= fro2 (A - colsel A J k *m X')].
Proof. move=> h1 h2; exact: osid2_col_prop. Qed.
Print Assumptions C20_osid2_col.

Theorem C20_osid2_row (R : rcfType) (G : Type) (L : lapack R) (sk_op : rowsketcher) m n (A : 'M[R]_(m, n))
    k (over : int) p (S : 'M[R]_(n, p)) (s s1 : st G R) :
  qrp_spec L -> lstsq_spec L -> (0 < k)%N -> (k <= m)%N -> (0 < n)%N -> (0 < p)%N -> 0 <= k%:Z + over ->
  sk_op (ofmx A) (absz (k%:Z + over)) s = (s1, inr (PyArr (ofmx S))) ->
  exists s' (Z : 'M[R]_(m, k)) I,
    [/\ OSID2 L sk_op (ofmx A) k over 0 s = (s', inr (ofmx Z, I)),
        size I = k /\ uniq I /\ all (fun i => (i < m)%N) I,
        rowsel (Z *m rowsel A I k) I k = rowsel A I k &
        forall Z', fro2 (A - Z *m rowsel A I k) <= fro2 (A - Z' *m rowsel A I k)].
Proof. move=> h1 h2; exact: osid2_row_prop. Qed.
Print Assumptions C20_osid2_row.

Example C20_hyps (R : rcfType) (s : st nat R) :
  [/\ qrp_spec (exact_lapack R), lstsq_spec (exact_lapack R) & exists s',
    RS1 (skopGA (T:=R) toy_rng) 0 (orth (exact_lapack R)) 1 (ofmx (1%:M : 'M[R]_3)) (absz (2%:Z + 0)) s =
      (s', inr (PyArr (ofmx (S32 R))))].
Proof. split; [exact: exact_qrp | exact: exact_lstsq | exact: wit_run]. Qed.

(** ** C21: two-sided ID. *)
Theorem C21_tsid1_tall (R : rcfType) (G : Type) (L : lapack R) (osid : osid_t) m n (A : 'M[R]_(m, n))
    k (over : int) (X : 'M[R]_(k, n)) J (s s1 : st G R) :
  qrp_spec L -> (n < m)%N -> (0 < k)%N -> size J = k -> uniq J -> all (fun j => (j < n)%N) J ->
  osid (ofmx A) k over 1 s = (s1, inr (ofmx X, J)) ->
  (\rank (colsel A J k) = k /\
   exists (Z : 'M[R]_(m, k)) I,
    [/\ TSID1 L osid (ofmx A) k over s = (s1, inr (ofmx Z, I, ofmx X, J)),
        size I = k /\ uniq I /\ all (fun i => (i < m)%N) I, rowsel Z I k = 1%:M &
        Z *m rowsel (colsel A J k) I k *m X = colsel A J k *m X]) \/
  ((\rank (colsel A J k) < k)%N /\ exists e, TSID1 L osid (ofmx A) k over s = (s1, inl e)).
Proof. move=> h1; exact: tsid1_tall_prop. Qed.
Print Assumptions C21_tsid1_tall.

Theorem C21_tsid1_wide (R : rcfType) (G : Type) (L : lapack R) (osid : osid_t) m n (A : 'M[R]_(m, n))
    k (over : int) (Z : 'M[R]_(m, k)) I (s s1 : st G R) :
  qrp_spec L -> (0 < m)%N -> (m <= n)%N -> (0 < k)%N -> size I = k -> uniq I -> all (fun i => (i < m)%N) I ->
  osid (ofmx A) k over 0 s = (s1, inr (ofmx Z, I)) ->
  (\rank (rowsel A I k) = k /\
   exists (X : 'M[R]_(k, n)) J,
    [/\ TSID1 L osid (ofmx A) k over s = (s1, inr (ofmx Z, I, ofmx X, J)),
        size J = k /\ uniq J /\ all (fun j => (j < n)%N) J, colsel X J k = 1%:M &
        Z *m rowsel (colsel A J k) I k *m X = Z *m rowsel A I k]) \/
  ((\rank (rowsel A I k) < k)%N /\ exists e, TSID1 L osid (ofmx A) k over s = (s1, inl e)).
Proof. move=> h1; exact: tsid1_wide_prop. Qed.
Print Assumptions C21_tsid1_wide.

Example C21_hyps (R : rcfType) (s : st nat R) :
  [/\ const_osid (ofmx (1%:M : 'M[R]_2)) [:: 0%N; 1%N] (ofmx (S32 R)) 2%N 0 1 s =
        (s, inr (ofmx (1%:M : 'M[R]_2), [:: 0%N; 1%N])),
      skeleton 2 2 [:: 0%N; 1%N], \rank (colsel (S32 R) [:: 0%N; 1%N] 2) = 2%N &
      S32 R = colsel (S32 R) [:: 0%N; 1%N] 2 *m 1%:M].
Proof. exact: wit_tall. Qed.

(** ** C22: CUR. *)
Theorem C22_cur1_tall (R : rcfType) (G : Type) (L : lapack R) (osid : osid_t) m n (A : 'M[R]_(m, n))
    k (over : int) (X : 'M[R]_(k, n)) J (s s1 : st G R) :
  qrp_spec L -> lstsq_spec L -> (n < m)%N -> (0 < k)%N ->
  size J = k -> uniq J -> all (fun j => (j < n)%N) J ->
  osid (ofmx A) k over 1 s = (s1, inr (ofmx X, J)) ->
  exists (U : 'M[R]_k) I,
    [/\ CUR1 L osid (ofmx A) k over s = (s1, inr (J, ofmx U, I)),
        size I = k /\ uniq I /\ all (fun i => (i < m)%N) I,
        (forall U', fro2 (X - U *m rowsel A I k) <= fro2 (X - U' *m rowsel A I k)) &
        \rank A = k -> A = colsel A J k *m X -> A = colsel A J k *m U *m rowsel A I k].
Proof. move=> h1 h2; exact: cur1_tall_prop. Qed.
Print Assumptions C22_cur1_tall.

Theorem C22_cur1_wide (R : rcfType) (G : Type) (L : lapack R) (osid : osid_t) m n (A : 'M[R]_(m, n))
    k (over : int) (Z : 'M[R]_(m, k)) I (s s1 : st G R) :
  qrp_spec L -> lstsq_spec L -> (0 < m)%N -> (m <= n)%N -> (0 < k)%N ->
  size I = k -> uniq I -> all (fun i => (i < m)%N) I ->
  osid (ofmx A) k over 0 s = (s1, inr (ofmx Z, I)) ->
  exists (U : 'M[R]_k) J,
    [/\ CUR1 L osid (ofmx A) k over s = (s1, inr (J, ofmx U, I)),
        size J = k /\ uniq J /\ all (fun j => (j < n)%N) J,
        (forall U', fro2 (Z - colsel A J k *m U) <= fro2 (Z - colsel A J k *m U')) &
        \rank A = k -> A = Z *m rowsel A I k -> A = colsel A J k *m U *m rowsel A I k].
Proof. move=> h1 h2; exact: cur1_wide_prop. Qed.
Print Assumptions C22_cur1_wide.

(** End to end: whenever cur1 returns for a matrix of rank k, the product is A. *)
Theorem C22_cur1_exact (R : rcfType) (G : Type) (L : lapack R) (r : rng_ops G R) m n (A : 'M[R]_(m, n))
    k (over p : int) a (s s' : st G R) x :
  qr_spec L -> qrp_spec L -> lstsq_spec L -> rng_ok r ->
  (0 < k)%N -> 0 < k%:Z + over -> (absz (k%:Z + over)%R <= minn m n)%N -> \rank A = k ->
  cur1 L r (ofmx A) k over p a s = (s', inr x) ->
  exists (U : 'M[R]_k) I J,
    [/\ x = (J, ofmx U, I), size J = k /\ uniq J /\ all (fun j => (j < n)%N) J,
        size I = k /\ uniq I /\ all (fun i => (i < m)%N) I &
        A = colsel A J k *m U *m rowsel A I k].
Proof. move=> h1 h2 h3 h4; exact: cur1_exact_prop. Qed.
Print Assumptions C22_cur1_exact.

Example C22_runs (R : rcfType) (s : st nat R) :
  exists s' x, cur1 (exact_lapack R) toy_rng (ofmx (1%:M : 'M[R]_3)) 2%N 0 2 RGen s = (s', inr x).
Proof. exact: wit_cur1. Qed.

(** ** C66: size of the interpolation coefficients and error of a sketched ID. *)
Theorem C66_coefficient_bound (R : rcfType) (L : lapack R) m n (Y : 'M[R]_(m, n)) k (X : 'M[R]_(k, n)) J :
  qrp_spec L -> (0 < m)%N -> (0 < n)%N -> (0 < k)%N -> qrcp_osid L (ofmx Y) k 1 = Ok (ofmx X, J) ->
  forall i j, `|X i j| <= 2%:R ^+ (k - i.+1).
Proof. exact: coef_bound_prop. Qed.
Print Assumptions C66_coefficient_bound.

Theorem C66_greedy (R : rcfType) (L : lapack R) m n (Y : 'M[R]_(m, n)) k (X : 'M[R]_(k, n)) J :
  qrp_spec L -> (0 < m)%N -> (0 < n)%N -> (0 < k)%N -> qrcp_osid L (ofmx Y) k 1 = Ok (ofmx X, J) ->
  (forall X', fro2 (Y - colsel Y J k *m X) <= fro2 (Y - colsel Y J k *m X')) /\
  forall (i : 'I_k) (w : 'cV[R]_k) (j : 'I_n), (forall l : 'I_k, (i <= l)%N -> w l 0 = 0) ->
    fro2 (col j (Y - colsel Y J k *m X)) <= fro2 (col i (colsel Y J k) - colsel Y J k *m w).
Proof. exact: greedy_prop. Qed.
Print Assumptions C66_greedy.

Theorem C66_osid1_error (R : rcfType) (G : Type) (L : lapack R) (sk_op : rowsketcher) m n (A : 'M[R]_(m, n))
    k (S : 'M[R]_(m, k)) (s s1 s2 : st G R) (X : 'M[R]_(k, n)) J :
  qrp_spec L -> (0 < k)%N -> (0 < n)%N ->
  sk_op (ofmx A^T) (absz (k%:Z + 0)) s = (s1, inr (PyArr (ofmx S))) ->
  OSID1 L sk_op (ofmx A) k 0 1 s = (s2, inr (ofmx X, J)) ->
  forall Z : 'M[R]_(m, k),
  3%:R * fro2 (A - colsel A J k *m X) <= (n - k)%:R * (4%:R ^+ k + 2%:R) * fro2 (A - Z *m (S^T *m A)).
Proof. exact: osid1_error_prop. Qed.
Print Assumptions C66_osid1_error.

Example C66_hyps (R : rcfType) (s : st nat R) : exists s1 s2 (X : 'M[R]_(2, 3)) J,
  let sk := RS1 (skopGA (T:=R) toy_rng) 0 (orth (exact_lapack R)) 1 in
  sk (ofmx (1%:M : 'M[R]_3)^T) (absz (2%:Z + 0)) s = (s1, inr (PyArr (ofmx (S32 R)))) /\
  OSID1 (exact_lapack R) sk (ofmx (1%:M : 'M[R]_3)) 2%N 0 1 s = (s2, inr (ofmx X, J)).
Proof. exact: osid1_error_hyps. Qed.

(** ** C67: rocs1, osid1 and osid2 agree on the skeleton; osid2 is never worse. *)
Theorem C67_same_skeleton (T : Type) (O : ops T) (G : Type) (L : lapack T) (sk_op : rowsketcher)
    A k (over axis : int) (s s1 s2 : st G T) X1 J1 X2 J2 :
  OSID1 L sk_op A k over axis s = (s1, inr (X1, J1)) ->
  OSID2 L sk_op A k over axis s = (s2, inr (X2, J2)) ->
  J1 = J2 /\ ROCS1 L sk_op A k over axis s = (s1, inr J1).
Proof. exact: same_skeleton. Qed.
Print Assumptions C67_same_skeleton.

Theorem C67_osid2_not_worse (R : rcfType) (G : Type) (L : lapack R) (sk_op : rowsketcher) m n (A : 'M[R]_(m, n))
    k (over : int) p (S : 'M[R]_(m, p)) (s s0 s1 : st G R) (X1 : 'M[R]_(k, n)) J :
  qrp_spec L -> lstsq_spec L -> (0 < k)%N -> (k <= n)%N -> (0 < m)%N -> (0 < p)%N -> 0 <= k%:Z + over ->
  sk_op (ofmx A^T) (absz (k%:Z + over)) s = (s0, inr (PyArr (ofmx S))) ->
  OSID1 L sk_op (ofmx A) k over 1 s = (s1, inr (ofmx X1, J)) ->
  exists s2 (X2 : 'M[R]_(k, n)), OSID2 L sk_op (ofmx A) k over 1 s = (s2, inr (ofmx X2, J)) /\
    fro2 (A - colsel A J k *m X2) <= fro2 (A - colsel A J k *m X1).
Proof. exact: osid2_not_worse. Qed.
Print Assumptions C67_osid2_not_worse.

Theorem C67_osid2_not_worse_row (R : rcfType) (G : Type) (L : lapack R) (sk_op : rowsketcher) m n (A : 'M[R]_(m, n))
    k (over : int) p (S : 'M[R]_(n, p)) (s s0 s1 : st G R) (Z1 : 'M[R]_(m, k)) I :
  qrp_spec L -> lstsq_spec L -> (0 < k)%N -> (k <= m)%N -> (0 < n)%N -> (0 < p)%N -> 0 <= k%:Z + over ->
  sk_op (ofmx A) (absz (k%:Z + over)) s = (s0, inr (PyArr (ofmx S))) ->
  OSID1 L sk_op (ofmx A) k over 0 s = (s1, inr (ofmx Z1, I)) ->
  exists s2 (Z2 : 'M[R]_(m, k)), OSID2 L sk_op (ofmx A) k over 0 s = (s2, inr (ofmx Z2, I)) /\
    fro2 (A - Z2 *m rowsel A I k) <= fro2 (A - Z1 *m rowsel A I k).
Proof. exact: osid2_not_worse_row. Qed.
Print Assumptions C67_osid2_not_worse_row.

(** ** C52: LU wrappers. *)
Theorem C52_lupt (R : rcfType) (L : lapack R) m n (M : 'M[R]_(m, n)) :
  lu_spec L -> (0 < m)%N -> (0 < n)%N ->
  exists (Lo : 'M[R]_(m, minn n m)) (U : 'M[R]_(minn n m, n)) (P : 'M[R]_n),
    [/\ lupt L (ofmx M) = Ok (ofmx Lo, ofmx U, ofmx P), is_perm_mx P,
        M = Lo *m U *m P^T, M *m P = Lo *m U &
        lotri Lo /\ (uptri U /\ forall i : 'I_(minn n m), mxe U i i = 1)].
Proof. exact: lupt_spec. Qed.
Print Assumptions C52_lupt.

Theorem C52_lup (R : rcfType) (L : lapack R) m n (M : 'M[R]_(m, n)) :
  lu_spec L -> (0 < m)%N -> (0 < n)%N ->
  exists (Lo : 'M[R]_(m, minn n m)) (U : 'M[R]_(minn n m, n)) (P : 'M[R]_n),
    [/\ lup L (ofmx M) = Ok (ofmx Lo, ofmx U, ofmx P), is_perm_mx P, M = Lo *m U *m P &
        lotri Lo /\ (uptri U /\ forall i : 'I_(minn n m), mxe U i i = 1)].
Proof. exact: lup_spec. Qed.
Print Assumptions C52_lup.

Example C52_hyps (R : rcfType) : lu_spec (exact_lapack R).
Proof. exact: exact_lu. Qed.

(** ** C68: the pseudo-inverse wrappers. *)
Theorem C68_apply_pinv_on_left (R : rcfType) (L : lapack R) m n p (A : 'M[R]_(m, n)) (B : 'M[R]_(m, p))
    (P : 'M[R]_(n, m)) :
  lstsq_spec L -> (0 < m)%N -> (0 < n)%N -> (0 < p)%N ->
  A *m P *m A = A -> P *m A *m P = P -> (A *m P)^T = A *m P -> (P *m A)^T = P *m A ->
  pinv_left L (ofmx B) (ofmx A) = Ok (ofmx (P *m B)).
Proof. move=> h1 h2 h3 h4 h5 h6 h7 h8; exact: pinv_left_spec. Qed.
Print Assumptions C68_apply_pinv_on_left.

Theorem C68_apply_pinv_on_right (R : rcfType) (L : lapack R) m n p (A : 'M[R]_(n, m)) (B : 'M[R]_(p, m))
    (P : 'M[R]_(m, n)) :
  lstsq_spec L -> (0 < m)%N -> (0 < n)%N -> (0 < p)%N ->
  A *m P *m A = A -> P *m A *m P = P -> (A *m P)^T = A *m P -> (P *m A)^T = P *m A ->
  pinv_right L (ofmx B) (ofmx A) = Ok (ofmx (B *m P)).
Proof. move=> h1 h2 h3 h4 h5 h6 h7 h8; exact: pinv_right_spec. Qed.
Print Assumptions C68_apply_pinv_on_right.

Example C68_hyps (R : rcfType) : let A := S32 R in let P := A^T in
  [/\ A *m P *m A = A, P *m A *m P = P, (A *m P)^T = A *m P & (P *m A)^T = P *m A].
Proof. exact: pinv_hyps. Qed.

(** ** C88: pivoted QR and sketched IDs against the best rank-k approximation. *)
Theorem C88_qrcp_osid_col (R : rcfType) (L : lapack R) m n (Y W : 'M[R]_(m, n)) k (X : 'M[R]_(k, n)) J :
  qrp_spec L -> (0 < m)%N -> (0 < n)%N -> (0 < k)%N ->
  qrcp_osid L (ofmx Y) k 1 = Ok (ofmx X, J) -> (\rank W <= k)%N ->
  3%:R * fro2 (Y - colsel Y J k *m X) <= (n - k)%:R * (2%:R * 4%:R ^+ k + 1) * fro2 (Y - W).
Proof. exact: qrcp_best_col. Qed.
Print Assumptions C88_qrcp_osid_col.

Theorem C88_qrcp_osid_row (R : rcfType) (L : lapack R) m n (Y W : 'M[R]_(m, n)) k (Z : 'M[R]_(m, k)) I :
  qrp_spec L -> (0 < m)%N -> (0 < n)%N -> (0 < k)%N ->
  qrcp_osid L (ofmx Y) k 0 = Ok (ofmx Z, I) -> (\rank W <= k)%N ->
  3%:R * fro2 (Y - Z *m rowsel Y I k) <= (m - k)%:R * (2%:R * 4%:R ^+ k + 1) * fro2 (Y - W).
Proof. exact: qrcp_best_row. Qed.
Print Assumptions C88_qrcp_osid_row.

Example C88_qrcp_hyps (R : rcfType) : let Y := (1%:M : 'M[R]_3) in exists (X : 'M[R]_(2, 3)) J (Z : 'M[R]_(3, 2)) I,
  [/\ qrcp_osid (exact_lapack R) (ofmx Y) 2 1 = Ok (ofmx X, J), qrcp_osid (exact_lapack R) (ofmx Y) 2 0 = Ok (ofmx Z, I),
      0 < fro2 (Y - colsel Y J 2 *m X) & 0 < fro2 (Y - Z *m rowsel Y I 2)].
Proof. exact: qrcp_best_hyps. Qed.

(** Any oversampling: [p] is the number of columns of the sketch. *)
Theorem C88_osid1_col (R : rcfType) (G : Type) (L : lapack R) (sk_op : rowsketcher) m n (A : 'M[R]_(m, n))
    k (over : int) p (S : 'M[R]_(m, p)) (s s1 s2 : st G R) (X : 'M[R]_(k, n)) J
    (Z : 'M[R]_(m, p)) z (W : 'M[R]_(p, n)) :
  qrp_spec L -> (0 < k)%N -> (0 < n)%N -> (0 < p)%N -> 0 <= k%:Z + over ->
  sk_op (ofmx A^T) (absz (k%:Z + over)) s = (s1, inr (PyArr (ofmx S))) ->
  OSID1 L sk_op (ofmx A) k over 1 s = (s2, inr (ofmx X, J)) ->
  0 <= z -> (forall v : 'cV[R]_p, fro2 (Z *m v) <= z * fro2 v) -> (\rank W <= k)%N ->
  3%:R * fro2 (A - colsel A J k *m X) <=
  2%:R * (n - k)%:R * ((4%:R ^+ k + 2%:R) * fro2 (A - Z *m (S^T *m A)) +
                       z * ((2%:R * 4%:R ^+ k + 1) * fro2 (S^T *m A - W))).
Proof. exact: osid1_over_col. Qed.
Print Assumptions C88_osid1_col.

Theorem C88_osid1_row (R : rcfType) (G : Type) (L : lapack R) (sk_op : rowsketcher) m n (A : 'M[R]_(m, n))
    k (over : int) p (S : 'M[R]_(n, p)) (s s1 s2 : st G R) (X : 'M[R]_(m, k)) I
    (Z : 'M[R]_(p, n)) z (W : 'M[R]_(m, p)) :
  qrp_spec L -> (0 < k)%N -> (0 < m)%N -> (0 < p)%N -> 0 <= k%:Z + over ->
  sk_op (ofmx A) (absz (k%:Z + over)) s = (s1, inr (PyArr (ofmx S))) ->
  OSID1 L sk_op (ofmx A) k over 0 s = (s2, inr (ofmx X, I)) ->
  0 <= z -> (forall v : 'cV[R]_p, fro2 (Z^T *m v) <= z * fro2 v) -> (\rank W <= k)%N ->
  3%:R * fro2 (A - X *m rowsel A I k) <=
  2%:R * (m - k)%:R * ((4%:R ^+ k + 2%:R) * fro2 (A - A *m S *m Z) +
                       z * ((2%:R * 4%:R ^+ k + 1) * fro2 (A *m S - W))).
Proof. exact: osid1_over_row. Qed.
Print Assumptions C88_osid1_row.

Example C88_osid1_hyps (R : rcfType) (s : st nat R) : exists s1 s2 (X : 'M[R]_(1, 3)) J s3 (Z : 'M[R]_(3, 1)) I,
  let sk := RS1 (skopGA (T:=R) toy_rng) 0 (orth (exact_lapack R)) 1 in
  [/\ sk (ofmx (1%:M : 'M[R]_3)) (absz (1%:Z + 1)) s = (s1, inr (PyArr (ofmx (S32 R)))),
      OSID1 (exact_lapack R) sk (ofmx (1%:M : 'M[R]_3)) 1%N 1 1 s = (s2, inr (ofmx X, J)) &
      OSID1 (exact_lapack R) sk (ofmx (1%:M : 'M[R]_3)) 1%N 1 0 s = (s3, inr (ofmx Z, I))].
Proof. exact: osid1_over_hyps. Qed.

(** ** C89: what cur1 loses over the one-sided ID it is built from. *)
Theorem C89_cur1_error (R : rcfType) (G : Type) (L : lapack R) (r : rng_ops G R) m n (A : 'M[R]_(m, n))
    k (over p : int) a (s s' : st G R) x :
  qr_spec L -> qrp_spec L -> lstsq_spec L -> rng_ok r ->
  (0 < k)%N -> 0 < k%:Z + over -> (absz (k%:Z + over)%R <= minn m n)%N ->
  cur1 L r (ofmx A) k over p a s = (s', inr x) ->
  exists (U : 'M[R]_k) I J, x = (J, ofmx U, I) /\
    if (n < m)%N then
      exists2 X : 'M[R]_(k, n), osid1 L r (ofmx A) k over (p - 1) 1 a s = (s', inr (ofmx X, J)) &
        3%:R * fro2 (A - colsel A J k *m U *m rowsel A I k) <=
        2%:R * (3%:R + (3%:R * k%:R + (m - k)%:R * (4%:R ^+ k - 1))) * fro2 (A - colsel A J k *m X)
    else
      exists2 Z : 'M[R]_(m, k), osid1 L r (ofmx A) k over (p - 1) 0 a s = (s', inr (ofmx Z, I)) &
        3%:R * fro2 (A - colsel A J k *m U *m rowsel A I k) <=
        2%:R * (3%:R + (3%:R * k%:R + (n - k)%:R * (4%:R ^+ k - 1))) * fro2 (A - Z *m rowsel A I k).
Proof. exact: cur1_err_prop. Qed.
Print Assumptions C89_cur1_error.

Example C89_runs (R : rcfType) (s : st nat R) :
  exists s' x, cur1 (exact_lapack R) toy_rng (ofmx (1%:M : 'M[R]_3)) 2%N 0 2 RGen s = (s', inr x).
Proof. exact: wit_cur1. Qed.
