(** Property theorems about the sketching operators.  [acts_as op S]: op has
    the shape of S, op @ x = S x and op @ A = S A for all vectors and matrices,
    and op.T @ y = S' y for all vectors; [acts_both op S] adds that op.T acts as
    S' on matrices too.  [rowsel A J k] is A[J, :], so [rowsel 1 J k] is the
    matrix with rows e_j for j in J.  [rnd r N g k] is the value of the k-th
    consecutive rng.random(N) from generator state g.  [mean E]: E is a normalised
    linear functional on functions of the generator state; [outmat m n x] is the
    m x n matrix of the operator returned by a call with outcome x. *)
From mathcomp Require Import all_ssreflect all_algebra.
From Verif Require Import Base Arr Lapack Exact MxLib LapackSpec LapackExists Rng Aware Sel.
From Verif Require Import Sketching P_Sketch P_Sketch2 P_Sketch3 P_SSign F_Sketch P_Iso.
Set Implicit Arguments.
Unset Strict Implicit.
Unset Printing Implicit Defensive.
Import Order.TTheory GRing.Theory Num.Theory.
Local Open Scope ring_scope.

(** ** C43: sampling operators select rows. *)
Theorem C43_sampling_given (R : rcfType) (G : Type) (r : rng_ops G R) m n (J : seq nat) a (s : st G R) :
  (m <= n)%N -> all (fun j => (j < n)%N) J -> size J = m ->
  exists s' op, [/\ sampling_operator r m n a (Some J) s = (s', inr op), evs s' = evs s, shape op = Some (m, n),
    (forall x : 'cV[R]_n, mul_rv op (ofcv x) = Ok (ofcv (rowsel x J m))) /\
    (forall q (A : 'M[R]_(n, q)), mul_r op (ofmx A) = Ok (ofmx (rowsel A J m))) &
    (uniq J -> acts_as op (rowsel (1%:M : 'M[R]_n) J m)) /\
    (exists2 op', py_tr op = Ok op' &
       forall q (B : 'M[R]_(m, q)), q != 1%N -> mul_r op' (ofmx B) = Err TypeError)].
Proof. exact: sampling_given. Qed.
Print Assumptions C43_sampling_given.

Theorem C43_orthonormal_rows (R : rcfType) m n (J : seq nat) :
  all (fun j => (j < n)%N) J -> uniq J -> size J = m ->
  rowsel (1%:M : 'M[R]_n) J m *m (rowsel (1%:M : 'M[R]_n) J m)^T = 1%:M.
Proof. exact: rowsel_ortho. Qed.
Print Assumptions C43_orthonormal_rows.

Theorem C43_sampling_drawn (R : rcfType) (G : Type) (r : rng_ops G R) m n a (s : st G R) :
  rng_ok r -> (0 < m)%N -> (m <= n)%N ->
  exists s' op J, [/\ sampling_operator r m n a None s = (s', inr op), evs s' = evs s,
    [/\ size J = m, all (fun j => (j < n)%N) J, uniq J & sorted leq J] &
    acts_as op (rowsel (1%:M : 'M[R]_n) J m)].
Proof. by move=> h m0 mn; exact (sampling_drawn h a s m0 mn). Qed.
Print Assumptions C43_sampling_drawn.

Example C43_hyps : let J := [:: 4; 1; 3]%N in all (fun j => (j < 5)%N) J && uniq J && (size J == 3%N).
Proof. by []. Qed.
Example C43_rng (R : rcfType) : rng_ok (@toy_rng R (rcf_ops R)).
Proof. exact: toy_rng_ok. Qed.

(** ** C44: in the tall case the given indices are not used as indices. *)
Theorem C44_tall_indices_seed (R : rcfType) (G : Type) (r : rng_ops G R) m n (J : seq nat) a (s : st G R) :
  (n < m)%N -> size J = n ->
  (sampling_operator r m n a (Some J) s).2 =
  ((let! Sk := sampling_operator r n m (RArr J) None in lift (py_tr Sk)) s).2.
Proof. exact: sampling_tall_seed. Qed.
Print Assumptions C44_tall_indices_seed.

Theorem C44_indices_refuted (R : rcfType) (s : st nat R) :
  exists s' op,
  [/\ sampling_operator (@toy_rng R (rcf_ops R)) 2 1 RGen (Some [:: 1%N]) s = (s', inr op),
      shape op = Some (2, 1)%N & mul_rv op [:: 1] = Ok [:: 1; 0]].
Proof. exact: sampling_tall_refuted. Qed.
Print Assumptions C44_indices_refuted.

(** ** C45: what the generator classes return. *)
Theorem C45_shape (R : rcfType) (G : Type) (L : lapack R) (r : rng_ops G R) k m n a (s : st G R) :
  rng_ok r -> qr_spec L -> dct_spec L -> (0 < m)%N -> (0 < n)%N ->
  (match k with
   | SkOpON | SkOpGA _ => True
   | SkOpSJ nnz => (0 < nnz)%N
   | SkOpSS _ => False
   | SkOpTC => a = RGen
   | SkOpIN None => True
   | SkOpIN (Some J) => all (fun j => (j < maxn m n)%N) J /\ size J = minn m n
   end) ->
  exists s' op, skop_call L r k m n a s = (s', inr op) /\ shape op = Some (m, n).
Proof. by move=> h1 h2 h3 h4 h5 h6; exact: skop_shape. Qed.
Print Assumptions C45_shape.

Theorem C45_sparse_sign_returns_nothing (R : rcfType) (G : Type) (L : lapack R) (r : rng_ops G R) d m n a
    (s s' : st G R) op :
  skop_call L r (SkOpSS d) m n a s = (s', inr op) -> op = PyNone.
Proof. exact: skopSS_none. Qed.
Print Assumptions C45_sparse_sign_returns_nothing.

Theorem C45_operator_refuted (R : rcfType) (s : st nat R) : exists d s',
  skop_call (exact_lapack R) (@toy_rng R (rcf_ops R)) (SkOpSS d) 2 3 RGen s = (s', inr PyNone).
Proof. exact: skopSS_refuted. Qed.
Print Assumptions C45_operator_refuted.

Example C45_hyps (R : rcfType) : [/\ rng_ok (@toy_rng R (rcf_ops R)), qr_spec (exact_lapack R) & dct_spec (exact_lapack R)].
Proof. by split; [exact: toy_rng_ok | exact: exact_qr | exact: exact_dct]. Qed.

(** ** C46: sparse Johnson-Lindenstrauss operators. *)
Theorem C46_columns (R : rcfType) (G : Type) (r : rng_ops G R) m n nnz a (s : st G R) :
  rng_ok r -> (0 < nnz)%N -> (nnz <= m)%N -> (m <= n)%N ->
  exists s' (S : 'M[R]_(m, n)),
  [/\ sjlt_operator r m n a nnz s = (s', inr (PySp (ofmx S))), evs s' = evs s,
      (forall j, #|[set i | S i j != 0]| = nnz),
      (forall i j, S i j != 0 -> S i j = (Num.sqrt nnz%:R)^-1 \/ S i j = - (Num.sqrt nnz%:R)^-1) &
      forall j, fro2 (col j S) = 1].
Proof. by move=> h h1 h2 h3; exact (sjlt_cols h a s h1 h2 h3). Qed.
Print Assumptions C46_columns.

Theorem C46_rows (R : rcfType) (G : Type) (r : rng_ops G R) m n nnz a (s : st G R) :
  rng_ok r -> (0 < nnz)%N -> (nnz <= n)%N -> (n < m)%N ->
  exists s' (S : 'M[R]_(m, n)),
  [/\ sjlt_operator r m n a nnz s = (s', inr (PySp (ofmx S))), evs s' = evs s,
      (forall i, #|[set j | S i j != 0]| = nnz),
      (forall i j, S i j != 0 -> S i j = (Num.sqrt nnz%:R)^-1 \/ S i j = - (Num.sqrt nnz%:R)^-1) &
      forall i, fro2 (row i S) = 1].
Proof. by move=> h h1 h2 h3; exact (sjlt_rows h a s h1 h2 h3). Qed.
Print Assumptions C46_rows.

Theorem C46_warning (R : rcfType) (G : Type) (r : rng_ops G R) m n nnz a (s : st G R) :
  rng_ok r -> (0 < m)%N -> (0 < n)%N -> (minn m n < minn (maxn m n) nnz)%N ->
  exists s' (S : 'M[R]_(m, n)),
  [/\ sjlt_operator r m n a nnz s = (s', inr (PySp (ofmx S))), evs s' = evs s ++ [:: EvWarn W_sjlt_size] &
      if (m <= n)%N then forall j, \sum_i `|S i j| <= Num.sqrt (minn n nnz)%:R
      else forall i, \sum_j `|S i j| <= Num.sqrt (minn m nnz)%:R].
Proof. by move=> h h1 h2 h3; exact (sjlt_warn h a s h1 h2 h3). Qed.
Print Assumptions C46_warning.

Example C46_hyps : [&& 0 < 2, 2 <= 3, 3 <= 5 & minn 2 5 < minn (maxn 2 5) 3]%N.
Proof. by []. Qed.

(** ** C70: the documented row sparsity of a square SJLT operator. *)
Theorem C70_square_rows_refuted (R : rcfType) (s : st nat R) : exists s' (B : arr R),
  [/\ sjlt_operator (@toy_rng R (rcf_ops R)) 2 2 RGen 1 s = (s', inr (PySp B)), nr B = 2%N, nc B = 2%N &
      forall j, (j < 2)%N -> el B 1 j = 0].
Proof. exact: sjlt_square_refuted. Qed.
Print Assumptions C70_square_rows_refuted.

(** ** C47: subsampled randomised cosine transforms. *)
Theorem C47_srct_operator (R : rcfType) (G : Type) (L : lapack R) (r : rng_ops G R) m n (s : st G R) :
  rng_ok r -> dct_spec L -> (0 < m)%N -> (0 < n)%N ->
  exists s' op (S : 'M[R]_(m, n)),
   [/\ srct_operator L r m n RGen s = (s', inr op), evs s' = evs s, acts_both op S &
       if (m <= n)%N then S *m S^T = (n%:R / m%:R)%:M else S^T *m S = (m%:R / n%:R)%:M].
Proof. by move=> h1 h2 h3 h4; exact (srct_operatorP h1 h2 s h3 h4). Qed.
Print Assumptions C47_srct_operator.

Theorem C47_apply_srct (R : rcfType) (L : lapack R) n k (ri : seq nat) (e : 'cV[R]_n) p (c : R) :
  dct_spec L -> all (fun j => (j < n)%N) ri -> uniq ri -> size ri = k ->
  (if p is Some p then perm_eq p (iota 0 n) : Prop else True) -> (forall i, e i 0 ^+ 2 = c) ->
  exists S : 'M[R]_(k, n), [/\ S *m S^T = c%:M,
    (forall x, srct_v L ri (ofcv e) p (ofcv x) = Ok (ofcv (S *m x))),
    (forall q (A : 'M[R]_(n, q)), srct_m L ri (ofcv e) p (ofmx A) = Ok (ofmx (S *m A))),
    (forall x, srct_rv L ri (ofcv e) p (ofcv x) = Ok (ofcv (S^T *m x))) &
    (forall q (A : 'M[R]_(k, q)), srct_rm L ri (ofcv e) p (ofmx A) = Ok (ofmx (S^T *m A)))].
Proof. by move=> h1 h2 h3 h4 h5 h6; exact: srct_matrix. Qed.
Print Assumptions C47_apply_srct.

Theorem C47_seed_raises (R : rcfType) (G : Type) (L : lapack R) (r : rng_ops G R) m n a (s : st G R) :
  a <> RGen -> srct_operator L r m n a s = (s, inl AttributeError).
Proof. exact: srct_seed. Qed.
Print Assumptions C47_seed_raises.

Example C47_hyps (R : rcfType) : dct_spec (exact_lapack R) /\
  forall c : R, 0 <= c -> forall i : 'I_4, (const_mx (Num.sqrt c) : 'cV[R]_4) i 0 ^+ 2 = c.
Proof. by split=> [|c c0 i]; [exact: exact_dct | rewrite mxE sqr_sqrtr]. Qed.

(** ** C48: orthonormal operators. *)
Theorem C48_orthonormal (R : rcfType) (G : Type) (L : lapack R) (r : rng_ops G R) m n (X : 'M[R]_(m, n)) a
    (s s1 : st G R) :
  qr_spec L -> (0 < n)%N -> (n <= m)%N ->
  with_rng r a (gaussian_operator r true m n) s = (s1, inr (PyArr (ofmx X))) -> \rank X = n ->
  exists Q U, [/\ orthonormal_operator L r m n a s = (s1, inr (PyArr (ofmx Q))),
    (n < m)%N -> orthonormal_operator L r n m a s = (s1, inr (PyArr (ofmx Q^T))), orthonormal Q, X = Q *m U &
    uptri U /\ (forall i : 'I_n, 0 < U i i)].
Proof. by move=> q; exact: orthonormal_op. Qed.
Print Assumptions C48_orthonormal.

Theorem C48_rank_deficient_draw (R : rcfType) (G : Type) (L : lapack R) (r : rng_ops G R) m n (X : 'M[R]_(m, n)) a
    (s s1 : st G R) :
  qr_spec L -> (0 < n)%N -> (n <= m)%N ->
  with_rng r a (gaussian_operator r true m n) s = (s1, inr (PyArr (ofmx X))) -> (\rank X < n)%N ->
  exists Q : 'M[R]_(m, n), orthonormal_operator L r m n a s = (s1, inr (PyArr (ofmx Q))) /\ ~ orthonormal Q.
Proof. by move=> q; exact: orthonormal_deficient. Qed.
Print Assumptions C48_rank_deficient_draw.

Theorem C48_backend_independent (R : rcfType) (G : Type) (L1 L2 : lapack R) (r : rng_ops G R)
    m n (X : 'M[R]_(m, n)) a (s s1 : st G R) : qr_spec L1 -> qr_spec L2 -> (0 < n)%N -> (n <= m)%N ->
  with_rng r a (gaussian_operator r true m n) s = (s1, inr (PyArr (ofmx X))) -> \rank X = n ->
  orthonormal_operator L1 r m n a s = orthonormal_operator L2 r m n a s.
Proof. exact: orthonormal_lapack_indep. Qed.
Print Assumptions C48_backend_independent.

Example C48_hyps (R : rcfType) (s : st nat R) : qr_spec (exact_lapack R) /\
  exists s1 (X : 'M[R]_(2, 1)),
  with_rng (@toy_rng R (rcf_ops R)) RGen (gaussian_operator (@toy_rng R (rcf_ops R)) true 2 1) s =
    (s1, inr (PyArr (ofmx X))) /\ \rank X = 1%N.
Proof. split; [exact: exact_qr | exact: toy_gauss]. Qed.

(** ** C49: sparse sign operators. *)
Theorem C49_no_entry (R : rcfType) (G : Type) (r : rng_ops G R) m n d a (s : st G R) :
  let g := match a with RGen => gen s | RInt z => r_seed r z | RArr v => r_seeds r v end in
  (forall k, (k <= 10)%N -> ~~ has (fun x => x < d) (rnd r (m * n) g k)) ->
  (sparse_sign_operator r m n a d s).2 = inl RuntimeError.
Proof. exact: sparse_sign_err. Qed.
Print Assumptions C49_no_entry.

Theorem C49_entries (R : rcfType) (G : Type) (r : rng_ops G R) m n d k a (s : st G R) :
  rng_ok r -> (k <= 10)%N -> 0 < d ->
  let g := match a with RGen => gen s | RInt z => r_seed r z | RArr v => r_seeds r v end in
  let u := rnd r (m * n) g in
  (forall l, (l < k)%N -> ~~ has (fun x => x < d) (u l)) -> has (fun x => x < d) (u k) ->
  exists S : 'M[R]_(m, n),
  [/\ (sparse_sign_operator r m n a d s).2 = inr (PySp (ofmx S)), S != 0,
      (forall i j, (S i j != 0) = (nth 0 (u k) (i * n + j) < d)) &
      forall i j, S i j != 0 -> S i j = (Num.sqrt ((minn m n)%:R * d))^-1 \/
                                S i j = - (Num.sqrt ((minn m n)%:R * d))^-1].
Proof. by move=> h1 h2 h3; exact (sparse_sign_ok h1 h2 h3). Qed.
Print Assumptions C49_entries.

Example C49_hyps (R : rcfType) (g : nat) :
  let u := rnd (@toy_rng R (rcf_ops R)) (2 * 3) g in
  [/\ forall k, ~~ has (fun x => x < 0) (u k), forall k, has (fun x => x < 1) (u k) & (0 : R) < 1].
Proof. by split=> [k|k|]; rewrite ?ltr01 // /rnd /= ?ltxx ?ltr01. Qed.

(** ** C69: adjoints of sampling operators with repeated indices. *)
Theorem C69_repeated_refuted (R : rcfType) (s : st nat R) : exists s' op,
  [/\ sampling_operator (@toy_rng R (rcf_ops R)) 2 2 RGen (Some [:: 0%N; 0%N]) s = (s', inr op),
      (forall x y : R, mul_rv op [:: x; y] = Ok [:: x; x]) &
      mul_trv op [:: 1; 1] = Ok [:: 1; 0]].
Proof. exact: sampling_repeat_refuted. Qed.
Print Assumptions C69_repeated_refuted.

(** ** C76: sketching operators preserve squared lengths on average.  S' S has
    mean I for wide operators, S S' for tall ones. *)
Theorem C76_gaussian (R : rcfType) (G : Type) (E : (G -> R) -> R) (r : rng_ops G R) m n es :
  mean E -> rng_ok r -> uncorrelated E r m n -> (0 < m)%N -> (0 < n)%N ->
  let S g := outmat m n (gaussian_operator r true m n (St g es)) in
  ((m <= n)%N -> forall j l, E (fun g => ((S g)^T *m S g) j l) = (j == l)%:R) /\
  ((n <= m)%N -> forall i k, E (fun g => (S g *m (S g)^T) i k) = (i == k)%:R).
Proof. by move=> h1 h2; exact: gauss_iso. Qed.
Print Assumptions C76_gaussian.

(** [choices r p k b n g]: n consecutive rng.choice(p, k, b). *)
Theorem C76_sjlt (R : rcfType) (G : Type) (E : (G -> R) -> R) (r : rng_ops G R) m n nnz es :
  mean E -> rng_ok r -> (0 < m)%N -> (m <= n)%N -> (0 < nnz)%N ->
  let v := minn n nnz in let C g := choices r m v (m < v)%N n g in
  random_signs E (fun g => (C g).2) (fun g => (r_random r (C g).1 (n * v)).2) (n * v) ->
  (let S g := outmat m n (sjlt_operator r m n RGen nnz (St g es)) in
   forall j l, E (fun g => ((S g)^T *m S g) j l) = (j == l)%:R) /\
  (let S g := outmat n m (sjlt_operator r n m RGen nnz (St g es)) in
   (m < n)%N -> forall j l, E (fun g => (S g *m (S g)^T) j l) = (j == l)%:R).
Proof. by move=> h1 h2; exact: sjlt_iso. Qed.
Print Assumptions C76_sjlt.

Theorem C76_srct (R : rcfType) (G : Type) (E : (G -> R) -> R) (L : lapack R) (r : rng_ops G R) m n es :
  mean E -> rng_ok r -> dct_spec L -> (0 < m)%N -> (m <= n)%N ->
  let J g := (r_choice r g n m false).2 in let g1 g := (r_choice r g n m false).1 in
  let u g := (r_random r (g1 g) n) in let p g := (r_perm r (u g).1 n).2 in
  fair_sample E (fun g => ((u g).2, p g)) J n (m%:R / n%:R) ->
  let S g := outmat m n (srct_operator L r m n RGen (St g es)) in
  forall j l, E (fun g => ((S g)^T *m S g) j l) = (j == l)%:R.
Proof. by move=> h1 h2 h3; exact: srct_iso. Qed.
Print Assumptions C76_srct.

(** Sampling operators are not rescaled. *)
Theorem C76_sampling (R : rcfType) (G : Type) (E : (G -> R) -> R) (r : rng_ops G R) m n es :
  mean E -> rng_ok r -> (0 < m)%N -> (m <= n)%N ->
  fair_sample E (fun=> tt) (fun g => (r_choice r g n m false).2) n (m%:R / n%:R) ->
  let S g := outmat m n (sampling_operator r m n RGen None (St g es)) in
  forall j l, E (fun g => ((S g)^T *m S g) j l) = (m%:R / n%:R) * (j == l)%:R.
Proof. by move=> h1 h2; exact: sampling_iso. Qed.
Print Assumptions C76_sampling.

Example C76_hyps (R : rcfType) : [/\ mean (@iso_mean R), rng_ok (iso_rng R) & uncorrelated (@iso_mean R) (iso_rng R) 1 2].
Proof. by split; [exact: iso_meanP | exact: iso_rng_ok | exact: iso_normal]. Qed.
Example C76_signs (R : rcfType) : let C g := choices (iso_rng R) 1 (minn 2 1) (1 < minn 2 1)%N 2 g in
  random_signs (@iso_mean R) (fun g => (C g).2) (fun g => (r_random (iso_rng R) (C g).1 (2 * minn 2 1)).2) (2 * minn 2 1).
Proof. exact: iso_signs. Qed.
Example C76_sample (R : rcfType) :
  let r := iso_rng R in
  let u g := (r_random r (r_choice r g 2 1 false).1 2) in
  fair_sample (@iso_mean R) (fun g => ((u g).2, (r_perm r (u g).1 2).2)) (fun g => (r_choice r g 2 1 false).2) 2
    (1%:R / 2%:R).
Proof. by apply: iso_sample. Qed.
