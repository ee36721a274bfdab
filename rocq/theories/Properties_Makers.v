(** Properties C103 and C104: the generators of test problems (parla/tests/matmakers.py and
    notebooks/least_squares/helpers.py). *)
From mathcomp Require Import all_ssreflect all_algebra.
From Verif Require Import Base Arr Lapack Exact MxLib LapackSpec LapackExists Rng Aware Sketching Makers P_Makers.
Set Implicit Arguments.
Unset Strict Implicit.
Unset Printing Implicit Defensive.
Import Order.TTheory GRing.Theory Num.Theory.
Local Open Scope ring_scope.

(** ** C103: rand_low_rank returns a matrix with the given spectrum, divided by its largest entry
    and sorted; the factors returned are its singular value decomposition. *)
Theorem C103_rand_low_rank (R : rcfType) (G : Type) (L : lapack R) (r : rng_ops G R) m n (v : seq R) (f : bool)
    (X : 'M[R]_(m, size v)) (Y : 'M[R]_(n, size v)) (s s1 s2 : st G R) :
  qr_spec L -> all (fun x => 0 <= x) v -> has (fun x => 0 < x) v -> (size v <= minn m n)%N ->
  gaussian_operator r true m (size v) s = (s1, inr (PyArr (ofmx X))) -> \rank X = size v ->
  gaussian_operator r true n (size v) s1 = (s2, inr (PyArr (ofmx Y))) -> \rank Y = size v ->
  exists (U : 'M[R]_(m, size v)) (t : 'cV[R]_(size v)) (V : 'M[R]_(size v, n)),
    [/\ rand_low_rank L r m n (SpArr v) RGen f s =
          (s2, inr (ofmx (U *m diag_mx t^T *m V), if f then Some (ofmx U, ofcv t, ofmx V) else None)),
        orthonormal U /\ orthonormal V^T,
        exists2 mx, mx \in v & (forall x, x \in v -> x <= mx) /\ perm_eq (ofcv t) [seq x / mx | x <- v],
        forall i j : 'I_(size v), (i <= j)%N -> t j 0 <= t i 0 &
        (forall i, 0 <= t i 0 <= 1) /\ (forall i : 'I_(size v), i = 0%N :> nat -> t i 0 = 1)].
Proof.
move=> h1 h2 h3 h4 h5 h6 h7 h8.
exact (rand_low_rankE h1 f h2 h3 h4 (ex_intro _ s1 (ex_intro _ Y (And4 h5 h6 h7 h8)))).
Qed.
Print Assumptions C103_rand_low_rank.

(** exponent_spectrum and s_shaped_spectrum are asked for rank k + 1 and return rank k. *)
Theorem C103_exponent_rank_refuted (R : rcfType) (G : Type) (L : lapack R) (r : rng_ops G R) (oexp : R -> R) m n k (p : R)
    (X : 'M[R]_(m, k)) (Y : 'M[R]_(n, k)) (s s1 s2 : st G R) :
  qr_spec L -> (forall x, 0 < oexp x) -> (0 < k)%N -> (k <= minn m n)%N ->
  gaussian_operator r true m k s = (s1, inr (PyArr (ofmx X))) -> \rank X = k ->
  gaussian_operator r true n k s1 = (s2, inr (PyArr (ofmx Y))) -> \rank Y = k ->
  (exists M : 'M[R]_(m, n), exponent_spectrum L r oexp m n k.+1%:Z RGen p false s = (s2, inr (ofmx M, None)) /\ \rank M = k) /\
  exists M : 'M[R]_(m, n), s_shaped_spectrum L r oexp m n k.+1%:Z RGen false s = (s2, inr (ofmx M, None)) /\ \rank M = k.
Proof.
move=> h1 h2 h3 h4 h5 h6 h7 h8; split.
  exact (exponent_rank h1 p h2 h3 h4 (ex_intro _ s1 (ex_intro _ Y (And4 h5 h6 h7 h8)))).
exact (s_shaped_rank h1 h2 h3 h4 (ex_intro _ s1 (ex_intro _ Y (And4 h5 h6 h7 h8)))).
Qed.
Print Assumptions C103_exponent_rank_refuted.

(** An empty spectrum, in particular rank <= 1 for the two functions above, is an IndexError. *)
Theorem C103_empty (T : Type) (O : ops T) (G : Type) (L : lapack T) (r : rng_ops G T) (oexp : T -> T) m n (k : int) (p : T) f
    (s : st G T) :
  rand_low_rank L r m n (SpArr [::]) RGen f s = (s, inl IndexError) /\
  (k <= 1 -> exponent_spectrum L r oexp m n k RGen p f s = (s, inl IndexError) /\
             s_shaped_spectrum L r oexp m n k RGen f s = (s, inl IndexError)).
Proof. exact: rand_empty. Qed.
Print Assumptions C103_empty.

(** simple_mat multiplies column j of a Gaussian matrix by 1 / sqrt(1 + scale j), whatever
    factors the QR routine returns. *)
Theorem C103_simple_mat (R : rcfType) (G : Type) (r : rng_ops G R) (qrf : arr R -> res (arr R * arr R)) m n (c : R)
    (A : 'M[R]_(m, n)) (Q : 'M[R]_m) (U : 'M[R]_(m, n)) (s s1 : st G R) :
  0 <= c -> getgen (fun g => r_normal r g 1 m n) s = (s1, inr (ofmx A)) ->
  qrf (ofmx A) = Ok (ofmx Q, ofmx U) -> A = Q *m U ->
  simple_mat r qrf m n c RGen s = (s1, inr (ofmx (\matrix_(i, j) (A i j / Num.sqrt (1 + c * (j : nat)%:R))))).
Proof. move=> h1 h2 h3 h4; exact (simple_matE h1 h2 h3 h4). Qed.
Print Assumptions C103_simple_mat.

(** ** C104: make_demo_helper.  x_opt is the minimum-norm solution of the least squares problem;
    the parts of b inside and outside the range of A have norms |p| mean(s) and |1 - p| mean(s). *)
Theorem C104_make_demo (R : rcfType) (G : Type) (L : lapack R) (r : rng_ops G R) m n k (t : 'cV[R]_k) (p : R) (b0 : 'cV[R]_m)
    (X : 'M[R]_(m, k)) (Y : 'M[R]_(n, k)) (s s1 s2 s3 : st G R) :
  qr_spec L -> (0 < k)%N -> (k <= minn m n)%N -> (forall i, t i 0 != 0) ->
  gaussian_operator r true m k s = (s1, inr (PyArr (ofmx X))) -> \rank X = k ->
  gaussian_operator r true n k s1 = (s2, inr (PyArr (ofmx Y))) -> \rank Y = k ->
  getgen (fun g => r_stdnormal r g m 1) s2 = (s3, inr (ofmx b0)) ->
  X^T *m b0 != 0 -> ~~ (b0^T <= X^T)%MS ->
  let mean := (\sum_i t i 0) / k%:R in
  exists (U : 'M[R]_(m, k)) (V : 'M[R]_(k, n)) (A : 'M[R]_(m, n)) (b : 'cV[R]_m) (x : 'cV[R]_n),
   [/\ orthonormal U, orthonormal V^T,
    make_demo_helper L r m n (ofcv t) p RGen s =
      (s3, inr (Demo (ofmx A) (ofcv b) (ofcv x) (ofmx U) (ofcv t) (ofmx V))) &
    [/\ A = U *m diag_mx t^T *m V, A^T *m (b - A *m x) = 0, (exists y, x = A^T *m y),
      fro (A *m x) = `|p| * `|mean| & fro (b - A *m x) = `|1 - p| * `|mean|]].
Proof.
move=> h1 h2 h3 h4 h5 h6 h7 h8 h9 h10 h11.
exact (make_demoE h1 p h2 h3 h4 (ex_intro _ s1 (ex_intro _ Y (And4 h5 h6 h7 h8))) h9 h10 h11).
Qed.
Print Assumptions C104_make_demo.

(** resample_b keeps the matrix and its factors and replaces b and x_opt. *)
Theorem C104_resample (R : rcfType) (G : Type) (r : rng_ops G R) m n k (U : 'M[R]_(m, k)) (t : 'cV[R]_k) (V : 'M[R]_(k, n))
    (A : 'M[R]_(m, n)) (b1 x1 : seq R) (p : R) (b0 : 'cV[R]_m) (s s1 : st G R) :
  orthonormal U -> orthonormal V^T -> (forall i, t i 0 != 0) -> A = U *m diag_mx t^T *m V ->
  U^T *m b0 != 0 -> b0 - U *m (U^T *m b0) != 0 ->
  getgen (fun g => r_stdnormal r g m 1) s = (s1, inr (ofmx b0)) ->
  let mean := (\sum_i t i 0) / k%:R in
  exists (b : 'cV[R]_m) (x : 'cV[R]_n),
    resample_b r (Demo (ofmx A) b1 x1 (ofmx U) (ofcv t) (ofmx V)) p RGen s =
       (s1, inr (Demo (ofmx A) (ofcv b) (ofcv x) (ofmx U) (ofcv t) (ofmx V))) /\
    [/\ A = U *m diag_mx t^T *m V, A^T *m (b - A *m x) = 0, (exists y, x = A^T *m y),
      fro (A *m x) = `|p| * `|mean| & fro (b - A *m x) = `|1 - p| * `|mean|].
Proof. move=> h1 h2 h3 h4 h5 h6 h7; exact (resampleE b1 x1 p h1 h2 h3 h4 h5 h6 h7). Qed.
Print Assumptions C104_resample.

Example C104_hyps (R : rcfType) (s : st nat R) : qr_spec (exact_lapack R) /\
  exists s1 s2 s3, let X : 'M[R]_(3, 2) := \matrix_(i, j) (val i == val j)%:R in
  let b0 : 'cV[R]_3 := const_mx 1 in
  [/\ gaussian_operator (ones_rng R) true 3 2 s = (s1, inr (PyArr (ofmx X))),
      gaussian_operator (ones_rng R) true 3 2 s1 = (s2, inr (PyArr (ofmx X))), \rank X = 2%N,
      getgen (fun g => r_stdnormal (ones_rng R) g 3 1) s2 = (s3, inr (ofmx b0)) &
      X^T *m b0 != 0 /\ ~~ (b0^T <= X^T)%MS].
Proof. split; [exact: exact_qr|exact: makers_wit]. Qed.
