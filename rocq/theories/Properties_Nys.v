(** Property C95: error of the Nystrom eigendecomposition against the eigenvalues of a
    positive semidefinite matrix.  [psd_eig A U t]: A = U diag(t) U^T with orthonormal U
    and t >= 0 decreasing. *)
From mathcomp Require Import all_ssreflect all_algebra.
From Verif Require Import Base Arr Lapack Exact MxLib LapackSpec LapackExists Rng Aware RangeFinders QB SvdEvd.
From Verif Require Import P_Evd P_Iso P_Embed P_Embed3 P_Prob P_Prob2 P_Evd4 P_Prob3.
Set Implicit Arguments.
Unset Strict Implicit.
Unset Printing Implicit Defensive.
Import Order.TTheory GRing.Theory Num.Theory.
Local Open Scope ring_scope.

(** EVD2 with any sketch S: for every M, the error is bounded by the trace A leaves outside S M plus the
    eigenvalues beyond the pairs that are returned, up to the shift nu. *)
Theorem C95_evd2_trace (R : rcfType) (G : Type) (L : lapack R) (sk_op : @rowsketcher R G) n (A U : 'M[R]_n)
    (t : 'cV[R]_n) (k over : int) (s s1 s2 : st G R) p (S : 'M[R]_(n, p)) c (V : 'M[R]_(n, c)) (lam : 'cV[R]_c)
    (M : 'M[R]_(p, n)) :
  svd_spec L -> psd_eig A U t -> 0 < k < n%:Z -> 0 <= k + over -> (0 < p)%N ->
  sk_op (ofmx A) (absz (k + over)) s = (s1, inr (PyArr (ofmx S))) ->
  EVD2 L sk_op (ofmx A) k None over s = (s2, inr (ofmx V, ofcv lam)) ->
  let nu := Num.sqrt n%:R * 2%:R ^- 52 * fro (A *m S) in
  let leak := \tr ((1%:M - S *m M)^T *m (A + nu%:M) *m (1%:M - S *m M)) in
  [/\ (c <= absz k)%N,
      fro (A - V *m diag_mx lam^T *m V^T) <= leak + \sum_(i < n | (c <= i)%N) t i 0 + 2%:R * n%:R * nu,
      \tr A - \sum_i lam i 0 <= leak + \sum_(i < n | (c <= i)%N) t i 0 + n%:R * nu &
      (c < absz k)%N -> forall i : 'I_n, i = c :> nat ->
        fro (A - V *m diag_mx lam^T *m V^T) <= leak + t i 0 + 2%:R * n%:R * nu].
Proof. by move=> h1 h2 h3 h4 h5 h6 h7; exact (EVD2_trace h1 M h2 h3 h4 h5 h6 h7). Qed.
Print Assumptions C95_evd2_trace.

(** evd2 with its own Gaussian sketch of l = k + over columns and [np] power passes. *)
Theorem C95_evd2_prob (R : rcfType) (G : Type) (E : (G -> R) -> R) (L : lapack R) (r : rng_ops G R) n
    (A U : 'M[R]_n) (t : 'cV[R]_n) (rk np l : nat) (sg tau e th : R) (k over : int) :
  mean E -> positive E -> rng_ok r -> qr_spec L -> svd_spec L -> psd_eig A U t -> (rk <= n)%N ->
  0 <= sg -> (forall i : 'I_n, (rk <= i)%N -> t i 0 <= sg) ->
  ((0 < np)%N -> 0 < tau /\ forall i : 'I_n, (i < rk)%N -> tau <= t i 0) ->
  0 < e < 1 -> 0 < th -> 0 < k < n%:Z -> l%:Z = k + over -> (0 < l <= n)%N ->
  uncorrelated E r n l -> normal4 E r n l ->
  exists B : G -> bool,
    E (fun g => (~~ B g)%:R) <= (rk * rk + rk)%:R / (l%:R * e ^+ 2) + (2 * rk)%:R / (l%:R * th) /\
  forall g es, B g -> exists s1 (S : 'M[R]_(n, l)),
    RS1 (skopGA r) np%:Z (orth L) 1 (ofmx A) l (St g es) = (s1, inr (PyArr (ofmx S))) /\
    forall s' c (V : 'M[R]_(n, c)) (lam : 'cV[R]_c),
      evd2 L r (ofmx A) k over np.+1%:Z RGen (St g es) = (s', inr (ofmx V, ofcv lam)) ->
      let nu := Num.sqrt n%:R * 2%:R ^- 52 * fro (A *m S) in
      let err := (1 + (sg / tau) ^+ (2 * np) * (th / (1 - e) ^+ 2)) * \sum_(i < n | (rk <= i)%N) (t i 0 + nu) in
      [/\ (c <= absz k)%N, orthonormal V,
          fro (A - V *m diag_mx lam^T *m V^T) <= err + \sum_(i < n | (c <= i)%N) t i 0 + 2%:R * n%:R * nu &
          (c < absz k)%N -> forall i : 'I_n, i = c :> nat ->
            fro (A - V *m diag_mx lam^T *m V^T) <= err + t i 0 + 2%:R * n%:R * nu].
Proof.
move=> h1 h2 h3 h4 h5 h6 h7 h8 h9 h10 h11 h12 h13 h14 /andP[l0 ln] u n4.
exact (evd2_prob h1 h2 h3 h4 h5 h6 h7 h8 h9 h10 h11 h12 h13 h14 ln l0 u n4).
Qed.
Print Assumptions C95_evd2_prob.

(** With a power pass (num_passes >= 2) the sketch is orthonormal, evd2 returns and nu is relative to A. *)
Theorem C95_evd2_passes (R : rcfType) (G : Type) (E : (G -> R) -> R) (L : lapack R) (r : rng_ops G R) n
    (A U : 'M[R]_n) (t : 'cV[R]_n) (rk np l : nat) (sg tau e th : R) (k over : int) :
  mean E -> positive E -> rng_ok r -> qr_spec L -> svd_spec L -> psd_eig A U t -> (0 < rk <= n)%N ->
  0 <= sg -> (forall i : 'I_n, (rk <= i)%N -> t i 0 <= sg) -> (0 < np)%N ->
  0 < tau -> (forall i : 'I_n, (i < rk)%N -> tau <= t i 0) ->
  0 < e < 1 -> 0 < th -> 0 < k < n%:Z -> l%:Z = k + over -> (0 < l <= n)%N -> k <= l%:Z ->
  uncorrelated E r n l -> normal4 E r n l ->
  exists B : G -> bool,
    E (fun g => (~~ B g)%:R) <= (rk * rk + rk)%:R / (l%:R * e ^+ 2) + (2 * rk)%:R / (l%:R * th) /\
  forall g es, B g -> exists c (V : 'M[R]_(n, c)) (lam : 'cV[R]_c),
    (evd2 L r (ofmx A) k over np.+1%:Z RGen (St g es)).2 = inr (ofmx V, ofcv lam) /\
    let nu := Num.sqrt n%:R * 2%:R ^- 52 * fro A in
    let err := (1 + (sg / tau) ^+ (2 * np) * (th / (1 - e) ^+ 2)) * \sum_(i < n | (rk <= i)%N) (t i 0 + nu) in
    [/\ (c <= absz k)%N, orthonormal V,
        fro (A - V *m diag_mx lam^T *m V^T) <= err + \sum_(i < n | (c <= i)%N) t i 0 + 2%:R * n%:R * nu &
        (c < absz k)%N -> forall i : 'I_n, i = c :> nat ->
          fro (A - V *m diag_mx lam^T *m V^T) <= err + t i 0 + 2%:R * n%:R * nu].
Proof.
move=> h1 h2 h3 h4 h5 h6 /andP[r0 h7] h8 h9 np0 t0 h10 h11 h12 h13 h14 /andP[l0 ln] kl u n4.
exact (evd2_prob_passes h1 h2 h3 h4 h5 h6 h7 h8 h9 (fun _ => conj t0 h10) h11 h12 h13 h14 ln l0 u n4 np0 r0 kl).
Qed.
Print Assumptions C95_evd2_passes.

(** Eigenvalues 1, 1/2, ..., 1/2: 8 sketch columns and 8 power passes, failure below 1/2, factor below 2. *)
Example C95_hyps (R : rcfType) :
  let t : 'cV[R]_8 := \col_i (if i == 0 then 1 else 2%:R^-1) in let e : R := 9%:R / 10%:R in
  [/\ [/\ psd_eig (diag_mx t^T) 1%:M t, (forall i : 'I_8, (1 <= i)%N -> t i 0 <= 2%:R^-1) &
      (0 < 1 :> R) /\ forall i : 'I_8, (i < 1)%N -> 1 <= t i 0], 0 < e < 1,
      (1 * 1 + 1)%:R / (8%:R * e ^+ 2) + (2 * 1)%:R / (8%:R * 2%:R) < 2%:R^-1,
      (2%:R^-1 / 1) ^+ (2 * 8) * (2%:R / (1 - e) ^+ 2) < 1 &
      uncorrelated (@ga_mean R 8 8) (ga_rng R 8 8) 8 8 /\ normal4 (@ga_mean R 8 8) (ga_rng R 8 8) 8 8].
Proof.
split; [exact: nys_wit | exact: emb_wit_e | exact: nys_wit_fail | exact: nys_wit_err |].
by split; [exact: ga_uncorrelated | exact: ga_normal4].
Qed.
