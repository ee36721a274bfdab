(** Property C99: the guarantees survive QR and least squares routines that are only
    approximately right.  [qr_near L eta dl]: QR returns Q with || Q^T Q - I || <= eta
    (spectral norm) and || A - Q U ||_F <= dl || A ||_F; [lstsq_near L tau]: the residual is
    within the factor 1 + tau of the least one.  [rho eta] = eta sqrt ((1 + eta) / (1 - eta)).
    With eta = dl = tau = 0 these are the exact contracts ([C99_exact]). *)
From mathcomp Require Import all_ssreflect all_algebra.
From Verif Require Import Base Arr Lapack Exact MxLib LapackSpec LapackExists Rng Aware RangeFinders QB Inexact.
From Verif Require Import Sketching LstSq SaddleSys Drivers P_QB2 P_LS P_LS5 P_Rate3 P_Iso P_Embed P_Embed2 P_Embed3.
From Verif Require Import P_Inexact P_Inexact2 P_Inexact3 P_Inexact4.
Set Implicit Arguments.
Unset Strict Implicit.
Unset Printing Implicit Defensive.
Import Order.TTheory GRing.Theory Num.Theory.
Local Open Scope ring_scope.

Theorem C99_qb (R : rcfType) (G : Type) (L : lapack R) (eta dl : R) (r : rng_ops G R) (np : int) m n
    (A : 'M[R]_(m, n)) k a (s : st G R) :
  0 <= eta < 1 -> qr_near L eta dl -> rng_ok r -> 2 <= np -> (0 < k)%N -> (k <= minn m n)%N ->
  exists s' (Q : 'M[R]_(m, k)),
    [/\ qb L r np (ofmx A) k%:Z a s = (s', inr (ofmx Q, ofmx (Q^T *m A))), near_ortho eta Q &
        forall C : 'M[R]_(k, n),
          fro (A - Q *m (Q^T *m A)) <= (1 + rho eta) * fro (A - Q *m C) + rho eta * fro A].
Proof. move=> h1 h2 h3 h4 h5 h6; exact (near_qb h1 h2 A a s h3 h4 h5 h6). Qed.
Print Assumptions C99_qb.

Theorem C99_qb1 (R : rcfType) (G : Type) (L : lapack R) (eta dl : R) rso m n (A : 'M[R]_(m, n)) k
    (s s1 : st G R) (S : 'M[R]_(n, k)) :
  0 <= eta < 1 -> qr_near L eta dl ->
  (0 < k)%N -> (k <= minn m n)%N -> rso (ofmx A) k s = (s1, inr (PyArr (ofmx S))) ->
  exists Q : 'M[R]_(m, k),
    [/\ (QB1 (RF1 L rso) (ofmx A) k%:Z None s).2 = inr (ofmx Q, ofmx (Q^T *m A)), near_ortho eta Q,
        forall C : 'M[R]_(k, n),
          fro (A - Q *m (Q^T *m A)) <= (1 + rho eta) * fro (A - Q *m C) + rho eta * fro A &
        forall r w (V : 'M[R]_(n, r)) (W : 'M[R]_(k, r)), 0 <= w -> orthonormal V -> V^T *m S *m W = 1%:M ->
          (forall v : 'cV[R]_k, fro2 (W^T *m v) <= w ^+ 2 * fro2 v) ->
          let F := A - A *m V *m V^T in
          fro (A - Q *m (Q^T *m A)) <=
          (1 + rho eta) * (Num.sqrt (fro2 F + fro2 (F *m S *m W)) + w * dl * fro (A *m S)) + rho eta * fro A].
Proof. move=> h1 h2 h3 h4 h5; exact (near_QB1 h1 h2 h3 h4 h5). Qed.
Print Assumptions C99_qb1.

Theorem C99_qb_prob (R : rcfType) (G : Type) (E : (G -> R) -> R) (L : lapack R) (r : rng_ops G R) (eta dl : R)
    m n l q rk (A : 'M[R]_(m, n)) (U : 'M[R]_(m, q)) (t : 'cV[R]_q) (Vh : 'M[R]_(q, n)) e th u :
  mean E -> positive E -> rng_ok r -> 0 <= eta < 1 -> qr_near L eta dl ->
  0 <= dl -> (0 < l <= minn m n)%N -> uncorrelated E r n l -> normal4 E r n l ->
  A = U *m diag_mx t^T *m Vh -> orthonormal U -> orthonormal Vh^T -> (rk <= q)%N ->
  0 < e < 1 -> 0 < th -> 0 < u ->
  exists B : G -> bool, E (fun g => (~~ B g)%:R) <= (rk * rk + rk)%:R / (l%:R * e ^+ 2) + rk%:R / (l%:R * th) + u^-1 /\
  forall g es, B g -> exists Q : 'M[R]_(m, l),
    [/\ (qb L r 2 (ofmx A) l%:Z RGen (St g es)).2 = inr (ofmx Q, ofmx (Q^T *m A)), near_ortho eta Q &
        fro (A - Q *m (Q^T *m A)) <=
        (1 + rho eta) * (Num.sqrt ((1 + th / (1 - e) ^+ 2) * \sum_(i < q | (rk <= i)%N) t i 0 ^+ 2) +
                         dl * Num.sqrt (u / (1 - e)) * fro A) + rho eta * fro A].
Proof. move=> h1 h2 h3 h4 h5 h6 h7 h8 h9 h10 h11 h12 h13 h14 h15 h16; exact (near_prob h1 h2 h3 h4 h5 h6 h7 h8 h9 h10 h11 h12 h13 h14 h15 h16). Qed.
Print Assumptions C99_qb_prob.

Theorem C99_qb_b (R : rcfType) (G : Type) (L : lapack R) (eta dl : R) (r : rng_ops G R) (np blk : int) ow m n
    (A : 'M[R]_(m, n)) (k : int) tol a (s : st G R) :
  0 <= eta -> qr_near L eta dl ->
  eta < 1 -> rng_ok r -> 2 <= np -> (0 < m)%N -> (0 < n)%N -> 0 < k -> 0 < blk ->
  exists s' c (Q : 'M[R]_(m, c)) (B : 'M[R]_(c, n)),
    [/\ qb_b L r np blk ow (ofmx A) k tol a s =
          (s', inr (ofmx Q, ofmx B, ofmx (if ow then A - Q *m B else A))),
        (0 < c <= minn (absz k) (minn m n))%N,
        `|fro2 (A - Q *m B) - (fro2 A - fro2 B)| <= eta / (1 - eta) * fro2 A &
        (c < minn (absz k) (minn m n))%N ->
          exists t, [/\ tol = Some t, 0 < t & fro2 (A - Q *m B) <= (t ^+ 2 + eta / (1 - eta)) * fro2 A]].
Proof. move=> h1 h2 h3 h4 h5 h6 h7 h8 h9; exact (near_qb_b h1 h2 ow A tol a s h3 h4 h5 h6 h7 h8 h9). Qed.
Print Assumptions C99_qb_b.

(** Any rangefinder that answers with the requested shape. *)
Theorem C99_qb2 (R : rcfType) (G : Type) (L : lapack R) (eta dl : R) (rf : rangefinder) (blk : int) ow m n
    (A : 'M[R]_(m, n)) (k : int) tol (s : st G R) :
  0 <= eta -> qr_near L eta dl ->
  eta < 1 -> rf_shape rf -> (0 < m)%N -> (0 < n)%N -> 0 < k -> 0 < blk ->
  exists s' c (Q : 'M[R]_(m, c)) (B : 'M[R]_(c, n)),
    [/\ QB2 L rf blk ow (ofmx A) k tol s =
          (s', inr (ofmx Q, ofmx B, ofmx (if ow then A - Q *m B else A))),
        (0 < c <= minn (absz k) (minn m n))%N,
        `|fro2 (A - Q *m B) - (fro2 A - fro2 B)| <= eta / (1 - eta) * fro2 A &
        (c < minn (absz k) (minn m n))%N ->
          exists t, [/\ tol = Some t, 0 < t & fro2 (A - Q *m B) <= (t ^+ 2 + eta / (1 - eta)) * fro2 A]].
Proof. move=> h1 h2 h3 h4 h5 h6 h7 h8; exact (near_QB2 h1 h2 ow A tol s h3 h4 h5 h6 h7 h8). Qed.
Print Assumptions C99_qb2.

(** The floor [eta] of the error at an early stop is really there: with a QR whose Q is
    off by [eta], QB2 stops early however small the tolerance, with squared error [eta * fro2 A]. *)
Theorem C99_qb2_floor (R : rcfType) (eta : R) : 0 <= eta ->
  qr_near (bent_lapack eta) eta 0 /\
  exists (rf : rangefinder (T:=R) (G:=nat)) (A : 'M[R]_2), rf_shape rf /\ 0 < fro2 A /\
  forall ow (t : R) s, 0 < t ->
  exists s' (Q : 'M[R]_(2, 1)) (B : 'M[R]_(1, 2)) A',
    QB2 (bent_lapack eta) rf 1 ow (ofmx A) 2 (Some t) s = (s', inr (ofmx Q, ofmx B, A')) /\
    fro2 (A - Q *m B) = eta * fro2 A.
Proof. exact: tight_floor. Qed.
Print Assumptions C99_qb2_floor.

Theorem C99_sso1 (R : rcfType) (G : Type) (L : lapack R) (tau : R) (g : nat -> nat -> M G R (pyop R)) (sf : rat)
    m n (A : 'M[R]_(m, n)) (b : 'cV[R]_m) (dl : R) (tol : option R) (lim : int) s :
  0 <= tau -> lstsq_near L tau -> lsq_ok g sf m n -> 0 <= dl ->
  exists s1 d (Sm : 'M[R]_(d, m)) (x : 'cV[R]_n),
  [/\ d%:Z = Num.min (trunc_rat (sf * n%:R)) m%:Z,
      exists s0 Sk, [/\ gen s0 = gen s, g d m s0 = (s1, inr Sk) & py_is Sk Sm],
      SSO1 L g sf (ofmx A) (ofcv b) dl tol lim s = (s1, inr (ofcv x)),
      forall z, ridge (Sm *m A) (Sm *m b) dl x <= (1 + tau) ^+ 2 * ridge (Sm *m A) (Sm *m b) dl z &
      forall lo hi, embeds2 Sm A b lo hi -> dl = 0 \/ lo <= 1 /\ 1 <= hi ->
      forall z, lo * ridge A b dl x <= (1 + tau) ^+ 2 * hi * ridge A b dl z].
Proof. move=> h1 h2 h3 h4; exact (near_sso1 h1 h2 A b tol lim s h3 h4). Qed.
Print Assumptions C99_sso1.

Theorem C99_sso1_prob (R : rcfType) (G : Type) (E : (G -> R) -> R) (L : lapack R) (r : rng_ops G R) (tau : R)
    m n (A : 'M[R]_(m, n)) (sf : rat) (nnz d : nat) (e : R) b :
  0 <= tau -> lstsq_near L tau -> mean E -> positive E -> rng_ok r ->
  (0 < n <= m)%N -> (0 < nnz <= n)%N -> n%:Z <= trunc_rat (sf * n%:R) ->
  0 < e < 1 -> d%:Z = Num.min (trunc_rat (sf * n%:R)) m%:Z -> sjlt_law E r d m nnz ->
  exists B : G -> bool, E (fun g => (~~ B g)%:R) <= ((n + 1) * (n + 1) + (n + 1))%:R / (d%:R * e ^+ 2) /\
  forall g es dl, B g -> 0 <= dl -> exists x : 'cV[R]_n,
    (sso1 L r (ofmx A) (ofcv b) dl RGen sf nnz (St g es)).2 = inr (ofcv x) /\
    forall z, (1 - e) * ridge A b dl x <= (1 + tau) ^+ 2 * (1 + e) * ridge A b dl z.
Proof. move=> h1 h2 h3 h4 h5 h6 h7 h8 h9 h10 h11; exact (near_sso1_prob h1 h2 h3 h4 h5 A b h6 h7 h8 h9 h10 h11). Qed.
Print Assumptions C99_sso1_prob.

(** Exact routines meet the contracts with zero error, and so with any larger one. *)
Theorem C99_exact (R : rcfType) (L : lapack R) :
  (qr_spec L -> qr_near L 0 0) /\ (forall tau, 0 <= tau -> lstsq_spec L -> lstsq_near L tau).
Proof. by split; [exact: qr_near_exact | move=> tau; exact: lstsq_near_exact]. Qed.
Print Assumptions C99_exact.

(** A QR with a genuine error, for every [0 <= eta]; its Q is not orthonormal if [eta > 0]. *)
Example C99_hyps (R : rcfType) (eta : R) : 0 < eta ->
  qr_near (bent_lapack eta) eta 0 /\ ~ qr_spec (bent_lapack eta) /\ lstsq_near (bent_lapack eta) 0.
Proof. exact: bent_wit. Qed.
