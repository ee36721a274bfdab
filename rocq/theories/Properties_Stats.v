(** Property theorems about parla/utils/stats.py.  [sse P a b] is the sum over
    the samples (u, v) in P of (a + b u - v)^2 and [sst P] the sum of the
    squared deviations of v from its mean. *)
From mathcomp Require Import all_ssreflect all_algebra.
From Verif Require Import Base Arr Lapack Exact MxLib LapackSpec LapackExists Stats P_Stats.
Set Implicit Arguments.
Unset Strict Implicit.
Unset Printing Implicit Defensive.
Import Order.TTheory GRing.Theory Num.Theory.
Local Open Scope ring_scope.

(** ** C50: fits. *)
Theorem C50_loglinear (R : rcfType) (L : lapack R) (G : Type) (log : R -> R) (x y : seq R) (s : st G R) :
  lstsq_spec L -> size x = size y ->
  let P := [seq (p.1, log p.2) | p <- zip x y & 0 < p.2] in P != [::] ->
  exists a b, loglinear_fit L log x y s =
    (St (gen s) (evs s ++ if all (fun v => 0 < v) y then [::] else [:: EvWarn W_fit_drop]),
     inr ([:: a; b], 1 - sse P a b / sst P)) /\
    forall a' b', sse P a b <= sse P a' b'.
Proof. by move=> ls; exact: loglinear_ok. Qed.
Print Assumptions C50_loglinear.

Theorem C50_loglog (R : rcfType) (L : lapack R) (G : Type) (log : R -> R) (x y : seq R) (s : st G R) :
  lstsq_spec L -> size x = size y ->
  let K := [seq p <- zip x y | 0 < p.2] in
  let P := [seq (log p.1, log p.2) | p <- K] in P != [::] ->
  (forall p, p \in K -> 0 < p.1) ->
  exists a b, loglog_fit L log x y s =
    (St (gen s) (evs s ++ if all (fun v => 0 < v) y then [::] else [:: EvWarn W_fit_drop]),
     inr ([:: a; b], 1 - sse P a b / sst P)) /\
    forall a' b', sse P a b <= sse P a' b'.
Proof. by move=> ls; exact: loglog_ok. Qed.
Print Assumptions C50_loglog.

Theorem C50_loglog_raises (R : rcfType) (L : lapack R) (G : Type) (log : R -> R) (x y : seq R) (s : st G R) :
  size x = size y -> (exists p, [/\ p \in zip x y, 0 < p.2 & p.1 <= 0]) ->
  (loglog_fit L log x y s).2 = inl ValueError.
Proof. exact: loglog_err. Qed.
Print Assumptions C50_loglog_raises.

Theorem C50_size_mismatch (R : rcfType) (L : lapack R) (G : Type) (log : R -> R) (x y : seq R) (s : st G R) :
  size x <> size y ->
  loglinear_fit L log x y s = (s, inl AssertionError) /\ loglog_fit L log x y s = (s, inl AssertionError).
Proof. exact: fit_mismatch. Qed.
Print Assumptions C50_size_mismatch.

Theorem C50_r_squared (R : rcfType) (P : seq (R * R)) a b :
  (exists p q, [/\ p \in P, q \in P & p.2 != q.2]) ->
  (forall a' b', sse P a b <= sse P a' b') ->
  0 <= 1 - sse P a b / sst P <= 1 /\
  ((1 - sse P a b / sst P = 1) <-> forall p, p \in P -> p.2 = a + b * p.1).
Proof. exact: r2_range. Qed.
Print Assumptions C50_r_squared.

Theorem C50_unique (R : rcfType) (P : seq (R * R)) a b a' b' :
  (exists p q, [/\ p \in P, q \in P & p.1 != q.1]) ->
  (forall c d, sse P a b <= sse P c d) -> sse P a' b' <= sse P a b -> a' = a /\ b' = b.
Proof. exact: sse_unique. Qed.
Print Assumptions C50_unique.

(** On exactly log-linear data the first coefficient is the intercept and the
    second one the rate; the docstring's "a < 0" test concerns the second. *)
Theorem C50_exact_data (R : rcfType) (L : lapack R) (G : Type) (log : R -> R) (x y : seq R) (s : st G R) (al be : R) :
  lstsq_spec L -> size x = size y ->
  let K := [seq p <- zip x y | 0 < p.2] in
  (forall p, p \in K -> log p.2 = al + be * p.1) ->
  (exists p q, [/\ p \in K, q \in K & p.1 != q.1]) ->
  (loglinear_fit L log x y s).2 = inr ([:: al; be], 1).
Proof. by move=> ls; exact: loglinear_exact. Qed.
Print Assumptions C50_exact_data.

Example C50_hyps (R : rcfType) : lstsq_spec (exact_lapack R) /\
  [seq (p.1, p.2 - 1) | p <- zip [:: 0 : R; 1; 2%:R] [:: 1 : R; 0; 2%:R] & 0 < p.2] = [:: (0 : R, 0 : R); (2%:R, 1)].
Proof.
split; first exact: exact_lstsq.
by rewrite /= ltr01 ltxx ltr0n /= subrr -[X in _ - X]/(1%:R) -natrB.
Qed.
