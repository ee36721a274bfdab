(** C87: the warnings of the procedural functions.  [warns W c]: every run of
    [c], whether it returns or raises, adds exactly the warnings [W]. *)
From mathcomp Require Import all_ssreflect all_algebra.
From Verif Require Import Base Arr Lapack Rng Aware RangeFinders QB Pcg Lsqr Precond LstSq SaddleSys SvdEvd Interp.
From Verif Require Import Sketching Drivers P_Warn.
Set Implicit Arguments.
Unset Strict Implicit.
Unset Printing Implicit Defensive.

(** Functions that never warn. *)
Theorem C87_never (G T : Type) (O : ops T) (L : lapack T) (r : rng_ops G T) A np blk k kn tol over p axis a :
  [/\ [/\ silent (rs1 L r A k np a), silent (qb L r np A k a), silent (qb_b_pe L r np blk A k tol a) &
          silent (evd2 L r A k over np a)],
      [/\ silent (rocs1 L r A kn over p axis a), silent (osid1 L r A kn over p axis a) &
          silent (osid2 L r A kn over p axis a)] &
      silent (tsid1 L r A kn over p a) /\ silent (cur1 L r A kn over p a)].
Proof.
exact (And3 (And4 (sl_rs1 L r A k np a) (sl_qb L r np A k a) (sl_qb_b_pe L r np blk A k tol a) (sl_evd2 L r A k over np a))
  (And3 (sl_rocs1 L r A kn over p axis a) (sl_osid1 L r A kn over p axis a) (sl_osid2 L r A kn over p axis a))
  (conj (sl_tsid1 L r A kn over p a) (sl_cur1 L r A kn over p a))).
Qed.
Print Assumptions C87_never.

(** The rank warning: exactly when the requested rank exceeds the smaller
    dimension. *)
Theorem C87_rank (G T : Type) (O : ops T) (L : lapack T) (r : rng_ops G T) asort A np blk ov k tol over a :
  let rank_warning (j : int) := if ((minn (nr A) (nc A))%:Z < j)%R then [:: W_qb2_rank] else [::] in
  [/\ warns (rank_warning k) (qb_b L r np blk ov A k tol a),
      warns (rank_warning (k + over)%R) (svd1 L r A k over tol np blk a) &
      (0 < k <= (minn (nr A) (nc A))%:Z)%R -> (2 <= np)%R ->
      (if half_tol tol is Some t then (o0 <= t)%O else true) ->
      warns (rank_warning (k + over)%R) (evd1 L r asort A k tol over np blk a)].
Proof.
exact (And3 (wn_qb_b L r np blk ov A k tol a) (wn_svd1 L r A k over tol np blk a)
  (fun hk h2 h3 => wn_evd1 L r asort over blk a (proj1 (andP hk)) (proj2 (andP hk)) h2 h3)).
Qed.
Print Assumptions C87_rank.

(** The sketch size warning of the least squares drivers: exactly when the
    problem is tall and [int(sampling_factor * n)] exceeds the number of rows. *)
Theorem C87_dim (G T : Type) (O : ops T) (L : lapack T) (r : rng_ops G T) A b c dl tol lim a sf nnz md clk :
  let dim_warning := if (nc A <= nr A)%N && ((nr A)%:Z < trunc_rat (sf * (nc A)%:R))%R then [:: W_dim] else [::] in
  (nnz <= nc A)%N ->
  [/\ warns dim_warning (sso1 L r A b dl a sf nnz),
      (dl < o0)%O = false -> warns dim_warning (spo3 L r A b dl tol lim a sf nnz md clk) /\
                             warns dim_warning (spo1 L r A b dl tol lim a sf nnz clk) &
      warns dim_warning (spu1 L r A c tol lim a sf nnz clk)].
Proof.
exact (fun h => And3 (wn_sso1 L r b dl a sf h)
  (fun d0 => conj (wn_spo3 L r b tol lim a sf md clk h d0) (wn_spo3 L r b tol lim a sf MSvd clk h d0))
  (wn_spu1 L r c tol lim a sf clk h)).
Qed.
Print Assumptions C87_dim.

(** [sps] is silent when the sketch has room for the requested nonzeros. *)
Theorem C87_sps (G T : Type) (O : ops T) (L : lapack T) (r : rng_ops G T) A b c dl tol lim a sf nnz me clk :
  (nnz <= nr A)%N -> (nnz%:Z <= trunc_rat (sf * (nc A)%:R))%R ->
  silent (sps L r A b c dl tol lim a sf nnz me clk).
Proof. by move=> h1 h2; exact (sl_sps L r b c dl tol lim a me clk h1 h2). Qed.
Print Assumptions C87_sps.

(** The sketching operators: only [SkOpSJ] warns, exactly when the vectors have
    no room for the requested number of nonzeros. *)
Theorem C87_skop (G T : Type) (O : ops T) (L : lapack T) (r : rng_ops G T) k m n a :
  warns (if k is SkOpSJ z then if (minn m n < minn (maxn m n) z)%N then [:: W_sjlt_size] else [::] else [::])
    (skop_call L r k m n a).
Proof. exact (wn_skop L r k m n a). Qed.
Print Assumptions C87_skop.

(** [rf1] has no tolerance argument, yet every call with an admissible rank
    warns that the tolerance is ignored (rangefinders.py 71 passes 0.0, and
    only NaN is silent). *)
Theorem C87_rf1_warns (G T : Type) (O : ops T) (L : lapack T) (r : rng_ops G T) A k np a :
  (0 < k)%R -> (k <= (minn (nr A) (nc A))%:Z)%R -> warns [:: W_rf_tol] (rf1 L r A k np a).
Proof. by move=> h1 h2; have := wn_rf1 L r A k np a; rewrite h1 h2. Qed.
Print Assumptions C87_rf1_warns.

Theorem C87_rf1_refuted (G T : Type) (O : ops T) (L : lapack T) (r : rng_ops G T) (s : st G T) :
  exists A k, [/\ (0 < k)%R, (k <= (minn (nr A) (nc A))%:Z)%R & ~ silent (rf1 L r A k 1%R RGen)].
Proof. exact (rf1_not_silent L r s). Qed.
Print Assumptions C87_rf1_refuted.

(** Runs with and without the warning. *)
Example C87_cases :
  [/\ (if (2 <= 3)%N && (3%:Z < trunc_rat (2%:Q * 2%:R))%R then [:: W_dim] else [::]) = [:: W_dim],
      (if (2 <= 5)%N && (5%:Z < trunc_rat (2%:Q * 2%:R))%R then [:: W_dim] else [::]) = [::],
      (if (minn 3 5 < minn (maxn 3 5) 4)%N then [:: W_sjlt_size] else [::]) = [:: W_sjlt_size] &
      warns [::] (@ret unit unit _ tt) /\ ~ warns [::] (@emit unit unit (EvWarn W_dim))].
Proof.
split=> //; split; first exact: silent_ret.
by move=> /(_ (St tt [::])).
Qed.
