(** Property theorems about random number generators.
    [reproducible c]: with a seed, [c] has the same outcome and emits the same
    events in every state and leaves the caller's generator alone; with a
    Generator, outcome, events and new generator state are functions of the
    generator state.  [seed_is_fresh r c]: the outcome with a seed is the outcome
    with a fresh [default_rng(seed)].  [fails c e s]: [c] raises [e] in state [s]
    and the generator is as before.  Nothing is assumed about LAPACK or the
    generator; the scalars are any type with the operations of [ops]. *)
From mathcomp Require Import all_ssreflect all_algebra.
From Verif Require Import Base Arr Lapack Exact LapackExists Rng Aware RangeFinders QB LstSq SaddleSys SvdEvd Interp.
From Verif Require Import Sketching Drivers P_Frame2.
Set Implicit Arguments.
Unset Strict Implicit.
Unset Printing Implicit Defensive.
Import Order.TTheory GRing.Theory Num.Theory.

(** ** C51: reproducibility. *)
Theorem C51_qb (T : Type) (O : ops T) (G : Type) (L : lapack T) (r : rng_ops G T) A k np blk ow tol :
  [/\ reproducible (rs1 L r A k np) /\ seed_is_fresh r (rs1 L r A k np),
      reproducible (rf1 L r A k np) /\ seed_is_fresh r (rf1 L r A k np),
      reproducible (qb L r np A k) /\ seed_is_fresh r (qb L r np A k),
      reproducible (qb_b L r np blk ow A k tol) /\ seed_is_fresh r (qb_b L r np blk ow A k tol) &
      reproducible (qb_b_pe L r np blk A k tol) /\ seed_is_fresh r (qb_b_pe L r np blk A k tol)].
Proof. exact (And5 (good_rs1 L r A k np) (good_rf1 L r A k np) (good_qb L r np A k) (good_qb_b L r np blk ow A k tol) (good_qb_b_pe L r np blk A k tol)). Qed.
Print Assumptions C51_qb.

Theorem C51_svd_evd (T : Type) (O : ops T) (G : Type) (L : lapack T) (r : rng_ops G T) asort A k over tol np blk :
  [/\ reproducible (svd1 L r A k over tol np blk) /\ seed_is_fresh r (svd1 L r A k over tol np blk),
      reproducible (evd1 L r asort A k tol over np blk) /\ seed_is_fresh r (evd1 L r asort A k tol over np blk) &
      reproducible (evd2 L r A k over np) /\ seed_is_fresh r (evd2 L r A k over np)].
Proof. exact (And3 (good_svd1 L r A k over tol np blk) (good_evd1 L r asort A k tol over np blk) (good_evd2 L r A k over np)). Qed.
Print Assumptions C51_svd_evd.

Theorem C51_interpolative (T : Type) (O : ops T) (G : Type) (L : lapack T) (r : rng_ops G T) A k over p axis :
  [/\ reproducible (rocs1 L r A k over p axis) /\ seed_is_fresh r (rocs1 L r A k over p axis),
      reproducible (osid1 L r A k over p axis) /\ seed_is_fresh r (osid1 L r A k over p axis),
      reproducible (osid2 L r A k over p axis) /\ seed_is_fresh r (osid2 L r A k over p axis),
      reproducible (tsid1 L r A k over p) /\ seed_is_fresh r (tsid1 L r A k over p) &
      reproducible (cur1 L r A k over p) /\ seed_is_fresh r (cur1 L r A k over p)].
Proof. exact (And5 (good_rocs1 L r A k over p axis) (good_osid1 L r A k over p axis) (good_osid2 L r A k over p axis) (good_tsid1 L r A k over p) (good_cur1 L r A k over p)). Qed.
Print Assumptions C51_interpolative.

Theorem C51_least_squares (T : Type) (O : ops T) (G : Type) (L : lapack T) (r : rng_ops G T) A b dl tol lim sf nnz md clk :
  [/\ reproducible (fun a => sso1 L r A b dl a sf nnz) /\ seed_is_fresh r (fun a => sso1 L r A b dl a sf nnz),
      reproducible (fun a => spo1 L r A b dl tol lim a sf nnz clk) /\
        seed_is_fresh r (fun a => spo1 L r A b dl tol lim a sf nnz clk),
      reproducible (fun a => spo3 L r A b dl tol lim a sf nnz md clk) /\
        seed_is_fresh r (fun a => spo3 L r A b dl tol lim a sf nnz md clk) &
      reproducible (fun a => spu1 L r A b tol lim a sf nnz clk) /\
        seed_is_fresh r (fun a => spu1 L r A b tol lim a sf nnz clk)].
Proof. exact (And4 (good_sso1 L r A b dl sf nnz) (good_spo1 L r A b dl tol lim sf nnz clk) (good_spo3 L r A b dl tol lim sf nnz md clk) (good_spu1 L r A b tol lim sf nnz clk)). Qed.
Print Assumptions C51_least_squares.

Theorem C51_saddle (T : Type) (O : ops T) (G : Type) (L : lapack T) (r : rng_ops G T) A b c dl tol lim sf nnz me clk :
  reproducible (fun a => sps L r A b c dl tol lim a sf nnz me clk) /\
  seed_is_fresh r (fun a => sps L r A b c dl tol lim a sf nnz me clk).
Proof. exact (good_sps L r A b c dl tol lim sf nnz me clk). Qed.
Print Assumptions C51_saddle.

(** The trigonometric transform refuses seeds, so it is only reproducible. *)
Theorem C51_sketching (T : Type) (O : ops T) (G : Type) (L : lapack T) (r : rng_ops G T) (k : @skop T) m n :
  reproducible (fun a => skop_call L r k m n a).
Proof. exact (rp_skop L r k m n). Qed.
Print Assumptions C51_sketching.

(** ** C51: a failed argument check leaves the generator untouched. *)
Theorem C51_checks_qb (T : Type) (O : ops T) (G : Type) (L : lapack T) (r : rng_ops G T) A k np blk ow tol a s :
  [/\ (np < 0)%R || ~~ ((0 < k)%R && (k <= (minn (nr A) (nc A))%:Z)%R) -> fails (rs1 L r A k np a) AssertionError s,
      (np < 1)%R || ~~ ((0 < k)%R && (k <= (minn (nr A) (nc A))%:Z)%R) -> fails (rf1 L r A k np a) AssertionError s,
      (np < 2)%R || ~~ ((0 < k)%R && (k <= (minn (nr A) (nc A))%:Z)%R) -> fails (qb L r np A k a) AssertionError s,
      (k <= 0)%R || ((np < 2)%R || (blk <= 0)%R || (minn (nr A) (nc A) == 0)%N) ->
        fails (qb_b L r np blk ow A k tol a) AssertionError s &
      (np < 1)%R || ~~ ((0 < k)%R && (k < (minn (nr A) (nc A))%:Z)%R) ->
        fails (qb_b_pe L r np blk A k tol a) AssertionError s].
Proof. exact (And5 (@rs1_fails _ _ _ L r A k np a s) (@rf1_fails _ _ _ L r A k np a s) (@qb_fails _ _ _ L r A k np a s) (@qb_b_fails _ _ _ L r np blk ow A k tol a s) (@qb_b_pe_fails _ _ _ L r np blk A k tol a s)). Qed.
Print Assumptions C51_checks_qb.

Theorem C51_checks_svd_evd (T : Type) (O : ops T) (G : Type) (L : lapack T) (r : rng_ops G T)
    asort A k over tol np blk a s :
  let blocks_bad := (k + over <= 0)%R || ((np < 2)%R || (blk <= 0)%R || (minn (nr A) (nc A) == 0)%N) in
  [/\ blocks_bad -> fails (svd1 L r A k over tol np blk a) AssertionError s,
      ~~ ((0 < k)%R && (k <= (minn (nr A) (nc A))%:Z)%R) ||
        (if tol is Some t then ~~ (o0 <= t / onat 2)%O else false) || blocks_bad ->
        fails (evd1 L r asort A k tol over np blk a) AssertionError s &
      (np < 1)%R || ~~ ((0 < k)%R && (k < (nr A)%:Z)%R) -> fails (evd2 L r A k over np a) AssertionError s].
Proof. exact (And3 (@svd1_fails _ _ _ L r A k over tol np blk a s) (@evd1_fails _ _ _ L r asort A k tol over np blk a s) (@evd2_fails _ _ _ L r A k over np a s)). Qed.
Print Assumptions C51_checks_svd_evd.

Theorem C51_checks_interpolative (T : Type) (O : ops T) (G : Type) (L : lapack T) (r : rng_ops G T)
    A k over p axis a s : (p < 1)%R -> (0 <= k%:Z + over)%R -> (axis == 0)%R || (axis == 1)%R ->
  [/\ fails (rocs1 L r A k over p axis a) AssertionError s, fails (osid1 L r A k over p axis a) AssertionError s,
      fails (osid2 L r A k over p axis a) AssertionError s & fails (tsid1 L r A k over p a) AssertionError s].
Proof. by move=> p1 c0 ax; exact (And4 (rocs1_fails L r A a s p1 c0 ax) (osid1_fails L r A a s p1 c0 ax) (osid2_fails L r A a s p1 c0 ax) (tsid1_fails L r A a s p1 c0)). Qed.
Print Assumptions C51_checks_interpolative.

Theorem C51_checks_cur (T : Type) (O : ops T) (G : Type) (L : lapack T) (r : rng_ops G T) A k over p a s :
  (p < 2)%R -> (0 <= k%:Z + over)%R -> fails (cur1 L r A k over p a) AssertionError s.
Proof. exact: cur1_fails. Qed.
Print Assumptions C51_checks_cur.

Theorem C51_checks_axis (T : Type) (O : ops T) (G : Type) (L : lapack T) (r : rng_ops G T) A k over p axis a s :
  ~~ ((axis == 0)%R || (axis == 1)%R) ->
  [/\ fails (rocs1 L r A k over p axis a) ValueError s, fails (osid1 L r A k over p axis a) ValueError s &
      fails (osid2 L r A k over p axis a) ValueError s].
Proof. exact: axis_fails. Qed.
Print Assumptions C51_checks_axis.

Theorem C51_checks_least_squares (T : Type) (O : ops T) (G : Type) (L : lapack T) (r : rng_ops G T)
    A b dl tol lim a sf nnz md clk s :
  (nr A < nc A)%N || (trunc_rat (sf * (nc A)%:R)%R < (nc A)%:Z)%R ->
  [/\ fails (sso1 L r A b dl a sf nnz) AssertionError s,
      ~~ (dl < o0)%O -> fails (spo3 L r A b dl tol lim a sf nnz md clk) AssertionError s &
      fails (spu1 L r A b tol lim a sf nnz clk) AssertionError s].
Proof. by move=> h; exact (And3 (sso1_fails L r b dl a nnz s h) (fun d0 => spo3_fails L r b tol lim a nnz md clk s d0 h) (spu1_fails L r b tol lim a nnz clk s h)). Qed.
Print Assumptions C51_checks_least_squares.

(** The generator really is advanced by a call that gets past the checks. *)
Example C51_generator_used (R : rcfType) :
  gen (sjlt_operator (@toy_rng R (rcf_ops R)) 1 2 RGen 1 (St 0%N [::])).1 != 0%N.
Proof. by cbv. Qed.
Example C51_hyps (R : rcfType) (A := @mzeros R (rcf_ops R) 2 3) :
  [&& ((0 : int) < 1)%R, ~~ ((0 < (3 : int))%R && ((3 : int) <= (minn (nr A) (nc A))%:Z)%R) & (nr A < nc A)%N].
Proof. by []. Qed.
