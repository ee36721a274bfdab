(** Properties C96 and C97: shapes, exceptions and iteration counts in any arithmetic.
    [T] and [O] are arbitrary scalars and operations (no law is assumed: IEEE doubles with NaN and
    infinities are an instance), [L] any LAPACK with the documented shapes, [r] any Generator.
    [safe X P c]: from every state, [c] raises an exception in [X] or returns a value with [P];
    the other exceptions, in particular internal shape mismatches (ValueError), failed assertions
    and non-termination (Diverge), do not occur. *)
From mathcomp Require Import all_ssreflect all_algebra.
From Verif Require Import Base Arr Lapack Rng Aware RangeFinders QB SvdEvd Interp.
From Verif Require Import Pcg Lsqr Precond LstSq SaddleSys Sketching Drivers Shape P_Shape P_ShapeLS.
Set Implicit Arguments.
Unset Strict Implicit.
Unset Printing Implicit Defensive.
Local Open Scope ring_scope.

Theorem C96_rf1 (T : Type) (O : ops T) (G : Type) (X : exn -> Prop) (L : lapack T) (r : rng_ops G T) m n (A : arr T)
    (k num_passes : int) a :
  lap_shapes X L -> rng_ok r -> 0 < k <= (minn m n)%:Z -> 1 <= num_passes -> shaped m n A ->
  safe X (shaped m (absz k)) (rf1 L r A k num_passes a).
Proof. by move=> h1 h2 h3 h4 h5; exact (safe_rf1 h1 h2 a h3 h4 h5). Qed.
Print Assumptions C96_rf1.

Theorem C96_qb (T : Type) (O : ops T) (G : Type) (X : exn -> Prop) (L : lapack T) (r : rng_ops G T) m n (A : arr T)
    (k num_passes : int) a :
  lap_shapes X L -> rng_ok r -> 0 < k <= (minn m n)%:Z -> 2 <= num_passes -> shaped m n A ->
  safe X (fun QB => shaped m (absz k) QB.1 /\ shaped (absz k) n QB.2) (qb L r num_passes A k a).
Proof. by move=> h1 h2 h3 h4 h5; exact (safe_qb h1 h2 a h3 h4 h5). Qed.
Print Assumptions C96_qb.

(** qb_b, with and without overwriting A: any k, any tolerance; also the matrix left in A has A's shape. *)
Theorem C96_qb_b (T : Type) (O : ops T) (G : Type) (X : exn -> Prop) (L : lapack T) (r : rng_ops G T) m n (A : arr T)
    (k num_passes : int) (blk : nat) (overwrite : bool) tol a :
  lap_shapes X L -> rng_ok r -> (0 < minn m n)%N -> 0 < k -> (0 < blk)%N -> 2 <= num_passes -> shaped m n A ->
  safe X (fun x => exists2 c, blocks blk (minn (absz k) (minn m n)) c &
           [/\ shaped m c x.1.1, shaped c n x.1.2 & shaped m n x.2]) (qb_b L r num_passes blk%:Z overwrite A k tol a).
Proof. by move=> h1 h2 h3 h4 h5 h6 h7; exact (safe_qb_b h1 h2 overwrite tol a h3 h4 h5 h6 h7). Qed.
Print Assumptions C96_qb_b.

(** The pass-efficient variant: a triangular solve may find an exactly zero pivot (LinAlgError). *)
Theorem C96_qb_b_pe (T : Type) (O : ops T) (G : Type) (X : exn -> Prop) (L : lapack T) (r : rng_ops G T) m n (A : arr T)
    (k num_passes : int) (blk : nat) tol a :
  lap_shapes X L -> rng_ok r -> X LinAlgError -> 0 < k < (minn m n)%:Z -> (0 < blk)%N -> 1 <= num_passes -> shaped m n A ->
  safe X (fun x => exists2 c, (c <= absz k)%N /\ (c = absz k \/ (blk %| c)%N) & shaped m c x.1 /\ shaped c n x.2)
    (qb_b_pe L r num_passes blk%:Z A k tol a).
Proof. by move=> h1 h2 h3 h4 h5 h6 h7; exact (safe_qb_b_pe h1 h2 tol a h3 h4 h5 h6 h7). Qed.
Print Assumptions C96_qb_b_pe.

Theorem C96_svd1 (T : Type) (O : ops T) (G : Type) (X : exn -> Prop) (L : lapack T) (r : rng_ops G T) m n (A : arr T)
    (k over num_passes : int) (blk : nat) tol a :
  lap_shapes X L -> rng_ok r -> (0 < minn m n)%N -> 0 <= k -> 0 < k + over -> (0 < blk)%N -> 2 <= num_passes ->
  shaped m n A -> safe X (svd_shape m n (absz k)) (svd1 L r A k over tol num_passes blk%:Z a).
Proof. by move=> h1 h2 h3 h4 h5 h6 h7 h8; exact (safe_svd1 h1 h2 tol a h3 h4 h5 h6 h7 h8). Qed.
Print Assumptions C96_svd1.

Theorem C96_evd1 (T : Type) (O : ops T) (G : Type) (X : exn -> Prop) (L : lapack T) (r : rng_ops G T)
    (argsort : seq T -> seq nat) n (A : arr T) (k over num_passes : int) (blk : nat) tol a :
  lap_shapes X L -> rng_ok r -> (forall v, perm_eq (argsort v) (iota 0 (size v))) ->
  (if tol is Some t then (o0 <= t / onat 2)%O else true) -> 0 < k <= n%:Z -> 0 < k + over -> (0 < blk)%N ->
  2 <= num_passes -> shaped n n A -> safe X (evd_shape n (absz k)) (evd1 L r argsort A k tol over num_passes blk%:Z a).
Proof. by move=> h1 h2 h3 h4 h5 h6 h7 h8 h9; exact (safe_evd1 h1 h2 a h3 h4 h5 h6 h7 h8 h9). Qed.
Print Assumptions C96_evd1.

Theorem C96_evd2 (T : Type) (O : ops T) (G : Type) (X : exn -> Prop) (L : lapack T) (r : rng_ops G T) n (A : arr T)
    (k over num_passes : int) a :
  lap_shapes X L -> rng_ok r -> X LinAlgError -> 0 < k < n%:Z -> 0 <= over -> k + over <= n%:Z -> 1 <= num_passes ->
  shaped n n A -> safe X (evd_shape n (absz k)) (evd2 L r A k over num_passes a).
Proof. by move=> h1 h2 h3 h4 h5 h6 h7 h8; exact (safe_evd2 h1 h2 a h3 h4 h5 h6 h7 h8). Qed.
Print Assumptions C96_evd2.

(** Subset selection and one-sided IDs by least squares: no exception of their own. *)
Theorem C96_rocs1 (T : Type) (O : ops T) (G : Type) (X : exn -> Prop) (L : lapack T) (r : rng_ops G T) m n (A : arr T)
    (k : nat) (over num_passes axis : int) a :
  lap_shapes X L -> rng_ok r -> (0 < k)%N -> 0 <= over -> k%:Z + over <= (minn m n)%:Z -> 1 <= num_passes -> shaped m n A ->
  (axis == 0) || (axis == 1) ->
  safe X (skel (if axis == 0 then m else n) k) (rocs1 L r A k over num_passes axis a).
Proof. by move=> h1 h2 h3 h4 h5 h6 h7 h8; rewrite -Num.Theory.subr_ge0 in h6; apply: safe_rng; exact (safe_ROCS1 h1 h2 h3 h4 h5 h6 h7 h8). Qed.
Print Assumptions C96_rocs1.

Theorem C96_osid2 (T : Type) (O : ops T) (G : Type) (X : exn -> Prop) (L : lapack T) (r : rng_ops G T) m n (A : arr T)
    (k : nat) (over num_passes axis : int) a :
  lap_shapes X L -> rng_ok r -> (0 < k)%N -> 0 <= over -> k%:Z + over <= (minn m n)%:Z -> 1 <= num_passes -> shaped m n A ->
  (axis == 0) || (axis == 1) ->
  safe X (osid_shape m n k axis) (osid2 L r A k over num_passes axis a).
Proof. by move=> h1 h2 h3 h4 h5 h6 h7 h8; rewrite -Num.Theory.subr_ge0 in h6; apply: safe_rng; exact (safe_OSID2 h1 h2 h3 h4 h5 h6 h7 h8). Qed.
Print Assumptions C96_osid2.

Theorem C96_osid1 (T : Type) (O : ops T) (G : Type) (X : exn -> Prop) (L : lapack T) (r : rng_ops G T) m n (A : arr T)
    (k : nat) (over num_passes axis : int) a :
  lap_shapes X L -> rng_ok r -> X LinAlgError -> (0 < k)%N -> 0 <= over -> k%:Z + over <= (minn m n)%:Z -> 1 <= num_passes ->
  shaped m n A -> (axis == 0) || (axis == 1) ->
  safe X (osid_shape m n k axis) (osid1 L r A k over num_passes axis a).
Proof. by move=> h1 h2 h0 h3 h4 h5 h6 h7 h8; rewrite -Num.Theory.subr_ge0 in h6; apply: safe_rng; exact (safe_OSID1 h1 h2 h3 h4 h5 h6 h7 h0 h8). Qed.
Print Assumptions C96_osid1.

Theorem C96_tsid1 (T : Type) (O : ops T) (G : Type) (X : exn -> Prop) (L : lapack T) (r : rng_ops G T) m n (A : arr T)
    (k : nat) (over num_passes : int) a :
  lap_shapes X L -> rng_ok r -> X LinAlgError -> (0 < k)%N -> 0 <= over -> k%:Z + over <= (minn m n)%:Z -> 1 <= num_passes ->
  shaped m n A -> safe X (tsid_shape m n k) (tsid1 L r A k over num_passes a).
Proof. by move=> h1 h2 h0 h3 h4 h5 h6 h7; rewrite -Num.Theory.subr_ge0 in h6; apply: safe_rng; exact (safe_TSID1 h1 h2 h3 h4 h5 h6 h7 h0). Qed.
Print Assumptions C96_tsid1.

Theorem C96_cur1 (T : Type) (O : ops T) (G : Type) (X : exn -> Prop) (L : lapack T) (r : rng_ops G T) m n (A : arr T)
    (k : nat) (over num_passes : int) a :
  lap_shapes X L -> rng_ok r -> X LinAlgError -> (0 < k)%N -> 0 <= over -> k%:Z + over <= (minn m n)%:Z -> 2 <= num_passes ->
  shaped m n A -> safe X (cur_shape m n k) (cur1 L r A k over num_passes a).
Proof. by move=> h1 h2 h0 h3 h4 h5 h6 h7; rewrite -Num.Theory.subr_ge0 in h6; apply: safe_rng; exact (safe_CUR1 h1 h2 h3 h4 h5 h6 h7 h0). Qed.
Print Assumptions C96_cur1.

(** sso1 raises nothing of its own. *)
Theorem C97_sso1 (T : Type) (O : ops T) (G : Type) (X : exn -> Prop) (L : lapack T) (r : rng_ops G T) m n (A : arr T)
    (b : seq T) (delta : T) a (sf : rat) (vec_nnz : nat) :
  lap_shapes X L -> (0 < n <= m)%N -> sf_ok sf n -> shaped m n A -> size b = m ->
  safe X (fun x : seq T => size x = n) (sso1 L r A b delta a sf vec_nnz).
Proof. by move=> h1 h2 h3 h4 h5; apply: safe_rng; exact (safe_SSO1 h1 (fun d m => @safe_sj T O G X r vec_nnz d m) delta None 1 h2 h3 h4 h5). Qed.
Print Assumptions C97_sso1.

(** SPO: [Unmodelled] marks a division by zero in LSQR (numpy continues with inf or NaN); the triangular modes may find
    a zero pivot; with logging on, an early return of LSQR makes the log raise ValueError (C71).  Otherwise x has length n and
    the run made at most iter_lim iterations. *)
Theorem C97_spo (T : Type) (O : ops T) (G : Type) (X : exn -> Prop) (L : lapack T) (r : rng_ops G T) m n (A : arr T)
    (b : seq T) (delta tol : T) (iter_lim : int) (sf : rat) (vec_nnz : nat) (md : spo_mode) (logging : bool) clk a :
  lap_shapes X L -> X Unmodelled -> (logging -> X ValueError) -> md <> MOther -> (mode_tri md -> X LinAlgError) ->
  (0 < n <= m)%N -> sf_ok sf n -> reg_ok delta -> shaped m n A -> size b = m -> 0 <= iter_lim ->
  safe X (fun xl => size xl.1 = n /\ log_le logging iter_lim xl.2)
    (with_rng r a (SPO L (skopSJ r vec_nnz) sf md A b delta tol iter_lim logging clk)).
Proof. by move=> h1 h2 h3 h4 h5 h6 h7 h8 h9 h10 h11; apply: safe_rng; exact (safe_SPO h1 (fun d m => @safe_sj T O G X r vec_nnz d m) tol clk h2 h3 h4 h5 h6 h7 h8 h9 h10 h11). Qed.
Print Assumptions C97_spo.

(** SPU1: a zero right-hand side raises TypeError. *)
Theorem C97_spu1 (T : Type) (O : ops T) (G : Type) (X : exn -> Prop) (L : lapack T) (r : rng_ops G T) m n (A : arr T)
    (c : seq T) (tol : T) (iter_lim : int) (sf : rat) (vec_nnz : nat) (logging : bool) clk a :
  lap_shapes X L -> X Unmodelled -> (logging -> X ValueError) -> zero_ok T -> (oeq (vnorm c) o0 -> X TypeError) ->
  (0 < n <= m)%N -> sf_ok sf n -> shaped m n A -> size c = n -> 0 <= iter_lim ->
  safe X (fun yl => size yl.1 = m /\ log_le logging iter_lim yl.2)
    (with_rng r a (SPU1 L (skopSJ r vec_nnz) sf A c tol iter_lim logging clk)).
Proof. by move=> h1 h2 h3 h4 h5 h6 h7 h8 h9 h10; apply: safe_rng; exact (safe_SPU1 h1 (fun d m => @safe_sj T O G X r vec_nnz d m) tol clk h2 h3 h4 h5 h6 h7 h8 h9 h10). Qed.
Print Assumptions C97_spu1.

(** sps, method 'pcg': no ValueError; IndexError only from an empty preconditioner (sketch of numerical rank 0). *)
Theorem C97_sps_pcg (T : Type) (O : ops T) (G : Type) (X : exn -> Prop) (L : lapack T) (r : rng_ops G T) m n (A : arr T)
    (b c : option (seq T)) (delta tol : T) (iter_lim : int) (sf : rat) (vec_nnz : nat) clk a :
  lap_shapes X L -> X Unmodelled -> X IndexError -> (0 < m)%N -> (0 < n)%N -> 0 < trunc_rat (sf * n%:R) ->
  shaped m n A -> optsz m b -> optsz n c -> 0 <= iter_lim ->
  safe X (fun x => [/\ optsz n x.1.1, size x.1.2 = m & log_le true iter_lim x.2])
    (sps L r A b c delta tol iter_lim a sf vec_nnz SpsPcg clk).
Proof.
by move=> h1 h2 h3 h4 h5 h6 h7 h8 h9 h10; exact (safe_sps_pcg h1 r tol vec_nnz delta clk a h2 h3 h4 h5 h6 h7 h8 h9 h10).
Qed.
Print Assumptions C97_sps_pcg.

Theorem C97_sps_lsqr (T : Type) (O : ops T) (G : Type) (X : exn -> Prop) (L : lapack T) (r : rng_ops G T) m n (A : arr T)
    (b c : option (seq T)) (delta tol : T) (iter_lim : int) (sf : rat) (vec_nnz : nat) clk a :
  lap_shapes X L -> X Unmodelled -> X ValueError -> reg_ok delta -> (0 < m)%N -> (0 < n)%N -> 0 < trunc_rat (sf * n%:R) ->
  shaped m n A -> optsz m b -> optsz n c -> 0 <= iter_lim ->
  safe X (fun x => [/\ optsz n x.1.1, size x.1.2 = m & log_le true iter_lim x.2])
    (sps L r A b c delta tol iter_lim a sf vec_nnz SpsLsqr clk).
Proof.
by move=> h1 h2 h3 h4 h5 h6 h7 h8 h9 h10 h11; exact (safe_sps_lsqr h1 r tol vec_nnz clk a h2 h3 h4 h5 h6 h7 h8 h9 h10 h11).
Qed.
Print Assumptions C97_sps_lsqr.

(** SPS2 with either iterative solver; with PcSS1 no ValueError even with logging. *)
Theorem C97_sps2 (T : Type) (O : ops T) (G : Type) (X : exn -> Prop) (L : lapack T) (r : rng_ops G T) m n (A : arr T)
    (b c : option (seq T)) (delta tol : T) (iter_lim : int) (sf : rat) (vec_nnz : nat) (logging pcg : bool) clk a :
  lap_shapes X L -> X Unmodelled -> (pcg -> X IndexError) -> (~~ pcg -> logging -> X ValueError) -> zero_ok T ->
  reg_ok delta -> (0 < n <= m)%N -> sf_ok sf n ->
  shaped m n A -> optsz m b -> optsz n c -> 0 <= iter_lim ->
  safe X (fun x => [/\ size x.1.1 = n, size x.1.2 = m & log_le logging iter_lim x.2])
    (with_rng r a (SPS2 L (skopSJ r vec_nnz) sf (if pcg then @PcSS1 T O else @PcSS2 T O) A b c delta tol iter_lim logging clk)).
Proof.
by move=> h1 h2 h3 h4 h5 h6 h7 h8 h9 h10 h11 h12; exact (safe_sps2 h1 r tol vec_nnz clk a h2 h3 h4 h5 h6 h7 h8 h9 h10 h11 h12).
Qed.
Print Assumptions C97_sps2.

(** The iterative solvers by themselves. *)
Theorem C97_lsqr (T : Type) (O : ops T) (X : exn -> Prop) m n (A : arr T) (b : seq T) damp atol btol conlim (iter_lim : int)
    (calc_var : bool) x0 :
  X Unmodelled -> shaped m n A -> size b = m -> 0 <= iter_lim -> (if x0 is Some x then size x = n else True) ->
  rsafe X (fun q => [/\ size (q_x q) = n, (q_itn q <= absz iter_lim)%N,
                        (if q_errs q is EArr es then (size es <= absz iter_lim)%N else True) & size (q_var q) = n])
    (lsqr (as_linop A) b damp atol btol conlim (Some iter_lim) calc_var x0).
Proof. by move=> h1 h2 h3 h4 h5; exact (sv_lsqr h1 damp atol btol conlim calc_var (sv_as_linop X h2) h3 h4 h5). Qed.
Print Assumptions C97_lsqr.

Theorem C97_pcg (T : Type) (O : ops T) (X : exn -> Prop) n (H P : arr T) (rhs x0 : seq T) (iter_lim : int) (tol : T) :
  X Unmodelled -> shaped n n H -> shaped n n P -> size rhs = n -> size x0 = n -> 0 <= iter_lim ->
  rsafe X (fun y => size y.1 = n /\ (size y.2 <= absz iter_lim)%N) (pcg (mv H) rhs (mv P) iter_lim tol x0).
Proof.
by move=> h1 h2 h3 h4 h5 h6; exact (sv_pcg h1 tol (fun x => sv_mv X (x := x) h2) (fun x => sv_mv X (x := x) h3) h4 h5 h6).
Qed.
Print Assumptions C97_pcg.
