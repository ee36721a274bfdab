(** Model of parla/drivers/least_squares.py. *)
From mathcomp Require Import all_ssreflect all_algebra.
From Verif Require Import Base Arr Lapack Rng Aware Pcg Lsqr Precond.
Set Implicit Arguments.
Unset Strict Implicit.
Unset Printing Implicit Defensive.

(** Python's [int(q)] of a rational number: truncation towards zero. *)
Definition trunc_rat (q : rat) : int :=
  (sgz (numq q) * (absz (numq q) %/ absz (denq q))%N%:Z)%R.

Section LstSq.
Context {T : Type} {O : ops T} {G : Type}.
Variables (L : lapack T).
Notation M := (M G T).
Local Open Scope op_scope.

(** least_squares.py 89-104: [dim_checks].  [sampling_factor] is an int or a
    float; the rounding of the product [sampling_factor * n_cols] is not
    modelled. *)
Definition dim_checks (sf : rat) (n_rows n_cols : nat) : M nat :=
  passert (n_cols <= n_rows)%N >>>
  let d := trunc_rat (sf * n_cols%:R)%R in
  let! d := if (n_rows%:Z < d)%R then emit (EvWarn W_dim) >>> ret n_rows%:Z%R else ret d in
  passert (n_cols%:Z <= d)%R >>>
  ret (absz d).

(** A 1-D right-hand side as a one-column matrix and back. *)
Definition vcol (v : seq T) : arr T := mk (size v) 1 (fun i _ => ev v i).

(** [la.lstsq(A, b)[0]] with 1-D [b]. *)
Definition lstsq_v (A : arr T) (b : seq T) : res (seq T) :=
  let? X := l_lstsq L A (vcol b) in Ok (mcol X 0).

(** least_squares.py 151-189: [SSO1.__call__].  [tol = None] is NaN.  The
    timings in the returned dict are not modelled. *)
Definition SSO1 (gen : nat -> nat -> M (pyop T)) (sf : rat) (A : arr T) (b : seq T)
    (delta : T) (tol : option T) (iter_lim : int) : M (seq T) :=
  (if tol is Some _ then emit (EvWarn W_sso_tol) else ret tt) >>>
  (if (1 < iter_lim)%R then emit (EvWarn W_sso_iter) else ret tt) >>>
  let n_rows := nr A in
  let n_cols := nc A in
  let! d := dim_checks sf n_rows n_cols in
  let! Sk := draw gen d n_rows in
  let! A_ske := lift (mul_r Sk A) in
  let! b_ske := lift (mul_rv Sk b) in
  if (o0 < delta)%O then
    let! A_ske := lift (vstack A_ske (mscale (osqrt delta) (meye n_cols))) in
    lift (lstsq_v A_ske (b_ske ++ vzeros n_cols))
  else lift (lstsq_v A_ske b_ske).

(** The five clock differences a driver call observes. *)
Record timing := Timing { t_sketch : T; t_factor : T; t_convert : T; t_presolve : T; t_iterate : T }.

(** [SketchAndPrecondLog()] filled with the timings; they are all zero when
    [logging] is off ([quick_time] is then constantly 0).  A fresh log has
    [times = errors = None]. *)
Definition log_of (logging : bool) (c : timing) : @splog T :=
  if logging then SpLog (t_sketch c) (t_factor c) (t_convert c) (t_presolve c) (t_iterate c) None None
  else SpLog o0 o0 o0 o0 o0 None None.

(** The [mode] argument of [SPO]. *)
Inductive spo_mode := MQr | MChol | MSvd | MOther.
Definition mode_tri (md : spo_mode) : bool := if md is (MQr | MChol) then true else false.

(** least_squares.py 318-323: the Gram matrix [A_ske' A_ske + delta I]; [dsyrk]
    computes the upper triangle and the mirror image is then copied down. *)
Definition gram_ske (A_ske : arr T) (delta : T) : arr T :=
  let n := nc A_ske in
  mk n n (fun i j =>
    let a := minn i j in let b := maxn i j in
    osum (nr A_ske) (fun l => el A_ske l a * el A_ske l b)
    + delta * (if (a == b)%bool then o1 else o0)).

(** [if delta > 0: A_ske = np.vstack((A_ske, sqrt_delta * np.eye(n_cols)))]. *)
Definition ske_lift (A_ske : arr T) (delta : T) (n : nat) : res (arr T) :=
  if (o0 < delta)%O then vstack A_ske (mscale (osqrt delta) (meye n)) else Ok A_ske.

(** least_squares.py 304-339: factor the sketch and run the sketch-and-solve
    presolve.  Returns R, z_ske, x_ske. *)
Definition spo_factor (md : spo_mode) (Sk : pyop T) (A_ske : arr T) (b : seq T) (delta : T)
    (d n : nat) : res (arr T * seq T * seq T) :=
  match md with
  | MQr =>
      let? A_ske := ske_lift A_ske delta n in
      let? (Q, R) := l_qr L A_ske in
      let? b_ske := mul_rv Sk b in
      let? z := mv (mtr (rslice Q 0 d)) b_ske in
      let? x := solve_tri_v false false R z in
      Ok (R, z, x)
  | MChol =>
      let? Lo := cholesky (gram_ske A_ske delta) in
      let R := mtr Lo in
      let? b_ske := mul_rv Sk b in
      let? w := mv (mtr A_ske) b_ske in
      let? z := solve_tri_v false true R w in
      let? x := solve_tri_v false false R z in
      Ok (R, z, x)
  | MSvd =>
      let? A_ske := ske_lift A_ske delta n in
      let? (R, U, sigma, Vh) := svd_right_precond L A_ske in
      let? b_ske := mul_rv Sk b in
      let? z := mv (mtr (rslice U 0 d)) b_ske in
      let? x := mv R z in
      Ok (R, z, x)
  | MOther => Err ValueError
  end.

(** [la.norm(r) / la.norm(b)] with IEEE division by zero. *)
Inductive extq := QNaN | QInf | QFin of T.
Definition rel_err (nr nb : T) : extq :=
  if (nb == o0)%O then (if (nr == o0)%O then QNaN else QInf) else QFin (nr / nb).

(** least_squares.py 346: [rel_err >= 1 or (rel_err > 1e-15 and not square)]. *)
Definition spo_reject (q : extq) (square : bool) : bool :=
  match q with
  | QNaN => false
  | QInf => true
  | QFin q => (o1 <= q)%O || ((o1 / opow (onat 10) 15 < q)%O && ~~ square)
  end.

(** least_squares.py 341-350: accept or reject the presolve. *)
Definition spo_start (A : arr T) (b : seq T) (delta : T) (R : arr T) (z x : seq T)
    : res (option (seq T)) :=
  let? Ax := mv A x in
  let? r := vsub Ax b in
  let r := if (o0 < delta)%O then r ++ vscale (osqrt delta) x else r in
  Ok (if spo_reject (rel_err (vnorm r) (vnorm b)) (nr R == nc R)%bool then None else Some z).

(** least_squares.py 291-369: [SPO.__call__]; returns x and the log. *)
Definition SPO (gen : nat -> nat -> M (pyop T)) (sf : rat) (md : spo_mode) (A : arr T) (b : seq T)
    (delta tol : T) (iter_lim : int) (logging : bool) (clk : timing) : M (seq T * splog) :=
  if (delta < o0)%O then raise Unmodelled
  else
  let n_rows := nr A in
  let n_cols := nc A in
  let! d := dim_checks sf n_rows n_cols in
  let! Sk := draw gen d n_rows in
  let! A_ske := lift (mul_r Sk A) in
  let! f := lift (spo_factor md Sk A_ske b delta d n_cols) in
  let '(R, z, x) := f in
  let! z_ske := lift (spo_start A b delta R z x) in
  let tri := mode_tri md in
  let! out := lift (PcSS2 A (Some b) None delta tol iter_lim R tri z_ske) in
  let log := log_of logging clk in
  let! log :=
    if logging then
      lift (let? ar0 := mv (mtr A) b in
            let? ar0 := M_adj R tri ar0 in
            wrap_up log (o_errs out) (vnorm ar0))
    else ret log in
  if o_x out is Some x then ret (x, log) else raise Unmodelled.

(** least_squares.py 459-494: [SPU1.__call__]; returns y and the log. *)
Definition SPU1 (gen : nat -> nat -> M (pyop T)) (sf : rat) (A : arr T) (c : seq T)
    (tol : T) (iter_lim : int) (logging : bool) (clk : timing) : M (seq T * splog) :=
  let n_rows := nr A in
  let n_cols := nc A in
  let! d := dim_checks sf n_rows n_cols in
  let! Sk := draw gen d n_rows in
  let! A_ske := lift (mul_r Sk A) in
  let! f := lift (svd_right_precond L A_ske) in
  let '(Mp, U, sigma, Vh) := f in
  let! out := lift (PcSS2 A None (Some c) o0 tol iter_lim Mp false None) in
  let log := log_of logging clk in
  let! log :=
    if logging then
      lift (let? w := mv (mtr Mp) c in
            let? w := mv Mp w in
            let? w := mv A w in
            wrap_up log (o_errs out) (vnorm w))
    else ret log in
  ret (o_y out, log).

End LstSq.
