(** Model of parla/drivers/saddlesys.py. *)
From mathcomp Require Import all_ssreflect all_algebra.
From Verif Require Import Base Arr Lapack Rng Aware Pcg Lsqr Precond LstSq.
Set Implicit Arguments.
Unset Strict Implicit.
Unset Printing Implicit Defensive.

Section SaddleSys.
Context {T : Type} {O : ops T} {G : Type}.
Variables (L : lapack T).
Notation M := (M G T).
Local Open Scope op_scope.

(** The call interface of a [PrecondSaddleSolver]. *)
Definition solver := arr T -> option (seq T) -> option (seq T) -> T -> T -> int ->
  arr T -> bool -> option (seq T) -> res (@sout T).

(** saddlesys.py 122: [nystrom_strategy]; anything else fails the assertion. *)
Inductive nystrom := NLeft | NRight | NOther.

(** saddlesys.py 144-181: build the preconditioner.  Returns M and, when the
    sketch is large enough, sigma and Vh for the presolve. *)
Definition sps1_precond (gen : nat -> nat -> M (pyop T)) (strat : nystrom) (A : arr T)
    (delta : T) (d : int) : M (arr T * option (seq T * arr T)) :=
  let m := nr A in
  let n := nc A in
  if (n%:Z <= d)%R then
    let! Sk := draw gen (absz d) m in
    let! A_ske := lift (mul_r Sk A) in
    let! A_ske := lift (a_lift A_ske (osqrt delta)) in
    let! f := lift (svd_right_precond L A_ske) in
    let '(Mp, U, sigma, Vh) := f in
    ret (Mp, Some (sigma, Vh))
  else if (d < 0)%R then raise ValueError (* negative dimensions *)
  else
    match strat with
    | NRight =>
        let! Sk := draw gen n (absz d) in
        let! A_sample := lift (mul_l A Sk) in
        let! Q := lift (orth L A_sample) in
        let! A_ske := lift (mmul (mtr Q) A) in
        let! f := lift (l_svd L A_ske) in
        let '(U, sigma, Vh) := f in
        let! _ := lift (nz_check sigma) in
        let! Mp := lift (cdiv (mtr Vh) sigma) in
        ret (Mp, None)
    | _ =>
        let! Sk := draw gen (absz d) m in
        let! A_ske := lift (mul_r Sk A) in
        let! V := lift (orth L (mtr A_ske)) in
        let! A_sample := lift (mmul A V) in
        let! f := lift (l_svd L A_sample) in
        let '(U, sigma, Wt) := f in
        let! _ := lift (nz_check sigma) in
        let! W := lift (cdiv (mtr Wt) sigma) in
        let! Mp := lift (mmul V W) in
        ret (Mp, None)
    end.

(** saddlesys.py 183-203: the right-hand side [A'b - c] and the presolve. *)
Definition saddle_rhs (A : arr T) (b : seq T) (c : option (seq T)) : res (seq T) :=
  let? rhs := mv (mtr A) b in
  if c is Some c then vsub rhs c else Ok rhs.
Definition sps1_start (A : arr T) (delta : T) (Mp : arr T) (pre : option (seq T * arr T))
    (rhs : seq T) : res (option (seq T)) :=
  match pre with
  | None => Ok None
  | Some (sigma, Vh) =>
      let? z := mv Vh rhs in
      let? z := vdiv z sigma in
      let? x := mv Mp z in
      let? rhs_pc := mv (mtr Mp) rhs in
      let? g := mv_gram A delta x in
      let? lhs := mv (mtr Mp) g in
      let? r := vsub lhs rhs_pc in
      Ok (if (vnorm rhs_pc <= vnorm r)%O then None else Some z)
  end.

(** saddlesys.py 128-219: [SPS1.__call__]; returns x, y and the log. *)
Definition SPS1 (gen : nat -> nat -> M (pyop T)) (sf : rat) (slv : solver) (strat : nystrom)
    (A : arr T) (b c : option (seq T)) (delta tol : T) (iter_lim : int)
    (logging : bool) (clk : @timing T) : M (option (seq T) * seq T * splog) :=
  if (delta < o0)%O then raise Unmodelled
  else
  passert (if strat is NOther then false else true) >>>
  let m := nr A in
  let n := nc A in
  let d := trunc_rat (sf * n%:R)%R in
  let b := if b is Some b then b else vzeros m in
  let! p := sps1_precond gen strat A delta d in
  let '(Mp, pre) := p in
  let! rhs := lift (saddle_rhs A b c) in
  let! z_ske := lift (sps1_start A delta Mp pre rhs) in
  let! out := lift (slv A (Some b) c delta tol iter_lim Mp false z_ske) in
  let log := log_of logging clk in
  let! log := if logging then lift (wrap_up log (o_errs out) (vnorm rhs)) else ret log in
  ret (o_x out, o_y out, log).

(** saddlesys.py 289-297: conversion to an overdetermined least squares
    problem. *)
Definition sps2_aug (A : arr T) (b : seq T) (c : option (seq T)) (delta : T) (Sk : pyop T)
    (d : nat) (U : arr T) (sigma : seq T) (Vh : arr T) : res (arr T * seq T) :=
  let m := nr A in
  let n := nc A in
  let? A_aug := a_lift A (osqrt delta) in
  let b_aug := if (o0 < delta)%O then b ++ vzeros n else b in
  match c with
  | None => Ok (A_aug, b_aug)
  | Some c =>
      if (o0 < vnorm c)%O then
        let? w := mv Vh c in
        let? w := vmul [seq o1 / s | s <- sigma] w in
        let? v := mv U w in
        let? t := mul_trv Sk (vtop d v) in
        let? top := vsub (vtop m b_aug) t in
        let? bot := if (o0 < delta)%O then vsub (vbot m b_aug) (vbot d v)
                    else Ok (vbot m b_aug) in
        Ok (A_aug, top ++ bot)
      else Ok (A_aug, b_aug)
  end.

(** saddlesys.py 300-306: the presolve. *)
Definition sps2_start (A_aug : arr T) (b_aug : seq T) (delta : T) (Sk : pyop T) (m d : nat)
    (Mp U : arr T) : res (option (seq T)) :=
  let? Sb := mul_rv Sk (vtop m b_aug) in
  let? z := mv (mtr (rslice U 0 d)) Sb in
  let? z := if (o0 < delta)%O then
              let? w := mv (mtr (rslice U d (nr U))) (vbot m b_aug) in vadd z w
            else Ok z in
  let? x := mv Mp z in
  let? Ax := mv A_aug x in
  let? r := vsub b_aug Ax in
  Ok (if (vnorm b_aug <= vnorm r)%O then None else Some z).

(** saddlesys.py 265-327: [SPS2.__call__]; returns x, y and the log. *)
Definition SPS2 (gen : nat -> nat -> M (pyop T)) (sf : rat) (slv : solver)
    (A : arr T) (b c : option (seq T)) (delta tol : T) (iter_lim : int)
    (logging : bool) (clk : @timing T) : M (seq T * seq T * splog) :=
  if (delta < o0)%O then raise Unmodelled
  else
  let m := nr A in
  let n := nc A in
  let! d := dim_checks sf m n in
  let b := if b is Some b then b else vzeros m in
  let! Sk := draw gen d m in
  let! A_ske := lift (mul_r Sk A) in
  let! A_ske := lift (a_lift A_ske (osqrt delta)) in
  let! f := lift (svd_right_precond L A_ske) in
  let '(Mp, U, sigma, Vh) := f in
  let! aug := lift (sps2_aug A b c delta Sk d U sigma Vh) in
  let '(A_aug, b_aug) := aug in
  let! z_ske := lift (sps2_start A_aug b_aug delta Sk m d Mp U) in
  let! out := lift (slv A_aug (Some b_aug) None o0 tol iter_lim Mp false z_ske) in
  if o_x out is Some x then
    let! y := lift (let? Ax := mv A x in vsub b Ax) in
    let log := log_of logging clk in
    let! log :=
      if logging then
        lift (let? w := mv (mtr A_aug) b_aug in
              let? ar0 := mv (mtr (o_R out)) w in
              wrap_up log (o_errs out) (vnorm ar0))
      else ret log in
    ret (x, y, log)
  else raise Unmodelled.

End SaddleSys.
