(** Model of parla/comps/preconditioning.py, parla/comps/determiter/saddle.py
    and SketchAndPrecondLog of parla/comps/determiter/logging.py. *)
From mathcomp Require Import all_ssreflect all_algebra.
From Verif Require Import Base Arr Lapack Rng Pcg Lsqr.
Set Implicit Arguments.
Unset Strict Implicit.
Unset Printing Implicit Defensive.

Section Precond.
Context {T : Type} {O : ops T}.
Variable L : lapack T.
Local Open Scope op_scope.

(** ** logging.py *)

(** logging.py 49-61: the fields of [SketchAndPrecondLog]. *)
Record splog := SpLog {
  time_sketch : T; time_factor : T; time_convert : T; time_presolve : T; time_iterate : T;
  times : option (seq T); errors : option (seq T) }.

(** logging.py 64-71. *)
Definition time_setup (l : splog) : T := time_sketch l + time_factor l + time_convert l.

(** [np.linspace(0, stop, num, endpoint=True)]: [i * (stop / (num - 1))], the
    last entry replaced by [stop] when [num > 1]. *)
Definition linspace0 (stop : T) (num : nat) : seq T :=
  mkseq (fun i =>
    if (1 < num)%N && (i == num.-1)%bool then stop
    else if (1 < num)%N then onat i * (stop / onat num.-1) else o0) num.

(** logging.py 73-94: [wrap_up].  When [iter_errors] is a numpy scalar, its
    [.size] is 1 and [np.concatenate] raises ValueError. *)
Definition wrap_up (l : splog) (iter_errors : @errlog T) (init_error : T) : res splog :=
  match iter_errors with
  | EScal _ => Err ValueError
  | EArr es =>
      let iters := size es in
      let ts := time_setup l in
      let iterating := linspace0 (time_iterate l) iters in
      let cumulative := [seq ts + time_presolve l + t | t <- iterating] in
      Ok (SpLog (time_sketch l) (time_factor l) (time_convert l) (time_presolve l)
            (time_iterate l) (Some (ts :: cumulative)) (Some (init_error :: es)))
  end.

(** ** preconditioning.py *)

(** preconditioning.py 6-13: [a_lift]. *)
Definition a_lift (A : arr T) (scale : T) : res (arr T) :=
  if (scale == o0)%O then Ok A else vstack A (mscale scale (meye (nc A))).

(** The first [m] entries and the rest of a vector: [arg[:m]], [arg[m:]]. *)
Definition vtop (m : nat) (v : seq T) : seq T := take m v.
Definition vbot (m : nat) (v : seq T) : seq T := drop m v.

(** preconditioning.py 26-67: the operators built by [a_lift_precond]. *)
Definition M_fwd (R : arr T) (upper_tri : bool) (z : seq T) : res (seq T) :=
  if upper_tri then solve_tri_v false false R z else mv R z.
Definition M_adj (R : arr T) (upper_tri : bool) (w : seq T) : res (seq T) :=
  if upper_tri then solve_tri_v false true R w else mv (mtr R) w.
Definition pc_forward (A_lift R : arr T) (upper_tri : bool) (arg : seq T) : res (seq T) :=
  let? work := M_fwd R upper_tri arg in
  mv A_lift work.
Definition pc_adjoint (A R : arr T) (delta sqrt_delta : T) (upper_tri : bool) (arg : seq T)
    : res (seq T) :=
  let? work := mv (mtr A) (vtop (nr A) arg) in
  let? work := if (o0 < delta)%O then vadd work (vscale sqrt_delta (vbot (nr A) arg))
               else Ok work in
  M_adj R upper_tri work.

(** preconditioning.py 16-67: [a_lift_precond]; the operator part of the
    result ([M_fwd] and [M_adj] are the functions above).  [delta < 0] makes
    [np.sqrt] return NaN and is not modelled.  The shared work buffer never
    escapes: both closures return fresh arrays. *)
Definition a_lift_precond (A : arr T) (delta : T) (R : arr T) (upper_tri : bool) (k : nat)
    : res (linop T) :=
  if k != 1 then Err NotImplementedError
  else if (delta < o0)%O then Err Unmodelled
  else
    let sqrt_delta := osqrt delta in
    let? A_lift := a_lift A sqrt_delta in
    Ok (LinOp (nr A_lift) (nc R) (pc_forward A_lift R upper_tri) (fun _ => Err Unmodelled)
          (pc_adjoint A R delta sqrt_delta upper_tri) (fun _ => Err Unmodelled)).

(** [A.T] of a LinearOperator. *)
Definition lo_tr (A : linop T) : linop T :=
  LinOp (lo_nc A) (lo_nr A) (lo_rmv A) (lo_rmm A) (lo_mv A) (lo_mm A).

(** preconditioning.py 70-80: [svd_right_precond]; returns M, U, sigma, Vh. *)
Definition svd_right_precond (A_ske : arr T) : res (arr T * arr T * seq T * arr T) :=
  let? (U, sigma, Vh) := l_svd L A_ske in
  if size sigma is 0 then Err IndexError
  else
    let cut := ev sigma 0 * onat (nc A_ske) * oeps in
    let rank := count (fun s => (cut < s)%O) sigma in
    let Vh := rslice Vh 0 rank in
    let U := cslice U 0 rank in
    let sigma := vslice sigma 0 rank in
    let? M := cdiv (mtr Vh) sigma in
    Ok (M, U, sigma, Vh).

(** ** saddle.py *)

(** What a [PrecondSaddleSolver] call yields: x ([None] stands for the array of
    NaN), y, the third entry of the tuple, and the argument [R] afterwards
    ([PcSS1] may overwrite the caller's array). *)
Record sout := SOut { o_x : option (seq T); o_y : seq T; o_errs : @errlog T; o_R : arr T }.

(** Entrywise division by a 1-D array; a zero divisor would create inf or NaN
    and is not modelled. *)
Definition nz_check (v : seq T) : res unit :=
  if has (fun s => (s == o0)%O) v then Err Unmodelled else Ok tt.

(** [la.norm(R, axis=0)]. *)
Definition colnorms (R : arr T) : seq T := mkseq (fun j => vnorm (mcol R j)) (nc R).

(** saddle.py 124-137: the columns of R are turned into unit vectors V, R is
    overwritten by V / t with t = sqrt(s^2 + delta) normalised by its last
    entry.  Returns (R, V). *)
Definition pcss1_lowrank (delta : T) (R : arr T) : res (arr T * arr T) :=
  let nrm := colnorms R in
  let? _ := nz_check nrm in
  let sing := [seq o1 / x | x <- nrm] in
  let? V := cmul R sing in
  let sing := [seq osqrt (osq s + delta) | s <- sing] in
  if sing is [::] then Err IndexError
  else
    let t := vdivs sing (last o0 sing) in
    let? _ := nz_check t in
    let? R' := cdiv V t in
    Ok (R', V).

(** saddle.py 139-148: [mv_pre]. *)
Definition pcss1_mv_pre (R : arr T) (V : option (arr T)) (vec : seq T) : res (seq T) :=
  let? w := mv (mtr R) vec in
  let? res := mv R w in
  match V with
  | None => Ok res
  | Some V =>
      let? res := vadd res vec in
      let? w := mv (mtr V) vec in
      let? w := mv V w in
      vsub res w
  end.

(** saddle.py 150-154: [mv_gram]. *)
Definition mv_gram (A : arr T) (delta : T) (vec : seq T) : res (seq T) :=
  let? w := mv A vec in
  let? res := mv (mtr A) w in
  vadd res (vscale delta vec).

(** saddle.py 88-176: [PcSS1.__call__].  [b] is [None] or 1-D (so [k = 1]). *)
Definition PcSS1 (A : arr T) (b c : option (seq T)) (delta tol : T) (iter_lim : int)
    (R : arr T) (upper_tri : bool) (z0 : option (seq T)) : res sout :=
  let m := nr A in
  let n := nc A in
  let b := if b is Some b then b else vzeros m in
  if upper_tri then Err NotImplementedError
  else
    let fullrank := (nc R == n)%bool in
    let? (R, V) :=
      if fullrank then Ok (R, None)
      else let? (R', V) := pcss1_lowrank delta R in Ok (R', Some V) in
    let? rhs := mv (mtr A) b in
    let? rhs := if c is Some c then vsub rhs c else Ok rhs in
    let? x := match z0 with
              | Some z0 => if fullrank then mv R z0 else Ok (vzeros n)
              | None => Ok (vzeros n)
              end in
    let? (x, residuals) := pcg (mv_gram A delta) rhs (pcss1_mv_pre R V) iter_lim tol x in
    let? Ax := mv A x in
    let? y := vsub b Ax in
    Ok (SOut (Some x) y (EArr residuals) R).

(** [c is None or la.norm(c) == 0]. *)
Definition none_or_0 (c : option (seq T)) : bool :=
  if c is Some c then (vnorm c == o0)%O else true.

(** The [conlim=1e8] default of [lsqr]. *)
Definition conlim_dflt : T := opow (onat 10) 8.

(** saddle.py 187-217: [PcSS2.__call__].  With [b is None] the first branch
    fails inside [np.concatenate] (ValueError) or [np.linalg.norm] (TypeError). *)
Definition PcSS2 (A : arr T) (b c : option (seq T)) (delta tol : T) (iter_lim : int)
    (R : arr T) (upper_tri : bool) (z0 : option (seq T)) : res sout :=
  let m := nr A in
  let n := nc A in
  let? A_pc := a_lift_precond A delta R upper_tri 1 in
  if none_or_0 c then
    if b is Some b then
      let b := if (o0 < delta)%O then b ++ vzeros n else b in
      let? res := lsqr A_pc b o0 tol tol conlim_dflt (Some iter_lim) false z0 in
      let? x := M_fwd R upper_tri (q_x res) in
      let? Ax := mv A x in
      let? y := vsub (vtop m b) Ax in
      Ok (SOut (Some x) y (q_errs res) R)
    else if (o0 < delta)%O then Err ValueError else Err TypeError
  else if none_or_0 b then
    if c is Some c then
      let? c_pc := M_adj R upper_tri c in
      let? res := lsqr (lo_tr A_pc) c_pc o0 tol tol conlim_dflt (Some iter_lim) false None in
      let y := q_x res in
      if (o0 < delta)%O then
        let y := vtop m y in
        let? Aty := mv (mtr A) y in
        let? x := vsub Aty c in
        Ok (SOut (Some (vdivs x delta)) y (q_errs res) R)
      else Ok (SOut None y (q_errs res) R)
    else Err Unmodelled (* unreachable: c is not None here *)
  else Err ValueError.

End Precond.

Arguments conlim_dflt : simpl never.
Arguments lsqr : simpl never.
Arguments pcg : simpl never.
