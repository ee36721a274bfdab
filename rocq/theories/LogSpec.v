(** Specification of the log a sketch-and-precondition call returns. *)
From mathcomp Require Import all_ssreflect all_algebra.
From Verif Require Import Base Arr Lapack Precond LstSq.
Set Implicit Arguments.
Unset Strict Implicit.
Unset Printing Implicit Defensive.

Section LogSpec.
Context {T : Type} {O : ops T}.
Local Open Scope op_scope.

(** With logging the five fields are the clock differences observed, there is one time for each error, the first when
    the preconditioner was ready and, from two iterations on, the last when the call was over.  Without logging the
    fields are zero and there are no arrays. *)
Definition log_ok (logging : bool) (c : @timing T) (l : @splog T) : Prop :=
  let setup := t_sketch c + t_factor c + t_convert c in
  if logging then
    [/\ (time_sketch l = t_sketch c /\ time_factor l = t_factor c), time_convert l = t_convert c,
        time_presolve l = t_presolve c, time_iterate l = t_iterate c &
        exists e es ts, [/\ errors l = Some (e :: es), times l = Some (setup :: ts), size ts = size es &
          (1 < size es)%N -> last setup ts = setup + t_presolve c + t_iterate c]]
  else [/\ (time_sketch l = o0 /\ time_factor l = o0), time_convert l = o0, time_presolve l = o0,
           time_iterate l = o0 & times l = None /\ errors l = None].
End LogSpec.
