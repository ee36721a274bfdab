(** Model of parla/comps/determiter/pcg.py. *)
From mathcomp Require Import all_ssreflect all_algebra.
From Verif Require Import Base Arr.
Set Implicit Arguments.
Unset Strict Implicit.
Unset Printing Implicit Defensive.

Section Pcg.
Context {T : Type} {O : ops T}.

(** Scalar division.  numpy returns inf/nan on a zero divisor; the model makes
    no claim about such runs. *)
Definition sdiv (a b : T) : res T :=
  if (b == o0)%O then Err Unmodelled else Ok (a / b)%O.

(** pcg.py 27-44: the [while i < iter_lim and cur_err > rel_tol] loop; [todo]
    is [iter_lim - i].  Returns x and [residuals[:i]]. *)
Fixpoint pcg_loop (mv_mat mv_pre : seq T -> res (seq T)) (rhs : seq T) (rel_tol : T)
    (todo i : nat) (x r d : seq T) (delta cur_err : T) (residuals : seq T)
    : res (seq T * seq T) :=
  match todo with
  | 0 => Ok (x, residuals)
  | todo'.+1 =>
      if (rel_tol < cur_err)%O then
        let residuals := rcons residuals cur_err in
        let? q := mv_mat d in
        let? den := vdot d q in
        let? alpha := sdiv delta den in
        let? x := vadd x (vscale alpha d) in
        let? r := if i %% 10 == 0 then let? Hx := mv_mat x in vsub rhs Hx
                  else vsub r (vscale alpha q) in
        let cur_err := vnorm r in
        let? s := mv_pre r in
        let? delta' := vdot r s in
        let? beta := sdiv delta' delta in
        let? d := vadd s (vscale beta d) in
        pcg_loop mv_mat mv_pre rhs rel_tol todo' i.+1 x r d delta' cur_err residuals
      else Ok (x, residuals)
  end.

(** pcg.py 5-47: [pcg].  [-np.ones(iter_lim)] raises on a negative limit.
    [x0] is copied, so the caller's array is not touched. *)
Definition pcg (mv_mat : seq T -> res (seq T)) (rhs : seq T)
    (mv_pre : seq T -> res (seq T)) (iter_lim : int) (tol : T) (x0 : seq T)
    : res (seq T * seq T) :=
  if (iter_lim < 0)%R then Err ValueError
  else
    let? Hx := mv_mat x0 in
    let? r := vsub rhs Hx in
    let? d := mv_pre r in
    let? delta := vdot r d in
    let cur_err := vnorm r in
    pcg_loop mv_mat mv_pre rhs (tol * cur_err)%O (absz iter_lim) 0 x0 r d delta cur_err [::].

End Pcg.
