(** Model of parla/comps/interpolative.py, parla/drivers/interpolative.py and of
    the pseudo-inverse wrappers in parla/utils/linalg_wrappers.py. *)
From mathcomp Require Import all_ssreflect all_algebra.
From Verif Require Import Base Arr Lapack Rng Aware RangeFinders QB.
Set Implicit Arguments.
Unset Strict Implicit.
Unset Printing Implicit Defensive.

Section Interp.
Context {T : Type} {O : ops T} {G : Type}.
Variables (L : lapack T) (r : rng_ops G T).
Notation M := (M G T).

(** comps/interpolative.py 49-61: the column ID branch.  [k] is a non-negative
    int.  [la.qr(Y, mode='economic', pivoting=True)] is [l_qrp].
    [la.solve_triangular] is taken to accept a right-hand side with no columns
    (k = Y.shape[1]), as current scipy does. *)
Definition qrcp_cols (Y : arr T) (k : nat) : res (arr T * seq nat) :=
  let? QSJ := l_qrp L Y in
  let S := QSJ.1.2 in
  let J := QSJ.2 in
  let Sk := rslice S 0 k in
  let? S_trailing := solve_tri false false (cslice Sk 0 k) (cslice Sk k (nc Sk)) in
  let X := mzeros k (nc Y) in
  let? V := hstack (meye k) S_trailing in
  let? X := set_cidx X J V in
  Ok (X, take k J).

(** comps/interpolative.py 11-67: [qrcp_osid(Y, k, axis)]. *)
Definition qrcp_osid (Y : arr T) (k : nat) (axis : int) : res (arr T * seq nat) :=
  if (axis == 1)%R then qrcp_cols Y k
  else if (axis == 0)%R then
    let? XI := qrcp_cols (mtr Y) k in
    Ok (mtr XI.1, XI.2)
  else Err ValueError.

(** linalg_wrappers.py 27-30: [apply_pinv_on_left(target, operator)]. *)
Definition pinv_left (target operator : arr T) : res (arr T) := l_lstsq L operator target.

(** linalg_wrappers.py 33-36: [apply_pinv_on_right(target, operator)]. *)
Definition pinv_right (target operator : arr T) : res (arr T) :=
  let? X := l_lstsq L (mtr operator) (mtr target) in Ok (mtr X).

(** The sketch used by the row branch: [Sk = sk_op(A, k + over, rng); Y = A @ Sk].
    Requesting a negative number of columns makes numpy raise.  Only dense
    sketches are represented. *)
Definition row_sketch (sk_op : rowsketcher) (A : arr T) (c : int) : M (arr T) :=
  if (c < 0)%R then raise ValueError else
  let! Sk := sk_op A (absz c) in
  match Sk with
  | PyArr Sk => passA A (PyArr Sk)
  | _ => raise Unmodelled
  end.

(** The sketch of the column branch: [Sk = sk_op(A.T, k + over, rng).T; Y = Sk @ A],
    recorded as one (transposed) pass over [A]. *)
Definition col_sketch (sk_op : rowsketcher) (A : arr T) (c : int) : M (arr T) :=
  if (c < 0)%R then raise ValueError else
  let! Sk := sk_op (mtr A) (absz c) in
  match Sk with
  | PyArr Sk => emit (EvPass true) >>> lift (mmul (mtr Sk) A)
  | _ => raise Unmodelled
  end.

(** Index vector of a pivoted QR factorisation. *)
Definition qrp_idx (Y : arr T) : res (seq nat) := let? QSJ := l_qrp L Y in Ok QSJ.2.

(** comps/interpolative.py 140-157: [ROCS1.__call__]. *)
Definition ROCS1 (sk_op : rowsketcher) (A : arr T) (k : nat) (over axis : int) : M (seq nat) :=
  if (axis == 0)%R then
    let! Y := row_sketch sk_op A (k%:Z + over)%R in
    let! Iv := lift (qrp_idx (mtr Y)) in
    ret (take k Iv)
  else if (axis == 1)%R then
    let! Y := col_sketch sk_op A (k%:Z + over)%R in
    let! J := lift (qrp_idx Y) in
    ret (take k J)
  else raise ValueError.

(** comps/interpolative.py 122-128: [rocs1]. *)
Definition rocs1 (A : arr T) (k : nat) (over p axis : int) (a : rngarg) : M (seq nat) :=
  with_rng r a (ROCS1 (RS1 (skopGA r) (p - 1)%R (orth L) 1%R) A k over axis).

(** Type of a one-sided ID object's call [osid(A, k, over, axis, rng)]. *)
Definition osid_t := arr T -> nat -> int -> int -> M (arr T * seq nat).

(** drivers/interpolative.py 108-123: [OSID1.__call__]. *)
Definition OSID1 (sk_op : rowsketcher) : osid_t := fun A k over axis =>
  if (axis == 0)%R then
    let! Y := row_sketch sk_op A (k%:Z + over)%R in
    lift (qrcp_osid Y k 0%R)
  else if (axis == 1)%R then
    let! Y := col_sketch sk_op A (k%:Z + over)%R in
    lift (qrcp_osid Y k 1%R)
  else raise ValueError.

(** drivers/interpolative.py 88-94: [osid1]. *)
Definition osid1 (A : arr T) (k : nat) (over p axis : int) (a : rngarg) : M (arr T * seq nat) :=
  with_rng r a (OSID1 (RS1 (skopGA r) (p - 1)%R (orth L) 1%R) A k over axis).

(** drivers/interpolative.py 157-176: [OSID2.__call__].  The least squares
    problem has all of [A] as right-hand side: one more pass over [A]. *)
Definition OSID2 (sk_op : rowsketcher) : osid_t := fun A k over axis =>
  if (axis == 0)%R then
    let! Y := row_sketch sk_op A (k%:Z + over)%R in
    let! Iv := lift (qrp_idx (mtr Y)) in
    let Is := take k Iv in
    let! AI := lift (ridx A Is) in
    let! X := emit (EvPass true) >>> lift (pinv_right A AI) in
    ret (X, Is)
  else if (axis == 1)%R then
    let! Y := col_sketch sk_op A (k%:Z + over)%R in
    let! J := lift (qrp_idx Y) in
    let Js := take k J in
    let! AJ := lift (cidx A Js) in
    let! Z := emit (EvPass false) >>> lift (pinv_left A AJ) in
    ret (Z, Js)
  else raise ValueError.

(** drivers/interpolative.py 137-143: [osid2]. *)
Definition osid2 (A : arr T) (k : nat) (over p axis : int) (a : rngarg) : M (arr T * seq nat) :=
  with_rng r a (OSID2 (RS1 (skopGA r) (p - 1)%R (orth L) 1%R) A k over axis).

(** drivers/interpolative.py 270-278: [TSID1.__call__]. *)
Definition TSID1 (osid : osid_t) (A : arr T) (k : nat) (over : int)
    : M (arr T * seq nat * arr T * seq nat) :=
  if nc A < nr A then
    let! XJ := osid A k over 1%R in
    let! AJ := lift (cidx A XJ.2) in
    let! ZI := lift (qrcp_osid AJ k 0%R) in
    ret (ZI.1, ZI.2, XJ.1, XJ.2)
  else
    let! ZI := osid A k over 0%R in
    let! AI := lift (ridx A ZI.2) in
    let! XJ := lift (qrcp_osid AI k 1%R) in
    ret (ZI.1, ZI.2, XJ.1, XJ.2).

(** drivers/interpolative.py 247-254: [tsid1]. *)
Definition tsid1 (A : arr T) (k : nat) (over p : int) (a : rngarg)
    : M (arr T * seq nat * arr T * seq nat) :=
  with_rng r a (TSID1 (OSID1 (RS1 (skopGA r) (p - 1)%R (orth L) 1%R)) A k over).

(** drivers/interpolative.py 370-387: [CUR1.__call__]; returns (Js, U, Is). *)
Definition CUR1 (osid : osid_t) (A : arr T) (k : nat) (over : int)
    : M (seq nat * arr T * seq nat) :=
  if nc A < nr A then
    let! XJ := osid A k over 1%R in
    let! AJ := lift (cidx A XJ.2) in
    let! Iv := lift (qrp_idx (mtr AJ)) in
    let Is := take k Iv in
    let! AI := lift (ridx A Is) in
    let! U := lift (pinv_right XJ.1 AI) in
    ret (XJ.2, U, Is)
  else
    let! ZI := osid A k over 0%R in
    let! AI := lift (ridx A ZI.2) in
    let! J := lift (qrp_idx AI) in
    let Js := take k J in
    let! AJ := lift (cidx A Js) in
    let! U := lift (pinv_left ZI.1 AJ) in
    ret (Js, U, ZI.2).

(** drivers/interpolative.py 348-355: [cur1]; note the [p - 2]. *)
Definition cur1 (A : arr T) (k : nat) (over p : int) (a : rngarg)
    : M (seq nat * arr T * seq nat) :=
  with_rng r a (CUR1 (OSID1 (RS1 (skopGA r) (p - 2)%R (orth L) 1%R)) A k over).

End Interp.
