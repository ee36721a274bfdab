(** Model of parla/comps/qb.py. *)
From mathcomp Require Import all_ssreflect all_algebra.
From Verif Require Import Base Arr Lapack Rng Aware RangeFinders.
Set Implicit Arguments.
Unset Strict Implicit.
Unset Printing Implicit Defensive.

Section QB.
Context {T : Type} {O : ops T} {G : Type}.
Variables (L : lapack T) (r : rng_ops G T).
Notation M := (M G T).

(** Type of a RangeFinder object's call: [rf(A, k, tol, rng)]. *)
Definition rangefinder := arr T -> int -> option T -> M (arr T).
(** Type of a RowSketcher object's call: [sk_op(A, k, rng)]. *)
Definition rowsketcher := arr T -> nat -> M (pyop T).

(** qb.py 603-613: [project_out(Qi, Q, as_list=False)]. *)
Definition project_out (Qi Q : arr T) : res (arr T) :=
  let? W := mmul (mtr Q) Qi in
  let? P := mmul Q W in
  msub Qi P.

(** [B = Q.T @ A]: one pass over A. *)
Definition passQtA (Q A : arr T) : M (arr T) :=
  emit (EvPass true) >>> lift (mmul (mtr Q) A).

(** qb.py 343-352: [QB1.__call__]. *)
Definition QB1 (rf : rangefinder) (A : arr T) (k : int) (tol : option T)
    : M (arr T * arr T) :=
  passert (0 < k)%R >>>
  passert (k <= (minn (nr A) (nc A))%:Z)%R >>>
  let! _ := if tol is Some t
            then passert (o0 <= t)%O >>> passert (t < o1)%O else ret tt in
  let! Q := rf A k tol in
  let! B := passQtA Q A in
  ret (Q, B).

(** qb.py 448, 536: [use_tol = not np.isnan(tol) and tol > 0]. *)
Definition use_tol (tol : option T) : bool :=
  if tol is Some t then (o0 < t)%O else false.

(** qb.py 449-452: initial squared norm and absolute squared tolerance. *)
Definition sqnorm0 (A : arr T) : T := osq (mnorm A).
Definition abs_sq_tol (A : arr T) (tol : option T) : T :=
  if tol is Some t then (sqnorm0 A * osq t)%O else o0.

(** qb.py 457-481: the [while True] loop of QB2.  [k] is the (clamped) target
    rank, [blk] the current block size, [sqn] the running squared norm.
    Returns Q, B and the final content of the working array. *)
Fixpoint qb2_loop (fuel : nat) (rf : rangefinder) (k : nat) (utol : bool) (abs : T)
    (blk : int) (sqn : T) (A Q B : arr T) : M (arr T * arr T * arr T) :=
  match fuel with
  | 0 => raise Diverge
  | fuel'.+1 =>
      let blk := if (k%:Z < (nr B)%:Z + blk)%R then (k%:Z - (nr B)%:Z)%R else blk in
      let! Qi := rf A blk None in
      emit (EvRF Qi) >>>
      let! Qi := lift (project_out Qi Q) in
      let! QR := lift (l_qr L Qi) in
      let Qi := QR.1 in
      let! Bi := passQtA Qi A in
      let! Q := lift (hstack Q Qi) in
      let! B := lift (vstack B Bi) in
      let! QiBi := lift (mmul Qi Bi) in
      let! A := lift (msub A QiBi) in
      let sqn := if utol then (sqn - osq (mnorm Bi))%O else sqn in
      if utol && (sqn <= abs)%O then ret (Q, B, A)
      else if k <= nr B then ret (Q, B, A)
      else qb2_loop fuel' rf k utol abs blk sqn A Q B
  end.

(** qb.py 435-482: [QB2.__call__].  Returns (Q, B) and the content of the
    caller's array after a normal return.  The fuel is enough whenever every
    rangefinder call yields at least one column. *)
Definition QB2 (rf : rangefinder) (blk : int) (overwrite_a : bool)
    (A : arr T) (k : int) (tol : option T) : M (arr T * arr T * arr T) :=
  passert (0 < k)%R >>>
  let small_dim := minn (nr A) (nc A) in
  let! k' := if (k <= small_dim%:Z)%R then ret (absz k)
             else emit (EvWarn W_qb2_rank) >>> ret small_dim in
  passert (k' <= minn (nr A) (nc A))%N >>>
  let! QBA := qb2_loop k'.+1 rf k' (use_tol tol) (abs_sq_tol A tol) blk
                       (sqnorm0 A) A (mzeros (nr A) 0) (mzeros 0 (nc A)) in
  ret (QBA.1, if overwrite_a then QBA.2 else A).

(** qb.py 572-594: the [for i in range(..)] loop of QB3, [blk > 0]. *)
Fixpoint qb3_loop (todo : nat) (i k blk : nat) (utol : bool) (abs : T)
    (Sk Gm H : arr T) (sqn : T) (Q B : arr T) : M (arr T * arr T) :=
  match todo with
  | 0 => ret (Q, B)
  | todo'.+1 =>
      let a := i * blk in
      let b := minn (i.+1 * blk) k in
      let Si := cslice Sk a b in
      let! BSi := lift (mmul B Si) in
      let! QBSi := lift (mmul Q BSi) in
      let! Yi := lift (msub (cslice Gm a b) QBSi) in
      let! QR := lift (l_qr L Yi) in
      let! Qi := lift (project_out QR.1 Q) in
      let! QR' := lift (l_qr L Qi) in
      let! Ri := lift (mmul QR'.2 QR.2) in
      let! YtQ := lift (mmul (mtr Yi) Q) in
      let! YtQB := lift (mmul YtQ B) in
      let! Bi := lift (msub (mtr (cslice H a b)) YtQB) in
      let! BStB := lift (mmul (mtr BSi) B) in
      let! Bi := lift (msub Bi BStB) in
      let! Bi := lift (solve_tri false true Ri Bi) in
      let! Q := lift (hstack Q QR'.1) in
      let! B := lift (vstack B Bi) in
      let sqn := if utol then (sqn - osq (mnorm Bi))%O else sqn in
      if utol && (sqn <= abs)%O then ret (Q, B)
      else qb3_loop todo' i.+1 k blk utol abs Sk Gm H sqn Q B
  end.

(** qb.py 533-595: [QB3.__call__].  [int(np.ceil(k/blk))] raises for blk = 0
    and is <= 0 for blk < 0. *)
Definition QB3 (sk_op : rowsketcher) (blk : int) (A : arr T) (k : int)
    (tol : option T) : M (arr T * arr T) :=
  passert (0 < k)%R >>>
  passert (k < (minn (nr A) (nc A))%:Z)%R >>>
  let kk := absz k in
  let! Sk := sk_op A kk in
  match Sk with
  | PyArr Sk =>
      let! Gm := passA A (PyArr Sk) in
      let! H := passAt A (PyArr Gm) in
      let Q := mzeros (nr A) 0 in
      let B := mzeros 0 (nc A) in
      if (blk == 0)%R then raise ZeroDivisionError
      else if (blk < 0)%R then ret (Q, B)
      else
        let b := absz blk in
        qb3_loop ((kk + b).-1 %/ b) 0 kk b (use_tol tol) (abs_sq_tol A tol)
                 Sk Gm H (sqnorm0 A) Q B
  | _ => raise RuntimeError
  end.

(** qb.py 16-82: [qb]. *)
Definition qb (num_passes : int) (A : arr T) (k : int) (a : rngarg) : M (arr T * arr T) :=
  with_rng r a
    (QB1 (RF1 L (RS1 (skopGA r) (num_passes - 2)%R (orth L) 1%R)) A k None).

(** qb.py 85-167: [qb_b]. *)
Definition qb_b (inner_num_pass blk : int) (overwrite_A : bool) (A : arr T) (k : int)
    (tol : option T) (a : rngarg) : M (arr T * arr T * arr T) :=
  with_rng r a
    (QB2 (RF1 L (RS1 (skopGA r) (inner_num_pass - 2)%R (orth L) 1%R))
         blk overwrite_A A k tol).

(** qb.py 170-234: [qb_b_pe]. *)
Definition qb_b_pe (num_passes blk : int) (A : arr T) (k : int) (tol : option T)
    (a : rngarg) : M (arr T * arr T) :=
  with_rng r a
    (QB3 (RS1 (skopGA r) (num_passes - 1)%R (orth L) 1%R) blk A k tol).

End QB.
