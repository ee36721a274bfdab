(** Model of parla/comps/rangefinders.py. *)
From mathcomp Require Import all_ssreflect all_algebra.
From Verif Require Import Base Arr Lapack Rng Aware.
Set Implicit Arguments.
Unset Strict Implicit.
Unset Printing Implicit Defensive.

Section RangeFinders.
Context {T : Type} {O : ops T} {G : Type}.
Variables (L : lapack T) (r : rng_ops G T).
Notation M := (M G T).

(** rangefinders.py 176-188: [RF1.__call__(A, k, tol, rng)]; [tol = None]
    stands for NaN. *)
Definition RF1 (rso : arr T -> nat -> M (pyop T)) (A : arr T) (k : int)
    (tol : option T) : M (arr T) :=
  passert (0 < k)%R >>>
  passert (k <= (minn (nr A) (nc A))%:Z)%R >>>
  let! _ := if tol is Some _ then emit (EvWarn W_rf_tol) else ret tt in
  let! Sk := rso A (absz k) in
  let! Y := passA A Sk in
  let! QR := lift (l_qr L Y) in
  ret QR.1.

(** rangefinders.py 22-71: [rf1]. *)
Definition rf1 (A : arr T) (k : int) (num_pass : int) (a : rngarg) : M (arr T) :=
  with_rng r a
    (RF1 (RS1 (skopGA r) (num_pass - 1)%R (orth L) 1%R) A k (Some o0)).

End RangeFinders.
