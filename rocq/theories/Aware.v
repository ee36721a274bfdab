(** Model of parla/utils/linalg_wrappers.py (orth, lu_stabilize) and
    parla/comps/sketchers/aware.py (RS1, rs1), and the Gaussian operator of
    parla/utils/sketching.py used by all low-rank drivers. *)
From mathcomp Require Import all_ssreflect all_algebra.
From Verif Require Import Base Arr Lapack Rng.
Set Implicit Arguments.
Unset Strict Implicit.
Unset Printing Implicit Defensive.

Section Aware.
Context {T : Type} {O : ops T} {G : Type}.
Variables (L : lapack T) (r : rng_ops G T).
Notation M := (M G T).

(** linalg_wrappers.py 6-7: [orth]. *)
Definition orth (Sk : arr T) : res (arr T) :=
  let? QR := l_qr L Sk in Ok QR.1.

(** linalg_wrappers.py 10-12: [lu_stabilize]; [la.lu(S, permute_l=True)[0]] is
    the product P @ L. *)
Definition lu_stabilize (Sk : arr T) : res (arr T) :=
  let? PLU := l_lu L Sk in mmul PLU.1.1 PLU.1.2.

(** sketching.py 20-31: [gaussian_operator].  [rng] is the Generator in the
    state.  [1.0/min(n_rows, n_cols)] raises for an empty shape. *)
Definition gaussian_operator (normalize : bool) (n_rows n_cols : nat) : M (pyop T) :=
  if normalize then
    if minn n_rows n_cols == 0 then raise ZeroDivisionError
    else
      let scale := osqrt (o1 / onat (minn n_rows n_cols))%O in
      let! Sk := getgen (fun g => r_normal r g scale n_rows n_cols) in
      ret (PyArr Sk)
  else
    let! Sk := getgen (fun g => r_stdnormal r g n_rows n_cols) in
    ret (PyArr Sk).

(** oblivious.py 38-45: [SkOpGA()] with the default normalize=True. *)
Definition skopGA (n_rows n_cols : nat) : M (pyop T) :=
  gaussian_operator true n_rows n_cols.

(** One pass over the data: [A @ S] or [A.T @ S], recorded in the log. *)
Definition passA (A : arr T) (Sk : pyop T) : M (arr T) :=
  emit (EvPass false) >>> lift (mul_l A Sk).
Definition passAt (A : arr T) (Sk : pyop T) : M (arr T) :=
  emit (EvPass true) >>> lift (mul_l (mtr A) Sk).

(** One call of the stabilizer, recorded in the log. *)
Definition stabilize (stab : arr T -> res (arr T)) (Sk : arr T) : M (arr T) :=
  emit EvStab >>> lift (stab Sk).

(** [if passes_done % passes_per_stab == 0: S = stabilizer(S)].  Python's [%]
    has remainder zero exactly on multiples, also for negative divisors. *)
Definition maybe_stab (stab : arr T -> res (arr T)) (pps : int) (done : nat)
    (Sk : arr T) : M (arr T) :=
  if absz pps == 0 then raise ZeroDivisionError
  else if (absz pps %| done)%N then stabilize stab Sk else ret Sk.

(** aware.py 174-183: the [while q > 0] loop.  [S] is a Python object on the
    first iteration and an ndarray afterwards. *)
Fixpoint rs1_loop (stab : arr T -> res (arr T)) (pps : int) (A : arr T)
    (q done : nat) (Sk : pyop T) : M (pyop T) :=
  match q with
  | 0 => ret Sk
  | q'.+1 =>
      let! S1 := passA A Sk in
      let! S2 := maybe_stab stab pps done.+1 S1 in
      let! S3 := passAt A (PyArr S2) in
      let! S4 := maybe_stab stab pps done.+2 S3 in
      rs1_loop stab pps A q' done.+2 (PyArr S4)
  end.

(** A call of the sketch generator, recorded in the log. *)
Definition draw (gen : nat -> nat -> M (pyop T)) (a b : nat) : M (pyop T) :=
  emit (EvDraw a b) >>> gen a b.

(** aware.py 158-184: [RS1.__call__(A, k, rng)].  [k] is a non-negative int. *)
Definition RS1 (gen : nat -> nat -> M (pyop T)) (num_pass : int)
    (stab : arr T -> res (arr T)) (pps : int) (A : arr T) (k : nat) : M (pyop T) :=
  passert (0 <= num_pass)%R >>>
  let np := absz num_pass in
  if ~~ odd np then
    let! Sk := draw gen (nc A) k in
    rs1_loop stab pps A (np %/ 2) 0 Sk
  else
    let! S0 := draw gen (nr A) k in
    let! Sk := passAt A S0 in
    let! Sk1 := if (pps == 1)%R then stabilize stab Sk else ret Sk in
    rs1_loop stab pps A (np.-1 %/ 2) 1 (PyArr Sk1).

(** aware.py 9-30: [rs1]. *)
Definition rs1 (A : arr T) (k : int) (num_pass : int) (a : rngarg) : M (pyop T) :=
  passert (0 <= num_pass)%R >>>
  passert (1 <= k)%R >>>
  passert (k <= (minn (nr A) (nc A))%:Z)%R >>>
  with_rng r a (RS1 (gaussian_operator true) num_pass orth 1%R A (absz k)).

End Aware.
