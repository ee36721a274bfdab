(** numpy.random.Generator as an abstract state machine, the [rng] argument of
    the PARLA functions, and the kinds of objects a sketching operator can be. *)
From mathcomp Require Import all_ssreflect.
From Verif Require Import Base Arr.
Set Implicit Arguments.
Unset Strict Implicit.
Unset Printing Implicit Defensive.

(** The Generator methods PARLA uses.  [G] is the state of the bit generator. *)
Record rng_ops (G T : Type) := RngOps {
  (* rng.normal(0.0, scale, (r, c)) *)
  r_normal : G -> T -> nat -> nat -> G * arr T;
  (* rng.standard_normal((r, c)) *)
  r_stdnormal : G -> nat -> nat -> G * arr T;
  (* rng.random(n) *)
  r_random : G -> nat -> G * seq T;
  (* rng.choice(pop, size, replace) *)
  r_choice : G -> nat -> nat -> bool -> G * seq nat;
  (* rng.permutation(n) *)
  r_perm : G -> nat -> G * seq nat;
  (* np.random.default_rng(seed) for a non-negative int *)
  r_seed : nat -> G;
  (* np.random.default_rng(array of non-negative ints) *)
  r_seeds : seq nat -> G
}.

(** A well-formed array: its data has exactly the announced shape. *)
Definition wf {T} {O : ops T} (A : arr T) : Prop := mk (nr A) (nc A) (el A) = A.

(** What is assumed about the Generator: shapes, ranges and distinctness.
    Nothing is assumed about the distribution. *)
Record rng_ok {G T} {O : ops T} (r : rng_ops G T) : Prop := RngOk {
  ok_normal : forall g s m n,
    let a := (r_normal r g s m n).2 in wf a /\ nr a = m /\ nc a = n;
  ok_stdnormal : forall g m n,
    let a := (r_stdnormal r g m n).2 in wf a /\ nr a = m /\ nc a = n;
  ok_random : forall g n, size (r_random r g n).2 = n;
  ok_choice : forall g p k b,
    (0 < p) || (k == 0) -> b || (k <= p) ->
    let v := (r_choice r g p k b).2 in
    [/\ size v = k, all (fun i => i < p) v & ~~ b -> uniq v];
  ok_perm : forall g n, perm_eq (r_perm r g n).2 (iota 0 n)
}.

(** [rng] argument: a shared Generator object, an integer seed, or an array of
    integers used as entropy.  [None] (fresh OS entropy) behaves like an
    unknown integer seed. *)
Inductive rngarg := RGen | RInt of nat | RArr of seq nat.

Section WithRng.
Context {G T : Type}.

(** [rng = np.random.default_rng(rng)] followed by [c]: a Generator is used
    (and advanced) in place, a seed creates a private Generator. *)
Definition with_rng {X} (r : rng_ops G T) (a : rngarg) (c : M G T X) : M G T X :=
  match a with
  | RGen => c
  | RInt z => fun s => let: (s', x) := c (St (r_seed r z) (evs s)) in
                       (St (gen s) (evs s'), x)
  | RArr v => fun s => let: (s', x) := c (St (r_seeds r v) (evs s)) in
                       (St (gen s) (evs s'), x)
  end.

End WithRng.

(** A [scipy.sparse.linalg.LinearOperator]. *)
Record linop (T : Type) := LinOp {
  lo_nr : nat; lo_nc : nat;
  lo_mv : seq T -> res (seq T);      (* matvec  *)
  lo_mm : arr T -> res (arr T);      (* matmat  *)
  lo_rmv : seq T -> res (seq T);     (* rmatvec *)
  lo_rmm : arr T -> res (arr T)      (* rmatmat *)
}.

(** What a call [gen(n_rows, n_cols, rng)] may return in Python. *)
Inductive pyop (T : Type) :=
  | PyNone                        (* None *)
  | PyArr of arr T                (* ndarray *)
  | PySp of arr T                 (* scipy sparse matrix (with its dense value) *)
  | PyLin of linop T.             (* LinearOperator *)
Arguments PyNone {T}.

Section PyOp.
Context {T : Type} {O : ops T}.

(** [A @ S] for an ndarray [A].  [LinearOperator] on the right is not modelled. *)
Definition mul_l (A : arr T) (S : pyop T) : res (arr T) :=
  match S with
  | PyNone => Err ValueError
  | PyArr B | PySp B => mmul A B
  | PyLin _ => Err Unmodelled
  end.

(** [S @ A] for an ndarray [A]. *)
Definition mul_r (S : pyop T) (A : arr T) : res (arr T) :=
  match S with
  | PyNone => Err ValueError
  | PyArr B | PySp B => mmul B A
  | PyLin f => if lo_nc f == nr A then lo_mm f A else Err ValueError
  end.

(** [S @ x] for a 1-D [x]. *)
Definition mul_rv (S : pyop T) (x : seq T) : res (seq T) :=
  match S with
  | PyNone => Err ValueError
  | PyArr B | PySp B => mv B x
  | PyLin f => if lo_nc f == size x then lo_mv f x else Err ValueError
  end.

(** [S.T @ x] for a 1-D [x]. *)
Definition mul_trv (S : pyop T) (x : seq T) : res (seq T) :=
  match S with
  | PyNone => Err AttributeError
  | PyArr B | PySp B => mv (mtr B) x
  | PyLin f => if lo_nr f == size x then lo_rmv f x else Err ValueError
  end.

Definition shape (S : pyop T) : option (nat * nat) :=
  match S with
  | PyNone => None
  | PyArr B | PySp B => Some (nr B, nc B)
  | PyLin f => Some (lo_nr f, lo_nc f)
  end.

End PyOp.
