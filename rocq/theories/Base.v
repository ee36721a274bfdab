(** Foundations of the model: scalar operations without laws, Python
    exceptions, and the effect monad (random generator + event log). *)
From mathcomp Require Import all_ssreflect all_algebra.
Set Implicit Arguments.
Unset Strict Implicit.
Unset Printing Implicit Defensive.

(** * Scalars
    The model never assumes anything about the scalar type: [ops] only lists
    the operations that the Python code performs on float64 values.  No laws
    are attached, so a theorem proved for an arbitrary [ops] also holds for
    IEEE doubles. *)
Class ops (T : Type) := Ops {
  o0 : T;
  o1 : T;
  oadd : T -> T -> T;
  osub : T -> T -> T;
  omul : T -> T -> T;
  odiv : T -> T -> T;
  oopp : T -> T;
  osqrt : T -> T;
  ole : T -> T -> bool;
  olt : T -> T -> bool;
  oeq : T -> T -> bool
}.

Declare Scope op_scope.
Delimit Scope op_scope with O.
Notation "x + y" := (oadd x y) : op_scope.
Notation "x - y" := (osub x y) : op_scope.
Notation "x * y" := (omul x y) : op_scope.
Notation "x / y" := (odiv x y) : op_scope.
Notation "- x" := (oopp x) : op_scope.
Notation "x <= y" := (ole x y) : op_scope.
Notation "x < y" := (olt x y) : op_scope.
Notation "x == y" := (oeq x y) : op_scope.

Section ScalarDerived.
Context {T : Type} {O : ops T}.

(** Python integer literal / int converted to float (exact below 2^53). *)
Fixpoint onat (n : nat) : T :=
  match n with
  | 0 => o0
  | n'.+1 => oadd (onat n') o1
  end.

(** [x ** 2]. *)
Definition osq (x : T) : T := (x * x)%O.

(** [abs(x)]. *)
Definition oabs (x : T) : T := if (x < o0)%O then (- x)%O else x.

(** [np.sign(x)]. *)
Definition osign (x : T) : T :=
  if (x < o0)%O then (- o1)%O else if (o0 < x)%O then o1 else o0.

Definition omax (x y : T) : T := if (x < y)%O then y else x.
Definition omin (x y : T) : T := if (y < x)%O then y else x.

Fixpoint opow (x : T) (n : nat) : T :=
  match n with
  | 0 => o1
  | n'.+1 => (opow x n' * x)%O
  end.

(** [np.finfo(float).eps] = 2^-52. *)
Definition oeps : T := (o1 / opow (o1 + o1) 52)%O.

(** Sum of [f 0 .. f (n-1)], accumulated from the left starting at 0. *)
Definition osum (n : nat) (f : nat -> T) : T :=
  foldl (fun acc i => (acc + f i)%O) o0 (iota 0 n).

End ScalarDerived.

(** * Python exceptions as values.
    [Unmodelled] marks inputs on which the model makes no claim (for instance
    a data type the model does not represent); [Diverge] marks exhausted fuel
    of a [while] loop.  Neither ever stands for a successful result. *)
Inductive exn :=
  | AssertionError
  | ValueError
  | TypeError
  | NotImplementedError
  | RuntimeError
  | LinAlgError
  | ZeroDivisionError
  | AttributeError
  | IndexError
  | Unmodelled
  | Diverge.

Definition exn_eqb (a b : exn) : bool :=
  match a, b with
  | AssertionError, AssertionError | ValueError, ValueError
  | TypeError, TypeError | NotImplementedError, NotImplementedError
  | RuntimeError, RuntimeError | LinAlgError, LinAlgError
  | ZeroDivisionError, ZeroDivisionError | AttributeError, AttributeError
  | IndexError, IndexError | Unmodelled, Unmodelled | Diverge, Diverge => true
  | _, _ => false
  end.

Definition res (X : Type) : Type := (exn + X)%type.
Definition Ok {X} (x : X) : res X := inr x.
Definition Err {X} (e : exn) : res X := inl e.

Definition rbind {X Y} (c : res X) (f : X -> res Y) : res Y :=
  match c with inl e => inl e | inr x => f x end.

Notation "'let?' x ':=' c 'in' k" := (rbind c (fun x => k))
  (at level 200, x pattern, c at level 100, k at level 200).

Definition rassert (b : bool) (e : exn) : res unit :=
  if b then Ok tt else Err e.

Definition isOk {X} (c : res X) : bool := if c is inr _ then true else false.

(** Dense 2-D array with dynamic shape: [nr] rows, [nc] columns. *)
Record arr (T : Type) := Arr { nr : nat; nc : nat; dat : seq (seq T) }.

(** Warnings issued through [warnings.warn]. *)
Inductive warn :=
  | W_rf_tol         (* rangefinders.py 178-183 *)
  | W_qb2_rank       (* qb.py 440-446 *)
  | W_sjlt_size      (* sketching.py 57-62 *)
  | W_dim            (* least_squares.py 97-103 *)
  | W_sso_tol        (* least_squares.py, SSO1 *)
  | W_sso_iter       (* least_squares.py, SSO1 *)
  | W_fit_drop       (* stats.py *)
  | W_other.

(** Observable events. *)
Inductive event (T : Type) :=
  | EvWarn of warn
  | EvPass of bool              (* one product with A (false) or A' (true) *)
  | EvStab                      (* one call of a stabilizer *)
  | EvDraw of nat & nat         (* one sketching operator of that shape drawn *)
  | EvRF of arr T.              (* matrix returned by a rangefinder call *)

Arguments EvWarn {T}.
Arguments EvPass {T}.
Arguments EvStab {T}.
Arguments EvDraw {T}.

(** State: the numpy Generator in use and the events so far. *)
Record st (G T : Type) := St { gen : G; evs : seq (event T) }.

Section Monad.
Context {G T : Type}.

Definition M (X : Type) : Type := st G T -> st G T * res X.

Definition ret {X} (x : X) : M X := fun s => (s, inr x).
Definition raise {X} (e : exn) : M X := fun s => (s, inl e).
Definition bind {X Y} (c : M X) (f : X -> M Y) : M Y :=
  fun s => match c s with
           | (s', inl e) => (s', inl e)
           | (s', inr x) => f x s'
           end.
Definition lift {X} (c : res X) : M X := fun s => (s, c).
Definition emit (e : event T) : M unit :=
  fun s => (St (gen s) (rcons (evs s) e), inr tt).
Definition passert (b : bool) : M unit :=
  fun s => (s, if b then inr tt else inl AssertionError).
Definition getgen {X} (f : G -> G * X) : M X :=
  fun s => let: (g', x) := f (gen s) in (St g' (evs s), inr x).

End Monad.

Notation "'let!' x ':=' c 'in' k" := (bind c (fun x => k))
  (at level 200, x pattern, c at level 100, k at level 200).
Notation "c >>> k" := (bind c (fun _ => k)) (at level 70, right associativity).

Arguments M : clear implicits.

(** A finished run. *)
Section RunLemmas.
Context {G T : Type}.
Implicit Types (s : st G T).

Lemma bindE X Y (c : M G T X) (f : X -> M G T Y) s s' x :
  c s = (s', inr x) -> bind c f s = f x s'.
Proof. by rewrite /bind => ->. Qed.

Lemma bindE_err X Y (c : M G T X) (f : X -> M G T Y) s s' e :
  c s = (s', inl e) -> bind c f s = (s', inl e).
Proof. by rewrite /bind => ->. Qed.

Lemma retE X (x : X) s : ret x s = (s, inr x).
Proof. by []. Qed.

Lemma liftE X (x : X) s : lift (Ok x) s = (s, inr x).
Proof. by []. Qed.

Lemma bind_retE X Y (x : X) (f : X -> M G T Y) s : bind (ret x) f s = f x s.
Proof. by []. Qed.

Lemma bind_liftE X Y (x : X) (f : X -> M G T Y) s :
  bind (lift (Ok x)) f s = f x s.
Proof. by []. Qed.

Lemma bind_emitE Y (e : event T) (f : unit -> M G T Y) s :
  bind (emit e) f s = f tt (St (gen s) (rcons (evs s) e)).
Proof. by []. Qed.

Lemma bind_passertT Y (f : unit -> M G T Y) s : bind (passert true) f s = f tt s.
Proof. by []. Qed.

Lemma bind_passertF Y (f : unit -> M G T Y) s :
  bind (passert false) f s = (s, inl AssertionError).
Proof. by []. Qed.

(** Inversion: a successful sequence consists of two successful runs. *)
Lemma bind_inv X Y (c : M G T X) (f : X -> M G T Y) s s' y :
  bind c f s = (s', inr y) ->
  exists s1 x, c s = (s1, inr x) /\ f x s1 = (s', inr y).
Proof.
by rewrite /bind; case: (c s) => s1 [e|x] // E; exists s1, x.
Qed.

Lemma bindA X Y Z (c : M G T X) (f : X -> M G T Y) (g : Y -> M G T Z) s :
  bind (bind c f) g s = bind c (fun x => bind (f x) g) s.
Proof. by rewrite /bind; case: (c s) => s1 [e|x]. Qed.

End RunLemmas.

Arguments osq : simpl never.
Arguments oabs : simpl never.
Arguments osign : simpl never.
Arguments omax : simpl never.
Arguments omin : simpl never.
Arguments oeps : simpl never.
Arguments osum : simpl never.
Arguments bind : simpl never.
Arguments ret : simpl never.
Arguments raise : simpl never.
Arguments lift : simpl never.
Arguments emit : simpl never.
Arguments passert : simpl never.
Arguments getgen : simpl never.
