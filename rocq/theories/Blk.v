(** Specification of C106: the columns a blocked rangefinder draws, seen as one sketch. *)
From mathcomp Require Import all_ssreflect all_algebra.
From Verif Require Import Base Arr Exact Rng.
Set Implicit Arguments.
Unset Strict Implicit.
Unset Printing Implicit Defensive.
Import GRing.Theory Num.Theory.
Local Open Scope ring_scope.

Section Blk.
Variables (R : rcfType) (G : Type) (r : rng_ops G R).
(** [n] rows, [k] columns in total, drawn [b] at a time. *)
Variables (n b k : nat).

(** Standard deviation with which an n-by-w Gaussian block is drawn. *)
Definition blk_sd (w : nat) : R := Num.sqrt (minn n w)%:R^-1.

(** Width of block number [q]. *)
Definition blk_width (q : nat) : nat := minn b (k - q * b).

(** The generator after [q] full blocks. *)
Definition blk_gen (g : G) (q : nat) : G := iter q (fun g => (r_normal r g (blk_sd b) n b).1) g.

(** Entry (i, j) of the blocks put side by side. *)
Definition blk_el (g : G) (i j : nat) : R :=
  let w := blk_width (j %/ b) in el (r_normal r (blk_gen g (j %/ b)) (blk_sd w) n w).2 i (j %% b).

(** The first [c] columns. *)
Definition blk_sketch (g : G) (c : nat) : 'M[R]_(n, c) := \matrix_(i, j) blk_el g i j.

(** The law of the columns drawn, each divided by the standard deviation of its
    block, as the law of one array. *)
Definition blk_rng : rng_ops G R := {|
  r_normal := fun g c m' n' => (g, mk m' n' (fun i j => c * (blk_el g i j / blk_sd (blk_width (j %/ b)))));
  r_stdnormal := fun g m' n' => (g, mk m' n' (fun _ _ => 0));
  r_random := fun g n' => (g, nseq n' 0);
  r_choice := fun g p k' rep => (g, if rep then nseq k' 0%N else iota 0 k');
  r_perm := fun g n' => (g, iota 0 n');
  r_seed := r_seed r; r_seeds := r_seeds r |}.

(** At every block boundary the sketched matrix has the largest rank it can have. *)
Definition blk_generic m (A : 'M[R]_(m, n)) (g : G) : Prop :=
  forall q, let c := minn (q * b) k in \rank (A *m blk_sketch g c) = minn c (\rank A).
End Blk.
