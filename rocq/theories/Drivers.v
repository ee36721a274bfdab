(** The procedural drivers of parla/drivers/least_squares.py and
    parla/drivers/saddlesys.py: the class-based solvers with an SJLT sketch.
    Each class call runs [rng = np.random.default_rng(rng)]; the checks it makes
    before that do not use the generator. *)
From mathcomp Require Import all_ssreflect all_algebra.
From Verif Require Import Base Arr Lapack Rng Aware Pcg Lsqr Precond LstSq SaddleSys Sketching.
Set Implicit Arguments.
Unset Strict Implicit.
Unset Printing Implicit Defensive.

Section Drivers.
Context {T : Type} {O : ops T} {G : Type}.
Variables (L : lapack T) (r : rng_ops G T).
Notation M := (M G T).

(** oblivious.py 48-55: [SkOpSJ(vec_nnz)] called with the driver's Generator. *)
Definition skopSJ (vec_nnz n_rows n_cols : nat) : M (pyop T) := sjlt_operator r n_rows n_cols RGen vec_nnz.

(** least_squares.py 108-111: [sso1].  The dict of timings is not modelled. *)
Definition sso1 (A : arr T) (b : seq T) (delta : T) (a : rngarg) (sf : rat) (vec_nnz : nat) : M (seq T) :=
  with_rng r a (SSO1 L (skopSJ vec_nnz) sf A b delta None 1%R).

(** least_squares.py 193-203: [spo1], [spo3]. *)
Definition spo3 (A : arr T) (b : seq T) (delta tol : T) (iter_lim : int) (a : rngarg) (sf : rat) (vec_nnz : nat)
    (md : spo_mode) (clk : @timing T) : M (seq T * splog) :=
  with_rng r a (SPO L (skopSJ vec_nnz) sf md A b delta tol iter_lim true clk).
Definition spo1 (A : arr T) (b : seq T) (delta tol : T) (iter_lim : int) (a : rngarg) (sf : rat) (vec_nnz : nat)
    (clk : @timing T) : M (seq T * splog) :=
  spo3 A b delta tol iter_lim a sf vec_nnz MSvd clk.

(** least_squares.py 419-422: [spu1]. *)
Definition spu1 (A : arr T) (c : seq T) (tol : T) (iter_lim : int) (a : rngarg) (sf : rat) (vec_nnz : nat)
    (clk : @timing T) : M (seq T * splog) :=
  with_rng r a (SPU1 L (skopSJ vec_nnz) sf A c tol iter_lim true clk).

(** saddlesys.py 77-86: [sps]; [method] is 'pcg', 'lsqr' or something else. *)
Inductive sps_method := SpsPcg | SpsLsqr | SpsOther.
Definition sps (A : arr T) (b c : option (seq T)) (delta tol : T) (iter_lim : int) (a : rngarg) (sf : rat)
    (vec_nnz : nat) (method : sps_method) (clk : @timing T) : M (option (seq T) * seq T * splog) :=
  let call slv := with_rng r a (SPS1 L (skopSJ vec_nnz) sf slv NLeft A b c delta tol iter_lim true clk) in
  match method with
  | SpsPcg => call (@PcSS1 T O)
  | SpsLsqr => call (@PcSS2 T O)
  | SpsOther => raise ValueError
  end.

End Drivers.
