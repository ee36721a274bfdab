(** Model of the problem generators: parla/tests/matmakers.py and
    notebooks/least_squares/helpers.py.  [np.exp] and the full QR factorisation
    [la.qr(A)] are parameters.  Spectra are float arrays without NaN (in-place division of an
    integer array raises in numpy). *)
From mathcomp Require Import all_ssreflect all_algebra.
From Verif Require Import Base Arr Lapack Rng Aware Precond Sketching.
Set Implicit Arguments.
Unset Strict Implicit.
Unset Printing Implicit Defensive.

Section Makers.
Context {T : Type} {O : ops T} {G : Type}.
Variables (L : lapack T) (r : rng_ops G T) (oexp : T -> T) (qrf : arr T -> res (arr T * arr T)).
Notation M := (M G T).

(** The argument [spectrum]: an int or an ndarray. *)
Inductive spectrum_arg := SpInt of int | SpArr of seq T.

(** matmakers.py 9-10: [rng.random(size=(spectrum,))] raises for a negative int. *)
Definition get_spectrum (sp : spectrum_arg) : M (seq T) :=
  match sp with
  | SpArr v => ret v
  | SpInt z => if (z < 0)%R then raise ValueError else random r (absz z)
  end.

(** matmakers.py 11-13: [np.sort], reversal, [spectrum /= spectrum[0]].  [np.sort] makes a copy,
    the caller's array is not modified.  Division by zero is not modelled. *)
Definition norm_spectrum (v : seq T) : res (seq T) :=
  let v := rev (sort (fun x y => (x <= y)%O) v) in
  if v is s0 :: _ then
    if (s0 == o0)%O then Err Unmodelled else Ok [seq (x / s0)%O | x <- v]
  else Err IndexError.

(** The operators used below return ndarrays. *)
Definition as_arr (S : pyop T) : res (arr T) := if S is PyArr B then Ok B else Err Unmodelled.

(** matmakers.py 14-17 = helpers.py 11-14: [U], [V] and [(U * spectrum) @ V]. *)
Definition low_rank (n_rows n_cols : nat) (s : seq T) : M (arr T * arr T * arr T) :=
  let rank := size s in
  let! SU := orthonormal_operator L r n_rows rank RGen in
  let! SV := orthonormal_operator L r rank n_cols RGen in
  let! U := lift (as_arr SU) in
  let! V := lift (as_arr SV) in
  let! Us := lift (cmul U s) in
  let! A := lift (mmul Us V) in
  ret (A, U, V).

(** matmakers.py 7-21: [rand_low_rank]; the factors are returned on demand. *)
Definition rand_low_rank (n_rows n_cols : nat) (sp : spectrum_arg) (a : rngarg) (factors : bool)
    : M (arr T * option (arr T * seq T * arr T)) :=
  with_rng r a
   (let! v := get_spectrum sp in
    let! s := lift (norm_spectrum v) in
    let! F := low_rank n_rows n_cols s in
    let '(A, U, V) := F in
    ret (A, if factors then Some (U, s, V) else None)).

(** matmakers.py 24-31: [simple_mat]. *)
Definition simple_mat (n_rows n_cols : nat) (scale : T) (a : rngarg) : M (arr T) :=
  with_rng r a
   (let! A := getgen (fun g => r_normal r g o1 n_rows n_cols) in
    let! QR := lift (qrf A) in
    let rt := mkseq (fun j => osqrt (o1 + scale * onat j)%O) n_cols in
    let! _ := lift (nz_check rt) in
    let damp := [seq (o1 / x)%O | x <- rt] in
    let! RA := lift (cmul QR.2 damp) in
    lift (mmul QR.1 RA)).

(** [np.arange(1, rank)] *)
Definition arange1 (rank : int) : seq nat := if (rank <= 1)%R then [::] else iota 1 (absz rank).-1.

(** matmakers.py 34-36: [exponent_spectrum]. *)
Definition exponent_spectrum (n_rows n_cols : nat) (rank : int) (a : rngarg) (param : T) (factors : bool)
    : M (arr T * option (arr T * seq T * arr T)) :=
  rand_low_rank n_rows n_cols
    (SpArr [seq oexp ((- onat i + o1) / param)%O | i <- arange1 rank]) a factors.

(** matmakers.py 39-41: [s_shaped_spectrum]. *)
Definition s_shaped_spectrum (n_rows n_cols : nat) (rank : int) (a : rngarg) (factors : bool)
    : M (arr T * option (arr T * seq T * arr T)) :=
  rand_low_rank n_rows n_cols
    (SpArr [seq (o1 / opow (onat 10) 4 + o1 / (o1 + oexp (onat i - onat 29)))%O | i <- arange1 rank]) a factors.

(** helpers.py 18-22 = 41-45: the right-hand side with the given share in the range of U.
    Division by a zero norm is not modelled. *)
Definition demo_b (U : arr T) (s : seq T) (p : T) (b0 : seq T) : res (seq T) :=
  let? w := mv (mtr U) b0 in
  let? b_range := mv U w in
  let? b_orthog := vsub b0 b_range in
  let mean := (osum (size s) (ev s) / onat (size s))%O in
  let? _ := nz_check [:: vnorm b_range; vnorm b_orthog] in
  let b_range := vscale (mean / vnorm b_range)%O b_range in
  let b_orthog := vscale (mean / vnorm b_orthog)%O b_orthog in
  vadd (vscale p b_range) (vscale (o1 - p)%O b_orthog).

(** helpers.py 27, 36, 53-54: [(Vt.T / spectrum) @ (U.T @ vec)]. *)
Definition demo_solve (U : arr T) (s : seq T) (Vt : arr T) (b : seq T) : res (seq T) :=
  let? _ := nz_check s in
  let? scaled_V := cdiv (mtr Vt) s in
  let? w := mv (mtr U) b in
  mv scaled_V w.

(** The attributes of an LSDemoHelper. *)
Record demo := Demo { d_A : arr T; d_b : seq T; d_x : seq T; d_U : arr T; d_s : seq T; d_Vt : arr T }.

(** [rng.standard_normal(m)] *)
Definition std_vec (m : nat) : M (seq T) :=
  let! X := getgen (fun g => r_stdnormal r g m 1) in ret (mcol X 0).

(** helpers.py 7-29: [make_demo_helper] with only_Ab=False; with only_Ab=True the pair (A, b) of
    the same computation is returned. *)
Definition make_demo_helper (m n : nat) (s : seq T) (prop_range : T) (a : rngarg) : M demo :=
  with_rng r a
   (let! F := low_rank m n s in
    let '(A, U, Vt) := F in
    let! b0 := std_vec m in
    let! b := lift (demo_b U s prop_range b0) in
    let! x := lift (demo_solve U s Vt b) in
    ret (Demo A b x U s Vt)).

(** helpers.py 38-48: [LSDemoHelper.resample_b]; returns the object afterwards. *)
Definition resample_b (d : demo) (prop_range : T) (a : rngarg) : M demo :=
  with_rng r a
   (let! b0 := std_vec (nr (d_A d)) in
    let! b := lift (demo_b (d_U d) (d_s d) prop_range b0) in
    let! x := lift (demo_solve (d_U d) (d_s d) (d_Vt d) b) in
    ret (Demo (d_A d) b x (d_U d) (d_s d) (d_Vt d))).

End Makers.
