(** Model of parla/utils/sketching.py and parla/comps/sketchers/oblivious.py.
    The Gaussian operator is in [Aware.v]. *)
From mathcomp Require Import all_ssreflect.
From Verif Require Import Base Arr Lapack Rng Aware.
Set Implicit Arguments.
Unset Strict Implicit.
Unset Printing Implicit Defensive.

Section Sketching.
Context {T : Type} {O : ops T} {G : Type}.
Variables (L : lapack T) (r : rng_ops G T).
Notation M := (M G T).

(** [rng.choice(p, k, replace=b)] with numpy's argument checks. *)
Definition choice (p k : nat) (b : bool) : M (seq nat) :=
  if ((0 < p) || (k == 0)) && (b || (k <= p))
  then getgen (fun g => r_choice r g p k b) else raise ValueError.
(** [rng.random(n)], [rng.permutation(n)] *)
Definition random (n : nat) : M (seq T) := getgen (fun g => r_random r g n).
Definition permutation (n : nat) : M (seq nat) := getgen (fun g => r_perm r g n).

Definition ohalf : T := (o1 / (o1 + o1))%O.

(** [S.T] for the results of the operators below. *)
Definition lo_tr (f : linop T) : linop T :=
  LinOp (lo_nc f) (lo_nr f) (lo_rmv f) (lo_rmm f) (lo_mv f) (lo_mm f).
Definition py_tr (S : pyop T) : res (pyop T) :=
  match S with
  | PyNone => Err AttributeError
  | PyArr B => Ok (PyArr (mtr B))
  | PySp B => Ok (PySp (mtr B))
  | PyLin f => Ok (PyLin (lo_tr f))
  end.

(** sketching.py 13-17: the tall case of [orthonormal_operator].  The Generator
    is the one in the state. *)
Definition orthonormal_tall (n_rows n_cols : nat) : M (pyop T) :=
  let! S0 := gaussian_operator r true n_rows n_cols in
  match S0 with
  | PyArr Q0 =>
      let! QR := lift (l_qr L Q0) in
      let! Q := lift (cmul QR.1 [seq osign x | x <- mdiag QR.2]) in
      ret (PyArr Q)
  | _ => raise Unmodelled
  end.

(** sketching.py 9-17: [orthonormal_operator(n_rows, n_cols, rng)]. *)
Definition orthonormal_operator (n_rows n_cols : nat) (a : rngarg) : M (pyop T) :=
  if n_rows < n_cols then
    let! Sk := with_rng r a (orthonormal_tall n_cols n_rows) in lift (py_tr Sk)
  else with_rng r a (orthonormal_tall n_rows n_cols).

(** [spar.coo_matrix((vals, (rows, cols)), shape)] converted to CSC/CSR:
    duplicate entries are summed.  (In floating point the order of summation of
    duplicates is scipy's; here it is the order of the list.) *)
Definition coo (m n : nat) (l : seq (nat * nat * T)) : arr T :=
  mk m n (fun i j =>
    foldl (fun acc e => if (e.1.1 == i) && (e.1.2 == j) then (acc + e.2)%O else acc) o0 l).

(** [for i in range(n): l.append(c())] *)
Fixpoint repeatM {X} (n : nat) (c : M X) : M (seq X) :=
  match n with
  | 0 => ret [::]
  | n'.+1 => let! x := c in let! xs := repeatM n' c in ret (x :: xs)
  end.

(** sketching.py 53-74: the wide case of [sjlt_operator]; [np.concatenate]
    raises on an empty list. *)
Definition sjlt_wide (n_rows n_cols vec_nnz0 : nat) : M (pyop T) :=
  let vec_nnz := minn n_cols vec_nnz0 in
  let bad_size := n_rows < vec_nnz in
  let! _ := if bad_size then emit (EvWarn W_sjlt_size) else ret tt in
  let! row_vecs := repeatM n_cols (choice n_rows vec_nnz bad_size) in
  if n_cols == 0 then raise ValueError
  else
    let rows := flatten row_vecs in
    let cols := flatten [seq nseq vec_nnz j | j <- iota 0 n_cols] in
    let! u := random (n_cols * vec_nnz) in
    let vals := [seq ((if (x <= ohalf)%O then - o1 else o1) / osqrt (onat vec_nnz))%O | x <- u] in
    ret (PySp (coo n_rows n_cols (zip (zip rows cols) vals))).

(** sketching.py 34-80: [sjlt_operator(n_rows, n_cols, rng, vec_nnz)]. *)
Definition sjlt_operator (n_rows n_cols : nat) (a : rngarg) (vec_nnz : nat) : M (pyop T) :=
  with_rng r a
   (if n_rows <= n_cols then sjlt_wide n_rows n_cols vec_nnz
    else let! Sk := sjlt_wide n_cols n_rows vec_nnz in lift (py_tr Sk)).

(** sketching.py 86-92: the mask, redrawn at most ten times. *)
Fixpoint ss_mask (N : nat) (density : T) (attempts_left : nat) : M (seq bool) :=
  let! u := random N in
  let mask := [seq (x < density)%O | x <- u] in
  if has id mask then ret mask
  else match attempts_left with
       | 0 => raise RuntimeError
       | k.+1 => ss_mask N density k
       end.

(** sketching.py 83-103: [sparse_sign_operator(n_rows, n_cols, rng, density)]. *)
Definition sparse_sign_operator (n_rows n_cols : nat) (a : rngarg) (density : T) : M (pyop T) :=
  with_rng r a
   (let! mask := ss_mask (n_rows * n_cols) density 10 in
    let nz := [seq i <- iota 0 (size mask) | nth false mask i] in
    let rows := [seq i %/ n_cols | i <- nz] in
    let cols := [seq i %% n_cols | i <- nz] in
    let! u := random (size nz) in
    let vals := [seq ((if (x < ohalf)%O then - o1 else o1) /
                      osqrt (onat (minn n_rows n_cols) * density))%O | x <- u] in
    ret (PySp (coo n_rows n_cols (zip (zip rows cols) vals)))).

(** sketching.py 106-115: [generate_srct].  [big_dim / small_dim] raises for
    small_dim = 0, after two draws. *)
Definition generate_srct (n_rows n_cols : nat) : M (seq nat * seq T * seq nat) :=
  let big := maxn n_rows n_cols in
  let small := minn n_rows n_cols in
  let! ri := choice big small false in
  let! e0 := random big in
  let e1 := [seq if (ohalf < x)%O then o1 else x | x <- e0] in
  let e2 := [seq if (x == o1)%O then x else (- o1)%O | x <- e1] in
  if small == 0 then raise ZeroDivisionError
  else
    let c := osqrt (onat big / onat small)%O in
    let e := [seq (x * c)%O | x <- e2] in
    let! perm := permutation big in
    ret (ri, e, perm).

(** [np.argsort(perm)] for a permutation of range(n): all keys are distinct, so
    the result is the inverse permutation. *)
Definition invperm (p : seq nat) : seq nat := mkseq (fun i => index i p) (size p).

(** [dct(mat, axis=0, norm='ortho')]: column by column. *)
Definition col_map (f : seq T -> seq T) (A : arr T) : arr T :=
  mk (nr A) (nc A) (fun i j => ev (f (mcol A j)) i).

Definition opt_idx {X} (f : X -> seq nat -> res X) (x : X) (p : option (seq nat)) : res X :=
  if p is Some p then f x p else Ok x.

(** sketching.py 118-176: [apply_srct(r, e, mat, perm, forward)]; vector and
    matrix operands, forward and adjoint. *)
Definition srct_v (ri : seq nat) (e : seq T) (perm : option (seq nat)) (x : seq T) : res (seq T) :=
  let? x1 := opt_idx vidx x perm in
  let? x2 := vmul x1 e in
  vidx (l_dct L x2) ri.
Definition srct_m (ri : seq nat) (e : seq T) (perm : option (seq nat)) (A : arr T) : res (arr T) :=
  let? A1 := opt_idx ridx A perm in
  let? A2 := rmul A1 e in
  ridx (col_map (l_dct L) A2) ri.
Definition srct_rv (ri : seq nat) (e : seq T) (perm : option (seq nat)) (x : seq T) : res (seq T) :=
  let? z := set_vidx (vzeros (size e)) ri x in
  let? z1 := vmul (l_idct L z) e in
  opt_idx vidx z1 (omap invperm perm).
Definition srct_rm (ri : seq nat) (e : seq T) (perm : option (seq nat)) (A : arr T) : res (arr T) :=
  let? Z := set_ridx (mzeros (size e) (nc A)) ri A in
  let? Z1 := rmul (col_map (l_idct L) Z) e in
  opt_idx ridx Z1 (omap invperm perm).

(** [sparla.LinearOperator(shape, matvec, ...)]: without a dtype the
    constructor calls matvec once on a vector of the right length. *)
Definition custom_linop (f : linop T) : res (pyop T) :=
  let? _ := lo_mv f (vzeros (lo_nc f)) in Ok (PyLin f).

(** sketching.py 186-198: the wide case of [srct_operator]. *)
Definition srct_wide (n_rows n_cols : nat) : M (pyop T) :=
  let! d := generate_srct n_rows n_cols in
  let: (ri, e, perm) := d in
  lift (custom_linop (LinOp n_rows n_cols (srct_v ri e (Some perm)) (srct_m ri e (Some perm))
                            (srct_rv ri e (Some perm)) (srct_rm ri e (Some perm)))).

(** sketching.py 179-201: [srct_operator(n_rows, n_cols, rng)].  There is no
    default_rng call here: an integer or an array has no method [choice].  For
    n_rows > n_cols the data are generated, dropped and generated again. *)
Definition srct_operator (n_rows n_cols : nat) (a : rngarg) : M (pyop T) :=
  match a with
  | RGen =>
      if n_rows <= n_cols then srct_wide n_rows n_cols
      else let! _ := generate_srct n_rows n_cols in
           let! Sk := srct_wide n_cols n_rows in lift (py_tr Sk)
  | _ => raise AttributeError
  end.

(** sketching.py 213-227: the operator for n_cols >= n_rows.  [rmatmat] calls
    [np.zeros(mat.shape[0], n_cols)], a TypeError; scipy sends an operand with
    one column to [rmatvec], where assigning a (k, 1) array to k entries is a
    ValueError unless k = 1. *)
Definition sampling_rmm (n_cols : nat) (indices : seq nat) (A : arr T) : res (arr T) :=
  if nc A == 1 then
    if size indices == 1 then
      set_ridx (mzeros n_cols 1) indices A
    else Err ValueError
  else Err TypeError.
Definition sampling_wide (n_rows n_cols : nat) (indices : seq nat) : res (pyop T) :=
  custom_linop (LinOp n_rows n_cols (fun x => vidx x indices) (fun A => ridx A indices)
                      (fun x => set_vidx (vzeros n_cols) indices x) (sampling_rmm n_cols indices)).

(** sketching.py 206-212: the index vector; [indices.sort()] is ascending. *)
Definition sampling_idx (n_rows n_cols : nat) (indices : option (seq nat)) : M (seq nat) :=
  match indices with
  | None => let! v := choice (maxn n_rows n_cols) (minn n_rows n_cols) false in ret (sort leq v)
  | Some v => passert (size v == minn n_rows n_cols) >>> ret v
  end.

(** sketching.py 204-232: [sampling_operator(n_rows, n_cols, rng, indices)].
    The recursive call passes [indices] in the position of [rng]. *)
Definition sampling_operator (n_rows n_cols : nat) (a : rngarg) (indices : option (seq nat)) :
    M (pyop T) :=
  with_rng r a
   (let! v := sampling_idx n_rows n_cols indices in
    if n_rows <= n_cols then lift (sampling_wide n_rows n_cols v)
    else
      let! Sk := with_rng r (RArr v)
        (let! v' := sampling_idx n_cols n_rows None in lift (sampling_wide n_cols n_rows v')) in
      lift (py_tr Sk)).

(** oblivious.py 31-82: the generator classes with their parameters. *)
Inductive skop :=
  | SkOpON
  | SkOpGA of bool                     (* normalize *)
  | SkOpSJ of nat                      (* vec_nnz *)
  | SkOpSS of T                        (* density *)
  | SkOpTC
  | SkOpIN of option (seq nat).        (* indices *)

(** [obj(n_rows, n_cols, rng)].  oblivious.py 64-65: the SkOpSS method has no
    return statement. *)
Definition skop_call (k : skop) (n_rows n_cols : nat) (a : rngarg) : M (pyop T) :=
  match k with
  | SkOpON => orthonormal_operator n_rows n_cols a
  | SkOpGA normalize => with_rng r a (gaussian_operator r normalize n_rows n_cols)
  | SkOpSJ vec_nnz => sjlt_operator n_rows n_cols a vec_nnz
  | SkOpSS density => let! _ := sparse_sign_operator n_rows n_cols a density in ret PyNone
  | SkOpTC => srct_operator n_rows n_cols a
  | SkOpIN indices => sampling_operator n_rows n_cols a indices
  end.

End Sketching.
