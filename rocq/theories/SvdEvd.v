(** Model of parla/drivers/svd.py and parla/drivers/evd.py. *)
From mathcomp Require Import all_ssreflect all_algebra.
From Verif Require Import Base Arr Lapack Rng Aware RangeFinders QB.
Set Implicit Arguments.
Unset Strict Implicit.
Unset Printing Implicit Defensive.

Section SvdEvd.
Context {T : Type} {O : ops T} {G : Type}.
Variables (L : lapack T) (r : rng_ops G T).
Notation M := (M G T).

(** Type of a QBDecomposer object's call [qb(A, k, tol, rng)]: returns (Q, B).
    The content of the caller's array after the call is not represented; the
    drivers below use [overwrite_a=False]. *)
Definition qbdec := arr T -> int -> option T -> M (arr T * arr T).

Definition QB2_noov (rf : rangefinder) (blk : int) : qbdec :=
  fun A k tol => let! x := QB2 L rf blk false A k tol in ret x.1.

(** Stop bound of the Python slice [v[:c]] on an axis of length [n]: a negative
    bound counts from the end. *)
Definition pystop (n : nat) (c : int) : nat :=
  match c with Posz p => minn p n | Negz p => n - p.+1 end.

(** [10 * np.finfo(float).eps] *)
Definition cut10 : T := (onat 10 * oeps)%O.

(** Positions where a boolean mask is true. *)
Definition mask_idx (f : T -> bool) (v : seq T) : seq nat :=
  [seq i <- iota 0 (size v) | f (ev v i)].

(** svd.py 161-176: [SVD1.__call__(A, k, tol, over, rng)]. *)
Definition SVD1 (qb : qbdec) (A : arr T) (k : int) (tol : option T) (over : int)
    : M (arr T * seq T * arr T) :=
  let! QB := qb A (k + over)%R tol in
  let! USV := lift (l_svd L QB.2) in
  let USV :=
    if (0 < over)%R then
      let cutoff := Order.min k (size USV.1.2)%:Z%R in
      (cslice USV.1.1 0 (pystop (nc USV.1.1) cutoff),
       vslice USV.1.2 0 (pystop (size USV.1.2) cutoff),
       rslice USV.2 0 (pystop (nr USV.2) cutoff))
    else USV in
  let drop := fun x => (x < cut10)%O in
  let! USV :=
    if has drop USV.1.2 then
      let keep := mask_idx (fun x => ~~ drop x) USV.1.2 in
      let! U := lift (cidx USV.1.1 keep) in
      let! s := lift (vidx USV.1.2 keep) in
      let! Vh := lift (ridx USV.2 keep) in
      ret (U, s, Vh)
    else ret USV in
  let! U := lift (mmul QB.1 USV.1.1) in
  ret (U, USV.1.2, USV.2).

(** svd.py 58-123: [svd1]. *)
Definition svd1 (A : arr T) (k over : int) (tol : option T) (inner_num_pass blk : int)
    (a : rngarg) : M (arr T * seq T * arr T) :=
  with_rng r a
    (SVD1 (QB2_noov (RF1 L (RS1 (skopGA r) (inner_num_pass - 2)%R (orth L) 1%R)) blk)
          A k tol over).

(** [tol / 2]; NaN stays NaN. *)
Definition half_tol (tol : option T) : option T := omap (fun t => (t / onat 2)%O) tol.

(** evd.py 218-289: [EVD1.__call__].  The assertion [tol < np.inf] always holds
    for the (finite) values of [tol] the model represents.  [asort] is
    [np.argsort]. *)
Definition EVD1 (asort : seq T -> seq nat) (qb : qbdec) (A : arr T) (k : int)
    (tol : option T) (over : int) : M (arr T * seq T) :=
  passert (0 < k)%R >>>
  passert (k <= (minn (nr A) (nc A))%:Z)%R >>>
  let! _ := if tol is Some t then passert (o0 <= t)%O else ret tt in
  let! QB := qb A (k + over)%R (half_tol tol) in
  let! C := lift (mmul QB.2 QB.1) in
  let! LU := lift (l_eigh L C) in
  let alamb := map oabs LU.1 in
  let d := nc QB.1 in
  let rr := minn (absz k) (minn d (count (fun x => (cut10 < x)%O) alamb)) in
  let I := take rr (asort (map (fun x => (- o1 * oabs x)%O) alamb)) in
  let! U := lift (cidx LU.2 I) in
  let! lamb := lift (vidx LU.1 I) in
  let! V := lift (mmul QB.1 U) in
  ret (V, lamb).

(** evd.py 16-96: [evd1]. *)
Definition evd1 (asort : seq T -> seq nat) (A : arr T) (k : int) (tol : option T)
    (over inner_num_pass blk : int) (a : rngarg) : M (arr T * seq T) :=
  passert (2 <= inner_num_pass)%R >>>
  with_rng r a
    (EVD1 asort (QB2_noov (RF1 L (RS1 (skopGA r) (inner_num_pass - 2)%R (orth L) 1%R)) blk)
          A k (half_tol tol) over).

(** evd.py 374-379: the list of components that relied on the regularisation. *)
Fixpoint evd2_comps (sigma : seq T) (nu : T) (todo i : nat) : res (seq nat) :=
  match todo with
  | 0 => Ok [::]
  | todo'.+1 =>
      if i.+1 < size sigma then
        let? l := evd2_comps sigma nu todo' i.+1 in
        Ok (if (osq (ev sigma i.+1) <= nu)%O then i :: l else l)
      else Err IndexError
  end.

(** evd.py 299-384: [EVD2.__call__].  [la.cholesky(C, lower=False)] reads the
    upper triangle, hence the transpose before and after the model's lower
    Cholesky routine.  [la.svd(B)] returns a square [V]; only its first
    [min(B.shape)] columns are ever read, so the thin SVD is used. *)
Definition EVD2 (sk_op : rowsketcher) (A : arr T) (k : int) (tol : option T)
    (over : int) : M (arr T * seq T) :=
  passert (0 < k)%R >>>
  let n := nr A in
  passert (k < n%:Z)%R >>>
  let! _ := if tol is Some _ then emit (EvWarn W_other) else ret tt in
  if (k + over < 0)%R then raise ValueError else
  let! Sk := sk_op A (absz (k + over)%R) in
  match Sk with
  | PyArr Sk =>
      let! Y := passA A (PyArr Sk) in
      let nu := (osqrt (onat n) * oeps * mnorm Y)%O in
      let! Y := lift (madd Y (mscale nu Sk)) in
      let! C := lift (mmul (mtr Sk) Y) in
      let! Lo := lift (cholesky (mtr C)) in
      let! Bt := lift (solve_tri false true (mtr Lo) (mtr Y)) in
      let! USV := lift (l_svd L (mtr Bt)) in
      let sigma := USV.1.2 in
      let! comps := lift (evd2_comps sigma nu (absz k).-1 0) in
      let rr := foldr minn (absz k) comps in
      let lamb := map (fun x => (osq x - nu)%O) (vslice sigma 0 rr) in
      ret (cslice USV.1.1 0 rr, lamb)
  | _ => raise Unmodelled
  end.

(** evd.py 99-164: [evd2]. *)
Definition evd2 (A : arr T) (k over num_passes : int) (a : rngarg) : M (arr T * seq T) :=
  passert (1 <= num_passes)%R >>>
  with_rng r a (EVD2 (RS1 (skopGA r) (num_passes - 1)%R (orth L) 1%R) A k None over).

End SvdEvd.
