(** Specification of C96 and C97: shapes and exceptions of a run, in any arithmetic
    (no law of the scalar operations is used, so IEEE doubles are included). *)
From mathcomp Require Import all_ssreflect all_algebra.
From Verif Require Import Base Arr Lapack Rng Pcg Lsqr Precond LstSq.
Set Implicit Arguments.
Unset Strict Implicit.
Unset Printing Implicit Defensive.

(** [A] is a proper array of shape (m, n). *)
Definition shaped {T} {O : ops T} (m n : nat) (A : arr T) : Prop := [/\ wf A, nr A = m & nc A = n].

(** Every run of [c], from any state, returns a value satisfying [P] or raises an
    exception satisfying [X]. *)
Definition rsafe (X : exn -> Prop) {Y} (P : Y -> Prop) (c : res Y) : Prop :=
  match c with inr y => P y | inl e => X e end.
Definition safe {G T} (X : exn -> Prop) {Y} (P : Y -> Prop) (c : M G T Y) : Prop :=
  forall s, rsafe X P (c s).2.

(** LAPACK as far as shapes go: on non-empty arguments each routine raises an exception
    in [X] (for instance on NaN, or without convergence) or returns factors of the
    documented shapes.  Nothing is said about their values. *)
Record lap_shapes {T} {O : ops T} (X : exn -> Prop) (L : lapack T) : Prop := LapShapes {
  lsh_qr : forall m n A, 0 < m -> 0 < n -> shaped m n A ->
    rsafe X (fun QR => shaped m (minn m n) QR.1 /\ shaped (minn m n) n QR.2) (l_qr L A);
  lsh_qrp : forall m n A, 0 < m -> 0 < n -> shaped m n A ->
    rsafe X (fun QRJ => [/\ shaped m (minn m n) QRJ.1.1, shaped (minn m n) n QRJ.1.2 & perm_eq QRJ.2 (iota 0 n)])
      (l_qrp L A);
  lsh_svd : forall m n A, 0 < m -> 0 < n -> shaped m n A ->
    rsafe X (fun USV => [/\ shaped m (minn m n) USV.1.1, size USV.1.2 = minn m n & shaped (minn m n) n USV.2])
      (l_svd L A);
  lsh_eigh : forall n A, 0 < n -> shaped n n A ->
    rsafe X (fun LV => size LV.1 = n /\ shaped n n LV.2) (l_eigh L A);
  lsh_lstsq : forall m n p A B, 0 < m -> 0 < n -> 0 < p -> shaped m n A -> shaped m p B ->
    rsafe X (shaped n p) (l_lstsq L A B)
}.

(** k skeleton indices of an axis of length n. *)
Definition skel (n k : nat) (J : seq nat) : Prop := [/\ size J = k, uniq J & all (fun j => j < n) J].

Section Results.
Context {T : Type} {O : ops T}.

(** The number of columns a blocked QB may stop at: k, or a smaller multiple of the block size. *)
Definition blocks (b k c : nat) : Prop := 0 < c <= k /\ (c = k \/ b %| c).

(** (U, s, Vh) and (V, lambda) of some rank c <= k. *)
Definition svd_shape m n k (USV : arr T * seq T * arr T) : Prop :=
  exists2 c, (c <= k)%N & [/\ shaped m c USV.1.1, size USV.1.2 = c & shaped c n USV.2].
Definition evd_shape n k (VL : arr T * seq T) : Prop :=
  exists2 c, (c <= k)%N & shaped n c VL.1 /\ size VL.2 = c.

(** Interpolative decompositions of rank k: row ID (axis 0), column ID (axis 1), two-sided ID, CUR. *)
Definition osid_shape m n k (axis : int) (XJ : arr T * seq nat) : Prop :=
  if (axis == 0)%R then shaped m k XJ.1 /\ skel m k XJ.2 else shaped k n XJ.1 /\ skel n k XJ.2.
Definition tsid_shape m n k (x : arr T * seq nat * arr T * seq nat) : Prop :=
  [/\ shaped m k x.1.1.1, skel m k x.1.1.2, shaped k n x.1.2 & skel n k x.2].
Definition cur_shape m n k (x : seq nat * arr T * seq nat) : Prop :=
  [/\ skel n k x.1.1, shaped k k x.1.2 & skel m k x.2].

(** An optional 1-D array of length n. *)
Definition optsz (n : nat) (v : option (seq T)) : Prop := if v is Some v then size v = n else True.

(** delta gives the same answer to both tests the code makes: [delta > 0] and [sqrt(delta) != 0].  True of every
    delta >= 0 in exact and in IEEE arithmetic, false of NaN. *)
Definition reg_ok (delta : T) : Prop := oeq (osqrt delta) o0 = ~~ olt o0 delta.

(** int(sampling_factor * n) >= n. *)
Definition sf_ok (sf : rat) (n : nat) : Prop := (n%:Z <= trunc_rat (sf * n%:R))%R.

(** The log of a run of at most [it] iterations: one time per error, and nothing without logging. *)
Definition log_le (lg : bool) (it : int) (l : @splog T) : Prop :=
  if lg then exists es ts, [/\ errors l = Some es, times l = Some ts, size es = size ts & (size es <= (absz it).+1)%N]
  else errors l = None /\ times l = None.
End Results.

(** The two tests agree on delta = 0. *)
Definition zero_ok (T : Type) {O : ops T} : Prop := oeq (osqrt o0) (o0 : T) /\ ~~ olt o0 (o0 : T).
Arguments zero_ok T {O}.
