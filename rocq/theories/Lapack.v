(** External dense linear algebra.  Iterative / LAPACK-backed factorisations
    are fields of a record (an oracle); triangular solves and Cholesky are
    modelled concretely because their failure branches matter. *)
From mathcomp Require Import all_ssreflect.
From Verif Require Import Base Arr.
Set Implicit Arguments.
Unset Strict Implicit.
Unset Printing Implicit Defensive.

(** The LAPACK-backed routines that PARLA calls, as deterministic functions.
    Their contract in exact arithmetic is [lapack_ok] in [LapackSpec.v]. *)
Record lapack (T : Type) := Lapack {
  (* la.qr(A, mode='economic') -> Q, R *)
  l_qr : arr T -> res (arr T * arr T);
  (* la.qr(A, mode='economic', pivoting=True) -> Q, R, J *)
  l_qrp : arr T -> res (arr T * arr T * seq nat);
  (* la.svd(A, full_matrices=False) -> U, s, Vh *)
  l_svd : arr T -> res (arr T * seq T * arr T);
  (* la.eigh(A) -> lamb, V *)
  l_eigh : arr T -> res (seq T * arr T);
  (* la.lu(A) -> P, L, U *)
  l_lu : arr T -> res (arr T * arr T * arr T);
  (* la.lstsq(A, B)[0] *)
  l_lstsq : arr T -> arr T -> res (arr T);
  (* scipy.fft.dct / idct with norm='ortho', on one vector *)
  l_dct : seq T -> seq T;
  l_idct : seq T -> seq T
}.

Section Tri.
Context {T : Type} {O : ops T}.

(** Forward substitution for a lower triangular [L]: entries [x_0 .. x_{p-1}]
    of the solution of [L x = b]. *)
Fixpoint fsub (L : nat -> nat -> T) (b : nat -> T) (p : nat) : seq T :=
  match p with
  | 0 => [::]
  | i.+1 =>
      let xs := fsub L b i in
      rcons xs ((b i - osum i (fun l => (L i l * ev xs l)%O)) / L i i)%O
  end.

(** One right-hand side of [la.solve_triangular]; [lower] and [trans] as in
    scipy.  Upper triangular systems are solved from the last unknown. *)
Definition tri_vec (lower trans : bool) (R : arr T) (b : nat -> T) : seq T :=
  let n := nr R in
  let a i j := if trans then el R j i else el R i j in
  if lower (+) trans then fsub a b n
  else rev (fsub (fun i j => a (n.-1 - i) (n.-1 - j)) (fun i => b (n.-1 - i)) n).

Definition tri_check (R : arr T) (p : nat) : res unit :=
  if ~~ ((nr R == nc R) && (nr R == p)) then Err ValueError
  else if has (fun i => oeq (el R i i) o0) (iota 0 (nr R)) then Err LinAlgError
  else Ok tt.

(** [la.solve_triangular(R, B, lower=.., trans=..)] with 2-D [B]: trtrs raises
    LinAlgError when a diagonal entry is exactly zero. *)
Definition solve_tri (lower trans : bool) (R B : arr T) : res (arr T) :=
  let? _ := tri_check R (nr B) in
  let cols := mkseq (fun j => tri_vec lower trans R (fun i => el B i j)) (nc B) in
  Ok (mk (nr B) (nc B) (fun i j => ev (nth [::] cols j) i)).

(** Same with a 1-D right-hand side. *)
Definition solve_tri_v (lower trans : bool) (R : arr T) (b : seq T) : res (seq T) :=
  let? _ := tri_check R (size b) in
  Ok (tri_vec lower trans R (ev b)).

(** Cholesky factor, row by row; [None] when a pivot is not positive. *)
Fixpoint chol_rows (A : arr T) (p : nat) : option (seq (seq T)) :=
  match p with
  | 0 => Some [::]
  | i.+1 =>
      if chol_rows A i is Some rows then
        let row := fsub (fun a b => ev (nth [::] rows a) b) (fun j => el A i j) i in
        let piv := (el A i i - osum i (fun l => osq (ev row l)))%O in
        if olt o0 piv then Some (rcons rows (rcons row (osqrt piv))) else None
      else None
  end.

(** [la.cholesky(A, lower=True)]: reads the lower triangle only; raises
    LinAlgError when a leading minor is not positive. *)
Definition cholesky (A : arr T) : res (arr T) :=
  if nr A != nc A then Err ValueError
  else if chol_rows A (nr A) is Some rows
  then Ok (mk (nr A) (nr A) (fun i j => if j <= i then ev (nth [::] rows i) j else o0))
  else Err LinAlgError.

Lemma size_fsub L b p : size (fsub L b p) = p.
Proof. by elim: p => //= p IH; rewrite size_rcons IH. Qed.

Lemma size_tri_vec lower trans R b : size (tri_vec lower trans R b) = nr R.
Proof. by rewrite /tri_vec; case: ifP => _; rewrite ?size_rev size_fsub. Qed.

(** Partial solutions are prefixes of longer ones. *)
Lemma ev_fsub L b p q i : i < p -> p <= q -> ev (fsub L b q) i = ev (fsub L b p) i.
Proof.
move=> ip; elim: q => [|q IH]; first by rewrite leqn0 => /eqP p0; rewrite p0 in ip.
rewrite leq_eqVlt => /orP[/eqP-> //|]; rewrite ltnS => pq.
rewrite -(IH pq) /= /ev nth_rcons size_fsub.
by rewrite (leq_trans ip pq).
Qed.

Lemma fsubS L b i p : i < p ->
  ev (fsub L b p) i =
  ((b i - osum i (fun l => (L i l * ev (fsub L b p) l)%O)) / L i i)%O.
Proof.
move=> ip; rewrite (ev_fsub L b (ltnSn i) ip) /=.
rewrite {1}/ev nth_rcons size_fsub ltnn eqxx; congr odiv; congr osub.
by apply: eq_osum => l li; rewrite (ev_fsub L b li (ltnW ip)).
Qed.

End Tri.
