(** numpy arrays: dense 2-D arrays with dynamic shapes ([arr]) and 1-D arrays
    ([seq]).  Operations raise [ValueError] on shape mismatch as numpy does.
    Broadcasting of length-1 axes is not modelled (a mismatch is an error). *)
From mathcomp Require Import all_ssreflect.
From Verif Require Import Base.
Set Implicit Arguments.
Unset Strict Implicit.
Unset Printing Implicit Defensive.

Section Arr.
Context {T : Type} {O : ops T}.

Definition mk (m n : nat) (f : nat -> nat -> T) : arr T :=
  Arr m n (mkseq (fun i => mkseq (f i) n) m).

Definition el (A : arr T) (i j : nat) : T := nth o0 (nth [::] (dat A) i) j.

Definition ev (v : seq T) (i : nat) : T := nth o0 v i.

(** [np.zeros((m, n))], [np.empty((m, 0))], [np.eye(n)]. *)
Definition mzeros (m n : nat) : arr T := mk m n (fun _ _ => o0).
Definition meye (n : nat) : arr T := mk n n (fun i j => if i == j then o1 else o0).
Definition vzeros (n : nat) : seq T := nseq n o0.

(** [A.T] *)
Definition mtr (A : arr T) : arr T := mk (nc A) (nr A) (fun i j => el A j i).

(** [A @ B] *)
Definition mmul (A B : arr T) : res (arr T) :=
  if nc A == nr B
  then Ok (mk (nr A) (nc B) (fun i j => osum (nc A) (fun l => (el A i l * el B l j)%O)))
  else Err ValueError.

(** [A + B], [A - B] *)
Definition madd (A B : arr T) : res (arr T) :=
  if (nr A == nr B) && (nc A == nc B)
  then Ok (mk (nr A) (nc A) (fun i j => (el A i j + el B i j)%O))
  else Err ValueError.
Definition msub (A B : arr T) : res (arr T) :=
  if (nr A == nr B) && (nc A == nc B)
  then Ok (mk (nr A) (nc A) (fun i j => (el A i j - el B i j)%O))
  else Err ValueError.

(** [a * A] *)
Definition mscale (a : T) (A : arr T) : arr T :=
  mk (nr A) (nc A) (fun i j => (a * el A i j)%O).

(** [np.column_stack((A, B))] / [np.hstack]; [np.row_stack] / [np.vstack]. *)
Definition hstack (A B : arr T) : res (arr T) :=
  if nr A == nr B
  then Ok (mk (nr A) (nc A + nc B)
             (fun i j => if j < nc A then el A i j else el B i (j - nc A)))
  else Err ValueError.
Definition vstack (A B : arr T) : res (arr T) :=
  if nc A == nc B
  then Ok (mk (nr A + nr B) (nc A)
             (fun i j => if i < nr A then el A i j else el B (i - nr A) j))
  else Err ValueError.

(** Python slice bounds for non-negative [a], [b]: clamped to the axis. *)
Definition slen (n a b : nat) : nat := minn b n - minn a n.

(** [A[:, a:b]], [A[a:b, :]] *)
Definition cslice (A : arr T) (a b : nat) : arr T :=
  mk (nr A) (slen (nc A) a b) (fun i j => el A i (minn a (nc A) + j)).
Definition rslice (A : arr T) (a b : nat) : arr T :=
  mk (slen (nr A) a b) (nc A) (fun i j => el A (minn a (nr A) + i) j).

(** [A[:, J]], [A[I, :]] with an index vector. *)
Definition cidx (A : arr T) (J : seq nat) : res (arr T) :=
  if all (fun j => j < nc A) J
  then Ok (mk (nr A) (size J) (fun i j => el A i (nth 0 J j)))
  else Err IndexError.
Definition ridx (A : arr T) (I : seq nat) : res (arr T) :=
  if all (fun i => i < nr A) I
  then Ok (mk (size I) (nc A) (fun i j => el A (nth 0 I i) j))
  else Err IndexError.
(** [v[I]] *)
Definition vidx (v : seq T) (I : seq nat) : res (seq T) :=
  if all (fun i => i < size v) I
  then Ok [seq ev v i | i <- I]
  else Err IndexError.

(** Last position of [j] in [J], counting from the front ([None] if absent):
    the value that survives in a fancy-index assignment with repeated
    indices. *)
Fixpoint lastpos (J : seq nat) (j : nat) : option nat :=
  match J with
  | [::] => None
  | j' :: J' => match lastpos J' j with
                | Some p => Some p.+1
                | None => if j' == j then Some 0 else None
                end
  end.

(** [Z[:, J] = W] *)
Definition set_cidx (Z : arr T) (J : seq nat) (W : arr T) : res (arr T) :=
  if ~~ all (fun j => j < nc Z) J then Err IndexError
  else if (nr W == nr Z) && (nc W == size J)
  then Ok (mk (nr Z) (nc Z) (fun i j => if lastpos J j is Some p then el W i p else el Z i j))
  else Err ValueError.
(** [Z[I, :] = W], [z[I] = w] *)
Definition set_ridx (Z : arr T) (I : seq nat) (W : arr T) : res (arr T) :=
  if ~~ all (fun i => i < nr Z) I then Err IndexError
  else if (nc W == nc Z) && (nr W == size I)
  then Ok (mk (nr Z) (nc Z) (fun i j => if lastpos I i is Some p then el W p j else el Z i j))
  else Err ValueError.
Definition set_vidx (z : seq T) (I : seq nat) (w : seq T) : res (seq T) :=
  if ~~ all (fun i => i < size z) I then Err IndexError
  else if size w == size I
  then Ok (mkseq (fun i => if lastpos I i is Some p then ev w p else ev z i) (size z))
  else Err ValueError.

(** Matrix-vector product [A @ x] with a 1-D [x]. *)
Definition mv (A : arr T) (x : seq T) : res (seq T) :=
  if nc A == size x
  then Ok (mkseq (fun i => osum (nc A) (fun l => (el A i l * ev x l)%O)) (nr A))
  else Err ValueError.

(** 1-D arithmetic. *)
Definition vadd (x y : seq T) : res (seq T) :=
  if size x == size y
  then Ok (mkseq (fun i => (ev x i + ev y i)%O) (size x)) else Err ValueError.
Definition vsub (x y : seq T) : res (seq T) :=
  if size x == size y
  then Ok (mkseq (fun i => (ev x i - ev y i)%O) (size x)) else Err ValueError.
Definition vmul (x y : seq T) : res (seq T) :=
  if size x == size y
  then Ok (mkseq (fun i => (ev x i * ev y i)%O) (size x)) else Err ValueError.
Definition vdiv (x y : seq T) : res (seq T) :=
  if size x == size y
  then Ok (mkseq (fun i => (ev x i / ev y i)%O) (size x)) else Err ValueError.
Definition vscale (a : T) (x : seq T) : seq T :=
  mkseq (fun i => (a * ev x i)%O) (size x).
Definition vdivs (x : seq T) (a : T) : seq T :=
  mkseq (fun i => (ev x i / a)%O) (size x).
Definition vopp (x : seq T) : seq T := mkseq (fun i => (- ev x i)%O) (size x).

(** [np.dot(x, y)] *)
Definition vdot (x y : seq T) : res T :=
  if size x == size y
  then Ok (osum (size x) (fun i => (ev x i * ev y i)%O)) else Err ValueError.

(** [la.norm(x)]: Euclidean norm of a vector; [la.norm(A, 'fro')]. *)
Definition vsq (x : seq T) : T := osum (size x) (fun i => osq (ev x i)).
Definition vnorm (x : seq T) : T := osqrt (vsq x).
Definition msq (A : arr T) : T :=
  osum (nr A) (fun i => osum (nc A) (fun j => osq (el A i j))).
Definition mnorm (A : arr T) : T := osqrt (msq A).

(** [A / s], [A * s] with a 1-D [s] broadcast along the columns. *)
Definition cdiv (A : arr T) (s : seq T) : res (arr T) :=
  if nc A == size s
  then Ok (mk (nr A) (nc A) (fun i j => (el A i j / ev s j)%O)) else Err ValueError.
Definition cmul (A : arr T) (s : seq T) : res (arr T) :=
  if nc A == size s
  then Ok (mk (nr A) (nc A) (fun i j => (el A i j * ev s j)%O)) else Err ValueError.
(** [A * s[:, None]] *)
Definition rmul (A : arr T) (s : seq T) : res (arr T) :=
  if nr A == size s
  then Ok (mk (nr A) (nc A) (fun i j => (el A i j * ev s i)%O)) else Err ValueError.

(** [np.diag(A)] *)
Definition mdiag (A : arr T) : seq T :=
  mkseq (fun i => el A i i) (minn (nr A) (nc A)).

(** [v[a:b]] for non-negative bounds. *)
Definition vslice (v : seq T) (a b : nat) : seq T := take (b - a) (drop a v).

Definition mcol (A : arr T) (j : nat) : seq T := mkseq (fun i => el A i j) (nr A).
Definition mrow (A : arr T) (i : nat) : seq T := mkseq (fun j => el A i j) (nc A).

(** Basic shape facts, valid for any scalars. *)
Lemma nr_mk m n f : nr (mk m n f) = m. Proof. by []. Qed.
Lemma nc_mk m n f : nc (mk m n f) = n. Proof. by []. Qed.

Lemma el_mk m n f i j : i < m -> j < n -> el (mk m n f) i j = f i j.
Proof. by move=> im jn; rewrite /el /mk /= !nth_mkseq. Qed.

Lemma eq_mk m n f g :
  (forall i j, i < m -> j < n -> f i j = g i j) -> mk m n f = mk m n g.
Proof.
move=> E; rewrite /mk; congr Arr.
apply: (@eq_from_nth _ [::]); first by rewrite !size_mkseq.
move=> i; rewrite size_mkseq => im; rewrite !nth_mkseq //.
apply: (@eq_from_nth _ o0); first by rewrite !size_mkseq.
by move=> j; rewrite size_mkseq => jn; rewrite !nth_mkseq // E.
Qed.

Lemma ev_mkseq n f i : i < n -> ev (mkseq f n) i = f i.
Proof. by move=> lt_in; rewrite /ev nth_mkseq. Qed.

Lemma eq_mkseq_in n (f g : nat -> T) :
  (forall i, i < n -> f i = g i) -> mkseq f n = mkseq g n.
Proof.
move=> E; apply: (@eq_from_nth _ o0); first by rewrite !size_mkseq.
by move=> i; rewrite size_mkseq => lt_in; rewrite !nth_mkseq // E.
Qed.

Lemma eq_osum n (f g : nat -> T) :
  (forall i, i < n -> f i = g i) -> osum n f = osum n g.
Proof.
move=> E; rewrite /osum.
have: all (fun i => i < n) (iota 0 n) by apply/allP=> i; rewrite mem_iota.
elim: (iota 0 n) o0 => //= i s IH a /andP[lt_in Hs].
by rewrite E // IH.
Qed.

Lemma mkseq_ev (v : seq T) : mkseq (ev v) (size v) = v.
Proof. by rewrite /ev; apply: mkseq_nth. Qed.

End Arr.

Arguments mzeros : simpl never.
Arguments meye : simpl never.
Arguments vzeros : simpl never.
Arguments mtr : simpl never.
Arguments mmul : simpl never.
Arguments madd : simpl never.
Arguments msub : simpl never.
Arguments mscale : simpl never.
Arguments hstack : simpl never.
Arguments vstack : simpl never.
Arguments cslice : simpl never.
Arguments rslice : simpl never.
Arguments cidx : simpl never.
Arguments ridx : simpl never.
Arguments vidx : simpl never.
Arguments set_cidx : simpl never.
Arguments set_ridx : simpl never.
Arguments set_vidx : simpl never.
Arguments mv : simpl never.
Arguments vadd : simpl never.
Arguments vsub : simpl never.
Arguments vmul : simpl never.
Arguments vdiv : simpl never.
Arguments vscale : simpl never.
Arguments vdivs : simpl never.
Arguments vopp : simpl never.
Arguments vdot : simpl never.
Arguments vsq : simpl never.
Arguments vnorm : simpl never.
Arguments msq : simpl never.
Arguments mnorm : simpl never.
Arguments cdiv : simpl never.
Arguments cmul : simpl never.
Arguments rmul : simpl never.
Arguments mdiag : simpl never.
Arguments vslice : simpl never.
Arguments mcol : simpl never.
Arguments mrow : simpl never.
