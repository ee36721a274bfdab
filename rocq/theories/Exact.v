(** The exact-arithmetic instance: scalars in a real closed field, and the
    correspondence between model arrays and mathcomp matrices. *)
From mathcomp Require Import all_ssreflect all_algebra.
From Verif Require Import Base Arr Lapack.
Set Implicit Arguments.
Unset Strict Implicit.
Unset Printing Implicit Defensive.
Import Order.TTheory GRing.Theory Num.Theory.
Local Open Scope ring_scope.

#[global] Instance rcf_ops (R : rcfType) : ops R := {|
  o0 := 0; o1 := 1;
  oadd := fun x y => x + y;
  osub := fun x y => x - y;
  omul := fun x y => x * y;
  odiv := fun x y => x / y;
  oopp := fun x => - x;
  osqrt := fun x => Num.sqrt x;
  ole := fun x y => x <= y;
  olt := fun x y => x < y;
  oeq := fun x y => x == y
|}.

(** Embedding of matrices and column vectors. *)
Definition mxe (R : rcfType) m n (A : 'M[R]_(m, n)) (i j : nat) : R :=
  if insub i is Some i' then (if insub j is Some j' then A i' j' else 0) else 0.

Definition ofmx (R : rcfType) m n (A : 'M[R]_(m, n)) : arr R := mk m n (mxe A).
Definition ofcv (R : rcfType) n (v : 'cV[R]_n) : seq R :=
  mkseq (fun i => mxe v i 0) n.

(** Squared Frobenius norm. *)
Definition fro2 (R : rcfType) m n (A : 'M[R]_(m, n)) : R :=
  \sum_i \sum_j A i j ^+ 2.
Definition fro (R : rcfType) m n (A : 'M[R]_(m, n)) : R := Num.sqrt (fro2 A).

Section Bridge.
Variable R : rcfType.
Implicit Types (m n p : nat).

Lemma osumE n (f : nat -> R) : osum n f = \sum_(i < n) f i.
Proof.
rewrite /osum -(big_mkord xpredT f) /index_iota subn0.
have H s (a : R) : foldl (fun acc i => oadd acc (f i)) a s = a + \sum_(i <- s) f i.
  elim: s a => [|i s IH] a /=; first by rewrite big_nil addr0.
  by rewrite big_cons IH addrA.
by rewrite H add0r.
Qed.

Lemma onatE n : onat n = n%:R :> R.
Proof. by elim: n => //= n ->; rewrite -addn1 natrD. Qed.

Lemma opowE (x : R) n : opow x n = x ^+ n.
Proof. by elim: n => //= n ->; rewrite exprSr. Qed.

Lemma oepsE : oeps = 2%:R ^- 52 :> R.
Proof. by rewrite /oeps opowE /= div1r. Qed.

Lemma oabsE (x : R) : oabs x = `|x|.
Proof.
rewrite /oabs /=; case: ltrP => [lt0|ge0]; first by rewrite ltr0_norm.
by rewrite ger0_norm.
Qed.

Lemma osignE (x : R) : osign x = Num.sg x.
Proof. by rewrite /osign /=; case: sgrP. Qed.

Lemma osqE (x : R) : osq x = x ^+ 2.
Proof. by []. Qed.

Lemma mxeE m n (A : 'M[R]_(m, n)) (i : 'I_m) (j : 'I_n) : mxe A i j = A i j.
Proof. by rewrite /mxe !valK. Qed.

Lemma mxe_ord m n (A : 'M[R]_(m, n)) i j (im : (i < m)%N) (jn : (j < n)%N) :
  mxe A i j = A (Ordinal im) (Ordinal jn).
Proof. by rewrite -mxeE. Qed.

Lemma nr_ofmx m n (A : 'M[R]_(m, n)) : nr (ofmx A) = m. Proof. by []. Qed.
Lemma nc_ofmx m n (A : 'M[R]_(m, n)) : nc (ofmx A) = n. Proof. by []. Qed.
Lemma size_ofcv n (v : 'cV[R]_n) : size (ofcv v) = n.
Proof. exact: size_mkseq. Qed.

Lemma el_ofmx m n (A : 'M[R]_(m, n)) (i : 'I_m) (j : 'I_n) :
  el (ofmx A) i j = A i j.
Proof. by rewrite el_mk // mxeE. Qed.

Lemma el_ofmx_nat m n (A : 'M[R]_(m, n)) i j (im : (i < m)%N) (jn : (j < n)%N) :
  el (ofmx A) i j = A (Ordinal im) (Ordinal jn).
Proof. by rewrite el_mk // mxe_ord. Qed.

Lemma ev_ofcv n (v : 'cV[R]_n) (i : 'I_n) : ev (ofcv v) i = v i 0.
Proof. by rewrite ev_mkseq // -mxeE. Qed.

Lemma ev_ofcv_nat n (v : 'cV[R]_n) i (lt_in : (i < n)%N) :
  ev (ofcv v) i = v (Ordinal lt_in) 0.
Proof. by rewrite -ev_ofcv. Qed.

Lemma mk_ofmx m n (f : nat -> nat -> R) : mk m n f = ofmx (\matrix_(i < m, j < n) f i j).
Proof. by apply: eq_mk => i j im jn; rewrite mxe_ord mxE. Qed.

Lemma mkseq_ofcv n (f : nat -> R) : mkseq f n = ofcv (\col_(i < n) f i).
Proof.
by apply: eq_mkseq_in => i lt_in; rewrite (mxe_ord _ lt_in (ltn0Sn 0)) mxE.
Qed.

Lemma mk_eq_ofmx m n (f : nat -> nat -> R) (A : 'M[R]_(m, n)) :
  (forall (i : 'I_m) (j : 'I_n), f i j = A i j) -> mk m n f = ofmx A.
Proof. by move=> E; rewrite mk_ofmx; congr ofmx; apply/matrixP=> i j; rewrite mxE. Qed.

Lemma mkseq_eq_ofcv n (f : nat -> R) (v : 'cV[R]_n) :
  (forall i : 'I_n, f i = v i 0) -> mkseq f n = ofcv v.
Proof.
by move=> E; rewrite mkseq_ofcv; congr ofcv; apply/colP=> i; rewrite mxE.
Qed.

Lemma ofmx_inj m n : injective (@ofmx R m n).
Proof.
move=> A B E; apply/matrixP=> i j.
by rewrite -el_ofmx E el_ofmx.
Qed.

Lemma ofcv_inj n : injective (@ofcv R n).
Proof. by move=> u v E; apply/colP=> i; rewrite -ev_ofcv E ev_ofcv. Qed.

(** Every vector is the image of a column vector. *)
Definition tocv (v : seq R) : 'cV[R]_(size v) := \col_i ev v i.
Lemma tocvK v : ofcv (tocv v) = v.
Proof. by rewrite -mkseq_ofcv mkseq_ev. Qed.

Definition tomx (A : arr R) : 'M[R]_(nr A, nc A) := \matrix_(i, j) el A i j.
Lemma ofmxK m n (A : 'M[R]_(m, n)) : tomx (ofmx A) = A.
Proof. by apply/matrixP=> i j; rewrite mxE el_ofmx. Qed.

(** Recasting a shape does not change the array. *)
Lemma ofmx_cast m n m' n' (em : m = m') (en : n = n') (A : 'M[R]_(m, n)) :
  ofmx (castmx (em, en) A) = ofmx A.
Proof. by case: m' / em; case: n' / en; rewrite castmx_id. Qed.

Lemma mtrE m n (A : 'M[R]_(m, n)) : mtr (ofmx A) = ofmx A^T.
Proof. by apply: mk_eq_ofmx => i j; rewrite el_ofmx mxE. Qed.

Lemma mmulE m n p (A : 'M[R]_(m, n)) (B : 'M[R]_(n, p)) :
  mmul (ofmx A) (ofmx B) = Ok (ofmx (A *m B)).
Proof.
rewrite /mmul !nc_ofmx nr_ofmx eqxx; congr Ok; apply: mk_eq_ofmx => i j.
by rewrite osumE mxE; apply: eq_bigr => l _; rewrite !el_ofmx.
Qed.

Lemma maddE m n (A B : 'M[R]_(m, n)) : madd (ofmx A) (ofmx B) = Ok (ofmx (A + B)).
Proof.
rewrite /madd !nr_ofmx !nc_ofmx !eqxx; congr Ok; apply: mk_eq_ofmx => i j.
by rewrite !el_ofmx !mxE.
Qed.

Lemma msubE m n (A B : 'M[R]_(m, n)) : msub (ofmx A) (ofmx B) = Ok (ofmx (A - B)).
Proof.
rewrite /msub !nr_ofmx !nc_ofmx !eqxx; congr Ok; apply: mk_eq_ofmx => i j.
by rewrite !el_ofmx !mxE.
Qed.

Lemma mscaleE m n a (A : 'M[R]_(m, n)) : mscale a (ofmx A) = ofmx (a *: A).
Proof. by apply: mk_eq_ofmx => i j; rewrite el_ofmx mxE. Qed.

Lemma mzerosE m n : mzeros m n = ofmx (0 : 'M[R]_(m, n)).
Proof. by apply: mk_eq_ofmx => i j; rewrite mxE. Qed.

Lemma meyeE n : meye n = ofmx (1%:M : 'M[R]_n).
Proof. by apply: mk_eq_ofmx => i j; rewrite mxE -val_eqE /=; case: eqP. Qed.

Lemma vzerosE n : vzeros n = ofcv (0 : 'cV[R]_n).
Proof.
rewrite /vzeros -[nseq n o0](mkseq_nth o0) size_nseq.
by apply: mkseq_eq_ofcv => i; rewrite nth_nseq ltn_ord mxE.
Qed.

Lemma hstackE m n1 n2 (A : 'M[R]_(m, n1)) (B : 'M[R]_(m, n2)) :
  hstack (ofmx A) (ofmx B) = Ok (ofmx (row_mx A B)).
Proof.
rewrite /hstack !nr_ofmx !nc_ofmx eqxx; congr Ok; apply: mk_eq_ofmx => i j.
by rewrite mxE; case: splitP => l ->; rewrite ?addKn el_ofmx.
Qed.

Lemma vstackE m1 m2 n (A : 'M[R]_(m1, n)) (B : 'M[R]_(m2, n)) :
  vstack (ofmx A) (ofmx B) = Ok (ofmx (col_mx A B)).
Proof.
rewrite /vstack !nr_ofmx !nc_ofmx eqxx; congr Ok; apply: mk_eq_ofmx => i j.
by rewrite mxE; case: splitP => l ->; rewrite ?addKn el_ofmx.
Qed.

Lemma mvE m n (A : 'M[R]_(m, n)) (x : 'cV[R]_n) :
  mv (ofmx A) (ofcv x) = Ok (ofcv (A *m x)).
Proof.
rewrite /mv nc_ofmx size_ofcv eqxx; congr Ok; apply: mkseq_eq_ofcv => i.
by rewrite osumE mxE; apply: eq_bigr => l _; rewrite el_ofmx ev_ofcv.
Qed.

Lemma vaddE n (x y : 'cV[R]_n) : vadd (ofcv x) (ofcv y) = Ok (ofcv (x + y)).
Proof.
rewrite /vadd !size_ofcv eqxx; congr Ok; apply: mkseq_eq_ofcv => i.
by rewrite !ev_ofcv mxE.
Qed.

Lemma vsubE n (x y : 'cV[R]_n) : vsub (ofcv x) (ofcv y) = Ok (ofcv (x - y)).
Proof.
rewrite /vsub !size_ofcv eqxx; congr Ok; apply: mkseq_eq_ofcv => i.
by rewrite !ev_ofcv !mxE.
Qed.

Lemma vscaleE n a (x : 'cV[R]_n) : vscale a (ofcv x) = ofcv (a *: x).
Proof.
rewrite /vscale size_ofcv; apply: mkseq_eq_ofcv => i.
by rewrite !ev_ofcv !mxE.
Qed.

Lemma vdivsE n a (x : 'cV[R]_n) : vdivs (ofcv x) a = ofcv (a^-1 *: x).
Proof.
rewrite /vdivs size_ofcv; apply: mkseq_eq_ofcv => i.
by rewrite !ev_ofcv !mxE /= mulrC.
Qed.

Lemma voppE n (x : 'cV[R]_n) : vopp (ofcv x) = ofcv (- x).
Proof.
rewrite /vopp size_ofcv; apply: mkseq_eq_ofcv => i.
by rewrite !ev_ofcv !mxE.
Qed.

Lemma vdotE n (x y : 'cV[R]_n) :
  vdot (ofcv x) (ofcv y) = Ok ((x^T *m y) 0 0).
Proof.
rewrite /vdot !size_ofcv eqxx; congr Ok; rewrite osumE mxE.
by apply: eq_bigr => i _; rewrite !ev_ofcv !mxE.
Qed.

Lemma vsqE n (x : 'cV[R]_n) : vsq (ofcv x) = fro2 x.
Proof.
rewrite /vsq size_ofcv osumE; apply: eq_bigr => i _.
by rewrite big_ord1 ev_ofcv.
Qed.

Lemma vnormE n (x : 'cV[R]_n) : vnorm (ofcv x) = fro x.
Proof. by rewrite /vnorm vsqE. Qed.

Lemma msqE m n (A : 'M[R]_(m, n)) : msq (ofmx A) = fro2 A.
Proof.
rewrite /msq osumE; apply: eq_bigr => i _; rewrite osumE.
by apply: eq_bigr => j _; rewrite el_ofmx.
Qed.

Lemma mnormE m n (A : 'M[R]_(m, n)) : mnorm (ofmx A) = fro A.
Proof. by rewrite /mnorm msqE. Qed.

End Bridge.
