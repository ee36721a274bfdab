(** Matrix facts over a real closed field: Frobenius norm, orthonormal
    columns, projections, column blocks. *)
From mathcomp Require Import all_ssreflect all_algebra.
From Verif Require Import RingTac.
From Verif Require Import Base Arr Lapack Exact.
Set Implicit Arguments.
Unset Strict Implicit.
Unset Printing Implicit Defensive.
Import Order.TTheory GRing.Theory Num.Theory.
Local Open Scope ring_scope.

(** Orthonormal columns. *)
Definition orthonormal (R : rcfType) m n (Q : 'M[R]_(m, n)) : Prop :=
  Q^T *m Q = 1%:M.

(** Upper triangular (possibly rectangular). *)
Definition uptri (R : rcfType) m n (U : 'M[R]_(m, n)) : Prop :=
  forall (i : 'I_m) (j : 'I_n), (j < i)%N -> U i j = 0.
Definition lotri (R : rcfType) m n (U : 'M[R]_(m, n)) : Prop :=
  forall (i : 'I_m) (j : 'I_n), (i < j)%N -> U i j = 0.

(** Columns [a .. a+c-1] of [X]. *)
Definition colblk (R : rcfType) m n (X : 'M[R]_(m, n)) (a c : nat) : 'M[R]_(m, c) :=
  \matrix_(i, j) mxe X i (a + j)%N.
Definition rowblk (R : rcfType) m n (X : 'M[R]_(m, n)) (a c : nat) : 'M[R]_(c, n) :=
  \matrix_(i, j) mxe X (a + i)%N j.

Section Fro.
Variable R : rcfType.
Implicit Types (m n p : nat).
Add Field Rfield_fro : (rcf_field R).

Lemma fro2_tr m n (A : 'M[R]_(m, n)) : fro2 A = \tr (A^T *m A).
Proof.
rewrite /fro2 exchange_big /mxtrace /=; apply: eq_bigr => j _.
by rewrite mxE; apply: eq_bigr => i _; rewrite mxE expr2.
Qed.

Lemma fro2_trmx m n (A : 'M[R]_(m, n)) : fro2 A^T = fro2 A.
Proof.
rewrite /fro2 exchange_big /=; apply: eq_bigr => j _.
by apply: eq_bigr => i _; rewrite mxE.
Qed.

Lemma fro2_tr' m n (A : 'M[R]_(m, n)) : fro2 A = \tr (A *m A^T).
Proof. by rewrite -fro2_trmx fro2_tr trmxK. Qed.

Lemma fro2_ge0 m n (A : 'M[R]_(m, n)) : 0 <= fro2 A.
Proof. by rewrite sumr_ge0 // => i _; rewrite sumr_ge0 // => j _; rewrite sqr_ge0. Qed.

Lemma fro2_eq0 m n (A : 'M[R]_(m, n)) : (fro2 A == 0) = (A == 0).
Proof.
apply/idP/idP => [|/eqP->]; last first.
  by rewrite /fro2 big1 // => i _; rewrite big1 // => j _; rewrite mxE expr0n.
rewrite psumr_eq0 => [/allP H|i _]; last by rewrite sumr_ge0 // => j _; rewrite sqr_ge0.
apply/eqP/matrixP=> i j; rewrite mxE.
have := H i (mem_index_enum i); rewrite implyTb.
rewrite psumr_eq0 => [/allP /(_ j (mem_index_enum j))|l _]; last by rewrite sqr_ge0.
by rewrite implyTb sqrf_eq0 => /eqP.
Qed.

Lemma fro20 m n : fro2 (0 : 'M[R]_(m, n)) = 0.
Proof. by apply/eqP; rewrite fro2_eq0. Qed.

Lemma fro2N m n (A : 'M[R]_(m, n)) : fro2 (- A) = fro2 A.
Proof. by apply: eq_bigr => i _; apply: eq_bigr => j _; rewrite mxE sqrrN. Qed.

Lemma fro2Z m n a (A : 'M[R]_(m, n)) : fro2 (a *: A) = a ^+ 2 * fro2 A.
Proof.
rewrite /fro2 mulr_sumr; apply: eq_bigr => i _.
by rewrite mulr_sumr; apply: eq_bigr => j _; rewrite mxE exprMn.
Qed.

Lemma fro_ge0 m n (A : 'M[R]_(m, n)) : 0 <= fro A.
Proof. exact: sqrtr_ge0. Qed.

Lemma sqr_fro m n (A : 'M[R]_(m, n)) : fro A ^+ 2 = fro2 A.
Proof. by rewrite sqr_sqrtr // fro2_ge0. Qed.

Lemma fro_eq0 m n (A : 'M[R]_(m, n)) : (fro A == 0) = (A == 0).
Proof. by rewrite -sqrf_eq0 sqr_fro fro2_eq0. Qed.

Lemma fro0 m n : fro (0 : 'M[R]_(m, n)) = 0.
Proof. by rewrite /fro fro20 sqrtr0. Qed.

Lemma froN m n (A : 'M[R]_(m, n)) : fro (- A) = fro A.
Proof. by rewrite /fro fro2N. Qed.

Lemma fro_le m n p q (A : 'M[R]_(m, n)) (B : 'M[R]_(p, q)) :
  (fro A <= fro B) = (fro2 A <= fro2 B).
Proof. by rewrite -!sqr_fro ler_pexpn2r ?nnegrE ?fro_ge0. Qed.

(** The Frobenius inner product. *)
Definition fip m n (A B : 'M[R]_(m, n)) : R := \tr (A^T *m B).

Lemma fipC m n (A B : 'M[R]_(m, n)) : fip A B = fip B A.
Proof. by rewrite /fip -mxtrace_tr trmx_mul trmxK. Qed.

Lemma fro2D m n (A B : 'M[R]_(m, n)) : fro2 (A + B) = fro2 A + 2%:R * fip A B + fro2 B.
Proof.
rewrite !fro2_tr [(_ + _)^T]linearD /= mulmxDl !mulmxDr !mxtraceD -/(fip A B) -/(fip B A) (fipC B A).
by rring.
Qed.

Lemma fro2B m n (A B : 'M[R]_(m, n)) : fro2 (A - B) = fro2 A - 2%:R * fip A B + fro2 B.
Proof.
rewrite fro2D fro2N /fip mulmxN raddfN /=; by rring.
Qed.

Lemma fro2_pyth m n (A B : 'M[R]_(m, n)) :
  A^T *m B = 0 -> fro2 (A + B) = fro2 A + fro2 B.
Proof. by move=> E; rewrite fro2D /fip E mxtrace0 mulr0 addr0. Qed.

Lemma fro2_ortho m n p (Q : 'M[R]_(m, n)) (B : 'M[R]_(n, p)) :
  orthonormal Q -> fro2 (Q *m B) = fro2 B.
Proof.
by move=> E; rewrite !fro2_tr trmx_mul mulmxA -(mulmxA B^T) E mulmx1.
Qed.

(** Removing the component along orthonormal columns. *)
Lemma ortho_resid m n p (Q : 'M[R]_(m, n)) (A : 'M[R]_(m, p)) :
  orthonormal Q -> Q^T *m (A - Q *m (Q^T *m A)) = 0.
Proof. by move=> E; rewrite mulmxBr mulmxA E mul1mx subrr. Qed.

Lemma fro2_resid m n p (Q : 'M[R]_(m, n)) (A : 'M[R]_(m, p)) :
  orthonormal Q -> fro2 (A - Q *m (Q^T *m A)) = fro2 A - fro2 (Q^T *m A).
Proof.
move=> oQ; set X := A - _.
have -> : fro2 A = fro2 X + fro2 (Q^T *m A).
  rewrite -(fro2_ortho (Q^T *m A) oQ) -fro2_pyth; first by rewrite subrK.
  rewrite mulmxA.
  have := ortho_resid A oQ => /(congr1 (@trmx _ _ _)).
  by rewrite trmx_mul trmxK trmx0 => ->; rewrite mul0mx.
by rewrite addrK.
Qed.

Lemma fro2_col_mx m1 m2 n (A : 'M[R]_(m1, n)) (B : 'M[R]_(m2, n)) :
  fro2 (col_mx A B) = fro2 A + fro2 B.
Proof. by rewrite !fro2_tr tr_col_mx mul_row_col mxtraceD. Qed.

Lemma fro2_row_mx m n1 n2 (A : 'M[R]_(m, n1)) (B : 'M[R]_(m, n2)) :
  fro2 (row_mx A B) = fro2 A + fro2 B.
Proof. by rewrite -fro2_trmx tr_row_mx fro2_col_mx !fro2_trmx. Qed.

Lemma fro2_cv n (x : 'cV[R]_n) : fro2 x = (x^T *m x) 0 0.
Proof. by rewrite fro2_tr /mxtrace big_ord1. Qed.

(** Cauchy-Schwarz and the triangle inequality. *)
Lemma fip_le m n (A B : 'M[R]_(m, n)) : fip A B ^+ 2 <= fro2 A * fro2 B.
Proof.
have [->|B0] := eqVneq B 0; first by rewrite /fip mulmx0 mxtrace0 expr0n fro20 mulr0.
have pB : 0 < fro2 B by rewrite lt0r fro2_ge0 fro2_eq0 B0.
have := fro2_ge0 (A - (fip A B / fro2 B) *: B).
rewrite fro2B fro2Z /fip -scalemxAr mxtraceZ -/(fip A B).
set f := fip A B; set a := fro2 A; set b := fro2 B.
have -> : a - 2%:R * (f / b * f) + (f / b) ^+ 2 * b = a - f ^+ 2 / b.
  by rfield; rewrite gt_eqF.
by rewrite subr_ge0 ler_pdivr_mulr.
Qed.

Lemma fip_fro m n (A B : 'M[R]_(m, n)) : fip A B <= fro A * fro B.
Proof.
have h0 : 0 <= fro A * fro B by rewrite mulr_ge0 ?fro_ge0.
case: (lerP (fip A B) 0) => [le0|gt0]; first exact: le_trans h0.
rewrite -(@ler_pexpn2r _ 2) ?nnegrE //; last exact: ltW.
by rewrite exprMn !sqr_fro fip_le.
Qed.

Lemma ler_froD m n (A B : 'M[R]_(m, n)) : fro (A + B) <= fro A + fro B.
Proof.
rewrite -(@ler_pexpn2r _ 2) ?nnegrE ?addr_ge0 ?fro_ge0 //.
rewrite sqrrD !sqr_fro fro2D ler_add2r ler_add2l.
by rewrite -[leRHS]mulr_natl ler_wpmul2l ?ler0n // fip_fro.
Qed.

Lemma ler_froB m n (A B : 'M[R]_(m, n)) : fro (A - B) <= fro A + fro B.
Proof. by rewrite -(froN B) ler_froD. Qed.

End Fro.

Section Orthonormal.
Variable R : rcfType.

Lemma orthonormal0 m : orthonormal (0 : 'M[R]_(m, 0)).
Proof. by apply/matrixP; case. Qed.

Lemma orthonormal1 m : orthonormal (1%:M : 'M[R]_m).
Proof. by rewrite /orthonormal trmx1 mulmx1. Qed.

Lemma orthonormalM m n p (Q : 'M[R]_(m, n)) (W : 'M[R]_(n, p)) :
  orthonormal Q -> orthonormal W -> orthonormal (Q *m W).
Proof.
rewrite /orthonormal => oQ oW.
by rewrite trmx_mul mulmxA -(mulmxA W^T) oQ mulmx1.
Qed.

Lemma orthonormal_row_mx m n1 n2 (Q1 : 'M[R]_(m, n1)) (Q2 : 'M[R]_(m, n2)) :
  orthonormal Q1 -> orthonormal Q2 -> Q1^T *m Q2 = 0 -> orthonormal (row_mx Q1 Q2).
Proof.
rewrite /orthonormal => o1 o2 o12.
rewrite tr_row_mx mul_col_row o1 o2 o12.
have -> : Q2^T *m Q1 = 0 by rewrite -[Q1]trmxK -trmx_mul o12 trmx0.
by rewrite -scalar_mx_block.
Qed.

Lemma orthonormal_row_mxP m n1 n2 (Q1 : 'M[R]_(m, n1)) (Q2 : 'M[R]_(m, n2)) :
  orthonormal (row_mx Q1 Q2) -> [/\ orthonormal Q1, orthonormal Q2 & Q1^T *m Q2 = 0].
Proof.
rewrite /orthonormal tr_row_mx mul_col_row scalar_mx_block.
by move/eq_block_mx => [-> -> _ ->].
Qed.

Lemma orthonormal_rank m n (Q : 'M[R]_(m, n)) : orthonormal Q -> \rank Q = n.
Proof.
move=> oQ; apply/eqP; rewrite eqn_leq rank_leq_col /=.
by rewrite -{1}(mxrank1 R n) -oQ mxrankM_maxr.
Qed.

(** A square matrix with orthonormal columns has orthonormal rows. *)
Lemma orthonormal_sq n (Q : 'M[R]_n) : orthonormal Q -> Q *m Q^T = 1%:M.
Proof. exact: mulmx1C. Qed.

(** X'X = 0 implies X = 0. *)
Lemma gram0 m n (X : 'M[R]_(m, n)) : X^T *m X = 0 -> X = 0.
Proof. by move=> E; apply/eqP; rewrite -fro2_eq0 fro2_tr E mxtrace0. Qed.

Lemma rank_gram m n (X : 'M[R]_(m, n)) : \rank (X^T *m X) = \rank X.
Proof.
rewrite -[RHS]mxrank_tr -(mxrank_mul_ker X^T X).
suff -> : (X^T :&: kermx X)%MS = 0 by rewrite mxrank0 addn0.
apply/eqP; rewrite -submx0; apply/rV_subP => u; rewrite sub_capmx.
case/andP => /submxP[w ->] /sub_kermxP E; rewrite submx0.
have : (X *m w^T)^T *m (X *m w^T) = 0 by rewrite trmx_mul trmxK mulmxA E mul0mx.
by move/gram0/(congr1 (@trmx _ _ _)); rewrite trmx_mul trmxK trmx0 => ->.
Qed.

(** Full column rank means the Gram matrix is invertible. *)
Lemma gram_unit m n (X : 'M[R]_(m, n)) : \rank X = n -> X^T *m X \in unitmx.
Proof. by move=> rX; rewrite -row_free_unit /row_free rank_gram rX. Qed.

End Orthonormal.

Section ColBlk.
Variable R : rcfType.

Definition selmx (n a c : nat) : 'M[R]_(n, c) := \matrix_(i, j) ((val i == a + val j)%N)%:R.

Lemma colblkE m n (X : 'M[R]_(m, n)) a c : colblk X a c = X *m selmx n a c.
Proof.
apply/matrixP=> i j; rewrite !mxE.
case: (ltnP (a + j) n) => lt_n.
  rewrite (mxe_ord _ (ltn_ord i) lt_n) (bigD1 (Ordinal lt_n)) //= !mxE eqxx mulr1.
  rewrite big1 ?addr0 => [|l neq]; first by congr (X _ _); apply: val_inj.
  by rewrite mxE; move: neq; rewrite -val_eqE /= => /negbTE ->; rewrite mulr0.
rewrite /mxe valK insubF; last by apply/negbTE; rewrite -leqNgt.
by rewrite big1 // => l _; rewrite mxE ltn_eqF ?mulr0 // (leq_trans (ltn_ord l)).
Qed.

Lemma mul_colblk m n p (A : 'M[R]_(m, n)) (X : 'M[R]_(n, p)) a c :
  A *m colblk X a c = colblk (A *m X) a c.
Proof. by rewrite !colblkE mulmxA. Qed.

Lemma cslice_colblk m n (X : 'M[R]_(m, n)) a b :
  cslice (ofmx X) a b = ofmx (colblk X (minn a n) (slen n a b)).
Proof.
rewrite /cslice nr_ofmx nc_ofmx; apply: mk_eq_ofmx => i j.
rewrite mxE el_mk //.
by have := ltn_ord j; rewrite /slen ltn_subRL => /leq_trans -> //; rewrite geq_minr.
Qed.

Lemma rslice_rowblk m n (X : 'M[R]_(m, n)) a b :
  rslice (ofmx X) a b = ofmx (rowblk X (minn a m) (slen m a b)).
Proof.
rewrite /rslice nr_ofmx nc_ofmx; apply: mk_eq_ofmx => i j.
rewrite mxE el_mk //.
by have := ltn_ord i; rewrite /slen ltn_subRL => /leq_trans -> //; rewrite geq_minr.
Qed.

Lemma tr_colblk m n (X : 'M[R]_(m, n)) a c : (colblk X a c)^T = rowblk X^T a c.
Proof.
apply/matrixP=> i j; rewrite !mxE.
case: (ltnP (a + i) n) => lt_n.
  by rewrite (mxe_ord _ (ltn_ord j) lt_n) (mxe_ord _ lt_n (ltn_ord j)) mxE.
by rewrite /mxe valK insubF // ltnNge lt_n.
Qed.

Lemma colblk_cat m n (X : 'M[R]_(m, n)) a c d :
  row_mx (colblk X a c) (colblk X (a + c) d) = colblk X a (c + d).
Proof.
by apply/matrixP=> i j; rewrite !mxE; case: splitP => l ->; rewrite mxE ?addnA.
Qed.

Lemma colblk_full m n (X : 'M[R]_(m, n)) : colblk X 0 n = X.
Proof. by apply/matrixP=> i j; rewrite mxE add0n mxeE. Qed.

End ColBlk.
