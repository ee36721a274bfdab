(** The LAPACK contracts of LapackSpec.v are satisfiable, all at once, over
    every real closed field: existence of pivoted QR, SVD, symmetric
    eigendecomposition, LU and minimum-norm least squares. *)
From mathcomp Require Import all_ssreflect all_algebra all_fingroup all_field.
From mathcomp.real_closed Require Import complex.
From mathcomp Require Import zify.
From Verif Require Import RingTac.
From Verif Require Import Base Arr Lapack Exact MxLib LapackSpec Rng.
Set Implicit Arguments.
Unset Strict Implicit.
Unset Printing Implicit Defensive.
Import Order.TTheory GRing.Theory Num.Theory.
Local Open Scope ring_scope.

Section Householder.
Variable R : rcfType.
Add Field Rfield_hh : (rcf_field R).

Lemma cv_scal n (x y : 'cV[R]_n) : x^T *m y = (fip x y)%:M.
Proof. by rewrite /fip [LHS]mx11_scalar; congr (_%:M); rewrite /mxtrace big_ord1. Qed.

Lemma fipxx m n (x : 'M[R]_(m, n)) : fip x x = fro2 x.
Proof. by rewrite fro2_tr. Qed.

Lemma reflect_exists n (a b : 'cV[R]_n) : fro2 a = fro2 b ->
  exists2 H : 'M[R]_n, orthonormal H & H *m a = b.
Proof.
move=> ab; have [->|ne] := eqVneq a b.
  by exists 1%:M; rewrite ?mul1mx // /orthonormal trmx1 mulmx1.
set v := a - b; have v0 : fro2 v != 0 by rewrite fro2_eq0 subr_eq0.
have va : fip v a = fro2 v / 2%:R.
  rewrite /v fro2B -ab.
  have -> : fip (a - b) a = fro2 a - fip a b.
    by rewrite fipC /fip mulmxBr raddfB /= -/(fip a a) -/(fip a b) fipxx.
  have n2 : (2%:R : R) != 0 by rewrite pnatr_eq0.
  by move: (fro2 a) (fip a b) => x y; rfield; move: n2; rewrite mulrSr.
set c := 2%:R / fro2 v.
exists (1%:M - c *: (v *m v^T)); last first.
  rewrite mulmxBl mul1mx -scalemxAl -mulmxA cv_scal va mul_mx_scalar scalerA.
  have -> : c * (fro2 v / 2%:R) = 1.
    by rewrite /c mulrA divfK // divff // pnatr_eq0.
  by rewrite scale1r /v opprB addrC subrK.
rewrite /orthonormal [(_ - _)^T]linearB /= trmx1 linearZ /= trmx_mul trmxK.
rewrite mulmxBl mul1mx mulmxBr mulmx1 -scalemxAl -scalemxAr mulmxA.
rewrite -(mulmxA v) cv_scal fipxx mul_mx_scalar -scalemxAl !scalerA.
have -> : c * (c * fro2 v) = c + c.
  by rewrite /c; move: (fro2 v) v0 => x x0; rfield.
by rewrite scalerDl opprB addrK subrK.
Qed.

(** A matrix mapping [a] to a nonnegative multiple of the first basis vector. *)
Lemma householder n (a : 'cV[R]_n.+1) : exists2 H : 'M[R]_n.+1, orthonormal H &
  H *m a = fro a *: delta_mx 0 0.
Proof.
apply: reflect_exists; rewrite fro2Z sqr_fro.
have -> : fro2 (delta_mx 0 0 : 'cV[R]_n.+1) = 1; last by rewrite mulr1.
rewrite fro2_cv mxE (bigD1 0) //= big1 ?addr0; first by rewrite !mxE !eqxx mulr1.
by move=> i i0; rewrite !mxE (negbTE i0) mul0r.
Qed.

Lemma orthonormal_trmx n (Q : 'M[R]_n) : orthonormal Q -> orthonormal Q^T.
Proof. by rewrite /orthonormal trmxK => /mulmx1C. Qed.

Lemma orthonormal_mul n (P Q : 'M[R]_n) : orthonormal P -> orthonormal Q -> orthonormal (P *m Q).
Proof.
by rewrite /orthonormal => oP oQ; rewrite trmx_mul mulmxA -(mulmxA Q^T) oP mulmx1.
Qed.

Lemma orthonormal_diag1 n (Q : 'M[R]_n) : orthonormal Q ->
  orthonormal (block_mx 1%:M 0 0 Q : 'M[R]_(1 + n)).
Proof.
move=> oQ; rewrite /orthonormal (tr_block_mx 1%:M) trmx1 !trmx0.
rewrite (mulmx_block 1%:M) !mul0mx !mulmx0 !addr0 !add0r mul1mx oQ.
by rewrite -scalar_mx_block.
Qed.

End Householder.

Section Sel.
Variable R : rcfType.

Lemma mul_colsel m n p (H : 'M[R]_(p, m)) (A : 'M[R]_(m, n)) J c :
  colsel (H *m A) J c = H *m colsel A J c.
Proof.
apply/matrixP=> i j; rewrite !mxE.
case: (ltnP (nth 0%N J j) n) => lt.
  rewrite (mxe_ord _ (ltn_ord i) lt) mxE; apply: eq_bigr => l _.
  rewrite mxE (mxe_ord _ (ltn_ord l) lt); congr (H _ _ * A _ _); exact: val_inj.
rewrite /mxe valK insubF; last by apply/negbTE; rewrite -leqNgt.
rewrite big1 // => l _; rewrite mxE /mxe valK insubF ?mulr0 //.
by apply/negbTE; rewrite -leqNgt.
Qed.

Lemma colsel_comp m n (A : 'M[R]_(m, n)) J K c d : (c <= size K)%N -> all (fun i => (i < d)%N) K ->
  colsel A (map (nth 0%N J) K) c = colsel (colsel A J d) K c.
Proof.
move=> cK Kd; apply/matrixP=> i j; rewrite !mxE.
have jK : (j < size K)%N := leq_trans (ltn_ord j) cK.
have ltd : (nth 0%N K j < d)%N := all_nthP 0%N Kd _ jK.
by rewrite (nth_map 0%N) // (mxe_ord _ (ltn_ord i) ltd) mxE /=; congr (mxe A _ _).
Qed.

Lemma colsel_iota m n (A : 'M[R]_(m, n)) : colsel A (iota 0 n) n = A.
Proof. by apply/matrixP=> i j; rewrite mxE nth_iota // add0n mxeE. Qed.

End Sel.

Section QR.
Variable R : rcfType.

Definition tail2 m n (U : 'M[R]_(m, n)) (i : nat) (j : 'I_n) : R :=
  \sum_(l < m | (i <= l)%N) U l j ^+ 2.

Lemma col_fro2 m n (U : 'M[R]_(m, n)) j : fro2 (col j U) = \sum_l U l j ^+ 2.
Proof. by rewrite /fro2; apply: eq_bigr => l _; rewrite big_ord1 mxE. Qed.

Lemma perm_rem_iota n p : (p < n)%N -> perm_eq (p :: rem p (iota 0 n)) (iota 0 n).
Proof. by move=> pn; rewrite perm_sym perm_to_rem // mem_iota. Qed.

Lemma argmax_col m n (A : 'M[R]_(m, n.+1)) : exists p : 'I_n.+1,
  forall j, fro2 (col j A) <= fro2 (col p A).
Proof.
by have [p _ H] := (@arg_maxP _ _ _ ord0 predT (fun j => fro2 (col j A)) isT); exists p => j; apply: H.
Qed.

Lemma qrp_full (piv : bool) : forall m n (A : 'M[R]_(m, n)),
  exists (Q : 'M[R]_m) (U : 'M[R]_(m, n)) (J : seq nat),
  [/\ orthonormal Q, uptri U, perm_eq J (iota 0 n), colsel A J n = Q *m U &
      ~~ piv -> J = iota 0 n] /\
  (piv -> forall (i : 'I_m) (j : 'I_n), (i <= j)%N -> tail2 U i j <= mxe U i i ^+ 2).
Proof.
elim=> [|m IH] [|n] A.
- exists 1%:M, A, [::]; split=> [|_ []//]; split=> //; [by rewrite /orthonormal trmx1 mulmx1 | by case | ].
  by apply/matrixP; case.
- exists 1%:M, A, (iota 0 n.+1); split=> [|_ []//]; split=> //; [by rewrite /orthonormal trmx1 mulmx1 | by case | ].
  by apply/matrixP; case.
- exists 1%:M, A, [::]; split=> [|_ ? []//]; split=> //; [by rewrite /orthonormal trmx1 mulmx1 | by move=> ? [] | ].
  by apply/matrixP=> i; case.
have [p pmax] : exists p : 'I_n.+1, if piv then forall j, fro2 (col j A) <= fro2 (col p A)
    else val p = 0%N.
  by case: (piv); [exact: argmax_col | exists ord0].
pose J1 := val p :: rem (val p) (iota 0 n.+1).
have pJ1 : perm_eq J1 (iota 0 n.+1) := perm_rem_iota (ltn_ord p).
have sJ1 : size J1 = n.+1 by rewrite (perm_size pJ1) size_iota.
pose A1 : 'M[R]_(1 + m, 1 + n) := colsel A J1 (1 + n).
have [H oH Ha] := householder (col 0 A1).
have [T TE] : exists T : 'M[R]_(1 + m, 1 + n), T = H *m A1 by exists (H *m A1).
have T0 (l : 'I_(1 + m)) : l != 0 -> T l 0 = 0.
  move=> l0; have -> : T l 0 = (H *m col 0 A1) l 0.
    by rewrite TE [LHS]mxE [RHS]mxE; apply: eq_bigr => x _; rewrite [col _ _ _ _]mxE.
  by rewrite Ha !mxE (negbTE l0) mulr0.
have [Q2 [U2 [J2 [[oQ2 tU2 pJ2 E2 nJ2] dom]]]] := IH n (drsubmx T).
pose K := 0%N :: map S J2.
have sJ2 : size J2 = n by rewrite (perm_size pJ2) size_iota.
have sK : size K = (1 + n)%N by rewrite /= size_map sJ2.
have memJ2 x : (x \in J2) = (x < n)%N by rewrite (perm_mem pJ2) mem_iota.
have aK : all (fun i => (i < 1 + n)%N) K.
  by apply/allP => x; rewrite inE => /orP[/eqP->//|/mapP[y]]; rewrite memJ2 => ? ->.
pose J := map (nth 0%N J1) K.
pose D1 : 'M[R]_(1 + m) := block_mx 1%:M 0 0 Q2.
pose Q : 'M[R]_(1 + m) := (H : 'M[R]_(1 + m))^T *m D1.
pose U : 'M[R]_(1 + m, 1 + n) := block_mx (ulsubmx T) (colsel (ursubmx T) J2 n) 0 U2.
have dl0 : dlsubmx T = 0.
  by apply/matrixP=> i j; rewrite !mxE ord1 -[RHS](T0 (rshift 1 i)) //; congr (T _ _); apply: val_inj.
have selT : colsel T K (1 + n) = D1 *m U.
  rewrite /D1 /U (mulmx_block 1%:M) !mul1mx !mul0mx !mulmx0 !addr0 !add0r -E2.
  have ltJ2 (j' : 'I_n) : (nth 0%N J2 j' < n)%N by rewrite -memJ2 mem_nth // sJ2.
  have ltJ2' (j' : 'I_n) : ((nth 0%N J2 j').+1 < 1 + n)%N by rewrite ltnS; exact: ltJ2.
  apply/matrixP=> i j; rewrite !mxE.
  case: (splitP i) => i' iE; rewrite [RHS]mxE; case: (splitP j) => j' jE.
  - rewrite {1}jE ord1 /= (mxe_ord _ (ltn_ord i) (ltn0Sn n)) !mxE.
    by congr (T _ _); apply: val_inj; rewrite //= iE.
  - rewrite {1}jE /= (nth_map 0%N) ?sJ2 // (mxe_ord _ (ltn_ord i) (ltJ2' j')) !mxE.
    by rewrite (mxe_ord _ (ltn_ord i') (ltJ2 j')) !mxE; congr (T _ _); apply: val_inj.
  - rewrite {1}jE ord1 /= mxE (mxe_ord _ (ltn_ord i) (ltn0Sn n)).
    rewrite -[RHS](T0 i); last by rewrite -val_eqE /= iE.
    by congr (T _ _); apply: val_inj.
  rewrite {1}jE /= (nth_map 0%N) ?sJ2 // (mxe_ord _ (ltn_ord i) (ltJ2' j')) !mxE.
  by rewrite (mxe_ord _ (ltn_ord i') (ltJ2 j')) !mxE; congr (T _ _); apply: val_inj.
have QU : colsel A J (1 + n) = Q *m U.
  rewrite (@colsel_comp _ _ _ A J1 K (1 + n) (1 + n)) ?sK // -/A1 /Q -mulmxA -selT.
  by rewrite TE mul_colsel mulmxA oH mul1mx.
have oQ : orthonormal Q.
  by apply: orthonormal_mul; [exact: orthonormal_trmx | exact: orthonormal_diag1].
have pJ : perm_eq J (iota 0 n.+1).
  apply: perm_trans pJ1; rewrite /J.
  have : perm_eq K (iota 0 n.+1).
    by rewrite /K /= perm_cons (iotaDl 1 0) perm_map.
  move/(perm_map (nth 0%N J1)) => /perm_trans -> //.
  by rewrite -{1}sJ1 -/(mkseq _ _) mkseq_nth.
have tU : uptri U.
  move=> i j ji; rewrite mxE.
  case: (splitP i) => i' iE; first by move: ji; rewrite iE ord1.
  rewrite mxE; case: (splitP j) => j' jE; first by rewrite mxE.
  by apply: tU2; move: ji; rewrite iE jE.
exists Q, U, J; split; first split=> //.
  move=> np; rewrite /J /K nJ2 // (negbTE np) in pmax *.
  rewrite -(iotaDl 1 0) -/(iota 0 n.+1) -{1}sJ1 -/(mkseq _ _) mkseq_nth /J1 pmax.
  by [].
move=> pv; rewrite pv in pmax; have {}dom := dom pv => i j ij.
have colU (l : 'I_(1 + n)) : exists2 l' : 'I_n.+1, val l' = nth 0%N J l & fro2 (col l U) = fro2 (col l' A).
  have lt : (nth 0%N J l < n.+1)%N.
    have : nth 0%N J l \in iota 0 n.+1.
      by rewrite -(perm_mem pJ) mem_nth // (perm_size pJ) size_iota.
    by rewrite mem_iota.
  exists (Ordinal lt) => //; rewrite -(fro2_ortho (col l U) oQ).
  have -> : Q *m col l U = col l (Q *m U).
    by apply/matrixP=> x y; rewrite !mxE; apply: eq_bigr => z _; rewrite [col _ _ _ _]mxE.
  rewrite -QU; congr fro2; apply/matrixP=> x y; rewrite !mxE.
  by rewrite (mxe_ord _ (ltn_ord x) lt); congr (A _ _); apply: val_inj.
case: (unliftP ord0 i) ij => [i'|] -> ij.
  case: (unliftP ord0 j) ij => [j'|] -> ij //; rewrite !lift0 ltnS in ij.
  have Udr (x : 'I_m) (y : 'I_n) : U (fintype.lift ord0 x) (fintype.lift ord0 y) = U2 x y.
    rewrite (_ : fintype.lift ord0 x = rshift 1 x); last exact: val_inj.
    by rewrite (_ : fintype.lift ord0 y = rshift 1 y) ?block_mxEdr //; apply: val_inj.
  have -> : tail2 U (fintype.lift ord0 i') (fintype.lift ord0 j') = tail2 U2 i' j'.
    rewrite /tail2 big_mkcond big_ord_recl /= add0r [RHS]big_mkcond /=.
    by apply: eq_bigr => x _; rewrite Udr.
  have lti : (i' < n)%N := leq_ltn_trans ij (ltn_ord j').
  have -> : mxe U (fintype.lift ord0 i') (fintype.lift ord0 i') = mxe U2 i' i'.
    by rewrite (mxe_ord U2 (ltn_ord i') lti) -Udr -mxeE; congr (mxe U _ _).
  exact: dom.
rewrite [tail2 _ _ _](_ : _ = fro2 (col j U)); last by rewrite col_fro2.
have [j' _ ->] := colU j; apply: le_trans (pmax j') _.
have [l' lE lU] := colU 0.
have -> : p = l' by apply: val_inj; rewrite lE.
rewrite -lU col_fro2 big_ord_recl big1 ?addr0 => [|x _]; last by rewrite tU ?expr0n.
by rewrite (mxe_ord U (ltn0Sn m) (ltn0Sn n)) le_eqVlt; apply/orP; left; apply/eqP; congr (U _ _ ^+ 2); apply: val_inj.
Qed.

(** Economic form. *)
Lemma econ m n (Q : 'M[R]_m) (U : 'M[R]_(m, n)) : orthonormal Q -> uptri U ->
  let c := minn m n in
  [/\ orthonormal (colblk Q 0 c), uptri (rowblk U 0 c) & Q *m U = colblk Q 0 c *m rowblk U 0 c].
Proof.
move=> oQ tU c; have cm : (c <= m)%N := geq_minl m n.
have QE x (y : 'I_c) : colblk Q 0 c x y = Q x (widen_ord cm y).
  by rewrite mxE add0n -mxeE.
have UE (y : 'I_c) x : rowblk U 0 c y x = U (widen_ord cm y) x.
  by rewrite mxE add0n -mxeE.
split.
- apply/matrixP=> x y; rewrite !mxE.
  have /matrixP/(_ (widen_ord cm x) (widen_ord cm y)) := oQ; rewrite !mxE => E.
  rewrite -[RHS]E; apply: eq_bigr => z _; rewrite [in LHS]mxE !QE !mxE //.
- by move=> x y lt; rewrite UE tU.
apply/matrixP=> x y; rewrite !mxE [RHS](eq_bigr (fun l : 'I_c => mxe Q x l * mxe U l y)).
  rewrite (big_ord_widen m (fun l => mxe Q x l * mxe U l y) cm) [RHS]big_mkcond /=.
  apply: eq_bigr => l _; rewrite !mxeE; case: ltnP => // cl.
  by rewrite (tU l y) ?mulr0 //; move: cl (ltn_ord l) (ltn_ord y); rewrite /c; lia.
by move=> l _; rewrite QE UE -!mxeE.
Qed.

Lemma qr_exists m n (A : 'M[R]_(m, n)) :
  exists (Q : 'M[R]_(m, minn m n)) (U : 'M[R]_(minn m n, n)),
    [/\ orthonormal Q, uptri U & A = Q *m U].
Proof.
have [Q [U [J [[oQ tU _ E nJ] _]]]] := qrp_full false A.
have [oQ' tU' QU] := econ oQ tU.
exists (colblk Q 0 (minn m n)), (rowblk U 0 (minn m n)); split=> //.
by rewrite -QU -E nJ // colsel_iota.
Qed.

Lemma qrp_exists m n (A : 'M[R]_(m, n)) :
  exists (Q : 'M[R]_(m, minn m n)) (U : 'M[R]_(minn m n, n)) (J : seq nat),
    [/\ orthonormal Q, uptri U, perm_eq J (iota 0 n) & colsel A J n = Q *m U] /\
    (forall (i : 'I_(minn m n)) (j : 'I_n), (i <= j)%N ->
       \sum_(l < minn m n | (i <= l)%N) U l j ^+ 2 <= mxe U i i ^+ 2).
Proof.
have [Q [U [J [[oQ tU pJ E _] dom]]]] := qrp_full true A.
have [oQ' tU' QU] := econ oQ tU; set c := minn m n in oQ' tU' QU *.
exists (colblk Q 0 c), (rowblk U 0 c), J; split; first by rewrite -QU.
move=> i j ij; have cm : (c <= m)%N := geq_minl m n; have cn : (c <= n)%N := geq_minr m n.
have := dom isT (widen_ord cm i) j ij.
have -> : mxe (rowblk U 0 c) i i = mxe U i i.
  by rewrite (mxe_ord _ (ltn_ord i) (leq_trans (ltn_ord i) cn)) mxE add0n.
apply: le_trans; rewrite /tail2.
rewrite (eq_bigr (fun l : 'I_c => mxe U l j ^+ 2)); last by move=> l _; rewrite mxE add0n.
rewrite (big_ord_widen_cond m (fun l => (i <= l)%N) (fun l => mxe U l j ^+ 2) cm).
rewrite [leLHS]big_mkcond [leRHS]big_mkcond; apply: ler_sum => l _ /=.
by rewrite mxeE; case: leqP => //= _; case: leqP; rewrite ?sqr_ge0.
Qed.

End QR.

Section Spectral.
Variable R : rcfType.

(** A real symmetric matrix has a real eigenvector. *)
Lemma sym_eig n (A : 'M[R]_n.+1) : A^T = A ->
  exists a (v : 'cV[R]_n.+1), v != 0 /\ A *m v = a *: v.
Proof.
move=> symA; have [[a b] /eigenvalueP[v vA v0]] := Theorem7' (map_mx (real_complex R) A) isT.
pose x := (map_mx (@complex.Re R) v)^T; pose y := (map_mx (@complex.Im R) v)^T.
have ReM z : complex.Re (Complex a b * z) = a * complex.Re z - b * complex.Im z by case: z.
have ImM z : complex.Im (Complex a b * z) = a * complex.Im z + b * complex.Re z by case: z.
have ReC z w : complex.Re (z * real_complex R w) = complex.Re z * w.
  by case: z => p q /=; rewrite mulr0 subr0.
have ImC z w : complex.Im (z * real_complex R w) = complex.Im z * w.
  by case: z => p q /=; rewrite mulr0 add0r.
have xA : A *m x = a *: x - b *: y.
  apply/matrixP=> i j; have /matrixP/(_ 0 i)/(congr1 (@complex.Re R)) := vA.
  rewrite !mxE raddf_sum ReM ord1 => <-; apply: eq_bigr => l _.
  by rewrite !mxE; apply: etrans (esym (ReC _ _)); rewrite mulrC -{1}symA mxE.
have yA : A *m y = a *: y + b *: x.
  apply/matrixP=> i j; have /matrixP/(_ 0 i)/(congr1 (@complex.Im R)) := vA.
  rewrite !mxE raddf_sum ImM ord1 => <-; apply: eq_bigr => l _.
  by rewrite !mxE; apply: etrans (esym (ImC _ _)); rewrite mulrC -{1}symA mxE.
have xAy : fip x (A *m y) = fip y (A *m x).
  by rewrite /fip -[LHS]mxtrace_tr !trmx_mul symA ?trmxK mulmxA.
have fipDr (u w z : 'cV[R]_n.+1) : fip u (w + z) = fip u w + fip u z.
  by rewrite /fip mulmxDr mxtraceD.
have fipZr (u w : 'cV[R]_n.+1) c : fip u (c *: w) = c * fip u w.
  by rewrite /fip -scalemxAr mxtraceZ.
move: xAy; rewrite xA yA -scaleNr !fipDr !fipZr fipC !fipxx.
move/addrI/eqP; rewrite mulNr -addr_eq0 -mulrDr mulf_eq0 => b0.
have xy : x != 0 \/ y != 0.
  have [x0|] := eqVneq x 0; last by left.
  right; apply: contra_neq v0 => y0; apply/matrixP=> i j.
  have /matrixP/(_ j i) := x0; have /matrixP/(_ j i) := y0; rewrite !mxE.
  by case: (v i j) => /= p q -> ->.
have {}b0 : b = 0.
  case/orP: b0 => [/eqP//|]; rewrite paddr_eq0 ?fro2_ge0 // !fro2_eq0 => /andP[x0 y0].
  by case: xy; rewrite ?x0 ?y0.
rewrite b0 !scale0r ?subr0 ?addr0 in xA yA.
by case: xy => ?; exists a; [exists x | exists y].
Qed.

(** Spectral theorem, eigenvalues in any order. *)
Lemma eigh_full n : forall (A : 'M[R]_n), A^T = A ->
  exists (lam : 'cV[R]_n) (V : 'M[R]_n), orthonormal V /\ A = V *m diag_mx lam^T *m V^T.
Proof.
elim: n => [|n IH] A symA.
  by exists 0, 0; split; [apply/matrixP; case | apply/matrixP; case].
have [a [v [v0 Av]]] := sym_eig symA.
have [H oH Hv] := householder v.
have f0 : fro v != 0 by rewrite fro_eq0.
pose e : 'cV[R]_(1 + n) := delta_mx 0 0.
have oH' : H *m H^T = 1%:M by apply: mulmx1C.
have [T T0] : exists T : 'M[R]_(1 + n), T = H *m A *m H^T by exists (H *m A *m H^T).
have Te : T *m e = a *: e.
  have -> : e = (fro v)^-1 *: (H *m v) by rewrite Hv scalerA mulVf // scale1r.
  rewrite -scalemxAr T0 -!mulmxA (mulmxA H^T) oH mul1mx Av -scalemxAr !scalerA.
  by rewrite [a * _]mulrC.
have symT : T^T = T by rewrite T0 !trmx_mul trmxK symA mulmxA.
have Tc i : T i 0 = (a *: e) i 0.
  rewrite -Te [RHS]mxE (bigD1 0) //= big1 ?addr0 => [|l l0]; first by rewrite [e _ _]mxE eqxx mulr1.
  by rewrite [e _ _]mxE (negbTE l0) mulr0.
have [lam [V [oV TE]]] : exists (lam : 'cV[R]_n) (V : 'M[R]_n), orthonormal V /\
    drsubmx T = V *m diag_mx lam^T *m V^T.
  by apply: IH; rewrite -[in RHS]symT; apply/matrixP=> i j; rewrite !mxE.
have TB : T = block_mx a%:M 0 0 (drsubmx T).
  rewrite -[LHS]submxK; congr block_mx.
  - by apply/matrixP=> i j; rewrite !ord1 !mxE !lshift0 Tc !mxE !eqxx mulr1 mulr1n.
  - apply/matrixP=> i j; rewrite !ord1 !mxE lshift0 -symT mxE Tc !mxE.
    by rewrite mulr0.
  - by apply/matrixP=> i j; rewrite !ord1 !mxE lshift0 Tc !mxE mulr0.
pose W : 'M[R]_(1 + n) := block_mx 1%:M 0 0 V.
have oW : orthonormal W by apply: orthonormal_diag1.
pose lam' : 'cV[R]_(1 + n) := col_mx a%:M lam.
have DE : diag_mx lam'^T = block_mx a%:M 0 0 (diag_mx lam^T).
  rewrite /lam' tr_col_mx diag_mx_row; congr block_mx.
  by apply/matrixP=> i j; rewrite !ord1 !mxE.
have WDW : T = W *m diag_mx lam'^T *m W^T.
  rewrite {1}TB TE DE /W tr_block_mx !trmx0 trmx1.
  rewrite (mulmx_block 1%:M) !mul0mx !mulmx0 !addr0 !add0r mul1mx.
  by rewrite (mulmx_block a%:M) !mul0mx !mulmx0 !addr0 !add0r mulmx1.
exists lam', (H^T *m W); split.
  by apply: orthonormal_mul => //; apply: orthonormal_trmx.
have -> : A = H^T *m T *m H.
  by rewrite T0 !mulmxA oH mul1mx -mulmxA oH mulmx1.
rewrite trmx_mul trmxK -!mulmxA; congr (_ *m _); rewrite !mulmxA; congr (_ *m _).
exact: WDW.
Qed.

(** ... and in any total order. *)
Lemma eigh_sorted (le : rel R) n (A : 'M[R]_n) : total le -> transitive le -> A^T = A ->
  exists (lam : 'cV[R]_n) (V : 'M[R]_n),
    [/\ orthonormal V, A = V *m diag_mx lam^T *m V^T &
        forall i j : 'I_n, (i <= j)%N -> le (lam i 0) (lam j 0)].
Proof.
move=> tot tr symA; have [lam [V [oV AE]]] := eigh_full symA.
pose t := [tuple lam i 0 | i < n].
have /tuple_permP[p pE] : perm_eq (sort le t) t by rewrite perm_sort.
pose P := perm_mx p : 'M[R]_n.
have oP : P *m P^T = 1%:M by rewrite /P tr_perm_mx -perm_mxM mulgV perm_mx1.
have oP' : P^T *m P = 1%:M by apply: mulmx1C.
exists (\col_i lam (p i) 0), (V *m P^T); split.
- by apply: orthonormal_mul => //; rewrite /orthonormal trmxK.
- rewrite trmx_mul trmxK AE -!mulmxA; congr (_ *m _); rewrite !mulmxA; congr (_ *m _).
  have -> : diag_mx (\col_i lam (p i) 0)^T = P *m diag_mx lam^T *m P^T.
    rewrite /P tr_perm_mx; apply/matrixP=> i j.
    rewrite -row_permE -[perm_mx p^-1]/(perm_mx p^-1) -col_permE !mxE.
    by rewrite (inj_eq perm_inj).
  by rewrite !mulmxA oP' mul1mx -mulmxA oP' mulmx1.
move=> i j ij; rewrite !mxE.
have sP : size (sort le t) = n by rewrite size_sort size_tuple.
have nthE (l : 'I_n) : nth 0 (sort le t) l = lam (p l) 0.
  by rewrite pE (nth_map l) ?size_enum_ord // nth_ord_enum tnth_mktuple.
rewrite -!nthE; apply: (sorted_leq_nth tr) => //; last by rewrite inE sP.
- by move=> x; have := tot x x; rewrite orbb.
- exact: sort_sorted.
- by rewrite inE sP.
Qed.

End Spectral.

Section SVD.
Variable R : rcfType.

Lemma uptri_diag n (U : 'M[R]_n) (d : 'cV[R]_n) : uptri U -> U^T *m U = diag_mx d^T ->
  (forall i j : 'I_n, (i <= j)%N -> d j 0 <= d i 0) ->
  forall i j : 'I_n, i != j -> U i j = 0.
Proof.
move=> tU UU dd.
have UUE (i j : 'I_n) : \sum_l U l i * U l j = d i 0 *+ (i == j).
  have /matrixP/(_ i j) := UU; rewrite !mxE => <-.
  by apply: eq_bigr => l _; rewrite mxE.
have dge j : 0 <= d j 0.
  have := UUE j j; rewrite eqxx mulr1n => <-; apply: sumr_ge0 => l _.
  by rewrite -expr2 sqr_ge0.
suff H b : forall i j : 'I_n, (i < b)%N -> i != j -> U i j = 0 by move=> i j; apply: (H n).
elim: b => // b IH i j; rewrite ltnS leq_eqVlt => /orP[/eqP ib|]; last exact: IH.
move=> ij; case: (ltngtP j i) => [ji|lij|/val_inj E]; [exact: tU | | by rewrite E eqxx in ij].
have Uli (l : 'I_n) : l != i -> U l i = 0.
  move=> li; case: (ltngtP l i) => [lt|gt|/val_inj E].
  - by apply: IH => //; rewrite -ib.
  - exact: tU.
  - by rewrite E eqxx in li.
have [Ui0|Ui0] := eqVneq (U i i) 0; last first.
  have := UUE i j; rewrite (negbTE ij) mulr0n (bigD1 i) //= big1 ?addr0 => [/eqP|l li].
    by rewrite mulf_eq0 (negbTE Ui0) => /eqP.
  by rewrite Uli ?mul0r.
have di : d i 0 = 0.
  have := UUE i i; rewrite eqxx mulr1n (bigD1 i) //= big1 ?addr0 => [<-|l li].
    by rewrite Ui0 mul0r.
  by rewrite Uli ?mul0r.
have dj : d j 0 = 0 by apply/eqP; rewrite eq_le dge -{1}di dd // ltnW.
have /eqP := UUE j j; rewrite eqxx mulr1n dj psumr_eq0 => [/allP/(_ i (mem_index_enum _))|l _].
  by rewrite -expr2 sqrf_eq0 => /eqP.
by rewrite -expr2 sqr_ge0.
Qed.

Lemma svd_tall m n (A : 'M[R]_(m, n)) : (n <= m)%N ->
  exists (U : 'M[R]_(m, n)) (s : 'cV[R]_n) (Vh : 'M[R]_n),
    [/\ orthonormal U, orthonormal Vh^T & A = U *m diag_mx s^T *m Vh] /\
    ((forall i, 0 <= s i 0) /\ (forall i j : 'I_n, (i <= j)%N -> s j 0 <= s i 0)).
Proof.
move=> nm; have symG : (A^T *m A)^T = A^T *m A by rewrite trmx_mul trmxK.
have [|| d [V [oV GE dd]]] := @eigh_sorted R (fun x y => y <= x) _ _ _ _ symG.
- by move=> x y; apply: le_total.
- by move=> x y z xy yz; apply: le_trans yz xy.
have oV' : V *m V^T = 1%:M by apply: mulmx1C.
have [Q [T [oQ tT QT]]] : exists (Q : 'M[R]_(m, n)) (T : 'M[R]_n),
    [/\ orthonormal Q, uptri T & A *m V = Q *m T].
  by have := qr_exists (A *m V); rewrite (minn_idPr nm).
have TT : T^T *m T = diag_mx d^T.
  transitivity ((A *m V)^T *m (A *m V)).
    by rewrite QT trmx_mul mulmxA -(mulmxA T^T) oQ mulmx1.
  by rewrite trmx_mul mulmxA -(mulmxA V^T) GE !mulmxA oV mul1mx -mulmxA oV mulmx1.
have Tdiag := uptri_diag tT TT dd.
pose sg (x : R) : R := if x < 0 then -1 else 1.
have sg2 x : sg x * sg x = 1 by rewrite /sg; case: ifP; rewrite ?mulrNN mulr1.
have sgx x : sg x * `|x| = x.
  by rewrite /sg; case: ltP => x0; rewrite ?mulN1r ?mul1r; [rewrite ltr0_norm ?opprK | rewrite ger0_norm].
pose D := diag_mx (\row_i sg (T i i)); pose s : 'cV[R]_n := \col_i `|T i i|.
have DD : D^T *m D = 1%:M.
  rewrite /D tr_diag_mx mulmx_diag; apply/matrixP=> i j; rewrite !mxE.
  by case: eqP => [->|]; rewrite ?mulr0n // sg2.
have DT : T = D *m diag_mx s^T.
  rewrite mulmx_diag; apply/matrixP=> i j; rewrite !mxE.
  by case: eqP => [->|/eqP ij]; rewrite ?mulr1n ?sgx // mulr0n Tdiag.
exists (Q *m D), s, V^T; split.
  split; first 2 last.
  - by rewrite -(mulmxA Q) -DT -QT -mulmxA oV' mulmx1.
  - by rewrite /orthonormal trmx_mul mulmxA -(mulmxA D^T) oQ mulmx1.
  - by rewrite trmxK.
split=> [i|i j ij]; rewrite !mxE ?normr_ge0 //.
have T2 (l : 'I_n) : T l l ^+ 2 = d l 0.
  have /matrixP/(_ l l) := TT; rewrite !mxE eqxx mulr1n => <-.
  by rewrite (bigD1 l) //= big1 ?addr0 ?mxE // => x xl; rewrite Tdiag ?mulr0.
by rewrite -(@ler_pexpn2r _ 2) ?nnegrE ?normr_ge0 // !real_normK ?num_real // !T2 dd.
Qed.

Lemma svd_exists m n (A : 'M[R]_(m, n)) :
  exists (U : 'M[R]_(m, minn m n)) (s : 'cV[R]_(minn m n)) (Vh : 'M[R]_(minn m n, n)),
    [/\ orthonormal U, orthonormal Vh^T & A = U *m diag_mx s^T *m Vh] /\
    ((forall i, 0 <= s i 0) /\ (forall i j : 'I_(minn m n), (i <= j)%N -> s j 0 <= s i 0)).
Proof.
case: (leqP n m) => [nm|/ltnW mn]; first exact: svd_tall.
have [U [s [Vh [[oU oV AE] Hs]]]] := svd_tall A^T mn.
exists Vh^T, s, U^T; split=> //; split=> //; first by rewrite trmxK.
by rewrite -[A]trmxK AE !trmx_mul tr_diag_mx mulmxA.
Qed.

(** Minimum-norm least squares. *)
Lemma lstsq_exists m n p (A : 'M[R]_(m, n)) (B : 'M[R]_(m, p)) :
  exists (X : 'M[R]_(n, p)) (W : 'M[R]_(m, p)), A^T *m (A *m X - B) = 0 /\ X = A^T *m W.
Proof.
have [U [s [Vh [[oU oV AE] _]]]] := svd_exists A.
pose t := \row_i (s i 0)^-1.
pose D := diag_mx s^T; pose E := diag_mx t.
have DEE : D *m (E *m E) = E.
  rewrite !mulmx_diag; congr diag_mx; apply/matrixP=> i j; rewrite !mxE.
  by have [->|s0] := eqVneq (s j 0) 0; rewrite ?invr0 ?mul0r // mulrA mulfV // mul1r.
have DDE : D *m (D *m E) = D.
  rewrite !mulmx_diag; congr diag_mx; apply/matrixP=> i j; rewrite !mxE.
  by rewrite !ord1; have [->|s0] := eqVneq (s j 0) 0; rewrite ?mul0r // mulfV // mulr1.
have AT : A^T = Vh^T *m D *m U^T by rewrite AE !trmx_mul tr_diag_mx mulmxA.
exists (Vh^T *m E *m (U^T *m B)), (U *m (E *m E) *m (U^T *m B)); split.
  rewrite AT {1}AE mulmxBr -[Vh^T *m D *m U^T *m _]mulmxA; apply/eqP; rewrite subr_eq0; apply/eqP.
  rewrite !mulmxA -(mulmxA (Vh^T *m D)) oU mulmx1 -(mulmxA _ Vh).
  move: oV; rewrite /orthonormal trmxK => ->; rewrite mulmx1.
  by rewrite -!mulmxA [D *m (E *m _)]mulmxA [D *m (D *m E *m _)]mulmxA DDE.
rewrite AT !mulmxA -(mulmxA (Vh^T *m D)) oU mulmx1.
by rewrite -!mulmxA [E *m (E *m _)]mulmxA [D *m (E *m E *m _)]mulmxA DEE !mulmxA.
Qed.

End SVD.

Section LU.
Variable R : rcfType.

Lemma lu_square n (A : 'M[R]_n) :
  exists (P Lo U : 'M[R]_n),
    [/\ is_perm_mx P, lotri Lo /\ forall i, Lo i i = 1, uptri U & A = P *m Lo *m U].
Proof.
case: n A => [|n] A.
  exists 1%:M, 1%:M, 1%:M; split; first exact: is_perm_mx1.
  - by split=> -[].
  - by case.
  - by apply/matrixP=> -[].
have := cormen_lup_correct A; have := cormen_lup_perm A.
have := @cormen_lup_lower _ _ A; have := @cormen_lup_upper _ _ A.
case: (cormen_lup A) => [[P Lo] U] /= tU tL /is_perm_mxP[s PE] E.
exists P^T, Lo, U; split; first by rewrite is_perm_mx_tr PE perm_mx_is_perm.
- split=> [i j ij|i]; last by rewrite tL ?eqxx.
  by rewrite tL 1?ltnW //; case: eqP ij => // ->; rewrite ltnn.
- by move=> i j; apply: tU.
rewrite -mulmxA -[Lo *m U]/(Lo * U) -E mulmxA.
by rewrite PE tr_perm_mx -perm_mxM mulVg perm_mx1 mul1mx.
Qed.

Lemma lu_exists m n (A : 'M[R]_(m, n)) :
  exists (P : 'M[R]_m) (Lo : 'M[R]_(m, minn m n)) (U : 'M[R]_(minn m n, n)),
    [/\ is_perm_mx P, (lotri Lo /\ forall i : 'I_(minn m n), mxe Lo i i = 1), uptri U &
        A = P *m Lo *m U].
Proof.
case: (leqP n m) => [nm|/ltnW mn].
  move: A; rewrite -(subnKC nm); move: (m - n)%N => r {nm} A.
  have [P [Lo [U [pP [tL dL] tU E]]]] := lu_square (row_mx A (0 : 'M_(n + r, r))).
  exists P, (lsubmx Lo), (usubmx (lsubmx U)); split=> //.
  - split=> [i j ij|i]; first by rewrite mxE tL.
    have lti : (i < n + r)%N by rewrite ltn_addr.
    rewrite (mxe_ord _ lti (ltn_ord i)) mxE -[RHS](dL (lshift r i)).
    by congr (Lo _ _); apply: val_inj.
  - by move=> i j ji; rewrite !mxE tU.
  have := congr1 lsubmx E; rewrite row_mxKl => ->.
  rewrite -!mulmxA.
  have lsubM q (X : 'M[R]_(n + r, q)) (Y : 'M[R]_(q, n + r)) :
      lsubmx (X *m Y) = X *m lsubmx Y.
    by apply/matrixP=> i j; rewrite !mxE; apply: eq_bigr => l _; rewrite !mxE.
  rewrite !lsubM.
  congr (P *m _); rewrite -{1}[Lo]hsubmxK -{1}[lsubmx U]vsubmxK mul_row_col.
  have -> : dsubmx (lsubmx U) = 0.
    by apply/matrixP=> i j; rewrite !mxE tU //= ltn_addr.
  by rewrite mulmx0 addr0.
move: A; rewrite -(subnKC mn); move: (n - m)%N => r {mn} A.
have [P [Lo [U [pP [tL dL] tU E]]]] := lu_square (lsubmx A).
have uL : Lo \in unitmx.
  by rewrite lotri_unit //; apply/forallP => i; rewrite dL oner_eq0.
case/is_perm_mxP: (pP) => s PE.
exists P, Lo, (row_mx U (invmx Lo *m P^T *m rsubmx A)); split=> //.
- by split=> // i; rewrite mxeE.
- move=> i j ji; rewrite mxE; case: splitP => l lE; first by rewrite tU // -lE.
  by move: ji; rewrite lE ltnNge ltnW // ltn_addr.
rewrite mul_mx_row -E -[LHS]hsubmxK; congr row_mx.
rewrite -!mulmxA mulKVmx // mulmxA.
by rewrite PE tr_perm_mx -perm_mxM mulgV perm_mx1 mul1mx.
Qed.

End LU.

(** * One implementation meeting every contract at once. *)
Section Witness.
Variable R : rcfType.

Definition b_orth m n (Q : 'M[R]_(m, n)) : bool := Q^T *m Q == 1%:M.
Lemma b_orthP m n (Q : 'M[R]_(m, n)) : reflect (orthonormal Q) (b_orth Q).
Proof. exact: eqP. Qed.

Definition b_up m n (U : 'M[R]_(m, n)) : bool :=
  [forall i : 'I_m, forall j : 'I_n, (j < i)%N ==> (U i j == 0)].
Lemma b_upP m n (U : 'M[R]_(m, n)) : reflect (uptri U) (b_up U).
Proof.
apply: (iffP idP) => [/forallP H i j ji|H].
  by have /forallP/(_ j)/implyP/(_ ji)/eqP := H i.
by apply/forallP=> i; apply/forallP=> j; apply/implyP=> ji; apply/eqP/H.
Qed.
Definition b_lo m n (U : 'M[R]_(m, n)) : bool :=
  [forall i : 'I_m, forall j : 'I_n, (i < j)%N ==> (U i j == 0)].
Lemma b_loP m n (U : 'M[R]_(m, n)) : reflect (lotri U) (b_lo U).
Proof.
apply: (iffP idP) => [/forallP H i j ji|H].
  by have /forallP/(_ j)/implyP/(_ ji)/eqP := H i.
by apply/forallP=> i; apply/forallP=> j; apply/implyP=> ji; apply/eqP/H.
Qed.

Definition qr_b m n (A : 'M[R]_(m, n)) (x : 'M[R]_(m, minn m n) * 'M[R]_(minn m n, n)) : bool :=
  [&& b_orth x.1, b_up x.2 & A == x.1 *m x.2].
Lemma qr_ex m n (A : 'M[R]_(m, n)) : exists x, qr_b A x.
Proof.
have [Q [U [/b_orthP oQ /b_upP tU E]]] := qr_exists A.
by exists (Q, U); rewrite /qr_b /= oQ tU E eqxx.
Qed.

Definition qrp_b m n (A : 'M[R]_(m, n))
    (x : 'M[R]_(m, minn m n) * 'M[R]_(minn m n, n) * seq nat) : bool :=
  [&& b_orth x.1.1, b_up x.1.2, perm_eq x.2 (iota 0 n), colsel A x.2 n == x.1.1 *m x.1.2 &
      [forall i : 'I_(minn m n), forall j : 'I_n, (i <= j)%N ==>
       (\sum_(l < minn m n | (i <= l)%N) x.1.2 l j ^+ 2 <= mxe x.1.2 i i ^+ 2)]].
Lemma qrp_ex m n (A : 'M[R]_(m, n)) : exists x, qrp_b A x.
Proof.
have [Q [U [J [[/b_orthP oQ /b_upP tU pJ E] H]]]] := qrp_exists A.
exists (Q, U, J); rewrite /qrp_b /= oQ tU pJ E eqxx /=.
by apply/forallP=> i; apply/forallP=> j; apply/implyP; apply: H.
Qed.

Definition desc_b n (s : 'cV[R]_n) : bool :=
  [forall i : 'I_n, forall j : 'I_n, (i <= j)%N ==> (s j 0 <= s i 0)].

Definition svd_b m n (A : 'M[R]_(m, n))
    (x : 'M[R]_(m, minn m n) * 'cV[R]_(minn m n) * 'M[R]_(minn m n, n)) : bool :=
  [&& b_orth x.1.1, b_orth x.2^T, A == x.1.1 *m diag_mx x.1.2^T *m x.2,
      [forall i, 0 <= x.1.2 i 0] & desc_b x.1.2].
Lemma svd_ex m n (A : 'M[R]_(m, n)) : exists x, svd_b A x.
Proof.
have [U [s [Vh [[/b_orthP oU /b_orthP oV E] [s0 sd]]]]] := svd_exists A.
exists (U, s, Vh); rewrite /svd_b /= oU oV -E eqxx /=; apply/andP; split; first exact/forallP.
by apply/forallP=> i; apply/forallP=> j; apply/implyP; apply: sd.
Qed.

Definition eigh_b n (A : 'M[R]_n) (x : 'cV[R]_n * 'M[R]_n) : bool :=
  [&& b_orth x.2, A == x.2 *m diag_mx x.1^T *m x.2^T & desc_b (- x.1)].
(** The symmetric matrix [la.eigh] sees: the lower triangle of its argument. *)
Definition lowsym (A : arr R) : 'M[R]_(nr A) :=
  \matrix_(i, j) el A (maxn i j) (minn i j).
Lemma lowsym_sym A : (lowsym A)^T = lowsym A.
Proof. by apply/matrixP=> i j; rewrite !mxE maxnC minnC. Qed.
Lemma eigh_ex n (A : 'M[R]_n) : A^T = A -> exists x, eigh_b A x.
Proof.
move=> sA; have [||lam [V [oV E sl]]] := @eigh_sorted R (fun x y => x <= y) _ _ _ _ sA.
- by move=> x y; apply: le_total.
- by move=> x y z xy yz; apply: le_trans xy yz.
exists (lam, V); rewrite /eigh_b /= -E eqxx; apply/and3P; split=> //; first exact/b_orthP.
by apply/forallP=> i; apply/forallP=> j; apply/implyP=> ij; rewrite !mxE ler_opp2 sl.
Qed.

Definition lu_b m n (A : 'M[R]_(m, n))
    (x : 'M[R]_m * 'M[R]_(m, minn m n) * 'M[R]_(minn m n, n)) : bool :=
  [&& is_perm_mx x.1.1, b_lo x.1.2, [forall i : 'I_(minn m n), mxe x.1.2 i i == 1],
      b_up x.2 & A == x.1.1 *m x.1.2 *m x.2].
Lemma lu_ex m n (A : 'M[R]_(m, n)) : exists x, lu_b A x.
Proof.
have [P [Lo [U [pP [/b_loP tL dL] /b_upP tU E]]]] := lu_exists A.
exists (P, Lo, U); rewrite /lu_b /= pP tL tU -E eqxx !andbT /=.
by apply/forallP=> i; rewrite dL.
Qed.

Definition lstsq_b m n p (A : 'M[R]_(m, n)) (B : 'M[R]_(m, p))
    (x : 'M[R]_(n, p) * 'M[R]_(m, p)) : bool :=
  (A^T *m (A *m x.1 - B) == 0) && (x.1 == A^T *m x.2).
Lemma lstsq_ex m n p (A : 'M[R]_(m, n)) (B : 'M[R]_(m, p)) : exists x, lstsq_b A B x.
Proof.
by have [X [W [E1 E2]]] := lstsq_exists A B; exists (X, W); rewrite /lstsq_b /= E1 -E2 !eqxx.
Qed.

Definition rhs_of m (B : arr R) : 'M[R]_(m, nc B) := \matrix_(i, j) el B i j.

Definition exact_lapack : lapack R := {|
  l_qr := fun A => let x := xchoose (qr_ex (tomx A)) in Ok (ofmx x.1, ofmx x.2);
  l_qrp := fun A => let x := xchoose (qrp_ex (tomx A)) in Ok (ofmx x.1.1, ofmx x.1.2, x.2);
  l_svd := fun A => let x := xchoose (svd_ex (tomx A)) in Ok (ofmx x.1.1, ofcv x.1.2, ofmx x.2);
  l_eigh := fun A => let x := xchoose (eigh_ex (lowsym_sym A)) in Ok (ofcv x.1, ofmx x.2);
  l_lu := fun A => let x := xchoose (lu_ex (tomx A)) in Ok (ofmx x.1.1, ofmx x.1.2, ofmx x.2);
  l_lstsq := fun A B =>
    let x := xchoose (lstsq_ex (tomx A) (rhs_of (nr A) B)) in
    Ok (ofmx x.1);
  l_dct := id;
  l_idct := id
|}.

Lemma exact_qr : qr_spec exact_lapack.
Proof.
move=> m n A _ _ /=; have := xchooseP (qr_ex (tomx (ofmx A))).
case: (xchoose _) => Q U /and3P[/b_orthP oQ /b_upP tU /eqP E]; exists Q, U; split=> //.
by rewrite -E ofmxK.
Qed.

Lemma exact_qrp : qrp_spec exact_lapack.
Proof.
move=> m n A _ _ /=; have := xchooseP (qrp_ex (tomx (ofmx A))).
case: (xchoose _) => [[Q U] J] /and5P[/b_orthP oQ /b_upP tU pJ /eqP E /forallP H].
exists Q, U, J; split.
  by split=> //; rewrite -E -[in LHS](ofmxK A).
by move=> i j ij; have /forallP/(_ j)/implyP/(_ ij) := H i.
Qed.

Lemma exact_svd : svd_spec exact_lapack.
Proof.
move=> m n A _ _ /=; have := xchooseP (svd_ex (tomx (ofmx A))).
case: (xchoose _) => [[U s] Vh] /and5P[/b_orthP oU /b_orthP oV /eqP E /forallP s0 /forallP sd].
exists U, s, Vh; split; first by split=> //; rewrite -E ofmxK.
by split=> // i j ij; have /forallP/(_ j)/implyP/(_ ij) := sd i.
Qed.

Lemma exact_eigh : eigh_spec exact_lapack.
Proof.
move=> n A _ sA /=; have := xchooseP (eigh_ex (lowsym_sym (ofmx A))).
case: (xchoose _) => lam V /and3P[/b_orthP oV /eqP E /forallP sl].
exists lam, V; split=> //; last first.
  by move=> i j ij; have /forallP/(_ j)/implyP/(_ ij) := sl i; rewrite !mxE ler_opp2.
rewrite -[RHS]E; apply/matrixP=> i j; rewrite mxE.
case: (leqP i j) => ij.
  by rewrite el_ofmx -[in LHS]sA mxE.
by rewrite el_ofmx.
Qed.

Lemma exact_lu : lu_spec exact_lapack.
Proof.
move=> m n A _ _ /=; have := xchooseP (lu_ex (tomx (ofmx A))).
case: (xchoose _) => [[P Lo] U] /and5P[pP /b_loP tL /forallP dL /b_upP tU /eqP E].
exists P, Lo, U; split=> //; last by rewrite -[RHS]E ofmxK.
by split=> // i; apply/eqP/dL.
Qed.

Lemma exact_lstsq : lstsq_spec exact_lapack.
Proof.
move=> m n p A B _ _ _ /=.
have := xchooseP (lstsq_ex (tomx (ofmx A)) (rhs_of (nr (ofmx A)) (ofmx B))).
case: (xchoose _) => X W; rewrite /lstsq_b.
move=> /andP[/eqP E1 /eqP E2]; exists X, W; split=> //.
- by move: E1; rewrite -[rhs_of _ _]/(tomx (ofmx B)) !ofmxK.
- by move: E2; rewrite ofmxK.
Qed.

Lemma exact_dct : dct_spec exact_lapack.
Proof.
move=> n; exists 1%:M; split; first by rewrite /orthonormal trmx1 mulmx1.
by move=> x; rewrite trmx1 !mul1mx.
Qed.

End Witness.

(** A (deterministic) generator meeting [rng_ok]: identity-like "normal"
    matrices, increasing indices; the state counts the calls. *)
Section WitnessRng.
Context {T : Type} {O : ops T}.

Definition eye_arr m n : arr T := mk m n (fun i j => if i == j then o1 else o0).
Definition toy_rng : rng_ops nat T := {|
  r_normal := fun g _ m n => (g.+1, eye_arr m n);
  r_stdnormal := fun g m n => (g.+1, eye_arr m n);
  r_random := fun g n => (g.+1, nseq n o0);
  r_choice := fun g p k b => (g.+1, if b then nseq k 0%N else iota 0 k);
  r_perm := fun g n => (g.+1, iota 0 n);
  r_seed := id;
  r_seeds := fun v => size v
|}.

Lemma wf_mk m n f : wf (mk m n f).
Proof. by rewrite /wf /=; apply: eq_mk => i j im jn; rewrite el_mk. Qed.

Lemma toy_rng_ok : rng_ok toy_rng.
Proof.
split=> //=.
- by move=> *; split; first exact: wf_mk.
- by move=> *; split; first exact: wf_mk.
- by move=> *; rewrite size_nseq.
move=> _ p k [] /= H1 H2.
  rewrite size_nseq; split=> //.
  by case: k H1 H2 => // k; rewrite orbF => p0 _; rewrite all_nseq p0 orbT.
rewrite size_iota; split=> //; last by rewrite iota_uniq.
by apply/allP=> i; rewrite mem_iota add0n /= => ik; apply: leq_trans ik H2.
Qed.

End WitnessRng.
