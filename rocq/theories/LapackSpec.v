(** Contracts of the LAPACK-backed routines, in exact arithmetic.  These are
    the textbook specifications; they are hypotheses of the theorems (never
    axioms), shown satisfiable in [LapackExists.v].  Each contract speaks about
    non-empty arguments only: scipy raises on (some) empty inputs. *)
From mathcomp Require Import all_ssreflect all_algebra.
From Verif Require Import Base Arr Lapack Exact MxLib.
Set Implicit Arguments.
Unset Strict Implicit.
Unset Printing Implicit Defensive.
Import Order.TTheory GRing.Theory Num.Theory.
Local Open Scope ring_scope.

Section Contracts.
Variable R : rcfType.
Variable L : lapack R.

(** Economic QR. *)
Definition qr_spec : Prop :=
  forall m n (A : 'M[R]_(m, n)), (0 < m)%N -> (0 < n)%N ->
  exists (Q : 'M[R]_(m, minn m n)) (U : 'M[R]_(minn m n, n)),
    [/\ l_qr L (ofmx A) = Ok (ofmx Q, ofmx U), orthonormal Q, uptri U & A = Q *m U].

(** Economic QR with column pivoting: [A[:, J] = Q U] with [J] a permutation
    and each diagonal entry dominating the remaining trailing columns. *)
Definition colsel m n (A : 'M[R]_(m, n)) (J : seq nat) c : 'M[R]_(m, c) :=
  \matrix_(i, j) mxe A i (nth 0%N J j).
Definition qrp_spec : Prop :=
  forall m n (A : 'M[R]_(m, n)), (0 < m)%N -> (0 < n)%N ->
  exists (Q : 'M[R]_(m, minn m n)) (U : 'M[R]_(minn m n, n)) (J : seq nat),
    [/\ l_qrp L (ofmx A) = Ok (ofmx Q, ofmx U, J),
        orthonormal Q, uptri U, perm_eq J (iota 0 n) & colsel A J n = Q *m U] /\
    (forall (i : 'I_(minn m n)) (j : 'I_n), (i <= j)%N ->
       \sum_(l < minn m n | (i <= l)%N) U l j ^+ 2 <= mxe U i i ^+ 2).

(** Thin SVD. *)
Definition svd_spec : Prop :=
  forall m n (A : 'M[R]_(m, n)), (0 < m)%N -> (0 < n)%N ->
  exists (U : 'M[R]_(m, minn m n)) (s : 'cV[R]_(minn m n)) (Vh : 'M[R]_(minn m n, n)),
    [/\ l_svd L (ofmx A) = Ok (ofmx U, ofcv s, ofmx Vh),
        orthonormal U, orthonormal Vh^T & A = U *m diag_mx s^T *m Vh] /\
    ((forall i, 0 <= s i 0) /\ (forall i j : 'I_(minn m n), (i <= j)%N -> s j 0 <= s i 0)).

(** Symmetric eigendecomposition, eigenvalues ascending. *)
Definition eigh_spec : Prop :=
  forall n (A : 'M[R]_n), (0 < n)%N -> A^T = A ->
  exists (lam : 'cV[R]_n) (V : 'M[R]_n),
    [/\ l_eigh L (ofmx A) = Ok (ofcv lam, ofmx V), orthonormal V,
        A = V *m diag_mx lam^T *m V^T &
        forall i j : 'I_n, (i <= j)%N -> lam i 0 <= lam j 0].

(** LU with partial pivoting: [A = P L U]. *)
Definition lu_spec : Prop :=
  forall m n (A : 'M[R]_(m, n)), (0 < m)%N -> (0 < n)%N ->
  exists (P : 'M[R]_m) (Lo : 'M[R]_(m, minn m n)) (U : 'M[R]_(minn m n, n)),
    [/\ l_lu L (ofmx A) = Ok (ofmx P, ofmx Lo, ofmx U), is_perm_mx P,
        (lotri Lo /\ forall i : 'I_(minn m n), mxe Lo i i = 1), uptri U &
        A = P *m Lo *m U].

(** Least squares: the minimum-norm minimiser (columnwise).  The default rank
    cut-off of [la.lstsq] is idealised away. *)
Definition lstsq_spec : Prop :=
  forall m n p (A : 'M[R]_(m, n)) (B : 'M[R]_(m, p)),
  (0 < m)%N -> (0 < n)%N -> (0 < p)%N ->
  exists (X : 'M[R]_(n, p)) (W : 'M[R]_(m, p)),
    [/\ l_lstsq L (ofmx A) (ofmx B) = Ok (ofmx X),
        A^T *m (A *m X - B) = 0 & X = A^T *m W].

(** Orthonormal DCT and its inverse. *)
Definition dct_spec : Prop :=
  forall n, exists C : 'M[R]_n, orthonormal C /\
  forall x : 'cV[R]_n,
    l_dct L (ofcv x) = ofcv (C *m x) /\ l_idct L (ofcv x) = ofcv (C^T *m x).

(** QR of a matrix with at least as many rows as columns. *)
Lemma qr_tall m n (A : 'M[R]_(m, n)) : qr_spec -> (0 < n)%N -> (n <= m)%N ->
  exists (Q : 'M[R]_(m, n)) (U : 'M[R]_n),
    [/\ l_qr L (ofmx A) = Ok (ofmx Q, ofmx U), orthonormal Q, uptri U & A = Q *m U].
Proof.
move=> qr n0 nm; have m0 := leq_trans n0 nm.
have [Q [U H]] := qr _ _ A m0 n0; move: Q U H.
by rewrite (minn_idPr nm) => Q U H; exists Q, U.
Qed.

End Contracts.

Section FullRank.
Variable R : rcfType.

(** Linear independence of the columns, in three forms. *)
Lemma full_col_inj m n p (X : 'M[R]_(m, n)) (V : 'M[R]_(n, p)) :
  \rank X = n -> X *m V = 0 -> V = 0.
Proof.
move=> /gram_unit uX E; rewrite -[V](mulKmx uX) -mulmxA E.
by rewrite !mulmx0.
Qed.

Lemma inj_full_col m n (X : 'M[R]_(m, n)) :
  (forall v : 'cV[R]_n, X *m v = 0 -> v = 0) -> \rank X = n.
Proof.
move=> H; rewrite -mxrank_tr; apply/eqP/row_freeP.
have K0 : kermx X^T = 0.
  apply/eqP; rewrite -submx0; apply/rV_subP => u /sub_kermxP E.
  rewrite submx0; apply/eqP/trmx_inj; rewrite trmx0; apply: H.
  by rewrite -[X]trmxK -trmx_mul E trmx0.
by apply/row_freeP; rewrite -kermx_eq0 K0.
Qed.

Lemma full_col_left m n1 n2 (X : 'M[R]_(m, n1)) (Y : 'M[R]_(m, n2)) :
  \rank (row_mx X Y) = (n1 + n2)%N -> \rank X = n1.
Proof.
move=> rXY; apply: inj_full_col => v Xv.
have : row_mx X Y *m col_mx v 0 = 0 by rewrite mul_row_col Xv mulmx0 addr0.
by move/(full_col_inj rXY)/eqP; rewrite col_mx_eq0 => /andP[/eqP].
Qed.

Lemma full_col_unit n (X : 'M[R]_n) : (\rank X = n) <-> X \in unitmx.
Proof.
by rewrite -row_free_unit /row_free; split => [->|/eqP].
Qed.

(** Upper triangular and invertible iff no zero on the diagonal. *)
Lemma uptri_det n (U : 'M[R]_n) : uptri U -> \det U = \prod_i U i i.
Proof.
move=> tU; rewrite -det_tr det_trig; first by apply: eq_bigr => i _; rewrite mxE.
by apply/is_trig_mxP => i j ij; rewrite mxE tU.
Qed.

Lemma uptri_unit n (U : 'M[R]_n) : uptri U ->
  (U \in unitmx) = [forall i, U i i != 0].
Proof.
move=> tU; rewrite unitmxE uptri_det // unitfE.
by apply/prodf_neq0/forallP => H i; [apply: H | move=> _; apply: H].
Qed.

Lemma lotri_unit n (U : 'M[R]_n) : lotri U ->
  (U \in unitmx) = [forall i, U i i != 0].
Proof.
move=> tU; rewrite -unitmx_tr uptri_unit; last by move=> i j ji; rewrite mxE tU.
by apply: eq_forallb => i; rewrite mxE.
Qed.

Lemma uptri_mul n (U V : 'M[R]_n) : uptri U -> uptri V -> uptri (U *m V).
Proof.
move=> tU tV i j ji; rewrite mxE big1 // => l _.
by case: (ltnP l i) => [li|il]; [rewrite tU ?mul0r | rewrite tV ?mulr0 // (leq_trans ji)].
Qed.

End FullRank.

(** Triangular solves: success means the triangular matrix is invertible and
    the result is the exact solution. *)
Section TriSolve.
Variable R : rcfType.
Local Notation ev := (@ev R (rcf_ops R)).

Lemma fsubP n (Lo : 'M[R]_n) (b : 'cV[R]_n) :
  lotri Lo -> (forall i, Lo i i != 0) ->
  fsub (mxe Lo) (mxe b ^~ 0%N) n = ofcv (invmx Lo *m b).
Proof.
move=> tL dL.
have uL : Lo \in unitmx by rewrite lotri_unit //; apply/forallP.
set x := fsub _ _ _; have sx : size x = n by rewrite size_fsub.
pose xc := \col_(i < n) ev x i.
have -> : x = ofcv xc.
  by rewrite -[LHS]mkseq_ev sx; apply: mkseq_eq_ofcv => i; rewrite mxE.
congr ofcv; apply: (can_inj (mulKmx uL)); rewrite mulKVmx //.
apply/colP => i; rewrite mxE.
have := @fsubS R (rcf_ops R) (mxe Lo) (mxe b ^~ 0%N) _ _ (ltn_ord i); rewrite -/x osumE /= => E.
rewrite (bigID (fun j : 'I_n => (j < i)%N)) /=.
rewrite [X in _ + X](bigD1 i) /= ?ltnn // [X in _ + (_ + X)]big1 ?addr0; last first.
  move=> j /andP[]; rewrite -leqNgt leq_eqVlt => /orP[/eqP/val_inj->|ij _].
    by rewrite eqxx.
  by rewrite tL ?mul0r.
rewrite mxE E mxeE mulrC divfK ?dL // (mxeE b i 0).
suff -> : \sum_(j < n | (j < i)%N) Lo i j * xc j 0 =
          \sum_(l < i) mxe Lo i l * ev x l by rewrite addrC subrK.
rewrite [RHS](big_ord_widen n (fun l => mxe Lo i l * ev x l)) ?(ltnW (ltn_ord i)) //.
by apply: eq_bigr => j _; rewrite mxeE mxE.
Qed.

Lemma eq_fsub (f g : nat -> nat -> R) (b c : nat -> R) n :
  (forall i j, (i < n)%N -> (j <= i)%N -> f i j = g i j) ->
  (forall i, (i < n)%N -> b i = c i) -> fsub f b n = fsub g c n.
Proof.
elim: n => //= n IH Ef Eb; rewrite IH; last first.
- by move=> i ltin; apply: Eb; rewrite ltnS ltnW.
- by move=> i j ltin ji; apply: Ef => //; rewrite ltnS ltnW.
congr rcons; rewrite Eb // Ef //; congr (_ / _); congr (_ - _).
by rewrite !osumE; apply: eq_bigr => l _; rewrite Ef // ltnW.
Qed.

Lemma rev_ofcv n (y : 'cV[R]_n) : rev (ofcv y) = ofcv (\col_i y (rev_ord i) 0).
Proof.
apply: (@eq_from_nth _ 0); first by rewrite size_rev !size_ofcv.
move=> i; rewrite size_rev size_ofcv => ltin.
rewrite nth_rev size_ofcv //.
have lt' : (n - i.+1 < n)%N by rewrite ltn_subrL /= (leq_ltn_trans _ ltin).
rewrite -[LHS]/(ev (ofcv y) _) -[RHS]/(ev (ofcv _) _).
rewrite (ev_ofcv_nat _ lt') (ev_ofcv_nat _ ltin) mxE.
by congr (y _ _); apply: val_inj.
Qed.

(** Effective matrix of a triangular solve. *)
Lemma tri_vecP (lower trans : bool) n (U : 'M[R]_n) (b : 'cV[R]_n) :
  (if lower then lotri U else uptri U) -> (forall i, U i i != 0) ->
  tri_vec lower trans (ofmx U) (mxe b ^~ 0%N) =
  ofcv (invmx (if trans then U^T else U) *m b).
Proof.
move=> tU dU; rewrite /tri_vec nr_ofmx.
pose E := if trans then U^T else U.
have dE i : E i i != 0 by rewrite /E; case: (trans); rewrite ?mxE.
have aE i j : (i < n)%N -> (j < n)%N ->
    (if trans then el (ofmx U) j i else el (ofmx U) i j) = mxe E i j.
  move=> ltin ltjn; rewrite /E; case: (trans).
    by rewrite (el_ofmx_nat _ ltjn ltin) (mxe_ord _ ltin ltjn) mxE.
  by rewrite (el_ofmx_nat _ ltin ltjn) (mxe_ord _ ltin ltjn).
case: ifP => lt.
  rewrite -/E (@eq_fsub _ (mxe E) _ (mxe b ^~ 0%N)) //; last first.
    by move=> i j ltin ji; rewrite aE // (leq_ltn_trans ji).
  apply: fsubP => // i j ij; rewrite /E.
  by move: lt tU; case: (lower); case: (trans) => //= _ tU; rewrite ?mxE tU.
have tE : uptri E.
  by rewrite /E; move: lt tU; case: (lower); case: (trans) => //= _ tU i j ji; rewrite ?mxE tU.
have uE : E \in unitmx by rewrite uptri_unit //; apply/forallP.
pose Lo : 'M[R]_n := \matrix_(i, j) E (rev_ord i) (rev_ord j).
pose b' : 'cV[R]_n := \col_i b (rev_ord i) 0.
have rvn i : (i < n)%N -> (n.-1 - i < n)%N.
  by move=> ltin; case: n ltin {U b tU dU E dE aE tE uE Lo b'} => // n _; rewrite ltnS leq_subr.
have rvE i (ltin : (i < n)%N) : Ordinal (rvn _ ltin) = rev_ord (Ordinal ltin).
  by apply: val_inj; case: n i ltin {U b tU dU E dE aE tE uE Lo b'} rvn => // n i ltin rvn.
rewrite (@eq_fsub _ (mxe Lo) _ (mxe b' ^~ 0%N)) //; last first.
- move=> i ltin; rewrite (mxe_ord _ (rvn _ ltin) (ltn0Sn 0)) (mxe_ord _ ltin (ltn0Sn 0)).
  by rewrite mxE rvE.
- move=> i j ltin ji; have ltjn := leq_ltn_trans ji ltin.
  rewrite aE ?rvn // (mxe_ord _ (rvn _ ltin) (rvn _ ltjn)) (mxe_ord _ ltin ltjn).
  by rewrite mxE !rvE.
have tL : lotri Lo.
  move=> i j ij; rewrite mxE tE //=.
  by rewrite ltn_sub2l // (leq_ltn_trans ij).
rewrite fsubP //; last by move=> i; rewrite mxE.
rewrite rev_ofcv; congr ofcv.
have uL : Lo \in unitmx by rewrite lotri_unit //; apply/forallP => i; rewrite mxE.
apply: (can_inj (mulKmx uE)); rewrite -/E mulKVmx //.
apply/colP => i; rewrite mxE.
transitivity ((Lo *m (invmx Lo *m b')) (rev_ord i) 0); last first.
  by rewrite mulKVmx // mxE rev_ordK.
rewrite [RHS]mxE (reindex_inj rev_ord_inj) /=; apply: eq_bigr => j _.
by rewrite !mxE !rev_ordK.
Qed.

Lemma tri_checkP n (U : 'M[R]_n) :
  tri_check (ofmx U) n = if [forall i, U i i != 0] then Ok tt else Err LinAlgError.
Proof.
rewrite /tri_check nr_ofmx nc_ofmx eqxx /= fun_if.
case: hasP => [[i]|H].
  rewrite mem_iota add0n /= => ltin; rewrite (el_ofmx_nat _ ltin ltin) => /eqP E.
  case: forallP => // H; have := H (Ordinal ltin).
  by rewrite E eqxx.
case: forallP => // H2; case: H2 => i; apply/negP => Ui; case: H.
by exists (val i); rewrite ?mem_iota ?ltn_ord //= el_ofmx.
Qed.

Lemma tri_check_dim n p (U : 'M[R]_n) : p <> n -> tri_check (ofmx U) p = Err ValueError.
Proof. by move=> H; rewrite /tri_check nr_ofmx nc_ofmx eqxx /= eq_sym; case: eqP. Qed.

Lemma solve_triE (lower trans : bool) n p (U : 'M[R]_n) (B : 'M[R]_(n, p)) :
  (if lower then lotri U else uptri U) ->
  solve_tri lower trans (ofmx U) (ofmx B) =
  if U \in unitmx then Ok (ofmx (invmx (if trans then U^T else U) *m B))
  else Err LinAlgError.
Proof.
move=> tU; rewrite /solve_tri nr_ofmx nc_ofmx tri_checkP.
have -> : (U \in unitmx) = [forall i, U i i != 0].
  by case: (lower) tU => tU; [rewrite lotri_unit | rewrite uptri_unit].
case: ifP => [/forallP dU|] //=; congr Ok; apply: mk_eq_ofmx => i j.
rewrite nth_mkseq // -[RHS](mxeE _ i j).
transitivity (ev (tri_vec lower trans (ofmx U) (mxe (col j B) ^~ 0%N)) i).
  congr (ev _ _); rewrite /tri_vec nr_ofmx.
  have bE l : (l < n)%N -> el (ofmx B) l j = mxe (col j B) l 0.
    by move=> ltl; rewrite (el_ofmx_nat _ ltl (ltn_ord j)) (mxe_ord _ ltl (ltn0Sn 0)) mxE; congr (B _ _); apply: val_inj.
  case: ifP => _; first exact: eq_fsub.
  congr rev; apply: eq_fsub => // l ltl; apply: bE.
  by case: n ltl {U B tU dU i} => // n _; rewrite ltnS leq_subr.
by rewrite tri_vecP // ev_ofcv mxeE !mxE; apply: eq_bigr => l _; rewrite mxE.
Qed.

Lemma solve_tri_vE (lower trans : bool) n (U : 'M[R]_n) (b : 'cV[R]_n) :
  (if lower then lotri U else uptri U) ->
  solve_tri_v lower trans (ofmx U) (ofcv b) =
  if U \in unitmx then Ok (ofcv (invmx (if trans then U^T else U) *m b))
  else Err LinAlgError.
Proof.
move=> tU; rewrite /solve_tri_v size_ofcv tri_checkP.
have -> : (U \in unitmx) = [forall i, U i i != 0].
  by case: (lower) tU => tU; [rewrite lotri_unit | rewrite uptri_unit].
case: ifP => [/forallP dU|] //=; congr Ok; rewrite -(tri_vecP trans b tU dU).
have bE l : (l < n)%N -> ev (ofcv b) l = mxe b l 0.
  by move=> ltl; rewrite (ev_ofcv_nat _ ltl) (mxe_ord _ ltl (ltn0Sn 0)); congr (b _ _); apply: val_inj.
rewrite /tri_vec nr_ofmx; case: ifP => _; first exact: eq_fsub.
congr rev; apply: eq_fsub => // l ltl; apply: bE.
by case: n ltl {U b tU dU} => // n _; rewrite ltnS leq_subr.
Qed.

End TriSolve.
