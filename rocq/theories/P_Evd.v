(** Proofs about the symmetric eigenvalue decompositions (evd.py). *)
From mathcomp Require Import all_ssreflect all_algebra.
From mathcomp Require Import zify.
From Verif Require Import Base Arr Lapack Exact MxLib RingTac LapackSpec LapackExists Rng Aware RangeFinders QB.
From Verif Require Import P_RS1 P_QB2 P_RF P_QBx P_QBfin P_Pcg Chol P_Svd Sel SvdEvd P_SvdEvd P_Svd1.
Set Implicit Arguments.
Unset Strict Implicit.
Unset Printing Implicit Defensive.
Import Order.TTheory GRing.Theory Num.Theory.
Local Open Scope ring_scope.

(** What [np.argsort] delivers: a permutation of the positions that puts the
    entries in non-decreasing order (ties in any order). *)
Definition argsort_spec (R : rcfType) (asort : seq R -> seq nat) : Prop :=
  forall v, perm_eq (asort v) (iota 0 (size v)) /\
  forall i j, (i <= j)%N -> (j < size v)%N ->
    nth 0 v (nth 0%N (asort v) i) <= nth 0 v (nth 0%N (asort v) j).

Section Evd1.
Variables (R : rcfType) (G : Type) (L : lapack R) (asort : seq R -> seq nat).
Hypotheses (eighL : eigh_spec L) (asP : argsort_spec asort).

Lemma half_tolE (tol : option R) : half_tol tol = omap (fun t => t / 2%:R) tol.
Proof. by rewrite /half_tol; case: tol => // t; rewrite /omap /obind /oapp onatE. Qed.

Lemma EVD1P (qb : qbdec) n c (A : 'M[R]_n) (k : int) tol (over : int) (s s1 : st G R)
    (Q : 'M[R]_(n, c)) :
  A^T = A -> 0 < k <= n%:Z -> (if tol is Some t then 0 <= t else true) -> (0 < c)%N ->
  orthonormal Q ->
  qb (ofmx A) (k + over) (omap (fun t => t / 2%:R) tol) s = (s1, inr (ofmx Q, ofmx (Q^T *m A))) ->
  exists (W : 'M[R]_c) (w : 'cV[R]_c) r,
    [/\ EVD1 L asort qb (ofmx A) k tol over s = (s1, inr (ofmx (Q *m colblk W 0 r), ofcv (topv w r))),
        orthonormal W, Q^T *m A *m Q = W *m diag_mx w^T *m W^T,
        forall i j : 'I_c, (i <= j)%N -> `|w j 0| <= `|w i 0| &
        r = minn (absz k) (minn c r) /\
        forall i : 'I_c, (i < absz k)%N -> (i < r)%N = (cut R < `|w i 0|)].
Proof.
move=> sA /andP[k0 kn] tolP c0 oQ E.
have n0 : (0 < n)%N by lia.
rewrite /EVD1 k0 bind_passertT nr_ofmx nc_ofmx minnn kn bind_passertT.
have Et f : bind (if tol is Some t then passert (o0 <= t)%O else ret tt) f s = f tt s :> st G R * res (arr R * seq R).
  by case: tol tolP {E} => //= t t0; rewrite t0.
rewrite Et half_tolE (bindE _ E) mmulE bind_liftE.
have sC : (Q^T *m A *m Q)^T = Q^T *m A *m Q by rewrite trmx_mul trmx_mul trmxK sA mulmxA.
have [lam [U [El oU CE _]]] := eighL c0 sC.
rewrite El bind_liftE; lazy zeta; rewrite [_.1]/= [(ofcv lam, _).2]/=.
set alamb := map _ (ofcv lam).
set v := map _ alamb.
have sv : size v = c by rewrite 2!size_map size_ofcv.
have [pJ oJ] := asP v; rewrite sv in pJ oJ; set J := asort v in pJ oJ *.
have sJ : size J = c by rewrite (perm_size pJ) size_iota.
have iJ := inb_perm pJ; have uJ := uniq_perm_iota pJ.
have vE i (lt : (i < c)%N) : nth 0 v i = - `|lam (Ordinal lt) 0|.
  have sa : size alamb = c by rewrite size_map size_ofcv.
  rewrite /v (nth_map 0) ?sa // /alamb (nth_map 0) ?size_ofcv // !oabsE normr_id.
  by rewrite (nth_ofcv _ lt) /= mulN1r.
pose S : 'M[R]_c := colsel 1%:M J c.
have oS : orthonormal S by apply: selP => //; rewrite sJ.
have SS : S *m S^T = 1%:M := orthonormal_sq oS.
pose w : 'cV[R]_c := rowsel lam J c.
have wE (i : 'I_c) (lt : (nth 0%N J i < c)%N) : w i 0 = lam (Ordinal lt) 0.
  by rewrite mxE (mxe_ord _ lt (ltn0Sn 0)); congr (lam _ _); apply: val_inj.
have lJ (i : 'I_c) : (nth 0%N J i < c)%N by apply: inb_nth => //; rewrite sJ.
have dS : diag_mx lam^T *m S = S *m diag_mx w^T.
  apply/matrixP=> i j; rewrite mul_diag_mx mul_mx_diag !mxE (mxe_ord _ (ltn_ord i) (lJ j)) mxE mulrC.
  rewrite -val_eqE /=; case: eqP => [e|]; rewrite ?mul0r // !mul1r.
  rewrite (mxe_ord _ (lJ j) (ltn0Sn 0)); congr (lam _ _); apply: val_inj => //.
have wd (i j : 'I_c) : (i <= j)%N -> `|w j 0| <= `|w i 0|.
  move=> ij; have := oJ _ _ ij (ltn_ord j).
  by rewrite (vE _ (lJ i)) (vE _ (lJ j)) ler_opp2 -!wE.
pose P (x : R) := (cut R < `|x|).
have cntE : count (fun x => (cut10 < x)%O) alamb = count (fun x => cut R < x) [seq `|x| | x <- ofcv w].
  rewrite cut10E [LHS]count_map [RHS]count_map.
  have -> : ofcv w = [seq nth 0 (ofcv lam) i | i <- J].
    apply: (@eq_from_nth _ 0); first by rewrite size_map size_ofcv.
    move=> i; rewrite size_ofcv => ic; rewrite (nth_map 0%N) ?sJ //.
    have lt := lJ (Ordinal ic); rewrite (nth_ofcv _ ic) (nth_ofcv _ lt) (@wE (Ordinal ic) lt).
    by congr (lam _ _); apply: val_inj.
  rewrite [RHS]count_map (permP pJ).
  have e : mkseq (nth 0 (ofcv lam)) c = ofcv lam by rewrite -[RHS](mkseq_nth 0) size_ofcv.
  rewrite -{1}e [LHS]count_map; apply: eq_count => i /=; by rewrite oabsE.
set cn := count _ alamb.
set rr := minn _ _; rewrite nc_ofmx in rr *.
have rc : (rr <= c)%N by rewrite /rr; lia.
have rk : (rr <= absz k)%N by rewrite /rr; lia.
have sI : size (take rr J) = rr by rewrite size_takel // sJ.
have iI := inb_take rr iJ.
exists (U *m S), w, rr; split=> //.
- rewrite cidxE // bind_liftE vidxE // bind_liftE mmulE bind_liftE sI.
  rewrite colsel_take // rowsel_take // -mul_colblk colblkE /S.
  rewrite /ret; congr (_, inr _).
  have -> : rowsel lam J rr = topv w rr.
    by apply/colP=> i; rewrite !mxE add0n (mxe_ord w (leq_trans (ltn_ord i) rc) (ltn0Sn 0)) mxE.
  rewrite colsel1E -colblkE (_ : colblk (colsel _ _ _) _ _ = colsel (1%:M : 'M[R]_c) J rr) //.
  apply/matrixP=> i j; rewrite !mxE add0n.
  by rewrite (mxe_ord (colsel _ _ _) (ltn_ord i) (leq_trans (ltn_ord j) rc)) mxE.
- exact: orthonormalM.
- by rewrite trmx_mul -(mulmxA U) -dS !mulmxA -(mulmxA _ S) SS mulmx1 CE.
split; first by rewrite /rr; lia.
move=> i ik.
have cnc : (cn <= c)%N by rewrite /cn (leq_trans (count_size _ _)) // size_map size_ofcv.
have -> : (i < rr)%N = (i < cn)%N by rewrite /rr; have := ltn_ord i; lia.
have sw : size [seq `|x| | x <- ofcv w] = c by rewrite [size _]size_map size_ofcv.
rewrite /cn cntE count_mono ?sw //; last first.
- move=> a b ab bc.
  rewrite !(nth_map 0) ?size_ofcv ?(leq_ltn_trans ab bc) //.
  rewrite (nth_ofcv _ bc) (nth_ofcv _ (leq_ltn_trans ab bc)); exact: wd.
- by move=> x y xy /lt_le_trans; apply.
by rewrite (nth_map 0) ?size_ofcv // (nth_ofcv _ (ltn_ord i)); congr (_ < `|w _ _|); apply: val_inj.
Qed.

End Evd1.

Section Evd1Forms.
Variables (R : rcfType) (G : Type) (L : lapack R) (asort : seq R -> seq nat).
Hypotheses (eighL : eigh_spec L) (asP : argsort_spec asort).

Lemma fro2_mulQt m n c (Q : 'M[R]_(m, c)) (X : 'M[R]_(m, n)) :
  orthonormal Q -> fro2 (Q^T *m X) <= fro2 X.
Proof. by move=> oQ; rewrite -subr_ge0 -fro2_resid // fro2_ge0. Qed.

(** Projecting a symmetric matrix from both sides at most doubles the error. *)
Lemma two_sided n c (A : 'M[R]_n) (Q : 'M[R]_(n, c)) : A^T = A -> orthonormal Q ->
  fro (A - Q *m (Q^T *m A *m Q) *m Q^T) <= 2%:R * fro (A - Q *m (Q^T *m A)).
Proof.
move=> sA oQ; set X := A - Q *m (Q^T *m A).
have -> : A - Q *m (Q^T *m A *m Q) *m Q^T = X + Q *m (Q^T *m X^T).
  rewrite /X linearB /= trmx_mul trmx_mul trmxK sA -!mulmxA !mulmxBr !mulmxA.
  by rewrite addrA addrNK -!mulmxA.
apply: le_trans (ler_froD _ _) _; rewrite mulr_natl mulr2n ler_add2l.
rewrite fro_le // fro2_ortho //; apply: le_trans (fro2_mulQt _ oQ) _.
by rewrite fro2_trmx.
Qed.

Lemma two_sided_sq n c (A : 'M[R]_n) (Q : 'M[R]_(n, c)) : A^T = A -> orthonormal Q ->
  fro2 (A - Q *m (Q^T *m A *m Q) *m Q^T) = fro2 A - fro2 (Q^T *m A *m Q).
Proof.
move=> sA oQ; set C := Q^T *m A *m Q; rewrite fro2B.
have -> : fro2 (Q *m C *m Q^T) = fro2 C.
  by rewrite -mulmxA fro2_ortho // -fro2_trmx trmx_mul trmxK fro2_ortho // fro2_trmx.
have -> : fip A (Q *m C *m Q^T) = fro2 C.
  have sC : C^T = C by rewrite /C trmx_mul trmx_mul trmxK sA mulmxA.
  by rewrite /fip sA !mulmxA mxtrace_mulC !mulmxA fro2_tr' sC [in RHS]/C !mulmxA.
by rewrite mulr_natl mulr2n opprD addrA addrNK.
Qed.

Lemma EVD1_form (qb : qbdec) n c (A : 'M[R]_n) (k : int) tol (over : int) (s s1 : st G R)
    (Q : 'M[R]_(n, c)) :
  A^T = A -> 0 < k <= n%:Z -> (if tol is Some t then 0 <= t else true) -> (0 < c)%N ->
  orthonormal Q ->
  qb (ofmx A) (k + over) (omap (fun t => t / 2%:R) tol) s = (s1, inr (ofmx Q, ofmx (Q^T *m A))) ->
  exists r (V : 'M[R]_(n, r)) (lam : 'cV[R]_r),
    [/\ EVD1 L asort qb (ofmx A) k tol over s = (s1, inr (ofmx V, ofcv lam)),
        (r <= minn (absz k) c)%N,
        [/\ orthonormal V, V^T *m A *m V = diag_mx lam^T,
            (exists X, V = Q *m X) & Q^T *m (A *m V - V *m diag_mx lam^T) = 0],
        (forall i, 10%:R * 2%:R ^- 52 < `|lam i 0|) /\
        (forall i j : 'I_r, (i <= j)%N -> `|lam j 0| <= `|lam i 0|) &
        [/\ fro2 (A - V *m diag_mx lam^T *m V^T) = fro2 A - fro2 lam,
            (r < absz k)%N -> fro2 (Q^T *m A *m Q) - fro2 lam <= c%:R * (10%:R * 2%:R ^- 52) ^+ 2 &
            r = c -> fro2 (Q^T *m A *m Q) = fro2 lam]].
Proof.
move=> sA kk tolP c0 oQ E.
have [W [w [r [E1 oW CE wd [rE h]]]]] := EVD1P eighL asP sA kk tolP c0 oQ E.
have [k0 kn] := andP kk.
have rc : (r <= c)%N by lia.
have rk : (r <= absz k)%N by lia.
exists r, (Q *m colblk W 0 r), (topv w r).
have oV : orthonormal (Q *m colblk W 0 r) by apply: orthonormalM => //; apply: orthonormal_colblk.
have WtC : W^T *m (Q^T *m A *m Q) *m W = diag_mx w^T.
  by rewrite CE !mulmxA oW mul1mx -mulmxA oW mulmx1.
have CW : Q^T *m A *m Q *m W = W *m diag_mx w^T by rewrite CE -mulmxA oW mulmx1.
have core : (Q *m colblk W 0 r)^T *m A *m (Q *m colblk W 0 r) = diag_mx (topv w r)^T.
  rewrite colblkE trmx_mul [(W *m _)^T]trmx_mul -!mulmxA.
  rewrite (_ : W^T *m _ = diag_mx w^T *m selmx R c 0 r); last by rewrite -WtC !mulmxA.
  by rewrite diag_selmx // mulmxA selmxP // mul1mx.
have Cw : fro2 (Q^T *m A *m Q) = fro2 w.
  by rewrite CE -mulmxA fro2_ortho // -fro2_trmx trmx_mul trmxK fro2_ortho // fro2_trmx fro2_diag.
split=> //; first by rewrite leq_min rk rc.
- split=> //; first by exists (colblk W 0 r).
  by rewrite mulmxBr colblkE !mulmxA oQ mul1mx CW -[X in X - _]mulmxA diag_selmx // mulmxA subrr.
- split.
    move=> i; have lt := leq_trans (ltn_ord i) rc.
    by rewrite (topvE _ lt) -/(cut R) -(h (Ordinal lt)) //= (leq_trans _ rk).
  by move=> i j ij; rewrite !(topvE _ (leq_trans (ltn_ord _) rc)) wd.
split.
- exact: core_error.
- move=> rlt; rewrite Cw; apply: fro2_topv_drop => // i ri.
  case: (ltnP i (absz k)) => ik.
    by have := h i ik; rewrite ltnNge ri /= => /esym/negbT; rewrite -leNgt.
  have rlt' : (r < c)%N := leq_ltn_trans ri (ltn_ord i).
  have := h (Ordinal rlt') rlt; rewrite /= ltnn => /esym/negbT; rewrite -leNgt.
  by apply: le_trans; apply: wd.
by move=> rE'; rewrite Cw; rewrite rE' /topv rowblk_full.
Qed.

End Evd1Forms.
