(** Correctness of the modelled Cholesky factorisation in exact arithmetic. *)
From mathcomp Require Import all_ssreflect all_algebra.
From mathcomp Require Import zify.
From Verif Require Import Base Arr Lapack Exact MxLib RingTac LapackSpec P_Pcg.
Set Implicit Arguments.
Unset Strict Implicit.
Unset Printing Implicit Defensive.
Import Order.TTheory GRing.Theory Num.Theory.
Local Open Scope ring_scope.

Section Chol.
Variable R : rcfType.
Local Notation ev := (@ev R (rcf_ops R)).
Local Notation el := (@el R (rcf_ops R)).

(** Invariant of the row-by-row factorisation. *)
Record chol_inv (A : arr R) (p : nat) (rows : seq (seq R)) : Prop := CholInv {
  ci_size : size rows = p;
  ci_diag : forall a, (a < p)%N -> 0 < ev (nth [::] rows a) a;
  ci_prod : forall a b, (b <= a)%N -> (a < p)%N ->
    \sum_(l < b.+1) ev (nth [::] rows a) l * ev (nth [::] rows b) l = el A a b }.

Lemma chol_rowsP A p rows : chol_rows A p = Some rows -> chol_inv A p rows.
Proof.
elim: p rows => [|i IH] rows /=; first by case=> <-; split.
case E: (chol_rows A i) => [rs|] //; have {}IH := IH _ E.
set row := fsub _ _ _; set piv := (_ - _)%R.
case: ifP => // piv0 [<-].
have srow : size row = i by rewrite size_fsub.
have old a : (a < i)%N -> nth [::] (rcons rs (rcons row (Num.sqrt piv))) a = nth [::] rs a.
  by move=> ai; rewrite nth_rcons (ci_size IH) ai.
have new : nth [::] (rcons rs (rcons row (Num.sqrt piv))) i = rcons row (Num.sqrt piv).
  by rewrite nth_rcons (ci_size IH) ltnn eqxx.
have evl l : (l < i)%N -> ev (rcons row (Num.sqrt piv)) l = ev row l.
  by move=> li; rewrite /ev nth_rcons srow li.
have evi : ev (rcons row (Num.sqrt piv)) i = Num.sqrt piv.
  by rewrite /ev nth_rcons srow ltnn eqxx.
split.
- by rewrite size_rcons (ci_size IH).
- move=> a; rewrite ltnS leq_eqVlt => /orP[/eqP->|ai]; last by rewrite old // (ci_diag IH).
  by rewrite new evi sqrtr_gt0.
move=> a b ba; rewrite ltnS leq_eqVlt => /orP[/eqP ai|ai]; last first.
  by rewrite !old ?(leq_ltn_trans ba) // (ci_prod IH).
subst a; move: ba; rewrite leq_eqVlt => /orP[/eqP->|bi].
  rewrite new big_ord_recr /= evi -expr2 sqr_sqrtr ?ltW //.
  rewrite (eq_bigr (fun l : 'I_i => ev row l ^+ 2)); last by move=> l _; rewrite evl // expr2.
  have sE : osum i (fun l => osq (ev row l)) = \sum_(l < i) ev row l ^+ 2.
    by rewrite osumE; apply: eq_bigr => l _; rewrite osqE.
  by rewrite /piv sE addrC subrK.
rewrite new old // big_ord_recr /= evl //.
have := @fsubS R (rcf_ops R) (fun a b => ev (nth [::] rs a) b) (fun j => el A i j) _ _ bi.
rewrite -/row osumE /= => ->; rewrite divfK ?gt_eqF ?(ci_diag IH) //.
rewrite addrC -addrA [X in _ + X](_ : _ = 0) ?addr0 //.
apply/eqP; rewrite addrC subr_eq0; apply/eqP; apply: eq_bigr => l _.
by rewrite evl ?(ltn_trans (ltn_ord l)) // mulrC.
Qed.

(** Success: the factor is lower triangular with positive diagonal. *)
Lemma choleskyP n (A : 'M[R]_n) X : A^T = A -> cholesky (ofmx A) = Ok X ->
  exists Lo : 'M[R]_n, [/\ X = ofmx Lo, lotri Lo, forall i, 0 < Lo i i & Lo *m Lo^T = A].
Proof.
move=> sA; rewrite /cholesky nr_ofmx nc_ofmx eqxx /=.
case E: (chol_rows _ _) => [rows|] // [<-]; have ci := chol_rowsP E.
pose Lo : 'M[R]_n := \matrix_(i, j) if (j <= i)%N then ev (nth [::] rows i) j else 0.
exists Lo; split.
- by apply: mk_eq_ofmx => i j; rewrite mxE.
- by move=> i j ij; rewrite mxE leqNgt ij.
- by move=> i; rewrite mxE leqnn (ci_diag ci).
have key (i j : 'I_n) : (j <= i)%N -> (Lo *m Lo^T) i j = A i j.
  move=> ji; rewrite mxE -(el_ofmx A) -(ci_prod ci ji (ltn_ord i)).
  rewrite (big_ord_widen n (fun l => ev (nth [::] rows i) l * ev (nth [::] rows j) l)) //.
  rewrite [RHS]big_mkcond; apply: eq_bigr => l _; rewrite !mxE ltnS.
  by case: (leqP l j) => lj; rewrite ?(leq_trans lj ji) ?mulr0.
apply/matrixP=> i j; case: (leqP j i) => ij; first exact: key.
have sL : (Lo *m Lo^T)^T = Lo *m Lo^T by rewrite trmx_mul trmxK.
by rewrite -sL mxE (key j i (ltnW ij)) -[A in RHS]sA mxE.
Qed.

(** ** Completeness: positive definite matrices are factored. *)
Lemma eq_chol_rows (A B : arr R) p : (forall a b, (a < p)%N -> (b <= a)%N -> el A a b = el B a b) ->
  chol_rows A p = chol_rows B p.
Proof.
elim: p => //= p IH H; rewrite IH; last by move=> a b ap ba; apply: H => //; rewrite ltnS ltnW.
case: (chol_rows B p) => // rs.
have -> : fsub (fun a b => ev (nth [::] rs a) b) (fun j => el A p j) p =
          fsub (fun a b => ev (nth [::] rs a) b) (fun j => el B p j) p.
  by apply: eq_fsub => // j jp; apply: H => //; exact: ltnW.
by rewrite H.
Qed.

Lemma chol_rows_spd n (A : 'M[R]_n) p : spd A -> (p <= n)%N ->
  exists rows, chol_rows (ofmx A) p = Some rows.
Proof.
move=> pA; elim: p => [|i IH] lt; first by exists [::].
have [rs E] := IH (ltnW lt); rewrite /= E.
set row := fsub _ _ _; set piv := (_ - _)%R.
suff piv0 : 0 < piv by rewrite piv0; eexists; reflexivity.
pose J := selmx R n 0 i; pose e := selmx R n i 1.
pose B := J^T *m A *m J; pose g := J^T *m A *m e.
have sB : B^T = B by rewrite /B !trmx_mul trmxK (proj1 pA) mulmxA.
pose o (a : 'I_i) : 'I_n := Ordinal (ltn_trans (ltn_ord a) lt).
have JA k (X : 'M[R]_(n, k)) a b : (J^T *m X) a b = X (o a) b.
  rewrite mxE (bigD1 (o a)) //= !mxE add0n eqxx mul1r big1 ?addr0 // => l.
  by rewrite -val_eqE /= !mxE add0n => /negbTE->; rewrite mul0r.
have AJ k (X : 'M[R]_(k, n)) a b : (X *m J) a b = X a (o b).
  by rewrite -[X *m J]trmxK trmx_mul mxE JA mxE.
have Ae k (X : 'M[R]_(k, n)) a : (X *m e) a 0 = X a (Ordinal lt).
  rewrite mxE (bigD1 (Ordinal lt)) //= !mxE addn0 eqxx mulr1 big1 ?addr0 // => l.
  by rewrite -val_eqE /= !mxE addn0 => /negbTE->; rewrite mulr0.
have eA k (X : 'M[R]_(n, k)) a : (e^T *m X) 0 a = X (Ordinal lt) a.
  by rewrite -[e^T *m X]trmxK trmx_mul trmxK mxE Ae mxE.
have BE a b (la : (a < i)%N) (lb : (b < i)%N) : el (ofmx B) a b = el (ofmx A) a b.
  rewrite (el_ofmx_nat _ la lb) (el_ofmx_nat _ (ltn_trans la lt) (ltn_trans lb lt)).
  by rewrite /B AJ JA; congr (A _ _); apply: val_inj.
have EB : chol_rows (ofmx B) i = Some rs.
  by rewrite -E; apply: eq_chol_rows => a b ai ba; rewrite BE // (leq_ltn_trans ba).
have cB : cholesky (ofmx B) =
    Ok (mk i i (fun a b => if (b <= a)%N then ev (nth [::] rs a) b else 0)).
  by rewrite /cholesky nr_ofmx nc_ofmx eqxx /= EB.
have [Lo [LE tL dL LL]] := choleskyP sB cB.
have LoE a b (la : (a < i)%N) (lb : (b <= a)%N) : mxe Lo a b = ev (nth [::] rs a) b.
  have lb' := leq_ltn_trans lb la.
  by rewrite (mxe_ord _ la lb') -el_ofmx -LE el_mk // lb.
have uL : Lo \in unitmx by rewrite lotri_unit //; apply/forallP => a; rewrite gt_eqF.
have rowE : row = ofcv (invmx Lo *m g).
  rewrite -fsubP //; last by move=> a; rewrite gt_eqF.
  apply: eq_fsub => [a b la lb|b lb]; first by rewrite LoE.
  rewrite (el_ofmx_nat _ lt (ltn_trans lb lt)) (mxe_ord _ lb (ltn0Sn 0)).
  rewrite (_ : Ordinal (ltn0Sn 0) = 0) ?ord1 // /g Ae JA -[A in LHS](proj1 pA) mxE.
  by congr (A _ _); apply: val_inj.
pose w := invmx Lo *m g; pose u := invmx Lo^T *m w; pose v := e - J *m u.
have uLt : Lo^T \in unitmx by rewrite unitmx_tr.
have ug : (u^T *m g) 0 0 = fro2 w.
  by rewrite fro2_cv /u trmx_mul trmx_inv trmxK -mulmxA.
have Bu : B *m u = g by rewrite -LL /u -mulmxA mulKVmx // /w mulKVmx.
clearbody u.
have pivE : piv = A (Ordinal lt) (Ordinal lt) - fro2 w.
  rewrite /piv -vsqE -/w -rowE (el_ofmx_nat _ lt lt) /vsq size_fsub //.
have add11 (X Y : 'M[R]_1) : (X + Y) 0 0 = X 0 0 + Y 0 0 by rewrite mxE.
have opp11 (X : 'M[R]_1) : (- X) 0 0 = - X 0 0 by rewrite mxE.
have v0 : v != 0.
  apply/eqP => /(congr1 (mulmx e^T)) /matrixP/(_ 0 0); rewrite mulmx0 mulmxBr.
  rewrite add11 opp11 !eA [e _ _]mxE /= addn0 eqxx.
  rewrite [(J *m u) _ _]mxE big1 ?subr0 ?mxE => [|l _]; last first.
    by rewrite mxE add0n /= (gtn_eqF (ltn_ord l)) mul0r.
  by move/eqP; rewrite oner_eq0.
have vAv : (v^T *m A *m v) 0 0 = piv.
  have gE : e^T *m A *m J = g^T by rewrite /g !trmx_mul trmxK (proj1 pA) mulmxA.
  have -> : v^T *m A *m v = e^T *m A *m e - g^T *m u.
    rewrite /v [(e - _)^T]linearB /= trmx_mul !mulmxBl !mulmxBr !mulmxA.
    have -> : u^T *m J^T *m A *m e = u^T *m g by rewrite /g !mulmxA.
    have -> : u^T *m J^T *m A *m J *m u = u^T *m g by rewrite -Bu /B !mulmxA.
    by rewrite gE subrr subr0.
  rewrite add11 opp11 -[(g^T *m u)]trmxK trmx_mul trmxK [X in _ - X]mxE ug pivE.
  by rewrite Ae eA.
by rewrite -vAv; exact: (proj2 pA).
Qed.

Lemma cholesky_spd n (A : 'M[R]_n) : spd A ->
  exists Lo : 'M[R]_n, [/\ cholesky (ofmx A) = Ok (ofmx Lo), lotri Lo, forall i, 0 < Lo i i & Lo *m Lo^T = A].
Proof.
move=> pA; have [rows E] := chol_rows_spd pA (leqnn n).
have cE : exists X, cholesky (ofmx A) = Ok X.
  by rewrite /cholesky nr_ofmx nc_ofmx eqxx /= E; eexists.
have [X {}cE] := cE; have [Lo [XE tL dL LL]] := choleskyP (proj1 pA) cE.
by exists Lo; rewrite cE XE.
Qed.

(** The only failure is [LinAlgError]. *)
Lemma cholesky_err n (A : 'M[R]_n) e : cholesky (ofmx A) = Err e -> e = LinAlgError /\ ~ spd A.
Proof.
move=> E; split; last by move=> /cholesky_spd[Lo []]; rewrite E.
by move: E; rewrite /cholesky nr_ofmx nc_ofmx eqxx /=; case: (chol_rows _ _) => // -[<-].
Qed.

End Chol.
