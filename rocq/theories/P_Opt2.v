(** Accuracy of the decompositions relative to the best possible. *)
From mathcomp Require Import all_ssreflect all_algebra.
From mathcomp Require Import zify.
From Verif Require Import Base Arr Lapack Exact MxLib RingTac LapackSpec LapackExists Rng Aware RangeFinders QB.
From Verif Require Import P_RS1 P_QB2 P_RF P_QB3 P_QBx P_QBfin P_Pcg Chol P_Svd Sel SvdEvd P_SvdEvd P_Svd1 P_Evd.
From Verif Require Import P_Opt.
Set Implicit Arguments.
Unset Strict Implicit.
Unset Printing Implicit Defensive.
Import Order.TTheory GRing.Theory Num.Theory.
Local Open Scope ring_scope.

Section Opt2.
Variable R : rcfType.
Add Field opt2_field : (rcf_field R).

(** ** Operator bounds, column by column *)

Lemma fro2_colsum m n (X : 'M[R]_(m, n)) : fro2 X = \sum_j fro2 (col j X).
Proof.
rewrite /fro2 exchange_big; apply: eq_bigr => j _; apply: eq_bigr => i _.
by rewrite big_ord1 mxE.
Qed.

Lemma fro2_mul_col m n p (M : 'M[R]_(m, n)) s (X : 'M[R]_(n, p)) :
  (forall v : 'cV[R]_n, fro2 (M *m v) <= s * fro2 v) -> fro2 (M *m X) <= s * fro2 X.
Proof.
move=> H; rewrite !fro2_colsum mulr_sumr; apply: ler_sum => j _.
by rewrite colE -mulmxA -colE.
Qed.

Lemma CSv n (x y : 'cV[R]_n) : ((x^T *m y) 0 0) ^+ 2 <= fro2 x * fro2 y.
Proof. by have := fip_le x y; rewrite /fip /mxtrace big_ord1. Qed.

Lemma fro2_mulv m n (M : 'M[R]_(m, n)) (v : 'cV[R]_n) : fro2 (M *m v) <= fro2 M * fro2 v.
Proof.
rewrite fro2_sum /fro2 mulr_suml; apply: ler_sum => i _.
have := CSv (row i M)^T v; rewrite trmxK -row_mul mxE => /le_trans; apply.
by rewrite ler_wpmul2r ?fro2_ge0 // fro2_trmx /fro2 big_ord1; apply: ler_sum => j _; rewrite mxE.
Qed.

(** A bound on [M] bounds its transpose. *)
Lemma tr_bound m n (M : 'M[R]_(m, n)) s : 0 <= s ->
  (forall v : 'cV[R]_n, fro2 (M *m v) <= s * fro2 v) ->
  forall w : 'cV[R]_m, fro2 (M^T *m w) <= s * fro2 w.
Proof.
move=> s0 H w; set a := fro2 _.
have [a0|a0] := eqVneq a 0; first by rewrite a0 mulr_ge0 ?fro2_ge0.
have ap : 0 < a by rewrite lt_neqAle eq_sym a0 fro2_ge0.
have aE : a = (w^T *m (M *m (M^T *m w))) 0 0.
  by rewrite /a fro2_cv trmx_mul trmxK !mulmxA.
have := CSv w (M *m (M^T *m w)); rewrite -aE expr2.
move=> /le_trans/(_ (ler_wpmul2l (fro2_ge0 w) (H (M^T *m w)))).
by rewrite -/a mulrCA mulrA ler_pmul2r // mulrC.
Qed.

(** ** Power iterations *)

Lemma power_bound m n k r q (A : 'M[R]_(m, n)) (K0 : 'M[R]_(n, k)) (V : 'M[R]_(n, r)) (D : 'M[R]_r)
    (W0 : 'M[R]_(k, r)) (sg tau : R) :
  orthonormal V -> A^T *m (A *m V) = V *m D -> V^T *m K0 *m W0 = 1%:M ->
  let E := A - A *m V *m V^T in
  (forall v : 'cV[R]_n, fro2 (E *m v) <= sg ^+ 2 * fro2 v) -> 0 < tau ->
  (forall y : 'cV[R]_r, tau ^+ 2 * fro2 y <= fro2 (A *m V *m y)) ->
  let K := iter q (fun Y => A^T *m (A *m Y)) K0 in
  exists Z : 'M[R]_(k, r), V^T *m K *m Z = 1%:M /\
    fro2 (E *m K *m Z) <= (sg / tau) ^+ (4 * q) * fro2 (E *m K0 *m W0).
Proof.
move=> oV VD VW; cbv zeta; set E := A - _; set K := iter _ _ _ => Es t0 At.
have sD : D^T = D.
  have -> : D = V^T *m (A^T *m (A *m V)) by rewrite VD mulmxA oV mul1mx.
  by rewrite !trmx_mul !trmxK !mulmxA.
have VN (X : 'M[R]_(n, k)) : V^T *m (A^T *m (A *m X)) = D *m (V^T *m X).
  have -> : D *m (V^T *m X) = (V *m D)^T *m X by rewrite trmx_mul sD mulmxA.
  by rewrite -VD !trmx_mul trmxK !mulmxA.
have Dq (y : 'cV[R]_r) : (y^T *m (D *m y)) 0 0 = fro2 (A *m V *m y).
  have -> : D = V^T *m (A^T *m (A *m V)) by rewrite VD mulmxA oV mul1mx.
  by rewrite fro2_cv !trmx_mul !mulmxA.
have uD : D \in unitmx.
  rewrite -row_full_unit; apply/eqP; rewrite -mxrank_tr sD; apply: inj_full_col => y Dy.
  have := At y; rewrite -Dq Dy mulmx0 mxE pmulr_rle0 ?exprn_gt0 // => le.
  by apply/eqP; rewrite -fro2_eq0 eq_le le fro2_ge0.
have iD p (Z : 'M[R]_(p, r)) : fro2 (Z *m invmx D) <= tau ^- 4 * fro2 Z.
  rewrite -fro2_trmx trmx_mul trmx_inv sD -[fro2 Z]fro2_trmx; apply: fro2_mul_col => z.
  set y := invmx D *m z; have zE : z = D *m y by rewrite /y mulKVmx.
  have := At y; rewrite -Dq -zE => h.
  have [y0|y0] := eqVneq (fro2 y) 0; first by rewrite y0 mulr_ge0 ?fro2_ge0 // invr_ge0 exprn_ge0 ?ltW.
  have yp : 0 < fro2 y by rewrite lt_neqAle eq_sym y0 fro2_ge0.
  have h0 : 0 <= tau ^+ 2 * fro2 y by rewrite mulr_ge0 ?sqr_ge0 ?fro2_ge0.
  have := CSv y z; move: h; set f := (_ 0 0) => h cs.
  have : (tau ^+ 2 * fro2 y) ^+ 2 <= f ^+ 2 by rewrite ler_pexpn2r ?nnegrE // (le_trans h0).
  move=> /le_trans/(_ cs); rewrite exprMn -exprM (expr2 (fro2 y)) mulrCA ler_pmul2l //.
  by rewrite [_^-1 * _]mulrC ler_pdivl_mulr ?exprn_gt0 // mulrC.
have EN (X : 'M[R]_(n, k)) : E *m (A^T *m (A *m X)) = E *m (E^T *m (E *m X)).
  have EV : E *m V = 0 by rewrite mulmxBl -!mulmxA oV mulmx1 subrr.
  have AE : A = A *m V *m V^T + E by rewrite addrC subrK.
  have -> : E *m (E^T *m (E *m X)) = E *m (A^T *m (E *m X)).
    have AtE : A^T = V *m (A *m V)^T + E^T by rewrite {1}AE linearD /= trmx_mul trmxK.
    by rewrite AtE mulmxDl mulmxDr -[V *m _ *m _]mulmxA [E *m (V *m _)]mulmxA EV mul0mx add0r.
  have -> : E *m X = A *m X - A *m V *m (V^T *m X) by rewrite mulmxBl !mulmxA.
  rewrite !mulmxBr -[A *m V *m _]mulmxA [A^T *m (A *m (V *m _))]mulmxA.
  have -> : A^T *m A *m (V *m (V^T *m X)) = V *m (D *m (V^T *m X)).
    by rewrite [LHS]mulmxA -[A^T *m A *m V]mulmxA VD -mulmxA.
  by rewrite [E *m (V *m _)]mulmxA EV mul0mx subr0.
have EE p (X : 'M[R]_(n, p)) : fro2 (E *m (E^T *m (E *m X))) <= sg ^+ 4 * fro2 (E *m X).
  have -> : sg ^+ 4 = sg ^+ 2 * sg ^+ 2 by rewrite -exprD.
  apply: le_trans (fro2_mul_col _ Es) _; rewrite -mulrA ler_wpmul2l ?sqr_ge0 //.
  by apply: fro2_mul_col => w; apply: tr_bound => //; exact: sqr_ge0.
rewrite {}/K; elim: q => [|q [Z [ZE Zb]]] /=.
  by exists W0; rewrite muln0 expr0 mul1r.
exists (Z *m invmx D); split.
  by rewrite VN -[LHS]mulmxA [V^T *m _ *m (Z *m _)]mulmxA ZE mul1mx mulmxV.
rewrite mulmxA; apply: le_trans (iD _ _) _; rewrite EN -!mulmxA.
apply: le_trans (ler_wpmul2l _ (EE _ _)) _; first by rewrite invr_ge0 exprn_ge0 // ltW.
rewrite mulmxA mulrA.
have -> : tau ^- 4 * sg ^+ 4 = (sg / tau) ^+ 4 by rewrite exprMn exprVn mulrC.
rewrite mulnS exprD -[X in _ <= X]mulrA; apply: ler_wpmul2l; first exact: exprn_even_ge0.
by move: Zb; rewrite !mulmxA.
Qed.

(** ** Dropped entries *)

Lemma topv_tail q (s : 'cV[R]_q) e : (e <= q)%N ->
  fro2 s - fro2 (topv s e) = \sum_(i < q | (e <= i)%N) s i 0 ^+ 2.
Proof.
move=> eq; rewrite !fro2_sum (bigID (fun i : 'I_q => (i < e)%N)) /=.
have -> : \sum_(i < q | (i < e)%N) s i 0 ^+ 2 = \sum_i topv s e i 0 ^+ 2.
  have -> : \sum_(i < q | (i < e)%N) s i 0 ^+ 2 = \sum_(i < q | (i < e)%N) mxe s i 0 ^+ 2.
    by apply: eq_bigr => i _; rewrite (mxeE s i 0).
  rewrite -(big_ord_widen q (fun i => mxe s i 0 ^+ 2) eq); apply: eq_bigr => i _.
  by rewrite mxE add0n.
by rewrite addrC addKr; apply: eq_bigl => i; rewrite -leqNgt.
Qed.

Lemma tail_le q (s : 'cV[R]_q) e k t :
  (forall i : 'I_q, (e <= i < k)%N -> s i 0 ^+ 2 <= t) -> 0 <= t ->
  \sum_(i < q | (e <= i)%N) s i 0 ^+ 2 <= \sum_(i < q | (k <= i)%N) s i 0 ^+ 2 + q%:R * t.
Proof.
move=> H t0; rewrite (bigID (fun i : 'I_q => (k <= i)%N)) /=; apply: ler_add.
  rewrite [X in _ <= X](bigID (fun i : 'I_q => (e <= i)%N)) /=.
  rewrite (eq_bigl (fun i : 'I_q => (k <= i)%N && (e <= i)%N)); last by move=> i; rewrite andbC.
  by rewrite ler_addl sumr_ge0 // => i _; exact: sqr_ge0.
rewrite mulr_natl -[X in _ <= _ *+ X](card_ord q) -sumr_const.
rewrite [X in _ <= X](bigID (fun i : 'I_q => (e <= i)%N && ~~ (k <= i)%N)) /=.
apply: le_trans (_ : \sum_(i < q | (e <= i)%N && ~~ (k <= i)%N) t <= _); last first.
  by rewrite ler_addl sumr_ge0.
by apply: ler_sum => i; rewrite -ltnNge => /H.
Qed.

(** ** Singular values of [B = Q'A] against those of [A] *)

Lemma mulv_split m n c (Q : 'M[R]_(m, c)) (A : 'M[R]_(m, n)) (v : 'cV[R]_n) : orthonormal Q ->
  fro2 (A *m v) = fro2 (Q^T *m A *m v) + fro2 ((A - Q *m (Q^T *m A)) *m v).
Proof.
move=> oQ; have -> : (A - Q *m (Q^T *m A)) *m v = A *m v - Q *m (Q^T *m (A *m v)).
  by rewrite mulmxBl !mulmxA.
by rewrite fro2_resid // -!mulmxA addrC subrK.
Qed.

Lemma ortho1 n : orthonormal (1%:M : 'M[R]_n).
Proof. by rewrite /orthonormal trmx1 mul1mx. Qed.

Lemma svd_abs_sort c n q (B : 'M[R]_(c, n)) U sg Vh : @is_svd R c n q B U sg Vh ->
  forall i j : 'I_q, (i <= j)%N -> `|sg j 0| <= `|sg i 0|.
Proof. by move=> sv i j ij; rewrite !ger0_norm ?(sv_ge0 sv) //; exact: sv_sort sv _ _ ij. Qed.

Lemma sv_lower m n c q q' (Q : 'M[R]_(m, c)) (A : 'M[R]_(m, n)) U sg Vh U' t Vh' (i : 'I_q) (j : 'I_q') :
  orthonormal Q -> @is_svd R c n q (Q^T *m A) U sg Vh -> @is_svd R m n q' A U' t Vh' ->
  i = j :> nat -> sg i 0 <= t j 0.
Proof.
move=> oQ sv sA ij; rewrite -(@ler_pexpn2r _ 2) ?nnegrE ?(sv_ge0 sv) ?(sv_ge0 sA) // -[X in _ <= X]addr0.
apply: (sv_compare (t := t) (sv_U sv) (sv_V sv) (svd_abs_sort sv) (sv_U sA) (sv_V sA) (ortho1 n) (sqr_ge0 _)).
  move=> l il; rewrite ler_pexpn2r ?nnegrE ?(sv_ge0 sA) //; apply: (sv_sort sA); by rewrite -ij.
move=> v; rewrite mul0r addr0 mul1mx -(sv_eq sv) -(sv_eq sA) (mulv_split A v oQ).
by rewrite ler_addl fro2_ge0.
Qed.

Lemma sv_upper m n c q q' (Q : 'M[R]_(m, c)) (A : 'M[R]_(m, n)) U sg Vh U' t Vh' tau (j : 'I_q') :
  orthonormal Q -> @is_svd R c n q (Q^T *m A) U sg Vh -> @is_svd R m n q' A U' t Vh' ->
  0 <= tau -> (forall i : 'I_q, (j <= i)%N -> sg i 0 ^+ 2 <= tau) ->
  t j 0 ^+ 2 <= tau + fro2 (A - Q *m (Q^T *m A)).
Proof.
move=> oQ sv sA tau0 H.
apply: (sv_compare (t := sg) (sv_U sA) (sv_V sA) (svd_abs_sort sA) (sv_U sv) (sv_V sv) (ortho1 n) tau0 H).
move=> v; rewrite mul1mx -(sv_eq sv) -(sv_eq sA) (mulv_split A v oQ).
by rewrite ler_add2l fro2_mulv.
Qed.

End Opt2.

Section Dec.
Variables (R : rcfType) (G : Type) (L : lapack R).
Add Field opt2d_field : (rcf_field R).

(** SVD1 against the best approximation of the requested rank. *)
Lemma svd1_best (qb : qbdec) m n c (A : 'M[R]_(m, n)) (k : int) tol (over : int) (s s1 : st G R)
    (Q : 'M[R]_(m, c)) :
  svd_spec L -> (0 < c)%N -> (0 < n)%N -> 0 <= k -> orthonormal Q ->
  qb (ofmx A) (k + over) tol s = (s1, inr (ofmx Q, ofmx (Q^T *m A))) ->
  exists e (U : 'M[R]_(m, e)) (sg : 'cV[R]_e) (Vh : 'M[R]_(e, n)),
    [/\ SVD1 L qb (ofmx A) k tol over s = (s1, inr (ofmx U, ofcv sg, ofmx Vh)),
        forall X : 'M[R]_(m, n), (\rank X <= absz k)%N ->
          fro2 (A - U *m diag_mx sg^T *m Vh) <=
          fro2 (A - Q *m (Q^T *m A)) + fro2 (A - X) + (minn c n)%:R * (10%:R * 2%:R ^- 52) ^+ 2 &
        forall q (U' : 'M[R]_(m, q)) (t : 'cV[R]_q) (Vh' : 'M[R]_(q, n)),
          A = U' *m diag_mx t^T *m Vh' -> orthonormal U' -> orthonormal Vh'^T ->
          (forall j, 0 <= t j 0) -> (forall i j : 'I_q, (i <= j)%N -> t j 0 <= t i 0) ->
          (forall (i : 'I_e) (j : 'I_q), i = j :> nat ->
             sg i 0 <= t j 0 /\ t j 0 ^+ 2 <= sg i 0 ^+ 2 + fro2 (A - Q *m (Q^T *m A))) /\
          (forall j : 'I_q, (e <= j)%N -> (0 < over -> (j < absz k)%N) ->
             t j 0 ^+ 2 <= (10%:R * 2%:R ^- 52) ^+ 2 + fro2 (A - Q *m (Q^T *m A)))].
Proof.
move=> svdL c0 n0 k0 oQ E.
have [U [sg [Vh [e [E1 sv le h]]]]] := SVD1P svdL c0 n0 E.
have eq := leq_trans le (svd_top_le _ _ _).
have topE i : (i < minn c n)%N -> (i < svd_top k over (minn c n))%N = ((0 < over) ==> (i < absz k)%N).
  move=> iq; rewrite /svd_top; case: (0 < over) => //=.
  by case: k k0 {E E1 le h} => // k' _; rewrite minEle; case: ifP => /= h; move: h iq; clear; lia.
have small (i : 'I_(minn c n)) : (e <= i)%N -> (0 < over -> (i < absz k)%N) -> sg i 0 ^+ 2 <= cut R ^+ 2.
  move=> ei o; rewrite ler_pexpn2r ?nnegrE ?(sv_ge0 sv) ?(ltW (cut_gt0 R)) // ltW // ltNge -h.
    by rewrite -leqNgt.
  by rewrite topE //; apply/implyP.
exists e, (Q *m colblk U 0 e), (topv sg e), (rowblk Vh 0 e); split=> //.
  move=> X rX; have [_ _ _ ->] := svd_trunc sv eq oQ erefl.
  have -> : fro2 A - fro2 (topv sg e) = fro2 (A - Q *m (Q^T *m A)) + (fro2 sg - fro2 (topv sg e)).
    by rewrite fro2_resid // (fro2_svd sv) addrA subrK.
  rewrite -addrA ler_add2l topv_tail // -/(cut R).
  apply: le_trans (tail_le (k := absz k) (t := cut R ^+ 2) _ _) _; last 1 first.
  - rewrite ler_add2r; apply: le_trans (fro2_mulQt _ oQ); rewrite mulmxBr [in X in _ <= X](sv_eq sv).
    apply: eckart_young (sv_U sv) (sv_V sv) (svd_abs_sort sv) _.
    exact: leq_trans (mxrankM_maxr _ _) rX.
  - by move=> i /andP[ei ik]; apply: small.
  exact: sqr_ge0.
move=> q U' t Vh' AE oU' oV' t0 td; have sA : is_svd A U' t Vh' by [].
split=> [i j ij|j ej o].
  have lt := leq_trans (ltn_ord i) eq; rewrite (topvE _ lt); split; first exact: sv_lower sv sA _.
  apply: (sv_upper oQ sv sA (sqr_ge0 _)) => l jl.
  rewrite ler_pexpn2r ?nnegrE ?(sv_ge0 sv) //; apply: (sv_sort sv); by rewrite /= ij.
apply: (sv_upper oQ sv sA (sqr_ge0 _)) => l jl; rewrite -/(cut R).
have [lk|kl] := ltnP l (absz k).
  by apply: small => //; exact: leq_trans ej jl.
have [ov|nov] := boolP (0 < over); last by apply: small; [exact: leq_trans ej jl | move=> o'; rewrite o' in nov].
have lt : (j < minn c n)%N := leq_ltn_trans jl (ltn_ord l).
apply: le_trans (small (Ordinal lt) ej o).
by rewrite ler_pexpn2r ?nnegrE ?(sv_ge0 sv) //; apply: (sv_sort sv).
Qed.

(** EVD1: the compression [Q'AQ]. *)
Lemma compress_error n c (A : 'M[R]_n) (Q : 'M[R]_(n, c)) : A^T = A -> orthonormal Q ->
  fro2 A - fro2 (Q^T *m A *m Q) <= 2%:R * fro2 (A - Q *m (Q^T *m A)).
Proof.
move=> sA oQ; set X := A - Q *m (Q^T *m A).
have -> : fro2 A - fro2 (Q^T *m A *m Q) = fro2 X + fro2 (X *m Q).
  have -> : X *m Q = A *m Q - Q *m (Q^T *m (A *m Q)) by rewrite mulmxBl !mulmxA.
  rewrite !fro2_resid // !mulmxA -addrA; congr (_ + _).
  have -> : fro2 (A *m Q) = fro2 (Q^T *m A) by rewrite -fro2_trmx trmx_mul sA.
  by rewrite addrA addNr add0r.
rewrite mulr_natl mulr2n ler_add2l -fro2_trmx trmx_mul -[X in _ <= X]fro2_trmx; exact: fro2_mulQt.
Qed.

Lemma evd1_best (asort : seq R -> seq nat) (qb : qbdec) n c (A : 'M[R]_n) (k : int) tol (over : int)
    (s s1 : st G R) (Q : 'M[R]_(n, c)) :
  eigh_spec L -> argsort_spec asort ->
  A^T = A -> 0 < k <= n%:Z -> (if tol is Some t then 0 <= t else true) -> (0 < c)%N ->
  orthonormal Q ->
  qb (ofmx A) (k + over) (omap (fun t => t / 2%:R) tol) s = (s1, inr (ofmx Q, ofmx (Q^T *m A))) ->
  exists r (V : 'M[R]_(n, r)) (lam : 'cV[R]_r),
    [/\ EVD1 L asort qb (ofmx A) k tol over s = (s1, inr (ofmx V, ofcv lam)),
        forall X : 'M[R]_n, (\rank X <= absz k)%N ->
          fro2 (A - V *m diag_mx lam^T *m V^T) <=
          2%:R * fro2 (A - Q *m (Q^T *m A)) + fro2 (A - X) + c%:R * (10%:R * 2%:R ^- 52) ^+ 2 &
        forall (W : 'M[R]_n) (t : 'cV[R]_n),
          A = W *m diag_mx t^T *m W^T -> orthonormal W ->
          (forall i j : 'I_n, (i <= j)%N -> `|t j 0| <= `|t i 0|) ->
          (forall (i : 'I_r) (j : 'I_n), i = j :> nat ->
             `|lam i 0| <= `|t j 0| <= `|lam i 0| + 2%:R * fro (A - Q *m (Q^T *m A))) /\
          (forall j : 'I_n, (r <= j < absz k)%N ->
             `|t j 0| <= 10%:R * 2%:R ^- 52 + 2%:R * fro (A - Q *m (Q^T *m A)))].
Proof.
move=> eighL asP sA kk tolP c0 oQ E.
have [W [w [r [E1 oW CE wd [rE h]]]]] := EVD1P eighL asP sA kk tolP c0 oQ E.
have [k0 kn] := andP kk.
have rc : (r <= c)%N by lia.
have rk : (r <= absz k)%N by lia.
have Cw : fro2 (Q^T *m A *m Q) = fro2 w.
  by rewrite CE -mulmxA fro2_ortho // -fro2_trmx trmx_mul trmxK fro2_ortho // fro2_trmx fro2_diag.
have oV : orthonormal (Q *m colblk W 0 r) by apply: orthonormalM => //; apply: orthonormal_colblk.
have WtC : W^T *m (Q^T *m A *m Q) *m W = diag_mx w^T.
  by rewrite CE !mulmxA oW mul1mx -mulmxA oW mulmx1.
have core : (Q *m colblk W 0 r)^T *m A *m (Q *m colblk W 0 r) = diag_mx (topv w r)^T.
  rewrite colblkE trmx_mul [(W *m _)^T]trmx_mul -!mulmxA.
  rewrite (_ : W^T *m _ = diag_mx w^T *m selmx R c 0 r); last by rewrite -WtC !mulmxA.
  by rewrite diag_selmx // mulmxA selmxP // mul1mx.
have c0' := cut_gt0 R.
have small (i : 'I_c) : (r <= i < absz k)%N -> `|w i 0| <= cut R.
  by case/andP=> ri ik; rewrite leNgt -h // -leqNgt.
exists r, (Q *m colblk W 0 r), (topv w r); split=> //.
  move=> X rX; rewrite (core_error oV oV core) -addrA.
  have -> : fro2 A - fro2 (topv w r) = fro2 A - fro2 (Q^T *m A *m Q) + (fro2 w - fro2 (topv w r)).
    by rewrite Cw addrA subrK.
  apply: ler_add; first exact: compress_error.
  rewrite topv_tail // -/(cut R).
  apply: le_trans (tail_le (k := absz k) (t := cut R ^+ 2) _ _) _; last 1 first.
  - rewrite ler_add2r.
    apply: le_trans (_ : fro2 (Q^T *m A *m Q - Q^T *m X *m Q) <= _).
      rewrite [in X in _ <= X]CE; apply: eckart_young => //; first by rewrite trmxK.
      exact: leq_trans (mxrankM_maxl _ _) (leq_trans (mxrankM_maxr _ _) rX).
    rewrite -mulmxBl -mulmxBr -fro2_trmx trmx_mul.
    apply: le_trans (fro2_mulQt _ oQ) _; rewrite fro2_trmx; exact: fro2_mulQt.
  - move=> i /small hi; rewrite -real_normK ?num_real // ler_pexpn2r ?nnegrE //; exact: ltW.
  exact: sqr_ge0.
move=> W' t AE oW' td.
pose D := A - Q *m (Q^T *m A *m Q) *m Q^T.
have oQW : orthonormal (Q *m W) by apply: orthonormalM.
have QCE : Q *m (Q^T *m A *m Q) *m Q^T = Q *m W *m diag_mx w^T *m (Q *m W)^T.
  by rewrite CE trmx_mul !mulmxA.
have up (j : 'I_n) tau : 0 <= tau -> (forall l : 'I_c, (j <= l)%N -> `|w l 0| <= tau) ->
    `|t j 0| <= tau + 2%:R * fro (A - Q *m (Q^T *m A)).
  move=> tau0 H; apply: le_trans (_ : tau + fro D <= _); last by rewrite ler_add2l two_sided.
  apply: (sv_compare1 (t := w) (s := t) oW' (Vh := W'^T) _ td oQW (Vh' := (Q *m W)^T) _ (ortho1 R n) tau0 H).
  - by rewrite trmxK.
  - by rewrite trmxK.
  move=> v; rewrite mul1mx -AE -QCE.
  have -> : A *m v = Q *m (Q^T *m A *m Q) *m Q^T *m v + D *m v by rewrite /D mulmxBl addrC subrK.
  apply: le_trans (ler_froD _ _) _; rewrite ler_add2l.
  rewrite -(@ler_pexpn2r _ 2) ?nnegrE ?mulr_ge0 ?fro_ge0 // exprMn !sqr_fro; exact: fro2_mulv.
split=> [i j ij|j /andP[rj jk]].
  have lt := leq_trans (ltn_ord i) rc; rewrite (topvE _ lt); apply/andP; split.
    rewrite -[X in _ <= X]addr0.
    apply: (sv_compare1 (t := t) (s := w) oW (Vh := W^T) _ wd oW' (Vh' := W'^T) _ oQ) => //.
    - by rewrite trmxK.
    - by rewrite trmxK.
    - by move=> l /= il; apply: td; rewrite -ij.
    move=> v; rewrite mul0r addr0 -AE -CE fro_le // -!mulmxA; exact: fro2_mulQt.
  by apply: up => // l jl; apply: wd; rewrite /= ij.
apply: up; first exact: ltW.
move=> l jl; have jc := leq_ltn_trans jl (ltn_ord l).
apply: le_trans (small (Ordinal jc) _); first exact: wd.
by rewrite /= rj jk.
Qed.

(** ** QB1 and QB3: the error in terms of the sketch *)

Lemma qb1_bound (rso : rowsketcher) m n (A : 'M[R]_(m, n)) (k : nat) (s s1 : st G R) (S : 'M[R]_(n, k)) :
  qr_spec L -> (0 < k)%N -> (k <= minn m n)%N ->
  rso (ofmx A) k s = (s1, inr (PyArr (ofmx S))) ->
  exists (Q : 'M[R]_(m, k)) (B : 'M[R]_(k, n)),
    (QB1 (RF1 L rso) (ofmx A) k%:Z None s).2 = Ok (ofmx Q, ofmx B) /\
    forall r (V : 'M[R]_(n, r)) (W : 'M[R]_(k, r)),
      orthonormal V -> V^T *m S *m W = 1%:M ->
      let E := A - A *m V *m V^T in
      fro2 (A - Q *m B) <= fro2 E + fro2 (E *m S *m W).
Proof.
move=> qrL k0 kmn E; have [Q [U [_ EQ oQ [QU _ _]]]] := QB1_all qrL k0 kmn E.
by exists Q, (Q^T *m A); split=> // r V W oV VW; exact: sketch_bound oQ QU oV VW.
Qed.

Lemma qb3_bound (sk_op : rowsketcher) (blk : int) m n (A : 'M[R]_(m, n)) (k : nat) tol (s s1 : st G R)
    (S : 'M[R]_(n, k)) :
  qr_spec L -> (0 < k)%N -> (k < minn m n)%N -> 0 < blk -> ~~ use_tol tol ->
  sk_op (ofmx A) k s = (s1, inr (PyArr (ofmx S))) -> \rank (A *m S) = k ->
  exists (Q : 'M[R]_(m, k)) (B : 'M[R]_(k, n)),
    (QB3 L sk_op blk (ofmx A) k%:Z tol s).2 = Ok (ofmx Q, ofmx B) /\
    forall r (V : 'M[R]_(n, r)) (W : 'M[R]_(k, r)),
      orthonormal V -> V^T *m S *m W = 1%:M ->
      let E := A - A *m V *m V^T in
      fro2 (A - Q *m B) <= fro2 E + fro2 (E *m S *m W).
Proof.
move=> qrL k0 kmn b0 nt E rk.
have [Q [B [EQ _ _ QB]]] := QB3_full qrL k0 kmn b0 nt E rk.
have [Q3 [U [_ oQ QU P3]]] := QB1_full qrL k0 (ltnW kmn) E.
exists Q, B; split=> // r V W oV VW; rewrite QB; have [_ <-] := P3 rk.
exact: sketch_bound oQ QU oV VW.
Qed.

Lemma qb1_power gen (np : nat) stab (pps : int) m n (k : nat) (A : 'M[R]_(m, n)) (s s1 : st G R)
    (X0 : 'M[R]_(if odd np then m else n, k)) :
  qr_spec L -> stab_spec stab -> 0 < pps -> (0 < k)%N -> (k <= minn m n)%N ->
  draw gen (if odd np then m else n) k s = (s1, inr (PyArr (ofmx X0))) ->
  let K0 : 'M[R]_(n, k) :=
    (if odd np as b return 'M[R]_(if b then m else n, k) -> 'M[R]_(n, k)
     then fun X => A^T *m X else fun X => X) X0 in
  exists (Q : 'M[R]_(m, k)) (B : 'M[R]_(k, n)),
    (QB1 (RF1 L (RS1 gen np%:Z stab pps)) (ofmx A) k%:Z None s).2 = Ok (ofmx Q, ofmx B) /\
    forall r (V : 'M[R]_(n, r)) (D : 'M[R]_r) (W0 : 'M[R]_(k, r)) (sg tau : R),
      orthonormal V -> A^T *m (A *m V) = V *m D -> V^T *m K0 *m W0 = 1%:M ->
      let E := A - A *m V *m V^T in
      (forall v : 'cV[R]_n, fro2 (E *m v) <= sg ^+ 2 * fro2 v) -> 0 < tau ->
      (forall y : 'cV[R]_r, tau ^+ 2 * fro2 y <= fro2 (A *m V *m y)) ->
      fro2 (A - Q *m B) <= fro2 E + (sg / tau) ^+ (4 * (np %/ 2)) * fro2 (E *m K0 *m W0).
Proof.
move=> qrL st p0 k0 kmn Ed K0.
have [s' [Y [W [EY KE _]]]] := RS1_range A st p0 k0 kmn Ed.
have [Q [B [EQ H]]] := qb1_bound qrL k0 kmn EY.
exists Q, B; split=> // r V D W0 sg tau oV VD VW E Es t0 At.
have [Z [ZE Zb]] := power_bound (np %/ 2) oV VD VW Es t0 At.
move: ZE Zb; rewrite KE !mulmxA => ZE Zb.
have := H r V (W *m Z) oV; rewrite !mulmxA => /(_ ZE) /le_trans; apply.
by rewrite mulmxA ler_add2l.
Qed.

(** The same in terms of the singular values. *)
Lemma qb1_power_svd gen (np : nat) stab (pps : int) m n (k : nat) (A : 'M[R]_(m, n)) (s s1 : st G R)
    (X0 : 'M[R]_(if odd np then m else n, k)) :
  qr_spec L -> stab_spec stab -> 0 < pps -> (0 < k)%N -> (k <= minn m n)%N ->
  draw gen (if odd np then m else n) k s = (s1, inr (PyArr (ofmx X0))) ->
  let K0 : 'M[R]_(n, k) :=
    (if odd np as b return 'M[R]_(if b then m else n, k) -> 'M[R]_(n, k)
     then fun X => A^T *m X else fun X => X) X0 in
  exists (Q : 'M[R]_(m, k)) (B : 'M[R]_(k, n)),
    (QB1 (RF1 L (RS1 gen np%:Z stab pps)) (ofmx A) k%:Z None s).2 = Ok (ofmx Q, ofmx B) /\
    forall q r (U : 'M[R]_(m, q)) (t : 'cV[R]_q) (Vh : 'M[R]_(q, n)) (W0 : 'M[R]_(k, r)) (sg tau : R),
      A = U *m diag_mx t^T *m Vh -> orthonormal U -> orthonormal Vh^T -> (r <= q)%N ->
      (forall i : 'I_q, (r <= i)%N -> `|t i 0| <= sg) ->
      0 < tau -> (forall i : 'I_q, (i < r)%N -> tau <= `|t i 0|) ->
      rowblk Vh 0 r *m K0 *m W0 = 1%:M ->
      let E := A - A *m (rowblk Vh 0 r)^T *m rowblk Vh 0 r in
      fro2 (A - Q *m B) <= \sum_(i < q | (r <= i)%N) t i 0 ^+ 2 +
        (sg / tau) ^+ (4 * (np %/ 2)) * fro2 (E *m K0 *m W0).
Proof.
move=> qrL st p0 k0 kmn Ed K0.
have [Q [B [EQ H]]] := qb1_power A qrL st p0 k0 kmn Ed.
exists Q, B; split=> // q r U t Vh W0 sg tau AE oU oV rq lo t0 hi VW.
pose J := selmx R q 0 r; pose V := (rowblk Vh 0 r)^T.
have VV : Vh *m Vh^T = 1%:M by have := oV; rewrite /orthonormal trmxK.
have VJ : V = Vh^T *m J by rewrite /V rowblkE trmx_mul trmxK.
have oVV : orthonormal V by rewrite VJ; apply: orthonormalM => //; exact: selmxP.
have VhV : Vh *m V = J by rewrite VJ mulmxA VV mul1mx.
have AV : A *m V = U *m J *m diag_mx (topv t r)^T.
  by rewrite AE -[LHS]mulmxA VhV -[LHS]mulmxA diag_selmx // mulmxA.
have oUJ : orthonormal (U *m J) by apply: orthonormalM => //; exact: selmxP.
have VD : A^T *m (A *m V) = V *m (diag_mx (topv t r)^T *m diag_mx (topv t r)^T).
  rewrite AV {1}AE !trmx_mul tr_diag_mx !mulmxA -[_ *m U^T *m U]mulmxA oU mulmx1.
  by rewrite -[Vh^T *m _ *m J]mulmxA diag_selmx // VJ !mulmxA.
have := H r V _ W0 sg tau oVV VD; rewrite /V trmxK => /(_ VW); rewrite -/V.
have -> : fro2 (A - A *m V *m rowblk Vh 0 r) = \sum_(i < q | (r <= i)%N) t i 0 ^+ 2.
  rewrite -topv_tail // -fro2_trmx linearB /= trmx_mul -/V -{1}[V]trmxK [(A *m V)^T]trmx_mul trmxK.
  rewrite fro2_resid // fro2_trmx -trmx_mul fro2_trmx AV fro2_ortho // fro2_diag; congr (_ - _).
  by rewrite AE -mulmxA fro2_ortho // -fro2_trmx trmx_mul fro2_ortho // fro2_trmx fro2_diag.
apply=> //.
- move=> v; set v' := v - V *m (rowblk Vh 0 r *m v).
  have -> : (A - A *m V *m rowblk Vh 0 r) *m v = A *m v' by rewrite mulmxBl mulmxBr !mulmxA.
  have v'le : fro2 v' <= fro2 v.
    rewrite /v' -[rowblk Vh 0 r]trmxK -/V fro2_resid //; have := fro2_ge0 (V^T *m v).
    by rewrite ler_subl_addr ler_addl.
  apply: le_trans (_ : sg ^+ 2 * fro2 v' <= _); last by rewrite ler_wpmul2l ?sqr_ge0.
  rewrite AE fro2_svd_mul //; apply: le_trans (_ : sg ^+ 2 * fro2 (Vh *m v') <= _); last first.
    by rewrite ler_wpmul2l ?sqr_ge0 //; have := fro2_proj v' oV; rewrite trmxK.
  rewrite fro2_sum mulr_sumr; apply: ler_sum => i _.
  have [ir|ri] := ltnP i r; last first.
    rewrite ler_wpmul2r ?sqr_ge0 // -real_normK ?num_real // ler_pexpn2r ?nnegrE //; first exact: lo.
    exact: le_trans (lo i ri).
  have -> : (Vh *m v') i 0 = topv (Vh *m v') r (Ordinal ir) 0.
    by rewrite (@topvE _ _ _ _ (Ordinal ir) (ltn_ord i)); congr (_ _ 0); apply: val_inj.
  have -> : topv (Vh *m v') r = 0.
    rewrite /topv rowblkE /v' mulmxBr [Vh *m (V *m _)]mulmxA VhV mulmxBr [_ *m (J *m _)]mulmxA selmxP // mul1mx.
    by rewrite rowblkE !mulmxA subrr.
  by rewrite mxE expr0n !mulr0.
move=> y; rewrite AV -mulmxA fro2_ortho // mul_diag_mx !fro2_sum mulr_sumr; apply: ler_sum => i _.
rewrite mxE exprMn ler_wpmul2r ?sqr_ge0 // [_^T _ _]mxE.
have lt := leq_trans (ltn_ord i) rq; rewrite (topvE _ lt) -[X in _ <= X]real_normK ?num_real //.
by rewrite ler_pexpn2r ?nnegrE ?(ltW t0) //; apply: hi => /=.
Qed.
End Dec.
