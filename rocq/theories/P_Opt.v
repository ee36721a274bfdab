(** Best approximation: projections, the Eckart-Young theorem, interlacing. *)
From mathcomp Require Import all_ssreflect all_algebra.
From mathcomp Require Import zify.
From Verif Require Import Base Arr Lapack Exact MxLib RingTac LapackSpec LapackExists.
Set Implicit Arguments.
Unset Strict Implicit.
Unset Printing Implicit Defensive.
Import Order.TTheory GRing.Theory Num.Theory.
Local Open Scope ring_scope.

Section Opt.
Variable R : rcfType.
Add Field opt_field : (rcf_field R).

(** Orthogonal projection is the best approximation from a range. *)
Lemma proj_best m n c (Q : 'M[R]_(m, c)) (A : 'M[R]_(m, n)) (C : 'M[R]_(c, n)) : orthonormal Q ->
  fro2 (A - Q *m (Q^T *m A)) <= fro2 (A - Q *m C).
Proof.
move=> oQ; have -> : A - Q *m C = (A - Q *m (Q^T *m A)) + Q *m (Q^T *m A - C).
  by rewrite mulmxBr addrA subrK.
rewrite [X in _ <= X]fro2_pyth; first by rewrite ler_addl fro2_ge0.
have := ortho_resid A oQ => /(congr1 (@trmx _ _ _)).
by rewrite trmx_mul trmxK trmx0 => h; rewrite mulmxA h mul0mx.
Qed.

Lemma fro2_proj m n c (Q : 'M[R]_(m, c)) (A : 'M[R]_(m, n)) : orthonormal Q ->
  fro2 (Q^T *m A) <= fro2 A.
Proof. by move=> oQ; rewrite -subr_ge0 -fro2_resid // fro2_ge0. Qed.

(** An orthonormal basis of a range. *)
Lemma orth_basis m n (X : 'M[R]_(m, n)) : exists (P : 'M[R]_(m, \rank X)) (C : 'M[R]_(\rank X, n)),
  orthonormal P /\ X = P *m C.
Proof.
have [Q [U [oQ _ E]]] := qr_exists (col_base X).
have e : minn m (\rank X) = \rank X by apply/minn_idPr; exact: rank_leq_row.
move: Q U oQ E; rewrite e => Q U oQ E.
by exists Q, (U *m row_base X); split=> //; rewrite mulmxA -E mulmx_base.
Qed.

(** Structural bound for range finders. *)
Lemma sketch_bound m n c k r (A : 'M[R]_(m, n)) (Q : 'M[R]_(m, c)) (S : 'M[R]_(n, k)) (U : 'M[R]_(c, k))
    (V : 'M[R]_(n, r)) (W : 'M[R]_(k, r)) :
  orthonormal Q -> A *m S = Q *m U -> orthonormal V -> V^T *m S *m W = 1%:M ->
  let E := A - A *m V *m V^T in
  fro2 (A - Q *m (Q^T *m A)) <= fro2 E + fro2 (E *m S *m W).
Proof.
move=> oQ QE oV VW; cbv zeta; set E := A - A *m V *m V^T.
apply: le_trans (proj_best A (U *m W *m V^T) oQ) _.
have -> : Q *m (U *m W *m V^T) = A *m S *m W *m V^T by rewrite QE !mulmxA.
have EV : E *m V = 0 by rewrite mulmxBl -!mulmxA oV mulmx1 subrr.
have AE : A = A *m V *m V^T + E by rewrite addrC subrK.
have -> : A - A *m S *m W *m V^T = E - E *m S *m W *m V^T.
  have -> : E *m S *m W *m V^T = A *m S *m W *m V^T - A *m V *m V^T.
    rewrite /E !mulmxBl; congr (_ - _); rewrite -!mulmxA; congr (_ *m (_ *m _)).
    by rewrite !mulmxA VW mul1mx.
  by rewrite opprB /E addrA subrK.
rewrite fro2B; have -> : fip E (E *m S *m W *m V^T) = 0.
  by rewrite /fip mulmxA mxtrace_mulC [V^T *m (_ *m _)]mulmxA -trmx_mul EV trmx0 mul0mx raddf0.
rewrite mulr0 subr0 ler_add2l; move: (E *m S *m W) => Z.
by rewrite -(fro2_trmx (Z *m V^T)) trmx_mul trmxK fro2_ortho // fro2_trmx.
Qed.

(** ** Weights: a sum of n numbers in decreasing order, with weights in [0, 1] adding up to at most k,
    is at most the sum of the first k. *)
Lemma weight_sum q (t w : 'I_q -> R) (k : nat) :
  (forall i j : 'I_q, (i <= j)%N -> t j <= t i) -> (forall i, 0 <= t i) ->
  (forall i, 0 <= w i <= 1) -> \sum_i w i <= k%:R ->
  \sum_i t i * w i <= \sum_(i < q | (i < k)%N) t i.
Proof.
move=> ts t0 w01 wk.
have [qk|kq] := leqP q k.
  rewrite [leRHS](eq_bigl xpredT) => [|i]; last by rewrite (leq_trans (ltn_ord i) qk).
  by apply: ler_sum => i _; rewrite ler_pimulr //; case/andP: (w01 i).
pose c := t (Ordinal kq).
have le : \sum_i (t i - c) * w i <= \sum_(i < q | (i < k)%N) (t i - c).
  rewrite [leRHS]big_mkcond; apply: ler_sum => i _; case/andP: (w01 i) => w0 w1.
  case: ltnP => ik; first by rewrite ler_pimulr // subr_ge0 ts // ltnW.
  by rewrite mulr_le0_ge0 // subr_le0 ts.
have e1 : \sum_i (t i - c) * w i = \sum_i t i * w i - c * \sum_i w i.
  by rewrite mulr_sumr -sumrB; apply: eq_bigr => i _; rewrite mulrBl.
have e2 : \sum_(i < q | (i < k)%N) (t i - c) = \sum_(i < q | (i < k)%N) t i - c * k%:R.
  rewrite sumrB; congr (_ - _); rewrite sumr_const mulr_natr; congr (_ *+ _).
  rewrite -sum1_card -(big_ord_widen_cond q xpredT (fun=> 1%N)) ?(ltnW kq) //.
  by rewrite sum_nat_const card_ord muln1.
move: le; rewrite e1 e2 => le; rewrite -(ler_add2r (- (c * \sum_i w i))).
apply: (le_trans le); rewrite ler_add2l ler_opp2 ler_wpmul2l //; exact: t0.
Qed.

(** ** Eckart-Young (Frobenius norm). [B = U diag(s) Vh] with orthonormal [U], [Vh^T] and [|s|] decreasing;
    [X] of rank at most [k]. *)
Lemma eckart_young c n q (U : 'M[R]_(c, q)) (s : 'cV[R]_q) (Vh : 'M[R]_(q, n)) (X : 'M[R]_(c, n)) k :
  orthonormal U -> orthonormal Vh^T -> (forall i j : 'I_q, (i <= j)%N -> `|s j 0| <= `|s i 0|) ->
  (\rank X <= k)%N ->
  \sum_(i < q | (k <= i)%N) s i 0 ^+ 2 <= fro2 (U *m diag_mx s^T *m Vh - X).
Proof.
move=> oU oV ss rk; set B := U *m diag_mx s^T *m Vh.
have [P [C [oP XE]]] := orth_basis X; rewrite [X in _ <= fro2 (_ - X)]XE.
apply: le_trans (proj_best B C oP); rewrite fro2_resid //.
have fB (p : nat) (Z : 'M[R]_(p, q)) : fro2 (Z *m Vh) = fro2 Z.
  by rewrite -fro2_trmx trmx_mul fro2_ortho // fro2_trmx.
have BE : fro2 B = \sum_i s i 0 ^+ 2.
  rewrite /B fB fro2_ortho // /fro2; apply: eq_bigr => i _.
  rewrite (bigD1 i) //= big1 ?addr0 => [|j ji]; last by rewrite mxE mxE eq_sym (negbTE ji) expr0n.
  by rewrite !mxE eqxx.
pose Z := P^T *m U; pose w i := \sum_j Z j i ^+ 2.
have PE : fro2 (P^T *m B) = \sum_i s i 0 ^+ 2 * w i.
  rewrite /B !mulmxA fB -/Z /fro2 exchange_big /=; apply: eq_bigr => i _.
  by rewrite mulr_sumr; apply: eq_bigr => j _; rewrite mul_mx_diag !mxE exprMn mulrC.
have w01 i : 0 <= w i <= 1.
  rewrite sumr_ge0 /= => [|j _]; last exact: sqr_ge0.
  have -> : w i = fro2 (P^T *m col i U) by rewrite colE mulmxA -colE col_fro2.
  apply: le_trans (fro2_proj _ oP) _; rewrite col_fro2.
  have := congr1 (fun M => (M : 'M[R]_q) i i) oU; rewrite mxE [RHS]mxE eqxx => h.
  rewrite le_eqVlt; apply/orP; left; apply/eqP; rewrite -[RHS]h.
  by apply: eq_bigr => j _; rewrite mxE expr2.
have ws : \sum_i w i <= k%:R.
  rewrite exchange_big /=; have -> : \sum_j \sum_i Z j i ^+ 2 = fro2 (U^T *m P).
    by rewrite -fro2_trmx trmx_mul trmxK.
  apply: le_trans (fro2_proj _ oU) _; rewrite fro2_tr oP mxtrace1 ler_nat //.
have := weight_sum (t := fun i => s i 0 ^+ 2) _ (fun i => sqr_ge0 _) w01 ws.
rewrite -PE => h.
have sp : \sum_i s i 0 ^+ 2 = \sum_(i < q | (i < k)%N) s i 0 ^+ 2 + \sum_(i < q | (k <= i)%N) s i 0 ^+ 2.
  by rewrite (bigID (fun i : 'I_q => (i < k)%N)) /=; congr (_ + _); apply: eq_bigl => i; rewrite -leqNgt.
rewrite BE sp addrAC ler_addr subr_ge0; apply: h => i j ij.
by rewrite -(ger0_norm (sqr_ge0 (s j 0))) -(ger0_norm (sqr_ge0 (s i 0))) !normrX ler_pexpn2r ?nnegrE //; exact: ss.
Qed.

Lemma fro2_sum n (d : 'cV[R]_n) : fro2 d = \sum_i d i 0 ^+ 2.
Proof. by rewrite /fro2; apply: eq_bigr => i _; rewrite big_ord1. Qed.

(** A wide matrix has a kernel. *)
Lemma wide_ker a (M : 'M[R]_(a, a.+1)) : exists y : 'cV[R]_a.+1, y != 0 /\ M *m y = 0.
Proof.
have : kermx M^T != 0.
  rewrite -mxrank_eq0 mxrank_ker mxrank_tr; have := rank_leq_row M; lia.
case/rowV0Pn=> v /sub_kermxP vM v0; exists v^T; split.
  by apply: contraNneq v0 => h; rewrite -[v]trmxK h trmx0.
by rewrite -[M]trmxK -trmx_mul vM trmx0.
Qed.

(** Length of a matrix-vector product in terms of the singular values. *)
Lemma fro2_svd_mul c n q (U : 'M[R]_(c, q)) (s : 'cV[R]_q) (Vh : 'M[R]_(q, n)) (v : 'cV[R]_n) :
  orthonormal U -> fro2 (U *m diag_mx s^T *m Vh *m v) = \sum_i s i 0 ^+ 2 * (Vh *m v) i 0 ^+ 2.
Proof.
move=> oU; rewrite -!mulmxA fro2_ortho // mul_diag_mx fro2_sum.
by apply: eq_bigr => i _; rewrite mxE exprMn [s^T _ _]mxE.
Qed.

(** Comparison of singular values: a direction that is long under the first
    matrix and short under the second. *)
Lemma sv_vec c n q (U : 'M[R]_(c, q)) (s : 'cV[R]_q) (Vh : 'M[R]_(q, n))
    m p q' (U' : 'M[R]_(m, q')) (t : 'cV[R]_q') (Vh' : 'M[R]_(q', p)) (J : 'M[R]_(p, n)) tau
    (i : 'I_q) :
  orthonormal U -> orthonormal Vh^T -> (forall i j : 'I_q, (i <= j)%N -> `|s j 0| <= `|s i 0|) ->
  orthonormal U' -> orthonormal Vh'^T -> orthonormal J ->
  0 <= tau -> (forall l : 'I_q', (i <= l)%N -> t l 0 ^+ 2 <= tau) ->
  exists v : 'cV[R]_n, [/\ 0 < fro2 v, s i 0 ^+ 2 * fro2 v <= fro2 (U *m diag_mx s^T *m Vh *m v) &
    fro2 (U' *m diag_mx t^T *m Vh' *m (J *m v)) <= tau * fro2 v].
Proof.
move=> oU oV ss oU' oV' oJ tau0 ts2.
have ss2 (k l : 'I_q) : (k <= l)%N -> s l 0 ^+ 2 <= s k 0 ^+ 2.
  move=> kl; rewrite -(ger0_norm (sqr_ge0 (s l 0))) -(ger0_norm (sqr_ge0 (s k 0))) !normrX.
  by rewrite ler_pexpn2r ?nnegrE //; exact: ss.
pose a := nat_of_ord i; pose X := (selmx R q 0 a.+1)^T *m Vh.
pose T := (selmx R q' 0 a)^T *m Vh'.
have [y [y0 yE]] := wide_ker (T *m J *m X^T).
pose v := X^T *m y.
have Vv : Vh *m v = selmx R q 0 a.+1 *m y.
  have VV : Vh *m Vh^T = 1%:M by have := oV; rewrite /orthonormal trmxK.
  by rewrite /v /X trmx_mul trmxK !mulmxA VV mul1mx.
have Vz (l : 'I_q) : (a < l)%N -> (Vh *m v) l 0 = 0.
  move=> al; rewrite Vv mxE big1 // => k _; rewrite mxE add0n.
  have -> : (val l == k) = false by apply/eqP => e; move: (ltn_ord k); rewrite -e ltnNge al.
  by rewrite mul0r.
have fv : fro2 (Vh *m v) = fro2 v.
  rewrite -[LHS](fro2_ortho _ oV); congr fro2; rewrite /v /X trmx_mul trmxK.
  have VV : Vh *m Vh^T = 1%:M by have := oV; rewrite /orthonormal trmxK.
  by rewrite !mulmxA -[Vh^T *m Vh *m _]mulmxA VV mulmx1.
have v0 : 0 < fro2 v.
  rewrite lt_neqAle fro2_ge0 andbT eq_sym -fv Vv fro2_eq0.
  apply: contraNneq y0 => e; apply/eqP/colP => k; rewrite mxE.
  have kq : (k < q)%N by apply: leq_trans (ltn_ord k) (ltn_ord i).
  have := congr1 (fun M => (M : 'cV[R]_q) (Ordinal kq) 0) e; rewrite !mxE (bigD1 k) //= big1.
    by rewrite mxE add0n eqxx mul1r addr0.
  move=> l lk; rewrite mxE add0n /=; have -> : (val k == l) = false.
    by apply/eqP => e'; case/eqP: lk; apply: val_inj.
  by rewrite mul0r.
have Tz (l : 'I_q') : (l < a)%N -> (Vh' *m (J *m v)) l 0 = 0.
  move=> la; have h : T *m (J *m v) = 0 by rewrite /v !mulmxA in yE *.
  have := congr1 (fun M => (M : 'cV[R]_a) (Ordinal la) 0) h; rewrite [X in _ = X -> _]mxE => <-.
  rewrite /T -mulmxA [RHS]mxE (bigD1 l) //= big1.
    by rewrite !mxE add0n eqxx mul1r addr0.
  move=> k kl; rewrite [_^T _ _]mxE mxE add0n /=; have -> : (val k == l) = false.
    by apply/eqP => e'; case/eqP: kl; apply: val_inj.
  by rewrite mul0r.
have lo : s i 0 ^+ 2 * fro2 v <= fro2 (U *m diag_mx s^T *m Vh *m v).
  rewrite fro2_svd_mul // -fv fro2_sum mulr_sumr; apply: ler_sum => l _.
  have [al|la] := ltnP a l; first by rewrite Vz // expr0n !mulr0.
  by rewrite ler_wpmul2r ?sqr_ge0 // ss2.
have hi : fro2 (U' *m diag_mx t^T *m Vh' *m (J *m v)) <= tau * fro2 v.
  rewrite fro2_svd_mul //; apply: le_trans (_ : tau * fro2 (Vh' *m (J *m v)) <= _).
    rewrite fro2_sum mulr_sumr; apply: ler_sum => l _.
    have [la|al] := ltnP l a; first by rewrite Tz // expr0n !mulr0.
    by rewrite ler_wpmul2r ?sqr_ge0 // ts2.
  rewrite ler_wpmul2l // -[X in _ <= X](fro2_ortho v oJ).
  by have := fro2_proj (J *m v) oV'; rewrite trmxK.
by exists v.
Qed.

Lemma sv_compare c n q (U : 'M[R]_(c, q)) (s : 'cV[R]_q) (Vh : 'M[R]_(q, n))
    m p q' (U' : 'M[R]_(m, q')) (t : 'cV[R]_q') (Vh' : 'M[R]_(q', p)) (J : 'M[R]_(p, n)) tau dd
    (i : 'I_q) :
  orthonormal U -> orthonormal Vh^T -> (forall i j : 'I_q, (i <= j)%N -> `|s j 0| <= `|s i 0|) ->
  orthonormal U' -> orthonormal Vh'^T -> orthonormal J ->
  0 <= tau -> (forall l : 'I_q', (i <= l)%N -> t l 0 ^+ 2 <= tau) ->
  (forall v : 'cV[R]_n, fro2 (U *m diag_mx s^T *m Vh *m v) <=
     fro2 (U' *m diag_mx t^T *m Vh' *m (J *m v)) + dd * fro2 v) ->
  s i 0 ^+ 2 <= tau + dd.
Proof.
move=> oU oV ss oU' oV' oJ tau0 ts H.
have [v [v0 lo hi]] := sv_vec oU oV ss oU' oV' oJ tau0 ts.
have := le_trans lo (le_trans (H v) (ler_add hi (lexx _))).
by rewrite -mulrDl ler_pmul2r.
Qed.

Lemma sv_compare1 c n q (U : 'M[R]_(c, q)) (s : 'cV[R]_q) (Vh : 'M[R]_(q, n))
    m p q' (U' : 'M[R]_(m, q')) (t : 'cV[R]_q') (Vh' : 'M[R]_(q', p)) (J : 'M[R]_(p, n)) tau dd
    (i : 'I_q) :
  orthonormal U -> orthonormal Vh^T -> (forall i j : 'I_q, (i <= j)%N -> `|s j 0| <= `|s i 0|) ->
  orthonormal U' -> orthonormal Vh'^T -> orthonormal J ->
  0 <= tau -> (forall l : 'I_q', (i <= l)%N -> `|t l 0| <= tau) ->
  (forall v : 'cV[R]_n, fro (U *m diag_mx s^T *m Vh *m v) <=
     fro (U' *m diag_mx t^T *m Vh' *m (J *m v)) + dd * fro v) ->
  `|s i 0| <= tau + dd.
Proof.
move=> oU oV ss oU' oV' oJ tau0 ts H.
have [|l il|v [v0 lo hi]] := sv_vec oU oV ss oU' oV' oJ (tau := tau ^+ 2) (t := t) (i := i).
- exact: sqr_ge0.
- by rewrite -real_normK ?num_real // ler_pexpn2r ?nnegrE // ts.
have fv : 0 < fro v by rewrite /fro sqrtr_gt0.
rewrite -(ler_pmul2r fv) mulrDl; apply: le_trans (le_trans _ (H v)) _.
- rewrite -(@ler_pexpn2r _ 2) ?nnegrE ?mulr_ge0 ?fro_ge0 // exprMn !sqr_fro.
  by rewrite real_normK ?num_real.
rewrite ler_add2r -(@ler_pexpn2r _ 2) ?nnegrE ?mulr_ge0 ?fro_ge0 //.
by rewrite exprMn !sqr_fro.
Qed.
End Opt.
