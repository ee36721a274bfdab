(** Proofs of C95: accuracy of EVD2 (Nystrom) in the trace. *)
From mathcomp Require Import all_ssreflect all_algebra.
From mathcomp Require Import zify.
From Verif Require Import Base Arr Lapack Exact MxLib RingTac LapackSpec LapackExists Rng Aware RangeFinders QB.
From Verif Require Import P_RS1 P_QB2 P_RF P_QB3 P_QBx P_QBfin P_Pcg Chol P_Svd Sel SvdEvd P_SvdEvd P_Svd1 P_Evd P_Evd2 P_Evd3.
From Verif Require Import P_Opt P_Opt2 P_Prob2.
Set Implicit Arguments.
Unset Strict Implicit.
Unset Printing Implicit Defensive.
Import Order.TTheory GRing.Theory Num.Theory.
Local Open Scope ring_scope.

Section Nys.
Variable R : rcfType.

(** A symmetric eigenvalue decomposition with the eigenvalues in decreasing order, none negative. *)
Definition psd_eig n (A U : 'M[R]_n) (t : 'cV[R]_n) : Prop :=
  [/\ orthonormal U, A = U *m diag_mx t^T *m U^T, forall i, 0 <= t i 0 &
      forall i j : 'I_n, (i <= j)%N -> t j 0 <= t i 0].

Lemma gram_fro2 m n p q (X : 'M[R]_(m, n)) (Y : 'M[R]_(p, n)) (Z : 'M[R]_(n, q)) :
  X^T *m X = Y^T *m Y -> fro2 (X *m Z) = fro2 (Y *m Z).
Proof. by move=> E; rewrite !fro2_tr !trmx_mul !mulmxA -!(mulmxA Z^T) E. Qed.

Lemma fro_gram m n (X : 'M[R]_(m, n)) : fro (X^T *m X) <= fro2 X.
Proof.
rewrite -(@ler_pexpn2r _ 2) ?nnegrE ?fro_ge0 ?fro2_ge0 // sqr_fro expr2.
apply: (@le_trans _ _ (fro2 X^T * fro2 X)); last by rewrite fro2_trmx.
by apply: fro2_mul_col => v; exact: fro2_mulv.
Qed.

Section Shift.
Variables (n : nat) (A U : 'M[R]_n) (t : 'cV[R]_n) (nu : R).
Hypotheses (eA : psd_eig A U t) (nu0 : 0 <= nu).
Local Notation st := (\col_i Num.sqrt (t i 0 + nu) : 'cV[R]_n).
Definition rootK : 'M[R]_n := diag_mx (\col_i Num.sqrt (t i 0 + nu))^T *m U^T.

Lemma st2 i : st i 0 ^+ 2 = t i 0 + nu.
Proof using eA nu0. by case: eA => _ _ t0 _; rewrite mxE sqr_sqrtr // addr_ge0. Qed.

Lemma rootKK : rootK^T *m rootK = A + nu%:M.
Proof using eA nu0.
have [oU AE t0 _] := eA.
have UU : U *m U^T = 1%:M by exact: mulmx1C oU.
rewrite /rootK trmx_mul trmxK tr_diag_mx -mulmxA (mulmxA (diag_mx _)) mulmx_diag.
rewrite AE -[nu%:M]mulmx1 -UU -scalemx1 -scalemxAl mul1mx.
have -> : nu *: (U *m U^T) = U *m nu%:M *m U^T by rewrite mul_mx_scalar -scalemxAl.
rewrite -mulmxDl -mulmxDr -mulmxA; congr (_ *m (_ *m _)); apply/matrixP => i j; rewrite !mxE.
case: eqP => [->|_]; rewrite ?mulr0n ?mulr0 ?addr0 // !mulr1n.
by rewrite -expr2 sqr_sqrtr // addr_ge0.
Qed.

Lemma rootK_svd : rootK = 1%:M *m diag_mx st^T *m U^T.
Proof. by rewrite mul1mx. Qed.

Lemma o1 m : orthonormal (1%:M : 'M[R]_m).
Proof. by rewrite /orthonormal trmx1 mulmx1. Qed.

Lemma st_sorted (i j : 'I_n) : (i <= j)%N -> `|st j 0| <= `|st i 0|.
Proof using eA nu0.
have [_ _ t0 ts] := eA.
by move=> ij; rewrite !mxE !ger0_norm ?sqrtr_ge0 // ler_wsqrtr // ler_add2r ts.
Qed.

Lemma rootK_tail e : (e <= n)%N -> exists Z : 'M[R]_(n, e),
  fro2 (rootK *m (1%:M - Z *m Z^T)) = \sum_(i < n | (e <= i)%N) (t i 0 + nu).
Proof using eA nu0.
move=> en; have [oU _ _ _] := eA.
have oUt : orthonormal U^T^T by rewrite trmxK.
have [V [U1 []]] := svd_top rootK_svd (o1 n) oUt en; cbv zeta => _ _ _ _ [_ _ F2 _].
exists V; rewrite mulmxBr mulmx1 mulmxA F2; apply: eq_bigr => i _; exact: st2.
Qed.

(** The Nystrom approximation of [A + nu] from [S] as a projection. *)
Section WithS.
Variables (p : nat) (S : 'M[R]_(n, p)).
Local Notation K := rootK.
Local Notation C := (S^T *m ((A + nu%:M) *m S)).
Hypothesis uC : C \in unitmx.
Local Notation P := (K *m S *m invmx C *m (K *m S)^T).

Lemma CE : (K *m S)^T *m (K *m S) = C.
Proof using eA nu0. by rewrite trmx_mul mulmxA -(mulmxA S^T) rootKK mulmxA. Qed.
Lemma PT : P^T = P.
Proof using eA nu0.
have CT : C^T = C by rewrite -CE trmx_mul trmxK.
rewrite [LHS]trmx_mul [(_ *m invmx _)^T]trmx_mul trmx_inv CT trmxK.
by rewrite !mulmxA.
Qed.
Lemma PKS : P *m (K *m S) = K *m S.
Proof using eA nu0 uC. by rewrite -[LHS]mulmxA CE -mulmxA mulVmx // mulmx1. Qed.
Lemma PP : P *m P = P.
Proof using eA nu0 uC.
have -> : P *m P = P *m (K *m S) *m (invmx C *m (K *m S)^T) by rewrite -!mulmxA.
by rewrite PKS !mulmxA.
Qed.

Lemma nysE : let Y := (A + nu%:M) *m S in Y *m invmx C *m Y^T = (P *m K)^T *m (P *m K).
Proof using eA nu0 uC.
cbv zeta; have e1 : (A + nu%:M) *m S = K^T *m (K *m S) by rewrite mulmxA rootKK.
have -> : (P *m K)^T *m (P *m K) = K^T *m P *m K.
  have := PP; have := PT; set P0 := P => h1 h2; rewrite trmx_mul h1 mulmxA.
  by rewrite -(mulmxA K^T P0 P0) h2.
have -> : ((A + nu%:M) *m S)^T = (K *m S)^T *m K by rewrite e1 trmx_mul trmxK.
by rewrite {1}e1 !mulmxA.
Qed.

Lemma nys_pyth q (X : 'M[R]_(n, q)) : fro2 (K *m X) = fro2 ((K - P *m K) *m X) + fro2 (P *m K *m X).
Proof using eA nu0 uC.
have e : (P *m K *m X)^T *m ((K - P *m K) *m X) = 0.
  have := PP; have := PT; set P0 := P => h1 h2.
  have z : (P0 *m K)^T *m (K - P0 *m K) = 0.
    by rewrite trmx_mul h1 mulmxBr -(mulmxA K^T P0 (P0 *m K)) (mulmxA P0 P0) h2 mulmxA subrr.
  by rewrite trmx_mul -mulmxA (mulmxA (P0 *m K)^T) z mul0mx mulmx0.
have {1}-> : K = P *m K + (K - P *m K) by rewrite addrC subrK.
by rewrite mulmxDl fro2D /fip e mxtrace0 mulr0 addr0 addrC.
Qed.

Lemma nys_best (M : 'M[R]_(p, n)) : fro2 (K - P *m K) <= fro2 (K *m (1%:M - S *m M)).
Proof using eA nu0 uC.
rewrite nys_pyth; have -> : (K - P *m K) *m (1%:M - S *m M) = K - P *m K.
  have := PKS; set P0 := P => h.
  by rewrite mulmxBr mulmx1 mulmxA [(K - _) *m S]mulmxBl -(mulmxA P0 K S) h subrr mul0mx subr0.
by rewrite ler_addl fro2_ge0.
Qed.

Section WithW.
Variables (q : nat) (W : 'M[R]_(n, q)) (d : 'cV[R]_q).
Hypotheses (oW : orthonormal W) (d0 : forall i, 0 <= d i 0)
  (ds : forall i j : 'I_q, (i <= j)%N -> d j 0 <= d i 0).
Hypothesis NE : (A + nu%:M) *m S *m invmx C *m ((A + nu%:M) *m S)^T = W *m diag_mx d^T *m W^T.
Local Notation sd := (\col_i Num.sqrt (d i 0) : 'cV[R]_q).
Local Notation H := (diag_mx sd^T *m W^T).

Lemma HH : H^T *m H = (P *m K)^T *m (P *m K).
Proof using d0 NE eA nu0 uC.
have -> : H^T *m H = W *m (diag_mx sd^T *m diag_mx sd^T) *m W^T by rewrite trmx_mul trmxK tr_diag_mx !mulmxA.
rewrite -nysE; cbv zeta; rewrite NE mulmx_diag.
congr (_ *m _ *m _); congr diag_mx; apply/rowP => i; rewrite !mxE -expr2 sqr_sqrtr //.
Qed.

Lemma nys_tr : fro2 (P *m K) = \sum_i d i 0.
Proof using d0 NE oW eA nu0 uC.
rewrite -[P *m K]mulmx1 -(gram_fro2 _ HH) mulmx1 -fro2_trmx trmx_mul trmxK fro2_ortho // fro2_trmx.
rewrite (fro2_tr (diag_mx _)) tr_diag_mx mulmx_diag mxtrace_diag.
by apply: eq_bigr => i _; rewrite !mxE -expr2 sqr_sqrtr.
Qed.

Lemma nys_tail e : (e <= n)%N -> \sum_(i < q | (e <= i)%N) d i 0 <= \sum_(i < n | (e <= i)%N) (t i 0 + nu).
Proof using d0 ds NE oW eA nu0 uC.
move=> en; have [Z <-] := rootK_tail en.
have oWt : orthonormal W^T^T by rewrite trmxK.
have sds (i j : 'I_q) : (i <= j)%N -> `|sd j 0| <= `|sd i 0|.
  by move=> ij; rewrite !mxE !ger0_norm ?sqrtr_ge0 // ler_wsqrtr // ds.
have rX : (\rank (H *m (Z *m Z^T)) <= e)%N.
  by rewrite mulmxA; apply: leq_trans (mxrankM_maxr _ _) _; rewrite mxrank_tr rank_leq_col.
have := eckart_young (o1 q) oWt sds rX; rewrite mul1mx.
rewrite (eq_bigr (fun i => d i 0)) => [|i _]; last by rewrite mxE sqr_sqrtr.
move=> h; apply: le_trans h _.
have -> : H - H *m (Z *m Z^T) = H *m (1%:M - Z *m Z^T) by rewrite mulmxBr mulmx1.
by rewrite (gram_fro2 _ HH) nys_pyth ler_addr fro2_ge0.
Qed.

Lemma nys_weyl (i : 'I_q) (j : 'I_n) : i = j :> nat -> d i 0 <= t j 0 + nu.
Proof using d0 ds NE oW eA nu0 uC.
move=> ij; have [oU _ t0 ts] := eA.
have oWt : orthonormal W^T^T by rewrite trmxK.
have oUt : orthonormal U^T^T by rewrite trmxK.
have sds (i' j' : 'I_q) : (i' <= j')%N -> `|sd j' 0| <= `|sd i' 0|.
  by move=> ij'; rewrite !mxE !ger0_norm ?sqrtr_ge0 // ler_wsqrtr // ds.
have := @sv_compare R q n q 1%:M sd W^T n n n 1%:M st U^T 1%:M (t j 0 + nu) 0 i
  (o1 q) oWt sds (o1 n) oUt (o1 n).
rewrite mxE sqr_sqrtr // addr0; apply; first by rewrite addr_ge0.
  by move=> l il; rewrite st2 ler_add2r ts // -ij.
move=> v; rewrite mul0r addr0 !mul1mx; rewrite -/rootK (gram_fro2 _ HH) nys_pyth ler_addr fro2_ge0 //.
Qed.

(** The first [e] terms of the Nystrom approximation. *)
Lemma nys_trunc e (V : 'M[R]_(n, e)) (lamb : 'cV[R]_e) (M : 'M[R]_(p, n)) : (e <= q)%N -> (e <= n)%N ->
  V = colblk W 0 e -> (forall (i : 'I_e) (j : 'I_q), i = j :> nat -> lamb i 0 + nu = d j 0) ->
  let X := fro2 (K *m (1%:M - S *m M)) + \sum_(i < q | (e <= i)%N) d i 0 in
  fro (A - V *m diag_mx lamb^T *m V^T) <= X + Num.sqrt n%:R * nu /\
  \tr A - \sum_i lamb i 0 <= X.
Proof using d0 ds NE oW eA nu0 uC.
move=> eq en VE lE; cbv zeta.
have oV : orthonormal V by rewrite VE; apply: orthonormal_colblk.
pose dt : 'cV[R]_q := \col_i (if (e <= i)%N then d i 0 else 0).
have dtn : V *m diag_mx lamb^T *m V^T + nu *: (V *m V^T) + W *m diag_mx dt^T *m W^T = W *m diag_mx d^T *m W^T.
  have -> : V *m diag_mx lamb^T *m V^T + nu *: (V *m V^T) = V *m diag_mx (\col_i (lamb i 0 + nu))^T *m V^T.
    have -> : nu *: (V *m V^T) = V *m nu%:M *m V^T by rewrite mul_mx_scalar -scalemxAl.
    rewrite -mulmxDl -mulmxDr -diag_const_mx -raddfD; congr (_ *m diag_mx _ *m _).
    by apply/rowP=> i; rewrite !mxE.
  have ex c (X : 'M[R]_(n, c)) (y : 'cV[R]_c) a b : (X *m diag_mx y^T *m X^T) a b = \sum_i X a i * y i 0 * X b i.
    by rewrite mul_mx_diag mxE; apply: eq_bigr => i _; rewrite !mxE.
  apply/matrixP=> a b; rewrite mxE !ex [RHS](bigID (fun i : 'I_q => (i < e)%N)) /=; congr (_ + _).
    rewrite (big_ord_narrow eq) /=; apply: eq_bigr => i _.
    have xE c : V c i = W c (widen_ord eq i).
      by rewrite VE mxE add0n -(mxeE W c (widen_ord eq i)).
    by rewrite !xE mxE (lE i (widen_ord eq i)).
  rewrite [RHS]big_mkcond; apply: eq_bigr => i _; rewrite mxE -leqNgt; case: ifP => _ //.
  by rewrite mulr0 mul0r.
pose Ht := diag_mx (\col_i Num.sqrt (dt i 0))^T *m W^T.
have dt0 i : 0 <= dt i 0 by rewrite mxE; case: ifP.
have HtE : Ht^T *m Ht = W *m diag_mx dt^T *m W^T.
  have -> : Ht^T *m Ht = W *m (diag_mx (\col_i Num.sqrt (dt i 0))^T *m diag_mx (\col_i Num.sqrt (dt i 0))^T) *m W^T.
    by rewrite /Ht trmx_mul trmxK tr_diag_mx !mulmxA.
  rewrite mulmx_diag; congr (_ *m diag_mx _ *m _); apply/rowP => i.
  by rewrite [LHS]mxE ![_^T _ _]mxE [(\col_i Num.sqrt _) _ _]mxE -expr2 sqr_sqrtr.
have Htf : fro2 Ht = \sum_(i < q | (e <= i)%N) d i 0.
  rewrite (fro2_tr Ht) HtE mxtrace_mulC mulmxA oW mul1mx mxtrace_diag [RHS]big_mkcond.
  by apply: eq_bigr => i _; rewrite !mxE.
pose Gm := col_mx (K - P *m K) Ht.
have GE : Gm^T *m Gm = A + nu%:M - (V *m diag_mx lamb^T *m V^T + nu *: (V *m V^T)).
  rewrite /Gm tr_col_mx mul_row_col HtE -[W *m diag_mx dt^T *m W^T](addKr (V *m diag_mx lamb^T *m V^T + nu *: (V *m V^T))).
  rewrite dtn -NE; have := nysE; cbv zeta => ->; rewrite -[X in _ = X - _]rootKK.
  have := PP; have := PT; set P0 := P => h1 h2.
  have e1 : (P0 *m K)^T *m K = (P0 *m K)^T *m (P0 *m K).
    by rewrite trmx_mul h1 -(mulmxA K^T P0 (P0 *m K)) (mulmxA P0 P0) h2 mulmxA.
  have e2 : K^T *m (P0 *m K) = (P0 *m K)^T *m (P0 *m K).
    by rewrite -[LHS]trmxK trmx_mul trmxK e1 trmx_mul trmxK.
  have -> : (K - P0 *m K)^T *m (K - P0 *m K) = K^T *m K - (P0 *m K)^T *m (P0 *m K).
    by rewrite [(K - _)^T]linearB /= mulmxBl !mulmxBr e1 e2 subrr subr0.
  by rewrite [- _ + _]addrC addrA subrK.
have fG : fro2 Gm <= fro2 (K *m (1%:M - S *m M)) + \sum_(i < q | (e <= i)%N) d i 0.
  by rewrite /Gm fro2_col_mx Htf ler_add2r nys_best.
have AE : A - V *m diag_mx lamb^T *m V^T = Gm^T *m Gm - nu *: (1%:M - V *m V^T).
  rewrite GE scalerBr scalemx1 opprB opprD !addrA.
  by rewrite subrK [A + _ - _]addrAC addrK.
have r0 : 0 <= fro2 (1%:M - V *m V^T) <= n%:R.
  rewrite fro2_ge0 /= -[V *m V^T]mulmx1 -mulmxA fro2_resid // (fro2_tr (1%:M : 'M[R]_n)) trmx1 mulmx1 mxtrace1.
  by rewrite ler_subl_addr ler_addl fro2_ge0.
split.
  rewrite AE; apply: le_trans (ler_froB _ _) _; apply: ler_add; first by apply: le_trans (fro_gram _) fG.
  rewrite /fro fro2Z sqrtrM ?sqr_ge0 // sqrtr_sqr ger0_norm // mulrC ler_wpmul2r //.
  by rewrite ler_wsqrtr //; case/andP: r0.
have -> : \tr A - \sum_i lamb i 0 = \tr (A - V *m diag_mx lamb^T *m V^T).
  rewrite raddfB /= [\tr (V *m _ *m _)]mxtrace_mulC mulmxA oV mul1mx mxtrace_diag.
  by congr (_ - _); apply: eq_bigr => i _; rewrite mxE.
rewrite AE raddfB /= -(fro2_tr Gm) mxtraceZ; apply: le_trans fG.
rewrite ler_subl_addr ler_addl mulr_ge0 //.
rewrite raddfB /= mxtrace1 mxtrace_mulC oV mxtrace1 subr_ge0 ler_nat //.
Qed.
End WithW.
End WithS.
End Shift.
End Nys.

Section Evd2Err.
Variables (R : rcfType) (G : Type) (L : lapack R).
Hypothesis svdL : svd_spec L.

Lemma sqrt_nat_le n : Num.sqrt n%:R <= n%:R :> R.
Proof.
case: n => [|n]; first by rewrite sqrtr0.
rewrite -(@ler_pexpn2r _ 2) ?nnegrE ?sqrtr_ge0 ?ler0n // sqr_sqrtr ?ler0n // -natrX ler_nat.
by rewrite expnS expn1 leq_pmulr.
Qed.

Lemma psd_eig_sym n (A U : 'M[R]_n) t : psd_eig A U t -> A^T = A.
Proof. by case=> _ -> _ _; rewrite !trmx_mul trmxK tr_diag_mx mulmxA. Qed.

Lemma EVD2_trace (sk_op : rowsketcher) n (A U : 'M[R]_n) (t : 'cV[R]_n) (k over : int) (s s1 s2 : st G R)
    p (S : 'M[R]_(n, p)) e (V : 'M[R]_(n, e)) (lamb : 'cV[R]_e) (M : 'M[R]_(p, n)) :
  psd_eig A U t -> 0 < k < n%:Z -> 0 <= k + over -> (0 < p)%N ->
  sk_op (ofmx A) (absz (k + over)) s = (s1, inr (PyArr (ofmx S))) ->
  EVD2 L sk_op (ofmx A) k None over s = (s2, inr (ofmx V, ofcv lamb)) ->
  let nu := Num.sqrt n%:R * 2%:R ^- 52 * fro (A *m S) in
  let leak := \tr ((1%:M - S *m M)^T *m (A + nu%:M) *m (1%:M - S *m M)) in
  [/\ (e <= absz k)%N,
      fro (A - V *m diag_mx lamb^T *m V^T) <= leak + \sum_(i < n | (e <= i)%N) t i 0 + 2%:R * n%:R * nu,
      \tr A - \sum_i lamb i 0 <= leak + \sum_(i < n | (e <= i)%N) t i 0 + n%:R * nu &
      (e < absz k)%N -> forall i : 'I_n, i = e :> nat ->
        fro (A - V *m diag_mx lamb^T *m V^T) <= leak + t i 0 + 2%:R * n%:R * nu].
Proof using svdL.
move=> eA kn ko p0 Es E; have sA := psd_eig_sym eA; cbv zeta; rewrite -/(evd2_nu A S).
have nu0 := evd2_nu_ge0 A S.
have n0 : (0 < n)%N by move: kn; lia.
case: (EVD2P (tol := None) (s := s) svdL sA kn ko p0 erefl Es) => [[_ E']|]; first by rewrite E in E'.
move=> [sC [q [W [sg [qE oW NE [sg0 sd]]] H]]].
case: H => [[_ E']|[kq [e' [E' ek eP el]]]]; first by rewrite E in E'.
rewrite E in E'.
have eV := congr1 (fun x : (st G R * (exn + (arr R * seq R)))%type => if x.2 is inr y then y.1 else ofmx V) E'.
have elm := congr1 (fun x : (st G R * (exn + (arr R * seq R)))%type => if x.2 is inr y then y.2 else [::]) E'.
rewrite [LHS]/= [RHS]/= in eV; rewrite [LHS]/= [RHS]/= in elm.
have ee : e = e' := congr1 (@nc R) eV.
subst e'; move: (ofmx_inj eV) (ofcv_inj elm) => VE lE {eV elm E E'}.
move: nu0 sC NE eP lE; set nu := evd2_nu A S => nu0 sC NE eP lE.
have uC := spd_unit sC; have eq := leq_trans ek kq.
have en : (e <= n)%N by move: kn ek; clear; lia.
pose d : 'cV[R]_q := \col_i sg i 0 ^+ 2.
have dE i : d i 0 = sg i 0 ^+ 2 by rewrite mxE.
have d0 i : 0 <= d i 0 by rewrite dE sqr_ge0.
have ds (i j : 'I_q) : (i <= j)%N -> d j 0 <= d i 0.
  by move=> ij; rewrite !dE ler_pexpn2r ?nnegrE ?sg0 // sd.
have lE' (i : 'I_e) (j : 'I_q) : i = j :> nat -> lamb i 0 + nu = d j 0.
  move=> ij; rewrite lE mxE subrK dE (topvE _ (leq_trans (ltn_ord i) eq)).
  by congr (sg _ _ ^+ 2); apply: val_inj.
have [hf ht] := nys_trunc eA nu0 uC oW d0 ds NE M eq en VE lE'.
have -> : \tr ((1%:M - S *m M)^T *m (A + nu%:M) *m (1%:M - S *m M)) = fro2 (rootK U t nu *m (1%:M - S *m M)).
  rewrite -(rootKK eA nu0); move: (rootK U t nu) (1%:M - _) => K X; by rewrite (fro2_tr (K *m X)) trmx_mul !mulmxA.
have tl : \sum_(i < q | (e <= i)%N) d i 0 <= \sum_(i < n | (e <= i)%N) t i 0 + n%:R * nu.
  apply: le_trans (nys_tail eA nu0 uC oW d0 ds NE en) _; rewrite big_split /= ler_add2l.
  rewrite sumr_const -[_ *+ _]mulr_natl ler_wpmul2r // ler_nat.
  by apply: leq_trans (max_card _) _; rewrite card_ord.
have sn : Num.sqrt n%:R * nu <= n%:R * nu by rewrite ler_wpmul2r // sqrt_nat_le.
have two : 2%:R * n%:R * nu = n%:R * nu + n%:R * nu by rewrite -mulrA mulr_natl mulr2n.
split=> //.
- by apply: le_trans hf _; rewrite two !addrA ler_add // -!addrA ler_add2l.
- by apply: le_trans ht _; rewrite -!addrA ler_add2l.
move=> ek' i ie; apply: le_trans hf _; rewrite two !addrA ler_add // -!addrA ler_add2l.
have iq : (e < q)%N by exact: leq_trans ek' kq.
rewrite (bigD1 (Ordinal iq)) //=.
have w := nys_weyl eA nu0 uC oW d0 ds NE (i := Ordinal iq) (j := i) (esym ie).
have rs : \sum_(i < q | (e <= i)%N && (i != Ordinal iq)) d i 0 <= (n.-1)%:R * nu.
  have e1 := el ek'.
  have lo (j : 'I_q) : (e <= j)%N && (j != Ordinal iq) -> d j 0 <= nu.
    move=> /andP[ej jn]; have ej' : (e < j)%N.
      by rewrite ltn_neqAle ej andbT eq_sym; apply: contra jn => /eqP h; apply/eqP/val_inj.
    have jq : (e.+1 < q)%N by apply: leq_trans kq.
    apply: le_trans (ds (Ordinal jq) j ej') _; rewrite dE leNgt -eP //= ltnn //.
  apply: le_trans (_ : \sum_(j < q | (e <= j)%N && (j != Ordinal iq)) nu <= _); first exact: ler_sum.
  rewrite sumr_const -[_ *+ _]mulr_natl ler_wpmul2r // ler_nat.
  apply: leq_trans (_ : #|[pred j : 'I_q | j != Ordinal iq]| <= _)%N.
    by apply: subset_leq_card; apply/subsetP => j /andP[].
  rewrite cardC1 card_ord; move: qE; clear -iq; lia.
have nE : n%:R = 1 + n.-1%:R :> R by rewrite -[1]/(1%:R) -natrD add1n prednK.
by apply: le_trans (ler_add w rs) _; rewrite -addrA ler_add2l [in leRHS]nE mulrDl mul1r.
Qed.
End Evd2Err.
