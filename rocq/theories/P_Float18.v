(** Nystrom approximation from perturbed factors, on real matrices. *)
From mathcomp Require Import all_ssreflect all_algebra.
From mathcomp Require Import zify.
From Verif Require Import Base Arr Lapack Exact MxLib RingTac LapackSpec LapackExists Inexact Float FloatInterp FloatEvd FloatNys
  Sel P_Svd P_SvdEvd P_Opt P_Opt2 P_Inexact P_Float P_Float3 P_Float10 P_Float13.
Set Implicit Arguments.
Unset Strict Implicit.
Unset Printing Implicit Defensive.
Import Order.TTheory GRing.Theory Num.Theory.
Local Open Scope ring_scope.

Section NysCore.
Variables (R : rcfType) (n p : nat) (Y B : 'M[R]_(n, p)) (K L : 'M[R]_p) (Z : 'M[R]_(p, n)) (e0 e2 ft l kap : R).
Add Field nys_field : (rcf_field R).
Local Notation s := (Num.sqrt (kap - e2)).
Hypotheses (ft0 : 0 <= ft) (l0 : 0 <= l) (e00 : 0 <= e0).
Hypotheses (h1 : fro (Y - B *m L^T) <= e0 + ft * (l * fro B)) (h2 : fro (K - L *m L^T) <= e2) (hZ : K *m Z = Y^T)
  (co : forall w : 'cV[R]_p, kap * fro2 w <= \tr (w^T *m K *m w)) (ke : e2 < kap) (fs : ft * l < s).
Local Notation b := ((fro Y + e0) / (s - ft * l)).
Local Notation e1 := (e0 + ft * (l * b)).

Let s0 : 0 < s. Proof using ke. by rewrite sqrtr_gt0 subr_gt0. Qed.
Let e20 : 0 <= e2. Proof using h2. exact: le_trans (fro_ge0 _) h2. Qed.
Let fT a c (A : 'M[R]_(a, c)) : fro A^T = fro A. Proof. by rewrite /fro fro2_trmx. Qed.

Lemma coer_vec (w : 'cV[R]_p) : (kap - e2) * fro2 w <= fro2 (L^T *m w).
Proof using co h2.
have -> : fro2 (L^T *m w) = \tr (w^T *m K *m w) - fip w ((K - L *m L^T) *m w).
  rewrite fro2_tr trmx_mul trmxK /fip mulmxBl mulmxBr linearB /= !mulmxA opprB addrCA subrr addr0 //.
rewrite mulrBl; apply: ler_sub; first exact: co.
apply: le_trans (fip_fro _ _) _; apply: le_trans (ler_wpmul2l (fro_ge0 _) (fro_mul_le _ _)) _.
by rewrite mulrCA -expr2 sqr_fro; apply: ler_wpmul2r h2; exact: fro2_ge0.
Qed.
Lemma coer_mx q (W : 'M[R]_(p, q)) : (kap - e2) * fro2 W <= fro2 (L^T *m W).
Proof using co h2.
have cE a (A : 'M[R]_(a, q)) : fro2 A = \sum_j fro2 (col j A).
  by rewrite /fro2 exchange_big; apply: eq_bigr => j _; apply: eq_bigr => i _; rewrite big_ord1 mxE.
rewrite !cE mulr_sumr; apply: ler_sum => j _; rewrite !colE -mulmxA; exact: coer_vec.
Qed.
Lemma coer_fro q (W : 'M[R]_(p, q)) : s * fro W <= fro (L^T *m W).
Proof using co h2 ke.
rewrite -(@ler_pexpn2r _ 2) ?nnegrE ?mulr_ge0 ?fro_ge0 ?(ltW s0) // exprMn !sqr_fro sqr_sqrtr ?subr_ge0 ?(ltW ke) //.
exact: coer_mx.
Qed.
(** L^T has no kernel. *)
Lemma L_unit : L \in unitmx.
Proof using co h2 ke.
rewrite -row_free_unit -kermx_eq0.
have := coer_fro (cokermx L^T); rewrite mulmx_coker fro0 => h.
have {h}: fro (cokermx L^T) <= 0 by rewrite -(ler_pmul2l s0) mulr0.
rewrite le_eqVlt ltNge fro_ge0 orbF fro_eq0 cokermx_eq0 row_full_unit unitmx_tr -row_free_unit kermx_eq0 //.
Qed.
Local Notation Li := (invmx L).
Lemma LiT_le q (W : 'M[R]_(p, q)) : fro (Li^T *m W) <= fro W / s.
Proof using co h2 ke.
rewrite ler_pdivl_mulr // mulrC; apply: le_trans (coer_fro _) _.
by rewrite mulmxA -trmx_mul mulVmx ?L_unit // trmx1 mul1mx.
Qed.
Lemma Li_le q (W : 'M[R]_(p, q)) : fro (Li *m W) <= fro W / s.
Proof using co h2 ke.
have [->|z] := eqVneq (fro (Li *m W)) 0; first by rewrite divr_ge0 ?fro_ge0 ?(ltW s0).
have q0 : 0 < fro (Li *m W) by rewrite lt_def z fro_ge0.
rewrite -(ler_pmul2r q0) -expr2 sqr_fro.
have -> : fro2 (Li *m W) = fip W (Li^T *m (Li *m W)) by rewrite /fip fro2_tr trmx_mul !mulmxA.
apply: le_trans (fip_fro _ _) _; rewrite -mulrA; apply: ler_wpmul2l; first exact: fro_ge0.
by rewrite mulrC; exact: LiT_le.
Qed.

Lemma nys_B : fro B <= b.
Proof using co h2 ke h1 fs.
rewrite ler_pdivl_mulr ?subr_gt0 // mulrBr ler_subl_addr.
have BE : B^T = Li *m (B *m L^T)^T by rewrite trmx_mul trmxK mulKmx ?L_unit.
have := Li_le (B *m L^T)^T; rewrite -BE !fT ler_pdivl_mulr // => /le_trans; apply.
have -> : B *m L^T = Y - (Y - B *m L^T) by rewrite opprB addrC subrK.
apply: le_trans (ler_froB _ _) _; rewrite -addrA ler_add2l; apply: le_trans h1 _.
by rewrite ler_add2l [fro B * _]mulrC mulrA.
Qed.
Lemma nys_b0 : 0 <= b. Proof using fs e00. by apply: divr_ge0; [rewrite addr_ge0 ?fro_ge0|rewrite subr_ge0 ltW]. Qed.
Lemma nys_e1 : fro (Y - B *m L^T) <= e1.
Proof using co h2 ke h1 fs ft0 l0.
by apply: le_trans h1 _; rewrite ler_add2l; do 2!apply: ler_wpmul2l => //; exact: nys_B.
Qed.

Lemma nys_core : fro (Y *m Z - B *m B^T) <= e1 * fro Z + b / s * (e1 + e2 * fro Z).
Proof using co h2 ke h1 fs ft0 l0 hZ e00.
have uL := L_unit; set E1 := Y - B *m L^T; set E2 := K - L *m L^T.
have -> : Y *m Z - B *m B^T = E1 *m Z + (B *m Li) *m (E1^T - E2 *m Z).
  have BE : B *m B^T = B *m Li *m (L *m B^T) by rewrite mulmxA mulmxKV.
  have e1E : E1^T = Y^T - L *m B^T by rewrite linearB /= trmx_mul trmxK.
  have -> : E1^T - E2 *m Z = L *m (L^T *m Z) - L *m B^T.
    rewrite e1E /E2 mulmxBl hZ mulmxA; move: (Y^T) (L *m B^T) (_ *m Z) => X1 X2 X3.
    by apply/matrixP=> i j; rewrite !mxE; move: (X1 i j) (X2 i j) (X3 i j) => x1 x2 x3; rring.
  rewrite mulmxBr -BE /E1 mulmxBl [B *m Li *m (L *m _)]mulmxA mulmxKV //.
  by rewrite [in RHS]addrA mulmxA subrK.
apply: le_trans (ler_froD _ _) _; apply: ler_add.
  by apply: le_trans (fro_mul_le _ _) _; apply: ler_wpmul2r nys_e1; exact: fro_ge0.
apply: le_trans (fro_mul_le _ _) _; apply: ler_pmul; rewrite ?fro_ge0 //.
  rewrite -fT trmx_mul; apply: le_trans (LiT_le _) _; rewrite fT.
  by apply: ler_wpmul2r nys_B; rewrite invr_ge0 ltW.
apply: le_trans (ler_froB _ _) _; rewrite fT; apply: ler_add; first exact: nys_e1.
by apply: le_trans (fro_mul_le _ _) _; apply: ler_wpmul2r h2; exact: fro_ge0.
Qed.
End NysCore.

(** Truncated, shifted and rounded eigendecomposition of B B^T from a singular value decomposition of B. *)
Section NysTrunc.
Variables (R : rcfType) (n p q e : nat) (N : 'M[R]_n) (B : 'M[R]_(n, p)) (Uo : 'M[R]_(n, q)) (s : 'cV[R]_q) (Vo : 'M[R]_(q, p)).
Variables (Ue : 'M[R]_(n, e)) (lam : 'cV[R]_e) (mu nu b g2 dd : R).
Add Field nyst_field : (rcf_field R).
Hypotheses (mu0 : 0 <= mu) (nu0 : 0 <= nu) (g20 : 0 <= g2) (eq : (e <= q)%N) (oU : orthonormal Uo) (oV : orthonormal Vo^T)
  (s0 : forall i, 0 <= s i 0) (ss : forall i j : 'I_q, (i <= j)%N -> s j 0 <= s i 0).
Local Notation M := (Uo *m diag_mx s^T *m Vo).
Local Notation Uoe := (colblk Uo 0 e).
Hypotheses (hB : fro (B - M) <= mu * fro B) (Bb : fro B <= b) (hN : fro (N - B *m B^T) <= dd) (hU : fro (Ue - Uoe) <= mu)
  (hl : forall i, `|lam i 0 - (topv s e i 0 ^+ 2 - nu)| <= g2 * (topv s e i 0 ^+ 2 + nu)).
Local Notation er := (dd + mu * (2%:R + mu) * b ^+ 2).
Let s2 : 'cV[R]_q := \col_i (s i 0 ^+ 2).
Local Notation P := (Uo *m diag_mx s2^T *m Uo^T).
Let fT a c (A : 'M[R]_(a, c)) : fro A^T = fro A. Proof. by rewrite /fro fro2_trmx. Qed.
Let fO a c d (U : 'M[R]_(a, c)) (W : 'M[R]_(c, d)) : orthonormal U -> fro (U *m W) = fro W.
Proof. by move=> o; rewrite /fro fro2_ortho. Qed.
Let fOT a c d (U : 'M[R]_(a, c)) (W : 'M[R]_(d, c)) : orthonormal U -> fro (W *m U^T) = fro W.
Proof. by move=> o; rewrite -fT trmx_mul trmxK fO // fT. Qed.
Let b0 : 0 <= b. Proof using Bb. exact: le_trans (fro_ge0 _) Bb. Qed.

Lemma gram_M : M *m M^T = P.
Proof using oV.
rewrite !trmx_mul tr_diag_mx !mulmxA -(mulmxA _ Vo) -{1}[Vo]trmxK oV mulmx1 -(mulmxA Uo); congr (_ *m _ *m _).
by apply/matrixP=> i j; rewrite mul_diag_mx !mxE; case: eqP => [->|_]; rewrite ?mulr1n ?mulr0n ?mulr0 // expr2.
Qed.
Lemma fro_M : fro M <= (1 + mu) * b.
Proof using hB Bb mu0.
have -> : M = B - (B - M) by rewrite opprB addrC subrK.
apply: le_trans (ler_froB _ _) _; apply: le_trans (_ : (1 + mu) * fro B <= _); last first.
  by rewrite ler_wpmul2l // addr_ge0 ?ler01.
by rewrite mulrDl mul1r ler_add2l.
Qed.
Lemma trunc_P : fro (N - P) <= er.
Proof using hN hB Bb mu0 oV.
rewrite -gram_M; set D := B - M; have hD : fro D <= mu * b by apply: le_trans hB _; exact: ler_wpmul2l.
have -> : N - M *m M^T = (N - B *m B^T) + (D *m B^T + (M *m D^T)).
  rewrite /D [(B - M)^T]linearB /= mulmxBl mulmxBr; move: (M *m B^T) (M *m M^T) (B *m B^T) => X1 X2 X3.
  by apply/matrixP=> i j; rewrite !mxE; move: (N i j) (X1 i j) (X2 i j) (X3 i j) => x x1 x2 x3; rring.
apply: le_trans (ler_froD _ _) _; apply: ler_add => //.
apply: le_trans (ler_froD _ _) _; apply: le_trans (ler_add (fro_mul_le _ _) (fro_mul_le _ _)) _; rewrite !fT.
apply: le_trans (_ : mu * b * b + (1 + mu) * b * (mu * b) <= _); last by apply: eq_lew; rring.
by apply: ler_add; apply: ler_pmul; rewrite ?fro_ge0 // fro_M.
Qed.
Lemma svdP : is_svd P Uo s2 Uo^T.
Proof using oU s0 ss.
split=> //; rewrite ?trmxK //.
  by move=> i; rewrite mxE sqr_ge0.
by move=> i j ij; rewrite !mxE ler_expn2r ?nnegrE ?s0 // ss.
Qed.
Lemma trunc_X d (X : 'M[R]_n) : (d <= q)%N -> (\rank X <= d)%N ->
  let Ud := colblk Uo 0 d in
  is_true (fro (P - Ud *m diag_mx (topv s2 d)^T *m Ud^T) <= fro (P - X)).
Proof using oU s0 ss.
move=> dq rX Ud.
have BE : P = (1%:M : 'M[R]_n)^T *m P by rewrite trmx1 mul1mx.
have o1 : orthonormal (1%:M : 'M[R]_n) by rewrite /orthonormal trmx1 mulmx1.
have [_ _ _] := svd_trunc svdP dq o1 BE; rewrite mul1mx -tr_colblk => h.
rewrite fro_le h (fro2_svd svdP) topv_tail //; apply: eckart_young => //; rewrite ?trmxK //.
exact: svd_abs_sort svdP.
Qed.
Lemma fro_s2 : fro (topv s2 e) <= (1 + mu) ^+ 2 * b ^+ 2.
Proof using eq hB Bb mu0 oU oV s0 ss.
apply: (@le_trans _ _ (fro P)).
  rewrite fro_le (fro2_svd svdP) -subr_ge0 topv_tail //; apply: sumr_ge0 => i _; exact: sqr_ge0.
rewrite -gram_M; apply: le_trans (fro_mul_le _ _) _; rewrite fT -expr2 -exprMn ler_expn2r ?nnegrE ?mulr_ge0 ?addr_ge0 ?fro_ge0 ?ler01 //.
exact: fro_M.
Qed.
Lemma topv_s2 (i : 'I_e) : topv s2 e i 0 = topv s e i 0 ^+ 2.
Proof using eq. by rewrite !(topvE _ (leq_trans (ltn_ord i) eq)) mxE. Qed.

Let c1 : 'cV[R]_e := const_mx nu.
Lemma fro_c1 : fro c1 <= nu * Num.sqrt q%:R.
Proof using nu0 eq.
rewrite -(@ler_pexpn2r _ 2) ?nnegrE ?mulr_ge0 ?fro_ge0 ?sqrtr_ge0 // sqr_fro exprMn sqr_sqrtr ?ler0n // /fro2.
rewrite (eq_bigr (fun=> nu ^+ 2)) => [|i _]; last by rewrite big_ord1 mxE.
by rewrite sumr_const card_ord -mulr_natr ler_wpmul2l ?sqr_ge0 // ler_nat.
Qed.
Local Notation tau := ((1 + mu) ^+ 2 * b ^+ 2 + nu * Num.sqrt q%:R).
Lemma tau_le : fro (topv s2 e) + fro c1 <= tau.
Proof using eq hB Bb mu0 nu0 oU oV s0 ss. by rewrite ler_add ?fro_s2 ?fro_c1. Qed.
Lemma fro_w : fro (topv s2 e - c1 - lam) <= g2 * tau.
Proof using eq hB Bb mu0 nu0 oU oV s0 ss g20 hl.
apply: le_trans (_ : g2 * fro (topv s2 e + c1) <= _); last first.
  by rewrite ler_wpmul2l //; apply: le_trans (ler_froD _ _) tau_le.
apply: fro_dom => // i j; rewrite ord1 mxE [(topv s2 e - c1) i 0]mxE [(- c1) i 0]mxE [(- lam) i 0]mxE.
rewrite [(topv s2 e + c1) i 0]mxE [c1 i 0]mxE topv_s2 distrC; apply: le_trans (hl i) _; rewrite ler_wpmul2l //; exact: ler_norm.
Qed.
Lemma fro_lam : fro lam <= (1 + g2) * tau.
Proof using eq hB Bb mu0 nu0 oU oV s0 ss g20 hl.
have -> : lam = (topv s2 e - c1) - (topv s2 e - c1 - lam) by rewrite opprB addrC subrK.
apply: le_trans (ler_froB _ _) _; rewrite mulrDl mul1r; apply: ler_add fro_w.
exact: le_trans (ler_froB _ _) tau_le.
Qed.

Lemma trunc_err (X : 'M[R]_n) : (\rank X <= e)%N ->
  fro (N - Ue *m diag_mx lam^T *m Ue^T) <=
  fro (N - X) + 2%:R * er + nu * Num.sqrt q%:R + (g2 + mu * (2%:R + mu) * (1 + g2)) * tau.
Proof using All.
move=> rX; set D := diag_mx lam^T; set S2 := diag_mx (topv s2 e)^T.
have oUe : orthonormal Uoe by exact: orthonormal_colblk.
have fD (w : 'cV[R]_e) : fro (diag_mx w^T) = fro w by rewrite /fro fro2_diag.
have hP := trunc_P; have hX := trunc_X eq rX.
have -> : N - Ue *m D *m Ue^T = (N - P) + ((P - Uoe *m S2 *m Uoe^T) + (Uoe *m (S2 - D) *m Uoe^T -
    ((Ue - Uoe) *m D *m Uoe^T + (Uoe *m D *m (Ue - Uoe)^T + (Ue - Uoe) *m D *m (Ue - Uoe)^T)))).
  rewrite [(Ue - Uoe)^T]linearB /= mulmxBr !mulmxBl !mulmxBr.
  move: (Uoe *m S2 *m _) (Uoe *m D *m Uoe^T) (Ue *m D *m Uoe^T) (Uoe *m D *m Ue^T) (Ue *m D *m Ue^T) P => X1 X2 X3 X4 X5 X6.
  apply/matrixP=> i j; rewrite !mxE.
  by move: (N i j) (X1 i j) (X2 i j) (X3 i j) (X4 i j) (X5 i j) (X6 i j) => x x1 x2 x3 x4 x5 x6; rring.
have t1 : fro (P - Uoe *m S2 *m Uoe^T) <= er + fro (N - X).
  apply: le_trans hX _; have -> : P - X = (N - X) - (N - P) by rewrite opprB [RHS]addrC addrA subrK.
  by apply: le_trans (ler_froB _ _) _; rewrite addrC ler_add2r.
have t2 : fro (Uoe *m (S2 - D) *m Uoe^T) <= nu * Num.sqrt q%:R + g2 * tau.
  rewrite fOT // fO // -linearB /= -linearB /= fD.
  have -> : topv s2 e - lam = c1 + (topv s2 e - c1 - lam) by rewrite addrA [c1 + _]addrC subrK.
  by apply: le_trans (ler_froD _ _) _; apply: ler_add fro_c1 fro_w.
have t3 : fro ((Ue - Uoe) *m D *m Uoe^T + (Uoe *m D *m (Ue - Uoe)^T + (Ue - Uoe) *m D *m (Ue - Uoe)^T)) <=
    mu * (2%:R + mu) * ((1 + g2) * tau).
  have hd : fro D <= (1 + g2) * tau by rewrite fD fro_lam.
  have h x : 0 <= x -> x <= mu -> x * fro D <= mu * ((1 + g2) * tau) by move=> x0 xm; apply: ler_pmul => //; exact: fro_ge0.
  have k1 : fro ((Ue - Uoe) *m D) <= mu * ((1 + g2) * tau) by apply: le_trans (fro_mul_le _ _) _; apply: h => //; exact: fro_ge0.
  apply: le_trans (ler_froD _ _) _; apply: le_trans (ler_add (lexx _) (ler_froD _ _)) _.
  apply: (@le_trans _ _ (mu * ((1 + g2) * tau) + (mu * ((1 + g2) * tau) + mu * ((1 + g2) * tau) * mu))); last first.
    by apply: eq_lew; move: ((1 + g2) * tau) => y; rring.
  apply: ler_add; first by rewrite fOT.
  apply: ler_add.
    rewrite -mulmxA fO //; apply: le_trans (fro_mul_le _ _) _; rewrite fT mulrC; apply: h => //; exact: fro_ge0.
  by apply: le_trans (fro_mul_le _ _) _; rewrite fT; apply: ler_pmul => //; exact: fro_ge0.
apply: le_trans (ler_froD _ _) _; apply: le_trans (ler_add hP (ler_froD _ _)) _.
apply: le_trans (ler_add (lexx _) (ler_add t1 (ler_froB _ _))) _.
apply: le_trans (ler_add (lexx _) (ler_add (lexx _) (ler_add t2 t3))) _.
apply: eq_lew; move: tau er (fro (N - X)) (nu * Num.sqrt q%:R) => y1 y2 y3 y4; rring.
Qed.

Lemma trunc_tail d w : (d <= q)%N -> 0 <= w -> (forall i : 'I_q, (d <= i)%N -> s i 0 ^+ 2 <= w) ->
  exists2 X : 'M[R]_n, (\rank X <= d)%N & fro (N - X) <= Num.sqrt q%:R * w + er.
Proof using hN hB Bb mu0 oV oU s0 ss.
move=> dq w0 sw; set Ud := colblk Uo 0 d.
exists (Ud *m diag_mx (topv s2 d)^T *m Ud^T).
  by apply: leq_trans (mxrankM_maxl _ _) _; apply: leq_trans (mxrankM_maxr _ _) _; exact: rank_leq_row.
set X := _ *m _ *m _; have -> : N - X = (N - P) + (P - X) by rewrite addrA subrK.
apply: le_trans (ler_froD _ _) _; rewrite addrC; apply: ler_add trunc_P.
have BE : P = (1%:M : 'M[R]_n)^T *m P by rewrite trmx1 mul1mx.
have o1 : orthonormal (1%:M : 'M[R]_n) by rewrite /orthonormal trmx1 mulmx1.
have [_ _ _] := svd_trunc svdP dq o1 BE; rewrite mul1mx -tr_colblk -/Ud -/X => h.
rewrite -(@ler_pexpn2r _ 2) ?nnegrE ?mulr_ge0 ?fro_ge0 ?sqrtr_ge0 // sqr_fro exprMn sqr_sqrtr ?ler0n //.
rewrite h (fro2_svd svdP) topv_tail //.
apply: le_trans (_ : \sum_(i < q | (d <= i)%N) w ^+ 2 <= _).
  by apply: ler_sum => i di; rewrite mxE ler_expn2r ?nnegrE ?sqr_ge0 // sw.
rewrite sumr_const -mulr_natl ler_wpmul2r ?sqr_ge0 // ler_nat; apply: leq_trans (max_card _) _; by rewrite card_ord.
Qed.
End NysTrunc.
