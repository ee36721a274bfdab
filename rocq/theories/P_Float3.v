(** Proofs of C100, continued: the blocked QB in rounded arithmetic. *)
From mathcomp Require Import all_ssreflect all_algebra.
From mathcomp Require Import zify.
From Verif Require Import Base Arr Lapack Exact MxLib RingTac LapackSpec Rng Aware RangeFinders QB Shape Inexact Float.
From Verif Require Import P_Shape P_Opt2 P_Inexact P_Float P_Float2.
Set Implicit Arguments.
Unset Strict Implicit.
Unset Printing Implicit Defensive.
Import Order.TTheory GRing.Theory Num.Theory.
Local Open Scope ring_scope.

Section Step.
Variables (R : rcfType) (eta u : R).
Hypotheses (e01 : 0 <= eta < 1) (u0 : 0 <= u).
Add Field step_field : (rcf_field R).
Local Notation g := (gam u).

Lemma eq_lew (x y : R) : x = y -> x <= y. Proof. by move->. Qed.

Lemma sq_near (x y d : R) : 0 <= x -> 0 <= y -> x <= y + d -> y <= x + d -> `|x ^+ 2 - y ^+ 2| <= d * (2%:R * y + d).
Proof.
move=> x0 y0 h1 h2; have d0 : 0 <= d.
  by have := ler_add h1 h2; rewrite addrACA [y + x]addrC ler_addl -mulr2n pmulrn_lge0.
rewrite subr_sqr normrM [`|x + y|]ger0_norm ?addr_ge0 //; apply: ler_pmul => //; first exact: addr_ge0.
  rewrite ler_norml; apply/andP; split; last by rewrite ler_subl_addl.
  by rewrite ler_subr_addl ler_subl_addr.
by rewrite mulr_natl mulr2n [_ + d]addrC addrA ler_add2r addrC.
Qed.

Variables (m n k : nat).
Local Notation s := (Num.sqrt (1 + eta)).
Local Notation t := (Num.sqrt (1 - eta))^-1.
Local Notation be := (fl_beta eta u m k).
Local Notation om := (fl_omega eta u m k).
Local Notation ka := (fl_kappa eta u m k).
Local Notation K := (fl_K eta u m n k).

Let e0 : 0 <= eta. Proof using e01. by case/andP: e01. Qed.
Let s0 : 0 <= s. Proof. exact: sqrtr_ge0. Qed.
Let t0 : 0 <= t. Proof. by rewrite invr_ge0 sqrtr_ge0. Qed.
Let q0 : 0 <= s * Num.sqrt k%:R. Proof. by rewrite mulr_ge0 ?sqrtr_ge0. Qed.

Lemma be_ge0 : 0 <= be. Proof using u0. by rewrite mulr_ge0 ?(gam_ge0 u0). Qed.
Lemma om_ge0 : 0 <= om.
Proof using u0.
have h1 : 0 <= 1 + u by exact: addr_ge0 ler01 u0.
have h2 : 0 <= t + be by exact: addr_ge0 t0 be_ge0.
have h3 : 0 <= 1 + s * be by apply: addr_ge0 ler01 _; rewrite mulr_ge0 ?be_ge0.
by apply: addr_ge0; [rewrite !mulr_ge0 ?(gam_ge0 u0) ?sqrtr_ge0|rewrite mulr_ge0].
Qed.
Lemma ka_ge0 : 0 <= ka.
Proof using u0 e01.
have /andP[_ e1] := e01; rewrite /fl_kappa; cbv zeta.
have w0 : 0 <= om + s * be by apply: addr_ge0 om_ge0 _; rewrite mulr_ge0 ?be_ge0.
have h1 : 0 <= 2%:R + (om + s * be) by exact: addr_ge0 (ler0n _ _) w0.
have h2 : 0 <= 2%:R / Num.sqrt (1 - eta) + be by apply: addr_ge0 be_ge0; rewrite mulr_ge0 ?ler0n.
apply: addr_ge0; last by rewrite mulr_ge0 ?be_ge0.
by apply: addr_ge0; rewrite mulr_ge0 // invr_ge0 subr_ge0 ltW.
Qed.
Lemma K_ge : u <= K /\ ka <= K.
Proof using u0 e01.
have h1 : 1 <= 1 + ka by rewrite ler_addl ka_ge0.
have h2 : 1 + u <= (1 + u) ^+ (k + n + 5).
  by rewrite -{1}[1 + u]expr1 ler_weexpn2l ?ler_addl // addnC.
have h3 : 1 <= (1 + u) ^+ (k + n + 5) by apply: le_trans h2; rewrite ler_addl.
have p0 : 0 <= 1 + ka by exact: le_trans h1.
by rewrite /fl_K; split; rewrite ler_subr_addl; [apply: le_trans h2 _; rewrite ler_pemull // (le_trans ler01)|rewrite ler_pemulr].
Qed.
Lemma K_ge0 : 0 <= K. Proof using u0 e01. by case: K_ge => h _; exact: le_trans h. Qed.

Section One.
Variables (j : nat) (Rm R' P : 'M[R]_(m, n)) (Q : 'M[R]_(m, j)) (B : 'M[R]_(j, n)).
Hypotheses (jk : (j <= k)%N) (nQ : near_ortho eta Q).
Local Notation N := (fro Rm).
Hypothesis (hB : fro (B - Q^T *m Rm) <= fl_beta eta u m j * N).
Hypothesis (hP : fro (P - Q *m B) <= g j.+1 * (fro Q * fro B)).
Hypothesis (hR : fro (R' - (Rm - P)) <= u * fro (Rm - P)).

Lemma step_be : fro (B - Q^T *m Rm) <= be * N.
Proof using hB jk u0.
apply: le_trans hB _; apply: ler_wpmul2r; first exact: fro_ge0.
by apply: ler_wpmul2l; [exact: gam_ge0 u0 _|apply: ler_wpmul2l => //; rewrite ler_wsqrtr // ler_nat].
Qed.

Lemma step_QtR : fro (Q^T *m Rm) <= t * N.
Proof using nQ e01. by rewrite mulrC; exact: near_tr. Qed.

Lemma step_B : fro B <= (t + be) * N.
Proof using hB jk u0 nQ e01.
rewrite -(subrK (Q^T *m Rm) B) addrC mulrDl; apply: le_trans (ler_froD _ _) _.
exact: ler_add step_QtR step_be.
Qed.

Lemma step_QB : fro (Q *m (B - Q^T *m Rm)) <= s * be * N.
Proof using hB jk u0 nQ e01.
by rewrite -mulrA; apply: le_trans (near_up _ e0 nQ) _; apply: ler_wpmul2l => //; exact: step_be.
Qed.

Lemma step_res : fro (Rm - Q *m (Q^T *m Rm)) <= N.
Proof using nQ e01. by apply: near_contr nQ; case/andP: e01 => -> /ltW ->. Qed.

Lemma step_drift : fro (R' - (Rm - Q *m B)) <= om * N.
Proof using hB hP hR jk u0 nQ e01.
have N0 : 0 <= N by exact: fro_ge0.
have hQ : fro Q <= s * Num.sqrt k%:R.
  by apply: le_trans (near_fro e0 nQ) _; apply: ler_wpmul2l => //; rewrite ler_wsqrtr // ler_nat.
have dP : fro (P - Q *m B) <= g k.+1 * (s * Num.sqrt k%:R) * ((t + be) * N).
  apply: le_trans hP _; rewrite -mulrA; apply: ler_pmul; first exact: gam_ge0.
  - by rewrite mulr_ge0 ?fro_ge0.
  - exact: gam_le.
  by apply: ler_pmul; rewrite ?fro_ge0 // step_B.
have dR : fro (Rm - Q *m B) <= (1 + s * be) * N.
  have -> : Rm - Q *m B = (Rm - Q *m (Q^T *m Rm)) - Q *m (B - Q^T *m Rm) by rewrite mulmxBr opprB addrA subrK.
  by apply: le_trans (ler_froD _ _) _; rewrite froN mulrDl mul1r; exact: ler_add step_res step_QB.
have dRP : fro (Rm - P) <= fro (Rm - Q *m B) + fro (P - Q *m B).
  have -> : Rm - P = (Rm - Q *m B) - (P - Q *m B) by rewrite opprB addrA subrK.
  by apply: le_trans (ler_froD _ _) _; rewrite froN.
have -> : R' - (Rm - Q *m B) = (R' - (Rm - P)) - (P - Q *m B).
  by rewrite !opprB -addrA; congr (_ + _); rewrite [RHS]addrC addrA subrK.
apply: le_trans (ler_froD _ _) _; rewrite froN.
apply: le_trans (ler_add (le_trans hR (ler_wpmul2l u0 dRP)) (lexx _)) _.
have -> : u * (fro (Rm - Q *m B) + fro (P - Q *m B)) + fro (P - Q *m B) =
  (1 + u) * fro (P - Q *m B) + u * fro (Rm - Q *m B) by move: (fro _) (fro _) => x y; rring.
apply: le_trans (ler_add (ler_wpmul2l (addr_ge0 ler01 u0) dP) (ler_wpmul2l u0 dR)) _.
by apply: eq_lew; rewrite /fl_omega; move: (Num.sqrt k%:R) s t be (g _) => a b c d e; rring.
Qed.

Lemma step_sq : `|fro2 R' - (fro2 Rm - fro2 B)| <= ka * fro2 Rm.
Proof using hB hP hR jk u0 nQ e01.
have /andP[_ e1] := e01; have e10 : 0 < 1 - eta by rewrite subr_gt0.
have N0 : 0 <= N by exact: fro_ge0.
set w := om + s * be; set C := Rm - Q *m (Q^T *m Rm).
have w0 : 0 <= w by apply: addr_ge0 om_ge0 _; rewrite mulr_ge0 ?be_ge0.
have d1 : fro (R' - C) <= w * N.
  have -> : R' - C = (R' - (Rm - Q *m B)) - Q *m (B - Q^T *m Rm).
    by rewrite /C mulmxBr !opprB -addrA; congr (_ + _); rewrite [RHS]addrC addrA subrK.
  by apply: le_trans (ler_froD _ _) _; rewrite froN mulrDl; exact: ler_add step_drift step_QB.
have C0 := fro_ge0 C.
have a1 : fro R' <= fro C + w * N.
  by rewrite -{1}(subrK C R') addrC; apply: le_trans (ler_froD _ _) _; rewrite ler_add2l.
have a2 : fro C <= fro R' + w * N.
  have {1}-> : C = R' - (R' - C) by rewrite opprB addrC subrK.
  by apply: le_trans (ler_froD _ _) _; rewrite froN ler_add2l.
have E1 : `|fro2 R' - fro2 C| <= w * (2%:R + w) * fro2 Rm.
  rewrite -!sqr_fro; apply: le_trans (sq_near (fro_ge0 _) C0 a1 a2) _.
  apply: le_trans (_ : w * N * (2%:R * N + w * N) <= _).
    by apply: ler_wpmul2l; [exact: mulr_ge0|rewrite ler_add2r; apply: ler_wpmul2l; [exact: ler0n|exact: step_res]].
  by apply: eq_lew; move: (fro Rm) (w) => x y; rring.
have E2 : `|fro2 B - fro2 (Q^T *m Rm)| <= be * (2%:R / Num.sqrt (1 - eta) + be) * fro2 Rm.
  have b1 : fro B <= fro (Q^T *m Rm) + be * N.
    by rewrite -{1}(subrK (Q^T *m Rm) B) addrC; apply: le_trans (ler_froD _ _) _; rewrite ler_add2l step_be.
  have b2 : fro (Q^T *m Rm) <= fro B + be * N.
    have {1}-> : Q^T *m Rm = B - (B - Q^T *m Rm) by rewrite opprB addrC subrK.
    by apply: le_trans (ler_froD _ _) _; rewrite froN ler_add2l step_be.
  rewrite -!sqr_fro; apply: le_trans (sq_near (fro_ge0 _) (fro_ge0 _) b1 b2) _.
  apply: le_trans (_ : be * N * (2%:R * (t * N) + be * N) <= _).
    by apply: ler_wpmul2l; [rewrite mulr_ge0 // be_ge0|rewrite ler_add2r; apply: ler_wpmul2l; [exact: ler0n|exact: step_QtR]].
  by apply: eq_lew; move: (fro Rm) t be => x y z; rring.
have E3 : `|fro2 C - (fro2 Rm - fro2 (Q^T *m Rm))| <= eta / (1 - eta) * fro2 Rm.
  apply: le_trans (near_resid Rm e0 nQ) _; rewrite -mulrA; apply: ler_wpmul2l => //.
  have h : fro (Q^T *m Rm) ^+ 2 <= (t * N) ^+ 2 by rewrite ler_expn2r ?nnegrE ?mulr_ge0 ?fro_ge0 // step_QtR.
  by move: h; rewrite exprMn !sqr_fro exprVn sqr_sqrtr ?(ltW e10).
have -> : fro2 R' - (fro2 Rm - fro2 B) =
  (fro2 C - (fro2 Rm - fro2 (Q^T *m Rm))) + (fro2 R' - fro2 C) + (fro2 B - fro2 (Q^T *m Rm)).
  by move: (fro2 _) (fro2 _) (fro2 _) (fro2 _) (fro2 _) => x1 x2 x3 x4 x5; rring.
apply: le_trans (ler_norm_add _ _) _; rewrite /fl_kappa; cbv zeta; rewrite -/w 2!mulrDl; apply: ler_add => //.
by apply: le_trans (ler_norm_add _ _) _; exact: ler_add.
Qed.

(** The running squared norm. *)
Lemma step_sqn (sq nb sq' e : R) : `|sq - fro2 Rm| <= e ->
  `|nb - fro2 B| <= g (j + n + 4) * fro2 B -> `|sq' - (sq - nb)| <= u * `|sq - nb| ->
  `|sq' - fro2 R'| <= (1 + u) * e + K * fro2 Rm.
Proof using hB hP hR jk u0 nQ e01.
move=> h1 h2 h3; have S := step_sq.
have k0 := ka_ge0; have N0 := fro2_ge0 Rm; have b0 := fro2_ge0 B; have r0 := fro2_ge0 R'.
have g0 : 0 <= g (k + n + 4) by exact: gam_ge0.
have b1 : fro2 B <= (1 + ka) * fro2 Rm.
  move: S; rewrite ler_norml => /andP[_]; rewrite ler_subl_addr => S.
  have := le_trans r0 S; rewrite -subr_ge0 => {}S; rewrite -subr_ge0; apply: le_trans S _.
  by apply: eq_lew; move: (fro2 _) (fro2 _) ka => x y z; rring.
have nb1 : `|nb - fro2 B| <= g (k + n + 4) * ((1 + ka) * fro2 Rm).
  apply: le_trans h2 _; apply: ler_pmul => //; first exact: gam_ge0.
  by apply: gam_le => //; rewrite !leq_add2r.
have d1 : `|fro2 Rm - fro2 B| <= (1 + ka) * fro2 Rm.
  rewrite ler_norml; apply/andP; split.
    rewrite -subr_ge0; apply: le_trans (_ : 0 <= ((1 + ka) * fro2 Rm - fro2 B) + fro2 Rm) _.
      by rewrite addr_ge0 // subr_ge0.
    by apply: eq_lew; move: (fro2 _) (fro2 _) (_ * _) => x y z; rring.
  apply: le_trans (_ : fro2 Rm <= _); first by rewrite ger_addl oppr_le0.
  by rewrite mulrDl mul1r ler_addl mulr_ge0.
have d2 : `|sq - nb| <= e + (1 + ka) * fro2 Rm + g (k + n + 4) * ((1 + ka) * fro2 Rm).
  have -> : sq - nb = (sq - fro2 Rm) + (fro2 Rm - fro2 B) - (nb - fro2 B).
    by move: (fro2 _) (fro2 _) => x y; rring.
  apply: le_trans (ler_norm_sub _ _) _; apply: ler_add => //.
  by apply: le_trans (ler_norm_add _ _) _; exact: ler_add.
have -> : sq' - fro2 R' = (sq' - (sq - nb)) + (sq - fro2 Rm) - (nb - fro2 B) - (fro2 R' - (fro2 Rm - fro2 B)).
  by move: (fro2 _) (fro2 _) (fro2 _) => x y z; rring.
apply: le_trans (ler_norm_sub _ _) _.
apply: le_trans (_ : (u * (e + (1 + ka) * fro2 Rm + g (k + n + 4) * ((1 + ka) * fro2 Rm)) + e + g (k + n + 4) * ((1 + ka) * fro2 Rm)) + ka * fro2 Rm <= _).
  apply: ler_add => //; apply: le_trans (ler_norm_sub _ _) _; apply: ler_add => //.
  apply: le_trans (ler_norm_add _ _) _; apply: ler_add => //.
  by apply: le_trans h3 _; exact: ler_wpmul2l.
apply: eq_lew; rewrite /fl_K (_ : (k + n + 5)%N = (k + n + 4).+1) ?addnS // exprS /gam.
by move: (_ ^+ _) ka (fro2 Rm) => a b c; rring.
Qed.
End One.
End Step.
