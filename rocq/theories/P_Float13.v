(** Proofs of C105: EVD1 and evd1 in rounded arithmetic. *)
From mathcomp Require Import all_ssreflect all_algebra.
From mathcomp Require Import zify.
From Verif Require Import Base Arr Lapack Exact MxLib RingTac Sel LapackSpec LapackExists Rng Aware RangeFinders QB SvdEvd Shape Inexact Float FloatEvd.
From Verif Require Import P_Svd P_SvdEvd P_Svd1 P_Evd P_Interp4 P_Opt P_Opt2.
From Verif Require Import P_Shape P_RF P_Inexact P_Inexact4 P_Float P_Float2 P_Float3 P_Float5 P_Float7 P_Float10 P_Float11.
From Verif Require Import Sketching P_Sketch2 P_Iso P_Embed P_Embed2 P_Prob P_Prob2 P_Prob4 P_ShapeLS P_Embed3 P_Evd3.
Set Implicit Arguments.
Unset Strict Implicit.
Unset Printing Implicit Defensive.
Import Order.TTheory GRing.Theory Num.Theory.
Local Open Scope ring_scope.

Section Pre.
Variables (R : rcfType).
Add Field evd_pre_field : (rcf_field R).

Lemma near_tr_r eta m c n (Q : 'M[R]_(m, c)) (Y : 'M[R]_(m, n)) : 0 <= eta -> near_ortho eta Q ->
  fro (Q^T *m Y) <= Num.sqrt (1 + eta) * fro Y.
Proof.
move=> e0 nQ; have [->|z] := eqVneq (fro (Q^T *m Y)) 0; first by rewrite mulr_ge0 ?sqrtr_ge0 ?fro_ge0.
have p : 0 < fro (Q^T *m Y) by rewrite lt_def z fro_ge0.
rewrite -(ler_pmul2r p) -expr2 sqr_fro.
have -> : fro2 (Q^T *m Y) = fip Y (Q *m (Q^T *m Y)) by rewrite /fip fro2_tr trmx_mul trmxK !mulmxA.
apply: le_trans (fip_fro _ _) _; rewrite [X in _ <= X]mulrAC [X in X <= _]mulrC; apply: ler_wpmul2r; first exact: fro_ge0.
exact: near_up.
Qed.

Lemma near_mulT eta m c n (Q : 'M[R]_(m, c)) (Y : 'M[R]_(n, c)) : 0 <= eta -> near_ortho eta Q ->
  fro (Y *m Q^T) <= Num.sqrt (1 + eta) * fro Y.
Proof.
by move=> e0 nQ; have := near_up Y^T e0 nQ; rewrite /fro -fro2_trmx trmx_mul trmxK fro2_trmx.
Qed.

Lemma near_mulr eta m c n (Q : 'M[R]_(m, c)) (Y : 'M[R]_(n, m)) : 0 <= eta -> near_ortho eta Q ->
  fro (Y *m Q) <= Num.sqrt (1 + eta) * fro Y.
Proof.
by move=> e0 nQ; have := near_tr_r Y^T e0 nQ; rewrite /fro -trmx_mul !fro2_trmx.
Qed.

(** Mirroring the lower triangle. *)
Lemma low_le n (E : 'M[R]_n) : fro (\matrix_(i, j) (if (j <= i)%N then E i j else E j i)) <= Num.sqrt 2%:R * fro E.
Proof.
rewrite -sqrtrM ?ler0n // ler_wsqrtr // mulr_natl mulr2n.
rewrite -[X in _ <= _ + X]fro2_trmx /fro2 -big_split; apply: ler_sum => i _; rewrite -big_split; apply: ler_sum => j _ /=.
by rewrite !mxE; case: ifP => _; rewrite ?ler_addl ?ler_addr sqr_ge0.
Qed.
End Pre.

(** ** Truncating a symmetric eigenvalue decomposition, on real matrices. *)
Section Chain.
Variables (R : rcfType) (n c e k : nat) (eta mu beta u ct : R).
Variables (A : 'M[R]_n) (Q : 'M[R]_(n, c)) (B : 'M[R]_(c, n)) (H : 'M[R]_c).
Variables (W : 'M[R]_c) (w : 'cV[R]_c) (Ue : 'M[R]_(c, e)) (V : 'M[R]_(n, e)).
Hypotheses (e01 : 0 <= eta < 1) (mu0 : 0 <= mu) (b0 : 0 <= beta) (u0 : 0 <= u) (nQ : near_ortho eta Q) (ec : (e <= c)%N).
Hypotheses (sA : A^T = A) (oW : orthonormal W) (ws : forall i j : 'I_c, (i <= j)%N -> `|w j 0| <= `|w i 0|).
Local Notation M := (W *m diag_mx w^T *m W^T).
Local Notation We := (colblk W 0 e).
Local Notation D := (diag_mx (topv w e)^T).
Local Notation S := (Q^T *m A *m Q).
Local Notation r := (Num.sqrt (1 + eta)).
Local Notation d := (fl_du eta mu u c).
Local Notation h := (fl_low eta beta u n c).
Local Notation E0 := (fro (A - Q *m B)).
Hypotheses (hB : fro (B - Q^T *m A) <= beta * fro A) (hH : fro (H - S) <= h * fro A)
  (hM : fro (H - M) <= mu * fro H) (hU : fro (Ue - We) <= mu)
  (hQU : fro (V - Q *m Ue) <= gam u c.+1 * (fro Q * fro Ue))
  (small : forall i : 'I_c, (e <= i < k)%N -> w i 0 ^+ 2 <= ct ^+ 2).
Add Field evd_chain_field : (rcf_field R).
Let eta0 : 0 <= eta. Proof using e01. by case/andP: e01. Qed.
Let r0 : 0 <= r. Proof. exact: sqrtr_ge0. Qed.
Let r2 : r * r = 1 + eta. Proof using e01. by rewrite -expr2 sqr_sqrtr // (addr_ge0 ler01 eta0). Qed.
Let a0 : 0 <= fro A := fro_ge0 _.

Lemma two_up (Z : 'M[R]_c) : fro (Q *m Z *m Q^T) <= (1 + eta) * fro Z.
Proof using e01 nQ.
apply: le_trans (near_mulT _ eta0 nQ) _; rewrite -[X in _ <= X * _]r2 -mulrA; apply: ler_wpmul2l => //; exact: near_up.
Qed.

Lemma two_down (Z : 'M[R]_n) : fro (Q^T *m Z *m Q) <= (1 + eta) * fro Z.
Proof using e01 nQ.
apply: le_trans (near_mulr _ eta0 nQ) _; rewrite -[X in _ <= X * _]r2 -mulrA; apply: ler_wpmul2l => //; exact: near_tr_r.
Qed.

Lemma evd_S : fro (A - Q *m S *m Q^T) <= (2%:R + eta) * (E0 + r * beta * fro A).
Proof using e01 nQ sA hB.
set Z := A - Q *m (Q^T *m A).
have hZ : fro Z <= E0 + r * beta * fro A.
  have -> : Z = (A - Q *m B) + Q *m (B - Q^T *m A) by rewrite mulmxBr addrA subrK.
  apply: le_trans (ler_froD _ _) _; rewrite ler_add2l; apply: le_trans (near_up _ eta0 nQ) _.
  by rewrite -mulrA; exact: ler_wpmul2l.
have ZT : Z^T = A - A *m Q *m Q^T by rewrite /Z linearB /= !trmx_mul trmxK sA.
have -> : A - Q *m S *m Q^T = Z + Q *m (Q^T *m Z^T).
  by rewrite ZT !mulmxBr /Z !mulmxA addrA subrK.
apply: le_trans (ler_froD _ _) _.
apply: (@le_trans _ _ (fro Z + (1 + eta) * fro Z)).
  rewrite ler_add2l; apply: le_trans (near_up _ eta0 nQ) _; rewrite -[X in _ <= X * _]r2 -mulrA; apply: ler_wpmul2l => //.
  by apply: le_trans (near_tr_r _ eta0 nQ) _; rewrite /fro fro2_trmx.
rewrite -{1}[fro Z]mul1r -mulrDl addrA -[1 + 1]/(2%:R); apply: ler_wpmul2l => //.
by rewrite addr_ge0 ?ler0n.
Qed.

Lemma evd_H : fro H <= (1 + eta + h) * fro A.
Proof using e01 nQ hH.
rewrite -(subrK S H) addrC; apply: le_trans (ler_froD _ _) _; rewrite mulrDl; apply: ler_add hH; exact: two_down.
Qed.

Lemma evd_M : fro M = fro w.
Proof using oW.
by rewrite /fro -mulmxA fro2_ortho // -fro2_trmx trmx_mul trmxK fro2_ortho // fro2_trmx fro2_diag.
Qed.

Lemma evd_D : fro D <= (1 + mu) * fro H.
Proof using ec oW hM.
rewrite {1}/fro fro2_diag; apply: (@le_trans _ _ (fro M)).
  rewrite evd_M ler_wsqrtr // -subr_ge0 topv_tail //; apply: sumr_ge0 => i _; exact: sqr_ge0.
have -> : M = H - (H - M) by rewrite opprB addrC subrK.
by apply: le_trans (ler_froB _ _) _; rewrite mulrDl mul1r ler_add2l.
Qed.

Lemma oWe : orthonormal We. Proof using ec oW. exact: orthonormal_colblk. Qed.

Lemma evd_tail (Y : 'M[R]_n) : (\rank Y <= k)%N ->
  fro (M - We *m D *m We^T) <= mu * fro H + h * fro A + (1 + eta) * fro (A - Y) + Num.sqrt c%:R * `|ct|.
Proof using e01 nQ ec oW ws hM hH small.
move=> rY; set Y' := Q^T *m Y *m Q.
have rY' : (\rank Y' <= k)%N.
  exact: leq_trans (mxrankM_maxl _ _) (leq_trans (mxrankM_maxr _ _) rY).
have core : We^T *m M *m We = D.
  rewrite colblkE [(W *m _)^T]trmx_mul !mulmxA -(mulmxA _ W^T W) oW mulmx1 -[_ *m W *m diag_mx _]mulmxA.
  rewrite -(mulmxA _ W^T) (mulmxA W^T W) oW mul1mx -mulmxA diag_selmx // mulmxA selmxP // mul1mx //.
have h1 : fro2 (M - We *m D *m We^T) <= fro2 (M - Y') + c%:R * ct ^+ 2.
  rewrite (core_error oWe oWe core).
  have -> : fro2 M = fro2 w by rewrite -!sqr_fro evd_M.
  rewrite topv_tail //; apply: le_trans (tail_le (k := k) (t := ct ^+ 2) _ (sqr_ge0 _)) _; first exact: small.
  by rewrite ler_add2r; apply: eckart_young => //; rewrite trmxK.
have h2 : fro (M - We *m D *m We^T) <= fro (M - Y') + Num.sqrt c%:R * `|ct|.
  rewrite -(@ler_pexpn2r _ 2) ?nnegrE ?addr_ge0 ?mulr_ge0 ?fro_ge0 ?sqrtr_ge0 //.
  rewrite !sqr_fro sqrrD sqr_fro exprMn sqr_sqrtr ?ler0n // real_normK ?num_real //.
  apply: le_trans h1 _; rewrite ler_add2r ler_addl mulrn_wge0 // mulr_ge0 ?fro_ge0 // mulr_ge0 ?sqrtr_ge0 //.
apply: le_trans h2 _; rewrite ler_add2r.
have -> : M - Y' = - (H - M) + ((H - S) + Q^T *m (A - Y) *m Q).
  rewrite /Y' mulmxBr mulmxBl; move: S (Q^T *m Y *m Q) M => X1 X2 X3.
  by apply/matrixP=> i j; rewrite !mxE; move: (H i j) (X1 i j) (X2 i j) (X3 i j) => y0 y1 y2 y3; rring.
apply: le_trans (ler_froD _ _) _; rewrite froN -[X in _ <= X]addrA; apply: ler_add => //.
apply: le_trans (ler_froD _ _) _; apply: ler_add => //; exact: two_down.
Qed.

Lemma evd_dV : fro (V - Q *m We) <= d.
Proof using e01 mu0 u0 nQ ec oW hU hQU. exact: (chain_dU e01 mu0 u0 nQ ec (leqnn c) oW hU hQU). Qed.

Lemma evd_err (Y : 'M[R]_n) : (\rank Y <= k)%N ->
  fro (A - V *m D *m V^T) <=
  (2%:R + eta) * E0 + (1 + eta) ^+ 2 * fro (A - Y) + (1 + eta) * Num.sqrt c%:R * `|ct| + fl_evd eta mu beta u n c * fro A.
Proof using e01 mu0 b0 u0 nQ ec sA oW ws hB hH hM hU hQU small.
move=> rY.
have d0 : 0 <= d := du_ge0 c eta mu0 u0.
have e10 : 0 <= 1 + eta by rewrite (addr_ge0 ler01 eta0).
have hd := evd_dV; have hS := evd_S; have hT := evd_tail rY; have hD := evd_D; have hHa := evd_H.
have D0 : 0 <= fro D := fro_ge0 _.
set P := Q *m We; set Dl := V - P.
have nP : near_ortho eta P := near_ext nQ oWe.
have -> : A - V *m D *m V^T = (A - Q *m S *m Q^T) + (Q *m ((S - H) + (H - M) + (M - We *m D *m We^T)) *m Q^T -
    (Dl *m (D *m P^T) + P *m (D *m Dl^T) + Dl *m (D *m Dl^T))).
  have VE : V = P + Dl by rewrite /Dl addrC subrK.
  have -> : S - H + (H - M) + (M - We *m D *m We^T) = S - We *m D *m We^T.
    by rewrite [S - H + (H - M)]addrA subrK addrA subrK.
  rewrite {1 2}VE mulmxBr mulmxBl.
  have -> : Q *m (We *m D *m We^T) *m Q^T = P *m D *m P^T by rewrite /P trmx_mul !mulmxA.
  rewrite [(P + Dl)^T]linearD /= !mulmxDl !mulmxDr !mulmxA.
  move: (Q *m Q^T *m A *m Q *m Q^T) (P *m D *m P^T) (P *m D *m Dl^T) (Dl *m D *m P^T) (Dl *m D *m Dl^T) => X1 X2 X3 X4 X5.
  by apply/matrixP=> i j; rewrite !mxE; move: (A i j) (X1 i j) (X2 i j) (X3 i j) (X4 i j) (X5 i j) => y0 y1 y2 y3 y4 y5; rring.
have hSH : fro (S - H) <= h * fro A by rewrite -froN opprB.
have p1 : fro (Q *m ((S - H) + (H - M) + (M - We *m D *m We^T)) *m Q^T) <= (1 + eta) *
   (h * fro A + mu * fro H + (mu * fro H + h * fro A + (1 + eta) * fro (A - Y) + Num.sqrt c%:R * `|ct|)).
  apply: le_trans (two_up _) _; apply: ler_wpmul2l => //.
  apply: le_trans (ler_froD _ _) _; apply: ler_add => //.
  by apply: le_trans (ler_froD _ _) _; exact: ler_add.
have p2 : fro (Dl *m (D *m P^T) + P *m (D *m Dl^T) + Dl *m (D *m Dl^T)) <= d * (2%:R * r + d) * fro D.
  have q1 : fro (D *m P^T) <= r * fro D := near_mulT _ eta0 nP.
  have q2 : fro (D *m Dl^T) <= fro D * d.
    by apply: le_trans (fro_mul_le _ _) _; apply: ler_wpmul2l => //; rewrite {1}/fro fro2_trmx.
  apply: le_trans (ler_froD _ _) _; apply: le_trans (ler_add (ler_froD _ _) (lexx _)) _.
  have s1 : fro (Dl *m (D *m P^T)) <= d * (r * fro D).
    by apply: le_trans (fro_mul_le _ _) _; apply: ler_pmul; rewrite ?fro_ge0.
  have s2 : fro (P *m (D *m Dl^T)) <= r * (fro D * d).
    by apply: le_trans (near_up _ eta0 nP) _; exact: ler_wpmul2l.
  have s3 : fro (Dl *m (D *m Dl^T)) <= d * (fro D * d).
    by apply: le_trans (fro_mul_le _ _) _; apply: ler_pmul; rewrite ?fro_ge0.
  apply: le_trans (ler_add (ler_add s1 s2) s3) _; apply: eq_lew; move: (fro D) (d) (r) => x y z; rring.
have dr0 : 0 <= d * (2%:R * r + d) by rewrite mulr_ge0 // addr_ge0 // mulr_ge0 ?ler0n.
have m10 : 0 <= 1 + mu by rewrite (addr_ge0 ler01 mu0).
have p3 : d * (2%:R * r + d) * fro D <= d * (2%:R * r + d) * ((1 + mu) * ((1 + eta + h) * fro A)).
  by apply: ler_wpmul2l => //; apply: le_trans hD _; exact: ler_wpmul2l.
have p4 : (1 + eta) * (mu * fro H) <= (1 + eta) * (mu * ((1 + eta + h) * fro A)).
  by apply: ler_wpmul2l => //; exact: ler_wpmul2l.
apply: le_trans (ler_froD _ _) _.
apply: le_trans (ler_add hS (le_trans (ler_froB _ _) (ler_add p1 (le_trans p2 p3)))) _.
set L := (X in X <= _).
apply: (@le_trans _ _ (L + ((1 + eta) * (mu * ((1 + eta + h) * fro A)) - (1 + eta) * (mu * fro H)) +
  ((1 + eta) * (mu * ((1 + eta + h) * fro A)) - (1 + eta) * (mu * fro H)))).
  by rewrite -addrA ler_addl addr_ge0 // subr_ge0.
apply: eq_lew; rewrite /L /fl_evd; move: (fro A) (fro H) (E0) (fro (A - Y)) (d) (r) (h) (Num.sqrt c%:R) `|ct| => y1 y2 y3 y4 y5 y6 y7 y8 y9; rring.
Qed.
End Chain.

(** ** The program. *)
Section Run.
Context {R : rcfType} {T : Type} {O : ops T} {G : Type}.
Variables (v : T -> R) (u mu eta : R) (X : exn -> Prop) (L : lapack T) (asort : seq T -> seq nat).
Hypotheses (F : fl_arith O v u) (feig : eigh_fl v X L mu) (asP : argsort_fl v asort) (nrev : neg_rev v).
Hypotheses (mu0 : 0 <= mu) (e01 : 0 <= eta < 1).
Local Notation mV := (@mval R T O v).
Local Notation vV := (@vval R T O v).
Local Notation ct := (v (@cut10 T O)).
Local Notation key := (fun x : T => omul (oopp o1) (oabs x)).

Lemma fl_abs x : v (@oabs T O x) = `|v x|.
Proof using F.
rewrite /oabs (fl_lt F) (fl_0 F); case: ltP => h; first by rewrite (fl_opp F) ltr0_norm.
by rewrite ger0_norm.
Qed.

Lemma low_dist c n (B Q C : arr T) (A : 'M[R]_n) beta : 0 <= beta -> A^T = A ->
  shaped c c C -> near_ortho eta (mV n c Q) -> fro (mV c n B - (mV n c Q)^T *m A) <= beta * fro A ->
  fro (mV c c C - mV c n B *m mV n c Q) <= gam u n.+1 * (fro (mV c n B) * fro (mV n c Q)) ->
  fro (lowval v c C - (mV n c Q)^T *m A *m mV n c Q) <= fl_low eta beta u n c * fro A.
Proof using F e01.
move=> b0 sA sC nQ hB hC; have /andP[eta0 _] := e01; have u0 := fl_u0 F.
set S := _ *m A *m _; have sS : S^T = S by rewrite /S !trmx_mul trmxK sA mulmxA.
have -> : lowval v c C - S = \matrix_(i, j) (if (j <= i)%N then (mV c c C - S) i j else (mV c c C - S) j i).
  have sE i j : S i j = S j i by rewrite -{1}sS mxE.
  by clearbody S; apply/matrixP=> i j; rewrite !mxE; case: leqP => // _; rewrite sE.
apply: le_trans (low_le _) _; rewrite /fl_low -mulrA; apply: ler_wpmul2l; first exact: sqrtr_ge0.
have -> : mV c c C - S = (mV c c C - mV c n B *m mV n c Q) + (mV c n B - (mV n c Q)^T *m A) *m mV n c Q.
  by rewrite mulmxBl addrA subrK.
have r0 : 0 <= Num.sqrt (1 + eta) := sqrtr_ge0 _.
have fB : fro (mV c n B) <= (Num.sqrt (1 + eta) + beta) * fro A.
  rewrite -(subrK ((mV n c Q)^T *m A) (mV c n B)) addrC; apply: le_trans (ler_froD _ _) _.
  by rewrite mulrDl; apply: ler_add => //; exact: near_tr_r.
apply: le_trans (ler_froD _ _) _; rewrite mulrDl; apply: ler_add.
  apply: le_trans hC _; rewrite -mulrA; apply: ler_wpmul2l; first exact: gam_ge0.
  rewrite mulrAC; apply: ler_pmul => //; rewrite ?fro_ge0 //; exact: near_fro.
apply: le_trans (near_mulr _ eta0 nQ) _; rewrite -mulrA; exact: ler_wpmul2l.
Qed.

Lemma fl_EVD1 (qb : @qbdec T G) n (A : arr T) k tol (over : int) (beta : nat -> R) (PQ : nat -> arr T -> arr T -> Prop) :
  (0 < k <= n)%N -> (if tol is Some t then ole o0 t else true) -> shaped n n A -> (mV n n A)^T = mV n n A ->
  (forall c, 0 <= beta c) ->
  safe X (fun QB => exists2 c, (0 < c)%N & [/\ shaped n c QB.1, shaped c n QB.2, near_ortho eta (mV n c QB.1),
      fro (mV c n QB.2 - (mV n c QB.1)^T *m mV n n A) <= beta c * fro (mV n n A) & PQ c QB.1 QB.2])
    (qb A (k%:Z + over) (half_tol tol)) ->
  safe X (fun x => exists c Q B, PQ c Q B /\
      evd_ok v eta mu (beta c) u k c (mV n n A) (fro (mV n n A - mV n c Q *m mV c n B)) x)
    (EVD1 L asort qb A k%:Z tol over).
Proof using F feig asP nrev mu0 e01.
move=> /andP[k0 kn] tolP sA symA b0 hqb; have [_ eA1 eA2] := sA; rewrite /EVD1 eA1 eA2.
apply: safe_passert; first by lia.
apply: safe_passert; first by lia.
apply: (safe_bind (Q := fun _ => True)); first by case: tol tolP {hqb} => [t|] h; [rewrite /= h|]; exact: safe_ret.
move=> _ _; apply: safe_bind hqb _ => -[Q B] /= [c c0 [sQ sB nQ hB pQB]]; have [_ _ eQ] := sQ.
apply: (safe_bind (safe_lift (fl_mmul F X sB sQ))) => C [sC hC].
apply: (safe_bind (safe_lift (feig c0 sC))) => -[lam U] /= [el sU [Uo [oU hU hL]]].
cbv zeta; rewrite eQ; have [_ u1 u2] := sU.
set alamb := map _ lam; set K := map _ alamb.
have sK : size K = c by rewrite !size_map.
have [pJ oJ] := asP K; rewrite sK in pJ oJ; set J := asort K in pJ oJ *.
have sJ : size J = c by rewrite (perm_size pJ) size_iota.
have iJ := inb_perm pJ; have uJ := uniq_perm_iota pJ.
have lJ i : (i < c)%N -> (nth 0%N J i < c)%N by move=> ic; apply: inb_nth => //; rewrite sJ.
set rr := minn _ _.
have rc : (rr <= c)%N by rewrite /rr; clear; lia.
have sI : size (take rr J) = rr by rewrite size_takel // sJ.
have aI : all (fun j => j < c)%N (take rr J) by apply: inb_take.
have nI j : (j < rr)%N -> nth 0%N (take rr J) j = nth 0%N J j by move=> jr; rewrite nth_take.
rewrite /cidx /vidx u2 el aI.
apply: (safe_bind (Q := fun x => shaped c rr x /\ forall i j, (i < c)%N -> (j < rr)%N -> @Arr.el T O x i j = Arr.el U i (nth 0%N J j))).
  apply: safe_lift; rewrite /= u1 sI; split; first exact: sh_mk.
  by move=> i j ic jr; rewrite el_mk // nI.
move=> Ue [sUe eUe].
apply: (safe_bind (Q := fun x => size x = rr /\ forall i, (i < rr)%N -> @ev T O x i = ev lam (nth 0%N J i))).
  apply: safe_lift; rewrite /=; split; first by rewrite size_map.
  by move=> i ir; rewrite {1}/ev (nth_map 0%N) ?sI // nI.
move=> le [sle ele].
apply: (safe_bind (safe_lift (fl_mmul F X sQ sUe))) => V [sV hV]; apply: safe_ret.
exists c, Q, B; split=> //.
pose S : 'M[R]_c := colsel 1%:M J c.
have oS : orthonormal S by apply: selP => //; rewrite sJ.
have SS : S *m S^T = 1%:M := orthonormal_sq oS.
pose w : 'cV[R]_c := \col_i v (@ev T O lam (nth 0%N J i)).
have dS : diag_mx (vV c lam)^T *m S = S *m diag_mx w^T.
  apply/matrixP=> i j; rewrite mul_diag_mx mul_mx_diag !mxE (mxe_ord _ (ltn_ord i) (lJ _ (ltn_ord j))) mxE mulrC.
  by rewrite -val_eqE /=; case: eqP => [->|]; rewrite ?mul0r // !mul1r.
have KE i : (i < c)%N -> @ev T O K i = @omul T O (@oopp T O (@o1 T O)) (@oabs T O (@oabs T O (@ev T O lam i))).
  by move=> ic; rewrite {1}/ev !(nth_map (@o0 T O)) ?size_map ?el.
have wd (i j : 'I_c) : (i <= j)%N -> `|w j 0| <= `|w i 0|.
  move=> ij; have := oJ i j (introT andP (conj ij (ltn_ord j))).
  by rewrite !KE ?lJ // => /nrev; rewrite !fl_abs !normr_id !mxE.
have cnt i : (i < c)%N -> (i < count [eta @olt T O (@cut10 T O)] alamb)%N = (ct < `|v (@ev T O lam (nth 0%N J i))|).
  move=> ic; have -> : count [eta @olt T O (@cut10 T O)] alamb = count (fun y => ct < y) [seq `|v (@ev T O lam j)| | j <- J].
    rewrite !count_map (permP pJ); rewrite -{1}[lam](mkseq_nth (@o0 T O)) el [in LHS]count_map; apply: eq_count => j /=.
    by rewrite (fl_lt F) fl_abs.
  rewrite count_mono ?size_map ?sJ //.
  - by rewrite (nth_map 0%N) ?sJ.
  - by move=> x y xy h; exact: lt_le_trans xy.
  move=> a b ab bc; have ac := leq_ltn_trans ab bc.
  by have := wd (Ordinal ac) (Ordinal bc) ab; rewrite !mxE !(nth_map 0%N) ?sJ.
have rk : (rr <= k)%N by rewrite /rr; clear; lia.
have cutE i : (i < c)%N -> (i < k)%N -> (i < rr)%N = (ct < `|v (@ev T O lam (nth 0%N J i))|).
  by move=> ic ik; rewrite -cnt // /rr !leq_min ik ic.
have small (i : 'I_c) : (rr <= i < k)%N -> w i 0 ^+ 2 <= ct ^+ 2.
  move=> /andP[ri ik]; have := cutE i (ltn_ord i) ik; rewrite ltnNge ri /= => /esym/negbT.
  rewrite -leNgt => h; rewrite mxE -[X in X <= _]real_normK ?num_real //.
  by apply: ler_expn2r; rewrite ?nnegrE // (le_trans _ h).
pose W := Uo *m S.
have oW : orthonormal W by apply: orthonormalM.
have ME : Uo *m diag_mx (vV c lam)^T *m Uo^T = W *m diag_mx w^T *m W^T.
  by rewrite /W trmx_mul -(mulmxA Uo S) -dS !mulmxA -(mulmxA _ S) SS mulmx1.
have UE : mV c rr Ue = colblk (mV c c U *m S) 0 rr.
  apply/matrixP=> i j; rewrite [LHS]mxE eUe // [RHS]mxE add0n -colsel1E.
  rewrite (mxe_ord _ (ltn_ord i) (leq_trans (ltn_ord j) rc)) mxE (mxe_ord _ (ltn_ord i) (lJ _ (leq_trans (ltn_ord j) rc))) mxE.
  by [].
have hUe : fro (mV c rr Ue - colblk W 0 rr) <= mu.
  rewrite UE; apply: le_trans (colblk_le _ _ rc) _; rewrite /W -mulmxBl; apply: le_trans hU.
  by rewrite ler_wsqrtr //; exact: fro2_restr.
have lE : vV rr le = topv w rr.
  by apply/colP=> i; rewrite !mxE ele // add0n (mxe_ord w (leq_trans (ltn_ord i) rc) (ltn0Sn 0)) mxE.
rewrite ME in hL.
have u0 := fl_u0 F.
have hH := low_dist (b0 c) symA sC nQ hB hC.
have hdu := evd_dV e01 mu0 u0 nQ rc oW hUe hV.
have d0 := du_ge0 c eta mu0 u0.
exists rr; first by rewrite leq_min rk.
split=> //=.
- split=> [i ir|i j /andP[ij jr]]; rewrite !ele //; last by rewrite (leq_ltn_trans ij).
    by rewrite -cutE // (leq_trans ir).
  by have := wd (Ordinal (leq_trans (leq_ltn_trans ij jr) rc)) (Ordinal (leq_trans jr rc)) ij; rewrite !mxE.
- rewrite -[mV n rr V](subrK (mV n c Q *m colblk W 0 rr)) [X in near_ortho _ X]addrC.
  by apply: near_pert => //; apply: near_ext => //; exact: oWe.
move=> Y rY; rewrite lE.
exact: (evd_err e01 mu0 (b0 c) u0 nQ rc symA oW wd hB hH hL hUe hV small rY).
Qed.
End Run.

(** ** One-block evd1. *)
Section Drv.
Context {R : rcfType} {T : Type} {O : ops T} {G : Type}.
Variables (E : (G -> R) -> R) (v : T -> R) (u : R) (X : exn -> Prop) (L : lapack T) (asort : seq T -> seq nat)
  (r : rng_ops G T) (eta dl mu : R).
Hypotheses (mE : mean E) (pE : positive E) (rok : rng_ok r).
Hypotheses (F : fl_arith O v u) (lsh : lap_shapes X L) (qrL : qr_fl v X L eta dl) (e01 : 0 <= eta < 1) (dl0 : 0 <= dl).
Hypotheses (feig : eigh_fl v X L mu) (asP : argsort_fl v asort) (nrev : neg_rev v) (mu0 : 0 <= mu).
Local Notation mv := (@mval R T O v).
Local Notation tol_ok tol := (if tol is Some t then @ole T O o0 (odiv t (onat 2)) else true).

Lemma beta0 n c : 0 <= fl_beta eta u n c.
Proof using F. by rewrite mulr_ge0 ?mulr_ge0 ?sqrtr_ge0 // gam_ge0 // (fl_u0 F). Qed.

Lemma evd_ok_le n k c (Am : 'M[R]_n) b (a1 a2 : R) x : a1 <= a2 ->
  evd_ok v eta mu b u k c Am a1 x -> evd_ok v eta mu b u k c Am a2 x.
Proof using e01.
move=> le [e ek [h1 h2 h3 h4 hY]]; exists e => //; split=> // Y rY; apply: le_trans (hY Y rY) _.
rewrite !ler_add2r; apply: ler_wpmul2l le; have /andP[eta0 _] := e01; by rewrite addr_ge0 ?ler0n.
Qed.

Lemma EVD1_at (qb : @qbdec T G) n (A : arr T) k (over : nat) tol (s : st G T) (PQ : arr T -> arr T -> Prop) :
  let l := (k + over)%N in (0 < k <= n)%N -> (if tol is Some t then ole o0 t else true) ->
  shaped n n A -> (mv n n A)^T = mv n n A ->
  rsafe X (fun QB => [/\ shaped n l QB.1, shaped l n QB.2, near_ortho eta (mv n l QB.1),
      fro (mv l n QB.2 - (mv n l QB.1)^T *m mv n n A) <= fl_beta eta u n l * fro (mv n n A) & PQ QB.1 QB.2])
    (qb A l%:Z (half_tol tol) s).2 ->
  rsafe X (fun x => exists Q B, PQ Q B /\
      evd_ok v eta mu (fl_beta eta u n l) u k l (mv n n A) (fro (mv n n A - mv n l Q *m mv l n B)) x)
    (EVD1 L asort qb A k%:Z tol over%:Z s).2.
Proof using F e01 feig asP nrev mu0.
move=> l kn tolP sA symA hqb; have k0 : (0 < k)%N by case/andP: kn.
have l0 : (0 < l)%N by rewrite addn_gt0 k0.
have lE : k%:Z + over%:Z = l%:Z by [].
pose PQ' c Q B := c = l /\ PQ Q B.
have hqb' : safe X (fun QB => exists2 c, (0 < c)%N & [/\ shaped n c QB.1, shaped c n QB.2, near_ortho eta (mv n c QB.1),
    fro (mv c n QB.2 - (mv n c QB.1)^T *m mv n n A) <= fl_beta eta u n c * fro (mv n n A) &
    PQ' c QB.1 QB.2]) ((fun _ _ _ (_ : st G T) => qb A l%:Z (half_tol tol) s) A (k%:Z + over%:Z) (half_tol tol)).
  by move=> s'; apply: rsafe_weak hqb _ => QB [h1 h2 h3 h4 h5]; exists l.
have := @fl_EVD1 R T O G v u mu eta X L asort F feig asP nrev mu0 e01 (fun _ _ _ (_ : st G T) => qb A l%:Z (half_tol tol) s)
  n A k tol over%:Z (fl_beta eta u n) PQ' kn tolP sA symA (beta0 n) hqb' s.
have -> : EVD1 L asort (fun _ _ _ (_ : st G T) => qb A l%:Z (half_tol tol) s) A k%:Z tol over%:Z s = EVD1 L asort qb A k%:Z tol over%:Z s.
  have [_ eA1 eA2] := sA; rewrite /EVD1 lE eA1 eA2 ssrnat.minnn.
  have -> : (0 < k%:Z) = true by clear -k0; lia.
  have -> : (k%:Z <= n%:Z) = true by clear -kn; lia.
  by rewrite !bind_passertT; case: tol tolP {hqb hqb'} => [t|] // h; rewrite h.
by move=> H; apply: rsafe_weak H _ => x [c [Q [B [[-> hE] ok]]]]; exists Q, B.
Qed.

Lemma fl_evd1_any n k over b (np : int) (A : arr T) tol a :
  let l := (k + over)%N in (0 < k)%N -> (l <= n)%N -> (l <= b)%N -> 2 <= np -> tol_ok tol ->
  shaped n n A -> (mv n n A)^T = mv n n A ->
  safe X (fun x => exists2 Q : 'M[R]_(n, l), near_ortho eta Q & forall C : 'M[R]_(l, n),
      evd_ok v eta mu (fl_beta eta u n l) u k l (mv n n A)
        ((1 + rho eta) * fro (mv n n A - Q *m C) + (rho eta + (1 + eta) * Num.sqrt l%:R * gam u n.+1) * fro (mv n n A)) x)
    (evd1 L r asort A k%:Z tol over%:Z np b%:Z a).
Proof using rok F lsh qrL e01 dl0 feig asP nrev mu0.
move=> l k0 ln lb np2 tolP sA symA; rewrite /evd1; apply: safe_passert => //; apply: safe_rng => s.
have l0 : (0 < l)%N by rewrite addn_gt0 k0.
have lmn : (l <= minn n n)%N by rewrite ssrnat.minnn.
have hr : rsafe X (fun S => exists2 B, S = PyArr B & shaped n l B /\ (fun _ : 'M[R]_(n, l) => True) (mv n l B))
    (RS1 (skopGA r) (np - 2) (orth L) 1 A l s).2.
  have np0 : 0 <= np - 2 by clear -np2; lia.
  by apply: rsafe_weak (safe_RS1 lsh rok np0 l0 lmn sA s) _ => S [B -> sB]; exists B.
have Hq := fl_QB2_one F qrL e01 dl0 (PS := fun _ => True) (@half_tol T O (@half_tol T O tol)) l0 lmn lb sA hr.
have kn : (0 < k <= n)%N by rewrite k0 (leq_trans (leq_addr over k)).
pose PQ Q B := near_ortho eta (mv n l Q) /\ forall C : 'M[R]_(l, n), fro (mv n n A - mv n l Q *m mv l n B) <=
  (1 + rho eta) * fro (mv n n A - mv n l Q *m C) + (rho eta + (1 + eta) * Num.sqrt l%:R * gam u n.+1) * fro (mv n n A).
have tolP' : is_true (if @half_tol T O tol is Some t then @ole T O o0 t else true) by case: (tol) tolP.
apply: rsafe_weak (@EVD1_at (QB2_noov L (RF1 L (RS1 (skopGA r) (np - 2) (orth L) 1)) b%:Z) n A k over (@half_tol T O tol) s
  PQ kn tolP' sA symA _) _; last first.
  by move=> x [Q [B' [[nQ le] ok]]]; exists (mv n l Q) => // C; exact: evd_ok_le (le C) ok.
apply: rsafe_weak Hq _ => QB [h1 h2 h3 h4 _]; split=> //; split=> // C.
exact: (fl_best F e01).
Qed.

Lemma fl_evd1_prob n k over b q rk (A : arr T) (W : 'M[R]_(n, q)) (t : 'cV[R]_q) e th tp tol :
  let l := (k + over)%N in
  (0 < k)%N -> (l <= n)%N -> (l <= b)%N -> tol_ok tol -> shaped n n A -> fl_uncorrelated v E r n l -> fl_normal4 v E r n l ->
  mv n n A = W *m diag_mx t^T *m W^T -> orthonormal W -> (rk <= q)%N ->
  0 < e < 1 -> 0 < th -> 0 < tp ->
  exists B : G -> bool, E (fun g => (~~ B g)%:R) <= (rk * rk + rk)%:R / (l%:R * e ^+ 2) + rk%:R / (l%:R * th) + tp^-1 /\
  forall g es, B g ->
  let w := Num.sqrt ((1 + th / (1 - e) ^+ 2) * \sum_(i < q | (rk <= i)%N) t i 0 ^+ 2) in
  let w' := Num.sqrt (tp * n%:R / (1 - e)) in
  rsafe X (evd_ok v eta mu (fl_beta eta u n l) u k l (mv n n A) (fl_qb_one eta dl u n n l w w' (fro (mv n n A))))
    (evd1 L r asort A k%:Z tol over%:Z 2 b%:Z RGen (St g es)).2.
Proof using mE pE rok F qrL e01 dl0 feig asP nrev mu0.
move=> l k0 ln lb tolP sA un n4 AE oW rq ee th0 tp0.
have symA : (mv n n A)^T = mv n n A by rewrite AE !trmx_mul trmxK tr_diag_mx mulmxA.
have l0 : (0 < l)%N by rewrite addn_gt0 k0.
have lmn : (l <= minn n n)%N by rewrite ssrnat.minnn.
have hl : (0 < l <= minn n n)%N by rewrite l0.
have oWt : orthonormal W^T^T by rewrite trmxK.
have [B [EB HB]] := gauss_core mE pE rok F e01 hl sA un n4 AE oW oWt rq ee th0 tp0.
exists B; split=> // g es /HB HS; cbv zeta.
have n0 : (0 < n)%N by exact: leq_trans ln.
have nl0 : (0 < minn n l)%N by rewrite leq_min n0.
set Sm := mv n l _ in HS; cbv zeta in HS.
have hr : rsafe X (fun S => exists2 B, S = PyArr B & shaped n l B /\
    (fun S' : 'M[R]_(n, l) => S' = Sm) (mv n l B)) (RS1 (skopGA r) 0 (orth L) 1 A l (St g es)).2.
  have [_ _ eA2] := sA.
  rewrite /RS1 bind_passertT // /= eA2 /draw /skopGA /gaussian_operator gtn_eqF // -/(gscale n l).
  rewrite /bind /emit /getgen /=; have := ok_normal rok g (@gscale T O n l) n l; rewrite /Sm.
  case: (r_normal _ _ _ _ _) => g' M /= [w [a b']]; by exists M => //; split.
have Hq := fl_QB2_one F qrL e01 dl0 (PS := fun S' => S' = Sm) (@half_tol T O (@half_tol T O tol)) l0 lmn lb sA hr.
have kn : (0 < k <= n)%N by rewrite k0 (leq_trans (leq_addr over k)).
have tolP' : is_true (if @half_tol T O tol is Some t then @ole T O o0 t else true) by case: (tol) tolP.
apply: rsafe_weak (@EVD1_at (QB2_noov L (RF1 L (RS1 (skopGA r) 0 (orth L) 1)) b%:Z) n A k over (@half_tol T O tol) (St g es)
  (fun Q B => fro (mv n n A - mv n l Q *m mv l n B) <= fl_qb_one eta dl u n n l
    (Num.sqrt ((1 + th / (1 - e) ^+ 2) * \sum_(i < q | (rk <= i)%N) t i 0 ^+ 2)) (Num.sqrt (tp * n%:R / (1 - e)))
    (fro (mv n n A))) kn tolP' sA symA _) _; last first.
  by move=> x [Q [B' [le ok]]]; exact: evd_ok_le le ok.
apply: rsafe_weak Hq _ => QB [h1 h2 h3 h4 [S [V' [SE hS]]]]; split=> //.
by rewrite {}SE in hS; apply: (HS _ _ _ V') => //; exact: (sk2_ge0 eta F dl0).
Qed.
End Drv.

(** ** An inexact eigensolver meeting the contract: exact factors, eigenvalues too large by mu. *)
Section Wit.
Variables (R : rcfType) (u eta mu : R).
Hypothesis u01 : 0 <= u < 1.

Definition bent_evd : lapack R := {|
  l_qr := l_qr (bent_lapack eta);
  l_qrp := l_qrp (exact_lapack R);
  l_svd := l_svd (exact_lapack R);
  l_eigh := fun A => match l_eigh (exact_lapack R) A with
    | inr x => Ok ([seq (1 + mu) * y | y <- x.1], x.2)
    | inl e => Err e end;
  l_lu := l_lu (exact_lapack R);
  l_lstsq := l_lstsq (exact_lapack R);
  l_dct := id;
  l_idct := id
|}.

Local Notation mb := (@mval R R (bent_ops u) id).
Local Notation vb := (@vval R R (bent_ops u) id).
Local Notation lb := (@lowval R R (bent_ops u) id).

Lemma bent_eighE A : l_eigh bent_evd A = match l_eigh (exact_lapack R) A with
    | inr x => Ok ([seq (1 + mu) * y | y <- x.1], x.2)
    | inl e => Err e end.
Proof. by []. Qed.

Lemma exact_eigh_low n (C : arr R) : @shaped R (bent_ops u) n n C -> exists (lam : 'cV[R]_n) (V : 'M[R]_n),
  [/\ l_eigh (exact_lapack R) C = Ok (ofcv lam, ofmx V), orthonormal V & lb n C = V *m diag_mx lam^T *m V^T].
Proof.
case=> _ e1 _; subst n; have := xchooseP (eigh_ex (lowsym_sym C)); rewrite /=.
case: (xchoose _) => lam V /and3P[/b_orthP oV /eqP E _]; exists lam, V; split=> //.
Qed.

Lemma bent_eigh_fl : 0 <= mu -> @eigh_fl R R (bent_ops u) id (fun _ => False) bent_evd mu.
Proof using.
move=> mu0 n C n0 sC; have [lam [V [E oV CE]]] := exact_eigh_low sC.
rewrite bent_eighE E /rsafe; split; first by rewrite size_map size_ofcv.
  exact: sh_ofmx.
exists V; rewrite [X in mb _ _ X]/= [X in vb _ X]/=; split=> //; first by rewrite mb_ofmx subrr fro0.
rewrite (vb_map u) linearZ /= -/(diag_mx _).
have -> : diag_mx ((1 + mu) *: lam^T) = (1 + mu) *: diag_mx lam^T by rewrite linearZ.
rewrite -scalemxAr -scalemxAl -CE; set B := lb n C.
have -> : B - (1 + mu) *: B = (- mu) *: B by rewrite scalerDl scale1r opprD addrA subrr add0r scaleNr.
by rewrite /fro fro2Z sqrtrM ?sqr_ge0 // sqrtr_sqr normrN ger0_norm.
Qed.

Lemma bent_evd_shapes : 0 <= mu -> @lap_shapes R (bent_ops u) (fun _ => False) bent_evd.
Proof.
move=> mu0; have [h1 h2 h3 h4 h5] := @bent_shapes R u eta; split=> // n A n0 sA.
by have := bent_eigh_fl mu0 n0 sA; case: (l_eigh _ _) => // x [].
Qed.

Lemma evd_wit : 0 < u -> 0 < eta -> 0 < mu -> let O := bent_ops u in let E := @ga_mean R 8 8 in let r := ga_rng R 8 8 in
  [/\ fl_arith O id u /\ @oadd R O 1 1 <> 2%:R,
      [/\ @lap_shapes R O (fun _ => False) bent_evd, @qr_fl R R O id (fun _ => False) bent_evd eta 0 &
          @eigh_fl R R O id (fun _ => False) bent_evd mu],
      ~ eigh_spec bent_evd,
      @argsort_fl R R O id (@sort_idx R) /\ @neg_rev R R O id &
      [/\ mean E, positive E, @rng_ok _ R O r, @fl_uncorrelated R R O _ id E r 8 8 & @fl_normal4 R R O _ id E r 8 8]].
Proof using u01.
move=> u0 e0 m0; have [h1 h2 [h3 h4 h5] h6 h7] := float_wit u01 u0 e0; split=> //.
- by split=> //; [exact: bent_evd_shapes (ltW m0)|exact: bent_eigh_fl (ltW m0)].
- move=> sp; have [lam [V [E oV AE _]]] := sp 1%N 1%:M isT (trmx1 _ _).
  have [lam' [V' [E' oV' AE' _]]] := exact_eigh (A := 1%:M : 'M[R]_1) isT (trmx1 _ _).
  move: E; rewrite bent_eighE E'.
  have inj Y (x y : Y) : (Ok x : res Y) = Ok y -> x = y by case.
  move=> E3; have EE := inj _ _ _ E3; have EV := ofmx_inj (congr1 snd EE).
  have Es : [seq (1 + mu) * y | y <- ofcv lam'] = ofcv lam by exact: (congr1 fst EE).
  subst V'.
  have sE : lam = (1 + mu) *: lam' by rewrite -[RHS](vb_map u) Es; apply/colP=> i; rewrite [RHS]mxE; exact: (esym (ev_ofcv lam i)).
  have : (1%:M : 'M[R]_1) = (1 + mu) *: 1%:M.
    by rewrite {1}AE sE linearZ /= linearZ /= -scalemxAr -scalemxAl -AE'.
  move/matrixP/(_ 0 0); rewrite !mxE eqxx mulr1 => /eqP; rewrite -subr_eq0 opprD addrA subrr add0r oppr_eq0.
  by rewrite gt_eqF.
split.
  move=> w; have [pw hw] := @sort_idxP R w; split=> // i j /andP[ij jw]; exact: hw.
move=> x y /=; have p : 0 < 1 + u by rewrite (addr_gt0 ltr01).
by rewrite !mulN1r (ler_pmul2l p) ler_opp2.
Qed.
End Wit.

Lemma evd_const_zero (R : rcfType) n c : fl_beta 0 0 n c = 0 :> R /\ fl_evd 0 0 0 0 n c = 0 :> R.
Proof.
have g0 i : gam (0 : R) i = 0 by rewrite /gam addr0 expr1n subrr.
have d0 : fl_du 0 0 0 c = 0 :> R by rewrite /fl_du g0 mulr0 mul0r addr0.
split; first by rewrite /fl_beta g0 mul0r.
by rewrite /fl_evd /fl_low d0 g0 !(mulr0, mul0r, addr0).
Qed.
