(** Proofs of C99, continued: a QR routine with an error, and sharpness of the bound for QB2. *)
From mathcomp Require Import all_ssreflect all_algebra.
From mathcomp Require Import zify.
From Verif Require Import Base Arr Lapack Exact MxLib RingTac LapackSpec LapackExists Rng Aware RangeFinders QB Inexact.
From Verif Require Import P_RS1 P_QB2 P_RF P_QB3 P_QBx P_QBfin P_Opt P_Opt2 P_Inexact P_Inexact3.
Set Implicit Arguments.
Unset Strict Implicit.
Unset Printing Implicit Defensive.
Import Order.TTheory GRing.Theory Num.Theory.
Local Open Scope ring_scope.

Section Bent.
Variables (R : rcfType) (eta : R).
Hypothesis (e0 : 0 <= eta).
Add Field bent_field : (rcf_field R).
Local Notation c := (Num.sqrt (1 + eta)).

Lemma bent_c2 : c ^+ 2 = 1 + eta.
Proof using e0. by rewrite sqr_sqrtr // addr_ge0 ?ler01. Qed.

(** The exact QR, with Q multiplied by [sqrt (1 + eta)] and the triangular factor by its inverse. *)
Definition bent_lapack : lapack R := {|
  l_qr := fun A => let x := xchoose (qr_ex (tomx A)) in Ok (ofmx (c *: x.1), ofmx (c^-1 *: x.2));
  l_qrp := l_qrp (exact_lapack R);
  l_svd := l_svd (exact_lapack R);
  l_eigh := l_eigh (exact_lapack R);
  l_lu := l_lu (exact_lapack R);
  l_lstsq := l_lstsq (exact_lapack R);
  l_dct := id;
  l_idct := id
|}.

Lemma bent_qr m n (A : 'M[R]_(m, n)) : exists (Q : 'M[R]_(m, minn m n)) (U : 'M[R]_(minn m n, n)),
  [/\ l_qr bent_lapack (ofmx A) = Ok (ofmx (c *: Q), ofmx (c^-1 *: U)), orthonormal Q & A = Q *m U].
Proof.
rewrite /=; have := xchooseP (qr_ex (tomx (ofmx A))).
case: (xchoose _) => Q U /and3P[/b_orthP oQ /b_upP tU /eqP E]; exists Q, U; split=> //.
by rewrite -E ofmxK.
Qed.

Lemma bent_near : qr_near bent_lapack eta 0.
Proof using e0.
move=> m n A _ _; have [Q [U [E oQ AE]]] := bent_qr A; exists (c *: Q), (c^-1 *: U); split=> //.
  move=> v; rewrite (_ : (c *: Q)^T = c *: Q^T); last by rewrite linearZ.
  rewrite -scalemxAl -scalemxAr oQ scalerA -expr2 bent_c2.
  by rewrite scalerDl scale1r addrC addKr -scalemxAl mul1mx fro2Z.
rewrite mul0r -scalemxAl -scalemxAr scalerA divff ?scale1r -?AE ?subrr ?fro0 //.
by rewrite gt_eqF // sqrtr_gt0 (lt_le_trans ltr01) // ler_addl.
Qed.

(** A rangefinder answering with the first columns of the identity. *)
Definition eye_rf : rangefinder (T:=R) (G:=nat) := fun A b _ => ret (eye_arr (nr A) (absz b)).

Lemma eye_arrE m n : eye_arr m n = ofmx (\matrix_(i < m, j < n) ((i == j :> nat)%:R : R)).
Proof. by apply: mk_eq_ofmx => i j; rewrite mxE; case: (_ == _). Qed.

Lemma eye_rf_shape : rf_shape eye_rf.
Proof.
move=> m n A b s b0 bmn; exists s, (\matrix_(i < m, j < b) ((i == j :> nat)%:R : R)).
by split; [rewrite /eye_rf nr_ofmx -eye_arrE | exists [::]; rewrite ?cats0].
Qed.

Definition tightA : 'M[R]_2 := \matrix_(i, j) (if i == j then (if i == 0 then 1 else Num.sqrt eta) else 0).

Lemma tightA2 : fro2 tightA = 1 + eta.
Proof using e0.
rewrite /fro2 !big_ord_recl !big_ord0 !mxE /= !expr0n /= expr1n !addr0 add0r.
by rewrite -[in Num.sqrt eta ^+ 2]/(Num.sqrt eta) sqr_sqrtr.
Qed.

Lemma tight_run ow (t : R) s : 0 < t ->
  exists s' (Q : 'M[R]_(2, 1)) (B : 'M[R]_(1, 2)) A',
    QB2 bent_lapack eye_rf 1 ow (ofmx tightA) 2 (Some t) s = (s', inr (ofmx Q, ofmx B, A')) /\
    fro2 (tightA - Q *m B) = eta * fro2 tightA.
Proof using e0.
move=> t0; pose e1 : 'M[R]_(2, 1) := \matrix_(i, j) ((i == j :> nat)%:R : R).
have [q [u [E oq e1E]]] := bent_qr e1; move: q u E oq e1E; rewrite -[minn 2 1]/1%N => q u E oq e1E.
have e1e1 : e1^T *m e1 = 1%:M.
  by apply/matrixP=> i j; rewrite !ord1 mxE !big_ord_recl big_ord0 !mxE /= mulr0 mulr1 !addr0.
have uu : u^T *m u = 1%:M by move: e1e1; rewrite e1E trmx_mul mulmxA -[u^T *m q^T *m q]mulmxA oq mulmx1.
have uu' : u *m u^T = 1%:M by exact: mulmx1C.
have qE : q = e1 *m u^T by rewrite e1E -mulmxA uu' mulmx1.
have qq : q *m q^T = e1 *m e1^T by rewrite qE trmx_mul trmxK mulmxA -[e1 *m u^T *m u]mulmxA uu mulmx1.
have ou : orthonormal u by [].
pose Q := c *: q; pose B := Q^T *m tightA.
have e1A : e1 *m e1^T *m tightA = \matrix_(i, j) ((i == 0) && (j == 0))%:R.
  apply/matrixP=> i j; rewrite !mxE !big_ord_recl !big_ord0 !mxE !big_ord_recl !big_ord0 !mxE /=.
  case: i => [[|[|//]]] hi; case: j => [[|[|//]]] hj; rewrite /= ?mulr0 ?mulr1 ?mul0r ?addr0.
  by []. by rewrite mul0r addr0. by []. by rewrite mul0r addr0.
have BE : fro2 B = 1 + eta.
  rewrite /B /Q linearZ /= -scalemxAl fro2Z bent_c2 qE trmx_mul trmxK -mulmxA fro2_ortho //.
  have -> : fro2 (e1^T *m tightA) = 1; last by rewrite mulr1.
  rewrite /fro2 !big_ord_recl !big_ord0 !mxE !big_ord_recl !big_ord0 !mxE /=.
  by rewrite !mulr0 !mul0r !addr0 mulr1 expr1n expr0n addr0.
have rE : fro2 (tightA - Q *m B) = eta * fro2 tightA.
  rewrite tightA2 /B mulmxA /Q linearZ /= -scalemxAl -scalemxAr scalerA -expr2 bent_c2 qq -scalemxAl e1A.
  rewrite /fro2 !big_ord_recl !big_ord0 !mxE /=.
  rewrite !mulr0 !mulr1 !subr0 !addr0 !expr0n /= !add0r !addr0 sqr_sqrtr //.
  by move: (eta) => x; rring.
rewrite /QB2 bind_passertT.
have -> : minn (nr (ofmx tightA)) (nc (ofmx tightA)) = 2%N by [].
have E0 : (if 2 <= 2%N%:Z then ret (absz 2) else emit (EvWarn W_qb2_rank) >>> ret 2%N) s = (s, inr 2%N) by [].
rewrite (bindE _ E0) bind_passertT.
rewrite !mzerosE.
pose Q1 := row_mx (0 : 'M[R]_(2, 0)) Q; pose B1 := col_mx (0 : 'M[R]_(0, 2)) B.
have [s' Es] : exists s', qb2_loop bent_lapack 3 eye_rf 2 (use_tol (Some t)) (abs_sq_tol (ofmx tightA) (Some t)) 1
    (sqnorm0 (ofmx tightA)) (ofmx tightA) (ofmx (0 : 'M[R]_(2, 0))) (ofmx (0 : 'M[R]_(0, 2))) s
  = (s', inr (ofmx Q1, ofmx B1, ofmx (tightA - Q *m B))).
  move: (bent_lapack) E => L E.
  eexists; rewrite [LHS]/=.
  rewrite (bindE _ (erefl _ : eye_rf (ofmx tightA) 1 None s = (s, inr (eye_arr 2 1)))) bind_emitE.
  rewrite eye_arrE -/e1 project_outE mul0mx subr0 bind_liftE E bind_liftE /=.
  rewrite (bindE _ (passQtAE _ _ _)) hstackE bind_liftE vstackE bind_liftE.
  rewrite mmulE bind_liftE msubE bind_liftE mnormE.
  rewrite t0 /= -/Q -/B ifT //.
  rewrite /osq /sqnorm0 mnormE /osq /= -!expr2 !sqr_fro BE tightA2 subrr.
  by rewrite mulr_ge0 ?sqr_ge0 ?addr_ge0 ?ler01.
exists s', Q1, B1, (ofmx (if ow then tightA - Q *m B else tightA)); split; last first.
  rewrite -rE; congr (fro2 (_ - _)).
  by have := mul_row_col (0 : 'M[R]_(2, 0)) Q (0 : 'M[R]_(0, 2)) B; rewrite mul0mx add0r.
by rewrite (bindE _ Es) /ret /=; congr (_, inr _); case: (ow).
Qed.

Lemma tight_floor : qr_near bent_lapack eta 0 /\
  exists (rf : rangefinder (T:=R) (G:=nat)) (A : 'M[R]_2), rf_shape rf /\ 0 < fro2 A /\
  forall ow (t : R) s, 0 < t ->
  exists s' (Q : 'M[R]_(2, 1)) (B : 'M[R]_(1, 2)) A',
    QB2 bent_lapack rf 1 ow (ofmx A) 2 (Some t) s = (s', inr (ofmx Q, ofmx B, A')) /\
    fro2 (A - Q *m B) = eta * fro2 A.
Proof using e0.
split; first exact: bent_near; exists eye_rf, tightA; split; first exact: eye_rf_shape.
split; first by rewrite tightA2 (lt_le_trans ltr01) // ler_addl.
by move=> ow t s; exact: tight_run.
Qed.

End Bent.

Lemma bent_wit (R : rcfType) (eta : R) : 0 < eta ->
  qr_near (bent_lapack eta) eta 0 /\ ~ qr_spec (bent_lapack eta) /\ lstsq_near (bent_lapack eta) 0.
Proof.
move=> e0; split; first exact: bent_near (ltW e0).
split; last by apply: lstsq_near_exact => //; exact: exact_lstsq.
move=> qs; have [Q [U [E oQ _]]] := bent_qr eta (1%:M : 'M[R]_1).
have [Q' [U' [E' oQ' _ _]]] := qs _ _ (1%:M : 'M[R]_1) isT isT.
have QE : ofmx (Num.sqrt (1 + eta) *: Q) = ofmx Q'.
  by move: E'; rewrite E => h; have := congr1 (fun x => if x is inr y then y.1 else ofmx Q') h.
have {}QE := ofmx_inj QE.
have tE : (Num.sqrt (1 + eta) *: Q)^T = Num.sqrt (1 + eta) *: Q^T by rewrite linearZ.
move: oQ'; rewrite /orthonormal -QE tE -scalemxAl -scalemxAr oQ scalerA -expr2 (bent_c2 (ltW e0)).
move=> /matrixP/(_ 0 0); rewrite !mxE /= mulr1 => /eqP.
by rewrite eq_sym -subr_eq0 opprD addNKr oppr_eq0 gt_eqF.
Qed.
