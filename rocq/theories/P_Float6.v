(** Proofs of C100, continued: sketch-and-solve in rounded arithmetic. *)
From mathcomp Require Import all_ssreflect all_algebra.
From mathcomp Require Import zify.
From Verif Require Import Base Arr Lapack Exact MxLib RingTac LapackSpec Rng Aware Shape Inexact Float.
From Verif Require Import Pcg Precond LstSq P_LS P_Rate3.
From Verif Require Import P_Shape P_ShapeLS P_Opt2 P_Inexact P_Float P_Float2 P_Float3.
Set Implicit Arguments.
Unset Strict Implicit.
Unset Printing Implicit Defensive.
Import Order.TTheory GRing.Theory Num.Theory.
Local Open Scope ring_scope.

Section Sso.
Context {R : rcfType} {T : Type} {O : ops T} {G : Type}.
Variables (v : T -> R) (u : R) (X : exn -> Prop) (L : lapack T) (tau : R).
Hypotheses (F : fl_arith O v u) (lsh : lap_shapes X L) (lsq : lstsq_fl v X L tau) (t0 : 0 <= tau).
Local Notation g := (gam u).
Local Notation mV := (@mval R T O v).
Local Notation vV := (@vval R T O v).
Add Field sso_field : (rcf_field R).

Let u0 : 0 <= u. Proof using F. exact: fl_u0 F. Qed.

Lemma fl_mv m n (A : arr T) x : shaped m n A -> size x = n ->
  rsafe X (fun y => size y = m /\
    fro (vV m y - mV m n A *m vV n x) <= g n.+1 * (fro (mV m n A) * fro (vV n x))) (mv A x).
Proof using F.
move=> sA ex; have [_ a1 a2] := sA; rewrite /mv a1 a2 ex eqxx; split; first by rewrite size_mkseq.
have := fro_mul_le (absm (mV m n A)) (absm (vV n x)); rewrite !fro_abs.
move=> /(ler_wpmul2l (gam_ge0 u0 n.+1)); apply: le_trans; apply: fro_dom; first exact: gam_ge0 u0 _.
move=> i j; rewrite !mxE /ev nth_mkseq //.
have -> : \sum_j0 mV m n A i j0 * vV n x j0 j = \sum_(l < n) v (el A i l) * v (ev x l).
  by apply: eq_bigr => l _; rewrite !mxE.
have h (l : 'I_n) : rel u 1 (v (omul (el A i l) (ev x l))) (v (el A i l) * v (ev x l)) by exact: rel_mul1.
have := @fl_osum_rel R T O v u F n 1 (fun l => omul (el A i l) (ev x l)) (fun l => v (el A i l) * v (ev x l)) h.
rewrite addn1 => /le_trans; apply; rewrite ler_wpmul2l ?(gam_ge0 u0) //.
apply: le_trans (ler_norm _); rewrite le_eqVlt; apply/orP; left; apply/eqP.
by apply: eq_bigr => l _; rewrite !mxE normrM.
Qed.

Lemma fl_lstsq_v m n A b : (0 < m)%N -> (0 < n)%N -> shaped m n A -> size b = m ->
  rsafe X (fun x => size x = n /\ forall y : 'cV[R]_n,
    fro (mV m n A *m vV n x - vV m b) <= (1 + tau) * fro (mV m n A *m y - vV m b)) (lstsq_v L A b).
Proof using lsq.
move=> m0 n0 sA eb; have sb : shaped m 1 (vcol b) by rewrite -eb; exact: sh_mk.
have bE : mV m 1 (vcol b) = vV m b.
  by apply/matrixP=> i j; rewrite !mxE [j]ord1 /vcol el_mk ?eb.
apply: rsafe_bind (lsq m0 n0 sA sb) _ => Y [sY hY] /=; have [_ e1 e2] := sY; split; first by rewrite size_mkseq.
have YE : vV n (mcol Y 0) = mV n 1 Y.
  by apply/matrixP=> i j; rewrite !mxE [j]ord1 /ev nth_mkseq ?e1.
by move=> y; rewrite YE -bE; exact: hY.
Qed.

(** ** The perturbed objective *)
Lemma fro_lip p q (B C : 'M[R]_(p, q)) : `|fro B - fro C| <= fro (B - C).
Proof.
rewrite ler_norml; apply/andP; split; last first.
  by rewrite ler_subl_addr -{1}(subrK C B); exact: ler_froD.
rewrite ler_subr_addl ler_subl_addr -{1}(subrK B C) -[C - B]opprB; apply: le_trans (ler_froD _ _) _.
by rewrite froN addrC.
Qed.

Lemma obj_lip p n (P P' : 'M[R]_(p, n)) (y y' : 'cV[R]_p) z :
  `|fro (P' *m z - y') - fro (P *m z - y)| <= fro ((P' - P) *m z) + fro (y' - y).
Proof.
apply: le_trans (fro_lip _ _) _.
have -> : P' *m z - y' - (P *m z - y) = (P' - P) *m z - (y' - y).
  by rewrite mulmxBl !opprB addrACA [RHS]addrACA [- y' + _]addrC.
by apply: le_trans (ler_froD _ _) _; rewrite froN.
Qed.

Section Obj.
Variables (d m n : nat) (S : 'M[R]_(d, m)) (A : 'M[R]_(m, n)) (b : 'cV[R]_m) (dl : R).
Variables (As : 'M[R]_(d, n)) (bs : 'cV[R]_d).
Hypotheses (hA : fro (As - S *m A) <= g m.+1 * (fro S * fro A)) (hb : fro (bs - S *m b) <= g m.+1 * (fro S * fro b)).
Local Notation err := (sso_err u S A b dl).
Local Notation obj z := (Num.sqrt (ridge (S *m A) (S *m b) dl z)).

Lemma err_Az (z : 'cV[R]_n) : fro ((As - S *m A) *m z) + fro (bs - S *m b) <= g m.+1 * fro S * (fro A * fro z + fro b).
Proof using hA hb.
rewrite [X in _ <= X]mulrDr; apply: ler_add; last by rewrite -mulrA.
apply: le_trans (fro_mul_le _ _) _; rewrite [X in _ <= X]mulrA; apply: ler_wpmul2r; first exact: fro_ge0.
by rewrite -mulrA.
Qed.

Lemma obj0 (z : 'cV[R]_n) : dl = 0 -> `|fro (As *m z - bs) - obj z| <= err z.
Proof using hA hb u0.
move=> d0; have -> : obj z = fro (S *m A *m z - S *m b).
  by rewrite /ridge d0 mul0r addr0 /fro -opprB fro2N.
by apply: le_trans (obj_lip _ _ _ _ _) _; rewrite /sso_err d0 sqrtr0 mulr0 mul0r addr0; exact: err_Az.
Qed.

Lemma obj1 (z : 'cV[R]_n) ph : 0 <= dl -> `|ph - Num.sqrt dl| <= g 2 * Num.sqrt dl ->
  `|fro (col_mx As ph%:M *m z - col_mx bs 0) - obj z| <= err z.
Proof using hA hb u0.
move=> d0 hp; have -> : obj z = fro (col_mx (S *m A) (Num.sqrt dl)%:M *m z - col_mx (S *m b) 0).
  rewrite /ridge /fro mul_col_mx opp_col_mx add_col_mx oppr0 addr0 fro2_col_mx -opprB fro2N.
  by rewrite mul_scalar_mx fro2Z sqr_sqrtr.
apply: le_trans (obj_lip _ _ _ _ _) _.
rewrite !opp_col_mx !add_col_mx mul_col_mx subrr -raddfB.
have e1 : fro (col_mx (bs - S *m b) (0 : 'cV[R]_n)) = fro (bs - S *m b) by rewrite /fro fro2_col_mx fro20 addr0.
have e2 p q (B : 'M[R]_(p, 1)) (C : 'M[R]_(q, 1)) : fro (col_mx B C) <= fro B + fro C.
  rewrite -(@ler_pexpn2r _ 2) ?nnegrE ?addr_ge0 ?fro_ge0 // sqr_fro fro2_col_mx sqrrD -!sqr_fro.
  by rewrite -addrA [_ *+ 2 + _]addrC addrA ler_addl mulrn_wge0 // mulr_ge0 ?fro_ge0.
rewrite e1; apply: le_trans (ler_add (e2 _ _ _ _) (lexx _)) _; rewrite addrAC; apply: ler_add; first exact: err_Az.
rewrite mul_scalar_mx /fro fro2Z (@sqrtrM _ (_ ^+ 2)) ?sqr_ge0 // sqrtr_sqr.
by apply: ler_wpmul2r; [exact: sqrtr_ge0|].
Qed.
End Obj.

Lemma eye_val n de : 0 < v de -> exists ph, mV n n (mscale (osqrt de) (meye n)) = ph%:M /\
  `|ph - Num.sqrt (v de)| <= g 2 * Num.sqrt (v de).
Proof using F.
move=> d0; exists (v (@omul T O (@osqrt T O de) (@o1 T O))); split; last first.
  have r1 : rel u 1 (v (osqrt de)) (Num.sqrt (v de)).
    by rewrite /rel gam1 [X in _ <= _ * X]ger0_norm ?sqrtr_ge0 // (fl_sqrt F (ltW d0)).
  have r2 := rel_mul1 F (@osqrt T O de) (@o1 T O); rewrite (fl_1 F) mulr1 in r2.
  by have := rel_trans u0 r1 r2; rewrite /rel [X in _ <= _ * X]ger0_norm ?sqrtr_ge0.
apply/matrixP=> i j; rewrite !mxE /mscale el_mk // /meye el_mk // -val_eqE /=; case: ifP => // _.
by have := fl_mul F (@osqrt T O de) (@o0 T O); rewrite (fl_0 F) mulr0 normr0 mulr0 subr0 normr_le0 => /eqP.
Qed.

Lemma vV_cat m n b : size b = m -> vV (m + n) (b ++ vzeros n) = col_mx (vV m b) 0.
Proof using F.
move=> eb; apply/matrixP=> i j; rewrite !mxE /ev nth_cat eb; case: (splitP i) => l il; rewrite !mxE il.
  by [].
by rewrite addKn /vzeros nth_nseq ltn_ord (fl_0 F).
Qed.

Lemma safe_dim_eq sf m n : (n <= m)%N -> sf_ok sf n ->
  safe X (fun d => (n <= d <= m)%N /\ d%:Z = Num.min (trunc_rat (sf * n%:R)) m%:Z) (dim_checks sf m n : M G T nat).
Proof.
move=> nm sf1; apply: safe_passert => //; rewrite /sf_ok in sf1; cbv zeta; move: (trunc_rat _) sf1 => d sf1.
have [e1 e2] : (n%:Z <= Num.min d m%:Z <= m%:Z)%R /\ (0 <= Num.min d m%:Z)%R by lia.
apply: (safe_bind (Q := fun e => e = Num.min d m%:Z)).
  by case: ifP => h; [apply: safe_emit|]; apply: safe_ret; lia.
move=> d' ->; apply: safe_passert; first by lia.
by apply: safe_ret; lia.
Qed.

Variables (gen : nat -> nat -> M G T (pyop T)) (PS : forall d m, 'M[R]_(d, m) -> Prop).
Hypothesis gsh : forall d m, (0 < d)%N -> (0 < m)%N ->
  safe X (fun S => exists2 B, S = PyArr B \/ S = PySp B & shaped d m B /\ PS (mV d m B)) (gen d m).

Lemma fl_SSO1 sf m n A b delta tol it : (0 < n <= m)%N -> sf_ok sf n -> shaped m n A -> size b = m ->
  let Am := mV m n A in let bm := vV m b in let dl := Num.max (v delta) 0 in
  safe X (fun x => size x = n /\ exists d (S : 'M[R]_(d, m)),
    [/\ d%:Z = Num.min (trunc_rat (sf * n%:R)) m%:Z, PS S,
        forall z, Num.sqrt (ridge (S *m Am) (S *m bm) dl (vV n x)) <=
          (1 + tau) * (Num.sqrt (ridge (S *m Am) (S *m bm) dl z) + sso_err u S Am bm dl z) + sso_err u S Am bm dl (vV n x) &
        forall lo hi, 0 <= lo -> 0 <= hi -> embeds2 S Am bm lo hi -> dl = 0 \/ lo <= 1 /\ 1 <= hi ->
        forall z, Num.sqrt lo * Num.sqrt (ridge Am bm dl (vV n x)) <=
          (1 + tau) * (Num.sqrt hi * Num.sqrt (ridge Am bm dl z) + sso_err u S Am bm dl z) + sso_err u S Am bm dl (vV n x)])
    (SSO1 L gen sf A b delta tol it).
Proof using F lsq t0 gsh.
move=> nm sf1 sA eb Am bm dl; have [_ a1 a2] := sA; have /andP[n0 nm'] := nm; have m0 := leq_trans n0 nm'.
have dl0 : 0 <= dl by rewrite le_maxr lexx orbT.
rewrite /SSO1 a1 a2; apply: (safe_bind (Q := fun _ => True)); first by case: tol => [x|]; [move=> s|exact: safe_ret].
move=> _ _; apply: (safe_bind (Q := fun _ => True)); first by case: ifP => _; [move=> s|exact: safe_ret].
move=> _ _; apply: safe_bind (safe_dim_eq nm' sf1) _ => d [/andP[nd dm] dE]; have d0 := leq_trans n0 nd.
apply: safe_bind (safe_emit _ (gsh d0 m0)) _ => Sk [B SkE [sB pB]].
apply: (safe_bind (Q := fun C => shaped d n C /\ fro (mV d n C - mV d m B *m mV m n A) <= g m.+1 * (fro (mV d m B) * fro (mV m n A)))).
  by apply: safe_lift; case: SkE => -> /=; exact: (fl_mmul F X sB sA).
move=> As [sAs hAs].
apply: (safe_bind (Q := fun c => size c = d /\ fro (vV d c - mV d m B *m vV m b) <= g m.+1 * (fro (mV d m B) * fro (vV m b)))).
  by apply: safe_lift; case: SkE => -> /=; exact: (fl_mv sB eb).
move=> bs [ebs hbs]; rewrite -/Am -/bm in hAs hbs; set S := mV d m B in hAs hbs pB.
have fin (obj' : 'cV[R]_n -> R) x :
    (forall z, `|obj' z - Num.sqrt (ridge (S *m Am) (S *m bm) dl z)| <= sso_err u S Am bm dl z) ->
    (forall z, obj' (vV n x) <= (1 + tau) * obj' z) ->
    forall z, Num.sqrt (ridge (S *m Am) (S *m bm) dl (vV n x)) <=
      (1 + tau) * (Num.sqrt (ridge (S *m Am) (S *m bm) dl z) + sso_err u S Am bm dl z) + sso_err u S Am bm dl (vV n x).
  move=> h1 h2 z; have := h1 (vV n x); rewrite ler_norml => /andP[l1 _].
  have := h1 z; rewrite ler_norml => /andP[_ l2].
  move: l1; rewrite ler_subr_addl ler_subl_addr => /le_trans; apply; rewrite ler_add2r.
  apply: le_trans (h2 z) _; apply: ler_wpmul2l; first exact: (addr_ge0 ler01 t0).
  by rewrite addrC -ler_subl_addr.
have emb x : (forall z, Num.sqrt (ridge (S *m Am) (S *m bm) dl (vV n x)) <=
      (1 + tau) * (Num.sqrt (ridge (S *m Am) (S *m bm) dl z) + sso_err u S Am bm dl z) + sso_err u S Am bm dl (vV n x)) ->
    forall lo hi, 0 <= lo -> 0 <= hi -> embeds2 S Am bm lo hi -> dl = 0 \/ lo <= 1 /\ 1 <= hi ->
        forall z, Num.sqrt lo * Num.sqrt (ridge Am bm dl (vV n x)) <=
          (1 + tau) * (Num.sqrt hi * Num.sqrt (ridge Am bm dl z) + sso_err u S Am bm dl z) + sso_err u S Am bm dl (vV n x).
  move=> H lo hi lo0 hi0 em h z; have lo1 : dl = 0 \/ lo <= 1 by case: h => [|[]]; auto.
  have hi1 : dl = 0 \/ 1 <= hi by case: h => [|[]]; auto.
  have /andP[e1 _] := ridge_sk em dl0 lo1 hi1 (vV n x); have /andP[_ e2] := ridge_sk em dl0 lo1 hi1 z.
  rewrite -(@sqrtrM _ lo) // -(@sqrtrM _ hi) //; apply: le_trans (ler_wsqrtr e1) _; apply: le_trans (H z) _.
  rewrite ler_add2r; apply: ler_wpmul2l; first exact: (addr_ge0 ler01 t0).
  by rewrite ler_add2r; exact: ler_wsqrtr.
case: ifP; rewrite (fl_lt F) (fl_0 F) => dp; last first.
  apply: safe_lift; apply: rsafe_weak (fl_lstsq_v d0 n0 sAs ebs) _ => x [ex hx]; split=> //; exists d, S.
  have dlE : dl = 0 by apply/max_idPr; rewrite leNgt dp.
  have H := fin (fun z => fro (mV d n As *m z - vV d bs)) x (fun z => obj0 hAs hbs z dlE) hx.
  by split=> //; exact: emb.
have [ph [pE pB']] := eye_val n dp.
have se : shaped n n (mscale (osqrt delta) (meye n)) by exact: sh_mk.
apply: safe_bind (safe_lift (fl_vstack v X sAs se)) _ => Al [sAl AlE].
apply: safe_lift; have eb2 : size (bs ++ vzeros n) = (d + n)%N by rewrite size_cat ebs size_nseq.
apply: rsafe_weak (fl_lstsq_v _ n0 sAl eb2) _; first by rewrite addn_gt0 d0.
move=> x [ex hx]; split=> //; exists d, S.
rewrite AlE pE vV_cat // in hx.
have dlE : dl = v delta by apply/max_idPl; exact: ltW.
have H := fin _ x (fun z => obj1 hAs hbs z dl0 (_ : `|ph - Num.sqrt dl| <= g 2 * Num.sqrt dl)) hx.
have {}H := H _; rewrite dlE in H *.
by split=> //; [exact: H|rewrite -dlE; apply: emb; rewrite dlE; exact: H].
Qed.
End Sso.
