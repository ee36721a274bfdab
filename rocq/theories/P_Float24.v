(** Proofs of C111: the preconditioned operators in rounded arithmetic. *)
From mathcomp Require Import all_ssreflect all_algebra.
From mathcomp Require Import zify.
From Verif Require Import Base Arr Lapack Exact MxLib RingTac Rng Pcg Lsqr Precond Shape Float FloatInterp FloatPre.
From Verif Require Import P_Shape P_ShapeLS P_Svd P_Inexact P_Float P_Float2 P_Float3 P_Float6 P_Float7 P_Float8 P_Float14 P_Float20.
Set Implicit Arguments.
Unset Strict Implicit.
Unset Printing Implicit Defensive.
Import Order.TTheory GRing.Theory Num.Theory.
Local Open Scope ring_scope.

Section Core.
Variable R : rcfType.
Add Field prec_field : (rcf_field R).

Lemma fip_abs n (x y : 'cV[R]_n) : `|fip x y| <= fro x * fro y.
Proof.
rewrite ler_norml fip_fro andbT; have := fip_fro (- x) y; rewrite froN /fip linearN /= mulNmx linearN /= => h.
by rewrite ler_oppl.
Qed.
Lemma fipBl n (x x' y : 'cV[R]_n) : fip (x - x') y = fip x y - fip x' y.
Proof. by rewrite /fip linearB mulmxBl linearB. Qed.
Lemma fipBr n (x y y' : 'cV[R]_n) : fip x (y - y') = fip x y - fip x y'.
Proof. by rewrite /fip mulmxBr linearB. Qed.
Lemma fip_mul m n (A : 'M[R]_(m, n)) (x : 'cV[R]_n) (y : 'cV[R]_m) : fip (A *m x) y = fip x (A^T *m y).
Proof. by rewrite /fip trmx_mul mulmxA. Qed.

Lemma cs2 (a b c d : R) : 0 <= a -> 0 <= b -> 0 <= c -> 0 <= d ->
  a * c + b * d <= Num.sqrt (a ^+ 2 + b ^+ 2) * Num.sqrt (c ^+ 2 + d ^+ 2).
Proof.
move=> a0 b0 c0 d0; rewrite -sqrtrM ?addr_ge0 ?sqr_ge0 //.
rewrite -[X in X <= _]ger0_norm ?addr_ge0 ?mulr_ge0 // -sqrtr_sqr.
rewrite ler_wsqrtr // -subr_ge0.
have -> : (a ^+ 2 + b ^+ 2) * (c ^+ 2 + d ^+ 2) - (a * c + b * d) ^+ 2 = (a * d - b * c) ^+ 2 by rring.
exact: sqr_ge0.
Qed.
End Core.

Section Pre.
Context {R : rcfType} {T : Type} {O : ops T}.
Variables (v : T -> R) (u : R).
Hypothesis F : fl_arith O v u.
Add Field pre_field : (rcf_field R).
Local Notation g := (gam u).
Local Notation t := (fl_tri u).
Local Notation mV := (@mval R T O v).
Local Notation vV := (@vval R T O v).
Local Notation X := (fun _ : exn => True).
Let u0 : 0 <= u. Proof using F. exact: fl_u0 F. Qed.
Let u1 : u < 1. Proof using F. exact: fl_u1 F. Qed.

Lemma fl_solve_v lower trans n (P : arr T) b x : shaped n n P -> size b = n -> solve_tri_v lower trans P b = Ok x ->
  size x = n /\ fro (vV n b - tri_val v lower trans n P *m vV n x) <= t n * (fro (tri_val v lower trans n P) * fro (vV n x)).
Proof using F.
move=> sP eb; have [_ a1 a2] := sP; rewrite /solve_tri_v /tri_check a1 a2 eb !eqxx /=.
case: ifP => [_ //|hd] [<-].
have dg i : (i < n)%N -> v (el P i i) != 0.
  move=> hi; apply/negP=> e0; move/negP: hd; apply; apply/hasP; exists i; first by rewrite mem_iota.
  by rewrite (fl_eq F) (fl_0 F).
split; first by rewrite size_tri_vec.
set x' := tri_vec _ _ _ _; set Tv := tri_val _ _ _ _ _.
have hm := fro_mul_le (absm Tv) (absm (vV n x')); rewrite !fro_abs in hm.
apply: le_trans (ler_wpmul2l (fl_tri_ge0 F n) hm); apply: fro_dom; first exact: (fl_tri_ge0 F).
move=> i j; rewrite !mxE; have := @fl_tri_vec R T O v u F lower trans n P (@ev T O b) i sP dg => /=; rewrite -/x' => h.
have -> : \sum_l Tv i l * vV n x' l j = \sum_l Tv i l * v (ev x' l) by apply: eq_bigr => l _; rewrite !mxE.
apply: le_trans h _; rewrite ler_wpmul2l ?(fl_tri_ge0 F) //; apply: le_trans (ler_norm _); apply: eq_lew.
by apply: eq_bigr => l _; rewrite !mxE.
Qed.

Lemma tri_val_tr n (P : arr T) : tri_val v false true n P = (tri_val v false false n P)^T.
Proof. by apply/matrixP=> i j; rewrite !mxE. Qed.

Lemma sd0 dl : 0 <= v dl -> (oeq (osqrt dl) o0) = (v dl == 0).
Proof using F.
move=> d0; rewrite (fl_eq F) (fl_0 F); have h := fl_sqrt F d0; apply/idP/idP=> /eqP e; move: h.
  rewrite e sub0r normrN ger0_norm ?sqrtr_ge0 // => h; apply/eqP/le_anti; rewrite d0 andbT.
  rewrite leNgt; apply/negP=> dp; move: h; apply/negP; rewrite -ltNge gtr_pmull //.
  by rewrite sqrtr_gt0.
by rewrite e sqrtr0 mulr0 subr0 normr_le0.
Qed.

Variables (m n : nat) (A : arr T) (dl : T).
Hypotheses (sA : shaped m n A) (d0 : 0 <= v dl).
Local Notation sd := (@osqrt T O dl).
Local Notation s := (Num.sqrt (v dl)).

Let rel_sd : rel u 1 (v sd) s.
Proof using F d0. by rewrite /rel gam1 (ger0_norm (sqrtr_ge0 _)); exact: (fl_sqrt F). Qed.

(** The first part of the adjoint. *)
Definition adj_work (w : seq T) : res (seq T) :=
  let? work := mv (mtr A) (vtop (nr A) w) in
  if olt o0 dl then vadd work (vscale sd (vbot (nr A) w)) else Ok work.
Lemma pc_adjointE P tri w : pc_adjoint A P dl sd tri w = rbind (adj_work w) (M_adj P tri).
Proof. by rewrite /pc_adjoint /adj_work; case: (mv _ _) => //= x; case: ifP. Qed.

Lemma lift_ok : exists m' (Ab : 'M[R]_(m', n)) Al,
  [/\ a_lift A sd = Ok Al, shaped m' n Al, lifted_mx (mV m n A) (v dl) Ab, fro (mV m' n Al - Ab) <= g 2 * fro Ab &
      forall w, size w = m' -> rsafe (fun _ => False) (fun a => size a = n /\
        fro (vV n a - Ab^T *m vV m' w) <= g m.+3 * (fro Ab * fro (vV m' w))) (adj_work w)].
Proof using F sA d0.
have [_ a1 a2] := sA; rewrite /a_lift sd0 // /adj_work (fl_lt F) (fl_0 F) /lifted_mx lt_def d0 andbT a1.
have [e0|e0] /= := boolP (v dl == 0).
  exists m, (mV m n A), A; split=> //.
    by rewrite subrr fro0 mulr_ge0 ?fro_ge0 ?gam_ge0.
  move=> w ew; rewrite /vtop take_oversize ?ew //.
  apply: rsafe_bind (fl_mv (fun _ => False) F (sh_mtr sA) ew) _ => a [ea ha] /=; split=> //.
  rewrite (mval_tr v sA) [fro (mV m n A)^T]/fro fro2_trmx -/(fro _) in ha.
  by apply: le_trans ha _; apply: ler_wpmul2r; rewrite ?mulr_ge0 ?fro_ge0 // gam_le // ltnW.
exists (m + n)%N, (col_mx (mV m n A) s%:M); rewrite /vstack /= a1 a2 /= eqxx; eexists; split=> //; first exact: sh_mk.
  apply: fro_dom => [|i j]; first exact: gam_ge0.
  rewrite mval_mk !mxE; case: splitP => k ->; first by rewrite mxE subrr normr0 mulr_ge0 ?gam_ge0.
  rewrite addKn !mxE el_mk // el_mk //.
  have [e|ne] := eqVneq (k : nat) j.
    rewrite (_ : (k == j) = true) ?mulr1n; last by apply/eqP/val_inj.
    apply: (rel_trans u0 (p := 1) (q := 1)) rel_sd _; have := rel_mul1 F sd (@o1 T O); by rewrite (fl_1 F) mulr1.
  rewrite (_ : (k == j) = false) ?mulr0n ?subr0; last by apply/negP=> /eqP e; rewrite e eqxx in ne.
  by have := fl_mul F sd (@o0 T O); rewrite (fl_0 F) mulr0 subr0 normr0 mulr0 => h; rewrite mulr0.
move=> w ew; pose w1 := take m w; pose w2 := drop m w.
have e1 : size w1 = m by rewrite size_take ew; case: ltnP => //; clear; lia.
have e2 : size w2 = n by rewrite size_drop ew addKn.
have wE : vV (m + n) w = col_mx (vV m w1) (vV n w2).
  apply/matrixP=> i j; rewrite !mxE; case: splitP => k ik; rewrite mxE /ev ik.
    by rewrite nth_take.
  by rewrite nth_drop.
rewrite /vtop /vbot -/w1 -/w2.
apply: rsafe_bind (fl_mv (fun _ => False) F (sh_mtr sA) e1) _ => x [ex hx].
rewrite (mval_tr v sA) [fro (mV m n A)^T]/fro fro2_trmx -/(fro _) in hx.
have ey : size (vscale sd w2) = n by rewrite size_mkseq.
have hy : fro (vV n (vscale sd w2) - s *: vV n w2) <= g 2 * fro (s *: vV n w2).
  apply: fro_dom => [|i j]; first exact: gam_ge0.
  rewrite !mxE /ev nth_mkseq ?e2 //.
  have h : rel u 1 (v sd * v (ev w2 i)) (s * v (ev w2 i)).
    by rewrite -[1%N]addn0; apply: (rel_mul u0 rel_sd); rewrite /rel subrr normr0 mulr_ge0 ?gam_ge0.
  exact: (rel_trans u0 (p := 1) (q := 1) h (rel_mul1 F _ _)).
case E : (vadd x (vscale sd w2)) => [ee|a]; first by move: E; rewrite /vadd ex ey eqxx.
have [ea ha] := fl_vadd F ex ey E; rewrite /rsafe; split=> //.
rewrite wE tr_col_mx mul_row_col tr_scalar_mx mul_scalar_mx.
set c1 := vV n x in hx ha *; set c2 := vV n (vscale _ _) in hy ha *; set b1 := _ *m vV m w1; set b2 := s *: _ in hy *.
pose z := fro (col_mx (mV m n A) s%:M) * fro (col_mx (vV m w1) (vV n w2)).
have z0 : 0 <= z by rewrite mulr_ge0 ?fro_ge0.
have hb2 : fro b2 <= fro (s%:M : 'M[R]_n) * fro (vV n w2) by rewrite /b2 -mul_scalar_mx fro_mul_le.
have hz : fro (mV m n A) * fro (vV m w1) + fro (s%:M : 'M[R]_n) * fro (vV n w2) <= z.
  apply: le_trans (cs2 _ _ _ _) _; rewrite ?fro_ge0 //; apply: eq_lew.
  by rewrite /z [fro (col_mx _ _)]/fro [fro (col_mx (vV _ _) _)]/fro !fro2_col_mx !sqr_fro.
have hE : fro (c1 + c2 - (b1 + b2)) <= g m.+2 * z.
  rewrite opprD addrACA; apply: le_trans (ler_froD _ _) _.
  apply: le_trans (ler_wpmul2l (gam_ge0 u0 _) hz); rewrite mulrDr; apply: ler_add.
    by apply: le_trans hx _; apply: ler_wpmul2r; rewrite ?mulr_ge0 ?fro_ge0 // gam_le.
  apply: le_trans hy _; apply: ler_pmul hb2; rewrite ?gam_ge0 ?fro_ge0 // gam_le //.
have hB : fro (b1 + b2) <= z.
  apply: le_trans (ler_froD _ _) _; apply: le_trans hz; apply: ler_add hb2.
  by apply: le_trans (fro_mul_le _ _) _; rewrite [fro _^T]/fro fro2_trmx.
have -> : vV n a - (b1 + b2) = (vV n a - (c1 + c2)) + (c1 + c2 - (b1 + b2)) by rewrite addrA subrK.
apply: le_trans (ler_froD _ _) _; apply: le_trans (ler_add ha hE) _.
have hc : fro (c1 + c2) <= (1 + g m.+2) * z.
  by rewrite -(subrK (b1 + b2) (c1 + c2)) addrC mulrDl mul1r; apply: le_trans (ler_froD _ _) _; exact: ler_add.
apply: le_trans (ler_add (ler_wpmul2l u0 hc) (lexx _)) _; apply: eq_lew.
by rewrite -[m.+3]addn1 gamD gam1 -/z; move: (g m.+2) (z) => x1 x2; rring.
Qed.

Lemma fwd_mul m' (Ab : 'M[R]_(m', n)) Al y : shaped m' n Al -> fro (mV m' n Al - Ab) <= g 2 * fro Ab -> size y = n ->
  rsafe (fun _ => False) (fun f => size f = m' /\ fro (vV m' f - Ab *m vV n y) <= g n.+3 * (fro Ab * fro (vV n y))) (mv Al y).
Proof using F.
move=> sAl hA ey; apply: rsafe_weak (fl_mv (fun _ => False) F sAl ey) _ => f [ef hf]; split=> //.
set B := mV m' n Al in hA hf; set z := vV n y in hf *.
have -> : vV m' f - Ab *m z = (vV m' f - B *m z) + (B - Ab) *m z by rewrite mulmxBl addrA subrK.
apply: le_trans (ler_froD _ _) _.
have hB : fro B <= (1 + g 2) * fro Ab.
  by rewrite -(subrK Ab B) addrC mulrDl mul1r; apply: le_trans (ler_froD _ _) _; exact: ler_add.
apply: le_trans (ler_add (le_trans hf (ler_wpmul2l (gam_ge0 u0 _) (ler_wpmul2r (fro_ge0 _) hB)))
  (le_trans (fro_mul_le _ _) (ler_wpmul2r (fro_ge0 _) hA))) _; apply: eq_lew.
by rewrite -[n.+3]/(2 + n.+1)%N gamD; move: (g 2) (g n.+1) (fro Ab) (fro z) => x1 x2 x3 x4; rring.
Qed.

Let dl0 : olt dl o0 = false.
Proof using F d0. by rewrite (fl_lt F) (fl_0 F) ltNge d0. Qed.

Lemma pre_tri (P : arr T) : shaped n n P -> exists m' (Ab : 'M[R]_(m', n)) op,
  [/\ a_lift_precond A dl P true 1 = Ok op, (lo_nr op, lo_nc op) = (m', n), lifted_mx (mV m n A) (v dl) Ab,
      tri_op_ok v u m Ab (tri_val v false false n P) P op &
      (forall i, (i < n)%N -> v (el P i i) != 0) ->
        (forall z, size z = n -> exists f, lo_mv op z = Ok f) /\ (forall w, size w = m' -> exists b, lo_rmv op w = Ok b)].
Proof using F sA d0.
move=> sP; have [_ p1 p2] := sP; have [m' [Ab [Al [El sAl hl hA hw]]]] := lift_ok; have [_ l1 l2] := sAl.
set U := tri_val v false false n P.
exists m', Ab; rewrite /a_lift_precond /= dl0 El /=; eexists; split=> //=; first by rewrite l1 p2.
  have fw z f : size z = n -> @pc_forward T O Al P true z = Ok f -> size f = m' /\ exists2 y, @M_fwd T O P true z = Ok y &
      [/\ size y = n, fro (vV n z - U *m vV n y) <= t n * (fro U * fro (vV n y)) &
        fro (vV m' f - Ab *m vV n y) <= g n.+3 * (fro Ab * fro (vV n y))].
    move=> ez; rewrite /pc_forward; case Ey : (M_fwd P true z) => [//|y] /= Ef; have [ey hy] := fl_solve_v sP ez Ey.
    by have := fwd_mul sAl hA ey; rewrite Ef => -[ef hf]; split=> //; exists y.
  have aw w b : size w = m' -> @pc_adjoint T O A P dl sd true w = Ok b -> size b = n /\ exists a : 'cV[R]_n,
      fro (a - Ab^T *m vV m' w) <= g m.+3 * (fro Ab * fro (vV m' w)) /\
      fro (a - U^T *m vV n b) <= t n * (fro U * fro (vV n b)).
    move=> ew; rewrite pc_adjointE; have := hw w ew; case: (adj_work w) => // a [ea ha] /= Eb.
    have [eb hb] := fl_solve_v sP ea Eb; split=> //; exists (vV n a); split=> //.
    by rewrite tri_val_tr [fro (_^T)]/fro fro2_trmx in hb.
  split=> // z y f w b ez ew Ey Ef Eb.
  have [_ [y' Ey' [_ hz hf]]] := fw _ _ ez Ef; move: Ey'; rewrite Ey => -[yE]; rewrite -yE in hz hf.
  have [_ [a [ha hb]]] := aw _ _ ew Eb; move: hz hf ha hb; clear.
  move: (vV n z) (vV n y) (vV m' f) (vV m' w) (vV n b) => zv yv fv wv bv hz hf ha hb /=.
  have -> : fip fv wv - fip zv bv = fip (fv - Ab *m yv) wv - fip yv (a - Ab^T *m wv) + fip yv (a - U^T *m bv) - fip (zv - U *m yv) bv.
    by rewrite !fipBl !fipBr !fip_mul; move: (fip _ _) (fip _ _) (fip _ _) (fip _ _) (fip _ _) => x1 x2 x3 x4 x5; rring.
  apply: le_trans (ler_norm_sub _ _) _; apply: le_trans (ler_add (ler_norm_add _ _) (lexx _)) _.
  apply: le_trans (ler_add (ler_add (ler_norm_sub _ _) (lexx _)) (lexx _)) _.
  have h1 := le_trans (fip_abs _ _) (ler_wpmul2r (fro_ge0 wv) hf).
  have h2 := le_trans (fip_abs _ _) (ler_wpmul2l (fro_ge0 yv) ha).
  have h3 := le_trans (fip_abs _ _) (ler_wpmul2l (fro_ge0 yv) hb).
  have h4 := le_trans (fip_abs _ _) (ler_wpmul2r (fro_ge0 bv) hz).
  apply: le_trans (ler_add (ler_add (ler_add h1 h2) h3) h4) _; apply: eq_lew.
  rewrite -[2%N]/(1 + 1)%N natrD; move: (g n.+3) (g m.+3) (t n) (fro Ab) (fro U) (fro yv) (fro wv) (fro bv).
  by move=> x1 x2 x3 x4 x5 x6 x7 x8; rring.
move=> dg; have ok tr b : size b = n -> exists2 x, @solve_tri_v T O false tr P b = Ok x & size x = n.
  move=> eb; rewrite /solve_tri_v /tri_check p1 p2 eb !eqxx /=.
  case: ifP => [/hasP[i]|_]; last by eexists; first reflexivity; rewrite size_tri_vec.
  by rewrite mem_iota add0n (fl_eq F) (fl_0 F) => /andP[_ /dg /negbTE->].
split=> [z ez|w ew].
  have [y Ey ey] := ok false z ez; rewrite /pc_forward /M_fwd Ey /=.
  by have := fwd_mul sAl hA ey; case: (mv _ _) => // f _; exists f.
rewrite pc_adjointE; have := hw w ew; case: (adj_work w) => // a [ea _].
by have [b Eb _] := ok true a ea; exists b.
Qed.

Lemma pre_mat k (P : arr T) : shaped n k P -> exists m' (Ab : 'M[R]_(m', n)) op,
  [/\ a_lift_precond A dl P false 1 = Ok op, (lo_nr op, lo_nc op) = (m', k), lifted_mx (mV m n A) (v dl) Ab &
      mat_op_ok v u m Ab (mV n k P) P op].
Proof using F sA d0.
move=> sP; have [_ p1 p2] := sP; have [m' [Ab [Al [El sAl hl hA hw]]]] := lift_ok; have [_ l1 l2] := sAl.
set N := mV n k P.
exists m', Ab; rewrite /a_lift_precond /= dl0 El /=; eexists; split=> //=; first by rewrite l1 p2.
have fw z : size z = k -> exists f y, [/\ @pc_forward T O Al P false z = Ok f, @M_fwd T O P false z = Ok y, size f = m' /\ size y = n,
    fro (vV n y - N *m vV k z) <= g k.+1 * (fro N * fro (vV k z)) &
    fro (vV m' f - Ab *m vV n y) <= g n.+3 * (fro Ab * fro (vV n y))].
  move=> ez; have := fl_mv (fun _ => False) F sP ez; rewrite /pc_forward /M_fwd; case: (mv P z) => // y [ey hy] /=.
  by have := fwd_mul sAl hA ey; case: (mv _ _) => // f [ef hf]; exists f, y.
have aw w : size w = m' -> exists b (a : 'cV[R]_n), [/\ @pc_adjoint T O A P dl sd false w = Ok b, size b = k,
    fro (a - Ab^T *m vV m' w) <= g m.+3 * (fro Ab * fro (vV m' w)) & fro (vV k b - N^T *m a) <= g n.+1 * (fro N * fro a)].
  move=> ew; rewrite pc_adjointE; have := hw w ew; case: (adj_work w) => // a [ea ha]; rewrite /= /M_adj.
  have := fl_mv (fun _ => False) F (sh_mtr sP) ea; case: (mv _ _) => // b [eb hb]; exists b, (vV n a); split=> //.
  by rewrite (mval_tr v sP) [fro (_^T)]/fro fro2_trmx in hb.
split=> // z y f w b ez ew Ey Ef Eb.
have Ef1 : @pc_forward T O Al P false z = Ok f := Ef; have Eb1 : @pc_adjoint T O A P dl sd false w = Ok b := Eb.
have [f' [y' [Ef' Ey' _ hy hf]]] := fw z ez; move: Ef' Ey'; rewrite Ef1 Ey => -[fE] [yE]; rewrite -fE -yE in hf hy.
have [b' [a [Eb' _ ha hb]]] := aw w ew; move: Eb'; rewrite Eb1 => -[bE]; rewrite -bE in hb; move: hf hy ha hb; clear - u0.
move: (vV k z) (vV n y) (vV m' f) (vV m' w) (vV k b) => zv yv fv wv bv hf hy ha hb /=.
have -> : fip fv wv - fip zv bv = fip (fv - Ab *m yv) wv - fip yv (a - Ab^T *m wv) + fip (yv - N *m zv) a - fip zv (bv - N^T *m a).
  by rewrite !fipBl !fipBr !fip_mul; move: (fip _ _) (fip _ _) (fip _ _) (fip _ _) (fip _ _) => x1 x2 x3 x4 x5; rring.
have na : fro a <= (1 + g m.+3) * (fro Ab * fro wv).
  rewrite -(subrK (Ab^T *m wv) a) addrC mulrDl mul1r; apply: le_trans (ler_froD _ _) _; apply: ler_add ha.
  by apply: le_trans (fro_mul_le _ _) _; rewrite [fro _^T]/fro fro2_trmx.
apply: le_trans (ler_norm_sub _ _) _; apply: le_trans (ler_add (ler_norm_add _ _) (lexx _)) _.
apply: le_trans (ler_add (ler_add (ler_norm_sub _ _) (lexx _)) (lexx _)) _.
have h1 := le_trans (fip_abs _ _) (ler_wpmul2r (fro_ge0 wv) hf).
have h2 := le_trans (fip_abs _ _) (ler_wpmul2l (fro_ge0 yv) ha).
have h3 := le_trans (fip_abs _ _) (ler_wpmul2r (fro_ge0 a) hy).
have h4 := le_trans (fip_abs _ _) (ler_wpmul2l (fro_ge0 zv) hb).
apply: le_trans (ler_add (ler_add (ler_add h1 h2) h3) h4) _.
have h5 : (g k.+1 + g n.+1) * (fro N * fro zv) * fro a <= (g k.+1 + g n.+1) * (fro N * fro zv) * ((1 + g m.+3) * (fro Ab * fro wv)).
  by apply: ler_wpmul2l na; rewrite !mulr_ge0 ?fro_ge0 // addr_ge0 ?gam_ge0.
apply: le_trans (_ : (g n.+3 + g m.+3) * (fro Ab * fro yv * fro wv) + (g k.+1 + g n.+1) * (fro N * fro zv) * fro a <= _).
  apply: eq_lew; move: (g n.+3) (g m.+3) (g k.+1) (g n.+1) (fro Ab) (fro N) (fro yv) (fro wv) (fro zv) (fro a).
  by move=> x1 x2 x3 x4 x5 x6 x7 x8 x9 x10; rring.
rewrite ler_add2l; apply: le_trans h5 _; apply: eq_lew.
move: (g m.+3) (g k.+1 + g n.+1) (fro Ab) (fro N) (fro wv) (fro zv) => x2 x3 x5 x6 x8 x9; rring.
Qed.
End Pre.

Lemma pre_const_zero (R : rcfType) n : gam 0 n = 0 :> R /\ fl_tri 0 n = 0 :> R.
Proof.
have g0 i : gam (0 : R) i = 0 by rewrite /gam addr0 expr1n subrr.
by split; rewrite // /fl_tri g0 subr0 invr1 expr1n subrr addr0.
Qed.

Lemma pre_wit (R : rcfType) (u : R) : 0 <= u < 1 -> 0 < u ->
  let O := bent_ops u in let A := @mk R 3 2 (fun i j => (i + j)%:R) in
  let P := @mk R 2 2 (fun i j => if (i <= j)%N then (i + j).+1%:R else 0) in
  [/\ fl_arith O id u /\ @oadd R O 1 1 <> 2%:R, @shaped R O 3 2 A, @shaped R O 2 2 P &
      forall i, (i < 2)%N -> @el R O P i i != 0].
Proof.
move=> u01 u0 O A P; have [h _ _ _] := nys_wit u01 u0 ltr01 ltr01.
split; [exact: h|exact: sh_mk|exact: sh_mk|].
by move=> i hi; rewrite el_mk // leqnn pnatr_eq0.
Qed.
