(** Proofs of C101, continued: the saddle point solver PcSS1 in rounded arithmetic. *)
From mathcomp Require Import all_ssreflect all_algebra.
From mathcomp Require Import zify.
From Verif Require Import Base Arr Exact MxLib RingTac Shape Float Pcg Lsqr Precond.
From Verif Require Import P_Shape P_Float P_Float6 P_Float7 P_Float8.
Set Implicit Arguments.
Unset Strict Implicit.
Unset Printing Implicit Defensive.
Import Order.TTheory GRing.Theory Num.Theory.
Local Open Scope ring_scope.

Section Len.
Context {T : Type} {O : ops T}.
Variables (n : nat) (mvH mvP : seq T -> res (seq T)) (b : seq T).
Hypotheses (opH : op_len n mvH) (opP : op_len n mvP) (sb : size b = n).

Lemma vadd_len x y z : size x = n -> vadd x y = Ok z -> size z = n.
Proof. by move=> ex; rewrite /vadd; case: ifP => // _ [<-]; rewrite size_mkseq. Qed.
Lemma vsub_len x y z : size x = n -> vsub x y = Ok z -> size z = n.
Proof. by move=> ex; rewrite /vsub; case: ifP => // _ [<-]; rewrite size_mkseq. Qed.

Lemma loop_len rt todo : forall i x r d de cu rs x1 rs1,
  size x = n -> size r = n -> size d = n -> pcg_loop mvH mvP b rt todo i x r d de cu rs = Ok (x1, rs1) -> size x1 = n.
Proof using opH opP sb.
elim: todo => [|todo IH] i x r d de cu rs x1 rs1 ex er ed; first by move=> [<- _].
rewrite /=; case: ifP => _; last by move=> [<- _].
intro K.
destruct (rbind_inv K) as (q & Eq & K'); clear K; rename K' into K.
destruct (rbind_inv K) as (den & Eden & K'); clear K; rename K' into K.
destruct (rbind_inv K) as (al & Eal & K'); clear K; rename K' into K.
destruct (rbind_inv K) as (x' & Ex' & K'); clear K; rename K' into K.
destruct (rbind_inv K) as (r' & Er' & K'); clear K; rename K' into K.
destruct (rbind_inv K) as (s & Es & K'); clear K; rename K' into K.
destruct (rbind_inv K) as (de' & Ede & K'); clear K; rename K' into K.
destruct (rbind_inv K) as (be & Ebe & K'); clear K; rename K' into K.
destruct (rbind_inv K) as (d' & Ed' & K'); clear K; rename K' into K.
have ex' := vadd_len ex Ex'.
have er' : size r' = n.
  move: Er'; case: ifP => _; last exact: vsub_len er.
  by intro K2; destruct (rbind_inv K2) as (Hx & EHx & Er'); exact: vsub_len sb Er'.
exact: (IH _ _ _ _ _ _ _ _ _ ex' er' (vadd_len (opP er' Es) Ed') K).
Qed.

Lemma pcg_len tol lim x0 x rs : size x0 = n -> pcg mvH b mvP lim tol x0 = Ok (x, rs) -> size x = n.
Proof using opH opP sb.
move=> e0; rewrite /pcg; case: ifP => // _; intro K.
destruct (rbind_inv K) as (Hx & EHx & K'); clear K; rename K' into K.
destruct (rbind_inv K) as (r & Er & K'); clear K; rename K' into K.
destruct (rbind_inv K) as (d & Ed & K'); clear K; rename K' into K.
destruct (rbind_inv K) as (de & Ede & K'); clear K; rename K' into K.
have er := vsub_len sb Er; exact: loop_len e0 er (opP er Ed) K.
Qed.

Lemma mv_len m (A : arr T) x y : nr A = m -> mv A x = Ok y -> size y = m.
Proof. by move=> a; rewrite /mv; case: ifP => // _ [<-]; rewrite size_mkseq. Qed.

Lemma pre_len (R : arr T) V : nr R = n -> op_len n (pcss1_mv_pre R V).
Proof.
move=> eR x y ex; rewrite /pcss1_mv_pre; intro K.
destruct (rbind_inv K) as (w & Ew & K'); clear K; rename K' into K.
destruct (rbind_inv K) as (s & Es & K'); clear K; rename K' into K.
have es := mv_len eR Es; case: V K => [V|]; last by move=> [<-].
intro K.
destruct (rbind_inv K) as (t & Et & K'); clear K; rename K' into K.
destruct (rbind_inv K) as (w1 & Ew1 & K'); clear K; rename K' into K.
destruct (rbind_inv K) as (w2 & Ew2 & K'); clear K; rename K' into K.
exact: vsub_len (vadd_len es Et) K.
Qed.

Lemma lowrank_len dl (R R' V : arr T) : pcss1_lowrank dl R = Ok (R', V) -> nr R' = nr R.
Proof.
rewrite /pcss1_lowrank; intro K.
destruct (rbind_inv K) as (w & Ew & K'); clear K; rename K' into K.
destruct (rbind_inv K) as (V' & EV & K'); clear K; rename K' into K.
move: K; case: (map _ _) => // a l; intro K.
destruct (rbind_inv K) as (w1 & Ew1 & K'); clear K; rename K' into K.
destruct (rbind_inv K) as (R1 & ER & K'); clear K; rename K' into K.
move: K => [<- _]; move: ER EV; rewrite /cdiv /cmul; case: ifP => // _ [<-] /=.
by case: ifP => // _ [<-].
Qed.
End Len.

Lemma gram_idx m n : (m + n + 3)%N = (1 + (m.+1 + n.+1))%N.
Proof. by lia. Qed.

Section Gram.
Context {R : rcfType} {T : Type} {O : ops T}.
Variables (v : T -> R) (u : R) (m n : nat) (A : arr T) (delta : T).
Hypotheses (F : fl_arith O v u) (sA : shaped m n A).
Local Notation g := (gam u).
Local Notation vV := (@vval R T O v).
Local Notation Am := (@mval R T O v m n A).
Local Notation al := (@fro R m n Am).
Add Field gram_field : (rcf_field R).
Let u0 : 0 <= u. Proof using F. exact: fl_u0 F. Qed.

Lemma fro_trmx' p q (X : 'M[R]_(p, q)) : fro X^T = fro X.
Proof. by rewrite /fro fro2_trmx. Qed.

Lemma gram_h (z : 'cV[R]_n) : fro ((Am^T *m Am + (v delta)%:M) *m z) <= (al ^+ 2 + `|v delta|) * fro z.
Proof.
rewrite mulmxDl mul_scalar_mx mulrDl; apply: le_trans (ler_froD _ _) _; apply: ler_add.
  rewrite -mulmxA; apply: le_trans (fro_mul_le _ _) _; rewrite fro_trmx' expr2 -mulrA; apply: ler_wpmul2l; first exact: fro_ge0.
  exact: fro_mul_le.
by rewrite {1}/fro fro2Z (@sqrtrM _ (_ ^+ 2)) ?sqr_ge0 // sqrtr_sqr.
Qed.

Lemma gram_fl : op_fl v (mv_gram A delta) (Am^T *m Am + (v delta)%:M) (gram_err u m n al `|v delta|).
Proof using F sA.
move=> x y ex; rewrite /mv_gram; intro K.
destruct (rbind_inv K) as (w & Ew & K'); clear K; rename K' into K.
destruct (rbind_inv K) as (s & Es & K'); clear K; rename K' into K.
have := fl_mv (fun _ => True) F sA ex; rewrite Ew => -[ew hw].
have sAt : shaped n m (mtr A) by exact: sh_mtr.
have := fl_mv (fun _ => True) F sAt ew; rewrite Es => -[es]; rewrite (mval_tr _ sA) fro_trmx' => hs.
have [et ht] := fl_vscale F delta ex; have [ey hy] := fl_vadd F es et K; split=> //.
move: hw hs ht hy; set X := vV n x; set W := vV m w; set S := vV n s; set T' := vV n (vscale _ _); set Y := vV n y.
move=> hw hs ht hy; set f := fro X.
have a0 : 0 <= al := fro_ge0 _; have f0 : 0 <= f := fro_ge0 _.
have gm0 := gam_ge0 u0 m.+1; have gn0 := gam_ge0 u0 n.+1.
have bW : fro W <= (1 + g n.+1) * (al * f).
  have -> : W = Am *m X + (W - Am *m X) by rewrite addrC subrK.
  apply: le_trans (ler_froD _ _) _; rewrite [X in _ <= X]mulrDl mul1r; apply: ler_add => //.
  exact: fro_mul_le.
have bS : fro (S - Am^T *m W) <= g m.+1 * ((1 + g n.+1) * (al ^+ 2 * f)).
  apply: le_trans hs _; apply: ler_wpmul2l => //; rewrite expr2 -mulrA mulrCA; apply: ler_wpmul2l => //.
have bG : fro (S - Am^T *m Am *m X) <= (g m.+1 * (1 + g n.+1) + g n.+1) * (al ^+ 2 * f).
  have -> : S - Am^T *m Am *m X = (S - Am^T *m W) + Am^T *m (W - Am *m X).
    by rewrite mulmxBr mulmxA addrA subrK.
  apply: le_trans (ler_froD _ _) _; rewrite [X in _ <= X]mulrDl -[X in _ <= X + _]mulrA; apply: ler_add => //.
  apply: le_trans (fro_mul_le _ _) _; rewrite fro_trmx'; apply: le_trans (ler_wpmul2l a0 hw) _.
  by rewrite mulrCA expr2 -mulrA.
have nd : fro (v delta *: X) = `|v delta| * f by rewrite {1}/fro fro2Z (@sqrtrM _ (_ ^+ 2)) ?sqr_ge0 // sqrtr_sqr.
rewrite nd in ht.
have bS2 : fro S <= (1 + (g m.+1 * (1 + g n.+1) + g n.+1)) * (al ^+ 2 * f).
  have -> : S = Am^T *m Am *m X + (S - Am^T *m Am *m X) by rewrite addrC subrK.
  apply: le_trans (ler_froD _ _) _; rewrite [X in _ <= X]mulrDl mul1r; apply: ler_add => //.
  apply: le_trans (fro_mul_le _ _) _; rewrite -/f expr2; apply: ler_wpmul2r => //.
  by apply: le_trans (fro_mul_le _ _) _; rewrite fro_trmx'.
have bT : fro T' <= (1 + u) * (`|v delta| * f).
  have -> : T' = v delta *: X + (T' - v delta *: X) by rewrite addrC subrK.
  by apply: le_trans (ler_froD _ _) _; rewrite [X in _ <= X]mulrDl mul1r nd; exact: ler_add.
have -> : Y - (Am^T *m Am + (v delta)%:M) *m X = (Y - (S + T')) + ((S - Am^T *m Am *m X) + (T' - v delta *: X)).
  rewrite mulmxDl mul_scalar_mx; move: (Am^T *m Am *m X) (v delta *: X) => X1 X2.
  by apply/matrixP=> i j; rewrite !mxE; move: (Y i j) (S i j) (T' i j) (X1 i j) (X2 i j) => y1 y2 y3 y4 y5; rring.
apply: le_trans (ler_froD _ _) _.
apply: le_trans (ler_add (le_trans hy (ler_wpmul2l u0 (le_trans (ler_froD _ _) (ler_add bS2 bT))))
  (le_trans (ler_froD _ _) (ler_add bG ht))) _.
rewrite le_eqVlt; apply/orP; left; apply/eqP.
rewrite /gram_err.
have -> : g (m + n + 3) = (1 + u) * ((1 + g m.+1) * (1 + g n.+1)) - 1.
  rewrite /gam gram_idx.
  rewrite exprD expr1 (exprD (1 + u) m.+1); move: ((1 + u) ^+ m.+1) ((1 + u) ^+ n.+1) => y1 y2.
  by rring.
have -> : g 2 = (1 + u) ^+ 2 - 1 by [].
by move: (g m.+1) (g n.+1) (al) (`|v delta|) f {bW bS bG ht bS2 bT f0 nd gm0 gn0 a0} => y1 y2 y3 y4 y5; rring.
Qed.
End Gram.

Section Split.
Context {T : Type} {O : ops T}.
Variables (m n : nat) (A : arr T) (b c : option (seq T)) (delta tol : T) (R : arr T) (z0 : option (seq T)).

Lemma pcss1_split lim out : shaped m n A -> nr R = n -> PcSS1 A b c delta tol lim R false z0 = Ok out ->
  exists (pre : seq T -> res (seq T)) r0 rhs x0 R1, [/\ op_len n pre,
    mv (mtr A) (if b is Some b then b else vzeros m) = Ok r0,
    (if c is Some c then vsub r0 c else Ok r0) = Ok rhs, size x0 = n /\ (z0 = None -> x0 = vzeros n) &
    forall lim', PcSS1 A b c delta tol lim' R false z0 =
      let? (x, rs) := pcg (mv_gram A delta) rhs pre lim' tol x0 in
      let? Ax := mv A x in
      let? y := vsub (if b is Some b then b else vzeros m) Ax in
      Ok (SOut (Some x) y (EArr rs) R1)].
Proof.
move=> [_ a1 a2] eR; rewrite /PcSS1 a1 a2; intro K.
destruct (rbind_inv K) as ([R1 V] & ER & K'); clear K; rename K' into K.
destruct (rbind_inv K) as (r0 & E0 & K'); clear K; rename K' into K.
destruct (rbind_inv K) as (rhs & Erhs & K'); clear K; rename K' into K.
destruct (rbind_inv K) as (x0 & Ex0 & K'); clear K.
have eR1 : nr R1 = n.
  move: ER; case: ifP => _; first by move=> [<- _].
  by intro K; destruct (rbind_inv K) as ([R2 V2] & E2 & K2); move: K2 => [<- _]; rewrite (lowrank_len E2).
exists (pcss1_mv_pre R1 V), r0, rhs, x0, R1; split=> //.
- exact: pre_len.
- move: Ex0 ER; case: z0 => [z|]; last by move=> [<-]; rewrite size_nseq.
  case: ifP => _; last by move=> [<-]; rewrite size_nseq.
  by move=> h [E _]; split=> //; apply: mv_len h; rewrite -E.
by move=> lim'; rewrite ER /= E0 /= Erhs /= Ex0.
Qed.
End Split.

Section Mono.
Variable (R : rcfType).
Lemma pcg_gap_mono (u a h bn bn' xi : R) : 0 <= u -> bn <= bn' -> pcg_gap u a h bn xi <= pcg_gap u a h bn' xi.
Proof.
move=> u0 hb; apply: ler_wpmul2l; first by rewrite exprn_ge0 // (addr_ge0 ler01 u0).
apply: ler_add; first by rewrite /fl_fresh ler_add2l; apply: ler_wpmul2l; rewrite // ler_add2r.
apply: ler_wpmul2l; rewrite ?ler0n // /fl_rec ler_add2l; apply: ler_wpmul2l => //.
by rewrite !ler_add2r.
Qed.
End Mono.

Section Saddle.
Context {R : rcfType} {T : Type} {O : ops T}.
Variables (v : T -> R) (u : R) (m n : nat) (A : arr T) (b c : option (seq T)) (delta tol : T) (P : arr T) (z0 : option (seq T)) (xi : R).
Hypotheses (F : fl_arith O v u) (sA : shaped m n A) (eP : nr P = n) (t0 : 0 <= v tol).
Hypotheses (sb : if b is Some b then size b = m else True) (sc : if c is Some c then size c = n else True).
Local Notation g := (gam u).
Local Notation vV := (@vval R T O v).
Local Notation Am := (@mval R T O v m n A).
Local Notation al := (@fro R m n Am).
Local Notation bm := (@ovval R T O v m b).
Local Notation cm := (@ovval R T O v n c).
Local Notation Gm := (Am^T *m Am + (v delta)%:M).
Local Notation f := (Am^T *m bm - cm).
Local Notation run k := (PcSS1 A b c delta tol k P false z0).
Local Notation xo o := (@ovval R T O v n (o_x o)).
Add Field saddle_field : (rcf_field R).
Let u0 : 0 <= u. Proof using F. exact: fl_u0 F. Qed.

Lemma ovvalE k (x : option (seq T)) : @ovval R T O v k x = vV k (if x is Some x then x else vzeros k).
Proof using F.
case: x => [x|] //=; apply/matrixP=> i j; rewrite !mxE /ev nth_nseq ltn_ord; symmetry; exact: (fl_0 F).
Qed.

Let en : R := al * fro bm + fro cm.
Let ef : R := g m.+2 * en.
Let gap : R := pcg_gap u (gram_err u m n al `|v delta|) (al ^+ 2 + `|v delta|) ((1 + g m.+2) * en) xi.
Let gm : R := g n.+3.

Lemma fl_pcss1 lim out : run lim = Ok out ->
  (forall k o, (k <= absz lim)%N -> run k%:Z = Ok o -> fro (xo o) <= xi) ->
  exists x rs oi, [/\ [/\ o_x out = Some x, o_errs out = EArr rs, size x = n, size (o_y out) = m & (size rs <= absz lim)%N],
    fro (vV m (o_y out) - (bm - Am *m xo out)) <= g n.+2 * (fro bm + al * fro (xo out)),
    run 0 = Ok oi /\ (z0 = None -> xo oi = 0),
    forall k, (k < size rs)%N -> exists o, run k%:Z = Ok o /\
      `|v (nth o0 rs k) - fro (f - Gm *m xo o)| <= gm * (fro (f - Gm *m xo o) + ef + gap) + ef + gap &
    (size rs < absz lim)%N -> gm < 1 ->
      fro (f - Gm *m xo out) <= (1 + u) * v tol * ((1 + gm) / (1 - gm)) * (fro (f - Gm *m xo oi) + ef + gap) + ef + gap].
Proof using F sA eP t0 sb sc.
move=> E hxi.
have [pre [r0 [rhs [x0 [R1 [lp Er0 Erhs [ex0 x00] runE]]]]]] := pcss1_split sA eP E.
have [wA a1 a2] := sA.
have bE := ovvalE m b; have [b' b'E] : exists b', b' = (if b is Some b then b else vzeros m) by eexists.
rewrite -b'E in bE Er0 runE.
have eb : size b' = m by rewrite b'E; move: sb; case: (b) => [b1|] //; rewrite size_nseq.
have sAt : shaped n m (mtr A) by exact: sh_mtr.
have := fl_mv (fun _ => True) F sAt eb; rewrite Er0 (mval_tr _ sA) fro_trmx' -bE => -[er0 hr0].
have g1 : g m.+2 = u * (1 + g m.+1) + g m.+1 by rewrite /gam !exprS; move: ((1 + u) ^+ m) => x; rring.
have gm0 := gam_ge0 u0 m.+1.
have q0 : 0 <= al * fro bm by rewrite mulr_ge0 ?fro_ge0.
have qAb : fro (Am^T *m bm) <= al * fro bm by apply: le_trans (fro_mul_le _ _) _; rewrite fro_trmx'.
have c0 : 0 <= fro cm := fro_ge0 _.
have ug : u <= g m.+2 by rewrite g1 mulrDr mulr1 -addrA ler_addl addr_ge0 ?mulr_ge0.
have [erhs hrhs] : size rhs = n /\ fro (vV n rhs - f) <= ef.
  rewrite /ef /en; move: Erhs sc c0; case: (c) => [c1|] /=; last first.
    move=> [<-] _ _; split=> //; rewrite fro0 addr0 subr0; apply: le_trans hr0 _; apply: ler_wpmul2r => //.
    by rewrite g1 ler_addr mulr_ge0 // (addr_ge0 ler01 gm0).
  move=> Erhs ec c0; have [es hs] := fl_vsub F er0 ec Erhs; split=> //.
  have -> : vV n rhs - (Am^T *m bm - vV n c1) = (vV n rhs - (vV n r0 - vV n c1)) + (vV n r0 - Am^T *m bm).
    move: (vV n rhs) (vV n r0) (vV n c1) (Am^T *m bm) => X1 X2 X3 X4.
    by apply/matrixP=> i j; rewrite !mxE; move: (X1 i j) (X2 i j) (X3 i j) (X4 i j) => y1 y2 y3 y4; rring.
  have h2 : fro (vV n r0 - vV n c1) <= (1 + g m.+1) * (al * fro bm) + fro (vV n c1).
    apply: le_trans (ler_froB _ _) _; rewrite ler_add2r.
    have -> : vV n r0 = Am^T *m bm + (vV n r0 - Am^T *m bm) by rewrite addrC subrK.
    by apply: le_trans (ler_froD _ _) _; rewrite [X in _ <= X]mulrDl mul1r; exact: ler_add.
  apply: le_trans (ler_froD _ _) _; apply: le_trans (ler_add (le_trans hs (ler_wpmul2l u0 h2)) hr0) _.
  move: (al * fro bm) (fro (vV n c1)) (g m.+1) (g m.+2) q0 c0 g1 ug => y1 y2 y3 y4 q0 c0 g1 ug.
  rewrite -subr_ge0 (_ : _ - _ = (y4 - u) * y2); first by rewrite mulr_ge0 // subr_ge0.
  by rewrite g1; rring.
have nrhs : fro (vV n rhs) <= (1 + g m.+2) * en.
  have -> : vV n rhs = f + (vV n rhs - f) by rewrite addrC subrK.
  apply: le_trans (ler_froD _ _) _; rewrite [X in _ <= X]mulrDl mul1r; apply: ler_add; last exact: hrhs.
  by apply: le_trans (ler_froB _ _) _; rewrite ler_add2r.
have opH := gram_fl (delta := delta) F sA.
have lenH : op_len n (mv_gram A delta) by move=> x y ex Ey; have [] := opH _ _ ex Ey.
have outk k z zs : pcg (mv_gram A delta) rhs pre k tol x0 = Ok (z, zs) ->
    exists o, run k = Ok o /\ o_x o = Some z.
  move=> Ez; have ez := pcg_len lenH lp erhs ex0 Ez; rewrite runE Ez /=.
  rewrite {1}/mv a2 ez eqxx /= /vsub size_mkseq a1 eb eqxx /=.
  by eexists; split.
have hz k z zs : (k <= absz lim)%N -> pcg (mv_gram A delta) rhs pre k%:Z tol x0 = Ok (z, zs) -> fro (vV n z) <= xi.
  by move=> kl /outk[o [Eo oz]]; have := hxi _ _ kl Eo; rewrite oz.
have h0 : 0 <= al ^+ 2 + `|v delta| by rewrite addr_ge0 ?sqr_ge0.
have a0 : 0 <= gram_err u m n al `|v delta| by rewrite addr_ge0 // mulr_ge0 ?gam_ge0 ?sqr_ge0.
rewrite runE in E; destruct (rbind_inv E) as ([x rs] & Ep & E'); clear E; rename E' into E.
have [ex srs hrec hstop] := fl_pcg F opH lp a0 h0 (gram_h v m A delta) erhs ex0 t0 Ep hz.
destruct (rbind_inv E) as (Ax & EAx & E'); clear E; rename E' into E.
destruct (rbind_inv E) as (y & Ey & E'); clear E; move: E' => [<-] /=.
have gapm : pcg_gap u (gram_err u m n al `|v delta|) (al ^+ 2 + `|v delta|) (fro (vV n rhs)) xi <= gap.
  exact: pcg_gap_mono.
move: gapm hrec hstop; rewrite -/gm; move: (pcg_gap _ _ _ _ _) (gap) => gp' gp gapm hrec hstop.
have dist z : `|fro (vV n rhs - Gm *m z) - fro (f - Gm *m z)| <= ef.
  apply: le_trans hrhs; have -> : vV n rhs - f = (vV n rhs - Gm *m z) - (f - Gm *m z).
    by move: (vV n rhs) (Gm *m z) (f) => X1 X2 X3; rewrite opprB addrA subrK.
  exact: fro_lip.
have du z : fro (vV n rhs - Gm *m z) <= fro (f - Gm *m z) + ef.
  by have := dist z; rewrite ler_norml => /andP[_]; rewrite ler_subl_addl.
have dl z : fro (f - Gm *m z) <= fro (vV n rhs - Gm *m z) + ef.
  by have := dist z; rewrite ler_norml => /andP[+ _]; rewrite ler_subr_addl ler_subl_addr.
have gn0 : 0 <= gm := gam_ge0 u0 _.
have p0 : pcg (mv_gram A delta) rhs pre 0 tol x0 = Ok (x0, [::]).
  move: Ep; rewrite /pcg; case: ifP => // _; intro K.
  destruct (rbind_inv K) as (y1 & E1 & K'); clear K; rename K' into K; rewrite E1 /=.
  destruct (rbind_inv K) as (y2 & E2 & K'); clear K; rename K' into K; rewrite E2 /=.
  destruct (rbind_inv K) as (y3 & E3 & K'); clear K; rename K' into K; rewrite E3 /=.
  by destruct (rbind_inv K) as (y4 & E4 & K'); clear K; rewrite E4 /=.
have [oi [Eoi xoi]] := outk _ _ _ p0.
have [eAx hAx] : size Ax = m /\ fro (vV m Ax - Am *m vV n x) <= g n.+1 * (al * fro (vV n x)).
  by have := fl_mv (fun _ => True) F sA ex; rewrite EAx.
have [ey hy] := fl_vsub F eb eAx Ey; rewrite -bE in hy.
have bX : fro (Am *m vV n x) <= al * fro (vV n x) by exact: fro_mul_le.
have bb0 : 0 <= fro bm := fro_ge0 _; have bx0 : 0 <= al * fro (vV n x) by rewrite mulr_ge0 ?fro_ge0.
exists x, rs, oi; split=> //.
- have -> : vV m y - (bm - Am *m vV n x) = (vV m y - (bm - vV m Ax)) - (vV m Ax - Am *m vV n x).
    move: (vV m y) bm (vV m Ax) (Am *m vV n x) => X1 X2 X3 X4.
    by apply/matrixP=> i j; rewrite !mxE; move: (X1 i j) (X2 i j) (X3 i j) (X4 i j) => y1 y2 y3 y4; rring.
  have h3 : fro (bm - vV m Ax) <= fro bm + (1 + g n.+1) * (al * fro (vV n x)).
    apply: le_trans (ler_froB _ _) _; rewrite ler_add2l.
    have -> : vV m Ax = Am *m vV n x + (vV m Ax - Am *m vV n x) by rewrite addrC subrK.
    by apply: le_trans (ler_froD _ _) _; rewrite [X in _ <= X]mulrDl mul1r; exact: ler_add.
  apply: le_trans (ler_froB _ _) _; apply: le_trans (ler_add (le_trans hy (ler_wpmul2l u0 h3)) hAx) _.
  have -> : g n.+2 = u * (1 + g n.+1) + g n.+1 by rewrite /gam !exprS; move: ((1 + u) ^+ n) => x1; rring.
  have gn1 := gam_ge0 u0 n.+1.
  move: (fro bm) (al * _) (g n.+1) bb0 bx0 gn1 => y1 y2 y3 r1 r2 r3.
  rewrite -subr_ge0 (_ : _ - _ = (u * y3 + y3) * y1); last by rring.
  by rewrite mulr_ge0 // addr_ge0 ?mulr_ge0.
- by split=> // /x00 e0; rewrite xoi e0 /=; have := ovvalE n None => /= <-.
- move=> k ks; have [z [Ez hk]] := hrec k ks; have [o [Eo oz]] := outk _ _ _ Ez; exists o; split=> //.
  rewrite oz /=; have d1 := dist (vV n z); have d2 := du (vV n z).
  move: (fro (f - _)) (fro (_ - _)) d1 d2 hk => y1 y2 d1 d2 hk.
  rewrite -(subrK y2 (v _)) -addrA; apply: le_trans (ler_norm_add _ _) _.
  apply: le_trans (ler_add hk d1) _; rewrite -[X in X <= _]addrA -[X in _ <= X]addrA; apply: ler_add.
    by apply: ler_wpmul2l => //; exact: ler_add.
  by rewrite addrC ler_add2l.
move=> s1 g1'; have h4 := hstop s1 g1'; apply: le_trans (dl _) _; rewrite xoi /= -addrA [ef + gp]addrC addrA ler_add2r.
apply: le_trans h4 _; apply: ler_add => //; apply: ler_wpmul2l; last by apply: ler_add => //; exact: du.
rewrite !mulr_ge0 ?(addr_ge0 ler01) // invr_ge0 subr_ge0 ltW //.
Qed.
End Saddle.

Lemma gap_zero (R : rcfType) (h bn xi dl : R) m n :
  pcg_gap 0 (gram_err 0 m n h dl) h bn xi = 0 /\ pcg_gap 0 0 h bn xi = 0.
Proof.
have g0 i : gam (0 : R) i = 0 by rewrite /gam addr0 expr1n subrr.
have e0 : gram_err 0 m n h dl = 0 by rewrite /gram_err !g0 !mul0r addr0.
by rewrite e0 /pcg_gap /fl_fresh /fl_rec !(mul0r, mulr0, addr0).
Qed.

(** Some bound on the iterates always exists; a run in an arithmetic that rounds everything. *)
Section Wit.
Variable (R : rcfType).

Lemma iter_bound {T : Type} {O : ops T} (v : T -> R) n (f : nat -> res (@sout T)) N :
  exists xi, forall k o, (k <= N)%N -> f k = Ok o -> fro (@ovval R T O v n (o_x o)) <= xi.
Proof.
elim: N => [|N [xi IH]].
  case E: (f 0%N) => [e|o]; first by exists 0 => k o; rewrite leqn0 => /eqP ->; rewrite E.
  by exists (fro (@ovval R T O v n (o_x o))) => k o'; rewrite leqn0 => /eqP ->; rewrite E => -[<-].
case E: (f N.+1) => [e|o].
  by exists xi => k o; rewrite leq_eqVlt => /orP[/eqP ->|]; [rewrite E|exact: IH].
exists (Num.max xi (fro (@ovval R T O v n (o_x o)))) => k o'; rewrite le_maxr leq_eqVlt => /orP[/eqP ->|].
  by rewrite E => -[<-]; rewrite lexx orbT.
by move=> kN Ek; rewrite (IH _ _ kN Ek).
Qed.

Section One.
Variable (u : R).
Hypothesis u01 : 0 <= u < 1.
Local Notation O := (bent_ops u).
Local Notation one := (Arr 1 1 [:: [:: 1 : R]]).
Local Notation w := ((1 + u) * (1 + u)).
Local Notation h := ((1 + u) * (w * w)).
Add Field one_field : (rcf_field R).

Lemma rbOk X Y (x : X) (f : X -> res Y) : rbind (Ok x) f = f x.
Proof. by []. Qed.
Lemma mv1 x : @mv R O one [:: x] = Ok [:: w * x].
Proof. rewrite /mv /= /mkseq /= /osum /=; congr (Ok [:: _]); rewrite /el /= mul1r; rring. Qed.
Lemma mtr1 : @mtr R O one = one.
Proof. by []. Qed.
Lemma gram1 x : @mv_gram R O one 0 [:: x] = Ok [:: h * x].
Proof.
rewrite /mv_gram mtr1 mv1 rbOk mv1 rbOk /vadd /= /mkseq /=; congr (Ok [:: _]); rring.
Qed.
Lemma pre1 x : @pcss1_mv_pre R O one None [:: x] = Ok [:: w * (w * x)].
Proof. by rewrite /pcss1_mv_pre mtr1 mv1 rbOk mv1 rbOk. Qed.
Lemma dot1 x y : @vdot R O [:: x] [:: y] = Ok (w * (x * y)).
Proof. by rewrite /vdot /= /osum /=; congr Ok; rring. Qed.
Lemma sdiv1 x y : y != 0 -> exists z, @sdiv R O x y = Ok z.
Proof. by rewrite /sdiv /= => /negPf ->; eexists. Qed.

Lemma sub1 x y : @vsub R O [:: x] [:: y] = Ok [:: (1 - u) * (x - y)].
Proof. by []. Qed.
Lemma add1 x y z : @vadd R O [:: x] (@vscale R O z [:: y]) = Ok [:: (1 + u) * (x + (1 + u) * (z * y))].
Proof. by []. Qed.
Lemma norm1 x : @vnorm R O [:: x] = (1 - u) * Num.sqrt (w * x ^+ 2).
Proof. by rewrite /vnorm /vsq /= /osum /= /osq /ev /= add0r mulrA -expr2. Qed.

Lemma fresh1 y x : (let? Hx := @mv_gram R O one 0 [:: x] in @vsub R O [:: y] Hx) = Ok [:: (1 - u) * (y - h * x)].
Proof. by rewrite gram1 rbOk sub1. Qed.

Lemma pcg1 : exists x e,
  @pcg R O (@mv_gram R O one 0) [:: w] (@pcss1_mv_pre R O one None) 1 0 [:: 0] = Ok ([:: x], [:: e]).
Proof using u01.
have /andP[u0 u1] := u01.
have p1 : 0 < 1 + u by rewrite ltr_paddr ?ltr01.
have w0 : 0 < w by rewrite mulr_gt0.
have h0 : 0 < h by rewrite !mulr_gt0.
have d0 : 0 < 1 - u by rewrite subr_gt0.
rewrite /pcg; have -> : (1 < 0 :> int) = false by [].
rewrite gram1 rbOk sub1 rbOk pre1 rbOk dot1 rbOk mulr0 subr0.
have r0 : 0 < (1 - u) * w by rewrite mulr_gt0.
move: ((1 - u) * w) r0 => r r0.
rewrite norm1; have e0 : 0 < (1 - u) * Num.sqrt (w * r ^+ 2) by rewrite mulr_gt0 // sqrtr_gt0 mulr_gt0 // exprn_gt0.
move: ((1 - u) * Num.sqrt _) e0 => e e0.
have -> : absz 1 = 1%N by [].
cbn [pcg_loop].
have -> : @olt R O (@omul R O 0 e) e = true by rewrite /= mul0r mulr0.
rewrite gram1 rbOk dot1 rbOk.
have [a ->] : exists a, @sdiv R O (w * (r * (w * (w * r)))) (w * (w * (w * r) * (h * (w * (w * r))))) = Ok a.
  by apply: sdiv1; rewrite gt_eqF // !mulr_gt0.
rewrite rbOk add1 rbOk mod0n eqxx fresh1 rbOk pre1 rbOk dot1 rbOk.
have [b ->] : exists b, @sdiv R O (w * ((1 - u) * (w - h * ((1 + u) * (0 + (1 + u) * (a * (w * (w * r)))))) *
  (w * (w * ((1 - u) * (w - h * ((1 + u) * (0 + (1 + u) * (a * (w * (w * r))))))))))) (w * (r * (w * (w * r)))) = Ok b.
  by apply: sdiv1; rewrite gt_eqF // !mulr_gt0.
by rewrite rbOk add1 rbOk; do 2 eexists.
Qed.

Lemma bent_run :
  exists out, @PcSS1 R O one (Some [:: 1]) None 0 0 1 one false None = Ok out /\ exists e, o_errs out = EArr [:: e].
Proof using u01.
have [x [e E]] := pcg1.
rewrite /PcSS1 (_ : (nc one == nc one)%bool = true) // rbOk mtr1 mv1 rbOk rbOk rbOk mulr1.
rewrite (_ : @vzeros R O (nc one) = [:: 0]) // E rbOk mv1 rbOk sub1 rbOk.
by eexists; split; [reflexivity|exists e].
Qed.
End One.
End Wit.
