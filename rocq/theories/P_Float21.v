(** Proofs of C109: the Cholesky factorisation in rounded arithmetic succeeds on well-conditioned matrices. *)
From mathcomp Require Import all_ssreflect all_algebra.
From mathcomp Require Import zify.
From Verif Require Import Base Arr Lapack Exact MxLib RingTac LapackSpec Rng Aware Shape Inexact Float FloatInterp FloatEvd FloatNys.
From Verif Require Import P_Shape P_Inexact P_Inexact2 P_Float P_Float2 P_Float3 P_Float5 P_Float14 P_Float17.
Set Implicit Arguments.
Unset Strict Implicit.
Unset Printing Implicit Defensive.
Import Order.TTheory GRing.Theory Num.Theory.
Local Open Scope ring_scope.

Section Step.
Variables (R : rcfType) (i : nat) (M1 L : 'M[R]_i) (m l : 'rV[R]_i) (d c kap : R).
Add Field cstep_field : (rcf_field R).
Hypotheses (c0 : 0 <= c) (k0 : 0 <= kap) (uL : L \in unitmx).
Hypothesis co : forall y : 'cV[R]_i, kap * (fro2 y + 1) <= \tr (y^T *m M1 *m y) + 2%:R * fip m^T y + d.
Hypothesis h1 : fro (M1 - L *m L^T) <= c * fro2 L.
Hypothesis h2 : fro (m^T - L *m l^T) <= c * (fro L * fro l).
Hypothesis hk : 2%:R * c * fro2 L <= kap.

Lemma chol_step : (1 - c) * fro2 l <= d /\ (d <= (1 + c) * fro2 l -> kap <= 2%:R * c * fro2 l).
Proof using All.
pose y := - (invmx L^T *m l^T); have Ly : L^T *m y = - l^T by rewrite mulmxN mulKVmx // unitmx_tr.
have := co y; set Y := fro2 y; have Y0 : 0 <= Y by exact: fro2_ge0.
have e1 : \tr (y^T *m M1 *m y) <= c * fro2 L * Y + fro2 l.
  have -> : M1 = (M1 - L *m L^T) + L *m L^T by rewrite subrK.
  rewrite mulmxDr mulmxDl mxtraceD; apply: ler_add.
    rewrite -mulmxA -/(fip y ((M1 - L *m L^T) *m y)); apply: le_trans (fip_fro _ _) _.
    apply: le_trans (ler_wpmul2l (fro_ge0 _) (fro_mul_le _ _)) _; rewrite /Y -(sqr_fro y).
    have -> : c * fro2 L * fro y ^+ 2 = fro y * (c * fro2 L * fro y) by rring.
    by apply: ler_wpmul2l; rewrite ?fro_ge0 //; apply: ler_wpmul2r; rewrite ?fro_ge0.
  have -> : y^T *m (L *m L^T) *m y = (L^T *m y)^T *m (L^T *m y) by rewrite trmx_mul trmxK !mulmxA.
  by rewrite -fro2_tr Ly -[- l^T]scaleN1r fro2Z sqrrN expr1n mul1r fro2_trmx.
have e2 : fip m^T y <= c * (fro L * fro l) * fro y - fro2 l.
  have -> : m^T = (m^T - L *m l^T) + L *m l^T by rewrite subrK.
  rewrite /fip linearD /= mulmxDl mxtraceD; apply: ler_add.
    by apply: le_trans (fip_fro _ _) _; apply: ler_wpmul2r; rewrite ?fro_ge0.
  by rewrite trmx_mul trmxK -mulmxA Ly mulmxN raddfN /= -fro2_tr'.
have am : 2%:R * (fro L * fro l * fro y) <= fro2 L * Y + fro2 l.
  rewrite /Y -!sqr_fro -subr_ge0.
  have -> : fro L ^+ 2 * fro y ^+ 2 + fro l ^+ 2 - 2%:R * (fro L * fro l * fro y) = (fro L * fro y - fro l) ^+ 2.
    by rewrite -[2%N]/(1 + 1)%N natrD; move: (fro L) (fro l) (fro y) => p q r; rring.
  exact: sqr_ge0.
have := fro2_ge0 l; move: am e1 e2 hk; rewrite -[2%N]/(1 + 1)%N natrD.
move: (\tr _) (fip _ _) (fro L * fro l) (fro y) (fro2 l) (fro2 L) => t f a b la D am e1 e2 hD la0 h.
have h' : kap * (Y + 1) <= (1 + 1) * c * D * Y + c * la + (d - la).
  apply: le_trans h _; apply: le_trans (ler_add (ler_add e1 (ler_wpmul2l _ e2)) (lexx d)) _; first by rewrite addr_ge0 ?ler01.
  have := ler_wpmul2l c0 am => q; rewrite -subr_ge0 in q; rewrite -subr_ge0.
  by apply: le_trans q _; apply: eq_lew; rring.
have p1 : 0 <= (kap - (1 + 1) * c * D) * Y by rewrite mulr_ge0 // subr_ge0.
split.
  rewrite -subr_ge0; rewrite -subr_ge0 in h'; apply: le_trans (addr_ge0 (addr_ge0 h' p1) k0) _.
  by apply: eq_lew; rring.
move=> hd; rewrite -subr_ge0; rewrite -subr_ge0 in h'; rewrite -subr_ge0 in hd.
by apply: le_trans (addr_ge0 (addr_ge0 h' p1) hd) _; apply: eq_lew; rring.
Qed.
End Step.

Section Lead.
Context {R : rcfType} {T : Type} {O : ops T}.
Variables (v : T -> R) (n : nat) (A : arr T) (kap : R).
Hypothesis co : forall w : 'cV[R]_n, kap * fro2 w <= \tr (w^T *m lowval v n A *m w).
Local Notation low i := (lowval v i A).

Lemma low_coer i (w : 'cV[R]_i) : (i <= n)%N -> kap * fro2 w <= \tr (w^T *m low i *m w).
Proof using co.
move=> h; pose S : 'M[R]_(n, i) := \matrix_(a, b) ((a : nat) == b)%:R.
have SE p (B : 'M[R]_(n, p)) (b : 'I_i) j : (S^T *m B) b j = B (widen_ord h b) j.
  rewrite mxE (bigD1 (widen_ord h b)) //= !mxE eqxx mul1r big1 ?addr0 // => a ne; rewrite !mxE.
  case: eqP => [e|]; last by rewrite mul0r.
  by case/eqP: ne; apply: val_inj.
have oS : S^T *m S = 1%:M by apply/matrixP=> a b; rewrite SE !mxE.
have -> : low i = S^T *m low n *m S.
  apply/matrixP=> a b; rewrite -mulmxA SE -[(_ *m S)]trmxK [RHS]mxE trmx_mul.
  by rewrite SE !mxE.
have := co (S *m w); rewrite fro2_ortho // trmx_mul => /le_trans; apply.
by rewrite !mulmxA.
Qed.

Lemma low_diag i : (i < n)%N -> kap <= v (el A i i).
Proof using co.
move=> h; have := co (delta_mx (Ordinal h) 0); rewrite fro2_tr trmx_delta mul_delta_mx.
have -> : delta_mx 0 0 = 1%:M :> 'M[R]_1 by apply/matrixP=> a b; rewrite !ord1 !mxE.
rewrite mxtrace1 mulr1 => /le_trans; apply.
rewrite -rowE -colE /mxtrace big_ord1 !mxE maxnn ssrnat.minnn lexx //.
Qed.

Lemma low_tr i : 0 <= kap -> (i <= n)%N -> \tr (low i) <= \tr (low n).
Proof using co.
move=> k0 h; have E j : \tr (low j) = \sum_(a < j) v (el A a a).
  by apply: eq_bigr => a _; rewrite mxE maxnn ssrnat.minnn.
rewrite !E (big_ord_widen n (fun a => v (el A a a)) h) big_mkcond; apply: ler_sum => a _.
by case: ifP => // _; apply: le_trans k0 _; exact: low_diag.
Qed.
End Lead.

Section CholOk.
Context {R : rcfType} {T : Type} {O : ops T}.
Variables (v : T -> R) (u : R) (n : nat) (A : arr T).
Hypothesis F : fl_arith O v u.
Add Field cholok_field : (rcf_field R).
Local Notation c := (fl_chol u n).
Local Notation low i := (lowval v i A).

Definition lead_L i (rows : seq (seq T)) : 'M[R]_i := \matrix_(a, b) if (b <= a)%N then v (ev (nth [::] rows a) b) else 0.

Lemma lead_ok i rows : flchol_inv v u A n i rows -> let Lm := lead_L i rows in
  [/\ fro (low i - Lm *m Lm^T) <= c * fro2 Lm, (1 - c) * fro2 Lm <= \tr (low i) & Lm \in unitmx].
Proof using F.
move=> [sz dg pr] Lm.
have LmE a b : Lm a b = if (b <= a)%N then v (@ev T O (nth [::] rows a) b) else 0 by rewrite mxE.
have lE (a b : 'I_i) (g : R -> R -> R) : (b <= a)%N -> (forall x, g x 0 = 0) ->
    \sum_l g (Lm a l) (Lm b l) = \sum_(l < b.+1) g (v (@ev T O (nth [::] rows a) l)) (v (@ev T O (nth [::] rows b) l)).
  move=> ji g0.
  rewrite big_ord_recr /= -(@sum_upto R i b (fun l => g (v (@ev T O (nth [::] rows a) l)) (v (@ev T O (nth [::] rows b) l)))) //.
  by apply: eq_bigr => l _; rewrite !LmE; case: (leqP l b) => lj; rewrite ?(leq_trans lj) ?g0.
have c0 : 0 <= c by exact: (fl_chol_ge0 F).
have hij (a b : 'I_i) : (b <= a)%N -> `|v (@el T O A a b) - (Lm *m Lm^T) a b| <= c * (absm Lm *m (absm Lm)^T) a b.
  move=> ji; have := pr a b ji (ltn_ord a).
  rewrite -(@lE a b *%R) //; last by move=> x; rewrite mulr0.
  rewrite -(@lE a b (fun x y => `|x| * `|y|)) //; last by move=> x; rewrite normr0 mulr0.
  have -> : (Lm *m Lm^T) a b = \sum_l Lm a l * Lm b l by rewrite mxE; apply: eq_bigr => l _; rewrite [Lm^T _ _]mxE.
  have -> : (absm Lm *m (absm Lm)^T) a b = \sum_l `|Lm a l| * `|Lm b l|.
    by rewrite mxE; apply: eq_bigr => l _; rewrite [(absm Lm)^T _ _]mxE ![absm Lm _ _]mxE.
  by [].
have sym p (B : 'M[R]_(i, p)) (a b : 'I_i) : (B *m B^T) a b = (B *m B^T) b a.
  by rewrite !mxE; apply: eq_bigr => l _; rewrite !mxE mulrC.
have hM (a b : 'I_i) : `|low i a b - (Lm *m Lm^T) a b| <= c * (absm Lm *m (absm Lm)^T) a b.
  rewrite [low i a b]mxE; case: (leqP b a) => ij; first exact: hij.
  by rewrite sym [X in _ <= _ * X]sym hij // ltnW.
have f2 : fro (absm Lm *m (absm Lm)^T) <= fro2 Lm.
  by apply: le_trans (fro_mul_le _ _) _; rewrite [fro (absm Lm)^T]/fro fro2_trmx -/(fro _) fro_abs -expr2 sqr_fro.
split.
- apply: le_trans (_ : c * fro (absm Lm *m (absm Lm)^T) <= _); last by rewrite ler_wpmul2l.
  apply: fro_dom => // a b.
  have -> : (low i - Lm *m Lm^T) a b = low i a b - (Lm *m Lm^T) a b by rewrite mxE; congr (_ + _); rewrite mxE.
  apply: le_trans (hM a b) _; rewrite ler_wpmul2l //; exact: ler_norm.
- have fE : fro2 Lm = \sum_a (Lm *m Lm^T) a a.
    by apply: eq_bigr => a _; rewrite mxE; apply: eq_bigr => l _; rewrite [Lm^T _ _]mxE expr2.
  have fA : fro2 Lm = \sum_a (absm Lm *m (absm Lm)^T) a a.
    apply: eq_bigr => a _; rewrite mxE; apply: eq_bigr => l _.
    by rewrite [(absm Lm)^T _ _]mxE ![absm Lm _ _]mxE -expr2 real_normK ?num_real.
  rewrite mulrBl mul1r {1}fE fA mulr_sumr -sumrB; apply: ler_sum => a _.
  by have := hM a a; rewrite ler_norml => /andP[+ _]; rewrite ler_subr_addr addrC.
rewrite unitmxE det_trig.
  rewrite unitfE; apply/prodf_neq0 => a _; rewrite LmE leqnn gt_eqF // dg //.
by apply/is_trig_mxP => a b ab; rewrite LmE leqNgt ab.
Qed.

Variable kap : R.
Hypotheses (k0 : 0 <= kap) (c1 : c < 1) (co : forall w : 'cV[R]_n, kap * fro2 w <= \tr (w^T *m low n *m w)).
Hypothesis hk : 2%:R * c * \tr (low n) < (1 - c) * kap.

Lemma chol_rows_ok i : (i <= n)%N -> exists rows, chol_rows A i = Some rows.
Proof using All.
have c0 : 0 <= c by exact: (fl_chol_ge0 F).
have c1' : 0 < 1 - c by rewrite subr_gt0.
have two0 : 0 <= 2%:R * c by rewrite mulr_ge0 ?ler0n.
elim: i => [|i IH] hi; first by exists [::].
have [rs E] := IH (ltnW hi); rewrite /= E; set row := fsub _ _ _; set piv := osub _ _.
have inv := fl_chol_rows F (ltnW hi) E; have [h1 hD uL] := lead_ok inv.
case: ifP => piv0; first by eexists.
exfalso; move: piv0 => /negbT; rewrite (fl_lt F) (fl_0 F) -leNgt => piv0.
pose L := lead_L i rs; pose l : 'rV[R]_i := \row_b v (@ev T O row b).
pose m : 'rV[R]_i := \row_b v (@el T O A i b); pose d := v (@el T O A i i).
have s0 : 0 <= \sum_(b < i) v (@ev T O row b) ^+ 2 by apply: sumr_ge0 => b _; exact: sqr_ge0.
have la : fro2 l = \sum_(b < i) v (@ev T O row b) ^+ 2.
  by rewrite /fro2 big_ord1; apply: eq_bigr => b _; rewrite mxE.
have hd : d <= (1 + c) * fro2 l.
  have sE : v (osum i (fun b => osq (@ev T O row b))) <= (1 + c) * fro2 l.
    have h (b : 'I_i) : rel u 1 (v (osq (@ev T O row b))) (v (@ev T O row b) ^+ 2) by rewrite expr2; exact: rel_mul1.
    have := fl_osum_rel F (f := fun b => osq (@ev T O row b)) h; rewrite addn1 la => /(le_trans (ler_norm _)).
    rewrite ler_subl_addr => /le_trans; apply; rewrite mulrDl mul1r addrC ler_add2l.
    rewrite (eq_bigr (fun b : 'I_i => v (@ev T O row b) ^+ 2)); last by move=> b _; rewrite ger0_norm ?sqr_ge0.
    apply: ler_wpmul2r => //; apply: le_trans (_ : gam u n.+1 <= _); first by rewrite gam_le // ?(fl_u0 F) // ltnW.
    by rewrite ler_addl subr_ge0 exprn_ege1 // (z_ge1 F).
  apply: le_trans sE; rewrite leNgt; apply/negP => dp; move: piv0; rewrite leNgt => /negP; apply.
  have dp2 : 0 < v (@el T O A i i) - v (@osum T O i (fun b => @osq T O (@ev T O row b))) by rewrite subr_gt0.
  have := fl_sub F (@el T O A i i) (@osum T O i (fun b => @osq T O (@ev T O row b))); rewrite [X in _ <= _ * X](gtr0_norm dp2).
  exact: (near_pos F dp2).
have h2 : fro (m^T - L *m l^T) <= c * (fro L * fro l).
  have dg a : (a < i)%N -> v (@ev T O (nth [::] rs a) a) != 0 by move=> ai; rewrite gt_eqF ?(fci_diag inv).
  apply: le_trans (_ : c * fro (absm L *m (absm l)^T) <= _); last first.
    apply: ler_wpmul2l => //; apply: le_trans (fro_mul_le _ _) _.
    by rewrite [fro (absm l)^T]/fro fro2_trmx -/(fro _) !fro_abs.
  apply: fro_dom => // b j; rewrite {j}(ord1 j).
  have := @fl_fsub R T O v u F i (fun a b => @ev T O (nth [::] rs a) b) (fun j => @el T O A i j) b dg; rewrite -/row /= => h.
  have -> : (m^T - L *m l^T) b 0 = v (@el T O A i b) - \sum_(j < i) (if (j <= b)%N then v (@ev T O (nth [::] rs b) j) else 0) * v (@ev T O row j).
    rewrite mxE [m^T b 0]mxE [m 0 b]mxE; congr (_ + _); rewrite mxE; congr (- _); rewrite mxE.
    by apply: eq_bigr => j _; rewrite [L b j]mxE [l^T j 0]mxE [l 0 j]mxE.
  apply: le_trans h _; apply: ler_pmul => //.
  - by rewrite addr_ge0 ?gam_ge0 ?(fl_u0 F) // subr_ge0 exprn_ege1 // (z_ge1 F).
  - by apply: sumr_ge0 => j _; rewrite mulr_ge0.
  - by apply: (fl_tri_chol F); exact: ltnW.
  apply: le_trans (ler_norm _); rewrite mxE le_eqVlt; apply/orP; left; apply/eqP; apply: eq_bigr => j _.
  by rewrite [(absm l)^T j 0]mxE [absm l 0 j]mxE [absm L b j]mxE [L b j]mxE [l 0 j]mxE.
have co' (y : 'cV[R]_i) : kap * (fro2 y + 1) <= \tr (y^T *m low i *m y) + 2%:R * fip m^T y + d.
  have h : (i + 1 <= n)%N by rewrite addn1.
  have := low_coer co (col_mx y (1%:M : 'M[R]_1)) h; rewrite fro2_col_mx.
  have -> : fro2 (1%:M : 'M[R]_1) = 1 by rewrite fro2_tr trmx1 mulmx1 mxtrace1.
  move/le_trans; apply.
  have -> : low (i + 1) = block_mx (low i) m^T m (d%:M : 'M[R]_1).
    apply/matrixP=> a b; rewrite !mxE; case: splitP => a' ea; rewrite !mxE; case: splitP => b' eb; rewrite !mxE ea eb.
    - by [].
    - rewrite (ord1 b') addn0; have la' := ltnW (ltn_ord a').
      by rewrite (maxn_idPr la') (minn_idPl la').
    - rewrite (ord1 a') addn0; have lb := ltnW (ltn_ord b').
      by rewrite (maxn_idPl lb) (minn_idPr lb).
    by rewrite (ord1 a') (ord1 b') addn0 maxnn ssrnat.minnn mulr1n.
  rewrite tr_col_mx mul_row_block mul_row_col trmx1 mulmx1 !mul1mx mulmxDl !mxtraceD mxtrace_scalar mulr1n.
  apply: eq_lew; rewrite /fip trmxK.
  have -> : \tr (y^T *m m^T) = \tr (m *m y) by rewrite -mxtrace_tr trmx_mul !trmxK.
  by rewrite -[2%N]/(1 + 1)%N natrD; move: (\tr _) (\tr (m *m y)) => p q; rring.
have trle := low_tr co k0.
have hkD : 2%:R * c * fro2 L <= kap.
  rewrite -(ler_pmul2l c1'); apply: le_trans (ltW hk).
  have -> : (1 - c) * (2%:R * c * fro2 L) = 2%:R * c * ((1 - c) * fro2 L) by rewrite mulrCA.
  by apply: ler_wpmul2l => //; apply: le_trans hD (trle _ (ltnW hi)).
have [q1 q2] := chol_step c0 k0 uL co' h1 h2 hkD.
have dT : d <= \tr (low n).
  apply: le_trans (trle _ hi); rewrite /mxtrace big_ord_recr /= mxE maxnn ssrnat.minnn ler_addr.
  apply: sumr_ge0 => a _; rewrite mxE maxnn ssrnat.minnn; apply: le_trans k0 _; apply: (low_diag co).
  exact: ltn_trans (ltn_ord a) hi.
move: hk; rewrite ltNge => /negP; apply.
apply: le_trans (_ : (1 - c) * (2%:R * c * fro2 l) <= _); first by rewrite ler_pmul2l // q2.
have -> : (1 - c) * (2%:R * c * fro2 l) = 2%:R * c * ((1 - c) * fro2 l) by rewrite mulrCA.
by apply: ler_wpmul2l => //; apply: le_trans q1 dT.
Qed.

Lemma fl_cholesky_ok : shaped n n A -> exists2 Lo, cholesky A = Ok Lo & chol_ok v u n A Lo.
Proof using All.
move=> sA; have [_ a1 a2] := sA; have [rows E] := chol_rows_ok (leqnn n).
have := fl_cholesky F (X := fun e => e = LinAlgError) erefl sA.
by rewrite /cholesky a1 a2 eqxx E /= => h; eexists; first by [].
Qed.
End CholOk.
