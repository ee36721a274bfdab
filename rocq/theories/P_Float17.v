(** Cholesky factorisation in rounded arithmetic. *)
From mathcomp Require Import all_ssreflect all_algebra.
From mathcomp Require Import zify.
From Verif Require Import Base Arr Lapack Exact MxLib RingTac LapackSpec Rng Aware Shape Inexact Float FloatInterp FloatEvd FloatNys
  P_Shape P_Inexact P_Inexact2 P_Float P_Float2 P_Float3 P_Float5 P_Float14.
Set Implicit Arguments.
Unset Strict Implicit.
Unset Printing Implicit Defensive.
Import Order.TTheory GRing.Theory Num.Theory.
Local Open Scope ring_scope.

Section Chol.
Context {R : rcfType} {T : Type} {O : ops T}.
Variables (v : T -> R) (u : R).
Hypothesis F : fl_arith O v u.
Add Field chol_field : (rcf_field R).
Let u0 := fl_u0 F.
Let u1 := fl_u1 F.
Local Notation z := ((1 - u)^-1).

Lemma z_ge1 : 1 <= z.
Proof using F.
have p : 0 < 1 - u by rewrite subr_gt0.
by rewrite invr_ge1 ?unitfE ?gt_eqF ?inE ?p // ler_subl_addr ler_addl.
Qed.
Lemma fl_chol_ge0 n : 0 <= fl_chol u n.
Proof using F. by rewrite addr_ge0 ?gam_ge0 // subr_ge0 exprn_ege1 // z_ge1. Qed.
Lemma fl_tri_chol p n : (p <= n)%N -> fl_tri u p <= fl_chol u n.
Proof using F. by move=> pn; rewrite ler_add ?gam_le // ler_add2r ler_weexpn2l // z_ge1. Qed.

(** A pivot and its square root. *)
Lemma fl_piv (a : T) (s : T) : 0 < v (osub a s) ->
  let w := v (osqrt (osub a s)) in
  0 < w /\ is_true (`|v a - v s - w ^+ 2| <= (z ^+ 3 - 1) * w ^+ 2).
Proof using F.
move=> p0 w; have hs := fl_sqrt F (ltW p0); have s0 : 0 < Num.sqrt (v (osub a s)) by rewrite sqrtr_gt0.
have w0 : 0 < w by exact: (near_pos F s0 hs).
split=> //; have h1 := fl_inv F (fl_sub F a s).
have h2 : `|Num.sqrt (v (osub a s)) - w| <= (z - 1) * w.
  by rewrite -{2}(ger0_norm (ltW w0)); apply: (fl_inv F); rewrite (ger0_norm (ltW s0)).
move: h2.
move: h1 s0 (sqr_sqrtr (ltW p0)); rewrite [`|v (osub a s)|]ger0_norm ?(ltW p0) //.
move: (v a - v s) w w0 (v (osub a s)) {p0 hs} (Num.sqrt _) => x w w0 p q h1 q0 qE h2; have z1 := z_ge1.
have d0 : 0 <= z - 1 by rewrite subr_ge0.
have qz : q <= z * w.
  have := le_trans (ler_norm _) h2; rewrite ler_subl_addr => /le_trans; apply.
  by apply: eq_lew; move: z => y; rring.
have h3 : `|p - w ^+ 2| <= (z ^+ 2 - 1) * w ^+ 2.
  rewrite -qE subr_sqr normrM [`|q + w|]ger0_norm ?addr_ge0 ?(ltW q0) ?(ltW w0) //.
  apply: (@le_trans _ _ ((z - 1) * w * (z * w + w))).
    by apply: ler_pmul => //; [rewrite addr_ge0 ?(ltW q0) ?(ltW w0)|rewrite ler_add2r].
  by apply: eq_lew; move: z => y; rring.
have pz : p <= z ^+ 2 * w ^+ 2 by rewrite -qE -exprMn ler_expn2r ?nnegrE ?mulr_ge0 ?(le_trans ler01 z1) ?(ltW q0) ?(ltW w0).
rewrite -(subrK p x) -addrA; apply: le_trans (ler_norm_add _ _) _.
apply: le_trans (ler_add (le_trans h1 (ler_wpmul2l d0 pz)) h3) _.
by apply: eq_lew; move: z => y; rring.
Qed.

Record flchol_inv (A : arr T) (n p : nat) (rows : seq (seq T)) : Prop := FlCholInv {
  fci_size : size rows = p;
  fci_diag : forall a, (a < p)%N -> 0 < v (ev (nth [::] rows a) a);
  fci_prod : forall a b, (b <= a)%N -> (a < p)%N ->
    `|v (el A a b) - \sum_(l < b.+1) v (ev (nth [::] rows a) l) * v (ev (nth [::] rows b) l)| <=
    fl_chol u n * \sum_(l < b.+1) `|v (ev (nth [::] rows a) l)| * `|v (ev (nth [::] rows b) l)| }.

Lemma fl_chol_rows A n p rows : (p <= n)%N -> chol_rows A p = Some rows -> flchol_inv A n p rows.
Proof using F.
elim: p rows => [|i IH] rows pn /=; first by case=> <-; split.
case E: (chol_rows A i) => [rs|] //; have {}IH := IH _ (ltnW pn) E.
set row := fsub _ _ _; set piv := osub _ _.
case: ifP => // piv0 [<-].
have srow : size row = i by rewrite size_fsub.
have old a : (a < i)%N -> nth [::] (rcons rs (rcons row (osqrt piv))) a = nth [::] rs a.
  by move=> ai; rewrite nth_rcons (fci_size IH) ai.
have new : nth [::] (rcons rs (rcons row (osqrt piv))) i = rcons row (osqrt piv).
  by rewrite nth_rcons (fci_size IH) ltnn eqxx.
have evl l : (l < i)%N -> @ev T O (rcons row (osqrt piv)) l = @ev T O row l.
  by move=> li; rewrite /ev nth_rcons srow li.
have evi : @ev T O (rcons row (osqrt piv)) i = osqrt piv.
  by rewrite /ev nth_rcons srow ltnn eqxx.
have pp : 0 < v piv by move: piv0; rewrite (fl_lt F) (fl_0 F).
have [w0 hw] := fl_piv pp.
split.
- by rewrite size_rcons (fci_size IH).
- move=> a; rewrite ltnS leq_eqVlt => /orP[/eqP->|ai]; last by rewrite old // (fci_diag IH).
  by rewrite new evi.
move=> a b ba; rewrite ltnS leq_eqVlt => /orP[/eqP ai|ai]; last first.
  by rewrite !old ?(leq_ltn_trans ba) // (fci_prod IH).
subst a; move: ba; rewrite leq_eqVlt => /orP[/eqP->|bi].
  rewrite new !big_ord_recr /= evi.
  rewrite (eq_bigr (fun l : 'I_i => v (@ev T O row l) ^+ 2)); last by move=> l _; rewrite evl // expr2.
  rewrite [X in _ <= _ * (X + _)](eq_bigr (fun l : 'I_i => v (@ev T O row l) ^+ 2)); last first.
    by move=> l _; rewrite evl // -normrM -expr2 ger0_norm ?sqr_ge0.
  rewrite -normrM -!expr2 [`|v _ ^+ 2|]ger0_norm ?sqr_ge0 //.
  have sE : `|v (osum i (fun l => osq (@ev T O row l))) - \sum_(l < i) v (@ev T O row l) ^+ 2| <=
      gam u i.+1 * \sum_(l < i) v (@ev T O row l) ^+ 2.
    have h (l : 'I_i) : rel u 1 (v (osq (@ev T O row l))) (v (@ev T O row l) ^+ 2).
      by rewrite expr2; exact: rel_mul1.
    have := fl_osum_rel F (f := fun l => osq (@ev T O row l)) h; rewrite addn1 => /le_trans; apply.
    by apply: eq_lew; congr (_ * _); apply: eq_bigr => l _; rewrite ger0_norm ?sqr_ge0.
  have s0 : 0 <= \sum_(l < i) v (@ev T O row l) ^+ 2 by apply: sumr_ge0 => l _; exact: sqr_ge0.
  move: hw sE s0; rewrite -/piv.
  move: (v (osum _ _)) (\sum_(l < i) _) (v (@el T O A i i)) (v (osqrt piv)) => s t x w hw sE s0.
  have -> : x - (t + w ^+ 2) = (x - s - w ^+ 2) + (s - t) by rring.
  apply: le_trans (ler_norm_add _ _) _; rewrite addrC mulrDr; apply: ler_add.
    apply: le_trans sE _; apply: ler_wpmul2r => //; apply: le_trans (_ : gam u n.+1 <= _); first by rewrite gam_le // ltnW.
    by rewrite ler_addl subr_ge0 exprn_ege1 // z_ge1.
  by apply: le_trans hw _; apply: ler_wpmul2r; rewrite ?sqr_ge0 // ler_addr gam_ge0.
rewrite new old //.
have dg a : (a < i)%N -> v (@ev T O (nth [::] rs a) a) != 0 by move=> ai; rewrite gt_eqF ?(fci_diag IH).
have := @fl_fsub R T O v u F i (fun a b => @ev T O (nth [::] rs a) b) (fun j => @el T O A i j) (Ordinal bi) dg.
rewrite -/row /=.
have tE (f g : nat -> R) : \sum_(l < i) (if (l <= b)%N then f l else 0) * g l = \sum_(l < b.+1) f l * g l.
  rewrite big_ord_recr /= -(@sum_upto R i b (fun l => f l * g l)) //.
  by apply: eq_bigr => l _; case: ifP; rewrite ?mul0r.
have tN (f g : nat -> R) : \sum_(l < i) `|if (l <= b)%N then f l else 0| * g l = \sum_(l < b.+1) `|f l| * g l.
  by rewrite -(tE (fun l => `|f l|) g); apply: eq_bigr => l _; case: ifP; rewrite ?normr0.
rewrite (tE (fun l => v (@ev T O (nth [::] rs b) l)) (fun l => v (@ev T O row l))).
rewrite (tN (fun l => v (@ev T O (nth [::] rs b) l)) (fun l => `|v (@ev T O row l)|)).
have lb (l : 'I_b.+1) : (l < i)%N by exact: leq_trans (ltn_ord l) bi.
have -> : \sum_(l < b.+1) v (@ev T O (nth [::] rs b) l) * v (@ev T O row l) =
    \sum_(l < b.+1) v (@ev T O (rcons row (osqrt piv)) l) * v (@ev T O (nth [::] rs b) l).
  by apply: eq_bigr => l _; rewrite evl // mulrC.
have -> : \sum_(l < b.+1) `|v (@ev T O (nth [::] rs b) l)| * `|v (@ev T O row l)| =
    \sum_(l < b.+1) `|v (@ev T O (rcons row (osqrt piv)) l)| * `|v (@ev T O (nth [::] rs b) l)|.
  by apply: eq_bigr => l _; rewrite evl // mulrC.
move/le_trans; apply; apply: ler_wpmul2r; first by apply: sumr_ge0 => l _; rewrite mulr_ge0.
by rewrite fl_tri_chol // ltnW.
Qed.

Lemma fl_cholesky (X : exn -> Prop) n (A : arr T) : X LinAlgError -> shaped n n A -> rsafe X (chol_ok v u n A) (cholesky A).
Proof using F.
move=> xl [_ a1 a2]; rewrite /cholesky a1 a2 eqxx /=; case E: (chol_rows A n) => [rows|] //=.
have [sz dg pr] := fl_chol_rows (leqnn n) E.
set Lo := mk _ _ _; set Lm := @mval R T O v n n Lo.
have LmE i j : Lm i j = if (j <= i)%N then v (@ev T O (nth [::] rows i) j) else 0.
  by rewrite !mxE el_mk //; case: ifP => // _; rewrite (fl_0 F).
have lE (i j : 'I_n) (g : R -> R -> R) : (j <= i)%N -> (forall x, g x 0 = 0) ->
    \sum_l g (Lm i l) (Lm j l) = \sum_(l < j.+1) g (v (@ev T O (nth [::] rows i) l)) (v (@ev T O (nth [::] rows j) l)).
  move=> ji g0.
  rewrite big_ord_recr /= -(@sum_upto R n j (fun l => g (v (@ev T O (nth [::] rows i) l)) (v (@ev T O (nth [::] rows j) l)))) //.
  by apply: eq_bigr => l _; rewrite !LmE; case: (leqP l j) => lj; rewrite ?(leq_trans lj) ?g0.
set M := @lowval R T O v n A.
have hij (i j : 'I_n) : (j <= i)%N -> `|v (@el T O A i j) - (Lm *m Lm^T) i j| <= fl_chol u n * (absm Lm *m (absm Lm)^T) i j.
  move=> ji; have := pr i j ji (ltn_ord i).
  rewrite -(@lE i j *%R) //; last by move=> x; rewrite mulr0.
  rewrite -(@lE i j (fun x y => `|x| * `|y|)) //; last by move=> x; rewrite normr0 mulr0.
  have -> : (Lm *m Lm^T) i j = \sum_l Lm i l * Lm j l by rewrite mxE; apply: eq_bigr => l _; rewrite [Lm^T _ _]mxE.
  have -> : (absm Lm *m (absm Lm)^T) i j = \sum_l `|Lm i l| * `|Lm j l|.
    by rewrite mxE; apply: eq_bigr => l _; rewrite [(absm Lm)^T _ _]mxE ![absm Lm _ _]mxE.
  by [].
have sym a (B : 'M[R]_(n, a)) (i j : 'I_n) : (B *m B^T) i j = (B *m B^T) j i.
  by rewrite !mxE; apply: eq_bigr => l _; rewrite !mxE mulrC.
have hM (i j : 'I_n) : `|M i j - (Lm *m Lm^T) i j| <= fl_chol u n * (absm Lm *m (absm Lm)^T) i j.
  rewrite [M i j]mxE; case: (leqP j i) => ij.
    exact: hij.
  by rewrite sym [X in _ <= _ * X]sym hij // ltnW.
have f2 : fro (absm Lm *m (absm Lm)^T) <= fro2 Lm.
  apply: le_trans (fro_mul_le _ _) _; rewrite [fro (absm Lm)^T]/fro fro2_trmx -/(fro _) fro_abs -expr2 sqr_fro //.
split=> //.
- by exact: sh_mk.
- by move=> i j ij; rewrite LmE leqNgt ij.
- by move=> i; rewrite LmE leqnn dg.
- apply: le_trans (_ : fl_chol u n * fro (absm Lm *m (absm Lm)^T) <= _); last by rewrite ler_wpmul2l ?fl_chol_ge0.
  apply: fro_dom => [|i j]; first exact: fl_chol_ge0.
  have -> : (M - Lm *m Lm^T) i j = M i j - (Lm *m Lm^T) i j by rewrite mxE; congr (_ + _); rewrite mxE.
  apply: le_trans (hM i j) _; rewrite ler_wpmul2l ?fl_chol_ge0 //; exact: ler_norm.
have fE : fro2 Lm = \sum_i (Lm *m Lm^T) i i.
  by apply: eq_bigr => i _; rewrite mxE; apply: eq_bigr => l _; rewrite [Lm^T _ _]mxE expr2.
have fA : fro2 Lm = \sum_i (absm Lm *m (absm Lm)^T) i i.
  apply: eq_bigr => i _; rewrite mxE; apply: eq_bigr => l _.
  by rewrite !mxE -expr2 real_normK ?num_real.
rewrite mulrBl mul1r {1}fE fA mulr_sumr -sumrB; apply: ler_sum => i _.
by have := hM i i; rewrite ler_norml => /andP[+ _]; rewrite ler_subr_addr addrC.
Qed.
End Chol.
