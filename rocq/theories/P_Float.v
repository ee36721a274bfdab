(** Proofs of C100: rounding errors of the array operations. *)
From mathcomp Require Import all_ssreflect all_algebra.
From mathcomp Require Import zify.
From Verif Require Import Base Arr Lapack Exact MxLib RingTac Rng Shape Inexact Float P_Shape P_Opt2 P_Inexact.
Set Implicit Arguments.
Unset Strict Implicit.
Unset Printing Implicit Defensive.
Import Order.TTheory GRing.Theory Num.Theory.
Local Open Scope ring_scope.

Section Gam.
Variables (R : rcfType) (u : R).
Hypothesis (u0 : 0 <= u).
Add Field gam_field : (rcf_field R).

Lemma gam_ge0 n : 0 <= gam u n.
Proof using u0. by rewrite subr_ge0 exprn_ege1 // ler_addl. Qed.

Lemma gam_le p q : (p <= q)%N -> gam u p <= gam u q.
Proof using u0. by move=> pq; rewrite ler_add2r ler_weexpn2l // ler_addl. Qed.

Lemma gam1 : gam u 1 = u.
Proof. by rewrite /gam expr1 addrC addKr. Qed.

Lemma gamD p q : gam u (p + q) = gam u p + gam u q + gam u p * gam u q.
Proof. by rewrite /gam exprD; move: (_ ^+ p) (_ ^+ q) => x y; rring. Qed.

(** [x] is [a] with at most [n] roundings. *)
Definition rel (n : nat) (x a : R) : Prop := `|x - a| <= gam u n * `|a|.

Lemma rel_le p q x a : (p <= q)%N -> rel p x a -> rel q x a.
Proof using u0. by move=> pq /le_trans; apply; rewrite ler_wpmul2r // gam_le. Qed.

Lemma rel_abs n x a : rel n x a -> `|x| <= (1 + gam u n) * `|a|.
Proof.
move=> h; have -> : x = (x - a) + a by rewrite subrK.
by apply: le_trans (ler_norm_add _ _) _; rewrite mulrDl mul1r addrC ler_add2l.
Qed.

Lemma rel_trans p q x y a : rel p x a -> rel q y x -> rel (p + q) y a.
Proof using u0.
move=> h1 h2; rewrite /rel; have -> : y - a = (y - x) + (x - a) by rewrite addrA subrK.
apply: le_trans (ler_norm_add _ _) _; apply: le_trans (ler_add h2 h1) _.
have := ler_wpmul2l (gam_ge0 q) (rel_abs h1); rewrite -(ler_add2r (gam u p * `|a|)) => /le_trans; apply.
by rewrite gamD le_eqVlt; apply/orP; left; apply/eqP; move: `|a| (gam u p) (gam u q) => t b c; rring.
Qed.

Lemma rel_mul p q x y a b : rel p x a -> rel q y b -> rel (p + q) (x * y) (a * b).
Proof using u0.
move=> h1 h2; rewrite /rel; have -> : x * y - a * b = (x - a) * y + a * (y - b).
  by move: x y a b {h1 h2} => x y a b; rring.
apply: le_trans (ler_norm_add _ _) _; rewrite !normrM.
have e1 := ler_pmul (normr_ge0 _) (normr_ge0 _) h1 (rel_abs h2).
have e2 := ler_wpmul2l (normr_ge0 a) h2.
apply: le_trans (ler_add e1 e2) _; rewrite gamD le_eqVlt; apply/orP; left; apply/eqP.
by move: `|a| `|b| (gam u p) (gam u q) => s t c d; rring.
Qed.

Lemma rel_sum n p (x a : 'I_n -> R) : (forall i, rel p (x i) (a i)) ->
  `|\sum_i x i - \sum_i a i| <= gam u p * \sum_i `|a i|.
Proof.
move=> h; rewrite -sumrB; apply: le_trans (ler_norm_sum _ _ _) _.
by rewrite mulr_sumr; apply: ler_sum => i _; exact: h.
Qed.

End Gam.

Section Fl.
Context {R : rcfType} {T : Type} {O : ops T}.
Variables (v : T -> R) (u : R).
Hypothesis (F : fl_arith O v u).
Add Field fl_field : (rcf_field R).

Lemma fl_u0 : 0 <= u. Proof using F. by case/andP: (fl_u F). Qed.
Lemma fl_u1 : u < 1. Proof using F. by case/andP: (fl_u F). Qed.
Local Notation g := (gam u).
Local Notation mv := (@mval R T O v).

Lemma osumS n (f : nat -> T) : osum n.+1 f = oadd (osum n f) (f n).
Proof. by rewrite /osum -addn1 iotaD foldl_cat. Qed.

Lemma fl_osum n (f : nat -> T) :
  `|v (osum n f) - \sum_(i < n) v (f i)| <= g n * \sum_(i < n) `|v (f i)|.
Proof using F.
elim: n => [|n IH]; first by rewrite !big_ord0 [osum 0 f]/= (fl_0 F) subr0 normr0 mulr0.
rewrite osumS !big_ord_recr /=; move: IH; set s := \sum_(i < n) v (f i); set t := \sum_(i < n) `|v (f i)| => IH.
set x := v (osum n f); set y := v (f n).
have h := fl_add F (@osum T O n f) (f n); rewrite -/x -/y in h.
have -> : v (oadd (osum n f) (f n)) - (s + y) = (v (oadd (osum n f) (f n)) - (x + y)) + (x - s).
  by move: (v _) => z; rring.
apply: le_trans (ler_norm_add _ _) _.
have xy : `|x + y| <= (g n + 1) * t + `|y|.
  have -> : x + y = (x - s) + (s + y) by rring.
  apply: le_trans (ler_norm_add _ _) _; rewrite mulrDl mul1r -addrA ler_add //.
  apply: le_trans (ler_norm_add _ _) _; rewrite ler_add2r; exact: ler_norm_sum.
apply: le_trans (ler_add (le_trans h (ler_wpmul2l fl_u0 xy)) IH) _.
have -> : g n.+1 = g n + u + g n * u by rewrite -addn1 gamD gam1.
have gy : 0 <= g n * (1 + u) * `|y|.
  by rewrite !mulr_ge0 ?gam_ge0 ?fl_u0 ?addr_ge0 ?ler01 ?fl_u0.
rewrite -subr_ge0; apply: le_trans gy _; rewrite le_eqVlt; apply/orP; left; apply/eqP.
by move: (g n) `|y| (t) {xy IH h} => a b c; rring.
Qed.

Lemma fl_osum_rel n p (f : nat -> T) (a : 'I_n -> R) : (forall i : 'I_n, rel u p (v (f i)) (a i)) ->
  `|v (osum n f) - \sum_i a i| <= g (n + p) * \sum_i `|a i|.
Proof using F.
move=> h; have -> : v (osum n f) - \sum_i a i = (v (osum n f) - \sum_(i < n) v (f i)) + (\sum_(i < n) v (f i) - \sum_i a i).
  by rewrite addrA subrK.
apply: le_trans (ler_norm_add _ _) _.
have e1 := rel_sum h.
have e2 : \sum_(i < n) `|v (f i)| <= (1 + g p) * \sum_i `|a i|.
  by rewrite mulr_sumr; apply: ler_sum => i _; exact: rel_abs.
apply: le_trans (ler_add (le_trans (fl_osum n f) (ler_wpmul2l (gam_ge0 fl_u0 n) e2)) e1) _.
rewrite gamD le_eqVlt; apply/orP; left; apply/eqP.
by move: (g n) (g p) (\sum_i _) => x y z; rring.
Qed.

Lemma rel_mul1 x y : rel u 1 (v (omul x y)) (v x * v y).
Proof using F. by rewrite /rel gam1 (fl_mul F). Qed.

(** ** Arrays *)

Lemma mval_mk m n f : mv m n (mk m n f) = \matrix_(i, j) v (f i j).
Proof. by apply/matrixP=> i j; rewrite !mxE el_mk. Qed.

Lemma mval_tr m n (A : arr T) : shaped m n A -> mv n m (mtr A) = (mv m n A)^T.
Proof. by case=> _ <- <-; rewrite mval_mk; apply/matrixP=> i j; rewrite !mxE. Qed.

Lemma mval_zeros m n : mv m n (mzeros m n) = 0.
Proof using F. by rewrite mval_mk; apply/matrixP=> i j; rewrite !mxE (fl_0 F). Qed.

(** Entrywise domination. *)
Lemma fro_dom m n (A B : 'M[R]_(m, n)) c : 0 <= c -> (forall i j, `|A i j| <= c * `|B i j|) -> fro A <= c * fro B.
Proof.
move=> c0 h; rewrite -(@ler_pexpn2r _ 2) ?nnegrE ?mulr_ge0 ?fro_ge0 // exprMn !sqr_fro /fro2 mulr_sumr.
apply: ler_sum => i _; rewrite mulr_sumr; apply: ler_sum => j _.
rewrite -[A i j ^+ 2]real_normK ?num_real // -[B i j ^+ 2]real_normK ?num_real // -exprMn.
by rewrite ler_expn2r ?nnegrE ?mulr_ge0.
Qed.

Lemma fro2_mul_le m n p (A : 'M[R]_(m, n)) (B : 'M[R]_(n, p)) : fro2 (A *m B) <= fro2 A * fro2 B.
Proof. by apply: fro2_mul_col => x; exact: fro2_mulv. Qed.

Lemma fro_mul_le m n p (A : 'M[R]_(m, n)) (B : 'M[R]_(n, p)) : fro (A *m B) <= fro A * fro B.
Proof.
rewrite -(@ler_pexpn2r _ 2) ?nnegrE ?mulr_ge0 ?fro_ge0 // exprMn !sqr_fro; exact: fro2_mul_le.
Qed.

Definition absm m n (A : 'M[R]_(m, n)) : 'M[R]_(m, n) := \matrix_(i, j) `|A i j|.

Lemma fro_abs m n (A : 'M[R]_(m, n)) : fro (absm A) = fro A.
Proof.
rewrite /fro /fro2; congr Num.sqrt; apply: eq_bigr => i _; apply: eq_bigr => j _.
by rewrite mxE real_normK ?num_real.
Qed.

Lemma fl_mmul X m p n (A B : arr T) : shaped m p A -> shaped p n B ->
  rsafe X (fun C => shaped m n C /\
    fro (mv m n C - mv m p A *m mv p n B) <= g p.+1 * (fro (mv m p A) * fro (mv p n B))) (mmul A B).
Proof using F.
move=> sA sB; have [_ a1 a2] := sA; have [_ b1 b2] := sB; rewrite /mmul a2 b1 eqxx a1 b2; split; first exact: sh_mk.
have := fro_mul_le (absm (mv m p A)) (absm (mv p n B)); rewrite !fro_abs.
move=> /(ler_wpmul2l (gam_ge0 fl_u0 p.+1)); apply: le_trans; apply: fro_dom; first exact: gam_ge0 fl_u0 _.
move=> i j; rewrite mval_mk !mxE.
have -> : \sum_j0 mv m p A i j0 * mv p n B j0 j = \sum_(l < p) v (el A i l) * v (el B l j).
  by apply: eq_bigr => l _; rewrite !mxE.
have h (l : 'I_p) : rel u 1 (v (omul (el A i l) (el B l j))) (v (el A i l) * v (el B l j)) by exact: rel_mul1.
have := @fl_osum_rel p 1 (fun l => omul (el A i l) (el B l j)) (fun l => v (el A i l) * v (el B l j)) h.
rewrite addn1 => /le_trans; apply; rewrite ler_wpmul2l ?gam_ge0 ?fl_u0 //.
apply: le_trans (ler_norm _); rewrite le_eqVlt; apply/orP; left; apply/eqP.
by apply: eq_bigr => l _; rewrite !mxE normrM.
Qed.

Lemma fl_msub X m n (A B : arr T) : shaped m n A -> shaped m n B ->
  rsafe X (fun C => shaped m n C /\
    fro (mv m n C - (mv m n A - mv m n B)) <= u * fro (mv m n A - mv m n B)) (msub A B).
Proof using F.
move=> sA sB; have [_ a1 a2] := sA; have [_ b1 b2] := sB; rewrite /msub a1 a2 b1 b2 !eqxx; split; first exact: sh_mk.
apply: fro_dom; first exact: fl_u0.
by move=> i j; rewrite mval_mk !mxE; exact: fl_sub.
Qed.

Lemma fl_hstack X m p n (A B : arr T) : shaped m p A -> shaped m n B ->
  rsafe X (fun C => shaped m (p + n) C /\ mv m (p + n) C = row_mx (mv m p A) (mv m n B)) (hstack A B).
Proof.
move=> sA sB; have [_ a1 a2] := sA; have [_ b1 b2] := sB; rewrite /hstack a1 a2 b1 b2 !eqxx; split; first exact: sh_mk.
rewrite mval_mk; apply/matrixP=> i j; rewrite !mxE; case: (splitP j) => l jl; rewrite !mxE jl.
  by [].
by rewrite addKn.
Qed.

Lemma fl_vstack X m p n (A B : arr T) : shaped m n A -> shaped p n B ->
  rsafe X (fun C => shaped (m + p) n C /\ mv (m + p) n C = col_mx (mv m n A) (mv p n B)) (vstack A B).
Proof.
move=> sA sB; have [_ a1 a2] := sA; have [_ b1 b2] := sB; rewrite /vstack a1 a2 b1 b2 !eqxx; split; first exact: sh_mk.
rewrite mval_mk; apply/matrixP=> i j; rewrite !mxE; case: (splitP i) => l il; rewrite !mxE il.
  by [].
by rewrite addKn.
Qed.

(** ** Norms *)
Lemma rel_sqrt x p a : 0 <= a -> 0 <= v x -> rel u p (v x) a ->
  rel u p.+2 (v (osqrt x) * v (osqrt x)) a.
Proof using F.
move=> a0 x0 h; have e := fl_sqrt F x0.
have r1 : rel u 1 (v (osqrt x)) (Num.sqrt (v x)) by rewrite /rel gam1 (ger0_norm (sqrtr_ge0 _)).
have r2 := rel_mul fl_u0 r1 r1; rewrite -[Num.sqrt _ * _]expr2 sqr_sqrtr // in r2.
by have := rel_trans fl_u0 h r2; rewrite addn2.
Qed.

Lemma osum_ge0 n (f : nat -> T) : (forall i, (i < n)%N -> 0 <= v (f i)) -> 0 <= v (osum n f).
Proof using F.
elim: n => [|n IH] h; first by rewrite [osum 0 f]/= (fl_0 F).
rewrite osumS; have s0 := IH (fun i hi => h i (ltnW hi)); have f0 := h n (ltnSn n).
have := fl_add F (@osum T O n f) (f n); rewrite [X in _ <= _ * X]ger0_norm ?addr_ge0 // ler_norml => /andP[hl _].
rewrite -(ler_add2r (- (v (osum n f) + v (f n)))) add0r; apply: le_trans hl.
rewrite ler_opp2 ler_pimull ?addr_ge0 // (ltW fl_u1) //.
Qed.

Lemma osq_ge0 x : 0 <= v (osq x).
Proof using F.
have := fl_mul F x x; rewrite -expr2 [X in _ <= _ * X]ger0_norm ?sqr_ge0 // ler_norml => /andP[hl _].
rewrite /osq -(ler_add2r (- v x ^+ 2)) add0r; apply: le_trans hl.
by rewrite ler_opp2 ler_pimull ?sqr_ge0 // (ltW fl_u1).
Qed.

Lemma msq_ge0 (A : arr T) : 0 <= v (msq A).
Proof using F. by apply: osum_ge0 => i _; apply: osum_ge0 => j _; exact: osq_ge0. Qed.

Lemma rel_msq m n (A : arr T) : shaped m n A -> rel u (m + n).+1 (v (msq A)) (fro2 (mv m n A)).
Proof using F.
case=> _ a1 a2; rewrite /rel /msq a1 a2.
have h (i : 'I_m) : rel u n.+1 (v (osum n (fun j => osq (el A i j)))) (\sum_(j < n) v (el A i j) ^+ 2).
  have h (j : 'I_n) : rel u 1 (v (osq (el A i j))) (v (el A i j) ^+ 2) by rewrite expr2; exact: rel_mul1.
  have := @fl_osum_rel n 1 (fun j => osq (el A i j)) (fun j => v (el A i j) ^+ 2) h.
  rewrite addn1 /rel => /le_trans; apply; rewrite ler_wpmul2l ?gam_ge0 ?fl_u0 //.
  apply: le_trans (ler_norm _); rewrite le_eqVlt; apply/orP; left; apply/eqP.
  by apply: eq_bigr => j _; rewrite ger0_norm ?sqr_ge0.
have := @fl_osum_rel m n.+1 (fun i => osum n (fun j => osq (el A i j))) _ h; rewrite addnS.
have -> : \sum_(i < m) \sum_(j < n) v (el A i j) ^+ 2 = fro2 (mv m n A).
  by rewrite /fro2; apply: eq_bigr => i _; apply: eq_bigr => j _; rewrite mxE.
move=> /le_trans; apply; rewrite ler_wpmul2l ?gam_ge0 ?fl_u0 //.
rewrite [X in _ <= X]ger0_norm ?fro2_ge0 // /fro2; apply: ler_sum => i _; rewrite ger0_norm ?sumr_ge0 //.
  by apply: ler_sum => j _; rewrite mxE.
by move=> j _; rewrite sqr_ge0.
Qed.

(** [la.norm(A) ** 2] *)
Lemma rel_norm2 m n (A : arr T) : shaped m n A -> rel u (m + n + 4) (v (osq (mnorm A))) (fro2 (mv m n A)).
Proof using F.
move=> sA; have h := rel_sqrt (fro2_ge0 _) (msq_ge0 A) (rel_msq sA).
have -> : (m + n + 4)%N = ((m + n).+3 + 1)%N by rewrite addn1 addn4.
exact: (rel_trans fl_u0 h (rel_mul1 _ _)).
Qed.

End Fl.
