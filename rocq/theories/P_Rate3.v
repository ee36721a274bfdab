(** Proofs of C81: the convergence rate of sketch-and-precondition. *)
From mathcomp Require Import all_ssreflect all_algebra.
From mathcomp Require Import zify.
From Verif Require Import Base Arr Lapack Exact MxLib RingTac LapackSpec Rng Aware LapackExists Pcg P_Pcg Lsqr P_Lsqr P_Iter P_Iter2.
From Verif Require Import Precond LstSq SaddleSys P_Precond P_Svd P_Pcss1 Chol P_LS P_LS2 P_LS3 P_LS4 P_LS5 P_LS6.
From Verif Require Import P_Rate P_Rate2.
Set Implicit Arguments.
Unset Strict Implicit.
Unset Printing Implicit Defensive.
Import Order.TTheory GRing.Theory Num.Theory.
Local Open Scope ring_scope.

Section Rate3.
Variable R : rcfType.
Add Field rate3_field : (rcf_field R).

Lemma crho_inv (lo hi : R) : 0 < lo -> 0 < hi -> crho hi^-1 lo^-1 = crho lo hi.
Proof.
move=> l0 h0; rewrite /crho !sqrtrV ?ltW //.
have a0 : Num.sqrt lo != 0 by rewrite gt_eqF ?sqrtr_gt0.
have b0 : Num.sqrt hi != 0 by rewrite gt_eqF ?sqrtr_gt0.
have s0 : Num.sqrt hi + Num.sqrt lo != 0 by rewrite gt_eqF ?addr_gt0 ?sqrtr_gt0.
move: a0 b0 s0; set a := Num.sqrt lo; set b := Num.sqrt hi => a0 b0 s0.
have e1 : a^-1 - b^-1 = (b - a) / (a * b).
  by apply: (canRL (mulfK _)); rewrite ?mulf_neq0 // mulrBl mulKf // [a * b]mulrC mulKf.
have e2 : a^-1 + b^-1 = (b + a) / (a * b).
  by apply: (canRL (mulfK _)); rewrite ?mulf_neq0 // mulrDl mulKf // [a * b]mulrC mulKf.
by rewrite e1 e2 invf_div mulrA mulfVK // mulf_neq0.
Qed.

Lemma cheb_inv (lo hi : R) k : 0 < lo -> 0 < hi -> cheb hi^-1 lo^-1 k = cheb lo hi k.
Proof. by move=> l0 h0; rewrite /cheb crho_inv. Qed.

(** A convex combination of two values above [x] is above [x]. *)
Lemma between (x y z t : R) : 0 <= t <= 1 -> x <= y -> x <= z -> x <= z + t * (y - z).
Proof.
move=> /andP[t0 t1] xy xz.
have -> : z + t * (y - z) = (1 - t) * z + t * y by rring.
have {1}-> : x = (1 - t) * x + t * x by rring.
by rewrite ler_add // ler_wpmul2l // subr_ge0.
Qed.

Lemma mix_le (t r1 r2 r3 : R) : 0 <= t <= 1 -> r3 <= r1 -> r3 + t * (r2 - r3) <= r1 + t * (r2 - r1).
Proof.
move=> /andP[t0 t1] r0.
have e : r1 + t * (r2 - r1) = r3 + t * (r2 - r3) + (1 - t) * (r1 - r3) by rring.
by rewrite e ler_addl mulr_ge0 ?subr_ge0.
Qed.

Lemma cheb2_le1 (mu L : R) k : 0 <= mu <= L -> 0 <= cheb mu L k ^+ 2 <= 1.
Proof. by move=> /(cheb_le1 k)/andP[b0 b1]; rewrite sqr_ge0 exprn_ile1. Qed.

(** Stopping before the limit without tolerances: the gradient is zero. *)
Lemma lsqr_early m n (A : 'M[R]_(m, n)) op (b : 'cV[R]_m) (start : option 'cV[R]_n)
    (d atol btol conlim : R) cv (lim : option int) out (x : 'cV[R]_n) :
  lin_is op A -> 0 <= lim_of n lim -> b != 0 \/ start = None ->
  lsqr op (ofcv b) d atol btol conlim lim cv (omap (@ofcv R n) start) = Ok out -> q_x out = ofcv x ->
  atol <= 0 -> btol <= 0 -> conlim_ok A d conlim -> (q_itn out < absz (lim_of n lim))%N ->
  A^T *m (b - A *m x) - d ^+ 2 *: (x - lsqr_x0 start) = 0.
Proof.
move=> opA lim0 bs E xE0 a0 b0 c0 lt.
have [out' [x1 [E' ok ac alt]]] := lsqrP opA d atol btol conlim cv lim0 bs.
have {E'}oE : out' = out by move: E'; rewrite /lsqr_call E => -[].
rewrite {}oE in ok ac alt.
have [x' [xE le _ [i0 i1 i2 i3 [i4 i5 i7 il]]]] := lsqr_stop_lemma opA lim0 bs E.
have {xE}x'E : x' = x by apply: (@ofcv_inj R); rewrite -xE.
have {x1 ok alt ac}ok : lsqr_ok A b start d cv (absz (lim_of n lim)) out x.
  by have -> : x = x1 by apply: (@ofcv_inj R); rewrite -xE0 (lq_x ok).
subst x'; set g := (X in X = 0).
have rz : q_r2norm out = 0 -> g = 0.
  rewrite (lq_r2 ok) => /eqP; rewrite fro_eq0 => /eqP r0.
  by rewrite /g -Ab_rb r0 mulmx0.
have r2 : 0 <= q_r2norm out by rewrite (lq_r2 ok) fro_ge0.
have an : 0 <= q_anorm out := lq_an0 ok.
have xn : 0 <= q_xnorm out by rewrite (lq_xn ok) fro_ge0.
have eps : 0 < (2%:R ^- 52 : R) := eps_gt0 R.
move: il; rewrite !inE => /or3P[/eqP st|/eqP st|].
- by have [xx [g0|l0]] := i0 st; [rewrite /g xx | move: lt; rewrite l0].
- have h := i1 st; apply: rz; apply/eqP; rewrite eq_le r2 andbT; apply: (le_trans h).
  by rewrite -[leRHS]addr0 ler_add ?mulr_le0_ge0 ?fro_ge0.
case/or3P=> [/eqP st|/eqP st|].
- have h := i2 st; apply/eqP; rewrite -fro_eq0 eq_le fro_ge0 andbT; apply: (le_trans h).
  by rewrite mulr_le0_ge0 // addr_ge0 ?mulr_ge0 // ltW.
- by case: (lsqr_no3 opA lim0 bs E c0).
case/or3P=> [/eqP st|/eqP st|/eqP st].
- have h := i4 st; rewrite -fro2_rb in h; apply: rz.
  by rewrite (lq_r2 ok) /fro h sqrtr0.
- exact: i5.
- by move: lt; rewrite (i7 st) ltnn.
Qed.

(** Number of logged iterations. *)
Definition errs_n (e : @errlog R) : nat := if e is EArr es then size es else 0%N.

Lemma lsqr_errs_n m n (A : 'M[R]_(m, n)) op (b : 'cV[R]_m) (start : option 'cV[R]_n)
    (d atol btol conlim : R) cv (lim : option int) out :
  lin_is op A -> 0 <= lim_of n lim -> b != 0 \/ start = None ->
  lsqr op (ofcv b) d atol btol conlim lim cv (omap (@ofcv R n) start) = Ok out ->
  errs_n (q_errs out) = q_itn out.
Proof.
move=> opA lim0 bs E.
have [out' [x1 [E' ok ac alt]]] := lsqrP opA d atol btol conlim cv lim0 bs.
have {E'}oE : out' = out by move: E'; rewrite /lsqr_call E => -[].
rewrite {}oE in ok ac alt.
by case: alt => [[_ _ -> _ ->]|[_ [es [-> sz _]] _]].
Qed.

(** Undamped LSQR, including the case of an exact starting point. *)
Lemma lsqr_pc_rate m n (A : 'M[R]_(m, n)) op (b : 'cV[R]_m) (start : option 'cV[R]_n)
    (tol conlim mu L : R) (lim : int) out (x : 'cV[R]_n) :
  let x0 := lsqr_x0 start in
  let obj (z : 'cV[R]_n) := fro2 (b - A *m z) in
  lin_is op A -> 0 <= lim -> [\/ b != 0, start = None | b = A *m x0] -> 0 <= mu <= L -> 0 < L ->
  (forall c : 'cV[R]_m, let y := A^T *m c in mu * fro2 y <= fro2 (A *m y) <= L * fro2 y) ->
  lsqr op (ofcv b) 0 tol tol conlim (Some lim) false (omap (@ofcv R n) start) = Ok out -> q_x out = ofcv x ->
  (forall z, obj x <= obj z + cheb mu L (errs_n (q_errs out)) ^+ 2 * (obj x0 - obj z)) /\
  (tol <= 0 -> conlim_ok A 0 conlim ->
     forall z, obj x <= obj z + cheb mu L (absz lim) ^+ 2 * (obj x0 - obj z)).
Proof.
move=> x0 obj opA l0 h muL L0 bnd E xE.
have [bA|/eqP bA] := eqVneq b (A *m x0).
  have [out' [y [E' yE le _ _]]] := lsqr_pc tol conlim opA l0 h.
  have oE : out' = out by move: E'; rewrite E => -[].
  have xy : y = x by apply: (@ofcv_inj R); rewrite -yE oE.
  have ox : obj x0 = 0 by rewrite /obj -bA subrr fro20.
  have ox' : obj x <= 0 by rewrite -ox -xy.
  have H k z : obj x <= obj z + cheb mu L k ^+ 2 * (obj x0 - obj z).
    apply: between; rewrite ?ox //; first exact: cheb2_le1.
    by apply: (le_trans ox'); exact: fro2_ge0.
  by split=> // *; apply: H.
have bs : b != 0 \/ start = None by case: h => // ?; [left | right].
have bnd' (c : 'cV[R]_m) : let y := A^T *m c in
   mu * fro2 y <= fro2 (A *m y) + 0 ^+ 2 * fro2 y <= L * fro2 y.
  by move=> y; rewrite expr0n /= mul0r addr0; exact: bnd.
have [x' [x'E H]] := lsqr_rate_lemma opA (lim := Some lim) l0 bs muL L0 bnd' E.
have xx : x' = x by apply: (@ofcv_inj R); rewrite -x'E.
have {H}H z : obj x <= obj z + cheb mu L (q_itn out) ^+ 2 * (obj x0 - obj z).
  by have := H z; rewrite xx expr0n /= !mul0r !addr0.
have en := lsqr_errs_n opA (lim := Some lim) l0 bs E.
split; first by rewrite en.
move=> t0 cl z; have [it _] : (q_itn out <= absz lim)%N /\ True.
  by have [? [_ ? _ _]] := lsqr_stop_lemma opA (lim := Some lim) l0 bs E.
move: it; rewrite leq_eqVlt => /orP[/eqP <- //|lt].
have g0 := lsqr_early opA (lim := Some lim) l0 bs E xE t0 t0 cl lt.
rewrite expr0n /= scale0r subr0 in g0.
have opt y : obj x <= obj y.
  rewrite /obj; have -> : b - A *m y = (b - A *m x) - A *m (y - x) by rewrite mulmxBr opprB addrA subrK.
  rewrite [X in _ <= X]fro2B; have -> : fip (b - A *m x) (A *m (y - x)) = 0.
    by rewrite fipC /fip trmx_mul -mulmxA g0 mulmx0 raddf0.
  by rewrite mulr0 subr0 ler_addl fro2_ge0.
by apply: between => //; exact: cheb2_le1.
Qed.
(** Bounds of the preconditioned matrix. *)
Lemma pc_rate_bnd p q n k (B : 'M[R]_(p, n)) (A : 'M[R]_(q, n)) (M0 : 'M[R]_(n, k)) lo hi (v : 'cV[R]_k) :
  0 < lo -> 0 < hi -> embeds B A lo hi -> orthonormal (B *m M0) ->
  hi^-1 * fro2 v <= fro2 (A *m M0 *m v) <= lo^-1 * fro2 v.
Proof.
move=> l0 h0 em oM; have [b1 b2] := pc_bounds em oM v; apply/andP; split.
  by rewrite mulrC ler_pdivr_mulr // mulrC.
by rewrite mulrC ler_pdivl_mulr // mulrC.
Qed.
End Rate3.

(** ** Sketch-and-solve *)

(** [Sm] distorts squared lengths on the span of A and b by factors in [lo, hi]. *)
Definition embeds2 (R : rcfType) d m n (Sm : 'M[R]_(d, m)) (A : 'M[R]_(m, n)) (b : 'cV[R]_m) (lo hi : R) : Prop :=
  forall (v : 'cV[R]_n) t, let y := A *m v + t *: b in lo * fro2 y <= fro2 (Sm *m y) <= hi * fro2 y.

Section SsoQuality.
Variables (R : rcfType) (d m n : nat) (A : 'M[R]_(m, n)) (b : 'cV[R]_m) (dl : R) (Sm : 'M[R]_(d, m)) (lo hi : R).
Hypotheses (em : embeds2 Sm A b lo hi) (dl0 : 0 <= dl) (l1 : dl = 0 \/ lo <= 1) (h1 : dl = 0 \/ 1 <= hi).

Lemma embeds2_1 : embeds (Sm *m A) A lo hi.
Proof using em. by move=> v; have := em v 0; cbv zeta; rewrite scale0r addr0 mulmxA. Qed.

Lemma ridge_sk (x : 'cV[R]_n) :
  lo * ridge A b dl x <= ridge (Sm *m A) (Sm *m b) dl x <= hi * ridge A b dl x.
Proof using em dl0 l1 h1.
rewrite /ridge; have := em (- x) 1; cbv zeta; rewrite scale1r mulmxN addrC mulmxBr mulmxA => /andP[e1 e2].
have f0 : 0 <= dl * fro2 x by rewrite mulr_ge0 ?fro2_ge0.
rewrite (mulrDr lo) (mulrDr hi) !ler_add //.
  by case: h1 => [->|h]; rewrite ?mul0r ?mulr0 // -[X in X <= _]mul1r ler_wpmul2r.
by case: l1 => [->|h]; rewrite ?mul0r ?mulr0 // -[X in _ <= X]mul1r ler_wpmul2r.
Qed.

Lemma sketch_solve_q (x : 'cV[R]_n) : ridge_min (Sm *m A) (Sm *m b) dl x ->
  forall z, lo * ridge A b dl x <= hi * ridge A b dl z.
Proof using em dl0 l1 h1.
move=> mn z; have /andP[e1 _] := ridge_sk x; have /andP[_ e2] := ridge_sk z.
by apply: le_trans e1 (le_trans (mn z).1 e2).
Qed.
End SsoQuality.

Lemma sso1_quality_lemma (R : rcfType) (G : Type) (L : lapack R) (g : nat -> nat -> M G R (pyop R)) (sf : rat)
    m n (A : 'M[R]_(m, n)) (b : 'cV[R]_m) (dl : R) (tol : option R) (lim : int) s :
  lstsq_spec L -> lsq_ok g sf m n -> 0 <= dl ->
  exists s1 d (Sm : 'M[R]_(d, m)) (x : 'cV[R]_n),
  [/\ d%:Z = Num.min (trunc_rat (sf * n%:R)) m%:Z,
      exists s0 Sk, [/\ gen s0 = gen s, g d m s0 = (s1, inr Sk) & py_is Sk Sm],
      SSO1 L g sf (ofmx A) (ofcv b) dl tol lim s = (s1, inr (ofcv x)) &
      forall lo hi, embeds2 Sm A b lo hi -> dl = 0 \/ lo <= 1 /\ 1 <= hi ->
      forall z, lo * ridge A b dl x <= hi * ridge A b dl z].
Proof.
move=> lsq ok d0; have [d [s1 [Sk [Sm [x [dE gE pS E mn]]]]]] := sso1_lemma A b tol lim s lsq ok d0.
exists s1, d, Sm, x; split=> //; first by do 2 eexists; split; [|exact: gE|].
by move=> lo hi em h; apply: (sketch_solve_q em d0) mn; case: h => [|[]]; auto.
Qed.

(** ** SPO *)
Section SpoRate.
Variables (R : rcfType) (G : Type) (L : lapack R).
Variables (md : spo_mode) (m n : nat) (A : 'M[R]_(m, n)) (b : 'cV[R]_m) (dl tol : R).
Variables (d : nat) (Sm : 'M[R]_(d, m)) (p : nat) (Ab : 'M[R]_(p, n)) (bb : 'cV[R]_p) (P : arr R) (k : nat).
Variables (M0 : 'M[R]_(n, k)) (z : 'cV[R]_k) (start : option 'cV[R]_k) (m' : nat).
Variables (Ab' : 'M[R]_(m', n)) (bb' : 'cV[R]_m') (op : linop R).
Hypotheses (su : spo_setup L md A b dl Sm Ab bb P M0 z start Ab' bb' op) (dl0 : 0 <= dl) (mO : md <> MOther).
Variables (lo hi : R).
Hypotheses (em : embeds (Sm *m A) A lo hi) (lo1 : 0 < lo <= 1) (hi1 : 1 <= hi).
Hypothesis (cl : sketch_clean L md dl (Sm *m A)).
Let x0 : 'cV[R]_n := M0 *m lsqr_x0 start.

(** Every vector has the objective value of some preconditioned one, or more. *)
Lemma su_reach (y : 'cV[R]_n) : exists w : 'cV[R]_k, ridge A b dl (M0 *m w) <= ridge A b dl y.
Proof.
have /andP[l0 l1] := lo1; have f := su_f su.
have em' := embeds_lift dl0 l1 hi1 em (su_l su) (su_l' su).
have [w [c [_ g0]]] := lsq_sol (su_op su) (b := bb') (start := None) 0 (or_intror erefl).
exists w; rewrite expr0n /= scale0r subr0 in g0.
have := pc_grad l0 em' (sf_orth f) (sf_rng f) (su_rank su mO cl) g0.
rewrite -mulmxA => g1; rewrite /ridge -!(lb_obj (su_b' su)).
have -> : bb' - Ab' *m y = (bb' - Ab' *m (M0 *m w)) - Ab' *m (y - M0 *m w).
  by rewrite [Ab' *m (y - _)]mulmxBr opprB addrA subrK.
rewrite [X in _ <= X]fro2B; have -> : fip (bb' - Ab' *m (M0 *m w)) (Ab' *m (y - M0 *m w)) = 0.
  by rewrite fipC /fip trmx_mul -mulmxA g1 mulmx0 raddf0.
by rewrite mulr0 subr0 ler_addl fro2_ge0.
Qed.

Lemma spo_call_rate (lim : int) q (w : 'cV[R]_k) : 0 <= lim ->
  spo_call tol start bb' op lim = Ok q -> q_x q = ofcv w ->
  (forall y, ridge A b dl (M0 *m w) <=
     ridge A b dl y + cheb lo hi (errs_n (q_errs q)) ^+ 2 * (ridge A b dl x0 - ridge A b dl y)) /\
  (tol <= 0 -> (n ^ 2)%:R * hi < lo * (10%:R ^+ 8 - 1) ^+ 2 ->
   forall y, ridge A b dl (M0 *m w) <=
     ridge A b dl y + cheb lo hi (absz lim) ^+ 2 * (ridge A b dl x0 - ridge A b dl y)).
Proof.
move=> lim0 E wE; have /andP[l0 l1] := lo1; have f := su_f su.
have h0 : 0 < hi by apply: lt_le_trans ltr01 hi1.
have em' := embeds_lift dl0 l1 hi1 em (su_l su) (su_l' su).
have lh : lo <= hi by apply: le_trans l1 hi1.
have muL : 0 <= hi^-1 <= lo^-1 by rewrite invr_ge0 ltW //= lef_pinv ?posrE.
have L0 : 0 < lo^-1 by rewrite invr_gt0.
have bnd (c : 'cV[R]_m') : let y := (Ab' *m M0)^T *m c in
    hi^-1 * fro2 y <= fro2 (Ab' *m M0 *m y) <= lo^-1 * fro2 y.
  by move=> y; exact: pc_rate_bnd em' (sf_orth f).
have := lsqr_pc_rate (su_op su) lim0 (su_acc su) muL L0 bnd E wE.
have oE v : fro2 (bb' - Ab' *m M0 *m v) = ridge A b dl (M0 *m v) := su_objE su v.
have ch i : 0 <= cheb lo hi i ^+ 2 <= 1 by apply: cheb2_le1; rewrite ltW.
have fin i (o : R) : (forall v, fro2 (bb' - Ab' *m M0 *m w) <=
      fro2 (bb' - Ab' *m M0 *m v) + cheb hi^-1 lo^-1 i ^+ 2 *
        (fro2 (bb' - Ab' *m M0 *m lsqr_x0 start) - fro2 (bb' - Ab' *m M0 *m v))) ->
   forall y, ridge A b dl (M0 *m w) <=
     ridge A b dl y + cheb lo hi i ^+ 2 * (ridge A b dl x0 - ridge A b dl y).
  move=> H y; have [v vE] := su_reach y; have := H v; rewrite !oE cheb_inv // -/x0 => h.
  by apply: (le_trans h); apply: mix_le.
move=> [H1 H2]; split; first exact: fin.
move=> t0 cnd; apply: fin => //; apply: H2 => //.
have clE : conlim_dflt = 10%:R ^+ 8 :> R by rewrite /conlim_dflt onatE opowE.
have c1 : 1 <= conlim_dflt :> R by rewrite clE exprn_ege1 // ler1n.
by have [] := pc_conlim l0 em' (sf_orth f) h0 c1 (eq_ind_r (fun t => _ < lo * (t - 1) ^+ 2) cnd clE).
Qed.

(** The starting point is at least as good as the sketched solution. *)
Lemma spo_start_q : \rank A = n \/ 0 < dl -> embeds2 Sm A b lo hi ->
  forall y, lo * ridge A b dl x0 <= hi * ridge A b dl y.
Proof.
move=> rkA em2 y; have /andP[l0 l1] := lo1.
have em' := embeds_lift dl0 l1 hi1 em (su_l su) (su_l' su).
have [s1 s2] := embeds_sub l0 em'.
have rk : \rank Ab = n.
  have r' : \rank Ab' = n by apply/(lifted_rank dl0 (su_l' su)).
  by apply/eqP; rewrite eqn_leq rank_leq_col /= -[X in (X <= _)%N]r' mxrankS.
have kn : k = n by rewrite -(su_rank su mO cl).
have le : ridge A b dl x0 <= ridge A b dl (M0 *m z).
  have [lt|ge] := ltP (ridge A b dl (M0 *m z)) (fro2 b); first by rewrite /x0 (su_acceptP su dl0 kn lt).
  by apply: le_trans ge; exact: su_x0_le su dl0.
apply: le_trans (sketch_solve_q em2 dl0 (or_intror l1) (or_intror hi1) (su_min su mO cl) y).
by rewrite ler_wpmul2l // ltW.
Qed.
End SpoRate.

Section SpoRateCall.
Variables (R : rcfType) (G : Type) (L : lapack R).
Variables (g : nat -> nat -> M G R (pyop R)) (sf : rat) (md : spo_mode) (m n : nat).
Variables (A : 'M[R]_(m, n)) (b : 'cV[R]_m) (dl tol : R).
Hypotheses (ok : lsq_ok g sf m n) (qr : qr_spec L) (svd : svd_spec L) (dl0 : 0 <= dl) (mO : md <> MOther).
Notation call lim logging clk s := (SPO L g sf md (ofmx A) (ofcv b) dl tol lim logging clk s).

Lemma spo_rate_lemma lim lg clk s s' x l : 0 <= lim -> call lim lg clk s = (s', inr (x, l)) ->
  exists d (Sm : 'M[R]_(d, m)) (xv x0 : 'cV[R]_n) k,
  [/\ drew g sf n s s' Sm, x = ofcv xv,
      forall clk, call 0 false clk s = (s', inr (ofcv x0, log_of false clk)),
      lg -> exists es, errors l = Some es /\ size es = k.+1 &
  forall lo hi, embeds (Sm *m A) A lo hi -> 0 < lo <= 1 -> 1 <= hi -> sketch_clean L md dl (Sm *m A) ->
    (forall z, ridge A b dl xv <= ridge A b dl z + cheb lo hi k ^+ 2 * (ridge A b dl x0 - ridge A b dl z)) /\
    (tol <= 0 -> (n ^ 2)%:R * hi < lo * (10%:R ^+ 8 - 1) ^+ 2 ->
     forall z, ridge A b dl xv <=
       ridge A b dl z + cheb lo hi (absz lim) ^+ 2 * (ridge A b dl x0 - ridge A b dl z)) /\
    (\rank A = n \/ 0 < dl -> embeds2 Sm A b lo hi -> forall z, lo * ridge A b dl x0 <= hi * ridge A b dl z)].
Proof.
move=> l0; have [d [s1 [Sk [Sm [dE gE pS bad good]]]]] :=
  spo_run A b tol qr svd s (lk_shape ok) (lk_sf ok) (lk_gen ok) dl0 mO.
case: (spo_dec md A dl0 Sm) => [[t [rk dz]]|h]; first by rewrite bad.
have [p [Ab [bb [P [k [M0 [z [start [m' [Ab' [bb' [op [su run]]]]]]]]]]]]] := good h.
have f := su_f su; have cp lim l0 := spo_callP tol su dl0 mO (lim := lim) l0.
have [q [w [qE xE le lz [ex e0 e1]]]] := cp lim l0.
have [q0 [w0 [qE0 xE0 _ lz0 _]]] := cp 0 (lexx 0).
rewrite (run _ _ _ _ _ qE xE) => e.
exists d, Sm, (M0 *m w), (M0 *m lsqr_x0 start), (errs_n (q_errs q)).
have e' := log_ret_inv e; split.
- by case: e' => <- _; split=> //; exists Sk.
- by case: e' => _ <-.
- by move=> clk'; rewrite (run _ _ _ _ _ qE0 xE0) -(lz0 erefl); case: e' => <- _.
- move=> lgE; move: e; rewrite lgE.
  have [/eqP g0|/eqP g0] := boolP (M0^T *m rgrad A b dl (M0 *m lsqr_x0 start) == 0).
    by have [_ ->] := e0 g0.
  have [es [-> _ _ _]] := e1 g0 => -[_ _ <-].
  by eexists; split; first reflexivity.
move=> lo hi em lo1 hi1 cl; have [H1 H2] := spo_call_rate (tol := tol) su dl0 mO em lo1 hi1 cl l0 qE xE.
split=> //; split=> // rk e2 y; exact: (spo_start_q su dl0 mO em lo1 hi1 cl rk e2 y).
Qed.

Lemma spo_quality_lemma lim clk lg s s' x l : 0 <= lim -> \rank A = n \/ 0 < dl ->
  call lim lg clk s = (s', inr (x, l)) ->
  exists d (Sm : 'M[R]_(d, m)) (xv : 'cV[R]_n) k,
  [/\ drew g sf n s s' Sm, x = ofcv xv,
      lg -> exists es, errors l = Some es /\ size es = k.+1 &
  forall lo hi, embeds2 Sm A b lo hi -> 0 < lo <= 1 -> 1 <= hi -> sketch_clean L md dl (Sm *m A) ->
    (forall z, lo * ridge A b dl xv <= (lo + cheb lo hi k ^+ 2 * (hi - lo)) * ridge A b dl z) /\
    (tol <= 0 -> (n ^ 2)%:R * hi < lo * (10%:R ^+ 8 - 1) ^+ 2 ->
     forall z, lo * ridge A b dl xv <= (lo + cheb lo hi (absz lim) ^+ 2 * (hi - lo)) * ridge A b dl z)].
Proof.
move=> l0 rk E; have [d [Sm [xv [x0 [k [dr xE _ lgE H]]]]]] := spo_rate_lemma l0 E.
exists d, Sm, xv, k; split=> // lo hi em lo1 hi1 cl.
have [H1 [H2 H3]] := H lo hi (embeds2_1 em) lo1 hi1 cl; have {}H3 := H3 rk em.
have /andP[l0' l1] := lo1.
have ch i : 0 <= cheb lo hi i ^+ 2 <= 1 by apply: cheb2_le1; rewrite ltW //= (le_trans l1).
have fin t z : 0 <= t <= 1 -> ridge A b dl xv <= ridge A b dl z + t * (ridge A b dl x0 - ridge A b dl z) ->
   lo * ridge A b dl xv <= (lo + t * (hi - lo)) * ridge A b dl z.
  move=> /andP[t0 t1] h; apply: le_trans (ler_wpmul2l (ltW l0') h) _.
  have := H3 z; move: (ridge A b dl z) (ridge A b dl x0) => r1 r2 h3.
  by rewrite mulrDr mulrCA mulrBr mulrDl -mulrA mulrBl ler_add2l ler_wpmul2l // ler_add2r.
by split=> [z|t0 cnd z]; apply: fin => //; apply: H2.
Qed.
End SpoRateCall.

(** ** Concrete cases *)
Section RateWit.
Variable R : rcfType.
Add Field ratewit_field : (rcf_field R).

Lemma wit_D_dot (e : 'cV[R]_2) : let g := wit_D R *m e in
  [/\ dot e g = e 0 0 ^+ 2 + 2%:R * e 1 0 ^+ 2, fro2 g = e 0 0 ^+ 2 + 4%:R * e 1 0 ^+ 2 &
      fro2 e = e 0 0 ^+ 2 + e 1 0 ^+ 2].
Proof.
have e1 : fintype.lift ord0 ord0 = 1 :> 'I_2 by apply: val_inj.
move=> g; rewrite -[fro2 g]dotxx -[fro2 e]dotxx.
have m2 : (1 %% 2).+1%:R = 2%:R :> R by [].
have g0 : g 0 0 = e 0 0 by rewrite wit_D_mul mul1r.
have g1 : g 1 0 = 2%:R * e 1 0 by rewrite wit_D_mul /= m2.
by split; rewrite /dot mxE !big_ord_recl big_ord0 e1 ![_^T _ _]mxE ?g0 ?g1;
  move: (e 0 0) (e 1 0) => a c; rring.
Qed.

Lemma wit_D_pcg : spd (wit_D R) /\
  forall e : 'cV[R]_2, let g := wit_D R *m e in 1 * (e^T *m g) 0 0 <= (g^T *m (1%:M *m g)) 0 0 <= 2%:R * (e^T *m g) 0 0.
Proof.
split; first split.
- by rewrite /wit_D tr_diag_mx.
- move=> e e0; have [h _ h2] := wit_D_dot e; rewrite -?mulmxA -/(dot e (wit_D R *m e)) h.
  have : 0 < fro2 e by rewrite lt_neqAle eq_sym fro2_eq0 e0 fro2_ge0.
  by rewrite h2 => /lt_le_trans; apply; rewrite ler_add2l ler_pemull ?sqr_ge0 // ler1n.
move=> e; pose g := wit_D R *m e; cbv zeta; rewrite -/g; have [h1 h2 _] := wit_D_dot e.
rewrite mul1mx -/(dot e g) -/(dot g g) dotxx h1 h2 mul1r ler_add2l ler_wpmul2r ?sqr_ge0 ?ler_nat //=.
rewrite mulrDr mulrA -natrM ler_add // ler_pemull ?sqr_ge0 // ler1n //.
Qed.

Lemma wit_D_lsqr (c : 'cV[R]_2) : let y := (wit_D R)^T *m c in
  1 * fro2 y <= fro2 (wit_D R *m y) + 0 ^+ 2 * fro2 y <= 4%:R * fro2 y.
Proof.
cbv zeta; move: (_^T *m c) => y; have [_ h1 h2] := wit_D_dot y; rewrite h1 h2 expr0n /= mul0r addr0 mul1r.
rewrite ler_add2l ler_pemull ?sqr_ge0 ?ler1n //= mulrDr ler_add2r ler_pemull ?sqr_ge0 // ler1n //.
Qed.

Lemma spo_wit2 (s : st nat R) (b : 'cV[R]_3) (A : 'M[R]_3) (dl : R) (lim : int) : A \in unitmx -> 0 <= dl -> 0 <= lim ->
  exists s' (x : 'cV[R]_3), SPO (exact_lapack R) (scale_gen 2%:R) 1 MQr (ofmx A) (ofcv b) dl 0 lim false (clk0 R) s =
    (s', inr (ofcv x, log_of false (clk0 R))) /\
  exists d (Sm : 'M[R]_(d, 3)), [/\ drew (scale_gen 2%:R) 1 3 s s' Sm, embeds2 Sm A b 1 4%:R & \rank A = 3%N].
Proof.
move=> uA d0 l0; have ok := scale_lsq_ok (2%:R : R) (isT : (0 < 3 <= 3)%N).
have mO : MQr <> MOther by [].
have [s1 [d [Sm [dr H]]]] := spo_returns_lemma A b 0 ok (@exact_qr R) (@exact_svd R) d0 mO s.
have [dE [Sk [gE pS]]] := dr.
have t3 : trunc_rat (1 * 3%:R) = 3 by rewrite mul1r (@trunc_rat_uniq _ 3).
have d3 : d = 3%N by move: dE; rewrite t3 => -[].
subst d; have SmE : Sm = 2%:R%:M.
  move: gE; rewrite /scale_gen /ret => -[_ sk]; have := py_r pS 1%:M; rewrite -sk /= mmulE.
  move=> e; have := ofmx_inj (ok_inj e : ofmx _ = ofmx _); rewrite !mulmx1 => <-.
  by apply/matrixP => i j; rewrite !mxE mulr_natr.
have := H lim (clk0 R) l0; rewrite SmE mxrank_unit; last first.
  by rewrite unitmxE mul_scalar_mx detZ unitrM -unitmxE uA andbT unitfE expf_neq0 // pnatr_eq0.
rewrite eqxx andbF /= => -[x E]; exists s1, x; split=> //; exists 3%N, Sm; split=> //; last by rewrite mxrank_unit.
move=> v t; cbv zeta; rewrite SmE mul_scalar_mx fro2Z -natrX lexx andbT ler_wpmul2r ?fro2_ge0 // ler1n //.
Qed.
End RateWit.
