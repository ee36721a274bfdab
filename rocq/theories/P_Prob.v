(** Proofs of C94: errors of the low rank drivers with Gaussian sketches, with
    quantified failure probability. *)
From mathcomp Require Import all_ssreflect all_algebra.
From mathcomp Require Import zify.
From Verif Require Import Base Arr Lapack Exact MxLib RingTac LapackSpec LapackExists Rng Aware.
From Verif Require Import Sel Sketching P_Interp2 P_Interp4 P_Opt P_Opt2 P_Iso P_LS2 P_Embed.
Set Implicit Arguments.
Unset Strict Implicit.
Unset Printing Implicit Defensive.
Import Order.TTheory GRing.Theory Num.Theory.
Local Open Scope ring_scope.

Section Tall.
Variables (R : rcfType) (G : Type) (E : (G -> R) -> R) (r : rng_ops G R).
Hypotheses (mE : mean E) (rok : rng_ok r).
Add Field tall_field : (rcf_field R).

(** Second moments of S S' - 1 for tall Gaussian operators. *)
Lemma gauss_wmom_tall m d es : uncorrelated E r m d -> normal4 E r m d -> (0 < d)%N -> (d <= m)%N ->
  wmom E d 0 (fun g => let S := outmat m d (gaussian_operator r true m d (St g es)) in S *m S^T - 1%:M).
Proof using mE rok.
move=> uc n4 d0 dm; have m0 := leq_trans d0 dm.
have [_ iso] := gauss_iso mE rok es uc m0 d0; have {}iso := iso dm.
set S := fun g => outmat m d (gaussian_operator r true m d (St g es)) in iso *.
move=> j l j' l'; rewrite mul0r subr0 mul1r.
pose T g := (S g)^T; have TT g : (T g)^T *m T g = S g *m (S g)^T by rewrite /T trmxK.
transitivity (E (fun g => ((T g)^T *m T g - 1%:M) j l * ((T g)^T *m T g - 1%:M) j' l')).
  by apply: (mean_ext mE) => g; rewrite TT.
apply: (gram_mom mE) => [a b|].
  by rewrite -iso; apply: (mean_ext mE) => g; rewrite TT.
set c : R := Num.sqrt (minn m d)%:R^-1.
have dR : d%:R != 0 :> R by rewrite pnatr_eq0 -lt0n.
have c4 : c ^+ 4 = d%:R^-1 ^+ 2.
  by rewrite (exprM c 2 2) sqr_sqrtr ?invr_ge0 ?ler0n // (minn_idPr dm).
set x := fun g i j => el (r_normal r g c m d).2 i j.
have SE g (i : 'I_m) (k : 'I_d) : S g i k = x g i k by rewrite /S gauss_call // mxE.
transitivity (E (fun g => \sum_(i < d) \sum_(k < d) x g j i * x g l i * (x g j' k * x g l' k))).
  apply: (mean_ext mE) => g; rewrite TT !mxE big_distrl; apply: eq_bigr => i _ /=; rewrite big_distrr.
  by apply: eq_bigr => k _ /=; rewrite !mxE !SE.
rewrite (mean_sum mE).
set K := ((j == j') && (l == l'))%:R + ((j == l') && (l == j'))%:R : R.
transitivity (\sum_(i < d) c ^+ 4 * (d%:R * ((j == l)%:R * (j' == l')%:R) + K)).
  apply: eq_bigr => i _; rewrite (mean_sum mE).
  rewrite (eq_bigr (fun k : 'I_d => c ^+ 4 * ((j == l)%:R * (j' == l')%:R + (i == k)%:R * K))); last first.
    move=> k _; rewrite n4 // !eqxx /= !andbT -!(inj_eq val_inj) /=.
    rewrite -addrA; congr (_ * (_ + _)); first by case: (_ == _ :> nat); rewrite ?mul0r ?mul1r.
    rewrite /K -!(inj_eq val_inj) /=.
    by case: ((i : nat) == k); rewrite /= ?andbF ?andbT ?mul0r ?mul1r ?addr0.
  rewrite -big_distrr /=; congr (_ * _); rewrite big_split /= sumr_const card_ord -[_ *+ d]mulr_natl; congr (_ + _).
  by rewrite (bigD1 i) //= eqxx mul1r big1 ?addr0 // => k ki; rewrite eq_sym (negPf ki) mul0r.
rewrite sumr_const card_ord -[_ *+ d]mulr_natl c4; move: K ((j == l)%:R * (j' == l')%:R) (d%:R : R) dR => K D e e0.
by rfield.
Qed.
End Tall.

Section Event.
Variables (R : rcfType) (G : Type) (E : (G -> R) -> R).
Hypotheses (mE : mean E) (pE : positive E).

(** If [1 + Z] is close to the identity, the part of [F] leaking into the range of [V] is damped. *)
Lemma sketch_leakX n l k (S : 'M[R]_(n, l)) (V : 'M[R]_(n, k)) e (W := S *m S^T - 1%:M) :
  0 < e < 1 -> orthonormal V -> fro2 (V^T *m W *m V) <= e ^+ 2 ->
  exists X : 'M[R]_(l, k), [/\ V^T *m S *m X = 1%:M, forall v : 'cV[R]_l, fro2 (X^T *m v) <= (1 - e)^-1 * fro2 v &
    forall m (F : 'M[R]_(m, n)) t, F *m V = 0 ->
    fro2 (F *m W *m V) <= t * fro2 F -> fro2 (F *m S *m X) <= t / (1 - e) ^+ 2 * fro2 F].
Proof.
move=> /andP[e0 e1] oV h1.
have l0 : 0 < 1 - e by rewrite subr_gt0.
pose M := V^T *m S *m S^T *m V.
have Mt : M^T = M by rewrite /M !trmx_mul !trmxK !mulmxA.
have em : embeds (S^T *m V) V (1 - e) (1 + e).
  by apply: (embeds_form (ltW e0) oV (esym (mulmx1 V))); rewrite trmxK.
have lb (v : 'cV[R]_k) : (1 - e) ^+ 2 * fro2 v <= fro2 (M *m v).
  have /andP[h _] := em v; rewrite (fro2_ortho _ oV) in h.
  have q : fro2 (S^T *m V *m v) = fip v (M *m v).
    by rewrite (fro2_tr (S^T *m V *m v)) /fip /M !trmx_mul trmxK !mulmxA.
  have [->|v0] := eqVneq v 0; first by rewrite mulmx0 fro20 mulr0.
  have fv : 0 < fro2 v by rewrite lt_def fro2_ge0 fro2_eq0 v0.
  rewrite -(ler_pmul2l fv); apply: le_trans (fip_le _ _); rewrite -q mulrCA -expr2 -exprMn.
  by rewrite ler_pexpn2r // nnegrE ?fro2_ge0 ?mulr_ge0 ?fro2_ge0 ?(ltW l0).
have uM : M \in unitmx.
  rewrite -row_free_unit -kermx_eq0; apply/eqP/row_matrixP => i; rewrite row0.
  have K : M *m (row i (kermx M))^T = 0.
    by rewrite -{1}Mt -trmx_mul -row_mul mulmx_ker row0 trmx0.
  have := lb (row i (kermx M))^T; rewrite K fro20 pmulr_rle0 ?exprn_gt0 // => h.
  apply: trmx_inj; rewrite trmx0; apply/eqP; by rewrite -fro2_eq0 eq_le h fro2_ge0.
exists (S^T *m V *m invmx M); split=> [|v|m F t FV h2]; first by rewrite !mulmxA -/M mulmxV.
  pose N := S^T *m V; have NM : N^T *m N = M by rewrite /N trmx_mul trmxK !mulmxA.
  rewrite -/N trmx_mul trmx_inv Mt ler_pdivl_mull // -mulmxA; set y := invmx M *m _.
  have /andP[h _] := em y; rewrite (fro2_ortho _ oV) -/N in h; apply: le_trans h _.
  have q : fro2 (N *m y) = fip (N *m y) v.
    have My : M *m y = N^T *m v by rewrite /y mulmxA mulmxV // mul1mx.
    by rewrite (fro2_tr (N *m y)) /fip trmx_mul -[y^T *m _ *m v]mulmxA -My -NM !mulmxA.
  have := fip_le (N *m y) v; rewrite -q expr2.
  have [->|Ny] := eqVneq (N *m y) 0; first by rewrite !fro20 fro2_ge0.
  by rewrite ler_pmul2l // lt_def fro2_ge0 fro2_eq0 Ny.
have -> : F *m S *m (S^T *m V *m invmx M) = F *m W *m V *m invmx M.
  by rewrite /W mulmxBr mulmx1 mulmxBl FV subr0 !mulmxA.
have iv : fro2 (F *m W *m V *m invmx M) <= (1 - e) ^- 2 * fro2 (F *m W *m V).
  rewrite -fro2_trmx trmx_mul trmx_inv Mt -[X in _ <= _ * X]fro2_trmx.
  apply: fro2_mul_col => v; rewrite ler_pdivl_mull ?exprn_gt0 //.
  by have := lb (invmx M *m v); rewrite mulKVmx.
apply: le_trans iv _; rewrite mulrAC [X in _ <= X]mulrC ler_pmul2l // invr_gt0 exprn_gt0 //.
Qed.

Lemma sketch_leak n l k m (S : 'M[R]_(n, l)) (V : 'M[R]_(n, k)) (F : 'M[R]_(m, n)) e t (W := S *m S^T - 1%:M) :
  0 < e < 1 -> orthonormal V -> F *m V = 0 ->
  fro2 (V^T *m W *m V) <= e ^+ 2 -> fro2 (F *m W *m V) <= t * fro2 F ->
  exists X : 'M[R]_(l, k), [/\ V^T *m S *m X = 1%:M, fro2 (F *m S *m X) <= t / (1 - e) ^+ 2 * fro2 F &
    forall v : 'cV[R]_l, fro2 (X^T *m v) <= (1 - e)^-1 * fro2 v].
Proof. by move=> e01 oV FV h1 h2; have [X [VX zX H]] := sketch_leakX e01 oV h1; exists X; split=> //; exact: H. Qed.

Lemma sketch_event n l k m (S : G -> 'M[R]_(n, l)) (V : 'M[R]_(n, k)) (F : 'M[R]_(m, n)) s e t :
  0 <= s -> 0 < e < 1 -> 0 < t -> orthonormal V -> F *m V = 0 ->
  wmom E l s (fun g => S g *m (S g)^T - 1%:M) ->
  exists B : G -> bool, E (fun g => (~~ B g)%:R) <= (k * k + k)%:R / (l%:R * e ^+ 2) + k%:R / (l%:R * t) /\
  forall g, B g -> exists X : 'M[R]_(l, k),
    [/\ V^T *m S g *m X = 1%:M, fro2 (F *m S g *m X) <= t / (1 - e) ^+ 2 * fro2 F &
        forall v : 'cV[R]_l, fro2 (X^T *m v) <= (1 - e)^-1 * fro2 v].
Proof using mE pE.
move=> s0 e01 t0 oV FV HW; have e0 : 0 < e by case/andP: e01.
pose W g := S g *m (S g)^T - 1%:M.
pose f1 g := fro2 (V^T *m W g *m V); pose f2 g := fro2 (F *m W g *m V).
have fV : fro2 V = k%:R by rewrite (fro2_tr V) oV mxtrace1.
have M1 : E f1 <= (k * k + k)%:R / l%:R.
  by apply: le_trans (amm mE s0 HW V V) _; rewrite oV fV fro2_1 -natrM -natrD.
have M2 : E f2 <= k%:R / l%:R * fro2 F.
  have := amm mE s0 HW F^T V; rewrite trmxK FV fro20 addr0 fV fro2_trmx.
  by rewrite [fro2 F * _]mulrC mulrAC.
exists (fun g => (f1 g <= e ^+ 2) && (f2 g <= t * fro2 F)); split; last first.
  by move=> g /andP[h1 h2]; exact: (sketch_leak e01 oV FV h1 h2).
have P1 : E (fun g => (~~ (f1 g <= e ^+ 2))%:R) <= (k * k + k)%:R / (l%:R * e ^+ 2).
  apply: le_trans (markov mE pE _ _) _; rewrite ?exprn_gt0 //; first by move=> g; exact: fro2_ge0.
  by rewrite [(l%:R * _)^-1]invfM mulrA ler_wpmul2r // invr_ge0 exprn_ge0 // ltW.
have P2 : E (fun g => (~~ (f2 g <= t * fro2 F))%:R) <= k%:R / (l%:R * t).
  have [F0|F0] := eqVneq F 0.
    have -> : E (fun g => (~~ (f2 g <= t * fro2 F))%:R) = 0.
      rewrite -(mean_const mE 0); apply: (mean_ext mE) => g.
      by rewrite /f2 F0 !mul0mx !fro20 mulr0 lexx.
    by rewrite divr_ge0 ?mulr_ge0 ?ler0n // ltW.
  have fF : 0 < fro2 F by rewrite lt_def fro2_ge0 fro2_eq0 F0.
  apply: le_trans (markov mE pE _ _) _; rewrite ?mulr_gt0 //; first by move=> g; exact: fro2_ge0.
  rewrite ler_pdivr_mulr ?mulr_gt0 //; apply: le_trans M2 _.
  by rewrite [(l%:R * t)^-1]invfM [k%:R * (_ * _)]mulrA -[X in _ <= X]mulrA mulKf ?gt_eqF.
apply: le_trans (_ : E (fun g => (~~ (f1 g <= e ^+ 2))%:R + (~~ (f2 g <= t * fro2 F))%:R) <= _).
  apply: (mean_le mE pE) => g; rewrite negb_and.
  by case: (f1 g <= _); case: (f2 g <= _); rewrite /= ?addr0 ?add0r ?ler_addl ?ler01.
by rewrite (mean_add mE) ler_add.
Qed.

(** The row space of a comparison matrix. *)
Lemma row_basis m n (A X : 'M[R]_(m, n)) k : (\rank X <= k)%N ->
  exists k' (V : 'M[R]_(n, k')), [/\ (k' <= k)%N, orthonormal V & fro2 (A - A *m V *m V^T) <= fro2 (A - X)].
Proof.
move=> rX; have [V [C [oV XE]]] := P_Opt.orth_basis X^T.
exists (\rank X^T), V; split=> //; first by rewrite mxrank_tr.
have := proj_best A^T C oV; rewrite -XE -linearB fro2_trmx => h.
by rewrite -[leLHS]fro2_trmx linearB /= !trmx_mul trmxK.
Qed.
End Event.
