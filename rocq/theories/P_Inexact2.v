(** Proofs of C99, continued: the probability version, sharpness, and sketch-and-solve. *)
From mathcomp Require Import all_ssreflect all_algebra.
From mathcomp Require Import zify.
From Verif Require Import Base Arr Lapack Exact MxLib RingTac LapackSpec LapackExists Rng Aware RangeFinders QB Inexact.
From Verif Require Import P_RS1 P_QB2 P_RF P_QB3 P_QBx P_QBfin P_Opt P_Opt2 Sketching P_Sketch2 P_Iso P_LS2 P_Embed P_Embed2 P_Embed3 P_Prob P_Prob2 P_Prob3 P_Prob4 P_Inexact.
Set Implicit Arguments.
Unset Strict Implicit.
Unset Printing Implicit Defensive.
Import Order.TTheory GRing.Theory Num.Theory.
Local Open Scope ring_scope.

Section Qb.
Variables (R : rcfType) (G : Type) (L : lapack R) (eta dl : R).
Hypotheses (e01 : 0 <= eta < 1) (qrL : qr_near L eta dl).

Lemma near_QB1 rso m n (A : 'M[R]_(m, n)) k (s s1 : st G R) (S : 'M[R]_(n, k)) :
  (0 < k)%N -> (k <= minn m n)%N -> rso (ofmx A) k s = (s1, inr (PyArr (ofmx S))) ->
  exists Q : 'M[R]_(m, k),
    [/\ (QB1 (RF1 L rso) (ofmx A) k%:Z None s).2 = inr (ofmx Q, ofmx (Q^T *m A)), near_ortho eta Q,
        forall C : 'M[R]_(k, n),
          fro (A - Q *m (Q^T *m A)) <= (1 + rho eta) * fro (A - Q *m C) + rho eta * fro A &
        forall r w (V : 'M[R]_(n, r)) (W : 'M[R]_(k, r)), 0 <= w -> orthonormal V -> V^T *m S *m W = 1%:M ->
          (forall v : 'cV[R]_k, fro2 (W^T *m v) <= w ^+ 2 * fro2 v) ->
          let F := A - A *m V *m V^T in
          fro (A - Q *m (Q^T *m A)) <=
          (1 + rho eta) * (Num.sqrt (fro2 F + fro2 (F *m S *m W)) + w * dl * fro (A *m S)) + rho eta * fro A].
Proof using e01 qrL.
have /andP[e0 e1] := e01.
move=> k0 kmn E; have [Q [U [E1 nQ QU]]] := near_RF1 e0 qrL k0 kmn E.
exists Q; split=> //; first by rewrite (@QB1P _ _ _ _ _ A k None s _ _ Q k0 kmn _ E1).
  by move=> C; exact: near_best.
by move=> r w V W w0 oV VW Ww; exact: near_sketch nQ QU oV VW Ww.
Qed.

Lemma near_qb (r : rng_ops G R) (np : int) m n (A : 'M[R]_(m, n)) k a (s : st G R) :
  rng_ok r -> 2 <= np -> (0 < k)%N -> (k <= minn m n)%N ->
  exists s' (Q : 'M[R]_(m, k)),
    [/\ qb L r np (ofmx A) k%:Z a s = (s', inr (ofmx Q, ofmx (Q^T *m A))), near_ortho eta Q &
        forall C : 'M[R]_(k, n),
          fro (A - Q *m (Q^T *m A)) <= (1 + rho eta) * fro (A - Q *m C) + rho eta * fro A].
Proof using e01 qrL.
have /andP[e0 e1] := e01; move=> rok np2 k0 kmn; have np0 : 0 <= np - 2 by lia.
pose (c0 := QB1 (RF1 L (RS1 (skopGA r) (np - 2) (orth L) 1)) (ofmx A) k%:Z None).
pose P (x : res (arr R * arr R)) := exists Q : 'M[R]_(m, k),
    [/\ x = inr (ofmx Q, ofmx (Q^T *m A)), near_ortho eta Q &
        forall C : 'M[R]_(k, n),
          fro (A - Q *m (Q^T *m A)) <= (1 + rho eta) * fro (A - Q *m C) + rho eta * fro A].
have [s0|s' [x [E [Q [xE h1 h2]]]]] := @with_rng_run _ _ _ r a c0 (fun _ x => P x) s _.
  have [s1 [S [ES _]]] := near_total e0 qrL rok np0 A s0 k0 kmn.
  have [Q [EQ h1 h2 _]] := near_QB1 k0 kmn ES.
  case E: (c0 s0) => [s2 x]; exists s2, x; split=> //; exists Q; split=> //.
  by have := congr1 snd E; rewrite /c0 EQ.
by exists s', Q; rewrite -xE.
Qed.
End Qb.

Section Prob.
Variables (R : rcfType) (G : Type) (E : (G -> R) -> R) (L : lapack R) (r : rng_ops G R) (eta dl : R).
Hypotheses (mE : mean E) (pE : positive E) (rok : rng_ok r) (e01 : 0 <= eta < 1) (qrL : qr_near L eta dl).

Lemma near_prob m n l q rk (A : 'M[R]_(m, n)) (U : 'M[R]_(m, q)) (t : 'cV[R]_q) (Vh : 'M[R]_(q, n)) e th u :
  0 <= dl -> (0 < l <= minn m n)%N -> uncorrelated E r n l -> normal4 E r n l ->
  A = U *m diag_mx t^T *m Vh -> orthonormal U -> orthonormal Vh^T -> (rk <= q)%N ->
  0 < e < 1 -> 0 < th -> 0 < u ->
  exists B : G -> bool, E (fun g => (~~ B g)%:R) <= (rk * rk + rk)%:R / (l%:R * e ^+ 2) + rk%:R / (l%:R * th) + u^-1 /\
  forall g es, B g -> exists Q : 'M[R]_(m, l),
    [/\ (qb L r 2 (ofmx A) l%:Z RGen (St g es)).2 = inr (ofmx Q, ofmx (Q^T *m A)), near_ortho eta Q &
        fro (A - Q *m (Q^T *m A)) <=
        (1 + rho eta) * (Num.sqrt ((1 + th / (1 - e) ^+ 2) * \sum_(i < q | (rk <= i)%N) t i 0 ^+ 2) +
                         dl * Num.sqrt (u / (1 - e)) * fro A) + rho eta * fro A].
Proof using mE pE rok e01 qrL.
move=> dl0 /andP[l0 lmn] un n4 AE oU oVh rq ee th0 u0.
have [V [U1 []]] := svd_top AE oU oVh rq; cbv zeta.
set D := diag_mx _; set F := A - _ => oV oU1 AV AU [FV FU F2 _].
have ln : (l <= n)%N by move: lmn; rewrite leq_min => /andP[].
have n0 : (0 < n)%N by exact: leq_trans ln.
have W := gauss_wmom_tall mE rok [::] un n4 l0 ln.
have [_ iso] := gauss_iso mE rok [::] un n0 l0; have {}iso := iso ln.
have [B [EB HB]] := sketch_event mE pE (lexx 0) ee th0 oV FV W.
have PA := sketch_size mE pE A u0 iso.
pose (S g := outmat n l (gaussian_operator r true n l (St g [::]))).
pose f g := fro2 (A *m S g).
exists (fun g => B g && (f g <= u * fro2 A)); split.
  apply: le_trans (_ : E (fun g => (~~ B g)%:R + (~~ (f g <= u * fro2 A))%:R) <= _).
    apply: (mean_le mE pE) => g; rewrite negb_and.
    by case: (B g); case: (f g <= _); rewrite /= ?addr0 ?add0r ?ler_addl ?ler01.
  by rewrite (mean_add mE) ler_add.
move=> g es /andP[/HB {HB EB}]; rewrite -/(S g) => -[X [VX Fl zX]] fA.
have e1 : 0 < 1 - e by rewrite subr_gt0; case/andP: ee.
have [s1 Ed] := draw_gauss rok g es n0 l0.
have EY : RS1 (skopGA r) 0 (orth L) 1 (ofmx A) l (St g es) = (s1, inr (PyArr (ofmx (S g)))).
  by rewrite /RS1 bind_passertT /= (bindE _ Ed).
have [Q [EQ nQ _ H]] := near_QB1 e01 qrL l0 lmn EY.
exists Q; split=> //.
have w2 : Num.sqrt (1 - e)^-1 ^+ 2 = (1 - e)^-1 by rewrite sqr_sqrtr // invr_ge0 ltW.
have := H _ (Num.sqrt (1 - e)^-1) V X (sqrtr_ge0 _) oV VX; rewrite w2 => /(_ zX); cbv zeta; rewrite -/F => /le_trans.
apply; rewrite ler_add2r; have /andP[eta0 _] := e01.
have r0 : 0 <= rho eta by rewrite mulr_ge0 ?sqrtr_ge0.
have r1 : 0 <= 1 + rho eta by rewrite (addr_ge0 ler01 r0).
apply: ler_wpmul2l => //; apply: ler_add.
  by apply: ler_wsqrtr; rewrite -F2 mulrDl mul1r ler_add2l.
have h : fro (A *m S g) <= Num.sqrt u * fro A.
  rewrite -(@ler_pexpn2r _ 2) ?nnegrE ?mulr_ge0 ?sqrtr_ge0 ?fro_ge0 //.
  by rewrite exprMn !sqr_fro sqr_sqrtr ?(ltW u0).
apply: le_trans (ler_wpmul2l _ h) _; first by rewrite mulr_ge0 ?sqrtr_ge0.
rewrite (@sqrtrM _ u) ?(ltW u0) // le_eqVlt; apply/orP; left; apply/eqP.
by rewrite [Num.sqrt _ * dl]mulrC -!mulrA; congr (_ * _); rewrite mulrCA.
Qed.
End Prob.
