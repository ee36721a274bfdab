(** Proofs of C95, continued: the Nystrom error with the Gaussian sketch drawn by evd2. *)
From mathcomp Require Import all_ssreflect all_algebra.
From mathcomp Require Import zify.
From Verif Require Import Base Arr Lapack Exact MxLib RingTac LapackSpec LapackExists Rng Aware RangeFinders QB.
From Verif Require Import P_RS1 P_QB2 P_RF P_QB3 P_QBx P_QBfin P_Pcg Chol P_Svd Sel SvdEvd P_SvdEvd P_Svd1 P_Evd P_Evd2 P_Evd3.
From Verif Require Import P_Opt P_Opt2 Sketching P_Sketch2 P_Interp P_Interp2 P_Interp4 P_Iso P_LS2 P_Embed P_Embed2 P_Embed3 P_Prob P_Prob2 P_Evd4.
Set Implicit Arguments.
Unset Strict Implicit.
Unset Printing Implicit Defensive.
Import Order.TTheory GRing.Theory Num.Theory.
Local Open Scope ring_scope.

Section Leak.
Variables (R : rcfType) (n : nat) (A U : 'M[R]_n) (t : 'cV[R]_n).
Hypothesis eA : psd_eig A U t.
Variables (rk : nat) (rn : (rk <= n)%N).
Local Notation V := (colblk U 0 rk).

(** [A ^ q], and a row scaling of [U^T] that kills the leading eigenvectors. *)
Definition pw q : 'M[R]_n := U *m diag_mx (\col_i t i 0 ^+ q)^T *m U^T.
Definition tailw (c : 'cV[R]_n) : 'M[R]_n := diag_mx (\col_i (if (rk <= i)%N then c i 0 else 0))^T *m U^T.

Lemma UTU : U^T *m U = 1%:M. Proof using eA. by case: eA. Qed.
Lemma UUT : U *m U^T = 1%:M. Proof using eA. by apply: mulmx1C UTU. Qed.

Lemma pw0 : pw 0 = 1%:M.
Proof using eA.
have -> : pw 0 = U *m 1%:M *m U^T.
  rewrite /pw -diag_const_mx; congr (_ *m diag_mx _ *m _); apply/rowP=> i; by rewrite !mxE expr0.
by rewrite mulmx1 UUT.
Qed.
Lemma pwS q : A *m pw q = pw q.+1.
Proof using eA.
case: (eA) => oU AE _ _; rewrite /pw {1}AE !mulmxA -(mulmxA _ U^T U) UTU mulmx1 -(mulmxA U) mulmx_diag.
by congr (_ *m diag_mx _ *m _); apply/rowP=> i; rewrite !mxE exprS.
Qed.
Lemma iter_pw l q (X : 'M[R]_(n, l)) : iter q (mulmx A) X = pw q *m X.
Proof using eA. by elim: q => [|q IH] /=; rewrite ?pw0 ?mul1mx // IH mulmxA pwS. Qed.
Lemma pw_sym q : (pw q)^T = pw q.
Proof. by rewrite /pw !trmx_mul trmxK tr_diag_mx mulmxA. Qed.

Lemma VE : V = U *m selmx R n 0 rk. Proof. exact: colblkE. Qed.
Lemma oV : orthonormal V.
Proof using eA rn. by case: eA => oU _ _ _; apply: orthonormal_colblk. Qed.
Lemma UV : U^T *m V = selmx R n 0 rk.
Proof using eA. by rewrite VE mulmxA UTU mul1mx. Qed.

Lemma pwV q : pw q *m V = V *m diag_mx (topv (\col_i t i 0 ^+ q) rk)^T.
Proof using eA rn. by rewrite /pw -!mulmxA UV diag_selmx // mulmxA -VE. Qed.

Lemma tailV c : tailw c *m V = 0.
Proof using eA rn.
rewrite /tailw -mulmxA UV diag_selmx //.
have -> : topv (\col_i (if (rk <= i)%N then c i 0 else 0)) rk = 0.
  apply/colP=> i; rewrite (topvE _ (leq_trans (ltn_ord i) rn)) !mxE /=.
  by rewrite leqNgt ltn_ord.
by rewrite trmx0 (_ : diag_mx 0 = 0) ?mulmx0 // raddf0.
Qed.

Lemma fro2_tailw c l (Z : 'M[R]_(n, l)) :
  fro2 (tailw c *m Z) = \sum_(i < n | (rk <= i)%N) c i 0 ^+ 2 * fro2 (row i (U^T *m Z)).
Proof.
rewrite /tailw -mulmxA mul_diag_mx /fro2 [RHS]big_mkcond; apply: eq_bigr => i _.
rewrite big_ord1; case: ifP => ri; last first.
  by rewrite big1 // => j _; rewrite mxE [_^T _ _]mxE [(\col_i _) _ _]mxE ri mul0r expr0n.
rewrite mulr_sumr; apply: eq_bigr => j _.
by rewrite !mxE ri exprMn.
Qed.

Lemma tailw_norm c : fro2 (tailw c) = \sum_(i < n | (rk <= i)%N) c i 0 ^+ 2.
Proof using eA.
rewrite -[tailw c]mulmx1 fro2_tailw; apply: eq_bigr => i _; rewrite mulmx1.
have -> : fro2 (row i U^T) = 1; last by rewrite mulr1.
have := congr1 (fun M : 'M[R]_n => M i i) UTU; rewrite ![in LHS]mxE mxE eqxx => h.
by apply: etrans h; rewrite /fro2 big_ord1; apply: eq_bigr => j _; rewrite !mxE expr2.
Qed.

Lemma tailw_pw c q : tailw c *m pw q = tailw (\col_i (c i 0 * t i 0 ^+ q)).
Proof using eA.
rewrite /tailw /pw !mulmxA -(mulmxA _ U^T U) UTU mulmx1 mulmx_diag.
by congr (diag_mx _ *m _); apply/rowP=> i; rewrite !mxE; case: ifP; rewrite ?mul0r.
Qed.

(** The rows of [rootK] beyond [rk]. *)
Lemma rootK_tailw nu l (Z : 'M[R]_(n, l)) : 0 <= nu -> V^T *m Z = 0 ->
  fro2 (rootK U t nu *m Z) =
  fro2 (tailw (\col_i Num.sqrt (t i 0)) *m Z) + nu * fro2 (tailw (const_mx 1) *m Z).
Proof using eA rn.
move=> nu0 VZ; have [_ _ t0 _] := eA.
have z (i : 'I_n) : (i < rk)%N -> fro2 (row i (U^T *m Z)) = 0.
  move=> ir; apply/eqP; rewrite fro2_eq0; apply/eqP/rowP => j.
  have := congr1 (fun M : 'M[R]_(rk, l) => M (Ordinal ir) j) VZ; rewrite ![in LHS]mxE [RHS]mxE => h.
  rewrite [RHS]mxE -[RHS]h !mxE; apply: eq_bigr => a _; rewrite !mxE add0n /=.
  by congr (_ * _); rewrite -(mxeE U a i).
rewrite /rootK -mulmxA mul_diag_mx !fro2_tailw mulr_sumr -big_split /= /fro2.
rewrite [RHS]big_mkcond; apply: eq_bigr => i _; rewrite big_ord1.
have -> : \sum_j (\matrix_(i, j) ((\col_i Num.sqrt (t i 0 + nu))^T 0 i * (U^T *m Z) i j)) i j ^+ 2 =
    (t i 0 + nu) * fro2 (row i (U^T *m Z)).
  rewrite /fro2 big_ord1 mulr_sumr; apply: eq_bigr => j _.
  by rewrite mxE [_^T _ _]mxE [(\col_i _) _ _]mxE exprMn sqr_sqrtr ?addr_ge0 // [row _ _ _ _]mxE.
rewrite -/(fro2 _); case: ifP => ri; last by rewrite z ?mulr0 // ltnNge ri.
by rewrite !mxE expr1n mul1r sqr_sqrtr // mulrDl /fro2 big_ord1.
Qed.

(** Leak of the tail through [q] power passes. *)
Lemma tail_leak (q l : nat) (Om : 'M[R]_(n, l)) (X : 'M[R]_(l, rk)) (sg tau th : R) (c : 'cV[R]_n)
    (Dq := diag_mx (\row_(i < rk) (topv t rk i 0 ^- q)) : 'M[R]_rk)
    (SM := pw q *m Om *m X *m Dq *m V^T) :
  0 <= sg -> (forall i : 'I_n, (rk <= i)%N -> t i 0 <= sg) ->
  ((0 < q)%N -> 0 < tau /\ forall i : 'I_n, (i < rk)%N -> tau <= t i 0) ->
  V^T *m Om *m X = 1%:M -> 0 <= th ->
  fro2 (tailw c *m pw q *m Om *m X) <= th * fro2 (tailw c *m pw q) ->
  V^T *m (1%:M - SM) = 0 /\
  fro2 (tailw c *m (1%:M - SM)) <= (1 + (sg / tau) ^+ (2 * q) * th) * fro2 (tailw c).
Proof using eA rn.
move=> sg0 lo hi VX th0 Fb; have [_ _ t0 _] := eA.
have tE q' (i : 'I_rk) : topv (\col_i t i 0 ^+ q') rk i 0 = topv t rk i 0 ^+ q'.
  by rewrite !(topvE _ (leq_trans (ltn_ord i) rn)) mxE.
have tp (i : 'I_rk) : (0 < q)%N -> 0 < tau <= topv t rk i 0.
  move=> q0; have [tau0 h] := hi q0; rewrite tau0 (topvE _ (leq_trans (ltn_ord i) rn)).
  by apply: h; rewrite /= ltn_ord.
have DD : diag_mx (topv (\col_i t i 0 ^+ q) rk)^T *m Dq = 1%:M.
  rewrite /Dq mulmx_diag -diag_const_mx; congr diag_mx; apply/rowP=> i.
  rewrite [LHS]mxE [_^T _ _]mxE tE [X in _ * X]mxE [RHS]mxE divff //.
  case: q tp {Dq SM Fb hi} => [|q'] tp; first by rewrite expr0 oner_eq0.
  by have /andP[a b] := tp i isT; rewrite expf_neq0 // gt_eqF // (lt_le_trans a b).
have VS : V^T *m SM = V^T.
  have : V^T *m pw q = diag_mx (topv (\col_i t i 0 ^+ q) rk)^T *m V^T.
    by rewrite -[LHS]trmxK [(V^T *m _)^T]trmx_mul trmxK pw_sym pwV trmx_mul tr_diag_mx.
  rewrite /SM; move: (pw q) (diag_mx _) DD VX => Pq D1 DD' VX' h.
  by rewrite !mulmxA h -(mulmxA _ V^T Om) -(mulmxA _ (V^T *m Om) X) VX' mulmx1 DD' mul1mx.
split; first by rewrite mulmxBr mulmx1 VS subrr.
pose Z := tailw c *m pw q *m Om *m X.
have FS : tailw c *m SM = Z *m Dq *m V^T by rewrite /SM /Z; move: (pw q) (tailw c) => Pq T; rewrite !mulmxA.
rewrite mulmxBr mulmx1 FS fro2B.
have -> : fip (tailw c) (Z *m Dq *m V^T) = 0.
  rewrite /fip; move: (tailw c) (Z *m Dq) (tailV c) => T Y TV.
  by rewrite mulmxA mxtrace_mulC mulmxA -trmx_mul TV trmx0 mul0mx mxtrace0.
rewrite mulr0 subr0 mulrDl mul1r ler_add2l.
have -> : fro2 (Z *m Dq *m V^T) = fro2 (Z *m Dq).
  by rewrite -[LHS]fro2_trmx [(_ *m V^T)^T]trmx_mul trmxK (fro2_ortho _ oV) fro2_trmx.
apply: le_trans (_ : tau ^- (2 * q) * fro2 Z <= _).
  case: (posnP q) => q0.
    rewrite {1}q0 muln0 expr0 invr1 mul1r; have -> // : Dq = 1%:M; last by rewrite mulmx1.
    by rewrite /Dq -diag_const_mx; congr diag_mx; apply/rowP=> i; rewrite !mxE q0 expr0 invr1.
  rewrite -[leLHS]fro2_trmx [(Z *m Dq)^T]trmx_mul -[X in _ <= _ * X]fro2_trmx /Dq tr_diag_mx.
  apply: fro2_mul_col => v; rewrite mul_diag_mx !fro2_sum mulr_sumr; apply: ler_sum => i _.
  rewrite mxE exprMn ler_wpmul2r ?sqr_ge0 // mxE exprVn -exprM mulnC.
  have /andP[a b] := tp i q0.
  rewrite lef_pinv ?posrE ?exprn_gt0 //; last exact: lt_le_trans b.
  have p0 : (0 < 2 * q)%N by rewrite muln_gt0.
  by rewrite ler_pexpn2r ?nnegrE // ltW // (lt_le_trans a b).
have th' : fro2 Z <= th * (sg ^+ (2 * q) * fro2 (tailw c)).
  apply: le_trans Fb _; rewrite ler_wpmul2l // tailw_pw !tailw_norm mulr_sumr; apply: ler_sum => i ri.
  rewrite mxE exprMn mulrC ler_wpmul2r ?sqr_ge0 // -exprM mulnC.
  by apply: ler_expn2r; rewrite ?nnegrE //; exact: lo.
rewrite expr_div_n; have tn : 0 <= tau ^- (2 * q).
  by rewrite invr_ge0 exprn_even_ge0 // oddM.
apply: le_trans (ler_wpmul2l tn th') _; move: (tau ^- _) (sg ^+ _) (fro2 _) => a b F.
by rewrite [b * a]mulrC -!mulrA (mulrCA th).
Qed.
End Leak.

(** ** The event, for two tails at once *)
Section Event2.
Variables (R : rcfType) (G : Type) (E : (G -> R) -> R).
Hypotheses (mE : mean E) (pE : positive E).

Lemma sketch_event2 n l k m1 m2 (S : G -> 'M[R]_(n, l)) (V : 'M[R]_(n, k)) (F1 : 'M[R]_(m1, n)) (F2 : 'M[R]_(m2, n)) s e t :
  0 <= s -> 0 < e < 1 -> 0 < t -> orthonormal V -> F1 *m V = 0 -> F2 *m V = 0 ->
  wmom E l s (fun g => S g *m (S g)^T - 1%:M) ->
  exists B : G -> bool, E (fun g => (~~ B g)%:R) <= (k * k + k)%:R / (l%:R * e ^+ 2) + (2 * k)%:R / (l%:R * t) /\
  forall g, B g -> exists X : 'M[R]_(l, k),
    [/\ V^T *m S g *m X = 1%:M, fro2 (F1 *m S g *m X) <= t / (1 - e) ^+ 2 * fro2 F1 &
        fro2 (F2 *m S g *m X) <= t / (1 - e) ^+ 2 * fro2 F2].
Proof using mE pE.
move=> s0 e01 t0 oV FV1 FV2 HW; have e0 : 0 < e by case/andP: e01.
pose W g := S g *m (S g)^T - 1%:M.
pose f0 g := fro2 (V^T *m W g *m V).
pose f m (F : 'M[R]_(m, n)) g := fro2 (F *m W g *m V).
have fV : fro2 V = k%:R by rewrite (fro2_tr V) oV mxtrace1.
have M1 : E f0 <= (k * k + k)%:R / l%:R.
  by apply: le_trans (amm mE s0 HW V V) _; rewrite oV fV fro2_1 -natrM -natrD.
have M2 m (F : 'M[R]_(m, n)) : F *m V = 0 -> E (f m F) <= k%:R / l%:R * fro2 F.
  move=> FV; have := amm mE s0 HW F^T V; rewrite trmxK FV fro20 addr0 fV fro2_trmx.
  by rewrite [fro2 F * _]mulrC mulrAC.
have P1 : E (fun g => (~~ (f0 g <= e ^+ 2))%:R) <= (k * k + k)%:R / (l%:R * e ^+ 2).
  apply: le_trans (markov mE pE _ _) _; rewrite ?exprn_gt0 //; first by move=> g; exact: fro2_ge0.
  by rewrite [(l%:R * _)^-1]invfM mulrA ler_wpmul2r // invr_ge0 exprn_ge0 // ltW.
have P2 m (F : 'M[R]_(m, n)) : F *m V = 0 -> E (fun g => (~~ (f m F g <= t * fro2 F))%:R) <= k%:R / (l%:R * t).
  move=> FV; have [F0|F0] := eqVneq F 0.
    have -> : E (fun g => (~~ (f m F g <= t * fro2 F))%:R) = 0.
      rewrite -(mean_const mE 0); apply: (mean_ext mE) => g.
      by rewrite /f F0 !mul0mx !fro20 mulr0 lexx.
    by rewrite divr_ge0 ?mulr_ge0 ?ler0n // ltW.
  have fF : 0 < fro2 F by rewrite lt_def fro2_ge0 fro2_eq0 F0.
  apply: le_trans (markov mE pE _ _) _; rewrite ?mulr_gt0 //; first by move=> g; exact: fro2_ge0.
  rewrite ler_pdivr_mulr ?mulr_gt0 //; apply: le_trans (M2 _ _ FV) _.
  by rewrite [(l%:R * t)^-1]invfM [k%:R * (_ * _)]mulrA -[X in _ <= X]mulrA mulKf ?gt_eqF.
exists (fun g => [&& f0 g <= e ^+ 2, f m1 F1 g <= t * fro2 F1 & f m2 F2 g <= t * fro2 F2]); split; last first.
  move=> g /and3P[h1 h2 h3]; have [X [VX _ H]] := sketch_leakX e01 oV h1.
  by exists X; split=> //; apply: H.
apply: le_trans (_ : E (fun g => (~~ (f0 g <= e ^+ 2))%:R +
    ((~~ (f m1 F1 g <= t * fro2 F1))%:R + (~~ (f m2 F2 g <= t * fro2 F2))%:R)) <= _).
  apply: (mean_le mE pE) => g; rewrite !negb_and.
  case: (f0 g <= _); case: (f _ _ g <= _); case: (f _ _ g <= _);
    by rewrite /= ?addr0 ?add0r ?ler_addl ?ler_addr ?addr_ge0 ?ler01.
rewrite !(mean_add mE) ler_add // mul2n -addnn natrD mulrDl ler_add // P2 //.
Qed.
End Event2.

(** ** The range sketcher on a symmetric matrix *)
Section Sk.
Variables (R : rcfType) (G : Type).

Lemma krylov_iter n k (A : 'M[R]_n) q (X : 'M[R]_(n, k)) : A^T = A -> krylov A q X = iter (2 * q) (mulmx A) X.
Proof. by move=> sA; elim: q => [|q IH] //; rewrite mulnS !iterS /krylov iterS -/(krylov A q X) IH sA. Qed.

Lemma RS1_sym gen (np : nat) stab (pps : int) n k (A : 'M[R]_n) (s s1 : st G R) (X0 : 'M[R]_(n, k)) :
  A^T = A -> stab_spec stab -> 0 < pps -> (0 < k)%N -> (k <= n)%N ->
  draw gen n k s = (s1, inr (PyArr (ofmx X0))) ->
  exists s' (Y : 'M[R]_(n, k)) (W : 'M[R]_k),
    RS1 gen np%:Z stab pps (ofmx A) k s = (s', inr (PyArr (ofmx Y))) /\ iter np (mulmx A) X0 = Y *m W.
Proof.
move=> sA st p0 k0 kn Ed; have kn' : (k <= minn n n)%N by rewrite minnn.
have np2 := divn_eq np 2; rewrite modn2 in np2.
case: (boolP (odd np)) => o; rewrite ?o ?(negbTE o) in np2.
  have [s' [Y [W [E KE _]]]] := RS1_odd A st p0 o k0 kn' Ed.
  exists s', Y, W; split=> //; rewrite -KE krylov_iter // sA -iterSr; congr (iter _ _ _).
  by rewrite {1}np2 addn1 mulnC.
have [s' [Y [W [E KE _]]]] := RS1_even A st p0 o k0 kn' Ed.
exists s', Y, W; split=> //; rewrite -KE krylov_iter //; congr (iter _ _ _).
by rewrite {1}np2 addn0 mulnC.
Qed.

(** With a stabiliser after every pass the sketch is orthonormal. *)
Lemma rs1_loop_orth (L : lapack R) m n k (A : 'M[R]_(m, n)) : qr_spec L -> (0 < k)%N -> (k <= minn m n)%N ->
  forall q done (X Y : 'M[R]_(n, k)) (s s' : st G R), (0 < q)%N \/ orthonormal X ->
  rs1_loop (orth L) 1 (ofmx A) q done (PyArr (ofmx X)) s = (s', inr (PyArr (ofmx Y))) -> orthonormal Y.
Proof.
move=> qrL k0; rewrite leq_min => /andP[km kn]; elim=> [|q IH] done X Y s s' oX.
  case: oX => // oX h.
  have := congr1 (fun x : (st G R * (exn + pyop R))%type => if x.2 is inr (PyArr a) then a else ofmx X) h.
  by rewrite [LHS]/= [RHS]/= => /ofmx_inj <-.
rewrite /= (bindE _ (passAE _ _ _)); set s1 := St _ _.
have stE m' (Z : 'M[R]_(m', k)) dn (s0 : st G R) : (k <= m')%N -> exists s2 (Q : 'M[R]_(m', k)),
    maybe_stab (orth L) 1 dn (ofmx Z) s0 = (s2, inr (ofmx Q)) /\ orthonormal Q.
  move=> km'; have [Q [V [E oQ _ _]]] := qr_tall Z qrL k0 km'.
  by eexists _, Q; rewrite /maybe_stab /= dvd1n /stabilize bind_emitE /orth E; split.
have [s2 [Q1 [E1 _]]] := stE _ (A *m X) done.+1 s1 km; rewrite (bindE _ E1) (bindE _ (passAtE _ _ _)).
have [s4 [Q2 [E2 oQ2]]] := stE _ (A^T *m Q1) done.+2 (St (gen s2) (rcons (evs s2) (EvPass true))) kn.
rewrite (bindE _ E2); apply: IH; by right.
Qed.

Lemma RS1_orth (L : lapack R) (r : rng_ops G R) (np : nat) m n k (A : 'M[R]_(m, n)) (Y : 'M[R]_(n, k)) (s s' : st G R) :
  qr_spec L -> rng_ok r -> (0 < np)%N -> (0 < k)%N -> (k <= minn m n)%N ->
  RS1 (skopGA r) np%:Z (orth L) 1 (ofmx A) k s = (s', inr (PyArr (ofmx Y))) -> orthonormal Y.
Proof.
move=> qrL rok np0 k0 kmn; have := kmn; rewrite leq_min => /andP[km kn].
have m0 : (0 < m)%N by exact: leq_trans km.
have n0 : (0 < n)%N by exact: leq_trans kn.
rewrite /RS1 bind_passertT /=; case: ifP => o.
  have [s1 [X [e1 _]]] := drawE s rok n0 k0; rewrite (bindE _ e1).
  apply: rs1_loop_orth => //; left; rewrite divn_gt0 //; move: o np0; clear; case: np => [|[]] //.
have [s1 [X [e1 _]]] := drawE s rok m0 k0; rewrite (bindE _ e1) (bindE _ (passAtE _ _ _)).
have [Q [V [E oQ _ _]]] := qr_tall (A^T *m X) qrL k0 kn.
rewrite /stabilize bindA bind_emitE /orth E /=; apply: rs1_loop_orth => //; by right.
Qed.
End Sk.

(** ** evd2 *)
Section Evd2Prob.
Variables (R : rcfType) (G : Type) (E : (G -> R) -> R) (L : lapack R) (r : rng_ops G R).
Hypotheses (mE : mean E) (pE : positive E) (rok : rng_ok r) (qrL : qr_spec L) (svdL : svd_spec L).
Variables (n : nat) (A U : 'M[R]_n) (t : 'cV[R]_n).
Variables (rk np : nat) (sg tau e th : R).
Hypotheses (eA : psd_eig A U t) (rn : (rk <= n)%N) (sg0 : 0 <= sg)
  (lo : forall i : 'I_n, (rk <= i)%N -> t i 0 <= sg)
  (hi : (0 < np)%N -> 0 < tau /\ forall i : 'I_n, (i < rk)%N -> tau <= t i 0)
  (e01 : 0 < e < 1) (th0 : 0 < th).
Local Notation rs := (RS1 (skopGA r) np%:Z (orth L) 1).
Local Notation V := (colblk U 0 rk).

Lemma psd_eig_psd : psd A.
Proof using eA.
split; first exact: psd_eig_sym eA.
case: (eA) => _ -> t0 _ x; have -> : qf (U *m diag_mx t^T *m U^T) x = qf (diag_mx t^T) (U^T *m x).
  by rewrite /qf /dot trmx_mul trmxK !mulmxA.
by rewrite qf_diag sumr_ge0 // => i _; rewrite mulr_ge0 ?sqr_ge0.
Qed.

Lemma nys_event l : (0 < l)%N -> (l <= n)%N -> uncorrelated E r n l -> normal4 E r n l ->
  exists B : G -> bool,
    E (fun g => (~~ B g)%:R) <= (rk * rk + rk)%:R / (l%:R * e ^+ 2) + (2 * rk)%:R / (l%:R * th) /\
  forall g es, B g -> exists s1 (S : 'M[R]_(n, l)) (M : 'M[R]_(l, n)),
    [/\ rs (ofmx A) l (St g es) = (s1, inr (PyArr (ofmx S))), V^T *m (S *m M) = V^T &
      forall nu, 0 <= nu -> \tr ((1%:M - S *m M)^T *m (A + nu%:M) *m (1%:M - S *m M)) <=
        (1 + (sg / tau) ^+ (2 * np) * (th / (1 - e) ^+ 2)) * \sum_(i < n | (rk <= i)%N) (t i 0 + nu)].
Proof using mE pE rok qrL eA rn sg0 lo hi e01 th0.
move=> l0 ln un n4; have sA := psd_eig_sym eA; have [_ _ t0 _] := eA.
have n0 : (0 < n)%N by exact: leq_trans ln.
have th1 : 0 <= th / (1 - e) ^+ 2 by rewrite divr_ge0 ?sqr_ge0 // ltW.
pose F1 := tailw U rk (\col_i Num.sqrt (t i 0)) *m pw U t np.
pose F2 := tailw U rk (const_mx 1) *m pw U t np.
have FV c : tailw U rk c *m pw U t np *m V = 0 by rewrite (tailw_pw eA) (tailV eA rn).
have W := gauss_wmom_tall mE rok [::] un n4 l0 ln.
have [B [EB HB]] := sketch_event2 mE pE (lexx 0) e01 th0 (oV eA rn) (FV _ : F1 *m V = 0) (FV _ : F2 *m V = 0) W.
exists B; split=> // g es /HB[X]; set S := outmat _ _ _ => -[VX b1 b2].
have [s1 Ed] := draw_gauss rok g es n0 l0.
have [s' [Y [Wm [EY KE]]]] := RS1_sym np sA (orth_stab qrL) (isT : 0 < 1 :> int) l0 ln Ed.
have [h0 h1] := tail_leak eA rn sg0 lo hi VX th1 b1.
have [_ h2] := tail_leak eA rn sg0 lo hi VX th1 b2.
exists s', Y, (Wm *m X *m diag_mx (\row_(i < rk) (topv t rk i 0 ^- np)) *m V^T).
have SME : Y *m (Wm *m X *m diag_mx (\row_(i < rk) (topv t rk i 0 ^- np)) *m V^T) =
    pw U t np *m S *m X *m diag_mx (\row_(i < rk) (topv t rk i 0 ^- np)) *m V^T.
  by rewrite -(iter_pw eA) KE !mulmxA.
rewrite SME; split=> //.
  by move/eqP: h0; rewrite mulmxBr mulmx1 subr_eq0 => /eqP <-.
move=> nu nu0; rewrite -(rootKK eA nu0).
have -> : forall K Z : 'M[R]_n, \tr (Z^T *m (K^T *m K) *m Z) = fro2 (K *m Z).
  by move=> K Z; rewrite (fro2_tr (K *m Z)) trmx_mul !mulmxA.
rewrite (rootK_tailw eA rn nu0 h0); apply: le_trans (ler_add h1 (ler_wpmul2l nu0 h2)) _.
rewrite !(tailw_norm eA) [nu * (_ * _)]mulrCA -mulrDr; rewrite le_eqVlt; apply/orP; left; apply/eqP; congr (_ * _).
rewrite big_split /=; congr (_ + _); first by apply: eq_bigr => i _; rewrite mxE sqr_sqrtr.
by rewrite mulr_sumr; apply: eq_bigr => i _; rewrite mxE expr1n mulr1.
Qed.

(** Bound on the error of a returned decomposition with [c] pairs, regularisation [nu]. *)
Definition evd2_bound (k : nat) (nu : R) c (Vs : 'M[R]_(n, c)) (lam : 'cV[R]_c) : Prop :=
  let err := (1 + (sg / tau) ^+ (2 * np) * (th / (1 - e) ^+ 2)) * \sum_(i < n | (rk <= i)%N) (t i 0 + nu) in
  [/\ (c <= k)%N, orthonormal Vs,
      fro (A - Vs *m diag_mx lam^T *m Vs^T) <= err + \sum_(i < n | (c <= i)%N) t i 0 + 2%:R * n%:R * nu &
      (c < k)%N -> forall i : 'I_n, i = c :> nat ->
        fro (A - Vs *m diag_mx lam^T *m Vs^T) <= err + t i 0 + 2%:R * n%:R * nu].

Lemma evd2_bound_le k nu nu' c (Vs : 'M[R]_(n, c)) (lam : 'cV[R]_c) : nu <= nu' ->
  evd2_bound k nu Vs lam -> evd2_bound k nu' Vs lam.
Proof using th0 e01.
move=> le; case=> ck oV h1 h2.
have a : 2%:R * n%:R * nu <= 2%:R * n%:R * nu' by rewrite ler_wpmul2l // mulr_ge0 ?ler0n.
have b : (1 + (sg / tau) ^+ (2 * np) * (th / (1 - e) ^+ 2)) * (\sum_(i < n | (rk <= i)%N) (t i 0 + nu)) <=
    (1 + (sg / tau) ^+ (2 * np) * (th / (1 - e) ^+ 2)) * (\sum_(i < n | (rk <= i)%N) (t i 0 + nu')).
  rewrite ler_wpmul2l //; last by apply: ler_sum => i _; rewrite ler_add2l.
  rewrite addr_ge0 ?ler01 // mulr_ge0 ?divr_ge0 ?sqr_ge0 ?(ltW th0) //.
  by rewrite exprn_even_ge0 // oddM.
split=> //; first by apply: le_trans h1 _; rewrite !ler_add.
by move=> cl i ic; apply: le_trans (h2 cl i ic) _; rewrite !ler_add.
Qed.

Variables (k over : int) (l : nat).
Hypotheses (kn : 0 < k < n%:Z) (lE : l%:Z = k + over) (ln : (l <= n)%N) (l0 : (0 < l)%N).
Hypotheses (un : uncorrelated E r n l) (n4 : normal4 E r n l).

Lemma evd2_prob : exists B : G -> bool,
    E (fun g => (~~ B g)%:R) <= (rk * rk + rk)%:R / (l%:R * e ^+ 2) + (2 * rk)%:R / (l%:R * th) /\
  forall g es, B g -> exists s1 (S : 'M[R]_(n, l)),
    rs (ofmx A) l (St g es) = (s1, inr (PyArr (ofmx S))) /\
    forall s' c (Vs : 'M[R]_(n, c)) (lam : 'cV[R]_c),
      evd2 L r (ofmx A) k over np.+1%:Z RGen (St g es) = (s', inr (ofmx Vs, ofcv lam)) ->
      evd2_bound (absz k) (Num.sqrt n%:R * 2%:R ^- 52 * fro (A *m S)) Vs lam.
Proof using mE pE rok qrL eA rn sg0 lo hi e01 th0 svdL kn lE ln l0 un n4.
have [B [EB HB]] := nys_event l0 ln un n4; exists B; split=> // g es Bg; have [s1 [S [M [Es _ lk]]]] := HB g es Bg.
exists s1, S; split=> // s' c Vs lam.
rewrite /evd2 bind_passertT /= (_ : np.+1%:Z - 1 = np%:Z) //; last by lia.
have ko : 0 <= k + over by rewrite -lE.
have Es' : rs (ofmx A) (absz (k + over)) (St g es) = (s1, inr (PyArr (ofmx S))) by rewrite -lE.
move=> Ev; have [h1 h2 _ h3] := EVD2_trace svdL M eA kn ko l0 Es' Ev.
have nu0 := evd2_nu_ge0 A S; have {}lk := lk _ nu0.
have [oV _ _ _] := EVD2_under svdL kn ko Es' psd_eig_psd l0 Ev.
split=> //; first by apply: le_trans h2 _; rewrite !ler_add2r.
by move=> cl i ic; apply: le_trans (h3 cl i ic) _; rewrite !ler_add2r.
Qed.

(** With at least one power pass the sketch is orthonormal and evd2 returns. *)
Lemma evd2_prob_passes : (0 < np)%N -> (0 < rk)%N -> k <= l%:Z -> exists B : G -> bool,
    E (fun g => (~~ B g)%:R) <= (rk * rk + rk)%:R / (l%:R * e ^+ 2) + (2 * rk)%:R / (l%:R * th) /\
  forall g es, B g -> exists c (Vs : 'M[R]_(n, c)) (lam : 'cV[R]_c),
    (evd2 L r (ofmx A) k over np.+1%:Z RGen (St g es)).2 = inr (ofmx Vs, ofcv lam) /\
    evd2_bound (absz k) (Num.sqrt n%:R * 2%:R ^- 52 * fro A) Vs lam.
Proof using mE pE rok qrL eA rn sg0 lo hi e01 th0 svdL kn lE ln l0 un n4.
move=> np0 rk0 kl.
have [B [EB HB]] := nys_event l0 ln un n4; exists B; split=> // g es Bg; have [s1 [S [M [Es VS lk]]]] := HB g es Bg.
have ln' : (l <= minn n n)%N by rewrite minnn.
have oS := RS1_orth qrL rok np0 l0 ln' Es.
have ko : 0 <= k + over by rewrite -lE.
have Es' : rs (ofmx A) (absz (k + over)) (St g es) = (s1, inr (PyArr (ofmx S))) by rewrite -lE.
have AS : A *m S != 0.
  apply/eqP => AS0; have [tau0 h] := hi np0.
  have := congr1 (fun Z => V^T *m (Z *m M)) AS0; rewrite mul0mx mulmx0 -mulmxA mulmxA.
  have -> : V^T *m A = diag_mx (topv t rk)^T *m V^T.
    have := pwV eA rn 1; have -> : pw U t 1 = A.
      case: (eA) => _ {1}-> _ _; rewrite /pw; congr (_ *m diag_mx _ *m _); by apply/rowP => i; rewrite !mxE expr1.
    have -> : topv (\col_i t i 0 ^+ 1) rk = topv t rk.
      by apply/colP=> i; rewrite !(topvE _ (leq_trans (ltn_ord i) rn)) mxE expr1.
    by move=> hh; rewrite -[LHS]trmxK [(V^T *m A)^T]trmx_mul trmxK (psd_eig_sym eA) hh trmx_mul tr_diag_mx.
  rewrite -mulmxA VS => z; have := congr1 (fun Z => Z *m V) z; rewrite mul0mx -mulmxA (oV eA rn) mulmx1 => z'.
  have := congr1 (fun Z : 'M[R]_rk => Z (Ordinal rk0) (Ordinal rk0)) z'.
  rewrite [LHS]mxE eqxx mulr1n [_^T _ _]mxE [RHS]mxE => /eqP; rewrite (@topvE _ _ _ _ (Ordinal rk0) (leq_trans rk0 rn)) gt_eqF //.
  by apply: lt_le_trans tau0 _; apply: h.
have rS : \rank S = l by exact: orthonormal_rank.
have [_ h] := EVD2_result (tol := None) (s := St g es) svdL (psd_eig_sym eA) kn ko l0 erefl Es'.
have kl' : (absz k <= l)%N by move: kl kn; clear; lia.
have [_ /(_ kl') [c [Vs [lam [Ev res]]]]] := h (evd2_spd psd_eig_psd rS AS).
exists c, Vs, lam; rewrite /evd2 bind_passertT /= (_ : np.+1%:Z - 1 = np%:Z); last by lia.
split; first by rewrite [LHS](congr1 snd Ev).
have [h1 h2 _ h3] := EVD2_trace svdL M eA kn ko l0 Es' Ev.
have nu0 := evd2_nu_ge0 A S; have {}lk := lk _ nu0.
apply: (@evd2_bound_le _ (evd2_nu A S)).
  rewrite /evd2_nu ler_wpmul2l //; first by rewrite mulr_ge0 ?sqrtr_ge0 // invr_ge0 exprn_ge0 ?ler0n.
  rewrite /fro ler_wsqrtr // -fro2_trmx trmx_mul; apply: le_trans (fro2_proj _ oS) _.
  by rewrite fro2_trmx.
split=> //; first exact: e2_orth res.
  by apply: le_trans h2 _; rewrite !ler_add2r.
by move=> cl i ic; apply: le_trans (h3 cl i ic) _; rewrite !ler_add2r.
Qed.
End Evd2Prob.

(** Witness *)
Lemma nys_wit_fail (R : rcfType) :
  (1 * 1 + 1)%:R / (8%:R * (9%:R / 10%:R) ^+ 2) + (2 * 1)%:R / (8%:R * 2%:R) < 2%:R^-1 :> R.
Proof.
have -> : (2 * 1)%:R / (8%:R * 2%:R) = 1%:R / (8%:R * 1) :> R.
  by rewrite muln1 mulr1 [8%:R * _]mulrC invfM mulrA divff ?pnatr_eq0.
exact: wit_fail.
Qed.
Lemma nys_wit_err (R : rcfType) :
  (2%:R^-1 / 1) ^+ (2 * 8) * (2%:R / (1 - 9%:R / 10%:R) ^+ 2) < 1 :> R.
Proof.
have t0 : 10%:R != 0 :> R by rewrite pnatr_eq0.
have -> : 1 - 9%:R / 10%:R = 10%:R^-1 :> R.
  by apply: (mulIf t0); rewrite mulrBl divfK // mulVf // mul1r -natrB.
rewrite divr1 !exprVn invrK -!natrX.
have p : 0 < (2 ^ (2 * 8))%:R :> R by rewrite ltr0n.
by rewrite ltr_pdivr_mull // mulr1 -natrM ltr_nat.
Qed.
Lemma nys_wit (R : rcfType) :
  let t : 'cV[R]_8 := \col_i (if i == 0 then 1 else 2%:R^-1) in
  [/\ psd_eig (diag_mx t^T) 1%:M t, (forall i : 'I_8, (1 <= i)%N -> t i 0 <= 2%:R^-1) &
      (0 < 1 :> R) /\ forall i : 'I_8, (i < 1)%N -> 1 <= t i 0].
Proof.
move=> t; have tE (i : 'I_8) : t i 0 = if i == 0%N :> nat then 1 else 2%:R^-1 by rewrite mxE.
have h1 : (2%:R^-1 : R) <= 1 by rewrite invf_le1 ?ltr0n // ler1n.
split; first split.
- exact: ortho1.
- by rewrite mul1mx trmx1 mulmx1.
- by move=> i; rewrite tE; case: ifP => _; rewrite ?invr_ge0 ?ler0n ?ler01.
- by move=> i j ij; rewrite !tE; case i0: (i == 0%N :> nat); case j0: (j == 0%N :> nat) => //; move: ij; rewrite (eqP j0) leqn0 i0.
- by move=> i; rewrite tE; case: eqP => [->|].
by split=> [|i]; rewrite ?ltr01 // tE ltnS leqn0 => ->.
Qed.
