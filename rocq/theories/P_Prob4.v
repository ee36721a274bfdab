(** Proofs of C98: the interpolative decompositions with their own Gaussian sketches. *)
From mathcomp Require Import all_ssreflect all_algebra.
From mathcomp Require Import zify.
From Verif Require Import Base Arr Lapack Exact MxLib RingTac LapackSpec LapackExists Rng Aware RangeFinders QB Interp.
From Verif Require Import P_RS1 P_QB2 P_RF P_QBx P_Svd Sel P_Opt P_Opt2 Sketching P_Sketch2 P_Interp P_Interp2 P_Interp3 P_Interp4 F_Interp.
From Verif Require Import P_Iso P_LS2 P_Embed P_Embed2 P_Embed3 P_Prob P_Prob2 P_Prob3.
Set Implicit Arguments.
Unset Strict Implicit.
Unset Printing Implicit Defensive.
Import Order.TTheory GRing.Theory Num.Theory.
Local Open Scope ring_scope.

Section Ev.
Variables (R : rcfType) (G : Type) (E : (G -> R) -> R).
Hypotheses (mE : mean E) (pE : positive E).

(** Size of a sketched matrix. *)
Lemma sketch_size n l m (S : G -> 'M[R]_(n, l)) (F : 'M[R]_(m, n)) u :
  0 < u -> (forall i j, E (fun g => (S g *m (S g)^T) i j) = (i == j)%:R) ->
  E (fun g => (~~ (fro2 (F *m S g) <= u * fro2 F))%:R) <= u^-1.
Proof using mE pE.
move=> u0 iso; pose f g := fro2 (F *m S g).
have M3 : E f = fro2 F.
  transitivity (E (fun g => \sum_i \sum_j \sum_j' F i j * F i j' * (S g *m (S g)^T) j j')).
    apply: (mean_ext mE) => g; rewrite /f fro2_tr trmx_mul.
    have -> : \tr ((S g)^T *m F^T *m (F *m S g)) = \tr (F *m (S g *m (S g)^T) *m F^T).
      by rewrite mxtrace_mulC !mulmxA.
    apply: eq_bigr => i _; rewrite mxE exchange_big /=; apply: eq_bigr => j _.
    rewrite [in LHS]mxE mulr_suml; apply: eq_bigr => j' _; rewrite [_^T _ _]mxE.
    by rewrite mulrAC.
  rewrite (mean_sum mE) [fro2 F]fro2_tr mxtrace_mulC; apply: eq_bigr => i _.
  rewrite (mean_sum mE) mxE; apply: eq_bigr => j _; rewrite (mean_sum mE) [_^T _ _]mxE.
  rewrite (bigD1 j) //= big1 ?addr0 => [|j' nj]; rewrite (mean_scale mE) iso ?eqxx ?mulr1 //.
  by rewrite eq_sym (negbTE nj) mulr0.
change (E (fun g => (~~ (f g <= u * fro2 F))%:R) <= u^-1).
have [F0|F0] := eqVneq F 0.
  have -> : E (fun g => (~~ (f g <= u * fro2 F))%:R) = 0.
    rewrite -(mean_const mE 0); apply: (mean_ext mE) => g.
    by rewrite /f F0 !mul0mx !fro20 mulr0 lexx.
  by rewrite invr_ge0 ltW.
have fF : 0 < fro2 F by rewrite lt_def fro2_ge0 fro2_eq0 F0.
apply: le_trans (markov mE pE _ _) _; rewrite ?mulr_gt0 //; first by move=> g; exact: fro2_ge0.
by rewrite M3 invfM mulrCA divff ?mulr1 ?gt_eqF.
Qed.

(** [sketch_event] together with the size of the sketched tail. *)
Lemma sketch_event0 n l k m (S : G -> 'M[R]_(n, l)) (V : 'M[R]_(n, k)) (F : 'M[R]_(m, n)) s e t u :
  0 <= s -> 0 < e < 1 -> 0 < t -> 0 < u -> orthonormal V -> F *m V = 0 ->
  wmom E l s (fun g => S g *m (S g)^T - 1%:M) ->
  (forall i j, E (fun g => (S g *m (S g)^T) i j) = (i == j)%:R) ->
  exists B : G -> bool,
    E (fun g => (~~ B g)%:R) <= (k * k + k)%:R / (l%:R * e ^+ 2) + k%:R / (l%:R * t) + u^-1 /\
  forall g, B g -> exists X : 'M[R]_(l, k),
    [/\ V^T *m S g *m X = 1%:M, fro2 (F *m S g *m X) <= t / (1 - e) ^+ 2 * fro2 F,
        forall v : 'cV[R]_l, fro2 (X^T *m v) <= (1 - e)^-1 * fro2 v & fro2 (F *m S g) <= u * fro2 F].
Proof using mE pE.
move=> s0 e01 t0 u0 oV FV HW iso.
have [B [EB HB]] := sketch_event mE pE s0 e01 t0 oV FV HW.
pose f g := fro2 (F *m S g).
have P3 : E (fun g => (~~ (f g <= u * fro2 F))%:R) <= u^-1 by exact: sketch_size.
exists (fun g => B g && (f g <= u * fro2 F)); split; last first.
  by move=> g /andP[/HB[X [h1 h2 h3]] h4]; exists X.
apply: le_trans (_ : E (fun g => (~~ B g)%:R + (~~ (f g <= u * fro2 F))%:R) <= _).
  apply: (mean_le mE pE) => g; rewrite negb_and.
  by case: (B g); case: (f g <= _); rewrite /= ?addr0 ?add0r ?ler_addl ?ler01.
by rewrite (mean_add mE) ler_add.
Qed.
End Ev.

Section IdEvent.
Variables (R : rcfType) (G : Type) (E : (G -> R) -> R) (L : lapack R) (r : rng_ops G R).
Hypotheses (mE : mean E) (pE : positive E) (rok : rng_ok r) (qrL : qr_spec L).

(** The sketch of [A] supports a rank-[k] interpolative decomposition with error below [bd];
    if [full] holds it has rank at least [k]. *)
Definition id_sketch m n (A : 'M[R]_(m, n)) k l (rso : arr R -> nat -> M G R (pyop R)) (s : st G R) (bd : R)
    (full : Prop) : Prop :=
  exists s1 (Y : 'M[R]_(n, l)) (Z : 'M[R]_(l, n)) z (W : 'M[R]_(m, l)),
  [/\ rso (ofmx A) l s = (s1, inr (PyArr (ofmx Y))), full -> (k <= \rank (A *m Y))%N,
      0 <= z /\ (forall v : 'cV[R]_l, fro2 (Z^T *m v) <= z * fro2 v), (\rank W <= k)%N &
      (4%:R ^+ k + 2%:R) * fro2 (A - A *m Y *m Z) + z * ((2%:R * 4%:R ^+ k + 1) * fro2 (A *m Y - W)) <= bd].

Definition id_err q (t : 'cV[R]_q) (rk k np : nat) (sg tau e th u : R) : R :=
  ((4%:R ^+ k + 2%:R) * (1 + (sg / tau) ^+ (2 * np.-1) * (th / (1 - e) ^+ 2)) +
   (2%:R * 4%:R ^+ k + 1) * (if np == 0%N then u / (1 - e) else 1)) * \sum_(i < q | (rk <= i)%N) t i 0 ^+ 2.
Definition id_fail (rk l np : nat) (e th u : R) : R := fail_prob rk l e th + (if np == 0%N then u^-1 else 0).

Lemma pow4_ge0 k : 0 <= 4%:R ^+ k + 2%:R :> R.
Proof. by rewrite addr_ge0 ?exprn_ge0 ?ler0n. Qed.
Lemma pow24_ge0 k : 0 <= 2%:R * 4%:R ^+ k + 1 :> R.
Proof. by rewrite addr_ge0 ?mulr_ge0 ?exprn_ge0 ?ler0n ?ler01. Qed.

(** Rank of the sketch from the leading invariant subspace. *)
Lemma lead_rank m n l k (A : 'M[R]_(m, n)) (Y : 'M[R]_(n, l)) (V : 'M[R]_(n, k)) (D : 'M[R]_k) (X : 'M[R]_(l, k)) :
  A^T *m (A *m V) = V *m D -> V^T *m Y *m X = 1%:M -> D^T \in unitmx -> (k <= \rank (A *m Y))%N.
Proof.
move=> VD VX uD.
have H : (A *m V)^T *m (A *m Y) *m X = D^T.
  have -> : (A *m V)^T *m (A *m Y) = (V *m D)^T *m Y by rewrite -VD !trmx_mul trmxK !mulmxA.
  by rewrite trmx_mul -[D^T *m V^T *m Y]mulmxA -[_ *m X]mulmxA VX mulmx1.
have := mxrankM_maxl ((A *m V)^T *m (A *m Y)) X; rewrite H mxrank_unit // => h.
by apply: leq_trans h _; exact: mxrankM_maxr.
Qed.

Lemma id_event0 m n l q rk k (A : 'M[R]_(m, n)) (U : 'M[R]_(m, q)) (t : 'cV[R]_q) (Vh : 'M[R]_(q, n)) sg tau e th u :
  (0 < l)%N -> (l <= minn m n)%N -> (rk <= k)%N -> uncorrelated E r n l -> normal4 E r n l ->
  sing_split A U t Vh rk 0 sg tau -> 0 < e < 1 -> 0 < th -> 0 < u ->
  exists B : G -> bool, E (fun g => (~~ B g)%:R) <= id_fail rk l 0 e th u /\
  forall g es, B g -> id_sketch A k l (RS1 (skopGA r) 0 (orth L) 1) (St g es) (id_err t rk k 0 sg tau e th u)
    (rk = k /\ forall i : 'I_q, (i < rk)%N -> t i 0 != 0).
Proof using mE pE rok qrL.
move=> l0 lmn rkk un n4 [AE oU oVh rq _] e01 th0 u0.
have [V [U1 []]] := svd_top AE oU oVh rq; cbv zeta.
set D := diag_mx _; set F := A - _ => oV oU1 AV AU [FV FU F2 _].
have ln : (l <= n)%N by move: lmn; rewrite leq_min => /andP[].
have n0 : (0 < n)%N by exact: leq_trans ln.
have W := gauss_wmom_tall mE rok [::] un n4 l0 ln.
have [_ iso] := gauss_iso mE rok [::] un n0 l0; have {}iso := iso ln.
have [B [EB HB]] := sketch_event0 mE pE (lexx 0) e01 th0 u0 oV FV W iso.
exists B; split=> // g es /HB {HB EB}; set S := outmat _ _ _ => -[X [VX Fl zX Fs]].
have e1 : 0 < 1 - e by rewrite subr_gt0; case/andP: e01.
have [s1 Ed] := draw_gauss rok g es n0 l0.
have EY' : RS1 (skopGA r) 0 (orth L) 1 (ofmx A) l (St g es) = (s1, inr (PyArr (ofmx S))).
  by rewrite /RS1 bind_passertT /= (bindE _ Ed).
exists s1, S, (X *m V^T), (1 - e)^-1, (A *m V *m V^T *m S); split=> //.
- case=> rkE nz; rewrite -rkE; apply: (lead_rank (D := D *m D) _ VX); first by rewrite AV mulmxA AU mulmxA.
  rewrite trmx_mul tr_diag_mx unitmx_mul andbb unitmxE det_diag unitfE prodf_seq_neq0; apply/allP => i _ /=.
  by rewrite mxE (topvE _ (leq_trans (ltn_ord i) rq)); apply: nz => /=.
- split=> [|v]; first by rewrite invr_ge0 ltW.
  by rewrite trmx_mul trmxK -mulmxA fro2_ortho.
- apply: leq_trans rkk; rewrite -!mulmxA mulmxA; apply: leq_trans (mxrankM_maxl _ _) _; exact: rank_leq_col.
have -> : A *m S - A *m V *m V^T *m S = F *m S by rewrite -mulmxBl.
have -> : fro2 (A - A *m S *m (X *m V^T)) = fro2 F + fro2 (F *m S *m X).
  have -> : A - A *m S *m (X *m V^T) = F - F *m S *m X *m V^T.
    have -> : F *m S *m X *m V^T = A *m S *m X *m V^T - A *m V *m V^T.
      rewrite /F !mulmxBl; congr (_ - _); rewrite -!mulmxA; congr (_ *m (_ *m _)).
      by rewrite !mulmxA VX mul1mx.
    by rewrite opprB /F addrA subrK mulmxA.
  rewrite fro2B; have -> : fip F (F *m S *m X *m V^T) = 0.
    by rewrite /fip mulmxA mxtrace_mulC [V^T *m (_ *m _)]mulmxA -trmx_mul FV trmx0 mul0mx raddf0.
  rewrite mulr0 subr0; congr (_ + _); move: (F *m S *m X) => N.
  by rewrite -(fro2_trmx (N *m V^T)) trmx_mul trmxK fro2_ortho // fro2_trmx.
rewrite /id_err /= (muln0 2%N) expr0 mul1r -F2 [X in _ <= X]mulrDl -[X in _ <= X + _]mulrA ler_add //.
  by rewrite ler_wpmul2l ?pow4_ge0 // mulrDl mul1r ler_add2l.
rewrite mulrCA -[X in _ <= X]mulrA ler_wpmul2l ?pow24_ge0 //.
by rewrite [u / _]mulrC -mulrA ler_pmul2l ?invr_gt0.
Qed.

Lemma id_eventS m n l q rk k np (A : 'M[R]_(m, n)) (U : 'M[R]_(m, q)) (t : 'cV[R]_q) (Vh : 'M[R]_(q, n)) sg tau e th u :
  (0 < l)%N -> (l <= minn m n)%N -> (rk <= k)%N ->
  uncorrelated E r (if odd np then n else m) l -> normal4 E r (if odd np then n else m) l ->
  sing_split A U t Vh rk np sg tau -> 0 < e < 1 -> 0 < th ->
  exists B : G -> bool, E (fun g => (~~ B g)%:R) <= id_fail rk l np.+1 e th u /\
  forall g es, B g -> id_sketch A k l (RS1 (skopGA r) np.+1%:Z (orth L) 1) (St g es)
    (id_err t rk k np.+1 sg tau e th u)
    (rk = k /\ forall i : 'I_q, (i < rk)%N -> t i 0 != 0).
Proof using mE pE rok qrL.
move=> l0 lmn rkk un n4 [AE oU oVh rq [sg0 lo hi]] e01 th0.
have AE' : A^T = Vh^T *m diag_mx t^T *m U^T by rewrite AE !trmx_mul tr_diag_mx !mulmxA.
have oU' : orthonormal U^T^T by rewrite trmxK.
have lnm : (l <= minn n m)%N by rewrite minnC.
have [V [D []]] := gauss_krylov mE pE rok l0 lnm un n4 AE' oVh oU' rq sg0 lo hi e01 th0.
cbv zeta; set F := A^T - _; rewrite trmxK => oV VD uD F2 [B [EB HB]].
exists B; split; first by rewrite /id_fail addr0.
move=> g es /HB {HB EB}; set X0 := outmat _ _ _; set K := krylov _ _ _ => -[Z [ZE Zb]].
have d0 : (0 < (if odd np then n else m))%N by case: (odd np); lia.
have [s1 Ed] := draw_gauss rok g es d0 l0; rewrite -/X0 in Ed.
have [s' [Y [Wm [EY KE]]]] : exists s' (Y : 'M[R]_(n, l)) (Wm : 'M[R]_l),
    RS1 (skopGA r) np.+1%:Z (orth L) 1 (ofmx A) l (St g es) = (s', inr (PyArr (ofmx Y))) /\ A^T *m K = Y *m Wm.
  have kr (j : nat) c (X : 'M[R]_(m, c)) : A^T *m krylov A^T j X = krylov A j (A^T *m X).
    by rewrite /krylov trmxK; elim: j => //= j ->.
  rewrite /K {K ZE Zb}; move: X0 Ed d0; rewrite /kstart; case: (boolP (odd np)) => o X0 Ed d0; cbv beta.
    have o1 : ~~ odd np.+1 by rewrite /= o.
    have [s' [Y [Wm [EY KE _]]]] := RS1_even A (orth_stab qrL) (ltr01 : 0 < 1 :> int) o1 l0 lmn Ed.
    exists s', Y, Wm; split=> //; rewrite kr -KE trmxK.
    have -> : (np.+1 %/ 2 = (np %/ 2).+1)%N by lia.
    by rewrite /krylov iterSr.
  have [s' [Y [Wm [EY KE _]]]] := RS1_odd A (orth_stab qrL) (ltr01 : 0 < 1 :> int) (o : odd np.+1) l0 lmn Ed.
  exists s', Y, Wm; split=> //; rewrite kr -KE.
  by have -> : (np.+1 %/ 2 = np %/ 2)%N by lia.
have oY : orthonormal Y by exact: RS1_orth EY.
exists s', Y, Y^T, 1, (V *m V^T *m A *m Y); split=> //.
- case=> rkE nz; rewrite -rkE.
  have uD' : D^T \in unitmx by rewrite unitmx_tr; exact: uD.
  have H : V^T *m (A *m Y) *m (Wm *m Z) = D^T.
    have -> : V^T *m (A *m Y) *m (Wm *m Z) = V^T *m A *m (Y *m Wm) *m Z by rewrite !mulmxA.
    have -> : V^T *m A *m (Y *m Wm) = (V *m D)^T *m K by rewrite -KE -VD !trmx_mul trmxK !mulmxA.
    by rewrite trmx_mul -[D^T *m V^T *m K]mulmxA -[_ *m Z]mulmxA ZE mulmx1.
  have := mxrankM_maxl (V^T *m (A *m Y)) (Wm *m Z); rewrite H mxrank_unit // => h.
  by apply: leq_trans h _; exact: mxrankM_maxr.
- by split=> [|v]; rewrite ?ler01 // trmxK fro2_ortho // mul1r.
- apply: leq_trans rkk; rewrite -!mulmxA; apply: leq_trans (mxrankM_maxl _ _) _; exact: rank_leq_col.
have FE : F^T = A - V *m V^T *m A by rewrite /F linearB /= !trmx_mul !trmxK mulmxA.
have b1 : fro2 (A - A *m Y *m Y^T) <= (1 + (sg / tau) ^+ (2 * np) * (th / (1 - e) ^+ 2)) * fro2 F.
  have := sketch_bound oY KE oV ZE; rewrite -/F => b.
  have -> : fro2 (A - A *m Y *m Y^T) = fro2 (A^T - Y *m (Y^T *m A^T)).
    by rewrite -fro2_trmx linearB /= !trmx_mul !trmxK.
  by apply: le_trans b _; rewrite mulrDl mul1r ler_add2l.
have b2 : fro2 (A *m Y - V *m V^T *m A *m Y) <= fro2 F.
  rewrite -mulmxBl -FE -fro2_trmx trmx_mul trmxK; exact: fro2_proj.
rewrite mul1r /id_err /= -F2 mulr1 [X in _ <= X]mulrDl -[X in _ <= X + _]mulrA.
by rewrite ler_add // ler_wpmul2l ?pow4_ge0 ?pow24_ge0.
Qed.
End IdEvent.

(** ** The classes *)
Section Cls.
Variables (R : rcfType) (G : Type) (L : lapack R).
Hypotheses (qrpL : qrp_spec L) (lsL : lstsq_spec L).
Variables (rso : arr R -> nat -> M G R (pyop R)) (k l : nat) (over : int) (s : st G R) (bd : R) (full : Prop).
Hypotheses (k0 : (0 < k)%N) (l0 : (0 < l)%N) (lE : l%:Z = k%:Z + over).

Lemma over_ge0 : 0 <= k%:Z + over. Proof using lE. by rewrite -lE. Qed.
Lemma over_abs : absz (k%:Z + over) = l. Proof using lE. by rewrite -lE. Qed.

Lemma OSID1_row_sk m n (A : 'M[R]_(m, n)) : (0 < m)%N -> id_sketch A k l rso s bd full ->
  (exists s1 (Z : 'M[R]_(m, k)) I,
    [/\ OSID1 L rso (ofmx A) k over 0 s = (s1, inr (ofmx Z, I)), skeleton m k I, \rank (rowsel A I k) = k &
        3%:R * fro2 (A - Z *m rowsel A I k) <= 2%:R * (m - k)%:R * bd]) \/
  (~ full /\ exists s1 e, OSID1 L rso (ofmx A) k over 0 s = (s1, inl e)).
Proof using qrpL k0 l0 lE.
move=> m0 [s1 [Y [P [z [W [EY rY [z0 zP] rW le]]]]]].
have EY' : rso (ofmx A) (absz (k%:Z + over)) s = (s1, inr (PyArr (ofmx Y))) by rewrite over_abs.
have := OSID1_row qrpL k0 m0 l0 over_ge0 EY'; case: ifP => rk.
  case=> Z [I [E1 rid]]; left; eexists _, Z, I; split; first exact: E1.
  - by split; [exact: ci_size rid | exact: ci_uniq rid | exact: ci_inb rid].
  - apply/eqP; rewrite eqn_leq rank_leq_row -{1}(ci_rank rid) -tr_rowsel mxrank_tr rowsel1E mulmxA -rowsel1E.
    exact: mxrankM_maxl.
  apply: le_trans (osid1_over_row qrpL k0 m0 l0 over_ge0 EY' E1 z0 zP rW) _.
  by rewrite ler_wpmul2l // mulr_ge0 ?ler0n.
by case=> e Ee; right; split; [move/rY; rewrite rk | eexists _, e; exact: Ee].
Qed.

Lemma OSID1_col_sk m n (A : 'M[R]_(m, n)) : (0 < n)%N -> id_sketch A^T k l rso s bd full ->
  (exists s1 (X : 'M[R]_(k, n)) J,
    [/\ OSID1 L rso (ofmx A) k over 1 s = (s1, inr (ofmx X, J)), skeleton n k J, \rank (colsel A J k) = k &
        3%:R * fro2 (A - colsel A J k *m X) <= 2%:R * (n - k)%:R * bd]) \/
  (~ full /\ exists s1 e, OSID1 L rso (ofmx A) k over 1 s = (s1, inl e)).
Proof using qrpL k0 l0 lE.
move=> n0 [s1 [Y [P [z [W [EY rY [z0 zP] rW le]]]]]].
have EY' : rso (ofmx A^T) (absz (k%:Z + over)) s = (s1, inr (PyArr (ofmx Y))) by rewrite over_abs.
have := OSID1_col qrpL k0 n0 l0 over_ge0 EY'; case: ifP => rk.
  case=> X [J [E1 cid]]; left; eexists _, X, J; split; first exact: E1.
  - by split; [exact: ci_size cid | exact: ci_uniq cid | exact: ci_inb cid].
  - apply/eqP; rewrite eqn_leq rank_leq_col -{1}(ci_rank cid) colsel1E -mulmxA -colsel1E; exact: mxrankM_maxr.
  have rW' : (\rank W^T <= k)%N by rewrite mxrank_tr.
  apply: le_trans (osid1_over_col qrpL k0 n0 l0 over_ge0 EY' E1 z0 zP rW') _.
  rewrite ler_wpmul2l ?mulr_ge0 ?ler0n //.
  rewrite -(fro2_trmx (A - _)) -(fro2_trmx (Y^T *m A - _)) !linearB /= !trmx_mul !trmxK.
  exact: le.
case=> e Ee; right; split; last by eexists _, e; exact: Ee.
by move/rY; rewrite -mxrank_tr trmx_mul trmxK rk.
Qed.

Lemma OSID2_row_sk m n (A : 'M[R]_(m, n)) : (0 < n)%N -> (k <= m)%N -> full -> id_sketch A k l rso s bd full ->
  exists s1 (Z : 'M[R]_(m, k)) I, OSID2 L rso (ofmx A) k over 0 s = (s1, inr (ofmx Z, I)) /\
    3%:R * fro2 (A - Z *m rowsel A I k) <= 2%:R * (m - k)%:R * bd.
Proof using qrpL lsL k0 l0 lE.
move=> n0 km fl H; have m0 : (0 < m)%N by exact: leq_trans km.
have [|[nf _]] := OSID1_row_sk m0 H; last by case: (nf fl).
case=> s1 [Z [I [E1 sk _ le]]]; case: H => s2 [Y [P [z [W [EY _ _ _ _]]]]].
have EY' : rso (ofmx A) (absz (k%:Z + over)) s = (s2, inr (PyArr (ofmx Y))) by rewrite over_abs.
have [s3 [Z2 [E2 le2]]] := osid2_not_worse_row qrpL lsL k0 km n0 l0 over_ge0 EY' E1.
by exists s3, Z2, I; split=> //; apply: le_trans le; rewrite ler_pmul2l ?ltr0n.
Qed.

Lemma OSID2_col_sk m n (A : 'M[R]_(m, n)) : (0 < m)%N -> (k <= n)%N -> full -> id_sketch A^T k l rso s bd full ->
  exists s1 (X : 'M[R]_(k, n)) J, OSID2 L rso (ofmx A) k over 1 s = (s1, inr (ofmx X, J)) /\
    3%:R * fro2 (A - colsel A J k *m X) <= 2%:R * (n - k)%:R * bd.
Proof using qrpL lsL k0 l0 lE.
move=> m0 kn fl H; have n0 : (0 < n)%N by exact: leq_trans kn.
have [|[nf _]] := OSID1_col_sk n0 H; last by case: (nf fl).
case=> s1 [X [J [E1 sk _ le]]]; case: H => s2 [Y [P [z [W [EY _ _ _ _]]]]].
have EY' : rso (ofmx A^T) (absz (k%:Z + over)) s = (s2, inr (PyArr (ofmx Y))) by rewrite over_abs.
have [s3 [X2 [E2 le2]]] := osid2_not_worse qrpL lsL k0 kn m0 l0 over_ge0 EY' E1.
by exists s3, X2, J; split=> //; apply: le_trans le; rewrite ler_pmul2l ?ltr0n.
Qed.

Lemma TSID1_sk m n (A : 'M[R]_(m, n)) :
  (0 < m)%N -> (0 < n)%N -> (if (n < m)%N then id_sketch A^T k l rso s bd full else id_sketch A k l rso s bd full) ->
  (exists s1 (Z : 'M[R]_(m, k)) I (X : 'M[R]_(k, n)) J,
    TSID1 L (OSID1 L rso) (ofmx A) k over s = (s1, inr (ofmx Z, I, ofmx X, J)) /\
    3%:R * fro2 (A - Z *m rowsel (colsel A J k) I k *m X) <= 2%:R * (minn m n - k)%:R * bd) \/
  (~ full /\ exists s1 e, TSID1 L (OSID1 L rso) (ofmx A) k over s = (s1, inl e)).
Proof using qrpL k0 l0 lE.
move=> m0 n0; case: (ltnP n m) => nm H.
  case: (OSID1_col_sk n0 H) => [[s1 [X [J [E1 [sJ uJ iJ] rC le]]]]|[nf [s1 [e E1]]]]; last first.
    by right; split=> //; exists s1, e; rewrite /TSID1 nc_ofmx nr_ofmx nm (bindE_err _ E1).
  left; case: (tsid1_tall_prop qrpL nm k0 sJ uJ iJ E1) => [[_ [Z [I [E2 _ _ ZE]]]]|[]]; last by rewrite rC ltnn.
  by exists s1, Z, I, X, J; rewrite ZE.
case: (OSID1_row_sk m0 H) => [[s1 [Z [I [E1 [sI uI iI] rC le]]]]|[nf [s1 [e E1]]]]; last first.
  by right; split=> //; exists s1, e; rewrite /TSID1 nc_ofmx nr_ofmx ltnNge nm /= (bindE_err _ E1).
left; case: (tsid1_wide_prop qrpL m0 nm k0 sI uI iI E1) => [[_ [X [J [E2 _ _ ZE]]]]|[]]; last by rewrite rC ltnn.
by exists s1, Z, I, X, J; rewrite ZE.
Qed.

Lemma CUR1_sk m n (A : 'M[R]_(m, n)) :
  (0 < m)%N -> (0 < n)%N -> (if (n < m)%N then id_sketch A^T k l rso s bd full else id_sketch A k l rso s bd full) ->
  (exists s1 J (U : 'M[R]_k) I,
    CUR1 L (OSID1 L rso) (ofmx A) k over s = (s1, inr (J, ofmx U, I)) /\
    9%:R * fro2 (A - colsel A J k *m U *m rowsel A I k) <=
    4%:R * (3%:R + (3%:R * k%:R + (maxn m n - k)%:R * (4%:R ^+ k - 1))) * ((minn m n - k)%:R * bd)) \/
  (~ full /\ exists s1 e, CUR1 L (OSID1 L rso) (ofmx A) k over s = (s1, inl e)).
Proof using qrpL lsL k0 l0 lE.
have fin (c x y b : R) : 0 <= c -> 3%:R * x <= 2%:R * c * y -> 3%:R * y <= 2%:R * b -> 9%:R * x <= 4%:R * c * b.
  move=> c0 h1 h2; have -> : 9%:R * x = 3%:R * (3%:R * x) by rewrite mulrA -natrM.
  apply: le_trans (ler_wpmul2l (ler0n R 3) h1) _.
  have -> : 4%:R * c * b = 2%:R * c * (2%:R * b) by rewrite mulrACA -natrM mulrA.
  by rewrite mulrCA ler_wpmul2l // mulr_ge0 ?ler0n.
have c0 j : 0 <= 3%:R + (3%:R * k%:R + j%:R * (4%:R ^+ k - 1)) :> R.
  apply: addr_ge0; first exact: ler0n.
  by apply: addr_ge0; apply: mulr_ge0; rewrite ?ler0n // subr_ge0 exprn_ege1 // ler1n.
move=> m0 n0; case: (ltnP n m) => nm H.
  case: (OSID1_col_sk n0 H) => [[s1 [X [J [E1 sk rC le]]]]|[nf [s1 [e E1]]]]; last first.
    by right; split=> //; exists s1, e; rewrite /CUR1 nc_ofmx nr_ofmx nm (bindE_err _ E1).
  left; have [U [I [E4 _ bnd]]] := CUR1_tall_err qrpL lsL nm k0 sk rC E1.
  by exists s1, J, U, I; split=> //; apply: fin bnd _ => //; rewrite mulrA.
case: (OSID1_row_sk m0 H) => [[s1 [Z [I [E1 sk rC le]]]]|[nf [s1 [e E1]]]]; last first.
  by right; split=> //; exists s1, e; rewrite /CUR1 nc_ofmx nr_ofmx ltnNge nm /= (bindE_err _ E1).
left; have [U [J [E4 _ bnd]]] := CUR1_wide_err qrpL lsL m0 nm k0 sk rC E1.
by exists s1, J, U, I; split=> //; apply: fin bnd _ => //; rewrite mulrA.
Qed.
End Cls.

(** ** The drivers *)
Lemma sing_split_tr (R : rcfType) m n q (A : 'M[R]_(m, n)) (U : 'M[R]_(m, q)) (t : 'cV[R]_q) (Vh : 'M[R]_(q, n))
    rk np sg tau : sing_split A U t Vh rk np sg tau -> sing_split A^T Vh^T t U^T rk np sg tau.
Proof. by case=> AE oU oV rq H; split=> //; rewrite ?trmxK // AE !trmx_mul tr_diag_mx !mulmxA. Qed.

Section DrvI.
Variables (R : rcfType) (G : Type) (E : (G -> R) -> R) (L : lapack R) (r : rng_ops G R).
Hypotheses (mE : mean E) (pE : positive E) (rok : rng_ok r) (qrL : qr_spec L) (qrpL : qrp_spec L).
Variables (m n q : nat) (A : 'M[R]_(m, n)) (U : 'M[R]_(m, q)) (t : 'cV[R]_q) (Vh : 'M[R]_(q, n)).
Variables (rk k l np : nat) (over : int) (sg tau e th u : R).
Hypotheses (spl : sing_split A U t Vh rk np.-1 sg tau) (e01 : 0 < e < 1) (th0 : 0 < th) (u0 : 0 < u).
Hypotheses (k0 : (0 < k)%N) (rkk : (rk <= k)%N) (l0 : (0 < l)%N) (lmn : (l <= minn m n)%N) (lE : l%:Z = k%:Z + over).
Local Notation full := (rk = k /\ forall i : 'I_q, (i < rk)%N -> t i 0 != 0).
Local Notation err := (id_err t rk k np sg tau e th u).
Local Notation rs := (RS1 (skopGA r) np%:Z (orth L) 1).
Local Notation law d := (uncorrelated E r d l /\ normal4 E r d l).

Lemma id_event m' n' (A' : 'M[R]_(m', n')) (U' : 'M[R]_(m', q)) (Vh' : 'M[R]_(q, n')) :
  sing_split A' U' t Vh' rk np.-1 sg tau -> (l <= minn m' n')%N -> law (if odd np then m' else n') ->
  exists B : G -> bool, E (fun g => (~~ B g)%:R) <= id_fail rk l np e th u /\
  forall g es, B g -> id_sketch A' k l rs (St g es) err full.
Proof using mE pE rok qrL e01 th0 u0 rkk l0.
case: np => [|p] /= sp lm [un n4]; first exact: (id_event0 mE pE rok qrL l0 lm rkk un n4 sp e01 th0 u0).
by rewrite !if_neg in un n4; exact: (id_eventS mE pE rok qrL u l0 lm rkk un n4 sp e01 th0).
Qed.

Lemma m_gt0 : (0 < m)%N.
Proof using l0 lmn. by apply: leq_trans l0 _; apply: leq_trans lmn _; exact: geq_minl. Qed.
Lemma n_gt0 : (0 < n)%N.
Proof using l0 lmn. by apply: leq_trans l0 _; apply: leq_trans lmn _; exact: geq_minr. Qed.

Lemma row_event : law (if odd np then m else n) ->
  exists B : G -> bool, E (fun g => (~~ B g)%:R) <= id_fail rk l np e th u /\
  forall g es, B g -> id_sketch A k l rs (St g es) err full.
Proof using mE pE rok qrL spl e01 th0 u0 rkk l0 lmn. exact: (id_event spl lmn). Qed.

Lemma col_event : law (if odd np then n else m) ->
  exists B : G -> bool, E (fun g => (~~ B g)%:R) <= id_fail rk l np e th u /\
  forall g es, B g -> id_sketch A^T k l rs (St g es) err full.
Proof using mE pE rok qrL spl e01 th0 u0 rkk l0 lmn.
have lnm : (l <= minn n m)%N by rewrite minnC.
exact: (id_event (sing_split_tr spl) lnm).
Qed.

Lemma osid1_row_prob : law (if odd np then m else n) ->
  exists B : G -> bool, E (fun g => (~~ B g)%:R) <= id_fail rk l np e th u /\
  forall g es, B g ->
    (exists (Z : 'M[R]_(m, k)) I, (osid1 L r (ofmx A) k over np.+1%:Z 0 RGen (St g es)).2 = inr (ofmx Z, I) /\
       3%:R * fro2 (A - Z *m rowsel A I k) <= 2%:R * (m - k)%:R * err) \/
    (~ full /\ exists x, (osid1 L r (ofmx A) k over np.+1%:Z 0 RGen (St g es)).2 = inl x).
Proof using mE pE rok qrL qrpL spl e01 th0 u0 k0 rkk l0 lmn lE.
move=> lw; have [B [EB HB]] := row_event lw; exists B; split=> // g es Bg.
have -> : osid1 L r (ofmx A) k over np.+1%:Z 0 RGen = OSID1 L rs (ofmx A) k over 0.
  by rewrite /osid1 /= (_ : np.+1%:Z - 1 = np%:Z) //; lia.
case: (OSID1_row_sk qrpL k0 l0 lE m_gt0 (HB g es Bg)) => [[s1 [Z [I [E1 _ _ le]]]]|[nf [s1 [x E1]]]].
  by left; exists Z, I; rewrite E1.
by right; split=> //; exists x; rewrite E1.
Qed.

Lemma osid1_col_prob : law (if odd np then n else m) ->
  exists B : G -> bool, E (fun g => (~~ B g)%:R) <= id_fail rk l np e th u /\
  forall g es, B g ->
    (exists (X : 'M[R]_(k, n)) J, (osid1 L r (ofmx A) k over np.+1%:Z 1 RGen (St g es)).2 = inr (ofmx X, J) /\
       3%:R * fro2 (A - colsel A J k *m X) <= 2%:R * (n - k)%:R * err) \/
    (~ full /\ exists x, (osid1 L r (ofmx A) k over np.+1%:Z 1 RGen (St g es)).2 = inl x).
Proof using mE pE rok qrL qrpL spl e01 th0 u0 k0 rkk l0 lmn lE.
move=> lw; have [B [EB HB]] := col_event lw; exists B; split=> // g es Bg.
have -> : osid1 L r (ofmx A) k over np.+1%:Z 1 RGen = OSID1 L rs (ofmx A) k over 1.
  by rewrite /osid1 /= (_ : np.+1%:Z - 1 = np%:Z) //; lia.
case: (OSID1_col_sk qrpL k0 l0 lE n_gt0 (HB g es Bg)) => [[s1 [X [J [E1 _ _ le]]]]|[nf [s1 [x E1]]]].
  by left; exists X, J; rewrite E1.
by right; split=> //; exists x; rewrite E1.
Qed.

Lemma osid2_row_prob : lstsq_spec L -> (k <= m)%N -> full -> law (if odd np then m else n) ->
  exists B : G -> bool, E (fun g => (~~ B g)%:R) <= id_fail rk l np e th u /\
  forall g es, B g -> exists (Z : 'M[R]_(m, k)) I,
    (osid2 L r (ofmx A) k over np.+1%:Z 0 RGen (St g es)).2 = inr (ofmx Z, I) /\
    3%:R * fro2 (A - Z *m rowsel A I k) <= 2%:R * (m - k)%:R * err.
Proof using mE pE rok qrL qrpL spl e01 th0 u0 k0 rkk l0 lmn lE.
move=> lsL km fl lw; have [B [EB HB]] := row_event lw; exists B; split=> // g es Bg.
have -> : osid2 L r (ofmx A) k over np.+1%:Z 0 RGen = OSID2 L rs (ofmx A) k over 0.
  by rewrite /osid2 /= (_ : np.+1%:Z - 1 = np%:Z) //; lia.
have [s1 [Z [I [E1 le]]]] := OSID2_row_sk qrpL lsL k0 l0 lE n_gt0 km fl (HB g es Bg).
by exists Z, I; rewrite E1.
Qed.

Lemma osid2_col_prob : lstsq_spec L -> (k <= n)%N -> full -> law (if odd np then n else m) ->
  exists B : G -> bool, E (fun g => (~~ B g)%:R) <= id_fail rk l np e th u /\
  forall g es, B g -> exists (X : 'M[R]_(k, n)) J,
    (osid2 L r (ofmx A) k over np.+1%:Z 1 RGen (St g es)).2 = inr (ofmx X, J) /\
    3%:R * fro2 (A - colsel A J k *m X) <= 2%:R * (n - k)%:R * err.
Proof using mE pE rok qrL qrpL spl e01 th0 u0 k0 rkk l0 lmn lE.
move=> lsL kn fl lw; have [B [EB HB]] := col_event lw; exists B; split=> // g es Bg.
have -> : osid2 L r (ofmx A) k over np.+1%:Z 1 RGen = OSID2 L rs (ofmx A) k over 1.
  by rewrite /osid2 /= (_ : np.+1%:Z - 1 = np%:Z) //; lia.
have [s1 [X [J [E1 le]]]] := OSID2_col_sk qrpL lsL k0 l0 lE m_gt0 kn fl (HB g es Bg).
by exists X, J; rewrite E1.
Qed.

(** TSID1 and CUR1 sketch the longer side: rows of A^T if A is tall, of A otherwise. *)
Lemma side_event : law (if odd np then minn m n else maxn m n) ->
  exists B : G -> bool, E (fun g => (~~ B g)%:R) <= id_fail rk l np e th u /\
  forall g es, B g -> if (n < m)%N then id_sketch A^T k l rs (St g es) err full
                      else id_sketch A k l rs (St g es) err full.
Proof using mE pE rok qrL spl e01 th0 u0 rkk l0 lmn.
case: (boolP (n < m)%N) => nm lw.
  by apply: col_event; rewrite (minn_idPr (ltnW nm)) (maxn_idPl (ltnW nm)) in lw.
rewrite -leqNgt in nm.
by apply: row_event; rewrite (minn_idPl nm) (maxn_idPr nm) in lw.
Qed.

Lemma tsid1_prob : law (if odd np then minn m n else maxn m n) ->
  exists B : G -> bool, E (fun g => (~~ B g)%:R) <= id_fail rk l np e th u /\
  forall g es, B g ->
    (exists (Z : 'M[R]_(m, k)) I (X : 'M[R]_(k, n)) J,
       (tsid1 L r (ofmx A) k over np.+1%:Z RGen (St g es)).2 = inr (ofmx Z, I, ofmx X, J) /\
       3%:R * fro2 (A - Z *m rowsel (colsel A J k) I k *m X) <= 2%:R * (minn m n - k)%:R * err) \/
    (~ full /\ exists x, (tsid1 L r (ofmx A) k over np.+1%:Z RGen (St g es)).2 = inl x).
Proof using mE pE rok qrL qrpL spl e01 th0 u0 k0 rkk l0 lmn lE.
move=> lw; have [B [EB HB]] := side_event lw; exists B; split=> // g es Bg.
have -> : tsid1 L r (ofmx A) k over np.+1%:Z RGen = TSID1 L (OSID1 L rs) (ofmx A) k over.
  by rewrite /tsid1 /= (_ : np.+1%:Z - 1 = np%:Z) //; lia.
case: (TSID1_sk qrpL k0 l0 lE m_gt0 n_gt0 (HB g es Bg)) => [[s1 [Z [I [X [J [E1 le]]]]]]|[nf [s1 [x E1]]]].
  by left; exists Z, I, X, J; rewrite E1.
by right; split=> //; exists x; rewrite E1.
Qed.

Lemma cur1_prob : lstsq_spec L -> law (if odd np then minn m n else maxn m n) ->
  exists B : G -> bool, E (fun g => (~~ B g)%:R) <= id_fail rk l np e th u /\
  forall g es, B g ->
    (exists J (C : 'M[R]_k) I,
       (cur1 L r (ofmx A) k over np.+2%:Z RGen (St g es)).2 = inr (J, ofmx C, I) /\
       9%:R * fro2 (A - colsel A J k *m C *m rowsel A I k) <=
       4%:R * (3%:R + (3%:R * k%:R + (maxn m n - k)%:R * (4%:R ^+ k - 1))) * ((minn m n - k)%:R * err)) \/
    (~ full /\ exists x, (cur1 L r (ofmx A) k over np.+2%:Z RGen (St g es)).2 = inl x).
Proof using mE pE rok qrL qrpL spl e01 th0 u0 k0 rkk l0 lmn lE.
move=> lsL lw; have [B [EB HB]] := side_event lw; exists B; split=> // g es Bg.
have -> : cur1 L r (ofmx A) k over np.+2%:Z RGen = CUR1 L (OSID1 L rs) (ofmx A) k over.
  by rewrite /cur1 /= (_ : np.+2%:Z - 2 = np%:Z) //; lia.
case: (CUR1_sk qrpL lsL k0 l0 lE m_gt0 n_gt0 (HB g es Bg)) => [[s1 [J [C [I [E1 le]]]]]|[nf [s1 [x E1]]]].
  by left; exists J, C, I; rewrite E1.
by right; split=> //; exists x; rewrite E1.
Qed.
End DrvI.

(** Witness *)
Lemma id_wit_err (R : rcfType) (e := 9%:R / 10%:R : R) :
  2%:R * (8 - 1)%:R * (((4%:R ^+ 1 + 2%:R) * (1 + (100%:R^-1 / 1) ^+ (2 * 2) * (1 / (1 - e) ^+ 2)) +
    (2%:R * 4%:R ^+ 1 + 1) * 1) * (7%:R / 10000%:R)) < 3%:R * (1 + 7%:R / 10000%:R).
Proof.
have t0 : 10%:R != 0 :> R by rewrite pnatr_eq0.
have -> : 1 - e = 10%:R^-1.
  by apply: (mulIf t0); rewrite mulrBl divfK // mulVf // mul1r -natrB.
rewrite !divr1 div1r !exprVn invrK -!natrX -natrM mulr1 -natrD.
have x1 : (100 ^ (2 * 2))%:R^-1 * (10 ^ 2)%:R <= 1 :> R.
  have -> : (100 ^ (2 * 2))%N = (10 ^ 8)%N by rewrite -[100%N]/(10 ^ 2)%N -expnM.
  by rewrite ler_pdivr_mull ?ltr0n ?expn_gt0 // mulr1 ler_nat leq_exp2l.
set x := _ * (10 ^ 2)%:R in x1 *.
have h : (4 ^ 1 + 2)%:R * (1 + x) + ((2 * 4 ^ 1)%:R + 1) <= 21%:R :> R.
  apply: le_trans (_ : (4 ^ 1 + 2)%:R * (1 + 1) + ((2 * 4 ^ 1)%:R + 1) <= _).
    by rewrite ler_add2r ler_wpmul2l ?ler0n // ler_add2l.
  by rewrite -[1]/(1%:R) -!natrD -natrM -natrD.
apply: le_lt_trans (_ : 3%:R * 1 < _); last first.
  by rewrite ltr_pmul2l ?ltr0n // ltr_addl divr_gt0 ?ltr0n.
rewrite mulrA mulr1 mulrA ler_pdivr_mulr ?ltr0n // -!natrM.
apply: le_trans (_ : (2 * (8 - 1))%:R * 21%:R * 7%:R <= _); first by rewrite ler_wpmul2r ?ler0n // ler_wpmul2l ?ler0n.
by rewrite -!natrM ler_nat.
Qed.

Lemma id_prob_wit (R : rcfType) :
  let t : 'cV[R]_8 := \col_i (if i == 0 then 1 else 100%:R^-1) in
  let A := diag_mx t^T in let e : R := 9%:R / 10%:R in
  [/\ sing_split A 1%:M t 1%:M 1 3.-1 100%:R^-1 1, forall i : 'I_8, (i < 1)%N -> t i 0 != 0,
      id_fail 1 8 3 e 1 1 < 2%:R^-1, 2%:R * (8 - 1)%:R * id_err t 1 1 3 100%:R^-1 1 e 1 1 < 3%:R * fro2 A &
      uncorrelated (@ga_mean R 8 8) (ga_rng R 8 8) 8 8 /\ normal4 (@ga_mean R 8 8) (ga_rng R 8 8) 8 8].
Proof.
move=> t A e.
have tE (i : 'I_8) : t i 0 = if i == 0 then 1 else 100%:R^-1 by rewrite mxE.
have i0 (x : 'I_8) : (x == 0) = (x == 0%N :> nat) by [].
split.
- split; [by rewrite /A mul1mx mulmx1 | exact: ortho1 | by rewrite trmx1; exact: ortho1 | by [] |].
  split=> [|i|_]; first by rewrite invr_ge0 ler0n.
    by rewrite tE i0; case: eqP => [-> //|_ _]; rewrite ger0_norm ?invr_ge0 ?ler0n.
  split=> [|i]; first exact: ltr01.
  by rewrite tE i0 ltnS leqn0 => ->; rewrite normr1.
- by move=> i; rewrite tE i0 ltnS leqn0 => ->; exact: oner_neq0.
- by rewrite /id_fail addr0; exact: wit_fail.
- have sE : \sum_(i < 8 | (1 <= i)%N) t i 0 ^+ 2 = 7%:R / 10000%:R.
    rewrite big_mkcond !big_ord_recl big_ord0 !tE /= add0r addr0 exprVn -natrX.
    have -> : (100 ^ 2)%N = 10000%N by [].
    have -> : 7%:R = 1 + 1 + 1 + 1 + 1 + 1 + 1 :> R by rewrite !mulrS mulr0n addr0 !addrA.
    by rewrite !mulrDl !mul1r !addrA.
  have fE : fro2 A = 1 + 7%:R / 10000%:R.
    rewrite /A fro2_diag fro2_sum (bigID (fun i : 'I_8 => (1 <= i)%N)) /= sE addrC; congr (_ + _).
    by rewrite (big_pred1 ord0) ?tE ?expr1n // => i; rewrite -leqNgt leqn0.
  rewrite /id_err sE fE.
  exact: id_wit_err.
split; [exact: ga_uncorrelated | exact: ga_normal4].
Qed.
