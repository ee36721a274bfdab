(** Proofs of C99: the QB factorisations and the sketch-and-solve driver with inexact factorisations. *)
From mathcomp Require Import all_ssreflect all_algebra.
From mathcomp Require Import zify.
From Verif Require Import Base Arr Lapack Exact MxLib RingTac LapackSpec LapackExists Rng Aware RangeFinders QB Inexact.
From Verif Require Import P_RS1 P_QB2 P_RF P_QB3 P_QBx P_QBfin P_Opt P_Opt2 Sketching P_Sketch2 P_Iso P_LS2 P_Embed P_Embed2 P_Embed3 P_Prob P_Prob2 P_Prob3 P_Prob4.
Set Implicit Arguments.
Unset Strict Implicit.
Unset Printing Implicit Defensive.
Import Order.TTheory GRing.Theory Num.Theory.
Local Open Scope ring_scope.

Section Near.
Variable R : rcfType.
Add Field inex_field : (rcf_field R).

Lemma near0 m c (Q : 'M[R]_(m, c)) eta : 0 <= eta -> orthonormal Q -> near_ortho eta Q.
Proof. by move=> e0 oQ v; rewrite oQ subrr mul0mx fro20 mulr_ge0 ?exprn_ge0 ?fro2_ge0. Qed.

Lemma abs_fip m n (A B : 'M[R]_(m, n)) : `|fip A B| <= fro A * fro B.
Proof.
rewrite -(@ler_pexpn2r _ 2) ?nnegrE ?mulr_ge0 ?fro_ge0 ?normr_ge0 //.
by rewrite real_normK ?num_real // exprMn !sqr_fro fip_le.
Qed.

Lemma near_mul eta m c p (Q : 'M[R]_(m, c)) (M : 'M[R]_(c, p)) : 0 <= eta -> near_ortho eta Q ->
  fro ((Q^T *m Q - 1%:M) *m M) <= eta * fro M.
Proof.
move=> e0 nQ; rewrite -(@ler_pexpn2r _ 2) ?nnegrE ?mulr_ge0 ?fro_ge0 //.
by rewrite exprMn !sqr_fro; apply: fro2_mul_col.
Qed.

Lemma near_iso eta m c p (Q : 'M[R]_(m, c)) (M : 'M[R]_(c, p)) : 0 <= eta -> near_ortho eta Q ->
  `|fro2 (Q *m M) - fro2 M| <= eta * fro2 M.
Proof.
move=> e0 nQ.
have -> : fro2 (Q *m M) - fro2 M = fip M ((Q^T *m Q - 1%:M) *m M).
  by rewrite /fip mulmxBl mul1mx mulmxBr mxtraceD raddfN /= -fro2_tr fro2_tr trmx_mul !mulmxA.
apply: le_trans (abs_fip _ _) _; rewrite -(sqr_fro M) expr2 mulrA [eta * _]mulrC -mulrA.
by apply: ler_wpmul2l; rewrite ?fro_ge0 // near_mul.
Qed.

(** Effect of one block on the squared residual. *)
Lemma near_resid eta m c n (Q : 'M[R]_(m, c)) (X : 'M[R]_(m, n)) : 0 <= eta -> near_ortho eta Q ->
  `|fro2 (X - Q *m (Q^T *m X)) - (fro2 X - fro2 (Q^T *m X))| <= eta * fro2 (Q^T *m X).
Proof.
move=> e0 nQ; have := near_iso (Q^T *m X) e0 nQ; rewrite fro2B.
have -> : fip X (Q *m (Q^T *m X)) = fro2 (Q^T *m X).
  by rewrite /fip [in RHS]fro2_tr trmx_mul trmxK !mulmxA.
suff -> : forall a b c : R, a - 2%:R * b + c - (a - b) = c - b by [].
by move=> a b d; rring.
Qed.

Lemma qr_near_exact (L : lapack R) : qr_spec L -> qr_near L 0 0.
Proof.
move=> qrL m n A m0 n0; have [Q [U [E oQ _ AE]]] := qrL _ _ A m0 n0; exists Q, U; split=> //.
  exact: near0.
by rewrite mul0r {1}AE subrr fro0.
Qed.

Section Qr.
Variables (G : Type) (L : lapack R) (eta dl : R).
Hypotheses (e0 : 0 <= eta) (qrL : qr_near L eta dl).

Lemma near_tall m n (A : 'M[R]_(m, n)) : (0 < n)%N -> (n <= m)%N ->
  exists (Q : 'M[R]_(m, n)) (U : 'M[R]_n),
    [/\ l_qr L (ofmx A) = Ok (ofmx Q, ofmx U), near_ortho eta Q & fro (A - Q *m U) <= dl * fro A].
Proof using e0 qrL.
move=> n0 nm; have m0 := leq_trans n0 nm.
have [Q [U H]] := qrL A m0 n0; move: Q U H.
by rewrite (minn_idPr nm) => Q U H; exists Q, U.
Qed.

Lemma near_loop (rf : rangefinder) (k : nat) (utol : bool) (abs : R) m n (A0 : 'M[R]_(m, n)) :
  rf_shape rf -> (k <= minn m n)%N ->
  forall fuel c (Q : 'M[R]_(m, c)) (B : 'M[R]_(c, n)) (blk : int) (sqn : R) (s : st G R),
  (c < k)%N -> (k - c <= fuel)%N -> 0 < blk ->
  (utol -> sqn = fro2 A0 - fro2 B) ->
  `|fro2 (A0 - Q *m B) - (fro2 A0 - fro2 B)| <= eta * fro2 B ->
  exists s' c' (Q' : 'M[R]_(m, c')) (B' : 'M[R]_(c', n)),
    [/\ qb2_loop L fuel rf k utol abs blk sqn (ofmx (A0 - Q *m B)) (ofmx Q) (ofmx B) s
        = (s', inr (ofmx Q', ofmx B', ofmx (A0 - Q' *m B'))),
        (c < c' <= k)%N,
        (c' < k)%N -> utol /\ fro2 A0 - fro2 B' <= abs &
        `|fro2 (A0 - Q' *m B') - (fro2 A0 - fro2 B')| <= eta * fro2 B'].
Proof using e0 qrL.
move=> rfP kmn; elim=> [|fuel IH] c Q B blk sqn s ck fk blk0 sqnE froE.
  by move: fk; rewrite leqn0 subn_eq0 leqNgt ck.
have [km kn] : (k <= m)%N /\ (k <= n)%N by move: kmn; rewrite leq_min => /andP.
rewrite /=; set blk' := if _ then _ else _.
have [b blkE [b0 bk]] : exists2 b : nat, blk' = b%:Z & (0 < b)%N /\ (c + b <= k)%N.
  by exists (absz blk'); rewrite /blk'; case: ifP => H; lia.
rewrite blkE.
have bk' : (b <= k)%N by rewrite (leq_trans _ bk) // leq_addl.
have [s1 [Fi [E1 _]]] := rfP _ _ (A0 - Q *m B) b s b0 (leq_trans bk' kmn).
rewrite (bindE _ E1) bind_emitE project_outE bind_liftE.
set P := Fi - _; have bm : (b <= m)%N := leq_trans bk' km.
have [Qi [U [EQ nQi _]]] := near_tall P b0 bm.
rewrite EQ bind_liftE /=.
rewrite (bindE _ (passQtAE _ _ _)) hstackE bind_liftE vstackE bind_liftE.
rewrite mmulE bind_liftE msubE bind_liftE.
set Bi := Qi^T *m (A0 - Q *m B).
rewrite qb2_block -/Bi mnormE.
set Q1 := row_mx Q Qi; set B1 := col_mx B Bi.
have fE1 : `|fro2 (A0 - Q1 *m B1) - (fro2 A0 - fro2 B1)| <= eta * fro2 B1.
  rewrite /B1 fro2_col_mx /Q1 mul_row_col opprD addrA mulrDr.
  have := ler_add froE (near_resid (A0 - Q *m B) e0 nQi); rewrite -/Bi => /(le_trans _); apply.
  apply: le_trans _ (ler_norm_add _ _); rewrite le_eqVlt; apply/orP; left; apply/eqP; congr `|_|.
  by move: (fro2 (_ - _)) (fro2 (_ - _)) (fro2 A0) (fro2 B) (fro2 Bi) => x y z t u; rring.
set sqn1 := if utol then _ else _.
have sqn1E : utol -> sqn1 = fro2 A0 - fro2 B1.
  by move=> ut; rewrite /sqn1 ut /= sqnE // /osq /= -expr2 sqr_fro /B1 fro2_col_mx opprD addrA.
set s2 := St _ _.
have stop : ((c + b < k)%N -> utol /\ fro2 A0 - fro2 B1 <= abs) ->
  exists s' c' (Q' : 'M[R]_(m, c')) (B' : 'M[R]_(c', n)),
    [/\ ret (ofmx Q1, ofmx B1, ofmx (A0 - Q1 *m B1)) s2
        = (s', inr (ofmx Q', ofmx B', ofmx (A0 - Q' *m B'))),
        (c < c' <= k)%N,
        (c' < k)%N -> utol /\ fro2 A0 - fro2 B' <= abs &
        `|fro2 (A0 - Q' *m B') - (fro2 A0 - fro2 B')| <= eta * fro2 B'].
  by move=> H; exists s2, (c + b)%N, Q1, B1; split=> //; rewrite bk -addn1 leq_add2l b0.
case: ifP => [/andP[ut /=]|Hn].
  by rewrite sqn1E // => le; apply: stop.
case: ifP => kB.
  by apply: stop; rewrite ltnNge kB.
have ckb : (c + b < k)%N by rewrite ltnNge kB.
have fuel1 : (k - (c + b) <= fuel)%N by lia.
have b0z : 0 < b%:Z :> int by lia.
have [s' [c' [Q' [B' [run cc' lt fr]]]]] := IH _ Q1 B1 b%:Z sqn1 s2 ckb fuel1 b0z sqn1E fE1.
exists s', c', Q', B'; split=> //.
by case/andP: cc' => cc' ->; rewrite (leq_ltn_trans _ cc') // leq_addr.
Qed.

Lemma near_QB2 (rf : rangefinder) (blk : int) ow m n (A : 'M[R]_(m, n)) (k : int) tol (s : st G R) :
  eta < 1 -> rf_shape rf -> (0 < m)%N -> (0 < n)%N -> 0 < k -> 0 < blk ->
  exists s' c (Q : 'M[R]_(m, c)) (B : 'M[R]_(c, n)),
    [/\ QB2 L rf blk ow (ofmx A) k tol s =
          (s', inr (ofmx Q, ofmx B, ofmx (if ow then A - Q *m B else A))),
        (0 < c <= minn (absz k) (minn m n))%N,
        `|fro2 (A - Q *m B) - (fro2 A - fro2 B)| <= eta / (1 - eta) * fro2 A &
        (c < minn (absz k) (minn m n))%N ->
          exists t, [/\ tol = Some t, 0 < t & fro2 (A - Q *m B) <= (t ^+ 2 + eta / (1 - eta)) * fro2 A]].
Proof using e0 qrL.
move=> e1 rfP m0 n0 k0 blk0; rewrite /QB2 k0 bind_passertT.
have -> : minn (nr (ofmx A)) (nc (ofmx A)) = minn m n by [].
set kk := minn (absz k) (minn m n).
have kk0 : (0 < kk)%N by rewrite /kk; lia.
have kkmn : (kk <= minn m n)%N by rewrite geq_minr.
have [s0 E0] : exists s0 : st G R,
    (if k <= (minn m n)%:Z then ret (absz k)
         else emit (EvWarn W_qb2_rank) >>> ret (minn m n)) s = (s0, inr kk).
  case: ifP => le; last first.
    exists (St (gen s) (rcons (evs s) (EvWarn W_qb2_rank))); rewrite bind_emitE.
    by rewrite /ret; congr (_, inr _); rewrite /kk; lia.
  by exists s; rewrite /ret; congr (_, inr _); rewrite /kk; lia.
rewrite (bindE _ E0) kkmn bind_passertT.
rewrite !mzerosE -[X in qb2_loop _ _ _ _ _ _ _ _ X](_ : ofmx (A - (0 : 'M_(m, 0)) *m (0 : 'M_(0, n))) = _);
  last by rewrite mul0mx subr0.
have sq0 : use_tol tol -> sqnorm0 (ofmx A) = fro2 A - fro2 (0 : 'M[R]_(0, n)).
  by rewrite /sqnorm0 mnormE fro20 subr0 => _; rewrite /osq /= -expr2 sqr_fro.
have fr0 : `|fro2 (A - (0 : 'M_(m, 0)) *m (0 : 'M_(0, n))) - (fro2 A - fro2 (0 : 'M[R]_(0, n)))|
    <= eta * fro2 (0 : 'M[R]_(0, n)).
  by rewrite mul0mx fro20 !subr0 subrr normr0 mulr0.
have fk : (kk - 0 <= kk.+1)%N by rewrite subn0.
have [s' [c [Q [B [E /andP[c0 ck] lt fr]]]]] :=
  @near_loop rf kk (use_tol tol) (abs_sq_tol (ofmx A) tol) m n A rfP kkmn
    kk.+1 0%N 0 0 blk _ s0 kk0 fk blk0 sq0 fr0.
have e10 : 0 < 1 - eta by rewrite subr_gt0.
have fB : fro2 B <= fro2 A / (1 - eta).
  rewrite ler_pdivl_mulr //; move: fr; rewrite ler_norml => /andP[_ h].
  have h' : 0 <= fro2 A - fro2 B + eta * fro2 B.
    by apply: le_trans (fro2_ge0 (A - Q *m B)) _; rewrite -ler_subl_addl.
  rewrite -subr_ge0; apply: le_trans h' _; rewrite le_eqVlt; apply/orP; left; apply/eqP.
  by move: (fro2 A) (fro2 B) => x y; rring.
have efB : eta * fro2 B <= eta / (1 - eta) * fro2 A.
  by rewrite -mulrA; apply: ler_wpmul2l => //; rewrite mulrC.
exists s', c, Q, B; split=> //.
- rewrite (bindE _ E) /=; congr (_, inr _).
  by case: (ow).
- by rewrite c0.
- exact: le_trans fr efB.
move=> clt; have [ut le] := lt clt; case: tol ut le {E lt sq0} => //= t t0 le.
exists t; split=> //; move: fr; rewrite ler_norml => /andP[_]; rewrite ler_subl_addl => h.
apply: le_trans h _; rewrite mulrDl; apply: ler_add => //; apply: le_trans le _.
by rewrite /sqnorm0 mnormE /osq /= -!expr2 sqr_fro mulrC.
Qed.

(** The Gaussian power sketch only needs a stabilizer that answers with the right shape. *)
Lemma near_maybe done m k (X : 'M[R]_(m, k)) (s : st G R) : (0 < k)%N -> (k <= m)%N ->
  exists s' (Y : 'M[R]_(m, k)), maybe_stab (orth L) 1 done (ofmx X) s = (s', inr (ofmx Y)).
Proof using e0 qrL.
move=> k0 km; rewrite /maybe_stab /= dvd1n /stabilize bind_emitE /orth.
by have [Q [U [-> _ _]]] := near_tall X k0 km; eexists _, Q.
Qed.

Lemma near_rs1 m n k (A : 'M[R]_(m, n)) : (0 < k)%N -> (k <= minn m n)%N ->
  forall q done (X : 'M[R]_(n, k)) (s : st G R),
  exists s' (Y : 'M[R]_(n, k)), rs1_loop (orth L) 1 (ofmx A) q done (PyArr (ofmx X)) s = (s', inr (PyArr (ofmx Y))).
Proof using e0 qrL.
move=> k0; rewrite leq_min => /andP[km kn]; elim=> [|q IH] done X s; first by exists s, X.
rewrite /= (bindE _ (passAE _ _ _)).
have [s2 [Y2 E2]] := near_maybe done.+1 (A *m X) (St (gen s) (rcons (evs s) (EvPass false))) k0 km.
rewrite (bindE _ E2) (bindE _ (passAtE _ _ _)).
have [s4 [Y4 E4]] := near_maybe done.+2 (A^T *m Y2) (St (gen s2) (rcons (evs s2) (EvPass true))) k0 kn.
by rewrite (bindE _ E4).
Qed.

Lemma near_total (r : rng_ops G R) (np : int) : rng_ok r -> 0 <= np -> rso_total (RS1 (skopGA r) np (orth L) 1).
Proof using e0 qrL.
move=> rok np0 m n A k s k0 kmn.
have [q ->] : exists q : nat, np = q%:Z by exists (absz np); lia.
have [km kn] : (k <= m)%N /\ (k <= n)%N by move: kmn; rewrite leq_min => /andP.
enough (H : exists s' (Y : 'M[R]_(n, k)),
    RS1 (skopGA r) q%:Z (orth L) 1 (ofmx A) k s = (s', inr (PyArr (ofmx Y)))).
  case: H => s' [Y E]; exists s', Y; split=> //.
  have [_ ->] := RS1_sched (skopGA_quiet (r:=r)) (ltr01 : (0 < 1 :> int)%R) E.
  by eexists; [reflexivity | rewrite /= noRF_sched].
rewrite /RS1 bind_passertT /=; case: (boolP (odd q)) => oq /=.
  have [s1 [X [E _]]] := drawE s rok (leq_trans k0 km) k0.
  rewrite (bindE _ E) (bindE _ (passAtE _ _ _)); set s2 := St _ _.
  have [Q [U [EQ _ _]]] := near_tall (A^T *m X) k0 kn.
  have Es : stabilize (orth L) (ofmx (A^T *m X)) s2 =
      (St (gen s2) (rcons (evs s2) EvStab), inr (ofmx Q)) by rewrite /stabilize bind_emitE /orth EQ.
  by rewrite (bindE _ Es); exact: near_rs1.
have [s1 [X [E _]]] := drawE s rok (leq_trans k0 kn) k0.
by rewrite (bindE _ E); exact: near_rs1.
Qed.

Lemma near_RF1 rso m n (A : 'M[R]_(m, n)) k (s s1 : st G R) (X : 'M[R]_(n, k)) :
  (0 < k)%N -> (k <= minn m n)%N ->
  rso (ofmx A) k s = (s1, inr (PyArr (ofmx X))) ->
  exists (Q : 'M[R]_(m, k)) (U : 'M[R]_k),
    [/\ RF1 L rso (ofmx A) k%:Z None s =
        (St (gen s1) (rcons (evs s1) (EvPass false)), inr (ofmx Q)),
        near_ortho eta Q & fro (A *m X - Q *m U) <= dl * fro (A *m X)].
Proof using e0 qrL.
move=> k0 kmn E.
have km : (k <= m)%N by move: kmn; rewrite leq_min => /andP[].
rewrite /RF1 (_ : (0 < k%:Z)%R) ?bind_passertT; last by lia.
rewrite (_ : (k%:Z <= _)%R) ?bind_passertT; last by rewrite /=; lia.
rewrite (bindE _ E) (bindE _ (passAE _ _ _)).
have [Q [U [EQ oQ XE]]] := near_tall (A *m X) k0 km.
by exists Q, U; rewrite EQ bind_liftE.
Qed.

Lemma near_shape rso : rso_total rso -> rf_shape (RF1 L rso : rangefinder (G:=G)).
Proof using e0 qrL.
move=> rsoP m n A b s b0 bmn.
have [s1 [X [E [l evl nl]]]] := rsoP _ _ A b s b0 bmn.
have [Q [U [E' _ _]]] := near_RF1 b0 bmn E.
exists (St (gen s1) (rcons (evs s1) (EvPass false))), Q; split=> //=.
by exists (rcons l (EvPass false)); [rewrite evl rcons_cat | rewrite -cats1 noRF_cat nl].
Qed.

Lemma near_qb_b (r : rng_ops G R) (np blk : int) ow m n (A : 'M[R]_(m, n)) (k : int) tol a (s : st G R) :
  eta < 1 -> rng_ok r -> 2 <= np -> (0 < m)%N -> (0 < n)%N -> 0 < k -> 0 < blk ->
  exists s' c (Q : 'M[R]_(m, c)) (B : 'M[R]_(c, n)),
    [/\ qb_b L r np blk ow (ofmx A) k tol a s =
          (s', inr (ofmx Q, ofmx B, ofmx (if ow then A - Q *m B else A))),
        (0 < c <= minn (absz k) (minn m n))%N,
        `|fro2 (A - Q *m B) - (fro2 A - fro2 B)| <= eta / (1 - eta) * fro2 A &
        (c < minn (absz k) (minn m n))%N ->
          exists t, [/\ tol = Some t, 0 < t & fro2 (A - Q *m B) <= (t ^+ 2 + eta / (1 - eta)) * fro2 A]].
Proof using e0 qrL.
move=> e1 rok np2 m0 n0 k0 b0; have np0 : 0 <= np - 2 by lia.
pose (c0 := QB2 L (RF1 L (RS1 (skopGA r) (np - 2) (orth L) 1)) blk ow (ofmx A) k tol).
pose P (x : res (arr R * arr R * arr R)) := exists c (Q : 'M[R]_(m, c)) (B : 'M[R]_(c, n)),
    [/\ x = inr (ofmx Q, ofmx B, ofmx (if ow then A - Q *m B else A)),
        (0 < c <= minn (absz k) (minn m n))%N,
        `|fro2 (A - Q *m B) - (fro2 A - fro2 B)| <= eta / (1 - eta) * fro2 A &
        (c < minn (absz k) (minn m n))%N ->
          exists t, [/\ tol = Some t, 0 < t & fro2 (A - Q *m B) <= (t ^+ 2 + eta / (1 - eta)) * fro2 A]].
have [s0|s' [x [E [c [Q [B [xE ck st fr]]]]]]] := @with_rng_run _ _ _ r a c0 (fun _ x => P x) s _.
  have rfP := near_shape (near_total rok np0).
  have [s1 [c1 [Q1 [B1 [E1 h1 h2 h3]]]]] := near_QB2 ow A tol s0 e1 rfP m0 n0 k0 b0.
  by exists s1, (inr (ofmx Q1, ofmx B1, ofmx (if ow then A - Q1 *m B1 else A))); split=> //; exists c1, Q1, B1.
by exists s', c, Q, B; rewrite -xE.
Qed.

End Qr.

(** ** Nearly optimal projections *)

Lemma near_contr eta m c n (Q : 'M[R]_(m, c)) (X : 'M[R]_(m, n)) : 0 <= eta <= 1 -> near_ortho eta Q ->
  fro (X - Q *m (Q^T *m X)) <= fro X.
Proof.
move=> /andP[e0 e1] nQ; rewrite fro_le //; have := near_resid X e0 nQ.
rewrite ler_norml => /andP[_]; rewrite ler_subl_addr => /le_trans; apply.
have -> : eta * fro2 (Q^T *m X) + (fro2 X - fro2 (Q^T *m X)) = fro2 X - (1 - eta) * fro2 (Q^T *m X).
  by move: (fro2 X) (fro2 _) => x y; rring.
by rewrite ler_subl_addl ler_addr mulr_ge0 ?fro2_ge0 // subr_ge0.
Qed.

Lemma near_up eta m c p (Q : 'M[R]_(m, c)) (M : 'M[R]_(c, p)) : 0 <= eta -> near_ortho eta Q ->
  fro (Q *m M) <= Num.sqrt (1 + eta) * fro M.
Proof.
move=> e0 nQ; have := near_iso M e0 nQ; rewrite ler_norml => /andP[_]; rewrite ler_subl_addr => h.
rewrite -(@ler_pexpn2r _ 2) ?nnegrE ?mulr_ge0 ?sqrtr_ge0 ?fro_ge0 //.
by rewrite exprMn !sqr_fro sqr_sqrtr ?addr_ge0 // mulrDl mul1r addrC.
Qed.

Lemma near_lo eta m c p (Q : 'M[R]_(m, c)) (M : 'M[R]_(c, p)) : 0 <= eta < 1 -> near_ortho eta Q ->
  fro M <= fro (Q *m M) / Num.sqrt (1 - eta).
Proof.
move=> /andP[e0 e1] nQ; have := near_iso M e0 nQ; rewrite ler_norml => /andP[h _].
have e10 : 0 < 1 - eta by rewrite subr_gt0.
rewrite ler_pdivl_mulr ?sqrtr_gt0 // -(@ler_pexpn2r _ 2) ?nnegrE ?mulr_ge0 ?sqrtr_ge0 ?fro_ge0 //.
rewrite exprMn !sqr_fro sqr_sqrtr ?(ltW e10) // mulrBr mulr1 ler_subl_addr -ler_subl_addl.
by move: h; rewrite ler_oppl opprB mulrC.
Qed.

Lemma near_best eta m c n (Q : 'M[R]_(m, c)) (A : 'M[R]_(m, n)) (C : 'M[R]_(c, n)) :
  0 <= eta < 1 -> near_ortho eta Q ->
  fro (A - Q *m (Q^T *m A)) <= (1 + rho eta) * fro (A - Q *m C) + rho eta * fro A.
Proof.
move=> /andP[e0 e1] nQ; have e10 : 0 < 1 - eta by rewrite subr_gt0.
set X := A - Q *m C.
have -> : A - Q *m (Q^T *m A) = (X - Q *m (Q^T *m X)) - Q *m ((Q^T *m Q - 1%:M) *m C).
  rewrite /X !mulmxBr mulmxBl mul1mx mulmxBr !mulmxA.
  move: (Q *m C) (_ *m A) => u v.
  by rewrite !opprB addrACA subrK; congr (_ + _); rewrite [RHS]addrAC subrr add0r.
have h1 : fro (X - Q *m (Q^T *m X)) <= fro X by apply: near_contr nQ; rewrite e0 ltW.
have h2 : fro (Q *m ((Q^T *m Q - 1%:M) *m C)) <= rho eta * (fro A + fro X).
  apply: le_trans (near_up _ e0 nQ) _.
  apply: le_trans (ler_wpmul2l (sqrtr_ge0 _) (near_mul C e0 nQ)) _.
  have hC : fro C <= (fro A + fro X) / Num.sqrt (1 - eta).
    apply: le_trans (near_lo C _ nQ) _; first by rewrite e0.
    rewrite ler_wpmul2r ?invr_ge0 ?sqrtr_ge0 //.
    have {1}-> : Q *m C = A - X by rewrite /X opprB addrC subrK.
    by apply: le_trans (ler_froD _ _) _; rewrite froN.
  apply: le_trans (ler_wpmul2l (sqrtr_ge0 _) (ler_wpmul2l e0 hC)) _.
  rewrite /rho (@sqrtrM _ (1 + eta)) ?addr_ge0 // (@sqrtrV _ (1 - eta)) ?(ltW e10) //.
  by rewrite le_eqVlt; apply/orP; left; apply/eqP; move: (Num.sqrt _) (_^-1) (fro A + fro X) => x y z; rring.
apply: le_trans (ler_froD _ _) _; rewrite froN; apply: le_trans (ler_add h1 h2) _.
by rewrite le_eqVlt; apply/orP; left; apply/eqP; move: (fro A) (fro X) (rho eta) => x y z; rring.
Qed.

(** Structural bound for a range finder with an inexact QR. *)
Lemma near_sketch_abs eta ep w m n c k r (A : 'M[R]_(m, n)) (Q : 'M[R]_(m, c)) (S : 'M[R]_(n, k)) (U : 'M[R]_(c, k))
    (V : 'M[R]_(n, r)) (W : 'M[R]_(k, r)) :
  0 <= eta < 1 -> 0 <= w -> near_ortho eta Q -> fro (A *m S - Q *m U) <= ep ->
  orthonormal V -> V^T *m S *m W = 1%:M -> (forall v : 'cV[R]_k, fro2 (W^T *m v) <= w ^+ 2 * fro2 v) ->
  let F := A - A *m V *m V^T in
  fro (A - Q *m (Q^T *m A)) <=
  (1 + rho eta) * (Num.sqrt (fro2 F + fro2 (F *m S *m W)) + w * ep) + rho eta * fro A.
Proof.
move=> e01 w0 nQ QE oV VW Ww; cbv zeta; set F := A - A *m V *m V^T.
apply: le_trans (near_best A (U *m W *m V^T) e01 nQ) _; rewrite ler_add2r.
have r0 : 0 <= rho eta by case/andP: e01 => e0 _; rewrite mulr_ge0 ?sqrtr_ge0.
have r1 : 0 <= 1 + rho eta by rewrite (addr_ge0 ler01 r0).
apply: ler_wpmul2l => //.
have -> : A - Q *m (U *m W *m V^T) = (A - A *m S *m W *m V^T) + (A *m S - Q *m U) *m W *m V^T.
  by rewrite !mulmxBl !mulmxA addrA subrK.
apply: le_trans (ler_froD _ _) _; apply: ler_add.
  have FV : F *m V = 0 by rewrite mulmxBl -!mulmxA oV mulmx1 subrr.
  have -> : A - A *m S *m W *m V^T = F - F *m S *m W *m V^T.
    have -> : F *m S *m W *m V^T = A *m S *m W *m V^T - A *m V *m V^T.
      rewrite /F !mulmxBl; congr (_ - _); rewrite -!mulmxA; congr (_ *m (_ *m _)).
      by rewrite !mulmxA VW mul1mx.
    by rewrite opprB /F addrA subrK.
  apply: ler_wsqrtr; rewrite [fro2 (F - F *m S *m W *m V^T)]fro2B.
  have -> : fip F (F *m S *m W *m V^T) = 0.
    by rewrite /fip mulmxA mxtrace_mulC [V^T *m (_ *m _)]mulmxA -trmx_mul FV trmx0 mul0mx raddf0.
  rewrite mulr0 subr0 ler_add2l; move: (F *m S *m W) => Z.
  by rewrite -(fro2_trmx (Z *m V^T)) trmx_mul trmxK fro2_ortho // fro2_trmx.
have h : fro ((A *m S - Q *m U) *m W *m V^T) <= w * fro (A *m S - Q *m U).
  rewrite -(@ler_pexpn2r _ 2) ?nnegrE ?mulr_ge0 ?fro_ge0 //; rewrite exprMn !sqr_fro; move: (_ - _) => Z.
  rewrite -(fro2_trmx (Z *m W *m V^T)) trmx_mul trmxK fro2_ortho // trmx_mul -(fro2_trmx Z).
  exact: fro2_mul_col.
by apply: le_trans h _; apply: ler_wpmul2l.
Qed.

Lemma near_sketch eta dl w m n c k r (A : 'M[R]_(m, n)) (Q : 'M[R]_(m, c)) (S : 'M[R]_(n, k)) (U : 'M[R]_(c, k))
    (V : 'M[R]_(n, r)) (W : 'M[R]_(k, r)) :
  0 <= eta < 1 -> 0 <= w -> near_ortho eta Q -> fro (A *m S - Q *m U) <= dl * fro (A *m S) ->
  orthonormal V -> V^T *m S *m W = 1%:M -> (forall v : 'cV[R]_k, fro2 (W^T *m v) <= w ^+ 2 * fro2 v) ->
  let F := A - A *m V *m V^T in
  fro (A - Q *m (Q^T *m A)) <=
  (1 + rho eta) * (Num.sqrt (fro2 F + fro2 (F *m S *m W)) + w * dl * fro (A *m S)) + rho eta * fro A.
Proof. by move=> e01 w0 nQ QE oV VW Ww; rewrite -mulrA; exact: near_sketch_abs QE oV VW Ww. Qed.

End Near.
