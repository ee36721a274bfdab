(** Proofs of C106: two-pass blocked QB works with one sketch, whatever the block size. *)
From mathcomp Require Import all_ssreflect all_algebra.
From mathcomp Require Import zify.
From Verif Require Import Base Arr Lapack Exact MxLib RingTac LapackSpec LapackExists Rng Aware RangeFinders QB.
From Verif Require Import P_RS1 P_QB2 P_RF P_QB3 P_QBx P_QBfin P_Pcg Chol P_Svd Sel SvdEvd P_SvdEvd P_Svd1 P_Evd.
From Verif Require Import P_Opt P_Opt2 Sketching P_Sketch2 P_Interp2 P_Interp4 P_Iso P_LS2 P_Embed P_Embed2 P_Embed3 P_Prob P_Prob2 Blk.
Set Implicit Arguments.
Unset Strict Implicit.
Unset Printing Implicit Defensive.
Import Order.TTheory GRing.Theory Num.Theory.
Local Open Scope ring_scope.

Lemma blk_div b q j : (j < b)%N -> ((q * b + j) %/ b = q)%N /\ ((q * b + j) %% b = j)%N.
Proof. by move=> jb; rewrite divnMDl ?modnMDl ?divn_small ?modn_small ?addn0 //; case: b jb. Qed.

Section Lin.
Variable R : rcfType.
(** A tall matrix of full column rank spans the same space as an orthonormal multiple of it. *)
Lemma span_back m c (F Q : 'M[R]_(m, c)) (Y : 'M[R]_c) : orthonormal Q -> Q = F *m Y -> Y \in unitmx /\ F = Q *m invmx Y.
Proof.
move=> oQ QE; have uY : Y \in unitmx.
  rewrite -row_full_unit /row_full eqn_leq rank_leq_col /=.
  by rewrite -{1}(orthonormal_rank oQ) QE mxrankM_maxr.
by split=> //; rewrite {1}QE mulmxK.
Qed.

Lemma rank_factor m n c (A : 'M[R]_(m, n)) (S : 'M[R]_(n, c)) : \rank (A *m S) = \rank A -> exists W, A = A *m S *m W.
Proof.
move=> rE; have le : ((A *m S)^T <= A^T)%MS by rewrite trmx_mul submxMl.
have : (A^T <= (A *m S)^T)%MS by rewrite -(geq_leqif (mxrank_leqif_sup le)) !mxrank_tr rE.
by case/submxP => D DE; exists D^T; apply: trmx_inj; rewrite trmx_mul trmxK.
Qed.

Lemma proj_min m n c (Q : 'M[R]_(m, c)) (A : 'M[R]_(m, n)) (Z : 'M[R]_(c, n)) : orthonormal Q ->
  fro2 (A - Q *m (Q^T *m A)) <= fro2 (A - Q *m Z).
Proof.
move=> oQ; have -> : A - Q *m Z = (A - Q *m (Q^T *m A)) + Q *m (Q^T *m A - Z).
  by rewrite mulmxBr addrA subrK.
rewrite [X in _ <= X]fro2_pyth ?ler_addl ?fro2_ge0 //.
have := ortho_resid A oQ => /(congr1 (@trmx _ _ _)).
by rewrite trmx_mul trmxK trmx0 => e; rewrite [LHS]mulmxA e mul0mx.
Qed.

(** One block, from a state with independent sketched columns. *)
Section Step.
Variables (m n c w : nat) (A0 : 'M[R]_(m, n)) (S : 'M[R]_(n, c)) (X : 'M[R]_(n, w)).
Variables (Q : 'M[R]_(m, c)) (B : 'M[R]_(c, n)) (Fi Qi : 'M[R]_(m, w)) (U V : 'M[R]_w) (Y : 'M[R]_c).
Hypotheses (oQ : orthonormal Q) (BE : B = Q^T *m A0) (QE : Q = A0 *m S *m Y).
Hypotheses (FE : (A0 - Q *m B) *m X = Fi *m U) (oQi : orthonormal Qi) (PE : Fi - Q *m (Q^T *m Fi) = Qi *m V).
Local Notation A := (A0 - Q *m B).

Lemma step_full : \rank (A0 *m row_mx S X) = (c + w)%N ->
  [/\ orthonormal (row_mx Q Qi), col_mx B (Qi^T *m A) = (row_mx Q Qi)^T *m A0 &
      exists Y', row_mx Q Qi = A0 *m row_mx S X *m Y'].
Proof using oQ BE QE FE oQi PE.
move=> rk.
have AXE : A0 *m X = Fi *m U + A0 *m S *m (Y *m (B *m X)).
  by rewrite -FE mulmxBl (mulmxA _ Y) -QE mulmxA subrK.
have E1 : A0 *m row_mx S X = row_mx (A0 *m S) Fi *m block_mx 1%:M (Y *m (B *m X)) 0 U.
  by rewrite mul_row_block mulmx1 mulmx0 addr0 mul_mx_row AXE addrC.
have rF : \rank (row_mx (A0 *m S) Fi) = (c + w)%N.
  by apply/eqP; rewrite eqn_leq rank_leq_col /= -{1}rk E1 mxrankM_maxl.
have uU : U \in unitmx.
  apply/full_col_unit; apply: inj_full_col => v Uv.
  have : A0 *m row_mx S X *m col_mx (- (Y *m (B *m X) *m v)) v = 0.
    rewrite E1 -mulmxA mul_block_col mul1mx mul0mx add0r Uv addNr.
    by rewrite col_mx0 mulmx0.
  by move/(full_col_inj rk)/eqP; rewrite col_mx_eq0 => /andP[_ /eqP].
have [uV QQi [Y' Y'E]] := qb2_newblock oQ QE oQi PE rF.
split; first exact: orthonormal_row_mx.
  rewrite tr_row_mx mul_col_mx -BE; congr col_mx.
  rewrite mulmxBr mulmxA (_ : Qi^T *m Q = 0) ?mul0mx ?subr0 //.
  by rewrite -[Q]trmxK -trmx_mul QQi trmx0.
have uM : block_mx 1%:M (Y *m (B *m X)) 0 U \in unitmx.
  by rewrite unitmxE det_ublock det1 mul1r -unitmxE.
by exists (invmx (block_mx 1%:M (Y *m (B *m X)) 0 U) *m Y'); rewrite E1 [RHS]mulmxA mulmxK.
Qed.

Lemma step_spent W : A0 = A0 *m row_mx S X *m W -> A0 = row_mx Q Qi *m col_mx B (Qi^T *m A).
Proof using oQ BE QE FE oQi PE.
move=> AE; have [uY SE] := span_back oQ QE.
have QA : Q^T *m A = 0 by rewrite BE ortho_resid.
have res Z : (Q *m Z) - Q *m (Q^T *m (Q *m Z)) = 0.
  by rewrite (mulmxA Q^T) oQ mul1mx subrr.
have rA : A - Q *m (Q^T *m A) = A by rewrite QA mulmx0 subr0.
have AW : A = A *m X *m dsubmx W.
  rewrite {1}BE {1 2}AE -{1 2}(vsubmxK W) mul_mx_row mul_row_col SE -(mulmxA Q) !mulmxDr opprD addrACA.
  by rewrite res add0r mulmxBl BE mulmxBl !mulmxA.
have AQ : A = Qi *m (V *m (U *m dsubmx W)).
  rewrite -{1}rA {1 2}AW FE -(mulmxA Fi) (mulmxA Qi) -PE mulmxBl; congr (_ - _).
  by rewrite !mulmxA.
by rewrite mul_row_col {1}AQ (mulmxA Qi^T) oQi mul1mx -AQ addrC subrK.
Qed.
End Step.
End Lin.

Section Loop.
Variables (R : rcfType) (G : Type) (L : lapack R) (r : rng_ops G R).
Hypotheses (rok : rng_ok r) (qrL : qr_spec L).
Local Notation rs := (RS1 (skopGA r) 0 (orth L) 1).

Lemma RS1_0 m n (A : 'M[R]_(m, n)) w g es : (0 < n)%N -> (0 < w)%N ->
  exists X : 'M[R]_(n, w),
  [/\ rs (ofmx A) w (St g es) = (St (r_normal r g (blk_sd R n w) n w).1 (rcons es (EvDraw n w)), inr (PyArr (ofmx X))) &
      forall i j, X i j = el (r_normal r g (blk_sd R n w) n w).2 i j].
Proof using rok.
move=> n0 w0; rewrite /RS1 bind_passertT /= /draw /skopGA /gaussian_operator.
rewrite ifN -?lt0n ?leq_min ?n0 //= /bind /emit /getgen /= onatE div1r -/(blk_sd R n w).
have := ok_normal rok g (blk_sd R n w) n w.
case: (r_normal _ _ _ _ _) => g' Y /= [wfY [nrY ncY]].
have [X ->] := wf_ofmx wfY nrY ncY.
by exists X; split=> // i j; rewrite el_ofmx_nat //; congr (X _ _); apply: val_inj.
Qed.

Variables (m n b k : nat) (A0 : 'M[R]_(m, n)) (g0 : G).
Hypotheses (b0 : (0 < b)%N) (kmn : (k <= minn m n)%N).
Local Notation S := (blk_sketch r n b k g0).

Lemma blk_sketchD q w (X : 'M[R]_(n, w)) : (w = minn b (k - q * b))%N ->
  (forall i j, X i j = el (r_normal r (blk_gen r n b g0 q) (blk_sd R n w) n w).2 i j) ->
  S (q * b + w)%N = row_mx (S (q * b)%N) X.
Proof.
move=> wE XE; apply/matrixP=> i j; rewrite !mxE.
case: splitP => j' jE; rewrite ?mxE ?jE // XE /blk_el.
have jb : (j' < b)%N by apply: leq_trans (ltn_ord j') _; rewrite wE geq_minl.
by have [-> ->] := blk_div q jb; rewrite /blk_width -wE.
Qed.

(** State of the loop at a block boundary. *)
Definition blk_inv c (Q : 'M[R]_(m, c)) (B : 'M[R]_(c, n)) : Prop :=
  (\rank (A0 *m S c) = c -> [/\ orthonormal Q, B = Q^T *m A0 & exists Y, Q = A0 *m S c *m Y]) /\
  (blk_generic r b k A0 g0 -> (\rank (A0 *m S c) < c)%N -> A0 = Q *m B).

Lemma blk_inv_step c q w (Q : 'M[R]_(m, c)) (B : 'M[R]_(c, n)) (X : 'M[R]_(n, w)) (Fi Qi : 'M[R]_(m, w)) (U V : 'M[R]_w) :
  c = (q * b)%N -> (c < k)%N -> (w = minn b (k - q * b))%N ->
  (forall i j, X i j = el (r_normal r (blk_gen r n b g0 q) (blk_sd R n w) n w).2 i j) ->
  (A0 - Q *m B) *m X = Fi *m U -> orthonormal Qi -> Fi - Q *m (Q^T *m Fi) = Qi *m V ->
  blk_inv Q B -> blk_inv (row_mx Q Qi) (col_mx B (Qi^T *m (A0 - Q *m B))).
Proof using b0.
move=> cE; subst c; move=> qk wE XE FE oQi PE [full spent]; have SE := blk_sketchD wE XE.
split.
  rewrite SE => rk; have rk0 : \rank (A0 *m S (q * b)%N) = (q * b)%N.
    by move: rk; rewrite mul_mx_row => /full_col_left.
  have [oQ BE [Y QE]] := full rk0.
  exact: step_full oQ BE QE FE oQi PE rk.
move=> gen lt.
have e0 : minn (q * b) k = (q * b)%N by apply/minn_idPl; exact: ltnW.
have e1 : minn (q.+1 * b) k = (q * b + w)%N by rewrite wE mulSn; clear -qk; lia.
have := gen q.+1; rewrite e1 => g1; have := gen q; rewrite e0 => g2.
have [] := ltngtP (\rank (A0 *m S (q * b)%N)) (q * b)%N; last first.
- move=> /full [oQ BE [Y QE]].
  have [W AW] : exists W, A0 = A0 *m S (q * b + w)%N *m W.
    by apply: rank_factor; move: lt; rewrite g1 gtn_min ltnn /= => h; apply/minn_idPr; exact: ltnW.
  move: AW; rewrite SE => AW.
  exact (step_spent oQ BE QE FE oQi PE AW).
- by rewrite ltnNge rank_leq_col.
move=> /(spent gen) AE; rewrite mul_row_col -AE subrr !mulmx0 addr0 //.
Qed.

Lemma blk_loopP (utol : bool) (abs : R) :
  forall fuel c q (Q : 'M[R]_(m, c)) (B : 'M[R]_(c, n)) (blk : int) (sqn : R) (s : st G R),
  c = (q * b)%N -> (c < k)%N -> (k - c <= fuel)%N -> 0 < blk -> minn (absz blk) (k - c) = minn b (k - c) ->
  gen s = blk_gen r n b g0 q ->
  (utol -> sqn = fro2 (A0 - Q *m B)) -> blk_inv Q B ->
  exists s' c' (Q' : 'M[R]_(m, c')) (B' : 'M[R]_(c', n)),
    [/\ qb2_loop L fuel (RF1 L rs) k utol abs blk sqn (ofmx (A0 - Q *m B)) (ofmx Q) (ofmx B) s
        = (s', inr (ofmx Q', ofmx B', ofmx (A0 - Q' *m B'))),
        (c < c' <= k)%N, exists q', c' = minn (q' * b) k,
        (c' < k)%N -> utol /\ fro2 (A0 - Q' *m B') <= abs &
        blk_inv Q' B'].
Proof using rok qrL b0 kmn.
elim=> [|fuel IH] c q Q B blk sqn s cE ck fk blk0 bE gE sqnE inv.
  by move: fk; rewrite leqn0 subn_eq0 leqNgt ck.
have [km kn] : (k <= m)%N /\ (k <= n)%N by move: kmn; rewrite leq_min => /andP.
rewrite /=; set blk' := if _ then _ else _.
pose w := minn b (k - c).
have blkE : blk' = w%:Z.
  by rewrite /blk' /w -bE; clear -blk0 ck; case: ifP => H; lia.
have w0 : (0 < w)%N by rewrite /w; clear -b0 ck; lia.
have wk : (c + w <= k)%N by rewrite /w; clear -ck; lia.
have wk' : (w <= k)%N := leq_trans (leq_addl _ _) wk.
have n0 : (0 < n)%N by exact: leq_trans w0 (leq_trans wk' kn).
rewrite blkE; case: s gE => g es /= gE; rewrite {}gE.
have [X [EX XE]] := RS1_0 (A0 - Q *m B) (blk_gen r n b g0 q) es n0 w0.
have [Fi [U [E1 oFi FE]]] := RF1P qrL w0 (leq_trans wk' kmn) EX.
rewrite (bindE _ E1) bind_emitE project_outE bind_liftE.
set P := Fi - _; have wm : (w <= m)%N := leq_trans wk' km.
have [Qi [V [EQ oQi tU PE]]] := qr_tall P qrL w0 wm.
rewrite EQ bind_liftE /=.
rewrite (bindE _ (passQtAE _ _ _)) hstackE bind_liftE vstackE bind_liftE.
rewrite mmulE bind_liftE msubE bind_liftE.
set Bi := Qi^T *m (A0 - Q *m B).
rewrite qb2_block -/Bi mnormE.
set Q1 := row_mx Q Qi; set B1 := col_mx B Bi.
have fE : fro2 (A0 - Q1 *m B1) = fro2 (A0 - Q *m B) - fro2 Bi.
  by rewrite -qb2_block fro2_resid.
set sqn1 := if utol then _ else _.
have sqn1E : utol -> sqn1 = fro2 (A0 - Q1 *m B1).
  by move=> ut; rewrite /sqn1 ut /= sqnE // /osq /= -expr2 sqr_fro fE.
have wE : w = minn b (k - q * b) by rewrite /w cE.
have inv1 : blk_inv Q1 B1 := blk_inv_step cE ck wE XE FE oQi PE inv.
set s2 := St _ _.
have cq : (c + w)%N = minn (q.+1 * b) k by rewrite wE mulSn; clear -cE ck; lia.
have stop : ((c + w < k)%N -> utol /\ fro2 (A0 - Q1 *m B1) <= abs) ->
  exists s' c' (Q' : 'M[R]_(m, c')) (B' : 'M[R]_(c', n)),
    [/\ ret (ofmx Q1, ofmx B1, ofmx (A0 - Q1 *m B1)) s2
        = (s', inr (ofmx Q', ofmx B', ofmx (A0 - Q' *m B'))),
        (c < c' <= k)%N, exists q', c' = minn (q' * b) k,
        (c' < k)%N -> utol /\ fro2 (A0 - Q' *m B') <= abs &
        blk_inv Q' B'].
  move=> H; exists s2, (c + w)%N, Q1, B1; split=> //; first by rewrite wk -addn1 leq_add2l w0.
  by exists q.+1.
case: ifP => [/andP[ut /=]|Hn].
  by rewrite sqn1E // => le; apply: stop.
case: ifP => kB.
  by apply: stop; rewrite ltnNge kB.
have ckb : (c + w < k)%N by rewrite ltnNge kB.
have wb : w = b by rewrite /w; move: ckb; rewrite /w; clear -ck; lia.
have fuel1 : (k - (c + w) <= fuel)%N by clear -fk w0 ck; lia.
have b0z : 0 < w%:Z :> int by clear -w0; lia.
have cE1 : (c + w)%N = (q.+1 * b)%N by rewrite wb cE mulSn addnC.
have bE1 : minn (absz w%:Z) (k - (c + w)) = minn b (k - (c + w)) by rewrite wb absz_nat.
have gE1 : gen s2 = blk_gen r n b g0 q.+1 by rewrite /s2 /= wb.
have [s' [c' [Q' [B' [run cc' qq lt inv']]]]] :=
  IH _ q.+1 Q1 B1 w%:Z sqn1 s2 cE1 ckb fuel1 b0z bE1 gE1 sqn1E inv1.
exists s', c', Q', B'; split=> //.
by case/andP: cc' => cc' ->; rewrite (leq_ltn_trans _ cc') // leq_addr.
Qed.

(** What the state says about the approximation. *)
Lemma blk_inv_err c (Q : 'M[R]_(m, c)) (B : 'M[R]_(c, n)) : blk_inv Q B -> (exists q, c = minn (q * b) k) ->
  blk_generic r b k A0 g0 ->
  (exists W, Q *m B = A0 *m S c *m W) /\ forall W, fro2 (A0 - Q *m B) <= fro2 (A0 - A0 *m S c *m W).
Proof.
move=> [full spent] [q cE] gen; have [] := ltngtP (\rank (A0 *m S c)) c; last first.
- move=> /full [oQ -> [Y QE]]; split; first by exists (Y *m (Q^T *m A0)); rewrite [RHS]mulmxA -QE.
  by have [uY ->] := span_back oQ QE => W; rewrite -mulmxA proj_min.
- by rewrite ltnNge rank_leq_col.
move=> lt; have AE := spent gen lt; rewrite -AE subrr fro20; split; last by move=> W; exact: fro2_ge0.
have [|W AW] := @rank_factor R m n c A0 (S c); last by exists W; rewrite -AW.
by have := gen q; rewrite -cE => g1; move: lt; rewrite g1 gtn_min ltnn /= => h; apply/minn_idPr; exact: ltnW.
Qed.
End Loop.

Section Top.
Variables (R : rcfType) (G : Type) (L : lapack R) (r : rng_ops G R).
Hypotheses (rok : rng_ok r) (qrL : qr_spec L).
Local Notation rs := (RS1 (skopGA r) 0 (orth L) 1).
Variables (m n : nat) (A : 'M[R]_(m, n)) (blk k : int).
Hypotheses (m0 : (0 < m)%N) (n0 : (0 < n)%N) (k0 : 0 < k) (blk0 : 0 < blk).
Let b := absz blk.
Let kk := minn (absz k) (minn m n).
Local Notation S := (blk_sketch r n b kk).

Lemma QB2_blk ow tol g es : exists s' c (Q : 'M[R]_(m, c)) (B : 'M[R]_(c, n)),
  [/\ QB2 L (RF1 L rs) blk ow (ofmx A) k tol (St g es) =
        (s', inr (ofmx Q, ofmx B, ofmx (if ow then A - Q *m B else A))),
      (0 < c <= kk)%N,
      (c < kk)%N -> exists t, [/\ tol = Some t, 0 < t & fro (A - Q *m B) <= t * fro A],
      blk_generic r b kk A g ->
        (exists W, Q *m B = A *m S g c *m W) /\ forall W, fro2 (A - Q *m B) <= fro2 (A - A *m S g c *m W) &
      \rank (A *m S g c) = c -> [/\ orthonormal Q, B = Q^T *m A & exists Y, Q = A *m S g c *m Y]].
Proof using rok qrL m0 n0 k0 blk0.
have b0 : (0 < b)%N by rewrite /b; clear -blk0; lia.
rewrite /QB2 k0 bind_passertT.
have -> : minn (nr (ofmx A)) (nc (ofmx A)) = minn m n by [].
have kk0 : (0 < kk)%N by rewrite /kk; lia.
have kkmn : (kk <= minn m n)%N by rewrite geq_minr.
have [s0 [E0 g0]] : exists s0 : st G R,
    (if k <= (minn m n)%:Z then ret (absz k)
         else emit (EvWarn W_qb2_rank) >>> ret (minn m n)) (St g es) = (s0, inr kk) /\ gen s0 = g.
  case: ifP => le; last first.
    exists (St g (rcons es (EvWarn W_qb2_rank))); rewrite bind_emitE; split=> //.
    by rewrite /ret; congr (_, inr _); rewrite /kk; clear -le; lia.
  exists (St g es); split=> //; rewrite /ret; congr (_, inr _).
  by rewrite /kk; clear -le k0; lia.
rewrite (bindE _ E0) kkmn bind_passertT.
rewrite !mzerosE -[X in qb2_loop _ _ _ _ _ _ _ _ X](_ : ofmx (A - (0 : 'M_(m, 0)) *m (0 : 'M_(0, n))) = _);
  last by rewrite mul0mx subr0.
have sq0 : use_tol tol -> sqnorm0 (ofmx A) = fro2 (A - (0 : 'M_(m, 0)) *m (0 : 'M_(0, n))).
  by rewrite /sqnorm0 mnormE mul0mx subr0 => _; rewrite /osq /= -expr2 sqr_fro.
have inv0 : blk_inv r b kk A g (0 : 'M[R]_(m, 0)) (0 : 'M_(0, n)).
  split=> [_|_]; last by rewrite ltn0.
  split; first exact: orthonormal0.
    by apply/matrixP; case.
  by exists 0; rewrite mulmx0.
have fk : (kk - 0 <= kk.+1)%N by rewrite subn0.
have [s' [c [Q [B [E /andP[c0 ck] qq lt inv]]]]] :=
  @blk_loopP R G L r rok qrL m n b kk A g b0 kkmn (use_tol tol) (abs_sq_tol (ofmx A) tol)
    kk.+1 0%N 0%N 0 0 blk _ s0 erefl kk0 fk blk0 erefl g0 sq0 inv0.
exists s', c, Q, B; split.
- by rewrite (bindE _ E) /=; congr (_, inr _); case: (ow).
- by rewrite c0.
- move=> clt; have [ut le] := lt clt; case: tol ut le {E lt sq0} => //= t t0 le.
  exists t; split=> //; rewrite -(@ler_pexpn2r _ 2) ?nnegrE ?mulr_ge0 ?fro_ge0 ?(ltW t0) //.
  rewrite exprMn !sqr_fro mulrC; apply: le_trans le _.
  by rewrite /sqnorm0 mnormE /osq /= -!expr2 sqr_fro.
- exact: blk_inv_err.
by case: inv.
Qed.

Lemma qb_b_blk ow tol g es : exists c (Q : 'M[R]_(m, c)) (B : 'M[R]_(c, n)),
  [/\ (qb_b L r 2 blk ow (ofmx A) k tol RGen (St g es)).2 =
        inr (ofmx Q, ofmx B, ofmx (if ow then A - Q *m B else A)),
      (0 < c <= kk)%N,
      (c < kk)%N -> exists t, [/\ tol = Some t, 0 < t & fro (A - Q *m B) <= t * fro A],
      blk_generic r b kk A g ->
        (exists W, Q *m B = A *m S g c *m W) /\ forall W, fro2 (A - Q *m B) <= fro2 (A - A *m S g c *m W) &
      \rank (A *m S g c) = c -> [/\ orthonormal Q, B = Q^T *m A & exists Y, Q = A *m S g c *m Y]].
Proof using rok qrL m0 n0 k0 blk0.
rewrite /qb_b /=; have [s' [c [Q [B [E1 h1 h2 h3 h4]]]]] := QB2_blk ow tol g es.
by exists c, Q, B; rewrite E1.
Qed.
End Top.

(** Two block sizes, the same columns up to an invertible recombination. *)
Section Two.
Variables (R : rcfType) (G : Type) (L : lapack R) (r : rng_ops G R).
Hypotheses (rok : rng_ok r) (qrL : qr_spec L).
Variables (m n : nat) (A : 'M[R]_(m, n)) (k : int) (l : nat).
Hypotheses (m0 : (0 < m)%N) (n0 : (0 < n)%N) (k0 : 0 < k) (lE : l%:Z = Num.min k (minn m n)%:Z).

Lemma qb_b_full (blk : int) ow g es : 0 < blk -> blk_generic r (absz blk) l A g ->
  exists (Q : 'M[R]_(m, l)) (B : 'M[R]_(l, n)), let S := blk_sketch r n (absz blk) l g l in
  [/\ (qb_b L r 2 blk ow (ofmx A) k None RGen (St g es)).2 =
        inr (ofmx Q, ofmx B, ofmx (if ow then A - Q *m B else A)),
      (\rank (A *m S) < l)%N -> Q *m B = A &
      \rank (A *m S) = l -> [/\ orthonormal Q, B = Q^T *m A & exists Y, Q = A *m S *m Y]].
Proof using rok qrL m0 n0 k0 lE.
move=> blk0 gen.
have lE' : l = minn (absz k) (minn m n) by clear -lE k0; move: lE; case: ltrP; lia.
have b0 : (0 < absz blk)%N by clear -blk0; lia.
have [c [Q [B [E1 /andP[_ ck] tolP best full]]]] := qb_b_blk rok qrL A m0 n0 k0 blk0 ow None g es.
move: ck tolP best full; rewrite -lE' => ck tolP best full.
have cl : c = l.
  by apply/eqP; rewrite eqn_leq ck /=; case: ltnP => // /tolP [x [] //].
subst c; exists Q, B; split=> // lt.
have [|W AW] := @rank_factor R m n l A (blk_sketch r n (absz blk) l g l).
  have := gen l; rewrite (minn_idPr _) ?leq_pmulr // => gl.
  by move: lt; rewrite gl gtn_min ltnn /= => h; apply/minn_idPr; exact: ltnW.
have [_ /(_ W)] := best gen; rewrite -AW subrr fro20 => le.
by apply/esym/eqP; rewrite -subr_eq0 -fro2_eq0 eq_le le fro2_ge0.
Qed.

Lemma qb_b_two (b1 b2 : int) ow1 ow2 g1 g2 es1 es2 (M : 'M[R]_l) :
  0 < b1 -> 0 < b2 -> M \in unitmx ->
  blk_sketch r n (absz b2) l g2 l = blk_sketch r n (absz b1) l g1 l *m M ->
  blk_generic r (absz b1) l A g1 -> blk_generic r (absz b2) l A g2 ->
  exists (Q1 Q2 : 'M[R]_(m, l)) (B1 B2 : 'M[R]_(l, n)),
  [/\ (qb_b L r 2 b1 ow1 (ofmx A) k None RGen (St g1 es1)).2 =
        inr (ofmx Q1, ofmx B1, ofmx (if ow1 then A - Q1 *m B1 else A)),
      (qb_b L r 2 b2 ow2 (ofmx A) k None RGen (St g2 es2)).2 =
        inr (ofmx Q2, ofmx B2, ofmx (if ow2 then A - Q2 *m B2 else A)) &
      Q1 *m B1 = Q2 *m B2].
Proof using rok qrL m0 n0 k0 lE.
move=> p1 p2 uM SE gen1 gen2.
have [Q1 [B1 [E1 d1 f1]]] := qb_b_full ow1 es1 p1 gen1.
have [Q2 [B2 [E2 d2 f2]]] := qb_b_full ow2 es2 p2 gen2.
exists Q1, Q2, B1, B2; split=> //.
set S1 := blk_sketch r n (absz b1) l g1 l in SE d1 f1 *.
have rE : \rank (A *m blk_sketch r n (absz b2) l g2 l) = \rank (A *m S1).
  by rewrite SE mulmxA mxrankMfree // row_free_unit.
case: (ltngtP (\rank (A *m S1)) l) => [lt|gt|eq].
- by rewrite d1 // d2 // rE.
- by move: gt; rewrite ltnNge rank_leq_col.
have [o1 -> [Y1 Q1E]] := f1 eq; have [o2 -> [Y2 Q2E]] := f2 (etrans rE eq).
have [u1 S1E] := span_back o1 Q1E.
pose T := invmx Y1 *m M *m Y2.
have Q2T : Q2 = Q1 *m T by rewrite Q2E SE mulmxA S1E /T !mulmxA.
have oT : orthonormal T.
  by move: o2; rewrite /orthonormal Q2T trmx_mul -mulmxA (mulmxA Q1^T) o1 mul1mx.
rewrite Q2T; move: T {Q2T} oT => T oT; rewrite trmx_mul -!mulmxA; congr (_ *m _).
by rewrite [RHS]mulmxA (orthonormal_sq oT) mul1mx.
Qed.
End Two.

(** The joint law of the columns, and the bounds it gives. *)
Section Prob.
Variables (R : rcfType) (G : Type) (E : (G -> R) -> R) (L : lapack R) (r : rng_ops G R).
Hypotheses (mE : mean E) (pE : positive E) (rok : rng_ok r) (qrL : qr_spec L).

Lemma blk_rng_ok n b k : rng_ok (blk_rng r n b k).
Proof.
split=> /=.
- by move=> g s m' n'; split; [exact: wf_mk|].
- by move=> g m' n'; split; [exact: wf_mk|].
- by move=> g n'; rewrite size_nseq.
- move=> g p c [] /=; rewrite ?orbF /=.
    move=> pk _; rewrite size_nseq; split=> //; apply/allP=> i /nseqP [-> c0].
    by move: pk; rewrite -(negbK (c == 0)%N) -lt0n c0 orbF.
  move=> _ kp; rewrite size_iota iota_uniq; split=> //; apply/allP=> i.
  by rewrite mem_iota => /andP[_ /leq_trans]; apply.
by [].
Qed.

Variables (m n q : nat) (A : 'M[R]_(m, n)) (U : 'M[R]_(m, q)) (t : 'cV[R]_q) (Vh : 'M[R]_(q, n)).
Variables (rk : nat) (sg tau e th : R).
Hypotheses (spl : sing_split A U t Vh rk 0 sg tau) (e01 : 0 < e < 1) (th0 : 0 < th).
Local Notation err := (sketch_err t rk 0 sg tau e th).

Lemma sketch_err_ge0 : 0 <= err.
Proof using e01 th0.
have h : 0 <= th / (1 - e) ^+ 2 by rewrite divr_ge0 ?(ltW th0) ?exprn_even_ge0.
rewrite /sketch_err muln0 expr0 mul1r mulr_ge0 ?addr_ge0 ?ler01 // sumr_ge0 // => i _.
by rewrite exprn_even_ge0.
Qed.

Lemma blk_event b l : (0 < b)%N -> (0 < l <= minn m n)%N ->
  uncorrelated E (blk_rng r n b l) n l -> normal4 E (blk_rng r n b l) n l ->
  exists D : G -> bool, E (fun g => (~~ D g)%:R) <= fail_prob rk l e th /\
  forall g c (Q : 'M[R]_(m, c)) (V : 'M[R]_(c, l)), D g -> orthonormal Q -> A *m blk_sketch r n b l g l = Q *m V ->
    fro2 (A - Q *m (Q^T *m A)) <= err.
Proof using mE pE spl e01 th0 qrL.
move=> b0 /andP[l0 lmn] un n4.
have [D [ED HD]] := prob_range mE pE (blk_rng_ok n b l) qrL spl e01 th0 l0 lmn (conj un n4).
exists D; split=> // g c Q V Dg oQ QV.
have n0 : (0 < n)%N by apply: leq_trans l0 (leq_trans lmn (geq_minr _ _)).
have [s1 [Y [EY HY]]] := HD g [::] Dg.
have [X [EX XE]] := RS1_0 L (blk_rng_ok n b l) A g [::] n0 l0.
have XY : X = Y.
  apply: ofmx_inj; move: EY; rewrite EX => /(congr1 (fun z => if z.2 is inr (PyArr a) then a else ofmx X)).
  by [].
have sd0 w : (0 < w)%N -> 0 < blk_sd R n w.
  by move=> w0; rewrite /blk_sd sqrtr_gt0 invr_gt0 ltr0n leq_min n0.
pose dd : 'rV[R]_l := \row_j (blk_sd R n l / blk_sd R n (blk_width b l (j %/ b))).
have YE : Y = blk_sketch r n b l g l *m diag_mx dd.
  apply/matrixP=> i j; rewrite -XY XE /= el_mk // mul_mx_diag !mxE.
  by rewrite mulrCA mulrA mulrC mulrA.
apply: (HY c Q (V *m diag_mx dd)) => //.
by rewrite YE mulmxA QV mulmxA.
Qed.

Lemma blk_err_le b l g : (0 < b)%N -> (0 < l <= minn m n)%N ->
  (forall c (Q : 'M[R]_(m, c)) (V : 'M[R]_(c, l)), orthonormal Q -> A *m blk_sketch r n b l g l = Q *m V ->
    fro2 (A - Q *m (Q^T *m A)) <= err) ->
  blk_generic r b l A g -> exists W, fro2 (A - A *m blk_sketch r n b l g l *m W) <= err.
Proof using qrL e01 th0.
move=> b0 /andP[l0 lmn] HD gen.
have gl : \rank (A *m blk_sketch r n b l g l) = minn l (\rank A).
  by have := gen l; rewrite (minn_idPr _) //; apply: leq_pmulr.
have [lt|ge] := ltnP (\rank A) l.
  have [|W AW] := @rank_factor R m n l A (blk_sketch r n b l g l).
    by rewrite gl; apply/minn_idPr; exact: ltnW.
  by exists W; rewrite -AW subrr fro20 sketch_err_ge0.
have lm : (l <= m)%N := leq_trans lmn (geq_minl _ _).
have [Q [V [_ oQ _ QV]]] := qr_tall (A *m blk_sketch r n b l g l) qrL l0 lm.
have uV : V \in unitmx.
  rewrite -row_full_unit /row_full eqn_leq rank_leq_col /=.
  by rewrite -[X in (X <= _)%N](minn_idPl ge) -gl QV mxrankM_maxr.
exists (invmx V *m (Q^T *m A)); rewrite {1}QV [_ *m V *m _]mulmxA mulmxK //.
exact: HD oQ QV.
Qed.

Lemma qb_b_blk_prob (blk k : int) l : (0 < m)%N -> (0 < n)%N -> 0 < k -> 0 < blk ->
  l%:Z = Num.min k (minn m n)%:Z ->
  uncorrelated E (blk_rng r n (absz blk) l) n l -> normal4 E (blk_rng r n (absz blk) l) n l ->
  exists D : G -> bool, E (fun g => (~~ D g)%:R) <= fail_prob rk l e th /\
  forall g es ow tol, D g -> blk_generic r (absz blk) l A g ->
  exists c (Q : 'M[R]_(m, c)) (B : 'M[R]_(c, n)),
    (qb_b L r 2 blk ow (ofmx A) k tol RGen (St g es)).2 =
      inr (ofmx Q, ofmx B, ofmx (if ow then A - Q *m B else A)) /\
    (fro2 (A - Q *m B) <= err \/ exists x, [/\ tol = Some x, 0 < x & fro (A - Q *m B) <= x * fro A]).
Proof using mE pE rok qrL spl e01 th0.
move=> m0 n0 k0 blk0 lE un n4.
have lE' : l = minn (absz k) (minn m n) by clear -lE k0; move: lE; case: ltrP; lia.
have b0 : (0 < absz blk)%N by clear -blk0; lia.
have l0 : (0 < l <= minn m n)%N by clear -lE' k0 m0 n0; lia.
have [D [ED HD]] := blk_event b0 l0 un n4.
exists D; split=> // g es ow tol Dg gen.
have [W HW] := blk_err_le b0 l0 (fun c Q V => HD g c Q V Dg) gen.
have [c [Q [B [E1 /andP[_ ck] tolP best _]]]] := qb_b_blk rok qrL A m0 n0 k0 blk0 ow tol g es.
exists c, Q, B; split=> //.
move: ck tolP best; rewrite -lE' => ck tolP best.
have [lt|ge] := ltnP c l; first by right; exact: tolP.
left; have cl : c = l by apply/eqP; rewrite eqn_leq ck.
by subst c; have [_ h] := best gen; exact: le_trans (h W) HW.
Qed.

Lemma noov_blk (blk k : int) l tol g es : (0 < m)%N -> (0 < n)%N -> 0 < k -> 0 < blk ->
  l = minn (absz k) (minn m n) -> (if tol is Some x then x <= 0 else true) ->
  \rank (A *m blk_sketch r n (absz blk) l g l) = l ->
  exists s' (Q : 'M[R]_(m, l)) (V : 'M[R]_l),
  [/\ QB2_noov L (RF1 L (RS1 (skopGA r) 0 (orth L) 1)) blk (ofmx A) k tol (St g es) =
        (s', inr (ofmx Q, ofmx (Q^T *m A))),
      orthonormal Q & A *m blk_sketch r n (absz blk) l g l = Q *m V].
Proof using rok qrL.
move=> m0 n0 k0 blk0 lE tolP rl.
have [s' [c [Q [B [E1 /andP[_ ck] tl _ best]]]]] := QB2_blk rok qrL A m0 n0 k0 blk0 false tol g es.
move: ck tl best; rewrite -lE => ck tl best.
have cl : c = l.
  apply/eqP; rewrite eqn_leq ck /=; case: ltnP => // /tl [x [tE x0 _]].
  by move: tolP x0; rewrite tE => /le_lt_trans h /h; rewrite ltxx.
subst c; have [oQ BE [Y QE]] := best rl; have [uY SE] := span_back oQ QE.
exists s', Q, (invmx Y); split=> //.
by rewrite /QB2_noov (bindE _ E1) BE.
Qed.

Lemma svd1_blk_prob (blk k over : int) l : svd_spec L -> (0 < m)%N -> (0 < n)%N -> 0 <= k -> 0 < k + over -> 0 < blk ->
  l%:Z = Num.min (k + over) (minn m n)%:Z ->
  uncorrelated E (blk_rng r n (absz blk) l) n l -> normal4 E (blk_rng r n (absz blk) l) n l ->
  exists D : G -> bool, E (fun g => (~~ D g)%:R) <= fail_prob rk l e th /\
  forall g es tol, D g -> \rank (A *m blk_sketch r n (absz blk) l g l) = l -> (if tol is Some x then x <= 0 else true) ->
  exists c (Us : 'M[R]_(m, c)) (s : 'cV[R]_c) (Vs : 'M[R]_(c, n)),
    (svd1 L r (ofmx A) k over tol 2 blk RGen (St g es)).2 = inr (ofmx Us, ofcv s, ofmx Vs) /\
    forall X : 'M[R]_(m, n), (\rank X <= absz k)%N ->
      fro2 (A - Us *m diag_mx s^T *m Vs) <= err + fro2 (A - X) + (minn l n)%:R * (10%:R * 2%:R ^- 52) ^+ 2.
Proof using mE pE rok qrL spl e01 th0.
move=> svdL m0 n0 k0 ko blk0 lE un n4.
have lE' : l = minn (absz (k + over)) (minn m n) by clear -lE ko; move: lE; case: ltrP; lia.
have b0 : (0 < absz blk)%N by clear -blk0; lia.
have l0 : (0 < l <= minn m n)%N by clear -lE' ko m0 n0; lia.
have [D [ED HD]] := blk_event b0 l0 un n4.
exists D; split=> // g es tol Dg rl tolP; rewrite /svd1 /=.
have [s' [Q [V [E1 oQ QV]]]] := noov_blk es m0 n0 ko blk0 lE' tolP rl.
have l1 : (0 < l)%N by case/andP: l0.
have [c [Us [s [Vs [ES h _]]]]] := svd1_best svdL l1 n0 k0 oQ E1.
exists c, Us, s, Vs; split; first by rewrite ES.
by move=> X rX; apply: le_trans (h X rX) _; rewrite !ler_add2r (HD g _ Q V).
Qed.
End Prob.

Lemma evd1_blk_prob (R : rcfType) (G : Type) (E : (G -> R) -> R) (L : lapack R) (r : rng_ops G R)
    (asort : seq R -> seq nat) n q (A : 'M[R]_n) (U : 'M[R]_(n, q)) (t : 'cV[R]_q) (Vh : 'M[R]_(q, n))
    (rk : nat) (sg tau e th : R) (blk k over : int) l :
  mean E -> positive E -> rng_ok r -> qr_spec L ->
  sing_split A U t Vh rk 0 sg tau -> 0 < e < 1 -> 0 < th ->
  eigh_spec L -> argsort_spec asort -> A^T = A -> 0 < k <= n%:Z -> 0 < k + over -> 0 < blk ->
  l%:Z = Num.min (k + over) n%:Z ->
  uncorrelated E (blk_rng r n (absz blk) l) n l -> normal4 E (blk_rng r n (absz blk) l) n l ->
  exists D : G -> bool, E (fun g => (~~ D g)%:R) <= fail_prob rk l e th /\
  forall g es tol, D g -> \rank (A *m blk_sketch r n (absz blk) l g l) = l -> (if tol is Some x then x == 0 else true) ->
    exists c (V : 'M[R]_(n, c)) (lam : 'cV[R]_c),
    (evd1 L r asort (ofmx A) k tol over 2 blk RGen (St g es)).2 = inr (ofmx V, ofcv lam) /\
    forall X : 'M[R]_n, (\rank X <= absz k)%N ->
      fro2 (A - V *m diag_mx lam^T *m V^T) <=
      2%:R * sketch_err t rk 0 sg tau e th + fro2 (A - X) + l%:R * (10%:R * 2%:R ^- 52) ^+ 2.
Proof.
move=> mE pE rok qrL spl e01 th0 eighL asP sA kn ko blk0 lE un n4.
have n0 : (0 < n)%N by clear -kn; lia.
have lE' : l = minn (absz (k + over)) (minn n n) by clear -lE ko; move: lE; case: ltrP; lia.
have b0 : (0 < absz blk)%N by clear -blk0; lia.
have l0 : (0 < l <= minn n n)%N by clear -lE' ko n0; lia.
have [D [ED HD]] := blk_event mE pE qrL spl e01 th0 b0 l0 un n4.
exists D; split=> // g es tol Dg rl tolP; rewrite /evd1 bind_passertT //.
have tolP' : (if half_tol tol is Some x then 0 <= x else true) = true.
  by rewrite half_tolE; case: (tol) tolP => //= x /eqP ->; rewrite mul0r lexx.
have tolP2 : is_true (if omap (fun x => x / 2%:R) (half_tol tol) is Some x then x <= 0 else true).
  by rewrite half_tolE; case: (tol) tolP => //= x /eqP ->; rewrite !mul0r lexx.
have [s' [Q [V [E1 oQ QV]]]] := noov_blk rok qrL es n0 n0 ko blk0 lE' tolP2 rl.
have l1 : (0 < l)%N by case/andP: l0.
have [c [V' [lam [ES h _]]]] := evd1_best eighL asP sA kn tolP' l1 oQ E1.
exists c, V', lam; split; first by rewrite /with_rng ES.
by move=> X rX; apply: le_trans (h X rX) _; rewrite !ler_add2r ler_pmul2l ?ltr0n // (HD g _ Q V).
Qed.

(** ** Witness: a generator handing out the columns of one array from left to right *)
Section Wit.
Variables (R : rcfType) (d : nat).
Local Notation gag := (gag d d).
Definition pg_rng : rng_ops (gag * nat) R := {|
  r_normal := fun g c m' n' => ((g.1, g.2 + n')%N, mk m' n' (fun i j => c * ga_el R g.1 i (g.2 + j)));
  r_stdnormal := fun g m' n' => (g, mk m' n' (fun _ _ => 0));
  r_random := fun g n' => (g, nseq n' 0);
  r_choice := fun g p k b => (g, if b then nseq k 0%N else iota 0 k);
  r_perm := fun g n' => (g, iota 0 n');
  r_seed := fun=> ([ffun=> ord0], 0%N); r_seeds := fun=> ([ffun=> ord0], 0%N) |}.
Definition pg_mean (f : gag * nat -> R) : R := ga_mean (fun t => f (t, 0%N)).

Lemma pg_meanP : mean pg_mean.
Proof.
have [h1 h2 h3 h4] := ga_meanP R d d; split=> [f g fg|f g|c f|]; rewrite /pg_mean.
- by apply: h1 => t.
- exact: h2.
- exact: h3.
exact: h4.
Qed.
Lemma pg_meanpos : positive pg_mean.
Proof. by move=> f f0; apply: ga_meanpos => t. Qed.
Lemma pg_rng_ok : rng_ok pg_rng.
Proof.
split=> /=.
- by move=> g s m' n'; split; [exact: wf_mk|].
- by move=> g m' n'; split; [exact: wf_mk|].
- by move=> g n'; rewrite size_nseq.
- move=> g p c [] /=; rewrite ?orbF /=.
    move=> pk _; rewrite size_nseq; split=> //; apply/allP=> i /nseqP [-> c0].
    by move: pk; rewrite -(negbK (c == 0)%N) -lt0n c0 orbF.
  move=> _ kp; rewrite size_iota iota_uniq; split=> //; apply/allP=> i.
  by rewrite mem_iota => /andP[_ /leq_trans]; apply.
by [].
Qed.

Variable b : nat.
Hypotheses (b0 : (0 < b)%N) (d0 : (0 < d)%N).
Lemma pg_gen t q : blk_gen pg_rng d b (t, 0%N) q = (t, (q * b)%N).
Proof. by elim: q => //= q; rewrite /blk_gen => -> /=; rewrite mulSn addnC. Qed.

Lemma pg_width j : (j < d)%N -> (0 < blk_width b d (j %/ b))%N /\ (j %% b < blk_width b d (j %/ b))%N.
Proof using b0.
move=> jd; have jE := divn_eq j b; have jm := ltn_pmod j b0; rewrite /blk_width.
by move: (j %/ b)%N (j %% b)%N jE jm => q w; clear -jd; lia.
Qed.

Lemma pg_el t i j : (i < d)%N -> (j < d)%N ->
  blk_el pg_rng d b d (t, 0%N) i j = blk_sd R d (blk_width b d (j %/ b)) * ga_el R t i j.
Proof using b0.
move=> hi hj; have [w0 jw] := pg_width hj.
by rewrite /blk_el /= el_mk // pg_gen /= -divn_eq.
Qed.

Lemma pg_sd w : (0 < w)%N -> blk_sd R d w != 0.
Proof using d0. by move=> w0; rewrite /blk_sd gt_eqF // sqrtr_gt0 invr_gt0 ltr0n leq_min d0. Qed.

Lemma pg_law c t i j : (i < d)%N -> (j < d)%N ->
  el (r_normal (blk_rng pg_rng d b d) (t, 0%N) c d d).2 i j = el (r_normal (ga_rng R d d) t c d d).2 i j.
Proof using b0 d0.
move=> hi hj; rewrite /= !el_mk // pg_el //.
have [w0 _] := pg_width hj.
by rewrite mulrAC divff ?pg_sd // mul1r.
Qed.

Lemma pg_uncorrelated : uncorrelated pg_mean (blk_rng pg_rng d b d) d d.
Proof using b0 d0.
move=> c i j k l hi hj hk hl; rewrite -(ga_uncorrelated c hi hj hk hl) /pg_mean.
by apply: (mean_ext (ga_meanP R d d)) => t; rewrite !pg_law.
Qed.
Lemma pg_normal4 : normal4 pg_mean (blk_rng pg_rng d b d) d d.
Proof using b0 d0.
move=> c i1 j1 i2 j2 i3 j3 i4 j4 h1 k1 h2 k2 h3 k3 h4 k4 x.
have := ga_normal4 c h1 k1 h2 k2 h3 k3 h4 k4 => /= <-.
by apply: (mean_ext (ga_meanP R d d)) => t; rewrite /x !pg_law.
Qed.

(** The state whose array is a multiple of the identity. *)
Definition pg_one : gag * nat := ([ffun x : 'I_d * 'I_d => if x.1 == x.2 then 0 else inord 2], 0%N).
Lemma pg_one_el i j : (i < d)%N -> (j < d)%N -> ga_el R pg_one.1 i j = Num.sqrt 3%:R * (i == j)%:R.
Proof.
move=> hi hj; rewrite /ga_el !insubT /ga_val ffunE /= -val_eqE /=.
by case: (i == j); rewrite ?mulr1 ?mulr0 ?inordK.
Qed.

Lemma pg_generic m (A : 'M[R]_(m, d)) : row_free A^T -> blk_generic pg_rng b d A pg_one.
Proof using b0 d0.
move=> fA q c.
have rA : \rank A = d by apply/eqP; rewrite -mxrank_tr.
have cd : (c <= d)%N by rewrite /c geq_minr.
have rS : \rank (blk_sketch pg_rng d b d pg_one c) = c.
  apply: inj_full_col => v /matrixP h; apply/matrixP=> j z; rewrite [z]ord1 mxE.
  have jd : (j < d)%N := leq_trans (ltn_ord j) cd.
  have := h (Ordinal jd) 0; rewrite !mxE (bigD1 j) //= big1 ?addr0.
    rewrite mxE /pg_one pg_el ?pg_one_el // eqxx mulr1 => /eqP; rewrite mulf_eq0 => /orP[|/eqP //].
    have [w0 _] := pg_width jd; rewrite mulf_eq0 (negbTE (pg_sd w0)) /= => /eqP e3.
    have : 0 < Num.sqrt 3%:R :> R by rewrite sqrtr_gt0 ltr0n.
    by rewrite e3 ltxx.
  move=> i ij; have id : (i < d)%N := leq_trans (ltn_ord i) cd.
  rewrite mxE /pg_one pg_el ?pg_one_el //= (_ : (j == i :> nat) = false) ?mulr0 ?mul0r //.
  by apply/negbTE; rewrite eq_sym.
rewrite rA (minn_idPl cd); apply: inj_full_col => v.
rewrite -mulmxA => /(full_col_inj rA) /(full_col_inj rS) //.
Qed.
End Wit.

Lemma pg_two (R : rcfType) d b1 b2 t : (0 < d)%N -> (0 < b1)%N -> (0 < b2)%N ->
  exists2 M : 'M[R]_d, M \in unitmx &
    blk_sketch (pg_rng R d) d b2 d (t, 0%N) d = blk_sketch (pg_rng R d) d b1 d (t, 0%N) d *m M.
Proof.
move=> d0 p1 p2; pose s b (j : 'I_d) := blk_sd R d (blk_width b d (j %/ b)).
have s0 b j : (0 < b)%N -> s b j != 0 by move=> b0; apply: pg_sd => //; have [] := pg_width b0 (ltn_ord j).
exists (diag_mx (\row_j (s b2 j / s b1 j))).
  by rewrite unitmxE det_diag unitfE; apply/prodf_neq0 => j _; rewrite mxE mulf_neq0 ?invr_eq0 ?s0.
apply/matrixP=> i j; rewrite mul_mx_diag !mxE !pg_el // -/(s b1 j) -/(s b2 j).
by rewrite [RHS]mulrC mulrA divfK ?s0.
Qed.

Lemma blk_wit (R : rcfType) :
  let t : 'cV[R]_8 := \col_i (if i == 0 then 1 else 2%:R^-1) in
  let A := diag_mx t^T in let e : R := 9%:R / 10%:R in
  [/\ sing_split A 1%:M t 1%:M 1 0 2%:R^-1 1, 0 < e < 1, fail_prob 1 8 e 1 < 2%:R^-1,
      [/\ mean (@pg_mean R 8), positive (@pg_mean R 8) & rng_ok (pg_rng R 8)] &
      [/\ uncorrelated (@pg_mean R 8) (blk_rng (pg_rng R 8) 8 3 8) 8 8,
          normal4 (@pg_mean R 8) (blk_rng (pg_rng R 8) 8 3 8) 8 8,
          blk_generic (pg_rng R 8) 3 8 A (pg_one 8),
          \rank (A *m blk_sketch (pg_rng R 8) 8 3 8 (pg_one 8) 8) = 8%N &
          blk_width 3 8 2 = 2%N /\
          exists2 M : 'M[R]_8, M \in unitmx &
          blk_sketch (pg_rng R 8) 8 8 8 (pg_one 8) 8 = blk_sketch (pg_rng R 8) 8 3 8 (pg_one 8) 8 *m M]].
Proof.
move=> t A e; have [[h1 h2 h3 h4 [h5 h6 _]] h7 h8 _ _] := prob_wit R.
have tn i : t i 0 != 0 by rewrite mxE; case: ifP => _; rewrite ?oner_eq0 ?invr_eq0 ?pnatr_eq0.
have fA : row_free A^T.
  rewrite row_free_unit unitmxE det_tr det_diag unitfE; apply/prodf_neq0 => j _.
  by rewrite mxE tn.
have gen : blk_generic (pg_rng R 8) 3 8 A (pg_one 8) by apply: pg_generic.
split=> //; split=> //.
- exact: pg_meanP.
- exact: pg_meanpos.
- exact: pg_rng_ok.
- exact: pg_uncorrelated.
- exact: pg_normal4.
- have := gen 3%N; rewrite /= => ->; apply/minn_idPl.
  by rewrite -mxrank_tr (eqP (fA : (\rank A^T == 8)%N)).
by split=> //; apply: pg_two.
Qed.
