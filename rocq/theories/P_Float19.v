(** Proofs of C108: the Nystrom eigendecomposition in rounded arithmetic. *)
From mathcomp Require Import all_ssreflect all_algebra.
From mathcomp Require Import zify.
From Verif Require Import Base Arr Lapack Exact MxLib RingTac LapackSpec Rng Aware RangeFinders QB SvdEvd Shape Inexact Float FloatInterp FloatEvd
  FloatNys.
From Verif Require Import Sel P_Svd P_SvdEvd P_Evd2 P_Shape P_Inexact P_Float P_Float2 P_Float3 P_Float5 P_Float10 P_Float13 P_Float14 P_Float17 P_Float18.
Set Implicit Arguments.
Unset Strict Implicit.
Unset Printing Implicit Defensive.
Import Order.TTheory GRing.Theory Num.Theory.
Local Open Scope ring_scope.

Lemma comps_mem {T : Type} {O : ops T} (sg : seq T) nu : forall todo i,
  evd2_comps sg nu todo i =
  if ((0 < todo) ==> (i + todo < size sg))%N
  then Ok [seq j <- iota i todo | ole (osq (ev sg j.+1)) nu] else Err IndexError.
Proof.
elim=> [|todo IH] i //; rewrite [LHS]/= implyTb.
case: ltnP => lt; last by rewrite ifF //; apply/negbTE; rewrite -leqNgt; lia.
rewrite IH; case: todo IH => [|todo] IH /=; first by rewrite addn1 lt; case: ifP.
by rewrite !addSnnS; case: ifP => //= _; case: ifP.
Qed.

Section Nys.
Context {R : rcfType} {T : Type} {O : ops T} {G : Type}.
Variables (v : T -> R) (u mu : R) (X : exn -> Prop) (L : lapack T).
Hypotheses (F : fl_arith O v u) (fsvd : svd_fl v X L mu) (mu0 : 0 <= mu).
Add Field nysf_field : (rcf_field R).
Local Notation mV := (@mval R T O v).
Local Notation vV := (@vval R T O v).
Local Notation g := (gam u).
Let u0 := fl_u0 F.
Let u1 := fl_u1 F.
Let fT a c (A : 'M[R]_(a, c)) : fro A^T = fro A. Proof. by rewrite /fro fro2_trmx. Qed.

Lemma fl_madd m n (A B : arr T) : shaped m n A -> shaped m n B ->
  rsafe X (fun C => shaped m n C /\
    fro (mV m n C - (mV m n A + mV m n B)) <= u * fro (mV m n A + mV m n B)) (madd A B).
Proof using F.
move=> sA sB; have [_ a1 a2] := sA; have [_ b1 b2] := sB; rewrite /madd a1 a2 b1 b2 !eqxx; split; first exact: sh_mk.
apply: fro_dom => //; move=> i j; rewrite mval_mk !mxE; exact: fl_add.
Qed.
Lemma fl_mscale m n x (A : arr T) : shaped m n A ->
  shaped m n (mscale x A) /\ fro (mV m n (mscale x A) - v x *: mV m n A) <= u * fro (v x *: mV m n A).
Proof using F.
move=> sA; have [_ a1 a2] := sA; rewrite /mscale a1 a2; split; first exact: sh_mk.
apply: fro_dom => //; move=> i j; rewrite mval_mk !mxE; exact: fl_mul.
Qed.

(** The shift. *)
Lemma rel_onat n : rel u n (v (onat n)) n%:R.
Proof using F.
elim: n => [|n IH]; first by rewrite /rel [onat 0]/= (fl_0 F) subrr normr0 mulr_ge0 ?gam_ge0.
rewrite -addn1 natrD addn1; have h : rel u n (v (onat n) + v o1) (n%:R + 1).
  rewrite /rel (fl_1 F) opprD addrACA subrr addr0; apply: le_trans IH _; rewrite ler_wpmul2l ?gam_ge0 //.
  by rewrite !ger0_norm ?addr_ge0 ?ler01 ?ler0n // ler_addl ler01.
have := rel_trans (q := 1) u0 h; rewrite addn1; apply.
by rewrite /rel gam1; exact: fl_add.
Qed.
Lemma oeps_ge0 : 0 <= v oeps.
Proof using F.
have pos x y : 0 < v x -> 0 < v y -> 0 < v (omul x y).
  move=> hx hy; have p := mulr_gt0 hx hy; apply: (near_pos F p).
  by have := fl_mul F x y; rewrite (ger0_norm (ltW p)).
have two : 0 < v (oadd (@o1 T O) o1).
  have p : 0 < v (@o1 T O) + v (@o1 T O) by rewrite (fl_1 F) addr_gt0 ?ltr01.
  by apply: (near_pos F p); have := fl_add F (@o1 T O) (@o1 T O); rewrite (ger0_norm (ltW p)).
have pw n : 0 < v (opow (oadd (@o1 T O) o1) n).
  by elim: n => [|n IH]; [rewrite /= (fl_1 F) ltr01|exact: pos].
have d : 0 < v (@o1 T O) / v (opow (oadd (@o1 T O) o1) 52) by rewrite divr_gt0 // (fl_1 F) ltr01.
apply: ltW; apply: (near_pos F d).
have nz : v (opow (oadd (@o1 T O) o1) 52) != 0 by rewrite gt_eqF.
by rewrite -{2}(ger0_norm (ltW d)); exact: (fl_div F _ nz).
Qed.

Lemma fl_nu n p (Y : arr T) : shaped n p Y ->
  let nu := v (omul (omul (osqrt (onat n)) oeps) (mnorm Y)) in
  let w := n%:R * v oeps ^+ 2 * fro (mV n p Y) ^+ 2 in
  0 <= nu /\ is_true (`|nu ^+ 2 - w| <= g (n + n + p + 9) * w).
Proof using F.
move=> sY nu w.
have o0 : 0 <= v (onat n) by case: (onat_pos F n).
have pos0 x y : 0 <= v x -> 0 <= v y -> 0 <= v (omul x y).
  move=> hx hy; have p0 := mulr_ge0 hx hy; have := fl_mul F x y; rewrite (ger0_norm p0) ler_norml => /andP[h _].
  by rewrite -(ler_add2r (- (v x * v y))) add0r; apply: le_trans h; rewrite ler_opp2 ler_pimull // ltW.
have sq0 x : 0 <= v x -> 0 <= v (osqrt x).
  move=> hx; have := fl_sqrt F hx; rewrite ler_norml => /andP[h _].
  rewrite -(ler_add2r (- Num.sqrt (v x))) add0r; apply: le_trans h; rewrite ler_opp2 ler_pimull ?sqrtr_ge0 // ltW //.
split; first exact (pos0 _ _ (pos0 _ _ (sq0 _ o0) oeps_ge0) (sq0 _ (msq_ge0 F Y))).
have h1 := rel_sqrt F (ler0n R n) o0 (rel_onat n).
have h2 := rel_sqrt F (fro2_ge0 _) (msq_ge0 F Y) (rel_msq F sY).
have rr x : rel u 0 x x by rewrite /rel subrr normr0 mulr_ge0 ?gam_ge0.
have h3 := rel_mul u0 (rel_mul u0 h1 (rel_mul u0 (rr (v (@oeps T O))) (rr (v (@oeps T O))))) h2.
have h4 := rel_trans u0 (rel_mul u0 (rel_mul1 F (@osqrt T O (@onat T O n)) (@oeps T O)) (rr (v (@mnorm T O Y)))) (rel_mul1 F _ _).
have h5 := rel_mul u0 h4 h4; rewrite -/nu in h5.
have e1 : v (@osqrt T O (@onat T O n)) * v (@oeps T O) * v (@mnorm T O Y) * (v (@osqrt T O (@onat T O n)) * v (@oeps T O) * v (@mnorm T O Y)) =
    v (@osqrt T O (@onat T O n)) * v (@osqrt T O (@onat T O n)) * (v (@oeps T O) * v (@oeps T O)) * (v (@osqrt T O (@msq T O Y)) * v (@osqrt T O (@msq T O Y))).
  by rewrite /mnorm; move: (v (@osqrt T O (@onat T O n))) (v (@oeps T O)) (v (@osqrt T O (@msq T O Y))) => x y z; rring.
rewrite e1 in h5; have w0 : 0 <= w by rewrite !mulr_ge0 ?ler0n ?exprn_ge0 ?fro_ge0 // oeps_ge0.
have := rel_trans u0 h3 h5; rewrite -expr2 -[v (@oeps T O) * v (@oeps T O)]expr2 -sqr_fro -/w => h.
have := rel_le u0 (q := n + n + p + 9) _ h; rewrite /rel (ger0_norm w0); apply.
by clear; lia.
Qed.

Section Data.
Variables (n p : nat) (A Sk : arr T) (sA : shaped n n A) (sS : shaped n p Sk).
Local Notation a := (fro (mV n n A)).
Local Notation sg := (fro (mV n p Sk)).
Local Notation Y0 nu := ((mV n n A + (v nu)%:M) *m mV n p Sk).
Local Notation K nu := ((mV n p Sk)^T *m Y0 nu).
Local Notation e0 nu := (ny_e0 u n a (v nu) sg).
Local Notation y nu := (fro (Y0 nu)).

Lemma fl_Y (Y1 : arr T) nu : 0 <= v nu -> shaped n p Y1 -> fro (mV n p Y1 - mV n n A *m mV n p Sk) <= g n.+1 * (a * sg) ->
  rsafe X (fun Y => shaped n p Y /\ fro (mV n p Y - Y0 nu) <= e0 nu) (madd Y1 (mscale nu Sk)).
Proof using F sS.
move=> nu0 s1 h1; have [s2 h2] := fl_mscale nu sS.
apply: rsafe_weak (fl_madd s1 s2) _ => Y [sY h3]; split=> //.
set Ym := mV n p Y in h3 *; set Y1m := mV n p Y1 in h1 h3; set Pm := mV n p (mscale nu Sk) in h2 h3.
set Am := mV n n A in h1 *; set Sm := mV n p Sk in h1 h2 *.
have fZ : fro (v nu *: Sm) = v nu * fro Sm by rewrite /fro fro2Z sqrtrM ?sqr_ge0 // sqrtr_sqr ger0_norm.
rewrite fZ in h2.
have f1 : fro Y1m <= (1 + g n.+1) * (fro Am * fro Sm).
  rewrite -(subrK (Am *m Sm) Y1m) addrC mulrDl mul1r; apply: le_trans (ler_froD _ _) _.
  by apply: ler_add => //; exact: fro_mul_le.
have f2 : fro Pm <= (1 + u) * (v nu * fro Sm).
  by rewrite -(subrK (v nu *: Sm) Pm) addrC mulrDl mul1r; apply: le_trans (ler_froD _ _) _; rewrite fZ ler_add2l.
have -> : Ym - (Am + (v nu)%:M) *m Sm = (Ym - (Y1m + Pm)) + ((Y1m - Am *m Sm) + (Pm - v nu *: Sm)).
  rewrite mulmxDl mul_scalar_mx opprD [Y1m - _ + _]addrACA [RHS]addrA subrK //.
apply: le_trans (ler_froD _ _) _; apply: le_trans (ler_add h3 (ler_froD _ _)) _.
apply: le_trans (ler_add (ler_wpmul2l u0 (ler_froD _ _)) (ler_add h1 h2)) _.
apply: le_trans (ler_add (ler_wpmul2l u0 (ler_add f1 f2)) (lexx _)) _.
have gS : g n.+2 = g n.+1 + u + g n.+1 * u by rewrite -addn1 gamD gam1.
have g2 : u + u + u * u <= g n.+2.
  have <- : g 2 = u + u + u * u by rewrite (gamD u 1 1) gam1.
  by rewrite gam_le.
apply: (@le_trans _ _ (g n.+2 * (fro Am * fro Sm) + (u + u + u * u) * (v nu * fro Sm))).
  by rewrite gS; apply: eq_lew; move: (g n.+1) (fro Am) (fro Sm) (v nu) => x1 x2 x3 x4; rring.
apply: le_trans (ler_add (lexx _) (ler_wpmul2r _ g2)) _; first by rewrite mulr_ge0 ?fro_ge0.
by rewrite -mulrDr -mulrDl.
Qed.
Lemma e0_ge0 nu : 0 <= v nu -> 0 <= e0 nu.
Proof using F. by move=> nu0; rewrite mulr_ge0 ?gam_ge0 // mulr_ge0 ?addr_ge0 ?fro_ge0. Qed.

Section Fac.
Variables (nu : T) (Y C Lo Bt : arr T).
Hypotheses (nu0 : 0 <= v nu) (symA : (mV n n A)^T = mV n n A) (sY : shaped n p Y) (hY : fro (mV n p Y - Y0 nu) <= e0 nu)
  (sC : shaped p p C) (hC : fro (mV p p C - (mV n p Sk)^T *m mV n p Y) <= g n.+1 * (fro (mV n p Sk)^T * fro (mV n p Y)))
  (cLo : chol_ok v u p (mtr C) Lo) (sB : shaped p n Bt)
  (hB : fro (mV p n (mtr Y) - tri_val v false true p (mtr Lo) *m mV p n Bt) <=
        fl_tri u p * (fro (tri_val v false true p (mtr Lo)) * fro (mV p n Bt))).
Local Notation Lm := (mV p p Lo).
Local Notation Bm := (mV n p (mtr Bt)).

Lemma fro_Y : fro (mV n p Y) <= y nu + e0 nu.
Proof using hY.
by rewrite -(subrK (Y0 nu) (mV n p Y)) addrC; apply: le_trans (ler_froD _ _) _; rewrite ler_add2l.
Qed.
Lemma tri_L : tri_val v false true p (mtr Lo) = Lm.
Proof using cLo.
case: cLo => -[_ l1 l2] lt _ _ _; apply/matrixP=> i j; rewrite mxE /=; case: leqP => ij.
  by rewrite /mtr el_mk ?l1 ?l2 // mxE.
by rewrite (lt i j ij).
Qed.
Lemma fac_E1 : fro (Y0 nu - Bm *m Lm^T) <= e0 nu + fl_tri u p * (fro Lm * fro Bm).
Proof using hY hB cLo sB sY.
have := hB; rewrite tri_L (mval_tr v sY) => h.
have -> : Y0 nu - Bm *m Lm^T = (Y0 nu - mV n p Y) + (mV n p Y - Bm *m Lm^T) by rewrite addrA subrK.
apply: le_trans (ler_froD _ _) _; apply: ler_add.
  by rewrite -[X in X <= _]froN opprB.
by rewrite (mval_tr v sB) -fT linearB /= trmx_mul !trmxK fT.
Qed.
Lemma fro_C : fro (mV p p C - (mV n p Sk)^T *m mV n p Y) <= g n.+1 * (sg * (y nu + e0 nu)).
Proof using hC hY F.
apply: le_trans hC _; rewrite fT; apply: ler_wpmul2l; first exact: gam_ge0.
apply: ler_wpmul2l; [exact: fro_ge0|exact: fro_Y].
Qed.
Lemma symK : (K nu)^T = K nu.
Proof using symA. by rewrite !trmx_mul trmxK linearD /= symA tr_scalar_mx mulmxA. Qed.
Lemma fac_low : fro (K nu - lowval v p (mtr C)) <= Num.sqrt 2%:R * (g n.+1 * (sg * (y nu + e0 nu)) + sg * e0 nu).
Proof using hC hY F symA sC.
set Km := K nu; have sK : Km^T = Km by exact: symK.
rewrite -[X in X <= _]froN opprB.
have -> : lowval v p (mtr C) - Km = \matrix_(i, j) (if (j <= i)%N then (mV p p (mtr C) - Km) i j else (mV p p (mtr C) - Km) j i).
  have sE i j : Km i j = Km j i by rewrite -{1}sK mxE.
  by clearbody Km; apply/matrixP=> i j; rewrite !mxE; case: leqP => // _; rewrite sE.
apply: le_trans (low_le _) _; apply: ler_wpmul2l; first exact: sqrtr_ge0.
rewrite (mval_tr v sC) -{1}sK -linearB /= fT.
have -> : mV p p C - Km = (mV p p C - (mV n p Sk)^T *m mV n p Y) + (mV n p Sk)^T *m (mV n p Y - Y0 nu).
  by rewrite mulmxBr addrA subrK.
apply: le_trans (ler_froD _ _) _; apply: ler_add; first exact: fro_C.
by apply: le_trans (fro_mul_le _ _) _; rewrite fT; apply: ler_wpmul2l hY; exact: fro_ge0.
Qed.
Local Notation l2 := (ny_l2 u n p a (v nu) sg (y nu)).
Local Notation e2 := (ny_e2 u n p a (v nu) sg (y nu)).
Lemma fac_tr : \tr (lowval v p (mtr C)) <= (1 + Num.sqrt p%:R * g n.+1) * (sg * (y nu + e0 nu)).
Proof using hC hY F sC.
have -> : \tr (lowval v p (mtr C)) = fip (mV n p Sk) (mV n p Y) + fip 1%:M (mV p p C - (mV n p Sk)^T *m mV n p Y).
  rewrite /fip trmx1 mul1mx linearB /= addrC subrK; apply: eq_bigr => i _; rewrite !mxE maxnn ssrnat.minnn.
  by case: sC => _ c1' c2'; rewrite /mtr el_mk ?c1' ?c2'.
rewrite mulrDl mul1r; apply: ler_add.
  apply: le_trans (fip_fro _ _) _; apply: ler_wpmul2l; [exact: fro_ge0|exact: fro_Y].
apply: le_trans (fip_fro _ _) _; rewrite -mulrA {1}/fro fro2_1; apply: ler_wpmul2l; [exact: sqrtr_ge0|exact: fro_C].
Qed.
Lemma fac_L : fl_chol u p < 1 -> fro2 Lm <= l2.
Proof using hC hY F cLo sC.
move=> c1; rewrite /ny_l2 ler_pdivl_mulr ?subr_gt0 // mulrC; case: cLo => _ _ _ _ h; apply: le_trans h _.
exact: fac_tr.
Qed.
Lemma fac_E2 : fl_chol u p < 1 -> fro (K nu - Lm *m Lm^T) <= e2.
Proof using hC hY F cLo sC symA.
move=> c1; have -> : K nu - Lm *m Lm^T = (K nu - lowval v p (mtr C)) + (lowval v p (mtr C) - Lm *m Lm^T) by rewrite addrA subrK.
apply: le_trans (ler_froD _ _) _.
apply: ler_add; first exact: fac_low.
case: (cLo) => _ _ _ h _; apply: le_trans h _; apply: ler_wpmul2l (fac_L c1); exact: fl_chol_ge0 F _.
Qed.
Lemma fac_nys kap (Z : 'M[R]_(p, n)) : K nu *m Z = (Y0 nu)^T ->
  (forall w : 'cV[R]_p, kap * fro2 w <= \tr (w^T *m K nu *m w)) ->
  ny_cond u n p a (v nu) sg (y nu) kap ->
  let b := ny_b u n p a (v nu) sg (y nu) kap in let e1 := ny_e1 u n p a (v nu) sg (y nu) kap in
  let s := ny_s u n p a (v nu) sg (y nu) kap in
  is_true (fro Bm <= b) /\ is_true (fro (Y0 nu *m Z - Bm *m Bm^T) <= e1 * fro Z + b / s * (e1 + e2 * fro Z)).
Proof using nu0 hC hY F cLo sC symA hB sB sY.
move=> hZ co /and3P[c1 c2 c3] b e1 s.
have l0 : 0 <= Num.sqrt l2 by exact: sqrtr_ge0.
have ft0 := fl_tri_ge0 F p.
have E1 : fro (Y0 nu - Bm *m Lm^T) <= e0 nu + fl_tri u p * (Num.sqrt l2 * fro Bm).
  apply: le_trans fac_E1 _; rewrite ler_add2l; apply: ler_wpmul2l => //; apply: ler_wpmul2r; first exact: fro_ge0.
  by rewrite /fro ler_wsqrtr // fac_L.
split; first exact: (nys_B E1 (fac_E2 c1) co c2 c3).
exact: (nys_core ft0 l0 (e0_ge0 nu0) E1 (fac_E2 c1) hZ co c2 c3).
Qed.
End Fac.

(** Truncation and shift. *)
Lemma fl_comps q k nu (sgm : seq T) : (0 < k)%N -> (k <= q)%N -> size sgm = q ->
  rsafe X (fun comps => let r := foldr minn k comps in
    [/\ (r <= k)%N, (r < k)%N -> (r.+1 < q)%N /\ v (osq (ev sgm r.+1)) <= v nu &
        forall i, (0 < i < r)%N -> v nu < v (osq (ev sgm i))]) (evd2_comps sgm nu k.-1 0).
Proof using F.
move=> k0 kq es; rewrite comps_mem es add0n ifT; last by apply/implyP; clear -k0 kq; lia.
set l := [seq _ <- _ | _] => /=; have [h1 h2 h3] := foldr_minnP k l; split=> //.
  move=> rk; case: h3 => [e|]; first by move: rk; rewrite e ltnn.
  rewrite mem_filter mem_iota (fl_le F) add0n => /andP[h /andP[_ h']]; split=> //; clear -h' kq; lia.
move=> i /andP[i0 ir]; rewrite ltNge; apply/negP=> h.
have : i.-1 \in l.
  rewrite mem_filter mem_iota (fl_le F) (prednK i0) h add0n /=; clear -i0 ir h1; lia.
by move/h2; clear -i0 ir; lia.
Qed.

Lemma fl_lam x nu : 0 <= v nu ->
  `|v (osub (osq x) nu) - (v x ^+ 2 - v nu)| <= g 2 * (v x ^+ 2 + v nu).
Proof using F.
move=> nu0; have h1 := fl_mul F x x; have h2 := fl_sub F (@osq T O x) nu; rewrite -/(osq x) -expr2 in h1.
have x0 := sqr_ge0 (v x); rewrite (ger0_norm x0) in h1.
have f1 : v (osq x) <= (1 + u) * v x ^+ 2.
  by have := le_trans (ler_norm _) h1; rewrite ler_subl_addr mulrDl mul1r addrC.
have q0 := osq_ge0 F x.
have -> : v (osub (osq x) nu) - (v x ^+ 2 - v nu) = (v (osub (osq x) nu) - (v (osq x) - v nu)) + (v (osq x) - v x ^+ 2).
  by move: (v (osub _ _)) (v (osq x)) (v x ^+ 2) (v nu) => y1 y2 y3 y4; rring.
apply: le_trans (ler_norm_add _ _) _; apply: le_trans (ler_add h2 h1) _.
have f2 : `|v (osq x) - v nu| <= (1 + u) * v x ^+ 2 + v nu.
  apply: le_trans (ler_norm_sub _ _) _; rewrite !ger0_norm //; exact: ler_add.
apply: le_trans (ler_add (ler_wpmul2l u0 f2) (lexx _)) _.
have g2 : g 2 = u + u + u * u by rewrite (gamD u 1 1) gam1.
rewrite g2; apply: (@le_trans _ _ ((u + u + u * u) * v x ^+ 2 + u * v nu)).
  by apply: eq_lew; move: (v x ^+ 2) (v nu) => y1 y2; rring.
by rewrite mulrDr ler_add2l; apply: ler_wpmul2r => //; rewrite -addrA ler_addl addr_ge0 // mulr_ge0.
Qed.

Lemma osq_small x w : v (osq x) <= w -> v x ^+ 2 <= w / (1 - u).
Proof using F.
move=> h; rewrite ler_pdivl_mulr ?subr_gt0 // mulrBr mulr1 ler_subl_addr.
have h1 := fl_mul F x x; rewrite -/(osq x) -expr2 (ger0_norm (sqr_ge0 _)) distrC in h1.
have := le_trans (ler_norm _) h1; rewrite ler_subl_addr => h2; apply: le_trans h2 _.
by rewrite addrC [_ * u]mulrC ler_add2r.
Qed.

Lemma fl_EVD2 (sk_op : @rowsketcher T G) (k over : int) (s s1 : st G T) : X LinAlgError -> (mV n n A)^T = mV n n A ->
  0 < k < n%:Z -> 0 <= k + over -> absz (k + over) = p -> (absz k <= p)%N -> sk_op A p s = (s1, inr (PyArr Sk)) ->
  rsafe X (nys_ok v u mu (absz k) (mV n n A) (mV n p Sk)) (EVD2 L sk_op A k None over s).2.
Proof using F sA sS fsvd mu0.
move=> xl symA /andP[k0 kn] ko kp kpp hs; have [_ eA1 eA2] := sA; have n0 : (0 < n)%N by clear -k0 kn; lia.
have p0 : (0 < p)%N by clear -k0 kpp; lia.
have -> : EVD2 L sk_op A k None over s = EVD2 L (fun _ _ _ => (s1, inr (PyArr Sk))) A k None over s.
  by rewrite /EVD2 eA1 k0 kn !bind_passertT /bind /ret ltNge ko /= kp hs.
refine ((_ : safe X _ _) s); rewrite /EVD2 eA1; apply: safe_passert => //; apply: safe_passert => //.
apply: (safe_bind (Q := fun _ => True)); first exact: safe_ret.
move=> _ _; rewrite ltNge ko.
apply: (safe_bind (Q := fun x => x = PyArr Sk)); first by move=> s'.
move=> _ ->; have hp : safe X (fun C => shaped n p C /\
    fro (mV n p C - mV n n A *m mV n p Sk) <= g n.+1 * (a * sg)) (passA A (PyArr Sk) : M G T _).
  by apply: safe_emit; apply: safe_lift; exact: fl_mmul.
apply: (safe_bind hp) => Y1 [sY1 hY1]; cbv zeta.
set nu := omul _ _; have [nu0 hnu] := fl_nu sY1; rewrite -/nu in nu0 hnu.
apply: (safe_bind (safe_lift (fl_Y nu0 sY1 hY1))) => Y [sY hY].
apply: (safe_bind (safe_lift (fl_mmul F X (sh_mtr sS) sY))) => C [sC]; rewrite (mval_tr v sS) => hC.
apply: (safe_bind (safe_lift (fl_cholesky F xl (sh_mtr sC)))) => Lo cLo; have [sLo _ _ _ _] := cLo.
apply: (safe_bind (safe_lift (fl_solve_tri F false true xl (sh_mtr sLo) (sh_mtr sY)))) => Bt [sB hB].
apply: (safe_bind (safe_lift (fsvd n0 p0 (sh_mtr sB)))) => -[[U sgm] Vh] /=.
set q := minn n p => -[sU es sV srt [Uo [Vo [oU oV hU hV hS]]]].
have kq : (absz k <= q)%N by rewrite /q leq_min kpp andbT; clear -k0 kn; lia.
apply: (safe_bind (safe_lift (fl_comps nu _ kq es))); first by clear -k0; lia.
move=> comps; set e := foldr _ _ _ => -[ek etail epos]; apply: safe_ret.
have eq : (e <= q)%N by exact: leq_trans kq.
have ld := lead_slice sU es sV eq; have [_ lU ls _ _ lse _] := ld; have [vU vs _] := vV_lead v ld.
rewrite /= in lU ls lse vU vs.
have lamE i : (i < e)%N -> ev [seq osub (osq x) nu | x <- vslice sgm 0 e] i = osub (osq (ev sgm i)) nu.
  by move=> ie; rewrite {1}/ev (nth_map (@o0 T O)) ?ls // -/(ev _ _) lse.
exists (v nu), (fro (mV n p Y1)), e; split.
  split=> //; first exact: fro_ge0.
  rewrite ler_norml ler_subl_addl ler_subr_addl; apply/andP; split.
    have {1}-> : mV n n A *m mV n p Sk = mV n p Y1 - (mV n p Y1 - mV n n A *m mV n p Sk) by rewrite opprB addrC subrK.
    by rewrite ler_subl_addr; apply: le_trans (ler_froB _ _) _; rewrite ler_add2l.
  have {1}-> : mV n p Y1 = mV n n A *m mV n p Sk + (mV n p Y1 - mV n n A *m mV n p Sk) by rewrite addrC subrK.
  by apply: le_trans (ler_froD _ _) _; rewrite ler_add2l.
have oUe : orthonormal (colblk Uo 0 e) by exact: orthonormal_colblk.
have hUe : fro (mV n e (cslice U 0 e) - colblk Uo 0 e) <= mu by rewrite vU; apply: le_trans (colblk_le _ _ eq) hU.
have s0 (i : 'I_q) : 0 <= vV q sgm i 0.
  by rewrite mxE; have := srt i i; rewrite leqnn ltn_ord => /(_ isT) /andP[].
have ss (i j : 'I_q) : (i <= j)%N -> vV q sgm j 0 <= vV q sgm i 0.
  by move=> ij; rewrite !mxE; have := srt i j; rewrite ij ltn_ord => /(_ isT) /andP[].
split=> //.
- by rewrite /= size_map ls.
- move: (mV n e _) (colblk Uo 0 e) hUe oUe => V1 V0 h1 o0.
  rewrite -[V1](subrK V0) [X in near_ortho _ X]addrC.
  have := near_pert (d := mu) (eta := 0) (Q := V0) (D := V1 - V0).
  rewrite lexx ltr01 addr0 subr0 sqrtr1 invr1 add0r => /(_ isT mu0).
  have -> : (1 + 1 + mu : R) = 2%:R + mu by rewrite -[2%N]/(1 + 1)%N natrD.
  by apply=> //; exact: near0.
- move=> i /andP[i0 ie] /=; rewrite lamE //.
  have h : 0 < v (osq (ev sgm i)) - v nu by rewrite subr_gt0 epos // i0.
  by apply: (near_pos F h); rewrite -{2}(ger0_norm (ltW h)); exact: fl_sub.
move=> kap Z hZ co cd err rnd.
have [bB hN] := fac_nys nu0 symA sY hY sC hC cLo sB hB hZ co cd.
have pq : Num.sqrt (q%:R : R) <= Num.sqrt p%:R by rewrite ler_wsqrtr // ler_nat geq_minr.
have w0 : 0 <= v nu / (1 - u) by rewrite divr_ge0 // subr_ge0 ltW.
have hl (i : 'I_e) : `|vV e [seq osub (osq x) nu | x <- vslice sgm 0 e] i 0 - (topv (vV q sgm) e i 0 ^+ 2 - v nu)| <=
    g 2 * (topv (vV q sgm) e i 0 ^+ 2 + v nu).
  by rewrite (topvE _ (leq_trans (ltn_ord i) eq)) !mxE lamE //; exact: fl_lam.
have h20 := gam_ge0 u0 2.
split=> [Xm rX|ek'].
  apply: le_trans (trunc_err mu0 nu0 h20 eq oU oV s0 ss hS bB hN hUe hl rX) _.
  rewrite /err /rnd /ny_err /ny_rnd; apply: ler_add.
    by rewrite ler_add2l ler_wpmul2l.
  have c0 : 0 <= mu * (2%:R + mu) * (1 + g 2) by rewrite !mulr_ge0 // addr_ge0 // ?ler01 ?ler0n.
  apply: ler_wpmul2l; first exact: addr_ge0 h20 c0.
  by rewrite ler_add2l ler_wpmul2l.
have [e1q se] := etail ek'.
have sw (i : 'I_q) : (e.+1 <= i)%N -> vV q sgm i 0 ^+ 2 <= v nu / (1 - u).
  move=> ei; apply: le_trans (osq_small se); rewrite -[v (ev sgm e.+1)]/(v _) .
  have := ss (Ordinal e1q) i ei; rewrite !mxE /= => h; rewrite ler_expn2r ?nnegrE //.
    by have := s0 i; rewrite mxE.
  by have := s0 (Ordinal e1q); rewrite mxE.
have [Xm rX hX] := trunc_tail mu0 oU oV s0 ss hS bB hN (ltnW e1q) w0 sw.
exists Xm => //; apply: le_trans hX _; rewrite /err /ny_err ler_add2r; exact: (ler_wpmul2r w0 pq).
Qed.
End Data.
End Nys.
