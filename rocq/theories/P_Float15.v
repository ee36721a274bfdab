(** Proofs of C107, continued: the interpolative drivers in rounded arithmetic. *)
From mathcomp Require Import all_ssreflect all_algebra.
From mathcomp Require Import zify.
From Verif Require Import Base Arr Lapack Exact MxLib RingTac LapackSpec Rng Aware RangeFinders QB Interp Shape Inexact Float FloatInterp.
From Verif Require Import P_Interp P_Shape P_Inexact P_Float P_Float2 P_Float3 P_Float14.
Set Implicit Arguments.
Unset Strict Implicit.
Unset Printing Implicit Defensive.
Import Order.TTheory GRing.Theory Num.Theory.
Local Open Scope ring_scope.

Section OsidCore.
Variable R : rcfType.
Add Field osidcore_field : (rcf_field R).

Lemma osid_core m n c k (A : 'M[R]_(m, n)) (S : 'M[R]_(m, c)) (Y : 'M[R]_(c, n)) (E : 'M[R]_(n, k)) (X W : 'M[R]_(k, n))
    (V : 'M[R]_(m, c)) (d rt f : R) : 0 <= rt -> 0 <= f ->
  (forall p (B : 'M[R]_(p, n)), fro (B *m E) <= fro B) ->
  fro (Y - S^T *m A) <= d -> fro (Y - Y *m E *m X) <= rt * fro (Y - Y *m E *m W) + f * fro Y ->
  fro (A - A *m E *m X) <= (1 + fro X) * (fro (A - V *m (S^T *m A)) + fro V * d) +
    fro V * (rt * (fro (S^T *m (A - A *m E *m W)) + d * (1 + fro W)) + f * (fro S * fro A + d)).
Proof.
move=> rt0 f0 hE hY hid.
have resE p (B : 'M[R]_(p, n)) (Z : 'M[R]_(k, n)) : fro (B - B *m E *m Z) <= fro B * (1 + fro Z).
  apply: le_trans (ler_froB _ _) _; rewrite mulrDr mulr1 ler_add2l.
  by apply: le_trans (fro_mul_le _ _) _; rewrite ler_wpmul2r ?fro_ge0.
have -> : A - A *m E *m X = ((A - V *m Y) - (A - V *m Y) *m E *m X) + V *m (Y - Y *m E *m X).
  rewrite !mulmxBl mulmxBr !mulmxA; move: (V *m Y) (A *m E *m X) => a b; move: (a *m E *m X) => e.
  by apply/matrixP=> i j; rewrite !mxE; move: (a i j) (b i j) (e i j) (A i j) => x y z w; rring.
apply: le_trans (ler_froD _ _) _; apply: ler_add.
  apply: le_trans (resE _ _ _) _; rewrite mulrC ler_wpmul2l ?addr_ge0 ?ler01 ?fro_ge0 //.
  have -> : A - V *m Y = (A - V *m (S^T *m A)) - V *m (Y - S^T *m A) by rewrite mulmxBr opprB addrA subrK.
  by apply: le_trans (ler_froB _ _) _; rewrite ler_add2l; apply: le_trans (fro_mul_le _ _) _; rewrite ler_wpmul2l ?fro_ge0.
apply: le_trans (fro_mul_le _ _) _; rewrite ler_wpmul2l ?fro_ge0 //; apply: le_trans hid _; apply: ler_add.
  rewrite ler_wpmul2l //; set D := Y - S^T *m A in hY.
  have -> : Y - Y *m E *m W = S^T *m (A - A *m E *m W) + (D - D *m E *m W).
    rewrite /D !mulmxBl mulmxBr !mulmxA; move: (S^T *m A) (Y *m E *m W) => a b; move: (a *m E *m W) => e.
    by apply/matrixP=> i j; rewrite !mxE; move: (a i j) (b i j) (e i j) (Y i j) => x y z w; rring.
  apply: le_trans (ler_froD _ _) _; rewrite ler_add2l; apply: le_trans (resE _ _ _) _.
  by rewrite ler_wpmul2r ?addr_ge0 ?ler01 ?fro_ge0.
rewrite ler_wpmul2l // -[Y in X in X <= _](subrK (S^T *m A)); apply: le_trans (ler_froD _ _) _; rewrite addrC.
by apply: ler_add => //; apply: le_trans (fro_mul_le _ _) _; rewrite {1}/fro fro2_trmx.
Qed.
End OsidCore.

Section Osid.
Context {R : rcfType} {T : Type} {O : ops T} {G : Type}.
Variables (v : T -> R) (u : R) (X : exn -> Prop) (L : lapack T) (eta dl : R).
Hypotheses (F : fl_arith O v u) (qrL : qrp_fl v X L eta dl) (e01 : 0 <= eta < 1) (dl0 : 0 <= dl) (xl : X LinAlgError).
Local Notation mv := (@mval R T O v).
Let u0 : 0 <= u. Proof using F. exact: fl_u0 F. Qed.

Lemma fl_id_ge0 k x w : 0 <= x -> 0 <= w -> 0 <= fl_id eta dl u k x w.
Proof using F dl0.
move=> x0 w0; rewrite /fl_id; apply: addr_ge0; last by rewrite mulr_ge0 // addr_ge0 ?ler01.
rewrite mulr_ge0 ?sqrtr_ge0 // addr_ge0 // !mulr_ge0 ?(fl_tri_ge0 F) ?invr_ge0 ?sqrtr_ge0 ?addr_ge0 ?ler01 //; exact: mulr_ge0.
Qed.

(** Selection matrices. *)
Definition selm n k (J : seq nat) : 'M[R]_(n, k) := \matrix_(i, j) ((i : nat) == nth 0%N J j)%:R.
Lemma mul_selm p n k J (B : 'M[R]_(p, n)) : skel n k J ->
  exists2 f : 'I_k -> 'I_n, (forall j, f j = nth 0%N J j :> nat) /\ injective f & B *m selm n k J = \matrix_(i, j) B i (f j).
Proof using.
case=> sJ uJ /allP aJ; have jn (j : 'I_k) : (nth 0%N J j < n)%N by apply: aJ; rewrite mem_nth ?sJ.
exists (fun j => Ordinal (jn j)).
  by split=> // a b /(congr1 val) /= /eqP; rewrite nth_uniq ?sJ // => /eqP e; apply: val_inj.
apply/matrixP=> i j; rewrite !mxE (bigD1 (Ordinal (jn j))) //= mxE eqxx mulr1 big1 ?addr0 // => l lj.
by rewrite mxE; case: eqP => [e|]; rewrite ?mulr0 //; case/eqP: lj; apply: val_inj.
Qed.
Lemma fro_selm p n k J (B : 'M[R]_(p, n)) : skel n k J -> fro (B *m selm n k J) <= fro B.
Proof using. by move=> /mul_selm - /(_ p B) [f [_ fi] ->]; apply: (@fro_sub _ _ _ _ _ B id f). Qed.
Lemma cols_selm m n k (A : arr T) J : skel n k J -> cols_at v m k A J = mv m n A *m selm n k J.
Proof using.
by move=> /mul_selm - /(_ m (mv m n A)) [f [fE _] ->]; apply/matrixP=> i j; rewrite !mxE fE.
Qed.
Lemma rows_selm m n k (A : arr T) J : skel m k J -> rows_at v k n A J = (selm m k J)^T *m mv m n A.
Proof using.
move=> /mul_selm - /(_ n (mv m n A)^T) [f [fE _] h]; apply: trmx_inj; rewrite trmx_mul trmxK h.
by apply/matrixP=> i j; rewrite !mxE fE.
Qed.

Local Notation skd := (fun n c (PS : 'M[R]_(n, c) -> Prop) S => exists2 B, S = PyArr B & shaped n c B /\ PS (mv n c B)).

Section Osid1.
Variables (sk : @rowsketcher T G) (m n k : nat) (over : int) (A : arr T) (s : st G T).
Hypotheses (k0 : (0 < k)%N) (ov : 0 <= over) (kon : k%:Z + over <= (minn m n)%:Z) (sA : shaped m n A).
Local Notation c := (absz (k%:Z + over)%R).

Lemma fl_osid_cols (PS : 'M[R]_(m, c) -> Prop) : rsafe X (skd m c PS) (sk (mtr A) c s).2 ->
  rsafe X (fun XJ => exists2 S : 'M[R]_(m, c), PS S & osid_cols v eta dl u n k A S XJ) (OSID1 L sk A k over 1 s).2.
Proof using All.
move=> hs; rewrite /OSID1 /= /col_sketch ifF; last by clear -ov; lia.
rewrite /bind; case: (sk (mtr A) c s) hs => s1 [e //|Sk] /= [B ->{Sk} [sB pB]]; rewrite /emit /lift /bind /=.
have := fl_mmul F X (sh_mtr sB) sA; case: (mmul _ _) => [e //|Y] /= [sY hY].
have ck : (k <= minn c n)%N by move: ov kon; clear; lia.
have [H _] := fl_qrcp_osid F qrL e01 xl k0 ck sY.
apply: rsafe_weak H _ => -[Z J] [/= sZ sJ c1 hZ]; exists (mv m c B) => //; split=> //= W V.
rewrite (cols_selm m A sJ) /osid_err; apply: (@osid_core R m n c k (mv m n A) (mv m c B) (mv c n Y)).
- by rewrite mulr_ge0 ?invr_ge0 ?sqrtr_ge0.
- by apply: fl_id_ge0; exact: fro_ge0.
- by move=> p M; exact: fro_selm.
- by move: hY; rewrite (mval_tr v sB) {2}/fro fro2_trmx.
by have := hZ W; rewrite (cols_selm c Y sJ).
Qed.

Lemma fl_osid_rows (PS : 'M[R]_(n, c) -> Prop) : rsafe X (skd n c PS) (sk A c s).2 ->
  rsafe X (fun ZI => exists2 S : 'M[R]_(n, c), PS S & osid_rows v eta dl u m k A S ZI) (OSID1 L sk A k over 0 s).2.
Proof using All.
move=> hs; rewrite /OSID1 /= /row_sketch ifF; last by clear -ov; lia.
rewrite /bind; case: (sk A c s) hs => s1 [e //|Sk] /= [B ->{Sk} [sB pB]]; rewrite /passA /emit /lift /bind /=.
have := fl_mmul F X sA sB; case: (mmul _ _) => [e //|Y] /= [sY hY].
have ck : (k <= minn m c)%N by move: ov kon; clear; lia.
have [_ H] := fl_qrcp_osid F qrL e01 xl k0 ck sY.
apply: rsafe_weak H _ => -[Z J] [/= sZ sJ c1 hZ]; exists (mv n c B) => //; split=> //= W V.
have fT a b (D : 'M[R]_(a, b)) : fro D^T = fro D by rewrite /fro fro2_trmx.
rewrite (rows_selm n A sJ) /osid_err; set E := selm m k J.
have := @osid_core R n m c k (mv m n A)^T (mv n c B) (mv m c Y)^T E (mv m k Z)^T W^T V^T (gam u n.+1 * (fro (mv n c B) * fro (mv m n A)))
  (Num.sqrt (1 + eta) / Num.sqrt (1 - eta)) (fl_id eta dl u k (fro (mv m k Z)) (fro W)).
have trE (D : 'M[R]_(m, k)) p (M : 'M[R]_(m, p)) : M^T - M^T *m E *m D^T = (M - D *m (E^T *m M))^T.
  by rewrite linearB /= !trmx_mul trmxK.
have e1 : (mv m n A)^T - V^T *m ((mv n c B)^T *m (mv m n A)^T) = (mv m n A - mv m n A *m mv n c B *m V)^T.
  by rewrite linearB /= !trmx_mul.
have e2 (M : 'M[R]_(m, n)) : (mv n c B)^T *m M^T = (M *m mv n c B)^T by rewrite trmx_mul.
rewrite !trE e1 !e2 !fT; apply.
- by rewrite mulr_ge0 ?invr_ge0 ?sqrtr_ge0.
- by apply: fl_id_ge0; exact: fro_ge0.
- by move=> p M; exact: fro_selm.
- by rewrite -linearB /= fT; move: hY; rewrite [fro (mv m n A) * _]mulrC.
by have := hZ W; rewrite (rows_selm c Y sJ).
Qed.
End Osid1.

(** Index selections. *)
Lemma sel_cidx m n k (A : arr T) J : shaped m n A -> skel n k J ->
  rsafe X (fun C => [/\ shaped m k C, mv m k C = cols_at v m k A J & forall i j, (i < m)%N -> (j < k)%N -> el C i j = el A i (nth 0%N J j)])
    (cidx A J).
Proof using.
move=> [_ a1 a2] [sJ _ aJ]; rewrite /cidx a1 a2 aJ sJ; split=> [||i j hi hj]; [exact: sh_mk| |by rewrite el_mk].
by rewrite mval_mk; apply/matrixP=> i j; rewrite !mxE.
Qed.
Lemma sel_ridx m n k (A : arr T) I : shaped m n A -> skel m k I ->
  rsafe X (fun C => [/\ shaped k n C, mv k n C = rows_at v k n A I & forall i j, (i < k)%N -> (j < n)%N -> el C i j = el A (nth 0%N I i) j])
    (ridx A I).
Proof using.
move=> [_ a1 a2] [sI _ aI]; rewrite /ridx a1 a2 aI sI; split=> [||i j hi hj]; [exact: sh_mk| |by rewrite el_mk].
by rewrite mval_mk; apply/matrixP=> i j; rewrite !mxE.
Qed.

(** Two-sided ID over any one-sided ID. *)
Section Tsid.
Variables (osid : @osid_t T G) (m n k : nat) (over : int) (A : arr T) (s : st G T) (P : arr T * seq nat -> Prop).
Hypotheses (k0 : (0 < k)%N) (kmn : (k <= minn m n)%N) (sA : shaped m n A).
Local Notation rt := (Num.sqrt (1 + eta) / Num.sqrt (1 - eta)).
Let km : (k <= m)%N. Proof using kmn. by move: kmn; rewrite leq_min => /andP[]. Qed.
Let kn : (k <= n)%N. Proof using kmn. by move: kmn; rewrite leq_min => /andP[]. Qed.

Lemma fl_tsid_tall : (n < m)%N ->
  rsafe X (fun XJ => [/\ shaped k n XJ.1, skel n k XJ.2 & P XJ]) (osid A k over 1 s).2 ->
  rsafe X (fun x => let Z := x.1.1.1 in let I := x.1.1.2 in let Y := x.1.2 in let J := x.2 in
    [/\ P (Y, J), shaped m k Z /\ shaped k n Y, skel m k I /\ skel n k J, rows_at v k k Z I = 1%:M &
        forall W : 'M[R]_(m, k), fro (mv m n A - mv m k Z *m core_at v k A I J *m mv k n Y) <=
          fro (mv m n A - cols_at v m k A J *m mv k n Y) +
          (rt * fro (cols_at v m k A J - W *m core_at v k A I J) +
           fl_id eta dl u k (fro (mv m k Z)) (fro W) * fro (cols_at v m k A J)) * fro (mv k n Y)]) (TSID1 L osid A k over s).2.
Proof using All.
move=> nm; rewrite /TSID1; case: (sA) => _ -> ->; rewrite nm /bind.
case: (osid _ _ _ _ _) => s1 [e //|[Y J]] /= [sY sJ pP].
have := sel_cidx sA sJ; rewrite /lift; case: (cidx _ _) => [e //|C] /= [sC cE elC].
have [_] := fl_qrcp_osid F qrL e01 xl k0 (Y := C) (m := m) (n := k) (etrans (leq_min _ _ _) (introT andP (conj km (leqnn k)))) sC.
case: (qrcp_osid _ _ _ _) => [e //|[Z I]] /= [/= sZ sI r1 hZ]; split=> // W.
have coE : rows_at v k k C I = core_at v k A I J.
  have [szI _ /allP aI] := sI; apply/matrixP=> i j; rewrite !mxE elC //.
  by apply: aI; rewrite mem_nth ?szI.
have := hZ W; rewrite coE cE => h.
have -> : mv m n A - mv m k Z *m core_at v k A I J *m mv k n Y =
    (mv m n A - cols_at v m k A J *m mv k n Y) + (cols_at v m k A J - mv m k Z *m core_at v k A I J) *m mv k n Y.
  by rewrite mulmxBl addrA subrK.
apply: le_trans (ler_froD _ _) _; rewrite ler_add2l; apply: le_trans (fro_mul_le _ _) _.
by rewrite ler_wpmul2r ?fro_ge0.
Qed.

Lemma fl_tsid_wide : (m <= n)%N ->
  rsafe X (fun ZI => [/\ shaped m k ZI.1, skel m k ZI.2 & P ZI]) (osid A k over 0 s).2 ->
  rsafe X (fun x => let Z := x.1.1.1 in let I := x.1.1.2 in let Y := x.1.2 in let J := x.2 in
    [/\ P (Z, I), shaped m k Z /\ shaped k n Y, skel m k I /\ skel n k J, cols_at v k k Y J = 1%:M &
        forall W : 'M[R]_(k, n), fro (mv m n A - mv m k Z *m core_at v k A I J *m mv k n Y) <=
          fro (mv m n A - mv m k Z *m rows_at v k n A I) +
          fro (mv m k Z) * (rt * fro (rows_at v k n A I - core_at v k A I J *m W) +
           fl_id eta dl u k (fro (mv k n Y)) (fro W) * fro (rows_at v k n A I))]) (TSID1 L osid A k over s).2.
Proof using All.
move=> nm; rewrite /TSID1; case: (sA) => _ -> ->; rewrite ltnNge nm /bind /=.
case: (osid _ _ _ _ _) => s1 [e //|[Z I]] /= [sZ sI pP].
have := sel_ridx sA sI; rewrite /lift; case: (ridx _ _) => [e //|C] /= [sC cE elC].
have [] := fl_qrcp_osid F qrL e01 xl k0 (Y := C) (m := k) (n := n) (etrans (leq_min _ _ _) (introT andP (conj (leqnn k) kn))) sC.
case: (qrcp_osid _ _ _ _) => [e //|[Y J]] /= [/= sY sJ r1 hY] _; split=> // W.
have coE : cols_at v k k C J = core_at v k A I J.
  have [szJ _ /allP aJ] := sJ; apply/matrixP=> i j; rewrite !mxE elC //.
  by apply: aJ; rewrite mem_nth ?szJ.
have := hY W; rewrite coE cE => h.
have -> : mv m n A - mv m k Z *m core_at v k A I J *m mv k n Y =
    (mv m n A - mv m k Z *m rows_at v k n A I) + mv m k Z *m (rows_at v k n A I - core_at v k A I J *m mv k n Y).
  by rewrite mulmxBr addrA subrK mulmxA.
apply: le_trans (ler_froD _ _) _; rewrite ler_add2l; apply: le_trans (fro_mul_le _ _) _.
by rewrite ler_wpmul2l ?fro_ge0.
Qed.
End Tsid.
End Osid.

(** Pseudo-inverses from an inexact least squares solver. *)
Section Cur.
Context {R : rcfType} {T : Type} {O : ops T} {G : Type}.
Variables (v : T -> R) (X : exn -> Prop) (L : lapack T) (tau : R).
Hypotheses (lsh : lap_shapes X L) (lsL : lstsqs_fl v X L tau).
Local Notation mv := (@mval R T O v).

Lemma fl_pinv_left m p q (B C : arr T) : (0 < m)%N -> (0 < p)%N -> (0 < q)%N -> shaped m q B -> shaped m p C ->
  rsafe X (fun Z => shaped p q Z /\ forall W : 'M[R]_(p, q),
    fro (mv m q B - mv m p C *m mv p q Z) <= (1 + tau) * fro (mv m q B - mv m p C *m W)) (pinv_left L B C).
Proof using lsL.
move=> m0 p0 q0 sB sC; rewrite /pinv_left; apply: rsafe_weak (lsL m0 p0 q0 sC sB) _ => Z [sZ h]; split=> // W.
by have := h W; rewrite -froN opprB -[in X in X -> _](froN (_ - mv m q B)) opprB.
Qed.
Lemma fl_pinv_right n p q (B C : arr T) : (0 < n)%N -> (0 < p)%N -> (0 < q)%N -> shaped q n B -> shaped p n C ->
  rsafe X (fun Z => shaped q p Z /\ forall W : 'M[R]_(q, p),
    fro (mv q n B - mv q p Z *m mv p n C) <= (1 + tau) * fro (mv q n B - W *m mv p n C)) (pinv_right L B C).
Proof using lsL.
move=> n0 p0 q0 sB sC; rewrite /pinv_right.
apply: rsafe_bind (lsL n0 p0 q0 (sh_mtr sC) (sh_mtr sB)) _ => Z [sZ h]; split=> [|W]; first exact: sh_mtr.
have fT a b (D : 'M[R]_(a, b)) : fro D^T = fro D by rewrite /fro fro2_trmx.
have := h W^T; rewrite (mval_tr v sC) (mval_tr v sB) (mval_tr v sZ) => {}h.
have e (D : 'M[R]_(p, q)) : fro (mv q n B - D^T *m mv p n C) = fro ((mv p n C)^T *m D - (mv q n B)^T).
  by rewrite -fT linearB /= trmx_mul trmxK -froN opprB.
by rewrite e -[W]trmxK e.
Qed.

Section CurA.
Variables (m n k : nat) (over : int) (A : arr T) (s : st G T) (P : arr T * seq nat -> Prop).
Hypotheses (k0 : (0 < k)%N) (kmn : (k <= minn m n)%N) (sA : shaped m n A).
Let km : (k <= m)%N. Proof using kmn. by move: kmn; rewrite leq_min => /andP[]. Qed.
Let kn : (k <= n)%N. Proof using kmn. by move: kmn; rewrite leq_min => /andP[]. Qed.
Let m0 : (0 < m)%N. Proof using k0 kmn. exact: leq_trans km. Qed.
Let n0 : (0 < n)%N. Proof using k0 kmn. exact: leq_trans kn. Qed.

Lemma fl_osid2_cols c (sk : @rowsketcher T G) : 0 < c -> k%:Z + over = c ->
  rsafe X (shop m (absz c)) (sk (mtr A) (absz c) s).2 ->
  rsafe X (fun XJ => [/\ shaped k n XJ.1, skel n k XJ.2 & forall W : 'M[R]_(k, n),
    fro (mv m n A - cols_at v m k A XJ.2 *m mv k n XJ.1) <= (1 + tau) * fro (mv m n A - cols_at v m k A XJ.2 *m W)])
    (OSID2 L sk A k over 1 s).2.
Proof using lsh lsL k0 kmn sA.
move=> c0 ce; rewrite /OSID2 /= /col_sketch ce ifF; last by apply/negbTE; rewrite -leNgt ltW.
rewrite /bind; case: (sk (mtr A) _ s) => s1 [e //|Sk] /= [B ->{Sk} sB]; rewrite /emit /lift /bind /=.
have := sh_mmul X (sh_mtr sB) sA; case: (mmul _ _) => [e //|Y] /= sY.
have c1 : (0 < absz c)%N by rewrite absz_gt0 gt_eqF.
have := safe_qrp_idx lsh c1 n0 kn sY; case: (qrp_idx _ _) => [e //|J] /= sJ.
have := @sel_cidx R T O v X m n k A (take k J) sA sJ; case: (cidx _ _) => [e //|C] /= [sC cE _].
have := fl_pinv_left m0 k0 n0 sA sC; case: (pinv_left _ _ _) => [e //|Z] /= [sZ h].
by split=> // W; have := h W; rewrite cE.
Qed.
Lemma fl_osid2_rows c (sk : @rowsketcher T G) : 0 < c -> k%:Z + over = c ->
  rsafe X (shop n (absz c)) (sk A (absz c) s).2 ->
  rsafe X (fun ZI => [/\ shaped m k ZI.1, skel m k ZI.2 & forall W : 'M[R]_(m, k),
    fro (mv m n A - mv m k ZI.1 *m rows_at v k n A ZI.2) <= (1 + tau) * fro (mv m n A - W *m rows_at v k n A ZI.2)])
    (OSID2 L sk A k over 0 s).2.
Proof using lsh lsL k0 kmn sA.
move=> c0 ce; rewrite /OSID2 /= /row_sketch ce ifF; last by apply/negbTE; rewrite -leNgt ltW.
rewrite /bind; case: (sk A _ s) => s1 [e //|Sk] /= [B ->{Sk} sB]; rewrite /passA /emit /lift /bind /=.
have := sh_mmul X sA sB; case: (mmul _ _) => [e //|Y] /= sY.
have c1 : (0 < absz c)%N by rewrite absz_gt0 gt_eqF.
have := safe_qrp_idx lsh c1 m0 km (sh_mtr sY); case: (qrp_idx _ _) => [e //|J] /= sJ.
have := @sel_ridx R T O v X m n k A (take k J) sA sJ; case: (ridx _ _) => [e //|C] /= [sC cE _].
have := fl_pinv_right n0 k0 m0 sA sC; case: (pinv_right _ _ _) => [e //|Z] /= [sZ h].
by split=> // W; have := h W; rewrite cE.
Qed.

Lemma fl_cur_tall (osid : @osid_t T G) : (n < m)%N ->
  rsafe X (fun XJ => [/\ shaped k n XJ.1, skel n k XJ.2 & P XJ]) (osid A k over 1 s).2 ->
  rsafe X (fun x => let J := x.1.1 in let U := x.1.2 in let I := x.2 in
    [/\ shaped k k U, skel m k I /\ skel n k J & exists2 Y, shaped k n Y /\ P (Y, J) &
        forall W : 'M[R]_k, fro (mv m n A - cols_at v m k A J *m mv k k U *m rows_at v k n A I) <=
          fro (mv m n A - cols_at v m k A J *m mv k n Y) +
          (1 + tau) * fro (cols_at v m k A J) * fro (mv k n Y - W *m rows_at v k n A I)]) (CUR1 L osid A k over s).2.
Proof using All.
move=> nm; rewrite /CUR1; case: (sA) => _ -> ->; rewrite nm /bind.
case: (osid _ _ _ _ _) => s1 [e //|[Y J]] /= [sY sJ pP].
have := @sel_cidx R T O v X m n k A J sA sJ; rewrite /lift; case: (cidx _ _) => [e //|C] /= [sC cE _].
have := safe_qrp_idx lsh k0 m0 km (sh_mtr sC); case: (qrp_idx _ _) => [e //|Iv] /= sI.
have := @sel_ridx R T O v X m n k A (take k Iv) sA sI; case: (ridx _ _) => [e //|D] /= [sD dE _].
have := fl_pinv_right n0 k0 k0 sY sD; case: (pinv_right _ _ _) => [e //|U] /= [sU h].
split=> //; exists Y => // W; have := h W; rewrite dE => {}h.
have -> : mv m n A - cols_at v m k A J *m mv k k U *m rows_at v k n A (take k Iv) =
    (mv m n A - cols_at v m k A J *m mv k n Y) + cols_at v m k A J *m (mv k n Y - mv k k U *m rows_at v k n A (take k Iv)).
  by rewrite mulmxBr addrA subrK mulmxA.
apply: le_trans (ler_froD _ _) _; rewrite ler_add2l; apply: le_trans (fro_mul_le _ _) _.
by rewrite mulrAC mulrC ler_wpmul2l ?fro_ge0.
Qed.

Lemma fl_cur_wide (osid : @osid_t T G) : (m <= n)%N ->
  rsafe X (fun ZI => [/\ shaped m k ZI.1, skel m k ZI.2 & P ZI]) (osid A k over 0 s).2 ->
  rsafe X (fun x => let J := x.1.1 in let U := x.1.2 in let I := x.2 in
    [/\ shaped k k U, skel m k I /\ skel n k J & exists2 Z, shaped m k Z /\ P (Z, I) &
        forall W : 'M[R]_k, fro (mv m n A - cols_at v m k A J *m mv k k U *m rows_at v k n A I) <=
          fro (mv m n A - mv m k Z *m rows_at v k n A I) +
          (1 + tau) * fro (mv m k Z - cols_at v m k A J *m W) * fro (rows_at v k n A I)]) (CUR1 L osid A k over s).2.
Proof using All.
move=> nm; rewrite /CUR1; case: (sA) => _ -> ->; rewrite ltnNge nm /bind /=.
case: (osid _ _ _ _ _) => s1 [e //|[Z I]] /= [sZ sI pP].
have := @sel_ridx R T O v X m n k A I sA sI; rewrite /lift; case: (ridx _ _) => [e //|C] /= [sC cE _].
have := safe_qrp_idx lsh k0 n0 kn sC; case: (qrp_idx _ _) => [e //|Jv] /= sJ.
have := @sel_cidx R T O v X m n k A (take k Jv) sA sJ; case: (cidx _ _) => [e //|D] /= [sD dE _].
have := fl_pinv_left m0 k0 k0 sZ sD; case: (pinv_left _ _ _) => [e //|U] /= [sU h].
split=> //; exists Z => // W; have := h W; rewrite dE => {}h.
have -> : mv m n A - cols_at v m k A (take k Jv) *m mv k k U *m rows_at v k n A I =
    (mv m n A - mv m k Z *m rows_at v k n A I) + (mv m k Z - cols_at v m k A (take k Jv) *m mv k k U) *m rows_at v k n A I.
  by rewrite mulmxBl addrA subrK.
apply: le_trans (ler_froD _ _) _; rewrite ler_add2l; apply: le_trans (fro_mul_le _ _) _.
by rewrite ler_wpmul2r ?fro_ge0.
Qed.
End CurA.
End Cur.
