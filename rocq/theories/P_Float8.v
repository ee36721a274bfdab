(** Proofs of C101: the residuals of conjugate gradients in rounded arithmetic. *)
From mathcomp Require Import all_ssreflect all_algebra.
From mathcomp Require Import zify.
From Verif Require Import Base Arr Exact MxLib RingTac Shape Float Pcg.
From Verif Require Import P_Shape P_Float P_Float6.
Set Implicit Arguments.
Unset Strict Implicit.
Unset Printing Implicit Defensive.
Import Order.TTheory GRing.Theory Num.Theory.
Local Open Scope ring_scope.

Lemma rbind_inv (X Y : Type) (c : res X) (f : X -> res Y) y : rbind c f = Ok y -> exists x, c = Ok x /\ f x = Ok y.
Proof. by case: c => // x h; exists x. Qed.

Lemma natr1' (R : rcfType) j : j%:R + 1 = j.+1%:R :> R.
Proof. by rewrite -addn1 natrD. Qed.

Section Vec.
Context {R : rcfType} {T : Type} {O : ops T}.
Variables (v : T -> R) (u : R).
Hypothesis (F : fl_arith O v u).
Local Notation g := (gam u).
Local Notation vV := (@vval R T O v).
Add Field vec_field : (rcf_field R).
Let u0 : 0 <= u. Proof using F. exact: fl_u0 F. Qed.
Let u1 : u < 1. Proof using F. exact: fl_u1 F. Qed.

Lemma fl_vscale n c x : size x = n ->
  size (vscale c x) = n /\ fro (vV n (vscale c x) - v c *: vV n x) <= u * fro (v c *: vV n x).
Proof using F.
move=> ex; split; first by rewrite size_mkseq.
by apply: fro_dom => // i j; rewrite !mxE /ev nth_mkseq ?ex // (fl_mul F).
Qed.

Lemma fl_vadd n x y z : size x = n -> size y = n -> vadd x y = Ok z ->
  size z = n /\ fro (vV n z - (vV n x + vV n y)) <= u * fro (vV n x + vV n y).
Proof using F.
move=> ex ey; rewrite /vadd ex ey eqxx => -[<-]; split; first by rewrite size_mkseq.
by apply: fro_dom => // i j; rewrite !mxE /ev nth_mkseq // (fl_add F).
Qed.

Lemma fl_vsub n x y z : size x = n -> size y = n -> vsub x y = Ok z ->
  size z = n /\ fro (vV n z - (vV n x - vV n y)) <= u * fro (vV n x - vV n y).
Proof using F.
move=> ex ey; rewrite /vsub ex ey eqxx => -[<-]; split; first by rewrite size_mkseq.
by apply: fro_dom => // i j; rewrite !mxE /ev nth_mkseq // (fl_sub F).
Qed.

Lemma fl_vnorm n x : size x = n -> 0 <= v (vnorm x) /\ `|v (vnorm x) - fro (vV n x)| <= g n.+3 * fro (vV n x).
Proof using F.
move=> ex; have q0 : 0 <= v (vsq x) by apply: (osum_ge0 F) => i _; exact: (osq_ge0 F).
have r1 : rel u n.+1 (v (vsq x)) (fro2 (vV n x)).
  rewrite /rel /vsq ex; have h (i : 'I_n) : rel u 1 (v (osq (ev x i))) (v (ev x i) ^+ 2) by rewrite expr2; exact: rel_mul1.
  have := @fl_osum_rel R T O v u F n 1 (fun j => osq (ev x j)) (fun j => v (ev x j) ^+ 2) h; rewrite addn1.
  have -> : fro2 (vV n x) = \sum_(i < n) v (ev x i) ^+ 2.
    by apply: eq_bigr => i _; rewrite big_ord1 mxE.
  move=> /le_trans; apply; rewrite ler_wpmul2l ?(gam_ge0 u0) //.
  apply: le_trans (ler_norm _); rewrite le_eqVlt; apply/orP; left; apply/eqP.
  by apply: eq_bigr => l _; rewrite ger0_norm ?sqr_ge0.
have r2 := rel_sqrt F (fro2_ge0 _) q0 r1.
have s0 : 0 <= v (osqrt (vsq x)).
  have := fl_sqrt F q0; rewrite ler_norml => /andP[hl _]; move: hl; rewrite ler_subr_addl; apply: le_trans.
  by rewrite subr_ge0 ler_pimull ?sqrtr_ge0 // ltW.
split=> //; move: r2; rewrite /rel [X in _ <= _ * X]ger0_norm ?fro2_ge0 // -sqr_fro -/(vnorm x) -expr2 => h.
have f0 := fro_ge0 (vV n x); move: (fro (vV n x)) f0 h => f f0 h.
have y0 : 0 <= v (vnorm x) by [].
move: (v (vnorm x)) y0 h => y y0; rewrite subr_sqr normrM [X in _ * X <= _]ger0_norm ?addr_ge0 // => h.
move: f0; rewrite le_eqVlt => /orP[/eqP fE|fp].
  move: h; rewrite -fE subr0 addr0 expr2 mul0r !mulr0 ger0_norm // -expr2 => h.
  have : y ^+ 2 = 0 by apply/eqP; rewrite eq_le h sqr_ge0.
  by move=> /eqP; rewrite expf_eq0 /= => /eqP ->.
rewrite -(ler_pmul2r fp) -mulrA -expr2; apply: le_trans h; apply: ler_wpmul2l => //.
by rewrite ler_addr.
Qed.

(** A relative error in the other direction. *)
Lemma rev_err p q (B C : 'M[R]_(p, q)) : fro (B - C) <= u * fro C -> fro C <= fro B / (1 - u).
Proof using F.
move=> h; rewrite ler_pdivl_mulr ?subr_gt0 // mulrBr mulr1 ler_subl_addr mulrC.
have -> : C = B - (B - C) by rewrite opprB addrCA subrr addr0.
apply: le_trans (ler_froD _ _) _; rewrite froN ler_add2l.
by rewrite (_ : B - (B - C) = C) // opprB addrCA subrr addr0.
Qed.
End Vec.

Section Gap.
Context {R : rcfType} {T : Type} {O : ops T}.
Variables (v : T -> R) (u : R) (n : nat) (H : 'M[R]_n) (a h xi : R) (mvH mvP : seq T -> res (seq T)) (b : seq T).
Hypotheses (F : fl_arith O v u) (opH : op_fl v mvH H a) (opP : op_len n mvP) (a0 : 0 <= a) (h0 : 0 <= h).
Hypotheses (Hh : forall z : 'cV[R]_n, fro (H *m z) <= h * fro z) (sb : size b = n).
Local Notation g := (gam u).
Local Notation vV := (@vval R T O v n).
Local Notation bn := (fro (vV b)).
Add Field gap_field : (rcf_field R).
Let u0 : 0 <= u. Proof using F. exact: fl_u0 F. Qed.
Let u1 : u < 1. Proof using F. exact: fl_u1 F. Qed.
Local Notation res x := (vV b - H *m vV x).
Local Notation D := (fl_upd u xi).
Local Notation c0 := (fl_fresh u a h bn xi).
Local Notation c1 := (fl_rec u a h bn xi).

Lemma gap_fresh x Hx r : size x = n -> fro (vV x) <= xi -> mvH x = Ok Hx -> vsub b Hx = Ok r ->
  size r = n /\ fro (res x - vV r) <= c0.
Proof using F opH a0 h0 Hh sb.
move=> ex hx /(opH ex) [eHx hHx] /(fl_vsub F sb eHx) [er hr]; split=> //.
have -> : res x - vV r = (vV Hx - H *m vV x) - (vV r - (vV b - vV Hx)).
  move: (H *m vV x) (vV b) (vV r) (vV Hx) => X1 X2 X3 X4.
  by apply/matrixP=> i j; rewrite !mxE; move: (X1 i j) (X2 i j) (X3 i j) (X4 i j) => y1 y2 y3 y4; rring.
apply: le_trans (ler_froD _ _) _; rewrite froN; apply: ler_add.
  by apply: le_trans hHx _; exact: ler_wpmul2l.
apply: le_trans hr _; apply: ler_wpmul2l => //; apply: le_trans (ler_froD _ _) _; rewrite froN ler_add2l.
have -> : vV Hx = (vV Hx - H *m vV x) + H *m vV x by rewrite subrK.
apply: le_trans (ler_froD _ _) _; rewrite addrC mulrDl; apply: ler_add.
  by apply: le_trans (Hh _) _; exact: ler_wpmul2l.
by apply: le_trans hHx _; exact: ler_wpmul2l.
Qed.

Lemma gap_rec x d q al x' r r' gp : size x = n -> size d = n -> size r = n -> mvH d = Ok q ->
  vadd x (vscale al d) = Ok x' -> vsub r (vscale al q) = Ok r' ->
  fro (vV x) <= xi -> fro (vV x') <= xi -> fro (res x - vV r) <= gp ->
  [/\ size x' = n, size r' = n & fro (res x' - vV r') <= (1 + u) * gp + c1].
Proof using F opH a0 h0 Hh.
move=> ex ed er /(opH ed) [eq hq]; have [es hs] := fl_vscale F al ed; have [et ht] := fl_vscale F al eq.
move=> /(fl_vadd F ex es) [ex' hx'] /(fl_vsub F er et) [er' hr'] nx nx' hg; split=> //.
set z := vV (vscale al d) in hs hx'; set w := vV (vscale al q) in ht hr'.
set ad := v al *: vV d in hs; set aq := v al *: vV q in ht.
have u1' : 0 < 1 - u by rewrite subr_gt0.
have b1 : fro (vV x + z) <= xi / (1 - u).
  by apply: le_trans (rev_err F hx') _; rewrite ler_wpmul2r // invr_ge0 ltW.
have b2 : fro z <= xi + xi / (1 - u).
  have -> : z = (vV x + z) - vV x by rewrite addrC addKr.
  by apply: le_trans (ler_froD _ _) _; rewrite froN addrC; exact: ler_add.
have b3 : fro ad <= D.
  by apply: le_trans (rev_err F hs) _; rewrite ler_wpmul2r // invr_ge0 ltW.
have b4 : fro (vV x' - (vV x + ad)) <= u * (xi / (1 - u)) + u * D.
  have -> : vV x' - (vV x + ad) = (vV x' - (vV x + z)) + (z - ad).
    by rewrite !opprD !addrA subrK.
  apply: le_trans (ler_froD _ _) _; apply: ler_add.
    by apply: le_trans hx' _; exact: ler_wpmul2l.
  by apply: le_trans hs _; exact: ler_wpmul2l.
have b5 : fro (aq - H *m ad) <= a * D.
  rewrite /aq /ad -scalemxAr -scalerBr {1}/fro fro2Z (@sqrtrM _ (_ ^+ 2)) ?sqr_ge0 // sqrtr_sqr.
  apply: le_trans (ler_wpmul2l (normr_ge0 _) hq) _; rewrite mulrCA; apply: ler_wpmul2l => //.
  apply: le_trans b3; rewrite /ad {2}/fro fro2Z (@sqrtrM _ (_ ^+ 2)) ?sqr_ge0 // sqrtr_sqr //.
have b6 : fro aq <= (h + a) * D.
  have -> : aq = H *m ad + (aq - H *m ad) by rewrite addrC subrK.
  apply: le_trans (ler_froD _ _) _; rewrite mulrDl; apply: ler_add => //.
  by apply: le_trans (Hh _) _; exact: ler_wpmul2l.
have b7 : fro (w - aq) <= u * ((h + a) * D) by apply: le_trans ht _; exact: ler_wpmul2l.
have b8 : fro w <= (1 + u) * ((h + a) * D).
  have -> : w = aq + (w - aq) by rewrite addrC subrK.
  by apply: le_trans (ler_froD _ _) _; rewrite [X in _ <= X]mulrDl mul1r; exact: ler_add.
have b9 : fro (vV r) <= bn + h * xi + gp.
  have -> : vV r = res x - (res x - vV r) by rewrite opprB addrCA subrr addr0.
  apply: le_trans (ler_froD _ _) _; rewrite froN; apply: ler_add => //.
  apply: le_trans (ler_froD _ _) _; rewrite froN ler_add2l.
  by apply: le_trans (Hh _) _; exact: ler_wpmul2l.
have b10 : fro (vV r' - (vV r - w)) <= u * (bn + h * xi + gp + (1 + u) * ((h + a) * D)).
  apply: le_trans hr' _; apply: ler_wpmul2l => //; apply: le_trans (ler_froD _ _) _; rewrite froN.
  exact: ler_add.
have -> : res x' - vV r' = ((((res x - vV r) - H *m (vV x' - (vV x + ad))) + (aq - H *m ad)) + (w - aq)) - (vV r' - (vV r - w)).
  rewrite mulmxBr mulmxDr; move: (H *m vV x') (H *m vV x) (H *m ad) (vV b) (vV r) (vV r') => X1 X2 X3 X4 X5 X6.
  by apply/matrixP=> i j; rewrite !mxE; move: (X1 i j) (X2 i j) (X3 i j) (X4 i j) (X5 i j) (X6 i j) (aq i j) (w i j) => y1 y2 y3 y4 y5 y6 y7 y8; rring.
apply: le_trans (ler_froD _ _) _; rewrite froN.
apply: le_trans (ler_add (le_trans (ler_froD _ _) (ler_add (le_trans (ler_froD _ _) (ler_add (le_trans (ler_froD _ _)
  (ler_add hg (_ : fro (- (H *m (vV x' - (vV x + ad)))) <= h * (u * (xi / (1 - u)) + u * D)))) b5)) b7)) b10) _.
  by rewrite froN; apply: le_trans (Hh _) _; exact: ler_wpmul2l.
rewrite /fl_rec le_eqVlt; apply/orP; left; apply/eqP.
by move: (fl_upd u xi) (xi / (1 - u)) => y1 y2; move: (fro _) => y3; rring.
Qed.
(** Updates of the residual since it was last computed afresh. *)
Definition nrec (i : nat) : nat := if i is j.+1 then (j %% 10)%N else 0%N.
Local Notation Gp j := ((1 + u) ^+ j * (c0 + j%:R * c1)).
Local Notation gap := (pcg_gap u a h bn xi).
Local Notation loop := (pcg_loop mvH mvP b).

Section Xi.
Hypothesis xi0 : 0 <= xi.

Lemma upd_ge0 : 0 <= D.
Proof using F xi0.
have p : 0 <= (1 - u)^-1 by rewrite invr_ge0 subr_ge0 ltW.
by rewrite /fl_upd mulr_ge0 // addr_ge0 // mulr_ge0.
Qed.
Lemma fresh_ge0 : 0 <= c0.
Proof using F xi0 a0 h0.
by rewrite /fl_fresh addr_ge0 ?mulr_ge0 // addr_ge0 ?fro_ge0 // mulr_ge0 // addr_ge0.
Qed.
Lemma rec_ge0 : 0 <= c1.
Proof using F xi0 a0 h0.
have p : 0 <= (1 - u)^-1 by rewrite invr_ge0 subr_ge0 ltW.
have d0 := upd_ge0; have e : 0 <= (h + a) * D by rewrite mulr_ge0 // addr_ge0.
have k1 : 0 <= u * (xi / (1 - u)) + u * D by rewrite addr_ge0 // mulr_ge0 // mulr_ge0.
have k2 := mulr_ge0 h0 k1; have k3 := mulr_ge0 a0 d0; have k4 := mulr_ge0 u0 e.
have k5 : 0 <= bn + h * xi + (1 + u) * ((h + a) * D).
  apply: addr_ge0; first by apply: addr_ge0; [exact: fro_ge0|exact: mulr_ge0].
  by apply: mulr_ge0 e; exact: (addr_ge0 ler01 u0).
by rewrite /fl_rec addr_ge0 ?(mulr_ge0 u0 k5) // addr_ge0 // addr_ge0.
Qed.

Lemma Gp_le j : (j <= 9)%N -> Gp j <= gap.
Proof using F xi0 a0 h0.
move=> j9; have p0 := fresh_ge0; have p1 := rec_ge0; have q : 1 <= 1 + u by rewrite ler_addl.
apply: ler_pmul.
- by rewrite exprn_ge0 // (addr_ge0 ler01 u0).
- by rewrite addr_ge0 // mulr_ge0 // ler0n.
- by rewrite ler_weexpn2l.
by rewrite ler_add2l ler_wpmul2r // ler_nat.
Qed.

Lemma Gp_step j gp : gp <= Gp j -> (1 + u) * gp + c1 <= Gp j.+1.
Proof using F xi0 a0 h0.
move=> hg; have p1 := rec_ge0; have q : 1 <= 1 + u by rewrite ler_addl.
apply: le_trans (ler_add (ler_wpmul2l (addr_ge0 ler01 u0) hg) (lexx _)) _.
have -> : Gp j.+1 = (1 + u) * Gp j + (1 + u) ^+ j.+1 * c1.
  by rewrite -natr1' exprS; move: ((1 + u) ^+ j) (j%:R) (fl_fresh _ _ _ _ _) (fl_rec _ _ _ _ _) => y1 y2 y3 y4; rring.
by rewrite ler_add2l ler_pemull // exprn_ege1.
Qed.

Lemma gap_loop rt todo : forall i x r d de cu rs x1 rs1,
  size x = n -> size r = n -> size d = n -> cu = vnorm r -> fro (res x - vV r) <= Gp (nrec i) ->
  (forall k z zs, (k <= todo)%N -> loop rt k i x r d de cu rs = Ok (z, zs) -> fro (vV z) <= xi) ->
  loop rt todo i x r d de cu rs = Ok (x1, rs1) ->
  exists l, [/\ rs1 = rs ++ l, (size l <= todo)%N, size x1 = n,
   forall k, (k < size l)%N -> exists z rz, [/\ loop rt k i x r d de cu rs = Ok (z, rs ++ take k l),
     size rz = n, nth o0 l k = vnorm rz & fro (res z - vV rz) <= gap] &
   (size l < todo)%N -> exists rz, [/\ size rz = n, fro (res x1 - vV rz) <= gap & ~~ olt rt (vnorm rz)]].
Proof using F opH opP a0 h0 Hh sb xi0.
elim: todo => [|todo IH] i x r d de cu rs x1 rs1 ex er ed cuE hJ hxi.
  by move=> [<- <-]; exists [::]; split; rewrite ?cats0.
have n9 : (nrec i <= 9)%N by case: (i) => //= j; rewrite -ltnS ltn_pmod.
have nx : fro (vV x) <= xi by exact: (hxi 0%N x rs).
rewrite /=; case: ifP => hst; last first.
  move=> [<- <-]; exists [::]; split=> //; first by rewrite cats0.
  by move=> _; exists r; rewrite -cuE hst; split=> //; exact: le_trans (Gp_le n9).
intro K.
destruct (rbind_inv K) as (q & Eq & K'); clear K; rename K' into K.
destruct (rbind_inv K) as (den & Eden & K'); clear K; rename K' into K.
destruct (rbind_inv K) as (al & Eal & K'); clear K; rename K' into K.
destruct (rbind_inv K) as (x' & Ex' & K'); clear K; rename K' into K.
destruct (rbind_inv K) as (r' & Er' & K'); clear K; rename K' into K.
destruct (rbind_inv K) as (s & Es & K'); clear K; rename K' into K.
destruct (rbind_inv K) as (de' & Ede & K'); clear K; rename K' into K.
destruct (rbind_inv K) as (be & Ebe & K'); clear K; rename K' into K.
destruct (rbind_inv K) as (d' & Ed' & K'); clear K; rename K' into K.
rename K into Hloop.
have step k : loop rt k.+1 i x r d de cu rs = loop rt k i.+1 x' r' d' de' (vnorm r') (rcons rs cu).
  by rewrite /= hst Eq /= Eden /= Eal /= Ex' /= Er' /= Es /= Ede /= Ebe /= Ed'.
have nx' : fro (vV x') <= xi by apply: (hxi 1%N x' (rcons rs cu)) => //; rewrite step.
have [ex' er' hJ'] : [/\ size x' = n, size r' = n & fro (res x' - vV r') <= Gp (nrec i.+1)].
  have [es _] := fl_vscale F al ed; have [ex' _] := fl_vadd F ex es Ex'.
  move: Er'; case: ifP => h10.
    intro K; destruct (rbind_inv K) as (Hx & EHx & Er'); have [er' hr'] := gap_fresh ex' nx' EHx Er'; split=> //.
    by rewrite /nrec (eqP h10) expr0 mul1r mul0r addr0.
  move=> Er'; have [_ er' hr'] := gap_rec ex ed er Eq Ex' Er' nx nx' hJ; split=> //.
  apply: le_trans hr' _; have -> : nrec i.+1 = (nrec i).+1.
    by move: h10; clear; case: i => [|j] //= h10; rewrite modnS /dvdn h10.
  exact: Gp_step.
have ed' : size d' = n.
  have [eq _] := opH ed Eq.
  have es := opP er' Es; have [eb _] := fl_vscale F be ed.
  by have [] := fl_vadd F es eb Ed'.
have hxi' k z zs : (k <= todo)%N -> loop rt k i.+1 x' r' d' de' (vnorm r') (rcons rs cu) = Ok (z, zs) -> fro (vV z) <= xi.
  by move=> kt; rewrite -step; exact: hxi.
have [l [El sl ex1 hl hs]] := IH _ _ _ _ _ _ _ _ _ ex' er' ed' erefl hJ' hxi' Hloop.
exists (cu :: l); split=> //; first by rewrite El cat_rcons.
case=> [|k] kl.
  exists x, r; split=> //; first by rewrite cats0.
  exact: le_trans (Gp_le n9).
have [z [rz [E1 e2 e3 e4]]] := hl k kl; exists z, rz; split=> //.
by rewrite step E1 cat_rcons.
Qed.
End Xi.

Lemma fl_pcg tol lim x0 x rs : size x0 = n -> 0 <= v tol ->
  pcg mvH b mvP lim tol x0 = Ok (x, rs) ->
  (forall k z zs, (k <= absz lim)%N -> pcg mvH b mvP k%:Z tol x0 = Ok (z, zs) -> fro (vV z) <= xi) ->
  let gm := g n.+3 in
  [/\ size x = n, (size rs <= absz lim)%N,
    forall k, (k < size rs)%N -> exists z, pcg mvH b mvP k%:Z tol x0 = Ok (z, take k rs) /\
      `|v (nth o0 rs k) - fro (res z)| <= gm * (fro (res z) + gap) + gap &
    (size rs < absz lim)%N -> gm < 1 ->
      fro (res x) <= (1 + u) * v tol * ((1 + gm) / (1 - gm)) * (fro (res x0) + gap) + gap].
Proof using F opH opP a0 h0 Hh sb.
move=> e0 t0; rewrite {1}/pcg; case: ifP => // lim0.
intro K.
destruct (rbind_inv K) as (Hx & EHx & K'); clear K; rename K' into K.
destruct (rbind_inv K) as (r & Er & K'); clear K; rename K' into K.
destruct (rbind_inv K) as (d & Ed & K'); clear K; rename K' into K.
destruct (rbind_inv K) as (de & Ede & K'); clear K; rename K' into K.
rename K into Hl; move=> hxi gm.
have pE k : pcg mvH b mvP k%:Z tol x0 = loop (omul tol (vnorm r)) k 0 x0 r d de (vnorm r) [::].
  by rewrite /pcg /= EHx /= Er /= Ed /= Ede.
have hx0 : fro (vV x0) <= xi by apply: (hxi 0%N x0 [::]); rewrite // pE.
have xi0 : 0 <= xi by exact: le_trans (fro_ge0 _) hx0.
have [er hr] := gap_fresh e0 hx0 EHx Er; have ed := opP er Ed.
have hJ : fro (res x0 - vV r) <= Gp (nrec 0) by rewrite /nrec expr0 mul1r mul0r addr0.
have hxi' k z zs : (k <= absz lim)%N -> loop (omul tol (vnorm r)) k 0 x0 r d de (vnorm r) [::] = Ok (z, zs) -> fro (vV z) <= xi.
  by move=> kl; rewrite -pE; exact: hxi.
have [l [El sl ex hk hs]] := gap_loop xi0 e0 er ed erefl hJ hxi' Hl; rewrite cat0s in El; subst l.
have g0 : 0 <= gm by exact: gam_ge0 u0 _.
have G0 : 0 <= gap by apply: le_trans (Gp_le xi0 (leq0n _)); rewrite expr0 mul1r mul0r addr0 fresh_ge0.
split=> // [k kl|szl gm1].
  have [z [rz [E1 e1 -> e2]]] := hk k kl; exists z; split; first by rewrite pE E1 cat0s.
  have [_ hn] := fl_vnorm F e1; have hf := le_trans (fro_lip (res z) (vV rz)) e2.
  have -> : v (vnorm rz) - fro (res z) = (v (vnorm rz) - fro (vV rz)) - (fro (res z) - fro (vV rz)).
    by rewrite opprB addrA subrK.
  apply: le_trans (ler_norm_sub _ _) _; apply: ler_add => //; apply: le_trans hn _; apply: ler_wpmul2l => //.
  by move: hf; rewrite distrC ler_norml ler_subl_addl => /andP[].
have [rz [e1 e2]] := hs szl; rewrite (fl_lt F) -leNgt => stop.
have [n0 hn] := fl_vnorm F e1; have [m0 hm] := fl_vnorm F er.
have gm1' : 0 < 1 - gm by rewrite subr_gt0.
have h1 : fro (res x) <= fro (vV rz) + gap.
  by have := le_trans (fro_lip (res x) (vV rz)) e2; rewrite ler_norml ler_subl_addl => /andP[].
have h2 : fro (vV r) <= fro (res x0) + gap.
  have := le_trans (le_trans (fro_lip (res x0) (vV r)) hJ) (Gp_le xi0 (leq0n _)).
  by rewrite distrC ler_norml ler_subl_addl => /andP[].
apply: le_trans h1 _; rewrite ler_add2r.
have h3 : (1 - gm) * fro (vV rz) <= v (vnorm rz).
  by move: hn; rewrite ler_norml => /andP[hl _]; rewrite mulrBl mul1r -ler_subr_addl.
have h4 : v (vnorm r) <= (1 + gm) * fro (vV r).
  by move: hm; rewrite ler_norml => /andP[_ hl]; rewrite mulrDl mul1r -ler_subl_addl.
have h5 : v (omul tol (vnorm r)) <= (1 + u) * v tol * v (vnorm r).
  have hl := fl_mul F tol (@vnorm T O r); rewrite (ger0_norm (mulr_ge0 t0 m0)) ler_norml in hl; case/andP: hl => _ hl.
  by rewrite -mulrA mulrDl mul1r -ler_subl_addl.
have -> : (1 + u) * v tol * ((1 + gm) / (1 - gm)) * (fro (res x0) + gap) =
    ((1 + u) * v tol * ((1 + gm) * (fro (res x0) + gap))) / (1 - gm).
  by rewrite mulrA -!mulrA; congr (_ * (_ * (_ * _))); rewrite mulrC.
rewrite ler_pdivl_mulr // mulrC; apply: le_trans h3 _; apply: le_trans stop _; apply: le_trans h5 _.
apply: ler_wpmul2l; first by rewrite mulr_ge0 // (addr_ge0 ler01 u0).
by apply: le_trans h4 _; apply: ler_wpmul2l => //; exact: (addr_ge0 ler01 g0).
Qed.
End Gap.

(** The product with an array. *)
Lemma op_fl_mv (R : rcfType) (T : Type) (O : ops T) (v : T -> R) (u : R) n (H : arr T) :
  fl_arith O v u -> shaped n n H -> op_fl v (mv H) (mval v n n H) (gam u n.+1 * fro (mval v n n H)).
Proof.
move=> F sH x y ex E; have := fl_mv (fun _ => True) F sH ex; rewrite E => -[e1 e2]; split=> //.
by rewrite -mulrA.
Qed.
