(** Proofs of C101, continued: the driver sps (conjugate gradients) in rounded arithmetic. *)
From mathcomp Require Import all_ssreflect all_algebra.
From mathcomp Require Import zify.
From Verif Require Import Base Arr Lapack Exact MxLib RingTac Rng Aware Pcg Lsqr Precond LstSq SaddleSys Sketching Drivers Shape Inexact Float.
From Verif Require Import LapackSpec LapackExists P_Drivers P_Shape P_ShapeLS P_Inexact P_Float P_Float2 P_Float3 P_Float6 P_Float8 P_Float9.
Set Implicit Arguments.
Unset Strict Implicit.
Unset Printing Implicit Defensive.
Import Order.TTheory GRing.Theory Num.Theory.
Local Open Scope ring_scope.

Section Sps.
Context {R : rcfType} {T : Type} {O : ops T} {G : Type}.
Variables (v : T -> R) (u : R) (m n : nat) (A : arr T) (b c : option (seq T)) (delta tol : T) (xi : R).
Variables (L : lapack T) (r : rng_ops G T).
Hypotheses (F : fl_arith O v u) (sA : shaped m n A) (t0 : 0 <= v tol) (lsh : lap_shapes (fun _ => True) L).
Hypotheses (sb : if b is Some b then size b = m else True) (sc : if c is Some c then size c = n else True).
Local Notation g := (gam u).
Local Notation vV := (@vval R T O v).
Local Notation Am := (@mval R T O v m n A).
Local Notation al := (@fro R m n Am).
Local Notation bm := (@ovval R T O v m b).
Local Notation cm := (@ovval R T O v n c).
Local Notation Gm := (Am^T *m Am + (v delta)%:M).
Local Notation f := (Am^T *m bm - cm).
Local Notation xo o := (@ovval R T O v n o.1.1).
Add Field sps_field : (rcf_field R).
Let u0 : 0 <= u. Proof using F. exact: fl_u0 F. Qed.
Let en : R := al * fro bm + fro cm.
Let ef : R := g m.+2 * en.
Let gap : R := pcg_gap u (gram_err u m n al `|v delta|) (al ^+ 2 + `|v delta|) ((1 + g m.+2) * en) xi.
Let gm : R := g n.+3.
Let b' := if b is Some b then b else vzeros m.

Lemma rhs_fl rhs : saddle_rhs A b' c = Ok rhs -> size rhs = n /\ fro (vV n rhs - f) <= ef.
Proof using F sA sb sc.
intro K; destruct (rbind_inv K) as (r0 & Er0 & Erhs); clear K.
have bE : bm = vV m b' by exact: (ovvalE F m b).
have eb : size b' = m by rewrite /b'; move: sb; case: (b) => [b1|] //; rewrite size_nseq.
have sAt : shaped n m (mtr A) by exact: sh_mtr.
have := fl_mv (fun _ => True) F sAt eb; rewrite Er0 (mval_tr _ sA) fro_trmx' -bE => -[er0 hr0].
have g1 : g m.+2 = u * (1 + g m.+1) + g m.+1 by rewrite /gam !exprS; move: ((1 + u) ^+ m) => x; rring.
have gm0 := gam_ge0 u0 m.+1.
have q0 : 0 <= al * fro bm by rewrite mulr_ge0 ?fro_ge0.
have qAb : fro (Am^T *m bm) <= al * fro bm by apply: le_trans (fro_mul_le _ _) _; rewrite fro_trmx'.
have c0 : 0 <= fro cm := fro_ge0 _.
have ug : u <= g m.+2 by rewrite g1 mulrDr mulr1 -addrA ler_addl addr_ge0 ?mulr_ge0.
rewrite /ef /en; move: Erhs sc c0; case: (c) => [c1|] /=; last first.
    move=> [<-] _ _; split=> //; rewrite fro0 addr0 subr0; apply: le_trans hr0 _; apply: ler_wpmul2r => //.
    by rewrite g1 ler_addr mulr_ge0 // (addr_ge0 ler01 gm0).
  move=> Erhs ec c0; have [es hs] := fl_vsub F er0 ec Erhs; split=> //.
  have -> : vV n rhs - (Am^T *m bm - vV n c1) = (vV n rhs - (vV n r0 - vV n c1)) + (vV n r0 - Am^T *m bm).
    move: (vV n rhs) (vV n r0) (vV n c1) (Am^T *m bm) => X1 X2 X3 X4.
    by apply/matrixP=> i j; rewrite !mxE; move: (X1 i j) (X2 i j) (X3 i j) (X4 i j) => y1 y2 y3 y4; rring.
  have h2 : fro (vV n r0 - vV n c1) <= (1 + g m.+1) * (al * fro bm) + fro (vV n c1).
    apply: le_trans (ler_froB _ _) _; rewrite ler_add2r.
    have -> : vV n r0 = Am^T *m bm + (vV n r0 - Am^T *m bm) by rewrite addrC subrK.
    by apply: le_trans (ler_froD _ _) _; rewrite [X in _ <= X]mulrDl mul1r; exact: ler_add.
  apply: le_trans (ler_froD _ _) _; apply: le_trans (ler_add (le_trans hs (ler_wpmul2l u0 h2)) hr0) _.
  move: (al * fro bm) (fro (vV n c1)) (g m.+1) (g m.+2) q0 c0 g1 ug => y1 y2 y3 y4 q0 c0 g1 ug.
  rewrite -subr_ge0 (_ : _ - _ = (y4 - u) * y2); first by rewrite mulr_ge0 // subr_ge0.
  by rewrite g1; rring.
Qed.

Lemma sps_split a sf nnz clk s (lim : int) out :
  let run k := (sps L r A b c delta tol k a sf nnz SpsPcg clk s).2 in
  (0 < m)%N -> (0 < n)%N -> 0 < trunc_rat (sf * n%:R) -> run lim = Ok out ->
  exists (Mp : arr T) z rhs, [/\ nr Mp = n, saddle_rhs A b' c = Ok rhs &
    forall k, run k = rbind (PcSS1 A (Some b') c delta tol k Mp false z) (fun o =>
      rbind (wrap_up (log_of true clk) (o_errs o) (vnorm rhs)) (fun lg => Ok (o_x o, o_y o, lg)))].
Proof using F sA lsh sb sc.
move=> run m0 n0 d0; have [_ a1 a2] := sA.
have [s0 rE] : exists s0, forall k, run k = (SPS1 L (skopSJ r nnz) sf (@PcSS1 T O) NLeft A b c delta tol k true clk s0).2.
  rewrite /run /sps /with_rng; case: a {run} => [|z|z]; [by exists s| |].
    by exists (St (r_seed r z) (evs s)) => k; case: (SPS1 _ _ _ _ _ _ _ _ _ _ _ _ _ _) => s' x.
  by exists (St (r_seeds r z) (evs s)) => k; case: (SPS1 _ _ _ _ _ _ _ _ _ _ _ _ _ _) => s' x.
rewrite rE => E.
have dn0 : @olt T O delta (@o0 T O) = false by move: E; rewrite /SPS1; case: (olt _ _).
have P := safe_sps1_precond lsh (fun d m => @safe_sj T O G (fun _ => True) r nnz d m) NLeft delta I m0 n0 d0 sA s0.
have uE (slv : solver) k : (SPS1 L (skopSJ r nnz) sf slv NLeft A b c delta tol k true clk s0).2 =
  match (sps1_precond L (skopSJ r nnz) NLeft A delta (trunc_rat (sf * n%:R)) s0).2 with
  | inl e => Err e
  | inr p => rbind (saddle_rhs A b' c) (fun rhs => rbind (sps1_start A delta p.1 p.2 rhs) (fun z =>
      rbind (slv A (Some b') c delta tol k p.1 false z) (fun o =>
      rbind (wrap_up (log_of true clk) (o_errs o) (vnorm rhs)) (fun lg => Ok (o_x o, o_y o, lg)))))
  end.
  rewrite /SPS1 dn0 a1 a2 -/b' /bind /passert /=; case: (sps1_precond _ _ _ _ _ _ _) => s1 [e|[Mp pre]] //=.
  rewrite /lift; case: (saddle_rhs _ _ _) => [e|rhs] //=; case: (sps1_start _ _ _ _ _) => [e|z] //=.
  by case: (slv _ _ _ _ _ _ _ _ _) => [e|o] //=; case: (wrap_up _ _ _).
move: P E; rewrite uE; case EP : (sps1_precond _ _ _ _ _ _ _).2 => [e|[Mp pre]] //= [cc [_ sM _]] E.
destruct (rbind_inv E) as (rhs & Erhs & E'); clear E; rename E' into E.
destruct (rbind_inv E) as (z & Ez & E'); clear E.
exists Mp, z, rhs; split=> //; first by case: sM.
by move=> k; rewrite rE uE EP Erhs /= Ez.
Qed.

Lemma fl_sps a sf nnz clk s (lim : int) out :
  let run k := (sps L r A b c delta tol k a sf nnz SpsPcg clk s).2 in
  (0 < m)%N -> (0 < n)%N -> 0 < trunc_rat (sf * n%:R) -> run lim = Ok out ->
  (forall k o, (k <= absz lim)%N -> run k%:Z = Ok o -> fro (xo o) <= xi) ->
  exists x e0 rs oi, [/\ [/\ out.1.1 = Some x, size x = n, size out.1.2 = m, errors out.2 = Some (e0 :: rs) & (size rs <= absz lim)%N],
    fro (vV m out.1.2 - (bm - Am *m xo out)) <= g n.+2 * (fro bm + al * fro (xo out)),
    run 0 = Ok oi /\ `|v e0 - fro f| <= gm * (fro f + ef) + ef,
    forall k, (k < size rs)%N -> exists o, run k%:Z = Ok o /\
      `|v (nth o0 rs k) - fro (f - Gm *m xo o)| <= gm * (fro (f - Gm *m xo o) + ef + gap) + ef + gap &
    (size rs < absz lim)%N -> gm < 1 ->
      fro (f - Gm *m xo out) <= (1 + u) * v tol * ((1 + gm) / (1 - gm)) * (fro (f - Gm *m xo oi) + ef + gap) + ef + gap].
Proof using F sA t0 lsh sb sc.
move=> run m0 n0 d0 E hxi; have [Mp [z [rhs [eM Erhs rE]]]] := sps_split m0 n0 d0 E.
have bE : bm = vV m b' by exact: (ovvalE F m b).
have eb : size b' = m by rewrite /b'; move: sb; case: (b) => [b1|] //; rewrite size_nseq.
have [er hr] := rhs_fl Erhs; have gm0 : 0 <= gm := gam_ge0 u0 _.
have up k o rs : PcSS1 A (Some b') c delta tol k Mp false z = Ok o -> o_errs o = EArr rs ->
    exists lg, run k = Ok (o_x o, o_y o, lg) /\ errors lg = Some (vnorm rhs :: rs).
  by move=> Eo Er; rewrite /run rE Eo /= Er /=; eexists.
have dn k o : run k = Ok o -> exists o', [/\ PcSS1 A (Some b') c delta tol k Mp false z = Ok o', o_x o' = o.1.1, o_y o' = o.1.2 &
    forall rs, o_errs o' = EArr rs -> errors o.2 = Some (vnorm rhs :: rs)].
  rewrite /run rE; intro K; destruct (rbind_inv K) as (o' & Eo & K'); clear K; rename K' into K.
  destruct (rbind_inv K) as (lg & Elg & K'); clear K; move: K' => [<-]; exists o'; split=> // rs Ers.
  by move: Elg; rewrite Ers /= => -[<-].
have [o' [Eo ex ey ee]] := dn _ _ E.
have earr k o : PcSS1 A (Some b') c delta tol k Mp false z = Ok o -> exists rs, o_errs o = EArr rs.
  move=> Ek; have [pre [r0 [rhs' [x0 [R1 [_ _ _ _ rE']]]]]] := pcss1_split sA eM Ek.
  move: Ek; rewrite rE'; intro K; destruct (rbind_inv K) as ([x rs] & Ex & K'); clear K; rename K' into K.
  destruct (rbind_inv K) as (Ax & EAx & K'); clear K; rename K' into K.
  by destruct (rbind_inv K) as (y & Ey & K'); clear K; move: K' => [<-]; exists rs.
have hz k o : (k <= absz lim)%N -> PcSS1 A (Some b') c delta tol k%:Z Mp false z = Ok o -> fro (@ovval R T O v n (o_x o)) <= xi.
  move=> kl Ek; have [rs Ers] := earr _ _ Ek; have [lg [El _]] := up _ _ _ Ek Ers.
  exact: (hxi k _ kl El).
have bE' : @ovval R T O v m (Some b') = bm by rewrite bE.
have := @fl_pcss1 R T O v u m n A (Some b') c delta tol Mp z xi F sA eM t0 eb sc lim o' Eo.
rewrite bE' => /(_ hz) [x [rs [oi [[e1 e2 e3 e4 e5] hy [E0 _] hk hs]]]].
have [rs0 Er0] := earr _ _ E0; have [lg0 [El0 _]] := up _ _ _ E0 Er0.
exists x, (@vnorm T O rhs), rs, (o_x oi, o_y oi, lg0); rewrite -ex -ey; split=> //.
- by split=> //; exact: ee.
- split=> //; have [_ hn] := fl_vnorm F er; have fl := le_trans (fro_lip (vV n rhs) f) hr.
  have -> : v (vnorm rhs) - fro f = (v (vnorm rhs) - fro (vV n rhs)) + (fro (vV n rhs) - fro f) by rewrite addrA subrK.
  apply: le_trans (ler_norm_add _ _) _; apply: (ler_add _ fl); apply: le_trans hn _; apply: ler_wpmul2l => //.
  by move: fl; rewrite ler_norml => /andP[_]; rewrite ler_subl_addl.
- move=> k kr; have [o [Ek hk']] := hk k kr; have [rs2 Ers2] := earr _ _ Ek; have [lg [El _]] := up _ _ _ Ek Ers2.
  by exists (o_x o, o_y o, lg).
Qed.
End Sps.

(** Real arithmetic is within every unit roundoff. *)
Lemma exact_arith (R : rcfType) (u : R) : 0 <= u < 1 -> fl_arith (rcf_ops R) id u.
Proof.
move=> u01; have /andP[u0 _] := u01; have h (x y : R) : 0 <= y -> `|x - x| <= u * y by move=> y0; rewrite subrr normr0 mulr_ge0.
by split=> //= *; apply: h; rewrite ?normr_ge0 ?sqrtr_ge0.
Qed.

Lemma iter_bound3 (R : rcfType) {T Z : Type} {O : ops T} (v : T -> R) n (f : nat -> res (option (seq T) * Z * @splog T)) N :
  exists xi, forall k o, (k <= N)%N -> f k = Ok o -> fro (@ovval R T O v n o.1.1) <= xi.
Proof.
elim: N => [|N [xi IH]].
  case E: (f 0%N) => [e|o]; first by exists 0 => k o; rewrite leqn0 => /eqP ->; rewrite E.
  by exists (fro (@ovval R T O v n o.1.1)) => k o'; rewrite leqn0 => /eqP ->; rewrite E => -[<-].
case E: (f N.+1) => [e|o].
  by exists xi => k o; rewrite leq_eqVlt => /orP[/eqP ->|]; [rewrite E|exact: IH].
exists (Num.max xi (fro (@ovval R T O v n o.1.1))) => k o'; rewrite le_maxr leq_eqVlt => /orP[/eqP ->|].
  by rewrite E => -[<-]; rewrite lexx orbT.
by move=> kN Ek; rewrite (IH _ _ kN Ek).
Qed.

Lemma sps_wit (R : rcfType) (u : R) (s : st nat R) (b : 'cV[R]_3) clk : 0 <= u < 1 ->
  let A := ofmx (1%:M : 'M[R]_3) in let L := exact_lapack R in
  let run k := (sps L (@toy_rng R (rcf_ops R)) A (Some (ofcv b)) None 1 0 k RGen 3%:Q 2 SpsPcg clk s).2 in
  [/\ fl_arith (rcf_ops R) id u, shaped 3 3 A /\ lap_shapes (fun _ => True) L, 0 < trunc_rat (3%:Q * 3%:R),
      (exists out, run 5 = Ok out) &
      exists xi, forall k o, (k <= 5)%N -> run k%:Z = Ok o -> fro (@ovval R R (rcf_ops R) id 3 o.1.1) <= xi].
Proof.
move=> u01 A L run; split=> //.
- exact: exact_arith.
- split; first exact: sh_ofmx.
  have [h1 h2 h3 h4 h5] := exact_shapes R; have w Y (P : Y -> Prop) c : rsafe (fun _ => False) P c -> rsafe (fun _ => True) P c by case: c.
  split.
  + by move=> m n B m0 n0 sB; apply: w; exact: h1.
  + by move=> m n B m0 n0 sB; apply: w; exact: h2.
  + by move=> m n B m0 n0 sB; apply: w; exact: h3.
  + by move=> n B n0 sB; apply: w; exact: h4.
  + by move=> m n p B C m0 n0 p0 sB sC; apply: w; exact: (h5 m n p).
- have n52 : 3%:R < 2%:R ^+ 52 :> R by rewrite -natrX ltr_nat.
  have [Sm [_ h]] := @sps_pcg R nat L (@toy_rng R (rcf_ops R)) (@toy_rng_ok R (rcf_ops R)) 3 3 1%:M 3%:Q 2 (Some b) None 1 0 5 RGen clk s
    (@exact_svd R) (or_intror ltr01) ler01 (lexx 0) isT isT isT n52 isT isT.
  by have [x [l [E _]]] := h (or_intror ltr01); eexists; exact: E.
exact: (@iter_bound3 R R (seq R) (rcf_ops R) id 3 (fun k => run k%:Z) 5).
Qed.
