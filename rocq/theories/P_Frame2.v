(** Reproducibility of the drivers, and argument checks that leave the
    generator alone. *)
From mathcomp Require Import all_ssreflect all_algebra.
From Verif Require Import Base Arr Lapack Rng Aware RangeFinders QB Pcg Lsqr Precond LstSq SaddleSys SvdEvd Interp.
From Verif Require Import Sketching Drivers P_Frame.
Set Implicit Arguments.
Unset Strict Implicit.
Unset Printing Implicit Defensive.
Import Order.TTheory GRing.Theory Num.Theory.

Section Spec.
Context {G T : Type} (r : rng_ops G T).
Notation M := (M G T).

(** The computation [c], called with the argument [rng = a]. *)
Record reproducible {X} (c : rngarg -> M X) : Prop := Reproducible {
  (** a seed: same outcome in any state, caller's generator untouched *)
  rp_seed : forall a s s', a <> RGen -> exists l x,
    c a s = (St (gen s) (evs s ++ l), x) /\ c a s' = (St (gen s') (evs s' ++ l), x);
  (** a Generator: outcome and new generator are functions of its state *)
  rp_gen : forall s s', gen s = gen s' -> exists g l x,
    c RGen s = (St g (evs s ++ l), x) /\ c RGen s' = (St g (evs s' ++ l), x) }.

(** Passing a seed is the same as passing a fresh [default_rng(seed)]. *)
Definition seed_is_fresh {X} (c : rngarg -> M X) : Prop := forall z v s,
  (c (RInt z) s).2 = (c RGen (St (r_seed r z) (evs s))).2 /\
  (c (RArr v) s).2 = (c RGen (St (r_seeds r v) (evs s))).2.

(** [c] raises [e] without having used the generator. *)
Definition fails {X} (c : M X) (e : exn) (s : st G T) : Prop :=
  (c s).2 = inl e /\ gen (c s).1 = gen s.

Lemma rp_with X (c : M X) : framed c -> reproducible (fun a => with_rng r a c).
Proof.
move=> fc; split=> [a s s' an|s s' e]; last exact: framed_gen.
by case: (framed_seed r s s' fc an).
Qed.

Lemma sf_with X (c : M X) : seed_is_fresh (fun a => with_rng r a c).
Proof. by move=> z v s /=; case: (c (St (r_seed r z) _)); case: (c _). Qed.

Lemma rp_passert X b (c : rngarg -> M X) : reproducible c -> reproducible (fun a => passert b >>> c a).
Proof.
move=> [h1 h2]; split=> [a s s' an|s s' e]; case: b => //; rewrite ?bind_passertT ?bind_passertF; try by auto.
  by exists [::], (inl AssertionError); rewrite !cats0; case: (s) (s') => g l [].
by exists (gen s), [::], (inl AssertionError); rewrite !cats0 {2}e; case: (s) (s') => g l [].
Qed.

Lemma sf_passert X b (c : rngarg -> M X) : seed_is_fresh c -> seed_is_fresh (fun a => passert b >>> c a).
Proof. by move=> h z v s; case: b => //; rewrite ?bind_passertT ?bind_passertF. Qed.

Lemma rp_lift X Y (c : rngarg -> M X) (f : X -> res Y) :
  reproducible c -> reproducible (fun a => bind (c a) (fun x => lift (f x))).
Proof.
move=> [h1 h2]; split=> [a s s' an|s s' e].
  case: (h1 a s s' an) => l [x [e1 e2]].
  by rewrite /bind e1 e2; case: x e1 e2 => [x|x] *; [exists l, (inl x) | exists l, (f x)].
case: (h2 s s' e) => g [l [x [e1 e2]]].
by rewrite /bind e1 e2; case: x e1 e2 => [x|x] *; [exists g, l, (inl x) | exists g, l, (f x)].
Qed.

Lemma sf_lift X Y (c : rngarg -> M X) (f : X -> res Y) :
  seed_is_fresh c -> seed_is_fresh (fun a => bind (c a) (fun x => lift (f x))).
Proof.
move=> h z v s; have [h1 h2] := h z v s; rewrite /bind; split.
  case: (c _ s) h1 => s1 x /= ->; case: (c _ _) => s2 [] //.
case: (c _ s) h2 => s1 x /= ->; case: (c _ _) => s2 [] //.
Qed.

Lemma rp_raise X e : reproducible (fun _ => @raise G T X e).
Proof.
split=> [a s s' _|s s' E].
  by exists [::], (inl e); rewrite !cats0; case: (s) (s') => g l [].
by exists (gen s), [::], (inl e); rewrite !cats0 {2}E; case: (s) (s') => g l [].
Qed.
Lemma sf_raise X e : seed_is_fresh (fun _ => @raise G T X e).
Proof. by []. Qed.

Lemma rp_eq X (c d : rngarg -> M X) : (forall a s, c a s = d a s) -> reproducible c -> reproducible d.
Proof.
move=> e [h1 h2]; split=> [a s s' an|s s' E]; rewrite -!e; [exact: h1 | exact: h2].
Qed.

Lemma fails_with X (c : M X) e a s :
  (forall s, fails c e s) -> fails (with_rng r a c) e s.
Proof.
move=> h; case: a => [|z|v] /=; first exact: h.
  by rewrite /fails /=; case: (h (St (r_seed r z) (evs s))); case: (c _).
by rewrite /fails /=; case: (h (St (r_seeds r v) (evs s))); case: (c _).
Qed.

Lemma fails_passert X (b : bool) (c : M X) s : (b -> fails c AssertionError s) -> fails (passert b >>> c) AssertionError s.
Proof. by case: b => h; [rewrite /fails bind_passertT; exact: h | rewrite /fails bind_passertF]. Qed.

Lemma fails_passertF X b (c : M X) s : ~~ b -> fails (passert b >>> c) AssertionError s.
Proof. by move=> nb; apply: fails_passert => B; rewrite B in nb. Qed.

Lemma fails_emit X ev (c : M X) e s : (forall s, fails c e s) -> fails (emit ev >>> c) e s.
Proof.
move=> h; rewrite /fails bind_emitE.
by have [h1 h2] := h (St (gen s) (rcons (evs s) ev)); split.
Qed.

Lemma fails_bind X Y (c : M X) (f : X -> M Y) e s : fails c e s -> fails (bind c f) e s.
Proof. by rewrite /fails /bind; case: (c s) => s1 [x|x] [] //= [->]. Qed.

Lemma fails_seq X Y (c : M X) (f : X -> M Y) e s s1 x :
  c s = (s1, inr x) -> gen s1 = gen s -> fails (f x) e s1 -> fails (bind c f) e s.
Proof. by move=> h1 h2; rewrite /fails (bindE _ h1) => -[h3 h4]; rewrite h4. Qed.

End Spec.

Section Drv.
Context {G T : Type} {O : ops T}.
Variables (L : lapack T) (r : rng_ops G T).

Ltac rp := repeat (first
  [ apply: rp_with | apply: rp_passert | apply: rp_raise
  | match goal with |- framed _ => fr end ]).
Ltac sf := repeat (first [ apply: sf_with | apply: sf_passert | apply: sf_raise ]).

Notation good c := (reproducible c /\ seed_is_fresh r c).

Lemma good_rs1 A k np : good (rs1 L r A k np).
Proof. by split; [rp; apply: fr_RS1 => *; exact: fr_gauss | sf]. Qed.
Lemma good_rf1 A k np : good (rf1 L r A k np).
Proof. by split; [rp; apply: fr_RF1 => *; exact: fr_rso | sf]. Qed.
Lemma good_qb np A k : good (qb L r np A k).
Proof. by split; [rp; apply: fr_QB1 => *; apply: fr_RF1 => *; exact: fr_rso | sf]. Qed.
Lemma good_qb_b np blk ov A k tol : good (qb_b L r np blk ov A k tol).
Proof. by split; [rp; apply: fr_QB2 => *; apply: fr_RF1 => *; exact: fr_rso | sf]. Qed.
Lemma good_qb_b_pe np blk A k tol : good (qb_b_pe L r np blk A k tol).
Proof. by split; [rp; apply: fr_QB3 => *; exact: fr_rso | sf]. Qed.
Lemma good_svd1 A k over tol np blk : good (svd1 L r A k over tol np blk).
Proof. by split; [rp; apply: fr_SVD1 => *; apply: fr_QB2n => *; apply: fr_RF1 => *; exact: fr_rso | sf]. Qed.
Lemma good_evd1 asort A k tol over np blk : good (evd1 L r asort A k tol over np blk).
Proof. by split; [rp; apply: fr_EVD1 => *; apply: fr_QB2n => *; apply: fr_RF1 => *; exact: fr_rso | sf]. Qed.
Lemma good_evd2 A k over np : good (evd2 L r A k over np).
Proof. by split; [rp; apply: fr_EVD2 => *; exact: fr_rso | sf]. Qed.
Lemma good_rocs1 A k over p axis : good (rocs1 L r A k over p axis).
Proof. by split; [rp; apply: fr_ROCS1 => *; exact: fr_rso | sf]. Qed.
Lemma good_osid1 A k over p axis : good (osid1 L r A k over p axis).
Proof. by split; [rp; apply: fr_OSID1 => *; exact: fr_rso | sf]. Qed.
Lemma good_osid2 A k over p axis : good (osid2 L r A k over p axis).
Proof. by split; [rp; apply: fr_OSID2 => *; exact: fr_rso | sf]. Qed.
Lemma good_tsid1 A k over p : good (tsid1 L r A k over p).
Proof. by split; [rp; apply: fr_TSID1 => *; apply: fr_OSID1 => *; exact: fr_rso | sf]. Qed.
Lemma good_cur1 A k over p : good (cur1 L r A k over p).
Proof. by split; [rp; apply: fr_CUR1 => *; apply: fr_OSID1 => *; exact: fr_rso | sf]. Qed.

Lemma good_sso1 A b dl sf z : good (fun a => sso1 L r A b dl a sf z).
Proof. by split; [rp; apply: fr_SSO1 => *; exact: fr_sjlt | sf]. Qed.
Lemma good_spo3 A b dl tol lim sf z md clk : good (fun a => spo3 L r A b dl tol lim a sf z md clk).
Proof. by split; [rp; apply: fr_SPO => *; exact: fr_sjlt | sf]. Qed.
Lemma good_spo1 A b dl tol lim sf z clk : good (fun a => spo1 L r A b dl tol lim a sf z clk).
Proof. exact: good_spo3. Qed.
Lemma good_spu1 A c tol lim sf z clk : good (fun a => spu1 L r A c tol lim a sf z clk).
Proof. by split; [rp; apply: fr_SPU1 => *; exact: fr_sjlt | sf]. Qed.
Lemma good_sps A b c dl tol lim sf z me clk : good (fun a => sps L r A b c dl tol lim a sf z me clk).
Proof. by case: me; (split; [rp; apply: fr_SPS1 => *; exact: fr_sjlt | sf]). Qed.

Lemma good_sjlt m n z : good (fun a => sjlt_operator r m n a z).
Proof. by split; [rp; fr; exact: fr_sjlt_wide | sf]. Qed.
Lemma good_ssign m n d : good (fun a => sparse_sign_operator r m n a d).
Proof. by split; [rp; [exact: fr_ss_mask | rewrite /random; cbv zeta; fr] | sf]. Qed.
Lemma good_sampling m n i : good (fun a => sampling_operator r m n a i).
Proof. by split; [rp; exact: fr_sampling_idx | sf]. Qed.
Lemma good_ortho m n : good (fun a => orthonormal_operator L r m n a).
Proof.
rewrite /orthonormal_operator; case: ltnP => _.
  by split; [apply: rp_lift; rp; exact: fr_ortho_tall | apply: sf_lift; sf].
by split; [rp; exact: fr_ortho_tall | sf].
Qed.
Lemma rp_srct m n : reproducible (fun a => srct_operator L r m n a).
Proof.
split=> [a s s' an|s s' e]; last exact: framed_gen (fr_srct _ _ _ _ RGen) e.
case: (@rp_raise G T (pyop T) AttributeError) => h _.
by have := h a s s' an; case: a an.
Qed.
Lemma rp_skop k m n : reproducible (fun a => skop_call L r k m n a).
Proof.
case: k => [|b|z|d||i] /=; first by case: (good_ortho m n).
- by rp; exact: fr_gauss.
- by case: (good_sjlt m n z).
- have [h _] := good_ssign m n d.
  exact (rp_lift (fun _ => Ok (@PyNone T)) h).
- exact: rp_srct.
- by case: (good_sampling m n i).
Qed.

(** Failed checks. *)
Definition kbad (A : arr T) (k : int) : bool := ~~ ((0 < k)%R && (k <= (minn (nr A) (nc A))%:Z)%R).

Lemma RS1_fails np stab pps A k s g : (np < 0)%R -> fails (RS1 (G := G) (T := T) g np stab pps A k) AssertionError s.
Proof. by move=> h; apply: fails_passertF; rewrite -ltNge. Qed.

Lemma RF1_fails rso A k tol s :
  kbad A k \/ (forall s, fails (rso A (absz k)) AssertionError s) -> fails (G := G) (RF1 L rso A k tol) AssertionError s.
Proof.
move=> h; apply: fails_passert => k0; apply: fails_passert => k1.
case: h => [|h]; first by rewrite /kbad k0 k1.
case: tol => [t|]; first by apply: fails_emit => s'; apply: fails_bind; exact: h.
by apply: (@fails_seq _ _ _ _ _ _ _ s s tt) => //; apply: fails_bind; exact: h.
Qed.

Lemma rs1_fails A k np a s : (np < 0)%R || kbad A k -> fails (rs1 L r A k np a) AssertionError s.
Proof.
move=> h; apply: fails_passert => np0; apply: fails_passert => k0; apply: fails_passert => k1.
by move: h; rewrite ltNge np0 /= /kbad k1 gtz0_ge1 k0.
Qed.

Lemma rf1_fails A k np a s : (np < 1)%R || kbad A k -> fails (rf1 L r A k np a) AssertionError s.
Proof.
move=> h; apply: fails_with => s'; apply: RF1_fails; case/orP: h => h; [right|left] => //.
by move=> s2; apply: RS1_fails; rewrite subr_lt0.
Qed.

Lemma qb_fails A k np a s : (np < 2)%R || kbad A k -> fails (qb L r np A k a) AssertionError s.
Proof.
move=> h; apply: fails_with => s'; apply: fails_passert => k0; apply: fails_passert => k1.
apply: (@fails_seq _ _ _ _ _ _ _ s' s' tt) => //; apply: fails_bind; apply: RF1_fails; right=> s2.
by apply: RS1_fails; rewrite subr_lt0; case/orP: h => //; rewrite /kbad k0 k1.
Qed.

Lemma QB2_fails rf blk ov A k tol s :
  (k <= 0)%R \/ (forall b s, (b <= blk)%R -> (b <= (minn (nr A) (nc A))%:Z)%R -> fails (rf A b None) AssertionError s) ->
  fails (G := G) (QB2 L rf blk ov A k tol) AssertionError s.
Proof.
move=> h; apply: fails_passert => k0; cbv zeta.
case: h => [|h]; first by rewrite leNgt k0.
have core k' s' : (k' <= minn (nr A) (nc A))%N -> fails (G := G)
   (passert (k' <= minn (nr A) (nc A))%N >>>
    let! QBA := qb2_loop L k'.+1 rf k' (use_tol tol) (abs_sq_tol A tol) blk
                       (sqnorm0 A) A (mzeros (nr A) 0) (mzeros 0 (nc A)) in
    ret (QBA.1, if ov then QBA.2 else A)) AssertionError s'.
  move=> k1; apply: fails_passert => _; apply: fails_bind; cbn [qb2_loop]; apply: fails_bind.
  rewrite /= add0r subr0; apply: h; case: ltP => // lb; first exact: ltW.
  by apply: le_trans lb _; rewrite lez_nat.
case: (leP k) => k1; last by
  apply: (@fails_seq _ _ _ _ _ _ _ s (St (gen s) (rcons (evs s) (EvWarn W_qb2_rank))) (minn (nr A) (nc A))) => //; exact: core.
by apply: (@fails_seq _ _ _ _ _ _ _ s s (absz k)) => //; apply: core; rewrite -lez_nat gez0_abs // ltW.
Qed.

Lemma rfA np blk A b s : (np < 2)%R || (blk <= 0)%R || (minn (nr A) (nc A) == 0)%N ->
  (b <= blk)%R -> (b <= (minn (nr A) (nc A))%:Z)%R ->
  fails (RF1 L (RS1 (skopGA r) (np - 2)%R (orth L) 1%R) A b None) AssertionError s.
Proof.
case/orP=> [/orP[h|h]|/eqP h] b1 b2; apply: RF1_fails; [right|left|left].
- by move=> s2; apply: RS1_fails; rewrite subr_lt0.
- by rewrite /kbad ltNge (le_trans b1 h).
- by rewrite /kbad ltNge (le_trans b2) // h.
Qed.

Definition blkbad (A : arr T) (np blk kk : int) : bool :=
  (kk <= 0)%R || ((np < 2)%R || (blk <= 0)%R || (minn (nr A) (nc A) == 0)%N).

Lemma qb_b_fails np blk ov A k tol a s : blkbad A np blk k ->
  fails (qb_b L r np blk ov A k tol a) AssertionError s.
Proof.
move=> h; apply: fails_with => s'; apply: QB2_fails; case/orP: h => h; [by left | right=> b s2].
exact: rfA.
Qed.

Lemma QB2n_fails np blk A k tol s : blkbad A np blk k ->
  fails (QB2_noov L (RF1 L (RS1 (skopGA r) (np - 2)%R (orth L) 1%R)) blk A k tol) AssertionError s.
Proof.
move=> h; apply: fails_bind; apply: QB2_fails; case/orP: h => h; [by left | right=> b s2].
exact: rfA.
Qed.

Lemma svd1_fails A k over tol np blk a s : blkbad A np blk (k + over)%R ->
  fails (svd1 L r A k over tol np blk a) AssertionError s.
Proof. by move=> h; apply: fails_with => s'; apply: fails_bind; exact: QB2n_fails. Qed.

Lemma evd1_fails asort A k tol over np blk a s :
  kbad A k || (if tol is Some t then ~~ (o0 <= t / onat 2)%O else false) ||
    blkbad A np blk (k + over)%R ->
  fails (evd1 L r asort A k tol over np blk a) AssertionError s.
Proof.
move=> h; apply: fails_passert => np2; apply: fails_with => s'.
apply: fails_passert => k0; apply: fails_passert => k1.
move: h; rewrite /kbad k0 k1 /= /half_tol; case: tol => [t|] /= h; last first.
  by apply: (@fails_seq _ _ _ _ _ _ _ s' s' tt) => //; apply: fails_bind; exact: QB2n_fails.
apply: fails_passert => t0; apply: fails_bind; apply: QB2n_fails; move: h.
by rewrite t0.
Qed.

Lemma qb_b_pe_fails np blk A k tol a s : (np < 1)%R || ~~ ((0 < k)%R && (k < (minn (nr A) (nc A))%:Z)%R) ->
  fails (qb_b_pe L r np blk A k tol a) AssertionError s.
Proof.
move=> h; apply: fails_with => s'; apply: fails_passert => k0; apply: fails_passert => k1.
apply: fails_bind; apply: RS1_fails; rewrite subr_lt0.
by case/orP: h => //; rewrite k0 k1.
Qed.

Lemma evd2_fails A k over np a s : (np < 1)%R || ~~ ((0 < k)%R && (k < (nr A)%:Z)%R) ->
  fails (evd2 L r A k over np a) AssertionError s.
Proof.
move=> h; apply: fails_passert => p0; apply: fails_with => s'; apply: fails_passert => k0; apply: fails_passert => k1.
by move: h; rewrite ltNge p0 k0 k1.
Qed.

Lemma row_fails sk_op A c s : (0 <= c)%R -> (forall A k s, fails (sk_op A k) AssertionError s) ->
  fails (G := G) (row_sketch sk_op A c) AssertionError s.
Proof. by move=> c0 h; rewrite /row_sketch ltNge c0; apply: fails_bind. Qed.
Lemma col_fails sk_op A c s : (0 <= c)%R -> (forall A k s, fails (sk_op A k) AssertionError s) ->
  fails (G := G) (col_sketch sk_op A c) AssertionError s.
Proof. by move=> c0 h; rewrite /col_sketch ltNge c0; apply: fails_bind. Qed.

Lemma OSID1_fails sk_op A k over axis s : (0 <= k%:Z + over)%R -> (axis == 0)%R || (axis == 1)%R ->
  (forall A k s, fails (sk_op A k) AssertionError s) -> fails (G := G) (OSID1 L sk_op A k over axis) AssertionError s.
Proof.
move=> c0 ax h; rewrite /OSID1; case: eqP ax => [_ _|_ /= ->]; apply: fails_bind; [exact: row_fails | exact: col_fails].
Qed.

Lemma p_fails p A k s : (p < 1)%R -> fails (RS1 (skopGA r) (p - 1)%R (orth L) 1%R A k) AssertionError s.
Proof. by move=> h; apply: RS1_fails; rewrite subr_lt0. Qed.

Lemma rocs1_fails A k over p axis a s : (p < 1)%R -> (0 <= k%:Z + over)%R -> (axis == 0)%R || (axis == 1)%R ->
  fails (rocs1 L r A k over p axis a) AssertionError s.
Proof.
move=> p1 c0 ax; apply: fails_with => s'; rewrite /ROCS1; case: eqP ax => [_ _|_ /= ->]; apply: fails_bind;
  [apply: row_fails | apply: col_fails] => // *; exact: p_fails.
Qed.
Lemma osid1_fails A k over p axis a s : (p < 1)%R -> (0 <= k%:Z + over)%R -> (axis == 0)%R || (axis == 1)%R ->
  fails (osid1 L r A k over p axis a) AssertionError s.
Proof. by move=> *; apply: fails_with => s'; apply: OSID1_fails => // *; exact: p_fails. Qed.
Lemma osid2_fails A k over p axis a s : (p < 1)%R -> (0 <= k%:Z + over)%R -> (axis == 0)%R || (axis == 1)%R ->
  fails (osid2 L r A k over p axis a) AssertionError s.
Proof.
move=> p1 c0 ax; apply: fails_with => s'; rewrite /OSID2; case: eqP ax => [_ _|_ /= ->]; apply: fails_bind;
  [apply: row_fails | apply: col_fails] => // *; exact: p_fails.
Qed.
Lemma tsid1_fails A k over p a s : (p < 1)%R -> (0 <= k%:Z + over)%R ->
  fails (tsid1 L r A k over p a) AssertionError s.
Proof.
move=> *; apply: fails_with => s'; rewrite /TSID1; case: ltnP => _; apply: fails_bind; apply: OSID1_fails => // *; exact: p_fails.
Qed.
Lemma cur1_fails A k over p a s : (p < 2)%R -> (0 <= k%:Z + over)%R ->
  fails (cur1 L r A k over p a) AssertionError s.
Proof.
move=> *; apply: fails_with => s'; rewrite /CUR1; case: ltnP => _; apply: fails_bind; apply: OSID1_fails => // *;
  by apply: RS1_fails; rewrite subr_lt0.
Qed.
Lemma axis_fails A k over p axis a s : ~~ ((axis == 0)%R || (axis == 1)%R) ->
  [/\ fails (rocs1 L r A k over p axis a) ValueError s, fails (osid1 L r A k over p axis a) ValueError s &
      fails (osid2 L r A k over p axis a) ValueError s].
Proof.
rewrite negb_or => /andP[/negbTE a0 /negbTE a1].
by split; apply: fails_with => s'; rewrite /ROCS1 /OSID1 /OSID2 a0 a1.
Qed.

Lemma dim_fails sf m n s : (m < n)%N || (trunc_rat (sf * n%:R)%R < n%:Z)%R ->
  fails (G := G) (T := T) (dim_checks sf m n) AssertionError s.
Proof.
move=> h; apply: fails_passert => nm; cbv zeta.
have t : (trunc_rat (sf * n%:R)%R < n%:Z)%R by case/orP: h => //; rewrite ltnNge nm.
apply: (@fails_seq _ _ _ _ _ _ _ s s (trunc_rat (sf * n%:R)%R)) => //; last by apply: fails_passertF; rewrite -ltNge.
by case: ltP => // lt; move: (lt_trans lt t); rewrite ltz_nat ltnNge nm.
Qed.

Definition dimbad (sf : rat) (A : arr T) : bool := (nr A < nc A)%N || (trunc_rat (sf * (nc A)%:R)%R < (nc A)%:Z)%R.

Lemma sso1_fails A b dl a sf z s : dimbad sf A -> fails (sso1 L r A b dl a sf z) AssertionError s.
Proof.
move=> h; apply: fails_with => s'; rewrite /SSO1.
apply: (@fails_seq _ _ _ _ _ _ _ s' s' tt) => //; apply: (@fails_seq _ _ _ _ _ _ _ s' s' tt) => //.
by apply: fails_bind; exact: dim_fails.
Qed.
Lemma spo3_fails A b dl tol lim a sf z md clk s : ~~ (dl < o0)%O -> dimbad sf A ->
  fails (spo3 L r A b dl tol lim a sf z md clk) AssertionError s.
Proof.
move=> d0 h; apply: fails_with => s'; rewrite /SPO (negbTE d0); apply: fails_bind; exact: dim_fails.
Qed.
Lemma spu1_fails A c tol lim a sf z clk s : dimbad sf A -> fails (spu1 L r A c tol lim a sf z clk) AssertionError s.
Proof. by move=> h; apply: fails_with => s'; apply: fails_bind; exact: dim_fails. Qed.

End Drv.
