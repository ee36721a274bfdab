(** Reproducibility: computations that depend on the state only through the
    generator.  The log of events is write-only. *)
From mathcomp Require Import all_ssreflect all_algebra.
From Verif Require Import Base Arr Lapack Rng Aware RangeFinders QB Pcg Lsqr Precond LstSq SaddleSys SvdEvd Interp.
From Verif Require Import Sketching Drivers.
Set Implicit Arguments.
Unset Strict Implicit.
Unset Printing Implicit Defensive.

Section Frame.
Context {G T : Type}.

(** What is emitted, the new generator and the result are functions of the
    generator alone. *)
Definition framed {X} (c : M G T X) : Prop := forall s,
  c s = let: (s1, x) := c (St (gen s) [::]) in (St (gen s1) (evs s ++ evs s1), x).

Lemma framed_ret X (x : X) : framed (ret x).
Proof. by case=> g e; rewrite /ret /= cats0. Qed.
Lemma framed_raise X e : framed (@raise G T X e).
Proof. by case=> g l; rewrite /raise /= cats0. Qed.
Lemma framed_lift X (c : res X) : framed (lift c).
Proof. by case=> g l; rewrite /lift /= cats0. Qed.
Lemma framed_passert b : framed (passert b).
Proof. by case=> g l; rewrite /passert /= cats0. Qed.
Lemma framed_emit (e : event T) : framed (emit e).
Proof. by case=> g l; rewrite /emit /= cats1. Qed.
Lemma framed_getgen X (f : G -> G * X) : framed (getgen f).
Proof. by case=> g l; rewrite /getgen /=; case: (f g) => g' x /=; rewrite cats0. Qed.

Lemma framed_bind X Y (c : M G T X) (f : X -> M G T Y) :
  framed c -> (forall x, framed (f x)) -> framed (bind c f).
Proof.
move=> hc hf s; rewrite /bind (hc s).
case: (c _) => s1 [e|x] //=.
rewrite (hf x (St _ (evs s ++ _))) /= [f x s1]hf.
by case: (f x _) => s2 y /=; rewrite catA.
Qed.

Lemma framed_if X b (c d : M G T X) : framed c -> framed d -> framed (if b then c else d).
Proof. by case: b. Qed.

Lemma framed_with_rng X (r : rng_ops G T) a (c : M G T X) : framed c -> framed (with_rng r a c).
Proof.
move=> hc; case: a => [|z|v] //= s; rewrite [c _]hc /=.
  by case: (c _) => s1 x.
by case: (c _) => s1 x.
Qed.

(** A seed creates a private generator: result and events are independent of
    the state, and the caller's generator is untouched. *)
Lemma framed_seed X (r : rng_ops G T) a (c : M G T X) (s s' : st G T) : framed c -> a <> RGen ->
  gen (with_rng r a c s).1 = gen s /\
  exists l x, with_rng r a c s = (St (gen s) (evs s ++ l), x) /\ with_rng r a c s' = (St (gen s') (evs s' ++ l), x).
Proof.
move=> hc; case: a => [|z|v] //= _; rewrite [c (St _ (evs s))]hc [c (St _ (evs s'))]hc /=.
  by case: (c _) => s1 x; split=> //; exists (evs s1), x.
by case: (c _) => s1 x; split=> //; exists (evs s1), x.
Qed.

Lemma framed_gen X (c : M G T X) (s s' : st G T) : framed c -> gen s = gen s' ->
  exists g l x, c s = (St g (evs s ++ l), x) /\ c s' = (St g (evs s' ++ l), x).
Proof.
move=> hc e; rewrite (hc s) (hc s') e; case: (c _) => s1 x.
by exists (gen s1), (evs s1), x.
Qed.

End Frame.

Ltac fr := repeat (first
 [ assumption
 | match goal with h : forall _, framed _ |- _ => apply: h end
 | match goal with h : forall _ _, framed _ |- _ => apply: h end
 | match goal with h : forall _ _ _, framed _ |- _ => apply: h end
 | match goal with h : forall _ _ _ _, framed _ |- _ => apply: h end
 | match goal with
   | |- framed (ret _) => apply: framed_ret
   | |- framed (raise _) => apply: framed_raise
   | |- framed (lift _) => apply: framed_lift
   | |- framed (passert _) => apply: framed_passert
   | |- framed (emit _) => apply: framed_emit
   | |- framed (getgen _) => apply: framed_getgen
   | |- framed (with_rng _ _ _) => apply: framed_with_rng
   | |- framed (if _ then _ else _) => apply: framed_if
   | |- framed (bind _ _) => apply: framed_bind; [ | intro ]
   | |- framed (match ?x with _ => _ end) => case: x => *
   end ]).

Section Model.
Context {G T : Type} {O : ops T}.
Variables (L : lapack T) (r : rng_ops G T).
Notation M := (M G T).

Lemma fr_gauss b m n : framed (gaussian_operator r b m n).
Proof. by rewrite /gaussian_operator; case: b; fr. Qed.
Lemma fr_skopGA m n : framed (skopGA r m n).
Proof. exact: fr_gauss. Qed.

Lemma fr_maybe_stab stab pps d (Sk : arr T) : framed (G := G) (maybe_stab stab pps d Sk).
Proof. by rewrite /maybe_stab /stabilize; fr. Qed.

Lemma fr_rs1_loop stab pps A q d Sk : framed (G := G) (rs1_loop stab pps A q d Sk).
Proof.
elim: q d Sk => [|q IH] d Sk /=; first exact: framed_ret.
by rewrite /passA /passAt; fr; try exact: fr_maybe_stab.
Qed.

Lemma fr_RS1 (g : nat -> nat -> M (pyop T)) np stab pps A k :
  (forall a b, framed (g a b)) -> framed (RS1 g np stab pps A k).
Proof.
move=> hg; rewrite /RS1 /draw /passAt /stabilize.
by fr; try exact: fr_rs1_loop.
Qed.

Lemma fr_rso np A k : framed (RS1 (skopGA r) np (orth L) 1%R A k).
Proof. by apply: fr_RS1 => a b; exact: fr_skopGA. Qed.

Lemma fr_rs1 A k np a : framed (rs1 L r A k np a).
Proof. by rewrite /rs1; fr; apply: fr_RS1 => *; exact: fr_gauss. Qed.

Lemma fr_RF1 (rso : arr T -> nat -> M (pyop T)) A k tol :
  (forall A k, framed (rso A k)) -> framed (RF1 L rso A k tol).
Proof. by move=> h; rewrite /RF1 /passA; case: tol => [t|]; fr. Qed.

Lemma fr_rf1 A k np a : framed (rf1 L r A k np a).
Proof. by rewrite /rf1; fr; apply: fr_RF1 => *; exact: fr_rso. Qed.

Lemma fr_QB1 rf A k tol : (forall A k tol, framed (rf A k tol)) -> framed (G := G) (QB1 rf A k tol).
Proof. by move=> h; rewrite /QB1 /passQtA; case: tol => [t|]; fr. Qed.

Lemma fr_qb2_loop fuel rf k utol abs blk sqn A Q B :
  (forall A k tol, framed (rf A k tol)) -> framed (G := G) (qb2_loop L fuel rf k utol abs blk sqn A Q B).
Proof.
move=> h; elim: fuel blk sqn A Q B => [|fuel IH] blk sqn A Q B; first exact: framed_raise.
by cbn [qb2_loop]; rewrite /passQtA; cbv zeta; fr.
Qed.

Lemma fr_QB2 rf blk ov A k tol : (forall A k tol, framed (rf A k tol)) -> framed (G := G) (QB2 L rf blk ov A k tol).
Proof. by move=> h; rewrite /QB2; fr; exact: fr_qb2_loop. Qed.

Lemma fr_qb3_loop todo i k blk utol abs Sk Gm H sqn Q B :
  framed (G := G) (qb3_loop L todo i k blk utol abs Sk Gm H sqn Q B).
Proof.
elim: todo i sqn Q B => [|todo IH] i sqn Q B; first exact: framed_ret.
by cbn [qb3_loop]; cbv zeta; fr.
Qed.

Lemma fr_QB3 sk_op blk A k tol : (forall A k, framed (sk_op A k)) -> framed (G := G) (QB3 L sk_op blk A k tol).
Proof.
move=> h; rewrite /QB3 /passA /passAt; fr.
by case: x1 => *; fr; exact: fr_qb3_loop.
Qed.

Lemma fr_qb np A k a : framed (qb L r np A k a).
Proof. by rewrite /qb; fr; apply: fr_QB1 => *; apply: fr_RF1 => *; exact: fr_rso. Qed.
Lemma fr_qb_b np blk ov A k tol a : framed (qb_b L r np blk ov A k tol a).
Proof. by rewrite /qb_b; fr; apply: fr_QB2 => *; apply: fr_RF1 => *; exact: fr_rso. Qed.
Lemma fr_qb_b_pe np blk A k tol a : framed (qb_b_pe L r np blk A k tol a).
Proof. by rewrite /qb_b_pe; fr; apply: fr_QB3 => *; exact: fr_rso. Qed.

Lemma fr_QB2n rf blk A k tol : (forall A k tol, framed (rf A k tol)) -> framed (G := G) (QB2_noov L rf blk A k tol).
Proof. by move=> h; rewrite /QB2_noov; fr; exact: fr_QB2. Qed.

Lemma fr_SVD1 qb A k tol over : (forall A k tol, framed (qb A k tol)) -> framed (G := G) (SVD1 L qb A k tol over).
Proof. by move=> h; rewrite /SVD1; fr; cbv zeta; fr. Qed.

Lemma fr_EVD1 asort qb A k tol over :
  (forall A k tol, framed (qb A k tol)) -> framed (G := G) (EVD1 L asort qb A k tol over).
Proof. by move=> h; rewrite /EVD1; case: tol => [t|]; fr; cbv zeta; fr. Qed.

Lemma fr_EVD2 sk_op A k tol over : (forall A k, framed (sk_op A k)) -> framed (G := G) (EVD2 L sk_op A k tol over).
Proof. by move=> h; rewrite /EVD2 /passA; case: tol => [t|]; cbv zeta; fr; cbv zeta; fr. Qed.

Lemma fr_svd1 A k over tol np blk a : framed (svd1 L r A k over tol np blk a).
Proof. by rewrite /svd1; fr; apply: fr_SVD1 => *; apply: fr_QB2n => *; apply: fr_RF1 => *; exact: fr_rso. Qed.
Lemma fr_evd1 asort A k tol over np blk a : framed (evd1 L r asort A k tol over np blk a).
Proof. by rewrite /evd1; fr; apply: fr_EVD1 => *; apply: fr_QB2n => *; apply: fr_RF1 => *; exact: fr_rso. Qed.
Lemma fr_evd2 A k over np a : framed (evd2 L r A k over np a).
Proof. by rewrite /evd2; fr; apply: fr_EVD2 => *; exact: fr_rso. Qed.

Lemma fr_row_sketch sk_op A c : (forall A k, framed (sk_op A k)) -> framed (G := G) (row_sketch sk_op A c).
Proof. by move=> h; rewrite /row_sketch /passA; fr. Qed.
Lemma fr_col_sketch sk_op A c : (forall A k, framed (sk_op A k)) -> framed (G := G) (col_sketch sk_op A c).
Proof. by move=> h; rewrite /col_sketch; fr. Qed.

Lemma fr_ROCS1 sk_op A k over axis : (forall A k, framed (sk_op A k)) -> framed (G := G) (ROCS1 L sk_op A k over axis).
Proof.
by move=> h; rewrite /ROCS1; fr; try exact: fr_row_sketch; try exact: fr_col_sketch.
Qed.
Lemma fr_OSID1 sk_op A k over axis : (forall A k, framed (sk_op A k)) -> framed (G := G) (OSID1 L sk_op A k over axis).
Proof.
by move=> h; rewrite /OSID1; fr; try exact: fr_row_sketch; try exact: fr_col_sketch.
Qed.
Lemma fr_OSID2 sk_op A k over axis : (forall A k, framed (sk_op A k)) -> framed (G := G) (OSID2 L sk_op A k over axis).
Proof.
by move=> h; rewrite /OSID2; fr; try exact: fr_row_sketch; try exact: fr_col_sketch; cbv zeta; fr.
Qed.
Lemma fr_TSID1 osid A k over : (forall A k o x, framed (osid A k o x)) -> framed (G := G) (TSID1 L osid A k over).
Proof. by move=> h; rewrite /TSID1; fr. Qed.
Lemma fr_CUR1 osid A k over : (forall A k o x, framed (osid A k o x)) -> framed (G := G) (CUR1 L osid A k over).
Proof. by move=> h; rewrite /CUR1; fr; cbv zeta; fr. Qed.

Lemma fr_rocs1 A k over p axis a : framed (rocs1 L r A k over p axis a).
Proof. by rewrite /rocs1; fr; apply: fr_ROCS1 => *; exact: fr_rso. Qed.
Lemma fr_osid1 A k over p axis a : framed (osid1 L r A k over p axis a).
Proof. by rewrite /osid1; fr; apply: fr_OSID1 => *; exact: fr_rso. Qed.
Lemma fr_osid2 A k over p axis a : framed (osid2 L r A k over p axis a).
Proof. by rewrite /osid2; fr; apply: fr_OSID2 => *; exact: fr_rso. Qed.
Lemma fr_tsid1 A k over p a : framed (tsid1 L r A k over p a).
Proof. by rewrite /tsid1; fr; apply: fr_TSID1 => *; apply: fr_OSID1 => *; exact: fr_rso. Qed.
Lemma fr_cur1 A k over p a : framed (cur1 L r A k over p a).
Proof. by rewrite /cur1; fr; apply: fr_CUR1 => *; apply: fr_OSID1 => *; exact: fr_rso. Qed.

(** Sketching operators. *)
Lemma fr_choice p k b : framed (choice r p k b).
Proof. by rewrite /choice; fr. Qed.
Lemma fr_repeatM X n (c : M X) : framed c -> framed (repeatM n c).
Proof. by move=> h; elim: n => [|n IH] /=; fr. Qed.
Lemma fr_ortho_tall m n : framed (orthonormal_tall L r m n).
Proof. by rewrite /orthonormal_tall; fr; exact: fr_gauss. Qed.
Lemma fr_ortho m n a : framed (orthonormal_operator L r m n a).
Proof. by rewrite /orthonormal_operator; fr; exact: fr_ortho_tall. Qed.
Lemma fr_sjlt_wide m n z : framed (sjlt_wide r m n z).
Proof. by rewrite /sjlt_wide /random; cbv zeta; fr; apply: fr_repeatM; exact: fr_choice. Qed.
Lemma fr_sjlt m n a z : framed (sjlt_operator r m n a z).
Proof. by rewrite /sjlt_operator; fr; exact: fr_sjlt_wide. Qed.
Lemma fr_ss_mask N d k : framed (ss_mask r N d k).
Proof. by elim: k => [|k IH]; rewrite /ss_mask -/ss_mask /random; fr; cbv zeta; fr. Qed.
Lemma fr_ssign m n a d : framed (sparse_sign_operator r m n a d).
Proof. by rewrite /sparse_sign_operator /random; fr; exact: fr_ss_mask. Qed.
Lemma fr_gen_srct m n : framed (generate_srct r m n).
Proof. by rewrite /generate_srct /random /permutation; cbv zeta; fr; try exact: fr_choice; cbv zeta; fr. Qed.
Lemma fr_srct_wide m n : framed (srct_wide L r m n).
Proof. by rewrite /srct_wide; fr; exact: fr_gen_srct. Qed.
Lemma fr_srct m n a : framed (srct_operator L r m n a).
Proof. by rewrite /srct_operator; fr; try exact: fr_srct_wide; exact: fr_gen_srct. Qed.
Lemma fr_sampling_idx m n i : framed (sampling_idx r m n i).
Proof. by rewrite /sampling_idx; fr; exact: fr_choice. Qed.
Lemma fr_sampling m n a i : framed (sampling_operator r m n a i).
Proof. by rewrite /sampling_operator; fr; exact: fr_sampling_idx. Qed.

Lemma fr_skop k m n a : framed (skop_call L r k m n a).
Proof.
case: k => [|b|z|d||i] /=; [exact: fr_ortho| |exact: fr_sjlt| |exact: fr_srct|exact: fr_sampling].
  by fr; exact: fr_gauss.
by fr; exact: fr_ssign.
Qed.

(** Least squares and saddle point drivers. *)
Lemma fr_dim_checks sf m n : framed (G := G) (T := T) (dim_checks sf m n).
Proof. by rewrite /dim_checks; cbv zeta; fr. Qed.

Lemma fr_SSO1 g sf A b dl tol lim : (forall a b, framed (g a b)) -> framed (G := G) (SSO1 L g sf A b dl tol lim).
Proof. by move=> h; rewrite /SSO1 /draw; cbv zeta; case: tol => [t|]; fr; exact: fr_dim_checks. Qed.
Lemma fr_SPO g sf md A b dl tol lim lg clk :
  (forall a b, framed (g a b)) -> framed (G := G) (SPO L g sf md A b dl tol lim lg clk).
Proof. by move=> h; rewrite /SPO /draw; cbv zeta; fr; exact: fr_dim_checks. Qed.
Lemma fr_SPU1 g sf A c tol lim lg clk :
  (forall a b, framed (g a b)) -> framed (G := G) (SPU1 L g sf A c tol lim lg clk).
Proof. by move=> h; rewrite /SPU1 /draw; cbv zeta; fr; exact: fr_dim_checks. Qed.
Lemma fr_sps1_precond g st A dl d :
  (forall a b, framed (g a b)) -> framed (G := G) (sps1_precond L g st A dl d).
Proof. by move=> h; rewrite /sps1_precond /draw; cbv zeta; fr. Qed.
Lemma fr_SPS1 g sf slv st A b c dl tol lim lg clk :
  (forall a b, framed (g a b)) -> framed (G := G) (SPS1 L g sf slv st A b c dl tol lim lg clk).
Proof. by move=> h; rewrite /SPS1; cbv zeta; fr; exact: fr_sps1_precond. Qed.
Lemma fr_SPS2 g sf slv A b c dl tol lim lg clk :
  (forall a b, framed (g a b)) -> framed (G := G) (SPS2 L g sf slv A b c dl tol lim lg clk).
Proof. by move=> h; rewrite /SPS2 /draw; cbv zeta; fr; exact: fr_dim_checks. Qed.

Lemma fr_sso1 A b dl a sf z : framed (sso1 L r A b dl a sf z).
Proof. by rewrite /sso1; fr; apply: fr_SSO1 => *; exact: fr_sjlt. Qed.
Lemma fr_spo3 A b dl tol lim a sf z md clk : framed (spo3 L r A b dl tol lim a sf z md clk).
Proof. by rewrite /spo3; fr; apply: fr_SPO => *; exact: fr_sjlt. Qed.
Lemma fr_spu1 A c tol lim a sf z clk : framed (spu1 L r A c tol lim a sf z clk).
Proof. by rewrite /spu1; fr; apply: fr_SPU1 => *; exact: fr_sjlt. Qed.
Lemma fr_sps A b c dl tol lim a sf z me clk : framed (sps L r A b c dl tol lim a sf z me clk).
Proof. by rewrite /sps; cbv zeta; fr; apply: fr_SPS1 => *; exact: fr_sjlt. Qed.

End Model.
