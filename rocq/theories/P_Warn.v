(** The warnings a computation issues, whether it returns or raises. *)
From mathcomp Require Import all_ssreflect all_algebra.
From mathcomp Require Import zify.
From Verif Require Import Base Arr Lapack Rng Aware RangeFinders QB Pcg Lsqr Precond LstSq SaddleSys SvdEvd Interp.
From Verif Require Import Sketching Drivers.
Set Implicit Arguments.
Unset Strict Implicit.
Unset Printing Implicit Defensive.
Import Order.TTheory GRing.Theory Num.Theory.

Section Warn.
Context {G T : Type}.

(** The warnings among the events. *)
Definition wlog (s : st G T) : seq warn := pmap (fun e => if e is EvWarn w then Some w else None) (evs s).

(** Every run of [c] issues exactly the warnings [W], in that order. *)
Definition warns (W : seq warn) {X} (c : M G T X) : Prop := forall s, wlog (c s).1 = wlog s ++ W.
Definition silent {X} (c : M G T X) : Prop := warns [::] c.

Lemma silent_ret X (x : X) : silent (ret x).
Proof. by move=> s; rewrite cats0. Qed.
Lemma silent_raise X e : silent (@raise G T X e).
Proof. by move=> s; rewrite cats0. Qed.
Lemma silent_lift X (c : res X) : silent (lift c).
Proof. by move=> s; rewrite cats0. Qed.
Lemma silent_passert b : silent (passert b).
Proof. by move=> s; rewrite cats0. Qed.
Lemma silent_getgen X (f : G -> G * X) : silent (getgen f).
Proof. by case=> g l; rewrite /getgen /wlog /=; case: (f g) => g' x /=; rewrite cats0. Qed.
Lemma warns_emit w : warns [:: w] (emit (EvWarn w)).
Proof. by move=> s; rewrite /wlog /emit /= -cats1 pmap_cat. Qed.
Lemma silent_emit (e : event T) : (if e is EvWarn _ then false else true) -> silent (emit e).
Proof. by case: e => // *; rewrite /silent => s; rewrite /wlog /emit /= -cats1 pmap_cat /= !cats0. Qed.

Lemma warns_bindl W X Y (c : M G T X) (f : X -> M G T Y) :
  warns W c -> (forall x, silent (f x)) -> warns W (bind c f).
Proof.
move=> hc hf s; rewrite /bind; have := hc s; case: (c s) => s1 [e|x] //= h.
by rewrite hf h cats0.
Qed.

Lemma silent_bind X Y (c : M G T X) (f : X -> M G T Y) :
  silent c -> (forall x, silent (f x)) -> silent (bind c f).
Proof. exact: warns_bindl. Qed.

Lemma silent_if X b (c d : M G T X) : silent c -> silent d -> silent (if b then c else d).
Proof. by case: b. Qed.

Lemma warns_with_rng W X (r : rng_ops G T) a (c : M G T X) : warns W c -> warns W (with_rng r a c).
Proof.
move=> hc; case: a => [|z|v] //= s.
  by have := hc (St (r_seed r z) (evs s)); case: (c _) => s1 x.
by have := hc (St (r_seeds r v) (evs s)); case: (c _) => s1 x.
Qed.
Lemma silent_with_rng X (r : rng_ops G T) a (c : M G T X) : silent c -> silent (with_rng r a c).
Proof. exact: warns_with_rng. Qed.

(** Assertions before the first warning. *)
Lemma warns_passert W X (b : bool) (c : M G T X) : (b -> warns W c) -> warns (if b then W else [::]) (passert b >>> c).
Proof.
move=> h s; rewrite /bind /passert /=; case: b h => [h|_] /=; last by rewrite cats0.
exact: h.
Qed.

End Warn.

Ltac sl := repeat (first
 [ assumption
 | match goal with h : forall _, silent _ |- _ => apply: h end
 | match goal with h : forall _ _, silent _ |- _ => apply: h end
 | match goal with h : forall _ _ _, silent _ |- _ => apply: h end
 | match goal with h : forall _ _ _ _, silent _ |- _ => apply: h end
 | match goal with
   | |- silent (ret _) => apply: silent_ret
   | |- silent (raise _) => apply: silent_raise
   | |- silent (lift _) => apply: silent_lift
   | |- silent (passert _) => apply: silent_passert
   | |- silent (emit _) => by apply: silent_emit
   | |- silent (getgen _) => apply: silent_getgen
   | |- silent (with_rng _ _ _) => apply: silent_with_rng
   | |- silent (if _ then _ else _) => apply: silent_if
   | |- silent (bind _ _) => apply: silent_bind; [ | intro ]
   | |- silent (match ?x with _ => _ end) => case: x => *
   end ]).

Section Model.
Context {G T : Type} {O : ops T}.
Variables (L : lapack T) (r : rng_ops G T).
Notation M := (M G T).

Lemma sl_gauss b m n : silent (gaussian_operator r b m n).
Proof. by rewrite /gaussian_operator; case: b; sl. Qed.
Lemma sl_skopGA m n : silent (skopGA r m n).
Proof. exact: sl_gauss. Qed.

Lemma sl_maybe_stab stab pps d (Sk : arr T) : silent (G := G) (maybe_stab stab pps d Sk).
Proof. by rewrite /maybe_stab /stabilize; sl. Qed.

Lemma sl_rs1_loop stab pps A q d Sk : silent (G := G) (rs1_loop stab pps A q d Sk).
Proof.
elim: q d Sk => [|q IH] d Sk /=; first exact: silent_ret.
by rewrite /passA /passAt; sl; try exact: sl_maybe_stab.
Qed.

Lemma sl_RS1 (g : nat -> nat -> M (pyop T)) np stab pps A k :
  (forall a b, silent (g a b)) -> silent (RS1 g np stab pps A k).
Proof.
move=> hg; rewrite /RS1 /draw /passAt /stabilize.
by sl; try exact: sl_rs1_loop.
Qed.

Lemma sl_rso np A k : silent (RS1 (skopGA r) np (orth L) 1%R A k).
Proof. by apply: sl_RS1 => a b; exact: sl_skopGA. Qed.

Lemma sl_rs1 A k np a : silent (rs1 L r A k np a).
Proof. by rewrite /rs1; sl; apply: sl_RS1 => *; exact: sl_gauss. Qed.

Lemma sl_RF1 (rso : arr T -> nat -> M (pyop T)) A k :
  (forall A k, silent (rso A k)) -> silent (RF1 L rso A k None).
Proof. by move=> h; rewrite /RF1 /passA; sl. Qed.

(** A tolerance given to the rangefinder is always reported as ignored. *)
Lemma wn_RF1 (rso : arr T -> nat -> M (pyop T)) A k t :
  (forall A k, silent (rso A k)) ->
  warns (if (0 < k)%R && (k <= (minn (nr A) (nc A))%:Z)%R then [:: W_rf_tol] else [::]) (RF1 L rso A k (Some t)).
Proof.
move=> h; rewrite /RF1 /passA.
have -> : (if (0 < k)%R && (k <= (minn (nr A) (nc A))%:Z)%R then [:: W_rf_tol] else [::]) =
          (if (0 < k)%R then if (k <= (minn (nr A) (nc A))%:Z)%R then [:: W_rf_tol] else [::] else [::]).
  by case: (0 < k)%R.
apply: warns_passert => _; apply: warns_passert => _.
apply: warns_bindl; first exact: warns_emit.
by move=> _; sl.
Qed.

Lemma wn_rf1 A k np a :
  warns (if (0 < k)%R && (k <= (minn (nr A) (nc A))%:Z)%R then [:: W_rf_tol] else [::]) (rf1 L r A k np a).
Proof. by apply: warns_with_rng; apply: wn_RF1 => *; exact: sl_rso. Qed.

Lemma rf1_not_silent (s : st G T) :
  exists A k, [/\ (0 < k)%R, (k <= (minn (nr A) (nc A))%:Z)%R & ~ silent (rf1 L r A k 1%R RGen)].
Proof.
exists (meye 1), 1%R; split=> // h; have := wn_rf1 (meye 1) 1%R 1%R RGen s.
have := h s; rewrite cats0 => e1 /(_ O); rewrite e1.
by move/(congr1 size); rewrite size_cat /= addn1 => /n_Sn.
Qed.

Lemma sl_QB1 rf A k : (forall A k, silent (rf A k None)) -> silent (G := G) (QB1 rf A k None).
Proof. by move=> h; rewrite /QB1 /passQtA; sl. Qed.

Lemma sl_qb2_loop fuel rf k utol abs blk sqn A Q B :
  (forall A k, silent (rf A k None)) -> silent (G := G) (qb2_loop L fuel rf k utol abs blk sqn A Q B).
Proof.
move=> h; elim: fuel blk sqn A Q B => [|fuel IH] blk sqn A Q B; first exact: silent_raise.
by cbn [qb2_loop]; rewrite /passQtA; cbv zeta; sl.
Qed.

Definition rank_warning (A : arr T) (k : int) : seq warn :=
  if ((minn (nr A) (nc A))%:Z < k)%R then [:: W_qb2_rank] else [::].

Lemma wn_QB2 rf blk ov A k tol : (forall A k, silent (rf A k None)) ->
  warns (rank_warning A k) (G := G) (QB2 L rf blk ov A k tol).
Proof.
move=> h; rewrite /QB2 /rank_warning.
have -> : (if ((minn (nr A) (nc A))%:Z < k)%R then [:: W_qb2_rank] else [::]) =
  (if (0 < k)%R then if ((minn (nr A) (nc A))%:Z < k)%R then [:: W_qb2_rank] else [::] else [::]).
  by case: ltrP => // k0; case: ifP => // h1; exfalso; lia.
apply: warns_passert => k0; cbv zeta.
apply: warns_bindl; last by move=> x; sl; exact: sl_qb2_loop.
have -> : ((minn (nr A) (nc A))%:Z < k)%R = ~~ (k <= (minn (nr A) (nc A))%:Z)%R by lia.
case: (k <= (minn (nr A) (nc A))%:Z)%R => /=; first exact: silent_ret.
by apply: warns_bindl; [exact: warns_emit|move=> _; exact: silent_ret].
Qed.

Lemma sl_qb3_loop todo i k blk utol abs Sk Gm H sqn Q B :
  silent (G := G) (qb3_loop L todo i k blk utol abs Sk Gm H sqn Q B).
Proof.
elim: todo i sqn Q B => [|todo IH] i sqn Q B; first exact: silent_ret.
by cbn [qb3_loop]; cbv zeta; sl.
Qed.

Lemma sl_QB3 sk_op blk A k tol : (forall A k, silent (sk_op A k)) -> silent (G := G) (QB3 L sk_op blk A k tol).
Proof.
move=> h; rewrite /QB3 /passA /passAt; sl.
by case: x1 => *; sl; exact: sl_qb3_loop.
Qed.

Lemma sl_qb np A k a : silent (qb L r np A k a).
Proof. by rewrite /qb; sl; apply: sl_QB1 => *; apply: sl_RF1 => *; exact: sl_rso. Qed.
Lemma wn_qb_b np blk ov A k tol a : warns (rank_warning A k) (qb_b L r np blk ov A k tol a).
Proof. by apply: warns_with_rng; apply: wn_QB2 => *; apply: sl_RF1 => *; exact: sl_rso. Qed.
Lemma sl_qb_b_pe np blk A k tol a : silent (qb_b_pe L r np blk A k tol a).
Proof. by rewrite /qb_b_pe; sl; apply: sl_QB3 => *; exact: sl_rso. Qed.

Lemma wn_QB2n rf blk A k tol : (forall A k, silent (rf A k None)) ->
  warns (rank_warning A k) (G := G) (QB2_noov L rf blk A k tol).
Proof. by move=> h; apply: warns_bindl; [exact: wn_QB2|move=> x; sl]. Qed.

Lemma wn_SVD1 W qb A k tol over : warns W (qb A (k + over)%R tol) -> warns W (G := G) (SVD1 L qb A k tol over).
Proof. by move=> h; apply: warns_bindl => // x; sl; cbv zeta; sl. Qed.

Lemma warns_silentl W X Y (c : M X) (f : X -> M Y) :
  silent c -> (forall s e, (c s).2 <> inl e) -> (forall x, warns W (f x)) -> warns W (bind c f).
Proof.
move=> hc he hf s; rewrite /bind; have := hc s; have := he s; case: (c s) => s1 [e|x] /= h1 h2; first by case: (h1 e).
by rewrite hf h2 cats0.
Qed.

Lemma wn_EVD1 W asort qb A k tol over : (0 < k)%R -> (k <= (minn (nr A) (nc A))%:Z)%R ->
  (if tol is Some t then (o0 <= t)%O else true) ->
  warns W (qb A (k + over)%R (half_tol tol)) -> warns W (G := G) (EVD1 L asort qb A k tol over).
Proof.
move=> k0 k1 t0 h s; rewrite /EVD1 k0 bind_passertT k1 bind_passertT.
have -> : (if tol is Some t then passert (o0 <= t)%O else ret tt) = @ret G T _ tt.
  by case: tol t0 {h} => // t ->.
rewrite bind_retE; move: s; apply: warns_bindl => // x; sl; cbv zeta; sl.
Qed.

Lemma sl_EVD2 sk_op A k over : (forall A k, silent (sk_op A k)) -> silent (G := G) (EVD2 L sk_op A k None over).
Proof. by move=> h; rewrite /EVD2 /passA; cbv zeta; sl; cbv zeta; sl. Qed.

Lemma wn_svd1 A k over tol np blk a : warns (rank_warning A (k + over)%R) (svd1 L r A k over tol np blk a).
Proof. by apply: warns_with_rng; apply: wn_SVD1; apply: wn_QB2n => *; apply: sl_RF1 => *; exact: sl_rso. Qed.
Lemma wn_evd1 asort A k tol over np blk a : (0 < k)%R -> (k <= (minn (nr A) (nc A))%:Z)%R -> (2 <= np)%R ->
  (if half_tol tol is Some t then (o0 <= t)%O else true) ->
  warns (rank_warning A (k + over)%R) (evd1 L r asort A k tol over np blk a).
Proof.
move=> k0 k1 p t0 s; rewrite /evd1 p bind_passertT; move: s; apply: warns_with_rng; apply: wn_EVD1 => //.
by apply: wn_QB2n => *; apply: sl_RF1 => *; exact: sl_rso.
Qed.
Lemma sl_evd2 A k over np a : silent (evd2 L r A k over np a).
Proof. by rewrite /evd2; sl; apply: sl_EVD2 => *; exact: sl_rso. Qed.

Lemma sl_row_sketch sk_op A c : (forall A k, silent (sk_op A k)) -> silent (G := G) (row_sketch sk_op A c).
Proof. by move=> h; rewrite /row_sketch /passA; sl. Qed.
Lemma sl_col_sketch sk_op A c : (forall A k, silent (sk_op A k)) -> silent (G := G) (col_sketch sk_op A c).
Proof. by move=> h; rewrite /col_sketch; sl. Qed.

Lemma sl_ROCS1 sk_op A k over axis : (forall A k, silent (sk_op A k)) -> silent (G := G) (ROCS1 L sk_op A k over axis).
Proof.
by move=> h; rewrite /ROCS1; sl; try exact: sl_row_sketch; try exact: sl_col_sketch.
Qed.
Lemma sl_OSID1 sk_op A k over axis : (forall A k, silent (sk_op A k)) -> silent (G := G) (OSID1 L sk_op A k over axis).
Proof.
by move=> h; rewrite /OSID1; sl; try exact: sl_row_sketch; try exact: sl_col_sketch.
Qed.
Lemma sl_OSID2 sk_op A k over axis : (forall A k, silent (sk_op A k)) -> silent (G := G) (OSID2 L sk_op A k over axis).
Proof.
by move=> h; rewrite /OSID2; sl; try exact: sl_row_sketch; try exact: sl_col_sketch; cbv zeta; sl.
Qed.
Lemma sl_TSID1 osid A k over : (forall A k o x, silent (osid A k o x)) -> silent (G := G) (TSID1 L osid A k over).
Proof. by move=> h; rewrite /TSID1; sl. Qed.
Lemma sl_CUR1 osid A k over : (forall A k o x, silent (osid A k o x)) -> silent (G := G) (CUR1 L osid A k over).
Proof. by move=> h; rewrite /CUR1; sl; cbv zeta; sl. Qed.

Lemma sl_rocs1 A k over p axis a : silent (rocs1 L r A k over p axis a).
Proof. by rewrite /rocs1; sl; apply: sl_ROCS1 => *; exact: sl_rso. Qed.
Lemma sl_osid1 A k over p axis a : silent (osid1 L r A k over p axis a).
Proof. by rewrite /osid1; sl; apply: sl_OSID1 => *; exact: sl_rso. Qed.
Lemma sl_osid2 A k over p axis a : silent (osid2 L r A k over p axis a).
Proof. by rewrite /osid2; sl; apply: sl_OSID2 => *; exact: sl_rso. Qed.
Lemma sl_tsid1 A k over p a : silent (tsid1 L r A k over p a).
Proof. by rewrite /tsid1; sl; apply: sl_TSID1 => *; apply: sl_OSID1 => *; exact: sl_rso. Qed.
Lemma sl_cur1 A k over p a : silent (cur1 L r A k over p a).
Proof. by rewrite /cur1; sl; apply: sl_CUR1 => *; apply: sl_OSID1 => *; exact: sl_rso. Qed.

(** Sketching operators. *)
Lemma sl_choice p k b : silent (choice r p k b).
Proof. by rewrite /choice; sl. Qed.
Lemma sl_repeatM X n (c : M X) : silent c -> silent (repeatM n c).
Proof. by move=> h; elim: n => [|n IH] /=; sl. Qed.
Lemma sl_ortho_tall m n : silent (orthonormal_tall L r m n).
Proof. by rewrite /orthonormal_tall; sl; exact: sl_gauss. Qed.
Lemma sl_ortho m n a : silent (orthonormal_operator L r m n a).
Proof. by rewrite /orthonormal_operator; sl; exact: sl_ortho_tall. Qed.
Lemma wn_sjlt_wide m n z : warns (if m < minn n z then [:: W_sjlt_size] else [::]) (sjlt_wide r m n z).
Proof.
rewrite /sjlt_wide /random; cbv zeta; apply: warns_bindl.
  by case: ifP => _; [exact: warns_emit|exact: silent_ret].
by move=> _; sl; apply: sl_repeatM; exact: sl_choice.
Qed.
Lemma wn_sjlt m n a z :
  warns (if minn m n < minn (maxn m n) z then [:: W_sjlt_size] else [::]) (sjlt_operator r m n a z).
Proof.
rewrite /sjlt_operator; apply: warns_with_rng; case: (leqP m n) => mn.
  exact: wn_sjlt_wide.
by apply: warns_bindl; [exact: wn_sjlt_wide|move=> x; sl].
Qed.
Lemma sl_ss_mask N d k : silent (ss_mask r N d k).
Proof. by elim: k => [|k IH]; rewrite /ss_mask -/ss_mask /random; sl; cbv zeta; sl. Qed.
Lemma sl_ssign m n a d : silent (sparse_sign_operator r m n a d).
Proof. by rewrite /sparse_sign_operator /random; sl; exact: sl_ss_mask. Qed.
Lemma sl_gen_srct m n : silent (generate_srct r m n).
Proof. by rewrite /generate_srct /random /permutation; cbv zeta; sl; try exact: sl_choice; cbv zeta; sl. Qed.
Lemma sl_srct_wide m n : silent (srct_wide L r m n).
Proof. by rewrite /srct_wide; sl; exact: sl_gen_srct. Qed.
Lemma sl_srct m n a : silent (srct_operator L r m n a).
Proof. by rewrite /srct_operator; sl; try exact: sl_srct_wide; exact: sl_gen_srct. Qed.
Lemma sl_sampling_idx m n i : silent (sampling_idx r m n i).
Proof. by rewrite /sampling_idx; sl; exact: sl_choice. Qed.
Lemma sl_sampling m n a i : silent (sampling_operator r m n a i).
Proof. by rewrite /sampling_operator; sl; exact: sl_sampling_idx. Qed.

Lemma wn_skop k m n a :
  warns (if k is SkOpSJ z then if minn m n < minn (maxn m n) z then [:: W_sjlt_size] else [::] else [::])
    (skop_call L r k m n a).
Proof.
case: k => [|b|z|d||i] /=; [exact: sl_ortho| |exact: wn_sjlt| |exact: sl_srct|exact: sl_sampling].
  by rewrite -/(silent _); sl; exact: sl_gauss.
by rewrite -/(silent _); sl; exact: sl_ssign.
Qed.

(** Least squares and saddle point drivers. *)
Definition dim_warning (sf : rat) (m n : nat) : seq warn :=
  if (n <= m) && (m%:Z < trunc_rat (sf * n%:R))%R then [:: W_dim] else [::].

Lemma wn_dim_checks sf m n : warns (dim_warning sf m n) (dim_checks sf m n : M nat).
Proof.
rewrite /dim_checks /dim_warning.
have -> : (if (n <= m) && (m%:Z < trunc_rat (sf * n%:R))%R then [:: W_dim] else [::]) =
  (if n <= m then if (m%:Z < trunc_rat (sf * n%:R))%R then [:: W_dim] else [::] else [::]) by case: (n <= m).
apply: warns_passert => nm; cbv zeta; apply: warns_bindl; last by move=> x; sl.
by case: ifP => _; [apply: warns_bindl; [exact: warns_emit|move=> _; exact: silent_ret]|exact: silent_ret].
Qed.

(** A successful check leaves a dimension between [n] and [m]. *)
Lemma dim_checks_range sf m n (s : st G T) : forall s1 d, dim_checks sf m n s = (s1, inr d) -> (n <= d <= m)%N /\ n <= m.
Proof.
move=> s1 d; rewrite /dim_checks.
case: (boolP (n <= m)) => nm; last by rewrite bind_passertF.
rewrite bind_passertT; cbv zeta; case: ltrP => h.
  rewrite bindA bind_emitE bind_retE.
  case: (boolP (n%:Z <= m%:Z)%R) => h1; last by rewrite bind_passertF.
  by rewrite bind_passertT => -[_ <-]; split=> //; lia.
rewrite bind_retE.
case: (boolP (n%:Z <= trunc_rat (sf * n%:R))%R) => h1; last by rewrite bind_passertF.
by rewrite bind_passertT => -[_ <-]; split=> //; lia.
Qed.

Lemma wn_dimbind sf m n X (f : nat -> M X) : (forall d, (n <= d <= m) -> silent (f d)) ->
  warns (dim_warning sf m n) (bind (dim_checks sf m n) f).
Proof.
move=> h s; rewrite /bind; have := wn_dim_checks sf m n s; have := @dim_checks_range sf m n s.
case: (dim_checks sf m n s) => s1 [e|d] //= /(_ s1 d erefl) [dn nm] e.
by rewrite (h d dn) e cats0.
Qed.

Lemma sl_skopSJ z n d m : (z <= n)%N -> (n <= d <= m)%N -> silent (skopSJ r z d m).
Proof.
move=> zn dm; have := @wn_sjlt d m RGen z; rewrite /skopSJ.
by have -> : (minn d m < minn (maxn d m) z) = false by lia.
Qed.

Lemma sl_gotmatch (z n d m : nat) X (f : pyop T -> M X) : (z <= n)%N -> (n <= d <= m)%N -> (forall x, silent (f x)) ->
  silent (bind (draw (skopSJ r z) d m) f).
Proof. by move=> zn dm h; rewrite /draw; sl; exact: (sl_skopSJ zn dm). Qed.

Lemma wn_sso1 A b dl a sf z : (z <= nc A)%N -> warns (dim_warning sf (nr A) (nc A)) (sso1 L r A b dl a sf z).
Proof.
move=> zn; apply: warns_with_rng; rewrite /SSO1 => s; rewrite !bind_retE; move: s; cbv zeta.
by apply: wn_dimbind => d dm; apply: (sl_gotmatch zn dm) => x; sl.
Qed.
Lemma wn_spo3 A b dl tol lim a sf z md clk : (z <= nc A)%N -> (dl < o0)%O = false ->
  warns (dim_warning sf (nr A) (nc A)) (spo3 L r A b dl tol lim a sf z md clk).
Proof.
move=> zn d0; apply: warns_with_rng; rewrite /SPO d0; cbv zeta.
by apply: wn_dimbind => d dm; apply: (sl_gotmatch zn dm) => x; sl.
Qed.
Lemma wn_spu1 A c tol lim a sf z clk : (z <= nc A)%N ->
  warns (dim_warning sf (nr A) (nc A)) (spu1 L r A c tol lim a sf z clk).
Proof.
move=> zn; apply: warns_with_rng; rewrite /SPU1; cbv zeta.
by apply: wn_dimbind => d dm; apply: (sl_gotmatch zn dm) => x; sl.
Qed.
Lemma sl_sps A b c dl tol lim a sf z me clk : (z <= nr A)%N -> (z%:Z <= trunc_rat (sf * (nc A)%:R))%R ->
  silent (sps L r A b c dl tol lim a sf z me clk).
Proof.
move=> zm zd; have h : silent (skopSJ r z (absz (trunc_rat (sf * (nc A)%:R))) (nr A)).
  have := @wn_sjlt (absz (trunc_rat (sf * (nc A)%:R))) (nr A) RGen z; rewrite /skopSJ.
  by have -> : (minn `|trunc_rat (sf * (nc A)%:R)| (nr A) < minn (maxn `|trunc_rat (sf * (nc A)%:R)| (nr A)) z) = false by lia.
by rewrite /sps; cbv zeta; sl; rewrite /SPS1 /sps1_precond /draw; cbv zeta; sl.
Qed.

End Model.
