(** Interpolative decompositions: CUR on wide matrices, pass counts, procedural
    drivers. *)
From mathcomp Require Import all_ssreflect all_algebra.
From mathcomp Require Import zify.
From Verif Require Import Base Arr Lapack Exact MxLib RingTac LapackSpec LapackExists Rng Aware RangeFinders QB.
From Verif Require Import P_RS1 P_RF P_QBx P_Svd P_Evd3 Sel Interp P_Interp P_Interp2.
Set Implicit Arguments.
Unset Strict Implicit.
Unset Printing Implicit Defensive.
Import Order.TTheory GRing.Theory Num.Theory.
Local Open Scope ring_scope.

Section Passes.
Context {T : Type} {O : ops T} {G : Type}.
Variables (L : lapack T) (r : rng_ops G T).
Implicit Types s : st G T.
Notation rs np := (RS1 (skopGA r) np (orth L) 1%R).

Lemma row_sketch_passes (np : int) A (c : int) s s' Y :
  row_sketch (rs np) A c s = (s', inr Y) -> (0 <= np)%R /\
  exists2 l, evs s' = evs s ++ l & passes l = (absz np).+1.
Proof.
rewrite /row_sketch; case: ifP => // _ H; case: (bind_inv H) => s1 [Sk [H1 {}H]].
have [np0 e1] := RS1_sched (skopGA_quiet' (r:=r)) (isT : (0 < 1 :> int)%R) H1.
split=> //; case: Sk H H1 => // Sk H _; case: (passA_inv H) => -> _.
eexists; first by rewrite e1 -cats1 -catA.
by rewrite passes_cat -cat1s passes_cat passes_sched // subn0 /= add0n addn1.
Qed.

Lemma col_sketch_passes (np : int) A (c : int) s s' Y :
  col_sketch (rs np) A c s = (s', inr Y) -> (0 <= np)%R /\
  exists2 l, evs s' = evs s ++ l & passes l = (absz np).+1.
Proof.
rewrite /col_sketch; case: ifP => // _ H; case: (bind_inv H) => s1 [Sk [H1 {}H]].
have [np0 e1] := RS1_sched (skopGA_quiet' (r:=r)) (isT : (0 < 1 :> int)%R) H1.
split=> //; case: Sk H H1 => // Sk H _; move: H; rewrite bind_emitE => H; rewrite (lift_evs H) /=.
eexists; first by rewrite e1 -cats1 -catA.
by rewrite passes_cat -cat1s passes_cat passes_sched // subn0 /= add0n addn1.
Qed.

Lemma OSID1_passes (np : int) A k (over axis : int) s s' X :
  OSID1 L (rs np) A k over axis s = (s', inr X) -> (0 <= np)%R /\
  exists2 l, evs s' = evs s ++ l & passes l = (absz np).+1.
Proof.
rewrite /OSID1; case: ifP => _; last case: ifP => // _; move=> H;
  case: (bind_inv H) => s1 [Y [H1 H2]]; rewrite (lift_evs H2);
     [apply: row_sketch_passes H1 | apply: col_sketch_passes H1].
Qed.

Lemma rocs1_passes A k (over p axis : int) a s s' J :
  rocs1 L r A k over p axis a s = (s', inr J) -> (1 <= p)%R /\
  exists2 l, evs s' = evs s ++ l & passes l = absz p.
Proof.
rewrite /rocs1 => /with_rng_inv [s0 [s1 [E <- ->]]].
suff: (0 <= p - 1)%R /\ exists2 l, evs s1 = evs s0 ++ l & passes l = (absz (p - 1)).+1.
  by case=> p0 [l e pl]; split; [lia | exists l => //; lia].
move: E; rewrite /ROCS1; case: ifP => _; last case: ifP => // _; move=> H;
  case: (bind_inv H) => s2 [Y [H1 {}H]]; case: (bind_inv H) => s3 [J' [hs3 [<- _]]];
  rewrite (lift_evs hs3); [exact: row_sketch_passes H1 | exact: col_sketch_passes H1].
Qed.

Lemma osid1_passes A k (over p axis : int) a s s' X :
  osid1 L r A k over p axis a s = (s', inr X) -> (1 <= p)%R /\
  exists2 l, evs s' = evs s ++ l & passes l = absz p.
Proof.
rewrite /osid1 => /with_rng_inv [s0 [s1 [E <- ->]]].
by have [p0 [l e pl]] := OSID1_passes E; split; [lia | exists l => //; lia].
Qed.

Lemma osid2_passes A k (over p axis : int) a s s' X :
  osid2 L r A k over p axis a s = (s', inr X) -> (1 <= p)%R /\
  exists2 l, evs s' = evs s ++ l & passes l = (absz p).+1.
Proof.
rewrite /osid2 => /with_rng_inv [s0 [s1 [E <- ->]]].
suff: (0 <= p - 1)%R /\ exists2 l, evs s1 = evs s0 ++ l & passes l = (absz (p - 1)).+2.
  by case=> p0 [l e pl]; split; [lia | exists l => //; lia].
move: E; rewrite /OSID2; case: ifP => _; last case: ifP => // _; move=> H;
  case: (bind_inv H) => s2 [Y [H1 {}H]]; case: (bind_inv H) => s3 [J' [hs3 {}H]];
  rewrite -> (lift_evs hs3) in *; clear hs3 s3; case: (bind_inv H) => s4 [AJ [hs4 {}H]];
  rewrite -> (lift_evs hs4) in *; clear hs4 s4; case: (bind_inv H) => s5 [Z [H5 [<- _]]];
  move: H5; rewrite bind_emitE => H5; rewrite (lift_evs H5).
- have [np0 [l e pl]] := row_sketch_passes H1; split=> //; exists (rcons l (EvPass true)).
    by rewrite /= e rcons_cat.
  by rewrite -cats1 passes_cat pl /= addn1.
- have [np0 [l e pl]] := col_sketch_passes H1; split=> //; exists (rcons l (EvPass false)).
    by rewrite /= e rcons_cat.
  by rewrite -cats1 passes_cat pl /= addn1.
Qed.

Lemma tsid1_passes A k (over p : int) a s s' X :
  tsid1 L r A k over p a s = (s', inr X) -> (1 <= p)%R /\
  exists2 l, evs s' = evs s ++ l & passes l = absz p.
Proof.
rewrite /tsid1 => /with_rng_inv [s0 [s1 [E <- ->]]].
suff: (0 <= p - 1)%R /\ exists2 l, evs s1 = evs s0 ++ l & passes l = (absz (p - 1)).+1.
  by case=> p0 [l e pl]; split; [lia | exists l => //; lia].
move: E; rewrite /TSID1; case: ifP => _ H; case: (bind_inv H) => s2 [Y [/OSID1_passes H1 {}H]];
  case: (bind_inv H) => s3 [J' [hs3 {}H]]; rewrite -> (lift_evs hs3) in *; clear hs3 s3;
  by case: (bind_inv H) => s4 [AJ [hs4 [<- _]]]; rewrite (lift_evs hs4).
Qed.

Lemma cur1_passes A k (over p : int) a s s' X :
  cur1 L r A k over p a s = (s', inr X) -> (2 <= p)%R /\
  exists2 l, evs s' = evs s ++ l & (passes l).+1 = absz p.
Proof.
rewrite /cur1 => /with_rng_inv [s0 [s1 [E <- ->]]].
suff: (0 <= p - 2)%R /\ exists2 l, evs s1 = evs s0 ++ l & passes l = (absz (p - 2)).+1.
  by case=> p0 [l e pl]; split; [lia | exists l => //; lia].
move: E; rewrite /CUR1; case: ifP => _ H; case: (bind_inv H) => s2 [Y [/OSID1_passes H1 {}H]];
  case: (bind_inv H) => s3 [J' [hs3 {}H]]; rewrite -> (lift_evs hs3) in *; clear hs3 s3;
  case: (bind_inv H) => s3 [J'' [hs3 {}H]]; rewrite -> (lift_evs hs3) in *; clear hs3 s3; lazy zeta in H;
  case: (bind_inv H) => s3 [J3 [hs3 {}H]]; rewrite -> (lift_evs hs3) in *; clear hs3 s3;
  by case: (bind_inv H) => s4 [AJ [hs4 [<- _]]]; rewrite (lift_evs hs4).
Qed.

(** Too few passes requested. *)
Lemma cur1_few A k (over p : int) a s : (p < 2)%R -> (0 <= k%:Z + over)%R ->
  (cur1 L r A k over p a s).2 = inl AssertionError.
Proof.
move=> p2 c0.
assert (neg : forall A' s1, rs (p - 2)%R A' (absz (k%:Z + over)) s1 = (s1, inl AssertionError)).
  by move=> A' s1; rewrite RS1_neg //; lia.
assert (H : forall s0, CUR1 L (OSID1 L (rs (p - 2)%R)) A k over s0 = (s0, inl AssertionError)); last first.
  by rewrite /cur1 /with_rng; case: a => [|z|v]; rewrite H.
move=> s0.
rewrite /CUR1; case: ifP => _; apply: bindE_err; rewrite /OSID1 /=; apply: bindE_err.
  by rewrite /col_sketch ltNge c0 /=; apply: bindE_err.
by rewrite /row_sketch ltNge c0 /=; apply: bindE_err.
Qed.

End Passes.

Section Drivers.
Variables (R : rcfType) (G : Type) (L : lapack R) (r : rng_ops G R).
Hypotheses (qrL : qr_spec L) (qrpL : qrp_spec L) (lsL : lstsq_spec L) (rok : rng_ok r).
Implicit Types (s : st G R).

Lemma CUR1_wide (osid : osid_t (T := R) (G := G)) m n (A : 'M[R]_(m, n)) k (over : int) (Z : 'M[R]_(m, k)) I s s1 :
  (0 < m)%N -> (m <= n)%N -> (0 < k)%N -> skeleton m k I ->
  osid (ofmx A) k over 0 s = (s1, inr (ofmx Z, I)) ->
  exists (U : 'M[R]_k) J,
    [/\ CUR1 L osid (ofmx A) k over s = (s1, inr (J, ofmx U, I)), skeleton n k J,
        (forall U', fro2 (Z - colsel A J k *m U) <= fro2 (Z - colsel A J k *m U')) &
        \rank A = k -> A = Z *m rowsel A I k -> A = colsel A J k *m U *m rowsel A I k].
Proof.
move=> m0 mn k0 skI E; rewrite /CUR1 nc_ofmx nr_ofmx ltnNge mn /= (bindE _ E) (ridx_skel A skI) bind_liftE.
have km : (k <= m)%N by case: skI => <- uI iI; apply: inb_size.
have n0 : (0 < n)%N by lia.
have [J [EJ pJ HJ]] := qrp_sel qrpL (rowsel A I k) k0 n0.
have skJ := take_skeleton pJ (leq_trans km mn).
rewrite EJ bind_liftE (cidx_skel A skJ) bind_liftE.
have [U [W [EU ls _]]] := pinv_leftE lsL (colsel A (take k J) k) Z m0 k0 k0.
rewrite EU bind_liftE; exists U, (take k J); split=> //.
  by move=> U'; rewrite (@ls_optimal _ _ _ _ _ U U') ?ler_addl ?fro2_ge0.
move=> rA AE; set Rw := rowsel A I k in AE HJ *; set C := colsel A _ k in ls *.
have rR : \rank Rw = k.
  apply/eqP; rewrite eqn_leq rank_leq_row -{1}rA {1}AE; exact: mxrankM_maxr.
move: (HJ k k0); rewrite rR leqnn => -[X0 [_ cid]].
have cr := ci_rank cid.
have CE : C = Z *m colsel Rw (take k J) k by rewrite /C colsel1E {1}AE -mulmxA -colsel1E.
have uC : colsel Rw (take k J) k \in unitmx by rewrite -row_full_unit /row_full cr.
have ZE : Z = C *m invmx (colsel Rw (take k J) k) by rewrite CE mulmxK.
rewrite {1}AE; congr (_ *m _).
apply: (@ls_exact R _ _ _ C U Z (invmx (colsel Rw (take k J) k))) => //.
by apply/eqP; rewrite -opprB mulmxN oppr_eq0 ls.
Qed.

(** The sketching step of the procedural drivers. *)
Notation rs np := (RS1 (skopGA r) np (orth L) 1%R).

Lemma rs_run (np : int) m n (A : 'M[R]_(m, n)) (c : int) s :
  0 <= np -> 0 < c -> (absz c <= minn m n)%N ->
  exists s1 (S : 'M[R]_(n, absz c)), rs np (ofmx A) (absz c) s = (s1, inr (PyArr (ofmx S))).
Proof.
move=> np0 c0 cmn; have c1 : (0 < absz c)%N by lia.
have [s1 [S [E _]]] := RS1_total (stab := orth L) rok (orth_stab qrL) (isT : 0 < 1 :> int) np0 A s c1 cmn.
by exists s1, S.
Qed.

(** What osid1 returns. *)
Lemma osid1_col m n (A : 'M[R]_(m, n)) k (over p : int) a s s' XJ :
  (0 < k)%N -> 0 < k%:Z + over -> (absz (k%:Z + over)%R <= minn m n)%N ->
  osid1 L r (ofmx A) k over p 1 a s = (s', inr XJ) ->
  exists (X : 'M[R]_(k, n)) J (W : 'M[R]_(absz (k%:Z + over), m)), XJ = (ofmx X, J) /\ col_id (W *m A) X J.
Proof.
move=> k0 c0 cmn E; have [p1 _] := osid1_passes E.
move: E; rewrite /osid1 => /with_rng_inv [s0 [s1 [E _ _]]].
have [s2 [S ES]] := @rs_run (p - 1) _ _ A^T (k%:Z + over) s0 ltac:(lia) c0 ltac:(lia).
have := OSID1_col qrpL k0 (_ : 0 < n)%N (_ : 0 < absz (k%:Z + over)%R)%N (ltW c0) ES.
move=> H; have {H} := H ltac:(lia) ltac:(lia); rewrite E; case: ifP => _ [].
  by move=> X [J [[_ ->] cid]]; exists X, J, S^T.
by move=> e.
Qed.

Lemma osid1_row m n (A : 'M[R]_(m, n)) k (over p : int) a s s' ZI :
  (0 < k)%N -> 0 < k%:Z + over -> (absz (k%:Z + over)%R <= minn m n)%N ->
  osid1 L r (ofmx A) k over p 0 a s = (s', inr ZI) ->
  exists (Z : 'M[R]_(m, k)) I (W : 'M[R]_(n, absz (k%:Z + over))), ZI = (ofmx Z, I) /\ row_id (A *m W) Z I.
Proof.
move=> k0 c0 cmn E; have [p1 _] := osid1_passes E.
move: E; rewrite /osid1 => /with_rng_inv [s0 [s1 [E _ _]]].
have [s2 [S ES]] := @rs_run (p - 1) _ _ A (k%:Z + over) s0 ltac:(lia) c0 ltac:(lia).
have := OSID1_row qrpL k0 (_ : 0 < m)%N (_ : 0 < absz (k%:Z + over)%R)%N (ltW c0) ES.
move=> H; have {H} := H ltac:(lia) ltac:(lia); rewrite E; case: ifP => _ [].
  by move=> X [J [[_ ->] cid]]; exists X, J, S.
by move=> e.
Qed.


Lemma OSID2_col_inv (sk_op : rowsketcher (T := R) (G := G)) m n (A : 'M[R]_(m, n)) k (over : int) p (S : 'M[R]_(m, p)) s s1 :
  (0 < k)%N -> (k <= n)%N -> (0 < m)%N -> (0 < p)%N -> 0 <= k%:Z + over ->
  sk_op (ofmx A^T) (absz (k%:Z + over)) s = (s1, inr (PyArr (ofmx S))) ->
  exists (X : 'M[R]_(k, n)) J,
  [/\ OSID2 L sk_op (ofmx A) k over 1 s = (after (after s1 true) false, inr (ofmx X, J)),
      ROCS1 L sk_op (ofmx A) k over 1 s = (after s1 true, inr J), skeleton n k J,
      colsel (colsel A J k *m X) J k = colsel A J k &
      forall X', fro2 (A - colsel A J k *m X) <= fro2 (A - colsel A J k *m X')].
Proof.
move=> k0 kn m0 p0 c0 E; have [X [J [W [E2 E1 skJ ls _]]]] := OSID2_col qrpL lsL k0 kn m0 p0 c0 E.
exists X, J; split=> //; first exact: ls_interp ls.
by move=> X'; rewrite (ls_optimal X' ls) ler_addl fro2_ge0.
Qed.

Lemma OSID2_row_inv (sk_op : rowsketcher (T := R) (G := G)) m n (A : 'M[R]_(m, n)) k (over : int) p (S : 'M[R]_(n, p)) s s1 :
  (0 < k)%N -> (k <= m)%N -> (0 < n)%N -> (0 < p)%N -> 0 <= k%:Z + over ->
  sk_op (ofmx A) (absz (k%:Z + over)) s = (s1, inr (PyArr (ofmx S))) ->
  exists (Z : 'M[R]_(m, k)) I,
  [/\ OSID2 L sk_op (ofmx A) k over 0 s = (after (after s1 false) true, inr (ofmx Z, I)),
      ROCS1 L sk_op (ofmx A) k over 0 s = (after s1 false, inr I), skeleton m k I,
      rowsel (Z *m rowsel A I k) I k = rowsel A I k &
      forall Z', fro2 (A - Z *m rowsel A I k) <= fro2 (A - Z' *m rowsel A I k)].
Proof.
move=> k0 km n0 p0 c0 E; have [Z [I [W [E2 E1 skI ls _]]]] := OSID2_row qrpL lsL k0 km n0 p0 c0 E.
have ls' : (colsel A^T I k)^T *m (colsel A^T I k *m Z^T - A^T) = 0.
  rewrite -tr_rowsel; apply: trmx_inj; rewrite trmx0 trmx_mul linearB /= trmx_mul !trmxK.
  by [].
exists Z, I; split=> //.
  by apply: trmx_inj; rewrite tr_rowsel trmx_mul tr_rowsel; apply: ls_interp ls'.
move=> Z'; rewrite -(fro2_trmx (A - _)) -[leRHS]fro2_trmx !linearB /= !trmx_mul tr_rowsel.
by rewrite (ls_optimal Z'^T ls') ler_addl fro2_ge0.
Qed.

End Drivers.

(** The three sketched selections pick the same skeleton. *)
Section Same.
Context {T : Type} {O : ops T} {G : Type}.
Variables (L : lapack T) (sk_op : rowsketcher (T := T) (G := G)).
Implicit Types s : st G T.

Lemma qrcp_cols_idx (Y : arr T) k X J : qrcp_cols L Y k = Ok (X, J) ->
  exists2 J', qrp_idx L Y = Ok J' & J = take k J'.
Proof.
rewrite /qrcp_cols /qrp_idx; case: (l_qrp L Y) => [//|[[Q S] J']] /=.
case: (solve_tri _ _ _ _) => //= B; case: (hstack _ _) => //= V.
by case: (set_cidx _ _ _) => //= X' [_ <-]; exists J'.
Qed.

Lemma OSID1_same A k (over axis : int) s s' X J :
  OSID1 L sk_op A k over axis s = (s', inr (X, J)) ->
  ROCS1 L sk_op A k over axis s = (s', inr J).
Proof.
rewrite /OSID1 /ROCS1; case: ifP => _; last case: ifP => // _; move=> H;
  case: (bind_inv H) => s1 [Y [H1 {}H]]; rewrite (bindE _ H1); move: H; rewrite /lift /= => -[<-].
  rewrite /qrcp_osid /=; case E: (qrcp_cols L (mtr Y) k) => [//|[X' J']] /= [_ <-].
  by have [J2 EJ ->] := qrcp_cols_idx E; rewrite EJ.
rewrite /qrcp_osid /= => E.
by have [J2 EJ ->] := qrcp_cols_idx E; rewrite EJ.
Qed.

Lemma OSID2_same A k (over axis : int) s s' X J :
  OSID2 L sk_op A k over axis s = (s', inr (X, J)) ->
  exists s1, ROCS1 L sk_op A k over axis s = (s1, inr J).
Proof.
rewrite /OSID2 /ROCS1; case: ifP => _; last case: ifP => // _; move=> H;
  case: (bind_inv H) => s1 [Y [H1 {}H]]; rewrite (bindE _ H1);
  case: (bind_inv H) => s2 [I' [H2 {}H]]; rewrite (bindE _ H2); lazy zeta in H;
  case: (bind_inv H) => s3 [AI [H3 {}H]]; case: (bind_inv H) => s4 [Z [H4 [_ _ <-]]]; by exists s2.
Qed.

End Same.
