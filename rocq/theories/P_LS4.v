(** SPS1 and SPS2. *)
From mathcomp Require Import all_ssreflect all_algebra.
From mathcomp Require Import zify.
From Verif Require Import Base Arr Lapack Exact MxLib RingTac LapackSpec Rng Aware Pcg P_Pcg Lsqr P_Lsqr P_Iter.
From Verif Require Import Precond LstSq SaddleSys P_Precond P_Svd P_Pcss1 Chol P_LS P_LS2 P_LS3.
Set Implicit Arguments.
Unset Strict Implicit.
Unset Printing Implicit Defensive.
Import Order.TTheory GRing.Theory Num.Theory.
Local Open Scope ring_scope.

Section Aux.
Variable R : rcfType.

Lemma vdivE n (x s : 'cV[R]_n) : vdiv (ofcv x) (ofcv s) = Ok (ofcv (diag_mx (vinv s)^T *m x)).
Proof.
rewrite /vdiv !size_ofcv eqxx; congr Ok; apply: mkseq_eq_ofcv => i.
by rewrite !ev_ofcv mul_diag_mx !mxE /= mulrC.
Qed.

Lemma diag_full r (s : 'cV[R]_r) : \rank (diag_mx s^T) = r -> forall i, s i 0 != 0.
Proof.
move=> rk i; apply/eqP => s0.
have /(full_col_inj rk)/colP/(_ i) : diag_mx s^T *m delta_mx i 0 = 0 :> 'cV[R]_r.
  apply/matrixP => a j; rewrite mul_diag_mx !mxE; case: eqP => [->|_]; last by rewrite mulr0.
  by rewrite s0 mul0r.
by rewrite !mxE !eqxx => /eqP; rewrite oner_eq0.
Qed.

Lemma nz_checkE r (s : 'cV[R]_r) : (forall i, s i 0 != 0) -> nz_check (ofcv s) = Ok tt.
Proof.
move=> s0; rewrite /nz_check; case: hasP => // -[x /mem_ofcv[i ->]] /=.
by rewrite (negbTE (s0 i)).
Qed.

Lemma ortho_mul m n p (Q : 'M[R]_(m, n)) (W : 'M[R]_(n, p)) :
  orthonormal Q -> orthonormal W -> orthonormal (Q *m W).
Proof. by move=> oQ oW; rewrite /orthonormal trmx_mul mulmxA -[X in X *m _]mulmxA oQ mulmx1. Qed.

(** A thin SVD of a matrix of full rank has positive singular values. *)
Lemma svd_pos m n (A : 'M[R]_(m, n)) (U : 'M[R]_(m, minn m n)) s (Vh : 'M[R]_(minn m n, n)) :
  A = U *m diag_mx s^T *m Vh -> \rank A = minn m n -> forall i, s i 0 != 0.
Proof.
move=> AE rk; apply: diag_full; apply/eqP; rewrite eqn_leq rank_leq_col -{1}rk AE.
by apply: leq_trans (mxrankM_maxl _ _) (mxrankM_maxr _ _).
Qed.

Lemma good_pc_low n k (V : 'M[R]_(n, k)) (s : 'cV[R]_k) : orthonormal V -> (forall i, 0 < s i 0) ->
  (0 < k)%N -> (k < n)%N -> good_pc (V *m diag_mx (vinv s)^T).
Proof.
move=> oV s0 k0 kn; right; split; first by move=> e; move: kn; rewrite e ltnn.
by split=> //; exists V, s.
Qed.

Lemma svd_good_pc p n r (As : 'M[R]_(p, n)) (M0 : 'M[R]_(n, r)) U s Vh :
  svd_pc As M0 U s Vh -> (0 < r)%N -> good_pc M0.
Proof.
move=> sp r0; case: (eqVneq r n) => [rn|rn].
  left; split=> //; apply/eqP; rewrite eqn_leq rank_leq_row /=.
  rewrite -{1}rn -{1}(orthonormal_rank (sp_U sp)) -(sp_AM sp); exact: mxrankM_maxr.
right; split; first exact/eqP.
by split=> //; exists Vh^T, s; split; [exact: sp_V sp | exact: sp_s sp | exact: sp_M sp].
Qed.

(** The numerical rank of a non-zero matrix is positive. *)
Lemma svd_rank_pos (L : lapack R) p n (As : 'M[R]_(p, n)) U0 (s0 : seq R) Vh0 :
  svd_spec L -> (0 < p)%N -> (0 < n)%N -> n%:R < 2%:R ^+ 52 :> R -> As <> 0 ->
  l_svd L (ofmx As) = Ok (U0, s0, Vh0) ->
  (0 < count (fun t => nth 0 s0 0 * n%:R * 2%:R ^- 52 < t)%R s0)%N.
Proof.
move=> svd p0 n0 n52 A0 E; have [U [s [Vh [[E' oU oV AE] [s_ge sd]]]]] := svd _ _ As p0 n0.
move: E; rewrite E' => -[_ <- _].
have q0 : (0 < minn p n)%N by rewrite leq_min p0.
pose i0 := Ordinal q0.
have sp : 0 < s i0 0.
  rewrite lt_neqAle s_ge andbT eq_sym; apply/eqP => si; apply: A0; rewrite AE.
  have -> : s = 0.
    apply/matrixP => i j; rewrite !ord1 mxE; apply/eqP; rewrite eq_le s_ge andbT.
    by rewrite -[X in _ <= X]si sd.
  by rewrite trmx0 linear0 mulmx0 mul0mx.
have nE : nth 0 (ofcv s) 0 = s i0 0 by have := ev_ofcv s i0.
rewrite -has_count; apply/hasP; exists (s i0 0).
  by rewrite -nE mem_nth ?size_ofcv.
rewrite nE -mulrA gtr_pmulr // ltr_pdivr_mulr ?mul1r //.
by rewrite exprn_gt0 // ltr0n.
Qed.
End Aux.

Section Sps1.
Variables (R : rcfType) (G : Type) (L : lapack R).
Variables (g : nat -> nat -> M G R (pyop R)) (sf : rat) (m n : nat).
Variables (A : 'M[R]_(m, n)) (b : option 'cV[R]_m) (c : option 'cV[R]_n) (dl tol : R).
Hypotheses (qr : qr_spec L) (svd : svd_spec L).
Let b0 := vdef b.
Let c0 := vdef c.
Let H := A^T *m A + dl%:M.
Let rhs := A^T *m b0 - c0.

(** What the drivers do with the outcome of the iterative solver. *)
Definition sps_ret (logging : bool) clk (init : R) (r : res (@sout R)) : res (option (seq R) * seq R * splog) :=
  match r with
  | inl e => inl e
  | inr out => log_ret logging clk (o_errs out) init (o_x out, o_y out)
  end.

Lemma sps1_startE k (M0 : 'M[R]_(n, k)) (s : 'cV[R]_k) (Vh : 'M[R]_(k, n)) :
  let z := diag_mx (vinv s)^T *m (Vh *m rhs) in
  sps1_start (ofmx A) dl (ofmx M0) (Some (ofcv s, ofmx Vh)) (ofcv rhs) =
  Ok (if fro (M0^T *m rhs) <= fro (M0^T *m (H *m (M0 *m z) - rhs)) then None else Some (ofcv z)).
Proof.
move=> z; rewrite /sps1_start mvE [rbind (Ok _) _]/= vdivE [rbind (Ok _) _]/= mvE [rbind (Ok _) _]/=.
rewrite mtrE mvE [rbind (Ok _) _]/= mv_gramE [rbind (Ok _) _]/= mvE [rbind (Ok _) _]/=.
by rewrite vsubE [rbind (Ok _) _]/= !vnormE -/z mulmxBr.
Qed.

Lemma saddle_rhsE : saddle_rhs (ofmx A) (ofcv b0) (omap (@ofcv R n) c) = Ok (ofcv rhs).
Proof.
rewrite /saddle_rhs mtrE mvE [rbind (Ok _) _]/= /rhs /c0; case: (c) => [c1|] /=.
  by rewrite vsubE.
by rewrite subr0.
Qed.

(** The call, once the preconditioner is there. *)
Lemma sps1_tail slv strat lim logging clk s s1 k (M0 : 'M[R]_(n, k)) pre zo :
  0 <= dl -> strat <> NOther ->
  sps1_precond L g strat (ofmx A) dl (trunc_rat (sf * n%:R)) s = (s1, inr (ofmx M0, pre)) ->
  sps1_start (ofmx A) dl (ofmx M0) pre (ofcv rhs) = Ok zo ->
  SPS1 L g sf slv strat (ofmx A) (omap (@ofcv R m) b) (omap (@ofcv R n) c) dl tol lim logging clk s =
  (s1, sps_ret logging clk (fro rhs)
         (slv (ofmx A) (Some (ofcv b0)) (omap (@ofcv R n) c) dl tol lim (ofmx M0) false zo)).
Proof.
move=> d0 sO pE sE; rewrite /SPS1 /= ltNge d0 /=.
have -> : (if strat is NOther then false else true) = true by case: (strat) sO.
rewrite /passert /= bind_retE (bindE _ pE) /= vdefE -/b0 saddle_rhsE bind_liftE sE bind_liftE.
rewrite /sps_ret; case: (slv _ _ _ _ _ _ _ _ _) => [e|out] //.
rewrite bind_liftE /log_ret; case: (logging) => //.
by rewrite vnormE /bind /lift; case: (wrap_up _ _ _).
Qed.

(** The state handed to the sketching operator generator. *)
Let drawn (s : st G R) a e : st G R := St (gen s) (rcons (evs s) (EvDraw a e)).
Let t := trunc_rat (sf * n%:R).

(** Sketch at least as tall as A is wide. *)
Lemma sps1_full strat slv s : (0 < n)%N -> n%:Z <= t -> 0 <= dl -> strat <> NOther ->
  gen_ok g (absz t) m ->
  exists s1 Sk (Sm : 'M[R]_(absz t, m)) p (As : 'M[R]_(p, n)) k (M0 : 'M[R]_(n, k)) U (sg : 'cV[R]_k) Vh zo,
  [/\ g (absz t) m (drawn s (absz t) m) = (s1, inr Sk) /\ py_is Sk Sm,
      lifted (Sm *m A) dl As /\ a_lift (ofmx (Sm *m A)) (Num.sqrt dl) = Ok (ofmx As),
      svd_pc As M0 U sg Vh /\ svd_setup L As M0,
      n%:R < 2%:R ^+ 52 :> R -> Sm *m A <> 0 \/ 0 < dl -> good_pc M0 &
      zo = (let z := diag_mx (vinv sg)^T *m (Vh *m rhs) in
            if fro (M0^T *m rhs) <= fro (M0^T *m (H *m (M0 *m z) - rhs)) then None else Some z) /\
      forall lim logging clk,
      SPS1 L g sf slv strat (ofmx A) (omap (@ofcv R m) b) (omap (@ofcv R n) c) dl tol lim logging clk s =
      (s1, sps_ret logging clk (fro rhs)
         (slv (ofmx A) (Some (ofcv b0)) (omap (@ofcv R n) c) dl tol lim (ofmx M0) false
            (omap (@ofcv R k) zo)))].
Proof.
move=> n0 nt d0 sO gok; have [s1 [Sk [Sm [gE pS]]]] := gok (drawn s (absz t) m).
have [p [As [_ [[_ _ lA aE pE] _]]]] := a_lift_precondP (Sm *m A) d0 (is_pc_dense (0 : 'M[R]_(n, 0))).
have t0 : (0 < absz t)%N by have : n%:Z <= absz t by [rewrite gez0_abs // (le_trans _ nt)]; lia.
have p0 : (0 < p)%N by move: pE; case: ltP => _ ->; rewrite ?addn_gt0 t0.
have [k [M0 [U [sg [Vh [sE sp [U0 [s3 [Vh0 [svE [rE rk]]]]]]]]]]] := svd_right_precondP svd As p0 n0.
pose z := diag_mx (vinv sg)^T *m (Vh *m rhs).
pose zo := if fro (M0^T *m rhs) <= fro (M0^T *m (H *m (M0 *m z) - rhs)) then None else Some z.
exists s1, Sk, Sm, p, As, k, M0, U, sg, Vh, zo; split=> //.
- split=> //; apply: (svd_pc_setup sp) => cl; apply: rk; exact: cl svE.
- move=> n52 h; apply: (svd_good_pc sp); rewrite rE.
  apply: (svd_rank_pos svd p0 n0 n52 _ svE) => A0.
  have v0 (v : 'cV[R]_n) : fro2 (Sm *m A *m v) + dl * fro2 v = 0.
    by rewrite -(lf_norm lA) A0 mul0mx fro20.
  case: h => [|dp]; last first.
    have := v0 (const_mx 1) => /eqP; rewrite paddr_eq0 ?mulr_ge0 ?fro2_ge0 //.
    rewrite mulf_eq0 (gt_eqF dp) /= => /andP[_]; rewrite fro2_eq0 => /eqP/colP/(_ (Ordinal n0)).
    by rewrite !mxE => /eqP; rewrite oner_eq0.
  apply; apply/matrixP => i j.
  have := v0 (delta_mx j 0) => /eqP; rewrite paddr_eq0 ?mulr_ge0 ?fro2_ge0 // => /andP[].
  by rewrite fro2_eq0 -colE => /eqP/colP/(_ i); rewrite !mxE.
split=> // lim logging clk; apply: (@sps1_tail _ _ _ _ _ _ _ _ _ (Some (ofcv sg, ofmx Vh))) => //.
  rewrite /sps1_precond /= -/t nt (bindE _ (_ : draw g (absz t) m _ = (s1, inr Sk))) //.
  by rewrite (py_r pS) bind_liftE aE bind_liftE sE bind_liftE.
by rewrite sps1_startE /zo; case: ifP.
Qed.

(** Nystrom preconditioner from the left. *)
Lemma sps1_left slv s : (n <= m)%N -> 0 < t < n%:Z -> 0 <= dl -> \rank A = n ->
  gen_ok g (absz t) m ->
  exists s1 Sk (Sm : 'M[R]_(absz t, m)) k (M0 : 'M[R]_(n, k)),
  [/\ g (absz t) m (drawn s (absz t) m) = (s1, inr Sk), py_is Sk Sm,
      (k < n)%N, good_pc M0 &
      forall lim logging clk,
      SPS1 L g sf slv NLeft (ofmx A) (omap (@ofcv R m) b) (omap (@ofcv R n) c) dl tol lim logging clk s =
      (s1, sps_ret logging clk (fro rhs)
         (slv (ofmx A) (Some (ofcv b0)) (omap (@ofcv R n) c) dl tol lim (ofmx M0) false None))].
Proof.
move=> nm /andP[t0 tn] d0 rA gok; have [s1 [Sk [Sm [gE pS]]]] := gok (drawn s (absz t) m).
have dn : (absz t < n)%N by lia.
have dp : (0 < absz t)%N by lia.
have [Q [U [qE oQ _ _]]] := qr_tall (Sm *m A)^T qr dp (ltnW dn).
have m0 : (0 < m)%N by lia.
have [U1 [sg [Wt [[sE oU oW AE] [sg0 _]]]]] := svd (A *m Q) m0 dp.
have rAQ : \rank (A *m Q) = minn m (absz t).
  rewrite (minn_idPr _); last by lia.
  apply: inj_full_col => v; rewrite -mulmxA => /(full_col_inj rA) Qv.
  by have := congr1 (mulmx Q^T) Qv; rewrite mulmxA oQ mul1mx mulmx0.
have sn := svd_pos AE rAQ.
exists s1, Sk, Sm, (minn m (absz t)), (Q *m (Wt^T *m diag_mx (vinv sg)^T)); split=> //.
- by lia.
- rewrite mulmxA; apply: good_pc_low; [exact: ortho_mul | | by lia | by lia].
  by move=> i; rewrite lt_neqAle eq_sym sn sg0.
move=> lim logging clk; apply: (@sps1_tail _ _ _ _ _ _ _ _ _ None) => //.
rewrite /sps1_precond /= -/t leNgt tn /= ltNge (ltW t0) /=.
rewrite (bindE _ (_ : draw g (absz t) m _ = (s1, inr Sk))) // (py_r pS) bind_liftE.
rewrite /orth mtrE qE bind_liftE mmulE bind_liftE sE bind_liftE nz_checkE // bind_liftE.
by rewrite mtrE cdivE bind_liftE mmulE bind_liftE.
Qed.

(** Nystrom preconditioner from the right. *)
Lemma sps1_right slv s : (n <= m)%N -> 0 < t < n%:Z -> 0 <= dl -> \rank A = n ->
  (forall s, exists s' (Sm : 'M[R]_(n, absz t)), \rank Sm = absz t /\
     (g n (absz t) s = (s', inr (PyArr (ofmx Sm))) \/ g n (absz t) s = (s', inr (PySp (ofmx Sm))))) ->
  exists s1 k (M0 : 'M[R]_(n, k)), [/\ (k < n)%N, good_pc M0 &
      forall lim logging clk,
      SPS1 L g sf slv NRight (ofmx A) (omap (@ofcv R m) b) (omap (@ofcv R n) c) dl tol lim logging clk s =
      (s1, sps_ret logging clk (fro rhs)
         (slv (ofmx A) (Some (ofcv b0)) (omap (@ofcv R n) c) dl tol lim (ofmx M0) false None))].
Proof.
move=> nm /andP[t0 tn] d0 rA gok; have [s1 [Sm [rS gE]]] := gok (drawn s n (absz t)).
have [Sk gE' lE] : exists2 Sk, g n (absz t) (drawn s n (absz t)) = (s1, inr Sk) &
    mul_l (ofmx A) Sk = Ok (ofmx (A *m Sm)).
  by case: gE => E; [exists (PyArr (ofmx Sm)) | exists (PySp (ofmx Sm))]; rewrite //= mmulE.
have dn : (absz t < n)%N by lia.
have dp : (0 < absz t)%N by lia.
have dm : (absz t <= m)%N by lia.
have n0 : (0 < n)%N by lia.
have [Q [U [qE oQ _ QE]]] := qr_tall (A *m Sm) qr dp dm.
have [U1 [sg [Vh [[sE oU oV AE] [sg0 _]]]]] := svd (Q^T *m A) dp n0.
have rQA : \rank (Q^T *m A) = minn (absz t) n.
  rewrite (minn_idPl (ltnW dn)) -mxrank_tr trmx_mul trmxK.
  apply: inj_full_col => v; rewrite -mulmxA => AQv.
  have uU : U \in unitmx.
    rewrite -row_full_unit -col_leq_rank; apply: leq_trans (_ : \rank (A *m Sm) <= _)%N; last first.
      by rewrite QE; exact: mxrankM_maxr.
    rewrite (inj_full_col (X := A *m Sm)) // => w; rewrite -mulmxA => /(full_col_inj rA).
    exact: full_col_inj rS.
  have QU : Q = A *m (Sm *m invmx U) by rewrite mulmxA QE mulmxK.
  have uG := gram_unit rA.
  have : (A^T *m A) *m (Sm *m (invmx U *m v)) = 0 by rewrite -AQv QU !mulmxA.
  move/(congr1 (mulmx (invmx (A^T *m A)))); rewrite mulmx0 mulKmx // => /(full_col_inj rS).
  by move/(congr1 (mulmx U)); rewrite mulKVmx // mulmx0.
have sn := svd_pos AE rQA.
exists s1, (minn (absz t) n), (Vh^T *m diag_mx (vinv sg)^T); split=> //.
- by lia.
- apply: good_pc_low => //; [ | by lia | by lia].
  by move=> i; rewrite lt_neqAle eq_sym sn sg0.
move=> lim logging clk; apply: (@sps1_tail _ _ _ _ _ _ _ _ _ None) => //.
rewrite /sps1_precond /= -/t leNgt tn /= ltNge (ltW t0) /=.
rewrite (bindE _ (_ : draw g n (absz t) _ = (s1, inr Sk))) // lE bind_liftE.
rewrite /orth qE bind_liftE mtrE mmulE bind_liftE sE bind_liftE nz_checkE // bind_liftE.
by rewrite mtrE cdivE bind_liftE.
Qed.
End Sps1.

Section Sps2.
Variables (R : rcfType) (G : Type) (L : lapack R).
Variables (g : nat -> nat -> M G R (pyop R)) (sf : rat) (m n : nat).
Variables (A : 'M[R]_(m, n)) (b : option 'cV[R]_m) (c : option 'cV[R]_n) (dl tol : R).
Hypotheses (svd : svd_spec L).
Let b0 := vdef b.
Let c0 := vdef c.

Lemma vmul_inv k (s x : 'cV[R]_k) :
  @vmul R (rcf_ops R) [seq 1 / t | t <- ofcv s] (ofcv x) = Ok (ofcv (diag_mx (vinv s)^T *m x)).
Proof.
rewrite /vmul size_map !size_ofcv eqxx; congr Ok; apply: mkseq_eq_ofcv => i.
rewrite mul_diag_mx ev_ofcv [RHS]mxE /ev (nth_map 0) ?size_ofcv //= div1r.
by have := ev_ofcv s i; rewrite /ev /= => ->; rewrite !mxE.
Qed.

Lemma rslice_bot p q k (X : 'M[R]_(p, k)) (Y : 'M[R]_(q, k)) :
  rslice (ofmx (col_mx X Y)) p (p + q) = ofmx Y.
Proof.
rewrite /rslice nr_ofmx nc_ofmx /slen minnn (minn_idPl (leq_addr q p)) addKn.
apply: mk_eq_ofmx => i j; rewrite -[RHS](col_mxEd X).
exact: (el_ofmx (col_mx X Y) (rshift p i) j).
Qed.

Lemma rslice_topm p q k (X : 'M[R]_(p, k)) (Y : 'M[R]_(q, k)) :
  rslice (ofmx (col_mx X Y)) 0 p = ofmx X.
Proof.
rewrite /rslice nr_ofmx nc_ofmx /slen min0n (minn_idPl (leq_addr q p)) subn0.
apply: mk_eq_ofmx => i j; rewrite -[RHS](col_mxEu X Y).
exact: (el_ofmx (col_mx X Y) (lshift q i) j).
Qed.

Lemma rslice_fullm p k (X : 'M[R]_(p, k)) : rslice (ofmx X) 0 p = ofmx X.
Proof.
rewrite /rslice nr_ofmx nc_ofmx /slen min0n minnn subn0.
apply: mk_eq_ofmx => i j; exact: (el_ofmx X i j).
Qed.

(** The augmented problem and its sketch. *)
Lemma sps2_prep d (Sk : pyop R) (Sm : 'M[R]_(d, m)) : py_is Sk Sm -> 0 <= dl ->
  exists p (As : 'M[R]_(p, n)) m' (Ab : 'M[R]_(m', n)) (St : 'M[R]_(p, m')) (bb : 'cV[R]_m'),
  [/\ a_lift (ofmx (Sm *m A)) (Num.sqrt dl) = Ok (ofmx As) /\ (d <= p)%N,
      lifted (Sm *m A) dl As, lifted A dl Ab /\ As = St *m Ab,
      lifted_b A dl Ab b0 bb /\ lifted_b (Sm *m A) dl As (Sm *m b0) (St *m bb) &
  forall k (U : 'M[R]_(p, k)) sg (Vh : 'M[R]_(k, n)),
  let ba := bb - St^T *m (U *m (diag_mx (vinv sg)^T *m (Vh *m c0))) in
  sps2_aug (ofmx A) (ofcv b0) (omap (@ofcv R n) c) dl Sk d (ofmx U) (ofcv sg) (ofmx Vh) =
    Ok (ofmx Ab, ofcv ba) /\
  forall M0 : 'M[R]_(n, k), let z := U^T *m (St *m ba) in
    sps2_start (ofmx Ab) (ofcv ba) dl Sk m d (ofmx M0) (ofmx U) =
    Ok (if fro ba <= fro (ba - Ab *m (M0 *m z)) then None else Some (ofcv z))].
Proof.
move=> pS d0; have [dp|dn] := ltP 0 dl.
  pose q := Num.sqrt dl; have q0 : q == 0 = false by rewrite gt_eqF // sqrtr_gt0.
  exists (d + n)%N, (col_mx (Sm *m A) q%:M), (m + n)%N, (col_mx A q%:M), (block_mx Sm 0 0 1%:M), (col_mx b0 0).
  split; rewrite ?leq_addr; [by rewrite a_liftE q0 | exact: liftedS | | | ].
    by split; [exact: liftedS | rewrite mul_block_col !mul0mx addr0 add0r mul1mx].
    by split; [|rewrite mul_block_col !mul0mx !mulmx0 !addr0]; exact: liftedS_b.
  move=> k U sg Vh; set v := U *m _; set ba := _ - _.
  have baE : ba = col_mx (b0 - Sm^T *m usubmx v) (- dsubmx v).
    rewrite /ba -{1}(vsubmxK v) tr_block_mx !trmx0 trmx1 mul_block_col !mul0mx addr0 add0r mul1mx.
    by rewrite opp_col_mx add_col_mx sub0r.
  have v0 : c0 = 0 -> v = 0 by rewrite /v => ->; rewrite !mulmx0.
  split.
    rewrite /sps2_aug /= a_liftE q0 dp /= vzerosE -ofcv_col_mx.
    have cE0 : c0 = 0 -> col_mx b0 0 = ba by move=> /v0 z0; rewrite /ba z0 mulmx0 subr0.
    case cE : c => [c1|] /=; last by rewrite cE0 // /c0 cE.
    rewrite vnormE lt_neqAle fro_ge0 andbT eq_sym fro_eq0; case: eqP => /= [c10|_].
      by rewrite cE0 // /c0 cE.
    rewrite mvE [rbind (Ok _) _]/= vmul_inv [rbind (Ok _) _]/= mvE [rbind (Ok _) _]/=.
    have -> : U *m (diag_mx (vinv sg)^T *m (Vh *m c1)) = v by rewrite /v /c0 cE.
    have vt : vtop d (ofcv v) = ofcv (usubmx v) by rewrite -{1}(vsubmxK v) vtop_col.
    have vb : vbot d (ofcv v) = ofcv (dsubmx v) by rewrite -{1}(vsubmxK v) vbot_col.
    rewrite vt vb (py_trv pS) [rbind (Ok _) _]/= vtop_col vsubE [rbind (Ok _) _]/=.
    by rewrite vbot_col vsubE [rbind (Ok _) _]/= -ofcv_col_mx sub0r -baE.
  move=> M0 z; rewrite /sps2_start /= dp baE vtop_col (py_rv pS) [rbind (Ok _) _]/=.
  rewrite -{1 2}(vsubmxK U) rslice_topm mtrE mvE [rbind (Ok _) _]/= vbot_col ?nr_ofmx rslice_bot mtrE mvE.
  rewrite [rbind (Ok _) _]/= vaddE [rbind (Ok _) _]/=.
  have <- : z = (usubmx U)^T *m (Sm *m (b0 - Sm^T *m usubmx v)) + (dsubmx U)^T *m (- dsubmx v).
    rewrite /z baE -{1}(vsubmxK U) mul_block_col !mul0mx addr0 add0r mul1mx tr_col_mx.
    by rewrite mul_row_col.
  by rewrite mvE [rbind (Ok _) _]/= mvE [rbind (Ok _) _]/= vsubE [rbind (Ok _) _]/= !vnormE -baE.
have dz : dl = 0 by apply/eqP; rewrite eq_le dn d0.
have dF : (0 < dl) = false by rewrite dz ltxx.
exists d, (Sm *m A), m, A, Sm, b0.
split; rewrite ?dz; [by rewrite sqrtr0 a_liftE eqxx | exact: lifted0 | | | ].
  by split=> //; exact: lifted0.
  by split; exact: lifted0_b.
move=> k U sg Vh; set v := U *m _; set ba := _ - _.
have v0 : c0 = 0 -> v = 0 by rewrite /v => ->; rewrite !mulmx0.
split.
  rewrite /sps2_aug /= sqrtr0 a_liftE eqxx ltxx /=.
  have cE0 : c0 = 0 -> b0 = ba by move=> /v0 z0; rewrite /ba z0 mulmx0 subr0.
  case cE : c => [c1|] /=; last by rewrite -cE0 // /c0 cE.
  rewrite vnormE lt_neqAle fro_ge0 andbT eq_sym fro_eq0; case: eqP => /= [c10|_].
    by rewrite -cE0 // /c0 cE.
  rewrite mvE [rbind (Ok _) _]/= vmul_inv [rbind (Ok _) _]/= mvE [rbind (Ok _) _]/=.
  have -> : U *m (diag_mx (vinv sg)^T *m (Vh *m c1)) = v by rewrite /v /c0 cE.
  rewrite !vtop_full (py_trv pS) [rbind (Ok _) _]/= vsubE [rbind (Ok _) _]/=.
  by rewrite vbot_full cats0.
move=> M0 z; rewrite /sps2_start /= ltxx vtop_full (py_rv pS) [rbind (Ok _) _]/=.
rewrite rslice_fullm mtrE mvE [rbind (Ok _) _]/= -/z.
by rewrite mvE [rbind (Ok _) _]/= mvE [rbind (Ok _) _]/= vsubE [rbind (Ok _) _]/= !vnormE.
Qed.

Record sps2_setup d (Sm : 'M[R]_(d, m)) p (As : 'M[R]_(p, n)) k (M0 : 'M[R]_(n, k)) (Vh : 'M[R]_(k, n))
    m' (Ab : 'M[R]_(m', n)) (St : 'M[R]_(p, m')) (ba : 'cV[R]_m') (start : option 'cV[R]_k) : Prop := Sps2Setup {
  s2_a : a_lift (ofmx (Sm *m A)) (Num.sqrt dl) = Ok (ofmx As);
  s2_l : lifted (Sm *m A) dl As;
  s2_ss : svd_setup L As M0;
  s2_l' : lifted A dl Ab;
  s2_St : As = St *m Ab;
  s2_b : Ab^T *m ba = A^T *m b0 - Vh^T *m (Vh *m c0);
  s2_b0 : c0 = 0 -> lifted_b A dl Ab b0 ba;
  s2_sb : c0 = 0 -> lifted_b (Sm *m A) dl As (Sm *m b0) (St *m ba);
  s2_V : forall w : 'cV[R]_p, svd_clean L As -> Vh^T *m (Vh *m (As^T *m w)) = As^T *m w;
  s2_st : let z := (As *m M0)^T *m (St *m ba) in
    start = if fro ba <= fro (ba - Ab *m (M0 *m z)) then None else Some z }.

Lemma sps2_run slv s : (0 < n <= m)%N -> n%:Z <= trunc_rat (sf * n%:R) ->
  (forall d, (n <= d <= m)%N -> gen_ok g d m) -> 0 <= dl ->
  exists d s1 Sk (Sm : 'M[R]_(d, m)),
  [/\ d%:Z = Num.min (trunc_rat (sf * n%:R)) m%:Z,
      g d m (St (gen s) (evs s ++ dim_warns R sf m n ++ [:: EvDraw d m])) = (s1, inr Sk),
      py_is Sk Sm &
      exists p (As : 'M[R]_(p, n)) k (M0 : 'M[R]_(n, k)) Vh m' (Ab : 'M[R]_(m', n)) St ba start,
        sps2_setup Sm As M0 Vh Ab St ba start /\
      forall lim logging clk out (x : 'cV[R]_n),
        slv (ofmx Ab) (Some (ofcv ba)) None 0 tol lim (ofmx M0) false (omap (@ofcv R k) start) = Ok out ->
        o_x out = Some (ofcv x) -> o_R out = ofmx M0 ->
        SPS2 L g sf slv (ofmx A) (omap (@ofcv R m) b) (omap (@ofcv R n) c) dl tol lim logging clk s =
        (s1, log_ret logging clk (o_errs out) (fro (M0^T *m (Ab^T *m ba))) (ofcv x, ofcv (b0 - A *m x)))].
Proof.
move=> /andP[n0 nm] nt gok d0.
have [d [dE dr dmin]] := dim_checks_run s nm nt.
pose s2 := St (gen s) (evs s ++ dim_warns R sf m n ++ [:: @EvDraw R d m]).
have [s1 [Sk [Sm [gE pS]]]] := gok d dr s2.
exists d, s1, Sk, Sm; split=> //.
have sE2 : s2 = St (gen (dim_state sf m n s)) (rcons (evs (dim_state sf m n s)) (EvDraw d m)).
  rewrite /s2 /dim_state /dim_warns; case: (m%:Z < _); rewrite -cats1 /= -?cats1 -?catA //.
have [p [As [m' [Ab [Stm [bb [[aE dp] lA [lA' SE] [lB lSB] H]]]]]]] := sps2_prep pS d0.
have p0 : (0 < p)%N by lia.
have [k [M0 [U [sg [Vh [sE sp [U0 [s3 [Vh0 [svE [rE rk]]]]]]]]]]] := svd_right_precondP svd As p0 n0.
have [augE stE] := H k U sg Vh.
set ba := bb - _ in augE stE.
pose z := (As *m M0)^T *m (Stm *m ba).
pose start := if fro ba <= fro (ba - Ab *m (M0 *m z)) then None else Some z.
have UtA : As^T *m U = Vh^T *m diag_mx sg^T.
  by have := congr1 trmx (sp_UA sp); rewrite !trmx_mul trmxK tr_diag_mx.
have sn i : sg i 0 != 0 by rewrite gt_eqF ?(sp_s sp).
exists p, As, k, M0, Vh, m', Ab, Stm, ba, start; split.
  split=> //.
  - by apply: (svd_pc_setup sp) => cl; apply: rk; exact: cl svE.
  - rewrite /ba mulmxBr (lb_adj lB) mulmxA -trmx_mul -SE !mulmxA UtA.
    by rewrite -[Vh^T *m _ *m _]mulmxA diag_vinv // mulmx1.
  - by move=> cz; rewrite /ba cz !mulmx0 subr0.
  - by move=> cz; rewrite /ba cz !mulmx0 subr0.
  move=> w cl; have := sp_rank sp (rk (cl _ _ _ svE)) => AE.
  have -> : As^T *m w = Vh^T *m (diag_mx sg^T *m (U^T *m w)).
    by rewrite {1}AE !trmx_mul tr_diag_mx !mulmxA.
  have := sp_V sp; rewrite /orthonormal trmxK => VV.
  by rewrite [Vh *m _]mulmxA VV mul1mx.
move=> lim logging clk out x slvE xE RE.
rewrite /SPS2 /= ltNge d0 /= (bindE _ dE).
rewrite (bindE _ (_ : draw g d m _ = (s1, inr Sk))); last by rewrite drawE -sE2.
rewrite (py_r pS) bind_liftE aE bind_liftE sE bind_liftE vdefE -/b0 augE bind_liftE.
rewrite stE bind_liftE -(sp_AM sp) -/z.
have -> : (if fro ba <= fro (ba - Ab *m (M0 *m z)) then None else Some (ofcv z)) =
  omap (@ofcv R k) start by rewrite /start; case: ifP.
rewrite slvE bind_liftE xE mvE [rbind (Ok _) _]/= vsubE bind_liftE RE /log_ret.
case: (logging) => //=; rewrite mtrE mvE [rbind (Ok _) _]/= mtrE mvE [rbind (Ok _) _]/= vnormE.
by rewrite /bind /lift; case: (wrap_up _ _ _).
Qed.

Section Facts.
Variables (d : nat) (Sm : 'M[R]_(d, m)) (p : nat) (As : 'M[R]_(p, n)) (k : nat) (M0 : 'M[R]_(n, k)).
Variables (Vh : 'M[R]_(k, n)) (m' : nat) (Ab : 'M[R]_(m', n)) (Sg : 'M[R]_(p, m')) (ba : 'cV[R]_m').
Variables (start : option 'cV[R]_k).
Hypotheses (su : sps2_setup Sm As M0 Vh Ab Sg ba start) (dl0 : 0 <= dl).
Let x0 : 'cV[R]_n := M0 *m lsqr_x0 start.
(** Residual of the normal equations that LSQR sees. *)
Let ng (x : 'cV[R]_n) := A^T *m b0 - Vh^T *m (Vh *m c0) - (A^T *m A + dl%:M) *m x.

Definition sps2_call (lim : int) :=
  PcSS2 (ofmx Ab) (Some (ofcv ba)) None 0 tol lim (ofmx M0) false (omap (@ofcv R k) start).

Lemma sps2_callP (lim : int) : 0 <= lim -> exists out (x : 'cV[R]_n),
  [/\ sps2_call lim = Ok out, o_x out = Some (ofcv x) /\ o_R out = ofmx M0,
      fro2 (ba - Ab *m x) <= fro2 ba, lim = 0 -> x = x0 &
  [/\ forall lo hi, embeds (Sm *m A) A lo hi -> 0 < lo <= 1 -> 1 <= hi ->
        (n ^ 2)%:R * hi < lo * (10%:R ^+ 8 - 1) ^+ 2 ->
        svd_clean L As -> tol <= 0 -> (n <= absz lim)%N ->
        0 < dl \/ (exists e, c0 = A^T *m e) -> saddle A b0 c0 dl x (b0 - A *m x) /\
        (forall x', saddle A b0 c0 dl x' (b0 - A *m x') -> fro2 x <= fro2 x'),
      M0^T *m ng x0 = 0 -> x = x0 /\ o_errs out = EScal 0 &
      M0^T *m ng x0 <> 0 -> exists es, [/\ o_errs out = EArr es, (size es <= absz lim)%N,
        (size es <= n)%N &
        forall i, (i < size es)%N -> exists out1 (x1 : 'cV[R]_n),
          [/\ sps2_call i%:Z = Ok out1, o_x out1 = Some (ofcv x1) & nth 0 es i = fro (M0^T *m ng x1)]]]].
Proof.
move=> lim0.
have kn : (k <= n)%N.
  rewrite -(orthonormal_rank (ss_orth (s2_ss su))).
  exact: leq_trans (mxrankM_maxr _ _) (rank_leq_row _).
have [m1 [Ab1 [op [[opE opM _ aE mE] bbE]]]] := a_lift_precondP Ab (lexx 0) (is_pc_dense M0).
rewrite ltxx in mE; subst m1.
have AbE : Ab1 = Ab.
  by move: aE; rewrite sqrtr0 /a_lift /= eqxx => e; rewrite -(ofmx_inj (ok_inj e : ofmx _ = ofmx _)).
subst Ab1.
have acc : [\/ ba != 0, start = None | ba = (Ab *m M0) *m lsqr_x0 start].
  have := s2_st su => /=; case: ifP => h ->; first by constructor 2.
  by constructor 1; apply: contraFneq h => ->; rewrite fro0 fro_ge0.
have [_ pok0] := pcss2_over (A := Ab) (b := ba) (is_pc_dense M0) (c := None) isT tol lim start opE (lifted0_b Ab ba).
have pok i q z := (pcss2_over (A := Ab) (b := ba) (is_pc_dense M0) (c := None) isT tol i start opE (lifted0_b Ab ba)).2 q z.
have [q [w [E xE le l0 [[e eE] ex z0 z1]]]] := lsqr_pc tol conlim_dflt opM lim0 acc.
exists (SOut (Some (ofcv (M0 *m w))) (ofcv (ba - Ab *m (M0 *m w))) (q_errs q) (ofmx M0)), (M0 *m w).
have gE (v : 'cV[R]_k) : (Ab *m M0)^T *m (ba - Ab *m M0 *m v) = M0^T *m ng (M0 *m v).
  rewrite -[Ab *m M0 *m v]mulmxA trmx_mul -mulmxA mulmxBr (s2_b su) /ng.
  by rewrite [Ab^T *m _]mulmxA (lf_gram (s2_l' su)).
split=> //.
- exact: pok E xE.
- rewrite mulmxA; apply: le_trans le _; have := s2_st su => /=; case: ifP => h ->.
    by rewrite /lsqr_x0 mulmx0 subr0.
  rewrite /lsqr_x0 -mulmxA -fro_le; apply: ltW; rewrite ltNge h //.
- by move=> /l0 ->.
split; last 2 first.
- by rewrite -gE => /z0[-> ->].
- rewrite -gE => /z1[es [eE' s1 s2 H]]; exists es; split=> //.
    by apply: leq_trans s2 (leq_trans (geq_minr _ _) kn).
  move=> i lt; have [q1 [w1 [E1 x1 n1]]] := H i lt.
  exists (SOut (Some (ofcv (M0 *m w1))) (ofcv (ba - Ab *m (M0 *m w1))) (q_errs q1) (ofmx M0)), (M0 *m w1).
  by split=> //; [exact: pok E1 x1 | rewrite -gE].
move=> lo hi em /andP[lo0 l1] h1 cnd cl t0 nl hc.
have em' := embeds_lift dl0 l1 h1 em (s2_l su) (s2_l' su).
have h0 : 0 < hi by apply: lt_le_trans ltr01 h1.
have clE : conlim_dflt = 10%:R ^+ 8 :> R by rewrite /conlim_dflt onatE opowE.
have c1 : 1 <= conlim_dflt :> R by rewrite clE exprn_ege1 // ler1n.
have oM := ss_orth (s2_ss su); have rM := ss_rng (s2_ss su); have kr := ss_rank (s2_ss su) cl.
have [cok _] := pc_conlim lo0 em' oM h0 c1 (eq_ind_r (fun t => _ < lo * (t - 1) ^+ 2) cnd clE).
have g0 := ex t0 cok (leq_trans (leq_trans (geq_minr _ _) kn) nl).
have := pc_grad lo0 em' oM rM kr g0.
rewrite -mulmxA mulmxBr (s2_b su) [Ab^T *m _]mulmxA (lf_gram (s2_l' su)) => nE.
have [e' cE] : exists e', c0 = As^T *m e'.
  case: hc => [dp|[e' ->]].
    by apply: full_rng; apply/(lifted_rank dl0 (s2_l su)); right.
  have [/submxP[D AE] _] : (A <= As)%MS /\ True.
    split=> //; apply: ker_sub => v Av; apply/eqP; rewrite -fro2_eq0 eq_le fro2_ge0 andbT.
    have := lf_norm (s2_l su) v; rewrite Av fro20 => /esym/eqP.
    rewrite paddr_eq0 ?fro2_ge0 ?mulr_ge0 ?fro2_ge0 // => /andP[/eqP s0 _].
    by have /andP[] := em v; rewrite s0 pmulr_rle0.
  by exists (D^T *m e'); rewrite AE trmx_mul mulmxA.
have NE : (A^T *m A + dl%:M) *m (M0 *m w) = A^T *m b0 - c0.
  by apply/esym/eqP; rewrite -subr_eq0 -nE {2}cE (s2_V su _ cl) -cE.
split; first exact/saddleP.
move=> x' /saddleP N'.
have [W WE] := pc_rng lo0 em' rM.
(* x' - x lies in the kernel of Ab, x in its row space *)
have Dk : Ab *m (x' - M0 *m w) = 0.
  apply/eqP; rewrite -fro2_eq0 fro2_cv trmx_mul -mulmxA [Ab^T *m _]mulmxA (lf_gram (s2_l' su)).
  by rewrite mulmxBr N' NE subrr mulmx0 mxE.
have xE' : M0 *m w = Ab^T *m (W *m w) by rewrite mulmxA -WE.
have -> : x' = M0 *m w + (x' - M0 *m w) by rewrite addrC subrK.
set D := x' - _ in Dk *.
rewrite [fro2 (_ + _)]fro2D.
have -> : fip (M0 *m w) D = 0.
  by rewrite /fip xE' trmx_mul trmxK -mulmxA Dk mulmx0 mxtrace0.
by rewrite mulr0 addr0 ler_addl fro2_ge0.
Qed.
End Facts.
End Sps2.
