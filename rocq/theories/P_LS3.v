(** SPO: consequences of the run description. *)
From mathcomp Require Import all_ssreflect all_algebra.
From mathcomp Require Import zify.
From Verif Require Import Base Arr Lapack Exact MxLib RingTac LapackSpec Rng Aware Pcg P_Pcg Lsqr P_Lsqr P_Iter.
From Verif Require Import Precond LstSq P_Precond P_Svd P_Pcss1 Chol P_LS P_LS2.
Set Implicit Arguments.
Unset Strict Implicit.
Unset Printing Implicit Defensive.
Import Order.TTheory GRing.Theory Num.Theory.
Local Open Scope ring_scope.

Section SpoFacts.
Variables (R : rcfType) (G : Type) (L : lapack R).
Variables (md : spo_mode) (m n : nat) (A : 'M[R]_(m, n)) (b : 'cV[R]_m) (dl tol : R).

(** No singular value of the sketch is discarded by the numerical cutoff
    unless it is zero. *)
Definition sketch_clean p (As : 'M[R]_(p, n)) : Prop :=
  md = MSvd -> forall X U0 s0 Vh0, ske_lift (ofmx As) dl n = Ok X ->
    l_svd L X = Ok (U0, s0, Vh0) -> cut_clean n s0.

Variables (d : nat) (Sm : 'M[R]_(d, m)) (p : nat) (Ab : 'M[R]_(p, n)) (bb : 'cV[R]_p) (P : arr R) (k : nat).
Variables (M0 : 'M[R]_(n, k)) (z : 'cV[R]_k) (start : option 'cV[R]_k) (m' : nat).
Variables (Ab' : 'M[R]_(m', n)) (bb' : 'cV[R]_m') (op : linop R).
Hypotheses (su : spo_setup L md A b dl Sm Ab bb P M0 z start Ab' bb' op) (dl0 : 0 <= dl) (mO : md <> MOther).

Lemma su_kn : (k <= n)%N.
Proof.
rewrite -(orthonormal_rank (sf_orth (su_f su))).
exact: leq_trans (mxrankM_maxr _ _) (rank_leq_row _).
Qed.

Lemma su_rank : sketch_clean (Sm *m A) -> \rank Ab = k.
Proof.
move=> cl; have f := su_f su; case E: (mode_tri md).
  apply/eqP; rewrite eqn_leq {1}(sf_sq f E) rank_leq_col.
  by rewrite -{1}(orthonormal_rank (sf_orth f)); exact: mxrankM_maxl.
have mS : md = MSvd by move: E mO; case: (md).
have [U0 [s0 [Vh0 [sE [_ rk]]]]] := sf_cut f mS.
by apply: rk; exact: (cl mS _ _ _ _ (su_ske su) sE).
Qed.

Lemma embeds_refl : embeds Ab Ab 1 1.
Proof. by move=> v; rewrite mul1r lexx. Qed.

(** The presolve is the minimum-norm minimiser of the sketched problem. *)
Lemma su_min : sketch_clean (Sm *m A) -> ridge_min (Sm *m A) (Sm *m b) dl (M0 *m z).
Proof.
move=> cl; have f := su_f su; have [W WE] := sf_rng f.
apply: (ridge_minP (w := W *m z) (su_l su) (su_b su)); last by rewrite mulmxA -WE.
apply: (pc_grad ltr01 embeds_refl (sf_orth f) (sf_rng f) (su_rank cl)).
by rewrite mulmxBr [Ab *m (M0 *m z)]mulmxA -(sf_z f) mulmxA (sf_orth f) mul1mx subrr.
Qed.

Let x0 : 'cV[R]_n := M0 *m lsqr_x0 start.

Lemma su_x0 : x0 = 0 \/ [/\ x0 = M0 *m z, if b == 0 then ridge A b dl x0 = 0 else ridge A b dl x0 < fro2 b &
  (k = n \/ ridge A b dl x0 <= (10%:R ^- 15) ^+ 2 * fro2 b)].
Proof.
rewrite /x0 (su_st su); case: ifP => rj; first by left; rewrite mulmx0.
right; have := spo_acceptP (ridge_ge0 A b (M0 *m z) dl0) (negbT rj).
rewrite /lsqr_x0; case: eqP => [->|_].
  by move=> ->; split=> //; right; rewrite mulr_ge0 ?fro2_ge0 ?exprn_ge0 // invr_ge0 exprn_ge0 ?ler0n.
by case=> o1 [/eqP kn|o2]; split=> //; [left | right].
Qed.

Lemma su_x0_le : ridge A b dl x0 <= fro2 b.
Proof.
case: su_x0 => [->|[_ h _]]; first by rewrite ridge0.
by move: h; case: eqP => [_ ->|_ /ltW //]; exact: fro2_ge0.
Qed.

Lemma su_acceptP : k = n -> ridge A b dl (M0 *m z) < fro2 b -> x0 = M0 *m z.
Proof.
move=> kn lt; rewrite /x0 (su_st su) (introT eqP (esym kn)).
by rewrite (negbTE (spo_acceptP2 (ridge_ge0 A b (M0 *m z) dl0) lt)).
Qed.

(** The gradient of the regularised objective. *)
Definition rgrad (x : 'cV[R]_n) : 'cV[R]_n := A^T *m (b - A *m x) - dl *: x.

Lemma su_gradE (w : 'cV[R]_k) : (Ab' *m M0)^T *m (bb' - Ab' *m M0 *m w) = M0^T *m rgrad (M0 *m w).
Proof. by rewrite -[Ab' *m M0 *m w]mulmxA trmx_mul -mulmxA (lb_grad (su_b' su)). Qed.

Lemma su_objE (w : 'cV[R]_k) : fro2 (bb' - Ab' *m M0 *m w) = ridge A b dl (M0 *m w).
Proof. by rewrite -mulmxA (lb_obj (su_b' su)). Qed.

Lemma spo_callP (lim : int) : 0 <= lim -> exists q w (x := M0 *m w),
  [/\ spo_call tol start bb' op lim = Ok q, q_x q = ofcv w, ridge A b dl x <= fro2 b,
      lim = 0 -> x = x0 &
  [/\ forall lo hi, embeds (Sm *m A) A lo hi -> 0 < lo <= 1 -> 1 <= hi ->
        (n ^ 2)%:R * hi < lo * (10%:R ^+ 8 - 1) ^+ 2 ->
        sketch_clean (Sm *m A) -> tol <= 0 -> (n <= absz lim)%N -> ridge_min A b dl x,
      M0^T *m rgrad x0 = 0 -> x = x0 /\ q_errs q = EScal 0 &
      M0^T *m rgrad x0 <> 0 -> exists es, [/\ q_errs q = EArr es, (size es <= absz lim)%N,
        (size es <= n)%N &
        forall i, (i < size es)%N -> exists q1 (w1 : 'cV[R]_k),
          [/\ spo_call tol start bb' op i%:Z = Ok q1, q_x q1 = ofcv w1 &
              nth 0 es i = fro (M0^T *m rgrad (M0 *m w1))]]]].
Proof.
move=> lim0; have f := su_f su.
have [q [w [E xE le l0 [[c cE] ex z0 z1]]]] := lsqr_pc tol conlim_dflt (su_op su) lim0 (su_acc su).
exists q, w; split=> //.
- by move: le; rewrite !su_objE => /le_trans; apply; exact: su_x0_le.
- by move=> /l0 ->.
split; last 2 first.
- by rewrite -su_gradE => /z0[-> ->].
- rewrite -su_gradE => /z1[es [eE s1 s2 H]]; exists es; split=> //.
    by apply: leq_trans s2 (leq_trans (geq_minr _ _) su_kn).
  move=> i lt; have [q1 [w1 [E1 x1 n1]]] := H i lt.
  by exists q1, w1; split=> //; rewrite -su_gradE.
move=> lo hi em /andP[l0' l1] h1 cnd cl t0 nl.
have em' := embeds_lift dl0 l1 h1 em (su_l su) (su_l' su).
have h0 : 0 < hi by apply: lt_le_trans ltr01 h1.
have clE : conlim_dflt = 10%:R ^+ 8 :> R by rewrite /conlim_dflt onatE opowE.
have c1 : 1 <= conlim_dflt :> R by rewrite clE exprn_ege1 // ler1n.
have [cok _] := pc_conlim l0' em' (sf_orth f) h0 c1 (eq_ind_r (fun t => _ < lo * (t - 1) ^+ 2) cnd clE).
have g0 := ex t0 cok (leq_trans (leq_trans (geq_minr _ _) su_kn) nl).
have [W WE] := pc_rng l0' em' (sf_rng f).
apply: (ridge_minP (w := W *m w) (su_l' su) (su_b' su)); last by rewrite mulmxA -WE.
have := pc_grad l0' em' (sf_orth f) (sf_rng f) (su_rank cl) g0.
by rewrite mulmxA.
Qed.
End SpoFacts.

(** ** SPU1 *)
Section Spu.
Variables (R : rcfType) (G : Type) (L : lapack R).
Variables (g : nat -> nat -> M G R (pyop R)) (sf : rat) (m n : nat).
Variables (A : 'M[R]_(m, n)) (c : 'cV[R]_n) (tol : R).

(** As [sketch_clean], for the unregularised sketch. *)
Definition svd_clean p (As : 'M[R]_(p, n)) : Prop :=
  forall U0 s0 Vh0, l_svd L (ofmx As) = Ok (U0, s0, Vh0) -> cut_clean n s0.

Record svd_setup p (As : 'M[R]_(p, n)) k (M0 : 'M[R]_(n, k)) : Prop := SvdSetup {
  ss_orth : orthonormal (As *m M0);
  ss_rng : exists W, M0 = As^T *m W;
  ss_rank : svd_clean As -> \rank As = k }.

Lemma svd_pc_setup p (As : 'M[R]_(p, n)) r (M0 : 'M[R]_(n, r)) (U : 'M[R]_(p, r)) s Vh :
  svd_pc As M0 U s Vh -> (svd_clean As -> \rank As = r) -> svd_setup As M0.
Proof.
move=> sp rk; split=> //; first by rewrite (sp_AM sp); exact: sp_U sp.
exists (U *m diag_mx (vinv s)^T *m diag_mx (vinv s)^T).
have sn i : s i 0 != 0 by rewrite gt_eqF ?(sp_s sp).
have -> : As^T *m (U *m diag_mx (vinv s)^T *m diag_mx (vinv s)^T) =
          Vh^T *m (diag_mx s^T *m diag_mx (vinv s)^T) *m diag_mx (vinv s)^T.
  have := congr1 trmx (sp_UA sp); rewrite !trmx_mul trmxK tr_diag_mx => e.
  by rewrite !mulmxA e.
by rewrite diag_vinv // mulmx1 (sp_M sp).
Qed.

Hypothesis (svd : svd_spec L).

Lemma spu1_run s : (0 < n <= m)%N -> n%:Z <= trunc_rat (sf * n%:R) ->
  (forall d, (n <= d <= m)%N -> gen_ok g d m) ->
  exists d s1 Sk (Sm : 'M[R]_(d, m)) k (M0 : 'M[R]_(n, k)),
  [/\ d%:Z = Num.min (trunc_rat (sf * n%:R)) m%:Z /\
      g d m (St (gen s) (evs s ++ dim_warns R sf m n ++ [:: EvDraw d m])) = (s1, inr Sk),
      py_is Sk Sm, svd_setup (Sm *m A) M0,
      c = 0 -> forall lim logging clk,
        SPU1 L g sf (ofmx A) (ofcv c) tol lim logging clk s = (s1, inl TypeError) &
      c <> 0 -> exists op, lin_is op (A *m M0) /\
      forall lim logging clk q (y : 'cV[R]_m),
        lsqr (lo_tr op) (ofcv (M0^T *m c)) 0 tol tol conlim_dflt (Some lim) false None = Ok q ->
        q_x q = ofcv y ->
        SPU1 L g sf (ofmx A) (ofcv c) tol lim logging clk s =
        (s1, log_ret logging clk (q_errs q) (fro (A *m (M0 *m (M0^T *m c)))) (ofcv y))].
Proof.
move=> /andP[n0 nm] nt gok.
have [d [dE dr dmin]] := dim_checks_run s nm nt.
pose s2 := St (gen s) (evs s ++ dim_warns R sf m n ++ [:: @EvDraw R d m]).
have [s1 [Sk [Sm [gE pS]]]] := gok d dr s2.
have sE2 : s2 = St (gen (dim_state sf m n s)) (rcons (evs (dim_state sf m n s)) (EvDraw d m)).
  rewrite /s2 /dim_state /dim_warns; case: (m%:Z < _); rewrite -cats1 /= -?cats1 -?catA //.
have d0 : (0 < d)%N by case/andP: dr => nd _; apply: leq_trans nd.
have [r [M0 [U [s0 [Vh [pE sp [U0 [s3 [Vh0 [svE [rE rk]]]]]]]]]]] :=
  svd_right_precondP svd (Sm *m A) d0 n0.
exists d, s1, Sk, Sm, r, M0.
have spuE lim logging clk : SPU1 L g sf (ofmx A) (ofcv c) tol lim logging clk s =
  (let! out := lift (PcSS2 (ofmx A) None (Some (ofcv c)) 0 tol lim (ofmx M0) false None) in
  let! log :=
    if logging then
      lift (let? w := mv (mtr (ofmx M0)) (ofcv c) in
            let? w := mv (ofmx M0) w in
            let? w := mv (ofmx A) w in
            wrap_up (log_of logging clk) (o_errs out) (vnorm w))
    else ret (log_of logging clk) in
  ret (o_y out, log)) s1.
  rewrite /SPU1 /= (bindE _ dE).
  rewrite (bindE _ (_ : draw g d m _ = (s1, inr Sk))); last by rewrite drawE -sE2.
  by rewrite (py_r pS) bind_liftE pE bind_liftE.
have [m' [Ab' [op [[opE opM _ aE mE] _]]]] := a_lift_precondP A (lexx 0) (is_pc_dense M0).
split=> //.
- by apply: (svd_pc_setup sp) => cl; apply: rk; exact: cl svE.
- move=> c0 lim logging clk; rewrite spuE /PcSS2 opE.
  by rewrite /= c0 vnormE fro0 eqxx ltxx.
move=> /eqP c0; exists op; split.
  rewrite ltxx in mE; subst m'; move: aE.
  by rewrite sqrtr0 /a_lift /= eqxx => e; rewrite (ofmx_inj (ok_inj e : ofmx _ = ofmx _)).
move=> lim logging clk q y qE yE; rewrite spuE.
have [_ pok _] := pcss2_under (b := None) tol lim None (lexx 0) (is_pc_dense M0) c0 isT opE.
rewrite (pok erefl q y qE yE) bind_liftE.
rewrite /log_ret; case: (logging) => //=.
rewrite mtrE mvE [rbind (Ok _) _]/= mvE [rbind (Ok _) _]/= mvE [rbind (Ok _) _]/= vnormE /bind /lift.
by case: wrap_up.
Qed.

Section Facts.
Variables (d : nat) (Sm : 'M[R]_(d, m)) (k : nat) (M0 : 'M[R]_(n, k)) (op : linop R).
Hypotheses (su : svd_setup (Sm *m A) M0) (opA : lin_is op (A *m M0)).
Definition spu_call (lim : int) :=
  lsqr (lo_tr op) (ofcv (M0^T *m c)) 0 tol tol conlim_dflt (Some lim) false None.
Let g2 (y : 'cV[R]_m) := A *m M0 *m (M0^T *m (c - A^T *m y)).

Lemma spu_callP (lim : int) : 0 <= lim -> exists q (y : 'cV[R]_m),
  [/\ spu_call lim = Ok q, q_x q = ofcv y,
      fro2 (M0^T *m (c - A^T *m y)) <= fro2 (M0^T *m c), exists w, y = A *m w &
  [/\ forall lo hi, embeds (Sm *m A) A lo hi -> 0 < lo -> 0 < hi ->
        (n ^ 2)%:R * hi < lo * (10%:R ^+ 8 - 1) ^+ 2 ->
        svd_clean (Sm *m A) -> tol <= 0 -> (n <= absz lim)%N -> ridge_min A^T c 0 y,
      g2 0 = 0 -> y = 0 /\ q_errs q = EScal 0 &
      g2 0 <> 0 -> exists es, [/\ q_errs q = EArr es, (size es <= absz lim)%N, (size es <= n)%N &
        forall i, (i < size es)%N -> exists q1 (y1 : 'cV[R]_m),
          [/\ spu_call i%:Z = Ok q1, q_x q1 = ofcv y1 & nth 0 es i = fro (g2 y1)]]]].
Proof.
move=> lim0.
have kn : (k <= n)%N.
  rewrite -(orthonormal_rank (ss_orth su)).
  exact: leq_trans (mxrankM_maxr _ _) (rank_leq_row _).
have [q [y [E yE le l0 [[w wE] ex z0 z1]]]] :=
  lsqr_pc tol conlim_dflt (b := M0^T *m c) (start := None) (lo_trP opA) lim0 (Or32 _ _ erefl).
have gE (v : 'cV[R]_m) : M0^T *m c - (A *m M0)^T *m v = M0^T *m (c - A^T *m v).
  by rewrite trmx_mul mulmxBr -mulmxA.
exists q, y; split=> //.
- by move: le; rewrite /lsqr_x0 mulmx0 subr0 gE.
- by exists (M0 *m w); move: wE; rewrite /lsqr_x0 subr0 trmxK mulmxA.
have g0E : (A *m M0)^T^T *m (M0^T *m c - (A *m M0)^T *m lsqr_x0 None) = g2 0.
  by rewrite gE trmxK.
split; last 2 first.
- by rewrite -g0E => /z0[-> ->].
- rewrite -g0E => /z1[es [eE s1 s2 H]]; exists es; split=> //.
    by apply: leq_trans s2 (leq_trans (geq_minl _ _) kn).
  move=> i lt; have [q1 [w1 [E1 x1 n1]]] := H i lt.
  by exists q1, w1; split=> //; rewrite n1 gE trmxK.
move=> lo hi em lo0 h0 cnd cl t0 nl.
have clE : conlim_dflt = 10%:R ^+ 8 :> R by rewrite /conlim_dflt onatE opowE.
have c1 : 1 <= conlim_dflt :> R by rewrite clE exprn_ege1 // ler1n.
have [_ cok] := pc_conlim lo0 em (ss_orth su) h0 c1 (eq_ind_r (fun t => _ < lo * (t - 1) ^+ 2) cnd clE).
have g0 := ex t0 cok (leq_trans (leq_trans (geq_minl _ _) kn) nl).
rewrite trmxK gE in g0.
have r0 : M0^T *m (c - A^T *m y) = 0.
  apply/eqP; rewrite -fro2_eq0 eq_le fro2_ge0 andbT.
  apply: le_trans (pc_bounds em (ss_orth su) _).2 _.
  by rewrite g0 fro20 mulr0.
apply: (@ridge_minP _ _ _ _ _ _ _ _ _ _ (M0 *m w) (lifted0 _) (lifted0_b _ _)); last first.
  by move: wE; rewrite /lsqr_x0 subr0 !trmxK mulmxA.
rewrite trmxK; have [W WE] := ss_rng su; have [AB _] := embeds_sub lo0 em.
have sub : (M0^T <= Sm *m A)%MS by rewrite WE trmx_mul trmxK submxMl.
have rM : \rank M0 = k.
  apply/eqP; rewrite eqn_leq rank_leq_col -{1}(orthonormal_rank (ss_orth su)).
  exact: mxrankM_maxr.
have BM : (Sm *m A <= M0^T)%MS by rewrite -(geq_leqif (mxrank_leqif_sup sub)) (ss_rank su cl) mxrank_tr rM.
have /submxP[D AE] := submx_trans AB BM.
by rewrite {1}AE -mulmxA r0 mulmx0.
Qed.
End Facts.
End Spu.
