(** Properties C23-C28, C32-C34, C39-C42, C55-C61: least squares and saddle
    point drivers. *)
From mathcomp Require Import all_ssreflect all_algebra.
From mathcomp Require Import zify.
From Verif Require Import Base Arr Lapack Exact MxLib LapackSpec Rng Aware LapackExists P_QBfin Pcg P_Pcg Lsqr P_Lsqr P_Iter.
From Verif Require Import Precond LstSq SaddleSys P_Precond P_Svd P_Pcss1 Chol P_LS P_LS2 P_LS3 P_LS4 P_LS5 P_LS6 P_LS7.
Set Implicit Arguments.
Unset Strict Implicit.
Unset Printing Implicit Defensive.
Import Order.TTheory GRing.Theory Num.Theory.
Local Open Scope ring_scope.

(** ** C23: dim_checks.  [t] is the integer part of the product. *)
Theorem C23_dim_checks (G T : Type) (O : ops T) (sf : rat) (m n : nat) (t : int) (s : st G T) :
  0 <= sf -> t%:~R <= sf * n%:R < (t + 1)%:~R ->
  dim_checks sf m n s =
  if (m < n)%N then (s, inl AssertionError)
  else if t < n%:Z then (s, inl AssertionError)
  else if t <= m%:Z then (s, inr (absz t))
  else (St (gen s) (rcons (evs s) (EvWarn W_dim)), inr m).
Proof. exact: dim_checks_lemma. Qed.
Print Assumptions C23_dim_checks.

Theorem C23_dim_checks_range (G T : Type) (O : ops T) (sf : rat) (m n : nat) (s s' : st G T) d :
  dim_checks sf m n s = (s', inr d) -> (n <= d <= m)%N.
Proof. by case/dim_checks_okP. Qed.
Print Assumptions C23_dim_checks_range.

Theorem C23_dim_checks_negative (G T : Type) (O : ops T) (sf : rat) (m n : nat) (s : st G T) :
  sf < 0 -> (0 < n)%N -> dim_checks sf m n s = (s, inl AssertionError).
Proof. exact: dim_checks_neg. Qed.
Print Assumptions C23_dim_checks_negative.

Example C23_run (R : rcfType) (s : st nat R) :
  dim_checks (7%:Q / 2%:Q) 10 2 s = (s, inr 7%N) /\
  dim_checks (7%:Q / 2%:Q) 6 2 s = (St (gen s) (rcons (evs s) (EvWarn W_dim)), inr 6%N).
Proof. by split; rewrite (@C23_dim_checks _ _ _ _ _ _ 7). Qed.

(** ** C24: SSO1. *)
Theorem C24_sso1 (R : rcfType) (G : Type) (L : lapack R) (g : nat -> nat -> M G R (pyop R)) (sf : rat)
    m n (A : 'M[R]_(m, n)) (b : 'cV[R]_m) (dl : R) (tol : option R) (lim : int) s :
  lstsq_spec L -> lsq_ok g sf m n -> 0 <= dl ->
  exists d s1 Sk (Sm : 'M[R]_(d, m)) (x : 'cV[R]_n),
  [/\ d%:Z = Num.min (trunc_rat (sf * n%:R)) m%:Z,
      g d m (St (gen s) (evs s ++
          (if tol is Some _ then [:: EvWarn W_sso_tol] else [::]) ++
          (if 1 < lim then [:: EvWarn W_sso_iter] else [::]) ++
          (if m%:Z < trunc_rat (sf * n%:R) then [:: EvWarn W_dim] else [::]) ++ [:: EvDraw d m]))
        = (s1, inr Sk),
      py_is Sk Sm,
      SSO1 L g sf (ofmx A) (ofcv b) dl tol lim s = (s1, inr (ofcv x)) &
      forall z : 'cV[R]_n,
        fro2 (Sm *m b - Sm *m A *m x) + dl * fro2 x <= fro2 (Sm *m b - Sm *m A *m z) + dl * fro2 z /\
        (fro2 (Sm *m b - Sm *m A *m z) + dl * fro2 z = fro2 (Sm *m b - Sm *m A *m x) + dl * fro2 x ->
         fro2 x <= fro2 z)].
Proof. exact: sso1_lemma. Qed.
Print Assumptions C24_sso1.

Example C24_hyps (R : rcfType) : lstsq_spec (exact_lapack R) /\ lsq_ok (scale_gen (1 : R)) 1 3 2.
Proof. by split; [exact: exact_lstsq | exact: scale_lsq_ok]. Qed.

(** ** C25: the preconditioned operator and its adjoint. *)
Theorem C25_a_lift_precond (R : rcfType) m n k (A : 'M[R]_(m, n)) (dl : R) (P : arr R) tri (M : 'M[R]_(n, k)) :
  0 <= dl ->
  (tri = false /\ P = ofmx M \/
   tri = true /\ exists U : 'M[R]_n, [/\ U \in unitmx, (forall i j : 'I_n, (j < i)%N -> U i j = 0),
      P = ofmx U & ofmx M = ofmx (invmx U)]) ->
  exists m' (Ab : 'M[R]_(m', n)) op,
  [/\ a_lift_precond (ofmx A) dl P tri 1 = Ok op,
      (if 0 < dl then m' = (m + n)%N /\ ofmx Ab = ofmx (col_mx A (Num.sqrt dl)%:M)
       else m' = m /\ ofmx Ab = ofmx A) /\ (lo_nr op, lo_nc op) = (m', k),
      forall x : 'cV[R]_k, lo_mv op (ofcv x) = Ok (ofcv (Ab *m (M *m x))),
      forall y : 'cV[R]_m', lo_rmv op (ofcv y) = Ok (ofcv (M^T *m (Ab^T *m y))) &
      (forall x : 'cV[R]_k, M_fwd P tri (ofcv x) = Ok (ofcv (M *m x))) /\
      forall x : 'cV[R]_n, M_adj P tri (ofcv x) = Ok (ofcv (M^T *m x))].
Proof. exact: precond_lemma. Qed.
Print Assumptions C25_a_lift_precond.

Example C25_hyps (R : rcfType) :
  let U : 'M[R]_3 := wit_A R in U \in unitmx /\ forall i j : 'I_3, (j < i)%N -> U i j = 0.
Proof.
split=> [|i j ji]; first exact: wit_A_unit.
by rewrite !mxE; case: eqP => // e; rewrite e ltnn in ji.
Qed.

(** ** C26: the SVD preconditioner. *)
Theorem C26_svd_right_precond (R : rcfType) (L : lapack R) p n (As : 'M[R]_(p, n)) :
  svd_spec L -> (0 < p)%N -> (0 < n)%N ->
  exists r (M : 'M[R]_(n, r)) (U : 'M[R]_(p, r)) (s : 'cV[R]_r) (Vh : 'M[R]_(r, n)) U0 s0 Vh0,
  [/\ svd_right_precond L (ofmx As) = Ok (ofmx M, ofmx U, ofcv s, ofmx Vh),
      As *m M = U /\ U^T *m U = 1%:M,
      Vh *m Vh^T = 1%:M /\ M = Vh^T *m diag_mx (\row_i (s i 0)^-1),
      (forall i, 0 < s i 0) /\ (forall i j : 'I_r, (i <= j)%N -> s j 0 <= s i 0) &
      [/\ l_svd L (ofmx As) = Ok (U0, s0, Vh0),
          r = count (fun t => nth 0 s0 0 * n%:R * 2%:R ^- 52 < t) s0 &
          (forall t, t \in s0 -> t = 0 \/ nth 0 s0 0 * n%:R * 2%:R ^- 52 < t) ->
            \rank As = r /\ As = U *m diag_mx s^T *m Vh]].
Proof. exact: svd_right_lemma. Qed.
Print Assumptions C26_svd_right_precond.

Example C26_hyps (R : rcfType) : svd_spec (exact_lapack R).
Proof. exact: exact_svd. Qed.

(** ** C27: what SPO starts from (observed with [iter_lim = 0]). *)
Theorem C27_spo_start (R : rcfType) (G : Type) (L : lapack R) (g : nat -> nat -> M G R (pyop R)) (sf : rat)
    (md : spo_mode) m n (A : 'M[R]_(m, n)) (b : 'cV[R]_m) (dl tol : R) lg clk s s' x l :
  lsq_ok g sf m n -> qr_spec L -> svd_spec L -> 0 <= dl -> md <> MOther ->
  SPO L g sf md (ofmx A) (ofcv b) dl tol 0 lg clk s = (s', inr (x, l)) ->
  exists d (Sm : 'M[R]_(d, m)) (xv : 'cV[R]_n),
  [/\ drew g sf n s s' Sm, x = ofcv xv, ridge A b dl xv <= fro2 b,
      sketch_clean L md dl (Sm *m A) ->
        xv = 0 \/ [/\ ridge_min (Sm *m A) (Sm *m b) dl xv, (b = 0 \/ ridge A b dl xv < fro2 b) &
                   (\rank (Sm *m A) = n \/ 0 < dl) \/ ridge A b dl xv <= (10%:R ^- 15) ^+ 2 * fro2 b] &
      sketch_clean L md dl (Sm *m A) -> \rank (Sm *m A) = n \/ 0 < dl ->
        forall xs, ridge_min (Sm *m A) (Sm *m b) dl xs -> ridge A b dl xs < fro2 b -> xv = xs].
Proof. exact: spo_start_lemma'. Qed.
Print Assumptions C27_spo_start.

(** ** C28: SPO never returns something worse than zero. *)
Theorem C28_spo_not_worse (R : rcfType) (G : Type) (L : lapack R) (g : nat -> nat -> M G R (pyop R)) (sf : rat)
    (md : spo_mode) m n (A : 'M[R]_(m, n)) (b : 'cV[R]_m) (dl tol : R) lim lg clk s s' x l :
  lsq_ok g sf m n -> qr_spec L -> svd_spec L -> 0 <= dl -> md <> MOther -> 0 <= lim ->
  SPO L g sf md (ofmx A) (ofcv b) dl tol lim lg clk s = (s', inr (x, l)) ->
  exists xv : 'cV[R]_n, x = ofcv xv /\ fro2 (b - A *m xv) + dl * fro2 xv <= fro2 b.
Proof. move=> ok qr svd d0 mO; exact: spo_le_lemma. Qed.
Print Assumptions C28_spo_not_worse.

Example C27_C28_run (R : rcfType) (s : st nat R) (b : 'cV[R]_3) (md : spo_mode) (lim : int) :
  md = MSvd -> 0 <= lim ->
  [/\ lsq_ok (scale_gen (1 : R)) 1 3 3, qr_spec (exact_lapack R), svd_spec (exact_lapack R) &
  exists s' x, SPO (exact_lapack R) (scale_gen 1) 1 md (ofmx (wit_A R)) (ofcv b) 1 0 lim false (clk0 R) s =
    (s', inr (ofcv (x : 'cV[R]_3), log_of false (clk0 R)))].
Proof.
move=> -> l0; have ok := scale_lsq_ok (1 : R) (isT : (0 < 3 <= 3)%N).
split=> //; [exact: exact_qr | exact: exact_svd | ].
have [|s1 [d [Sm [_ H]]]] := spo_returns_lemma (wit_A R) b 0 ok (@exact_qr R) (@exact_svd R) ler01 (_ : MSvd <> MOther) s => //.
by have [x E] := H lim (clk0 R) l0; exists s1, x; exact: E.
Qed.

(** ** C32: PcSS1. *)
Theorem C32_pcss1 (R : rcfType) m n (A : 'M[R]_(m, n)) (b : option 'cV[R]_m) (c : option 'cV[R]_n) (dl tol : R)
    lim (P : arr R) tri z0 out :
  let b0 := if b is Some b then b else 0 in
  let c0 := if c is Some c then c else 0 in
  PcSS1 (ofmx A) (omap (@ofcv R m) b) (omap (@ofcv R n) c) dl tol lim P tri z0 = Ok out ->
  exists x : 'cV[R]_n, exists y : 'cV[R]_m,
  [/\ o_x out = Some (ofcv x), o_y out = ofcv y, y + A *m x = b0 &
      (A^T *m A + dl%:M) *m x = A^T *m b0 - c0 -> A^T *m y - dl *: x = c0].
Proof. exact: pcss1_rows_lemma. Qed.
Print Assumptions C32_pcss1.

Theorem C32_pcss1_no_b (R : rcfType) m n (A : 'M[R]_(m, n)) (c : option 'cV[R]_n) (dl tol : R) lim P tri z0 :
  PcSS1 (ofmx A) None (omap (@ofcv R n) c) dl tol lim P tri z0 =
  PcSS1 (ofmx A) (Some (ofcv (0 : 'cV[R]_m))) (omap (@ofcv R n) c) dl tol lim P tri z0.
Proof. exact: pcss1_none. Qed.
Print Assumptions C32_pcss1_no_b.

(** ** C33: PcSS1 and SPS1 solve the saddle point system. *)
Theorem C33_pcss1_full (R : rcfType) m n (A : 'M[R]_(m, n)) (b : option 'cV[R]_m) (c : option 'cV[R]_n) (dl : R)
    lim (P : 'M[R]_n) (z0 : option 'cV[R]_n) :
  let b0 := if b is Some b then b else 0 in
  let c0 := if c is Some c then c else 0 in
  0 <= dl -> (\rank A = n \/ 0 < dl) -> \rank P = n -> (n <= absz lim)%N -> 0 <= lim ->
  exists (x : 'cV[R]_n) (y : 'cV[R]_m) es,
  [/\ PcSS1 (ofmx A) (omap (@ofcv R m) b) (omap (@ofcv R n) c) dl 0 lim (ofmx P) false (omap (@ofcv R n) z0) =
      Ok (SOut (Some (ofcv x)) (ofcv y) (EArr es) (ofmx P)),
      y + A *m x = b0 & A^T *m y - dl *: x = c0].
Proof. exact: pcss1_full_lemma'. Qed.
Print Assumptions C33_pcss1_full.

Theorem C33_pcss1_low (R : rcfType) m n (A : 'M[R]_(m, n)) (b : option 'cV[R]_m) (c : option 'cV[R]_n) (dl : R)
    lim k (V : 'M[R]_(n, k)) (s : 'cV[R]_k) z0 :
  let b0 := if b is Some b then b else 0 in
  let c0 := if c is Some c then c else 0 in
  0 <= dl -> (\rank A = n \/ 0 < dl) -> (0 < k < n)%N -> V^T *m V = 1%:M -> (forall i, 0 < s i 0) ->
  (n <= absz lim)%N -> 0 <= lim ->
  exists (x : 'cV[R]_n) (y : 'cV[R]_m) es P',
  [/\ PcSS1 (ofmx A) (omap (@ofcv R m) b) (omap (@ofcv R n) c) dl 0 lim
        (ofmx (V *m diag_mx (\row_i (s i 0)^-1))) false z0 = Ok (SOut (Some (ofcv x)) (ofcv y) (EArr es) P'),
      y + A *m x = b0 & A^T *m y - dl *: x = c0].
Proof. exact: pcss1_low_lemma'. Qed.
Print Assumptions C33_pcss1_low.

(** [sps1_solves]: see P_LS5.v; the call returns for every limit, is exact once
    [iter_lim >= n] and [tol = 0], and its log is truthful. *)
Theorem C33_sps1 (R : rcfType) (G : Type) (L : lapack R) (g : nat -> nat -> M G R (pyop R)) (sf : rat) m n
    (A : 'M[R]_(m, n)) (b : option 'cV[R]_m) (c : option 'cV[R]_n) (dl tol : R) strat s :
  let t := trunc_rat (sf * n%:R) in
  svd_spec L -> (\rank A = n \/ 0 < dl) -> 0 <= dl -> 0 <= tol ->
  (0 < n)%N -> n%:R < 2%:R ^+ 52 :> R -> n%:Z <= t -> strat <> NOther -> gen_ok g (absz t) m ->
  exists s1 Sk (Sm : 'M[R]_(absz t, m)),
  [/\ g (absz t) m (St (gen s) (rcons (evs s) (EvDraw (absz t) m))) = (s1, inr Sk), py_is Sk Sm &
      Sm *m A <> 0 \/ 0 < dl -> sps1_solves L g sf strat A b c dl tol s].
Proof. move=> t svd hA d0 t0; exact: sps1_full_lemma. Qed.
Print Assumptions C33_sps1.

Theorem C33_sps1_nystrom_left (R : rcfType) (G : Type) (L : lapack R) (g : nat -> nat -> M G R (pyop R)) (sf : rat) m n
    (A : 'M[R]_(m, n)) (b : option 'cV[R]_m) (c : option 'cV[R]_n) (dl tol : R) s :
  let t := trunc_rat (sf * n%:R) in
  qr_spec L -> svd_spec L -> 0 <= dl -> 0 <= tol ->
  (n <= m)%N -> 0 < t < n%:Z -> \rank A = n -> gen_ok g (absz t) m ->
  sps1_solves L g sf NLeft A b c dl tol s.
Proof. move=> t qr svd d0 t0 nm tn rA; exact: (sps1_left_lemma b c qr svd (or_introl rA)). Qed.
Print Assumptions C33_sps1_nystrom_left.

Theorem C33_sps1_nystrom_right (R : rcfType) (G : Type) (L : lapack R) (g : nat -> nat -> M G R (pyop R)) (sf : rat) m n
    (A : 'M[R]_(m, n)) (b : option 'cV[R]_m) (c : option 'cV[R]_n) (dl tol : R) s :
  let t := trunc_rat (sf * n%:R) in
  qr_spec L -> svd_spec L -> 0 <= dl -> 0 <= tol ->
  (n <= m)%N -> 0 < t < n%:Z -> \rank A = n ->
  (forall s, exists s' (Sm : 'M[R]_(n, absz t)), \rank Sm = absz t /\
     (g n (absz t) s = (s', inr (PyArr (ofmx Sm))) \/ g n (absz t) s = (s', inr (PySp (ofmx Sm))))) ->
  sps1_solves L g sf NRight A b c dl tol s.
Proof. move=> t qr svd d0 t0 nm tn rA; exact: (sps1_right_lemma b c qr svd (or_introl rA)). Qed.
Print Assumptions C33_sps1_nystrom_right.

Example C33_hyps (R : rcfType) :
  [/\ \rank (wit_A R) = 3%N, 0 < trunc_rat ((2%:Q / 3%:Q) * 3%:R) < 3%:Z &
      gen_ok (scale_gen (1 : R)) (absz (trunc_rat ((2%:Q / 3%:Q) * 3%:R))) 3].
Proof. by split; [rewrite mxrank_unit ?wit_A_unit | | exact: scale_gen_ok]. Qed.

(** ** C34: the documented (absolute) stopping criterion fails: a run with
    [tol = 1] and [iter_lim = 5] stops before its first iteration at a normal
    equation residual above 1. *)
Theorem C34_absolute_tol_refuted (R : rcfType) (s : st nat R) : exists s1 (x y : 'cV[R]_1) l,
  [/\ SPS1 (exact_lapack R) (scale_gen 2%:R) 1 (@PcSS1 R (rcf_ops R)) NLeft (ofmx (1%:M : 'M[R]_1))
        (Some (ofcv (4%:R%:M : 'cV[R]_1))) None 0 1 5 true (clk0 R) s = (s1, inr (Some (ofcv x), ofcv y, l)),
      errors l = Some [:: 4%:R] &
      1 < fro ((1%:M : 'M[R]_1)^T *m 4%:R%:M - ((1%:M : 'M[R]_1)^T *m 1%:M + 0%:M) *m x)].
Proof. exact: sps1_tol_wit. Qed.
Print Assumptions C34_absolute_tol_refuted.

(** What does hold: the tolerance is relative to the residual at the starting
    point [x0] (the result for [iter_lim = 0]). *)
Theorem C34_relative_tol (R : rcfType) (G : Type) (L : lapack R) (g : nat -> nat -> M G R (pyop R)) (sf : rat) m n
    (A : 'M[R]_(m, n)) (b : option 'cV[R]_m) (c : option 'cV[R]_n) (dl tol : R) strat s
    (lim : int) clk s1 x y l :
  let b0 := if b is Some b then b else 0 in
  let c0 := if c is Some c then c else 0 in
  let res (z : 'cV[R]_n) := fro (A^T *m b0 - c0 - (A^T *m A + dl%:M) *m z) in
  let call lim logging := SPS1 L g sf (@PcSS1 R (rcf_ops R)) strat (ofmx A) (omap (@ofcv R m) b)
    (omap (@ofcv R n) c) dl tol lim logging clk s in
  sps1_solves L g sf strat A b c dl tol s -> 0 <= lim -> call lim true = (s1, inr (Some (ofcv x), y, l)) ->
  exists (x0 : 'cV[R]_n) y0 es,
  [/\ call 0 false = (s1, inr (Some (ofcv x0), y0, log_of false clk)), errors l = Some (res 0 :: es) &
      (size es < absz lim)%N -> res x <= tol * res x0].
Proof. exact: sps1_relative_lemma. Qed.
Print Assumptions C34_relative_tol.

(** ** C39: PcSS2 *)
Theorem C39_pcss2_c_zero (R : rcfType) m n k (A : 'M[R]_(m, n)) (P : 'M[R]_(n, k)) (b : 'cV[R]_m) (c : option 'cV[R]_n)
    dl tol lim (z0 : option 'cV[R]_k) :
  0 <= dl -> 0 <= lim -> (if c is Some c then c = 0 else True) -> b != 0 \/ z0 = None ->
  exists (x : 'cV[R]_n) es, PcSS2 (ofmx A) (Some (ofcv b)) (omap (@ofcv R n) c) dl tol lim (ofmx P) false
    (omap (@ofcv R k) z0) = Ok (SOut (Some (ofcv x)) (ofcv (b - A *m x)) es (ofmx P)).
Proof. exact: pcss2_c0_lemma'. Qed.
Print Assumptions C39_pcss2_c_zero.

Theorem C39_pcss2_b_zero (R : rcfType) m n k (A : 'M[R]_(m, n)) (P : 'M[R]_(n, k)) (b : option 'cV[R]_m) (c : 'cV[R]_n)
    dl tol lim z0 :
  0 <= dl -> 0 <= lim -> c != 0 -> (if b is Some b then b = 0 else True) ->
  exists (y : 'cV[R]_m) es, PcSS2 (ofmx A) (omap (@ofcv R m) b) (Some (ofcv c)) dl tol lim (ofmx P) false z0 =
    Ok (SOut (if 0 < dl then Some (ofcv (dl^-1 *: (A^T *m y - c))) else None) (ofcv y) es (ofmx P)).
Proof. exact: pcss2_b0_lemma. Qed.
Print Assumptions C39_pcss2_b_zero.

Theorem C39_pcss2_both_nonzero (R : rcfType) m n k (A : 'M[R]_(m, n)) (P : 'M[R]_(n, k)) (b : 'cV[R]_m) (c : 'cV[R]_n)
    dl tol lim z0 :
  0 <= dl -> b != 0 -> c != 0 ->
  PcSS2 (ofmx A) (Some (ofcv b)) (Some (ofcv c)) dl tol lim (ofmx P) false z0 = Err ValueError.
Proof. exact: pcss2_both. Qed.
Print Assumptions C39_pcss2_both_nonzero.

Example C39_hyps (R : rcfType) : (const_mx 1 : 'cV[R]_2) != 0.
Proof. by apply/eqP => /matrixP/(_ 0 0); rewrite !mxE => /eqP; rewrite oner_eq0. Qed.

(** ** C40: the reduction made by SPS2, for any solver it is given. *)
Theorem C40_sps2_reduction (R : rcfType) (G : Type) (L : lapack R) (g : nat -> nat -> M G R (pyop R)) (sf : rat) m n
    (A : 'M[R]_(m, n)) (b : option 'cV[R]_m) (c : option 'cV[R]_n) (dl tol : R) (slv : @solver R) s :
  let b0 := if b is Some b then b else 0 in
  let c0 := if c is Some c then c else 0 in
  lsq_ok g sf m n -> svd_spec L -> 0 <= dl ->
  exists s1 d (Sm : 'M[R]_(d, m)), drew g sf n s s1 Sm /\
  exists m' (Ab : 'M[R]_(m', n)) (ba : 'cV[R]_m') k (M0 : 'M[R]_(n, k)) start,
  (lift_clean L dl (Sm *m A) -> \rank (Sm *m A) = n \/ 0 < dl -> forall x : 'cV[R]_n,
     (forall z, fro2 (ba - Ab *m x) <= fro2 (ba - Ab *m z)) <->
     (A^T *m A + dl%:M) *m x = A^T *m b0 - c0) /\
  forall lim logging clk out (x : 'cV[R]_n),
    slv (ofmx Ab) (Some (ofcv ba)) None 0 tol lim (ofmx M0) false start = Ok out ->
    o_x out = Some (ofcv x) -> o_R out = ofmx M0 ->
    exists init, SPS2 L g sf slv (ofmx A) (omap (@ofcv R m) b) (omap (@ofcv R n) c) dl tol lim logging clk s =
      (s1, log_ret logging clk (o_errs out) init (ofcv x, ofcv (b0 - A *m x))).
Proof. move=> b0 c0 ok svd d0; exact: sps2_reduce_lemma. Qed.
Print Assumptions C40_sps2_reduction.

(** ** C41: wrap_up *)
Theorem C41_wrap_up (R : rcfType) (l : @splog R) (es : seq R) (init : R) :
  exists l' ts,
  [/\ wrap_up l (EArr es) init = Ok l', errors l' = Some (init :: es), times l' = Some ts,
      [/\ size ts = (size es).+1, nth 0 ts 0 = time_setup l,
        (0 < size es)%N -> nth 0 ts 1 = time_setup l + time_presolve l &
        (1 < size es)%N -> nth 0 ts (size es) = time_setup l + time_presolve l + time_iterate l] &
      0 <= time_presolve l -> 0 <= time_iterate l ->
      forall i j, (i <= j)%N -> (j <= size es)%N -> nth 0 ts i <= nth 0 ts j].
Proof. exact: wrap_up_lemma. Qed.
Print Assumptions C41_wrap_up.

(** ** C42: the drivers do not return for every right-hand side. *)
Theorem C42_spo_zero_rhs (R : rcfType) (G : Type) (L : lapack R) (g : nat -> nat -> M G R (pyop R)) (sf : rat)
    (md : spo_mode) m n (A : 'M[R]_(m, n)) (dl tol : R) lim clk s :
  lsq_ok g sf m n -> qr_spec L -> svd_spec L -> 0 <= dl -> md <> MOther -> 0 <= lim ->
  exists s1 e, SPO L g sf md (ofmx A) (ofcv (0 : 'cV[R]_m)) dl tol lim true clk s = (s1, inl e) /\
    (e = ValueError \/ mode_tri md /\ e = LinAlgError).
Proof. exact: spo_zero_lemma'. Qed.
Print Assumptions C42_spo_zero_rhs.

Theorem C42_spu1_zero_rhs (R : rcfType) (G : Type) (L : lapack R) (g : nat -> nat -> M G R (pyop R)) (sf : rat)
    m n (A : 'M[R]_(m, n)) (tol : R) lim lg clk s :
  lsq_ok g sf m n -> svd_spec L ->
  exists s1, SPU1 L g sf (ofmx A) (ofcv (0 : 'cV[R]_n)) tol lim lg clk s = (s1, inl TypeError).
Proof. by move=> ok svd; apply: spu_zero_lemma. Qed.
Print Assumptions C42_spu1_zero_rhs.

Theorem C42_sps2_zero_rhs (R : rcfType) (G : Type) (L : lapack R) (g : nat -> nat -> M G R (pyop R)) (sf : rat)
    m n (A : 'M[R]_(m, n)) (dl tol : R) (b : option 'cV[R]_m) (c : option 'cV[R]_n) lim clk s :
  lsq_ok g sf m n -> svd_spec L -> 0 <= dl ->
  (if b is Some b then b = 0 else True) -> (if c is Some c then c = 0 else True) -> 0 <= lim ->
  exists s1, SPS2 L g sf (@PcSS2 R (rcf_ops R)) (ofmx A) (omap (@ofcv R m) b) (omap (@ofcv R n) c)
    dl tol lim true clk s = (s1, inl ValueError).
Proof. exact: sps2_zero_lemma'. Qed.
Print Assumptions C42_sps2_zero_rhs.

Theorem C42_spo_refuted (R : rcfType) (s : st nat R) : exists (A : 'M[R]_3) (b : 'cV[R]_3) s1,
  SPO (exact_lapack R) (scale_gen 1) 1 MSvd (ofmx A) (ofcv b) 0 0 5 true (clk0 R) s = (s1, inl ValueError).
Proof. exact: spo_zero_wit. Qed.
Print Assumptions C42_spo_refuted.

Theorem C42_spu1_refuted (R : rcfType) (s : st nat R) : exists (A : 'M[R]_3) (c : 'cV[R]_3) s1,
  SPU1 (exact_lapack R) (scale_gen 1) 1 (ofmx A) (ofcv c) 0 5 false (clk0 R) s = (s1, inl TypeError).
Proof. exact: spu_zero_wit. Qed.
Print Assumptions C42_spu1_refuted.

Theorem C42_sps2_refuted (R : rcfType) (s : st nat R) : exists (A : 'M[R]_3) (b : 'cV[R]_3) s1,
  SPS2 (exact_lapack R) (scale_gen 1) 1 (@PcSS2 R (rcf_ops R)) (ofmx A) (Some (ofcv b)) None 0 0 5 true (clk0 R) s =
  (s1, inl ValueError).
Proof. exact: sps2_zero_wit. Qed.
Print Assumptions C42_sps2_refuted.

(** ** C55: SPU1 *)
Theorem C55_spu1 (R : rcfType) (G : Type) (L : lapack R) (g : nat -> nat -> M G R (pyop R)) (sf : rat) m n
    (A : 'M[R]_(m, n)) (c : 'cV[R]_n) (tol : R) s :
  lsq_ok g sf m n -> svd_spec L -> c <> 0 ->
  exists s1 d (Sm : 'M[R]_(d, m)), drew g sf n s s1 Sm /\
  forall lim clk, 0 <= lim -> exists y : 'cV[R]_m,
  [/\ SPU1 L g sf (ofmx A) (ofcv c) tol lim false clk s = (s1, inr (ofcv y, log_of false clk)),
      exists w, y = A *m w &
      forall lo hi, (forall v : 'cV[R]_n, lo * fro2 (A *m v) <= fro2 (Sm *m A *m v) <= hi * fro2 (A *m v)) ->
        0 < lo -> 0 < hi -> (n ^ 2)%:R * hi < lo * (10%:R ^+ 8 - 1) ^+ 2 ->
        svd_clean L (Sm *m A) -> tol <= 0 -> (n <= absz lim)%N ->
        forall z : 'cV[R]_m, fro2 (c - A^T *m y) <= fro2 (c - A^T *m z) /\
          (fro2 (c - A^T *m z) = fro2 (c - A^T *m y) -> fro2 y <= fro2 z)].
Proof. exact: spu_cor. Qed.
Print Assumptions C55_spu1.

(** ** C56: exactness of SPO *)
Theorem C56_spo_exact (R : rcfType) (G : Type) (L : lapack R) (g : nat -> nat -> M G R (pyop R)) (sf : rat)
    (md : spo_mode) m n (A : 'M[R]_(m, n)) (b : 'cV[R]_m) (dl tol : R) lim lg clk s s' x l :
  lsq_ok g sf m n -> qr_spec L -> svd_spec L -> 0 <= dl -> md <> MOther -> 0 <= lim ->
  SPO L g sf md (ofmx A) (ofcv b) dl tol lim lg clk s = (s', inr (x, l)) ->
  exists d (Sm : 'M[R]_(d, m)) (xv : 'cV[R]_n), [/\ drew g sf n s s' Sm, x = ofcv xv &
  forall lo hi, (forall v : 'cV[R]_n, lo * fro2 (A *m v) <= fro2 (Sm *m A *m v) <= hi * fro2 (A *m v)) ->
    0 < lo <= 1 -> 1 <= hi -> (n ^ 2)%:R * hi < lo * (10%:R ^+ 8 - 1) ^+ 2 ->
    sketch_clean L md dl (Sm *m A) -> tol <= 0 -> (n <= absz lim)%N ->
    forall z : 'cV[R]_n,
      fro2 (b - A *m xv) + dl * fro2 xv <= fro2 (b - A *m z) + dl * fro2 z /\
      (fro2 (b - A *m z) + dl * fro2 z = fro2 (b - A *m xv) + dl * fro2 xv -> fro2 xv <= fro2 z)].
Proof. move=> ok qr svd d0 mO; exact: spo_exact_lemma. Qed.
Print Assumptions C56_spo_exact.

(** With the identity as sketch all hypotheses hold: lo = hi = 1. *)
Example C56_run (R : rcfType) (s : st nat R) (b : 'cV[R]_3) (dl : R) : 0 <= dl ->
  exists s' (x : 'cV[R]_3), SPO (exact_lapack R) (scale_gen 1) 1 MQr (ofmx (wit_A R)) (ofcv b) dl 0 3 false (clk0 R) s =
    (s', inr (ofcv x, log_of false (clk0 R))) /\
  forall z : 'cV[R]_3, fro2 (b - wit_A R *m x) + dl * fro2 x <= fro2 (b - wit_A R *m z) + dl * fro2 z.
Proof. exact/spo_wit/wit_A_unit. Qed.

(** ** C57: PcSS1 leaves its argument R unchanged when R is square, and
    overwrites it otherwise. *)
Theorem C57_pcss1_overwrites (R : rcfType) m n (A : 'M[R]_(m, n)) (b : option 'cV[R]_m) (c : option 'cV[R]_n)
    (dl : R) lim k (V : 'M[R]_(n, k)) (s : 'cV[R]_k) z0 (j : 'I_k) :
  let P := V *m diag_mx (\row_i (s i 0)^-1) in
  0 <= dl -> (\rank A = n \/ 0 < dl) -> (0 < k < n)%N -> V^T *m V = 1%:M -> (forall i, 0 < s i 0) ->
  (n <= absz lim)%N -> 0 <= lim -> j.+1 = k -> s j 0 != 1 ->
  exists out, PcSS1 (ofmx A) (omap (@ofcv R m) b) (omap (@ofcv R n) c) dl 0 lim (ofmx P) false z0 = Ok out /\
    o_R out <> ofmx P.
Proof. exact: pcss1_overwrites. Qed.
Print Assumptions C57_pcss1_overwrites.

Theorem C57_pcss1_argument_refuted (R : rcfType) (b : 'cV[R]_2) : exists (A : 'M[R]_2) (P : 'M[R]_(2, 1)) out,
  PcSS1 (ofmx A) (Some (ofcv b)) None 0 0 2 (ofmx P) false None = Ok out /\ o_R out <> ofmx P.
Proof. exact: pcss1_overwrites_wit. Qed.
Print Assumptions C57_pcss1_argument_refuted.

Theorem C57_pcss1_argument_square (R : rcfType) m n (A : 'M[R]_(m, n)) b c dl tol lim (P : arr R) tri z0 out :
  nc P = n -> PcSS1 (ofmx A) b c dl tol lim P tri z0 = Ok out -> o_R out = P.
Proof. exact: pcss1_keeps. Qed.
Print Assumptions C57_pcss1_argument_square.

Theorem C57_pcss2_argument (R : rcfType) (A : arr R) b c dl tol lim (P : arr R) tri z0 out :
  PcSS2 A b c dl tol lim P tri z0 = Ok out -> o_R out = P.
Proof. exact: pcss2_keeps. Qed.
Print Assumptions C57_pcss2_argument.

Example C57_hyps (R : rcfType) : let V : 'cV[R]_2 := delta_mx 0 0 in
  [/\ \rank (1%:M : 'M[R]_2) = 2%N, V^T *m V = 1%:M & (2%:R%:M : 'cV[R]_1) 0 0 != 1].
Proof.
split; first by rewrite mxrank1.
  by rewrite trmx_delta mul_delta_mx; apply/matrixP => i j; rewrite !ord1 !mxE.
by rewrite mxE eqxx (eqr_nat R 2 1).
Qed.

(** ** C58: when SPO fails *)
Theorem C58_spo_returns (R : rcfType) (G : Type) (L : lapack R) (g : nat -> nat -> M G R (pyop R)) (sf : rat)
    (md : spo_mode) m n (A : 'M[R]_(m, n)) (b : 'cV[R]_m) (dl tol : R) s :
  lsq_ok g sf m n -> qr_spec L -> svd_spec L -> 0 <= dl -> md <> MOther ->
  exists s1 d (Sm : 'M[R]_(d, m)), drew g sf n s s1 Sm /\
  forall lim clk, 0 <= lim ->
    if mode_tri md && (\rank (Sm *m A) != n) && (dl == 0)
    then forall lg, SPO L g sf md (ofmx A) (ofcv b) dl tol lim lg clk s = (s1, inl LinAlgError)
    else exists x : 'cV[R]_n,
      SPO L g sf md (ofmx A) (ofcv b) dl tol lim false clk s = (s1, inr (ofcv x, log_of false clk)).
Proof. move=> ok qr svd d0 mO; exact: spo_returns_lemma. Qed.
Print Assumptions C58_spo_returns.

(** ** C59: the error log of SPO.  [M0] is the preconditioner. *)
Theorem C59_spo_log (R : rcfType) (G : Type) (L : lapack R) (g : nat -> nat -> M G R (pyop R)) (sf : rat)
    (md : spo_mode) m n (A : 'M[R]_(m, n)) (b : 'cV[R]_m) (dl tol : R) lim clk s s' x l :
  let grad (z : 'cV[R]_n) := A^T *m (b - A *m z) - dl *: z in
  lsq_ok g sf m n -> qr_spec L -> svd_spec L -> 0 <= dl -> md <> MOther -> 0 <= lim ->
  SPO L g sf md (ofmx A) (ofcv b) dl tol lim true clk s = (s', inr (x, l)) ->
  exists d (Sm : 'M[R]_(d, m)) k (M0 : 'M[R]_(n, k)) es,
  [/\ drew g sf n s s' Sm,
      exists p (Ab : 'M[R]_(p, n)), lifted (Sm *m A) dl Ab /\ orthonormal (Ab *m M0),
      errors l = Some (fro (M0^T *m (A^T *m b)) :: es), (size es <= absz lim)%N /\ (size es <= n)%N &
      forall i, (i < size es)%N -> exists xi : 'cV[R]_n,
        (forall clk, SPO L g sf md (ofmx A) (ofcv b) dl tol i%:Z false clk s = (s', inr (ofcv xi, log_of false clk))) /\
        nth 0 es i = fro (M0^T *m grad xi)].
Proof. move=> grad ok qr svd d0 mO; exact: spo_log_lemma. Qed.
Print Assumptions C59_spo_log.

(** ** C60: SPS2 *)
Theorem C60_sps2_exact (R : rcfType) (G : Type) (L : lapack R) (g : nat -> nat -> M G R (pyop R)) (sf : rat) m n
    (A : 'M[R]_(m, n)) (b : option 'cV[R]_m) (c : option 'cV[R]_n) (dl tol : R) s :
  let b0 := if b is Some b then b else 0 in
  let c0 := if c is Some c then c else 0 in
  lsq_ok g sf m n -> svd_spec L -> 0 <= dl ->
  exists s1 d (Sm : 'M[R]_(d, m)), drew g sf n s s1 Sm /\
  forall lim clk, 0 <= lim -> exists (x : 'cV[R]_n) (y : 'cV[R]_m),
  [/\ SPS2 L g sf (@PcSS2 R (rcf_ops R)) (ofmx A) (omap (@ofcv R m) b) (omap (@ofcv R n) c) dl tol lim false clk s
        = (s1, inr (ofcv x, ofcv y, log_of false clk)),
      y + A *m x = b0 &
      forall lo hi, (forall v : 'cV[R]_n, lo * fro2 (A *m v) <= fro2 (Sm *m A *m v) <= hi * fro2 (A *m v)) ->
        0 < lo <= 1 -> 1 <= hi -> (n ^ 2)%:R * hi < lo * (10%:R ^+ 8 - 1) ^+ 2 ->
        lift_clean L dl (Sm *m A) -> tol <= 0 -> (n <= absz lim)%N ->
        0 < dl \/ (exists e, c0 = A^T *m e) ->
        A^T *m y - dl *: x = c0 /\
        forall x' y', y' + A *m x' = b0 -> A^T *m y' - dl *: x' = c0 -> fro2 x <= fro2 x'].
Proof. exact: sps2_cor. Qed.
Print Assumptions C60_sps2_exact.

(** ** C61: SPS1 with the LSQR-based solver *)
Theorem C61_sps1_lsqr (R : rcfType) (G : Type) (L : lapack R) (g : nat -> nat -> M G R (pyop R)) sf m n
    (A : 'M[R]_(m, n)) (b : 'cV[R]_m) (c : 'cV[R]_n) (dl tol : R) strat lim lg clk s :
  svd_spec L -> 0 <= dl -> (0 < n)%N -> n%:Z <= trunc_rat (sf * n%:R) -> strat <> NOther ->
  gen_ok g (absz (trunc_rat (sf * n%:R))) m -> b != 0 -> c != 0 ->
  exists s1, SPS1 L g sf (@PcSS2 R (rcf_ops R)) strat (ofmx A) (Some (ofcv b)) (Some (ofcv c)) dl tol lim lg clk s
    = (s1, inl ValueError).
Proof. exact: sps1_lsqr_lemma. Qed.
Print Assumptions C61_sps1_lsqr.

(** ** C77: the error logs of SPU1, SPS1 and SPS2.  [M0] is the preconditioner;
    entry 0 belongs to the zero vector, entry i + 1 to the result of the same
    call limited to i iterations. *)
Theorem C77_spu1_log (R : rcfType) (G : Type) (L : lapack R) (g : nat -> nat -> M G R (pyop R)) (sf : rat) m n
    (A : 'M[R]_(m, n)) (c : 'cV[R]_n) (tol : R) lim clk s s' y l :
  lsq_ok g sf m n -> svd_spec L -> 0 <= lim ->
  SPU1 L g sf (ofmx A) (ofcv c) tol lim true clk s = (s', inr (y, l)) ->
  exists d (Sm : 'M[R]_(d, m)) k (M0 : 'M[R]_(n, k)) es,
  let err (y : 'cV[R]_m) := fro (A *m M0 *m (M0^T *m (c - A^T *m y))) in
  [/\ drew g sf n s s' Sm, orthonormal (Sm *m A *m M0),
      errors l = Some (err 0 :: es), (size es <= absz lim)%N /\ (size es <= n)%N &
      forall i, (i < size es)%N -> exists yi : 'cV[R]_m,
        (forall clk, SPU1 L g sf (ofmx A) (ofcv c) tol i%:Z false clk s = (s', inr (ofcv yi, log_of false clk))) /\
        nth 0 es i = err yi].
Proof. move=> ok svd; exact: spu_log_lemma. Qed.
Print Assumptions C77_spu1_log.

Example C77_spu1_run (R : rcfType) (s : st nat R) : exists s1 y l,
  SPU1 (exact_lapack R) (scale_gen 1) 1 (ofmx (1%:M : 'M[R]_1)) (ofcv (4%:R%:M : 'cV[R]_1)) 0 5 true (clk0 R) s
  = (s1, inr (y, l)).
Proof. exact: spu_log_wit. Qed.

Theorem C77_sps2_log (R : rcfType) (G : Type) (L : lapack R) (g : nat -> nat -> M G R (pyop R)) (sf : rat) m n
    (A : 'M[R]_(m, n)) (b : option 'cV[R]_m) (c : option 'cV[R]_n) (dl tol : R) lim clk s s' x y l :
  let b0 := if b is Some b then b else 0 in
  let c0 := if c is Some c then c else 0 in
  lsq_ok g sf m n -> svd_spec L -> 0 <= dl -> 0 <= lim ->
  SPS2 L g sf (@PcSS2 R (rcf_ops R)) (ofmx A) (omap (@ofcv R m) b) (omap (@ofcv R n) c) dl tol lim true clk s
    = (s', inr (x, y, l)) ->
  exists d (Sm : 'M[R]_(d, m)) k (M0 : 'M[R]_(n, k)) (Pc : 'M[R]_n) es,
  let ng (x : 'cV[R]_n) := A^T *m b0 - Pc *m c0 - (A^T *m A + dl%:M) *m x in
  [/\ drew g sf n s s' Sm,
      exists p (Ab : 'M[R]_(p, n)), lifted (Sm *m A) dl Ab /\ orthonormal (Ab *m M0),
      lift_clean L dl (Sm *m A) -> \rank (Sm *m A) = n \/ 0 < dl -> Pc = 1%:M,
      errors l = Some (fro (M0^T *m ng 0) :: es) /\ ((size es <= absz lim)%N /\ (size es <= n)%N) &
      forall i, (i < size es)%N -> exists xi : 'cV[R]_n,
        (forall clk, SPS2 L g sf (@PcSS2 R (rcf_ops R)) (ofmx A) (omap (@ofcv R m) b) (omap (@ofcv R n) c) dl tol
           i%:Z false clk s = (s', inr (ofcv xi, ofcv (b0 - A *m xi), log_of false clk))) /\
        nth 0 es i = fro (M0^T *m ng xi)].
Proof. move=> b0 c0 ok svd d0; exact: sps2_log_lemma. Qed.
Print Assumptions C77_sps2_log.

Example C77_sps2_run (R : rcfType) (s : st nat R) : exists s1 x y l,
  SPS2 (exact_lapack R) (scale_gen 1) 1 (@PcSS2 R (rcf_ops R)) (ofmx (const_mx 1 : 'M[R]_(2, 1)))
    (Some (ofcv (delta_mx 0 0 : 'cV[R]_2))) None 0 0 5 true (clk0 R) s = (s1, inr (x, y, l)).
Proof. exact: sps2_log_wit. Qed.

(** The hypothesis [sps1_solves] is the conclusion of C33_sps1,
    C33_sps1_nystrom_left and C33_sps1_nystrom_right. *)
Theorem C77_sps1_log (R : rcfType) (G : Type) (L : lapack R) (g : nat -> nat -> M G R (pyop R)) (sf : rat) m n
    (A : 'M[R]_(m, n)) (b : option 'cV[R]_m) (c : option 'cV[R]_n) (dl tol : R) strat lim clk s s' x y l :
  let b0 := if b is Some b then b else 0 in
  let c0 := if c is Some c then c else 0 in
  let rhs := A^T *m b0 - c0 in
  sps1_solves L g sf strat A b c dl tol s -> 0 <= lim ->
  SPS1 L g sf (@PcSS1 R (rcf_ops R)) strat (ofmx A) (omap (@ofcv R m) b) (omap (@ofcv R n) c) dl tol lim true clk s
    = (s', inr (x, y, l)) ->
  exists es, [/\ errors l = Some (fro rhs :: es), (size es <= absz lim)%N /\ (size es <= n)%N &
    forall i, (i < size es)%N -> exists xi : 'cV[R]_n,
      (forall clk, SPS1 L g sf (@PcSS1 R (rcf_ops R)) strat (ofmx A) (omap (@ofcv R m) b) (omap (@ofcv R n) c) dl tol
         i%:Z false clk s = (s', inr (Some (ofcv xi), ofcv (b0 - A *m xi), log_of false clk))) /\
      nth 0 es i = fro (rhs - (A^T *m A + dl%:M) *m xi)].
Proof. exact: sps1_log_lemma. Qed.
Print Assumptions C77_sps1_log.

(** ** C78: starting points of SPS1 and SPS2.  [Hs] is the matrix of the sketched
    normal equations; any [M0] with [M0^T Hs M0 = 1] gives the same norms. *)
Theorem C78_sps1_start (R : rcfType) (G : Type) (L : lapack R) (g : nat -> nat -> M G R (pyop R)) (sf : rat) m n
    (A : 'M[R]_(m, n)) (b : option 'cV[R]_m) (c : option 'cV[R]_n) (dl tol : R) strat s :
  let b0 := if b is Some b then b else 0 in
  let c0 := if c is Some c then c else 0 in
  let rhs := A^T *m b0 - c0 in
  let H := A^T *m A + dl%:M in
  let t := trunc_rat (sf * n%:R) in
  svd_spec L -> \rank A = n \/ 0 < dl -> 0 <= dl -> 0 <= tol ->
  (0 < n)%N -> n%:R < 2%:R ^+ 52 :> R -> n%:Z <= t -> strat <> NOther ->
  gen_ok g (absz t) m ->
  exists s1 Sk (Sm : 'M[R]_(absz t, m)),
  let Hs := (Sm *m A)^T *m (Sm *m A) + dl%:M in
  [/\ g (absz t) m (St (gen s) (rcons (evs s) (EvDraw (absz t) m))) = (s1, inr Sk), py_is Sk Sm &
      Sm *m A <> 0 \/ 0 < dl -> exists x0 : 'cV[R]_n,
      [/\ forall clk, SPS1 L g sf (@PcSS1 R (rcf_ops R)) strat (ofmx A) (omap (@ofcv R m) b) (omap (@ofcv R n) c)
            dl tol 0 false clk s = (s1, inr (Some (ofcv x0), ofcv (b0 - A *m x0), log_of false clk)),
          x0 = 0 \/ exists M0 : 'M[R]_n, [/\ M0^T *m Hs *m M0 = 1%:M, Hs *m x0 = rhs &
            fro (M0^T *m (rhs - H *m x0)) < fro (M0^T *m rhs)] &
          lift_clean L dl (Sm *m A) -> \rank (Sm *m A) = n \/ 0 < dl ->
          forall (M0 : 'M[R]_n) (xs : 'cV[R]_n), M0^T *m Hs *m M0 = 1%:M -> Hs *m xs = rhs ->
            fro (M0^T *m (rhs - H *m xs)) < fro (M0^T *m rhs) -> x0 = xs]].
Proof. move=> b0 c0 rhs H t svd hA d0 t0; exact: sps1_start_lemma. Qed.
Print Assumptions C78_sps1_start.

(** Without [c], SPS2 starts from the minimum-norm solution of the sketched
    problem if that beats the zero vector, and from zero otherwise. *)
Theorem C78_sps2_start (R : rcfType) (G : Type) (L : lapack R) (g : nat -> nat -> M G R (pyop R)) (sf : rat) m n
    (A : 'M[R]_(m, n)) (b : option 'cV[R]_m) (c : option 'cV[R]_n) (dl tol : R) s :
  let b0 := if b is Some b then b else 0 in
  let c0 := if c is Some c then c else 0 in
  let obj p (X : 'M[R]_(p, n)) (r : 'cV[R]_p) x := fro2 (r - X *m x) + dl * fro2 x in
  lsq_ok g sf m n -> svd_spec L -> 0 <= dl -> c0 = 0 ->
  exists s1 d (Sm : 'M[R]_(d, m)) (x0 : 'cV[R]_n),
  [/\ drew g sf n s s1 Sm,
      forall clk, SPS2 L g sf (@PcSS2 R (rcf_ops R)) (ofmx A) (omap (@ofcv R m) b) (omap (@ofcv R n) c) dl tol 0
        false clk s = (s1, inr (ofcv x0, ofcv (b0 - A *m x0), log_of false clk)) &
      lift_clean L dl (Sm *m A) -> forall xs,
      (forall z, obj _ (Sm *m A) (Sm *m b0) xs <= obj _ (Sm *m A) (Sm *m b0) z /\
        (obj _ (Sm *m A) (Sm *m b0) z = obj _ (Sm *m A) (Sm *m b0) xs -> fro2 xs <= fro2 z)) ->
      x0 = if obj _ A b0 xs < fro2 b0 then xs else 0].
Proof. move=> b0 c0 obj ok svd d0; exact: sps2_start_lemma. Qed.
Print Assumptions C78_sps2_start.

(** The result of SPS2 is never worse than zero, for every iteration limit. *)
Theorem C78_sps2_not_worse (R : rcfType) (G : Type) (L : lapack R) (g : nat -> nat -> M G R (pyop R)) (sf : rat) m n
    (A : 'M[R]_(m, n)) (b : option 'cV[R]_m) (c : option 'cV[R]_n) (dl tol : R) s :
  let b0 := if b is Some b then b else 0 in
  let c0 := if c is Some c then c else 0 in
  lsq_ok g sf m n -> svd_spec L -> 0 <= dl ->
  exists s1 d (Sm : 'M[R]_(d, m)), drew g sf n s s1 Sm /\
  forall lim clk, 0 <= lim -> exists x : 'cV[R]_n,
    SPS2 L g sf (@PcSS2 R (rcf_ops R)) (ofmx A) (omap (@ofcv R m) b) (omap (@ofcv R n) c) dl tol lim false clk s =
      (s1, inr (ofcv x, ofcv (b0 - A *m x), log_of false clk)) /\
    (c0 = 0 \/ lift_clean L dl (Sm *m A) /\ (\rank (Sm *m A) = n \/ 0 < dl) ->
     fro2 (b0 - A *m x) + dl * fro2 x + 2%:R * (x^T *m c0) 0 0 <= fro2 b0).
Proof. exact: sps2_not_worse_lemma. Qed.
Print Assumptions C78_sps2_not_worse.

Example C78_hyps (R : rcfType) : [/\ svd_spec (exact_lapack R), lsq_ok (scale_gen (1 : R)) 1 2 1,
  \rank (const_mx 1 : 'M[R]_(2, 1)) = 1%N & lift_clean (exact_lapack R) 0 (1%:M : 'M[R]_1)].
Proof.
split; [exact: exact_svd | exact: scale_lsq_ok | | by apply: lift_clean1 => //; exact: exact_svd].
apply/eqP; rewrite eqn_leq rank_leq_col lt0n mxrank_eq0.
by apply/eqP => /matrixP/(_ 0 0)/eqP; rewrite !mxE oner_eq0.
Qed.
