(** Error logs and starting points of the remaining sketch-and-precondition
    drivers: SPU1, SPS1 and SPS2. *)
From mathcomp Require Import all_ssreflect all_algebra.
From mathcomp Require Import zify.
From Verif Require Import Base Arr Lapack Exact MxLib RingTac LapackSpec Rng Aware LapackExists Pcg P_Pcg Lsqr P_Lsqr P_Iter.
From Verif Require Import Precond LstSq SaddleSys P_Precond P_Svd P_Pcss1 Chol P_LS P_LS2 P_LS3 P_LS4 P_LS5 P_LS6.
Set Implicit Arguments.
Unset Strict Implicit.
Unset Printing Implicit Defensive.
Import Order.TTheory GRing.Theory Num.Theory.
Local Open Scope ring_scope.

(** ** SPU1 *)
Section Spu.
Variables (R : rcfType) (G : Type) (L : lapack R).
Variables (g : nat -> nat -> M G R (pyop R)) (sf : rat) (m n : nat).
Variables (A : 'M[R]_(m, n)) (c : 'cV[R]_n) (tol : R).
Hypotheses (ok : lsq_ok g sf m n) (svd : svd_spec L).
Notation call lim logging clk s := (SPU1 L g sf (ofmx A) (ofcv c) tol lim logging clk s).

Lemma spu_log_lemma lim clk s s' y l : 0 <= lim -> call lim true clk s = (s', inr (y, l)) ->
  exists d (Sm : 'M[R]_(d, m)) k (M0 : 'M[R]_(n, k)) es,
  let err (y : 'cV[R]_m) := fro (A *m M0 *m (M0^T *m (c - A^T *m y))) in
  [/\ drew g sf n s s' Sm, orthonormal (Sm *m A *m M0),
      errors l = Some (err 0 :: es), (size es <= absz lim)%N /\ (size es <= n)%N &
      forall i, (i < size es)%N -> exists yi : 'cV[R]_m,
        (forall clk, call i%:Z false clk s = (s', inr (ofcv yi, log_of false clk))) /\
        nth 0 es i = err yi].
Proof.
move=> l0; have [s1 [d [Sm [dr [bad good]]]]] := spu_lemma A c tol ok svd s.
have [c0|/eqP c0] := eqVneq c 0; first by rewrite bad.
have [k [M0 [[oM _] H]]] := good c0; have [yv [es [E _ _ _ alt]]] := H lim l0.
rewrite E; case: alt => [[_ [-> _]] //|[_ [es1 [-> s1' s2' lg]]]] [<- _ <-].
by exists d, Sm, k, M0, es1.
Qed.
End Spu.

(** ** SPS2 with PcSS2 *)
Section Sps2.
Variables (R : rcfType) (G : Type) (L : lapack R).
Variables (g : nat -> nat -> M G R (pyop R)) (sf : rat) (m n : nat).
Variables (A : 'M[R]_(m, n)) (b : option 'cV[R]_m) (c : option 'cV[R]_n) (dl tol : R).
Hypotheses (ok : lsq_ok g sf m n) (svd : svd_spec L) (dl0 : 0 <= dl).
Let b0 := vdef b.
Let c0 := vdef c.
Let H := A^T *m A + dl%:M.
Notation call lim logging clk s := (SPS2 L g sf (@PcSS2 R (rcf_ops R)) (ofmx A) (omap (@ofcv R m) b)
  (omap (@ofcv R n) c) dl tol lim logging clk s).

Lemma sps2_log_lemma lim clk s s' x y l : 0 <= lim -> call lim true clk s = (s', inr (x, y, l)) ->
  exists d (Sm : 'M[R]_(d, m)) k (M0 : 'M[R]_(n, k)) (Pc : 'M[R]_n) es,
  let ng (x : 'cV[R]_n) := A^T *m b0 - Pc *m c0 - H *m x in
  [/\ drew g sf n s s' Sm,
      exists p (Ab : 'M[R]_(p, n)), lifted (Sm *m A) dl Ab /\ orthonormal (Ab *m M0),
      lift_clean L dl (Sm *m A) -> \rank (Sm *m A) = n \/ 0 < dl -> Pc = 1%:M,
      errors l = Some (fro (M0^T *m ng 0) :: es) /\ ((size es <= absz lim)%N /\ (size es <= n)%N) &
      forall i, (i < size es)%N -> exists xi : 'cV[R]_n,
        (forall clk, call i%:Z false clk s = (s', inr (ofcv xi, ofcv (b0 - A *m xi), log_of false clk))) /\
        nth 0 es i = fro (M0^T *m ng xi)].
Proof.
move=> l0; have [s1 [d [Sm [dr [k [M0 [Pc [x0 [oM PE good]]]]]]]]] := sps2_lemma A b c tol ok svd dl0 s.
have [xv [es [E _ _ _ alt]]] := good lim l0.
rewrite E; case: alt => [[_ [-> _]] //|[_ [es1 [-> s1' s2' lg]]]] [<- _ _ <-].
by exists d, Sm, k, M0, Pc, es1.
Qed.

(** The quadratic objective of the reduced system never exceeds its value at 0. *)
Lemma sps2_le_lemma s : exists s1 d (Sm : 'M[R]_(d, m)) (Pc : 'M[R]_n), [/\ drew g sf n s s1 Sm,
  lift_clean L dl (Sm *m A) -> \rank (Sm *m A) = n \/ 0 < dl -> Pc = 1%:M &
  forall lim clk, 0 <= lim -> exists x : 'cV[R]_n,
    call lim false clk s = (s1, inr (ofcv x, ofcv (b0 - A *m x), log_of false clk)) /\
    fro2 (A *m x) + dl * fro2 x <= fip x (A^T *m b0 - Pc *m c0) *+ 2].
Proof.
have [d [s1 [Sk [Sm [dE gE pS [p [As [k [M0 [Vh [m' [Ab [Sg [ba [start [su run]]]]]]]]]]]]]]]] :=
  sps2_run A b c tol svd (@PcSS2 R (rcf_ops R)) s (lk_shape ok) (lk_sf ok) (lk_gen ok) dl0.
exists s1, d, Sm, (Vh^T *m Vh); split; first by split=> //; exists Sk.
  move=> cl h; have rk : \rank As = n by apply/(lifted_rank dl0 (s2_l su)).
  apply/matrixP => i j; have [W WE] := full_rng (1%:M : 'M[R]_n) rk.
  have dj : As^T *m col j W = delta_mx j 0 by rewrite colE mulmxA -WE mul1mx.
  have := s2_V su (col j W) (fun U0 s0 Vh0 => cl _ U0 s0 Vh0 (s2_a su)).
  rewrite dj mulmxA -colE => /colP/(_ i).
  by rewrite [LHS]mxE => ->; rewrite !mxE eqxx andbT.
move=> lim clk l0; have [out [x [E [xE RE] le _ _]]] := sps2_callP tol su dl0 l0.
exists x; split; first by rewrite (run lim false clk _ _ E xE RE).
rewrite -(lf_norm (s2_l' su)).
move: le; rewrite fro2B -addrA ger_addl addrC subr_le0 mulr_natl.
have -> : fip ba (Ab *m x) = fip x (A^T *m b0 - Vh^T *m Vh *m c0).
  by rewrite -mulmxA -(s2_b su) fipC /fip trmx_mul -mulmxA.
by [].
Qed.
End Sps2.

(** The minimum-norm minimiser is unique. *)
Section Uniq.
Variable R : rcfType.
Add Field uniq_field : (rcf_field R).

Lemma half_half : 2%:R^-1 + 2%:R^-1 = 1 :> R.
Proof. by rewrite -mulr2n -[_ *+ 2]mulr_natr mulVf // pnatr_eq0. Qed.

Lemma fro2_mid m n (x y : 'M[R]_(m, n)) :
  fro2 (2%:R^-1 *: (x + y)) = (fro2 x + fro2 y) / 2%:R - fro2 (x - y) / 4%:R.
Proof.
rewrite fro2Z fro2D fro2B; have -> : 4%:R = 2%:R * 2%:R :> R by rewrite -natrM.
rewrite invfM; have : 2%:R^-1 + 2%:R^-1 = 1 :> R := half_half.
move: (2%:R^-1 : R) => h h1; rewrite -[(_ + _) * h]mulr1 -h1; rring.
Qed.

Lemma ridge_min_uniq p n (A : 'M[R]_(p, n)) (b : 'cV[R]_p) (dl : R) (x y : 'cV[R]_n) : 0 <= dl ->
  ridge_min A b dl x -> ridge_min A b dl y -> x = y.
Proof.
move=> d0 mx my; pose z := 2%:R^-1 *: (x + y).
have exy : fro2 (b - A *m y) + dl * fro2 y = fro2 (b - A *m x) + dl * fro2 x.
  by apply/eqP; rewrite eq_le (mx y).1 (my x).1.
have nxy : fro2 y = fro2 x.
  by apply/eqP; rewrite eq_le (mx y).2 // (my x).2 ?exy.
have bz : b - A *m z = 2%:R^-1 *: ((b - A *m x) + (b - A *m y)).
  rewrite /z -scalemxAr mulmxDr addrACA -opprD [RHS]scalerDr scalerN; congr (_ - _).
  by rewrite scalerDr -scalerDl half_half scale1r.
have rD : (b - A *m x) - (b - A *m y) = - (A *m (x - y)) by rewrite opprB addrC addrA subrK mulmxBr opprB.
have fz : fro2 (b - A *m z) + dl * fro2 z =
    fro2 (b - A *m x) + dl * fro2 x - (fro2 (A *m (x - y)) + dl * fro2 (x - y)) / 4%:R.
  rewrite bz !fro2_mid rD fro2N nxy.
  have -> : fro2 (b - A *m y) = fro2 (b - A *m x) by move: exy; rewrite nxy => /addIr.
  have hE (t : R) : (t + t) / 2%:R = t by rewrite mulrDl -mulrDr half_half mulr1.
  by rewrite !hE; move: (4%:R^-1 : R) => q; rring.
have [le eqn] := mx z.
have q0 : fro2 (A *m (x - y)) + dl * fro2 (x - y) = 0.
  apply/eqP; rewrite eq_le addr_ge0 ?mulr_ge0 ?fro2_ge0 // andbT.
  by move: le; rewrite fz ler_addl oppr_ge0 pmulr_lle0 // invr_gt0 ltr0n.
have := eqn; rewrite fz q0 mul0r subr0 => /(_ erefl).
rewrite fro2_mid nxy -mulr2n -(mulr_natr (fro2 x)) mulfK ?pnatr_eq0 // ler_addl oppr_ge0.
rewrite pmulr_lle0 ?invr_gt0 ?ltr0n // => le0; apply/eqP; rewrite -subr_eq0 -fro2_eq0.
by rewrite eq_le le0 fro2_ge0.
Qed.
End Uniq.

(** ** Starting point of SPS2, when c is absent or zero *)
Section Sps2Start.
Variables (R : rcfType) (G : Type) (L : lapack R).
Variables (g : nat -> nat -> M G R (pyop R)) (sf : rat) (m n : nat).
Variables (A : 'M[R]_(m, n)) (b : option 'cV[R]_m) (c : option 'cV[R]_n) (dl tol : R).
Hypotheses (ok : lsq_ok g sf m n) (svd : svd_spec L) (dl0 : 0 <= dl).
Let b0 := vdef b.
Let c0 := vdef c.
Notation call lim logging clk s := (SPS2 L g sf (@PcSS2 R (rcf_ops R)) (ofmx A) (omap (@ofcv R m) b)
  (omap (@ofcv R n) c) dl tol lim logging clk s).

Lemma sps2_start_lemma s : c0 = 0 -> exists s1 d (Sm : 'M[R]_(d, m)) (x0 : 'cV[R]_n),
  [/\ drew g sf n s s1 Sm,
      forall clk, call 0 false clk s = (s1, inr (ofcv x0, ofcv (b0 - A *m x0), log_of false clk)) &
      lift_clean L dl (Sm *m A) ->
      forall xs, ridge_min (Sm *m A) (Sm *m b0) dl xs ->
        x0 = if ridge A b0 dl xs < fro2 b0 then xs else 0].
Proof.
move=> cz.
have [d [s1 [Sk [Sm [dE gE pS [p [As [k [M0 [Vh [m' [Ab [Sg [ba [start [su run]]]]]]]]]]]]]]]] :=
  sps2_run A b c tol svd (@PcSS2 R (rcf_ops R)) s (lk_shape ok) (lk_sf ok) (lk_gen ok) dl0.
have [out [x [E [xE RE] _ /(_ erefl) x0E _]]] := sps2_callP tol su dl0 (lexx 0).
exists s1, d, Sm, x; split; first by split=> //; exists Sk.
  by move=> clk; rewrite (run 0 false clk _ _ E xE RE).
move=> cl xs mn; have cl' : svd_clean L As by move=> U0 s0 Vh0; exact: cl _ _ _ _ (s2_a su).
have ss := s2_ss su; have [W WE] := ss_rng ss.
pose z := (As *m M0)^T *m (Sg *m ba).
have mz : ridge_min (Sm *m A) (Sm *m b0) dl (M0 *m z).
  apply: (ridge_minP (w := W *m z) (s2_l su) (s2_sb su cz)); last by rewrite mulmxA -WE.
  apply: (pc_grad ltr01 (embeds_refl As) (ss_orth ss) (ss_rng ss) (ss_rank ss cl')).
  by rewrite mulmxBr [As *m (M0 *m z)]mulmxA [X in _ - X]mulmxA (ss_orth ss) mul1mx subrr.
rewrite -(ridge_min_uniq dl0 mz mn) x0E (s2_st su) -/z.
have lB := s2_b0 su cz.
have bE : fro2 ba = fro2 b0 by have := lb_obj lB 0; rewrite !mulmx0 !subr0 fro20 mulr0 addr0.
rewrite fro_le bE (lb_obj lB) -/b0 -/(ridge A b0 dl (M0 *m z)) ltNge.
by case: (_ <= _); rewrite /lsqr_x0 ?mulmx0.
Qed.
End Sps2Start.

(** ** SPS1 with PcSS1 *)
Section Sps1.
Variables (R : rcfType) (G : Type) (L : lapack R).
Variables (g : nat -> nat -> M G R (pyop R)) (sf : rat) (m n : nat).
Variables (A : 'M[R]_(m, n)) (b : option 'cV[R]_m) (c : option 'cV[R]_n) (dl tol : R).
Hypotheses (svd : svd_spec L).
Hypotheses (hA : \rank A = n \/ 0 < dl) (dl0 : 0 <= dl) (tol0 : 0 <= tol).
Let b0 := vdef b.
Let c0 := vdef c.
Let H := A^T *m A + dl%:M.
Let rhs := A^T *m b0 - c0.
Let t := trunc_rat (sf * n%:R).
Notation call strat lim logging clk s := (SPS1 L g sf (@PcSS1 R (rcf_ops R)) strat (ofmx A) (omap (@ofcv R m) b)
  (omap (@ofcv R n) c) dl tol lim logging clk s).

Lemma sps1_log_lemma strat lim clk s s' x y l : sps1_solves L g sf strat A b c dl tol s -> 0 <= lim ->
  call strat lim true clk s = (s', inr (x, y, l)) ->
  exists es, [/\ errors l = Some (fro rhs :: es), (size es <= absz lim)%N /\ (size es <= n)%N &
    forall i, (i < size es)%N -> exists xi : 'cV[R]_n,
      (forall clk, call strat i%:Z false clk s =
         (s', inr (Some (ofcv xi), ofcv (b0 - A *m xi), log_of false clk))) /\
      nth 0 es i = fro (rhs - H *m xi)].
Proof.
move=> [s1 [x0 Hs]] l0; have [xv [es [E [z1 z2] _ _ [_ lg]]]] := Hs lim l0.
by rewrite E => -[<- _ _ <-]; exists es.
Qed.

(** The inner product of the sketched problem determines the preconditioned norm. *)
Lemma sk_norm (M0 M1 Hs : 'M[R]_n) (v : 'cV[R]_n) : M0^T *m Hs *m M0 = 1%:M -> M1^T *m Hs *m M1 = 1%:M ->
  fro (M0^T *m v) = fro (M1^T *m v).
Proof.
have key (N : 'M[R]_n) : N^T *m Hs *m N = 1%:M -> N *m N^T *m Hs = 1%:M.
  by move=> e; rewrite -mulmxA; apply: mulmx1C.
have inv (N : 'M[R]_n) : N^T *m Hs *m N = 1%:M -> Hs *m (N *m N^T) = 1%:M.
  by move=> /key e; apply: mulmx1C.
move=> /key e0 /inv e1.
have -> : fro (M0^T *m v) = fro (M1^T *m v); last by [].
rewrite /fro !fro2_cv !trmx_mul !trmxK -!mulmxA; congr (Num.sqrt ((_ *m _) _ _)).
rewrite !mulmxA; congr (_ *m _).
by rewrite -[M0 *m M0^T]mulmx1 -e1 mulmxA e0 mul1mx.
Qed.

Lemma sps1_start_lemma strat s : (0 < n)%N -> n%:R < 2%:R ^+ 52 :> R -> n%:Z <= t -> strat <> NOther ->
  gen_ok g (absz t) m ->
  exists s1 Sk (Sm : 'M[R]_(absz t, m)),
  let Hs := (Sm *m A)^T *m (Sm *m A) + dl%:M in
  [/\ g (absz t) m (St (gen s) (rcons (evs s) (EvDraw (absz t) m))) = (s1, inr Sk), py_is Sk Sm &
      Sm *m A <> 0 \/ 0 < dl -> exists x0 : 'cV[R]_n,
      [/\ forall clk, call strat 0 false clk s =
            (s1, inr (Some (ofcv x0), ofcv (b0 - A *m x0), log_of false clk)),
          x0 = 0 \/ exists M0 : 'M[R]_n, [/\ M0^T *m Hs *m M0 = 1%:M, Hs *m x0 = rhs &
            fro (M0^T *m (rhs - H *m x0)) < fro (M0^T *m rhs)] &
          lift_clean L dl (Sm *m A) -> \rank (Sm *m A) = n \/ 0 < dl ->
          forall (M0 : 'M[R]_n) (xs : 'cV[R]_n), M0^T *m Hs *m M0 = 1%:M -> Hs *m xs = rhs ->
            fro (M0^T *m (rhs - H *m xs)) < fro (M0^T *m rhs) -> x0 = xs]].
Proof.
move=> n0 n52 nt sO gok.
have [s1 [Sk [Sm [p [As [k [M0 [U [sg [Vh [zo [[gE pS] [lA aE] [sp ss] gp [zE run]]]]]]]]]]]]] :=
  sps1_full A b c tol svd (@PcSS1 R (rcf_ops R)) s n0 nt dl0 sO gok.
exists s1, Sk, Sm; split=> // h; have {gp}gp := gp n52 h.
pose z := diag_mx (vinv sg)^T *m (Vh *m rhs).
have sn i : sg i 0 != 0 by rewrite gt_eqF ?(sp_s sp).
have [x [es [P' [E sz _ _]]]] := @pcss1_good R m n A (Some b0) c dl tol 0 k M0 zo dl0 hA gp (lexx 0) tol0.
have [x' [es' [xx ee _ nil _]]] := @pcss1_log R m n A (Some b0) c dl tol 0 k M0 zo _ (or_intror gp) dl0 E.
case: xx => /ofcv_inj xx; case: ee => ee; subst x' es'.
have sl : es = [::].
  have [_ [? [_ _ [es' [[<-] le]]]]] := @pcss1_y R m n A (Some b0) c dl tol 0 _ _ _ _ E.
  by move: le; rewrite leqn0 size_eq0 => /eqP.
have {nil} xE := nil sl.
exists x.
have fN (v : 'cV[R]_n) : fro (M0^T *m (H *m v - rhs)) = fro (M0^T *m (rhs - H *m v)).
  by rewrite -opprB mulmxN /fro fro2N.
have gram : As^T *m As = (Sm *m A)^T *m (Sm *m A) + dl%:M := lf_gram lA.
have full : k = n -> (As^T *m As) *m (M0 *m z) = rhs.
  move=> kn.
  have rk : \rank As = k.
    apply/eqP; rewrite eqn_leq {1}kn rank_leq_col -(orthonormal_rank (sp_U sp)) -(sp_AM sp).
    exact: mxrankM_maxl.
  have VV : Vh^T *m Vh = 1%:M.
    by have := sp_V sp; rewrite /orthonormal trmxK; clear -kn; subst k => /mulmx1C.
  have UtA : As^T *m U = Vh^T *m diag_mx sg^T.
    by have := congr1 trmx (sp_UA sp); rewrite !trmx_mul trmxK tr_diag_mx.
  rewrite -mulmxA [As *m _]mulmxA (sp_AM sp) [As^T *m _]mulmxA UtA /z.
  rewrite -[Vh^T *m _ *m _]mulmxA [diag_mx _ *m (diag_mx _ *m _)]mulmxA diag_vinv // mul1mx.
  by rewrite mulmxA VV mul1mx.
split.
- by move=> clk; rewrite run E.
- rewrite xE; have [kn|] := eqVneq k n; last by left.
  move: xE; rewrite {}zE /=; case: (boolP (_ <= _)) => hz xE; [by left | right].
  have fE := full kn.
  clear -kn hz fE gram fN sp; subst k; exists M0; split; rewrite -?gram //.
    by have := sp_U sp; rewrite /orthonormal -(sp_AM sp) trmx_mul !mulmxA.
  by rewrite -fN ltNge -/z hz.
move=> cl h' M1 xs M1E xsE lt.
have rkn : \rank As = n by apply/(lifted_rank dl0 lA).
have kn : k = n by rewrite -(ss_rank ss) // => U0 s0 Vh0; exact: cl _ _ _ _ aE.
have fE := full kn.
have xz : xs = M0 *m z.
  have uG := gram_unit rkn.
  by rewrite -(mulKmx uG xs) gram xsE -fE gram mulKmx // -gram.
have nle : ~~ (fro (M0^T *m rhs) <= fro (M0^T *m (H *m (M0 *m z) - rhs))).
  rewrite -ltNge fN -xz.
  have M0E : M0^T *m (As^T *m As) *m M0 = 1%:M.
    by have := sp_U sp; rewrite /orthonormal -(sp_AM sp) trmx_mul !mulmxA.
  rewrite -gram in M1E.
  clear -M0E M1E kn lt; subst k.
  by rewrite !(sk_norm _ M0E M1E).
by rewrite xE (introT eqP kn) xz zE /=; case: ifP => // hz; case/negP: nle.
Qed.
End Sps1.

(** * Witnesses *)
Section Wit.
Variable R : rcfType.
Notation XL := (exact_lapack R).

Lemma drew_scale (cc : R) (sf : rat) n s s1 d m (Sm : 'M[R]_(d, m)) :
  drew (scale_gen cc) sf n s s1 Sm -> Sm = cc *: \matrix_(i, j) (i == j :> nat)%:R.
Proof.
case=> _ [Sk [gE pS]]; move: gE; rewrite /scale_gen /ret => -[_ sk].
have := py_r pS 1%:M; rewrite -sk /= mmulE => e.
by have := ofmx_inj (ok_inj e : ofmx _ = ofmx _); rewrite !mulmx1.
Qed.

(** A single column is never affected by the cut-off. *)
Lemma svd_clean1 (L : lapack R) p (As : 'M[R]_(p, 1)) : svd_spec L -> (0 < p)%N -> svd_clean L As.
Proof.
move=> svd p0 U0 s0 Vh0; have [U [s [Vh [[-> _ _ _] [s_ge _]]]]] := svd _ _ As p0 (isT : (0 < 1)%N).
have m1 : minn p 1 = 1%N by rewrite (minn_idPr p0).
case=> _ <- _ t /(nthP 0)[i]; rewrite size_ofcv => lt <-.
have i0 : i = 0%N by rewrite m1 in lt; lia.
subst i.
have := s_ge (Ordinal lt); have := ev_ofcv s (Ordinal lt); rewrite /ev /= => ->.
rewrite le_eqVlt => /orP[/eqP <-|sp]; [by left | right].
rewrite mulr1 gtr_pmulr // invf_lt1 ?exprn_gt0 ?ltr0n //.
by rewrite exprn_egt1 // ltr1n.
Qed.

Lemma lift_clean1 (L : lapack R) (dl : R) p (As : 'M[R]_(p, 1)) : svd_spec L -> (0 < p)%N -> 0 <= dl ->
  lift_clean L dl As.
Proof.
move=> svd p0 d0 X U0 s0 Vh0.
have [q [Ab [_ [[_ _ _ aE qE] _]]]] := a_lift_precondP As d0 (is_pc_dense (0 : 'M[R]_(1, 0))).
rewrite aE => -[<-]; apply: (svd_clean1 svd).
by move: qE; case: ltP => _ ->; rewrite ?addn_gt0 p0.
Qed.

Lemma embed1 : (1 ^ 2)%:R * 1 < 2%:R^-1 * (10%:R ^+ 8 - 1) ^+ 2 :> R.
Proof.
have h : 10%:R <= 10%:R ^+ 8 :> R by rewrite -{1}[10%:R]expr1 ler_eexpn2l ?ltr1n.
rewrite exp1n mulr1 ltr_pdivl_mull ?ltr0n // mulr1.
have h9 : 9%:R <= 10%:R ^+ 8 - 1 :> R by rewrite ler_subr_addr -(natrD _ 9 1).
apply: (@lt_le_trans _ _ (9%:R ^+ 2)); first by rewrite -natrX ltr_nat.
by rewrite ler_pexpn2r ?nnegrE ?ler0n // (le_trans _ h9) ?ler0n.
Qed.

Lemma spu_log_wit (s : st nat R) : exists s1 y l,
  SPU1 XL (scale_gen 1) 1 (ofmx (1%:M : 'M[R]_1)) (ofcv (4%:R%:M : 'cV[R]_1)) 0 5 true (clk0 R) s = (s1, inr (y, l)).
Proof.
have ok : lsq_ok (scale_gen (1 : R)) 1 1 1 by exact: scale_lsq_ok.
have [s1 [d [Sm [dr [_ good]]]]] := spu_lemma 1%:M (4%:R%:M : 'cV[R]_1) 0 ok (@exact_svd R) s.
have c0 : (4%:R%:M : 'cV[R]_1) <> 0.
  by move=> /matrixP/(_ 0 0)/eqP; rewrite !mxE /= mulr1n pnatr_eq0.
have [k [M0 [_ H]]] := good c0; have [y [es [E _ _ ex alt]]] := H 5 isT.
case: alt => [[_ [_ y0]]|[_ [es1 [eE _ _ _]]]]; last first.
  exists s1; rewrite E eE /log_ret.
  have [l [ts [wE _ _ _ _]]] := wrap_up_lemma (@log_of R (rcf_ops R) true (clk0 R)) es1
    (fro (1%:M *m M0 *m (M0^T *m (4%:R%:M - 1%:M^T *m 0)))).
  by exists (ofcv y), l; rewrite wE.
have d1 : d = 1%N by have [] := dr; rewrite mul1r (@trunc_rat_uniq _ 1) // => -[].
have SmE := drew_scale dr; subst d.
have S1 : Sm = 1%:M by rewrite SmE scale1r; apply/matrixP => i j; rewrite !ord1 !mxE.
have em : embeds (Sm *m 1%:M) (1%:M : 'M[R]_1) 1 1 by rewrite S1 mulmx1 => v; rewrite mul1r lexx.
have cl : svd_clean XL (Sm *m 1%:M) by apply: svd_clean1 => //; exact: exact_svd.
have cnd : (1 ^ 2)%:R * 1 < 1 * (10%:R ^+ 8 - 1) ^+ 2 :> R.
  apply: lt_le_trans embed1 _; rewrite ler_wpmul2r ?sqr_ge0 // invf_le1 ?ler1n ?ltr0n //.
have [le _] := ex 1 1 em ltr01 ltr01 cnd cl (lexx 0) isT (4%:R%:M).
move: le; rewrite y0 !mul0r !addr0 trmx1 !mul1mx subr0 subrr fro20 => le.
by case: c0; apply/eqP; rewrite -fro2_eq0 eq_le le fro2_ge0.
Qed.

(** Two equations for one unknown, of which the sketch keeps the first. *)
Let A2 : 'M[R]_(2, 1) := const_mx 1.
Let b2 : 'cV[R]_2 := delta_mx 0 0.

Lemma fro2_row2 (x y : R) : fro2 (\col_(i < 2) (if i == 0 then x else y)) = x ^+ 2 + y ^+ 2.
Proof. by rewrite fro2_cv mxE big_ord_recl big_ord1 !mxE /= -!expr2. Qed.

Lemma sps2_log_wit (s : st nat R) : exists s1 x y l,
  SPS2 XL (scale_gen 1) 1 (@PcSS2 R (rcf_ops R)) (ofmx A2) (Some (ofcv b2)) None 0 0 5 true (clk0 R) s =
  (s1, inr (x, y, l)).
Proof.
have ok : lsq_ok (scale_gen (1 : R)) 1 2 1 by exact: scale_lsq_ok.
have svd : svd_spec XL := @exact_svd R.
have [s1 [d [Sm [dr [k [M0 [Pc [x0 [_ _ H]]]]]]]]] := sps2_lemma A2 (Some b2) None 0 ok svd (lexx 0) s.
have [x [es [E _ _ ex alt]]] := H 5 isT.
case: alt => [[_ [_ xx]]|[_ [es1 [eE _ _ _]]]]; last first.
  exists s1; rewrite E eE /log_ret.
  have [l [ts [wE _ _ _ _]]] := wrap_up_lemma (@log_of R (rcf_ops R) true (clk0 R)) es1
    (fro (M0^T *m (A2^T *m vdef (Some b2) - Pc *m vdef None - (A2^T *m A2 + 0%:M) *m 0))).
  by exists (ofcv x), (ofcv (b2 - A2 *m x)), l; rewrite wE.
have d1 : d = 1%N by have [] := dr; rewrite mul1r (@trunc_rat_uniq _ 1) // => -[].
have SmE := drew_scale dr; subst d.
have S1 : Sm *m A2 = 1%:M.
  rewrite SmE scale1r; apply/matrixP => i j; rewrite !ord1 !mxE big_ord_recl big_ord1 !mxE /=.
  by rewrite mul1r mul0r addr0.
have Sb : Sm *m b2 = 1%:M.
  rewrite SmE scale1r; apply/matrixP => i j; rewrite !ord1 !mxE big_ord_recl big_ord1 !mxE /=.
  by rewrite mul1r mul0r addr0.
have cl : lift_clean XL 0 (Sm *m A2) by exact: lift_clean1.
have colE (v : 'cV[R]_1) : A2 *m v = \col_(i < 2) (if i == 0 then v 0 0 else v 0 0).
  by apply/colP => i; rewrite !mxE big_ord1 !mxE mul1r if_same.
have bE (v : 'cV[R]_1) : b2 - A2 *m v = \col_(i < 2) (if i == 0 then 1 - v 0 0 else - v 0 0).
  by apply/colP => i; rewrite colE !mxE andbT; case: (i == 0); rewrite ?mul0rn ?add0r.
have em : embeds (Sm *m A2) A2 2%:R^-1 1.
  move=> v; rewrite S1 mul1mx mul1r colE fro2_row2 -mulr2n -(mulr_natl (_ ^+ 2)) mulKf ?pnatr_eq0 //.
  have -> : fro2 v = v 0 0 ^+ 2 by rewrite fro2_cv mxE big_ord1 mxE -expr2.
  by rewrite lexx /= mulr_natl mulr2n ler_addl sqr_ge0.
have h2 : 0 < (2%:R^-1 : R) <= 1 by rewrite invr_gt0 ltr0n invf_le1 ?ltr0n ?ler1n.
have hc : (0 : R) < 0 \/ exists e, vdef None = A2^T *m e by right; exists 0; rewrite mulmx0.
have [sd _] := ex _ _ em h2 (lexx 1) embed1 cl (lexx 0) isT hc.
have /saddleP nE := sd.
have [s2 [d2 [Sm2 [x2 [dr2 E2 st]]]]] := sps2_start_lemma A2 (Some b2) (c := None) 0 ok svd (lexx 0) s erefl.
have d21 : d2 = 1%N by have [] := dr2; rewrite mul1r (@trunc_rat_uniq _ 1) // => -[].
have Sm2E := drew_scale dr2; subst d2; rewrite -SmE in Sm2E; subst Sm2.
have [x3 [es3 [E3 _ /(_ erefl) x3E _ _]]] := H 0 isT.
have x20 : x2 = x0.
  have e2 := E2 (clk0 R); rewrite E3 in e2.
  have [_ /(congr1 fst) /= e] := log_ret_inv e2.
  by rewrite -x3E; apply/esym; exact: ofcv_inj e.
have mn : ridge_min (Sm *m A2) (Sm *m b2) 0 (1%:M : 'cV[R]_1).
  rewrite S1 Sb => z; rewrite mul1mx subrr fro20 add0r !mul0r addr0 fro2_ge0; split=> //.
  move/eqP; rewrite fro2_eq0 subr_eq0 mul1mx => /eqP <-.
  by [].
have := st cl _ mn; rewrite /ridge /= bE fro2_row2 mul0r addr0 !mxE /= subrr expr0n sqrrN expr1n add0r.
have -> : fro2 b2 = 1.
  by have := fro2_row2 1 0; rewrite expr1n expr0n addr0 => <-; congr fro2; apply/colP => i; rewrite !mxE andbT; case: (i == 0).
rewrite ltxx x20 => x00; move: nE; rewrite xx x00 mulmx0 subr0 => /esym/matrixP/(_ 0 0)/eqP.
by rewrite !mxE big_ord_recl big_ord1 !mxE /= mul1r mulr0 addr0 oner_eq0.
Qed.
End Wit.

Section Forms.
Variable R : rcfType.
Add Field forms_field : (rcf_field R).

Lemma sps2_not_worse_lemma (G : Type) (L : lapack R) (g : nat -> nat -> M G R (pyop R)) (sf : rat) m n
    (A : 'M[R]_(m, n)) (b : option 'cV[R]_m) (c : option 'cV[R]_n) (dl tol : R) s :
  lsq_ok g sf m n -> svd_spec L -> 0 <= dl ->
  exists s1 d (Sm : 'M[R]_(d, m)), drew g sf n s s1 Sm /\
  forall lim clk, 0 <= lim -> exists x : 'cV[R]_n,
    SPS2 L g sf (@PcSS2 R (rcf_ops R)) (ofmx A) (omap (@ofcv R m) b) (omap (@ofcv R n) c) dl tol lim false clk s =
      (s1, inr (ofcv x, ofcv (vdef b - A *m x), log_of false clk)) /\
    (vdef c = 0 \/ lift_clean L dl (Sm *m A) /\ (\rank (Sm *m A) = n \/ 0 < dl) ->
     fro2 (vdef b - A *m x) + dl * fro2 x + 2%:R * (x^T *m vdef c) 0 0 <= fro2 (vdef b)).
Proof.
move=> ok svd d0; have [s1 [d [Sm [Pc [dr PE H]]]]] := sps2_le_lemma A b c tol ok svd d0 s.
exists s1, d, Sm; split=> // lim clk l0; have [x [E le]] := H lim clk l0; exists x; split=> // h.
have {le} : fro2 (A *m x) + dl * fro2 x <= fip x (A^T *m vdef b - vdef c) *+ 2.
  by apply: le_trans le _; case: h => [-> |[cl rk]]; rewrite ?mulmx0 // (PE cl rk) mul1mx.
have xcE : (x^T *m vdef c) 0 0 = fip x (vdef c) by rewrite /fip /mxtrace big_ord1.
have xbE : fip (vdef b) (A *m x) = fip x (A^T *m vdef b) by rewrite fipC /fip trmx_mul -mulmxA.
rewrite fro2B xcE xbE.
have -> : fip x (A^T *m vdef b - vdef c) = fip x (A^T *m vdef b) - fip x (vdef c).
  by rewrite /fip mulmxBr raddfB.
move: (fip x (A^T *m vdef b)) (fip x (vdef c)) (fro2 (A *m x)) (dl * fro2 x) (fro2 (vdef b)) => u v q w t le.
have E0 : t - (t - 2%:R * u + q + w + 2%:R * v) = (u - v) *+ 2 - (q + w).
  by rewrite -mulr_natl; rring.
by rewrite -subr_ge0 E0 subr_ge0.
Qed.
End Forms.
