(** The log, and the statements about complete driver calls. *)
From mathcomp Require Import all_ssreflect all_algebra.
From mathcomp Require Import zify.
From Verif Require Import Base Arr Lapack Exact MxLib RingTac LapackSpec Rng Aware Pcg P_Pcg Lsqr P_Lsqr P_Iter.
From Verif Require Import Precond LstSq SaddleSys P_Precond P_Svd P_Pcss1 Chol P_LS P_LS2 P_LS3 P_LS4.
Set Implicit Arguments.
Unset Strict Implicit.
Unset Printing Implicit Defensive.
Import Order.TTheory GRing.Theory Num.Theory.
Local Open Scope ring_scope.

Section Wrap.
Variable R : rcfType.

Lemma wrap_up_lemma (l : @splog R) (es : seq R) (init : R) :
  exists l' ts,
  [/\ wrap_up l (EArr es) init = Ok l', errors l' = Some (init :: es), times l' = Some ts,
      [/\ size ts = (size es).+1, nth 0 ts 0 = time_setup l,
        (0 < size es)%N -> nth 0 ts 1 = time_setup l + time_presolve l &
        (1 < size es)%N -> nth 0 ts (size es) = time_setup l + time_presolve l + time_iterate l] &
      0 <= time_presolve l -> 0 <= time_iterate l ->
      forall i j, (i <= j)%N -> (j <= size es)%N -> nth 0 ts i <= nth 0 ts j].
Proof.
pose (ts := time_setup l :: [seq time_setup l + time_presolve l + t | t <- linspace0 (time_iterate l) (size es)]).
exists (SpLog (time_sketch l) (time_factor l) (time_convert l) (time_presolve l)
            (time_iterate l) (Some ts) (Some (init :: es))), ts.
pose num := size es; pose st := time_iterate l.
have lsz : size (@linspace0 R (rcf_ops R) st num) = num by rewrite size_mkseq.
have lE i : (i < num)%N -> nth 0 (@linspace0 R (rcf_ops R) st num) i = (if (num == 1)%N then 0 else i%:R * (st / num.-1%:R)).
  move=> lt; rewrite nth_mkseq //= !onatE.
  case: (ltnP 1 num) => n1 /=; last by rewrite (_ : num == 1%N) //; lia.
  have -> : (num == 1)%N = false by lia.
  case: eqP => // ->; rewrite mulrCA divff ?mulr1 // pnatr_eq0; lia.
have tE i : (i < num)%N -> nth 0 ts i.+1 = @time_setup R (rcf_ops R) l + time_presolve l + nth 0 (@linspace0 R (rcf_ops R) st num) i.
  by move=> lt; rewrite /= (nth_map 0) ?lsz.
split=> //.
  split=> //; first by rewrite /= size_map lsz.
    by move=> p0; rewrite tE // lE //; case: eqP; rewrite ?mul0r ?addr0.
  move=> k1; rewrite -[in nth _ ts _](ltn_predK k1) tE; last by rewrite /num; lia.
  rewrite lE; last by rewrite /num; lia.
  have -> : (num == 1)%N = false by rewrite /num; lia.
  by rewrite -/num mulrCA divff ?mulr1 // pnatr_eq0 /num; lia.
move=> p0 s0 [|i] [|j] // ij jn; last first.
  have jn' : (j < num)%N by []. have in' : (i < num)%N by lia.
  rewrite !tE // !lE // ler_add2l; case: eqP => // _; rewrite ler_wpmul2r ?ler_nat //.
  by rewrite divr_ge0 ?ler0n.
rewrite tE // lE // -addrA ler_addl addr_ge0 //.
by case: eqP => // _; rewrite mulr_ge0 ?divr_ge0 ?ler0n.
Qed.
End Wrap.

(** ** SPO: complete calls *)
Section SpoCall.
Variables (R : rcfType) (G : Type) (L : lapack R).
Variables (g : nat -> nat -> M G R (pyop R)) (sf : rat) (md : spo_mode) (m n : nat).
Variables (A : 'M[R]_(m, n)) (b : 'cV[R]_m) (dl tol : R).

(** Admissible shapes and sketching operators. *)
Record lsq_ok : Prop := LsqOk {
  lk_shape : (0 < n <= m)%N;
  lk_sf : n%:Z <= trunc_rat (sf * n%:R);
  lk_gen : forall d, (n <= d <= m)%N -> gen_ok g d m }.

(** The sketch a call in state [s] draws: dimension, operator, state after. *)
Definition drew (s s1 : st G R) d (Sm : 'M[R]_(d, m)) : Prop :=
  d%:Z = Num.min (trunc_rat (sf * n%:R)) m%:Z /\
  exists Sk, g d m (St (gen s) (evs s ++ dim_warns R sf m n ++ [:: EvDraw d m])) = (s1, inr Sk) /\
    py_is Sk Sm.

Hypotheses (ok : lsq_ok) (qr : qr_spec L) (svd : svd_spec L) (dl0 : 0 <= dl) (mO : md <> MOther).
Notation call lim logging clk s := (SPO L g sf md (ofmx A) (ofcv b) dl tol lim logging clk s).

Definition uniq_min p (As : 'M[R]_(p, n)) := \rank As = n \/ 0 < dl.

Record spo_start_ok d (Sm : 'M[R]_(d, m)) (x0 : 'cV[R]_n) : Prop := SpoStartOk {
  so_le : ridge A b dl x0 <= fro2 b;
  so_min : sketch_clean L md dl (Sm *m A) ->
    x0 = 0 \/ [/\ ridge_min (Sm *m A) (Sm *m b) dl x0, (b = 0 \/ ridge A b dl x0 < fro2 b) &
               (uniq_min (Sm *m A) \/ ridge A b dl x0 <= (10%:R ^- 15) ^+ 2 * fro2 b)];
  so_used : sketch_clean L md dl (Sm *m A) -> uniq_min (Sm *m A) ->
    forall xs, ridge_min (Sm *m A) (Sm *m b) dl xs -> ridge A b dl xs < fro2 b -> x0 = xs }.

Lemma su_start d (Sm : 'M[R]_(d, m)) p (Ab : 'M[R]_(p, n)) bb P k (M0 : 'M[R]_(n, k)) z start m'
    (Ab' : 'M[R]_(m', n)) bb' op :
  spo_setup L md A b dl Sm Ab bb P M0 z start Ab' bb' op -> spo_start_ok Sm (M0 *m lsqr_x0 start).
Proof using dl0 mO.
move=> su; have f := su_f su.
have rkA : \rank Ab = n <-> uniq_min (Sm *m A) := lifted_rank dl0 (su_l su).
split; first exact: su_x0_le su dl0.
  move=> cl; case: (su_x0 su dl0) => [->|[xE lt ac]]; [by left | right].
  split; first by rewrite xE; exact: su_min su mO cl.
    by move: lt; case: eqP => [|_]; [left | right].
  by case: ac => [kn|]; [left; apply/rkA; rewrite (su_rank su mO cl) | right].
move=> cl /rkA rk xs mn lt.
have kn : k = n by rewrite -(su_rank su mO cl).
have m0 := su_min su mO cl.
have e0 : xs = M0 *m z.
  have [W WE] := sf_rng f.
  have g0 : Ab^T *m (bb - Ab *m (M0 *m z)) = 0.
    apply: (pc_grad ltr01 (embeds_refl Ab) (sf_orth f) (sf_rng f) (su_rank su mO cl)).
    by rewrite mulmxBr [Ab *m (M0 *m z)]mulmxA -(sf_z f) mulmxA (sf_orth f) mul1mx subrr.
  have := (mn (M0 *m z)).1; rewrite -!(lb_obj (su_b su)).
  have -> : bb - Ab *m xs = (bb - Ab *m (M0 *m z)) + Ab *m (M0 *m z - xs).
    by rewrite mulmxBr addrA subrK.
  have -> : fro2 (bb - Ab *m (M0 *m z) + Ab *m (M0 *m z - xs)) =
            fro2 (bb - Ab *m (M0 *m z)) + fro2 (Ab *m (M0 *m z - xs)).
    rewrite fro2D [fip _ _]fipC /fip trmx_mul -mulmxA g0 mulmx0 mxtrace0 mulr0 addr0 //.
  rewrite ger_addl => le0; have : Ab *m (M0 *m z - xs) = 0.
    by apply/eqP; rewrite -fro2_eq0 eq_le le0 fro2_ge0.
  by move/(full_col_inj rk)/eqP; rewrite subr_eq0 => /eqP.
by rewrite e0; apply: (su_acceptP su dl0 kn); rewrite -e0.
Qed.

Lemma spo_lemma s : exists s1 d (Sm : 'M[R]_(d, m)), drew s s1 Sm /\
  (mode_tri md -> \rank (Sm *m A) <> n -> dl = 0 ->
    forall lim logging clk, call lim logging clk s = (s1, inl LinAlgError)) /\
  ([\/ ~~ mode_tri md, \rank (Sm *m A) = n | 0 < dl] ->
    exists k (M0 : 'M[R]_(n, k)) x0,
    [/\ exists p (Ab : 'M[R]_(p, n)), lifted (Sm *m A) dl Ab /\ orthonormal (Ab *m M0),
        spo_start_ok Sm x0 &
    forall lim, 0 <= lim -> exists (x : 'cV[R]_n) es,
    [/\ forall logging clk, call lim logging clk s =
          (s1, log_ret logging clk es (fro (M0^T *m (A^T *m b))) (ofcv x)),
        ridge A b dl x <= fro2 b, lim = 0 -> x = x0,
        forall lo hi, embeds (Sm *m A) A lo hi -> 0 < lo <= 1 -> 1 <= hi ->
          (n ^ 2)%:R * hi < lo * (10%:R ^+ 8 - 1) ^+ 2 ->
          sketch_clean L md dl (Sm *m A) -> tol <= 0 -> (n <= absz lim)%N -> ridge_min A b dl x &
        (M0^T *m rgrad A b dl x0 = 0 /\ es = EScal 0 /\ x = x0) \/
        (M0^T *m rgrad A b dl x0 <> 0 /\ exists es1, [/\ es = EArr es1, (size es1 <= absz lim)%N,
          (size es1 <= n)%N & forall i, (i < size es1)%N -> exists xi : 'cV[R]_n,
            (forall clk, call i%:Z false clk s = (s1, inr (ofcv xi, log_of false clk))) /\
            nth 0 es1 i = fro (M0^T *m rgrad A b dl xi)])]]).
Proof.
have [d [s1 [Sk [Sm [dE gE pS bad good]]]]] := spo_run A b tol qr svd s (lk_shape ok) (lk_sf ok) (lk_gen ok) dl0 mO.
exists s1, d, Sm; split; first by split=> //; exists Sk.
split=> // h; have [p [Ab [bb [P [k [M0 [z [start [m' [Ab' [bb' [op [su run]]]]]]]]]]]]] := good h.
have f := su_f su; have cp lim l0 := spo_callP tol su dl0 mO (lim := lim) l0.
exists k, M0, (M0 *m lsqr_x0 start); split.
- by exists p, Ab; split; [exact: su_l su | exact: sf_orth f].
- exact: su_start su.
move=> lim l0; have [q [w [qE xE le lz [ex e0 e1]]]] := cp lim l0.
exists (M0 *m w), (q_errs q); split=> //.
  by move=> logging clk; exact: run.
have [/eqP g0|/eqP g0] := boolP (M0^T *m rgrad A b dl (M0 *m lsqr_x0 start) == 0).
  by left; have [xx ee] := e0 g0.
right; split=> //; have [es [eE s1' s2' H]] := e1 g0; exists es; split=> // i lt.
have [q1 [w1 [E1 x1 n1]]] := H i lt; exists (M0 *m w1); split=> // clk.
by rewrite (run _ _ _ _ _ E1 x1).
Qed.
End SpoCall.

(** ** SPS1 with PcSS1: complete calls *)
Section Sps1Call.
Variables (R : rcfType) (G : Type) (L : lapack R).
Variables (g : nat -> nat -> M G R (pyop R)) (sf : rat) (strat : nystrom) (m n : nat).
Variables (A : 'M[R]_(m, n)) (b : option 'cV[R]_m) (c : option 'cV[R]_n) (dl tol : R).
Let b0 := vdef b.
Let c0 := vdef c.
Let H := A^T *m A + dl%:M.
Let rhs := A^T *m b0 - c0.
Notation call lim logging clk s := (SPS1 L g sf (@PcSS1 R (rcf_ops R)) strat (ofmx A) (omap (@ofcv R m) b)
  (omap (@ofcv R n) c) dl tol lim logging clk s).
Hypotheses (hA : \rank A = n \/ 0 < dl) (dl0 : 0 <= dl) (tol0 : 0 <= tol).

(** What SPS1 delivers when run from state [s]. *)
Definition sps1_solves s : Prop :=
  exists s1 (x0 : 'cV[R]_n), forall lim, 0 <= lim -> exists (x : 'cV[R]_n) es,
  [/\ forall logging clk, call lim logging clk s =
        (s1, log_ret logging clk (EArr es) (fro rhs) (Some (ofcv x), ofcv (b0 - A *m x))),
      (size es <= n)%N /\ (size es <= absz lim)%N, (lim = 0 -> x = x0),
      (n <= absz lim)%N -> tol = 0 -> saddle A b0 c0 dl x (b0 - A *m x) &
      ((size es < absz lim)%N \/ (n <= absz lim)%N -> fro (rhs - H *m x) <= tol * fro (rhs - H *m x0)) /\
      forall i, (i < size es)%N -> exists xi : 'cV[R]_n,
        (forall clk, call i%:Z false clk s =
           (s1, inr (Some (ofcv xi), ofcv (b0 - A *m xi), log_of false clk))) /\
        nth 0 es i = fro (rhs - H *m xi)].

Lemma sps1_solve s s1 k (M0 : 'M[R]_(n, k)) zo : good_pc M0 ->
  (forall lim logging clk, call lim logging clk s = (s1, sps_ret logging clk (fro rhs)
     (PcSS1 (ofmx A) (Some (ofcv b0)) (omap (@ofcv R n) c) dl tol lim (ofmx M0) false
        (omap (@ofcv R k) zo)))) -> sps1_solves s.
Proof.
move=> gp run; pose x0 : 'cV[R]_n := if (k == n)%N then (if zo is Some z then M0 *m z else 0) else 0.
exists s1, x0 => lim l0.
have [x [es [P' [E sz _ ex]]]] := @pcss1_good R m n A (Some b0) c dl tol lim k M0 zo dl0 hA gp l0 tol0.
have [x' [es' [xx ee lg nil st]]] := @pcss1_log R m n A (Some b0) c dl tol lim k M0 zo _ (or_intror gp) dl0 E.
case: xx => /ofcv_inj xx; case: ee => ee; subst x' es'.
have sl : (size es <= absz lim)%N.
  by have [_ [? [_ _ [es' [[<-] //]]]]] := @pcss1_y R m n A (Some b0) c dl tol lim _ _ _ _ E.
exists x, es; split=> //.
- by move=> logging clk; rewrite run E.
- by move=> lz; apply: nil; move: sl; rewrite lz leqn0 size_eq0 => /eqP.
- by move=> nl; have [_] := ex nl.
split; first by case=> [/st|/ex[]].
move=> i lt; have [xi [Pi [Ei nE]]] := lg i lt; exists xi; split=> // clk.
by rewrite run Ei.
Qed.
End Sps1Call.

(** ** SPU1: complete calls *)
Section SpuCall.
Variables (R : rcfType) (G : Type) (L : lapack R).
Variables (g : nat -> nat -> M G R (pyop R)) (sf : rat) (m n : nat).
Variables (A : 'M[R]_(m, n)) (c : 'cV[R]_n) (tol : R).
Hypotheses (ok : lsq_ok g sf m n) (svd : svd_spec L).
Notation call lim logging clk s := (SPU1 L g sf (ofmx A) (ofcv c) tol lim logging clk s).

Lemma spu_lemma s : exists s1 d (Sm : 'M[R]_(d, m)), drew g sf n s s1 Sm /\
  (c = 0 -> forall lim logging clk, call lim logging clk s = (s1, inl TypeError)) /\
  (c <> 0 -> exists k (M0 : 'M[R]_(n, k)), (orthonormal (Sm *m A *m M0) /\ exists W, M0 = (Sm *m A)^T *m W) /\
    let err (y : 'cV[R]_m) := fro (A *m M0 *m (M0^T *m (c - A^T *m y))) in
    forall lim, 0 <= lim -> exists (y : 'cV[R]_m) es,
    [/\ forall logging clk, call lim logging clk s =
          (s1, log_ret logging clk es (err 0) (ofcv y)),
        exists w, y = A *m w, lim = 0 -> y = 0,
        forall lo hi, embeds (Sm *m A) A lo hi -> 0 < lo -> 0 < hi ->
          (n ^ 2)%:R * hi < lo * (10%:R ^+ 8 - 1) ^+ 2 ->
          svd_clean L (Sm *m A) -> tol <= 0 -> (n <= absz lim)%N -> ridge_min A^T c 0 y &
        (err 0 = 0 /\ es = EScal 0 /\ y = 0) \/
        (err 0 <> 0 /\ exists es1, [/\ es = EArr es1, (size es1 <= absz lim)%N,
          (size es1 <= n)%N & forall i, (i < size es1)%N -> exists yi : 'cV[R]_m,
            (forall clk, call i%:Z false clk s = (s1, inr (ofcv yi, log_of false clk))) /\
            nth 0 es1 i = err yi])]).
Proof.
have [d [s1 [Sk [Sm [k [M0 [[dE gE] pS su bad good]]]]]]] :=
  spu1_run A c tol svd s (lk_shape ok) (lk_sf ok) (lk_gen ok).
exists s1, d, Sm; split; first by split=> //; exists Sk.
split=> // c0; have [op [opA run]] := good c0.
exists k, M0; split; first by split; [exact: ss_orth su | exact: ss_rng su].
move=> err lim l0; have [q [y [E yE le [w wE] [ex e0 e1]]]] := spu_callP c tol su opA l0.
exists y, (q_errs q); split=> //.
- move=> logging clk; rewrite (run lim logging clk _ _ E yE) /err mulmx0 subr0.
  by rewrite !mulmxA.
- by exists w.
- move=> lz; have [q' [y' [E' yE' _ lz' _]]] := lsqr_pc tol conlim_dflt (b := M0^T *m c) (start := None)
    (lo_trP opA) l0 (Or32 _ _ erefl).
  move: E'; rewrite -[lsqr _ _ _ _ _ _ _ _ _]/(spu_call c tol M0 op lim) E => -[qq].
  by move: yE'; rewrite -qq yE => /ofcv_inj ->; exact: lz'.
have [/eqP g0|/eqP g0] := boolP (A *m M0 *m (M0^T *m (c - A^T *m 0)) == 0).
  by left; have [xx ee] := e0 g0; rewrite /err g0 fro0.
right; split; first by move/eqP; rewrite fro_eq0 => /eqP.
have [es [eE s1' s2' H]] := e1 g0; exists es; split=> // i lt.
have [q1 [w1 [E1 x1 n1]]] := H i lt; exists w1; split=> // clk.
by rewrite (run i%:Z false clk _ _ E1 x1).
Qed.
End SpuCall.

(** ** SPS2 with PcSS2: complete calls *)
Section Sps2Call.
Variables (R : rcfType) (G : Type) (L : lapack R).
Variables (g : nat -> nat -> M G R (pyop R)) (sf : rat) (m n : nat).
Variables (A : 'M[R]_(m, n)) (b : option 'cV[R]_m) (c : option 'cV[R]_n) (dl tol : R).
Hypotheses (ok : lsq_ok g sf m n) (svd : svd_spec L) (dl0 : 0 <= dl).
Let b0 := vdef b.
Let c0 := vdef c.
Notation call lim logging clk s := (SPS2 L g sf (@PcSS2 R (rcf_ops R)) (ofmx A) (omap (@ofcv R m) b)
  (omap (@ofcv R n) c) dl tol lim logging clk s).

(** Minimum-norm solution of the saddle point system. *)
Definition saddle_min (x : 'cV[R]_n) : Prop :=
  saddle A b0 c0 dl x (b0 - A *m x) /\
  forall x', saddle A b0 c0 dl x' (b0 - A *m x') -> fro2 x <= fro2 x'.

(** As [svd_clean], for the regularised sketch. *)
Definition lift_clean p (As : 'M[R]_(p, n)) : Prop :=
  forall X U0 s0 Vh0, a_lift (ofmx As) (Num.sqrt dl) = Ok X -> l_svd L X = Ok (U0, s0, Vh0) -> cut_clean n s0.

Lemma sps2_lemma s : exists s1 d (Sm : 'M[R]_(d, m)), drew g sf n s s1 Sm /\
  exists k (M0 : 'M[R]_(n, k)) (Pc : 'M[R]_n) (x0 : 'cV[R]_n),
  let ng (x : 'cV[R]_n) := A^T *m b0 - Pc *m c0 - (A^T *m A + dl%:M) *m x in
  [/\ exists p (Ab : 'M[R]_(p, n)), lifted (Sm *m A) dl Ab /\ orthonormal (Ab *m M0),
      lift_clean (Sm *m A) -> \rank (Sm *m A) = n \/ 0 < dl -> Pc = 1%:M &
  forall lim, 0 <= lim -> exists (x : 'cV[R]_n) es,
  [/\ forall logging clk, call lim logging clk s =
        (s1, log_ret logging clk es (fro (M0^T *m ng 0)) (ofcv x, ofcv (b0 - A *m x))),
      c0 = 0 -> ridge A b0 dl x <= fro2 b0, lim = 0 -> x = x0,
      forall lo hi, embeds (Sm *m A) A lo hi -> 0 < lo <= 1 -> 1 <= hi ->
        (n ^ 2)%:R * hi < lo * (10%:R ^+ 8 - 1) ^+ 2 ->
        lift_clean (Sm *m A) -> tol <= 0 -> (n <= absz lim)%N ->
        0 < dl \/ (exists e, c0 = A^T *m e) -> saddle_min x &
      (M0^T *m ng x0 = 0 /\ es = EScal 0 /\ x = x0) \/
      (M0^T *m ng x0 <> 0 /\ exists es1, [/\ es = EArr es1, (size es1 <= absz lim)%N,
        (size es1 <= n)%N & forall i, (i < size es1)%N -> exists xi : 'cV[R]_n,
          (forall clk, call i%:Z false clk s =
             (s1, inr (ofcv xi, ofcv (b0 - A *m xi), log_of false clk))) /\
          nth 0 es1 i = fro (M0^T *m ng xi)])]].
Proof.
have [d [s1 [Sk [Sm [dE gE pS [p [As [k [M0 [Vh [m' [Ab [Sg [ba [start [su run]]]]]]]]]]]]]]]] :=
  sps2_run A b c tol svd (@PcSS2 R (rcf_ops R)) s (lk_shape ok) (lk_sf ok) (lk_gen ok) dl0.
exists s1, d, Sm; split; first by split=> //; exists Sk.
exists k, M0, (Vh^T *m Vh), (M0 *m lsqr_x0 start) => ng.
have cl' : lift_clean (Sm *m A) -> svd_clean L As.
  move=> cl U0 s0 Vh0; exact: cl _ _ _ _ (s2_a su).
split.
- by exists p, As; split; [exact: s2_l su | exact: ss_orth (s2_ss su)].
- move=> cl h; have rk : \rank As = n by apply/(lifted_rank dl0 (s2_l su)).
  apply/matrixP => i j; have [W WE] := full_rng (1%:M : 'M[R]_n) rk.
  have dj : As^T *m col j W = delta_mx j 0 by rewrite colE mulmxA -WE mul1mx.
  have := s2_V su (col j W) (cl' cl); rewrite dj mulmxA -colE => /colP/(_ i).
  by rewrite [LHS]mxE => ->; rewrite !mxE eqxx andbT.
move=> lim l0; have [out [x [E [xE RE] le lz [ex e0 e1]]]] := sps2_callP tol su dl0 l0.
have ngE y : A^T *m vdef b - Vh^T *m (Vh *m vdef c) - (A^T *m A + dl%:M) *m y = ng y.
  by rewrite /ng mulmxA.
exists x, (o_errs out); split=> //.
- move=> logging clk; rewrite (run lim logging clk _ _ E xE RE) (s2_b su); congr (_, log_ret _ _ _ (fro _) _).
  by rewrite -ngE mulmx0 subr0.
- move=> cz; have := lb_obj (s2_b0 su cz) 0; rewrite !mulmx0 !subr0 fro20 mulr0 addr0 => <-.
  by move: le; rewrite (lb_obj (s2_b0 su cz)).
- by move=> lo hi em l1 h1 cnd cl t0 nl hc; apply: (ex lo hi) => //; exact: cl'.
move: e0 e1; rewrite !ngE => e0 e1.
have [/eqP g0|/eqP g0] := boolP (M0^T *m ng (M0 *m lsqr_x0 start) == 0).
  by left; have [xx ee] := e0 g0.
right; split=> //; have [es [eE s1' s2' H]] := e1 g0; exists es; split=> // i lt.
have [q1 [w1 [E1 x1 n1]]] := H i lt; exists w1; rewrite -ngE; split=> // clk.
have [o2 [w2 [E2 [x2 R2] _ _ _]]] := sps2_callP tol su dl0 (isT : 0 <= i%:Z).
move: E2; rewrite E1 => -[oE]; move: x2; rewrite -oE x1 => -[/ofcv_inj ww].
rewrite (run i%:Z false clk _ _ E1 x1) //; by rewrite oE.
Qed.
End Sps2Call.

(** ** Consequences, in the form of the properties *)
Section Cor.
Variables (R : rcfType) (G : Type) (L : lapack R).
Variables (g : nat -> nat -> M G R (pyop R)) (sf : rat) (md : spo_mode) (m n : nat).
Variables (A : 'M[R]_(m, n)) (b : 'cV[R]_m) (dl tol : R).
Hypotheses (ok : lsq_ok g sf m n) (qr : qr_spec L) (svd : svd_spec L) (dl0 : 0 <= dl) (mO : md <> MOther).
Notation call lim logging clk s := (SPO L g sf md (ofmx A) (ofcv b) dl tol lim logging clk s).

Lemma log_ret_inv X lg clk es init (x : X) s1 s' x' l :
  (s1 : st G R, @log_ret R X lg clk es init x) = (s', inr (x', l)) -> s1 = s' /\ x = x'.
Proof. by rewrite /log_ret; case: lg => [|[-> -> _]] //; case: wrap_up => // l0 [-> -> _]. Qed.

(** Either the sketch is singular in a triangular mode, or not. *)
Lemma spo_dec d (Sm : 'M[R]_(d, m)) :
  (mode_tri md /\ \rank (Sm *m A) <> n /\ dl = 0) \/ [\/ ~~ mode_tri md, \rank (Sm *m A) = n | 0 < dl].
Proof.
case: (mode_tri md); last by right; constructor.
case: (eqVneq (\rank (Sm *m A)) n) => [|/eqP ?]; first by right; constructor 2.
by move: dl0; rewrite le_eqVlt => /orP[/eqP <-|]; [left | right; constructor 3].
Qed.

Lemma spo_start_lemma lg clk s s' x l : call 0 lg clk s = (s', inr (x, l)) ->
  exists d (Sm : 'M[R]_(d, m)) (xv : 'cV[R]_n),
  [/\ drew g sf n s s' Sm, x = ofcv xv & spo_start_ok L md A b dl Sm xv].
Proof.
have [s1 [d [Sm [dr [bad good]]]]] := spo_lemma A b tol ok qr svd dl0 mO s.
case: (spo_dec Sm) => [[t [rk dz]]|h]; first by rewrite bad.
have [k [M0 [x0 [_ so H]]]] := good h; have [xv [es [E _ /(_ erefl) xx _ _]]] := H 0 (lexx 0).
rewrite E => e; case: (log_ret_inv e) => <- <-; exists d, Sm, xv; split=> //; by rewrite xx.
Qed.

Lemma spo_le_lemma lim lg clk s s' x l : 0 <= lim -> call lim lg clk s = (s', inr (x, l)) ->
  exists xv : 'cV[R]_n, x = ofcv xv /\ ridge A b dl xv <= fro2 b.
Proof.
move=> l0; have [s1 [d [Sm [dr [bad good]]]]] := spo_lemma A b tol ok qr svd dl0 mO s.
case: (spo_dec Sm) => [[t [rk dz]]|h]; first by rewrite bad.
have [k [M0 [x0 [_ so H]]]] := good h; have [xv [es [E le _ _ _]]] := H lim l0.
by rewrite E => e; case: (log_ret_inv e) => _ <-; exists xv.
Qed.

Lemma spo_returns_lemma s : exists s1 d (Sm : 'M[R]_(d, m)), drew g sf n s s1 Sm /\
  forall lim clk, 0 <= lim ->
    if mode_tri md && (\rank (Sm *m A) != n) && (dl == 0)
    then forall lg, call lim lg clk s = (s1, inl LinAlgError)
    else exists x : 'cV[R]_n, call lim false clk s = (s1, inr (ofcv x, log_of false clk)).
Proof.
have [s1 [d [Sm [dr [bad good]]]]] := spo_lemma A b tol ok qr svd dl0 mO s.
exists s1, d, Sm; split=> // lim clk l0.
case: (spo_dec Sm) => [[t [rk dz]]|h].
  rewrite t (introN eqP rk) (introT eqP dz) => lg; exact: bad.
have -> : mode_tri md && (\rank (Sm *m A) != n) && (dl == 0) = false.
  by case: h => [/negbTE ->|->|/gt_eqF ->] //; rewrite ?eqxx ?andbF.
have [k [M0 [x0 [_ so H]]]] := good h; have [xv [es [E le _ _ _]]] := H lim l0.
by exists xv; rewrite E.
Qed.

Lemma spo_exact_lemma lim lg clk s s' x l : 0 <= lim -> call lim lg clk s = (s', inr (x, l)) ->
  exists d (Sm : 'M[R]_(d, m)) (xv : 'cV[R]_n), [/\ drew g sf n s s' Sm, x = ofcv xv &
  forall lo hi, embeds (Sm *m A) A lo hi -> 0 < lo <= 1 -> 1 <= hi ->
    (n ^ 2)%:R * hi < lo * (10%:R ^+ 8 - 1) ^+ 2 ->
    sketch_clean L md dl (Sm *m A) -> tol <= 0 -> (n <= absz lim)%N -> ridge_min A b dl xv].
Proof.
move=> l0; have [s1 [d [Sm [dr [bad good]]]]] := spo_lemma A b tol ok qr svd dl0 mO s.
case: (spo_dec Sm) => [[t [rk dz]]|h]; first by rewrite bad.
have [k [M0 [x0 [_ so H]]]] := good h; have [xv [es [E le _ ex _]]] := H lim l0.
by rewrite E => e; case: (log_ret_inv e) => <- <-; exists d, Sm, xv.
Qed.

(** The error log; [M0] is the preconditioner. *)
Lemma spo_log_lemma lim clk s s' x l : 0 <= lim -> call lim true clk s = (s', inr (x, l)) ->
  exists d (Sm : 'M[R]_(d, m)) k (M0 : 'M[R]_(n, k)) es,
  [/\ drew g sf n s s' Sm,
      exists p (Ab : 'M[R]_(p, n)), lifted (Sm *m A) dl Ab /\ orthonormal (Ab *m M0),
      errors l = Some (fro (M0^T *m (A^T *m b)) :: es), (size es <= absz lim)%N /\ (size es <= n)%N &
      forall i, (i < size es)%N -> exists xi : 'cV[R]_n,
        (forall clk, call i%:Z false clk s = (s', inr (ofcv xi, log_of false clk))) /\
        nth 0 es i = fro (M0^T *m rgrad A b dl xi)].
Proof.
move=> l0; have [s1 [d [Sm [dr [bad good]]]]] := spo_lemma A b tol ok qr svd dl0 mO s.
case: (spo_dec Sm) => [[t [rk dz]]|h]; first by rewrite bad.
have [k [M0 [x0 [orth so H]]]] := good h; have [xv [es [E le _ ex alt]]] := H lim l0.
rewrite E; case: alt => [[_ [-> _]] //|[_ [es1 [-> s1' s2' lg]]]] [<- _ <-].
by exists d, Sm, k, M0, es1.
Qed.

(** With logging, a zero right-hand side makes the call raise. *)
Lemma spo_zero_lemma lim clk s : b = 0 -> 0 <= lim ->
  exists s1, call lim true clk s = (s1, inl ValueError) \/ call lim true clk s = (s1, inl LinAlgError).
Proof.
move=> bz l0; have [s1 [d [Sm [dr [bad good]]]]] := spo_lemma A b tol ok qr svd dl0 mO s.
exists s1; case: (spo_dec Sm) => [[t [rk dz]]|h]; first by right; rewrite bad.
have [k [M0 [x0 [orth so H]]]] := good h; have [xv [es [E le _ ex alt]]] := H lim l0.
left; rewrite E; case: alt => [[_ [-> _]] //|[g0 _]]; case: g0.
have := so_le so; rewrite /rgrad /ridge bz fro20 sub0r mulmxN => le0.
have /andP[/eqP f1 /eqP f2] : (fro2 (- (A *m x0)) == 0) && (dl * fro2 x0 == 0).
  by rewrite -paddr_eq0 ?mulr_ge0 ?fro2_ge0 // eq_le le0 addr_ge0 ?mulr_ge0 ?fro2_ge0.
have -> : A *m x0 = 0 by apply/eqP; rewrite -fro2_eq0 -fro2N f1.
rewrite mulmx0 oppr0 sub0r; move/eqP: f2; rewrite mulf_eq0 fro2_eq0 => /orP[] /eqP ->.
  by rewrite scale0r oppr0 mulmx0.
by rewrite scaler0 oppr0 mulmx0.
Qed.
End Cor.
