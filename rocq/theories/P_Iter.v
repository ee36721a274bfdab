(** Statements about whole runs of [pcg] and [lsqr] in terms of the data. *)
From mathcomp Require Import all_ssreflect all_algebra.
From mathcomp Require Import zify.
From Verif Require Import Base Arr Lapack Exact MxLib RingTac LapackSpec Rng Pcg P_Pcg Lsqr P_Lsqr.
Set Implicit Arguments.
Unset Strict Implicit.
Unset Printing Implicit Defensive.
Import Order.TTheory GRing.Theory Num.Theory.
Local Open Scope ring_scope.

Section Iter.
Variable R : rcfType.
Add Field rcf_field_iter : (rcf_field R).

Section PCG.
Variables (n : nat) (H P : 'M[R]_n) (mvH mvP : seq R -> res (seq R)).
Hypotheses (HH : op_is mvH H) (HP : op_is mvP P).
Variables (b x0 : 'cV[R]_n) (tol : R).

Lemma pcg_log_lemma (lim : int) x res :
  pcg mvH (ofcv b) mvP lim tol (ofcv x0) = Ok (x, res) ->
  exists y : 'cV[R]_n,
  [/\ 0 <= lim, x = ofcv y, (size res <= absz lim)%N,
      forall k, (k < size res)%N -> exists z : 'cV[R]_n,
        [/\ pcg mvH (ofcv b) mvP k%:Z tol (ofcv x0) = Ok (ofcv z, take k res),
            nth 0 res k = fro (b - H *m z) & k = 0%N -> z = x0] &
      (res = [::] -> y = x0) /\
      ((size res < absz lim)%N -> fro (b - H *m y) <= tol * fro (b - H *m x0))].
Proof.
move=> E; case: (lerP 0 lim) => [lim0|lim0]; last by move: E; rewrite /pcg lim0.
rewrite (pcg_start HH HP) //= in E.
have [xs [y [[xE rE] sz hd st]]] := pcg_loopP HH HP E.
have sE : size res = size xs by rewrite rE size_map.
exists y; split=> //; [by rewrite sE | | rewrite sE; split=> //]; last first.
  by move=> r0; move: sE hd; rewrite r0; case: (xs).
move=> k lt.
have [z [Ez nE]] := pcg_loop_prefix HH HP E lt.
exists z; split=> //; first by rewrite (pcg_start HH HP).
by move=> k0; rewrite k0 /= in Ez; case: Ez => /ofcv_inj <-.
Qed.

Hypotheses (pH : spd H) (pP : spd P).

Lemma pcg_exact_lemma (lim : int) : 0 <= lim -> 0 <= tol ->
  exists (y : 'cV[R]_n) es,
  [/\ pcg mvH (ofcv b) mvP lim tol (ofcv x0) = Ok (ofcv y, es),
      (size es <= n)%N,
      (n <= absz lim)%N -> fro (b - H *m y) <= tol * fro (b - H *m x0) &
      (n <= absz lim)%N -> tol = 0 -> y = invmx H *m b].
Proof.
move=> lim0 tol0.
have rel0 : 0 <= tol * fro (b - H *m x0) by rewrite mulr_ge0 ?fro_ge0.
have [y [es [E sz fin]]] :=
  pcg_loop_spd HH HP pH pP rel0 (absz lim) 0 [::] (pcg_inv0 H P b x0).
exists y, es; split.
- by rewrite (pcg_start HH HP).
- by move: sz; rewrite addn0.
- by rewrite addn0 in fin.
move=> le t0; have := fin; rewrite addn0 => /(_ le).
rewrite t0 mul0r => le0.
have /eqP : fro (b - H *m y) == 0 by rewrite eq_le le0 fro_ge0.
move/eqP; rewrite fro_eq0 subr_eq0 => /eqP ->.
by rewrite mulKmx // spd_unit.
Qed.

Lemma pcg_energy_lemma (k : nat) y1 es1 y2 es2 : 0 <= tol ->
  pcg mvH (ofcv b) mvP k%:Z tol (ofcv x0) = Ok (ofcv y1, es1) ->
  pcg mvH (ofcv b) mvP k.+1%:Z tol (ofcv x0) = Ok (ofcv y2, es2) ->
  size es2 = k.+1 ->
  energy H (invmx H *m b) y2 < energy H (invmx H *m b) y1.
Proof.
move=> tol0; rewrite !(pcg_start HH HP) // => E1 E2 sz.
have rel0 : 0 <= tol * fro (b - H *m x0) by rewrite mulr_ge0 ?fro_ge0.
have Hxs : H *m (invmx H *m b) = b by rewrite mulKVmx // spd_unit.
by apply: (pcg_loop_energy HH HP pH pP rel0 Hxs (pcg_inv0 H P b x0) E2 E1).
Qed.

End PCG.

Section LSQR.
Variables (m n : nat) (A : 'M[R]_(m, n)) (b : 'cV[R]_m) (xs : 'cV[R]_n) (d : R).

Lemma Ab_rb x : (Ab A d)^T *m rb A b xs d x = A^T *m (b - A *m x) - d ^+ 2 *: (x - xs).
Proof.
rewrite /Ab /rb tr_col_mx mul_row_col tr_scalar_mx mul_scalar_mx scalerN scalerA.
by rewrite -expr2.
Qed.

Lemma fro2_rb x : fro2 (rb A b xs d x) = fro2 (b - A *m x) + d ^+ 2 * fro2 (x - xs).
Proof. by rewrite /rb fro2_col_mx fro2N fro2Z. Qed.

Lemma fro2_rb_le x : fro (rb A b xs d x) <= fro (rb A b xs d xs) ->
  fro2 (b - A *m x) + d ^+ 2 * fro2 (x - xs) <= fro2 (b - A *m xs).
Proof. by rewrite fro_le !fro2_rb subrr fro20 mulr0 addr0. Qed.

End LSQR.

(** [g x = 0] characterises the minimisers. *)
Lemma lsq_opt m n (A : 'M[R]_(m, n)) b xs d (x : 'cV[R]_n) :
  A^T *m (b - A *m x) - d ^+ 2 *: (x - xs) = 0 ->
  forall z, fro2 (b - A *m x) + d ^+ 2 * fro2 (x - xs) <= fro2 (b - A *m z) + d ^+ 2 * fro2 (z - xs).
Proof.
rewrite -Ab_rb => g0 z; rewrite -!fro2_rb.
have -> : rb A b xs d z = rb A b xs d x - 1 *: (Ab A d *m (z - x)).
  by rewrite -rbD scale1r addrC subrK.
rewrite scale1r fro2B; have -> : fip (rb A b xs d x) (Ab A d *m (z - x)) = 0.
  by rewrite /fip mulmxA -[_^T *m Ab A d]trmxK trmx_mul trmxK g0 trmx0 mul0mx raddf0.
rewrite mulr0 subr0 ler_addl fro2_ge0 //.
Qed.

(** ** A concrete positive definite matrix. *)
Definition wit_H : 'M[R]_2 := 1%:M + const_mx 1.

Lemma wit_H_spd : spd wit_H.
Proof.
split=> [|x x0]; first by rewrite /wit_H linearD /= trmx1 trmx_const.
rewrite /wit_H mulmxDr mulmx1 mulmxDl mxE -/(dot x x) dotxx.
have -> : const_mx 1 = const_mx 1 *m (const_mx 1 : 'rV[R]_2) :> 'M[R]_2.
  by apply/matrixP=> i j; rewrite !mxE big_ord1 !mxE mulr1.
have -> : x^T *m (const_mx 1 *m (const_mx 1 : 'rV[R]_2)) *m x =
   (x^T *m (const_mx 1 : 'cV[R]_2)) *m (x^T *m (const_mx 1 : 'cV[R]_2))^T :> 'M[R]_1.
  by rewrite trmx_mul trmxK trmx_const !mulmxA.
move: (x^T *m _) => y; rewrite !mxE big_ord1 !mxE -expr2.
by rewrite ltr_paddr ?sqr_ge0 // lt_neqAle eq_sym fro2_eq0 x0 fro2_ge0.
Qed.

Lemma spd1 n : spd (1%:M : 'M[R]_n).
Proof.
by split=> [|x x0]; rewrite ?trmx1 // mulmx1 -/(dot x x) dotxx lt_neqAle eq_sym fro2_eq0 x0 fro2_ge0.
Qed.

Lemma mv_op_is m n (H : 'M[R]_(m, n)) : op_is (mv (ofmx H)) H.
Proof. by move=> x; rewrite mvE. Qed.

Lemma istopP last atol ctol (t : @lsqr_tests R) :
  let i := lsqr_istop last atol ctol t in
  [/\ i = 1%N -> t_test1 t <= t_rtol t, i = 2%N -> t_test2 t <= atol, i = 3%N -> t_test3 t <= ctol,
      i = 4%N -> t_t1 t <= 0 & [/\ i = 5%N -> t_test2 t <= 0, i = 6%N -> t_test3 t <= 0,
      i = 7%N -> last & (i <= 7)%N]].
Proof.
rewrite /lsqr_istop /= !ger_addl.
by do 7! (case: ifP => // _).
Qed.

Section Top.
Variables (m n : nat) (A : 'M[R]_(m, n)) (op : linop R).
Hypothesis opA : lin_is op A.
Variables (b : 'cV[R]_m) (start : option 'cV[R]_n) (d atol btol conlim : R) (cv : bool).
Variable lim : option int.
Hypotheses (lim0 : 0 <= lim_of n lim) (bs : b != 0 \/ start = None).
Let xs := lsqr_x0 start.
Let call l := lsqr op (ofcv b) d atol btol conlim l cv (omap (@ofcv R n) start).
Let g (x : 'cV[R]_n) := A^T *m (b - A *m x) - d ^+ 2 *: (x - xs).

Lemma lsqr_returns : exists out, call lim = Ok out.
Proof.
have [out [x [E _ _ _]]] := lsqrP opA d atol btol conlim cv lim0 bs.
by exists out.
Qed.

Lemma fro_rb x : fro (rb A b xs d x) = Num.sqrt (fro2 (b - A *m x) + d ^+ 2 * fro2 (x - xs)).
Proof. by rewrite /fro fro2_rb. Qed.

Lemma lsqr_norms_lemma out : call lim = Ok out ->
  exists x : 'cV[R]_n,
  [/\ q_x out = ofcv x,
      q_r2norm out = Num.sqrt (fro2 (b - A *m x) + d ^+ 2 * fro2 (x - xs)) /\
      (d = 0 -> q_r1norm out = fro (b - A *m x) /\ q_r2norm out = fro (b - A *m x)),
      q_xnorm out = fro (x - xs),
      0 <= q_anorm out <= Num.sqrt (fro2 A + d ^+ 2 *+ n) &
      match q_errs out with
      | EScal e => [/\ e = 0, g xs = 0 & x = xs]
      | EArr es => size es = q_itn out /\
          forall i, (i < size es)%N -> exists outi (xi : 'cV[R]_n),
            [/\ call (Some i%:Z) = Ok outi, q_x outi = ofcv xi, q_itn outi = i &
                nth 0 es i = fro (g xi)]
      end].
Proof.
move=> E; have [out' [x [E' ok _ alt]]] := lsqrP opA d atol btol conlim cv lim0 bs.
have {E'}oE : out' = out by move: E'; rewrite /lsqr_call -/(call lim) E => -[].
rewrite {}oE in ok alt; exists x; split.
- exact: lq_x ok.
- rewrite -fro_rb; split; first exact: lq_r2 ok.
  move=> d0; rewrite (lq_r1 ok d0) (lq_r2 ok); suff: fro (rb A b xs d x) = fro (b - A *m x) by [].
  by rewrite fro_rb d0 expr0n mul0r addr0.
- exact: lq_xn ok.
- rewrite (lq_an0 ok) /=; apply: (le_trans (lq_an ok)); rewrite le_eqVlt; apply/orP; left.
  by rewrite /fro /Ab fro2_col_mx fro2_scalar.
case: alt => [[g0 xE _ _ ->]|[_ [es [-> sz H]] _]].
  by split=> //; rewrite /g -Ab_rb.
split=> // i lt; have [o1 [x1 [E1 ok1 it ni _]]] := H i lt.
exists o1, x1; split=> //; first exact: lq_x ok1.
by rewrite ni Ab_rb.
Qed.

Lemma lsqr_mono_lemma out : call lim = Ok out ->
  exists x : 'cV[R]_n,
  q_x out = ofcv x /\
  fro2 (b - A *m x) + d ^+ 2 * fro2 (x - xs) <= fro2 (b - A *m xs).
Proof.
move=> E; have [out' [x [E' ok _ alt]]] := lsqrP opA d atol btol conlim cv lim0 bs.
have {E'}oE : out' = out by move: E'; rewrite /lsqr_call -/(call lim) E => -[].
rewrite {}oE in ok alt; exists x; split; first exact: lq_x ok.
by apply: fro2_rb_le; exact: lq_le ok.
Qed.

Lemma lsqr_limits_lemma (l1 l2 : option int) out1 out2 :
  0 <= lim_of n l1 -> lim_of n l1 <= lim_of n l2 ->
  call l1 = Ok out1 -> call l2 = Ok out2 ->
  exists x1 x2 : 'cV[R]_n, [/\ q_x out1 = ofcv x1, q_x out2 = ofcv x2 &
    (q_itn out1 = q_itn out2 /\ x1 = x2) \/
    [/\ (q_itn out1 < q_itn out2)%N,
        fro2 (b - A *m x2) + d ^+ 2 * fro2 (x2 - xs) < fro2 (b - A *m x1) + d ^+ 2 * fro2 (x1 - xs) &
        fro2 (x1 - xs) < fro2 (x2 - xs)]].
Proof.
move=> l10 l12 E1 E2; have l20 := le_trans l10 l12.
have [o1 [x1 [E1' ok1 _ _]]] := lsqrP opA d atol btol conlim cv l10 bs.
have [o2 [x2 [E2' ok2 _ _]]] := lsqrP opA d atol btol conlim cv l20 bs.
have oE1 : o1 = out1 by move: E1'; rewrite /lsqr_call -/(call l1) E1 => -[].
have oE2 : o2 = out2 by move: E2'; rewrite /lsqr_call -/(call l2) E2 => -[].
subst o1 o2; exists x1, x2; split; [exact: lq_x ok1 | exact: lq_x ok2 |].
case: (lsqr_call_mono opA bs l10 l12 E1 E2) => [[it xE]|[it]].
  by left; split=> //; apply: ofcv_inj; rewrite -(lq_x ok1) -(lq_x ok2).
by rewrite (lq_r2 ok1) (lq_r2 ok2) (lq_xn ok1) (lq_xn ok2) !(ltNge (fro _)) !fro_le -!ltNge !fro2_rb; right.
Qed.

(** The stopping codes. *)
Lemma lsqr_stop_lemma out : call lim = Ok out ->
  exists x : 'cV[R]_n,
  [/\ q_x out = ofcv x,
      (q_itn out <= absz (lim_of n lim))%N,
      0 <= q_acond out &
   [/\ q_istop out = 0%N -> x = xs /\ (g xs = 0 \/ lim_of n lim = 0),
      q_istop out = 1%N -> q_r2norm out <= btol * fro b + atol * q_anorm out * q_xnorm out,
      q_istop out = 2%N -> fro (g x) <= atol * (q_anorm out * q_r2norm out + 2%:R ^- 52),
      q_istop out = 3%N -> 0 < conlim /\ conlim <= q_acond out + 2%:R ^- 52 &
   [/\ q_istop out = 4%N -> fro2 (b - A *m x) + d ^+ 2 * fro2 (x - xs) = 0,
      q_istop out = 5%N -> g x = 0,
      q_istop out = 7%N -> q_itn out = absz (lim_of n lim) &
      q_istop out \in [:: 0; 1; 2; 3; 4; 5; 7]%N]]].
Proof.
move=> E; have [out' [x [E' ok ac alt]]] := lsqrP opA d atol btol conlim cv lim0 bs.
have {E'}oE : out' = out by move: E'; rewrite /lsqr_call -/(call lim) E => -[].
rewrite {}oE in ok ac alt; exists x; split=> //.
- exact: lq_x ok.
- exact: (proj1 (lq_itn ok)).
case: alt => [[g0 xE it0 st0 _]|[[g0 b0] _ alt]].
  rewrite st0; split=> // _; split=> //; left; by rewrite /g -Ab_rb.
case: alt => [[st0 [l0 xE]]|[st0 it0 stE]].
  rewrite st0; split=> // _; split=> //; by right.
have eps : 0 < (2%:R ^- 52 : R) := eps_gt0 R.
have den2 : 0 < q_anorm out * q_r2norm out + 2%:R ^- 52.
  by rewrite ltr_spaddr // mulr_ge0 ?(lq_an0 ok) // (lq_r2 ok) fro_ge0.
have den3 : 0 < q_acond out + 2%:R ^- 52 by rewrite ltr_spaddr.
have t3 : 0 < 1 / (q_acond out + 2%:R ^- 52) by rewrite div1r invr_gt0.
have den1 : 0 < 1 + q_anorm out * q_xnorm out / fro b.
  apply: ltr_spaddl ; first exact: ltr01.
  rewrite divr_ge0 ?fro_ge0 // mulr_ge0 ?(lq_an0 ok) //.
  by rewrite (lq_xn ok) fro_ge0.
have := istopP (q_itn out == absz (lim_of n lim))%N atol (if 0 < conlim then 1 / conlim else 0)
  (out_tests A b start d atol btol out x).
rewrite -stE /= => -[i1 i2 i3 i4 [i5 i6 i7 le7]]; split.
- by move=> st; rewrite st in st0.
- move=> /i1; rewrite ler_pdivr_mulr // => h; apply: (le_trans h).
  by rewrite mulrDl mulfVK // gt_eqF.
- by move=> /i2; rewrite ler_pdivr_mulr // /g -Ab_rb.
- move=> /i3; case: ifP => [c0|_ h]; last by move: (lt_le_trans t3 h); rewrite ltxx.
  rewrite !div1r => h; split=> //.
  by rewrite -lef_pinv ?posrE.
split.
- move=> /i4; rewrite ler_pdivr_mulr // mul0r ler_pdivr_mulr // mul0r => h.
  have h0 : q_r2norm out = 0 by apply/eqP; rewrite eq_le h (lq_r2 ok) fro_ge0.
  by rewrite -fro2_rb -sqr_fro -(lq_r2 ok) h0 expr0n.
- move=> /i5; rewrite ler_pdivr_mulr // mul0r => h; apply/eqP.
  by rewrite -fro_eq0 /g -Ab_rb eq_le h fro_ge0.
- by move=> /i7/eqP.
have n6 : q_istop out <> 6%N by move=> /i6 h; move: (lt_le_trans t3 h); rewrite ltxx.
by move: (q_istop out) le7 n6; do 8! (case=> [//|]).

Qed.

(** The condition estimate is bounded by the true conditioning. *)
Lemma lsqr_acond_lemma out : call lim = Ok out ->
  forall mu, 0 <= mu ->
  (forall c : 'cV[R]_m, let y := A^T *m c in mu * fro2 y <= fro2 (A *m y) + d ^+ 2 * fro2 y) ->
  mu * q_acond out ^+ 2 <= (fro2 A + d ^+ 2 *+ n) *+ minn m n.
Proof.
move=> E mu mu0 H; have [out' [x [E' ok ac alt]]] := lsqrP opA d atol btol conlim cv lim0 bs.
have {E'}oE : out' = out by move: E'; rewrite /lsqr_call -/(call lim) E => -[].
rewrite {}oE in ok ac alt; have := lq_acb ok mu0; rewrite {2}/Ab fro2_col_mx fro2_scalar; apply.
by move=> c; rewrite mul_col_mx fro2_col_mx mul_scalar_mx fro2Z; exact: H.
Qed.

(** [conlim] cannot cause a premature stop. *)
Definition conlim_ok (A' : 'M[R]_(m, n)) (d' cl : R) := cl <= 0 \/
  exists mu, [/\ 0 <= mu,
    forall c : 'cV[R]_m, let y := A'^T *m c in mu * fro2 y <= fro2 (A' *m y) + d' ^+ 2 * fro2 y,
    2%:R ^- 52 <= cl & (fro2 A' + d' ^+ 2 *+ n) *+ minn m n < mu * (cl - 2%:R ^- 52) ^+ 2].

Lemma lsqr_no3 out : call lim = Ok out -> conlim_ok A d conlim -> q_istop out <> 3%N.
Proof.
move=> E ok st; have [x [_ _ ac [_ _ _ /(_ st)[c0 c1] _]]] := lsqr_stop_lemma E.
case: ok => [c2|[mu [mu0 H le lt]]]; first by move: (lt_le_trans c0 c2); rewrite ltxx.
have := lsqr_acond_lemma E mu0 H; rewrite leNgt => /negP; apply.
apply: (lt_le_trans lt); apply: ler_wpmul2l => //.
by rewrite ler_pexpn2r ?nnegrE ?subr_ge0 // ler_subl_addr.
Qed.

(** Finite termination. *)
Lemma lsqr_finite_lemma out : call lim = Ok out ->
  exists x : 'cV[R]_n, [/\ q_x out = ofcv x, (q_itn out <= minn m n)%N,
    q_itn out = minn m n -> g x = 0 &
    atol <= 0 -> btol <= 0 -> conlim_ok A d conlim -> (minn m n <= absz (lim_of n lim))%N -> g x = 0].
Proof.
move=> E; have [out' [x [E' ok ac alt]]] := lsqrP opA d atol btol conlim cv lim0 bs.
have {E'}oE : out' = out by move: E'; rewrite /lsqr_call -/(call lim) E => -[].
rewrite {}oE in ok ac alt.
have [x' [xE le _ [i0 i1 i2 i3 [i4 i5 i7 il]]]] := lsqr_stop_lemma E.
have {xE}x'E : x' = x by apply: (@ofcv_inj R); rewrite -xE; exact: (lq_x ok).
subst x'; have dim : q_itn out = minn m n -> g x = 0.
  move=> it; apply: contraTeq (leqnn (minn m n)) => gx.
  by have := lq_dim ok; rewrite Ab_rb -/(g x) gx it -ltnNge => ->.
exists x; split=> //; [exact: lq_x ok | exact: (proj2 (lq_itn ok)) |].
move=> a0 b0 c0 lim1.
have rz : q_r2norm out = 0 -> g x = 0.
  rewrite (lq_r2 ok) => /eqP; rewrite fro_eq0 => /eqP r0.
  by rewrite /g -Ab_rb r0 mulmx0.
have r2 : 0 <= q_r2norm out by rewrite (lq_r2 ok) fro_ge0.
have an : 0 <= q_anorm out := lq_an0 ok.
have xn : 0 <= q_xnorm out by rewrite (lq_xn ok) fro_ge0.
have eps : 0 < (2%:R ^- 52 : R) := eps_gt0 R.
move: il; rewrite !inE => /or3P[/eqP st|/eqP st|].
- have [xx [g0|l0]] := i0 st; first by rewrite xx.
  apply: dim; apply/eqP; rewrite eqn_leq (proj2 (lq_itn ok)).
  by apply: leq_trans lim1 _; rewrite l0.
- have h := i1 st; apply: rz; apply/eqP; rewrite eq_le r2 andbT; apply: (le_trans h).
  by rewrite -[leRHS]addr0 ler_add ?mulr_le0_ge0 ?fro_ge0.
case/or3P=> [/eqP st|/eqP st|].
- have h := i2 st; apply/eqP; rewrite -fro_eq0 eq_le fro_ge0 andbT; apply: (le_trans h).
  by rewrite mulr_le0_ge0 // addr_ge0 ?mulr_ge0 // ltW.
- by case: (lsqr_no3 E c0).
case/or3P=> [/eqP st|/eqP st|/eqP st].
- have h := i4 st; rewrite -fro2_rb in h; apply: rz.
  by rewrite (lq_r2 ok) /fro h sqrtr0.
- exact: i5.
- by apply: dim; apply/eqP; rewrite eqn_leq (proj2 (lq_itn ok)) (i7 st).
Qed.

End Top.

Lemma min_norm m n (A : 'M[R]_(m, n)) b xs d (x z : 'cV[R]_n) :
  A^T *m (b - A *m x) - d ^+ 2 *: (x - xs) = 0 ->
  (exists c, x - xs = A^T *m c) ->
  fro2 (b - A *m z) + d ^+ 2 * fro2 (z - xs) <= fro2 (b - A *m x) + d ^+ 2 * fro2 (x - xs) ->
  fro2 (x - xs) <= fro2 (z - xs).
Proof.
move=> g0 [c cE]; rewrite -!fro2_rb; rewrite -Ab_rb in g0.
have -> : rb A b xs d z = rb A b xs d x - 1 *: (Ab A d *m (z - x)).
  by rewrite -rbD scale1r addrC subrK.
rewrite scale1r (fro2B (rb A b xs d x)); have -> : fip (rb A b xs d x) (Ab A d *m (z - x)) = 0.
  by rewrite /fip mulmxA -[_^T *m Ab A d]trmxK trmx_mul trmxK g0 trmx0 mul0mx raddf0.
rewrite mulr0 subr0 ger_addl => h.
have : fro2 (Ab A d *m (z - x)) == 0 by rewrite eq_le h fro2_ge0.
rewrite mul_col_mx fro2_col_mx paddr_eq0 ?fro2_ge0 // fro2_eq0 => /andP[/eqP A0 _].
have -> : z - xs = (x - xs) + (z - x) by rewrite [RHS]addrC subrKA.
rewrite cE fro2D; have -> : fip (A^T *m c) (z - x) = 0.
  by rewrite /fip trmx_mul trmxK -mulmxA A0 mulmx0 raddf0.
by rewrite mulr0 addr0 ler_addl fro2_ge0.
Qed.

Lemma lsqr_finite_opt m n (A : 'M[R]_(m, n)) op (b : 'cV[R]_m)
    (start : option 'cV[R]_n) (d atol btol conlim : R) cv (lim : option int) out :
  let x0 := lsqr_x0 start in
  let obj x := fro2 (b - A *m x) + d ^+ 2 * fro2 (x - x0) in
  lin_is op A -> 0 <= lim_of n lim -> b != 0 \/ start = None ->
  lsqr op (ofcv b) d atol btol conlim lim cv (omap (@ofcv R n) start) = Ok out ->
  exists x : 'cV[R]_n, [/\ q_x out = ofcv x, (q_itn out <= minn m n)%N &
    q_itn out = minn m n \/
    [/\ atol <= 0, btol <= 0, conlim_ok A d conlim & (minn m n <= absz (lim_of n lim))%N] ->
      (forall z, obj x <= obj z) /\
      (forall z, obj z <= obj x -> fro2 (x - x0) <= fro2 (z - x0))].
Proof.
move=> x0 obj opA l0 bs E; have [x [xE it h1 h2]] := lsqr_finite_lemma opA l0 bs E.
have [out' [x' [E' ok ac alt]]] := lsqrP opA d atol btol conlim cv l0 bs.
have {E'}oE : out' = out by move: E'; rewrite /lsqr_call E => -[].
rewrite {}oE in ok ac alt; have x'E : x' = x by apply: (@ofcv_inj R); rewrite -xE -(lq_x ok).
rewrite {}x'E in ok.
exists x; split=> // h; have g0 : A^T *m (b - A *m x) - d ^+ 2 *: (x - x0) = 0.
  by case: h => [i|[a0 b0 c0 le]]; [exact: h1 | exact: h2].
split=> z; first exact: lsq_opt.
by apply: (min_norm g0); exact: lq_rng ok.
Qed.

Lemma conlim_ok_wit : conlim_ok (1%:M : 'M[R]_1) 0 3%:R.
Proof.
have e1 : (2%:R ^- 52 : R) <= 1.
  rewrite invf_le1 ?exprn_gt0 ?ltr0n //; apply: exprn_ege1; by rewrite ler1n.
right; exists 1; split; first exact: ler01.
- by move=> c; rewrite /= mul1mx expr0n /= mul0r addr0 mul1r.
- by apply: (le_trans e1); rewrite ler1n.
rewrite fro2_scalar expr1n expr0n /= mul0rn addr0 minnn !mulr1n mul1r.
have e2 : 1 + 1 <= 3%:R - 2%:R ^- 52 :> R.
  rewrite ler_subr_addr; apply: (@le_trans _ _ (1 + 1 + 1)); first by rewrite ler_add2l.
  by rewrite -[1 in X in X <= _]/(1%:R) -!natrD.
apply: (@lt_le_trans _ _ ((1 + 1) ^+ 2)).
  by rewrite -[1 + 1]/(1%:R + 1%:R) -natrD -natrX ltr1n.
have p2 : 0 <= 1 + 1 :> R by rewrite addr_ge0 ?ler01.
by rewrite ler_pexpn2r // nnegrE // (le_trans p2 e2).
Qed.

(** ** With damping and a non-zero start, LSQR solves a shifted problem. *)
Lemma lsqr_shift_wit (b : 'cV[R]_1) :
  lsqr (as_linop (ofmx (1%:M : 'M[R]_1))) (ofcv b) 1 0 0 0 None false (Some (ofcv b)) =
  Ok (LsqrOut (ofcv b) 0 0 0 0 0 0 (EScal 0) 0 (vzeros 1)).
Proof.
have := lsqr_unfold (as_linopP (1%:M : 'M[R]_1)) b (Some b) 1 0 0 0 false None.
by rewrite /lsqr_x0 mul1mx subrr fro0 eqxx.
Qed.

Lemma lsqr_shift_bad (b z : 'cV[R]_1) : b != 0 -> z = 2%:R^-1 *: b ->
  fro2 (b - 1%:M *m z) + 1 ^+ 2 * fro2 z < fro2 (b - 1%:M *m b) + 1 ^+ 2 * fro2 b.
Proof.
move=> b0 zE; rewrite !mul1mx subrr fro20 add0r expr1n !mul1r.
have h2 : 2%:R^-1 + 2%:R^-1 = 1 :> R by rewrite -mulr2n -[_ *+ 2]mulr_natr mulVf ?pnatr_eq0.
have -> : b - z = 2%:R^-1 *: b.
  rewrite zE -{1}(scale1r b) -scalerBl; congr (_ *: _).
  by rewrite -{1}h2 addrK.
have b1 : 0 < fro2 b by rewrite lt_neqAle eq_sym fro2_eq0 fro2_ge0 andbT.
rewrite zE !fro2Z -mulrDl gtr_pmull //.
have -> : 2%:R^-1 ^+ 2 + 2%:R^-1 ^+ 2 = 2%:R^-1 :> R.
  by rewrite expr2 -mulrDr h2 mulr1.
by rewrite invf_lt1 ?ltr0n // ltr1n.
Qed.

Lemma lsqr_shift_refuted :
  let A : 'M[R]_1 := 1%:M in let b : 'cV[R]_1 := const_mx 1 in
  let obj x := fro2 (b - A *m x) + 1 ^+ 2 * fro2 x in
  exists out (x z : 'cV[R]_1),
  [/\ lsqr (as_linop (ofmx A)) (ofcv b) 1 0 0 0 None false (Some (ofcv b)) = Ok out,
      q_x out = ofcv x, obj z < obj x, q_xnorm out <> fro x & q_r2norm out <> Num.sqrt (obj x)].
Proof.
move=> A b obj.
have b0 : b != 0.
  by apply/eqP => /matrixP/(_ 0 0); rewrite !mxE => /eqP; rewrite oner_eq0.
exists (LsqrOut (ofcv b) 0 0 0 0 0 0 (EScal 0) 0 (vzeros 1)), b, (2%:R^-1 *: b).
have E := lsqr_shift_wit b; split; [exact: E| | | |] => {E}.
- by [].
- by apply: lsqr_shift_bad.
- by rewrite [q_xnorm _]/= => /esym/eqP; rewrite fro_eq0; apply/negP.
rewrite [q_r2norm _]/= /obj mul1mx subrr fro20 add0r expr1n mul1r -/(fro b) => /esym/eqP.
by rewrite fro_eq0; apply/negP.
Qed.

End Iter.
