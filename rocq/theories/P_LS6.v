(** Further consequences for the least-squares and saddle-point drivers, and
    witnesses for the refuted properties. *)
From mathcomp Require Import all_ssreflect all_algebra.
From mathcomp Require Import zify.
From Verif Require Import Base Arr Lapack Exact MxLib RingTac LapackSpec Rng Aware LapackExists Pcg P_Pcg Lsqr P_Lsqr P_Iter.
From Verif Require Import Precond LstSq SaddleSys P_Precond P_Svd P_Pcss1 Chol P_LS P_LS2 P_LS3 P_LS4 P_LS5.
Set Implicit Arguments.
Unset Strict Implicit.
Unset Printing Implicit Defensive.
Import Order.TTheory GRing.Theory Num.Theory.
Local Open Scope ring_scope.

(** ** dim_checks *)
Lemma trunc_rat_uniq (q : rat) (t : int) : 0 <= q -> t%:~R <= q < (t + 1)%:~R -> trunc_rat q = t.
Proof.
move=> q0 /andP[h1 h2]; have [_ /andP[h3 h4]] := trunc_ratP q0.
have := le_lt_trans h1 h4; have := le_lt_trans h3 h2; rewrite !ltr_int; lia.
Qed.

Lemma dim_checks_lemma (G T : Type) (O : ops T) (sf : rat) (m n : nat) (t : int) (s : st G T) :
  0 <= sf -> t%:~R <= sf * n%:R < (t + 1)%:~R ->
  dim_checks sf m n s =
  if (m < n)%N then (s, inl AssertionError)
  else if t < n%:Z then (s, inl AssertionError)
  else if t <= m%:Z then (s, inr (absz t))
  else (St (gen s) (rcons (evs s) (EvWarn W_dim)), inr m).
Proof.
move=> sf0 ht; have tE := trunc_rat_uniq (mulr_ge0 sf0 (ler0n _ n)) ht.
rewrite dim_checksE /dim_state tE -ltnNge; case: ltnP => //= nm.
case: (leP t m%:Z) => tm; last first.
  by have -> : (t < n%:Z) = false by lia.
by rewrite leNgt; case: (t < n%:Z).
Qed.

Lemma dim_checks_neg (G T : Type) (O : ops T) (sf : rat) (m n : nat) (s : st G T) :
  sf < 0 -> (0 < n)%N -> dim_checks sf m n s = (s, inl AssertionError).
Proof.
move=> sf0 n0; have t0 : trunc_rat (sf * n%:R) <= 0.
  by apply: trunc_rat_neg; rewrite mulr_le0_ge0 ?ler0n ?ltW.
rewrite dim_checksE; case: leqP => //= nm.
have -> : (m%:Z < trunc_rat (sf * n%:R)) = false by lia.
by have -> : (n%:Z <= trunc_rat (sf * n%:R)) = false by lia.
Qed.

Section L6.
Variable R : rcfType.

(** ** a_lift_precond *)
Definition lift_ok m n (A : 'M[R]_(m, n)) (dl : R) m' (Ab : 'M[R]_(m', n)) : Prop :=
  if 0 < dl then m' = (m + n)%N /\ ofmx Ab = ofmx (col_mx A (Num.sqrt dl)%:M)
  else m' = m /\ ofmx Ab = ofmx A.

Lemma precond_lemma m n k (A : 'M[R]_(m, n)) (dl : R) (P : arr R) tri (M : 'M[R]_(n, k)) :
  0 <= dl ->
  (tri = false /\ P = ofmx M \/
   tri = true /\ exists U : 'M[R]_n, [/\ U \in unitmx, (forall i j : 'I_n, (j < i)%N -> U i j = 0),
      P = ofmx U & ofmx M = ofmx (invmx U)]) ->
  exists m' (Ab : 'M[R]_(m', n)) op,
  [/\ a_lift_precond (ofmx A) dl P tri 1 = Ok op, lift_ok A dl Ab /\ (lo_nr op, lo_nc op) = (m', k),
      forall x : 'cV[R]_k, lo_mv op (ofcv x) = Ok (ofcv (Ab *m (M *m x))),
      forall y : 'cV[R]_m', lo_rmv op (ofcv y) = Ok (ofcv (M^T *m (Ab^T *m y))) &
      (forall x : 'cV[R]_k, M_fwd P tri (ofcv x) = Ok (ofcv (M *m x))) /\
      forall x : 'cV[R]_n, M_adj P tri (ofcv x) = Ok (ofcv (M^T *m x))].
Proof.
move=> d0 hP; have pc : is_pc P tri M.
  case: hP => [[-> ->]|[-> [U [uU tU -> ME]]]]; first exact: is_pc_dense.
  have kn : k = n by case: ME.
  by subst k; rewrite (ofmx_inj ME); apply: is_pc_tri.
have [m' [Ab [op [[E lin lf aE mE] _]]]] := a_lift_precondP A d0 pc.
exists m', Ab, op; case: lin => e1 e2 h1 h2; split=> //.
- split; last by rewrite e1 e2.
  move: aE; rewrite a_liftE /lift_ok; move: mE; case: ltP => dp mE.
    by rewrite sqrtr_eq0 leNgt dp /= => e; split=> //; exact: esym (ok_inj e).
  by rewrite sqrtr_eq0 dp => e; split=> //; exact: esym (ok_inj e).
- by move=> x; rewrite mulmxA; exact: h1.
- by move=> y; rewrite mulmxA -trmx_mul; exact: h2.
by split; [exact: pc_fwd pc | exact: pc_adj pc].
Qed.

(** ** PcSS1 *)
Section Pcss1.
Variables (m n : nat) (A : 'M[R]_(m, n)) (b : option 'cV[R]_m) (c : option 'cV[R]_n) (dl tol : R).
Let b0 := vdef b.
Let c0 := vdef c.
Notation H := (A^T *m A + dl%:M).
Notation rhs := (A^T *m b0 - c0).
Notation call lim P tri z0 := (PcSS1 (ofmx A) (omap (@ofcv R m) b) (omap (@ofcv R n) c) dl tol lim P tri z0).

Lemma pcss1_saddle_lemma lim (P : arr R) tri z0 out : call lim P tri z0 = Ok out ->
  exists x : 'cV[R]_n,
    [/\ o_x out = Some (ofcv x), o_y out = ofcv (b0 - A *m x), b0 - A *m x + A *m x = b0 &
        H *m x = rhs -> saddle A b0 c0 dl x (b0 - A *m x)].
Proof.
case/pcss1_y => _ [x [xE yE _]]; exists x; split=> //; first by rewrite subrK.
by move=> h; apply/saddleP.
Qed.

Lemma pcss1_none lim P tri z0 :
  PcSS1 (ofmx A) None (omap (@ofcv R n) c) dl tol lim P tri z0 =
  PcSS1 (ofmx A) (Some (ofcv (0 : 'cV[R]_m))) (omap (@ofcv R n) c) dl tol lim P tri z0.
Proof. by rewrite /PcSS1 nr_ofmx vzerosE. Qed.

Lemma pcss1_full_lemma lim (P : 'M[R]_n) (z0 : option 'cV[R]_n) :
  0 <= dl -> (\rank A = n \/ 0 < dl) -> \rank P = n -> (n <= absz lim)%N -> 0 <= lim -> tol = 0 ->
  exists x es, call lim (ofmx P) false (omap (@ofcv R n) z0) =
      Ok (SOut (Some (ofcv x)) (ofcv (b0 - A *m x)) (EArr es) (ofmx P)) /\
    saddle A b0 c0 dl x (b0 - A *m x).
Proof.
move=> d0 hA rP nl l0 t0; have tn : 0 <= tol by rewrite t0.
have [x [es [P' [E _ /(_ erefl) PE /(_ nl)[_ /(_ t0) sd]]]]] :=
  @pcss1_good R m n A b c dl tol lim n P z0 d0 hA (or_introl (conj erefl rP)) l0 tn.
by exists x, es; rewrite E PE.
Qed.

Lemma pcss1_low_lemma lim k (V : 'M[R]_(n, k)) (s : 'cV[R]_k) z0 :
  0 <= dl -> (\rank A = n \/ 0 < dl) -> (0 < k < n)%N -> orthonormal V -> (forall i, 0 < s i 0) ->
  (n <= absz lim)%N -> 0 <= lim -> tol = 0 ->
  exists x es (t : 'cV[R]_k), call lim (ofmx (V *m diag_mx (vinv s)^T)) false z0 =
      Ok (SOut (Some (ofcv x)) (ofcv (b0 - A *m x)) (EArr es) (ofmx (V *m diag_mx t^T))) /\
    saddle A b0 c0 dl x (b0 - A *m x) /\ forall i : 'I_k, i.+1 = k -> t i 0 = 1.
Proof.
move=> d0 hA /andP[k0 kn] oV s0 nl l0 t0; have tn : 0 <= tol by rewrite t0.
have nkn : k <> n by move=> e; rewrite e ltnn in kn.
have gp : good_pc (V *m diag_mx (vinv s)^T).
  by right; split=> //; split=> //; exists V, s.
have [x [es [P' [E _ _ /(_ nl)[_ /(_ t0) sd]]]]] :=
  @pcss1_good R m n A b c dl tol lim k _ None d0 hA gp l0 tn.
have zE : call lim (ofmx (V *m diag_mx (vinv s)^T)) false z0 =
    call lim (ofmx (V *m diag_mx (vinv s)^T)) false None.
  rewrite /PcSS1 !nc_ofmx; have -> : (k == n)%bool = false by apply/eqP.
  by case: z0.
have [t [[_ t1] lE]] := pcss1_lowrankE oV s0 d0 k0.
exists x, es, t; rewrite zE; split=> //.
have hP : (if k == n then (P', Some (ofmx V)) = (ofmx (V *m diag_mx (vinv s)^T), None)
   else exists V', Some (ofmx V) = Some V' /\
     pcss1_lowrank dl (ofmx (V *m diag_mx (vinv s)^T)) = Ok (ofmx (V *m diag_mx t^T), V')).
  by case: eqP => // _; exists (ofmx V).
move: E; have := @pcss1_pcg R m n A b c dl tol lim k (V *m diag_mx (vinv s)^T) None (Some (ofmx V)) (ofmx (V *m diag_mx t^T)).
case: eqP => // _ /(_ (ex_intro _ _ (conj erefl lE))) -> E.
case: (rbind_inv E) => -[x' es'] [E1 {}E]; case: (rbind_inv E) => Ax [E2 {}E].
case: (rbind_inv E) => y [E3 E4]; rewrite E1 [rbind (Ok _) _]/= E2 [rbind (Ok _) _]/= E3 [rbind (Ok _) _]/=.
by case: E4 => -> -> -> _.
Qed.
End Pcss1.

(** ** PcSS2 *)
Lemma pcss2_both m n k (A : 'M[R]_(m, n)) (P : 'M[R]_(n, k)) (b : 'cV[R]_m) (c : 'cV[R]_n) dl tol lim z0 :
  0 <= dl -> b != 0 -> c != 0 ->
  PcSS2 (ofmx A) (Some (ofcv b)) (Some (ofcv c)) dl tol lim (ofmx P) false z0 = Err ValueError.
Proof.
move=> d0 b0 c0; have [m' [Ab [op [[opE _ _ _ _] _]]]] := a_lift_precondP A d0 (is_pc_dense P).
by rewrite /PcSS2 opE [rbind _ _]/= !vnormE !fro_eq0 (negbTE b0) (negbTE c0).
Qed.

Lemma pcss2_c0_lemma m n k (A : 'M[R]_(m, n)) (P : 'M[R]_(n, k)) (b : 'cV[R]_m) (c : option 'cV[R]_n) dl tol lim z0 :
  0 <= dl -> 0 <= lim -> vdef c = 0 -> b != 0 \/ z0 = None ->
  exists (x : 'cV[R]_n) es, PcSS2 (ofmx A) (Some (ofcv b)) (omap (@ofcv R n) c) dl tol lim (ofmx P) false
    (omap (@ofcv R k) z0) = Ok (SOut (Some (ofcv x)) (ofcv (b - A *m x)) es (ofmx P)).
Proof.
move=> d0 l0 cz hb; have pc := is_pc_dense P.
have [m' [Ab [op [[opE lin _ _ _] hbb]]]] := a_lift_precondP A d0 pc; have [bb lb] := hbb b.
have c0 : is_true (if c is Some c then c == 0 else true) by case: (c) cz => //= ? ->.
have [_ good] := pcss2_over pc c0 tol lim z0 opE lb.
have h : bb != 0 \/ z0 = None.
  case: hb => [bn|]; [left; apply: contra_neq bn => e | by right].
  by have := lb_obj lb 0; rewrite e !mulmx0 !subr0 !fro20 mulr0 addr0 => /esym/eqP; rewrite fro2_eq0 => /eqP.
have [out E] := lsqr_returns lin 0 tol tol conlim_dflt false (l0 : 0 <= lim_of k (Some lim)) h.
have [z [zE _]] := lsqr_mono_lemma lin (l0 : 0 <= lim_of k (Some lim)) h E.
by exists (P *m z), (q_errs out); exact: good E zE.
Qed.
End L6.

(** ** SPS1 *)
Section Sps1.
Variables (R : rcfType) (G : Type) (L : lapack R).
Variables (g : nat -> nat -> M G R (pyop R)) (sf : rat) (m n : nat).
Variables (A : 'M[R]_(m, n)) (b : option 'cV[R]_m) (c : option 'cV[R]_n) (dl tol : R).
Hypotheses (qr : qr_spec L) (svd : svd_spec L).
Hypotheses (hA : \rank A = n \/ 0 < dl) (dl0 : 0 <= dl) (tol0 : 0 <= tol).
Let t := trunc_rat (sf * n%:R).

Lemma sps1_full_lemma strat s : (0 < n)%N -> n%:R < 2%:R ^+ 52 :> R -> n%:Z <= t -> strat <> NOther ->
  gen_ok g (absz t) m ->
  exists s1 Sk (Sm : 'M[R]_(absz t, m)),
  [/\ g (absz t) m (St (gen s) (rcons (evs s) (EvDraw (absz t) m))) = (s1, inr Sk), py_is Sk Sm &
      Sm *m A <> 0 \/ 0 < dl -> sps1_solves L g sf strat A b c dl tol s].
Proof.
move=> n0 n52 nt sO gok.
have [s1 [Sk [Sm [p [As [k [M0 [U [sg [Vh [zo [[gE pS] _ _ gp [_ run]]]]]]]]]]]]] :=
  sps1_full A b c tol svd (@PcSS1 R (rcf_ops R)) s n0 nt dl0 sO gok.
exists s1, Sk, Sm; split=> // h; exact: (sps1_solve hA dl0 tol0 (gp n52 h) run).
Qed.

Lemma sps1_left_lemma s : (n <= m)%N -> 0 < t < n%:Z -> \rank A = n -> gen_ok g (absz t) m ->
  sps1_solves L g sf NLeft A b c dl tol s.
Proof.
move=> nm tn rA gok.
have [s1 [Sk [Sm [k [M0 [_ _ _ gp run]]]]]] := sps1_left b c tol qr svd (@PcSS1 R (rcf_ops R)) s nm tn dl0 rA gok.
exact: (@sps1_solve _ _ _ _ _ _ _ _ _ _ _ _ _ hA dl0 tol0 _ _ _ _ None gp run).
Qed.

Lemma sps1_right_lemma s : (n <= m)%N -> 0 < t < n%:Z -> \rank A = n ->
  (forall s, exists s' (Sm : 'M[R]_(n, absz t)), \rank Sm = absz t /\
     (g n (absz t) s = (s', inr (PyArr (ofmx Sm))) \/ g n (absz t) s = (s', inr (PySp (ofmx Sm))))) ->
  sps1_solves L g sf NRight A b c dl tol s.
Proof.
move=> nm tn rA gok.
have [s1 [k [M0 [_ gp run]]]] := sps1_right b c tol qr svd (@PcSS1 R (rcf_ops R)) s nm tn dl0 rA gok.
exact: (@sps1_solve _ _ _ _ _ _ _ _ _ _ _ _ _ hA dl0 tol0 _ _ _ _ None gp run).
Qed.
End Sps1.

(** SPS1 with the LSQR-based solver and two non-zero right-hand sides. *)
Lemma sps1_lsqr_lemma (R : rcfType) (G : Type) (L : lapack R) (g : nat -> nat -> M G R (pyop R)) sf m n
    (A : 'M[R]_(m, n)) (b : 'cV[R]_m) (c : 'cV[R]_n) (dl tol : R) strat lim lg clk s :
  svd_spec L -> 0 <= dl -> (0 < n)%N -> n%:Z <= trunc_rat (sf * n%:R) -> strat <> NOther ->
  gen_ok g (absz (trunc_rat (sf * n%:R))) m -> b != 0 -> c != 0 ->
  exists s1, SPS1 L g sf (@PcSS2 R (rcf_ops R)) strat (ofmx A) (Some (ofcv b)) (Some (ofcv c)) dl tol lim lg clk s
    = (s1, inl ValueError).
Proof.
move=> svd d0 n0 nt sO gok b0 c0.
have [s1 [Sk [Sm [p [As [k [M0 [U [sg [Vh [zo [_ _ _ _ [_ run]]]]]]]]]]]]] :=
  @sps1_full R G L g sf m n A (Some b) (Some c) dl tol svd strat (@PcSS2 R (rcf_ops R)) s n0 nt d0 sO gok.
by exists s1; rewrite (run lim lg clk) /= pcss2_both.
Qed.

(** ** Right-hand sides that make calls raise *)
Section Zero.
Variables (R : rcfType) (G : Type) (L : lapack R).
Variables (g : nat -> nat -> M G R (pyop R)) (sf : rat) (m n : nat).
Variables (A : 'M[R]_(m, n)) (dl tol : R).
Hypotheses (ok : lsq_ok g sf m n) (svd : svd_spec L) (dl0 : 0 <= dl).

Lemma spu_zero_lemma lim lg clk s : exists s1,
  SPU1 L g sf (ofmx A) (ofcv (0 : 'cV[R]_n)) tol lim lg clk s = (s1, inl TypeError).
Proof.
by have [s1 [d [Sm [_ [bad _]]]]] := spu_lemma A 0 tol ok svd s; exists s1; rewrite bad.
Qed.

Lemma sps2_zero_lemma (b : option 'cV[R]_m) (c : option 'cV[R]_n) lim clk s :
  vdef b = 0 -> vdef c = 0 -> 0 <= lim -> exists s1,
  SPS2 L g sf (@PcSS2 R (rcf_ops R)) (ofmx A) (omap (@ofcv R m) b) (omap (@ofcv R n) c) dl tol lim true clk s
    = (s1, inl ValueError).
Proof.
move=> bz cz l0; have [s1 [d [Sm [_ [k [M0 [Pc [x0 [_ _ H]]]]]]]]] := sps2_lemma A b c tol ok svd dl0 s.
exists s1; have [x' [es' [_ le /(_ erefl) xx _ _]]] := H 0 (lexx 0); subst x'.
have [x [es [E _ _ _ alt]]] := H lim l0; rewrite E.
case: alt => [[_ [-> _]] //|[g0 _]]; case: g0.
have := le cz; rewrite /ridge bz fro20 sub0r => le0.
have /andP[/eqP f1 /eqP f2] : (fro2 (- (A *m x0)) == 0) && (dl * fro2 x0 == 0).
  by rewrite -paddr_eq0 ?mulr_ge0 ?fro2_ge0 // eq_le le0 addr_ge0 ?mulr_ge0 ?fro2_ge0.
have Ax : A *m x0 = 0 by apply/eqP; rewrite -fro2_eq0 -fro2N f1.
rewrite cz !mulmx0 subr0 sub0r mulmxN mulmxDl -[A^T *m A *m x0]mulmxA Ax mulmx0 add0r mul_scalar_mx.
by move/eqP: f2; rewrite mulf_eq0 fro2_eq0 => /orP[] /eqP ->; rewrite ?scale0r ?scaler0 mulmx0 oppr0.
Qed.
End Zero.

(** ** Least squares minimisers and the normal equations *)
Section Reduce.
Variable R : rcfType.
Add Field rcf_field_l6 : (rcf_field R).

Lemma lsq_iff p n (A : 'M[R]_(p, n)) b (x : 'cV[R]_n) :
  (forall z, fro2 (b - A *m x) <= fro2 (b - A *m z)) <-> A^T *m (b - A *m x) = 0.
Proof.
split=> [mn|g0 z]; last first.
  have := @lsq_opt R p n A b 0 0 x; rewrite expr0n /= scale0r !subr0 => /(_ g0 z).
  by rewrite !mul0r !addr0.
set r := b - A *m x; set w := A^T *m r.
have E t : fro2 (b - A *m (x + t *: w)) = fro2 r - 2%:R * (t * fro2 w) + t ^+ 2 * fro2 (A *m w).
  rewrite mulmxDr opprD addrA -/r -scalemxAr fro2B fro2Z; congr (_ - _ * _ + _).
  by rewrite /fip -scalemxAr mxtraceZ mulmxA -[r^T *m A]trmxK trmx_mul trmxK -/w fro2_tr.
apply/eqP; rewrite -fro2_eq0; have w0 := fro2_ge0 w.
have [Aw0|Aw] := eqVneq (fro2 (A *m w)) 0.
  have := mn (x + 1 *: w); rewrite E Aw0 mulr0 addr0 mul1r -/r ler_subr_addr ger_addl => h.
  by rewrite eq_le w0 andbT; move: h; rewrite pmulr_rle0 ?ltr0n.
have a0 : 0 < fro2 (A *m w) by rewrite lt_neqAle eq_sym Aw fro2_ge0.
have := mn (x + (fro2 w / fro2 (A *m w)) *: w); rewrite E -/r.
have -> : fro2 r - 2%:R * (fro2 w / fro2 (A *m w) * fro2 w) + (fro2 w / fro2 (A *m w)) ^+ 2 * fro2 (A *m w)
  = fro2 r - fro2 w ^+ 2 / fro2 (A *m w) by rfield; rewrite gt_eqF.
rewrite ler_subr_addr ger_addl pmulr_lle0 ?invr_gt0 // => h.
by rewrite -sqrf_eq0 eq_le h sqr_ge0.
Qed.

Variables (G : Type) (L : lapack R).
Variables (g : nat -> nat -> M G R (pyop R)) (sf : rat) (m n : nat).
Variables (A : 'M[R]_(m, n)) (b : option 'cV[R]_m) (c : option 'cV[R]_n) (dl tol : R).
Hypotheses (ok : lsq_ok g sf m n) (svd : svd_spec L) (dl0 : 0 <= dl).

(** Whatever the solver passed to SPS2, it is run on a least squares problem
    equivalent to the normal equations. *)
Lemma sps2_reduce_lemma (slv : @solver R) s : exists s1 d (Sm : 'M[R]_(d, m)), drew g sf n s s1 Sm /\
  exists m' (Ab : 'M[R]_(m', n)) (ba : 'cV[R]_m') k (M0 : 'M[R]_(n, k)) start,
  (lift_clean L dl (Sm *m A) -> \rank (Sm *m A) = n \/ 0 < dl -> forall x : 'cV[R]_n,
     (forall z, fro2 (ba - Ab *m x) <= fro2 (ba - Ab *m z)) <->
     (A^T *m A + dl%:M) *m x = A^T *m vdef b - vdef c) /\
  forall lim logging clk out (x : 'cV[R]_n),
    slv (ofmx Ab) (Some (ofcv ba)) None 0 tol lim (ofmx M0) false start = Ok out ->
    o_x out = Some (ofcv x) -> o_R out = ofmx M0 ->
    exists init, SPS2 L g sf slv (ofmx A) (omap (@ofcv R m) b) (omap (@ofcv R n) c) dl tol lim logging clk s =
      (s1, log_ret logging clk (o_errs out) init (ofcv x, ofcv (vdef b - A *m x))).
Proof.
have [d [s1 [Sk [Sm [dE gE pS [p [As [k [M0 [Vh [m' [Ab [Sg [ba [start [su run]]]]]]]]]]]]]]]] :=
  sps2_run A b c tol svd slv s (lk_shape ok) (lk_sf ok) (lk_gen ok) dl0.
exists s1, d, Sm; split; first by split=> //; exists Sk.
exists m', Ab, ba, k, M0, (omap (@ofcv R k) start); split; last first.
  by move=> lim logging clk out x E xE RE; eexists; exact: run E xE RE.
move=> cl h x; have cl' : svd_clean L As by move=> U0 s0 Vh0; exact: cl _ _ _ _ (s2_a su).
have rk : \rank As = n by apply/(lifted_rank dl0 (s2_l su)).
have VV (v : 'cV[R]_n) : Vh^T *m (Vh *m v) = v.
  by have [W WE] := full_rng v rk; rewrite WE (s2_V su W cl').
rewrite lsq_iff mulmxBr (s2_b su) VV mulmxA (lf_gram (s2_l' su)).
split=> [/eqP|<-]; last by rewrite subrr.
by rewrite subr_eq0 => /eqP.
Qed.
End Reduce.

(** * Witnesses *)
Section Wit.
Variable R : rcfType.
Notation XL := (exact_lapack R).

(** Sketching operators [cc] times (a part of) the identity. *)
Definition scale_gen (cc : R) (a e : nat) : M nat R (pyop R) :=
  ret (PyArr (ofmx (cc *: (\matrix_(i, j) (i == j :> nat)%:R) : 'M[R]_(a, e)))).

Lemma scale_gen_ok cc a e : gen_ok (scale_gen cc) a e.
Proof. by move=> s; do 3 eexists; split; [reflexivity | exact: py_is_arr]. Qed.

Lemma scale_lsq_ok cc m n : (0 < n <= m)%N -> lsq_ok (scale_gen cc) 1 m n.
Proof.
move=> nm; split=> // [|d _]; last exact: scale_gen_ok.
by rewrite mul1r (@trunc_rat_uniq _ n%:Z) ?ler0n // lexx /= (ltr_int _ n%:Z); lia.
Qed.

Definition clk0 : @timing R := Timing 0 0 0 0 0.

Lemma pcg_tol1 n (H P : 'M[R]_n) mvH mvP (b x0 : 'cV[R]_n) (lim : int) :
  op_is mvH H -> op_is mvP P -> 0 <= lim ->
  pcg mvH (ofcv b) mvP lim 1 (ofcv x0) = Ok (ofcv x0, [::]).
Proof.
move=> HH HP l0; rewrite (pcg_start HH HP) //= mul1r.
by case: (absz lim) => //= k; rewrite ltxx.
Qed.

Lemma pcss1_tol1 m n (A : 'M[R]_(m, n)) b c dl (P : 'M[R]_n) (z0 : option 'cV[R]_n) (lim : int) :
  0 <= lim -> let x0 := if z0 is Some z then P *m z else 0 in
  PcSS1 (ofmx A) (omap (@ofcv R m) b) (omap (@ofcv R n) c) dl 1 lim (ofmx P) false (omap (@ofcv R n) z0) =
  Ok (SOut (Some (ofcv x0)) (ofcv (vdef b - A *m x0)) (EArr [::]) (ofmx P)).
Proof.
move=> l0 x0; have hP : (if n == n then (ofmx P, None : option (arr R)) = (ofmx P, None)
   else exists V', None = Some V' /\ pcss1_lowrank dl (ofmx P) = Ok (ofmx P, V')) by rewrite eqxx.
rewrite (@pcss1_pcg R m n A b c dl 1 lim n P z0 None (ofmx P) hP) eqxx.
rewrite (pcg_tol1 _ _ (mv_gramE _ _) (pre_fullE _)) // [rbind (Ok _) _]/= mvE [rbind (Ok _) _]/= vsubE.
by [].
Qed.

Lemma sps1_tol_wit (s : st nat R) : exists s1 (x y : 'cV[R]_1) l,
  [/\ SPS1 XL (scale_gen 2%:R) 1 (@PcSS1 R (rcf_ops R)) NLeft (ofmx (1%:M : 'M[R]_1)) (Some (ofcv (4%:R%:M : 'cV[R]_1))) None
        0 1 5 true clk0 s = (s1, inr (Some (ofcv x), ofcv y, l)),
      errors l = Some [:: 4%:R] &
      1 < fro ((1%:M : 'M[R]_1)^T *m 4%:R%:M - ((1%:M : 'M[R]_1)^T *m 1%:M + 0%:M) *m x)].
Proof.
have t1 : trunc_rat (1 * 1%:R) = 1 by rewrite mul1r (@trunc_rat_uniq _ 1).
have sO : NLeft <> NOther by [].
have := @sps1_full R nat XL (scale_gen 2%:R) 1 1 1 1%:M (Some 4%:R%:M) None 0 1 (@exact_svd R) NLeft
    (@PcSS1 R (rcf_ops R)) s isT; rewrite t1 => /(_ isT (lexx 0) sO (@scale_gen_ok _ _ _)).
case=> s1 [Sk [Sm [p [As [k [M0 [U [sg [Vh [zo [[gE pS] [lA _] [sp _] gp [zE run]]]]]]]]]]]].
have SmE : Sm = 2%:R%:M.
  move: gE; rewrite /scale_gen /ret => -[_ sk]; have := py_r pS 1%:M; rewrite -sk /= mmulE.
  move=> e; have := ofmx_inj (ok_inj e : ofmx _ = ofmx _); rewrite !mulmx1 => <-.
  by apply/matrixP => i j; rewrite !ord1 !mxE /= mulr1.
have k1 : k = 1%N.
  case: gp => [||[//]|[k1 [k0 [V [sv [oV _ _]]]]]].
  - by rewrite -natrX ltr_nat.
  - left; rewrite SmE mulmx1 => /matrixP/(_ 0 0); rewrite !mxE /= => /eqP.
    by rewrite mulr1n pnatr_eq0.
  - have := rank_leq_row V; rewrite (orthonormal_rank oV) => kle; lia.
subst k; have [uM _ MM] := svd_pc_unit sp.
have G4 : As^T *m As = 4%:R%:M.
  by rewrite (lf_gram lA) SmE mulmx1 tr_scalar_mx -scalar_mxM -natrM raddf0 addr0.
pose x0 : 'cV[R]_1 := if zo is Some z then M0 *m z else 0.
have x0E : x0 = 0 \/ x0 = 1%:M.
  rewrite /x0 zE; lazy zeta; case: ifP => _; [by left | right].
  have MtE : M0^T = diag_mx (vinv sg)^T *m Vh.
    by rewrite (sp_M sp) trmx_mul trmxK tr_diag_mx.
  rewrite [X in M0 *m X](mulmxA (diag_mx (vinv sg)^T)) -MtE mulmxA MM G4 /= subr0 trmx1 mul1mx.
  apply: (can_inj (mulKmx (_ : 4%:R%:M \in unitmx))); last first.
    by rewrite mulmxA mulmxV ?mul1mx ?mulmx1 // -scalemx1 unitmxZ ?unitmx1 // unitfE pnatr_eq0.
  by rewrite -scalemx1 unitmxZ ?unitmx1 // unitfE pnatr_eq0.
have E := pcss1_tol1 1%:M (Some 4%:R%:M) None 0 M0 zo (isT : 0 <= 5 :> int).
have Er := run 5 true clk0; rewrite E in Er.
have [l [ts [wE lE _ _ _]]] := wrap_up_lemma (@log_of R (rcf_ops R) true clk0) [::]
  (fro ((1%:M : 'M[R]_1)^T *m vdef (Some 4%:R%:M) - vdef None)).
move: Er; rewrite /sps_ret /log_ret; lazy beta iota delta [o_errs o_x o_y Ok]; rewrite wE => Er.
exists s1, x0, (vdef (Some 4%:R%:M) - 1%:M *m x0), l; split; [exact: Er | rewrite lE trmx1 mul1mx subr0 | ].
  congr (Some [:: _]); rewrite /fro fro2_cv tr_scalar_mx -scalar_mxM mxE mulr1n -expr2 sqrtr_sqr.
  by rewrite ger0_norm ?ler0n.
rewrite trmx1 !mul1mx raddf0 addr0 mul1mx.
have fc (a : R) : fro (a%:M : 'cV[R]_1) = `|a|.
  by rewrite /fro fro2_cv tr_scalar_mx -scalar_mxM mxE mulr1n -expr2 sqrtr_sqr.
case: x0E => ->; first by rewrite subr0 fc ger0_norm ?ler0n // ltr1n.
have -> : 4%:R%:M - 1%:M = (3%:R%:M : 'cV[R]_1) by rewrite -raddfB /= -(@natrB _ 4 1).
by rewrite fc ger0_norm ?ler0n // ltr1n.
Qed.
End Wit.

(** * Forms used in the property statements *)
Section Forms.
Variable R : rcfType.

Lemma sso1_lemma (G : Type) (L : lapack R) (g : nat -> nat -> M G R (pyop R)) (sf : rat)
    m n (A : 'M[R]_(m, n)) (b : 'cV[R]_m) (dl : R) (tol : option R) (lim : int) s :
  lstsq_spec L -> lsq_ok g sf m n -> 0 <= dl ->
  exists d s1 Sk (Sm : 'M[R]_(d, m)) (x : 'cV[R]_n),
  [/\ d%:Z = Num.min (trunc_rat (sf * n%:R)) m%:Z,
      g d m (St (gen s) (evs s ++
          (if tol is Some _ then [:: EvWarn W_sso_tol] else [::]) ++
          (if 1 < lim then [:: EvWarn W_sso_iter] else [::]) ++
          (if m%:Z < trunc_rat (sf * n%:R) then [:: EvWarn W_dim] else [::]) ++ [:: EvDraw d m]))
        = (s1, inr Sk),
      py_is Sk Sm,
      SSO1 L g sf (ofmx A) (ofcv b) dl tol lim s = (s1, inr (ofcv x)) &
      ridge_min (Sm *m A) (Sm *m b) dl x].
Proof.
move=> lsq ok d0; have [d [s1 [Sk [Sm [x [dE gE pS E mn]]]]]] :=
  sso1_run A b dl tol lim s lsq (lk_shape ok) (lk_sf ok) (lk_gen ok).
exists d, s1, Sk, Sm, x; split=> //; last by move: mn; rewrite max_r.
by move: gE; rewrite /sso1_warns -!catA.
Qed.

Lemma svd_right_lemma (L : lapack R) p n (As : 'M[R]_(p, n)) :
  svd_spec L -> (0 < p)%N -> (0 < n)%N ->
  exists r (M : 'M[R]_(n, r)) (U : 'M[R]_(p, r)) (s : 'cV[R]_r) (Vh : 'M[R]_(r, n)) U0 s0 Vh0,
  [/\ svd_right_precond L (ofmx As) = Ok (ofmx M, ofmx U, ofcv s, ofmx Vh),
      As *m M = U /\ U^T *m U = 1%:M,
      Vh *m Vh^T = 1%:M /\ M = Vh^T *m diag_mx (\row_i (s i 0)^-1),
      (forall i, 0 < s i 0) /\ (forall i j : 'I_r, (i <= j)%N -> s j 0 <= s i 0) &
      [/\ l_svd L (ofmx As) = Ok (U0, s0, Vh0),
          r = count (fun t => nth 0 s0 0 * n%:R * 2%:R ^- 52 < t) s0 &
          (forall t, t \in s0 -> t = 0 \/ nth 0 s0 0 * n%:R * 2%:R ^- 52 < t) ->
            \rank As = r /\ As = U *m diag_mx s^T *m Vh]].
Proof.
move=> svd p0 n0; have [r [M [U [s [Vh [E sp [U0 [s0 [Vh0 [sE [rE rk]]]]]]]]]]] := svd_right_precondP svd As p0 n0.
exists r, M, U, s, Vh, U0, s0, Vh0; split=> //.
- by split; [exact: sp_AM sp | exact: sp_U sp].
- split; first by have := sp_V sp; rewrite /orthonormal trmxK.
  by rewrite (sp_M sp); congr (_ *m diag_mx _); apply/rowP => i; rewrite !mxE.
- by split; [exact: sp_s sp | exact: sp_sort sp].
by split=> // /rk rr; split=> //; exact: sp_rank sp rr.
Qed.

Lemma spo_start_lemma' (G : Type) (L : lapack R) (g : nat -> nat -> M G R (pyop R)) (sf : rat)
    (md : spo_mode) m n (A : 'M[R]_(m, n)) (b : 'cV[R]_m) (dl tol : R) lg clk s s' x l :
  lsq_ok g sf m n -> qr_spec L -> svd_spec L -> 0 <= dl -> md <> MOther ->
  SPO L g sf md (ofmx A) (ofcv b) dl tol 0 lg clk s = (s', inr (x, l)) ->
  exists d (Sm : 'M[R]_(d, m)) (xv : 'cV[R]_n),
  [/\ drew g sf n s s' Sm, x = ofcv xv, ridge A b dl xv <= fro2 b,
      sketch_clean L md dl (Sm *m A) ->
        xv = 0 \/ [/\ ridge_min (Sm *m A) (Sm *m b) dl xv, (b = 0 \/ ridge A b dl xv < fro2 b) &
                   (\rank (Sm *m A) = n \/ 0 < dl) \/ ridge A b dl xv <= (10%:R ^- 15) ^+ 2 * fro2 b] &
      sketch_clean L md dl (Sm *m A) -> \rank (Sm *m A) = n \/ 0 < dl ->
        forall xs, ridge_min (Sm *m A) (Sm *m b) dl xs -> ridge A b dl xs < fro2 b -> xv = xs].
Proof.
move=> ok qr svd d0 mO E; have [d [Sm [xv [dr xE so]]]] := spo_start_lemma ok qr svd d0 mO E.
exists d, Sm, xv; split=> //; [exact: so_le so | exact: so_min so | exact: so_used so].
Qed.

Lemma pcss1_rows_lemma m n (A : 'M[R]_(m, n)) (b : option 'cV[R]_m) (c : option 'cV[R]_n) (dl tol : R)
    lim (P : arr R) tri z0 out :
  PcSS1 (ofmx A) (omap (@ofcv R m) b) (omap (@ofcv R n) c) dl tol lim P tri z0 = Ok out ->
  exists x : 'cV[R]_n, exists y : 'cV[R]_m,
  [/\ o_x out = Some (ofcv x), o_y out = ofcv y, y + A *m x = vdef b &
      (A^T *m A + dl%:M) *m x = A^T *m vdef b - vdef c -> A^T *m y - dl *: x = vdef c].
Proof.
case/pcss1_saddle_lemma => x [xE yE e1 e2]; exists x, (vdef b - A *m x); split=> //.
by case/e2.
Qed.

Lemma vinv_row k (s : 'cV[R]_k) : diag_mx (\row_i (s i 0)^-1) = diag_mx (vinv s)^T.
Proof. by congr diag_mx; apply/rowP => i; rewrite !mxE. Qed.

Lemma pcss1_full_lemma' m n (A : 'M[R]_(m, n)) (b : option 'cV[R]_m) (c : option 'cV[R]_n) (dl : R)
    lim (P : 'M[R]_n) (z0 : option 'cV[R]_n) :
  0 <= dl -> (\rank A = n \/ 0 < dl) -> \rank P = n -> (n <= absz lim)%N -> 0 <= lim ->
  exists (x : 'cV[R]_n) (y : 'cV[R]_m) es,
  [/\ PcSS1 (ofmx A) (omap (@ofcv R m) b) (omap (@ofcv R n) c) dl 0 lim (ofmx P) false (omap (@ofcv R n) z0) =
      Ok (SOut (Some (ofcv x)) (ofcv y) (EArr es) (ofmx P)),
      y + A *m x = vdef b & A^T *m y - dl *: x = vdef c].
Proof.
move=> d0 hA rP nl l0.
have [x [es [E [e1 e2]]]] := @pcss1_full_lemma R m n A b c dl 0 lim P z0 d0 hA rP nl l0 erefl.
by exists x, (vdef b - A *m x), es.
Qed.

Lemma pcss1_low_lemma' m n (A : 'M[R]_(m, n)) (b : option 'cV[R]_m) (c : option 'cV[R]_n) (dl : R)
    lim k (V : 'M[R]_(n, k)) (s : 'cV[R]_k) z0 :
  0 <= dl -> (\rank A = n \/ 0 < dl) -> (0 < k < n)%N -> V^T *m V = 1%:M -> (forall i, 0 < s i 0) ->
  (n <= absz lim)%N -> 0 <= lim ->
  exists (x : 'cV[R]_n) (y : 'cV[R]_m) es P',
  [/\ PcSS1 (ofmx A) (omap (@ofcv R m) b) (omap (@ofcv R n) c) dl 0 lim
        (ofmx (V *m diag_mx (\row_i (s i 0)^-1))) false z0 = Ok (SOut (Some (ofcv x)) (ofcv y) (EArr es) P'),
      y + A *m x = vdef b & A^T *m y - dl *: x = vdef c].
Proof.
move=> d0 hA kn oV s0 nl l0; rewrite vinv_row.
have [x [es [t [E [[e1 e2] _]]]]] := @pcss1_low_lemma R m n A b c dl 0 lim k V s z0 d0 hA kn oV s0 nl l0 erefl.
by exists x, (vdef b - A *m x), es, (ofmx (V *m diag_mx t^T)).
Qed.

Lemma pcss1_overwrites m n (A : 'M[R]_(m, n)) (b : option 'cV[R]_m) (c : option 'cV[R]_n)
    (dl : R) lim k (V : 'M[R]_(n, k)) (s : 'cV[R]_k) z0 (j : 'I_k) :
  let P := V *m diag_mx (\row_i (s i 0)^-1) in
  0 <= dl -> (\rank A = n \/ 0 < dl) -> (0 < k < n)%N -> V^T *m V = 1%:M -> (forall i, 0 < s i 0) ->
  (n <= absz lim)%N -> 0 <= lim -> j.+1 = k -> s j 0 != 1 ->
  exists out, PcSS1 (ofmx A) (omap (@ofcv R m) b) (omap (@ofcv R n) c) dl 0 lim (ofmx P) false z0 = Ok out /\
    o_R out <> ofmx P.
Proof.
move=> P d0 hA kn oV s0 nl l0 jk s1; rewrite /P vinv_row.
have [x [es [t [E [_ t1]]]]] := @pcss1_low_lemma R m n A b c dl 0 lim k V s z0 d0 hA kn oV s0 nl l0 erefl.
eexists; split; [exact: E | move=> /= /ofmx_inj PE].
have := congr1 (mulmx V^T) PE; rewrite !mulmxA oV !mul1mx => /matrixP/(_ j j).
rewrite !mxE eqxx !mulr1n (t1 j jk) => e; move/eqP: s1; apply.
by rewrite -[LHS]invrK -e invr1.
Qed.

Lemma pcss1_keeps m n (A : 'M[R]_(m, n)) b c dl tol lim (P : arr R) tri z0 out :
  nc P = n -> PcSS1 (ofmx A) b c dl tol lim P tri z0 = Ok out -> o_R out = P.
Proof.
move=> Pn; rewrite /PcSS1 nc_ofmx Pn eqxx; case: tri => // E.
case: (rbind_inv E) => -[P' V'] [[-> _] {}E]; do 3! (case: (rbind_inv E) => ? [_ {}E]).
case: (rbind_inv E) => -[x es] [_ {}E]; case: (rbind_inv E) => ? [_ {}E].
by case: (rbind_inv E) => ? [_ [<-]].
Qed.

Lemma pcss2_keeps (A : arr R) b c dl tol lim (P : arr R) tri z0 out :
  PcSS2 A b c dl tol lim P tri z0 = Ok out -> o_R out = P.
Proof.
rewrite /PcSS2 => E; case: (rbind_inv E) => op [_ {}E]; move: E; case: ifP => _.
  case: b => [b|]; last by case: ifP.
  by move=> E; do 4! (case: (rbind_inv E) => ? [_ {}E]); case: E => <-.
case: ifP => // _; case: c => [c|] // E; do 2! (case: (rbind_inv E) => ? [_ {}E]).
move: E; case: ifP => _; last by case=> <-.
by move=> E; do 2! (case: (rbind_inv E) => ? [_ {}E]); case: E => <-.
Qed.

Lemma sps1_relative_lemma (G : Type) (L : lapack R) (g : nat -> nat -> M G R (pyop R)) (sf : rat) m n
    (A : 'M[R]_(m, n)) (b : option 'cV[R]_m) (c : option 'cV[R]_n) (dl tol : R) strat s
    (lim : int) clk s1 x y l :
  let res (z : 'cV[R]_n) := fro (A^T *m vdef b - vdef c - (A^T *m A + dl%:M) *m z) in
  let call lim logging := SPS1 L g sf (@PcSS1 R (rcf_ops R)) strat (ofmx A) (omap (@ofcv R m) b)
    (omap (@ofcv R n) c) dl tol lim logging clk s in
  sps1_solves L g sf strat A b c dl tol s -> 0 <= lim -> call lim true = (s1, inr (Some (ofcv x), y, l)) ->
  exists (x0 : 'cV[R]_n) y0 es,
  [/\ call 0 false = (s1, inr (Some (ofcv x0), y0, log_of false clk)), errors l = Some (res 0 :: es) &
      (size es < absz lim)%N -> res x <= tol * res x0].
Proof.
move=> res call [s2 [x0 H]] l0; have [x' [es [E _ _ _ [st _]]]] := H lim l0.
have [x2 [es2 [E2 _ /(_ erefl) e2 _ _]]] := H 0 (lexx 0); subst x2.
rewrite /call E /log_ret; have [l' [ts [-> lE _ _ _]]] := wrap_up_lemma (@log_of R (rcf_ops R) true clk) es
  (fro (A^T *m vdef b - vdef c)).
move=> [<- /ofcv_inj <- _ <-]; exists x0, (ofcv (vdef b - A *m x0)), es; split.
- by rewrite E2.
- by rewrite lE /res mulmx0 subr0.
by move=> lt; apply: st; left.
Qed.

Lemma pcss2_c0_lemma' m n k (A : 'M[R]_(m, n)) (P : 'M[R]_(n, k)) (b : 'cV[R]_m) (c : option 'cV[R]_n)
    dl tol lim (z0 : option 'cV[R]_k) :
  0 <= dl -> 0 <= lim -> (if c is Some c then c = 0 else True) -> b != 0 \/ z0 = None ->
  exists (x : 'cV[R]_n) es, PcSS2 (ofmx A) (Some (ofcv b)) (omap (@ofcv R n) c) dl tol lim (ofmx P) false
    (omap (@ofcv R k) z0) = Ok (SOut (Some (ofcv x)) (ofcv (b - A *m x)) es (ofmx P)).
Proof. by move=> d0 l0 cz; apply: pcss2_c0_lemma => //; case: c cz. Qed.

Lemma pcss2_b0_lemma m n k (A : 'M[R]_(m, n)) (P : 'M[R]_(n, k)) (b : option 'cV[R]_m) (c : 'cV[R]_n)
    dl tol lim z0 :
  0 <= dl -> 0 <= lim -> c != 0 -> (if b is Some b then b = 0 else True) ->
  exists (y : 'cV[R]_m) es, PcSS2 (ofmx A) (omap (@ofcv R m) b) (Some (ofcv c)) dl tol lim (ofmx P) false z0 =
    Ok (SOut (if 0 < dl then Some (ofcv (dl^-1 *: (A^T *m y - c))) else None) (ofcv y) es (ofmx P)).
Proof.
move=> d0 l0 c0 bz; have pc := is_pc_dense P.
have [m' [Ab [op [[opE lin _ _ mE] _]]]] := a_lift_precondP A d0 pc.
have b0 : is_true (if b is Some b then b == 0 else true) by case: (b) bz => //= ? ->.
have [_ H1 H2] := pcss2_under tol lim z0 d0 pc c0 b0 opE.
have lin' := lo_trP lin.
have [out E] := lsqr_returns (b := P^T *m c) lin' 0 tol tol conlim_dflt false (l0 : 0 <= lim_of m' (Some lim)) (or_intror erefl).
have [y [yE _]] := lsqr_mono_lemma lin' (l0 : 0 <= lim_of m' (Some lim)) (or_intror erefl) E.
move: mE H1 H2; have [dp|dn|dz] := ltrgtP 0 dl => mE H1 H2.
- by subst m'; exists (usubmx y), (q_errs out); exact: H2 E yE.
- by move: (le_lt_trans d0 dn); rewrite ltxx.
by subst m'; exists y, (q_errs out); exact: H1 (esym dz) _ _ E yE.
Qed.

Lemma spo_zero_lemma' (G : Type) (L : lapack R) (g : nat -> nat -> M G R (pyop R)) (sf : rat)
    (md : spo_mode) m n (A : 'M[R]_(m, n)) (dl tol : R) lim clk s :
  lsq_ok g sf m n -> qr_spec L -> svd_spec L -> 0 <= dl -> md <> MOther -> 0 <= lim ->
  exists s1 e, SPO L g sf md (ofmx A) (ofcv (0 : 'cV[R]_m)) dl tol lim true clk s = (s1, inl e) /\
    (e = ValueError \/ mode_tri md /\ e = LinAlgError).
Proof.
move=> ok qr svd d0 mO l0.
have [s1 [E|E]] := @spo_zero_lemma R G L g sf md m n A 0 dl tol ok qr svd d0 mO lim clk s erefl l0; first by exists s1, ValueError; split=> //; left.
exists s1, LinAlgError; split=> //; right; split=> //.
have [s2 [d [Sm [_ [_ good]]]]] := spo_lemma A 0 tol ok qr svd d0 mO s.
case: (boolP (mode_tri md)) => // nt; have [k [M0 [x0 [_ _ H]]]] := good (Or31 _ _ nt).
have [x [es [E' _ _ _ _]]] := H lim l0; move: E; rewrite E' /log_ret.
by case: es {E'} => [e|es]; rewrite /wrap_up.
Qed.

Lemma sps2_zero_lemma' (G : Type) (L : lapack R) (g : nat -> nat -> M G R (pyop R)) (sf : rat)
    m n (A : 'M[R]_(m, n)) (dl tol : R) (b : option 'cV[R]_m) (c : option 'cV[R]_n) lim clk s :
  lsq_ok g sf m n -> svd_spec L -> 0 <= dl ->
  (if b is Some b then b = 0 else True) -> (if c is Some c then c = 0 else True) -> 0 <= lim ->
  exists s1, SPS2 L g sf (@PcSS2 R (rcf_ops R)) (ofmx A) (omap (@ofcv R m) b) (omap (@ofcv R n) c)
    dl tol lim true clk s = (s1, inl ValueError).
Proof. by move=> ok svd d0 bz cz; apply: sps2_zero_lemma => //; [case: b bz | case: c cz]. Qed.

Lemma spu_cor (G : Type) (L : lapack R) (g : nat -> nat -> M G R (pyop R)) (sf : rat) m n
    (A : 'M[R]_(m, n)) (c : 'cV[R]_n) (tol : R) s :
  lsq_ok g sf m n -> svd_spec L -> c <> 0 ->
  exists s1 d (Sm : 'M[R]_(d, m)), drew g sf n s s1 Sm /\
  forall lim clk, 0 <= lim -> exists y : 'cV[R]_m,
  [/\ SPU1 L g sf (ofmx A) (ofcv c) tol lim false clk s = (s1, inr (ofcv y, log_of false clk)),
      exists w, y = A *m w &
      forall lo hi, (forall v : 'cV[R]_n, lo * fro2 (A *m v) <= fro2 (Sm *m A *m v) <= hi * fro2 (A *m v)) ->
        0 < lo -> 0 < hi -> (n ^ 2)%:R * hi < lo * (10%:R ^+ 8 - 1) ^+ 2 ->
        svd_clean L (Sm *m A) -> tol <= 0 -> (n <= absz lim)%N ->
        forall z : 'cV[R]_m, fro2 (c - A^T *m y) <= fro2 (c - A^T *m z) /\
          (fro2 (c - A^T *m z) = fro2 (c - A^T *m y) -> fro2 y <= fro2 z)].
Proof.
move=> ok svd c0; have [s1 [d [Sm [dr [_ good]]]]] := spu_lemma A c tol ok svd s.
exists s1, d, Sm; split=> // lim clk l0; have [k [M0 [_ H]]] := good c0.
have [y [es [E rg _ ex _]]] := H lim l0; exists y; split=> //; first by rewrite E.
move=> lo hi em l1 h1 cnd cl t0 nl z; have := ex lo hi em l1 h1 cnd cl t0 nl z.
by rewrite !mul0r !addr0.
Qed.

Lemma sps2_cor (G : Type) (L : lapack R) (g : nat -> nat -> M G R (pyop R)) (sf : rat) m n
    (A : 'M[R]_(m, n)) (b : option 'cV[R]_m) (c : option 'cV[R]_n) (dl tol : R) s :
  lsq_ok g sf m n -> svd_spec L -> 0 <= dl ->
  exists s1 d (Sm : 'M[R]_(d, m)), drew g sf n s s1 Sm /\
  forall lim clk, 0 <= lim -> exists (x : 'cV[R]_n) (y : 'cV[R]_m),
  [/\ SPS2 L g sf (@PcSS2 R (rcf_ops R)) (ofmx A) (omap (@ofcv R m) b) (omap (@ofcv R n) c) dl tol lim false clk s
        = (s1, inr (ofcv x, ofcv y, log_of false clk)),
      y + A *m x = vdef b &
      forall lo hi, (forall v : 'cV[R]_n, lo * fro2 (A *m v) <= fro2 (Sm *m A *m v) <= hi * fro2 (A *m v)) ->
        0 < lo <= 1 -> 1 <= hi -> (n ^ 2)%:R * hi < lo * (10%:R ^+ 8 - 1) ^+ 2 ->
        lift_clean L dl (Sm *m A) -> tol <= 0 -> (n <= absz lim)%N ->
        0 < dl \/ (exists e, vdef c = A^T *m e) ->
        A^T *m y - dl *: x = vdef c /\
        forall x' y', y' + A *m x' = vdef b -> A^T *m y' - dl *: x' = vdef c -> fro2 x <= fro2 x'].
Proof.
move=> ok svd d0; have [s1 [d [Sm [dr [k [M0 [Pc [x0 [_ _ H]]]]]]]]] := sps2_lemma A b c tol ok svd d0 s.
exists s1, d, Sm; split=> // lim clk l0; have [x [es [E _ _ ex _]]] := H lim l0.
exists x, (vdef b - A *m x); split; [by rewrite E | by rewrite subrK | ].
move=> lo hi em l1 h1 cnd cl t0 nl hc; have [[_ e2] mn] := ex lo hi em l1 h1 cnd cl t0 nl hc.
split=> // x' y' f1 f2; have yE : y' = vdef b - A *m x' by rewrite -f1 addrK.
by apply: mn; rewrite -yE; split.
Qed.

Lemma spo_wit (s : st nat R) (b : 'cV[R]_3) (A : 'M[R]_3) (dl : R) : A \in unitmx -> 0 <= dl ->
  exists s' (x : 'cV[R]_3), SPO (exact_lapack R) (scale_gen 1) 1 MQr (ofmx A) (ofcv b) dl 0 3 false (clk0 R) s =
    (s', inr (ofcv x, log_of false (clk0 R))) /\
  forall z : 'cV[R]_3, fro2 (b - A *m x) + dl * fro2 x <= fro2 (b - A *m z) + dl * fro2 z.
Proof.
move=> uA d0; have ok := scale_lsq_ok (1 : R) (isT : (0 < 3 <= 3)%N).
have mO : MQr <> MOther by [].
have [s1 [d [Sm [[dE [Sk [gE pS]]] H]]]] := spo_returns_lemma A b 0 ok (@exact_qr R) (@exact_svd R) d0 mO s.
have t3 : trunc_rat (1 * 3%:R) = 3 by rewrite mul1r (@trunc_rat_uniq _ 3).
have d3 : d = 3%N by move: dE; rewrite t3 => -[].
subst d; have SmE : Sm = 1%:M.
  move: gE; rewrite /scale_gen /ret => -[_ sk]; have := py_r pS 1%:M; rewrite -sk /= mmulE.
  move=> e; have := ofmx_inj (ok_inj e : ofmx _ = ofmx _); rewrite !mulmx1 => <-.
  by apply/matrixP => i j; rewrite !mxE mul1r.
have := H 3 (clk0 R) isT; rewrite SmE mul1mx mxrank_unit // eqxx andbF /= => -[x E].
exists s1, x; split=> //.
have [d' [Sm' [xv [[dE' [Sk' [gE' pS']]] /ofcv_inj <- ex]]]] :=
  spo_exact_lemma ok (@exact_qr R) (@exact_svd R) d0 mO (isT : 0 <= 3 :> int) E.
have d3 : d' = 3%N by move: dE'; rewrite t3 => -[].
subst d'; have SmE' : Sm' = 1%:M.
  move: gE'; rewrite /scale_gen /ret => -[_ sk]; have := py_r pS' 1%:M; rewrite -sk /= mmulE.
  move=> e; have := ofmx_inj (ok_inj e : ofmx _ = ofmx _); rewrite !mulmx1 => <-.
  by apply/matrixP => i j; rewrite !mxE mul1r.
move=> z; suff : ridge_min A b dl x by case/(_ z).
apply: (ex 1 1) => //.
- by move=> v; rewrite SmE' mul1mx !mul1r lexx.
- by rewrite ltr01 lexx.
- have -> : 10%:R ^+ 8 - 1 = (10 ^ 8 - 1)%N%:R :> R by rewrite natrB ?expn_gt0 // natrX.
  rewrite mulr1 mul1r -natrX ltr_nat.
  have -> : (10 ^ 8 = (10 ^ 4) ^ 2)%N by rewrite -expnM.
  have le : (100 <= 10 ^ 4)%N by [].
  have : (100 ^ 2 <= (10 ^ 4) ^ 2)%N by rewrite leq_exp2r.
  move: ((10 ^ 4) ^ 2)%N => N hN; apply: leq_trans (_ : 100 ^ 2 <= _)%N => //.
  by rewrite leq_exp2r //; apply: leq_trans (_ : 100 ^ 2 - 1 <= _)%N => //; rewrite leq_sub2r.
Qed.

Lemma spo_zero_wit (s : st nat R) : exists (A : 'M[R]_3) (b : 'cV[R]_3) s1,
  SPO (exact_lapack R) (scale_gen 1) 1 MSvd (ofmx A) (ofcv b) 0 0 5 true (clk0 R) s = (s1, inl ValueError).
Proof.
have mO : MSvd <> MOther by [].
have [s1 [e [E he]]] := spo_zero_lemma' 1%:M 0 (clk0 R) s (scale_lsq_ok (1 : R) (isT : (0 < 3 <= 3)%N))
  (@exact_qr R) (@exact_svd R) (lexx 0) mO (isT : 0 <= 5 :> int).
by exists 1%:M, 0, s1; rewrite E; case: he => [->|[]].
Qed.

Lemma spu_zero_wit (s : st nat R) : exists (A : 'M[R]_3) (c : 'cV[R]_3) s1,
  SPU1 (exact_lapack R) (scale_gen 1) 1 (ofmx A) (ofcv c) 0 5 false (clk0 R) s = (s1, inl TypeError).
Proof.
exists 1%:M, 0; apply: spu_zero_lemma; [exact: scale_lsq_ok | exact: exact_svd].
Qed.

Lemma sps2_zero_wit (s : st nat R) : exists (A : 'M[R]_3) (b : 'cV[R]_3) s1,
  SPS2 (exact_lapack R) (scale_gen 1) 1 (@PcSS2 R (rcf_ops R)) (ofmx A) (Some (ofcv b)) None 0 0 5 true (clk0 R) s =
  (s1, inl ValueError).
Proof.
exists 1%:M, 0.
by apply: (@sps2_zero_lemma' _ (exact_lapack R) (scale_gen 1) 1 3 3 1%:M 0 0 (Some 0) None 5 (clk0 R) s) => //; [exact: scale_lsq_ok | exact: exact_svd].
Qed.

Lemma pcss1_overwrites_wit (b : 'cV[R]_2) : exists (A : 'M[R]_2) (P : 'M[R]_(2, 1)) out,
  PcSS1 (ofmx A) (Some (ofcv b)) None 0 0 2 (ofmx P) false None = Ok out /\ o_R out <> ofmx P.
Proof.
have oV : (delta_mx 0 0 : 'cV[R]_2)^T *m delta_mx 0 0 = 1%:M.
  by rewrite trmx_delta mul_delta_mx; apply/matrixP => i j; rewrite !ord1 !mxE.
have := @pcss1_overwrites 2 2 1%:M (Some b) None 0 2 1 (delta_mx 0 0) (const_mx 2%:R) None 0 (lexx 0)
  (or_introl (mxrank1 _ 2)) isT oV _ isT isT erefl.
case=> [i||out E]; [by rewrite mxE ltr0n | by rewrite mxE (eqr_nat R 2 1) | ].
by exists 1%:M; eexists; exists out; exact: E.
Qed.
End Forms.
