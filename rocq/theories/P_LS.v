(** Drivers of least_squares.py: dimension checks, SSO1, SPO, SPU1. *)
From mathcomp Require Import all_ssreflect all_algebra.
From mathcomp Require Import zify.
From Verif Require Import Base Arr Lapack Exact MxLib RingTac LapackSpec Rng Aware Pcg P_Pcg Lsqr P_Lsqr P_Iter.
From Verif Require Import Precond LstSq P_Precond P_Svd P_Pcss1 Chol.
Set Implicit Arguments.
Unset Strict Implicit.
Unset Printing Implicit Defensive.
Import Order.TTheory GRing.Theory Num.Theory.
Local Open Scope ring_scope.

Lemma ok_inj X (a b : X) : Ok a = Ok b -> a = b. Proof. by case. Qed.

(** ** int() of a rational *)
Lemma trunc_ratP (q : rat) : 0 <= q ->
  0 <= trunc_rat q /\ (trunc_rat q)%:~R <= q < (trunc_rat q + 1)%:~R.
Proof.
move=> q0; have n0 : 0 <= numq q by rewrite numq_ge0.
have [a aE] : exists a : nat, numq q = a%:Z by exists (absz (numq q)); rewrite gez0_abs.
have [c [cE c0]] : exists c : nat, denq q = c%:Z /\ (0 < c)%N.
  by exists (absz (denq q)); rewrite gez0_abs // absz_gt0 denq_eq0.
have tE : trunc_rat q = (a %/ c)%N%:Z.
  rewrite /trunc_rat aE cE /=; case: (posnP a) => [->|a0]; first by rewrite div0n mulr0.
  by rewrite gtr0_sgz ?mul1r.
have cR : 0 < (c%:R : rat) by rewrite ltr0n.
have qE : q = a%:R / c%:R by rewrite -[LHS]divq_num_den aE cE.
rewrite tE; split=> //; rewrite qE ler_pdivl_mulr // ltr_pdivr_mulr //.
rewrite -[_%:~R * _](natrM _ _ c) ler_nat leq_trunc_div /=.
have -> : ((a %/ c)%N%:Z + 1)%:~R = (a %/ c).+1%:R :> rat by rewrite intrD mulrSr.
by rewrite -natrM ltr_nat ltn_ceil.
Qed.

Lemma trunc_rat_neg (q : rat) : q <= 0 -> trunc_rat q <= 0.
Proof.
rewrite -numq_le0 => h; rewrite /trunc_rat; apply: mulr_le0_ge0 => //.
by rewrite sgz_le0.
Qed.

Section Dim.
Context {G T : Type} {O : ops T}.
Implicit Types (s : st G T).

(** The state after the warning that clamping emits. *)
Definition dim_state (sf : rat) (m n : nat) s : st G T :=
  if m%:Z < trunc_rat (sf * n%:R) then St (gen s) (rcons (evs s) (EvWarn W_dim)) else s.

Lemma dim_checksE (sf : rat) (m n : nat) s :
  let t := trunc_rat (sf * n%:R) in
  dim_checks sf m n s =
  if ~~ (n <= m)%N then (s, inl AssertionError)
  else if m%:Z < t then (dim_state sf m n s, inr m)
  else if n%:Z <= t then (s, inr (absz t)) else (s, inl AssertionError).
Proof.
move=> t; rewrite /dim_checks /dim_state -/t /bind /passert; case: leqP => //= nm.
case: ltP => tm; rewrite /emit /ret /=; first by rewrite lez_nat nm.
by case: (n%:Z <= t).
Qed.

(** The dimension used for an admissible call. *)
Lemma dim_checks_run (sf : rat) (m n : nat) s : (n <= m)%N ->
  n%:Z <= trunc_rat (sf * n%:R) ->
  exists d, [/\ dim_checks sf m n s = (dim_state sf m n s, inr d), (n <= d <= m)%N &
    d%:Z = Num.min (trunc_rat (sf * n%:R)) m%:Z].
Proof.
move=> nm nt; rewrite dim_checksE nm /= /dim_state; case: ltP => tm.
  by exists m; rewrite nm leqnn.
have t0 : 0 <= trunc_rat (sf * n%:R) by apply: le_trans nt.
rewrite nt; exists (absz (trunc_rat (sf * n%:R))); split=> //; last by rewrite gez0_abs.
by rewrite -!lez_nat gez0_abs // nt.
Qed.

Lemma dim_checks_okP (sf : rat) (m n : nat) s s' d : dim_checks sf m n s = (s', inr d) ->
  [/\ (n <= d <= m)%N, s' = dim_state sf m n s & d%:Z = Num.min (trunc_rat (sf * n%:R)) m%:Z].
Proof.
move=> E; move: (E); rewrite dim_checksE; case: leqP => //= nm.
have [lt _|le] := boolP (m%:Z < _).
  have nt : n%:Z <= trunc_rat (sf * n%:R) by apply: ltW; apply: le_lt_trans lt; rewrite lez_nat.
  have [d' [E' d1 d2]] := dim_checks_run s nm nt; by move: E; rewrite E' => -[<- <-].
case: ifP => // nt _.
have [d' [E' d1 d2]] := dim_checks_run s nm nt; by move: E; rewrite E' => -[<- <-].
Qed.

End Dim.

(** ** Sketching operators *)
Section Sketch.
Variable R : rcfType.
Context {G : Type}.
Local Notation M := (M G R).
Implicit Types (s : st G R).

(** The Python object [Sk] acts as the matrix [S]. *)
Record py_is d m (Sk : pyop R) (S : 'M[R]_(d, m)) : Prop := PyIs {
  py_r : forall n (A : 'M[R]_(m, n)), mul_r Sk (ofmx A) = Ok (ofmx (S *m A));
  py_rv : forall x : 'cV[R]_m, mul_rv Sk (ofcv x) = Ok (ofcv (S *m x));
  py_trv : forall x : 'cV[R]_d, mul_trv Sk (ofcv x) = Ok (ofcv (S^T *m x)) }.

Lemma py_is_arr d m (S : 'M[R]_(d, m)) : py_is (PyArr (ofmx S)) S.
Proof. by split=> * /=; rewrite ?mmulE ?mtrE ?mvE. Qed.
Lemma py_is_sp d m (S : 'M[R]_(d, m)) : py_is (PySp (ofmx S)) S.
Proof. by split=> * /=; rewrite ?mmulE ?mtrE ?mvE. Qed.

(** A generator of sketching operators never fails on shape (a, b). *)
Definition gen_ok (g : nat -> nat -> M (pyop R)) (a b : nat) : Prop :=
  forall s, exists s' Sk (S : 'M[R]_(a, b)), g a b s = (s', inr Sk) /\ py_is Sk S.

Lemma drawE (g : nat -> nat -> M (pyop R)) a b s :
  draw g a b s = g a b (St (gen s) (rcons (evs s) (EvDraw a b))).
Proof. by []. Qed.

Lemma vcolE n (b : 'cV[R]_n) : vcol (ofcv b) = ofmx b.
Proof.
rewrite /vcol size_ofcv; apply: mk_eq_ofmx => i j.
by rewrite ord1 ev_ofcv.
Qed.

Lemma mcol_cv n (b : 'cV[R]_n) : mcol (ofmx b) 0 = ofcv b.
Proof. by rewrite /mcol nr_ofmx; apply: mkseq_eq_ofcv => i; rewrite (el_ofmx b i 0). Qed.

Variable L : lapack R.

(** Minimisers of the (regularised) sketched problem, minimum norm included. *)
Definition ridge_min p n (A : 'M[R]_(p, n)) (b : 'cV[R]_p) (dl : R) (x : 'cV[R]_n) : Prop :=
  forall z : 'cV[R]_n,
    fro2 (b - A *m x) + dl * fro2 x <= fro2 (b - A *m z) + dl * fro2 z /\
    (fro2 (b - A *m z) + dl * fro2 z = fro2 (b - A *m x) + dl * fro2 x -> fro2 x <= fro2 z).

Lemma ridge_minP p n (A : 'M[R]_(p, n)) b dl p' (Ab : 'M[R]_(p', n)) bb (x : 'cV[R]_n) w :
  lifted A dl Ab -> lifted_b A dl Ab b bb ->
  Ab^T *m (bb - Ab *m x) = 0 -> x = Ab^T *m w -> ridge_min A b dl x.
Proof.
move=> lA lB g0 xE z; rewrite -!(lb_obj lB).
have h1 : Ab^T *m (bb - Ab *m x) - 0 ^+ 2 *: (x - 0) = 0 by rewrite g0 expr0n scale0r subr0.
have := lsq_opt h1 z; rewrite expr0n /= !mul0r !addr0 => le; split=> // e.
have := @min_norm R _ _ Ab bb 0 0 x z h1; rewrite !subr0 expr0n /= !mul0r !addr0 e; apply=> //.
by exists w.
Qed.

Lemma lift_exists p n (A : 'M[R]_(p, n)) (dl : R) (b : 'cV[R]_p) :
  exists p' (Ab : 'M[R]_(p', n)) (bb : 'cV[R]_p'),
  [/\ lifted A (Num.max 0 dl) Ab, lifted_b A (Num.max 0 dl) Ab b bb, (p <= p')%N,
      ske_lift (ofmx A) dl n = Ok (ofmx Ab) &
      (if 0 < dl then ofcv b ++ vzeros n else ofcv b) = ofcv bb /\
      forall k (Q : 'M[R]_(p', k)),
        mv (mtr (rslice (ofmx Q) 0 p)) (ofcv b) = Ok (ofcv (Q^T *m bb))].
Proof.
rewrite /ske_lift /=; have [d0|d0] := ltP 0 dl.
  exists (p + n)%N, (col_mx A (Num.sqrt dl)%:M), (col_mx b 0).
  split; rewrite ?leq_addr //; [exact/liftedS/ltW | exact: liftedS_b | | ].
    by rewrite meyeE mscaleE vstackE scalemx1.
  split=> [|k Q]; first by rewrite ofcv_col_mx vzerosE.
  rewrite rslice_top ?leq_addr // mtrE mvE; congr (Ok (ofcv _)).
  rewrite -[Q in RHS]vsubmxK tr_col_mx mul_row_col mulmx0 addr0; congr (_^T *m _).
  apply/matrixP=> i j; rewrite !mxE add0n (mxe_ord _ (ltn_addr n (ltn_ord i)) (ltn_ord j)).
  by congr (Q _ _); apply: val_inj.
exists p, A, b; split=> //; [exact: lifted0 | exact: lifted0_b | split=> // k Q].
rewrite rslice_top // mtrE mvE; congr (Ok (ofcv (_^T *m _))).
by apply/matrixP=> i j; rewrite mxE add0n mxeE.
Qed.

(** ** SSO1 *)
Definition sso1_warns (sf : rat) m n (tol : option R) (lim : int) : seq (event R) :=
  (if tol is Some _ then [:: EvWarn W_sso_tol] else [::]) ++
  (if 1 < lim then [:: EvWarn W_sso_iter] else [::]) ++
  (if m%:Z < trunc_rat (sf * n%:R) then [:: EvWarn W_dim] else [::]).

Lemma sso1_run (g : nat -> nat -> M (pyop R)) (sf : rat) m n (A : 'M[R]_(m, n)) (b : 'cV[R]_m)
    (dl : R) (tol : option R) (lim : int) s :
  lstsq_spec L -> (0 < n <= m)%N -> n%:Z <= trunc_rat (sf * n%:R) ->
  (forall d, (n <= d <= m)%N -> gen_ok g d m) ->
  exists d s1 Sk (Sm : 'M[R]_(d, m)) (x : 'cV[R]_n),
  [/\ d%:Z = Num.min (trunc_rat (sf * n%:R)) m%:Z,
      g d m (St (gen s) (evs s ++ sso1_warns sf m n tol lim ++ [:: EvDraw d m])) = (s1, inr Sk),
      py_is Sk Sm,
      SSO1 L g sf (ofmx A) (ofcv b) dl tol lim s = (s1, inr (ofcv x)) &
      ridge_min (Sm *m A) (Sm *m b) (Num.max 0 dl) x].
Proof.
move=> lsq /andP[n0 nm] nt gok.
pose s0 := St (gen s) (evs s ++ (if tol is Some _ then [:: EvWarn W_sso_tol] else [::]) ++
  (if 1 < lim then [:: EvWarn W_sso_iter] else [::])).
have [d [dE dr dmin]] := dim_checks_run s0 nm nt.
pose s2 := St (gen s) (evs s ++ sso1_warns sf m n tol lim ++ [:: @EvDraw R d m]).
have [s1 [Sk [Sm [gE pS]]]] := gok d dr s2.
have d0 : (0 < d)%N by case/andP: dr => nd _; apply: leq_trans nd.
have [p' [Ab [bb [lA lB pp sE [bE _]]]]] := lift_exists (Sm *m A) dl (Sm *m b).
have [X [W [lE gX XE]]] := lsq _ _ _ Ab bb (leq_trans d0 pp) n0 (ltn0Sn 0).
exists d, s1, Sk, Sm, X; split=> //; last first.
  by apply: (ridge_minP lA lB _ XE); rewrite -opprB mulmxN gX oppr0.
have -> : SSO1 L g sf (ofmx A) (ofcv b) dl tol lim s =
  bind (dim_checks sf m n) (fun d =>
  let! Sk := draw g d m in
  let! A_ske := lift (mul_r Sk (ofmx A)) in
  let! b_ske := lift (mul_rv Sk (ofcv b)) in
  if 0 < dl then
    let! A_ske := lift (vstack A_ske (mscale (Num.sqrt dl) (meye n))) in
    lift (lstsq_v L A_ske (b_ske ++ vzeros n))
  else lift (lstsq_v L A_ske b_ske)) s0.
  rewrite /SSO1 /s0; case: (tol) => [t|]; case: (1 < lim); rewrite /bind /= /emit /ret /=;
  by case: (s) => ge ev /=; rewrite ?cats0 -?cats1 -?catA.
rewrite (bindE _ dE).
have sE2 : s2 = St (gen (dim_state sf m n s0)) (rcons (evs (dim_state sf m n s0)) (EvDraw d m)).
  rewrite /s2 /dim_state /sso1_warns; case: (m%:Z < _); rewrite -cats1 /s0 /= -?cats1 -!catA //.
rewrite (bindE _ (_ : draw g d m _ = (s1, inr Sk))); last by rewrite drawE -sE2.
rewrite (py_r pS) bind_liftE (py_rv pS) bind_liftE.
move: sE bE; rewrite /ske_lift /=; case: ifP => _.
  by case=> -> ->; rewrite bind_liftE /lstsq_v vcolE lE /= mcol_cv.
move=> E1 ->; rewrite (ok_inj E1 : ofmx (Sm *m A) = ofmx Ab) /lstsq_v vcolE lE /= mcol_cv //.
Qed.

(** ** SPO: factorisation of the sketch *)
Lemma gram_skeE p n (A : 'M[R]_(p, n)) (dl : R) :
  gram_ske (ofmx A) dl = ofmx (A^T *m A + dl%:M).
Proof.
rewrite /gram_ske nr_ofmx nc_ofmx; apply: mk_eq_ofmx => i j.
have sG : (A^T *m A + dl%:M)^T = A^T *m A + dl%:M by rewrite linearD /= trmx_mul trmxK tr_scalar_mx.
have key (a b : 'I_n) : osum p (fun l => oadd 0 (omul (el (ofmx A) l a) (el (ofmx A) l b)))
   = (A^T *m A) a b.
  rewrite osumE mxE; apply: eq_bigr => l _; rewrite /= add0r mxE.
  by rewrite !el_ofmx.
have keyG (a b : 'I_n) : oadd (osum p (fun l => omul (el (ofmx A) l a) (el (ofmx A) l b)))
   (omul dl (if a == b :> nat then o1 else o0)) = (A^T *m A + dl%:M) a b.
  rewrite [RHS]mxE -key /=; congr (_ + _).
    by rewrite !osumE; apply: eq_bigr => l _; rewrite add0r.
  by rewrite mxE val_eqE; case: (a == b); rewrite ?mulr1 ?mulr0.
case: (leqP i j) => ij; first by rewrite -keyG.
by rewrite -sG mxE -keyG.
Qed.

Lemma lifted_rank p n (A : 'M[R]_(p, n)) (dl : R) p' (Ab : 'M[R]_(p', n)) : 0 <= dl ->
  lifted A dl Ab -> (\rank Ab = n <-> (\rank A = n \/ 0 < dl)).
Proof.
move=> d0 lA; split=> [rk|h]; last first.
  apply: inj_full_col => v Av; apply/eqP; rewrite -fro2_eq0.
  have := lf_norm lA v; rewrite Av fro20 => /esym/eqP.
  rewrite paddr_eq0 ?fro2_ge0 ?mulr_ge0 ?fro2_ge0 // => /andP[e1 e2].
  case: h => [rk|dp]; last by move: e2; rewrite mulf_eq0 gt_eqF.
  by rewrite (full_col_inj rk (_ : A *m v = 0)) ?fro20 //; apply/eqP; rewrite -fro2_eq0.
move: d0; rewrite le_eqVlt => /orP[/eqP d0|]; last by right.
left; apply: inj_full_col => v Av; apply: (full_col_inj rk).
by apply/eqP; rewrite -fro2_eq0 (lf_norm lA) Av fro20 -d0 mul0r addr0.
Qed.

(** What every mode of SPO obtains from its factorisation. *)
Record spo_fact md n k p (Ab : 'M[R]_(p, n)) (bb : 'cV[R]_p) (P : arr R) (M0 : 'M[R]_(n, k))
    (z : 'cV[R]_k) : Prop := SpoFact {
  sf_pc : is_pc P (mode_tri md) M0;
  sf_orth : orthonormal (Ab *m M0);
  sf_z : z = (Ab *m M0)^T *m bb;
  sf_sq : mode_tri md -> k = n;
  sf_rng : exists W, M0 = Ab^T *m W;
  sf_cut : md = MSvd -> exists U0 (s0 : seq R) Vh0, l_svd L (ofmx Ab) = Ok (U0, s0, Vh0) /\
    k = count (fun t => nth 0 s0 0 * n%:R * 2%:R ^- 52 < t) s0 /\
    (cut_clean n s0 -> \rank Ab = k) }.

Lemma full_rng p n k (Ab : 'M[R]_(p, n)) (M0 : 'M[R]_(n, k)) : \rank Ab = n ->
  exists W, M0 = Ab^T *m W.
Proof.
move=> /gram_unit uG; exists (Ab *m (invmx (Ab^T *m Ab) *m M0)).
by rewrite mulmxA mulKVmx.
Qed.

Lemma spo_factorP md d m n (Sk : pyop R) (Sm : 'M[R]_(d, m)) (A : 'M[R]_(m, n)) (b : 'cV[R]_m) (dl : R)
    p (Ab : 'M[R]_(p, n)) (bb : 'cV[R]_p) :
  qr_spec L -> svd_spec L -> py_is Sk Sm -> (0 < n <= d)%N -> 0 <= dl -> md <> MOther ->
  lifted (Sm *m A) dl Ab -> lifted_b (Sm *m A) dl Ab (Sm *m b) bb -> (d <= p)%N ->
  ske_lift (ofmx (Sm *m A)) dl n = Ok (ofmx Ab) ->
  (forall k (Q : 'M[R]_(p, k)),
     mv (mtr (rslice (ofmx Q) 0 d)) (ofcv (Sm *m b)) = Ok (ofcv (Q^T *m bb))) ->
  let call := spo_factor L md Sk (ofmx (Sm *m A)) (ofcv b) dl d n in
  (~~ mode_tri md \/ \rank Ab = n -> exists k (M0 : 'M[R]_(n, k)) P z,
    call = Ok (P, ofcv z, ofcv (M0 *m z)) /\ spo_fact md Ab bb P M0 z) /\
  (mode_tri md /\ \rank Ab <> n -> call = Err LinAlgError).
Proof.
move=> qr svd pS /andP[n0 nd] d0 mO lA lB dp sE topE call.
have np : (n <= p)%N := leq_trans nd dp; have p0 : (0 < p)%N := leq_trans n0 np.
rewrite /call /spo_factor; case: md mO {call} => // _.
- have [Q [U [qE oQ tU AE]]] := qr_tall Ab qr n0 np.
  rewrite sE [rbind (Ok _) _]/= qE [rbind (Ok _) _]/= (py_rv pS) [rbind (Ok _) _]/= topE.
  rewrite [rbind (Ok _) _]/= solve_tri_vE //; split=> [[//|rk]|[_ rk]]; last first.
    case: ifP => // uU; case: rk; apply: inj_full_col => v; rewrite AE -mulmxA => Qv.
    have := congr1 (mulmx Q^T) Qv; rewrite mulmxA oQ mul1mx mulmx0 => /(congr1 (mulmx (invmx U))).
    by rewrite mulKmx // mulmx0.
  have uU : U \in unitmx.
    by rewrite -row_full_unit -col_leq_rank -{1}rk AE; exact: mxrankM_maxr.
  rewrite uU [rbind (Ok _) _]/=; exists n, (invmx U), (ofmx U), (Q^T *m bb); split=> //.
  have AM : Ab *m invmx U = Q by rewrite AE mulmxK.
  split=> //; [exact: is_pc_tri | by rewrite AM | by rewrite AM | exact: full_rng].
- rewrite gram_skeE -(lf_gram lA); split=> [[//|rk]|[_ rk]].
    have pG : spd (Ab^T *m Ab).
      by have := @gram_spd R _ _ Ab 0 (lexx 0) (or_introl rk); rewrite raddf0 addr0.
    have [Lo [cE tL dL LL]] := cholesky_spd pG.
    have uL : Lo \in unitmx by rewrite lotri_unit //; apply/forallP => a; rewrite gt_eqF.
    have tLt : uptri Lo^T by move=> i j ji; rewrite mxE tL.
    have uLt : Lo^T \in unitmx by rewrite unitmx_tr.
    rewrite cE [rbind (Ok _) _]/= (py_rv pS) [rbind (Ok _) _]/= !mtrE mvE [rbind (Ok _) _]/=.
    rewrite solve_tri_vE // uLt [rbind (Ok _) _]/= trmxK solve_tri_vE // uLt [rbind (Ok _) _]/=.
    exists n, (invmx Lo^T), (ofmx Lo^T), (invmx Lo *m ((Sm *m A)^T *m (Sm *m b))); split=> //.
    have MT : (invmx Lo^T)^T = invmx Lo by rewrite trmx_inv trmxK.
    split=> //; [exact: is_pc_tri | | | exact: full_rng].
      by rewrite /orthonormal trmx_mul MT mulmxA -[X in X *m _]mulmxA -LL mulKmx // mulmxV.
    by rewrite [(Ab *m _)^T]trmx_mul MT -[RHS]mulmxA (lb_adj lB).
  case cE: (cholesky _) => [e|X] /=; first by have [-> _] := cholesky_err cE.
  have sG : (Ab^T *m Ab)^T = Ab^T *m Ab by rewrite trmx_mul trmxK.
  have [Lo [_ tL dL LL]] := choleskyP sG cE; case: rk.
  have uL : Lo \in unitmx by rewrite lotri_unit //; apply/forallP => a; rewrite gt_eqF.
  have uLt : Lo^T \in unitmx by rewrite unitmx_tr.
  apply: inj_full_col => v Av; have := mulmxA Lo Lo^T v; rewrite LL -mulmxA Av mulmx0.
  move/(congr1 (mulmx (invmx Lo))); rewrite mulKmx // mulmx0.
  by move/(congr1 (mulmx (invmx Lo^T))); rewrite mulKmx // mulmx0.
split=> [_|[]] //.
have [r [M0 [U [s0 [Vh [pE sp [U0 [s1 [Vh0 [svE rE]]]]]]]]]] := svd_right_precondP svd Ab p0 n0.
rewrite sE [rbind (Ok _) _]/= pE [rbind (Ok _) _]/= (py_rv pS) [rbind (Ok _) _]/= topE.
rewrite [rbind (Ok _) _]/= mvE [rbind (Ok _) _]/=.
exists r, M0, (ofmx M0), (U^T *m bb); split=> //.
split=> //; rewrite ?(sp_AM sp) //; [exact: is_pc_dense | exact: sp_U sp | | by exists U0, s1, Vh0].
exists (U *m diag_mx (vinv s0)^T *m diag_mx (vinv s0)^T).
have sn i : s0 i 0 != 0 by rewrite gt_eqF ?(sp_s sp).
have -> : Ab^T *m (U *m diag_mx (vinv s0)^T *m diag_mx (vinv s0)^T) =
          Vh^T *m (diag_mx s0^T *m diag_mx (vinv s0)^T) *m diag_mx (vinv s0)^T.
  have := congr1 trmx (sp_UA sp); rewrite !trmx_mul trmxK tr_diag_mx => e.
  by rewrite !mulmxA e.
by rewrite diag_vinv // mulmx1 (sp_M sp).
Qed.

(** ** SPO: the presolve *)
Definition ridge m n (A : 'M[R]_(m, n)) (b : 'cV[R]_m) (dl : R) (x : 'cV[R]_n) : R :=
  fro2 (b - A *m x) + dl * fro2 x.

Lemma ridge_ge0 m n (A : 'M[R]_(m, n)) b dl x : 0 <= dl -> 0 <= ridge A b dl x.
Proof. by move=> d0; rewrite addr_ge0 ?mulr_ge0 ?fro2_ge0. Qed.

Lemma ridge0 m n (A : 'M[R]_(m, n)) b dl : ridge A b dl 0 = fro2 b.
Proof. by rewrite /ridge mulmx0 subr0 fro20 mulr0 addr0. Qed.

Lemma spo_startE m n (A : 'M[R]_(m, n)) (b : 'cV[R]_m) (dl : R) P z (x : 'cV[R]_n) : 0 <= dl ->
  spo_start (ofmx A) (ofcv b) dl P z (ofcv x) =
  Ok (if spo_reject (rel_err (Num.sqrt (ridge A b dl x)) (fro b)) (nr P == nc P) then None else Some z).
Proof.
move=> d0; rewrite /spo_start mvE [rbind (Ok _) _]/= vsubE [rbind (Ok _) _]/=.
have fE : fro2 (A *m x - b) = fro2 (b - A *m x) by rewrite -fro2N opprB.
suff -> : @vnorm R (rcf_ops R) (if 0 < dl then ofcv (A *m x - b) ++ @vscale R (rcf_ops R) (Num.sqrt dl) (ofcv x)
                 else ofcv (A *m x - b)) = Num.sqrt (ridge A b dl x) by rewrite vnormE.
have [dp|] := ltP 0 dl; last first.
  move=> dn; have -> : dl = 0 by apply/eqP; rewrite eq_le dn d0.
  by rewrite /= vnormE /fro fE /ridge mul0r addr0.
by rewrite /= vscaleE -ofcv_col_mx vnormE /fro fro2_col_mx fro2Z sqr_sqrtr // fE.
Qed.

Lemma spo_rejectE (q : R) sq :
  spo_reject (QFin q) sq = (1 <= q) || ((10%:R ^- 15 < q) && ~~ sq).
Proof. by rewrite /spo_reject onatE opowE -[o1]/(1 : R) -[odiv _ _]/(1 / _) div1r. Qed.

Lemma spo_acceptP m (b : 'cV[R]_m) o sq : 0 <= o ->
  ~~ spo_reject (rel_err (Num.sqrt o) (fro b)) sq ->
  if b == 0 then o = 0 else o < fro2 b /\ (sq \/ o <= (10%:R ^- 15) ^+ 2 * fro2 b).
Proof.
move=> o0; rewrite /rel_err /= fro_eq0; case: eqP => [_|/eqP b0].
  by rewrite sqrtr_eq0; case: leP => //= o1 _; apply/eqP; rewrite eq_le o1 o0.
have f0 : 0 < fro b by rewrite lt_neqAle fro_ge0 eq_sym fro_eq0 b0.
rewrite spo_rejectE negb_or -ltNge ltr_pdivr_mulr // mul1r /fro ltr_sqrt; last first.
  by rewrite lt_neqAle fro2_ge0 eq_sym fro2_eq0 b0.
case/andP=> -> h; split=> //; move: h; rewrite negb_and negbK => /orP[h|->]; last by left.
right; move: h; rewrite -leNgt ler_pdivr_mulr // => h.
have e0 : (0 : R) <= 10%:R ^- 15 by rewrite invr_ge0 exprn_ge0 ?ler0n.
rewrite -(sqr_sqrtr o0) -(sqr_sqrtr (fro2_ge0 b)) -exprMn ler_pexpn2r ?nnegrE ?sqrtr_ge0 //.
by rewrite mulr_ge0 ?sqrtr_ge0.
Qed.

(** Conversely a square factorisation with a strictly better point is kept. *)
Lemma spo_acceptP2 m (b : 'cV[R]_m) o : 0 <= o -> o < fro2 b ->
  ~~ spo_reject (rel_err (Num.sqrt o) (fro b)) true.
Proof.
move=> o0 ob; rewrite /rel_err /= fro_eq0.
have b0 : b != 0 by apply: contraTneq ob => ->; rewrite fro20 -leNgt.
have f0 : 0 < fro b by rewrite lt_neqAle fro_ge0 eq_sym fro_eq0 b0.
rewrite (negbTE b0) spo_rejectE andbF orbF -ltNge.
rewrite ltr_pdivr_mulr // mul1r /fro ltr_sqrt //.
exact: le_lt_trans ob.
Qed.

(** ** SPO: the whole run *)
Definition dim_warns (sf : rat) m n : seq (event R) :=
  if m%:Z < trunc_rat (sf * n%:R) then [:: EvWarn W_dim] else [::].

Definition log_ret X (logging : bool) (clk : timing) (es : errlog) (init : R) (x : X) :
    res (X * splog) :=
  if logging then
    match wrap_up (log_of true clk) es init with
    | inl e => inl e
    | inr l => inr (x, l)
    end
  else inr (x, log_of false clk).

Section SPO.
Variables (g : nat -> nat -> M (pyop R)) (sf : rat) (md : spo_mode) (m n : nat).
Variables (A : 'M[R]_(m, n)) (b : 'cV[R]_m) (dl tol : R).

(** Everything SPO computes from the drawn sketch [Sm]. *)
Record spo_setup d (Sm : 'M[R]_(d, m)) p (Ab : 'M[R]_(p, n)) bb P k (M0 : 'M[R]_(n, k)) z
    (start : option 'cV[R]_k) m' (Ab' : 'M[R]_(m', n)) bb' op : Prop := SpoSetup {
  su_ske : ske_lift (ofmx (Sm *m A)) dl n = Ok (ofmx Ab);
  su_l : lifted (Sm *m A) dl Ab;
  su_b : lifted_b (Sm *m A) dl Ab (Sm *m b) bb;
  su_f : spo_fact md Ab bb P M0 z;
  su_st : start = if spo_reject (rel_err (Num.sqrt (ridge A b dl (M0 *m z))) (fro b)) (n == k)
                  then None else Some z;
  su_op : lin_is op (Ab' *m M0);
  su_l' : lifted A dl Ab';
  su_b' : lifted_b A dl Ab' b bb';
  su_acc : [\/ bb' != 0, start = None | bb' = (Ab' *m M0) *m lsqr_x0 start] }.

Definition spo_call k (start : option 'cV[R]_k) m' (bb' : 'cV[R]_m') op (lim : int) :=
  lsqr op (ofcv bb') 0 tol tol conlim_dflt (Some lim) false (omap (@ofcv R k) start).

Hypotheses (qr : qr_spec L) (svd : svd_spec L).

Lemma spo_run s : (0 < n <= m)%N -> n%:Z <= trunc_rat (sf * n%:R) ->
  (forall d, (n <= d <= m)%N -> gen_ok g d m) -> 0 <= dl -> md <> MOther ->
  exists d s1 Sk (Sm : 'M[R]_(d, m)),
  [/\ d%:Z = Num.min (trunc_rat (sf * n%:R)) m%:Z,
      g d m (St (gen s) (evs s ++ dim_warns sf m n ++ [:: EvDraw d m])) = (s1, inr Sk),
      py_is Sk Sm,
      mode_tri md -> \rank (Sm *m A) <> n -> dl = 0 -> forall lim logging clk,
        SPO L g sf md (ofmx A) (ofcv b) dl tol lim logging clk s = (s1, inl LinAlgError) &
      [\/ ~~ mode_tri md, \rank (Sm *m A) = n | 0 < dl] ->
      exists p (Ab : 'M[R]_(p, n)) bb P k (M0 : 'M[R]_(n, k)) z start m' (Ab' : 'M[R]_(m', n)) bb' op,
        spo_setup Sm Ab bb P M0 z start Ab' bb' op /\
      forall lim logging clk q w, spo_call start bb' op lim = Ok q -> q_x q = ofcv w ->
        SPO L g sf md (ofmx A) (ofcv b) dl tol lim logging clk s =
        (s1, log_ret logging clk (q_errs q) (fro (M0^T *m (A^T *m b))) (ofcv (M0 *m w)))].
Proof.
move=> /andP[n0 nm] nt gok dl0 mO.
have [d [dE dr dmin]] := dim_checks_run s nm nt.
pose s2 := St (gen s) (evs s ++ dim_warns sf m n ++ [:: @EvDraw R d m]).
have [s1 [Sk [Sm [gE pS]]]] := gok d dr s2.
exists d, s1, Sk, Sm.
have sE2 : s2 = St (gen (dim_state sf m n s)) (rcons (evs (dim_state sf m n s)) (EvDraw d m)).
  rewrite /s2 /dim_state /dim_warns; case: (m%:Z < _); rewrite -cats1 /= -?cats1 -?catA //.
have [p [Ab [bb [lA lB dp sE [_ topE]]]]] := lift_exists (Sm *m A) dl (Sm *m b).
rewrite (max_r dl0) in lA lB.
have nd : (0 < n <= d)%N by rewrite n0; case/andP: dr.
have [fok ferr] := spo_factorP qr svd pS nd dl0 mO lA lB dp sE topE.
have rkE := lifted_rank dl0 lA.
have spoE lim logging clk : SPO L g sf md (ofmx A) (ofcv b) dl tol lim logging clk s =
  (let! f := lift (spo_factor L md Sk (ofmx (Sm *m A)) (ofcv b) dl d n) in
  let '(P, z, x) := f in
  let! z_ske := lift (spo_start (ofmx A) (ofcv b) dl P z x) in
  let! out := lift (PcSS2 (ofmx A) (Some (ofcv b)) None dl tol lim P (mode_tri md) z_ske) in
  let! log :=
    if logging then
      lift (let? ar0 := mv (mtr (ofmx A)) (ofcv b) in
            let? ar0 := M_adj P (mode_tri md) ar0 in
            wrap_up (log_of logging clk) (o_errs out) (vnorm ar0))
    else ret (log_of logging clk) in
  if o_x out is Some x then ret (x, log) else raise Unmodelled) s1.
  rewrite /SPO /= ltNge dl0 /= (bindE _ dE).
  rewrite (bindE _ (_ : draw g d m _ = (s1, inr Sk))); last by rewrite drawE -sE2.
  by rewrite (py_r pS) bind_liftE.
split=> // [tr rk dz *|h].
  by rewrite spoE ferr //; split=> //; case/rkE => // /lt_eqF; rewrite dz eqxx.
have {}h : ~~ mode_tri md \/ \rank Ab = n by case: h => h; [left | right; apply/rkE; left | right; apply/rkE; right].
have [k [M0 [P [z [fE sfc]]]]] := fok h.
have kn : (nr P == nc P) = (n == k) by rewrite (pc_nr (sf_pc sfc)) (pc_nc (sf_pc sfc)).
have [m' [Ab' [op [[opE opM lA' _ _] bbE]]]] := a_lift_precondP A dl0 (sf_pc sfc).
have [bb' lB'] := bbE b.
pose (rej := spo_reject (rel_err (Num.sqrt (ridge A b dl (M0 *m z))) (fro b)) (n == k)).
pose start := if rej then None else Some z.
have acc : [\/ bb' != 0, start = None | bb' = (Ab' *m M0) *m lsqr_x0 start].
  rewrite /start; case: ifP => rj; first by constructor 2.
  case: (altP (bb' =P 0)) => [b0|]; last by constructor 1.
  constructor 3; rewrite /lsqr_x0.
  have bz : b = 0.
    apply/eqP; rewrite -fro2_eq0; have := lb_obj lB' 0.
    by rewrite b0 !mulmx0 !subr0 !fro20 mulr0 addr0 => <-.
  have := spo_acceptP (ridge_ge0 A b (M0 *m z) dl0) (negbT rj).
  rewrite bz eqxx /ridge -bz -(lb_obj lB') => /eqP; rewrite fro2_eq0 subr_eq0 => /eqP.
  by rewrite mulmxA.
exists p, Ab, bb, P, k, M0, z, start, m', Ab', bb', op; split=> // lim logging clk q w qE wE.
rewrite spoE fE bind_liftE spo_startE // bind_liftE kn -/rej.
have -> : (if rej then None else Some (ofcv z)) = omap (@ofcv R k) start by rewrite /start; case: (rej).
have [_ pok] := pcss2_over (sf_pc sfc) (c := None) isT tol lim start opE lB'.
rewrite (pok _ _ qE wE) bind_liftE.
rewrite /log_ret; case: (logging) => //=.
rewrite mtrE mvE [rbind (Ok _) _]/= (pc_adj (sf_pc sfc)) [rbind (Ok _) _]/= vnormE /bind /lift.
by case: wrap_up.
Qed.

End SPO.
End Sketch.
