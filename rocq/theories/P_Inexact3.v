(** Proofs of C99, continued: sketch-and-solve with an inexact least squares routine; sharpness of the QB2 bound. *)
From mathcomp Require Import all_ssreflect all_algebra.
From mathcomp Require Import zify.
From Verif Require Import Base Arr Lapack Exact MxLib RingTac LapackSpec LapackExists Rng Aware.
From Verif Require Import Sel Sketching P_Sketch P_Sketch2 P_Sketch3 P_Sjlt P_Iso P_Interp2 P_Svd P_Precond.
From Verif Require Import Pcg P_Pcg P_Pcss1 Precond LstSq SaddleSys Drivers P_LS P_LS2 P_LS3 P_LS4 P_LS5 P_LS6 P_LS7.
From Verif Require Import P_Rate P_Rate2 P_Rate3 P_Rate4 P_Drivers P_Embed P_Embed2 Inexact.
Set Implicit Arguments.
Unset Strict Implicit.
Unset Printing Implicit Defensive.
Import Order.TTheory GRing.Theory Num.Theory.
Local Open Scope ring_scope.

Section Sso.
Variables (R : rcfType) (G : Type) (L : lapack R) (tau : R).
Hypotheses (t0 : 0 <= tau) (lsq : lstsq_near L tau).

Lemma near_sso1 (g : nat -> nat -> M G R (pyop R)) (sf : rat) m n (A : 'M[R]_(m, n)) (b : 'cV[R]_m)
    (dl : R) (tol : option R) (lim : int) s :
  lsq_ok g sf m n -> 0 <= dl ->
  exists s1 d (Sm : 'M[R]_(d, m)) (x : 'cV[R]_n),
  [/\ d%:Z = Num.min (trunc_rat (sf * n%:R)) m%:Z,
      exists s0 Sk, [/\ gen s0 = gen s, g d m s0 = (s1, inr Sk) & py_is Sk Sm],
      SSO1 L g sf (ofmx A) (ofcv b) dl tol lim s = (s1, inr (ofcv x)),
      forall z, ridge (Sm *m A) (Sm *m b) dl x <= (1 + tau) ^+ 2 * ridge (Sm *m A) (Sm *m b) dl z &
      forall lo hi, embeds2 Sm A b lo hi -> dl = 0 \/ lo <= 1 /\ 1 <= hi ->
      forall z, lo * ridge A b dl x <= (1 + tau) ^+ 2 * hi * ridge A b dl z].
Proof using t0 lsq.
move=> ok dl0; have /andP[n0 nm] := lk_shape ok; have nt := lk_sf ok; have gok := lk_gen ok.
pose s0 := St (gen s) (evs s ++ (if tol is Some _ then [:: EvWarn W_sso_tol] else [::]) ++
  (if 1 < lim then [:: EvWarn W_sso_iter] else [::])).
have [d [dE dr dmin]] := dim_checks_run s0 nm nt.
pose s2 := St (gen s) (evs s ++ sso1_warns sf m n tol lim ++ [:: @EvDraw R d m]).
have [s1 [Sk [Sm [gE pS]]]] := gok d dr s2.
have d0 : (0 < d)%N by case/andP: dr => nd _; apply: leq_trans nd.
have [p' [Ab [bb [lA lB pp sE [bE _]]]]] := lift_exists (Sm *m A) dl (Sm *m b).
have [X [lE gX]] := lsq Ab bb (leq_trans d0 pp) n0.
have mn z : ridge (Sm *m A) (Sm *m b) dl X <= (1 + tau) ^+ 2 * ridge (Sm *m A) (Sm *m b) dl z.
  have := lb_obj lB X; have := lb_obj lB z; rewrite (max_r dl0) /ridge => <- <-.
  rewrite -opprB fro2N -[bb - Ab *m z]opprB fro2N -!sqr_fro -exprMn.
  apply: ler_expn2r; rewrite ?nnegrE ?fro_ge0 //.
  by rewrite mulr_ge0 ?fro_ge0 // (addr_ge0 ler01 t0).
exists s1, d, Sm, X; split=> //; last 1 first.
- move=> lo hi em h z; have lo1 : dl = 0 \/ lo <= 1 by case: h => [|[]]; auto.
  have hi1 : dl = 0 \/ 1 <= hi by case: h => [|[]]; auto.
  have /andP[e1 _] := ridge_sk em dl0 lo1 hi1 X; have /andP[_ e2] := ridge_sk em dl0 lo1 hi1 z.
  apply: le_trans e1 (le_trans (mn z) _); rewrite -mulrA ler_wpmul2l ?sqr_ge0 //.
- by exists s2, Sk.
have -> : SSO1 L g sf (ofmx A) (ofcv b) dl tol lim s =
  bind (dim_checks sf m n) (fun d =>
  let! Sk := draw g d m in
  let! A_ske := lift (mul_r Sk (ofmx A)) in
  let! b_ske := lift (mul_rv Sk (ofcv b)) in
  if 0 < dl then
    let! A_ske := lift (vstack A_ske (mscale (Num.sqrt dl) (meye n))) in
    lift (lstsq_v L A_ske (b_ske ++ vzeros n))
  else lift (lstsq_v L A_ske b_ske)) s0.
  rewrite /SSO1 /s0; case: (tol) => [t|]; case: (1 < lim); rewrite /bind /= /emit /ret /=;
  by case: (s) => ge ev /=; rewrite ?cats0 -?cats1 -?catA.
rewrite (bindE _ dE).
have sE2 : s2 = St (gen (dim_state sf m n s0)) (rcons (evs (dim_state sf m n s0)) (EvDraw d m)).
  rewrite /s2 /dim_state /sso1_warns; case: (m%:Z < _); rewrite -cats1 /s0 /= -?cats1 -!catA //.
rewrite (bindE _ (_ : draw g d m _ = (s1, inr Sk))); last by rewrite drawE -sE2.
rewrite (py_r pS) bind_liftE (py_rv pS) bind_liftE.
move: sE bE; rewrite /ske_lift /=; case: ifP => _.
  by case=> -> ->; rewrite bind_liftE /lstsq_v vcolE lE /= mcol_cv.
move=> E1 ->; rewrite (ok_inj E1 : ofmx (Sm *m A) = ofmx Ab) /lstsq_v vcolE lE /= mcol_cv //.
Qed.

Variables (E : (G -> R) -> R) (r : rng_ops G R).
Hypotheses (mE : mean E) (pE : positive E) (rok : rng_ok r).

Lemma near_sso1_prob m n (A : 'M[R]_(m, n)) (sf : rat) (nnz d : nat) (e : R) b :
  (0 < n <= m)%N -> (0 < nnz <= n)%N -> n%:Z <= trunc_rat (sf * n%:R) ->
  0 < e < 1 -> d%:Z = Num.min (trunc_rat (sf * n%:R)) m%:Z -> sjlt_law E r d m nnz ->
  exists B : G -> bool, E (fun g => (~~ B g)%:R) <= ((n + 1) * (n + 1) + (n + 1))%:R / (d%:R * e ^+ 2) /\
  forall g es dl, B g -> 0 <= dl -> exists x : 'cV[R]_n,
    (sso1 L r (ofmx A) (ofcv b) dl RGen sf nnz (St g es)).2 = inr (ofcv x) /\
    forall z, (1 - e) * ridge A b dl x <= (1 + tau) ^+ 2 * (1 + e) * ridge A b dl z.
Proof using t0 lsq mE pE rok.
move=> nm zn sfn e01 dE [rs ps].
have e0 : 0 < e by case/andP: e01.
have d0 : (0 < d)%N by move: dE sfn nm; lia.
have dm : (d <= m)%N by move: dE; lia.
have zd : (nnz <= d)%N by move: dE sfn nm zn; lia.
have z0 : (0 < nnz)%N by case/andP: zn.
have ok : lsq_ok (@skopSJ R (rcf_ops R) G r nnz) sf m n by exact: sj_lsq_ok.
have [B [PB hB]] := sj_event2 mE pE rok d0 dm z0 zd rs ps A b e0.
exists B; split=> // g es dl Bg dl0.
have [s1 [d' [Sm [x [dE' [s0 [Sk [gE kE pS]]] Ex _ H]]]]] := near_sso1 A b None 1 (St g es) ok dl0.
have dd : d' = d by move: dE' dE; lia.
subst d'; exists x; split; first by rewrite /sso1 /= Ex.
apply: H; last first.
  by right; split; [rewrite ler_subl_addr ler_addl ltW | rewrite ler_addl ltW].
case: s0 gE kE => g' es' /= -> kE; exact: hB kE pS.
Qed.
End Sso.

Lemma lstsq_near_exact (R : rcfType) (L : lapack R) (tau : R) : 0 <= tau -> lstsq_spec L -> lstsq_near L tau.
Proof.
move=> t0 ls m n A b m0 n0; have [X [W [E g _]]] := ls _ _ _ A b m0 n0 (ltn0Sn 0).
exists X; split=> // y.
have le : fro (A *m X - b) <= fro (A *m y - b).
  rewrite fro_le // (_ : A *m y - b = (A *m X - b) + A *m (y - X)); last first.
    by rewrite mulmxBr [RHS]addrC addrA subrK.
  rewrite [fro2 (_ + A *m (y - X))]fro2D [fip _ _]fipC /fip trmx_mul -mulmxA g mulmx0 mxtrace0 mulr0 addr0.
  by rewrite ler_addl fro2_ge0.
by apply: le_trans le _; rewrite mulrDl mul1r ler_addl mulr_ge0 ?fro_ge0.
Qed.
