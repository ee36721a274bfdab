(** The drivers evd1 and evd2, pass counts, and witnesses. *)
From mathcomp Require Import all_ssreflect all_algebra.
From mathcomp Require Import zify.
From Verif Require Import Base Arr Lapack Exact MxLib RingTac LapackSpec LapackExists Rng Aware RangeFinders QB.
From Verif Require Import P_RS1 P_QB2 P_RF P_QBx P_QBfin P_Pcg Chol P_Svd Sel SvdEvd P_SvdEvd P_Svd1 P_Evd P_Evd2.
Set Implicit Arguments.
Unset Strict Implicit.
Unset Printing Implicit Defensive.
Import Order.TTheory GRing.Theory Num.Theory.
Local Open Scope ring_scope.

(** ** A sorting routine meeting the specification of np.argsort *)
Definition sort_idx (R : rcfType) (v : seq R) : seq nat :=
  sort (fun i j => nth 0 v i <= nth 0 v j) (iota 0 (size v)).

Lemma sort_idxP (R : rcfType) : argsort_spec (@sort_idx R).
Proof.
move=> v; have pm : perm_eq (sort_idx v) (iota 0 (size v)).
  by rewrite /sort_idx perm_sort.
split=> // i j ij jv; rewrite /sort_idx.
set leT := fun i j => _; have tl : total leT by move=> a b; exact: le_total.
have tr : transitive leT by move=> a b c; exact: le_trans.
have rf : reflexive leT by move=> a; exact: lexx.
have sz : size (sort leT (iota 0 (size v))) = size v by rewrite size_sort size_iota.
apply: (sorted_leq_nth tr rf 0%N (sort_sorted tl _)) => //; rewrite inE sz //.
exact: leq_ltn_trans jv.
Qed.

(** ** Pass counts, for any scalar type *)
Section Passes.
Context {T : Type} {O : ops T} {G : Type}.
Variables (L : lapack T) (r : rng_ops G T).
Notation M := (M G T).

Lemma QB2_noov_passes (np blk : int) A k tol (s s' : st G T) X :
  QB2_noov L (RF1 L (RS1 (skopGA r) (np - 2)%R (orth L) 1%R)) blk A k tol s = (s', inr X) ->
  exists2 l, evs s' = evs s ++ l & (2 <= np)%R /\
    passes l = (absz np * blocks l)%N /\ (0 < blocks l)%N.
Proof.
rewrite /QB2_noov => H; case: (bind_inv H) => s1 [x [H1 [<- _]]].
have E : qb_b L r np blk false A k tol RGen s = (s1, inr x) by [].
by have [l e [h1 [h2 h3]]] := qb_b_passes E; exists l.
Qed.

Lemma lift_evs X (x : res X) (s s' : st G T) y : lift x s = (s', inr y) -> s' = s.
Proof. by rewrite /lift => -[->]. Qed.

Lemma svd1_passes A k over tol (np blk : int) a (s s' : st G T) X :
  svd1 L r A k over tol np blk a s = (s', inr X) ->
  exists2 l, evs s' = evs s ++ l & (2 <= np)%R /\
    passes l = (absz np * blocks l)%N /\ (0 < blocks l)%N.
Proof.
move/with_rng_inv => [s0 [s1 [E <- ->]]]; move: E; rewrite /SVD1 => H.
case: (bind_inv H) => s2 [QB [H2 {}H]]; have [l e h] := QB2_noov_passes H2.
exists l => //; rewrite -e.
case: (bind_inv H) => s3 [USV [H3 {}H]]; have e3 := lift_evs H3; subst s3; lazy zeta in H.
case: (bind_inv H) => s4 [USV' [H4 {}H]].
have -> : evs s2 = evs s4.
  move: H4; case: (has _ _); last by case=> <-.
  move=> H4; case: (bind_inv H4) => s5 [U [H5 {}H4]]; case: (bind_inv H4) => s6 [ss [H6 {}H4]].
  case: (bind_inv H4) => s7 [Vh [H7 [<- _]]].
  by rewrite (lift_evs H7) (lift_evs H6) (lift_evs H5).
by case: (bind_inv H) => s5 [U [H5 [<- _]]]; rewrite (lift_evs H5).
Qed.

Lemma evd1_passes asort A k tol over (np blk : int) a (s s' : st G T) X :
  evd1 L r asort A k tol over np blk a s = (s', inr X) ->
  exists2 l, evs s' = evs s ++ l & (2 <= np)%R /\
    passes l = (absz np * blocks l)%N /\ (0 < blocks l)%N.
Proof.
rewrite /evd1; case: (boolP (2 <= np)%R) => np2; last by rewrite bind_passertF.
rewrite bind_passertT => /with_rng_inv [s0 [s1 [E <- ->]]]; move: E; rewrite /EVD1.
case: (0 < k)%R; last by rewrite bind_passertF.
rewrite bind_passertT; case: (k <= _)%R; last by rewrite bind_passertF.
rewrite bind_passertT => H; case: (bind_inv H) => s2 [[] [H2 {}H]].
have -> : s0 = s2.
  move: H2; case: (half_tol tol) => [t|]; last by case.
  by rewrite /passert; case: (_ <= _)%O => // -[].
case: (bind_inv H) => s3 [QB [H3 {}H]]; have [l e h] := QB2_noov_passes H3.
exists l; [rewrite -e | by case: h].
case: (bind_inv H) => s4 [C [H4 {}H]]; case: (bind_inv H) => s5 [LU [H5 {}H]].
lazy zeta in H.
case: (bind_inv H) => s6 [U [H6 {}H]]; case: (bind_inv H) => s7 [la [H7 {}H]].
case: (bind_inv H) => s8 [V [H8 [<- _]]].
by rewrite (lift_evs H8) (lift_evs H7) (lift_evs H6) (lift_evs H5) (lift_evs H4).
Qed.

Lemma evd2_passes A k over (np : int) a (s s' : st G T) X :
  evd2 L r A k over np a s = (s', inr X) -> (1 <= np)%R /\
  exists2 l, evs s' = evs s ++ l & passes l = absz np.
Proof.
rewrite /evd2; case: (boolP (1 <= np)%R) => np1; last by rewrite bind_passertF.
rewrite bind_passertT => /with_rng_inv [s0 [s1 [E <- ->]]]; split=> //.
move: E; rewrite /EVD2.
case: (0 < k)%R; last by rewrite bind_passertF.
rewrite bind_passertT; lazy zeta; case: (k < _)%R; last by rewrite bind_passertF.
rewrite bind_passertT => H; case: (bind_inv H) => s2 [[] [[<-] {}H]].
move: H; case: ifP => // _ H; case: (bind_inv H) => s3 [Sk [H3 {}H]].
have [np0 e3] := RS1_sched (skopGA_quiet' (r:=r)) (isT : (0 < 1 :> int)%R) H3.
case: Sk H H3 => // Sk H _.
case: (bind_inv H) => s4 [Y [H4 {}H]]; case: (passA_inv H4) => e4 _.
case: (bind_inv H) => s5 [Y' [hs5 {}H]]; rewrite -> (lift_evs hs5) in *; clear hs5 s5; case: (bind_inv H) => s6 [C [hs6 {}H]]; rewrite -> (lift_evs hs6) in *; clear hs6 s6.
case: (bind_inv H) => s7 [Lo [hs7 {}H]]; rewrite -> (lift_evs hs7) in *; clear hs7 s7; case: (bind_inv H) => s8 [Bt [hs8 {}H]]; rewrite -> (lift_evs hs8) in *; clear hs8 s8.
case: (bind_inv H) => s9 [USV [hs9 {}H]]; rewrite -> (lift_evs hs9) in *; clear hs9 s9.
case: (bind_inv H) => s10 [comps [hs10 [<- _]]]; rewrite (lift_evs hs10).
eexists; first by rewrite e4 e3 -cats1 -catA.
rewrite passes_cat -cat1s passes_cat passes_sched // subn0 /=; lia.
Qed.

End Passes.

(** ** Accuracy of evd1 *)
Section Evd1.
Variables (R : rcfType) (G : Type) (L : lapack R) (asort : seq R -> seq nat) (r : rng_ops G R).
Hypotheses (qrL : qr_spec L) (eighL : eigh_spec L) (asP : argsort_spec asort) (rok : rng_ok r).

Lemma evd1_err n c e (A : 'M[R]_n) (Q : 'M[R]_(n, c)) (V : 'M[R]_(n, e)) (lam : 'cV[R]_e) (t : R) :
  A^T = A -> orthonormal Q -> 0 <= t ->
  fro (A - Q *m (Q^T *m A)) <= t / 2%:R * fro A ->
  fro2 (A - V *m diag_mx lam^T *m V^T) = fro2 A - fro2 lam ->
  fro2 (Q^T *m A *m Q) - fro2 lam <= c%:R * (10%:R * 2%:R ^- 52) ^+ 2 ->
  fro2 (A - V *m diag_mx lam^T *m V^T) <= t ^+ 2 * fro2 A + c%:R * (10%:R * 2%:R ^- 52) ^+ 2.
Proof.
move=> sA oQ t0 err -> drop.
have -> : fro2 A - fro2 lam = (fro2 A - fro2 (Q^T *m A *m Q)) + (fro2 (Q^T *m A *m Q) - fro2 lam).
  by rewrite addrA addrNK.
apply: ler_add => //; rewrite -two_sided_sq //.
rewrite -!sqr_fro -exprMn ler_pexpn2r ?nnegrE ?fro_ge0 ?mulr_ge0 ?fro_ge0 //.
apply: le_trans (two_sided sA oQ) _.
apply: le_trans (ler_wpmul2l _ err) _; first by rewrite ler0n.
by rewrite mulrA mulrCA divff ?mulr1 // pnatr_eq0.
Qed.

(** Single block: unconditional. *)
Lemma evd1_single (np blk : int) n (A : 'M[R]_n) (t : R) a (s : st G R) :
  2 <= np -> A^T = A -> (0 < n)%N -> n%:Z <= blk -> 0 <= t ->
  exists s' e (V : 'M[R]_(n, e)) (lam : 'cV[R]_e),
    [/\ evd1 L r asort (ofmx A) n%:Z (Some t) 0 np blk a s = (s', inr (ofmx V, ofcv lam)),
        orthonormal V, V^T *m A *m V = diag_mx lam^T,
        (forall i, 10%:R * 2%:R ^- 52 < `|lam i 0|) &
        fro2 (A - V *m diag_mx lam^T *m V^T) <= n%:R * (10%:R * 2%:R ^- 52) ^+ 2].
Proof.
move=> np2 sA n0 nb t0; have np0 : 0 <= np - 2 by lia.
pose (qb0 := QB2_noov L (RF1 L (RS1 (skopGA r) (np - 2) (orth L) 1)) blk).
have rfP : rf_shape (RF1 L (RS1 (skopGA r) (np - 2) (orth L) 1)) by apply: gauss_rf.
have kn : (0 < n%:Z <= n%:Z)%R by rewrite lexx andbT; lia.
have H (s0 : st G R) : exists s1 e (V : 'M[R]_(n, e)) (lam : 'cV[R]_e),
   [/\ EVD1 L asort qb0 (ofmx A) n%:Z (half_tol (Some t)) 0 s0 = (s1, inr (ofmx V, ofcv lam)),
        orthonormal V, V^T *m A *m V = diag_mx lam^T,
        (forall i, 10%:R * 2%:R ^- 52 < `|lam i 0|) &
        fro2 (A - V *m diag_mx lam^T *m V^T) <= n%:R * (10%:R * 2%:R ^- 52) ^+ 2].
  rewrite half_tolE /=.
  have k0 : 0 < n%:Z + 0 :> int by lia.
  have kb : (minn (absz (n%:Z + 0)) (minn n n))%:Z <= blk by lia.
  have [s1 [Q [A' [E oQ]]]] := QB2_single qrL false A (Some (t / 2%:R / 2%:R)) s0 rfP n0 n0 k0 kb.
  move: Q E oQ; have -> : minn (absz (n%:Z + 0)%R) (minn n n) = n by lia.
  move=> Q E oQ.
  have E' : qb0 (ofmx A) (n%:Z + 0) (omap (fun t => t / 2%:R) (Some (t / 2%:R))) s0 =
     (s1, inr (ofmx Q, ofmx (Q^T *m A))) by rewrite /qb0 /QB2_noov (bindE _ E).
  have t2 : (0 <= t / 2%:R) by rewrite divr_ge0 ?ler0n.
  have [e [V [lam [E1 h1 [h2 h3 h4 h5] [h6 h7] [h8 h9 h10]]]]] :=
    EVD1_form (tol := Some (t / 2%:R)) eighL asP sA kn t2 n0 oQ E'.
  exists s1, e, V, lam; split=> //.
  have d : fro2 (Q^T *m A *m Q) - fro2 lam <= n%:R * (10%:R * 2%:R ^- 52) ^+ 2.
    case: (ltnP e n) => en; first exact: h9.
    rewrite h10; last by apply/eqP; rewrite eqn_leq en andbT (leq_trans h1) // geq_minr.
    by rewrite subrr mulr_ge0 ?ler0n ?sqr_ge0.
  have := @evd1_err _ _ _ A Q V lam 0 sA oQ (lexx _) _ h8 d.
  rewrite expr0n /= !mul0r add0r; apply.
  by rewrite mulmxA (ortho_sq _ oQ) // mul1mx subrr fro0.
rewrite /evd1 np2 bind_passertT.
have [s' [x [E [e [V [lam [xE h]]]]]]] := @with_rng_evs R G _ r a
  (EVD1 L asort qb0 (ofmx A) n%:Z (half_tol (Some t)) 0) (fun _ x => exists e (V : 'M[R]_(n, e)) (lam : 'cV[R]_e),
    x = inr (ofmx V, ofcv lam) /\ [/\ orthonormal V, V^T *m A *m V = diag_mx lam^T,
        (forall i, 10%:R * 2%:R ^- 52 < `|lam i 0|) &
        fro2 (A - V *m diag_mx lam^T *m V^T) <= n%:R * (10%:R * 2%:R ^- 52) ^+ 2]) s
   (fun s0 _ => let: ex_intro s1 (ex_intro e (ex_intro V (ex_intro lam (And5 E h1 h2 h3 h4)))) := H s0 in
      ex_intro _ s1 (ex_intro _ _ (conj E (ex_intro _ e (ex_intro _ V (ex_intro _ lam (conj erefl (And4 h1 h2 h3 h4)))))))).
by exists s', e, V, lam; case: h => *; split=> //; rewrite E xE.
Qed.

Lemma evd1_accuracy (np blk : int) n (A : 'M[R]_n) (t : R) a (s : st G R) :
  2 <= np -> A^T = A -> (0 < n)%N -> 0 < blk -> 0 < t ->
  exists s' l c (F : 'M[R]_(n, c)) x,
    [/\ evd1 L r asort (ofmx A) n%:Z (Some t) 0 np blk a s = (s', x),
        evs s' = evs s ++ l, rf_outputs l F &
        \rank F = c -> exists e (V : 'M[R]_(n, e)) (lam : 'cV[R]_e),
          [/\ x = inr (ofmx V, ofcv lam), orthonormal V, V^T *m A *m V = diag_mx lam^T &
              fro2 (A - V *m diag_mx lam^T *m V^T) <=
                (t / 2%:R) ^+ 2 * fro2 A + n%:R * (10%:R * 2%:R ^- 52) ^+ 2]].
Proof.
move=> np2 sA n0 b0 t0; have np0 : 0 <= np - 2 by lia.
pose (qb0 := QB2_noov L (RF1 L (RS1 (skopGA r) (np - 2) (orth L) 1)) blk).
have rfP : rf_shape (RF1 L (RS1 (skopGA r) (np - 2) (orth L) 1)) by apply: gauss_rf.
have kn : (0 < n%:Z <= n%:Z)%R by rewrite lexx andbT; lia.
have k0 : 0 < n%:Z + 0 :> int by lia.
pose P (l : seq (event R)) (x : res (arr R * seq R)) := exists l' c (F : 'M[R]_(n, c)),
  [/\ l = evs s ++ l', rf_outputs l' F &
        \rank F = c -> exists e (V : 'M[R]_(n, e)) (lam : 'cV[R]_e),
          [/\ x = inr (ofmx V, ofcv lam), orthonormal V, V^T *m A *m V = diag_mx lam^T &
              fro2 (A - V *m diag_mx lam^T *m V^T) <=
                (t / 2%:R) ^+ 2 * fro2 A + n%:R * (10%:R * 2%:R ^- 52) ^+ 2]].
have H (s0 : st G R) : evs s0 = evs s -> exists s1 x,
    EVD1 L asort qb0 (ofmx A) n%:Z (half_tol (Some t)) 0 s0 = (s1, x) /\ P (evs s1) x.
  move=> s0E; rewrite half_tolE /=.
  have [s1 [l [c [Q [B [F [E el res]]]]]]] :=
    QB2_noovP qrL A (Some (t / 2%:R / 2%:R)) s0 rfP n0 n0 k0 b0.
  have t2 : (0 <= t / 2%:R) by rewrite divr_ge0 ?ler0n ?ltW.
  case E2: (EVD1 L asort qb0 (ofmx A) n%:Z (Some (t / 2%:R)) 0 s0) => [s2 x].
  have e2 : evs s2 = evs s1.
    have kA : (n%:Z <= (minn (nr (ofmx A)) (nc (ofmx A)))%:Z)%R by rewrite nr_ofmx nc_ofmx minnn.
    move: E2; rewrite /EVD1 kA; have /andP[-> _] := kn; rewrite !bind_passertT.
    have -> : (o0 <= t / 2%:R)%O = true by exact: t2.
    rewrite bind_passertT half_tolE /= (bindE _ E) /lift /bind /=.
    case: (mmul _ _) => [e|C]; first by case=> <-.
    case: (l_eigh _ _) => [e|LU]; first by case=> <-.
    case: (cidx _ _) => [e|U]; first by case=> <-.
    case: (vidx _ _) => [e|la]; first by case=> <-.
    by case: (mmul _ _) => [e|V]; case=> <-.
  exists s2, x; split=> //; exists l, c, F; split=> //; [by rewrite e2 el s0E | exact: qr_log res|].
  move=> rF; have [oQ BE [Y QY]] := qr_orth res rF.
  have E' : qb0 (ofmx A) (n%:Z + 0) (omap (fun t => t / 2%:R) (Some (t / 2%:R))) s0 =
     (s1, inr (ofmx Q, ofmx (Q^T *m A))) by rewrite -BE; exact: E.
  have /andP[c0 cn] := qr_c res.
  have [e [V [lam [E1 h1 [h2 h3 h4 h5] [h6 h7] [h8 h9 h10]]]]] :=
    EVD1_form (tol := Some (t / 2%:R)) eighL asP sA kn t2 c0 oQ E'.
  exists e, V, lam; split=> //; first by move: E1; rewrite E2 => -[_ ->].
  have cn' : (c <= n)%N by move: cn; lia.
  have d : fro2 (Q^T *m A *m Q) - fro2 lam <= c%:R * (10%:R * 2%:R ^- 52) ^+ 2.
    case: (ltnP e n) => en; first exact: h9.
    rewrite h10; last by apply/eqP; rewrite eqn_leq (leq_trans cn' en) andbT (leq_trans h1) // geq_minr.
    by rewrite subrr mulr_ge0 ?ler0n ?sqr_ge0.
  have err : fro (A - Q *m (Q^T *m A)) <= t / 2%:R / 2%:R * fro A.
    case: (ltnP c n) => lt.
      have lt' : (c < minn (absz (n%:Z + 0)%R) (minn n n))%N by move: lt; lia.
      by have [t' [[<-] _]] := qr_tol res lt'; rewrite BE.
    have cE : c = n by apply/eqP; rewrite eqn_leq cn'.
    by rewrite mulmxA (ortho_sq cE oQ) mul1mx subrr fro0 mulr_ge0 ?fro_ge0 // divr_ge0 ?ler0n.
  apply: le_trans (evd1_err sA oQ t2 err h8 d) _.
  by rewrite ler_add2l ler_wpmul2r ?sqr_ge0 // ler_nat.
have [s' [x [E [l [c [F [el rf h]]]]]]] := with_rng_evs (P := P) r a H.
by exists s', l, c, F, x; split=> //; rewrite /evd1 np2 bind_passertT.
Qed.

(** The documented tolerance fails for matrices of tiny norm. *)
Lemma evd1_refuted (np blk : int) (t : R) a (s : st G R) : 2 <= np -> 0 < blk -> 0 < t < 1 ->
  exists (A : 'M[R]_1) s' e (V : 'M[R]_(1, e)) (lam : 'cV[R]_e),
    [/\ A != 0, A^T = A, evd1 L r asort (ofmx A) 1 (Some t) 0 np blk a s = (s', inr (ofmx V, ofcv lam)) &
        t * fro A < fro (A - V *m diag_mx lam^T *m V^T)].
Proof.
move=> np2 b0 /andP[t0 t1]; pose A : 'M[R]_1 := (cut R)%:M.
have sA : A^T = A by rewrite tr_scalar_mx.
have b1 : 1%:Z <= blk by lia.
have [s' [e [V [lam [E oV VA lo er]]]]] := evd1_single a s np2 sA (ltn0Sn 0) b1 (ltW t0).
have A0 : A != 0.
  by apply/eqP => /matrixP /(_ 0 0); rewrite !mxE eqxx mulr1n => /eqP; rewrite gt_eqF ?cut_gt0.
exists A, s', e, V, lam; split=> //.
have e0 : e = 0%N.
  apply/eqP; rewrite -leqn0 leqNgt; apply/negP => e0.
  have := lo (Ordinal e0); rewrite -[_ * _]/(cut R).
  have -> : lam (Ordinal e0) 0 = (V^T *m A *m V) (Ordinal e0) (Ordinal e0).
    by rewrite VA !mxE eqxx mulr1n.
  have -> : V^T *m A *m V = cut R *: (V^T *m V).
    by rewrite /A -scalemx1 -scalemxAr mulmx1 -scalemxAl.
  by rewrite oV !mxE eqxx mulr1 ger0_norm ?ltxx // ltW ?cut_gt0.
subst e; rewrite (thinmx0 V) !mul0mx subr0.
by rewrite gtr_pmull // lt_neqAle fro_ge0 eq_sym fro_eq0 A0.
Qed.

End Evd1.

(** ** evd2 *)
Section Evd2Driver.
Variables (R : rcfType) (G : Type) (L : lapack R) (r : rng_ops G R).
Hypotheses (qrL : qr_spec L) (svdL : svd_spec L) (rok : rng_ok r).

Lemma cholesky_dec n (C : 'M[R]_n) : spd C \/ ~ spd C.
Proof.
case: (altP (C^T =P C)) => [sC|nC]; last by right=> -[e _]; rewrite e eqxx in nC.
case E: (@cholesky R (rcf_ops R) (ofmx C)) => [e|X]; first by right; case: (cholesky_err E).
have [Lo [_ tL dL LL]] := choleskyP sC E.
by left; exact: (spd_gram tL dL LL).
Qed.

Lemma evd2_driver n (A : 'M[R]_n) (k over np : int) a (s : st G R) (p := absz (k + over)%R) :
  A^T = A -> 0 < k < n%:Z -> 0 <= over -> (p <= n)%N -> 1 <= np ->
  exists s' x, evd2 L r (ofmx A) k over np a s = (s', x) /\
    (x = inl LinAlgError \/
     exists (S : 'M[R]_(n, p)) e (V : 'M[R]_(n, e)) (lamb : 'cV[R]_e),
       x = inr (ofmx V, ofcv lamb) /\ evd2_result A S (absz k) V lamb).
Proof.
move=> sA kn o0 pn np1; have np0 : 0 <= np - 1 by lia.
have [k0 kn'] := andP kn.
rewrite /evd2 np1 bind_passertT.
pose P (_ : seq (event R)) (x : res (arr R * seq R)) := x = inl LinAlgError \/
     exists (S : 'M[R]_(n, p)) e (V : 'M[R]_(n, e)) (lamb : 'cV[R]_e),
       x = inr (ofmx V, ofcv lamb) /\ evd2_result A S (absz k) V lamb.
apply: (@with_rng_evs R G _ r a _ P s) => s0 _.
have p0 : (0 < p)%N by rewrite /p; lia.
have ptot : (p <= minn n n)%N by rewrite minnn.
have [s1 [S [Es _]]] := RS1_total rok (orth_stab qrL) (isT : 0 < 1 :> int) np0 A s0 p0 ptot.
have ko : 0 <= k + over by lia.
have [h1 h2] := EVD2_result (tol := None) (s := s0) svdL sA kn ko p0 erefl Es.
have [sC|nC] := cholesky_dec (S^T *m ((A + (evd2_nu A S)%:M) *m S)); last first.
  by rewrite h1 //; eexists _, _; split; [reflexivity | left].
have kp : (absz k <= p)%N by rewrite /p; lia.
have [e [V [lamb [-> res]]]] := (h2 sC).2 kp.
by eexists _, _; split; [reflexivity | right; exists S, e, V, lamb].
Qed.

End Evd2Driver.

Section Wit.
Variable R : rcfType.

Definition e11 n : 'M[R]_n.+1 := delta_mx 0 0.

Lemma e11_psd n : psd (e11 n).
Proof.
split; first by rewrite trmx_delta.
move=> x; have eE i : (e11 n *m x) i 0 = (i == 0)%:R * x 0 0.
  rewrite mxE (bigD1 0) //= big1 => [|j j0]; rewrite mxE ?eqxx ?andbT ?addr0 //.
  by rewrite (negbTE j0) andbF mul0r.
rewrite /qf /dot mxE sumr_ge0 // => i _; rewrite eE mxE; case: eqP => [->|_].
  by rewrite mul1r -expr2 sqr_ge0.
by rewrite mul0r mulr0.
Qed.

Lemma e11_rank n : \rank (e11 n) = 1%N.
Proof. exact: mxrank_delta. Qed.

Lemma wit_sketch2 n (A : 'M[R]_n) k s : (0 < k)%N -> (k <= n)%N ->
  exists s', RS1 (skopGA (T:=R) toy_rng) 0 (orth (exact_lapack R)) 1 (ofmx A) k s =
    (s', inr (PyArr (ofmx (colblk (1%:M : 'M[R]_n) 0 k)))).
Proof.
move=> k0 kn; rewrite /RS1 bind_passertT /= /draw /bind /emit /= /skopGA /gaussian_operator /=.
rewrite ifN; last by rewrite -lt0n leq_min k0 (leq_trans k0 kn).
rewrite /bind /getgen /= /ret; eexists; congr (_, inr (PyArr _)).
apply: mk_eq_ofmx => i j; rewrite mxE add0n.
have lj : (j < n)%N by apply: leq_trans kn.
by rewrite (mxe_ord _ (ltn_ord i) lj) mxE -val_eqE /=; case: eqP.
Qed.

(** A rank-one matrix for which evd2 returns no eigenpair at all. *)
Lemma evd2_refuted (s : st nat R) : exists (A : 'M[R]_3) s' e (V : 'M[R]_(3, e)) (lamb : 'cV[R]_e),
  [/\ psd A, evd2 (exact_lapack R) toy_rng (ofmx A) 2 0 1 RGen s = (s', inr (ofmx V, ofcv lamb)) &
      (e < minn 2 (\rank A))%N].
Proof.
have [s1 Es] := @wit_sketch2 3 (e11 2) 2 s isT isT.
pose A := e11 2; pose S := colblk (1%:M : 'M[R]_3) 0 2; have pA := e11_psd 2.
have kn : (0 < Posz 2 < 3%:Z)%R by [].
have [h1 h2] := EVD2_result (tol := None) (s := s) (over := 0) (exact_svd (R:=R)) pA.1 kn (isT : 0 <= 2 + 0 :> int) (isT : (0 < 2)%N) erefl Es.
have oS : orthonormal S by apply: orthonormal_colblk; rewrite // /orthonormal trmx1 mulmx1.
have rS : \rank S = 2%N.
  apply/eqP; rewrite eqn_leq rank_leq_col /= -{1}(mxrank1 R 2) -oS; exact: mxrankM_maxr.
have AS : A *m S != 0.
  apply/eqP => /matrixP /(_ 0 0); rewrite !mxE (bigD1 0) //= big1 => [|i i0].
    rewrite !mxE /= add0n (mxe_ord _ (isT : 0 < 3)%N (isT : 0 < 3)%N) mxE -val_eqE /= addr0 mul1r.
    by apply/eqP; rewrite oner_eq0.
  by rewrite mxE (negbTE i0) mul0r.
have [_ h3] := h2 (evd2_spd pA rS AS).
have [e [V [lamb [E res]]]] := h3 isT.
eexists A, _, e, V, lamb; split=> //; first by rewrite /evd2 bind_passertT; exact: E.
have := e2_rank res pA; rewrite e11_rank => H; rewrite minnC /minn /=; exact: H.
Qed.

End Wit.

(** ** The rank condition on the rangefinder outputs holds for single-block runs *)
Section SingleLog.
Variables (R : rcfType) (G : Type) (L : lapack R).
Hypotheses (qrL : qr_spec L).

(** All matrices recorded as rangefinder outputs, put side by side. *)
Definition rf_step (X : arr R) (e : event R) : arr R :=
  if e is EvRF Y then (if hstack X Y is inr Z then Z else X) else X.

Lemma rf_step_noRF l X : noRF l -> foldl rf_step X l = X.
Proof. by elim: l X => //= e l IH X /andP[h1 h2]; case: e h1 => // *; rewrite IH. Qed.

(** [rf_outputs] determines the matrix. *)
Lemma rf_ext_fold m c (F : 'M[R]_(m, c)) l c' (F' : 'M[R]_(m, c')) : rf_ext F l F' ->
  foldl rf_step (ofmx F) l = ofmx F'.
Proof.
elim=> {c F l c' F'} [c F l nl|c F l1 l2 b Fi c' F' n1 _ IH]; first exact: rf_step_noRF.
by rewrite foldl_cat (rf_step_noRF _ n1) /= hstackE.
Qed.

Lemma rf_outputs_inj m l c1 (F1 : 'M[R]_(m, c1)) c2 (F2 : 'M[R]_(m, c2)) :
  rf_outputs l F1 -> rf_outputs l F2 -> ofmx F1 = ofmx F2.
Proof. by move=> /rf_ext_fold <- /rf_ext_fold <-. Qed.

Lemma orthonormal_rank m c (Q : 'M[R]_(m, c)) : orthonormal Q -> \rank Q = c.
Proof.
move=> oQ; apply/eqP; rewrite eqn_leq rank_leq_col /= -{1}(mxrank1 R c) -oQ; exact: mxrankM_maxr.
Qed.

(** A single-block run: the rangefinder output has independent columns. *)
Lemma QB2_single_log rso (blk : int) ow m n (A : 'M[R]_(m, n)) (k : int) tol (s : st G R)
    (kk := minn (absz k) (minn m n)) :
  rso_total rso -> (0 < m)%N -> (0 < n)%N -> 0 < k -> kk%:Z <= blk ->
  exists s' l (Q F : 'M[R]_(m, kk)) A',
    [/\ QB2 L (RF1 L rso) blk ow (ofmx A) k tol s = (s', inr (ofmx Q, ofmx (Q^T *m A), A')),
        evs s' = evs s ++ l, rf_outputs l F, \rank F = kk & orthonormal Q].
Proof.
move=> rfP m0 n0 k0 kb; rewrite /QB2 k0 bind_passertT.
have -> : minn (nr (ofmx A)) (nc (ofmx A)) = minn m n by [].
have kk0 : (0 < kk)%N by rewrite /kk; lia.
have kkmn : (kk <= minn m n)%N by rewrite geq_minr.
have kkm : (kk <= m)%N by rewrite (leq_trans kkmn) ?geq_minl.
have [s0 [l0 [E0 e0 n0']]] : exists (s0 : st G R) l0, [/\ (if k <= (minn m n)%:Z then ret (absz k)
         else emit (EvWarn W_qb2_rank) >>> ret (minn m n)) s = (s0, inr kk), evs s0 = evs s ++ l0 & noRF l0].
  case: ifP => le; last first.
    eexists _, [:: EvWarn W_qb2_rank]; split; [by rewrite bind_emitE /ret; congr (_, inr _); rewrite /kk; lia | by rewrite /= cats1 |by []].
  by eexists _, [::]; split; [rewrite /ret; congr (_, inr _); rewrite /kk; lia | rewrite cats0 |].
rewrite (bindE _ E0) kkmn bind_passertT !mzerosE nr_ofmx nc_ofmx.
have [s1 [X [EX [l1 e1 n1]]]] := rfP _ _ A kk s0 kk0 kkmn.
have [F [W [EF oF _]]] := RF1P qrL kk0 kkmn EX.
have [Q [U [EQ oQ _ _]]] := qr_tall F qrL kk0 kkm.
move: (sqnorm0 _) (abs_sq_tol _ _) (use_tol _) => sq abs ut.
have [s' E e'] : exists2 s', qb2_loop L kk.+1 (RF1 L rso) kk ut abs blk sq (ofmx A) (ofmx (0 : 'M[R]_(m, 0)))
    (ofmx (0 : 'M[R]_(0, n))) s0 = (s', inr (ofmx Q, ofmx (Q^T *m A), ofmx (A - Q *m (Q^T *m A)))) &
    evs s' = evs s1 ++ [:: EvPass false; EvRF (ofmx F); EvPass true].
  eexists; first rewrite [qb2_loop]lock /= -lock [qb2_loop _ _ _ _ _ _ _ _ _ _ _]/=.
    have -> : (if kk%:Z < 0%N%:Z + blk then kk%:Z - 0%N%:Z else blk) = kk%:Z by case: ifP => h; move: kb h; clear; lia.
    rewrite (bindE _ EF) bind_emitE project_outE bind_liftE mul0mx subr0 EQ bind_liftE [_.1]/=.
    rewrite (bindE _ (passQtAE _ _ _)) hstackE bind_liftE vstackE bind_liftE.
    rewrite mmulE bind_liftE msubE bind_liftE row_thin_mx col_flat_mx nr_ofmx leqnn.
    by case: ifP.
  by rewrite /= -!cats1 -!catA.
exists s', (l0 ++ l1 ++ [:: EvPass false; EvRF (ofmx F); EvPass true]), Q, F.
exists (if ow then ofmx (A - Q *m (Q^T *m A)) else ofmx A); split=> //.
- by rewrite (bindE _ E).
- by rewrite e' e1 e0 -!catA.
- have -> : l0 ++ l1 ++ [:: EvPass false; EvRF (ofmx F); EvPass true] =
    (l0 ++ l1 ++ [:: EvPass false]) ++ EvRF (ofmx F) :: [:: EvPass true] :> seq (event R).
    by rewrite -!catA.
  apply: ext_cons; first by rewrite /noRF !all_cat /= andbT; apply/andP.
  by rewrite row_thin_mx; apply: ext_nil.
- exact: orthonormal_rank.
Qed.

End SingleLog.

(** ** Forms used in the property statements *)
Section Forms.
Variables (R : rcfType) (G : Type) (L : lapack R).

Lemma EVD1_error (asort : seq R -> seq nat) (qb : qbdec)
    n c (A : 'M[R]_n) (k : int) (t : R) (over : int) (s s1 : st G R) (Q : 'M[R]_(n, c)) :
  eigh_spec L -> argsort_spec asort ->
  A^T = A -> 0 < k <= n%:Z -> 0 <= t -> (0 < c)%N -> orthonormal Q ->
  qb (ofmx A) (k + over) (Some (t / 2%:R)) s = (s1, inr (ofmx Q, ofmx (Q^T *m A))) ->
  fro (A - Q *m (Q^T *m A)) <= t / 2%:R * fro A ->
  exists r (V : 'M[R]_(n, r)) (lam : 'cV[R]_r),
    [/\ EVD1 L asort qb (ofmx A) k (Some t) over s = (s1, inr (ofmx V, ofcv lam)),
        r = c -> fro (A - V *m diag_mx lam^T *m V^T) <= t * fro A &
        (r < absz k)%N -> fro2 (A - V *m diag_mx lam^T *m V^T) <=
           t ^+ 2 * fro2 A + c%:R * (10%:R * 2%:R ^- 52) ^+ 2].
Proof.
move=> eighL asP sA kn t0 c0 oQ E err.
have [e [V [lam [E1 h1 [h2 h3 h4 h5] [h6 h7] [h8 h9 h10]]]]] :=
    EVD1_form (tol := Some t) eighL asP sA kn t0 c0 oQ E.
exists e, V, lam; split=> //; last by move=> /h9; exact: evd1_err err h8.
move=> ec; rewrite -(@ler_pexpn2r _ 2) ?nnegrE ?fro_ge0 ?mulr_ge0 ?fro_ge0 //.
rewrite exprMn !sqr_fro h8 -(h10 ec) -two_sided_sq // -!sqr_fro -exprMn.
rewrite ler_pexpn2r ?nnegrE ?fro_ge0 ?mulr_ge0 ?fro_ge0 //.
apply: le_trans (two_sided sA oQ) _.
apply: le_trans (ler_wpmul2l _ err) _; first by rewrite ler0n.
by rewrite mulrA mulrCA divff ?mulr1 // pnatr_eq0.
Qed.

Section E2.
Variables (sk_op : rowsketcher (T := R) (G := G)) (n : nat) (A : 'M[R]_n).
Variables (k over : int) (s s1 : st G R) (p : nat) (S : 'M[R]_(n, p)).
Hypotheses (svdL : svd_spec L) (kn : 0 < k < n%:Z) (ko : 0 <= k + over).
Hypothesis Es : sk_op (ofmx A) (absz (k + over)) s = (s1, inr (PyArr (ofmx S))).

Lemma EVD2_loses : psd A -> (0 < \rank A < absz k)%N -> (absz k <= p)%N -> \rank S = p -> A *m S != 0 ->
  exists s2 e (V : 'M[R]_(n, e)) (lamb : 'cV[R]_e),
    EVD2 L sk_op (ofmx A) k None over s = (s2, inr (ofmx V, ofcv lamb)) /\ (e < \rank A)%N.
Proof.
move=> pA rA kp rS AS; have p0 : (0 < p)%N by move: kn kp; clear; lia.
have [_ h] := EVD2_result (tol := None) (s := s) svdL pA.1 kn ko p0 erefl Es.
have [_ /(_ kp) [e [V [lamb [E res]]]]] := h (evd2_spd pA rS AS).
by eexists _, e, V, lamb; split; [exact: E | exact: e2_rank res pA rA].
Qed.

Lemma EVD2_nystrom : A^T = A -> (absz k <= p)%N ->
  let nu := Num.sqrt n%:R * 2%:R ^- 52 * fro (A *m S) in
  let Y := (A + nu%:M) *m S in
  (~ spd (S^T *m Y) -> exists s2, EVD2 L sk_op (ofmx A) k None over s = (s2, inl LinAlgError)) /\
  (spd (S^T *m Y) -> exists s2 e (V : 'M[R]_(n, e)) (lamb : 'cV[R]_e) q (W : 'M[R]_(n, q)) (d : 'cV[R]_q),
     [/\ EVD2 L sk_op (ofmx A) k None over s = (s2, inr (ofmx V, ofcv lamb)),
         (e <= absz k <= q)%N,
         [/\ orthonormal W, forall i j : 'I_q, (i <= j)%N -> d j 0 <= d i 0 &
             Y *m invmx (S^T *m Y) *m Y^T = W *m diag_mx d^T *m W^T],
         orthonormal V /\ V = colblk W 0 e &
         forall (i : 'I_e) (j : 'I_q), i = j :> nat -> lamb i 0 + nu = d j 0]).
Proof.
move=> sA kp nu Y; have p0 : (0 < p)%N by move: kn kp; clear; lia.
have [h1 h2] := EVD2_result (tol := None) (s := s) svdL sA kn ko p0 erefl Es.
split=> [/h1 ->|]; first by eexists.
move=> /h2 [_ /(_ kp) [e [V [lamb [-> res]]]]].
have [q [W [d [oW dd NE [kq VE] lE]]]] := e2_nystrom res.
eexists _, e, V, lamb, q, W, d; split=> //; first by rewrite (e2_r res).
  by split=> //; exact: e2_orth res.
by move=> i j ij; rewrite lE ij (mxe_ord _ (ltn_ord j) (ltn0Sn 0)); congr (d _ _); apply: val_inj.
Qed.

Lemma EVD2_under s2 e (V : 'M[R]_(n, e)) (lamb : 'cV[R]_e) : psd A -> (0 < p)%N ->
  EVD2 L sk_op (ofmx A) k None over s = (s2, inr (ofmx V, ofcv lamb)) ->
  [/\ orthonormal V, forall i j : 'I_e, (i <= j)%N -> lamb j 0 <= lamb i 0,
      (1 < absz k)%N -> forall i, 0 < lamb i 0 &
      forall y : 'cV[R]_e, (y^T *m diag_mx lamb^T *m y) 0 0 <= ((V *m y)^T *m A *m (V *m y)) 0 0].
Proof.
move=> pA p0 E.
have [h1 h2] := EVD2_result (tol := None) (s := s) svdL pA.1 kn ko p0 erefl Es.
have [sC|nC] := cholesky_dec (S^T *m ((A + (evd2_nu A S)%:M) *m S)); last first.
  by move: (h1 nC); rewrite E.
have [h3 h4] := h2 sC.
have kp : (absz k <= p)%N by rewrite leqNgt; apply/negP => /h3; rewrite E.
have [e' [V' [lamb' [E' res]]]] := h4 kp.
rewrite E in E'.
have eV := congr1 (fun x : (st G R * (exn + (arr R * seq R)))%type => if x.2 is inr y then y.1 else ofmx V) E'.
have el := congr1 (fun x : (st G R * (exn + (arr R * seq R)))%type => if x.2 is inr y then y.2 else [::]) E'.
rewrite /= in eV el.
have ee : e = e' := congr1 (@nc R) eV.
subst e'; move: (ofmx_inj eV) (ofcv_inj el) => ? ?; subst V' lamb'.
split; [exact: e2_orth res | exact: e2_sorted res | exact: e2_pos res pA |].
move=> y; have := e2_rayleigh res pA y; rewrite /qf /dot trmx_mul !mulmxA; exact.
Qed.

End E2.

Lemma EVD2_definite n p (A : 'M[R]_n) (S : 'M[R]_(n, p)) :
  let nu := Num.sqrt n%:R * 2%:R ^- 52 * fro (A *m S) in
  let C := S^T *m ((A + nu%:M) *m S) in
  [/\ psd A -> \rank S = p -> A *m S != 0 -> spd C,
      (n < p)%N -> ~ spd C &
      (0 < p)%N -> A *m S = 0 -> ~ spd C].
Proof. by split; [exact: evd2_spd | exact: not_spd_wide | exact: not_spd_zero]. Qed.

Lemma evd2_hyps (s : st nat R) : exists s1,
  [/\ psd (e11 R 2), \rank (colblk (1%:M : 'M[R]_3) 0 2) = 2%N,
      e11 R 2 *m colblk (1%:M : 'M[R]_3) 0 2 != 0 &
      RS1 (skopGA (T:=R) toy_rng) 0 (orth (exact_lapack R)) 1 (ofmx (e11 R 2)) 2 s =
        (s1, inr (PyArr (ofmx (colblk (1%:M : 'M[R]_3) 0 2))))].
Proof.
have [s1 Es] := @wit_sketch2 R 3 (e11 R 2) 2 s isT isT; exists s1; split=> //.
- exact: e11_psd.
- by apply: orthonormal_rank; apply: orthonormal_colblk; rewrite // /orthonormal trmx1 mulmx1.
- apply/eqP => /matrixP /(_ 0 0); rewrite !mxE (bigD1 0) //= big1 => [|i i0].
    rewrite !mxE /= add0n (mxe_ord _ (isT : 0 < 3)%N (isT : 0 < 3)%N) mxE -val_eqE /= addr0 mul1r.
    by apply/eqP; rewrite oner_eq0.
  by rewrite mxE (negbTE i0) mul0r.
Qed.

End Forms.

Lemma wit_single (R : rcfType) tol (s : st nat R) :
  exists s' (Q : 'M[R]_3) A',
    QB2 (exact_lapack R) (@wit_rf R) 3 false (ofmx (wit_A R)) (2 + 1) tol s =
      (s', inr (ofmx Q, ofmx (Q^T *m wit_A R), A')) /\ orthonormal Q.
Proof.
exact: (QB2_single (exact_qr (R:=R)) false (wit_A R) tol s (@wit_rf_shape R)
  (isT : (0 < 3)%N) (isT : (0 < 3)%N) (isT : 0 < 2 + 1 :> int)
  (isT : (minn (absz (2 + 1)%R) (minn 3 3))%:Z <= 3)).
Qed.
