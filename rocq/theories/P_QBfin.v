(** Final forms of the range finder / QB results, and witnesses showing that
    their hypotheses can be met. *)
From mathcomp Require Import all_ssreflect all_algebra.
From mathcomp Require Import zify.
From Verif Require Import Base Arr Lapack Exact MxLib LapackSpec LapackExists Rng Aware RangeFinders QB.
From Verif Require Import P_RS1 P_QB2 P_RF P_QB3 P_QBx.
Set Implicit Arguments.
Unset Strict Implicit.
Unset Printing Implicit Defensive.
Import Order.TTheory GRing.Theory Num.Theory.
Local Open Scope ring_scope.

Section Fin.
Variables (R : rcfType) (G : Type).

Lemma ofmx_inj2 m n c d (Q : 'M[R]_(m, c)) (B : 'M[R]_(c, n)) (Q' : 'M[R]_(m, d)) (B' : 'M[R]_(d, n)) :
  ofmx Q = ofmx Q' -> ofmx B = ofmx B' ->
  exists E : c = d, Q' = castmx (erefl, E) Q /\ B' = castmx (E, erefl) B.
Proof.
move=> EQ EB; have E : c = d by have := congr1 (@nc R) EQ.
by subst d; exists erefl; rewrite !castmx_id; split; apply: ofmx_inj.
Qed.

Lemma inr3 (S X Y Z : Type) (s s' : S) (a a' : X) (b b' : Y) (c c' : Z) :
  (s, inr (a, b, c) : res _) = (s', inr (a', b', c')) -> [/\ s = s', a = a', b = b' & c = c'].
Proof. by case. Qed.
Lemma inr2 (S X Y : Type) (s s' : S) (a a' : X) (b b' : Y) :
  (s, inr (a, b) : res _) = (s', inr (a', b')) -> [/\ s = s', a = a' & b = b'].
Proof. by case. Qed.

Section WithL.
Variable L : lapack R.
Hypothesis qrL : qr_spec L.

Lemma QB2_run rf (blk : int) ow m n (A : 'M[R]_(m, n)) (k : int) tol (s s' : st G R) A'
    c (Q : 'M[R]_(m, c)) (B : 'M[R]_(c, n)) :
  rf_shape rf -> (0 < m)%N -> (0 < n)%N -> 0 < k -> 0 < blk ->
  QB2 L rf blk ow (ofmx A) k tol s = (s', inr (ofmx Q, ofmx B, A')) ->
  fro2 (A - Q *m B) = fro2 A - fro2 B /\ A' = ofmx (if ow then A - Q *m B else A).
Proof.
move=> rfP m0 n0 k0 b0 E.
have [s1 [l [c1 [Q1 [B1 [F [E1 _ _ fr _]]]]]]] := QB2P qrL ow A tol s rfP m0 n0 k0 b0.
have [_ EQ EB EA] := inr3 (etrans (esym E1) E).
have [Ec [QE BE]] := ofmx_inj2 EQ EB.
by clear E E1 EQ EB F; subst c; rewrite !castmx_id in QE BE; subst Q B.
Qed.

Lemma QB2_stops rf (blk : int) ow m n (A : 'M[R]_(m, n)) (k : int) tol (s : st G R) :
  rf_shape rf -> (0 < m)%N -> (0 < n)%N -> 0 < k -> 0 < blk ->
  exists s' c (Q : 'M[R]_(m, c)) (B : 'M[R]_(c, n)) A',
    [/\ QB2 L rf blk ow (ofmx A) k tol s = (s', inr (ofmx Q, ofmx B, A')),
        (0 < c <= minn (absz k) (minn m n))%N &
        (c < minn (absz k) (minn m n))%N ->
          exists t, [/\ tol = Some t, 0 < t & fro (A - Q *m B) <= t * fro A]].
Proof.
move=> rfP m0 n0 k0 b0.
have [s1 [l [c1 [Q1 [B1 [F [E1 h1 h2 _ _]]]]]]] := QB2P qrL ow A tol s rfP m0 n0 k0 b0.
by exists s1, c1, Q1, B1, (ofmx (if ow then A - Q1 *m B1 else A)).
Qed.

Lemma QB2_orth rf (blk : int) ow m n (A : 'M[R]_(m, n)) (k : int) tol (s : st G R) :
  rf_shape rf -> (0 < m)%N -> (0 < n)%N -> 0 < k -> 0 < blk ->
  exists s' l c (Q : 'M[R]_(m, c)) (B : 'M[R]_(c, n)) (F : 'M[R]_(m, c)) A',
    [/\ QB2 L rf blk ow (ofmx A) k tol s = (s', inr (ofmx Q, ofmx B, A')),
        evs s' = evs s ++ l, rf_outputs l F &
        \rank F = c ->
        [/\ orthonormal Q, B = Q^T *m A & exists Y, Q = F *m Y]].
Proof.
move=> rfP m0 n0 k0 b0.
have [s1 [l [c1 [Q1 [B1 [F [E1 h1 h2 _ [h3 h4 h5]]]]]]]] := QB2P qrL ow A tol s rfP m0 n0 k0 b0.
by exists s1, l, c1, Q1, B1, F, (ofmx (if ow then A - Q1 *m B1 else A)).
Qed.

(** The Gaussian rangefinder used by [qb_b] is conformant. *)
Lemma gauss_rf (r : rng_ops G R) (np : int) : rng_ok r -> 0 <= np ->
  rf_shape (RF1 L (RS1 (skopGA r) np (orth L) 1)).
Proof. by move=> rok np0; apply/RF1_shape/RS1_total => //; apply: orth_stab. Qed.

Lemma with_rng_run X (r : rng_ops G R) a (c : M G R X) (P : seq (event R) -> res X -> Prop) s :
  (forall s0, exists s1 x, c s0 = (s1, x) /\ P (evs s1) x) ->
  exists s' x, with_rng r a c s = (s', x) /\ P (evs s') x.
Proof.
move=> H; case: a => [|z|v] /=; first exact: H.
  by have [s1 [x [-> p]]] := H (St (r_seed r z) (evs s)); exists (St (gen s) (evs s1)), x.
by have [s1 [x [-> p]]] := H (St (r_seeds r v) (evs s)); exists (St (gen s) (evs s1)), x.
Qed.

Lemma qb_b_stops (r : rng_ops G R) (np blk : int) ow m n (A : 'M[R]_(m, n)) (k : int) tol a s :
  rng_ok r -> 2 <= np -> (0 < m)%N -> (0 < n)%N -> 0 < k -> 0 < blk ->
  exists s' c (Q : 'M[R]_(m, c)) (B : 'M[R]_(c, n)),
    [/\ qb_b L r np blk ow (ofmx A) k tol a s =
          (s', inr (ofmx Q, ofmx B, ofmx (if ow then A - Q *m B else A))),
        (0 < c <= minn (absz k) (minn m n))%N,
        fro2 (A - Q *m B) = fro2 A - fro2 B &
        (c < minn (absz k) (minn m n))%N ->
          exists t, [/\ tol = Some t, 0 < t & fro (A - Q *m B) <= t * fro A]].
Proof.
move=> rok np2 m0 n0 k0 b0; have np0 : 0 <= np - 2 by lia.
pose (c0 := QB2 L (RF1 L (RS1 (skopGA r) (np - 2) (orth L) 1)) blk ow (ofmx A) k tol).
have [s0|s' [x [E [c [Q [B [xE ck st fr]]]]]]] := @with_rng_run _ r a c0
  (fun _ x => exists c (Q : 'M[R]_(m, c)) (B : 'M[R]_(c, n)),
    [/\ x = inr (ofmx Q, ofmx B, ofmx (if ow then A - Q *m B else A)),
        (0 < c <= minn (absz k) (minn m n))%N,
        (c < minn (absz k) (minn m n))%N ->
          exists t, [/\ tol = Some t, 0 < t & fro (A - Q *m B) <= t * fro A] &
        fro2 (A - Q *m B) = fro2 A - fro2 B]) s _.
  have [s1 [l [c1 [Q1 [B1 [F [E1 h1 h2 h3 _]]]]]]] :=
    QB2P qrL ow A tol s0 (gauss_rf rok np0) m0 n0 k0 b0.
  by exists s1, (inr (ofmx Q1, ofmx B1, ofmx (if ow then A - Q1 *m B1 else A))); split=> //; exists c1, Q1, B1.
by exists s', c, Q, B; rewrite -xE.
Qed.

Lemma QB2_refuted (rso : rowsketcher) ow (s : st G R) :
  rso_total rso ->
  exists (A Q B : 'M[R]_2) s' A',
    QB2 L (RF1 L rso) 1 ow (ofmx A) 2 None s = (s', inr (ofmx Q, ofmx B, A')) /\
    ~ orthonormal Q.
Proof.
move=> rsoP; have [q0 [Q [B [_ _ [s' [A' E]] nQ]]]] := QB2_loses_orthonormality qrL ow s rsoP.
by exists (q0 *m q0^T), Q, B, s', A'.
Qed.

Lemma qb_b_refuted (r : rng_ops G R) (np : int) ow s :
  rng_ok r -> 2 <= np ->
  exists (A Q B : 'M[R]_2) s' A',
    qb_b L r np 1 ow (ofmx A) 2 None RGen s = (s', inr (ofmx Q, ofmx B, A')) /\
    ~ orthonormal Q.
Proof.
move=> rok np2; apply: QB2_refuted; apply: RS1_total => //; last by lia.
exact: orth_stab.
Qed.

Lemma QB3_run (sk_op : rowsketcher) (blk : int) m n (A : 'M[R]_(m, n)) (k : nat) tol (s s1 s' : st G R)
    (S : 'M[R]_(n, k)) c (Q : 'M[R]_(m, c)) (B : 'M[R]_(c, n)) :
  (0 < k)%N -> (k < minn m n)%N -> 0 < blk ->
  sk_op (ofmx A) k s = (s1, inr (PyArr (ofmx S))) ->
  QB3 L sk_op blk (ofmx A) k%:Z tol s = (s', inr (ofmx Q, ofmx B)) ->
  [/\ orthonormal Q, B = Q^T *m A,
      exists2 i, (0 < i)%N & c = minn (i * absz blk) k &
      (c < k)%N -> exists t, [/\ tol = Some t, 0 < t & fro (A - Q *m B) <= t * fro A]].
Proof.
move=> k0 kmn b0 ES E.
case: (QB3P qrL tol k0 kmn b0 ES) => [[c1 [Q1 [B1 [E1 [h1 h2 h3] h4 h5 h6]]]]|[E1 _]]; last by rewrite E1 in E.
have [_ EQ EB] := inr2 (etrans (esym E) E1).
have [Ec [QE BE]] := ofmx_inj2 EQ EB.
have cE : exists2 i, (0 < i)%N & c1 = minn (i * absz blk) k.
  case/andP: h4 => c0; rewrite leq_eqVlt => /orP[/eqP->|ck].
    exists k => //; apply/esym/minn_idPr.
    by rewrite -{1}[k]muln1 leq_mul2l; apply/orP; right; lia.
  have [t [_ _ /dvdnP[i iE] _]] := h5 ck; exists i; first by move: c0; rewrite iE; case: (i).
  by apply/esym; rewrite -iE; apply/minn_idPl/ltnW.
have h5' : (c1 < k)%N -> exists t, [/\ tol = Some t, 0 < t & fro (A - Q1 *m B1) <= t * fro A].
  by move=> ck; have [t [a1 a2 _ a3]] := h5 ck; exists t.
clear h3 h4 h5 h6 E1 EQ EB; subst c1; rewrite !castmx_id in QE BE.
by rewrite -QE -BE; split.
Qed.

(** Same sketch, any two positive block sizes: same approximation, which is
    the one of QB1. *)
Lemma QB3_blk (sk_op : rowsketcher) (b1 b2 : int) m n (A : 'M[R]_(m, n)) (k : nat) tol1 tol2 (s s1 : st G R)
    (S : 'M[R]_(n, k)) :
  (0 < k)%N -> (k < minn m n)%N -> 0 < b1 -> 0 < b2 ->
  ~~ use_tol tol1 -> ~~ use_tol tol2 ->
  sk_op (ofmx A) k s = (s1, inr (PyArr (ofmx S))) -> \rank (A *m S) = k ->
  exists (Q1 Q2 Q3 : 'M[R]_(m, k)) (B1 B2 B3 : 'M[R]_(k, n)),
    [/\ (QB3 L sk_op b1 (ofmx A) k%:Z tol1 s).2 = Ok (ofmx Q1, ofmx B1),
        (QB3 L sk_op b2 (ofmx A) k%:Z tol2 s).2 = Ok (ofmx Q2, ofmx B2),
        (QB1 (RF1 L sk_op) (ofmx A) k%:Z None s).2 = Ok (ofmx Q3, ofmx B3),
        Q1 *m B1 = Q2 *m B2 & Q1 *m B1 = Q3 *m B3].
Proof.
move=> k0 kmn b10 b20 n1 n2 ES rk.
have [Q1 [B1 [E1 _ _ P1]]] := QB3_full qrL k0 kmn b10 n1 ES rk.
have [Q2 [B2 [E2 _ _ P2]]] := QB3_full qrL k0 kmn b20 n2 ES rk.
have [Q3 [U [E3 _ _ P3]]] := QB1_full qrL k0 (ltnW kmn) ES.
exists Q1, Q2, Q3, B1, B2, (Q3^T *m A); rewrite E3; split=> //; first by rewrite P1 P2.
by have [_ ->] := P3 rk.
Qed.

Lemma QB1_all (rso : rowsketcher) m n (A : 'M[R]_(m, n)) (k : nat) (s s1 : st G R) (S : 'M[R]_(n, k)) :
  (0 < k)%N -> (k <= minn m n)%N ->
  rso (ofmx A) k s = (s1, inr (PyArr (ofmx S))) ->
  exists (Q : 'M[R]_(m, k)) (U : 'M[R]_k),
    [/\ (RF1 L rso (ofmx A) k%:Z None s).2 = Ok (ofmx Q),
        (QB1 (RF1 L rso) (ofmx A) k%:Z None s).2 = Ok (ofmx Q, ofmx (Q^T *m A)),
        orthonormal Q &
        [/\ A *m S = Q *m U, \rank (A *m S) = k -> Q = A *m S *m invmx U /\ U \in unitmx &
            fro2 A = fro2 (A - Q *m (Q^T *m A)) + fro2 (Q^T *m A)]].
Proof.
move=> k0 kmn E; have [Q [U [E1 oQ QU]]] := RF1P qrL k0 kmn E.
exists Q, U; split=> //; first by rewrite E1.
  by rewrite (@QB1P _ _ _ _ _ A k None s _ _ Q k0 kmn _ E1).
split=> //; last by rewrite fro2_resid // subrK.
by rewrite {1}QU => /(rank_unit_mul U oQ) uU; rewrite QU mulmxK.
Qed.

End WithL.

Lemma RS1_range gen (np : nat) stab (pps : int) m n k (A : 'M[R]_(m, n)) (s s1 : st G R)
    (X0 : 'M[R]_(if odd np then m else n, k)) :
  stab_spec stab -> 0 < pps -> (0 < k)%N -> (k <= minn m n)%N ->
  draw gen (if odd np then m else n) k s = (s1, inr (PyArr (ofmx X0))) ->
  let K0 : 'M[R]_(n, k) :=
    (if odd np as b return 'M[R]_(if b then m else n, k) -> 'M[R]_(n, k)
     then fun X => A^T *m X else fun X => X) X0 in
  let K := iter (np %/ 2) (fun Y => A^T *m (A *m Y)) K0 in
  exists s' (Y : 'M[R]_(n, k)) (W : 'M[R]_k),
    [/\ RS1 gen np%:Z stab pps (ofmx A) k s = (s', inr (PyArr (ofmx Y))),
        K = Y *m W & \rank K = k -> W \in unitmx /\ Y = K *m invmx W].
Proof.
move=> st p0 k0 kmn; move: X0; case: (boolP (odd np)) => o X0 E /=.
  have [s' [Y [W [E' KE _]]]] := RS1_odd A st p0 o k0 kmn E.
  by exists s', Y, W; split=> //; apply: range_eq.
have [s' [Y [W [E' KE _]]]] := RS1_even A st p0 o k0 kmn E.
by exists s', Y, W; split=> //; apply: range_eq.
Qed.

End Fin.

(** * Witnesses *)
Section Wit.
Variable R : rcfType.
Notation XL := (exact_lapack R).

(** The range finder of [qb_b] with the toy generator. *)
Definition wit_rf : rangefinder := RF1 XL (RS1 (skopGA toy_rng) 2 (orth XL) 1).
Lemma wit_rf_shape : rf_shape wit_rf.
Proof. by apply: gauss_rf => //; [exact: exact_qr | exact: toy_rng_ok]. Qed.

Lemma wit_rso : rso_total (RS1 (skopGA (T:=R) toy_rng) 0 (orth XL) 1).
Proof. by apply: RS1_total => //; [exact: toy_rng_ok | apply/orth_stab/exact_qr]. Qed.

(** A 3-by-3 diagonal matrix with distinct entries. *)
Definition wit_A : 'M[R]_3 := diag_mx (\row_i (3 - i)%:R).

Lemma wit_A_unit : wit_A \in unitmx.
Proof.
rewrite unitmxE /wit_A det_diag unitfE; apply/prodf_neq0 => i _.
by rewrite !mxE pnatr_eq0; case: i => -[|[|[]]].
Qed.

(** The sketch that the toy generator produces for RS1 without power steps. *)
Lemma wit_sketch n k s : (0 < k)%N -> (k <= n)%N ->
  exists s', RS1 (skopGA (T:=R) toy_rng) 0 (orth XL) 1 (ofmx (1%:M : 'M[R]_n)) k s =
    (s', inr (PyArr (ofmx (colblk (1%:M : 'M[R]_n) 0 k)))).
Proof.
move=> k0 kn; rewrite /RS1 bind_passertT /= /draw /bind /emit /= /skopGA /gaussian_operator /=.
rewrite ifN; last by rewrite -lt0n leq_min k0 (leq_trans k0 kn).
rewrite /bind /getgen /= /ret; eexists; congr (_, inr (PyArr _)).
apply: mk_eq_ofmx => i j; rewrite mxE add0n.
have lj : (j < n)%N by apply: leq_trans kn.
by rewrite (mxe_ord _ (ltn_ord i) lj) mxE -val_eqE /=; case: eqP.
Qed.

End Wit.
