(** Final forms of the statements about the sketching operators. *)
From mathcomp Require Import all_ssreflect all_algebra.
From Verif Require Import Base Arr Lapack Exact MxLib LapackSpec LapackExists Rng Aware Sel P_RF P_Interp.
From Verif Require Import Sketching P_Sketch P_Sketch2 P_Sketch3 P_Sjlt P_SSign.
Set Implicit Arguments.
Unset Strict Implicit.
Unset Printing Implicit Defensive.
Import Order.TTheory GRing.Theory Num.Theory.
Local Open Scope ring_scope.

Lemma with_rngP2 (G T : Type) (r : rng_ops G T) X (c : M G T X) (P : X -> Prop) l a (s : st G T) :
  (forall s0, exists s' x, [/\ c s0 = (s', inr x), evs s' = evs s0 ++ l & P x]) ->
  exists s' x, [/\ with_rng r a c s = (s', inr x), evs s' = evs s ++ l & P x].
Proof.
move=> H; case: a => [|z|v] /=; first exact: H.
- by have [s' [x [-> e Px]]] := H (St (r_seed r z) (evs s)); exists (St (gen s) (evs s')), x.
by have [s' [x [-> e Px]]] := H (St (r_seeds r v) (evs s)); exists (St (gen s) (evs s')), x.
Qed.

Section Forms.
Variables (R : rcfType) (G : Type) (L : lapack R) (r : rng_ops G R).
Hypothesis rok : rng_ok r.

Lemma sjlt_cols m n nnz a (s : st G R) : (0 < nnz)%N -> (nnz <= m)%N -> (m <= n)%N ->
  exists s' (S : 'M[R]_(m, n)),
  [/\ sjlt_operator r m n a nnz s = (s', inr (PySp (ofmx S))), evs s' = evs s,
      (forall j, #|[set i | S i j != 0]| = nnz),
      (forall i j, S i j != 0 -> S i j = (Num.sqrt nnz%:R)^-1 \/ S i j = - (Num.sqrt nnz%:R)^-1) &
      forall j, fro2 (col j S) = 1].
Proof.
move=> h1 h2 h3; rewrite /sjlt_operator h3.
have [|s' [x [E e [S [ex p1 p2 p3]]]]] := with_rngP r (c := sjlt_wide r m n nnz)
  (P := fun x => exists S : 'M[R]_(m, n), [/\ x = PySp (ofmx S), (forall j, #|[set i | S i j != 0]| = nnz),
      (forall i j, S i j != 0 -> S i j = (Num.sqrt nnz%:R)^-1 \/ S i j = - (Num.sqrt nnz%:R)^-1) &
      forall j, fro2 (col j S) = 1]) a (s := s).
  move=> s0 _; have [s1 [S [E e p1 p2 p3]]] := sjlt_wideP rok s0 h1 h2 h3.
  by exists s1, (PySp (ofmx S)); split=> //; exists S.
by exists s', S; rewrite E ex.
Qed.

Lemma sjlt_rows m n nnz a (s : st G R) : (0 < nnz)%N -> (nnz <= n)%N -> (n < m)%N ->
  exists s' (S : 'M[R]_(m, n)),
  [/\ sjlt_operator r m n a nnz s = (s', inr (PySp (ofmx S))), evs s' = evs s,
      (forall i, #|[set j | S i j != 0]| = nnz),
      (forall i j, S i j != 0 -> S i j = (Num.sqrt nnz%:R)^-1 \/ S i j = - (Num.sqrt nnz%:R)^-1) &
      forall i, fro2 (row i S) = 1].
Proof.
move=> h1 h2 h3; rewrite /sjlt_operator leqNgt h3 /=.
have [|s' [x [E e [S [ex p1 p2 p3]]]]] := with_rngP r
  (c := let! Sk := sjlt_wide r n m nnz in lift (py_tr Sk))
  (P := fun x => exists S : 'M[R]_(n, m), [/\ x = PySp (ofmx S^T), (forall j, #|[set i | S i j != 0]| = nnz),
      (forall i j, S i j != 0 -> S i j = (Num.sqrt nnz%:R)^-1 \/ S i j = - (Num.sqrt nnz%:R)^-1) &
      forall j, fro2 (col j S) = 1]) a (s := s).
  move=> s0 _; have [s1 [S [E e p1 p2 p3]]] := sjlt_wideP rok s0 h1 h2 (ltnW h3).
  by exists s1, (PySp (ofmx S^T)); rewrite (bindE _ E) /= mtrE; split=> //; exists S.
exists s', S^T; rewrite E ex; split=> //.
- move=> i; rewrite -(p1 i); congr #|pred_of_set _|; apply/setP=> j; by rewrite !inE mxE.
- by move=> i j; rewrite mxE; apply: p2.
by move=> i; rewrite -(p3 i) -fro2_trmx tr_row trmxK.
Qed.

Lemma sjlt_warn m n nnz a (s : st G R) : (0 < m)%N -> (0 < n)%N ->
  (minn m n < minn (maxn m n) nnz)%N ->
  exists s' (S : 'M[R]_(m, n)),
  [/\ sjlt_operator r m n a nnz s = (s', inr (PySp (ofmx S))), evs s' = evs s ++ [:: EvWarn W_sjlt_size] &
      if (m <= n)%N then forall j, \sum_i `|S i j| <= Num.sqrt (minn n nnz)%:R
      else forall i, \sum_j `|S i j| <= Num.sqrt (minn m nnz)%:R].
Proof.
move=> m0 n0; rewrite /sjlt_operator; case: (leqP m n) => [mn|nm].
  rewrite ?(minn_idPl mn) ?(maxn_idPr mn) => bad.
  have [|s' [x [E e [S ex p]]]] := with_rngP2 r (c := sjlt_wide r m n nnz) (l := [:: EvWarn W_sjlt_size])
    (P := fun x => exists2 S : 'M[R]_(m, n), x = PySp (ofmx S) &
       forall j, \sum_i `|S i j| <= Num.sqrt (minn n nnz)%:R) a s.
    move=> s0; have [s1 [S [E e p]]] := sjlt_wide_bad rok s0 m0 mn bad.
    by exists s1, (PySp (ofmx S)); rewrite cats1; split=> //; exists S.
  by exists s', S; rewrite E ex.
have nm' := ltnW nm; rewrite ?(minn_idPr nm') ?(maxn_idPl nm') => bad.
have [|s' [x [E e [S ex p]]]] := with_rngP2 r
    (c := let! Sk := sjlt_wide r n m nnz in lift (py_tr Sk)) (l := [:: EvWarn W_sjlt_size])
    (P := fun x => exists2 S : 'M[R]_(n, m), x = PySp (ofmx S^T) &
       forall j, \sum_i `|S i j| <= Num.sqrt (minn m nnz)%:R) a s.
  move=> s0; have [s1 [S [E e p]]] := sjlt_wide_bad rok s0 n0 nm' bad.
  by exists s1, (PySp (ofmx S^T)); rewrite cats1 (bindE _ E) /= mtrE; split=> //; exists S.
exists s', S^T; rewrite E ex; split=> // i.
by rewrite (eq_bigr (fun j => `|S j i|)) => // j _; rewrite mxE.
Qed.

(** Every kind but the sparse sign one returns an operator of the right shape. *)
Definition kind_ok (k : skop (T := R)) (m n : nat) (a : rngarg) : Prop :=
  match k with
  | SkOpON | SkOpGA _ => True
  | SkOpSJ nnz => (0 < nnz)%N
  | SkOpSS _ => False
  | SkOpTC => a = RGen
  | SkOpIN None => True
  | SkOpIN (Some J) => all (fun j => (j < maxn m n)%N) J /\ size J = minn m n
  end.

Lemma gaussian_any nrm a b (s : st G R) : (0 < a)%N -> (0 < b)%N ->
  exists s' (X : 'M[R]_(a, b)), gaussian_operator r nrm a b s = (s', inr (PyArr (ofmx X))).
Proof.
move=> a0 b0; case: nrm; first by have [s' [X [E _]]] := gaussianP s rok a0 b0; exists s', X.
rewrite /gaussian_operator /bind /getgen.
have := ok_stdnormal rok (gen s) a b.
case: (r_stdnormal _ _ _ _) => g' Y /= [wfY [nrY ncY]].
have [X ->] := wf_ofmx wfY nrY ncY.
by exists (St g' (evs s)), X.
Qed.

Lemma with_rng_any X (c : M G R X) (P : X -> Prop) a (s : st G R) :
  (forall s0, exists s' x, c s0 = (s', inr x) /\ P x) ->
  exists s' x, with_rng r a c s = (s', inr x) /\ P x.
Proof.
move=> H; case: a => [|z|v] /=; first exact: H.
- by have [s' [x [-> Px]]] := H (St (r_seed r z) (evs s)); exists (St (gen s) (evs s')), x.
by have [s' [x [-> Px]]] := H (St (r_seeds r v) (evs s)); exists (St (gen s) (evs s')), x.
Qed.

Hypotheses (qr : qr_spec L) (dct : dct_spec L).

Lemma ortho_tall_any m n (s : st G R) : (0 < n)%N -> (n <= m)%N ->
  exists s' (Q : 'M[R]_(m, n)), orthonormal_tall L r m n s = (s', inr (PyArr (ofmx Q))).
Proof.
move=> n0 nm; have m0 := leq_trans n0 nm.
have [s1 [X E]] := gaussian_any true s m0 n0.
have := rank_leq_col X; rewrite leq_eqVlt => /orP[/eqP rX|rX].
  by have [Q [U [E' _ _ _ _]]] := orthonormal_tall_run qr n0 nm E rX; exists s1, Q.
by have [Q [E' _]] := orthonormal_tall_deficient qr n0 nm E rX; exists s1, Q.
Qed.

Lemma skop_shape k m n a (s : st G R) : (0 < m)%N -> (0 < n)%N -> kind_ok k m n a ->
  exists s' op, skop_call L r k m n a s = (s', inr op) /\ shape op = Some (m, n).
Proof.
move=> m0 n0; case: k => [|nrm|nnz|d||idx] //= hk.
- rewrite /orthonormal_operator; case: ltnP => [mn|nm].
    have [|s' [x [E [Q ex]]]] := with_rng_any (c := orthonormal_tall L r n m)
      (P := fun x => exists Q : 'M[R]_(n, m), x = PyArr (ofmx Q)) a s.
      by move=> s0; have [s1 [Q E]] := ortho_tall_any s0 m0 (ltnW mn); exists s1, (PyArr (ofmx Q)); split=> //; exists Q.
    by exists s', (PyArr (ofmx Q^T)); rewrite (bindE _ E) ex /= mtrE.
  apply: with_rng_any => s0; have [s1 [Q E]] := ortho_tall_any s0 n0 nm.
  by exists s1, (PyArr (ofmx Q)).
- apply: with_rng_any => s0; have [s1 [Q E]] := gaussian_any nrm s0 m0 n0.
  by exists s1, (PyArr (ofmx Q)).
- rewrite /sjlt_operator; case: leqP => [mn|nm]; apply: with_rng_any => s0.
    have [s1 [_ [_ [S [E _ _ _ _]]]]] := sjlt_wide_run rok s0 m0 mn hk.
    by exists s1, (PySp (ofmx S)).
  have [s1 [_ [_ [S [E _ _ _ _]]]]] := sjlt_wide_run rok s0 n0 (ltnW nm) hk.
  by exists s1, (PySp (ofmx S^T)); rewrite (bindE _ E) /= mtrE.
- subst a; have [s' [op [S [E _ [aS _] _]]]] := srct_operatorP rok dct s m0 n0.
  by exists s', op; split=> //; case: aS.
by have [|s' [op [E _ sh]]] := sampling_shape rok (m := m) (n := n) (idx := idx) a s m0 n0;
  [case: idx hk | exists s', op].
Qed.

Lemma skopSS_none d m n a (s : st G R) s' op :
  skop_call L r (SkOpSS d) m n a s = (s', inr op) -> op = PyNone.
Proof. by rewrite /= => H; case: (bind_inv H) => s1 [x [_ [_ <-]]]. Qed.

End Forms.

(** Concrete operators. *)
Section Concrete.
Variable R : rcfType.
Notation toy := (@toy_rng R (rcf_ops R)).

Lemma skopSS_refuted (s : st nat R) : exists d s',
  skop_call (exact_lapack R) toy (SkOpSS d) 2 3 RGen s = (s', inr PyNone).
Proof.
pose u := rnd toy (2 * 3) (gen0 toy RGen s).
have h : hit 1 (u 0%N) by rewrite /u /rnd /= /hit /= ltr01.
have H l : (l < 0)%N -> ~~ hit 1 (u l) by [].
have [S [E _ _ _]] := @sparse_sign_ok R nat toy (@toy_rng_ok R (rcf_ops R)) 2%N 3%N 1 0%N RGen s isT ltr01 H h.
have [s1 E1] : exists s1, sparse_sign_operator toy 2 3 RGen 1 s = (s1, inr (PySp (ofmx S))).
  by rewrite -E; exists (sparse_sign_operator toy 2 3 RGen 1 s).1; case: (sparse_sign_operator _ _ _ _ _ _).
by exists (1 : R), s1; rewrite /skop_call (bindE _ E1).
Qed.

(** sampling_operator(2, 1, rng, indices=[1]) selects index 0. *)
Lemma sampling_tall_refuted (s : st nat R) : exists s' op,
  [/\ sampling_operator toy 2 1 RGen (Some [:: 1%N]) s = (s', inr op),
      shape op = Some (2, 1)%N &
      mul_rv op [:: 1] = Ok [:: 1; 0]].
Proof. by eexists _, _; split; cbv. Qed.

(** Repeated indices: S = [e_0'; e_0'] and y = (1, 1), where S'y = (2, 0). *)
Lemma sampling_repeat_refuted (s : st nat R) : exists s' op,
  [/\ sampling_operator toy 2 2 RGen (Some [:: 0%N; 0%N]) s = (s', inr op),
      (forall x y : R, mul_rv op [:: x; y] = Ok [:: x; x]) &
      mul_trv op [:: 1; 1] = Ok [:: 1; 0]].
Proof. by eexists _, _; split; cbv. Qed.


(** A square SJLT operator with one non-zero per column can have an empty row. *)
Lemma sjlt_square_refuted (s : st nat R) : exists s' (B : arr R),
  [/\ sjlt_operator toy 2 2 RGen 1 s = (s', inr (PySp B)), nr B = 2%N, nc B = 2%N & forall j, (j < 2)%N -> el B 1 j = 0].
Proof. by eexists _, _; split; [cbv; reflexivity | | | case=> [|[]]]. Qed.

End Concrete.

Lemma rowsel_ortho (R : rcfType) m n (J : seq nat) : inb n J -> uniq J -> size J = m ->
  rowsel (1%:M : 'M[R]_n) J m *m (rowsel (1%:M : 'M[R]_n) J m)^T = 1%:M.
Proof. by move=> iJ uJ sJ; rewrite tr_rowsel trmx1 rowsel1E mulmx1; apply: sel_ortho. Qed.

Lemma srct_seed (R : rcfType) (G : Type) (L : lapack R) (r : rng_ops G R) m n a (s : st G R) :
  a <> RGen -> srct_operator L r m n a s = (s, inl AttributeError).
Proof. by case: a. Qed.

(** A Gaussian draw of full rank for the witness generator. *)
Lemma toy_gauss (R : rcfType) (s : st nat R) : exists s1 (X : 'M[R]_(2, 1)),
  with_rng (@toy_rng R (rcf_ops R)) RGen (gaussian_operator (@toy_rng R (rcf_ops R)) true 2 1) s =
    (s1, inr (PyArr (ofmx X))) /\ \rank X = 1%N.
Proof.
eexists _, (\matrix_(i, j) (val i == val j)%:R); split.
  rewrite /= /gaussian_operator /bind /getgen /=; congr (_, inr (PyArr _)).
  by apply: mk_eq_ofmx => i j; rewrite mxE; case: eqP.
apply/eqP; rewrite eqn_leq rank_leq_col lt0n mxrank_eq0; apply/eqP=> /matrixP/(_ 0 0).
by rewrite !mxE => /eqP; rewrite oner_eq0.
Qed.
