(** Proofs of C94, continued: the pass-efficient QB driver. *)
From mathcomp Require Import all_ssreflect all_algebra.
From mathcomp Require Import zify.
From Verif Require Import Base Arr Lapack Exact MxLib LapackSpec Rng Aware RangeFinders QB.
From Verif Require Import P_RF P_QB3 P_Iso P_Embed P_Prob P_Prob2.
Set Implicit Arguments.
Unset Strict Implicit.
Unset Printing Implicit Defensive.
Import Order.TTheory GRing.Theory Num.Theory.
Local Open Scope ring_scope.

Section Drv.
Variables (R : rcfType) (G : Type) (E : (G -> R) -> R) (L : lapack R) (r : rng_ops G R).
Hypotheses (mE : mean E) (pE : positive E) (rok : rng_ok r) (qrL : qr_spec L).
Variables (m n q : nat) (A : 'M[R]_(m, n)) (U : 'M[R]_(m, q)) (t : 'cV[R]_q) (Vh : 'M[R]_(q, n)).
Variables (rk np : nat) (sg tau e th : R).
Hypotheses (spl : sing_split A U t Vh rk np sg tau) (e01 : 0 < e < 1) (th0 : 0 < th).
Local Notation rs := (RS1 (skopGA r) np%:Z (orth L) 1).

Lemma qb_b_pe_prob (k : nat) (blk : int) : (0 < k)%N -> (k < minn m n)%N -> 0 < blk ->
  uncorrelated E r (if odd np then m else n) k -> normal4 E r (if odd np then m else n) k ->
  exists B : G -> bool, E (fun g => (~~ B g)%:R) <= fail_prob rk k e th /\
  forall g es tol, B g ->
  exists s1 (Y : 'M[R]_(n, k)), rs (ofmx A) k (St g es) = (s1, inr (PyArr (ofmx Y))) /\
  ((exists c (Q : 'M[R]_(m, c)),
    [/\ (qb_b_pe L r np.+1%:Z blk (ofmx A) k%:Z tol RGen (St g es)).2 = inr (ofmx Q, ofmx (Q^T *m A)), orthonormal Q &
      c = k /\ fro2 (A - Q *m (Q^T *m A)) <= sketch_err t rk np sg tau e th \/
      (c < k)%N /\ exists x, [/\ tol = Some x, 0 < x & fro (A - Q *m (Q^T *m A)) <= x * fro A]]) \/
   (qb_b_pe L r np.+1%:Z blk (ofmx A) k%:Z tol RGen (St g es)).2 = inl LinAlgError /\ (\rank (A *m Y) < k)%N).
Proof using mE pE rok qrL spl e01 th0.
move=> k0 kmn b0 un n4; have [B [EB HB]] := prob_range mE pE rok qrL spl e01 th0 k0 (ltnW kmn) (conj un n4).
exists B; split=> // g es tol Bg; rewrite /qb_b_pe /= (_ : np.+1%:Z - 1 = np%:Z) //; last by lia.
have [s1 [Y [EY HY]]] := HB g es Bg; exists s1, Y; split=> //.
have := @QB3P R G L qrL rs blk m n A k tol _ _ _ k0 kmn b0 EY; cbv zeta.
case=> [[c [Q [Bm [-> [oQ BE [V _ AV]] /andP[c0 ck] stop _]]]]|[-> [c ck hc]]]; [left|right].
- exists c, Q; split=> //; first by rewrite BE.
  case: (ltnP c k) => h; [right|left].
    by split=> //; have [x [tx x0 _ hx]] := stop h; exists x; rewrite -BE.
  have ce : c = k by lia.
  split=> //; subst c; apply: (HY _ Q V) => //; rewrite -AV.
  by rewrite colblk_full.
split=> //; rewrite ltnNge; apply/negP=> hk; have rE : \rank (A *m Y) = k by apply/eqP; rewrite eqn_leq rank_leq_col.
by move: hc; rewrite (colblk_rank ck rE) ltnn.
Qed.
End Drv.
