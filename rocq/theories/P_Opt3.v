(** Exact recovery, and witnesses for the accuracy theorems. *)
From mathcomp Require Import all_ssreflect all_algebra.
From mathcomp Require Import zify.
From Verif Require Import Base Arr Lapack Exact MxLib RingTac LapackSpec LapackExists Rng Aware RangeFinders QB.
From Verif Require Import P_RS1 P_QB2 P_RF P_QB3 P_QBx P_QBfin P_Pcg Chol P_Svd Sel SvdEvd P_SvdEvd P_Svd1 P_Evd.
From Verif Require Import P_Evd2 P_Evd3 P_Opt P_Opt2.
Set Implicit Arguments.
Unset Strict Implicit.
Unset Printing Implicit Defensive.
Import Order.TTheory GRing.Theory Num.Theory.
Local Open Scope ring_scope.

Lemma qb1_exact (R : rcfType) (G : Type) (L : lapack R) (rso : rowsketcher) m n
    (A : 'M[R]_(m, n)) (k : nat) (s s1 : st G R) (S : 'M[R]_(n, k)) :
  qr_spec L -> (0 < k)%N -> (k <= minn m n)%N ->
  rso (ofmx A) k s = (s1, inr (PyArr (ofmx S))) -> \rank (A *m S) = \rank A ->
  exists (Q : 'M[R]_(m, k)) (B : 'M[R]_(k, n)),
    (QB1 (RF1 L rso) (ofmx A) k%:Z None s).2 = Ok (ofmx Q, ofmx B) /\ A = Q *m B.
Proof.
move=> qrL k0 kmn E rk; have [Q [U [_ EQ oQ [QU _ _]]]] := QB1_all qrL k0 kmn E.
exists Q, (Q^T *m A); split=> //.
have sub : ((A *m S)^T <= A^T)%MS by rewrite trmx_mul submxMl.
have : (A^T <= (A *m S)^T)%MS.
  by have := mxrank_leqif_sup sub; rewrite !mxrank_tr rk => -[_] <-.
case/submxP=> D AE; have {}AE : A = Q *m (U *m D^T).
  by rewrite -[A]trmxK AE trmx_mul trmxK QU mulmxA.
by rewrite {2}AE [Q^T *m _]mulmxA oQ mul1mx.
Qed.

Section Wit.
Variable R : rcfType.
Notation XL := (exact_lapack R).
Notation A := (wit_A R).
Notation S := (colblk (1%:M : 'M[R]_3) 0 2).
Notation rs := (RS1 (skopGA (T:=R) toy_rng) 0 (orth XL) 1).
Notation t := (\col_(i < 3) (3 - i)%:R : 'cV[R]_3).

Lemma SE : S = selmx R 3 0 2.
Proof. by rewrite colblkE mul1mx. Qed.

Lemma oS : orthonormal S.
Proof. by rewrite SE; exact: selmxP. Qed.

Lemma AE : A = 1%:M *m diag_mx t^T *m 1%:M.
Proof. by rewrite mul1mx mulmx1 /wit_A; congr diag_mx; apply/rowP=> i; rewrite !mxE. Qed.

Lemma opt_wit_draw (s : st nat R) :
  exists s1, draw (skopGA (T:=R) toy_rng) 3 2 s = (s1, inr (PyArr (ofmx S))).
Proof.
rewrite /draw /bind /emit /= /skopGA /gaussian_operator /= /bind /getgen /= /ret.
eexists; congr (_, inr (PyArr _)); apply: mk_eq_ofmx => i j; rewrite mxE add0n.
have lj : (j < 3)%N by apply: leq_trans (ltn_ord j) _.
by rewrite (mxe_ord _ (ltn_ord i) lj) mxE -val_eqE /=; case: eqP.
Qed.

Lemma opt_wit_run0 (s : st nat R) : exists s1, rs (ofmx A) 2 s = (s1, inr (PyArr (ofmx S))).
Proof.
have [s1 E] := opt_wit_draw s; exists s1.
by rewrite /RS1 bind_passertT /= (bindE _ E).
Qed.

Lemma rank_AS : \rank (A *m S) = 2%N.
Proof.
rewrite -mxrank_tr trmx_mul mxrankMfree ?row_free_unit ?unitmx_tr ?wit_A_unit // mxrank_tr.
exact: orthonormal_rank oS.
Qed.

Lemma resid_neq0 c (Q : 'M[R]_(3, c)) (B : 'M[R]_(c, 3)) : (c <= 2)%N -> A - Q *m B != 0.
Proof.
move=> c2; rewrite subr_eq0; apply/eqP => e.
have : (\rank A <= c)%N by rewrite e (leq_trans (mxrankM_maxl _ _)) // rank_leq_col.
by rewrite mxrank_unit ?wit_A_unit // => h; have := leq_trans h c2.
Qed.

Lemma opt_wit_sketch (s : st nat R) :
  exists s1 (S V : 'M[R]_(3, 2)) (W : 'M[R]_2),
    [/\ rs (ofmx A) 2 s = (s1, inr (PyArr (ofmx S))),
        orthonormal V, V^T *m S *m W = 1%:M, \rank (A *m S) = 2%N & A - A *m V *m V^T != 0].
Proof.
have [s1 E] := opt_wit_run0 s; exists s1, S, S, 1%:M; split=> //.
- exact: oS.
- by rewrite mulmx1; exact: oS.
- exact: rank_AS.
exact: resid_neq0.
Qed.

Lemma t_ge (i : 'I_3) : t i 0 = (3 - i)%:R.
Proof. by rewrite mxE. Qed.

Lemma opt_wit_power (s : st nat R) :
  exists s1 (X0 : 'M[R]_(3, 2)),
    [/\ stab_spec (orth XL),
        draw (skopGA (T:=R) toy_rng) 3 2 s = (s1, inr (PyArr (ofmx X0))),
        A = 1%:M *m diag_mx t^T *m 1%:M,
        rowblk (1%:M : 'M[R]_3) 0 2 *m X0 *m 1%:M = 1%:M &
        (forall i : 'I_3, (2 <= i)%N -> `|t i 0| <= 1) /\ (forall i : 'I_3, (i < 2)%N -> 2%:R <= `|t i 0|)].
Proof.
have [s1 E] := opt_wit_draw s; exists s1, S; split=> //.
- exact/orth_stab/exact_qr.
- exact: AE.
- by rewrite mulmx1 rowblkE mulmx1 SE; exact: selmxP.
split=> i h; rewrite t_ge normr_nat ?ler_nat.
  by rewrite -[1]/(1%:R) ler_nat; have := ltn_ord i; lia.
by have := ltn_ord i; lia.
Qed.

Lemma opt_wit_dec (s : st nat R) :
  [/\ svd_spec XL, eigh_spec XL, argsort_spec (@sort_idx R) &
  [/\ exists s1 (Q : 'M[R]_(3, 2)), [/\ orthonormal Q,
        QB1 (RF1 XL rs) (ofmx A) (1 + 1) None s = (s1, inr (ofmx Q, ofmx (Q^T *m A))) &
        A - Q *m (Q^T *m A) != 0],
      A = 1%:M *m diag_mx t^T *m 1%:M,
      forall i j : 'I_3, (i <= j)%N -> t j 0 <= t i 0,
      forall j, 0 <= t j 0 &
      exists X : 'M[R]_3, (\rank X <= 1)%N /\ fro2 (A - X) = 5%:R]].
Proof.
split; [exact: exact_svd | exact: exact_eigh | exact: sort_idxP |].
have [s1 E] := opt_wit_run0 s.
split.
- have [Q [U [E1 oQ _ _]]] := @QB1_full _ _ _ (exact_qr (R:=R)) rs 3 3 A 2 s s1 S isT isT E.
  by eexists _, Q; split; [exact: oQ | exact: E1 | exact: resid_neq0].
- exact: AE.
- by move=> i j ij; rewrite !t_ge ler_nat; lia.
- by move=> j; rewrite t_ge ler0n.
exists (diag_mx (\row_i (if i == 0 then 3%:R else 0))); split.
  have -> : diag_mx (\row_(i < 3) (if i == 0 then 3%:R else 0 : R)) = delta_mx 0 0 *m (3%:R *: delta_mx 0 0 : 'M[R]_3).
    apply/matrixP=> i j; rewrite -scalemxAr mul_delta_mx !mxE.
    by case: i => -[|[|[]]] // ?; case: j => -[|[|[]]] // ?; rewrite /= ?mulr0 ?mulr1 ?mulr1n ?mulr0n.
  by rewrite (leq_trans (mxrankM_maxl _ _)) // mxrank_delta.
rewrite /wit_A -linearB /= -[X in diag_mx X]trmxK fro2_diag fro2_sum !big_ord_recl big_ord0 !mxE /=.
by rewrite !subr0 subrr !expr2 !mul0r -!natrM !add0r addr0 -natrD.
Qed.
End Wit.
