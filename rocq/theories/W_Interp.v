(** Witnesses for the interpolative decomposition theorems. *)
From mathcomp Require Import all_ssreflect all_algebra.
From mathcomp Require Import zify.
From Verif Require Import Base Arr Lapack Exact MxLib LapackSpec LapackExists Rng Aware RangeFinders QB.
From Verif Require Import P_RS1 P_RF P_QBx P_QBfin P_Svd P_Evd3 Sel Interp P_Interp P_Interp2 P_Interp3.
Set Implicit Arguments.
Unset Strict Implicit.
Unset Printing Implicit Defensive.
Import Order.TTheory GRing.Theory Num.Theory.
Local Open Scope ring_scope.

Section Wit.
Variable R : rcfType.
Notation XL := (exact_lapack R).

(** A run of osid1 on the 3-by-3 identity, one pass, k = 2. *)
Definition S32 : 'M[R]_(3, 2) := colblk 1%:M 0 2.

Lemma S32_rank : \rank S32 = 2%N.
Proof.
by apply: orthonormal_rank; apply: orthonormal_colblk; rewrite // /orthonormal trmx1 mulmx1.
Qed.

Lemma wit_run (s : st nat R) : exists s',
  RS1 (skopGA (T:=R) toy_rng) 0 (orth XL) 1 (ofmx (1%:M : 'M[R]_3)) (absz (2%:Z + 0)) s =
    (s', inr (PyArr (ofmx S32))).
Proof. exact: (@wit_sketch2 R 3 1%:M 2 s isT isT). Qed.

Lemma wit_osid1_row (s : st nat R) : exists s' (Z : 'M[R]_(3, 2)) I,
  OSID1 XL (RS1 (skopGA (T:=R) toy_rng) 0 (orth XL) 1) (ofmx (1%:M : 'M[R]_3)) 2%N 0 0 s =
    (s', inr (ofmx Z, I)) /\ skeleton 3 2 I.
Proof.
have [s1 E] := wit_run s.
have := @OSID1_row R nat XL (@exact_qrp R) (RS1 (skopGA (T:=R) toy_rng) 0 (orth XL) 1) 3%N 3%N 1%:M 2%N 0 2%N S32 s s1
  isT isT isT isT E.
rewrite mul1mx S32_rank /= => -[Z [I [-> rid]]]; exists (after s1 false), Z, I; split=> //.
by case: rid.
Qed.

Lemma wit_osid1_row_drv (s : st nat R) : exists s' (Z : 'M[R]_(3, 2)) I,
  osid1 XL toy_rng (ofmx (1%:M : 'M[R]_3)) 2%N 0 1 0 RGen s = (s', inr (ofmx Z, I)).
Proof. by have [s' [Z [I [E _]]]] := wit_osid1_row s; exists s', Z, I. Qed.

Lemma wit_osid1_col_drv (s : st nat R) : exists s' (X : 'M[R]_(2, 3)) J,
  osid1 XL toy_rng (ofmx (1%:M : 'M[R]_3)) 2%N 0 1 1 RGen s = (s', inr (ofmx X, J)).
Proof.
have [s1 E] := wit_run s; rewrite -{1}[1%:M]trmx1 in E.
have := @OSID1_col R nat XL (@exact_qrp R) (RS1 (skopGA (T:=R) toy_rng) 0 (orth XL) 1) 3%N 3%N 1%:M 2%N 0 2%N S32 s s1
  isT isT isT isT E.
by rewrite mulmx1 mxrank_tr S32_rank /= => -[X [J [EX _]]]; exists (after s1 true), X, J.
Qed.

Lemma wit_cur1 (s : st nat R) : exists s' x, cur1 XL toy_rng (ofmx (1%:M : 'M[R]_3)) 2%N 0 2 RGen s = (s', inr x).
Proof.
have [s1 [Z [I [E skI]]]] := wit_osid1_row s.
have [U [J [E2 _ _ _]]] := CUR1_wide (@exact_qrp R) (@exact_lstsq R) (isT : 0 < 3)%N (isT : 3 <= 3)%N (isT : 0 < 2)%N skI E.
by exists s1, (J, ofmx U, I).
Qed.

Lemma wit_osid2 (s : st nat R) : exists s' x, osid2 XL toy_rng (ofmx (1%:M : 'M[R]_3)) 2%N 0 1 0 RGen s = (s', inr x).
Proof.
have [s1 E] := wit_run s.
have [Z [I [E2 _ _ _ _]]] := OSID2_row_inv (@exact_qrp R) (@exact_lstsq R)
  (isT : 0 < 2)%N (isT : 2 <= 3)%N (isT : 0 < 3)%N (isT : 0 < 2)%N (isT : 0 <= 2%:Z + 0) E.
by exists (after (after s1 false) true), (ofmx Z, I).
Qed.

Lemma cur1_refuted (s : st nat R) : exists A k (over p : int) s' x l,
  [/\ cur1 XL toy_rng A k over p RGen s = (s', inr x), evs s' = evs s ++ l & passes l <> absz p].
Proof.
have [s' [x E]] := wit_cur1 s; have [_ [l e pl]] := cur1_passes E.
by exists (ofmx (1%:M : 'M[R]_3)), 2%N, 0, 2, s', x, l; split=> //; lia.
Qed.

Lemma osid2_refuted (s : st nat R) : exists A k (over p axis : int) s' x l,
  [/\ osid2 XL toy_rng A k over p axis RGen s = (s', inr x), evs s' = evs s ++ l & passes l <> absz p].
Proof.
have [s' [x E]] := wit_osid2 s; have [_ [l e pl]] := osid2_passes E.
by exists (ofmx (1%:M : 'M[R]_3)), 2%N, 0, 1, 0, s', x, l; split=> //; lia.
Qed.

(** A tall matrix with its column ID, for the two-sided drivers. *)
Definition const_osid (X : arr R) (J : seq nat) : osid_t (T := R) (G := nat) := fun _ _ _ _ => ret (X, J).

Lemma wit_tall (s : st nat R) :
  [/\ const_osid (ofmx (1%:M : 'M[R]_2)) [:: 0%N; 1%N] (ofmx S32) 2%N 0 1 s = (s, inr (ofmx (1%:M : 'M[R]_2), [:: 0%N; 1%N])),
      skeleton 2 2 [:: 0%N; 1%N], \rank (colsel S32 [:: 0%N; 1%N] 2) = 2%N &
      S32 = colsel S32 [:: 0%N; 1%N] 2 *m 1%:M].
Proof.
have e : colsel S32 [:: 0%N; 1%N] 2 = S32.
  apply/matrixP=> i j; rewrite mxE -(mxeE S32 i j); congr (mxe _ _ _).
  by case: j => -[|[|]].
by split; rewrite ?e ?mulmx1 // S32_rank.
Qed.

End Wit.
