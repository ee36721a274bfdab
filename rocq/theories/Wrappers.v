(** Model of the LU wrappers in parla/utils/linalg_wrappers.py and facts about
    them and about the pseudo-inverse wrappers. *)
From mathcomp Require Import all_ssreflect all_fingroup all_algebra.
From Verif Require Import Base Arr Lapack Exact MxLib LapackSpec Rng Aware QB Interp P_Interp2.
Set Implicit Arguments.
Unset Strict Implicit.
Unset Printing Implicit Defensive.
Import GroupScope Order.TTheory GRing.Theory Num.Theory.
Local Open Scope ring_scope.

Section Wrappers.
Context {T : Type} {O : ops T}.
Variable L : lapack T.

(** linalg_wrappers.py 15-18: [lupt]. *)
Definition lupt (M : arr T) : res (arr T * arr T * arr T) :=
  let? PLU := l_lu L (mtr M) in
  Ok (mtr PLU.2, mtr PLU.1.2, PLU.1.1).

(** linalg_wrappers.py 21-24: [lup]. *)
Definition lup (M : arr T) : res (arr T * arr T * arr T) :=
  let? PLU := l_lu L (mtr M) in
  Ok (mtr PLU.2, mtr PLU.1.2, mtr PLU.1.1).

Lemma lup_lupt M a b c : lupt M = Ok (a, b, c) -> lup M = Ok (a, b, mtr c).
Proof. by rewrite /lupt /lup; case: (l_lu _ _) => //= PLU [<- <- <-]. Qed.

End Wrappers.

Section Facts.
Variables (R : rcfType) (L : lapack R).

Lemma lupt_spec m n (M : 'M[R]_(m, n)) : lu_spec L -> (0 < m)%N -> (0 < n)%N ->
  exists (Lo : 'M[R]_(m, minn n m)) (U : 'M[R]_(minn n m, n)) (P : 'M[R]_n),
    [/\ lupt L (ofmx M) = Ok (ofmx Lo, ofmx U, ofmx P), is_perm_mx P,
        M = Lo *m U *m P^T, M *m P = Lo *m U &
        lotri Lo /\ (uptri U /\ forall i : 'I_(minn n m), mxe U i i = 1)].
Proof.
move=> luL m0 n0; have [P [Lo [U [E pP [tL dL] tU ME]]]] := luL _ _ M^T n0 m0.
have PP : P^T *m P = 1%:M.
  by case/is_perm_mxP: pP => s ->; rewrite tr_perm_mx -perm_mxM mulVg perm_mx1.
have MM : M = U^T *m Lo^T *m P^T by rewrite -[M]trmxK ME !trmx_mul mulmxA.
exists U^T, Lo^T, P; split=> //.
- by rewrite /lupt mtrE E /= !mtrE.
- by rewrite {1}MM -mulmxA PP mulmx1.
- split; first by move=> i j ij; rewrite mxE tU.
  split; first by move=> i j ij; rewrite mxE tL.
  move=> i; have lt : (i < n)%N by apply: leq_trans (ltn_ord i) (geq_minl _ _).
  by rewrite -(dL i) (mxe_ord _ (ltn_ord i) lt) (mxe_ord _ lt (ltn_ord i)) mxE.
Qed.

Lemma lup_spec m n (M : 'M[R]_(m, n)) : lu_spec L -> (0 < m)%N -> (0 < n)%N ->
  exists (Lo : 'M[R]_(m, minn n m)) (U : 'M[R]_(minn n m, n)) (P : 'M[R]_n),
    [/\ lup L (ofmx M) = Ok (ofmx Lo, ofmx U, ofmx P), is_perm_mx P, M = Lo *m U *m P &
        lotri Lo /\ (uptri U /\ forall i : 'I_(minn n m), mxe U i i = 1)].
Proof.
move=> luL m0 n0; have [Lo [U [P [E pP ME _ H]]]] := lupt_spec M luL m0 n0.
exists Lo, U, P^T; split=> //.
  by rewrite (lup_lupt E) mtrE.
by case/is_perm_mxP: pP => s ->; rewrite tr_perm_mx perm_mx_is_perm.
Qed.

(** The Moore-Penrose inverse, by Penrose's four equations. *)
Definition is_pinv m n (A : 'M[R]_(m, n)) (P : 'M[R]_(n, m)) : Prop :=
  [/\ A *m P *m A = A, P *m A *m P = P, (A *m P)^T = A *m P & (P *m A)^T = P *m A].

Lemma pinv_ls m n p (A : 'M[R]_(m, n)) (P : 'M[R]_(n, m)) (B : 'M[R]_(m, p)) (X : 'M[R]_(n, p)) W :
  is_pinv A P -> A^T *m (A *m X - B) = 0 -> X = A^T *m W -> X = P *m B.
Proof.
move=> [p1 p2 p3 p4] ls XW.
have e1 : A^T *m (A *m P) = A^T by rewrite -[in RHS]p1 trmx_mul p3.
have e2 : A^T *m (P^T *m P) = P by rewrite mulmxA -trmx_mul p4 p2.
have e3 : A^T *m (A *m (X - P *m B)) = 0.
  by rewrite mulmxBr [A *m (P *m B)]mulmxA mulmxBr [A^T *m (A *m P *m B)]mulmxA e1 -mulmxBr.
have e4 : X - P *m B = A^T *m (W - P^T *m P *m B) by rewrite mulmxBr -XW [A^T *m (_ *m B)]mulmxA e2.
apply/eqP; rewrite -subr_eq0; apply/eqP/gram0; rewrite {1}e4 trmx_mul trmxK -[_ *m A *m _]mulmxA.
suff -> : A *m (X - P *m B) = 0 by rewrite mulmx0.
by apply: gram0; rewrite trmx_mul -mulmxA e3 mulmx0.
Qed.

Lemma pinv_left_spec m n p (A : 'M[R]_(m, n)) (B : 'M[R]_(m, p)) (P : 'M[R]_(n, m)) :
  lstsq_spec L -> (0 < m)%N -> (0 < n)%N -> (0 < p)%N -> is_pinv A P ->
  pinv_left L (ofmx B) (ofmx A) = Ok (ofmx (P *m B)).
Proof.
move=> lsL m0 n0 p0 pA; have [X [W [E ls XW]]] := pinv_leftE lsL A B m0 n0 p0.
by rewrite E (pinv_ls pA ls XW).
Qed.

Lemma is_pinv_tr m n (A : 'M[R]_(m, n)) P : is_pinv A P -> is_pinv A^T P^T.
Proof.
move=> [p1 p2 p3 p4]; split.
- by rewrite -!trmx_mul mulmxA p1.
- by rewrite -!trmx_mul mulmxA p2.
- by rewrite -trmx_mul p4.
- by rewrite -trmx_mul p3.
Qed.

Lemma pinv_right_spec m n p (A : 'M[R]_(n, m)) (B : 'M[R]_(p, m)) (P : 'M[R]_(m, n)) :
  lstsq_spec L -> (0 < m)%N -> (0 < n)%N -> (0 < p)%N -> is_pinv A P ->
  pinv_right L (ofmx B) (ofmx A) = Ok (ofmx (B *m P)).
Proof.
move=> lsL m0 n0 p0 /is_pinv_tr pA; have [X [W [E ls XW]]] := pinv_leftE lsL A^T B^T m0 n0 p0.
rewrite /pinv_right !mtrE; move: E; rewrite /pinv_left => -> /=; rewrite mtrE (pinv_ls pA ls XW).
by rewrite trmx_mul !trmxK.
Qed.

End Facts.
