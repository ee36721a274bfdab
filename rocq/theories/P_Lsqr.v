(** Proofs about lsqr. *)
From mathcomp Require Import all_ssreflect all_algebra.
From mathcomp Require Import zify.
From Verif Require Import RingTac.
From Verif Require Import Base Arr Rng Lapack Exact MxLib LapackSpec Pcg P_Pcg Lsqr.
Set Implicit Arguments.
Unset Strict Implicit.
Unset Printing Implicit Defensive.
Import Order.TTheory GRing.Theory Num.Theory.
Local Open Scope ring_scope.

Section Givens.
Variable R : rcfType.
Add Field givField : (rcf_field R).

Lemma sg2 (x : R) : x != 0 -> Num.sg x * Num.sg x = 1.
Proof. by move=> x0; rewrite -expr2 sqr_sg x0. Qed.

Lemma sg_abs (x : R) : Num.sg x * `|x| = x.
Proof. by rewrite -numEsg. Qed.

(** C38. *)
Lemma sym_orthoP (a b c s r : R) : sym_ortho a b = (c, s, r) ->
  [/\ c * a + s * b = r, s * a - c * b = 0, 0 <= r, r = Num.sqrt (a ^+ 2 + b ^+ 2) &
      (a != 0) || (b != 0) -> c ^+ 2 + s ^+ 2 = 1].
Proof.
rewrite /sym_ortho /= !osignE !oabsE.
case: eqP => [->|/eqP b0].
  case=> <- <- <-; rewrite !mulr0 mul0r -normrEsg; split; rewrite ?addr0 ?subr0 ?normr_ge0 //.
    by rewrite expr0n /= addr0 sqrtr_sqr.
  by rewrite orbF => a0; rewrite expr0n /= addr0 expr2 sg2.
case: eqP => [->|/eqP a0].
  case=> <- <- <-; rewrite !mulr0 mul0r -normrEsg; split; rewrite ?add0r ?oppr0 ?subr0 ?normr_ge0 //.
    by rewrite expr0n /= add0r sqrtr_sqr.
  by rewrite expr0n /= add0r expr2 sg2.
(* the two rotations, with the larger entry [y] and smaller [x] *)
have key (x y : R) : x != 0 -> y != 0 ->
    let tau := x / y in let s := Num.sg y / Num.sqrt (1 + tau * tau) in
    [/\ s * tau * x + s * y = y / s, s * x - s * tau * y = 0, 0 <= y / s,
        y / s = Num.sqrt (x ^+ 2 + y ^+ 2) & (s * tau) ^+ 2 + s ^+ 2 = 1].
  move=> x0 y0 tau s0.
  have t0 : 0 < 1 + tau * tau by rewrite -expr2 ltr_paddr ?sqr_ge0 ?ltr01.
  have q0 : Num.sqrt (1 + tau * tau) != 0 by rewrite gt_eqF // sqrtr_gt0.
  have s20 : s0 * s0 * (1 + tau * tau) = 1.
    rewrite /s0 mulf_div sg2 // -expr2 sqr_sqrtr ?(ltW t0) // mul1r mulVf ?gt_eqF //.
  have sn0 : s0 != 0 by apply: contra_eq_neq s20 => ->; rewrite !mul0r eq_sym oner_eq0.
  have tauE : tau * y = x by rewrite divfK.
  have ysE : y / s0 = `|y| * Num.sqrt (1 + tau * tau).
    rewrite /s0 invf_div mulrA mulrAC normrEsg; congr (_ * _).
    by apply: (mulIf (x := Num.sg y)); rewrite ?sgr_eq0 // divfK ?sgr_eq0 // mulrAC -mulrA mulrC mulrAC sg2 // mul1r.
  split.
  - apply: (mulIf sn0); rewrite divfK // -tauE -[RHS]mul1r -s20.
    by rring.
  - by rewrite -tauE; rring.
  - by rewrite ysE mulr_ge0 ?sqrtr_ge0.
  - rewrite ysE -sqrtr_sqr -sqrtrM ?sqr_ge0 //; congr Num.sqrt.
    by rewrite -tauE; rring.
  - by rewrite -s20; rring.
case: ifP => _ [<- <- <-].
  by have [E1 E2 E3 E4 E5] := key a b a0 b0; split.
have [E1 E2 E3 E4 E5] := key b a b0 a0; split.
- by rewrite addrC.
- by rewrite -oppr0 -[in RHS]E2; rring.
- exact: E3.
- by rewrite E4 addrC.
- by move=> _; rewrite addrC.
Qed.

Lemma sdivE (a b : R) : b != 0 -> sdiv a b = Ok (a / b).
Proof. by rewrite /sdiv /= => /negbTE ->. Qed.

End Givens.

Section Lsqr.
Variable R : rcfType.
Add Field lsqrField : (rcf_field R).

(** A LinearOperator that applies the matrix [M] and its transpose. *)
Definition lin_is m n (f : linop R) (M : 'M[R]_(m, n)) : Prop :=
  [/\ lo_nr f = m, lo_nc f = n, op_is (lo_mv f) M & op_is (lo_rmv f) M^T].

Lemma as_linopP m n (A : 'M[R]_(m, n)) : lin_is (as_linop (ofmx A)) A.
Proof. by split=> // x /=; rewrite ?mtrE mvE. Qed.

Lemma op_mvE m n f (M : 'M[R]_(m, n)) x : lin_is f M -> op_mv f (ofcv x) = Ok (ofcv (M *m x)).
Proof. by case=> _ En Em _; rewrite /op_mv size_ofcv En eqxx Em. Qed.
Lemma op_rmvE m n f (M : 'M[R]_(m, n)) x : lin_is f M -> op_rmv f (ofcv x) = Ok (ofcv (M^T *m x)).
Proof. by case=> Em _ _ Er; rewrite /op_rmv size_ofcv Em eqxx Er. Qed.

Lemma fro_unit n (x : 'cV[R]_n) : x != 0 ->
  dot ((fro x)^-1 *: x) ((fro x)^-1 *: x) = 1.
Proof.
move=> x0; have f0 : fro x != 0 by rewrite fro_eq0.
by rewrite dotZl dotZr dotxx -sqr_fro expr2 (mulrA (fro x)^-1 (fro x)) mulVf // mul1r mulVf.
Qed.

Lemma fro_dot n (x : 'cV[R]_n) : fro x = Num.sqrt (dot x x).
Proof. by rewrite dotxx. Qed.

Lemma dot_col m n (a c : 'cV[R]_m) (b d : 'cV[R]_n) :
  dot (col_mx a b) (col_mx c d) = dot a c + dot b d.
Proof. by rewrite /dot tr_col_mx mul_row_col mxE. Qed.

Lemma dot_span n k (V : 'M[R]_(n, k)) c (v : 'cV[R]_n) :
  V^T *m v = 0 -> dot (V *m c) v = 0.
Proof. by move=> E; rewrite dotC dotM E dot0l. Qed.

Lemma orthonormal_cv n (v : 'cV[R]_n) : orthonormal v <-> dot v v = 1.
Proof.
rewrite /orthonormal mul_tr_dot; split=> [/matrixP/(_ 0 0)|->//].
by rewrite !mxE eqxx !mulr1n.
Qed.

Lemma orthonormal_snoc n k (V : 'M[R]_(n, k)) (v : 'cV[R]_n) :
  orthonormal V -> V^T *m v = 0 -> dot v v = 1 -> orthonormal (row_mx V v).
Proof. by move=> oV Vv vv; apply: orthonormal_row_mx => //; apply/orthonormal_cv. Qed.

Section Run.
Variables (m n : nat) (A : 'M[R]_(m, n)) (op : linop R).
Hypothesis opA : lin_is op A.

(** Golub-Kahan bidiagonalisation: [U], [V] hold the earlier vectors. *)
Record ginv k (U : 'M[R]_(m, k)) (V : 'M[R]_(n, k)) (u : 'cV[R]_m) (v : 'cV[R]_n) (al : R)
  : Prop := GInv {
  gi_al : 0 < al;
  gi_U : orthonormal (row_mx U u);
  gi_V : orthonormal (row_mx V v);
  gi_AV : exists T t, A *m V = U *m T + u *m t;
  gi_AtU : exists S, A^T *m U = V *m S;
  gi_Atu : exists e, A^T *m u = V *m e + al *: v;
  gi_rng : exists C, row_mx V v = A^T *m C }.

Record gstep k (U : 'M[R]_(m, k)) (V : 'M[R]_(n, k)) (u : 'cV[R]_m) (v : 'cV[R]_n) (al d an : R)
    (u' : 'cV[R]_m) (v' : 'cV[R]_n) (be al' an' : R) : Prop := GStep {
  gs_u : A *m v = al *: u + be *: u';
  gs_be : 0 <= be;
  gs_al : 0 <= al';
  gs_ort : (row_mx U u)^T *m u' = 0;
  gs_0 : be = 0 -> [/\ u' = 0, v' = v, al' = al & an' = an];
  gs_v : 0 < be -> [/\ dot u' u' = 1, A^T *m u' = be *: v + al' *: v',
     (row_mx V v)^T *m v' = 0, (0 < al' -> dot v' v' = 1) &
     an' = Num.sqrt (an ^+ 2 + al ^+ 2 + be ^+ 2 + d ^+ 2)] }.

Lemma orthonormal_col k (V : 'M[R]_(n, k)) (v : 'cV[R]_n) : orthonormal (row_mx V v) ->
  [/\ orthonormal V, V^T *m v = 0 & dot v v = 1].
Proof. by case/orthonormal_row_mxP => oV /orthonormal_cv vv Vv. Qed.

Lemma bidiagP k (U : 'M[R]_(m, k)) (V : 'M[R]_(n, k)) u v d (s : @lsqr_st R) :
  s_u s = ofcv u -> s_v s = ofcv v -> ginv U V u v (s_alfa s) ->
  exists u' v' be al' an',
    lsqr_bidiag op d s = Ok (ofcv u', be, ofcv v', al', an') /\
    gstep U V u v (s_alfa s) d (s_anorm s) u' v' be al' an'.
Proof.
move=> su sv G; set al := s_alfa s.
pose ut := A *m v - al *: u.
have [oU Uu uu] : [/\ orthonormal U, U^T *m u = 0 & dot u u = 1].
  by case/orthonormal_row_mxP: (gi_U G) => oU /orthonormal_cv uu Uu.
have [oV Vv vv] := orthonormal_col (gi_V G).
have [T [t AV]] := gi_AV G; have [S AtU] := gi_AtU G; have [e Atu] := gi_Atu G.
have ort : (row_mx U u)^T *m ut = 0.
  rewrite tr_row_mx mul_col_mx /ut !mulmxBr -!scalemxAr Uu scaler0 subr0.
  have -> : U^T *m (A *m v) = 0.
    apply: trmx_inj; rewrite mulmxA trmx_mul [in X in _ *m X]trmx_mul trmxK AtU mulmxA.
    have -> : v^T *m V = 0 by apply: trmx_inj; rewrite trmx_mul trmxK Vv trmx0.
    by rewrite mul0mx trmx0.
  rewrite !mul_tr_dot dotM Atu dotDl dot_span // dotZl vv uu add0r mulr1 -/al.
  by rewrite scalemx1 subrr col_mx0.
rewrite /lsqr_bidiag su sv (op_mvE _ opA) /= vscaleE vsubE /= -/al -/ut vnormE.
case: ltrP => be0; last first.
  have b0 : fro ut = 0 by apply/eqP; rewrite eq_le be0 fro_ge0.
  have ut0 : ut = 0 by apply/eqP; rewrite -fro_eq0 b0.
  exists ut, v, (fro ut), al, (s_anorm s); split=> //; split.
  - by rewrite b0 scale0r addr0; apply/eqP; rewrite -subr_eq0 -/ut ut0.
  - by rewrite b0.
  - exact/ltW/(gi_al G).
  - exact: ort.
  - by [].
  - by rewrite b0 ltxx.
have ut0 : ut != 0 by rewrite -fro_eq0 gt_eqF.
rewrite sdivE ?gt_eqF //= vscaleE (op_rmvE _ opA) /= vscaleE vsubE /= vnormE div1r.
set be := fro ut; set u' := be^-1 *: ut; set vt := _ - _; set al' := fro vt.
have uE : A *m v = al *: u + be *: u'.
  by rewrite /u' scalerA divff ?gt_eqF // scale1r /ut addrC subrK.
have uu' : dot u' u' = 1 by apply: fro_unit.
have ort' : (row_mx U u)^T *m u' = 0 by rewrite -scalemxAr ort scaler0.
have [Uu' uu0] : U^T *m u' = 0 /\ u^T *m u' = 0.
  by move: ort'; rewrite tr_row_mx mul_col_mx -[0]vsubmxK => /eq_col_mx; rewrite !linear0.
clearbody u'.
have vort : (row_mx V v)^T *m vt = 0.
  rewrite tr_row_mx mul_col_mx /vt !mulmxBr -!scalemxAr Vv scaler0 subr0.
  have -> : V^T *m (A^T *m u') = 0.
    apply: trmx_inj; rewrite !trmx_mul !trmxK -mulmxA AV mulmxDr !mulmxA.
    have -> : u'^T *m U = 0 by apply: trmx_inj; rewrite trmx_mul trmxK Uu' trmx0.
    have -> : u'^T *m u = 0 by apply: trmx_inj; rewrite trmx_mul trmxK uu0 trmx0.
    by rewrite !mul0mx addr0 trmx0.
  rewrite !mul_tr_dot dotM trmxK uE dotDl !dotZl uu' vv.
  by rewrite /dot uu0 mxE mulr0 add0r mulr1 scalemx1 subrr col_mx0.
have anE : forall a b c e : R, @osqrt R (rcf_ops R) (osq a + osq b + osq c + osq e)%O =
   Num.sqrt (a ^+ 2 + b ^+ 2 + c ^+ 2 + e ^+ 2) by move=> *; rewrite !osqE.
case: ltrP => al0.
  rewrite sdivE ?gt_eqF //= vscaleE div1r.
  exists u', (al'^-1 *: vt), be, al', (Num.sqrt (s_anorm s ^+ 2 + al ^+ 2 + be ^+ 2 + d ^+ 2)).
  split; first by rewrite -anE.
  split=> //; [exact: fro_ge0 | exact: fro_ge0 | by move=> E; move: be0; rewrite -/be E ltxx|].
  move=> _; split=> //.
  - by rewrite scalerA divff ?gt_eqF // scale1r /vt addrC subrK.
  - by rewrite -scalemxAr vort scaler0.
  - by move=> _; apply: fro_unit; rewrite -fro_eq0 gt_eqF.
have al'0 : al' = 0 by apply/eqP; rewrite eq_le al0 fro_ge0.
have vt0 : vt = 0 by apply/eqP; rewrite -fro_eq0 -/al' al'0.
exists u', vt, be, al', (Num.sqrt (s_anorm s ^+ 2 + al ^+ 2 + be ^+ 2 + d ^+ 2)).
split; first by rewrite -anE.
split=> //; [exact: fro_ge0 | exact: fro_ge0 | by move=> E; move: be0; rewrite -/be E ltxx|].
move=> _; split=> //; last by rewrite al'0 ltxx.
by rewrite al'0 scale0r addr0; apply/eqP; rewrite -subr_eq0 -/vt vt0.
Qed.

Lemma gstep_inv k (U : 'M[R]_(m, k)) (V : 'M[R]_(n, k)) u v al d an u' v' be al' an' :
  ginv U V u v al -> gstep U V u v al d an u' v' be al' an' -> 0 < be -> 0 < al' ->
  ginv (row_mx U u) (row_mx V v) u' v' al'.
Proof.
move=> G S be0 al0; case: (gs_v S be0) => uu' Atu' vort vv' _.
have [T [t AV]] := gi_AV G; have [X AtU] := gi_AtU G; have [e Atu] := gi_Atu G.
split=> //.
- by apply: orthonormal_snoc; [exact: (gi_U G) | exact: (gs_ort S) |].
- by apply: orthonormal_snoc; [exact: (gi_V G) | exact: vort | exact: vv'].
- exists (block_mx T 0 t al%:M), (row_mx 0 be%:M).
  rewrite mul_mx_row AV (gs_u S) mul_row_block mul_mx_row !mulmx0 add0r add_row_mx addr0.
  by rewrite !mul_mx_scalar.
- exists (block_mx X e 0 al%:M).
  by rewrite mul_mx_row AtU Atu mul_row_block !mulmx0 addr0 mul_mx_scalar.
- exists (col_mx 0 be%:M).
  by rewrite Atu' mul_row_col mulmx0 add0r mul_mx_scalar.
- have [C CE] := gi_rng G; have vE : v = A^T *m rsubmx C.
    by rewrite -[C]hsubmxK mul_mx_row in CE; case/eq_row_mx: CE.
  exists (row_mx C (al'^-1 *: (u' - be *: rsubmx C))).
  rewrite mul_mx_row -CE -scalemxAr mulmxBr -scalemxAr -vE Atu' addrAC subrr add0r.
  by rewrite scalerA mulVf ?scale1r // gt_eqF.
Qed.

(** ** The iteration. *)
Variables (b : 'cV[R]_m) (x0 : 'cV[R]_n) (d : R).

(** Damped operator and residual: [min ||b - A x||^2 + d^2 ||x - x0||^2]. *)
Definition Ab : 'M[R]_(m + n, n) := col_mx A d%:M.
Definition rb (x : 'cV[R]_n) : 'cV[R]_(m + n) := col_mx (b - A *m x) (- (d *: (x - x0))).

Lemma rbD x t w : rb (x + t *: w) = rb x - t *: (Ab *m w).
Proof.
rewrite /rb /Ab mul_col_mx mul_scalar_mx scale_col_mx opp_col_mx add_col_mx.
congr col_mx; first by rewrite mulmxDr -scalemxAr opprD addrA.
by rewrite -opprD addrAC scalerDr !scalerA (mulrC t).
Qed.

Lemma Ab_vh v : Ab^T *m col_mx (0 : 'cV[R]_m) v = d *: v.
Proof. by rewrite /Ab tr_col_mx mul_row_col mulmx0 add0r tr_scalar_mx mul_scalar_mx. Qed.
Lemma Ab_uh u : Ab^T *m col_mx u (0 : 'cV[R]_n) = A^T *m u.
Proof. by rewrite /Ab tr_col_mx mul_row_col mulmx0 addr0. Qed.

(** Row sums of squares: the diagonal of [D *m D^T]. *)
Definition rowsq k (D : 'M[R]_(n, k)) : 'cV[R]_n := \col_i (\sum_j D i j ^+ 2).

(** What the state tells about the current iterate, after [k] passes.  The
    columns of [D] are the scaled search directions. *)
(** Krylov vectors of the normal equations and their span. *)
Definition kvec (i : nat) : 'cV[R]_n := iter i (fun y => A^T *m (A *m y)) (A^T *m (b - A *m x0)).
Definition kspan (k : nat) (y : 'cV[R]_n) : Prop :=
  exists c : nat -> R, y = \sum_(i < k) c i *: kvec i.

Lemma kspan0 k : kspan k 0.
Proof. by exists (fun=> 0); rewrite big1 // => i _; rewrite scale0r. Qed.
Lemma kspanD k y z : kspan k y -> kspan k z -> kspan k (y + z).
Proof.
move=> [c ->] [c' ->]; exists (fun i => c i + c' i); rewrite -big_split /=.
by apply: eq_bigr => i _; rewrite scalerDl.
Qed.
Lemma kspanZ k t y : kspan k y -> kspan k (t *: y).
Proof.
move=> [c ->]; exists (fun i => t * c i); rewrite scaler_sumr.
by apply: eq_bigr => i _; rewrite scalerA.
Qed.
Lemma kspanS k y : kspan k y -> kspan k.+1 y.
Proof.
move=> [c ->]; exists (fun i => if (i < k)%N then c i else 0); rewrite big_ord_recr /= ltnn scale0r addr0.
by apply: eq_bigr => i _; rewrite ltn_ord.
Qed.
Lemma kspanA k y : kspan k y -> kspan k.+1 (A^T *m (A *m y)).
Proof.
move=> [c ->]; exists (fun i => if i is j.+1 then c j else 0); rewrite big_ord_recl /= scale0r add0r.
rewrite !mulmx_sumr; apply: eq_bigr => i _; rewrite -!scalemxAr; congr (_ *: _).
Qed.

(** The first [k] vectors span the Krylov space. *)
Definition kbasis k (V : 'M[R]_(n, k)) : Prop :=
  (forall c, kspan k (V *m c)) /\ (forall i, (i < k)%N -> exists c, kvec i = V *m c).

(** What the estimate of the norm is after [k] iterations. *)
Definition anorm_is (k : nat) (an : R) : Prop := let r0 := b - A *m x0 in
  (exists V : 'M[R]_(n, k), [/\ orthonormal V, an ^+ 2 = fro2 (A *m V) + d ^+ 2 *+ k &
     r0 != 0 -> exists (U : 'M[R]_(m, k + 1)) Z a, orthonormal U /\ U = A *m Z + r0 *m a]) \/
  (exists j (V : 'M[R]_(n, j)) (v : 'cV[R]_n), [/\ j.+1 = k, orthonormal (row_mx V v), A *m v != 0,
     an ^+ 2 = fro2 (A *m V) + d ^+ 2 *+ j & exists z, r0 = A *m z]).

Lemma kbasis_step k (U : 'M[R]_(m, k)) (V : 'M[R]_(n, k)) u v al dd an u' v' be al' an' :
  ginv U V u v al -> gstep U V u v al dd an u' v' be al' an' -> 0 < be -> 0 < al' ->
  ginv (row_mx U u) (row_mx V v) u' v' al' -> kbasis (row_mx V v) ->
  kbasis (row_mx (row_mx V v) v').
Proof.
move=> G S be0 al0 G' [K1 K2]; split; last first.
  move=> i; rewrite (_ : (i < k + 1 + 1)%N = (i <= k + 1)%N); last by rewrite [(k + 1 + 1)%N]addn1 ltnS.
  case: i => [|i] lei.
    by have [c ->] := K2 0%N (ltn_addl k (ltnSn 0) : (0 < k + 1)%N); exists (col_mx c 0); rewrite mul_row_col mulmx0 addr0.
  have [c cE] := K2 i lei.
  have [T [t AV]] := gi_AV G'; have [Sm AtU] := gi_AtU G'; have [e Atu] := gi_Atu G'.
  rewrite [kvec i.+1]/= -/(kvec i) cE (mulmxA A) AV mulmxDl mulmxDr -!(mulmxA u') -!(mulmxA (row_mx U u)).
  rewrite (mulmxA A^T (row_mx U u)) AtU (mulmxA A^T u') Atu mulmxDl.
  exists (col_mx (Sm *m (T *m c) + e *m (t *m c)) (al' *: (t *m c))).
  by rewrite mul_row_col mulmxDr -!scalemxAl -!scalemxAr !mulmxA addrA.
have vk : kspan (k + 1).+1 v'.
  have [_ Atu' _ _ _] := gs_v S be0; have [e Atu] := gi_Atu G.
  have -> : v' = (be * al')^-1 *: (A^T *m (A *m v) + (- al) *: (V *m e + al *: v) + (- (be ^+ 2)) *: v).
    rewrite (gs_u S) mulmxDr -!scalemxAr Atu Atu'; move: (V *m e + _) => y.
    rewrite [be *: (_ + _)]scalerDr !scalerA -expr2.
    rewrite (scaleNr al) (scaleNr (be ^+ 2)) [al *: y + _]addrC addrK [be ^+ 2 *: v + _]addrC addrK !scalerA.
    by rewrite mulVf ?scale1r // mulf_neq0 // gt_eqF.
  have vE : kspan (k + 1) v by have := K1 (col_mx 0 1%:M); rewrite mul_row_col mulmx0 mulmx1 add0r.
  have VE c : kspan (k + 1) (V *m c).
    by have := K1 (col_mx c 0); rewrite mul_row_col mulmx0 addr0.
  apply: kspanZ; apply: kspanD; last by apply/kspanZ/kspanS.
  apply: kspanD; first exact: kspanA.
  by apply/kspanZ/kspanS/kspanD; [exact: VE | exact: kspanZ].
move=> c; rewrite -[c]vsubmxK mul_row_col [X in kspan X _]addn1; apply: kspanD.
  by apply: kspanS; exact: K1.
have -> : v' *m dsubmx c = (dsubmx c 0 0) *: v'.
  by rewrite {1}[dsubmx c]mx11_scalar mul_mx_scalar.
exact: kspanZ.
Qed.

Record rep (cv : bool) (k : nat) (s : @lsqr_st R) (x : 'cV[R]_n) : Prop := Rep {
  rp_x : s_x s = ofcv x;
  rp_r2 : s_r2norm s = fro (rb x);
  rp_ar : s_arnorm s = fro (Ab^T *m rb x);
  rp_xn : s_xnorm s = fro (x - x0);
  rp_an0 : 0 <= s_anorm s;
  rp_an : s_anorm s <= fro Ab;
  rp_ac : 0 <= s_acond s;
  rp_acb : forall mu, 0 <= mu -> (forall c : 'cV[R]_m, mu * fro2 (A^T *m c) <= fro2 (Ab *m (A^T *m c))) ->
     mu * s_acond s ^+ 2 <= fro2 Ab *+ minn m n;
  rp_rng : exists c, x - x0 = A^T *m c;
  rp_r1 : d = 0 -> s_r1norm s = s_r2norm s;
  rp_r1b : fro (b - A *m x) <= s_r1norm s <= s_r2norm s;
  rp_r1x : (s_r1norm s == fro (b - A *m x)) = [|| k == 0%N, d == 0 | s_arnorm s == 0];
  rp_D : exists D : 'M[R]_(n, k), [/\ orthonormal (Ab *m D), s_acond s = s_anorm s * fro D,
     s_var s = ofcv (if cv then rowsq D else 0) & exists C, D = A^T *m C];
  rp_V : anorm_is k (s_anorm s);
  rp_K : exists V : 'M[R]_(n, k), [/\ kbasis V, exists c, x - x0 = V *m c & V^T *m (Ab^T *m rb x) = 0] }.

Record linv (cv : bool) k (U : 'M[R]_(m, k)) (V : 'M[R]_(n, k)) (s : @lsqr_st R)
    (x w : 'cV[R]_n) (u : 'cV[R]_m) (v : 'cV[R]_n) (p q : 'cV[R]_(m + n)) (G : 'cV[R]_n)
  : Prop := LInv {
  li_rep : rep cv k s x;
  li_w : s_w s = ofcv w; li_u : s_u s = ofcv u; li_v : s_v s = ofcv v;
  li_g : ginv U V u v (s_alfa s);
  li_r : rb x = s_phibar s *: p + q;
  li_Aw : Ab *m w = s_rhobar s *: p + col_mx (A *m v - s_alfa s *: u) (d *: v);
  li_p : Ab^T *m p = s_rhobar s *: v;
  li_q : Ab^T *m q = 0;
  li_pp : dot p p = 1; li_pq : dot p q = 0; li_qq : dot q q = s_res2 s;
  li_ps : exists a c, p = col_mx (row_mx U u *m a) (V *m c);
  li_qs : exists a c, q = col_mx (row_mx U u *m a) (V *m c);
  li_rho : s_rhobar s != 0;
  li_G : x - x0 = G - (s_sn2 s * s_z s) *: w;
  li_GG : dot G G = s_xxnorm s; li_wG : dot w G = 0;
  li_ww : s_cs2 s ^+ 2 * dot w w = 1;
  li_Gs : exists c, G = row_mx V v *m c;
  li_ws : exists c, w = row_mx V v *m c;
  li_dd : 0 <= s_ddnorm s;
  li_ddb : forall mu, 0 <= mu -> (forall c : 'cV[R]_m, mu * fro2 (A^T *m c) <= fro2 (Ab *m (A^T *m c))) ->
     mu * s_ddnorm s <= k%:R;
  li_anV : s_anorm s ^+ 2 = fro2 (A *m V) + d ^+ 2 *+ k;
  li_D : exists D : 'M[R]_(n, k), [/\ orthonormal (Ab *m D) /\ (Ab *m D)^T *m p = 0,
     exists a c, Ab *m D = col_mx (row_mx U u *m a) (V *m c),
     s_ddnorm s = fro2 D, s_var s = ofcv (if cv then rowsq D else 0) & exists C, D = A^T *m C];
  li_U : exists Z a, row_mx U u = A *m Z + (b - A *m x0) *m a;
  li_b : exists z t, b - A *m x0 = A *m z + t *: u;
  li_K : kbasis (row_mx V v);
  li_sg : [/\ s_phibar s * s_rhobar s * s_cs2 s < 0, 0 <= s_z s * s_cs2 s & 0 <= s_sn2 s] }.

(** Strict progress: a smaller residual, a longer step from the start. *)
Definition more (s s' : @lsqr_st R) := s_r2norm s' < s_r2norm s /\ s_xnorm s < s_xnorm s'.
Lemma more_trans s1 s2 s3 : more s1 s2 -> more s2 s3 -> more s1 s3.
Proof. by move=> [a1 a2] [b1 b2]; split; [apply: lt_trans a1 | apply: lt_trans b2]. Qed.

(** The numbers tested for stopping, from the state. *)
Definition tests_of (atol btol bn : R) (s : @lsqr_st R) : @lsqr_tests R :=
  LsqrTests (s_r2norm s / bn) (s_arnorm s / (s_anorm s * s_r2norm s + 2%:R ^- 52))
    (1 / (s_acond s + 2%:R ^- 52))
    (s_r2norm s / bn / (1 + s_anorm s * s_xnorm s / bn))
    (btol + atol * s_anorm s * s_xnorm s / bn).

Lemma eps_gt0 : 0 < (2%:R ^- 52 : R).
Proof. by rewrite invr_gt0 exprn_gt0 // ltr0n. Qed.

(** Scalar identities behind the norm estimate. *)
Lemma alg_z (rho cs2 ga th rhs : R) : rho != 0 -> ga != 0 ->
  ga ^+ 2 = (- cs2 * rho) ^+ 2 + th ^+ 2 ->
  rhs / rho = rhs / ga * (- (- cs2 * rho / ga) * cs2 + th / ga * (th / rho)).
Proof.
move=> r0 g0 E.
transitivity (rhs * ((- cs2 * rho) ^+ 2 + th ^+ 2) / (ga ^+ 2 * rho)).
  by rewrite -E; rfield; rewrite ?r0 ?g0.
by rfield; rewrite ?r0 ?g0.
Qed.

(** The state after one pass, given the bidiagonalisation step and the rotation. *)
Definition lnext (s : @lsqr_st R) (x w : 'cV[R]_n) (var : seq R) (u' : 'cV[R]_m) (v' : 'cV[R]_n)
    (al' an' cs sn rho : R) : @lsqr_st R :=
  let rb1 := Num.sqrt (s_rhobar s ^+ 2 + d ^+ 2) in
  let cs1 := s_rhobar s / rb1 in
  let sn1 := d / rb1 in
  let psi := sn1 * s_phibar s in
  let phb := cs1 * s_phibar s in
  let theta := sn * al' in
  let phi := cs * phb in
  let phibar := sn * phb in
  let ddnorm := s_ddnorm s + fro (rho^-1 *: w) ^+ 2 in
  let gambar := - s_cs2 s * rho in
  let rhs := phi - s_sn2 s * rho * s_z s in
  let gamma := Num.sqrt (gambar ^+ 2 + theta ^+ 2) in
  let z := rhs / gamma in
  let xxnorm := s_xxnorm s + z ^+ 2 in
  let res2 := s_res2 s + psi ^+ 2 in
  let rnorm := Num.sqrt (phibar ^+ 2 + res2) in
  let r1sq := rnorm ^+ 2 - d ^+ 2 * xxnorm in
  let r1 := Num.sqrt `|r1sq| in
  LsqrSt (ofcv (x + (phi / rho) *: w)) (ofcv (v' + (- theta / rho) *: w)) (ofcv u') (ofcv v')
    al' (- cs * al') phibar an' (an' * Num.sqrt ddnorm) ddnorm res2
    (Num.sqrt (s_xxnorm s + (rhs / gambar) ^+ 2)) xxnorm z (gambar / gamma) (theta / gamma)
    (al' * `|sn * phi|) (if r1sq < 0 then - r1 else r1) rnorm var.

Lemma map_osq_ofcv k (y : 'cV[R]_k) :
  [seq @osq R (rcf_ops R) i | i <- ofcv y] = ofcv (\col_i y i 0 ^+ 2).
Proof.
rewrite -[X in map _ X]mkseq_ev size_ofcv -map_comp -/(mkseq _ k) mkseq_ofcv; congr ofcv.
by apply/matrixP => i j; rewrite !mxE /= osqE ev_ofcv.
Qed.

Lemma rowsq_snoc k (D : 'M[R]_(n, k)) (w : 'cV[R]_n) :
  rowsq (row_mx D w) = rowsq D + \col_i w i 0 ^+ 2.
Proof.
apply/matrixP => i j; rewrite !mxE big_split_ord /= big_ord1; congr (_ + _).
  by apply: eq_bigr => l _; rewrite row_mxEl.
by rewrite row_mxEr.
Qed.

Lemma lsqr_stepE atol btol bn cv s x w y0 u' v' be al' an' cs sn rho :
  s_x s = ofcv x -> s_w s = ofcv w -> s_var s = ofcv y0 ->
  lsqr_bidiag op d s = Ok (ofcv u', be, ofcv v', al', an') ->
  @sym_ortho R (rcf_ops R) (Num.sqrt (s_rhobar s ^+ 2 + d ^+ 2)) be = (cs, sn, rho) ->
  s_rhobar s != 0 -> rho != 0 -> s_cs2 s != 0 -> 0 <= an' -> 0 < bn ->
  let y := if cv then y0 + \col_i (rho^-1 *: w) i 0 ^+ 2 else y0 in
  let s' := lnext s x w (ofcv y) u' v' al' an' cs sn rho in
  lsqr_step op d atol btol bn cv s = Ok (s', tests_of atol btol bn s').
Proof.
move=> sx sw vy bE sE rb0 rho0 cs20 an0 bn0 y s'.
have rb1 : Num.sqrt (s_rhobar s ^+ 2 + d ^+ 2) != 0.
  rewrite gt_eqF // sqrtr_gt0 ltr_paddr ?sqr_ge0 //.
  by rewrite lt_neqAle sqr_ge0 andbT eq_sym sqrf_eq0.
have gb0 : - s_cs2 s * rho != 0 by rewrite mulf_neq0 ?oppr_eq0.
have gm0 : Num.sqrt ((- s_cs2 s * rho) ^+ 2 + (sn * al') ^+ 2) != 0.
  rewrite gt_eqF // sqrtr_gt0 ltr_paddr ?sqr_ge0 //.
  by rewrite lt_neqAle sqr_ge0 andbT eq_sym sqrf_eq0.
have vE :
   (if cv then vadd (s_var s) [seq @osq R (rcf_ops R) i | i <- ofcv (rho^-1 *: w)]
    else Ok (s_var s)) = Ok (ofcv y).
  by rewrite /y; case: (cv); rewrite vy // map_osq_ofcv vaddE.
rewrite /lsqr_step bE /= !osqE sdivE // /= sdivE //= sE.
rewrite sdivE //= sdivE //= sdivE //= sw sx div1r !vscaleE vaddE /= vaddE /= vE /=.
rewrite sdivE //= !osqE sdivE //= sdivE //= sdivE //= !osqE !oabsE vnormE oepsE.
have rn0 : forall a, 0 <= Num.sqrt a :> R by move=> a; apply: sqrtr_ge0.
rewrite sdivE ?gt_eqF //= sdivE; last first.
  by rewrite gt_eqF // ltr_paddl ?eps_gt0 // mulr_ge0.
rewrite /= sdivE; last by rewrite gt_eqF // ltr_paddl ?eps_gt0 // mulr_ge0.
rewrite /= sdivE ?gt_eqF //= sdivE; last first.
  by rewrite gt_eqF // ltr_paddr ?ltr01 // divr_ge0 ?mulr_ge0 // ltW.
by rewrite /= sdivE ?gt_eqF.
Qed.

(** Vector identities of the two rotations (entrywise ring identities). *)
Ltac vring := apply/matrixP => ? ?; rewrite !mxE;
  repeat match goal with
  | |- context [@fun_of_matrix _ _ _ ?M ?i ?j] => move: (M i j) => ?
  end; rring.

Section Rot.
Variables (p q vh uh : 'cV[R]_(m + n)) (cs1 sn1 cs sn phb rho : R).
Hypotheses (c1 : cs1 ^+ 2 + sn1 ^+ 2 = 1) (c2 : cs ^+ 2 + sn ^+ 2 = 1) (rho0 : rho != 0).
Let ph := cs1 *: p + sn1 *: vh.
Let g := sn1 *: p - cs1 *: vh.
Let p' := sn *: ph - cs *: uh.
Let q' := q + (sn1 * phb) *: g.

Lemma rot_r : phb *: p + q - (cs * (cs1 * phb) / rho) *: (rho *: (cs *: ph + sn *: uh)) =
  (sn * (cs1 * phb)) *: p' + q'.
Proof.
rewrite scalerA divfK //.
have -> : phb *: p + q = (cs1 * phb) *: ph + q'.
  have -> : phb *: p = (phb * (cs1 ^+ 2 + sn1 ^+ 2)) *: p by rewrite c1 mulr1.
  by rewrite /q' /ph /g; vring.
have -> : (cs1 * phb) *: ph = (cs1 * phb * (cs ^+ 2 + sn ^+ 2)) *: ph by rewrite c2 mulr1.
by rewrite /p'; vring.
Qed.

Lemma rot_Aw : (rho * cs * cs1) *: p + ((rho * sn) *: uh + (rho * cs * sn1) *: vh) =
  rho *: (cs *: ph + sn *: uh).
Proof. by rewrite /ph; vring. Qed.

(** [t] is the new alpha, [a] the image of the new v. *)
Lemma rot_Aw' a t : a + (- (sn * t) / rho) *: (rho *: (cs *: ph + sn *: uh)) =
  (- cs * t) *: p' + (a - t *: uh).
Proof.
rewrite scalerA divfK // [in RHS]addrCA; congr (_ + _).
have -> : t *: uh = (t * (cs ^+ 2 + sn ^+ 2)) *: uh by rewrite c2 mulr1.
by rewrite /p'; vring.
Qed.

Hypotheses (pp : dot p p = 1) (pv : dot p vh = 0) (vv : dot vh vh = 1) (pu : dot p uh = 0)
  (vu : dot vh uh = 0).

Lemma rot_phph : dot ph ph = 1.
Proof.
rewrite /ph dotDl !dotDr !dotZl !dotZr pp (dotC vh) pv vv; transitivity (cs1 ^+ 2 + sn1 ^+ 2) => //; rring.
Qed.
Lemma rot_phu : dot ph uh = 0.
Proof. by rewrite /ph dotDl !dotZl pu vu !mulr0 addr0. Qed.
Lemma rot_gg : dot g g = 1.
Proof.
rewrite /g dotBl !dotBr !dotZl !dotZr pp (dotC vh) pv vv; transitivity (cs1 ^+ 2 + sn1 ^+ 2) => //; rring.
Qed.
Lemma rot_gu : dot g uh = 0.
Proof. by rewrite /g dotBl !dotZl pu vu !mulr0 subr0. Qed.
Lemma rot_gph : dot g ph = 0.
Proof. rewrite /g /ph dotBl !dotDr !dotZl !dotZr pp (dotC vh) pv vv; rring. Qed.

Hypotheses (pq : dot p q = 0) (qv : dot q vh = 0) (qu : dot q uh = 0).
Lemma rot_qg : dot q g = 0.
Proof. by rewrite /g dotBr !dotZr (dotC q p) pq qv !mulr0 subr0. Qed.
Lemma rot_qph : dot q ph = 0.
Proof. by rewrite /ph dotDr !dotZr (dotC q p) pq qv !mulr0 addr0. Qed.

Lemma rot_qq : dot q' q' = dot q q + (sn1 * phb) ^+ 2.
Proof.
rewrite /q' dotDl !dotDr !dotZl !dotZr rot_gg (dotC g) rot_qg; rring.
Qed.
Lemma rot_pq : dot p' q' = 0.
Proof.
rewrite /p' /q' dotBl !dotDr !dotZl !dotZr (dotC ph q) rot_qph (dotC ph g) rot_gph.
by rewrite (dotC uh q) qu (dotC uh g) rot_gu !mulr0 !addr0 subr0.
Qed.
Lemma rot_pp : dot uh uh = 1 -> dot p' p' = 1.
Proof.
move=> uu; rewrite /p' dotBl !dotBr !dotZl !dotZr rot_phph uu (dotC uh) rot_phu; transitivity (cs ^+ 2 + sn ^+ 2) => //; rring.
Qed.
Lemma rot_rr : (dot uh uh = 1 \/ sn = 0) ->
  dot ((sn * (cs1 * phb)) *: p' + q') ((sn * (cs1 * phb)) *: p' + q') =
  (sn * (cs1 * phb)) ^+ 2 + (dot q q + (sn1 * phb) ^+ 2).
Proof.
move=> H; have Hqq := rot_qq; have Hpq := rot_pq; have Hpp := rot_pp.
clearbody p' q'; rewrite dotDl !dotDr !dotZl !dotZr (dotC q') Hpq Hqq.
case: H => [uu|->]; first by rewrite Hpp //; rring.
by rewrite !mul0r; rring.
Qed.
End Rot.

Lemma fro2_Ab j (W : 'M[R]_(n, j)) : orthonormal W -> fro2 (A *m W) + d ^+ 2 *+ j <= fro2 Ab.
Proof.
move=> oW; rewrite /Ab fro2_col_mx; apply: ler_add.
  rewrite -fro2_trmx trmx_mul -[fro2 A]fro2_trmx -subr_ge0.
  by rewrite -fro2_resid // fro2_ge0.
have -> : fro2 (d%:M : 'M[R]_n) = d ^+ 2 *+ n.
  rewrite -scalemx1 fro2Z fro2_tr trmx1 mul1mx mxtrace1.
  by rewrite mulr_natr.
have le : (j <= n)%N by have := rank_leq_row W; rewrite (orthonormal_rank oW).
by rewrite -(subnK le) mulrnDr ler_addr mulrn_wge0 ?sqr_ge0.
Qed.

(** One pass keeps the state truthful, and keeps the invariant unless it ends
    with [arnorm = 0]. *)
Lemma lsqr_stepP k (U : 'M[R]_(m, k)) (V : 'M[R]_(n, k)) s x w u v p q G atol btol bn cv :
  linv cv U V s x w u v p q G -> 0 < bn ->
  exists s' x', [/\ lsqr_step op d atol btol bn cv s = Ok (s', tests_of atol btol bn s'),
    rep cv (k + 1) s' x', more s s' &
    s_arnorm s' != 0 -> exists w' u' v' p' q' G',
      linv cv (row_mx U u) (row_mx V v) s' x' w' u' v' p' q' G'].
Proof.
move=> I bn0.
have [u' [v' [be [al' [an' [bE S]]]]]] := bidiagP d (li_u I) (li_v I) (li_g I).
set rb1 := Num.sqrt (s_rhobar s ^+ 2 + d ^+ 2).
case sE : (@sym_ortho R (rcf_ops R) rb1 be) => [[cs sn] rho].
have [E1 E2 rho_ge rhoE E3] := sym_orthoP sE.
have rb20 : 0 < s_rhobar s ^+ 2 + d ^+ 2.
  rewrite ltr_paddr ?sqr_ge0 // lt_neqAle sqr_ge0 andbT eq_sym sqrf_eq0.
  exact: (li_rho I).
have rb1_gt : 0 < rb1 by rewrite sqrtr_gt0.
have rb10 : rb1 != 0 by rewrite gt_eqF.
have {}E3 : cs ^+ 2 + sn ^+ 2 = 1 by apply: E3; rewrite rb10.
have rho_gt : 0 < rho.
  by rewrite rhoE sqrtr_gt0 ltr_paddr ?sqr_ge0 ?exprn_gt0.
have rho0 : rho != 0 by rewrite gt_eqF.
have rb1E : rb1 = rho * cs.
  have -> : rho * cs = rb1 * (cs ^+ 2 + sn ^+ 2) - sn * (sn * rb1 - cs * be) by rewrite -E1; rring.
  by rewrite E2 E3 mulr0 subr0 mulr1.
have beE : be = rho * sn.
  have -> : rho * sn = be * (cs ^+ 2 + sn ^+ 2) + cs * (sn * rb1 - cs * be) by rewrite -E1; rring.
  by rewrite E2 E3 mulr0 addr0 mulr1.
have cs0 : cs != 0 by apply: contraNneq rb10 => c0; rewrite rb1E c0 mulr0.
have cs20 : s_cs2 s != 0.
  by apply: contra_eq_neq (li_ww I) => ->; rewrite expr0n mul0r eq_sym oner_eq0.
have an0 : 0 <= an'.
  case: (ltrgtP 0 be) (gs_be S) => // b0 _.
    by case: (gs_v S b0) => _ _ _ _ ->; apply: sqrtr_ge0.
  by case: (gs_0 S (esym b0)) => _ _ _ ->; apply: (rp_an0 (li_rep I)).
have [D [[oD Dp] [aD [cD DE]] ddD y0E [CD rngD]]] := li_D I.
set y0 : 'cV[R]_n := if cv then _ else _ in y0E.
have step := lsqr_stepE atol btol cv (rp_x (li_rep I)) (li_w I) y0E bE sE
  (li_rho I) rho0 cs20 an0 bn0.
move: step => /=; set y := (if cv then _ else _) => step.
set s' := lnext _ _ _ _ _ _ _ _ _ _ _ in step.
pose cs1 := s_rhobar s / rb1; pose sn1 := d / rb1.
have c1 : cs1 ^+ 2 + sn1 ^+ 2 = 1.
  rewrite !exprMn -mulrDl exprVn sqr_sqrtr ?(ltW rb20) //.
  by rewrite divff // gt_eqF.
pose vh := col_mx (0 : 'cV[R]_m) v; pose uh := col_mx u' (0 : 'cV[R]_n).
have [_ Vv vv] := orthonormal_col (gi_V (li_g I)).
have vhvh : dot vh vh = 1 by rewrite dot_col dot0l add0r.
have vhuh : dot vh uh = 0 by rewrite dot_col dot0l dot0r addr0.
have spanu z : (exists a c, z = col_mx (row_mx U u *m a) (V *m c)) -> dot z uh = 0 /\ dot z vh = 0.
  case=> a [c ->]; rewrite !dot_col dot_span ?(gs_ort S) // !dot0r !add0r; split=> //.
  exact: dot_span.
have [pu pv] := spanu _ (li_ps I); have [qu qv] := spanu _ (li_qs I).
have uuh : dot uh uh = 1 \/ sn = 0.
  case: (ltrgtP 0 be) (gs_be S) => // b0 _.
    by left; case: (gs_v S b0) => uu _ _ _ _; rewrite dot_col dot0l addr0.
  by right; move/esym/eqP: beE; rewrite -b0 mulf_eq0 (negbTE rho0) => /eqP.
pose ph := cs1 *: p + sn1 *: vh.
have AwE : Ab *m w = rho *: (cs *: ph + sn *: uh).
  rewrite (li_Aw I) (gs_u S) addrAC subrr add0r.
  have -> : col_mx (be *: u') (d *: v) = be *: uh + d *: vh.
    by rewrite !scale_col_mx add_col_mx !scaler0 addr0 add0r.
  have -> : s_rhobar s = rb1 * cs1 by rewrite /cs1 mulrC divfK.
  have -> : d = rb1 * sn1 by rewrite /sn1 mulrC divfK.
  by rewrite rb1E beE rot_Aw.
pose phi := cs * (cs1 * s_phibar s).
pose x' := x + (phi / rho) *: w.
pose g := sn1 *: p - cs1 *: vh.
pose p' := sn *: ph - cs *: uh.
pose q' := q + (sn1 * s_phibar s) *: g.
have rE : rb x' = (sn * (cs1 * s_phibar s)) *: p' + q'.
  by rewrite rbD (li_r I) AwE; apply: rot_r.
have rr : dot (rb x') (rb x') = (sn * (cs1 * s_phibar s)) ^+ 2 + (s_res2 s + (sn1 * s_phibar s) ^+ 2).
  rewrite rE -(li_qq I); apply: rot_rr => //; [exact: (li_pp I) | exact: (li_pq I)].
have Abp : Ab^T *m ph = rb1 *: v.
  rewrite mulmxDr -!scalemxAr (li_p I) Ab_vh !scalerA -scalerDl; congr (_ *: _).
  by rewrite /cs1 /sn1 mulrAC [X in _ + X]mulrAC -!expr2 -mulrDl -[X in X / _](sqr_sqrtr (ltW rb20)) expr2 mulfK.
have Abg : Ab^T *m g = 0.
  rewrite mulmxBr -!scalemxAr (li_p I) Ab_vh !scalerA -scalerBl.
  suff -> : sn1 * s_rhobar s - cs1 * d = 0 by rewrite scale0r.
  by rewrite /cs1 /sn1 mulrAC [X in _ - X]mulrAC [X in X / _ - _]mulrC subrr.
have Abq' : Ab^T *m q' = 0 by rewrite mulmxDr (li_q I) -scalemxAr Abg scaler0 addr0.
have Abp' : 0 < be -> Ab^T *m p' = (- cs * al') *: v'.
  move=> b0; case: (gs_v S b0) => _ Atu' _ _ _.
  rewrite mulmxBr -!scalemxAr Abp Ab_uh Atu' scalerDr opprD !scalerA addrA -scalerBl E2 scale0r.
  by rewrite add0r -scaleNr mulNr.
have arE : s_arnorm s' = fro (Ab^T *m rb x').
  rewrite rE mulmxDr Abq' addr0 -scalemxAr.
  case: (ltrgtP 0 be) (gs_be S) => // b0 _; last first.
    have sn0 : sn = 0 by move/esym/eqP: beE; rewrite -b0 mulf_eq0 (negbTE rho0) => /eqP.
    by rewrite sn0 mul0r scale0r fro0 /s' /lnext /= sn0 mul0r normr0 mulr0.
  rewrite Abp' // scalerA /s' /lnext /=.
  case: (gs_v S b0) => _ _ _ vv' _.
  case: (ltrgtP 0 al') (gs_al S) => // a0 _; last by rewrite -a0 mul0r !mulr0 scale0r fro0.
  rewrite fro_dot dotZl dotZr vv' // mulr1 -expr2 sqrtr_sqr -/rb1 -/cs1.
  rewrite -[X in X * _](ger0_norm (gs_al S)) -normrM -[LHS]normrN; congr `|_|.
  by rring.
have xnE : s_xnorm s' = fro (x' - x0).
  have -> : x' - x0 = G + ((phi - s_sn2 s * rho * s_z s) / rho) *: w.
    rewrite /x' addrAC (li_G I) -addrA -scaleNr -scalerDl; congr (_ + _ *: _).
    by rfield; rewrite rho0.
  rewrite fro_dot /s' /lnext /= -/rb1 -/cs1 -/phi; congr Num.sqrt.
  move: (phi - _) => rhs.
  rewrite dotDl !dotDr !dotZl !dotZr (dotC G) (li_wG I) (li_GG I) !mulr0 addr0 add0r; congr (_ + _).
  have -> : dot w w = (s_cs2 s ^+ 2)^-1.
    by apply: (mulfI (x := s_cs2 s ^+ 2)); rewrite ?sqrf_eq0 // (li_ww I) divff // sqrf_eq0.
  by rewrite mulNr invrN mulrN sqrrN expr2; rfield; rewrite ?rho0 ?cs20.
have [sg zc sn2_ge] := li_sg I.
have cs_gt : 0 < cs by move: rb1_gt; rewrite rb1E pmulr_rgt0.
have phc : phi * s_cs2 s < 0.
  have -> : phi * s_cs2 s = (cs / rb1) * (s_phibar s * s_rhobar s * s_cs2 s).
    by rewrite /phi /cs1; rfield; rewrite rb10.
  by rewrite pmulr_rlt0 // divr_gt0.
have phi0 : phi != 0 by apply: contraTneq phc => ->; rewrite mul0r ltxx.
have rhc : (phi - s_sn2 s * rho * s_z s) * s_cs2 s < 0.
  rewrite mulrBl subr_lt0; apply: (lt_le_trans phc).
  by rewrite -mulrA; apply: mulr_ge0 => //; apply: mulr_ge0.
have lt2 : s_r2norm s' < s_r2norm s.
  rewrite (rp_r2 (li_rep I)) /s' /lnext /= -/rb1 -/cs1 -/sn1 fro_dot.
  rewrite (li_r I) dotDl !dotDr !dotZl !dotZr (dotC q) (li_pp I) (li_pq I) (li_qq I).
  have pos : 0 < s_phibar s * s_phibar s + s_res2 s.
    rewrite ltr_paddr -?(li_qq I) ?dotxx ?fro2_ge0 // -expr2 lt_neqAle sqr_ge0 andbT eq_sym sqrf_eq0.
    by apply: contraTneq sg => ->; rewrite !mul0r ltxx.
  rewrite !mulr0 addr0 add0r mulr1 ltr_sqrt // -expr2.
  have -> : s_phibar s ^+ 2 = (cs1 * s_phibar s) ^+ 2 + (sn1 * s_phibar s) ^+ 2.
    by rewrite exprMn [X in _ = _ + X]exprMn -mulrDl c1 mul1r.
  rewrite -addrA [s_res2 s + _]addrC ltr_add2r exprMn.
  have phb2 : 0 < (cs1 * s_phibar s) ^+ 2.
    rewrite lt_neqAle sqr_ge0 andbT eq_sym sqrf_eq0.
    by apply: contraNneq phi0 => h; rewrite /phi h mulr0.
  rewrite gtr_pmull // -subr_gt0 -E3 addrK.
  by rewrite exprn_gt0.
have wwE' : dot w w = (s_cs2 s ^+ 2)^-1.
  by apply: (mulfI (x := s_cs2 s ^+ 2)); rewrite ?sqrf_eq0 // (li_ww I) divff // sqrf_eq0.
have ltx : s_xnorm s < s_xnorm s'.
  rewrite xnE (rp_xn (li_rep I)) !fro_dot.
  have xG : dot w (x - x0) = - (s_sn2 s * s_z s) * dot w w.
    by rewrite (li_G I) dotBr dotZr (li_wG I) sub0r mulNr.
  pose t := phi / rho.
  have -> : dot (x' - x0) (x' - x0) = dot (x - x0) (x - x0) + (t ^+ 2 - t * s_sn2 s * s_z s *+ 2) * dot w w.
    rewrite /x' addrAC -/t; move: (x - x0) xG => y1 xG; rewrite dotDl !dotDr !dotZl !dotZr (dotC y1 w) xG; rring.
  have c2gt : 0 < s_cs2 s ^+ 2 by rewrite lt_neqAle sqr_ge0 andbT eq_sym sqrf_eq0.
  have inc : 0 < (t ^+ 2 - t * s_sn2 s * s_z s *+ 2) * dot w w.
    rewrite wwE' divr_gt0 // ltr_paddr //; last first.
      rewrite lt_neqAle sqr_ge0 andbT eq_sym sqrf_eq0 mulf_neq0 ?invr_eq0 //.
    rewrite oppr_ge0 pmulrn_lle0 // -(pmulr_lle0 _ c2gt).
    have -> : t * s_sn2 s * s_z s * s_cs2 s ^+ 2 = s_sn2 s * (s_z s * s_cs2 s) * (phi * s_cs2 s) / rho.
      by rewrite /t; rfield; rewrite rho0.
    rewrite pmulr_lle0 ?invr_gt0 //; apply: mulr_ge0_le0; [exact: mulr_ge0 | exact: ltW].
  by rewrite ltr_sqrt ?ltr_addl // ltr_paddl // dotxx fro2_ge0.
have anE : 0 < be -> an' ^+ 2 = fro2 (A *m row_mx V v) + d ^+ 2 *+ (k + 1).
  move=> b0; case: (gs_v S b0) => uu' _ _ _ ->.
  rewrite sqr_sqrtr ?addr_ge0 ?sqr_ge0 // (li_anV I) mul_mx_row fro2_row_mx mulrnDr mulr1n.
  have -> : fro2 (A *m v) = s_alfa s ^+ 2 + be ^+ 2.
    rewrite -dotxx (gs_u S) dotDl !dotDr !dotZl !dotZr uu'.
    have [_ Uu uu] : [/\ orthonormal U, U^T *m u = 0 & dot u u = 1].
      by case/orthonormal_row_mxP: (gi_U (li_g I)) => oU /orthonormal_cv uu Uu.
    have u0 : dot u u' = 0.
      have := gs_ort S; rewrite tr_row_mx mul_col_mx -[0]vsubmxK => /eq_col_mx[_].
      by rewrite linear0 /dot => ->; rewrite mxE.
    by rewrite (dotC u') u0 uu !mulr0 addr0 add0r !mulr1 -!expr2.
  by rring.
have ddE : s_ddnorm s' = s_ddnorm s + fro2 (rho^-1 *: w).
  by rewrite /s' /lnext /= sqr_fro.
have kmn : (k < minn m n)%N.
  have := rank_leq_row (row_mx U u); rewrite (orthonormal_rank (gi_U (li_g I))) addn1 => h1.
  have := rank_leq_row (row_mx V v); rewrite (orthonormal_rank (gi_V (li_g I))) addn1 => h2.
  by rewrite leq_min h1 h2.
have ddb mu : 0 <= mu -> (forall c : 'cV[R]_m, mu * fro2 (A^T *m c) <= fro2 (Ab *m (A^T *m c))) ->
    mu * s_ddnorm s' <= (k + 1)%N%:R.
  move=> mu0 H; rewrite ddE mulrDr natrD; apply: ler_add; first exact: (li_ddb I).
  have [c wE] := li_ws I; have [C CE] := gi_rng (li_g I).
  have wE' : rho^-1 *: w = A^T *m (rho^-1 *: (C *m c)) by rewrite wE CE -scalemxAr mulmxA.
  rewrite {1}wE'; apply: (le_trans (H _)); rewrite -wE' -scalemxAr AwE scalerA mulVf // scale1r -dotxx.
  have pp : dot ph ph = 1 by apply: rot_phph => //; exact: (li_pp I).
  have phu : dot ph uh = 0 by apply: rot_phu.
  rewrite dotDl !dotDr !dotZl !dotZr (dotC uh) phu pp !mulr0 addr0 add0r mulr1 -E3.
  case: uuh => ->; first by rewrite mulr1 -!expr2.
  by rewrite !mul0r -expr2 expr0n.
pose f := cs *: ph + sn *: uh.
have fE : Ab *m (rho^-1 *: w) = f by rewrite -scalemxAr AwE scalerA mulVf // scale1r.
have phph : dot ph ph = 1 by apply: rot_phph => //; exact: (li_pp I).
have phuh : dot ph uh = 0 by apply: rot_phu.
have ff : dot f f = 1.
  rewrite /f dotDl !dotDr !dotZl !dotZr (dotC uh) phuh phph !mulr0 addr0 add0r mulr1 -E3.
  by case: uuh => ->; rewrite ?mulr1 ?mul0r -?expr2 // expr0n.
have Duh : (Ab *m D)^T *m uh = 0.
  rewrite DE tr_col_mx /uh mul_row_col mulmx0 addr0 trmx_mul -mulmxA (gs_ort S).
  exact: mulmx0.
have Dvh : (Ab *m D)^T *m vh = 0.
  by rewrite DE tr_col_mx /vh mul_row_col mulmx0 add0r trmx_mul -mulmxA Vv mulmx0.
have Dph : (Ab *m D)^T *m ph = 0 by rewrite mulmxDr -!scalemxAr Dp Dvh !scaler0 addr0.
have Df : (Ab *m D)^T *m f = 0 by rewrite mulmxDr -!scalemxAr Dph Duh !scaler0 addr0.
pose D' := row_mx D (rho^-1 *: w).
have AD' : Ab *m D' = row_mx (Ab *m D) f by rewrite mul_mx_row fE.
have oD' : orthonormal (Ab *m D') by rewrite AD'; apply: orthonormal_snoc.
have ddD' : s_ddnorm s' = fro2 D' by rewrite ddE ddD fro2_row_mx.
have varD' : s_var s' = ofcv (if cv then rowsq D' else 0).
  by rewrite /s' /= /y /y0; case: (cv) => //; rewrite rowsq_snoc.
have [ZU [aU UE]] := li_U I.
have UE' : 0 < be -> row_mx (row_mx U u) u' =
   A *m row_mx ZU (be^-1 *: (v - s_alfa s *: (ZU *m col_mx 0 1%:M))) +
   (b - A *m x0) *m row_mx aU (- (be^-1 * s_alfa s) *: (aU *m col_mx 0 1%:M)).
  move=> b0; rewrite !mul_mx_row add_row_mx -UE; congr row_mx.
  have uE : u = A *m (ZU *m col_mx 0 1%:M) + (b - A *m x0) *m (aU *m col_mx 0 1%:M).
    by rewrite !mulmxA -mulmxDl -UE mul_row_col mulmx0 mulmx1 add0r.
  rewrite -!scalemxAr mulmxBr -scalemxAr scaleNr -scalerA -scalerBr -addrA -opprD -scalerDr -uE.
  by rewrite (gs_u S) addrC addKr scalerA mulVf ?scale1r // gt_eqF.
have rngD' : exists C, D' = A^T *m C.
  have [c wE] := li_ws I; have [C CE] := gi_rng (li_g I).
  by exists (row_mx CD (rho^-1 *: (C *m c))); rewrite /D' mul_mx_row -rngD -scalemxAr wE CE mulmxA.
have [zb [tb bE']] := li_b I.
have bE'' : b - A *m x0 = A *m (zb + (tb / s_alfa s) *: v) + (- (tb * be / s_alfa s)) *: u'.
  rewrite bE' mulmxDr -addrA; congr (_ + _); rewrite -scalemxAr (gs_u S) scalerDr !scalerA.
  rewrite divfK ?gt_eqF ?(gi_al (li_g I)) // -addrA -scalerDl.
  have -> : tb / s_alfa s * be + - (tb * be / s_alfa s) = 0 by rewrite mulrAC subrr.
  by rewrite scale0r addr0.
have r2ge : 0 <= s_r2norm s' by apply: sqrtr_ge0.
have rn2 : s_r2norm s' ^+ 2 = fro2 (b - A *m x') + d ^+ 2 * fro2 (x' - x0).
  rewrite sqr_sqrtr; last by rewrite -rr dotxx fro2_ge0.
  by rewrite -rr dotxx /rb fro2_col_mx fro2N fro2Z.
have xxs0 : 0 <= s_xxnorm s by rewrite -(li_GG I) dotxx fro2_ge0.
have gbs0 : 0 < (- s_cs2 s * rho) ^+ 2.
  by rewrite lt_neqAle sqr_ge0 andbT eq_sym sqrf_eq0 mulf_neq0 ?oppr_eq0.
have xx0 : 0 <= s_xxnorm s' by rewrite addr_ge0 ?sqr_ge0.
have gms0 : 0 < (- s_cs2 s * rho) ^+ 2 + (sn * al') ^+ 2 by rewrite ltr_paddr ?sqr_ge0.
have xxlt : (s_xxnorm s' <= fro2 (x' - x0)) /\ ((s_xxnorm s' == fro2 (x' - x0)) = (s_arnorm s' == 0)).
  rewrite -sqr_fro -xnE sqr_sqrtr ?addr_ge0 ?sqr_ge0 // ler_add2l.
  rewrite (inj_eq (addrI _)) !expr_div_n.
  have rhs2 : 0 < (phi - s_sn2 s * rho * s_z s) ^+ 2.
    rewrite lt_neqAle sqr_ge0 andbT eq_sym sqrf_eq0.
    by apply: contraTneq rhc => ->; rewrite mul0r ltxx.
  rewrite sqr_sqrtr ?(ltW gms0) // ler_pmul2l // lef_pinv ?posrE // ler_addl sqr_ge0.
  split=> //; rewrite (inj_eq (mulfI (lt0r_neq0 rhs2))) (inj_eq invr_inj) -[X in _ == X]addr0 (inj_eq (addrI _)) sqrf_eq0.
  rewrite /s' /lnext /= -/rb1 -/cs1 -/phi normrM !mulf_eq0 !normr_eq0 (negbTE phi0) orbF.
  by rewrite orbC.
have [xxle xxeq] := xxlt.
have r1ge : fro2 (b - A *m x') <= s_r2norm s' ^+ 2 - d ^+ 2 * s_xxnorm s'.
  by rewrite rn2 -addrA ler_addl -mulrBr mulr_ge0 ?sqr_ge0 ?subr_ge0.
have r10 := le_trans (fro2_ge0 _) r1ge.
have r1E : s_r1norm s' = Num.sqrt (s_r2norm s' ^+ 2 - d ^+ 2 * s_xxnorm s').
  transitivity (if s_r2norm s' ^+ 2 - d ^+ 2 * s_xxnorm s' < 0
    then - Num.sqrt `|s_r2norm s' ^+ 2 - d ^+ 2 * s_xxnorm s'|
    else Num.sqrt `|s_r2norm s' ^+ 2 - d ^+ 2 * s_xxnorm s'|); first by [].
  by rewrite ltNge r10 /= ger0_norm.
have rp : rep cv (k + 1) s' x'.
  have anb : an' <= fro Ab.
    case: (ltrgtP 0 be) (gs_be S) => // b0 _; last first.
      by case: (gs_0 S (esym b0)) => _ _ _ ->; apply: (rp_an (li_rep I)).
    rewrite -(ger0_norm an0) -sqrtr_sqr anE // /fro ler_wsqrtr //.
    exact: fro2_Ab (gi_V (li_g I)).
  split=> //.
  - by rewrite fro_dot rr.
  - by rewrite mulr_ge0 ?sqrtr_ge0.
  - move=> mu mu0 H; have -> : s_acond s' = an' * Num.sqrt (s_ddnorm s') by [].
    have dd0 : 0 <= s_ddnorm s' by rewrite ddE addr_ge0 ?fro2_ge0 // (li_dd I).
    rewrite exprMn sqr_sqrtr // mulrCA -mulr_natr ler_pmul ?sqr_ge0 ?mulr_ge0 //.
      by rewrite -sqr_fro ler_pexpn2r ?nnegrE ?fro_ge0.
    by apply: (le_trans (ddb _ mu0 H)); rewrite ler_nat addn1.
  - have [c cE] := rp_rng (li_rep I); have [c' wE] := li_ws I; have [C CE] := gi_rng (li_g I).
    exists (c + (phi / rho) *: (C *m c')).
    by rewrite /x' addrAC cE mulmxDr -scalemxAr wE CE mulmxA.
  - move=> d0; rewrite /s' /lnext /= !d0.
    set rn := Num.sqrt (_ + (_ + _)); rewrite (expr0n _ 2) mul0r subr0 ltNge sqr_ge0 /= normrX.
    by rewrite ger0_norm ?sqrtr_ge0 // sqrtr_sqr ger0_norm ?sqrtr_ge0.
  - rewrite r1E; apply/andP; split; first exact: ler_wsqrtr.
    rewrite -[X in _ <= X](ger0_norm r2ge) -sqrtr_sqr ler_wsqrtr //.
    by rewrite ler_subl_addr ler_addl mulr_ge0 ?sqr_ge0.
  - rewrite r1E (_ : (k + 1 == 0)%N = false) ?addn1 // orFb /fro eqr_sqrt ?fro2_ge0 // rn2 -addrA -mulrBr -[X in _ == X]addr0.
    by rewrite (inj_eq (addrI _)) mulf_eq0 sqrf_eq0 subr_eq0 [fro2 _ == _]eq_sym xxeq.
  - by exists D'; split=> //; rewrite /fro -ddD'.
  - case: (ltrgtP 0 be) (gs_be S) => // b0 _.
      left; exists (row_mx V v); split; [exact: (gi_V (li_g I)) | exact: anE|] => _.
      case: (gs_v S b0) => uu' _ _ _ _.
      exists (row_mx (row_mx U u) u'); eexists; eexists; split; last exact: UE'.
      by apply: orthonormal_snoc; [exact: (gi_U (li_g I)) | exact: (gs_ort S) |].
    right; exists k, V, v; split; [by rewrite addn1 | exact: (gi_V (li_g I)) | | |].
    - apply/eqP => Av0; have := gs_u S; rewrite Av0 -b0 scale0r addr0 => /esym/eqP.
      rewrite scaler_eq0 (gt_eqF (gi_al (li_g I))) /= => /eqP u0.
      case/orthonormal_row_mxP: (gi_U (li_g I)) => _ /orthonormal_cv; rewrite u0 dot0l => /esym/eqP.
      by rewrite oner_eq0.
    - by rewrite (_ : s_anorm s' = an') //; case: (gs_0 S (esym b0)) => _ _ _ ->; exact: (li_anV I).
    - by eexists; rewrite bE'' -b0 mulr0 mul0r oppr0 scale0r addr0.
  - exists (row_mx V v); split; first exact: (li_K I).
      have [c GE] := li_Gs I; have [c' wE] := li_ws I.
      have -> : x' - x0 = G + ((phi - s_sn2 s * rho * s_z s) / rho) *: w.
        rewrite /x' addrAC (li_G I) -addrA -scaleNr -scalerDl; congr (_ + _ *: _).
        by rfield; rewrite rho0.
      by eexists; rewrite {1}GE {1}wE scalemxAr -mulmxDr.
    rewrite rE mulmxDr Abq' addr0 -scalemxAr.
    case: (ltrgtP 0 be) (gs_be S) => // b0 _; last first.
      have sn0 : sn = 0 by move/esym/eqP: beE; rewrite -b0 mulf_eq0 (negbTE rho0) => /eqP.
      by rewrite sn0 mul0r scale0r mulmx0.
    case: (gs_v S b0) => _ _ vort _ _.
    by rewrite Abp' // -!scalemxAr vort !scaler0.
exists s', x'; split=> // ar0.
have al_gt : 0 < al'.
  rewrite lt_neqAle eq_sym (gs_al S) andbT.
  by apply: contraNneq ar0 => a0; rewrite /s' /lnext /= a0 mul0r.
have sn0 : sn != 0.
  by apply: contraNneq ar0 => a0; rewrite /s' /lnext /= a0 mul0r normr0 mulr0.
have be_gt : 0 < be.
  by rewrite lt_neqAle eq_sym (gs_be S) andbT beE mulf_neq0.
have [uu' Atu' vort vv' _] := gs_v S be_gt; have {}vv' := vv' al_gt.
pose theta := sn * al'.
pose gb := - s_cs2 s * rho; pose gm := Num.sqrt (gb ^+ 2 + theta ^+ 2).
have gb0 : gb != 0 by rewrite mulf_neq0 ?oppr_eq0.
have gb20 : 0 < gb ^+ 2 by rewrite lt_neqAle sqr_ge0 andbT eq_sym sqrf_eq0.
have gm20 : 0 < gb ^+ 2 + theta ^+ 2 by rewrite ltr_paddr ?sqr_ge0.
have gm2 : gm ^+ 2 = gb ^+ 2 + theta ^+ 2 by rewrite sqr_sqrtr // ltW.
have gm0 : gm != 0 by rewrite gt_eqF // sqrtr_gt0.
pose rhs := phi - s_sn2 s * rho * s_z s.
pose w' := v' + (- theta / rho) *: w.
pose G' := G + (rhs / gm) *: (- (gb / gm * s_cs2 s) *: w + (theta / gm) *: v').
have wv' : dot w v' = 0 by case: (li_ws I) => c ->; apply: dot_span.
have Gv' : dot G v' = 0 by case: (li_Gs I) => c ->; apply: dot_span.
have wwE : dot w w = (s_cs2 s ^+ 2)^-1.
  by apply: (mulfI (x := s_cs2 s ^+ 2)); rewrite ?sqrf_eq0 // (li_ww I) divff // sqrf_eq0.
exists w', u', v', p', q', G'; split=> //.
- exact: gstep_inv (li_g I) S be_gt al_gt.
- rewrite /w' mulmxDr -scalemxAr AwE rot_Aw' //= -/p'; congr (_ + _).
  rewrite /Ab mul_col_mx mul_scalar_mx scale_col_mx opp_col_mx add_col_mx.
  by rewrite scaler0 subr0.
- exact: Abp'.
- apply: rot_pp => //; [exact: (li_pp I) | by rewrite dot_col dot0l addr0].
- apply: rot_pq => //; [exact: (li_pp I) | exact: (li_pq I)].
- rewrite rot_qq //; [by rewrite (li_qq I) | exact: (li_pp I) | exact: (li_pq I)].
- have [a [c pE]] := li_ps I.
  exists (col_mx (sn * cs1 *: a) (- cs)%:M), (col_mx (sn * cs1 *: c) (sn * sn1)%:M).
  rewrite /p' /ph pE /uh /vh !mul_row_col !mul_mx_scalar -!scalemxAr.
  rewrite !scale_col_mx !add_col_mx !scale_col_mx opp_col_mx add_col_mx.
  by congr col_mx; rewrite !scaler0 ?addr0 ?subr0 ?scalerDr ?scalerA ?scaleNr.
- have [a [c pE]] := li_ps I; have [a' [c' qE]] := li_qs I.
  set t := sn1 * s_phibar s.
  exists (col_mx (a' + (t * sn1) *: a) 0), (col_mx (c' + (t * sn1) *: c) (- (t * cs1))%:M).
  rewrite /q' /g pE qE /vh -/t !mul_row_col !mul_mx_scalar !mulmxDr -!scalemxAr mulmx0 addr0.
  rewrite !scale_col_mx opp_col_mx add_col_mx scale_col_mx add_col_mx.
  congr col_mx; rewrite ?scaler0 ?subr0 ?scalerA // scalerBr !scalerA scaleNr addrA //.
- by rewrite mulf_neq0 ?oppr_eq0 // gt_eqF.
- have -> : x' - x0 = G + (rhs / rho) *: w.
    rewrite /x' addrAC (li_G I) -addrA -scaleNr -scalerDl; congr (_ + _ *: _).
    by rewrite /rhs; rfield; rewrite rho0.
  rewrite /s' /lnext /= -/rb1 -/cs1 -/phi -/theta -/gb -/gm -/rhs /G' /w'.
  rewrite (alg_z rhs rho0 gm0 gm2) -/gb.
  move: (rhs / gm) (gb / gm) (theta / gm) => z1 z2 z3.
  by vring.
- rewrite /s' /lnext /= -/rb1 -/cs1 -/phi -/theta -/gb -/gm -/rhs /G'.
  rewrite !(dotDl, dotDr, dotZl, dotZr) (dotC v' w) (dotC G w) (dotC v' G) wv' Gv' (li_wG I) vv' wwE (li_GG I).
  rewrite -[RHS](_ : s_xxnorm s + (rhs / gm) ^+ 2 * ((gb ^+ 2 + theta ^+ 2) / gm ^+ 2) = _); last first.
    by rewrite -gm2 divff ?sqrf_eq0 // mulr1.
  by rewrite !mulr0 !addr0; move: gm0; clear -cs20; move: gm => gm gm0; rfield; rewrite ?gm0 ?cs20.
- rewrite /G' /w' !(dotDl, dotDr, dotZl, dotZr) (dotC v' w) (dotC v' G) wv' Gv' (li_wG I) vv' wwE /gb.
  by rewrite !mulr0 !addr0 !add0r; rfield; rewrite ?rho0 ?cs20 ?gm0.
- rewrite /s' /lnext /= -/theta -/gb -/gm.
  rewrite /w' !(dotDl, dotDr, dotZl, dotZr) (dotC v' w) wv' vv' wwE.
  transitivity ((gb ^+ 2 + theta ^+ 2) / gm ^+ 2); last by rewrite -gm2 divff ?sqrf_eq0.
  by rewrite /gb; rfield; rewrite ?rho0 ?cs20 ?gm0.
- have [c GE] := li_Gs I; have [c' wE] := li_ws I.
  eexists (col_mx (c + (rhs / gm) *: (- (gb / gm * s_cs2 s) *: c')) ((rhs / gm) * (theta / gm))%:M).
  rewrite mul_row_col mul_mx_scalar mulmxDr -!scalemxAr -GE -wE /G'.
  by rewrite scalerDr !scalerA addrA.
- have [c' wE] := li_ws I.
  exists (col_mx ((- theta / rho) *: c') 1%:M).
  by rewrite mul_row_col mulmx1 -scalemxAr -wE addrC.
- by rewrite /s' /lnext /= addr_ge0 ?sqr_ge0 // (li_dd I).
- exact: anE.
- exists D'; split=> //.
  + split=> //; rewrite AD' tr_row_mx mul_col_mx.
    have -> : (Ab *m D)^T *m p' = 0 by rewrite mulmxBr -!scalemxAr Dph Duh !scaler0 subr0.
    suff -> : f^T *m p' = 0 by rewrite col_mx0.
    rewrite mul_tr_dot /f /p' dotDl !dotBr !dotZl !dotZr (dotC uh ph) phuh phph.
    have -> : dot uh uh = 1 by rewrite dot_col dot0l addr0.
    by rewrite !mulr0 !mulr1 subr0 sub0r (mulrC cs) subrr raddf0.
  + have [a [c pE]] := li_ps I.
    exists (block_mx aD (cs * cs1 *: a) 0 sn%:M), (block_mx cD (cs * cs1 *: c) 0 (cs * sn1)%:M).
    rewrite AD' DE /f /ph pE /uh /vh !mul_row_block !mulmx0 !addr0 !scale_col_mx !add_col_mx !scale_col_mx.
    rewrite scaler0 !addr0 !mul_mx_scalar -!scalemxAr.
    by rewrite add_col_mx scaler0 addr0 scalerDr !scalerA -block_mxEh -block_mxEv.
- by eexists _, _; exact: UE'.
- by eexists _, _; exact: bE''.
- exact: kbasis_step (li_g I) S be_gt al_gt (gstep_inv (li_g I) S be_gt al_gt) (li_K I).
- have gm_gt : 0 < gm by rewrite sqrtr_gt0.
  have sn_gt : 0 < sn by move: be_gt; rewrite beE pmulr_rgt0.
  rewrite /s' /lnext /= -/rb1 -/cs1 -/phi -/theta -/gb -/gm -/rhs; split.
  + have -> : sn * (cs1 * s_phibar s) * (- cs * al') * (gb / gm) = (sn * al' * rho / gm) * (phi * s_cs2 s).
      by rewrite /gb /phi; rring.
    by rewrite pmulr_rlt0 // divr_gt0 // !mulr_gt0.
  + have -> : rhs / gm * (gb / gm) = - (rhs * s_cs2 s) * (rho / gm ^+ 2).
      by rewrite /gb; rfield; rewrite gm0.
    by apply: mulr_ge0; [rewrite oppr_ge0 ltW | rewrite divr_ge0 // sqr_ge0].
  + by apply: divr_ge0; [apply: mulr_ge0; apply: ltW | exact: ltW].
Qed.

Lemma istop0 ctol atol (t : @lsqr_tests R) :
  lsqr_istop false atol ctol t = 0%N -> 0 < t_test2 t /\ ~~ (t_test1 t <= t_rtol t).
Proof.
rewrite /lsqr_istop /=; case: ifP => // _; case: ifP => // _; case: ifP => // _.
case: ifP => // _; case: (lerP (1 + t_test2 t)) => // H; case: ifP => // _ _.
by rewrite ltr_addl in H.
Qed.

Lemma lin_dim cv k (U : 'M[R]_(m, k)) (V : 'M[R]_(n, k)) s x w u v p q G :
  linv cv U V s x w u v p q G -> (k < minn m n)%N.
Proof.
move=> I; have := rank_leq_row (row_mx U u); rewrite (orthonormal_rank (gi_U (li_g I))).
have := rank_leq_row (row_mx V v); rewrite (orthonormal_rank (gi_V (li_g I))).
by rewrite leq_min; lia.
Qed.

Lemma lsqr_loopP atol btol bn ctol cv : 0 < bn ->
  forall todo k (U : 'M[R]_(m, k)) (V : 'M[R]_(n, k)) s x w u v p q G log,
  linv cv U V s x w u v p q G ->
  exists s' istop es x',
   [/\ lsqr_loop op d atol btol bn ctol cv todo s log = Ok (s', istop, log ++ es) /\ rep cv (size es + k) s' x',
       (0 < size es)%N -> more s s',
       (size es <= todo)%N /\ (size es + k <= minn m n)%N,
       (istop = 0%N /\ (todo = 0%N /\ s' = s)) \/
       [/\ istop != 0%N, istop = lsqr_istop (size es == todo)%N atol ctol (tests_of atol btol bn s') & (0 < size es)%N] &
       (s_arnorm s' != 0 -> (size es + k < minn m n)%N) /\
       forall i, (i < size es)%N -> exists s1 istop1 x1,
         [/\ lsqr_loop op d atol btol bn ctol cv i s log = Ok (s1, istop1, log ++ take i es),
             rep cv (i + k) s1 x1, nth 0 es i = s_arnorm s1 & more s1 s']].
Proof.
move=> bn0; elim=> [|todo IH] k U V s x w u v p q G log I.
  exists s, 0%N, [::], x; split=> //=.
  - by rewrite cats0; split=> //; apply: (li_rep I).
  - by have := lin_dim I; lia.
  - by left.
  - by split=> // _; rewrite add0n; apply: lin_dim I.
have [s' [x' [E rp le nx]]] := lsqr_stepP atol btol I bn0.
have kk := lin_dim I.
have log0 s1 istop1 e1 log1 : Ok (s1, istop1, rcons log e1 ++ log1) = Ok (s1, istop1, log ++ e1 :: log1)
    :> res (@lsqr_st R * nat * seq R) by rewrite cat_rcons.
case istopE : (@lsqr_istop R (rcf_ops R) (todo == 0)%N atol ctol (tests_of atol btol bn s')) => [|istop].
  have t0 : (todo == 0)%N = false.
    apply/negP => /eqP t0; move: istopE; rewrite t0 eqxx /lsqr_istop /=.
    by do 6! [case: ifP => // _].
  rewrite t0 in istopE; have [t20 _] := istop0 istopE.
  have ar0 : s_arnorm s' != 0.
    by apply: contraTneq t20 => a0; rewrite /= a0 mul0r ltxx.
  have [w' [u' [v' [p' [q' [G' I']]]]]] := nx ar0.
  have [s2 [st [es [x2 [[E2 rp2] le2 [sz1 sz2] st2 [ar2 pre2]]]]]] :=
    IH _ _ _ _ _ _ _ _ _ _ _ (rcons log (s_arnorm s)) I'.
  have step j : lsqr_loop op d atol btol bn ctol cv j.+1 s log =
      if j == 0%N then Ok (s', lsqr_istop true atol ctol (tests_of atol btol bn s'), rcons log (s_arnorm s))
      else lsqr_loop op d atol btol bn ctol cv j s' (rcons log (s_arnorm s)).
    case: j => [|j]; rewrite [LHS]/= E [LHS]/=; last by rewrite istopE.
    case st1 : (@lsqr_istop R (rcf_ops R) true _ _ _) => [|//]; move: st1; rewrite /lsqr_istop /=.
    by do 6! [case: ifP => // _].
  exists s2, st, (s_arnorm s :: es), x2; split.
  - by rewrite step t0 E2 log0 /= addSnnS -(addn1 k).
  - by move=> _; case: (posnP (size es)) => [e0|/le2]; [case: st2 => [[_ [t1 _]]|[_ _]]; [rewrite t1 in t0 | rewrite e0] | exact: more_trans].
  - by rewrite /=; split; lia.
  - right; case: st2 => [[-> [todo0 _]]|[st0 stE _]]; first by rewrite todo0 eqxx in t0.
    by split.
  - split; first by move=> /ar2 /=; lia.
    case=> [|i] /= lt.
      exists s, 0%N, x; split=> //; [by rewrite /= cats0| exact: (li_rep I) |].
      by case: (posnP (size es)) => [e0|/le2]; [case: st2 => [[_ [t1 _]]|[_ _]]; [rewrite t1 in t0 | rewrite e0] | exact: more_trans].
    case: i => [|i] in lt *.
      have [s1 [st1 [x1 [[<- _ _] rp1 nE le1]]]] := pre2 0%N lt.
      rewrite -/(lsqr_loop op d atol btol bn ctol cv 1 s log) step eqxx.
      eexists s', _, x1; split=> //; first by rewrite take0 -cat_rcons cats0.
      by move: rp1; rewrite add0n addn1 add1n.
    have lt' : (i.+1 < size es)%N by lia.
    have [s1 [st1 [x1 [E1 rp1 nE le1]]]] := pre2 _ lt'.
    rewrite -/(lsqr_loop op d atol btol bn ctol cv i.+2 s log) step /=.
    by exists s1, st1, x1; split=> //; rewrite -?cat_rcons // addSnnS -(addn1 k).
have stepj j : (0 < j)%N -> lsqr_loop op d atol btol bn ctol cv todo.+1 s log =
    Ok (s', istop.+1, rcons log (s_arnorm s)) by move=> _; rewrite /= E /= istopE.
exists s', istop.+1, [:: s_arnorm s], x'; split=> //.
- by rewrite (stepj 1%N) // cats1 /= add1n -(addn1 k).
- by right; split=> //=; rewrite -istopE eqSS eq_sym.
- split.
    by move=> /nx[w' [u' [v' [p' [q' [G' I']]]]]]; have := lin_dim I'; rewrite /=; lia.
  case=> [|//] _; exists s, 0%N, x; split=> //=; [by rewrite cats0 | exact: (li_rep I)].
Qed.

Lemma istop_last atol ctol (t : @lsqr_tests R) : lsqr_istop true atol ctol t != 0%N.
Proof. by rewrite /lsqr_istop /=; do 6! [case: ifP => // _]. Qed.

(** A larger iteration limit gives the same iterate, or a smaller residual and a
    longer step from the start. *)
Lemma lsqr_loop_ge atol btol bn ctol cv todo k (U : 'M[R]_(m, k)) (V : 'M[R]_(n, k))
    s x w u v p q G log s' i l : 0 < bn ->
  linv cv U V s x w u v p q G ->
  lsqr_loop op d atol btol bn ctol cv todo s log = Ok (s', i, l) ->
  (s' = s /\ l = log) \/ (more s s' /\ (size log < size l)%N).
Proof.
move=> bn0 I E; have [s1 [i' [es [x' [[E' _] le _ st _]]]]] := lsqr_loopP atol btol ctol bn0 todo log I.
move: E' le st; rewrite E => -[<- _ ->].
case: es => [|e es] le st.
  by left; rewrite cats0; case: st => [[_ [_ ->]]|[]].
by right; split; [exact: le | rewrite size_cat /= addnS ltnS leq_addr].
Qed.

Lemma lsqr_loop_mono atol btol bn ctol cv : 0 < bn ->
  forall t1 t2 k (U : 'M[R]_(m, k)) (V : 'M[R]_(n, k)) s x w u v p q G log s1 i1 l1 s2 i2 l2,
  linv cv U V s x w u v p q G -> (t1 <= t2)%N ->
  lsqr_loop op d atol btol bn ctol cv t1 s log = Ok (s1, i1, l1) ->
  lsqr_loop op d atol btol bn ctol cv t2 s log = Ok (s2, i2, l2) ->
  (s2 = s1 /\ l2 = l1) \/ (more s1 s2 /\ (size l1 < size l2)%N).
Proof.
move=> bn0; elim=> [|t1 IH] t2 k U V s x w u v p q G log s1 i1 l1 s2 i2 l2 I le12 E1 E2.
  by case: E1 => <- _ <-; exact: (lsqr_loop_ge bn0 I E2).
case: t2 => [//|t2] in le12 E2.
have [s' [x' [E rp le nx]]] := lsqr_stepP atol btol I bn0.
have nx' : lsqr_istop false atol ctol (tests_of atol btol bn s') = 0%N ->
    exists w' u' v' p' q' G', linv cv (row_mx U u) (row_mx V v) s' x' w' u' v' p' q' G'.
  move=> /istop0[t20 _]; apply: nx.
  by apply: contraTneq t20 => a0; rewrite /= a0 mul0r ltxx.
move: E1 E2; rewrite /= E /=.
case: (t1 == 0)%N / eqP => [t10|/eqP t10].
  rewrite istop_last => -[<- _ <-]; case: (t2 == 0)%N / eqP => [_|/eqP t20].
    by rewrite istop_last => -[<- _ <-]; left.
  case: eqP => [st0|_] /= E2; last by case: E2 => <- _ <-; left.
  have [w' [u' [v' [p' [q' [G' I']]]]]] := nx' st0.
  exact: (lsqr_loop_ge bn0 I' E2).
have -> : (t2 == 0)%N = false by apply/negP => /eqP; lia.
case: eqP => [st0|_] /=; last by move=> [<- _ <-] [<- _ <-]; left.
have [w' [u' [v' [p' [q' [G' I']]]]]] := nx' st0.
by move=> E1 E2; apply: (IH t2) I' _ E1 E2; lia.
Qed.

Lemma fro2_scalar (c : R) : fro2 (c%:M : 'M[R]_n) = c ^+ 2 *+ n.
Proof. by rewrite -scalemx1 fro2Z fro2_tr trmx1 mul1mx mxtrace1 mulr_natr. Qed.

End Run.

Lemma ortho0 m (X : 'M[R]_(m, 0)) : orthonormal X.
Proof. by rewrite /orthonormal; apply/matrixP; case. Qed.
Lemma rowsq0 n (X : 'M[R]_(n, 0)) : rowsq X = 0.
Proof. by apply/matrixP => i j; rewrite !mxE big_ord0. Qed.

Lemma kbasis0 m n (A : 'M[R]_(m, n)) b x0 : kbasis A b x0 (0 : 'M[R]_(n, 0)).
Proof. by split=> // c; exists (fun=> 0); rewrite mul0mx big_ord0. Qed.

Lemma linv0 m n (A : 'M[R]_(m, n)) (b : 'cV[R]_m) (x0 : 'cV[R]_n) d cv :
  let r := b - A *m x0 in let be := fro r in let u := be^-1 *: r in
  let vt := A^T *m u in let al := fro vt in let v := al^-1 *: vt in
  0 < be -> 0 < al ->
  linv A b x0 d cv (0 : 'M[R]_(m, 0)) (0 : 'M[R]_(n, 0))
   (LsqrSt (ofcv x0) (ofcv v) (ofcv u) (ofcv v) al al be 0 0 0 0 0 0 0 (- 1) 0 (al * be) be be
     (ofcv (0 : 'cV[R]_n))) x0 v u v (col_mx u 0) 0 0.
Proof.
move=> r be u vt al v be0 al0.
have uu : dot u u = 1 by apply: fro_unit; rewrite -fro_eq0 gt_eqF.
have vv : dot v v = 1 by apply: fro_unit; rewrite -fro_eq0 gt_eqF.
have rE : r = be *: u by rewrite scalerA divff ?scale1r ?gt_eqF.
have vE : A^T *m u = al *: v by rewrite scalerA divff ?scale1r ?gt_eqF.
have rbE : rb A b x0 d x0 = be *: col_mx u 0.
  by rewrite /rb -/r rE scale_col_mx subrr !scaler0 oppr0.
clearbody u v.
have oU : orthonormal (row_mx (0 : 'M[R]_(m, 0)) u).
  apply: orthonormal_snoc => //; [by rewrite /orthonormal; apply/matrixP; case | by rewrite flatmx0].
have oV : orthonormal (row_mx (0 : 'M[R]_(n, 0)) v).
  apply: orthonormal_snoc => //; [by rewrite /orthonormal; apply/matrixP; case | by rewrite flatmx0].
split=> //=.
- split=> //=.
  + by rewrite fro_dot rbE dotZl dotZr dot_col uu dot0l addr0 mulr1 -expr2 sqrtr_sqr ger0_norm // ltW.
  + rewrite rbE -scalemxAr Ab_uh vE fro_dot !dotZl !dotZr vv mulr1.
    rewrite mulrC mulrA [X in Num.sqrt X](_ : _ = (be * al) ^+ 2); last by rring.
    by rewrite sqrtr_sqr ger0_norm // mulr_ge0 // ltW.
  + by rewrite subrr fro0.
  + exact: fro_ge0.
  + by move=> mu _ _; rewrite expr0n mulr0 mulrn_wge0 ?fro2_ge0.
  + by exists 0; rewrite subrr mulmx0.
  + by rewrite -/r -/be !lexx.
  + by rewrite -/r -/be eqxx.
  + by exists 0; split=> [|||]; [exact: ortho0 | rewrite mul0r | rewrite rowsq0 if_same | exists 0; rewrite mulmx0].
  + left; exists 0; split; [exact: ortho0 | by rewrite expr0n thinmx0 fro20 addr0 |] => _.
    by exists (row_mx 0 u), 0, (row_mx 0 be^-1%:M); split=> //; rewrite mulmx0 add0r mul_mx_row mulmx0 mul_mx_scalar -/r rE scalerA mulVf ?scale1r // gt_eqF.
  + exists 0; split; [exact: kbasis0 | by exists 0; rewrite mulmx0 subrr | by rewrite flatmx0].
- split=> //; [by exists 0, 0; rewrite !thinmx0 | by exists 0; rewrite !thinmx0| |].
  - by exists 0; rewrite mulmx0 add0r.
  - exists (row_mx 0 (al^-1 *: u)); rewrite mul_mx_row mulmx0 -scalemxAr vE scalerA.
    by rewrite mulVf ?scale1r // gt_eqF.
- by rewrite addr0.
- rewrite /Ab mul_col_mx mul_scalar_mx scale_col_mx add_col_mx scaler0 add0r.
  by rewrite [_ *: u + _]addrC subrK.
- by rewrite Ab_uh.
- by rewrite mulmx0.
- by rewrite dot_col uu dot0l addr0.
- by rewrite dot0r.
- by rewrite dot0l.
- by exists (col_mx 0 1%:M), 0; rewrite mul_row_col !mulmx0 mulmx1 add0r.
- by exists 0, 0; rewrite !mulmx0 col_mx0.
- by rewrite gt_eqF.
- by rewrite mulr0 scale0r subrr subr0.
- by rewrite dot0l.
- by rewrite dot0r.
- by rewrite sqrrN expr1n mul1r.
- by exists 0; rewrite mulmx0.
- by exists (col_mx 0 1%:M); rewrite mul_row_col mulmx0 mulmx1 add0r.
- by move=> mu _ _; rewrite mulr0.
- by rewrite expr0n thinmx0 fro20 addr0.
- exists 0; split; first by split; [exact: ortho0 | rewrite flatmx0].
  + by exists 0, 0; rewrite !thinmx0.
  + by rewrite fro20.
  + by rewrite rowsq0 if_same.
  + by exists 0; rewrite mulmx0.
- exists 0, (row_mx 0 be^-1%:M); rewrite mulmx0 add0r mul_mx_row mulmx0 mul_mx_scalar -/r rE scalerA.
  by rewrite mulVf ?scale1r // gt_eqF.
- by exists 0, be; rewrite mulmx0 add0r -/r rE.
- have k0 : kvec A b x0 0 = (be * al) *: v by rewrite /kvec /= -/r rE -scalemxAr vE scalerA.
  split=> [c|[|//] _].
    exists (fun=> (be * al)^-1 * dsubmx c 0 0); rewrite big_ord1 -{1}[c]vsubmxK mul_row_col mul0mx add0r.
    rewrite [dsubmx c]mx11_scalar mul_mx_scalar k0 scalerA -mx11_scalar; congr (_ *: _).
    by rewrite mulrAC mulVf ?mul1r ?mulf_neq0 ?gt_eqF.
  by exists (col_mx 0 (be * al)%:M); rewrite mul_row_col mulmx0 mul_mx_scalar add0r.
- by split; rewrite ?mul0r // mulrN1 oppr_lt0 mulr_gt0.
Qed.

(** ** The function [lsqr]. *)
Section Top.
Variables (m n : nat) (A : 'M[R]_(m, n)) (op : linop R).
Hypothesis opA : lin_is op A.
Variables (b : 'cV[R]_m) (start : option 'cV[R]_n) (d atol btol conlim : R) (cv : bool).

(** The starting point. *)
Definition lsqr_x0 : 'cV[R]_n := if start is Some x then x else 0.
Let xs := lsqr_x0.
Let ctol : R := if 0 < conlim then 1 / conlim else 0.

(** What the returned tuple tells about the returned iterate [x]. *)
Record lsqr_ok (L : nat) (out : @lsqr_out R) (x : 'cV[R]_n) : Prop := LsqrOk {
  lq_x : q_x out = ofcv x;
  lq_r2 : q_r2norm out = fro (rb A b xs d x);
  lq_r1 : d = 0 -> q_r1norm out = q_r2norm out;
  lq_r1b : fro (b - A *m x) <= q_r1norm out <= q_r2norm out;
  lq_r1x : (q_r1norm out == fro (b - A *m x)) =
     [|| q_itn out == 0%N, d == 0 | (Ab A d)^T *m rb A b xs d x == 0];
  lq_D : exists D : 'M[R]_(n, q_itn out), [/\ orthonormal (Ab A d *m D), q_acond out = q_anorm out * fro D,
     q_var out = ofcv (if cv then rowsq D else 0) & exists C, D = A^T *m C];
  lq_V : anorm_is A b xs d (q_itn out) (q_anorm out);
  lq_K : exists V : 'M[R]_(n, q_itn out), [/\ kbasis A b xs V, exists c, x - xs = V *m c &
     V^T *m ((Ab A d)^T *m rb A b xs d x) = 0];
  lq_xn : q_xnorm out = fro (x - xs);
  lq_an0 : 0 <= q_anorm out;
  lq_an : q_anorm out <= fro (Ab A d);
  lq_acb : forall mu, 0 <= mu -> (forall c : 'cV[R]_m, mu * fro2 (A^T *m c) <= fro2 (Ab A d *m (A^T *m c))) ->
     mu * q_acond out ^+ 2 <= fro2 (Ab A d) *+ minn m n;
  lq_rng : exists c, x - xs = A^T *m c;
  lq_le : fro (rb A b xs d x) <= fro (rb A b xs d xs);
  lq_itn : (q_itn out <= L)%N /\ (q_itn out <= minn m n)%N;
  lq_dim : (Ab A d)^T *m rb A b xs d x != 0 -> (q_itn out < minn m n)%N }.

Lemma lsqr_unfold lim :
  let r := b - A *m xs in let be := fro r in let u := be^-1 *: r in
  let vt := A^T *m u in let al := fro vt in let v := al^-1 *: vt in
  lsqr op (ofcv b) d atol btol conlim lim cv (omap (@ofcv R n) start) =
  if (be == 0) || (al == 0) then
    Ok (LsqrOut (ofcv xs) 0 0 be be 0 0 (EScal 0) 0 (vzeros n))
  else let l := if lim is Some l then l else (n.*2)%:Z in
    if (l < 0)%R then Err ValueError else
    let? (s, istop, arnorms) :=
      lsqr_loop op d atol btol (fro b) ctol cv (absz l)
        (LsqrSt (ofcv xs) (ofcv v) (ofcv u) (ofcv v) al al be 0 0 0 0 0 0 0 (- 1) 0 (al * be) be be
           (vzeros n)) [::] in
    Ok (LsqrOut (s_x s) istop (size arnorms) (s_r1norm s) (s_r2norm s) (s_anorm s) (s_acond s)
       (EArr [seq e <- arnorms | - 1 < e]) (s_xnorm s) (s_var s)).
Proof.
move=> r be u vt al v; have [opm opn _ _] := opA.
rewrite /lsqr opn.
have -> : (match omap (@ofcv R n) start with
    | Some x1 => let? Ax := op_mv op x1 in let? u0 := vsub (ofcv b) Ax in Ok (x1, u0, vnorm u0)
    | None => Ok (vzeros n, ofcv b, vnorm (ofcv b)) end) = Ok (ofcv xs, ofcv r, be).
  rewrite /be /r /xs /lsqr_x0; case: start => [x|] /=.
    by rewrite (op_mvE _ opA) /= vsubE /= vnormE.
  by rewrite vzerosE vnormE mulmx0 subr0.
rewrite /=; case: (ltrgtP 0 be) (fro_ge0 r) => // be0 _; last first.
  by rewrite /= ltxx /= mul0r eqxx.
rewrite sdivE ?(gt_eqF be0) //=.
rewrite (div1r be).
rewrite vscaleE (op_rmvE _ opA) /= vnormE -/u -/vt -/al.
case: (ltrgtP 0 al) (fro_ge0 vt) => // al0 _; last first.
  by rewrite /= -al0 mul0r !eqxx.
rewrite sdivE ?(gt_eqF al0) //=.
rewrite (div1r al).
by rewrite vscaleE -/v vnormE mulf_eq0 (gt_eqF be0) (gt_eqF al0).
Qed.

(** The compared numbers, from the returned tuple. *)
Definition out_tests (out : @lsqr_out R) (x : 'cV[R]_n) : @lsqr_tests R :=
  LsqrTests (q_r2norm out / fro b)
    (fro ((Ab A d)^T *m rb A b xs d x) / (q_anorm out * q_r2norm out + 2%:R ^- 52))
    (1 / (q_acond out + 2%:R ^- 52))
    (q_r2norm out / fro b / (1 + q_anorm out * q_xnorm out / fro b))
    (btol + atol * q_anorm out * q_xnorm out / fro b).

Definition lsqr_call (lim : option int) :=
  lsqr op (ofcv b) d atol btol conlim lim cv (omap (@ofcv R n) start).

Lemma nonneg_filter (es : seq R) : (forall i, (i < size es)%N -> 0 <= nth 0 es i) ->
  [seq e <- es | - 1 < e] = es.
Proof.
move=> H; apply/all_filterP/(all_nthP 0) => i /H h.
by apply: lt_le_trans h; rewrite ltrN10.
Qed.

Definition lim_of (lim : option int) : int := if lim is Some l then l else (n.*2)%:Z.

Lemma lsqrP lim : 0 <= lim_of lim -> (b != 0 \/ start = None) ->
  exists out x, [/\ lsqr_call lim = Ok out, lsqr_ok (absz (lim_of lim)) out x,
   0 <= q_acond out &
   [/\ (Ab A d)^T *m rb A b xs d xs = 0, x = xs, q_itn out = 0%N, q_istop out = 0%N & q_errs out = EScal 0]
   \/
   [/\ (Ab A d)^T *m rb A b xs d xs != 0 /\ 0 < fro b,
       exists es, [/\ q_errs out = EArr es, size es = q_itn out &
         forall i, (i < size es)%N -> exists out1 x1,
           [/\ lsqr_call (Some i%:Z) = Ok out1, lsqr_ok i out1 x1, q_itn out1 = i,
               nth 0 es i = fro ((Ab A d)^T *m rb A b xs d x1) &
               fro (rb A b xs d x) < fro (rb A b xs d x1) /\ fro (x1 - xs) < fro (x - xs)]] &
       (q_istop out = 0%N /\ lim_of lim = 0 /\ x = xs) \/
       [/\ q_istop out != 0%N, (0 < q_itn out)%N &
           q_istop out = lsqr_istop (q_itn out == absz (lim_of lim)) atol ctol (out_tests out x)]]].
Proof.
move=> lim0 bs; have E := lsqr_unfold.
pose r := b - A *m xs; pose be := fro r; pose u := be^-1 *: r.
pose vt := A^T *m u; pose al := fro vt; pose v := al^-1 *: vt.
have rbx : rb A b xs d xs = col_mx r 0 by rewrite /rb subrr scaler0 oppr0.
case: (boolP ((be == 0) || (al == 0))) => [dg|].
  exists (LsqrOut (ofcv xs) 0 0 be be 0 0 (EScal 0) 0 (vzeros n)), xs.
  have ar0 : (Ab A d)^T *m rb A b xs d xs = 0.
    rewrite rbx Ab_uh; case/orP: dg; rewrite fro_eq0 => /eqP h0; first by rewrite h0 mulmx0.
    have [r0|rn0] := eqVneq r 0; first by rewrite r0 mulmx0.
    have -> : r = be *: u by rewrite scalerA divff ?scale1r // fro_eq0.
    by rewrite -scalemxAr -/vt h0 scaler0.
  split=> //; last by left.
  - by rewrite /lsqr_call E dg.
  - split=> //=.
    + by rewrite rbx /fro fro2_col_mx fro20 addr0.
    + by rewrite -/r !lexx.
    + by rewrite -/r eqxx.
    + by exists 0; split; [exact: ortho0 | rewrite mul0r | rewrite rowsq0 if_same vzerosE | exists 0; rewrite mulmx0].
    + left; exists 0; split; [exact: ortho0 | by rewrite expr0n thinmx0 fro20 addr0 |].
      rewrite -/r -fro_eq0 -/be => ben.
      exists (row_mx 0 u), 0, (row_mx 0 be^-1%:M); rewrite mulmx0 add0r mul_mx_row mulmx0 mul_mx_scalar.
      split=> //; apply: orthonormal_snoc; [exact: ortho0 | by rewrite flatmx0 |].
      by apply: fro_unit; rewrite -fro_eq0.
    + exists 0; split; [exact: kbasis0 | by exists 0; rewrite mulmx0 subrr | by rewrite flatmx0].
    + by rewrite subrr fro0.
    + exact: fro_ge0.
    + by move=> mu _ _; rewrite expr0n mulr0 mulrn_wge0 ?fro2_ge0.
    + by exists 0; rewrite subrr mulmx0.
    + by rewrite ar0 eqxx.
rewrite negb_or => /andP[be0 al0].
have be_gt : 0 < be by rewrite lt_neqAle eq_sym be0 fro_ge0.
have al_gt : 0 < al by rewrite lt_neqAle eq_sym al0 fro_ge0.
have b0 : 0 < fro b.
  rewrite lt_neqAle eq_sym fro_eq0 fro_ge0 andbT; case: bs => // sN.
  by move: be0; rewrite fro_eq0 /r /xs /lsqr_x0 sN mulmx0 subr0.
have I0 := linv0 d cv be_gt al_gt; rewrite -vzerosE -/r -/be -/u -/vt -/al -/v in I0.
pose s0 := LsqrSt (ofcv xs) (ofcv v) (ofcv u) (ofcv v) al al be 0 0 0 0 0 0 0 (- 1) 0 (al * be) be be
           (@vzeros R (rcf_ops R) n).
pose mkout (s : @lsqr_st R) istop (es : seq R) := LsqrOut (s_x s) istop (size es) (s_r1norm s) (s_r2norm s)
   (s_anorm s) (s_acond s) (EArr [seq e <- es | - 1 < e]) (s_xnorm s) (s_var s).
have callE l : 0 <= lim_of l -> lsqr_call l =
   let? (s, istop, arnorms) := lsqr_loop op d atol btol (fro b) ctol cv (absz (lim_of l)) s0 [::] in
   Ok (mkout s istop arnorms).
  move=> l0; rewrite /lsqr_call E -/r -/be -/u -/vt -/al -/v (negbTE be0) (negbTE al0) /=.
  by rewrite ltNge l0.
have [s' [istop [es [x' [[El rp] le [sz1 sz2] st [ar pre]]]]]] :=
  lsqr_loopP opA atol btol ctol b0 (absz (lim_of lim)) [::] I0.
have geP t s1 i1 l1 : lsqr_loop op d atol btol (fro b) ctol cv t s0 [::] = Ok (s1, i1, l1) ->
    s_r2norm s1 <= s_r2norm s0.
  by move=> /(lsqr_loop_ge opA b0 I0)[[-> _]|[[/ltW]]].
have okP L s1 st1 es1 x1 : rep A b xs d cv (size es1) s1 x1 -> s_r2norm s1 <= s_r2norm s0 ->
    (size es1 <= L)%N -> (size es1 <= minn m n)%N ->
    (s_arnorm s1 != 0 -> (size es1 < minn m n)%N) ->
    lsqr_ok L (mkout s1 st1 es1) x1.
  move=> rp1 le1 z1 z2 ar1; split=> //=.
  - exact: rp_x rp1.
  - exact: rp_r2 rp1.
  - exact: rp_r1 rp1.
  - exact: rp_r1b rp1.
  - by rewrite (rp_r1x rp1) (rp_ar rp1) fro_eq0.
  - exact: rp_D rp1.
  - exact: rp_V rp1.
  - exact: rp_K rp1.
  - exact: rp_xn rp1.
  - exact: rp_an0 rp1.
  - exact: rp_an rp1.
  - exact: rp_acb rp1.
  - exact: rp_rng rp1.
  - rewrite -(rp_r2 rp1); apply: le_trans le1 _; rewrite rbx /fro fro2_col_mx fro20 addr0.
    exact: lexx.
  - by rewrite -fro_eq0 -(rp_ar rp1).
exists (mkout s' istop es), x'; split.
- by rewrite callE // El.
- apply: okP => //; [by move: rp; rewrite addn0 | exact: geP El | by move: sz2; rewrite addn0 | by move=> /ar; rewrite addn0].
- exact: rp_ac rp.
- right.
  have ar0 : (Ab A d)^T *m rb A b xs d xs != 0.
    rewrite -fro_eq0 -(rp_ar (li_rep I0)) /= mulf_neq0 //.
  have esE : [seq e <- es | - 1 < e] = es.
    apply: nonneg_filter => i /pre[s1 [st1 [x1 [_ rp1 -> _]]]].
    by rewrite (rp_ar rp1) fro_ge0.
  split=> //.
  + exists es; split=> //; first by rewrite /= esE.
    move=> i lti; have [s1 [st1 [x1 [E1 rp1 nE le1]]]] := pre i lti.
    exists (mkout s1 st1 (take i es)), x1.
    have szi : size (take i es) = i by rewrite size_takel // ltnW.
    split=> //.
    * by rewrite callE //= E1.
    * have [s1' [st1' [es1' [x1' [[El1 rp1'] lel1 [szl1 szl2] _ [arl1 _]]]]]] :=
        lsqr_loopP opA atol btol ctol b0 i [::] I0.
      move: El1; rewrite E1 /= => -[s1E _ esl]; rewrite -s1E -esl in lel1 szl1 szl2 arl1.
      by apply: okP => //; [rewrite szi -(addn0 i) | exact: geP E1 | rewrite addn0 in szl2 | move=> /arl1; rewrite addn0].
    * by rewrite nE (rp_ar rp1).
    * by rewrite -(rp_r2 rp) -(rp_r2 rp1) -(rp_xn rp) -(rp_xn rp1).
  + case: st => [[-> [l0 sE]]|[st0 stE sz0]]; [left|right].
      split=> //; split; first by apply/eqP; rewrite -absz_eq0 l0.
      by have := rp_x rp; rewrite sE /= => /ofcv_inj.
    split=> //=; rewrite stE; congr lsqr_istop.
    by rewrite /tests_of /out_tests /= -(rp_ar rp).
Qed.

Lemma lsqr_call_mono l1 l2 out1 out2 : b != 0 \/ start = None ->
  0 <= lim_of l1 -> lim_of l1 <= lim_of l2 ->
  lsqr_call l1 = Ok out1 -> lsqr_call l2 = Ok out2 ->
  (q_itn out1 = q_itn out2 /\ q_x out1 = q_x out2) \/
  [/\ (q_itn out1 < q_itn out2)%N, q_r2norm out2 < q_r2norm out1 & q_xnorm out1 < q_xnorm out2].
Proof.
move=> bs l10 l12; have l20 := le_trans l10 l12; have E := lsqr_unfold.
pose r := b - A *m xs; pose be := fro r; pose u := be^-1 *: r.
pose vt := A^T *m u; pose al := fro vt; pose v := al^-1 *: vt.
rewrite /lsqr_call !E -/r -/be -/u -/vt -/al -/v; case: ifP => [_|].
  by move=> [<-] [<-]; left.
move/negbT; rewrite negb_or => /andP[be0 al0].
have be_gt : 0 < be by rewrite lt_neqAle eq_sym be0 fro_ge0.
have al_gt : 0 < al by rewrite lt_neqAle eq_sym al0 fro_ge0.
have b0 : 0 < fro b.
  rewrite lt_neqAle eq_sym fro_eq0 fro_ge0 andbT; case: bs => // sN.
  by move: be0; rewrite fro_eq0 /r /xs /lsqr_x0 sN mulmx0 subr0.
have I0 := linv0 d cv be_gt al_gt; rewrite -vzerosE -/r -/be -/u -/vt -/al -/v in I0.
rewrite /= -!/(lim_of _) !ltNge l10 l20 /=.
case E1 : (lsqr_loop _ _ _ _ _ _ _ _ _ _) => [//|[[s1 i1] es1]] [<-].
case E2 : (lsqr_loop _ _ _ _ _ _ _ _ _ _) => [//|[[s2 i2] es2]] [<-] /=.
have le : (absz (lim_of l1) <= absz (lim_of l2))%N by lia.
by case: (lsqr_loop_mono opA b0 I0 le E1 E2) => [[-> ->]|[[h1 h2] h3]]; [left | right; split=> //; rewrite -ltNge].
Qed.

End Top.
End Lsqr.
