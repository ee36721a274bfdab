(** Proofs about pcg. *)
From mathcomp Require Import all_ssreflect all_algebra.
From mathcomp Require Import zify.
From Verif Require Import RingTac.
From Verif Require Import Base Arr Lapack Exact MxLib LapackSpec Pcg.
Set Implicit Arguments.
Unset Strict Implicit.
Unset Printing Implicit Defensive.
Import Order.TTheory GRing.Theory Num.Theory.
Local Open Scope ring_scope.

Section Pcg.
Variable R : rcfType.
Add Field pcgField : (rcf_field R).

(** A function handle that applies the matrix [H]. *)
Definition op_is m n (f : seq R -> res (seq R)) (H : 'M[R]_(m, n)) : Prop :=
  forall x : 'cV[R]_n, f (ofcv x) = Ok (ofcv (H *m x)).

(** Symmetric positive definite. *)
Definition spd n (H : 'M[R]_n) : Prop :=
  H^T = H /\ forall x : 'cV[R]_n, x != 0 -> 0 < (x^T *m H *m x) 0 0.

(** Scalar product as a number. *)
Definition dot n (x y : 'cV[R]_n) : R := (x^T *m y) 0 0.

Lemma dotC n (x y : 'cV[R]_n) : dot x y = dot y x.
Proof. by rewrite /dot -[x^T *m y]trmxK trmx_mul trmxK mxE. Qed.
Lemma dotDl n (x y z : 'cV[R]_n) : dot (x + y) z = dot x z + dot y z.
Proof. by rewrite /dot linearD mulmxDl mxE. Qed.
Lemma dotZl n a (x z : 'cV[R]_n) : dot (a *: x) z = a * dot x z.
Proof. by rewrite /dot linearZ -scalemxAl mxE. Qed.
Lemma dotDr n (x y z : 'cV[R]_n) : dot x (y + z) = dot x y + dot x z.
Proof. by rewrite dotC dotDl !(dotC x). Qed.
Lemma dotZr n a (x z : 'cV[R]_n) : dot x (a *: z) = a * dot x z.
Proof. by rewrite dotC dotZl dotC. Qed.
Lemma dotNl n (x z : 'cV[R]_n) : dot (- x) z = - dot x z.
Proof. by rewrite -scaleN1r dotZl mulN1r. Qed.
Lemma dotNr n (x z : 'cV[R]_n) : dot x (- z) = - dot x z.
Proof. by rewrite dotC dotNl dotC. Qed.
Lemma dotBl n (x y z : 'cV[R]_n) : dot (x - y) z = dot x z - dot y z.
Proof. by rewrite dotDl dotNl. Qed.
Lemma dotBr n (x y z : 'cV[R]_n) : dot x (y - z) = dot x y - dot x z.
Proof. by rewrite dotDr dotNr. Qed.
Lemma dot0l n (x : 'cV[R]_n) : dot 0 x = 0.
Proof. by rewrite /dot linear0 mul0mx mxE. Qed.
Lemma dot0r n (x : 'cV[R]_n) : dot x 0 = 0.
Proof. by rewrite dotC dot0l. Qed.
Lemma dotxx n (x : 'cV[R]_n) : dot x x = fro2 x.
Proof. by rewrite fro2_cv. Qed.
Lemma dotM m n (H : 'M[R]_(m, n)) (x : 'cV[R]_m) (y : 'cV[R]_n) :
  dot x (H *m y) = dot (H^T *m x) y.
Proof. by rewrite /dot trmx_mul trmxK mulmxA. Qed.
Lemma mul_tr_dot n (x y : 'cV[R]_n) : x^T *m y = (dot x y)%:M.
Proof. by rewrite [LHS]mx11_scalar. Qed.
Lemma mul_dot0 n (x y : 'cV[R]_n) : dot x y = 0 -> x^T *m y = 0.
Proof. by rewrite mul_tr_dot => ->; rewrite raddf0. Qed.

Lemma vdotE' n (x y : 'cV[R]_n) : vdot (ofcv x) (ofcv y) = Ok (dot x y).
Proof. exact: vdotE. Qed.

Lemma spd_sym n (H : 'M[R]_n) (x y : 'cV[R]_n) : spd H -> dot x (H *m y) = dot (H *m x) y.
Proof. by case=> sH _; rewrite dotM sH. Qed.
Lemma spd_gt0 n (H : 'M[R]_n) (x : 'cV[R]_n) : spd H -> x != 0 -> 0 < dot x (H *m x).
Proof. by case=> _ pH x0; rewrite /dot mulmxA; apply: pH. Qed.
Lemma spd_ge0 n (H : 'M[R]_n) (x : 'cV[R]_n) : spd H -> 0 <= dot x (H *m x).
Proof.
move=> pH; have [->|x0] := eqVneq x 0; first by rewrite dot0l.
exact/ltW/spd_gt0.
Qed.
Lemma spd_unit n (H : 'M[R]_n) : spd H -> H \in unitmx.
Proof.
move=> pH; apply/full_col_unit/inj_full_col => v Hv.
apply/eqP; apply: contraT => v0; have := spd_gt0 pH v0.
by rewrite Hv dot0r ltxx.
Qed.

(** ** What every successful run satisfies (linear handles only). *)
Section Any.
Variables (n : nat) (H P : 'M[R]_n) (mvH mvP : seq R -> res (seq R)).
Hypotheses (HH : op_is mvH H) (HP : op_is mvP P).
Variable (b : 'cV[R]_n).

(** The abstract iteration: one PCG step on (x, r, d, delta). *)
Definition pcg_alpha (d : 'cV[R]_n) (delta : R) : R := delta / dot d (H *m d).
Definition pcg_x (x d : 'cV[R]_n) (delta : R) := x + pcg_alpha d delta *: d.
Definition pcg_r (r d : 'cV[R]_n) (delta : R) := r - pcg_alpha d delta *: (H *m d).
Definition pcg_d (r d : 'cV[R]_n) (delta : R) :=
  let r' := pcg_r r d delta in
  P *m r' + (dot r' (P *m r') / delta) *: d.

(** One unfolding of the loop, in matrix form. *)
Lemma pcg_stepE rel todo i (x d : 'cV[R]_n) delta log :
  let r := b - H *m x in
  dot d (H *m d) != 0 -> delta != 0 -> rel < fro r ->
  let r' := pcg_r r d delta in
  r' = b - H *m pcg_x x d delta /\
  pcg_loop mvH mvP (ofcv b) rel todo.+1 i (ofcv x) (ofcv r) (ofcv d) delta (fro r) log =
  pcg_loop mvH mvP (ofcv b) rel todo i.+1 (ofcv (pcg_x x d delta)) (ofcv r')
    (ofcv (pcg_d r d delta)) (dot r' (P *m r')) (fro r') (rcons log (fro r)).
Proof.
move=> r den0 del0 lt r'.
have r'E : r' = b - H *m pcg_x x d delta.
  by rewrite /r' /pcg_r /pcg_x mulmxDr -scalemxAr /r opprD addrA.
split=> //=; rewrite lt HH /= vdotE' /= /sdiv /= (negbTE den0) /=.
rewrite vscaleE vaddE /= -/(pcg_x x d delta).
have -> : (if (i %% 10 == 0)%N then let? Hx := mvH (ofcv (pcg_x x d delta)) in vsub (ofcv b) Hx
          else vsub (ofcv r) (vscale (delta / dot d (H *m d)) (ofcv (H *m d)))) = Ok (ofcv r').
  case: ifP => _; first by rewrite HH /= vsubE r'E.
  by rewrite vscaleE vsubE.
rewrite /= HP /= vdotE' /= (negbTE del0) /= vscaleE vaddE /= vnormE.
by [].
Qed.

(** Inversion: a successful loop either stops here or makes such a step. *)
Lemma pcg_loop_inv rel todo i (x d : 'cV[R]_n) delta log X :
  let r := b - H *m x in
  pcg_loop mvH mvP (ofcv b) rel todo.+1 i (ofcv x) (ofcv r) (ofcv d) delta (fro r) log = Ok X ->
  (~~ (rel < fro r) /\ X = (ofcv x, log)) \/
  [/\ rel < fro r, dot d (H *m d) != 0 & delta != 0].
Proof.
move=> r; case: (boolP (rel < fro r)) => lt; last first.
  by rewrite /= (negbTE lt) => -[<-]; left.
rewrite /= lt HH /= vdotE' /= /sdiv /=; case: eqP => //= /eqP den0.
rewrite vscaleE vaddE /=.
set rr := (X in rbind X _); have [r' ->] : exists r' : 'cV[R]_n, rr = Ok (ofcv r').
  rewrite /rr; case: ifP => _; first by rewrite HH /= vsubE; eexists.
  by rewrite vscaleE vsubE; eexists.
rewrite /= HP /= vdotE' /=; case: eqP => //= /eqP del0 _.
by right.
Qed.

(** C29: honest log and honest stop. *)
Lemma pcg_loopP rel : forall todo i (x d : 'cV[R]_n) delta log X,
  let r := b - H *m x in
  pcg_loop mvH mvP (ofcv b) rel todo i (ofcv x) (ofcv r) (ofcv d) delta (fro r) log = Ok X ->
  exists (xs : seq 'cV[R]_n) (y : 'cV[R]_n),
    [/\ X = (ofcv y, log ++ [seq fro (b - H *m z) | z <- xs]),
        (size xs <= todo)%N, head y xs = x &
        (size xs < todo)%N -> fro (b - H *m y) <= rel].
Proof.
elim=> [|todo IH] i x d delta log X r E.
  by exists [::], x; case: E => <-; split=> //=; rewrite cats0.
case: (pcg_loop_inv E) => [[nlt ->]|[lt den0 del0]].
  exists [::], x; split=> //=; [by rewrite cats0 | by rewrite leNgt].
have [r'E E'] := @pcg_stepE rel todo i x d delta log den0 del0 lt.
rewrite E' r'E in E.
have [xs [y [-> sz hd st]]] := IH _ _ _ _ _ _ E.
exists (x :: xs), y; by split=> //=; rewrite cat_rcons.
Qed.

(** The k-th log entry is the residual norm of what a run limited to k
    iterations returns. *)
Lemma pcg_loop_prefix rel : forall todo i (x d : 'cV[R]_n) delta log y es k,
  let r := b - H *m x in
  pcg_loop mvH mvP (ofcv b) rel todo i (ofcv x) (ofcv r) (ofcv d) delta (fro r) log
    = Ok (y, log ++ es) ->
  (k < size es)%N ->
  exists z : 'cV[R]_n,
    pcg_loop mvH mvP (ofcv b) rel k i (ofcv x) (ofcv r) (ofcv d) delta (fro r) log
      = Ok (ofcv z, log ++ take k es) /\ nth 0 es k = fro (b - H *m z).
Proof.
elim=> [|todo IH] i x d delta log y es k r E lt.
  by move: E lt; rewrite /= => -[_ /(congr1 size)]; rewrite size_cat; lia.
case: (pcg_loop_inv E) => [[_ [_ /(congr1 size)]]|[ltr den0 del0]].
  by rewrite size_cat; lia.
have [xs [z [[_ Xe] sz hd _]]] := pcg_loopP E.
have {Xe}/eqP := Xe; rewrite eqseq_cat // eqxx /= => /eqP esE.
case: xs => [|x1 xs] in sz hd esE; first by rewrite esE in lt.
rewrite /= in hd; subst x1.
have [r'E E'] := @pcg_stepE rel todo i x d delta log den0 del0 ltr.
case: k => [|k] in lt *.
  by exists x; rewrite /= take0 cats0 esE.
have [_ E''] := @pcg_stepE rel k i x d delta log den0 del0 ltr.
rewrite E'' r'E; rewrite E' r'E esE /= -cat_rcons in E.
have [|z' [-> nE]] := IH _ _ _ _ _ _ _ k E; first by move: lt; rewrite esE /=; lia.
by exists z'; rewrite esE /= nE cat_rcons.
Qed.

Lemma pcg_start lim (tol : R) (x0 : 'cV[R]_n) : 0 <= lim ->
  pcg mvH (ofcv b) mvP lim tol (ofcv x0) =
  let r := b - H *m x0 in
  pcg_loop mvH mvP (ofcv b) (tol * fro r) (absz lim) 0 (ofcv x0) (ofcv r) (ofcv (P *m r))
    (dot r (P *m r)) (fro r) [::].
Proof.
by move=> lim0; rewrite /pcg ltNge lim0 /= HH /= vsubE /= HP /= vdotE' /= vnormE.
Qed.

End Any.

(** ** Symmetric positive definite systems. *)
Section SPD.
Variables (n : nat) (H P : 'M[R]_n) (mvH mvP : seq R -> res (seq R)).
Hypotheses (HH : op_is mvH H) (HP : op_is mvP P) (pH : spd H) (pP : spd P).
Variable (b : 'cV[R]_n).

(** Conjugate-direction invariant: [D] holds the earlier search directions. *)
Record pcg_inv k (D : 'M[R]_(n, k)) (x d : 'cV[R]_n) (delta : R) : Prop := PcgInv {
  pi_rank : \rank D = k;
  pi_res : D^T *m (b - H *m x) = 0;
  pi_conj : D^T *m H *m d = 0;
  pi_kry : exists T t, P *m H *m D = D *m T + d *m t;
  pi_dir : exists e, d = P *m (b - H *m x) + D *m e;
  pi_del : delta = dot (b - H *m x) (P *m (b - H *m x)) }.

Lemma pcg_inv0 (x : 'cV[R]_n) : let r := b - H *m x in
  pcg_inv (0 : 'M[R]_(n, 0)) x (P *m r) (dot r (P *m r)).
Proof.
move=> r; split=> //.
- by rewrite mxrank0.
- by rewrite flatmx0.
- by rewrite flatmx0.
- by exists 0, 0; rewrite !thinmx0.
- by exists 0; rewrite mulmx0 addr0.
Qed.

Section Step.
Variables (k : nat) (D : 'M[R]_(n, k)) (x d : 'cV[R]_n) (delta : R).
Hypothesis I : pcg_inv D x d delta.
Let r := b - H *m x.
Hypothesis r0 : r != 0.

Lemma pcg_rd : dot r d = delta.
Proof.
case: I => _ Dr _ _ [e ->] ->.
by rewrite dotDr (dotM D) Dr dot0l addr0.
Qed.

Lemma pcg_delta_gt0 : 0 < delta.
Proof. by rewrite (pi_del I); apply: spd_gt0. Qed.

Lemma pcg_d_neq0 : d != 0.
Proof.
apply/eqP => d0; have := pcg_rd; rewrite d0 dot0r => E.
by have := pcg_delta_gt0; rewrite -E ltxx.
Qed.

Lemma pcg_den_gt0 : 0 < dot d (H *m d).
Proof. exact/spd_gt0/pcg_d_neq0. Qed.

Let al := pcg_alpha H d delta.
Lemma pcg_al_gt0 : 0 < al.
Proof. by rewrite divr_gt0 ?pcg_delta_gt0 ?pcg_den_gt0. Qed.

Lemma pcg_full : \rank (row_mx D d) = (k + 1)%N.
Proof.
apply: inj_full_col => v; rewrite -[v]vsubmxK mul_row_col => E.
set v1 := usubmx v in E *; set v2 := dsubmx v in E *.
have v20 : v2 = 0.
  have := congr1 (mulmx (d^T *m H)) E; rewrite mulmx0 mulmxDr !mulmxA.
  have -> : d^T *m H *m D = 0.
    apply: trmx_inj; rewrite !trmx_mul trmxK trmx0 (proj1 pH) mulmxA.
    exact: (pi_conj I).
  have -> : d^T *m H *m d = (dot d (H *m d))%:M by rewrite -mulmxA mul_tr_dot.
  rewrite mul0mx add0r mul_scalar_mx => /eqP; rewrite scaler_eq0 => /orP[|/eqP //].
  by rewrite gt_eqF ?pcg_den_gt0.
move: E; rewrite v20 mulmx0 addr0 => E.
by rewrite (full_col_inj (pi_rank I) E) col_mx0.
Qed.

Lemma pcg_rank_lt : (k < n)%N.
Proof. by have := rank_leq_row (row_mx D d); rewrite pcg_full; lia. Qed.

Lemma pcg_inv_step :
  pcg_inv (row_mx D d) (pcg_x H x d delta) (pcg_d H P r d delta)
    (let r' := pcg_r H r d delta in dot r' (P *m r')).
Proof.
have r'E : b - H *m pcg_x H x d delta = pcg_r H r d delta.
  by rewrite /pcg_r /pcg_x mulmxDr -scalemxAr /r opprD addrA.
set r' := pcg_r H r d delta in r'E *.
have den0 : dot d (H *m d) != 0 by rewrite gt_eqF ?pcg_den_gt0.
have del0 : delta != 0 by rewrite gt_eqF ?pcg_delta_gt0.
have al0 : al != 0 by rewrite gt_eqF ?pcg_al_gt0.
have Dr' : D^T *m r' = 0.
  rewrite /r' /pcg_r mulmxBr (pi_res I) -scalemxAr mulmxA (pi_conj I).
  by rewrite scaler0 subr0.
have dr' : dot d r' = 0.
  rewrite /r' /pcg_r dotBr dotC pcg_rd dotZr /pcg_alpha.
  by rewrite divfK // subrr.
have [T [t kry]] := pi_kry I.
have [e dE] := pi_dir I; rewrite -/r in dE.
have sE : P *m r = d - D *m e by rewrite dE addrK.
set d' := pcg_d H P r d delta.
have d'E : d' = P *m r' + (dot r' (P *m r') / delta) *: d by [].
have PHd : P *m H *m d = al^-1 *: (P *m r - P *m r').
  rewrite -mulmxBr /r' /pcg_r opprB addrC subrK -scalemxAr scalerA -/al mulVf //.
  by rewrite scale1r mulmxA.
have DHs : D^T *m H *m (P *m r') = 0.
  apply: trmx_inj; rewrite !trmx_mul trmxK (proj1 pP) (proj1 pH) trmx0.
  have -> : r'^T *m P *m (H *m D) = r'^T *m (P *m H *m D) by rewrite !mulmxA.
  rewrite kry mulmxDr !mulmxA; have -> : r'^T *m D = 0.
    by apply: trmx_inj; rewrite trmx_mul trmxK Dr' trmx0.
  by rewrite mul_dot0 ?mul0mx ?addr0 // dotC.
split.
- exact: pcg_full.
- by rewrite r'E tr_row_mx mul_col_mx Dr' mul_dot0 // col_mx0.
- rewrite tr_row_mx !mul_col_mx.
  have -> : D^T *m H *m d' = 0.
    by rewrite d'E mulmxDr DHs add0r -scalemxAr (pi_conj I) scaler0.
  suff -> : d^T *m H *m d' = 0 by rewrite col_mx0.
  rewrite -mulmxA mul_tr_dot; suff -> : dot d (H *m d') = 0 by rewrite raddf0.
  rewrite d'E mulmxDr dotDr -scalemxAr dotZr.
  have -> : dot d (H *m (P *m r')) = - (dot r' (P *m r')) / al.
    rewrite (spd_sym _ _ pH) (spd_sym _ _ pP) mulmxA PHd dotZl dotBl sE dotBl.
    rewrite dr' dotC (dotM D) Dr' dot0l subr0 sub0r mulrC; congr (- _ / _).
    by rewrite dotC.
  rewrite /al /pcg_alpha; move: (dot r' _) (dot d _) den0 => X Y Y0.
  by rewrite invf_div mulNr mulrA [X / delta * Y]mulrAC addNr.
- have PHd' : P *m H *m d = al^-1 *: (d - D *m e + (dot r' (P *m r') / delta) *: d) - al^-1 *: d'.
    by rewrite PHd sE -scalerBr d'E; congr (_ *: _); rewrite opprD addrA addrAC addrK.
  exists (block_mx T (- (al^-1 *: e)) t (al^-1 * (1 + dot r' (P *m r') / delta))%:M).
  exists (row_mx 0 (- (al^-1))%:M).
  rewrite mul_mx_row mul_row_block kry mul_mx_row mulmx0.
  rewrite add_row_mx addr0; congr row_mx; rewrite PHd'.
  rewrite !mul_mx_scalar [in RHS]scaleNr; congr (_ - _).
  rewrite mulmxN -scalemxAr -scalerN -[(al^-1 * _) *: d]scalerA -scalerDr scalerDl scale1r.
  by congr (_ *: _); rewrite addrAC [RHS]addrC.
- exists (col_mx 0 (dot r' (P *m r') / delta)%:M).
  by rewrite mul_row_col mulmx0 add0r mul_mx_scalar r'E.
- by rewrite r'E.
Qed.

(** The step decreases the energy of the error by [delta^2 / d'Hd]. *)
Definition energy (xs y : 'cV[R]_n) : R := dot (y - xs) (H *m (y - xs)).

Lemma energy_step xs : H *m xs = b ->
  energy xs (pcg_x H x d delta) = energy xs x - delta ^+ 2 / dot d (H *m d).
Proof.
move=> Hxs; rewrite /energy /pcg_x -/al.
have -> : x + al *: d - xs = (x - xs) + al *: d by rewrite addrAC.
have E : H *m (x - xs) = - r by rewrite mulmxBr Hxs /r opprB.
move: (x - xs) E => e E; rewrite mulmxDr -scalemxAr E dotDl !dotDr !dotZl !dotZr.
rewrite (spd_sym e _ pH) E !dotNl !dotNr pcg_rd (dotC d r) pcg_rd.
have := pcg_den_gt0; rewrite /al /pcg_alpha; move: (dot d _) (dot e r) => X Y X0.
by rfield; rewrite gt_eqF.
Qed.

End Step.

(** Termination: at most [n] iterations, no zero division. *)
Lemma pcg_loop_spd rel : 0 <= rel ->
  forall todo i k (D : 'M[R]_(n, k)) (x d : 'cV[R]_n) delta log,
  pcg_inv D x d delta ->
  exists (y : 'cV[R]_n) es,
    [/\ pcg_loop mvH mvP (ofcv b) rel todo i (ofcv x) (ofcv (b - H *m x)) (ofcv d) delta
          (fro (b - H *m x)) log = Ok (ofcv y, log ++ es),
        (size es + k <= n)%N &
        ((n <= todo + k)%N -> fro (b - H *m y) <= rel)].
Proof.
move=> rel0; elim=> [|todo IH] i k D x d delta log I.
  exists x, [::]; split=> //=; first by rewrite cats0.
    by rewrite add0n -(pi_rank I) rank_leq_row.
  rewrite add0n => le; have [->|r0] := eqVneq (b - H *m x) 0; first by rewrite fro0.
  by have := pcg_rank_lt I r0; rewrite ltnNge le.
case: (boolP (rel < fro (b - H *m x))) => lt; last first.
  exists x, [::]; split; [by rewrite /= (negbTE lt) cats0| |by rewrite leNgt].
  by rewrite add0n -(pi_rank I) rank_leq_row.
have r0 : b - H *m x != 0.
  by apply/eqP => r0; move: lt; rewrite r0 fro0 ltNge rel0.
have den0 : dot d (H *m d) != 0 by rewrite gt_eqF ?(pcg_den_gt0 I).
have del0 : delta != 0 by rewrite gt_eqF ?(pcg_delta_gt0 I).
have [r'E ->] := pcg_stepE HH HP todo i log den0 del0 lt.
have [y [es [E sz fin]]] := IH i.+1 _ _ _ _ _ (rcons log (fro (b - H *m x))) (pcg_inv_step I r0).
exists y, (fro (b - H *m x) :: es); split; last by move=> le; apply: fin; lia.
  by rewrite -cat_rcons -E r'E.
by rewrite /=; lia.
Qed.

Lemma pcg_loop_energy rel xs : 0 <= rel -> H *m xs = b ->
  forall todo i k (D : 'M[R]_(n, k)) (x d : 'cV[R]_n) delta log y1 es1 y2 es2,
  pcg_inv D x d delta ->
  pcg_loop mvH mvP (ofcv b) rel todo.+1 i (ofcv x) (ofcv (b - H *m x)) (ofcv d) delta
    (fro (b - H *m x)) log = Ok (ofcv y2, es2) ->
  pcg_loop mvH mvP (ofcv b) rel todo i (ofcv x) (ofcv (b - H *m x)) (ofcv d) delta
    (fro (b - H *m x)) log = Ok (ofcv y1, es1) ->
  size es2 = (size log + todo.+1)%N ->
  energy xs y2 < energy xs y1.
Proof.
move=> rel0 Hxs; elim=> [|todo IH] i k D x d delta log y1 es1 y2 es2 I E2 E1 sz.
all: have lt : rel < fro (b - H *m x) by
  apply: contraT => nlt; move: E2; rewrite /= (negbTE nlt) => -[_ es]; move: sz; rewrite -es; lia.
all: have r0 : b - H *m x != 0 by
  apply/eqP => r0; move: lt; rewrite r0 fro0 ltNge rel0.
all: have den0 : dot d (H *m d) != 0 by rewrite gt_eqF ?(pcg_den_gt0 I).
all: have del0 : delta != 0 by rewrite gt_eqF ?(pcg_delta_gt0 I).
- have [r'E E2'] := pcg_stepE HH HP 0 i log den0 del0 lt.
  rewrite E2' /= in E2; case: E2 => /ofcv_inj <- _.
  case: E1 => /ofcv_inj <- _.
  rewrite (energy_step I r0 Hxs) ltr_subl_addr ltr_addl.
  by rewrite divr_gt0 ?exprn_gt0 ?(pcg_den_gt0 I) ?(pcg_delta_gt0 I).
- have [r'E E2'] := pcg_stepE HH HP todo.+1 i log den0 del0 lt.
  have [_ E1'] := pcg_stepE HH HP todo i log den0 del0 lt.
  rewrite E2' r'E in E2; rewrite E1' r'E in E1.
  have I' := pcg_inv_step I r0; rewrite /= r'E in I'.
  by apply: (IH _ _ _ _ _ _ _ _ _ _ _ I' E2 E1); rewrite size_rcons sz; lia.
Qed.

End SPD.

End Pcg.
