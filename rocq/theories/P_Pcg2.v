(** Proof of C75: PCG iterates minimise the energy over the Krylov space. *)
From mathcomp Require Import all_ssreflect all_algebra zify.
From Verif Require Import Base Arr Lapack RingTac Exact MxLib Pcg P_Pcg.
Set Implicit Arguments.
Unset Strict Implicit.
Unset Printing Implicit Defensive.
Import Order.TTheory GRing.Theory Num.Theory.
Local Open Scope ring_scope.

Section Pcg2.
Variable R : rcfType.

Section Krylov.
Variables (n : nat) (M : 'M[R]_n) (v0 : 'cV[R]_n).
Definition kv (i : nat) : 'cV[R]_n := iter i (mulmx M) v0.
Definition ksp (k : nat) (y : 'cV[R]_n) : Prop :=
  exists c : nat -> R, y = \sum_(i < k) c i *: kv i.

Lemma ksp0 k : ksp k 0.
Proof. by exists (fun=> 0); rewrite big1 // => i _; rewrite scale0r. Qed.
Lemma kspD k y z : ksp k y -> ksp k z -> ksp k (y + z).
Proof.
move=> [c ->] [c' ->]; exists (fun i => c i + c' i); rewrite -big_split /=.
by apply: eq_bigr => i _; rewrite scalerDl.
Qed.
Lemma kspZ k t y : ksp k y -> ksp k (t *: y).
Proof.
move=> [c ->]; exists (fun i => t * c i); rewrite scaler_sumr.
by apply: eq_bigr => i _; rewrite scalerA.
Qed.
Lemma kspN k y : ksp k y -> ksp k (- y).
Proof. by move=> h; rewrite -scaleN1r; apply: kspZ. Qed.
Lemma kspS k y : ksp k y -> ksp k.+1 y.
Proof.
move=> [c ->]; exists (fun i => if (i < k)%N then c i else 0); rewrite big_ord_recr /= ltnn scale0r addr0.
by apply: eq_bigr => i _; rewrite ltn_ord.
Qed.
Lemma kspM k y : ksp k y -> ksp k.+1 (M *m y).
Proof.
move=> [c ->]; exists (fun i => if i is j.+1 then c j else 0); rewrite big_ord_recl /= scale0r add0r.
by rewrite mulmx_sumr; apply: eq_bigr => i _; rewrite -scalemxAr.
Qed.

Definition kbas k (V : 'M[R]_(n, k)) : Prop :=
  (forall c, ksp k (V *m c)) /\ (forall i, (i < k)%N -> exists c, kv i = V *m c).

Lemma ksp_bas k (V : 'M[R]_(n, k)) y : kbas V -> ksp k y -> exists c, y = V *m c.
Proof.
move=> [_ K2] [c ->].
suff Hl l : (l <= k)%N -> exists c', \sum_(i < l) c i *: kv i = V *m c' by exact: Hl.
elim: l => [_|l IH lk]; first by exists 0; rewrite mulmx0 big_ord0.
have [c1 E1] := IH (ltnW lk); have [c2 E2] := K2 l lk.
by exists (c1 + c l *: c2); rewrite big_ord_recr /= E1 E2 mulmxDr -scalemxAr.
Qed.

(** One more column. *)
Lemma kbas_snoc k (V : 'M[R]_(n, k)) (w : 'cV[R]_n) : kbas V -> ksp k.+1 w ->
  (exists c, kv k = row_mx V w *m c) -> kbas (row_mx V w).
Proof.
move=> [K1 K2] Kw Kk; split=> [c|i].
  rewrite -[c]vsubmxK mul_row_col [X in ksp X _]addn1; apply: kspD; first exact/kspS/K1.
  have -> : w *m dsubmx c = (dsubmx c 0 0) *: w.
    by rewrite {1}[dsubmx c]mx11_scalar mul_mx_scalar.
  exact: kspZ.
rewrite (_ : (i < k + 1)%N = (i <= k)%N); last by rewrite addn1 ltnS.
rewrite leq_eqVlt => /orP[/eqP ->//|/K2[c ->]].
by exists (col_mx c 0); rewrite mul_row_col mulmx0 addr0.
Qed.
End Krylov.

Section SPD.
Variables (n : nat) (H P : 'M[R]_n) (mvH mvP : seq R -> res (seq R)).
Hypotheses (HH : op_is mvH H) (HP : op_is mvP P) (pH : spd H) (pP : spd P).
Variables (b x0 : 'cV[R]_n).
Let kb k (V : 'M[R]_(n, k)) := kbas (P *m H) (P *m (b - H *m x0)) V.

Record kinv k (D : 'M[R]_(n, k)) (x d : 'cV[R]_n) : Prop := KInv {
  ki_D : kb D; ki_Dd : kb (row_mx D d); ki_x : exists c, x - x0 = D *m c }.

Lemma kinv0 : kinv (0 : 'M[R]_(n, 0)) x0 (P *m (b - H *m x0)).
Proof.
have k0 : kb (0 : 'M[R]_(n, 0)) by split=> // c; exists (fun=> 0); rewrite mul0mx big_ord0.
split=> //; last by exists 0; rewrite mulmx0 subrr.
apply: kbas_snoc => //; first by exists (fun=> 1); rewrite big_ord1 scale1r.
by exists (col_mx 0 1%:M); rewrite mul_row_col mulmx0 mulmx1 add0r.
Qed.

Lemma kinv_step k (D : 'M[R]_(n, k)) x d delta : pcg_inv H P b D x d delta ->
  b - H *m x != 0 -> kinv D x d ->
  kinv (row_mx D d) (pcg_x H x d delta) (pcg_d H P (b - H *m x) d delta).
Proof.
move=> I r0 [K1 K2 [c cE]]; split=> //; last first.
  by exists (col_mx c (pcg_alpha H d delta)%:M); rewrite mul_row_col mul_mx_scalar -cE /pcg_x addrAC.
have I' := pcg_inv_step pH pP I r0.
have dK : ksp (P *m H) (P *m (b - H *m x0)) (k + 1) d.
  by have := proj1 K2 (col_mx 0 1%:M); rewrite mul_row_col mulmx0 mulmx1 add0r.
have DK e : ksp (P *m H) (P *m (b - H *m x0)) (k + 1) (D *m e).
  by have := proj1 K2 (col_mx e 0); rewrite mul_row_col mulmx0 addr0.
apply: kbas_snoc => //.
  rewrite /pcg_d /pcg_r; apply: kspD; last exact/kspZ/kspS.
  rewrite [P *m (_ - _ - _)]mulmxBr -[P *m (_ *: _)]scalemxAr [P *m (H *m d)]mulmxA; apply: kspD; last exact/kspN/kspZ/kspM.
  have [e dE] := pi_dir I.
  have -> : P *m (b - H *m x) = d - D *m e by rewrite dE addrK.
  by apply/kspS/kspD; [|apply: kspN].
have [T [t kry]] := pi_kry I'.
have lt : (k < k + 1)%N by rewrite addn1.
have [e eE] := proj2 K2 k lt.
exists (col_mx (T *m e) (t *m e)).
rewrite [X in kv _ _ X]addn1 -[LHS]/((P *m H) *m kv _ _ k) eE (mulmxA (P *m H)) kry mulmxDl mul_row_col.
by rewrite -!mulmxA.
Qed.

Lemma pcg_loop_krylov rel : 0 <= rel ->
  forall todo i k (D : 'M[R]_(n, k)) (x d : 'cV[R]_n) delta log y es,
  pcg_inv H P b D x d delta -> kinv D x d ->
  pcg_loop mvH mvP (ofcv b) rel todo i (ofcv x) (ofcv (b - H *m x)) (ofcv d) delta
     (fro (b - H *m x)) log = Ok (ofcv y, es) ->
  exists j (V : 'M[R]_(n, j)), [/\ (size es + k = size log + j)%N, kb V, V^T *m (b - H *m y) = 0 &
    exists c, y - x0 = V *m c].
Proof.
move=> rel0; elim=> [|todo IH] i k D x d delta log y es I K.
  by move=> [/ofcv_inj <- <-]; exists k, D; split=> //; [exact: ki_D K | exact: pi_res I | exact: ki_x K].
case: (boolP (rel < fro (b - H *m x))) => lt; last first.
  rewrite /= (negbTE lt) => -[/ofcv_inj <- <-].
  by exists k, D; split=> //; [exact: ki_D K | exact: pi_res I | exact: ki_x K].
have r0 : b - H *m x != 0.
  by apply/eqP => r0; move: lt; rewrite r0 fro0 ltNge rel0.
have den0 : dot d (H *m d) != 0 by rewrite gt_eqF ?(pcg_den_gt0 pH pP I).
have del0 : delta != 0 by rewrite gt_eqF ?(pcg_delta_gt0 pP I).
have [r'E ->] := pcg_stepE HH HP todo i log den0 del0 lt.
rewrite r'E => E.
have I' := pcg_inv_step pH pP I r0; rewrite /= r'E in I'.
have [j [V [sz KV ort xV]]] := IH _ _ _ _ _ _ _ _ _ I' (kinv_step I r0 K) E.
by exists j, V; split=> //; move: sz; rewrite size_rcons addn1 addnS addSn => -[].
Qed.

Lemma pcg_krylov_lemma (lim : int) tol y es : 0 <= tol ->
  pcg mvH (ofcv b) mvP lim tol (ofcv x0) = Ok (ofcv y, es) ->
  ksp (P *m H) (P *m (b - H *m x0)) (size es) (y - x0) /\
  forall z, ksp (P *m H) (P *m (b - H *m x0)) (size es) (z - x0) ->
    energy H (invmx H *m b) y <= energy H (invmx H *m b) z.
Proof.
move=> tol0; case: (lerP 0 lim) => [l0|lneg]; last by rewrite /pcg lneg.
rewrite (pcg_start HH HP) // => E.
have rel0 : 0 <= tol * fro (b - H *m x0) by rewrite mulr_ge0 ?fro_ge0.
have [j [V [sz KV ort [c cE]]]] := pcg_loop_krylov rel0 (pcg_inv0 H P b x0) kinv0 E.
have {sz}jE : j = size es by move: sz; rewrite addn0 add0n.
rewrite -jE; split; first by rewrite cE; apply: (proj1 KV).
move=> z /(ksp_bas KV)[c' zE].
have [e DE] : exists e, z = y + V *m e.
  by exists (c' - c); rewrite mulmxBr -zE -cE opprB addrA [y + _]addrC subrK subrK.
have Hxs : H *m (invmx H *m b) = b by rewrite mulKVmx // spd_unit.
move: (invmx H *m b) Hxs => xs Hxs; rewrite DE /energy.
have -> : y + V *m e - xs = (y - xs) + V *m e by rewrite addrAC.
have Ey : H *m (y - xs) = - (b - H *m y) by rewrite mulmxBr Hxs opprB.
move: (y - xs) Ey => w Ey; rewrite (mulmxDr H) dotDl !dotDr.
have z1 : dot (V *m e) (H *m w) = 0 by rewrite Ey dotNr dotC dotM ort dot0l oppr0.
rewrite (spd_sym w (V *m e) pH) (dotC (H *m w)) z1 addr0 add0r ler_addl.
exact: spd_ge0.
Qed.

End SPD.
End Pcg2.
