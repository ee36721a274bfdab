(** Proofs about the Nystrom eigenvalue decomposition EVD2 (evd.py). *)
From mathcomp Require Import all_ssreflect all_algebra.
From mathcomp Require Import zify.
From Verif Require Import Base Arr Lapack Exact MxLib RingTac LapackSpec LapackExists Rng Aware RangeFinders QB.
From Verif Require Import P_RS1 P_QB2 P_RF P_QBx P_QBfin P_Pcg Chol P_Svd Sel SvdEvd P_SvdEvd P_Svd1.
Set Implicit Arguments.
Unset Strict Implicit.
Unset Printing Implicit Defensive.
Import Order.TTheory GRing.Theory Num.Theory.
Local Open Scope ring_scope.

Section Comps.
Variable R : rcfType.

Lemma evd2_compsE (sigma : seq R) nu : forall todo i,
  evd2_comps sigma nu todo i =
  if ((0 < todo) ==> (i + todo < size sigma))%N
  then Ok [seq j <- iota i todo | nth 0 sigma j.+1 ^+ 2 <= nu] else Err IndexError.
Proof.
elim=> [|todo IH] i //; rewrite [LHS]/= implyTb.
case: ltnP => lt; last by rewrite ifF //; apply/negbTE; rewrite -leqNgt; lia.
rewrite IH addSnnS; case: (posnP todo) => [->|t0]; last first.
  rewrite implyTb; case: ifP => //= _; rewrite osqE; by case: ifP.
by rewrite implyFb addn1 lt /= osqE; case: ifP.
Qed.

Lemma foldr_minnP (k : nat) l : let r := foldr minn k l in
  [/\ (r <= k)%N, forall i, i \in l -> (r <= i)%N & r = k \/ r \in l].
Proof.
elim: l => [|x l /= [h1 h2 h3]] /=; first by split=> //; left.
split; first by rewrite geq_min h1 orbT.
  by move=> i; rewrite inE geq_min => /orP[/eqP->|/h2->]; rewrite ?leqnn ?orbT.
rewrite /minn inE; case: ifP => _; first by rewrite eqxx; right.
by case: h3 => [->|->]; [left | right; rewrite orbT].
Qed.

(** The number of components kept. *)
Lemma comps_min q (s : 'cV[R]_q) nu (k : nat) : (0 < k)%N -> (k <= q)%N ->
  (forall i, 0 <= s i 0) ->
  (forall i j : 'I_q, (i <= j)%N -> s j 0 <= s i 0) ->
  exists comps r, [/\ evd2_comps (ofcv s) nu k.-1 0 = Ok comps, r = foldr minn k comps,
    (r <= k)%N,
    forall i : 'I_q, (0 < i)%N -> (i < k)%N -> (i <= r)%N = (nu < s i 0 ^+ 2) &
    (r < k)%N -> (r.+1 < k)%N].
Proof.
move=> k0 kq s0 sd; rewrite evd2_compsE size_ofcv ifT; last by apply/implyP; lia.
set l := [seq _ <- _ | _]; have [h1 h2 h3] := foldr_minnP k l.
exists l, (foldr minn k l); set r := foldr minn k l in h1 h2 h3 *.
have lP i (lt : (i.+1 < q)%N) : (i \in l) = (i < k.-1)%N && (s (Ordinal lt) 0 ^+ 2 <= nu).
  by rewrite mem_filter mem_iota /= add0n (nth_ofcv _ lt) andbC.
have rlt : (r < k)%N -> (r.+1 < k)%N.
  move=> rk; case: h3 => [e|]; first by rewrite e ltnn in rk.
  by rewrite mem_filter mem_iota => /andP[_]; lia.
split=> // i i0 ik; apply/idP/idP => [ir|].
  rewrite ltNge; apply/negP => le.
  have lt : (i.-1.+1 < q)%N by rewrite prednK.
  have : (i.-1 \in l).
    rewrite (lP _ lt); apply/andP; split; first lia.
    by rewrite (_ : Ordinal lt = i) //; apply: val_inj; rewrite /= prednK.
  by move/h2; rewrite -/r; lia.
apply: contraTT; rewrite -ltnNge -leNgt => ri.
case: h3 => [e|rl]; first by move: ri; rewrite e; lia.
have lt : (r.+1 < q)%N by have := ltn_ord i; lia.
move: rl; rewrite (lP _ lt) => /andP[_]; apply: le_trans.
by rewrite ler_pexpn2r ?nnegrE ?s0 // sd.
Qed.

End Comps.

Section Nystrom.
Variables (R : rcfType).
Implicit Types n p : nat.

Definition qf n (A : 'M[R]_n) (x : 'cV[R]_n) : R := dot x (A *m x).
Definition psd n (A : 'M[R]_n) : Prop := A^T = A /\ forall x : 'cV[R]_n, 0 <= qf A x.

Lemma dotAB m n (X : 'M[R]_(m, n)) (x : 'cV[R]_m) (y : 'cV[R]_n) : dot x (X *m y) = dot (X^T *m x) y.
Proof. by rewrite /dot trmx_mul trmxK mulmxA. Qed.

(** The Nystrom approximation never exceeds the matrix. *)
Lemma nystrom_le n p (A : 'M[R]_n) (S : 'M[R]_(n, p)) (C := S^T *m A *m S) (x : 'cV[R]_n) :
  psd A -> C \in unitmx -> qf (A *m S *m invmx C *m (A *m S)^T) x <= qf A x.
Proof.
move=> [sA pA] uC; pose z := invmx C *m (A *m S)^T *m x.
have sC : C^T = C by rewrite /C trmx_mul trmx_mul trmxK sA mulmxA.
have e1 : qf (A *m S *m invmx C *m (A *m S)^T) x = dot (A *m x) (S *m z).
  by rewrite /qf /dot /z !trmx_mul sA !mulmxA.
have Cz : C *m z = (A *m S)^T *m x by rewrite /z -mulmxA mulKVmx.
move: e1 Cz; clear uC; move: z => z e1 Cz.
have e2 : dot (S *m z) (A *m (S *m z)) = dot (A *m x) (S *m z).
  have -> : dot (S *m z) (A *m (S *m z)) = dot z (C *m z) by rewrite /dot /C trmx_mul !mulmxA.
  by rewrite Cz trmx_mul sA [RHS]dotC /dot trmx_mul !mulmxA.
have := pA (x - S *m z); rewrite e1 /qf mulmxBr dotBl !dotBr e2.
rewrite [dot (S *m z) (A *m x)]dotC [dot x (A *m (S *m z))]dotAB sA subrr subr0.
by rewrite subr_ge0.
Qed.

Lemma ker_exists m n (X : 'M[R]_(m, n)) : (\rank X < n)%N -> exists2 v : 'cV[R]_n, v != 0 & X *m v = 0.
Proof.
move=> lt; have : kermx X^T != 0.
  by rewrite -mxrank_eq0 mxrank_ker mxrank_tr -lt0n subn_gt0.
case/rowV0Pn => v /sub_kermxP vX v0; exists v^T; first by rewrite trmx_eq0.
by rewrite -[X]trmxK -trmx_mul vX trmx0.
Qed.

Lemma qf_diag q (d : 'cV[R]_q) (y : 'cV[R]_q) : qf (diag_mx d^T) y = \sum_i d i 0 * y i 0 ^+ 2.
Proof.
rewrite /qf /dot mxE; apply: eq_bigr => i _; rewrite mul_diag_mx !mxE.
by rewrite mulrCA expr2.
Qed.

(** Eigenvalues beyond the rank of [A] are due to the regularisation. *)
Lemma beyond_rank n q (A N : 'M[R]_n) (W : 'M[R]_(n, q)) (d : 'cV[R]_q) nu (i : 'I_q) :
  (forall x, qf N x <= qf (A + nu%:M) x) ->
  orthonormal W -> N = W *m diag_mx d^T *m W^T ->
  (forall i j : 'I_q, (i <= j)%N -> d j 0 <= d i 0) ->
  \rank A = i -> d i 0 <= nu.
Proof.
move=> le oW NE dd rA; have iq : (i.+1 <= q)%N by [].
pose X := colblk W 0 i.+1.
have [|y y0 Ay] := @ker_exists _ _ (A *m X).
  by rewrite ltnS (leq_trans (mxrankM_maxl _ _)) ?rA.
have oX : orthonormal X by apply: orthonormal_colblk.
have := le (X *m y).
have XW : X^T *m W = (selmx R q 0 i.+1)^T.
  by rewrite /X colblkE trmx_mul -mulmxA oW mulmx1.
have -> : qf N (X *m y) = qf (diag_mx (topv d i.+1)^T) y.
  have e : diag_mx (topv d i.+1)^T = X^T *m N *m X.
    rewrite NE !mulmxA XW -[_ *m W^T *m X]mulmxA (_ : W^T *m X = selmx R q 0 i.+1); last first.
      by rewrite -[W^T *m X]trmxK trmx_mul trmxK XW trmxK.
    by rewrite -mulmxA diag_selmx // mulmxA selmxP // mul1mx.
  by rewrite e /qf /dot trmx_mul !mulmxA.
have -> : qf (A + nu%:M) (X *m y) = nu * fro2 y.
  rewrite /qf mulmxDl mulmxA Ay add0r mul_scalar_mx dotZr dotxx fro2_ortho //.
rewrite qf_diag fro2_cvE => h.
have {}h : d i 0 * (\sum_j y j 0 ^+ 2) <= nu * (\sum_j y j 0 ^+ 2).
  apply: le_trans h; rewrite mulr_sumr; apply: ler_sum => j _.
  have lt := leq_trans (ltn_ord j) iq.
  by rewrite (topvE _ lt) ler_wpmul2r ?sqr_ge0 // dd //= -ltnS.
by move: h; rewrite ler_pmul2r // -fro2_cvE lt_neqAle fro2_ge0 eq_sym fro2_eq0 y0.
Qed.

End Nystrom.

Section Evd2.
Variables (R : rcfType) (G : Type) (L : lapack R).
Hypotheses (svdL : svd_spec L).

Definition evd2_nu n p (A : 'M[R]_n) (S : 'M[R]_(n, p)) : R :=
  Num.sqrt n%:R * 2%:R ^- 52 * fro (A *m S).

Lemma evd2_nu_ge0 n p (A : 'M[R]_n) (S : 'M[R]_(n, p)) : 0 <= evd2_nu A S.
Proof.
rewrite /evd2_nu mulr_ge0 ?fro_ge0 // mulr_ge0 ?sqrtr_ge0 //.
by rewrite invr_ge0 exprn_ge0 ?ler0n.
Qed.

Lemma evd2_nu_gt0 n p (A : 'M[R]_n) (S : 'M[R]_(n, p)) : A *m S != 0 -> 0 < evd2_nu A S.
Proof.
move=> AS; have n0 : (0 < n)%N.
  by case: n A S AS => // A S; rewrite (flatmx0 (A *m S)) eqxx.
rewrite /evd2_nu mulr_gt0 //.
  by rewrite mulr_gt0 ?sqrtr_gt0 ?ltr0n // invr_gt0 exprn_gt0 ?ltr0n.
by rewrite lt_neqAle fro_ge0 andbT eq_sym fro_eq0.
Qed.

Lemma spd_gram p (C Lo : 'M[R]_p) : lotri Lo -> (forall i, 0 < Lo i i) -> Lo *m Lo^T = C -> spd C.
Proof.
move=> tL dL <-; split; first by rewrite trmx_mul trmxK.
move=> x x0; have uL : Lo \in unitmx.
  by rewrite lotri_unit //; apply/forallP => i; rewrite gt_eqF.
have -> : (x^T *m (Lo *m Lo^T) *m x) 0 0 = fro2 (Lo^T *m x).
  by rewrite fro2_cv trmx_mul trmxK !mulmxA.
rewrite lt_neqAle fro2_ge0 andbT eq_sym fro2_eq0; apply: contra x0 => /eqP z.
by rewrite -[x](mulKmx (_ : Lo^T \in unitmx)) ?unitmx_tr // z mulmx0.
Qed.

Lemma EVD2P (sk_op : rowsketcher) n (A : 'M[R]_n) (k : int) tol (over : int) (s s1 : st G R)
    p (S : 'M[R]_(n, p)) (nu := evd2_nu A S) (Y := (A + nu%:M) *m S)
    (C := S^T *m Y) s0 :
  A^T = A -> 0 < k < n%:Z -> 0 <= k + over -> (0 < p)%N ->
  s0 = (if tol is Some _ then St (gen s) (rcons (evs s) (EvWarn W_other)) else s) ->
  sk_op (ofmx A) (absz (k + over)) s0 = (s1, inr (PyArr (ofmx S))) ->
  let s2 := St (gen s1) (rcons (evs s1) (EvPass false)) in
  (~ spd C /\ EVD2 L sk_op (ofmx A) k tol over s = (s2, inl LinAlgError)) \/
  [/\ spd C & exists q (V : 'M[R]_(n, q)) (sg : 'cV[R]_q),
     [/\ q = minn n p, orthonormal V,
         Y *m invmx C *m Y^T = V *m diag_mx (\col_i sg i 0 ^+ 2)^T *m V^T,
         (forall i, 0 <= sg i 0) /\ (forall i j : 'I_q, (i <= j)%N -> sg j 0 <= sg i 0) &
       (q < absz k)%N /\ EVD2 L sk_op (ofmx A) k tol over s = (s2, inl IndexError) \/
       [/\ (absz k <= q)%N & exists r,
         [/\ EVD2 L sk_op (ofmx A) k tol over s =
               (s2, inr (ofmx (colblk V 0 r), ofcv (\col_(i < r) (topv sg r i 0 ^+ 2 - nu)))),
             (r <= absz k)%N,
             forall i : 'I_q, (0 < i)%N -> (i < absz k)%N -> (i <= r)%N = (nu < sg i 0 ^+ 2) &
             (r < absz k)%N -> (r.+1 < absz k)%N]]]].
Proof.
move=> sA /andP[k0 kn] ko p0 s0E Es s2.
have n0 : (0 < n)%N by lia.
have YE : A *m S + nu *: S = Y by rewrite /Y mulmxDl mul_scalar_mx.
have sC : C^T = C.
  by rewrite /C /Y trmx_mul trmx_mul trmxK linearD /= tr_scalar_mx sA mulmxA.
have run : EVD2 L sk_op (ofmx A) k tol over s =
  (let! Lo := lift (cholesky (ofmx C)) in
   let! Bt := lift (solve_tri false true (mtr Lo) (ofmx Y^T)) in
   let! USV := lift (l_svd L (mtr Bt)) in
   let! comps := lift (evd2_comps USV.1.2 nu (absz k).-1 0) in
   let rr := foldr minn (absz k) comps in
   ret (cslice USV.1.1 0 rr, map (fun x => (osq x - nu)%O) (vslice USV.1.2 0 rr))) s2.
  rewrite /EVD2 k0 bind_passertT nr_ofmx kn bind_passertT.
  have Et f : bind (if tol is Some _ then emit (EvWarn W_other) else ret tt) f s = f tt s0 :> st G R * res (arr R * seq R).
    by rewrite s0E; case: (tol).
  rewrite Et ifF; last by apply/negbTE; lia.
  rewrite (bindE _ Es) (bindE _ (passAE _ _ _)) -/s2 mnormE onatE oepsE mscaleE maddE bind_liftE.
  have nuE : (osqrt n%:R * 2%:R ^- 52 * fro (A *m S))%O = nu by [].
  by rewrite nuE YE !mtrE mmulE bind_liftE mtrE -/C sC.
rewrite run.
case EC: (cholesky (ofmx C)) => [e|X]; first by left; have [-> h] := cholesky_err EC.
right; have [Lo [-> tL dL LL]] := choleskyP sC EC.
have uL : Lo \in unitmx by rewrite lotri_unit //; apply/forallP => i; rewrite gt_eqF.
have uC : C \in unitmx by rewrite -LL unitmx_mul uL unitmx_tr.
split; first exact: spd_gram LL.
rewrite bind_liftE mtrE solve_triE; last by move=> i j ij; rewrite mxE tL.
rewrite unitmx_tr uL bind_liftE.
have e : mtr (ofmx (invmx (Lo^T)^T *m Y^T)) = ofmx (Y *m invmx Lo^T) :> arr R.
  by rewrite mtrE trmx_mul trmxK trmxK trmx_inv.
rewrite e.
set B := Y *m invmx Lo^T.
have BB : B *m B^T = Y *m invmx C *m Y^T.
  have iC : invmx C = invmx Lo^T *m invmx Lo.
    rewrite -[RHS](mulKmx uC) -LL -!mulmxA.
    by rewrite mulKVmx ?unitmx_tr // mulmxV // mulmx1.
  by rewrite /B iC [(_ *m invmx _)^T]trmx_mul trmx_inv trmxK !mulmxA.
have [V [sg [Vh [[El oV oVh BE] [sg0 sd]]]]] := svdL B n0 p0.
rewrite El bind_liftE [_.1.2]/= [_.1.1]/=.
exists (minn n p), V, sg; split=> //.
  rewrite -BB BE !trmx_mul tr_diag_mx -!mulmxA; congr (_ *m _).
  rewrite [Vh *m _]mulmxA (_ : Vh *m Vh^T = 1%:M); last by have := oVh; rewrite /orthonormal trmxK.
  rewrite mul1mx !mulmxA mulmx_diag; congr (diag_mx _ *m _); apply/rowP=> i; rewrite !mxE expr2 //.
case: (leqP (absz k) (minn n p)) => kq; last first.
  left; split=> //; rewrite evd2_compsE size_ofcv ifF //.
  by apply/negbTE; rewrite negb_imply -leqNgt; move: kq p0 n0; lia.
right; split=> //.
have k0' : (0 < absz k)%N by lia.
have [comps [r [-> rE h1 h2 h3]]] := comps_min nu k0' kq sg0 sd.
rewrite {}rE in h1 h2 h3 *.
exists (foldr minn (absz k) comps); split=> //.
rewrite bind_liftE; set r' := foldr _ _ _ in h1 h2 h3 *; lazy zeta.
have rq := leq_trans h1 kq.
rewrite cslice_top // vslice_topv //; rewrite /ret; congr (_, inr (_, _)).
apply: (@eq_from_nth _ 0); first by rewrite size_map !size_ofcv.
move=> i; rewrite size_map size_ofcv => ir; rewrite (nth_map 0) ?size_ofcv // osqE.
by rewrite !(nth_ofcv _ ir) [RHS]mxE.
Qed.


Lemma qfD n (A B : 'M[R]_n) x : qf (A + B) x = qf A x + qf B x.
Proof. by rewrite /qf mulmxDl dotDr. Qed.

Lemma qf_scalar n nu (x : 'cV[R]_n) : qf nu%:M x = nu * fro2 x.
Proof. by rewrite /qf mul_scalar_mx dotZr dotxx. Qed.

Lemma psd_shift n (A : 'M[R]_n) nu : psd A -> 0 <= nu -> psd (A + nu%:M).
Proof.
move=> [sA pA] nu0; split; first by rewrite linearD /= tr_scalar_mx sA.
by move=> x; rewrite qfD qf_scalar addr_ge0 // mulr_ge0 ?fro2_ge0.
Qed.

(** When the matrix of the Cholesky step is positive definite. *)
Lemma evd2_spd n p (A : 'M[R]_n) (S : 'M[R]_(n, p)) (nu := evd2_nu A S) :
  psd A -> \rank S = p -> A *m S != 0 -> spd (S^T *m ((A + nu%:M) *m S)).
Proof.
move=> pA rS AS; have nu0 : 0 < nu := evd2_nu_gt0 AS.
have [sN _] := psd_shift pA (ltW nu0); case: pA => sA pA; split.
  by rewrite trmx_mul [(_ *m S)^T]trmx_mul trmxK sN mulmxA.
move=> x x0; have -> : (x^T *m (S^T *m ((A + nu%:M) *m S)) *m x) 0 0 = qf (A + nu%:M) (S *m x).
  by rewrite /qf /dot trmx_mul !mulmxA.
rewrite qfD qf_scalar; apply: ltr_paddl (pA _) _.
rewrite mulr_gt0 // lt_neqAle fro2_ge0 andbT eq_sym fro2_eq0.
apply: contra x0 => /eqP z; apply/eqP.
exact: (full_col_inj rS z).
Qed.

Lemma not_spd_wide n p (X : 'M[R]_n) (S : 'M[R]_(n, p)) : (n < p)%N -> ~ spd (S^T *m (X *m S)).
Proof.
move=> np [_ H]; have [|y y0 Sy] := @ker_exists _ _ _ S.
  exact: leq_ltn_trans (rank_leq_row _) np.
by have := H y y0; rewrite -!mulmxA Sy !mulmx0 mxE ltxx.
Qed.

Lemma not_spd_zero n p (A : 'M[R]_n) (S : 'M[R]_(n, p)) (nu := evd2_nu A S) :
  (0 < p)%N -> A *m S = 0 -> ~ spd (S^T *m ((A + nu%:M) *m S)).
Proof.
move=> p0 AS [_ /(_ (delta_mx (Ordinal p0) 0))].
have -> : nu = 0 by rewrite /nu /evd2_nu AS fro0 mulr0.
have -> : (A + 0%:M) *m S = 0 by rewrite raddf0 addr0.
rewrite mulmx0 mulmx0 mul0mx mxE ltxx => H.
have /H // : delta_mx (Ordinal p0) 0 != 0 :> 'cV[R]_p.
by apply/eqP => /matrixP /(_ (Ordinal p0) 0); rewrite !mxE !eqxx => /eqP; rewrite oner_eq0.
Qed.

(** What a returning call of EVD2 delivers. *)
Record evd2_result n p (A : 'M[R]_n) (S : 'M[R]_(n, p)) (k r : nat)
    (V : 'M[R]_(n, r)) (lamb : 'cV[R]_r) : Prop := Evd2Result {
  e2_r : (r <= k)%N;
  e2_orth : orthonormal V;
  e2_nystrom : exists q (W : 'M[R]_(n, q)) (d : 'cV[R]_q),
    let nu := evd2_nu A S in
    let Y := (A + nu%:M) *m S in
    [/\ orthonormal W, forall i j : 'I_q, (i <= j)%N -> d j 0 <= d i 0,
        Y *m invmx (S^T *m Y) *m Y^T = W *m diag_mx d^T *m W^T,
        (k <= q)%N /\ V = colblk W 0 r &
        forall i : 'I_r, lamb i 0 + nu = mxe d i 0];
  e2_sorted : forall i j : 'I_r, (i <= j)%N -> lamb j 0 <= lamb i 0;
  e2_pos : psd A -> (1 < k)%N -> forall i, 0 < lamb i 0;
  e2_rayleigh : psd A -> forall y : 'cV[R]_r,
    qf (diag_mx lamb^T) y <= qf (V^T *m A *m V) y;
  e2_rank : psd A -> (0 < \rank A < k)%N -> (r < \rank A)%N;
  e2_full : (r < k)%N -> (r.+1 < k)%N }.

Lemma EVD2_result (sk_op : rowsketcher) n (A : 'M[R]_n) (k : int) tol (over : int) (s s1 : st G R)
    p (S : 'M[R]_(n, p)) (nu := evd2_nu A S) (C := S^T *m ((A + nu%:M) *m S)) s0 :
  A^T = A -> 0 < k < n%:Z -> 0 <= k + over -> (0 < p)%N ->
  s0 = (if tol is Some _ then St (gen s) (rcons (evs s) (EvWarn W_other)) else s) ->
  sk_op (ofmx A) (absz (k + over)) s0 = (s1, inr (PyArr (ofmx S))) ->
  let s2 := St (gen s1) (rcons (evs s1) (EvPass false)) in
  (~ spd C -> EVD2 L sk_op (ofmx A) k tol over s = (s2, inl LinAlgError)) /\
  (spd C -> ((p < absz k)%N -> EVD2 L sk_op (ofmx A) k tol over s = (s2, inl IndexError)) /\
     ((absz k <= p)%N -> exists r (V : 'M[R]_(n, r)) (lamb : 'cV[R]_r),
        EVD2 L sk_op (ofmx A) k tol over s = (s2, inr (ofmx V, ofcv lamb)) /\
        evd2_result A S (absz k) V lamb)).
Proof.
move=> sA kn ko p0 s0E Es s2.
case: (EVD2P sA kn ko p0 s0E Es) => [[nC E]|[sC [q [W [sg [qE oW NE [sg0 sd]]] H]]]].
  by split=> [_|/nC].
split=> // _; split=> [pk|kp].
  by case: H => [[_ ->] //|[kq _]]; move: kq; rewrite qE => kq; exfalso; move: kq pk; lia.
case: H => [[lt _]|[kq [r [E rk rP rl]]]].
  by exfalso; move: lt kp; rewrite qE; lia.
have rq := leq_trans rk kq; have nu0 : 0 <= nu := evd2_nu_ge0 A S.
have tE (i : 'I_r) : topv sg r i 0 = sg (widen_ord rq i) 0.
  by rewrite (topvE _ (leq_trans (ltn_ord i) rq)); congr (sg _ _); apply: val_inj.
pose lam : 'cV[R]_r := \col_(i < r) (topv sg r i 0 ^+ 2 - nu).
have lE (i : 'I_r) : lam i 0 = sg (widen_ord rq i) 0 ^+ 2 - nu by rewrite [LHS]mxE tE.
exists r, (colblk W 0 r), lam; split=> //; move: lam lE {E} => lam lE.
have oV : orthonormal (colblk W 0 r) by apply: orthonormal_colblk.
have dd (i j : 'I_q) : (i <= j)%N -> (\col_i sg i 0 ^+ 2) j 0 <= (\col_i sg i 0 ^+ 2) i 0 :> R.
  by move=> ij; rewrite !mxE ler_pexpn2r ?nnegrE ?sg0 // sd.
have uC := spd_unit sC.
have Nle : psd A -> forall x, qf (W *m diag_mx (\col_i sg i 0 ^+ 2)^T *m W^T) x <= qf (A + nu%:M) x.
  move=> pA x; rewrite -NE.
  have [sN pN] := psd_shift pA nu0.
  apply: le_trans (nystrom_le (S := S) x (psd_shift pA nu0) _); first by rewrite !mulmxA.
  by rewrite -mulmxA.
split=> //.
- exists q, W, (\col_i sg i 0 ^+ 2); split=> // i.
  by rewrite lE subrK (mxe_ord _ (leq_trans (ltn_ord i) rq) (ltn0Sn 0)) mxE; congr (sg _ _ ^+ 2); apply: val_inj.
- by move=> i j ij; rewrite !lE ler_add2r ler_pexpn2r ?nnegrE ?sg0 // sd.
- move=> pA k1 i; rewrite lE subr_gt0.
  pose j := maxn 1 i; have jq : (j < q)%N by have := ltn_ord i; rewrite /j; lia.
  have : (nu < sg (Ordinal jq) 0 ^+ 2).
    by rewrite -rP /=; have := ltn_ord i; rewrite /j; lia.
  move=> lt; apply: lt_le_trans lt _; rewrite ler_pexpn2r ?nnegrE ?sg0 // sd //.
  by rewrite /= /j leq_maxr.
- move=> pA y; have := Nle pA (colblk W 0 r *m y).
  have XW : (colblk W 0 r)^T *m W = (selmx R q 0 r)^T.
    by rewrite colblkE trmx_mul -mulmxA oW mulmx1.
  have -> : qf (W *m diag_mx (\col_i sg i 0 ^+ 2)^T *m W^T) (colblk W 0 r *m y) =
            qf (diag_mx (topv (\col_i sg i 0 ^+ 2) r)^T) y.
    have e : diag_mx (topv (\col_i sg i 0 ^+ 2) r)^T =
        (colblk W 0 r)^T *m (W *m diag_mx (\col_i sg i 0 ^+ 2)^T *m W^T) *m colblk W 0 r.
      rewrite !mulmxA XW -[_ *m W^T *m colblk W 0 r]mulmxA.
      rewrite (_ : W^T *m colblk W 0 r = selmx R q 0 r); last first.
        by rewrite -[W^T *m _]trmxK trmx_mul trmxK XW trmxK.
      by rewrite -mulmxA diag_selmx // mulmxA selmxP // mul1mx.
    by rewrite e /qf /dot trmx_mul !mulmxA.
  rewrite qfD qf_scalar fro2_ortho // => h.
  have -> : qf ((colblk W 0 r)^T *m A *m colblk W 0 r) y = qf A (colblk W 0 r *m y).
    by rewrite /qf /dot trmx_mul !mulmxA.
  rewrite -ler_subl_addr in h; apply: le_trans h; rewrite !qf_diag fro2_cvE mulr_sumr -sumrB.
  apply: ler_sum => i _; rewrite -mulrBl ler_wpmul2r ?sqr_ge0 // lE.
  by rewrite (topvE _ (leq_trans (ltn_ord i) rq)) mxE ler_add2r; rewrite (_ : Ordinal _ = widen_ord rq i) //; apply: val_inj.
- move=> pA /andP[r0 rAk]; have lt : (\rank A < q)%N := leq_trans rAk kq.
  have := @beyond_rank _ _ _ A _ W _ nu (Ordinal lt) (Nle pA) oW erefl dd erefl.
  by rewrite mxE ltnNge (rP (Ordinal lt) r0 rAk) -leNgt.
Qed.

End Evd2.
