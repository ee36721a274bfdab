(** Truncating a singular value or eigenvalue decomposition, and the SVD-based
    preconditioner. *)
From mathcomp Require Import all_ssreflect all_algebra.
From mathcomp Require Import zify.
From Verif Require Import Base Arr Lapack Exact MxLib RingTac LapackSpec Rng Precond P_Precond.
Set Implicit Arguments.
Unset Strict Implicit.
Unset Printing Implicit Defensive.
Import Order.TTheory GRing.Theory Num.Theory.
Local Open Scope ring_scope.

Section Trunc.
Variable R : rcfType.

Lemma selmxP q r (J := selmx R q 0 r) : (r <= q)%N -> J^T *m J = 1%:M.
Proof.
move=> rq; apply/matrixP=> i j; rewrite !mxE.
have lt : (i < q)%N := leq_trans (ltn_ord i) rq.
rewrite (bigD1 (Ordinal lt)) //= !mxE /= !add0n eqxx mul1r big1 ?addr0 //.
by move=> l; rewrite -val_eqE /= !mxE add0n => /negbTE ->; rewrite mul0r.
Qed.

(** The first [r] entries of a vector. *)
Definition topv q (s : 'cV[R]_q) r : 'cV[R]_r := rowblk s 0 r.

Lemma topvE q (s : 'cV[R]_q) r (i : 'I_r) (lt : (i < q)%N) : topv s r i 0 = s (Ordinal lt) 0.
Proof. by rewrite mxE add0n (mxe_ord _ lt (ltn0Sn 0)); congr (s _ _); apply: val_inj. Qed.

Lemma vslice_topv q (s : 'cV[R]_q) r : (r <= q)%N -> vslice (ofcv s) 0 r = ofcv (topv s r).
Proof.
move=> rq; rewrite /vslice drop0 subn0; apply: (@eq_from_nth _ 0).
  by rewrite size_takel ?size_ofcv.
move=> i; rewrite size_takel ?size_ofcv // => ir; rewrite nth_take //.
rewrite -[LHS]/(@ev R (rcf_ops R) _ _) -[RHS]/(@ev R (rcf_ops R) _ _).
by rewrite (ev_ofcv_nat _ (leq_trans ir rq)) (ev_ofcv_nat _ ir) (@topvE _ _ _ (Ordinal ir) (leq_trans ir rq)).
Qed.

Lemma slen0 q r : (r <= q)%N -> slen q 0 r = r.
Proof. by move=> rq; rewrite /slen min0n subn0; apply/minn_idPl. Qed.

Lemma cslice_top m q (U : 'M[R]_(m, q)) r : (r <= q)%N ->
  cslice (ofmx U) 0 r = ofmx (colblk U 0 r).
Proof. by move=> rq; rewrite cslice_colblk min0n slen0. Qed.
Lemma rslice_top m q (U : 'M[R]_(q, m)) r : (r <= q)%N ->
  rslice (ofmx U) 0 r = ofmx (rowblk U 0 r).
Proof. by move=> rq; rewrite rslice_rowblk min0n slen0. Qed.

Lemma rowblkE m q (U : 'M[R]_(q, m)) a r : rowblk U a r = (selmx R q a r)^T *m U.
Proof. by rewrite -[U]trmxK -tr_colblk colblkE trmx_mul trmxK. Qed.

Lemma diag_selmx q (s : 'cV[R]_q) r : (r <= q)%N ->
  diag_mx s^T *m selmx R q 0 r = selmx R q 0 r *m diag_mx (topv s r)^T.
Proof.
move=> rq; apply/matrixP=> i j; rewrite mul_diag_mx mul_mx_diag !mxE add0n mulrC.
have lt : (j < q)%N := leq_trans (ltn_ord j) rq.
case: eqP => ij; rewrite ?mul0r // !mul1r /= ?add0n (mxe_ord _ lt (ltn0Sn 0)).
by congr (s _ _); apply: val_inj.
Qed.

(** In a non-increasing list the entries above a threshold come first. *)
Lemma count_desc (cut : R) (s : seq R) :
  (forall i j, (i <= j)%N -> (j < size s)%N -> nth 0 s j <= nth 0 s i) ->
  forall i, (i < size s)%N -> (i < count (fun x => (cut < x)%R) s)%N = (cut < nth 0 s i).
Proof.
elim: s => // x s IH H i lt.
have Hs i' j : (i' <= j)%N -> (j < size s)%N -> nth 0 s j <= nth 0 s i'.
  by move=> ij js; apply: (H i'.+1 j.+1).
rewrite /=; case: (ltP cut x) => cx; first by case: i lt => //= i lt; rewrite add1n ltnS IH.
have le j : (j < size (x :: s))%N -> nth 0 (x :: s) j <= cut.
  by move=> js; apply: le_trans cx; apply: (H 0%N j).
have -> : count (fun x => cut < x) s = 0%N.
  apply/eqP; rewrite -leqn0 leqNgt -has_count; apply/hasPn => y ys.
  by rewrite -leNgt -(nth_index 0 ys); apply: (le (index y s).+1); rewrite /= ltnS index_mem.
by rewrite addn0 ltn0; symmetry; apply/negbTE; rewrite -leNgt le.
Qed.

Lemma nth_ofcv q (s : 'cV[R]_q) i (lt : (i < q)%N) : nth 0 (ofcv s) i = s (Ordinal lt) 0.
Proof. by rewrite -[LHS]/(@ev R (rcf_ops R) _ _) (ev_ofcv_nat _ lt). Qed.

Lemma desc_ofcv q (s : 'cV[R]_q) : (forall i j : 'I_q, (i <= j)%N -> s j 0 <= s i 0) ->
  forall i j, (i <= j)%N -> (j < size (ofcv s))%N -> nth 0 (ofcv s) j <= nth 0 (ofcv s) i.
Proof.
move=> H i j ij; rewrite size_ofcv => jq.
by rewrite (nth_ofcv _ jq) (nth_ofcv _ (leq_ltn_trans ij jq)) H.
Qed.

(** Dividing and multiplying the columns. *)
Definition vinv q (s : 'cV[R]_q) : 'cV[R]_q := \col_i (s i 0)^-1.

Lemma cdivE m q (X : 'M[R]_(m, q)) (s : 'cV[R]_q) :
  cdiv (ofmx X) (ofcv s) = Ok (ofmx (X *m diag_mx (vinv s)^T)).
Proof.
rewrite /cdiv size_ofcv nc_ofmx eqxx nr_ofmx; congr Ok; apply: mk_eq_ofmx => i j.
by rewrite el_ofmx ev_ofcv mul_mx_diag !mxE.
Qed.

Lemma cmulE m q (X : 'M[R]_(m, q)) (s : 'cV[R]_q) :
  cmul (ofmx X) (ofcv s) = Ok (ofmx (X *m diag_mx s^T)).
Proof.
rewrite /cmul size_ofcv nc_ofmx eqxx nr_ofmx; congr Ok; apply: mk_eq_ofmx => i j.
by rewrite el_ofmx ev_ofcv mul_mx_diag !mxE.
Qed.

Lemma diag_vinv q (s : 'cV[R]_q) : (forall i, s i 0 != 0) ->
  diag_mx s^T *m diag_mx (vinv s)^T = 1%:M.
Proof.
move=> s0; rewrite mulmx_diag; apply/matrixP=> i j; rewrite !mxE.
by case: eqP => [->|]; rewrite ?mulr1n ?mulr0n ?mulfV.
Qed.
Lemma diag_vinvl q (s : 'cV[R]_q) : (forall i, s i 0 != 0) ->
  diag_mx (vinv s)^T *m diag_mx s^T = 1%:M.
Proof. by move=> s0; apply: mulmx1C; exact: diag_vinv. Qed.

End Trunc.

(** ** The SVD-based right preconditioner *)
Section SvdPc.
Variable R : rcfType.

(** No non-zero singular value falls below the cut-off
    [sigma[0] * n * eps] of [svd_right_precond]. *)
Definition cut_clean (n : nat) (s : seq R) : Prop :=
  forall t, t \in s -> t = 0 \/ nth 0 s 0 * n%:R * 2%:R ^- 52 < t.

Lemma diag_cut q (s : 'cV[R]_q) r : (r <= q)%N -> (forall i : 'I_q, (r <= i)%N -> s i 0 = 0) ->
  diag_mx s^T = selmx R q 0 r *m diag_mx (topv s r)^T *m (selmx R q 0 r)^T.
Proof.
move=> rq s0; rewrite -diag_selmx // -mulmxA; apply/matrixP=> i j.
rewrite mul_diag_mx !mxE; case: (ltnP i r) => ir; last first.
  by rewrite s0 // mul0r mul0rn.
rewrite (bigD1 (Ordinal ir)) //= !mxE !add0n /= eqxx mul1r big1 ?addr0 => [|l].
  by rewrite -val_eqE /= eq_sym -mulr_natr.
rewrite -val_eqE /= !mxE add0n eq_sym => /negbTE->.
by rewrite mul0r.
Qed.

(** What [M, U, sigma, Vh] are, for the sketch [As]. *)
Record svd_pc p n r (As : 'M[R]_(p, n)) (M : 'M[R]_(n, r)) (U : 'M[R]_(p, r))
    (s : 'cV[R]_r) (Vh : 'M[R]_(r, n)) : Prop := SvdPc {
  sp_U : orthonormal U;
  sp_V : orthonormal Vh^T;
  sp_s : forall i, 0 < s i 0;
  sp_sort : forall i j : 'I_r, (i <= j)%N -> s j 0 <= s i 0;
  sp_M : M = Vh^T *m diag_mx (vinv s)^T;
  sp_AM : As *m M = U;
  sp_UA : U^T *m As = diag_mx s^T *m Vh;
  sp_rank : \rank As = r -> As = U *m diag_mx s^T *m Vh }.

Lemma svd_pc_col m r n (As : 'M[R]_(m, n)) (M : 'M[R]_(n, r)) (U : 'M[R]_(m, r)) :
  orthonormal U -> As *m M = U -> (r <= \rank As)%N /\
  (\rank As = r -> U *m U^T *m As = As).
Proof.
move=> oU AM; have sub : (U^T <= As^T)%MS by rewrite -AM trmx_mul submxMl.
have rU : \rank U^T = r by rewrite mxrank_tr orthonormal_rank.
have le : (r <= \rank As)%N by rewrite -mxrank_tr -rU mxrankS.
split=> // rA.
have /submxP[D DE] : (As^T <= U^T)%MS.
  by rewrite -(geq_leqif (mxrank_leqif_sup sub)) mxrank_tr rA rU.
have -> : As = U *m D^T by rewrite -[As]trmxK DE trmx_mul trmxK.
by rewrite -mulmxA [U^T *m _]mulmxA oU mul1mx.
Qed.

Lemma svd_pc_unit n p (As : 'M[R]_(p, n)) M U s Vh : @svd_pc p n n As M U s Vh ->
  [/\ M \in unitmx, As = U *m diag_mx s^T *m Vh & M *m M^T = invmx (As^T *m As)].
Proof.
move=> sp; have s0 i : s i 0 != 0 by rewrite gt_eqF ?(sp_s sp).
have rA : \rank As = n.
  by apply/eqP; rewrite eqn_leq rank_leq_col (svd_pc_col (sp_U sp) (sp_AM sp)).1.
have AE := sp_rank sp rA.
have uM : M \in unitmx.
  have E : diag_mx s^T *m Vh *m M = 1%:M.
    by rewrite -(sp_UA sp) -mulmxA (sp_AM sp) (sp_U sp).
  by case/mulmx1_unit: E.
split=> //.
have uG : As^T *m As \in unitmx by apply: gram_unit.
have MG : M^T *m (As^T *m As) *m M = 1%:M.
  by rewrite mulmxA -trmx_mul (sp_AM sp) -mulmxA (sp_AM sp) (sp_U sp).
have uMt : M^T \in unitmx by rewrite unitmx_tr.
have GM : As^T *m As *m M = invmx M^T.
  by apply: (can_inj (mulKmx uMt)); rewrite mulmxV // mulmxA.
by apply: (can_inj (mulKmx uG)); rewrite mulmxV // mulmxA GM mulVmx.
Qed.

Variable L : lapack R.
Hypothesis svd : svd_spec L.

Lemma svd_right_precondP p n (As : 'M[R]_(p, n)) : (0 < p)%N -> (0 < n)%N ->
  exists r (M : 'M[R]_(n, r)) (U : 'M[R]_(p, r)) (s : 'cV[R]_r) (Vh : 'M[R]_(r, n)),
  [/\ svd_right_precond L (ofmx As) = Ok (ofmx M, ofmx U, ofcv s, ofmx Vh),
      svd_pc As M U s Vh &
      exists U0 s0 Vh0, l_svd L (ofmx As) = Ok (U0, s0, Vh0) /\
        r = count (fun t => nth 0 s0 0 * n%:R * 2%:R ^- 52 < t) s0 /\
        (cut_clean n s0 -> \rank As = r)].
Proof.
move=> p0 n0; have [U [s [Vh [[E oU oV AE] [s0 sd]]]]] := svd As p0 n0.
have q0 : (0 < minn p n)%N by rewrite leq_min p0.
pose cut : R := nth 0 (ofcv s) 0 * n%:R * 2%:R ^- 52.
pose r := count (fun t => cut < t) (ofcv s).
have rq : (r <= minn p n)%N by rewrite -[X in (_ <= X)%N](size_ofcv s) count_size.
have cut0 : 0 <= cut.
  rewrite !mulr_ge0 ?ler0n ?invr_ge0 ?exprn_ge0 ?ler0n //.
  by rewrite (nth_ofcv _ q0).
have sp i : 0 < topv s r i 0.
  have lt := leq_trans (ltn_ord i) rq.
  rewrite (topvE _ lt) -(nth_ofcv s lt); apply: (le_lt_trans cut0).
  by rewrite -(count_desc cut (desc_ofcv sd)) ?size_ofcv // -/r.
have sn i : topv s r i 0 != 0 by rewrite gt_eqF.
pose J := selmx R (minn p n) 0 r; have JJ : J^T *m J = 1%:M by apply: selmxP.
have oV' : Vh *m Vh^T = 1%:M by rewrite -{1}[Vh]trmxK.
have DJ : diag_mx s^T *m J = J *m diag_mx (topv s r)^T by apply: diag_selmx.
have UAE : (U *m J)^T *m As = diag_mx (topv s r)^T *m (J^T *m Vh).
  rewrite trmx_mul AE -!mulmxA [U^T *m _]mulmxA oU mul1mx !mulmxA; congr (_ *m Vh).
  by rewrite -[diag_mx s^T]tr_diag_mx -trmx_mul DJ trmx_mul tr_diag_mx.
have AM : As *m ((J^T *m Vh)^T *m diag_mx (vinv (topv s r))^T) = U *m J.
  rewrite AE trmx_mul trmxK -!mulmxA [Vh *m _]mulmxA oV' mul1mx [diag_mx s^T *m _]mulmxA DJ.
  by rewrite -[J *m _ *m _]mulmxA diag_vinv // mulmx1.
exists r, ((J^T *m Vh)^T *m diag_mx (vinv (topv s r))^T), (U *m J), (topv s r), (J^T *m Vh).
have oUJ : orthonormal (U *m J) by rewrite /orthonormal trmx_mul -mulmxA [U^T *m _]mulmxA oU mul1mx.
split; last 1 first.
  exists (ofmx U), (ofcv s), (ofmx Vh); split=> //; split=> // cl.
  apply/eqP; rewrite eqn_leq (svd_pc_col oUJ AM).1 andbT.
  have s0' i : (r <= val i)%N -> s i 0 = 0.
    move=> ri; have iq : (i < size (ofcv s))%N by rewrite size_ofcv.
    have siE : nth 0 (ofcv s) i = s i 0 by rewrite -[LHS]/(@ev R (rcf_ops R) _ _) ev_ofcv.
    have := cl _ (mem_nth 0 iq); rewrite siE => -[//|].
    by rewrite -siE -(count_desc cut (desc_ofcv sd) iq) -/r ltnNge ri.
  have -> : As = (U *m J) *m (diag_mx (topv s r)^T *m J^T *m Vh).
    by rewrite AE (diag_cut rq s0') !mulmxA.
  by rewrite (leq_trans (mxrankM_maxl _ _)) ?rank_leq_col.
- rewrite /svd_right_precond E [rbind _ _]/=.
  have: (0 < size (ofcv s))%N by rewrite size_ofcv.
  case: (size (ofcv s)) => // k _.
  have -> : (match ofcv s with [::] => 0 | x :: _ => x end) = nth 0 (ofcv s) 0 by case: (ofcv s).
  rewrite onatE oepsE -/cut -/r.
  rewrite rslice_top // cslice_top // vslice_topv // mtrE cdivE /=.
  by rewrite colblkE rowblkE.
- split=> //.
  + by rewrite /orthonormal trmxK trmx_mul trmxK -mulmxA [Vh *m _]mulmxA oV' mul1mx.
  + by move=> i j ij; rewrite !(topvE _ (leq_trans (ltn_ord _) rq)) sd.
  by move=> rA; rewrite -mulmxA -UAE mulmxA; symmetry; apply: (svd_pc_col oUJ AM).2.
Qed.

End SvdPc.
