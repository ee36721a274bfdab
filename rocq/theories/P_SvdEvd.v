(** Proofs about the randomised SVD (svd.py). *)
From mathcomp Require Import all_ssreflect all_algebra.
From mathcomp Require Import zify.
From Verif Require Import Base Arr Lapack Exact MxLib LapackSpec LapackExists Rng Aware RangeFinders QB.
From Verif Require Import P_RS1 P_QB2 P_RF P_QBx P_QBfin P_Svd Sel SvdEvd.
Set Implicit Arguments.
Unset Strict Implicit.
Unset Printing Implicit Defensive.
Import Order.TTheory GRing.Theory Num.Theory.
Local Open Scope ring_scope.

Section Svd.
Variables (R : rcfType) (G : Type) (L : lapack R).
Hypothesis svdL : svd_spec L.

(** The cut-off [10 * eps]. *)
Definition cut : R := 10%:R * 2%:R ^- 52.

Lemma cut10E : cut10 = cut.
Proof. by rewrite /cut10 onatE oepsE. Qed.
Lemma cut_gt0 : 0 < cut.
Proof. by rewrite mulr_gt0 ?ltr0n // invr_gt0 exprn_gt0 ?ltr0n. Qed.

(** A (thin) singular value decomposition of [B]. *)
Record is_svd c n q (B : 'M[R]_(c, n)) (U : 'M[R]_(c, q)) (s : 'cV[R]_q) (Vh : 'M[R]_(q, n)) : Prop :=
  IsSvd {
    sv_U : orthonormal U;
    sv_V : orthonormal Vh^T;
    sv_eq : B = U *m diag_mx s^T *m Vh;
    sv_ge0 : forall i, 0 <= s i 0;
    sv_sort : forall i j : 'I_q, (i <= j)%N -> s j 0 <= s i 0 }.

Lemma pystop_le n c : (pystop n c <= n)%N.
Proof. by case: c => p /=; rewrite ?geq_minr ?leq_subr. Qed.

(** Number of singular values looked at: all, or the first [k]. *)
Definition svd_top (k over : int) (q : nat) : nat :=
  if 0 < over then pystop q (Order.min k q%:Z) else q.

Lemma svd_top_le k over q : (svd_top k over q <= q)%N.
Proof. by rewrite /svd_top; case: ifP => // _; apply: pystop_le. Qed.

Lemma topv2 q (s : 'cV[R]_q) p r : (r <= p)%N -> (p <= q)%N -> topv (topv s p) r = topv s r.
Proof. by move=> rp pq; rewrite /topv rowblk2. Qed.

Lemma rowblk_full m n (X : 'M[R]_(m, n)) : rowblk X 0 m = X.
Proof. by apply/matrixP=> i j; rewrite mxE add0n mxeE. Qed.

Lemma vslice_top2 q (s : 'cV[R]_q) p : (p <= q)%N -> vslice (ofcv s) 0 p = ofcv (topv s p).
Proof. exact: vslice_topv. Qed.

Lemma SVD1P (qb : qbdec) m n c (A : 'M[R]_(m, n)) (k : int) tol (over : int) (s s1 : st G R)
    (Q : 'M[R]_(m, c)) (B : 'M[R]_(c, n)) :
  (0 < c)%N -> (0 < n)%N ->
  qb (ofmx A) (k + over) tol s = (s1, inr (ofmx Q, ofmx B)) ->
  exists (U : 'M[R]_(c, minn c n)) (sg : 'cV[R]_(minn c n)) (Vh : 'M[R]_(minn c n, n)) r,
    [/\ SVD1 L qb (ofmx A) k tol over s =
          (s1, inr (ofmx (Q *m colblk U 0 r), ofcv (topv sg r), ofmx (rowblk Vh 0 r))),
        is_svd B U sg Vh, (r <= svd_top k over (minn c n))%N &
        forall i : 'I_(minn c n), (i < svd_top k over (minn c n))%N -> (i < r)%N = (cut <= sg i 0)].
Proof.
move=> c0 n0 E; rewrite /SVD1 (bindE _ E).
have [U [sg [Vh [[El oU oV BE] [s0 sd]]]]] := svdL B c0 n0.
rewrite El bind_liftE; move: U sg Vh El oU oV BE s0 sd; set q := minn c n.
move=> U sg Vh El oU oV BE s0 sd.
set p := svd_top k over q; have pq : (p <= q)%N := svd_top_le k over q.
lazy zeta.
have -> : (if 0 < over then
      let cutoff := Order.min k (size (ofmx U, ofcv sg, ofmx Vh).1.2)%:Z in
      (cslice (ofmx U, ofcv sg, ofmx Vh).1.1 0 (pystop (nc (ofmx U, ofcv sg, ofmx Vh).1.1) cutoff),
       vslice (ofmx U, ofcv sg, ofmx Vh).1.2 0 (pystop (size (ofmx U, ofcv sg, ofmx Vh).1.2) cutoff),
       rslice (ofmx U, ofcv sg, ofmx Vh).2 0 (pystop (nr (ofmx U, ofcv sg, ofmx Vh).2) cutoff))
    else (ofmx U, ofcv sg, ofmx Vh)) =
    (ofmx (colblk U 0 p), ofcv (topv sg p), ofmx (rowblk Vh 0 p)).
  rewrite /= size_ofcv; move: pq; rewrite /p /svd_top; case: ifP => _ pq; last first.
    by rewrite colblk_full /topv !rowblk_full.
  by rewrite cslice_top // vslice_topv // rslice_top.
pose P (x : R) := ~~ (x < cut).
pose r := count P (ofcv (topv sg p)).
have rp : (r <= p)%N by rewrite -[X in (_ <= X)%N](size_ofcv (topv sg p)) count_size.
have rq := leq_trans rp pq.
have dsc : forall i j, (i <= j)%N -> (j < size (ofcv (topv sg p)))%N ->
    nth 0 (ofcv (topv sg p)) j <= nth 0 (ofcv (topv sg p)) i.
  apply: desc_ofcv => i j ij; rewrite !(topvE _ (leq_trans (ltn_ord _) pq)); exact: sd.
have up : forall x y, x <= y -> P x -> P y.
  by move=> x y xy; rewrite /P -!leNgt => /le_trans; apply.
have cnt := count_mono up dsc.
exists U, sg, Vh, r; split=> //; last first.
  move=> i ip; rewrite /r cnt ?size_ofcv //.
  by rewrite /P -leNgt (nth_ofcv _ ip) (@topvE _ _ _ _ (Ordinal ip) (ltn_ord i)); congr (_ <= sg _ _); apply: val_inj.
rewrite [_.1.2]/= [_.1.1]/= [_.2]/= cut10E.
have E2 : (if has (fun x : R => (x < cut)%O) (ofcv (topv sg p)) then
       let! U0 := lift (cidx (ofmx (colblk U 0 p)) (mask_idx (fun x : R => ~~ (x < cut)%O) (ofcv (topv sg p)))) in
       let! s2 := lift (vidx (ofcv (topv sg p)) (mask_idx (fun x : R => ~~ (x < cut)%O) (ofcv (topv sg p)))) in
       let! Vh0 := lift (ridx (ofmx (rowblk Vh 0 p)) (mask_idx (fun x : R => ~~ (x < cut)%O) (ofcv (topv sg p)))) in
       ret (U0, s2, Vh0)
      else ret (ofmx (colblk U 0 p), ofcv (topv sg p), ofmx (rowblk Vh 0 p))) s1 =
   (s1, inr (ofmx (colblk U 0 r), ofcv (topv sg r), ofmx (rowblk Vh 0 r))).
  case: ifP => hs.
    have -> : mask_idx (fun x : R => ~~ (x < cut)%O) (ofcv (topv sg p)) = iota 0 r.
      rewrite /mask_idx size_ofcv; apply: filter_iota => // i ip.
      by rewrite /r cnt ?size_ofcv.
    have ib : inb p (iota 0 r) by apply: inb_iota.
    rewrite cidxE // bind_liftE vidxE // bind_liftE ridxE // bind_liftE size_iota.
    by rewrite colsel_iota0 // !rowsel_iota0 // colblk2 // -/(topv _ _) topv2 // rowblk2.
  have rE : r = p.
    rewrite -[RHS](size_ofcv (topv sg p)); apply/eqP; rewrite -all_count.
    by move: hs => /negbT; rewrite -all_predC.
  by rewrite rE.
by rewrite (bindE _ E2) mmulE.
Qed.

(** The residual of the truncated product. *)
Lemma svd_trunc m n c q (Q : 'M[R]_(m, c)) (B : 'M[R]_(c, n)) U sg Vh r (A : 'M[R]_(m, n)) :
  @is_svd c n q B U sg Vh -> (r <= q)%N -> orthonormal Q -> B = Q^T *m A ->
  let X := Q *m colblk U 0 r in let Y := rowblk Vh 0 r in
  [/\ orthonormal X, orthonormal Y^T,
      X^T *m A *m Y^T = diag_mx (topv sg r)^T &
      fro2 (A - X *m diag_mx (topv sg r)^T *m Y) = fro2 A - fro2 (topv sg r)].
Proof.
move=> sv rq oQ BE X Y.
have oX : orthonormal X by apply: orthonormalM => //; apply: orthonormal_colblk => //; case: sv.
have oY : orthonormal Y^T.
  rewrite /Y -[Vh]trmxK -tr_colblk trmxK; apply: orthonormal_colblk => //; exact: sv_V sv.
have core : X^T *m A *m Y^T = diag_mx (topv sg r)^T.
  rewrite /X trmx_mul -[_ *m Q^T *m A]mulmxA -BE (sv_eq sv) colblkE trmx_mul /Y rowblkE trmx_mul trmxK.
  rewrite -!mulmxA [U^T *m _]mulmxA (sv_U sv) mul1mx [Vh *m _]mulmxA.
  have -> : Vh *m Vh^T = 1%:M by have := sv_V sv; rewrite /orthonormal trmxK.
  by rewrite mul1mx diag_selmx // mulmxA selmxP // mul1mx.
split=> //; rewrite -[Y in LHS]trmxK; exact: core_error.
Qed.

Lemma fro2_svd c n q (B : 'M[R]_(c, n)) U sg Vh : @is_svd c n q B U sg Vh -> fro2 B = fro2 sg.
Proof.
move=> sv; rewrite (sv_eq sv) -mulmxA (fro2_ortho _ (sv_U sv)) -fro2_trmx trmx_mul.
by rewrite (fro2_ortho _ (sv_V sv)) fro2_trmx fro2_diag.
Qed.

Lemma le_fro2_topv q (s : 'cV[R]_q) i : s i 0 ^+ 2 <= fro2 s.
Proof.
rewrite fro2_cvE (bigD1 i) //= ler_addl sumr_ge0 // => j _; exact: sqr_ge0.
Qed.

(** What is lost by dropping the entries after the first [r]. *)
Lemma fro2_topv_drop q (s : 'cV[R]_q) r (t : R) : (r <= q)%N ->
  (forall i : 'I_q, (r <= i)%N -> `|s i 0| <= t) ->
  fro2 s - fro2 (topv s r) <= q%:R * t ^+ 2.
Proof.
move=> rq H; rewrite !fro2_cvE (bigID (fun i : 'I_q => (i < r)%N)) /=.
have -> : \sum_(i < q | (i < r)%N) s i 0 ^+ 2 = \sum_i topv s r i 0 ^+ 2.
  have -> : \sum_(i < q | (i < r)%N) s i 0 ^+ 2 = \sum_(i < q | (i < r)%N) mxe s i 0 ^+ 2.
    by apply: eq_bigr => i _; rewrite (mxeE s i 0).
  rewrite -(big_ord_widen q (fun i => mxe s i 0 ^+ 2) rq); apply: eq_bigr => i _.
  by rewrite mxE add0n.
rewrite addrC addKr mulr_natl -[X in _ <= _ *+ X](card_ord q) -sumr_const.
rewrite [X in _ <= X](bigID (fun i : 'I_q => (i < r)%N)) /=.
apply: le_trans (_ : \sum_(i < q | ~~ (i < r)%N) t ^+ 2 <= _); last first.
  by rewrite ler_addr sumr_ge0 // => i _; apply: sqr_ge0.
apply: ler_sum => i; rewrite -leqNgt => /H h.
by rewrite -real_normK ?num_real // ler_pexpn2r ?nnegrE // (le_trans _ h).
Qed.

End Svd.

(** ** QB2 in one block *)
Section OneBlock.
Variables (R : rcfType) (G : Type) (L : lapack R).
Hypothesis qrL : qr_spec L.

Lemma QB2_single (rf : rangefinder) (blk : int) ow m n (A : 'M[R]_(m, n)) (k : int) tol (s : st G R)
    (kk := minn (absz k) (minn m n)) :
  rf_shape rf -> (0 < m)%N -> (0 < n)%N -> 0 < k -> kk%:Z <= blk ->
  exists s' (Q : 'M[R]_(m, kk)) A',
    QB2 L rf blk ow (ofmx A) k tol s = (s', inr (ofmx Q, ofmx (Q^T *m A), A')) /\ orthonormal Q.
Proof.
move=> rfP m0 n0 k0 kb; rewrite /QB2 k0 bind_passertT.
have -> : minn (nr (ofmx A)) (nc (ofmx A)) = minn m n by [].
have kk0 : (0 < kk)%N by rewrite /kk; lia.
have kkmn : (kk <= minn m n)%N by rewrite geq_minr.
have kkm : (kk <= m)%N by rewrite (leq_trans kkmn) ?geq_minl.
have [s0 E0] : exists (s0 : st G R), (if k <= (minn m n)%:Z then ret (absz k)
         else emit (EvWarn W_qb2_rank) >>> ret (minn m n)) s = (s0, inr kk).
  case: ifP => le; last first.
    by eexists; rewrite bind_emitE /ret; congr (_, inr _); rewrite /kk; lia.
  by eexists; rewrite /ret; congr (_, inr _); rewrite /kk; lia.
rewrite (bindE _ E0) kkmn bind_passertT !mzerosE nr_ofmx nc_ofmx.
have [s1 [F [EF _]]] := rfP _ _ A kk s0 kk0 kkmn.
have [Q [U [EQ oQ _ _]]] := qr_tall F qrL kk0 kkm.
move: (sqnorm0 _) (abs_sq_tol _ _) (use_tol _) => sq abs ut.
have [s' E] : exists s', qb2_loop L kk.+1 rf kk ut abs blk sq (ofmx A) (ofmx (0 : 'M[R]_(m, 0)))
    (ofmx (0 : 'M[R]_(0, n))) s0 = (s', inr (ofmx Q, ofmx (Q^T *m A), ofmx (A - Q *m (Q^T *m A)))).
  eexists; rewrite [qb2_loop]lock /= -lock [qb2_loop _ _ _ _ _ _ _ _ _ _ _]/=.
  have -> : (if kk%:Z < 0%N%:Z + blk then kk%:Z - 0%N%:Z else blk) = kk%:Z by case: ifP => h; move: kb h; clear; lia.
  rewrite (bindE _ EF) bind_emitE project_outE bind_liftE mul0mx subr0 EQ bind_liftE [_.1]/=.
  rewrite (bindE _ (passQtAE _ _ _)) hstackE bind_liftE vstackE bind_liftE.
  rewrite mmulE bind_liftE msubE bind_liftE row_thin_mx col_flat_mx nr_ofmx leqnn.
  by case: ifP.
by exists s', Q, (if ow then ofmx (A - Q *m (Q^T *m A)) else ofmx A); rewrite (bindE _ E).
Qed.

End OneBlock.
