(** Interpolative decompositions: distance to the best rank-k approximation. *)
From mathcomp Require Import all_ssreflect all_algebra.
From mathcomp Require Import zify.
From Verif Require Import Base Arr Lapack Exact MxLib RingTac LapackSpec LapackExists Rng Aware RangeFinders QB.
From Verif Require Import P_RS1 P_RF P_QBx P_Svd P_Evd3 Sel Interp P_Interp P_Interp2 P_Interp3 P_Opt P_Opt2 W_Interp F_Interp.
Set Implicit Arguments.
Unset Strict Implicit.
Unset Printing Implicit Defensive.
Import Order.TTheory GRing.Theory Num.Theory.
Local Open Scope ring_scope.

Section Best.
Variable R : rcfType.
Add Field rfi4 : (rcf_field R).

Lemma rank_ker m n (B : 'M[R]_(m, n)) : (\rank B < n)%N -> exists y : 'cV[R]_n, y != 0 /\ B *m y = 0.
Proof.
move=> rB; have : kermx B^T != 0.
  by rewrite -mxrank_eq0 mxrank_ker mxrank_tr; lia.
case/rowV0Pn=> v /sub_kermxP vM v0; exists v^T; split.
  by apply: contraNneq v0 => h; rewrite -[v]trmxK h trmx0.
by rewrite -[B]trmxK -trmx_mul vM trmx0.
Qed.

Lemma fro2D_le m n (A B : 'M[R]_(m, n)) : fro2 (A + B) <= 2%:R * fro2 A + 2%:R * fro2 B.
Proof.
have := fro2_ge0 (A - B); rewrite fro2B fro2D => h; rewrite -subr_ge0.
move: h; move: (fro2 A) (fro2 B) (fip A B) => a b c.
by have -> : a - 2%:R * c + b = 2%:R * a + 2%:R * b - (a + 2%:R * c + b) by rring.
Qed.

Lemma fro2_eps n (x : 'cV[R]_n) : x != 0 -> 0 < fro2 x.
Proof. by move=> x0; rewrite lt_neqAle fro2_ge0 eq_sym fro2_eq0 x0. Qed.

(** Restriction to columns does not increase the norm. *)
Lemma fro2_restr m n p (M : 'M[R]_(m, n)) (Q : 'M[R]_(n, p)) : orthonormal Q -> fro2 (M *m Q) <= fro2 M.
Proof.
move=> oQ; rewrite -fro2_trmx trmx_mul -(fro2_trmx M) -(fro2_ortho (Q^T *m M^T) oQ).
have h := ortho_resid M^T oQ.
rewrite -{2}(subrK (Q *m (Q^T *m M^T)) M^T) fro2_pyth ?ler_addr ?fro2_ge0 //.
by apply: trmx_inj; rewrite trmx0 trmx_mul trmxK trmx_mul -mulmxA h mulmx0.
Qed.

Lemma count_out n k J : inb n J -> uniq J -> size J = k -> \sum_(j < n | (j : nat) \notin J) (1 : R) = n%:R - k%:R.
Proof.
move=> iJ uJ sJ; apply/eqP; rewrite eq_sym subr_eq eq_sym; apply/eqP.
have e : \sum_(j < n | (j : nat) \in J) (1 : R) = k%:R.
  by rewrite (big_sel (fun _ => 1) iJ uJ sJ) sumr_const card_ord.
rewrite -e addrC -[RHS](_ : \sum_(j < n) (1 : R) = _); last by rewrite sumr_const card_ord.
by rewrite [RHS](bigID (fun j : 'I_n => (j : nat) \in J)).
Qed.

Section Col.
Variables (m n : nat) (Y : 'M[R]_(m, n)) (k : nat) (X : 'M[R]_(k, n)) (J : seq nat).
Hypothesis cid : col_id Y X J.
Local Notation D := (colsel Y J k).
Local Notation E := (Y - D *m X).

Lemma resid_in (j : 'I_n) : (j : nat) \in J -> col j E = 0.
Proof.
move=> jJ; have iJ := ci_inb cid; have sJ := ci_size cid.
have lt : (index (j : nat) J < k)%N by rewrite -sJ index_mem.
have e0 : colsel E J k = 0.
  rewrite colsel1E mulmxBl -colsel1E -[_ *m _ *m colsel 1%:M J k]colsel1E.
  by rewrite (col_id_interp Y cid) subrr.
apply/matrixP=> a b; rewrite [LHS]mxE [RHS]mxE.
have := congr1 (fun M : 'M[R]_(m, k) => M a (Ordinal lt)) e0.
by rewrite /= [LHS]mxE /= nth_index // mxeE [RHS]mxE.
Qed.

Lemma sum_lower (u : 'cV[R]_k) (j : 'I_n) :
  3%:R * (fro2 (col j E) * fro2 u) <= (4%:R ^+ k - 1) * fro2 (D *m u).
Proof.
rewrite (fro2_cvE u) mulr_sumr -sum_pow4 -mulrA ler_pmul2l ?ltr0n // mulr_suml; apply: ler_sum => i _.
exact: (ci_lower cid).
Qed.

Lemma coef_col (j : 'I_n) : 3%:R * fro2 (col j X) <= 4%:R ^+ k - 1.
Proof.
rewrite -sum_pow4 ler_pmul2l ?ltr0n // fro2_cvE; apply: ler_sum => i _; rewrite mxE -real_normK ?num_real //.
have -> : 4%:R ^+ (k - i.+1) = (2%:R ^+ (k - i.+1)) ^+ 2 :> R.
  by rewrite [RHS]exprAC; congr (_ ^+ _); rewrite -natrX.
by rewrite ler_pexpn2r ?nnegrE ?normr_ge0 ?exprn_ge0 ?ler0n // (ci_bound cid).
Qed.

(** Each residual column is a lower bound for the distance to rank [k]. *)
Lemma resid_best (W : 'M[R]_(m, n)) (j : 'I_n) : (\rank W <= k)%N -> (j : nat) \notin J ->
  3%:R * fro2 (col j E) <= (2%:R * 4%:R ^+ k + 1) * fro2 (Y - W).
Proof.
move=> rW jJ; have iJ := ci_inb cid; have sJ := ci_size cid; have uJ := ci_uniq cid.
pose P := colsel (1%:M : 'M[R]_n) J k; pose d : 'cV[R]_n := delta_mx j 0; pose S := row_mx P d.
have oS : orthonormal S.
  apply: orthonormal_row_mx; first by apply: selP; rewrite ?sJ.
    rewrite /orthonormal /d; apply/matrixP=> a b; rewrite !ord1 !mxE (bigD1 j) //= big1 ?addr0.
      by rewrite !mxE !eqxx mulr1.
    by move=> l lj; rewrite !mxE (negPf lj) mul0r.
  apply/matrixP=> a b; rewrite !mxE (bigD1 j) //= big1 ?addr0; last first.
    by move=> l lj; rewrite !mxE (negPf lj) mulr0.
  have la : (nth 0%N J a < n)%N by apply: inb_nth => //; rewrite sJ.
  rewrite (ord1 b) [d _ _]mxE !eqxx mulr1 [LHS]mxE [LHS]mxE (mxe_ord _ (ltn_ord j) la) [LHS]mxE; case: eqP => // e.
  by case/negP: jJ; move: (congr1 val e) => /= ->; rewrite mem_nth // sJ.
have [y [y0 Wy]] : exists y : 'cV[R]_(k + 1), y != 0 /\ W *m S *m y = 0.
  apply: rank_ker; rewrite [X in (_ < X)%N]addn1 ltnS; exact: leq_trans (mxrankM_maxl W S) rW.
have fy : 0 < fro2 y := fro2_eps y0.
pose v := usubmx y; pose t := dsubmx y 0 0; pose x := col j X; pose u := v + t *: x; pose r := col j E.
have yE : y = col_mx v (t *: 1%:M).
  rewrite -{1}[y]vsubmxK; congr col_mx; apply/matrixP=> a b; rewrite !ord1 [RHS]mxE [X in _ * X]mxE eqxx mulr1.
  by [].
have Sy : (Y - W) *m (S *m y) = D *m u + t *: r.
  rewrite mulmxBl [W *m _]mulmxA Wy subr0 {1}yE mul_row_col mulmxDr mulmxA -colsel1E -/D.
  rewrite -scalemxAr mulmx1 -scalemxAr -colE /u mulmxDr -scalemxAr -addrA -scalerDr; congr (_ + _ *: _).
  by rewrite /r /E /x !colE mulmxBl -mulmxA addrCA subrr addr0.
have Dr : D^T *m r = 0 by rewrite /r colE mulmxA (ci_ls cid) mul0mx.
have nS : fro2 ((Y - W) *m (S *m y)) = fro2 (D *m u) + t ^+ 2 * fro2 r.
  rewrite Sy fro2_pyth ?fro2Z // trmx_mul -mulmxA -scalemxAr Dr scaler0 mulmx0 //.
have up : fro2 (D *m u) + t ^+ 2 * fro2 r <= fro2 (Y - W) * fro2 y.
  by rewrite -nS; apply: le_trans (fro2M _ _) _; rewrite (fro2_ortho _ oS).
have fyE : fro2 y = fro2 v + t ^+ 2.
  by rewrite {1}yE fro2_col_mx fro2Z (fro2_tr 1%:M) trmx1 mulmx1 mxtrace1 mulr1.
have fv : fro2 v <= 2%:R * fro2 u + 2%:R * (t ^+ 2 * fro2 x).
  have -> : v = u + (- (t *: x)) by rewrite /u addrK.
  by rewrite -fro2Z -(fro2N (t *: x)) fro2D_le.
have su := sum_lower u j; have cx := coef_col j.
rewrite -(ler_pmul2r fy).
apply: le_trans (_ : (2%:R * 4%:R ^+ k + 1) * (fro2 (D *m u) + t ^+ 2 * fro2 r) <= _); last first.
  by rewrite -[leRHS]mulrA ler_wpmul2l // addr_ge0 ?mulr_ge0 ?ler01 ?ler0n ?exprn_ge0 ?ler0n.
rewrite fyE -/r; rewrite -/r in su; rewrite -/x in cx.
have r0 : 0 <= fro2 r := fro2_ge0 _.
have D0 : 0 <= fro2 (D *m u) := fro2_ge0 _.
have t0 : 0 <= t ^+ 2 := sqr_ge0 t.
move: fv su cx r0 D0 t0; set a := 4%:R ^+ k; set p := fro2 (D *m u); set q := fro2 r; set w := t ^+ 2.
move: (fro2 v) (fro2 u) (fro2 x) a p q w => fv fu fx a p q w h1 h2 h3 q0 p0 w0.
have H1 := ler_wpmul2l (mulr_ge0 (ler0n R 3) q0) h1.
have H3 := ler_wpmul2l (mulr_ge0 (mulr_ge0 (ler0n R 2) q0) w0) h3.
rewrite -subr_ge0 in h2; rewrite -subr_ge0 in H1; rewrite -subr_ge0 in H3; rewrite -subr_ge0.
have -> : (2%:R * a + 1) * (p + w * q) - 3%:R * q * (fv + w) =
  (3%:R * q * (2%:R * fu + 2%:R * (w * fx)) - 3%:R * q * fv) +
  (2%:R * ((a - 1) * p - 3%:R * (q * fu)) + ((2%:R * q * w * (a - 1) - 2%:R * q * w * (3%:R * fx)) + 3%:R * p)) by rring.
exact: addr_ge0 H1 (addr_ge0 (mulr_ge0 (ler0n R 2) h2) (addr_ge0 H3 (mulr_ge0 (ler0n R 3) p0))).
Qed.

(** Pivoted QR is within a factor of the best approximation of rank [k]. *)
Lemma qrcp_best (W : 'M[R]_(m, n)) : (\rank W <= k)%N ->
  3%:R * fro2 E <= (n - k)%:R * (2%:R * 4%:R ^+ k + 1) * fro2 (Y - W).
Proof.
move=> rW; have iJ := ci_inb cid; have sJ := ci_size cid; have uJ := ci_uniq cid.
have kn : (k <= n)%N by rewrite -sJ; apply: inb_size.
rewrite fro2_colsum (bigID (fun j : 'I_n => (j : nat) \in J)) /= big1 ?add0r; last first.
  by move=> j jJ; rewrite resid_in // fro20.
rewrite natrB // -(count_out iJ uJ sJ) -mulrA mulr_suml mulr_sumr; apply: ler_sum => j jJ.
by rewrite mul1r; exact: resid_best.
Qed.

End Col.

(** Column ID of [A] computed from a sketch with oversampling. *)
Lemma col_id_over m n p (A : 'M[R]_(m, n)) (Y : 'M[R]_(p, n)) (Z : 'M[R]_(m, p)) (W : 'M[R]_(p, n)) z
    k (X : 'M[R]_(k, n)) J :
  col_id Y X J -> (forall v : 'cV[R]_p, fro2 (Z *m v) <= z * fro2 v) -> 0 <= z -> (\rank W <= k)%N ->
  3%:R * fro2 (A - colsel A J k *m X) <=
  2%:R * (n - k)%:R * ((4%:R ^+ k + 2%:R) * fro2 (A - Z *m Y) + z * ((2%:R * 4%:R ^+ k + 1) * fro2 (Y - W))).
Proof.
move=> cid zZ z0 rW; have best := qrcp_best cid rW.
set P := colsel (1%:M : 'M[R]_n) J k; set E := Y - colsel Y J k *m X in best.
have AE : A - colsel A J k *m X = (A - Z *m Y) *m (1%:M - P *m X) + Z *m E.
  rewrite (colsel1E A) /E (colsel1E Y) -/P !mulmxBr mulmx1 !mulmxBl !mulmxA.
  move: (A *m P *m X) (Z *m Y) (Z *m Y *m P *m X) => a b c.
  by apply/matrixP=> i j; rewrite !mxE; move: (A i j) (a i j) (b i j) (c i j) => x1 y1 z1 w1; rring.
have H1 : 3%:R * fro2 ((A - Z *m Y) *m (1%:M - P *m X)) <= (n - k)%:R * (4%:R ^+ k + 2%:R) * fro2 (A - Z *m Y).
  case: cid => sJ uJ iJ XJ _ _ bX _ _.
  have kn : (k <= n)%N by rewrite -sJ; apply: inb_size.
  apply: le_trans (_ : 3%:R * (fro2 (A - Z *m Y) * fro2 (1%:M - P *m X)) <= _).
    by rewrite ler_pmul2l ?ltr0n //; apply: fro2M.
  rewrite mulrCA [leRHS]mulrC ler_wpmul2l ?fro2_ge0 // (fro2_oblique iJ uJ sJ XJ) [leLHS]mulrDr.
  have H := fro2_coef iJ uJ sJ XJ bX; rewrite natrB //.
  have -> : (n%:R - k%:R) * (4%:R ^+ k + 2%:R) = 3%:R * (n%:R - k%:R) + (n%:R - k%:R) * (4%:R ^+ k - 1) :> R.
    move: (4%:R ^+ k) (n%:R : R) (k%:R : R) => a b c; rring.
  by rewrite ler_add2l.
have H2 : 3%:R * fro2 (Z *m E) <= z * ((n - k)%:R * (2%:R * 4%:R ^+ k + 1) * fro2 (Y - W)).
  apply: le_trans (_ : z * (3%:R * fro2 E) <= _); last by rewrite ler_wpmul2l.
  by rewrite mulrCA ler_pmul2l ?ltr0n //; apply: fro2_mul_col.
rewrite AE; apply: le_trans (_ : 2%:R * (3%:R * fro2 ((A - Z *m Y) *m (1%:M - P *m X))) + 2%:R * (3%:R * fro2 (Z *m E)) <= _).
  have := fro2D_le ((A - Z *m Y) *m (1%:M - P *m X)) (Z *m E).
  move/(ler_wpmul2l (ler0n R 3))/le_trans; apply; rewrite mulrDr.
  by rewrite [3%:R * (2%:R * _)]mulrCA [3%:R * (2%:R * fro2 (Z *m E))]mulrCA.
apply: le_trans (ler_add (ler_wpmul2l (ler0n R 2) H1) (ler_wpmul2l (ler0n R 2) H2)) _.
move: (4%:R ^+ k) (n - k)%:R (fro2 _) (fro2 _) => a b c d.
by rewrite le_eqVlt; apply/orP; left; apply/eqP; rring.
Qed.

(** What CUR loses over the one-sided ID it starts from. *)
Lemma cur_error m n k (A : 'M[R]_(m, n)) (X : 'M[R]_(k, n)) J I (Z : 'M[R]_(m, k)) (U : 'M[R]_k) :
  inb m I -> uniq I -> size I = k ->
  colsel A J k = Z *m rowsel (colsel A J k) I k ->
  (U *m rowsel A I k - X) *m (rowsel A I k)^T = 0 ->
  fro2 (A - colsel A J k *m U *m rowsel A I k) <= 2%:R * (1 + fro2 Z) * fro2 (A - colsel A J k *m X).
Proof.
move=> iI uI sI; set C := colsel A J k; set Rw := rowsel A I k; set M := rowsel C I k => CE ls.
set E := A - C *m X.
have oI : orthonormal (colsel (1%:M : 'M[R]_m) I k) by apply: selP; rewrite ?sI.
have EI : rowsel E I k = Rw - M *m X.
  by rewrite /E rowsel1E mulmxBr -rowsel1E mulmxA -rowsel1E.
have EIle : fro2 (rowsel E I k) <= fro2 E.
  by rewrite -fro2_trmx tr_rowsel colsel1E -[leRHS]fro2_trmx fro2_restr.
have MX : fro2 (M *m (X - U *m Rw)) <= fro2 E.
  apply: le_trans EIle; rewrite EI -(fro2N (Rw - _)) opprB mulmxBr mulmxA.
  have lsM : Rw *m (Rw^T *m (M *m U)^T - (M *m X)^T) = 0.
    apply: trmx_inj; rewrite trmx0 trmx_mul linearB /= trmx_mul !trmxK -mulmxA -mulmxBr.
    by rewrite -mulmxA ls mulmx0.
  have := @ls_optimal R _ _ _ Rw^T (M *m U)^T 1%:M^T (M *m X)^T.
  rewrite trmxK => /(_ lsM) h.
  rewrite -(fro2_trmx (_ - _ *m _)) -(fro2_trmx (_ - Rw)) !linearB /= [(_ *m Rw)^T]trmx_mul.
  have -> : Rw^T = Rw^T *m (1%:M : 'M[R]_k)^T by rewrite trmx1 mulmx1.
  by move: h; rewrite [Rw^T *m 1%:M^T]lock -lock => h; rewrite !trmx1 !mulmx1 in h *; rewrite h ler_addl fro2_ge0.
have AE : A - C *m U *m Rw = E + Z *m (M *m (X - U *m Rw)).
  by rewrite mulmxA -CE mulmxBr /E addrA addrNK mulmxA.
rewrite AE; apply: le_trans (fro2D_le _ _) _; rewrite -mulrA -mulrDr ler_pmul2l ?ltr0n // mulrDl mul1r ler_add2l.
apply: le_trans (fro2M _ _) _; by rewrite ler_wpmul2l ?fro2_ge0.
Qed.

End Best.

Section Drv.
Variables (R : rcfType) (G : Type) (L : lapack R).
Implicit Types (s : st G R).

Lemma qrcp_best_col m n (Y W : 'M[R]_(m, n)) k (X : 'M[R]_(k, n)) J :
  qrp_spec L -> (0 < m)%N -> (0 < n)%N -> (0 < k)%N -> qrcp_osid L (ofmx Y) k 1 = Ok (ofmx X, J) -> (\rank W <= k)%N ->
  3%:R * fro2 (Y - colsel Y J k *m X) <= (n - k)%:R * (2%:R * 4%:R ^+ k + 1) * fro2 (Y - W).
Proof. by move=> h m0 n0 k0 E rW; apply: (qrcp_best (qrcp_col_id h m0 n0 k0 E)) rW. Qed.

Lemma qrcp_row_id m n (Y : 'M[R]_(m, n)) k (Z : 'M[R]_(m, k)) I :
  qrp_spec L -> (0 < m)%N -> (0 < n)%N -> (0 < k)%N -> qrcp_osid L (ofmx Y) k 0 = Ok (ofmx Z, I) -> row_id Y Z I.
Proof.
move=> h m0 n0 k0 E; have := qrcp_osidP h Y m0 n0 k0; case: ifP => _ [_ []]; last by rewrite E.
move=> X' [J' [E' cid]]; move: E'; rewrite E => E'.
have eX : ofmx Z = ofmx X' := congr1 (fun x => if x is inr y then y.1 else ofmx Z) E'.
have eJ : I = J' := congr1 (fun x => if x is inr y then y.2 else [::]) E'.
by rewrite eJ (ofmx_inj eX).
Qed.

Lemma row_err m n (A : 'M[R]_(m, n)) k (Z : 'M[R]_(m, k)) I :
  fro2 (A^T - colsel A^T I k *m Z^T) = fro2 (A - Z *m rowsel A I k).
Proof. by rewrite -fro2_trmx linearB /= trmx_mul !trmxK tr_colsel trmxK. Qed.

Lemma qrcp_best_row m n (Y W : 'M[R]_(m, n)) k (Z : 'M[R]_(m, k)) I :
  qrp_spec L -> (0 < m)%N -> (0 < n)%N -> (0 < k)%N -> qrcp_osid L (ofmx Y) k 0 = Ok (ofmx Z, I) -> (\rank W <= k)%N ->
  3%:R * fro2 (Y - Z *m rowsel Y I k) <= (m - k)%:R * (2%:R * 4%:R ^+ k + 1) * fro2 (Y - W).
Proof.
move=> h m0 n0 k0 E rW; rewrite -row_err -(fro2_trmx (Y - W)) linearB /=.
by apply: qrcp_best (qrcp_row_id h m0 n0 k0 E) _ _; rewrite mxrank_tr.
Qed.

Lemma osid1_over_col (sk_op : rowsketcher) m n (A : 'M[R]_(m, n)) k (over : int) p (S : 'M[R]_(m, p)) (s s1 s2 : st G R)
    (X : 'M[R]_(k, n)) J (Z : 'M[R]_(m, p)) z (W : 'M[R]_(p, n)) :
  qrp_spec L -> (0 < k)%N -> (0 < n)%N -> (0 < p)%N -> 0 <= k%:Z + over ->
  sk_op (ofmx A^T) (absz (k%:Z + over)) s = (s1, inr (PyArr (ofmx S))) ->
  OSID1 L sk_op (ofmx A) k over 1 s = (s2, inr (ofmx X, J)) ->
  0 <= z -> (forall v : 'cV[R]_p, fro2 (Z *m v) <= z * fro2 v) -> (\rank W <= k)%N ->
  3%:R * fro2 (A - colsel A J k *m X) <=
  2%:R * (n - k)%:R * ((4%:R ^+ k + 2%:R) * fro2 (A - Z *m (S^T *m A)) +
                       z * ((2%:R * 4%:R ^+ k + 1) * fro2 (S^T *m A - W))).
Proof.
move=> h k0 n0 p0 c0 Es E z0 zZ rW.
move: (E); rewrite /OSID1 /= (bindE _ (col_sketchE c0 Es)) /lift => -[_ Eq].
exact: col_id_over (qrcp_col_id h p0 n0 k0 Eq) zZ z0 rW.
Qed.

Lemma osid1_over_row (sk_op : rowsketcher) m n (A : 'M[R]_(m, n)) k (over : int) p (S : 'M[R]_(n, p)) (s s1 s2 : st G R)
    (X : 'M[R]_(m, k)) I (Z : 'M[R]_(p, n)) z (W : 'M[R]_(m, p)) :
  qrp_spec L -> (0 < k)%N -> (0 < m)%N -> (0 < p)%N -> 0 <= k%:Z + over ->
  sk_op (ofmx A) (absz (k%:Z + over)) s = (s1, inr (PyArr (ofmx S))) ->
  OSID1 L sk_op (ofmx A) k over 0 s = (s2, inr (ofmx X, I)) ->
  0 <= z -> (forall v : 'cV[R]_p, fro2 (Z^T *m v) <= z * fro2 v) -> (\rank W <= k)%N ->
  3%:R * fro2 (A - X *m rowsel A I k) <=
  2%:R * (m - k)%:R * ((4%:R ^+ k + 2%:R) * fro2 (A - A *m S *m Z) +
                       z * ((2%:R * 4%:R ^+ k + 1) * fro2 (A *m S - W))).
Proof.
move=> h k0 m0 p0 c0 Es E z0 zZ rW.
move: (E); rewrite /OSID1 /= (bindE _ (row_sketchE c0 Es)) /lift => -[_ Eq].
have rid := qrcp_row_id h m0 p0 k0 Eq.
rewrite -row_err -(fro2_trmx (A - _)) -(fro2_trmx (A *m S - W)) !linearB /= [(_ *m Z)^T]trmx_mul.
by apply: col_id_over rid zZ z0 _; rewrite mxrank_tr.
Qed.

Lemma row_coef m n (Y : 'M[R]_(m, n)) k (Z : 'M[R]_(m, k)) I : row_id Y Z I ->
  3%:R * fro2 Z <= 3%:R * k%:R + (m - k)%:R * (4%:R ^+ k - 1).
Proof.
rewrite /row_id => cid; have iI := ci_inb cid; have uI := ci_uniq cid; have sI := ci_size cid.
have km : (k <= m)%N by rewrite -sI; apply: inb_size.
have := fro2_coef iI uI sI (ci_eye cid) (ci_bound cid).
by rewrite fro2_trmx (mulrBr 3%:R) ler_subl_addl natrB.
Qed.

Lemma CUR1_tall_err (osid : osid_t (T := R) (G := G)) m n (A : 'M[R]_(m, n)) k (over : int) (X : 'M[R]_(k, n)) J s s1 :
  qrp_spec L -> lstsq_spec L ->
  (n < m)%N -> (0 < k)%N -> skeleton n k J -> \rank (colsel A J k) = k ->
  osid (ofmx A) k over 1 s = (s1, inr (ofmx X, J)) ->
  exists (U : 'M[R]_k) I,
    [/\ CUR1 L osid (ofmx A) k over s = (s1, inr (J, ofmx U, I)), skeleton m k I &
        3%:R * fro2 (A - colsel A J k *m U *m rowsel A I k) <=
        2%:R * (3%:R + (3%:R * k%:R + (m - k)%:R * (4%:R ^+ k - 1))) * fro2 (A - colsel A J k *m X)].
Proof.
move=> qrpL lsL nm k0 skJ rC E; rewrite /CUR1 nc_ofmx nr_ofmx nm (bindE _ E) (cidx_skel A skJ) bind_liftE mtrE.
have m0 : (0 < m)%N by lia.
have kn : (k <= n)%N by case: skJ => <- uJ iJ; apply: inb_size.
have n0 : (0 < n)%N by lia.
have [I [EI pI HI]] := qrp_sel qrpL (colsel A J k)^T k0 m0.
have skI := take_skeleton pI (leq_trans kn (ltnW nm)).
rewrite EI bind_liftE (ridx_skel A skI) bind_liftE.
have [U [W [EU ls _]]] := pinv_rightE lsL (rowsel A (take k I) k) X n0 k0 k0.
rewrite EU bind_liftE; exists U, (take k I); split=> //.
move: (HI k k0); rewrite mxrank_tr rC leqnn => -[X0 [_ cid]].
have rid : row_id (colsel A J k) X0^T (take k I) by rewrite /row_id trmxK.
have CE : colsel A J k = X0^T *m rowsel (colsel A J k) (take k I) k.
  have := col_id_exact cid; rewrite mxrank_tr => /(_ rC) e.
  by apply: trmx_inj; rewrite {1}e trmx_mul trmxK tr_rowsel.
case: (skI) => sI uI iI.
have := cur_error iI uI sI CE ls => H; apply: le_trans (ler_wpmul2l (ler0n R 3) H) _.
rewrite mulrA ler_wpmul2r ?fro2_ge0 // mulrCA ler_pmul2l ?ltr0n // (mulrDr 3%:R 1) mulr1 ler_add2l.
exact: row_coef rid.
Qed.

Lemma CUR1_wide_err (osid : osid_t (T := R) (G := G)) m n (A : 'M[R]_(m, n)) k (over : int) (Z : 'M[R]_(m, k)) I s s1 :
  qrp_spec L -> lstsq_spec L ->
  (0 < m)%N -> (m <= n)%N -> (0 < k)%N -> skeleton m k I -> \rank (rowsel A I k) = k ->
  osid (ofmx A) k over 0 s = (s1, inr (ofmx Z, I)) ->
  exists (U : 'M[R]_k) J,
    [/\ CUR1 L osid (ofmx A) k over s = (s1, inr (J, ofmx U, I)), skeleton n k J &
        3%:R * fro2 (A - colsel A J k *m U *m rowsel A I k) <=
        2%:R * (3%:R + (3%:R * k%:R + (n - k)%:R * (4%:R ^+ k - 1))) * fro2 (A - Z *m rowsel A I k)].
Proof.
move=> qrpL lsL m0 mn k0 skI rR E; rewrite /CUR1 nc_ofmx nr_ofmx ltnNge mn /= (bindE _ E) (ridx_skel A skI) bind_liftE.
have km : (k <= m)%N by case: skI => <- uI iI; apply: inb_size.
have n0 : (0 < n)%N by lia.
have [J [EJ pJ HJ]] := qrp_sel qrpL (rowsel A I k) k0 n0.
have skJ := take_skeleton pJ (leq_trans km mn).
rewrite EJ bind_liftE (cidx_skel A skJ) bind_liftE.
have [U [W [EU ls _]]] := pinv_leftE lsL (colsel A (take k J) k) Z m0 k0 k0.
rewrite EU bind_liftE; exists U, (take k J); split=> //.
move: (HJ k k0); rewrite rR leqnn => -[X0 [_ cid]].
have rid : row_id (rowsel A I k)^T X0^T (take k J) by rewrite /row_id !trmxK.
have CE : colsel A^T I k = X0^T *m rowsel (colsel A^T I k) (take k J) k.
  have := col_id_exact cid rR => e.
  by apply: trmx_inj; rewrite trmx_mul tr_rowsel tr_colsel !trmxK {1}e.
case: (skJ) => sJ uJ iJ.
have lsT : (U^T *m rowsel A^T (take k J) k - Z^T) *m (rowsel A^T (take k J) k)^T = 0.
  apply: trmx_inj; rewrite trmx0 trmx_mul trmxK linearB /= trmx_mul !trmxK tr_rowsel trmxK.
  by rewrite -{1}[rowsel A^T _ _]trmxK tr_rowsel trmxK.
have := cur_error iJ uJ sJ CE lsT => H.
have eL : fro2 (A^T - colsel A^T I k *m U^T *m rowsel A^T (take k J) k) =
          fro2 (A - colsel A (take k J) k *m U *m rowsel A I k).
  by rewrite -fro2_trmx linearB /= !trmx_mul !trmxK tr_colsel tr_rowsel trmxK mulmxA.
rewrite eL row_err in H; apply: le_trans (ler_wpmul2l (ler0n R 3) H) _.
rewrite mulrA ler_wpmul2r ?fro2_ge0 // mulrCA ler_pmul2l ?ltr0n // (mulrDr 3%:R 1) mulr1 ler_add2l.
exact: row_coef rid.
Qed.

(** The ID that cur1 starts from is the one osid1 computes with a pass fewer. *)
Lemma cur1_osid1 (r : rng_ops G R) m n (A : 'M[R]_(m, n)) k (over p : int) a s s' x :
  cur1 L r (ofmx A) k over p a s = (s', inr x) ->
  exists s0 s1 XJ, [/\ CUR1 L (OSID1 L (RS1 (skopGA r) (p - 2) (@orth R L) 1)) (ofmx A) k over s0 = (s1, inr x),
    OSID1 L (RS1 (skopGA r) (p - 2) (@orth R L) 1) (ofmx A) k over (n < m)%N s0 = (s1, inr XJ) &
    osid1 L r (ofmx A) k over (p - 1) (n < m)%N a s = (s', inr XJ)].
Proof.
have H s0 s1 : CUR1 L (OSID1 L (RS1 (skopGA r) (p - 2) (@orth R L) 1)) (ofmx A) k over s0 = (s1, inr x) ->
  exists XJ, OSID1 L (RS1 (skopGA r) (p - 2) (@orth R L) 1) (ofmx A) k over (n < m)%N s0 = (s1, inr XJ).
  rewrite /CUR1 nc_ofmx nr_ofmx; case: ifP => _ H.
    case: (bind_inv H) => s2 [XJ [E1 {}H]]; exists XJ; rewrite [LHS]E1; congr (_, _).
    case: (bind_inv H) => s3 [C [h3 {}H]]; rewrite /lift in h3; case: h3 => <- _ in H *.
    case: (bind_inv H) => s4 [C' [[<- _] {}H]].
    case: (bind_inv H) => s5 [C5 [[<- _] {}H]].
    by case: (bind_inv H) => s6 [C6 [[<- _] [<- _]]].
  case: (bind_inv H) => s2 [XJ [E1 {}H]]; exists XJ; rewrite [LHS]E1; congr (_, _).
  case: (bind_inv H) => s3 [C [h3 {}H]]; rewrite /lift in h3; case: h3 => <- _ in H *.
  case: (bind_inv H) => s4 [C' [[<- _] {}H]].
  case: (bind_inv H) => s5 [C5 [[<- _] {}H]].
  by case: (bind_inv H) => s6 [C6 [[<- _] [<- _]]].
have pE : p - 1 - 1 = p - 2 by lia.
rewrite /cur1 /osid1 pE; case: a => [|z|v] /=.
- by move=> E; have [XJ E1] := H _ _ E; exists s, s', XJ.
- case E: (CUR1 _ _ _ _ _ _) => [s1 y] [<- e]; subst y; have [XJ E1] := H _ _ E.
  by exists (St (r_seed r z) (evs s)), s1, XJ; rewrite E1.
- case E: (CUR1 _ _ _ _ _ _) => [s1 y] [<- e]; subst y; have [XJ E1] := H _ _ E.
  by exists (St (r_seeds r v) (evs s)), s1, XJ; rewrite E1.
Qed.

Lemma cur1_err_prop (r : rng_ops G R) m n (A : 'M[R]_(m, n)) k (over p : int) a (s s' : st G R) x :
  qr_spec L -> qrp_spec L -> lstsq_spec L -> rng_ok r ->
  (0 < k)%N -> 0 < k%:Z + over -> (absz (k%:Z + over)%R <= minn m n)%N ->
  cur1 L r (ofmx A) k over p a s = (s', inr x) ->
  exists (U : 'M[R]_k) I J, x = (J, ofmx U, I) /\
    if (n < m)%N then
      exists2 X : 'M[R]_(k, n), osid1 L r (ofmx A) k over (p - 1) 1 a s = (s', inr (ofmx X, J)) &
        3%:R * fro2 (A - colsel A J k *m U *m rowsel A I k) <=
        2%:R * (3%:R + (3%:R * k%:R + (m - k)%:R * (4%:R ^+ k - 1))) * fro2 (A - colsel A J k *m X)
    else
      exists2 Z : 'M[R]_(m, k), osid1 L r (ofmx A) k over (p - 1) 0 a s = (s', inr (ofmx Z, I)) &
        3%:R * fro2 (A - colsel A J k *m U *m rowsel A I k) <=
        2%:R * (3%:R + (3%:R * k%:R + (n - k)%:R * (4%:R ^+ k - 1))) * fro2 (A - Z *m rowsel A I k).
Proof.
move=> h1 h2 h3 h4 k0 c0 cmn E; have [s0 [s1 [XJ [E1 E2 E3]]]] := cur1_osid1 E.
case: (ltnP n m) E2 E3 => nm E2 E3.
  have [X [J [W [e cid]]]] := osid1_col h1 h2 h4 k0 c0 cmn E3; subst XJ.
  have sk : skeleton n k J by split; [exact: ci_size cid | exact: ci_uniq cid | exact: ci_inb cid].
  have rC : \rank (colsel A J k) = k.
    apply/eqP; rewrite eqn_leq rank_leq_col -{1}(ci_rank cid) colsel1E -mulmxA -colsel1E; exact: mxrankM_maxr.
  have [U [I [E4 _ bnd]]] := CUR1_tall_err h2 h3 nm k0 sk rC E2.
  by move: E4; rewrite E1 => -[->]; exists U, I, J; split=> //; exists X.
have [Z [I [W [e rid]]]] := osid1_row h1 h2 h4 k0 c0 cmn E3; subst XJ.
have sk : skeleton m k I by split; [exact: ci_size rid | exact: ci_uniq rid | exact: ci_inb rid].
have m0 : (0 < m)%N by lia.
have rR : \rank (rowsel A I k) = k.
  apply/eqP; rewrite eqn_leq rank_leq_row -{1}(ci_rank rid) -tr_rowsel mxrank_tr rowsel1E mulmxA -rowsel1E.
  exact: mxrankM_maxl.
have [U [J [E4 _ bnd]]] := CUR1_wide_err h2 h3 m0 nm k0 sk rR E2.
by move: E4; rewrite E1 => -[->]; exists U, I, J; split=> //; exists Z.
Qed.

End Drv.

Lemma qrcp_best_hyps (R : rcfType) : let Y := (1%:M : 'M[R]_3) in exists (X : 'M[R]_(2, 3)) J (Z : 'M[R]_(3, 2)) I,
  [/\ qrcp_osid (exact_lapack R) (ofmx Y) 2 1 = Ok (ofmx X, J), qrcp_osid (exact_lapack R) (ofmx Y) 2 0 = Ok (ofmx Z, I),
      0 < fro2 (Y - colsel Y J 2 *m X) & 0 < fro2 (Y - Z *m rowsel Y I 2)].
Proof.
move=> Y; have := qrcp_osidP (@exact_qrp R) Y (isT : 0 < 3)%N (isT : 0 < 3)%N (isT : 0 < 2)%N.
rewrite mxrank1 /= => -[[X [J [E1 _]]] [Z [I [E2 _]]]]; exists X, J, Z, I.
have pos (M : 'M[R]_3) : (\rank M <= 2)%N -> 0 < fro2 (Y - M).
  move=> rM; rewrite lt_neqAle fro2_ge0 eq_sym fro2_eq0 subr_eq0 andbT.
  by apply: contraTneq rM => <-; rewrite mxrank1.
split=> //; apply: pos; [apply: leq_trans (mxrankM_maxr _ _) _ | apply: leq_trans (mxrankM_maxl _ _) _].
  exact: rank_leq_row.
exact: rank_leq_col.
Qed.

Lemma osid1_over_hyps (R : rcfType) (s : st nat R) : exists s1 s2 (X : 'M[R]_(1, 3)) J s3 (Z : 'M[R]_(3, 1)) I,
  let sk := RS1 (skopGA (T:=R) toy_rng) 0 (orth (exact_lapack R)) 1 in
  [/\ sk (ofmx (1%:M : 'M[R]_3)) (absz (1%:Z + 1)) s = (s1, inr (PyArr (ofmx (S32 R)))),
      OSID1 (exact_lapack R) sk (ofmx (1%:M : 'M[R]_3)) 1%N 1 1 s = (s2, inr (ofmx X, J)) &
      OSID1 (exact_lapack R) sk (ofmx (1%:M : 'M[R]_3)) 1%N 1 0 s = (s3, inr (ofmx Z, I))].
Proof.
have [s1 E] := wit_run s; move: (E); rewrite -{1}[1%:M]trmx1 => ET.
have := @OSID1_col R nat (exact_lapack R) (@exact_qrp R) (RS1 (skopGA (T:=R) toy_rng) 0 (orth (exact_lapack R)) 1) 3%N 3%N 1%:M 1%N 1 2%N (S32 R) s s1
  isT isT isT isT ET.
have := @OSID1_row R nat (exact_lapack R) (@exact_qrp R) (RS1 (skopGA (T:=R) toy_rng) 0 (orth (exact_lapack R)) 1) 3%N 3%N 1%:M 1%N 1 2%N (S32 R) s s1
  isT isT isT isT E.
rewrite mul1mx mulmx1 mxrank_tr S32_rank /= => -[Z [I [EZ _]]] [X [J [EX _]]].
by exists s1, (after s1 true), X, J, (after s1 false), Z, I; split.
Qed.
