(** Proofs about Precond.v: the preconditioned operator, the SVD
    preconditioner, PcSS1 and PcSS2. *)
From mathcomp Require Import all_ssreflect all_algebra.
From mathcomp Require Import zify.
From Verif Require Import Base Arr Lapack Exact MxLib RingTac LapackSpec Rng Pcg P_Pcg Lsqr P_Lsqr P_Iter.
From Verif Require Import Precond.
Set Implicit Arguments.
Unset Strict Implicit.
Unset Printing Implicit Defensive.
Import Order.TTheory GRing.Theory Num.Theory.
Local Open Scope ring_scope.

Section P.
Variable R : rcfType.
Add Field rcf_field_pre : (rcf_field R).

(** ** Vectors: concatenation and slices *)
Lemma ofcv_col_mx m n (x : 'cV[R]_m) (y : 'cV[R]_n) : ofcv (col_mx x y) = ofcv x ++ ofcv y.
Proof.
apply: (@eq_from_nth _ 0); first by rewrite size_cat !size_ofcv.
move=> i; rewrite size_ofcv => lt; rewrite nth_cat size_ofcv.
rewrite -[LHS]/(@ev R (rcf_ops R) _ _) (ev_ofcv_nat _ lt).
case: ltnP => im.
  rewrite -[RHS]/(@ev R (rcf_ops R) _ _) (ev_ofcv_nat _ im).
  rewrite (_ : Ordinal lt = lshift n (Ordinal im)) ?col_mxEu //; exact: val_inj.
have jn : (i - m < n)%N by rewrite ltn_subLR.
rewrite -[RHS]/(@ev R (rcf_ops R) _ _) (ev_ofcv_nat _ jn).
rewrite (_ : Ordinal lt = rshift m (Ordinal jn)) ?col_mxEd //.
by apply: val_inj => /=; rewrite subnKC.
Qed.

Lemma vtop_col m n (x : 'cV[R]_m) (y : 'cV[R]_n) : vtop m (ofcv (col_mx x y)) = ofcv x.
Proof. by rewrite ofcv_col_mx /vtop take_size_cat ?size_ofcv. Qed.
Lemma vbot_col m n (x : 'cV[R]_m) (y : 'cV[R]_n) : vbot m (ofcv (col_mx x y)) = ofcv y.
Proof. by rewrite ofcv_col_mx /vbot drop_size_cat ?size_ofcv. Qed.
Lemma vtop_full m (x : 'cV[R]_m) : vtop m (ofcv x) = ofcv x.
Proof. by rewrite /vtop take_oversize ?size_ofcv. Qed.
Lemma vbot_full m (x : 'cV[R]_m) : vbot m (ofcv x) = [::].
Proof. by rewrite /vbot drop_oversize ?size_ofcv. Qed.

Lemma seq_ofcv n (v : seq R) : size v = n -> exists x : 'cV[R]_n, v = ofcv x.
Proof. by move=> <-; exists (tocv v); rewrite tocvK. Qed.

(** ** The lifted matrix *)
Lemma a_liftE m n (A : 'M[R]_(m, n)) s :
  a_lift (ofmx A) s = Ok (if s == 0 then ofmx A else ofmx (col_mx A s%:M)).
Proof.
rewrite /a_lift /=; case: ifP => // _.
by rewrite meyeE mscaleE vstackE scalemx1.
Qed.

(** [P] (with the flag [tri]) acts as the matrix [M]. *)
Record is_pc n k (P : arr R) (tri : bool) (M : 'M[R]_(n, k)) : Prop := IsPc {
  pc_nr : nr P = n;
  pc_nc : nc P = k;
  pc_fwd : op_is (M_fwd P tri) M;
  pc_adj : op_is (M_adj P tri) M^T }.

Lemma is_pc_dense n k (P : 'M[R]_(n, k)) : is_pc (ofmx P) false P.
Proof. by split=> // x; rewrite /M_fwd /M_adj ?mtrE mvE. Qed.

Lemma is_pc_tri n (P : 'M[R]_n) : uptri P -> P \in unitmx -> is_pc (ofmx P) true (invmx P).
Proof.
by move=> tP uP; split=> // x; rewrite /M_fwd /M_adj solve_tri_vE // uP // trmx_inv.
Qed.

(** The regularised problem as one least squares problem. *)
Record lifted m n (A : 'M[R]_(m, n)) (dl : R) m' (Ab : 'M[R]_(m', n)) : Prop := Lifted {
  lf_norm : forall x : 'cV[R]_n, fro2 (Ab *m x) = fro2 (A *m x) + dl * fro2 x;
  lf_gram : Ab^T *m Ab = A^T *m A + dl%:M;
  lf_fro : fro2 Ab = fro2 A + dl *+ n }.
Record lifted_b m n (A : 'M[R]_(m, n)) (dl : R) m' (Ab : 'M[R]_(m', n))
    (b : 'cV[R]_m) (bb : 'cV[R]_m') : Prop := LiftedB {
  lb_obj : forall x, fro2 (bb - Ab *m x) = fro2 (b - A *m x) + dl * fro2 x;
  lb_grad : forall x, Ab^T *m (bb - Ab *m x) = A^T *m (b - A *m x) - dl *: x;
  lb_adj : Ab^T *m bb = A^T *m b;
  lb_eq : (if 0 < dl then ofcv b ++ vzeros n else ofcv b) = ofcv bb;
  lb_top : vtop m (ofcv bb) = ofcv b }.

Lemma lifted0 m n (A : 'M[R]_(m, n)) : lifted A 0 A.
Proof. by split=> [x||]; rewrite ?mul0r ?raddf0 ?mul0rn ?addr0. Qed.

Lemma lifted0_b m n (A : 'M[R]_(m, n)) b : lifted_b A 0 A b b.
Proof. by split=> [x|x|||]; rewrite ?mul0r ?addr0 ?scale0r ?subr0 ?ltxx ?vtop_full. Qed.

Lemma liftedS m n (A : 'M[R]_(m, n)) dl : 0 <= dl -> lifted A dl (col_mx A (Num.sqrt dl)%:M).
Proof.
move=> d0; split.
- by move=> x; rewrite mul_col_mx fro2_col_mx mul_scalar_mx fro2Z sqr_sqrtr.
- by rewrite tr_col_mx mul_row_col tr_scalar_mx -scalar_mxM -expr2 sqr_sqrtr.
- by rewrite fro2_col_mx fro2_scalar sqr_sqrtr.
Qed.

Lemma liftedS_b m n (A : 'M[R]_(m, n)) dl b : 0 < dl ->
  lifted_b A dl (col_mx A (Num.sqrt dl)%:M) b (col_mx b 0).
Proof.
move=> d0; have dE := sqr_sqrtr (ltW d0); split.
- move=> x; rewrite mul_col_mx opp_col_mx add_col_mx sub0r fro2_col_mx fro2N mul_scalar_mx fro2Z.
  by rewrite dE.
- move=> x; rewrite mul_col_mx opp_col_mx add_col_mx sub0r tr_col_mx mul_row_col tr_scalar_mx.
  by rewrite !mul_scalar_mx scalerN scalerA -expr2 dE.
- by rewrite tr_col_mx mul_row_col mulmx0 addr0.
- by rewrite d0 ofcv_col_mx -vzerosE.
- by rewrite vtop_col.
Qed.

Lemma pc_adjoint0 m n k (A : 'M[R]_(m, n)) P tri (M : 'M[R]_(n, k)) s : is_pc P tri M ->
  op_is (pc_adjoint (ofmx A) P 0 s tri) (A *m M)^T.
Proof.
move=> pc x; rewrite /pc_adjoint nr_ofmx vtop_full mtrE mvE /= ltxx /= (pc_adj pc).
by rewrite trmx_mul mulmxA.
Qed.

Lemma pc_adjointS m n k (A : 'M[R]_(m, n)) P tri (M : 'M[R]_(n, k)) dl : is_pc P tri M -> 0 < dl ->
  op_is (pc_adjoint (ofmx A) P dl (Num.sqrt dl) tri) (col_mx A (Num.sqrt dl)%:M *m M)^T.
Proof.
move=> pc d0 x; rewrite -(vsubmxK x) /pc_adjoint nr_ofmx vtop_col vbot_col mtrE mvE /= d0.
rewrite vscaleE vaddE /= (pc_adj pc) trmx_mul tr_col_mx -mulmxA mul_row_col tr_scalar_mx.
by rewrite mul_scalar_mx.
Qed.

Lemma pc_forwardE m n k (Ab : 'M[R]_(m, n)) P tri (M : 'M[R]_(n, k)) : is_pc P tri M ->
  op_is (pc_forward (ofmx Ab) P tri) (Ab *m M).
Proof. by move=> pc x; rewrite /pc_forward (pc_fwd pc) /= mvE mulmxA. Qed.

(** The operator built by [a_lift_precond], together with the lifted data. *)
Lemma a_lift_precondP m n k (A : 'M[R]_(m, n)) (dl : R) P tri (M : 'M[R]_(n, k)) :
  0 <= dl -> is_pc P tri M ->
  exists m' (Ab : 'M[R]_(m', n)) op,
  [/\ a_lift_precond (ofmx A) dl P tri 1 = Ok op, lin_is op (Ab *m M), lifted A dl Ab,
      a_lift (ofmx A) (Num.sqrt dl) = Ok (ofmx Ab) &
      (if 0 < dl then m' = (m + n)%N else m' = m)] /\
      forall b, exists bb : 'cV[R]_m', lifted_b A dl Ab b bb.
Proof.
move=> d0 pc; rewrite /a_lift_precond /= ltNge d0 /= a_liftE /=.
have [dp|dn|<-] := ltrgtP 0 dl; last first.
- exists m, A; eexists; split; first (split; [reflexivity | | exact: lifted0 | by rewrite sqrtr0 eqxx | by []]).
    rewrite sqrtr0 eqxx; split=> //=; [exact: pc_nc pc | exact: pc_forwardE | exact: pc_adjoint0].
  by move=> b; exists b; exact: lifted0_b.
- by move: (le_lt_trans d0 dn); rewrite ltxx.
exists (m + n)%N, (col_mx A (Num.sqrt dl)%:M); eexists; split; first (split; [reflexivity | | exact: liftedS | | by []]).
- rewrite sqrtr_eq0 leNgt dp /=; split=> //=; [exact: pc_nc pc | exact: pc_forwardE | exact: pc_adjointS].
- by rewrite sqrtr_eq0 leNgt dp.
by move=> b; exists (col_mx b 0); exact: liftedS_b.
Qed.

Lemma lo_trP m n op (A : 'M[R]_(m, n)) : lin_is op A -> lin_is (lo_tr op) A^T.
Proof. by case=> e1 e2 h1 h2; split=> //=; rewrite trmxK. Qed.

Lemma none_or_0E n (c : option 'cV[R]_n) :
  none_or_0 (omap (@ofcv R n) c) = if c is Some c then c == 0 else true.
Proof. by case: c => [c|] //=; rewrite vnormE fro_eq0. Qed.

(** ** PcSS2, overdetermined case *)
Section Over.
Variables (m n k : nat) (A : 'M[R]_(m, n)) (dl : R) (P : arr R) (tri : bool) (M : 'M[R]_(n, k)).
Hypotheses (dl0 : 0 <= dl) (pc : is_pc P tri M).
Variables (b : 'cV[R]_m) (c : option 'cV[R]_n).
Hypothesis (c0 : if c is Some c then c == 0 else true).
Variables (tol : R) (lim : int) (z0 : option 'cV[R]_k).

Lemma pcss2_over m' (Ab : 'M[R]_(m', n)) op (bb : 'cV[R]_m') :
  a_lift_precond (ofmx A) dl P tri 1 = Ok op -> lifted_b A dl Ab b bb ->
  let call := lsqr op (ofcv bb) 0 tol tol conlim_dflt (Some lim) false (omap (@ofcv R k) z0) in
  let pcall := PcSS2 (ofmx A) (Some (ofcv b)) (omap (@ofcv R n) c) dl tol lim P tri (omap (@ofcv R k) z0) in
  (forall e, call = Err e -> pcall = Err e) /\
  (forall q (z : 'cV[R]_k), call = Ok q -> q_x q = ofcv z ->
    pcall = Ok (SOut (Some (ofcv (M *m z))) (ofcv (b - A *m (M *m z))) (q_errs q) P)).
Proof.
move=> opE lb call pcall; rewrite /pcall /PcSS2 opE [rbind _ _]/= none_or_0E c0.
rewrite (lb_eq lb).
split=> [e|q z] E; first by rewrite -/call E.
rewrite -/call E => qz; rewrite [rbind (Ok _) _]/= qz (pc_fwd pc) [rbind (Ok _) _]/=.
by rewrite mvE [rbind (Ok _) _]/= (lb_top lb) vsubE.
Qed.

End Over.

(** Underdetermined case. *)
Lemma pcss2_under m n k (A : 'M[R]_(m, n)) (dl : R) P tri (M : 'M[R]_(n, k))
    (b : option 'cV[R]_m) (c : 'cV[R]_n) tol lim z0 op :
  0 <= dl -> is_pc P tri M -> c != 0 -> (if b is Some b then b == 0 else true) ->
  a_lift_precond (ofmx A) dl P tri 1 = Ok op ->
  let call := lsqr (lo_tr op) (ofcv (M^T *m c)) 0 tol tol conlim_dflt (Some lim) false None in
  let pcall := PcSS2 (ofmx A) (omap (@ofcv R m) b) (Some (ofcv c)) dl tol lim P tri z0 in
  [/\ forall e, call = Err e -> pcall = Err e,
   dl = 0 -> forall q (y : 'cV[R]_m), call = Ok q -> q_x q = ofcv y ->
    pcall = Ok (SOut None (ofcv y) (q_errs q) P) &
   0 < dl -> forall q (y : 'cV[R]_(m + n)), call = Ok q -> q_x q = ofcv y ->
    pcall = Ok (SOut (Some (ofcv (dl^-1 *: (A^T *m usubmx y - c)))) (ofcv (usubmx y)) (q_errs q) P)].
Proof.
move=> dl0 pc cn0 b0 opE call pcall; rewrite /pcall /PcSS2 opE [rbind _ _]/=.
rewrite vnormE fro_eq0 (negbTE cn0) none_or_0E b0 (pc_adj pc) [rbind (Ok _) _]/=; split=> [e E|d0 q y E qy|d0 q y E qy].
- by rewrite -/call E.
- by rewrite -/call E [rbind (Ok _) _]/= d0 ltxx qy.
rewrite -/call E [rbind (Ok _) _]/= d0 qy -{1 2}(vsubmxK y) vtop_col mtrE mvE.
by rewrite [rbind (Ok _) _]/= vsubE [rbind (Ok _) _]/= vdivsE.
Qed.

(** ** LSQR returns, also from an exact starting point for [b = 0]. *)
Lemma lsqr_total m n (A : 'M[R]_(m, n)) op (b : 'cV[R]_m) (start : option 'cV[R]_n)
    (atol btol conlim : R) cv (lim : option int) :
  let x0 := lsqr_x0 start in
  lin_is op A -> 0 <= lim_of n lim -> [\/ b != 0, start = None | b = A *m x0] ->
  exists out (x : 'cV[R]_n),
    [/\ lsqr op (ofcv b) 0 atol btol conlim lim cv (omap (@ofcv R n) start) = Ok out,
        q_x out = ofcv x & fro2 (b - A *m x) <= fro2 (b - A *m x0)].
Proof.
move=> x0 opA l0 h.
have [bA|/eqP bA] := eqVneq b (A *m x0).
  have := lsqr_unfold opA b start 0 atol btol conlim cv lim.
  rewrite /= -/x0 -bA subrr fro0 eqxx /= => ->.
  by exists (LsqrOut (ofcv x0) 0 0 0 0 0 0 (EScal 0) 0 (vzeros n)), x0; rewrite -bA subrr fro20.
have bs : b != 0 \/ start = None by case: h => // ?; [left | right].
have [out E] := lsqr_returns opA 0 atol btol conlim cv l0 bs.
have [x [xE le]] := lsqr_mono_lemma opA l0 bs E.
by exists out, x; split=> //; move: le; rewrite expr0n !mul0r addr0.
Qed.

End P.
