(** Proofs of C109, continued: a whole call of SPO in Cholesky mode. *)
From mathcomp Require Import all_ssreflect all_algebra.
From mathcomp Require Import zify.
From Verif Require Import Base Arr Lapack Exact MxLib RingTac LapackSpec Rng Aware Pcg Lsqr Precond LstSq Shape Inexact Float FloatInterp FloatNys FloatPre.
From Verif Require Import LapackExists Drivers P_Inexact4 P_Svd P_Shape P_ShapeLS P_Float P_Float2 P_Float3 P_Float5 P_Float7 P_Float14 P_Float17 P_Float20 P_Float21 P_Float22 P_Float23 P_Float24.
Set Implicit Arguments.
Unset Strict Implicit.
Unset Printing Implicit Defensive.
Import Order.TTheory GRing.Theory Num.Theory.
Local Open Scope ring_scope.

Section Call.
Context {R : rcfType} {T : Type} {O : ops T} {G : Type}.
Variables (v : T -> R) (u : R).
Hypothesis F : fl_arith O v u.
Local Notation mV := (@mval R T O v).
Local Notation sz n := (fun x : seq T => size x = n).
Variables (m n : nat) (A : arr T) (dl : T).
Hypotheses (sA : shaped m n A) (d0 : 0 <= v dl).

Section Solve.
Variables (X : exn -> Prop) (P : arr T).
Hypotheses (xu : X Unmodelled) (sP : shaped n n P) (dg : forall i, (i < n)%N -> v (el P i i) != 0).

Lemma tri_fwd z : size z = n -> rsafe X (sz n) (M_fwd P true z).
Proof using F sP dg. by move=> ez; rewrite /M_fwd; have [y -> ey] := solve_v_ok F false false sP ez dg. Qed.
Lemma tri_adj z : size z = n -> rsafe X (sz n) (M_adj P true z).
Proof using F sP dg. by move=> ez; rewrite /M_adj; have [y -> ey] := solve_v_ok F false true sP ez dg. Qed.

Lemma tri_PcSS2 b tol (it : int) z0 : size b = m -> optsz n z0 -> (0 <= it)%R ->
  rsafe X (fun o => sout_shape m n it o /\ exists x, o_x o = Some x) (PcSS2 A (Some b) None dl tol it P true z0).
Proof using F sA d0 xu sP dg.
move=> eb ez it0; have [_ a1 a2] := sA; rewrite /PcSS2 a1 a2 /=.
have [m' [Ab [op [-> [e1 e2] hl [h1 h2 _] /(_ dg)[f1 f2]]]]] := pre_tri F sA d0 sP.
have em : m' = (if olt o0 dl then m + n else m)%N.
  by move: hl; rewrite /lifted_mx (fl_lt F) (fl_0 F); case: (0 < v dl) => -[].
have hop : linsh X m' n op.
  split=> // x ex; first by have [f E] := f1 x ex; have [ef _] := h1 _ _ ex E; rewrite E.
  by have [f E] := f2 x ex; have [ef _] := h2 _ _ ex E; rewrite E.
have eb' : size (if olt o0 dl then b ++ vzeros n else b) = m'.
  by rewrite em; case: ifP => //; rewrite size_cat /vzeros size_nseq eb.
rewrite [rsafe _ _ _]/=.
apply: rsafe_bind (sv_lsqr xu _ _ _ _ _ hop eb' it0 _) _ => [|q [k1 k2 k3 _]]; first by case: z0 ez.
apply: rsafe_bind (tri_fwd k1) _ => x ex; apply: rsafe_bind (sv_mv X sA ex) _ => Ax eAx.
apply: rsafe_bind (sv_vsub X _ eAx) _ => [|y ey].
  by rewrite size_takel // eb' em; case: (olt _ _); rewrite ?leq_addr.
by split=> //; exists x.
Qed.
End Solve.

Variables (X : exn -> Prop) (L : lapack T) (gen : nat -> nat -> M G T (pyop T)) (PS : nat -> pyop T -> Prop).
Hypothesis gsh : forall d, (0 < d)%N -> safe X (fun S => sksh d m S /\ PS d S) (gen d m).

Lemma SPO_tri (X' : exn -> Prop) sf md b tol (it : int) (lg : bool) clk : (forall e, X e -> X' e) ->
  X Unmodelled -> (lg -> X ValueError) -> mode_tri md ->
  (0 < n <= m)%N -> sf_ok sf n -> size b = m -> (0 <= it)%R ->
  (forall d S B As, (n <= d <= m)%N -> PS d S -> S = PyArr B \/ S = PySp B -> shaped d m B -> shaped d n As ->
     fro (mV d n As - mV d m B *m mV m n A) <= gam u m.+1 * (fro (mV d m B) * fro (mV m n A)) ->
     rsafe X' (fun x => [/\ shaped n n x.1.1, forall i, (i < n)%N -> v (el x.1.1 i i) != 0, size x.1.2 = n & size x.2 = n])
       (spo_factor L md S As b dl d n)) ->
  safe X' (fun xl => size xl.1 = n /\ log_le lg it xl.2) (SPO L gen sf md A b dl tol it lg clk).
Proof using F sA d0 gsh.
move=> xx xu xv md1 nm sf1 eb it0 hfac; have [_ a1 a2] := sA; have /andP[n0 nm'] := nm; have m0 := leq_trans n0 nm'.
have xu' := xx _ xu.
have e0 : olt dl o0 = false by rewrite (fl_lt F) (fl_0 F) ltNge d0.
rewrite /SPO a1 a2; case: (olt dl o0) e0 => // _.
apply: safe_bind (safe_dim X' nm' sf1) _ => d /andP[nd dm]; have dp := leq_trans n0 nd.
apply: (safe_bind (Q := fun S => sksh d m S /\ PS d S)).
  by apply: safe_emit => s; apply: rsafe_exn (gsh dp s) => e; exact: xx.
move=> S [[B SE sB] pS].
apply: (safe_bind (Q := fun As => shaped d n As /\
    fro (mV d n As - mV d m B *m mV m n A) <= gam u m.+1 * (fro (mV d m B) * fro (mV m n A)))).
  by apply: safe_lift; case: SE => ->; exact: (fl_mmul F X' sB sA).
move=> As [sAs rAs]; have nd' : (n <= d <= m)%N by rewrite nd.
apply: safe_bind (safe_lift (hfac d S B As nd' pS SE sB sAs rAs)) _.
move=> [[P z] x] /= [sP dg ez ex].
apply: (safe_bind (Q := optsz n)).
  apply: safe_lift; apply: rsafe_bind (sv_mv X' sA ex) _ => Ax eAx.
  by apply: rsafe_bind (sv_vsub X' eAx eb) _ => rr er /=; case: (spo_reject _ _).
move=> z0 ez0; rewrite md1.
apply: safe_bind (safe_lift (tri_PcSS2 xu' sP dg tol eb ez0 it0)) _ => o [[ox oy oe] [xx' exx]].
apply: (safe_bind (Q := log_le lg it)).
  case: lg xv => xv; last by apply: safe_ret.
  apply: safe_lift; apply: rsafe_bind (sv_tmv X' sA eb) _ => w ew; apply: rsafe_bind (tri_adj X' sP dg ew) _ => w2 ew2.
  by apply: sv_wrap => //; apply: xx; exact: xv.
move=> lo hlo; rewrite exx; apply: safe_ret; split=> //=; by rewrite exx in ox.
Qed.

Lemma fl_SPO_chol_fail sf b tol (it : int) (lg : bool) clk : X Unmodelled -> (lg -> X ValueError) ->
  (0 < n <= m)%N -> sf_ok sf n -> size b = m -> (0 <= it)%R ->
  safe (fun e => X e \/ e = LinAlgError /\ exists d S B,
          [/\ (n <= d <= m)%N, PS d S, S = PyArr B \/ S = PySp B, shaped d m B &
              spo_fail u (mV d m B) (mV m n A) (v dl)])
    (fun xl => size xl.1 = n /\ log_le lg it xl.2) (SPO L gen sf MChol A b dl tol it lg clk).
Proof using F sA d0 gsh.
move=> xu xv nm sf1 eb it0; set X' := fun e => _ \/ _.
apply: SPO_tri => // [e|d S B As nd pS SE sB sAs rAs]; first by left.
have sG : shaped n n (gram_ske As dl) by case: sAs => _ _ <-; exact: sh_mk.
rewrite /spo_factor; apply: (rsafe_bind (Q := chol_ok v u n (gram_ske As dl))).
  apply: (cholesky_exn sG) => [Lo E|E].
    by have := fl_cholesky (X := fun _ => True) F I sG; rewrite E.
  right; split=> //; exists d, S, B; split=> //; exists (mV d n As) => // kap co; apply/negP=> df.
  by have [Lo E' _] := gram_chol F sAs d0 co df; rewrite E in E'.
move=> Lo [sLo _ dgL _ _]; have sR := sh_mtr sLo.
have dg i : (i < n)%N -> v (el (mtr Lo) i i) != 0.
  move=> i_n; have := dgL (Ordinal i_n); rewrite !mxE /= => /gt_eqF.
  by case: sLo => _ l1 l2; rewrite /mtr el_mk ?l1 ?l2 // => ->.
apply: rsafe_bind (sk_rv X' (ex_intro2 _ _ B SE sB) eb) _ => bs ebs; apply: rsafe_bind (sv_tmv X' sAs ebs) _ => w ew.
have [z Ez ez] := solve_v_ok F false true sR ew dg; rewrite Ez [rsafe _ _ _]/=.
by have [y Ey ey] := solve_v_ok F false false sR ez dg; rewrite Ey.
Qed.

Variables (eta qd : R).
Hypotheses (hqr : qr_fl v X L eta qd) (htri : qr_tri v L).

Lemma qr_singular d D (As : arr T) (Ab : 'M[R]_(D, n)) (Al Q P : arr T) kap : 0 <= qd ->
  lifted_mx (mV d n As) (v dl) Ab -> fro (mV D n Al - Ab) <= gam u 2 * fro Ab ->
  fro (mV D n Al - mV D n Q *m mV n n P) <= qd * fro (mV D n Al) ->
  (forall i j : 'I_n, (j < i)%N -> mV n n P i j = 0) -> (exists i : 'I_n, mV n n P i i = 0) ->
  (forall w : 'cV[R]_n, kap * fro2 w <= fro2 (mV d n As *m w) + v dl * fro2 w) ->
  kap <= (qd * (1 + gam u 2) + gam u 2) ^+ 2 * (fro2 (mV d n As) + n%:R * v dl).
Proof using F d0.
move=> q0 hl hA hq up [i ei] co; set U := mV n n P in hq up ei *.
have /det0P[w w0 wU] : \det U^T == 0.
  rewrite det_trig; last by apply/is_trig_mxP=> a b ab; rewrite mxE up.
  by rewrite (bigD1 i) //= mxE ei mul0r.
have {wU} Uw : U *m w^T = 0 by rewrite -[U]trmxK -trmx_mul wU trmx0.
have w0' : 0 < fro2 w^T by rewrite lt_def fro2_ge0 andbT fro2_eq0 trmx_eq0.
have [hw hF] : (forall x : 'cV[R]_n, fro2 (Ab *m x) = fro2 (mV d n As *m x) + v dl * fro2 x) /\
    fro2 Ab = fro2 (mV d n As) + n%:R * v dl.
  move: hl; rewrite /lifted_mx lt_def d0 andbT; case: (boolP (v dl == 0)) => [/eqP->|_] /= [eD]; subst D => /ofmx_inj->.
    by split=> [x|]; rewrite ?mul0r ?mulr0 addr0.
  split=> [x|]; first by rewrite mul_col_mx fro2_col_mx mul_scalar_mx fro2Z sqr_sqrtr.
  by rewrite fro2_col_mx -scalemx1 fro2Z sqr_sqrtr // fro2_1 mulrC.
set wc := w^T in Uw w0' *.
have hAl : fro (mV D n Al) <= (1 + gam u 2) * fro Ab.
  rewrite mulrDl mul1r -[X in fro X](subrK Ab) addrC; apply: le_trans (ler_froD _ _) _; exact: ler_add.
have g0 : 0 <= gam u 2 by apply: gam_ge0; rewrite ?(fl_u0 F) ?(fl_u1 F).
have h1 : fro (Ab *m wc) <= (qd * (1 + gam u 2) + gam u 2) * fro Ab * fro wc.
  have -> : Ab *m wc = (mV D n Al - mV D n Q *m U) *m wc - (mV D n Al - Ab) *m wc.
    by rewrite !mulmxBl -mulmxA Uw mulmx0 subr0 opprB addrC subrK.
  apply: le_trans (ler_froB _ _) _; rewrite mulrDl mulrDl; apply: ler_add.
    apply: le_trans (fro_mul_le _ _) _; apply: ler_wpmul2r; first exact: fro_ge0.
    by apply: le_trans hq _; rewrite -mulrA; apply: ler_wpmul2l.
  by apply: le_trans (fro_mul_le _ _) _; apply: ler_wpmul2r; first exact: fro_ge0.
have h2 : fro2 (Ab *m wc) <= (qd * (1 + gam u 2) + gam u 2) ^+ 2 * fro2 Ab * fro2 wc.
  rewrite -!sqr_fro -!exprMn; rewrite ler_pexpn2r // nnegrE ?fro_ge0 // !mulr_ge0 ?fro_ge0 // addr_ge0 // mulr_ge0 // addr_ge0 ?ler01 //.
rewrite -(ler_pmul2r w0') -hF; apply: le_trans (co _) _; by rewrite -hw.
Qed.

Lemma ske_liftE d (As : arr T) : shaped d n As -> ske_lift As dl n = a_lift As (osqrt dl).
Proof using F d0.
by move=> [_ _ e]; rewrite /ske_lift /a_lift (sd0 F) // e (fl_lt F) (fl_0 F) lt_def d0 andbT if_neg.
Qed.

Lemma fl_SPO_qr_fail sf b tol (it : int) (lg : bool) clk : X Unmodelled -> (lg -> X ValueError) -> 0 <= qd ->
  (0 < n <= m)%N -> sf_ok sf n -> size b = m -> (0 <= it)%R ->
  safe (fun e => X e \/ e = LinAlgError /\ exists d S B,
          [/\ (n <= d <= m)%N, PS d S, S = PyArr B \/ S = PySp B, shaped d m B &
              spo_qr_fail u qd (mV d m B) (mV m n A) (v dl)])
    (fun xl => size xl.1 = n /\ log_le lg it xl.2) (SPO L gen sf MQr A b dl tol it lg clk).
Proof using F sA d0 gsh hqr htri.
move=> xu xv q0 nm sf1 eb it0; set X' := fun e => _ \/ _.
apply: SPO_tri => // [e|d S B As nd pS SE sB sAs rAs]; first by left.
have /andP[nd1 nd2] := nd; have /andP[n0 nm'] := nm.
have [D [Ab [Al [El sAl hl hA _]]]] := lift_ok F sAs d0.
have dD : (d <= D)%N by move: hl; rewrite /lifted_mx; case: (0 < v dl) => -[e _]; rewrite e ?leq_addr.
have nD := leq_trans nd1 dD.
rewrite /spo_factor (ske_liftE sAs) El [rsafe _ _ _]/=.
have := hqr (leq_trans n0 nD) n0 sAl; rewrite (minn_idPr nD); have := htri (A := Al).
case: (l_qr L Al) => [e _ /=|[Q P] /(_ Q P erefl) up /= [sQ sP _ res]]; first by left.
have sQd : shaped d n (rslice Q 0 d) by apply: sh_rslice sQ _; rewrite /slen; lia.
apply: rsafe_bind (sk_rv X' (ex_intro2 _ _ B SE sB) eb) _ => bs ebs; apply: rsafe_bind (sv_tmv X' sQd ebs) _ => z ez.
have [/forallP dg|] := boolP [forall i : 'I_n, v (el P i i) != 0].
  have dg' i : (i < n)%N -> v (el P i i) != 0 by move=> i_n; exact: (dg (Ordinal i_n)).
  by have [y Ey ey] := solve_v_ok F false false sP ez dg'; rewrite Ey.
rewrite negb_forall => /existsP[i]; rewrite negbK => /eqP ei.
have -> : solve_tri_v false false P z = Err LinAlgError.
  have [_ p1 p2] := sP; rewrite /solve_tri_v /tri_check p1 p2 ez !eqxx /=; case: ifP => // /negP[].
  by apply/hasP; exists (i : nat); [rewrite mem_iota /=|rewrite (fl_eq F) (fl_0 F) ei].
right; split=> //; exists d, S, B; split=> //; exists (mV d n As) => // kap co.
apply: (qr_singular q0 hl hA res _ _ co) => [a c ca|]; last by exists i; rewrite mxE.
by have [_ p1 p2] := sP; rewrite mxE; apply: up; rewrite ?p1 ?p2 ?ca ltn_ord.
Qed.

End Call.

Lemma spo_call_wit (R : rcfType) (u : R) (L : lapack R) (tol : R) clk : 0 < u -> 100%:R * u <= 1 ->
  let O := bent_ops u in let A := @mk R 1 1 (fun _ _ => 1) in
  safe (fun e => e = Unmodelled \/ e = LinAlgError /\ exists d (S : pyop R) B,
          [/\ (1 <= d <= 1)%N, S = PyArr (@mk R d 1 (fun _ _ => 1)), S = PyArr B \/ S = PySp B, @shaped R O d 1 B &
              spo_fail u (@mval R R O id d 1 B) (@mval R R O id 1 1 A) 0])
    (fun xl => size xl.1 = 1%N /\ log_le false 5 xl.2)
    (@SPO R O unit L (fun d m => ret (PyArr (@mk R d m (fun _ _ => 1)))) 3%:R MChol A [:: 1] 0 tol 5 false clk).
Proof.
move=> u0 u1 O A; have [[F _] sA _ _] := chol_wit u0 u1.
apply: (@fl_SPO_chol_fail _ R O unit id u F 1 1 A 0 sA (lexx 0) (fun e => e = Unmodelled) L _
  (fun d S => S = PyArr (@mk R d 1 (fun _ _ => 1)))) => //.
by move=> d _ s /=; split=> //; exists (@mk R d 1 (fun _ _ => 1)); [left|exact: (@sh_mk R O)].
Qed.

Lemma bent_qr_tri (R : rcfType) (u eta : R) : @qr_tri R R (bent_ops u) id (bent_lapack eta).
Proof.
move=> A Q U /=; have := xchooseP (qr_ex (tomx A)); case: (xchoose _) => Q' U' /and3P[_ /b_upP tU _] [_ <-] i j.
rewrite /= => /andP[ji im] jn.
apply: etrans (_ : ((Num.sqrt (1 + eta))^-1 *: U') (Ordinal im) (Ordinal jn) = 0); first exact: (el_ofmx_nat _ im jn).
by rewrite mxE tU ?mulr0.
Qed.

(** The drivers, over the sparse sign operators. *)
Section Spo3.
Context {R : rcfType} {T : Type} {O : ops T} {G : Type}.
Variables (v : T -> R) (u : R) (X : exn -> Prop) (L : lapack T) (r : rng_ops G T).
Hypothesis F : fl_arith O v u.
Variables (m n : nat) (A : arr T) (dl : T) (b : seq T) (tol : T) (it : int) (a : rngarg) (sf : rat) (nnz : nat).
Variable clk : @timing T.
Hypotheses (sA : shaped m n A) (d0 : 0 <= v dl) (xu : X Unmodelled) (xv : X ValueError) (nm : (0 < n <= m)%N)
  (sf1 : sf_ok sf n) (eb : size b = m) (it0 : (0 <= it)%R).

Let PS d S := exists s, (@skopSJ T O G r nnz d m s).2 = Ok S.
Let gsh d : (0 < d)%N -> safe X (fun S => sksh d m S /\ PS d S) (skopSJ r nnz d m).
Proof using sA nm.
move=> dp s; have m0 : (0 < m)%N by case/andP: nm; exact: leq_trans.
have := @safe_sj T O G X r nnz d m dp m0 s; case E : ((skopSJ _ _ _ _ s).2) => [//|S] h.
by split=> //; exists s.
Qed.

Lemma fl_spo3_chol : safe (fun e => X e \/ e = LinAlgError /\ exists d S B,
      [/\ (n <= d <= m)%N, exists s, (skopSJ r nnz d m s).2 = Ok S, S = PyArr B \/ S = PySp B, shaped d m B &
          spo_fail u (mval v d m B) (mval v m n A) (v dl)])
    (fun xl => size xl.1 = n /\ log_le true it xl.2) (spo3 L r A b dl tol it a sf nnz MChol clk).
Proof using F sA d0 xu xv nm sf1 eb it0.
apply: safe_rng; exact: (fl_SPO_chol_fail F sA d0 L (PS := PS) gsh tol clk xu (fun _ => xv) nm sf1 eb it0).
Qed.

Lemma fl_spo3_qr eta qd : qr_fl v X L eta qd -> qr_tri v L -> 0 <= qd ->
  safe (fun e => X e \/ e = LinAlgError /\ exists d S B,
      [/\ (n <= d <= m)%N, exists s, (skopSJ r nnz d m s).2 = Ok S, S = PyArr B \/ S = PySp B, shaped d m B &
          spo_qr_fail u qd (mval v d m B) (mval v m n A) (v dl)])
    (fun xl => size xl.1 = n /\ log_le true it xl.2) (spo3 L r A b dl tol it a sf nnz MQr clk).
Proof using F sA d0 xu xv nm sf1 eb it0.
move=> hq ht q0; apply: safe_rng.
exact: (fl_SPO_qr_fail F sA d0 (PS := PS) gsh hq ht tol clk xu (fun _ => xv) q0 nm sf1 eb it0).
Qed.
End Spo3.
