(** Proofs of C109, continued: drivers, and the Cholesky preconditioner of SPO. *)
From mathcomp Require Import all_ssreflect all_algebra.
From mathcomp Require Import zify.
From Verif Require Import Base Arr Lapack Exact MxLib RingTac LapackSpec LapackExists Rng Aware RangeFinders QB SvdEvd LstSq Shape Inexact Float FloatInterp FloatEvd
  FloatNys.
From Verif Require Import P_Svd P_SvdEvd P_Shape P_ShapeLS P_Embed3 P_Inexact P_Inexact4 P_Float P_Float2 P_Float3 P_Float5 P_Float7 P_Float10 P_Float11 P_Float13 P_Float14 P_Float17
  P_Float18 P_Float19 P_Float20 P_Float21 P_Float22.
Set Implicit Arguments.
Unset Strict Implicit.
Unset Printing Implicit Defensive.
Import Order.TTheory GRing.Theory Num.Theory.
Local Open Scope ring_scope.

Section Drv.
Context {R : rcfType} {T : Type} {O : ops T} {G : Type}.
Variables (v : T -> R) (u mu : R) (X : exn -> Prop) (L : lapack T).
Hypotheses (F : fl_arith O v u) (fsvd : svd_fl v X L mu).
Local Notation mV := (@mval R T O v).
Variables (n k : nat) (over : int) (A : arr T).
Local Notation p := (absz (k%:Z + over)).
Hypotheses (k0 : (0 < k < n)%N) (ov : 0 <= over) (sA : shaped n n A) (symA : (mV n n A)^T = mV n n A).

Lemma fl_EVD2_sk_fail (sk_op : @rowsketcher T G) (PS : 'M[R]_(n, p) -> Prop) (s : st G T) :
  rsafe X (fun S => exists2 D, S = PyArr D & shaped n p D /\ PS (mV n p D)) (sk_op A p s).2 ->
  rsafe (fun e => X e \/ e = LinAlgError /\ exists2 S, PS S & nys_fail v u (mV n n A) S) (fun _ => True)
    (EVD2 L sk_op A k%:Z None over s).2.
Proof using F fsvd k0 ov sA symA.
case E: (sk_op A p s) => [s1 [ex|S]] /=.
  have [_ e1 _] := sA; move=> hx; have k0' : (0 < k%:Z) && (k%:Z < n%:Z) by move: k0; clear; lia.
  case/andP: k0' => ka kb; rewrite /EVD2 e1 ka kb !bind_passertT.
  by rewrite /bind /ret ltNge (_ : 0 <= k%:Z + over) /=; [rewrite E; left|move: ov; clear; lia].
case=> D SE [sD pD]; rewrite SE in E.
have h := fl_EVD2_fail F fsvd sA sD (sk_op := sk_op) (k := k) (over := over) (s := s) (s1 := s1) symA.
apply: rsafe_exn (h _ _ _ _ E) => //; try by move: k0 ov; clear; lia.
by move=> e [he|[-> hf]]; [left|right; split=> //; exists (mV n p D)].
Qed.

Variable r : rng_ops G T.
Hypothesis (rok : rng_ok r).

Lemma fl_evd2_one_fail g es :
  rsafe (fun e => X e \/ e = LinAlgError /\ nys_fail v u (mV n n A) (mV n p (r_normal r g (@gscale T O n p) n p).2))
    (fun _ => True) (evd2 L r A k%:Z over 1 RGen (St g es)).2.
Proof using All.
have [_ e1 e2] := sA; have n0 : (0 < n)%N by move: k0; clear; lia.
have nl0 : (0 < minn n p)%N by move: n0 k0 ov; clear; lia.
have hr : rsafe X (fun S => exists2 D, S = PyArr D & shaped n p D /\
      (fun S' : 'M[R]_(n, p) => S' = mV n p (r_normal r g (@gscale T O n p) n p).2) (mV n p D))
    (RS1 (skopGA r) 0 (orth L) 1 A p (St g es)).2.
  rewrite /RS1 bind_passertT // /= e2 /draw /skopGA /gaussian_operator gtn_eqF // -/(gscale n p).
  rewrite /bind /emit /getgen /=; have := ok_normal rok g (@gscale T O n p) n p.
  by case: (r_normal _ _ _ _ _) => g' M /= [w [a b']]; exists M => //; split.
rewrite /evd2 bind_passertT //; have h := fl_EVD2_sk_fail (PS := fun S => S = mV n p (r_normal r g (@gscale T O n p) n p).2) hr.
by apply: rsafe_exn h => e [he|[-> [S -> hS]]]; [left|right].
Qed.

Lemma fl_evd2_fail (eta dl : R) (np : nat) g es : qr_fl v X L eta dl -> 0 <= eta < 1 -> 0 <= dl -> (p <= n)%N ->
  rsafe (fun e => X e \/ e = LinAlgError /\
           exists2 S, pow_chain eta (fl_sketch dl u n) (mV n n A) (mV n p (r_normal r g (@gscale T O n p) n p).2) np S &
                      nys_fail v u (mV n n A) S)
    (fun _ => True) (evd2 L r A k%:Z over np.+1%:Z RGen (St g es)).2.
Proof using All.
move=> qrL e01 dl0 pn; rewrite /evd2 bind_passertT (_ : np.+1%:Z - 1 = np%:Z); last by clear; lia.
by apply: fl_EVD2_sk_fail; exact: (rs1_pow F k0 ov sA symA rok qrL dl0 pn).
Qed.
End Drv.

Section Gram.
Context {R : rcfType} {T : Type} {O : ops T}.
Variables (v : T -> R) (u : R).
Hypothesis F : fl_arith O v u.
Add Field gram_field : (rcf_field R).
Local Notation mV := (@mval R T O v).
Local Notation g := (gam u).
Let u0 := fl_u0 F.
Variables (d n : nat) (As : arr T) (dl : T).
Hypotheses (sA : shaped d n As) (dl0 : 0 <= v dl).
Local Notation Am := (mV d n As).
Local Notation Gm := (Am^T *m Am + (v dl)%:M).
Local Notation c := (fl_chol u n).

Lemma gram_entry (a b : 'I_n) : (a <= b)%N ->
  `|v (oadd (osum d (fun l => omul (el As l a) (el As l b))) (omul dl (if ((a : nat) == b)%bool then o1 else o0))) - Gm a b| <=
  g d.+2 * ((absm Am)^T *m absm Am + (v dl)%:M) a b.
Proof using F dl0.
move=> ab; set x := osum _ _; set y := omul _ _.
have hx : `|v x - (Am^T *m Am) a b| <= g d.+1 * ((absm Am)^T *m absm Am) a b.
  have h (l : 'I_d) : rel u 1 (v (omul (el As l a) (el As l b))) (v (el As l a) * v (el As l b)) by exact: rel_mul1.
  have := fl_osum_rel F (f := fun l => omul (el As l a) (el As l b)) h; rewrite addn1 -/x !mxE.
  rewrite (eq_bigr (fun l => (Am^T) a l * Am l b)); last by move=> l _; rewrite !mxE.
  move/le_trans; apply; apply: eq_lew; congr (_ * _); apply: eq_bigr => l _.
  by rewrite [(absm Am)^T a l]mxE ![absm _ _ _]mxE ![Am _ _]mxE normrM.
have hy : `|v y - (v dl)%:M a b| <= u * (v dl)%:M a b.
  rewrite /y !mxE -val_eqE /=; case: (val a == val b).
    by rewrite mulr1n; have := fl_mul F dl (@o1 T O); rewrite (fl_1 F) mulr1 (ger0_norm dl0).
  by rewrite mulr0n; have := fl_mul F dl (@o0 T O); rewrite (fl_0 F) !mulr0 normr0 mulr0.
have := fl_add F x y; rewrite [Gm a b]mxE [in X in _ -> _ <= _ * X]mxE.
have S0 : `|(Am^T *m Am) a b| <= ((absm Am)^T *m absm Am) a b.
  rewrite !mxE; apply: le_trans (ler_norm_sum _ _ _) _; apply: ler_sum => l _.
  by rewrite [(absm Am)^T a l]mxE ![absm _ _ _]mxE [Am^T _ _]mxE normrM.
have D0 : 0 <= ((v dl)%:M : 'M[R]_n) a b by rewrite mxE mulrn_wge0.
move: (v (oadd x y)) (v x) (v y) hx hy S0 D0 => t x' y'.
move: ((Am^T *m Am) a b) (((absm Am)^T *m absm Am) a b) (((v dl)%:M : 'M[R]_n) a b) => s S D hx hy S0 D0 h.
have Sp : 0 <= S by exact: le_trans S0.
have g0 := gam_ge0 u0 d.+1.
have g1 : u <= g d.+1 by rewrite -[u in u <= _]/(u); have := gam_le u0 (p := 1) (q := d.+1) isT; rewrite gam1.
have h1 : `|x' + y' - (s + D)| <= g d.+1 * (S + D).
  have -> : x' + y' - (s + D) = (x' - s) + (y' - D) by rring.
  apply: le_trans (ler_norm_add _ _) _; rewrite mulrDr; apply: ler_add => //.
  by apply: le_trans hy _; apply: ler_wpmul2r.
have h2 : `|x' + y'| <= (1 + g d.+1) * (S + D).
  rewrite -(subrK (s + D) (x' + y')) addrC mulrDl mul1r; apply: le_trans (ler_norm_add _ _) _; apply: ler_add => //.
  by apply: le_trans (ler_norm_add _ _) _; rewrite (ger0_norm D0) ler_add2r.
have -> : t - (s + D) = (t - (x' + y')) + (x' + y' - (s + D)) by rring.
apply: le_trans (ler_norm_add _ _) _; apply: le_trans (ler_add (le_trans h (ler_wpmul2l u0 h2)) h1) _.
have gS : g d.+2 = g d.+1 + u + g d.+1 * u by rewrite -addn1 gamD gam1.
by rewrite gS; apply: eq_lew; move: (g d.+1) => q; rring.
Qed.

Lemma gram_low (a b : 'I_n) : `|(lowval v n (gram_ske As dl) - Gm) a b| <=
  g d.+2 * ((absm Am)^T *m absm Am + (v dl)%:M) a b.
Proof using F dl0 sA.
have [_ a1 a2] := sA.
have sy (B : 'M[R]_(d, n)) (i j : 'I_n) : (B^T *m B + (v dl)%:M) i j = (B^T *m B + (v dl)%:M) j i.
  by rewrite -[in LHS](trmxK (_ + _)) mxE linearD /= trmx_mul trmxK tr_scalar_mx.
wlog ab : a b / (a <= b)%N.
  move=> h; case: (leqP a b) => [|/ltnW ba]; first exact: h.
  have := h _ _ ba; rewrite [X in _ <= _ * X]sy; congr (is_true (`|_| <= _)).
  by rewrite mxE [RHS]mxE; congr (_ + _); [rewrite !mxE maxnC minnC|rewrite mxE [RHS]mxE; congr (- _); exact: sy].
have -> : (lowval v n (gram_ske As dl) - Gm) a b = v (el (gram_ske As dl) b a) - Gm a b.
  by rewrite mxE; congr (_ + _); rewrite ?mxE ?(maxn_idPr ab) ?(minn_idPl ab) //.
rewrite /gram_ske el_mk ?a2 // (minn_idPr ab) (maxn_idPl ab) a1; exact: gram_entry.
Qed.
Lemma gram_fro : fro (lowval v n (gram_ske As dl) - Gm) <= gr_e u d n (fro2 Am) (v dl).
Proof using F dl0 sA.
apply: le_trans (_ : g d.+2 * fro ((absm Am)^T *m absm Am + (v dl)%:M) <= _).
  apply: fro_dom => [|i j]; first exact: gam_ge0.
  apply: le_trans (gram_low i j) _; apply: ler_wpmul2l; [exact: gam_ge0|exact: ler_norm].
apply: ler_wpmul2l; first exact: gam_ge0.
apply: le_trans (ler_froD _ _) _; apply: ler_add.
  by apply: le_trans (fro_mul_le _ _) _; rewrite [fro (absm Am)^T]/fro fro2_trmx -/(fro _) fro_abs -expr2 sqr_fro.
by rewrite -scalemx1 /fro fro2Z sqrtrM ?sqr_ge0 // sqrtr_sqr ger0_norm // fro2_1.
Qed.

Lemma gram_tr : \tr (lowval v n (gram_ske As dl)) <= (1 + g d.+2) * (fro2 Am + n%:R * v dl).
Proof using F dl0 sA.
have tE (B : 'M[R]_(d, n)) : \tr (B^T *m B + (v dl)%:M) = fro2 B + n%:R * v dl.
  by rewrite mxtraceD -fro2_tr mxtrace_scalar mulr_natl.
have fa : fro2 (absm Am) = fro2 Am by rewrite -!sqr_fro fro_abs.
rewrite mulrDl mul1r -{1}tE -fa -tE mulr_sumr -ler_subl_addl -sumrB; apply: ler_sum => i _.
apply: le_trans (gram_low i i); apply: le_trans (ler_norm _); apply: eq_lew.
by rewrite [RHS]mxE; congr (_ + _); rewrite [RHS]mxE.
Qed.

Lemma gram_pre Lo : fl_chol u n < 1 -> chol_ok v u n (gram_ske As dl) Lo -> tri_pre_ok v u Am (v dl) (mtr Lo).
Proof using F dl0 sA.
move=> c1 [sLo lt dg res tr]; have sR := sh_mtr sLo.
rewrite /tri_pre_ok (mval_tr v sLo); set Lm := mV n n Lo in lt dg res tr *; split=> //.
- by move=> i j ij; rewrite mxE lt.
- by move=> i; rewrite mxE dg.
move=> w; have c1' : 0 < 1 - c by rewrite subr_gt0.
have l2 : fro2 Lm <= gr_l2 u d n (fro2 Am) (v dl).
  by rewrite /gr_l2 ler_pdivl_mulr // mulrC; apply: le_trans tr gram_tr.
have hE : fro (Lm *m Lm^T - Gm) <= gr_err u d n (fro2 Am) (v dl).
  have -> : Lm *m Lm^T - Gm = (lowval v n (gram_ske As dl) - Gm) - (lowval v n (gram_ske As dl) - Lm *m Lm^T).
    by rewrite opprB [RHS]addrC addrA subrK.
  apply: le_trans (ler_froB _ _) _; apply: ler_add; first exact: gram_fro.
  by apply: le_trans res _; apply: ler_wpmul2l => //; exact: (fl_chol_ge0 F).
have e1 : fro2 (Lm^T *m w) = fip w ((Lm *m Lm^T) *m w) by rewrite fro2_tr trmx_mul trmxK /fip !mulmxA.
have e2 : fro2 (Am *m w) + v dl * fro2 w = fip w (Gm *m w).
  by rewrite !fro2_tr trmx_mul /fip mulmxDl mulmxDr mxtraceD !mulmxA mul_mx_scalar -scalemxAl mxtraceZ.
have -> : fro2 (Lm^T *m w) - (fro2 (Am *m w) + v dl * fro2 w) = fip w ((Lm *m Lm^T - Gm) *m w).
  by rewrite e1 e2 /fip mulmxBl mulmxBr linearB.
have ab (x y : 'cV[R]_n) : `|fip x y| <= fro x * fro y.
  rewrite ler_norml fip_fro andbT; have := fip_fro (- x) y; rewrite froN /fip linearN /= mulNmx linearN /= => h.
  by rewrite ler_oppl.
apply: le_trans (ab _ _) _; apply: le_trans (ler_wpmul2l (fro_ge0 _) (fro_mul_le _ _)) _.
by rewrite -(sqr_fro w) expr2 mulrCA; apply: ler_wpmul2r hE; rewrite mulr_ge0 ?fro_ge0.
Qed.

Lemma gram_chol kap : (forall w : 'cV[R]_n, kap * fro2 w <= fro2 (Am *m w) + v dl * fro2 w) ->
  gr_def u d n (fro2 Am) (v dl) kap ->
  exists2 Lo, cholesky (gram_ske As dl) = Ok Lo & chol_ok v u n (gram_ske As dl) Lo.
Proof using F dl0 sA.
move=> co /andP[c1]; have c0 := fl_chol_ge0 F n; have c1' : 0 < 1 - c by rewrite subr_gt0.
set l2 := gr_l2 _ _ _ _ _; rewrite /gr_err -/l2; have := gram_fro; set ge := gr_e _ _ _ _ _ => hlow hk.
have sG : shaped n n (gram_ske As dl) by case: sA => _ _ <-; exact: sh_mk.
have trl : \tr (lowval v n (gram_ske As dl)) <= l2 * (1 - c).
  by rewrite /l2 /gr_l2 divfK ?gt_eqF //; exact: gram_tr.
have l20 : 0 <= l2.
  rewrite /l2 /gr_l2 divr_ge0 ?(ltW c1') // mulr_ge0 //; first by rewrite addr_ge0 ?ler01 ?gam_ge0.
  by rewrite addr_ge0 ?fro2_ge0 // mulr_ge0 ?ler0n.
have co' (w : 'cV[R]_n) : (kap - ge) * fro2 w <= \tr (w^T *m lowval v n (gram_ske As dl) *m w).
  have -> : lowval v n (gram_ske As dl) = Gm - (Gm - lowval v n (gram_ske As dl)) by rewrite opprB addrC subrK.
  rewrite mulmxBr mulmxBl linearB /= mulrBl; apply: ler_add.
    apply: le_trans (co w) _; apply: eq_lew.
    by rewrite !fro2_tr trmx_mul mulmxDr mulmxDl mxtraceD !mulmxA mul_mx_scalar -scalemxAl mxtraceZ.
  rewrite ler_opp2; move: hlow; rewrite -froN opprB; set D := Gm - _ => hlow.
  rewrite -mulmxA -/(fip w (D *m w)); apply: le_trans (fip_fro _ _) _.
  apply: le_trans (ler_wpmul2l (fro_ge0 _) (fro_mul_le _ _)) _; rewrite -sqr_fro expr2 mulrCA.
  by apply: ler_wpmul2r hlow; rewrite mulr_ge0 ?fro_ge0.
have hg : ge < kap by apply: le_lt_trans hk; rewrite -addrA ler_addl addr_ge0 // mulr_ge0.
have kp0 : 0 <= kap - ge by rewrite subr_ge0 ltW.
apply: (fl_cholesky_ok F kp0 c1 co' _ sG).
apply: le_lt_trans (ler_wpmul2l _ trl) _; first by rewrite mulr_ge0 ?ler0n.
have -> : 2%:R * c * (l2 * (1 - c)) = (1 - c) * (c * l2 + c * l2).
  by rewrite -[2%N]/(1 + 1)%N natrD; move: (fl_chol u n) (l2) => x y; rring.
by rewrite ltr_pmul2l // ltr_subr_addl addrA.
Qed.

Lemma solve_v_ok q lower trans (Rm : arr T) b : shaped q q Rm -> size b = q ->
  (forall i, (i < q)%N -> v (el Rm i i) != 0) -> exists2 z, solve_tri_v lower trans Rm b = Ok z & size z = q.
Proof using F.
move=> [_ r1 r2] eb dg; rewrite /solve_tri_v /tri_check r1 r2 eb !eqxx /=.
case: ifP => [/hasP[i]|_]; last by eexists; first reflexivity; rewrite size_tri_vec.
by rewrite mem_iota add0n (fl_eq F) (fl_0 F) => /andP[_ /dg /negbTE->].
Qed.

Lemma fl_spo_chol (L : lapack T) m (S : pyop T) (B : arr T) b kap : S = PyArr B \/ S = PySp B -> shaped d m B -> size b = m ->
  (forall w : 'cV[R]_n, kap * fro2 w <= fro2 (Am *m w) + v dl * fro2 w) -> gr_def u d n (fro2 Am) (v dl) kap ->
  rsafe (fun _ => False) (fun x => [/\ tri_pre_ok v u Am (v dl) x.1.1, size x.1.2 = n & size x.2 = n])
    (spo_factor L MChol S As b dl d n).
Proof using F dl0 sA.
move=> SE sB eb co df; have [Lo E cLo] := gram_chol co df; have [c1 _] := andP df.
have ok := gram_pre c1 cLo; have [sR _ dg _] := ok.
rewrite /spo_factor E [rsafe _ _ _]/=.
have hb : rsafe (fun _ => False) (fun x => size x = d) (mul_rv S b) by case: SE => ->; exact: sv_mv sB eb.
apply: rsafe_bind hb _ => bs ebs; apply: rsafe_bind (sv_tmv _ sA ebs) _ => w ew.
have dg' i : (i < n)%N -> v (el (mtr Lo) i i) != 0.
  by move=> i_n; have := dg (Ordinal i_n); rewrite mxE => /gt_eqF->.
have [z Ez ez] := solve_v_ok false true sR ew dg'; rewrite Ez [rsafe _ _ _]/=.
by have [y Ey ey] := solve_v_ok false false sR ez dg'; rewrite Ey.
Qed.
End Gram.

Lemma chol_const_zero (R : rcfType) n p d (a nu sg y kap s2 dl : R) :
  [/\ fl_chol 0 n = 0 :> R, ny_def 0 n p a nu sg y kap = (0 < kap), gr_err 0 d n s2 dl = 0 &
      gr_def 0 d n s2 dl kap = (0 < kap)].
Proof.
have g0 i : gam (0 : R) i = 0 by rewrite /gam addr0 expr1n subrr.
have c0 i : fl_chol 0 i = 0 :> R by rewrite /fl_chol g0 subr0 invr1 expr1n subrr addr0.
have z0 : ny_e0 0 n a nu sg = 0 by rewrite /ny_e0 g0 mul0r.
have z2 : ny_e2 0 n p a nu sg y = 0 by rewrite /ny_e2 g0 z0 c0 !(mul0r, mulr0, addr0).
have e0 : gr_err 0 d n s2 dl = 0 by rewrite /gr_err /gr_e g0 c0 !mul0r addr0.
by split; rewrite // /ny_def /gr_def ?z2 ?e0 !c0 ltr01 mul0r addr0.
Qed.

Section Wit.
Variables (R : rcfType) (u : R).
Hypotheses (u0 : 0 < u) (u1 : 100%:R * u <= 1).
Add Field cholw_field : (rcf_field R).

Let uu k : (k <= 100)%N -> k%:R * u <= 1.
Proof using u0 u1. by move=> h; apply: le_trans u1; rewrite ler_pmul2r // ler_nat. Qed.
Let nn2 k : (k <= 100)%N -> k%:R * u * u <= u.
Proof using u0 u1. by move=> h; rewrite ger_pmull // uu. Qed.

Lemma gr_def_small : gr_def u 1 1 1 0 1.
Proof using u0 u1.
have p0 := ltW u0; have ul : u < 1 by apply: lt_le_trans (uu (_ : 2 <= 100)%N); rewrite // ltr_pmull // ltr1n.
have a2 : (1 + u) ^+ 2 <= 1 + 3%:R * u.
  apply: le_trans (_ : 1 + 2%:R * u + 1%:R * u * u <= _); first by apply: eq_lew; rewrite mul1r -[2%N]/(1 + 1)%N natrD; rring.
  by rewrite -[3%N]/(2 + 1)%N natrD [in X in _ <= X]mulrDl addrA ler_add2l [X in _ <= X]mul1r; exact: nn2.
have a3 : (1 + u) ^+ 3 <= 1 + 5%:R * u.
  rewrite exprS; apply: le_trans (ler_wpmul2l _ a2) _; first by rewrite addr_ge0 ?ler01.
  have -> : (1 + u) * (1 + 3%:R * u) = 1 + 4%:R * u + 3%:R * u * u by rewrite -[4%N]/(3 + 1)%N natrD; rring.
  by rewrite -[5%N]/(4 + 1)%N natrD [in X in _ <= X]mulrDl addrA ler_add2l [X in _ <= X]mul1r; exact: nn2.
have up : 0 < 1 - u by rewrite subr_gt0.
have b1 : (1 - u)^-1 <= 1 + 2%:R * u.
  rewrite -div1r ler_pdivr_mulr //.
  have -> : (1 + 2%:R * u) * (1 - u) = 1 + (u - 2%:R * u * u) by rewrite -[2%N]/(1 + 1)%N natrD; rring.
  by rewrite ler_addl subr_ge0 nn2.
have b3 : (1 - u)^-1 ^+ 3 <= 1 + 8%:R * u.
  have b0 : 0 <= (1 - u)^-1 by rewrite invr_ge0 ltW.
  have b2 : (1 - u)^-1 ^+ 2 <= 1 + 5%:R * u.
    apply: le_trans (_ : (1 + 2%:R * u) ^+ 2 <= _); first by rewrite ler_pexpn2r // ?nnegrE // addr_ge0 ?ler01 // mulr_ge0 ?ler0n.
    have -> : (1 + 2%:R * u) ^+ 2 = 1 + 4%:R * u + 4%:R * u * u by rewrite -[4%N]/(1+1+1+1)%N -[2%N]/(1 + 1)%N !natrD; rring.
    by rewrite -[5%N]/(4 + 1)%N natrD [in X in _ <= X]mulrDl addrA ler_add2l [X in _ <= X]mul1r; exact: nn2.
  rewrite exprS; apply: le_trans (ler_pmul b0 (sqr_ge0 _) b1 b2) _.
  have -> : (1 + 2%:R * u) * (1 + 5%:R * u) = 1 + 7%:R * u + 10%:R * u * u
    by rewrite -[7%N]/(2 + 5)%N -[10%N]/(2 * 5)%N natrD natrM; rring.
  by rewrite -[8%N]/(7 + 1)%N natrD [in X in _ <= X]mulrDl addrA ler_add2l [X in _ <= X]mul1r; exact: nn2.
have g5 : gam u 3 <= 5%:R * u by rewrite /gam ler_subl_addl.
have c11 : fl_chol u 1 <= 11%:R * u.
  by rewrite /fl_chol /gam -[11%N]/(3 + 8)%N natrD mulrDl; apply: ler_add; rewrite ler_subl_addl.
have g0 : 0 <= gam u 3 by rewrite /gam subr_ge0 exprn_ege1 // ler_addl.
have c0 : 0 <= fl_chol u 1.
  by rewrite /fl_chol addr_ge0 // /gam subr_ge0 exprn_ege1 ?ler_addl // invf_ge1 // ger_addl oppr_le0.
have h i (x : R) : x <= i%:R * u -> (i < 100)%N -> x < 1.
  by move=> hx hi; apply: le_lt_trans hx _; apply: lt_le_trans u1; rewrite ltr_pmul2r // ltr_nat.
have c1 : fl_chol u 1 < 1 by exact: h c11 _.
have l2 : gr_l2 u 1 1 1 0 <= 2%:R.
  rewrite /gr_l2 mulr0 addr0 mulr1 ler_pdivr_mulr ?subr_gt0 // mulrBr mulr1 ler_subr_addl -[X in _ <= X]/(1 + 1)%:R natrD addrCA ler_add2l.
  apply/ltW/(h 27%N) => //; rewrite -[27%N]/(2 * 11 + 5)%N natrD natrM mulrDl -mulrA.
  by apply: ler_add g5; rewrite -[2%N]/(1 + 1)%N natrD; apply: ler_pmul c11 => //; rewrite addr_ge0 ?ler01.
rewrite /gr_def c1 /= /gr_err /gr_e mul0r addr0 mulr1; apply: (h 49%N) => //.
have e : fl_chol u 1 * gr_l2 u 1 1 1 0 <= 22%:R * u.
  apply: le_trans (ler_wpmul2l c0 l2) _; rewrite -[22%N]/(11 * 2)%N natrM mulrAC.
  by rewrite ler_pmul2r ?ltr0n.
apply: le_trans (ler_add (ler_add g5 e) e) _; apply: eq_lew.
by rewrite -[49%N]/(5 + 22 + 22)%N !natrD !mulrDl.
Qed.

Lemma chol_wit : let O := bent_ops u in let As := @mk R 1 1 (fun _ _ => 1) in
  [/\ fl_arith O id u /\ @oadd R O 1 1 <> 2%:R, @shaped R O 1 1 As,
      forall w : 'cV[R]_1, 1 * fro2 w <= fro2 (@mval R R O id 1 1 As *m w) + 0 * fro2 w &
      gr_def u 1 1 (fro2 (@mval R R O id 1 1 As)) 0 1].
Proof using u0 u1.
have ul : u < 1 by apply: lt_le_trans (uu (_ : 2 <= 100)%N); rewrite // ltr_pmull // ltr1n.
have u01 : 0 <= u < 1 by rewrite ltW.
move=> O As; have E : @mval R R O id 1 1 As = 1%:M.
  by apply/matrixP=> i j; rewrite !mxE !ord1 eqxx.
have [h _ _ _] := nys_wit u01 u0 ltr01 ltr01.
split; [exact: h|exact: sh_mk| |].
  by move=> w; rewrite E mul1mx mul0r addr0 mul1r.
by rewrite E fro2_1 gr_def_small.
Qed.
End Wit.
