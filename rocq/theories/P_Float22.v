(** Proofs of C109, continued: EVD2 fails only if the compressed matrix is not safely positive definite. *)
From mathcomp Require Import all_ssreflect all_algebra.
From mathcomp Require Import zify.
From Verif Require Import Base Arr Lapack Exact MxLib RingTac LapackSpec Rng Aware RangeFinders QB SvdEvd Shape Inexact Float FloatInterp FloatEvd
  FloatNys.
From Verif Require Import Sel P_Svd P_SvdEvd P_Evd2 P_Shape P_Inexact P_Float P_Float2 P_Float3 P_Float5 P_Float10 P_Float13 P_Float14 P_Float17 P_Float18
  P_Float19 P_Float20 P_Float21.
Set Implicit Arguments.
Unset Strict Implicit.
Unset Printing Implicit Defensive.
Import Order.TTheory GRing.Theory Num.Theory.
Local Open Scope ring_scope.

Section Fail.
Context {R : rcfType} {T : Type} {O : ops T} {G : Type}.
Variables (v : T -> R) (u mu : R) (X : exn -> Prop) (L : lapack T).
Hypotheses (F : fl_arith O v u) (fsvd : svd_fl v X L mu).
Add Field fail_field : (rcf_field R).
Local Notation mV := (@mval R T O v).
Local Notation g := (gam u).
Let u0 := fl_u0 F.

Lemma cholesky_exn (X' : exn -> Prop) n (C : arr T) (P : arr T -> Prop) : shaped n n C ->
  (forall Lo, cholesky C = Ok Lo -> P Lo) -> (cholesky C = Err LinAlgError -> X' LinAlgError) -> rsafe X' P (cholesky C).
Proof.
move=> [_ c1 c2] h1 h2; move: h1 h2; rewrite /cholesky c1 c2 eqxx /=; case: (chol_rows _ _) => [rows|] /= h1 h2.
  exact: h1.
exact: h2.
Qed.

Lemma solve_tri_ok n q lower trans (Rm B : arr T) : shaped n n Rm -> shaped n q B ->
  (forall i, (i < n)%N -> v (el Rm i i) != 0) -> exists Z, solve_tri lower trans Rm B = Ok Z.
Proof using F.
move=> [_ r1 r2] [_ b1 b2] dg; rewrite /solve_tri /tri_check r1 r2 b1 !eqxx /=.
case: ifP => [/hasP[i]|_]; last by eexists.
by rewrite mem_iota add0n (fl_eq F) (fl_0 F) => /andP[_ /dg /negbTE->].
Qed.

Section Data.
Variables (n p : nat) (A Sk : arr T) (sA : shaped n n A) (sS : shaped n p Sk).
Local Notation Am := (mV n n A).
Local Notation Sm := (mV n p Sk).
Definition fails (e : exn) : Prop := X e \/ e = LinAlgError /\ nys_fail v u Am Sm.

Lemma xfails Y (P : Y -> Prop) z : rsafe X P z -> rsafe fails P z.
Proof. by apply: rsafe_exn => e; left. Qed.

Lemma fl_EVD2_fail (sk_op : @rowsketcher T G) (k over : int) (s s1 : st G T) : Am^T = Am ->
  0 < k < n%:Z -> 0 <= k + over -> absz (k + over) = p -> (absz k <= p)%N -> sk_op A p s = (s1, inr (PyArr Sk)) ->
  rsafe fails (fun _ => True) (EVD2 L sk_op A k None over s).2.
Proof using F sA sS fsvd.
move=> symA /andP[k0 kn] ko kp kpp hs; have [_ eA1 eA2] := sA; have n0 : (0 < n)%N by clear -k0 kn; lia.
have p0 : (0 < p)%N by clear -k0 kpp; lia.
have -> : EVD2 L sk_op A k None over s = EVD2 L (fun _ _ _ => (s1, inr (PyArr Sk))) A k None over s.
  by rewrite /EVD2 eA1 k0 kn !bind_passertT /bind /ret ltNge ko /= kp hs.
refine ((_ : safe fails _ _) s); rewrite /EVD2 eA1; apply: safe_passert => //; apply: safe_passert => //.
apply: (safe_bind (Q := fun _ => True)); first exact: safe_ret.
move=> _ _; rewrite ltNge ko.
apply: (safe_bind (Q := fun x => x = PyArr Sk)); first by move=> s'.
move=> _ ->; have hp : safe fails (fun C => shaped n p C /\
    fro (mV n p C - Am *m Sm) <= g n.+1 * (fro Am * fro Sm)) (passA A (PyArr Sk) : M G T _).
  by apply: safe_emit; apply: safe_lift; exact: fl_mmul.
apply: (safe_bind hp) => Y1 [sY1 hY1]; cbv zeta.
set nu := omul _ _; have [nu0 hnu] := fl_nu F sY1; rewrite -/nu in nu0 hnu.
apply: (safe_bind (safe_lift (fl_Y fails F sS nu0 sY1 hY1))) => Y [sY hY].
apply: (safe_bind (safe_lift (fl_mmul F fails (sh_mtr sS) sY))) => C [sC]; rewrite (mval_tr v sS) => hC.
have sCt := sh_mtr sC.
have chol : rsafe fails (chol_ok v u p (mtr C)) (cholesky (mtr C)).
  apply: (cholesky_exn sCt).
    by move=> Lo E; have := fl_cholesky F (X := fun e => e = LinAlgError) erefl sCt; rewrite E.
  move=> E; right; split=> //; exists (v nu), (fro (mV n p Y1)); split.
    split=> //; first exact: fro_ge0.
    rewrite ler_norml ler_subl_addl ler_subr_addl; apply/andP; split.
      have {1}-> : Am *m Sm = mV n p Y1 - (mV n p Y1 - Am *m Sm) by rewrite opprB addrC subrK.
      by rewrite ler_subl_addr; apply: le_trans (ler_froB _ _) _; rewrite ler_add2l.
    have {1}-> : mV n p Y1 = Am *m Sm + (mV n p Y1 - Am *m Sm) by rewrite addrC subrK.
    by apply: le_trans (ler_froD _ _) _; rewrite ler_add2l.
  move=> Ym kap co; apply/negP=> /andP[c1 hk].
  have c0 := fl_chol_ge0 F p; have c1' : 0 < 1 - fl_chol u p by rewrite subr_gt0.
  have htr := fac_tr F hY sC hC; have hlow := fac_low F symA hY sC hC.
  move: htr hlow hk; rewrite /ny_e2 -/Ym; set l2 := ny_l2 _ _ _ _ _ _ _; set ee := Num.sqrt 2%:R * _ => htr hlow hk.
  have trl : \tr (lowval v p (mtr C)) <= l2 * (1 - fl_chol u p) by rewrite /l2 /ny_l2 divfK ?gt_eqF.
  have co' (w : 'cV[R]_p) : (kap - ee) * fro2 w <= \tr (w^T *m lowval v p (mtr C) *m w).
    have -> : lowval v p (mtr C) = Sm^T *m Ym - (Sm^T *m Ym - lowval v p (mtr C)) by rewrite opprB addrC subrK.
    rewrite mulmxBr mulmxBl linearB /= mulrBl; apply: ler_add (co w) _; rewrite ler_opp2.
    set D := Sm^T *m Ym - _; rewrite -mulmxA -/(fip w (D *m w)); apply: le_trans (fip_fro _ _) _.
    apply: le_trans (ler_wpmul2l (fro_ge0 _) (fro_mul_le _ _)) _; rewrite -sqr_fro expr2 mulrCA.
    by apply: ler_wpmul2r hlow; rewrite mulr_ge0 ?fro_ge0.
  have tr0 i : (i < p)%N -> kap - ee <= v (el (mtr C) i i) by exact: (low_diag co').
  have kp0 : 0 <= kap - ee.
    rewrite leNgt; apply/negP=> neg.
    have l20 : 0 <= l2.
      rewrite /l2 /ny_l2 divr_ge0 ?(ltW c1') // mulr_ge0 ?addr_ge0 ?ler01 ?mulr_ge0 ?sqrtr_ge0 ?gam_ge0 ?fro_ge0 //.
      by rewrite addr_ge0 ?fro_ge0 // mulr_ge0 ?gam_ge0 // mulr_ge0 ?addr_ge0 ?fro_ge0.
    have : ee < kap.
      by apply: le_lt_trans hk; rewrite -addrA ler_addl addr_ge0 // mulr_ge0.
    by rewrite -subr_gt0 => /(lt_trans neg); rewrite ltxx.
  have hk' : 2%:R * fl_chol u p * \tr (lowval v p (mtr C)) < (1 - fl_chol u p) * (kap - ee).
    apply: le_lt_trans (ler_wpmul2l _ trl) _; first by rewrite mulr_ge0 ?ler0n.
    have -> : 2%:R * fl_chol u p * (l2 * (1 - fl_chol u p)) = (1 - fl_chol u p) * (fl_chol u p * l2 + fl_chol u p * l2).
      by rewrite -[2%N]/(1 + 1)%N natrD; move: (fl_chol u p) (l2) => x y; rring.
    by rewrite ltr_pmul2l // ltr_subr_addl addrA.
  have [Lo EL _] := fl_cholesky_ok F kp0 c1 co' hk' sCt.
  by rewrite EL in E.
apply: (safe_bind (safe_lift chol)) => Lo [sLo _ dLo _ _].
have [Bt EB] : exists Z, solve_tri false true (mtr Lo) (mtr Y) = Ok Z.
  apply: (solve_tri_ok _ _ (sh_mtr sLo) (sh_mtr sY)) => i ip; have := dLo (Ordinal ip); rewrite mxE /=.
  by case: sLo => _ l1 l2; rewrite /mtr el_mk ?l1 ?l2 // => /gt_eqF->.
have sB : shaped p n Bt.
  have := fl_solve_tri F false true (X := fun e => e = LinAlgError) erefl (sh_mtr sLo) (sh_mtr sY).
  by rewrite EB => -[].
rewrite EB; apply: (safe_bind (Q := fun Z => Z = Bt)); first exact: safe_ret.
move=> _ ->; apply: (safe_bind (safe_lift (xfails (fsvd n0 p0 (sh_mtr sB))))) => -[[U sgm] Vh] /=.
set q := minn n p => -[sU es sV srt _].
have kq : (absz k <= q)%N by rewrite /q leq_min kpp andbT; clear -k0 kn; lia.
apply: (safe_bind (safe_lift (fl_comps fails F nu _ kq es))); first by clear -k0; lia.
by move=> comps _; exact: safe_ret.
Qed.
End Data.
End Fail.
