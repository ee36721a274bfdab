(** Proofs of C108, continued: EVD2 over a row sketcher, the driver evd2, and the constants without rounding. *)
From mathcomp Require Import all_ssreflect all_algebra.
From mathcomp Require Import zify.
From Verif Require Import Base Arr Lapack Exact MxLib RingTac LapackSpec LapackExists Rng Aware RangeFinders QB SvdEvd Shape Inexact Float FloatInterp
  FloatEvd FloatNys.
From Verif Require Import P_Svd P_SvdEvd P_Shape P_Embed3 P_Inexact P_Inexact4 P_Float P_Float2 P_Float3 P_Float5 P_Float7 P_Float10 P_Float11 P_Float17 P_Float18
  P_Float19.
Set Implicit Arguments.
Unset Strict Implicit.
Unset Printing Implicit Defensive.
Import Order.TTheory GRing.Theory Num.Theory.
Local Open Scope ring_scope.

Section Nys2.
Context {R : rcfType} {T : Type} {O : ops T} {G : Type}.
Variables (v : T -> R) (u mu : R) (X : exn -> Prop) (L : lapack T).
Hypotheses (F : fl_arith O v u) (fsvd : svd_fl v X L mu) (mu0 : 0 <= mu) (xl : X LinAlgError).
Local Notation mV := (@mval R T O v).
Add Field nysf2_field : (rcf_field R).
Variables (n k : nat) (over : int) (A : arr T).
Local Notation p := (absz (k%:Z + over)).
Hypotheses (k0 : (0 < k < n)%N) (ov : 0 <= over) (sA : shaped n n A) (symA : (mV n n A)^T = mV n n A).

Lemma fl_EVD2_sk (sk_op : @rowsketcher T G) (PS : 'M[R]_(n, p) -> Prop) (s : st G T) :
  rsafe X (fun S => exists2 D, S = PyArr D & shaped n p D /\ PS (mV n p D)) (sk_op A p s).2 ->
  rsafe X (fun x => exists2 S, PS S & nys_ok v u mu k (mV n n A) S x) (EVD2 L sk_op A k%:Z None over s).2.
Proof using F fsvd mu0 xl k0 ov sA symA.
case E: (sk_op A p s) => [s1 [ex|S]] /=.
  have [_ e1 _] := sA; move=> hx; have k0' : (0 < k%:Z) && (k%:Z < n%:Z) by move: k0; clear; lia.
  case/andP: k0' => ka kb; rewrite /EVD2 e1 ka kb !bind_passertT.
  by rewrite /bind /ret ltNge (_ : 0 <= k%:Z + over) /=; [rewrite E|move: ov; clear; lia].
case=> D SE [sD pD]; rewrite SE in E; have h := fl_EVD2 F fsvd mu0 sA sD (sk_op := sk_op) (k := k) (over := over) (s := s) (s1 := s1) xl symA.
apply: rsafe_weak (h _ _ _ _ E) _ => //; try by move: k0 ov; clear; lia.
by move=> x hx; exists (mV n p D).
Qed.

Variable r : rng_ops G T.
Hypothesis (rok : rng_ok r).

Lemma fl_evd2_one g es :
  rsafe X (nys_ok v u mu k (mV n n A) (mV n p (r_normal r g (@gscale T O n p) n p).2))
    (evd2 L r A k%:Z over 1 RGen (St g es)).2.
Proof using All.
have [_ e1 e2] := sA; have n0 : (0 < n)%N by move: k0; clear; lia.
have nl0 : (0 < minn n p)%N by move: n0 k0 ov; clear; lia.
have hr : rsafe X (fun S => exists2 D, S = PyArr D & shaped n p D /\
      (fun S' : 'M[R]_(n, p) => S' = mV n p (r_normal r g (@gscale T O n p) n p).2) (mV n p D))
    (RS1 (skopGA r) 0 (orth L) 1 A p (St g es)).2.
  rewrite /RS1 bind_passertT // /= e2 /draw /skopGA /gaussian_operator gtn_eqF // -/(gscale n p).
  rewrite /bind /emit /getgen /=; have := ok_normal rok g (@gscale T O n p) n p.
  by case: (r_normal _ _ _ _ _) => g' M /= [w [a b']]; exists M => //; split.
rewrite /evd2 bind_passertT //; have h := fl_EVD2_sk (PS := fun S => S = mV n p (r_normal r g (@gscale T O n p) n p).2) hr.
by apply: rsafe_weak h _ => x [S ->].
Qed.

Section Pow.
Variables (eta dl : R).
Hypotheses (qrL : qr_fl v X L eta dl) (e01 : 0 <= eta < 1) (dl0 : 0 <= dl) (pn : (p <= n)%N).
Local Notation ep := (fl_sketch dl u n).
Local Notation step S C := (near_ortho eta C /\ exists U : 'M[R]_p, fro (mV n n A *m S - C *m U) <= ep * (fro (mV n n A) * fro S)).
Local Notation near C S := (shaped n p C /\ fro (mV n p C - mV n n A *m S) <= gam u n.+1 * (fro (mV n n A) * fro S)).

Let p0 : (0 < p)%N. Proof using k0 ov. by move: k0 ov; clear; lia. Qed.

Lemma pow_pass B : shaped n p B -> safe X (fun C => near C (mV n p B)) (passA A (PyArr B) : M G T _).
Proof using F sA. by move=> sB; apply: safe_emit; apply: safe_lift; exact: (fl_mmul F X sA sB). Qed.
Lemma pow_passt B : shaped n p B -> safe X (fun C => near C (mV n p B)) (passAt A (PyArr B) : M G T _).
Proof using F sA symA.
move=> sB; apply: safe_emit; apply: safe_lift; have h := fl_mmul F X (sh_mtr sA) sB.
by apply: rsafe_weak h _ => C [sC]; rewrite (mval_tr v sA) symA.
Qed.
Lemma pow_stab d (S : 'M[R]_(n, p)) C : near C S ->
  safe X (fun D => shaped n p D /\ step S (mV n p D)) (maybe_stab (orth L) 1 d C : M G T _).
Proof using F qrL dl0 pn k0 ov.
move=> [sC hC]; rewrite /maybe_stab /= dvd1n; apply: safe_emit; apply: safe_lift.
apply: rsafe_bind (fl_qr qrL p0 pn sC) _ => QU [s1 s2 no d1] /=; split=> //; split=> //; exists (mV p p QU.2).
move: d1 hC no; set AS := mV n n A *m _; set y := mV n p C; set q := _ *m mV p p _; set z := _ * fro S => d1 hC _.
have z0 : 0 <= z by rewrite mulr_ge0 ?fro_ge0.
have zA : fro AS <= z by exact: fro_mul_le.
have -> : AS - q = (y - q) - (y - AS) by rewrite opprB [RHS]addrC addrA subrK.
apply: le_trans (ler_froD _ _) _; rewrite froN.
have hy : fro y <= z + gam u n.+1 * z.
  by rewrite -(subrK AS y) [X in fro X]addrC; apply: le_trans (ler_froD _ _) _; exact: ler_add.
apply: le_trans (ler_add (le_trans d1 (ler_wpmul2l dl0 hy)) hC) _.
by rewrite le_eqVlt; apply/orP; left; apply/eqP; rewrite /fl_sketch; move: (gam _ _) (z) => x w; rring.
Qed.

Lemma pow_loop (S0 : 'M[R]_(n, p)) : forall q d j B, shaped n p B -> pow_chain eta ep (mV n n A) S0 j (mV n p B) ->
  safe X (fun S => exists2 D, S = PyArr D & shaped n p D /\ pow_chain eta ep (mV n n A) S0 (j + q.*2) (mV n p D))
    (rs1_loop (orth L) 1 A q d (PyArr B) : M G T _).
Proof using F qrL dl0 pn k0 ov sA symA.
elim=> [|q IH] d j B sB hB.
  by rewrite [rs1_loop _ _ _ _ _ _]/= addn0; apply: safe_ret; exists B.
rewrite [rs1_loop _ _ _ _ _ _]/=; apply: safe_bind (pow_pass sB) _ => C1 h1.
apply: safe_bind (pow_stab _ h1) _ => C2 [s2 h2].
apply: safe_bind (pow_passt s2) _ => C3 h3.
apply: safe_bind (pow_stab _ h3) _ => C4 [s4 h4].
rewrite doubleS -addSnnS -addSnnS; apply: IH => //.
by exists (mV n p C2); split=> //; exists (mV n p B).
Qed.

Lemma rs1_pow (np : nat) g es :
  rsafe X (fun S => exists2 D, S = PyArr D & shaped n p D /\
      pow_chain eta ep (mV n n A) (mV n p (r_normal r g (@gscale T O n p) n p).2) np (mV n p D))
    (RS1 (skopGA r) np (orth L) 1 A p (St g es)).2.
Proof using F qrL dl0 pn k0 ov sA symA rok.
have [_ e1 e2] := sA; have n0 : (0 < n)%N by move: k0; clear; lia.
have nl0 : (0 < minn n p)%N by move: n0 p0; clear; lia.
rewrite /RS1 bind_passertT /absz.
have dr : rsafe X (fun S => exists2 D, S = PyArr D & shaped n p D /\
      mV n p D = mV n p (r_normal r g (@gscale T O n p) n p).2) (draw (skopGA r) n p (St g es)).2.
  rewrite /draw /skopGA /gaussian_operator gtn_eqF // -/(gscale n p).
  rewrite /bind /emit /getgen /=; have := ok_normal rok g (@gscale T O n p) n p.
  by case: (r_normal _ _ _ _ _) => g' M /= [w [a b']]; exists M => //; split.
rewrite e1 e2; case: ifP => o.
  apply: rsafe_bind_at dr _ => _ [D -> [sD hD]].
  have := @pow_loop (mV n p D) (np %/ 2) 0 0 D sD erefl; rewrite add0n hD divn2.
  by have -> : np./2.*2 = np by rewrite -[RHS](odd_double_half np) (negbTE o).
apply: rsafe_bind_at dr _ => _ [D -> [sD hD]].
apply: safe_bind (pow_passt sD) _ => C1 h1; rewrite [X in safe _ _ X]/=.
apply: safe_bind (pow_stab 1 h1) _ => C2 [s2 h2].
have := @pow_loop (mV n p D) (np.-1 %/ 2) 1 1 C2 s2; rewrite hD divn2.
have -> : (1 + np.-1./2.*2 = np)%N by move: o; clear; lia.
by apply; exists (mV n p D); split.
Qed.

Lemma fl_evd2 (np : nat) g es :
  rsafe X (fun x => exists2 S, pow_chain eta ep (mV n n A) (mV n p (r_normal r g (@gscale T O n p) n p).2) np S &
      nys_ok v u mu k (mV n n A) S x) (evd2 L r A k%:Z over np.+1%:Z RGen (St g es)).2.
Proof using All.
rewrite /evd2 bind_passertT (_ : np.+1%:Z - 1 = np%:Z); last by clear; lia.
by apply: fl_EVD2_sk; exact: rs1_pow.
Qed.
End Pow.
End Nys2.

Lemma nys_const_zero (R : rcfType) n p (a nu sg y kap ze : R) :
  fl_chol 0 p = 0 :> R /\ (0 < kap -> ny_cond 0 n p a nu sg y kap /\ ny_err 0 0 n p a nu sg y kap ze = 0 /\
    ny_rnd 0 0 n p a nu sg y kap = 0).
Proof.
have g0 i : gam (0 : R) i = 0 by rewrite /gam addr0 expr1n subrr.
have t0 : fl_tri 0 p = 0 :> R by rewrite /fl_tri g0 subr0 invr1 expr1n subrr addr0.
have c0 : fl_chol 0 p = 0 :> R by rewrite /fl_chol g0 subr0 invr1 expr1n subrr addr0.
have z0 : ny_e0 0 n a nu sg = 0 by rewrite /ny_e0 g0 mul0r.
have z2 : ny_e2 0 n p a nu sg y = 0 by rewrite /ny_e2 g0 z0 c0 !(mul0r, mulr0, addr0).
have z1 : ny_e1 0 n p a nu sg y kap = 0 by rewrite /ny_e1 z0 t0 mul0r addr0.
split=> // kp; split.
  by rewrite /ny_cond c0 ltr01 z2 kp t0 mul0r /ny_s z2 subr0 sqrtr_gt0 kp.
by rewrite /ny_err /ny_rnd z1 z2 g0 !(mul0r, mulr0, addr0).
Qed.

(** With a coercive K the coefficients exist and are unique, so the bound of [nys_ok] has something to speak about. *)
Lemma nys_coeff (R : rcfType) n p (K : 'M[R]_p) (Y : 'M[R]_(n, p)) kap : 0 < kap ->
  (forall w : 'cV[R]_p, kap * fro2 w <= \tr (w^T *m K *m w)) -> exists Z : 'M[R]_(p, n), K *m Z = Y^T.
Proof.
move=> kp co; have Ku : K \in unitmx.
  rewrite -unitmx_tr -row_free_unit -kermx_eq0; apply/eqP/row_matrixP=> i; rewrite row0.
  set w := row i _; have wK : w *m K^T = 0 by rewrite -row_mul mulmx_ker row0.
  have := co w^T; rewrite trmxK -mulmxA -[K *m w^T]trmxK trmx_mul trmxK wK trmx0 mulmx0 mxtrace0.
  rewrite pmulr_rle0 // => h; apply/eqP; rewrite -trmx_eq0 -fro2_eq0 eq_le.
  by rewrite h fro2_ge0.
by exists (invmx K *m Y^T); rewrite mulKVmx.
Qed.

Section Wit.
Variables (R : rcfType) (u eta mu : R).
Hypotheses (u01 : 0 <= u < 1).
Lemma rsafe_exn Y (X Z : exn -> Prop) (P : Y -> Prop) z : (forall e, X e -> Z e) -> rsafe X P z -> rsafe Z P z.
Proof. by case: z => //= e h /h. Qed.

Lemma nys_wit : 0 < u -> 0 < eta -> 0 < mu -> let O := bent_ops u in let X := fun e => e = LinAlgError in
  let L := bent_svd eta mu in
  [/\ fl_arith O id u /\ @oadd R O 1 1 <> 2%:R, @qr_fl R R O id X L eta 0, @svd_fl R R O id X L mu /\ ~ svd_spec L &
      @rng_ok _ R O (ga_rng R 8 8)].
Proof using u01.
move=> u0 e0 m0 O X L; have [h1 [h2 h3 h4] h5 [_ _ h6 _ _]] := svd_wit u01 u0 e0 m0; split; first exact: h1.
- by move=> m n A a b c; apply: rsafe_exn (h3 m n A a b c).
- by split=> // m n A a b c; apply: rsafe_exn (h4 m n A a b c).
exact: h6.
Qed.
End Wit.
