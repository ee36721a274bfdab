(** Proofs of C107, continued: the driver osid1, and an inexact arithmetic meeting the hypotheses. *)
From mathcomp Require Import all_ssreflect all_algebra.
From mathcomp Require Import zify.
From Verif Require Import Base Arr Lapack Exact MxLib RingTac LapackSpec LapackExists Rng Aware RangeFinders QB Interp Shape Inexact Float FloatInterp.
From Verif Require Import P_Embed3 P_Interp P_Shape P_ShapeLS P_RF P_Inexact P_Inexact4 P_Float P_Float2 P_Float3 P_Float5 P_Float7 P_Float14 P_Float15.
Set Implicit Arguments.
Unset Strict Implicit.
Unset Printing Implicit Defensive.
Import Order.TTheory GRing.Theory Num.Theory.
Local Open Scope ring_scope.

Section Osid1.
Context {R : rcfType} {T : Type} {O : ops T} {G : Type}.
Variables (v : T -> R) (u : R) (X : exn -> Prop) (L : lapack T) (r : rng_ops G T) (eta dl : R).
Hypotheses (F : fl_arith O v u) (qrL : qrp_fl v X L eta dl) (e01 : 0 <= eta < 1) (dl0 : 0 <= dl) (xl : X LinAlgError).
Hypothesis (rok : rng_ok r).
Variables (m n k : nat) (over : int) (A : arr T) (g : G) (es : seq (event T)).
Hypotheses (k0 : (0 < k)%N) (ov : 0 <= over) (kon : k%:Z + over <= (minn m n)%:Z) (sA : shaped m n A).
Local Notation c := (absz (k%:Z + over)%R).
Local Notation mv := (@mval R T O v).
Local Notation draw m := (r_normal r g (@gscale T O m c) m c).2.

Lemma osid1_draw p q (B : arr T) : shaped p q B -> (0 < q)%N ->
  rsafe X (fun S => exists2 D, S = PyArr D & shaped q c D /\ (fun S' => S' = mv q c (draw q)) (mv q c D))
    (RS1 (skopGA r) 0 (orth L) 1 B c (St g es)).2.
Proof using rok k0 ov.
move=> sB q0; have nl0 : (0 < minn q c)%N by move: q0 k0 ov; clear; lia.
have [_ _ eB2] := sB.
rewrite /RS1 bind_passertT // /= eB2 /Aware.draw /skopGA /gaussian_operator gtn_eqF // -/(gscale q c).
rewrite /bind /emit /getgen /=; have := ok_normal rok g (@gscale T O q c) q c.
case: (r_normal _ _ _ _ _) => g' M /= [w [a b']]; by exists M => //; split.
Qed.

Lemma fl_osid1_cols : rsafe X (osid_cols v eta dl u n k A (mv m c (draw m))) (osid1 L r A k over 1 1 RGen (St g es)).2.
Proof using All.
have m0 : (0 < m)%N by move: k0 ov kon; clear; lia.
have h := fl_osid_cols F qrL e01 dl0 xl k0 ov kon sA (osid1_draw (sh_mtr sA) m0).
by apply: rsafe_weak h _ => XJ [S ->].
Qed.
Lemma fl_osid1_rows : rsafe X (osid_rows v eta dl u m k A (mv n c (draw n))) (osid1 L r A k over 1 0 RGen (St g es)).2.
Proof using All.
have n0 : (0 < n)%N by move: k0 ov kon; clear; lia.
have h := fl_osid_rows F qrL e01 dl0 xl k0 ov kon sA (osid1_draw sA n0).
by apply: rsafe_weak h _ => XJ [S ->].
Qed.
End Osid1.

Lemma id_const_zero (R : rcfType) k (x w : R) : fl_tri 0 k = 0 :> R /\ fl_id 0 0 0 k x w = 0 /\
  forall q (t s a e1 e2 : R), osid_err 0 0 0 q k x w t s a e1 e2 = (1 + x) * e1 + t * e2.
Proof.
have g0 i : gam (0 : R) i = 0 by rewrite /gam addr0 expr1n subrr.
have t0 : fl_tri 0 k = 0 :> R by rewrite /fl_tri g0 subr0 invr1 expr1n subrr addr0.
have i0 : fl_id 0 0 0 k x w = 0 by rewrite /fl_id t0 !(mul0r, mulr0, addr0).
split=> //; split=> // q t s a e1 e2.
by rewrite /osid_err g0 i0 !(mul0r, mulr0, addr0) subr0 sqrtr1 divff ?oner_eq0 // mul1r.
Qed.

Section Wit.
Variables (R : rcfType) (u eta : R).
Hypotheses (u01 : 0 <= u < 1) (e0 : 0 <= eta).
Local Notation c := (Num.sqrt (1 + eta)).
Local Notation mb := (@mval R R (bent_ops u) id).

(** The exact pivoted QR with Q multiplied by [sqrt (1 + eta)] and the triangular factor by its inverse. *)
Definition bent_id : lapack R := {|
  l_qr := l_qr (bent_lapack eta);
  l_qrp := fun A => match l_qrp (exact_lapack R) A with
    | inr x => Ok (@mscale R (rcf_ops R) c x.1.1, @mscale R (rcf_ops R) c^-1 x.1.2, x.2)
    | inl e => Err e end;
  l_svd := l_svd (exact_lapack R);
  l_eigh := l_eigh (exact_lapack R);
  l_lu := l_lu (exact_lapack R);
  l_lstsq := l_lstsq (exact_lapack R);
  l_dct := id;
  l_idct := id
|}.
Lemma bent_qrpE A : l_qrp bent_id A = match l_qrp (exact_lapack R) A with
    | inr x => Ok (@mscale R (rcf_ops R) c x.1.1, @mscale R (rcf_ops R) c^-1 x.1.2, x.2)
    | inl e => Err e end.
Proof. by []. Qed.
Lemma bent_qrp_ok m n p A (Q : 'M[R]_(m, p)) (U : 'M[R]_(p, n)) J : l_qrp (exact_lapack R) A = Ok (ofmx Q, ofmx U, J) ->
  l_qrp bent_id A = Ok (ofmx (c *: Q), ofmx (c^-1 *: U), J).
Proof. by rewrite bent_qrpE => ->; rewrite -!mscaleE. Qed.

Lemma c_neq0 : c != 0.
Proof using e0. by rewrite gt_eqF // sqrtr_gt0 (lt_le_trans ltr01) // ler_addl. Qed.

Lemma bent_qrp_fl X : @qrp_fl R R (bent_ops u) id X bent_id eta 0.
Proof using e0.
move=> m n A m0 n0 sA; have [Q [U [J [[E oQ tU pJ AE] _]]]] := exact_qrp (mb m n A) m0 n0.
rewrite (sh_id sA) (bent_qrp_ok E) [rsafe _ _ _]/= !mb_ofmx; split=> //; try exact: sh_ofmx.
  move=> v; rewrite (_ : (c *: Q)^T = c *: Q^T); last by rewrite linearZ.
  rewrite -scalemxAl -scalemxAr oQ scalerA -expr2 (bent_c2 e0).
  by rewrite scalerDl scale1r addrC addKr -scalemxAl mul1mx fro2Z.
split.
  move=> i j /andP[ji iq]; have jn : (j < n)%N by apply: leq_trans ji _; apply: leq_trans (ltnW iq) _; exact: geq_minr.
  have := @mb_ofmx R u _ _ (c^-1 *: U) => /matrixP /(_ (Ordinal iq) (Ordinal jn)); rewrite mxE => ->.
  by rewrite mxE tU ?mulr0.
rewrite mul0r -scalemxAl -scalemxAr scalerA divff ?c_neq0 // scale1r -AE.
rewrite [X in fro X](_ : _ = 0) ?fro0 //; apply/eqP; rewrite subr_eq0; apply/eqP/matrixP=> i j; rewrite !mxE.
have jn : (nth 0%N J j < n)%N.
  have : nth 0%N J j \in J by rewrite mem_nth // (perm_size pJ) size_iota.
  by rewrite (perm_mem pJ) mem_iota => /andP[].
by rewrite (mxe_ord _ (ltn_ord i) jn) -[RHS]el_ofmx.
Qed.

Lemma bent_lstsqs_fl X : @lstsqs_fl R R (bent_ops u) id X bent_id 0.
Proof using.
move=> m n p A B m0 n0 p0 sA sB; have [Y [W [E g _]]] := exact_lstsq (mb m n A) (mb m p B) m0 n0 p0.
rewrite (sh_id sA) (sh_id sB) [l_lstsq _ _ _]E /= !mb_ofmx; split=> [|y]; first exact: sh_ofmx.
set M := mb m n A in g *; set b := mb m p B in g *; rewrite addr0 mul1r.
rewrite fro_le // (_ : M *m y - b = (M *m Y - b) + M *m (y - Y)); last by rewrite mulmxBr [RHS]addrC addrA subrK.
rewrite [fro2 (_ + M *m (y - Y))]fro2D [fip _ _]fipC /fip trmx_mul -mulmxA g mulmx0 mxtrace0 mulr0 addr0.
by rewrite ler_addl fro2_ge0.
Qed.

Lemma bent_id_shapes X : @lap_shapes R (bent_ops u) X bent_id.
Proof using e0.
have w Y (P : Y -> Prop) (z : res Y) : rsafe (fun _ => False) P z -> rsafe X P z by case: z.
have [h1 h2 h3 h4 h5] := @bent_shapes R u eta; split=> //; try by move=> *; apply: w; auto.
  by move=> m n A m0 n0 sA; have h := bent_qrp_fl X m0 n0 sA; apply: rsafe_weak h _ => -[[Q U] J] [].
Qed.

Lemma id_wit : 0 < u -> 0 < eta -> let O := bent_ops u in let X := fun e => e = LinAlgError in
  [/\ fl_arith O id u /\ @oadd R O 1 1 <> 2%:R, @lap_shapes R O X bent_id,
      @qrp_fl R R O id X bent_id eta 0 /\ ~ qrp_spec bent_id, @lstsqs_fl R R O id X bent_id 0 &
      @rng_ok _ R O (ga_rng R 8 8)].
Proof using u01 e0.
move=> u0 ep; have [h1 h2 _ _ [_ _ h3 _ _]] := float_wit u01 u0 ep; split=> //.
- exact: bent_id_shapes.
- split; first exact: bent_qrp_fl.
  move=> sp; have [Q [U [J [[E oQ _ _ _] _]]]] := sp 1%N 1%N 1%:M isT isT.
  have [Q' [U' [J' [[E' oQ' _ _ _] _]]]] := exact_qrp (1%:M : 'M[R]_1) isT isT.
  move: E; rewrite (bent_qrp_ok E') => /(congr1 (fun z => if z is inr x then x.1.1 else ofmx Q)) /= /ofmx_inj QE.
  move: oQ; rewrite /orthonormal -QE (_ : (c *: Q')^T = c *: Q'^T); last by rewrite linearZ.
  rewrite -scalemxAl -scalemxAr oQ' scalerA -expr2 (bent_c2 e0) => /matrixP /(_ 0 0); rewrite !mxE mulr1 => /eqP.
  by rewrite -subr_eq0 addrC addKr gt_eqF.
exact: bent_lstsqs_fl.
Qed.
End Wit.
