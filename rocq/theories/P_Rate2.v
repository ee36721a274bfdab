(** Proofs of C79, C80: how fast PCG and LSQR converge. *)
From mathcomp Require Import all_ssreflect all_algebra.
From Verif Require Import Base Arr Lapack RingTac Exact MxLib Rng Pcg P_Pcg P_Pcg2 Lsqr P_Lsqr P_Iter P_Iter2 P_Rate.
Set Implicit Arguments.
Unset Strict Implicit.
Unset Printing Implicit Defensive.
Import Order.TTheory GRing.Theory Num.Theory.
Local Open Scope ring_scope.

Section Rate2.
Variable R : rcfType.
Add Field rate2_field : (rcf_field R).

Lemma crho_ge0 (mu L : R) : 0 <= mu <= L -> 0 <= crho mu L.
Proof.
move=> /andP[mu0 muL]; rewrite /crho divr_ge0 //; first by rewrite subr_ge0 ler_wsqrtr.
by rewrite addr_ge0 ?sqrtr_ge0.
Qed.

Lemma cheb_le1 (mu L : R) k : 0 <= mu <= L -> 0 <= cheb mu L k <= 1.
Proof.
move=> /crho_ge0 r0; rewrite /cheb exprM; have := exprn_ge0 k r0; move: (_ ^+ k) => r {}r0.
have p : 0 < 1 + r ^+ 2 by rewrite ltr_paddr ?ltr01 ?sqr_ge0.
rewrite divr_ge0 ?mulr_ge0 ?ler0n ?(ltW p) //= ler_pdivr_mulr // mul1r -subr_ge0.
have -> : 1 + r ^+ 2 - 2%:R * r = (1 - r) ^+ 2 by rring.
exact: sqr_ge0.
Qed.

Section PCG.
Variables (n : nat) (H P : 'M[R]_n) (mvH mvP : seq R -> res (seq R)).
Hypotheses (HH : op_is mvH H) (HP : op_is mvP P) (pH : spd H) (pP : spd P).
Variables (b x0 : 'cV[R]_n).

Lemma pcg_rate_lemma (lim : int) tol (mu L : R) y es : 0 <= tol ->
  0 <= mu <= L -> 0 < L ->
  (forall e : 'cV[R]_n, let g := H *m e in mu * dot e g <= dot g (P *m g) <= L * dot e g) ->
  pcg mvH (ofcv b) mvP lim tol (ofcv x0) = Ok (ofcv y, es) ->
  energy H (invmx H *m b) y <= cheb mu L (size es) ^+ 2 * energy H (invmx H *m b) x0.
Proof.
move=> t0 muL L0 bnd E; have [_ opt] := pcg_krylov_lemma HH HP pH pP t0 E.
have Hs : H^T = H by case: pH. have Ps : P^T = P by case: pP.
have Hu := spd_unit pH.
pose v := invmx H *m b - x0.
have Kv : (P *m H) *m v = P *m (b - H *m x0).
  by rewrite -mulmxA /v mulmxBr mulmxA mulmxV // mul1mx.
have HPs : (H *m (P *m H))^T = H *m (P *m H) by rewrite !trmx_mul Hs Ps mulmxA.
have bnd' (e : 'cV[R]_n) : True ->
  mu * dot e (H *m e) <= dot e (H *m (P *m H *m e)) <= L * dot e (H *m e).
  by move=> _; rewrite [dot e (H *m (P *m H *m e))]dotM Hs -mulmxA; apply: bnd.
have [z [Kz le]] := @cheb_lemma R n H (P *m H) (fun=> True) mu L Hs HPs
  (fun _ _ _ _ => I) (fun _ _ _ => I) (fun _ _ => I) bnd' (size es) v I muL L0.
apply: le_trans (opt (x0 + z) _) _; first by rewrite [x0 + z]addrC addrK -Kv.
have eE w : energy H (invmx H *m b) (x0 + w) = ip H (v - w) (v - w).
  have -> : v - w = - (x0 + w - invmx H *m b) by rewrite opprB opprD addrA.
  by rewrite /energy /ip mulmxN dotNl dotNr opprK.
by rewrite eE -[X in energy _ _ X]addr0 eE subr0.
Qed.
End PCG.

Section LSQR.
Variables (m n : nat) (A : 'M[R]_(m, n)) (op : linop R).
Hypothesis opA : lin_is op A.
Variables (b : 'cV[R]_m) (start : option 'cV[R]_n) (d atol btol conlim : R) (cv : bool).
Variable lim : option int.
Hypotheses (lim0 : 0 <= lim_of n lim) (bs : b != 0 \/ start = None).
Let xs := lsqr_x0 start.
Let call l := lsqr op (ofcv b) d atol btol conlim l cv (omap (@ofcv R n) start).
Let obj (x : 'cV[R]_n) := fro2 (b - A *m x) + d ^+ 2 * fro2 (x - xs).
Let H := A^T *m A + (d ^+ 2)%:M.
Variables (mu L : R).
Hypotheses (muL : 0 <= mu <= L) (L0 : 0 < L).
Hypothesis bnd : forall c : 'cV[R]_m, let y := A^T *m c in
  mu * fro2 y <= fro2 (A *m y) + d ^+ 2 * fro2 y <= L * fro2 y.

(** A minimiser in the right affine space. *)
Lemma lsq_sol : exists z c, z - xs = A^T *m c /\ A^T *m (b - A *m z) - d ^+ 2 *: (z - xs) = 0.
Proof using bs opA.
have l0 : 0 <= lim_of n (Some (minn m n)%:Z) by [].
have [out E] := @lsqr_returns _ _ _ _ _ opA _ _ d 0 0 0 false _ l0 bs.
have [x [xE _ _ g0]] := lsqr_finite_lemma opA l0 bs E.
have [out' [x' [E' ok _ _]]] := lsqrP opA d 0 0 0 false l0 bs.
have oE : out' = out by move: E'; rewrite /lsqr_call E => -[].
rewrite {}oE in ok; have x'E : x' = x by apply: (@ofcv_inj R); rewrite -xE -(lq_x ok).
rewrite x'E in ok; have [c cE] := lq_rng ok.
by exists x, c; split=> //; apply: g0 => //; left.
Qed.

Lemma dotH y : dot y (H *m y) = fro2 (A *m y) + d ^+ 2 * fro2 y.
Proof. by rewrite /H mulmxDl dotDr mul_scalar_mx dotZr dotxx -mulmxA dotM trmxK dotxx. Qed.


Lemma Hsym : H^T = H.
Proof. by rewrite /H linearD /= trmx_mul trmxK tr_scalar_mx. Qed.

Let W (y : 'cV[R]_n) := exists c : 'cV[R]_m, y = A^T *m c.
Lemma WH y : W y -> W (H *m y).
Proof.
move=> [c cE]; exists (A *m y + d ^+ 2 *: c).
by rewrite /H mulmxDl mul_scalar_mx mulmxDr -scalemxAr -cE mulmxA.
Qed.

Lemma dotH_ge0 y : 0 <= dot y (H *m y).
Proof. by rewrite dotH; apply: addr_ge0; [exact: fro2_ge0 | exact: mulr_ge0 (sqr_ge0 _) (fro2_ge0 _)]. Qed.

(** The bounds for the form [y' H^2 y] against [y' H y]. *)
Lemma bndH y : W y -> mu * dot y (H *m y) <= dot y (H *m (H *m y)) <= L * dot y (H *m y).
Proof using bnd muL L0.
move=> Wy; have [mu0 _] := andP muL.
have bd z : W z -> mu * fro2 z <= dot z (H *m z) <= L * fro2 z.
  by move=> [c ->]; rewrite dotH; apply: bnd.
have /andP[h1 _] := bd _ Wy; have /andP[_ h2] := bd _ (WH Wy).
have qE : dot y (H *m (H *m y)) = fro2 (H *m y) by rewrite dotM Hsym dotxx.
have cs1 : dot y (H *m y) ^+ 2 <= fro2 y * fro2 (H *m y).
  by have := fip_le y (H *m y); rewrite /fip mul_tr_dot mxtrace_scalar mulr1n.
have p0 := dotH_ge0 y; have q0 := fro2_ge0 (H *m y).
have AbE z w : dot z (H *m w) = fip (Ab A d *m z) (Ab A d *m w).
  by rewrite /fip trmx_mul mulmxA -(mulmxA z^T) Ab_normal -mulmxA mul_tr_dot mxtrace_scalar mulr1n.
have cs2 : fro2 (H *m y) ^+ 2 <= dot y (H *m y) * (L * fro2 (H *m y)).
  rewrite -qE AbE; apply: le_trans (fip_le _ _) _.
  have fE z : fro2 (Ab A d *m z) = dot z (H *m z) by rewrite dotH mul_col_mx fro2_col_mx mul_scalar_mx fro2Z.
  by rewrite !fE ler_wpmul2l // -AbE qE.
rewrite qE; move: (dot y (H *m y)) (fro2 (H *m y)) (fro2 y) p0 q0 h1 cs1 cs2 => p q a p0 q0 h1 cs1 cs2.
apply/andP; split.
  have [->|pn] := eqVneq p 0; first by rewrite mulr0.
  have pp : 0 < p by rewrite lt_neqAle eq_sym pn.
  rewrite -(ler_pmul2l pp) mulrCA -expr2; apply: le_trans (ler_wpmul2l mu0 cs1) _.
  by rewrite mulrA ler_wpmul2r.
have [->|qn] := eqVneq q 0; first by rewrite mulr_ge0 // ltW.
have qp : 0 < q by rewrite lt_neqAle eq_sym qn.
by rewrite -(ler_pmul2l qp) -expr2 (le_trans cs2) // mulrA mulrC [L * p]mulrC.
Qed.

Lemma ksp_kspan k z : ksp H (A^T *m (b - A *m xs)) k z -> kspan A b xs k z.
Proof.
have kvP i : kspan A b xs i.+1 (kv H (A^T *m (b - A *m xs)) i).
  elim: i => [|i IH]; first by exists (fun=> 1); rewrite big_ord1 scale1r.
  rewrite /kv iterS -/(kv _ _ i) /H mulmxDl mul_scalar_mx -mulmxA.
  by apply: kspanD; [exact: kspanA | apply/kspanZ/kspanS].
have up i k' y : (i <= k')%N -> kspan A b xs i y -> kspan A b xs k' y.
  by move=> /subnK <- h; elim: (k' - i)%N => [|j IH]; rewrite ?add0n // addSn; apply: kspanS.
move=> [c ->]; elim: k => [|k IH]; first by rewrite big_ord0; apply: kspan0.
rewrite big_ord_recr /=; apply: kspanD; [exact: kspanS | exact: kspanZ].
Qed.

Lemma lsqr_rate_lemma out : call lim = Ok out -> exists x : 'cV[R]_n, q_x out = ofcv x /\
  forall z, obj x <= obj z + cheb mu L (q_itn out) ^+ 2 * (obj xs - obj z).
Proof using opA lim0 bs muL L0 bnd.
move=> E; have [x [xE _ opt]] := lsqr_krylov_lemma opA lim0 bs E.
have [zr [c [cE g0]]] := lsq_sol; exists x; split=> // z.
have zopt : obj zr <= obj z by exact: (lsq_opt g0).
have dE y : obj y = obj zr + ip H (zr - y) (zr - y).
  rewrite /obj -!fro2_rb.
  have -> : rb A b xs d y = rb A b xs d zr - 1 *: (Ab A d *m (y - zr)).
    by rewrite -rbD scale1r addrC subrK.
  rewrite scale1r fro2B; have -> : fip (rb A b xs d zr) (Ab A d *m (y - zr)) = 0.
    by rewrite /fip mulmxA -[_^T *m Ab A d]trmxK trmx_mul trmxK Ab_rb g0 trmx0 mul0mx raddf0.
  rewrite mulr0 subr0; congr (_ + _); rewrite -fro2N -mulmxN opprB.
  by rewrite /ip dotH mul_col_mx fro2_col_mx mul_scalar_mx fro2Z.
pose v := zr - xs; have Wv : W v by exists c.
have Kv : H *m v = A^T *m (b - A *m xs).
  have gE : d ^+ 2 *: (zr - xs) = A^T *m (b - A *m zr) by apply/esym/eqP; rewrite -subr_eq0 g0.
  rewrite /H /v mulmxDl mul_scalar_mx gE -mulmxA -mulmxDr; congr (_ *m _).
  by rewrite mulmxBr addrC addrA subrK.
have WD y1 y2 : W y1 -> W y2 -> W (y1 + y2).
  by move=> [c1 ->] [c2 ->]; exists (c1 + c2); rewrite mulmxDr.
have WZ a y1 : W y1 -> W (a *: y1) by move=> [c1 ->]; exists (a *: c1); rewrite scalemxAr.
have HHs : (H *m H)^T = H *m H by rewrite trmx_mul Hsym.
have [w [Kw le]] := cheb_lemma Hsym HHs WD WZ WH bndH (q_itn out) Wv muL L0.
rewrite Kv in Kw; have h : obj x <= obj (w + xs) by apply: opt; rewrite addrK; exact: ksp_kspan.
rewrite (dE (w + xs)) in h; have vE : zr - (w + xs) = v - w by rewrite opprD addrCA addrC.
rewrite {}vE in h.
have h2 : obj x <= obj zr + cheb mu L (q_itn out) ^+ 2 * (obj xs - obj zr).
  apply: (le_trans h); rewrite ler_add2l; apply: (le_trans le).
  by rewrite (dE xs) -/v addrC addKr.
apply: (le_trans h2); have /andP[b0 b1] := cheb_le1 (q_itn out) muL.
move: (cheb _ _ _) b0 b1 zopt => be b0 b1 zopt; rewrite -subr_ge0.
have -> : obj z + be ^+ 2 * (obj xs - obj z) - (obj zr + be ^+ 2 * (obj xs - obj zr)) =
  (1 - be ^+ 2) * (obj z - obj zr).
  by move: (obj z) (obj xs) (obj zr) => o1 o2 o3; rring.
by rewrite mulr_ge0 ?subr_ge0 // exprn_ile1.
Qed.
End LSQR.
End Rate2.
