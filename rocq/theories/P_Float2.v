(** Proofs of C100, continued: the QB drivers in rounded arithmetic. *)
From mathcomp Require Import all_ssreflect all_algebra.
From mathcomp Require Import zify.
From Verif Require Import Base Arr Lapack Exact MxLib RingTac LapackSpec Rng Aware RangeFinders QB Shape Inexact Float.
From Verif Require Import P_Shape P_Opt2 P_Inexact P_Float.
Set Implicit Arguments.
Unset Strict Implicit.
Unset Printing Implicit Defensive.
Import Order.TTheory GRing.Theory Num.Theory.
Local Open Scope ring_scope.

Section Near2.
Variable R : rcfType.
Add Field near2_field : (rcf_field R).

Lemma fro2_1 c : fro2 (1%:M : 'M[R]_c) = c%:R.
Proof. by rewrite fro2_tr trmx1 mul1mx mxtrace1. Qed.

Lemma near_fro eta m c (Q : 'M[R]_(m, c)) : 0 <= eta -> near_ortho eta Q ->
  fro Q <= Num.sqrt (1 + eta) * Num.sqrt c%:R.
Proof. by move=> e0 nQ; have := near_up 1%:M e0 nQ; rewrite mulmx1 {2}/fro fro2_1. Qed.

Lemma near_tr eta m c n (Q : 'M[R]_(m, c)) (Y : 'M[R]_(m, n)) : 0 <= eta < 1 -> near_ortho eta Q ->
  fro (Q^T *m Y) <= fro Y / Num.sqrt (1 - eta).
Proof.
move=> /andP[e0 e1] nQ; have e10 : 0 < 1 - eta by rewrite subr_gt0.
have s0 : 0 < Num.sqrt (1 - eta) by rewrite sqrtr_gt0.
rewrite ler_pdivl_mulr // -(@ler_pexpn2r _ 2) ?nnegrE ?mulr_ge0 ?sqrtr_ge0 ?fro_ge0 //.
rewrite exprMn !sqr_fro sqr_sqrtr ?(ltW e10) //.
have := near_resid Y e0 nQ; rewrite ler_norml => /andP[_]; rewrite ler_subl_addr => h.
have := le_trans (fro2_ge0 _) h; rewrite -subr_ge0 => {}h; rewrite -subr_ge0; apply: le_trans h _.
by rewrite le_eqVlt; apply/orP; left; apply/eqP; move: (fro2 _) (fro2 _) => x y; rring.
Qed.
End Near2.

Section QbFl.
Context {R : rcfType} {T : Type} {O : ops T} {G : Type}.
Variables (v : T -> R) (u : R) (X : exn -> Prop) (L : lapack T) (r : rng_ops G T) (eta dl : R).
Hypotheses (F : fl_arith O v u) (lsh : lap_shapes X L) (qrL : qr_fl v X L eta dl) (e01 : 0 <= eta < 1).
Local Notation g := (gam u).
Local Notation mv := (@mval R T O v).
Add Field qbfl_field : (rcf_field R).

Let e0 : 0 <= eta. Proof using e01. by case/andP: e01. Qed.
Let u0 : 0 <= u. Proof using F. exact: fl_u0 F. Qed.

Lemma fl_qr m n (A : arr T) : (0 < n)%N -> (n <= m)%N -> shaped m n A ->
  rsafe X (fun QU => [/\ shaped m n QU.1, shaped n n QU.2, near_ortho eta (mv m n QU.1) &
      fro (mv m n A - mv m n QU.1 *m mv n n QU.2) <= dl * fro (mv m n A)]) (l_qr L A).
Proof using qrL. by move=> n0 nm; have := qrL (leq_trans n0 nm) n0; rewrite (minn_idPr nm); apply. Qed.

(** Q^T A, one pass. *)
Local Notation beta := (fl_beta eta u).

Lemma beta_ge0 m k : 0 <= beta m k.
Proof using F. by rewrite !mulr_ge0 ?sqrtr_ge0 ?(gam_ge0 u0). Qed.

Lemma fl_passQtA m n k (Q A : arr T) : shaped m k Q -> shaped m n A -> near_ortho eta (mv m k Q) ->
  safe X (fun B => shaped k n B /\ fro (mv k n B - (mv m k Q)^T *m mv m n A) <= beta m k * fro (mv m n A))
    (passQtA Q A : M G T _).
Proof using F e01.
move=> sQ sA nQ; apply: safe_emit; apply: safe_lift.
apply: rsafe_weak (fl_mmul F X (sh_mtr sQ) sA) _ => B [sB]; rewrite (mval_tr v sQ) {2}/fro fro2_trmx -/(fro _) => h; split=> //.
apply: le_trans h _; rewrite mulrA; apply: ler_wpmul2r; first exact: fro_ge0.
by apply: ler_wpmul2l; [exact: gam_ge0 u0 _|]; exact: near_fro.
Qed.

(** The sketch A S and its QR. *)
Local Notation skerr := (fl_sketch dl u).

Lemma fl_RF1 rso m n k (PS : 'M[R]_(n, k) -> Prop) A tol : 0 <= dl -> (0 < k)%N -> (k <= minn m n)%N -> shaped m n A ->
  safe X (fun S => exists2 B, S = PyArr B & shaped n k B /\ PS (mv n k B)) (rso A k) ->
  safe X (fun Q => [/\ shaped m k Q, near_ortho eta (mv m k Q) & exists (S : 'M[R]_(n, k)) (U : 'M[R]_k),
      PS S /\ fro (mv m n A *m S - mv m k Q *m U) <= skerr n * (fro (mv m n A) * fro S)])
    (RF1 L rso A k%:Z tol : M G T _).
Proof using F qrL.
move=> d0 k0 kmn sA hr; have := kmn; rewrite leq_min => /andP[km kn]; have [_ eA1 eA2] := sA.
rewrite /RF1 eA1 eA2; apply: safe_passert; first by [].
apply: safe_passert; first by rewrite lez_nat.
apply: (safe_bind (Q := fun _ => True)); first by case: tol => [x|]; [move=> s|apply: safe_ret].
move=> _ _; apply: safe_bind hr _ => _ [S -> [sS pS]].
apply: (safe_bind (Q := fun Y => shaped m k Y /\
    fro (mv m k Y - mv m n A *m mv n k S) <= g n.+1 * (fro (mv m n A) * fro (mv n k S)))).
  by apply: safe_emit; apply: safe_lift; exact: (fl_mmul F X sA sS).
move=> Y [sY hY]; apply: safe_bind (safe_lift (fl_qr k0 km sY)) _ => QR [a b c d]; apply: safe_ret; split=> //.
exists (mv n k S), (mv k k QR.2); split=> //.
move: d hY c; set AS := mv m n A *m _; set y := mv m k Y; set q := _ *m mv k k _; set p := _ * fro (mv n k S) => d hY _.
have p0 : 0 <= p by rewrite mulr_ge0 ?fro_ge0.
have pA : fro AS <= p by exact: fro_mul_le.
have -> : AS - q = (y - q) - (y - AS) by rewrite opprB [RHS]addrC addrA subrK.
apply: le_trans (ler_froD _ _) _; rewrite froN.
have hy : fro y <= p + g n.+1 * p.
  by rewrite -(subrK AS y) addrC; apply: le_trans (ler_froD _ _) _; exact: ler_add.
apply: le_trans (ler_add (le_trans d (ler_wpmul2l d0 hy)) hY) _.
by rewrite le_eqVlt; apply/orP; left; apply/eqP; rewrite /fl_sketch; move: (g _) (p) => x z; rring.
Qed.

Lemma fl_best m n k (A : 'M[R]_(m, n)) (Q : 'M[R]_(m, k)) B (C : 'M[R]_(k, n)) : near_ortho eta Q ->
  fro (B - Q^T *m A) <= beta m k * fro A ->
  fro (A - Q *m B) <= (1 + rho eta) * fro (A - Q *m C) + (rho eta + (1 + eta) * Num.sqrt k%:R * g m.+1) * fro A.
Proof using F e01.
move=> nQ hB; have -> : A - Q *m B = (A - Q *m (Q^T *m A)) - Q *m (B - Q^T *m A).
  by rewrite mulmxBr opprB addrA subrK.
apply: le_trans (ler_froD _ _) _; rewrite froN [X in _ <= _ + X]mulrDl addrA; apply: ler_add; first exact: near_best.
apply: le_trans (near_up _ e0 nQ) _; apply: le_trans (ler_wpmul2l (sqrtr_ge0 _) hB) _.
have e10 : 0 <= 1 + eta by rewrite (addr_ge0 ler01 e0).
rewrite /fl_beta !mulrA; apply: ler_wpmul2r; first exact: fro_ge0; rewrite le_eqVlt; apply/orP; left; apply/eqP.
rewrite -{3}(sqr_sqrtr e10); move: (Num.sqrt _) (Num.sqrt _) (g _) => x y z; rring.
Qed.

Lemma fl_QB1 rso m n k (PS : 'M[R]_(n, k) -> Prop) A : 0 <= dl -> (0 < k)%N -> (k <= minn m n)%N -> shaped m n A ->
  safe X (fun S => exists2 B, S = PyArr B & shaped n k B /\ PS (mv n k B)) (rso A k) ->
  safe X (fun QB => [/\ shaped m k QB.1, shaped k n QB.2, near_ortho eta (mv m k QB.1),
      fro (mv k n QB.2 - (mv m k QB.1)^T *m mv m n A) <= beta m k * fro (mv m n A) &
      exists (S : 'M[R]_(n, k)) (U : 'M[R]_k),
      PS S /\ fro (mv m n A *m S - mv m k QB.1 *m U) <= skerr n * (fro (mv m n A) * fro S)])
    (QB1 (RF1 L rso) A k%:Z None : M G T _).
Proof using F qrL e01.
move=> d0 k0 kmn sA hr; have [_ eA1 eA2] := sA; rewrite /QB1 eA1 eA2.
apply: safe_passert; first by lia.
apply: safe_passert; first by lia.
apply: (safe_bind (Q := fun _ => True)); first exact: safe_ret.
move=> _ _; apply: safe_bind (fl_RF1 None d0 k0 kmn sA hr) _ => Q [sQ nQ SU].
by apply: safe_bind (fl_passQtA sQ sA nQ) _ => B [sB hB]; apply: safe_ret.
Qed.

Lemma fl_qb1 rso m n k (PS : 'M[R]_(n, k) -> Prop) A : 0 <= dl -> (0 < k)%N -> (k <= minn m n)%N -> shaped m n A ->
  safe X (fun S => exists2 B, S = PyArr B & shaped n k B /\ PS (mv n k B)) (rso A k) ->
  safe X (fun QB => let A := mv m n A in let Q := mv m k QB.1 in let B := mv k n QB.2 in
    [/\ shaped m k QB.1 /\ shaped k n QB.2, near_ortho eta Q,
      forall C : 'M[R]_(k, n),
        fro (A - Q *m B) <= (1 + rho eta) * fro (A - Q *m C) + (rho eta + (1 + eta) * Num.sqrt k%:R * g m.+1) * fro A &
      exists2 S : 'M[R]_(n, k), PS S &
        forall r w (V : 'M[R]_(n, r)) (W : 'M[R]_(k, r)), 0 <= w -> orthonormal V -> V^T *m S *m W = 1%:M ->
          (forall v : 'cV[R]_k, fro2 (W^T *m v) <= w ^+ 2 * fro2 v) ->
          let Z := A - A *m V *m V^T in
          fro (A - Q *m B) <=
          (1 + rho eta) * (Num.sqrt (fro2 Z + fro2 (Z *m S *m W)) + w * skerr n * fro S * fro A) +
          (rho eta + (1 + eta) * Num.sqrt k%:R * g m.+1) * fro A])
    (QB1 (RF1 L rso) A k%:Z None : M G T _).
Proof using F qrL e01.
move=> d0 k0 kmn sA hr; apply: safe_weak (fl_QB1 d0 k0 kmn sA hr) _ => -[Q B] /= [sQ sB nQ hB [S [U [pS hS]]]].
split=> //; first by move=> C; exact: fl_best.
exists S => // rr w V W w0 oV VW Ww.
have := near_sketch_abs e01 w0 nQ hS oV VW Ww; cbv zeta=> h.
have -> : mv m n A - mv m k Q *m mv k n B =
    (mv m n A - mv m k Q *m ((mv m k Q)^T *m mv m n A)) - mv m k Q *m (mv k n B - (mv m k Q)^T *m mv m n A).
  by rewrite mulmxBr opprB addrA subrK.
apply: le_trans (ler_froD _ _) _; rewrite froN [X in _ <= _ + X]mulrDl addrA; apply: ler_add.
  apply: le_trans h _; rewrite le_eqVlt; apply/orP; left; apply/eqP; congr (_ * (_ + _) + _).
  by move: (fro _) (fro _) (skerr _) => x y z; rring.
apply: le_trans (near_up _ e0 nQ) _; apply: le_trans (ler_wpmul2l (sqrtr_ge0 _) hB) _.
have e10 : 0 <= 1 + eta by rewrite (addr_ge0 ler01 e0).
rewrite /fl_beta !mulrA; apply: ler_wpmul2r; first exact: fro_ge0; rewrite le_eqVlt; apply/orP; left; apply/eqP.
rewrite -{3}(sqr_sqrtr e10); move: (Num.sqrt _) (Num.sqrt _) (g _) => x y z; rring.
Qed.

Lemma fl_qb m n A k (np : int) a : 0 <= dl -> rng_ok r -> 2 <= np -> (0 < k)%N -> (k <= minn m n)%N -> shaped m n A ->
  safe X (fun QB => let A := mv m n A in let Q := mv m k QB.1 in let B := mv k n QB.2 in
    [/\ shaped m k QB.1 /\ shaped k n QB.2, near_ortho eta Q &
      forall C : 'M[R]_(k, n),
        fro (A - Q *m B) <= (1 + rho eta) * fro (A - Q *m C) + (rho eta + (1 + eta) * Num.sqrt k%:R * g m.+1) * fro A])
    (qb L r np A k%:Z a).
Proof using F lsh qrL e01.
move=> d0 rok np2 k0 kmn sA; apply: safe_rng.
have hr : safe X (fun S => exists2 B, S = PyArr B & shaped n k B /\ (fun _ : 'M[R]_(n, k) => True) (mv n k B))
    (RS1 (skopGA r) (np - 2) (orth L) 1 A k).
  apply: safe_weak (safe_RS1 lsh rok _ k0 kmn sA) _; first by lia.
  by move=> S [B -> sB]; exists B.
apply: safe_weak (fl_qb1 (PS := fun _ => True) d0 k0 kmn sA hr) _.
by move=> QB [h1 h2 h3 _].
Qed.
End QbFl.
