(** Proofs of C100, continued: an arithmetic with genuine rounding errors that meets the hypotheses. *)
From mathcomp Require Import all_ssreflect all_algebra.
From Verif Require Import Base Arr Lapack Exact MxLib RingTac LapackSpec LapackExists Rng Shape Inexact Float.
From Verif Require Import P_Iso P_Embed P_Prob P_Shape P_ShapeLS P_RF P_Embed3 P_Inexact P_Inexact4 P_Float.
Set Implicit Arguments.
Unset Strict Implicit.
Unset Printing Implicit Defensive.
Import Order.TTheory GRing.Theory Num.Theory.
Local Open Scope ring_scope.

(** Every operation is off by a relative error of exactly u. *)
Definition bent_ops (R : rcfType) (u : R) : ops R := {|
  o0 := 0; o1 := 1;
  oadd := fun x y => (1 + u) * (x + y);
  osub := fun x y => (1 - u) * (x - y);
  omul := fun x y => (1 + u) * (x * y);
  odiv := fun x y => (1 - u) * (x / y);
  oopp := fun x => - x;
  osqrt := fun x => (1 - u) * Num.sqrt x;
  ole := fun x y => x <= y;
  olt := fun x y => x < y;
  oeq := fun x y => x == y
|}.

Section Wit.
Variables (R : rcfType) (u : R).
Hypothesis u01 : 0 <= u < 1.

Lemma bent_arith : fl_arith (bent_ops u) id u.
Proof using u01.
have /andP[u0 u1] := u01; have nu : `|u| = u by exact: ger0_norm.
have up x : `|(1 + u) * x - x| <= u * `|x| by rewrite mulrDl mul1r addrC addKr normrM nu.
have dn x : `|(1 - u) * x - x| <= u * `|x|.
  by rewrite mulrBl mul1r addrC addKr normrN normrM nu.
split=> //=; try by move=> x y; rewrite ?up ?dn.
by move=> x x0; have := dn (Num.sqrt x); rewrite [X in _ <= _ * X]ger0_norm ?sqrtr_ge0.
Qed.

Local Notation mb := (@mval R R (bent_ops u) id).
Lemma sh_id m n (A : arr R) : @shaped R (bent_ops u) m n A -> A = ofmx (mb m n A).
Proof.
case=> wA a b; have [A' AE] := wf_ofmx (wA : @wf R (rcf_ops R) A) a b.
rewrite AE; congr ofmx; apply/matrixP=> i j; rewrite mxE.
by rewrite -(el_ofmx A').
Qed.
Lemma mb_ofmx m n (A : 'M[R]_(m, n)) : mb m n (ofmx A) = A.
Proof. by apply/matrixP=> i j; rewrite mxE -[RHS](el_ofmx A). Qed.

Lemma qr_near_fl (L : lapack R) X eta dl : qr_near L eta dl -> @qr_fl R R (bent_ops u) id X L eta dl.
Proof.
move=> h m n A m0 n0 sA; have [Q [U [E nQ hQ]]] := h _ _ (mb m n A) m0 n0.
rewrite (sh_id sA) E /= !mb_ofmx; split=> //; exact: sh_ofmx.
Qed.
Lemma lstsq_near_fl (L : lapack R) X tau : lstsq_near L tau -> @lstsq_fl R R (bent_ops u) id X L tau.
Proof.
move=> h m n A b m0 n0 sA sb; have [x [E hx]] := h _ _ (mb m n A) (mb m 1 b) m0 n0.
rewrite (sh_id sA) (sh_id sb) E /= !mb_ofmx; split=> //; exact: sh_ofmx.
Qed.

Lemma bent_shapes eta : @lap_shapes R (bent_ops u) (fun _ => False) (bent_lapack eta).
Proof.
have [h1 h2 h3 h4 h5] := exact_shapes R; split=> // m n A m0 n0 sA.
by case: sA => _ <- <- /=; split; exact: sh_mk.
Qed.

(** Addition, subtraction, QR: none of them is exact, and everything the theorems of C100 ask for holds. *)
Lemma float_wit eta : 0 < u -> 0 < eta -> let O := bent_ops u in let E := @ga_mean R 8 8 in let r := ga_rng R 8 8 in
  [/\ fl_arith O id u, @oadd R O 1 1 <> 2%:R,
      [/\ @lap_shapes R O (fun _ => False) (bent_lapack eta), @qr_fl R R O id (fun _ => False) (bent_lapack eta) eta 0 &
          @lstsq_fl R R O id (fun _ => False) (bent_lapack eta) 0],
      ~ qr_spec (bent_lapack eta) &
      [/\ mean E, positive E, @rng_ok _ R O r, @fl_uncorrelated R R O _ id E r 8 8 & @fl_normal4 R R O _ id E r 8 8]].
Proof using u01.
move=> u0 e0; have [h1 [h2 h3]] := bent_wit e0; split=> //; first exact: bent_arith.
- move=> /= /eqP; rewrite -mulr2n mulrDl mul1r -subr_eq0 addrC addKr mulf_eq0 pnatr_eq0 orbF.
  by rewrite gt_eqF.
- by split; [exact: bent_shapes|exact: qr_near_fl|exact: lstsq_near_fl].
split; [exact: ga_meanP|exact: ga_meanpos|by case: (ga_rng_ok R 8 8)|exact: ga_uncorrelated|exact: ga_normal4].
Qed.
End Wit.

Section Const.
Variables (R : rcfType).
Add Field const_field : (rcf_field R).

Lemma gam_classic (u : R) n : 0 <= u -> n%:R * u < 1 -> gam u n <= n%:R * u / (1 - n%:R * u).
Proof.
move=> u0 nu; have p : 0 < 1 - n%:R * u by rewrite subr_gt0.
have h k : (k <= n)%N -> (1 + u) ^+ k * (1 - k%:R * u) <= 1.
  elim: k => [|k IH] kn; first by rewrite expr0 mul0r subr0 mulr1.
  apply: le_trans (IH (ltnW kn)); rewrite exprSr -mulrA; apply: ler_wpmul2l.
    by rewrite exprn_ge0 // (addr_ge0 ler01 u0).
  rewrite -subr_ge0 (_ : 1 - k%:R * u - _ = k.+1%:R * u ^+ 2); first by rewrite mulr_ge0 ?ler0n ?sqr_ge0.
  by rewrite -addn1 natrD; move: (k%:R) => x; rring.
rewrite /gam ler_pdivl_mulr // mulrBl mul1r ler_subl_addr addrCA subrr addr0.
exact: h.
Qed.

Lemma const_zero m n k j :
  [/\ @fl_sketch R 0 0 n = 0, @fl_beta R 0 0 m k = 0, @fl_drift R 0 0 m n k j = 0 & @fl_sq R 0 0 m n k j = 0].
Proof.
have g0 i : gam (0 : R) i = 0 by rewrite /gam addr0 expr1n subrr.
have b0 : @fl_beta R 0 0 m k = 0 by rewrite /fl_beta g0 mul0r.
have w0 : @fl_omega R 0 0 m k = 0 by rewrite /fl_omega g0 mulr0 !mul0r addr0.
have k0 : @fl_kappa R 0 0 m k = 0 by rewrite /fl_kappa /= w0 b0 !(mulr0, mul0r, addr0).
have K0 : @fl_K R 0 0 m n k = 0 by rewrite /fl_K k0 !addr0 mul1r expr1n subrr.
split=> //.
- by rewrite /fl_sketch g0 mulr0 addr0.
- by rewrite /fl_drift w0 mulr0 mul0r.
by rewrite /fl_sq g0 K0 mulr0 addr0 mul0r.
Qed.
End Const.
