(** Proofs of C100, continued: the loop of QB2 in rounded arithmetic. *)
From mathcomp Require Import all_ssreflect all_algebra.
From mathcomp Require Import zify.
From Verif Require Import Base Arr Lapack Exact MxLib RingTac LapackSpec Rng Aware RangeFinders QB Shape Inexact Float.
From Verif Require Import P_Shape P_Opt2 P_Inexact P_Float P_Float2 P_Float3.
Set Implicit Arguments.
Unset Strict Implicit.
Unset Printing Implicit Defensive.
Import Order.TTheory GRing.Theory Num.Theory.
Local Open Scope ring_scope.

Lemma nblkE b i j : (0 < j <= b)%N -> nblk b (i * b + j) = i.+1.
Proof.
move=> /andP[j0 jb]; have b0 := leq_trans j0 jb; rewrite /nblk; have -> : (i * b + j + b).-1 = (i.+1 * b + j.-1)%N by rewrite mulSn; lia.
by rewrite divnMDl // divn_small ?addn0 //; lia.
Qed.

Section Loop.
Context {R : rcfType} {T : Type} {O : ops T} {G : Type}.
Variables (v : T -> R) (u : R) (X : exn -> Prop) (L : lapack T) (eta dl : R).
Hypotheses (F : fl_arith O v u) (lsh : lap_shapes X L) (qrL : qr_fl v X L eta dl) (e01 : 0 <= eta < 1).
Local Notation g := (gam u).
Local Notation mv := (@mval R T O v).
Add Field loop_field : (rcf_field R).

Let u0 : 0 <= u. Proof using F. exact: fl_u0 F. Qed.

Variables (rf : @rangefinder T G) (m n k b : nat).
Hypothesis hrf : forall A j, (0 < j <= minn m n)%N -> shaped m n A -> safe X (shaped m j) (rf A j%:Z None : M G T _).
Hypotheses (b0 : (0 < b)%N) (kmn : (k <= minn m n)%N).
Local Notation K := (fl_K eta u m n k).
Local Notation om := (fl_omega eta u m k).
Local Notation dr := (fl_drift eta u m n k).
Local Notation sqe := (fl_sq eta u m n k).

Variables (A0 : 'M[R]_(m, n)) (utol : bool) (ab : T).
Local Notation a := (fro A0).

Definition fl_inv i c (A Q B : arr T) (sqn : T) : Prop :=
  [/\ shaped m n A, shaped m c Q, shaped c n B,
      fro (A0 - mv m c Q *m mv c n B - mv m n A) <= dr i * a &
      fro2 (mv m n A) <= (1 + K) ^+ i * a ^+ 2 /\ (utol -> `|v sqn - fro2 (mv m n A)| <= sqe i * a ^+ 2)].

Lemma K1 i : 1 <= (1 + K) ^+ i.
Proof using F e01. by rewrite exprn_ege1 // ler_addl (K_ge0 e01 u0). Qed.

Lemma fl_step i c j (A Q B Qi Bi Q' B' P A' : arr T) sqn : (j <= k)%N -> fl_inv i c A Q B sqn ->
  shaped m j Qi -> near_ortho eta (mv m j Qi) -> shaped j n Bi ->
  fro (mv j n Bi - (mv m j Qi)^T *m mv m n A) <= fl_beta eta u m j * fro (mv m n A) ->
  shaped m (c + j) Q' -> mv m (c + j) Q' = row_mx (mv m c Q) (mv m j Qi) ->
  shaped (c + j) n B' -> mv (c + j) n B' = col_mx (mv c n B) (mv j n Bi) ->
  fro (mv m n P - mv m j Qi *m mv j n Bi) <= g j.+1 * (fro (mv m j Qi) * fro (mv j n Bi)) ->
  shaped m n A' -> fro (mv m n A' - (mv m n A - mv m n P)) <= u * fro (mv m n A - mv m n P) ->
  fl_inv i.+1 (c + j) A' Q' B' (if utol then osub sqn (osq (mnorm Bi)) else sqn).
Proof using F e01.
move=> jk [sA sQ sB hD [hN hS]] sQi nQi sBi hB sQ' eQ' sB' eB' hP sA' hA'.
have K0 := @K_ge0 R eta u e01 u0 m n k; have o0 := @om_ge0 R eta u u0 m k.
have a0 : 0 <= a by exact: fro_ge0.
have Ki : 0 <= (1 + K) ^+ i by exact: le_trans (K1 i).
have Ni : fro (mv m n A) <= (1 + K) ^+ i * a.
  rewrite -(@ler_pexpn2r _ 2) ?nnegrE ?mulr_ge0 ?fro_ge0 // sqr_fro exprMn; apply: le_trans hN _.
  by apply: ler_wpmul2r; [exact: sqr_ge0|rewrite expr2 ler_pemull // K1].
have S := step_drift e01 u0 jk nQi hB hP hA'.
have Q2 := step_sq e01 u0 jk nQi hB hP hA'.
have [Ku Kk] := @K_ge R eta u e01 u0 m n k.
have KS : (1 + K) ^+ i <= (1 + K) ^+ i.+1 by rewrite ler_weexpn2l // ler_addl.
split=> //.
  rewrite eQ' eB' mul_row_col.
  have -> : A0 - (mv m c Q *m mv c n B + mv m j Qi *m mv j n Bi) - mv m n A' =
     (A0 - mv m c Q *m mv c n B - mv m n A) - (mv m n A' - (mv m n A - mv m j Qi *m mv j n Bi)).
    move: (_ *m _) (_ *m _) (mv m n A) (mv m n A') => x y z w.
    rewrite opprB opprD !addrA; congr (_ - _); rewrite -!addrA; congr (_ + (_ + _)).
    by rewrite addrA addNr add0r.
  apply: le_trans (ler_froD _ _) _; rewrite froN.
  apply: le_trans (ler_add hD (le_trans S (ler_wpmul2l o0 Ni))) _.
  have -> : dr i * a + om * ((1 + K) ^+ i * a) = i.+1%:R * om * (1 + K) ^+ i * a.
    by rewrite /fl_drift -addn1 natrD; move: (_ ^+ i) om (i%:R) a => x y z w; rring.
  apply: ler_wpmul2r => //; apply: ler_wpmul2l => //; by rewrite mulr_ge0 ?ler0n.
split.
  have n1 : fro2 (mv m n A') <= (1 + K) * fro2 (mv m n A).
    have bb := fro2_ge0 (mv j n Bi); move: Q2; rewrite ler_norml => /andP[_]; rewrite ler_subl_addr => /le_trans; apply.
    rewrite mulrDl mul1r [_ + (_ - _)]addrC -addrA ler_add2l addrC; apply: le_trans (_ : fl_kappa eta u m k * fro2 (mv m n A) <= _).
      by rewrite ger_addl oppr_le0.
    by apply: ler_wpmul2r => //; exact: fro2_ge0.
  by apply: le_trans n1 _; rewrite exprS -mulrA; apply: ler_wpmul2l hN; exact: (addr_ge0 ler01 K0).
move=> ut; rewrite ut; have h1 := hS ut.
have h2 : `|v (osq (mnorm Bi)) - fro2 (mv j n Bi)| <= g (j + n + 4) * fro2 (mv j n Bi).
  by have := rel_norm2 F sBi; rewrite /rel [X in _ <= _ * X]ger0_norm // fro2_ge0.
have := step_sqn e01 u0 jk nQi hB hP hA' h1 h2 (fl_sub F sqn (osq (mnorm Bi))) => /le_trans; apply.
apply: le_trans (_ : (1 + K) * (sqe i * a ^+ 2) + K * ((1 + K) ^+ i.+1 * a ^+ 2) <= _).
  have s0 : 0 <= sqe i * a ^+ 2.
    rewrite mulr_ge0 ?sqr_ge0 // mulr_ge0 // addr_ge0 //; first exact: gam_ge0.
    by rewrite mulr_ge0 ?ler0n.
  apply: ler_add; first by apply: ler_wpmul2r => //; rewrite ler_add2l.
  apply: ler_wpmul2l => //; apply: le_trans hN _; apply: ler_wpmul2r => //; exact: sqr_ge0.
apply: eq_lew; rewrite /fl_sq -[i.+1]addn1 natrD exprD expr1.
move: (gam _ _) ((1 + K) ^+ i) (i%:R) K (a ^+ 2) => x y z w q; rring.
Qed.

Lemma fl_loop : forall fuel i sqn A Q B,
  fl_inv i (i * b) A Q B sqn -> (i * b < k)%N -> (k - i * b < fuel)%N ->
  safe X (fun x => exists2 c, blocks b k c & [/\ shaped m c x.1.1, shaped c n x.1.2, shaped m n x.2,
      fro (A0 - mv m c x.1.1 *m mv c n x.1.2 - mv m n x.2) <= dr (nblk b c) * a &
      (c < k)%N -> utol /\ fro2 (mv m n x.2) <= v ab + sqe (nblk b c) * a ^+ 2])
    (qb2_loop L fuel rf k utol ab b%:Z sqn A Q B).
Proof using F lsh qrL e01 hrf b0 kmn.
elim=> [|fuel IH] i sqn A Q B inv ck; first by [].
have [sA sQ sB _ _] := inv; move=> fu; have [_ eB1 eB2] := sB; rewrite /= eB1; set c := (i * b)%N in inv ck fu eB1 sQ sB *.
have -> : (if (k%:Z < c%:Z + b%:Z) then (k%:Z - c%:Z) else b%:Z) = (minn b (k - c))%:Z by case: ifP; lia.
set j := minn b (k - c); have j0 : (0 < j)%N by rewrite /j; lia.
have jm : (j <= m)%N by rewrite /j; lia.
have jk : (j <= k)%N by rewrite /j; lia.
have jb : (0 < j <= b)%N by rewrite j0 geq_minl.
apply: (safe_bind (Q := shaped m j)); first by apply: (hrf _ sA); rewrite /j; lia.
move=> Qi sQi; apply: safe_emit.
apply: safe_bind (safe_lift (safe_project_out X sQi sQ)) _ => Qi' sQi'.
apply: safe_bind (safe_lift (fl_qr qrL j0 jm sQi')) _ => QR [s1 _ nQ _].
apply: safe_bind (fl_passQtA X F e01 s1 sA nQ) _ => Bi [sBi hB].
apply: safe_bind (safe_lift (fl_hstack v X sQ s1)) _ => Q' [sQ' eQ'].
apply: safe_bind (safe_lift (fl_vstack v X sB sBi)) _ => B' [sB' eB'].
apply: safe_bind (safe_lift (fl_mmul F X s1 sBi)) _ => P [sP hP].
apply: safe_bind (safe_lift (fl_msub F X sA sP)) _ => A' [sA' hA'].
have [_ eB'1 _] := sB'.
have inv' := fl_step jk inv s1 nQ sBi hB sQ' eQ' sB' eB' hP sA' hA'.
have bl : blocks b k (c + j).
  split; first by rewrite /j; lia.
  have [h|h] := leqP b (k - c); last by left; rewrite /j; lia.
  by right; rewrite /j (minn_idPl h) dvdn_addl // dvdn_mull.
have nb : nblk b (c + j) = i.+1 by exact: nblkE.
cbv zeta; case: ifP => stop.
  apply: safe_ret; exists (c + j)%N => //; rewrite nb; case: inv' => _ _ _ hD [_ hS]; split=> //= _.
  have /andP[ut le] := stop; split=> //; move: le; rewrite (fl_le F) => le.
  have := hS ut; rewrite ler_norml => /andP[]; rewrite ut; rewrite ut in le; rewrite -ler_oppl opprB ler_subl_addr => h _.
  by apply: le_trans h _; rewrite addrC ler_add2r.
rewrite eB'1; case: ifP => ckk; first by apply: safe_ret; exists (c + j)%N => //; rewrite nb; case: inv' => _ _ _ hD _; split=> //=; rewrite ltnNge ckk.
have jE : j = b by move: ckk; rewrite /j; lia.
have cE : (c + j = i.+1 * b)%N by rewrite /c jE mulSn addnC.
rewrite cE in inv' ckk; rewrite jE.
by apply: IH inv' _ _; [rewrite ltnNge ckk|move: ckk; rewrite -cE; lia].
Qed.
End Loop.

Section Top.
Context {R : rcfType} {T : Type} {O : ops T} {G : Type}.
Variables (v : T -> R) (u : R) (X : exn -> Prop) (L : lapack T) (eta dl : R).
Hypotheses (F : fl_arith O v u) (lsh : lap_shapes X L) (qrL : qr_fl v X L eta dl) (e01 : 0 <= eta < 1).
Local Notation g := (gam u).
Local Notation mv := (@mval R T O v).
Add Field top_field : (rcf_field R).

Lemma fl_QB2 (rf : @rangefinder T G) m n (k : int) b ov A tol :
  (forall A j, (0 < j <= minn m n)%N -> shaped m n A -> safe X (shaped m j) (rf A j%:Z None : M G T _)) ->
  (0 < minn m n)%N -> 0 < k -> (0 < b)%N -> shaped m n A ->
  let kk := minn (absz k) (minn m n) in
  safe X (fun x => exists2 c, blocks b kk c &
    let Am := mv m n A in let E := Am - mv m c x.1.1 *m mv c n x.1.2 in
    [/\ shaped m c x.1.1 /\ shaped c n x.1.2,
        if ov then shaped m n x.2 /\ fro (E - mv m n x.2) <= fl_drift eta u m n kk (nblk b c) * fro Am else x.2 = A &
        (c < kk)%N -> exists2 t, tol = Some t & 0 < v t /\
          fro E <= (Num.sqrt ((1 + u) ^+ (m + n + 6) * v t ^+ 2 + fl_sq eta u m n kk (nblk b c)) +
                    fl_drift eta u m n kk (nblk b c)) * fro Am]) (QB2 L rf b%:Z ov A k tol).
Proof using F lsh qrL e01.
move=> hrf mn0 k0 b0 sA kk; have [_ eA1 eA2] := sA; rewrite /QB2 eA1 eA2; apply: safe_passert => //; cbv zeta.
have u0 := fl_u0 F.
apply: (safe_bind (Q := fun x => x = kk)).
  case: ifP => h; [apply: safe_ret|apply: safe_emit; apply: safe_ret]; rewrite /kk; lia.
move=> _ ->; apply: safe_passert; first by rewrite /kk geq_minr.
have a2 : fro (mv m n A) ^+ 2 = fro2 (mv m n A) by exact: sqr_fro.
apply: safe_bind.
  apply: (@fl_loop R T O G v u X L eta dl F lsh qrL e01 rf m n kk b hrf b0 (geq_minr _ _) (mv m n A) _ _ kk.+1 0 _ A).
  - split=> //; try exact: sh_mk.
      by rewrite mul0n mulmx_0l || rewrite mul0n; rewrite (_ : mv m 0 _ *m _ = 0) ?subr0 ?subrr ?fro0 ?/fl_drift ?mul0r // [mv 0 n _]flatmx0 mulmx0.
    split; first by rewrite expr0 mul1r a2.
    move=> _; have := rel_norm2 F sA; rewrite /rel [X in _ <= _ * X]ger0_norm ?fro2_ge0 // => h.
    by rewrite /fl_sq mul0r addr0 expr0 mulr1 a2.
  - by rewrite mul0n /kk; lia.
  by rewrite mul0n subn0.
move=> x [c bc [h1 h2 h3 hD hS]]; apply: safe_ret; exists c => //=; split=> //; first by case: ov.
move=> /hS [ut hN]; move: ut hN {hS}; rewrite /use_tol /abs_sq_tol; case: tol => // t t0 hN.
rewrite (fl_lt F) (fl_0 F) in t0; exists t => //; split=> //.
have a0 : 0 <= fro (mv m n A) by exact: fro_ge0.
rewrite -(subrK (mv m n x.2) (mv m n A - _)); apply: le_trans (ler_froD _ _) _.
rewrite [X in _ <= X]mulrDl [X in _ <= X]addrC; apply: ler_add => //.
have r1 := rel_norm2 F sA; have r2 := rel_mul1 F t t.
have r3 := rel_trans u0 (rel_mul u0 r1 r2) (rel_mul1 F (sqnorm0 A) (osq t)).
have r4 : `|v (omul (sqnorm0 A) (osq t))| <= (1 + u) ^+ (m + n + 6) * (fro2 (mv m n A) * (v t * v t)).
  have := rel_abs r3; rewrite [X in _ <= _ * X]ger0_norm; last by rewrite mulr_ge0 ?fro2_ge0 // -expr2 sqr_ge0.
  rewrite (_ : (m + n + 4 + 1 + 1 = m + n + 6)%N); last by rewrite -!addnA.
  by rewrite (_ : 1 + gam u _ = (1 + u) ^+ (m + n + 6)) // /gam addrC subrK.
have s0 : 0 <= fl_sq eta u m n kk (nblk b c).
  have K0 := @K_ge0 R eta u e01 u0 m n kk.
  rewrite mulr_ge0 ?exprn_ge0 ?(addr_ge0 ler01 K0) // addr_ge0 ?(gam_ge0 u0) //.
  by rewrite mulr_ge0 ?ler0n.
have p0 : 0 <= (1 + u) ^+ (m + n + 6) * v t ^+ 2.
  by rewrite mulr_ge0 ?sqr_ge0 // exprn_ge0 // (addr_ge0 ler01 u0).
rewrite -(@ler_pexpn2r _ 2) ?nnegrE ?mulr_ge0 ?sqrtr_ge0 ?fro_ge0 // sqr_fro exprMn sqr_sqrtr ?addr_ge0 //.
apply: le_trans hN _; rewrite [X in _ <= X]mulrDl ler_add2r.
apply: le_trans (le_trans (ler_norm _) r4) _; rewrite sqr_fro.
by apply: eq_lew; move: (_ ^+ _) (fro2 _) (v t) => p q z; rring.
Qed.

Lemma fl_qb_b (r : rng_ops G T) (np : int) m n (k : int) b ov A tol a :
  rng_ok r -> 2 <= np -> (0 < minn m n)%N -> 0 < k -> (0 < b)%N -> shaped m n A ->
  let kk := minn (absz k) (minn m n) in
  safe X (fun x => exists2 c, blocks b kk c &
    let Am := mv m n A in let E := Am - mv m c x.1.1 *m mv c n x.1.2 in
    [/\ shaped m c x.1.1 /\ shaped c n x.1.2,
        if ov then shaped m n x.2 /\ fro (E - mv m n x.2) <= fl_drift eta u m n kk (nblk b c) * fro Am else x.2 = A &
        (c < kk)%N -> exists2 t, tol = Some t & 0 < v t /\
          fro E <= (Num.sqrt ((1 + u) ^+ (m + n + 6) * v t ^+ 2 + fl_sq eta u m n kk (nblk b c)) +
                    fl_drift eta u m n kk (nblk b c)) * fro Am]) (qb_b L r np b%:Z ov A k tol a).
Proof using F lsh qrL e01.
move=> rok np2 mn0 k0 b0 sA; apply: safe_rng; apply: fl_QB2 => // A' j j0 sA'.
apply: (rf_ok lsh rok _ _ j0 sA'); lia.
Qed.
End Top.
