(** Proofs of C102: SVD1 in rounded arithmetic. *)
From mathcomp Require Import all_ssreflect all_algebra.
From mathcomp Require Import zify.
From Verif Require Import Base Arr Lapack Exact MxLib RingTac Sel Rng Aware RangeFinders QB SvdEvd Shape Inexact Float.
From Verif Require Import P_Svd P_SvdEvd P_Evd P_Opt P_Opt2 P_Interp4 P_Shape P_Inexact P_Float P_Float2 P_Float3.
Set Implicit Arguments.
Unset Strict Implicit.
Unset Printing Implicit Defensive.
Import Order.TTheory GRing.Theory Num.Theory.
Local Open Scope ring_scope.

(** ** Perturbed orthonormal factors. *)
Section Pert.
Variables (R : rcfType).
Add Field pert_field : (rcf_field R).

Lemma near_ext eta m c e (Q : 'M[R]_(m, c)) (U : 'M[R]_(c, e)) : near_ortho eta Q -> orthonormal U -> near_ortho eta (Q *m U).
Proof.
move=> nQ oU w; have := nQ (U *m w); rewrite (fro2_ortho _ oU); apply: le_trans.
have -> : ((Q *m U)^T *m (Q *m U) - 1%:M) *m w = U^T *m ((Q^T *m Q - 1%:M) *m (U *m w)).
  by rewrite mulmxBl mul1mx mulmxBl mul1mx mulmxBr (mulmxA U^T U) oU mul1mx trmx_mul !mulmxA.
exact: fro2_mulQt.
Qed.

Lemma near_pert eta d m c (Q D : 'M[R]_(m, c)) : 0 <= eta < 1 -> 0 <= d -> near_ortho eta Q -> fro D <= d ->
  near_ortho (eta + d * (Num.sqrt (1 + eta) + (Num.sqrt (1 - eta))^-1 + d)) (Q + D).
Proof.
move=> e01 d0 nQ hD w; have /andP[e0 e1] := e01.
have s0 : 0 <= (Num.sqrt (1 - eta))^-1 by rewrite invr_ge0 sqrtr_ge0.
rewrite -!sqr_fro -exprMn ler_expn2r ?nnegrE ?mulr_ge0 ?addr_ge0 ?mulr_ge0 ?fro_ge0 ?addr_ge0 ?sqrtr_ge0 //.
have -> : ((Q + D)^T *m (Q + D) - 1%:M) *m w = (Q^T *m Q - 1%:M) *m w + (D^T *m (Q *m w) + (Q^T *m (D *m w) + D^T *m (D *m w))).
  rewrite [(Q + D)^T]linearD /= mulmxBl -mulmxA [(Q + D) *m w]mulmxDl mulmxDl !mulmxDr mulmxBl !mulmxA.
  move: (Q^T *m Q *m w) (Q^T *m D *m w) (D^T *m Q *m w) (D^T *m D *m w) (1%:M *m w) => X1 X2 X3 X4 X5.
  by apply/matrixP=> i j; rewrite !mxE; move: (X1 i j) (X2 i j) (X3 i j) (X4 i j) (X5 i j) => y1 y2 y3 y4 y5; rring.
have hDw : fro (D *m w) <= d * fro w.
  by apply: le_trans (fro_mul_le _ _) _; apply: ler_wpmul2r; rewrite ?fro_ge0.
have hDt p (Z : 'M[R]_(m, p)) : fro (D^T *m Z) <= d * fro Z.
  by apply: le_trans (fro_mul_le _ _) _; apply: ler_wpmul2r; rewrite ?fro_ge0 // {1}/fro fro2_trmx.
apply: le_trans (ler_froD _ _) _; rewrite mulrDl; apply: ler_add; first exact: near_mul.
rewrite !mulrDr !mulrDl -addrA.
apply: le_trans (ler_froD _ _) _; apply: ler_add.
  apply: le_trans (hDt _ _) _; rewrite -mulrA; apply: ler_wpmul2l => //; exact: near_up.
apply: le_trans (ler_froD _ _) _; apply: ler_add.
  apply: le_trans (near_tr _ e01 nQ) _; rewrite mulrAC; exact: ler_wpmul2r.
by apply: le_trans (hDt _ _) _; rewrite -mulrA; exact: ler_wpmul2l.
Qed.
End Pert.

(** ** Leading columns, entries and rows. *)
Section Blk.
Variables (R : rcfType).
Lemma colblk_le m q e (X Y : 'M[R]_(m, q)) : (e <= q)%N -> fro (colblk X 0 e - colblk Y 0 e) <= fro (X - Y).
Proof.
by move=> eq; rewrite !colblkE -mulmxBl ler_wsqrtr //; apply: fro2_restr; exact: selmxP.
Qed.
Lemma rowblk_le n q e (X Y : 'M[R]_(q, n)) : (e <= q)%N -> fro (rowblk X 0 e - rowblk Y 0 e) <= fro (X - Y).
Proof.
move=> eq; have := colblk_le X^T Y^T eq; rewrite /fro -fro2_trmx linearB /= !tr_colblk !trmxK.
by rewrite -linearB /= fro2_trmx.
Qed.
End Blk.

Section Lead.
Context {T : Type} {O : ops T}.
Record lead c q n e (U : arr T) (s : seq T) (V : arr T) (x : arr T * seq T * arr T) : Prop := Lead {
  ld_le : (e <= q)%N; ld_U : shaped c e x.1.1; ld_s : size x.1.2 = e; ld_V : shaped e n x.2;
  ld_Ue : forall i j, (i < c)%N -> (j < e)%N -> el x.1.1 i j = el U i j;
  ld_se : forall i, (i < e)%N -> ev x.1.2 i = ev s i;
  ld_Ve : forall i j, (i < e)%N -> (j < n)%N -> el x.2 i j = el V i j }.

Lemma lead_trans c q n d e U s V x y : @lead c q n d U s V x -> lead c d n e x.1.1 x.1.2 x.2 y -> lead c q n e U s V y.
Proof.
case=> h1 h2 h3 h4 h5 h6 h7 [k1 k2 k3 k4 k5 k6 k7]; split=> //; first exact: leq_trans h1.
- by move=> i j ic je; rewrite k5 // h5 // (leq_trans je).
- by move=> i ie; rewrite k6 // h6 // (leq_trans ie).
by move=> i j ie jn; rewrite k7 // h7 // (leq_trans ie).
Qed.

Lemma slen0 n p : (p <= n)%N -> slen n 0 p = p.
Proof. by rewrite /slen => pn; rewrite min0n subn0; apply/minn_idPl. Qed.

Lemma lead_slice c q n p U s V : shaped c q U -> size s = q -> shaped q n V -> (p <= q)%N ->
  lead c q n p U s V (cslice U 0 p, vslice s 0 p, rslice V 0 p).
Proof.
move=> sU es sV pq; have [[_ u1 u2] [_ v1 v2]] := (sU, sV); split=> //=.
- exact: sh_cslice sU (slen0 pq).
- by rewrite size_vslice0 es; apply/minn_idPl.
- exact: sh_rslice sV (slen0 pq).
- by move=> i j ic jp; rewrite /cslice el_mk ?u1 ?u2 ?slen0 // min0n.
- by move=> i ip; rewrite /ev /vslice drop0 subn0 nth_take.
by move=> i j ip jn; rewrite /rslice el_mk ?v1 ?v2 ?slen0 // min0n.
Qed.

Lemma lead_refl c q n U s V : shaped c q U -> size s = q -> shaped q n V -> lead c q n q U s V (U, s, V).
Proof. by move=> *; split. Qed.

Lemma lead_iota c q n e U s V : shaped c q U -> size s = q -> shaped q n V -> (e <= q)%N ->
  exists U' s' V', [/\ cidx U (iota 0 e) = Ok U', vidx s (iota 0 e) = Ok s', ridx V (iota 0 e) = Ok V' &
    lead c q n e U s V (U', s', V')].
Proof.
move=> sU es sV eq; have [[_ u1 u2] [_ v1 v2]] := (sU, sV).
have al k : (e <= k)%N -> all (fun j => j < k)%N (iota 0 e).
  by move=> ek; apply/allP=> i; rewrite mem_iota add0n => /andP[_ h]; exact: leq_trans ek.
rewrite /cidx /vidx /ridx u2 es v1 !al //; do 3 eexists; split=> //.
split=> //=; rewrite ?size_map ?size_iota //; try exact: sh_mk.
- by rewrite u1; exact: sh_mk.
- by rewrite v2; exact: sh_mk.
- by move=> i j ic je; rewrite el_mk ?u1 // nth_iota.
- by move=> i ie; rewrite /ev (nth_map 0%N) ?size_iota // nth_iota.
by move=> i j ie jn; rewrite el_mk ?v2 // nth_iota.
Qed.
End Lead.

(** ** Truncating the singular value decomposition of B, on real matrices. *)
Section Chain.
Variables (R : rcfType) (m n c q e k : nat) (eta mu u ct : R).
Variables (A : 'M[R]_(m, n)) (Q : 'M[R]_(m, c)) (B : 'M[R]_(c, n)).
Variables (Uo : 'M[R]_(c, q)) (s : 'cV[R]_q) (Vo : 'M[R]_(q, n)) (Ue : 'M[R]_(c, e)) (Ve : 'M[R]_(e, n)) (U : 'M[R]_(m, e)).
Hypotheses (e01 : 0 <= eta < 1) (mu0 : 0 <= mu) (u0 : 0 <= u) (nQ : near_ortho eta Q) (eq : (e <= q)%N) (qc : (q <= c)%N).
Hypotheses (oU : orthonormal Uo) (oV : orthonormal Vo^T) (s0 : forall i, 0 <= s i 0)
  (ss : forall i j : 'I_q, (i <= j)%N -> s j 0 <= s i 0).
Local Notation M := (Uo *m diag_mx s^T *m Vo).
Local Notation Uoe := (colblk Uo 0 e).
Local Notation Voe := (rowblk Vo 0 e).
Local Notation S := (diag_mx (topv s e)^T).
Hypotheses (hB : fro (B - M) <= mu * fro B) (hU : fro (Ue - Uoe) <= mu) (hV : fro (Ve - Voe) <= mu)
  (hQU : fro (U - Q *m Ue) <= gam u c.+1 * (fro Q * fro Ue))
  (small : forall i : 'I_q, (e <= i < k)%N -> s i 0 ^+ 2 <= ct ^+ 2).
Local Notation r := (Num.sqrt (1 + eta)).
Local Notation t := (Num.sqrt (1 - eta))^-1.
Local Notation d := (fl_du eta mu u c).
Local Notation E0 := (fro (A - Q *m B)).
Add Field chain_field : (rcf_field R).
Let eta0 : 0 <= eta. Proof using e01. by case/andP: e01. Qed.
Let r0 : 0 <= r. Proof. exact: sqrtr_ge0. Qed.
Let t0 : 0 <= t. Proof. by rewrite invr_ge0 sqrtr_ge0. Qed.
Let g0 : 0 <= gam u c.+1. Proof using u0. exact: gam_ge0. Qed.

Lemma du_ge0 : 0 <= d.
Proof using u0 mu0. by rewrite addr_ge0 ?mulr_ge0 // ?addr_ge0 ?sqrtr_ge0. Qed.

Lemma svdM : is_svd M Uo s Vo. Proof using oU oV s0 ss. by []. Qed.
Lemma oUoe : orthonormal Uoe. Proof using eq oU. exact: orthonormal_colblk. Qed.
Lemma oVoe : orthonormal Voe^T.
Proof using eq oV. by rewrite -[Vo]trmxK -tr_colblk trmxK; apply: orthonormal_colblk. Qed.

Lemma chain_dU : fro (U - Q *m Uoe) <= d.
Proof using e01 mu0 u0 nQ eq qc hU hQU oU.
have -> : U - Q *m Uoe = Q *m (Ue - Uoe) + (U - Q *m Ue) by rewrite mulmxBr [RHS]addrC addrA subrK.
have fUo : fro Uoe = Num.sqrt e%:R by rewrite -[Uoe]mulmx1 {1}/fro (fro2_ortho _ oUoe) fro2_1.
have ec : Num.sqrt (e%:R : R) <= Num.sqrt c%:R by rewrite ler_wsqrtr // ler_nat (leq_trans eq).
have fUe : fro Ue <= Num.sqrt c%:R + mu.
  have -> : Ue = Uoe + (Ue - Uoe) by rewrite addrC subrK.
  by apply: le_trans (ler_froD _ _) _; rewrite fUo; exact: ler_add.
apply: le_trans (ler_froD _ _) _; apply: ler_add.
  by apply: le_trans (near_up _ eta0 nQ) _; exact: ler_wpmul2l.
apply: le_trans hQU _; apply: ler_wpmul2l => //; apply: ler_pmul => //; rewrite ?fro_ge0 //.
exact: near_fro.
Qed.

Lemma chain_S : fro S <= (1 + mu) * fro B.
Proof using eq oU oV s0 ss hB.
rewrite {1}/fro fro2_diag; apply: (@le_trans _ _ (fro M)).
  rewrite ler_wsqrtr // (fro2_svd svdM) -subr_ge0 topv_tail //; apply: sumr_ge0 => i _; exact: sqr_ge0.
have -> : M = B - (B - M) by rewrite opprB addrC subrK.
by apply: le_trans (ler_froB _ _) _; rewrite mulrDl mul1r ler_add2l.
Qed.

Lemma chain_tail (X : 'M[R]_(m, n)) : (\rank X <= k)%N ->
  fro (M - Uoe *m S *m Voe) <= mu * fro B + eta * fro B + t * (E0 + fro (A - X)) + Num.sqrt q%:R * `|ct|.
Proof using e01 nQ eq oU oV s0 ss hB small.
move=> rX; set Y := Q^T *m X.
have rY : (\rank Y <= k)%N by apply: leq_trans rX; exact: mxrankM_maxr.
have h1 : fro2 (M - Uoe *m S *m Voe) <= fro2 (M - Y) + q%:R * ct ^+ 2.
  have BE : M = (1%:M : 'M[R]_c)^T *m M by rewrite trmx1 mul1mx.
  have o1 : orthonormal (1%:M : 'M[R]_c) by rewrite /orthonormal trmx1 mulmx1.
  have [_ _ _] := svd_trunc svdM eq o1 BE; rewrite mul1mx => ->.
  rewrite (fro2_svd svdM) topv_tail //; apply: le_trans (tail_le (k := k) (t := ct ^+ 2) _ (sqr_ge0 _)) _; first exact: small.
  by rewrite ler_add2r; apply: eckart_young oU oV (svd_abs_sort svdM) rY.
have h2 : fro (M - Uoe *m S *m Voe) <= fro (M - Y) + Num.sqrt q%:R * `|ct|.
  rewrite -(@ler_pexpn2r _ 2) ?nnegrE ?addr_ge0 ?mulr_ge0 ?fro_ge0 ?sqrtr_ge0 //.
  rewrite !sqr_fro sqrrD sqr_fro exprMn sqr_sqrtr ?ler0n // real_normK ?num_real //.
  apply: le_trans h1 _; rewrite ler_add2r ler_addl mulrn_wge0 // mulr_ge0 ?fro_ge0 // mulr_ge0 ?sqrtr_ge0 //.
apply: le_trans h2 _; rewrite ler_add2r.
have -> : M - Y = - (B - M) + (- ((Q^T *m Q - 1%:M) *m B) - Q^T *m ((A - Q *m B) - (A - X))).
  rewrite /Y !mulmxBl !mulmxBr mul1mx mulmxA; move: (Q^T *m Q *m B) (Q^T *m X) (Q^T *m A) M => X1 X2 X3 X4.
  by apply/matrixP=> i j; rewrite !mxE; move: (B i j) (X1 i j) (X2 i j) (X3 i j) (X4 i j) => y0 y1 y2 y3 y4; rring.
apply: le_trans (ler_froD _ _) _; rewrite froN -[X in _ <= X]addrA; apply: ler_add => //.
apply: le_trans (ler_froB _ _) _; rewrite froN; apply: ler_add; first exact: near_mul.
apply: le_trans (near_tr _ e01 nQ) _; rewrite mulrC; apply: ler_wpmul2l => //; exact: ler_froB.
Qed.

Lemma chain_B : fro B <= t * (fro A + E0).
Proof using e01 nQ.
apply: le_trans (near_lo B e01 nQ) _; rewrite mulrC; apply: ler_wpmul2l => //.
have {1}-> : Q *m B = A - (A - Q *m B) by rewrite opprB addrC subrK.
exact: ler_froB.
Qed.

Lemma chain_err (X : 'M[R]_(m, n)) : (\rank X <= k)%N ->
  fro (A - U *m S *m Ve) <=
  (1 + r * t) * E0 + r * t * fro (A - X) + r * Num.sqrt q%:R * `|ct| + fl_svd eta mu u c * fro B.
Proof using e01 mu0 u0 nQ eq qc oU oV s0 ss hB hU hV hQU small.
move=> rX.
have d0 := du_ge0; have hd := chain_dU; have hS := chain_S; have hT := chain_tail rX.
have b0 : 0 <= fro B := fro_ge0 _; have S0 : 0 <= fro S := fro_ge0 _.
have -> : A - U *m S *m Ve = (A - Q *m B) + (Q *m ((B - M) + (M - Uoe *m S *m Voe)) +
    ((Q *m Uoe - U) *m S *m Voe - U *m S *m (Ve - Voe))).
  rewrite [B - M + _]addrA subrK mulmxBr !mulmxBl mulmxBr !mulmxA.
  move: (Q *m B) (Q *m Uoe *m S *m Voe) (U *m S *m Voe) (U *m S *m Ve) => X1 X2 X3 X4.
  by apply/matrixP=> i j; rewrite !mxE; move: (A i j) (X1 i j) (X2 i j) (X3 i j) (X4 i j) => y0 y1 y2 y3 y4; rring.
have p1 : fro (Q *m ((B - M) + (M - Uoe *m S *m Voe))) <=
    r * (mu * fro B + (mu * fro B + eta * fro B + t * (E0 + fro (A - X)) + Num.sqrt q%:R * `|ct|)).
  apply: le_trans (near_up _ eta0 nQ) _; apply: ler_wpmul2l => //.
  by apply: le_trans (ler_froD _ _) _; exact: ler_add.
have fZV p (Z : 'M[R]_(p, e)) : fro (Z *m Voe) = fro Z.
  by rewrite /fro -fro2_trmx trmx_mul (fro2_ortho _ oVoe) fro2_trmx.
have p2 : fro ((Q *m Uoe - U) *m S *m Voe) <= d * ((1 + mu) * fro B).
  rewrite fZV; apply: le_trans (fro_mul_le _ _) _; apply: ler_pmul => //; rewrite ?fro_ge0 //.
  by rewrite -froN opprB.
have p3 : fro (U *m S *m (Ve - Voe)) <= (r + d) * ((1 + mu) * fro B) * mu.
  apply: le_trans (fro_mul_le _ _) _; apply: ler_pmul => //; rewrite ?fro_ge0 //.
  have -> : U *m S = Q *m (Uoe *m S) + (U - Q *m Uoe) *m S by rewrite mulmxBl mulmxA addrC subrK.
  apply: le_trans (ler_froD _ _) _; rewrite [X in _ <= X]mulrDl; apply: ler_add.
    apply: le_trans (near_up _ eta0 nQ) _; apply: ler_wpmul2l => //.
    by rewrite {1}/fro (fro2_ortho _ oUoe) -/(fro _).
  by apply: le_trans (fro_mul_le _ _) _; apply: ler_pmul => //; rewrite fro_ge0.
apply: le_trans (ler_froD _ _) _.
apply: le_trans (ler_add (lexx _) (le_trans (ler_froD _ _) (ler_add p1 (le_trans (ler_froB _ _) (ler_add p2 p3))))) _.
apply: eq_lew; rewrite /fl_svd; move: (fro B) (E0) (fro (A - X)) (d) (r) (t) (Num.sqrt q%:R) `|ct| => y1 y2 y3 y4 y5 y6 y7 y8; rring.
Qed.
End Chain.

(** ** The program. *)
Lemma minz (k q : nat) : Order.min k%:Z q%:Z = (minn k q)%:Z :> int. Proof. by lia. Qed.
Lemma minnn (k q : nat) : minn (minn k q) q = minn k q. Proof. by lia. Qed.

Section Run.
Context {R : rcfType} {T : Type} {O : ops T} {G : Type}.
Variables (v : T -> R) (u mu eta : R) (X : exn -> Prop) (L : lapack T).
Hypotheses (F : fl_arith O v u) (fsvd : svd_fl v X L mu) (mu0 : 0 <= mu) (e01 : 0 <= eta < 1).
Local Notation mV := (@mval R T O v).
Local Notation vV := (@vval R T O v).
Local Notation ct := (v (@cut10 T O)).

Lemma vV_lead c q n e (U V : arr T) s x : lead c q n e U s V x ->
  [/\ mV c e x.1.1 = colblk (mV c q U) 0 e, vV e x.1.2 = topv (vV q s) e & mV e n x.2 = rowblk (mV q n V) 0 e].
Proof.
case=> eq _ _ _ hU hs hV; split; apply/matrixP=> i j; rewrite !mxE add0n.
- by rewrite (mxe_ord _ (ltn_ord i) (leq_trans (ltn_ord j) eq)) mxE hU.
- by rewrite (mxe_ord _ (leq_trans (ltn_ord i) eq) (ltn_ord j)) mxE hs.
by rewrite (mxe_ord _ (leq_trans (ltn_ord i) eq) (ltn_ord j)) mxE hV.
Qed.

Lemma fl_trunc c q n k (over : int) (U V : arr T) s : shaped c q U -> size s = q -> shaped q n V ->
  (forall i j, (i <= j < q)%N -> 0 <= v (ev s j) <= v (ev s i)) ->
  let USV := (U, s, V) in
  safe X (fun x => exists e, [/\ lead c q n e U s V x, 0 < over -> (e <= k)%N &
      forall i, (i < q)%N -> (0 < over -> (i < k)%N) -> (i < e)%N = (ct <= v (ev s i))])
    (let USV :=
       if (0 < over)%R then
         let cutoff := Order.min k%:Z (size USV.1.2)%:Z%R in
         (cslice USV.1.1 0 (pystop (nc USV.1.1) cutoff),
          vslice USV.1.2 0 (pystop (size USV.1.2) cutoff),
          rslice USV.2 0 (pystop (nr USV.2) cutoff))
       else USV in
     let drop := fun x => olt x cut10 in
     if has drop USV.1.2 then
       let keep := mask_idx (fun x => ~~ drop x) USV.1.2 in
       let! U := lift (cidx USV.1.1 keep) in
       let! s := lift (vidx USV.1.2 keep) in
       let! Vh := lift (ridx USV.2 keep) in
       ret (U, s, Vh)
     else ret USV : M G T _).
Proof using F.
move=> sU es sV srt USV; have [[_ u1 u2] [_ v1 v2]] := (sU, sV).
cbv zeta; set W := if 0 < over then _ else _.
have [p pq [lW pk pq']] : exists2 p, (p <= q)%N &
    [/\ lead c q n p U s V W, 0 < over -> (p <= k)%N & forall i, (i < q)%N -> (0 < over -> (i < k)%N) -> (i < p)%N].
  rewrite /W /=; case: ifP => ov; last by exists q => //; split=> //; exact: lead_refl.
  rewrite es u2 v1 minz /= minnn; exists (minn k q); first exact: geq_minr.
  split=> [||i iq ik]; [|by move=> _; exact: geq_minl|by rewrite leq_min iq ik].
  by apply: lead_slice => //; exact: geq_minr.
move: W lW => W lW; have [_ wU ws wV _ wse _] := lW.
pose P (x : T) := ~~ @olt T O x (@cut10 T O).
pose e := count P W.1.2.
have PE x : P x = (ct <= v x) by rewrite /P (fl_lt F) -leNgt.
have cntE : e = count (fun y => ct <= y) [seq v x | x <- W.1.2].
  by rewrite count_map; apply: eq_count => x /=; rewrite PE.
have ep : (e <= p)%N by rewrite -ws count_size.
have cnt i : (i < p)%N -> (i < e)%N = (ct <= v (ev s i)).
  move=> ip; rewrite cntE count_mono ?size_map ?ws //.
  - by rewrite (nth_map (@o0 T O)) ?ws // -/(ev _ _) wse.
  - by move=> x y xy h; exact: le_trans xy.
  move=> a b ab bp; have ap := leq_ltn_trans ab bp.
  rewrite !(nth_map (@o0 T O)) ?ws // -!/(ev _ _) !wse //.
  have abq : (a <= b < q)%N by rewrite ab (leq_trans bp).
  by have /andP[] := srt a b abq.
have fin x : lead c p n e W.1.1 W.1.2 W.2 x -> exists e, [/\ lead c q n e U s V x, 0 < over -> (e <= k)%N &
      forall i, (i < q)%N -> (0 < over -> (i < k)%N) -> (i < e)%N = (ct <= v (ev s i))].
  move=> lx; exists e; split; first exact: lead_trans lW lx.
    by move=> /pk; exact: leq_trans.
  by move=> i iq ik; rewrite cnt // pq'.
case: ifP => hs.
  have -> : mask_idx (fun x => ~~ @olt T O x (@cut10 T O)) W.1.2 = iota 0 e.
    rewrite /mask_idx ws; apply: filter_iota => // i ip.
    by rewrite -[X in X = _]/(P _) PE wse // cnt.
  have [U' [s' [V' [E1 E2 E3 lx]]]] := lead_iota wU ws wV ep.
  rewrite E1 E2 E3; apply: (safe_bind (Q := fun x => x = U')); first exact: safe_lift.
  move=> _ ->; apply: (safe_bind (Q := fun x => x = s')); first exact: safe_lift.
  move=> _ ->; apply: (safe_bind (Q := fun x => x = V')); first exact: safe_lift.
  by move=> _ ->; apply: safe_ret; exact: fin.
apply: safe_ret; apply: fin; have -> : e = p.
  by rewrite -ws; apply/eqP; rewrite -all_count; move: hs => /negbT; rewrite -all_predC.
by case: (W) wU ws wV => [[U1 s1] V1] /= *; exact: lead_refl.
Qed.

Lemma fl_SVD1 (qb : @qbdec T G) m n (A : arr T) k tol (over : int) (PQ : nat -> arr T -> arr T -> Prop) : (0 < n)%N ->
  safe X (fun QB => exists2 c, (0 < c)%N & [/\ shaped m c QB.1, shaped c n QB.2, near_ortho eta (mV m c QB.1) & PQ c QB.1 QB.2])
    (qb A (k%:Z + over) tol) ->
  let r := Num.sqrt (1 + eta) in let t := (Num.sqrt (1 - eta))^-1 in let Am := mV m n A in
  safe X (fun x => exists c Q B e, [/\ PQ c Q B /\ (e <= minn c n)%N, 0 < over -> (e <= k)%N,
    [/\ shaped m e x.1.1, size x.1.2 = e & shaped e n x.2],
    [/\ forall i, (i < e)%N -> 0 <= v (ev x.1.2 i) /\ ct <= v (ev x.1.2 i),
        forall i j, (i <= j < e)%N -> v (ev x.1.2 j) <= v (ev x.1.2 i),
        near_ortho (eta + fl_du eta mu u c * (r + t + fl_du eta mu u c)) (mV m e x.1.1) &
        near_ortho (mu * (2%:R + mu)) (mV e n x.2)^T] &
    let E0 := fro (Am - mV m c Q *m mV c n B) in
    fro (mV c n B) <= t * (fro Am + E0) /\
    forall Y : 'M[R]_(m, n), (\rank Y <= k)%N ->
      fro (Am - mV m e x.1.1 *m diag_mx (vV e x.1.2)^T *m mV e n x.2) <=
      (1 + r * t) * E0 + r * t * fro (Am - Y) + r * Num.sqrt (minn c n)%:R * `|ct| + fl_svd eta mu u c * fro (mV c n B)])
    (SVD1 L qb A k%:Z tol over).
Proof using F fsvd mu0 e01.
move=> n0 hqb r t Am; rewrite /SVD1; apply: safe_bind hqb _ => -[Q B] /= [c c0 [sQ sB nQ pQB]].
apply: (safe_bind (safe_lift (fsvd c0 n0 sB))) => -[[U s] V] /= [sU es sV srt [Uo [Vo [oU oV hU hV hB]]]].
apply: safe_bind (fl_trunc k over sU es sV srt) _ => x [e [lx ek cte]].
have [mU mS mVe] := vV_lead lx; have [eq xU xs xV _ xse _] := lx.
apply: (safe_bind (safe_lift (fl_mmul F X sQ xU))) => U1 [sU1 hU1]; apply: safe_ret.
have u0 := fl_u0 F.
have hUe : fro (mV c e x.1.1 - colblk Uo 0 e) <= mu by rewrite mU; apply: le_trans hU; exact: colblk_le.
have hVe : fro (mV e n x.2 - rowblk Vo 0 e) <= mu by rewrite mVe; apply: le_trans hV; exact: rowblk_le.
set sv := vV (minn c n) s.
have s0 i : 0 <= sv i 0.
  by rewrite mxE; have /andP[] := srt i i (introT andP (conj (leqnn i) (ltn_ord i))).
have ss (i j : 'I_(minn c n)) : (i <= j)%N -> sv j 0 <= sv i 0.
  by move=> ij; rewrite !mxE; have /andP[] := srt i j (introT andP (conj ij (ltn_ord j))).
have small (i : 'I_(minn c n)) : (e <= i < k)%N -> sv i 0 ^+ 2 <= ct ^+ 2.
  move=> /andP[ei ik]; have := cte i (ltn_ord i) (fun _ => ik); rewrite ltnNge ei /= => /esym/negbT.
  rewrite -ltNge => /ltW h; have h0 := s0 i; rewrite mxE in h0; rewrite mxE.
  by apply: ler_expn2r; rewrite ?nnegrE // (le_trans h0).
have qc : (minn c n <= c)%N := geq_minl _ _.
have hdu := chain_dU e01 mu0 u0 nQ eq qc oU hUe hU1.
have d0 := du_ge0 c eta mu0 u0.
exists c, Q, B, e; split=> //.
- split.
  + move=> i ie; rewrite /= xse //; have iq := leq_trans ie eq.
    have /andP[h _] := srt i i (introT andP (conj (leqnn i) iq)); split=> //.
    by rewrite -cte // => ov; exact: leq_trans (ek ov).
  + move=> i j /andP[ij je]; rewrite /= !xse ?(leq_ltn_trans ij) //.
    by have /andP[] := srt i j (introT andP (conj ij (leq_trans je eq))).
  + rewrite /= -[mV m e U1](subrK (mV m c Q *m colblk Uo 0 e)) [X in near_ortho _ X]addrC.
    by apply: near_pert => //; apply: near_ext => //; exact: oUoe.
  rewrite /= -[mV e n x.2](subrK (rowblk Vo 0 e)) [X in near_ortho _ X^T]addrC linearD /=.
  have := near_pert (d := mu) (eta := 0) (Q := (rowblk Vo 0 e)^T) (D := (mV e n x.2 - rowblk Vo 0 e)^T).
  rewrite lexx ltr01 addr0 subr0 sqrtr1 invr1 add0r => /(_ isT mu0).
  have -> : (1 + 1 + mu : R) = 2%:R + mu by rewrite -[2%N]/(1 + 1)%N natrD.
  apply; first by apply: near0 => //; exact: oVoe.
  by rewrite /fro fro2_trmx.
split; first exact: chain_B e01 nQ.
move=> Y rY /=; rewrite mS; exact: (chain_err Am e01 mu0 u0 nQ eq qc oU oV s0 ss hB hUe hVe hU1 small rY).
Qed.
End Run.
