(** Proofs of C107: triangular solves and interpolative decompositions in rounded arithmetic. *)
From mathcomp Require Import all_ssreflect all_algebra.
From mathcomp Require Import zify.
From Verif Require Import Base Arr Lapack Exact MxLib RingTac LapackSpec Rng Aware RangeFinders QB Interp Shape Inexact Float FloatInterp.
From Verif Require Import P_Interp P_Shape P_Inexact P_Float P_Float2 P_Float3.
Set Implicit Arguments.
Unset Strict Implicit.
Unset Printing Implicit Defensive.
Import Order.TTheory GRing.Theory Num.Theory.
Local Open Scope ring_scope.

Lemma sum_upto (R : rcfType) n i (f : nat -> R) : (i < n)%N ->
  \sum_(l < n) (if (l <= i)%N then f l else 0) = \sum_(l < i) f l + f i.
Proof.
by move=> hi; rewrite -big_mkcond -(big_ord_widen n f hi) big_ord_recr.
Qed.

Lemma sum_split (R : rcfType) n k (f : nat -> R) : (k <= n)%N ->
  \sum_(j < n) f j = \sum_(j < k) f j + \sum_(j < n - k) f (k + j)%N.
Proof.
move=> kn; move: (n - k)%N (subnKC kn) => p <-; by rewrite big_split_ord.
Qed.

Section Tri.
Context {R : rcfType} {T : Type} {O : ops T}.
Variables (v : T -> R) (u : R).
Hypothesis F : fl_arith O v u.
Add Field tri_field : (rcf_field R).
Let u0 := fl_u0 F.
Let u1 := fl_u1 F.

Lemma fl_tri_ge0 n : 0 <= fl_tri u n.
Proof using F.
have p : 0 < 1 - u by rewrite subr_gt0.
rewrite addr_ge0 ?gam_ge0 // subr_ge0 exprn_ege1 // invr_ge1 ?unitfE ?gt_eqF ?inE ?p //.
  by rewrite ler_subl_addr ler_addl.
Qed.
Lemma fl_tri_le p q : (p <= q)%N -> fl_tri u p <= fl_tri u q.
Proof using F. by move=> pq; rewrite ler_add2r gam_le. Qed.

(** Rounding a number and undoing it. *)
Lemma fl_inv (x y : R) : `|x - y| <= u * `|y| -> `|y - x| <= ((1 - u)^-1 - 1) * `|x|.
Proof using F.
move=> h; have p : 0 < 1 - u by rewrite subr_gt0.
have yx : `|y| <= (1 - u)^-1 * `|x|.
  rewrite mulrC ler_pdivl_mulr // mulrBr mulr1 ler_subl_addr -ler_subl_addl; apply: le_trans (ler_sub_dist _ _) _.
  by rewrite distrC mulrC.
rewrite distrC; apply: le_trans h _; apply: le_trans (ler_wpmul2l u0 yx) _.
rewrite mulrA ler_wpmul2r //; apply: eq_lew.
by rewrite -[X in _ = _ - X](@divff _ (1 - u)) ?gt_eqF // -{2}[(1 - u)^-1]mul1r -mulrBl opprB addrCA subrr addr0.
Qed.

Lemma fl_fsub n (Lo : nat -> nat -> T) (b : nat -> T) (i : 'I_n) : (forall i, (i < n)%N -> v (Lo i i) != 0) ->
  let x := fsub Lo b n in let a l := if (l <= i)%N then v (Lo i l) else 0 in
  is_true (`|v (b i) - \sum_(l < n) a l * v (ev x l)| <= fl_tri u n * \sum_(l < n) `|a l| * `|v (ev x l)|).
Proof using F.
move=> dg x a.
have aE (f : nat -> R) : \sum_(l < n) a l * f l = \sum_(l < i) v (Lo i l) * f l + v (Lo i i) * f i.
  rewrite -(@sum_upto R n i (fun l => v (Lo i l) * f l)) //; apply: eq_bigr => l _.
  by rewrite /a; case: ifP; rewrite ?mul0r.
have aN (f : nat -> R) : \sum_(l < n) `|a l| * f l = \sum_(l < i) `|v (Lo i l)| * f l + `|v (Lo i i)| * f i.
  rewrite -(@sum_upto R n i (fun l => `|v (Lo i l)| * f l)) //; apply: eq_bigr => l _.
  by rewrite /a; case: ifP; rewrite ?normr0 ?mul0r.
rewrite (aE (fun l => v (ev x l))) (aN (fun l => `|v (ev x l)|)).
have xi := @fsubS T O Lo b _ _ (ltn_ord i); rewrite -/x in xi.
set s := osum i _ in xi.
set sg := \sum_(l < i) v (Lo i l) * v (ev x l); set ab := \sum_(l < i) `|v (Lo i l)| * `|v (ev x l)|.
have hs : `|v s - sg| <= gam u i.+1 * ab.
  have h (l : 'I_i) : rel u 1 (v (omul (Lo i l) (ev x l))) (v (Lo i l) * v (ev x l)) by exact: rel_mul1.
  have := fl_osum_rel F (f := fun l => omul (Lo i l) (ev x l)) h; rewrite addn1 => /le_trans; apply.
  by apply: eq_lew; congr (_ * _); apply: eq_bigr => l _; rewrite normrM.
have di := dg i (ltn_ord i).
have h1 := fl_inv (fl_sub F (b i) s).
have h2 := fl_inv (fl_div F (@osub T O (b i) s) di).
rewrite -xi in h2.
move: h1 h2; set d := v (@osub T O _ _) => h1 h2.
have h3 : `|d - v (Lo i i) * v (ev x i)| <= ((1 - u)^-1 - 1) * `|v (Lo i i) * v (ev x i)|.
  have -> : d - v (Lo i i) * v (ev x i) = v (Lo i i) * (d / v (Lo i i) - v (ev x i)).
    by rewrite mulrBr mulrCA divff // mulr1.
  by rewrite !normrM mulrCA ler_wpmul2l.
set w := v (Lo i i) * v (ev x i) in h3 *.
have c0 : 0 <= (1 - u)^-1 - 1.
  by rewrite subr_ge0 invr_ge1 ?unitfE ?gt_eqF ?inE ?subr_gt0 // ler_subl_addr ler_addl.
have h4 : `|v (b i) - v s - w| <= ((1 - u)^-1 ^+ 2 - 1) * `|w|.
  have dw : `|d| <= (1 - u)^-1 * `|w|.
    rewrite -[d](subrK w); apply: le_trans (ler_norm_add _ _) _.
    by apply: le_trans (ler_add h3 (lexx _)) _; rewrite mulrBl mul1r subrK.
  rewrite -(subrK d (v (b i) - v s)) -addrA; apply: le_trans (ler_norm_add _ _) _.
  apply: le_trans (ler_add (le_trans h1 (ler_wpmul2l c0 dw)) h3) _.
  by apply: eq_lew; move: ((1 - u)^-1) (`|w|) => z y; rring.
have -> : v (b i) - (sg + w) = (v (b i) - v s - w) + (v s - sg) by rring.
apply: le_trans (ler_norm_add _ _) _.
have ab0 : 0 <= ab by apply: sumr_ge0 => l _; rewrite mulr_ge0.
have c2 : 0 <= (1 - u)^-1 ^+ 2 - 1 by rewrite subr_ge0 exprn_ege1 // -subr_ge0.
rewrite mulrDr addrC -normrM -/w; apply: ler_add.
  apply: le_trans hs _; rewrite ler_wpmul2r //; apply: le_trans (@fl_tri_le i n _) => //; last exact: ltnW.
  by rewrite ler_addl.
by apply: le_trans h4 _; rewrite ler_wpmul2r // ler_addr gam_ge0.
Qed.

Lemma fl_tri_vec lower trans n (U : arr T) (b : nat -> T) (i : 'I_n) :
  shaped n n U -> (forall i, (i < n)%N -> v (el U i i) != 0) ->
  let x := tri_vec lower trans U b in let a := tri_val v lower trans n U in
  is_true (`|v (b i) - \sum_l a i l * v (ev x l)| <= fl_tri u n * \sum_l `|a i l| * `|v (ev x l)|).
Proof using F.
move=> [_ nU _] dg x a; rewrite {}/x {}/a /tri_vec nU; case: ifP => lt.
  have := @fl_fsub n (fun i j => if trans then @el T O U j i else @el T O U i j) b i.
  have hd j : (j < n)%N -> v (if trans then el U j j else el U j j) != 0 by move=> /dg; case: trans {lt}.
  move=> /(_ hd) /=; set y := fsub _ _ _ => h.
  rewrite (eq_bigr (fun l : 'I_n => (if (l <= i)%N then v (if trans then @el T O U l i else @el T O U i l) else 0) * v (@ev T O y l))).
    apply: le_trans h _; rewrite ler_wpmul2l ?fl_tri_ge0 //; apply: eq_lew; apply: eq_bigr => l _.
    by rewrite mxE lt.
  by move=> l _; rewrite mxE lt.
set Lo := (X in fsub X _ _); set bb := (X in fsub _ X _).
have hd j : (j < n)%N -> v (Lo j j) != 0.
  move=> hj; have : (n.-1 - j < n)%N by clear -hj; lia.
  by move=> /dg; rewrite /Lo; case: (trans).
have := @fl_fsub n Lo bb (rev_ord i) hd; rewrite /=; set y := fsub _ _ _ => h.
have bE : bb (n - i.+1)%N = b i by rewrite /bb; congr b; have := ltn_ord i; clear; lia.
have rE (l : 'I_n) : @ev T O (rev y) l = @ev T O y (rev_ord l).
  by rewrite /ev nth_rev size_fsub.
have aE (l : 'I_n) : (if (rev_ord l <= n - i.+1)%N then v (Lo (n - i.+1)%N (rev_ord l)) else 0) = tri_val v lower trans n U i l.
  rewrite mxE lt /= (_ : (n - l.+1 <= n - i.+1) = (i <= l))%N; last by have := ltn_ord l; have := ltn_ord i; clear; lia.
  have zE (z : 'I_n) : (n.-1 - (n - z.+1) = z)%N by have := ltn_ord z; clear; lia.
  by case: ifP => // il; rewrite /Lo !zE.
rewrite -bE (eq_bigr (fun l : 'I_n => (if (rev_ord l <= n - i.+1)%N then v (Lo (n - i.+1)%N (rev_ord l)) else 0) * v (@ev T O y (rev_ord l)))); last first.
  by move=> l _; rewrite aE rE.
rewrite -(reindex_inj rev_ord_inj (F := fun l : 'I_n => (if (l <= n - i.+1)%N then v (Lo (n - i.+1)%N l) else 0) * v (@ev T O y l)) (P := xpredT)).
apply: le_trans h _; rewrite ler_wpmul2l ?fl_tri_ge0 // (reindex_inj rev_ord_inj); apply: eq_lew; apply: eq_bigr => l _.
by rewrite /= aE rE.
Qed.

Lemma fl_solve_tri (X : exn -> Prop) lower trans n p (U B : arr T) : X LinAlgError -> shaped n n U -> shaped n p B ->
  rsafe X (fun Z => shaped n p Z /\
    fro (mval v n p B - tri_val v lower trans n U *m mval v n p Z) <=
    fl_tri u n * (fro (tri_val v lower trans n U) * fro (mval v n p Z))) (solve_tri lower trans U B).
Proof using F.
move=> xl sU sB; have [_ a1 a2] := sU; have [_ b1 b2] := sB.
rewrite /solve_tri /tri_check a1 a2 b1 b2 eqxx /=; case: ifP => [_ //|hd] /=.
have dg i : (i < n)%N -> v (el U i i) != 0.
  move=> hi; apply/negP=> e0; move/negP: hd; apply; apply/hasP; exists i; first by rewrite mem_iota.
  by rewrite (fl_eq F) (fl_0 F).
split; first exact: sh_mk.
set Z := mk _ _ _; set Tv := tri_val _ _ _ _ _.
have hm := fro_mul_le (absm Tv) (absm (@mval R T O v n p Z)); rewrite !fro_abs in hm.
apply: le_trans (ler_wpmul2l (fl_tri_ge0 n) hm); apply: fro_dom; first exact: fl_tri_ge0.
move=> i j; rewrite !mxE.
have := @fl_tri_vec lower trans n U (fun i => @el T O B i j) i sU dg => /=.
set x := tri_vec _ _ _ _ => h.
have zE (l : 'I_n) : @mval R T O v n p Z l j = v (@ev T O x l).
  by rewrite /Z mval_mk mxE nth_mkseq.
under eq_bigr do rewrite zE.
apply: le_trans h _; rewrite ler_wpmul2l ?fl_tri_ge0 //; apply: le_trans (ler_norm _); apply: eq_lew.
by apply: eq_bigr => l _; rewrite !mxE -zE !mxE.
Qed.
End Tri.

(** The interpolation error in permuted coordinates. *)
Section Core.
Variable R : rcfType.
Add Field core_field : (rcf_field R).

(** The first k columns of an identity matrix. *)
Definition lead n k : 'M[R]_(n, k) := \matrix_(i, j) ((i : nat) == j)%:R.
Lemma mul_lead m n k (A : 'M[R]_(m, n)) (kn : (k <= n)%N) : A *m lead n k = \matrix_(i, j) A i (widen_ord kn j).
Proof.
apply/matrixP=> i j; rewrite !mxE (bigD1 (widen_ord kn j)) //= mxE eqxx mulr1 big1 ?addr0 // => l lj.
by rewrite mxE; case: eqP => [e|]; rewrite ?mulr0 //; case/eqP: lj; apply: val_inj.
Qed.
Lemma fro_sub m n m' n' (A : 'M[R]_(m, n)) (f : 'I_m' -> 'I_m) (g : 'I_n' -> 'I_n) : injective f -> injective g ->
  fro (\matrix_(i, j) A (f i) (g j)) <= fro A.
Proof.
move=> fi gi; rewrite ler_wsqrtr // /fro2.
have inj_le p q (h : 'I_p -> 'I_q) (a : 'I_q -> R) : injective h -> (forall i, 0 <= a i) -> \sum_i a (h i) <= \sum_i a i.
  move=> hi a0; have <- : \sum_(j in h @: [set: 'I_p]) a j = \sum_i a (h i).
    by rewrite big_imset; [apply: eq_bigl => x; rewrite inE | move=> x y _ _ /hi].
  by rewrite [X in _ <= X](bigID (mem (h @: [set: 'I_p]))) /= ler_addl; exact: sumr_ge0.
apply: le_trans (inj_le _ _ f (fun i => \sum_j A i j ^+ 2) fi _); last by move=> i; apply: sumr_ge0 => j _; exact: sqr_ge0.
apply: ler_sum => i _; under eq_bigr do rewrite mxE.
by apply: (inj_le _ _ g (fun j => A (f i) j ^+ 2) gi) => j; exact: sqr_ge0.
Qed.

Lemma fro_lead m n k (A : 'M[R]_(m, n)) : (k <= n)%N -> fro (A *m lead n k) <= fro A.
Proof.
move=> kn; rewrite (mul_lead _ kn); apply: (@fro_sub _ _ _ _ A id (widen_ord kn)) => //.
by move=> x y /(congr1 val) /= e; apply: val_inj.
Qed.

Lemma id_core (eta dl ft : R) m n q k (Y : 'M[R]_(m, n)) (Q : 'M[R]_(m, q)) (S : 'M[R]_(q, n)) (V W : 'M[R]_(k, n)) :
  0 <= eta < 1 -> 0 <= ft -> (k <= n)%N -> near_ortho eta Q -> fro (Y - Q *m S) <= dl * fro Y ->
  (forall (i : 'I_q) j, (k <= i)%N -> (S *m lead n k) i j = 0) ->
  fro (\matrix_(i, j) if (i < k)%N then (S - S *m lead n k *m V) i j else 0) <= ft * (fro S * fro V) ->
  let r := Num.sqrt (1 + eta) in let t := (Num.sqrt (1 - eta))^-1 in
  is_true (fro (Y - Y *m lead n k *m V) <= r * t * fro (Y - Y *m lead n k *m W) +
    (r * (ft * (t * (1 + dl)) * fro V + t * dl * (1 + fro W)) + dl * (1 + fro V)) * fro Y).
Proof.
move=> e01 ft0 kn nQ hY hz ht r t; have [e0 e1] := andP e01.
set E := lead n k in hz ht *.
have t0 : 0 <= t by rewrite invr_ge0 sqrtr_ge0.
have r0 : 0 <= r by exact: sqrtr_ge0.
have y0 := fro_ge0 Y.
pose D (M : 'M[R]_(q, n)) := \matrix_(i, j) if (i < k)%N then M i j else 0.
have resE (Z : 'M[R]_(k, n)) : fro ((Y - Q *m S) - (Y - Q *m S) *m E *m Z) <= dl * fro Y * (1 + fro Z).
  apply: le_trans (ler_froB _ _) _; rewrite mulrDr mulr1; apply: ler_add => //.
  apply: le_trans (fro_mul_le _ _) _; apply: ler_wpmul2r; first exact: fro_ge0.
  by apply: le_trans hY; exact: fro_lead.
have splitE (Z : 'M[R]_(k, n)) : Y - Y *m E *m Z = ((Y - Q *m S) - (Y - Q *m S) *m E *m Z) + Q *m (S - S *m E *m Z).
  rewrite !mulmxBl mulmxBr !mulmxA; move: (Q *m S) (Y *m E *m Z) => a b.
  by move: (a *m E *m Z) => c; apply/matrixP=> i j; rewrite !mxE; move: (a i j) (b i j) (c i j) (Y i j) => x y z w; rring.
have sS : fro S <= t * (1 + dl) * fro Y.
  apply: le_trans (near_lo S e01 nQ) _; rewrite mulrC -mulrA ler_wpmul2l // mulrDl mul1r.
  rewrite -[Q *m S](subKr Y); apply: le_trans (ler_froB _ _) _; exact: ler_add.
have lowE : fro (S - S *m E *m V) <= fro (D (S - S *m E *m V)) + fro (S - S *m E *m W).
  have := ler_froD (D (S - S *m E *m V)) ((S - S *m E *m V) - D (S - S *m E *m V)); rewrite addrC subrK => /le_trans; apply.
  rewrite ler_add2l -[X in _ <= X]mul1r; apply: fro_dom; first exact: ler01.
  move=> i j.
  rewrite mul1r [X in X <= _](_ : _ = `|if (i < k)%N then 0 else S i j|); last first.
    rewrite !mxE; case: ltnP => [_|ki]; first by rewrite subrr.
    by rewrite subr0 big1 ?subr0 // => l _; rewrite hz ?mul0r.
  case: ltnP => [_|ki]; first by rewrite normr0.
  by rewrite !mxE big1 ?subr0 // => l _; rewrite hz ?mul0r.
rewrite splitE; apply: le_trans (ler_froD _ _) _.
have h1 : fro (Q *m (S - S *m E *m V)) <= r * (ft * (t * (1 + dl) * fro Y * fro V) +
    t * (fro (Y - Y *m E *m W) + dl * fro Y * (1 + fro W))).
  apply: le_trans (near_up _ e0 nQ) _; apply: ler_wpmul2l => //; apply: le_trans lowE _; apply: ler_add.
    by apply: le_trans ht _; apply: ler_wpmul2l => //; apply: ler_wpmul2r sS; exact: fro_ge0.
  apply: le_trans (near_lo _ e01 nQ) _; rewrite mulrC ler_wpmul2l //.
  have -> : Q *m (S - S *m E *m W) = (Y - Y *m E *m W) - ((Y - Q *m S) - (Y - Q *m S) *m E *m W).
    by rewrite (splitE W) [RHS]addrAC subrr add0r.
  by apply: le_trans (ler_froB _ _) _; rewrite ler_add2l.
apply: le_trans (ler_add (resE V) h1) _; apply: eq_lew.
by move: (fro Y) (fro V) (fro W) (fro _) => a b c d; rring.
Qed.
End Core.

Section Qrcp.
Context {R : rcfType} {T : Type} {O : ops T}.
Variables (v : T -> R) (u : R) (X : exn -> Prop) (L : lapack T) (eta dl : R).
Hypotheses (F : fl_arith O v u) (qrL : qrp_fl v X L eta dl) (e01 : 0 <= eta < 1).
Local Notation mv := (@mval R T O v).

Lemma el_hstack k p (A B V : arr T) i j : shaped k k A -> shaped k p B -> hstack A B = Ok V -> (i < k)%N -> (j < k + p)%N ->
  el V i j = if (j < k)%N then el A i j else el B i (j - k).
Proof using. by case=> _ a1 a2 [_ b1 b2]; rewrite /hstack a1 b1 eqxx a2 b2 => -[<-] hi hj; rewrite el_mk. Qed.

Lemma el_set_cidx k n (Z V Z' : arr T) J i j : shaped k n Z -> shaped k n V -> perm_eq J (iota 0 n) ->
  set_cidx Z J V = Ok Z' -> (i < k)%N -> (j < n)%N -> el Z' i (nth 0%N J j) = el V i j.
Proof using.
case=> _ z1 z2 [_ v1 v2] pJ; have sJ : size J = n by rewrite (perm_size pJ) size_iota.
have aJ : all (fun j => (j < n)%N) J by apply/allP=> l; rewrite (perm_mem pJ) mem_iota => /andP[].
have uJ : uniq J by rewrite (perm_uniq pJ) iota_uniq.
rewrite /set_cidx z1 z2 v1 v2 aJ sJ !eqxx /= => -[<-] hi hj.
have mJ : nth 0%N J j \in J by rewrite mem_nth ?sJ.
by rewrite el_mk ?(allP aJ) // lastpos_index // index_uniq ?sJ.
Qed.

Lemma fl_qrcp m n k (Y : arr T) : X LinAlgError -> (0 < k)%N -> (k <= minn m n)%N -> shaped m n Y ->
  rsafe X (id_ok v eta dl u m n k Y) (qrcp_cols L Y k).
Proof using F qrL e01.
move=> xl k0; rewrite leq_min => /andP[km kn] sY; have [_ _ eY] := sY.
have kq : (k <= minn m n)%N by rewrite leq_min km kn.
apply: rsafe_bind (qrL (leq_trans k0 km) (leq_trans k0 kn) sY) _ => -[[Q S] J] /= [sQ sS pJ nQ [ut hr]]; cbv zeta.
have sSk : shaped k n (rslice S 0 k) by apply: (sh_rslice sS); rewrite /slen; clear -kq; lia.
have [_ _ eSk] := sSk; rewrite eSk eY.
have s1 : shaped k k (cslice (rslice S 0 k) 0 k) by apply: (sh_cslice sSk); rewrite /slen; clear -kn; lia.
have s2 : shaped k (n - k) (cslice (rslice S 0 k) k n) by apply: (sh_cslice sSk); rewrite /slen; clear -kn; lia.
have [[_ nrS ncS] [_ nr1 nc1] [_ nr2 nc2]] := And3 sS s1 s2.
have elk i j : (i < k)%N -> (j < n)%N -> @el T O (rslice S 0 k) i j = @el T O S i j.
  move=> hi hj; rewrite /rslice el_mk ?ncS // nrS ?min0n ?add0n // /slen; clear -hi kq; lia.
have el1 i j : (i < k)%N -> (j < k)%N -> @el T O (cslice (rslice S 0 k) 0 k) i j = @el T O S i j.
  move=> hi hj; have hn := leq_trans hj kn; rewrite /cslice el_mk; first by rewrite min0n add0n elk.
    by case: sSk => _ -> _.
  by rewrite eSk /slen; clear -hj kn; lia.
have el2 i j : (i < k)%N -> (j < n - k)%N -> @el T O (cslice (rslice S 0 k) k n) i j = @el T O S i (k + j)%N.
  move=> hi hj; have hn : (k + j < n)%N by clear -hj; lia.
  rewrite /cslice el_mk; first by rewrite eSk (minn_idPl kn) elk.
    by case: sSk => _ -> _.
  by rewrite eSk /slen; clear -hj kn; lia.
apply: rsafe_bind (fl_solve_tri F false false xl s1 s2) _ => St [sSt hSt].
have sE : shaped k k (meye k : arr T) by exact: sh_mk.
have := sh_hstack X sE sSt; case EV : (hstack _ _) => [e //|V] /=; rewrite subnKC // => sV.
have sJ : size J = n by rewrite (perm_size pJ) size_iota.
have aJ : all (fun j => j < n)%N J by apply/allP=> j; rewrite (perm_mem pJ) mem_iota => /andP[].
have uJ : uniq J by rewrite (perm_uniq pJ) iota_uniq.
have sZ : shaped k n (mzeros k n : arr T) by exact: sh_mk.
have sV' : shaped k (size J) V by rewrite sJ.
have := sh_set_cidx X sZ sV' aJ; case EZ : (set_cidx _ _ _) => [e //|Z] /= sZ'.
have elZ i j : (i < k)%N -> (j < n)%N -> @el T O Z i (nth 0%N J j) = @el T O V i j by exact: (el_set_cidx sZ sV pJ EZ).
have elV i j : (i < k)%N -> (j < n)%N -> @el T O V i j = if (j < k)%N then @el T O (meye k) i j else @el T O St i (j - k).
  by move=> hi hj; apply: (el_hstack sE sSt EV hi); rewrite subnKC.
have jn (j : 'I_n) : (nth 0%N J j < n)%N by apply: (allP aJ); rewrite mem_nth ?sJ.
pose p (j : 'I_n) := Ordinal (jn j).
have pinj : injective p.
  by move=> i j /(congr1 val) /= /eqP; rewrite nth_uniq ?sJ // => /eqP e; apply: val_inj.
pose cp c (M : 'M[R]_(c, n)) : 'M[R]_(c, n) := \matrix_(i, j) M i (p j).
have fcp c (M : 'M[R]_(c, n)) : fro (cp c M) = fro M.
  rewrite /fro /fro2; congr Num.sqrt; apply: eq_bigr => i _; rewrite [RHS](reindex_inj pinj).
  by apply: eq_bigr => j _; rewrite mxE.
have cpB c (A B : 'M[R]_(c, n)) : cp c (A - B) = cp c A - cp c B by apply/matrixP=> i j; rewrite !mxE.
have cpM c d (A : 'M[R]_(c, d)) (B : 'M[R]_(d, n)) : cp c (A *m B) = A *m cp d B.
  by apply/matrixP=> i j; rewrite !mxE; apply: eq_bigr => l _; rewrite mxE.
have nT (j : 'I_k) : nth 0%N (take k J) j = nth 0%N J j by rewrite nth_take.
have cE : cols_at v m k Y (take k J) = cp m (mv m n Y) *m lead R n k.
  by rewrite (mul_lead _ kn); apply/matrixP=> i j; rewrite !mxE nT.
have vE : cp k (mv k n Z) = mv k n V by apply/matrixP=> i j; rewrite !mxE elZ.
split=> //=; first exact: skel_take.
  apply/matrixP=> i j; rewrite !mxE nT.
  have jn' := leq_trans (ltn_ord j) kn; rewrite elZ // elV // ltn_ord el_mk // -val_eqE /=.
  by case: ifP; rewrite ?(fl_1 F) ?(fl_0 F).
move=> W; rewrite cE -!(fcp m (_ - _)) !cpB !cpM vE.
have h := @id_core R eta dl (fl_tri u k) m n (minn m n) k (cp m (mv m n Y)) (mv m _ Q) (mv _ n S) (mv k n V) (cp k W) e01
  (fl_tri_ge0 F k) kn nQ.
rewrite -(fcp k (mv k n Z)) vE -(fcp k W) /fl_id -(fcp m (mv m n Y)).
apply: h.
- rewrite fcp; apply: le_trans hr; apply: eq_lew; congr (fro (_ - _)); apply/matrixP=> i j; rewrite !mxE //.
- move=> i j ki; rewrite (mul_lead _ kn) !mxE ut // ltn_ord andbT; exact: leq_trans (ltn_ord j) ki.
have sub1 : fro (tri_val v false false k (cslice (rslice S 0 k) 0 k)) <= fro (mv (minn m n) n S).
  have -> : tri_val v false false k (cslice (rslice S 0 k) 0 k) = \matrix_(i, j) mv (minn m n) n S (widen_ord kq i) (widen_ord kn j).
    apply/matrixP=> i j; rewrite !mxE /= el1 //; case: leqP => // ji; rewrite ut //= ji /=; exact: leq_trans (ltn_ord i) kq.
  by apply: fro_sub => a b /(congr1 val) /= e; apply: val_inj.
have jk (j : 'I_(n - k)) : (k + j < n)%N by have := ltn_ord j; clear; lia.
have sub2 : fro (mv k (n - k) St) <= fro (mv k n V).
  have -> : mv k (n - k) St = \matrix_(i, j) mv k n V (id i) (Ordinal (jk j)).
    by apply/matrixP=> i j; rewrite !mxE /= elV // ltnNge leq_addr /= addKn.
  by apply: fro_sub => // a b /(congr1 val) /= /addnI e; apply: val_inj.
apply: le_trans (ler_wpmul2l (fl_tri_ge0 F k) (ler_pmul (fro_ge0 _) (fro_ge0 _) sub1 sub2)).
apply: le_trans hSt; rewrite /fro ler_wsqrtr //; apply: eq_lew; rewrite /fro2.
pose d i j := v (@el T O S i j) - \sum_(l < k) v (@el T O S i l) * v (@el T O V l j).
rewrite (eq_bigr (fun i : 'I_(minn m n) => if (i < k)%N then \sum_(j < n) d i j ^+ 2 else 0)); last first.
  move=> i _; case: ltnP => ik; last by rewrite big1 // => j _; rewrite mxE ltnNge ik /= expr0n.
  by apply: eq_bigr => j _; rewrite mxE ik (mul_lead _ kn) !mxE; congr ((_ - _) ^+ 2); apply: eq_bigr => l _; rewrite !mxE.
rewrite -big_mkcond -(big_ord_widen _ (fun i => \sum_(j < n) d i j ^+ 2) kq); apply: eq_bigr => i _.
have iq : (i < minn m n)%N := leq_trans (ltn_ord i) kq.
rewrite (sum_split (fun j => d i j ^+ 2) kn) [X in X + _]big1 ?add0r.
  apply: eq_bigr => j _; rewrite !mxE el2 //; congr ((_ - _) ^+ 2); apply: eq_bigr => l _; rewrite !mxE /= el1 //.
  by rewrite elV // ltnNge leq_addr /= addKn; case: leqP => // li; rewrite ut // li iq.
move=> j _; have jn' := leq_trans (ltn_ord j) kn.
rewrite /d (bigD1 j) //= elV // ltn_ord el_mk // eqxx (fl_1 F) mulr1 big1 ?addr0 ?subrr ?expr0n // => l lj.
by rewrite elV // ltn_ord el_mk // val_eqE (negPf lj) (fl_0 F) mulr0.
Qed.

Lemma rid_of_id m n k (Y : arr T) (XJ : arr T * seq nat) : shaped m n Y -> (0 < k)%N ->
  id_ok v eta dl u n m k (mtr Y) XJ -> rid_ok v eta dl u m n k Y (mtr XJ.1, XJ.2).
Proof using.
case: XJ => Z J sY k0 [/= sZ sk c1 h].
have [szJ _ /allP aJ] := sk.
have jm (j : 'I_k) : (nth 0%N J j < m)%N by apply: aJ; rewrite mem_nth ?szJ.
have cE : cols_at v n k (mtr Y) J = (rows_at v k n Y J)^T.
  by apply/matrixP=> i j; rewrite !mxE; case: (sY) => _ a b; rewrite /mtr el_mk ?a ?b.
have tZ := mval_tr v sZ; have tY := mval_tr v sY.
have fT a b (A : 'M[R]_(a, b)) : fro A^T = fro A by rewrite /fro fro2_trmx.
split=> //=; first exact: sh_mtr.
  rewrite -[LHS]trmxK -(trmx1 _ k); congr trmx; rewrite -c1; apply/matrixP=> i j; rewrite !mxE.
  by case: (sZ) => _ a b; rewrite /mtr el_mk ?a ?b.
move=> W; have := h W^T; rewrite cE tY tZ !fT.
rewrite -[in X in X -> _](fT _ _ (_ - _)) -[in X in X -> _](fT _ _ (_ - (rows_at _ _ _ _ _)^T *m W^T)).
by rewrite !linearB /= !trmx_mul !trmxK.
Qed.

Lemma fl_qrcp_osid m n k (Y : arr T) : X LinAlgError -> (0 < k)%N -> (k <= minn m n)%N -> shaped m n Y ->
  rsafe X (id_ok v eta dl u m n k Y) (qrcp_osid L Y k 1) /\ rsafe X (rid_ok v eta dl u m n k Y) (qrcp_osid L Y k 0).
Proof using F qrL e01.
move=> xl k0 hk sY; split; first exact: fl_qrcp.
rewrite /qrcp_osid /=; rewrite minnC in hk.
by apply: rsafe_bind (fl_qrcp xl k0 hk (sh_mtr sY)) _ => XJ h; exact: rid_of_id.
Qed.
End Qrcp.
