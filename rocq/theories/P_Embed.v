(** Proofs of C91 and C92: second moments of the sketching operators,
    approximate matrix multiplication and subspace embeddings. *)
From mathcomp Require Import all_ssreflect all_algebra.
From mathcomp Require Import zify.
From Verif Require Import Base Arr Lapack Exact MxLib RingTac LapackSpec LapackExists Rng Aware.
From Verif Require Import Sel Sketching P_Sketch P_Sketch2 P_Sketch3 P_Sjlt P_Iso P_Interp2 P_LS P_LS2 P_Rate3.
Set Implicit Arguments.
Unset Strict Implicit.
Unset Printing Implicit Defensive.
Import Order.TTheory GRing.Theory Num.Theory.
Local Open Scope ring_scope.

Section Moments.
Variables (R : rcfType) (G : Type) (E : (G -> R) -> R).
Hypothesis mE : mean E.
Add Field emb_field : (rcf_field R).

Lemma mean_scaler c f : E (fun x => f x * c) = E f * c.
Proof. by rewrite mulrC -(mean_scale mE); apply: (mean_ext mE) => g; rewrite mulrC. Qed.

Lemma mean_sub f h : E (fun x => f x - h x) = E f - E h.
Proof.
rewrite -[E h]mul1r -mulNr -(mean_scale mE) -(mean_add mE); apply: (mean_ext mE) => g.
by rewrite mulN1r.
Qed.

(** ** Approximate matrix multiplication from second moments *)
Definition wmom d m (s : R) (W : G -> 'M[R]_m) : Prop :=
  forall j l j' l', E (fun g => W g j l * W g j' l') =
  (1 - s * (j == l)%:R) / d%:R * (((j == j') && (l == l'))%:R + ((j == l') && (l == j'))%:R).

Variables (d m : nat) (s : R) (W : G -> 'M[R]_m).
Hypotheses (s0 : 0 <= s) (HW : wmom d s W).

Lemma amm_form n p (A : 'M[R]_(m, n)) (B : 'M[R]_(m, p)) :
  E (fun g => fro2 (A^T *m W g *m B)) =
  \sum_j \sum_l (1 - s * (j == l)%:R) / d%:R *
    ((A *m A^T) j j * (B *m B^T) l l + (A *m A^T) j l * (B *m B^T) j l).
Proof using mE HW.
pose c a b (x : 'I_m * 'I_m) := A x.1 a * B x.2 b.
pose k (x : 'I_m * 'I_m) := (1 - s * (x.1 == x.2)%:R) / d%:R.
have ent g a b : (A^T *m W g *m B) a b = \sum_x c a b x * W g x.1 x.2.
  rewrite -(pair_bigA _ (fun j l => A j a * B l b * W g j l)) /= mxE exchange_big /=; apply: eq_bigr => l _.
  rewrite !mxE big_distrl; apply: eq_bigr => j _ /=; by rewrite !mxE mulrAC.
transitivity (\sum_a \sum_b \sum_x k x * (c a b x * c a b x + c a b x * c a b (x.2, x.1))).
  transitivity (E (fun g => \sum_a \sum_b \sum_x \sum_y (c a b x * c a b y) * (W g x.1 x.2 * W g y.1 y.2))).
    apply: (mean_ext mE) => g; apply: eq_bigr => a _; apply: eq_bigr => b _.
    rewrite ent expr2 big_distrl; apply: eq_bigr => x _ /=; rewrite big_distrr; apply: eq_bigr => y _ /=.
    by rewrite mulrACA.
  rewrite (mean_sum mE); apply: eq_bigr => a _; rewrite (mean_sum mE); apply: eq_bigr => b _.
  rewrite (mean_sum mE); apply: eq_bigr => x _; rewrite (mean_sum mE).
  transitivity (\sum_y (k x * c a b x) * ((x == y)%:R * c a b y + ((x.2, x.1) == y)%:R * c a b y)).
    apply: eq_bigr => -[y1 y2] _; case: x => x1 x2; rewrite (mean_scale mE) HW /k /= !xpair_eqE [(x2 == y1) && _]andbC.
    rewrite -mulrDl; set v := _ / _.
    move: (((x1 == y1) && _)%:R + _) v (c a b (x1, x2)) (c a b (y1, y2)) => u v e f.
    rring.
  rewrite -big_distrr /= big_split /= (bigD1 x) //= eqxx mul1r big1 ?addr0; last first.
    by move=> y yx; rewrite eq_sym (negPf yx) mul0r.
  rewrite (bigD1 (x.2, x.1)) //= eqxx mul1r big1 ?addr0; last first.
    by move=> y yx; rewrite eq_sym (negPf yx) mul0r.
  by rewrite -[LHS]mulrA; congr (_ * _); rewrite mulrDr.
transitivity (\sum_x \sum_a \sum_b k x * (c a b x * c a b x + c a b x * c a b (x.2, x.1))).
  by rewrite [RHS]exchange_big /=; apply: eq_bigr => a _; rewrite exchange_big.
rewrite -(pair_bigA _ (fun j l => \sum_a \sum_b k (j, l) * (c a b (j, l) * c a b (j, l) + c a b (j, l) * c a b (l, j)))) /=.
apply: eq_bigr => j _; apply: eq_bigr => l _.
have pr (u v w z : 'I_m) : (A *m A^T) u v * (B *m B^T) w z = \sum_a \sum_b (A u a * B w b) * (A v a * B z b).
  rewrite !mxE big_distrlr /=; apply: eq_bigr => a _; apply: eq_bigr => b _; by rewrite !mxE mulrACA.
rewrite !pr -big_split /= big_distrr /=; apply: eq_bigr => a _; rewrite -big_split /= big_distrr /=.
apply: eq_bigr => b _; rewrite /k /c /=; congr (_ * (_ + _)).
by rewrite mulrACA [B l b * _]mulrC mulrACA.
Qed.

Lemma amm n p (A : 'M[R]_(m, n)) (B : 'M[R]_(m, p)) :
  E (fun g => fro2 (A^T *m W g *m B)) <= (fro2 A * fro2 B + fro2 (A^T *m B)) / d%:R.
Proof using mE HW s0.
rewrite amm_form; set T := fun j l => (A *m A^T) j j * (B *m B^T) l l + (A *m A^T) j l * (B *m B^T) j l.
have gram0 q (X : 'M[R]_(m, q)) j : 0 <= (X *m X^T) j j.
  by rewrite mxE sumr_ge0 // => a _; rewrite mxE -expr2 sqr_ge0.
have T0 j : 0 <= T j j by rewrite /T addr_ge0 // mulr_ge0.
apply: (@le_trans _ _ (\sum_j \sum_l d%:R^-1 * T j l)).
  apply: ler_sum => j _; apply: ler_sum => l _; rewrite -/(T j l).
  have [->|jl] := eqVneq j l; last by rewrite mulr0 subr0 mul1r.
  rewrite mulr1 ler_wpmul2r // ler_pimull ?invr_ge0 ?ler0n // ler_subl_addr ler_addl //.
rewrite le_eqVlt; apply/orP; left; apply/eqP.
transitivity (d%:R^-1 * \sum_j \sum_l T j l).
  by rewrite big_distrr /=; apply: eq_bigr => j _; rewrite big_distrr.
rewrite [RHS]mulrC; congr (_ * _).
rewrite (eq_bigr (fun j => (A *m A^T) j j * (\sum_l (B *m B^T) l l) + \sum_l (A *m A^T) j l * (B *m B^T) j l)); last first.
  by move=> j _; rewrite /T big_split /= big_distrr.
rewrite big_split /= -big_distrl /= -!/(mxtrace _) -!fro2_tr'; congr (_ + _).
have -> : fro2 (A^T *m B) = \tr ((A *m A^T) *m (B *m B^T)).
  rewrite fro2_tr' trmx_mul trmxK -mulmxA mxtrace_mulC -!mulmxA (mulmxA B).
  by rewrite mxtrace_mulC mulmxA.
rewrite /mxtrace; apply: eq_bigr => j _; rewrite [RHS]mxE; apply: eq_bigr => l _.
congr (_ * _); rewrite [LHS]mxE [RHS]mxE; apply: eq_bigr => k _; by rewrite !mxE mulrC.
Qed.
End Moments.

(** ** Tails *)

(** A mean value that is non-negative on non-negative functions. *)
Definition positive (R : rcfType) (G : Type) (E : (G -> R) -> R) : Prop :=
  forall f, (forall g, 0 <= f g) -> 0 <= E f.

Section Tail.
Variables (R : rcfType) (G : Type) (E : (G -> R) -> R).
Hypotheses (mE : mean E) (pE : positive E).

Lemma mean_le f h : (forall g, f g <= h g) -> E f <= E h.
Proof using mE pE.
move=> fh; rewrite -subr_ge0 -(mean_sub mE); apply: pE => g; by rewrite subr_ge0.
Qed.

Lemma markov f t : (forall g, 0 <= f g) -> 0 < t -> E (fun g => (~~ (f g <= t))%:R) <= E f / t.
Proof using mE pE.
move=> f0 t0; rewrite -(mean_scaler mE); apply: mean_le => g; case: (leP (f g) t) => [_|lt] /=.
  by apply: divr_ge0 => //; exact: ltW.
by rewrite ler_pdivl_mulr // mul1r ltW.
Qed.

Lemma fro2_1 n : fro2 (1%:M : 'M[R]_n) = n%:R.
Proof. by rewrite (fro2_tr 1%:M) trmx1 mulmx1 mxtrace1. Qed.

Lemma orth_basis m n (A : 'M[R]_(m, n)) :
  exists k (U : 'M[R]_(m, k)) (C : 'M[R]_(k, n)), [/\ (k <= n)%N, orthonormal U & A = U *m C].
Proof.
have [m0|m0] := posnP m.
  subst m; exists 0%N, 0, 0; split=> //; apply/matrixP; first by case.
  by case.
have [n0|n0] := posnP n.
  subst n; exists 0%N, 0, 0; split=> //; apply/matrixP; first by case.
  by move=> i; case.
have [Q [U [_ oQ _ AE]]] := @exact_qr R _ _ A m0 n0.
by exists (minn m n), Q, U; rewrite geq_minr.
Qed.

(** The quadratic form of a matrix with small Frobenius norm. *)
Lemma embeds_form d m n k (S : 'M[R]_(d, m)) (A : 'M[R]_(m, n)) (U : 'M[R]_(m, k)) C e : 0 <= e ->
  orthonormal U -> A = U *m C -> fro2 (U^T *m (S^T *m S - 1%:M) *m U) <= e ^+ 2 ->
  embeds (S *m A) A (1 - e) (1 + e).
Proof.
move=> e0 oU AE; set Z := U^T *m _ *m U => hZ v.
set y := C *m v; have Ay : A *m v = U *m y by rewrite AE -mulmxA.
rewrite -mulmxA Ay fro2_ortho //.
have dE : fro2 (S *m (U *m y)) - fro2 y = fip y (Z *m y).
  rewrite -[in LHS](fro2_ortho y oU) !(fro2_tr (_ *m (U *m y))) [X in _ - X]fro2_tr -raddfB /= /fip /Z; congr (\tr _).
  rewrite !mulmxBr !mulmxBl mulmxBr !trmx_mul !mulmxA mulmx1; congr (_ - _).
have : `|fip y (Z *m y)| <= e * fro2 y.
  rewrite -(ler_pexpn2r (_ : 0 < 2)%N) ?nnegrE ?mulr_ge0 ?fro2_ge0 // real_normK ?num_real //.
  apply: le_trans (fip_le _ _) _; apply: (@le_trans _ _ (fro2 y * (fro2 Z * fro2 y))).
    by rewrite ler_wpmul2l ?fro2_ge0 // fro2M.
  by rewrite exprMn mulrCA -expr2 ler_wpmul2r ?sqr_ge0.
rewrite -dE ler_norml ler_subl_addr ler_subr_addr => /andP[h1 h2].
by rewrite mulrBl mulrDl mul1r [fro2 y - _]addrC h1 addrC h2.
Qed.

Lemma embed_event d m n (S : G -> 'M[R]_(d, m)) (A : 'M[R]_(m, n)) s e : 0 <= s -> 0 < e ->
  wmom E d s (fun g => (S g)^T *m S g - 1%:M) ->
  exists B : G -> bool, E (fun g => (~~ B g)%:R) <= (n * n + n)%:R / (d%:R * e ^+ 2) /\
    forall g, B g -> embeds (S g *m A) A (1 - e) (1 + e).
Proof using mE pE.
move=> s0 e0 HW; have [k [U [C [kn oU AE]]]] := orth_basis A.
pose f g := fro2 (U^T *m ((S g)^T *m S g - 1%:M) *m U).
exists (fun g => f g <= e ^+ 2); split=> [|g]; last exact: (embeds_form (ltW e0) oU AE).
apply: le_trans (markov _ _) _; rewrite ?exprn_gt0 //; first by move=> g; exact: fro2_ge0.
rewrite [(d%:R * _)^-1]invfM mulrA ler_wpmul2r ?invr_ge0 ?exprn_ge0 ?(ltW e0) //.
apply: (le_trans (amm mE s0 HW U U)); rewrite ler_wpmul2r ?invr_ge0 ?ler0n //.
by rewrite (fro2_tr U) oU fro2_1 mxtrace1 -natrM -natrD ler_nat leq_add ?leq_mul.
Qed.

(** The same on the span of [A] and [b]. *)
Lemma embed2_event d m n (S : G -> 'M[R]_(d, m)) (A : 'M[R]_(m, n)) (b : 'cV[R]_m) s e : 0 <= s -> 0 < e ->
  wmom E d s (fun g => (S g)^T *m S g - 1%:M) ->
  exists B : G -> bool, E (fun g => (~~ B g)%:R) <= ((n + 1) * (n + 1) + (n + 1))%:R / (d%:R * e ^+ 2) /\
    forall g, B g -> embeds2 (S g) A b (1 - e) (1 + e).
Proof using mE pE.
move=> s0 e0 HW; have [B [PB hB]] := embed_event (row_mx A b) s0 e0 HW.
exists B; split=> // g /hB em v t; have := em (col_mx v t%:M).
by rewrite -mulmxA mul_row_col mul_mx_scalar.
Qed.
End Tail.

(** ** Gaussian operators *)

(** The fourth moments of rng.normal(0, scale, (m, n)). *)
Definition normal4 (R : rcfType) (G : Type) (E : (G -> R) -> R) (r : rng_ops G R) (m n : nat) : Prop :=
  forall c (i1 j1 i2 j2 i3 j3 i4 j4 : nat),
  (i1 < m)%N -> (j1 < n)%N -> (i2 < m)%N -> (j2 < n)%N -> (i3 < m)%N -> (j3 < n)%N -> (i4 < m)%N -> (j4 < n)%N ->
  let x g i j := el (r_normal r g c m n).2 i j in
  E (fun g => x g i1 j1 * x g i2 j2 * (x g i3 j3 * x g i4 j4)) =
  c ^+ 4 * (((i1 == i2) && (j1 == j2) && (i3 == i4) && (j3 == j4))%:R +
            ((i1 == i3) && (j1 == j3) && (i2 == i4) && (j2 == j4))%:R +
            ((i1 == i4) && (j1 == j4) && (i2 == i3) && (j2 == j3))%:R).

Section Gauss.
Variables (R : rcfType) (G : Type) (E : (G -> R) -> R) (r : rng_ops G R).
Hypotheses (mE : mean E) (rok : rng_ok r).
Add Field gauss_field : (rcf_field R).

Lemma gram_mom d m (S : G -> 'M[R]_(d, m)) j l j' l' K :
  (forall j l, E (fun g => ((S g)^T *m S g) j l) = (j == l)%:R) ->
  E (fun g => ((S g)^T *m S g) j l * ((S g)^T *m S g) j' l') = (j == l)%:R * (j' == l')%:R + K ->
  E (fun g => ((S g)^T *m S g - 1%:M) j l * ((S g)^T *m S g - 1%:M) j' l') = K.
Proof using mE.
move=> H1 H2; set T := fun g => (S g)^T *m S g in H1 H2.
transitivity (E (fun g => (T g j l * T g j' l' - (j' == l')%:R * T g j l) - ((j == l)%:R * T g j' l' - (j == l)%:R * (j' == l')%:R))).
  apply: (mean_ext mE) => g; rewrite 4!mxE -/(T g) !mxE.
  move: (T g j l) (T g j' l') (j == l)%:R (j' == l')%:R => a b c e; rring.
rewrite !(mean_sub mE) !(mean_scale mE) (mean_const mE) -/(T _) H2 !H1; rring.
Qed.

Lemma gauss_wmom d m es : uncorrelated E r d m -> normal4 E r d m -> (0 < d)%N -> (d <= m)%N ->
  wmom E d 0 (fun g => let S := outmat d m (gaussian_operator r true d m (St g es)) in S^T *m S - 1%:M).
Proof using mE rok.
move=> uc n4 d0 dm; have m0 := leq_trans d0 dm.
have [iso _] := gauss_iso mE rok es uc d0 m0; have {}iso := iso dm.
set S := fun g => outmat d m (gaussian_operator r true d m (St g es)) in iso *.
move=> j l j' l'; rewrite mul0r subr0 mul1r.
change (E (fun g => ((S g)^T *m S g - 1%:M) j l * ((S g)^T *m S g - 1%:M) j' l') =
  d%:R^-1 * (((j == j') && (l == l'))%:R + ((j == l') && (l == j'))%:R)).
apply: gram_mom => //.
set c : R := Num.sqrt (minn d m)%:R^-1.
have dR : d%:R != 0 :> R by rewrite pnatr_eq0 -lt0n.
have c4 : c ^+ 4 = d%:R^-1 ^+ 2.
  by rewrite (exprM c 2 2) sqr_sqrtr ?invr_ge0 ?ler0n // (minn_idPl dm).
set x := fun g i j => el (r_normal r g c d m).2 i j.
have SE g (i : 'I_d) (k : 'I_m) : S g i k = x g i k by rewrite /S gauss_call // mxE.
transitivity (E (fun g => \sum_(i < d) \sum_(k < d) x g i j * x g i l * (x g k j' * x g k l'))).
  apply: (mean_ext mE) => g; rewrite !mxE big_distrl; apply: eq_bigr => i _ /=; rewrite big_distrr.
  by apply: eq_bigr => k _ /=; rewrite !mxE !SE.
rewrite (mean_sum mE).
set K := ((j == j') && (l == l'))%:R + ((j == l') && (l == j'))%:R : R.
transitivity (\sum_(i < d) c ^+ 4 * (d%:R * ((j == l)%:R * (j' == l')%:R) + K)).
  apply: eq_bigr => i _; rewrite (mean_sum mE).
  rewrite (eq_bigr (fun k : 'I_d => c ^+ 4 * ((j == l)%:R * (j' == l')%:R + (i == k)%:R * K))); last first.
    move=> k _; rewrite n4 // !eqxx /= -[(i : nat) == k]/(i == k) -!(inj_eq val_inj) /= andbT.
    rewrite -addrA; congr (_ * (_ + _)); first by case: (_ == _ :> nat); rewrite ?mul0r ?mul1r.
    rewrite /K; change (i == k) with ((i : nat) == k).
    by case: ((i : nat) == k); rewrite /= ?mul0r ?mul1r ?addr0 ?andbT.
  rewrite -big_distrr /=; congr (_ * _); rewrite big_split /= sumr_const card_ord -[_ *+ d]mulr_natl; congr (_ + _).
  by rewrite (bigD1 i) //= eqxx mul1r big1 ?addr0 // => k ki; rewrite eq_sym (negPf ki) mul0r.
rewrite sumr_const card_ord -[_ *+ d]mulr_natl c4; move: K ((j == l)%:R * (j' == l')%:R) (d%:R : R) dR => K D e e0.
by rfield.
Qed.
End Gauss.

(** ** SJLT operators *)

(** The signs read off from u[0..N) are four-wise independent, also given Y. *)
Definition random_signs4 (R : rcfType) (G X : Type) (E : (G -> R) -> R) (Y : G -> X) (u : G -> seq R) (N : nat) :
    Prop :=
  let sg x : R := if x <= 1 / (1 + 1) then -1 else 1 in
  forall (F : X -> R) a b c d, (a < N)%N -> (b < N)%N -> (c < N)%N -> (d < N)%N ->
  E (fun g => F (Y g) * (sg (nth 0 (u g) a) * sg (nth 0 (u g) b) * (sg (nth 0 (u g) c) * sg (nth 0 (u g) d)))) =
  [|| (a == b) && (c == d), (a == c) && (b == d) | (a == d) && (b == c)]%:R * E (fun g => F (Y g)).

(** Two of the samples C_0, C_1, ..., of size v out of d, both contain i with probability (v / d)^2. *)
Definition pair_samples (R : rcfType) (G : Type) (E : (G -> R) -> R) (C : G -> seq (seq nat)) (d v n : nat) : Prop :=
  forall i j l, (i < d)%N -> (j < n)%N -> (l < n)%N -> j != l ->
  E (fun g => (i \in nth [::] (C g) j)%:R * (i \in nth [::] (C g) l)%:R) = (v%:R / d%:R) ^+ 2.

Section Sjlt.
Variables (R : rcfType) (G : Type) (E : (G -> R) -> R) (r : rng_ops G R).
Hypotheses (mE : mean E) (rok : rng_ok r).
Add Field sjlt_field : (rcf_field R).

Lemma choices_uniq p k n g j : (0 < p)%N -> (k <= p)%N -> uniq (nth [::] (choices r p k false n g).2 j).
Proof using rok.
move=> p0 h; elim: n g j => [|n IH] g j //=; first by rewrite nth_nil.
have /= := ok_choice rok g (p := p) (k := k) (b := false) _ h; rewrite p0 => /(_ isT).
case: (r_choice r g p k false) => g1 v /= [_ _ uv]; have := IH g1.
by case: (choices _ _ _ _ _ g1) => g2 vs /= IHv; case: j => [|j] /=; [exact: uv|exact: IHv].
Qed.

Variables (d m nnz : nat) (es : seq (event R)).
Hypotheses (d0 : (0 < d)%N) (dm : (d <= m)%N) (z0 : (0 < nnz)%N) (zd : (nnz <= d)%N).
Notation C g := (choices r d nnz false m g).
Notation u g := (r_random r (C g).1 (m * nnz)).2.
Notation S g := (outmat d m (sjlt_operator r d m RGen nnz (St g es))).
Let sg (x : R) : R := if x <= 1 / (1 + 1) then -1 else 1.
Let X g j a := nth 0%N (nth [::] (C g).2 j) a.
Let T g j a := sg (nth 0 (u g) (j * nnz + a)).

Lemma sj_S g : S g = \matrix_(i, j) \sum_(a < nnz | X g j a == i) (T g j a / Num.sqrt nnz%:R).
Proof using rok d0 dm zd.
have zm : (nnz <= m)%N := leq_trans zd dm.
have := sjlt_call rok nnz g es d0 dm; cbv zeta; rewrite (minn_idPr zm) ltnNge zd /= => -[s' E'].
by rewrite /sjlt_operator /= dm E' /outmat /= (opmat_acts (acts_sp _)).
Qed.

Lemma sj_lt g (j : 'I_m) (a : 'I_nnz) : (X g j a < d)%N.
Proof using rok d0 zd.
have h : false || (nnz <= d)%N by [].
have [sC aC] := choices_ok rok m g d0 h.
have := allP aC (nth [::] (C g).2 j); rewrite mem_nth ?sC // => /(_ isT) /andP[/eqP sj ij].
by apply: inb_nth ij _; rewrite sj.
Qed.

Lemma sj_gramE g (j l : 'I_m) :
  ((S g)^T *m S g) j l = \sum_(a < nnz) \sum_(b < nnz) ((X g j a == X g l b)%:R / nnz%:R) * (T g j a * T g l b).
Proof using rok d0 dm zd.
rewrite sj_S mxE.
transitivity (\sum_(i < d) \sum_(a < nnz) \sum_(b < nnz)
   (((X g j a == i) && (X g l b == i))%:R / nnz%:R) * (T g j a * T g l b)).
  apply: eq_bigr => i _; rewrite !mxE big_distrl big_mkcond; apply: eq_bigr => a _ /=.
  case: eqP => ai; last by rewrite big1 // => b _; rewrite /= !mul0r.
  rewrite big_distrr big_mkcond; apply: eq_bigr => b _ /=.
  case: eqP => bi; last by rewrite !mul0r.
  have sq : (nnz%:R : R)^-1 = (Num.sqrt nnz%:R)^-1 * (Num.sqrt nnz%:R)^-1.
    by rewrite -invfM -expr2 sqr_sqrtr ?ler0n.
  rewrite mul1r sq; set x := T _ _ _; set y := T _ _ _; set z := _^-1.
  by rewrite mulrACA mulrC.
rewrite exchange_big; apply: eq_bigr => a _; rewrite exchange_big; apply: eq_bigr => b _ /=.
rewrite -big_distrl -big_distrl /=; congr (_ / _ * _).
rewrite (bigD1 (Ordinal (sj_lt g j a))) //= eqxx /= big1 ?addr0; first by rewrite eq_sym.
by move=> i ia; case: eqP => //= e; case/eqP: ia; apply: val_inj.
Qed.

Lemma sg2 x : sg x * sg x = 1.
Proof. by rewrite /sg; case: ifP; rewrite ?mulrNN mulr1. Qed.

Lemma sj_diag g (j : 'I_m) : ((S g)^T *m S g) j j = 1.
Proof using rok d0 dm z0 zd.
rewrite sj_gramE (eq_bigr (fun=> nnz%:R^-1)).
  by rewrite sumr_const card_ord -[_ *+ _]mulr_natl divff // pnatr_eq0 -lt0n.
move=> a _; rewrite (bigD1 a) //= eqxx sg2 mulr1 mul1r big1 ?addr0 // => b ba.
have h : false || (nnz <= d)%N by [].
have [sC aC] := choices_ok rok m g d0 h.
have := allP aC (nth [::] (C g).2 j); rewrite mem_nth ?sC // => /(_ isT) /andP[/eqP sj _].
rewrite /X nth_uniq ?sj ?choices_uniq //.
by rewrite -[(a : nat) == b]/(a == b) eq_sym (negPf ba) !mul0r.
Qed.

Lemma sj_pairs (j l : 'I_m) : pair_samples E (fun g => (C g).2) d nnz m -> j != l ->
  E (fun g => \sum_(a < nnz) \sum_(b < nnz) (X g j a == X g l b)%:R) = nnz%:R ^+ 2 / d%:R.
Proof using mE rok d0 zd.
move=> ps jl; have h : false || (nnz <= d)%N by [].
transitivity (E (fun g => \sum_(i < d) (val i \in nth [::] (C g).2 j)%:R * (val i \in nth [::] (C g).2 l)%:R)).
  apply: (mean_ext mE) => g; have [sC aC] := choices_ok rok m g d0 h.
  have cnt k i : (k < m)%N -> (i \in nth [::] (C g).2 k)%:R = \sum_(a < nnz) (X g k a == i)%:R :> R.
    move=> km; have := allP aC (nth [::] (C g).2 k); rewrite mem_nth ?sC // => /(_ isT) /andP[/eqP sj _].
    have [|ni] := boolP (i \in _); last first.
      by rewrite big1 // => a _; case: eqP => // e; case/negP: ni; rewrite -e mem_nth // sj.
    case/(nthP 0%N) => a; rewrite sj => lt e; rewrite (bigD1 (Ordinal lt)) //= /X e eqxx big1 ?addr0 // => b ba.
    rewrite -e nth_uniq ?sj ?choices_uniq //; case: eqP => // e'; case/eqP: ba; exact: val_inj.
  under [RHS]eq_bigr => i _ do rewrite !cnt // big_distrlr /=.
  rewrite [RHS]exchange_big; apply: eq_bigr => a _; rewrite [RHS]exchange_big; apply: eq_bigr => b _ /=.
  rewrite (bigD1 (Ordinal (sj_lt g j a))) //= eqxx mul1r big1 ?addr0 1?eq_sym // => i ia.
  by case: eqP => [e|_]; rewrite ?mul0r //; case/eqP: ia; apply: val_inj.
rewrite (mean_sum mE) (eq_bigr (fun=> (nnz%:R / d%:R) ^+ 2)) => [|i _]; last first.
  by apply: ps => //; exact: ltn_ord.
rewrite sumr_const card_ord -[_ *+ _]mulr_natl.
have : (d%:R : R) != 0 by rewrite pnatr_eq0 -lt0n.
by move: (d%:R : R) (nnz%:R : R) => x y x0; rfield.
Qed.

Lemma sj_wmom : random_signs4 E (fun g => (C g).2) (fun g => u g) (m * nnz) ->
  pair_samples E (fun g => (C g).2) d nnz m ->
  wmom E d 1 (fun g => (S g)^T *m S g - 1%:M).
Proof using mE rok d0 dm z0 zd.
move=> rs ps j l j' l'; rewrite mul1r.
have W0 g (k : 'I_m) : ((S g)^T *m S g - 1%:M) k k = 0.
  by have := sj_diag g k; rewrite !mxE eqxx => ->; rewrite subrr.
have [<-|jl] := eqVneq j l.
  rewrite subrr !mul0r -[RHS](mean0 mE); apply: (mean_ext mE) => g; by rewrite W0 mul0r.
have [<-|jl'] := eqVneq j' l'.
  transitivity (0 : R); last first.
    case: (j =P j') => [e|_] /=; last by rewrite addr0 mulr0.
    by rewrite -e [l == j]eq_sym (negPf jl) addr0 mulr0.
  rewrite -[RHS](mean0 mE); apply: (mean_ext mE) => g; by rewrite W0 mulr0.
rewrite subr0 mul1r.
have W1 g (k k' : 'I_m) : k != k' -> ((S g)^T *m S g - 1%:M) k k' =
   \sum_(x : 'I_nnz * 'I_nnz) ((X g k x.1 == X g k' x.2)%:R / nnz%:R) * (T g k x.1 * T g k' x.2).
  move=> kk; rewrite -(pair_bigA _ (fun a b : 'I_nnz => ((X g k a == X g k' b)%:R / nnz%:R) * (T g k a * T g k' b))) /=.
  by rewrite -sj_gramE mxE [X in _ + X]mxE [X in _ - X]mxE (negPf kk) subr0.
pose F (x y : 'I_nnz * 'I_nnz) (c : seq (seq nat)) : R :=
  ((nth 0%N (nth [::] c j) x.1 == nth 0%N (nth [::] c l) x.2)%:R / nnz%:R) *
  ((nth 0%N (nth [::] c j') y.1 == nth 0%N (nth [::] c l') y.2)%:R / nnz%:R).
transitivity (E (fun g => \sum_x \sum_y F x y (C g).2 *
   (T g j x.1 * T g l x.2 * (T g j' y.1 * T g l' y.2)))).
  apply: (mean_ext mE) => g; rewrite !W1 // big_distrl; apply: eq_bigr => x _ /=.
  by rewrite big_distrr; apply: eq_bigr => y _ /=; rewrite mulrACA.
have lt (k : 'I_m) (a : 'I_nnz) : (k * nnz + a < m * nnz)%N.
  apply: (@leq_trans (k * nnz + nnz)); first by rewrite ltn_add2l.
  by rewrite addnC -mulSn leq_mul2r ltn_ord orbT.
have inj (k k' : 'I_m) (a b : 'I_nnz) : (k * nnz + a == k' * nnz + b)%N = (k == k') && (a == b).
  apply/eqP/andP=> [e|[/eqP-> /eqP->] //].
  have := congr1 (fun x => (x %/ nnz)%N) e; have := congr1 (fun x => (x %% nnz)%N) e.
  rewrite !modnMDl !modn_small // !divnMDl // !divn_small // !addn0 => ha hj.
  by split; apply/eqP/val_inj.
rewrite (mean_sum mE).
transitivity (\sum_x (((j == j') && (l == l'))%:R * E (fun g => F x x (C g).2) +
                      ((j == l') && (l == j'))%:R * E (fun g => F x (x.2, x.1) (C g).2))).
  apply: eq_bigr => x _; rewrite (mean_sum mE).
  transitivity (\sum_y ((x == y)%:R * (((j == j') && (l == l'))%:R * E (fun g => F x y (C g).2)) +
     ((x.2, x.1) == y)%:R * (((j == l') && (l == j'))%:R * E (fun g => F x y (C g).2)))).
    apply: eq_bigr => -[a' b'] _; case: x => a b /=.
    rewrite (rs (F (a, b) (a', b'))) // !inj !xpair_eqE (negPf jl) /= !mulrA -mulrDl; congr (_ * _).
    rewrite -!natrM -natrD; congr _%:R.
    case: (j =P j') => [e1|_]; case: (l =P l') => [e2|_]; case: (j =P l') => [e3|_]; case: (l =P j') => [e4|_] //=;
      rewrite ?andbF ?muln0 ?muln1 ?orbF ?addn0 ?add0n ?mulnb ?andbT //.
    - by case/eqP: jl; rewrite e1 e4.
    - by rewrite andbC.
    - by rewrite andbC.
    - by rewrite andbC.
  rewrite big_split /= (bigD1 x) //= eqxx mul1r big1 ?addr0; last first.
    by move=> y yx; rewrite eq_sym (negPf yx) mul0r.
  rewrite (bigD1 (x.2, x.1)) //= eqxx mul1r big1 ?addr0 //.
  by move=> y yx; rewrite eq_sym (negPf yx) mul0r.
rewrite big_split /= mulrDr.
have Kl : \sum_(x : 'I_nnz * 'I_nnz) E (fun g => (X g j x.1 == X g l x.2)%:R / nnz%:R ^+ 2) = d%:R^-1.
  rewrite -(mean_sum mE).
  transitivity (E (fun g => (\sum_(a < nnz) \sum_(b < nnz) (X g j a == X g l b)%:R) / nnz%:R ^+ 2)).
    apply: (mean_ext mE) => g; rewrite big_distrl /=.
    rewrite -(pair_bigA _ (fun a b : 'I_nnz => (X g j a == X g l b)%:R / nnz%:R ^+ 2)) /=.
    by apply: eq_bigr => a _; rewrite big_distrl.
  rewrite (mean_scaler mE) sj_pairs //.
  have : (nnz%:R : R) != 0 by rewrite pnatr_eq0 -lt0n.
  by move=> z; rewrite mulrAC divff ?mul1r // expf_neq0.
have sqF (b : bool) (c : R) : (b%:R / c) * (b%:R / c) = b%:R / c ^+ 2.
  by case: b; rewrite ?mul0r // !mul1r -invfM.
congr (_ + _).
  case: (j =P j') => [e1|_] /=; last by rewrite mulr0 big1 // => x _; rewrite mul0r.
  case: (l =P l') => [e2|_] /=; last by rewrite mulr0 big1 // => x _; rewrite mul0r.
  rewrite mulr1 -Kl; apply: eq_bigr => x _; rewrite mul1r; apply: (mean_ext mE) => g.
  by rewrite /F -e1 -e2 sqF.
case: (j =P l') => [e1|_] /=; last by rewrite mulr0 big1 // => x _; rewrite mul0r.
case: (l =P j') => [e2|_] /=; last by rewrite mulr0 big1 // => x _; rewrite mul0r.
rewrite mulr1 -Kl; apply: eq_bigr => x _; rewrite mul1r; apply: (mean_ext mE) => g.
by rewrite /F -e1 -e2 /= [nth _ _ x.2 == _]eq_sym sqF.
Qed.
End Sjlt.
