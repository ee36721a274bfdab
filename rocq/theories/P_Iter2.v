(** Proof of C73: the variance, condition and norm estimates of LSQR. *)
From mathcomp Require Import all_ssreflect all_algebra.
From Verif Require Import Base Arr Lapack RingTac Exact MxLib Rng Pcg P_Pcg Lsqr P_Lsqr P_Iter.
Set Implicit Arguments.
Unset Strict Implicit.
Unset Printing Implicit Defensive.
Import Order.TTheory GRing.Theory Num.Theory.
Local Open Scope ring_scope.

Section Iter2.
Variable R : rcfType.
Add Field iter2_field : (rcf_field R).

(** The matrix of the damped normal equations. *)
Lemma Ab_normal m n (A : 'M[R]_(m, n)) d : (Ab A d)^T *m Ab A d = A^T *m A + (d ^+ 2)%:M.
Proof.
by rewrite /Ab tr_col_mx mul_row_col tr_scalar_mx mul_scalar_mx scale_scalar_mx -expr2.
Qed.

Lemma rowsq_tr n k (D : 'M[R]_(n, k)) i : rowsq D i 0 = (D *m D^T) i i.
Proof. by rewrite !mxE; apply: eq_bigr => j _; rewrite !mxE expr2. Qed.

Lemma fro2_rowsq n k (D : 'M[R]_(n, k)) : fro2 D = \sum_i rowsq D i 0.
Proof.
rewrite -fro2_trmx fro2_tr trmxK /mxtrace.
by apply: eq_bigr => i _; rewrite rowsq_tr.
Qed.

Section D.
Variables (m n k : nat) (A : 'M[R]_(m, n)) (d : R) (D : 'M[R]_(n, k)).
Let H := A^T *m A + (d ^+ 2)%:M.
Hypotheses (Hu : H \in unitmx) (oD : orthonormal (Ab A d *m D)).

Lemma DHD : D^T *m H *m D = 1%:M.
Proof. by rewrite /H -Ab_normal -oD trmx_mul !mulmxA. Qed.

Lemma rowsq_le i : 0 <= rowsq D i 0 <= (invmx H) i i.
Proof.
apply/andP; split; first by rewrite mxE sumr_ge0 // => j _; apply: sqr_ge0.
have Hs : H^T = H by rewrite /H linearD /= trmx_mul trmxK tr_scalar_mx.
have His : (invmx H)^T = invmx H by rewrite trmx_inv Hs.
pose e : 'cV[R]_n := delta_mx i 0.
pose Q := Ab A d *m D; pose y := Ab A d *m (invmx H *m e).
have Ay : (Ab A d)^T *m y = e by rewrite /y mulmxA Ab_normal -/H mulmxA mulmxV // mul1mx.
have Qy : Q^T *m y = D^T *m e by rewrite /Q trmx_mul -mulmxA Ay.
have ee (M : 'M[R]_n) : M i i = (e^T *m M *m e) 0 0.
  by rewrite /e trmx_delta -rowE -colE !mxE.
have -> : (invmx H) i i = fro2 y.
  by rewrite -[fro2 y]dotxx /dot {1}/y trmx_mul -mulmxA Ay trmx_mul His ee.
have -> : rowsq D i 0 = fro2 (Q^T *m y).
  by rewrite Qy rowsq_tr ee -[fro2 _]dotxx /dot trmx_mul trmxK !mulmxA.
by rewrite -subr_ge0 -(fro2_resid y oD) fro2_ge0.
Qed.

End D.

Lemma rowsq_full m n (A : 'M[R]_(m, n)) d (D : 'M[R]_n) i :
  orthonormal (Ab A d *m D) -> rowsq D i 0 = (invmx (A^T *m A + (d ^+ 2)%:M)) i i.
Proof.
move=> oD; have E := DHD oD.
have Du : D \in unitmx by have [_] := mulmx1_unit E.
rewrite rowsq_tr; congr (_ _ i i).
move: (A^T *m A + _) E => H E.
have Dtu : D^T \in unitmx by rewrite unitmx_tr.
have HE : H *m (D *m D^T) = 1%:M.
  by rewrite mulmxA; apply: mulmx1C; rewrite mulmxA.
have [Hu _] := mulmx1_unit HE.
by rewrite -[LHS]mul1mx -(mulVmx Hu) -mulmxA HE mulmx1.
Qed.

Section Top.
Variables (m n : nat) (A : 'M[R]_(m, n)) (op : linop R).
Hypothesis opA : lin_is op A.
Variables (b : 'cV[R]_m) (start : option 'cV[R]_n) (d atol btol conlim : R) (cv : bool).
Variable lim : option int.
Hypotheses (lim0 : 0 <= lim_of n lim) (bs : b != 0 \/ start = None).
Let xs := lsqr_x0 start.
Let call l := lsqr op (ofcv b) d atol btol conlim l cv (omap (@ofcv R n) start).
Let H := A^T *m A + (d ^+ 2)%:M.

Lemma lsqr_var_lemma out : call lim = Ok out -> H \in unitmx ->
  exists v : 'cV[R]_n, [/\ q_var out = ofcv v,
    cv = false -> v = 0,
    cv -> forall i, 0 <= v i 0 <= invmx H i i &
    cv -> q_itn out = n -> forall i, v i 0 = invmx H i i].
Proof.
move=> E Hu; have [out' [x [E' ok _ _]]] := lsqrP opA d atol btol conlim cv lim0 bs.
have oE : out' = out by move: E'; rewrite /lsqr_call -/(call lim) E => -[].
rewrite {}oE in ok; have [D [oD _ vE _]] := lq_D ok.
exists (if cv then rowsq D else 0); split=> //.
- by move=> ->.
- by move=> -> i; apply: rowsq_le.
- move=> ->; move: D oD {vE}; rewrite /H => D oD itn; move: D oD; rewrite itn => D oD i.
  exact: rowsq_full.
Qed.

Lemma lsqr_cond_lemma out : call lim = Ok out -> H \in unitmx ->
  q_acond out <= q_anorm out * Num.sqrt (\tr (invmx H)) /\
  (q_itn out = n -> q_acond out = q_anorm out * Num.sqrt (\tr (invmx H))).
Proof.
move=> E Hu; have [out' [x [E' ok _ _]]] := lsqrP opA d atol btol conlim cv lim0 bs.
have oE : out' = out by move: E'; rewrite /lsqr_call -/(call lim) E => -[].
rewrite {}oE in ok; have [D [oD -> _ _]] := lq_D ok; split.
  rewrite ler_wpmul2l ?(lq_an0 ok) // /fro ler_wsqrtr // fro2_rowsq.
  by apply: ler_sum => i _; have /andP[] := rowsq_le Hu oD i.
move=> itn; congr (_ * _); move: D oD; rewrite itn => D oD.
by rewrite /fro fro2_rowsq; congr Num.sqrt; apply: eq_bigr => i _; apply: rowsq_full.
Qed.

Lemma lsqr_anorm_lemma out : call lim = Ok out -> (0 < n)%N -> q_itn out = n ->
  ((forall z, b - A *m xs <> A *m z) -> q_anorm out = Num.sqrt (fro2 A + d ^+ 2 *+ n)) /\
  (forall z, b - A *m xs = A *m z -> q_anorm out < Num.sqrt (fro2 A + d ^+ 2 *+ n)).
Proof.
move=> E n0 itn; have [out' [x [E' ok _ alt]]] := lsqrP opA d atol btol conlim cv lim0 bs.
have oE : out' = out by move: E'; rewrite /lsqr_call -/(call lim) E => -[].
rewrite {}oE in ok alt; have an0 := lq_an0 ok.
have r0 : b - A *m xs != 0.
  case: alt => [[_ _ i0]|[[g0 _] _ _]]; first by rewrite i0 in itn; rewrite -itn in n0.
  apply: contraNneq g0 => r0.
  by rewrite Ab_rb -/xs r0 subrr mulmx0 scaler0 subr0.
have fW k (W : 'M[R]_(n, k)) : k = n -> orthonormal W -> fro2 (A *m W) = fro2 A.
  move=> kn; move: W; rewrite kn => W.
  move=> oW; rewrite -[LHS]fro2_trmx trmx_mul fro2_tr trmx_mul !trmxK -mulmxA (mulmxA W).
  by rewrite (mulmx1C oW) mul1mx -[fro2 A]fro2_trmx fro2_tr trmxK.
have anE : q_anorm out = Num.sqrt (q_anorm out ^+ 2) by rewrite sqrtr_sqr ger0_norm.
case: (lq_V ok) => [[V [oV aE UE]]|[j [V [v [jE oV Av aE [z zE]]]]]].
  have aE' : q_anorm out = Num.sqrt (fro2 A + d ^+ 2 *+ n) by rewrite anE aE fW // itn.
  split=> // z zE; exfalso.
  have [U [Z [a [oU UE']]]] := UE r0.
  have := orthonormal_rank oU; rewrite UE' -/xs zE -mulmxA -mulmxDr => rk.
  by have := mulmx_max_rank A (Z + z *m a); rewrite rk itn addn1 ltnn.
split=> [/(_ z)//|z' _].
have jn : (j + 1)%N = n by rewrite addn1 jE itn.
rewrite {1}anE aE ltr_sqrt; last first.
  rewrite ltr_paddr ?mulrn_wge0 ?sqr_ge0 // lt_neqAle fro2_ge0 andbT eq_sym fro2_eq0.
  by apply: contraNneq Av => ->; rewrite mul0mx.
rewrite -(fW _ _ jn oV) mul_mx_row fro2_row_mx.
have -> : d ^+ 2 *+ n = d ^+ 2 *+ j + d ^+ 2 by rewrite -jn mulrnDr mulr1n.
rewrite addrACA ltr_addl ltr_paddr ?sqr_ge0 //.
by rewrite lt_neqAle fro2_ge0 andbT eq_sym fro2_eq0.
Qed.

(** r1norm. *)
Lemma lsqr_r1_lemma out : call lim = Ok out ->
  exists x : 'cV[R]_n, [/\ q_x out = ofcv x,
    fro (b - A *m x) <= q_r1norm out <= q_r2norm out &
    (q_r1norm out = fro (b - A *m x)) <->
    [\/ q_itn out = 0%N, d = 0 | A^T *m (b - A *m x) - d ^+ 2 *: (x - xs) = 0]].
Proof.
move=> E; have [out' [x [E' ok _ _]]] := lsqrP opA d atol btol conlim cv lim0 bs.
have oE : out' = out by move: E'; rewrite /lsqr_call -/(call lim) E => -[].
rewrite {}oE in ok; exists x; split; [exact: lq_x ok | exact: lq_r1b ok |].
rewrite -Ab_rb; split=> [/eqP|].
  rewrite (lq_r1x ok); case/or3P => /eqP; [by constructor 1 | by constructor 2 | by constructor 3].
by move=> h; apply/eqP; rewrite (lq_r1x ok); apply/or3P; case: h => /eqP; [constructor 1 | constructor 2 | constructor 3].
Qed.

(** Krylov optimality. *)
Lemma kspan_basis k (V : 'M[R]_(n, k)) y : kbasis A b xs V -> kspan A b xs k y -> exists c, y = V *m c.
Proof.
move=> [_ K2] [c ->].
suff Hl l : (l <= k)%N -> exists c', \sum_(i < l) c i *: kvec A b xs i = V *m c' by exact: Hl.
elim: l => [_|l IH lk]; first by exists 0; rewrite mulmx0 big_ord0.
have [c1 E1] := IH (ltnW lk); have [c2 E2] := K2 l lk.
by exists (c1 + c l *: c2); rewrite big_ord_recr /= E1 E2 mulmxDr -scalemxAr.
Qed.

Lemma lsqr_krylov_lemma out : call lim = Ok out ->
  exists x : 'cV[R]_n, [/\ q_x out = ofcv x, kspan A b xs (q_itn out) (x - xs) &
   forall y, kspan A b xs (q_itn out) (y - xs) ->
     fro2 (b - A *m x) + d ^+ 2 * fro2 (x - xs) <= fro2 (b - A *m y) + d ^+ 2 * fro2 (y - xs)].
Proof.
move=> E; have [out' [x [E' ok _ _]]] := lsqrP opA d atol btol conlim cv lim0 bs.
have oE : out' = out by move: E'; rewrite /lsqr_call -/(call lim) E => -[].
rewrite {}oE in ok; have [V [KV [c cE] ort]] := lq_K ok.
exists x; split; [exact: lq_x ok | by rewrite cE; apply: (proj1 KV) |].
move=> y /(kspan_basis KV)[c' yE].
have [D DE] : exists D, y = x + V *m D.
  by exists (c' - c); rewrite mulmxBr -yE -cE opprB addrA [x + _]addrC subrK subrK.
rewrite -!fro2_rb DE -[V *m D]scale1r rbD scale1r -[X in _ <= X]dotxx dotBl !dotBr dotxx.
have z : dot (Ab A d *m (V *m D)) (rb A b xs d x) = 0.
  by rewrite dotC dotM dotM -/xs ort dot0l.
by rewrite (dotC (rb _ _ _ _ _)) z sub0r subr0 opprK ler_addl dotxx fro2_ge0.
Qed.


End Top.

(** One iteration on a 2 x 2 diagonal matrix. *)
Definition wit_D : 'M[R]_2 := diag_mx (\row_j (j.+1)%:R).

Lemma wit_D_mul (y : 'cV[R]_2) i : (wit_D *m y) i 0 = (i.+1)%:R * y i 0.
Proof. by rewrite /wit_D mul_diag_mx !mxE. Qed.

Lemma lsqr_one_iter (d : R) (cv : bool) : exists out c (x : 'cV[R]_2),
  [/\ lsqr (as_linop (ofmx wit_D)) (ofcv (const_mx 1 : 'cV[R]_2)) d 0 0 0 (Some 1) cv None = Ok out,
      q_x out = ofcv x, q_itn out = 1%N & x = c *: (wit_D *m const_mx 1)].
Proof.
pose b : 'cV[R]_2 := const_mx 1.
have opA := as_linopP wit_D.
have l0 : 0 <= lim_of 2 (Some 1) by [].
have bs : b != 0 \/ (None : option 'cV[R]_2) = None by right.
have [out [x [E ok _ alt]]] := lsqrP opA d 0 0 0 cv l0 bs.
have [x' [xE [c cE] _]] := lsqr_krylov_lemma opA l0 bs E.
have /ofcv_inj xx : ofcv x = ofcv x' by rewrite -xE (lq_x ok).
subst x'.
have At : wit_D^T = wit_D by rewrite /wit_D tr_diag_mx.
have itn : q_itn out = 1%N.
  have [it _] := lq_itn ok; apply/eqP; rewrite eqn_leq it /=.
  case: alt => [[g0 _ _ _ _]|[_ _ [[_ [//]]|[]]]] //.
  move: g0; rewrite Ab_rb At /lsqr_x0 mulmx0 !subr0 scaler0 subr0 => /matrixP/(_ 0 0).
  by rewrite wit_D_mul !mxE mulr1 => /eqP; rewrite oner_eq0.
exists out, (c 0%N), x; split=> //.
by move: cE; rewrite itn big_ord1 /kvec /= At /lsqr_x0 mulmx0 !subr0.
Qed.

Lemma lsqr_r1_refuted_lemma : let b : 'cV[R]_2 := const_mx 1 in
  exists out (x : 'cV[R]_2),
  [/\ lsqr (as_linop (ofmx wit_D)) (ofcv b) 1 0 0 0 (Some 1) false None = Ok out,
      q_x out = ofcv x & q_r1norm out <> fro (b - wit_D *m x)].
Proof.
move=> b; have [out [c [x [E xE itn cE]]]] := lsqr_one_iter 1 false.
have opA := as_linopP wit_D.
have l0 : 0 <= lim_of 2 (Some 1) by [].
have bs : b != 0 \/ (None : option 'cV[R]_2) = None by right.
have At : wit_D^T = wit_D by rewrite /wit_D tr_diag_mx.
exists out, x; split=> //.
have [x' [xE' _ r1]] := lsqr_r1_lemma opA l0 bs E.
have /ofcv_inj xx : ofcv x' = ofcv x by rewrite -xE' xE.
subst x'; move/r1; rewrite itn /lsqr_x0 subr0 At expr1n scale1r; case=> //.
  by move/eqP; rewrite oner_eq0.
move=> g0.
have gi (i : 'I_2) : (i.+1)%:R * (1 - (i.+1)%:R * (c * (i.+1)%:R)) - c * (i.+1)%:R = 0 :> R.
  have gE (y z : 'cV[R]_2) : (wit_D *m y - z) i 0 = (i.+1)%:R * y i 0 - z i 0.
    by rewrite mxE [X in _ + X]mxE wit_D_mul.
  have bE (z : 'cV[R]_2) : (b - z) i 0 = 1 - z i 0 by rewrite mxE [X in _ + X]mxE mxE.
  have xi : x i 0 = c * (i.+1)%:R by rewrite cE mxE wit_D_mul mxE mulr1.
  by move/matrixP/(_ i 0): g0; rewrite gE bE wit_D_mul xi [X in _ = X]mxE.
have e0 := gi 0; have e1 := gi 1.
have : 3%:R = 0 :> R.
  transitivity (5%:R * 0 - 0 : R); last by rewrite mulr0 subr0.
  by rewrite -{1}e0 -e1 /=; rring.
by apply/eqP; rewrite pnatr_eq0.
Qed.

(** A 1 x 1 system solved in one iteration. *)
Lemma lsqr_unit_run (cv : bool) : exists out,
  [/\ lsqr (as_linop (ofmx (1%:M : 'M[R]_1))) (ofcv (const_mx 1 : 'cV[R]_1)) 0 0 0 0 None cv None = Ok out,
      q_itn out = 1%N, (1%:M : 'M[R]_1)^T *m 1%:M + (0 ^+ 2)%:M \in @unitmx R 1 &
      q_anorm out < Num.sqrt (fro2 (1%:M : 'M[R]_1) + 0 ^+ 2 *+ 1)].
Proof.
pose b : 'cV[R]_1 := const_mx 1.
have opA := as_linopP (1%:M : 'M[R]_1).
have l0 : 0 <= lim_of 1 None by [].
have bs : b != 0 \/ (None : option 'cV[R]_1) = None by right.
have [out [x [E ok _ alt]]] := lsqrP opA 0 0 0 0 cv l0 bs.
have itn : q_itn out = 1%N.
  have [_ it] := lq_itn ok; apply/eqP; rewrite eqn_leq it /=.
  case: alt => [[g0 _ _ _ _]|[_ _ [[_ [//]]|[]]]] //.
  move: g0; rewrite Ab_rb /lsqr_x0 mulmx0 !subr0 scaler0 subr0 trmx1 mul1mx => /matrixP/(_ 0 0).
  by rewrite !mxE => /eqP; rewrite oner_eq0.
exists out; split=> //.
  by rewrite trmx1 mul1mx expr0n raddf0 addr0 unitmx1.
have [_ h] := lsqr_anorm_lemma opA l0 bs E (ltnSn 0) itn.
by apply: (h b); rewrite /lsqr_x0 mulmx0 subr0 mul1mx.
Qed.
End Iter2.
