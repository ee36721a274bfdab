(** Final forms of the interpolative decomposition statements. *)
From mathcomp Require Import all_ssreflect all_algebra.
From mathcomp Require Import zify.
From Verif Require Import Base Arr Lapack Exact MxLib LapackSpec LapackExists Rng Aware RangeFinders QB.
From Verif Require Import P_RS1 P_RF P_QBx P_Svd P_Evd3 Sel Interp P_Interp P_Interp2 P_Interp3 W_Interp Wrappers.
Set Implicit Arguments.
Unset Strict Implicit.
Unset Printing Implicit Defensive.
Import Order.TTheory GRing.Theory Num.Theory.
Local Open Scope ring_scope.

Section Forms.
Variables (R : rcfType) (G : Type) (L : lapack R).

Lemma col_id_interp m n p (A : 'M[R]_(m, n)) (Y : 'M[R]_(p, n)) k (X : 'M[R]_(k, n)) J :
  col_id Y X J -> colsel (colsel A J k *m X) J k = colsel A J k.
Proof. by move=> cid; rewrite colsel1E -mulmxA -colsel1E (ci_eye cid) mulmx1. Qed.

Lemma row_id_interp m n p (A : 'M[R]_(m, n)) (Y : 'M[R]_(m, p)) k (Z : 'M[R]_(m, k)) I :
  row_id Y Z I -> rowsel (Z *m rowsel A I k) I k = rowsel A I k.
Proof.
move=> rid; apply: trmx_inj; rewrite tr_rowsel trmx_mul tr_rowsel.
exact: col_id_interp rid.
Qed.

Lemma row_id_eye m p (Y : 'M[R]_(m, p)) k (Z : 'M[R]_(m, k)) I : row_id Y Z I -> rowsel Z I k = 1%:M.
Proof. by move=> rid; apply: trmx_inj; rewrite tr_rowsel (ci_eye rid) trmx1. Qed.

Lemma row_id_sketch m n p (A : 'M[R]_(m, n)) (W : 'M[R]_(n, p)) k (Z : 'M[R]_(m, k)) I :
  row_id (A *m W) Z I -> \rank A = k -> A = Z *m rowsel A I k.
Proof.
rewrite /row_id trmx_mul => cid rA; apply: trmx_inj; rewrite trmx_mul tr_rowsel.
by apply: (col_id_sketch cid); rewrite mxrank_tr.
Qed.

Lemma qrcp_col_prop m n (Y : 'M[R]_(m, n)) k :
  qrp_spec L -> (0 < k)%N -> (k <= \rank Y)%N ->
  exists (X : 'M[R]_(k, n)) J,
    [/\ qrcp_osid L (ofmx Y) k 1 = Ok (ofmx X, J),
        size J = k /\ uniq J /\ all (fun j => (j < n)%N) J,
        colsel X J k = 1%:M,
        colsel (colsel Y J k *m X) J k = colsel Y J k &
        \rank Y = k -> Y = colsel Y J k *m X].
Proof.
move=> qrpL k0 kr; have [m0 n0] := rank_pos k0 kr.
have := qrcp_osidP qrpL Y m0 n0 k0; rewrite kr => -[[X [J [E cid]]] _].
exists X, J; split=> //; [by case: cid | exact: ci_eye cid | exact: col_id_interp cid | exact: col_id_exact].
Qed.

Lemma qrcp_row_prop m n (Y : 'M[R]_(m, n)) k :
  qrp_spec L -> (0 < k)%N -> (k <= \rank Y)%N ->
  exists (Z : 'M[R]_(m, k)) I,
    [/\ qrcp_osid L (ofmx Y) k 0 = Ok (ofmx Z, I),
        size I = k /\ uniq I /\ all (fun i => (i < m)%N) I,
        rowsel Z I k = 1%:M,
        rowsel (Z *m rowsel Y I k) I k = rowsel Y I k &
        \rank Y = k -> Y = Z *m rowsel Y I k].
Proof.
move=> qrpL k0 kr; have [m0 n0] := rank_pos k0 kr.
have := qrcp_osidP qrpL Y m0 n0 k0; rewrite kr => -[_ [Z [I [E rid]]]].
exists Z, I; split=> //; [by case: rid | exact: row_id_eye rid | exact: row_id_interp rid |].
by move=> rY; apply: (@row_id_sketch _ _ _ Y 1%:M) => //; rewrite mulmx1.
Qed.

Lemma qrcp_deficient_prop m n (Y : 'M[R]_(m, n)) k :
  qrp_spec L -> (0 < m)%N -> (0 < n)%N -> (0 < k)%N -> (\rank Y < k)%N ->
  exists e e', [/\ qrcp_osid L (ofmx Y) k 1 = Err e, qrcp_osid L (ofmx Y) k 0 = Err e',
    (k <= minn m n)%N -> e = LinAlgError /\ e' = LinAlgError,
    e = LinAlgError \/ e = ValueError & e' = LinAlgError \/ e' = ValueError].
Proof.
move=> qrpL m0 n0 k0 rk.
have [J [_ _ /(_ k k0)]] := qrp_sel qrpL Y m0 n0; rewrite leqNgt rk /= => -[e1 E1 [l1 c1]].
have [I [_ _ /(_ k k0)]] := qrp_sel qrpL Y^T n0 m0; rewrite mxrank_tr leqNgt rk /= => -[e0 E0 [l0 c0]].
exists e1, e0; rewrite /qrcp_osid /= mtrE E1 E0; split=> // kmn.
by move: l1 l0; rewrite [minn n m]minnC kmn.
Qed.

Lemma osid1_col_prop (r : rng_ops G R) m n (A : 'M[R]_(m, n)) k (over p : int) a (s s' : st G R) XJ :
  qr_spec L -> qrp_spec L -> rng_ok r ->
  (0 < k)%N -> 0 < k%:Z + over -> (absz (k%:Z + over)%R <= minn m n)%N ->
  osid1 L r (ofmx A) k over p 1 a s = (s', inr XJ) ->
  exists (X : 'M[R]_(k, n)) J,
    [/\ XJ = (ofmx X, J),
        size J = k /\ uniq J /\ all (fun j => (j < n)%N) J,
        colsel X J k = 1%:M,
        colsel (colsel A J k *m X) J k = colsel A J k &
        \rank A = k -> A = colsel A J k *m X].
Proof.
move=> h1 h2 h3 k0 c0 cmn E; have [X [J [W [XE cid]]]] := osid1_col h1 h2 h3 k0 c0 cmn E.
exists X, J; split=> //; [by case: cid | exact: ci_eye cid | exact: col_id_interp cid | exact: col_id_sketch cid].
Qed.

Lemma osid1_row_prop (r : rng_ops G R) m n (A : 'M[R]_(m, n)) k (over p : int) a (s s' : st G R) ZI :
  qr_spec L -> qrp_spec L -> rng_ok r ->
  (0 < k)%N -> 0 < k%:Z + over -> (absz (k%:Z + over)%R <= minn m n)%N ->
  osid1 L r (ofmx A) k over p 0 a s = (s', inr ZI) ->
  exists (Z : 'M[R]_(m, k)) I,
    [/\ ZI = (ofmx Z, I),
        size I = k /\ uniq I /\ all (fun i => (i < m)%N) I,
        rowsel Z I k = 1%:M,
        rowsel (Z *m rowsel A I k) I k = rowsel A I k &
        \rank A = k -> A = Z *m rowsel A I k].
Proof.
move=> h1 h2 h3 k0 c0 cmn E; have [X [J [W [XE cid]]]] := osid1_row h1 h2 h3 k0 c0 cmn E.
exists X, J; split=> //; [by case: cid | exact: row_id_eye cid | exact: row_id_interp cid | exact: row_id_sketch cid].
Qed.

Lemma osid1_rank_prop (r : rng_ops G R) m n (A : 'M[R]_(m, n)) k (over p axis : int) a (s s' : st G R) X :
  qr_spec L -> qrp_spec L -> rng_ok r ->
  (0 < k)%N -> 0 < k%:Z + over -> (absz (k%:Z + over)%R <= minn m n)%N ->
  osid1 L r (ofmx A) k over p axis a s = (s', inr X) -> (k <= \rank A)%N.
Proof.
move=> h1 h2 h3 k0 c0 cmn; case: (eqVneq axis 1) => [->|a1] E.
  have [X' [J [W [_ cid]]]] := osid1_col h1 h2 h3 k0 c0 cmn E.
  by rewrite -{1}(ci_rank cid) colsel1E; apply: leq_trans (mxrankM_maxl _ _) (mxrankM_maxr _ _).
case: (eqVneq axis 0) E => [->|a0] E.
  have [X' [J [W [_ cid]]]] := osid1_row h1 h2 h3 k0 c0 cmn E.
  rewrite -{1}(ci_rank cid) colsel1E; apply: leq_trans (mxrankM_maxl _ _) _.
  by rewrite mxrank_tr mxrankM_maxl.
case/with_rng_inv: E => s0 [s1 [E _ _]].
by move: E; rewrite /OSID1 (negbTE a0) (negbTE a1).
Qed.

Lemma osid2_col_prop (sk_op : rowsketcher) m n (A : 'M[R]_(m, n))
    k (over : int) p (S : 'M[R]_(m, p)) (s s1 : st G R) :
  qrp_spec L -> lstsq_spec L -> (0 < k)%N -> (k <= n)%N -> (0 < m)%N -> (0 < p)%N -> 0 <= k%:Z + over ->
  sk_op (ofmx A^T) (absz (k%:Z + over)) s = (s1, inr (PyArr (ofmx S))) ->
  exists s' (X : 'M[R]_(k, n)) J,
    [/\ OSID2 L sk_op (ofmx A) k over 1 s = (s', inr (ofmx X, J)),
        size J = k /\ uniq J /\ all (fun j => (j < n)%N) J,
        colsel (colsel A J k *m X) J k = colsel A J k &
        forall X', fro2 (A - colsel A J k *m X) <= fro2 (A - colsel A J k *m X')].
Proof.
move=> h1 h2 k0 kn m0 p0 c0 E; have [X [J [E2 _ [] s0 u i ip op]]] := OSID2_col_inv h1 h2 k0 kn m0 p0 c0 E.
by eexists _, X, J; split; first exact: E2.
Qed.

Lemma osid2_row_prop (sk_op : rowsketcher) m n (A : 'M[R]_(m, n))
    k (over : int) p (S : 'M[R]_(n, p)) (s s1 : st G R) :
  qrp_spec L -> lstsq_spec L -> (0 < k)%N -> (k <= m)%N -> (0 < n)%N -> (0 < p)%N -> 0 <= k%:Z + over ->
  sk_op (ofmx A) (absz (k%:Z + over)) s = (s1, inr (PyArr (ofmx S))) ->
  exists s' (Z : 'M[R]_(m, k)) I,
    [/\ OSID2 L sk_op (ofmx A) k over 0 s = (s', inr (ofmx Z, I)),
        size I = k /\ uniq I /\ all (fun i => (i < m)%N) I,
        rowsel (Z *m rowsel A I k) I k = rowsel A I k &
        forall Z', fro2 (A - Z *m rowsel A I k) <= fro2 (A - Z' *m rowsel A I k)].
Proof.
move=> h1 h2 k0 kn m0 p0 c0 E; have [X [J [E2 _ [] s0 u i ip op]]] := OSID2_row_inv h1 h2 k0 kn m0 p0 c0 E.
by eexists _, X, J; split; first exact: E2.
Qed.

Lemma rowcol m n (A : 'M[R]_(m, n)) I J k : colsel (rowsel A I k) J k = rowsel (colsel A J k) I k.
Proof. by rewrite colsel1E rowsel1E -mulmxA -colsel1E -rowsel1E. Qed.

Lemma tsid1_tall_prop (osid : osid_t) m n (A : 'M[R]_(m, n))
    k (over : int) (X : 'M[R]_(k, n)) J (s s1 : st G R) :
  qrp_spec L -> (n < m)%N -> (0 < k)%N -> size J = k -> uniq J -> all (fun j => (j < n)%N) J ->
  osid (ofmx A) k over 1 s = (s1, inr (ofmx X, J)) ->
  (\rank (colsel A J k) = k /\
   exists (Z : 'M[R]_(m, k)) I,
    [/\ TSID1 L osid (ofmx A) k over s = (s1, inr (ofmx Z, I, ofmx X, J)),
        size I = k /\ uniq I /\ all (fun i => (i < m)%N) I, rowsel Z I k = 1%:M &
        Z *m rowsel (colsel A J k) I k *m X = colsel A J k *m X]) \/
  ((\rank (colsel A J k) < k)%N /\ exists e, TSID1 L osid (ofmx A) k over s = (s1, inl e)).
Proof.
move=> h1 nm k0 sJ uJ iJ E; have skJ : skeleton n k J by split.
have := TSID1_tall h1 nm k0 skJ E; case: eqP => rk.
  case=> Z [I [E' [s0 u i] zi ZE]]; left; split=> //; exists Z, I; split=> //.
  by rewrite -ZE.
by move=> H; right; split=> //; rewrite ltn_neqAle rank_leq_col andbT; apply/eqP.
Qed.

Lemma tsid1_wide_prop (osid : osid_t) m n (A : 'M[R]_(m, n))
    k (over : int) (Z : 'M[R]_(m, k)) I (s s1 : st G R) :
  qrp_spec L -> (0 < m)%N -> (m <= n)%N -> (0 < k)%N -> size I = k -> uniq I -> all (fun i => (i < m)%N) I ->
  osid (ofmx A) k over 0 s = (s1, inr (ofmx Z, I)) ->
  (\rank (rowsel A I k) = k /\
   exists (X : 'M[R]_(k, n)) J,
    [/\ TSID1 L osid (ofmx A) k over s = (s1, inr (ofmx Z, I, ofmx X, J)),
        size J = k /\ uniq J /\ all (fun j => (j < n)%N) J, colsel X J k = 1%:M &
        Z *m rowsel (colsel A J k) I k *m X = Z *m rowsel A I k]) \/
  ((\rank (rowsel A I k) < k)%N /\ exists e, TSID1 L osid (ofmx A) k over s = (s1, inl e)).
Proof.
move=> h1 m0 mn k0 sJ uJ iJ E; have skJ : skeleton m k I by split.
have := TSID1_wide h1 m0 mn k0 skJ E; case: eqP => rk.
  case=> X [J [E' [s0 u i] zi XE]]; left; split=> //; exists X, J; split=> //.
  by rewrite -mulmxA -rowcol -XE.
by move=> H; right; split=> //; rewrite ltn_neqAle rank_leq_row andbT; apply/eqP.
Qed.

Lemma cur1_tall_prop (osid : osid_t) m n (A : 'M[R]_(m, n))
    k (over : int) (X : 'M[R]_(k, n)) J (s s1 : st G R) :
  qrp_spec L -> lstsq_spec L -> (n < m)%N -> (0 < k)%N ->
  size J = k -> uniq J -> all (fun j => (j < n)%N) J ->
  osid (ofmx A) k over 1 s = (s1, inr (ofmx X, J)) ->
  exists (U : 'M[R]_k) I,
    [/\ CUR1 L osid (ofmx A) k over s = (s1, inr (J, ofmx U, I)),
        size I = k /\ uniq I /\ all (fun i => (i < m)%N) I,
        (forall U', fro2 (X - U *m rowsel A I k) <= fro2 (X - U' *m rowsel A I k)) &
        \rank A = k -> A = colsel A J k *m X -> A = colsel A J k *m U *m rowsel A I k].
Proof.
move=> h1 h2 nm k0 sJ uJ iJ E; have skJ : skeleton n k J by split.
by have [U [I [E' [s0 u i] op ex]]] := CUR1_tall h1 h2 nm k0 skJ E; exists U, I; split.
Qed.

Lemma cur1_wide_prop (osid : osid_t) m n (A : 'M[R]_(m, n))
    k (over : int) (Z : 'M[R]_(m, k)) I (s s1 : st G R) :
  qrp_spec L -> lstsq_spec L -> (0 < m)%N -> (m <= n)%N -> (0 < k)%N ->
  size I = k -> uniq I -> all (fun i => (i < m)%N) I ->
  osid (ofmx A) k over 0 s = (s1, inr (ofmx Z, I)) ->
  exists (U : 'M[R]_k) J,
    [/\ CUR1 L osid (ofmx A) k over s = (s1, inr (J, ofmx U, I)),
        size J = k /\ uniq J /\ all (fun j => (j < n)%N) J,
        (forall U', fro2 (Z - colsel A J k *m U) <= fro2 (Z - colsel A J k *m U')) &
        \rank A = k -> A = Z *m rowsel A I k -> A = colsel A J k *m U *m rowsel A I k].
Proof.
move=> h1 h2 m0 mn k0 sJ uJ iJ E; have skJ : skeleton m k I by split.
by have [U [J [E' [s0 u i] op ex]]] := CUR1_wide h1 h2 m0 mn k0 skJ E; exists U, J; split.
Qed.

Lemma cur1_exact_prop (r : rng_ops G R) m n (A : 'M[R]_(m, n))
    k (over p : int) a (s s' : st G R) x :
  qr_spec L -> qrp_spec L -> lstsq_spec L -> rng_ok r ->
  (0 < k)%N -> 0 < k%:Z + over -> (absz (k%:Z + over)%R <= minn m n)%N -> \rank A = k ->
  cur1 L r (ofmx A) k over p a s = (s', inr x) ->
  exists (U : 'M[R]_k) I J,
    [/\ x = (J, ofmx U, I), size J = k /\ uniq J /\ all (fun j => (j < n)%N) J,
        size I = k /\ uniq I /\ all (fun i => (i < m)%N) I &
        A = colsel A J k *m U *m rowsel A I k].
Proof.
move=> h1 h2 h3 h4 k0 c0 cmn rA; rewrite /cur1 => /with_rng_inv [s0 [s1 [E _ _]]].
have osE axis : OSID1 L (RS1 (skopGA r) (p - 2) (@orth R L) 1) (ofmx A) k over axis s0 =
               osid1 L r (ofmx A) k over (p - 1) axis RGen s0.
  by rewrite /osid1 /= (_ : p - 1 - 1 = p - 2) //; lia.
case: (ltnP n m) => nm.
  move: (E); rewrite /CUR1 nc_ofmx nr_ofmx nm => H; case: (bind_inv H) => s2 [XJ [E1 _]].
  move: (E1); rewrite osE => E1'; have [X [J [e [sJ [uJ iJ]] _ _ ex]]] := osid1_col_prop h1 h2 h4 k0 c0 cmn E1'.
  subst XJ; have [U [I [E2 skI _ ex2]]] := cur1_tall_prop h2 h3 nm k0 sJ uJ iJ E1.
  move: E2; rewrite E => -[_ ->]; exists U, I, J; split=> //.
  exact: ex2 (ex rA).
have m0 : (0 < m)%N by lia.
move: (E); rewrite /CUR1 nc_ofmx nr_ofmx ltnNge nm /= => H; case: (bind_inv H) => s2 [XJ [E1 _]].
move: (E1); rewrite osE => E1'; have [Z [I [e [sI [uI iI]] _ _ ex]]] := osid1_row_prop h1 h2 h4 k0 c0 cmn E1'.
subst XJ; have [U [J [E2 skJ _ ex2]]] := cur1_wide_prop h2 h3 m0 nm k0 sI uI iI E1.
move: E2; rewrite E => -[_ ->]; exists U, I, J; split=> //.
exact: ex2 (ex rA).
Qed.

Lemma qrcp_col_id m n (Y : 'M[R]_(m, n)) k (X : 'M[R]_(k, n)) J :
  qrp_spec L -> (0 < m)%N -> (0 < n)%N -> (0 < k)%N -> qrcp_osid L (ofmx Y) k 1 = Ok (ofmx X, J) -> col_id Y X J.
Proof.
move=> h m0 n0 k0 E; have := qrcp_osidP h Y m0 n0 k0; case: ifP => _ [[]]; last by rewrite E.
move=> X' [J' [E' cid]] _; move: E'; rewrite E => E'.
have eX : ofmx X = ofmx X' := congr1 (fun x => if x is inr y then y.1 else ofmx X) E'.
have eJ : J = J' := congr1 (fun x => if x is inr y then y.2 else [::]) E'.
by rewrite eJ (ofmx_inj eX).
Qed.

Lemma coef_bound_prop m n (Y : 'M[R]_(m, n)) k (X : 'M[R]_(k, n)) J :
  qrp_spec L -> (0 < m)%N -> (0 < n)%N -> (0 < k)%N -> qrcp_osid L (ofmx Y) k 1 = Ok (ofmx X, J) ->
  forall i j, `|X i j| <= 2%:R ^+ (k - i.+1).
Proof. by move=> h m0 n0 k0 E; apply: ci_bound (qrcp_col_id h m0 n0 k0 E). Qed.

Lemma greedy_prop m n (Y : 'M[R]_(m, n)) k (X : 'M[R]_(k, n)) J :
  qrp_spec L -> (0 < m)%N -> (0 < n)%N -> (0 < k)%N -> qrcp_osid L (ofmx Y) k 1 = Ok (ofmx X, J) ->
  (forall X', fro2 (Y - colsel Y J k *m X) <= fro2 (Y - colsel Y J k *m X')) /\
  forall (i : 'I_k) (w : 'cV[R]_k) (j : 'I_n), (forall l : 'I_k, (i <= l)%N -> w l 0 = 0) ->
    fro2 (col j (Y - colsel Y J k *m X)) <= fro2 (col i (colsel Y J k) - colsel Y J k *m w).
Proof.
move=> h m0 n0 k0 E; have cid := qrcp_col_id h m0 n0 k0 E; split; last exact: ci_greedy cid.
have ls : (colsel Y J k)^T *m (colsel Y J k *m X - Y) = 0.
  by rewrite -opprB mulmxN (ci_ls cid) oppr0.
by move=> X'; rewrite (ls_optimal X' ls) ler_addl fro2_ge0.
Qed.

Lemma osid1_error_prop (sk_op : rowsketcher) m n (A : 'M[R]_(m, n))
    k (S : 'M[R]_(m, k)) (s s1 s2 : st G R) (X : 'M[R]_(k, n)) J :
  qrp_spec L -> (0 < k)%N -> (0 < n)%N ->
  sk_op (ofmx A^T) (absz (k%:Z + 0)) s = (s1, inr (PyArr (ofmx S))) ->
  OSID1 L sk_op (ofmx A) k 0 1 s = (s2, inr (ofmx X, J)) ->
  forall Z : 'M[R]_(m, k),
  3%:R * fro2 (A - colsel A J k *m X) <= (n - k)%:R * (4%:R ^+ k + 2%:R) * fro2 (A - Z *m (S^T *m A)).
Proof.
move=> h k0 n0 Es E Z; have c0 : 0 <= k%:Z + 0 by lia.
move: (E); rewrite /OSID1 /= (bindE _ (col_sketchE c0 Es)).
rewrite /lift => -[_ Eq]; have cid := qrcp_col_id h k0 n0 k0 Eq.
have rY : \rank (S^T *m A) = k.
  apply/eqP; rewrite eqn_leq rank_leq_row -{1}(ci_rank cid) colsel1E; exact: mxrankM_maxl.
exact: col_id_amplify cid rY.
Qed.

Lemma osid2_not_worse (sk_op : rowsketcher) m n (A : 'M[R]_(m, n))
    k (over : int) p (S : 'M[R]_(m, p)) (s s0 s1 : st G R) (X1 : 'M[R]_(k, n)) J :
  qrp_spec L -> lstsq_spec L -> (0 < k)%N -> (k <= n)%N -> (0 < m)%N -> (0 < p)%N -> 0 <= k%:Z + over ->
  sk_op (ofmx A^T) (absz (k%:Z + over)) s = (s0, inr (PyArr (ofmx S))) ->
  OSID1 L sk_op (ofmx A) k over 1 s = (s1, inr (ofmx X1, J)) ->
  exists s2 (X2 : 'M[R]_(k, n)), OSID2 L sk_op (ofmx A) k over 1 s = (s2, inr (ofmx X2, J)) /\
    fro2 (A - colsel A J k *m X2) <= fro2 (A - colsel A J k *m X1).
Proof.
move=> h1 h2 k0 kn m0 p0 c0 Es E1.
have [X2 [J2 [E2 E3 _ _ op]]] := OSID2_col_inv h1 h2 k0 kn m0 p0 c0 Es.
have := OSID1_same E1; rewrite E3 => -[_ e]; subst J2.
by eexists _, X2; split; first exact: E2.
Qed.

Lemma osid2_not_worse_row (sk_op : rowsketcher) m n (A : 'M[R]_(m, n))
    k (over : int) p (S : 'M[R]_(n, p)) (s s0 s1 : st G R) (Z1 : 'M[R]_(m, k)) I :
  qrp_spec L -> lstsq_spec L -> (0 < k)%N -> (k <= m)%N -> (0 < n)%N -> (0 < p)%N -> 0 <= k%:Z + over ->
  sk_op (ofmx A) (absz (k%:Z + over)) s = (s0, inr (PyArr (ofmx S))) ->
  OSID1 L sk_op (ofmx A) k over 0 s = (s1, inr (ofmx Z1, I)) ->
  exists s2 (Z2 : 'M[R]_(m, k)), OSID2 L sk_op (ofmx A) k over 0 s = (s2, inr (ofmx Z2, I)) /\
    fro2 (A - Z2 *m rowsel A I k) <= fro2 (A - Z1 *m rowsel A I k).
Proof.
move=> h1 h2 k0 km n0 p0 c0 Es E1.
have [s2 [Z2 [I2 [E2 _ _ op]]]] := osid2_row_prop h1 h2 k0 km n0 p0 c0 Es.
have := OSID1_same E1; have [s3] := OSID2_same E2 => -> -[_ e]; subst I2.
by exists s2, Z2; split.
Qed.

End Forms.

Lemma same_skeleton (T : Type) (O : ops T) (G : Type) (L : lapack T) (sk_op : rowsketcher)
    A k (over axis : int) (s s1 s2 : st G T) X1 J1 X2 J2 :
  OSID1 L sk_op A k over axis s = (s1, inr (X1, J1)) ->
  OSID2 L sk_op A k over axis s = (s2, inr (X2, J2)) ->
  J1 = J2 /\ ROCS1 L sk_op A k over axis s = (s1, inr J1).
Proof.
move=> /OSID1_same E1 /OSID2_same [s3 E2]; split=> //.
by move: E2; rewrite E1 => -[_ ->].
Qed.

Lemma osid1_error_hyps (R : rcfType) (s : st nat R) : exists s1 s2 (X : 'M[R]_(2, 3)) J,
  let sk := RS1 (skopGA (T:=R) toy_rng) 0 (orth (exact_lapack R)) 1 in
  sk (ofmx (1%:M : 'M[R]_3)^T) (absz (2%:Z + 0)) s = (s1, inr (PyArr (ofmx (S32 R)))) /\
  OSID1 (exact_lapack R) sk (ofmx (1%:M : 'M[R]_3)) 2%N 0 1 s = (s2, inr (ofmx X, J)).
Proof.
have [s1 E] := wit_run s; have [s2 [X [J E2]]] := wit_osid1_col_drv s.
exists s1, s2, X, J; rewrite trmx1; split; [exact: E | exact: E2].
Qed.

Lemma pinv_hyps (R : rcfType) : let A := S32 R in let P := A^T in
  [/\ A *m P *m A = A, P *m A *m P = P, (A *m P)^T = A *m P & (P *m A)^T = P *m A].
Proof.
have o : (S32 R)^T *m S32 R = 1%:M by apply: orthonormal_colblk; rewrite // /orthonormal trmx1 mulmx1.
by move=> A P; rewrite /P /A o trmx_mul trmxK -mulmxA o mulmx1 mul1mx trmx1.
Qed.
