(** The operators of sketching.py as they are returned to the caller. *)
From mathcomp Require Import all_ssreflect all_algebra.
From Verif Require Import Base Arr Lapack Exact MxLib LapackSpec Rng Aware Sel P_RF P_Interp Sketching P_Sketch.
Set Implicit Arguments.
Unset Strict Implicit.
Unset Printing Implicit Defensive.
Import Order.TTheory GRing.Theory Num.Theory.
Local Open Scope ring_scope.

(** What a caller sees of an operator that stands for the matrix S: its shape
    and the products [S @ x], [S @ A], [S.T @ y]. *)
Record acts_as (R : rcfType) (op : pyop R) m n (S : 'M[R]_(m, n)) : Prop := ActsAs {
  aa_shape : shape op = Some (m, n);
  aa_mv : forall x : 'cV[R]_n, mul_rv op (ofcv x) = Ok (ofcv (S *m x));
  aa_mm : forall q (A : 'M[R]_(n, q)), mul_r op (ofmx A) = Ok (ofmx (S *m A));
  aa_rmv : forall y : 'cV[R]_m, mul_trv op (ofcv y) = Ok (ofcv (S^T *m y))
}.

(** The transposed operator stands for the transposed matrix. *)
Definition acts_both (R : rcfType) (op : pyop R) m n (S : 'M[R]_(m, n)) : Prop :=
  acts_as op S /\ exists2 op', py_tr op = Ok op' & acts_as op' S^T.

Section Ops.
Variables (R : rcfType) (G : Type) (L : lapack R) (r : rng_ops G R).

Lemma acts_arr m n (S : 'M[R]_(m, n)) : acts_as (PyArr (ofmx S)) S.
Proof.
by split=> //= *; rewrite ?mvE ?mmulE ?mtrE ?mvE.
Qed.
Lemma acts_sp m n (S : 'M[R]_(m, n)) : acts_as (PySp (ofmx S)) S.
Proof.
by split=> //= *; rewrite ?mvE ?mmulE ?mtrE ?mvE.
Qed.
Lemma acts_both_arr m n (S : 'M[R]_(m, n)) : acts_both (PyArr (ofmx S)) S.
Proof. by split; [exact: acts_arr | exists (PyArr (ofmx S^T)); rewrite /= ?mtrE //; exact: acts_arr]. Qed.
Lemma acts_both_sp m n (S : 'M[R]_(m, n)) : acts_both (PySp (ofmx S)) S.
Proof. by split; [exact: acts_sp | exists (PySp (ofmx S^T)); rewrite /= ?mtrE //; exact: acts_sp]. Qed.

(** ** Draws *)
Hypothesis rok : rng_ok r.

Lemma choiceP p k (s : st G R) : (0 < p)%N || (k == 0)%N -> (k <= p)%N ->
  exists s' v, [/\ choice r p k false s = (s', inr v), evs s' = evs s, size v = k, inb p v & uniq v].
Proof.
move=> h1 h2; rewrite /choice h1 h2 /= /getgen.
have /= := ok_choice rok (gen s) (b := false) h1 h2.
by case: (r_choice _ _ _ _ _) => g' v /= [sv iv uv]; exists (St g' (evs s)), v; split=> //; apply: uv.
Qed.

Lemma randomP n (s : st G R) : exists s' v, [/\ random r n s = (s', inr v), evs s' = evs s & size v = n].
Proof.
rewrite /random /getgen; have := ok_random rok (gen s) n.
by case: (r_random _ _ _) => g' v /= sv; exists (St g' (evs s)), v.
Qed.

Lemma permutationP n (s : st G R) : exists s' v,
  [/\ permutation r n s = (s', inr v), evs s' = evs s & perm_eq v (iota 0 n)].
Proof.
rewrite /permutation /getgen; have := ok_perm rok (gen s) n.
by case: (r_perm _ _ _) => g' v /= sv; exists (St g' (evs s)), v.
Qed.

(** ** SRCT *)
Lemma ofcv_ex n (v : seq R) : size v = n -> exists w : 'cV[R]_n, v = ofcv w.
Proof. by move=> <-; exists (tocv v); rewrite tocvK. Qed.

Lemma generate_srctP a b (s : st G R) : (0 < a)%N -> (0 < b)%N ->
  exists s' ri (e : 'cV[R]_(maxn a b)) perm,
   [/\ generate_srct r a b s = (s', inr (ri, ofcv e, perm)), evs s' = evs s,
       (inb (maxn a b) ri /\ uniq ri) /\ size ri = minn a b, perm_eq perm (iota 0 (maxn a b)) &
       forall i, e i 0 ^+ 2 = (maxn a b)%:R / (minn a b)%:R].
Proof.
move=> a0 b0; rewrite /generate_srct.
have mM : (minn a b <= maxn a b)%N by rewrite leq_max geq_minl.
have m0 : (0 < minn a b)%N by rewrite leq_min a0 b0.
have M0 : (0 < maxn a b)%N := leq_trans m0 mM.
have [|s1 [ri [E1 e1 sr ir ur]]] := choiceP s _ mM; first by rewrite M0.
rewrite (bindE _ E1); have [s2 [e0 [E2 e2 se]]] := randomP (maxn a b) s1; rewrite (bindE _ E2).
rewrite ifN -?lt0n //; have [s3 [perm [E3 e3 pp]]] := permutationP (maxn a b) s2; rewrite (bindE _ E3).
set e := map _ _; have [|w ew] := @ofcv_ex (maxn a b) e; first by rewrite !size_map.
exists s3, ri, w, perm; rewrite -ew /ret; split=> //; first by rewrite e3 e2 e1.
move=> i; rewrite -ev_ofcv -ew /ev.
rewrite (nth_map 0) ?size_map ?se // /= !onatE exprMn sqr_sqrtr ?divr_ge0 ?ler0n //.
rewrite (nth_map 0) ?size_map ?se //.
by case: eqP => [->|_]; rewrite ?sqrrN expr1n mul1r.
Qed.

Hypothesis dct : dct_spec L.

Lemma srct_wideP m n (s : st G R) : (0 < m)%N -> (m <= n)%N ->
  exists s' op (S : 'M[R]_(m, n)),
   [/\ srct_wide L r m n s = (s', inr op), evs s' = evs s, acts_both op S & S *m S^T = (n%:R / m%:R)%:M].
Proof.
move=> m0 mn; have n0 := leq_trans m0 mn.
have [s1 [ri [e [perm [E1 e1 [[ir ur] sr] pp he]]]]] := generate_srctP s m0 n0.
move: e he pp ir ur sr E1; rewrite (maxn_idPr mn) (minn_idPl mn) => e he pp ir ur sr E1.
rewrite /srct_wide (bindE _ E1) /=.
have [S [SS Sv Sm Srv Srm]] := srct_matrix dct (p := Some perm) ir ur sr pp he.
rewrite /custom_linop /= vzerosE Sv /= /lift.
eexists s1, _, S; split; [by [] | by [] | | by []].
split; first by split=> //= [x|q A|y]; rewrite ?size_ofcv eqxx.
eexists; first by [].
by split=> //= [x|q A|y]; rewrite ?size_ofcv eqxx ?trmxK.
Qed.

Lemma acts_both_tr op m n (S : 'M[R]_(m, n)) : acts_both op S ->
  exists2 op', py_tr op = Ok op' & acts_both op' S^T.
Proof.
case=> aS [op' E' a']; exists op' => //; split=> //.
rewrite trmxK; case: op E' aS => //= [B|B|f] [<-] aS.
- exists (PyArr (mtr (mtr B))) => //.
  case: aS => //= -[nB cB] mvB mmB trB.
  split=> /= [|x|q A|y]; first by rewrite nB cB.
  + by rewrite -mvB /mv /= nB cB size_ofcv eqxx; congr Ok; apply: eq_mkseq_in => i im;
      apply: eq_osum => l ln; rewrite /mtr !el_mk ?nB ?cB.
  + by rewrite -mmB /mmul /= nB cB eqxx; congr Ok; apply: eq_mk => i j im jq;
      apply: eq_osum => l ln; rewrite /mtr !el_mk ?nB ?cB.
  + rewrite -trB /mv /= nB cB size_ofcv eqxx; congr Ok; apply: eq_mkseq_in => i im.
    by apply: eq_osum => l ln; rewrite /mtr !el_mk ?nB ?cB.
- exists (PySp (mtr (mtr B))) => //.
  case: aS => //= -[nB cB] mvB mmB trB.
  split=> /= [|x|q A|y]; first by rewrite nB cB.
  + by rewrite -mvB /mv /= nB cB size_ofcv eqxx; congr Ok; apply: eq_mkseq_in => i im;
      apply: eq_osum => l ln; rewrite /mtr !el_mk ?nB ?cB.
  + by rewrite -mmB /mmul /= nB cB eqxx; congr Ok; apply: eq_mk => i j im jq;
      apply: eq_osum => l ln; rewrite /mtr !el_mk ?nB ?cB.
  + rewrite -trB /mv /= nB cB size_ofcv eqxx; congr Ok; apply: eq_mkseq_in => i im.
    by apply: eq_osum => l ln; rewrite /mtr !el_mk ?nB ?cB.
by eexists; [by [] | case: f aS].
Qed.

Lemma srct_operatorP m n (s : st G R) : (0 < m)%N -> (0 < n)%N ->
  exists s' op (S : 'M[R]_(m, n)),
   [/\ srct_operator L r m n RGen s = (s', inr op), evs s' = evs s, acts_both op S &
       if (m <= n)%N then S *m S^T = (n%:R / m%:R)%:M else S^T *m S = (m%:R / n%:R)%:M].
Proof.
move=> m0 n0; rewrite /srct_operator; case: leqP => [mn|nm]; first exact: srct_wideP.
have [s1 [ri [e [perm [E1 e1 _ _ _]]]]] := generate_srctP s m0 n0; rewrite (bindE _ E1).
have [s2 [op [S [E2 e2 aS SS]]]] := srct_wideP s1 n0 (ltnW nm); rewrite (bindE _ E2).
have [op' -> a'] := acts_both_tr aS.
by exists s2, op', S^T; split=> //; rewrite ?e2 // trmxK.
Qed.

(** ** Sampling *)
Lemma sampling_wideP m n (J : seq nat) : inb n J -> size J = m ->
  exists f, [/\ sampling_wide (T := R) m n J = Ok (PyLin f), lo_nr f = m /\ lo_nc f = n,
    forall x : 'cV[R]_n, lo_mv f (ofcv x) = Ok (ofcv (rowsel x J m)),
    forall q (A : 'M[R]_(n, q)), lo_mm f (ofmx A) = Ok (ofmx (rowsel A J m)) &
    (uniq J -> forall y : 'cV[R]_m, lo_rmv f (ofcv y) = Ok (ofcv ((sel n J m) *m y))) /\
    (forall q (B : 'M[R]_(m, q)), q != 1%N -> lo_rmm f (ofmx B) = Err TypeError)].
Proof.
move=> iJ sJ; rewrite /sampling_wide /custom_linop /= vzerosE vidxE //=.
eexists; split; first by []; rewrite //=; try by move=> *; rewrite ?vidxE ?ridxE ?sJ.
split=> [uJ y|q B q1]; first by rewrite -vzerosE (set_vidx0E (c := m)).
by rewrite /sampling_rmm nc_ofmx (negPf q1).
Qed.

End Ops.
