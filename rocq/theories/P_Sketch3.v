(** The sampling and orthonormal operators for every [rng] argument. *)
From mathcomp Require Import all_ssreflect all_algebra.
From Verif Require Import Base Arr Lapack Exact MxLib LapackSpec LapackExists Rng Aware Sel P_RF P_Interp Sketching P_Sketch P_Sketch2.
Set Implicit Arguments.
Unset Strict Implicit.
Unset Printing Implicit Defensive.
Import Order.TTheory GRing.Theory Num.Theory.
Local Open Scope ring_scope.

Section WithRng.
Context {G T : Type}.
Variable r : rng_ops G T.

Lemma with_rngP X (c : M G T X) (P : X -> Prop) a (s : st G T) :
  (forall s0, evs s0 = evs s -> exists s' x, [/\ c s0 = (s', inr x), evs s' = evs s0 & P x]) ->
  exists s' x, [/\ with_rng r a c s = (s', inr x), evs s' = evs s & P x].
Proof.
move=> H; case: a => [|z|v] /=; first exact: H.
- by have [s' [x [-> e Px]]] := H (St (r_seed r z) (evs s)) erefl; exists (St (gen s) (evs s')), x.
by have [s' [x [-> e Px]]] := H (St (r_seeds r v) (evs s)) erefl; exists (St (gen s) (evs s')), x.
Qed.

(** [with_rng] commutes with pure post-processing. *)
Lemma with_rng_bind X Y (c : M G T X) (f : X -> res Y) a (s : st G T) :
  with_rng r a (let! x := c in lift (f x)) s = (let! x := with_rng r a c in lift (f x)) s.
Proof. by case: a => [|z|v] //=; rewrite /bind; case: (c _) => s' [e|x]. Qed.

End WithRng.

Section Sampling.
Variables (R : rcfType) (G : Type) (r : rng_ops G R).

Lemma sampling_given m n (J : seq nat) a (s : st G R) : (m <= n)%N -> inb n J -> size J = m ->
  exists s' op, [/\ sampling_operator r m n a (Some J) s = (s', inr op), evs s' = evs s, shape op = Some (m, n),
    (forall x : 'cV[R]_n, mul_rv op (ofcv x) = Ok (ofcv (rowsel x J m))) /\
    (forall q (A : 'M[R]_(n, q)), mul_r op (ofmx A) = Ok (ofmx (rowsel A J m))) &
    (uniq J -> acts_as op (rowsel (1%:M : 'M[R]_n) J m)) /\
    (exists2 op', py_tr op = Ok op' &
       forall q (B : 'M[R]_(m, q)), q != 1%N -> mul_r op' (ofmx B) = Err TypeError)].
Proof.
move=> mn iJ sJ; rewrite /sampling_operator.
have [f [Ef [nf cf] mvf mmf [rvf rmf]]] := sampling_wideP R iJ sJ.
set c := bind _ _.
have H (s0 : st G R) : c s0 = (s0, inr (PyLin f)).
  by rewrite /c /sampling_idx (minn_idPl mn) sJ eqxx bindA bind_passertT bind_retE mn Ef.
have [s' [op [E e eop]]] := with_rngP r (P := fun x => x = PyLin f) a (s := s)
  (fun s0 _ => ex_intro _ s0 (ex_intro _ _ (And3 (H s0) erefl erefl))).
subst op; exists s', (PyLin f); split=> //=; first by rewrite nf cf.
  by split=> *; rewrite cf ?size_ofcv eqxx.
have RS p (A : 'M[R]_(n, p)) : rowsel A J m = rowsel 1%:M J m *m A by rewrite !rowsel1E mulmx1.
split=> [uJ|].
  split=> /= [|x|q A|y]; rewrite ?nf ?cf ?size_ofcv ?eqxx //.
  + by rewrite mvf RS.
  + by rewrite mmf RS.
  by rewrite rvf // tr_rowsel trmx1.
by eexists; [by [] | move=> q B q1 /=; rewrite nf eqxx rmf].
Qed.

Hypothesis rok : rng_ok r.

Lemma sampling_idx_none m n (s : st G R) : (0 < maxn m n)%N -> exists s' J,
  [/\ sampling_idx r m n None s = (s', inr J), evs s' = evs s, size J = minn m n, inb (maxn m n) J &
      uniq J /\ sorted leq J].
Proof.
move=> M0; have mM : (minn m n <= maxn m n)%N by rewrite leq_max geq_minl.
have [|s1 [v [E e sv iv uv]]] := choiceP rok s _ mM; first by rewrite M0.
exists s1, (sort leq v); rewrite /= (bindE _ E); split=> //; first by rewrite size_sort.
  by rewrite /inb all_sort.
by split; [rewrite sort_uniq | apply: sort_sorted; exact: leq_total].
Qed.

Lemma sampling_drawn m n a (s : st G R) : (0 < m)%N -> (m <= n)%N ->
  exists s' op J, [/\ sampling_operator r m n a None s = (s', inr op), evs s' = evs s,
    [/\ size J = m, inb n J, uniq J & sorted leq J] &
    acts_as op (rowsel (1%:M : 'M[R]_n) J m)].
Proof.
move=> m0 mn; have n0 := leq_trans m0 mn.
have M0 : (0 < maxn m n)%N by rewrite leq_max m0.
have [|s' [op [E e [J [h1 h2]]]]] := with_rngP r
  (c := let! v := sampling_idx r m n None in if (m <= n)%N then lift (sampling_wide m n v)
    else let! Sk := with_rng r (RArr v)
        (let! v' := sampling_idx r n m None in lift (sampling_wide n m v')) in lift (py_tr Sk))
  (P := fun op => exists J, [/\ size J = m, inb n J, uniq J & sorted leq J] /\
    acts_as op (rowsel (1%:M : 'M[R]_n) J m)) a (s := s).
  move=> s0 _; have [s1 [J [E1 e1 sJ iJ [uJ oJ]]]] := sampling_idx_none s0 M0.
  move: sJ iJ; rewrite (minn_idPl mn) (maxn_idPr mn) => sJ iJ.
  have [f [Ef [nf cf] mvf mmf [rvf rmf]]] := sampling_wideP R iJ sJ.
  exists s1, (PyLin f); rewrite (bindE _ E1) mn Ef; split=> //; exists J; split=> //.
  have RS p (A : 'M[R]_(n, p)) : rowsel A J m = rowsel 1%:M J m *m A by rewrite !rowsel1E mulmx1.
  split=> /= [|x|q A|y]; rewrite ?nf ?cf ?size_ofcv ?eqxx //.
  + by rewrite mvf RS.
  + by rewrite mmf RS.
  by rewrite rvf // tr_rowsel trmx1.
by exists s', op, J.
Qed.

(** In the tall case the given indices only seed a new generator. *)
Lemma sampling_tall_seed m n (J : seq nat) a (s : st G R) : (n < m)%N -> size J = n ->
  (sampling_operator r m n a (Some J) s).2 =
  ((let! Sk := sampling_operator r n m (RArr J) None in lift (py_tr Sk)) s).2.
Proof.
move=> nm sJ; have mn : (m <= n)%N = false by rewrite leqNgt nm.
have nm' : (n <= m)%N := ltnW nm.
set rhs := bind _ _ _.
have H (s0 : st G R) : evs s0 = evs s ->
   ((let! v := sampling_idx r m n (Some J) in if (m <= n)%N then lift (sampling_wide m n v)
    else let! Sk := with_rng r (RArr v)
        (let! v' := sampling_idx r n m None in lift (sampling_wide n m v')) in lift (py_tr Sk)) s0).2 = rhs.2.
  move=> e0; rewrite /sampling_idx (minn_idPr nm') sJ eqxx bindA bind_passertT bind_retE mn.
  rewrite /rhs /sampling_operator /= /sampling_idx nm' /bind e0.
  by case: (choice _ _ _ _ _) => s1 [e|x] //=; rewrite /ret /lift; case: (sampling_wide _ _ _).
rewrite /sampling_operator; case: a => [|z|v] /=.
- exact: H.
- by rewrite -(H (St (r_seed r z) (evs s)) erefl); case: (bind _ _ _).
by rewrite -(H (St (r_seeds r v) (evs s)) erefl); case: (bind _ _ _).
Qed.

Lemma py_tr_acts op m n (S : 'M[R]_(m, n)) op' : acts_as op S -> py_tr op = Ok op' ->
  shape op' = Some (n, m).
Proof. by case: op => //= [B|B|f] [/= [h1 h2] _ _ _] [<-] /=; rewrite ?h1 ?h2. Qed.


Lemma sampling_shape m n idx a (s : st G R) : (0 < m)%N -> (0 < n)%N ->
  (if idx is Some J then inb (maxn m n) J /\ size J = minn m n else True) ->
  exists s' op, [/\ sampling_operator r m n a idx s = (s', inr op), evs s' = evs s & shape op = Some (m, n)].
Proof.
move=> m0 n0; case: (leqP m n) => [mn|nm].
  rewrite ?(minn_idPl mn) ?(maxn_idPr mn); case: idx => [J [iJ sJ]|_].
    by have [s' [op [h1 h2 h3 _ _]]] := sampling_given a s mn iJ sJ; exists s', op.
  by have [s' [op [J [h1 h2 _ h3]]]] := sampling_drawn a s m0 mn; exists s', op; split=> //; case: h3.
have nm' := ltnW nm; have mn : (m <= n)%N = false by rewrite leqNgt nm.
rewrite ?(minn_idPr nm') ?(maxn_idPl nm') => hidx.
have M0 : (0 < maxn m n)%N by rewrite leq_max m0.
apply: with_rngP => s0 e0.
have [s1 [J [E1 e1]]] : exists s1 J, (sampling_idx r m n idx s0 = (s1, inr J)) /\ evs s1 = evs s0.
  case: idx hidx => [J [iJ sJ]|_].
    by exists s0, J; rewrite /sampling_idx (minn_idPr nm') sJ eqxx bind_passertT.
  by have [s1 [J [E1 e1 _ _ _]]] := sampling_idx_none s0 M0; exists s1, J.
rewrite (bindE _ E1) mn.
have [s2 [op [J2 [E2 e2 _ h3]]]] := sampling_drawn (RArr J) s1 n0 nm'.
rewrite /sampling_operator nm' in E2; rewrite (bindE _ E2) /lift.
have [op' E3] : exists op', py_tr op = Ok op' by case: op h3 {E2} => [[]|B|B|f] //=; eexists.
exists s2, op'; rewrite E3; split=> //; first by rewrite e2.
exact: py_tr_acts h3 E3.
Qed.

End Sampling.

Section Ortho.
Variable R : rcfType.

(** QR with positive diagonal is unique. *)
Lemma gram_uptri n (U : 'M[R]_n) (i j : 'I_n) : uptri U ->
  (U^T *m U) i j = \sum_(l < n | (l < i)%N) U l i * U l j + U i i * U i j.
Proof.
move=> tU; rewrite mxE (bigID (fun l : 'I_n => (l < i)%N)) /=; congr (_ + _).
  by apply: eq_bigr => l _; rewrite mxE.
rewrite (bigD1 i) ?ltnn //= big1 ?addr0 ?mxE // => l /andP[li lni].
rewrite mxE (tU l i) ?mul0r // ltn_neqAle leqNgt li andbT.
by apply: contraNneq lni => /val_inj->.
Qed.

Lemma pos_uptri_uniq n (U V : 'M[R]_n) : uptri U -> uptri V ->
  (forall i, 0 < U i i) -> (forall i, 0 < V i i) -> U^T *m U = V^T *m V -> U = V.
Proof.
move=> tU tV pU pV E.
suff H k : forall i j : 'I_n, (i < k)%N -> U i j = V i j by apply/matrixP=> i j; apply: (H n).
elim: k => // k IH i j; rewrite ltnS => ik.
have S0 (a : 'I_n) : \sum_(l < n | (l < i)%N) U l i * U l a = \sum_(l < n | (l < i)%N) V l i * V l a.
  by apply: eq_bigr => l li; rewrite !IH // (leq_trans li).
have Eij (a : 'I_n) : U i i * U i a = V i i * V i a.
  have := congr1 (fun M : 'M[R]_n => M i a) E; rewrite !gram_uptri // S0.
  by move/addrI.
have d : U i i = V i i.
  have := Eij i; rewrite -!expr2 => /eqP; rewrite eqr_expn2 ?ltW //; exact/eqP.
by have := Eij j; rewrite d; apply: mulfI; rewrite gt_eqF.
Qed.

Lemma qr_unique m n (Q1 Q2 : 'M[R]_(m, n)) (U1 U2 : 'M[R]_n) :
  orthonormal Q1 -> orthonormal Q2 -> uptri U1 -> uptri U2 ->
  (forall i, 0 < U1 i i) -> (forall i, 0 < U2 i i) -> Q1 *m U1 = Q2 *m U2 -> Q1 = Q2 /\ U1 = U2.
Proof.
move=> o1 o2 t1 t2 p1 p2 E.
have e : U1 = U2.
  apply: pos_uptri_uniq => //.
  have G k (Q : 'M[R]_(m, k)) (U : 'M[R]_k) : orthonormal Q -> U^T *m U = (Q *m U)^T *m (Q *m U).
    by move=> o; rewrite trmx_mul mulmxA -(mulmxA U^T) o mulmx1.
  by rewrite (G _ _ _ o1) E -(G _ _ _ o2).
split=> //; have uU : U2 \in unitmx.
  by rewrite uptri_unit //; apply/forallP=> i; rewrite gt_eqF.
by rewrite -(mulmxK uU Q1) -e E e mulmxK.
Qed.

Variables (G : Type) (L : lapack R) (r : rng_ops G R).
Hypotheses (qr : qr_spec L) (rok : rng_ok r).

Lemma cmulE' m n (A : 'M[R]_(m, n)) (v : 'rV[R]_n) (l : seq R) :
  size l = n -> (forall j : 'I_n, ev l j = v 0 j) ->
  cmul (ofmx A) l = Ok (ofmx (A *m diag_mx v)).
Proof.
move=> sl ev_; rewrite /cmul nc_ofmx sl eqxx; congr Ok; apply: mk_eq_ofmx => i j.
by rewrite el_ofmx ev_ mul_mx_diag mxE.
Qed.

Lemma orthonormal_tall_run m n (X : 'M[R]_(m, n)) (s s1 : st G R) : (0 < n)%N -> (n <= m)%N ->
  gaussian_operator r true m n s = (s1, inr (PyArr (ofmx X))) -> \rank X = n ->
  exists Q U, [/\ orthonormal_tall L r m n s = (s1, inr (PyArr (ofmx Q))), orthonormal Q, uptri U,
    (forall i : 'I_n, 0 < U i i) & X = Q *m U].
Proof.
move=> n0 nm E rX; rewrite /orthonormal_tall (bindE _ E).
have [Q [U [EQ oQ tU XE]]] := qr_tall X qr n0 nm.
rewrite EQ bind_liftE /=.
have sd : size [seq osign x | x <- mdiag (ofmx U)] = n by rewrite size_map size_mkseq minnn.
pose d : 'rV[R]_n := \row_i Num.sg (U i i).
have ed (j : 'I_n) : ev [seq osign x | x <- mdiag (ofmx U)] j = d 0 j.
  rewrite /ev (nth_map 0) ?size_mkseq ?minnn // nth_mkseq ?minnn // el_ofmx osignE mxE //.
rewrite (cmulE' Q sd ed) bind_liftE /ret.
have rU : \rank U = n.
  by apply/eqP; rewrite eqn_leq rank_leq_row -{1}rX XE mxrankM_maxr.
have uU : U \in unitmx by rewrite -full_col_unit.
have nz i : U i i != 0 by move: uU; rewrite uptri_unit // => /forallP/(_ i).
have dd : diag_mx d *m diag_mx d = 1%:M.
  rewrite mulmx_diag -diag_const_mx; congr diag_mx; apply/rowP=> i; rewrite !mxE.
  by rewrite -expr2 sqr_sg nz.
exists (Q *m diag_mx d), (diag_mx d *m U); split=> //.
- rewrite /orthonormal trmx_mul tr_diag_mx mulmxA -(mulmxA _ Q^T) oQ mulmx1; exact: dd.
- by move=> i j ji; rewrite mul_diag_mx mxE (tU i j ji) mulr0.
- by move=> i; rewrite mul_diag_mx !mxE -normrEsg normr_gt0.
by rewrite mulmxA -(mulmxA Q) dd mulmx1.
Qed.

(** A rank deficient draw gives a zero column. *)
Lemma orthonormal_tall_deficient m n (X : 'M[R]_(m, n)) (s s1 : st G R) : (0 < n)%N -> (n <= m)%N ->
  gaussian_operator r true m n s = (s1, inr (PyArr (ofmx X))) -> (\rank X < n)%N ->
  exists Q : 'M[R]_(m, n), orthonormal_tall L r m n s = (s1, inr (PyArr (ofmx Q))) /\ exists i, col i Q = 0.
Proof.
move=> n0 nm E rX; rewrite /orthonormal_tall (bindE _ E).
have [Q [U [EQ oQ tU XE]]] := qr_tall X qr n0 nm.
rewrite EQ bind_liftE /=.
have sd : size [seq osign x | x <- mdiag (ofmx U)] = n by rewrite size_map size_mkseq minnn.
pose d : 'rV[R]_n := \row_i Num.sg (U i i).
have ed (j : 'I_n) : ev [seq osign x | x <- mdiag (ofmx U)] j = d 0 j.
  rewrite /ev (nth_map 0) ?size_mkseq ?minnn // nth_mkseq ?minnn // el_ofmx osignE mxE //.
rewrite (cmulE' Q sd ed) bind_liftE /ret; exists (Q *m diag_mx d); split=> //.
have uU : U \notin unitmx.
  apply: contraL rX => /full_col_unit rU; rewrite -leqNgt -{1}rU XE.
  by rewrite -mxrank_tr -(mxrank_tr (Q *m U)) trmx_mul -{1}[U^T]mulmx1 -oQ mulmxA mxrankM_maxl.
move: uU; rewrite uptri_unit // negb_forall => /existsP[i]; rewrite negbK => /eqP Ui.
by exists i; apply/colP=> l; rewrite mul_mx_diag !mxE Ui sgr0 mulr0.
Qed.

Lemma with_rng_map X Y (c : M G R X) (f : M G R Y) (P : Y -> Prop) a (s s1 : st G R) x :
  (forall s0 s2, c s0 = (s2, inr x) -> exists2 y, f s0 = (s2, inr y) & P y) ->
  with_rng r a c s = (s1, inr x) -> exists2 y, with_rng r a f s = (s1, inr y) & P y.
Proof.
move=> H; case: a => [|z|v] /=; first exact: H.
- case E: (c _) => [s2 [e|w]] // [<- ew]; rewrite ew in E.
  by have [y -> Py] := H _ _ E; exists y.
case E: (c _) => [s2 [e|w]] // [<- ew]; rewrite ew in E.
by have [y -> Py] := H _ _ E; exists y.
Qed.

Lemma orthonormal_op m n (X : 'M[R]_(m, n)) a (s s1 : st G R) : (0 < n)%N -> (n <= m)%N ->
  with_rng r a (gaussian_operator r true m n) s = (s1, inr (PyArr (ofmx X))) -> \rank X = n ->
  exists Q U, [/\ orthonormal_operator L r m n a s = (s1, inr (PyArr (ofmx Q))),
    (n < m)%N -> orthonormal_operator L r n m a s = (s1, inr (PyArr (ofmx Q^T))), orthonormal Q, X = Q *m U &
    uptri U /\ (forall i : 'I_n, 0 < U i i)].
Proof.
move=> n0 nm E rX.
have [|y H [Q [U [ey oQ tU pU XE]]]] := with_rng_map (f := orthonormal_tall L r m n)
  (P := fun y => exists Q U, [/\ y = PyArr (ofmx Q), orthonormal Q, uptri U,
     (forall i : 'I_n, 0 < U i i) & X = Q *m U]) _ E.
  move=> s0 s2 E0; have [Q [U [E' h1 h2 h3 h4]]] := orthonormal_tall_run n0 nm E0 rX.
  by exists (PyArr (ofmx Q)) => //; exists Q, U.
subst y.
exists Q, U; split=> //.
  by rewrite /orthonormal_operator ltnNge nm.
by move=> lt; rewrite /orthonormal_operator lt (bindE _ H) /= mtrE.
Qed.

Lemma orthonormal_deficient m n (X : 'M[R]_(m, n)) a (s s1 : st G R) : (0 < n)%N -> (n <= m)%N ->
  with_rng r a (gaussian_operator r true m n) s = (s1, inr (PyArr (ofmx X))) -> (\rank X < n)%N ->
  exists Q : 'M[R]_(m, n), orthonormal_operator L r m n a s = (s1, inr (PyArr (ofmx Q))) /\ ~ orthonormal Q.
Proof.
move=> n0 nm E rX.
have no (Q : 'M[R]_(m, n)) i : col i Q = 0 -> ~ orthonormal Q.
  move=> c0 /matrixP/(_ i i); rewrite mxE big1 ?mxE ?eqxx => [/eqP|l _].
    by rewrite eq_sym oner_eq0.
  by have /colP/(_ l) := c0; rewrite !mxE => ->; rewrite mul0r.
rewrite /orthonormal_operator ltnNge nm /=.
have [|y H [Q [ey nQ]]] := with_rng_map (f := orthonormal_tall L r m n)
  (P := fun y => exists Q : 'M[R]_(m, n), y = PyArr (ofmx Q) /\ ~ orthonormal Q) _ E.
  move=> s0 s2 E0; have [Q [E' [i /no h]]] := orthonormal_tall_deficient n0 nm E0 rX.
  by exists (PyArr (ofmx Q)) => //; exists Q.
by exists Q; rewrite H ey.
Qed.

End Ortho.

(** The result does not depend on the signs LAPACK chooses. *)
Lemma orthonormal_lapack_indep (R : rcfType) (G : Type) (L1 L2 : lapack R) (r : rng_ops G R)
    m n (X : 'M[R]_(m, n)) a (s s1 : st G R) : qr_spec L1 -> qr_spec L2 -> (0 < n)%N -> (n <= m)%N ->
  with_rng r a (gaussian_operator r true m n) s = (s1, inr (PyArr (ofmx X))) -> \rank X = n ->
  orthonormal_operator L1 r m n a s = orthonormal_operator L2 r m n a s.
Proof.
move=> q1 q2 n0 nm E rX.
have [Q1 [U1 [-> _ o1 E1 [t1 p1]]]] := orthonormal_op q1 n0 nm E rX.
have [Q2 [U2 [-> _ o2 E2 [t2 p2]]]] := orthonormal_op q2 n0 nm E rX.
by have [-> _] := qr_unique o1 o2 t1 t2 p1 p2 (etrans (esym E1) E2).
Qed.
