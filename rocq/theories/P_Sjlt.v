(** Structure of the sparse operators. *)
From mathcomp Require Import all_ssreflect all_algebra.
From Verif Require Import Base Arr Lapack Exact MxLib LapackSpec LapackExists Rng Aware Sel P_RF P_Interp.
From Verif Require Import Sketching P_Sketch P_Sketch2 P_Sketch3.
Set Implicit Arguments.
Unset Strict Implicit.
Unset Printing Implicit Defensive.
Import Order.TTheory GRing.Theory Num.Theory.
Local Open Scope ring_scope.

Section Coo.
Variable R : rcfType.

Lemma cooE m n (l : seq (nat * nat * R)) : coo m n l =
  ofmx (\matrix_(i < m, j < n) \sum_(e <- l | (e.1.1 == i :> nat) && (e.1.2 == j :> nat)) e.2).
Proof.
apply: mk_eq_ofmx => i j; rewrite mxE.
have H (acc : R) : foldl (fun acc e => if (e.1.1 == i :> nat) && (e.1.2 == j :> nat) then (acc + e.2)%O else acc) acc l =
    acc + \sum_(e <- l | (e.1.1 == i :> nat) && (e.1.2 == j :> nat)) e.2.
  elim: l acc => [|e l IH] acc /=; first by rewrite big_nil addr0.
  by rewrite IH big_cons; case: ifP => _ //; rewrite addrA.
by rewrite H add0r.
Qed.

Lemma zip_take (X Y : Type) (s : seq X) (t : seq Y) : (size s <= size t)%N -> zip s (take (size s) t) = zip s t.
Proof. by elim: s t => [|x s IH] [|y t] //= H; rewrite IH. Qed.

Lemma coo_block (rv : seq nat) (v k i j : nat) (vals : seq R) : size rv = v -> size vals = v ->
  \sum_(e <- zip (zip rv (nseq v k)) vals | (e.1.1 == i) && (e.1.2 == j)) e.2 =
  if k == j then \sum_(a < v | nth 0%N rv a == i) nth 0 vals a else 0.
Proof.
move=> srv sv.
have s1 : size (zip rv (nseq v k)) = v by rewrite size1_zip ?size_nseq srv.
have s2 : size (zip (zip rv (nseq v k)) vals) = v by rewrite size1_zip ?s1 ?sv.
rewrite (big_nth ((0%N, 0%N), 0)) s2 big_mkord.
have E (a : 'I_v) : nth ((0%N, 0%N), 0) (zip (zip rv (nseq v k)) vals) a = ((nth 0%N rv a, k), nth 0 vals a).
  by rewrite nth_zip ?s1 ?sv // nth_zip ?size_nseq // nth_nseq ltn_ord.
case: eqP => [<-|kj].
  rewrite (eq_bigl (fun a : 'I_v => nth 0%N rv a == i)) => [|a]; last by rewrite E /= eqxx andbT.
  by apply: eq_bigr => a _; rewrite E.
by rewrite big_pred0 // => a; rewrite E /=; case: (k =P j) kj; rewrite ?andbF.
Qed.

Lemma coo_cols (rvs : seq (seq nat)) (v k i j : nat) (vals : seq R) :
  all (fun rv => size rv == v) rvs -> size vals = (size rvs * v)%N ->
  \sum_(e <- zip (zip (flatten rvs) (flatten [seq nseq v l | l <- iota k (size rvs)])) vals
     | (e.1.1 == i) && (e.1.2 == j)) e.2 =
  if (k <= j < k + size rvs)%N
  then \sum_(a < v | nth 0%N (nth [::] rvs (j - k)) a == i) nth 0 vals ((j - k) * v + a) else 0.
Proof.
elim: rvs k vals => [|rv rvs IH] k vals /=.
  by move=> _ /size0nil ->; rewrite big_nil addn0 ltnNge; case: leqP.
move=> /andP[/eqP srv srvs] sv; rewrite zip_cat ?size_nseq //.
set X := zip rv _; set Y := zip (flatten rvs) _.
have sX : size X = v by rewrite size1_zip ?size_nseq ?srv.
have sv1 : size (take v vals) = v by rewrite size_takel // sv mulSn leq_addr.
have -> : zip (X ++ Y) vals = zip X (take v vals) ++ zip Y (drop v vals).
  by rewrite -{1}(cat_take_drop v vals) zip_cat // sX.
rewrite big_cat /= coo_block // IH //; last by rewrite size_drop sv mulSn addKn.
have [kj|jk|kj] := ltngtP k j.
- rewrite add0r addSnnS; case: ifP => // _; rewrite -(subnSK kj) /=.
  apply: eq_bigr => a _; rewrite nth_drop; congr (nth 0 vals _).
  by rewrite mulSn addnA.
- by rewrite /= addr0.
rewrite /= addr0 -kj subnn addnS ltnS leq_addr mul0n /=.
by apply: eq_bigr => a _; rewrite nth_take.
Qed.

Lemma card_inb m (J : seq nat) : inb m J -> uniq J -> #|[set i : 'I_m | val i \in J]| = size J.
Proof.
move=> iJ uJ; rewrite cardsE.
have <- : size (pmap (insub : nat -> option 'I_m) J) = size J.
  by rewrite size_pmap_sub; apply/eqP; rewrite -all_count.
rewrite -(card_uniqP (pmap_sub_uniq _ uJ)); apply: eq_card => i.
by rewrite mem_pmap_sub.
Qed.

End Coo.

Section Sjlt.
Variables (R : rcfType) (G : Type) (r : rng_ops G R).
Hypothesis rok : rng_ok r.

Lemma choiceP' p k b (s : st G R) : (0 < p)%N || (k == 0)%N -> b || (k <= p)%N ->
  exists s' v, [/\ choice r p k b s = (s', inr v), evs s' = evs s, size v = k, inb p v & ~~ b -> uniq v].
Proof.
move=> h1 h2; rewrite /choice h1 h2 /= /getgen.
have /= := ok_choice rok (gen s) h1 h2.
by case: (r_choice _ _ _ _ _) => g' v /= [sv iv uv]; exists (St g' (evs s)), v.
Qed.

Lemma repeatP p k b n (s : st G R) : (0 < p)%N -> b || (k <= p)%N ->
  exists s' vs, [/\ repeatM n (choice r p k b) s = (s', inr vs), evs s' = evs s, size vs = n &
    all (fun v => [&& size v == k, inb p v & b || uniq v]) vs].
Proof.
move=> p0 h; elim: n s => [|n IH] s; first by exists s, [::].
have [|s1 [v [E1 e1 sv iv uv]]] := choiceP' s _ h; first by rewrite p0.
have [s2 [vs [E2 e2 svs avs]]] := IH s1.
exists s2, (v :: vs); rewrite /= (bindE _ E1) (bindE _ E2) svs; split=> //; first by rewrite e2.
by rewrite sv eqxx iv avs andbT /=; case: b uv {h E1 E2 IH avs} => // ->.
Qed.

(** One run of the wide case. *)
Lemma sjlt_wide_run m n nnz (s : st G R) : (0 < m)%N -> (m <= n)%N -> (0 < nnz)%N ->
  let v := minn n nnz in
  exists s' rvs (vals : seq R) (S : 'M[R]_(m, n)),
  [/\ sjlt_wide r m n nnz s = (s', inr (PySp (ofmx S))),
      evs s' = evs s ++ (if (m < v)%N then [:: EvWarn W_sjlt_size] else [::]),
      all (fun w => [&& size w == v, inb m w & (m < v)%N || uniq w]) rvs /\ size rvs = n,
      size vals = (n * v)%N /\
        (forall a, (a < n * v)%N -> nth 0 vals a = (Num.sqrt v%:R)^-1 \/ nth 0 vals a = - (Num.sqrt v%:R)^-1) &
      forall i j, S i j = \sum_(a < v | nth 0%N (nth [::] rvs j) a == i) nth 0 vals (j * v + a)].
Proof.
move=> m0 mn nnz0 v; have n0 := leq_trans m0 mn; rewrite /sjlt_wide.
pose s0 := if (m < v)%N then St (gen s) (rcons (evs s) (EvWarn W_sjlt_size)) else s.
have E0 : (if (m < v)%N then emit (EvWarn W_sjlt_size) else ret tt) s = (s0, inr tt) by rewrite /s0; case: ifP.
rewrite -/v (bindE _ E0).
have h : ((m < v) || (v <= m))%N by case: ltnP.
have [s1 [rvs [E1 e1 srv arv]]] := repeatP n s0 m0 h.
rewrite (bindE _ E1) ifN -?lt0n //.
have [s2 [u [E2 e2 su]]] := randomP rok (n * v) s1; rewrite -/v (bindE _ E2) /ret.
set vals := map _ u; have sv : size vals = (n * v)%N by rewrite size_map.
eexists s2, rvs, vals, _; split; first by rewrite cooE.
- by rewrite e2 e1 /s0; case: ifP => _; rewrite -?cats1 ?cats0.
- by [].
- split=> // a la; rewrite (nth_map 0) ?su //= onatE.
  by case: ifP => _; [right; rewrite mulN1r | left; rewrite mul1r].
move=> i j; rewrite mxE.
have := @coo_cols R rvs v 0 i j vals _ _; rewrite srv => ->; first by rewrite leq0n add0n ltn_ord subn0.
  by apply: sub_all arv => w /and3P[].
by [].
Qed.

Lemma sjlt_val_sq (v : nat) (x : R) : (0 < v)%N ->
  x = (Num.sqrt v%:R)^-1 \/ x = - (Num.sqrt v%:R)^-1 -> x ^+ 2 = v%:R^-1 /\ `|x| = (Num.sqrt v%:R)^-1.
Proof.
move=> v0; have p : 0 < (Num.sqrt (v%:R : R))^-1 by rewrite invr_gt0 sqrtr_gt0 ltr0n.
by case=> ->; rewrite ?normrN ?sqrrN exprVn sqr_sqrtr ?ler0n // gtr0_norm.
Qed.

Lemma sjlt_wideP m n nnz (s : st G R) : (0 < nnz)%N -> (nnz <= m)%N -> (m <= n)%N ->
  exists s' (S : 'M[R]_(m, n)),
  [/\ sjlt_wide r m n nnz s = (s', inr (PySp (ofmx S))), evs s' = evs s,
      (forall j, #|[set i | S i j != 0]| = nnz),
      (forall i j, S i j != 0 -> S i j = (Num.sqrt nnz%:R)^-1 \/ S i j = - (Num.sqrt nnz%:R)^-1) &
      forall j, fro2 (col j S) = 1].
Proof.
move=> nnz0 nm mn; have m0 := leq_trans nnz0 nm.
have [s' [rvs [vals [S [E e [arv srv] [sv hv] SE]]]]] := sjlt_wide_run s m0 mn nnz0.
move: E e arv sv hv SE; have -> : minn n nnz = nnz by apply/minn_idPr/(leq_trans nm).
rewrite ltnNge nm /= cats0 => E e arv sv hv SE.
have facts (j : 'I_n) : [/\ size (nth [::] rvs j) = nnz, inb m (nth [::] rvs j) & uniq (nth [::] rvs j)].
  by have /(all_nthP [::])/(_ j) := arv; rewrite srv ltn_ord => /(_ isT) /and3P[/eqP].
have bnd (j : 'I_n) a : (a < nnz)%N -> (j * nnz + a < n * nnz)%N.
  move=> la; apply: (@leq_trans (j.+1 * nnz)); first by rewrite mulSn addnC ltn_add2r.
  by rewrite leq_mul2r ltn_ord orbT.
have SI (i : 'I_m) (j : 'I_n) : S i j = if val i \in nth [::] rvs j
    then nth 0 vals (j * nnz + index (val i) (nth [::] rvs j)) else 0.
  have [sJ iJ uJ] := facts j; rewrite SE; case: ifP => iJ'.
    have ix : (index (val i) (nth [::] rvs j) < nnz)%N by rewrite -sJ index_mem.
    rewrite (big_pred1 (Ordinal ix)) // => a /=; rewrite -val_eqE /=.
    apply/eqP/eqP=> [<-|->]; last by rewrite nth_index.
    by rewrite index_uniq ?sJ.
  rewrite big_pred0 // => a; apply: contraFF iJ' => /eqP e1; rewrite /= -e1 mem_nth // sJ; exact: ltn_ord.
have inv0 : (Num.sqrt (nnz%:R : R))^-1 != 0 by rewrite gt_eqF // invr_gt0 sqrtr_gt0 ltr0n.
have SV (i : 'I_m) (j : 'I_n) : val i \in nth [::] rvs j ->
    S i j = (Num.sqrt nnz%:R)^-1 \/ S i j = - (Num.sqrt nnz%:R)^-1.
  move=> ij; rewrite SI ij; apply: hv; apply: bnd; have [<- _ _] := facts j; by rewrite index_mem.
have nz (i : 'I_m) (j : 'I_n) : (S i j != 0) = (val i \in nth [::] rvs j).
  apply/idP/idP; first by rewrite SI; case: ifP => //; rewrite eqxx.
  by case/SV=> ->; rewrite ?oppr_eq0.
exists s', S; split=> //.
- move=> j; have [sJ iJ uJ] := facts j; rewrite -sJ -(card_inb iJ uJ).
  by congr #|pred_of_set _|; apply/setP=> i; rewrite !inE nz.
- by move=> i j; rewrite nz; apply: SV.
move=> j; have [sJ iJ uJ] := facts j; rewrite /fro2.
under eq_bigr do rewrite big_ord1 mxE.
rewrite (bigID (fun i : 'I_m => val i \in nth [::] rvs j)) /= [X in _ + X]big1 ?addr0; last first.
  by move=> i ni; rewrite SI (negPf ni) expr0n.
rewrite (eq_bigr (fun=> nnz%:R^-1)) => [|i ij]; last by case: (sjlt_val_sq nnz0 (SV i j ij)).
rewrite sumr_const.
have -> : #|[pred i : 'I_m | val i \in nth [::] rvs j]| = nnz by rewrite -[RHS]sJ -(card_inb iJ uJ) cardsE.
by rewrite -[_ *+ nnz](mulr_natr _^-1) mulVf // pnatr_eq0 -lt0n.
Qed.

(** Columns shorter than the requested number of non-zeros: one warning, and
    the signed entries are summed. *)
Lemma sjlt_wide_bad m n nnz (s : st G R) : (0 < m)%N -> (m <= n)%N -> (m < minn n nnz)%N ->
  exists s' (S : 'M[R]_(m, n)),
  [/\ sjlt_wide r m n nnz s = (s', inr (PySp (ofmx S))), evs s' = rcons (evs s) (EvWarn W_sjlt_size) &
      forall j, \sum_i `|S i j| <= Num.sqrt (minn n nnz)%:R].
Proof.
move=> m0 mn bad; have nnz0 : (0 < nnz)%N by move: bad; rewrite leq_min => /andP[_]; case: nnz.
have [s' [rvs [vals [S [E e [arv srv] [sv hv] SE]]]]] := sjlt_wide_run s m0 mn nnz0.
move: E e arv sv hv SE bad; set v := minn n nnz => E e arv sv hv SE bad.
have v0 : (0 < v)%N by rewrite leq_min (leq_trans m0 mn).
rewrite bad cats1 in e; exists s', S; split=> // j.
have facts : size (nth [::] rvs j) = v /\ inb m (nth [::] rvs j).
  by have /(all_nthP [::])/(_ j) := arv; rewrite srv ltn_ord => /(_ isT) /and3P[/eqP].
have bnd a : (a < v)%N -> (j * v + a < n * v)%N.
  move=> la; apply: (@leq_trans (j.+1 * v)); first by rewrite mulSn addnC ltn_add2r.
  by rewrite leq_mul2r ltn_ord orbT.
apply: (@le_trans _ _ (\sum_(i < m) \sum_(a < v | nth 0%N (nth [::] rvs j) a == i) (Num.sqrt (v%:R : R))^-1)).
  apply: ler_sum => i _; rewrite SE; apply: le_trans (ler_norm_sum _ _ _) _.
  by apply: ler_sum => a _; have [_ ->] := sjlt_val_sq v0 (hv _ (bnd a (ltn_ord a))).
rewrite (exchange_big_dep xpredT) //=.
rewrite (eq_bigr (fun=> (Num.sqrt v%:R)^-1)) => [|a _].
  rewrite sumr_const card_ord -[_ *+ v](mulr_natr _^-1).
  have p : 0 < Num.sqrt (v%:R : R) by rewrite sqrtr_gt0 ltr0n.
  by rewrite -[X in _ * X](@sqr_sqrtr _ v%:R) ?ler0n // expr2 mulKf // gt_eqF.
have la : (nth 0%N (nth [::] rvs j) a < m)%N by apply: inb_nth; rewrite ?facts.1 ?facts.2.
rewrite (big_pred1 (Ordinal la)) // => i /=; by rewrite -val_eqE /= eq_sym.
Qed.

End Sjlt.
