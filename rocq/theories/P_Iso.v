(** Sketching operators preserve squared lengths on average (property C76). *)
From mathcomp Require Import all_ssreflect all_algebra.
From Verif Require Import Base Arr Lapack Exact MxLib LapackSpec LapackExists Rng Aware Sel P_RF P_Svd P_Interp RingTac.
From Verif Require Import Sketching P_Sketch P_Sketch2 P_Sketch3 P_Sjlt.
Set Implicit Arguments.
Unset Strict Implicit.
Unset Printing Implicit Defensive.
Import Order.TTheory GRing.Theory Num.Theory.
Local Open Scope ring_scope.

(** A mean value over the states of the generator: a normalised linear functional. *)
Record mean (R : rcfType) (G : Type) (E : (G -> R) -> R) : Prop := Mean {
  mean_ext : forall f g, f =1 g -> E f = E g;
  mean_add : forall f g, E (fun x => f x + g x) = E f + E g;
  mean_scale : forall c f, E (fun x => c * f x) = c * E f;
  mean_one : E (fun=> 1) = 1
}.

(** The matrix of an operator, read off from its products with unit vectors,
    for the outcome of a call (0 if the call raised). *)
Definition opmat (R : rcfType) m n (op : pyop R) : 'M[R]_(m, n) :=
  \matrix_(i, j) if mul_rv op (ofcv (delta_mx j 0 : 'cV[R]_n)) is inr v then nth 0 v i else 0.
Definition outmat (R : rcfType) (G : Type) m n (x : st G R * res (pyop R)) : 'M[R]_(m, n) :=
  if x.2 is inr op then opmat m n op else 0.

(** rng.normal(0, scale, (m, n)) has uncorrelated entries of variance scale^2. *)
Definition uncorrelated (R : rcfType) (G : Type) (E : (G -> R) -> R) (r : rng_ops G R) (m n : nat) : Prop :=
  forall c i j k l, (i < m)%N -> (j < n)%N -> (k < m)%N -> (l < n)%N ->
  E (fun g => el (r_normal r g c m n).2 i j * el (r_normal r g c m n).2 k l) =
  c ^+ 2 * ((i == k) && (j == l))%:R.

(** n consecutive draws rng.choice(p, k, replace=b). *)
Fixpoint choices (R : rcfType) (G : Type) (r : rng_ops G R) (p k : nat) (b : bool) (n : nat) (g : G) :
    G * seq (seq nat) :=
  if n is n'.+1 then
    let: (g1, v) := r_choice r g p k b in
    let: (g2, vs) := choices r p k b n' g1 in (g2, v :: vs)
  else (g, [::]).

(** The signs read off from u[0..N) (-1 up to one half, 1 above) are
    uncorrelated, also given Y. *)
Definition random_signs (R : rcfType) (G X : Type) (E : (G -> R) -> R) (Y : G -> X) (u : G -> seq R) (N : nat) :
    Prop :=
  let sg x : R := if x <= 1 / (1 + 1) then -1 else 1 in
  forall (F : X -> R) a b, (a < N)%N -> (b < N)%N ->
  E (fun g => F (Y g) * (sg (nth 0 (u g) a) * sg (nth 0 (u g) b))) = (a == b)%:R * E (fun g => F (Y g)).

(** Every i < n is in the sample with probability q, also given Y. *)
Definition fair_sample (R : rcfType) (G X : Type) (E : (G -> R) -> R) (Y : G -> X) (J : G -> seq nat) (n : nat)
    (q : R) : Prop :=
  forall (F : X -> R) i, (i < n)%N -> E (fun g => (i \in J g)%:R * F (Y g)) = q * E (fun g => F (Y g)).

Section Iso.
Variables (R : rcfType) (G : Type) (E : (G -> R) -> R).
Hypothesis mE : mean E.

Lemma mean0 : E (fun=> 0) = 0.
Proof. by rewrite -[RHS](mul0r (E (fun=> 1))) -(mean_scale mE); apply: (mean_ext mE) => g; rewrite mul0r. Qed.

Lemma mean_const c : E (fun=> c) = c.
Proof. by rewrite -[RHS]mulr1 -(mean_one mE) -(mean_scale mE); apply: (mean_ext mE) => g; rewrite mulr1. Qed.

Lemma mean_sum I (s : seq I) (P : pred I) (f : I -> G -> R) :
  E (fun g => \sum_(i <- s | P i) f i g) = \sum_(i <- s | P i) E (f i).
Proof.
elim: s => [|i s IH].
  by rewrite [RHS]big_nil -[RHS]mean0; apply: (mean_ext mE) => g; rewrite big_nil.
rewrite big_cons -IH; case: ifP => Pi; last by apply: (mean_ext mE) => g; rewrite big_cons Pi.
by rewrite -(mean_add mE); apply: (mean_ext mE) => g; rewrite big_cons Pi.
Qed.

Lemma opmat_acts op m n (S : 'M[R]_(m, n)) : acts_as op S -> opmat m n op = S.
Proof.
move=> aS; apply/matrixP=> i j; rewrite mxE (aa_mv aS) /= (nth_ofcv _ (ltn_ord i)) mxE (bigD1 j) //=.
rewrite mxE !eqxx mulr1 big1 ?addr0 => [|k kj]; last by rewrite mxE (negPf kj) mulr0.
by congr (S _ _); apply: val_inj.
Qed.

Variable r : rng_ops G R.
Hypothesis rok : rng_ok r.

(** ** Gaussian operators *)
Lemma gauss_call m n (g : G) es : (0 < m)%N -> (0 < n)%N ->
  outmat m n (gaussian_operator r true m n (St g es)) =
  \matrix_(i, j) el (r_normal r g (Num.sqrt (minn m n)%:R^-1) m n).2 i j.
Proof.
move=> m0 n0; rewrite /gaussian_operator ifN -?lt0n ?leq_min ?m0 //.
rewrite /bind /getgen /= onatE div1r.
have := ok_normal rok g (Num.sqrt (minn m n)%:R^-1) m n.
case: (r_normal _ _ _ _ _) => g' Y /= [wfY [nrY ncY]].
have [X ->] := wf_ofmx wfY nrY ncY.
rewrite /outmat /= (opmat_acts (acts_arr X)); apply/matrixP=> i j; rewrite mxE el_ofmx_nat //.
by congr (X _ _); apply: val_inj.
Qed.

Lemma gauss_iso m n es : uncorrelated E r m n -> (0 < m)%N -> (0 < n)%N ->
  let S g := outmat m n (gaussian_operator r true m n (St g es)) in
  ((m <= n)%N -> forall j l, E (fun g => ((S g)^T *m S g) j l) = (j == l)%:R) /\
  ((n <= m)%N -> forall i k, E (fun g => (S g *m (S g)^T) i k) = (i == k)%:R).
Proof.
move=> uc m0 n0 S; set c : R := Num.sqrt (minn m n)%:R^-1.
have c2 : c ^+ 2 = (minn m n)%:R^-1 by rewrite sqr_sqrtr // invr_ge0 ler0n.
have SE g i j : S g i j = el (r_normal r g c m n).2 i j by rewrite /S gauss_call // mxE.
split=> le j l.
- transitivity (E (fun g => \sum_(i < m) el (r_normal r g c m n).2 i j * el (r_normal r g c m n).2 i l)).
    by apply: (mean_ext mE) => g; rewrite mxE; apply: eq_bigr => i _; rewrite mxE !SE.
  rewrite mean_sum (eq_bigr (fun=> c ^+ 2 * (j == l)%:R)) => [|i _]; last by rewrite uc // eqxx.
  rewrite sumr_const card_ord c2 (minn_idPl le) -mulrnAl -[_ *+ m]mulr_natl divff ?mul1r //.
  by rewrite pnatr_eq0 -lt0n.
transitivity (E (fun g => \sum_(i < n) el (r_normal r g c m n).2 j i * el (r_normal r g c m n).2 l i)).
  by apply: (mean_ext mE) => g; rewrite mxE; apply: eq_bigr => i _; rewrite mxE !SE.
rewrite mean_sum (eq_bigr (fun=> c ^+ 2 * (j == l)%:R)) => [|i _]; last by rewrite uc // eqxx andbT.
rewrite sumr_const card_ord c2 (minn_idPr le) -mulrnAl -[_ *+ n]mulr_natl divff ?mul1r //.
by rewrite pnatr_eq0 -lt0n.
Qed.

(** ** SJLT operators *)
Lemma repeat_choices p k b n g (es : seq (event R)) : (0 < p)%N || (k == 0)%N -> b || (k <= p)%N ->
  repeatM n (choice r p k b) (St g es) = (St (choices r p k b n g).1 es, inr (choices r p k b n g).2).
Proof.
move=> h1 h2; elim: n g => [|n IH] g //=.
rewrite /bind /choice h1 h2 /= /getgen /=.
case: (r_choice r g p k b) => g1 v; move: (IH g1); rewrite /choice h1 h2 /= => ->.
by case: (choices _ _ _ _ _ _).
Qed.

Lemma choices_ok p k b n g : (0 < p)%N -> b || (k <= p)%N ->
  size (choices r p k b n g).2 = n /\ all (fun v => (size v == k) && inb p v) (choices r p k b n g).2.
Proof.
move=> p0 h; elim: n g => [|n IH] g //=.
have /= := ok_choice rok g (p := p) (k := k) (b := b) _ h; rewrite p0 => /(_ isT).
case: (r_choice r g p k b) => g1 v /= [sv iv _]; case: (IH g1).
by case: (choices _ _ _ _ _ g1) => g2 vs /= -> ->; rewrite sv eqxx [inb p v]iv.
Qed.

Let sg (x : R) : R := if x <= 1 / (1 + 1) then -1 else 1.

Lemma sjlt_call m n nnz g es : (0 < m)%N -> (m <= n)%N ->
  let v := minn n nnz in let C := choices r m v (m < v)%N n g in
  let u := (r_random r C.1 (n * v)).2 in
  exists s' , sjlt_wide r m n nnz (St g es) = (s', inr (PySp (ofmx (\matrix_(i < m, j < n)
    \sum_(a < v | nth 0%N (nth [::] C.2 j) a == i) (sg (nth 0 u (j * v + a)) / Num.sqrt v%:R))))).
Proof.
move=> m0 mn v C u; have n0 := leq_trans m0 mn; rewrite /sjlt_wide -/v.
pose es0 := if (m < v)%N then rcons es (EvWarn W_sjlt_size) else es.
have E0 : (if (m < v)%N then emit (EvWarn W_sjlt_size) else ret tt) (St g es) = (St g es0, inr tt).
  by rewrite /es0; case: ifP.
rewrite (bindE _ E0).
have h : ((m < v) || (v <= m))%N by case: ltnP.
have [sC aC] := choices_ok n g m0 h.
have h0 : (0 < m)%N || (v == 0)%N by rewrite m0.
rewrite (bindE _ (repeat_choices n g es0 h0 h)) ifN -?lt0n // -/C.
have := ok_random rok C.1 (n * v); rewrite -/u => su.
have E2 : random r (n * v) (St C.1 es0) = (St (r_random r C.1 (n * v)).1 es0, inr u).
  by rewrite /random /getgen /= /u; case: (r_random _ _ _).
rewrite (bindE _ E2) /ret; eexists; congr (_, inr (PySp _)).
rewrite cooE; congr ofmx; apply/matrixP=> i j; rewrite !mxE.
set vals := map _ u; have sv : size vals = (n * v)%N by rewrite size_map.
have := @coo_cols R C.2 v 0 i j vals _ _; rewrite sC => ->; first last.
- by [].
- by apply: sub_all aC => w /andP[].
rewrite leq0n add0n ltn_ord subn0; apply: eq_bigr => a _.
rewrite (nth_map 0) ?onatE // su.
apply: (@leq_trans (j * v + v)); first by rewrite ltn_add2l.
by rewrite addnC -mulSn leq_mul2r ltn_ord orbT.
Qed.

Lemma sjlt_gram m n nnz : (0 < m)%N -> (m <= n)%N -> (0 < nnz)%N ->
  let v := minn n nnz in let C g := choices r m v (m < v)%N n g in
  random_signs E (fun g => (C g).2) (fun g => (r_random r (C g).1 (n * v)).2) (n * v) ->
  forall j l : 'I_n,
  E (fun g => \sum_(i < m)
    (\sum_(a < v | nth 0%N (nth [::] (C g).2 j) a == i) (sg (nth 0 (r_random r (C g).1 (n * v)).2 (j * v + a)) / Num.sqrt v%:R)) *
    (\sum_(b < v | nth 0%N (nth [::] (C g).2 l) b == i) (sg (nth 0 (r_random r (C g).1 (n * v)).2 (l * v + b)) / Num.sqrt v%:R)))
  = (j == l)%:R.
Proof.
move=> m0 mn nnz0 v C rs j l; have n0 := leq_trans m0 mn.
have v0 : (0 < v)%N by rewrite leq_min n0.
have vR : v%:R != 0 :> R by rewrite pnatr_eq0 -lt0n.
set u := fun g => (r_random r (C g).1 (n * v)).2.
pose F (i : 'I_m) (a b : 'I_v) (c : seq (seq nat)) : R :=
  ((nth 0%N (nth [::] c j) a == i) && (nth 0%N (nth [::] c l) b == i))%:R / v%:R.
transitivity (E (fun g => \sum_(i < m) \sum_(a < v) \sum_(b < v)
   F i a b (C g).2 * (sg (nth 0 (u g) (j * v + a)) * sg (nth 0 (u g) (l * v + b))))).
  apply: (mean_ext mE) => g; apply: eq_bigr => i _.
  rewrite big_distrl big_mkcond; apply: eq_bigr => a _ /=.
  case: eqP => ai; last by rewrite big1 // => b _; rewrite /F; case: eqP ai => //= _ _; rewrite !mul0r.
  rewrite big_distrr big_mkcond; apply: eq_bigr => b _ /=.
  rewrite /F ai eqxx /=; case: eqP => bi; last by rewrite !mul0r.
  have sq : (v%:R : R)^-1 = (Num.sqrt v%:R)^-1 * (Num.sqrt v%:R)^-1.
    by rewrite -invfM -expr2 sqr_sqrtr ?ler0n.
  rewrite mul1r sq /u; set x := sg _; set y := sg _; set z := _^-1.
  by rewrite mulrACA mulrC.
have lt (k : 'I_n) (a : 'I_v) : (k * v + a < n * v)%N.
  apply: (@leq_trans (k * v + v)); first by rewrite ltn_add2l.
  by rewrite addnC -mulSn leq_mul2r ltn_ord orbT.
have inj (a b : 'I_v) : (j * v + a == l * v + b)%N = (j == l) && (a == b).
  apply/eqP/andP=> [h|[/eqP-> /eqP->] //].
  have := congr1 (fun x => (x %/ v)%N) h; have := congr1 (fun x => (x %% v)%N) h.
  rewrite !modnMDl !modn_small // !divnMDl // !divn_small // !addn0 => ha hj.
  by split; apply/eqP/val_inj.
rewrite mean_sum (eq_bigr (fun i => \sum_(a < v) (j == l)%:R * E (fun g => F i a a (C g).2))); last first.
  move=> i _; rewrite mean_sum; apply: eq_bigr => a _; rewrite mean_sum (bigD1 a) //= big1 => [|b ba].
    by rewrite addr0 (rs (F i a a)) // inj eqxx andbT.
  by rewrite (rs (F i a b)) // inj [a == b]eq_sym (negPf ba) andbF mul0r.
case: (j =P l) => [jl|_]; last by rewrite big1 // => i _; rewrite big1 // => a _; rewrite mul0r.
under eq_bigr do under eq_bigr do rewrite mul1r.
under eq_bigr do rewrite -mean_sum.
rewrite -mean_sum -(mean_one mE); apply: (mean_ext mE) => g.
have h : ((m < v) || (v <= m))%N by case: ltnP.
have [sC aC] := choices_ok n g m0 h; rewrite -/(C g) in sC aC.
have := allP aC (nth [::] (C g).2 j); rewrite mem_nth ?sC // => /(_ isT) /andP[/eqP sj ij].
rewrite exchange_big /= (eq_bigr (fun=> v%:R^-1)) => [|a _].
  by rewrite sumr_const card_ord -[_ *+ v]mulr_natl divff.
have am : (nth 0%N (nth [::] (C g).2 j) a < m)%N by apply: inb_nth ij _; rewrite sj.
rewrite (bigD1 (Ordinal am)) //= /F -jl andbb eqxx mul1r big1 ?addr0 // => i ia.
by rewrite andbb; case: eqP => [e|_]; rewrite ?mul0r //; case/eqP: ia; apply: val_inj.
Qed.

Lemma sjlt_iso m n nnz es : (0 < m)%N -> (m <= n)%N -> (0 < nnz)%N ->
  let v := minn n nnz in let C g := choices r m v (m < v)%N n g in
  random_signs E (fun g => (C g).2) (fun g => (r_random r (C g).1 (n * v)).2) (n * v) ->
  (let S g := outmat m n (sjlt_operator r m n RGen nnz (St g es)) in
   forall j l, E (fun g => ((S g)^T *m S g) j l) = (j == l)%:R) /\
  (let S g := outmat n m (sjlt_operator r n m RGen nnz (St g es)) in
   (m < n)%N -> forall j l, E (fun g => (S g *m (S g)^T) j l) = (j == l)%:R).
Proof.
move=> m0 mn nnz0 v C rs; split=> [S|S lt] j l; rewrite -[RHS](sjlt_gram m0 mn nnz0 rs);
  apply: (mean_ext mE) => g; have [s' E'] := sjlt_call nnz g es m0 mn.
  rewrite /S /sjlt_operator /= mn E' /outmat /= (opmat_acts (acts_sp _)) mxE.
  by apply: eq_bigr => i _; rewrite !mxE.
rewrite /S /sjlt_operator /= leqNgt lt /= (bindE _ E') /outmat /= mtrE (opmat_acts (acts_sp _)) trmxK mxE.
by apply: eq_bigr => i _; rewrite !mxE.
Qed.

(** ** Row samples *)
Lemma rowsel_gram m n p (W : 'M[R]_(n, p)) (J : seq nat) j l : inb n J -> uniq J -> size J = m ->
  ((rowsel W J m)^T *m rowsel W J m) j l = \sum_i (val i \in J)%:R * (W i j * W i l).
Proof.
move=> iJ uJ sJ; pose f x := mxe W x j * mxe W x l.
transitivity (\sum_(x <- J) f x).
  rewrite mxE (big_nth 0%N) sJ big_mkord; apply: eq_bigr => a _; by rewrite !mxE.
rewrite (perm_big [seq x <- iota 0 n | x \in J]) /=; last first.
  apply: uniq_perm; rewrite ?filter_uniq ?iota_uniq // => x; rewrite mem_filter mem_iota add0n /=.
  by case xJ: (x \in J) => //=; rewrite (allP iJ _ xJ).
rewrite big_filter -/(index_iota 0 n) -[n in iota 0 n]subn0 -/(index_iota 0 n) big_mkord big_mkcond; apply: eq_bigr => i _.
case: ifP => _; rewrite ?mul0r // mul1r /f !(mxe_ord _ (ltn_ord i) (ltn_ord _)).
by congr (W _ _ * W _ _); apply: val_inj.
Qed.

Lemma sample_gram m n p X (J : G -> seq nat) (Y : G -> X) (W : X -> 'M[R]_(n, p)) q j l :
  (forall g, [/\ inb n (J g), uniq (J g) & size (J g) = m]) -> fair_sample E Y J n q ->
  E (fun g => ((rowsel (W (Y g)) (J g) m)^T *m rowsel (W (Y g)) (J g) m) j l) =
  q * E (fun g => ((W (Y g))^T *m W (Y g)) j l).
Proof.
move=> hJ fs.
transitivity (E (fun g => \sum_i (val i \in J g)%:R * (W (Y g) i j * W (Y g) i l))).
  by apply: (mean_ext mE) => g; have [iJ uJ sJ] := hJ g; rewrite rowsel_gram.
rewrite mean_sum.
under eq_bigr => i _ do rewrite (fs (fun y => W y i j * W y i l) i (ltn_ord i)).
rewrite -big_distrr /= -mean_sum; congr (q * _); apply: (mean_ext mE) => g.
by rewrite mxE; apply: eq_bigr => i _; rewrite mxE.
Qed.

Lemma draw_ok m n g : (0 < m)%N -> (m <= n)%N ->
  [/\ inb n (r_choice r g n m false).2, uniq (r_choice r g n m false).2 & size (r_choice r g n m false).2 = m].
Proof.
move=> m0 mn; have n0 := leq_trans m0 mn.
by have /= := ok_choice rok g (p := n) (k := m) (b := false) _ mn; rewrite n0 => /(_ isT) [sv iv uv]; rewrite uv.
Qed.

(** A sampling operator is not normalised: it keeps the fraction m / n. *)
Lemma sampling_iso m n es : (0 < m)%N -> (m <= n)%N ->
  fair_sample E (fun=> tt) (fun g => (r_choice r g n m false).2) n (m%:R / n%:R) ->
  let S g := outmat m n (sampling_operator r m n RGen None (St g es)) in
  forall j l, E (fun g => ((S g)^T *m S g) j l) = (m%:R / n%:R) * (j == l)%:R.
Proof.
move=> m0 mn fs S j l; have n0 := leq_trans m0 mn.
pose J g := sort leq (r_choice r g n m false).2.
have hJ g : [/\ inb n (J g), uniq (J g) & size (J g) = m].
  by have [iv uv sv] := draw_ok g m0 mn; rewrite /J sort_uniq size_sort /inb all_sort.
have fJ : fair_sample E (fun=> tt) J n (m%:R / n%:R).
  move=> F i lt; rewrite -(fs F i lt); apply: (mean_ext mE) => g; by rewrite /J mem_sort.
transitivity (E (fun g => ((rowsel (1%:M : 'M[R]_n) (J g) m)^T *m rowsel (1%:M : 'M[R]_n) (J g) m) j l)).
  apply: (mean_ext mE) => g; have [iJ uJ sJ] := hJ g.
  have [f [Ef [nf cf] mvf mmf [rvf rmf]]] := sampling_wideP R iJ sJ.
  have E1 : sampling_idx r m n None (St g es) = (St (r_choice r g n m false).1 es, inr (J g)).
    rewrite /sampling_idx (maxn_idPr mn) (minn_idPl mn) /choice n0 mn /= /bind /getgen /= /J.
    by case: (r_choice _ _ _ _ _).
  rewrite /S /sampling_operator /= (bindE _ E1) mn Ef /outmat /=.
  have -> : opmat m n (PyLin f) = rowsel (1%:M : 'M[R]_n) (J g) m.
    apply/matrixP=> i k; rewrite [LHS]mxE /= cf size_ofcv eqxx mvf /= (nth_ofcv _ (ltn_ord i)) !mxE.
    have lt : (nth 0%N (J g) (Ordinal (ltn_ord i)) < n)%N by apply: inb_nth iJ _; rewrite sJ.
    rewrite (mxe_ord _ lt (ltn_ord 0)) (mxe_ord _ lt (ltn_ord k)) !mxE /= andbT.
    by congr (nat_of_bool _)%:R; apply/eqP/eqP=> [<-|h]; apply: val_inj; rewrite //= h.
  by [].
rewrite (sample_gram (fun=> 1%:M) j l hJ fJ) trmx1 mulmx1 mean_const mxE; congr (_ * _).
Qed.

(** ** SRCT operators *)
Variable L : lapack R.
Hypothesis dct : dct_spec L.

Lemma srct_iso m n es : (0 < m)%N -> (m <= n)%N ->
  let J g := (r_choice r g n m false).2 in let g1 g := (r_choice r g n m false).1 in
  let u g := (r_random r (g1 g) n) in let p g := (r_perm r (u g).1 n).2 in
  fair_sample E (fun g => ((u g).2, p g)) J n (m%:R / n%:R) ->
  let S g := outmat m n (srct_operator L r m n RGen (St g es)) in
  forall j l, E (fun g => ((S g)^T *m S g) j l) = (j == l)%:R.
Proof.
move=> m0 mn J g1 u p fs S j l; have n0 := leq_trans m0 mn.
have [C [oC CE]] := dct n.
have hJ g : [/\ inb n (J g), uniq (J g) & size (J g) = m] by exact: draw_ok.
pose c : R := Num.sqrt (n%:R / m%:R).
pose e (x : seq R) : 'cV[R]_n := \col_i ((if 1 / (1 + 1) < nth 0 x i then 1 else
   if nth 0 x i == 1 then 1 else -1) * c).
pose W (y : seq R * seq nat) : 'M[R]_n := C *m diag_mx (e y.1)^T *m pmat R n (Some y.2).
have e2 x i : e x i 0 ^+ 2 = n%:R / m%:R.
  rewrite mxE exprMn sqr_sqrtr ?divr_ge0 ?ler0n //.
  by case: ifP => _; [|case: ifP => _]; rewrite ?sqrrN expr1n mul1r.
have perm g : perm_eq (p g) (iota 0 n) by exact: ok_perm.
transitivity (E (fun g => ((rowsel (W ((u g).2, p g)) (J g) m)^T *m rowsel (W ((u g).2, p g)) (J g) m) j l)).
  apply: (mean_ext mE) => g; have [iJ uJ sJ] := hJ g.
  have su : size (u g).2 = n by exact: ok_random.
  have E1 : generate_srct r m n (St g es) = (St (r_perm r (u g).1 n).1 es, inr (J g, ofcv (e (u g).2), p g)).
    rewrite /generate_srct (maxn_idPr mn) (minn_idPl mn).
    have E2 : choice r n m false (St g es) = (St (g1 g) es, inr (J g)).
      by rewrite /choice n0 mn /= /getgen /= /g1 /J; case: (r_choice _ _ _ _ _).
    have E3 : random r n (St (g1 g) es) = (St (u g).1 es, inr (u g).2).
      by rewrite /random /getgen /= /u; case: (r_random _ _ _).
    have E4 : permutation r n (St (u g).1 es) = (St (r_perm r (u g).1 n).1 es, inr (p g)).
      by rewrite /permutation /getgen /= /p; case: (r_perm _ _ _).
    rewrite (bindE _ E2) (bindE _ E3) ifN -?lt0n // (bindE _ E4) /ret.
    congr (_, inr (_, _, _)); apply: (@eq_from_nth _ 0); rewrite ?size_ofcv 3!size_map su // => i lt.
    rewrite (nth_map 0) ?size_map ?su // (nth_map 0) ?size_map ?su // (nth_map 0) ?su // (nth_ofcv _ lt) mxE /=.
    rewrite !onatE /ohalf /=; congr (_ * _).
    case: (ltP (1 / (1 + 1)) _) => _; first by rewrite eqxx.
    by case: eqP => [->|_].
  rewrite /S /srct_operator mn /srct_wide (bindE _ E1) /=.
  have [SS Sv Sm Srv Srm] := srct_matrixC (p := Some (p g)) oC CE iJ uJ sJ (perm g) (e2 (u g).2).
  rewrite /custom_linop /= vzerosE Sv /= /lift /outmat /= (@opmat_acts _ _ _ (rowsel (W ((u g).2, p g)) (J g) m)) //.
  have WE : (sel n (J g) m)^T *m C *m diag_mx (e (u g).2)^T *m pmat R n (Some (p g)) = rowsel (W ((u g).2, p g)) (J g) m.
    by rewrite rowsel1E /W !mulmxA.
  by rewrite -WE; split=> //= [x|q A|y]; rewrite ?size_ofcv eqxx.
rewrite (sample_gram W j l hJ fs).
rewrite (@mean_ext _ _ _ mE _ (fun=> n%:R / m%:R * (j == l)%:R)) => [|g]; last first.
  have [PPt PtP] := pmat_ortho R (p := Some (p g)) (perm g).
  rewrite /W /= !trmx_mul tr_diag_mx.
  set D := diag_mx _; set P := (sel _ _ _)^T.
  have -> : P^T *m (D *m C^T) *m (C *m D *m P) = P^T *m (D *m (C^T *m C) *m D) *m P by rewrite !mulmxA.
  rewrite oC mulmx1 /D mulmx_diag.
  have -> : diag_mx (\row_j0 ((e (u g).2)^T 0 j0 * (e (u g).2)^T 0 j0)) = (n%:R / m%:R)%:M :> 'M[R]_n.
    rewrite -diag_const_mx; congr diag_mx; apply/rowP=> i; rewrite !mxE -expr2; have := e2 (u g).2 i.
    by rewrite !mxE.
  by rewrite mul_mx_scalar -scalemxAl PtP !mxE.
rewrite mean_const mulrA; have -> : m%:R / n%:R * (n%:R / m%:R) = 1 :> R; last by rewrite mul1r.
by rewrite mulrA divfK ?divff // pnatr_eq0 -lt0n.
Qed.

End Iso.

(** A generator with three bits of state satisfying all of the above. *)
Section Witness.
Variable R : rcfType.
Let B := (bool * bool * bool)%type.
Definition bit (b : bool) : R := if b then 1 else 0.
Definition pm (b : bool) : R := if b then 1 else -1.
Definition iso_rng : rng_ops B R := {|
  r_normal := fun g c m n => (g, mk m n (fun i j => if (i + j == 0)%N then c * pm g.1.1 else c * pm g.1.2));
  r_stdnormal := fun g m n => (g, mk m n (fun i j => if (i + j == 0)%N then pm g.1.1 else pm g.1.2));
  r_random := fun g n => (g, mkseq (fun i => if i == 0%N then bit g.1.1 else bit g.1.2) n);
  r_choice := fun g p k b => (g, if b then nseq k 0%N else
     if (p == 2%N) && (k == 1%N) then [:: nat_of_bool g.2] else iota 0 k);
  r_perm := fun g n => (g, iota 0 n);
  r_seed := fun=> (true, true, true);
  r_seeds := fun=> (true, true, true)
|}.
Definition iso_mean (f : B -> R) : R :=
  (f (true, true, true) + f (true, true, false) + f (true, false, true) + f (true, false, false) +
   f (false, true, true) + f (false, true, false) + f (false, false, true) + f (false, false, false)) / 8%:R.

Add Field iso_field : (rcf_field R).

Lemma r8 : (8%:R : R) != 0. Proof. by rewrite pnatr_eq0. Qed.

Lemma iso_meanP : mean iso_mean.
Proof.
split=> [f g fg|f g|c f|]; rewrite /iso_mean; first by rewrite !fg.
- by rewrite -mulrDl; congr (_ / _); rring.
- by rewrite mulrA; congr (_ / _); rring.
have -> : 1 + 1 + 1 + 1 + 1 + 1 + 1 + 1 = 8%:R :> R by rewrite !mulrS mulr0n addr0 !addrA.
by rewrite divff ?r8.
Qed.

Lemma iso_rng_ok : rng_ok iso_rng.
Proof.
split=> //=.
- by move=> *; split; first exact: wf_mk.
- by move=> *; split; first exact: wf_mk.
- by move=> *; rewrite size_mkseq.
move=> [b0 c] p k [] /= H1 H2.
  rewrite size_nseq; split=> //.
  by case: k H1 H2 => // k; rewrite orbF => p0 _; rewrite all_nseq p0 orbT.
case: ifP => [/andP[/eqP-> /eqP->]|_]; first by case: c.
rewrite size_iota; split=> //; last by rewrite iota_uniq.
by apply/allP=> i; rewrite mem_iota add0n /= => ik; apply: leq_trans ik H2.
Qed.

Lemma iso_normal : uncorrelated iso_mean iso_rng 1 2.
Proof.
move=> c [|//] [|[|//]] [|//] [|[|//]] _ _ _ _; rewrite /iso_mean /= !el_mk //= /pm /=; apply: (mulIf r8);
  rewrite divfK ?r8 //; rring.
Qed.

Lemma half_lt1 : (1 : R) <= 1 / (1 + 1) = false.
Proof. by apply/negbTE; rewrite -ltNge ltr_pdivr_mulr ?mul1r ?ltr_addl ?ltr01 // addr_gt0 ?ltr01. Qed.
Lemma half_ge0 : (0 : R) <= 1 / (1 + 1).
Proof. by rewrite divr_ge0 ?addr_ge0 ?ler01. Qed.

Lemma iso_signs : let C g := choices iso_rng 1 1 false 2 g in
  random_signs iso_mean (fun g => (C g).2) (fun g => (r_random iso_rng (C g).1 2).2) 2.
Proof.
move=> C sg F [|[|//]] [|[|//]] _ _; rewrite /iso_mean /= /sg /bit half_lt1 half_ge0 /=; apply: (mulIf r8);
  rewrite -[RHS]mulrA !divfK ?r8 //; rring.
Qed.

Lemma iso_sample X (Y : B -> X) : (forall b, Y (b, true) = Y (b, false)) ->
  fair_sample iso_mean Y (fun g => (r_choice iso_rng g 2 1 false).2) 2 (1 / 2%:R).
Proof.
move=> h F [|[|//]] _; rewrite /iso_mean /= !h; set a := F _; set b := F _; set c := F _; set d := F _;
  rewrite ?(mul0r, mul1r, add0r, addr0, mulr0) mulrA; congr (_ / _);
  rewrite -[LHS]mul1r -[X in X * _ = _](@mulVf _ 2%:R) ?pnatr_eq0 // -mulrA; congr (_ * _); rring.
Qed.

End Witness.
