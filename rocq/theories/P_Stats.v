(** Log-linear and log-log fits. *)
From mathcomp Require Import all_ssreflect all_algebra.
From Verif Require Import RingTac Base Arr Lapack Exact MxLib LapackSpec LapackExists P_Interp2 Stats.
Set Implicit Arguments.
Unset Strict Implicit.
Unset Printing Implicit Defensive.
Import Order.TTheory GRing.Theory Num.Theory.
Local Open Scope ring_scope.

Section Spec.
Variable R : rcfType.
Add Field Rst : (rcf_field R).

(** Sum of squared errors of the line a + b x on the samples P, the mean of the
    second components and the total sum of squares. *)
Definition sse (P : seq (R * R)) (a b : R) : R := \sum_(p <- P) (a + b * p.1 - p.2) ^+ 2.
Definition mean2 (P : seq (R * R)) : R := (\sum_(p <- P) p.2) / (size P)%:R.
Definition sst (P : seq (R * R)) : R := \sum_(p <- P) (p.2 - mean2 P) ^+ 2.

Lemma big_zip (x l : seq R) (F : R * R -> R) : size x = size l ->
  \sum_(p <- zip x l) F p = \sum_(i < size l) F (ev x i, ev l i).
Proof.
move=> e; rewrite (big_nth (0, 0)) size2_zip ?e // big_mkord.
by apply: eq_bigr => i _; rewrite nth_zip.
Qed.

Lemma sse_ge0 P a b : 0 <= sse P a b.
Proof. by apply: sumr_ge0 => p _; rewrite sqr_ge0. Qed.
Lemma sst_ge0 P : 0 <= sst P.
Proof. by apply: sumr_ge0 => p _; rewrite sqr_ge0. Qed.

Lemma sst_sse P : sst P = sse P (mean2 P) 0.
Proof. by apply: eq_bigr => p _; rewrite mul0r addr0 -sqrrN opprB. Qed.

Lemma sse0 P a b : (sse P a b == 0) = all (fun p => p.2 == a + b * p.1) P.
Proof.
rewrite /sse; elim: P => [|p P IH]; first by rewrite big_nil eqxx.
rewrite big_cons paddr_eq0 ?sqr_ge0 //=; last by apply: sumr_ge0 => q _; rewrite sqr_ge0.
by rewrite IH sqrf_eq0 subr_eq0 eq_sym.
Qed.

(** Two distinct abscissae determine the minimiser. *)
Lemma sse_unique P a b a' b' : (exists p q, [/\ p \in P, q \in P & p.1 != q.1]) ->
  (forall c d, sse P a b <= sse P c d) -> sse P a' b' <= sse P a b -> a' = a /\ b' = b.
Proof.
move=> [p [q [pP qP pq]]] mn le.
pose h : R := 2%:R^-1; have hh : h + h = 1 by rewrite -mulr2n -[h *+ 2]mulr_natr mulVf // pnatr_eq0.
have h0 : 0 < h by rewrite invr_gt0 ltr0n.
pose c := h * (a + a'); pose d := h * (b + b').
have par : sse P c d = h * (sse P a b + sse P a' b') - h * h * sse [seq (x.1, 0) | x <- P] (a - a') (b - b').
  rewrite /sse big_map -big_split /= !mulr_sumr -sumrB; apply: eq_bigr => x _ /=.
  have -> : c + d * x.1 - x.2 = h * ((a + b * x.1 - x.2) + (a' + b' * x.1 - x.2)).
    by rewrite /c /d -[X in _ - X = _]mul1r -hh; rring.
  by rewrite -[X in _ = X * (_ + _) - _]mulr1 -hh; rring.
have hle : sse [seq (x.1, 0) | x <- P] (a - a') (b - b') <= 0.
  have := mn c d; rewrite par ler_subr_addr => H.
  rewrite -(pmulr_rle0 _ (mulr_gt0 h0 h0)) -(ler_add2l (sse P a b)) addr0; apply: le_trans H _.
  by rewrite mulrDr -[X in _ <= X]mul1r -hh mulrDl ler_add2l ler_pmul2l.
have /eqP : sse [seq (x.1, 0) | x <- P] (a - a') (b - b') == 0 by rewrite eq_le hle sse_ge0.
move/eqP; rewrite sse0 all_map => /allP H.
have /eqP Hp := H p pP; have /eqP Hq := H q qP; rewrite /= in Hp Hq.
have : (b - b') * (p.1 - q.1) = 0.
  by have -> : (b - b') * (p.1 - q.1) = (a - a' + (b - b') * p.1) - (a - a' + (b - b') * q.1); [rring | rewrite -Hp -Hq subrr].
move/eqP; rewrite mulf_eq0 !subr_eq0 (negPf pq) orbF => /eqP bb.
by move: Hp; rewrite bb subrr mul0r addr0 => /esym/eqP; rewrite subr_eq0 => /eqP ->.
Qed.

Variables (L : lapack R).
Hypothesis ls : lstsq_spec L.

Lemma fit_coreP (x l : seq R) : size x = size l -> (0 < size l)%N ->
  exists a b, fit_core L x l = Ok ([:: a; b], 1 - sse (zip x l) a b / sst (zip x l)) /\
    forall a' b', sse (zip x l) a b <= sse (zip x l) a' b'.
Proof.
move=> e n0; rewrite /fit_core (gtn_eqF n0).
have -> : design x = ofmx (\matrix_(i < size l, j < 2) if val j == 0%N then 1 else ev x i).
  by rewrite /design e; apply: mk_eq_ofmx => i j; rewrite mxE.
set A := \matrix_(i, j) _.
pose B : 'cV[R]_(size l) := \col_i @ev R (rcf_ops R) l i.
have -> : mk (size l) 1 (fun i _ => ev l i) = ofmx B by apply: mk_eq_ofmx => i j; rewrite mxE.
have lE : l = ofcv B by apply: (@eq_from_nth _ 0); rewrite ?size_ofcv // => i il; have := ev_ofcv_nat B il; rewrite mxE /ev => /= ->.
have [X [W [-> nX _]]] := ls A B n0 (ltn0Sn 1) (ltn0Sn 0).
have sE (Y : 'cV[R]_2) : fro2 (B - A *m Y) = sse (zip x l) (Y 0 0) (Y 1 0).
  rewrite /sse big_zip // /fro2; apply: eq_bigr => i _.
  rewrite big_ord1 !mxE !big_ord_recl big_ord0 !mxE /= mul1r addr0 -sqrrN opprB mulrC.
  by congr ((_ + _ - _) ^+ 2); congr (_ * _); congr (Y _ _); apply: val_inj.
exists (X 0 0), (X 1 0); split; last first.
  move=> a' b'; pose Y : 'cV[R]_2 := \col_i if val i == 0%N then a' else b'.
  have := sE Y; rewrite !mxE /= => <-; rewrite -sE.
  by rewrite (ls_optimal Y (A := B) (C := A) (X := X)) ?ler_addl ?fro2_ge0.
rewrite {1}/Ok {1}/rbind.
have -> : mcol (ofmx X) 0 = ofcv X by apply: mkseq_eq_ofcv => i; rewrite (el_ofmx_nat _ (ltn_ord i) (ltn0Sn 0)); congr (X _ _); apply: val_inj.
rewrite mvE {1}/rbind {1}/Ok.
have -> : vsub l (ofcv (A *m X)) = Ok (ofcv (B - A *m X)) by rewrite -vsubE -lE.
rewrite {1}/rbind {1}/Ok vsqE sE.
have -> : ofcv X = [:: X 0 0; X 1 0].
  rewrite /ofcv /mkseq /= (mxe_ord X (ltn0Sn 1) (ltn0Sn 0)) (mxe_ord X (ltnSn 1) (ltn0Sn 0)).
  by congr [:: X _ _; X _ _]; apply: val_inj.
congr (Ok (_, _ - _ / _)); rewrite osumE /sst big_zip //; apply: eq_bigr => i _ /=.
rewrite osqE osumE onatE /mean2 big_zip // size2_zip ?e //.
Qed.

Lemma sst_gt0 (P : seq (R * R)) : (exists p q, [/\ p \in P, q \in P & p.2 != q.2]) -> 0 < sst P.
Proof.
move=> [p [q [pP qP pq]]]; rewrite lt_neqAle sst_ge0 andbT eq_sym sst_sse sse0.
apply: contra pq => /allP H; have /eqP -> := H p pP; have /eqP -> := H q qP; by rewrite !mul0r.
Qed.

(** R squared is between 0 and 1, and 1 exactly when the line is exact. *)
Lemma r2_range (P : seq (R * R)) a b : (exists p q, [/\ p \in P, q \in P & p.2 != q.2]) ->
  (forall a' b', sse P a b <= sse P a' b') ->
  0 <= 1 - sse P a b / sst P <= 1 /\
  ((1 - sse P a b / sst P = 1) <-> forall p, p \in P -> p.2 = a + b * p.1).
Proof.
move=> /sst_gt0 t0 mn; split.
  rewrite subr_ge0 ler_pdivr_mulr // mul1r sst_sse mn /= ler_subl_addr ler_addl.
  by rewrite -sst_sse divr_ge0 ?sse_ge0 ?sst_ge0.
split=> [/eqP|H].
  rewrite subr_eq addrC -subr_eq subrr eq_sym mulf_eq0 invr_eq0 (gt_eqF t0) orbF sse0 => /allP H p pP.
  exact/eqP/H.
have /eqP -> : sse P a b == 0 by rewrite sse0; apply/allP=> p pP; apply/eqP/H.
by rewrite mul0r subr0.
Qed.

Variables (G : Type) (log : R -> R).

(** The samples that are used. *)
Definition kept (x y : seq R) : seq (R * R) := [seq p <- zip x y | 0 < p.2].

Lemma mask_kept (x y : seq R) : size x = size y ->
  mask [seq 0 < v | v <- y] x = unzip1 (kept x y) /\ mask [seq 0 < v | v <- y] y = unzip2 (kept x y).
Proof.
elim: x y => [|u x IH] [|v y] //= [/IH[h1 h2]]; rewrite /kept /=.
by case: (0 < v); rewrite /= ?h1 ?h2.
Qed.

Lemma fit_keepP (x y : seq R) (s : st G R) : size x = size y ->
  fit_keep x y s = (St (gen s) (evs s ++ if all (fun v => 0 < v) y then [::] else [:: EvWarn W_fit_drop]),
                    inr (unzip1 (kept x y), unzip2 (kept x y))).
Proof.
move=> e; rewrite /fit_keep e eqxx bind_passertT.
have -> : has (fun v => (v <= o0)%O) y = ~~ all (fun v => 0 < v) y.
  by rewrite -has_predC; apply: eq_has => v /=; rewrite -leNgt.
case: (boolP (all _ _)) => h /=.
  have <- : zip x y = kept x y.
    rewrite /kept; apply/esym/all_filterP; rewrite -(all_map snd) -/(unzip2 _).
    by rewrite unzip2_zip // e.
  by rewrite unzip1_zip ?unzip2_zip ?e // cats0; case: s.
have [-> ->] := mask_kept e.
by rewrite /bind /emit /ret cats1.
Qed.

Lemma loglinear_ok (x y : seq R) (s : st G R) : size x = size y ->
  let P := [seq (p.1, log p.2) | p <- zip x y & 0 < p.2] in P != [::] ->
  exists a b, loglinear_fit L log x y s =
    (St (gen s) (evs s ++ if all (fun v => 0 < v) y then [::] else [:: EvWarn W_fit_drop]),
     inr ([:: a; b], 1 - sse P a b / sst P)) /\
    forall a' b', sse P a b <= sse P a' b'.
Proof.
move=> e P P0; rewrite /loglinear_fit (bindE _ (fit_keepP s e)) /=.
have -> : P = zip (unzip1 (kept x y)) (map log (unzip2 (kept x y))).
  rewrite /P -/(kept x y); elim: (kept x y) => //= p K ->; by [].
have [||a [b [E mn]]] := @fit_coreP (unzip1 (kept x y)) (map log (unzip2 (kept x y))).
- by rewrite !size_map.
- by rewrite !size_map lt0n size_eq0; move: P0; rewrite /P -/(kept x y); case: (kept x y).
by exists a, b; rewrite E.
Qed.

Lemma loglog_ok (x y : seq R) (s : st G R) : size x = size y ->
  let K := [seq p <- zip x y | 0 < p.2] in
  let P := [seq (log p.1, log p.2) | p <- K] in P != [::] ->
  (forall p, p \in K -> 0 < p.1) ->
  exists a b, loglog_fit L log x y s =
    (St (gen s) (evs s ++ if all (fun v => 0 < v) y then [::] else [:: EvWarn W_fit_drop]),
     inr ([:: a; b], 1 - sse P a b / sst P)) /\
    forall a' b', sse P a b <= sse P a' b'.
Proof.
move=> e K P P0 pos; rewrite /loglog_fit (bindE _ (fit_keepP s e)) /= -/(kept x y).
have -> : has (fun v : R => v <= 0) (unzip1 (kept x y)) = false.
  apply/negbTE/hasPn=> v /mapP[p pK ->]; rewrite -ltNge; exact: pos.
have -> : P = zip (map log (unzip1 (kept x y))) (map log (unzip2 (kept x y))).
  rewrite /P /K -/(kept x y); elim: (kept x y) => //= p K' ->; by [].
have [||a [b [E mn]]] := @fit_coreP (map log (unzip1 (kept x y))) (map log (unzip2 (kept x y))).
- by rewrite !size_map.
- by rewrite !size_map lt0n size_eq0; move: P0; rewrite /P /K -/(kept x y); case: (kept x y).
by exists a, b; rewrite E.
Qed.

Lemma loglog_err (x y : seq R) (s : st G R) : size x = size y ->
  (exists p, [/\ p \in zip x y, 0 < p.2 & p.1 <= 0]) ->
  (loglog_fit L log x y s).2 = inl ValueError.
Proof.
move=> e [p [pz p2 p1]]; rewrite /loglog_fit (bindE _ (fit_keepP s e)) /=.
have -> : has (fun v : R => v <= 0) (unzip1 (kept x y)); last by [].
by apply/hasP; exists p.1 => //; apply: map_f; rewrite mem_filter p2.
Qed.

Lemma fit_mismatch (x y : seq R) (s : st G R) : size x <> size y ->
  loglinear_fit L log x y s = (s, inl AssertionError) /\ loglog_fit L log x y s = (s, inl AssertionError).
Proof.
move=> /eqP/negbTE e.
have E : fit_keep x y s = (s, inl AssertionError) by rewrite /fit_keep e bind_passertF.
by rewrite /loglinear_fit /loglog_fit !(bindE_err _ E).
Qed.

(** Exactly log-linear data: a is the intercept, b the slope. *)
Lemma loglinear_exact (x y : seq R) (s : st G R) (al be : R) : size x = size y ->
  let K := [seq p <- zip x y | 0 < p.2] in
  (forall p, p \in K -> log p.2 = al + be * p.1) ->
  (exists p q, [/\ p \in K, q \in K & p.1 != q.1]) ->
  (loglinear_fit L log x y s).2 = inr ([:: al; be], 1).
Proof.
move=> e K H [p [q [pK qK pq]]].
have [|a [b [-> mn]]] := loglinear_ok s e; first by rewrite -size_eq0 size_map size_eq0 -/K; apply/eqP=> K0; move: pK; rewrite K0.
set P := map _ _ in mn *; rewrite /=.
have z : sse P al be = 0.
  apply/eqP; rewrite sse0; apply/allP=> w /mapP[u uK ->] /=; apply/eqP; exact: H.
have z' : sse P a b <= 0 by rewrite -z; exact: mn.
have z2 : sse P a b = 0 by apply: le_anti; rewrite z' sse_ge0.
have [||-> ->] := @sse_unique P a b al be _ mn; last by rewrite z2 mul0r subr0.
  by exists (p.1, log p.2), (q.1, log q.2); split=> //; apply/mapP; [exists p | exists q].
by rewrite z z2.
Qed.

End Spec.
