(** The sparse sign operator. *)
From mathcomp Require Import all_ssreflect all_algebra.
From Verif Require Import Base Arr Lapack Exact MxLib LapackSpec LapackExists Rng Aware Sel P_RF P_Interp.
From Verif Require Import Sketching P_Sketch P_Sketch2 P_Sketch3 P_Sjlt.
Set Implicit Arguments.
Unset Strict Implicit.
Unset Printing Implicit Defensive.
Import Order.TTheory GRing.Theory Num.Theory.
Local Open Scope ring_scope.

Section Spec.
Context {G T : Type}.
Variable r : rng_ops G T.

(** The generator a call with this [rng] argument starts from. *)
Definition gen0 (a : rngarg) (s : st G T) : G :=
  match a with RGen => gen s | RInt z => r_seed r z | RArr v => r_seeds r v end.

(** State after, and value of, the k-th consecutive [rng.random(N)]. *)
Definition rnd_state (N : nat) (g : G) (k : nat) : G := iter k (fun g => (r_random r g N).1) g.
Definition rnd (N : nat) (g : G) (k : nat) : seq T := (r_random r (rnd_state N g k) N).2.

Lemma rnd_stateS N g k : rnd_state N (r_random r g N).1 k = rnd_state N g k.+1.
Proof. by rewrite /rnd_state iterSr. Qed.
Lemma rndS N g k : rnd N (r_random r g N).1 k = rnd N g k.+1.
Proof. by rewrite /rnd rnd_stateS. Qed.

Lemma with_rng_gen0 X (c : M G T X) a (s : st G T) :
  (with_rng r a c s).2 = (c (St (gen0 a s) (evs s))).2 /\
  evs (with_rng r a c s).1 = evs (c (St (gen0 a s) (evs s))).1.
Proof. by case: a => [|z|v] /=; [case: s | case: (c _) | case: (c _)]. Qed.

End Spec.

Section Sign.
Variables (R : rcfType) (G : Type) (r : rng_ops G R).
Hypothesis rok : rng_ok r.

Definition hit (d : R) (u : seq R) : bool := has (fun x => x < d) u.

Lemma ss_mask_err N d att (s : st G R) :
  (forall k, (k <= att)%N -> ~~ hit d (rnd r N (gen s) k)) ->
  ss_mask r N d att s = (St (rnd_state r N (gen s) att.+1) (evs s), inl RuntimeError).
Proof.
elim: att s => [|att IH] s H /=; rewrite /random /getgen {1}/bind.
  have := H 0%N isT; rewrite /rnd /rnd_state /= /hit; case E: (r_random _ _ _) => [g' u] /=.
  by rewrite has_map /preim /= => /negPf ->.
have := H 0%N isT; rewrite /rnd /= /hit /=; case E: (r_random _ _ _) => [g' u] /=.
rewrite has_map /preim /= => /negPf ->; rewrite IH; last first.
  by move=> k ka /=; have := H k.+1 ka; rewrite -rndS E.
by rewrite /= -[g']/(g', u).1 -E rnd_stateS.
Qed.

Lemma ss_mask_ok N d att k (s : st G R) : (k <= att)%N ->
  (forall l, (l < k)%N -> ~~ hit d (rnd r N (gen s) l)) -> hit d (rnd r N (gen s) k) ->
  ss_mask r N d att s =
  (St (rnd_state r N (gen s) k.+1) (evs s), inr [seq x < d | x <- rnd r N (gen s) k]).
Proof.
elim: att k s => [|att IH] k s ka H h /=; rewrite /random /getgen {1}/bind.
  move: ka h; rewrite leqn0 => /eqP->; rewrite /rnd /rnd_state /= /hit; case E: (r_random _ _ _) => [g' u] /=.
  by rewrite has_map /preim /= => ->.
case: k ka H h => [|k] ka H h.
  move: h; rewrite /rnd /rnd_state /= /hit; case E: (r_random _ _ _) => [g' u] /=.
  by rewrite has_map /preim /= => ->.
have := H 0%N isT; rewrite /rnd /rnd_state /= /hit /=; case E: (r_random _ _ _) => [g' u] /=.
rewrite has_map /preim /= => /negPf ->.
have eg : g' = (r_random r (gen s) N).1 by rewrite E.
rewrite (IH k) //=.
- by rewrite /rnd eg rnd_stateS.
- by move=> l lk; rewrite eg rndS H.
by rewrite eg rndS.
Qed.

Lemma coo_sparse m n (nz : seq nat) (vals : seq R) (i : 'I_m) (j : 'I_n) : uniq nz -> size vals = size nz ->
  \sum_(e <- zip (zip [seq (a %/ n)%N | a <- nz] [seq (a %% n)%N | a <- nz]) vals
     | (e.1.1 == i :> nat) && (e.1.2 == j :> nat)) e.2 =
  if (i * n + j)%N \in nz then nth 0 vals (index (i * n + j)%N nz) else 0.
Proof.
move=> uz sv.
have n0 : (0 < n)%N := leq_ltn_trans (leq0n _) (ltn_ord j).
have s1 : size (zip [seq (a %/ n)%N | a <- nz] [seq (a %% n)%N | a <- nz]) = size nz by rewrite size1_zip ?size_map.
have s2 : size (zip (zip [seq (a %/ n)%N | a <- nz] [seq (a %% n)%N | a <- nz]) vals) = size nz.
  by rewrite size1_zip ?s1 ?sv.
rewrite (big_nth ((0%N, 0%N), 0)) s2 big_mkord.
have E (a : 'I_(size nz)) : nth ((0%N, 0%N), 0) (zip (zip [seq (a %/ n)%N | a <- nz] [seq (a %% n)%N | a <- nz]) vals) a =
    ((nth 0%N nz a %/ n, nth 0%N nz a %% n)%N, nth 0 vals a).
  by rewrite nth_zip ?s1 ?sv // nth_zip ?size_map // !(nth_map 0%N).
have P (a : 'I_(size nz)) : ((nth 0%N nz a %/ n == i) && (nth 0%N nz a %% n == j) = (nth 0%N nz a == i * n + j))%N.
  apply/andP/eqP => [[/eqP <- /eqP <-]|->]; first by rewrite -divn_eq.
  by rewrite divnMDl // divn_small ?addn0 ?modnMDl ?modn_small ?eqxx.
rewrite (eq_bigl (fun a : 'I_(size nz) => nth 0%N nz a == (i * n + j)%N)) => [|a]; last by rewrite E /= P.
rewrite (eq_bigr (fun a : 'I_(size nz) => nth 0 vals a)) => [|a _]; last by rewrite E.
case: ifP => h.
  have ix : (index (i * n + j)%N nz < size nz)%N by rewrite index_mem.
  rewrite (big_pred1 (Ordinal ix)) // => a /=; rewrite -val_eqE /=.
  by apply/eqP/eqP=> [<-|->]; [rewrite index_uniq | rewrite nth_index].
by rewrite big_pred0 // => a; apply: contraFF h => /eqP <-; rewrite mem_nth.
Qed.

Lemma sparse_sign_err m n d a (s : st G R) :
  (forall k, (k <= 10)%N -> ~~ hit d (rnd r (m * n) (gen0 r a s) k)) ->
  (sparse_sign_operator r m n a d s).2 = inl RuntimeError.
Proof.
move=> H; rewrite /sparse_sign_operator; have [-> _] := with_rng_gen0 r (let! mask := ss_mask r (m * n) d 10 in
    let nz := [seq i <- iota 0 (size mask) | nth false mask i] in
    let rows := [seq (i %/ n)%N | i <- nz] in
    let cols := [seq (i %% n)%N | i <- nz] in
    let! u := random r (size nz) in
    let vals := [seq ((if (x < ohalf)%O then - o1 else o1) /
                      osqrt (onat (minn m n) * d))%O | x <- u] in
    ret (PySp (coo m n (zip (zip rows cols) vals)))) a s.
by rewrite (bindE_err _ (ss_mask_err _)).
Qed.

Lemma sparse_sign_ok m n d k a (s : st G R) : (k <= 10)%N -> 0 < d ->
  let u := rnd r (m * n) (gen0 r a s) in
  (forall l, (l < k)%N -> ~~ hit d (u l)) -> hit d (u k) ->
  exists S : 'M[R]_(m, n),
  [/\ (sparse_sign_operator r m n a d s).2 = inr (PySp (ofmx S)), S != 0,
      (forall i j, (S i j != 0) = (nth 0 (u k) (i * n + j) < d)) &
      forall i j, S i j != 0 -> S i j = (Num.sqrt ((minn m n)%:R * d))^-1 \/
                                S i j = - (Num.sqrt ((minn m n)%:R * d))^-1].
Proof.
move=> k10 d0 u H h; rewrite /sparse_sign_operator; have [-> _] := with_rng_gen0 r (let! mask := ss_mask r (m * n) d 10 in
    let nz := [seq i <- iota 0 (size mask) | nth false mask i] in
    let rows := [seq (i %/ n)%N | i <- nz] in
    let cols := [seq (i %% n)%N | i <- nz] in
    let! u := random r (size nz) in
    let vals := [seq ((if (x < ohalf)%O then - o1 else o1) /
                      osqrt (onat (minn m n) * d))%O | x <- u] in
    ret (PySp (coo m n (zip (zip rows cols) vals)))) a s.
rewrite (bindE _ (ss_mask_ok (s := St (gen0 r a s) (evs s)) k10 H h)) /= -/u.
have su : size (u k) = (m * n)%N by rewrite /u /rnd (ok_random rok).
rewrite size_map su; set mask := map _ _.
set nz := [seq i <- _ | _]; have uz : uniq nz by rewrite filter_uniq ?iota_uniq.
have mz i : (i \in nz) = ((i < m * n)%N && (nth 0 (u k) i < d)).
  rewrite mem_filter mem_iota add0n /= andbC; case: ltnP => //= im.
  by rewrite (nth_map 0) // su.
set s1 := St _ _; have [s2 [w [E2 e2 sw]]] := randomP rok (size nz) s1; rewrite (bindE _ E2) /ret /=.
set vals := map _ w; have sv : size vals = size nz by rewrite size_map sw.
set c := (Num.sqrt ((minn m n)%:R * d))^-1.
have hv b : (b < size nz)%N -> nth 0 vals b = c \/ nth 0 vals b = - c.
  move=> lb; rewrite (nth_map 0) ?sw //= onatE -/c.
  by case: ifP => _; [right; rewrite mulN1r | left; rewrite mul1r].
rewrite cooE; set S := \matrix_(i, j) _; exists S.
have bnd (i : 'I_m) (j : 'I_n) : (i * n + j < m * n)%N.
  apply: (@leq_trans (i.+1 * n)); first by rewrite mulSn addnC ltn_add2r.
  by rewrite leq_mul2r ltn_ord orbT.
have SI (i : 'I_m) (j : 'I_n) : S i j = if (i * n + j)%N \in nz then nth 0 vals (index (i * n + j)%N nz) else 0.
  by rewrite mxE; apply: coo_sparse.
have c0 : (0 < m)%N -> (0 < n)%N -> c != 0.
  by move=> m0 n0; rewrite gt_eqF // invr_gt0 sqrtr_gt0 mulr_gt0 // ltr0n leq_min m0.
have SV (i : 'I_m) (j : 'I_n) : (i * n + j)%N \in nz -> S i j = c \/ S i j = - c.
  by move=> ij; rewrite SI ij; apply: hv; rewrite index_mem.
have NZ (i : 'I_m) (j : 'I_n) : (S i j != 0) = (nth 0 (u k) (i * n + j) < d).
  have m0 := leq_ltn_trans (leq0n _) (ltn_ord i); have n0 := leq_ltn_trans (leq0n _) (ltn_ord j).
  have e : ((i * n + j)%N \in nz) = (nth 0 (u k) (i * n + j) < d) by rewrite mz bnd.
  rewrite -e; apply/idP/idP; first by rewrite SI; case: ifP => //; rewrite eqxx.
  by case/SV=> ->; rewrite ?oppr_eq0 c0.
split=> //; last first.
  by move=> i j; rewrite NZ => h'; apply: SV; rewrite mz bnd.
move: (h) => /(has_nthP 0)[b]; rewrite su => bmn hb.
have n0 : (0 < n)%N by case: (n) bmn => //; rewrite muln0.
have bi : (b %/ n < m)%N by rewrite ltn_divLR.
have bj : (b %% n < n)%N by rewrite ltn_mod.
have : S (Ordinal bi) (Ordinal bj) != 0 by rewrite NZ /= -divn_eq.
by apply: contraNneq => ->; rewrite mxE.
Qed.

End Sign.
