(** The procedural drivers: general theorems about the classes, specialised to
    the SJLT sketch. *)
From mathcomp Require Import all_ssreflect all_algebra.
From mathcomp Require Import zify.
From Verif Require Import Base Arr Lapack Exact MxLib LapackSpec Rng Aware LapackExists P_QBfin Pcg P_Pcg Lsqr P_Lsqr P_Iter.
From Verif Require Import Precond LstSq SaddleSys P_Precond P_Svd P_Pcss1 Chol P_LS P_LS2 P_LS3 P_LS4 P_LS5 P_LS6.
From Verif Require Import Sketching P_Sjlt F_Sketch Drivers.
Set Implicit Arguments.
Unset Strict Implicit.
Unset Printing Implicit Defensive.
Import Order.TTheory GRing.Theory Num.Theory.
Local Open Scope ring_scope.

(** Every column has exactly [nnz] non-zeros, all equal to plus or minus
    1/sqrt(nnz). *)
Definition sjlt_mat (R : rcfType) (nnz : nat) d m (S : 'M[R]_(d, m)) : Prop :=
  (forall j, #|[set i | S i j != 0]| = nnz) /\
  (forall i j, S i j != 0 -> S i j = (Num.sqrt nnz%:R)^-1 \/ S i j = - (Num.sqrt nnz%:R)^-1).

Section Drivers.
Variables (R : rcfType) (G : Type) (L : lapack R) (r : rng_ops G R).
Hypothesis rok : rng_ok r.
Notation g nnz := (@skopSJ R (rcf_ops R) G r nnz).

Lemma with2 X (a : rngarg) (c : M G R X) (P : res X -> Prop) s :
  (forall s, P (c s).2) -> P (with_rng r a c s).2.
Proof.
move=> h; case: a => [|z|v] /=; first exact: h.
  by have := h (St (r_seed r z) (evs s)); case: (c _).
by have := h (St (r_seeds r v) (evs s)); case: (c _).
Qed.

Lemma sj_gen_ok nnz d m : (0 < nnz)%N -> (0 < d)%N -> (0 < m)%N -> gen_ok (g nnz) d m.
Proof.
move=> z0 d0 m0 s; rewrite /skopSJ /sjlt_operator /=; case: leqP => dm.
  have [s' [_ [_ [S [E _ _ _ _]]]]] := sjlt_wide_run rok s d0 dm z0.
  by exists s', (PySp (ofmx S)), S; rewrite E; split=> //; exact: py_is_sp.
have [s' [_ [_ [S [E _ _ _ _]]]]] := sjlt_wide_run rok s m0 (ltnW dm) z0.
exists s', (PySp (ofmx S^T)), S^T; rewrite (bindE _ E) /lift /= mtrE; split=> //; exact: py_is_sp.
Qed.

Lemma sj_lsq_ok nnz sf m n : (0 < nnz)%N -> (0 < n <= m)%N -> n%:Z <= trunc_rat (sf * n%:R) ->
  lsq_ok (g nnz) sf m n.
Proof.
by move=> z0 nm t; split=> // d dn; apply: sj_gen_ok => //; lia.
Qed.

(** The sketch a call draws is an SJLT matrix. *)
Lemma py_is_inj d m Sk (S1 S2 : 'M[R]_(d, m)) : py_is Sk S1 -> py_is Sk S2 -> S1 = S2.
Proof.
move=> h1 h2; have := py_r h1 1%:M; rewrite (py_r h2 1%:M) !mulmx1 => e.
by apply: ofmx_inj; move/(congr1 (fun x => if x is inr y then y else ofmx S1)): e.
Qed.

Lemma sj_run nnz d m s s1 Sk (Sm : 'M[R]_(d, m)) : (0 < nnz)%N -> (nnz <= d)%N -> (d <= m)%N ->
  g nnz d m s = (s1, inr Sk) -> py_is Sk Sm -> sjlt_mat nnz Sm.
Proof.
move=> z0 zd dm; have [s' [S [E _ h1 h2 _]]] := sjlt_cols rok RGen s z0 zd dm.
rewrite [g _ _ _ _]E => -[_ <-] /(py_is_inj (py_is_sp S)) <-; by split.
Qed.

Lemma sj_drew nnz sf m n s s1 d (Sm : 'M[R]_(d, m)) : (0 < nnz <= n)%N -> (n <= m)%N -> n%:Z <= trunc_rat (sf * n%:R) ->
  drew (g nnz) sf n s s1 Sm -> sjlt_mat nnz Sm.
Proof.
case/andP=> z0 zn nm t [dE [Sk [E pS]]]; apply: (sj_run z0 _ _ E pS).
  by move: dE t; lia.
by move: dE; lia.
Qed.

Variables (m n : nat) (A : 'M[R]_(m, n)) (sf : rat) (nnz : nat).
Hypotheses (nm : (0 < n <= m)%N) (zn : (0 < nnz <= n)%N) (sfn : n%:Z <= trunc_rat (sf * n%:R)).
Let z0 : (0 < nnz)%N. Proof. by case/andP: zn. Qed.
Let ok : lsq_ok (g nnz) sf m n. Proof. exact: sj_lsq_ok. Qed.
Let nm' : (n <= m)%N. Proof. by case/andP: nm. Qed.

Lemma sso1_drv (b : 'cV[R]_m) dl a s : lstsq_spec L -> 0 <= dl ->
  exists d (Sm : 'M[R]_(d, m)) (x : 'cV[R]_n),
  [/\ (sso1 L r (ofmx A) (ofcv b) dl a sf nnz s).2 = inr (ofcv x),
      d%:Z = Num.min (trunc_rat (sf * n%:R)) m%:Z, sjlt_mat nnz Sm &
      forall z : 'cV[R]_n,
        fro2 (Sm *m b - Sm *m A *m x) + dl * fro2 x <= fro2 (Sm *m b - Sm *m A *m z) + dl * fro2 z /\
        (fro2 (Sm *m b - Sm *m A *m z) + dl * fro2 z = fro2 (Sm *m b - Sm *m A *m x) + dl * fro2 x ->
         fro2 x <= fro2 z)].
Proof.
move=> ls d0; pose P (v : res (seq R)) := exists d (Sm : 'M[R]_(d, m)) (x : 'cV[R]_n),
  [/\ v = inr (ofcv x),
      d%:Z = Num.min (trunc_rat (sf * n%:R)) m%:Z, sjlt_mat nnz Sm &
      forall z : 'cV[R]_n,
        fro2 (Sm *m b - Sm *m A *m x) + dl * fro2 x <= fro2 (Sm *m b - Sm *m A *m z) + dl * fro2 z /\
        (fro2 (Sm *m b - Sm *m A *m z) + dl * fro2 z = fro2 (Sm *m b - Sm *m A *m x) + dl * fro2 x ->
         fro2 x <= fro2 z)].
apply: (@with2 _ a _ (P) s) => s0.
have [d [s1 [Sk [Sm [x [dE gE pS E H]]]]]] := sso1_lemma A b None 1 s0 ls ok d0.
exists d, Sm, x; split=> //; first by rewrite E.
apply: (sj_run z0 _ _ gE pS); by move: dE sfn zn; lia.
Qed.

Lemma spo3_drv (b : 'cV[R]_m) dl tol lim a md clk s x l : qr_spec L -> svd_spec L -> 0 <= dl -> md <> MOther -> 0 <= lim ->
  (spo3 L r (ofmx A) (ofcv b) dl tol lim a sf nnz md clk s).2 = inr (x, l) ->
  exists d (Sm : 'M[R]_(d, m)) (xv : 'cV[R]_n),
  [/\ d%:Z = Num.min (trunc_rat (sf * n%:R)) m%:Z, sjlt_mat nnz Sm, x = ofcv xv,
      fro2 (b - A *m xv) + dl * fro2 xv <= fro2 b &
  forall lo hi, (forall v : 'cV[R]_n, lo * fro2 (A *m v) <= fro2 (Sm *m A *m v) <= hi * fro2 (A *m v)) ->
    0 < lo <= 1 -> 1 <= hi -> (n ^ 2)%:R * hi < lo * (10%:R ^+ 8 - 1) ^+ 2 ->
    sketch_clean L md dl (Sm *m A) -> tol <= 0 -> (n <= absz lim)%N ->
    forall z : 'cV[R]_n,
      fro2 (b - A *m xv) + dl * fro2 xv <= fro2 (b - A *m z) + dl * fro2 z /\
      (fro2 (b - A *m z) + dl * fro2 z = fro2 (b - A *m xv) + dl * fro2 xv -> fro2 xv <= fro2 z)].
Proof.
move=> qr svd d0 mO l0.
pose (P := fun (v : res (seq R * @splog R)) => v = inr (x, l) -> exists d (Sm : 'M[R]_(d, m)) (xv : 'cV[R]_n),
  [/\ d%:Z = Num.min (trunc_rat (sf * n%:R)) m%:Z, sjlt_mat nnz Sm, x = ofcv xv,
      fro2 (b - A *m xv) + dl * fro2 xv <= fro2 b &
  forall lo hi, (forall v : 'cV[R]_n, lo * fro2 (A *m v) <= fro2 (Sm *m A *m v) <= hi * fro2 (A *m v)) ->
    0 < lo <= 1 -> 1 <= hi -> (n ^ 2)%:R * hi < lo * (10%:R ^+ 8 - 1) ^+ 2 ->
    sketch_clean L md dl (Sm *m A) -> tol <= 0 -> (n <= absz lim)%N ->
    forall z : 'cV[R]_n,
      fro2 (b - A *m xv) + dl * fro2 xv <= fro2 (b - A *m z) + dl * fro2 z /\
      (fro2 (b - A *m z) + dl * fro2 z = fro2 (b - A *m xv) + dl * fro2 xv -> fro2 xv <= fro2 z)]).
apply: (@with2 _ a _ (P) s) => s0; rewrite /P => E'.
have E : SPO L (g nnz) sf md (ofmx A) (ofcv b) dl tol lim true clk s0 =
  ((SPO L (g nnz) sf md (ofmx A) (ofcv b) dl tol lim true clk s0).1, inr (x, l)) by rewrite -E'; case: (SPO _ _ _ _ _ _ _ _ _ _ _ _).
have [d [Sm [xv [dr xE H]]]] := spo_exact_lemma ok qr svd d0 mO l0 E.
have [xv' [xE' le]] := spo_le_lemma ok qr svd d0 mO l0 E.
exists d, Sm, xv; split=> //; [by case: dr | exact: sj_drew zn nm' sfn dr | ].
by have -> : xv = xv' by apply: ofcv_inj; rewrite -xE -xE'.
Qed.

Lemma spo1_zero_drv dl tol lim a clk s : qr_spec L -> svd_spec L -> 0 <= dl -> 0 <= lim ->
  (spo1 L r (ofmx A) (ofcv (0 : 'cV[R]_m)) dl tol lim a sf nnz clk s).2 = inl ValueError.
Proof.
move=> qr svd d0 l0; apply: (@with2 _ a _ (fun v => v = inl ValueError) s) => s0.
have hm : MSvd <> MOther by [].
have [s1 [e [-> he]]] := spo_zero_lemma' A tol clk s0 ok qr svd d0 hm l0.
by case: he => [->|[]].
Qed.

Lemma spu1_drv (c : 'cV[R]_n) (tol : R) lim a clk s : svd_spec L -> c != 0 -> (exists e, c = A^T *m e) ->
  tol <= 0 -> 0 <= lim -> (n <= absz lim)%N ->
  exists d (Sm : 'M[R]_(d, m)), sjlt_mat nnz Sm /\
  forall lo hi, (forall v : 'cV[R]_n, lo * fro2 (A *m v) <= fro2 (Sm *m A *m v) <= hi * fro2 (A *m v)) ->
    0 < lo -> 0 < hi -> (n ^ 2)%:R * hi < lo * (10%:R ^+ 8 - 1) ^+ 2 -> svd_clean L (Sm *m A) ->
    exists (y : 'cV[R]_m) l,
    [/\ (spu1 L r (ofmx A) (ofcv c) tol lim a sf nnz clk s).2 = inr (ofcv y, l), A^T *m y = c &
        forall z, A^T *m z = c -> fro2 y <= fro2 z].
Proof.
move=> svd /eqP c0 [e ce] t0 l0 nl.
pose (P := fun (v : res (seq R * @splog R)) => exists d (Sm : 'M[R]_(d, m)), sjlt_mat nnz Sm /\
  forall lo hi, (forall v : 'cV[R]_n, lo * fro2 (A *m v) <= fro2 (Sm *m A *m v) <= hi * fro2 (A *m v)) ->
    0 < lo -> 0 < hi -> (n ^ 2)%:R * hi < lo * (10%:R ^+ 8 - 1) ^+ 2 -> svd_clean L (Sm *m A) ->
    exists (y : 'cV[R]_m) l,
    [/\ v = inr (ofcv y, l), A^T *m y = c & forall z, A^T *m z = c -> fro2 y <= fro2 z]).
apply: (@with2 _ a _ (P) s) => s0.
have [s1 [d [Sm [dr [_ good]]]]] := spu_lemma A c tol ok svd s0.
exists d, Sm; split; first exact: sj_drew zn nm' sfn dr.
move=> lo hi em l1 h1 cnd cl; have [k [M0 [_ H]]] := good c0.
have [y [es [E rg _ ex ee]]] := H lim l0.
have mn : ridge_min A^T c 0 y by apply: (ex lo hi).
have Ay : A^T *m y = c.
  have [h _] := mn e; move: h; rewrite -ce !mul0r !addr0 subrr fro20 => h.
  apply/esym/eqP; rewrite -subr_eq0 -fro2_eq0 eq_le fro2_ge0 andbT; exact: h.
have yn0 : y <> 0 by move=> y0; apply: c0; rewrite -Ay y0 mulmx0.
case: ee => [[_ [_ /yn0]]//|[_ [es1 [esE _ _ _]]]].
have [l' [ts [W _ _ _ _]]] := wrap_up_lemma (log_of true clk) es1
  (fro (A *m M0 *m (M0^T *m (c - A^T *m (0 : 'cV[R]_m))))).
exists y, l'; split=> // [|z zc]; first by rewrite E esE /log_ret W.
have [_ h] := mn z; move: h; rewrite !mul0r !addr0 zc Ay; exact.
Qed.

Lemma spu1_orth_drv (c : 'cV[R]_n) (tol : R) lim a clk s : svd_spec L -> A *m c = 0 -> 0 <= lim ->
  exists e, (spu1 L r (ofmx A) (ofcv c) tol lim a sf nnz clk s).2 = inl e.
Proof.
move=> svd Ac l0.
apply: (@with2 _ a _ (fun v => exists e, v = inl e) s) => s0.
have [s1 [d [Sm [dr [bad good]]]]] := spu_lemma A c tol ok svd s0.
have [/eqP c0|/eqP c0] := boolP (c == 0); first by rewrite bad //; exists TypeError.
have [k [M0 [[_ [W ME]] H]]] := good c0.
have [y [es [E rg _ ex ee]]] := H lim l0.
case: ee => [[_ [esE _]]|[e0 _]]; first by rewrite E esE /log_ret /=; eexists.
case: e0; rewrite mulmx0 subr0 ME [(_ *m W)^T]trmx_mul trmxK -!mulmxA Ac !mulmx0.
by apply/eqP; rewrite fro_eq0.
Qed.

End Drivers.

Section Sps.
Variables (R : rcfType) (G : Type) (L : lapack R) (r : rng_ops G R).
Hypothesis rok : rng_ok r.
Variables (m n : nat) (A : 'M[R]_(m, n)) (sf : rat) (nnz : nat).
Variables (b : option 'cV[R]_m) (c : option 'cV[R]_n) (dl tol : R).
Notation g nnz := (@skopSJ R (rcf_ops R) G r nnz).
Notation b0 := (if b is Some b then b else 0).
Notation c0 := (if c is Some c then c else 0).
Notation call me lim a clk s := (sps L r (ofmx A) (omap (@ofcv R m) b) (omap (@ofcv R n) c) dl tol lim a sf nnz me clk s).

Lemma sps_ret lim clk s : sps1_solves L (g nnz) sf NLeft A b c dl tol s -> 0 <= lim ->
  exists (x : 'cV[R]_n) l,
  (SPS1 L (g nnz) sf (@PcSS1 R (rcf_ops R)) NLeft (ofmx A) (omap (@ofcv R m) b) (omap (@ofcv R n) c) dl tol lim true clk s).2 =
    inr (Some (ofcv x), ofcv (b0 - A *m x), l) /\
  ((n <= absz lim)%N -> tol = 0 -> A^T *m (b0 - A *m x) - dl *: x = c0).
Proof.
move=> [s1 [x0 H]] l0; have [x [es [E _ _ ex _]]] := H lim l0.
have [l' [ts [W _ _ _ _]]] := wrap_up_lemma (log_of true clk) es (fro (A^T *m vdef b - vdef c)).
exists x, l'; split; first by rewrite E /log_ret W.
by move=> nl t0; case: (ex nl t0).
Qed.

Lemma sps_pcg lim a clk s :
  let t := trunc_rat (sf * n%:R) in
  svd_spec L -> \rank A = n \/ 0 < dl -> 0 <= dl -> 0 <= tol -> (0 < n)%N -> (0 < m)%N -> (0 < nnz)%N ->
  n%:R < 2%:R ^+ 52 :> R -> n%:Z <= t -> 0 <= lim ->
  exists Sm : 'M[R]_(absz t, m),
  ((nnz <= absz t <= m)%N -> sjlt_mat nnz Sm) /\
  (Sm *m A <> 0 \/ 0 < dl -> exists (x : 'cV[R]_n) l,
     (call SpsPcg lim a clk s).2 = inr (Some (ofcv x), ofcv (b0 - A *m x), l) /\
     ((n <= absz lim)%N -> tol = 0 -> A^T *m (b0 - A *m x) - dl *: x = c0)).
Proof.
move=> t svd hA d0 t0 n0 m0 z0 n52 nt l0.
pose (P := fun v : res (option (seq R) * seq R * @splog R) => exists Sm : 'M[R]_(absz t, m),
  ((nnz <= absz t <= m)%N -> sjlt_mat nnz Sm) /\
  (Sm *m A <> 0 \/ 0 < dl -> exists (x : 'cV[R]_n) l,
     v = inr (Some (ofcv x), ofcv (b0 - A *m x), l) /\
     ((n <= absz lim)%N -> tol = 0 -> A^T *m (b0 - A *m x) - dl *: x = c0))).
apply: (@with2 _ _ r _ a _ (P) s) => s0.
have gk : gen_ok (g nnz) (absz t) m by apply: sj_gen_ok => //; lia.
have st : NLeft <> NOther by [].
have [s1 [Sk [Sm [gE pS H]]]] := sps1_full_lemma (strat := NLeft) b c svd hA d0 t0 s0 n0 n52 nt st gk.
exists Sm; split=> [/andP[h1 h2]|h]; first exact: (sj_run rok z0 h1 h2 gE pS).
exact: sps_ret (H h) l0.
Qed.

Lemma sps_pcg_small lim a clk s :
  let t := trunc_rat (sf * n%:R) in
  qr_spec L -> svd_spec L -> 0 <= dl -> 0 <= tol -> (n <= m)%N -> (0 < nnz)%N ->
  0 < t < n%:Z -> \rank A = n -> 0 <= lim ->
  exists (x : 'cV[R]_n) l,
     (call SpsPcg lim a clk s).2 = inr (Some (ofcv x), ofcv (b0 - A *m x), l) /\
     ((n <= absz lim)%N -> tol = 0 -> A^T *m (b0 - A *m x) - dl *: x = c0).
Proof.
move=> t qr svd d0 t0 nm z0 tn rA l0.
pose (P := fun v : res (option (seq R) * seq R * @splog R) => exists (x : 'cV[R]_n) l,
     v = inr (Some (ofcv x), ofcv (b0 - A *m x), l) /\
     ((n <= absz lim)%N -> tol = 0 -> A^T *m (b0 - A *m x) - dl *: x = c0)).
apply: (@with2 _ _ r _ a _ P s) => s0.
have gk : gen_ok (g nnz) (absz t) m by apply: sj_gen_ok => //; lia.
apply: sps_ret l0; exact: (sps1_left_lemma b c qr svd (or_introl rA)).
Qed.
End Sps.

Lemma sps_lsqr (R : rcfType) (G : Type) (L : lapack R) (r : rng_ops G R) m n (A : 'M[R]_(m, n)) sf nnz
    (b : 'cV[R]_m) (c : 'cV[R]_n) (dl tol : R) lim a clk s :
  rng_ok r -> svd_spec L -> 0 <= dl -> (0 < n)%N -> (0 < m)%N -> (0 < nnz)%N -> n%:Z <= trunc_rat (sf * n%:R) ->
  b != 0 -> c != 0 ->
  (sps L r (ofmx A) (Some (ofcv b)) (Some (ofcv c)) dl tol lim a sf nnz SpsLsqr clk s).2 = inl ValueError.
Proof.
move=> rok svd d0 n0 m0 z0 nt bn cn; apply: (@with2 _ _ r _ a _ (fun v => v = inl ValueError) s) => s0.
have gk : gen_ok (skopSJ r nnz) (absz (trunc_rat (sf * n%:R))) m by apply: sj_gen_ok => //; lia.
have st : NLeft <> NOther by [].
by have [s1 ->] := sps1_lsqr_lemma A tol lim true clk s0 svd d0 n0 nt st gk bn cn.
Qed.
