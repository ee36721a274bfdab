(** Proofs of C103 and C104: the problem generators. *)
From mathcomp Require Import all_ssreflect all_algebra.
From Verif Require Import Base Arr Lapack Exact MxLib LapackSpec LapackExists Rng Aware Precond Sketching Makers RingTac.
From Verif Require Import P_Svd P_Sketch3 P_Stab.
Set Implicit Arguments.
Unset Strict Implicit.
Unset Printing Implicit Defensive.
Import Order.TTheory GRing.Theory Num.Theory.
Local Open Scope ring_scope.

Section Makers.
Variables (R : rcfType) (G : Type) (L : lapack R) (r : rng_ops G R).
Hypothesis qrL : qr_spec L.
Add Field makers_field : (rcf_field R).

(** Two successive draws: an m-by-k Gaussian matrix X and an n-by-k one, both of full rank. *)
Definition two_draws m n k (X : 'M[R]_(m, k)) (s s2 : st G R) : Prop := exists s1 (Y : 'M[R]_(n, k)),
  [/\ gaussian_operator r true m k s = (s1, inr (PyArr (ofmx X))), \rank X = k,
      gaussian_operator r true n k s1 = (s2, inr (PyArr (ofmx Y))) & \rank Y = k].
Arguments two_draws {m} n {k}.

Lemma low_rankE m n k (t : 'cV[R]_k) X (s s2 : st G R) : (0 < k)%N -> (k <= minn m n)%N -> @two_draws m n k X s s2 ->
  exists (U : 'M[R]_(m, k)) (V : 'M[R]_(k, n)),
    [/\ low_rank L r m n (ofcv t) s = (s2, inr (ofmx (U *m diag_mx t^T *m V), ofmx U, ofmx V)), orthonormal U, orthonormal V^T & (X^T == U^T)%MS].
Proof.
move=> k0 kmn [s1 [Y [EX rX EY rY]]]; move: kmn; rewrite leq_min => /andP[km kn].
have [U [U1 [EU _ oU XE _]]] := orthonormal_op qrL k0 km (EX : with_rng r RGen _ _ = _) rX.
have [V [EV oV]] : exists V : 'M[R]_(k, n), orthonormal_operator L r k n RGen s1 = (s2, inr (PyArr (ofmx V))) /\ orthonormal V^T.
  have [W [W1 [EW EW' oW _ _]]] := orthonormal_op qrL k0 kn (EY : with_rng r RGen _ _ = _) rY.
  move: kn EY EW EW' oW; rewrite leq_eqVlt => /orP[/eqP e|kn].
    case: n / e Y rY W W1 => Y rY W W1 _ EW _ oW; exists W; split=> //.
    rewrite /orthonormal trmxK; exact: mulmx1C oW.
  by move=> _ _ /(_ kn) E oW; exists W^T; rewrite trmxK.
exists U, V; split=> //; last by have [_ h] := span_eq XE; exact: h.
rewrite /low_rank size_ofcv (bindE _ EU) (bindE _ EV) /= !bind_liftE.
by rewrite /lift /bind /= cmulE /= mmulE.
Qed.

(** The normalised spectrum. *)
Lemma norm_spectrumE (v : seq R) : all (fun x => 0 <= x) v -> has (fun x => 0 < x) v ->
  exists t : 'cV[R]_(size v), [/\ norm_spectrum v = Ok (ofcv t),
    exists2 mx, mx \in v & (forall x, x \in v -> x <= mx) /\ perm_eq (ofcv t) [seq x / mx | x <- v],
    forall i j : 'I_(size v), (i <= j)%N -> t j 0 <= t i 0,
    forall i, 0 <= t i 0 <= 1 &
    forall i : 'I_(size v), i = 0%N :> nat -> t i 0 = 1].
Proof.
move=> nn ps; rewrite /norm_spectrum.
set w := rev _; have pw : perm_eq w v by rewrite perm_rev perm_sort.
have sw : sorted (fun x y : R => y <= x) w by rewrite rev_sorted; apply: sort_sorted => x y; exact: le_total.
have szw : size w = size v := perm_size pw.
case Ew : w => [|s0 w'] /=; first by move: szw ps; rewrite Ew; case: (v).
have top x : x \in v -> x <= s0.
  rewrite -(perm_mem pw) Ew inE => /orP[/eqP -> //|xw].
  by move: sw; rewrite Ew /= => /(order_path_min (fun y x z (a : y <= x) (b : z <= y) => le_trans b a))/allP/(_ _ xw).
have m0 : s0 \in v by rewrite -(perm_mem pw) Ew inE eqxx.
have s0p : 0 < s0 by have /hasP[x xv x0] := ps; exact: lt_le_trans x0 (top _ xv).
rewrite gt_eqF // -/(map _ (s0 :: w')) -Ew.
exists (\col_i nth 0 [seq x / s0 | x <- w] i).
have E : [seq x / s0 | x <- w] = ofcv (\col_(i < size v) nth 0 [seq x / s0 | x <- w] i).
  rewrite -mkseq_ofcv; apply: (@eq_from_nth _ 0); rewrite ?size_mkseq ?size_map // => i iw.
  by rewrite nth_mkseq // -szw.
have nt (i : 'I_(size v)) : (\col_(i < size v) nth 0 [seq x / s0 | x <- w] i) i 0 = nth 0 w i / s0.
  by rewrite mxE (nth_map 0) // szw.
split.
- by rewrite -E.
- by exists s0 => //; split=> //; rewrite -E; exact: perm_map.
- move=> i j ij; rewrite !nt ler_pmul2r ?invr_gt0 //.
  apply: (sorted_leq_nth (fun y x z (a : y <= x) (b : z <= y) => le_trans b a) _ 0 sw) => //; rewrite ?inE ?szw //.
- move=> i; rewrite nt; have iv : nth 0 w i \in v by rewrite -(perm_mem pw) mem_nth ?szw.
  by rewrite ler_pdivr_mulr // mul1r (top _ iv) andbT; apply: divr_ge0 (allP nn _ iv) (ltW s0p).
- by move=> i i0; rewrite nt i0 Ew /= divff // gt_eqF.
Qed.

Lemma rand_low_rankE m n (v : seq R) f X (s s2 : st G R) :
  all (fun x => 0 <= x) v -> has (fun x => 0 < x) v -> (size v <= minn m n)%N -> @two_draws m n (size v) X s s2 ->
  exists (U : 'M[R]_(m, size v)) (t : 'cV[R]_(size v)) (V : 'M[R]_(size v, n)),
    [/\ rand_low_rank L r m n (SpArr v) RGen f s =
          (s2, inr (ofmx (U *m diag_mx t^T *m V), if f then Some (ofmx U, ofcv t, ofmx V) else None)),
        orthonormal U /\ orthonormal V^T,
        exists2 mx, mx \in v & (forall x, x \in v -> x <= mx) /\ perm_eq (ofcv t) [seq x / mx | x <- v],
        forall i j : 'I_(size v), (i <= j)%N -> t j 0 <= t i 0 &
        (forall i, 0 <= t i 0 <= 1) /\ (forall i : 'I_(size v), i = 0%N :> nat -> t i 0 = 1)].
Proof.
move=> nn ps kmn D; have [t [Et h1 h2 h3 h4]] := norm_spectrumE nn ps.
have k0 : (0 < size v)%N by move: ps; case: (v).
have [U [V [E oU oV _]]] := low_rankE t k0 kmn D.
exists U, t, V; split=> //; rewrite /rand_low_rank /with_rng /get_spectrum.
have rb Z Y (x : Z) (h : Z -> M G R Y) s0 : bind (ret x) h s0 = h x s0 by [].
by rewrite rb Et bind_liftE (bindE _ E).
Qed.

Lemma orth_rank m k n (U : 'M[R]_(m, k)) (t : 'cV[R]_k) (V : 'M[R]_(k, n)) : orthonormal U -> orthonormal V^T ->
  (forall i, t i 0 != 0) -> \rank (U *m diag_mx t^T *m V) = k.
Proof.
move=> oU oV t0; apply/eqP; rewrite eqn_leq; apply/andP; split.
  by apply: leq_trans (mxrankM_maxl _ _) _; exact: rank_leq_col.
have e : (U^T *m (U *m diag_mx t^T *m V)) *m V^T *m diag_mx (vinv t)^T = 1%:M.
  have oV' : V *m V^T = 1%:M by move: oV; rewrite /orthonormal trmxK.
  by rewrite -!mulmxA (mulmxA V) oV' mul1mx diag_vinv // mulmx1.
rewrite -{1}(mxrank1 R k) -e; apply: leq_trans (mxrankM_maxl _ _) _; apply: leq_trans (mxrankM_maxl _ _) _; exact: mxrankM_maxr.
Qed.

(** exponent_spectrum and s_shaped_spectrum produce one singular value less than asked for. *)
Lemma arange1_size (k : nat) : size (arange1 k.+1%:Z) = k.
Proof. by rewrite /arange1; case: k => [|k] //=; rewrite size_iota. Qed.

Lemma pos_low_rank m n (v : seq R) X (s s2 : st G R) : (0 < size v)%N -> all (fun x => 0 < x) v ->
  (size v <= minn m n)%N -> @two_draws m n (size v) X s s2 ->
  exists M : 'M[R]_(m, n), rand_low_rank L r m n (SpArr v) RGen false s = (s2, inr (ofmx M, None)) /\ \rank M = size v.
Proof.
move=> v0 ps kmn D.
have nn : all (fun x => 0 <= x) v by apply: sub_all ps => x; exact: ltW.
have hs : has (fun x => 0 < x) v by case: (v) v0 ps => //= x w _ /andP[->].
have [U [t [V [E [oU oV] [mx mv [mt pt]] _ _]]]] := rand_low_rankE false nn hs kmn D.
exists (U *m diag_mx t^T *m V); split=> //; apply: orth_rank => // i.
have : t i 0 \in [seq x / mx | x <- v].
  by rewrite -(perm_mem pt) -ev_ofcv /ev mem_nth // size_ofcv.
case/mapP=> x xv ->; rewrite gt_eqF // divr_gt0 //; exact: (allP ps).
Qed.

Lemma exponent_rank (oexp : R -> R) m n (k : nat) (p : R) X (s s2 : st G R) : (forall x, 0 < oexp x) ->
  (0 < k)%N -> (k <= minn m n)%N -> @two_draws m n k X s s2 ->
  exists M : 'M[R]_(m, n), exponent_spectrum L r oexp m n k.+1%:Z RGen p false s = (s2, inr (ofmx M, None)) /\ \rank M = k.
Proof.
move=> ep k0 kmn D; rewrite /exponent_spectrum; set v := map _ _.
have sv : size v = k by rewrite size_map arange1_size.
move: X D; rewrite -{1 2}sv => X D.
rewrite -sv in k0 kmn.
suff ps : all (fun x => 0 < x) v by have [M [EM rM]] := pos_low_rank k0 ps kmn D; exists M; split=> //; rewrite rM.
by apply/allP=> x /mapP[i _ ->].
Qed.

Lemma s_shaped_rank (oexp : R -> R) m n (k : nat) X (s s2 : st G R) : (forall x, 0 < oexp x) ->
  (0 < k)%N -> (k <= minn m n)%N -> @two_draws m n k X s s2 ->
  exists M : 'M[R]_(m, n), s_shaped_spectrum L r oexp m n k.+1%:Z RGen false s = (s2, inr (ofmx M, None)) /\ \rank M = k.
Proof.
move=> ep k0 kmn D; rewrite /s_shaped_spectrum; set v := map _ _.
have sv : size v = k by rewrite size_map arange1_size.
move: X D; rewrite -{1 2}sv => X D.
rewrite -sv in k0 kmn.
suff ps : all (fun x => 0 < x) v by have [M [EM rM]] := pos_low_rank k0 ps kmn D; exists M; split=> //; rewrite rM.
apply/allP=> x /mapP[i _ ->]; rewrite opowE onatE.
have q : 0 < 1 / 10%:R ^+ 4 :> R by rewrite divr_gt0 ?ltr01 // exprn_gt0 // ltr0n.
have q2 : 0 < 1 / (1 + oexp (onat i - onat 29)) :> R by rewrite divr_gt0 ?ltr01 //; exact: addr_gt0 ltr01 (ep _).
exact: addr_gt0 q q2.
Qed.

(** simple_mat scales the columns of a Gaussian matrix. *)
Lemma simple_matE (qrf : arr R -> res (arr R * arr R)) m n (c : R) (A : 'M[R]_(m, n)) (Q : 'M[R]_m) (U : 'M[R]_(m, n)) (s s1 : st G R) :
  0 <= c -> getgen (fun g => r_normal r g 1 m n) s = (s1, inr (ofmx A)) ->
  qrf (ofmx A) = Ok (ofmx Q, ofmx U) -> A = Q *m U ->
  simple_mat r qrf m n c RGen s = (s1, inr (ofmx (\matrix_(i, j) (A i j / Num.sqrt (1 + c * (j : nat)%:R))))).
Proof.
move=> c0 EA EQ AE; rewrite /simple_mat /with_rng (bindE _ EA) EQ bind_liftE.
set rt := mkseq _ _.
have p j : 0 < Num.sqrt (1 + c * j%:R) :> R by rewrite sqrtr_gt0 ltr_paddr ?ltr01 // mulr_ge0 // ler0n.
have -> : nz_check rt = Ok tt.
  rewrite /nz_check; case: ifP => // /hasP[x /mapP[j _ ->]] /=; rewrite onatE => /eqP e.
  by have := p j; rewrite e ltxx.
rewrite bind_liftE /=.
have -> : [seq 1 / x | x <- rt] = ofcv (\col_(j < n) (Num.sqrt (1 + c * (j : nat)%:R))^-1).
  rewrite -map_comp; apply: mkseq_eq_ofcv => j; by rewrite /= onatE mxE div1r.
rewrite cmulE bind_liftE mmulE /lift; congr (_, inr (ofmx _)).
by rewrite mulmxA -AE; apply/matrixP=> i j; rewrite mul_mx_diag !mxE.
Qed.

(** ** The demo problems. *)
Definition meanc k (t : 'cV[R]_k) : R := (\sum_i t i 0) / k%:R.

Lemma demo_bE m k (U : 'M[R]_(m, k)) (t : 'cV[R]_k) (p : R) (b0 : 'cV[R]_m) : orthonormal U ->
  U^T *m b0 != 0 -> b0 - U *m (U^T *m b0) != 0 ->
  exists br bo : 'cV[R]_m, [/\ demo_b (ofmx U) (ofcv t) p (ofcv b0) = Ok (ofcv (p *: br + (1 - p) *: bo)),
    U *m (U^T *m br) = br, U^T *m bo = 0, fro br = `|meanc t| & fro bo = `|meanc t|].
Proof.
move=> oU nr0 no0; pose br0 := U *m (U^T *m b0); pose bo0 := b0 - br0.
have UU (x : 'cV[R]_k) : U^T *m (U *m x) = x by rewrite mulmxA oU mul1mx.
have nr : br0 != 0 by apply: contra nr0 => /eqP e; rewrite -[X in X == 0](UU (U^T *m b0)) -/br0 e mulmx0.
have fnr : fro br0 != 0 by rewrite fro_eq0.
have fno : fro bo0 != 0 by rewrite fro_eq0.
have fs (x : 'cV[R]_m) : fro x != 0 -> fro ((meanc t / fro x) *: x) = `|meanc t|.
  move=> x0; rewrite {1}/fro fro2Z sqrtrM ?sqr_ge0 // sqrtr_sqr -/(fro x) normrM normfV.
  by rewrite (ger0_norm (sqrtr_ge0 _)) -mulrA mulVf // mulr1.
exists ((meanc t / fro br0) *: br0), ((meanc t / fro bo0) *: bo0); split; try exact: fs.
- rewrite /demo_b mtrE mvE /= mvE /= vsubE /= -/br0 -/bo0 !vnormE /nz_check /= (negbTE fnr) (negbTE fno) /=.
  rewrite !vscaleE vaddE size_ofcv osumE onatE.
  have -> : \sum_(i < k) ev (ofcv t) i = \sum_i t i 0 by apply: eq_bigr => i _; rewrite ev_ofcv.
  by [].
- by rewrite -!scalemxAr /br0 UU.
- by rewrite -scalemxAr /bo0 mulmxBr /br0 UU subrr scaler0.
Qed.

Lemma demo_solveE m n k (U : 'M[R]_(m, k)) (t : 'cV[R]_k) (V : 'M[R]_(k, n)) (b : 'cV[R]_m) : (forall i, t i 0 != 0) ->
  demo_solve (ofmx U) (ofcv t) (ofmx V) (ofcv b) = Ok (ofcv (V^T *m diag_mx (vinv t)^T *m (U^T *m b))).
Proof.
move=> t0; rewrite /demo_solve.
have -> : nz_check (ofcv t) = Ok tt.
  rewrite /nz_check; case: ifP => // /hasP[x /mapP[j]]; rewrite mem_iota add0n => /andP[_ jk] -> /= /eqP e.
  by have := t0 (Ordinal jk); rewrite -ev_ofcv /= /ev nth_mkseq //= e eqxx.
by rewrite /= mtrE cdivE /= mtrE mvE /= mvE.
Qed.

(** What is claimed of the object. *)
Definition demo_spec m n k (p : R) (U : 'M[R]_(m, k)) (t : 'cV[R]_k) (V : 'M[R]_(k, n)) (A : 'M[R]_(m, n)) (b : 'cV[R]_m) (x : 'cV[R]_n) : Prop :=
  [/\ A = U *m diag_mx t^T *m V, A^T *m (b - A *m x) = 0, (exists y, x = A^T *m y),
      fro (A *m x) = `|p| * `|meanc t| & fro (b - A *m x) = `|1 - p| * `|meanc t|].

Lemma demo_ok m n k p (U : 'M[R]_(m, k)) (t : 'cV[R]_k) (V : 'M[R]_(k, n)) (b0 : 'cV[R]_m) :
  orthonormal U -> orthonormal V^T -> (forall i, t i 0 != 0) -> U^T *m b0 != 0 -> b0 - U *m (U^T *m b0) != 0 ->
  exists b x, [/\ demo_b (ofmx U) (ofcv t) p (ofcv b0) = Ok (ofcv b),
    demo_solve (ofmx U) (ofcv t) (ofmx V) (ofcv b) = Ok (ofcv x) & demo_spec p U t V (U *m diag_mx t^T *m V) b x].
Proof.
move=> oU oV t0 nr no; have [br [bo [E h1 h2 h3 h4]]] := demo_bE t p oU nr no.
exists (p *: br + (1 - p) *: bo); eexists; split; [exact: E|exact: demo_solveE|].
set b := p *: br + _; set x := V^T *m _ *m _.
have oV' : V *m V^T = 1%:M by move: oV; rewrite /orthonormal trmxK.
have dd : diag_mx t^T *m diag_mx (vinv t)^T = 1%:M := diag_vinv t0.
have Ax : U *m diag_mx t^T *m V *m x = p *: br.
  rewrite /x -!mulmxA (mulmxA V) oV' mul1mx (mulmxA (diag_mx _)) dd mul1mx /b !mulmxDr -!scalemxAr h2 mulmx0 scaler0 addr0.
  by rewrite h1.
have bAx : b - U *m diag_mx t^T *m V *m x = (1 - p) *: bo by rewrite Ax /b addrC addKr.
have fz q (y : 'cV[R]_m) : fro (q *: y) = `|q| * fro y by rewrite /fro fro2Z sqrtrM ?sqr_ge0 // sqrtr_sqr.
split=> //.
- by rewrite bAx !trmx_mul -!mulmxA -scalemxAr h2 scaler0 !mulmx0.
- exists (U *m (diag_mx (vinv t)^T *m diag_mx (vinv t)^T *m (U^T *m b))).
  rewrite !trmx_mul tr_diag_mx -!mulmxA (mulmxA U^T) oU mul1mx (mulmxA (diag_mx t^T)) dd mul1mx.
  by rewrite /x -!mulmxA.
- by rewrite Ax fz h3.
- by rewrite bAx fz h4.
Qed.

Lemma std_vecE m (b0 : 'cV[R]_m) (s s1 : st G R) : getgen (fun g => r_stdnormal r g m 1) s = (s1, inr (ofmx b0)) ->
  std_vec r m s = (s1, inr (ofcv b0)).
Proof.
move=> E; rewrite /std_vec (bindE _ E) /ret; congr (_, inr _).
by rewrite /mcol nr_ofmx; apply: mkseq_eq_ofcv => i; rewrite (el_ofmx b0 i 0).
Qed.

Lemma make_demoE m n k (t : 'cV[R]_k) p (b0 : 'cV[R]_m) X (s s2 s3 : st G R) : (0 < k)%N -> (k <= minn m n)%N -> (forall i, t i 0 != 0) ->
  @two_draws m n k X s s2 -> getgen (fun g => r_stdnormal r g m 1) s2 = (s3, inr (ofmx b0)) ->
  X^T *m b0 != 0 -> ~~ (b0^T <= X^T)%MS ->
  exists (U : 'M[R]_(m, k)) (V : 'M[R]_(k, n)) A b x, [/\ orthonormal U, orthonormal V^T,
    make_demo_helper L r m n (ofcv t) p RGen s =
       (s3, inr (Demo (ofmx A) (ofcv b) (ofcv x) (ofmx U) (ofcv t) (ofmx V))) & demo_spec p U t V A b x].
Proof.
move=> k0 kmn t0 D Eb nx nb; have [U [V [E oU oV /eqmxP XU]]] := low_rankE t k0 kmn D.
have nr : U^T *m b0 != 0.
  apply: contra nx => /eqP e; have /submxP[W XW] : (X^T <= U^T)%MS by rewrite XU.
  by rewrite XW -mulmxA e mulmx0.
have no : b0 - U *m (U^T *m b0) != 0.
  apply: contra nb; rewrite subr_eq0 => /eqP ->; rewrite XU !trmx_mul; exact: submxMl.
have [b [x [E1 E2 S]]] := demo_ok p oU oV t0 nr no.
exists U, V, (U *m diag_mx t^T *m V), b, x; split=> //.
by rewrite /make_demo_helper /with_rng (bindE _ E) (bindE _ (std_vecE Eb)) E1 bind_liftE E2 bind_liftE.
Qed.

Lemma resampleE m n k (U : 'M[R]_(m, k)) (t : 'cV[R]_k) (V : 'M[R]_(k, n)) A b1 x1 p (b0 : 'cV[R]_m) (s s1 : st G R) :
  orthonormal U -> orthonormal V^T -> (forall i, t i 0 != 0) -> A = U *m diag_mx t^T *m V ->
  U^T *m b0 != 0 -> b0 - U *m (U^T *m b0) != 0 ->
  getgen (fun g => r_stdnormal r g m 1) s = (s1, inr (ofmx b0)) ->
  exists b x, resample_b r (Demo (ofmx A) b1 x1 (ofmx U) (ofcv t) (ofmx V)) p RGen s =
       (s1, inr (Demo (ofmx A) (ofcv b) (ofcv x) (ofmx U) (ofcv t) (ofmx V))) /\ demo_spec p U t V A b x.
Proof.
move=> oU oV t0 -> nr no Eb; have [b [x [E1 E2 S]]] := demo_ok p oU oV t0 nr no.
exists b, x; split=> //.
by rewrite /resample_b /with_rng /= (bindE _ (std_vecE Eb)) E1 bind_liftE E2 bind_liftE.
Qed.
End Makers.

Lemma rand_empty (T : Type) (O : ops T) (G : Type) (L : lapack T) (r : rng_ops G T) (oexp : T -> T) m n (k : int) (p : T) f
    (s : st G T) :
  rand_low_rank L r m n (SpArr [::]) RGen f s = (s, inl IndexError) /\
  (k <= 1 -> exponent_spectrum L r oexp m n k RGen p f s = (s, inl IndexError) /\
             s_shaped_spectrum L r oexp m n k RGen f s = (s, inl IndexError)).
Proof. by split=> // k1; rewrite /exponent_spectrum /s_shaped_spectrum /arange1 k1. Qed.

(** A generator meeting the hypotheses: identity matrices and vectors of ones. *)
Section MakersWit.
Variable R : rcfType.
Definition ones_rng : rng_ops nat R :=
  {| r_normal := r_normal (@toy_rng R (rcf_ops R));
     r_stdnormal := fun g m n => (g.+1, ofmx (const_mx 1 : 'M[R]_(m, n)));
     r_random := r_random (@toy_rng R (rcf_ops R)); r_choice := r_choice (@toy_rng R (rcf_ops R));
     r_perm := r_perm (@toy_rng R (rcf_ops R)); r_seed := r_seed (@toy_rng R (rcf_ops R)); r_seeds := r_seeds (@toy_rng R (rcf_ops R)) |}.

Lemma makers_wit (s : st nat R) : exists s1 s2 s3, let X : 'M[R]_(3, 2) := \matrix_(i, j) (val i == val j)%:R in
  let b0 : 'cV[R]_3 := const_mx 1 in
  [/\ gaussian_operator ones_rng true 3 2 s = (s1, inr (PyArr (ofmx X))),
      gaussian_operator ones_rng true 3 2 s1 = (s2, inr (PyArr (ofmx X))), \rank X = 2%N,
      getgen (fun g => r_stdnormal ones_rng g 3 1) s2 = (s3, inr (ofmx b0)) &
      X^T *m b0 != 0 /\ ~~ (b0^T <= X^T)%MS].
Proof.
have ge (s0 : st nat R) : gaussian_operator ones_rng true 3 2 s0 =
    (St (gen s0).+1 (evs s0), inr (PyArr (ofmx (\matrix_(i < 3, j < 2) (val i == val j)%:R)))).
  rewrite /= /gaussian_operator /bind /getgen /=; congr (_, inr (PyArr _)).
  by apply: mk_eq_ofmx => i j; rewrite mxE; case: eqP.
do 3 eexists; move=> X b0; split; [exact: ge|exact: ge| |by []|split].
- apply/eqP; rewrite eqn_leq rank_leq_col /=.
  have XX : X^T *m X = 1%:M.
    apply/matrixP=> i j; rewrite !mxE !big_ord_recl big_ord0 !mxE.
    by case: i j => [[|[|i]] hi] // [[|[|j]] hj] //=; rewrite ?mulr0 ?mul0r ?mulr1 ?addr0 ?add0r.
  by rewrite -{1}(mxrank1 R 2) -XX; exact: mxrankM_maxr.
- apply/eqP=> /matrixP/(_ 0 0); rewrite !mxE !big_ord_recl big_ord0 !mxE /= => /eqP.
  by rewrite !mulr1 !addr0 oner_eq0.
apply/negP=> /submxP[W /matrixP/(_ 0 ord_max)]; rewrite !mxE big1 => [/eqP|i _]; first by rewrite oner_eq0.
by rewrite !mxE; case: i => [[|[|i]] hi] //=; rewrite mulr0.
Qed.
End MakersWit.
