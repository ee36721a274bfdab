(** Property C101: conjugate gradients in rounded arithmetic.  The residual norms pcg records and
    the one it stops on are those of the iterates themselves, up to an error that does not grow
    with the number of iterations: pcg.py recomputes the residual on every tenth iteration.  The
    arithmetic is the standard model of floating point ([fl_arith]); [pcg_gap u a h bn xi] is
    the error for products with H accurate to a, || H || <= h, || b || = bn and iterates of
    norm at most xi. *)
From mathcomp Require Import all_ssreflect all_algebra.
From Verif Require Import Base Arr Exact MxLib Shape Float Pcg Lsqr Precond Rng Aware Lapack LstSq SaddleSys Sketching Drivers LapackSpec LapackExists.
From Verif Require Import P_Float7 P_Float8 P_Float9 P_Float12.
Set Implicit Arguments.
Unset Strict Implicit.
Unset Printing Implicit Defensive.
Import Order.TTheory GRing.Theory Num.Theory.
Local Open Scope ring_scope.

(** pcg with any product routine and any preconditioner that keeps the length.  Entry k of the
    log is the residual of the iterate a run limited to k iterations returns; an early stop
    meets the tolerance relative to the true initial residual. *)
Theorem C101_pcg (R : rcfType) (T : Type) (O : ops T) (v : T -> R) (u : R) n (H : 'M[R]_n) (a h xi : R)
    (mvH mvP : seq T -> res (seq T)) (b : seq T) (tol : T) (lim : int) (x0 x rs : seq T) :
  fl_arith O v u -> op_fl v mvH H a -> op_len n mvP -> 0 <= a -> 0 <= h ->
  (forall z : 'cV[R]_n, fro (H *m z) <= h * fro z) -> size b = n -> size x0 = n -> 0 <= v tol ->
  pcg mvH b mvP lim tol x0 = Ok (x, rs) ->
  (forall k z zs, (k <= absz lim)%N -> pcg mvH b mvP k%:Z tol x0 = Ok (z, zs) -> fro (vval v n z) <= xi) ->
  let res z := vval v n b - H *m vval v n z in
  let gap := pcg_gap u a h (fro (vval v n b)) xi in
  let gm := gam u n.+3 in
  [/\ size x = n, (size rs <= absz lim)%N,
    forall k, (k < size rs)%N -> exists z, pcg mvH b mvP k%:Z tol x0 = Ok (z, take k rs) /\
      `|v (nth o0 rs k) - fro (res z)| <= gm * (fro (res z) + gap) + gap &
    (size rs < absz lim)%N -> gm < 1 ->
      fro (res x) <= (1 + u) * v tol * ((1 + gm) / (1 - gm)) * (fro (res x0) + gap) + gap].
Proof. move=> h1 h2 h3 h4 h5 h6 h7 h8 h9 h10 h11; exact (fl_pcg h1 h2 h3 h4 h5 h6 h7 h8 h9 h10 h11). Qed.
Print Assumptions C101_pcg.

(** The two products used with it: a dense matrix, and A^T (A x) + delta x. *)
Theorem C101_products (R : rcfType) (T : Type) (O : ops T) (v : T -> R) (u : R) :
  fl_arith O v u ->
  (forall n (H : arr T), shaped n n H -> op_fl v (mv H) (mval v n n H) (gam u n.+1 * fro (mval v n n H))) /\
  forall m n (A : arr T) (delta : T), shaped m n A -> let Am := mval v m n A in
    op_fl v (mv_gram A delta) (Am^T *m Am + (v delta)%:M) (gram_err u m n (fro Am) `|v delta|) /\
    forall z : 'cV[R]_n, fro ((Am^T *m Am + (v delta)%:M) *m z) <= (fro Am ^+ 2 + `|v delta|) * fro z.
Proof.
move=> h1; split; first (move=> n H h2; exact (op_fl_mv h1 h2)).
move=> m n A delta h2; split; [exact (gram_fl h1 h2)|exact (gram_h v m A delta)].
Qed.
Print Assumptions C101_products.

(** PcSS1 on the saddle point system: y = b - A x up to rounding, the log holds the residuals of
    the normal equations (A^T A + delta I) x = A^T b - c, an early stop meets the tolerance. *)
Theorem C101_pcss1 (R : rcfType) (T : Type) (O : ops T) (v : T -> R) (u : R) m n (A : arr T) (b c : option (seq T))
    (delta tol : T) (P : arr T) (z0 : option (seq T)) (xi : R) (lim : int) (out : sout) :
  fl_arith O v u -> shaped m n A -> nr P = n -> 0 <= v tol ->
  (if b is Some b then size b = m else True) -> (if c is Some c then size c = n else True) ->
  let run k := PcSS1 A b c delta tol k P false z0 in
  let xo o := ovval v n (o_x o) in
  run lim = Ok out ->
  (forall k o, (k <= absz lim)%N -> run k%:Z = Ok o -> fro (xo o) <= xi) ->
  let Am := mval v m n A in let bm := ovval v m b in let cm := ovval v n c in let al := fro Am in
  let res o := (Am^T *m bm - cm) - (Am^T *m Am + (v delta)%:M) *m xo o in
  let en := al * fro bm + fro cm in
  let ef := gam u m.+2 * en in
  let gap := pcg_gap u (gram_err u m n al `|v delta|) (al ^+ 2 + `|v delta|) ((1 + gam u m.+2) * en) xi in
  let gm := gam u n.+3 in
  exists x rs oi, [/\ [/\ o_x out = Some x, o_errs out = EArr rs, size x = n, size (o_y out) = m & (size rs <= absz lim)%N],
    fro (vval v m (o_y out) - (bm - Am *m xo out)) <= gam u n.+2 * (fro bm + al * fro (xo out)),
    run 0 = Ok oi /\ (z0 = None -> xo oi = 0),
    forall k, (k < size rs)%N -> exists o, run k%:Z = Ok o /\
      `|v (nth o0 rs k) - fro (res o)| <= gm * (fro (res o) + ef + gap) + ef + gap &
    (size rs < absz lim)%N -> gm < 1 ->
      fro (res out) <= (1 + u) * v tol * ((1 + gm) / (1 - gm)) * (fro (res oi) + ef + gap) + ef + gap].
Proof. move=> h1 h2 h3 h4 h5 h6 run xo h7 h8; exact (fl_pcss1 h1 h2 h3 h4 h5 h6 h7 h8). Qed.
Print Assumptions C101_pcss1.

(** The driver sps (method 'pcg'), whatever the sketch and the LAPACK factors: the same for the
    vectors it returns.  Entry 0 of its log is the norm of the right-hand side A^T b - c; the
    entries after it are the residuals of the runs limited to 0, 1, ... iterations. *)
Theorem C101_sps (R : rcfType) (T : Type) (O : ops T) (G : Type) (v : T -> R) (u : R) m n (A : arr T) (b c : option (seq T))
    (delta tol : T) (xi : R) (L : lapack T) (r : rng_ops G T) (a : rngarg) (sf : rat) (nnz : nat) (clk : timing) (s : st G T)
    (lim : int) (out : option (seq T) * seq T * splog) :
  fl_arith O v u -> shaped m n A -> 0 <= v tol -> lap_shapes (fun _ => True) L ->
  (if b is Some b then size b = m else True) -> (if c is Some c then size c = n else True) ->
  let run k := (sps L r A b c delta tol k a sf nnz SpsPcg clk s).2 in
  let xo (o : option (seq T) * seq T * splog) := ovval v n o.1.1 in
  (0 < m)%N -> (0 < n)%N -> 0 < trunc_rat (sf * n%:R) -> run lim = Ok out ->
  (forall k o, (k <= absz lim)%N -> run k%:Z = Ok o -> fro (xo o) <= xi) ->
  let Am := mval v m n A in let bm := ovval v m b in let cm := ovval v n c in let al := fro Am in
  let f := Am^T *m bm - cm in
  let res o := f - (Am^T *m Am + (v delta)%:M) *m xo o in
  let en := al * fro bm + fro cm in
  let ef := gam u m.+2 * en in
  let gap := pcg_gap u (gram_err u m n al `|v delta|) (al ^+ 2 + `|v delta|) ((1 + gam u m.+2) * en) xi in
  let gm := gam u n.+3 in
  exists x e0 rs oi, [/\ [/\ out.1.1 = Some x, size x = n, size out.1.2 = m, errors out.2 = Some (e0 :: rs) & (size rs <= absz lim)%N],
    fro (vval v m out.1.2 - (bm - Am *m xo out)) <= gam u n.+2 * (fro bm + al * fro (xo out)),
    run 0 = Ok oi /\ `|v e0 - fro f| <= gm * (fro f + ef) + ef,
    forall k, (k < size rs)%N -> exists o, run k%:Z = Ok o /\
      `|v (nth o0 rs k) - fro (res o)| <= gm * (fro (res o) + ef + gap) + ef + gap &
    (size rs < absz lim)%N -> gm < 1 ->
      fro (res out) <= (1 + u) * v tol * ((1 + gm) / (1 - gm)) * (fro (res oi) + ef + gap) + ef + gap].
Proof.
move=> h1 h2 h3 h4 h5 h6 run xo h7 h8 h9 h10 h11.
exact (fl_sps h1 h2 h3 h4 h5 h6 h7 h8 h9 h10 h11).
Qed.
Print Assumptions C101_sps.

(** A run of sps meeting the hypotheses. *)
Example C101_sps_hyps (R : rcfType) (u : R) (s : st nat R) (b : 'cV[R]_3) clk : 0 <= u < 1 ->
  let A := ofmx (1%:M : 'M[R]_3) in let L := exact_lapack R in
  let run k := (sps L (@toy_rng R (rcf_ops R)) A (Some (ofcv b)) None 1 0 k RGen 3%:Q 2 SpsPcg clk s).2 in
  [/\ fl_arith (rcf_ops R) id u, shaped 3 3 A /\ lap_shapes (fun _ => True) L, 0 < trunc_rat (3%:Q * 3%:R),
      (exists out, run 5 = Ok out) &
      exists xi, forall k o, (k <= 5)%N -> run k%:Z = Ok o -> fro (@ovval R R (rcf_ops R) id 3 o.1.1) <= xi].
Proof. move=> u0; exact (sps_wit s b clk u0). Qed.

(** Without rounding errors the gap is zero. *)
Theorem C101_gap_zero (R : rcfType) (h bn xi dl : R) m n :
  pcg_gap 0 (gram_err 0 m n h dl) h bn xi = 0 /\ pcg_gap 0 0 h bn xi = 0.
Proof. exact: gap_zero. Qed.
Print Assumptions C101_gap_zero.

(** A run of PcSS1 that records a residual in an arithmetic where no operation is exact; a
    bound on the iterates exists for every run. *)
Example C101_hyps (R : rcfType) (u : R) : 0 <= u < 1 ->
  let O := bent_ops u in let one := Arr 1 1 [:: [:: 1 : R]] in
  let run k := @PcSS1 R O one (Some [:: 1]) None 0 0 k one false None in
  [/\ fl_arith O id u, @shaped R O 1 1 one, nr one = 1%N,
      (exists out, run 1 = Ok out /\ exists e, o_errs out = EArr [:: e]) &
      exists xi, forall k o, (k <= 1)%N -> run k%:Z = Ok o -> fro (@ovval R R O id 1 (o_x o)) <= xi].
Proof.
move=> h1; split; [exact (bent_arith h1)| | |exact (bent_run h1)|exact (iter_bound _ _ _ _)]; by [].
Qed.
