(** Proofs about [PcSS1]. *)
From mathcomp Require Import all_ssreflect all_algebra.
From mathcomp Require Import zify.
From Verif Require Import Base Arr Lapack Exact MxLib RingTac LapackSpec Rng Pcg P_Pcg Lsqr P_Lsqr P_Iter.
From Verif Require Import Precond P_Precond P_Svd.
Set Implicit Arguments.
Unset Strict Implicit.
Unset Printing Implicit Defensive.
Import Order.TTheory GRing.Theory Num.Theory.
Local Open Scope ring_scope.

Section P.
Variable R : rcfType.

(** The saddle point system [I A; A' -delta I] (y, x) = (b, c). *)
Definition saddle m n (A : 'M[R]_(m, n)) (b : 'cV[R]_m) (c : 'cV[R]_n) (dl : R)
    (x : 'cV[R]_n) (y : 'cV[R]_m) : Prop :=
  y + A *m x = b /\ A^T *m y - dl *: x = c.

(** Its reduction to the normal equations. *)
Lemma saddleP m n (A : 'M[R]_(m, n)) b c dl (x : 'cV[R]_n) :
  saddle A b c dl x (b - A *m x) <->
  (A^T *m A + dl%:M) *m x = A^T *m b - c.
Proof.
rewrite /saddle subrK mulmxBr mulmxDl mul_scalar_mx mulmxA.
split=> [[_ <-]|E].
  by rewrite -(addrA (A^T *m b)) -opprD opprB [RHS]addrC subrK.
split=> //; rewrite -addrA -opprD E opprB [_ + (c - _)]addrC subrK //.
Qed.

Lemma mv_gramE m n (A : 'M[R]_(m, n)) dl :
  op_is (mv_gram (ofmx A) dl) (A^T *m A + dl%:M).
Proof.
move=> x; rewrite /mv_gram mvE /= mtrE mvE /= vscaleE vaddE.
by rewrite mulmxDl mul_scalar_mx mulmxA.
Qed.

Lemma gram_spd m n (A : 'M[R]_(m, n)) dl : 0 <= dl -> (\rank A = n \/ 0 < dl) ->
  spd (A^T *m A + dl%:M).
Proof.
move=> d0 h; split; first by rewrite linearD /= trmx_mul trmxK tr_scalar_mx.
move=> x x0; rewrite mulmxDr mulmxDl mxE mul_mx_scalar -scalemxAl.
rewrite mulmxA -mulmxA -trmx_mul -fro2_cv mxE -fro2_cv.
have f0 : 0 < fro2 x by rewrite lt_neqAle fro2_ge0 eq_sym fro2_eq0 x0.
case: h => [rA|dp]; last by rewrite ltr_paddl ?fro2_ge0 ?mulr_gt0.
rewrite ltr_paddr ?mulr_ge0 ?fro2_ge0 // lt_neqAle fro2_ge0 eq_sym fro2_eq0 andbT.
by apply: contra_neq x0; exact: full_col_inj.
Qed.

(** ** The preconditioner *)
Lemma pre_fullE n k (P : 'M[R]_(n, k)) : op_is (pcss1_mv_pre (ofmx P) None) (P *m P^T).
Proof. by move=> x; rewrite /pcss1_mv_pre mtrE mvE /= mvE mulmxA. Qed.

Lemma pre_lowE n k (P V : 'M[R]_(n, k)) :
  op_is (pcss1_mv_pre (ofmx P) (Some (ofmx V))) (P *m P^T + 1%:M - V *m V^T).
Proof.
move=> x; rewrite /pcss1_mv_pre !mtrE !mvE /= !mvE /= vaddE /= vsubE.
by rewrite !mulmxDl mulNmx mul1mx !mulmxA.
Qed.

Lemma quadE n k (W : 'M[R]_(n, k)) (x : 'cV[R]_n) :
  (x^T *m (W *m W^T) *m x) 0 0 = fro2 (W^T *m x).
Proof. by rewrite fro2_cv trmx_mul trmxK !mulmxA. Qed.

Lemma pre_full_spd n (P : 'M[R]_n) : P \in unitmx -> spd (P *m P^T).
Proof.
move=> uP; split; first by rewrite trmx_mul trmxK.
move=> x x0; rewrite quadE lt_neqAle fro2_ge0 eq_sym fro2_eq0 andbT.
have uPt : P^T \in unitmx by rewrite unitmx_tr.
by apply: contra_neq x0 => E; rewrite -[x](mulKmx uPt) E mulmx0.
Qed.

Lemma pre_low_spd n k (V : 'M[R]_(n, k)) (t : 'cV[R]_k) : orthonormal V -> (forall i, t i 0 != 0) ->
  let P := V *m diag_mx t^T in spd (P *m P^T + 1%:M - V *m V^T).
Proof.
move=> oV t0 P; split.
  by rewrite linearB linearD /= trmx1 !trmx_mul !trmxK.
move=> x x0; rewrite mulmxBr mulmxDr mulmx1 mulmxBl mulmxDl.
have add11 (X Y : 'M[R]_1) : (X + Y) 0 0 = X 0 0 + Y 0 0 by rewrite mxE.
have opp11 (X : 'M[R]_1) : (- X) 0 0 = - X 0 0 by rewrite mxE.
rewrite !add11 opp11 !quadE -/(dot x x) dotxx.
rewrite -addrA -(fro2_resid x oV) lt_neqAle addr_ge0 ?fro2_ge0 // andbT eq_sym paddr_eq0 ?fro2_ge0 //.
apply: contra_neqN x0 => /andP[]; rewrite !fro2_eq0 => /eqP P0 /eqP.
move/eqP; rewrite subr_eq0 => /eqP xE; rewrite xE.
suff -> : V^T *m x = 0 by rewrite mulmx0.
have u : diag_mx t^T \in unitmx by case/mulmx1_unit: (diag_vinv t0).
have : diag_mx t^T *m (V^T *m x) = 0 by rewrite -P0 /P trmx_mul tr_diag_mx mulmxA.
by move/(congr1 (mulmx (invmx (diag_mx t^T)))); rewrite mulKmx // mulmx0.
Qed.

Lemma mem_ofcv k (s : 'cV[R]_k) x : x \in ofcv s -> exists i, x = s i 0.
Proof.
move=> xs; have lt : (index x (ofcv s) < k)%N by rewrite -[X in (_ < X)%N](size_ofcv s) index_mem.
by exists (Ordinal lt); rewrite -nth_ofcv nth_index.
Qed.

(** Columns [V / s] are recovered exactly, then rescaled. *)
Lemma pcss1_lowrankE n k (V : 'M[R]_(n, k)) (s : 'cV[R]_k) dl :
  orthonormal V -> (forall i, 0 < s i 0) -> 0 <= dl -> (0 < k)%N ->
  exists t : 'cV[R]_k, ((forall i, 0 < t i 0) /\ forall i : 'I_k, i.+1 = k -> t i 0 = 1) /\
  pcss1_lowrank dl (ofmx (V *m diag_mx (vinv s)^T)) =
    Ok (ofmx (V *m diag_mx t^T), ofmx V).
Proof.
move=> oV s0 d0 k0; have sn i : s i 0 != 0 by rewrite gt_eqF.
set P := V *m _.
have cn : colnorms (ofmx P) = ofcv (vinv s).
  rewrite /colnorms nc_ofmx; apply: mkseq_eq_ofcv => j.
  have -> : mcol (ofmx P) j = ofcv (col j P).
    by rewrite /mcol nr_ofmx; apply: mkseq_eq_ofcv => i; rewrite el_ofmx [RHS]mxE.
  rewrite vnormE mxE; have -> : col j P = (s j 0)^-1 *: col j V.
    by apply/colP=> i; rewrite /P mul_mx_diag !mxE mulrC.
  rewrite /fro fro2Z; have -> : fro2 (col j V) = 1.
    move: oV => /matrixP/(_ j j); rewrite [RHS]mxE eqxx => oj; rewrite fro2_cv mxE.
    by rewrite -[RHS]/(true%:R) -oj mxE; apply: eq_bigr => l _; rewrite !mxE.
  by rewrite mulr1 sqrtr_sqr ger0_norm // invr_ge0 ltW.
have nz1 : nz_check (ofcv (vinv s)) = Ok tt.
  rewrite /nz_check; case: hasP => // -[x /mem_ofcv[i ->]] /=.
  by rewrite mxE invr_eq0 (negbTE (sn i)).
have sE : [seq o1 / x | x <- ofcv (vinv s)]%O = ofcv s.
  apply: (@eq_from_nth _ 0); first by rewrite size_map !size_ofcv.
  move=> i; rewrite size_map size_ofcv => ik.
  rewrite (nth_map 0) ?size_ofcv // (nth_ofcv _ ik) (nth_ofcv _ ik) mxE /=.
  by rewrite div1r invrK.
pose sg : 'cV[R]_k := \col_i Num.sqrt (s i 0 ^+ 2 + dl).
have sg0 i : 0 < sg i 0 by rewrite mxE sqrtr_gt0 ltr_paddr // exprn_gt0.
have sgE : [seq osqrt (osq x + dl)%O | x <- ofcv s] = ofcv sg.
  apply: (@eq_from_nth _ 0); first by rewrite size_map !size_ofcv.
  move=> i; rewrite size_map size_ofcv => ik.
  by rewrite (nth_map 0) ?size_ofcv // (nth_ofcv _ ik) (nth_ofcv _ ik) mxE osqE.
pose l := last 0 (ofcv sg).
have l0 : 0 < l.
  have lt : (k.-1 < k)%N by rewrite prednK.
  by rewrite /l -nth_last size_ofcv (nth_ofcv _ lt).
have tE : vdivs (ofcv sg) l = ofcv (l^-1 *: sg) by rewrite vdivsE.
have nz2 : nz_check (ofcv (l^-1 *: sg)) = Ok tt.
  rewrite /nz_check; case: hasP => // -[x /mem_ofcv[i ->]] /=.
  by rewrite mxE mulf_eq0 invr_eq0 (gt_eqF l0) (gt_eqF (sg0 i)).
exists (vinv (l^-1 *: sg)); split.
  split=> i; first by have := sg0 i; rewrite !mxE => h; rewrite invr_gt0 mulr_gt0 ?invr_gt0.
  move=> ik; have lE : l = sg i 0.
    have -> : l = nth 0 (ofcv sg) i by rewrite /l -nth_last size_ofcv; congr (nth _ _ _); lia.
    by rewrite (nth_ofcv _ (ltn_ord i)); congr (sg _ _); apply: val_inj.
  by rewrite mxE [X in X^-1]mxE lE mulVf ?invr1 // gt_eqF.
rewrite /pcss1_lowrank cn nz1 /= sE sgE cmulE /=.
have -> : P *m diag_mx s^T = V by rewrite /P -mulmxA diag_vinvl // mulmx1.
case E: (ofcv sg) => [|x xs]; first by move: (size_ofcv sg); rewrite E => k00; rewrite -k00 in k0.
by rewrite -E -/l tE nz2 /= cdivE.
Qed.

Lemma rbind_inv X Y (c : res X) (f : X -> res Y) y :
  rbind c f = Ok y -> exists x, c = Ok x /\ f x = Ok y.
Proof. by case: c => [e|x] //= H; exists x. Qed.

Lemma pcg_loop_size mvm mvp (rhs : seq R) rel todo : forall i x r d delta err log X es,
  pcg_loop mvm mvp rhs rel todo i x r d delta err log = Ok (X, es) ->
  (size es <= size log + todo)%N.
Proof.
elim: todo => [|t IH] i x r d delta err log X es E.
  by case: E => _ <-; rewrite addn0.
move: E; rewrite /=; case: ifP => _; last by case=> _ <-; rewrite leq_addr.
move=> E; do 9! (case: (rbind_inv E) => ? [_ {}E]).
by apply: (leq_trans (IH _ _ _ _ _ _ _ _ _ E)); rewrite size_rcons addSnnS.
Qed.

Lemma pcg_size mvm mvp (rhs x0 : seq R) lim tol X es :
  pcg mvm rhs mvp lim tol x0 = Ok (X, es) -> (size es <= absz lim)%N.
Proof.
rewrite /pcg; case: ifP => // _ E; do 4! (case: (rbind_inv E) => ? [_ {}E]).
exact: pcg_loop_size E.
Qed.

Definition vdef n (b : option 'cV[R]_n) : 'cV[R]_n := if b is Some b then b else 0.

Lemma vdefE n (b : option 'cV[R]_n) :
  (if omap (@ofcv R n) b is Some b then b else vzeros n) = ofcv (vdef b).
Proof. by case: b => //=; rewrite vzerosE. Qed.

Section Run.
Variables (m n : nat) (A : 'M[R]_(m, n)) (b : option 'cV[R]_m) (c : option 'cV[R]_n) (dl tol : R).
Let b0 := vdef b.
Let c0 := vdef c.

Lemma pcss1_y lim (P : arr R) tri z0 out :
  PcSS1 (ofmx A) (omap (@ofcv R m) b) (omap (@ofcv R n) c) dl tol lim P tri z0 = Ok out ->
  tri = false /\ exists x : 'cV[R]_n,
    [/\ o_x out = Some (ofcv x), o_y out = ofcv (b0 - A *m x) &
        exists es, o_errs out = EArr es /\ (size es <= absz lim)%N].
Proof.
rewrite /PcSS1 vdefE; case: tri => // E0.
case: (rbind_inv E0) => -[P' V] [_ {}E0]; case: (rbind_inv E0) => rhs [_ {}E0].
case: (rbind_inv E0) => rhs' [_ {}E0]; case: (rbind_inv E0) => x0 [_ {}E0].
case: (rbind_inv E0) => -[x es] [E {}E0]; case: (rbind_inv E0) => Ax [EA {}E0].
case: (rbind_inv E0) => y [Ey [<-]]; split=> //.
have xE : size x = n by move: EA; rewrite /mv nc_ofmx; case: eqP.
have [x' {}xE] := seq_ofcv xE; subst x; exists x'.
move: EA Ey; rewrite mvE => -[<-]; rewrite vsubE => -[<-]; split=> //; exists es; split=> //.
exact: pcg_size E.
Qed.

Let H := A^T *m A + dl%:M.
Let rhs := A^T *m b0 - c0.

(** The run of [PcSS1] is a run of [pcg] on the normal equations. *)
Lemma pcss1_pcg lim k (P : 'M[R]_(n, k)) (z0 : option 'cV[R]_k) (V : option (arr R)) P' :
  (if k == n then (P', V) = (ofmx P, None)
   else exists V', V = Some V' /\ pcss1_lowrank dl (ofmx P) = Ok (P', V')) ->
  PcSS1 (ofmx A) (omap (@ofcv R m) b) (omap (@ofcv R n) c) dl tol lim (ofmx P) false (omap (@ofcv R k) z0) =
  let? (x, res) := pcg (mv_gram (ofmx A) dl) (ofcv rhs) (pcss1_mv_pre P' V) lim tol
                     (ofcv (if (k == n)%N then (if z0 is Some z then P *m z else 0) else 0)) in
  let? Ax := mv (ofmx A) x in
  let? y := vsub (ofcv b0) Ax in Ok (SOut (Some x) y (EArr res) P').
Proof.
move=> hP; rewrite /PcSS1 vdefE !nc_ofmx.
have -> : (if (k == n)%bool then Ok (ofmx P, None)
           else let? (R', V0) := pcss1_lowrank dl (ofmx P) in Ok (R', Some V0)) = Ok (P', V).
  by case: (k == n)%N hP => [[-> ->]|[V' [-> ->]]].
rewrite mtrE mvE [rbind (Ok (P', V)) _]/= -/b0.
have -> : (match omap (@ofcv R n) c with Some c1 => vsub (ofcv (A^T *m b0)) c1
           | None => Ok (ofcv (A^T *m b0)) end) = Ok (ofcv rhs).
  by rewrite /rhs /c0; case: (c) => [cc|] /=; rewrite ?vsubE ?subr0.

have -> : (match omap (@ofcv R k) z0 with
    | Some z1 => if (k == n)%N then mv P' z1 else Ok (vzeros n) | None => Ok (vzeros n) end) =
    Ok (ofcv (if (k == n)%N then (if z0 is Some z then P *m z else 0) else 0)).
  case: (k == n)%N hP => [[-> _]|_]; case: (z0) => [z|] /=; rewrite ?mvE ?vzerosE //.
by [].
Qed.

(** Preconditioners for which PCG is guaranteed to work: [n] independent
    columns, or orthonormal directions scaled by positive numbers. *)
Definition good_pc k (P : 'M[R]_(n, k)) : Prop :=
  (k = n /\ \rank P = n) \/
  (k <> n /\ (0 < k)%N /\
   exists (V : 'M[R]_(n, k)) (s : 'cV[R]_k),
     [/\ orthonormal V, forall i, 0 < s i 0 & P = V *m diag_mx (vinv s)^T]).

Lemma pcss1_good lim k (P : 'M[R]_(n, k)) (z0 : option 'cV[R]_k) :
  0 <= dl -> (\rank A = n \/ 0 < dl) -> good_pc P -> 0 <= lim -> 0 <= tol ->
  exists (x : 'cV[R]_n) es P',
  [/\ PcSS1 (ofmx A) (omap (@ofcv R m) b) (omap (@ofcv R n) c) dl tol lim (ofmx P) false
        (omap (@ofcv R k) z0) = Ok (SOut (Some (ofcv x)) (ofcv (b0 - A *m x)) (EArr es) P'),
      (size es <= n)%N, k = n -> P' = ofmx P &
      (n <= absz lim)%N ->
        let x0 := if (k == n)%N then (if z0 is Some z then P *m z else 0) else 0 in
        fro (rhs - H *m x) <= tol * fro (rhs - H *m x0) /\
        (tol = 0 -> saddle A b0 c0 dl x (b0 - A *m x))].
Proof.
move=> d0 hA gP lim0 tol0; have pH : spd H := gram_spd d0 hA.
pose x0 := if (k == n)%N then (if z0 is Some z then P *m z else 0) else 0.
have [V [P' [Pp [hP [hop pP]]]]] : exists V P' (Pp : 'M[R]_n),
    ((if k == n then (P', V) = (ofmx P, None)
     else exists V', V = Some V' /\ pcss1_lowrank dl (ofmx P) = Ok (P', V')) /\
    op_is (pcss1_mv_pre P' V) Pp /\ spd Pp).
  case: gP => [[kn rP]|[kn [k0 [V [s [oV s0 PE]]]]]].
    exists None, (ofmx P), (P *m P^T); subst k; rewrite eqxx; split=> //.
    split; first exact: pre_fullE.
    by apply: pre_full_spd; apply/full_col_unit.
  have [t [[t0 _] E]] := pcss1_lowrankE oV s0 d0 k0.
  exists (Some (ofmx V)), (ofmx (V *m diag_mx t^T)).
  exists ((V *m diag_mx t^T) *m (V *m diag_mx t^T)^T + 1%:M - V *m V^T).
  split; first by case: eqP => // _; exists (ofmx V); rewrite PE.
  split; first exact: pre_lowE.
  by apply: pre_low_spd => // i; rewrite gt_eqF.
have [x [es [E sz fin ex]]] :=
  pcg_exact_lemma (mv_gramE A dl) hop rhs x0 pH pP lim0 tol0.
exists x, es, P'; split=> //.
- by rewrite (pcss1_pcg lim z0 hP) E [rbind (Ok _) _]/= mvE [rbind _ _]/= vsubE.
- by move=> /eqP kn; move: hP; case: eqP kn => // _ _ [].
move=> le; split; first exact: fin.
move=> t0; apply/saddleP; rewrite (ex le t0) -/H mulKVmx //.
exact: spd_unit.
Qed.

(** The log of [PcSS1]: entry [i] is the normal equation residual of the
    iterate [PcSS1] returns with limit [i]. *)
Lemma pcss1_log lim k (P : 'M[R]_(n, k)) (z0 : option 'cV[R]_k) out :
  (k = n \/ good_pc P) -> 0 <= dl ->
  PcSS1 (ofmx A) (omap (@ofcv R m) b) (omap (@ofcv R n) c) dl tol lim (ofmx P) false
    (omap (@ofcv R k) z0) = Ok out ->
  exists (x : 'cV[R]_n) es,
  [/\ o_x out = Some (ofcv x), o_errs out = EArr es,
      forall i, (i < size es)%N -> exists xi P',
        PcSS1 (ofmx A) (omap (@ofcv R m) b) (omap (@ofcv R n) c) dl tol i%:Z (ofmx P) false
          (omap (@ofcv R k) z0) = Ok (SOut (Some (ofcv xi)) (ofcv (b0 - A *m xi)) (EArr (take i es)) P') /\
        nth 0 es i = fro (rhs - H *m xi),
      es = [::] -> x = (if (k == n)%N then (if z0 is Some z then P *m z else 0) else 0) &
      (size es < absz lim)%N ->
        let x0 := if (k == n)%N then (if z0 is Some z then P *m z else 0) else 0 in
        fro (rhs - H *m x) <= tol * fro (rhs - H *m x0)].
Proof.
move=> gP d0; pose x0 := if (k == n)%N then (if z0 is Some z then P *m z else 0) else 0.
have [V [P' [Pp [hP hop]]]] : exists V P' (Pp : 'M[R]_n),
    ((if k == n then (P', V) = (ofmx P, None)
     else exists V', V = Some V' /\ pcss1_lowrank dl (ofmx P) = Ok (P', V')) /\
    op_is (pcss1_mv_pre P' V) Pp).
  case: (eqVneq k n) gP => [kn _|kn [/eqP|]]; last 2 first.
  - by rewrite (negbTE kn).
  - case=> [[/eqP]|[_ [k0 [V [s [oV s0 PE]]]]]]; first by rewrite (negbTE kn).
    have [t [[t0 _] E]] := pcss1_lowrankE oV s0 d0 k0.
    exists (Some (ofmx V)), (ofmx (V *m diag_mx t^T)).
    exists ((V *m diag_mx t^T) *m (V *m diag_mx t^T)^T + 1%:M - V *m V^T).
    by split; [exists (ofmx V); rewrite PE | exact: pre_lowE].
  by exists None, (ofmx P), (P *m P^T); split=> //; exact: pre_fullE.
rewrite (pcss1_pcg lim z0 hP) => E0; case: (rbind_inv E0) => -[x es] [E {}E0].
have [y [l0 xE sz lg [nil st]]] := pcg_log_lemma (mv_gramE A dl) hop E.
move: E0; rewrite xE mvE [rbind (Ok _) _]/= vsubE => -[<-].
exists y, es; split=> // i lt; have [z [Ez nE _]] := lg i lt.
exists z, P'; split=> //.
by rewrite (pcss1_pcg _ z0 hP) Ez [rbind (Ok _) _]/= mvE [rbind _ _]/= vsubE.
Qed.

End Run.

End P.
