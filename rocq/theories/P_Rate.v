(** Convergence rate of Krylov methods: the Chebyshev argument, done with the
    three-term recurrences only. *)
From mathcomp Require Import all_ssreflect all_algebra.
From Verif Require Import Base Arr Lapack RingTac Exact MxLib Pcg P_Pcg P_Pcg2.
Set Implicit Arguments.
Unset Strict Implicit.
Unset Printing Implicit Defensive.
Import Order.TTheory GRing.Theory Num.Theory.
Local Open Scope ring_scope.

Section Rate.
Variable R : rcfType.
Add Field rate_field : (rcf_field R).

(** The convergence factor after [k] steps for a spectrum in [mu, L]. *)
Definition crho (mu L : R) : R := (Num.sqrt L - Num.sqrt mu) / (Num.sqrt L + Num.sqrt mu).
Definition cheb (mu L : R) (k : nat) : R :=
  2%:R * crho mu L ^+ k / (1 + crho mu L ^+ (k * 2)).

Section Form.
Variables (n : nat) (G K : 'M[R]_n) (W : 'cV[R]_n -> Prop) (mu L : R).
Hypotheses (Gs : G^T = G) (GKs : (G *m K)^T = G *m K).
Hypotheses (WD : forall x y, W x -> W y -> W (x + y)) (WZ : forall a x, W x -> W (a *: x))
           (WK : forall x, W x -> W (K *m x)).
Hypothesis bnd : forall x, W x ->
  mu * dot x (G *m x) <= dot x (G *m (K *m x)) <= L * dot x (G *m x).
Definition ip (x y : 'cV[R]_n) := dot x (G *m y).

Lemma ipC x y : ip x y = ip y x.
Proof using Gs. by rewrite /ip dotM Gs dotC. Qed.
Lemma ipK x y : ip (K *m x) y = ip x (K *m y).
Proof using Gs GKs. by rewrite ipC /ip mulmxA dotM GKs -mulmxA dotC. Qed.
Lemma ipDl x y z : ip (x + y) z = ip x z + ip y z.
Proof. exact: dotDl. Qed.
Lemma ipZl a x z : ip (a *: x) z = a * ip x z.
Proof. exact: dotZl. Qed.
Lemma ipDr x y z : ip x (y + z) = ip x y + ip x z.
Proof. by rewrite /ip mulmxDr dotDr. Qed.
Lemma ipZr a x z : ip x (a *: z) = a * ip x z.
Proof. by rewrite /ip -scalemxAr dotZr. Qed.
Lemma ip0l x : ip 0 x = 0. Proof. exact: dot0l. Qed.
Lemma ip0r x : ip x 0 = 0. Proof. by rewrite /ip mulmx0 dot0r. Qed.
Let ipE := (ipDl, ipDr, ipZl, ipZr).
Ltac ipring := repeat match goal with |- context [ip ?a ?b] => generalize (ip a b); intro end; rring.

Lemma WKs s x : W x -> W (K *m x + s *: x).
Proof using WD WZ WK. by move=> Wx; apply: WD; [apply: WK | apply: WZ]. Qed.

Lemma ip_lin s x :
  (ip (K *m x + s *: x) (K *m x + s *: x) = ip (K *m x) (K *m x) + 2%:R * s * ip x (K *m x) + s ^+ 2 * ip x x) *
  (ip (K *m x + s *: x) (K *m (K *m x + s *: x)) =
     ip (K *m x) (K *m (K *m x)) + 2%:R * s * ip (K *m x) (K *m x) + s ^+ 2 * ip x (K *m x)).
Proof using Gs GKs.
split; rewrite ?mulmxDr -?scalemxAr !ipE.
  rewrite (ipC (K *m x) x). rring.
rewrite -(ipK x (K *m x)).
set r := ip (K *m x) (K *m (K *m x)); set q := ip (K *m x) (K *m x); set p := ip x (K *m x).
rring.
Qed.

Lemma bndK x : W x -> mu <= L ->
  ip (K *m x) (K *m x) <= (L + mu) * ip x (K *m x) - L * mu * ip x x.
Proof using Gs GKs WD WZ WK bnd.
move=> Wx; have bd y : W y -> mu * ip y y <= ip y (K *m y) <= L * ip y y by exact: bnd.
have := bd _ (WKs (- mu) Wx); have := bd _ (WKs (- L) Wx); rewrite !ip_lin.
set r := ip (K *m x) (K *m (K *m x)); set q := ip (K *m x) (K *m x); set p := ip x (K *m x); set a := ip x x.
move=> /andP[h2 _] /andP[_ h1]; rewrite le_eqVlt => /orP[/eqP e|lt]; last first.
  rewrite -subr_ge0 -(pmulr_rge0 _ (_ : 0 < L - mu)) ?subr_gt0 //.
  have := ler_add h1 h2; rewrite -subr_ge0; congr (0 <= _).
  by rring.
have P y : W y -> ip y (K *m y) = L * ip y y.
  by move=> Wy; apply/eqP; rewrite eq_le; move: (bd y Wy); rewrite e => /andP[-> ->].
have E1 := P _ (WKs (- L) Wx); have E2 := P _ (WKs (1 - L) Wx); have E3 := P _ Wx.
move: E1 E2 E3; rewrite !ip_lin -/r -/q -/p -/a e => E1 E2 E3.
have E4 : q = L * p.
  have := congr2 (fun u v => u - v) E2 E1 => /eqP; rewrite -subr_eq0 => /eqP E5.
  apply/eqP; rewrite -subr_eq0; apply/eqP.
  have : 2%:R * (q - L * p) = 0.
    rewrite -[RHS]E5 E3; rring.
  by move/eqP; rewrite mulf_eq0 pnatr_eq0 /= => /eqP.
by rewrite E4 E3 le_eqVlt; apply/orP; left; apply/eqP; rring.
Qed.

(** The Chebyshev recurrences. *)
Section Lt.
Hypotheses (ltL : mu < L) (mu0 : 0 <= mu).
Let c := 2%:R / (L - mu).
Let sg := (L + mu) / (L - mu).
Definition X (v : 'cV[R]_n) := sg *: v - c *: (K *m v).

Lemma XD x y : X (x + y) = X x + X y.
Proof. by rewrite /X mulmxDr !scalerDr opprD addrACA. Qed.
Lemma XZ a x : X (a *: x) = a *: X x.
Proof. by rewrite /X -scalemxAr scalerBr !scalerA ![a * _]mulrC. Qed.
Lemma ipX x y : ip (X x) y = ip x (X y).
Proof using Gs GKs. by rewrite /X -!scaleNr !ipE ipK. Qed.
Lemma WX x : W x -> W (X x).
Proof using WD WZ WK. by move=> Wx; rewrite /X -scaleNr; apply: WD; apply: WZ => //; apply: WK. Qed.

Lemma ltL' : L - mu != 0.
Proof using ltL. by rewrite subr_eq0 gt_eqF. Qed.

Lemma X_le x : W x -> ip (X x) (X x) <= ip x x.
Proof using Gs GKs WD WZ WK bnd ltL mu0.
move=> Wx; have := bndK Wx (ltW ltL); rewrite -subr_ge0 => h; rewrite -subr_ge0.
have -> : ip x x - ip (X x) (X x) =
   c ^+ 2 * ((L + mu) * ip x (K *m x) - L * mu * ip x x - ip (K *m x) (K *m x)).
  rewrite /X -!scaleNr !ipE (ipC (K *m x) x) /sg /c; rfield; exact: ltL'.
by rewrite mulr_ge0 ?sqr_ge0.
Qed.

(** t_k and u_(k-1) *)
Fixpoint tu (k : nat) (v : 'cV[R]_n) : 'cV[R]_n * 'cV[R]_n :=
  if k is k'.+1 then let: (t, u) := tu k' v in (X t - (u - X (X u)), X u + t) else (v, 0).
Fixpoint stu (k : nat) : R * R :=
  if k is k'.+1 then let: (t, u) := stu k' in (sg * t - (u - sg * (sg * u)), sg * u + t) else (1, 0).

Lemma tuW k v : W v -> W (tu k v).1 /\ W (tu k v).2.
Proof using WD WZ WK.
move=> Wv; elim: k => [|k] /=; first by split=> //; rewrite -(scale0r v); apply: WZ.
case: (tu k v) => t u /= [Wt Wu]; split; last by apply: WD => //; apply: WX.
rewrite -[- _]scaleN1r -[- X _]scaleN1r.
by do ![done|apply: WX|apply: WD|apply: WZ].
Qed.

Lemma pell k v : ip (tu k v).1 (tu k v).1 + (ip (tu k v).2 (tu k v).2 - ip (X (tu k v).2) (X (tu k v).2)) = ip v v.
Proof using Gs GKs.
elim: k => [|k] /=; first by rewrite -(scale0r v) XZ !ipE !mul0r subrr addr0.
case: (tu k v) => t u /= <-.
move: (X) XD XZ ipX => Y YD YZ ipY.
have e1 S : ip (Y t - S) (Y t - S) = ip (Y t) (Y t) - 2%:R * ip t (Y S) + ip S S.
  rewrite -[- S]scaleN1r; move: (Y t) (ipY t S) => Xt E; rewrite !ipE (ipC S) E.
  by ipring.
have e2 : ip (Y u + t) (Y u + t) = ip (Y u) (Y u) + 2%:R * ip t (Y u) + ip t t.
  by move: (Y u) => Xu; rewrite !ipE (ipC Xu t); ipring.
have e3 : ip (Y (Y u + t)) (Y (Y u + t)) = ip (Y (Y u)) (Y (Y u)) + 2%:R * ip t (Y (Y (Y u))) + ip (Y t) (Y t).
  rewrite YD -(ipY t); move: (Y (Y u)) (Y t) => a a'; rewrite !ipE (ipC a a').
  by ipring.
have e4 : ip t (Y (u - Y (Y u))) = ip t (Y u) - ip t (Y (Y (Y u))).
  by rewrite -[- Y _]scaleN1r YD YZ ipDr ipZr mulN1r.
have e5 : ip (u - Y (Y u)) (u - Y (Y u)) = ip u u - 2%:R * ip (Y u) (Y u) + ip (Y (Y u)) (Y (Y u)).
  rewrite [ip (Y u) (Y u)]ipY; move: (Y (Y u)) => a; rewrite -[- a]scaleN1r !ipE (ipC a u).
  by ipring.
rewrite e1 e2 e3 e4 e5.
by ipring.
Qed.

Lemma tu_le k v : W v -> ip (tu k v).1 (tu k v).1 <= ip v v.
Proof using Gs GKs WD WZ WK bnd ltL mu0.
by move=> Wv; rewrite -[ip v v](pell k) ler_addl subr_ge0; apply: X_le; have [] := tuW k Wv.
Qed.

Let mem v k a (al : R) := ksp K (K *m v) k (a - al *: v).
Lemma memX v k a al : mem v k a al -> mem v k.+1 (X a) (sg * al).
Proof.
rewrite /mem => h.
have -> : X a - (sg * al) *: v = sg *: (a - al *: v) + (- c) *: (K *m (a - al *: v) + al *: (K *m v)).
  rewrite mulmxBr -[K *m (al *: v)]scalemxAr subrK /X scalerBr scalerA scaleNr addrAC.
  by rewrite -!addrA; congr (_ + _); rewrite addrC.
apply: kspD; first exact/kspS/kspZ.
apply/kspZ/kspD; first exact: kspM.
by apply: kspZ; exists (fun i => if i is 0%N then 1 else 0); rewrite big_ord_recl /= scale1r big1 ?addr0 // => i _; rewrite scale0r.
Qed.
Lemma memD v k a a' al al' : mem v k a al -> mem v k a' al' -> mem v k (a + a') (al + al').
Proof. by move=> h h'; rewrite /mem scalerDl opprD addrACA; apply: kspD. Qed.
Lemma memN v k a al : mem v k a al -> mem v k (- a) (- al).
Proof.
move=> h; rewrite /mem; have -> : - a - (- al) *: v = - (a - al *: v) by rewrite scaleNr opprK opprB addrC.
exact: kspN.
Qed.
Lemma memS v k a al : mem v k a al -> mem v k.+1 a al.
Proof. exact: kspS. Qed.

Lemma tu_mem v k : [/\ mem v k (tu k v).1 (stu k).1, mem v k (tu k v).2 (stu k).2 &
  mem v k (X (tu k v).2) (sg * (stu k).2)].
Proof.
elim: k => [|k] /=.
  by rewrite /mem /X scale1r !(mulr0, scale0r, mulmx0, scaler0, subrr); split; apply: ksp0.
case: (tu k v) => t u; case: (stu k) => al be /= [h1 h2 h3]; split.
- by apply: memD; [exact: memX | apply: memN; apply: memD; [exact: memS | apply: memN; exact: memX]].
- by apply/memS/memD.
- by apply: memX; apply: memD.
Qed.

Section Rho.
Variable rho : R.
Hypotheses (rho0 : 0 < rho) (sgE : sg = (rho + rho^-1) / 2%:R).
Lemma stuE k : let s := (rho^-1 - rho) / 2%:R in
  ((stu k).1 + s * (stu k).2 = rho ^- k) * ((stu k).1 - s * (stu k).2 = rho ^+ k).
Proof using rho0 sgE.
have r0 : rho != 0 by rewrite gt_eqF.
move=> s.
have hh : 2%:R^-1 + 2%:R^-1 = 1 :> R by rewrite -mulr2n -[LHS]mulr_natl divff // pnatr_eq0.
have [e1 e2] : sg + s = rho^-1 /\ sg - s = rho.
  rewrite sgE /s; move: (2%:R^-1) (rho^-1) hh => h ri hh.
  by split; rewrite -[RHS]mulr1 -hh; rring.
have ss : sg ^+ 2 - 1 = s ^+ 2.
  have -> : (1 : R) = (sg + s) * (sg - s) by rewrite e1 e2 mulVf.
  by rring.
elim: k => [|k] /=; first by rewrite expr0 invr1 mulr0 addr0 subr0.
case: (stu k) => t u /= [E1 E2].
have e3 : sg * t - (u - sg * (sg * u)) = sg * t + s * (s * u).
  by rewrite [s * (s * u)]mulrA -expr2 -ss; move: (sg) => g; rring.
rewrite e3 !exprS invfM -E1 -E2 -e1 -[X in X * (t - _)]e2.
by move: (sg) (s) => g s'; split; rring.
Qed.

Lemma stu1 k : (stu k).1 = (1 + rho ^+ (k * 2)) / (2%:R * rho ^+ k) /\ 0 < (stu k).1.
Proof using rho0 sgE.
have [E1 E2] := stuE k.
have E3 : 2%:R * (stu k).1 = rho ^+ k + rho ^- k.
  by rewrite -E1 -E2; move: (_ * (stu k).2) => z; rring.
have E4 : (stu k).1 = (1 + rho ^+ (k * 2)) / (2%:R * rho ^+ k).
  have rk : rho ^+ k != 0 by rewrite expf_neq0 // gt_eqF.
  have n2 : 2%:R != 0 :> R by rewrite pnatr_eq0.
  apply: (mulfI n2); rewrite E3 exprM; move: (rho ^+ k) rk => a a0.
  by rewrite invfM mulrCA [2%:R * _]mulrA mulfV // mul1r mulrDl mul1r expr2 mulfK // addrC.
split=> //; rewrite E4 divr_gt0 ?mulr_gt0 ?ltr0n ?exprn_gt0 //.
by rewrite ltr_paddr ?ltr01 // exprn_ge0 // ltW.
Qed.
End Rho.

Lemma crho_lt : 0 < crho mu L /\ sg = (crho mu L + (crho mu L)^-1) / 2%:R.
Proof using ltL mu0.
have sl : Num.sqrt mu < Num.sqrt L by rewrite ltr_sqrt // (le_lt_trans mu0).
have s0 := sqrtr_ge0 mu.
have p1 : 0 < Num.sqrt L - Num.sqrt mu by rewrite subr_gt0.
have p2 : 0 < Num.sqrt L + Num.sqrt mu by rewrite ltr_paddr // (le_lt_trans s0).
rewrite /crho; split; first by rewrite divr_gt0.
have eL : L = Num.sqrt L ^+ 2 by rewrite sqr_sqrtr // ltW // (le_lt_trans mu0).
have em : mu = Num.sqrt mu ^+ 2 by rewrite sqr_sqrtr.
rewrite /sg eL em !sqrtr_sqr !ger0_norm ?sqrtr_ge0 //.
move: (Num.sqrt L) (Num.sqrt mu) p1 p2 => a b p1 p2.
have n2 : 2%:R != 0 :> R by rewrite pnatr_eq0.
apply: (mulIf n2); rewrite divfK // invfM invrK subr_sqr.
move: p1 p2 => /gt_eqF/negbT p1 /gt_eqF/negbT p2.
have E (u w : R) : u != 0 -> w != 0 -> u ^+ 2 + w ^+ 2 = (a ^+ 2 + b ^+ 2) * 2%:R ->
   (a ^+ 2 + b ^+ 2) / (u * w) * 2%:R = u / w + u^-1 * w.
  move=> u0 w0 e; rewrite mulrAC -e; rfield.
  - exact: u0.
  - exact: w0.
by apply: E => //; rring.
Qed.

Lemma cheb_lt k v : W v -> exists z, ksp K (K *m v) k z /\
  ip (v - z) (v - z) <= cheb mu L k ^+ 2 * ip v v.
Proof using Gs GKs WD WZ WK bnd ltL mu0.
move=> Wv; have [r0 sE] := crho_lt; have [E t0] := stu1 r0 sE k.
have [m1 _ _] := tu_mem v k; have le := tu_le k Wv.
exists (v - (stu k).1^-1 *: (tu k v).1); split.
  have -> : v - (stu k).1^-1 *: (tu k v).1 = - ((stu k).1^-1 *: ((tu k v).1 - (stu k).1 *: v)).
    by rewrite scalerBr scalerA mulVf ?gt_eqF // scale1r opprB.
  exact/kspN/kspZ.
rewrite opprB addrC subrK ipZl ipZr mulrA -expr2.
have -> : (stu k).1^-1 = cheb mu L k by rewrite E /cheb invf_div.
by rewrite ler_wpmul2l ?sqr_ge0.
Qed.
End Lt.

Theorem cheb_lemma k v : W v -> 0 <= mu <= L -> 0 < L -> exists z, ksp K (K *m v) k z /\
  ip (v - z) (v - z) <= cheb mu L k ^+ 2 * ip v v.
Proof using Gs GKs WD WZ WK bnd.
move=> Wv /andP[mu0]; rewrite le_eqVlt => /orP[/eqP e|lt] L0; last exact: cheb_lt.
have rE : crho mu L = 0 by rewrite /crho e subrr mul0r.
case: k => [|k].
  by exists 0; split; [apply: ksp0 | rewrite /cheb rE !expr0 mulr1 divff ?pnatr_eq0 // expr1n mul1r subr0].
exists (L^-1 *: (K *m v)); split.
  by apply: kspZ; exists (fun i => if i is 0%N then 1 else 0); rewrite big_ord_recl /= scale1r big1 ?addr0 // => i _; rewrite scale0r.
rewrite /cheb rE expr0n /= mulr0 mul0r expr0n /= mul0r.
have := bndK Wv; rewrite e lexx => /(_ isT).
rewrite -scaleNr !ipE (ipC (K *m v) v) -subr_le0 => h.
have := h; rewrite -(pmulr_rle0 _ (_ : 0 < L^-1 ^+ 2)) ?exprn_gt0 ?invr_gt0 //.
congr (_ <= 0); move: (ip (K *m v) (K *m v)) (ip v v) (ip v (K *m v)) => q a p {h}.
have L0' : L != 0 by rewrite gt_eqF.
by rfield; exact: L0'.
Qed.
End Form.
End Rate.
