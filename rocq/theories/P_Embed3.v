(** Generators meeting the hypotheses of C91, C92 and C93. *)
From mathcomp Require Import all_ssreflect all_algebra.
From mathcomp Require Import zify.
From Verif Require Import Base Arr Lapack Exact MxLib RingTac LapackSpec LapackExists Rng Aware.
From Verif Require Import Sel Sketching LstSq P_Sketch P_Sketch2 P_Sketch3 P_Sjlt P_Iso P_LS P_LS2 P_LS6 P_Rate3 P_Drivers P_Embed P_Embed2.
Set Implicit Arguments.
Unset Strict Implicit.
Unset Printing Implicit Defensive.
Import Order.TTheory GRing.Theory Num.Theory.
Local Open Scope ring_scope.

Section Prod.
Variables (R : rcfType) (I : finType).

(** Products of four independent variables with moments [mu]. *)
Lemma prod4 (mu : nat -> R) (a b c e : I) : mu 0%N = 1 -> mu 1%N = 0 -> mu 2%N = 1 -> mu 3%N = 0 ->
  \prod_i mu ((i == a) + (i == b) + (i == c) + (i == e))%N =
  if [&& a == b, b == c & c == e] then mu 4%N else
  [|| (a == b) && (c == e), (a == c) && (b == e) | (a == e) && (b == c)]%:R.
Proof.
move=> m0 m1 m2 m3; set cnt := fun i => ((i == a) + (i == b) + (i == c) + (i == e))%N.
have z i : mu (cnt i) = 0 -> \prod_i mu (cnt i) = 0 by move=> h; rewrite (bigD1 i) //= h mul0r.
have two x y : x != y -> cnt =1 (fun i => (i == x) * 2 + (i == y) * 2)%N -> \prod_i mu (cnt i) = 1.
  move=> xy h; rewrite (bigD1 x) //= (bigD1 y) /= 1?eq_sym // !h !eqxx (negPf xy) eq_sym (negPf xy) /= m2 !mul1r.
  by rewrite big1 // => i /andP[/negPf i1 /negPf i2]; rewrite h i1 i2.
rewrite -/(\prod_i mu (cnt i)).
have [ab|nab] := eqVneq a b; last first.
  rewrite /=; have [ac|nac] := eqVneq a c.
    subst c; rewrite [b == a]eq_sym (negPf nab) andbF orbF; have [be|nbe] := eqVneq b e.
      by subst e; apply: (two a b) => // i; rewrite /cnt; case: (i == a); case: (i == b).
    by apply: (z b); rewrite /cnt eqxx [b == a]eq_sym (negPf nab) (negPf nbe).
  rewrite /=; have [ae|nae] := eqVneq a e.
    subst e; rewrite /=; have [bc|nbc] := eqVneq b c.
      by subst c; apply: (two a b) => // i; rewrite /cnt; case: (i == a); case: (i == b).
    by apply: (z b); rewrite /cnt eqxx [b == a]eq_sym (negPf nab) (negPf nbc).
  by apply: (z a); rewrite /cnt eqxx (negPf nab) (negPf nac) (negPf nae).
subst b; rewrite /=; have [ce|nce] := eqVneq c e; last first.
  rewrite andbF /=; have [ac|nac] := eqVneq a c.
    by subst c; rewrite (negPf nce) /=; apply: (z e); rewrite /cnt eqxx eq_sym (negPf nce).
  by rewrite andbF; apply: (z c); rewrite /cnt eqxx [c == a]eq_sym (negPf nac) (negPf nce).
subst e; have [ac|nac] := eqVneq a c; last first.
  by rewrite /=; apply: (two a c) => // i; rewrite /cnt; case: (i == a); case: (i == c).
subst c; rewrite /= (bigD1 a) //= /cnt eqxx big1 ?mulr1 // => i ia.
by rewrite /cnt (negPf ia).
Qed.

(** The mean of a product over independent coordinates, each uniform on [K]. *)
Lemma avg_prod (K : finType) (f : K -> R) (mu : nat -> R) (a b c e : I) : (0 < #|K|)%N ->
  (forall j, \sum_k f k ^+ j = #|K|%:R * mu j) ->
  \sum_(w : {ffun I -> K}) f (w a) * f (w b) * (f (w c) * f (w e)) =
  #|{ffun I -> K}|%:R * \prod_i mu ((i == a) + (i == b) + (i == c) + (i == e))%N.
Proof.
move=> K0 hm; rewrite (eq_bigr (fun w : {ffun I -> K} => \prod_i f (w i) ^+ ((i == a) + (i == b) + (i == c) + (i == e)))).
  rewrite -(bigA_distr_bigA (fun i k => f k ^+ ((i == a) + (i == b) + (i == c) + (i == e)))) /=.
  rewrite (eq_bigr (fun i => #|K|%:R * mu ((i == a) + (i == b) + (i == c) + (i == e))%N)) => [|i _]; last exact: hm.
  by rewrite big_split /= prodr_const card_ffun natrX.
move=> w _; have h x : \prod_i f (w i) ^+ (i == x) = f (w x).
  rewrite (bigD1 x) //= eqxx expr1 big1 ?mulr1 // => i ix; by rewrite (negPf ix) expr0.
rewrite -!h -!big_split /=; apply: eq_bigr => i _; by rewrite !exprD !mulrA.
Qed.
End Prod.

(** ** A generator for SJLT operators with d.+1 rows, m columns and z non-zeros per column *)
Section Sj.
Variables (R : rcfType) (d' m z : nat).
Notation d := d'.+1.
Hypothesis zd : (z <= d)%N.
Let Tc := {ffun 'I_m -> 'I_d}.
Let Ts := {ffun 'I_(m * z) -> bool}.
Definition sjg : Type := (nat * (Tc * Ts))%type.

Definition sj_col (t : Tc) (j : nat) : nat := if insub j is Some j' then t j' else 0%N.
Definition sj_bit (t : Ts) (i : nat) : R := if insub i is Some i' then bit R (t i') else 0.
Definition sj_run_of (c k : nat) : seq nat := mkseq (fun a => (c + a) %% d)%N k.

Definition sj_rng : rng_ops sjg R := {|
  r_normal := fun g _ m n => (g, mk m n (fun _ _ => 0));
  r_stdnormal := fun g m n => (g, mk m n (fun _ _ => 0));
  r_random := fun g n => (g, mkseq (sj_bit g.2.2) n);
  r_choice := fun g p k b => ((g.1.+1, g.2),
    if b then nseq k 0%N else if p == d then sj_run_of (sj_col g.2.1 g.1) k else iota 0 k);
  r_perm := fun g n => (g, iota 0 n);
  r_seed := fun=> (0%N, ([ffun=> ord0], [ffun=> false]));
  r_seeds := fun=> (0%N, ([ffun=> ord0], [ffun=> false]))
|}.

Definition sj_mean (f : sjg -> R) : R := (\sum_(t : Tc * Ts) f (0%N, t)) / #|{: Tc * Ts}|%:R.

Let N0 : #|{: Tc * Ts}|%:R != 0 :> R.
Proof.
rewrite pnatr_eq0 -lt0n card_prod !card_ffun card_bool !card_ord muln_gt0 !expn_gt0 //.
Qed.

Lemma sj_meanP : mean sj_mean.
Proof.
split=> [f g fg|f g|c f|]; rewrite /sj_mean.
- by congr (_ / _); apply: eq_bigr => t _.
- by rewrite -mulrDl big_split.
- by rewrite mulrA big_distrr.
by rewrite sumr_const divff.
Qed.

Lemma sj_meanpos : positive sj_mean.
Proof. by move=> f f0; rewrite /sj_mean divr_ge0 ?ler0n // sumr_ge0. Qed.

Lemma sj_run_ok c k : (k <= d)%N ->
  [/\ size (sj_run_of c k) = k, all (fun i => i < d)%N (sj_run_of c k) & uniq (sj_run_of c k)].
Proof.
move=> kd; rewrite size_mkseq; split=> //.
  by apply/allP=> i /(nthP 0%N)[a]; rewrite size_mkseq => lt <-; rewrite nth_mkseq // ltn_pmod.
rewrite map_inj_in_uniq ?iota_uniq // => a b; rewrite !mem_iota !add0n /= => la lb /eqP.
rewrite eqn_modDl !modn_small; [by move/eqP | exact: leq_trans kd | exact: leq_trans kd].
Qed.

Lemma sj_rng_ok : rng_ok sj_rng.
Proof.
split=> //=.
- by move=> *; split; first exact: wf_mk.
- by move=> *; split; first exact: wf_mk.
- by move=> *; rewrite size_mkseq.
move=> g p k [] /= H1 H2.
  rewrite size_nseq; split=> //.
  by case: k H1 H2 => // k; rewrite orbF => p0 _; rewrite all_nseq p0 orbT.
case: eqP => [pd|_]; first by subst p; have [s1 s2 s3] := sj_run_ok (sj_col g.2.1 g.1) H2; split.
rewrite size_iota; split=> //; last by rewrite iota_uniq.
by apply/allP=> i; rewrite mem_iota add0n /= => ik; apply: leq_trans ik H2.
Qed.

Lemma sj_choices n j t : choices sj_rng d z false n (j, t) =
  ((j + n, t)%N, mkseq (fun i => sj_run_of (sj_col t.1 (j + i)) z) n).
Proof.
elim: n j => [|n IH] j; first by rewrite addn0.
rewrite /= eqxx IH addSnnS; congr (_, _); rewrite /mkseq /= addn0; congr (_ :: _).
by rewrite -[1%N]addn0 iotaDl -map_comp; apply: eq_map => i /=; rewrite addSnnS.
Qed.

Lemma sum_pair (f : Tc -> R) (h : Ts -> R) :
  \sum_(t : Tc * Ts) f t.1 * h t.2 = (\sum_t f t) * (\sum_t h t).
Proof. by rewrite big_distrlr /= pair_bigA. Qed.

Lemma sj_signs : let C g := choices sj_rng d z false m g in
  random_signs4 sj_mean (fun g => (C g).2) (fun g => (r_random sj_rng (C g).1 (m * z)).2) (m * z).
Proof.
move=> C sg F a b c e la lb lc le; rewrite /sj_mean.
pose Y (t : Tc) := mkseq (fun i => sj_run_of (sj_col t (0 + i)) z) m.
pose s (x : bool) : R := if x then 1 else -1.
have sgE (i : nat) (t : Tc * Ts) (li : (i < m * z)%N) :
  sg (nth 0 (r_random sj_rng (C (0%N, t)).1 (m * z)).2 i) = s (t.2 (Ordinal li)).
  rewrite /C sj_choices /= nth_mkseq // /sj_bit insubT /sg /bit /s.
  by case: (t.2 _); rewrite ?half_lt1 ?half_ge0.
rewrite (eq_bigr (fun t : Tc * Ts => F (Y t.1) *
   (s (t.2 (Ordinal la)) * s (t.2 (Ordinal lb)) * (s (t.2 (Ordinal lc)) * s (t.2 (Ordinal le)))))); last first.
  by move=> t _; rewrite !sgE /C sj_choices.
rewrite (sum_pair (fun t => F (Y t)) (fun t => s (t (Ordinal la)) * s (t (Ordinal lb)) * (s (t (Ordinal lc)) * s (t (Ordinal le))))).
rewrite [in RHS](eq_bigr (fun t : Tc * Ts => F (Y t.1) * 1)); last by move=> t _; rewrite /C sj_choices mulr1.
rewrite (sum_pair (fun t => F (Y t)) (fun=> 1)) sumr_const.
pose mu j : R := (~~ odd j)%:R.
have hm j : \sum_k s k ^+ j = #|{: bool}|%:R * mu j.
  rewrite card_bool (bigD1 true) //= (bigD1 false) //= big_pred0 ?addr0; last by case.
  rewrite expr1n -signr_odd /mu; case: (odd j); first by rewrite expr1 subrr mulr0.
  by rewrite expr0 mulr1 -[1 + 1]/(2%:R).
have b0 : (0 < #|{: bool}|)%N by rewrite card_bool.
rewrite (avg_prod _ _ _ _ b0 hm) prod4 //.
have -> : (if [&& Ordinal la == Ordinal lb, Ordinal lb == Ordinal lc & Ordinal lc == Ordinal le] then mu 4%N else
  [|| (Ordinal la == Ordinal lb) && (Ordinal lc == Ordinal le), (Ordinal la == Ordinal lc) && (Ordinal lb == Ordinal le)
    | (Ordinal la == Ordinal le) && (Ordinal lb == Ordinal lc)]%:R) =
  [|| (a == b) && (c == e), (a == c) && (b == e) | (a == e) && (b == c)]%:R :> R.
  case: ifP => // /and3P[/eqP[->] /eqP[->] /eqP[->]]; by rewrite !eqxx.
move: ([|| (a == b) && (c == e), (a == c) && (b == e) | (a == e) && (b == c)]%:R : R) (\sum_t F (Y t)) => K X.
rewrite mulrA [X * _ * K]mulrC -[LHS]mulrA; congr (_ * (_ * _%:R / _)); exact: eq_card.
Qed.

Lemma ffun_pair (I K : finType) (j l : I) (P Q : K -> R) : j != l ->
  \sum_(w : {ffun I -> K}) P (w j) * Q (w l) =
  #|{ffun I -> K}|%:R * ((\sum_k P k) / #|K|%:R * ((\sum_k Q k) / #|K|%:R)).
Proof.
move=> jl; have [K0|K0] := posnP #|K|.
  have Ke : forall k : K, False by move=> k; have := max_card (pred1 k); rewrite K0 card1.
  have I0 : (0 < #|I|)%N by apply/card_gt0P; exists j.
  by rewrite [LHS]big1 ?card_ffun ?K0 ?exp0n ?mul0r // => w; case: (Ke (w j)).
have KR : #|K|%:R != 0 :> R by rewrite pnatr_eq0 -lt0n.
rewrite (eq_bigr (fun w : {ffun I -> K} => \prod_i ((if i == j then P (w i) else 1) * (if i == l then Q (w i) else 1)))).
  rewrite -(bigA_distr_bigA (fun i k => (if i == j then P k else 1) * (if i == l then Q k else 1))) /=.
  rewrite (eq_bigr (fun i => #|K|%:R * ((if i == j then (\sum_k P k) / #|K|%:R else 1) *
     (if i == l then (\sum_k Q k) / #|K|%:R else 1)))) => [|i _].
    rewrite big_split /= prodr_const card_ffun natrX; congr (_ * _); rewrite big_split /=; congr (_ * _).
      by rewrite -big_mkcond big_pred1_eq.
    by rewrite -big_mkcond big_pred1_eq.
  have [ij|_] := eqVneq i j; first by rewrite ij (negPf jl) mulr1; under eq_bigr do rewrite mulr1; rewrite mulrC divfK.
  have [il|_] := eqVneq i l; first by under eq_bigr do rewrite mul1r; rewrite mul1r mulrC divfK.
  by under eq_bigr do rewrite mulr1; rewrite sumr_const !mulr1.
move=> w _; rewrite big_split /=; congr (_ * _).
  by rewrite -big_mkcond big_pred1_eq.
by rewrite -big_mkcond big_pred1_eq.
Qed.

Lemma sj_count (i : 'I_d) : \sum_(c : 'I_d) (val i \in sj_run_of c z)%:R = z%:R :> R.
Proof.
transitivity (\sum_(c : 'I_d) \sum_(a < z) ((c + a) %% d == i)%N%:R : R).
  apply: eq_bigr => c _; have [sz _ un] := sj_run_ok c zd.
  have [|ni] := boolP (_ \in _); last first.
    rewrite big1 // => a _; case: eqP => // e; case/negP: ni; rewrite -[val i]/(nat_of_ord i) -e.
    by apply/(nthP 0%N); exists (val a); [rewrite sz; exact: ltn_ord | rewrite /sj_run_of nth_mkseq //; exact: ltn_ord].
  case/(nthP 0%N) => a; rewrite sz => lt; rewrite /sj_run_of nth_mkseq // => e.
  rewrite (bigD1 (Ordinal lt)) //= e eqxx big1 ?addr0 // => b ba; case: eqP => // e'; case/eqP: ba; apply: val_inj => /=.
  move: e'; rewrite -e => /eqP; rewrite eqn_modDl !modn_small; [by move/eqP | exact: leq_trans zd | exact: leq_trans zd].
rewrite exchange_big /= (eq_bigr (fun=> 1)) ?sumr_const ?card_ord // => a _.
have lt : ((i + (d - a)) %% d < d)%N by rewrite ltn_pmod.
have ad : (a <= d)%N by apply: leq_trans zd; apply: ltnW.
rewrite (bigD1 (Ordinal lt)) //= modnDml -addnA subnK // modnDr modn_small // eqxx big1 ?addr0 // => c ca.
case: eqP => // e; case/eqP: ca; apply: val_inj => /=.
by rewrite -e modnDml -addnA subnKC // modnDr modn_small.
Qed.

Lemma sj_rows : pair_samples sj_mean (fun g => (choices sj_rng d z false m g).2) d z m.
Proof.
move=> i j l li lj ll jl; rewrite /sj_mean.
pose P (k : 'I_d) : R := (i \in sj_run_of k z)%:R.
rewrite (eq_bigr (fun t : Tc * Ts => (P (t.1 (Ordinal lj)) * P (t.1 (Ordinal ll))) * 1)); last first.
  by move=> t _; rewrite sj_choices /= !nth_mkseq // /sj_col !add0n !insubT mulr1.
rewrite (sum_pair (fun t => P (t (Ordinal lj)) * P (t (Ordinal ll))) (fun=> 1)) ffun_pair // sumr_const card_prod natrM.
rewrite (sj_count (Ordinal li)) card_ord expr2.
have h1 : #|Tc|%:R != 0 :> R by rewrite pnatr_eq0 -lt0n card_ffun !card_ord expn_gt0.
have h2 : #|Ts|%:R != 0 :> R by rewrite pnatr_eq0 -lt0n card_ffun !card_ord card_bool expn_gt0.
have -> : #|(xpredT : pred Ts)| = #|Ts| by exact: eq_card.
move: (#|Tc|%:R : R) (#|Ts|%:R : R) h1 h2 => x y x0 y0; move: (_ / d%:R) => q.
by rewrite [x * _ * y]mulrAC [x * y * _ / _]mulrAC divff ?mul1r // mulf_neq0.
Qed.

Lemma sj_law : sjlt_law sj_mean sj_rng d m z.
Proof. by split; [exact: sj_signs | exact: sj_rows]. Qed.
End Sj.

(** ** A generator whose normal arrays have the first four moments of the normal distribution *)
Section Ga.
Variables (R : rcfType) (d m : nat).
Add Field ga_field : (rcf_field R).
Let I := ('I_d * 'I_m)%type.
Definition gag : Type := {ffun I -> 'I_6}.
Definition ga_val (k : 'I_6) : R := if k == 0%N :> nat then Num.sqrt 3%:R else if k == 1%N :> nat then - Num.sqrt 3%:R else 0.
Definition ga_el (t : gag) (i j : nat) : R :=
  if insub i is Some i' then if insub j is Some j' then ga_val (t (i', j')) else 0 else 0.
Definition ga_rng : rng_ops gag R := {|
  r_normal := fun g c m n => (g, mk m n (fun i j => c * ga_el g i j));
  r_stdnormal := fun g m n => (g, mk m n (ga_el g));
  r_random := fun g n => (g, nseq n 0);
  r_choice := fun g p k b => (g, if b then nseq k 0%N else iota 0 k);
  r_perm := fun g n => (g, iota 0 n);
  r_seed := fun=> [ffun=> ord0];
  r_seeds := fun=> [ffun=> ord0]
|}.
Definition ga_mean (f : gag -> R) : R := (\sum_t f t) / #|{: gag}|%:R.

Let N0 : #|{: gag}|%:R != 0 :> R.
Proof. by rewrite pnatr_eq0 -lt0n card_ffun card_ord expn_gt0. Qed.

Lemma ga_meanP : mean ga_mean.
Proof.
split=> [f g fg|f g|c f|]; rewrite /ga_mean.
- by congr (_ / _); apply: eq_bigr => t _.
- by rewrite -mulrDl big_split.
- by rewrite mulrA big_distrr.
by rewrite sumr_const divff.
Qed.

Lemma ga_meanpos : positive ga_mean.
Proof. by move=> f f0; rewrite /ga_mean divr_ge0 ?ler0n // sumr_ge0. Qed.

Lemma ga_rng_ok : rng_ok ga_rng.
Proof.
split=> //=.
- by move=> *; split; first exact: wf_mk.
- by move=> *; split; first exact: wf_mk.
- by move=> *; rewrite size_nseq.
move=> g p k [] /= H1 H2.
  rewrite size_nseq; split=> //.
  by case: k H1 H2 => // k; rewrite orbF => p0 _; rewrite all_nseq p0 orbT.
rewrite size_iota; split=> //; last by rewrite iota_uniq.
by apply/allP=> i; rewrite mem_iota add0n /= => ik; apply: leq_trans ik H2.
Qed.

Definition ga_mu (j : nat) : R := (\sum_k ga_val k ^+ j) / 6%:R.

Lemma ga_muE j : \sum_k ga_val k ^+ j = #|'I_6|%:R * ga_mu j.
Proof. by rewrite card_ord mulrC divfK // pnatr_eq0. Qed.

Lemma ga_moments : [/\ ga_mu 0 = 1, ga_mu 1 = 0, ga_mu 2 = 1, ga_mu 3 = 0 & ga_mu 4 = 3%:R].
Proof.
have s3 : Num.sqrt 3%:R ^+ 2 = 3%:R :> R by rewrite sqr_sqrtr ?ler0n.
have s4 : Num.sqrt 3%:R ^+ 4 = 9%:R :> R by rewrite (exprM _ 2 2) s3 -natrX.
have n6 : 6%:R != 0 :> R by rewrite pnatr_eq0.
have E j : \sum_k ga_val k ^+ j = Num.sqrt 3%:R ^+ j + (- Num.sqrt 3%:R) ^+ j + 4%:R * (j == 0%N)%:R.
  rewrite !big_ord_recl big_ord0 /ga_val /= addr0 addrA; congr (_ + _).
  by case: j => [|j]; rewrite ?expr0 ?expr0n /= ?mulr1 ?mulr0 ?addr0 // -!mulrSr -!mulrS.
rewrite /ga_mu !E /=; split; rewrite ?expr0 ?expr1 ?mulr0 ?addr0 ?mulr1.
- by rewrite -[1 + 1]/(2%:R) -natrD divff.
- by rewrite subrr mul0r.
- by rewrite sqrrN s3 -natrD divff.
- by rewrite [(- _) ^+ 3]exprNn -signr_odd /= expr1 mulN1r subrr mul0r.
by rewrite [(- _) ^+ 4]exprNn -signr_odd expr0 mul1r s4 -natrD -[(9 + 9)%N]/(3 * 6)%N natrM mulfK.
Qed.

Lemma ga_normal4 : normal4 ga_mean ga_rng d m.
Proof.
move=> c i1 j1 i2 j2 i3 j3 i4 j4 a1 b1 a2 b2 a3 b3 a4 b4 x.
have xE t i j (li : (i < d)%N) (lj : (j < m)%N) : x t i j = c * ga_val (t (Ordinal li, Ordinal lj)).
  by rewrite /x /= el_mk // /ga_el !insubT.
rewrite /ga_mean (eq_bigr (fun t : gag => c ^+ 4 * (ga_val (t (Ordinal a1, Ordinal b1)) * ga_val (t (Ordinal a2, Ordinal b2)) *
  (ga_val (t (Ordinal a3, Ordinal b3)) * ga_val (t (Ordinal a4, Ordinal b4)))))); last first.
  move=> t _; rewrite !xE; set y := ga_val _; set y2 := ga_val _; set y3 := ga_val _; set y4 := ga_val _.
  move: y y2 y3 y4 => y y2 y3 y4; rring.
rewrite -big_distrr /=; have [m0 m1 m2 m3 m4] := ga_moments.
have k0 : (0 < #|'I_6|)%N by rewrite card_ord.
rewrite (avg_prod _ _ _ _ k0 ga_muE) prod4 // m4 -mulrA [_ * _ / _]mulrAC divff // mul1r; congr (_ * _).
have pE (k1 l1 k2 l2 : nat) (h1 : (k1 < d)%N) (h2 : (l1 < m)%N) (h3 : (k2 < d)%N) (h4 : (l2 < m)%N) u :
  (k1 == k2) && (l1 == l2) && u = ((Ordinal h1, Ordinal h2) == (Ordinal h3, Ordinal h4)) && u by rewrite xpair_eqE.
have pE' (k1 l1 k2 l2 : nat) (h1 : (k1 < d)%N) (h2 : (l1 < m)%N) (h3 : (k2 < d)%N) (h4 : (l2 < m)%N) :
  (k1 == k2) && (l1 == l2) = ((Ordinal h1, Ordinal h2) == (Ordinal h3, Ordinal h4)) by rewrite xpair_eqE.
rewrite -(andbA (_ && _) (i3 == i4)) -(andbA (_ && _) (i2 == i4)) -(andbA (_ && _) (i2 == i3)).
rewrite (pE' _ _ _ _ a1 b1 a2 b2) (pE' _ _ _ _ a3 b3 a4 b4) (pE' _ _ _ _ a1 b1 a3 b3) (pE' _ _ _ _ a2 b2 a4 b4).
rewrite (pE' _ _ _ _ a1 b1 a4 b4) (pE' _ _ _ _ a2 b2 a3 b3).
move: (Ordinal a1, _) (Ordinal a2, _) (Ordinal a3, _) (Ordinal a4, _) => p1 p2 p3 p4.
have [e|n12] := eqVneq p1 p2.
  subst p2; rewrite /=; have [e|n13] := eqVneq p1 p3.
    subst p3; rewrite /= andbT orbb; have [_|n14] := eqVneq p1 p4; last by rewrite !addr0.
    by rewrite -addrA.
  by rewrite /= andbF orbF !addr0.
rewrite /= add0r; have [e|n13] := eqVneq p1 p3.
  by subst p3; rewrite [p2 == p1]eq_sym (negPf n12) andbF addr0 orbF.
by rewrite /= add0r.
Qed.

Lemma ga_uncorrelated : uncorrelated ga_mean ga_rng d m.
Proof.
move=> c i j k l li lj lk ll; rewrite /ga_mean; have [m0 m1 m2 _ _] := ga_moments.
rewrite (eq_bigr (fun t : gag => c ^+ 2 * (ga_val (t (Ordinal li, Ordinal lj)) * ga_val (t (Ordinal lk, Ordinal ll))))); last first.
  move=> t _; rewrite /= !el_mk // /ga_el !insubT; set y := ga_val _; set y2 := ga_val _.
  move: y y2 => y y2; rring.
rewrite -big_distrr /= -mulrA; congr (_ * _).
have -> : (i == k) && (j == l) = ((Ordinal li, Ordinal lj) == (Ordinal lk, Ordinal ll)) by rewrite xpair_eqE.
move: (Ordinal li, _) (Ordinal lk, _) => p q.
rewrite (eq_bigr (fun w : gag => \prod_i ga_val (w i) ^+ ((i == p) + (i == q)))); last first.
  move=> w _; have h x : \prod_i ga_val (w i) ^+ (i == x) = ga_val (w x).
    rewrite (bigD1 x) //= eqxx expr1 big1 ?mulr1 // => y yx; by rewrite (negPf yx) expr0.
  rewrite -!h -!big_split /=; apply: eq_bigr => y _; by rewrite exprD.
rewrite -(bigA_distr_bigA (fun i k => ga_val k ^+ ((i == p) + (i == q)))) /=.
rewrite (eq_bigr (fun i => #|'I_6|%:R * ga_mu ((i == p) + (i == q))%N)) => [|y _]; last exact: ga_muE.
rewrite big_split /= prodr_const -natrX -card_ffun [_ * _ / _]mulrAC divff // mul1r.
have [<-|pq] := eqVneq p q.
  by rewrite (bigD1 p) //= eqxx m2 mul1r big1 // => y yp; rewrite (negPf yp) m0.
by rewrite (bigD1 p) //= eqxx (negPf pq) m1 mul0r.
Qed.
End Ga.

(** ** A case in which all hypotheses hold and the failure bound is below 1 *)
Section Wit.
Variable R : rcfType.
Let e : R := 9%:R / 10%:R.
Let A : 'M[R]_(8, 1) := const_mx 1.

Lemma emb_wit_e : 0 < e < 1.
Proof. by rewrite divr_gt0 ?ltr0n //= ltr_pdivr_mulr ?ltr0n // mul1r ltr_nat. Qed.

Lemma emb_wit_bound : ((1 + 1) * (1 + 1) + (1 + 1))%:R / (8%:R * e ^+ 2) < 1.
Proof.
have e0 : 0 < e by case/andP: emb_wit_e.
have p : 0 < 8%:R * e ^+ 2 by rewrite mulr_gt0 ?exprn_gt0 ?ltr0n.
rewrite (ltr_pdivr_mulr _ _ p) mul1r /e exprMn exprVn -!natrX mulrA -natrM.
by rewrite ltr_pdivl_mulr ?ltr0n // -natrM ltr_nat.
Qed.

Lemma emb_wit_d : 8%:Z = Num.min (trunc_rat (8%:Q * 1%:R)) 8%:Z /\ 8%:Z = trunc_rat (8%:Q * 1%:R).
Proof. by rewrite mulr1 (@trunc_rat_uniq _ 8) // minxx. Qed.

Lemma emb_wit_A (v : 'cV[R]_1) : 8%:R * fro2 v <= fro2 (A *m v) <= 8%:R * fro2 v.
Proof.
suff -> : fro2 (A *m v) = 8%:R * fro2 v by rewrite lexx.
rewrite (fro2_cvE v) (fro2_cvE (A *m v)) big_ord1 (eq_bigr (fun=> v 0 0 ^+ 2)); last first.
  by move=> i _; rewrite mxE big_ord1 mxE mul1r.
by rewrite sumr_const card_ord mulr_natl.
Qed.

Lemma emb_wit_cnd (dl : R) : 0 <= dl ->
  (1 ^ 2)%:R * ((1 + e) * (8%:R + dl)) < (1 - e) * (8%:R + dl) * 2%:R ^+ 104.
Proof.
move=> d0; have p : 0 < 8%:R + dl by rewrite ltr_paddr ?ltr0n.
have t0 : 10%:R != 0 :> R by rewrite pnatr_eq0.
rewrite mul1r mulrAC ltr_pmul2r // /e.
have -> : 1 + 9%:R / 10%:R = 19%:R / 10%:R :> R.
  by apply: (mulIf t0); rewrite mulrDl !divfK // mul1r -natrD.
have -> : 1 - 9%:R / 10%:R = 1 / 10%:R :> R.
  by apply: (mulIf t0); rewrite mulrBl !divfK // mul1r -natrB.
rewrite mulrAC ltr_pmul2r ?invr_gt0 ?ltr0n // mul1r.
apply: (@lt_le_trans _ _ (2%:R ^+ 5)); first by rewrite -natrX ltr_nat.
by rewrite ler_weexpn2l // ler1n.
Qed.
End Wit.
