(** Proofs about interpolative decompositions. *)
From mathcomp Require Import all_ssreflect all_algebra.
From mathcomp Require Import zify.
From Verif Require Import Base Arr Lapack Exact MxLib RingTac LapackSpec LapackExists Rng Aware RangeFinders QB.
From Verif Require Import P_RS1 P_RF P_Svd P_Evd3 Sel Interp.
Set Implicit Arguments.
Unset Strict Implicit.
Unset Printing Implicit Defensive.
Import Order.TTheory GRing.Theory Num.Theory.
Local Open Scope ring_scope.

Section Qrcp.
Variables (R : rcfType) (L : lapack R).
Hypothesis qrpL : qrp_spec L.

(** Square selection matrices of permutations are orthogonal. *)
Lemma permsel n J : perm_eq J (iota 0 n) ->
  let P := colsel (1%:M : 'M[R]_n) J n in P^T *m P = 1%:M /\ P *m P^T = 1%:M.
Proof.
move=> pJ P; have sJ : size J = n by rewrite (perm_size pJ) size_iota.
have o : P^T *m P = 1%:M by apply: selP; [exact: inb_perm | exact: uniq_perm_iota pJ | rewrite sJ].
by split=> //; apply: mulmx1C.
Qed.

(** Assignment to the columns listed by a permutation. *)
Lemma lastpos_index (J : seq nat) j : uniq J -> j \in J -> lastpos J j = Some (index j J).
Proof.
elim: J => //= a J IH /andP[aJ uJ]; rewrite inE; case: (eqVneq a j) => [<-|aj /= jJ].
  move=> _; suff -> : lastpos J a = None by [].
  elim: J aJ {IH uJ} => //= b J IH; rewrite inE negb_or => /andP[ab aJ]; rewrite (IH aJ).
  by rewrite eq_sym (negPf ab).
by rewrite IH //; move: jJ; rewrite eq_sym (negPf aj).
Qed.

Lemma set_cidxE k n (X V : 'M[R]_(k, n)) (J : seq nat) : perm_eq J (iota 0 n) ->
  set_cidx (ofmx X) J (ofmx V) = Ok (ofmx (V *m (colsel (1%:M : 'M[R]_n) J n)^T)).
Proof.
move=> pJ; have sJ : size J = n by rewrite (perm_size pJ) size_iota.
have uJ := uniq_perm_iota pJ; have iJ := inb_perm pJ.
rewrite /set_cidx nc_ofmx nr_ofmx -/(inb n J) iJ sJ !eqxx /=; congr Ok.
apply: mk_eq_ofmx => i j.
have jJ : (j : nat) \in J by rewrite (perm_mem pJ) mem_iota add0n leq0n ltn_ord.
have ix : (index (j : nat) J < n)%N by rewrite -{2}sJ index_mem.
rewrite (lastpos_index uJ jJ).
rewrite el_ofmx_nat //.
rewrite mxE (bigD1 (Ordinal ix)) //= big1 => [|a ai].
  rewrite addr0 !mxE nth_index // (mxe_ord _ (ltn_ord j) (ltn_ord j)) mxE eqxx mulr1.
  by congr (V _ _); apply: val_inj.
have la : (nth 0%N J a < n)%N by apply: inb_nth; rewrite ?sJ.
rewrite !mxE (mxe_ord _ (ltn_ord j) la) mxE; case: eqP; rewrite ?mulr0 // => e.
case/eqP: ai; apply: val_inj => /=.
have /= -> := congr1 val e; by rewrite index_uniq ?sJ.
Qed.


(** The leading block of the triangular factor. *)
Lemma mxrank_perm m n (Y : 'M[R]_(m, n)) J : perm_eq J (iota 0 n) ->
  \rank (colsel Y J n) = \rank Y.
Proof.
move=> /permsel[_ PP]; rewrite colsel1E; set P := colsel _ _ _ in PP *.
apply/eqP; rewrite eqn_leq mxrankM_maxl -{1}[Y]mulmx1 -PP mulmxA.
exact: mxrankM_maxl.
Qed.

Lemma selmx_hi q k l : (l < k)%N -> forall (i : 'I_q), (l <= i)%N -> (k <= i)%N ->
  forall j : 'I_k, selmx R q 0 k i j = 0.
Proof. by move=> lk i li ki j; rewrite mxE add0n gtn_eqF // (leq_trans (ltn_ord j)). Qed.

(** Projection on the first [k] coordinates. *)
Lemma selmx_proj q k : (k <= q)%N ->
  selmx R q 0 k *m (selmx R q 0 k)^T = \matrix_(i, j) ((i == j) && (i < k)%N)%:R.
Proof.
move=> kq; apply/matrixP=> i j; rewrite !mxE; case: (ltnP i k) => ik; last first.
  rewrite andbF big1 // => l _; rewrite mxE add0n gtn_eqF ?mul0r //.
  exact: leq_trans (ltn_ord l) ik.
rewrite (bigD1 (Ordinal ik)) //= !mxE add0n eqxx mul1r big1 ?addr0 => [|l li].
  by rewrite andbT eq_sym.
rewrite !mxE !add0n; case: eqP; rewrite ?mul0r // => e.
by case/eqP: li; apply: val_inj.
Qed.

Lemma uptri_top q n k (U : 'M[R]_(q, n)) : uptri U -> (k <= q)%N -> (k <= n)%N ->
  selmx R q 0 k *m (selmx R q 0 k)^T *m U *m selmx R n 0 k = U *m selmx R n 0 k.
Proof.
move=> tU kq kn; rewrite selmx_proj // -!colblkE; apply/matrixP=> i j; rewrite !mxE add0n.
have jn : (j < n)%N := leq_trans (ltn_ord j) kn.
rewrite !(mxe_ord _ (ltn_ord i) jn) mxE; have -> : Ordinal (ltn_ord i) = i by apply: val_inj.
case: (ltnP i k) => ik.
  rewrite (bigD1 i) //= mxE eqxx ik mul1r big1 ?addr0 => [|l li].
    by [].
  by rewrite mxE eq_sym (negPf li) mul0r.
rewrite big1 => [|l _]; last first.
  by rewrite mxE; case: eqP => //= [<-|_]; rewrite ?mul0r // ltnNge ik mul0r.
by rewrite tU //=; apply: leq_trans (ltn_ord j) ik.
Qed.

Definition lead q n (U : 'M[R]_(q, n)) k : 'M[R]_k := (selmx R q 0 k)^T *m U *m selmx R n 0 k.

Lemma leadE q n (U : 'M[R]_(q, n)) k (i j : 'I_k) : (k <= q)%N -> (k <= n)%N ->
  lead U k i j = mxe U i j.
Proof.
move=> kq kn; rewrite /lead -rowblkE -colblkE mxE add0n.
have jn : (j < n)%N := leq_trans (ltn_ord j) kn.
have iq : (i < q)%N := leq_trans (ltn_ord i) kq.
by rewrite (mxe_ord _ (ltn_ord i) jn) mxE /= add0n.
Qed.

Lemma lead_tri q n (U : 'M[R]_(q, n)) k : (k <= q)%N -> (k <= n)%N -> uptri U -> uptri (lead U k).
Proof.
move=> kq kn tU i j ji; rewrite leadE //.
have jn : (j < n)%N := leq_trans (ltn_ord j) kn.
have iq : (i < q)%N := leq_trans (ltn_ord i) kq.
by rewrite (mxe_ord _ iq jn) tU.
Qed.

Definition dominant q n (U : 'M[R]_(q, n)) : Prop :=
  forall (i : 'I_q) (j : 'I_n), (i <= j)%N ->
    \sum_(l < q | (i <= l)%N) U l j ^+ 2 <= mxe U i i ^+ 2.

Lemma dominant_rank q n (U : 'M[R]_(q, n)) (i : 'I_q) : uptri U -> dominant U ->
  mxe U i i = 0 -> (\rank U <= i)%N.
Proof.
move=> tU dU U0; have iq : (i <= q)%N := ltnW (ltn_ord i).
have -> : U = selmx R q 0 i *m ((selmx R q 0 i)^T *m U).
  rewrite mulmxA selmx_proj //; apply/matrixP=> a b; rewrite !mxE.
  case: (ltnP a i) => ai.
    rewrite (bigD1 a) //= mxE eqxx ai mul1r big1 ?addr0 // => l la.
    by rewrite mxE eq_sym (negPf la) mul0r.
  rewrite big1 => [|l _]; last by rewrite mxE; case: eqP => //= [<-|_]; rewrite ?mul0r // ltnNge ai mul0r.
  case: (ltnP b i) => bi; first by rewrite tU //; apply: leq_trans bi ai.
  have := dU i b bi; rewrite U0 expr0n /= => le0.
  have : \sum_(l < q | (i <= l)%N) U l b ^+ 2 == 0.
    by rewrite eq_le le0 sumr_ge0 // => l _; apply: sqr_ge0.
  rewrite psumr_eq0 => [/allP/(_ a)|l _]; last exact: sqr_ge0.
  by rewrite mem_index_enum ai /= sqrf_eq0 => /(_ isT)/eqP.
exact: leq_trans (mxrankM_maxr _ _) (rank_leq_row _).
Qed.

Lemma dominant_lead q n (U : 'M[R]_(q, n)) k : (k <= q)%N -> (k <= n)%N -> uptri U -> dominant U ->
  (lead U k \in unitmx) = (k <= \rank U)%N.
Proof.
move=> kq kn tU dU; apply/idP/idP => [uL|kr].
  rewrite -(mxrank_unit uL) /lead; apply: leq_trans (mxrankM_maxl _ _) _.
  exact: mxrankM_maxr.
rewrite (uptri_unit (lead_tri kq kn tU)); apply/forallP => i; rewrite leadE //.
apply/negP => /eqP U0.
have := @dominant_rank _ _ U (Ordinal (leq_trans (ltn_ord i) kq)) tU dU U0.
by rewrite leqNgt /= (leq_trans _ kr).
Qed.


(** Entries of the interpolation matrix. *)
Lemma sum_pow2 (k : nat) i : (i < k)%N ->
  1 + \sum_(j < k | (i < j)%N) 2%:R ^+ (k - j.+1) = 2%:R ^+ (k - i.+1) :> R.
Proof.
move=> ik; rewrite -(big_mkord (fun j => i < j)%N (fun j => 2%:R ^+ (k - j.+1))).
rewrite big_nat_cond /= (@big_cat_nat _ _ _ i.+1) //= [X in _ + (X + _)]big1_seq ?add0r; last first.
  by move=> j; rewrite mem_index_iota => /andP[]; case: (ltnP i j); rewrite ?andbF //; lia.
have -> : \sum_(i.+1 <= j < k | (0 <= j < k)%N && (i < j)%N) (2%:R : R) ^+ (k - j.+1) =
          \sum_(i.+1 <= j < k) 2%:R ^+ (k - j.+1).
  rewrite big_nat_cond [RHS]big_nat_cond; apply: eq_bigl => j.
  by case: (ltnP i j); case: (ltnP j k); rewrite ?andbF ?andbT.
rewrite -[i.+1]add0n big_addn add0n.
have -> : \sum_(0 <= j < k - i.+1) (2%:R : R) ^+ (k - (j + i.+1).+1) =
          \sum_(j < k - i.+1) 2%:R ^+ (k - i.+1 - j.+1).
  by rewrite big_mkord; apply: eq_bigr => j _; congr (_ ^+ _); lia.
elim: (k - i.+1)%N => [|d IH]; first by rewrite big_ord0 addr0 expr0.
rewrite big_ord_recl /= subSS subn0.
rewrite (eq_bigr (fun j : 'I_d => 2%:R ^+ (d - j.+1))) => [|j _]; last by rewrite /bump /= add1n subSS.
by rewrite addrCA IH exprS mulr2n mulrDl mul1r.
Qed.

Lemma tri_bound k (T : 'M[R]_k) (t u : 'cV[R]_k) : uptri T ->
  (forall i, T i i != 0) -> (forall i j : 'I_k, (i <= j)%N -> `|T i j| <= `|T i i|) ->
  (forall i, `|u i 0| <= `|T i i|) -> T *m t = u ->
  forall i, `|t i 0| <= 2%:R ^+ (k - i.+1).
Proof.
move=> tT T0 dT du E i; move: {2}(k - i)%N (leqnn (k - i)) => d.
elim: d i => [|d IH] i; first by have := ltn_ord i; lia.
move=> kid; rewrite -(sum_pow2 (ltn_ord i)).
have T0i : 0 < `|T i i| by rewrite normr_gt0.
rewrite -(ler_pmul2l T0i) -normrM.
have -> : T i i * t i 0 = u i 0 - \sum_(j < k | (i < j)%N) T i j * t j 0.
  rewrite -E mxE (bigID (fun j : 'I_k => (i < j)%N)) /= addrC addKr.
  rewrite (bigD1 i) ?ltnn //= big1 ?addr0 // => j; rewrite -leqNgt => /andP[ji ne].
  by rewrite tT ?mul0r // ltn_neqAle ji andbT.
apply: le_trans (ler_norm_sub _ _) _; rewrite mulrDr mulr1 ler_add //.
apply: le_trans (ler_norm_sum _ _ _) _; rewrite mulr_sumr ler_sum // => j ij.
rewrite normrM; apply: ler_pmul; rewrite ?normr_ge0 ?dT 1?ltnW //.
by apply: IH; move: ij kid; have := ltn_ord i; have := ltn_ord j; lia.
Qed.

(** A triangular matrix with dominant diagonal is not small on any vector. *)
Lemma tri_lower k (T : 'M[R]_k) (u : 'cV[R]_k) (r : R) : uptri T ->
  (forall i j : 'I_k, (i <= j)%N -> `|T i j| <= `|T i i|) ->
  0 <= r -> (forall i, r <= `|T i i|) ->
  forall i, r * `|u i 0| <= 2%:R ^+ (k - i.+1) * fro (T *m u).
Proof.
move=> tT dT; rewrite le_eqVlt => /orP[/eqP <- _ i|r0 rT i].
  by rewrite mul0r mulr_ge0 ?exprn_ge0 ?ler0n ?fro_ge0.
move: {2}(k - i)%N (leqnn (k - i)) => d.
elim: d i => [|d IH] i; first by have := ltn_ord i; lia.
move=> kid; rewrite -(sum_pow2 (ltn_ord i)).
have T0i : 0 < `|T i i| := lt_le_trans r0 (rT i).
rewrite -(ler_pmul2l T0i) mulrCA -normrM.
have -> : T i i * u i 0 = (T *m u) i 0 - \sum_(j < k | (i < j)%N) T i j * u j 0.
  rewrite mxE (bigID (fun j : 'I_k => (i < j)%N)) /= addrC addKr.
  rewrite (bigD1 i) ?ltnn //= big1 ?addr0 // => j; rewrite -leqNgt => /andP[ji ne].
  by rewrite tT ?mul0r // ltn_neqAle ji andbT.
apply: le_trans (_ : r * (`|(T *m u) i 0| + \sum_(j < k | (i < j)%N) `|T i i| * `|u j 0|) <= _).
  rewrite ler_pmul2l //; apply: le_trans (ler_norm_sub _ _) _; rewrite ler_add //.
  apply: le_trans (ler_norm_sum _ _ _) _; rewrite ler_sum // => j ij.
  by rewrite normrM ler_wpmul2r ?normr_ge0 // dT // ltnW.
have ui : `|(T *m u) i 0| <= fro (T *m u).
  rewrite -(ler_pexpn2r (n := 2)) ?nnegrE ?normr_ge0 ?fro_ge0 // real_normK ?num_real // sqr_fro.
  by rewrite fro2_cvE (bigD1 i) //= ler_addl sumr_ge0 // => l _; exact: sqr_ge0.
rewrite mulrDl mul1r !mulrDr ler_add //.
  by apply: ler_pmul => //; rewrite ?normr_ge0 // ltW.
rewrite -mulr_sumr mulrCA ler_pmul2l // mulr_suml mulr_sumr ler_sum // => j ij.
by apply: IH; move: ij kid; have := ltn_ord i; have := ltn_ord j; lia.
Qed.

(** What a column ID of [Y] with index vector [J] and coefficients [X] is, with
    the quality guarantees of a pivoted factorisation. *)
Record col_id m n (Y : 'M[R]_(m, n)) k (X : 'M[R]_(k, n)) (J : seq nat) : Prop := ColId {
  ci_size : size J = k;
  ci_uniq : uniq J;
  ci_inb : inb n J;
  ci_eye : colsel X J k = 1%:M;
  ci_rank : \rank (colsel Y J k) = k;
  ci_ls : (colsel Y J k)^T *m (Y - colsel Y J k *m X) = 0;
  ci_bound : forall i j, `|X i j| <= 2%:R ^+ (k - i.+1);
  ci_greedy : forall (i : 'I_k) (w : 'cV[R]_k) (j : 'I_n), (forall l : 'I_k, (i <= l)%N -> w l 0 = 0) ->
    fro2 (col j (Y - colsel Y J k *m X)) <= fro2 (col i (colsel Y J k) - colsel Y J k *m w);
  ci_lower : forall (u : 'cV[R]_k) (i : 'I_k) (j : 'I_n),
    fro2 (col j (Y - colsel Y J k *m X)) * u i 0 ^+ 2 <= 4%:R ^+ (k - i.+1) * fro2 (colsel Y J k *m u) }.

Lemma dominant_le q n (U : 'M[R]_(q, n)) (i : 'I_q) (j : 'I_n) : dominant U -> (i <= j)%N ->
  `|U i j| <= `|mxe U i i|.
Proof.
move=> dU ij; rewrite -(ler_pexpn2r (n := 2)) ?nnegrE ?normr_ge0 // !real_normK ?num_real //.
apply: le_trans (dU i j ij); rewrite (bigD1 i) //= ler_addl sumr_ge0 // => l _; exact: sqr_ge0.
Qed.

Lemma col_id_qr m q n (Y : 'M[R]_(m, n)) (Q : 'M[R]_(m, q)) (U : 'M[R]_(q, n)) J k :
  orthonormal Q -> uptri U -> perm_eq J (iota 0 n) -> colsel Y J n = Q *m U -> dominant U ->
  (k <= q)%N -> (k <= n)%N -> lead U k \in unitmx ->
  col_id Y (invmx (lead U k) *m rowblk U 0 k *m (colsel (1%:M : 'M[R]_n) J n)^T) (take k J).
Proof.
move=> oQ tU pJ YE dU kq kn uS.
have [PtP PPt] := permsel pJ; have sJ : size J = n by rewrite (perm_size pJ) size_iota.
set P := colsel _ _ _ in PtP PPt *; set S := lead U k in uS *.
pose E := selmx R q 0 k; pose F := selmx R n 0 k.
have EE : E^T *m E = 1%:M := selmxP _ kq.
have FF : F^T *m F = 1%:M := selmxP _ kn.
have YP : Y = Q *m U *m P^T by rewrite -YE colsel1E -mulmxA PPt mulmx1.
have selF r (A : 'M[R]_(r, n)) : colsel A (take k J) k = A *m P *m F.
  rewrite colsel_take // -colblkE -colsel1E; apply/matrixP=> i j; rewrite !mxE add0n.
  have jn : (j < n)%N := leq_trans (ltn_ord j) kn.
  by rewrite (mxe_ord _ (ltn_ord i) jn) mxE; congr (mxe _ _ _).
have UF : U *m F = E *m S by rewrite -(uptri_top tU kq kn) /S /lead -!mulmxA.
have SE i j : S i j = mxe U i j by apply: leadE.
have tS : uptri S := lead_tri kq kn tU.
clearbody S.
have CE : colsel Y (take k J) k = Q *m E *m S.
  by rewrite selF -(colsel1E Y) YE -!mulmxA UF.
set X := _ *m P^T; have XE : X = invmx S *m (E^T *m U) *m P^T by rewrite /X rowblkE.
have CX : colsel Y (take k J) k *m X = Q *m (E *m E^T *m U) *m P^T.
  by rewrite CE XE -!mulmxA (mulKVmx uS).
have RE : Y - colsel Y (take k J) k *m X = Q *m ((1%:M - E *m E^T) *m U) *m P^T.
  by rewrite CX {1}YP mulmxBl mul1mx mulmxBr mulmxBl.
have S0 i : S i i != 0.
  by have := uS; rewrite (uptri_unit tS) => /forallP.
have ltJ (j : 'I_n) : (index (j : nat) J < n)%N.
  by rewrite -{2}sJ index_mem (perm_mem pJ) mem_iota add0n leq0n ltn_ord.
have Pd (j : 'I_n) : P^T *m delta_mx j 0 = delta_mx (Ordinal (ltJ j)) 0 :> 'cV[R]_n.
  rewrite -colE; apply/matrixP=> a b; rewrite !mxE ord1 eqxx andbT.
  have la : (nth 0%N J a < n)%N by apply: inb_nth (inb_perm pJ) _; rewrite sJ.
  rewrite (mxe_ord _ (ltn_ord j) la) mxE; congr (_%:R); congr nat_of_bool.
  apply/eqP/eqP => [e|e]; apply: val_inj; rewrite /= ?e /= ?nth_index //.
    by have /= -> := congr1 val e; rewrite (index_uniq 0%N _ (uniq_perm_iota pJ)) ?sJ.
  by rewrite -index_mem sJ.
have K0 : E^T *m (1%:M - E *m E^T) = 0 by rewrite mulmxBr mulmx1 mulmxA EE mul1mx subrr.
have oQE : orthonormal (Q *m E).
  by rewrite /orthonormal trmx_mul -mulmxA [Q^T *m _]mulmxA oQ mul1mx.
set C := colsel _ _ _ in RE CE CX *.
have resid (i : 'I_k) (j : 'I_n) : fro2 (col j (Y - C *m X)) <= S i i ^+ 2.
  have iq : (i < q)%N := leq_trans (ltn_ord i) kq.
  pose i0 := Ordinal iq.
  rewrite RE SE.
  pose j' := Ordinal (ltJ j).
  have -> : col j (Q *m ((1%:M - E *m E^T) *m U) *m P^T) = Q *m ((1%:M - E *m E^T) *m col j' U).
    by rewrite !colE -!mulmxA Pd.
  rewrite fro2_ortho // fro2_cvE selmx_proj //.
  have cE l : ((1%:M - \matrix_(i, j) ((i == j) && (i < k)%N)%:R) *m col j' U) l 0 =
              if (l < k)%N then 0 else U l j'.
    rewrite mxE (bigD1 l) //= big1 ?addr0 => [|a al]; last first.
      by rewrite !mxE eq_sym (negPf al) /= subrr mul0r.
    by rewrite !mxE eqxx /=; case: ifP => _; rewrite ?subrr ?mul0r ?subr0 ?mul1r.
  under eq_bigr do rewrite cE.
  case: (leqP k j') => kj.
    have ij : (i0 <= j')%N := leq_trans (ltnW (ltn_ord i)) kj.
    apply: le_trans (dU i0 j' ij).
    rewrite [leRHS]big_mkcond; apply: ler_sum => l _; case: ltnP => kl.
      by rewrite expr0n; case: ifP => _ //; apply: sqr_ge0.
    by rewrite (leq_trans (ltnW (ltn_ord i)) kl).
  rewrite big1 ?sqr_ge0 // => l _; case: ltnP => kl; first by rewrite expr0n.
  by rewrite tU ?expr0n //; apply: leq_trans kj kl.
have dS (a b : 'I_k) : (a <= b)%N -> `|S a b| <= `|S a a|.
  move=> ab; rewrite !SE.
  have bn : (b < n)%N := leq_trans (ltn_ord b) kn; have aq : (a < q)%N := leq_trans (ltn_ord a) kq.
  by rewrite (mxe_ord _ aq bn); apply: (@dominant_le _ _ U (Ordinal aq) (Ordinal bn)).
split.
- by rewrite size_take sJ; case: ltngtP kn => // ->.
- exact: take_uniq (uniq_perm_iota pJ).
- exact: inb_take (inb_perm pJ).
- rewrite selF XE -!mulmxA [P^T *m _]mulmxA PtP mul1mx.
  by rewrite UF [E^T *m _]mulmxA EE mul1mx mulVmx.
- by rewrite -/C CE mxrankMfree ?row_free_unit // (P_Evd3.orthonormal_rank oQE).
- rewrite -/C RE CE trmx_mul -[Q *m (_ *m U) *m P^T]mulmxA mulmxA trmx_mul -!mulmxA [Q^T *m _]mulmxA oQ mul1mx.
  by rewrite [E^T *m _]mulmxA K0 mul0mx mulmx0.
- move=> i j; pose j' := Ordinal (ltJ j).
  have cj : col j X = invmx S *m (E^T *m col j' U).
    have -> : col j X = invmx S *m E^T *m U *m (P^T *m delta_mx j 0).
      by rewrite XE colE !mulmxA.
    rewrite Pd.
    by rewrite colE -!mulmxA.
  suff H a : `|(col j X) a 0| <= 2%:R ^+ (k - a.+1) by have := H i; rewrite mxE.
  move: a; apply: (@tri_bound _ S (col j X) (E^T *m col j' U) tS S0).
  + exact: dS.
  + move=> a; have aq : (a < q)%N := leq_trans (ltn_ord a) kq.
    rewrite SE -rowblkE mxE add0n (mxe_ord _ aq (ltn0Sn 0)) mxE.
    case: (leqP a j') => aj; first exact: (@dominant_le _ _ U (Ordinal aq) j').
    by rewrite tU // normr0 normr_ge0.
  by rewrite cj mulKVmx.
- move=> i w j w0; rewrite -/C; apply: le_trans (resid i j) _.
  have -> : col i C - C *m w = Q *m E *m (S *m (delta_mx i 0 - w)).
    by rewrite colE -mulmxBr CE -!mulmxA.
  rewrite fro2_ortho // fro2_cvE (bigD1 i) //= -[X in X <= _]addr0 ler_add //; last first.
    by rewrite sumr_ge0 // => l _; apply: sqr_ge0.
  suff -> : (S *m (delta_mx i 0 - w)) i 0 = S i i by [].
  rewrite mxE (bigD1 i) //= big1 ?addr0 => [|l li].
    by rewrite !mxE !eqxx w0 // oppr0 addr0 mulr1.
  rewrite !mxE (negPf li) /= add0r; case: (ltnP l i) => li'.
    by rewrite tS ?mul0r.
  by rewrite w0 // oppr0 mulr0.
- move=> u i j; rewrite -/C; have rr a : fro (col j (Y - C *m X)) <= `|S a a|.
    rewrite -(ler_pexpn2r (n := 2)) ?nnegrE ?normr_ge0 ?fro_ge0 // real_normK ?num_real // sqr_fro.
    exact: resid.
  have := tri_lower u tS dS (fro_ge0 _) rr i.
  rewrite -(ler_pexpn2r (n := 2)) ?nnegrE ?mulr_ge0 ?normr_ge0 ?fro_ge0 ?exprn_ge0 ?ler0n //.
  rewrite !exprMn real_normK ?num_real // !sqr_fro.
  have -> : 4%:R ^+ (k - i.+1) = (2%:R ^+ (k - i.+1)) ^+ 2 :> R.
    by rewrite [RHS]exprAC; congr (_ ^+ _); rewrite -natrX.
  by rewrite CE -[_ *m S *m u]mulmxA (fro2_ortho _ oQE).
Qed.

End Qrcp.
