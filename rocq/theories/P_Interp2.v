(** Proofs about interpolative decompositions: the drivers. *)
From mathcomp Require Import all_ssreflect all_algebra.
From mathcomp Require Import zify.
From Verif Require Import Base Arr Lapack Exact MxLib RingTac LapackSpec LapackExists Rng Aware RangeFinders QB.
From Verif Require Import P_RS1 P_RF P_QBx P_Svd P_Evd3 Sel Interp P_Interp.
Set Implicit Arguments.
Unset Strict Implicit.
Unset Printing Implicit Defensive.
Import Order.TTheory GRing.Theory Num.Theory.
Local Open Scope ring_scope.

Section Run.
Variables (R : rcfType) (L : lapack R).
Hypothesis qrpL : qrp_spec L.
Add Field interp_field : (rcf_field R).

Lemma rank_pos m n (Y : 'M[R]_(m, n)) k : (0 < k)%N -> (k <= \rank Y)%N -> (0 < m)%N /\ (0 < n)%N.
Proof. by move=> k0 kr; have := rank_leq_row Y; have := rank_leq_col Y; lia. Qed.

(** The pivoted factorisation seen through its first [k] columns. *)
Lemma qrp_sel m n (Y : 'M[R]_(m, n)) : (0 < m)%N -> (0 < n)%N ->
  exists J, [/\ qrp_idx L (ofmx Y) = Ok J, perm_eq J (iota 0 n) &
    forall k, (0 < k)%N ->
      (if (k <= \rank Y)%N then
        exists X : 'M[R]_(k, n), qrcp_cols L (ofmx Y) k = Ok (ofmx X, take k J) /\ col_id Y X (take k J)
       else exists2 e, qrcp_cols L (ofmx Y) k = Err e &
              e = (if (k <= minn m n)%N then LinAlgError else e) /\
              (e = LinAlgError \/ e = ValueError))].
Proof.
move=> m0 n0; have [Q [U [J [[E oQ tU pJ YE] dU]]]] := qrpL Y m0 n0.
exists J; split=> //; first by rewrite /qrp_idx E.
move=> k k0; set q := minn m n in Q U E oQ tU YE dU *.
have rU : \rank U = \rank Y.
  rewrite -(mxrank_perm Y pJ) YE; apply/eqP; rewrite eqn_leq mxrankM_maxr andbT.
  by rewrite -{1}[U]mul1mx -oQ -mulmxA mxrankM_maxr.
have sJ : size J = n by rewrite (perm_size pJ) size_iota.
case: (leqP k q) => kq; last first.
  rewrite ifF; last by apply/negbTE; rewrite -ltnNge -rU (leq_ltn_trans (rank_leq_row _)).
  rewrite /qrcp_cols E /= rslice_rowblk min0n.
  have -> : slen q 0 k = q by rewrite /slen; lia.
  rewrite ?nc_ofmx cslice_colblk min0n cslice_colblk.
  case: (leqP k n) => kn.
    exists ValueError; last by split; [|right].
    rewrite /solve_tri /tri_check !nr_ofmx nc_ofmx.
    by rewrite ifT //=; apply/negP => /andP[/eqP]; rewrite /slen /q; lia.
  rewrite /solve_tri; case ee: (tri_check _ _) => [e|[]].
    exists e => //; split; first by [].
    by move: ee; rewrite /tri_check; case: ifP => _; [case=> <-; right | case: ifP => _ // [<-]; left].
  exists ValueError; last by split; [|right].
  by rewrite /hstack nr_ofmx /= ifF //; apply/negbTE; rewrite /q; lia.
have kn : (k <= n)%N by move: kq; rewrite /q; lia.
have lE := dominant_lead kq kn tU dU; rewrite rU in lE.
have run : qrcp_cols L (ofmx Y) k =
   if lead U k \in unitmx then
     Ok (ofmx (invmx (lead U k) *m rowblk U 0 k *m (colsel (1%:M : 'M[R]_n) J n)^T), take k J)
   else Err LinAlgError.
  rewrite /qrcp_cols E /= (rslice_top _ kq) ?nc_ofmx cslice_top // cslice_colblk.
  have -> : minn k n = k by lia.
  have -> : slen n k n = (n - k)%N by rewrite /slen; lia.
  have leE : colblk (rowblk U 0 k) 0 k = lead U k by rewrite colblkE rowblkE.
  rewrite leE (@solve_triE R false false) ?leE; last exact: lead_tri.
  case: ifP => //= uS; rewrite meyeE hstackE /=.
  have -> : row_mx 1%:M (invmx (lead U k) *m colblk (rowblk U 0 k) k (n - k)) =
            colblk (invmx (lead U k) *m rowblk U 0 k) 0 (k + (n - k)).
    by rewrite -colblk_cat add0n -!mul_colblk leE mulVmx.
  by rewrite subnKC // colblk_full ?nc_ofmx mzerosE set_cidxE.
rewrite run lE; case: (boolP (k <= \rank Y)%N) => kr.
  by eexists; split; first reflexivity; apply: (@col_id_qr R m q n Y Q U J k) => //; rewrite lE.
by exists LinAlgError => //; split; [|left].
Qed.


(** Exactness when the rank is met. *)
Lemma ls_exact m n k (C : 'M[R]_(m, k)) (X : 'M[R]_(k, n)) (Y : 'M[R]_(m, n)) (T : 'M[R]_(k, n)) :
  C^T *m (Y - C *m X) = 0 -> Y = C *m T -> Y = C *m X.
Proof.
move=> ls YE; apply/eqP; rewrite -subr_eq0; apply/eqP; apply: gram0.
have {1}-> : Y - C *m X = C *m (T - X) by rewrite mulmxBr -YE.
by rewrite trmx_mul -mulmxA ls mulmx0.
Qed.

Lemma col_span m n (Y : 'M[R]_(m, n)) J k : \rank (colsel Y J k) = k -> \rank Y = k ->
  exists T, Y = colsel Y J k *m T.
Proof.
move=> rC rY; have sub : ((colsel Y J k)^T <= Y^T)%MS by rewrite colsel1E trmx_mul submxMl.
have : (Y^T <= (colsel Y J k)^T)%MS.
  by have := mxrank_leqif_sup sub; rewrite !mxrank_tr rC rY => -[_ /esym]; rewrite eqxx.
by case/submxP=> D E; exists D^T; apply: trmx_inj; rewrite trmx_mul trmxK.
Qed.

Lemma col_id_exact m n (Y : 'M[R]_(m, n)) k (X : 'M[R]_(k, n)) J :
  col_id Y X J -> \rank Y = k -> Y = colsel Y J k *m X.
Proof.
by move=> [_ _ _ _ rC ls _ _ _] rY; have [T YE] := col_span rC rY; apply: ls_exact ls YE.
Qed.

Lemma col_id_sketch m n p (A : 'M[R]_(m, n)) (W : 'M[R]_(p, m)) k (X : 'M[R]_(k, n)) J :
  col_id (W *m A) X J -> \rank A = k -> A = colsel A J k *m X.
Proof.
move=> cid rA; have rY : \rank (W *m A) = k.
  apply/eqP; rewrite eqn_leq -{1}rA mxrankM_maxr /= -{1}(ci_rank cid) colsel1E.
  exact: mxrankM_maxl.
have /submxP[D AE] : (A <= W *m A)%MS.
  by have := mxrank_leqif_sup (submxMl W A); rewrite rY rA => -[_ /esym]; rewrite eqxx.
rewrite {1 2}AE (colsel1E (D *m _)) -[D *m _ *m colsel _ _ _]mulmxA -colsel1E -mulmxA.
by rewrite -(col_id_exact cid rY).
Qed.

(** Sketching error amplification. *)
Lemma fro2M m n p (A : 'M[R]_(m, n)) (B : 'M[R]_(n, p)) : fro2 (A *m B) <= fro2 A * fro2 B.
Proof.
have rowE q (C : 'M[R]_(q, n)) : fro2 C = \sum_i fro2 (row i C).
  by apply: eq_bigr => i _; rewrite /fro2 big_ord1; apply: eq_bigr => j _; rewrite mxE.
have colE' : fro2 B = \sum_j fro2 (col j B).
  by rewrite /fro2 exchange_big; apply: eq_bigr => j _; apply: eq_bigr => i _; rewrite big_ord1 mxE.
rewrite (rowE _ A) colE' mulr_suml; apply: ler_sum => i _; rewrite mulr_sumr; apply: ler_sum => j _.
have := fip_le (row i A)^T (col j B); rewrite fro2_trmx; apply: le_trans.
rewrite /fip trmxK [X in _ <= X ^+ 2](_ : _ = (A *m B) i j) //.
by rewrite /mxtrace big_ord1 !mxE; apply: eq_bigr => l _; rewrite !mxE.
Qed.

Lemma id_amplify m n p (A : 'M[R]_(m, n)) (Y : 'M[R]_(p, n)) (Z : 'M[R]_(m, p)) k (X : 'M[R]_(k, n)) J :
  Y = colsel Y J k *m X ->
  fro2 (A - colsel A J k *m X) <= fro2 (A - Z *m Y) * fro2 (1%:M - colsel 1%:M J k *m X).
Proof.
move=> YE; have -> : A - colsel A J k *m X = (A - Z *m Y) *m (1%:M - colsel 1%:M J k *m X).
  rewrite mulmxBr mulmx1 mulmxA mulmxBl -colsel1E -mulmxA -colsel1E mulmxBl -[Z *m _ *m X]mulmxA -YE.
  by rewrite opprB addrA addrNK.
exact: fro2M.
Qed.

(** Size of the oblique projector. *)
Lemma fro2_oblique n k (X : 'M[R]_(k, n)) J : inb n J -> uniq J -> size J = k ->
  colsel X J k = 1%:M ->
  fro2 (1%:M - colsel 1%:M J k *m X) = (n%:R - k%:R) + (fro2 X - k%:R).
Proof.
move=> iJ uJ sJ XJ; set P := colsel _ J k; have oP : orthonormal P by apply: selP; rewrite ?sJ.
have XP : X *m P = 1%:M by rewrite -colsel1E.
rewrite fro2B fro2_ortho // /fip trmx1 mul1mx mxtrace_mulC XP mxtrace1 fro2_tr trmx1 mulmx1 mxtrace1.
rewrite mulr_natl mulr2n; move: (n%:R) (k%:R) (fro2 X) => a b c; rring.
Qed.

Lemma big_sel n k J (f : nat -> R) : inb n J -> uniq J -> size J = k ->
  \sum_(j < n | (j : nat) \in J) f j = \sum_(l < k) f (nth 0%N J l).
Proof.
move=> iJ uJ sJ; rewrite -(big_mkord (fun j => j \in J) f) -big_filter.
have /(perm_big _) -> : perm_eq [seq j <- index_iota 0 n | j \in J] J.
  apply: uniq_perm => //; first by rewrite filter_uniq // iota_uniq.
  move=> j; rewrite mem_filter mem_index_iota /=; case jJ: (j \in J) => //=.
  by move/allP: iJ => /(_ _ jJ).
by rewrite (big_nth 0%N) sJ big_mkord.
Qed.

Lemma sum_pow4 k : 3%:R * (\sum_(i < k) 4%:R ^+ (k - i.+1)) = 4%:R ^+ k - 1 :> R.
Proof.
elim: k => [|k IH]; first by rewrite big_ord0 mulr0 expr0 subrr.
rewrite big_ord_recl /= subSS subn0.
rewrite (eq_bigr (fun i : 'I_k => 4%:R ^+ (k - i.+1))) => [|j _]; last by rewrite /bump /= add1n subSS.
rewrite mulrDr IH addrA exprS -{2}[4%:R ^+ k]mul1r -mulrDl; congr (_ * _ - _).
by rewrite -(natrD _ 3 1).
Qed.

Lemma fro2_coef n k (X : 'M[R]_(k, n)) J : inb n J -> uniq J -> size J = k ->
  colsel X J k = 1%:M -> (forall i j, `|X i j| <= 2%:R ^+ (k - i.+1)) ->
  3%:R * (fro2 X - k%:R) <= (n%:R - k%:R) * (4%:R ^+ k - 1).
Proof.
move=> iJ uJ sJ XJ bX; pose f j := \sum_(i < k) mxe X i j ^+ 2.
have -> : fro2 X = \sum_(j < n) f j.
  by rewrite /fro2 exchange_big; apply: eq_bigr => j _; apply: eq_bigr => i _; rewrite mxeE.
rewrite (bigID (fun j : 'I_n => (j : nat) \in J)) /= (big_sel f iJ uJ sJ).
have -> : \sum_(l < k) f (nth 0%N J l) = k%:R.
  have -> : \sum_(l < k) f (nth 0%N J l) = fro2 (colsel X J k).
    by rewrite /fro2 exchange_big; apply: eq_bigr => j _; apply: eq_bigr => i _; rewrite mxE.
  by rewrite XJ fro2_tr trmx1 mulmx1 mxtrace1.
rewrite addrAC subrr add0r.
have cnt : \sum_(j < n | (j : nat) \notin J) (1 : R) = n%:R - k%:R.
  apply/eqP; rewrite eq_sym subr_eq eq_sym; apply/eqP.
  have e : \sum_(j < n | (j : nat) \in J) (1 : R) = k%:R.
    by rewrite (big_sel (fun _ => 1) iJ uJ sJ) sumr_const card_ord.
  rewrite -e addrC -[RHS](_ : \sum_(j < n) (1 : R) = _); last by rewrite sumr_const card_ord.
  by rewrite [RHS](bigID (fun j : 'I_n => (j : nat) \in J)).
rewrite -cnt mulr_suml mulr_sumr; apply: ler_sum => j _; rewrite mul1r -sum_pow4 ler_pmul2l ?ltr0n //.
apply: ler_sum => i _; rewrite mxeE -real_normK ?num_real //.
have -> : 4%:R ^+ (k - i.+1) = (2%:R ^+ (k - i.+1)) ^+ 2 :> R.
  by rewrite [RHS]exprAC; congr (_ ^+ _); rewrite -natrX.
by rewrite ler_pexpn2r ?nnegrE ?normr_ge0 ?exprn_ge0 ?ler0n.
Qed.


Lemma col_id_amplify m n p (A : 'M[R]_(m, n)) (Y : 'M[R]_(p, n)) (Z : 'M[R]_(m, p)) k (X : 'M[R]_(k, n)) J :
  col_id Y X J -> \rank Y = k ->
  3%:R * fro2 (A - colsel A J k *m X) <= (n - k)%:R * (4%:R ^+ k + 2%:R) * fro2 (A - Z *m Y).
Proof.
move=> cid rY; have YE := col_id_exact cid rY; case: cid => sJ uJ iJ XJ _ _ bX _ _.
have kn : (k <= n)%N by rewrite -rY rank_leq_col.
apply: le_trans (_ : 3%:R * (fro2 (A - Z *m Y) * fro2 (1%:M - colsel 1%:M J k *m X)) <= _).
  by rewrite ler_pmul2l ?ltr0n //; apply: id_amplify.
rewrite mulrCA [leRHS]mulrC ler_wpmul2l ?fro2_ge0 // (fro2_oblique iJ uJ sJ XJ) [leLHS]mulrDr.
have H := fro2_coef iJ uJ sJ XJ bX; rewrite natrB //.
have -> : (n%:R - k%:R) * (4%:R ^+ k + 2%:R) = 3%:R * (n%:R - k%:R) + (n%:R - k%:R) * (4%:R ^+ k - 1) :> R.
  move: (4%:R ^+ k) (n%:R : R) (k%:R : R) => a b c; rring.
by rewrite ler_add2l.
Qed.

End Run.

(** ** Drivers *)
Section Drivers.
Variables (R : rcfType) (G : Type) (L : lapack R).
Hypotheses (qrpL : qrp_spec L) (lsL : lstsq_spec L).
Notation M := (M G R).
Implicit Types (s : st G R).

Definition after s1 (t : bool) : st G R := St (gen s1) (rcons (evs s1) (EvPass t)).

Lemma col_sketchE (sk_op : rowsketcher (T := R) (G := G)) m n (A : 'M[R]_(m, n)) (c : int) p (S : 'M[R]_(m, p)) s s1 :
  0 <= c -> sk_op (ofmx A^T) (absz c) s = (s1, inr (PyArr (ofmx S))) ->
  col_sketch sk_op (ofmx A) c s = (after s1 true, inr (ofmx (S^T *m A))).
Proof.
move=> c0 E; rewrite /col_sketch ltNge c0 /= mtrE (bindE _ E) bind_emitE mtrE mmulE.
by [].
Qed.

Lemma row_sketchE (sk_op : rowsketcher (T := R) (G := G)) m n (A : 'M[R]_(m, n)) (c : int) p (S : 'M[R]_(n, p)) s s1 :
  0 <= c -> sk_op (ofmx A) (absz c) s = (s1, inr (PyArr (ofmx S))) ->
  row_sketch sk_op (ofmx A) c s = (after s1 false, inr (ofmx (A *m S))).
Proof. by move=> c0 E; rewrite /row_sketch ltNge c0 /= (bindE _ E) passAE. Qed.

(** A row ID is a column ID of the transpose. *)
Definition row_id m n (Y : 'M[R]_(m, n)) k (Z : 'M[R]_(m, k)) (I : seq nat) : Prop :=
  col_id Y^T Z^T I.

Lemma qrcp_osidP m n (Y : 'M[R]_(m, n)) k : (0 < m)%N -> (0 < n)%N -> (0 < k)%N ->
  if (k <= \rank Y)%N then
    (exists (X : 'M[R]_(k, n)) J, qrcp_osid L (ofmx Y) k 1 = Ok (ofmx X, J) /\ col_id Y X J) /\
    (exists (Z : 'M[R]_(m, k)) I, qrcp_osid L (ofmx Y) k 0 = Ok (ofmx Z, I) /\ row_id Y Z I)
  else (exists e, qrcp_osid L (ofmx Y) k 1 = Err e) /\ (exists e, qrcp_osid L (ofmx Y) k 0 = Err e).
Proof.
move=> m0 n0 k0; rewrite /qrcp_osid /= mtrE.
have [J [_ _ /(_ k k0) H1]] := qrp_sel qrpL Y m0 n0.
have [I [_ _ /(_ k k0) H0]] := qrp_sel qrpL Y^T n0 m0.
rewrite mxrank_tr in H0; case: ifP H0 H1 => _; last first.
  by case=> e0 E0 _ [e1 E1 _]; rewrite E1 E0; split; eexists.
case=> X0 [E0 c0] [X1 [E1 c1]]; rewrite E1 E0 /= mtrE; split; first by exists X1, (take k J).
by exists X0^T, (take k I); split=> //; rewrite /row_id trmxK.
Qed.

Lemma OSID1_col (sk_op : rowsketcher) m n (A : 'M[R]_(m, n)) k (over : int) p (S : 'M[R]_(m, p)) s s1 :
  (0 < k)%N -> (0 < n)%N -> (0 < p)%N -> 0 <= k%:Z + over ->
  sk_op (ofmx A^T) (absz (k%:Z + over)) s = (s1, inr (PyArr (ofmx S))) ->
  if (k <= \rank (S^T *m A))%N then
    exists (X : 'M[R]_(k, n)) J, OSID1 L sk_op (ofmx A) k over 1 s = (after s1 true, inr (ofmx X, J)) /\
      col_id (S^T *m A) X J
  else exists e, OSID1 L sk_op (ofmx A) k over 1 s = (after s1 true, inl e).
Proof.
move=> k0 n0 p0 c0 E; rewrite /OSID1 /= (bindE _ (col_sketchE c0 E)).
have := qrcp_osidP (S^T *m A) p0 n0 k0; case: ifP => _ [[]].
  by move=> X [J [-> cid]] _; exists X, J.
by move=> e -> _; exists e.
Qed.

Lemma OSID1_row (sk_op : rowsketcher) m n (A : 'M[R]_(m, n)) k (over : int) p (S : 'M[R]_(n, p)) s s1 :
  (0 < k)%N -> (0 < m)%N -> (0 < p)%N -> 0 <= k%:Z + over ->
  sk_op (ofmx A) (absz (k%:Z + over)) s = (s1, inr (PyArr (ofmx S))) ->
  if (k <= \rank (A *m S))%N then
    exists (Z : 'M[R]_(m, k)) I, OSID1 L sk_op (ofmx A) k over 0 s = (after s1 false, inr (ofmx Z, I)) /\
      row_id (A *m S) Z I
  else exists e, OSID1 L sk_op (ofmx A) k over 0 s = (after s1 false, inl e).
Proof.
move=> k0 m0 p0 c0 E; rewrite /OSID1 /= (bindE _ (row_sketchE c0 E)).
have := qrcp_osidP (A *m S) m0 p0 k0; case: ifP => _ [_ []].
  by move=> Z [I [-> rid]]; exists Z, I.
by move=> e ->; exists e.
Qed.

(** Distinct, in-range skeleton of length [k]. *)
Definition skeleton n k (J : seq nat) : Prop := [/\ size J = k, uniq J & inb n J].

Lemma take_skeleton n k J : perm_eq J (iota 0 n) -> (k <= n)%N -> skeleton n k (take k J).
Proof.
move=> pJ kn; have sJ : size J = n by rewrite (perm_size pJ) size_iota.
split; [by rewrite size_takel ?sJ | exact: take_uniq (uniq_perm_iota pJ) | exact: inb_take (inb_perm pJ)].
Qed.

Lemma ROCS1_col (sk_op : rowsketcher) m n (A : 'M[R]_(m, n)) k (over : int) p (S : 'M[R]_(m, p)) s s1 :
  (0 < n)%N -> (0 < p)%N -> 0 <= k%:Z + over ->
  sk_op (ofmx A^T) (absz (k%:Z + over)) s = (s1, inr (PyArr (ofmx S))) ->
  exists J, [/\ qrp_idx L (ofmx (S^T *m A)) = Ok J, perm_eq J (iota 0 n) &
    ROCS1 L sk_op (ofmx A) k over 1 s = (after s1 true, inr (take k J))].
Proof.
move=> n0 p0 c0 E; rewrite /ROCS1 /= (bindE _ (col_sketchE c0 E)).
by have [J [EJ pJ _]] := qrp_sel qrpL (S^T *m A) p0 n0; exists J; rewrite EJ.
Qed.

Lemma ROCS1_row (sk_op : rowsketcher) m n (A : 'M[R]_(m, n)) k (over : int) p (S : 'M[R]_(n, p)) s s1 :
  (0 < m)%N -> (0 < p)%N -> 0 <= k%:Z + over ->
  sk_op (ofmx A) (absz (k%:Z + over)) s = (s1, inr (PyArr (ofmx S))) ->
  exists I, [/\ qrp_idx L (ofmx (A *m S)^T) = Ok I, perm_eq I (iota 0 m) &
    ROCS1 L sk_op (ofmx A) k over 0 s = (after s1 false, inr (take k I))].
Proof.
move=> m0 p0 c0 E; rewrite /ROCS1 /= (bindE _ (row_sketchE c0 E)) mtrE.
by have [J [EJ pJ _]] := qrp_sel qrpL (A *m S)^T p0 m0; exists J; rewrite EJ.
Qed.

Lemma cidx_skel m n (A : 'M[R]_(m, n)) k J : skeleton n k J -> cidx (ofmx A) J = Ok (ofmx (colsel A J k)).
Proof. by case=> sJ _ iJ; rewrite cidxE // sJ. Qed.
Lemma ridx_skel m n (A : 'M[R]_(m, n)) k I : skeleton m k I -> ridx (ofmx A) I = Ok (ofmx (rowsel A I k)).
Proof. by case=> sJ _ iJ; rewrite ridxE // sJ. Qed.

Lemma pinv_leftE m n p (A : 'M[R]_(m, n)) (B : 'M[R]_(m, p)) :
  (0 < m)%N -> (0 < n)%N -> (0 < p)%N ->
  exists (X : 'M[R]_(n, p)) (W : 'M[R]_(m, p)),
    [/\ pinv_left L (ofmx B) (ofmx A) = Ok (ofmx X), A^T *m (A *m X - B) = 0 & X = A^T *m W].
Proof. by move=> m0 n0 p0; have [X [W H]] := lsL A B m0 n0 p0; exists X, W. Qed.

Lemma pinv_rightE m n p (A : 'M[R]_(n, m)) (B : 'M[R]_(p, m)) :
  (0 < m)%N -> (0 < n)%N -> (0 < p)%N ->
  exists (X : 'M[R]_(p, n)) (W : 'M[R]_(p, m)),
    [/\ pinv_right L (ofmx B) (ofmx A) = Ok (ofmx X), (X *m A - B) *m A^T = 0 & X = W *m A^T].
Proof.
move=> m0 n0 p0; have [X [W [E ls XW]]] := lsL A^T B^T m0 n0 p0.
exists X^T, W^T; rewrite /pinv_right !mtrE E /= mtrE; split=> //.
  by apply: trmx_inj; rewrite trmx0 trmx_mul linearB /= trmx_mul [X^T^T]trmxK.
by rewrite XW trmx_mul trmxK.
Qed.

Lemma OSID2_col (sk_op : rowsketcher) m n (A : 'M[R]_(m, n)) k (over : int) p (S : 'M[R]_(m, p)) s s1 :
  (0 < k)%N -> (k <= n)%N -> (0 < m)%N -> (0 < p)%N -> 0 <= k%:Z + over ->
  sk_op (ofmx A^T) (absz (k%:Z + over)) s = (s1, inr (PyArr (ofmx S))) ->
  exists (X : 'M[R]_(k, n)) J W,
  [/\ OSID2 L sk_op (ofmx A) k over 1 s = (after (after s1 true) false, inr (ofmx X, J)),
      ROCS1 L sk_op (ofmx A) k over 1 s = (after s1 true, inr J), skeleton n k J,
      (colsel A J k)^T *m (colsel A J k *m X - A) = 0 & X = (colsel A J k)^T *m W].
Proof.
move=> k0 kn m0 p0 c0 E; have n0 : (0 < n)%N by lia.
have [J [EJ pJ E']] := ROCS1_col n0 p0 c0 E.
have skJ := take_skeleton pJ kn.
rewrite /OSID2 /= (bindE _ (col_sketchE c0 E)) EJ bind_liftE (cidx_skel A skJ) bind_liftE.
have [X [W [Ep ls XW]]] := pinv_leftE (colsel A (take k J) k) A m0 k0 n0.
exists X, (take k J), W; split=> //.
by rewrite bindA bind_emitE Ep.
Qed.

Lemma OSID2_row (sk_op : rowsketcher) m n (A : 'M[R]_(m, n)) k (over : int) p (S : 'M[R]_(n, p)) s s1 :
  (0 < k)%N -> (k <= m)%N -> (0 < n)%N -> (0 < p)%N -> 0 <= k%:Z + over ->
  sk_op (ofmx A) (absz (k%:Z + over)) s = (s1, inr (PyArr (ofmx S))) ->
  exists (Z : 'M[R]_(m, k)) I W,
  [/\ OSID2 L sk_op (ofmx A) k over 0 s = (after (after s1 false) true, inr (ofmx Z, I)),
      ROCS1 L sk_op (ofmx A) k over 0 s = (after s1 false, inr I), skeleton m k I,
      (Z *m rowsel A I k - A) *m (rowsel A I k)^T = 0 & Z = W *m (rowsel A I k)^T].
Proof.
move=> k0 km n0 p0 c0 E; have m0 : (0 < m)%N by lia.
have [J [EJ pJ E']] := ROCS1_row m0 p0 c0 E.
have skJ := take_skeleton pJ km.
rewrite /OSID2 /= (bindE _ (row_sketchE c0 E)) mtrE EJ bind_liftE (ridx_skel A skJ) bind_liftE.
have [X [W [Ep ls XW]]] := pinv_rightE (rowsel A (take k J) k) A n0 k0 m0.
exists X, (take k J), W; split=> //.
by rewrite bindA bind_emitE Ep.
Qed.

Lemma inb_size n J : uniq J -> inb n J -> (size J <= n)%N.
Proof.
move=> uJ /allP iJ; rewrite -(size_iota 0 n); apply: uniq_leq_size => // j /iJ.
by rewrite mem_iota.
Qed.

(** Least squares facts. *)
Lemma ls_optimal m n k (C : 'M[R]_(m, k)) (X X' : 'M[R]_(k, n)) (A : 'M[R]_(m, n)) :
  C^T *m (C *m X - A) = 0 -> fro2 (A - C *m X') = fro2 (A - C *m X) + fro2 (C *m (X - X')).
Proof.
move=> ls; rewrite -fro2_pyth; last first.
  rewrite mulmxA (_ : (A - C *m X)^T *m C = 0) ?mul0mx //.
  by apply: trmx_inj; rewrite trmx0 trmx_mul trmxK -opprB mulmxN ls oppr0.
by congr fro2; rewrite mulmxBr addrA addrNK.
Qed.

Lemma ls_interp m n k (A : 'M[R]_(m, n)) (X : 'M[R]_(k, n)) J :
  (colsel A J k)^T *m (colsel A J k *m X - A) = 0 ->
  colsel (colsel A J k *m X) J k = colsel A J k.
Proof.
set C := colsel A J k => ls; rewrite (colsel1E (C *m X)) -mulmxA.
set T := X *m _; apply/esym; apply: (@ls_exact R _ _ _ C T C 1%:M); last by rewrite mulmx1.
have /(congr1 (mulmx^~ (colsel (1%:M : 'M[R]_n) J k))) := ls.
rewrite mul0mx -mulmxA mulmxBl -mulmxA -/T -(colsel1E A) -/C => e.
by apply/eqP; rewrite -opprB mulmxN oppr_eq0 e.
Qed.

Lemma TSID1_tall (osid : osid_t (T := R) (G := G)) m n (A : 'M[R]_(m, n)) k (over : int) (X : 'M[R]_(k, n)) J s s1 :
  (n < m)%N -> (0 < k)%N -> skeleton n k J ->
  osid (ofmx A) k over 1 s = (s1, inr (ofmx X, J)) ->
  if \rank (colsel A J k) == k then
    exists (Z : 'M[R]_(m, k)) I,
    [/\ TSID1 L osid (ofmx A) k over s = (s1, inr (ofmx Z, I, ofmx X, J)),
        skeleton m k I, rowsel Z I k = 1%:M &
        colsel A J k = Z *m rowsel (colsel A J k) I k]
  else exists e, TSID1 L osid (ofmx A) k over s = (s1, inl e).
Proof.
move=> nm k0 skJ E; rewrite /TSID1 nc_ofmx nr_ofmx nm (bindE _ E) (cidx_skel A skJ) bind_liftE.
have m0 : (0 < m)%N by lia.
have -> : (\rank (colsel A J k) == k) = (k <= \rank (colsel A J k))%N.
  by rewrite eqn_leq rank_leq_col.
have := qrcp_osidP (colsel A J k) m0 k0 k0; case: ifP => kr [_ []].
  move=> Z [I [-> rid]]; exists Z, I; rewrite bind_liftE; split=> //.
  - by case: rid.
  - by apply: trmx_inj; rewrite tr_rowsel (ci_eye rid) trmx1.
  apply: trmx_inj; rewrite trmx_mul tr_rowsel; apply: (col_id_exact rid).
  by apply/eqP; rewrite mxrank_tr eqn_leq rank_leq_col.
by move=> e ->; exists e.
Qed.

Lemma TSID1_wide (osid : osid_t (T := R) (G := G)) m n (A : 'M[R]_(m, n)) k (over : int) (Z : 'M[R]_(m, k)) I s s1 :
  (0 < m)%N -> (m <= n)%N -> (0 < k)%N -> skeleton m k I ->
  osid (ofmx A) k over 0 s = (s1, inr (ofmx Z, I)) ->
  if \rank (rowsel A I k) == k then
    exists (X : 'M[R]_(k, n)) J,
    [/\ TSID1 L osid (ofmx A) k over s = (s1, inr (ofmx Z, I, ofmx X, J)),
        skeleton n k J, colsel X J k = 1%:M &
        rowsel A I k = colsel (rowsel A I k) J k *m X]
  else exists e, TSID1 L osid (ofmx A) k over s = (s1, inl e).
Proof.
move=> m0 mn k0 skJ E; rewrite /TSID1 nc_ofmx nr_ofmx ltnNge mn /= (bindE _ E) (ridx_skel A skJ) bind_liftE.
have n0 : (0 < n)%N by lia.
have -> : (\rank (rowsel A I k) == k) = (k <= \rank (rowsel A I k))%N.
  by rewrite eqn_leq rank_leq_row.
have := qrcp_osidP (rowsel A I k) k0 n0 k0; case: ifP => kr [[]].
  move=> X [J [-> cid]] _; exists X, J; rewrite bind_liftE; split=> //.
  - by case: cid.
  - exact: ci_eye cid.
  by apply: (col_id_exact cid); apply/eqP; rewrite eqn_leq rank_leq_row.
by move=> e -> _; exists e.
Qed.

Lemma CUR1_tall (osid : osid_t (T := R) (G := G)) m n (A : 'M[R]_(m, n)) k (over : int) (X : 'M[R]_(k, n)) J s s1 :
  (n < m)%N -> (0 < k)%N -> skeleton n k J ->
  osid (ofmx A) k over 1 s = (s1, inr (ofmx X, J)) ->
  exists (U : 'M[R]_k) I,
    [/\ CUR1 L osid (ofmx A) k over s = (s1, inr (J, ofmx U, I)), skeleton m k I,
        (forall U', fro2 (X - U *m rowsel A I k) <= fro2 (X - U' *m rowsel A I k)) &
        \rank A = k -> A = colsel A J k *m X -> A = colsel A J k *m U *m rowsel A I k].
Proof.
move=> nm k0 skJ E; rewrite /CUR1 nc_ofmx nr_ofmx nm (bindE _ E) (cidx_skel A skJ) bind_liftE mtrE.
have m0 : (0 < m)%N by lia.
have kn : (k <= n)%N by case: skJ => <- uJ iJ; apply: inb_size.
have n0 : (0 < n)%N by lia.
have [I [EI pI HI]] := qrp_sel qrpL (colsel A J k)^T k0 m0.
have skI := take_skeleton pI (leq_trans kn (ltnW nm)).
rewrite EI bind_liftE (ridx_skel A skI) bind_liftE.
have [U [W [EU ls _]]] := pinv_rightE (rowsel A (take k I) k) X n0 k0 k0.
rewrite EU bind_liftE; exists U, (take k I); split=> //.
  move=> U'; rewrite -(fro2_trmx (X - _)) -[leRHS]fro2_trmx !linearB /= !trmx_mul.
  rewrite (@ls_optimal _ _ _ _ U^T U'^T) ?ler_addl ?fro2_ge0 //.
  by apply: trmx_inj; rewrite trmx0 trmx_mul linearB /= trmx_mul !trmxK.
move=> rA AE; set C := colsel A J k in AE HI *; set Rw := rowsel A _ k in ls *.
have rC : \rank C = k.
  apply/eqP; rewrite eqn_leq rank_leq_col -{1}rA {1}AE; exact: mxrankM_maxl.
move: (HI k k0); rewrite mxrank_tr rC leqnn => -[X0 [_ cid]].
have cr := ci_rank cid.
have RwE : Rw = rowsel C (take k I) k *m X by rewrite /Rw rowsel1E {1}AE mulmxA -rowsel1E.
have uC : rowsel C (take k I) k \in unitmx by rewrite -unitmx_tr tr_rowsel -row_full_unit /row_full cr.
have XE : X = invmx (rowsel C (take k I) k) *m Rw by rewrite RwE mulKmx.
rewrite {1}AE -mulmxA; congr (_ *m _); apply: trmx_inj; rewrite trmx_mul.
apply: (@ls_exact R _ _ _ Rw^T U^T X^T (invmx (rowsel C (take k I) k))^T); last by rewrite -trmx_mul -XE.
apply: trmx_inj; rewrite trmx0 trmx_mul linearB /= trmx_mul !trmxK.
by apply/eqP; rewrite -opprB mulNmx oppr_eq0 ls.
Qed.

End Drivers.
