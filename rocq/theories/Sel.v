(** Selecting rows, columns and entries by index lists. *)
From mathcomp Require Import all_ssreflect all_algebra.
From mathcomp Require Import zify.
From Verif Require Import Base Arr Lapack Exact MxLib LapackSpec LapackExists P_Svd.
Set Implicit Arguments.
Unset Strict Implicit.
Unset Printing Implicit Defensive.
Import Order.TTheory GRing.Theory Num.Theory.
Local Open Scope ring_scope.

Section Sel.
Variable R : rcfType.

Definition rowsel m n (A : 'M[R]_(m, n)) (I : seq nat) c : 'M[R]_(c, n) :=
  \matrix_(i, j) mxe A (nth 0%N I i) j.

Definition inb (n : nat) (J : seq nat) : bool := all (fun j => (j < n)%N) J.

Lemma inb_nth n J i : inb n J -> (i < size J)%N -> (nth 0%N J i < n)%N.
Proof. by move=> /allP H lt; apply: H; rewrite mem_nth. Qed.

Lemma cidxE m n (A : 'M[R]_(m, n)) J : inb n J ->
  cidx (ofmx A) J = Ok (ofmx (colsel A J (size J))).
Proof.
move=> H; rewrite /cidx nc_ofmx nr_ofmx -/(inb n J) H; congr Ok; apply: mk_eq_ofmx => i j.
have jn := inb_nth H (ltn_ord j).
by rewrite (el_ofmx_nat _ (ltn_ord i) jn) mxE (mxe_ord _ (ltn_ord i) jn).
Qed.

Lemma ridxE m n (A : 'M[R]_(m, n)) J : inb m J ->
  ridx (ofmx A) J = Ok (ofmx (rowsel A J (size J))).
Proof.
move=> H; rewrite /ridx nc_ofmx nr_ofmx -/(inb m J) H; congr Ok; apply: mk_eq_ofmx => i j.
have jn := inb_nth H (ltn_ord i).
by rewrite (el_ofmx_nat _ jn (ltn_ord j)) mxE (mxe_ord _ jn (ltn_ord j)).
Qed.

Lemma vidxE n (v : 'cV[R]_n) J : inb n J ->
  vidx (ofcv v) J = Ok (ofcv (rowsel v J (size J))).
Proof.
move=> H; rewrite /vidx size_ofcv -/(inb n J) H; congr Ok.
apply: (@eq_from_nth _ 0); first by rewrite size_map size_ofcv.
move=> i; rewrite size_map => lt; rewrite (nth_map 0%N) //.
have jn := inb_nth H lt.
by rewrite (nth_ofcv _ lt) mxE (ev_ofcv_nat _ jn) (mxe_ord _ jn (ltn0Sn 0)); congr (v _ _); apply: val_inj.
Qed.

Lemma colsel1E m n (A : 'M[R]_(m, n)) J c : colsel A J c = A *m colsel 1%:M J c.
Proof. by rewrite -mul_colsel mulmx1. Qed.

Lemma tr_colsel m n (A : 'M[R]_(m, n)) J c : (colsel A J c)^T = rowsel A^T J c.
Proof.
apply/matrixP=> i j; rewrite !mxE /mxe; case: insubP => [a _ _|] //=; case: insubP => //= b _ _.
by rewrite mxE.
Qed.
Lemma tr_rowsel m n (A : 'M[R]_(m, n)) J c : (rowsel A J c)^T = colsel A^T J c.
Proof. by rewrite -{1}[A]trmxK -tr_colsel trmxK. Qed.

Lemma rowsel1E m n (A : 'M[R]_(m, n)) J c : rowsel A J c = (colsel 1%:M J c)^T *m A.
Proof. by rewrite -[A]trmxK -tr_colsel colsel1E trmx_mul. Qed.

(** The selection matrix of distinct, in-range indices is orthonormal. *)
Lemma selP n J c : inb n J -> uniq J -> (c <= size J)%N ->
  orthonormal (colsel (1%:M : 'M[R]_n) J c).
Proof.
move=> H u cJ; apply/matrixP=> i j; rewrite !mxE.
have lt k : (k < c)%N -> (nth 0%N J k < n)%N by move=> kc; apply: inb_nth => //; apply: leq_trans cJ.
have li := lt _ (ltn_ord i); have lj := lt _ (ltn_ord j).
rewrite (bigD1 (Ordinal li)) //= !mxE (mxe_ord _ li li) (mxe_ord _ li lj) !mxE eqxx mul1r.
rewrite big1 ?addr0 => [|l]; last first.
  rewrite -val_eqE /= !mxE (mxe_ord _ (ltn_ord l) li) mxE -val_eqE /= => /negbTE->.
  by rewrite mul0r.
by rewrite -val_eqE /= nth_uniq ?(leq_trans (ltn_ord _) cJ).
Qed.

Lemma colsel_take m n (A : 'M[R]_(m, n)) J c r : (c <= r)%N -> colsel A (take r J) c = colsel A J c.
Proof. by move=> cr; apply/matrixP=> i j; rewrite !mxE nth_take // (leq_trans (ltn_ord _)). Qed.
Lemma rowsel_take m n (A : 'M[R]_(m, n)) J c r : (c <= r)%N -> rowsel A (take r J) c = rowsel A J c.
Proof. by move=> cr; apply/matrixP=> i j; rewrite !mxE nth_take // (leq_trans (ltn_ord _)). Qed.

Lemma colsel_iota0 m n (A : 'M[R]_(m, n)) r q : (r <= q)%N -> colsel A (iota 0 q) r = colblk A 0 r.
Proof.
move=> rq; apply/matrixP=> i j; rewrite !mxE nth_iota ?add0n //.
exact: leq_trans (ltn_ord _) rq.
Qed.
Lemma rowsel_iota0 m n (A : 'M[R]_(m, n)) r q : (r <= q)%N -> rowsel A (iota 0 q) r = rowblk A 0 r.
Proof.
move=> rq; apply/matrixP=> i j; rewrite !mxE nth_iota ?add0n //.
exact: leq_trans (ltn_ord _) rq.
Qed.

Lemma inb_iota n r : (r <= n)%N -> inb n (iota 0 r).
Proof. by move=> rn; apply/allP=> i; rewrite mem_iota /= add0n => /leq_trans; apply. Qed.

Lemma inb_perm n J : perm_eq J (iota 0 n) -> inb n J.
Proof. by move=> /perm_mem H; apply/allP=> i; rewrite H mem_iota. Qed.
Lemma uniq_perm_iota n J : perm_eq J (iota 0 n) -> uniq J.
Proof. by move=> /perm_uniq->; rewrite iota_uniq. Qed.
Lemma inb_take n J r : inb n J -> inb n (take r J).
Proof. by move=> /allP H; apply/allP=> i /mem_take; apply: H. Qed.

Lemma colblk2 m n (A : 'M[R]_(m, n)) p r : (r <= p)%N -> (p <= n)%N ->
  colblk (colblk A 0 p) 0 r = colblk A 0 r.
Proof.
move=> rp pn; apply/matrixP=> i j; rewrite !mxE !add0n.
have jp := leq_trans (ltn_ord j) rp.
by rewrite (mxe_ord _ (ltn_ord i) jp) mxE add0n; congr (mxe _ _ _).
Qed.
Lemma rowblk2 m n (A : 'M[R]_(m, n)) p r : (r <= p)%N -> (p <= m)%N ->
  rowblk (rowblk A 0 p) 0 r = rowblk A 0 r.
Proof.
move=> rp pn; apply/matrixP=> i j; rewrite !mxE !add0n.
have jp := leq_trans (ltn_ord i) rp.
by rewrite (mxe_ord _ jp (ltn_ord j)) mxE add0n; congr (mxe _ _ _).
Qed.

(** A predicate that holds on a prefix: filtering the positions. *)
Lemma filter_iota (f : nat -> bool) n r : (r <= n)%N -> (forall i, (i < n)%N -> f i = (i < r)%N) ->
  [seq i <- iota 0 n | f i] = iota 0 r.
Proof.
move=> rn H; rewrite -(subnKC rn) iotaD filter_cat add0n.
rewrite (_ : [seq i <- iota 0 r | _] = iota 0 r); last first.
  apply/all_filterP/allP=> i; rewrite mem_iota /= add0n => ir.
  by rewrite H ?(leq_trans ir).
rewrite (_ : [seq i <- iota r _ | _] = [::]) ?cats0 //.
apply/eqP; rewrite -[_ == _]negbK -has_filter; apply/hasPn => i.
by rewrite mem_iota (subnKC rn) => /andP[ri lt]; rewrite H // -leqNgt.
Qed.

(** In a non-increasing list an upward closed predicate holds on a prefix. *)
Lemma count_mono (P : pred R) (s : seq R) :
  (forall x y, x <= y -> P x -> P y) ->
  (forall i j, (i <= j)%N -> (j < size s)%N -> nth 0 s j <= nth 0 s i) ->
  forall i, (i < size s)%N -> (i < count P s)%N = P (nth 0 s i).
Proof.
move=> up; elim: s => // x s IH H i lt.
have Hs i' j : (i' <= j)%N -> (j < size s)%N -> nth 0 s j <= nth 0 s i'.
  by move=> ij js; apply: (H i'.+1 j.+1).
rewrite /=; case Px: (P x); first by case: i lt => //= i lt; rewrite add1n ltnS IH.
have nP j : (j < size (x :: s))%N -> ~~ P (nth 0 (x :: s) j).
  by move=> js; apply: contraFN Px; apply: up; apply: (H 0%N j).
have -> : count P s = 0%N.
  apply/eqP; rewrite -leqn0 leqNgt -has_count; apply/hasPn => y ys.
  by rewrite -(nth_index 0 ys); apply: (nP (index y s).+1); rewrite /= ltnS index_mem.
by rewrite addn0 ltn0; symmetry; apply/negbTE; rewrite nP.
Qed.

(** ** Error of an approximation built from compressed factors. *)
Lemma core_error m n r (A : 'M[R]_(m, n)) (U : 'M[R]_(m, r)) (V : 'M[R]_(n, r)) (d : 'cV[R]_r) :
  orthonormal U -> orthonormal V -> U^T *m A *m V = diag_mx d^T ->
  fro2 (A - U *m diag_mx d^T *m V^T) = fro2 A - fro2 d.
Proof.
move=> oU oV E; rewrite fro2B.
have -> : fro2 (U *m diag_mx d^T *m V^T) = fro2 d.
  rewrite -mulmxA fro2_ortho // -fro2_trmx trmx_mul trmxK fro2_ortho // fro2_trmx.
  rewrite fro2_tr tr_diag_mx mulmx_diag mxtrace_diag fro2_tr /mxtrace big_ord1 !mxE.
  by apply: eq_bigr => i _; rewrite !mxE.
have -> : fip A (U *m diag_mx d^T *m V^T) = fro2 d.
  rewrite fipC /fip trmx_mul trmxK trmx_mul tr_diag_mx -!mulmxA mxtrace_mulC.
  rewrite -!mulmxA [U^T *m _]mulmxA E mulmx_diag mxtrace_diag fro2_tr /mxtrace big_ord1 !mxE.
  by apply: eq_bigr => i _; rewrite !mxE.
by rewrite mulr_natl mulr2n opprD addrA addrNK.
Qed.

Lemma fro2_diag n (d : 'cV[R]_n) : fro2 (diag_mx d^T) = fro2 d.
Proof.
rewrite fro2_tr tr_diag_mx mulmx_diag mxtrace_diag fro2_tr /mxtrace big_ord1 !mxE.
by apply: eq_bigr => i _; rewrite !mxE.
Qed.

Lemma fro2_cvE n (d : 'cV[R]_n) : fro2 d = \sum_i d i 0 ^+ 2.
Proof. by rewrite fro2_cv mxE; apply: eq_bigr => i _; rewrite mxE expr2. Qed.

Lemma orthonormal_colblk m n (U : 'M[R]_(m, n)) r : (r <= n)%N -> orthonormal U ->
  orthonormal (colblk U 0 r).
Proof.
move=> rn oU; rewrite colblkE; apply: orthonormalM => //; exact: selmxP.
Qed.

End Sel.
