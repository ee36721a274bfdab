(** Index scatter, the sampling operator and the subsampled cosine transform. *)
From mathcomp Require Import all_ssreflect all_algebra.
From Verif Require Import Base Arr Lapack Exact MxLib LapackSpec Rng Aware Sel P_RF P_Interp Sketching.
Set Implicit Arguments.
Unset Strict Implicit.
Unset Printing Implicit Defensive.
Import Order.TTheory GRing.Theory Num.Theory.
Local Open Scope ring_scope.

Section Scatter.
Variable R : rcfType.

(** [sel n J c]: the n-by-c matrix whose columns are unit vectors. *)
Definition sel n (J : seq nat) c : 'M[R]_(n, c) := colsel 1%:M J c.

Lemma selE n J c (i : 'I_n) (a : 'I_c) : inb n J -> size J = c ->
  sel n J c i a = (val i == nth 0%N J a)%:R.
Proof.
move=> iJ sJ; have la : (nth 0%N J a < n)%N by apply: inb_nth; rewrite ?sJ.
by rewrite mxE (mxe_ord _ (ltn_ord i) la) mxE -val_eqE /=.
Qed.

Lemma lastpos_none (J : seq nat) j : j \notin J -> lastpos J j = None.
Proof.
elim: J => //= b J IH; rewrite inE negb_or => /andP[ab aJ]; rewrite (IH aJ).
by rewrite eq_sym (negPf ab).
Qed.

Lemma scatter_sum n J c (f : nat -> R) (i : 'I_n) : inb n J -> uniq J -> size J = c ->
  \sum_(a < c) sel n J c i a * f a = if lastpos J i is Some p then f p else 0.
Proof.
move=> iJ uJ sJ; case: (boolP (val i \in J)) => ij.
  rewrite (lastpos_index uJ ij).
  have ix : (index (val i) J < c)%N by rewrite -sJ index_mem.
  rewrite (bigD1 (Ordinal ix)) //= big1 => [|a ai]; first by rewrite selE // nth_index // eqxx mul1r addr0.
  rewrite selE //; case: eqP => [e|_]; last by rewrite mul0r.
  by case/eqP: ai; apply: val_inj; rewrite /= e index_uniq ?sJ.
rewrite lastpos_none // big1 // => a _; rewrite selE //; case: eqP => [e|_]; last by rewrite mul0r.
by case/negP: ij; rewrite e mem_nth // sJ.
Qed.

Lemma set_vidx0E n J c (w : 'cV[R]_c) : inb n J -> uniq J -> size J = c ->
  set_vidx (vzeros n) J (ofcv w) = Ok (ofcv (sel n J c *m w)).
Proof.
move=> iJ uJ sJ; rewrite /set_vidx vzerosE !size_ofcv -/(inb n J) iJ sJ eqxx /=; congr Ok.
apply: mkseq_eq_ofcv => i; rewrite mxE.
rewrite (eq_bigr (fun a : 'I_c => sel n J c i a * ev (ofcv w) a)); last by move=> a _; rewrite ev_ofcv.
by rewrite (scatter_sum (ev (ofcv w)) i iJ uJ sJ) ev_ofcv mxE.
Qed.

Lemma set_ridx0E n J c p (W : 'M[R]_(c, p)) : inb n J -> uniq J -> size J = c ->
  set_ridx (mzeros n p) J (ofmx W) = Ok (ofmx (sel n J c *m W)).
Proof.
move=> iJ uJ sJ; rewrite /set_ridx mzerosE !nr_ofmx !nc_ofmx -/(inb n J) iJ sJ !eqxx /=; congr Ok.
apply: mk_eq_ofmx => i j; rewrite mxE.
rewrite (eq_bigr (fun a : 'I_c => sel n J c i a * el (ofmx W) a j)); last by move=> a _; rewrite el_ofmx.
by rewrite (scatter_sum (fun a => el (ofmx W) a j) i iJ uJ sJ) el_ofmx mxE.
Qed.

Lemma vidx_selE n J c (v : 'cV[R]_n) : inb n J -> size J = c ->
  vidx (ofcv v) J = Ok (ofcv ((sel n J c)^T *m v)).
Proof. by move=> iJ <-; rewrite vidxE // rowsel1E. Qed.
Lemma ridx_selE n J c p (A : 'M[R]_(n, p)) : inb n J -> size J = c ->
  ridx (ofmx A) J = Ok (ofmx ((sel n J c)^T *m A)).
Proof. by move=> iJ <-; rewrite ridxE // rowsel1E. Qed.

Lemma sel_ortho n J c : inb n J -> uniq J -> size J = c -> (sel n J c)^T *m sel n J c = 1%:M.
Proof. by move=> iJ uJ sJ; apply: selP => //; rewrite sJ. Qed.

(** Inverse permutation. *)
Lemma perm_iota_facts n p : perm_eq p (iota 0 n) -> [/\ inb n p, uniq p & size p = n].
Proof.
move=> pp; split; [exact: inb_perm | exact: uniq_perm_iota pp |].
by rewrite (perm_size pp) size_iota.
Qed.

Lemma size_invperm p : size (invperm p) = size p.
Proof. exact: size_mkseq. Qed.

Lemma inb_invperm n p : perm_eq p (iota 0 n) -> inb n (invperm p).
Proof.
move=> pp; have [ip up sp] := perm_iota_facts pp; apply/allP=> i /mapP[j].
rewrite mem_iota add0n sp /= => jn ->; rewrite -sp index_mem (perm_mem pp) mem_iota.
by rewrite add0n.
Qed.

Lemma sel_invperm n p : perm_eq p (iota 0 n) -> sel n (invperm p) n = (sel n p n)^T.
Proof.
move=> pp; have [ip up sp] := perm_iota_facts pp.
apply/matrixP=> i j; rewrite selE ?size_invperm ?inb_invperm // mxE selE // nth_mkseq ?sp //.
have jp : (j : nat) \in p by rewrite (perm_mem pp) mem_iota add0n leq0n ltn_ord.
congr (_%:R); congr (nat_of_bool _).
apply/eqP/eqP => [->|->]; first by rewrite nth_index.
by rewrite index_uniq // sp.
Qed.

Lemma vmulE n (x y : 'cV[R]_n) : vmul (ofcv x) (ofcv y) = Ok (ofcv (diag_mx y^T *m x)).
Proof.
rewrite /vmul !size_ofcv eqxx; congr Ok; apply: mkseq_eq_ofcv => i.
by rewrite !ev_ofcv mul_diag_mx !mxE /= mulrC.
Qed.
Lemma rmulE n p (A : 'M[R]_(n, p)) (y : 'cV[R]_n) : rmul (ofmx A) (ofcv y) = Ok (ofmx (diag_mx y^T *m A)).
Proof.
rewrite /rmul nr_ofmx nc_ofmx size_ofcv eqxx; congr Ok; apply: mk_eq_ofmx => i j.
by rewrite el_ofmx ev_ofcv mul_diag_mx !mxE /= mulrC.
Qed.

Lemma col_mapE n p (f : seq R -> seq R) (C : 'M[R]_n) (A : 'M[R]_(n, p)) :
  (forall x : 'cV[R]_n, f (ofcv x) = ofcv (C *m x)) -> col_map f (ofmx A) = ofmx (C *m A).
Proof.
move=> fC; rewrite /col_map nr_ofmx nc_ofmx; apply: mk_eq_ofmx => i j.
have -> : mcol (ofmx A) j = ofcv (col j A).
  by rewrite /mcol nr_ofmx; apply: mkseq_eq_ofcv => l; rewrite el_ofmx mxE.
by rewrite fC ev_ofcv !mxE; apply: eq_bigr => l _; rewrite mxE.
Qed.

End Scatter.

Arguments sel {R} n J c.

Section Srct.
Variables (R : rcfType) (L : lapack R).
Hypothesis dct : dct_spec L.

(** Optional permutation as a matrix. *)
Definition pmat n (p : option (seq nat)) : 'M[R]_n := if p is Some p then (sel n p n)^T else 1%:M.
Definition pok n (p : option (seq nat)) : Prop := if p is Some p then perm_eq p (iota 0 n) else True.

Lemma pmat_ortho n p : pok n p -> pmat n p *m (pmat n p)^T = 1%:M /\ (pmat n p)^T *m pmat n p = 1%:M.
Proof.
case: p => [p|_] /=; last by rewrite trmx1 mulmx1.
by move=> pp; rewrite trmxK; have [] := permsel R pp.
Qed.

Lemma opt_vidxE n p (v : 'cV[R]_n) : pok n p -> opt_idx vidx (ofcv v) p = Ok (ofcv (pmat n p *m v)).
Proof.
case: p => [p|_] /=; last by rewrite mul1mx.
by move=> pp; have [ip up sp] := perm_iota_facts pp; apply: vidx_selE.
Qed.
Lemma opt_ridxE n p q (A : 'M[R]_(n, q)) : pok n p -> opt_idx ridx (ofmx A) p = Ok (ofmx (pmat n p *m A)).
Proof.
case: p => [p|_] /=; last by rewrite mul1mx.
by move=> pp; have [ip up sp] := perm_iota_facts pp; apply: ridx_selE.
Qed.
Lemma opt_vidx_invE n p (v : 'cV[R]_n) : pok n p ->
  opt_idx vidx (ofcv v) (omap invperm p) = Ok (ofcv ((pmat n p)^T *m v)).
Proof.
case: p => [p|_] /=; last by rewrite trmx1 mul1mx.
move=> pp; have [ip up sp] := perm_iota_facts pp.
by rewrite (vidx_selE (c := n)) ?inb_invperm ?size_invperm // sel_invperm.
Qed.
Lemma opt_ridx_invE n p q (A : 'M[R]_(n, q)) : pok n p ->
  opt_idx ridx (ofmx A) (omap invperm p) = Ok (ofmx ((pmat n p)^T *m A)).
Proof.
case: p => [p|_] /=; last by rewrite trmx1 mul1mx.
move=> pp; have [ip up sp] := perm_iota_facts pp.
by rewrite (ridx_selE (c := n)) ?inb_invperm ?size_invperm // sel_invperm.
Qed.

(** apply_srct: forward and adjoint are the matrix S and its transpose. *)
Lemma srct_matrixC n k (ri : seq nat) (e : 'cV[R]_n) p (c : R) (C : 'M[R]_n) :
  orthonormal C ->
  (forall x : 'cV[R]_n, l_dct L (ofcv x) = ofcv (C *m x) /\ l_idct L (ofcv x) = ofcv (C^T *m x)) ->
  inb n ri -> uniq ri -> size ri = k -> pok n p -> (forall i, e i 0 ^+ 2 = c) ->
  let S := (sel n ri k)^T *m C *m diag_mx e^T *m pmat n p in [/\ S *m S^T = c%:M,
    (forall x, srct_v L ri (ofcv e) p (ofcv x) = Ok (ofcv (S *m x))),
    (forall q (A : 'M[R]_(n, q)), srct_m L ri (ofcv e) p (ofmx A) = Ok (ofmx (S *m A))),
    (forall x, srct_rv L ri (ofcv e) p (ofcv x) = Ok (ofcv (S^T *m x))) &
    (forall q (A : 'M[R]_(k, q)), srct_rm L ri (ofcv e) p (ofmx A) = Ok (ofmx (S^T *m A)))].
Proof.
move=> oC CE iri uri sri okp he.
have CE1 x := (CE x).1; have CE2 x := (CE x).2.
pose E := diag_mx e^T; pose P := pmat n p; pose Z := sel (R := R) n ri k.
rewrite /= -/E -/P -/Z.
have trS : (Z^T *m C *m E *m P)^T = P^T *m E *m C^T *m Z.
  by rewrite !trmx_mul trmxK tr_diag_mx !mulmxA.
have [PPt PtP] := pmat_ortho okp; rewrite -/P in PPt PtP.
have EE : E *m E = c%:M.
  rewrite mulmx_diag -diag_const_mx; congr diag_mx; apply/rowP=> i; rewrite !mxE -expr2; exact: he.
split.
- rewrite trS; have -> : Z^T *m C *m E *m P *m (P^T *m E *m C^T *m Z) =
    Z^T *m C *m (E *m (P *m P^T) *m E) *m C^T *m Z by rewrite !mulmxA.
  rewrite PPt mulmx1 EE mul_mx_scalar -!scalemxAl -[Z^T *m C *m C^T]mulmxA.
  by rewrite (orthonormal_sq oC) mulmx1 sel_ortho // scalemx1.
- move=> x; rewrite /srct_v opt_vidxE //= vmulE /= CE1 (vidx_selE (c := k)) //.
  by rewrite !mulmxA.
- move=> q A; rewrite /srct_m opt_ridxE //= rmulE /= (col_mapE _ CE1) (ridx_selE (c := k)) //.
  by rewrite !mulmxA.
- move=> x; rewrite /srct_rv size_ofcv (set_vidx0E (c := k)) //= CE2 vmulE /= opt_vidx_invE //.
  by rewrite trS !mulmxA.
move=> q A; rewrite /srct_rm size_ofcv nc_ofmx (set_ridx0E (c := k)) //= (col_mapE _ CE2) rmulE /=.
by rewrite opt_ridx_invE // trS !mulmxA.
Qed.

Lemma srct_matrix n k (ri : seq nat) (e : 'cV[R]_n) p (c : R) :
  inb n ri -> uniq ri -> size ri = k -> pok n p -> (forall i, e i 0 ^+ 2 = c) ->
  exists S : 'M[R]_(k, n), [/\ S *m S^T = c%:M,
    (forall x, srct_v L ri (ofcv e) p (ofcv x) = Ok (ofcv (S *m x))),
    (forall q (A : 'M[R]_(n, q)), srct_m L ri (ofcv e) p (ofmx A) = Ok (ofmx (S *m A))),
    (forall x, srct_rv L ri (ofcv e) p (ofcv x) = Ok (ofcv (S^T *m x))) &
    (forall q (A : 'M[R]_(k, q)), srct_rm L ri (ofcv e) p (ofmx A) = Ok (ofmx (S^T *m A)))].
Proof.
move=> iri uri sri okp he; have [C [oC CE]] := dct n; eexists; exact: (srct_matrixC oC CE iri uri sri okp he).
Qed.

End Srct.
