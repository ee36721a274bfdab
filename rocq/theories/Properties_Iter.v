(** Properties C29-C31, C35-C38, C53, C54, C73-C75: the iterative solvers. *)
From mathcomp Require Import all_ssreflect all_algebra.
From Verif Require Import Base Arr Lapack Exact MxLib Rng Pcg P_Pcg Lsqr P_Lsqr P_Iter P_Iter2 P_Iter3 P_Pcg2.
Set Implicit Arguments.
Unset Strict Implicit.
Unset Printing Implicit Defensive.
Import Order.TTheory GRing.Theory Num.Theory.
Local Open Scope ring_scope.

(** ** C29: the residual log of PCG is truthful and stopping is honest.
    [H] and [P] are arbitrary here. *)
Theorem C29_pcg_log (R : rcfType) n (H P : 'M[R]_n) mvH mvP (b x0 : 'cV[R]_n) (tol : R)
    (lim : int) x res :
  op_is mvH H -> op_is mvP P ->
  pcg mvH (ofcv b) mvP lim tol (ofcv x0) = Ok (x, res) ->
  exists y : 'cV[R]_n,
  [/\ 0 <= lim, x = ofcv y, (size res <= absz lim)%N,
      forall k, (k < size res)%N -> exists z : 'cV[R]_n,
        [/\ pcg mvH (ofcv b) mvP k%:Z tol (ofcv x0) = Ok (ofcv z, take k res),
            nth 0 res k = fro (b - H *m z) & k = 0%N -> z = x0] &
      (res = [::] -> y = x0) /\
      ((size res < absz lim)%N -> fro (b - H *m y) <= tol * fro (b - H *m x0))].
Proof. move=> HH HP; exact: pcg_log_lemma. Qed.
Print Assumptions C29_pcg_log.

Theorem C29_pcg_negative_limit (T : Type) (O : ops T) mvH mvP (b x0 : seq T) (tol : T) (lim : int) :
  lim < 0 -> pcg mvH b mvP lim tol x0 = Err ValueError.
Proof. by rewrite /pcg => ->. Qed.
Print Assumptions C29_pcg_negative_limit.

Example C29_run (R : rcfType) : exists (y : 'cV[R]_2) es,
  pcg (mv (ofmx (wit_H R))) (ofcv (const_mx 1 : 'cV[R]_2)) (mv (ofmx (1%:M : 'M[R]_2))) 5 0
    (ofcv (0 : 'cV[R]_2)) = Ok (ofcv y, es) /\ (0 < size es)%N.
Proof.
have b0 : (const_mx 1 : 'cV[R]_2) != 0.
  by apply/eqP => /matrixP/(_ 0 0); rewrite !mxE => /eqP; rewrite oner_eq0.
have [y [es [E sz _ st]]] := pcg_exact_lemma (@mv_op_is R _ _ (wit_H R)) (@mv_op_is R _ _ 1%:M)
  (const_mx 1) 0 (wit_H_spd R) (spd1 R 2) (isT : 0 <= 5 :> int) (lexx 0).
exists y, es; split; first exact: E.
have [y' [_ /ofcv_inj <- _ _ []]] :=
  pcg_log_lemma (@mv_op_is R _ _ (wit_H R)) (@mv_op_is R _ _ 1%:M) E.
case: es {E sz} => // /(_ erefl) -> /(_ isT).
by rewrite mul0r mulmx0 subr0 leNgt lt_neqAle eq_sym fro_eq0 b0 fro_ge0.
Qed.

(** ** C30: on positive definite systems PCG is exact after n iterations. *)
Theorem C30_pcg_exact (R : rcfType) n (H P : 'M[R]_n) mvH mvP (b x0 : 'cV[R]_n) (tol : R) (lim : int) :
  op_is mvH H -> op_is mvP P -> spd H -> spd P -> 0 <= lim -> 0 <= tol ->
  exists (y : 'cV[R]_n) es,
  [/\ pcg mvH (ofcv b) mvP lim tol (ofcv x0) = Ok (ofcv y, es),
      (size es <= n)%N,
      (n <= absz lim)%N -> fro (b - H *m y) <= tol * fro (b - H *m x0) &
      (n <= absz lim)%N -> tol = 0 -> y = invmx H *m b].
Proof. move=> HH HP pH pP; exact: pcg_exact_lemma. Qed.
Print Assumptions C30_pcg_exact.

Example C30_hyps (R : rcfType) : op_is (mv (ofmx (wit_H R))) (wit_H R) /\ spd (wit_H R).
Proof. by split; [exact: mv_op_is | exact: wit_H_spd]. Qed.

(** ** C31: every iteration strictly decreases the energy of the error. *)
Theorem C31_pcg_energy (R : rcfType) n (H P : 'M[R]_n) mvH mvP (b x0 : 'cV[R]_n) (tol : R)
    (k : nat) y1 es1 y2 es2 :
  op_is mvH H -> op_is mvP P -> spd H -> spd P -> 0 <= tol ->
  pcg mvH (ofcv b) mvP k%:Z tol (ofcv x0) = Ok (ofcv y1, es1) ->
  pcg mvH (ofcv b) mvP k.+1%:Z tol (ofcv x0) = Ok (ofcv y2, es2) ->
  size es2 = k.+1 ->
  let err (y : 'cV[R]_n) := y - invmx H *m b in
  ((err y2)^T *m (H *m err y2)) 0 0 < ((err y1)^T *m (H *m err y1)) 0 0.
Proof. move=> HH HP pH pP; exact: pcg_energy_lemma. Qed.
Print Assumptions C31_pcg_energy.

(** ** C38: the Givens rotation. *)
Theorem C38_sym_ortho (R : rcfType) (a b c s r : R) :
  sym_ortho a b = (c, s, r) ->
  [/\ c * a + s * b = r, s * a - c * b = 0, 0 <= r, r = Num.sqrt (a ^+ 2 + b ^+ 2) &
      (a != 0) || (b != 0) -> c ^+ 2 + s ^+ 2 = 1].
Proof. exact: sym_orthoP. Qed.
Print Assumptions C38_sym_ortho.

(** ** C35: the norms reported by LSQR are the true ones.  General damping and
    starting point; without damping r1norm = r2norm = ||b - A x||. *)
Theorem C35_lsqr_norms (R : rcfType) m n (A : 'M[R]_(m, n)) op (b : 'cV[R]_m)
    (start : option 'cV[R]_n) (d atol btol conlim : R) cv (lim : option int) out :
  let x0 := if start is Some x then x else 0 in
  let call l := lsqr op (ofcv b) d atol btol conlim l cv (omap (@ofcv R n) start) in
  let g x := A^T *m (b - A *m x) - d ^+ 2 *: (x - x0) in
  lin_is op A -> 0 <= lim_of n lim -> b != 0 \/ start = None ->
  call lim = Ok out ->
  exists x : 'cV[R]_n,
  [/\ q_x out = ofcv x,
      q_r2norm out = Num.sqrt (fro2 (b - A *m x) + d ^+ 2 * fro2 (x - x0)) /\
      (d = 0 -> q_r1norm out = fro (b - A *m x) /\ q_r2norm out = fro (b - A *m x)),
      q_xnorm out = fro (x - x0),
      0 <= q_anorm out <= Num.sqrt (fro2 A + d ^+ 2 *+ n) &
      match q_errs out with
      | EScal e => [/\ e = 0, g x0 = 0 & x = x0]
      | EArr es => size es = q_itn out /\
          forall i, (i < size es)%N -> exists outi (xi : 'cV[R]_n),
            [/\ call (Some i%:Z) = Ok outi, q_x outi = ofcv xi, q_itn outi = i &
                nth 0 es i = fro (g xi)]
      end].
Proof. move=> x0 call g opA l0 bs; exact (@lsqr_norms_lemma _ _ _ _ _ opA _ _ _ _ _ _ _ _ l0 bs out). Qed.
Print Assumptions C35_lsqr_norms.

(** With damping, r1norm lies between ||b - A x|| and r2norm; it is ||b - A x||
    exactly when there is no damping, no iteration, or x is the solution. *)
Theorem C35_lsqr_r1norm (R : rcfType) m n (A : 'M[R]_(m, n)) op (b : 'cV[R]_m)
    (start : option 'cV[R]_n) (d atol btol conlim : R) cv (lim : option int) out :
  let x0 := if start is Some x then x else 0 in
  lin_is op A -> 0 <= lim_of n lim -> b != 0 \/ start = None ->
  lsqr op (ofcv b) d atol btol conlim lim cv (omap (@ofcv R n) start) = Ok out ->
  exists x : 'cV[R]_n, [/\ q_x out = ofcv x,
    fro (b - A *m x) <= q_r1norm out <= q_r2norm out &
    (q_r1norm out = fro (b - A *m x)) <->
    [\/ q_itn out = 0%N, d = 0 | A^T *m (b - A *m x) - d ^+ 2 *: (x - x0) = 0]].
Proof. move=> x0 opA l0 bs; exact (@lsqr_r1_lemma _ _ _ _ _ opA _ _ _ _ _ _ _ _ l0 bs out). Qed.
Print Assumptions C35_lsqr_r1norm.

(** "r1norm = norm(r), where r = b - Ax" fails for a damped run. *)
Theorem C35_lsqr_r1norm_refuted (R : rcfType) :
  let A : 'M[R]_2 := diag_mx (\row_j (j.+1)%:R) in let b : 'cV[R]_2 := const_mx 1 in
  exists out (x : 'cV[R]_2),
  [/\ lsqr (as_linop (ofmx A)) (ofcv b) 1 0 0 0 (Some 1) false None = Ok out,
      q_x out = ofcv x & q_r1norm out <> fro (b - A *m x)].
Proof. exact: lsqr_r1_refuted_lemma. Qed.
Print Assumptions C35_lsqr_r1norm_refuted.

Theorem C35_lsqr_returns (R : rcfType) m n (A : 'M[R]_(m, n)) op (b : 'cV[R]_m)
    (start : option 'cV[R]_n) (d atol btol conlim : R) cv (lim : option int) :
  lin_is op A -> 0 <= lim_of n lim -> b != 0 \/ start = None ->
  exists out, lsqr op (ofcv b) d atol btol conlim lim cv (omap (@ofcv R n) start) = Ok out.
Proof. move=> opA l0 bs; exact (@lsqr_returns _ _ _ _ _ opA _ _ _ _ _ _ _ _ l0 bs). Qed.
Print Assumptions C35_lsqr_returns.

Example C35_hyps (R : rcfType) :
  [/\ lin_is (as_linop (ofmx (wit_H R))) (wit_H R), 0 <= lim_of 2 None &
      (const_mx 1 : 'cV[R]_2) != 0].
Proof.
split=> //; first exact: as_linopP.
by apply/eqP => /matrixP/(_ 0 0); rewrite !mxE => /eqP; rewrite oner_eq0.
Qed.

(** ** C36: stopping codes are honest and the limit is respected. *)
Theorem C36_lsqr_stop (R : rcfType) m n (A : 'M[R]_(m, n)) op (b : 'cV[R]_m)
    (start : option 'cV[R]_n) (d atol btol conlim : R) cv (lim : option int) out :
  let x0 := if start is Some x then x else 0 in
  let g x := A^T *m (b - A *m x) - d ^+ 2 *: (x - x0) in
  lin_is op A -> 0 <= lim_of n lim -> b != 0 \/ start = None ->
  lsqr op (ofcv b) d atol btol conlim lim cv (omap (@ofcv R n) start) = Ok out ->
  exists x : 'cV[R]_n,
  [/\ q_x out = ofcv x,
      (q_itn out <= absz (lim_of n lim))%N,
      0 <= q_acond out &
   [/\ q_istop out = 0%N -> x = x0 /\ (g x0 = 0 \/ lim_of n lim = 0),
      q_istop out = 1%N -> q_r2norm out <= btol * fro b + atol * q_anorm out * q_xnorm out,
      q_istop out = 2%N -> fro (g x) <= atol * (q_anorm out * q_r2norm out + 2%:R ^- 52),
      q_istop out = 3%N -> 0 < conlim /\ conlim <= q_acond out + 2%:R ^- 52 &
   [/\ q_istop out = 4%N -> fro2 (b - A *m x) + d ^+ 2 * fro2 (x - x0) = 0,
      q_istop out = 5%N -> g x = 0,
      q_istop out = 7%N -> q_itn out = absz (lim_of n lim) &
      q_istop out \in [:: 0; 1; 2; 3; 4; 5; 7]%N]]].
Proof. move=> x0 g opA l0 bs; exact (@lsqr_stop_lemma _ _ _ _ _ opA _ _ _ _ _ _ _ _ l0 bs out). Qed.
Print Assumptions C36_lsqr_stop.

(** The code is decided by the documented tests, evaluated on the returned
    values in the documented order of precedence. *)
Theorem C36_lsqr_code (R : rcfType) m n (A : 'M[R]_(m, n)) op (b : 'cV[R]_m)
    (start : option 'cV[R]_n) (d atol btol conlim : R) cv (lim : option int) out :
  let x0 := if start is Some x then x else 0 in
  let g x := A^T *m (b - A *m x) - d ^+ 2 *: (x - x0) in
  lin_is op A -> 0 <= lim_of n lim -> b != 0 \/ start = None ->
  lsqr op (ofcv b) d atol btol conlim lim cv (omap (@ofcv R n) start) = Ok out ->
  (0 < q_itn out)%N ->
  exists x : 'cV[R]_n, q_x out = ofcv x /\
  q_istop out =
    if q_r2norm out <= btol * fro b + atol * q_anorm out * q_xnorm out then 1%N
    else if fro (g x) <= atol * (q_anorm out * q_r2norm out + 2%:R ^- 52) then 2%N
    else if (0 < conlim) && (conlim <= q_acond out + 2%:R ^- 52) then 3%N
    else if q_r2norm out == 0 then 4%N
    else if g x == 0 then 5%N else 7%N.
Proof. move=> x0 g opA l0 bs; exact (@lsqr_code_lemma _ _ _ _ _ opA _ _ _ _ _ _ _ _ l0 bs out). Qed.
Print Assumptions C36_lsqr_code.

(** A run stops at the first iteration at which a test holds: cut short earlier,
    it reports that the limit was reached.  Any scalar type. *)
Theorem C36_lsqr_first_stop (T : Type) (O : ops T) (A : linop T) b damp atol btol conlim lim cv x0 out j :
  lsqr A b damp atol btol conlim lim cv x0 = Ok out -> (0 < j < q_itn out)%N ->
  exists out1, [/\ lsqr A b damp atol btol conlim (Some j%:Z) cv x0 = Ok out1,
    q_istop out1 = 7%N & q_itn out1 = j].
Proof. exact: lsqr_first. Qed.
Print Assumptions C36_lsqr_first_stop.

(** ** C37: the residual never grows, neither over the start nor with the limit. *)
Theorem C37_lsqr_start (R : rcfType) m n (A : 'M[R]_(m, n)) op (b : 'cV[R]_m)
    (start : option 'cV[R]_n) (d atol btol conlim : R) cv (lim : option int) out :
  let x0 := if start is Some x then x else 0 in
  lin_is op A -> 0 <= lim_of n lim -> b != 0 \/ start = None ->
  lsqr op (ofcv b) d atol btol conlim lim cv (omap (@ofcv R n) start) = Ok out ->
  exists x : 'cV[R]_n, q_x out = ofcv x /\
  fro2 (b - A *m x) + d ^+ 2 * fro2 (x - x0) <= fro2 (b - A *m x0).
Proof. move=> x0 opA l0 bs; exact (@lsqr_mono_lemma _ _ _ _ _ opA _ _ _ _ _ _ _ _ l0 bs out). Qed.
Print Assumptions C37_lsqr_start.

Theorem C37_lsqr_limits (R : rcfType) m n (A : 'M[R]_(m, n)) op (b : 'cV[R]_m)
    (start : option 'cV[R]_n) (d atol btol conlim : R) cv (l1 l2 : option int) out1 out2 :
  let x0 := if start is Some x then x else 0 in
  let call l := lsqr op (ofcv b) d atol btol conlim l cv (omap (@ofcv R n) start) in
  lin_is op A -> b != 0 \/ start = None ->
  0 <= lim_of n l1 -> lim_of n l1 <= lim_of n l2 ->
  call l1 = Ok out1 -> call l2 = Ok out2 ->
  exists x1 x2 : 'cV[R]_n, [/\ q_x out1 = ofcv x1, q_x out2 = ofcv x2 &
    (q_itn out1 = q_itn out2 /\ x1 = x2) \/
    [/\ (q_itn out1 < q_itn out2)%N,
        fro2 (b - A *m x2) + d ^+ 2 * fro2 (x2 - x0) < fro2 (b - A *m x1) + d ^+ 2 * fro2 (x1 - x0) &
        fro2 (x1 - x0) < fro2 (x2 - x0)]].
Proof. move=> x0 call opA bs; exact: lsqr_limits_lemma. Qed.
Print Assumptions C37_lsqr_limits.

(** The condition-number estimate never exceeds the true conditioning: with
    [mu] a lower bound of the non-zero squared singular values of the damped
    operator (those on the row space of A). *)
Theorem C36_lsqr_acond (R : rcfType) m n (A : 'M[R]_(m, n)) op (b : 'cV[R]_m)
    (start : option 'cV[R]_n) (d atol btol conlim : R) cv (lim : option int) out :
  lin_is op A -> 0 <= lim_of n lim -> b != 0 \/ start = None ->
  lsqr op (ofcv b) d atol btol conlim lim cv (omap (@ofcv R n) start) = Ok out ->
  forall mu, 0 <= mu ->
  (forall c : 'cV[R]_m, let y := A^T *m c in mu * fro2 y <= fro2 (A *m y) + d ^+ 2 * fro2 y) ->
  mu * q_acond out ^+ 2 <= (fro2 A + d ^+ 2 *+ n) *+ minn m n.
Proof. move=> opA l0 bs; exact (@lsqr_acond_lemma _ _ _ _ _ opA _ _ _ _ _ _ _ _ l0 bs out). Qed.
Print Assumptions C36_lsqr_acond.

(** ** C53: LSQR terminates finitely with a least-squares solution, the one
    closest to the start.  [conlim_ok]: conlim = 0, or conlim exceeds the
    conditioning. *)
Theorem C53_lsqr_finite (R : rcfType) m n (A : 'M[R]_(m, n)) op (b : 'cV[R]_m)
    (start : option 'cV[R]_n) (d atol btol conlim : R) cv (lim : option int) out :
  let x0 := if start is Some x then x else 0 in
  let obj x := fro2 (b - A *m x) + d ^+ 2 * fro2 (x - x0) in
  lin_is op A -> 0 <= lim_of n lim -> b != 0 \/ start = None ->
  lsqr op (ofcv b) d atol btol conlim lim cv (omap (@ofcv R n) start) = Ok out ->
  exists x : 'cV[R]_n, [/\ q_x out = ofcv x, (q_itn out <= minn m n)%N &
    q_itn out = minn m n \/
    [/\ atol <= 0, btol <= 0, conlim_ok A d conlim & (minn m n <= absz (lim_of n lim))%N] ->
      (forall z, obj x <= obj z) /\
      (forall z, obj z <= obj x -> fro2 (x - x0) <= fro2 (z - x0))].
Proof. move=> x0 obj opA l0 bs; exact: lsqr_finite_opt. Qed.
Print Assumptions C53_lsqr_finite.

Example C53_conlim (R : rcfType) : conlim_ok (1%:M : 'M[R]_1) 0 3%:R.
Proof. exact: conlim_ok_wit. Qed.

(** ** C54: what is documented for damping together with a starting point
    (minimise ||A x - b||^2 + damp^2 ||x||^2, xnorm = norm(x),
    r2norm = sqrt(norm(r)^2 + damp^2 norm(x)^2)) fails. *)
Theorem C54_lsqr_damped_start_refuted (R : rcfType) :
  let A : 'M[R]_1 := 1%:M in let b : 'cV[R]_1 := const_mx 1 in
  let obj x := fro2 (b - A *m x) + 1 ^+ 2 * fro2 x in
  exists out (x z : 'cV[R]_1),
  [/\ lsqr (as_linop (ofmx A)) (ofcv b) 1 0 0 0 None false (Some (ofcv b)) = Ok out,
      q_x out = ofcv x, obj z < obj x, q_xnorm out <> fro x & q_r2norm out <> Num.sqrt (obj x)].
Proof. exact: lsqr_shift_refuted. Qed.
Print Assumptions C54_lsqr_damped_start_refuted.

(** ** C73: the variance, condition-number and norm estimates of LSQR.
    H is the matrix of the damped normal equations. *)
Theorem C73_lsqr_var (R : rcfType) m n (A : 'M[R]_(m, n)) op (b : 'cV[R]_m)
    (start : option 'cV[R]_n) (d atol btol conlim : R) cv (lim : option int) out :
  let H := A^T *m A + (d ^+ 2)%:M in
  lin_is op A -> 0 <= lim_of n lim -> b != 0 \/ start = None ->
  lsqr op (ofcv b) d atol btol conlim lim cv (omap (@ofcv R n) start) = Ok out ->
  H \in unitmx ->
  exists v : 'cV[R]_n, [/\ q_var out = ofcv v,
    cv = false -> v = 0,
    cv -> forall i, 0 <= v i 0 <= invmx H i i &
    cv -> q_itn out = n -> forall i, v i 0 = invmx H i i].
Proof. move=> H opA l0 bs; exact: lsqr_var_lemma. Qed.
Print Assumptions C73_lsqr_var.

Theorem C73_lsqr_acond (R : rcfType) m n (A : 'M[R]_(m, n)) op (b : 'cV[R]_m)
    (start : option 'cV[R]_n) (d atol btol conlim : R) cv (lim : option int) out :
  let H := A^T *m A + (d ^+ 2)%:M in
  lin_is op A -> 0 <= lim_of n lim -> b != 0 \/ start = None ->
  lsqr op (ofcv b) d atol btol conlim lim cv (omap (@ofcv R n) start) = Ok out ->
  H \in unitmx ->
  q_acond out <= q_anorm out * Num.sqrt (\tr (invmx H)) /\
  (q_itn out = n -> q_acond out = q_anorm out * Num.sqrt (\tr (invmx H))).
Proof. move=> H opA l0 bs E Hu; exact: (lsqr_cond_lemma opA l0 bs E Hu). Qed.
Print Assumptions C73_lsqr_acond.

(** The norm estimate after n iterations: exact for inconsistent systems,
    strictly too small for consistent ones. *)
Theorem C73_lsqr_anorm (R : rcfType) m n (A : 'M[R]_(m, n)) op (b : 'cV[R]_m)
    (start : option 'cV[R]_n) (d atol btol conlim : R) cv (lim : option int) out :
  let x0 := if start is Some x then x else 0 in
  lin_is op A -> 0 <= lim_of n lim -> b != 0 \/ start = None ->
  lsqr op (ofcv b) d atol btol conlim lim cv (omap (@ofcv R n) start) = Ok out ->
  (0 < n)%N -> q_itn out = n ->
  ((forall z, b - A *m x0 <> A *m z) -> q_anorm out = Num.sqrt (fro2 A + d ^+ 2 *+ n)) /\
  (forall z, b - A *m x0 = A *m z -> q_anorm out < Num.sqrt (fro2 A + d ^+ 2 *+ n)).
Proof. move=> x0 opA l0 bs; exact (@lsqr_anorm_lemma _ _ _ _ _ opA _ _ _ _ _ _ _ _ l0 bs out). Qed.
Print Assumptions C73_lsqr_anorm.

Example C73_run (R : rcfType) (cv : bool) : exists out,
  [/\ lsqr (as_linop (ofmx (1%:M : 'M[R]_1))) (ofcv (const_mx 1 : 'cV[R]_1)) 0 0 0 0 None cv None = Ok out,
      q_itn out = 1%N, (1%:M : 'M[R]_1)^T *m 1%:M + (0 ^+ 2)%:M \in @unitmx R 1 &
      q_anorm out < Num.sqrt (fro2 (1%:M : 'M[R]_1) + 0 ^+ 2 *+ 1)].
Proof. exact: lsqr_unit_run. Qed.

(** ** C74: the LSQR iterate minimises the objective over the Krylov space. *)
Theorem C74_lsqr_krylov (R : rcfType) m n (A : 'M[R]_(m, n)) op (b : 'cV[R]_m)
    (start : option 'cV[R]_n) (d atol btol conlim : R) cv (lim : option int) out :
  let x0 := if start is Some x then x else 0 in
  let obj x := fro2 (b - A *m x) + d ^+ 2 * fro2 (x - x0) in
  let kry i := iter i (fun y => A^T *m (A *m y)) (A^T *m (b - A *m x0)) in
  let K k y := exists c : nat -> R, y - x0 = \sum_(i < k) c i *: kry i in
  lin_is op A -> 0 <= lim_of n lim -> b != 0 \/ start = None ->
  lsqr op (ofcv b) d atol btol conlim lim cv (omap (@ofcv R n) start) = Ok out ->
  exists x : 'cV[R]_n, [/\ q_x out = ofcv x, K (q_itn out) x &
    forall y, K (q_itn out) y -> obj x <= obj y].
Proof. move=> x0 obj kry K opA l0 bs; exact (@lsqr_krylov_lemma _ _ _ _ _ opA _ _ _ _ _ _ _ _ l0 bs out). Qed.
Print Assumptions C74_lsqr_krylov.

Example C74_run (R : rcfType) : exists out c (x : 'cV[R]_2),
  [/\ lsqr (as_linop (ofmx (wit_D R))) (ofcv (const_mx 1 : 'cV[R]_2)) 1 0 0 0 (Some 1) false None = Ok out,
      q_x out = ofcv x, q_itn out = 1%N & x = c *: (wit_D R *m const_mx 1)].
Proof. exact: lsqr_one_iter. Qed.

(** ** C75: the PCG iterate minimises the energy over the preconditioned Krylov
    space; [size es] is the number of iterations. *)
Theorem C75_pcg_krylov (R : rcfType) n (H P : 'M[R]_n) mvH mvP (b x0 : 'cV[R]_n) (tol : R)
    (lim : int) y es :
  let err (y : 'cV[R]_n) := y - invmx H *m b in
  let energy y := ((err y)^T *m (H *m err y)) 0 0 in
  let kry i := iter i (mulmx (P *m H)) (P *m (b - H *m x0)) in
  let K k y := exists c : nat -> R, y - x0 = \sum_(i < k) c i *: kry i in
  op_is mvH H -> op_is mvP P -> spd H -> spd P -> 0 <= tol ->
  pcg mvH (ofcv b) mvP lim tol (ofcv x0) = Ok (ofcv y, es) ->
  K (size es) y /\ forall z, K (size es) z -> energy y <= energy z.
Proof. move=> err energy kry K HH HP pH pP t0; exact: (pcg_krylov_lemma HH HP pH pP t0). Qed.
Print Assumptions C75_pcg_krylov.

Example C75_hyps (R : rcfType) : exists (y : 'cV[R]_2) es,
  pcg (mv (ofmx (wit_H R))) (ofcv (const_mx 1 : 'cV[R]_2)) (mv (ofmx (1%:M : 'M[R]_2))) 5 0
    (ofcv (0 : 'cV[R]_2)) = Ok (ofcv y, es) /\ (0 < size es)%N.
Proof. exact: C29_run. Qed.
