(** LSQR: the stopping code is decided by the documented tests in their order,
    and the loop stops at the first iteration where one of them holds. *)
From mathcomp Require Import all_ssreflect all_algebra.
From mathcomp Require Import zify.
From Verif Require Import Base Arr Lapack Exact MxLib RingTac LapackSpec LapackExists Rng Pcg P_Pcg Lsqr P_Lsqr P_Iter.
Set Implicit Arguments.
Unset Strict Implicit.
Unset Printing Implicit Defensive.
Import Order.TTheory GRing.Theory Num.Theory.
Local Open Scope ring_scope.

Section First.
Context {T : Type} {O : ops T}.

Lemma istop_first (atol ctol : T) (t : lsqr_tests) :
  lsqr_istop false atol ctol t = 0%N -> lsqr_istop true atol ctol t = 7%N.
Proof. by rewrite /lsqr_istop /=; do 6! (case: ifP => // _). Qed.

Lemma lsqr_loop_first (A : linop T) damp atol btol bnorm ctol cv : forall todo j s ar s' st ar',
  lsqr_loop A damp atol btol bnorm ctol cv todo s ar = Ok (s', st, ar') ->
  (0 < j)%N -> (j + size ar < size ar')%N ->
  exists s1 ar1, lsqr_loop A damp atol btol bnorm ctol cv j s ar = Ok (s1, 7%N, ar1) /\
    size ar1 = (j + size ar)%N.
Proof.
elim=> [|todo IH] j s ar s' st ar' /=; first by case=> _ _ <-; lia.
case: j => // j; case E: (lsqr_step _ _ _ _ _ _ _) => [e|[s2 t]] //=.
case: ifP => [st0 [_ _ <-]|/negbFE/eqP st0 H _ lt]; first by rewrite size_rcons; lia.
case: todo IH st0 H => [|todo] IH st0 H.
  by case: H => _ _ e; move: lt; rewrite -e size_rcons; lia.
case: j lt => [|j] lt.
  rewrite /= E /= (istop_first st0) /=; eexists _, _; split; first reflexivity.
  by rewrite size_rcons.
have lt' : (j.+1 + size (rcons ar (s_arnorm s)) < size ar')%N by rewrite size_rcons; lia.
have [s1 [ar1 [E1 sz]]] := IH j.+1 _ _ _ _ _ H isT lt'.
exists s1, ar1; split; last by rewrite sz size_rcons; lia.
by rewrite E; move: st0; rewrite -[todo.+1 == 0%N]/false -[j.+1 == 0%N]/false => /= ->.
Qed.

(** Cutting a run short after [j] iterations reports "limit reached". *)
Lemma lsqr_first (A : linop T) b damp atol btol conlim lim cv x0 out j :
  lsqr A b damp atol btol conlim lim cv x0 = Ok out -> (0 < j < q_itn out)%N ->
  exists out1, [/\ lsqr A b damp atol btol conlim (Some j%:Z) cv x0 = Ok out1,
    q_istop out1 = 7%N & q_itn out1 = j].
Proof.
rewrite /lsqr; cbv zeta; set pre := (X in (let? (x, u, beta) := X in _)).
rewrite -/pre; case: pre => [e|[[x u] beta]] //=.
set pre2 := (X in (let? (u, v, alfa) := X in _)).
rewrite -/pre2; case: pre2 => [e|[[u' v] alfa]] //=.
set pre3 := (X in (let? v := X in _)).
rewrite -/pre3; case: pre3 => [e|v'] //=.
case: ifP => [_ [<-] /=|_]; first by rewrite andbF.
case: ifP => // _.
set s0 := LsqrSt _ _ _ _ _ _ _ _ _ _ _ _ _ _ _ _ _ _ _ _.
case E: (lsqr_loop _ _ _ _ _ _ _ _ s0 _) => [e|[[s st] ar]] //= [<-] /= /andP[j0 jlt].
have lt : (j + size ([::] : seq T) < size ar)%N by rewrite addn0.
have [s1 [ar1 [-> sz]]] := lsqr_loop_first E j0 lt.
by eexists; split; first reflexivity; rewrite //= sz addn0.
Qed.
End First.

Section Code.
Variables (R : rcfType) (m n : nat) (A : 'M[R]_(m, n)) (op : linop R).
Hypothesis opA : lin_is op A.
Variables (b : 'cV[R]_m) (start : option 'cV[R]_n) (d atol btol conlim : R) (cv : bool).
Variable lim : option int.
Hypotheses (lim0 : 0 <= lim_of n lim) (bs : b != 0 \/ start = None).
Let xs := lsqr_x0 start.
Let call l := lsqr op (ofcv b) d atol btol conlim l cv (omap (@ofcv R n) start).
Let g (x : 'cV[R]_n) := A^T *m (b - A *m x) - d ^+ 2 *: (x - xs).

Lemma lsqr_code_lemma out : call lim = Ok out -> (0 < q_itn out)%N ->
  exists x : 'cV[R]_n, q_x out = ofcv x /\
  q_istop out =
    if q_r2norm out <= btol * fro b + atol * q_anorm out * q_xnorm out then 1%N
    else if fro (g x) <= atol * (q_anorm out * q_r2norm out + 2%:R ^- 52) then 2%N
    else if (0 < conlim) && (conlim <= q_acond out + 2%:R ^- 52) then 3%N
    else if q_r2norm out == 0 then 4%N
    else if g x == 0 then 5%N else 7%N.
Proof.
move=> E itn0; have [out' [x [E' ok ac alt]]] := lsqrP opA d atol btol conlim cv lim0 bs.
have {E'}oE : out' = out by move: E'; rewrite /lsqr_call -/(call lim) E => -[].
rewrite {}oE in ok ac alt; exists x; split; first exact: lq_x ok.
case: alt => [[_ _ it0 _ _]|[[g0 b0] _ alt]]; first by rewrite it0 in itn0.
have [le _] := lq_itn ok.
case: alt => [[st0 [l0 xE]]|[st0 it0 stE]].
  by move: le itn0; rewrite l0 /=; lia.
have eps : 0 < (2%:R ^- 52 : R) := eps_gt0 R.
have r20 : 0 <= q_r2norm out by rewrite (lq_r2 ok) fro_ge0.
have den2 : 0 < q_anorm out * q_r2norm out + 2%:R ^- 52.
  by rewrite ltr_spaddr // mulr_ge0 ?(lq_an0 ok).
have den3 : 0 < q_acond out + 2%:R ^- 52 by rewrite ltr_spaddr.
have t3 : 0 < 1 / (q_acond out + 2%:R ^- 52) by rewrite div1r invr_gt0.
have den1 : 0 < 1 + q_anorm out * q_xnorm out / fro b.
  apply: ltr_spaddl ; first exact: ltr01.
  rewrite divr_ge0 ?fro_ge0 // mulr_ge0 ?(lq_an0 ok) //.
  by rewrite (lq_xn ok) fro_ge0.
have gE : (Ab A d)^T *m rb A b xs d x = g x by rewrite Ab_rb.
move: stE st0; rewrite /lsqr_istop /out_tests /= -/xs gE !ger_addl.
have -> : (q_r2norm out / fro b <= btol + atol * q_anorm out * q_xnorm out / fro b) =
    (q_r2norm out <= btol * fro b + atol * q_anorm out * q_xnorm out).
  by rewrite ler_pdivr_mulr // mulrDl mulfVK // gt_eqF.
have -> : (fro (g x) / (q_anorm out * q_r2norm out + 2%:R ^- 52) <= atol) =
    (fro (g x) <= atol * (q_anorm out * q_r2norm out + 2%:R ^- 52)) by rewrite ler_pdivr_mulr.
have -> : (fro (g x) / (q_anorm out * q_r2norm out + 2%:R ^- 52) <= 0) = (g x == 0).
  by rewrite ler_pdivr_mulr // mul0r -fro_eq0 eq_le fro_ge0 andbT.
have -> : (q_r2norm out / fro b / (1 + q_anorm out * q_xnorm out / fro b) <= 0) = (q_r2norm out == 0).
  by rewrite ler_pdivr_mulr // mul0r ler_pdivr_mulr // mul0r eq_le r20 andbT.
have -> : (1 / (q_acond out + 2%:R ^- 52) <= 0) = false by rewrite leNgt t3.
have -> : (1 / (q_acond out + 2%:R ^- 52) <= (if 0 < conlim then 1 / conlim else 0)) =
    (0 < conlim) && (conlim <= q_acond out + 2%:R ^- 52).
  case: ifP => [c0|_] /=; last by rewrite leNgt t3.
  by rewrite !div1r lef_pinv ?posrE.
move=> -> ; by do 5! (case: ifP => // _); case: ifP.
Qed.
End Code.
