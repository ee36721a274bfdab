(** Model of parla/comps/determiter/lsqr.py. *)
From mathcomp Require Import all_ssreflect all_algebra.
From Verif Require Import Base Arr Rng Pcg.
Set Implicit Arguments.
Unset Strict Implicit.
Unset Printing Implicit Defensive.

Section Lsqr.
Context {T : Type} {O : ops T}.
Local Open Scope op_scope.

(** lsqr.py 63-95: [_sym_ortho(a, b)]. *)
Definition sym_ortho (a b : T) : T * T * T :=
  if (b == o0)%O then (osign a, o0, oabs a)
  else if (a == o0)%O then (o0, osign b, oabs b)
  else if (oabs a < oabs b)%O then
    let tau := a / b in
    let s := osign b / osqrt (o1 + tau * tau) in
    let c := s * tau in
    let r := b / s in
    (c, s, r)
  else
    let tau := b / a in
    let c := osign a / osqrt (o1 + tau * tau) in
    let s := c * tau in
    let r := a / c in
    (c, s, r).

(** [A.matvec(x)] and [A.rmatvec(x)] of a LinearOperator: the argument's length
    is checked first. *)
Definition op_mv (A : linop T) (x : seq T) : res (seq T) :=
  if (lo_nc A == size x)%bool then lo_mv A x else Err ValueError.
Definition op_rmv (A : linop T) (x : seq T) : res (seq T) :=
  if (lo_nr A == size x)%bool then lo_rmv A x else Err ValueError.

(** lsqr.py 311: [aslinearoperator] of a 2-D ndarray. *)
Definition as_linop (A : arr T) : linop T :=
  LinOp (nr A) (nc A) (mv A) (mmul A) (mv (mtr A)) (mmul (mtr A)).

(** Loop variables of [lsqr] that live across iterations. *)
Record lsqr_st := LsqrSt {
  s_x : seq T; s_w : seq T; s_u : seq T; s_v : seq T;
  s_alfa : T; s_rhobar : T; s_phibar : T;
  s_anorm : T; s_acond : T; s_ddnorm : T; s_res2 : T;
  s_xnorm : T; s_xxnorm : T; s_z : T; s_cs2 : T; s_sn2 : T;
  s_arnorm : T; s_r1norm : T; s_r2norm : T; s_var : seq T }.

(** The numbers compared by the stopping tests (500-504). *)
Record lsqr_tests := LsqrTests {
  t_test1 : T; t_test2 : T; t_test3 : T; t_t1 : T; t_rtol : T }.

(** lsqr.py 421-430: the bidiagonalisation step: new u, beta, v, alfa, anorm. *)
Definition lsqr_bidiag (A : linop T) (damp : T) (s : lsqr_st) :
    res (seq T * T * seq T * T * T) :=
  let? Av := op_mv A (s_v s) in
  let? u := vsub Av (vscale (s_alfa s) (s_u s)) in
  let beta := vnorm u in
  if (o0 < beta)%O then
    let? ibeta := sdiv o1 beta in
    let u := vscale ibeta u in
    let anorm := osqrt (osq (s_anorm s) + osq (s_alfa s) + osq beta + osq damp) in
    let? Atu := op_rmv A u in
    let? v := vsub Atu (vscale beta (s_v s)) in
    let alfa := vnorm v in
    if (o0 < alfa)%O then
      let? ialfa := sdiv o1 alfa in
      Ok (u, beta, vscale ialfa v, alfa, anorm)
    else Ok (u, beta, v, alfa, anorm)
  else Ok (u, beta, s_v s, s_alfa s, s_anorm s).

(** lsqr.py 421-504: one pass of the main loop up to the stopping tests. *)
Definition lsqr_step (A : linop T) (damp atol btol bnorm : T) (calc_var : bool)
    (s : lsqr_st) : res (lsqr_st * lsqr_tests) :=
  let? (u, beta, v, alfa, anorm) := lsqr_bidiag A damp s in
  (* 434-438 *)
  let rhobar1 := osqrt (osq (s_rhobar s) + osq damp) in
  let? cs1 := sdiv (s_rhobar s) rhobar1 in
  let? sn1 := sdiv damp rhobar1 in
  let psi := sn1 * s_phibar s in
  let phibar := cs1 * s_phibar s in
  (* 442-448 *)
  let '(cs, sn, rho) := sym_ortho rhobar1 beta in
  let theta := sn * alfa in
  let rhobar := oopp cs * alfa in
  let phi := cs * phibar in
  let phibar := sn * phibar in
  let tau := sn * phi in
  (* 451-460 *)
  let? t1 := sdiv phi rho in
  let? t2 := sdiv (oopp theta) rho in
  let? irho := sdiv o1 rho in
  let dk := vscale irho (s_w s) in
  let? x := vadd (s_x s) (vscale t1 (s_w s)) in
  let? w := vadd v (vscale t2 (s_w s)) in
  let ddnorm := s_ddnorm s + osq (vnorm dk) in
  let? var := if calc_var then vadd (s_var s) (map osq dk) else Ok (s_var s) in
  (* 465-474 *)
  let delta := s_sn2 s * rho in
  let gambar := oopp (s_cs2 s) * rho in
  let rhs := phi - delta * s_z s in
  let? zbar := sdiv rhs gambar in
  let xnorm := osqrt (s_xxnorm s + osq zbar) in
  let gamma := osqrt (osq gambar + osq theta) in
  let? cs2 := sdiv gambar gamma in
  let? sn2 := sdiv theta gamma in
  let? z := sdiv rhs gamma in
  let xxnorm := s_xxnorm s + osq z in
  (* 479-483 *)
  let acond := anorm * osqrt ddnorm in
  let res1 := osq phibar in
  let res2 := s_res2 s + osq psi in
  let rnorm := osqrt (res1 + res2) in
  let arnorm := alfa * oabs tau in
  (* 492-496 *)
  let r1sq := osq rnorm - osq damp * xxnorm in
  let r1norm := osqrt (oabs r1sq) in
  let r1norm := if (r1sq < o0)%O then oopp r1norm else r1norm in
  let r2norm := rnorm in
  (* 500-504 *)
  let? test1 := sdiv rnorm bnorm in
  let? test2 := sdiv arnorm (anorm * rnorm + oeps) in
  let? test3 := sdiv o1 (acond + oeps) in
  let? q := sdiv (anorm * xnorm) bnorm in
  let? t1 := sdiv test1 (o1 + q) in
  let? q' := sdiv (atol * anorm * xnorm) bnorm in
  let rtol := btol + q' in
  Ok (LsqrSt x w u v alfa rhobar phibar anorm acond ddnorm res2 xnorm xxnorm z cs2 sn2
        arnorm r1norm r2norm var,
      LsqrTests test1 test2 test3 t1 rtol).

(** lsqr.py 511-526: the chain of stopping tests; later ones override. *)
Definition lsqr_istop (last : bool) (atol ctol : T) (t : lsqr_tests) : nat :=
  let istop := 0%N in
  let istop := if last then 7 else istop in
  let istop := if (o1 + t_test3 t <= o1)%O then 6 else istop in
  let istop := if (o1 + t_test2 t <= o1)%O then 5 else istop in
  let istop := if (o1 + t_t1 t <= o1)%O then 4 else istop in
  let istop := if (t_test3 t <= ctol)%O then 3 else istop in
  let istop := if (t_test2 t <= atol)%O then 2 else istop in
  let istop := if (t_test1 t <= t_rtol t)%O then 1 else istop in
  istop.

(** lsqr.py 412-555: [while itn < iter_lim], [todo = iter_lim - itn].  Returns
    the final state, istop and the entries written to [arnorms]; [itn] is their
    number. *)
Fixpoint lsqr_loop (A : linop T) (damp atol btol bnorm ctol : T) (calc_var : bool)
    (todo : nat) (s : lsqr_st) (arnorms : seq T) : res (lsqr_st * nat * seq T) :=
  match todo with
  | 0 => Ok (s, 0%N, arnorms)
  | todo'.+1 =>
      let arnorms := rcons arnorms (s_arnorm s) in
      let? (s', t) := lsqr_step A damp atol btol bnorm calc_var s in
      let istop := lsqr_istop (todo' == 0%N)%bool atol ctol t in
      if (istop != 0%N)%bool then Ok (s', istop, arnorms)
      else lsqr_loop A damp atol btol bnorm ctol calc_var todo' s' arnorms
  end.

(** What sits in position 7 of the returned tuple: the scalar [arnorm] on the
    early return (395), the array [arnorms] otherwise (572-574). *)
Inductive errlog := EScal of T | EArr of seq T.

(** The tuple returned by [lsqr]. *)
Record lsqr_out := LsqrOut {
  q_x : seq T; q_istop : nat; q_itn : nat; q_r1norm : T; q_r2norm : T;
  q_anorm : T; q_acond : T; q_errs : errlog; q_xnorm : T; q_var : seq T }.

(** lsqr.py 98-574: [lsqr].  [iter_lim = None] means [2 n]; a negative limit
    makes [-np.ones(iter_lim)] raise.  Printing is not modelled; [b] is 1-D.
    [b = 0] with a non-zero start leads to divisions by [bnorm = 0]
    ([Unmodelled]). *)
Definition lsqr (A : linop T) (b : seq T) (damp atol btol conlim : T)
    (iter_lim : option int) (calc_var : bool) (x0 : option (seq T)) : res lsqr_out :=
  let n := lo_nc A in
  let iter_lim := if iter_lim is Some l then l else (n.*2)%:Z%R in
  let var := vzeros n in
  let ctol := if (o0 < conlim)%O then o1 / conlim else o0 in
  let bnorm := vnorm b in
  let? (x, u, beta) :=
    match x0 with
    | None => Ok (vzeros n, b, bnorm)
    | Some x => let? Ax := op_mv A x in
                let? u := vsub b Ax in
                Ok (x, u, vnorm u)
    end in
  let? (u, v, alfa) :=
    if (o0 < beta)%O then
      let? ibeta := sdiv o1 beta in
      let u := vscale ibeta u in
      let? v := op_rmv A u in
      Ok (u, v, vnorm v)
    else Ok (u, x, o0) in
  let? v := if (o0 < alfa)%O then let? ialfa := sdiv o1 alfa in Ok (vscale ialfa v) else Ok v in
  let w := v in
  let arnorm := alfa * beta in
  if (arnorm == o0)%O then
    Ok (LsqrOut x 0 0 beta beta o0 o0 (EScal arnorm) o0 var)
  else if (iter_lim < 0)%R then Err ValueError
  else
    let? (s, istop, arnorms) :=
      lsqr_loop A damp atol btol bnorm ctol calc_var (absz iter_lim)
        (LsqrSt x w u v alfa alfa beta o0 o0 o0 o0 o0 o0 o0 (oopp o1) o0
           arnorm beta beta var) [::] in
    let errs := filter (fun e => (oopp o1 < e)%O) arnorms in
    Ok (LsqrOut (s_x s) istop (size arnorms) (s_r1norm s) (s_r2norm s) (s_anorm s)
          (s_acond s) (EArr errs) (s_xnorm s) (s_var s)).

End Lsqr.
