(** Proofs of C97: shapes, exceptions and iteration counts of the least squares and saddle
    point solvers in any arithmetic. *)
From mathcomp Require Import all_ssreflect all_algebra.
From mathcomp Require Import zify.
From Verif Require Import Base Arr Lapack Rng Aware Pcg Lsqr Precond LstSq SaddleSys Sketching Drivers Shape P_Shape.
Set Implicit Arguments.
Unset Strict Implicit.
Unset Printing Implicit Defensive.

Section LS.
Context {T : Type} {O : ops T}.
Variable X : exn -> Prop.
Hypothesis xu : X Unmodelled.
Local Notation sz n := (fun v : seq T => size v = n).

Lemma sv_mv m n (A : arr T) x : shaped m n A -> size x = n -> rsafe X (sz m) (mv A x).
Proof using Type. by case=> _ <- <- e; rewrite /mv e eqxx /= size_mkseq. Qed.
Lemma sv_tmv m n (A : arr T) x : shaped m n A -> size x = m -> rsafe X (sz n) (mv (mtr A) x).
Proof using Type. by move=> h; apply: sv_mv; exact: sh_mtr. Qed.
Lemma sv_vadd n (x y : seq T) : size x = n -> size y = n -> rsafe X (sz n) (vadd x y).
Proof using Type. by move=> <- e; rewrite /vadd e eqxx /= size_mkseq. Qed.
Lemma sv_vsub n (x y : seq T) : size x = n -> size y = n -> rsafe X (sz n) (vsub x y).
Proof using Type. by move=> <- e; rewrite /vsub e eqxx /= size_mkseq. Qed.
Lemma sv_vmul n (x y : seq T) : size x = n -> size y = n -> rsafe X (sz n) (vmul x y).
Proof using Type. by move=> <- e; rewrite /vmul e eqxx /= size_mkseq. Qed.
Lemma sv_vdiv n (x y : seq T) : size x = n -> size y = n -> rsafe X (sz n) (vdiv x y).
Proof using Type. by move=> <- e; rewrite /vdiv e eqxx /= size_mkseq. Qed.
Lemma sv_vdot n (x y : seq T) : size x = n -> size y = n -> rsafe X (fun _ => True) (vdot x y).
Proof using Type. by move=> <- e; rewrite /vdot e eqxx. Qed.
Lemma sv_sdiv (a b : T) : rsafe X (fun _ => True) (sdiv a b).
Proof using xu. by rewrite /sdiv; case: ifP. Qed.
Lemma sv_scale n a (x : seq T) : size x = n -> size (vscale a x) = n.
Proof using Type. by move=> <-; rewrite size_mkseq. Qed.

Lemma sz_fsub (a : nat -> nat -> T) b n : size (fsub a b n) = n.
Proof using Type. by elim: n => //= n IH; rewrite size_rcons IH. Qed.
Lemma sv_solve n lo tr (R : arr T) b : X LinAlgError -> shaped n n R -> size b = n ->
  rsafe X (sz n) (solve_tri_v lo tr R b).
Proof using Type.
move=> xl [_ a c] e; rewrite /solve_tri_v /tri_check a c e eqxx /=; case: ifP => //= _.
by rewrite /tri_vec; case: (_ (+) _); rewrite ?size_rev sz_fsub.
Qed.

(** A linear operator of shape (m, n). *)
Definition linsh m n (A : linop T) : Prop :=
  [/\ lo_nr A = m, lo_nc A = n, forall x, size x = n -> rsafe X (sz m) (lo_mv A x)
    & forall x, size x = m -> rsafe X (sz n) (lo_rmv A x)].
Lemma sv_op m n A x : linsh m n A -> size x = n -> rsafe X (sz m) (op_mv A x).
Proof using Type. by case=> _ a h _ e; rewrite /op_mv a e eqxx; exact: h. Qed.
Lemma sv_opr m n A x : linsh m n A -> size x = m -> rsafe X (sz n) (op_rmv A x).
Proof using Type. by case=> a _ _ h e; rewrite /op_rmv a e eqxx; exact: h. Qed.
Lemma linsh_tr m n A : linsh m n A -> linsh n m (Precond.lo_tr A).
Proof using Type. by case. Qed.

(** lsqr *)
Definition stsh m n (s : @lsqr_st T) : Prop :=
  [/\ size (s_x s) = n, size (s_w s) = n, size (s_u s) = m, size (s_v s) = n & size (s_var s) = n].

Lemma rs_anyb Y Z (P : Z -> Prop) (c : res Y) f : rsafe X (fun _ => True) c -> (forall y, rsafe X P (f y)) -> rsafe X P (rbind c f).
Proof using Type. by move=> h hf; apply: rsafe_bind h _ => y _. Qed.

Lemma sv_bidiag m n A damp s : linsh m n A -> stsh m n s ->
  rsafe X (fun x => size x.1.1.1.1 = m /\ size x.1.1.2 = n) (lsqr_bidiag A damp s).
Proof using xu.
move=> hA [hx hw hu hv hvar]; apply: rsafe_bind (sv_op hA hv) _ => Av eAv.
apply: rsafe_bind (sv_vsub eAv (sv_scale _ hu)) _ => u eu; cbv zeta.
case: ifP => // _; apply: rs_anyb (sv_sdiv _ _) _ => ib.
apply: rsafe_bind (sv_opr hA (sv_scale _ eu)) _ => Atu eAtu.
apply: rsafe_bind (sv_vsub eAtu (sv_scale _ hv)) _ => v ev.
case: ifP => _; last by rewrite /= !size_mkseq.
by apply: rs_anyb (sv_sdiv _ _) _ => ia; rewrite /= !size_mkseq.
Qed.

Lemma sv_step m n A damp atol btol bnorm cv s : linsh m n A -> stsh m n s ->
  rsafe X (fun x => stsh m n x.1) (lsqr_step A damp atol btol bnorm cv s).
Proof using xu.
move=> hA hs; apply: rsafe_bind (sv_bidiag damp hA hs) _ => -[[[[u beta] v] alfa] anorm] /= [eu ev].
have [hx hw hu hv hvar] := hs.
cbv zeta.
apply: rs_anyb (sv_sdiv _ _) _ => cs1; apply: rs_anyb (sv_sdiv _ _) _ => sn1.
case: (sym_ortho _ _) => [[cs sn] rho].
apply: rs_anyb (sv_sdiv _ _) _ => t1; apply: rs_anyb (sv_sdiv _ _) _ => t2; apply: rs_anyb (sv_sdiv _ _) _ => irho.
apply: rsafe_bind (sv_vadd hx (sv_scale _ hw)) _ => x ex.
apply: rsafe_bind (sv_vadd ev (sv_scale _ hw)) _ => w ew.
apply: (rsafe_bind (Q := sz n)).
  by case: ifP => // _; apply: sv_vadd => //; rewrite size_map size_mkseq.
move=> var evar.
by do 10 (apply: rs_anyb (sv_sdiv _ _) _ => ?).
Qed.

Lemma sv_lsqr_loop m n A damp atol btol bnorm ctol cv : linsh m n A -> forall todo s arn, stsh m n s ->
  rsafe X (fun x => stsh m n x.1.1 /\ (size x.2 <= size arn + todo)%N) (lsqr_loop A damp atol btol bnorm ctol cv todo s arn).
Proof using xu.
move=> hA; elim=> [|todo IH] s arn hs /=; first by rewrite addn0.
apply: rsafe_bind (sv_step _ _ _ _ _ hA hs) _ => -[s' t] /= hs'.
case: ifP => _; first by rewrite /= size_rcons addnS ltnS leq_addr.
by apply: rsafe_weak (IH _ _ hs') _ => x; rewrite size_rcons addSnnS.
Qed.

Definition errs_le (k : nat) (e : @errlog T) : Prop := if e is EArr es then (size es <= k)%N else True.

Lemma sv_lsqr m n A b damp atol btol conlim (it : int) cv x0 : linsh m n A -> size b = m -> (0 <= it)%R ->
  (if x0 is Some x then size x = n else True) ->
  rsafe X (fun q => [/\ size (q_x q) = n, (q_itn q <= absz it)%N, errs_le (absz it) (q_errs q) & size (q_var q) = n])
    (lsqr A b damp atol btol conlim (Some it) cv x0).
Proof using xu.
move=> hA eb it0 e0; have [a1 a2 _ _] := hA; rewrite /lsqr a2.
apply: (rsafe_bind (Q := fun x => size x.1.1 = n /\ size x.1.2 = m)).
  case: x0 e0 => [x ex|_] /=; last by rewrite /vzeros size_nseq.
  by apply: rsafe_bind (sv_op hA ex) _ => Ax eAx; apply: rsafe_bind (sv_vsub eb eAx) _ => u eu.
move=> [[x u] beta] /= [ex eu].
apply: (rsafe_bind (Q := fun y => size y.1.1 = m /\ size y.1.2 = n)).
  case: ifP => // _; apply: rs_anyb (sv_sdiv _ _) _ => ib.
  by apply: rsafe_bind (sv_opr hA (sv_scale _ eu)) _ => v ev; rewrite /= size_mkseq.
move=> [[u' v] alfa] /= [eu' ev].
apply: (rsafe_bind (Q := sz n)).
  by case: ifP => // _; apply: rs_anyb (sv_sdiv _ _) _ => ia; rewrite /= size_mkseq.
move=> v' ev'; case: ifP => _; first by split=> //=; rewrite /vzeros size_nseq.
rewrite (_ : (it < 0)%R = false) /=; last by lia.
apply: rsafe_bind (sv_lsqr_loop _ _ _ _ _ _ hA (absz it) _ _) _ => [|[[s istop] arn] /= [[hx _ _ _ hv] ha]].
  by split=> //=; rewrite /vzeros size_nseq.
by split=> //=; rewrite size_filter; apply: leq_trans (count_size _ _) _.
Qed.

(** pcg *)
Lemma sv_pcg_loop n f g rhs rt : (forall x, size x = n -> rsafe X (sz n) (f x)) -> (forall x, size x = n -> rsafe X (sz n) (g x)) ->
  size rhs = n -> forall todo i x r d delta ce rs, size x = n -> size r = n -> size d = n ->
  rsafe X (fun y => size y.1 = n /\ (size y.2 <= size rs + todo)%N) (pcg_loop f g rhs rt todo i x r d delta ce rs).
Proof using xu.
move=> hf hg er; elim=> [|todo IH] i x r d delta ce rs ex err ed /=; first by rewrite addn0.
case: ifP => _; last by rewrite /= leq_addr.
apply: rsafe_bind (hf _ ed) _ => q eq; apply: rs_anyb (sv_vdot ed eq) _ => den.
apply: rs_anyb (sv_sdiv _ _) _ => al.
apply: rsafe_bind (sv_vadd ex (sv_scale _ ed)) _ => x1 ex1.
apply: (rsafe_bind (Q := sz n)).
  case: ifP => _; last exact: (sv_vsub err (sv_scale _ eq)).
  by apply: rsafe_bind (hf _ ex1) _ => Hx eHx; exact: sv_vsub.
move=> r1 er1; apply: rsafe_bind (hg _ er1) _ => s1 es1.
apply: rs_anyb (sv_vdot er1 es1) _ => d'; apply: rs_anyb (sv_sdiv _ _) _ => be.
apply: rsafe_bind (sv_vadd es1 (sv_scale _ ed)) _ => d1 ed1.
by apply: rsafe_weak (IH _ _ _ _ _ _ _ ex1 er1 ed1) _ => y; rewrite size_rcons addSnnS.
Qed.

Lemma sv_pcg n f g rhs (it : int) tol x0 : (forall x, size x = n -> rsafe X (sz n) (f x)) ->
  (forall x, size x = n -> rsafe X (sz n) (g x)) -> size rhs = n -> size x0 = n -> (0 <= it)%R ->
  rsafe X (fun y => size y.1 = n /\ (size y.2 <= absz it)%N) (pcg f rhs g it tol x0).
Proof using xu.
move=> hf hg er ex it0; rewrite /pcg (_ : (it < 0)%R = false) /=; last by lia.
apply: rsafe_bind (hf _ ex) _ => Hx eHx; apply: rsafe_bind (sv_vsub er eHx) _ => r1 er1.
apply: rsafe_bind (hg _ er1) _ => d ed; apply: rs_anyb (sv_vdot er1 ed) _ => de.
exact: (sv_pcg_loop _ hf hg er).
Qed.

(** PcSS1, PcSS2 *)
Lemma sh_cdiv m n (A : arr T) v : shaped m n A -> size v = n -> rsafe X (shaped m n) (cdiv A v).
Proof using Type. by case=> _ <- <- e; rewrite /cdiv e eqxx; exact: sh_mk. Qed.
Lemma sh_cmul m n (A : arr T) v : shaped m n A -> size v = n -> rsafe X (shaped m n) (cmul A v).
Proof using Type. by case=> _ <- <- e; rewrite /cmul e eqxx; exact: sh_mk. Qed.
Lemma sv_nz v : rsafe X (fun _ => True) (nz_check v : res unit).
Proof using xu. by rewrite /nz_check; case: ifP. Qed.

Lemma sv_lowrank n c delta (R : arr T) : (c = 0%N -> X IndexError) -> shaped n c R ->
  rsafe X (fun RV => shaped n c RV.1 /\ shaped n c RV.2) (pcss1_lowrank delta R).
Proof using xu.
move=> c0 sR; have [_ _ e2] := sR; rewrite /pcss1_lowrank.
have ec : size (colnorms R) = c by rewrite size_mkseq.
apply: rs_anyb (sv_nz _) _ => _.
apply: rsafe_bind (sh_cmul sR _) _ => [|V sV]; first by rewrite !size_map size_iota.
have: size [seq osqrt (osq s + delta)%O | s <- [seq (o1 / x)%O | x <- colnorms R]] = c by rewrite !size_map size_iota.
case: [seq osqrt _ | _ <- _] => [|y ys] ey; first exact: c0.
apply: rs_anyb (sv_nz _) _ => _.
by apply: rsafe_bind (sh_cdiv sV _) _ => [|R' sR']; first by rewrite size_mkseq.
Qed.

Lemma sv_mvpre n c c' (R : arr T) V x : shaped n c R -> (if V is Some V then shaped n c' V else True) -> size x = n ->
  rsafe X (sz n) (pcss1_mv_pre R V x).
Proof using Type.
move=> sR sV ex; apply: rsafe_bind (sv_tmv sR ex) _ => w ew; apply: rsafe_bind (sv_mv sR ew) _ => y ey.
case: V sV => [V|_] // sV; apply: rsafe_bind (sv_vadd ey ex) _ => y2 ey2.
apply: rsafe_bind (sv_tmv sV ex) _ => w2 ew2; apply: rsafe_bind (sv_mv sV ew2) _ => y3 ey3.
exact: sv_vsub.
Qed.

Lemma sv_gram m n (A : arr T) delta x : shaped m n A -> size x = n -> rsafe X (sz n) (mv_gram A delta x).
Proof using Type.
move=> sA ex; apply: rsafe_bind (sv_mv sA ex) _ => w ew; apply: rsafe_bind (sv_tmv sA ew) _ => y ey.
exact: (sv_vadd ey (sv_scale _ ex)).
Qed.

Definition sout_shape (m n : nat) (it : int) (o : @sout T) : Prop :=
  [/\ optsz n (o_x o), size (o_y o) = m & errs_le (absz it) (o_errs o)].

Lemma sv_PcSS1 m n c (A : arr T) b cc delta tol (it : int) (R : arr T) z0 : (c = 0%N -> X IndexError) -> shaped m n A -> shaped n c R ->
  optsz m b -> optsz n cc -> optsz c z0 -> (0 <= it)%R ->
  rsafe X (fun o => [/\ sout_shape m n it o, exists x, o_x o = Some x, exists es, o_errs o = EArr es & shaped n c (o_R o)]) (PcSS1 A b cc delta tol it R false z0).
Proof using xu.
move=> c0 sA sR eb ec ez it0; have [_ a1 a2] := sA; have [_ b1 b2] := sR; rewrite /PcSS1 a1 a2 b2.
pose (b' := if b is Some b then b else vzeros m).
have eb' : size b' = m by rewrite /b'; move: eb; case: (b) => [v|] //= _; rewrite /vzeros size_nseq.
apply: (rsafe_bind (Q := fun RV => shaped n c RV.1 /\ (if RV.2 is Some V then shaped n c V else True))).
  by case: eqP => // _; apply: rsafe_bind (sv_lowrank delta c0 sR) _ => -[R' V] [].
move=> [R' V] /= [sR' sV]; rewrite -/b'.
apply: rsafe_bind (sv_tmv sA eb') _ => rhs erhs.
apply: (rsafe_bind (Q := sz n)); first by case: cc ec => [cc|] //= ec; exact: sv_vsub.
move=> rhs' erhs'.
apply: (rsafe_bind (Q := sz n)).
  case: z0 ez => [z|_]; last by rewrite /= size_nseq.
  by move=> ez; case: ifP => _; [exact: sv_mv ez|rewrite /= size_nseq].
move=> x0 ex0.
apply: rsafe_bind (sv_pcg _ (fun x => sv_gram delta sA (x := x)) (fun x => sv_mvpre sR' sV (x := x)) erhs' ex0 it0) _ => -[x rs] /= [ex ers].
apply: rsafe_bind (sv_mv sA ex) _ => Ax eAx; apply: rsafe_bind (sv_vsub eb' eAx) _ => y ey.
by split=> //; [exists x|exists rs].
Qed.

Lemma zero_reg : zero_ok T -> reg_ok o0.
Proof using Type. by case=> a b; rewrite /reg_ok a b. Qed.

Lemma sh_alift m n (A : arr T) s : shaped m n A -> rsafe X (shaped (if oeq s o0 then m else m + n) n) (a_lift A s).
Proof using Type.
move=> sA; have [_ _ a2] := sA; rewrite /a_lift; case: ifP => // _; apply: sh_vstack => //.
by rewrite a2; exact: sh_mk.
Qed.

Lemma sv_fwd n c (R : arr T) (ut : bool) z : (ut -> X LinAlgError /\ c = n) -> shaped n c R -> size z = c -> rsafe X (sz n) (M_fwd R ut z).
Proof using Type.
case: ut => [[]// xl e|_] sR ez; last exact: sv_mv ez.
by rewrite e in sR ez; exact: sv_solve.
Qed.
Lemma sv_adj n c (R : arr T) (ut : bool) z : (ut -> X LinAlgError /\ c = n) -> shaped n c R -> size z = n -> rsafe X (sz c) (M_adj R ut z).
Proof using Type.
case: ut => [[]// xl e|_] sR ez; last exact: sv_tmv ez.
by rewrite e in sR *; exact: sv_solve.
Qed.

Lemma sv_lift_precond m n c (A R : arr T) delta (ut : bool) : reg_ok delta -> (ut -> X LinAlgError /\ c = n) ->
  shaped m n A -> shaped n c R ->
  rsafe X (linsh (if olt o0 delta then m + n else m) c) (a_lift_precond A delta R ut 1).
Proof using xu.
move=> ok hut sA sR; have [_ a1 a2] := sA; have [_ b1 b2] := sR; rewrite /a_lift_precond /=; case: (olt delta o0) => //.
apply: rsafe_bind (sh_alift (osqrt delta) sA) _ => Al; rewrite ok if_neg => sAl; have [_ c1 c2] := sAl.
split=> //= x ex.
  by apply: rsafe_bind (sv_fwd hut sR ex) _ => w ew; exact: sv_mv ew.
have ez : size (vtop m x) = m by rewrite size_takel // ex; case: (olt _ _); rewrite ?leq_addr.
apply: (rsafe_bind (Q := sz n)); first by rewrite a1; exact: sv_tmv ez.
move=> w ew; apply: (rsafe_bind (Q := sz n)).
  case: ifP ex => // _ ex; apply: (sv_vadd ew); apply: sv_scale.
  by rewrite size_drop ex a1 addKn.
by move=> w2; apply: sv_adj.
Qed.

Lemma sv_PcSS2_b m n c (A : arr T) b cc delta tol (it : int) (R : arr T) (ut : bool) z0 : reg_ok delta ->
  (ut -> X LinAlgError /\ c = n) -> shaped m n A -> shaped n c R -> size b = m -> none_or_0 cc ->
  optsz c z0 -> (0 <= it)%R ->
  rsafe X (fun o => [/\ sout_shape m n it o, exists x, o_x o = Some x & o_R o = R]) (PcSS2 A (Some b) cc delta tol it R ut z0).
Proof using xu.
move=> ok hut sA sR eb nc0 ez it0; have [_ a1 a2] := sA; rewrite /PcSS2 a1 a2 nc0.
apply: rsafe_bind (sv_lift_precond ok hut sA sR) _ => Ap hAp.
have eb' : size (if olt o0 delta then b ++ vzeros n else b) = (if olt o0 delta then m + n else m)%N.
  by case: ifP => //; rewrite size_cat /vzeros size_nseq eb.
apply: rsafe_bind (sv_lsqr _ _ _ _ _ hAp eb' it0 _) _ => [|q [e1 e2 e3 _]]; first by case: z0 ez.
apply: rsafe_bind (sv_fwd hut sR e1) _ => x ex; apply: rsafe_bind (sv_mv sA ex) _ => Ax eAx.
apply: rsafe_bind (sv_vsub _ eAx) _ => [|y ey].
  by rewrite size_takel // eb'; case: (olt _ _); rewrite ?leq_addr.
by split=> //; exists x.
Qed.

Lemma sv_PcSS2_c m n c (A : arr T) b cc delta tol (it : int) (R : arr T) (ut : bool) z0 : reg_ok delta ->
  (ut -> X LinAlgError /\ c = n) -> shaped m n A -> shaped n c R -> size cc = n -> ~~ none_or_0 (Some cc) -> none_or_0 b ->
  (0 <= it)%R ->
  rsafe X (fun o => sout_shape m n it o /\ o_R o = R) (PcSS2 A b (Some cc) delta tol it R ut z0).
Proof using xu.
move=> ok hut sA sR ec nc0 nb it0; have [_ a1 a2] := sA; rewrite /PcSS2 a1 a2 (negbTE nc0) nb.
apply: rsafe_bind (sv_lift_precond ok hut sA sR) _ => Ap hAp.
apply: rsafe_bind (sv_adj hut sR ec) _ => cp ecp.
apply: rsafe_bind (sv_lsqr _ _ _ _ _ (linsh_tr hAp) ecp it0 _) _ => // q [e1 e2 e3 _].
case: ifP e1 => od e1; last by [].
have e1' : size (vtop m (q_x q)) = m by rewrite size_takel // e1 leq_addr.
apply: rsafe_bind (sv_tmv sA e1') _ => w ew; apply: rsafe_bind (sv_vsub ew ec) _ => x ex.
by split=> //; split=> //=; rewrite size_mkseq.
Qed.
End LS.

(** A sketching operator of shape (d, m), dense or sparse. *)
Definition sksh {T} {O : ops T} (d m : nat) (S : pyop T) : Prop :=
  exists2 B, S = PyArr B \/ S = PySp B & shaped d m B.

Section Sj.
Context {T : Type} {O : ops T} {G : Type}.
Variables (X : exn -> Prop) (r : rng_ops G T).

Lemma safe_any Y (f : G -> G * Y) : safe X (fun _ => True) (getgen f : M G T Y).
Proof. by move=> s; rewrite /getgen; case: (f _). Qed.
Lemma safe_choice p k b : (0 < p)%N -> b || (k <= p)%N -> safe X (fun _ => True) (choice r p k b).
Proof. by move=> p0 h; rewrite /choice p0 h; exact: safe_any. Qed.
Lemma safe_repeat n Y (c : M G T Y) : safe X (fun _ => True) c -> safe X (fun _ => True) (repeatM n c).
Proof.
move=> h; elim: n => [|n IH] /=; first exact: safe_ret.
by apply: safe_bind h _ => x _; apply: safe_bind IH _ => xs _; exact: safe_ret.
Qed.
Lemma safe_sjlt_wide m n nnz : (0 < m)%N -> (0 < n)%N -> safe X (sksh m n) (sjlt_wide r m n nnz).
Proof.
move=> m0 n0; rewrite /sjlt_wide; apply: (safe_bind (Q := fun _ => True)); first by case: ifP => _ s.
move=> _ _; apply: safe_bind (safe_repeat _ (safe_choice m0 _)) _ => [|rv _]; first by rewrite ltnNge orNb.
rewrite (gtn_eqF n0); apply: safe_bind (safe_any _) _ => u _; apply: safe_ret.
by apply: (ex_intro2 _ _ _ (or_intror erefl)); exact: sh_mk.
Qed.
Lemma safe_sj nnz d m : (0 < d)%N -> (0 < m)%N -> safe X (sksh d m) (skopSJ r nnz d m).
Proof.
move=> d0 m0; apply: safe_rng; case: ifP => _; first exact: safe_sjlt_wide.
apply: safe_bind (safe_sjlt_wide nnz m0 d0) _ => _ [B [->|->] sB]; apply: safe_ret.
  by exists (mtr B); [left|exact: sh_mtr].
by exists (mtr B); [right|exact: sh_mtr].
Qed.
End Sj.

Section Solvers.
Context {T : Type} {O : ops T} {G : Type}.
Variables (X : exn -> Prop) (L : lapack T) (gen : nat -> nat -> M G T (pyop T)).
Hypotheses (lsh : lap_shapes X L) (gsh : forall d m, (0 < d)%N -> (0 < m)%N -> safe X (sksh d m) (gen d m)).
Local Notation sz n := (fun v : seq T => size v = n).

Lemma sk_r d m n (S : pyop T) A : sksh d m S -> shaped m n A -> rsafe X (shaped d n) (mul_r S A).
Proof. by case=> B [->|->] sB sA; exact: sh_mmul sA. Qed.
Lemma sk_l d m n (S : pyop T) A : sksh m n S -> shaped d m A -> rsafe X (shaped d n) (mul_l A S).
Proof. by case=> B [->|->] sB sA; exact: sh_mmul sB. Qed.
Lemma sk_rv d m (S : pyop T) x : sksh d m S -> size x = m -> rsafe X (sz d) (mul_rv S x).
Proof. by case=> B [->|->] sB sA; exact: sv_mv sA. Qed.
Lemma sk_trv d m (S : pyop T) x : sksh d m S -> size x = d -> rsafe X (sz m) (mul_trv S x).
Proof. by case=> B [->|->] sB sA; exact: sv_tmv sA. Qed.

Lemma safe_dim sf m n : (n <= m)%N -> sf_ok sf n ->
  safe X (fun d => n <= d <= m)%N (dim_checks sf m n : M G T nat).
Proof.
move=> nm sf1; apply: safe_passert => //; rewrite /sf_ok in sf1; cbv zeta; move: (trunc_rat _) sf1 => d sf1.
apply: (safe_bind (Q := fun d => (n%:Z <= d <= m%:Z)%R)).
  by case: ifP => h; [apply: safe_emit|]; apply: safe_ret; lia.
move=> d' h; apply: safe_passert; first by lia.
by apply: safe_ret; lia.
Qed.

Lemma sv_lstsq m n A b : (0 < m)%N -> (0 < n)%N -> shaped m n A -> size b = m -> rsafe X (sz n) (lstsq_v L A b).
Proof using lsh.
move=> m0 n0 sA eb; apply: rsafe_bind (lsh_lstsq lsh m0 n0 (ltn0Sn 0) sA (_ : shaped m 1 (vcol b))) _.
  by rewrite -eb; exact: sh_mk.
by move=> B [_ e _]; rewrite /= size_mkseq.
Qed.

Lemma safe_SSO1 sf m n A b delta tol it : (0 < n <= m)%N -> sf_ok sf n -> shaped m n A -> size b = m ->
  safe X (sz n) (SSO1 L gen sf A b delta tol it).
Proof using lsh gsh.
move=> nm sf1 sA eb; have [_ a1 a2] := sA; have /andP[n0 nm'] := nm; have m0 := leq_trans n0 nm'.
rewrite /SSO1 a1 a2; apply: (safe_bind (Q := fun _ => True)); first by case: tol => [x|]; [move=> s|exact: safe_ret].
move=> _ _; apply: (safe_bind (Q := fun _ => True)); first by case: ifP => _; [move=> s|exact: safe_ret].
move=> _ _; apply: safe_bind (safe_dim nm' sf1) _ => d /andP[nd dm]; have d0 := leq_trans n0 nd.
apply: safe_bind (safe_emit _ (gsh d0 m0)) _ => S sS.
apply: safe_bind (safe_lift (sk_r sS sA)) _ => As sAs.
apply: safe_bind (safe_lift (sk_rv sS eb)) _ => bs ebs.
case: ifP => _; last by apply: safe_lift; exact: (sv_lstsq d0 n0 sAs ebs).
apply: safe_bind (safe_lift (sh_vstack X sAs (_ : shaped n n (mscale (osqrt delta) (meye n))))) _ => [|Al sAl].
  exact: sh_mk.
apply: safe_lift; apply: (sv_lstsq (m := (d + n)%N)) => //; first by rewrite addn_gt0 d0.
by rewrite size_cat /vzeros size_nseq ebs.
Qed.

Lemma sv_srp2 d n (A : arr T) : (0 < n <= d)%N -> shaped d n A ->
  rsafe X (fun x => exists c, [/\ (c <= n)%N, shaped n c x.1.1.1, shaped d c x.1.1.2, size x.1.2 = c & shaped c n x.2]) (svd_right_precond L A).
Proof using lsh.
move=> /andP[n0 nd] sA; have d0 := leq_trans n0 nd; have [_ a1 a2] := sA.
have := lsh_svd lsh d0 n0 sA; rewrite (minn_idPr nd) => h.
apply: rsafe_bind h _ => -[[U sg] Vh] /= [sU es sV].
case Es: (size sg) => [|q]; first by rewrite -es Es in n0.
set rk := count _ _.
have rks : (rk <= n)%N by rewrite -es; exact: count_size.
have ev : size (vslice sg 0 rk) = rk by rewrite size_vslice0 es; apply/minn_idPl.
have sV' : shaped rk n (rslice Vh 0 rk) by apply: sh_rslice sV _; rewrite /slen; lia.
apply: rsafe_bind (sh_cdiv X (sh_mtr sV') ev) _ => Mp sM; exists rk; split=> //=.
by apply: sh_cslice sU _; rewrite /slen; lia.
Qed.

Lemma sv_srp d n (A : arr T) : (0 < n <= d)%N -> shaped d n A ->
  rsafe X (fun x => exists c, [/\ shaped n c x.1.1.1, shaped d c x.1.1.2, size x.1.2 = c & shaped c n x.2]) (svd_right_precond L A).
Proof using lsh. by move=> h sA; apply: rsafe_weak (sv_srp2 h sA) _ => x [c [_ a b e f]]; exists c. Qed.

Lemma sh_skelift d n (A : arr T) delta : shaped d n A ->
  rsafe X (shaped (if olt o0 delta then d + n else d) n) (ske_lift A delta n).
Proof. by move=> sA; rewrite /ske_lift; case: ifP => // _; apply: sh_vstack => //; exact: sh_mk. Qed.

Lemma sv_spo_factor md (S : pyop T) (A : arr T) b delta d m n : md <> MOther -> (mode_tri md -> X LinAlgError) ->
  (0 < n <= d)%N -> sksh d m S -> shaped d n A -> size b = m ->
  rsafe X (fun x => exists2 c, (mode_tri md -> X LinAlgError /\ c = n) & [/\ shaped n c x.1.1, size x.1.2 = c & size x.2 = n])
    (spo_factor L md S A b delta d n).
Proof using lsh.
move=> hmd xl /andP[n0 nd] sS sA eb; case: md hmd xl => // _ xl.
- apply: rsafe_bind (sh_skelift delta sA) _ => Al; set D := if _ then _ else _ => sAl.
  have dD : (d <= D)%N by rewrite /D; case: ifP => _; rewrite ?leq_addr.
  apply: rsafe_bind (safe_qr lsh n0 (leq_trans nd dD) sAl) _ => -[Q R] /= [sQ sR].
  apply: rsafe_bind (sk_rv sS eb) _ => bs ebs.
  apply: rsafe_bind (sv_tmv _ (_ : shaped d n (rslice Q 0 d)) ebs) _ => [|z ez].
    by apply: sh_rslice sQ _; rewrite /slen; lia.
  apply: rsafe_bind (sv_solve false false (xl isT) sR ez) _ => x ex.
  by exists n; first by split=> //; exact: xl.
- have sG : shaped n n (gram_ske A delta) by case: sA => _ _ <-; exact: sh_mk.
  apply: rsafe_bind (sh_chol (xl isT) sG) _ => Lo sLo; have sR := sh_mtr sLo.
  apply: rsafe_bind (sk_rv sS eb) _ => bs ebs.
  apply: rsafe_bind (sv_tmv _ sA ebs) _ => w ew.
  apply: rsafe_bind (sv_solve false true (xl isT) sR ew) _ => z ez.
  apply: rsafe_bind (sv_solve false false (xl isT) sR ez) _ => x ex.
  by exists n; first by split=> //; exact: xl.
- apply: rsafe_bind (sh_skelift delta sA) _ => Al; set D := if _ then _ else _ => sAl.
  have dD : (d <= D)%N by rewrite /D; case: ifP => _; rewrite ?leq_addr.
  apply: rsafe_bind (sv_srp (_ : (0 < n <= D)%N) sAl) _ => [|[[[R U] sg] Vh] /= [c [sR sU es sV]]].
    by rewrite n0 (leq_trans nd dD).
  apply: rsafe_bind (sk_rv sS eb) _ => bs ebs.
  apply: rsafe_bind (sv_tmv _ (_ : shaped d c (rslice U 0 d)) ebs) _ => [|z ez].
    by apply: sh_rslice sU _; rewrite /slen; lia.
  by apply: rsafe_bind (sv_mv _ sR ez) _ => x ex; exists c.
Qed.

Lemma sv_wrap l e x (it : int) : X ValueError -> errs_le (absz it) e -> rsafe X (log_le true it) (wrap_up l e x).
Proof. by move=> xv; case: e => //= es h; do 2 eexists; split=> //=; rewrite !size_map ?size_mkseq ?size_iota. Qed.
Lemma sv_wrapA l es x (it : int) : (size es <= absz it)%N -> rsafe X (log_le true it) (wrap_up l (EArr es) x).
Proof. by move=> /= h; do 2 eexists; split=> //=; rewrite !size_map ?size_mkseq ?size_iota. Qed.

Lemma safe_SPO sf md m n A b delta tol (it : int) (lg : bool) clk : X Unmodelled -> (lg -> X ValueError) ->
  md <> MOther -> (mode_tri md -> X LinAlgError) ->
  (0 < n <= m)%N -> sf_ok sf n -> reg_ok delta -> shaped m n A -> size b = m -> (0 <= it)%R ->
  safe X (fun xl => size xl.1 = n /\ log_le lg it xl.2) (SPO L gen sf md A b delta tol it lg clk).
Proof using lsh gsh.
move=> xu xv hmd xl nm sf1 rok sA eb it0; have [_ a1 a2] := sA; have /andP[n0 nm'] := nm; have m0 := leq_trans n0 nm'.
rewrite /SPO a1 a2; case: (olt delta o0); first exact: safe_raise.
apply: safe_bind (safe_dim nm' sf1) _ => d /andP[nd dm]; have d0 := leq_trans n0 nd.
apply: safe_bind (safe_emit _ (gsh d0 m0)) _ => S sS.
apply: safe_bind (safe_lift (sk_r sS sA)) _ => As sAs.
apply: safe_bind (safe_lift (sv_spo_factor delta hmd xl (_ : (0 < n <= d)%N) sS sAs eb)) _ => [|]; first by rewrite n0.
move=> [[R z] x] /= [c hc [sR ez ex]].
apply: (safe_bind (Q := optsz c)).
  apply: safe_lift; apply: rsafe_bind (sv_mv X sA ex) _ => Ax eAx.
  by apply: rsafe_bind (sv_vsub X eAx eb) _ => rr er /=; case: (spo_reject _ _).
move=> z0 ez0.
apply: safe_bind (safe_lift (sv_PcSS2_b xu tol rok hc sA sR eb (isT : none_or_0 None) ez0 it0)) _ => o [[ox oy oe] [xx exx] oR].
apply: (safe_bind (Q := log_le lg it)).
  case: lg xv => xv; last by apply: safe_ret.
  apply: safe_lift; apply: rsafe_bind (sv_tmv X sA eb) _ => w ew; apply: rsafe_bind (sv_adj hc sR ew) _ => w2 ew2.
  by apply: sv_wrap => //; exact: xv.
move=> lo hlo; rewrite exx; apply: safe_ret; split=> //=; by rewrite exx in ox.
Qed.

Lemma safe_SPU1 sf m n A c tol (it : int) (lg : bool) clk : X Unmodelled -> (lg -> X ValueError) ->
  zero_ok T -> (oeq (vnorm c) o0 -> X TypeError) ->
  (0 < n <= m)%N -> sf_ok sf n -> shaped m n A -> size c = n -> (0 <= it)%R ->
  safe X (fun yl => size yl.1 = m /\ log_le lg it yl.2) (SPU1 L gen sf A c tol it lg clk).
Proof using lsh gsh.
move=> xu xv zk xc nm sf1 sA ec it0; have rok := zero_reg zk; have [_ a1 a2] := sA; have /andP[n0 nm'] := nm; have m0 := leq_trans n0 nm'.
rewrite /SPU1 a1 a2.
apply: safe_bind (safe_dim nm' sf1) _ => d /andP[nd dm]; have d0 := leq_trans n0 nd.
apply: safe_bind (safe_emit _ (gsh d0 m0)) _ => S sS.
apply: safe_bind (safe_lift (sk_r sS sA)) _ => As sAs.
apply: safe_bind (safe_lift (sv_srp (_ : (0 < n <= d)%N) sAs)) _ => [|[[[R U] sg] Vh] /= [k [sR sU es sV]]].
  by rewrite n0.
apply: (safe_bind (Q := sout_shape m n it)).
  apply: safe_lift; have hut : (false -> X LinAlgError /\ k = n) by [].
  case E: (@none_or_0 T O (Some c)).
    rewrite /PcSS2 E; apply: rsafe_bind (sv_lift_precond xu rok hut sA sR) _ => _ _.
    by case: zk => _ /negbTE ->; exact: xc.
  by apply: rsafe_weak (sv_PcSS2_c xu tol None rok hut sA sR ec (negbT E) (isT : none_or_0 None) it0) _ => o [].
move=> o [ox oy oe].
apply: (safe_bind (Q := log_le lg it)).
  case: lg xv => xv; last by apply: safe_ret.
  apply: safe_lift; apply: rsafe_bind (sv_tmv X sR ec) _ => w ew; apply: rsafe_bind (sv_mv X sR ew) _ => w2 ew2.
  apply: rsafe_bind (sv_mv X sA ew2) _ => w3 ew3.
  by apply: sv_wrap => //; exact: xv.
by move=> lo hlo; apply: safe_ret.
Qed.

Definition slv_ok (slv : @solver T) m n A b cc delta tol (it : int) (lg : bool) : Prop := forall c R z0,
  shaped n c R -> optsz c z0 ->
  rsafe X (fun o => sout_shape m n it o /\ (lg -> X ValueError \/ exists es, o_errs o = EArr es)) (slv A (Some b) cc delta tol it R false z0).

Lemma slv_PcSS1 m n A b cc delta tol (it : int) lg : X Unmodelled -> X IndexError -> shaped m n A -> size b = m -> optsz n cc ->
  (0 <= it)%R -> slv_ok (@PcSS1 T O) m n A b cc delta tol it lg.
Proof.
move=> xu xi sA eb ec it0 c R z0 sR ez.
have eb' : optsz m (Some b) by [].
apply: rsafe_weak (sv_PcSS1 xu delta tol (fun _ => xi) sA sR eb' ec ez it0) _ => o [h1 _ [es h2] _]; split=> // _.
by right; exists es.
Qed.
Lemma slv_PcSS2 m n A b cc delta tol (it : int) (lg : bool) : X Unmodelled -> (lg -> X ValueError) ->
  (~~ none_or_0 (Some b) && ~~ none_or_0 cc -> X ValueError) -> reg_ok delta ->
  shaped m n A -> size b = m -> optsz n cc ->
  (0 <= it)%R -> slv_ok (@PcSS2 T O) m n A b cc delta tol it lg.
Proof.
move=> xu xv xb rok sA eb ec it0 c R z0 sR ez.
have hut : (false -> X LinAlgError /\ c = n) by [].
case E: (@none_or_0 T O cc).
  apply: rsafe_weak (sv_PcSS2_b xu tol rok hut sA sR eb E ez it0) _ => o [h1 _ _]; split=> // /xv; by left.
case: cc ec E xb => [cc|] //= ec E xb.
case E2: (@none_or_0 T O (Some b)).
  by apply: rsafe_weak (sv_PcSS2_c xu tol z0 rok hut sA sR ec (negbT E) E2 it0) _ => o [h1 _]; split=> // /xv; left.
rewrite /PcSS2 /none_or_0; apply: rsafe_bind (sv_lift_precond xu rok hut sA sR) _ => Ap _.
rewrite /none_or_0 in E E2; rewrite E E2 /=; apply: xb.
by rewrite E E2.
Qed.

Lemma safe_sps1_precond strat m n A delta (d : int) : X Unmodelled -> (0 < m)%N -> (0 < n)%N -> (0 < d)%R ->
  shaped m n A -> safe X (fun x => exists c, [/\ (c <= n)%N, shaped n c x.1 & if x.2 is Some sv then size sv.1 = c /\ shaped c n sv.2 else True])
    (sps1_precond L gen strat A delta d).
Proof using lsh gsh.
move=> xu m0 n0 d0 sA; have [_ a1 a2] := sA; rewrite /sps1_precond a1 a2.
case: d d0 => d // d0; rewrite (_ : (Posz d < 0)%R = false) ?absz_nat; last by lia.
have {}d0 : (0 < d)%N by lia.
case: ifP => nd.
  have {}nd : (n <= d)%N by lia.
  apply: safe_bind (safe_emit _ (gsh d0 m0)) _ => S sS.
  apply: safe_bind (safe_lift (sk_r sS sA)) _ => As sAs.
  apply: safe_bind (safe_lift (sh_alift X (osqrt delta) sAs)) _ => Al; set D := if _ then _ else _ => sAl.
  have nD : (0 < n <= D)%N by rewrite /D; case: ifP => _; rewrite n0 ?leq_addl.
  apply: safe_bind (safe_lift (sv_srp2 nD sAl)) _ => -[[[R U] sg] Vh] /= [k [kn sR sU es sV]].
  by apply: safe_ret; exists k.
have {}nd : (d < n)%N by lia.
have P1 V' : shaped n d V' -> safe X (fun x : arr T * option (seq T * arr T) => exists c, [/\ (c <= n)%N, shaped n c x.1 & if x.2 is Some sv then size sv.1 = c /\ shaped c n sv.2 else True])
   (let! A_sample := lift (mmul A V') in
        let! f := lift (l_svd L A_sample) in
        let '(U, sigma, Wt) := f in
        let! _ := lift (nz_check sigma) in
        let! W := lift (cdiv (mtr Wt) sigma) in
        let! Mp := lift (mmul V' W) in
        ret (Mp, None) : M G T _).
  move=> sV'; apply: safe_bind (safe_lift (sh_mmul X sA sV')) _ => Y sY.
  apply: safe_bind (safe_lift (lsh_svd lsh m0 d0 sY)) _ => -[[U sg] Wt] /= [sU es sW].
  apply: safe_bind (safe_lift (sv_nz xu _)) _ => _ _.
  apply: safe_bind (safe_lift (sh_cdiv X (sh_mtr sW) es)) _ => W sW'.
  apply: safe_bind (safe_lift (sh_mmul X sV' sW')) _ => Mp sM.
  by apply: safe_ret; exists (minn m d); split=> //=; lia.
have PL : safe X (fun x : arr T * option (seq T * arr T) => exists c, [/\ (c <= n)%N, shaped n c x.1 & if x.2 is Some sv then size sv.1 = c /\ shaped c n sv.2 else True])
   (let! Sk := draw gen d m in
        let! A_ske := lift (mul_r Sk A) in
        let! V := lift (orth L (mtr A_ske)) in
        let! A_sample := lift (mmul A V) in
        let! f := lift (l_svd L A_sample) in
        let '(U, sigma, Wt) := f in
        let! _ := lift (nz_check sigma) in
        let! W := lift (cdiv (mtr Wt) sigma) in
        let! Mp := lift (mmul V W) in
        ret (Mp, None)).
  apply: safe_bind (safe_emit _ (gsh d0 m0)) _ => S sS.
  apply: safe_bind (safe_lift (sk_r sS sA)) _ => As sAs.
  apply: (safe_bind (Q := shaped n d)); last by move=> V sV; exact: P1.
  by apply: safe_lift; apply: rsafe_bind (safe_qr lsh d0 (ltnW nd) (sh_mtr sAs)) _ => QR [].
case: strat => //.
apply: safe_bind (safe_emit _ (gsh n0 d0)) _ => S sS.
apply: safe_bind (safe_lift (sk_l sS sA)) _ => As sAs.
apply: (safe_bind (Q := shaped m (minn m d))).
  by apply: safe_lift; apply: rsafe_bind (lsh_qr lsh m0 d0 sAs) _ => QR [].
move=> Q sQ; apply: safe_bind (safe_lift (sh_mmul X (sh_mtr sQ) sA)) _ => Y sY.
have md0 : (0 < minn m d)%N by rewrite leq_min m0.
apply: safe_bind (safe_lift (lsh_svd lsh md0 n0 sY)) _ => -[[U sg] Vt] /= [sU es sV].
apply: safe_bind (safe_lift (sv_nz xu _)) _ => _ _.
apply: safe_bind (safe_lift (sh_cdiv X (sh_mtr sV) es)) _ => Mp sM.
by apply: safe_ret; exists (minn (minn m d) n); split=> //=; lia.
Qed.

Lemma safe_SPS1 sf strat slv m n A b cc delta tol (it : int) (lg : bool) clk : X Unmodelled ->
  strat <> NOther -> (0 < m)%N -> (0 < n)%N -> (0 < trunc_rat (sf * n%:R))%R -> shaped m n A ->
  optsz m b -> optsz n cc -> slv_ok slv m n A (if b is Some b then b else vzeros m) cc delta tol it lg ->
  safe X (fun x => [/\ optsz n x.1.1, size x.1.2 = m & log_le lg it x.2]) (SPS1 L gen sf slv strat A b cc delta tol it lg clk).
Proof using lsh gsh.
move=> xu hst m0 n0 d0 sA eb ec hs; have [_ a1 a2] := sA; rewrite /SPS1 a1 a2.
case: (olt delta o0); first exact: safe_raise.
apply: safe_passert; first by case: strat hst.
apply: safe_bind (safe_sps1_precond strat delta xu m0 n0 d0 sA) _ => -[Mp pre] /= [c [cn sM hpre]].
have eb' : size (if b is Some b then b else vzeros m) = m by case: b eb {hs} => [b|] //=; rewrite /vzeros size_nseq.
apply: (safe_bind (Q := sz n)).
  apply: safe_lift; apply: rsafe_bind (sv_tmv X sA eb') _ => w ew.
  by case: cc ec {hs} => [cc|] // ec; exact: sv_vsub.
move=> rhs er; apply: (safe_bind (Q := optsz c)).
  apply: safe_lift; case: pre hpre => [[sg Vh]|] //= [es sV].
  apply: rsafe_bind (sv_mv X sV er) _ => z ez; apply: rsafe_bind (sv_vdiv X ez es) _ => z2 ez2.
  apply: rsafe_bind (sv_mv X sM ez2) _ => x ex; apply: rsafe_bind (sv_tmv X sM er) _ => rp erp.
  apply: rsafe_bind (sv_gram X delta sA ex) _ => g eg; apply: rsafe_bind (sv_tmv X sM eg) _ => l el.
  by apply: rsafe_bind (sv_vsub X el erp) _ => rr err /=; case: (ole _ _).
move=> z0 ez0; apply: safe_bind (safe_lift (hs c Mp z0 sM ez0)) _ => o [[ox oy oe] he].
apply: (safe_bind (Q := log_le lg it)).
  case: lg he {hs} => he; last exact: safe_ret.
  apply: safe_lift; have [xv|[es e]] := he isT; first exact: sv_wrap.
  by rewrite e in oe *; exact: sv_wrapA.
by move=> lo hlo; apply: safe_ret.
Qed.

Lemma safe_SPS2 sf slv m n A b cc delta tol (it : int) (lg : bool) clk : X Unmodelled -> reg_ok delta ->
  (0 < n <= m)%N -> sf_ok sf n -> shaped m n A -> optsz m b -> optsz n cc ->
  (let m' := if olt o0 delta then m + n else m in
   forall A' b' c R z0, shaped m' n A' -> size b' = m' -> shaped n c R -> optsz c z0 ->
   rsafe X (fun o => [/\ sout_shape m' n it o, exists k, shaped n k (o_R o) & lg -> X ValueError \/ exists es, o_errs o = EArr es])
     (slv A' (Some b') None o0 tol it R false z0)) ->
  safe X (fun x => [/\ size x.1.1 = n, size x.1.2 = m & log_le lg it x.2]) (SPS2 L gen sf slv A b cc delta tol it lg clk).
Proof using lsh gsh.
move=> xu rok nm sf1 sA eb ec; cbv zeta => hs; have [_ a1 a2] := sA; rewrite /SPS2 a1 a2.
have /andP[n0 nm'] := nm; have m0 := leq_trans n0 nm'.
case: (olt delta o0); first exact: safe_raise.
apply: safe_bind (safe_dim nm' sf1) _ => d /andP[nd dm]; have d0 := leq_trans n0 nd.
have eb' : size (if b is Some b then b else vzeros m) = m by case: b eb => [b|] //=; rewrite /vzeros size_nseq.
move: (if b is Some b then b else vzeros m) eb' => {}b {}eb; cbv zeta.
apply: safe_bind (safe_emit _ (gsh d0 m0)) _ => S sS.
apply: safe_bind (safe_lift (sk_r sS sA)) _ => As sAs.
apply: safe_bind (safe_lift (sh_alift X (osqrt delta) sAs)) _ => Al; rewrite rok if_neg => sAl.
have nD : (0 < n <= (if olt o0 delta then d + n else d))%N by case: (olt o0 delta); rewrite n0 ?leq_addl.
apply: safe_bind (safe_lift (sv_srp nD sAl)) _ => -[[[R U] sg] Vh] /= [k [sR sU es sV]].
set m' := if olt o0 delta then (m + n)%N else m.
apply: (safe_bind (Q := fun x => shaped m' n x.1 /\ size x.2 = m')).
  apply: safe_lift; rewrite /sps2_aug a1 a2; apply: rsafe_bind (sh_alift X (osqrt delta) sA) _ => Aa; rewrite rok if_neg => sAa.
  have ea : size (if olt o0 delta then b ++ vzeros n else b) = m'.
    by rewrite /m'; case: (olt o0 delta); rewrite // size_cat /vzeros size_nseq eb.
  case: cc ec => [cc|_]; last by split.
  move=> ec; case: ifP => _; last by split.
  apply: rsafe_bind (sv_mv X sV ec) _ => w ew.
  apply: rsafe_bind (sv_vmul X (_ : size [seq (o1 / s)%O | s <- sg] = k) ew) _ => [|w2 ew2]; first by rewrite size_map.
  apply: rsafe_bind (sv_mv X sU ew2) _ => v ev.
  have evt : size (vtop d v) = d by rewrite size_takel // ev; case: (olt _ _); rewrite ?leq_addr.
  apply: rsafe_bind (sk_trv sS evt) _ => t et.
  have emt : size (vtop m (if olt o0 delta then b ++ vzeros n else b)) = m.
    by rewrite size_takel // ea /m'; case: (olt _ _); rewrite ?leq_addr.
  apply: rsafe_bind (sv_vsub X emt et) _ => top etop.
  apply: (rsafe_bind (Q := sz (m' - m)%N)).
    case: ifP ea ev => od ea ev; last by rewrite /= size_drop ea.
    by apply: sv_vsub; rewrite size_drop ?ea // ev /m' od; lia.
  move=> bot ebot; split=> //=; rewrite size_cat etop ebot subnKC // /m'; by case: (olt _ _); rewrite ?leq_addr.
move=> [Aa ba] /= [sAa eba].
have emt : size (vtop m ba) = m by rewrite size_takel // eba /m'; case: (olt _ _); rewrite ?leq_addr.
apply: (safe_bind (Q := optsz k)).
  apply: safe_lift; apply: rsafe_bind (sk_rv sS emt) _ => Sb eSb.
  have sU1 : shaped d k (rslice U 0 d).
    by apply: sh_rslice sU _; rewrite /slen; case: (olt _ _); lia.
  apply: rsafe_bind (sv_tmv X sU1 eSb) _ => z ez.
  apply: (rsafe_bind (Q := sz k)).
    case: ifP sU => // od sU; have [_ u1 u2] := sU.
    have sU2 : shaped n k (rslice U d (nr U)) by apply: sh_rslice sU _; rewrite /slen u1; lia.
    apply: rsafe_bind (sv_tmv X sU2 _) _ => [|w ew]; first by rewrite size_drop eba /m' od addKn.
    exact: sv_vadd.
  move=> z2 ez2; apply: rsafe_bind (sv_mv X sR ez2) _ => x ex; apply: rsafe_bind (sv_mv X sAa ex) _ => Ax eAx.
  by apply: rsafe_bind (sv_vsub X eba eAx) _ => rr err /=; case: (ole _ _).
move=> z0 ez0; apply: safe_bind (safe_lift (hs Aa ba k R z0 sAa eba sR ez0)) _ => o [[ox oy oe] [kk sRR] he].
case: (o_x o) ox => [x ex|_]; last exact: safe_raise.
apply: (safe_bind (Q := sz m)).
  by apply: safe_lift; apply: rsafe_bind (sv_mv X sA ex) _ => Ax eAx; exact: sv_vsub.
move=> y ey; apply: (safe_bind (Q := log_le lg it)).
  case: lg he {hs} => he; last exact: safe_ret.
  apply: safe_lift; apply: rsafe_bind (sv_tmv X sAa eba) _ => w ew; apply: rsafe_bind (sv_tmv X sRR ew) _ => w2 ew2.
  have [xv|[es' e]] := he isT; first exact: sv_wrap.
  by rewrite e in oe *; exact: sv_wrapA.
by move=> lo hlo; apply: safe_ret.
Qed.

End Solvers.

Section SpsDrivers.
Context {T : Type} {O : ops T} {G : Type}.
Variables (X : exn -> Prop) (L : lapack T) (lsh : lap_shapes X L) (r : rng_ops G T).
Variables (m n : nat) (A : arr T) (b c : option (seq T)) (tol : T) (it : int) (sf : rat).
Variable vec_nnz : nat.

Lemma bsz : optsz m b -> size (if b is Some b then b else vzeros m) = m.
Proof using Type. by case: b => [v|] //= _; rewrite /vzeros size_nseq. Qed.

Lemma safe_sps_pcg delta clk a : X Unmodelled -> X IndexError -> (0 < m)%N -> (0 < n)%N -> (0 < trunc_rat (sf * n%:R))%R ->
  shaped m n A -> optsz m b -> optsz n c -> (0 <= it)%R ->
  safe X (fun x => [/\ optsz n x.1.1, size x.1.2 = m & log_le true it x.2]) (sps L r A b c delta tol it a sf vec_nnz SpsPcg clk).
Proof using lsh.
move=> xu xi m0 n0 d0 sA eb ec it0; apply: safe_rng.
apply: (safe_SPS1 lsh (fun d m => @safe_sj T O G X r vec_nnz d m)) => //.
exact: (slv_PcSS1 _ _ _ xu xi sA (bsz eb) ec it0).
Qed.

Lemma safe_sps_lsqr delta clk a : X Unmodelled -> X ValueError -> reg_ok delta -> (0 < m)%N -> (0 < n)%N ->
  (0 < trunc_rat (sf * n%:R))%R -> shaped m n A -> optsz m b -> optsz n c -> (0 <= it)%R ->
  safe X (fun x => [/\ optsz n x.1.1, size x.1.2 = m & log_le true it x.2]) (sps L r A b c delta tol it a sf vec_nnz SpsLsqr clk).
Proof using lsh.
move=> xu xv rok m0 n0 d0 sA eb ec it0; apply: safe_rng.
apply: (safe_SPS1 lsh (fun d m => @safe_sj T O G X r vec_nnz d m)) => //.
exact: (slv_PcSS2 _ xu (fun _ => xv) (fun _ => xv) rok sA (bsz eb) ec it0).
Qed.

Lemma safe_sps2 delta (lg pcg : bool) clk a : X Unmodelled -> (pcg -> X IndexError) -> (~~ pcg -> lg -> X ValueError) -> zero_ok T ->
  reg_ok delta -> (0 < n <= m)%N -> sf_ok sf n -> shaped m n A -> optsz m b -> optsz n c -> (0 <= it)%R ->
  safe X (fun x => [/\ size x.1.1 = n, size x.1.2 = m & log_le lg it x.2])
    (with_rng r a (SPS2 L (skopSJ r vec_nnz) sf (if pcg then @PcSS1 T O else @PcSS2 T O) A b c delta tol it lg clk)).
Proof using lsh.
move=> xu xi xv zk rok nm sf1 sA eb ec it0; apply: safe_rng.
apply: (safe_SPS2 lsh (fun d m => @safe_sj T O G X r vec_nnz d m)) => //.
move=> m' A' b' k R z0 sA' eb' sR ez; case: pcg xi xv => xi xv.
  have eb2 : optsz m' (Some b') by [].
  apply: rsafe_weak (sv_PcSS1 xu o0 tol (fun _ => xi isT) sA' sR eb2 (I : optsz n None) ez it0) _ => o [h1 _ [es h2] h3].
  by split=> // [|_]; [exists k|right; exists es].
have hut : (false -> X LinAlgError /\ k = n) by [].
apply: rsafe_weak (sv_PcSS2_b xu tol (zero_reg zk) hut sA' sR eb' (isT : none_or_0 None) ez it0) _ => o [h1 _ h2].
by split=> // [|h]; [exists k; rewrite h2|left; exact: xv].
Qed.
End SpsDrivers.

Lemma sv_as_linop T (O : ops T) X m n (A : arr T) : shaped m n A -> linsh X m n (as_linop A).
Proof. by move=> sA; have [_ a b] := sA; split=> //= x ex; [exact: sv_mv ex|exact: sv_tmv ex]. Qed.

(** * Witnesses *)

(** A LAPACK returning zeros of the right shapes, over any scalars. *)
Section Zero.
Context {T : Type} {O : ops T}.
Definition zmx m n : arr T := mk m n (fun _ _ => o0).
Definition zero_lapack : lapack T := {|
  l_qr := fun A => Ok (zmx (nr A) (minn (nr A) (nc A)), zmx (minn (nr A) (nc A)) (nc A));
  l_qrp := fun A => Ok (zmx (nr A) (minn (nr A) (nc A)), zmx (minn (nr A) (nc A)) (nc A), iota 0 (nc A));
  l_svd := fun A => Ok (zmx (nr A) (minn (nr A) (nc A)), vzeros (minn (nr A) (nc A)), zmx (minn (nr A) (nc A)) (nc A));
  l_eigh := fun A => Ok (vzeros (nr A), zmx (nr A) (nr A));
  l_lu := fun A => Ok (zmx (nr A) (nr A), zmx (nr A) (nc A), zmx (nr A) (nc A));
  l_lstsq := fun A B => Ok (zmx (nc A) (nc B));
  l_dct := id; l_idct := id |}.
Lemma zero_shapes : lap_shapes (fun _ => False) zero_lapack.
Proof.
split=> [m n A _ _ [_ <- <-]|m n A _ _ [_ <- <-]|m n A _ _ [_ <- <-]|n A _ [_ a b]|m n p A B _ _ _ [_ a <-] [_ b <-]] /=.
- by split; exact: sh_mk.
- by split; try exact: sh_mk.
- by split; rewrite ?size_nseq; try exact: sh_mk.
- by rewrite a size_nseq; split=> //; exact: sh_mk.
- exact: sh_mk.
Qed.
End Zero.

From Verif Require Import Exact LapackSpec LapackExists.
Section ExactShapes.
Variable R : rcfType.
Lemma sh_ofmx m n (A : 'M[R]_(m, n)) : shaped m n (ofmx A).
Proof. exact: sh_mk. Qed.
Lemma exact_shapes : lap_shapes (fun _ => False) (exact_lapack R).
Proof.
split=> [m n A _ _ [_ <- <-]|m n A _ _ [_ <- <-]|m n A _ _ [_ <- <-]|n A _ [_ a b]|m n p A B _ _ _ [_ a <-] [_ b <-]] /=.
- by split; exact: sh_mk.
- have := xchooseP (qrp_ex (tomx A)); case: (xchoose _) => [[Q U] J] /and5P[_ _ pJ _ _].
  by split; try exact: sh_mk.
- by split; rewrite ?size_mkseq; try exact: sh_mk.
- by rewrite -a size_mkseq; split=> //; exact: sh_mk.
- exact: sh_mk.
Qed.
Import Order.TTheory GRing.Theory Num.Theory.
Lemma exact_reg (delta : R) : (0 <= delta)%R -> reg_ok delta.
Proof. by move=> d0; rewrite /reg_ok /= sqrtr_eq0 leNgt. Qed.
Lemma exact_zero : zero_ok R.
Proof. by split; rewrite /= ?sqrtr0 ?eqxx ?ltxx. Qed.
Lemma sf_three n : sf_ok 3%:R n.
Proof.
rewrite /sf_ok /trunc_rat -natrM (_ : (3 * n)%:R = ((3 * n)%:Z)%:~R :> rat)%R //.
rewrite numq_int denq_int; set t := absz _.
have -> : t = (3 * n)%N by [].
by rewrite divn1; case: n t => //= n _; rewrite mul1r lez_nat leq_pmull.
Qed.

(** The hypotheses of the theorems hold together: exact arithmetic, a 5 x 3 matrix, rank 2. *)
Example shape_hyps : exists (A : arr R) (b c : seq R), [/\ shaped 5 3 A, size b = 5%N, size c = 3%N, rng_ok (@toy_rng R (rcf_ops R)) &
  lap_shapes (fun _ => False) (exact_lapack R)].
Proof.
exists (ofmx (0%R : 'M[R]_(5, 3))), (vzeros 5), (vzeros 3); split; [exact: sh_ofmx|by []|by []|exact: toy_rng_ok|exact: exact_shapes].
Qed.
End ExactShapes.
