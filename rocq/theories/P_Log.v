(** Proofs of C110: the log of the sketch-and-precondition drivers, in any arithmetic. *)
From mathcomp Require Import all_ssreflect all_algebra.
From Verif Require Import Base Arr Lapack Rng Aware Pcg Lsqr Precond LstSq SaddleSys Sketching Drivers Shape LogSpec P_Shape P_ShapeLS.
Set Implicit Arguments.
Unset Strict Implicit.
Unset Printing Implicit Defensive.

Section LogP.
Context {T : Type} {O : ops T} {G : Type}.
Local Notation X := (fun _ : exn => True).

Lemma any_safe Y (c : M G T Y) : safe X (fun _ => True) c.
Proof. by move=> s; case: ((c s).2). Qed.
Lemma any_rsafe Y (c : res Y) : rsafe X (fun _ => True) c.
Proof. by case: c. Qed.

Lemma log_off c : log_ok false c (log_of false c : @splog T).
Proof. by []. Qed.

Lemma log_on c er e : rsafe X (log_ok true c) (wrap_up (log_of true c : @splog T) er e).
Proof.
case: er => [?|es] //=; split=> //; exists e, es, [seq oadd (oadd (time_setup (log_of true c)) (t_presolve c)) t |
  t <- linspace0 (t_iterate c) (size es)]; split=> //; first by rewrite size_map size_mkseq.
case: (size es) => [|[|k]] // _; set s := [seq _ | t <- _].
rewrite (last_nth o0) (_ : size s = k.+2) -?nth_behead; last by rewrite size_map size_mkseq.
rewrite -[LHS]/(nth o0 s k.+1) (nth_map o0) ?size_mkseq //.
by rewrite nth_mkseq // eqxx.
Qed.

Lemma log_both (logging : bool) c (f : res (@splog T)) : (logging -> rsafe X (log_ok true c) f) ->
  safe X (log_ok logging c) (if logging then lift f else ret (log_of logging c) : M G T _).
Proof. by case: logging => [h|_]; [apply: safe_lift; exact: h|apply: safe_ret; exact: log_off]. Qed.

Lemma log_wit clk (e a b c : T) :
  (exists2 l, wrap_up (log_of true clk) (EArr [:: a; b; c]) e = Ok l &
     log_ok true clk l /\ errors l = Some [:: e; a; b; c]) /\ ~ log_ok true clk (log_of true clk).
Proof.
split; last by case=> _ _ _ _ [? [? [? []]]].
by have := log_on clk (EArr [:: a; b; c]) e; eexists; first by reflexivity.
Qed.

Variable L : lapack T.

Ltac skb := (apply: (safe_bind (Q := fun _ => True)); first exact: any_safe).
Ltac sk := (skb; move=> ? _).

Lemma spo_log_ok g sf md A b dl tol lim lg clk :
  safe X (fun x => log_ok lg clk x.2) (SPO L g sf md A b dl tol lim lg clk : M G T _).
Proof.
rewrite /SPO; case: ifP => _; first by move=> s.
do 3 sk; skb => [[[Rm z] x] _]; sk; sk.
apply: (safe_bind (Q := log_ok lg clk)) => [|l hl]; last by case: (o_x _) => [?|]; [exact: safe_ret|move=> s].
apply: log_both => ->; apply: rsafe_bind (any_rsafe _) _ => ? _; apply: rsafe_bind (any_rsafe _) _ => ? _; exact: log_on.
Qed.

Lemma spu_log_ok g sf A c tol lim lg clk :
  safe X (fun x => log_ok lg clk x.2) (SPU1 L g sf A c tol lim lg clk : M G T _).
Proof.
rewrite /SPU1; do 3 sk; skb => [[[[Mp U] sg] Vh] _]; sk.
apply: (safe_bind (Q := log_ok lg clk)) => [|l hl]; last exact: safe_ret.
apply: log_both => ->; do 3 (apply: rsafe_bind (any_rsafe _) _ => ? _); exact: log_on.
Qed.

Lemma sps1_log_ok g sf slv strat A b c dl tol lim lg clk :
  safe X (fun x => log_ok lg clk x.2) (SPS1 L g sf slv strat A b c dl tol lim lg clk : M G T _).
Proof.
rewrite /SPS1; case: ifP => _; first by move=> s.
sk; skb => [[Mp pre] _]; sk; sk; sk.
apply: (safe_bind (Q := log_ok lg clk)) => [|l hl]; last exact: safe_ret.
by apply: log_both => ->; exact: log_on.
Qed.

Lemma sps2_log_ok g sf slv A b c dl tol lim lg clk :
  safe X (fun x => log_ok lg clk x.2) (SPS2 L g sf slv A b c dl tol lim lg clk : M G T _).
Proof.
rewrite /SPS2; case: ifP => _; first by move=> s.
do 4 sk; skb => [[[[Mp U] sg] Vh] _]; skb => [[Aa ba] _]; sk; sk.
case: (o_x _) => [x|]; last by move=> s.
sk; apply: (safe_bind (Q := log_ok lg clk)) => [|l hl]; last exact: safe_ret.
apply: log_both => ->; do 2 (apply: rsafe_bind (any_rsafe _) _ => ? _); exact: log_on.
Qed.

Variable r : rng_ops G T.
Lemma drv_log_ok A b b' c c' dl tol lim a sf nnz md mt clk :
  [/\ safe X (fun x => log_ok true clk x.2) (spo3 L r A b dl tol lim a sf nnz md clk),
      safe X (fun x => log_ok true clk x.2) (spo1 L r A b dl tol lim a sf nnz clk),
      safe X (fun x => log_ok true clk x.2) (spu1 L r A c tol lim a sf nnz clk) &
      safe X (fun x => log_ok true clk x.2) (sps L r A b' c' dl tol lim a sf nnz mt clk)].
Proof.
split; [exact/safe_rng/spo_log_ok|exact/safe_rng/spo_log_ok|exact/safe_rng/spu_log_ok|].
by case: mt; [exact/safe_rng/sps1_log_ok|exact/safe_rng/sps1_log_ok|move=> s].
Qed.
End LogP.
