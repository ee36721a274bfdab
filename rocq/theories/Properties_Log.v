(** Property C110: the log of the sketch-and-precondition drivers, in any arithmetic. *)
From mathcomp Require Import all_ssreflect all_algebra.
From Verif Require Import Base Arr Lapack Rng Pcg Lsqr Precond LstSq SaddleSys Drivers Shape LogSpec P_Log.
Set Implicit Arguments.
Unset Strict Implicit.
Unset Printing Implicit Defensive.

(** Whatever an object of class SPO is called with, if it returns then its log is as specified. *)
Theorem C110_spo (T G : Type) (O : ops T) (L : lapack T) (g : nat -> nat -> M G T (pyop T)) sf md A b (dl tol : T) lim
    logging clk :
  safe (fun _ => True) (fun x => log_ok logging clk x.2) (SPO L g sf md A b dl tol lim logging clk).
Proof. exact (spo_log_ok L g sf md A b dl tol lim logging clk). Qed.
Print Assumptions C110_spo.

Theorem C110_spu (T G : Type) (O : ops T) (L : lapack T) (g : nat -> nat -> M G T (pyop T)) sf A c (tol : T) lim logging clk :
  safe (fun _ => True) (fun x => log_ok logging clk x.2) (SPU1 L g sf A c tol lim logging clk).
Proof. exact (spu_log_ok L g sf A c tol lim logging clk). Qed.
Print Assumptions C110_spu.

Theorem C110_sps1 (T G : Type) (O : ops T) (L : lapack T) (g : nat -> nat -> M G T (pyop T)) sf slv strat A b c (dl tol : T)
    lim logging clk :
  safe (fun _ => True) (fun x => log_ok logging clk x.2) (SPS1 L g sf slv strat A b c dl tol lim logging clk).
Proof. exact (sps1_log_ok L g sf slv strat A b c dl tol lim logging clk). Qed.
Print Assumptions C110_sps1.

Theorem C110_sps2 (T G : Type) (O : ops T) (L : lapack T) (g : nat -> nat -> M G T (pyop T)) sf slv A b c (dl tol : T)
    lim logging clk :
  safe (fun _ => True) (fun x => log_ok logging clk x.2) (SPS2 L g sf slv A b c dl tol lim logging clk).
Proof. exact (sps2_log_ok L g sf slv A b c dl tol lim logging clk). Qed.
Print Assumptions C110_sps2.

(** The functions always log. *)
Theorem C110_drivers (T G : Type) (O : ops T) (L : lapack T) (r : rng_ops G T) A b b' c c' (dl tol : T) lim a sf nnz md mt clk :
  [/\ safe (fun _ => True) (fun x => log_ok true clk x.2) (spo3 L r A b dl tol lim a sf nnz md clk),
      safe (fun _ => True) (fun x => log_ok true clk x.2) (spo1 L r A b dl tol lim a sf nnz clk),
      safe (fun _ => True) (fun x => log_ok true clk x.2) (spu1 L r A c tol lim a sf nnz clk) &
      safe (fun _ => True) (fun x => log_ok true clk x.2) (sps L r A b' c' dl tol lim a sf nnz mt clk)].
Proof. exact (drv_log_ok L r A b b' c c' dl tol lim a sf nnz md mt clk). Qed.
Print Assumptions C110_drivers.

(** The specification accepts the logs of calls with three iterations and rejects a log without arrays. *)
Example C110_log (T : Type) (O : ops T) clk (e a b c : T) :
  (exists2 l, wrap_up (log_of true clk) (EArr [:: a; b; c]) e = Ok l &
     log_ok true clk l /\ errors l = Some [:: e; a; b; c]) /\ ~ log_ok true clk (log_of true clk).
Proof. exact (log_wit clk e a b c). Qed.
