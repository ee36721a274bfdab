(** parla/utils/stats.py.  One-dimensional sample vectors.  [np.log] is a
    parameter of the model. *)
From mathcomp Require Import all_ssreflect.
From Verif Require Import Base Arr Lapack.
Set Implicit Arguments.
Unset Strict Implicit.
Unset Printing Implicit Defensive.

Section Stats.
Context {G T : Type} {O : ops T}.
Notation M := (M G T).
Variable L : lapack T.
Variable olog : T -> T.

(** [np.column_stack([np.ones(x.size), x])] *)
Definition design (x : seq T) : arr T := mk (size x) 2 (fun i j => if j == 0 then o1 else ev x i).

(** stats.py 22-28 = 50-56: least squares, sums of squares and R squared.
    [la.lstsq] returns zeros for an empty problem.  Division by ss_tot = 0
    follows the scalar type (NaN for floats). *)
Definition fit_core (x logy : seq T) : res (seq T * T) :=
  let n := size logy in
  let mat := design x in
  let? F := if n == 0 then Ok (mzeros 2 1)
            else l_lstsq L mat (mk n 1 (fun i _ => ev logy i)) in
  let fit := mcol F 0 in
  let mean := (osum n (ev logy) / onat n)%O in
  let ss_tot := osum n (fun i => osq (ev logy i - mean)%O) in
  let? p := mv mat fit in
  let? d := vsub logy p in
  let ss_res := vsq d in
  Ok (fit, (o1 - ss_res / ss_tot)%O).

(** stats.py 16-21: the kept samples, with the warning. *)
Definition fit_keep (x y : seq T) : M (seq T * seq T) :=
  passert (size x == size y) >>>
  (if has (fun v => (v <= o0)%O) y
   then let! _ := emit (EvWarn W_fit_drop) in
        let msk := [seq (o0 < v)%O | v <- y] in ret (mask msk x, mask msk y)
   else ret (x, y)).

(** stats.py 6-29: [loglinear_fit(x, y)]. *)
Definition loglinear_fit (x y : seq T) : M (seq T * T) :=
  let! xy := fit_keep x y in
  lift (fit_core xy.1 (map olog xy.2)).

(** stats.py 32-57: [loglog_fit(x, y)]. *)
Definition loglog_fit (x y : seq T) : M (seq T * T) :=
  let! xy := fit_keep x y in
  if has (fun v => (v <= o0)%O) xy.1 then raise ValueError
  else lift (fit_core (map olog xy.1) (map olog xy.2)).

End Stats.
