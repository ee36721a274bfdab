(** Ring and field arithmetic over a mathcomp real closed field with the
    standard library's [ring] and [field] (no plugin beyond those of Coq).
    A section that wants them declares [Add Field name : (rcf_field R).] *)
From Coq Require Import Ring Field.
From mathcomp Require Import all_ssreflect all_algebra.
Set Implicit Arguments.
Unset Strict Implicit.
Unset Printing Implicit Defensive.
Import Order.TTheory GRing.Theory Num.Theory.
Local Open Scope ring_scope.

Definition rcf_add (R : rcfType) (x y : R) : R := x + y.
Definition rcf_opp (R : rcfType) (x : R) : R := - x.
Definition rcf_sub (R : rcfType) (x y : R) : R := x - y.
Definition rcf_mul (R : rcfType) (x y : R) : R := x * y.
Definition rcf_inv (R : rcfType) (x : R) : R := x^-1.
Definition rcf_div (R : rcfType) (x y : R) : R := x / y.
Definition rcf_0 (R : rcfType) : R := 0.
Definition rcf_1 (R : rcfType) : R := 1.

Lemma rcf_field (R : rcfType) :
  field_theory (rcf_0 R) (rcf_1 R) (@rcf_add R) (@rcf_mul R) (@rcf_sub R) (@rcf_opp R) (@rcf_div R) (@rcf_inv R)
    (@eq R).
Proof.
split=> //.
- split=> //; rewrite /rcf_add /rcf_mul /rcf_0 /rcf_1 /rcf_opp => *.
  + by rewrite add0r. + by rewrite addrC. + by rewrite addrA. + by rewrite mul1r.
  + by rewrite mulrC. + by rewrite mulrA. + by rewrite mulrDl. + by rewrite subrr.
- by apply/eqP; rewrite oner_eq0.
- by move=> x /eqP x0; rewrite /rcf_mul /rcf_inv mulVf.
Qed.

Lemma rcf_eq (R : rcfType) (x y : R) : x = y -> x = y. Proof. by []. Qed.

Ltac rcf_fold :=
  rewrite ?(exprS, expr0, mulrSr, mulr0n);
  repeat match goal with
  | |- context [@GRing.add ?V ?x ?y] => change (@GRing.add V x y) with (rcf_add x y)
  | |- context [@GRing.opp ?V ?x] => change (@GRing.opp V x) with (rcf_opp x)
  | |- context [@GRing.mul ?V ?x ?y] => change (@GRing.mul V x y) with (rcf_mul x y)
  | |- context [@GRing.inv ?V ?x] => change (@GRing.inv V x) with (rcf_inv x)
  end;
  refine (@rcf_eq _ _ _ _);
  lazymatch goal with
  | |- @eq (Num.RealClosedField.sort ?R) _ _ =>
    repeat match goal with
    | |- context [@GRing.zero ?V] => change (@GRing.zero V) with (rcf_0 R)
    | |- context [@GRing.one ?V] => change (@GRing.one V) with (rcf_1 R)
    end
  end.

Ltac rring := rcf_fold; ring.
Ltac rfield := rcf_fold; field; repeat split; apply/eqP.

Section Test.
Variable R : rcfType.
Add Field Rf : (rcf_field R).
Goal forall x y : R, (x + y) ^+ 2 = x ^+ 2 + x * y *+ 2 + y ^+ 2 - 0 * 1.
Proof. by move=> x y; rring. Qed.
Goal forall x y : R, y != 0 -> x / y + 1 = (x + y) / y.
Proof. by move=> x y y0; rfield. Qed.
Goal forall x y : R, 2%:R * x - y = x + x + - y.
Proof. by move=> x y; rring. Qed.
End Test.
