(** * Spec: changing signs of the data

    [sgn k x x']: x' is x if k is even and -x if k is odd, the sign of a zero being left open. *)
From Coq Require Import ZArith.
From Verif Require Import Base Scalar Spec SpecUnits.
Local Open Scope Z_scope.

Section Signs.
Context {T : Type} (Op : Ops T).
(** The same number: equal, or two zeros. *)
Definition same (x y : T) : Prop := x = y \/ (eqb x zero = true /\ eqb y zero = true).
Definition sgn (k : Z) (x y : T) : Prop := if Z.even k then same x y else same (opp x) y.
Definition nonzero (y : T) : Prop := eqb y zero = false.
End Signs.

(** An arithmetic that is symmetric about zero.  [fin x]: x is finite. *)
Class Signs {T} (Op : Ops T) (fin : T -> Prop) : Prop := {
  sg_units : Units Op (sgn Op) (nonzero Op);
  sg_zero : UnitsZero Op (sgn Op);
  (* roots, absolute values and comparisons *)
  sg_sqrt : forall x x', same Op x x' -> same Op (sqrt_ x) (sqrt_ x');
  sg_abs : forall k x x', sgn Op k x x' -> same Op (abs_ x) (abs_ x');
  sg_ltb : forall x y x' y', same Op x x' -> same Op y y' -> ltb x' y' = ltb x y;
  (* the square of a number does not depend on its sign, nor on that of a zero *)
  sg_square : forall k x x', sgn Op k x x' -> mul x' x' = mul x x /\ pow2 x' = pow2 x;
  (* dividing by the same number, zero or not *)
  sg_div : forall k x x' y, sgn Op k x x' -> sgn Op k (div x y) (div x' y);
  (* the root of what is neither zero nor negative can be a divisor *)
  sg_root : forall x, eqb x zero = false -> ltb x zero = false -> eqb (sqrt_ x) zero = false;
  (* finite results have finite operands and no zero divisors *)
  sg_fin_add : forall x y, fin (add x y) -> fin x /\ fin y;
  sg_fin_mul : forall x y, fin (mul x y) -> fin x /\ fin y;
  sg_fin_div : forall x y, fin (div x y) -> eqb y zero = false
}.
