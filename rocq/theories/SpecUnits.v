(** * Spec: changing the units of the data

    [s k x y]: y is the quantity x in other units, the unit of x being the k-th power of a basic
    one.  In R, [s k x y] is y = c^k x for some c > 0; a change of the basic unit from metres to
    feet multiplies lengths (k = 1) by c, areas (k = 2) by c^2 and reciprocals of lengths by 1/c.
    Only quantities of the same unit can be added and compared; units are added in products,
    subtracted in quotients, halved by roots.  Zero is zero in every unit, one is a pure number.

    [den y] says that y may be a divisor: it is True in R and in every arithmetic where a change of
    units also preserves x/0.

    The instances are in RoundUnits.v: R with any c > 0, rounding to 53 bits with c = 2, binary64
    with c = 2 as long as no operation overflows or underflows; and in RoundSigns.v: IEEE arithmetic
    with c = -1. *)
From Coq Require Import ZArith.
From Verif Require Import Base Scalar Spec.
Local Open Scope Z_scope.

Class Units {T} (Op : Ops T) (s : Z -> T -> T -> Prop) (den : T -> Prop) : Prop := {
  un_zero : forall k, s k zero zero;
  un_one : s 0 one one;
  un_add : forall k x y x' y', s k x x' -> s k y y' -> s k (add x y) (add x' y');
  un_sub : forall k x y x' y', s k x x' -> s k y y' -> s k (sub x y) (sub x' y');
  un_opp : forall k x x', s k x x' -> s k (opp x) (opp x');
  un_mul : forall j k x y x' y', s j x x' -> s k y y' -> s (j + k) (mul x y) (mul x' y');
  un_div : forall j k x y x' y', s j x x' -> s k y y' -> den y -> s (j - k) (div x y) (div x' y');
  un_pow2 : forall k x x', s k x x' -> s (2 * k) (pow2 x) (pow2 x')
}.
(** Roots and absolute values. *)
Class UnitsRoot {T} (Op : Ops T) (s : Z -> T -> T -> Prop) : Prop := {
  un_sqrt : forall k x x', s (2 * k) x x' -> s k (sqrt_ x) (sqrt_ x');
  un_abs : forall k x x', s k x x' -> s k (abs_ x) (abs_ x')
}.
(** Whether a quantity is zero does not depend on its unit; zeros have any unit. *)
Class UnitsZero {T} (Op : Ops T) (s : Z -> T -> T -> Prop) : Prop := {
  un_eqb : forall k x x', s k x x' -> eqb x' zero = eqb x zero;
  un_any : forall j k x x', s k x x' -> eqb x zero = true -> s j x x'
}.
(** Quantities of the same unit are ordered in the same way. *)
Class UnitsOrder {T} (Op : Ops T) (s : Z -> T -> T -> Prop) : Prop := {
  un_ltb : forall k x y x' y', s k x x' -> s k y y' -> ltb x' y' = ltb x y
}.

(** Vectors and matrices of quantities: entry i has unit p i; entry (i, j) has unit p i j. *)
Section Of.
Context {T : Type} (s : Z -> T -> T -> Prop).
Definition vunits (n : nat) (p : nat -> Z) (x x' : nat -> T) : Prop := forall i, (i < n)%nat -> s (p i) (x i) (x' i).
Definition munits (n m : nat) (p : nat -> nat -> Z) (A A' : nat -> nat -> T) : Prop :=
  forall i j, (i < n)%nat -> (j < m)%nat -> s (p i j) (A i j) (A' i j).
(** The lower triangle only. *)
Definition lunits (n : nat) (p : nat -> nat -> Z) (A A' : nat -> nat -> T) : Prop :=
  forall i j, (i < n)%nat -> (j <= i)%nat -> s (p i j) (A i j) (A' i j).
End Of.
