(** * Spec: element types that hold the integers up to a bound exactly

    [is x k]: the element x stands for the integer k.  [Whole]: as long as an exact result stays
    within the bound B, the operator gives exactly that result.  Nothing is said about results
    beyond B, about quotients that are not integers and about roots of non-squares.  binary64 meets
    this with B = 2^53, binary32 with B = 2^24 (RoundWhole.v). *)
From Coq Require Import ZArith.
From Verif Require Import Base Scalar Spec SpecFma.
Local Open Scope Z_scope.

Class Whole {T} (Op : Ops T) (B : Z) (is : T -> Z -> Prop) : Prop := {
  w_range : 1 <= B;
  w_only : forall x a b, is x a -> is x b -> a = b;
  w_zero : is zero 0;
  w_one : is one 1;
  w_add : forall x y a b, is x a -> is y b -> Z.abs (a + b) <= B -> is (add x y) (a + b);
  w_sub : forall x y a b, is x a -> is y b -> Z.abs (a - b) <= B -> is (sub x y) (a - b);
  w_mul : forall x y a b, is x a -> is y b -> Z.abs (a * b) <= B -> is (mul x y) (a * b);
  w_div : forall x y a b, is x (a * b) -> is y b -> b <> 0 -> Z.abs a <= B -> is (div x y) a;
  w_opp : forall x a, is x a -> is (opp x) (- a);
  w_sqrt : forall x a, is x (a * a) -> 0 <= a <= B -> is (sqrt_ x) a;
  w_pow2 : forall x a, is x a -> a * a <= B -> is (pow2 x) (a * a);
  w_abs : forall x a, is x a -> is (abs_ x) (Z.abs a);
  w_eqb : forall x y a b, is x a -> is y b -> eqb x y = Z.eqb a b;
  w_ltb : forall x y a b, is x a -> is y b -> ltb x y = Z.ltb a b
}.

(** A fused multiply-add that is exact within the bound. *)
Definition whole_fma {T} (B : Z) (is : T -> Z -> Prop) (fma : T -> T -> T -> T) : Prop :=
  forall x y z a b c, is x a -> is y b -> is z c -> Z.abs (a * b + c) <= B -> is (fma x y z) (a * b + c).

(** Expressions (SpecFma.v) under an evaluation rho: the value is the integer k, and if the
    expression is a product, which rho may leave unrounded, its factors are integers too. *)
Definition is_term {T} (is : T -> Z -> Prop) (rho : term T -> T) (t : term T) (k : Z) : Prop :=
  is (rho t) k /\ forall p q, product t p q -> exists a b, is (rho p) a /\ is (rho q) b /\ k = a * b.

(** Integer vectors and matrices; the sum of absolute values. *)
Section Ints.
Context {T : Type} (is : T -> Z -> Prop).
Definition ints (n : nat) (v : nat -> T) (f : nat -> Z) : Prop := forall i, (i < n)%nat -> is (v i) (f i).
Definition mints (n m : nat) (A : nat -> nat -> T) (F : nat -> nat -> Z) : Prop :=
  forall i j, (i < n)%nat -> (j < m)%nat -> is (A i j) (F i j).
Definition lints (n : nat) (A : nat -> nat -> T) (F : nat -> nat -> Z) : Prop :=
  forall i j, (i < n)%nat -> (j <= i)%nat -> is (A i j) (F i j).
End Ints.
Definition asum (n : nat) (f : nat -> Z) : Z := @bsum Z ZOps n (fun k => Z.abs (f k)).
Definition lowz (L : nat -> nat -> Z) (i j : nat) : Z := if Nat.leb j i then L i j else 0.
