(** * Spec: a matrix stored densely and the same matrix stored by compressed rows

    A product with a dense matrix goes through all elements of a row, one with a sparse matrix only
    through the stored ones.  [Skips] is what makes no difference between the two: adding zero times
    a finite number to a running sum leaves it as it is, bit for bit.  [fin x]: x is finite.
    [run t]: t can be a running sum; in IEEE arithmetic everything but the zero with a sign. *)
From Coq Require Import List.
From Verif Require Import Base Scalar ModelSparse.
Import ListNotations.
Local Open Scope nat_scope.

Class Skips {T} (Op : Ops T) (fin run : T -> Prop) : Prop := {
  sk_one : fin one;
  sk_start : run (mul zero zero);
  sk_add : forall t s, run t -> run (add t s);
  sk_skip : forall t a x, run t -> fin a -> fin x -> add t (mul (mul a zero) x) = t;
  sk_zero : eqb (T := T) zero zero = true;
  (* finite results have finite operands *)
  sk_fin_add : forall x y, fin (add x y) -> fin x /\ fin y;
  sk_fin_mul : forall x y, fin (mul x y) -> fin x /\ fin y
}.

(** The columns of every row are listed in strictly increasing order. *)
Definition rows_ascending {T} (A : csr T) (n : nat) : Prop :=
  forall i p q, i < n -> nth i (sptr A) 0 <= p -> p < q -> q < nth (i + 1) (sptr A) 0 -> nth p (scol A) 0 < nth q (scol A) 0.
(** All elements read the same. *)
Definition reads_equal {T} {Op : Ops T} (A : csr T) (n m : nat) (a : nat -> nat -> T) : Prop :=
  forall i j, i < n -> j < m -> csr_get A i j tt = Ok (a i j) tt.
