(** * Comparing two computations in monotone arithmetic: when results do not overflow *)
From Coq Require Import Reals Lra Lia.
From Verif Require Import Base Scalar Spec SpecMono.
Local Open Scope R_scope.

(** [range] holds of the numbers that do not overflow: with a number also of those not larger in magnitude.
    An operation on finite operands is finite if its rounded result is in the range. *)
Class Ranged {T} (Op : Ops T) (val : T -> R) (fin : T -> Prop) (rnd : R -> R) (range : R -> Prop) : Prop := {
  r_mono : Monotone Op val fin rnd;
  r_down : forall r s, range r -> Rabs s <= Rabs r -> range s;
  r_fin : forall x, fin x -> range (val x);
  r_add : forall x y, fin x -> fin y -> range (rnd (val x + val y)) -> fin (add x y);
  r_sub : forall x y, fin x -> fin y -> range (rnd (val x - val y)) -> fin (sub x y);
  r_mul : forall x y, fin x -> fin y -> range (rnd (val x * val y)) -> fin (mul x y);
  r_div : forall x y, fin x -> fin y -> val y <> 0 -> range (rnd (val x / val y)) -> fin (div x y);
  r_sqrt : forall x, fin x -> 0 <= val x -> fin (sqrt_ x)
}.

(** The entries of A' are finite, not smaller than those of A, and not positive off the diagonal (lower triangle; all). *)
Definition raised_low {T} (val : T -> R) (fin : T -> Prop) n (A A' : nat -> nat -> T) : Prop :=
  forall i j, (j <= i)%nat -> (i < n)%nat -> fin (A' i j) /\ val (A i j) <= val (A' i j) /\ (i <> j -> val (A' i j) <= 0).
Definition raised {T} (val : T -> R) (fin : T -> Prop) n (A A' : nat -> nat -> T) : Prop :=
  forall i j, (i < n)%nat -> (j < n)%nat -> fin (A' i j) /\ val (A i j) <= val (A' i j) /\ (i <> j -> val (A' i j) <= 0).
(** 0 <= b' <= b, finite. *)
Definition lowered {T} (val : T -> R) (fin : T -> Prop) n (b b' : nat -> T) : Prop :=
  forall i, (i < n)%nat -> fin (b' i) /\ 0 <= val (b' i) <= val (b i).
