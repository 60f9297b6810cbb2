(** * Specification vocabulary, independent of the model *)
From Verif Require Import Base Scalar.
Local Open Scope sc_scope.

(** Entry-wise combination of two lists. *)
Definition map2 {A B C} (f : A -> B -> C) (l1 : list A) (l2 : list B) : list C :=
  map (fun xy => f (fst xy) (snd xy)) (combine l1 l2).

Section Spec.
Context {T : Type} {O : Ops T}.

(** Sum of f 0 .. f (n-1), accumulated from the left starting at 0. *)
Fixpoint bsum (n : nat) (f : nat -> T) : T :=
  match n with
  | 0 => zero
  | S k => bsum k f + f k
  end.

(** The same, starting from [a]: a + f 0 + f 1 + ... *)
Fixpoint fsum (n : nat) (a : T) (f : nat -> T) : T :=
  match n with
  | 0 => a
  | S k => fsum k a f + f k
  end.

(** A matrix or vector as a mathematical object: a function of its indices. *)
Definition vfun := nat -> T.
Definition mfun := nat -> nat -> T.

Definition vec_of (l : list T) : vfun := fun i => nth i l zero.
(** Row-major n x m matrix stored in a list. *)
Definition mat_of (m : nat) (l : list T) : mfun := fun i j => nth (i * m + j) l zero.

Definition mvmul (m : nat) (A : mfun) (x : vfun) : vfun := fun i => bsum m (fun k => A i k * x k).
Definition mmmul (o : nat) (A B : mfun) : mfun := fun i j => bsum o (fun k => A i k * B k j).
Definition dotp (n : nat) (x y : vfun) : T := bsum n (fun k => x k * y k).
Definition Id : mfun := fun i j => if Nat.eqb i j then one else zero.
Definition transp (A : mfun) : mfun := fun i j => A j i.

Definition veq (n : nat) (x y : vfun) : Prop := forall i, i < n -> x i = y i.
Definition meq (n m : nat) (A B : mfun) : Prop := forall i j, i < n -> j < m -> A i j = B i j.

(** x solves the n x n system A x = b. *)
Definition solves (n : nat) (A : mfun) (x b : vfun) : Prop := veq n (mvmul n A x) b.
(** The only vector annihilated is zero. *)
Definition nonsingular (n : nat) (A : mfun) : Prop :=
  forall x, (forall i, i < n -> mvmul n A x i = zero) -> forall i, i < n -> x i = zero.
End Spec.

(** Everything outside the listed buffers is unchanged. *)
Definition unchanged_except {T} (ps : list ptr) (h h' : heap T) : Prop :=
  forall q, ~ In q ps -> mem h' q = mem h q.
