(** * Specification vocabulary for rounded arithmetic

    The standard model of floating-point arithmetic: every operation gives its exact result up to
    a relative error of at most [u].  It holds for IEEE formats as long as nothing overflows or
    underflows (RoundFlocq.v), whatever the rounding mode.  [Approx O u] says that the scalar
    operators [O] on real numbers are of this kind; the code is then run with these operators. *)
From Coq Require Import Reals.
From Verif Require Import Base Scalar Spec.
Local Open Scope R_scope.

Class Approx (O : Ops R) (u : R) : Prop := {
  u_range : 0 <= u < 1;
  ax_zero : zero = 0;
  ax_one : one = 1;
  ax_add : forall x y, Rabs (add x y - (x + y)) <= u * Rabs (x + y);
  ax_sub : forall x y, Rabs (sub x y - (x - y)) <= u * Rabs (x - y);
  ax_mul : forall x y, Rabs (mul x y - x * y) <= u * Rabs (x * y);
  ax_div : forall x y, y <> 0 -> Rabs (div x y - x / y) <= u * Rabs (x / y);
  ax_opp : forall x, opp x = - x;
  ax_sqrt : forall x, 0 <= x -> Rabs (sqrt_ x - sqrt x) <= u * sqrt x;
  ax_pow2 : forall x, Rabs (pow2 x - x * x) <= u * (x * x);
  ax_abs : forall x, abs_ x = Rabs x;
  ax_eqb : forall x y, eqb x y = true <-> x = y;
  ax_ltb : forall x y, ltb x y = true <-> x < y
}.

(** The error constant: (1 - u)^(-k) - 1, at most k u / (1 - k u) (gamma_classic). *)
Definition gamma (u : R) (k : nat) : R := / (1 - u) ^ k - 1.

(** Entry-wise: [a'] differs from [a] by at most gamma k times the size of [a]. *)
Definition vclose (u : R) (k n : nat) (a a' : nat -> R) : Prop :=
  forall i, (i < n)%nat -> Rabs (a' i - a i) <= gamma u k * Rabs (a i).
Definition mclose (u : R) (k n m : nat) (A A' : nat -> nat -> R) : Prop :=
  forall i j, (i < n)%nat -> (j < m)%nat -> Rabs (A' i j - A i j) <= gamma u k * Rabs (A i j).
(** [A'] differs from [A] by at most gamma k times [B], entry by entry. *)
Definition mwithin (u : R) (k n m : nat) (B A A' : nat -> nat -> R) : Prop :=
  forall i j, (i < n)%nat -> (j < m)%nat -> Rabs (A' i j - A i j) <= gamma u k * B i j.

Definition vabs (x : nat -> R) (i : nat) : R := Rabs (x i).
Definition mabs (A : nat -> nat -> R) (i j : nat) : R := Rabs (A i j).

(** Positive definite with room for rounding: x^T A x exceeds n gamma/(1-gamma) times the value
    that the diagonal of A alone gives.  With u = 0 this is positive definiteness. *)
Definition pos_def_margin (u : R) (k n : nat) (A : nat -> nat -> R) : Prop :=
  forall x, (exists i, (i < n)%nat /\ x i <> 0) ->
    INR n * (gamma u k / (1 - gamma u k)) * @bsum R ROps n (fun i => Rabs (A i i) * (x i * x i))
      < @bsum R ROps n (fun i => x i * @mvmul R ROps n A x i).
