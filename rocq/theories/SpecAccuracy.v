(** * Spec: accuracy of a computed solution

    For a vector xh meant to solve A x = b.  [W i j] and [E i] measure what happened to the entries
    of A and b: the residual is at most |W| |xh| + E in every row.  From this follow bounds for the
    difference to the solution x, by what is known about the inverse of A. *)
From Coq Require Import Reals.
From Verif Require Import Base Scalar Spec RealVec.
Local Open Scope R_scope.
Local Notation mvR := (@mvmul R ROps).
Local Notation mmR := (@mmmul R ROps).
Local Notation solvesR := (@solves R ROps).
Local Notation sumR := (@bsum R ROps).

(** What the perturbations W and E amount to in row i. *)
Definition slack n (W : nat -> nat -> R) (E xh : nat -> R) (i : nat) : R := sumR n (fun j => W i j * Rabs (xh j)) + E i.
Definition small_residual n A W b E xh : Prop := forall i, (i < n)%nat -> Rabs (b i - mvR n A xh i) <= slack n W E xh i.

(** B A = 1 *)
Definition left_inverse n (B A : nat -> nat -> R) : Prop :=
  forall i j, (i < n)%nat -> (j < n)%nat -> mmR n B A i j = if Nat.eqb i j then 1 else 0.
(** By how much the diagonal entry exceeds the rest of its row. *)
Definition row_dominance n (A : nat -> nat -> R) (mu : R) : Prop :=
  forall i, (i < n)%nat -> mu <= Rabs (A i i) - sumR n (fun j => if Nat.eqb j i then 0 else Rabs (A i j)).
(** v^T A v is at least lambda |v|^2. *)
Definition coercive n (A : nat -> nat -> R) (lambda : R) : Prop :=
  forall v, lambda * dotp n v v <= dotp n v (mvR n A v).

(** Errors in terms of the computed vector. *)
Definition error_by_inverse n A W b E xh : Prop := forall B x, left_inverse n B A -> solvesR n A x b ->
  forall i, (i < n)%nat -> Rabs (xh i - x i) <= sumR n (fun j => Rabs (B i j) * slack n W E xh j).
Definition error_by_dominance n A W b E xh : Prop := forall mu m x, 0 < mu -> row_dominance n A mu -> solvesR n A x b ->
  (forall i, (i < n)%nat -> slack n W E xh i <= m) -> forall i, (i < n)%nat -> Rabs (xh i - x i) <= m / mu.
Definition error_by_definiteness n A W b E xh : Prop := forall lambda x, 0 < lambda -> coercive n A lambda -> solvesR n A x b ->
  nrm n (fun i => xh i - x i) <= nrm n (slack n W E xh) / lambda.
(** Errors in terms of the exact solution, if the perturbations are small compared to the inverse. *)
Definition relative_by_inverse n A W b E xh : Prop := forall B kappa eps m x, left_inverse n B A -> solvesR n A x b ->
  (forall i, (i < n)%nat -> sumR n (fun j => Rabs (B i j) * sumR n (W j)) <= kappa) ->
  (forall i, (i < n)%nat -> sumR n (fun j => Rabs (B i j) * E j) <= eps) -> kappa < 1 -> (forall i, (i < n)%nat -> Rabs (x i) <= m) ->
  forall i, (i < n)%nat -> Rabs (xh i - x i) <= (kappa * m + eps) / (1 - kappa).
Definition relative_by_dominance n A W b E xh : Prop := forall mu w eps m x, row_dominance n A mu -> solvesR n A x b ->
  (forall i, (i < n)%nat -> sumR n (W i) <= w) -> (forall i, (i < n)%nat -> E i <= eps) -> w < mu -> (forall i, (i < n)%nat -> Rabs (x i) <= m) ->
  forall i, (i < n)%nat -> Rabs (xh i - x i) <= (w * m + eps) / (mu - w).
Definition relative_by_definiteness n A W b E xh : Prop := forall lambda w x, coercive n A lambda -> solvesR n A x b ->
  (forall v, nrm n (fun i => sumR n (fun j => W i j * Rabs (v j))) <= w * nrm n v) -> w < lambda ->
  nrm n (fun i => xh i - x i) <= (w * nrm n x + nrm n E) / (lambda - w).

Definition accurate n A W b E xh : Prop := small_residual n A W b E xh /\
  error_by_inverse n A W b E xh /\ error_by_dominance n A W b E xh /\ error_by_definiteness n A W b E xh /\
  relative_by_inverse n A W b E xh /\ relative_by_dominance n A W b E xh /\ relative_by_definiteness n A W b E xh.
