(** * What is claimed of complex elements, and what is assumed of LAPACK's complex routines *)
From Coq Require Import Reals.
From Verif Require Import Base Scalar BaseLemmas Spec ModelVec ModelMat SpecMat ModelPacked ModelSolvers ModelBlas SpecBlas
  ModelLapack ProofCholMath PropChol ModelComplex.
Local Open Scope nat_scope.

(** The Euclidean norm of a complex vector. *)
Definition cnorm (n : nat) (x : nat -> C) : R := R_sqrt.sqrt (bsum n (fun i => csq (x i))).
(** The conjugate transpose. *)
Definition ctransp (A : nat -> nat -> C) i j : C := conj (A j i).
Definition hermitian n (A : nat -> nat -> C) : Prop := forall i j, i < n -> j < n -> A j i = conj (A i j).
(** x* A x > 0 for every x but zero (its real part; for a Hermitian matrix there is no other). *)
Definition hform n (A : nat -> nat -> C) (x : nat -> C) : C := bsum n (fun i => mul (conj (x i)) (mvmul n A x i)).
Definition hpos_def n (A : nat -> nat -> C) : Prop :=
  forall x, (exists i, i < n /\ x i <> zero) -> (0 < re (hform n A x))%R.
(** The Hermitian matrix given by the lower triangle of A; imaginary parts on the diagonal are
    taken to be zero. *)
Definition hermf (A : nat -> nat -> C) i j : C :=
  if Nat.ltb j i then A i j else if Nat.eqb j i then (re (A i i), 0%R) else conj (A j i).

(** LAPACKE_?potrf and ?potrs ('L', row-major) for complex elements: the factor is L with
    L L* = A, its diagonal real and positive. *)
Definition atc (h : heap C) (l : ptr) m i j : C := rd h l (i * m + j).
Record cpotrf_contract (potrf : potrf_routine (T := C)) : Prop := {
  cpotrf_factors : forall n l (h : heap C), 0 < n -> (Z.of_nat n < 2 ^ 31)%Z -> l < next h -> len h l = n * n ->
    hpos_def n (hermf (atc h l n)) ->
    post (potrf (Z.of_nat n) l (Z.of_nat n)) h (fun c h' =>
      c = 0%Z /\ wrote_only h h' l /\
      (forall i j, i < n -> j < n -> i < j -> atc h' l n i j = atc h l n i j) /\
      (forall i, i < n -> (0 < re (atc h' l n i i))%R /\ im (atc h' l n i i) = 0%R) /\
      meq n n (mmmul n (lowf (atc h' l n)) (ctransp (lowf (atc h' l n)))) (hermf (atc h l n)));
  cpotrf_reports : forall n l (h : heap C), 0 < n -> (Z.of_nat n < 2 ^ 31)%Z -> l < next h -> len h l = n * n ->
    ~ hpos_def n (hermf (atc h l n)) ->
    post (potrf (Z.of_nat n) l (Z.of_nat n)) h (fun c h' => c <> 0%Z /\ wrote_only h h' l) }.
Record cpotrs_contract (potrs : potrs_routine (T := C)) : Prop := {
  cpotrs_solves : forall n m l b (h : heap C), 0 < n -> (Z.of_nat n < 2 ^ 31)%Z -> 0 < m -> (Z.of_nat m < 2 ^ 31)%Z ->
    l <> b -> l < next h -> b < next h -> len h l = n * n -> len h b = n * m ->
    (forall i, i < n -> atc h l n i i <> zero) ->
    post (potrs (Z.of_nat n) (Z.of_nat m) l (Z.of_nat n) b (Z.of_nat m)) h (fun c h' =>
      c = 0%Z /\ wrote_only h h' b /\
      forall k, k < m ->
        solves n (mmmul n (lowf (atc h l n)) (ctransp (lowf (atc h l n))))
          (fun i => atc h' b m i k) (fun i => atc h b m i k)) }.

(** An object holding a factor of A. *)
Definition cfactor_of (h : heap C) (F : chol) n (A : nat -> nat -> C) : Prop :=
  isfac h F n /\ (forall i, i < n -> (0 < re (fac h F i i))%R /\ im (fac h F i i) = 0%R) /\
  meq n n (mmmul n (lowf (fac h F)) (ctransp (lowf (fac h F)))) A.
