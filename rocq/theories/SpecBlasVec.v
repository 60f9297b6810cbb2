(** * What is assumed of the level-1 routines of CBLAS

    From the reference documentation, in exact arithmetic.  Nothing is assumed about axpy on a vector
    and itself (the Fortran interface forbids overlapping arguments of which one is written), nor
    about arrays shorter than [n]. *)
From Verif Require Import Base Scalar BaseLemmas Spec SpecMat SpecBlas ModelBlasVec.
Local Open Scope nat_scope.

Section SpecBlasVec.
Context {T : Type} {O : Ops T}.

Record vblas_contract (B : vblas T) : Prop := {
  (** y := alpha*x + y on the first n elements *)
  axpy_computes : forall n alpha x y h, x <> y -> n <= len h x -> n <= len h y ->
    post (b_axpy B (Z.of_nat n) alpha x y) h (fun _ h' => wrote_only h h' y /\
      forall i, rd h' y i = if Nat.ltb i n then add (mul alpha (rd h x i)) (rd h y i) else rd h y i);
  (** x := alpha*x *)
  scal_computes : forall n alpha x h, n <= len h x ->
    post (b_scal B (Z.of_nat n) alpha x) h (fun _ h' => wrote_only h h' x /\
      forall i, rd h' x i = if Nat.ltb i n then mul alpha (rd h x i) else rd h x i);
  dot_computes : forall n x y h, n <= len h x -> n <= len h y ->
    b_dot B (Z.of_nat n) x y h = Ok (bsum n (fun i => mul (rd h x i) (rd h y i))) h;
  nrm2_computes : forall n x h, 0 < n -> n <= len h x ->
    b_nrm2 B (Z.of_nat n) x h = Ok (sqrt_ (bsum n (fun i => mul (rd h x i) (rd h x i)))) h;
  (** a non-positive count is not an error: quick return *)
  axpy_quick : forall n alpha x y h, (n < 0)%Z -> b_axpy B n alpha x y h = Ok tt h;
  scal_quick : forall n alpha x h, (n < 0)%Z -> b_scal B n alpha x h = Ok tt h;
  dot_quick : forall n x y h, (n < 0)%Z -> b_dot B n x y h = Ok zero h;
  nrm2_quick : forall n x h, (n <= 0)%Z -> b_nrm2 B n x h = Ok zero h }.

(** ** A library that meets the contract *)
Definition ref_vblas : vblas T := {|
  b_axpy := fun n alpha x y h => if (n <? 0)%Z then Ok tt h else let n := Z.to_nat n in
    Ok tt (upd h y (map (fun i => if Nat.ltb i n then add (mul alpha (rd h x i)) (rd h y i) else rd h y i) (seq 0 (len h y))));
  b_scal := fun n alpha x h => if (n <? 0)%Z then Ok tt h else let n := Z.to_nat n in
    Ok tt (upd h x (map (fun i => if Nat.ltb i n then mul alpha (rd h x i) else rd h x i) (seq 0 (len h x))));
  b_dot := fun n x y h => Ok (bsum (Z.to_nat n) (fun i => mul (rd h x i) (rd h y i))) h;
  b_nrm2 := fun n x h => if (n <=? 0)%Z then Ok zero h else Ok (sqrt_ (bsum (Z.to_nat n) (fun i => mul (rd h x i) (rd h x i)))) h |}.
End SpecBlasVec.
