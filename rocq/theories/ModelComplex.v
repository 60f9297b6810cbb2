(** * Complex elements

    The library names vectors and matrices of std::complex<float> and std::complex<double>
    (include/lalib/vec.hpp:13-19, mat.hpp:18-24: VecC, VecZ, DynVecC, DynVecZ, MatC, MatZ, DynMatC,
    DynMatZ), has complex axpy kernels (ops/vec_ops_core.hpp:183-201) and complex calls of LAPACK's
    Cholesky routines (solver/lapack/potr.hpp:31-41, 58-68).  The model's functions are generic in
    the element type; this is the element type std::complex, in exact arithmetic.

    The functions that take part: + - unary - and scaling of vectors and matrices, axpy, cross
    products, norm2, the forms of mul that are given alpha and beta, Hermite matrices, and
    DynCholeskyFactorization when compiled with LAPACK.  The operators A*x and A*B, dot, and the
    other solvers cannot be instantiated: mul_core(n, m, 1.0, ...) and mul(1.0, ...) deduce two
    types for T, dot_core returns a pointer, TriDiag requires std::floating_point, the built-in
    Cholesky routines and GMRES compare elements or convert them to double. *)
From Coq Require Import Reals Lra.
From Verif Require Import Base Scalar.
Local Open Scope R_scope.

Definition C : Type := (R * R)%type.
Definition re (z : C) : R := fst z.
Definition im (z : C) : R := snd z.
Definition conj (z : C) : C := (re z, - im z).
(** |z|^2 *)
Definition csq (z : C) : R := re z * re z + im z * im z.

(** The operators of std::complex.  std::sqrt is the root with non-negative real part; there is no
    order, [ltb] is used by no function named above. *)
Definition cadd (x y : C) : C := (re x + re y, im x + im y).
Definition csub (x y : C) : C := (re x - re y, im x - im y).
Definition cmul (x y : C) : C := (re x * re y - im x * im y, re x * im y + im x * re y).
Definition cdiv (x y : C) : C :=
  ((re x * re y + im x * im y) / csq y, (im x * re y - re x * im y) / csq y).
Definition csqrt (z : C) : C :=
  (R_sqrt.sqrt ((R_sqrt.sqrt (csq z) + re z) / 2),
   (if Rlt_dec (im z) 0 then -1 else 1) * R_sqrt.sqrt ((R_sqrt.sqrt (csq z) - re z) / 2)).
Definition ceqb (x y : C) : bool :=
  if Req_EM_T (re x) (re y) then if Req_EM_T (im x) (im y) then true else false else false.
#[global] Instance COps : Ops C := {|
  zero := (0, 0); one := (1, 0); add := cadd; sub := csub; mul := cmul; div := cdiv;
  opp := fun x => (- re x, - im x); sqrt_ := csqrt; pow2 := fun x => cmul x x;
  abs_ := fun x => (R_sqrt.sqrt (csq x), 0); eqb := ceqb; ltb := fun _ _ => false
|}.
