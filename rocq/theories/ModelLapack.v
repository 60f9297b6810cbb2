(** * Model of the direct solvers as compiled with LALIB_LAPACK_BACKEND

    The LAPACK library is not part of the repository.  The three routines called are parameters of
    the model; what they are assumed to do is written down in SpecLapack.v. *)
From Verif Require Import Base Scalar ModelVec ModelMat ModelPacked ModelSolvers ModelBlas.
Local Open Scope nat_scope.

Section ModelLapack.
Context {T : Type} {Op : Ops T}.

(** LAPACKE_?gtsv(LAPACK_ROW_MAJOR, n, nrhs, dl, d, du, b, ldb) (solver/lapack/gtsv.hpp:24-58).
    The three bands belong to the solver object and are overwritten: the call returns the code and
    their new elements. *)
Definition bands : Type := (list T * list T * list T)%type.
Definition gtsv_routine : Type := Z -> Z -> list T -> list T -> list T -> ptr -> Z -> M (heap T) (Z * bands).
(** LAPACKE_?potrf(LAPACK_ROW_MAJOR, 'L', n, l, lda) and LAPACKE_?potrs(LAPACK_ROW_MAJOR, 'L', n,
    nrhs, l, lda, b, ldb) (solver/lapack/potr.hpp) *)
Definition potrf_routine : Type := Z -> ptr -> Z -> M (heap T) Z.
Definition potrs_routine : Type := Z -> Z -> ptr -> Z -> ptr -> Z -> M (heap T) Z.

Section Calls.
Variable gtsv : gtsv_routine.
Variable potrf : potrf_routine.
Variable potrs : potrs_routine.

(** tri_diag.hpp:48-64, lines 56-58.  The return code of the routine is ignored.  Besides the
    result vector the call returns the matrix now stored in the solver. *)
Definition tridiag_solve_vec_lapack (dbg : bool) (t : tri T) (b rslt : ptr) : M (heap T) (ptr * tri T) :=
  noexcept (
    nb <- vsize b ;; assert_ dbg (Nat.eqb (tri_order t) nb) ;;
    vec_assign rslt b ;;
    r <- gtsv (c_int (tri_order t)) 1%Z (tdl t) (td t) (tdu t) rslt 1%Z ;;
    ret (rslt, mkTri (fst (fst (snd r))) (snd (fst (snd r))) (snd (snd r)))).

(** tri_diag.hpp:66-84, lines 76-78 *)
Definition tridiag_solve_mat_lapack (dbg : bool) (t : tri T) (b rslt : mat) : M (heap T) (mat * tri T) :=
  noexcept (
    assert_ dbg (Nat.eqb (tri_order t) (mr b)) ;;
    assert_ dbg (shape_eqb b rslt) ;;
    rslt <- mat_assign rslt b ;;
    r <- gtsv (c_int (tri_order t)) (c_int (mc b)) (tdl t) (td t) (tdu t) (mp rslt) (c_int (mc rslt)) ;;
    ret (rslt, mkTri (fst (fst (snd r))) (snd (fst (snd r))) (snd (snd r)))).

(** cholesky_factorization.hpp:151-165, line 157 *)
Definition dyn_cholesky_lapack (A : mat) : M (heap T) chol :=
  D <- mat_copy A ;;
  c <- potrf (c_int (mr A)) (mp D) (c_int (mr A)) ;;
  if Z.eqb c 0 then ret (mkChol (mr A) (mp D) Square) else throw RuntimeError.

(** cholesky_factorization.hpp:174-234, lines 180, 195, 211, 228; the return codes are ignored *)
Definition chol_solve_mut_vec_lapack (dbg : bool) (F : chol) (rhs : ptr) : M (heap T) ptr :=
  n <- vsize rhs ;; assert_ dbg (Nat.eqb (chn F) n) ;;
  potrs (c_int n) 1%Z (chp F) (c_int (chn F)) rhs 1%Z ;; ret rhs.
Definition chol_solve_vec_lapack (dbg : bool) (F : chol) (rhs : ptr) : M (heap T) ptr :=
  n <- vsize rhs ;; assert_ dbg (Nat.eqb (chn F) n) ;;
  rslt <- vec_copy rhs ;;
  potrs (c_int n) 1%Z (chp F) (c_int (chn F)) rslt 1%Z ;; ret rslt.
Definition chol_solve_mut_mat_lapack (dbg : bool) (F : chol) (rhs : mat) : M (heap T) mat :=
  assert_ dbg (Nat.eqb (chn F) (mr rhs)) ;;
  potrs (c_int (mr rhs)) (c_int (mc rhs)) (chp F) (c_int (chn F)) (mp rhs) (c_int (mc rhs)) ;; ret rhs.
Definition chol_solve_mat_lapack (dbg : bool) (F : chol) (rhs : mat) : M (heap T) mat :=
  assert_ dbg (Nat.eqb (chn F) (mr rhs)) ;;
  rslt <- mat_copy rhs ;;
  potrs (c_int (mr rhs)) (c_int (mc rhs)) (chp F) (c_int (chn F)) (mp rslt) (c_int (mc rslt)) ;; ret rslt.
End Calls.
End ModelLapack.
