(** * Model of the products as compiled with LALIB_BLAS_BACKEND (float and double)

    The CBLAS library is not part of the repository.  Its two routines are parameters of the
    model; what they are assumed to do is written down in SpecBlas.v. *)
From Verif Require Import Base Scalar ModelMat.
Local Open Scope sc_scope.

Section ModelBlas.
Context {T : Type} {Op : Ops T}.

(** Passing a [size_t] where the prototype has [int] (mat_vec_ops_core.hpp:76,79,93,96;
    mat_mat_ops_core.hpp:63,66,81,84). *)
Definition c_int (n : nat) : Z := to_int32 (Z.of_nat n).

(** cblas_?gemv(CblasRowMajor, CblasNoTrans, n, m, alpha, A, lda, x, 1, beta, y, 1) *)
Definition gemv_routine : Type := Z -> Z -> T -> ptr -> Z -> ptr -> T -> ptr -> M (heap T) unit.
(** cblas_?gemm(CblasRowMajor, CblasNoTrans, CblasNoTrans, n, m, k, alpha, A, lda, B, ldb, beta, C, ldc) *)
Definition gemm_routine : Type :=
  Z -> Z -> Z -> T -> ptr -> Z -> ptr -> Z -> T -> ptr -> Z -> M (heap T) unit.

Section Calls.
Variable gemv : gemv_routine.
Variable gemm : gemm_routine.

(** mat_vec_ops_core.hpp:72-86 (float), 89-103 (double): the temporary of the aliased branch is
    value-initialised, [y] is not copied into it. *)
Definition mv_core_blas (n m : nat) (alpha : T) (a x : ptr) (beta : T) (y : ptr) : M (heap T) ptr :=
  if Nat.eqb x y then
    tmp <- alloc (repeat zero n) ;;
    gemv (c_int n) (c_int m) alpha a (c_int (Nat.max 1 m)) x beta tmp ;;
    copy_n n tmp y ;;
    ret y
  else
    gemv (c_int n) (c_int m) alpha a (c_int (Nat.max 1 m)) x beta y ;;
    ret y.

(** mat_mat_ops_core.hpp:58-73 (float), 76-91 (double) *)
Definition mm_core_blas (n m l : nat) (alpha : T) (a b : ptr) (beta : T) (c : ptr) : M (heap T) ptr :=
  if Nat.eqb a c || Nat.eqb b c then
    tmp <- alloc (repeat zero (n * m)%nat) ;;
    copy_n (n * m)%nat c tmp ;;
    gemm (c_int n) (c_int m) (c_int l) alpha a (c_int l) b (c_int m) beta tmp (c_int n) ;;
    copy_n (n * m)%nat tmp c ;;
    ret c
  else
    gemm (c_int n) (c_int m) (c_int l) alpha a (c_int l) b (c_int m) beta c (c_int n) ;;
    ret c.

(** mat_vec_ops.hpp:16-47 over the kernel above *)
Definition mulv_blas (dbg : bool) (alpha : T) (A : mat) (v : ptr) (beta : T) (vr : ptr) : M (heap T) ptr :=
  noexcept (
    nv <- vsize v ;; nr <- vsize vr ;;
    assert_ dbg (Nat.eqb (mc A) nv) ;; assert_ dbg (Nat.eqb (mr A) nr) ;;
    mv_core_blas (mr A) (mc A) alpha (mp A) v beta vr ;; ret vr).

(** mat_vec_ops.hpp:59-90 over the kernel above *)
Definition op_mulv_blas (dbg : bool) (A : mat) (v : ptr) : M (heap T) ptr :=
  noexcept (
    nv <- vsize v ;; assert_ dbg (Nat.eqb (mc A) nv) ;;
    vr <- alloc (repeat zero (mr A)) ;;
    mv_core_blas (mr A) (mc A) one (mp A) v zero vr ;; ret vr).

(** mat_mat_ops.hpp:111-180 over the kernel above *)
Definition mulm_blas (dbg : bool) (alpha : T) (A B : mat) (beta : T) (C : mat) : M (heap T) mat :=
  noexcept (
    assert_ dbg (Nat.eqb (mr A) (mr C)) ;;
    assert_ dbg (Nat.eqb (mc B) (mc C)) ;;
    assert_ dbg (Nat.eqb (mc A) (mr B)) ;;
    mm_core_blas (mr C) (mc C) (mc A) alpha (mp A) (mp B) beta (mp C) ;; ret C).

(** mat_mat_ops.hpp:183-195 over the kernel above *)
Definition op_mulm_blas (dbg : bool) (A B : mat) : M (heap T) mat :=
  noexcept (
    C <- mat_uninit (mr A) (mc B) ;;
    mulm_blas dbg one A B zero C ;; ret C).
End Calls.
End ModelBlas.
