(** * Model of the dense matrices and their operations

    Sources (under /repo/include/lalib): mat/dyn_mat.hpp:14-228 (DynMat),
    mat/sized_mat.hpp:14-247 (SizedMat), ops/mat_vec_ops_core.hpp, ops/mat_vec_ops.hpp,
    ops/mat_mat_ops_core.hpp, ops/mat_mat_ops.hpp, ops/mat_ops.hpp, mat.hpp.

    A matrix object is the id of its buffer together with its shape.  For [DynMat] the shape is
    the run-time field [_shape]; for [SizedMat<T,N,M>] it is the pair of template arguments.
    The overloads that mix static and dynamic operands run the same kernel on the same data; they
    differ only in which of the asserts are written (a constraint between template arguments is
    enforced by the type checker instead).  They are therefore modelled by one definition that
    carries all the constraints as asserts.
    BLAS variants are in ModelBlas.v.  The [omp simd] pragma of the row loop is ignored here
    (sequential reading); ProofMatSched.v treats all schedules. *)
From Verif Require Import Base Scalar ModelVec.
Local Open Scope sc_scope.

Record mat : Type := mkMat { mp : ptr; mr : nat; mc : nat }.

Section ModelMat.
Context {T : Type} {O : Ops T}.

(** ** Construction *)

(** dyn_mat.hpp:21-33: the three constructors from flat data; the length is not checked *)
Definition dynmat_of (n m : nat) (arr : list T) : M (heap T) mat :=
  p <- alloc arr ;; ret (mkMat p n m).

(** sized_mat.hpp:98-109 (initializer_list) and 111-122 (std::vector).  [_elems] is a
    std::array of N*M elements; the copy fills all of it. *)
Definition sizedmat_of (N M' : nat) (arr : list T) : M (heap T) mat :=
  if negb (Nat.eqb (length arr) (N * M')) then throw RuntimeError
  else p <- alloc arr ;; ret (mkMat p N M').

(** dyn_mat.hpp:100-104 ([std::vector<T>(n*m)]) and sized_mat.hpp:124-128 (value-initialised
    std::array) *)
Definition mat_uninit (n m : nat) : M (heap T) mat :=
  p <- alloc (repeat zero (n * m)) ;; ret (mkMat p n m).

(** dyn_mat.hpp:147-161 / sized_mat.hpp:172-184: [operator()], unchecked; 163-173 / 186-196:
    [at], [mut_at] forward to it *)
Definition mat_get (A : mat) (i j : nat) : M (heap T) T := load (mp A) (i * mc A + j).
Definition mat_put (A : mat) (i j : nat) (x : T) : M (heap T) unit := store (mp A) (i * mc A + j) x.
Definition mat_at (A : mat) (i j : nat) : M (heap T) T := mat_get A i j.
Definition mat_mut_at (A : mat) (i j : nat) (x : T) : M (heap T) unit := mat_put A i j x.

(** dyn_mat.hpp:106-116, sized_mat.hpp:130-140 *)
Definition mat_filled (value : T) (n m : nat) : M (heap T) mat :=
  noexcept (
    A <- mat_uninit n m ;;
    for_u32 0 n (fun i _ =>
      for_u32 0 m (fun j _ => mat_put A i j value) tt) tt ;;
    ret A).

(** dyn_mat.hpp:118-127, sized_mat.hpp:142-151 *)
Definition mat_diag_list (value : list T) : M (heap T) mat :=
  noexcept (
    let n := length value in
    A <- mat_uninit n n ;;
    for_u32 0 n (fun i _ => x <- vec_at value i ;; mat_put A i i x) tt ;;
    ret A).

(** dyn_mat.hpp:129-137, sized_mat.hpp:153-162 *)
Definition mat_diag (value : T) (n : nat) : M (heap T) mat :=
  noexcept (
    A <- mat_uninit n n ;;
    for_u32 0 n (fun i _ => mat_put A i i value) tt ;;
    ret A).

(** dyn_mat.hpp:139-144, sized_mat.hpp:164-170 *)
Definition mat_identity (n : nat) : M (heap T) mat := noexcept (mat_diag one n).

(** dyn_mat.hpp:36, sized_mat.hpp copy constructor (defaulted) *)
Definition mat_copy (A : mat) : M (heap T) mat :=
  l <- contents (mp A) ;; p <- alloc l ;; ret (mkMat p (mr A) (mc A)).

(** dyn_mat.hpp:63, sized_mat.hpp:61 (defaulted copy assignment): elements and shape are taken
    over.  The result is the destination object with its new shape. *)
Definition mat_assign (dst src : mat) : M (heap T) mat :=
  fun h => Ok (mkMat (mp dst) (mr src) (mc src)) (upd h (mp dst) (mem h (mp src))).

(** ** Matrix-vector product *)

(** mat_vec_ops_core.hpp:28-52 *)
Definition mv_core (n m : nat) (alpha : T) (a x : ptr) (beta : T) (y : ptr) : M (heap T) ptr :=
  if Nat.eqb x y then
    tmp <- alloc (repeat zero n) ;;
    for_u32 0 n (fun i _ =>
      v <- load y i ;; store tmp i (beta * v) ;;
      for_u32 0 m (fun k _ =>
        t <- load tmp i ;; aik <- load a (i * m + k)%nat ;; xk <- load x k ;;
        store tmp i (t + alpha * aik * xk)) tt) tt ;;
    copy_n n tmp y ;;
    ret y
  else
    for_u32 0 n (fun i _ =>
      v <- load y i ;; store y i (beta * v) ;;
      for_u32 0 m (fun k _ =>
        t <- load y i ;; aik <- load a (i * m + k)%nat ;; xk <- load x k ;;
        store y i (t + alpha * aik * xk)) tt) tt ;;
    ret y.

(** mat_vec_ops.hpp:16-47 (and the kernel wrapper mat_vec_ops_core.hpp:66-70, noexcept) *)
Definition mulv (dbg : bool) (alpha : T) (A : mat) (v : ptr) (beta : T) (vr : ptr) : M (heap T) ptr :=
  noexcept (
    nv <- vsize v ;; nr <- vsize vr ;;
    assert_ dbg (Nat.eqb (mc A) nv) ;; assert_ dbg (Nat.eqb (mr A) nr) ;;
    mv_core (mr A) (mc A) alpha (mp A) v beta vr ;; ret vr).

(** mat_vec_ops.hpp:59-90 *)
Definition op_mulv (dbg : bool) (A : mat) (v : ptr) : M (heap T) ptr :=
  noexcept (
    nv <- vsize v ;; assert_ dbg (Nat.eqb (mc A) nv) ;;
    vr <- alloc (repeat zero (mr A)) ;;
    mv_core (mr A) (mc A) one (mp A) v zero vr ;; ret vr).

(** ** Matrix-matrix product *)

(** mat_mat_ops_core.hpp:26-50 ([n], [m]: shape of the result, [o]: inner dimension) *)
Definition mm_core (n m o : nat) (alpha : T) (a b : ptr) (beta : T) (c : ptr) : M (heap T) ptr :=
  if Nat.eqb a c || Nat.eqb b c then
    tmpc <- alloc (repeat zero (n * m)%nat) ;;
    for_u32 0 n (fun i _ =>
      for_u32 0 m (fun j _ =>
        v <- load c (i * m + j)%nat ;; store tmpc (i * m + j)%nat (beta * v) ;;
        for_u32 0 o (fun k _ =>
          t <- load tmpc (i * m + j)%nat ;;
          x <- load a (i * o + k)%nat ;; y <- load b (k * m + j)%nat ;;
          store tmpc (i * m + j)%nat (t + alpha * x * y)) tt) tt) tt ;;
    copy_n (n * m)%nat tmpc c ;;
    ret c
  else
    for_u32 0 n (fun i _ =>
      for_u32 0 m (fun j _ =>
        v <- load c (i * m + j)%nat ;; store c (i * m + j)%nat (v * beta) ;;
        for_u32 0 o (fun k _ =>
          t <- load c (i * m + j)%nat ;;
          x <- load a (i * o + k)%nat ;; y <- load b (k * m + j)%nat ;;
          store c (i * m + j)%nat (t + alpha * x * y)) tt) tt) tt ;;
    ret c.

(** mat_mat_ops.hpp:111-180, written for the fully dynamic overload (171-180).  In the mixed
    overloads n, m, l come from whichever operand has them statically; they are the same numbers
    whenever the asserted/typed constraints hold.  (The overload 143-149 has a misspelt member
    name in an assert and does not compile when asserts are on.) *)
Definition mulm (dbg : bool) (alpha : T) (A B : mat) (beta : T) (C : mat) : M (heap T) mat :=
  noexcept (
    assert_ dbg (Nat.eqb (mr A) (mr C)) ;;
    assert_ dbg (Nat.eqb (mc B) (mc C)) ;;
    assert_ dbg (Nat.eqb (mc A) (mr B)) ;;
    mm_core (mr C) (mc C) (mc A) alpha (mp A) (mp B) beta (mp C) ;; ret C).

(** mat_mat_ops.hpp:183-195 *)
Definition op_mulm (dbg : bool) (A B : mat) : M (heap T) mat :=
  noexcept (
    C <- mat_uninit (mr A) (mc B) ;;
    mulm dbg one A B zero C ;; ret C).

(** ** Entry-wise operations *)

Definition shape_eqb (A B : mat) : bool := Nat.eqb (mr A) (mr B) && Nat.eqb (mc A) (mc B).

(** mat_mat_ops.hpp:17-43 *)
Definition addm (dbg : bool) (A B C : mat) : M (heap T) mat :=
  noexcept (
    assert_ dbg (shape_eqb A B) ;; assert_ dbg (shape_eqb A C) ;;
    add_core (mp A) (mp B) (mp C) (mr A * mc A) ;; ret C).

(** mat_mat_ops.hpp:45-57 *)
Definition op_addm (dbg : bool) (A B : mat) : M (heap T) mat :=
  noexcept (C <- mat_copy A ;; addm dbg A B C ;; ret C).

(** mat_mat_ops.hpp:64-90 *)
Definition subm (dbg : bool) (A B C : mat) : M (heap T) mat :=
  noexcept (
    assert_ dbg (shape_eqb A B) ;; assert_ dbg (shape_eqb A C) ;;
    sub_core (mp A) (mp B) (mp C) (mr A * mc A) ;; ret C).

(** mat_mat_ops.hpp:92-104 *)
Definition op_subm (dbg : bool) (A B : mat) : M (heap T) mat :=
  noexcept (C <- mat_copy A ;; subm dbg A B C ;; ret C).

(** mat_ops.hpp:17-29 *)
Definition scalem (alpha : T) (A : mat) : M (heap T) mat :=
  noexcept (scal_core alpha (mp A) (mr A * mc A) ;; ret A).

(** mat_ops.hpp:44-56 *)
Definition op_scalem (alpha : T) (A : mat) : M (heap T) mat :=
  noexcept (C <- mat_copy A ;; scalem alpha C ;; ret C).

(** mat_ops.hpp:77-91, unary minus: [scale(-1.0, copy)] *)
Definition op_negm (A : mat) : M (heap T) mat :=
  noexcept (C <- mat_copy A ;; scalem (- one) C ;; ret C).

(** ** 2x2 inversion *)

(** mat.hpp:29-47.  [A], [B] are 2x2; the aliased branch is taken when [&mat == &mat_r].  The
    result is returned by value, i.e. as a copy of [B]. *)
Definition invert2 (A B : mat) : M (heap T) mat :=
  (if negb (Nat.eqb (mp A) (mp B)) then
     m00 <- mat_get A 0 0 ;; m11 <- mat_get A 1 1 ;; m01 <- mat_get A 0 1 ;; m10 <- mat_get A 1 0 ;;
     let denom := m00 * m11 - m01 * m10 in
     x <- mat_get A 1 1 ;; mat_put B 0 0 x ;;
     x <- mat_get A 0 0 ;; mat_put B 1 1 x ;;
     x <- mat_get A 0 1 ;; mat_put B 0 1 (- x) ;;
     x <- mat_get A 1 0 ;; mat_put B 1 0 (- x) ;;
     scalem (one / denom) B
   else
     m00 <- mat_get A 0 0 ;; m11 <- mat_get A 1 1 ;; m01 <- mat_get A 0 1 ;; m10 <- mat_get A 1 0 ;;
     let denom := m00 * m11 - m01 * m10 in
     (* std::swap *)
     x <- mat_get B 0 0 ;; y <- mat_get B 1 1 ;; mat_put B 0 0 y ;; mat_put B 1 1 x ;;
     x <- mat_get B 0 1 ;; mat_put B 0 1 (x * (- one)) ;;
     x <- mat_get B 1 0 ;; mat_put B 1 0 (x * (- one)) ;;
     scalem (one / denom) B) ;;
  mat_copy B.

(** mat.hpp:49-53 *)
Definition invert2_inplace (A : mat) : M (heap T) mat := invert2 A A ;; ret A.

(** mat.hpp:55-60 *)
Definition inverted2 (A : mat) : M (heap T) mat :=
  B <- mat_uninit 2 2 ;; inv <- invert2 A B ;; ret inv.

End ModelMat.
