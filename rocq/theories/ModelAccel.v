(** * Model of vector and matrix addition and subtraction with LALIB_USE_ACCELERATOR defined

    Sources: include/lalib/ops/vec_ops_core.hpp:48-77, 98-127, include/lalib/ops/vec_ops.hpp:273-364,
    include/lalib/ops/mat_mat_ops.hpp:17-104, cmake/backend.cmake:12-17 (under /repo).

    With that macro the addition and subtraction kernels hand vectors of 16 or more elements to
    [#pragma omp target teams distribute parallel for], without a [map] clause.  OpenMP treats the
    pointers [v1], [v2], [vr] as zero-length array sections: if the storage they point to is present
    in the device's data environment (the program mapped it) the kernel gets the address of the
    device copy, otherwise it gets an address that is of no use on the device.

    The state is the host memory together with the device memory; the device copy of host buffer [p]
    is buffer [p] of the device memory.  [SharedMem] is a device that works on the host memory
    itself (no device, so that the loop runs on the host, or unified shared memory); [OwnMem present]
    is a device with its own memory, [present p] telling whether buffer [p] is mapped.
    Using an unmapped address on such a device is [ub].  The kernel's loop is read sequentially here;
    PropAccel.v treats its schedules.  Simplified: [present] does not change during a call, and a
    mapped buffer is mapped as a whole (a device copy that is too short makes the accesses [ub]). *)
From Verif Require Import Base Scalar ModelVec ModelMat.
Local Open Scope sc_scope.

Inductive device : Type :=
| SharedMem
| OwnMem (present : ptr -> bool).

Section ModelAccel.
Context {T : Type} {O : Ops T}.

Notation st := (heap T * heap T)%type.

Definition on_host {A} (m : M (heap T) A) : M st A :=
  fun s => match m (fst s) with
           | Ok a h => Ok a (h, snd s)
           | Throw e h => Throw e (h, snd s)
           | Terminate => Terminate
           | AssertFail => AssertFail
           | UB => UB
           | Diverge => Diverge
           end.
Definition on_device {A} (m : M (heap T) A) : M st A :=
  fun s => match m (snd s) with
           | Ok a d => Ok a (fst s, d)
           | Throw e d => Throw e (fst s, d)
           | Terminate => Terminate
           | AssertFail => AssertFail
           | UB => UB
           | Diverge => Diverge
           end.

(** [#pragma omp target] around [m], which uses the three pointers. *)
Definition target {A} (dv : device) (v1 v2 vr : ptr) (m : M (heap T) A) : M st A :=
  match dv with
  | SharedMem => on_host m
  | OwnMem present => if present v1 && present v2 && present vr then on_device m else ub
  end.

(** vec_ops_core.hpp:48-55 ([__add_core_accelerator]) *)
Definition add_core_accelerator (dv : device) (v1 v2 vr : ptr) (size : nat) : M st ptr :=
  target dv v1 v2 vr
    (for_u32 0 size (fun i _ => x <- load v1 i ;; y <- load v2 i ;; store vr i (x + y)) tt) ;;
  ret vr.

(** vec_ops_core.hpp:65-77 *)
Definition add_core_acc (dv : device) (v1 v2 vr : ptr) (size : nat) : M st ptr :=
  (if Nat.ltb size 16 then on_host (add_core_simd v1 v2 vr size)
   else add_core_accelerator dv v1 v2 vr size) ;;
  ret vr.

(** vec_ops.hpp:273-278 *)
Definition add_s_acc (dv : device) (N : nat) (v1 v2 vr : ptr) : M st ptr :=
  noexcept (add_core_acc dv v1 v2 vr N ;; ret vr).

(** vec_ops.hpp:280-286 *)
Definition add_sd_acc (dv : device) (N : nat) (v1 v2 vr : ptr) : M st ptr :=
  n2 <- on_host (vsize v2) ;; on_host (check_size N n2) ;; add_core_acc dv v1 v2 vr N ;; ret vr.

(** vec_ops.hpp:288-294 *)
Definition add_ds_acc (dv : device) (N : nat) (v1 v2 vr : ptr) : M st ptr :=
  n1 <- on_host (vsize v1) ;; on_host (check_size n1 N) ;; add_core_acc dv v1 v2 vr N ;; ret vr.

(** vec_ops.hpp:296-301 *)
Definition add_d_acc (dv : device) (v1 v2 vr : ptr) : M st ptr :=
  n1 <- on_host (vsize v1) ;; n2 <- on_host (vsize v2) ;; on_host (check_size n1 n2) ;;
  add_core_acc dv v1 v2 vr n1 ;; ret vr.

(** vec_ops.hpp:304-309 *)
Definition op_add_s_acc (dv : device) (N : nat) (v1 v2 : ptr) : M st ptr :=
  noexcept (l <- on_host (contents v1) ;; vr <- on_host (alloc l) ;; add_s_acc dv N v1 v2 vr ;; ret vr).

(** vec_ops.hpp:311-317 *)
Definition op_add_d_acc (dv : device) (v1 v2 : ptr) : M st ptr :=
  l <- on_host (contents v1) ;; vr <- on_host (alloc l) ;; add_d_acc dv v1 v2 vr ;; ret vr.

(** mat_mat_ops.hpp:17-43 *)
Definition addm_acc (dv : device) (dbg : bool) (A B C : mat) : M st mat :=
  noexcept (
    assert_ dbg (shape_eqb A B) ;; assert_ dbg (shape_eqb A C) ;;
    add_core_acc dv (mp A) (mp B) (mp C) (mr A * mc A)%nat ;; ret C).

(** mat_mat_ops.hpp:45-57 *)
Definition op_addm_acc (dv : device) (dbg : bool) (A B : mat) : M st mat :=
  noexcept (C <- on_host (mat_copy A) ;; addm_acc dv dbg A B C ;; ret C).

(** vec_ops_core.hpp:98-105 ([__sub_core_accelerator]) *)
Definition sub_core_accelerator (dv : device) (v1 v2 vr : ptr) (size : nat) : M st ptr :=
  target dv v1 v2 vr
    (for_u32 0 size (fun i _ => x <- load v1 i ;; y <- load v2 i ;; store vr i (x - y)) tt) ;;
  ret vr.

(** vec_ops_core.hpp:115-127 *)
Definition sub_core_acc (dv : device) (v1 v2 vr : ptr) (size : nat) : M st ptr :=
  (if Nat.ltb size 16 then on_host (sub_core_simd v1 v2 vr size)
   else sub_core_accelerator dv v1 v2 vr size) ;;
  ret vr.

(** vec_ops.hpp:321-325 *)
Definition sub_s_acc (dv : device) (N : nat) (v1 v2 vr : ptr) : M st ptr :=
  noexcept (sub_core_acc dv v1 v2 vr N ;; ret vr).

(** vec_ops.hpp:335-341 *)
Definition sub_ds_acc (dv : device) (N : nat) (v1 v2 vr : ptr) : M st ptr :=
  n1 <- on_host (vsize v1) ;; on_host (check_size n1 N) ;; sub_core_acc dv v1 v2 vr N ;; ret vr.

(** vec_ops.hpp:343-348 *)
Definition sub_d_acc (dv : device) (v1 v2 vr : ptr) : M st ptr :=
  n1 <- on_host (vsize v1) ;; n2 <- on_host (vsize v2) ;; on_host (check_size n1 n2) ;;
  sub_core_acc dv v1 v2 vr n1 ;; ret vr.

(** vec_ops.hpp:351-356 *)
Definition op_sub_s_acc (dv : device) (N : nat) (v1 v2 : ptr) : M st ptr :=
  noexcept (l <- on_host (contents v1) ;; vr <- on_host (alloc l) ;; sub_s_acc dv N v1 v2 vr ;; ret vr).

(** vec_ops.hpp:358-364 *)
Definition op_sub_d_acc (dv : device) (v1 v2 : ptr) : M st ptr :=
  l <- on_host (contents v1) ;; vr <- on_host (alloc l) ;; sub_d_acc dv v1 v2 vr ;; ret vr.

(** mat_mat_ops.hpp:64-90 *)
Definition subm_acc (dv : device) (dbg : bool) (A B C : mat) : M st mat :=
  noexcept (
    assert_ dbg (shape_eqb A B) ;; assert_ dbg (shape_eqb A C) ;;
    sub_core_acc dv (mp A) (mp B) (mp C) (mr A * mc A)%nat ;; ret C).

(** mat_mat_ops.hpp:92-104 *)
Definition op_subm_acc (dv : device) (dbg : bool) (A B : mat) : M st mat :=
  noexcept (C <- on_host (mat_copy A) ;; subm_acc dv dbg A B C ;; ret C).

End ModelAccel.
