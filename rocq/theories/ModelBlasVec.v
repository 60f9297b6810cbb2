(** * Model of the vector operations as compiled with LALIB_BLAS_BACKEND (float and double)

    The level-1 routines of CBLAS are parameters; what they are assumed to do is written down in
    SpecBlasVec.v.  The wrappers repeat those of ModelVec.v, ModelMat.v and ModelIter.v over the
    kernels that call CBLAS; neg, add, sub and cross have no BLAS variant. *)
From Verif Require Import Base Scalar ModelVec ModelMat ModelPacked ModelSparse ModelIter ModelBlas.
Local Open Scope sc_scope.

Section ModelBlasVec.
Context {T : Type} {O : Ops T}.

(** cblas_?axpy(n, alpha, x, 1, y, 1), cblas_?scal(n, alpha, x, 1), cblas_?dot(n, x, 1, y, 1),
    cblas_?nrm2(n, x, 1) *)
Record vblas := mkVblas {
  b_axpy : Z -> T -> ptr -> ptr -> M (heap T) unit;
  b_scal : Z -> T -> ptr -> M (heap T) unit;
  b_dot : Z -> ptr -> ptr -> M (heap T) T;
  b_nrm2 : Z -> ptr -> M (heap T) T }.

Section Calls.
Context (B : vblas).

(** vec_ops_core.hpp:163-181; [size] is converted to the [int] of the prototype *)
Definition axpy_core_blas (alpha : T) (vx vy : ptr) (size : nat) : M (heap T) ptr :=
  b_axpy B (c_int size) alpha vx vy ;; ret vy.

(** vec_ops_core.hpp:222-242 *)
Definition dot_core_blas (v1 v2 : ptr) (size : nat) : M (heap T) T := b_dot B (c_int size) v1 v2.

(** vec_ops_core.hpp:291-309 *)
Definition scal_core_blas (alpha : T) (v1 : ptr) (size : nat) : M (heap T) ptr :=
  b_scal B (c_int size) alpha v1 ;; ret v1.

(** vec_ops_core.hpp:330-350 *)
Definition norm2_core_blas (v1 : ptr) (size : nat) : M (heap T) T := b_nrm2 B (c_int size) v1.

(** vec_ops.hpp:369-381 *)
Definition axpy_s_blas (N : nat) (alpha : T) (x y : ptr) : M (heap T) ptr :=
  noexcept (axpy_core_blas alpha x y N ;; ret y).
Definition axpy_d_blas (alpha : T) (x y : ptr) : M (heap T) ptr :=
  noexcept (
    nx <- vsize x ;; ny <- vsize y ;; check_size nx ny ;;
    axpy_core_blas alpha x y nx ;; ret y).

(** vec_ops.hpp:387-396 *)
Definition scale_s_blas (N : nat) (alpha : T) (x : ptr) : M (heap T) ptr :=
  noexcept (scal_core_blas alpha x N ;; ret x).
Definition scale_d_blas (alpha : T) (x : ptr) : M (heap T) ptr :=
  noexcept (n <- vsize x ;; scal_core_blas alpha x n ;; ret x).

(** vec_ops.hpp:409-435 *)
Definition op_scale_s_blas (N : nat) (alpha : T) (x : ptr) : M (heap T) ptr :=
  noexcept (l <- contents x ;; r <- alloc l ;; scal_core_blas alpha r N ;; ret r).
Definition op_scale_d_blas (alpha : T) (x : ptr) : M (heap T) ptr :=
  noexcept (l <- contents x ;; r <- alloc l ;; n <- vsize r ;; scal_core_blas alpha r n ;; ret r).

(** vec_ops.hpp:437-449 *)
Definition op_div_s_blas (N : nat) (x : ptr) (alpha : T) : M (heap T) ptr :=
  noexcept (l <- contents x ;; r <- alloc l ;; scal_core_blas (reciprocal alpha) r N ;; ret r).
Definition op_div_d_blas (x : ptr) (alpha : T) : M (heap T) ptr :=
  noexcept (l <- contents x ;; r <- alloc l ;; n <- vsize r ;;
            scal_core_blas (reciprocal alpha) r n ;; ret r).

(** vec_ops.hpp:454-466, dyn_vec.hpp:182-209, sized_vec.hpp:199-213 *)
Definition dot_s_blas (N : nat) (x y : ptr) : M (heap T) T := noexcept (dot_core_blas x y N).
Definition dot_d_blas (x y : ptr) : M (heap T) T :=
  noexcept (nx <- vsize x ;; ny <- vsize y ;; check_size nx ny ;; dot_core_blas x y nx).
Definition dot_member_d_blas (x y : ptr) : M (heap T) T :=
  nx <- vsize x ;; ny <- vsize y ;; check_size nx ny ;; dot_core_blas x y nx.
Definition dot_member_ds_blas (N : nat) (x y : ptr) : M (heap T) T :=
  nx <- vsize x ;; check_size nx N ;; dot_core_blas x y nx.

(** dyn_vec.hpp:191-197, sized_vec.hpp:215-221 *)
Definition norm2_d_blas (x : ptr) : M (heap T) T := noexcept (n <- vsize x ;; norm2_core_blas x n).
Definition norm2_s_blas (N : nat) (x : ptr) : M (heap T) T := noexcept (norm2_core_blas x N).

(** mat_ops.hpp:17-29, 44-56, 77-91 *)
Definition scalem_blas (alpha : T) (A : mat) : M (heap T) mat :=
  noexcept (scal_core_blas alpha (mp A) (mr A * mc A)%nat ;; ret A).
Definition op_scalem_blas (alpha : T) (A : mat) : M (heap T) mat :=
  noexcept (C <- mat_copy A ;; scalem_blas alpha C ;; ret C).
Definition op_negm_blas (A : mat) : M (heap T) mat :=
  noexcept (C <- mat_copy A ;; scalem_blas (- one) C ;; ret C).

(** mat_ops.hpp:31-41, 58-70, 93-107: the stored values of the sparse matrices *)
Definition scal_vals_blas {S} (alpha : T) (l : list T) : M S (list T) :=
  r <- run_local (heap_of [l]) (scal_core_blas alpha 0 (length l)) ;; ret (mem (snd r) 0).
Definition coo_scale_blas (alpha : T) : M (coo T) unit := fun A =>
  noexcept (l <- scal_vals_blas alpha (cval A) ;; (fun _ => Ok tt (mkCoo l (crow A) (ccol A)))) A.
Definition csr_scale_blas (alpha : T) : M (csr T) unit := fun A =>
  noexcept (l <- scal_vals_blas alpha (sval A) ;; (fun _ => Ok tt (mkCsr l (sptr A) (scol A)))) A.
Definition coo_op_scale_blas {S} (alpha : T) (A : coo T) : M S (coo T) := noexcept (on_copy A (coo_scale_blas alpha)).
Definition csr_op_scale_blas {S} (alpha : T) (A : csr T) : M S (csr T) := noexcept (on_copy A (csr_scale_blas alpha)).
Definition coo_neg_blas {S} (A : coo T) : M S (coo T) := noexcept (on_copy A (coo_scale_blas (- one))).
Definition csr_neg_blas {S} (A : csr T) : M S (csr T) := noexcept (on_copy A (csr_scale_blas (- one))).
(** sp_mat_ops.hpp:16-21 *)
Definition coo_minus_blas {S} (srt : sorter) (m1 m2 : coo T) : M S (coo T) :=
  noexcept (n <- coo_neg_blas m2 ;; on_copy m1 (coo_add_assign (Some n) srt)).

(** orthogonal.hpp:13-26 *)
Definition cgs_blas (dbg : bool) (vecs : list ptr) : M (heap T) unit :=
  v0 <- vec_at vecs 0 ;; n <- vsize v0 ;;
  let m := length vecs in
  for_u32 1 m (fun j _ =>
    v1 <- vec_at vecs 1 ;; n1 <- vsize v1 ;; assert_ dbg (Nat.eqb n n1) ;;
    pj <- vec_at vecs j ;; vj <- vec_copy pj ;;
    for_u32 0 j (fun k _ =>
      pk <- vec_at vecs k ;;
      num <- dot_d_blas pk vj ;; den <- dot_member_d_blas pk pk ;;
      axpy_d_blas (- num / den) pk pj ;; ret tt) tt) tt.

(** gmres.hpp; the rotations ([givens_rot]) and [back_sub] call no kernel *)
Section Gmres.
Context (dbg : bool) (isqrt : nat -> nat).
Context (nrow : M (heap T) nat) (mulv lu : ptr -> M (heap T) ptr).

(** gmres.hpp:92-113 *)
Definition arnoldi_blas (q : list ptr) (H : hess T) (h : T) : M (heap T) (list ptr * hess T * T) :=
  let i := (length q - 1)%nat in
  H <- upd_local H hess_extend_zero ;;
  H <- (if Nat.ltb 0 i then upd_local H (hess_set i (i - 1) h) else ret H) ;;
  assert_ dbg (Nat.eqb (hn H) (i + 1)) ;;
  qi <- vec_at q i ;; rhs <- mulv qi ;;
  v <- lu rhs ;;
  H <- for_u32 0 (i + 1) (fun j H =>
    qj <- vec_at q j ;; d <- dot_d_blas qj v ;; upd_local H (hess_set j i d)) H ;;
  for_u32 0 (i + 1) (fun j _ =>
    a <- hess_get H j i ;; qj <- vec_at q j ;; t <- op_scale_d_blas a qj ;;
    axpy_d_blas (- one) t v ;; ret tt) tt ;;
  h <- norm2_d_blas v ;;
  qn <- op_scale_d_blas (one / h) v ;;
  ret (q ++ [qn], H, h).

(** gmres.hpp:69-76 *)
Definition gmres_step_blas (tol : T) (g : gstate) : M (heap T) gstate :=
  if gdone g then ret g else
  a <- arnoldi_blas (gq g) (ghess g) (gh g) ;;
  let '(q, H, h) := a in
  b <- givens_rot dbg H h (gs g) (gc g) (gr g) (gbeta g) ;;
  let '(s, c, r, beta) := b in
  last <- vec_at beta (length beta - 1) ;;
  ret (mkG q H h s c r beta (ltb (abs_ last) tol)).

(** gmres.hpp:43-66 *)
Definition gmres_init_blas (rhs : ptr) : M (heap T) gstate :=
  b_prime <- lu rhs ;;
  nb <- norm2_d_blas b_prime ;; q0 <- op_scale_d_blas (one / nb) b_prime ;;
  nb <- norm2_d_blas b_prime ;;
  r <- utri_with_capacity isqrt ;;
  H <- hess_with_capacity isqrt ;;
  ret (mkG [q0] H zero [] [] r [nb] false).

(** gmres.hpp:78-88 *)
Definition gmres_finish_blas (n : nat) (g : gstate) : M (heap T) ptr :=
  let bend := (length (gbeta g) - 1)%nat in
  y <- run_local (heap_of [firstn bend (gbeta g)]) (back_sub (gr g) 0) ;;
  let beta := mem (snd y) 0 ++ skipn bend (gbeta g) in
  x <- dynvec_filled n zero ;;
  for_u32 0 (length beta - 1) (fun i _ =>
    bi <- vec_at beta i ;; qi <- vec_at (gq g) i ;; t <- op_scale_d_blas bi qi ;;
    axpy_d_blas one t x ;; ret tt) tt ;;
  ret x.

(** gmres.hpp:41-89 *)
Definition gmres_solve_blas (tol : T) (rhs : ptr) : M (heap T) ptr :=
  n <- nrow ;;
  g <- gmres_init_blas rhs ;;
  g <- for_u32 0 n (fun _ g => gmres_step_blas tol g) g ;;
  gmres_finish_blas n g.
End Gmres.

(** gmres.hpp:22, 41-89 with the two matrix types; the constructor calls no kernel.  The sparse
    product has no BLAS variant (mat_vec_ops_core.hpp:54-64, 105-109). *)
Definition gmres_dyn_solve_blas (gemv : gemv_routine) (dbg : bool) (isqrt : nat -> nat) (G : mat * mat) (tol : T) (rhs : ptr) : M (heap T) ptr :=
  gmres_solve_blas dbg isqrt (ret (mr (fst G))) (op_mulv_blas gemv dbg (fst G)) (ilu_dyn_solve (snd G)) tol rhs.
Definition gmres_csr_solve_blas (dbg : bool) (isqrt : nat -> nat) (G : csr T * csr T) (tol : T) (rhs : ptr) : M (heap T) ptr :=
  gmres_solve_blas dbg isqrt (sh <- csr_shape (fst G) ;; ret (fst sh)) (sp_op_mul dbg (fst G)) (ilu_csr_solve (snd G)) tol rhs.
End Calls.
End ModelBlasVec.
Arguments vblas T : clear implicits.
