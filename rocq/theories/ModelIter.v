(** * Model of Gram-Schmidt, ILU(0) and GMRES

    Source: include/lalib/ops/orthogonal.hpp, solver/ilu.hpp, solver/gmres.hpp. *)
From Verif Require Import Base Scalar ModelVec ModelMat ModelPacked ModelSparse.
Local Open Scope sc_scope.

Section ModelIter.
Context {T : Type} {Op : Ops T}.

(** ** orthogonal.hpp:13-26

    [vecs] is the container of dynamic vectors, as the list of their buffers.  [vecs[0]] of an
    empty container is undefined; the assert only looks at [vecs[1]]; [vecs[k].dot(vecs[k])] is
    the member function (dyn_vec.hpp), [lalib::dot] and [lalib::axpy] the free ones. *)
Definition cgs (dbg : bool) (vecs : list ptr) : M (heap T) unit :=
  v0 <- vec_at vecs 0 ;; n <- vsize v0 ;;
  let m := length vecs in
  for_u32 1 m (fun j _ =>
    v1 <- vec_at vecs 1 ;; n1 <- vsize v1 ;; assert_ dbg (Nat.eqb n n1) ;;
    pj <- vec_at vecs j ;; vj <- vec_copy pj ;;
    for_u32 0 j (fun k _ =>
      pk <- vec_at vecs k ;;
      num <- dot_d pk vj ;; den <- dot_member_d pk pk ;;
      axpy_d (- num / den) pk pj ;; ret tt) tt) tt.

(** ** ilu.hpp

    The class template works on any matrix type with [shape], [operator()] and [mut_at]; the
    model takes these as parameters over a state [C] that holds the matrix.  DynMat and SpMat are
    given below, the other matrix types in ModelIluOther.v. *)
Section Ilu.
Context {C : Type} (shape : M C (nat * nat)) (get : nat -> nat -> M C T)
  (set : nat -> nat -> T -> M C unit).

(** ilu.hpp:45-46, 54-55: [sum -= mat(i,k) * mat(k,j)] for k < p *)
Definition ilu_sum (i j p : nat) (s0 : T) : M C T :=
  for_u32 0 p (fun k s => x <- get i k ;; y <- get k j ;; ret (s - x * y)) s0.

(** ilu.hpp:36-63.  [return false] leaves all loops: the accumulator keeps [false] and nothing is
    read or written any more.  The loop bounds [mat.shape()] are read at the start of each loop
    (the code re-reads them in every test; writing elements does not change them). *)
Definition ilu_decomp : M C bool :=
  sh <- shape ;;
  for_u32 0 (fst sh) (fun i (ok : bool) =>
    if negb ok then ret false else
    ok1 <- for_u32 0 i (fun j (ok1 : bool) =>
      if negb ok1 then ret false else
      a <- get i j ;;
      if negb (eqb a zero) then
        p <- get j j ;;
        if eqb p zero then ret false else
        s0 <- get i j ;; s <- ilu_sum i j j s0 ;;
        p <- get j j ;; set i j (s / p) ;; ret true
      else ret true) true ;;
    if negb ok1 then ret false else
    sh' <- shape ;;
    for_u32 i (snd sh') (fun j _ =>
      a <- get i j ;;
      if negb (eqb a zero) then
        s0 <- get i j ;; s <- ilu_sum i j i s0 ;; set i j s
      else ret tt) tt ;;
    ret true) true.

(** ilu.hpp:66-71 *)
Definition ilu_new : M C unit :=
  ok <- ilu_decomp ;; if negb ok then throw RuntimeError else ret tt.
End Ilu.

(** ilu.hpp:73-93.  [get] reads the constant matrix held by the preconditioner.  The upper loop
    counts down in [size_t] ([i-- > 0]), its inner loop counts up in [size_t]. *)
Definition ilu_solve (get : nat -> nat -> M (heap T) T) (rhs : ptr) : M (heap T) ptr :=
  noexcept (
    nr <- vsize rhs ;; y <- dynvec_uninit nr ;;
    ny <- vsize y ;;
    for_u32 0 ny (fun i _ =>
      s0 <- load rhs i ;;
      s <- for_u32 0 i (fun j s => a <- get i j ;; yj <- load y j ;; ret (s - a * yj)) s0 ;;
      store y i s) tt ;;
    nr <- vsize rhs ;; x <- dynvec_uninit nr ;;
    nx <- vsize x ;;
    down_sz nx (fun i _ =>
      s0 <- load y i ;;
      s <- for_sz (i + 1) nx (fun j s => a <- get i j ;; xj <- load x j ;; ret (s - a * xj)) s0 ;;
      p <- get i i ;; store x i (s / p)) tt ;;
    ret x).

(** M = DynMat<T>: [_mat(std::forward<M>(mat))] copies, as DynMat has no move constructor
    (dyn_mat.hpp:36, 64); the preconditioner owns the copy. *)
Definition ilu_dyn (A : mat) : M (heap T) mat :=
  F <- mat_copy A ;;
  ilu_new (ret (mr F, mc F)) (mat_get F) (mat_put F) ;; ret F.
Definition ilu_dyn_solve (F : mat) (rhs : ptr) : M (heap T) ptr := ilu_solve (mat_get F) rhs.

(** M = SpMat<T> (compressed rows); [M&&] is moved from, so the factor is the new value of the
    same matrix. *)
Definition ilu_csr_run : M (csr T) unit :=
  ilu_new (fun A => csr_shape A A) (fun i j A => csr_get A i j A) (fun i j x => csr_set i j x).
Definition ilu_csr {S} (A : csr T) : M S (csr T) := on_copy A ilu_csr_run.
Definition ilu_csr_solve (F : csr T) (rhs : ptr) : M (heap T) ptr := ilu_solve (csr_get F) rhs.

(** ** gmres.hpp

    Also a template over the matrix type: [nrow] is [_mat.shape().first], [mulv] is [_mat * v],
    [lu] is [_lu.solve(v)].  The local std::vectors [q] (of vectors), [c], [s], [beta] and the
    packed matrices [hess], [r] are values; vectors are buffers. *)
Section Gmres.
Context (dbg : bool) (isqrt : nat -> nat).
Context (nrow : M (heap T) nat) (mulv lu : ptr -> M (heap T) ptr).

(** Runs a mutator of a packed container on a local variable. *)
Definition upd_local {S C A} (c : C) (m : M C A) : M S C := on_copy c m.

(** gmres.hpp:92-113.  [q.size() - 1] with q non-empty.  Returns the new q, hess and h. *)
Definition arnoldi (q : list ptr) (H : hess T) (h : T) : M (heap T) (list ptr * hess T * T) :=
  let i := (length q - 1)%nat in
  H <- upd_local H hess_extend_zero ;;
  H <- (if Nat.ltb 0 i then upd_local H (hess_set i (i - 1) h) else ret H) ;;
  assert_ dbg (Nat.eqb (hn H) (i + 1)) ;;
  qi <- vec_at q i ;; rhs <- mulv qi ;;
  v <- lu rhs ;;
  H <- for_u32 0 (i + 1) (fun j H =>
    qj <- vec_at q j ;; d <- dot_d qj v ;; upd_local H (hess_set j i d)) H ;;
  for_u32 0 (i + 1) (fun j _ =>
    a <- hess_get H j i ;; qj <- vec_at q j ;; t <- op_scale_d a qj ;;
    axpy_d (- one) t v ;; ret tt) tt ;;
  h <- norm2_d v ;;
  qn <- op_scale_d (one / h) v ;;
  ret (q ++ [qn], H, h).

(** gmres.hpp:115-148.  Returns the new s, c, r, beta. *)
Definition givens_rot {S} (H : hess T) (h : T) (s c : list T) (r : utri T) (beta : list T)
  : M S (list T * list T * utri T * list T) :=
  let n := hn H in
  col <- hess_col H (n - 1) ;;
  r <- upd_local r (utri_extend col) ;;
  assert_ dbg (Nat.eqb (un r) n) ;;
  let beta := beta ++ [zero] in
  assert_ dbg (Nat.eqb (length beta) (n + 1)) ;;
  r <- for_u32 0 (n - 1) (fun i r =>
    ci <- vec_at c i ;; ri <- utri_get r i (n - 1) ;; si <- vec_at s i ;; hi <- hess_get H (i + 1) (n - 1) ;;
    let tmp := ci * ri + si * hi in
    r <- upd_local r (utri_set (i + 1) (n - 1) (- si * ri + ci * hi)) ;;
    upd_local r (utri_set i (n - 1) tmp)) r ;;
  rnn <- utri_get r (n - 1) (n - 1) ;;
  let delta := sqrt_ (pow2 rnn + pow2 h) in
  let s := s ++ [h / delta] in
  rnn <- utri_get r (n - 1) (n - 1) ;;
  let c := c ++ [rnn / delta] in
  assert_ dbg (Nat.eqb (length c) n) ;; assert_ dbg (Nat.eqb (length s) n) ;;
  sn <- vec_at s (n - 1) ;; bn <- vec_at beta (n - 1) ;; beta <- vec_set beta n (- sn * bn) ;;
  cn <- vec_at c (n - 1) ;; bn <- vec_at beta (n - 1) ;; beta <- vec_set beta (n - 1) (cn * bn) ;;
  cn <- vec_at c (n - 1) ;; rnn <- utri_get r (n - 1) (n - 1) ;; sn <- vec_at s (n - 1) ;;
  r <- upd_local r (utri_set (n - 1) (n - 1) (cn * rnn + sn * h)) ;;
  ret (s, c, r, beta).

(** The variables of the iteration; [gdone] is set by [break]. *)
Record gstate := mkG { gq : list ptr; ghess : hess T; gh : T; gs : list T; gc : list T;
  gr : utri T; gbeta : list T; gdone : bool }.

(** One iteration of gmres.hpp:69-76; [beta.back()]. *)
Definition gmres_step (tol : T) (g : gstate) : M (heap T) gstate :=
  if gdone g then ret g else
  a <- arnoldi (gq g) (ghess g) (gh g) ;;
  let '(q, H, h) := a in
  b <- givens_rot H h (gs g) (gc g) (gr g) (gbeta g) ;;
  let '(s, c, r, beta) := b in
  last <- vec_at beta (length beta - 1) ;;
  ret (mkG q H h s c r beta (ltb (abs_ last) tol)).

(** gmres.hpp:43-66 *)
Definition gmres_init (rhs : ptr) : M (heap T) gstate :=
  b_prime <- lu rhs ;;
  nb <- norm2_d b_prime ;; q0 <- op_scale_d (one / nb) b_prime ;;
  nb <- norm2_d b_prime ;;
  r <- utri_with_capacity isqrt ;;
  H <- hess_with_capacity isqrt ;;
  ret (mkG [q0] H zero [] [] r [nb] false).

(** gmres.hpp:78-88.  [back_sub] works on the first [bend] elements of beta in place (a [take]
    view); the remaining one is only used for its position. *)
Definition gmres_finish (n : nat) (g : gstate) : M (heap T) ptr :=
  let bend := (length (gbeta g) - 1)%nat in
  y <- run_local (heap_of [firstn bend (gbeta g)]) (back_sub (gr g) 0) ;;
  let beta := mem (snd y) 0 ++ skipn bend (gbeta g) in
  x <- dynvec_filled n zero ;;
  for_u32 0 (length beta - 1) (fun i _ =>
    bi <- vec_at beta i ;; qi <- vec_at (gq g) i ;; t <- op_scale_d bi qi ;;
    axpy_d one t x ;; ret tt) tt ;;
  ret x.

(** gmres.hpp:41-89 *)
Definition gmres_solve (tol : T) (rhs : ptr) : M (heap T) ptr :=
  n <- nrow ;;
  g <- gmres_init rhs ;;
  g <- for_u32 0 n (fun _ g => gmres_step tol g) g ;;
  gmres_finish n g.
End Gmres.

(** gmres.hpp:22: the matrix is copied, then handed on to the preconditioner (which copies it
    again in the dense case). *)
Definition gmres_dyn_new (A : mat) : M (heap T) (mat * mat) :=
  m <- mat_copy A ;; F <- ilu_dyn A ;; ret (m, F).
Definition gmres_dyn_solve (dbg : bool) (isqrt : nat -> nat) (G : mat * mat) (tol : T) (rhs : ptr) : M (heap T) ptr :=
  gmres_solve dbg isqrt (ret (mr (fst G))) (op_mulv dbg (fst G)) (ilu_dyn_solve (snd G)) tol rhs.
Definition gmres_csr_new {S} (A : csr T) : M S (csr T * csr T) :=
  F <- ilu_csr A ;; ret (A, F).
Definition gmres_csr_solve (dbg : bool) (isqrt : nat -> nat) (G : csr T * csr T) (tol : T) (rhs : ptr) : M (heap T) ptr :=
  gmres_solve dbg isqrt (sh <- csr_shape (fst G) ;; ret (fst sh)) (sp_op_mul dbg (fst G)) (ilu_csr_solve (snd G)) tol rhs.
End ModelIter.
