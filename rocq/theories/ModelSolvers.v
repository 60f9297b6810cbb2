(** * Model of the direct solvers: tridiagonal (TDMA) and Cholesky

    Source: include/lalib/solver/internal/tdma.hpp, solver/tri_diag.hpp,
    solver/internal/cholesky_decomposition.hpp, solver/cholesky_factorization.hpp
    (the paths compiled without LALIB_LAPACK_BACKEND).

    The kernels take raw pointers; every pointer is a buffer id of the heap.  The bands of the
    tridiagonal matrix belong to the solver's own copy of the matrix and are only read, so they
    are lists. *)
From Verif Require Import Base Scalar ModelVec ModelMat ModelPacked.
Local Open Scope sc_scope.

Section ModelSolvers.
Context {T : Type} {Op : Ops T}.

(** ** tdma.hpp:10-33 *)

(** One column [k] of the loop of tdma.hpp:13-31.  [p], [q] are the local std::vectors;
    [n - 1] is only evaluated after [d[0]] was read, so n >= 1.  For n = 1 the index [tail - 1]
    is 2^64 - 1, outside every array: undefined behaviour. *)
Definition tdma_col (n nrow : nat) (dl d du : list T) (b x : ptr) (k : nat) : M (heap T) unit :=
  du0 <- vec_at du 0 ;; d0 <- vec_at d 0 ;;
  b0 <- load b k ;;
  pq <- for_u32 1 (n - 1) (fun i pq =>
      di <- vec_at d i ;; l <- vec_at dl (i - 1) ;; pp <- vec_at (fst pq) (i - 1) ;;
      let denom := di + l * pp in
      ui <- vec_at du i ;;
      bi <- load b (k + i * nrow) ;; qp <- vec_at (snd pq) (i - 1) ;;
      ret (fst pq ++ [- ui / denom], snd pq ++ [(bi - l * qp) / denom]))
    ([- du0 / d0], [b0 / d0]) ;;
  let tail := (n - 1)%nat in
  if Nat.eqb tail 0 then ub else
  bt <- load b (k + tail * nrow) ;; l <- vec_at dl (tail - 1) ;; qt <- vec_at (snd pq) (tail - 1) ;;
  dt <- vec_at d tail ;; pt <- vec_at (fst pq) (tail - 1) ;;
  store x (k + tail * nrow) ((bt - l * qt) / (dt + l * pt)) ;;
  down_i32 tail (fun i _ =>
    pi <- vec_at (fst pq) i ;; xn <- load x (k + (i + 1) * nrow) ;; qi <- vec_at (snd pq) i ;;
    store x (k + i * nrow) (pi * xn + qi)) tt.

Definition tdma (n nrow : nat) (dl d du : list T) (b x : ptr) : M (heap T) ptr :=
  for_u32 0 nrow (fun k _ => tdma_col n nrow dl d du b x k) tt ;; ret x.

(** tri_diag.hpp:48-64: the solver holds a copy of the matrix; the size of the result vector is
    not checked. *)
Definition tridiag_solve_vec (dbg : bool) (t : tri T) (b rslt : ptr) : M (heap T) ptr :=
  noexcept (
    nb <- vsize b ;; assert_ dbg (Nat.eqb (tri_order t) nb) ;;
    tdma (tri_order t) 1 (tdl t) (td t) (tdu t) b rslt ;;
    ret rslt).

(** tri_diag.hpp:66-84 *)
Definition tridiag_solve_mat (dbg : bool) (t : tri T) (b rslt : mat) : M (heap T) mat :=
  noexcept (
    assert_ dbg (Nat.eqb (tri_order t) (mr b)) ;;
    assert_ dbg (shape_eqb b rslt) ;;
    tdma (tri_order t) (mc b) (tdl t) (td t) (tdu t) (mp b) (mp rslt) ;;
    ret rslt).

(** ** cholesky_decomposition.hpp *)

(** cholesky_decomposition.hpp:14-22; the packed form agrees with low_off for j <= i *)
Inductive memtype := Square | Triangle.
Definition index (mt : memtype) (n i j : nat) : nat :=
  match mt with
  | Square => i * n + j
  | Triangle => (i * (i + 1)) / 2 + j
  end.

(** Early [return i] is modelled by the accumulator: once a code is returned the remaining
    iterations do nothing.
    cholesky_decomposition.hpp:25-49; the returned [unsigned] is converted to int32_t *)
Definition cholesky_decomposition (mt : memtype) (n : nat) (l : ptr) : M (heap T) Z :=
  r <- for_u32 0 n (fun i (acc : option nat) =>
    match acc with
    | Some c => ret (Some c)
    | None =>
      for_u32 0 i (fun j _ =>
        for_u32 0 j (fun k _ =>
          lij <- load l (index mt n i j) ;; lik <- load l (index mt n i k) ;; ljk <- load l (index mt n j k) ;;
          store l (index mt n i j) (lij - lik * ljk)) tt ;;
        lij <- load l (index mt n i j) ;; ljj <- load l (index mt n j j) ;;
        store l (index mt n i j) (lij / ljj)) tt ;;
      for_u32 0 i (fun k _ =>
        lii <- load l (index mt n i i) ;; lik <- load l (index mt n i k) ;;
        store l (index mt n i i) (lii - pow2 lik)) tt ;;
      v <- load l (index mt n i i) ;;
      if eqb v zero then ret (Some i)
      else if ltb v zero then ret (Some i)
      else store l (index mt n i i) (sqrt_ v) ;; ret None
    end) None ;;
  ret (match r with Some c => to_int32 (Z.of_nat c) | None => 0%Z end).

(** cholesky_decomposition.hpp:51-72; the inner backward loop counts with an int32_t up to
    [static_cast<int32_t>(n)] *)
Definition cholesky_linear (mt : memtype) (n nrow : nat) (l rhs rslt : ptr) : M (heap T) ptr :=
  for_u32 0 nrow (fun k _ =>
    for_u32 0 n (fun i _ =>
      r <- load rhs (k + i * nrow) ;; store rslt (k + i * nrow) r ;;
      for_u32 0 i (fun j _ =>
        ri <- load rslt (k + i * nrow) ;; lij <- load l (index mt n i j) ;; rj <- load rslt (k + j * nrow) ;;
        store rslt (k + i * nrow) (ri - lij * rj)) tt ;;
      ri <- load rslt (k + i * nrow) ;; lii <- load l (index mt n i i) ;;
      store rslt (k + i * nrow) (ri / lii)) tt ;;
    down_i32 n (fun i _ =>
      for_sz (i + 1) (Z.to_nat (to_int32 (Z.of_nat n))) (fun j _ =>
        ri <- load rslt (k + i * nrow) ;; lji <- load l (index mt n j i) ;; rj <- load rslt (k + j * nrow) ;;
        store rslt (k + i * nrow) (ri - lji * rj)) tt ;;
      ri <- load rslt (k + i * nrow) ;; lii <- load l (index mt n i i) ;;
      store rslt (k + i * nrow) (ri / lii)) tt) tt ;;
  ret rslt.

(** cholesky_decomposition.hpp:74-87 *)
Definition mod_cholesky_decomposition (mt : memtype) (n : nat) (l : ptr) : M (heap T) Z :=
  for_u32 0 n (fun i _ =>
    for_u32 0 (i + 1) (fun j _ =>
      for_u32 0 j (fun k _ =>
        lij <- load l (index mt n i j) ;; lik <- load l (index mt n i k) ;;
        ljk <- load l (index mt n j k) ;; lkk <- load l (index mt n k k) ;;
        store l (index mt n i j) (lij - lik * ljk / lkk)) tt) tt ;;
    v <- load l (index mt n i i) ;;
    if eqb v zero then throw RuntimeError else ret tt) tt ;;
  ret 0%Z.

(** cholesky_decomposition.hpp:89-108 *)
Definition mod_cholesky_linear (mt : memtype) (n nrhs : nat) (l rhs rslt : ptr) : M (heap T) unit :=
  for_u32 0 nrhs (fun k _ =>
    for_u32 0 n (fun i _ =>
      r <- load rhs (i * nrhs + k) ;; store rslt (i * nrhs + k) r ;;
      for_u32 0 i (fun j _ =>
        ri <- load rslt (i * nrhs + k) ;; lij <- load l (index mt n i j) ;; ljj <- load l (index mt n j j) ;;
        rj <- load rslt (j * nrhs + k) ;;
        store rslt (i * nrhs + k) (ri - lij / ljj * rj)) tt) tt ;;
    down_i32 n (fun i _ =>
      for_u32 (i + 1) n (fun j _ =>
        ri <- load rslt (i * nrhs + k) ;; lji <- load l (index mt n j i) ;; rj <- load rslt (j * nrhs + k) ;;
        store rslt (i * nrhs + k) (ri - lji * rj)) tt ;;
      ri <- load rslt (i * nrhs + k) ;; lii <- load l (index mt n i i) ;;
      store rslt (i * nrhs + k) (ri / lii)) tt) tt.

(** ** cholesky_factorization.hpp *)

(** A factorisation object: its order and the buffer of its factor. *)
Record chol := mkChol { chn : nat; chp : ptr; chmt : memtype }.

(** cholesky_factorization.hpp:86-96: the packed storage of the Hermitian matrix becomes the
    buffer of the factor.  [into_lower_mat] moves the vector (dyn_mat.hpp); the throw of the
    constructor body destroys the members, so no object remains. *)
Definition tri_cholesky (H : herm T) : M (heap T) chol :=
  l <- alloc (ev H) ;;
  c <- cholesky_decomposition Triangle (en H) l ;;
  if Z.eqb c 0 then ret (mkChol (en H) l Triangle) else throw RuntimeError.

(** cholesky_factorization.hpp:151-165 (no LAPACK).  [_data(std::move(mat))] copies: DynMat
    declares its copy operations (dyn_mat.hpp:36, 64) and so has no move constructor.  The object
    owns a fresh buffer and the argument keeps its elements. *)
Definition dyn_cholesky (A : mat) : M (heap T) chol :=
  D <- mat_copy A ;;
  c <- cholesky_decomposition Square (mr A) (mp D) ;;
  if Z.eqb c 0 then ret (mkChol (mr A) (mp D) Square) else throw RuntimeError.

(** cholesky_factorization.hpp:237-243 (a copy again) *)
Definition mod_cholesky (A : mat) : M (heap T) chol :=
  D <- mat_copy A ;;
  mod_cholesky_decomposition Square (mr A) (mp D) ;; ret (mkChol (mr A) (mp D) Square).

(** cholesky_factorization.hpp:167-171, 245-248: the stored matrix (for a non-square argument the
    real object keeps the argument's column count; the model reports a square one) *)
Definition factor_mat (F : chol) : mat := mkMat (chp F) (chn F) (chn F).
(** cholesky_factorization.hpp:99-102 *)
Definition lower_mat (F : chol) : M (heap T) (ltri T) := l <- contents (chp F) ;; ret (mkLtri (chn F) l).

(** cholesky_factorization.hpp:105-113, 174-186: in place, vector.  The order passed to the
    kernel is the size of the right-hand side. *)
Definition chol_solve_mut_vec (dbg : bool) (F : chol) (rhs : ptr) : M (heap T) ptr :=
  n <- vsize rhs ;; assert_ dbg (Nat.eqb (chn F) n) ;;
  cholesky_linear (chmt F) n 1 (chp F) rhs rhs ;; ret rhs.
(** cholesky_factorization.hpp:115-124, 188-201: a copy of the right-hand side is returned *)
Definition chol_solve_vec (dbg : bool) (F : chol) (rhs : ptr) : M (heap T) ptr :=
  n <- vsize rhs ;; assert_ dbg (Nat.eqb (chn F) n) ;;
  rslt <- vec_copy rhs ;;
  cholesky_linear (chmt F) n 1 (chp F) rhs rslt ;; ret rslt.
(** cholesky_factorization.hpp:126-136, 203-217; matrix right-hand sides *)
Definition chol_solve_mut_mat (dbg : bool) (F : chol) (rhs : mat) : M (heap T) mat :=
  assert_ dbg (Nat.eqb (chn F) (mr rhs)) ;;
  cholesky_linear (chmt F) (mr rhs) (mc rhs) (chp F) (mp rhs) (mp rhs) ;; ret rhs.
(** cholesky_factorization.hpp:138-149, 219-234 *)
Definition chol_solve_mat (dbg : bool) (F : chol) (rhs : mat) : M (heap T) mat :=
  assert_ dbg (Nat.eqb (chn F) (mr rhs)) ;;
  rslt <- mat_copy rhs ;;
  cholesky_linear (chmt F) (mr rhs) (mc rhs) (chp F) (mp rhs) (mp rslt) ;; ret rslt.

(** cholesky_factorization.hpp:250-295: the same four for the modified factorisation; the order
    passed to the kernel is the order of the factor. *)
Definition mod_solve_mut_vec (dbg : bool) (F : chol) (rhs : ptr) : M (heap T) ptr :=
  n <- vsize rhs ;; assert_ dbg (Nat.eqb (chn F) n) ;;
  mod_cholesky_linear (chmt F) (chn F) 1 (chp F) rhs rhs ;; ret rhs.
Definition mod_solve_vec (dbg : bool) (F : chol) (rhs : ptr) : M (heap T) ptr :=
  n <- vsize rhs ;; assert_ dbg (Nat.eqb (chn F) n) ;;
  rslt <- vec_copy rhs ;;
  mod_cholesky_linear (chmt F) (chn F) 1 (chp F) rhs rslt ;; ret rslt.
Definition mod_solve_mut_mat (dbg : bool) (F : chol) (rhs : mat) : M (heap T) mat :=
  assert_ dbg (Nat.eqb (chn F) (mr rhs)) ;;
  mod_cholesky_linear (chmt F) (chn F) (mc rhs) (chp F) (mp rhs) (mp rhs) ;; ret rhs.
Definition mod_solve_mat (dbg : bool) (F : chol) (rhs : mat) : M (heap T) mat :=
  assert_ dbg (Nat.eqb (chn F) (mr rhs)) ;;
  rslt <- mat_copy rhs ;;
  mod_cholesky_linear (chmt F) (chn F) (mc rhs) (chp F) (mp rhs) (mp rslt) ;; ret rslt.
End ModelSolvers.
