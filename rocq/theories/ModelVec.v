(** * Model of the vector kernels and vector operations

    Sources: include/lalib/ops/vec_ops_core.hpp, include/lalib/ops/vec_ops.hpp,
    include/lalib/vec/dyn_vec.hpp, include/lalib/vec/sized_vec.hpp (all under /repo).

    A [DynVec] object is the id of its buffer, its [size()] is the buffer's length.
    A [SizedVec<T,N>] object is the id of its buffer together with the static [N].
    References returned by the C++ functions are returned as ids.
    The BLAS variants of the kernels are in ModelBlas.v; here LALIB_BLAS_BACKEND and
    LALIB_USE_ACCELERATOR are not defined.  The [omp] pragmas are ignored here (sequential
    reading); Schedules.v treats the parallel reading. *)
From Verif Require Import Base Scalar.
Local Open Scope sc_scope.

Section ModelVec.
Context {T : Type} {O : Ops T}.

(** ** vec_ops_core.hpp *)

(** vec_ops_core.hpp:12-19 ([__neg_core_simd]); the parallel twin 21-28 has the same body. *)
Definition neg_core_simd (v vr : ptr) (size : nat) : M (heap T) ptr :=
  for_u32 0 size (fun i _ => x <- load v i ;; store vr i (- x)) tt ;;
  ret vr.

(** vec_ops_core.hpp:30-37 *)
Definition add_core_simd (v1 v2 vr : ptr) (size : nat) : M (heap T) ptr :=
  for_u32 0 size (fun i _ => x <- load v1 i ;; y <- load v2 i ;; store vr i (x + y)) tt ;;
  ret vr.

(** vec_ops_core.hpp:39-46 *)
Definition add_core_parallel (v1 v2 vr : ptr) (size : nat) : M (heap T) ptr :=
  for_u32 0 size (fun i _ => x <- load v1 i ;; y <- load v2 i ;; store vr i (x + y)) tt ;;
  ret vr.

(** vec_ops_core.hpp:65-77 *)
Definition add_core (v1 v2 vr : ptr) (size : nat) : M (heap T) ptr :=
  (if Nat.ltb size 16 then add_core_simd v1 v2 vr size
   else add_core_parallel v1 v2 vr size) ;;
  ret vr.

(** vec_ops_core.hpp:80-87 *)
Definition sub_core_simd (v1 v2 vr : ptr) (size : nat) : M (heap T) ptr :=
  for_u32 0 size (fun i _ => x <- load v1 i ;; y <- load v2 i ;; store vr i (x - y)) tt ;;
  ret vr.

(** vec_ops_core.hpp:89-96 *)
Definition sub_core_parallel (v1 v2 vr : ptr) (size : nat) : M (heap T) ptr :=
  for_u32 0 size (fun i _ => x <- load v1 i ;; y <- load v2 i ;; store vr i (x - y)) tt ;;
  ret vr.

(** vec_ops_core.hpp:115-127 *)
Definition sub_core (v1 v2 vr : ptr) (size : nat) : M (heap T) ptr :=
  (if Nat.ltb size 16 then sub_core_simd v1 v2 vr size
   else sub_core_parallel v1 v2 vr size) ;;
  ret vr.

(** vec_ops_core.hpp:130-137 ([__axpy_core_simd]), called by [axpy_core] (157-201). *)
Definition axpy_core (alpha : T) (vx vy : ptr) (size : nat) : M (heap T) ptr :=
  for_u32 0 size (fun i _ => x <- load vx i ;; y <- load vy i ;; store vy i (alpha * x + y)) tt ;;
  ret vy.

(** vec_ops_core.hpp:206-214 ([__dot_core_simd]), called by [dot_core<float|double>]
    (222-242).  The generic [dot_core] (216-220) returns a pointer for a [T] and cannot be
    instantiated; it is not modelled. *)
Definition dot_core (v1 v2 : ptr) (size : nat) : M (heap T) T :=
  x0 <- load v1 0 ;; y0 <- load v2 0 ;;
  for_u32 1 size (fun i r => x <- load v1 i ;; y <- load v2 i ;; ret (r + x * y)) (x0 * y0).

(** vec_ops_core.hpp:247-251 *)
Definition cross2_core (v1 v2 : ptr) : M (heap T) T :=
  a0 <- load v1 0 ;; b1 <- load v2 1 ;; b0 <- load v2 0 ;; a1 <- load v1 1 ;;
  ret (a0 * b1 - b0 * a1).

(** vec_ops_core.hpp:253-261 *)
Definition cross3_core (v1 v2 vr : ptr) : M (heap T) ptr :=
  a0 <- load v1 0 ;; a1 <- load v1 1 ;; a2 <- load v1 2 ;;
  b0 <- load v2 0 ;; b1 <- load v2 1 ;; b2 <- load v2 2 ;;
  let r0 := a1 * b2 - b1 * a2 in
  let r1 := a2 * b0 - b2 * a0 in
  let r2 := a0 * b1 - b0 * a1 in
  store vr 0 r0 ;; store vr 1 r1 ;; store vr 2 r2 ;;
  ret vr.

(** vec_ops_core.hpp:263-271 *)
Definition cross3_acc_core (v1 v2 vr : ptr) : M (heap T) ptr :=
  a0 <- load v1 0 ;; a1 <- load v1 1 ;; a2 <- load v1 2 ;;
  b0 <- load v2 0 ;; b1 <- load v2 1 ;; b2 <- load v2 2 ;;
  c0 <- load vr 0 ;; c1 <- load vr 1 ;; c2 <- load vr 2 ;;
  let r0 := a1 * b2 - b1 * a2 + c0 in
  let r1 := a2 * b0 - b2 * a0 + c1 in
  let r2 := a0 * b1 - b0 * a1 + c2 in
  store vr 0 r0 ;; store vr 1 r1 ;; store vr 2 r2 ;;
  ret vr.

(** vec_ops_core.hpp:276-283 ([__scal_core_simd]), called by [scal_core] (285-309). *)
Definition scal_core (alpha : T) (v1 : ptr) (size : nat) : M (heap T) ptr :=
  for_u32 0 size (fun i _ => x <- load v1 i ;; store v1 i (alpha * x)) tt ;;
  ret v1.

(** vec_ops_core.hpp:314-322 ([__norm2_core_simd]), called by [norm2_core] (324-350). *)
Definition norm2_core (v1 : ptr) (size : nat) : M (heap T) T :=
  r <- for_u32 0 size (fun i r => x <- load v1 i ;; y <- load v1 i ;; ret (r + x * y)) zero ;;
  ret (sqrt_ r).

(** ** vec_ops.hpp *)

(** vec_ops.hpp:231-235 and dyn_vec.hpp:212-217 *)
Definition check_size (n1 n2 : nat) : M (heap T) unit :=
  if Nat.eqb n1 n2 then ret tt else throw (SizeMismatched n1 n2).

(** vec_ops.hpp:240-245, [neg(SizedVec, SizedVec&)] *)
Definition neg_s (N : nat) (v vr : ptr) : M (heap T) ptr :=
  noexcept (neg_core_simd v vr N ;; ret vr).

(** vec_ops.hpp:247-253, [neg(DynVec, DynVec&)], declared noexcept *)
Definition neg_d (v vr : ptr) : M (heap T) ptr :=
  noexcept (
    n <- vsize v ;; nr <- vsize vr ;;
    check_size n nr ;; neg_core_simd v vr n ;; ret vr).

(** vec_ops.hpp:255-261, unary [operator-(SizedVec)]; [uninit()] value-initialises
    (sized_vec.hpp:123-127). *)
Definition op_neg_s (N : nat) (v : ptr) : M (heap T) ptr :=
  noexcept (vr <- alloc (repeat zero N) ;; neg_s N v vr ;; ret vr).

(** vec_ops.hpp:263-269, unary [operator-(DynVec)]; [uninit(n)] is [std::vector<T>(n)]
    (dyn_vec.hpp:105-109). *)
Definition op_neg_d (v : ptr) : M (heap T) ptr :=
  noexcept (n <- vsize v ;; vr <- alloc (repeat zero n) ;; neg_d v vr ;; ret vr).

(** vec_ops.hpp:273-278 *)
Definition add_s (N : nat) (v1 v2 vr : ptr) : M (heap T) ptr :=
  noexcept (add_core v1 v2 vr N ;; ret vr).

(** vec_ops.hpp:280-286, [add(SizedVec, DynVec, SizedVec&)] *)
Definition add_sd (N : nat) (v1 v2 vr : ptr) : M (heap T) ptr :=
  n2 <- vsize v2 ;; check_size N n2 ;; add_core v1 v2 vr N ;; ret vr.

(** vec_ops.hpp:288-294, [add(DynVec, SizedVec, SizedVec&)] *)
Definition add_ds (N : nat) (v1 v2 vr : ptr) : M (heap T) ptr :=
  n1 <- vsize v1 ;; check_size n1 N ;; add_core v1 v2 vr N ;; ret vr.

(** vec_ops.hpp:296-301, [add(DynVec, DynVec, DynVec&)] *)
Definition add_d (v1 v2 vr : ptr) : M (heap T) ptr :=
  n1 <- vsize v1 ;; n2 <- vsize v2 ;; check_size n1 n2 ;;
  add_core v1 v2 vr n1 ;; ret vr.

(** vec_ops.hpp:304-309 *)
Definition op_add_s (N : nat) (v1 v2 : ptr) : M (heap T) ptr :=
  noexcept (l <- contents v1 ;; vr <- alloc l ;; add_s N v1 v2 vr ;; ret vr).

(** vec_ops.hpp:311-317 *)
Definition op_add_d (v1 v2 : ptr) : M (heap T) ptr :=
  l <- contents v1 ;; vr <- alloc l ;; add_d v1 v2 vr ;; ret vr.

(** vec_ops.hpp:321-325 *)
Definition sub_s (N : nat) (v1 v2 vr : ptr) : M (heap T) ptr :=
  noexcept (sub_core v1 v2 vr N ;; ret vr).

(** vec_ops.hpp:335-341, [sub(DynVec, SizedVec, SizedVec&)].  (The overload 327-333 for
    (SizedVec, DynVec) returns a const object as a mutable reference and cannot be
    instantiated; it is not modelled.) *)
Definition sub_ds (N : nat) (v1 v2 vr : ptr) : M (heap T) ptr :=
  n1 <- vsize v1 ;; check_size n1 N ;; sub_core v1 v2 vr N ;; ret vr.

(** vec_ops.hpp:343-348 *)
Definition sub_d (v1 v2 vr : ptr) : M (heap T) ptr :=
  n1 <- vsize v1 ;; n2 <- vsize v2 ;; check_size n1 n2 ;;
  sub_core v1 v2 vr n1 ;; ret vr.

(** vec_ops.hpp:351-356 *)
Definition op_sub_s (N : nat) (v1 v2 : ptr) : M (heap T) ptr :=
  noexcept (l <- contents v1 ;; vr <- alloc l ;; sub_s N v1 v2 vr ;; ret vr).

(** vec_ops.hpp:358-364 *)
Definition op_sub_d (v1 v2 : ptr) : M (heap T) ptr :=
  l <- contents v1 ;; vr <- alloc l ;; sub_d v1 v2 vr ;; ret vr.

(** vec_ops.hpp:369-374 *)
Definition axpy_s (N : nat) (alpha : T) (x y : ptr) : M (heap T) ptr :=
  noexcept (axpy_core alpha x y N ;; ret y).

(** vec_ops.hpp:375-381, declared noexcept *)
Definition axpy_d (alpha : T) (x y : ptr) : M (heap T) ptr :=
  noexcept (
    nx <- vsize x ;; ny <- vsize y ;; check_size nx ny ;;
    axpy_core alpha x y nx ;; ret y).

(** vec_ops.hpp:387-391 *)
Definition scale_s (N : nat) (alpha : T) (x : ptr) : M (heap T) ptr :=
  noexcept (scal_core alpha x N ;; ret x).

(** vec_ops.hpp:392-396 *)
Definition scale_d (alpha : T) (x : ptr) : M (heap T) ptr :=
  noexcept (n <- vsize x ;; scal_core alpha x n ;; ret x).

(** vec_ops.hpp:409-414 [alpha * x], 423-428 [x * alpha]: same body *)
Definition op_scale_s (N : nat) (alpha : T) (x : ptr) : M (heap T) ptr :=
  noexcept (l <- contents x ;; r <- alloc l ;; scal_core alpha r N ;; ret r).

(** vec_ops.hpp:416-421 [alpha * x], 430-435 [x * alpha]: same body *)
Definition op_scale_d (alpha : T) (x : ptr) : M (heap T) ptr :=
  noexcept (l <- contents x ;; r <- alloc l ;; n <- vsize r ;; scal_core alpha r n ;; ret r).

(** vec_ops.hpp:399-406 *)
Definition scaled_s (N : nat) (alpha : T) (x : ptr) : M (heap T) ptr := noexcept (op_scale_s N alpha x).
Definition scaled_d (alpha : T) (x : ptr) : M (heap T) ptr := noexcept (op_scale_d alpha x).

(** vec_ops.hpp:437-442 *)
Definition op_div_s (N : nat) (x : ptr) (alpha : T) : M (heap T) ptr :=
  noexcept (l <- contents x ;; r <- alloc l ;; scal_core (reciprocal alpha) r N ;; ret r).

(** vec_ops.hpp:444-449 *)
Definition op_div_d (x : ptr) (alpha : T) : M (heap T) ptr :=
  noexcept (l <- contents x ;; r <- alloc l ;; n <- vsize r ;;
            scal_core (reciprocal alpha) r n ;; ret r).

(** vec_ops.hpp:454-459 (free function) and sized_vec.hpp:199-205 (member), both noexcept *)
Definition dot_s (N : nat) (x y : ptr) : M (heap T) T := noexcept (dot_core x y N).

(** sized_vec.hpp:207-213, [SizedVec::dot(DynVec)]: no size check *)
Definition dot_sd (N : nat) (x y : ptr) : M (heap T) T := noexcept (dot_core x y N).

(** vec_ops.hpp:460-466 (free function), declared noexcept *)
Definition dot_d (x y : ptr) : M (heap T) T :=
  noexcept (nx <- vsize x ;; ny <- vsize y ;; check_size nx ny ;; dot_core x y nx).

(** dyn_vec.hpp:182-189, member [dot(DynVec)], not noexcept *)
Definition dot_member_d (x y : ptr) : M (heap T) T :=
  nx <- vsize x ;; ny <- vsize y ;; check_size nx ny ;; dot_core x y nx.

(** dyn_vec.hpp:201-209, member [dot(SizedVec)] *)
Definition dot_member_ds (N : nat) (x y : ptr) : M (heap T) T :=
  nx <- vsize x ;; check_size nx N ;; dot_core x y nx.

(** dyn_vec.hpp:191-197 *)
Definition norm2_d (x : ptr) : M (heap T) T := noexcept (n <- vsize x ;; norm2_core x n).

(** sized_vec.hpp:215-221 *)
Definition norm2_s (N : nat) (x : ptr) : M (heap T) T := noexcept (norm2_core x N).

(** vec_ops.hpp:471-475; with [DynVec] operands (477-498) the sizes are asserted.
    [dx], [dy] say which operands are dynamic.  ([dx = dy = true], 491-498, is its intended meaning:
    the call is ambiguous with 560-567 and does not compile.) *)
Definition cross2 (dbg dx dy : bool) (x y : ptr) : M (heap T) T :=
  noexcept (
    nx <- vsize x ;; ny <- vsize y ;;
    assert_ (dbg && dx) (Nat.eqb nx 2) ;; assert_ (dbg && dy) (Nat.eqb ny 2) ;;
    cross2_core x y).

(** vec_ops.hpp:506-517, 525-538, 546-558, 568-582: the three-argument overloads.
    [dx], [dy], [dr] say which arguments are dynamic (their sizes are asserted). *)
Definition cross3 (dbg dx dy dr : bool) (x y vr : ptr) : M (heap T) ptr :=
  noexcept (
    nx <- vsize x ;; ny <- vsize y ;; nr <- vsize vr ;;
    assert_ (dbg && dx) (Nat.eqb nx 3) ;; assert_ (dbg && dy) (Nat.eqb ny 3) ;;
    assert_ (dbg && dr) (Nat.eqb nr 3) ;;
    cross3_core x y vr ;; ret vr).

(** vec_ops.hpp:500-505, 518-524, 539-545: two-argument overloads, [auto vr = x].
    (539-545, dynamic times sized, returns that DynVec as a SizedVec, which does not compile when
    instantiated: [dx = true], [dy = false] is its intended meaning.)
    (560-567, both dynamic, differs from 491-498 in its return type only: a call with two dynamic
    vectors is ambiguous and does not compile.) *)
Definition cross3_new (dbg dx dy : bool) (x y : ptr) : M (heap T) ptr :=
  noexcept (
    nx <- vsize x ;; ny <- vsize y ;;
    assert_ (dbg && dx) (Nat.eqb nx 3) ;; assert_ (dbg && dy) (Nat.eqb ny 3) ;;
    l <- contents x ;; vr <- alloc l ;;
    cross3_core x y vr ;; ret vr).

(** vec_ops.hpp:585-639 *)
Definition cross3_acc (dbg dx dy dr : bool) (x y vr : ptr) : M (heap T) ptr :=
  noexcept (
    nx <- vsize x ;; ny <- vsize y ;; nr <- vsize vr ;;
    assert_ (dbg && dx) (Nat.eqb nx 3) ;; assert_ (dbg && dy) (Nat.eqb ny 3) ;;
    assert_ (dbg && dr) (Nat.eqb nr 3) ;;
    cross3_acc_core x y vr ;; ret vr).

(** ** Construction, copy, assignment *)

(** dyn_vec.hpp:105-109 *)
Definition dynvec_uninit (n : nat) : M (heap T) ptr := alloc (repeat zero n).

(** dyn_vec.hpp:111-115 *)
Definition dynvec_filled (count : nat) (value : T) : M (heap T) ptr := alloc (repeat value count).

(** dyn_vec.hpp:28-33: from std::vector / initializer_list *)
Definition dynvec_of (l : list T) : M (heap T) ptr := alloc l.

(** dyn_vec.hpp:40 (copy constructor, defaulted: copies the std::vector) and
    sized_vec.hpp:35 (copies the std::array) *)
Definition vec_copy (v : ptr) : M (heap T) ptr := l <- contents v ;; alloc l.

(** dyn_vec.hpp:61, sized_vec.hpp:49 (copy assignment, defaulted).  A [DynVec] takes over the
    source's size. *)
Definition vec_assign (dst src : ptr) : M (heap T) ptr :=
  fun h => Ok dst (upd h dst (mem h src)).

(** dyn_vec.hpp:43, 66 (defaulted moves of the std::vector member).  A moved-from std::vector is
    empty after move construction; after move assignment the standard leaves its value
    unspecified, here the argument [left].  [SizedVec] and [DynMat] declare their copy operations
    and therefore have no moves: moving one copies it. *)
Definition dynvec_move (src : ptr) : M (heap T) ptr :=
  l <- contents src ;; p <- alloc l ;; (fun h => Ok p (upd h src [])).
Definition dynvec_move_assign (left : list T) (dst src : ptr) : M (heap T) ptr :=
  fun h => Ok dst (upd (upd h src left) dst (mem h src)).

(** sized_vec.hpp:97-108 (from std::vector) and 110-121 (from initializer_list) *)
Definition sizedvec_of (N : nat) (l : list T) : M (heap T) ptr :=
  if negb (Nat.eqb (length l) N) then throw RuntimeError
  else alloc l.

(** sized_vec.hpp:123-127, 129-133 *)
Definition sizedvec_uninit (N : nat) : M (heap T) ptr := alloc (repeat zero N).
Definition sizedvec_filled (N : nat) (value : T) : M (heap T) ptr := alloc (repeat value N).

(** [v[i]] and [v[i] = x]: dyn_vec.hpp:158-167, sized_vec.hpp:176-185 (unchecked). *)
Definition vec_get (v : ptr) (i : nat) : M (heap T) T := load v i.
Definition vec_put (v : ptr) (i : nat) (x : T) : M (heap T) unit := store v i x.

End ModelVec.
