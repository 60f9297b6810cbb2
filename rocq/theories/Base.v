(** * Base: outcomes, state, memory, loops

    The semantic ground on which the functions of lalib are modelled.  Nothing here models a
    particular function; see the [Model*.v] files for those. *)
From Coq Require Export List Arith ZArith Lia Bool.
Export ListNotations.

(** Exceptions thrown by the library.
    - [SizeMismatched]: include/lalib/err/error.hpp:11-22
    - [InvalidArgument]: std::invalid_argument (mat/dyn_mat.hpp:301,400,442,468,542,584,608,618)
    - [OutOfRange]: std::out_of_range (mat/sp_mat.hpp:344,556; mat/sized_mat.hpp:315)
    - [RuntimeError]: std::runtime_error (sized ctors, sparse ctors, solver ctors)
    Message texts are not modelled. *)
Inductive exn : Type :=
| SizeMismatched (n1 n2 : nat)
| InvalidArgument
| OutOfRange
| RuntimeError.

(** What a call can do.  A [Throw] carries the state at the moment of the throw, so that
    "nothing was modified" can be stated.
    - [Terminate]: std::terminate, i.e. an exception leaving a [noexcept] function;
    - [AssertFail]: a failing [assert] (only when asserts are compiled in);
    - [UB]: undefined behaviour (out-of-bounds access, dangling reference, ...);
    - [Diverge]: the call does not return. *)
Inductive res (S A : Type) : Type :=
| Ok (a : A) (s : S)
| Throw (e : exn) (s : S)
| Terminate
| AssertFail
| UB
| Diverge.
Arguments Ok {S A} a s.
Arguments Throw {S A} e s.
Arguments Terminate {S A}.
Arguments AssertFail {S A}.
Arguments UB {S A}.
Arguments Diverge {S A}.

Definition M (S A : Type) : Type := S -> res S A.

Definition ret {S A} (a : A) : M S A := fun s => Ok a s.
Definition bind {S A B} (m : M S A) (f : A -> M S B) : M S B :=
  fun s => match m s with
           | Ok a s' => f a s'
           | Throw e s' => Throw e s'
           | Terminate => Terminate
           | AssertFail => AssertFail
           | UB => UB
           | Diverge => Diverge
           end.
Definition throw {S A} (e : exn) : M S A := fun s => Throw e s.
Definition ub {S A} : M S A := fun _ => UB.
Definition diverge {S A} : M S A := fun _ => Diverge.

Declare Scope monad_scope.
Delimit Scope monad_scope with monad.
Notation "x <- m ;; f" := (bind m (fun x => f))
  (at level 61, m at next level, right associativity) : monad_scope.
Notation "m ;; f" := (bind m (fun _ => f))
  (at level 61, right associativity) : monad_scope.
Open Scope monad_scope.

(** A function declared [noexcept]: an exception leaving it calls std::terminate. *)
Definition noexcept {S A} (m : M S A) : M S A :=
  fun s => match m s with
           | Throw _ _ => Terminate
           | r => r
           end.

(** [assert(c)] from <cassert>; [dbg] is "NDEBUG is not defined". *)
Definition assert_ {S} (dbg : bool) (c : bool) : M S unit :=
  fun s => if dbg && negb c then AssertFail else Ok tt s.

(** ** Loops *)

(** A loop whose body sees the loop index and an accumulator, over an explicit list of
    indices in execution order. *)
Fixpoint loop {S A} (l : list nat) (body : nat -> A -> M S A) (a : A) : M S A :=
  match l with
  | [] => ret a
  | i :: l' => a' <- body i a ;; loop l' body a'
  end.

(** [for (auto i = lo; i < n; ++i)] with an unbounded (64-bit, never wrapping) counter. *)
Definition for_sz {S A} (lo n : nat) (body : nat -> A -> M S A) (a : A) : M S A :=
  loop (seq lo (n - lo)) body a.

(** [n] can be counted by a 32-bit unsigned counter: the test [i < n] eventually fails. *)
Definition fits_u32 (n : nat) : bool := (Z.of_nat n <? 2 ^ 32)%Z.

(** [for (auto i = 0u; i < n; ++i)] (and [std::views::iota(0u, n)]): the counter has type
    [unsigned int].  When [n >= 2^32] the counter wraps around and the test never fails.
    File Counters.v proves that this is what a wrapping counter does. *)
Definition for_u32 {S A} (lo n : nat) (body : nat -> A -> M S A) (a : A) : M S A :=
  if fits_u32 n then for_sz lo n body a else diverge.

(** Conversion of a [size_t] to [int32_t] (two's complement, modular since C++20). *)
Definition to_int32 (z : Z) : Z :=
  let r := (z mod 2 ^ 32)%Z in if (r <? 2 ^ 31)%Z then r else (r - 2 ^ 32)%Z.

(** The indices visited by [for (int32_t i = start; i >= 0; --i)]. *)
Definition down_list (start : Z) : list nat :=
  if (start <? 0)%Z then [] else rev (seq 0 (S (Z.to_nat start))).

(** [for (int32_t i = n - 1; i >= 0; --i)] with [n] a [size_t]. *)
Definition down_i32 {S A} (n : nat) (body : nat -> A -> M S A) (a : A) : M S A :=
  loop (down_list (to_int32 (Z.of_nat n - 1))) body a.

(** A downward loop over n-1 .. 0 with a 64-bit counter
    ([for (int64_t i = n - 1; i >= 0; --i)], [for (auto i = n; i-- > 0;)]). *)
Definition down_sz {S A} (n : nat) (body : nat -> A -> M S A) (a : A) : M S A :=
  loop (rev (seq 0 n)) body a.

(** ** Memory *)

(** Buffers of scalars, named by ids.  Every pointer in the library is the [.data()] of some
    container, so a pointer is a buffer id; offsets are indices into the list. *)
Record heap (T : Type) : Type := mkHeap { mem : nat -> list T; next : nat }.
Arguments mkHeap {T} mem next.
Arguments mem {T} h p.
Arguments next {T} h.

Definition ptr := nat.

Fixpoint set_nth {T} (i : nat) (x : T) (l : list T) : list T :=
  match l, i with
  | [], _ => []
  | _ :: l', O => x :: l'
  | y :: l', S i' => y :: set_nth i' x l'
  end.

Definition upd {T} (h : heap T) (p : ptr) (b : list T) : heap T :=
  mkHeap (fun q => if Nat.eqb q p then b else mem h q) (next h).

(** [p[i]] as an rvalue; reading outside the buffer is undefined behaviour. *)
Definition load {T} (p : ptr) (i : nat) : M (heap T) T :=
  fun h => match nth_error (mem h p) i with
           | Some x => Ok x h
           | None => UB
           end.

(** [p[i] = x]; writing outside the buffer is undefined behaviour. *)
Definition store {T} (p : ptr) (i : nat) (x : T) : M (heap T) unit :=
  fun h => if Nat.ltb i (length (mem h p))
           then Ok tt (upd h p (set_nth i x (mem h p)))
           else UB.

(** [v.size()] of the vector whose buffer is [p]. *)
Definition vsize {T} (p : ptr) : M (heap T) nat := fun h => Ok (length (mem h p)) h.

(** The whole contents (copy construction reads it). *)
Definition contents {T} (p : ptr) : M (heap T) (list T) := fun h => Ok (mem h p) h.

(** A new buffer.  Buffers are never freed in the model: a dead temporary simply stays
    unreachable. *)
Definition alloc {T} (b : list T) : M (heap T) ptr :=
  fun h => Ok (next h) (mkHeap (fun q => if Nat.eqb q (next h) then b else mem h q) (S (next h))).

(** [std::copy(src, src + n, dst)] between distinct buffers. *)
Definition copy_n {T} (n : nat) (src dst : ptr) : M (heap T) unit :=
  for_sz 0 n (fun i _ => x <- load src i ;; store dst i x) tt.

(** Runs code that works on a private heap (local objects only) inside any state: the heap is
    discarded, an exception is passed on. *)
Definition run_local {S T A} (h : heap T) (m : M (heap T) A) : M S (A * heap T) :=
  fun s => match m h with
           | Ok a h' => Ok (a, h') s
           | Throw e _ => Throw e s
           | Terminate => Terminate
           | AssertFail => AssertFail
           | UB => UB
           | Diverge => Diverge
           end.

(** A heap holding the given buffers under ids 0, 1, 2, ... *)
Definition heap_of {T} (bs : list (list T)) : heap T :=
  mkHeap (fun p => nth p bs []) (length bs).

(** Reads of a std::vector / raw array held by value (const containers). *)
Definition vec_at {S T} (l : list T) (i : nat) : M S T :=
  match nth_error l i with Some x => ret x | None => ub end.
Definition vec_set {S T} (l : list T) (i : nat) (x : T) : M S (list T) :=
  if Nat.ltb i (length l) then ret (set_nth i x l) else ub.
