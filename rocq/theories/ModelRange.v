(** * Model of the iterators of vectors and matrices

    Sources: include/lalib/vec/dyn_vec.hpp:122-156, include/lalib/vec/sized_vec.hpp:140-174,
    include/lalib/mat/dyn_mat.hpp:194-223, include/lalib/mat/sized_mat.hpp:216-245 (under /repo).

    The classes hand out the random access iterators of their [std::vector] / [std::array].
    An iterator is modelled as the buffer it points into and an offset; what the standard library
    leaves undefined (dereferencing or advancing the end iterator, comparing iterators of different
    containers) is [ub].  Simplified: the const and the non-const iterators are not told apart (no
    operation below writes unless it is [iwrite]), and invalidation of the iterators of a DynVec by
    assigning to the vector during the loop is not modelled. *)
From Verif Require Import Base Scalar ModelVec ModelMat.
Local Open Scope nat_scope.

Record iter : Type := mkIter { ib : ptr; io : nat }.

Section ModelRange.
Context {T : Type}.

(** dyn_vec.hpp:122-138, sized_vec.hpp:140-156: [begin()], [begin() const], [cbegin()] *)
Definition vbegin (v : ptr) : M (heap T) iter := ret (mkIter v 0).
(** dyn_vec.hpp:140-156, sized_vec.hpp:158-174: [end()], [end() const], [cend()] *)
Definition vend (v : ptr) : M (heap T) iter := n <- vsize v ;; ret (mkIter v n).

(** dyn_mat.hpp:194-208, sized_mat.hpp:216-230 *)
Definition mbegin (A : mat) : M (heap T) iter := ret (mkIter (mp A) 0).
(** dyn_mat.hpp:209-223, sized_mat.hpp:231-245 *)
Definition mend (A : mat) : M (heap T) iter := n <- vsize (mp A) ;; ret (mkIter (mp A) n).

(** The operations of [std::vector<T>::iterator] and [std::array<T,N>::iterator]: [*it],
    [*it = x], [it + k], [++it], [it == e], [e - it]. *)
Definition iread (it : iter) : M (heap T) T := load (ib it) (io it).
Definition iwrite (it : iter) (x : T) : M (heap T) unit := store (ib it) (io it) x.
Definition iadd (it : iter) (k : nat) : M (heap T) iter :=
  n <- vsize (ib it) ;;
  if Nat.leb (io it + k) n then ret (mkIter (ib it) (io it + k)) else ub.
Definition inext (it : iter) : M (heap T) iter := iadd it 1.
Definition ieq (it e : iter) : M (heap T) bool :=
  if Nat.eqb (ib it) (ib e) then ret (Nat.eqb (io it) (io e)) else ub.
Definition idist (b e : iter) : M (heap T) Z :=
  if Nat.eqb (ib b) (ib e) then ret (Z.of_nat (io e) - Z.of_nat (io b))%Z else ub.

(** [for (auto& x : v) body]: [auto it = begin, e = end; for (; it != e; ++it) body].
    The fuel is one more than the number of elements; running out of it is [Diverge]. *)
Fixpoint range_while {A} (fuel : nat) (it e : iter) (body : iter -> A -> M (heap T) A) (a : A)
  : M (heap T) A :=
  match fuel with
  | 0 => diverge
  | S f =>
      q <- ieq it e ;;
      if q then ret a
      else a' <- body it a ;; it' <- inext it ;; range_while f it' e body a'
  end.
Definition range_for {A} (v : ptr) (body : iter -> A -> M (heap T) A) (a : A) : M (heap T) A :=
  b <- vbegin v ;; e <- vend v ;; n <- vsize v ;; range_while (S n) b e body a.
Definition range_for_mat {A} (C : mat) (body : iter -> A -> M (heap T) A) (a : A) : M (heap T) A :=
  b <- mbegin C ;; e <- mend C ;; n <- vsize (mp C) ;; range_while (S n) b e body a.

(** [std::copy(v.begin(), v.end(), w.begin())]: two iterators in step. *)
Definition copy_range (v w : ptr) : M (heap T) unit :=
  d <- vbegin w ;;
  range_for v (fun it d => x <- iread it ;; iwrite d x ;; inext d) d ;; ret tt.

End ModelRange.
