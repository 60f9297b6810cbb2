(** * Model: the ILU preconditioner of the other matrix types

    [Ilu<T, M>] (/repo/include/lalib/solver/ilu.hpp:13-93) compiles for every matrix type with
    [shape()], [operator()(i, j)] and [mut_at(i, j)].  DynMat and SpMat are in ModelIter.v; these
    are the others.  The constructor moves the argument into [_mat], so the factor is the new value
    of the same object.  [_decomp_lu_inplace] takes [M& mat] (line 37): where the type has two
    overloads of [operator()], the reads [mat(i, j)] of lines 40-55 choose the non-const one, the
    reads of [solve] (const, lines 74-93) the const one.  SizedMat<T, N, N> has the accessors of
    DynMat and is modelled by [ilu_dyn]. *)
From Verif Require Import Base Scalar ModelVec ModelMat ModelPacked ModelSparse ModelIter.
Local Open Scope nat_scope.

Section ModelIluOther.
Context {T : Type} {Op : Ops T}.

(** M = DynTriDiagMat<T> (dyn_mat.hpp:281-285, 295-302, 310-314; [e] = InvalidArgument) or
    SizedTriDiagMat<T, N> (sized_mat.hpp:295-299, 309-316, 324-328; [e] = OutOfRange) *)
Definition ilu_tri_run (e : exn) : M (tri T) unit :=
  ilu_new (fun t => Ok (tri_order t, tri_order t) t) (tri_get_mut e) (tri_set e).
Definition ilu_tri {S} (e : exn) (t : tri T) : M S (tri T) := on_copy t (ilu_tri_run e).
Definition ilu_tri_solve (t : tri T) (rhs : ptr) : M (heap T) ptr := ilu_solve (tri_get t) rhs.

(** dyn_mat.hpp:436-444, read through the reference *)
Definition hess_get_mut (i j : nat) : M (hess T) T := fun H =>
  if Nat.leb i (j + 1) then vec_at (hv H) (hess_off i j) H else Throw InvalidArgument H.

(** M = HessenbergMat<T> (dyn_mat.hpp:421-454) *)
Definition ilu_hess_run : M (hess T) unit :=
  ilu_new (fun H => Ok (hn H, hn H) H) hess_get_mut hess_set.
Definition ilu_hess {S} (H : hess T) : M S (hess T) := on_copy H ilu_hess_run.
Definition ilu_hess_solve (H : hess T) (rhs : ptr) : M (heap T) ptr := ilu_solve (hess_get H) rhs.

(** dyn_mat.hpp:578-586, read through the reference *)
Definition utri_get_mut (i j : nat) : M (utri T) T := fun U =>
  if Nat.leb i j then vec_at (uv U) (utri_off i j) U else Throw InvalidArgument U.

(** M = DynUpperTriMat<T> (dyn_mat.hpp:563-596) *)
Definition ilu_utri_run : M (utri T) unit :=
  ilu_new (fun U => Ok (un U, un U) U) utri_get_mut utri_set.
Definition ilu_utri {S} (U : utri T) : M S (utri T) := on_copy U ilu_utri_run.
Definition ilu_utri_solve (U : utri T) (rhs : ptr) : M (heap T) ptr := ilu_solve (utri_get U) rhs.

(** M = DynHermiteMat<T>, SizedHermiteMat<T, N> (dyn_mat.hpp:748-773, sized_mat.hpp:473-498); the
    two overloads of [operator()] have the same body *)
Definition ilu_herm_run : M (herm T) unit :=
  ilu_new (fun H => Ok (en H, en H) H) (fun i j H => herm_get H i j H) herm_set.
Definition ilu_herm {S} (H : herm T) : M S (herm T) := on_copy H ilu_herm_run.
Definition ilu_herm_solve (H : herm T) (rhs : ptr) : M (heap T) ptr := ilu_solve (herm_get H) rhs.

(** M = DynLowerTriMat<T>, SizedLowerTriMat<T, N> (dyn_mat.hpp:668-693, sized_mat.hpp:395-420) *)
Definition ilu_ltri_run : M (ltri T) unit :=
  ilu_new (fun L => Ok (ln L, ln L) L) (fun i j L => ltri_get L i j L) ltri_set.
Definition ilu_ltri {S} (L : ltri T) : M S (ltri T) := on_copy L ilu_ltri_run.
Definition ilu_ltri_solve (L : ltri T) (rhs : ptr) : M (heap T) ptr := ilu_solve (ltri_get L) rhs.

(** M = SpCooMat<T> (sp_mat.hpp:309-345) *)
Definition ilu_coo_run : M (coo T) unit :=
  ilu_new (fun A => coo_shape A A) (fun i j A => coo_get A i j A) coo_set.
Definition ilu_coo {S} (A : coo T) : M S (coo T) := on_copy A ilu_coo_run.
Definition ilu_coo_solve (A : coo T) (rhs : ptr) : M (heap T) ptr := ilu_solve (coo_get A) rhs.
End ModelIluOther.
