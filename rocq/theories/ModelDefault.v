(** * Model: default-constructed objects

    The public default constructors of the library: DynVec (/repo/include/lalib/vec/dyn_vec.hpp:25),
    SpCooMat and SpMat (mat/sp_mat.hpp:24, 148) and DynUpperTriMat (mat/dyn_mat.hpp:494).  All four
    are [= default].  (Those of DynMat, SizedMat and SizedVec are private and unused.) *)
From Verif Require Import Base Scalar ModelVec ModelSparse ModelPacked.
Local Open Scope nat_scope.

Section ModelDefault.
Context {T : Type} {Op : Ops T}.

(** dyn_vec.hpp:25: an empty [_elems] *)
Definition vec_default : M (heap T) ptr := alloc [].

(** sp_mat.hpp:24 (members at 129-131): three empty vectors *)
Definition coo_default : coo T := mkCoo [] [] [].

(** sp_mat.hpp:148 (members at 261-263): three empty vectors, so no row pointer either *)
Definition csr_default : csr T := mkCsr [] [] [].

(** sp_mat.hpp:79-83 and 209-213: [reserve] changes the capacities only; a failing allocation (the
    functions are noexcept) is not modelled. *)
Definition coo_reserve (n : nat) : M (coo T) unit := fun A => Ok tt A.
Definition csr_reserve (n nnz : nat) : M (csr T) unit := fun A => Ok tt A.

(** A DynUpperTriMat whose [_n] (dyn_mat.hpp:532) may have no value yet: [None]. *)
Record utri_obj := mkUobj { on : option nat; ov : list T }.

(** [DynUpperTriMat<T> R;] (dyn_mat.hpp:494): default-initialisation.  [_n] is a [size_t] without
    an initialiser. *)
Definition utri_default_init : utri_obj := mkUobj None [].

(** [DynUpperTriMat<T> R{};] or [DynUpperTriMat<T>()]: value-initialisation.  The constructor is
    defaulted on its first declaration, so the object is zero-initialised first. *)
Definition utri_value_init : utri_obj := mkUobj (Some 0) [].

(** Reading [_n]; the value of an uninitialised [size_t] is indeterminate, its use undefined. *)
Definition read_n {S} (o : utri_obj) : M S nat := match on o with Some n => ret n | None => ub end.

(** dyn_mat.hpp:563-566 *)
Definition uobj_shape {S} (o : utri_obj) : M S (nat * nat) := n <- read_n o ;; ret (n, n).

(** dyn_mat.hpp:568-576: does not read [_n] *)
Definition uobj_get {S} (o : utri_obj) (i j : nat) : M S T := utri_get (mkUtri 0 (ov o)) i j.

(** A member function that reads [_n] first. *)
Definition with_n {A} (m : M (utri T) A) : M utri_obj A := fun o =>
  match on o with
  | None => UB
  | Some n =>
    match m (mkUtri n (ov o)) with
    | Ok a U => Ok a (mkUobj (Some (un U)) (uv U))
    | Throw e U => Throw e (mkUobj (Some (un U)) (uv U))
    | Terminate => Terminate
    | AssertFail => AssertFail
    | UB => UB
    | Diverge => Diverge
    end
  end.

(** dyn_mat.hpp:598-603 *)
Definition uobj_extend_zero : M utri_obj unit := with_n utri_extend_zero.
(** dyn_mat.hpp:605-612 *)
Definition uobj_extend (e : list T) : M utri_obj unit := with_n (utri_extend e).
(** dyn_mat.hpp:614-629: [_n] is compared with the size of [y] before anything else *)
Definition uobj_back_sub (o : utri_obj) (y : ptr) : M (heap T) unit :=
  n <- read_n o ;; back_sub (mkUtri n (ov o)) y.
End ModelDefault.

Arguments utri_obj : clear implicits.
