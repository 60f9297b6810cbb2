(** * Model: tridiagonal, Hessenberg, triangular and Hermitian containers

    /repo/include/lalib/mat/dyn_mat.hpp and sized_mat.hpp.  These containers own std::vector /
    std::array members, so they are modelled as values (records of lists).  Const accessors are
    functions of the value, mutators run in a state holding the value.  Index arithmetic is done
    in [nat]; the only wrap-around that can matter, [j - 1] at [j = 0], is modelled explicitly. *)
From Verif Require Import Base Scalar.
Local Open Scope nat_scope.

Section ModelPacked.
Context {T : Type} {Op : Ops T}.

(** ** Tridiagonal (dyn_mat.hpp:229-347, sized_mat.hpp:252-361) *)

Record tri := mkTri { tdl : list T; td : list T; tdu : list T }.

(** dyn_mat.hpp:270-278: the three vectors are stored unchecked.  (sized_mat.hpp:290-293: the
    lengths N-1, N, N-1 are enforced by the types.) *)
Definition tri_of (dl d du : list T) : tri := mkTri dl d du.

(** dyn_mat.hpp:280-285 *)
Definition tri_order (t : tri) : nat := length (td t).

Inductive tri_loc := InD (k : nat) | InU (k : nat) | InL (k : nat) | Outside.

(** The branch taken by operator() (dyn_mat.hpp:290-293, 298-301; sized_mat.hpp:304-307,
    312-315).  [i == j - 1] is evaluated in size_t: for j = 0 the right-hand side is 2^64-1. *)
Definition tri_where (i j : nat) : tri_loc :=
  if Nat.eqb i j then InD i
  else if match j with 0 => (Z.of_nat i =? 2 ^ 64 - 1)%Z | S j' => Nat.eqb i j' end then InU i
  else if Nat.eqb i (j + 1) then InL (i - 1)
  else Outside.

(** const operator() / at (dyn_mat.hpp:287-294, 304-308; sized_mat.hpp:301-308), followed by a
    read through the returned reference.  Outside the band the function returns a reference to
    the temporary produced by [Zero<T>::value()] (ops_traits.hpp:14-16 returns by value): the
    reference dangles, reading it is undefined. *)
Definition tri_get {S} (t : tri) (i j : nat) : M S T :=
  match tri_where i j with
  | InD k => vec_at (td t) k
  | InU k => vec_at (tdu t) k
  | InL k => vec_at (tdl t) k
  | Outside => ub
  end.

(** non-const operator() / mut_at, read through the reference; [e] is the exception thrown
    outside the band: std::invalid_argument (dyn_mat.hpp:295-302), std::out_of_range
    (sized_mat.hpp:309-316). *)
Definition tri_get_mut (e : exn) (i j : nat) : M tri T := fun t =>
  match tri_where i j with
  | InD k => vec_at (td t) k t
  | InU k => vec_at (tdu t) k t
  | InL k => vec_at (tdl t) k t
  | Outside => Throw e t
  end.

(** the same, assigned through the reference: [A(i,j) = x] *)
Definition tri_set (e : exn) (i j : nat) (x : T) : M tri unit := fun t =>
  match tri_where i j with
  | InD k => (l <- vec_set (td t) k x ;; fun _ => Ok tt (mkTri (tdl t) l (tdu t))) t
  | InU k => (l <- vec_set (tdu t) k x ;; fun _ => Ok tt (mkTri (tdl t) (td t) l)) t
  | InL k => (l <- vec_set (tdl t) k x ;; fun _ => Ok tt (mkTri l (td t) (tdu t))) t
  | Outside => Throw e t
  end.

(** ** Hessenberg (dyn_mat.hpp:354-484) *)

Record hess := mkHess { hn : nat; hv : list T }.

(** dyn_mat.hpp:393-405 [_calc_size].  [isqrt n] stands for
    [static_cast<size_t>(std::sqrt(n))]: conversion to double, square root, truncation; see
    FloatSqrt.v for what is known about it. *)
Definition hess_calc_size (isqrt : nat -> nat) {S} (n : nat) : M S nat :=
  if Nat.eqb n 0 then ret 0 else
  let ac := 17 + 8 * n in
  let q := isqrt ac in
  if negb (Nat.eqb ac (q * q)) then throw InvalidArgument else
  ret ((q - 3) / 2).

(** dyn_mat.hpp:408-412 *)
Definition hess_of (isqrt : nat -> nat) {S} (l : list T) : M S hess :=
  n <- hess_calc_size isqrt (length l) ;; ret (mkHess n l).

(** dyn_mat.hpp:414-419 (capacity is not modelled) *)
Definition hess_with_capacity (isqrt : nat -> nat) {S} : M S hess := noexcept (hess_of isqrt []).

(** dyn_mat.hpp:428-429 *)
Definition hess_off (i j : nat) : nat := ((j + 1) * j) / 2 + j + i.

(** dyn_mat.hpp:426-434, 446-449 (const; below the sub-diagonal a reference to the member
    [_zero] is returned) *)
Definition hess_get {S} (H : hess) (i j : nat) : M S T :=
  if Nat.leb i (j + 1) then vec_at (hv H) (hess_off i j) else ret zero.

(** dyn_mat.hpp:436-444, 451-454, assigned through the reference *)
Definition hess_set (i j : nat) (x : T) : M hess unit := fun H =>
  if Nat.leb i (j + 1)
  then (l <- vec_set (hv H) (hess_off i j) x ;; fun _ => Ok tt (mkHess (hn H) l)) H
  else Throw InvalidArgument H.

(** dyn_mat.hpp:456-463 *)
Definition hess_extend_zero : M hess unit := fun H =>
  let new_elems := if Nat.eqb (hn H) 0 then repeat zero 1 else repeat zero (hn H + 2) in
  Ok tt (mkHess (hn H + 1) (hv H ++ new_elems)).

(** dyn_mat.hpp:465-472 *)
Definition hess_extend (new_elems : list T) : M hess unit := fun H =>
  if negb (Nat.eqb (length new_elems) (hn H + 2)) then Throw InvalidArgument H
  else Ok tt (mkHess (hn H + 1) (hv H ++ new_elems)).

(** dyn_mat.hpp:474-479: the span [offset, end_offset) of the data, noexcept.  A span that would
    start beyond the data ([end_offset - offset] wraps around) is not a valid span: UB. *)
Definition hess_col {S} (H : hess) (j : nat) : M S (list T) :=
  let offset := ((j + 1) * j) / 2 + j in
  let end_offset := Nat.min (offset + j + 2) (length (hv H)) in
  if Nat.ltb end_offset offset then ub
  else ret (firstn (end_offset - offset) (skipn offset (hv H))).

(** ** Upper triangular (dyn_mat.hpp:491-634) *)

Record utri := mkUtri { un : nat; uv : list T }.

(** dyn_mat.hpp:537-547 *)
Definition utri_calc_size (isqrt : nat -> nat) {S} (n : nat) : M S nat :=
  let ac := 1 + 8 * n in
  let q := isqrt ac in
  if negb (Nat.eqb ac (q * q)) then throw InvalidArgument else
  ret ((q - 1) / 2).

(** dyn_mat.hpp:550-554, declared noexcept *)
Definition utri_of (isqrt : nat -> nat) {S} (l : list T) : M S utri :=
  noexcept (n <- utri_calc_size isqrt (length l) ;; ret (mkUtri n l)).

(** dyn_mat.hpp:556-561 *)
Definition utri_with_capacity (isqrt : nat -> nat) {S} : M S utri := utri_of isqrt [].

Definition utri_off (i j : nat) : nat := ((j + 1) * j) / 2 + i.

(** dyn_mat.hpp:568-576, 588-591 *)
Definition utri_get {S} (U : utri) (i j : nat) : M S T :=
  if Nat.leb i j then vec_at (uv U) (utri_off i j) else ret zero.

(** dyn_mat.hpp:578-586, 593-596 *)
Definition utri_set (i j : nat) (x : T) : M utri unit := fun U =>
  if Nat.leb i j
  then (l <- vec_set (uv U) (utri_off i j) x ;; fun _ => Ok tt (mkUtri (un U) l)) U
  else Throw InvalidArgument U.

(** dyn_mat.hpp:598-603 *)
Definition utri_extend_zero : M utri unit := fun U =>
  Ok tt (mkUtri (un U + 1) (uv U ++ repeat zero (un U + 1))).

(** dyn_mat.hpp:605-612 *)
Definition utri_extend (new_elems : list T) : M utri unit := fun U =>
  if negb (Nat.eqb (length new_elems) (un U + 1)) then Throw InvalidArgument U
  else Ok tt (mkUtri (un U + 1) (uv U ++ new_elems)).

Local Open Scope sc_scope.

(** dyn_mat.hpp:614-629 *)
Definition back_sub (U : utri) (y : ptr) : M (heap T) unit :=
  sz <- vsize y ;;
  if negb (Nat.eqb sz (un U)) then throw InvalidArgument else
  let n := un U in
  down_sz n (fun i _ =>
    for_sz (i + 1)%nat n (fun j _ =>
      yi <- load y i ;; u <- utri_get U i j ;; yj <- load y j ;; store y i (yi - u * yj)) tt ;;
    yi <- load y i ;; u <- utri_get U i i ;; store y i (yi / u)) tt.

Local Open Scope nat_scope.

(** ** Lower triangular and Hermitian (dyn_mat.hpp:641-783, sized_mat.hpp:368-508)

    Both store n and the packed lower part; their accessors have the same body. *)

Record ltri := mkLtri { ln : nat; lv : list T }.
Record herm := mkHerm { en : nat; ev : list T }.

(** dyn_mat.hpp:675-676, 681-682, 755-756, 761-762; sized_mat.hpp:402-403 ... *)
Definition low_off (i j : nat) : nat :=
  let (i, j) := if Nat.ltb i j then (j, i) else (i, j) in i * (i + 1) / 2 + j.

(** dyn_mat.hpp:673-693; sized_mat.hpp:400-420 *)
Definition ltri_get {S} (L : ltri) (i j : nat) : M S T := vec_at (lv L) (low_off i j).
Definition ltri_set (i j : nat) (x : T) : M ltri unit := fun L =>
  (l <- vec_set (lv L) (low_off i j) x ;; fun _ => Ok tt (mkLtri (ln L) l)) L.

(** dyn_mat.hpp:753-773; sized_mat.hpp:478-498 *)
Definition herm_get {S} (H : herm) (i j : nat) : M S T := vec_at (ev H) (low_off i j).
Definition herm_set (i j : nat) (x : T) : M herm unit := fun H =>
  (l <- vec_set (ev H) (low_off i j) x ;; fun _ => Ok tt (mkHerm (en H) l)) H.

(** dyn_mat.hpp:742-746 (the dynamic matrix's elements are moved out, leaving it empty);
    sized_mat.hpp:467-471 (an array is copied) *)
Definition herm_into_lower : M herm ltri := fun H =>
  Ok (mkLtri (en H) (ev H)) (mkHerm (en H) []).

End ModelPacked.
Arguments tri : clear implicits.
Arguments hess : clear implicits.
Arguments utri : clear implicits.
Arguments ltri : clear implicits.
Arguments herm : clear implicits.
