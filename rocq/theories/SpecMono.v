(** * Arithmetic whose operators round the exact result by a monotone function *)
From Coq Require Import Reals Lra Lia.
From Verif Require Import Base Scalar Spec.
Local Open Scope R_scope.

(** [val] is the number an element stands for and [fin] says that it stands for one.  A finite result is
    the exact result rounded by [rnd], which keeps the order and the numbers of the format; underflow
    is included.  Nothing is said about results that are not finite. *)
Class Monotone {T} (Op : Ops T) (val : T -> R) (fin : T -> Prop) (rnd : R -> R) : Prop := {
  m_le : forall x y, x <= y -> rnd x <= rnd y;
  m_id : forall x, fin x -> rnd (val x) = val x;
  m_zero : fin zero /\ val zero = 0;
  m_one : fin one /\ val one = 1;
  m_add : forall x y, fin (add x y) -> fin x /\ fin y /\ val (add x y) = rnd (val x + val y);
  m_sub : forall x y, fin (sub x y) -> fin x /\ fin y /\ val (sub x y) = rnd (val x - val y);
  m_mul : forall x y, fin (mul x y) -> fin x /\ fin y /\ val (mul x y) = rnd (val x * val y);
  m_div : forall x y, fin (div x y) -> fin y -> val y <> 0 -> fin x /\ val (div x y) = rnd (val x / val y);
  m_sqrt : forall x, fin (sqrt_ x) -> fin x /\ val (sqrt_ x) = rnd (sqrt (val x));
  m_pow2 : forall x, pow2 x = mul x x;
  m_opp : forall x, (fin (opp x) <-> fin x) /\ val (opp x) = - val x;
  m_eqb : forall x y, fin x -> fin y -> (eqb x y = true <-> val x = val y);
  m_ltb : forall x y, fin x -> fin y -> (ltb x y = true <-> val x < val y);
  (* a result not larger than a number of the format does not overflow *)
  m_add_fin : forall x y z, fin x -> fin y -> fin z -> Rabs (val x + val y) <= Rabs (val z) -> fin (add x y);
  m_mul_fin : forall x y z, fin x -> fin y -> fin z -> Rabs (val x * val y) <= Rabs (val z) -> fin (mul x y);
  m_div_fin : forall x y z, fin x -> fin y -> val y <> 0 -> fin z -> Rabs (val x / val y) <= Rabs (val z) -> fin (div x y);
  (* gradual underflow: a sum is rounded to zero only if it is zero *)
  m_add_nz : forall x y, fin x -> fin y -> val x + val y <> 0 -> rnd (val x + val y) <> 0
}.

(** The rounded operators on numbers themselves. *)
Definition rops (rnd : R -> R) : Ops R := {|
  zero := 0; one := 1;
  add := fun x y => rnd (x + y); sub := fun x y => rnd (x - y); mul := fun x y => rnd (x * y); div := fun x y => rnd (x / y);
  opp := Ropp; sqrt_ := fun x => rnd (sqrt x); pow2 := fun x => rnd (x * x); abs_ := Rabs;
  eqb := fun x y => if Req_EM_T x y then true else false; ltb := fun x y => if Rlt_dec x y then true else false |}.

(** No positive entry off the diagonal, positive diagonal. *)
Definition z_upper {T} (val : T -> R) n (U : nat -> nat -> T) : Prop :=
  forall i, (i < n)%nat -> 0 < val (U i i) /\ forall j, (i < j)%nat -> (j < n)%nat -> val (U i j) <= 0.
Definition z_lower {T} (val : T -> R) n (L : nat -> nat -> T) : Prop :=
  forall i j, (j < i)%nat -> (i < n)%nat -> val (L i j) <= 0.
(** A tridiagonal matrix without positive entries off the diagonal whose row sums are not negative, and positive without the
    entry to the right of the diagonal. *)
Definition z_tridiagonal {T} (val : T -> R) (fin : T -> Prop) n (A : nat -> nat -> T) : Prop :=
  (forall i j, (i < n)%nat -> (j < n)%nat -> fin (A i j) /\ (i <> j -> val (A i j) <= 0)) /\
  forall i, (i < n)%nat ->
    let left := match i with O => 0 | S k => val (A i k) end in
    let right := if (S i <? n)%nat then val (A i (S i)) else 0 in
    0 < left + val (A i i) /\ 0 <= left + val (A i i) + right.
