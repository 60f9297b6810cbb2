(** * Specification vocabulary for IEEE arithmetic, with overflow, underflow and NaN

    [Ieee Op val fin prd u eta omega] says that the scalar operators [Op] of the type [T] behave like
    those of an IEEE format: a value is either finite, and then stands for the real number [val x],
    or not (an infinity or a NaN); results that are not finite stay so through sums, differences,
    products and square roots; a finite result is the exact one with a relative error of at most
    [u], plus, for products and quotients, an absolute error of at most [eta] (gradual underflow);
    a product or quotient does not get the wrong sign; an operation on finite values whose exact
    result is at most [omega] in size is finite; and one whose exact result is a number of the
    format gives this number.

    A compiler may contract [a * b + c] into a fused multiply-add, which rounds once.  So that the
    theorems cover this too, a value may be a product [p * q] that an addition or subtraction is
    still allowed to absorb ([prd x p q]): such an addition then works with some number [w] that
    approximates [val p * val q] as well as the rounded product does ([seen]).  In plain IEEE
    arithmetic nothing is ever left unrounded ([unfused]) and [seen x w] just says that [x] is
    finite and [w = val x].  ProofFma.v has the other instance.

    RoundIeee.v proves [Ieee] for Coq's primitive binary64 numbers (u = 2^-53, eta = 2^-1075,
    omega = 2^1024 - 2^971) and for Flocq's binary32 (u = 2^-24, eta = 2^-150,
    omega = 2^128 - 2^104). *)
From Coq Require Import Reals.
From Verif Require Import Base Scalar Spec.
Local Open Scope R_scope.

Section Seen.
Context {T : Type} (val : T -> R) (fin : T -> Prop) (prd : T -> T -> T -> Prop) (u eta : R).
(** [w] is as good as the rounded product of [p] and [q]. *)
Definition prod_like (p q : T) (w : R) : Prop :=
  Rabs (w - val p * val q) <= u * Rabs (val p * val q) + eta /\ (0 <= val p * val q -> 0 <= w) /\
  (forall z, fin z -> val p * val q = val z -> w = val z).
(** What an addition or subtraction may take [x] for. *)
Definition seen (x : T) (w : R) : Prop :=
  (fin x /\ w = val x) \/ (exists p q, prd x p q /\ fin p /\ fin q /\ prod_like p q w).
(** [x] is not an unrounded product. *)
Definition settled (x : T) : Prop := forall p q, ~ prd x p q.
Definition vsettled (n : nat) (f : nat -> T) : Prop := forall i, (i < n)%nat -> settled (f i).
Definition msettled (n m : nat) (f : nat -> nat -> T) : Prop := forall i j, (i < n)%nat -> (j < m)%nat -> settled (f i j).
End Seen.
(** No contraction. *)
Definition unfused {T} (x p q : T) : Prop := False.

Class Ieee {T} (Op : Ops T) (val : T -> R) (fin : T -> Prop) (prd : T -> T -> T -> Prop) (u eta omega : R) : Prop := {
  i_range : 0 <= u < 1;
  i_eta : 0 <= eta;
  i_omega : 1 <= omega;
  i_zero : fin zero /\ val zero = 0;
  i_one : fin one /\ val one = 1;
  i_prd : forall x y p q, prd (mul x y) p q -> p = x /\ q = y;
  i_settled : settled prd zero /\ settled prd one /\ (forall x, settled prd (sqrt_ x)) /\
    (forall x y, settled prd (add x y) /\ settled prd (sub x y) /\ settled prd (div x y));
  i_add : forall x y, fin (add x y) -> exists a b, seen val fin prd u eta x a /\ seen val fin prd u eta y b /\
    Rabs (val (add x y) - (a + b)) <= u * Rabs (a + b);
  i_sub : forall x y, fin (sub x y) -> exists a b, seen val fin prd u eta x a /\ seen val fin prd u eta y b /\
    Rabs (val (sub x y) - (a - b)) <= u * Rabs (a - b);
  i_mul : forall x y, fin (mul x y) -> fin x /\ fin y /\ Rabs (val (mul x y) - val x * val y) <= u * Rabs (val x * val y) + eta;
  i_div : forall x y, fin (div x y) -> fin y ->
    fin x /\ val y <> 0 /\ Rabs (val (div x y) - val x / val y) <= u * Rabs (val x / val y) + eta;
  i_sqrt : forall x, fin (sqrt_ x) -> fin x /\ 0 <= val x /\ Rabs (val (sqrt_ x) - sqrt (val x)) <= u * sqrt (val x);
  i_pow2 : forall x, pow2 x = mul x x;
  i_opp : forall x, (fin (opp x) <-> fin x) /\ val (opp x) = - val x;
  i_abs : forall x, (fin (abs_ x) <-> fin x) /\ val (abs_ x) = Rabs (val x);
  i_eqb : forall x y, fin x -> fin y -> (eqb x y = true <-> val x = val y);
  i_ltb : forall x y, fin x -> fin y -> (ltb x y = true <-> val x < val y);
  i_add_fin : forall x y, fin x -> fin y ->
    (forall a b, seen val fin prd u eta x a -> seen val fin prd u eta y b -> Rabs (a + b) <= omega) -> fin (add x y);
  i_sub_fin : forall x y, fin x -> fin y ->
    (forall a b, seen val fin prd u eta x a -> seen val fin prd u eta y b -> Rabs (a - b) <= omega) -> fin (sub x y);
  i_mul_fin : forall x y, fin x -> fin y -> Rabs (val x * val y) <= omega -> fin (mul x y);
  i_div_fin : forall x y, fin x -> fin y -> val y <> 0 -> Rabs (val x / val y) <= omega -> fin (div x y);
  i_sqrt_fin : forall x, fin x -> 0 <= val x -> fin (sqrt_ x);
  i_mul_sign : forall x y, fin (mul x y) -> 0 <= val x * val y -> 0 <= val (mul x y);
  i_div_sign : forall x y, fin (div x y) -> fin y -> 0 <= val x / val y -> 0 <= val (div x y);
  i_add_exact : forall x y z, settled prd x -> settled prd y -> fin x -> fin y -> fin z -> val x + val y = val z -> fin (add x y) /\ val (add x y) = val z;
  i_sub_exact : forall x y z, settled prd x -> settled prd y -> fin x -> fin y -> fin z -> val x - val y = val z -> fin (sub x y) /\ val (sub x y) = val z;
  i_mul_exact : forall x y z, fin x -> fin y -> fin z -> val x * val y = val z -> fin (mul x y) /\ val (mul x y) = val z;
  i_div_exact : forall x y z, fin x -> fin y -> fin z -> val y <> 0 -> val x / val y = val z -> fin (div x y) /\ val (div x y) = val z
}.

(** Positive definite with room: x^T A x exceeds n kappa times what the diagonal alone gives. *)
Definition pos_def_room (kappa : R) (n : nat) (A : nat -> nat -> R) : Prop :=
  forall x, (exists i, (i < n)%nat /\ x i <> 0) ->
    INR n * kappa * @bsum R ROps n (fun i => Rabs (A i i) * (x i * x i)) < @bsum R ROps n (fun i => x i * @mvmul R ROps n A x i).
(** In plain IEEE arithmetic every number is a rounded one. *)
Lemma plain_settled {T} (x : T) : settled unfused x.
Proof. intros p q []. Qed.
