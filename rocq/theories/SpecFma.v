(** * Spec: contraction of products and sums into fused multiply-adds

    A C++ compiler may evaluate a floating-point expression with more precision than its operators
    have, and in particular compute [a * b + c] with one rounding (GCC's default outside strict ISO
    mode is -ffp-contract=fast, Clang's is -ffp-contract=on).  Which products are absorbed is its
    choice.  None of this is visible in the sources of the library, so it is added here: the
    functions of the model are run on expressions instead of numbers, and a compiled program is one
    way [rho] of evaluating expressions.  Every multiplication, division, square root, negation and
    absolute value is the one of the number type; an addition or subtraction is that of the number
    type, or, if one of its operands is a product (or a negated product), it may be a fused
    multiply-add of the factors.  A product that is used several times may be absorbed in some of
    the uses and rounded in others.  Numbers in the input are leaves; they carry a label so that
    the choice may depend on where they come from.  Not covered: other transformations (re-ordering,
    extended precision), and two occurrences of the same expression over the same leaves being
    evaluated in two ways. *)
From Coq Require Import Reals.
From Verif Require Import Base Scalar SpecIeee.

Inductive term (T : Type) :=
| Num (label : nat) (x : T)
| TAdd (a b : term T) | TSub (a b : term T) | TMul (a b : term T) | TDiv (a b : term T)
| TOpp (a : term T) | TSqrt (a : term T) | TAbs (a : term T).
Arguments Num {T}. Arguments TAdd {T}. Arguments TSub {T}. Arguments TMul {T}. Arguments TDiv {T}.
Arguments TOpp {T}. Arguments TSqrt {T}. Arguments TAbs {T}.

Section Contract.
Context {T : Type} (Op : Ops T) (fma : T -> T -> T -> T).

(** The expression is the product of p and q, not rounded yet. *)
Inductive product : term T -> term T -> term T -> Prop :=
| product_mul p q : product (TMul p q) p q
| product_opp p q : product (TOpp (TMul p q)) (TOpp p) q.

(** The ways to add and to subtract. *)
Definition added (rho : term T -> T) (a b : term T) (r : T) : Prop :=
  r = add (rho a) (rho b) \/
  (exists p q, product a p q /\ r = fma (rho p) (rho q) (rho b)) \/
  (exists p q, product b p q /\ r = fma (rho p) (rho q) (rho a)).
Definition subtracted (rho : term T -> T) (a b : term T) (r : T) : Prop :=
  r = sub (rho a) (rho b) \/
  (exists p q, product a p q /\ r = fma (rho p) (rho q) (opp (rho b))) \/
  (exists p q, product b p q /\ r = fma (opp (rho p)) (rho q) (rho a)).

Definition contraction (rho : term T -> T) : Prop :=
  (forall l x, rho (Num l x) = x) /\
  (forall a b, rho (TMul a b) = mul (rho a) (rho b)) /\
  (forall a b, rho (TDiv a b) = div (rho a) (rho b)) /\
  (forall a, rho (TOpp a) = opp (rho a)) /\
  (forall a, rho (TSqrt a) = sqrt_ (rho a)) /\
  (forall a, rho (TAbs a) = abs_ (rho a)) /\
  (forall a b, added rho a b (rho (TAdd a b))) /\
  (forall a b, subtracted rho a b (rho (TSub a b))).

(** The operators that the model is run with: they build expressions; comparisons, on which the
    control flow depends, look at the values. *)
Definition TOps (rho : term T -> T) : Ops (term T) := {|
  zero := Num 0 zero; one := Num 0 one;
  add := TAdd; sub := TSub; mul := TMul; div := TDiv; opp := TOpp;
  sqrt_ := TSqrt; pow2 := fun x => TMul x x; abs_ := TAbs;
  eqb := fun x y => eqb (rho x) (rho y); ltb := fun x y => ltb (rho x) (rho y) |}.

Definition leaf (t : term T) : Prop := exists l x, t = Num l x.

(** Two ways that exist for every number type: never absorb anything, and absorb whenever possible
    (the left operand first). *)
Fixpoint plainly (t : term T) : T :=
  match t with
  | Num _ x => x
  | TAdd a b => add (plainly a) (plainly b)
  | TSub a b => sub (plainly a) (plainly b)
  | TMul a b => mul (plainly a) (plainly b)
  | TDiv a b => div (plainly a) (plainly b)
  | TOpp a => opp (plainly a)
  | TSqrt a => sqrt_ (plainly a)
  | TAbs a => abs_ (plainly a)
  end.
Fixpoint eagerly (t : term T) : T :=
  match t with
  | Num _ x => x
  | TAdd a b =>
      match a with
      | TMul p q => fma (eagerly p) (eagerly q) (eagerly b)
      | _ => match b with
             | TMul p q => fma (eagerly p) (eagerly q) (eagerly a)
             | _ => add (eagerly a) (eagerly b)
             end
      end
  | TSub a b =>
      match a with
      | TMul p q => fma (eagerly p) (eagerly q) (opp (eagerly b))
      | _ => match b with
             | TMul p q => fma (opp (eagerly p)) (eagerly q) (eagerly a)
             | _ => sub (eagerly a) (eagerly b)
             end
      end
  | TMul a b => mul (eagerly a) (eagerly b)
  | TDiv a b => div (eagerly a) (eagerly b)
  | TOpp a => opp (eagerly a)
  | TSqrt a => sqrt_ (eagerly a)
  | TAbs a => abs_ (eagerly a)
  end.
End Contract.
Arguments product {T}.
Arguments leaf {T}.

Local Open Scope R_scope.
(** What is used of the fused operation: one rounding of x y + z. *)
Class Fused {T} (val : T -> R) (fin : T -> Prop) (u eta omega : R) (fma : T -> T -> T -> T) : Prop := {
  f_args : forall x y z, fin (fma x y z) -> fin x /\ fin y /\ fin z;
  f_err : forall x y z, fin (fma x y z) ->
    Rabs (val (fma x y z) - (val x * val y + val z)) <= u * Rabs (val x * val y + val z) \/
    Rabs (val (fma x y z) - (val x * val y + val z)) <= eta;
  f_sum : forall x y z t, fin (fma x y z) -> fin t -> val x * val y = val t ->
    Rabs (val (fma x y z) - (val x * val y + val z)) <= u * Rabs (val x * val y + val z);
  f_up : forall x y z, fin (fma x y z) -> 0 <= val x * val y -> val z <= val (fma x y z);
  f_down : forall x y z, fin (fma x y z) -> val x * val y <= 0 -> val (fma x y z) <= val z;
  f_fits : forall x y z, fin x -> fin y -> fin z -> Rabs (val x * val y + val z) <= omega -> fin (fma x y z)
}.
