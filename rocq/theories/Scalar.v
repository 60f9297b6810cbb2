(** * Scalars

    lalib is a set of templates over the element type [T].  [Ops T] collects the operators the
    code applies to elements. *)
From Coq Require Import Reals QArith Qcanon Ring_theory Field_theory InitialRing Floats.
From Verif Require Import Base.

Class Ops (T : Type) : Type := mkOps {
  zero : T;                 (* Zero<T>::value(), 0, 0.0, value-initialised elements *)
  one : T;                  (* One<T>::value(), 1.0 *)
  add : T -> T -> T;
  sub : T -> T -> T;
  mul : T -> T -> T;
  div : T -> T -> T;
  opp : T -> T;             (* unary minus *)
  sqrt_ : T -> T;           (* std::sqrt *)
  pow2 : T -> T;            (* std::pow(x, 2) *)
  abs_ : T -> T;            (* std::abs *)
  eqb : T -> T -> bool;     (* == *)
  ltb : T -> T -> bool      (* < *)
}.

Declare Scope sc_scope.
Delimit Scope sc_scope with sc.
Infix "+" := add : sc_scope.
Infix "-" := sub : sc_scope.
Infix "*" := mul : sc_scope.
Infix "/" := div : sc_scope.
Notation "- x" := (opp x) : sc_scope.

(** [reciprocal(x)]: include/lalib/ops/ops_traits.hpp:40-44. *)
Definition reciprocal {T} {O : Ops T} (x : T) : T := div one x.

(** ** Algebraic hypotheses used by the theorems (never by the model) *)

Class IsRing (T : Type) (O : Ops T) : Prop :=
  ring_th : ring_theory zero one add mul sub opp (@eq T).

Class IsField (T : Type) (O : Ops T) : Prop := {
  field_th : field_theory zero one add mul sub opp div (fun x => div one x) (@eq T);
  eqb_ok : forall x y : T, eqb x y = true <-> x = y;
  pow2_ok : forall x : T, pow2 x = mul x x
}.

#[global] Instance field_is_ring T O (F : IsField T O) : IsRing T O := F_R field_th.

(** ** Instances *)

(** The real numbers: exact arithmetic, used for theorems about order, norms, square roots. *)
#[global] Instance ROps : Ops R := {|
  zero := 0%R; one := 1%R; add := Rplus; sub := Rminus; mul := Rmult; div := Rdiv;
  opp := Ropp; sqrt_ := R_sqrt.sqrt; pow2 := fun x => (x * x)%R; abs_ := Rabs;
  eqb := fun x y => if Req_EM_T x y then true else false;
  ltb := fun x y => if Rlt_dec x y then true else false
|}.

(** Canonical rationals: an executable field, used for concrete examples.  There is no square
    root; [sqrt_] is the identity and is used by no example. *)
#[global] Instance QcOps : Ops Qc := {|
  zero := Q2Qc 0; one := Q2Qc 1; add := Qcplus; sub := Qcminus; mul := Qcmult; div := Qcdiv;
  opp := Qcopp; sqrt_ := fun x => x; pow2 := fun x => Qcmult x x;
  abs_ := fun x => if Qclt_le_dec x (Q2Qc 0) then Qcopp x else x;
  eqb := Qc_eq_bool;
  ltb := fun x y => if Qclt_le_dec x y then true else false
|}.

(** Integers: an executable ring (division truncates, as for C++ ints). *)
#[global] Instance ZOps : Ops Z := {|
  zero := 0%Z; one := 1%Z; add := Z.add; sub := Z.sub; mul := Z.mul; div := Z.quot;
  opp := Z.opp; sqrt_ := Z.sqrt; pow2 := fun x => (x * x)%Z; abs_ := Z.abs;
  eqb := Z.eqb; ltb := Z.ltb
|}.

(** IEEE-754 binary64 ([double]). *)
#[global] Instance FOps : Ops float := {|
  zero := 0%float; one := 1%float; add := PrimFloat.add; sub := PrimFloat.sub;
  mul := PrimFloat.mul; div := PrimFloat.div; opp := PrimFloat.opp;
  sqrt_ := PrimFloat.sqrt; pow2 := fun x => PrimFloat.mul x x; abs_ := PrimFloat.abs;
  eqb := PrimFloat.eqb; ltb := PrimFloat.ltb
|}.

#[global] Instance R_field : IsField R ROps.
Proof.
  constructor.
  - constructor.
    + constructor; intros; cbn; try ring. 
    + exact R1_neq_R0.
    + intros; cbn. unfold Rdiv. ring.
    + intros; cbn. field. assumption.
  - intros x y; cbn. destruct (Req_EM_T x y); split; intro; congruence.
  - reflexivity.
Qed.

#[global] Instance Qc_field : IsField Qc QcOps.
Proof.
  constructor.
  - constructor.
    + constructor; intros; cbn; try ring.
    + cbn. intro H. apply (f_equal this) in H. discriminate H.
    + intros; cbn. unfold Qcdiv. ring.
    + intros; cbn. field. assumption.
  - intros x y; cbn. split.
    + apply Qc_eq_bool_correct.
    + intros ->. unfold Qc_eq_bool. destruct (Qc_eq_dec y y); congruence.
  - reflexivity.
Qed.

#[global] Instance Z_ring : IsRing Z ZOps.
Proof. exact InitialRing.Zth. Qed.
