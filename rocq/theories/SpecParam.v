(** * Spec: running the library on two element types side by side

    [Like O1 O2 R]: R relates the elements of two scalar types so that constants correspond,
    operators keep the correspondence and comparisons cannot tell the two sides apart.  A map
    f : T1 -> T2 that preserves constants, operators and comparisons is the case R x y := f x = y.
    The other relations lift R to containers, memories and outcomes: same shapes, same indices,
    same buffers, same exceptions, corresponding elements. *)
From Verif Require Import Base Scalar ModelPacked ModelSparse ModelIter.

Section Rel.
Context {T1 T2 : Type}.

Class Like (O1 : Ops T1) (O2 : Ops T2) (R : T1 -> T2 -> Prop) : Prop := {
  l_zero : R zero zero;
  l_one : R one one;
  l_add : forall a b c d, R a b -> R c d -> R (add a c) (add b d);
  l_sub : forall a b c d, R a b -> R c d -> R (sub a c) (sub b d);
  l_mul : forall a b c d, R a b -> R c d -> R (mul a c) (mul b d);
  l_div : forall a b c d, R a b -> R c d -> R (div a c) (div b d);
  l_opp : forall a b, R a b -> R (opp a) (opp b);
  l_sqrt : forall a b, R a b -> R (sqrt_ a) (sqrt_ b);
  l_pow2 : forall a b, R a b -> R (pow2 a) (pow2 b);
  l_abs : forall a b, R a b -> R (abs_ a) (abs_ b);
  l_eqb : forall a b c d, R a b -> R c d -> eqb a c = eqb b d;
  l_ltb : forall a b c d, R a b -> R c d -> ltb a c = ltb b d
}.

Variable R : T1 -> T2 -> Prop.

Definition like_heap (h1 : heap T1) (h2 : heap T2) : Prop :=
  next h1 = next h2 /\ forall p, Forall2 R (mem h1 p) (mem h2 p).
Definition like_tri (a : tri T1) (b : tri T2) : Prop :=
  Forall2 R (tdl a) (tdl b) /\ Forall2 R (td a) (td b) /\ Forall2 R (tdu a) (tdu b).
Definition like_hess (a : hess T1) (b : hess T2) : Prop := hn a = hn b /\ Forall2 R (hv a) (hv b).
Definition like_utri (a : utri T1) (b : utri T2) : Prop := un a = un b /\ Forall2 R (uv a) (uv b).
Definition like_ltri (a : ltri T1) (b : ltri T2) : Prop := ln a = ln b /\ Forall2 R (lv a) (lv b).
Definition like_herm (a : herm T1) (b : herm T2) : Prop := en a = en b /\ Forall2 R (ev a) (ev b).
Definition like_coo (a : coo T1) (b : coo T2) : Prop := Forall2 R (cval a) (cval b) /\ crow a = crow b /\ ccol a = ccol b.
Definition like_csr (a : csr T1) (b : csr T2) : Prop := Forall2 R (sval a) (sval b) /\ sptr a = sptr b /\ scol a = scol b.
Definition like_gstate (a : @gstate T1) (b : @gstate T2) : Prop :=
  gq a = gq b /\ like_hess (ghess a) (ghess b) /\ R (gh a) (gh b) /\ Forall2 R (gs a) (gs b) /\ Forall2 R (gc a) (gc b) /\
  like_utri (gr a) (gr b) /\ Forall2 R (gbeta a) (gbeta b) /\ gdone a = gdone b.
End Rel.

Definition like_pair {A1 A2 B1 B2 : Type} (V : A1 -> A2 -> Prop) (W : B1 -> B2 -> Prop) (a : A1 * B1) (b : A2 * B2) : Prop :=
  V (fst a) (fst b) /\ W (snd a) (snd b).

(** The same outcome, with corresponding results and states. *)
Definition like_res {S1 S2 A1 A2 : Type} (SR : S1 -> S2 -> Prop) (V : A1 -> A2 -> Prop) (r1 : res S1 A1) (r2 : res S2 A2) : Prop :=
  match r1, r2 with
  | Ok a s, Ok b t => V a b /\ SR s t
  | Throw e s, Throw e' t => e = e' /\ SR s t
  | Terminate, Terminate | AssertFail, AssertFail | UB, UB | Diverge, Diverge => True
  | _, _ => False
  end.
(** Two programs that take corresponding states to the same outcome. *)
Definition alike {S1 S2 A1 A2 : Type} (SR : S1 -> S2 -> Prop) (V : A1 -> A2 -> Prop) (m1 : M S1 A1) (m2 : M S2 A2) : Prop :=
  forall s1 s2, SR s1 s2 -> like_res SR V (m1 s1) (m2 s2).
