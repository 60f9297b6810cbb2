(** * What "changes only its destination" means (property C58)

    An object existing before a call is a buffer with an id below [next h]. *)
From Verif Require Import Base.
Local Open Scope nat_scope.

Section SpecFrame.
Context {T : Type}.

(** Of the objects that existed in [h], only those listed may hold other elements in [h'], and
    none of them has another size. *)
Record kept (l : list ptr) (h h' : heap T) : Prop := mkKept {
  ke_live : next h <= next h';
  ke_same : forall q, q < next h -> ~ In q l -> mem h' q = mem h q;
  ke_size : forall q, q < next h -> length (mem h' q) = length (mem h q) }.

(** However the call ends, by returning or by throwing, nothing but [l] has changed; and what it
    returns satisfies [R]. *)
Definition modifies {A} (l : list ptr) (R : heap T -> A -> Prop) (m : M (heap T) A) : Prop :=
  forall h, match m h with
            | Ok a h' => kept l h h' /\ R h a
            | Throw _ h' => kept l h h'
            | _ => True
            end.

(** The result is an object that did not exist before, ... *)
Definition fresh (h : heap T) (p : ptr) : Prop := next h <= p.
(** ... is the destination itself, ... *)
Definition itself {A} (d : A) (_ : heap T) (p : A) : Prop := p = d.
(** ... or is a plain value. *)
Definition value {A} (_ : heap T) (_ : A) : Prop := True.
End SpecFrame.
