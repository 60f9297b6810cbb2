(** * Calls that do not depend on each other (property C91)

    A call is described by the objects it is given, those of them it may write to, and how its
    result is read off a memory in which objects have other addresses. *)
From Verif Require Import Base SpecSim.
Local Open Scope nat_scope.

Section SpecCommute.
Context {T : Type}.

(** However the call ends, by returning or by throwing, no object outside [dests] has changed. *)
Definition writes_only {A} (dests : list ptr) (m : M (heap T) A) : Prop :=
  forall h, match m h with
            | Ok _ h' | Throw _ h' => next h <= next h' /\ forall q, q < next h -> ~ In q dests -> mem h' q = mem h q
            | _ => True
            end.

(** [m] is given the objects [uses], writes to none but [dests] among them, and its outcome is
    determined by what [uses] hold; [V w a b] says that [a] and [b] are the same result when
    addresses correspond by [w]. *)
Record a_call {A} (uses dests : list ptr) (V : pairing -> A -> A -> Prop) (m : M (heap T) A) : Prop := mkCall {
  ca_local : forall w, (forall p, In p uses -> args w p p) -> respects w (V w) m m;
  ca_writes : writes_only dests m;
  ca_dests : incl dests uses }.

(** Neither call writes to an object the other one is given. *)
Definition no_conflict (uses1 dests1 uses2 dests2 : list ptr) : Prop :=
  (forall p, In p dests1 -> ~ In p uses2) /\ (forall p, In p dests2 -> ~ In p uses1).

(** The given objects stay where they are; what is created in the one memory from address
    [next h] on is created in the other from [next h'] on. *)
Definition moved (uses : list ptr) (h h' : heap T) : pairing :=
  mkPairing (fun p q => p = q /\ In p uses) (next h) (next h').

(** A batch of calls with results of any types; what it leaves in memory is what counts. *)
Record task := mkTask {
  t_type : Type;
  t_uses : list ptr;
  t_dests : list ptr;
  t_same : pairing -> t_type -> t_type -> Prop;
  t_run : M (heap T) t_type }.
Fixpoint batch (l : list task) : M (heap T) unit :=
  match l with
  | [] => ret tt
  | t :: l' => t_run t ;; batch l'
  end.
Definition is_call (t : task) : Prop := a_call (t_uses t) (t_dests t) (t_same t) (t_run t).
Definition apart (t u : task) : Prop := no_conflict (t_uses t) (t_dests t) (t_uses u) (t_dests u).
End SpecCommute.
Arguments task T : clear implicits.
Arguments a_call {T A}.
