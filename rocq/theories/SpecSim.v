(** * Running one function in two memories

    Vocabulary for "the outcome of a call depends on nothing but its arguments".  Two memories
    correspond when a list of object pairs is given such that paired objects have equal contents
    and the pairing is one-to-one (so that the same arguments coincide on both sides).  What the
    two calls create is paired in order of creation. *)
From Verif Require Import Base Scalar ModelMat ModelSolvers.
Local Open Scope nat_scope.

Section SpecSim.
Context {T : Type}.

(** The heap holds nothing at addresses not handed out yet. *)
Definition clean (h : heap T) : Prop := forall p, next h <= p -> mem h p = [].

(** Paired objects of two memories: [args] relates the objects given, [free1], [free2] are the
    first free addresses. *)
Record pairing := mkPairing { args : ptr -> ptr -> Prop; free1 : nat; free2 : nat }.
Definition paired (w : pairing) (p q : ptr) : Prop :=
  args w p q \/ exists k, p = free1 w + k /\ q = free2 w + k.

Record corresponds (w : pairing) (h1 h2 : heap T) : Prop := {
  co_clean1 : clean h1;
  co_clean2 : clean h2;
  co_free1 : free1 w = next h1;
  co_free2 : free2 w = next h2;
  co_live : forall p q, args w p q -> p < next h1 /\ q < next h2;
  co_same : forall p q, args w p q -> mem h1 p = mem h2 q;
  co_fun : forall p q q', args w p q -> args w p q' -> q = q';
  co_inj : forall p p' q, args w p q -> args w p' q -> p = p' }.

(** Memory after both calls: paired objects (also the new ones) have equal contents, objects that
    were not among the arguments are untouched, equally many objects were created, and nothing is
    stored outside objects. *)
Record related (w : pairing) (h1 h2 h1' h2' : heap T) : Prop := {
  re_clean1 : clean h1';
  re_clean2 : clean h2';
  re_new : exists k, next h1' = free1 w + k /\ next h2' = free2 w + k;
  re_same : forall p q, paired w p q -> mem h1' p = mem h2' q;
  re_frame1 : forall p, p < next h1 -> (forall q, ~ args w p q) -> mem h1' p = mem h1 p;
  re_frame2 : forall q, q < next h2 -> (forall p, ~ args w p q) -> mem h2' q = mem h2 q }.

(** The same outcome: same way of ending, same exception, results related by [V]. *)
Definition same_ending {A B} (V : A -> B -> Prop) (w : pairing) (h1 h2 : heap T)
    (r1 : res (heap T) A) (r2 : res (heap T) B) : Prop :=
  match r1, r2 with
  | Ok a h1', Ok b h2' => V a b /\ related w h1 h2 h1' h2'
  | Throw e h1', Throw e' h2' => e = e' /\ related w h1 h2 h1' h2'
  | Terminate, Terminate => True
  | AssertFail, AssertFail => True
  | UB, UB => True
  | Diverge, Diverge => True
  | _, _ => False
  end.

(** How arguments and results of each kind correspond. *)
Definition same_mat_shape (w : pairing) (A B : mat) : Prop :=
  paired w (mp A) (mp B) /\ mr A = mr B /\ mc A = mc B.

(** A matrix object that exists before the call. *)
Definition arg_mat (w : pairing) (A B : mat) : Prop := args w (mp A) (mp B) /\ mr A = mr B /\ mc A = mc B.
(** Cholesky objects: the factor's buffers are paired. *)
Definition same_chol (w : pairing) (F G : chol) : Prop := paired w (chp F) (chp G) /\ chn F = chn G /\ chmt F = chmt G.
(** Two matrices each (a GMRES object: its matrix and its factor). *)
Definition same_pair (w : pairing) (G G' : mat * mat) : Prop :=
  same_mat_shape w (fst G) (fst G') /\ same_mat_shape w (snd G) (snd G').

(** A parameterless computation (arguments already given) that respects the pairing. *)
Definition respects {A B} (w : pairing) (V : A -> B -> Prop) (m1 : M (heap T) A) (m2 : M (heap T) B) : Prop :=
  forall h1 h2, corresponds w h1 h2 -> same_ending V w h1 h2 (m1 h1) (m2 h2).

(** The memory [h] and a later memory [h'] in which all objects of [h] still hold the same
    elements: every object is paired with itself. *)
Definition later (h h' : heap T) : pairing := mkPairing (fun p q => p = q /\ p < next h) (next h) (next h').
End SpecSim.
