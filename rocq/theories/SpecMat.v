(** * Vocabulary for statements about matrix and vector objects in memory *)
From Verif Require Import Base Scalar BaseLemmas Spec ModelMat.
Local Open Scope nat_scope.

Section SpecMat.
Context {T : Type} {O : Ops T}.
Implicit Types (h : heap T) (v : ptr) (A C : mat).

(** Element (i,j) of matrix [A] in memory [h]. *)
Definition mget h A i j : T := rd h (mp A) (i * mc A + j).
(** [h'] contains every object of [h] unchanged (possibly more objects). *)
Definition ext h h' : Prop := next h <= next h' /\ forall q, q < next h -> mem h' q = mem h q.
(** ... except the object [c]. *)
Definition ext_but h h' (c : ptr) : Prop :=
  next h <= next h' /\ forall q, q < next h -> q <> c -> mem h' q = mem h q.
(** [A] is an n x m matrix object of memory [h]. *)
Definition ismat h A n m : Prop := mp A < next h /\ mr A = n /\ mc A = m /\ len h (mp A) = n * m.
Definition isvec h v n : Prop := v < next h /\ len h v = n.
(** A new n x m matrix object with entries [f]; nothing else changed. *)
Definition newmat h h' C n m (f : nat -> nat -> T) : Prop :=
  ext h h' /\ next h <= mp C /\ ismat h' C n m /\ forall i j, i < n -> j < m -> mget h' C i j = f i j.
Definition newvec h h' v n (f : nat -> T) : Prop :=
  ext h h' /\ next h <= v /\ isvec h' v n /\ forall i, i < n -> rd h' v i = f i.
(** The existing object [C] now has entries [f]; nothing else changed. *)
Definition setmat h h' C n m (f : nat -> nat -> T) : Prop :=
  ext_but h h' (mp C) /\ ismat h' C n m /\ forall i j, i < n -> j < m -> mget h' C i j = f i j.
Definition setvec h h' v n (f : nat -> T) : Prop :=
  ext_but h h' v /\ isvec h' v n /\ forall i, i < n -> rd h' v i = f i.

(** Two computations, run from the same memory, both return normally with a fresh n x m matrix
    (n-vector), change no existing object, and their results have the same entries. *)
Definition same_mat (m1 m2 : M (heap T) mat) h n m : Prop :=
  exists C1 h1 C2 h2, m1 h = Ok C1 h1 /\ m2 h = Ok C2 h2 /\ ext h h1 /\ ext h h2 /\
    ismat h1 C1 n m /\ ismat h2 C2 n m /\
    forall i j, i < n -> j < m -> mget h1 C1 i j = mget h2 C2 i j.
Definition same_vec (m1 m2 : M (heap T) ptr) h n : Prop :=
  exists v1 h1 v2 h2, m1 h = Ok v1 h1 /\ m2 h = Ok v2 h2 /\ ext h h1 /\ ext h h2 /\
    isvec h1 v1 n /\ isvec h2 v2 n /\
    forall i, i < n -> rd h1 v1 i = rd h2 v2 i.

End SpecMat.
