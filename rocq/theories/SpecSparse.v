(** * Specification vocabulary for sparse matrices *)
From Coq Require Import Permutation.
From Verif Require Import Base Scalar ModelSparse.
Local Open Scope nat_scope.

(** A sparse matrix as a mathematical object: a list of ((row, column), value). *)
Definition triples (T : Type) := list ((nat * nat) * T).

Section SpecSparse.
Context {T : Type} {Op : Ops T}.
Implicit Types (es : triples T).

(** No position is stored twice. *)
Definition distinct es : Prop := NoDup (map fst es).

(** [x] is what reading position (i,j) may give: a stored value of that position, zero if there
    is none. *)
Definition reads es (i j : nat) (x : T) : Prop :=
  In ((i, j), x) es \/ ((forall v, ~ In ((i, j), v) es) /\ x = zero).

(** Row-major order of positions. *)
Definition pos_le (p q : nat * nat) : Prop := fst p < fst q \/ (fst p = fst q /\ snd p <= snd q).
Definition pos_lt (p q : nat * nat) : Prop := fst p < fst q \/ (fst p = fst q /\ snd p < snd q).
Definition in_order (R : nat * nat -> nat * nat -> Prop) (ps : list (nat * nat)) : Prop :=
  forall a b, a < b -> b < length ps -> R (nth a ps (0, 0)) (nth b ps (0, 0)).

(** The triples given by three arrays. *)
Definition zip3 (rows cols : list nat) (vals : list T) : triples T := combine (combine rows cols) vals.

(** What a sparse container holds, seen through its own arrays (values(), row_indices(), ...). *)
Definition coo_entries (A : coo T) : triples T := zip3 (crow A) (ccol A) (cval A).

(** What the COO class maintains: three arrays of one length, in row-major order. *)
Definition coo_wf (A : coo T) : Prop :=
  length (crow A) = length (cval A) /\ length (ccol A) = length (cval A) /\
  in_order pos_le (map fst (coo_entries A)).

(** A well-formed CSR matrix with [n] rows: [n+1] non-decreasing row pointers from 0 to nnz. *)
Definition csr_wf (A : csr T) (n : nat) : Prop :=
  length (scol A) = length (sval A) /\ length (sptr A) = n + 1 /\ nth 0 (sptr A) 0 = 0 /\
  nth n (sptr A) 0 = length (sval A) /\
  forall i, i < n -> nth i (sptr A) 0 <= nth (i + 1) (sptr A) 0.

(** The triples of row [i], and of the whole CSR matrix. *)
Definition csr_row (A : csr T) (i : nat) : triples T :=
  map (fun k => ((i, nth k (scol A) 0), nth k (sval A) zero))
      (seq (nth i (sptr A) 0) (nth (i + 1) (sptr A) 0 - nth i (sptr A) 0)).
Definition csr_entries (A : csr T) (n : nat) : triples T := flat_map (csr_row A) (seq 0 n).

(** Smallest shape containing all stored positions. *)
Definition is_shape es (n m : nat) : Prop :=
  (forall i j v, In ((i, j), v) es -> i < n /\ j < m) /\
  forall n' m', (forall i j v, In ((i, j), v) es -> i < n' /\ j < m') -> n <= n' /\ m <= m'.

(** The sum of two matrices, position by position. *)
Definition sum_entries es1 es2 (es : triples T) : Prop :=
  forall i j x, In ((i, j), x) es <->
    (exists a b, In ((i, j), a) es1 /\ In ((i, j), b) es2 /\ x = add a b) \/
    (In ((i, j), x) es1 /\ forall b, ~ In ((i, j), b) es2) \/
    (In ((i, j), x) es2 /\ forall a, ~ In ((i, j), a) es1).
End SpecSparse.

(** ** The sort routine *)

(** A strict weak ordering, what std::ranges::sort requires of its comparison. *)
Definition weak_order (less : nat -> nat -> bool) : Prop :=
  (forall a, less a a = false) /\
  (forall a b c, less a b = true -> less b c = true -> less a c = true) /\
  (forall a b c, less a b = false -> less b c = false -> less a c = false).

(** What std::ranges::sort guarantees: a permutation without inversions. *)
Definition sort_contract (srt : sorter) : Prop :=
  forall less l, weak_order less ->
    Permutation (srt less l) l /\
    forall a b, a < b -> b < length l -> less (nth b (srt less l) 0) (nth a (srt less l) 0) = false.

(** Insertion sort: a sorter satisfying the contract, for the examples. *)
Fixpoint insert (less : nat -> nat -> bool) (x : nat) (l : list nat) : list nat :=
  match l with
  | [] => [x]
  | y :: l' => if less y x then y :: insert less x l' else x :: l
  end.
Definition isort : sorter := fun less l => fold_right (insert less) [] l.
