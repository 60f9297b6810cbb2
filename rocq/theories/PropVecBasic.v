(** * Property C56: vectors hold the elements they are given, and element access is exact *)
From Coq Require Import Lia.
From Verif Require Import Base Scalar BaseLemmas Spec ModelVec SpecMat ProofVec PropCopy.
Local Open Scope nat_scope.

Section VecBasic.
Context {T : Type} {Op : Ops T}.
Implicit Types h : heap T.

(** A constructor returned a new object holding exactly [l]; nothing existing changed. *)
Definition built (m : M (heap T) ptr) h (l : list T) : Prop :=
  exists v h', m h = Ok v h' /\ next h <= v < next h' /\ mem h' v = l /\ ext h h'.

Lemma alloc_built l h : built (alloc l) h l.
Proof.
  exists (next h), (halloc h l). split; [reflexivity|]. split; [unfold halloc; cbn [next]; lia|]. split; [apply mem_halloc_same|].
  split; [unfold halloc; cbn [next]; lia|]. intros q Hq. apply mem_halloc_other. lia.
Qed.

(** From a std::vector or initializer list (dynamic: any length; static: exactly N), filled, and
    "uninitialised" (value-initialised elements). *)
Theorem C56_construct : forall l n x h,
  built (dynvec_of l) h l /\ built (sizedvec_of (length l) l) h l /\
  built (dynvec_filled n x) h (repeat x n) /\ built (sizedvec_filled n x) h (repeat x n) /\
  built (dynvec_uninit n) h (repeat zero n) /\ built (sizedvec_uninit n) h (repeat zero n).
Proof.
  intros l n x h. repeat split; try apply alloc_built.
  unfold sizedvec_of. rewrite Nat.eqb_refl. apply alloc_built.
Qed.

(** Reading: element i of the contents, memory unchanged; outside the vector undefined. *)
Theorem C56_read : forall v i h,
  (forall x, nth_error (mem h v) i = Some x -> vec_get v i h = Ok x h) /\
  (length (mem h v) <= i -> vec_get v i h = UB).
Proof.
  intros v i h. unfold vec_get, load. split.
  - intros x ->. reflexivity.
  - intros L. apply nth_error_None in L. now rewrite L.
Qed.

(** Writing: exactly that element of that vector changes; outside the vector undefined. *)
Theorem C56_write : forall v i x h,
  (i < length (mem h v) -> exists h', vec_put v i x h = Ok tt h' /\ next h' = next h /\
     length (mem h' v) = length (mem h v) /\ vec_get v i h' = Ok x h' /\
     (forall k, k <> i -> nth_error (mem h' v) k = nth_error (mem h v) k) /\
     (forall q, q <> v -> mem h' q = mem h q)) /\
  (length (mem h v) <= i -> vec_put v i x h = UB).
Proof.
  intros v i x h. split; intros L.
  - exists (hset h v i x). unfold vec_put, store. pose proof L as L'. apply Nat.ltb_lt in L'. rewrite L'.
    split; [reflexivity|]. split; [reflexivity|].
    assert (M : mem (hset h v i x) v = set_nth i x (mem h v)) by (unfold hset, upd; cbn; now rewrite Nat.eqb_refl).
    assert (E : forall (l : list T) k j y, nth_error (set_nth k y l) j = if Nat.eqb j k then (if Nat.ltb k (length l) then Some y else None) else nth_error l j).
    { intros l. induction l as [|z l IH]; intros [|k] [|j] y; cbn; auto; try (now destruct (Nat.eqb j k)). rewrite IH. reflexivity. }
    split; [apply len_hset|]. split; [|split].
    + unfold vec_get, load. now rewrite M, E, Nat.eqb_refl, L'.
    + intros k Hk. rewrite M, E. apply Nat.eqb_neq in Hk. now rewrite Hk.
    + intros q Hq. now apply mem_hset_other.
  - unfold vec_put, store. apply Nat.ltb_ge in L. now rewrite L.
Qed.

(** Any history of in-range writes: every vector ends up holding what the history put there, and
    reading an element gives the last value written to it (or the original one). *)
Fixpoint last_written (p : ptr) (i : nat) (ws : list write) (x : T) : T :=
  match ws with
  | [] => x
  | (q, k, y) :: ws => last_written p i ws (if Nat.eqb q p && Nat.eqb k i then y else x)
  end.
Theorem C56_history : forall ws h, (forall q i x, In (q, i, x) ws -> i < length (mem h q)) ->
  exists h', writes ws h = Ok tt h' /\ (forall p, length (mem h' p) = length (mem h p)) /\
    forall p i x, nth_error (mem h p) i = Some x -> vec_get p i h' = Ok (last_written p i ws x) h'.
Proof.
  induction ws as [|[[q k] y] ws IH]; intros h H.
  - exists h. split; [reflexivity|]. split; [reflexivity|]. intros p i x E. cbn. now apply C56_read.
  - destruct (proj1 (C56_write q k y h) (H q k y (or_introl eq_refl))) as (h1 & E1 & N1 & L1 & G1 & S1 & O1).
    assert (LL : forall p, length (mem h1 p) = length (mem h p)).
    { intros p. destruct (Nat.eq_dec p q) as [->|Np]; [exact L1|now rewrite O1]. }
    destruct (IH h1) as (h' & E' & L' & G').
    { intros q' i' x' Hin. rewrite LL. eapply H. right. exact Hin. }
    exists h'. split; [cbn [writes]; unfold bind; now rewrite E1|]. split.
    + intros p. now rewrite L', LL.
    + intros p i x E. cbn [last_written]. apply G'.
      destruct (Nat.eqb_spec q p) as [->|Nq]; cbn [andb]; [|now rewrite O1 by auto].
      destruct (Nat.eqb_spec k i) as [->|Nk]; [|now rewrite S1 by auto].
      unfold vec_get, load in G1. destruct (nth_error (mem h1 p) i); [|discriminate]. now injection G1 as ->.
Qed.

(** Moving a dynamic vector: the new (assigned) vector holds the elements; the source of a move
    construction is empty; all other objects are unchanged. *)
Theorem C56_move : forall v h, v < next h -> exists w h', dynvec_move v h = Ok w h' /\ next h <= w < next h' /\
  mem h' w = mem h v /\ mem h' v = [] /\ forall q, q < next h -> q <> v -> mem h' q = mem h q.
Proof.
  intros v h Hv. exists (next h), (upd (halloc h (mem h v)) v []). split; [reflexivity|]. split; [unfold halloc; cbn [upd next]; lia|].
  cbn [upd mem]. split; [|split].
  - destruct (Nat.eqb_spec (next h) v); [lia|]. apply mem_halloc_same.
  - now rewrite Nat.eqb_refl.
  - intros q Hq Hne. apply Nat.eqb_neq in Hne. rewrite Hne. apply mem_halloc_other. lia.
Qed.
Theorem C56_move_assign : forall left d v h, d < next h -> v < next h -> exists h', dynvec_move_assign left d v h = Ok d h' /\
  mem h' d = mem h v /\ next h' = next h /\ forall q, q <> d -> q <> v -> mem h' q = mem h q.
Proof.
  intros left d v h Hd Hv. exists (upd (upd h v left) d (mem h v)). split; [reflexivity|]. cbn [upd mem next].
  split; [now rewrite Nat.eqb_refl|]. split; [reflexivity|].
  intros q H1 H2. apply Nat.eqb_neq in H1, H2. now rewrite H1, H2.
Qed.
End VecBasic.

Example C56_example : let h := heap_of [[1%Z; 2%Z; 3%Z]; [4%Z]] in
  exists h', writes [(0, 1, 7%Z); (1, 0, 5%Z); (0, 1, 8%Z)] h = Ok tt h' /\ mem h' 0 = [1; 8; 3]%Z /\ mem h' 1 = [5]%Z /\
    vec_get 0 1 h' = Ok (last_written 0 1 [(0, 1, 7%Z); (1, 0, 5%Z); (0, 1, 8%Z)] 2%Z) h' /\ vec_get 1 1 h' = UB /\
    exists h2, dynvec_move 0 h' = Ok 2 h2 /\ mem h2 2 = [1; 8; 3]%Z /\ mem h2 0 = [].
Proof. eexists. repeat split. eexists. repeat split. Qed.

Print Assumptions C56_history.
