(** * The tridiagonal kernel for any scalar type: which expressions it evaluates *)
From Verif Require Import Base Scalar BaseLemmas Spec ModelVec ModelMat ModelPacked ProofPacked ProofVecSched ModelSolvers ProofTdma.
Local Open Scope sc_scope.

Section Bits.
Context {T : Type} {Op : Ops T}.
Implicit Types h : heap T.

(** The coefficients of the forward sweep, rounded as the code rounds them. *)
Fixpoint sweep (dl d du : nat -> T) (b : nat -> T) (i : nat) : T * T :=
  match i with
  | 0 => (- du 0%nat / d 0%nat, b 0%nat / d 0%nat)
  | S j => let pq := sweep dl d du b j in let denom := d (S j) + dl j * fst pq in
           (- du (S j) / denom, (b (S j) - dl j * snd pq) / denom)
  end.
(** [x] is what the two sweeps leave for right-hand side [b]. *)
Definition swept n (dl d du : nat -> T) (b x : nat -> T) : Prop :=
  x (n - 1)%nat = snd (sweep dl d du b (n - 1)) /\
  forall i, (i < n - 1)%nat -> x i = fst (sweep dl d du b i) * x (S i) + snd (sweep dl d du b i).

Lemma sweep_ext dl d du b b' i : (forall j, (j <= i)%nat -> b j = b' j) -> sweep dl d du b i = sweep dl d du b' i.
Proof.
  induction i as [|i IH]; intros H; cbn [sweep]; [now rewrite H by lia|]. rewrite IH by (intros; apply H; lia). now rewrite H by lia.
Qed.
Lemma swept_unique n dl d du b b' x x' : (forall i, (i < n)%nat -> b i = b' i) ->
  swept n dl d du b x -> swept n dl d du b' x' -> forall i, (i < n)%nat -> x i = x' i.
Proof.
  intros E [H1 H2] [H1' H2'].
  assert (G : forall k i, (i < n)%nat -> (n - 1 - i = k)%nat -> x i = x' i).
  { induction k as [|k IH]; intros i Hi Hk.
    - replace i with (n - 1)%nat by lia. rewrite H1, H1'. f_equal. apply sweep_ext. intros; apply E; lia.
    - rewrite H2, H2' by lia. rewrite (IH (S i)) by lia. rewrite (sweep_ext _ _ _ b b'); [reflexivity|intros; apply E; lia]. }
  intros i Hi. now apply (G _ i Hi eq_refl).
Qed.
Lemma swept_ext n dl d du b b' x x' : (0 < n)%nat -> (forall i, (i < n)%nat -> b i = b' i) -> (forall i, (i < n)%nat -> x i = x' i) ->
  swept n dl d du b x -> swept n dl d du b' x'.
Proof.
  intros Hn E E' [H1 H2]. split.
  - rewrite <- E' by lia. rewrite H1. f_equal. apply sweep_ext. intros; apply E; lia.
  - intros i Hi. rewrite <- !E' by lia. rewrite H2 by lia. rewrite (sweep_ext _ _ _ b b'); [reflexivity|intros; apply E; lia].
Qed.

Lemma tdma_col_bits n nrow (dl d du : list T) b x k h :
  (2 <= n)%nat -> fits_i32 n = true -> (k < nrow)%nat ->
  length d = n -> length dl = (n - 1)%nat -> length du = (n - 1)%nat ->
  (n * nrow <= len h b)%nat -> (n * nrow <= len h x)%nat ->
  post (tdma_col n nrow dl d du b x k) h (fun _ h' =>
    next h' = next h /\ (forall q, q <> x -> mem h' q = mem h q) /\ len h' x = len h x /\
    (forall p, (forall i, (i < n)%nat -> p <> (k + i * nrow)%nat) -> rd h' x p = rd h x p) /\
    swept n (atf dl) (atf d) (atf du) (fun i => rd h b (k + i * nrow)) (fun i => rd h' x (k + i * nrow))).
Proof.
  intros Hn Hf Hk L1 L2 L3 Lb Lx. unfold tdma_col.
  set (B := fun i => rd h b (k + i * nrow)%nat).
  set (P := fun i => fst (sweep (atf dl) (atf d) (atf du) B i)).
  set (Q := fun i => snd (sweep (atf dl) (atf d) (atf du) B i)).
  apply post_bind, (post_vec_at _ _ _ zero); [lia|].
  apply post_bind, (post_vec_at _ _ _ zero); [lia|].
  apply post_bind, post_load; [nia|].
  apply post_bind.
  apply post_for_u32 with (I := fun i (pq : list T * list T) h1 =>
    h1 = h /\ pq = (map P (seq 0 i), map Q (seq 0 i))).
  - apply fits_u32_le with n; [now apply fits_i32_u32|lia].
  - lia.
  - split; [reflexivity|]. cbn [map seq]. f_equal. unfold Q. cbn [sweep snd]. unfold B.
    now replace (k + 0 * nrow)%nat with k by lia.
  - intros i pq h1 Hi [-> ->]. cbn [fst snd].
    apply post_bind, (post_vec_at _ _ _ zero); [lia|].
    apply post_bind, (post_vec_at _ _ _ zero); [lia|].
    apply post_bind, (post_vec_at _ _ _ zero); [rewrite map_length, seq_length; lia|].
    rewrite nth_map_seq by lia. cbv zeta.
    apply post_bind, (post_vec_at _ _ _ zero); [lia|].
    apply post_bind, post_load; [nia|].
    apply post_bind, (post_vec_at _ _ _ zero); [rewrite map_length, seq_length; lia|].
    rewrite nth_map_seq by lia. apply post_ret. split; [reflexivity|].
    rewrite seq_S, !map_app. cbn [map plus].
    destruct i as [|i]; [lia|]. replace (S i - 1)%nat with i by lia. reflexivity.
  - intros pq h1 [-> ->]. cbn [fst snd].
    destruct (Nat.eqb_spec (n - 1) 0); [lia|].
    apply post_bind, post_load; [nia|].
    apply post_bind, (post_vec_at _ _ _ zero); [lia|].
    apply post_bind, (post_vec_at _ _ _ zero); [rewrite map_length, seq_length; lia|].
    rewrite nth_map_seq by lia.
    apply post_bind, (post_vec_at _ _ _ zero); [lia|].
    apply post_bind, (post_vec_at _ _ _ zero); [rewrite map_length, seq_length; lia|].
    rewrite nth_map_seq by lia.
    apply post_bind, post_store; [nia|].
    match goal with |- post _ (hset _ _ _ ?v) _ => assert (EV : v = Q (n - 1)%nat) end.
    { assert (G : forall m, Q (S m) = (B (S m) - atf dl m * Q m) / (atf d (S m) + atf dl m * P m)) by reflexivity.
      specialize (G (n - 1 - 1)%nat). replace (S (n - 1 - 1)) with (n - 1)%nat in G by lia. now rewrite G. }
    rewrite EV. clear EV.
    apply post_down_i32 with (I := fun m (_ : unit) h1 =>
      next h1 = next h /\ (forall q, q <> x -> mem h1 q = mem h q) /\ len h1 x = len h x /\
      (forall p, (forall i, (i < n)%nat -> p <> (k + i * nrow)%nat) -> rd h1 x p = rd h x p) /\
      rd h1 x (k + (n - 1) * nrow) = Q (n - 1)%nat /\
      (forall i, (m <= i < n - 1)%nat -> rd h1 x (k + i * nrow) = P i * rd h1 x (k + S i * nrow) + Q i)).
    + apply fits_i32_le with n; [auto|lia].
    + split; [apply next_hset|]. split; [intros; now apply mem_hset_other|]. split; [apply len_hset|].
      split; [intros p Hp'; apply rd_hset_idx; apply Hp'; lia|].
      split; [apply rd_hset_same; nia|intros; lia].
    + intros i [] h1 Hi (N1 & M1 & E1 & O1 & T1 & R1).
      apply post_bind, (post_vec_at _ _ _ zero); [rewrite map_length, seq_length; lia|].
      rewrite nth_map_seq by lia.
      apply post_bind, post_load; [nia|].
      apply post_bind, (post_vec_at _ _ _ zero); [rewrite map_length, seq_length; lia|].
      rewrite nth_map_seq by lia. apply post_store; [nia|].
      replace (k + (i + 1) * nrow)%nat with (k + S i * nrow)%nat by lia.
      split; [now rewrite next_hset|]. split; [intros q Hq; rewrite mem_hset_other by auto; auto|].
      split; [now rewrite len_hset|].
      split; [intros p Hp'; rewrite rd_hset_idx by (apply Hp'; lia); auto|].
      split; [rewrite rd_hset_idx by nia; auto|].
      intros j Hj. rewrite (rd_hset_idx _ _ _ _ _ (k + S j * nrow)) by nia.
      destruct (Nat.eq_dec j i) as [->|Ne].
      * rewrite rd_hset_same by nia. reflexivity.
      * rewrite rd_hset_idx by nia. apply R1. lia.
    + intros [] h1 (N1 & M1 & E1 & O1 & T1 & R1). do 4 (split; [assumption|]).
      split; [exact T1|]. intros i Hi. apply R1. lia.
Qed.

Lemma tdma_bits n nrow (dl d du : list T) b x h :
  (2 <= n)%nat -> fits_i32 n = true -> fits_u32 nrow = true ->
  length d = n -> length dl = (n - 1)%nat -> length du = (n - 1)%nat ->
  (n * nrow <= len h b)%nat -> (n * nrow <= len h x)%nat ->
  post (tdma n nrow dl d du b x) h (fun r h' =>
    r = x /\ next h' = next h /\ (forall q, q <> x -> mem h' q = mem h q) /\ len h' x = len h x /\
    (forall p, (n * nrow <= p)%nat -> rd h' x p = rd h x p) /\
    forall k, (k < nrow)%nat ->
      swept n (atf dl) (atf d) (atf du) (fun i => rd h b (k + i * nrow)) (fun i => rd h' x (k + i * nrow))).
Proof.
  intros Hn Hf Hr L1 L2 L3 Lb Lx. unfold tdma. apply post_bind.
  apply post_for_u32 with (I := fun k (_ : unit) h1 =>
    next h1 = next h /\ (forall q, q <> x -> mem h1 q = mem h q) /\ len h1 x = len h x /\
    (forall p, (forall k' i, (k' < k)%nat -> (i < n)%nat -> p <> (k' + i * nrow)%nat) -> rd h1 x p = rd h x p) /\
    forall k', (k' < k)%nat ->
      swept n (atf dl) (atf d) (atf du) (fun i => rd h b (k' + i * nrow)) (fun i => rd h1 x (k' + i * nrow))).
  - exact Hr.
  - lia.
  - do 4 (split; [auto|]). intros; lia.
  - intros k [] h1 Hk (N1 & M1 & E1 & O1 & S1).
    assert (LB : len h1 b = len h b).
    { destruct (Nat.eq_dec b x) as [->|]; [auto|]. unfold len. now rewrite M1. }
    eapply post_mono.
    { apply tdma_col_bits with (n := n); auto; try lia. }
    intros _ h2 (N2 & M2 & E2 & O2 & S2). cbv beta in *.
    split; [congruence|]. split; [intros q Hq; rewrite M2, M1; auto|]. split; [congruence|].
    split.
    { intros p Hp'. rewrite O2, O1; auto. }
    intros k' Hk'. destruct (Nat.eq_dec k' k) as [->|Ne].
    + eapply swept_ext; [lia| |intros; reflexivity|exact S2]. intros i Hi. cbv beta.
      destruct (Nat.eq_dec b x) as [->|Hbx].
      * apply O1. intros k'' i' H1 H2 H3. apply pos_inj in H3; lia.
      * unfold rd. now rewrite M1.
    + eapply swept_ext; [lia|intros; reflexivity| |exact (S1 k' ltac:(lia))]. intros j Hj. cbv beta. symmetry.
      apply O2. intros i' Hi' H3. apply pos_inj in H3; lia.
  - intros [] h1 (N1 & M1 & E1 & O1 & S1). apply post_ret. split; [reflexivity|].
    do 3 (split; [auto|]). split; [|auto].
    intros p Hp'. apply O1. intros k' i H1 H2 ->. pose proof (pos_bound nrow n k' i H1 H2). lia.
Qed.
End Bits.
