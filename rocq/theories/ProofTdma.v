(** * Proofs about the tridiagonal solver *)
From Coq Require Import Field.
From Verif Require Import Base Scalar BaseLemmas Spec Sums ModelVec ModelMat SpecMat ModelPacked PropPacked ModelSolvers.
Local Open Scope sc_scope.

Section TriMath.
Context {T : Type} {Op : Ops T} {F : IsField T Op}.
Add Field Tfield6 : (field_th (IsField := F)).

(** A tridiagonal matrix as a function: diagonal d, sub-diagonal l (l i is entry (i+1,i)),
    super-diagonal u. *)
Section Fun.
Variables l d u : nat -> T.

Definition trif (i j : nat) : T :=
  if Nat.eqb i j then d i else if Nat.eqb j (i + 1) then u i else if Nat.eqb i (j + 1) then l j else zero.

(** The pivots of elimination without row exchange. *)
Fixpoint tri_pivot (i : nat) : T :=
  match i with
  | 0 => d 0
  | S j => d (S j) - l j * u j / tri_pivot j
  end.

Lemma trif_diag i : trif i i = d i.
Proof. unfold trif. now rewrite Nat.eqb_refl. Qed.
Lemma trif_up i : trif i (S i) = u i.
Proof. unfold trif. destruct (Nat.eqb_spec i (S i)); [lia|]. destruct (Nat.eqb_spec (S i) (i + 1)); [auto|lia]. Qed.
Lemma trif_lo i : trif (S i) i = l i.
Proof.
  unfold trif. destruct (Nat.eqb_spec (S i) i); [lia|]. destruct (Nat.eqb_spec i (S i + 1)); [lia|].
  destruct (Nat.eqb_spec (S i) (i + 1)); [auto|lia].
Qed.
Lemma trif_out i j : (S i < j \/ S j < i)%nat -> trif i j = zero.
Proof.
  intros H. unfold trif. destruct (Nat.eqb_spec i j); [lia|]. destruct (Nat.eqb_spec j (i + 1)); [lia|].
  destruct (Nat.eqb_spec i (j + 1)); [lia|auto].
Qed.

(** A row of the product. *)
Definition left_term (i : nat) (x : nat -> T) : T := match i with 0 => zero | S j => l j * x j end.
Lemma trif_row n i x : (i < n)%nat ->
  mvmul n trif x i = left_term i x + d i * x i + (if Nat.ltb (S i) n then u i * x (S i) else zero).
Proof.
  intros Hi. unfold mvmul. rewrite (bsum_split n i) by lia.
  replace (n - i)%nat with (S (n - S i)) by lia. rewrite bsum_first. rewrite Nat.add_0_r, trif_diag.
  assert (E1 : bsum i (fun k => trif i k * x k) = left_term i x).
  { destruct i as [|i]; [reflexivity|]. cbn [bsum left_term]. rewrite trif_lo.
    rewrite bsum_zero; [ring|]. intros k Hk. rewrite trif_out by lia. ring. }
  rewrite E1.
  destruct (Nat.ltb_spec (S i) n).
  - replace (n - S i)%nat with (S (n - S (S i))) by lia. rewrite bsum_first.
    replace (i + 1)%nat with (S i) by lia. rewrite trif_up.
    rewrite bsum_zero; [ring|]. intros k Hk. rewrite trif_out by lia. ring.
  - replace (n - S i)%nat with 0%nat by lia. cbn [bsum]. ring.
Qed.

Section Rhs.
Variable b : nat -> T.
Fixpoint tri_q (i : nat) : T :=
  match i with
  | 0 => b 0 / tri_pivot 0
  | S j => (b (S j) - l j * tri_q j) / tri_pivot (S j)
  end.
Definition tri_p (i : nat) : T := - u i / tri_pivot i.

Lemma tri_pivot_p i : tri_pivot i <> zero -> d (S i) + l i * tri_p i = tri_pivot (S i).
Proof. intros H. unfold tri_p. cbn [tri_pivot]. field. exact H. Qed.

Lemma tri_q_row i : tri_pivot i <> zero -> tri_pivot i * tri_q i = b i - left_term i tri_q.
Proof. intros H. destruct i as [|i]; cbn [tri_q left_term] in *; [field; exact H|field; exact H]. Qed.

(** What the two sweeps compute is the solution. *)
Lemma sweeps_solve n x :
  (2 <= n)%nat -> (forall i, (i < n)%nat -> tri_pivot i <> zero) ->
  x (n - 1)%nat = tri_q (n - 1) ->
  (forall i, (i < n - 1)%nat -> x i = tri_p i * x (S i) + tri_q i) ->
  solves n trif x b.
Proof.
  intros Hn Hp Ht Hx i Hi. rewrite trif_row by auto.
  assert (E : left_term i x + d i * x i = tri_pivot i * x i + left_term i tri_q).
  { destruct i as [|i]; cbn [left_term]; [cbn [tri_pivot]; ring|].
    rewrite (Hx i) by lia. rewrite <- tri_pivot_p by (apply Hp; lia). ring. }
  rewrite E. destruct (Nat.ltb_spec (S i) n).
  - rewrite (Hx i) at 1 by lia. 
    replace (tri_pivot i * (tri_p i * x (S i) + tri_q i)) with
      (tri_pivot i * tri_p i * x (S i) + tri_pivot i * tri_q i) by ring.
    rewrite tri_q_row by (apply Hp; lia). unfold tri_p. field. apply Hp. lia.
  - assert (i = n - 1)%nat as -> by lia. rewrite Ht, tri_q_row by (apply Hp; lia). ring.
Qed.
End Rhs.

(** Non-zero pivots: only one solution. *)
Lemma pivots_nonsingular n : (forall i, (i < n)%nat -> tri_pivot i <> zero) -> nonsingular n trif.
Proof.
  intros Hp x Hx.
  (* eliminating downwards *)
  assert (E : forall i, (i < n)%nat ->
    tri_pivot i * x i + (if Nat.ltb (S i) n then u i * x (S i) else zero) = zero).
  { induction i as [|i IH]; intros Hi.
    - pose proof (Hx 0%nat Hi) as H. rewrite trif_row in H by auto. cbn [left_term] in H. cbn [tri_pivot].
      etransitivity; [|exact H]. ring.
    - pose proof (Hx (S i) Hi) as H. rewrite trif_row in H by auto. cbn [left_term] in H.
      pose proof (IH ltac:(lia)) as H1. destruct (Nat.ltb_spec (S i) n); [|lia].
      cbn [tri_pivot].
      assert (Z : tri_pivot i <> zero) by (apply Hp; lia).
      set (r := if Nat.ltb (S (S i)) n then _ else _) in *.
      transitivity ((l i * x i + d (S i) * x (S i) + r) - l i / tri_pivot i * (tri_pivot i * x i + u i * x (S i))).
      { field. exact Z. }
      rewrite H, H1. field. exact Z. }
  assert (D : forall k, (k <= n)%nat -> forall i, (n - k <= i < n)%nat -> x i = zero).
  { induction k as [|k IH]; intros Hk i Hi; [lia|].
    destruct (Nat.eq_dec i (n - S k)) as [->|]; [|apply IH; lia].
    pose proof (E (n - S k)%nat ltac:(lia)) as H.
    apply (mul_integral (tri_pivot (n - S k))); [|apply Hp; lia].
    destruct (Nat.ltb_spec (S (n - S k)) n).
    - rewrite (IH ltac:(lia) (S (n - S k))) in H by lia. etransitivity; [|exact H]. ring.
    - etransitivity; [|exact H]. ring. }
  intros i Hi. apply (D n); lia.
Qed.

(** The pivots up to order n are non-zero exactly when every leading square block is
    non-singular: the hypothesis is a property of the matrix, not of the algorithm. *)
Lemma pivots_iff_leading n :
  (forall i, (i < n)%nat -> tri_pivot i <> zero) <-> (forall m, (m <= n)%nat -> nonsingular m trif).
Proof.
  split.
  - intros H m Hm. apply pivots_nonsingular. intros i Hi. apply H. lia.
  - intros H i. induction i as [i IH] using lt_wf_ind. intros Hi Hz.
    (* a vector annihilated by the leading block of order i+1 *)
    pose (x := fix go (k : nat) : T := match k with 0 => one | S k' => tri_p (i - S k') * go k' end).
    pose (y := fun j => x (i - j)%nat).
    assert (Y1 : y i = one) by (unfold y; now rewrite Nat.sub_diag).
    assert (Y2 : forall j, (j < i)%nat -> y j = tri_p j * y (S j)).
    { intros j Hj. unfold y. replace (i - j)%nat with (S (i - S j)) by lia. cbn [x]. fold x.
      f_equal. f_equal. lia. }
    assert (Y : forall j, (j < S i)%nat -> mvmul (S i) trif y j = zero).
    { intros j Hj. rewrite trif_row by auto.
      assert (E : left_term j y + d j * y j = tri_pivot j * y j).
      { destruct j as [|j]; cbn [left_term]; [cbn [tri_pivot]; ring|].
        rewrite (Y2 j) by lia. rewrite <- tri_pivot_p by (apply IH; lia). ring. }
      rewrite E. destruct (Nat.ltb_spec (S j) (S i)).
      - rewrite (Y2 j) by lia. unfold tri_p. field. apply IH; lia.
      - assert (j = i) as -> by lia. rewrite Hz. ring. }
    assert (Z : one = zero) by (rewrite <- Y1; apply (H (S i) ltac:(lia) y Y); lia).
    exact (F_1_neq_0 (field_th (IsField := F)) Z).
Qed.
End Fun.
End TriMath.

Section Kernel.
Context {T : Type} {Op : Ops T} {F : IsField T Op}.
Add Field Tfield7 : (field_th (IsField := F)).
Implicit Types h : heap T.

Definition atf (l : list T) (i : nat) : T := nth i l zero.

Lemma band_trif dl d du i j : band T Op dl d du i j = trif (atf dl) (atf d) (atf du) i j.
Proof. reflexivity. Qed.

(** Positions of a row-major array with [w] columns. *)
Lemma pos_inj w k k' i i' : (k < w -> k' < w -> k + i * w = k' + i' * w -> k = k' /\ i = i')%nat.
Proof.
  intros H H' E. assert (i = i') by nia. subst. lia.
Qed.
Lemma pos_bound w n k i : (k < w)%nat -> (i < n)%nat -> (k + i * w < n * w)%nat.
Proof. nia. Qed.

Lemma tdma_col_ok n nrow dl d du b x k h :
  (2 <= n)%nat -> fits_i32 n = true -> (k < nrow)%nat ->
  length d = n -> length dl = (n - 1)%nat -> length du = (n - 1)%nat ->
  (n * nrow <= len h b)%nat -> (n * nrow <= len h x)%nat ->
  (forall i, (i < n)%nat -> tri_pivot (atf dl) (atf d) (atf du) i <> zero) ->
  post (tdma_col n nrow dl d du b x k) h (fun _ h' =>
    next h' = next h /\ (forall q, q <> x -> mem h' q = mem h q) /\ len h' x = len h x /\
    (forall p, (forall i, (i < n)%nat -> p <> (k + i * nrow)%nat) -> rd h' x p = rd h x p) /\
    solves n (band T Op dl d du) (fun i => rd h' x (k + i * nrow)) (fun i => rd h b (k + i * nrow))).
Proof.
  intros Hn Hf Hk L1 L2 L3 Lb Lx Hp. unfold tdma_col.
  set (P := tri_p (atf dl) (atf d) (atf du)).
  set (B := fun i => rd h b (k + i * nrow)%nat).
  set (Q := tri_q (atf dl) (atf d) (atf du) B).
  apply post_bind, (post_vec_at _ _ _ zero); [lia|].
  apply post_bind, (post_vec_at _ _ _ zero); [lia|].
  apply post_bind, post_load; [nia|].
  apply post_bind.
  apply post_for_u32 with (I := fun i (pq : list T * list T) h1 =>
    h1 = h /\ pq = (map P (seq 0 i), map Q (seq 0 i))).
  - apply fits_u32_le with n; [now apply fits_i32_u32|lia].
  - lia.
  - split; [reflexivity|]. cbn [map seq]. f_equal. unfold Q. cbn [tri_q tri_pivot]. unfold B.
    now replace (k + 0 * nrow)%nat with k by lia.
  - intros i pq h1 Hi [-> ->]. cbn [fst snd].
    apply post_bind, (post_vec_at _ _ _ zero); [lia|].
    apply post_bind, (post_vec_at _ _ _ zero); [lia|].
    apply post_bind, (post_vec_at _ _ _ zero); [rewrite map_length, seq_length; lia|].
    rewrite nth_map_seq by lia. cbv zeta.
    apply post_bind, (post_vec_at _ _ _ zero); [lia|].
    apply post_bind, post_load; [nia|].
    apply post_bind, (post_vec_at _ _ _ zero); [rewrite map_length, seq_length; lia|].
    rewrite nth_map_seq by lia. apply post_ret. split; [reflexivity|].
    rewrite seq_S, !map_app. cbn [map plus].
    destruct i as [|i]; [lia|]. replace (S i - 1)%nat with i by lia.
    fold (atf d (S i)) (atf dl i) (atf du (S i)).
    assert (EP : atf d (S i) + atf dl i * P i = tri_pivot (atf dl) (atf d) (atf du) (S i))
      by (apply tri_pivot_p; apply Hp; lia).
    rewrite EP. reflexivity.
  - intros pq h1 [-> ->]. cbn [fst snd].
    destruct (Nat.eqb_spec (n - 1) 0); [lia|].
    apply post_bind, post_load; [nia|].
    apply post_bind, (post_vec_at _ _ _ zero); [lia|].
    apply post_bind, (post_vec_at _ _ _ zero); [rewrite map_length, seq_length; lia|].
    rewrite nth_map_seq by lia.
    apply post_bind, (post_vec_at _ _ _ zero); [lia|].
    apply post_bind, (post_vec_at _ _ _ zero); [rewrite map_length, seq_length; lia|].
    rewrite nth_map_seq by lia.
    apply post_bind, post_store; [nia|].
    match goal with |- post _ (hset _ _ _ ?v) _ => assert (EV : v = Q (n - 1)%nat) end.
    { assert (EP : atf d (S (n - 1 - 1)) + atf dl (n - 1 - 1) * P (n - 1 - 1)%nat =
                   tri_pivot (atf dl) (atf d) (atf du) (S (n - 1 - 1)))
        by (apply tri_pivot_p; apply Hp; lia).
      assert (EN : S (n - 1 - 1) = (n - 1)%nat) by lia. rewrite EN in EP.
      fold (atf d (n - 1)) (atf dl (n - 1 - 1)). rewrite EP, <- EN. cbn [Q]. unfold Q at 2. cbn [tri_q].
      rewrite EN. reflexivity. }
    rewrite EV. clear EV.
    apply post_down_i32 with (I := fun m (_ : unit) h1 =>
      next h1 = next h /\ (forall q, q <> x -> mem h1 q = mem h q) /\ len h1 x = len h x /\
      (forall p, (forall i, (i < n)%nat -> p <> (k + i * nrow)%nat) -> rd h1 x p = rd h x p) /\
      rd h1 x (k + (n - 1) * nrow) = Q (n - 1)%nat /\
      (forall i, (m <= i < n - 1)%nat -> rd h1 x (k + i * nrow) = P i * rd h1 x (k + S i * nrow) + Q i)).
    + apply fits_i32_le with n; [auto|lia].
    + split; [apply next_hset|]. split; [intros; now apply mem_hset_other|]. split; [apply len_hset|].
      split; [intros p Hp'; apply rd_hset_idx; apply Hp'; lia|].
      split; [apply rd_hset_same; nia|intros; lia].
    + intros i [] h1 Hi (N1 & M1 & E1 & O1 & T1 & R1).
      apply post_bind, (post_vec_at _ _ _ zero); [rewrite map_length, seq_length; lia|].
      rewrite nth_map_seq by lia.
      apply post_bind, post_load; [nia|].
      apply post_bind, (post_vec_at _ _ _ zero); [rewrite map_length, seq_length; lia|].
      rewrite nth_map_seq by lia. apply post_store; [nia|].
      replace (k + (i + 1) * nrow)%nat with (k + S i * nrow)%nat by lia.
      split; [now rewrite next_hset|]. split; [intros q Hq; rewrite mem_hset_other by auto; auto|].
      split; [now rewrite len_hset|].
      split; [intros p Hp'; rewrite rd_hset_idx by (apply Hp'; lia); auto|].
      split; [rewrite rd_hset_idx by nia; auto|].
      intros j Hj. rewrite (rd_hset_idx _ _ _ _ _ (k + S j * nrow)) by nia.
      destruct (Nat.eq_dec j i) as [->|Ne].
      * rewrite rd_hset_same by nia. reflexivity.
      * rewrite rd_hset_idx by nia. apply R1. lia.
    + intros [] h1 (N1 & M1 & E1 & O1 & T1 & R1). do 4 (split; [assumption|]).
      apply sweeps_solve; auto. intros i Hi. apply R1. lia.
Qed.

(** All columns. *)
Lemma tdma_ok n nrow dl d du b x h :
  (2 <= n)%nat -> fits_i32 n = true -> fits_u32 nrow = true ->
  length d = n -> length dl = (n - 1)%nat -> length du = (n - 1)%nat ->
  (n * nrow <= len h b)%nat -> (n * nrow <= len h x)%nat ->
  (forall i, (i < n)%nat -> tri_pivot (atf dl) (atf d) (atf du) i <> zero) ->
  post (tdma n nrow dl d du b x) h (fun r h' =>
    r = x /\ next h' = next h /\ (forall q, q <> x -> mem h' q = mem h q) /\ len h' x = len h x /\
    (forall p, (n * nrow <= p)%nat -> rd h' x p = rd h x p) /\
    forall k, (k < nrow)%nat ->
      solves n (band T Op dl d du) (fun i => rd h' x (k + i * nrow)) (fun i => rd h b (k + i * nrow))).
Proof.
  intros Hn Hf Hr L1 L2 L3 Lb Lx Hp. unfold tdma. apply post_bind.
  apply post_for_u32 with (I := fun k (_ : unit) h1 =>
    next h1 = next h /\ (forall q, q <> x -> mem h1 q = mem h q) /\ len h1 x = len h x /\
    (forall p, (forall k' i, (k' < k)%nat -> (i < n)%nat -> p <> (k' + i * nrow)%nat) -> rd h1 x p = rd h x p) /\
    forall k', (k' < k)%nat ->
      solves n (band T Op dl d du) (fun i => rd h1 x (k' + i * nrow)) (fun i => rd h b (k' + i * nrow))).
  - exact Hr.
  - lia.
  - do 4 (split; [auto|]). intros; lia.
  - intros k [] h1 Hk (N1 & M1 & E1 & O1 & S1).
    assert (LB : len h1 b = len h b).
    { destruct (Nat.eq_dec b x) as [->|]; [auto|]. unfold len. now rewrite M1. }
    eapply post_mono.
    { apply tdma_col_ok with (n := n); auto; try lia. }
    intros _ h2 (N2 & M2 & E2 & O2 & S2). cbv beta in *.
    split; [congruence|]. split; [intros q Hq; rewrite M2, M1; auto|]. split; [congruence|].
    split.
    { intros p Hp'. rewrite O2, O1; auto. }
    intros k' Hk' i Hi. destruct (Nat.eq_dec k' k) as [->|Ne].
    + rewrite S2 by auto. destruct (Nat.eq_dec b x) as [->|Hbx].
      * apply O1. intros k'' i' H1 H2 H3. apply pos_inj in H3; lia.
      * unfold rd. now rewrite M1.
    + rewrite <- (S1 k' ltac:(lia) i Hi). apply mvmul_ext; auto.
      intros j Hj. apply O2. intros i' Hi' H3. apply pos_inj in H3; lia.
  - intros [] h1 (N1 & M1 & E1 & O1 & S1). apply post_ret. split; [reflexivity|].
    do 3 (split; [auto|]). split; [|auto].
    intros p Hp'. apply O1. intros k' i H1 H2 ->. pose proof (pos_bound nrow n k' i H1 H2). lia.
Qed.
End Kernel.
