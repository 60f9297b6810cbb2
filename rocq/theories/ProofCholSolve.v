(** * The substitution kernels: what they compute, operation by operation (any scalar type) *)
From Verif Require Import Base Scalar BaseLemmas Spec ModelVec ModelMat SpecMat ModelPacked ProofPacked ProofVecSched
  ModelSolvers ProofTdma ProofChol.
Local Open Scope nat_scope.

Section Recs.
Context {T : Type} {Op : Ops T}.
Variables (n : nat) (L : nat -> nat -> T).
(** Forward substitution with L; with L scaled to unit diagonal; backward with L transposed. *)
Definition fwd (b Y : nat -> T) i : Prop := Y i = div (ssub i (b i) (fun j => mul (L i j) (Y j))) (L i i).
Definition ufwd (b Y : nat -> T) i : Prop := Y i = ssub i (b i) (fun j => mul (div (L i j) (L j j)) (Y j)).
Definition bwd (Y X : nat -> T) i : Prop :=
  X i = div (ssub (n - S i) (Y i) (fun t => mul (L (S i + t) i) (X (S i + t)))) (L i i).
Definition substituted (b X : nat -> T) : Prop :=
  exists Y, (forall i, i < n -> fwd b Y i) /\ forall i, i < n -> bwd Y X i.
Definition usubstituted (b X : nat -> T) : Prop :=
  exists Y, (forall i, i < n -> ufwd b Y i) /\ forall i, i < n -> bwd Y X i.
End Recs.

Section Column.
Context {T : Type} {Op : Ops T}.
Implicit Types h : heap T.
Variables (mt : memtype) (n : nat) (l rhs rslt : ptr) (pos : nat -> nat) (bound : nat).
Hypothesis pos_inj : forall i j, pos i = pos j -> i = j.
Hypothesis pos_lt : forall i, i < n -> pos i < bound.
Hypothesis l_rslt : l <> rslt.
Notation ix := (index mt n).
Notation lo := (lo mt n l).
Definition colpos (p : nat) : Prop := exists i, i < n /\ p = pos i.

Lemma lo_frame P h h1 i j : frame rslt P h h1 -> lo h1 i j = lo h i j.
Proof. intros F. apply (frame_rd_other _ _ _ _ _ _ F). auto. Qed.

Definition ok h := fits_u32 n = true /\ len h l = storage mt n /\ bound <= len h rhs /\ bound <= len h rslt.
Lemma ok_frame P h h1 : frame rslt P h h1 -> ok h -> ok h1.
Proof. intros F (A & B & C & D). unfold ok. rewrite !(frame_len _ _ _ _ _ F). auto. Qed.

(** The right-hand side read at row i, in or out of place. *)
Lemma rhs_read h h1 i : frame rslt colpos h h1 -> rd h1 rslt (pos i) = rd h rslt (pos i) ->
  rd h1 rhs (pos i) = rd h rhs (pos i).
Proof.
  intros F U. destruct (Nat.eq_dec rhs rslt) as [->|Ne]; auto. apply (frame_rd_other _ _ _ _ _ _ F Ne).
Qed.

Lemma rd_pos h h1 i j : frame rslt (eq (pos i)) h h1 -> j <> i -> rd h1 rslt (pos j) = rd h rslt (pos j).
Proof. intros F H. apply (frame_rd _ _ _ _ _ F). intros E. apply H. symmetry. auto. Qed.

Lemma fwd_ok h : ok h ->
  post (for_u32 0 n (fun i _ =>
      bind (load rhs (pos i)) (fun r => bind (store rslt (pos i) r) (fun _ =>
      bind (for_u32 0 i (fun j _ =>
        bind (load rslt (pos i)) (fun ri => bind (load l (ix i j)) (fun lij => bind (load rslt (pos j)) (fun rj =>
        store rslt (pos i) (sub ri (mul lij rj)))))) tt) (fun _ =>
      bind (load rslt (pos i)) (fun ri => bind (load l (ix i i)) (fun lii =>
      store rslt (pos i) (div ri lii))))))) tt) h (fun _ h' =>
    frame rslt colpos h h' /\ forall i, i < n -> fwd (lo h) (fun i => rd h rhs (pos i)) (fun i => rd h' rslt (pos i)) i).
Proof.
  intros Ho. pose proof Ho as (Hf & Hl & Hb & Hr).
  apply post_for_u32 with (I := fun i (_ : unit) h1 =>
    frame rslt colpos h h1 /\
    (forall i', i' < i -> fwd (lo h) (fun i => rd h rhs (pos i)) (fun i => rd h1 rslt (pos i)) i') /\
    (forall i', i <= i' -> rd h1 rslt (pos i') = rd h rslt (pos i'))); auto; [lia| | |].
  - split; [apply frame_refl|]. split; [intros; lia|auto].
  - intros i [] h1 Hi (F1 & R1 & U1). pose proof (ok_frame _ _ _ F1 Ho) as O1.
    pose proof (pos_lt i ltac:(lia)) as Pi.
    apply post_bind, post_load; [destruct O1 as (? & ? & ? & ?); lia|].
    apply post_bind, post_store; [destruct O1 as (? & ? & ? & ?); lia|].
    rewrite (rhs_read h h1) by auto.
    set (h2 := hset h1 rslt (pos i) (rd h rhs (pos i))).
    assert (F2 : frame rslt (eq (pos i)) h1 h2) by (apply frame_hset; auto using frame_refl).
    pose proof (ok_frame _ _ _ F2 O1) as O2.
    assert (V2 : rd h2 rslt (pos i) = rd h rhs (pos i)) by (apply rd_hset_same; destruct O1 as (? & ? & ? & ?); lia).
    apply post_bind. eapply post_mono.
    { apply (acc_loop_u32 rslt (pos i) (fun j => mul (lo h i j) (rd h1 rslt (pos j)))).
      - apply fits_u32_le with n; [auto|lia].
      - destruct O2 as (? & ? & ? & ?); lia.
      - intros j h3 Hj F3. destruct (ok_frame _ _ _ F3 O2) as (_ & A3 & B3 & C3).
        pose proof (pos_lt j ltac:(lia)) as Pj.
        unfold bind. rewrite !load_ok, store_ok; rewrite ?A3; try lia; try (apply index_lt; lia).
        do 4 f_equal.
        + fold (lo h3 i j). rewrite (lo_frame _ _ _ _ _ F3), (lo_frame _ _ _ _ _ F2), (lo_frame _ _ _ _ _ F1). reflexivity.
        + rewrite (rd_pos _ _ _ _ F3), (rd_pos _ _ _ _ F2) by lia. reflexivity. }
    intros _ h3 [F3 V3]. cbv beta in *. rewrite V2 in V3.
    pose proof (ok_frame _ _ _ F3 O2) as O3. destruct O3 as (_ & A3 & B3 & C3).
    apply post_bind, post_load; [lia|].
    apply post_bind, post_load; [rewrite A3; apply index_lt; lia|].
    apply post_store; [lia|]. fold (lo h3 i i).
    rewrite (lo_frame _ _ _ _ _ F3), (lo_frame _ _ _ _ _ F2), (lo_frame _ _ _ _ _ F1).
    match goal with |- context [hset h3 rslt (pos i) ?v] => set (w := v); set (h4 := hset h3 rslt (pos i) w) end.
    assert (F4 : frame rslt (eq (pos i)) h1 h4).
    { apply frame_hset; auto. eapply frame_trans; eauto. }
    assert (K : forall j, j <> i -> rd h4 rslt (pos j) = rd h1 rslt (pos j)) by (intros; apply (rd_pos _ _ i); auto).
    split; [|split].
    + eapply frame_trans; [exact F1|]. apply (frame_mono _ _ _ _ _ F4). intros p <-. exists i. split; [lia|auto].
    + intros i' Hi'. destruct (Nat.eq_dec i' i) as [->|].
      * unfold fwd. unfold h4 at 1. rewrite rd_hset_same by lia. unfold w. f_equal. rewrite V3.
        apply ssub_ext. intros j Hj. now rewrite K by lia.
      * unfold fwd. rewrite K by auto. rewrite R1 by lia. f_equal. apply ssub_ext. intros j Hj. now rewrite K by lia.
    + intros i' Hi'. rewrite K by lia. apply U1. lia.
  - intros _ h1 (F1 & R1 & U1). split; auto.
Qed.

Lemma ufwd_ok h : ok h ->
  post (for_u32 0 n (fun i _ =>
      bind (load rhs (pos i)) (fun r => bind (store rslt (pos i) r) (fun _ =>
      for_u32 0 i (fun j _ =>
        bind (load rslt (pos i)) (fun ri => bind (load l (ix i j)) (fun lij => bind (load l (ix j j)) (fun ljj =>
        bind (load rslt (pos j)) (fun rj =>
        store rslt (pos i) (sub ri (mul (div lij ljj) rj))))))) tt))) tt) h (fun _ h' =>
    frame rslt colpos h h' /\ forall i, i < n -> ufwd (lo h) (fun i => rd h rhs (pos i)) (fun i => rd h' rslt (pos i)) i).
Proof.
  intros Ho. pose proof Ho as (Hf & Hl & Hb & Hr).
  apply post_for_u32 with (I := fun i (_ : unit) h1 =>
    frame rslt colpos h h1 /\
    (forall i', i' < i -> ufwd (lo h) (fun i => rd h rhs (pos i)) (fun i => rd h1 rslt (pos i)) i') /\
    (forall i', i <= i' -> rd h1 rslt (pos i') = rd h rslt (pos i'))); auto; [lia| | |].
  - split; [apply frame_refl|]. split; [intros; lia|auto].
  - intros i [] h1 Hi (F1 & R1 & U1). pose proof (ok_frame _ _ _ F1 Ho) as O1.
    pose proof (pos_lt i ltac:(lia)) as Pi.
    apply post_bind, post_load; [destruct O1 as (? & ? & ? & ?); lia|].
    apply post_bind, post_store; [destruct O1 as (? & ? & ? & ?); lia|].
    rewrite (rhs_read h h1) by auto.
    set (h2 := hset h1 rslt (pos i) (rd h rhs (pos i))).
    assert (F2 : frame rslt (eq (pos i)) h1 h2) by (apply frame_hset; auto using frame_refl).
    pose proof (ok_frame _ _ _ F2 O1) as O2.
    assert (V2 : rd h2 rslt (pos i) = rd h rhs (pos i)) by (apply rd_hset_same; destruct O1 as (? & ? & ? & ?); lia).
    eapply post_mono.
    { apply (acc_loop_u32 rslt (pos i) (fun j => mul (div (lo h i j) (lo h j j)) (rd h1 rslt (pos j)))).
      - apply fits_u32_le with n; [auto|lia].
      - destruct O2 as (? & ? & ? & ?); lia.
      - intros j h3 Hj F3. destruct (ok_frame _ _ _ F3 O2) as (_ & A3 & B3 & C3).
        pose proof (pos_lt j ltac:(lia)) as Pj.
        unfold bind. rewrite !load_ok, store_ok; rewrite ?A3; try lia; try (apply index_lt; lia).
        do 4 f_equal.
        + fold (lo h3 i j) (lo h3 j j).
          rewrite !(lo_frame _ _ _ _ _ F3), !(lo_frame _ _ _ _ _ F2), !(lo_frame _ _ _ _ _ F1). reflexivity.
        + rewrite (rd_pos _ _ _ _ F3), (rd_pos _ _ _ _ F2) by lia. reflexivity. }
    intros _ h3 [F3 V3]. cbv beta in *. rewrite V2 in V3.
    assert (F4 : frame rslt (eq (pos i)) h1 h3) by (eapply frame_trans; eauto).
    assert (K : forall j, j <> i -> rd h3 rslt (pos j) = rd h1 rslt (pos j)) by (intros; apply (rd_pos _ _ i); auto).
    split; [|split].
    + eapply frame_trans; [exact F1|]. apply (frame_mono _ _ _ _ _ F4). intros p <-. exists i. split; [lia|auto].
    + intros i' Hi'. destruct (Nat.eq_dec i' i) as [->|].
      * unfold ufwd. rewrite V3. apply ssub_ext. intros j Hj. now rewrite K by lia.
      * unfold ufwd. rewrite K by auto. rewrite R1 by lia. apply ssub_ext. intros j Hj. now rewrite K by lia.
    + intros i' Hi'. rewrite K by lia. apply U1. lia.
  - intros _ h1 (F1 & R1 & U1). split; auto.
Qed.

Lemma bwd_ok (iter : nat -> (nat -> unit -> M (heap T) unit) -> M (heap T) unit) h : ok h -> fits_i32 n = true ->
  (forall i body h1, i < n -> iter i body h1 = for_sz (i + 1) n body tt h1) ->
  post (down_i32 n (fun i _ =>
      bind (iter i (fun j _ =>
        bind (load rslt (pos i)) (fun ri => bind (load l (ix j i)) (fun lji => bind (load rslt (pos j)) (fun rj =>
        store rslt (pos i) (sub ri (mul lji rj))))))) (fun _ =>
      bind (load rslt (pos i)) (fun ri => bind (load l (ix i i)) (fun lii =>
      store rslt (pos i) (div ri lii))))) tt) h (fun _ h' =>
    frame rslt colpos h h' /\
    forall i, i < n -> bwd n (lo h) (fun i => rd h rslt (pos i)) (fun i => rd h' rslt (pos i)) i).
Proof.
  intros Ho Hi32 Hit. pose proof Ho as (Hf & Hl & Hb & Hr).
  apply post_down_i32 with (I := fun m (_ : unit) h1 =>
    frame rslt colpos h h1 /\
    (forall i, m <= i < n -> bwd n (lo h) (fun i => rd h rslt (pos i)) (fun i => rd h1 rslt (pos i)) i) /\
    (forall i, i < m -> rd h1 rslt (pos i) = rd h rslt (pos i))); auto.
  - split; [apply frame_refl|]. split; [intros; lia|auto].
  - intros i [] h1 Hi (F1 & R1 & U1). pose proof (ok_frame _ _ _ F1 Ho) as O1.
    pose proof (pos_lt i ltac:(lia)) as Pi.
    apply post_bind. unfold post. rewrite Hit by auto. eapply post_mono.
    { apply (acc_loop rslt (pos i) (fun j => mul (lo h j i) (rd h1 rslt (pos j)))).
      - lia.
      - destruct O1 as (? & ? & ? & ?); lia.
      - intros j h3 Hj F3. destruct (ok_frame _ _ _ F3 O1) as (_ & A3 & B3 & C3).
        pose proof (pos_lt j ltac:(lia)) as Pj.
        unfold bind. rewrite !load_ok, store_ok; rewrite ?A3; try lia; try (apply index_lt; lia).
        do 4 f_equal.
        + fold (lo h3 j i). rewrite (lo_frame _ _ _ _ _ F3), (lo_frame _ _ _ _ _ F1). reflexivity.
        + rewrite (rd_pos _ _ _ _ F3) by lia. reflexivity. }
    intros _ h3 [F3 V3]. cbv beta in *. rewrite U1 in V3 by lia.
    pose proof (ok_frame _ _ _ F3 O1) as O3. destruct O3 as (_ & A3 & B3 & C3).
    apply post_bind, post_load; [lia|].
    apply post_bind, post_load; [rewrite A3; apply index_lt; lia|].
    apply post_store; [lia|]. fold (lo h3 i i).
    rewrite (lo_frame _ _ _ _ _ F3), (lo_frame _ _ _ _ _ F1).
    match goal with |- context [hset h3 rslt (pos i) ?v] => set (w := v); set (h4 := hset h3 rslt (pos i) w) end.
    assert (F4 : frame rslt (eq (pos i)) h1 h4) by (apply frame_hset; auto).
    assert (K : forall j, j <> i -> rd h4 rslt (pos j) = rd h1 rslt (pos j)) by (intros; apply (rd_pos _ _ i); auto).
    split; [|split].
    + eapply frame_trans; [exact F1|]. apply (frame_mono _ _ _ _ _ F4). intros p <-. exists i. split; [lia|auto].
    + intros i' Hi'. destruct (Nat.eq_dec i' i) as [->|].
      * unfold bwd. unfold h4 at 1. rewrite rd_hset_same by lia. unfold w. f_equal. rewrite V3.
        replace (n - (i + 1)) with (n - S i) by lia.
        apply ssub_ext. intros t Ht. replace (i + 1 + t) with (S i + t) by lia. now rewrite K by lia.
      * unfold bwd. rewrite K by auto. rewrite R1 by lia. f_equal. apply ssub_ext. intros t Ht. now rewrite K by lia.
    + intros i' Hi'. rewrite K by lia. apply U1. lia.
  - intros _ h1 (F1 & R1 & U1). split; auto. intros i Hi. apply R1. lia.
Qed.
End Column.

Section Solve.
Context {T : Type} {Op : Ops T}.
Implicit Types h : heap T.
Variables (mt : memtype) (n nrow : nat) (l rhs rslt : ptr).
Hypothesis l_rslt : l <> rslt.
Notation lo := (lo mt n l).

Definition incol k (p : nat) : Prop := exists i, i < n /\ p = k + i * nrow.
Definition colof (h : heap T) (x : ptr) k (i : nat) : T := rd h x (k + i * nrow).

(** From one column to all of them. *)
Lemma columns (R : (nat -> nat -> T) -> (nat -> T) -> (nat -> T) -> Prop) body h :
  (forall L b b' X X', (forall i, i < n -> b i = b' i) -> (forall i, i < n -> X i = X' i) -> R L b X -> R L b' X') ->
  fits_u32 nrow = true -> len h l = storage mt n -> n * nrow <= len h rhs -> n * nrow <= len h rslt ->
  (forall k h1, k < nrow -> len h1 l = storage mt n -> n * nrow <= len h1 rhs -> n * nrow <= len h1 rslt ->
    post (body k tt) h1 (fun _ h' => frame rslt (incol k) h1 h' /\ R (lo h1) (colof h1 rhs k) (colof h' rslt k))) ->
  post (for_u32 0 nrow body tt) h (fun _ h' =>
    frame rslt (fun p => p < n * nrow) h h' /\ forall k, k < nrow -> R (lo h) (colof h rhs k) (colof h' rslt k)).
Proof.
  intros HR Hf Hl Hb Hr Hbody.
  apply post_for_u32 with (I := fun k (_ : unit) h1 =>
    frame rslt (fun p => exists k', k' < k /\ incol k' p) h h1 /\
    forall k', k' < k -> R (lo h) (colof h rhs k') (colof h1 rslt k')); auto; [lia| | |].
  - split; [apply frame_refl|intros; lia].
  - intros k [] h1 Hk [F1 S1].
    eapply post_mono.
    { apply Hbody; rewrite ?(frame_len _ _ _ _ _ F1); auto; lia. }
    intros _ h2 [F2 S2]. cbv beta in *. split.
    + eapply frame_trans.
      * apply (frame_mono _ _ _ _ _ F1). intros p (k' & H1 & H2). exists k'. split; [lia|auto].
      * apply (frame_mono _ _ _ _ _ F2). intros p Hp. exists k. split; [lia|auto].
    + intros k' Hk'. destruct (Nat.eq_dec k' k) as [->|Ne].
      * assert (E : lo h1 = lo h).
        { unfold ProofChol.lo. unfold rd. destruct F1 as (_ & M1 & _). now rewrite M1. }
        rewrite <- E. apply (HR _ (colof h1 rhs k) _ (colof h2 rslt k) _); auto.
        intros i Hi. unfold colof. destruct (Nat.eq_dec rhs rslt) as [->|Hbx].
        -- apply (frame_rd _ _ _ _ _ F1). intros (k'' & H1 & i' & H2 & H3). apply pos_inj in H3; lia.
        -- apply (frame_rd_other _ _ _ _ _ _ F1 Hbx).
      * apply (HR _ (colof h rhs k') _ (colof h1 rslt k') _); auto; [|apply S1; lia].
        intros i Hi. unfold colof. symmetry. apply (frame_rd _ _ _ _ _ F2).
        intros (i' & H2 & H3). apply pos_inj in H3; lia.
  - intros _ h1 [F1 S1]. split; auto. apply (frame_mono _ _ _ _ _ F1).
    intros p (k & H1 & i & H2 & ->). nia.
Qed.

Lemma substituted_ext L (b b' X X' : nat -> T) : (forall i, i < n -> b i = b' i) -> (forall i, i < n -> X i = X' i) ->
  substituted n L b X -> substituted n L b' X'.
Proof.
  intros Hb HX (Y & H1 & H2). exists Y. split.
  - intros i Hi. unfold fwd. rewrite <- Hb by auto. now apply H1.
  - intros i Hi. unfold bwd. rewrite <- HX, H2 by auto. f_equal. apply ssub_ext. intros t Ht. now rewrite HX by lia.
Qed.
Lemma usubstituted_ext L (b b' X X' : nat -> T) : (forall i, i < n -> b i = b' i) -> (forall i, i < n -> X i = X' i) ->
  usubstituted n L b X -> usubstituted n L b' X'.
Proof.
  intros Hb HX (Y & H1 & H2). exists Y. split.
  - intros i Hi. unfold ufwd. rewrite <- Hb by auto. now apply H1.
  - intros i Hi. unfold bwd. rewrite <- HX, H2 by auto. f_equal. apply ssub_ext. intros t Ht. now rewrite HX by lia.
Qed.

Lemma cholesky_linear_ok h : (Z.of_nat n < 2 ^ 31)%Z -> fits_u32 nrow = true ->
  len h l = storage mt n -> n * nrow <= len h rhs -> n * nrow <= len h rslt ->
  post (cholesky_linear mt n nrow l rhs rslt) h (fun r h' => r = rslt /\
    frame rslt (fun p => p < n * nrow) h h' /\
    forall k, k < nrow -> substituted n (lo h) (colof h rhs k) (colof h' rslt k)).
Proof.
  intros Hn Hf Hl Hb Hr. unfold cholesky_linear. apply post_bind.
  assert (F31 : fits_i32 n = true) by (unfold fits_i32; apply Z.leb_le; lia).
  assert (F32 : fits_u32 n = true) by (now apply fits_i32_u32).
  assert (EN : Z.to_nat (to_int32 (Z.of_nat n)) = n) by (rewrite to_int32_small by lia; lia).
  rewrite EN. eapply post_mono; [apply (columns (substituted n)); auto; try exact substituted_ext|].
  - intros k h1 Hk L1 B1 R1. cbv beta.
    assert (PI : forall i j, k + i * nrow = k + j * nrow -> i = j) by (intros i j E; apply pos_inj in E; lia).
    assert (PB : forall i, i < n -> k + i * nrow < n * nrow) by (intros; nia).
    assert (O1 : ok mt n l rhs rslt (n * nrow) h1) by (repeat split; auto).
    apply post_bind. eapply post_mono.
    { apply (fwd_ok mt n l rhs rslt (fun i => k + i * nrow) (n * nrow)); auto. }
    intros _ h2 [F2 S2]. eapply post_mono.
    { apply (bwd_ok mt n l rhs rslt (fun i => k + i * nrow) (n * nrow)) with
        (iter := fun i body => for_sz (i + 1) n body tt); auto.
      apply (ok_frame _ _ _ _ _ _ _ _ _ F2 O1). }
    intros _ h3 [F3 S3]. split.
    + eapply frame_trans; [exact F2|exact F3].
    + exists (colof h2 rslt k). split; [exact S2|].
      assert (E : lo h2 = lo h1).
      { unfold ProofChol.lo, rd. destruct F2 as (_ & M2 & _). now rewrite M2. }
      rewrite <- E. exact S3.
  - intros _ h' [F S]. apply post_ret. auto.
Qed.

Lemma mod_linear_ok h : fits_i32 n = true -> fits_u32 nrow = true ->
  len h l = storage mt n -> n * nrow <= len h rhs -> n * nrow <= len h rslt ->
  post (mod_cholesky_linear mt n nrow l rhs rslt) h (fun _ h' =>
    frame rslt (fun p => p < n * nrow) h h' /\
    forall k, k < nrow -> usubstituted n (lo h) (colof h rhs k) (colof h' rslt k)).
Proof.
  intros F31 Hf Hl Hb Hr. unfold mod_cholesky_linear.
  assert (F32 : fits_u32 n = true) by (now apply fits_i32_u32).
  apply (columns (usubstituted n)); auto; try exact usubstituted_ext.
  intros k h1 Hk L1 B1 R1. cbv beta.
  assert (PI : forall i j, i * nrow + k = j * nrow + k -> i = j) by (intros i j E; nia).
  assert (PB : forall i, i < n -> i * nrow + k < n * nrow) by (intros; nia).
  assert (O1 : ok mt n l rhs rslt (n * nrow) h1) by (repeat split; auto).
  apply post_bind. eapply post_mono.
  { apply (ufwd_ok mt n l rhs rslt (fun i => i * nrow + k) (n * nrow)); auto. }
  intros _ h2 [F2 S2]. eapply post_mono.
  { apply (bwd_ok mt n l rhs rslt (fun i => i * nrow + k) (n * nrow)) with
      (iter := fun i body => for_u32 (i + 1) n body tt); auto.
    - apply (ok_frame _ _ _ _ _ _ _ _ _ F2 O1).
    - intros. unfold for_u32. now rewrite F32. }
  intros _ h3 [F3 S3].
  assert (C : forall p, colpos n (fun i => i * nrow + k) p -> incol k p)
    by (intros p (i & Hi & ->); exists i; split; [auto|lia]).
  split.
  + apply (frame_mono _ (colpos n (fun i => i * nrow + k))); auto. eapply frame_trans; [exact F2|exact F3].
  + apply (usubstituted_ext (lo h1) (fun i => rd h1 rhs (i * nrow + k)) _ (fun i => rd h3 rslt (i * nrow + k))).
    { intros i _. unfold colof. f_equal. lia. }
    { intros i _. unfold colof. f_equal. lia. }
    exists (fun i => rd h2 rslt (i * nrow + k)). split; [exact S2|].
    assert (E : lo h2 = lo h1).
    { unfold ProofChol.lo, rd. destruct F2 as (_ & M2 & _). now rewrite M2. }
    rewrite <- E. exact S3.
Qed.
End Solve.
