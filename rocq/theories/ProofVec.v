(** * Proofs about the vector operations (any scalar type) *)
From Verif Require Import Base Scalar BaseLemmas Spec ModelVec.
Local Open Scope sc_scope.

Lemma map2_length {A B C} (f : A -> B -> C) l1 l2 :
  length l1 = length l2 -> length (map2 f l1 l2) = length l1.
Proof. intros H. unfold map2. rewrite map_length, combine_length. lia. Qed.

Lemma nth_map2 {A B C} (f : A -> B -> C) l1 l2 i a b c :
  i < length l1 -> i < length l2 -> nth i (map2 f l1 l2) c = f (nth i l1 a) (nth i l2 b).
Proof.
  revert l2 i; induction l1 as [|x l1 IH]; intros [|y l2] i H1 H2; cbn in *; try lia.
  destruct i as [|i]; cbn; auto. apply IH; lia.
Qed.

Lemma nth_map' {A B} (f : A -> B) l i a b : i < length l -> nth i (map f l) b = f (nth i l a).
Proof.
  intros H. rewrite nth_indep with (d' := f a) by (now rewrite map_length). apply map_nth.
Qed.

Section ProofVec.
Context {T : Type} {O : Ops T}.
Implicit Types (h : heap T) (p q : ptr).

(** What an entry-wise kernel of length [n] does to buffer [vr]: entry i becomes [g i]. *)
Definition wrote h h' vr n (g : nat -> T) : Prop :=
  (forall q, q <> vr -> mem h' q = mem h q) /\ next h' = next h /\ len h' vr = len h vr /\
  (forall i, rd h' vr i = if Nat.ltb i n then g i else rd h vr i).

Lemma ew2 (f : T -> T -> T) v1 v2 vr n h :
  fits_u32 n = true -> n <= len h v1 -> n <= len h v2 -> n <= len h vr ->
  post (for_u32 0 n (fun i _ => x <- load v1 i ;; y <- load v2 i ;; store vr i (f x y)) tt) h
    (fun _ h' => wrote h h' vr n (fun i => f (rd h v1 i) (rd h v2 i))).
Proof.
  intros Hf H1 H2 H3.
  eapply (post_for_u32 (fun k _ h' => wrote h h' vr k (fun i => f (rd h v1 i) (rd h v2 i))));
    [exact Hf|lia| | |].
  - repeat split; auto.
  - intros i [] h1 Hi (Hfr & Hn & Hl & Hv).
    assert (Hlen : forall p, len h1 p = len h p).
    { intros p. destruct (Nat.eq_dec p vr) as [->|Hp]; [exact Hl|]. unfold len; now rewrite Hfr. }
    assert (Hrd : forall p, rd h1 p i = rd h p i).
    { intros p. destruct (Nat.eq_dec p vr) as [->|Hp].
      - rewrite Hv. destruct (Nat.ltb_spec i i); [lia|auto].
      - unfold rd; now rewrite Hfr. }
    repeat (pstep; rewrite ?Hlen; try lia).
    rewrite !Hrd. repeat split.
    + intros q Hq. rewrite mem_hset_other by auto. auto.
    + exact Hn.
    + rewrite len_hset. auto.
    + intros j. rewrite rd_hset by (rewrite Hlen; lia). rewrite Nat.eqb_refl; cbn [andb].
      rewrite Hv. destruct (Nat.eqb_spec j i) as [->|].
      * destruct (Nat.ltb_spec i (S i)); [auto|lia].
      * destruct (Nat.ltb_spec j i), (Nat.ltb_spec j (S i)); auto; lia.
  - auto.
Qed.

Lemma ew1 (f : T -> T) v1 vr n h :
  fits_u32 n = true -> n <= len h v1 -> n <= len h vr ->
  post (for_u32 0 n (fun i _ => x <- load v1 i ;; store vr i (f x)) tt) h
    (fun _ h' => wrote h h' vr n (fun i => f (rd h v1 i))).
Proof.
  intros Hf H1 H3.
  eapply (post_for_u32 (fun k _ h' => wrote h h' vr k (fun i => f (rd h v1 i))));
    [exact Hf|lia| | |].
  - repeat split; auto.
  - intros i [] h1 Hi (Hfr & Hn & Hl & Hv).
    assert (Hlen : forall p, len h1 p = len h p).
    { intros p. destruct (Nat.eq_dec p vr) as [->|Hp]; [exact Hl|]. unfold len; now rewrite Hfr. }
    assert (Hrd : forall p, rd h1 p i = rd h p i).
    { intros p. destruct (Nat.eq_dec p vr) as [->|Hp].
      - rewrite Hv. destruct (Nat.ltb_spec i i); [lia|auto].
      - unfold rd; now rewrite Hfr. }
    repeat (pstep; rewrite ?Hlen; try lia).
    rewrite !Hrd. repeat split.
    + intros q Hq. rewrite mem_hset_other by auto. auto.
    + exact Hn.
    + rewrite len_hset. auto.
    + intros j. rewrite rd_hset by (rewrite Hlen; lia). rewrite Nat.eqb_refl; cbn [andb].
      rewrite Hv. destruct (Nat.eqb_spec j i) as [->|].
      * destruct (Nat.ltb_spec i (S i)); [auto|lia].
      * destruct (Nat.ltb_spec j i), (Nat.ltb_spec j (S i)); auto; lia.
  - auto.
Qed.

(** *** Kernels *)

Lemma neg_core_wrote v vr n h :
  fits_u32 n = true -> n <= len h v -> n <= len h vr ->
  post (neg_core_simd v vr n) h
    (fun r h' => r = vr /\ wrote h h' vr n (fun i => - rd h v i)).
Proof.
  intros. unfold neg_core_simd. apply post_bind. eapply post_mono; [apply (ew1 opp); auto|].
  cbv beta; intros _ h' H'. apply post_ret; auto.
Qed.

Lemma add_core_wrote v1 v2 vr n h :
  fits_u32 n = true -> n <= len h v1 -> n <= len h v2 -> n <= len h vr ->
  post (add_core v1 v2 vr n) h
    (fun r h' => r = vr /\ wrote h h' vr n (fun i => rd h v1 i + rd h v2 i)).
Proof.
  intros. unfold add_core, add_core_simd, add_core_parallel.
  destruct (Nat.ltb n 16); repeat apply post_bind;
    (eapply post_mono; [apply (ew2 add); auto|]);
    cbv beta; intros _ h' H'; apply post_ret; cbn; auto.
Qed.

Lemma sub_core_wrote v1 v2 vr n h :
  fits_u32 n = true -> n <= len h v1 -> n <= len h v2 -> n <= len h vr ->
  post (sub_core v1 v2 vr n) h
    (fun r h' => r = vr /\ wrote h h' vr n (fun i => rd h v1 i - rd h v2 i)).
Proof.
  intros. unfold sub_core, sub_core_simd, sub_core_parallel.
  destruct (Nat.ltb n 16); repeat apply post_bind;
    (eapply post_mono; [apply (ew2 sub); auto|]);
    cbv beta; intros _ h' H'; apply post_ret; cbn; auto.
Qed.

Lemma axpy_core_wrote alpha vx vy n h :
  fits_u32 n = true -> n <= len h vx -> n <= len h vy ->
  post (axpy_core alpha vx vy n) h
    (fun r h' => r = vy /\ wrote h h' vy n (fun i => alpha * rd h vx i + rd h vy i)).
Proof.
  intros. unfold axpy_core. apply post_bind.
  eapply post_mono; [apply (ew2 (fun x y => alpha * x + y)); auto|].
  cbv beta; intros _ h' H'. apply post_ret; auto.
Qed.

Lemma scal_core_wrote alpha v n h :
  fits_u32 n = true -> n <= len h v ->
  post (scal_core alpha v n) h
    (fun r h' => r = v /\ wrote h h' v n (fun i => alpha * rd h v i)).
Proof.
  intros. unfold scal_core. apply post_bind.
  eapply post_mono; [apply (ew1 (fun x => alpha * x)); auto|].
  cbv beta; intros _ h' H'. apply post_ret; auto.
Qed.

(** From the index-wise description to whole buffers. *)
Lemma wrote_mem2 (f : T -> T -> T) h h' v1 v2 vr n :
  wrote h h' vr n (fun i => f (rd h v1 i) (rd h v2 i)) ->
  len h v1 = n -> len h v2 = n -> len h vr = n ->
  mem h' vr = map2 f (mem h v1) (mem h v2) /\ unchanged_except [vr] h h' /\ next h' = next h.
Proof.
  intros (Hfr & Hn & Hl & Hv) H1 H2 H3. split; [|split; [|exact Hn]].
  - apply (list_ext_nth zero).
    + rewrite map2_length by (unfold len in *; lia). unfold len in *; lia.
    + intros i Hi. unfold len in *. rewrite (nth_map2 f _ _ _ zero zero) by lia.
      fold (rd h' vr i). rewrite Hv. destruct (Nat.ltb_spec i n); [reflexivity|lia].
  - intros q Hq. apply Hfr. intros ->. apply Hq. left; reflexivity.
Qed.

Lemma wrote_mem1 (f : T -> T) h h' v vr n :
  wrote h h' vr n (fun i => f (rd h v i)) ->
  len h v = n -> len h vr = n ->
  mem h' vr = map f (mem h v) /\ unchanged_except [vr] h h' /\ next h' = next h.
Proof.
  intros (Hfr & Hn & Hl & Hv) H1 H3. split; [|split; [|exact Hn]].
  - apply (list_ext_nth zero).
    + rewrite map_length. unfold len in *; lia.
    + intros i Hi. unfold len in *. rewrite (nth_map' f _ _ zero) by lia.
      fold (rd h' vr i). rewrite Hv. destruct (Nat.ltb_spec i n); [reflexivity|lia].
  - intros q Hq. apply Hfr. intros ->. apply Hq. left; reflexivity.
Qed.

(** *** Wrappers *)

Definition did1 h h' vr (f : T -> T) v : Prop :=
  mem h' vr = map f (mem h v) /\ unchanged_except [vr] h h' /\ next h' = next h.
Definition did2 h h' vr (f : T -> T -> T) v1 v2 : Prop :=
  mem h' vr = map2 f (mem h v1) (mem h v2) /\ unchanged_except [vr] h h' /\ next h' = next h.

Lemma post_check_size n1 n2 h (Q : unit -> heap T -> Prop) :
  n1 = n2 -> Q tt h -> post (check_size n1 n2) h Q.
Proof. intros ->. unfold check_size. rewrite Nat.eqb_refl. auto. Qed.

Ltac finish2 := cbv beta; intros r h' [-> Hw]; repeat pstep; split; [reflexivity|];
  eapply wrote_mem2; eauto.
Ltac finish1 := cbv beta; intros r h' [-> Hw]; repeat pstep; split; [reflexivity|];
  eapply wrote_mem1; eauto.

Lemma neg_d_ok v vr h :
  fits_u32 (len h v) = true -> len h v = len h vr ->
  post (neg_d v vr) h (fun r h' => r = vr /\ did1 h h' vr opp v).
Proof.
  intros Hf Hl. unfold neg_d. pstep. repeat pstep. apply post_check_size; [auto|]. pstep.
  eapply post_mono; [apply neg_core_wrote; auto; lia|]. finish1.
Qed.

Lemma neg_s_ok N v vr h :
  fits_u32 N = true -> len h v = N -> len h vr = N ->
  post (neg_s N v vr) h (fun r h' => r = vr /\ did1 h h' vr opp v).
Proof.
  intros Hf Hl Hr. unfold neg_s. repeat pstep.
  eapply post_mono; [apply neg_core_wrote; auto; lia|]. finish1.
Qed.

Lemma add_d_ok v1 v2 vr h :
  fits_u32 (len h v1) = true -> len h v1 = len h v2 -> len h vr = len h v1 ->
  post (add_d v1 v2 vr) h (fun r h' => r = vr /\ did2 h h' vr add v1 v2).
Proof.
  intros Hf H2 H3. unfold add_d. repeat pstep. apply post_check_size; [auto|]. pstep.
  eapply post_mono; [apply add_core_wrote; auto; lia|]. finish2.
Qed.

Lemma sub_d_ok v1 v2 vr h :
  fits_u32 (len h v1) = true -> len h v1 = len h v2 -> len h vr = len h v1 ->
  post (sub_d v1 v2 vr) h (fun r h' => r = vr /\ did2 h h' vr sub v1 v2).
Proof.
  intros Hf H2 H3. unfold sub_d. repeat pstep. apply post_check_size; [auto|]. pstep.
  eapply post_mono; [apply sub_core_wrote; auto; lia|]. finish2.
Qed.

Lemma add_s_ok N v1 v2 vr h :
  fits_u32 N = true -> len h v1 = N -> len h v2 = N -> len h vr = N ->
  post (add_s N v1 v2 vr) h (fun r h' => r = vr /\ did2 h h' vr add v1 v2).
Proof.
  intros Hf H1 H2 H3. unfold add_s. repeat pstep.
  eapply post_mono; [apply add_core_wrote; auto; lia|]. finish2.
Qed.

Lemma sub_s_ok N v1 v2 vr h :
  fits_u32 N = true -> len h v1 = N -> len h v2 = N -> len h vr = N ->
  post (sub_s N v1 v2 vr) h (fun r h' => r = vr /\ did2 h h' vr sub v1 v2).
Proof.
  intros Hf H1 H2 H3. unfold sub_s. repeat pstep.
  eapply post_mono; [apply sub_core_wrote; auto; lia|]. finish2.
Qed.

Lemma add_sd_ok N v1 v2 vr h :
  fits_u32 N = true -> len h v1 = N -> len h v2 = N -> len h vr = N ->
  post (add_sd N v1 v2 vr) h (fun r h' => r = vr /\ did2 h h' vr add v1 v2).
Proof.
  intros Hf H1 H2 H3. unfold add_sd. repeat pstep. apply post_check_size; [auto|]. pstep.
  eapply post_mono; [apply add_core_wrote; auto; lia|]. finish2.
Qed.

Lemma add_ds_ok N v1 v2 vr h :
  fits_u32 N = true -> len h v1 = N -> len h v2 = N -> len h vr = N ->
  post (add_ds N v1 v2 vr) h (fun r h' => r = vr /\ did2 h h' vr add v1 v2).
Proof.
  intros Hf H1 H2 H3. unfold add_ds. repeat pstep. apply post_check_size; [auto|]. pstep.
  eapply post_mono; [apply add_core_wrote; auto; lia|]. finish2.
Qed.

Lemma sub_ds_ok N v1 v2 vr h :
  fits_u32 N = true -> len h v1 = N -> len h v2 = N -> len h vr = N ->
  post (sub_ds N v1 v2 vr) h (fun r h' => r = vr /\ did2 h h' vr sub v1 v2).
Proof.
  intros Hf H1 H2 H3. unfold sub_ds. repeat pstep. apply post_check_size; [auto|]. pstep.
  eapply post_mono; [apply sub_core_wrote; auto; lia|]. finish2.
Qed.

Lemma axpy_d_ok alpha x y h :
  fits_u32 (len h x) = true -> len h x = len h y ->
  post (axpy_d alpha x y) h
    (fun r h' => r = y /\ did2 h h' y (fun a b => alpha * a + b) x y).
Proof.
  intros Hf H2. unfold axpy_d. pstep. repeat pstep. apply post_check_size; [auto|]. pstep.
  eapply post_mono; [apply axpy_core_wrote; auto; lia|]. cbv beta; intros r h' [-> Hw].
  pstep. split; [reflexivity|].
  eapply (wrote_mem2 (fun a b => alpha * a + b)); eauto.
Qed.

Lemma axpy_s_ok N alpha x y h :
  fits_u32 N = true -> len h x = N -> len h y = N ->
  post (axpy_s N alpha x y) h
    (fun r h' => r = y /\ did2 h h' y (fun a b => alpha * a + b) x y).
Proof.
  intros Hf H1 H2. unfold axpy_s. repeat pstep.
  eapply post_mono; [apply axpy_core_wrote; auto; lia|]. cbv beta; intros r h' [-> Hw].
  pstep. split; [reflexivity|].
  eapply (wrote_mem2 (fun a b => alpha * a + b)); eauto.
Qed.

Lemma scale_d_ok alpha x h :
  fits_u32 (len h x) = true ->
  post (scale_d alpha x) h (fun r h' => r = x /\ did1 h h' x (fun a => alpha * a) x).
Proof.
  intros Hf. unfold scale_d. repeat pstep.
  eapply post_mono; [apply scal_core_wrote; auto; lia|]. cbv beta; intros r h' [-> Hw].
  pstep. split; [reflexivity|]. eapply (wrote_mem1 (fun a => alpha * a)); eauto.
Qed.

Lemma scale_s_ok N alpha x h :
  fits_u32 N = true -> len h x = N ->
  post (scale_s N alpha x) h (fun r h' => r = x /\ did1 h h' x (fun a => alpha * a) x).
Proof.
  intros Hf Hx. unfold scale_s. repeat pstep.
  eapply post_mono; [apply scal_core_wrote; auto; lia|]. cbv beta; intros r h' [-> Hw].
  pstep. split; [reflexivity|]. eapply (wrote_mem1 (fun a => alpha * a)); eauto.
Qed.

(** *** Operators returning fresh objects.  The operands are live objects: their ids are
    below the allocation counter. *)

Definition fresh1 h h' r (f : T -> T) v : Prop :=
  r = next h /\ mem h' r = map f (mem h v) /\ unchanged_except [r] h h' /\ next h' = S (next h).
Definition fresh2 h h' r (f : T -> T -> T) v1 v2 : Prop :=
  r = next h /\ mem h' r = map2 f (mem h v1) (mem h v2) /\ unchanged_except [r] h h' /\ next h' = S (next h).

Lemma live_mem h b p : p < next h -> mem (halloc h b) p = mem h p.
Proof. intros. apply mem_halloc_other. lia. Qed.

Lemma live_len h b p : p < next h -> len (halloc h b) p = len h p.
Proof. intros. unfold len. now rewrite live_mem. Qed.

Lemma new_len h b : len (halloc h b) (next h) = length b.
Proof. unfold len. now rewrite mem_halloc_same. Qed.

Ltac szs := rewrite ?new_len, ?repeat_length; rewrite ?live_len by auto; first [assumption|reflexivity|congruence].

Lemma did1_fresh h h' b f v :
  v < next h -> did1 (halloc h b) h' (next h) f v -> fresh1 h h' (next h) f v.
Proof.
  intros Hv (Hm & Hu & Hn). repeat split.
  - rewrite Hm. now rewrite live_mem.
  - intros q Hq. rewrite Hu by exact Hq. apply mem_halloc_other. intros ->. apply Hq. left; auto.
  - rewrite Hn. reflexivity.
Qed.

Lemma did2_fresh h h' b f v1 v2 :
  v1 < next h -> v2 < next h ->
  did2 (halloc h b) h' (next h) f v1 v2 -> fresh2 h h' (next h) f v1 v2.
Proof.
  intros Hv1 Hv2 (Hm & Hu & Hn). repeat split.
  - rewrite Hm. now rewrite !live_mem.
  - intros q Hq. rewrite Hu by exact Hq. apply mem_halloc_other. intros ->. apply Hq. left; auto.
  - rewrite Hn. reflexivity.
Qed.

Lemma op_neg_d_ok v h :
  v < next h -> fits_u32 (len h v) = true ->
  post (op_neg_d v) h (fun r h' => fresh1 h h' r opp v).
Proof.
  intros Hv Hf. unfold op_neg_d. repeat pstep.
  eapply post_mono; [apply neg_d_ok; szs|].
  cbv beta; intros r h' [-> H]. pstep. eapply did1_fresh; eauto.
Qed.

Lemma op_neg_s_ok N v h :
  v < next h -> fits_u32 N = true -> len h v = N ->
  post (op_neg_s N v) h (fun r h' => fresh1 h h' r opp v).
Proof.
  intros Hv Hf Hl. unfold op_neg_s. repeat pstep.
  eapply post_mono; [apply neg_s_ok; szs|].
  cbv beta; intros r h' [-> H]. pstep. eapply did1_fresh; eauto.
Qed.

Lemma op_add_d_ok v1 v2 h :
  v1 < next h -> v2 < next h -> fits_u32 (len h v1) = true -> len h v1 = len h v2 ->
  post (op_add_d v1 v2) h (fun r h' => fresh2 h h' r add v1 v2).
Proof.
  intros Hv1 Hv2 Hf Hl. unfold op_add_d. repeat pstep.
  eapply post_mono; [apply add_d_ok; szs|].
  cbv beta; intros r h' [-> H]. pstep. eapply did2_fresh; eauto.
Qed.

Lemma op_sub_d_ok v1 v2 h :
  v1 < next h -> v2 < next h -> fits_u32 (len h v1) = true -> len h v1 = len h v2 ->
  post (op_sub_d v1 v2) h (fun r h' => fresh2 h h' r sub v1 v2).
Proof.
  intros Hv1 Hv2 Hf Hl. unfold op_sub_d. repeat pstep.
  eapply post_mono; [apply sub_d_ok; szs|].
  cbv beta; intros r h' [-> H]. pstep. eapply did2_fresh; eauto.
Qed.

Lemma op_add_s_ok N v1 v2 h :
  v1 < next h -> v2 < next h -> fits_u32 N = true -> len h v1 = N -> len h v2 = N ->
  post (op_add_s N v1 v2) h (fun r h' => fresh2 h h' r add v1 v2).
Proof.
  intros Hv1 Hv2 Hf Hl1 Hl2. unfold op_add_s. repeat pstep.
  eapply post_mono; [apply add_s_ok; szs|].
  cbv beta; intros r h' [-> H]. pstep. eapply did2_fresh; eauto.
Qed.

Lemma op_sub_s_ok N v1 v2 h :
  v1 < next h -> v2 < next h -> fits_u32 N = true -> len h v1 = N -> len h v2 = N ->
  post (op_sub_s N v1 v2) h (fun r h' => fresh2 h h' r sub v1 v2).
Proof.
  intros Hv1 Hv2 Hf Hl1 Hl2. unfold op_sub_s. repeat pstep.
  eapply post_mono; [apply sub_s_ok; szs|].
  cbv beta; intros r h' [-> H]. pstep. eapply did2_fresh; eauto.
Qed.

Lemma scal_copy_ok alpha x h n :
  x < next h -> fits_u32 n = true -> len h x = n ->
  post (scal_core alpha (next h) n) (halloc h (mem h x))
    (fun r h' => fresh1 h h' r (fun a => alpha * a) x).
Proof.
  intros Hx Hf Hl.
  eapply post_mono; [apply scal_core_wrote; auto; rewrite new_len; unfold len in Hl; lia|].
  cbv beta; intros r h' [-> Hw].
  apply (wrote_mem1 (fun a => alpha * a)) in Hw; try (rewrite new_len; exact Hl).
  destruct Hw as (Hm & Hu & Hn). repeat split.
  - rewrite Hm, mem_halloc_same. reflexivity.
  - intros q Hq. rewrite Hu by exact Hq. apply mem_halloc_other. intros ->. apply Hq; left; auto.
  - rewrite Hn; reflexivity.
Qed.

Lemma op_scale_d_ok alpha x h :
  x < next h -> fits_u32 (len h x) = true ->
  post (op_scale_d alpha x) h (fun r h' => fresh1 h h' r (fun a => alpha * a) x).
Proof.
  intros Hx Hf. unfold op_scale_d. repeat pstep. rewrite new_len.
  eapply post_mono; [apply scal_copy_ok; auto|]. cbv beta; intros r h' (-> & H). pstep.
  unfold fresh1; auto.
Qed.

Lemma op_scale_s_ok N alpha x h :
  x < next h -> fits_u32 N = true -> len h x = N ->
  post (op_scale_s N alpha x) h (fun r h' => fresh1 h h' r (fun a => alpha * a) x).
Proof.
  intros Hx Hf Hl. unfold op_scale_s. repeat pstep.
  eapply post_mono; [apply scal_copy_ok; auto|]. cbv beta; intros r h' (-> & H). pstep.
  unfold fresh1; auto.
Qed.

Lemma scaled_d_ok alpha x h :
  x < next h -> fits_u32 (len h x) = true ->
  post (scaled_d alpha x) h (fun r h' => fresh1 h h' r (fun a => alpha * a) x).
Proof. intros. unfold scaled_d. pstep. apply op_scale_d_ok; auto. Qed.

Lemma scaled_s_ok N alpha x h :
  x < next h -> fits_u32 N = true -> len h x = N ->
  post (scaled_s N alpha x) h (fun r h' => fresh1 h h' r (fun a => alpha * a) x).
Proof. intros. unfold scaled_s. pstep. apply op_scale_s_ok; auto. Qed.

Lemma op_div_d_ok alpha x h :
  x < next h -> fits_u32 (len h x) = true ->
  post (op_div_d x alpha) h (fun r h' => fresh1 h h' r (fun a => div one alpha * a) x).
Proof.
  intros Hx Hf. unfold op_div_d. repeat pstep. rewrite new_len.
  eapply post_mono; [apply scal_copy_ok; auto|]. cbv beta; intros r h' (-> & H). pstep.
  unfold fresh1; auto.
Qed.

Lemma op_div_s_ok N alpha x h :
  x < next h -> fits_u32 N = true -> len h x = N ->
  post (op_div_s N x alpha) h (fun r h' => fresh1 h h' r (fun a => div one alpha * a) x).
Proof.
  intros Hx Hf Hl. unfold op_div_s. repeat pstep.
  eapply post_mono; [apply scal_copy_ok; auto|]. cbv beta; intros r h' (-> & H). pstep.
  unfold fresh1; auto.
Qed.

(** *** dot / norm2, order-exact *)

(** The left fold the sequential loop performs. *)
Fixpoint lsum (f : nat -> T) (k : nat) : T :=
  match k with 0 => f 0 | S k' => lsum f k' + f (S k') end.

Lemma dot_core_ok v1 v2 n h :
  fits_u32 n = true -> 0 < n -> n <= len h v1 -> n <= len h v2 ->
  post (dot_core v1 v2 n) h
    (fun r h' => h' = h /\ r = lsum (fun i => rd h v1 i * rd h v2 i) (n - 1)).
Proof.
  intros Hf Hn H1 H2. unfold dot_core. repeat (pstep; try lia).
  eapply (post_for_u32 (fun k r h' => h' = h /\ r = lsum (fun i => rd h v1 i * rd h v2 i) (k - 1)));
    [exact Hf|lia| | |].
  - auto.
  - intros i r h1 Hi [-> ->]. repeat (pstep; try lia). split; [reflexivity|].
    replace (S i - 1)%nat with (S (i - 1)) by lia. cbn [lsum].
    replace (S (i - 1)) with i by lia. reflexivity.
  - auto.
Qed.

Lemma dot_core_empty v1 v2 n h : len h v1 = 0 -> dot_core v1 v2 n h = UB.
Proof.
  unfold dot_core, bind, load, len. intros H. destruct (mem h v1); cbn in *; [reflexivity|lia].
Qed.

Lemma norm2_core_ok v n h :
  fits_u32 n = true -> n <= len h v ->
  post (norm2_core v n) h
    (fun r h' => h' = h /\ r = sqrt_ (bsum n (fun i => rd h v i * rd h v i))).
Proof.
  intros Hf H1. unfold norm2_core. pstep.
  eapply (post_for_u32 (fun k r h' => h' = h /\ r = bsum k (fun i => rd h v i * rd h v i)));
    [exact Hf|lia| | |].
  - auto.
  - intros i r h1 Hi [-> ->]. repeat (pstep; try lia). split; reflexivity.
  - cbv beta; intros r h' [-> ->]. pstep. auto.
Qed.

(** *** Mismatches *)

Lemma check_size_throw n1 n2 h : n1 <> n2 -> check_size n1 n2 h = Throw (SizeMismatched n1 n2) h.
Proof. intros H. unfold check_size. apply Nat.eqb_neq in H. now rewrite H. Qed.

Lemma add_d_mismatch v1 v2 vr h :
  len h v1 <> len h v2 -> add_d v1 v2 vr h = Throw (SizeMismatched (len h v1) (len h v2)) h.
Proof.
  intros H. unfold add_d, bind, vsize. rewrite check_size_throw by exact H. reflexivity.
Qed.

Lemma sub_d_mismatch v1 v2 vr h :
  len h v1 <> len h v2 -> sub_d v1 v2 vr h = Throw (SizeMismatched (len h v1) (len h v2)) h.
Proof.
  intros H. unfold sub_d, bind, vsize. rewrite check_size_throw by exact H. reflexivity.
Qed.

Lemma add_sd_mismatch N v1 v2 vr h :
  N <> len h v2 -> add_sd N v1 v2 vr h = Throw (SizeMismatched N (len h v2)) h.
Proof. intros H. unfold add_sd, bind, vsize. rewrite check_size_throw by exact H. reflexivity. Qed.

Lemma add_ds_mismatch N v1 v2 vr h :
  len h v1 <> N -> add_ds N v1 v2 vr h = Throw (SizeMismatched (len h v1) N) h.
Proof. intros H. unfold add_ds, bind, vsize. rewrite check_size_throw by exact H. reflexivity. Qed.

Lemma sub_ds_mismatch N v1 v2 vr h :
  len h v1 <> N -> sub_ds N v1 v2 vr h = Throw (SizeMismatched (len h v1) N) h.
Proof. intros H. unfold sub_ds, bind, vsize. rewrite check_size_throw by exact H. reflexivity. Qed.

Lemma dot_member_d_mismatch v1 v2 h :
  len h v1 <> len h v2 -> dot_member_d v1 v2 h = Throw (SizeMismatched (len h v1) (len h v2)) h.
Proof.
  intros H. unfold dot_member_d, bind, vsize. rewrite check_size_throw by exact H. reflexivity.
Qed.

Lemma dot_member_ds_mismatch N v1 v2 h :
  len h v1 <> N -> dot_member_ds N v1 v2 h = Throw (SizeMismatched (len h v1) N) h.
Proof.
  intros H. unfold dot_member_ds, bind, vsize. rewrite check_size_throw by exact H. reflexivity.
Qed.

(** The operator allocates its result first; the objects alive before the call are untouched. *)
Lemma op_add_d_mismatch v1 v2 h :
  v1 < next h -> v2 < next h -> len h v1 <> len h v2 ->
  exists h', op_add_d v1 v2 h = Throw (SizeMismatched (len h v1) (len h v2)) h' /\
             forall q, q < next h -> mem h' q = mem h q.
Proof.
  intros H1 H2 H. exists (halloc h (mem h v1)). split.
  - change (op_add_d v1 v2 h) with
      (bind (add_d v1 v2 (next h)) (fun _ => ret (next h)) (halloc h (mem h v1))).
    unfold bind. rewrite add_d_mismatch by (rewrite !live_len; auto). now rewrite !live_len.
  - intros q Hq. apply live_mem; auto.
Qed.

Lemma op_sub_d_mismatch v1 v2 h :
  v1 < next h -> v2 < next h -> len h v1 <> len h v2 ->
  exists h', op_sub_d v1 v2 h = Throw (SizeMismatched (len h v1) (len h v2)) h' /\
             forall q, q < next h -> mem h' q = mem h q.
Proof.
  intros H1 H2 H. exists (halloc h (mem h v1)). split.
  - change (op_sub_d v1 v2 h) with
      (bind (sub_d v1 v2 (next h)) (fun _ => ret (next h)) (halloc h (mem h v1))).
    unfold bind. rewrite sub_d_mismatch by (rewrite !live_len; auto). now rewrite !live_len.
  - intros q Hq. apply live_mem; auto.
Qed.

Lemma neg_d_mismatch v vr h : len h v <> len h vr -> neg_d v vr h = Terminate.
Proof.
  intros H. unfold neg_d, noexcept, bind, vsize. rewrite check_size_throw by exact H. reflexivity.
Qed.
Lemma axpy_d_mismatch alpha v vr h : len h v <> len h vr -> axpy_d alpha v vr h = Terminate.
Proof.
  intros H. unfold axpy_d, noexcept, bind, vsize. rewrite check_size_throw by exact H. reflexivity.
Qed.
Lemma dot_d_mismatch v vr h : len h v <> len h vr -> dot_d v vr h = Terminate.
Proof.
  intros H. unfold dot_d, noexcept, bind, vsize. rewrite check_size_throw by exact H. reflexivity.
Qed.

(** *** Cross products *)

Lemma cross2_core_ok v1 v2 h :
  2 <= len h v1 -> 2 <= len h v2 ->
  post (cross2_core v1 v2) h
    (fun r h' => h' = h /\ r = rd h v1 0 * rd h v2 1 - rd h v2 0 * rd h v1 1).
Proof. intros. unfold cross2_core. repeat (pstep; try lia). auto. Qed.

Definition cr0 h v1 v2 := rd h v1 1 * rd h v2 2 - rd h v2 1 * rd h v1 2.
Definition cr1 h v1 v2 := rd h v1 2 * rd h v2 0 - rd h v2 2 * rd h v1 0.
Definition cr2 h v1 v2 := rd h v1 0 * rd h v2 1 - rd h v2 0 * rd h v1 1.

Lemma list3 (l : list T) : length l = 3 -> l = [nth 0 l zero; nth 1 l zero; nth 2 l zero].
Proof. destruct l as [|a [|b [|c [|]]]]; cbn; intros; try lia; reflexivity. Qed.

Lemma store3 vr r0 r1 r2 h :
  len h vr = 3 ->
  post (store vr 0 r0 ;; store vr 1 r1 ;; store vr 2 r2 ;; ret vr) h
    (fun r h' => r = vr /\ mem h' vr = [r0; r1; r2] /\ unchanged_except [vr] h h' /\ next h' = next h).
Proof.
  intros H. repeat (pstep; rewrite ?len_hset, ?H; try lia). repeat split.
  - rewrite !mem_hset_same. unfold len in H. rewrite (list3 _ H). reflexivity.
  - intros q Hq. rewrite !mem_hset_other; auto; intros ->; apply Hq; left; auto.
Qed.

Lemma cross3_core_ok v1 v2 vr h :
  3 <= len h v1 -> 3 <= len h v2 -> len h vr = 3 ->
  post (cross3_core v1 v2 vr) h
    (fun r h' => r = vr /\ mem h' vr = [cr0 h v1 v2; cr1 h v1 v2; cr2 h v1 v2] /\
                 unchanged_except [vr] h h' /\ next h' = next h).
Proof. intros. unfold cross3_core. do 6 (pstep; pstep; [lia|]). apply store3; auto. Qed.

Lemma cross3_acc_core_ok v1 v2 vr h :
  3 <= len h v1 -> 3 <= len h v2 -> len h vr = 3 ->
  post (cross3_acc_core v1 v2 vr) h
    (fun r h' => r = vr /\
       mem h' vr = [cr0 h v1 v2 + rd h vr 0; cr1 h v1 v2 + rd h vr 1; cr2 h v1 v2 + rd h vr 2] /\
       unchanged_except [vr] h h' /\ next h' = next h).
Proof. intros. unfold cross3_acc_core. do 9 (pstep; pstep; [lia|]). apply store3; auto. Qed.

Lemma post_assert_len dbg p k h (Q : unit -> heap T -> Prop) :
  len h p = k -> Q tt h -> post (assert_ dbg (Nat.eqb (len h p) k)) h Q.
Proof. intros ->. apply post_assert. apply Nat.eqb_refl. Qed.

Lemma cross2_ok dbg dx dy x y h :
  len h x = 2 -> len h y = 2 ->
  post (cross2 dbg dx dy x y) h
    (fun r h' => h' = h /\ r = rd h x 0 * rd h y 1 - rd h y 0 * rd h x 1).
Proof.
  intros Hx Hy. unfold cross2. repeat pstep. apply post_assert_len; auto. pstep.
  apply post_assert_len; auto. apply cross2_core_ok; lia.
Qed.

Lemma cross3_ok dbg dx dy dr x y vr h :
  len h x = 3 -> len h y = 3 -> len h vr = 3 ->
  post (cross3 dbg dx dy dr x y vr) h
    (fun r h' => r = vr /\ mem h' vr = [cr0 h x y; cr1 h x y; cr2 h x y] /\
                 unchanged_except [vr] h h' /\ next h' = next h).
Proof.
  intros Hx Hy Hr. unfold cross3. repeat pstep. apply post_assert_len; auto. pstep.
  apply post_assert_len; auto. pstep. apply post_assert_len; auto. pstep.
  eapply post_mono; [apply cross3_core_ok; lia|]. cbv beta; intros r h' (-> & H). pstep. auto.
Qed.

Lemma cross3_acc_ok dbg dx dy dr x y vr h :
  len h x = 3 -> len h y = 3 -> len h vr = 3 ->
  post (cross3_acc dbg dx dy dr x y vr) h
    (fun r h' => r = vr /\
       mem h' vr = [cr0 h x y + rd h vr 0; cr1 h x y + rd h vr 1; cr2 h x y + rd h vr 2] /\
       unchanged_except [vr] h h' /\ next h' = next h).
Proof.
  intros Hx Hy Hr. unfold cross3_acc. repeat pstep. apply post_assert_len; auto. pstep.
  apply post_assert_len; auto. pstep. apply post_assert_len; auto. pstep.
  eapply post_mono; [apply cross3_acc_core_ok; lia|]. cbv beta; intros r h' (-> & H). pstep. auto.
Qed.

Lemma cross3_new_ok dbg dx dy x y h :
  x < next h -> y < next h -> len h x = 3 -> len h y = 3 ->
  post (cross3_new dbg dx dy x y) h
    (fun r h' => r = next h /\ mem h' r = [cr0 h x y; cr1 h x y; cr2 h x y] /\
                 unchanged_except [r] h h' /\ next h' = S (next h)).
Proof.
  intros Hx Hy Lx Ly. unfold cross3_new. repeat pstep. apply post_assert_len; auto. pstep.
  apply post_assert_len; auto. repeat pstep.
  eapply post_mono; [apply cross3_core_ok; rewrite ?live_len by auto; rewrite ?new_len; unfold len in *; lia|].
  cbv beta; intros r h' (-> & Hm & Hu & Hn). pstep. repeat split; auto.
  - rewrite Hm. unfold cr0, cr1, cr2, rd. now rewrite !live_mem by auto.
  - intros q Hq. rewrite Hu by exact Hq. apply mem_halloc_other. intros ->. apply Hq; left; auto.
Qed.

End ProofVec.
