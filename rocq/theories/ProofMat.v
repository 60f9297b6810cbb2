(** * Proofs about the dense matrix operations (any scalar type unless said otherwise) *)
From Verif Require Import Base Scalar BaseLemmas Spec Sums ModelVec ModelMat SpecMat ProofVec.
Local Open Scope nat_scope.

Lemma idx_lt n m i j : i < n -> j < m -> i * m + j < n * m.
Proof. intros. nia. Qed.

Lemma idx_inj m i j i' j' : j < m -> j' < m -> i * m + j = i' * m + j' -> i = i' /\ j = j'.
Proof.
  intros H1 H2 E.
  assert (i = i') by (destruct (Nat.lt_total i i') as [H|[H|H]]; auto; nia). subst. split; lia.
Qed.

Lemma idx_div m i j : j < m -> (i * m + j) / m = i.
Proof. intros. rewrite Nat.div_add_l by lia. rewrite Nat.div_small by auto. lia. Qed.
Lemma idx_mod m i j : j < m -> (i * m + j) mod m = j.
Proof. intros. rewrite Nat.add_comm, Nat.mod_add by lia. apply Nat.mod_small; auto. Qed.

Section ProofMat.
Context {T : Type} {O : Ops T}.
Implicit Types (h : heap T) (p q d : ptr) (A B C : mat).

(** Only element [idx] of [d] changed, to [x]. *)
Definition upd1 h h' d idx (x : T) : Prop :=
  (forall q, q <> d -> mem h' q = mem h q) /\ next h' = next h /\ len h' d = len h d /\
  (forall i, rd h' d i = if Nat.eqb i idx then x else rd h d i).

Lemma upd1_hset h d idx x : idx < len h d -> upd1 h (hset h d idx x) d idx x.
Proof.
  intros H. repeat split.
  - intros q Hq. now apply mem_hset_other.
  - apply len_hset.
  - intros i. rewrite rd_hset by auto. now rewrite Nat.eqb_refl.
Qed.

Lemma upd1_trans h h1 h2 d idx x y : upd1 h h1 d idx x -> upd1 h1 h2 d idx y -> upd1 h h2 d idx y.
Proof.
  intros (F1 & N1 & L1 & V1) (F2 & N2 & L2 & V2). repeat split; try congruence.
  - intros q Hq. rewrite F2, F1; auto.
  - intros i. rewrite V2, V1. destruct (Nat.eqb i idx); auto.
Qed.

Lemma upd1_len h h' d idx x q : upd1 h h' d idx x -> len h' q = len h q.
Proof.
  intros (F & _ & L & _). destruct (Nat.eq_dec q d) as [->|H]; auto.
  unfold len. now rewrite F.
Qed.
Lemma upd1_other h h' d idx x q i : upd1 h h' d idx x -> q <> d -> rd h' q i = rd h q i.
Proof. intros (F & _) H. unfold rd. now rewrite F. Qed.
Lemma upd1_same h h' d idx x : upd1 h h' d idx x -> rd h' d idx = x.
Proof. intros (_ & _ & _ & V). rewrite V. now rewrite Nat.eqb_refl. Qed.

Lemma wrote0 h d g : wrote h h d 0 g.
Proof. repeat split; auto. Qed.
Lemma wrote_step h h1 h2 d k g :
  wrote h h1 d k g -> upd1 h1 h2 d k (g k) -> wrote h h2 d (S k) g.
Proof.
  intros (F1 & N1 & L1 & V1) (F2 & N2 & L2 & V2). repeat split; try congruence.
  - intros q Hq. rewrite F2, F1; auto.
  - intros i. rewrite V2, V1. destruct (Nat.eqb_spec i k) as [->|].
    + destruct (Nat.ltb_spec k (S k)); [auto|lia].
    + destruct (Nat.ltb_spec i k), (Nat.ltb_spec i (S k)); auto; lia.
Qed.
Lemma wrote_len h h' d k g q : wrote h h' d k g -> len h' q = len h q.
Proof.
  intros (F & _ & L & _). destruct (Nat.eq_dec q d) as [->|H]; auto.
  unfold len. now rewrite F.
Qed.
Lemma wrote_other h h' d k g q i : wrote h h' d k g -> q <> d -> rd h' q i = rd h q i.
Proof. intros (F & _) H. unfold rd. now rewrite F. Qed.
Lemma wrote_later h h' d k g q i : wrote h h' d k g -> k <= i -> rd h' q i = rd h q i.
Proof.
  intros (F & _ & _ & V) H. destruct (Nat.eq_dec q d) as [->|Hq].
  - rewrite V. destruct (Nat.ltb_spec i k); auto; lia.
  - unfold rd. now rewrite F.
Qed.

(** An accumulation loop into one element. *)
Lemma acc_loop d idx n (body : nat -> unit -> M (heap T) unit) g init h :
  fits_u32 n = true -> idx < len h d ->
  (forall k x h1, k < n -> upd1 h h1 d idx x ->
     post (body k tt) h1 (fun _ h2 => h2 = hset h1 d idx (add x (g k)))) ->
  post (store d idx init ;; for_u32 0 n body tt) h (fun _ h' => upd1 h h' d idx (fsum n init g)).
Proof.
  intros Hf Hi Hb. apply post_bind, post_store; auto.
  eapply (post_for_u32 (fun k _ h' => upd1 h h' d idx (fsum k init g))); [exact Hf|lia| | |].
  - cbn. now apply upd1_hset.
  - intros k [] h1 Hk H1. eapply post_mono; [apply (Hb k (fsum k init g) h1); [lia|exact H1]|].
    cbv beta. intros _ h2 ->. cbn [fsum]. eapply upd1_trans; [exact H1|].
    apply upd1_hset. now rewrite (upd1_len _ _ _ _ _ d H1).
  - auto.
Qed.

(** ** Matrix-vector product *)

Definition mv_val h m alpha a x beta s i : T :=
  fsum m (mul beta (rd h s i)) (fun k => mul (mul alpha (rd h a (i * m + k))) (rd h x k)).

Lemma mv_rows n m alpha a x beta s d h :
  fits_u32 n = true -> fits_u32 m = true ->
  n * m <= len h a -> m <= len h x -> n <= len h s -> n <= len h d -> a <> d -> x <> d ->
  post (for_u32 0 n (fun i _ =>
      v <- load s i ;; store d i (mul beta v) ;;
      for_u32 0 m (fun k _ =>
        t <- load d i ;; aik <- load a (i * m + k)%nat ;; xk <- load x k ;;
        store d i (add t (mul (mul alpha aik) xk))) tt) tt) h
    (fun _ h' => wrote h h' d n (mv_val h m alpha a x beta s)).
Proof.
  intros Hn Hm Ha Hx Hs Hd Nad Nxd.
  eapply (post_for_u32 (fun k _ h' => wrote h h' d k (mv_val h m alpha a x beta s)));
    [exact Hn|lia|apply wrote0| |auto].
  intros i [] h1 Hi H1.
  assert (Hl : forall q, len h1 q = len h q) by (intros q; apply (wrote_len _ _ _ _ _ q H1)).
  apply post_bind, post_load; [rewrite Hl; lia|].
  eapply post_mono.
  - apply (acc_loop d i m _ (fun k => mul (mul alpha (rd h a (i * m + k))) (rd h x k))); auto.
    + rewrite Hl; lia.
    + intros k x0 h2 Hk H2.
      assert (Hl2 : forall q, len h2 q = len h q)
        by (intros q; rewrite (upd1_len _ _ _ _ _ q H2); apply Hl).
      pose proof (idx_lt n m i k ltac:(lia) Hk).
      repeat (pstep; rewrite ?Hl2; try lia).
      rewrite (upd1_same _ _ _ _ _ H2), !(upd1_other _ _ _ _ _ _ _ H2), !(wrote_other _ _ _ _ _ _ _ H1) by auto.
      reflexivity.
  - cbv beta. intros _ h2 H2. rewrite (wrote_later _ _ _ _ _ s i H1) in H2 by lia.
    eapply wrote_step; [exact H1|exact H2].
Qed.

(** The whole kernel.  [y] is overwritten; in the aliased case a temporary is allocated. *)
Lemma mv_core_ok n m alpha a x beta y h :
  fits_u32 n = true -> fits_u32 m = true ->
  n * m <= len h a -> m <= len h x -> n <= len h y -> a <> y ->
  a < next h -> x < next h -> y < next h ->
  post (mv_core n m alpha a x beta y) h (fun r h' => r = y /\
    (forall q, q <> y -> q < next h -> mem h' q = mem h q) /\ next h <= next h' /\
    len h' y = len h y /\
    forall i, rd h' y i = if Nat.ltb i n then mv_val h m alpha a x beta y i else rd h y i).
Proof.
  intros Hn Hm Ha Hx Hy Nay La Lx Ly. unfold mv_core. destruct (Nat.eqb_spec x y) as [->|Nxy].
  - apply post_bind, post_alloc. set (h1 := halloc h (repeat zero n)). set (t := next h).
    assert (Hm1 : forall q, q < next h -> mem h1 q = mem h q).
    { intros q Hq. apply mem_halloc_other. lia. }
    assert (Ht : len h1 t = n).
    { unfold len, h1, t. rewrite mem_halloc_same. apply repeat_length. }
    assert (Hl1 : forall q, q < next h -> len h1 q = len h q) by (intros; unfold len; rewrite Hm1; auto).
    assert (Hr1 : forall q i, q < next h -> rd h1 q i = rd h q i) by (intros; unfold rd; rewrite Hm1; auto).
    apply post_bind. eapply post_mono.
    { apply (mv_rows n m alpha a y beta y t h1); rewrite ?Hl1 by auto; auto; try lia; subst t; lia. }
    cbv beta. intros _ h2 H2. pose proof H2 as (F2 & N2 & L2 & V2).
    assert (Hy2 : mem h2 y = mem h y) by (rewrite F2 by (subst t; lia); auto).
    apply post_bind. apply post_copy_n.
    + subst t; lia.
    + rewrite L2, Ht. lia.
    + unfold len. rewrite Hy2. exact Hy.
    + intros h3 F3 L3 N3 V3. apply post_ret. repeat split.
      * intros q Hq Hlt. rewrite F3, F2, Hm1 by (auto; subst t; lia). reflexivity.
      * rewrite N3, N2. unfold h1, halloc; cbn [next]. lia.
      * rewrite L3. unfold len. now rewrite Hy2.
      * intros i. rewrite V3. destruct (Nat.ltb_spec i n) as [Hi|Hi].
        -- rewrite V2. destruct (Nat.ltb_spec i n); [|lia]. unfold mv_val. rewrite Hr1 by auto.
           apply fsum_ext. intros k _. now rewrite !Hr1.
        -- unfold rd. now rewrite Hy2.
  - apply post_bind. eapply post_mono.
    { apply (mv_rows n m alpha a x beta y y h); auto. }
    cbv beta. intros _ h2 (F2 & N2 & L2 & V2). apply post_ret. repeat split; auto; lia.
Qed.

(** ** Matrix-matrix product *)

Definition mm_val (sc : T -> T) h m o alpha a b s p : T :=
  fsum o (sc (rd h s p))
    (fun k => mul (mul alpha (rd h a ((p / m) * o + k))) (rd h b (k * m + p mod m))).

Lemma mm_cells n m o alpha a b (sc : T -> T) s d h :
  fits_u32 n = true -> fits_u32 m = true -> fits_u32 o = true ->
  n * o <= len h a -> o * m <= len h b -> n * m <= len h s -> n * m <= len h d -> a <> d -> b <> d ->
  post (for_u32 0 n (fun i _ =>
      for_u32 0 m (fun j _ =>
        v <- load s (i * m + j)%nat ;; store d (i * m + j)%nat (sc v) ;;
        for_u32 0 o (fun k _ =>
          t <- load d (i * m + j)%nat ;;
          x <- load a (i * o + k)%nat ;; y <- load b (k * m + j)%nat ;;
          store d (i * m + j)%nat (add t (mul (mul alpha x) y))) tt) tt) tt) h
    (fun _ h' => wrote h h' d (n * m) (mm_val sc h m o alpha a b s)).
Proof.
  intros Hn Hm Ho Ha Hb Hs Hd Nad Nbd. set (G := mm_val sc h m o alpha a b s).
  eapply (post_for_u32 (fun i _ h' => wrote h h' d (i * m) G));
    [exact Hn|lia|apply wrote0| |auto].
  intros i [] h0 Hi H0.
  eapply (post_for_u32 (fun j _ h' => wrote h h' d (i * m + j) G)); [exact Hm|lia| | |].
  - now rewrite Nat.add_0_r.
  - intros j [] h1 Hj H1.
    assert (Hl : forall q, len h1 q = len h q) by (intros q; apply (wrote_len _ _ _ _ _ q H1)).
    pose proof (idx_lt n m i j ltac:(lia) ltac:(lia)) as Hij.
    apply post_bind, post_load; [rewrite Hl; lia|].
    eapply post_mono.
    + apply (acc_loop d (i * m + j) o _
        (fun k => mul (mul alpha (rd h a (i * o + k))) (rd h b (k * m + j)))); auto.
      * rewrite Hl; lia.
      * intros k x0 h2 Hk H2.
        assert (Hl2 : forall q, len h2 q = len h q)
          by (intros q; rewrite (upd1_len _ _ _ _ _ q H2); apply Hl).
        pose proof (idx_lt n o i k ltac:(lia) Hk).
        pose proof (idx_lt o m k j Hk ltac:(lia)).
        repeat (pstep; rewrite ?Hl2; try lia).
        rewrite (upd1_same _ _ _ _ _ H2), !(upd1_other _ _ _ _ _ _ _ H2), !(wrote_other _ _ _ _ _ _ _ H1) by auto.
        reflexivity.
    + cbv beta. intros _ h2 H2. rewrite (wrote_later _ _ _ _ _ s _ H1) in H2 by lia.
      rewrite Nat.add_succ_r. eapply wrote_step; [exact H1|].
      unfold G, mm_val. rewrite idx_div, idx_mod by lia. exact H2.
  - intros [] h' H'. replace (S i * m) with (i * m + m) by lia. exact H'.
Qed.

Lemma mm_core_ok n m o alpha a b beta c h :
  fits_u32 n = true -> fits_u32 m = true -> fits_u32 o = true ->
  n * o <= len h a -> o * m <= len h b -> n * m <= len h c ->
  a < next h -> b < next h -> c < next h ->
  post (mm_core n m o alpha a b beta c) h (fun r h' => r = c /\
    (forall q, q <> c -> q < next h -> mem h' q = mem h q) /\ next h <= next h' /\
    len h' c = len h c /\
    (forall i, n * m <= i -> rd h' c i = rd h c i) /\
    forall i j, i < n -> j < m -> rd h' c (i * m + j) =
      fsum o (if Nat.eqb a c || Nat.eqb b c then mul beta (rd h c (i * m + j)) else mul (rd h c (i * m + j)) beta)
        (fun k => mul (mul alpha (rd h a (i * o + k))) (rd h b (k * m + j)))).
Proof.
  intros Hn Hm Ho Ha Hb Hc La Lb Lc. unfold mm_core.
  destruct (Nat.eqb a c || Nat.eqb b c) eqn:Eal.
  - apply post_bind, post_alloc. set (h1 := halloc h (repeat zero (n * m))). set (t := next h).
    assert (Hm1 : forall q, q < next h -> mem h1 q = mem h q).
    { intros q Hq. apply mem_halloc_other. lia. }
    assert (Ht : len h1 t = n * m).
    { unfold len, h1, t. rewrite mem_halloc_same. apply repeat_length. }
    assert (Hl1 : forall q, q < next h -> len h1 q = len h q) by (intros; unfold len; rewrite Hm1; auto).
    assert (Hr1 : forall q i, q < next h -> rd h1 q i = rd h q i) by (intros; unfold rd; rewrite Hm1; auto).
    apply post_bind. eapply post_mono.
    { apply (mm_cells n m o alpha a b (fun v => mul beta v) c t h1);
        rewrite ?Hl1 by auto; auto; try lia; subst t; lia. }
    cbv beta. intros _ h2 H2. pose proof H2 as (F2 & N2 & L2 & V2).
    assert (Hy2 : mem h2 c = mem h c) by (rewrite F2 by (subst t; lia); auto).
    apply post_bind. apply post_copy_n.
    + subst t; lia.
    + rewrite L2, Ht. lia.
    + unfold len. rewrite Hy2. exact Hc.
    + intros h3 F3 L3 N3 V3. apply post_ret. repeat split.
      * intros q Hq Hlt. rewrite F3, F2, Hm1 by (auto; subst t; lia). reflexivity.
      * rewrite N3, N2. unfold h1, halloc; cbn [next]. lia.
      * rewrite L3. unfold len. now rewrite Hy2.
      * intros i Hi. rewrite V3. destruct (Nat.ltb_spec i (n * m)); [lia|]. unfold rd. now rewrite Hy2.
      * intros i j Hi Hj. pose proof (idx_lt n m i j Hi Hj) as Hij. rewrite V3, V2.
        destruct (Nat.ltb_spec (i * m + j) (n * m)); [|lia].
        unfold mm_val. rewrite idx_div, idx_mod by auto. rewrite Hr1 by auto.
        apply fsum_ext. intros k _. now rewrite !Hr1.
  - apply orb_false_iff in Eal. destruct Eal as [E1%Nat.eqb_neq E2%Nat.eqb_neq].
    apply post_bind. eapply post_mono.
    { apply (mm_cells n m o alpha a b (fun v => mul v beta) c c h); auto. }
    cbv beta. intros _ h2 (F2 & N2 & L2 & V2). apply post_ret. repeat split; auto; try lia.
    + intros i Hi. rewrite V2. destruct (Nat.ltb_spec i (n * m)); [lia|auto].
    + intros i j Hi Hj. pose proof (idx_lt n m i j Hi Hj) as Hij. rewrite V2.
      destruct (Nat.ltb_spec (i * m + j) (n * m)); [|lia].
      unfold mm_val. now rewrite idx_div, idx_mod by auto.
Qed.

End ProofMat.
