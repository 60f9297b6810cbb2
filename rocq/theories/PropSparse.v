(** * Properties C27-C34: sparse matrices *)
From Coq Require Import Permutation Ring.
From Verif Require Import Base Scalar BaseLemmas Spec Sums ModelVec ProofVec ModelMat SpecMat ProofMat
  ModelSparse SpecSparse ProofPacked ProofSparse ProofSparseAdd ProofSparseCsr.
Local Open Scope nat_scope.

Section Sparse.
Context (T : Type) (Op : Ops T).
Implicit Types (A B C : coo T) (es : triples T).

Lemma coo_get_val {S} A i j (s : S) : length (crow A) = length (cval A) -> length (ccol A) = length (cval A) ->
  fits_u32 (length (cval A)) = true ->
  coo_get A i j s = Ok (match find (at_pos A i j) (seq 0 (length (cval A))) with Some k => nth k (cval A) zero | None => zero end) s.
Proof.
  intros W1 W2 Hf. unfold coo_get, bind. rewrite coo_find_ok by auto. destruct (find _ _) as [k|] eqn:E; [|reflexivity].
  pose proof (find_seq_some _ _ _ _ E) as (H & _). apply vec_at_d. lia.
Qed.

(** ** C27: construction of COO matrices *)

Theorem C27_throws : forall St srt (val : list T) rows cols (s : St),
  coo_of srt val rows cols s = Throw RuntimeError s <->
  ~ (length rows = length val /\ length cols = length val).
Proof.
  intros St srt val rows cols s. unfold coo_of.
  destruct (Nat.eqb_spec (length val) (length rows)), (Nat.eqb_spec (length val) (length cols)); cbn [negb orb];
    split; intros H; try reflexivity; try (intros [H1 H2]; congruence).
  - exfalso. unfold coo_sort in H. cbn [cval crow ccol] in H. destruct (fits_u32 _); [|discriminate].
    assert (G : forall X (l : list X) ids (s : St) ex s', gather l ids s <> Throw ex s').
    { intros X l ids. induction ids as [|k ids IH]; intros s1 ex s'; cbn; [discriminate|]. unfold bind, vec_at.
      destruct (nth_error l k); cbn; [|discriminate]. specialize (IH s1 ex s'). destruct (gather l ids s1); try discriminate. auto. }
    unfold bind in H. destruct (gather val _ s) eqn:E1; try discriminate; [|eapply G; eauto].
    destruct (gather rows _ s0) eqn:E2; try discriminate; [|eapply G; eauto].
    destruct (gather cols _ s1) eqn:E3; try discriminate. eapply G; eauto.
  - exfalso. apply H. split; congruence.
Qed.

Theorem C27_construct : forall St srt (val : list T) rows cols (s : St),
  sort_contract srt -> length rows = length val -> length cols = length val -> fits_u32 (length val) = true ->
  exists A, coo_of srt val rows cols s = Ok A s /\ coo_wf A /\ Permutation (coo_entries A) (zip3 rows cols val).
Proof.
  intros St srt val rows cols s HS Hr Hc Hf. unfold coo_of. rewrite Hr, Hc, Nat.eqb_refl. cbn [negb orb].
  destruct (coo_sort_ok srt (mkCoo val rows cols) s HS Hr Hc Hf) as (A & E & W & P). exists A. auto.
Qed.

(** 2^32 entries or more: the counter of the constructor is 32 bits wide, it never returns.  A
    matrix of that size (which the constructors cannot make) would be searched among its first 2^32
    entries, over and over again if the position is not there. *)
Theorem C27_too_many : forall St srt (val : list T) rows cols (s : St),
  length rows = length val -> length cols = length val -> (2 ^ 32 <= Z.of_nat (length val))%Z ->
  coo_of srt val rows cols s = Diverge.
Proof.
  intros St srt val rows cols s Hr Hc Hn. unfold coo_of. rewrite Hr, Hc, Nat.eqb_refl. cbn [negb orb]. unfold coo_sort. cbn [cval crow ccol].
  assert (E : fits_u32 (length val) = false) by (unfold fits_u32; apply Z.ltb_ge; exact Hn). now rewrite E.
Qed.
Theorem C27_read_too_many : forall St A i j (s : St),
  length (crow A) = length (cval A) -> length (ccol A) = length (cval A) -> (2 ^ 32 <= Z.of_nat (length (cval A)))%Z ->
  (exists k x, (Z.of_nat k < 2 ^ 32)%Z /\ nth_error (crow A) k = Some i /\ nth_error (ccol A) k = Some j /\
    nth_error (cval A) k = Some x /\ coo_get A i j s = Ok x s) \/
  ((forall k, (Z.of_nat k < 2 ^ 32)%Z -> ~ (nth_error (crow A) k = Some i /\ nth_error (ccol A) k = Some j)) /\
    coo_get A i j s = Diverge).
Proof.
  intros St A i j s Hr Hc Hn. assert (E : fits_u32 (length (cval A)) = false) by (unfold fits_u32; apply Z.ltb_ge; exact Hn).
  assert (Hk : forall k, (Z.of_nat k < 2 ^ 32)%Z -> k < length (cval A)) by (intros; lia).
  assert (NE : forall X (l : list X) k d, k < length l -> nth_error l k = Some (nth k l d)) by (intros; now apply nth_error_nth').
  unfold coo_get. unfold bind. rewrite coo_find_many by auto. destruct (find _ _) as [k|] eqn:F.
  - left. apply find_seq_some in F. destruct F as (F1 & F2 & _). assert (K : (Z.of_nat k < 2 ^ 32)%Z) by lia. specialize (Hk k K).
    apply at_pos_true in F2. destruct F2 as [F2 F3]. exists k, (nth k (cval A) zero). split; [exact K|]. split; [|split; [|split]].
    + rewrite (NE _ _ _ 0) by lia. now rewrite F2.
    + rewrite (NE _ _ _ 0) by lia. now rewrite F3.
    + apply NE. exact Hk.
    + apply vec_at_d. exact Hk.
  - right. split; [|reflexivity]. intros k K [K1 K2]. pose proof (find_seq_none _ _ _ F k ltac:(lia)) as G. apply at_pos_false in G. apply G.
    split; apply nth_error_nth; assumption.
Qed.
(** Reading: the given value where the position occurs once, zero where it does not occur, one of
    the given values where it occurs several times. *)
Theorem C27_read : forall St srt (val : list T) rows cols A (s : St) i j,
  sort_contract srt -> length rows = length val -> length cols = length val -> fits_u32 (length val) = true ->
  coo_of srt val rows cols s = Ok A s ->
  exists x, (forall S' (s' : S'), coo_get A i j s' = Ok x s') /\ reads (zip3 rows cols val) i j x /\
    (forall v, In ((i, j), v) (zip3 rows cols val) ->
       length (filter (fun e => Nat.eqb (fst (fst e)) i && Nat.eqb (snd (fst e)) j) (zip3 rows cols val)) = 1 -> x = v) /\
    ((forall v, ~ In ((i, j), v) (zip3 rows cols val)) -> x = zero).
Proof.
  intros St srt val rows cols A s i j HS Hr Hc Hf E.
  destruct (C27_construct St srt val rows cols s HS Hr Hc Hf) as (A' & E' & (W1 & W2 & _) & P).
  assert (A' = A) as -> by congruence.
  assert (Hlen : length (cval A) = length val).
  { apply Permutation_length in P. unfold coo_entries in P. rewrite !zip3_length in P; auto. }
  destruct (coo_get_ok A i j s W1 W2 ltac:(now rewrite Hlen)) as (x & Ex & Rx).
  apply (reads_perm _ _ _ _ _ P) in Rx. exists x. split.
  { intros S' s'. rewrite coo_get_val in Ex by (auto; now rewrite Hlen). injection Ex as <-. apply coo_get_val; auto. now rewrite Hlen. }
  split; auto. split.
  - intros v Hv Hone. destruct Rx as [Hx|[Hx _]]; [|exfalso; eapply Hx; eauto].
    set (p := fun e : nat * nat * T => Nat.eqb (fst (fst e)) i && Nat.eqb (snd (fst e)) j) in *.
    assert (In ((i, j), x) (filter p (zip3 rows cols val))) as F1 by (apply filter_In; split; auto; unfold p; cbn; now rewrite !Nat.eqb_refl).
    assert (In ((i, j), v) (filter p (zip3 rows cols val))) as F2 by (apply filter_In; split; auto; unfold p; cbn; now rewrite !Nat.eqb_refl).
    destruct (filter p _) as [|e [|e' l]]; cbn in Hone; try discriminate.
    destruct F1 as [->|[]], F2 as [F2|[]]. congruence.
  - intros Hn. destruct Rx as [Hx|[_ ->]]; auto. exfalso. eapply Hn; eauto.
Qed.

(** ** C28: element writes *)

Theorem C28_coo_stored : forall A i j v x, coo_wf A -> fits_u32 (length (cval A)) = true ->
  In ((i, j), v) (coo_entries A) ->
  exists A', coo_set i j x A = Ok tt A' /\ coo_wf A' /\ crow A' = crow A /\ ccol A' = ccol A /\
    (forall St (s : St), coo_get A' i j s = Ok x s) /\
    (forall St (s : St) i' j', (i', j') <> (i, j) -> coo_get A' i' j' s = coo_get A i' j' s) /\
    (exists y, coo_get_mut i j A = Ok y A /\ forall St (s : St), coo_get A i j s = Ok y s).
Proof.
  intros A i j v x (W1 & W2 & W3) Hf Hin. unfold coo_set, coo_get_mut. unfold bind at 1. rewrite coo_find_ok by auto.
  apply zip3_In in Hin; auto. destruct Hin as (k & Hk & E1 & E2 & _).
  destruct (find _ _) as [k0|] eqn:E.
  2:{ pose proof (find_seq_none _ _ _ E k ltac:(lia)) as F. apply at_pos_false in F. tauto. }
  pose proof (find_seq_some _ _ _ _ E) as (H1 & H2 & H3).
  unfold bind at 1. rewrite vec_set_d by lia. eexists. split; [reflexivity|].
  assert (L : length (set_nth k0 x (cval A)) = length (cval A)) by apply set_nth_length.
  assert (Fs : forall i' j', find (at_pos (mkCoo (set_nth k0 x (cval A)) (crow A) (ccol A)) i' j') (seq 0 (length (cval A))) =
               find (at_pos A i' j') (seq 0 (length (cval A)))) by reflexivity.
  split.
  { unfold coo_wf, coo_entries in *. cbn [crow ccol cval]. rewrite L. split; auto. split; auto.
    rewrite zip3_map_fst in * by (rewrite ?L; auto). exact W3. }
  split; [reflexivity|]. split; [reflexivity|]. split; [|split].
  - intros St s. unfold coo_get, bind. rewrite coo_find_ok by (cbn [crow ccol cval]; rewrite ?L; auto).
    cbn [cval]. rewrite L, Fs, E. rewrite (vec_at_d _ zero) by (rewrite L; lia).
    now rewrite nth_set_nth, Nat.eqb_refl by lia.
  - intros St s i' j' Hne. unfold coo_get, bind. rewrite !coo_find_ok by (cbn [crow ccol cval]; rewrite ?L; auto).
    cbn [cval]. rewrite L, Fs. destruct (find (at_pos A i' j') _) as [k1|] eqn:E'; [|reflexivity].
    pose proof (find_seq_some _ _ _ _ E') as (G1 & G2 & _).
    rewrite !(vec_at_d _ zero) by (rewrite ?L; lia). rewrite nth_set_nth_other; auto.
    intros ->. apply at_pos_true in G2, H2. apply Hne. destruct G2 as [<- <-], H2 as [<- <-]. reflexivity.
  - exists (nth k0 (cval A) zero). split.
    + unfold bind. rewrite coo_find_ok, E by auto. apply vec_at_d. lia.
    + intros St s. unfold coo_get, bind. rewrite coo_find_ok, E by auto. apply vec_at_d. lia.
Qed.

Theorem C28_coo_not_stored : forall A i j x, coo_wf A -> fits_u32 (length (cval A)) = true ->
  (forall v, ~ In ((i, j), v) (coo_entries A)) ->
  coo_set i j x A = Throw OutOfRange A /\ coo_get_mut i j A = Throw OutOfRange A.
Proof.
  intros A i j x (W1 & W2 & W3) Hf Hn. unfold coo_set, coo_get_mut, bind. rewrite coo_find_ok by auto.
  destruct (find _ _) as [k0|] eqn:E; [|split; reflexivity].
  pose proof (find_seq_some _ _ _ _ E) as (H1 & H2 & _). apply at_pos_true in H2.
  exfalso. apply (Hn (nth k0 (cval A) zero)). apply zip3_In; auto. exists k0. split; [lia|tauto].
Qed.

Theorem C28_csr_stored : forall (A : csr T) n i j v x, csr_wf A n -> i < n ->
  In ((i, j), v) (csr_entries A n) ->
  exists A' : csr T, csr_set i j x A = Ok tt A' /\ csr_wf A' n /\ sptr A' = sptr A /\ scol A' = scol A /\
    (forall St (s : St), csr_get A' i j s = Ok x s) /\
    (forall St (s : St) i' j', i' < n -> (i', j') <> (i, j) -> csr_get A' i' j' s = csr_get A i' j' s) /\
    (exists y, csr_get_mut i j A = Ok y A /\ forall St (s : St), csr_get A i j s = Ok y s).
Proof.
  intros A n i j v x W Hi Hin. pose proof W as (W1 & W2 & W3 & W4 & W5).
  apply csr_entries_In in Hin; auto. apply csr_row_In in Hin as (_ & k & Hk & Ec & _).
  unfold csr_set, csr_get_mut. unfold bind at 1. rewrite (csr_find_ok A n) by auto.
  pose proof (ptr_le A n (i + 1) W ltac:(lia)) as Hle.
  destruct (find _ _) as [k0|] eqn:E.
  2:{ pose proof (find_seq_none _ _ _ E k ltac:(lia)) as F. cbv beta in F. apply Nat.eqb_neq in F. tauto. }
  pose proof (find_seq_some _ _ _ _ E) as (H1 & H2 & H3). apply Nat.eqb_eq in H2.
  unfold bind at 1. rewrite vec_set_d by lia. eexists. split; [reflexivity|].
  assert (L : length (set_nth k0 x (sval A)) = length (sval A)) by apply set_nth_length.
  assert (W' : csr_wf (mkCsr (set_nth k0 x (sval A)) (sptr A) (scol A)) n).
  { unfold csr_wf. cbn [sval sptr scol]. rewrite L. auto. }
  split; [exact W'|]. split; [reflexivity|]. split; [reflexivity|]. split; [|split].
  - intros St s. unfold csr_get, bind. rewrite (csr_find_ok _ n) by auto. cbn [sval sptr scol]. rewrite E.
    rewrite (vec_at_d _ zero) by (rewrite L; lia). now rewrite nth_set_nth, Nat.eqb_refl by lia.
  - intros St s i' j' Hi' Hne. unfold csr_get, bind. rewrite !(csr_find_ok _ n) by auto. cbn [sval sptr scol].
    destruct (find _ (seq (nth i' (sptr A) 0) _)) as [k1|] eqn:E'; [|reflexivity].
    pose proof (find_seq_some _ _ _ _ E') as (G1 & G2 & _). apply Nat.eqb_eq in G2.
    pose proof (ptr_le A n (i' + 1) W ltac:(lia)) as Hle'.
    rewrite !(vec_at_d _ zero) by (rewrite ?L; lia). rewrite nth_set_nth_other; auto. intros ->. apply Hne.
    destruct (Nat.lt_trichotomy i i') as [Lt|[->|Lt]].
    + exfalso. assert (nth (i + 1) (sptr A) 0 <= nth i' (sptr A) 0); [|lia].
      assert (forall d, i + 1 + d <= n -> nth (i + 1) (sptr A) 0 <= nth (i + 1 + d) (sptr A) 0) as G.
      { induction d as [|d IH]; intros Hd; [now rewrite Nat.add_0_r|]. transitivity (nth (i + 1 + d) (sptr A) 0); [apply IH; lia|].
        specialize (W5 (i + 1 + d) ltac:(lia)). now replace (i + 1 + S d) with (i + 1 + d + 1) by lia. }
      specialize (G (i' - (i + 1)) ltac:(lia)). now replace (i + 1 + (i' - (i + 1))) with i' in G by lia.
    + congruence.
    + exfalso. assert (nth (i' + 1) (sptr A) 0 <= nth i (sptr A) 0); [|lia].
      assert (forall d, i' + 1 + d <= n -> nth (i' + 1) (sptr A) 0 <= nth (i' + 1 + d) (sptr A) 0) as G.
      { induction d as [|d IH]; intros Hd; [now rewrite Nat.add_0_r|]. transitivity (nth (i' + 1 + d) (sptr A) 0); [apply IH; lia|].
        specialize (W5 (i' + 1 + d) ltac:(lia)). now replace (i' + 1 + S d) with (i' + 1 + d + 1) by lia. }
      specialize (G (i - (i' + 1)) ltac:(lia)). now replace (i' + 1 + (i - (i' + 1))) with i in G by lia.
  - exists (nth k0 (sval A) zero). split.
    + unfold bind. rewrite (csr_find_ok A n), E by auto. apply vec_at_d. lia.
    + intros St s. unfold csr_get, bind. rewrite (csr_find_ok A n), E by auto. apply vec_at_d. lia.
Qed.

Theorem C28_csr_not_stored : forall (A : csr T) n i j x, csr_wf A n -> i < n ->
  (forall v, ~ In ((i, j), v) (csr_entries A n)) ->
  csr_set i j x A = Throw OutOfRange A /\ csr_get_mut i j A = Throw OutOfRange A.
Proof.
  intros A n i j x W Hi Hn. pose proof W as (W1 & _). pose proof (ptr_le A n (i + 1) W ltac:(lia)) as Hle.
  unfold csr_set, csr_get_mut, bind. rewrite (csr_find_ok A n) by auto.
  destruct (find _ _) as [k0|] eqn:E; [|split; reflexivity].
  pose proof (find_seq_some _ _ _ _ E) as (H1 & H2 & _). apply Nat.eqb_eq in H2.
  exfalso. apply (Hn (nth k0 (sval A) zero)). apply csr_entries_In; auto. apply csr_row_In. split; auto.
  exists k0. split; [lia|auto].
Qed.

(** ** C29: COO to CSR *)

Theorem C29_convert : forall St A (s : St), coo_wf A -> 0 < length (cval A) -> fits_u32 (length (cval A)) = true ->
  exists (C : csr T) n, csr_of_coo A s = Ok C s /\ csr_wf C n /\ sval C = cval A /\ scol C = ccol A /\
    csr_entries C n = coo_entries A /\
    (forall i j v, In ((i, j), v) (coo_entries A) -> i < n) /\
    (forall i j S' (s' : S'), i < n -> csr_get C i j s' = coo_get A i j s').
Proof.
  intros St A s W Hpos Hf. destruct (csr_of_coo_ok A s W Hpos) as (C & n & E & WC & Ees & Ev & Ec & _).
  exists C, n. split; auto. split; auto. split; auto. split; auto. split; auto. split.
  { intros i j v Hin. rewrite <- Ees in Hin. eapply csr_entries_row; eauto. }
  intros i j S' s' Hi. pose proof W as (W1 & W2 & W3). pose proof WC as (C1 & C2 & C3 & C4 & C5).
  unfold csr_get, coo_get, bind. rewrite (csr_find_ok C n) by auto. rewrite coo_find_ok by auto.
  (* both searches stop at the same stored index *)
  assert (Hrow : forall k, k < length (cval A) -> (nth k (crow A) 0 = i <-> nth i (sptr C) 0 <= k < nth (i + 1) (sptr C) 0)).
  { intros k Hk.
    assert (Hseg : exists i0, i0 < n /\ nth i0 (sptr C) 0 <= k < nth (i0 + 1) (sptr C) 0 /\ nth k (crow A) 0 = i0).
    { assert (Ek : nth k (csr_entries C n) ((0, 0), zero) = ((nth k (crow A) 0, nth k (ccol A) 0), nth k (cval A) zero)).
      { rewrite Ees. apply zip3_nth; auto. }
      (* find the row whose segment contains k *)
      assert (G : forall m, m <= n -> k < nth m (sptr C) 0 -> exists i0, i0 < m /\ nth i0 (sptr C) 0 <= k < nth (i0 + 1) (sptr C) 0).
      { induction m as [|m IH]; intros Hm Hkm; [lia|]. destruct (Nat.lt_ge_cases k (nth m (sptr C) 0)) as [L|L].
        - destruct (IH ltac:(lia) L) as (i0 & H1 & H2). exists i0. split; [lia|auto].
        - exists m. replace (m + 1) with (S m) by lia. auto. }
      destruct (G n ltac:(lia)) as (i0 & H1 & H2); [rewrite C4, Ev; auto|]. exists i0. split; auto. split; auto.
      (* entry k of the concatenation is in row i0 *)
      assert (P : forall m, m <= n -> forall q, q < nth m (sptr C) 0 ->
        nth q (flat_map (csr_row C) (seq 0 m)) ((0, 0), zero) = nth q (csr_entries C n) ((0, 0), zero)).
      { intros m Hm q Hq. unfold csr_entries. replace n with (m + (n - m)) by lia. rewrite seq_app, flat_map_app.
        rewrite app_nth1; auto.
        assert (Lm : forall m, m <= n -> length (flat_map (csr_row C) (seq 0 m)) = nth m (sptr C) 0).
        { clear -C3 C5. induction m as [|m IH]; intros Hm; [cbn; auto|].
          rewrite seq_S, flat_map_app, app_length, IH by lia. cbn [flat_map Nat.add]. rewrite app_nil_r.
          unfold csr_row. rewrite map_length, seq_length. specialize (C5 m ltac:(lia)). replace (m + 1) with (S m) in * by lia. lia. }
        now rewrite Lm. }
      assert (Lm : forall m, m <= n -> length (flat_map (csr_row C) (seq 0 m)) = nth m (sptr C) 0).
      { clear -C3 C5. induction m as [|m IH]; intros Hm; [cbn; auto|].
        rewrite seq_S, flat_map_app, app_length, IH by lia. cbn [flat_map Nat.add]. rewrite app_nil_r.
        unfold csr_row. rewrite map_length, seq_length. specialize (C5 m ltac:(lia)). replace (m + 1) with (S m) in * by lia. lia. }
      rewrite <- (P (i0 + 1) ltac:(lia) k ltac:(lia)) in Ek. replace (i0 + 1) with (S i0) in Ek by lia.
      rewrite seq_S, flat_map_app, app_nth2 in Ek by (rewrite Lm; lia). cbn [flat_map Nat.add] in Ek.
      rewrite app_nil_r, Lm in Ek by lia. unfold csr_row in Ek.
      rewrite (nth_indep _ _ (let k := 0 in ((i0, nth k (scol C) 0), nth k (sval C) zero))) in Ek
        by (rewrite map_length, seq_length; lia).
      rewrite (map_nth (fun k => ((i0, nth k (scol C) 0), nth k (sval C) zero))) in Ek. now inversion Ek. }
    destruct Hseg as (i0 & Hi0 & Hs & Er). rewrite Er. split; [intros <-; auto|]. intros Hs'.
    assert (Mono : forall d a, a + d <= n -> nth a (sptr C) 0 <= nth (a + d) (sptr C) 0).
    { induction d as [|d IH]; intros a Hd; [now rewrite Nat.add_0_r|]. transitivity (nth (a + d) (sptr C) 0); [apply IH; lia|].
      specialize (C5 (a + d) ltac:(lia)). now replace (a + S d) with (a + d + 1) by lia. }
    destruct (Nat.lt_trichotomy i0 i) as [L|[L|L]]; auto; exfalso.
    - specialize (Mono (i - (i0 + 1)) (i0 + 1) ltac:(lia)). replace (i0 + 1 + (i - (i0 + 1))) with i in Mono by lia. lia.
    - specialize (Mono (i0 - (i + 1)) (i + 1) ltac:(lia)). replace (i + 1 + (i0 - (i + 1))) with i0 in Mono by lia. lia. }
  pose proof (ptr_le C n (i + 1) WC ltac:(lia)) as Hle. rewrite Ev in *. rewrite Ec.
  set (a := nth i (sptr C) 0) in *. set (b := nth (i + 1) (sptr C) 0) in *.
  assert (F : find (fun k => Nat.eqb (nth k (ccol A) 0) j) (seq a (b - a)) = find (at_pos A i j) (seq 0 (length (cval A)))).
  { destruct (find (at_pos A i j) _) as [k|] eqn:E1.
    - pose proof (find_seq_some _ _ _ _ E1) as (G1 & G2 & G3). apply at_pos_true in G2 as [G2 G2'].
      apply Hrow in G2; [|lia]. apply find_seq_first; [lia|now apply Nat.eqb_eq|].
      intros k' Hk'. specialize (G3 k' ltac:(lia)). apply at_pos_false in G3. apply Nat.eqb_neq. intros Ej. apply G3.
      split; auto. apply Hrow; lia.
    - destruct (find _ (seq a _)) as [k|] eqn:E2; auto. pose proof (find_seq_some _ _ _ _ E2) as (G1 & G2 & _).
      apply Nat.eqb_eq in G2. pose proof (find_seq_none _ _ _ E1 k ltac:(lia)) as G. apply at_pos_false in G.
      exfalso. apply G. split; auto. apply Hrow; lia. }
  now rewrite F.
Qed.

(** ** C34: shape and number of entries *)

Lemma max_elem_ok {S} l (s : S) : l <> [] -> exists x, max_elem l s = Ok x s /\ In x l /\ forall y, In y l -> y <= x.
Proof.
  destruct l as [|x l]; [congruence|]. intros _. cbn [max_elem]. eexists. split; [reflexivity|].
  split; [apply fold_max_In|]. apply max_elem_fold.
Qed.

Theorem C34_coo_shape : forall St A (s : St), coo_wf A -> 0 < length (cval A) ->
  exists n m, coo_shape A s = Ok (n, m) s /\ is_shape (coo_entries A) n m /\ coo_nnz A = length (coo_entries A).
Proof.
  intros St A s (W1 & W2 & _) Hpos.
  assert (crow A <> []) as N1 by (destruct (crow A); cbn in *; [lia|congruence]).
  assert (ccol A <> []) as N2 by (destruct (ccol A); cbn in *; [lia|congruence]).
  destruct (max_elem_ok (crow A) s N1) as (r & E1 & I1 & M1). destruct (max_elem_ok (ccol A) s N2) as (c & E2 & I2 & M2).
  exists (r + 1), (c + 1). split; [|split; [split|]].
  - unfold coo_shape, bind. now rewrite E1, E2.
  - intros i j v Hin. apply zip3_In in Hin; auto. destruct Hin as (k & Hk & <- & <- & _).
    specialize (M1 (nth k (crow A) 0)). specialize (M2 (nth k (ccol A) 0)). split.
    + assert (nth k (crow A) 0 <= r) by (apply M1, nth_In; lia). lia.
    + assert (nth k (ccol A) 0 <= c) by (apply M2, nth_In; lia). lia.
  - intros n' m' H. destruct (In_nth _ _ 0 I1) as (k1 & L1 & F1), (In_nth _ _ 0 I2) as (k2 & L2 & F2).
    assert (r < n' /\ nth k1 (ccol A) 0 < m') as [G1 _].
    { apply (H _ _ (nth k1 (cval A) zero)). apply zip3_In; auto. exists k1. split; [lia|auto]. }
    assert (nth k2 (crow A) 0 < n' /\ c < m') as [_ G2].
    { apply (H _ _ (nth k2 (cval A) zero)). apply zip3_In; auto. exists k2. split; [lia|auto]. }
    lia.
  - unfold coo_nnz, coo_entries. now rewrite zip3_length.
Qed.

Theorem C34_csr_shape : forall St A (s : St), coo_wf A -> 0 < length (cval A) ->
  exists C : csr T, csr_of_coo A s = Ok C s /\ csr_shape C s = coo_shape A s /\ csr_nnz C = coo_nnz A.
Proof.
  intros St A s W Hpos. destruct (csr_of_coo_ok A s W Hpos) as (C & n & E & WC & Ees & Ev & Ec & En).
  exists C. split; auto. split; [|unfold csr_nnz, coo_nnz; now rewrite Ev].
  unfold csr_shape, coo_shape, bind. destruct WC as (_ & C2 & _). rewrite Ec.
  destruct W as (W1 & W2 & _). destruct (crow A) as [|r rs] eqn:Er; [cbn in *; lia|]. cbn [max_elem ret].
  destruct (max_elem (ccol A) s); auto. unfold ret. f_equal. f_equal. cbn [fold_left] in En. rewrite C2, En.
  replace (Nat.max 0 r) with r by lia. lia.
Qed.

(** An empty matrix has no shape: the end iterator is dereferenced. *)
Theorem C34_empty_shape_ub : forall St A (s : St), crow A = [] -> coo_shape A s = UB.
Proof. intros St A s E. unfold coo_shape, bind. now rewrite E. Qed.
Theorem C34_empty_csr_shape_ub : forall St (A : csr T) (s : St), scol A = [] -> csr_shape A s = UB.
Proof. intros St A s E. unfold csr_shape, bind. now rewrite E. Qed.
Theorem C34_empty_shape_refuted : exists A : coo T, coo_wf A /\ coo_entries A = [] /\ coo_shape A tt <> Ok (0, 0) tt.
Proof. exists (mkCoo [] [] []). split; [|split; [reflexivity|discriminate]]. split; [reflexivity|]. split; [reflexivity|]. intros a b. cbn. lia. Qed.

(** ** C33: scaling and negation *)

Definition scaled_entries (alpha : T) es : triples T := map (fun e => (fst e, mul alpha (snd e))) es.

Lemma scal_vals_ok {S} alpha l (s : S) : fits_u32 (length l) = true -> scal_vals alpha l s = Ok (map (mul alpha) l) s.
Proof.
  intros Hf. unfold scal_vals, bind, run_local.
  pose proof (scal_core_wrote alpha 0 (length l) (heap_of [l]) Hf (le_n _)) as H. unfold post in H.
  destruct (scal_core alpha 0 (length l) (heap_of [l])) as [r h'| | | | |]; try contradiction.
  destruct H as (_ & _ & _ & L & V). cbn [snd]. unfold ret.
  enough (mem h' 0 = map (mul alpha) l) as -> by reflexivity. apply (list_ext_nth zero).
  - unfold len in L. cbn in L. now rewrite map_length.
  - intros i Hi. unfold len in L. cbn [mem heap_of nth] in L. specialize (V i). unfold rd in V.
    rewrite L in Hi. destruct (Nat.ltb_spec i (length l)); [|lia]. rewrite V. cbn [mem heap_of nth].
    rewrite (nth_indep (map (mul alpha) l) zero (mul alpha zero)) by (now rewrite map_length). now rewrite map_nth.
Qed.

Lemma zip3_scaled alpha rows cols (l : list T) : zip3 rows cols (map (mul alpha) l) = scaled_entries alpha (zip3 rows cols l).
Proof.
  unfold zip3, scaled_entries. revert l. induction (combine rows cols) as [|p ps IH]; intros [|x l]; cbn; auto. now rewrite IH.
Qed.

Theorem C33_coo_scale : forall alpha A, coo_wf A -> fits_u32 (length (cval A)) = true ->
  exists A', coo_scale alpha A = Ok tt A' /\ coo_wf A' /\ crow A' = crow A /\ ccol A' = ccol A /\
    coo_entries A' = scaled_entries alpha (coo_entries A) /\
    forall St (s : St), coo_op_scale alpha A s = Ok A' s.
Proof.
  intros alpha A (W1 & W2 & W3) Hf.
  exists (mkCoo (map (mul alpha) (cval A)) (crow A) (ccol A)).
  assert (E : coo_scale alpha A = Ok tt (mkCoo (map (mul alpha) (cval A)) (crow A) (ccol A))).
  { unfold coo_scale, noexcept, bind. now rewrite scal_vals_ok. }
  split; auto. unfold coo_wf, coo_entries. cbn [crow ccol cval]. rewrite map_length. split.
  { split; auto. split; auto. unfold coo_entries in W3. rewrite zip3_map_fst in * by (rewrite ?map_length; auto). exact W3. }
  split; [reflexivity|]. split; [reflexivity|]. split; [apply zip3_scaled|].
  intros. unfold coo_op_scale, noexcept, on_copy. now rewrite E.
Qed.

Theorem C33_csr_scale : forall alpha (A : csr T) n, csr_wf A n -> fits_u32 (length (sval A)) = true ->
  exists A' : csr T, csr_scale alpha A = Ok tt A' /\ csr_wf A' n /\ sptr A' = sptr A /\ scol A' = scol A /\
    csr_entries A' n = scaled_entries alpha (csr_entries A n) /\
    forall St (s : St), csr_op_scale alpha A s = Ok A' s.
Proof.
  intros alpha A n W Hf. pose proof W as (W1 & W2 & W3 & W4 & W5).
  exists (mkCsr (map (mul alpha) (sval A)) (sptr A) (scol A)).
  assert (E : csr_scale alpha A = Ok tt (mkCsr (map (mul alpha) (sval A)) (sptr A) (scol A))).
  { unfold csr_scale, noexcept, bind. now rewrite scal_vals_ok. }
  split; auto. split; [unfold csr_wf; cbn [sval sptr scol]; rewrite map_length; auto|].
  split; [reflexivity|]. split; [reflexivity|]. split.
  - unfold csr_entries, scaled_entries. rewrite <- flat_map_map. apply flat_map_ext_in. intros i Hi. apply in_seq in Hi.
    unfold csr_row. cbn [sval sptr scol]. rewrite map_map. apply map_ext_in. intros k Hk. apply in_seq in Hk. cbn [fst snd].
    f_equal. pose proof (ptr_le A n (i + 1) W ltac:(lia)).
    rewrite (nth_indep (map (mul alpha) (sval A)) zero (mul alpha zero)) by (rewrite map_length; lia). now rewrite map_nth.
  - intros. unfold csr_op_scale, noexcept, on_copy. now rewrite E.
Qed.

Section RingReads.
Context {R : IsRing T Op}.
Add Ring Tring : (ring_th (IsRing := R)).

(** Element reads after scaling, over a ring (the implicit zeros stay zero). *)
Theorem C33_coo_reads : forall alpha A i j, coo_wf A -> fits_u32 (length (cval A)) = true ->
  exists A' N x, coo_scale alpha A = Ok tt A' /\ coo_neg A tt = Ok N tt /\
    coo_get A i j tt = Ok x tt /\ coo_get A' i j tt = Ok (mul alpha x) tt /\ coo_get N i j tt = Ok (opp x) tt.
Proof.
  intros alpha A i j W Hf. pose proof W as (W1 & W2 & _).
  destruct (C33_coo_scale alpha A W Hf) as (A' & E & (V1 & V2 & _) & Er & Ec & Ees & _).
  destruct (C33_coo_scale (opp one) A W Hf) as (N & EN & (U1 & U2 & _) & Nr & Nc & Nes & _).
  exists A', N.
  assert (EA : A' = mkCoo (map (mul alpha) (cval A)) (crow A) (ccol A)).
  { unfold coo_scale, noexcept, bind in E. rewrite scal_vals_ok in E by auto. congruence. }
  assert (EN' : N = mkCoo (map (mul (opp one)) (cval A)) (crow A) (ccol A)).
  { unfold coo_scale, noexcept, bind in EN. rewrite scal_vals_ok in EN by auto. congruence. }
  assert (G : forall c, coo_get (mkCoo (map (mul c) (cval A)) (crow A) (ccol A)) i j tt =
     match coo_get A i j tt with Ok x s => Ok (mul c x) s | r => r end).
  { intros c. unfold coo_get, bind. rewrite !coo_find_ok by (cbn [cval crow ccol]; rewrite ?map_length; auto). cbn [cval].
    rewrite map_length. change (at_pos (mkCoo (map (mul c) (cval A)) (crow A) (ccol A)) i j) with (at_pos A i j).
    destruct (find _ _) as [k|] eqn:Ef.
    - pose proof (find_seq_some _ _ _ _ Ef) as (H1 & _). rewrite !(vec_at_d _ zero) by (rewrite ?map_length; lia).
      rewrite (nth_indep (map (mul c) (cval A)) zero (mul c zero)) by (rewrite map_length; lia). now rewrite map_nth.
    - unfold ret. f_equal. ring. }
  destruct (coo_get_ok A i j tt W1 W2 Hf) as (x & Ex & _). exists x. split; auto. split.
  { unfold coo_neg, noexcept, on_copy. now rewrite EN. }
  split; auto. rewrite EA, EN', !G, Ex. split; [reflexivity|]. do 2 f_equal. ring.
Qed.

Theorem C33_csr_reads : forall alpha (A : csr T) n i j, csr_wf A n -> fits_u32 (length (sval A)) = true -> i < n ->
  exists (A' N : csr T) x, csr_scale alpha A = Ok tt A' /\ csr_neg A tt = Ok N tt /\
    csr_get A i j tt = Ok x tt /\ csr_get A' i j tt = Ok (mul alpha x) tt /\ csr_get N i j tt = Ok (opp x) tt.
Proof.
  intros alpha A n i j W Hf Hi. pose proof W as (W1 & W2 & W3 & W4 & W5).
  exists (mkCsr (map (mul alpha) (sval A)) (sptr A) (scol A)), (mkCsr (map (mul (opp one)) (sval A)) (sptr A) (scol A)).
  destruct (csr_get_ok A n i j tt W Hi) as (x & Ex & _). exists x.
  assert (G : forall c, csr_get (mkCsr (map (mul c) (sval A)) (sptr A) (scol A)) i j tt =
     match csr_get A i j tt with Ok x s => Ok (mul c x) s | r => r end).
  { intros c. assert (W' : csr_wf (mkCsr (map (mul c) (sval A)) (sptr A) (scol A)) n)
      by (unfold csr_wf; cbn [sval sptr scol]; rewrite map_length; auto).
    unfold csr_get, bind. rewrite !(csr_find_ok _ n) by auto. cbn [sval sptr scol].
    destruct (find _ _) as [k|] eqn:Ef.
    - pose proof (find_seq_some _ _ _ _ Ef) as (H1 & _). pose proof (ptr_le A n (i + 1) W ltac:(lia)).
      rewrite !(vec_at_d _ zero) by (rewrite ?map_length; lia).
      rewrite (nth_indep (map (mul c) (sval A)) zero (mul c zero)) by (rewrite map_length; lia). now rewrite map_nth.
    - unfold ret. f_equal. ring. }
  split; [unfold csr_scale, noexcept, bind; now rewrite scal_vals_ok|].
  split; [unfold csr_neg, noexcept, on_copy, csr_scale, noexcept, bind; now rewrite scal_vals_ok|].
  split; auto. rewrite !G, Ex. split; [reflexivity|]. do 2 f_equal. ring.
Qed.
End RingReads.

(** ** C31: A += B *)

(** The stored entry following row [i] in row-major order. *)
Definition next_after es (i : nat) (p : nat * nat) : Prop :=
  In p (map fst es) /\ i < fst p /\ forall q, In q (map fst es) -> i < fst q -> pos_le p q.

(** The patterns for which the merge works: for every row of B with entries, A has an entry in
    that row, or the entry of A that follows the row exists and its column is none of the columns
    of that row in B. *)
Definition addable A B : Prop :=
  forall i j b, In ((i, j), b) (coo_entries B) ->
    (exists j' a, In ((i, j'), a) (coo_entries A)) \/
    (exists p, next_after (coo_entries A) i p /\ forall b', ~ In ((i, snd p), b') (coo_entries B)).

Lemma strict_order A : coo_wf A -> distinct (coo_entries A) ->
  forall a b, a < b -> b < length (cval A) -> pos_lt (nth a (crow A) 0, nth a (ccol A) 0) (nth b (crow A) 0, nth b (ccol A) 0).
Proof.
  intros (W1 & W2 & W3) D a b Hab Hb. unfold coo_entries in *. rewrite in_order_zip3 in W3 by auto.
  rewrite zip3_distinct in D by auto. specialize (W3 a b Hab Hb). specialize (D a b ltac:(lia) Hb).
  unfold pos_le, pos_lt in *. cbn [fst snd] in *. destruct W3 as [|[E L]]; [auto|]. right. split; auto.
  destruct (Nat.eq_dec (nth a (ccol A) 0) (nth b (ccol A) 0)); [specialize (D E e); lia|lia].
Qed.

Lemma addable_good_row A B : coo_wf A -> distinct (coo_entries A) -> coo_wf B ->
  addable A B -> forall t, t < length (cval B) -> good_row A B (nth t (crow B) 0).
Proof.
  intros W D (V1 & V2 & _) Had t Ht. pose proof (strict_order A W D) as Hs. destruct W as (W1 & W2 & _).
  destruct (Had (nth t (crow B) 0) (nth t (ccol B) 0) (nth t (cval B) zero)) as [(j' & a & Hin)|(p & (P1 & P2 & P3) & Hno)].
  - apply zip3_In; auto. exists t. auto.
  - left. apply zip3_In in Hin; auto. destruct Hin as (k & Hk & E & _). exists k. auto.
  - destruct (Nat.eq_dec 0 0) as [_|]; [|congruence].
    (* either the row occurs, or p is the first entry beyond it *)
    destruct (find (fun k => Nat.eqb (nth k (crow A) 0) (nth t (crow B) 0)) (seq 0 (length (cval A)))) as [k|] eqn:Ef.
    + left. pose proof (find_seq_some _ _ _ _ Ef) as (H1 & H2 & _). apply Nat.eqb_eq in H2. exists k. split; [lia|auto].
    + right. unfold coo_entries in *. rewrite zip3_map_fst in * by auto.
      destruct (In_nth _ _ (0, 0) P1) as (k & Hk & Ek). rewrite combine_length in Hk. rewrite combine_nth in Ek by lia.
      exists k. split; [lia|]. subst p. cbn [fst snd] in *. split; [|split; auto].
      * intros k' Hk'. destruct (Nat.lt_trichotomy (nth k' (crow A) 0) (nth t (crow B) 0)) as [L|[L|L]]; auto; exfalso.
        -- pose proof (find_seq_none _ _ _ Ef k' ltac:(lia)) as F. cbv beta in F. apply Nat.eqb_neq in F. auto.
        -- assert (In (nth k' (crow A) 0, nth k' (ccol A) 0) (combine (crow A) (ccol A))) as Hin.
           { rewrite <- combine_nth by lia. apply nth_In. rewrite combine_length. lia. }
           specialize (P3 _ Hin L). specialize (Hs k' k Hk' ltac:(lia)). unfold pos_le, pos_lt in *. cbn in *. lia.
      * intros t' Ht' Er Ec. apply (Hno (nth t' (cval B) zero)). apply zip3_In; auto. exists t'. auto.
Qed.

Definition rows_fit B : Prop := forall i j b, In ((i, j), b) (coo_entries B) -> fits_u32 (i + 1) = true.

Lemma rows_fit_nth B : coo_wf B -> rows_fit B -> forall t, t < length (cval B) -> fits_u32 (nth t (crow B) 0 + 1) = true.
Proof.
  intros (V1 & V2 & _) Hf t Ht. eapply (Hf _ (nth t (ccol B) 0) (nth t (cval B) zero)). apply zip3_In; auto. exists t. auto.
Qed.

Lemma wf_le_of_lt es : in_order pos_lt (map fst es) -> in_order pos_le (map fst es).
Proof. intros H a b Hab Hb. specialize (H a b Hab Hb). unfold pos_lt, pos_le in *. lia. Qed.

Theorem C31_add_partial : forall srt A B,
  sort_contract srt -> coo_wf A -> coo_wf B -> distinct (coo_entries A) -> distinct (coo_entries B) ->
  0 < length (cval B) -> addable A B ->
  fits_u32 (length (cval A) + length (cval B)) = true -> rows_fit B ->
  exists A', coo_add_assign (Some B) srt A = Ok tt A' /\ coo_wf A' /\ distinct (coo_entries A') /\
    sum_entries (coo_entries A) (coo_entries B) (coo_entries A') /\
    forall S (s : S), coo_plus srt A B s = Ok A' s.
Proof.
  intros srt A B HS WA WB DA DB Hpos Had Hf Hr.
  pose proof (strict_order A WA DA) as SA. pose proof (strict_order B WB DB) as SB.
  pose proof WA as (A1 & A2 & _). pose proof WB as (B1 & B2 & _).
  destruct (add_assign_ok A B (Some B) A1 A2 B1 B2 SA SB) with (srt := srt) as (A' & E & W' & P); auto.
  - intros r Hr'. cbn [rhs_of]. split; split; auto; lia.
  - now apply addable_good_row.
  - intros r. exists []. cbn [rhs_of]. now rewrite app_nil_r.
  - now apply rows_fit_nth.
  - exists A'. split; auto. split; auto. split; [|split].
    + eapply distinct_perm; [symmetry; exact P|]. now apply St_distinct.
    + intros i j x. rewrite <- (St_sum A B A1 A2 B1 B2 SA SB i j x). split; apply Permutation_in; [|symmetry]; exact P.
    + intros S s. unfold coo_plus, noexcept, on_copy. now rewrite E.
Qed.

(** A += A: no condition on the pattern. *)
Lemma self_vals A r : (forall a b, a < b -> b < length (cval A) -> pos_lt (nth a (crow A) 0, nth a (ccol A) 0) (nth b (crow A) 0, nth b (ccol A) 0)) ->
  length (crow A) = length (cval A) -> length (ccol A) = length (cval A) ->
  r <= length (cval A) -> crow (St A A r) = crow A /\ ccol (St A A r) = ccol A /\ length (cval (St A A r)) = length (cval A) /\
  forall k, r <= k -> nth k (cval (St A A r)) zero = nth k (cval A) zero.
Proof.
  intros HS H1 H2. induction r as [|r IH]; intros Hr; [cbn; auto|]. destruct (IH ltac:(lia)) as (I1 & I2 & I3 & I4).
  cbn [St]. unfold step1. assert (hit A A r = Some r) as -> by (apply hit_some; auto).
  cbn [crow ccol cval]. rewrite set_nth_length. split; auto. split; auto. split; auto.
  intros k Hk. rewrite nth_set_nth_other by lia. apply I4. lia.
Qed.

Theorem C31_add_self : forall srt A,
  sort_contract srt -> coo_wf A -> distinct (coo_entries A) -> 0 < length (cval A) ->
  fits_u32 (length (cval A) + length (cval A)) = true -> rows_fit A ->
  exists A', coo_add_assign None srt A = Ok tt A' /\ coo_wf A' /\ distinct (coo_entries A') /\
    sum_entries (coo_entries A) (coo_entries A) (coo_entries A').
Proof.
  intros srt A HS WA DA Hpos Hf Hr. pose proof (strict_order A WA DA) as SA. pose proof WA as (A1 & A2 & _).
  destruct (add_assign_ok A A None A1 A2 A1 A2 SA SA) with (srt := srt) as (A' & E & W' & P); auto.
  - intros r Hr'. cbn [rhs_of]. destruct (self_vals A r SA A1 A2 ltac:(lia)) as (I1 & I2 & I3 & I4).
    rewrite I2, I3, (I4 r) by lia. split; split; auto; lia.
  - intros t Ht. left. exists t. auto.
  - intros r. exists (skipn (length (crow A)) (crow (St A A r))). cbn [rhs_of].
    destruct (St_shape A A A1 A2 A1 A2 r) as (xv & xr & xc & _ & -> & _). f_equal.
    now rewrite skipn_app, Nat.sub_diag, skipn_all.
  - now apply rows_fit_nth.
  - exists A'. split; auto. split; auto. split.
    + eapply distinct_perm; [symmetry; exact P|]. now apply St_distinct.
    + intros i j x. rewrite <- (St_sum A A A1 A2 A1 A2 SA SA i j x). split; apply Permutation_in; [|symmetry]; exact P.
Qed.

(** What goes wrong: an empty left-hand side, an empty right-hand side. *)
Theorem C31_empty_lhs_ub : forall srt A B, cval A = [] -> crow A = [] -> ccol A = [] ->
  coo_wf B -> 0 < length (cval B) -> rows_fit B -> coo_add_assign (Some B) srt A = UB.
Proof.
  intros srt A B E1 E2 E3 WB Hpos Hr. pose proof WB as (B1 & B2 & B3).
  destruct A as [va ra ca]. cbn in E1, E2, E3. subst.
  unfold coo_add_assign. unfold bind at 1, get_coo at 1. cbn [rhs_of crow].
  assert (crow B <> []) as N1 by (destruct (crow B); cbn in *; [lia|congruence]).
  assert (ccol B <> []) as N2 by (destruct (ccol B); cbn in *; [lia|congruence]).
  destruct (max_elem_ok (crow B) (mkCoo [] [] [] : coo T) N1) as (r & Er & I1 & M1).
  destruct (max_elem_ok (ccol B) (mkCoo [] [] [] : coo T) N2) as (c & Ec & _).
  unfold bind at 1. unfold coo_shape at 1. unfold bind at 1 2. rewrite Er, Ec. cbn [ret fst].
  assert (Hfr : fits_u32 (r + 1) = true).
  { destruct (In_nth _ _ 0 I1) as (t & Ht & <-). apply rows_fit_nth; auto. lia. }
  unfold for_u32. rewrite Hfr. unfold for_sz. rewrite Nat.sub_0_r.
  set (i0 := nth 0 (crow B) 0).
  assert (Hi0 : i0 <= r) by (apply M1, nth_In; lia).
  assert (Hmin : forall k, k < length (cval B) -> i0 <= nth k (crow B) 0).
  { intros k Hk. destruct k as [|k]; [auto|]. unfold coo_entries in B3. rewrite in_order_zip3 in B3 by auto.
    specialize (B3 0 (S k) ltac:(lia) Hk). unfold pos_le in B3. cbn [fst snd] in B3. unfold i0. lia. }
  assert (HN : forall i, upper_bound (@nil nat) 0 0 i = 0) by reflexivity.
  (* the rows before the first entry of B do nothing, the first row with an entry reads past the end *)
  match goal with |- context [loop _ ?bd _] => set (body := bd) end.
  assert (Hbody : forall i, i <= i0 -> body i (0, 0) (mkCoo [] [] []) = if Nat.eqb i i0 then UB else Ok (0, 0) (mkCoo [] [] [])).
  { intros i Hi. unfold body. unfold bind at 1, get_coo. cbn [crow rhs_of fst snd length]. rewrite HN. cbv zeta.
    pose proof (ub_spec (crow B) 0 (length (crow B)) i ltac:(lia) ltac:(lia)) as (U1 & U2 & U3).
    set (u := upper_bound (crow B) 0 (length (crow B)) i) in *.
    replace (0 + length (crow B) + 1) with (Datatypes.S (length (crow B))) by lia. unfold bind at 1. cbn [add_row].
    destruct (Nat.eqb_spec i i0) as [Ei|Ei].
    - assert (0 < u). { destruct (Nat.eq_dec u 0) as [E|]; [|lia]. rewrite E in *. specialize (U3 ltac:(lia)). fold i0 in U3. lia. }
      destruct (Z.leb_spec (Z.of_nat 0) (Z.of_nat u - 1)); [|lia]. reflexivity.
    - assert (u = 0) as ->.
      { destruct (Nat.eq_dec u 0); auto. specialize (U2 0 ltac:(lia)). fold i0 in U2. lia. }
      destruct (Z.leb_spec (Z.of_nat 0) (Z.of_nat 0 - 1)); [lia|]. reflexivity. }
  assert (G : forall cnt i, i <= i0 -> i0 < i + cnt -> loop (seq i cnt) body (0, 0) (mkCoo [] [] []) = UB).
  { induction cnt as [|cnt IH]; intros i Hi Hc; [lia|]. cbn [seq loop]. unfold bind at 1. rewrite Hbody by auto.
    destruct (Nat.eqb_spec i i0); [reflexivity|]. apply IH; lia. }
  unfold bind at 1. rewrite G by lia. reflexivity.
Qed.

Theorem C31_empty_rhs_ub : forall srt A B, crow B = [] -> coo_add_assign (Some B) srt A = UB.
Proof. intros srt A B E. unfold coo_add_assign, bind, get_coo, coo_shape, bind. cbn [rhs_of]. now rewrite E. Qed.

Section RingAdd.
Context {R : IsRing T Op}.
Add Ring Tring2 : (ring_th (IsRing := R)).

Lemma sum_reads es1 es2 es i j a b x : distinct es1 -> distinct es2 -> sum_entries es1 es2 es ->
  reads es1 i j a -> reads es2 i j b -> reads es i j x -> distinct es -> x = add a b.
Proof.
  intros D1 D2 Hs Ra Rb Rx D. apply (reads_fun es i j); auto.
  destruct Ra as [Ha|[Na ->]], Rb as [Hb|[Nb ->]].
  - left. apply Hs. left. eauto.
  - left. apply Hs. right; left. replace (add a zero) with a by ring. auto.
  - left. apply Hs. right; right. replace (add zero b) with b by ring. auto.
  - right. split; [|ring]. intros v Hv. apply Hs in Hv. destruct Hv as [(a & b & Ha & _)|[[Ha _]|[Hb _]]].
    + eapply Na; eauto. + eapply Na; eauto. + eapply Nb; eauto.
Qed.

(** Element reads of the sum and the difference. *)
Theorem C31_reads_partial : forall srt A B i j,
  sort_contract srt -> coo_wf A -> coo_wf B -> distinct (coo_entries A) -> distinct (coo_entries B) ->
  0 < length (cval B) -> addable A B ->
  fits_u32 (length (cval A) + length (cval B)) = true -> rows_fit B ->
  exists A' D a b, coo_add_assign (Some B) srt A = Ok tt A' /\ coo_plus srt A B tt = Ok A' tt /\ coo_minus srt A B tt = Ok D tt /\
    coo_get A i j tt = Ok a tt /\ coo_get B i j tt = Ok b tt /\
    coo_get A' i j tt = Ok (add a b) tt /\ coo_get D i j tt = Ok (sub a b) tt.
Proof.
  intros srt A B i j HS WA WB DA DB Hpos Had Hf Hr.
  pose proof WA as (A1 & A2 & _). pose proof WB as (B1 & B2 & _).
  assert (HfA : fits_u32 (length (cval A)) = true) by (eapply fits_u32_le; [exact Hf|lia]).
  assert (HfB : fits_u32 (length (cval B)) = true) by (eapply fits_u32_le; [exact Hf|lia]).
  destruct (C31_add_partial srt A B HS WA WB DA DB Hpos Had Hf Hr) as (A' & E & W' & D' & Hs & Ep).
  destruct (C33_coo_scale (opp one) B WB HfB) as (N & EN & WN & Nr & Nc & Nes & _).
  assert (LN : length (cval N) = length (cval B)) by (destruct WN as (N1 & _); rewrite <- N1, Nr; auto).
  assert (InN : forall i j x, In ((i, j), x) (coo_entries N) <-> exists y, In ((i, j), y) (coo_entries B) /\ x = mul (opp one) y).
  { intros i0 j0 x. rewrite Nes. unfold scaled_entries. rewrite in_map_iff. split.
    - intros ([p y] & Ey & Hy). cbn in Ey. inversion Ey; subst. exists y. auto.
    - intros (y & Hy & ->). exists ((i0, j0), y). auto. }
  assert (DN : distinct (coo_entries N)).
  { unfold distinct. rewrite Nes. unfold scaled_entries. rewrite map_map. exact DB. }
  destruct (C31_add_partial srt A N HS WA WN DA DN) as (D & ED & WD & DD & HsD & EpD).
  { lia. }
  { intros i0 j0 b0 Hb. apply InN in Hb. destruct Hb as (y & Hy & _). destruct (Had i0 j0 y Hy) as [H|(p & Hp & Hno)]; [left; auto|right].
    exists p. split; auto. intros b' Hb'. apply InN in Hb'. destruct Hb' as (y' & Hy' & _). eapply Hno; eauto. }
  { now rewrite LN. }
  { intros i0 j0 b0 Hb. apply InN in Hb. destruct Hb as (y & Hy & _). eapply Hr; eauto. }
  assert (LA' : forall C, sum_entries (coo_entries A) (coo_entries B) (coo_entries C) \/ sum_entries (coo_entries A) (coo_entries N) (coo_entries C) ->
     coo_wf C -> distinct (coo_entries C) -> length (cval C) <= length (cval A) + length (cval B)).
  { intros C HC (C1 & C2 & _) DC. rewrite <- (zip3_length (crow C) (ccol C) (cval C)), <- (zip3_length (crow A) (ccol A) (cval A)), <- (zip3_length (crow B) (ccol B) (cval B)) by auto.
    fold (coo_entries A) (coo_entries B) (coo_entries C).
    rewrite <- (map_length fst (coo_entries C)), <- (map_length fst (coo_entries A)), <- (map_length fst (coo_entries B)), <- app_length.
    apply NoDup_incl_length; auto. intros [i0 j0] Hin. apply in_map_iff in Hin. destruct Hin as ([p x] & Ep0 & Hin). cbn in Ep0. subst p.
    apply in_or_app. destruct HC as [HC|HC]; apply HC in Hin.
    - destruct Hin as [(a & b & Ha & _)|[[Ha _]|[Hb _]]]; [left|left|right]; apply in_map_iff; eexists (_, _); split; try eassumption; reflexivity.
    - destruct Hin as [(a & b & Ha & _)|[[Ha _]|[Hb _]]]; [left|left|right].
      + apply in_map_iff; eexists (_, _); split; try eassumption; reflexivity.
      + apply in_map_iff; eexists (_, _); split; try eassumption; reflexivity.
      + apply InN in Hb. destruct Hb as (y & Hy & _). apply in_map_iff; eexists (_, _); split; try eassumption; reflexivity. }
  pose proof W' as (U1 & U2 & _). pose proof WD as (V1 & V2 & _). pose proof WN as (N1 & N2 & _).
  destruct (coo_get_ok A i j tt A1 A2 HfA) as (a & Ea & Ra). destruct (coo_get_ok B i j tt B1 B2 HfB) as (b & Eb & Rb).
  destruct (coo_get_ok A' i j tt U1 U2) as (x & Ex & Rx). { eapply fits_u32_le; [exact Hf|]. apply LA'; auto. }
  destruct (coo_get_ok D i j tt V1 V2) as (y & Ey & Ry). { eapply fits_u32_le; [exact Hf|]. apply LA'; auto. }
  exists A', D, a, b. split; auto. split; auto. split.
  { unfold coo_minus, noexcept, bind. unfold coo_neg, noexcept, on_copy at 1. rewrite EN. unfold on_copy. now rewrite ED. }
  split; auto. split; auto. split.
  - rewrite Ex. f_equal. eapply (sum_reads _ _ _ i j a b x DA DB Hs); auto.
  - rewrite Ey. f_equal. rewrite (sum_reads _ _ _ i j a (mul (opp one) b) y DA DN HsD); auto; [ring|].
    destruct Rb as [Hb|[Nb ->]].
    + left. apply InN. eauto.
    + right. split; [|ring]. intros v Hv. apply InN in Hv. destruct Hv as (w & Hw & _). eapply Nb; eauto.
Qed.
End RingAdd.
End Sparse.
