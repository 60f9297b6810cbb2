(** * Sparse matrices: sorting, searching, conversion, sums, products *)
From Coq Require Import Permutation Ring.
From Verif Require Import Base Scalar BaseLemmas Spec Sums ModelVec ProofVec ModelSparse SpecSparse ProofPacked.
Local Open Scope nat_scope.

(** ** Insertion sort meets the contract *)
Section Isort.
Context (less : nat -> nat -> bool) (W : weak_order less).

Lemma insert_perm x l : Permutation (insert less x l) (x :: l).
Proof.
  induction l as [|y l IH]; cbn; auto. destruct (less y x); auto.
  rewrite IH. apply perm_swap.
Qed.
Lemma isort_perm l : Permutation (isort less l) l.
Proof. induction l as [|x l IH]; cbn; auto. rewrite insert_perm. now constructor. Qed.

Definition sortedl (l : list nat) : Prop :=
  forall a b, a < b -> b < length l -> less (nth b l 0) (nth a l 0) = false.
Lemma sortedl_cons x l : sortedl (x :: l) <-> (forall y, In y l -> less y x = false) /\ sortedl l.
Proof.
  split.
  - intros H. split.
    + intros y Hy. destruct (In_nth l y 0 Hy) as (k & Hk & <-). exact (H 0 (S k) ltac:(lia) ltac:(cbn; lia)).
    + intros a b Hab Hb. exact (H (S a) (S b) ltac:(lia) ltac:(cbn; lia)).
  - intros [H1 H2] a b Hab Hb. destruct b as [|b]; [lia|]. cbn in Hb. destruct a as [|a]; cbn [nth].
    + apply H1, nth_In. lia.
    + apply H2; lia.
Qed.
Lemma insert_sorted x l : sortedl l -> sortedl (insert less x l).
Proof.
  destruct W as (Irr & Tr & Nt).
  induction l as [|y l IH]; intros H; cbn [insert].
  - intros a b Hab Hb. cbn in Hb. lia.
  - apply sortedl_cons in H as [H1 H2]. destruct (less y x) eqn:E.
    + apply sortedl_cons. split; auto. intros z Hz.
      apply (Permutation_in _ (insert_perm x l)) in Hz. destruct Hz as [<-|Hz]; auto.
      destruct (less x y) eqn:E2; auto. assert (less y y = true) by (eapply Tr; eauto). congruence.
    + apply sortedl_cons. split.
      * intros z [<-|Hz]; auto. apply (Nt z y x); auto.
      * apply sortedl_cons; auto.
Qed.
Lemma isort_sorted l : sortedl (isort less l).
Proof. induction l as [|x l IH]; [intros a b; cbn; lia|]. now apply insert_sorted. Qed.
End Isort.

Lemma isort_contract : sort_contract isort.
Proof.
  intros less l W. split; [apply isort_perm|].
  intros a b Hab Hb. apply isort_sorted; auto. now rewrite (Permutation_length (isort_perm less l)).
Qed.

Lemma pos_less_weak rows cols : weak_order (pos_less rows cols).
Proof.
  unfold pos_less. split; [|split].
  - intros a. now rewrite Nat.eqb_refl, Nat.ltb_irrefl.
  - intros a b c. destruct (Nat.eqb_spec (nth a rows 0) (nth b rows 0)), (Nat.eqb_spec (nth b rows 0) (nth c rows 0)),
      (Nat.eqb_spec (nth a rows 0) (nth c rows 0)); rewrite ?Nat.ltb_lt; lia.
  - intros a b c. destruct (Nat.eqb_spec (nth a rows 0) (nth b rows 0)), (Nat.eqb_spec (nth b rows 0) (nth c rows 0)),
      (Nat.eqb_spec (nth a rows 0) (nth c rows 0)); rewrite ?Nat.ltb_ge; lia.
Qed.

Lemma vec_at_d {S X} (l : list X) d i (s : S) : i < length l -> vec_at l i s = Ok (nth i l d) s.
Proof. intros L. unfold vec_at. now rewrite (nth_error_nth' l d L). Qed.
Lemma vec_set_d {S X} (l : list X) i x (s : S) : i < length l -> vec_set l i x s = Ok (set_nth i x l) s.
Proof. intros L. unfold vec_set. destruct (Nat.ltb_spec i (length l)); [reflexivity|lia]. Qed.

(** ** First-match searches *)

Lemma search_none {S} (p : nat -> bool) (body : nat -> option nat -> M S (option nat)) l s :
  (forall c f, In c l -> body c f s = Ok (match f with Some k => Some k | None => if p c then Some c else None end) s) ->
  loop l body None s = Ok (find p l) s.
Proof.
  intros H. assert (HS : forall l', (forall c, In c l' -> In c l) -> forall k, loop l' body (Some k) s = Ok (Some k) s).
  { induction l' as [|c l' IH]; intros Hin k; [reflexivity|]. cbn [loop]. unfold bind.
    rewrite H by (apply Hin; left; auto). apply IH. intros; apply Hin; right; auto. }
  assert (forall l', (forall c, In c l' -> In c l) -> loop l' body None s = Ok (find p l') s) as G.
  { induction l' as [|c l' IH]; intros Hin; [reflexivity|]. cbn [loop find]. unfold bind.
    rewrite H by (apply Hin; left; auto). destruct (p c).
    - apply HS. intros; apply Hin; right; auto.
    - apply IH. intros; apply Hin; right; auto. }
  apply G. auto.
Qed.

Lemma find_seq_some (p : nat -> bool) lo n k : find p (seq lo n) = Some k ->
  lo <= k < lo + n /\ p k = true /\ forall k', lo <= k' < k -> p k' = false.
Proof.
  revert lo; induction n as [|n IH]; intros lo; cbn [seq find]; [discriminate|].
  destruct (p lo) eqn:E.
  - intros [= ->]. split; [lia|]. split; auto. intros; lia.
  - intros H. destruct (IH _ H) as (H1 & H2 & H3). split; [lia|]. split; auto.
    intros k' Hk'. destruct (Nat.eq_dec k' lo) as [->|]; auto. apply H3. lia.
Qed.
Lemma find_seq_none (p : nat -> bool) lo n : find p (seq lo n) = None -> forall k, lo <= k < lo + n -> p k = false.
Proof. intros H k Hk. apply (find_none _ _ H). apply in_seq. lia. Qed.
Lemma find_seq_first (p : nat -> bool) lo n k :
  lo <= k < lo + n -> p k = true -> (forall k', lo <= k' < k -> p k' = false) -> find p (seq lo n) = Some k.
Proof.
  intros Hk Hp Hf. destruct (find p (seq lo n)) as [k'|] eqn:E.
  - destruct (find_seq_some _ _ _ _ E) as (H1 & H2 & H3). f_equal.
    destruct (Nat.lt_trichotomy k k') as [L|[L|L]]; auto.
    + rewrite H3 in Hp by lia. discriminate.
    + rewrite Hf in H2 by lia. discriminate.
  - rewrite (find_seq_none _ _ _ E k Hk) in Hp. discriminate.
Qed.

Section Sparse.
Context {T : Type} {Op : Ops T}.
Implicit Types (es : triples T) (A B C : coo T).

(** ** Triples *)
Lemma zip3_length rows cols (vals : list T) :
  length rows = length vals -> length cols = length vals -> length (zip3 rows cols vals) = length vals.
Proof. intros. unfold zip3. rewrite !combine_length. lia. Qed.
Lemma zip3_nth rows cols (vals : list T) k :
  length rows = length vals -> length cols = length vals ->
  nth k (zip3 rows cols vals) ((0, 0), zero) = ((nth k rows 0, nth k cols 0), nth k vals zero).
Proof.
  intros. unfold zip3. rewrite combine_nth by (rewrite combine_length; lia). now rewrite combine_nth by lia.
Qed.
Lemma zip3_In rows cols (vals : list T) i j x :
  length rows = length vals -> length cols = length vals ->
  (In ((i, j), x) (zip3 rows cols vals) <->
   exists k, k < length vals /\ nth k rows 0 = i /\ nth k cols 0 = j /\ nth k vals zero = x).
Proof.
  intros H1 H2. split.
  - intros H. destruct (In_nth _ _ ((0, 0), zero) H) as (k & Hk & E).
    rewrite zip3_length in Hk by auto. rewrite zip3_nth in E by auto. inversion E. eauto.
  - intros (k & Hk & <- & <- & <-). rewrite <- (zip3_nth rows cols vals k H1 H2).
    apply nth_In. now rewrite zip3_length.
Qed.
Lemma zip3_map_fst rows cols (vals : list T) :
  length rows = length vals -> length cols = length vals -> map fst (zip3 rows cols vals) = combine rows cols.
Proof.
  intros H1 H2. apply (list_ext_nth (0, 0)).
  - rewrite map_length, zip3_length, combine_length by auto. lia.
  - intros k Hk. rewrite map_length, zip3_length in Hk by auto.
    change (0, 0) with (fst ((0, 0), zero : T)) at 1. rewrite map_nth, zip3_nth by auto. cbn [fst].
    now rewrite combine_nth by lia.
Qed.

Lemma distinct_fun es i j x y : distinct es -> In ((i, j), x) es -> In ((i, j), y) es -> x = y.
Proof.
  induction es as [|[p v] es IH]; intros D Hx Hy; [destruct Hx|].
  apply NoDup_cons_iff in D as [D1 D2].
  destruct Hx as [Ex|Hx], Hy as [Ey|Hy].
  - congruence.
  - exfalso. apply D1. inversion Ex; subst. apply in_map_iff. exists ((i, j), y). auto.
  - exfalso. apply D1. inversion Ey; subst. apply in_map_iff. exists ((i, j), x). auto.
  - eauto.
Qed.
Lemma reads_fun es i j x y : distinct es -> reads es i j x -> reads es i j y -> x = y.
Proof.
  intros D [Hx|[Nx ->]] [Hy|[Ny ->]]; auto.
  - eapply distinct_fun; eauto.
  - exfalso. eapply Ny; eauto.
  - exfalso. eapply Nx; eauto.
Qed.
Lemma reads_perm es es' i j x : Permutation es es' -> reads es i j x -> reads es' i j x.
Proof.
  intros P [H|[H ->]]; [left; eapply Permutation_in; eauto|right].
  split; auto. intros v Hv. apply (H v). eapply Permutation_in; [symmetry|]; eauto.
Qed.
Lemma distinct_perm es es' : Permutation es es' -> distinct es -> distinct es'.
Proof. intros P. unfold distinct. apply Permutation_NoDup. now apply Permutation_map. Qed.

(** Distinctness by index. *)
Lemma zip3_distinct rows cols (vals : list T) :
  length rows = length vals -> length cols = length vals ->
  (distinct (zip3 rows cols vals) <->
   forall a b, a < length vals -> b < length vals ->
     nth a rows 0 = nth b rows 0 -> nth a cols 0 = nth b cols 0 -> a = b).
Proof.
  intros H1 H2. unfold distinct. rewrite zip3_map_fst by auto.
  rewrite (NoDup_nth _ (0, 0)), combine_length. split; intros H a b Ha Hb.
  - intros E1 E2. apply (H a b); try lia. rewrite !combine_nth by lia. congruence.
  - rewrite !combine_nth by lia. intros [= E1 E2]. apply H; auto; lia.
Qed.

(** Order by index. *)
Lemma in_order_zip3 R rows cols (vals : list T) :
  length rows = length vals -> length cols = length vals ->
  (in_order R (map fst (zip3 rows cols vals)) <->
   forall a b, a < b -> b < length vals -> R (nth a rows 0, nth a cols 0) (nth b rows 0, nth b cols 0)).
Proof.
  intros H1 H2. rewrite zip3_map_fst by auto. unfold in_order. rewrite combine_length.
  split; intros H a b Hab Hb; specialize (H a b Hab ltac:(lia)); rewrite !combine_nth in * by lia; exact H.
Qed.

(** ** Sorting *)
Lemma gather_ok {S X} (l : list X) d ids (s : S) :
  (forall k, In k ids -> k < length l) -> gather l ids s = Ok (map (fun k => nth k l d) ids) s.
Proof.
  induction ids as [|k ids IH]; intros H; [reflexivity|]. cbn [gather map]. unfold bind at 1.
  unfold vec_at. rewrite (nth_error_nth' l d) by (apply H; left; auto). cbn [ret]. unfold bind.
  rewrite IH by (intros; apply H; right; auto). reflexivity.
Qed.

Lemma map_nth_seq_id {X} (l : list X) d : map (fun k => nth k l d) (seq 0 (length l)) = l.
Proof.
  apply (list_ext_nth d); [now rewrite map_length, seq_length|].
  intros k Hk. rewrite map_length, seq_length in Hk. now rewrite nth_map_seq.
Qed.

Lemma coo_sort_ok {S} srt A (s : S) :
  sort_contract srt -> length (crow A) = length (cval A) -> length (ccol A) = length (cval A) ->
  fits_u32 (length (cval A)) = true ->
  exists A', coo_sort srt A s = Ok A' s /\ coo_wf A' /\ Permutation (coo_entries A') (coo_entries A).
Proof.
  intros HS Hr Hc Hf. unfold coo_sort. rewrite Hf.
  destruct (HS _ (seq 0 (length (cval A))) (pos_less_weak (crow A) (ccol A))) as [P O].
  set (ids := srt (pos_less (crow A) (ccol A)) (seq 0 (length (cval A)))) in *.
  assert (Hin : forall k, In k ids -> k < length (cval A)).
  { intros k Hk. apply (Permutation_in _ P) in Hk. apply in_seq in Hk. lia. }
  assert (Hlen : length ids = length (cval A)) by (rewrite (Permutation_length P), seq_length; auto).
  unfold bind. rewrite (gather_ok (cval A) zero) by auto.
  rewrite (gather_ok (crow A) 0) by (intros; rewrite Hr; auto).
  rewrite (gather_ok (ccol A) 0) by (intros; rewrite Hc; auto).
  eexists. split; [reflexivity|].
  assert (En : forall X (l : list X) d k, k < length ids -> nth k (map (fun k => nth k l d) ids) d = nth (nth k ids 0) l d).
  { intros X l d k Hk. rewrite (nth_indep _ d (nth 0 l d)) by (now rewrite map_length).
    now rewrite (map_nth (fun k => nth k l d)). }
  split.
  - unfold coo_wf, coo_entries. cbn [crow ccol cval]. rewrite !map_length. split; auto. split; auto.
    apply in_order_zip3; rewrite ?map_length; auto. intros a b Hab Hb. rewrite !En by lia.
    rewrite seq_length in O. specialize (O a b Hab ltac:(lia)). unfold pos_less in O.
    unfold pos_le; cbn [fst snd].
    destruct (Nat.eqb_spec (nth (nth b ids 0) (crow A) 0) (nth (nth a ids 0) (crow A) 0)); rewrite ?Nat.ltb_ge in O; lia.
  - transitivity (map (fun k => nth k (coo_entries A) ((0, 0), zero)) ids).
    + match goal with |- Permutation ?x ?y => replace x with y; [reflexivity|] end.
      apply (list_ext_nth ((0, 0), zero)).
      * unfold coo_entries at 2. cbn [crow ccol cval]. rewrite zip3_length; now rewrite !map_length.
      * intros k Hk. rewrite map_length in Hk. rewrite En by auto.
        unfold coo_entries. cbn [crow ccol cval]. rewrite zip3_nth by auto.
        rewrite zip3_nth by (now rewrite !map_length). now rewrite !En.
    + rewrite P. match goal with |- Permutation ?x ?y => replace x with y; [reflexivity|] end.
      rewrite <- (map_nth_seq_id (coo_entries A) ((0, 0), zero)) at 1.
      unfold coo_entries at 2. now rewrite zip3_length.
Qed.

(** ** Reading a COO matrix *)
Definition at_pos A i j k := Nat.eqb (nth k (crow A) 0) i && Nat.eqb (nth k (ccol A) 0) j.

Lemma coo_find_ok {S} A i j (s : S) :
  length (crow A) = length (cval A) -> length (ccol A) = length (cval A) -> fits_u32 (length (cval A)) = true ->
  coo_find A i j s = Ok (find (at_pos A i j) (seq 0 (length (cval A)))) s.
Proof.
  intros Hr Hc Hf. unfold coo_find. rewrite Hf. unfold coo_scan.
  apply (search_none (at_pos A i j)). intros c f Hin. apply in_seq in Hin.
  destruct f as [k|]; [reflexivity|]. unfold bind, at_pos.
  rewrite (vec_at_d _ 0) by lia. cbn [ret]. destruct (Nat.eqb _ i); [|reflexivity].
  rewrite (vec_at_d _ 0) by lia. cbn [ret andb]. destruct (Nat.eqb _ j); reflexivity.
Qed.
Lemma coo_find_many {S} A i j (s : S) :
  length (crow A) = length (cval A) -> length (ccol A) = length (cval A) -> fits_u32 (length (cval A)) = false ->
  coo_find A i j s = match find (at_pos A i j) (seq 0 (Z.to_nat (2 ^ 32))) with Some k => Ok (Some k) s | None => Diverge end.
Proof.
  intros Hr Hc Hf. unfold coo_find. rewrite Hf. unfold fits_u32 in Hf. apply Z.ltb_ge in Hf.
  assert (Hn : Z.to_nat (2 ^ 32) <= length (cval A)) by lia. clear Hf. revert Hn. generalize (Z.to_nat (2 ^ 32)). intros n Hn.
  unfold bind at 1, coo_scan. rewrite (search_none (at_pos A i j)); [destruct (find _ _); reflexivity|]. intros c f Hin. apply in_seq in Hin.
  destruct f as [k|]; [reflexivity|]. unfold bind, at_pos.
  rewrite (vec_at_d _ 0) by lia. cbn [ret]. destruct (Nat.eqb _ i); [|reflexivity].
  rewrite (vec_at_d _ 0) by lia. cbn [ret andb]. destruct (Nat.eqb _ j); reflexivity.
Qed.
Lemma at_pos_true A i j k : at_pos A i j k = true <-> nth k (crow A) 0 = i /\ nth k (ccol A) 0 = j.
Proof. unfold at_pos. now rewrite andb_true_iff, !Nat.eqb_eq. Qed.
Lemma at_pos_false A i j k : at_pos A i j k = false <-> ~ (nth k (crow A) 0 = i /\ nth k (ccol A) 0 = j).
Proof. rewrite <- at_pos_true. destruct (at_pos A i j k); split; congruence. Qed.

Lemma coo_get_ok {S} A i j (s : S) :
  length (crow A) = length (cval A) -> length (ccol A) = length (cval A) -> fits_u32 (length (cval A)) = true ->
  exists x, coo_get A i j s = Ok x s /\ reads (coo_entries A) i j x.
Proof.
  intros Hr Hc Hf. unfold coo_get, bind. rewrite coo_find_ok by auto.
  destruct (find _ _) as [k|] eqn:E.
  - destruct (find_seq_some _ _ _ _ E) as (H1 & H2 & _). apply at_pos_true in H2.
    rewrite (vec_at_d _ zero) by lia. eexists. split; [reflexivity|]. left. apply zip3_In; auto.
    exists k. split; [lia|]. tauto.
  - eexists. split; [reflexivity|]. right. split; auto. intros v Hv. apply zip3_In in Hv; auto.
    destruct Hv as (k & Hk & H1 & H2 & _). pose proof (find_seq_none _ _ _ E k ltac:(lia)) as F.
    apply at_pos_false in F. tauto.
Qed.

End Sparse.
