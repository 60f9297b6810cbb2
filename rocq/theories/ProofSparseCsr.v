(** * CSR matrices: conversion, reads, writes, products *)
From Coq Require Import Permutation Ring.
From Verif Require Import Base Scalar BaseLemmas Spec Sums ModelVec ProofVec ModelMat SpecMat ProofMat
  ModelSparse SpecSparse ProofPacked ProofSparse ProofSparseAdd.
Local Open Scope nat_scope.

(** ** Row pointers *)
Lemma crs_loop_ok {S} rows n mx (s : S) :
  length rows = n -> (forall a b, a < b -> b < n -> nth a rows 0 <= nth b rows 0) ->
  (forall k, k < n -> nth k rows 0 <= mx) -> (exists k, k < n /\ nth k rows 0 = mx) ->
  forall fuel it i ptrs, fuel + i = mx + 1 -> length ptrs = i + 1 ->
  (forall m, m <= i -> row_start rows n m (nth m ptrs 0)) -> it = nth i ptrs 0 ->
  exists p, crs_loop fuel rows it i ptrs s = Ok p s /\ length p = mx + 2 /\
    forall m, m <= mx + 1 -> row_start rows n m (nth m p 0).
Proof.
  intros Hn Hs Hmx (km & Hkm & Ekm) fuel. induction fuel as [|f IH]; intros it i ptrs Hfi Hlen Hst ->.
  - assert (nth i ptrs 0 = n) as E.
    { destruct (Hst i ltac:(lia)) as [H1 H2]. destruct (Nat.eq_dec (nth i ptrs 0) n) as [|Hne]; auto.
      specialize (H2 (nth i ptrs 0) ltac:(lia)). specialize (Hmx (nth i ptrs 0) ltac:(lia)). lia. }
    cbn [crs_loop]. rewrite E, Hn, Nat.ltb_irrefl. exists ptrs. split; [reflexivity|]. split; [lia|].
    intros m Hm. apply Hst. lia.
  - assert (Hlt : nth i ptrs 0 < n).
    { destruct (Hst i ltac:(lia)) as [H1 H2]. destruct (Nat.eq_dec (nth i ptrs 0) n) as [E|]; [|lia].
      specialize (H2 km Hkm). lia. }
    cbn [crs_loop]. rewrite Hn. destruct (Nat.ltb_spec (nth i ptrs 0) n); [|lia].
    pose proof (ub_row_start rows n i (nth i ptrs 0) ltac:(lia) Hs (Hst i ltac:(lia))) as Hu.
    set (it' := upper_bound rows (nth i ptrs 0) n i) in *.
    apply IH.
    + lia.
    + rewrite app_length. cbn. lia.
    + intros m Hm. destruct (Nat.eq_dec m (i + 1)) as [->|].
      * rewrite app_nth2 by lia. replace (i + 1 - length ptrs) with 0 by lia. cbn. now replace (i + 1) with (Datatypes.S i) by lia.
      * rewrite app_nth1 by lia. apply Hst. lia.
    + rewrite app_nth2 by lia. replace (i + 1 - length ptrs) with 0 by lia. reflexivity.
Qed.

Lemma fold_max_In l x : In (fold_left Nat.max l x) (x :: l).
Proof.
  revert x; induction l as [|z l IH]; intros x; cbn [fold_left]; [left; auto|].
  destruct (IH (Nat.max x z)) as [E|E]; [|right; right; auto]. rewrite <- E.
  destruct (Nat.max_spec x z) as [[_ ->]|[_ ->]]; [right; left|left]; auto.
Qed.

Lemma flat_map_ext_in {X Y} (f g : X -> list Y) l : (forall x, In x l -> f x = g x) -> flat_map f l = flat_map g l.
Proof.
  induction l as [|x l IH]; intros H; cbn; auto. rewrite H by (left; auto). f_equal. apply IH. intros; apply H; right; auto.
Qed.
Lemma flat_map_map {X Y} (f : X -> Y) (g : nat -> list X) l : flat_map (fun i => map f (g i)) l = map f (flat_map g l).
Proof. induction l as [|x l IH]; cbn; auto. now rewrite IH, map_app. Qed.
Lemma concat_seqs (p : nat -> nat) n : p 0 = 0 -> (forall i, i < n -> p i <= p (i + 1)) ->
  flat_map (fun i => seq (p i) (p (i + 1) - p i)) (seq 0 n) = seq 0 (p n).
Proof.
  intros H0 Hm. induction n as [|n IH]; [cbn; now rewrite H0|].
  rewrite seq_S, flat_map_app, IH by auto. cbn [flat_map Nat.add]. rewrite app_nil_r.
  specialize (Hm n ltac:(lia)). replace (n + 1) with (S n) in * by lia.
  replace (p (S n)) with (p n + (p (S n) - p n)) at 2 by lia. now rewrite seq_app.
Qed.

Lemma seq_off a c : seq a c = map (fun t => a + t) (seq 0 c).
Proof.
  revert a. induction c as [|c IH]; intros a; [reflexivity|]. cbn [seq map]. rewrite Nat.add_0_r. f_equal.
  rewrite IH, <- seq_shift, map_map. apply map_ext. intros. lia.
Qed.

Section Csr.
Context {T : Type} {Op : Ops T}.
Implicit Types (A : csr T) (es : triples T).

Lemma ptr_le A n i : csr_wf A n -> i <= n -> nth i (sptr A) 0 <= length (sval A).
Proof.
  intros (_ & _ & _ & Hn & Hm) Hi. rewrite <- Hn.
  assert (forall d, i + d <= n -> nth i (sptr A) 0 <= nth (i + d) (sptr A) 0) as G.
  { induction d as [|d IH]; intros Hd; [now rewrite Nat.add_0_r|].
    etransitivity; [apply IH; lia|]. specialize (Hm (i + d) ltac:(lia)). now replace (i + S d) with (i + d + 1) by lia. }
  specialize (G (n - i) ltac:(lia)). now replace (i + (n - i)) with n in G by lia.
Qed.

Lemma csr_row_In A i i' j x : In ((i', j), x) (csr_row A i) <-> i' = i /\
  exists k, nth i (sptr A) 0 <= k < nth (i + 1) (sptr A) 0 /\ nth k (scol A) 0 = j /\ nth k (sval A) zero = x.
Proof.
  unfold csr_row. rewrite in_map_iff. split.
  - intros (k & E & Hk). apply in_seq in Hk. injection E as <- <- <-. split; auto. exists k. split; [|auto]. lia.
  - intros (-> & k & Hk & <- & <-). exists k. split; auto. apply in_seq. lia.
Qed.
Lemma csr_entries_In A n i j x : i < n -> (In ((i, j), x) (csr_entries A n) <-> In ((i, j), x) (csr_row A i)).
Proof.
  intros Hi. unfold csr_entries. rewrite in_flat_map. split.
  - intros (i' & _ & H). apply csr_row_In in H as [-> H]. apply csr_row_In. auto.
  - intros H. exists i. split; auto. apply in_seq. lia.
Qed.
Lemma csr_entries_row A n i j x : In ((i, j), x) (csr_entries A n) -> i < n.
Proof. unfold csr_entries. rewrite in_flat_map. intros (i' & Hin & H). apply csr_row_In in H as [-> _]. apply in_seq in Hin. lia. Qed.
Lemma csr_reads_row A n i j x : i < n -> (reads (csr_entries A n) i j x <-> reads (csr_row A i) i j x).
Proof.
  intros Hi. unfold reads. rewrite csr_entries_In by auto. split; (intros [H|[H ->]]; [left; auto|right; split; auto]).
  - intros v. rewrite <- (csr_entries_In A n) by auto. apply H.
  - intros v. rewrite csr_entries_In by auto. apply H.
Qed.

Lemma csr_entries_length A n : csr_wf A n -> length (csr_entries A n) = length (sval A).
Proof.
  intros (H1 & H2 & H3 & H4 & H5). unfold csr_entries.
  assert (forall m, m <= n -> length (flat_map (csr_row A) (seq 0 m)) = nth m (sptr A) 0) as G.
  { induction m as [|m IH]; intros Hm; [cbn; now rewrite H3|].
    rewrite seq_S, flat_map_app, app_length, IH by lia. cbn [flat_map Nat.add]. rewrite app_nil_r.
    unfold csr_row. rewrite map_length, seq_length. specialize (H5 m ltac:(lia)). replace (m + 1) with (S m) in * by lia. lia. }
  rewrite G by lia. exact H4.
Qed.

Lemma csr_find_ok {S} A n i j (s : S) : csr_wf A n -> i < n ->
  csr_find A i j s = Ok (find (fun k => Nat.eqb (nth k (scol A) 0) j)
    (seq (nth i (sptr A) 0) (nth (i + 1) (sptr A) 0 - nth i (sptr A) 0))) s.
Proof.
  intros W Hi. pose proof W as (H1 & H2 & H3 & H4 & H5). pose proof (ptr_le A n (i + 1) W ltac:(lia)) as Hle.
  unfold csr_find. unfold bind at 1. rewrite (vec_at_d _ 0) by lia. unfold bind at 1. rewrite (vec_at_d _ 0) by lia.
  specialize (H5 i Hi). destruct (Nat.ltb_spec (nth (i + 1) (sptr A) 0) (nth i (sptr A) 0)); [lia|].
  apply search_none. intros c f Hin. apply in_seq in Hin. destruct f as [k|]; [reflexivity|].
  unfold bind. rewrite (vec_at_d _ 0) by lia. destruct (Nat.eqb _ j); reflexivity.
Qed.

Lemma csr_get_ok {S} A n i j (s : S) : csr_wf A n -> i < n ->
  exists x, csr_get A i j s = Ok x s /\ reads (csr_entries A n) i j x.
Proof.
  intros W Hi. pose proof (ptr_le A n (i + 1) W ltac:(lia)) as Hle. pose proof W as (H1 & H2 & H3 & H4 & H5).
  unfold csr_get, bind. rewrite (csr_find_ok A n) by auto.
  destruct (find _ _) as [k|] eqn:E.
  - apply find_seq_some in E. destruct E as (Hk & Hp & _). apply Nat.eqb_eq in Hp.
    rewrite (vec_at_d _ zero) by lia. eexists. split; [reflexivity|]. apply csr_reads_row; auto.
    left. apply csr_row_In. split; auto. exists k. split; [lia|auto].
  - eexists. split; [reflexivity|]. apply csr_reads_row; auto. right. split; auto.
    intros v Hv. apply csr_row_In in Hv as (_ & k & Hk & Ec & _).
    pose proof (find_seq_none _ _ _ E k ltac:(lia)) as F. cbv beta in F. apply Nat.eqb_neq in F. auto.
Qed.

(** ** COO to CSR *)
Lemma csr_of_coo_ok {S} (A : coo T) (s : S) : coo_wf A -> 0 < length (cval A) ->
  exists C n, csr_of_coo A s = Ok C s /\ csr_wf C n /\ csr_entries C n = coo_entries A /\
    sval C = cval A /\ scol C = ccol A /\ n = fold_left Nat.max (crow A) 0 + 1.
Proof.
  intros (Hr & Hc & Ho) Hpos. unfold csr_of_coo, noexcept, convert_coo_crs.
  set (mx := fold_left Nat.max (crow A) 0). set (n := length (cval A)) in *.
  assert (Hrs : forall a b, a < b -> b < n -> nth a (crow A) 0 <= nth b (crow A) 0).
  { intros a b Hab Hb. unfold coo_entries in Ho. rewrite in_order_zip3 in Ho by auto. specialize (Ho a b Hab Hb).
    unfold pos_le in Ho. cbn in Ho. lia. }
  assert (Hmx : forall k, k < n -> nth k (crow A) 0 <= mx).
  { intros k Hk. apply max_elem_fold. right. apply nth_In. lia. }
  assert (Hex : exists k, k < n /\ nth k (crow A) 0 = mx).
  { destruct (fold_max_In (crow A) 0) as [E|E].
    - exists 0. split; auto. specialize (Hmx 0 Hpos). unfold mx in *. lia.
    - destruct (In_nth _ _ 0 E) as (k & Hk & Ek). exists k. split; [lia|auto]. }
  assert (R0 : row_start (crow A) n 0 0) by (split; [lia|intros; lia]).
  destruct (crs_loop_ok (crow A) n mx s ltac:(lia) Hrs Hmx Hex (mx + 1) 0 0 [0] ltac:(lia) ltac:(reflexivity)) as (p & Ep & Lp & Hp).
  { intros m Hm. assert (m = 0) as -> by lia. exact R0. }
  { reflexivity. }
  unfold bind. rewrite Ep. exists (mkCsr (cval A) p (ccol A)), (mx + 1). split; [reflexivity|].
  assert (W : csr_wf (mkCsr (cval A) p (ccol A)) (mx + 1)).
  { unfold csr_wf. cbn [scol sval sptr]. split; [lia|]. split; [lia|]. split.
    - apply (row_start_fun (crow A) n 0); auto. apply Hp. lia.
    - split.
      + apply (row_start_fun (crow A) n (mx + 1)); [apply Hp; lia|]. split; [lia|]. intros k Hk. specialize (Hmx k Hk). lia.
      + intros i Hi. pose proof (Hp i ltac:(lia)) as [P1 P2]. pose proof (Hp (i + 1) ltac:(lia)) as [P3 P4].
        destruct (Nat.le_gt_cases (nth i p 0) (nth (i + 1) p 0)) as [|Hgt]; auto.
        specialize (P2 (nth (i + 1) p 0) ltac:(lia)). specialize (P4 (nth (i + 1) p 0) ltac:(lia)). lia. }
  split; auto. split; [|auto].
  unfold csr_entries. rewrite (flat_map_ext_in _ (fun i => map (fun k => nth k (coo_entries A) ((0, 0), zero))
     (seq (nth i p 0) (nth (i + 1) p 0 - nth i p 0)))).
  - rewrite flat_map_map. destruct W as (_ & _ & W3 & W4 & W5). cbn [sptr sval] in *.
    rewrite (concat_seqs (fun i => nth i p 0)) by auto. rewrite W4.
    transitivity (map (fun k => nth k (coo_entries A) ((0, 0), zero)) (seq 0 (length (coo_entries A)))).
    + unfold coo_entries at 3. now rewrite zip3_length.
    + apply map_nth_seq_id.
  - intros i Hi. apply in_seq in Hi. unfold csr_row. cbn [sptr scol sval]. apply map_ext_in.
    intros k Hk. apply in_seq in Hk. unfold coo_entries. rewrite zip3_nth by auto.
    pose proof (Hp i ltac:(lia)) as [P1 P2]. pose proof (Hp (i + 1) ltac:(lia)) as [P3 P4].
    specialize (P2 k ltac:(lia)). specialize (P4 k ltac:(lia)). do 2 f_equal. lia.
Qed.

(** ** Matrix-vector product *)

Definition spmv_val h A alpha x beta y i : T :=
  fsum (nth (i + 1) (sptr A) 0 - nth i (sptr A) 0) (mul beta (rd h y i))
    (fun t => mul (mul alpha (nth (nth i (sptr A) 0 + t) (sval A) zero))
                  (rd h x (nth (nth i (sptr A) 0 + t) (scol A) 0))).

Lemma sp_rows n A alpha x beta y h :
  csr_wf A n -> fits_u32 n = true -> (forall c, In c (scol A) -> c < len h x) -> n <= len h y -> x <> y ->
  post (sp_mul_core n (scol A) (sptr A) alpha (sval A) x beta y) h
    (fun r h' => r = y /\ wrote h h' y n (spmv_val h A alpha x beta y)).
Proof.
  intros W Hf Hx Hy Nxy. unfold sp_mul_core. pstep. pstep.
  eapply (post_for_u32 (fun k _ h' => wrote h h' y k (spmv_val h A alpha x beta y)));
    [exact Hf|lia|apply wrote0| |intros; pstep; auto].
  intros i [] h1 Hi H1. pose proof W as (C1 & C2 & C3 & C4 & C5).
  pose proof (ptr_le A n (i + 1) W ltac:(lia)) as Hle. specialize (C5 i ltac:(lia)).
  assert (Hl : forall q, len h1 q = len h q) by (intros q; apply (wrote_len _ _ _ _ _ q H1)).
  pstep. apply post_load; [rewrite Hl; lia|]. pstep. apply post_store; [rewrite Hl; lia|].
  pstep. apply (post_vec_at _ _ _ 0); [lia|]. pstep. apply (post_vec_at _ _ _ 0); [lia|].
  set (a := nth i (sptr A) 0) in *. set (b := nth (i + 1) (sptr A) 0) in *.
  set (g := fun t => mul (mul alpha (nth (a + t) (sval A) zero)) (rd h x (nth (a + t) (scol A) 0))).
  eapply (post_for_sz (fun k _ h2 => upd1 h1 h2 y i (fsum (k - a) (mul beta (rd h1 y i)) g))).
  - lia.
  - rewrite Nat.sub_diag. cbn [fsum]. apply upd1_hset. rewrite Hl; lia.
  - intros k [] h2 Hk H2.
    assert (Hl2 : forall q, len h2 q = len h q) by (intros q; rewrite (upd1_len _ _ _ _ _ q H2); apply Hl).
    pstep. apply (post_vec_at _ _ _ zero); [lia|]. pstep. apply (post_vec_at _ _ _ 0); [lia|].
    pstep. apply post_load; [rewrite Hl2; apply Hx, nth_In; lia|]. pstep. apply post_load; [rewrite Hl2; lia|].
    apply post_store; [rewrite Hl2; lia|].
    rewrite (upd1_same _ _ _ _ _ H2), (upd1_other _ _ _ _ _ x _ H2), (wrote_other _ _ _ _ _ x _ H1) by auto.
    replace (S k - a) with (S (k - a)) by lia. cbn [fsum].
    eapply upd1_trans; [exact H2|]. 
    assert (Eg : g (k - a) = mul (mul alpha (nth k (sval A) zero)) (rd h x (nth k (scol A) 0)))
      by (unfold g; now replace (a + (k - a)) with k by lia).
    rewrite Eg. apply upd1_hset. rewrite Hl2. lia.
  - intros [] h2 H2. eapply wrote_step; [exact H1|]. unfold spmv_val. fold a b. fold g.
    rewrite <- (wrote_later _ _ _ _ _ y i H1) by lia. exact H2.
Qed.

(** ** Sums over a row *)
Section RingSums.
Context {R : IsRing T Op}.
Add Ring Tring : (ring_th (IsRing := R)).
Local Open Scope sc_scope.

(** Sum of the values stored at (i,j), counted with multiplicity. *)
Definition total es (i j : nat) : T :=
  lsum_list (map (fun e => if Nat.eqb (fst (fst e)) i && Nat.eqb (snd (fst e)) j then snd e else zero) es).

Lemma total_app es1 es2 i j : total (es1 ++ es2) i j = total es1 i j + total es2 i j.
Proof. unfold total. now rewrite map_app, lsum_app. Qed.
Lemma total_none es i j : (forall v, ~ In ((i, j), v) es) -> total es i j = zero.
Proof.
  unfold total. induction es as [|[[i' j'] v] es IH]; intros H; cbn; [reflexivity|].
  rewrite IH by (intros w Hw; apply (H w); right; auto).
  destruct (Nat.eqb_spec i' i), (Nat.eqb_spec j' j); subst; cbn; try ring.
  exfalso. apply (H v). left; auto.
Qed.
Lemma total_reads es i j x : distinct es -> reads es i j x -> total es i j = x.
Proof.
  intros D [H|[H ->]]; [|now apply total_none].
  induction es as [|[[i' j'] v] es IH]; [destruct H|].
  apply NoDup_cons_iff in D as [D1 D2]. change (((i', j'), v) :: es) with ([((i', j'), v)] ++ es). rewrite total_app.
  destruct H as [E|H].
  - inversion E; subst. rewrite (total_none es).
    + unfold total. cbn. rewrite !Nat.eqb_refl. cbn. ring.
    + intros w Hw. apply D1. apply in_map_iff. exists ((i, j), w). auto.
  - rewrite (IH D2 H). unfold total. cbn.
    destruct (Nat.eqb_spec i' i), (Nat.eqb_spec j' j); subst; cbn; try ring.
    exfalso. apply D1. apply in_map_iff. exists ((i, j), x). auto.
Qed.

Lemma lsum_by_col m (i : nat) (x : nat -> T) es :
  (forall e, In e es -> fst (fst e) = i /\ snd (fst e) < m)%nat ->
  lsum_list (map (fun e => snd e * x (snd (fst e))) es) = bsum m (fun j => total es i j * x j).
Proof.
  induction es as [|[[i' j'] v] es IH]; intros H.
  - cbn. symmetry. apply bsum_zero. intros. unfold total. cbn. ring.
  - cbn [map lsum_list fst snd]. rewrite IH by (intros; apply H; right; auto).
    destruct (H ((i', j'), v) (or_introl eq_refl)) as [E Hj]. cbn in E, Hj. subst i'.
    rewrite (bsum_ext m (fun j => total (((i, j'), v) :: es) i j * x j)
       (fun j => (if Nat.eqb j' j then v * x j else zero) + total es i j * x j)).
    + rewrite bsum_add. rewrite (bsum_single m (fun j => if Nat.eqb j' j then v * x j else zero) j').
      * now rewrite Nat.eqb_refl.
      * exact Hj.
      * intros k _ Hk. destruct (Nat.eqb_spec j' k); [congruence|auto].
    + intros j Hjm. unfold total. cbn. rewrite Nat.eqb_refl. cbn. destruct (Nat.eqb j' j); ring.
Qed.

Lemma fsum_scaled n a c (f : nat -> T) : fsum n a (fun t => c * f t) = a + c * bsum n f.
Proof. rewrite fsum_bsum, bsum_scal_l. reflexivity. Qed.

Lemma total_row A n i j : csr_wf A n -> (i < n)%nat -> total (csr_row A i) i j = total (csr_entries A n) i j.
Proof.
  intros _ Hi. unfold csr_entries.
  assert (G : forall l, NoDup l -> total (flat_map (csr_row A) l) i j = if existsb (Nat.eqb i) l then total (csr_row A i) i j else zero).
  { induction l as [|k l IH]; intros ND; cbn [flat_map existsb]; [unfold total; reflexivity|].
    apply NoDup_cons_iff in ND as [N1 N2]. rewrite total_app, IH by auto. destruct (Nat.eqb_spec i k) as [->|Hne]; cbn [orb].
    - assert (existsb (Nat.eqb k) l = false) as ->.
      { destruct (existsb (Nat.eqb k) l) eqn:E; auto. apply existsb_exists in E as (k' & Hk' & E). apply Nat.eqb_eq in E. subst. contradiction. }
      ring.
    - rewrite (total_none (csr_row A k)).
      + ring.
      + intros v Hv. apply csr_row_In in Hv as [E _]. congruence. }
  rewrite G by apply seq_NoDup. replace (existsb (Nat.eqb i) (seq 0 n)) with true; auto. symmetry.
  apply existsb_exists. exists i. split; [apply in_seq; lia|apply Nat.eqb_refl].
Qed.

(** The kernel's accumulation, as a mathematical sum. *)
Lemma spmv_val_sum h A n m alpha x beta y i :
  csr_wf A n -> (i < n)%nat -> (forall c, In c (scol A) -> (c < m)%nat) ->
  spmv_val h A alpha x beta y i =
  alpha * mvmul m (total (csr_entries A n)) (rd h x) i + beta * rd h y i.
Proof.
  intros W Hi Hc. unfold spmv_val. set (a := nth i (sptr A) 0%nat). set (c := (nth (i + 1) (sptr A) 0 - a)%nat).
  rewrite (fsum_ext _ _ _ (fun t => alpha * (nth (a + t) (sval A) zero * rd h x (nth (a + t) (scol A) 0%nat)))) by (intros; ring).
  rewrite fsum_scaled.
  assert (E : bsum c (fun t => nth (a + t) (sval A) zero * rd h x (nth (a + t) (scol A) 0%nat)) = mvmul m (total (csr_entries A n)) (rd h x) i).
  { unfold mvmul. rewrite (bsum_ext m _ (fun j => total (csr_row A i) i j * rd h x j)) by (intros; now rewrite (total_row A n)).
    rewrite <- lsum_by_col.
    - unfold csr_row. fold a c. rewrite map_map. cbn [fst snd]. rewrite <- lsum_bsum.
      now rewrite (seq_off a c), map_map.
    - intros [[i' j'] v] He. apply csr_row_In in He as [-> (k & Hk & <- & _)]. cbn. split; auto. apply Hc, nth_In.
      pose proof W as (C1 & _). pose proof (ptr_le A n (i + 1) W ltac:(lia)). lia. }
  rewrite E. ring.
Qed.
End RingSums.
End Csr.
