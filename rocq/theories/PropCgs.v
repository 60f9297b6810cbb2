(** * Property C50: Gram-Schmidt orthogonalisation *)
From Coq Require Import Lia Reals Lra QArith Qcanon.
From Verif Require Import Base Scalar BaseLemmas Spec Sums SpecMat ModelVec ProofVec ProofVecProp ModelIter RealVec ProofCgs.
Local Open Scope R_scope.

(** Linear combinations, independence and span of the first m vectors of a family in R^n. *)
Definition comb (m : nat) (c : nat -> R) (V : nat -> nat -> R) (i : nat) : R := bsum m (fun k => c k * V k i).
Definition independent (n m : nat) (V : nat -> nat -> R) : Prop :=
  forall c, (forall i, (i < n)%nat -> comb m c V i = 0) -> forall k, (k < m)%nat -> c k = 0.
Definition inspan (n m : nat) (V : nat -> nat -> R) (x : nat -> R) : Prop :=
  exists c, forall i, (i < n)%nat -> x i = comb m c V i.
(** The vector is not zero. *)
Definition nonzero (n : nat) (x : nat -> R) : Prop := exists i, (i < n)%nat /\ x i <> 0.

Lemma comb_add n m V x y : inspan n m V x -> inspan n m V y -> inspan n m V (fun i => x i + y i).
Proof.
  intros [c Hc] [d Hd]. exists (fun k => c k + d k). intros i Hi. rewrite Hc, Hd by exact Hi. unfold comb.
  change (bsum m (fun k => (c k * V k i)%R) + bsum m (fun l => (d l * V l i)%R))%R with
    (bsum m (fun k => (c k * V k i)%R) + bsum m (fun k => (d k * V k i)%R))%sc.
  rewrite <- bsum_add. apply bsum_ext. intros; cbn; ring.
Qed.
Lemma comb_scal n m V a x : inspan n m V x -> inspan n m V (fun i => a * x i).
Proof.
  intros [c Hc]. exists (fun k => a * c k). intros i Hi. rewrite Hc by exact Hi. unfold comb.
  change (a * bsum m (fun k => (c k * V k i)%R))%R with (a * bsum m (fun k => (c k * V k i)%R))%sc.
  rewrite <- bsum_scal_l. apply bsum_ext. intros; cbn; ring.
Qed.
Lemma inspan_ext n m V x y : (forall i, (i < n)%nat -> x i = y i) -> inspan n m V x -> inspan n m V y.
Proof. intros H [c Hc]. exists c. intros i Hi. rewrite <- H by exact Hi. auto. Qed.
Lemma inspan_S n m V x : inspan n (S m) V x <->
  exists a y, inspan n m V y /\ forall i, (i < n)%nat -> x i = y i + a * V m i.
Proof.
  split.
  - intros [c Hc]. exists (c m), (comb m c V). split; [exists c; auto|]. exact Hc.
  - intros (a & y & [c Hc] & H). exists (fun k => if Nat.eqb k m then a else c k). intros i Hi.
    rewrite H by exact Hi. unfold comb. cbn [bsum]. rewrite Nat.eqb_refl. rewrite Hc by exact Hi. cbn. f_equal.
    apply bsum_ext. intros k Hk. destruct (Nat.eqb_spec k m); [lia|reflexivity].
Qed.

Lemma dotp_comm n (x y : nat -> R) : dotp n x y = dotp n y x.
Proof. apply bsum_ext. intros; cbn; ring. Qed.
Lemma dotp_comb n m c V (x : nat -> R) : dotp n x (comb m c V) = bsum m (fun k => c k * dotp n x (V k)).
Proof.
  unfold dotp, comb.
  rewrite (bsum_ext n _ (fun i => bsum m (fun k => (c k * (x i * V k i))%R))).
  - rewrite bsum_swap. apply bsum_ext. intros k _. exact (bsum_scal_l n (c k) (fun i => (x i * V k i)%R)).
  - intros i _. change (x i * bsum m (fun k => (c k * V k i)%R) = bsum m (fun k => (c k * (x i * V k i))%R))%sc.
    rewrite <- bsum_scal_l. apply bsum_ext. intros; cbn; ring.
Qed.
Lemma dotp_sub n (x y z : nat -> R) : dotp n x (fun i => y i - z i) = dotp n x y - dotp n x z.
Proof. unfold dotp. change Rminus with (sub (T := R)). rewrite <- bsum_sub. apply bsum_ext. intros; cbn; ring. Qed.
Lemma dotp_ext_r n (x y z : nat -> R) : (forall i, (i < n)%nat -> y i = z i) -> dotp n x y = dotp n x z.
Proof. intros H. apply bsum_ext. intros. now rewrite H. Qed.
Lemma nonzero_dotp n x : nonzero n x -> dotp n x x <> 0.
Proof. intros (i & Hi & Hx) H. apply Hx. exact (dotp_self_zero n x H i Hi). Qed.
Lemma not_nonzero n x : ~ nonzero n x -> forall i, (i < n)%nat -> x i = 0.
Proof. intros H i Hi. destruct (Req_dec (x i) 0) as [|N]; [assumption|]. exfalso; apply H. exists i; auto. Qed.

(** What classical Gram-Schmidt promises about the resulting family W for the given family V. *)
Definition proj_coef (n : nat) (w v : nat -> R) : R := dotp n w v / dotp n w w.
Definition gram_schmidt (n m : nat) (V W : nat -> nat -> R) : Prop :=
  forall k i, (k < m)%nat -> (i < n)%nat -> W k i = V k i - comb k (fun l => proj_coef n (W l) (V k)) W i.

Lemma gs_math n m V W : independent n m V -> gram_schmidt n m V W -> forall k, (k <= m)%nat ->
  (forall a b, (a < k)%nat -> (b < k)%nat -> a <> b -> dotp n (W a) (W b) = 0) /\
  (forall a, (a < k)%nat -> nonzero n (W a)) /\
  (forall x, inspan n k V x <-> inspan n k W x).
Proof.
  intros Hind Hgs. induction k as [|k IH]; intros Hk; [split; [lia|]; split; [lia|]; reflexivity|].
  destruct (IH ltac:(lia)) as (Ho & Hz & Hs). clear IH.
  set (cf := fun l => proj_coef n (W l) (V k)) in *.
  assert (HW : forall i, (i < n)%nat -> W k i = V k i - comb k cf W i) by (intros; apply Hgs; auto; lia).
  assert (Hspan : forall x, inspan n (S k) V x <-> inspan n (S k) W x).
  { intros x. rewrite !inspan_S. split.
    - intros (a & y & Hy & E). exists a, (fun i => y i + a * comb k cf W i). split.
      + apply comb_add; [apply Hs; exact Hy|]. apply comb_scal. exists cf; auto.
      + intros i Hi. rewrite E, HW by exact Hi. ring.
    - intros (a & y & Hy & E). exists a, (fun i => y i + (- a) * comb k cf W i). split.
      + apply Hs. apply comb_add; [exact Hy|]. apply comb_scal. exists cf; auto.
      + intros i Hi. rewrite E, HW by exact Hi. ring. }
  assert (Hnew : forall a, (a < k)%nat -> dotp n (W a) (W k) = 0).
  { intros a Ha. rewrite (dotp_ext_r n (W a) (W k) (fun i => V k i - comb k cf W i)) by exact HW.
    rewrite dotp_sub, dotp_comb.
    assert (E : bsum k (fun l => cf l * dotp n (W a) (W l)) = cf a * dotp n (W a) (W a)).
    { refine (bsum_single k (fun l => (cf l * dotp n (W a) (W l))%R) a Ha _).
      intros l Hl Hne. cbn. rewrite (Ho a l) by auto. ring. }
    rewrite E. unfold cf, proj_coef. field. apply nonzero_dotp. auto. }
  split; [|split; [|exact Hspan]].
  - intros a b Ha Hb Hne. destruct (Nat.eq_dec a k) as [->|], (Nat.eq_dec b k) as [->|]; try lia.
    + rewrite dotp_comm. apply Hnew. lia.
    + apply Hnew. lia.
    + apply Ho; lia.
  - intros a Ha. destruct (Nat.eq_dec a k) as [->|]; [|apply Hz; lia].
    assert (Hd : nonzero n (W k) \/ ~ nonzero n (W k)).
    { unfold nonzero. clear. induction n as [|n' IHn].
      - right. intros (i & Hi & _). lia.
      - destruct IHn as [(i & Hi & H)|H]; [left; exists i; split; [lia|auto]|].
        destruct (Req_dec (W k n') 0) as [E|E]; [|left; exists n'; auto].
        right. intros (i & Hi & Hx). destruct (Nat.eq_dec i n') as [->|]; [auto|]. apply H. exists i. split; [lia|auto]. }
    destruct Hd as [Hd|Hd]; [exact Hd|exfalso].
    pose proof (not_nonzero _ _ Hd) as H0.
    assert (Hin : inspan n k V (V k)).
    { apply Hs. exists cf. intros i Hi. specialize (H0 i Hi). rewrite HW in H0 by exact Hi. lra. }
    destruct Hin as [c Hc].
    specialize (Hind (fun l => if Nat.ltb l k then c l else if Nat.eqb l k then -1 else 0)).
    assert (E : -1 = 0); [|lra].
    replace (-1) with ((fun l => if Nat.ltb l k then c l else if Nat.eqb l k then -1 else 0) k)
      by (cbv beta; now rewrite Nat.ltb_irrefl, Nat.eqb_refl).
    apply Hind; [|lia]. intros i Hi. unfold comb.
    rewrite (bsum_trunc m (S k)); [|lia|].
    + cbn [bsum]. rewrite Nat.ltb_irrefl, Nat.eqb_refl.
      rewrite (bsum_ext k _ (fun l => (c l * V l i)%R)).
      * fold (comb k c V i). rewrite <- Hc by exact Hi. cbn. ring.
      * intros l Hl. destruct (Nat.ltb_spec l k); [reflexivity|lia].
    + intros l Hl. destruct (Nat.ltb_spec l k); [lia|]. destruct (Nat.eqb_spec l k); [lia|]. cbn; ring.
Qed.

Lemma cdot_dotp n (x y : nat -> R) : (0 < n)%nat -> cdot n x y = dotp n x y.
Proof. intros H. unfold cdot, dotp. now apply lsum_is_bsum. Qed.

Lemma gacc_gs n W v k i : (0 < n)%nat -> gacc n W v k i = v i - comb k (fun l => proj_coef n (W l) v) W i.
Proof.
  intros Hn. induction k as [|k IH]; cbn [gacc]; [unfold comb; cbn; ring|].
  rewrite IH, !cdot_dotp by exact Hn. unfold comb. cbn [bsum]. unfold proj_coef, Rdiv. cbn. unfold Rdiv. ring.
Qed.

(** On a linearly independent list of (distinct) vectors of equal size, [cgs] returns with pairwise
    orthogonal nonzero vectors; each prefix spans what it spanned before; the first vector is
    unchanged, and each is the given vector minus its projections on the previous results.
    Nothing else that was alive is touched. *)
Theorem C50_cgs : forall dbg vecs n (h : heap R), vecs <> [] -> NoDup vecs ->
  fits_u32 (length vecs) = true -> fits_u32 n = true ->
  (forall q, In q vecs -> (q < next h)%nat /\ len h q = n) ->
  let V k := rd h (nth k vecs 0%nat) in
  independent n (length vecs) V ->
  exists h', cgs dbg vecs h = Ok tt h' /\ let W k := rd h' (nth k vecs 0%nat) in
    (forall q, (q < next h)%nat -> ~ In q vecs -> mem h' q = mem h q) /\
    (forall q, In q vecs -> len h' q = n) /\
    (forall a b, (a < length vecs)%nat -> (b < length vecs)%nat -> a <> b -> dotp n (W a) (W b) = 0) /\
    (forall a, (a < length vecs)%nat -> nonzero n (W a)) /\
    (forall k x, (k <= length vecs)%nat -> inspan n k V x <-> inspan n k W x) /\
    mem h' (nth 0 vecs 0%nat) = mem h (nth 0 vecs 0%nat) /\
    (forall k i, (k < length vecs)%nat -> (i < n)%nat ->
      W k i = V k i - bsum k (fun l => dotp n (W l) (V k) / dotp n (W l) (W l) * W l i)).
Proof.
  intros dbg vecs n h Hne Hnd Hfm Hfn Hlive V Hind.
  assert (Hn : (0 < n)%nat).
  { destruct n as [|n]; [exfalso|lia]. assert (E : 1 = 0); [|lra].
    apply (Hind (fun _ => 1) ltac:(intros; lia) 0%nat). destruct vecs; [congruence|cbn; lia]. }
  destruct (post_ok _ _ _ (cgs_ok dbg vecs n h Hne Hnd Hfm Hfn Hn Hlive)) as ([] & h' & E & Hfr & Hnx & Hln & H0 & HR).
  exists h'. split; [exact E|]. intros W.
  assert (Hgs : gram_schmidt n (length vecs) V W).
  { intros k i Hk Hi. unfold W at 1, V. rewrite HR by auto. now rewrite gacc_gs by exact Hn. }
  destruct (gs_math n (length vecs) V W Hind Hgs (length vecs) (le_n _)) as (Ho & Hz & _).
  split; [exact Hfr|]. split. { intros q Hq. apply (In_nth _ _ 0%nat) in Hq. destruct Hq as (k & Hk & <-). auto. }
  split; [exact Ho|]. split; [exact Hz|]. split. { intros k x Hk. apply (gs_math n (length vecs) V W Hind Hgs k Hk). }
  split; [exact H0|]. exact Hgs.
Qed.

(** The same recurrence, bit for bit, for every scalar type (so also for binary64): the sums are
    accumulated from the left and the coefficient is (-<w_k,v_j>)/<w_k,w_k>. *)
Theorem C50_recurrence : forall {T} {Op : Ops T} dbg vecs n (h : heap T), vecs <> [] -> NoDup vecs ->
  fits_u32 (length vecs) = true -> fits_u32 n = true -> (0 < n)%nat ->
  (forall q, In q vecs -> (q < next h)%nat /\ len h q = n) ->
  exists h', cgs dbg vecs h = Ok tt h' /\
    (forall q, (q < next h)%nat -> ~ In q vecs -> mem h' q = mem h q) /\
    mem h' (nth 0 vecs 0%nat) = mem h (nth 0 vecs 0%nat) /\
    forall k i, (k < length vecs)%nat -> (i < n)%nat ->
      rd h' (nth k vecs 0%nat) i = gacc n (fun l => rd h' (nth l vecs 0%nat)) (rd h (nth k vecs 0%nat)) k i.
Proof.
  intros T Op dbg vecs n h Hne Hnd Hfm Hfn Hn Hlive.
  destruct (post_ok _ _ _ (cgs_ok dbg vecs n h Hne Hnd Hfm Hfn Hn Hlive)) as ([] & h' & E & Hfr & _ & _ & H0 & HR).
  exists h'. auto.
Qed.

(** Outside the contract. *)
Theorem C50_empty : forall {T} {Op : Ops T} dbg (h : heap T), cgs dbg [] h = UB.
Proof. reflexivity. Qed.

Theorem C50_mismatch : forall {T} {Op : Ops T} p0 p1 vecs (h : heap T), (p0 < next h)%nat -> (p1 < next h)%nat ->
  fits_u32 (S (S (length vecs))) = true -> len h p0 <> len h p1 ->
  cgs true (p0 :: p1 :: vecs) h = AssertFail /\ cgs false (p0 :: p1 :: vecs) h = Terminate.
Proof.
  intros T Op p0 p1 vecs h H0 H1 Hf Hl.
  assert (Hloop : forall (body : nat -> unit -> M (heap T) unit) a,
    for_u32 1 (length (p0 :: p1 :: vecs)) body a =
    bind (body 1%nat a) (loop (seq 2 (length vecs)) body)).
  { intros body a. unfold for_u32. change (length (p0 :: p1 :: vecs)) with (S (S (length vecs))).
    rewrite Hf. replace (S (S (length vecs)) - 1)%nat with (S (length vecs)) by lia. reflexivity. }
  assert (B : forall (A B : Type) (m : M (heap T) A) (f : A -> M (heap T) B) a h1 h2, m h1 = Ok a h2 -> bind m f h1 = f a h2)
    by (intros A B m f a h1 h2 E; unfold bind; now rewrite E).
  assert (Hd : forall h1, mem h1 p0 = mem h p0 -> dot_d p0 (next h) (halloc h (mem h p1)) = Terminate).
  { intros _ _. unfold dot_d, noexcept, bind, vsize, check_size.
    assert (Nat.eqb (length (mem (halloc h (mem h p1)) p0)) (length (mem (halloc h (mem h p1)) (next h))) = false) as ->; [|reflexivity].
    apply Nat.eqb_neq. rewrite mem_halloc_other by lia. rewrite mem_halloc_same. exact Hl. }
  split.
  - unfold cgs. erewrite B by reflexivity. erewrite B by reflexivity. rewrite Hloop.
    unfold bind at 1. erewrite B by reflexivity. erewrite B by reflexivity.
    apply Nat.eqb_neq in Hl. unfold len in Hl. rewrite Hl. reflexivity.
  - unfold cgs. erewrite B by reflexivity. erewrite B by reflexivity. rewrite Hloop.
    unfold bind at 1. erewrite B by reflexivity. erewrite B by reflexivity. erewrite B by reflexivity.
    erewrite B by reflexivity. erewrite B by reflexivity.
    assert (E1 : for_u32 0 1 = for_sz (S := heap T) (A := unit) 0 1) by reflexivity. rewrite E1. unfold for_sz. cbn [seq loop Nat.sub].
    unfold bind at 1. erewrite B by reflexivity. unfold bind at 1. match goal with |- context [dot_d ?a ?b ?c] => change (dot_d a b c) with (dot_d p0 (next h) (halloc h (mem h p1))) end. now rewrite (Hd h eq_refl).
Qed.

(** A non-trivial case: (1,1), (1,0) are independent and become (1,1), (1/2,-1/2). *)
Example C50_ex : let h := heap_of [[1; 1]; [1; 0]] in
  independent 2 (length [0; 1]%nat) (fun k => rd h (nth k [0; 1]%nat 0%nat)) /\ (forall q, In q [0; 1]%nat -> (q < next h)%nat /\ len h q = 2%nat).
Proof.
  split.
  - intros c H k Hk. pose proof (H 0%nat ltac:(lia)) as A. pose proof (H 1%nat ltac:(lia)) as B.
    unfold comb, rd in A, B. cbn in A, B. assert (k = 0 \/ k = 1)%nat as [->| ->] by (cbn in Hk; lia); lra.
  - intros q [<-|[<-|[]]]; cbn; auto with arith.
Qed.
Example C50_run : match cgs true [0; 1; 2]%nat (heap_of [[1; 1; 0]; [1; 0; 0]; [0; 0; Q2Qc 3]]%Qc) with
  | Ok _ h => Some (map (fun q => map this (mem h q)) [0; 1; 2]%nat) | _ => None end =
  Some [[1; 1; 0]; [1 # 2; - (1 # 2); 0]; [0; 0; 3]]%Q.
Proof. vm_compute. reflexivity. Qed.

Print Assumptions C50_cgs.
Print Assumptions C50_recurrence.
Print Assumptions C50_mismatch.
