(** * Proofs about the dense matrix API *)
From Coq Require Import Ring Field.
From Verif Require Import Base Scalar BaseLemmas Spec Sums ModelVec ModelMat SpecMat ProofVec ProofMat.
Local Open Scope nat_scope.

Section ProofMatOps.
Context {T : Type} {O : Ops T}.
Implicit Types (h : heap T) (p q d : ptr) (A B C : mat).

Lemma ext_refl h : ext h h. Proof. split; auto. Qed.
Lemma ext_trans h1 h2 h3 : ext h1 h2 -> ext h2 h3 -> ext h1 h3.
Proof. intros [L1 F1] [L2 F2]. split; [lia|]. intros q Hq. rewrite F2, F1; auto; lia. Qed.
Lemma ext_ismat h h' A n m : ext h h' -> ismat h A n m -> ismat h' A n m.
Proof.
  intros [L F] (H1 & H2 & H3 & H4). repeat split; auto; try lia. unfold len. now rewrite F.
Qed.
Lemma ext_isvec h h' v n : ext h h' -> isvec h v n -> isvec h' v n.
Proof. intros [L F] (H1 & H2). split; [lia|]. unfold len. now rewrite F. Qed.
Lemma ext_mget h h' A n m i j : ext h h' -> ismat h A n m -> mget h' A i j = mget h A i j.
Proof. intros [L F] (H1 & _). unfold mget, rd. now rewrite F. Qed.
Lemma ext_rd h h' v n i : ext h h' -> isvec h v n -> rd h' v i = rd h v i.
Proof. intros [L F] (H1 & _). unfold rd. now rewrite F. Qed.
Lemma ext_halloc h b : ext h (halloc h b).
Proof. split; [unfold halloc; cbn [next]; lia|]. intros q Hq. apply live_mem; auto. Qed.

(** A function that allocates its result and then fills it. *)
Lemma new_then_set h h' b C n m f :
  mp C = next h -> setmat (halloc h b) h' C n m f -> newmat h h' C n m f.
Proof.
  intros E ([L F] & H1 & H2). pose proof (ext_halloc h b) as [L0 F0]. repeat split; try apply H1; auto; try lia.
  intros q Hq. rewrite F, F0; auto; lia.
Qed.
Lemma newv_then_set h h' b v n f :
  v = next h -> setvec (halloc h b) h' v n f -> newvec h h' v n f.
Proof.
  intros E ([L F] & H1 & H2). pose proof (ext_halloc h b) as [L0 F0]. repeat split; try apply H1; auto; try lia.
  intros q Hq. rewrite F, F0; auto; lia.
Qed.

Lemma post_asserts {X} dbg c (m : M (heap T) X) h Q :
  c = true -> post m h Q -> post (assert_ dbg c ;; m) h Q.
Proof. intros Hc H. apply post_bind. apply post_assert; auto. Qed.

Lemma wrote_setmat h h' C n m g :
  ismat h C n m -> wrote h h' (mp C) (n * m) g ->
  setmat h h' C n m (fun i j => g (i * m + j)).
Proof.
  intros (H1 & H2 & H3 & H4) (F & N & L & V). repeat split; auto; try lia.
  intros i j Hi Hj. unfold mget. rewrite H3, V.
  destruct (Nat.ltb_spec (i * m + j) (n * m)); auto. pose proof (idx_lt n m i j Hi Hj). lia.
Qed.

Lemma setmat_ext h h' C n m f g :
  (forall i j, i < n -> j < m -> f i j = g i j) -> setmat h h' C n m f -> setmat h h' C n m g.
Proof. intros E (H1 & H2 & H3). split; [|split]; auto. intros i j Hi Hj. rewrite H3; auto. Qed.

(** ** Construction *)

Lemma uninit_ok n m h : post (mat_uninit n m) h (fun C h' => newmat h h' C n m (fun _ _ => zero)).
Proof.
  unfold mat_uninit. repeat pstep. eapply (new_then_set h _ (repeat zero (n * m))); [reflexivity|].
  split; [split; auto|]. split.
  - repeat split; cbn [mp mr mc]; auto.
    rewrite new_len. apply repeat_length.
  - intros i j Hi Hj. unfold mget, rd. cbn [mp mc]. rewrite mem_halloc_same.
    apply nth_repeat_same.
Qed.

Lemma filled_ok value n m h :
  fits_u32 n = true -> fits_u32 m = true ->
  post (mat_filled value n m) h (fun C h' => newmat h h' C n m (fun _ _ => value)).
Proof.
  intros Hn Hm. unfold mat_filled, mat_uninit. repeat pstep.
  set (h1 := halloc h (repeat zero (n * m))). set (p := next h).
  assert (Hp : len h1 p = n * m) by (unfold h1, p; rewrite new_len; apply repeat_length).
  eapply post_mono.
  - eapply (post_for_u32 (fun i _ h' => wrote h1 h' p (i * m) (fun _ => value)));
      [exact Hn|lia|apply wrote0| |intros a' s' Hs; exact Hs].
    intros i [] h2 Hi H2.
    eapply (post_for_u32 (fun j _ h' => wrote h1 h' p (i * m + j) (fun _ => value)));
      [exact Hm|lia|now rewrite Nat.add_0_r| |].
    + intros j [] h3 Hj H3. unfold mat_put; cbn [mp mc].
      pose proof (idx_lt n m i j ltac:(lia) ltac:(lia)).
      pstep; [rewrite (wrote_len _ _ _ _ _ p H3); lia|].
      rewrite Nat.add_succ_r. eapply wrote_step; [exact H3|]. apply upd1_hset.
      rewrite (wrote_len _ _ _ _ _ p H3); lia.
    + intros [] h3 H3. replace (S i * m) with (i * m + m) by lia. exact H3.
  - cbv beta. intros _ h' H'. pstep. eapply new_then_set; [reflexivity|].
    apply (wrote_setmat h1 h' (mkMat p n m) n m (fun _ => value)); auto.
    repeat split; auto.
Qed.

(** A loop that writes the diagonal of a zero n x n matrix. *)
Lemma diag_loop (ds : nat -> T) (body : nat -> unit -> M (heap T) unit) n p h :
  fits_u32 n = true -> len h p = n * n ->
  (forall i h1, i < n -> len h1 p = n * n ->
     post (body i tt) h1 (fun _ h2 => h2 = hset h1 p (i * n + i) (ds i))) ->
  post (for_u32 0 n body tt) h (fun _ h' =>
    (forall q, q <> p -> mem h' q = mem h q) /\ next h' = next h /\ len h' p = n * n /\
    forall i j, i < n -> j < n -> rd h' p (i * n + j) = if Nat.eqb i j then ds i else rd h p (i * n + j)).
Proof.
  intros Hn Hp Hb.
  eapply (post_for_u32 (fun k _ h' =>
    (forall q, q <> p -> mem h' q = mem h q) /\ next h' = next h /\ len h' p = n * n /\
    forall i j, i < n -> j < n -> rd h' p (i * n + j) = if Nat.eqb i j && Nat.ltb i k then ds i else rd h p (i * n + j)));
    [exact Hn|lia| | |].
  - repeat split; auto. intros i j Hi Hj. rewrite andb_false_r. reflexivity.
  - intros k [] h1 Hk (F & N & L & V). eapply post_mono; [apply Hb; [lia|exact L]|].
    cbv beta. intros _ h2 ->. pose proof (idx_lt n n k k ltac:(lia) ltac:(lia)) as Hkk. repeat split; auto.
    + intros q Hq. rewrite mem_hset_other; auto.
    + now rewrite len_hset.
    + intros i j Hi Hj. rewrite rd_hset by lia. rewrite Nat.eqb_refl; cbn [andb].
      rewrite (V i j Hi Hj).
      destruct (Nat.eqb_spec (i * n + j) (k * n + k)) as [E|E].
      * destruct (idx_inj n i j k k Hj ltac:(lia) E) as [-> ->]. rewrite Nat.eqb_refl; cbn [andb].
        destruct (Nat.ltb_spec k (S k)); [auto|lia].
      * destruct (Nat.eqb_spec i j) as [->|]; cbn [andb]; auto.
        destruct (Nat.ltb_spec j k), (Nat.ltb_spec j (S k)); auto; try lia.
        assert (j = k) by lia. subst. congruence.
  - cbv beta. intros [] h' (F & N & L & V). repeat split; auto. intros i j Hi Hj. rewrite V by auto.
    destruct (Nat.eqb i j); cbn [andb]; auto. destruct (Nat.ltb_spec i n); auto; lia.
Qed.

Lemma diag_new (ds : nat -> T) (body : mat -> nat -> unit -> M (heap T) unit) n h :
  fits_u32 n = true ->
  (forall A i h1, i < n -> len h1 (mp A) = n * n -> mc A = n ->
     post (body A i tt) h1 (fun _ h2 => h2 = hset h1 (mp A) (i * n + i) (ds i))) ->
  post (A <- mat_uninit n n ;; for_u32 0 n (body A) tt ;; ret A) h
    (fun C h' => newmat h h' C n n (fun i j => if Nat.eqb i j then ds i else zero)).
Proof.
  intros Hn Hb. pstep. eapply post_mono; [apply uninit_ok|]. cbv beta.
  intros A h1 (E1 & Nw & Hi & V). pstep. destruct Hi as (H1 & H2 & H3 & H4).
  eapply post_mono; [apply (diag_loop ds _ n (mp A)); auto|].
  cbv beta. intros _ h2 (F & N & L & V2). pstep. split; [|split; [|split]]; auto.
  - destruct E1 as [L1 F1]. split; [lia|]. intros q Hq. rewrite F, F1; auto; lia.
  - repeat split; auto; lia.
  - intros i j Hi Hj. unfold mget. rewrite H3, V2 by auto. destruct (Nat.eqb i j); auto.
    specialize (V i j Hi Hj). unfold mget in V. now rewrite H3 in V.
Qed.

Lemma diag_list_ok ds h :
  fits_u32 (length ds) = true ->
  post (mat_diag_list ds) h (fun C h' => newmat h h' C (length ds) (length ds)
    (fun i j => if Nat.eqb i j then nth i ds zero else zero)).
Proof.
  intros Hn. unfold mat_diag_list. pstep. apply (diag_new (fun i => nth i ds zero)
    (fun A i _ => x <- vec_at ds i ;; mat_put A i i x)); auto.
  intros A i h1 Hi Hl Hm. pstep. apply (post_vec_at ds i h1 zero); auto. unfold mat_put.
  rewrite Hm. pstep; auto. rewrite Hl. apply idx_lt; auto.
Qed.

Lemma diag_ok value n h :
  fits_u32 n = true ->
  post (mat_diag value n) h (fun C h' => newmat h h' C n n (fun i j => if Nat.eqb i j then value else zero)).
Proof.
  intros Hn. unfold mat_diag. pstep. apply (diag_new (fun i => value) (fun A i _ => mat_put A i i value)); auto.
  intros A i h1 Hi Hl Hm. unfold mat_put.
  rewrite Hm. pstep; auto. rewrite Hl. apply idx_lt; auto.
Qed.

Lemma identity_ok n h :
  fits_u32 n = true -> post (mat_identity n) h (fun C h' => newmat h h' C n n Id).
Proof. intros Hn. unfold mat_identity. pstep. exact (diag_ok one n h Hn). Qed.

Lemma copy_ok A n m h :
  ismat h A n m -> post (mat_copy A) h (fun C h' => newmat h h' C n m (mget h A) /\ mem h' (mp C) = mem h (mp A)).
Proof.
  intros (H1 & H2 & H3 & H4). unfold mat_copy. repeat pstep. split; [|apply mem_halloc_same].
  eapply (new_then_set h _ (mem h (mp A))); [reflexivity|].
  split; [split; auto|]. split.
  - repeat split; cbn [mp mr mc]; auto. rewrite new_len; auto.
  - intros i j Hi Hj. unfold mget, rd. cbn [mp mc]. now rewrite mem_halloc_same.
Qed.

(** ** Products *)

Lemma mulv_ok dbg alpha A x beta y n m h :
  fits_u32 n = true -> fits_u32 m = true ->
  ismat h A n m -> isvec h x m -> isvec h y n -> mp A <> y ->
  post (mulv dbg alpha A x beta y) h (fun r h' => r = y /\
    setvec h h' y n (fun i => fsum m (mul beta (rd h y i)) (fun k => mul (mul alpha (mget h A i k)) (rd h x k)))).
Proof.
  intros Hn Hm (A1 & A2 & A3 & A4) (X1 & X2) (Y1 & Y2) Hd. unfold mulv. repeat pstep.
  apply post_assert; [apply Nat.eqb_eq; lia|]. pstep. apply post_assert; [apply Nat.eqb_eq; lia|]. pstep.
  eapply post_mono; [apply mv_core_ok; rewrite ?A2, ?A3, ?A4; auto; lia|].
  cbv beta. intros r h' (-> & F & N & L & V). pstep. split; auto. split; [split; auto|]. split; [split; lia|].
  intros i Hi. rewrite V. rewrite A2. destruct (Nat.ltb_spec i n); [|lia]. unfold mv_val, mget. rewrite A3. reflexivity.
Qed.

Lemma op_mulv_ok dbg A x n m h :
  fits_u32 n = true -> fits_u32 m = true -> ismat h A n m -> isvec h x m ->
  post (op_mulv dbg A x) h (fun y h' =>
    newvec h h' y n (fun i => fsum m (mul zero zero) (fun k => mul (mul one (mget h A i k)) (rd h x k)))).
Proof.
  intros Hn Hm (A1 & A2 & A3 & A4) (X1 & X2). unfold op_mulv. repeat pstep.
  apply post_assert; [apply Nat.eqb_eq; lia|]. repeat pstep.
  rewrite A2, A3. set (h1 := halloc h (repeat zero n)).
  assert (Hl : len h1 (next h) = n) by (unfold h1; rewrite new_len; apply repeat_length).
  assert (Hl1 : forall q, q < next h -> len h1 q = len h q) by (intros; apply live_len; auto).
  assert (Hr1 : forall q i, q < next h -> rd h1 q i = rd h q i) by (intros; unfold rd, h1; now rewrite live_mem).
  assert (Hnx : next h1 = S (next h)) by reflexivity.
  eapply post_mono; [apply mv_core_ok; rewrite ?Hl1 by auto; auto; lia|].
  cbv beta. intros r h' (-> & F & N & L & V). pstep. eapply (newv_then_set h h' (repeat zero n)); [reflexivity|].
  fold h1. split; [split; auto|]. split; [split; lia|].
  intros i Hi. rewrite V. destruct (Nat.ltb_spec i n); [|lia]. unfold mv_val.
  replace (rd h1 (next h) i) with (zero : T).
  2:{ unfold rd, h1. rewrite mem_halloc_same. now rewrite nth_repeat_same. }
  apply fsum_ext. intros k Hk. unfold mget. rewrite !Hr1, A3 by auto. reflexivity.
Qed.

Lemma mulm_ok dbg alpha A B beta C n m o h :
  fits_u32 n = true -> fits_u32 m = true -> fits_u32 o = true ->
  ismat h A n o -> ismat h B o m -> ismat h C n m ->
  post (mulm dbg alpha A B beta C) h (fun r h' => r = C /\
    setmat h h' C n m (fun i j =>
      fsum o (if Nat.eqb (mp A) (mp C) || Nat.eqb (mp B) (mp C) then mul beta (mget h C i j) else mul (mget h C i j) beta)
        (fun k => mul (mul alpha (mget h A i k)) (mget h B k j)))).
Proof.
  intros Hn Hm Ho (A1 & A2 & A3 & A4) (B1 & B2 & B3 & B4) (C1 & C2 & C3 & C4). unfold mulm. repeat pstep.
  apply post_assert; [apply Nat.eqb_eq; lia|]. pstep. apply post_assert; [apply Nat.eqb_eq; lia|]. pstep.
  apply post_assert; [apply Nat.eqb_eq; lia|]. pstep.
  rewrite C2, C3, A3.
  eapply post_mono; [apply mm_core_ok; auto; lia|].
  cbv beta. intros r h' (-> & F & N & L & _ & V). pstep. split; auto. split; [split; auto|].
  split; [repeat split; auto; lia|].
  intros i j Hi Hj. unfold mget. rewrite C3, A3, B3. apply V; auto.
Qed.

Lemma op_mulm_ok dbg A B n m o h :
  fits_u32 n = true -> fits_u32 m = true -> fits_u32 o = true ->
  ismat h A n o -> ismat h B o m ->
  post (op_mulm dbg A B) h (fun C h' =>
    newmat h h' C n m (fun i j => fsum o (mul zero zero) (fun k => mul (mul one (mget h A i k)) (mget h B k j)))).
Proof.
  intros Hn Hm Ho HA HB. unfold op_mulm. pose proof HA as (_ & HA2 & _). pose proof HB as (_ & _ & HB3 & _).
  repeat pstep. rewrite HA2, HB3.
  eapply post_mono; [apply uninit_ok|]. cbv beta. intros C h1 (E & Nw & HC & V). pstep.
  eapply post_mono; [apply (mulm_ok dbg one A B zero C n m o); eauto using ext_ismat|].
  cbv beta. intros r h' (-> & [L F] & HC' & V'). pstep. repeat split; try apply HC'; auto.
  - destruct E. lia.
  - intros q Hq. destruct E as [L1 F1]. rewrite F, F1; auto; lia.
  - intros i j Hi Hj. rewrite V' by auto. rewrite V by auto.
    replace (Nat.eqb (mp A) (mp C) || Nat.eqb (mp B) (mp C)) with false.
    2:{ destruct HA as (HA & _). destruct HB as (HB & _).
        destruct (Nat.eqb_spec (mp A) (mp C)), (Nat.eqb_spec (mp B) (mp C)); auto; lia. }
    apply fsum_ext. intros k Hk. now rewrite (ext_mget h h1 A n o), (ext_mget h h1 B o m).
Qed.

(** ** Entry-wise *)

Lemma shape_ok h1 h2 A B n m : ismat h1 A n m -> ismat h2 B n m -> shape_eqb A B = true.
Proof.
  intros (_ & A2 & A3 & _) (_ & B2 & B3 & _). unfold shape_eqb.
  now rewrite A2, A3, B2, B3, !Nat.eqb_refl.
Qed.

Lemma addm_ok dbg A B C n m h :
  fits_u32 (n * m) = true -> ismat h A n m -> ismat h B n m -> ismat h C n m ->
  post (addm dbg A B C) h (fun r h' => r = C /\
    setmat h h' C n m (fun i j => add (mget h A i j) (mget h B i j))).
Proof.
  intros Hf HA HB HC. unfold addm. pstep. apply post_asserts; [eapply shape_ok; eauto|].
  apply post_asserts; [eapply shape_ok; eauto|]. pstep.
  pose proof HA as (_ & A2 & A3 & A4). pose proof HB as (_ & _ & B3 & B4). pose proof HC as (_ & _ & _ & C4).
  rewrite A2, A3. eapply post_mono; [apply add_core_wrote; auto; lia|].
  cbv beta. intros r h' [-> Hw]. pstep. split; auto.
  apply (wrote_setmat _ _ _ n m) in Hw; auto. eapply setmat_ext; [|exact Hw].
  intros i j _ _. unfold mget. now rewrite A3, B3.
Qed.

Lemma subm_ok dbg A B C n m h :
  fits_u32 (n * m) = true -> ismat h A n m -> ismat h B n m -> ismat h C n m ->
  post (subm dbg A B C) h (fun r h' => r = C /\
    setmat h h' C n m (fun i j => sub (mget h A i j) (mget h B i j))).
Proof.
  intros Hf HA HB HC. unfold subm. pstep. apply post_asserts; [eapply shape_ok; eauto|].
  apply post_asserts; [eapply shape_ok; eauto|]. pstep.
  pose proof HA as (_ & A2 & A3 & A4). pose proof HB as (_ & _ & B3 & B4). pose proof HC as (_ & _ & _ & C4).
  rewrite A2, A3. eapply post_mono; [apply sub_core_wrote; auto; lia|].
  cbv beta. intros r h' [-> Hw]. pstep. split; auto.
  apply (wrote_setmat _ _ _ n m) in Hw; auto. eapply setmat_ext; [|exact Hw].
  intros i j _ _. unfold mget. now rewrite A3, B3.
Qed.

Lemma scalem_ok alpha A n m h :
  fits_u32 (n * m) = true -> ismat h A n m ->
  post (scalem alpha A) h (fun r h' => r = A /\ setmat h h' A n m (fun i j => mul alpha (mget h A i j))).
Proof.
  intros Hf HA. unfold scalem. repeat pstep. pose proof HA as (_ & A2 & A3 & A4).
  rewrite A2, A3. eapply post_mono; [apply scal_core_wrote; auto; lia|].
  cbv beta. intros r h' [-> Hw]. pstep. split; auto.
  apply (wrote_setmat _ _ _ n m) in Hw; auto. eapply setmat_ext; [|exact Hw].
  intros i j _ _. unfold mget. now rewrite A3.
Qed.

(** copy, then an in-place operation on the copy *)
Lemma copy_then h h1 h' A C n m f :
  newmat h h1 C n m (mget h A) -> setmat h1 h' C n m f -> newmat h h' C n m f.
Proof.
  intros ([L1 F1] & Nw & HC & V) ([L F] & HC' & V'). repeat split; try apply HC'; auto; try lia.
  intros q Hq. rewrite F, F1; auto; lia.
Qed.

Lemma newmat_ext h h' C n m f g :
  (forall i j, i < n -> j < m -> f i j = g i j) -> newmat h h' C n m f -> newmat h h' C n m g.
Proof. intros E (H1 & H2 & H3 & H4). repeat split; try apply H3; try apply H1; auto. intros i j Hi Hj. rewrite H4; auto. Qed.

Lemma op_addm_ok dbg A B n m h :
  fits_u32 (n * m) = true -> ismat h A n m -> ismat h B n m ->
  post (op_addm dbg A B) h (fun C h' => newmat h h' C n m (fun i j => add (mget h A i j) (mget h B i j))).
Proof.
  intros Hf HA HB. unfold op_addm. repeat pstep. eapply post_mono; [apply copy_ok; eauto|].
  cbv beta. intros C h1 [H1 _]. pstep. pose proof H1 as (E & _ & HC & _).
  eapply post_mono; [apply addm_ok; eauto using ext_ismat|].
  cbv beta. intros r h' [-> H']. pstep.
  eapply newmat_ext; [|eapply copy_then; eauto]. intros i j Hi Hj. cbv beta.
  now rewrite (ext_mget h h1 A n m), (ext_mget h h1 B n m).
Qed.

Lemma op_subm_ok dbg A B n m h :
  fits_u32 (n * m) = true -> ismat h A n m -> ismat h B n m ->
  post (op_subm dbg A B) h (fun C h' => newmat h h' C n m (fun i j => sub (mget h A i j) (mget h B i j))).
Proof.
  intros Hf HA HB. unfold op_subm. repeat pstep. eapply post_mono; [apply copy_ok; eauto|].
  cbv beta. intros C h1 [H1 _]. pstep. pose proof H1 as (E & _ & HC & _).
  eapply post_mono; [apply subm_ok; eauto using ext_ismat|].
  cbv beta. intros r h' [-> H']. pstep.
  eapply newmat_ext; [|eapply copy_then; eauto]. intros i j Hi Hj. cbv beta.
  now rewrite (ext_mget h h1 A n m), (ext_mget h h1 B n m).
Qed.

Lemma op_scalem_ok alpha A n m h :
  fits_u32 (n * m) = true -> ismat h A n m ->
  post (op_scalem alpha A) h (fun C h' => newmat h h' C n m (fun i j => mul alpha (mget h A i j))).
Proof.
  intros Hf HA. unfold op_scalem. repeat pstep. eapply post_mono; [apply copy_ok; eauto|].
  cbv beta. intros C h1 [H1 _]. pstep. pose proof H1 as (E & _ & HC & V).
  eapply post_mono; [apply scalem_ok; eauto|].
  cbv beta. intros r h' [-> H']. pstep.
  eapply newmat_ext; [|eapply copy_then; eauto]. intros i j Hi Hj. cbv beta. now rewrite V.
Qed.

Lemma op_negm_ok A n m h :
  fits_u32 (n * m) = true -> ismat h A n m ->
  post (op_negm A) h (fun C h' => newmat h h' C n m (fun i j => mul (opp one) (mget h A i j))).
Proof. exact (op_scalem_ok (opp one) A n m h). Qed.

End ProofMatOps.
