(** * A total-correctness program logic for the model *)
From Verif Require Export Base Scalar.

(** [post m s Q]: running [m] from [s] returns normally and the result satisfies [Q]. *)
Definition post {S A} (m : M S A) (s : S) (Q : A -> S -> Prop) : Prop :=
  match m s with Ok a s' => Q a s' | _ => False end.

Lemma post_ok {S A} (m : M S A) s Q :
  post m s Q -> exists a s', m s = Ok a s' /\ Q a s'.
Proof. unfold post; destruct (m s); intros H; try contradiction; eauto. Qed.

(** For examples: the contents of one buffer after a normal return. *)
Definition peek {T A} (r : res (heap T) A) (p : A -> ptr) : option (list T) :=
  match r with Ok a h => Some (mem h (p a)) | _ => None end.

Lemma post_eq {S A} (m : M S A) s y (Q : S -> Prop) :
  post m s (fun r s' => r = y /\ Q s') -> exists s', m s = Ok y s' /\ Q s'.
Proof. intros H. destruct (post_ok _ _ _ H) as (a & s' & E & -> & HQ). eauto. Qed.

Lemma ok_post {S A} (m : M S A) s a s' (Q : A -> S -> Prop) :
  m s = Ok a s' -> Q a s' -> post m s Q.
Proof. unfold post; intros ->; auto. Qed.

Lemma post_ret {S A} (a : A) (s : S) (Q : A -> S -> Prop) : Q a s -> post (ret a) s Q.
Proof. auto. Qed.

Lemma post_bind {S A B} (m : M S A) (f : A -> M S B) s Q :
  post m s (fun a s' => post (f a) s' Q) -> post (bind m f) s Q.
Proof. unfold post, bind; destruct (m s); auto. Qed.

Lemma post_mono {S A} (m : M S A) s (Q Q' : A -> S -> Prop) :
  post m s Q -> (forall a s', Q a s' -> Q' a s') -> post m s Q'.
Proof. unfold post; destruct (m s); auto. Qed.

Lemma post_and {S A} (m : M S A) s (Q Q' : A -> S -> Prop) :
  post m s Q -> post m s Q' -> post m s (fun a s' => Q a s' /\ Q' a s').
Proof. unfold post; destruct (m s); auto. Qed.

Lemma post_noexcept {S A} (m : M S A) s Q : post m s Q -> post (noexcept m) s Q.
Proof. unfold post, noexcept; destruct (m s); auto. Qed.

Lemma noexcept_ok {S A} (m : M S A) s Q : post (noexcept m) s Q -> post m s Q.
Proof. unfold post, noexcept; destruct (m s); auto. Qed.

Lemma post_assert {S} dbg c (s : S) (Q : unit -> S -> Prop) :
  c = true -> Q tt s -> post (assert_ dbg c) s Q.
Proof. intros ->; unfold post, assert_; rewrite andb_false_r; auto. Qed.

(** ** Loops *)

Lemma post_loop_seq {S A} (I : nat -> A -> S -> Prop) (body : nat -> A -> M S A) lo cnt a s :
  I lo a s ->
  (forall i a s, lo <= i < lo + cnt -> I i a s -> post (body i a) s (fun a' s' => I (Datatypes.S i) a' s')) ->
  post (loop (seq lo cnt) body a) s (fun a' s' => I (lo + cnt) a' s').
Proof.
  revert lo a s; induction cnt as [|cnt IH]; intros lo a s H0 Hstep; cbn [seq loop].
  - apply post_ret. now rewrite Nat.add_0_r.
  - apply post_bind. eapply post_mono. { apply Hstep; [lia | exact H0]. }
    cbv beta; intros a' s' HI. rewrite Nat.add_succ_r, <- Nat.add_succ_l.
    apply IH; [exact HI|]. intros i a2 s2 Hi HI2. apply Hstep; [lia|exact HI2].
Qed.

Lemma post_for_sz {S A} (I : nat -> A -> S -> Prop) (body : nat -> A -> M S A) lo n a s (Q : A -> S -> Prop) :
  lo <= n ->
  I lo a s ->
  (forall i a s, lo <= i < n -> I i a s -> post (body i a) s (fun a' s' => I (Datatypes.S i) a' s')) ->
  (forall a' s', I n a' s' -> Q a' s') ->
  post (for_sz lo n body a) s Q.
Proof.
  intros Hle H0 Hstep HQ. unfold for_sz.
  eapply post_mono.
  - apply (post_loop_seq I); [exact H0|]. intros; apply Hstep; [lia|assumption].
  - cbv beta; intros a' s' H. replace (lo + (n - lo)) with n in H by lia. auto.
Qed.

Lemma post_for_u32 {S A} (I : nat -> A -> S -> Prop) (body : nat -> A -> M S A) lo n a s (Q : A -> S -> Prop) :
  fits_u32 n = true ->
  lo <= n ->
  I lo a s ->
  (forall i a s, lo <= i < n -> I i a s -> post (body i a) s (fun a' s' => I (Datatypes.S i) a' s')) ->
  (forall a' s', I n a' s' -> Q a' s') ->
  post (for_u32 lo n body a) s Q.
Proof. intros Hf. unfold for_u32; rewrite Hf. apply post_for_sz. Qed.

Lemma seq_snoc_rev n : rev (seq 0 (S n)) = n :: rev (seq 0 n).
Proof. rewrite seq_S, rev_app_distr. reflexivity. Qed.

Lemma post_down_sz {S A} (I : nat -> A -> S -> Prop) (body : nat -> A -> M S A) n a s (Q : A -> S -> Prop) :
  I n a s ->
  (forall i a s, i < n -> I (Datatypes.S i) a s -> post (body i a) s (fun a' s' => I i a' s')) ->
  (forall a' s', I 0 a' s' -> Q a' s') ->
  post (down_sz n body a) s Q.
Proof.
  unfold down_sz. revert a s; induction n as [|n IH]; intros a s H0 Hstep HQ.
  - cbn. auto.
  - rewrite seq_snoc_rev; cbn [loop]. apply post_bind.
    eapply post_mono. { apply Hstep; [lia|exact H0]. }
    cbv beta; intros a' s' HI. apply IH; auto.
Qed.

(** [n - 1] is representable as a nonnegative [int32_t] (or n = 0). *)
Definition fits_i32 (n : nat) : bool := (Z.of_nat n <=? 2 ^ 31)%Z.

Lemma to_int32_small z : (0 <= z < 2 ^ 31)%Z -> to_int32 z = z.
Proof.
  intros H. unfold to_int32. rewrite Z.mod_small by lia.
  destruct (Z.ltb_spec z (2 ^ 31)); lia.
Qed.

Lemma to_int32_m1 : to_int32 (-1) = (-1)%Z.
Proof. reflexivity. Qed.

Lemma down_i32_sz {S A} n (body : nat -> A -> M S A) a :
  fits_i32 n = true -> down_i32 n body a = down_sz n body a.
Proof.
  unfold fits_i32, down_i32, down_sz; intros H%Z.leb_le. destruct n as [|n].
  - reflexivity.
  - rewrite to_int32_small by lia. unfold down_list.
    destruct (Z.ltb_spec (Z.of_nat (Datatypes.S n) - 1) 0); [lia|].
    replace (Z.to_nat (Z.of_nat (Datatypes.S n) - 1)) with n by lia. reflexivity.
Qed.

Lemma post_down_i32 {S A} (I : nat -> A -> S -> Prop) (body : nat -> A -> M S A) n a s (Q : A -> S -> Prop) :
  fits_i32 n = true ->
  I n a s ->
  (forall i a s, i < n -> I (Datatypes.S i) a s -> post (body i a) s (fun a' s' => I i a' s')) ->
  (forall a' s', I 0 a' s' -> Q a' s') ->
  post (down_i32 n body a) s Q.
Proof. intros Hf. rewrite down_i32_sz by exact Hf. apply post_down_sz. Qed.

Lemma fits_i32_u32 n : fits_i32 n = true -> fits_u32 n = true.
Proof. unfold fits_i32, fits_u32. intros H%Z.leb_le. apply Z.ltb_lt. lia. Qed.

Lemma fits_u32_le n m : fits_u32 n = true -> m <= n -> fits_u32 m = true.
Proof. unfold fits_u32. intros H%Z.ltb_lt Hle. apply Z.ltb_lt. lia. Qed.

Lemma fits_i32_le n m : fits_i32 n = true -> m <= n -> fits_i32 m = true.
Proof. unfold fits_i32. intros H%Z.leb_le Hle. apply Z.leb_le. lia. Qed.

(** ** Lists *)

Lemma set_nth_length {T} i (x : T) l : length (set_nth i x l) = length l.
Proof. revert i; induction l as [|y l IH]; intros [|i]; cbn; auto. Qed.

Lemma nth_set_nth {T} i j (x d : T) l :
  i < length l -> nth j (set_nth i x l) d = if Nat.eqb j i then x else nth j l d.
Proof.
  revert i j; induction l as [|y l IH]; intros i j H; cbn in H; [lia|].
  destruct i as [|i], j as [|j]; cbn; auto. apply IH. lia.
Qed.

Lemma nth_set_nth_other {T} i j (x d : T) l :
  j <> i -> nth j (set_nth i x l) d = nth j l d.
Proof.
  revert i j; induction l as [|y l IH]; intros i j H; destruct i as [|i], j as [|j]; cbn; auto; try lia.
Qed.

Lemma nth_error_set_nth {T} i j (x : T) l :
  i < length l -> nth_error (set_nth i x l) j = if Nat.eqb j i then Some x else nth_error l j.
Proof.
  revert i j; induction l as [|y l IH]; intros i j H; cbn in H; [lia|].
  destruct i as [|i], j as [|j]; cbn; auto. apply IH. lia.
Qed.

Lemma list_ext_nth {T} (d : T) l1 l2 :
  length l1 = length l2 -> (forall i, i < length l1 -> nth i l1 d = nth i l2 d) -> l1 = l2.
Proof. intros; apply (nth_ext l1 l2 d d); auto. Qed.

Lemma nth_map_seq {T} (f : nat -> T) n i d : i < n -> nth i (map f (seq 0 n)) d = f i.
Proof.
  intros H. rewrite nth_indep with (d' := f 0) by (now rewrite map_length, seq_length).
  rewrite map_nth, seq_nth by exact H. reflexivity.
Qed.

Lemma nth_repeat_in {T} (x d : T) n i : i < n -> nth i (repeat x n) d = x.
Proof. revert i; induction n as [|n IH]; intros [|i] H; cbn; auto; try lia. apply IH; lia. Qed.

Lemma nth_repeat_same {T} (x : T) n i : nth i (repeat x n) x = x.
Proof. revert i; induction n as [|n IH]; intros [|i]; cbn; auto. Qed.

(** ** Memory *)

Section Mem.
Context {T : Type} {O : Ops T}.
Implicit Types (h : heap T) (p q : ptr).

Definition rd h p i : T := nth i (mem h p) zero.
Definition len h p : nat := length (mem h p).
Definition hset h p i x : heap T := upd h p (set_nth i x (mem h p)).
Definition halloc h (b : list T) : heap T :=
  mkHeap (fun q => if Nat.eqb q (next h) then b else mem h q) (S (next h)).

Lemma post_load p i h (Q : T -> heap T -> Prop) :
  i < len h p -> Q (rd h p i) h -> post (load p i) h Q.
Proof.
  unfold post, load, rd, len; intros Hi HQ.
  rewrite (nth_error_nth' _ zero Hi). exact HQ.
Qed.

Lemma post_store p i x h (Q : unit -> heap T -> Prop) :
  i < len h p -> Q tt (hset h p i x) -> post (store p i x) h Q.
Proof.
  unfold post, store, len, hset; intros Hi HQ.
  destruct (Nat.ltb_spec i (length (mem h p))); [exact HQ|lia].
Qed.

Lemma post_vsize p h (Q : nat -> heap T -> Prop) : Q (len h p) h -> post (vsize p) h Q.
Proof. auto. Qed.

Lemma post_contents p h (Q : list T -> heap T -> Prop) : Q (mem h p) h -> post (contents p) h Q.
Proof. auto. Qed.

Lemma post_alloc b h (Q : ptr -> heap T -> Prop) :
  Q (next h) (halloc h b) -> post (alloc b) h Q.
Proof. auto. Qed.

Lemma mem_upd h p b q : mem (upd h p b) q = if Nat.eqb q p then b else mem h q.
Proof. reflexivity. Qed.

Lemma mem_upd_same h p b : mem (upd h p b) p = b.
Proof. cbn. now rewrite Nat.eqb_refl. Qed.

Lemma mem_upd_other h p b q : q <> p -> mem (upd h p b) q = mem h q.
Proof. intros H. cbn. apply Nat.eqb_neq in H. now rewrite H. Qed.

Lemma mem_hset_other h p i x q : q <> p -> mem (hset h p i x) q = mem h q.
Proof. apply mem_upd_other. Qed.

Lemma mem_hset_same h p i x : mem (hset h p i x) p = set_nth i x (mem h p).
Proof. apply mem_upd_same. Qed.

Lemma next_hset h p i x : next (hset h p i x) = next h.
Proof. reflexivity. Qed.

Lemma len_hset h p i x q : len (hset h p i x) q = len h q.
Proof.
  unfold len, hset. rewrite mem_upd. destruct (Nat.eqb_spec q p) as [->|]; auto.
  apply set_nth_length.
Qed.

Lemma rd_hset h p i x q j :
  i < len h p -> rd (hset h p i x) q j = if Nat.eqb q p && Nat.eqb j i then x else rd h q j.
Proof.
  unfold rd, hset, len; intros Hi. rewrite mem_upd.
  destruct (Nat.eqb_spec q p) as [->|]; cbn [andb]; auto. apply nth_set_nth; auto.
Qed.

Lemma rd_hset_same h p i x : i < len h p -> rd (hset h p i x) p i = x.
Proof. intros; rewrite rd_hset by auto. now rewrite !Nat.eqb_refl. Qed.

Lemma rd_hset_ptr h p i x q j : q <> p -> rd (hset h p i x) q j = rd h q j.
Proof. intros H. unfold rd. now rewrite mem_hset_other. Qed.

Lemma rd_hset_idx h p i x q j : j <> i -> rd (hset h p i x) q j = rd h q j.
Proof.
  intros H. unfold rd, hset. rewrite mem_upd. destruct (Nat.eqb_spec q p) as [->|]; auto.
  apply nth_set_nth_other; auto.
Qed.

Lemma mem_halloc_other h b q : q <> next h -> mem (halloc h b) q = mem h q.
Proof. intros H; cbn. apply Nat.eqb_neq in H. now rewrite H. Qed.

Lemma mem_halloc_same h b : mem (halloc h b) (next h) = b.
Proof. cbn. now rewrite Nat.eqb_refl. Qed.

Lemma mem_len_ext h h' p :
  len h p = len h' p -> (forall i, i < len h p -> rd h p i = rd h' p i) -> mem h p = mem h' p.
Proof. unfold len, rd. apply list_ext_nth. Qed.

Lemma post_copy_n n src dst h (Q : unit -> heap T -> Prop) :
  src <> dst -> n <= len h src -> n <= len h dst ->
  (forall h', (forall q, q <> dst -> mem h' q = mem h q) ->
     len h' dst = len h dst -> next h' = next h ->
     (forall i, rd h' dst i = if Nat.ltb i n then rd h src i else rd h dst i) -> Q tt h') ->
  post (copy_n n src dst) h Q.
Proof.
  intros Hne Hs Hd HQ. unfold copy_n.
  eapply (post_for_sz (fun k _ h' =>
     (forall q, q <> dst -> mem h' q = mem h q) /\ len h' dst = len h dst /\ next h' = next h /\
     (forall i, rd h' dst i = if Nat.ltb i k then rd h src i else rd h dst i))).
  - lia.
  - repeat split; auto.
  - intros i [] h1 Hi (Hfr & Hl & Hn & Hv).
    assert (Hls : len h1 src = len h src) by (unfold len; now rewrite Hfr).
    apply post_bind, post_load; [lia|]. apply post_store; [lia|].
    repeat split.
    + intros q Hq. rewrite mem_hset_other by auto. auto.
    + now rewrite len_hset.
    + exact Hn.
    + intros j. rewrite rd_hset by lia. rewrite Nat.eqb_refl; cbn [andb].
      unfold rd at 1. rewrite (Hfr src) by auto. fold (rd h src i).
      rewrite Hv. destruct (Nat.eqb_spec j i) as [->|].
      * destruct (Nat.ltb_spec i (S i)); [auto|lia].
      * destruct (Nat.ltb_spec j i), (Nat.ltb_spec j (S i)); auto; lia.
  - intros [] h' (Hfr & Hl & Hn & Hv). auto.
Qed.

End Mem.

Arguments rd {T O} h p i : simpl never.
Arguments len {T} h p : simpl never.
Arguments hset {T} h p i x : simpl never.
Arguments halloc {T} h b : simpl never.

(** Values held by value. *)
Lemma post_vec_at {S T} (l : list T) i (s : S) (d : T) (Q : T -> S -> Prop) :
  i < length l -> Q (nth i l d) s -> post (vec_at l i) s Q.
Proof.
  intros Hi HQ. unfold vec_at. rewrite (nth_error_nth' _ d Hi). exact HQ.
Qed.

Lemma post_vec_set {S T} (l : list T) i x (s : S) (Q : list T -> S -> Prop) :
  i < length l -> Q (set_nth i x l) s -> post (vec_set l i x) s Q.
Proof.
  intros Hi HQ. unfold vec_set. destruct (Nat.ltb_spec i (length l)); [exact HQ|lia].
Qed.

Lemma post_run_local {S T A} (h : heap T) (m : M (heap T) A) (s : S) (Q : A * heap T -> S -> Prop) :
  post m h (fun a h' => Q (a, h') s) -> post (run_local h m) s Q.
Proof. unfold post, run_local. destruct (m h); auto. Qed.

(** Execution steps through straight-line code. *)
Ltac pstep :=
  match goal with
  | |- post (bind _ _) _ _ => apply post_bind
  | |- post (ret _) _ _ => apply post_ret
  | |- post (load _ _) _ _ => apply post_load
  | |- post (store _ _ _) _ _ => apply post_store
  | |- post (vsize _) _ _ => apply post_vsize
  | |- post (contents _) _ _ => apply post_contents
  | |- post (alloc _) _ _ => apply post_alloc
  | |- post (noexcept _) _ _ => apply post_noexcept
  end.
