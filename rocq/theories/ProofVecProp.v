(** * Vector operations: proofs of the property statements *)
From Coq Require Import Reals Lra Ring Permutation Floats.
From Verif Require Import Base Scalar BaseLemmas Spec Sums RealVec ModelVec ProofVec Counters.
Local Open Scope sc_scope.

Section Any.
Context {T : Type} {O : Ops T}.

(** ** Exact outcome of add/sub for every triple of lengths *)
Lemma for_u32_ub (body : nat -> unit -> M (heap T) unit) (I : nat -> heap T -> Prop) n k h :
  fits_u32 n = true -> k < n -> I 0 h ->
  (forall i h, i < k -> I i h -> post (body i tt) h (fun _ h' => I (S i) h')) ->
  (forall h, I k h -> body k tt h = UB) ->
  for_u32 0 n body tt h = UB.
Proof.
  intros Hf Hk HI Hstep Hub. unfold for_u32, for_sz. rewrite Hf, Nat.sub_0_r.
  assert (G : forall m i h, (i + m)%nat = k -> I i h -> loop (seq i (n - i)) body tt h = UB).
  { induction m as [|m IH]; intros i h0 E HIi.
    - replace i with k in * by lia. replace (n - k)%nat with (S (n - k - 1)) by lia.
      cbn [seq loop]. unfold bind. now rewrite Hub.
    - replace (n - i)%nat with (S (n - S i)) by lia. cbn [seq loop]. unfold bind.
      pose proof (Hstep i h0 ltac:(lia) HIi) as P. unfold post in P.
      destruct (body i tt h0) as [[] s| | | | |]; try contradiction. apply IH; auto; lia. }
  specialize (G k 0 h eq_refl HI). now rewrite Nat.sub_0_r in G.
Qed.

Lemma ew2_short (f : T -> T -> T) v1 v2 vr n h :
  fits_u32 n = true -> n <= len h v1 -> n <= len h v2 -> len h vr < n ->
  for_u32 0 n (fun i _ => x <- load v1 i ;; y <- load v2 i ;; store vr i (f x y)) tt h = UB.
Proof.
  intros Hf H1 H2 H3.
  apply (for_u32_ub _ (fun _ h' => forall p, len h' p = len h p) n (len h vr)); auto.
  - intros i h0 Hi HI. repeat (pstep; rewrite ?HI; try lia). intros p. now rewrite len_hset.
  - intros h0 HI. unfold bind, load, store.
    rewrite (nth_error_nth' _ zero) by (fold (len h0 v1); rewrite HI; lia).
    rewrite (nth_error_nth' _ zero) by (fold (len h0 v2); rewrite HI; lia).
    fold (len h0 vr). rewrite HI, Nat.ltb_irrefl. reflexivity.
Qed.

Lemma add_d_short v1 v2 vr h :
  fits_u32 (len h v1) = true -> len h v1 = len h v2 -> len h vr < len h v1 ->
  add_d v1 v2 vr h = UB.
Proof.
  intros Hf H2 H3. unfold add_d, bind at 1 2 3, vsize, check_size. fold (len h v1) (len h v2).
  rewrite <- H2, Nat.eqb_refl. unfold ret at 1.
  unfold add_core, add_core_simd, add_core_parallel.
  destruct (Nat.ltb (len h v1) 16); unfold bind at 1 2 3;
    rewrite (ew2_short add) by (auto; lia); reflexivity.
Qed.

Lemma sub_d_short v1 v2 vr h :
  fits_u32 (len h v1) = true -> len h v1 = len h v2 -> len h vr < len h v1 ->
  sub_d v1 v2 vr h = UB.
Proof.
  intros Hf H2 H3. unfold sub_d, bind at 1 2 3, vsize, check_size. fold (len h v1) (len h v2).
  rewrite <- H2, Nat.eqb_refl. unfold ret at 1.
  unfold sub_core, sub_core_simd, sub_core_parallel.
  destruct (Nat.ltb (len h v1) 16); unfold bind at 1 2 3;
    rewrite (ew2_short sub) by (auto; lia); reflexivity.
Qed.

(** Destination at least as long: prefix written, tail kept. *)
Definition prefix_did (f : T -> T -> T) h (h' : heap T) v1 v2 vr : Prop :=
  mem h' vr = map2 f (mem h v1) (mem h v2) ++ skipn (len h v1) (mem h vr) /\
  unchanged_except [vr] h h'.

Lemma wrote_prefix (f : T -> T -> T) h h' v1 v2 vr :
  len h v1 = len h v2 -> len h v1 <= len h vr ->
  wrote h h' vr (len h v1) (fun i => f (rd h v1 i) (rd h v2 i)) -> prefix_did f h h' v1 v2 vr.
Proof.
  intros H2 H3 (Hfr & Hn & Hl & Hv). split.
  - apply (list_ext_nth zero).
    + rewrite app_length, map2_length, skipn_length by (unfold len in *; lia). unfold len in *. lia.
    + intros i Hi. fold (rd h' vr i). rewrite Hv.
      destruct (Nat.ltb_spec i (len h v1)) as [Hlt|Hge].
      * rewrite app_nth1 by (rewrite map2_length; unfold len in *; lia).
        rewrite (nth_map2 f _ _ _ zero zero) by (unfold len in *; lia). reflexivity.
      * rewrite app_nth2 by (rewrite map2_length; unfold len in *; lia).
        rewrite map2_length by (unfold len in *; lia). fold (len h v1).
        unfold rd. rewrite <- (firstn_skipn (len h v1) (mem h vr)) at 1.
        rewrite app_nth2 by (rewrite firstn_length; unfold len in *; lia).
        rewrite firstn_length. f_equal. unfold len in *. lia.
  - intros q Hq. apply Hfr. intros ->. apply Hq; left; auto.
Qed.

Lemma add_d_long v1 v2 vr h :
  fits_u32 (len h v1) = true -> len h v1 = len h v2 -> len h v1 <= len h vr ->
  post (add_d v1 v2 vr) h (fun r h' => r = vr /\ prefix_did add h h' v1 v2 vr).
Proof.
  intros Hf H2 H3. unfold add_d. repeat pstep. apply post_check_size; [auto|]. pstep.
  eapply post_mono; [apply add_core_wrote; auto; lia|]. cbv beta; intros r h' [-> Hw]. pstep.
  split; auto. apply wrote_prefix; auto.
Qed.

Lemma sub_d_long v1 v2 vr h :
  fits_u32 (len h v1) = true -> len h v1 = len h v2 -> len h v1 <= len h vr ->
  post (sub_d v1 v2 vr) h (fun r h' => r = vr /\ prefix_did sub h h' v1 v2 vr).
Proof.
  intros Hf H2 H3. unfold sub_d. repeat pstep. apply post_check_size; [auto|]. pstep.
  eapply post_mono; [apply sub_core_wrote; auto; lia|]. cbv beta; intros r h' [-> Hw]. pstep.
  split; auto. apply wrote_prefix; auto.
Qed.

(** ** dot: the exact left-to-right expression *)
Lemma dot_d_ok v1 v2 h :
  fits_u32 (len h v1) = true -> 0 < len h v1 -> len h v1 = len h v2 ->
  dot_d v1 v2 h = Ok (lsum (fun i => rd h v1 i * rd h v2 i) (len h v1 - 1)) h.
Proof.
  intros Hf Hp Hl.
  assert (P : post (dot_d v1 v2) h (fun r h' => h' = h /\ r = lsum (fun i => rd h v1 i * rd h v2 i) (len h v1 - 1))).
  { unfold dot_d. pstep. repeat pstep. apply post_check_size; auto. apply dot_core_ok; auto; lia. }
  apply post_ok in P. destruct P as (a & s & E & -> & ->). exact E.
Qed.

Lemma dot_member_d_ok v1 v2 h :
  fits_u32 (len h v1) = true -> 0 < len h v1 -> len h v1 = len h v2 ->
  dot_member_d v1 v2 h = Ok (lsum (fun i => rd h v1 i * rd h v2 i) (len h v1 - 1)) h.
Proof.
  intros Hf Hp Hl.
  assert (P : post (dot_member_d v1 v2) h (fun r h' => h' = h /\ r = lsum (fun i => rd h v1 i * rd h v2 i) (len h v1 - 1))).
  { unfold dot_member_d. repeat pstep. apply post_check_size; auto. apply dot_core_ok; auto; lia. }
  apply post_ok in P. destruct P as (a & s & E & -> & ->). exact E.
Qed.

Lemma dot_member_ds_ok N v1 v2 h :
  fits_u32 N = true -> 0 < N -> len h v1 = N -> len h v2 = N ->
  dot_member_ds N v1 v2 h = Ok (lsum (fun i => rd h v1 i * rd h v2 i) (N - 1)) h.
Proof.
  intros Hf Hp Hl1 Hl2.
  assert (P : post (dot_member_ds N v1 v2) h (fun r h' => h' = h /\ r = lsum (fun i => rd h v1 i * rd h v2 i) (N - 1))).
  { unfold dot_member_ds. repeat pstep. apply post_check_size; auto. rewrite Hl1. apply dot_core_ok; auto; lia. }
  apply post_ok in P. destruct P as (a & s & E & -> & ->). exact E.
Qed.

Lemma dot_s_ok N v1 v2 h :
  fits_u32 N = true -> 0 < N -> len h v1 = N -> len h v2 = N ->
  dot_s N v1 v2 h = Ok (lsum (fun i => rd h v1 i * rd h v2 i) (N - 1)) h.
Proof.
  intros Hf Hp Hl1 Hl2.
  assert (P : post (dot_s N v1 v2) h (fun r h' => h' = h /\ r = lsum (fun i => rd h v1 i * rd h v2 i) (N - 1))).
  { unfold dot_s. pstep. apply dot_core_ok; auto; lia. }
  apply post_ok in P. destruct P as (a & s & E & -> & ->). exact E.
Qed.

Lemma norm2_d_ok v h :
  fits_u32 (len h v) = true ->
  norm2_d v h = Ok (sqrt_ (bsum (len h v) (fun i => rd h v i * rd h v i))) h.
Proof.
  intros Hf.
  assert (P : post (norm2_d v) h (fun r h' => h' = h /\ r = sqrt_ (bsum (len h v) (fun i => rd h v i * rd h v i)))).
  { unfold norm2_d. repeat pstep. apply norm2_core_ok; auto; lia. }
  apply post_ok in P. destruct P as (a & s & E & -> & ->). exact E.
Qed.

Lemma norm2_s_ok N v h :
  fits_u32 N = true -> len h v = N ->
  norm2_s N v h = Ok (sqrt_ (bsum N (fun i => rd h v i * rd h v i))) h.
Proof.
  intros Hf Hl.
  assert (P : post (norm2_s N v) h (fun r h' => h' = h /\ r = sqrt_ (bsum N (fun i => rd h v i * rd h v i)))).
  { unfold norm2_s. repeat pstep. apply norm2_core_ok; auto; lia. }
  apply post_ok in P. destruct P as (a & s & E & -> & ->). exact E.
Qed.

(** ** Empty dot *)
Lemma dot_empty_ub v1 v2 h :
  len h v1 = 0 -> len h v2 = 0 ->
  dot_d v1 v2 h = UB /\ dot_member_d v1 v2 h = UB /\ dot_s 0 v1 v2 h = UB /\
  dot_sd 0 v1 v2 h = UB /\ dot_member_ds 0 v1 v2 h = UB.
Proof.
  intros H1 H2.
  unfold dot_d, dot_member_d, dot_s, dot_sd, dot_member_ds, noexcept, bind, vsize, check_size.
  unfold len in *. rewrite H1, H2. cbn [Nat.eqb ret].
  rewrite !dot_core_empty by (unfold len; auto). repeat split; reflexivity.
Qed.

(** ** Divergence for 2^32 elements and more *)
Lemma neg_d_diverges v vr h :
  fits_u32 (len h v) = false -> len h v = len h vr -> neg_d v vr h = Diverge.
Proof.
  intros Hf Hl. unfold neg_d, noexcept, bind at 1 2 3 4, vsize, check_size.
  fold (len h v) (len h vr). rewrite <- Hl, Nat.eqb_refl. unfold ret at 1.
  unfold neg_core_simd, bind, for_u32. rewrite Hf. reflexivity.
Qed.

(** ... and that is what the wrapping counter does on such vectors: no number of iterations
    suffices. *)
Lemma neg_loop_never_ends v vr h :
  (2 ^ 32 <= Z.of_nat (len h v))%Z -> len h v = len h vr ->
  forall fuel, u32_loop fuel 0 (Z.of_nat (len h v))
                 (fun i (_ : unit) => x <- load v i ;; store vr i (- x)) tt h = None.
Proof.
  intros Hn Hl.
  apply (wrapping_loop_diverges (fun h' => len h' v = len h v /\ len h' vr = len h vr)); auto.
  intros i [] h1 Hi [H1 H2].
  assert (P : post (x <- load v i ;; store vr i (- x)) h1
                   (fun _ h' => len h' v = len h v /\ len h' vr = len h vr)).
  { repeat (pstep; try lia). rewrite !len_hset. auto. }
  apply post_ok in P. destruct P as (a & s & E & H). exists a, s. auto.
Qed.
End Any.

Section Ring.
Context {T : Type} {O : Ops T} {R : IsRing T O}.
Add Ring Tr : (ring_th (IsRing := R)).

Lemma lsum_is_bsum (f : nat -> T) n : 0 < n -> lsum f (n - 1) = bsum n f.
Proof.
  intros Hn. destruct n as [|n]; [lia|]. cbn [Nat.sub]. rewrite Nat.sub_0_r. clear Hn.
  induction n as [|n IH]; cbn in *; [ring|]. rewrite IH. reflexivity.
Qed.

Lemma rd_vec_of (h : heap T) v i : rd h v i = vec_of (mem h v) i.
Proof. reflexivity. Qed.

Lemma reduction_dot n (x y : nat -> T) k t :
  Permutation (leaves t) (map (fun i => x i * y i) (seq 0 n) ++ repeat zero k) ->
  reval t = dotp n x y.
Proof. intros H. rewrite (reduction_any_order t _ k H). apply lsum_bsum. Qed.

Lemma vec_of_map2 (f : T -> T -> T) l1 l2 i :
  i < length l1 -> length l1 = length l2 ->
  vec_of (map2 f l1 l2) i = f (vec_of l1 i) (vec_of l2 i).
Proof. intros H E. unfold vec_of. apply nth_map2; lia. Qed.

End Ring.

Lemma norm2_d_R v (h : heap Rdefinitions.R) :
  fits_u32 (len h v) = true -> norm2_d v h = Ok (nrm (len h v) (vec_of (mem h v))) h.
Proof. exact (norm2_d_ok v h). Qed.
