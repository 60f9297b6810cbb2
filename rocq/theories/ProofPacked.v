(** * Packed storage: index arithmetic, layouts, back substitution *)
From Coq Require Import Ring Field.
From Verif Require Import Base Scalar BaseLemmas Spec Sums ModelVec ModelPacked FloatSqrt SpecMat.
Local Open Scope nat_scope.

(** ** Triangular numbers *)
Fixpoint tnum (n : nat) : nat := match n with 0 => 0 | S k => tnum k + S k end.

Lemma tnum_eq k : (k + 1) * k / 2 = tnum k.
Proof.
  induction k as [|k IH]; [reflexivity|]. cbn [tnum]. rewrite <- IH.
  replace ((S k + 1) * S k) with ((k + 1) * k + S k * 2) by lia.
  apply Nat.div_add. lia.
Qed.
Lemma tnum_eq' k : k * (k + 1) / 2 = tnum k.
Proof. rewrite <- tnum_eq. f_equal. lia. Qed.
Lemma tnum_S k : tnum (S k) = tnum k + S k. Proof. reflexivity. Qed.
Lemma tnum_mono a b : a <= b -> tnum a <= tnum b.
Proof. induction 1; auto. cbn [tnum]. lia. Qed.
Lemma tnum_2 k : 2 * tnum k = k * (k + 1).
Proof. induction k as [|k IH]; cbn [tnum]; lia. Qed.

Lemma hess_off_eq i j : hess_off i j = tnum j + j + i.
Proof. unfold hess_off. now rewrite tnum_eq. Qed.
Lemma utri_off_eq i j : utri_off i j = tnum j + i.
Proof. unfold utri_off. now rewrite tnum_eq. Qed.
Lemma low_off_eq i j : low_off i j = if Nat.ltb i j then tnum j + i else tnum i + j.
Proof. unfold low_off. destruct (Nat.ltb i j); now rewrite tnum_eq'. Qed.

Lemma nth_set_same {X} i (x d : X) l : i < length l -> nth i (set_nth i x l) d = x.
Proof. intros. now rewrite nth_set_nth, Nat.eqb_refl. Qed.

(** Number of stored elements. *)
Definition hess_len (n : nat) : nat := if Nat.eqb n 0 then 0 else (n * n + 3 * n - 2) / 2.
Definition tri_len (n : nat) : nat := n * (n + 1) / 2.

Lemma hess_len_S n : hess_len (S n) = tnum (S n) + n.
Proof.
  unfold hess_len. cbn [Nat.eqb].
  replace (S n * S n + 3 * S n - 2) with (tnum (S n) * 2 + n * 2) by (pose proof (tnum_2 (S n)); lia).
  rewrite <- Nat.mul_add_distr_r. apply Nat.div_mul. lia.
Qed.
Lemma hess_len_0 : hess_len 0 = 0. Proof. reflexivity. Qed.
Lemma tri_len_eq n : tri_len n = tnum n. Proof. apply tnum_eq'. Qed.

Lemma hess_off_lt n i j : i < n -> j < n -> i <= j + 1 -> hess_off i j < hess_len n.
Proof.
  intros Hi Hj Hij. rewrite hess_off_eq. destruct n as [|n]; [lia|]. rewrite hess_len_S.
  destruct (Nat.eq_dec j n) as [->|Ne].
  - rewrite tnum_S. lia.
  - assert (tnum (S j) <= tnum n) by (apply tnum_mono; lia). rewrite !tnum_S in *. lia.
Qed.
Lemma hess_off_inj i j i' j' : i <= j + 1 -> i' <= j' + 1 -> hess_off i j = hess_off i' j' -> i = i' /\ j = j'.
Proof.
  rewrite !hess_off_eq. intros H1 H2 E. destruct (Nat.lt_trichotomy j j') as [L|[->|L]]; [exfalso| |exfalso]; [|lia|].
  - assert (tnum (S j) <= tnum j') by (apply tnum_mono; lia). rewrite tnum_S in *. lia.
  - assert (tnum (S j') <= tnum j) by (apply tnum_mono; lia). rewrite tnum_S in *. lia.
Qed.
Lemma utri_off_lt n i j : i <= j -> j < n -> utri_off i j < tri_len n.
Proof.
  intros Hi Hj. rewrite utri_off_eq, tri_len_eq.
  assert (tnum (S j) <= tnum n) by (apply tnum_mono; lia). rewrite tnum_S in *. lia.
Qed.
Lemma utri_off_inj i j i' j' : i <= j -> i' <= j' -> utri_off i j = utri_off i' j' -> i = i' /\ j = j'.
Proof.
  rewrite !utri_off_eq. intros H1 H2 E. destruct (Nat.lt_trichotomy j j') as [L|[->|L]]; [exfalso| |exfalso]; [|lia|].
  - assert (tnum (S j) <= tnum j') by (apply tnum_mono; lia). rewrite tnum_S in *. lia.
  - assert (tnum (S j') <= tnum j) by (apply tnum_mono; lia). rewrite tnum_S in *. lia.
Qed.
Lemma low_off_utri i j : low_off i j = utri_off (Nat.min i j) (Nat.max i j).
Proof.
  rewrite low_off_eq, utri_off_eq. destruct (Nat.ltb_spec i j).
  - now rewrite Nat.min_l, Nat.max_r by lia.
  - now rewrite Nat.min_r, Nat.max_l by lia.
Qed.
Lemma low_off_lt n i j : i < n -> j < n -> low_off i j < tri_len n.
Proof. intros. rewrite low_off_utri. apply utri_off_lt; lia. Qed.
Lemma low_off_sym i j : low_off i j = low_off j i.
Proof. rewrite !low_off_utri. now rewrite Nat.min_comm, Nat.max_comm. Qed.
Lemma low_off_inj i j i' j' : low_off i j = low_off i' j' -> (i = i' /\ j = j') \/ (i = j' /\ j = i').
Proof. rewrite !low_off_utri. intros E. apply utri_off_inj in E; lia. Qed.

(** ** Size checks *)
Lemma hess_len_square n : 1 <= n -> 17 + 8 * hess_len n = (2 * n + 3) * (2 * n + 3).
Proof. intros H. destruct n as [|n]; [lia|]. rewrite hess_len_S. pose proof (tnum_2 (S n)). lia. Qed.
Lemma tri_len_square n : 1 + 8 * tri_len n = (2 * n + 1) * (2 * n + 1).
Proof. rewrite tri_len_eq. pose proof (tnum_2 n). lia. Qed.
Lemma odd_of_square q k : q * q = 1 + 8 * k -> exists n, q = 2 * n + 1.
Proof.
  intros H. destruct (Nat.Even_or_Odd q) as [[n ->]|[n ->]]; [exfalso; nia|]. eauto.
Qed.

Section Layout.
Context {T : Type} {Op : Ops T}.
Implicit Types (H : hess T) (U : utri T).

Lemma hess_of_ok isqrt {S} (l : list T) (s : S) n :
  isqrt_exact isqrt -> (Z.of_nat (17 + 8 * length l) <= 2 ^ 53)%Z -> length l = hess_len n ->
  hess_of isqrt l s = Ok (mkHess n l) s.
Proof.
  intros X B E. unfold hess_of, hess_calc_size, bind. destruct n as [|n].
  - rewrite E. reflexivity.
  - pose proof (hess_len_square (Datatypes.S n) ltac:(lia)) as Q.
    destruct (Nat.eqb_spec (length l) 0) as [Z0|_].
    { rewrite hess_len_S, tnum_S in E. lia. }
    rewrite E in *. rewrite Q in *. rewrite X by auto. rewrite Nat.eqb_refl. cbn [negb]. unfold ret.
    do 2 f_equal. replace (2 * Datatypes.S n + 3 - 3) with (Datatypes.S n * 2) by lia.
    apply Nat.div_mul. lia.
Qed.
Lemma hess_of_bad isqrt {S} (l : list T) (s : S) :
  (forall n, length l <> hess_len n) -> hess_of isqrt l s = Throw InvalidArgument s.
Proof.
  intros Hn. unfold hess_of, hess_calc_size, bind.
  destruct (Nat.eqb_spec (length l) 0) as [Z0|NZ].
  { exfalso. now apply (Hn 0). }
  destruct (Nat.eqb_spec (17 + 8 * length l) (isqrt (17 + 8 * length l) * isqrt (17 + 8 * length l))) as [E|_]; [|reflexivity].
  exfalso. set (q := isqrt _) in *. clearbody q.
  assert (Q : exists n, q = 2 * n + 1) by (apply (odd_of_square q (2 + length l)); lia).
  destruct Q as [n ->]. destruct n as [|n]; [lia|]. destruct n as [|n]; [lia|].
  apply (Hn (Datatypes.S n)). pose proof (hess_len_square (Datatypes.S n) ltac:(lia)). lia.
Qed.
Lemma utri_of_ok isqrt {S} (l : list T) (s : S) n :
  isqrt_exact isqrt -> (Z.of_nat (1 + 8 * length l) <= 2 ^ 53)%Z -> length l = tri_len n ->
  utri_of isqrt l s = Ok (mkUtri n l) s.
Proof.
  intros X B E. unfold utri_of, utri_calc_size, bind, noexcept.
  pose proof (tri_len_square n) as Q. rewrite E in *. rewrite Q in *. rewrite X by auto.
  rewrite Nat.eqb_refl. cbn [negb]. unfold ret. do 2 f_equal.
  replace (2 * n + 1 - 1) with (n * 2) by lia. apply Nat.div_mul. lia.
Qed.
Lemma utri_of_bad isqrt {S} (l : list T) (s : S) :
  (forall n, length l <> tri_len n) -> utri_of isqrt l s = Terminate.
Proof.
  intros Hn. unfold utri_of, utri_calc_size, bind, noexcept.
  destruct (Nat.eqb_spec (1 + 8 * length l) (isqrt (1 + 8 * length l) * isqrt (1 + 8 * length l))) as [E|_]; [|reflexivity].
  exfalso. set (q := isqrt _) in *. clearbody q.
  destruct (odd_of_square q (length l) ltac:(lia)) as [n ->].
  apply (Hn n). pose proof (tri_len_square n). lia.
Qed.

(** ** Concatenated blocks *)
Fixpoint offs (c : nat -> nat) (j : nat) : nat := match j with 0 => 0 | S k => offs c k + c k end.
Definition blocks (c : nat -> nat) (g : nat -> nat -> T) (n : nat) : list T :=
  flat_map (fun j => map (g j) (seq 0 (c j))) (seq 0 n).

Lemma blocks_S c g n : blocks c g (S n) = blocks c g n ++ map (g n) (seq 0 (c n)).
Proof. unfold blocks. rewrite seq_S, flat_map_app. cbn [flat_map]. now rewrite app_nil_r. Qed.
Lemma blocks_len c g n : length (blocks c g n) = offs c n.
Proof. induction n as [|n IH]; [reflexivity|]. rewrite blocks_S, app_length, map_length, seq_length, IH. reflexivity. Qed.
Lemma blocks_nth c g n j i d : j < n -> i < c j -> nth (offs c j + i) (blocks c g n) d = g j i.
Proof.
  induction n as [|n IH]; [lia|]. intros Hj Hi. rewrite blocks_S. destruct (Nat.eq_dec j n) as [->|Ne].
  - rewrite app_nth2; rewrite blocks_len; [|lia]. replace (offs c n + i - offs c n) with i by lia.
    now apply nth_map_seq.
  - rewrite app_nth1; [apply IH; lia|]. rewrite blocks_len.
    assert (M : forall a b, a <= b -> offs c a <= offs c b) by (induction 1; cbn [offs]; lia).
    pose proof (M (S j) n ltac:(lia)) as Q. cbn [offs] in Q. lia.
Qed.

Lemma nth_error_nth_some {X} (l : list X) i d : i < length l -> nth_error l i = Some (nth i l d).
Proof. intros. now apply nth_error_nth'. Qed.
Lemma vec_at_eq {S} (l : list T) i (s : S) : i < length l -> vec_at l i s = Ok (nth i l zero) s.
Proof. intros L. unfold vec_at. rewrite (nth_error_nth_some l i zero L). reflexivity. Qed.
Lemma vec_set_eq {S} (l : list T) i x (s : S) : i < length l -> vec_set l i x s = Ok (set_nth i x l) s.
Proof. intros L. unfold vec_set. destruct (Nat.ltb_spec i (length l)); [reflexivity|lia]. Qed.

(** Well-formed containers *)
Definition hess_wf H n : Prop := hn H = n /\ length (hv H) = hess_len n.
(** ... with the entry below the last diagonal element stored as well. *)
Definition hess_wfx H n : Prop := hn H = n /\ length (hv H) = n * (n + 3) / 2.
Definition utri_wf U n : Prop := un U = n /\ length (uv U) = tri_len n.

Lemma hess_lenx_eq n : n * (n + 3) / 2 = tnum n + n.
Proof.
  replace (n * (n + 3)) with (tnum n * 2 + n * 2) by (pose proof (tnum_2 n); lia).
  rewrite <- Nat.mul_add_distr_r. apply Nat.div_mul. lia.
Qed.
Lemma hess_len_le n : hess_len n <= tnum n + n.
Proof. destruct n; [cbn; lia|]. rewrite hess_len_S. lia. Qed.

Lemma hess_get_in {S} H n i j (s : S) :
  hess_len n <= length (hv H) -> i < n -> j < n -> i <= j + 1 ->
  hess_get H i j s = Ok (nth (hess_off i j) (hv H) zero) s.
Proof.
  intros L Hi Hj Hij. unfold hess_get. destruct (Nat.leb_spec i (j + 1)); [|lia].
  apply vec_at_eq. pose proof (hess_off_lt n i j Hi Hj Hij). lia.
Qed.
Lemma hess_get_below {S} H i j (s : S) : j + 1 < i -> hess_get H i j s = Ok zero s.
Proof. intros. unfold hess_get. destruct (Nat.leb_spec i (j + 1)); [lia|reflexivity]. Qed.

Lemma utri_get_in {S} U n i j (s : S) :
  utri_wf U n -> i <= j -> j < n -> utri_get U i j s = Ok (nth (utri_off i j) (uv U) zero) s.
Proof.
  intros [_ L] Hi Hj. unfold utri_get. destruct (Nat.leb_spec i j); [|lia].
  apply vec_at_eq. rewrite L. now apply utri_off_lt.
Qed.
Lemma utri_get_below {S} U i j (s : S) : j < i -> utri_get U i j s = Ok zero s.
Proof. intros. unfold utri_get. destruct (Nat.leb_spec i j); [lia|reflexivity]. Qed.

(** appending keeps the old entries *)
Lemma hess_get_app {S} n m l e i j (s : S) :
  hess_off i j < length l -> hess_get (mkHess m (l ++ e)) i j s = hess_get (mkHess n l) i j s.
Proof.
  intros L. unfold hess_get. destruct (i <=? j + 1); auto. cbn [hv].
  rewrite !vec_at_eq by (rewrite ?app_length; lia). now rewrite app_nth1.
Qed.
Lemma hess_get_new {S} m l e i j k (s : S) :
  i <= j + 1 -> hess_off i j = length l + k -> k < length e ->
  hess_get (mkHess m (l ++ e)) i j s = Ok (nth k e zero) s.
Proof.
  intros Hi E K. unfold hess_get. destruct (Nat.leb_spec i (j + 1)); [|lia]. cbn [hv].
  rewrite vec_at_eq by (rewrite app_length; lia). rewrite app_nth2 by lia. do 2 f_equal. lia.
Qed.
Lemma utri_get_app {S} n m l e i j (s : S) :
  utri_off i j < length l -> utri_get (mkUtri m (l ++ e)) i j s = utri_get (mkUtri n l) i j s.
Proof.
  intros L. unfold utri_get. destruct (i <=? j); auto. cbn [uv].
  rewrite !vec_at_eq by (rewrite ?app_length; lia). now rewrite app_nth1.
Qed.
Lemma utri_get_new {S} m l e i j k (s : S) :
  i <= j -> utri_off i j = length l + k -> k < length e ->
  utri_get (mkUtri m (l ++ e)) i j s = Ok (nth k e zero) s.
Proof.
  intros Hi E K. unfold utri_get. destruct (Nat.leb_spec i j); [|lia]. cbn [uv].
  rewrite vec_at_eq by (rewrite app_length; lia). rewrite app_nth2 by lia. do 2 f_equal. lia.
Qed.

End Layout.

(** ** Back substitution *)
Section BackSub.
Context {T : Type} {Op : Ops T} {F : IsField T Op}.
Add Field Tfield5 : (field_th (IsField := F)).
Implicit Types (h : heap T) (U : utri T).

(** The matrix is what its element reads say. *)
Definition utri_reads U n (f : nat -> nat -> T) : Prop :=
  un U = n /\ forall i j, i < n -> j < n -> forall S (s : S), utri_get U i j s = Ok (f i j) s.

Local Open Scope sc_scope.

Lemma back_sub_ok U y n f h :
  utri_reads U n f -> isvec h y n -> upper_tri n f -> diag_nz n f ->
  post (back_sub U y) h (fun _ h' =>
    ext_but h h' y /\ next h' = next h /\ isvec h' y n /\ solves n f (rd h' y) (rd h y)).
Proof.
  intros [Hn HU] [Hy Hl] Hup Hnz. unfold back_sub.
  apply post_bind, post_vsize. rewrite Hl, Hn, Nat.eqb_refl. cbn [negb].
  set (b := rd h y).
  apply post_down_sz with (I := fun k (_ : unit) h1 =>
    next h1 = next h /\ (forall q, q <> y -> mem h1 q = mem h q) /\ len h1 y = n /\
    (forall i, (i < k)%nat -> rd h1 y i = b i) /\
    (forall i, (k <= i < n)%nat ->
       f i i * rd h1 y i + bsum (n - S i) (fun t => f i (S i + t)%nat * rd h1 y (S i + t)%nat) = b i)).
  - repeat split; auto. intros. lia.
  - intros k [] h1 Hk (N1 & M1 & L1 & P1 & P2). apply post_bind.
    apply post_for_sz with (I := fun j (_ : unit) h2 =>
      next h2 = next h /\ (forall q, q <> y -> mem h2 q = mem h q) /\ len h2 y = n /\
      (forall i, i <> k -> rd h2 y i = rd h1 y i) /\
      rd h2 y k = b k - bsum (j - S k) (fun t => f k (S k + t)%nat * rd h1 y (S k + t)%nat)).
    + lia.
    + replace (k + 1 - S k)%nat with 0%nat by lia. repeat split; auto. rewrite P1 by lia. cbn [bsum]. ring.
    + intros j [] h2 Hj (N2 & M2 & L2 & R2 & V2).
      apply post_bind. apply post_load; [lia|].
      apply post_bind. eapply ok_post; [apply HU; lia|].
      apply post_bind. apply post_load; [lia|]. apply post_store; [lia|].
      repeat split.
      * now rewrite next_hset.
      * intros q Hq. rewrite mem_hset_other by auto. auto.
      * now rewrite len_hset.
      * intros i Hi. rewrite rd_hset_idx by auto. auto.
      * rewrite rd_hset_same by lia. rewrite V2, R2 by lia.
        replace (S j - S k)%nat with (S (j - S k)) by lia. cbn [bsum].
        replace (S k + (j - S k))%nat with j by lia. ring.
    + intros [] h2 (N2 & M2 & L2 & R2 & V2).
      apply post_bind. apply post_load; [lia|].
      apply post_bind. eapply ok_post; [apply HU; lia|].
      apply post_store; [lia|].
      repeat split.
      * now rewrite next_hset.
      * intros q Hq. rewrite mem_hset_other by auto. auto.
      * now rewrite len_hset.
      * intros i Hi. rewrite rd_hset_idx, R2 by lia. auto with arith.
      * intros i Hi. destruct (Nat.eq_dec i k) as [->|Ne].
        -- rewrite rd_hset_same by lia. rewrite V2.
           rewrite (bsum_ext (n - S k) (fun t => f k (S k + t)%nat * rd (hset h2 y k _) y (S k + t)%nat)
             (fun t => f k (S k + t)%nat * rd h1 y (S k + t)%nat)).
           ++ field. apply Hnz. lia.
           ++ intros t Ht. rewrite rd_hset_idx, R2 by lia. reflexivity.
        -- rewrite rd_hset_idx, R2 by lia.
           rewrite (bsum_ext (n - S i) (fun t => f i (S i + t)%nat * rd (hset h2 y k _) y (S i + t)%nat)
             (fun t => f i (S i + t)%nat * rd h1 y (S i + t)%nat)).
           ++ apply P2. lia.
           ++ intros t Ht. rewrite rd_hset_idx, R2 by lia. reflexivity.
  - intros [] h' (N1 & M1 & L1 & _ & P2). split; [split; [lia|auto]|]. split; [auto|]. split; [split; lia|].
    { intros i Hi. unfold mvmul. rewrite (bsum_split n i) by lia.
      rewrite (bsum_zero i), <- (P2 i) by (try lia; intros j Hj; rewrite (Hup i j) by lia; ring).
      replace (n - i)%nat with (S (n - S i)) by lia. rewrite bsum_first.
      rewrite (bsum_ext (n - S i) _ (fun t => f i (S i + t)%nat * rd h' y (S i + t)%nat)).
      * rewrite Nat.add_0_r. ring.
      * intros t _. now replace (i + S t)%nat with (S i + t)%nat by lia. }
Qed.

End BackSub.
