(** * Properties C20-C26, C54: tridiagonal, Hessenberg, triangular, Hermitian containers *)
From Coq Require Import QArith Qcanon.
From Verif Require Import Base Scalar BaseLemmas Spec Sums ModelPacked FloatSqrt SpecMat ProofPacked.
Local Open Scope nat_scope.

Section Packed.
Context (T : Type) (Op : Ops T).

(** ** C20: tridiagonal access *)

(** The mathematical tridiagonal matrix with bands dl, d, du. *)
Definition band (dl d du : list T) (i j : nat) : T :=
  if Nat.eqb i j then nth i d zero
  else if Nat.eqb j (i + 1) then nth i du zero
  else if Nat.eqb i (j + 1) then nth j dl zero
  else zero.
(** A tridiagonal object of order n (for the dynamic class the constructor does not check
    this; for the static one the types do). *)
Definition tri_wf (t : tri T) n : Prop := length (td t) = n /\ length (tdl t) = n - 1 /\ length (tdu t) = n - 1.
Definition in_band i j : Prop := i <= j + 1 /\ j <= i + 1.

Lemma tri_where_spec n i j : i < n -> j < n -> (Z.of_nat n < 2 ^ 64)%Z ->
  tri_where i j = if Nat.eqb i j then InD i else if Nat.eqb j (i + 1) then InU i
                  else if Nat.eqb i (j + 1) then InL j else Outside.
Proof.
  intros Hi Hj Hn. unfold tri_where.
  destruct (Nat.eqb_spec i j); auto.
  destruct j as [|j].
  - destruct (Z.eqb_spec (Z.of_nat i) (2 ^ 64 - 1)); [lia|].
    destruct (Nat.eqb_spec 0 (i + 1)); [lia|]. destruct (Nat.eqb_spec i (0 + 1)); auto. f_equal. lia.
  - destruct (Nat.eqb_spec i j), (Nat.eqb_spec (S j) (i + 1)); try lia; auto.
    destruct (Nat.eqb_spec i (S j + 1)); auto. f_equal. lia.
Qed.

Theorem C20_read : forall t n i j, tri_wf t n -> (Z.of_nat n < 2 ^ 64)%Z -> i < n -> j < n -> in_band i j ->
  (forall S (s : S), tri_get t i j s = Ok (band (tdl t) (td t) (tdu t) i j) s) /\
  (forall e, tri_get_mut e i j t = Ok (band (tdl t) (td t) (tdu t) i j) t).
Proof.
  intros t n i j (W1 & W2 & W3) Hn Hi Hj [B1 B2]. unfold tri_get, tri_get_mut, band.
  rewrite (tri_where_spec n) by auto.
  destruct (Nat.eqb_spec i j).
  { split; intros; rewrite vec_at_eq by lia; reflexivity. }
  destruct (Nat.eqb_spec j (i + 1)).
  { split; intros; rewrite vec_at_eq by lia; reflexivity. }
  destruct (Nat.eqb_spec i (j + 1)); [|lia].
  split; intros; rewrite vec_at_eq by lia; reflexivity.
Qed.

(** Writing in the band: exactly one element of the (mathematical) matrix changes. *)
Theorem C20_write : forall e t n i j x, tri_wf t n -> (Z.of_nat n < 2 ^ 64)%Z -> i < n -> j < n -> in_band i j ->
  exists t', tri_set e i j x t = Ok tt t' /\ tri_wf t' n /\
    forall i' j', i' < n -> j' < n ->
      band (tdl t') (td t') (tdu t') i' j' =
      if Nat.eqb i' i && Nat.eqb j' j then x else band (tdl t) (td t) (tdu t) i' j'.
Proof.
  intros e t n i j x (W1 & W2 & W3) Hn Hi Hj [B1 B2]. unfold tri_set.
  rewrite (tri_where_spec n) by auto.
  destruct (Nat.eqb_spec i j).
  { subst j. unfold bind. rewrite vec_set_eq by lia. eexists. split; [reflexivity|]. split.
    { repeat split; cbn [td tdl tdu]; rewrite ?set_nth_length; auto. }
    intros i' j' Hi' Hj'. unfold band. cbn [td tdl tdu].
    destruct (Nat.eqb_spec i' j').
    - subst j'. destruct (Nat.eqb_spec i' i); cbn [andb].
      + subst. apply nth_set_same. lia.
      + now rewrite nth_set_nth_other by auto.
    - destruct (Nat.eqb_spec i' i), (Nat.eqb_spec j' i); cbn [andb]; try lia; auto. }
  destruct (Nat.eqb_spec j (i + 1)).
  { subst j. unfold bind. rewrite vec_set_eq by lia. eexists. split; [reflexivity|]. split.
    { repeat split; cbn [td tdl tdu]; rewrite ?set_nth_length; auto. }
    intros i' j' Hi' Hj'. unfold band. cbn [td tdl tdu].
    destruct (Nat.eqb_spec i' j').
    { subst. destruct (Nat.eqb_spec j' i), (Nat.eqb_spec j' (i + 1)); cbn [andb]; try lia; auto. }
    destruct (Nat.eqb_spec j' (i' + 1)).
    - subst j'. destruct (Nat.eqb_spec i' i).
      + subst. rewrite Nat.eqb_refl. cbn [andb]. apply nth_set_same. lia.
      + cbn [andb]. now rewrite nth_set_nth_other by auto.
    - destruct (Nat.eqb_spec i' i), (Nat.eqb_spec j' (i + 1)); cbn [andb]; try lia; auto. }
  destruct (Nat.eqb_spec i (j + 1)); [|lia].
  subst i. unfold bind. rewrite vec_set_eq by lia. eexists. split; [reflexivity|]. split.
  { repeat split; cbn [td tdl tdu]; rewrite ?set_nth_length; auto. }
  intros i' j' Hi' Hj'. unfold band. cbn [td tdl tdu].
  destruct (Nat.eqb_spec i' j').
  { subst. destruct (Nat.eqb_spec j' (j + 1)), (Nat.eqb_spec j' j); cbn [andb]; try lia; auto. }
  destruct (Nat.eqb_spec j' (i' + 1)).
  { subst. destruct (Nat.eqb_spec i' (j + 1)), (Nat.eqb_spec (i' + 1) j); cbn [andb]; try lia; auto. }
  destruct (Nat.eqb_spec i' (j' + 1)).
  - subst i'. destruct (Nat.eqb_spec j' j).
    + subst. rewrite Nat.eqb_refl. cbn [andb]. apply nth_set_same. lia.
    + rewrite andb_false_r. now rewrite nth_set_nth_other by auto.
  - destruct (Nat.eqb_spec i' (j + 1)), (Nat.eqb_spec j' j); cbn [andb]; try lia; auto.
Qed.

(** Outside the band: writes and non-const reads throw and change nothing. *)
Theorem C20_write_outside : forall e (t : tri T) n i j x, i < n -> j < n -> (Z.of_nat n < 2 ^ 64)%Z -> ~ in_band i j ->
  tri_set e i j x t = Throw e t /\ tri_get_mut e i j t = Throw e t.
Proof.
  intros e t n i j x Hi Hj Hn B. unfold in_band in B. unfold tri_set, tri_get_mut.
  rewrite (tri_where_spec n) by auto.
  destruct (Nat.eqb_spec i j); [lia|]. destruct (Nat.eqb_spec j (i + 1)); [lia|].
  destruct (Nat.eqb_spec i (j + 1)); [lia|]. auto.
Qed.

(** ... but reads of a const matrix go through a dangling reference: every one is undefined. *)
Theorem C20_const_read_outside_partial : forall (t : tri T) n i j S (s : S),
  i < n -> j < n -> (Z.of_nat n < 2 ^ 64)%Z -> ~ in_band i j -> tri_get t i j s = UB.
Proof.
  intros t n i j S s Hi Hj Hn B. unfold in_band in B. unfold tri_get. rewrite (tri_where_spec n) by auto.
  destruct (Nat.eqb_spec i j); [lia|]. destruct (Nat.eqb_spec j (i + 1)); [lia|].
  destruct (Nat.eqb_spec i (j + 1)); [lia|]. auto.
Qed.

(** The unchecked dynamic constructor: with bands of other lengths an in-band read may leave the
    vectors. *)
Theorem C20_unchecked_lengths : forall (dl d du : list T) i S (s : S),
  (length du <= i -> (Z.of_nat i + 2 < 2 ^ 64)%Z -> tri_get (tri_of dl d du) i (i + 1) s = UB) /\
  (length dl <= i -> (Z.of_nat i + 2 < 2 ^ 64)%Z -> tri_get (tri_of dl d du) (i + 1) i s = UB).
Proof.
  intros dl d du i S s. split; intros L B; unfold tri_get; rewrite (tri_where_spec (i + 2)) by lia.
  - destruct (Nat.eqb_spec i (i + 1)); [lia|]. rewrite Nat.eqb_refl. unfold vec_at. cbn [tdu tri_of].
    now rewrite (proj2 (nth_error_None du i)).
  - destruct (Nat.eqb_spec (i + 1) i); [lia|]. destruct (Nat.eqb_spec i (i + 1 + 1)); [lia|].
    rewrite Nat.eqb_refl. unfold vec_at. cbn [tdl tri_of].
    now rewrite (proj2 (nth_error_None dl i)).
Qed.

(** ** C21: Hessenberg storage *)

(** Packed offsets are in bounds and injective. *)
Theorem C21_offsets : forall n i j i' j', i < n -> j < n -> i <= j + 1 ->
  hess_off i j < hess_len n /\ (i' <= j' + 1 -> hess_off i j = hess_off i' j' -> i = i' /\ j = j').
Proof. intros. split; [now apply hess_off_lt|]. intros. now apply hess_off_inj. Qed.

(** Storage order: column by column, column j holding rows 0 .. min(j+1, n-1). *)
Theorem C21_layout : forall (f : nat -> nat -> T) n isqrt S (s : S),
  isqrt_exact isqrt -> (Z.of_nat (17 + 8 * hess_len n) <= 2 ^ 53)%Z ->
  exists H, hess_of isqrt (blocks (fun j => Nat.min (j + 2) n) (fun j i => f i j) n) s = Ok H s /\
    hess_wf H n /\
    forall i j, i < n -> j < n ->
      hess_get H i j s = Ok (if Nat.leb i (j + 1) then f i j else zero) s.
Proof.
  intros f n isqrt S s X B.
  assert (Off : forall j, j < n -> offs (fun j => Nat.min (j + 2) n) j = tnum j + j).
  { induction j as [|j IH]; intros Hj; [reflexivity|]. cbn [offs]. rewrite IH, tnum_S by lia. lia. }
  assert (L : length (blocks (fun j => Nat.min (j + 2) n) (fun j i => f i j) n) = hess_len n).
  { rewrite blocks_len. destruct n as [|n]; [reflexivity|]. cbn [offs]. rewrite Off by lia.
    rewrite hess_len_S, tnum_S. lia. }
  eexists. split; [apply hess_of_ok; auto; now rewrite L|]. split; [split; auto|].
  intros i j Hi Hj. destruct (Nat.leb_spec i (j + 1)).
  - rewrite (hess_get_in _ n) by (cbn [hv]; rewrite ?L; auto). rewrite hess_off_eq, <- Off by auto. cbn [hv].
    rewrite blocks_nth; auto. lia.
  - apply hess_get_below. lia.
Qed.

Theorem C21_read : forall (H : hess T) n i j S (s : S), hess_wf H n -> i < n -> j < n ->
  (j + 1 < i -> hess_get H i j s = Ok zero s) /\ exists x : T, hess_get H i j s = Ok x s.
Proof.
  intros H n i j S s [W1 W2] Hi Hj. split; [apply hess_get_below|].
  destruct (Nat.le_gt_cases i (j + 1)).
  - eexists. apply (hess_get_in H n); auto. lia.
  - eexists. now apply hess_get_below.
Qed.

Theorem C21_write : forall (H : hess T) n i j (x : T), hess_wf H n -> i < n -> j < n ->
  (j + 1 < i -> hess_set i j x H = Throw InvalidArgument H) /\
  (i <= j + 1 -> exists H', hess_set i j x H = Ok tt H' /\ hess_wf H' n /\
     forall i' j' S (s : S), i' < n -> j' < n ->
       hess_get H' i' j' s = if Nat.eqb i' i && Nat.eqb j' j then Ok x s else hess_get H i' j' s).
Proof.
  intros H n i j x [W1 W2] Hi Hj. unfold hess_set. split; intros C.
  - destruct (Nat.leb_spec i (j + 1)); [lia|reflexivity].
  - destruct (Nat.leb_spec i (j + 1)); [|lia]. pose proof (hess_off_lt n i j Hi Hj C) as B.
    unfold bind. rewrite vec_set_eq by lia. eexists. split; [reflexivity|]. split.
    { split; cbn [hn hv]; rewrite ?set_nth_length; auto. }
    intros i' j' S s Hi' Hj'. destruct (Nat.le_gt_cases i' (j' + 1)).
    + rewrite !(hess_get_in _ n) by (cbn [hv]; rewrite ?set_nth_length; auto; lia). cbn [hv].
      destruct (Nat.eqb_spec i' i), (Nat.eqb_spec j' j); cbn [andb]; subst.
      * rewrite nth_set_same by lia. reflexivity.
      * rewrite nth_set_nth_other; [reflexivity|]. intros E. apply hess_off_inj in E; lia.
      * rewrite nth_set_nth_other; [reflexivity|]. intros E. apply hess_off_inj in E; lia.
      * rewrite nth_set_nth_other; [reflexivity|]. intros E. apply hess_off_inj in E; lia.
    + rewrite !hess_get_below by lia.
      destruct (Nat.eqb_spec i' i), (Nat.eqb_spec j' j); cbn [andb]; auto. lia.
Qed.

(** The size check accepts exactly the lengths (n^2+3n-2)/2 (and 0) and recovers n. *)
Theorem C21_size_check : forall isqrt (l : list T) S (s : S), isqrt_exact isqrt ->
  (Z.of_nat (17 + 8 * length l) <= 2 ^ 53)%Z ->
  (forall n, length l = hess_len n -> hess_of isqrt l s = Ok (mkHess n l) s) /\
  ((forall n, length l <> hess_len n) -> hess_of isqrt l s = Throw InvalidArgument s).
Proof. intros. split; intros; [now apply hess_of_ok|now apply hess_of_bad]. Qed.

(** binary64 square roots qualify. *)
Theorem C21_isqrt64 : isqrt_exact isqrt64.
Proof. exact isqrt64_exact. Qed.

(** ** C22: growing a Hessenberg matrix *)

Theorem C22_extend_zero : forall (H : hess T) n, hess_wf H n ->
  exists H', hess_extend_zero H = Ok tt H' /\ hess_wf H' (n + 1) /\
    (forall i j S (s : S), i < n -> j < n -> hess_get H' i j s = hess_get H i j s) /\
    (forall i S (s : S), i <= n -> hess_get H' i n s = Ok zero s) /\
    (forall S (s : S), 1 <= n -> hess_get H' n (n - 1) s = Ok zero s).
Proof.
  intros [n' l] n [W1 W2]. cbn [hn hv] in W1, W2. subst n'. unfold hess_extend_zero. cbn [hn hv].
  eexists. split; [reflexivity|].
  set (e := if n =? 0 then repeat zero 1 else repeat zero (n + 2)).
  assert (Le : length e = if n =? 0 then 1 else n + 2) by (unfold e; destruct (n =? 0); apply repeat_length).
  assert (Ze : forall k, nth k e zero = zero) by (intros; unfold e; destruct (n =? 0); apply nth_repeat_same).
  assert (Ll : hess_len (n + 1) = length l + length e).
  { rewrite Nat.add_1_r, hess_len_S, W2, Le, tnum_S. destruct n as [|n]; [reflexivity|]. rewrite hess_len_S.
    cbn [Nat.eqb]. rewrite tnum_S. lia. }
  split; [split; [reflexivity|cbn [hv]; rewrite app_length; lia]|].
  split; [|split].
  - intros i j S s Hi Hj. destruct (Nat.le_gt_cases i (j + 1)).
    + apply (hess_get_app n). rewrite W2. now apply hess_off_lt.
    + now rewrite !hess_get_below by lia.
  - intros i S s Hi.
    assert (B : hess_off i n < length l + length e) by (rewrite <- Ll; apply hess_off_lt; lia).
    rewrite (hess_get_in _ (n + 1)); cbn [hv]; try (rewrite ?app_length; lia).
    rewrite app_nth2, Ze; [reflexivity|]. rewrite W2, hess_off_eq. pose proof (hess_len_le n). lia.
  - intros S s Hn.
    assert (B : hess_off n (n - 1) < length l + length e) by (rewrite <- Ll; apply hess_off_lt; lia).
    rewrite (hess_get_in _ (n + 1)); cbn [hv]; try (rewrite ?app_length; lia).
    rewrite app_nth2, Ze; [reflexivity|]. rewrite W2, hess_off_eq.
    destruct n as [|n]; [lia|]. rewrite hess_len_S, tnum_S. replace (Datatypes.S n - 1) with n by lia. lia.
Qed.

(** The n+2 given entries are: the sub-diagonal entry of the old last column, then the new
    column's rows 0 .. n. *)
Theorem C22_extend : forall (H : hess T) n e, hess_wf H n -> 1 <= n -> length e = n + 2 ->
  exists H', hess_extend e H = Ok tt H' /\ hess_wf H' (n + 1) /\
    (forall i j S (s : S), i < n -> j < n -> hess_get H' i j s = hess_get H i j s) /\
    (forall S (s : S), hess_get H' n (n - 1) s = Ok (nth 0 e zero) s) /\
    (forall i S (s : S), i <= n -> hess_get H' i n s = Ok (nth (1 + i) e zero) s).
Proof.
  intros [n' l] n e [W1 W2] Hn He. cbn [hn hv] in W1, W2. subst n'. unfold hess_extend. cbn [hn hv].
  rewrite He, Nat.eqb_refl. cbn [negb]. eexists. split; [reflexivity|].
  destruct n as [|n]; [lia|]. rewrite hess_len_S in W2.
  split; [split; [reflexivity|cbn [hv]; rewrite app_length, W2, He, Nat.add_1_r, hess_len_S, !tnum_S; lia]|].
  split; [|split].
  - intros i j S s Hi Hj. destruct (Nat.le_gt_cases i (j + 1)).
    + apply (hess_get_app (Datatypes.S n)). rewrite W2, <- hess_len_S. now apply hess_off_lt.
    + now rewrite !hess_get_below by lia.
  - intros S s. apply hess_get_new; [lia| |lia]. rewrite hess_off_eq, W2, tnum_S.
    replace (Datatypes.S n - 1) with n by lia. lia.
  - intros i S s Hi. apply hess_get_new; [lia| |lia]. rewrite hess_off_eq, W2, tnum_S. lia.
Qed.

(** Starting from the empty matrix the layout is one entry longer; there the n+2 given entries
    are column n, rows 0 .. n+1. *)
Theorem C22_extend_from_empty :
  hess_wfx (mkHess 0 (@nil T)) 0 /\
  forall (H : hess T) n e, hess_wfx H n -> length e = n + 2 ->
  exists H', hess_extend e H = Ok tt H' /\ hess_wfx H' (n + 1) /\
    (forall i j S (s : S), i <= n -> j < n -> hess_get H' i j s = hess_get H i j s) /\
    (forall i S (s : S), i <= n + 1 -> hess_get H' i n s = Ok (nth i e zero) s).
Proof.
  split; [split; reflexivity|].
  intros [n' l] n e [W1 W2] He. cbn [hn hv] in W1, W2. subst n'. unfold hess_extend. cbn [hn hv].
  rewrite He, Nat.eqb_refl. cbn [negb]. eexists. split; [reflexivity|].
  rewrite hess_lenx_eq in W2.
  split; [split; [reflexivity|cbn [hv]; rewrite app_length, W2, He, hess_lenx_eq, Nat.add_1_r, tnum_S; lia]|].
  split.
  - intros i j S s Hi Hj. destruct (Nat.le_gt_cases i (j + 1)).
    + apply (hess_get_app n). rewrite W2, hess_off_eq.
      pose proof (tnum_mono (Datatypes.S j) n ltac:(lia)). rewrite tnum_S in *. lia.
    + now rewrite !hess_get_below by lia.
  - intros i S s Hi. apply hess_get_new; [lia| |lia]. rewrite hess_off_eq, W2. lia.
Qed.

Theorem C22_bad_length : forall (H : hess T) e, length e <> hn H + 2 -> hess_extend e H = Throw InvalidArgument H.
Proof.
  intros H e He. unfold hess_extend. destruct (Nat.eqb_spec (length e) (hn H + 2)); [lia|reflexivity].
Qed.

(** Consequence: k successive extensions of the empty matrix by columns of a matrix f. *)
Fixpoint grow (f : nat -> nat -> T) (k : nat) : M (hess T) unit :=
  match k with 0 => ret tt | S k' => grow f k' ;; hess_extend (map (fun i => f i k') (seq 0 (k' + 2))) end.
Theorem C22_columns : forall f k, exists H, grow f k (mkHess 0 []) = Ok tt H /\ hess_wfx H k /\
  forall i j S (s : S), i <= k -> j < k -> hess_get H i j s = Ok (if Nat.leb i (j + 1) then f i j else zero) s.
Proof.
  intros f. induction k as [|k (H & E & W & R)].
  - eexists. split; [reflexivity|]. split; [apply C22_extend_from_empty|]. intros; lia.
  - cbn [grow]. unfold bind. rewrite E.
    destruct (proj2 C22_extend_from_empty H k (map (fun i => f i k) (seq 0 (k + 2))) W) as (H' & E' & W' & O1 & O2).
    { now rewrite map_length, seq_length. }
    exists H'. split; [exact E'|]. split; [now rewrite Nat.add_1_r in W'|].
    intros i j S s Hi Hj. destruct (Nat.eq_dec j k) as [->|Ne].
    + rewrite O2 by lia. destruct (Nat.leb_spec i (k + 1)); [|lia]. now rewrite nth_map_seq by lia.
    + destruct (Nat.eq_dec i (Datatypes.S k)) as [->|Ni].
      * rewrite hess_get_below by lia. destruct (Nat.leb_spec (Datatypes.S k) (j + 1)); [lia|reflexivity].
      * rewrite O1 by lia. apply R; lia.
Qed.

(** ** C54: column view *)
Theorem C54_get_col : forall (H : hess T) n j S (s : S), hess_wf H n -> j < n ->
  exists c, hess_col H j s = Ok c s /\ length c = Nat.min (j + 2) n /\
    forall i, i < length c -> hess_get H i j s = Ok (nth i c zero) s.
Proof.
  intros H n j S s [W1 W2] Hj. unfold hess_col. rewrite !tnum_eq.
  destruct n as [|n]; [lia|].
  assert (E : Nat.min (tnum j + j + j + 2) (length (hv H)) = tnum j + j + Nat.min (j + 2) (Datatypes.S n)).
  { rewrite W2, hess_len_S. destruct (Nat.eq_dec j n) as [->|Ne].
    - rewrite tnum_S. lia.
    - pose proof (tnum_mono (Datatypes.S (Datatypes.S j)) (Datatypes.S n) ltac:(lia)). rewrite !tnum_S in *. lia. }
  rewrite E. destruct (Nat.ltb_spec (tnum j + j + Nat.min (j + 2) (Datatypes.S n)) (tnum j + j)); [lia|].
  eexists. split; [reflexivity|].
  replace (tnum j + j + Nat.min (j + 2) (Datatypes.S n) - (tnum j + j)) with (Nat.min (j + 2) (Datatypes.S n)) by lia.
  assert (L : length (firstn (Nat.min (j + 2) (Datatypes.S n)) (skipn (tnum j + j) (hv H))) = Nat.min (j + 2) (Datatypes.S n)).
  { rewrite firstn_length, skipn_length. lia. }
  split; [exact L|]. rewrite L. intros i Hi.
  rewrite (hess_get_in H (Datatypes.S n)) by lia. rewrite hess_off_eq. f_equal.
  rewrite <- (firstn_skipn (tnum j + j) (hv H)) at 1.
  rewrite app_nth2; rewrite firstn_length; [|lia].
  replace (tnum j + j + i - Nat.min (tnum j + j) (length (hv H))) with i by lia.
  rewrite <- (firstn_skipn (Nat.min (j + 2) (Datatypes.S n)) (skipn (tnum j + j) (hv H))) at 1.
  rewrite app_nth1 by lia. reflexivity.
Qed.

(** ** C23: upper triangular storage *)

Theorem C23_offsets : forall n i j i' j', i <= j -> j < n ->
  utri_off i j < tri_len n /\ (i' <= j' -> utri_off i j = utri_off i' j' -> i = i' /\ j = j').
Proof. intros. split; [now apply utri_off_lt|]. intros. now apply utri_off_inj. Qed.

Theorem C23_layout : forall (f : nat -> nat -> T) n isqrt S (s : S),
  isqrt_exact isqrt -> (Z.of_nat (1 + 8 * tri_len n) <= 2 ^ 53)%Z ->
  exists U, utri_of isqrt (blocks (fun j => j + 1) (fun j i => f i j) n) s = Ok U s /\
    utri_wf U n /\
    forall i j, i < n -> j < n -> utri_get U i j s = Ok (if Nat.leb i j then f i j else zero) s.
Proof.
  intros f n isqrt S s X B.
  assert (Off : forall j, offs (fun j => j + 1) j = tnum j).
  { induction j as [|j IH]; [reflexivity|]. cbn [offs tnum]. lia. }
  assert (L : length (blocks (fun j => j + 1) (fun j i => f i j) n) = tri_len n).
  { now rewrite blocks_len, Off, tri_len_eq. }
  eexists. split; [apply utri_of_ok; auto; now rewrite L|]. split; [split; auto|].
  intros i j Hi Hj. destruct (Nat.leb_spec i j).
  - rewrite (utri_get_in _ n) by (try split; auto). rewrite utri_off_eq, <- Off. cbn [uv].
    rewrite blocks_nth; auto. lia.
  - apply utri_get_below. lia.
Qed.

Theorem C23_read : forall (U : utri T) n i j S (s : S), utri_wf U n -> i < n -> j < n ->
  (j < i -> utri_get U i j s = Ok zero s) /\ exists x, utri_get U i j s = Ok x s.
Proof.
  intros U n i j S s W Hi Hj. split; [apply utri_get_below|].
  destruct (Nat.le_gt_cases i j); eexists; [now apply (utri_get_in U n)|now apply utri_get_below].
Qed.

Theorem C23_write : forall (U : utri T) n i j x, utri_wf U n -> i < n -> j < n ->
  (j < i -> utri_set i j x U = Throw InvalidArgument U) /\
  (i <= j -> exists U', utri_set i j x U = Ok tt U' /\ utri_wf U' n /\
     forall i' j' S (s : S), i' < n -> j' < n ->
       utri_get U' i' j' s = if Nat.eqb i' i && Nat.eqb j' j then Ok x s else utri_get U i' j' s).
Proof.
  intros U n i j x [W1 W2] Hi Hj. unfold utri_set. split; intros C.
  - destruct (Nat.leb_spec i j); [lia|reflexivity].
  - destruct (Nat.leb_spec i j); [|lia]. pose proof (utri_off_lt n i j C Hj) as B.
    unfold bind. rewrite vec_set_eq by lia. eexists. split; [reflexivity|].
    assert (W' : utri_wf (mkUtri (un U) (set_nth (utri_off i j) x (uv U))) n)
      by (split; cbn [un uv]; rewrite ?set_nth_length; auto).
    split; auto.
    intros i' j' S s Hi' Hj'. destruct (Nat.le_gt_cases i' j').
    + rewrite !(utri_get_in _ n) by (auto; now split). cbn [uv].
      destruct (Nat.eqb_spec i' i), (Nat.eqb_spec j' j); cbn [andb]; subst.
      * rewrite nth_set_same by lia. reflexivity.
      * rewrite nth_set_nth_other; [reflexivity|]. intros E. apply utri_off_inj in E; lia.
      * rewrite nth_set_nth_other; [reflexivity|]. intros E. apply utri_off_inj in E; lia.
      * rewrite nth_set_nth_other; [reflexivity|]. intros E. apply utri_off_inj in E; lia.
    + rewrite !utri_get_below by lia.
      destruct (Nat.eqb_spec i' i), (Nat.eqb_spec j' j); cbn [andb]; auto. lia.
Qed.

(** The constructor is noexcept: a rejected length terminates the program. *)
Theorem C23_size_check : forall isqrt (l : list T) S (s : S), isqrt_exact isqrt ->
  (Z.of_nat (1 + 8 * length l) <= 2 ^ 53)%Z ->
  (forall n, length l = tri_len n -> utri_of isqrt l s = Ok (mkUtri n l) s) /\
  ((forall n, length l <> tri_len n) -> utri_of isqrt l s = Terminate).
Proof. intros. split; intros; [now apply utri_of_ok|now apply utri_of_bad]. Qed.

Theorem C23_extend : forall (U : utri T) n e, utri_wf U n ->
  (length e = n + 1 ->
   exists U', utri_extend e U = Ok tt U' /\ utri_wf U' (n + 1) /\
    (forall i j S (s : S), i <= n -> j < n -> utri_get U' i j s = utri_get U i j s) /\
    (forall i S (s : S), i <= n -> utri_get U' i n s = Ok (nth i e zero) s)) /\
  (length e <> n + 1 -> utri_extend e U = Throw InvalidArgument U).
Proof.
  intros [n' l] n e [W1 W2]. cbn [un uv] in W1, W2. subst n'. unfold utri_extend. cbn [un uv]. split; intros He.
  - rewrite He, Nat.eqb_refl. cbn [negb]. eexists. split; [reflexivity|]. rewrite tri_len_eq in W2.
    split; [split; [reflexivity|cbn [uv]; rewrite app_length, W2, He, tri_len_eq, Nat.add_1_r, tnum_S; lia]|].
    split.
    + intros i j S s Hi Hj. destruct (Nat.le_gt_cases i j).
      * apply (utri_get_app n). rewrite W2, <- tri_len_eq. now apply utri_off_lt.
      * now rewrite !utri_get_below by lia.
    + intros i S s Hi. apply utri_get_new; [lia| |lia]. rewrite utri_off_eq, W2. lia.
  - destruct (Nat.eqb_spec (length e) (n + 1)); [lia|reflexivity].
Qed.

Theorem C23_extend_zero : forall (U : utri T) n, utri_wf U n ->
   exists U', utri_extend_zero U = Ok tt U' /\ utri_wf U' (n + 1) /\
    (forall i j S (s : S), i <= n -> j < n -> utri_get U' i j s = utri_get U i j s) /\
    (forall i S (s : S), i <= n -> utri_get U' i n s = Ok zero s).
Proof.
  intros U n W. destruct (proj1 (C23_extend U n (repeat zero (n + 1)) W) (repeat_length _ _)) as (U' & E & W' & O1 & O2).
  exists U'. split.
  { unfold utri_extend in E. unfold utri_extend_zero. destruct W as [W1 _]. rewrite W1 in *.
    rewrite repeat_length, Nat.eqb_refl in E. exact E. }
  split; [auto|]. split; [auto|]. intros i S s Hi. rewrite O2 by auto. now rewrite nth_repeat_same.
Qed.

(** ** C25: lower triangular reads *)

(** What the accessors do: the element (i,j) above the diagonal is the element (j,i). *)
Theorem C25_actual_partial : forall (L : ltri T) n i j, ln L = n -> length (lv L) = tri_len n ->
  i < n -> j < n -> i < j ->
  (exists x, forall S (s : S), ltri_get L i j s = Ok x s /\ ltri_get L j i s = Ok x s) /\
  (forall x, exists L', ltri_set i j x L = Ok tt L' /\ forall S (s : S), ltri_get L' j i s = Ok x s).
Proof.
  intros L n i j W1 W2 Hi Hj Hij. pose proof (low_off_lt n i j Hi Hj) as B. split.
  - eexists. intros S s. unfold ltri_get. rewrite (low_off_sym j i). rewrite vec_at_eq by lia. eauto.
  - intros x. unfold ltri_set, bind. rewrite vec_set_eq by lia. eexists. split; [reflexivity|].
    intros S s. unfold ltri_get. cbn [lv]. rewrite (low_off_sym j i), vec_at_eq by (rewrite set_nth_length; lia).
    now rewrite nth_set_same by lia.
Qed.

(** Lower part: one stored element per position i >= j. *)
Theorem C25_lower_part : forall (L : ltri T) n i j x, ln L = n -> length (lv L) = tri_len n ->
  j <= i -> i < n ->
  exists L', ltri_set i j x L = Ok tt L' /\ ln L' = n /\ length (lv L') = tri_len n /\
    forall i' j' S (s : S), j' <= i' -> i' < n ->
      ltri_get L' i' j' s = if Nat.eqb i' i && Nat.eqb j' j then Ok x s else ltri_get L i' j' s.
Proof.
  intros L n i j x W1 W2 Hj Hi. pose proof (low_off_lt n i j Hi ltac:(lia)) as B.
  unfold ltri_set, bind. rewrite vec_set_eq by lia. eexists. split; [reflexivity|].
  split; [auto|]. split; [cbn [lv]; now rewrite set_nth_length|].
  intros i' j' S s Hj' Hi'. pose proof (low_off_lt n i' j' Hi' ltac:(lia)) as B'.
  unfold ltri_get. cbn [lv]. rewrite !vec_at_eq by (rewrite ?set_nth_length; lia).
  destruct (Nat.eqb_spec i' i), (Nat.eqb_spec j' j); cbn [andb]; subst;
    try (rewrite nth_set_nth_other; [reflexivity|]; intros E; apply low_off_inj in E; lia).
  now rewrite nth_set_same by lia.
Qed.

(** ** C26: Hermitian (real symmetric) access *)

Theorem C26_symmetric : forall (H : herm T) n i j, en H = n -> length (ev H) = tri_len n -> i < n -> j < n ->
  exists x, forall S (s : S), herm_get H i j s = Ok x s /\ herm_get H j i s = Ok x s.
Proof.
  intros H n i j W1 W2 Hi Hj. pose proof (low_off_lt n i j Hi Hj) as B.
  eexists. intros S s. unfold herm_get. rewrite (low_off_sym j i). rewrite vec_at_eq by lia. eauto.
Qed.

Theorem C26_write : forall (H : herm T) n i j x, en H = n -> length (ev H) = tri_len n -> i < n -> j < n ->
  exists H', herm_set i j x H = Ok tt H' /\ en H' = n /\ length (ev H') = tri_len n /\
    forall i' j' S (s : S), i' < n -> j' < n ->
      herm_get H' i' j' s =
      if (Nat.eqb i' i && Nat.eqb j' j) || (Nat.eqb i' j && Nat.eqb j' i) then Ok x s else herm_get H i' j' s.
Proof.
  intros H n i j x W1 W2 Hi Hj. pose proof (low_off_lt n i j Hi Hj) as B.
  unfold herm_set, bind. rewrite vec_set_eq by lia. eexists. split; [reflexivity|].
  split; [auto|]. split; [cbn [ev]; now rewrite set_nth_length|].
  intros i' j' S s Hi' Hj'. pose proof (low_off_lt n i' j' Hi' Hj') as B'.
  unfold herm_get. cbn [ev]. rewrite !vec_at_eq by (rewrite ?set_nth_length; lia).
  destruct (Nat.eqb_spec i' i), (Nat.eqb_spec j' j), (Nat.eqb_spec i' j), (Nat.eqb_spec j' i); cbn [andb orb]; subst;
    try (rewrite nth_set_nth_other; [reflexivity|]; intros E; apply low_off_inj in E; lia);
    rewrite ?(low_off_sym j i); now rewrite nth_set_same by lia.
Qed.

(** Packed rows of the lower part. *)
Theorem C26_layout : forall (f : nat -> nat -> T) n i j S (s : S), i < n -> j < n ->
  let H := mkHerm n (blocks (fun i => i + 1) f n) in
  length (ev H) = tri_len n /\ herm_get H i j s = Ok (f (Nat.max i j) (Nat.min i j)) s.
Proof.
  intros f n i j S s Hi Hj H.
  assert (Off : forall j, offs (fun j => j + 1) j = tnum j).
  { induction j0 as [|k IH]; [reflexivity|]. cbn [offs tnum]. lia. }
  assert (L : length (ev H) = tri_len n).
  { unfold H; cbn [ev]. now rewrite blocks_len, Off, tri_len_eq. }
  split; auto. unfold herm_get. rewrite vec_at_eq by (rewrite L; now apply low_off_lt).
  rewrite low_off_utri, utri_off_eq, <- Off. unfold H; cbn [ev]. rewrite blocks_nth; [reflexivity|lia|lia].
Qed.

Theorem C26_into_lower : forall (H : herm T) n, en H = n -> length (ev H) = tri_len n ->
  exists L H', herm_into_lower H = Ok L H' /\ ln L = n /\ length (lv L) = tri_len n /\
    forall i j S (s : S), j <= i -> i < n -> ltri_get L i j s = herm_get H i j s.
Proof. intros H n W1 W2. do 2 eexists. split; [reflexivity|]. cbn [ln lv]. auto. Qed.

End Packed.

(** ** C24: back substitution *)

Theorem C24_back_sub : forall T (Op : Ops T) (F : IsField T Op) (U : utri T) n f y (h : heap T),
  utri_wf U n -> (forall i j, i < n -> j < n -> forall S (s : S), utri_get U i j s = Ok (f i j) s) ->
  isvec h y n -> (forall i, i < n -> f i i <> zero) ->
  exists h', back_sub U y h = Ok tt h' /\ ext_but h h' y /\ isvec h' y n /\
    solves n f (rd h' y) (rd h y) /\
    forall x, solves n f x (rd h y) -> veq n x (rd h' y).
Proof.
  intros T Op F U n f y h W R Hy Hd.
  assert (Up : upper_tri n f).
  { intros i j Hi Hj Hij. specialize (R i j Hi Hj unit tt). rewrite utri_get_below in R by auto. congruence. }
  destruct (post_ok _ _ _ (back_sub_ok U y n f h (conj (proj1 W) R) Hy Up Hd)) as ([] & h' & E & H1 & H2 & H3 & H4).
  exists h'. do 4 (split; auto). intros x Hx. eapply solves_unique; eauto. now apply upper_nonsingular.
Qed.

Theorem C24_wrong_size : forall T (Op : Ops T) (U : utri T) y (h : heap T),
  len h y <> un U -> back_sub U y h = Throw InvalidArgument h.
Proof.
  intros T Op U y h Hd. unfold back_sub, bind, vsize. change (length (mem h y)) with (len h y).
  destruct (Nat.eqb_spec (len h y) (un U)); [lia|reflexivity].
Qed.

(** ** Counterexamples and non-vacuity *)

Example C20_nonvacuous :
  tri_wf _ (mkTri [1; 2] [3; 4; 5] [6; 7])%Z 3 /\
  tri_get (mkTri [1; 2] [3; 4; 5] [6; 7])%Z 2 1 tt = Ok 2%Z tt /\
  tri_get (mkTri [1; 2] [3; 4; 5] [6; 7])%Z 1 2 tt = Ok 7%Z tt.
Proof. repeat split. Qed.
Theorem C20_refuted : exists (t : tri Z) n i j, tri_wf _ t n /\ i < n /\ j < n /\
  tri_get t i j tt <> Ok (band _ _ (tdl t) (td t) (tdu t) i j) tt.
Proof.
  exists (mkTri [1; 2] [3; 4; 5] [6; 7])%Z, 3, 0, 2. split; [repeat split|]. split; [lia|]. split; [lia|].
  vm_compute. discriminate.
Qed.
Theorem C25_refuted : exists (L : ltri Z) n i j, ln L = n /\ length (lv L) = tri_len n /\ i < j /\ j < n /\
  ltri_get L i j tt <> Ok 0%Z tt /\
  exists L', ltri_set i j 9%Z L = Ok tt L' /\ exists k l, l <= k /\ k < n /\ ltri_get L' k l tt <> ltri_get L k l tt.
Proof.
  exists (mkLtri 2 [1; 2; 3]%Z), 2, 0, 1. do 4 (split; [now vm_compute; auto|]). split; [discriminate|].
  eexists. split; [reflexivity|]. exists 1, 0. split; [lia|]. split; [lia|]. discriminate.
Qed.
Example C21_nonvacuous :
  hess_of Nat.sqrt [1; 2; 3; 4; 5; 6; 7; 8]%Z tt = Ok (mkHess 3 [1; 2; 3; 4; 5; 6; 7; 8]%Z) tt /\
  hess_get (mkHess 3 [1; 2; 3; 4; 5; 6; 7; 8]%Z) 2 1 tt = Ok 5%Z tt /\
  hess_get (mkHess 3 [1; 2; 3; 4; 5; 6; 7; 8]%Z) 2 0 tt = Ok 0%Z tt /\
  hess_of Nat.sqrt [1; 2; 3]%Z tt = Throw InvalidArgument tt.
Proof. vm_compute. auto. Qed.
Example C22_nonvacuous :
  hess_extend [9; 10; 11; 12]%Z (mkHess 2 [1; 2; 3; 4]%Z) = Ok tt (mkHess 3 [1; 2; 3; 4; 9; 10; 11; 12]%Z) /\
  hess_wf (mkHess 2 [1; 2; 3; 4]%Z) 2.
Proof. vm_compute. auto. Qed.
Example C23_nonvacuous :
  utri_of Nat.sqrt [1; 2; 3; 4; 5; 6]%Z tt = Ok (mkUtri 3 [1; 2; 3; 4; 5; 6]%Z) tt /\
  utri_get (mkUtri 3 [1; 2; 3; 4; 5; 6]%Z) 1 2 tt = Ok 5%Z tt /\
  utri_of Nat.sqrt [1; 2]%Z tt = Terminate.
Proof. vm_compute. auto. Qed.
Example C24_nonvacuous :
  match back_sub (mkUtri 2 (map Q2Qc [2; 1; 4]%Q)) 0 (heap_of [map Q2Qc [4; 8]%Q]) with
  | Ok _ h' => map this (mem h' 0) | _ => [] end = [1; 2]%Q.
Proof. vm_compute. reflexivity. Qed.
Example C26_nonvacuous : herm_get (mkHerm 3 [1; 2; 3; 4; 5; 6]%Z) 0 2 tt = Ok 4%Z tt.
Proof. reflexivity. Qed.

Print Assumptions C20_read.
Print Assumptions C20_write.
Print Assumptions C21_layout.
Print Assumptions C21_size_check.
Print Assumptions C21_isqrt64.
Print Assumptions C22_columns.
Print Assumptions C23_layout.
Print Assumptions C23_extend.
Print Assumptions C24_back_sub.
Print Assumptions C26_write.
Print Assumptions C54_get_col.
