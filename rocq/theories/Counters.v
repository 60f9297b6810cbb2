(** * 32-bit loop counters

    [for (auto i = 0u; i < n; ++i)] compares an [unsigned int] with a [size_t] and increments it
    modulo 2^32.  [for (int32_t i = n - 1; i >= 0; --i)] converts [n - 1] to a signed 32-bit
    integer.  Here these loops are defined literally, with a step budget ("fuel"), and compared
    with the combinators [for_u32] and [down_i32] used by the model. *)
From Verif Require Import Base BaseLemmas.
Local Open Scope Z_scope.

Section Counters.
Context {S A : Type}.
Implicit Types (body : nat -> A -> M S A) (a : A) (s : S).

(** The wrapping counter loop; [None]: not finished within the budget. *)
Fixpoint u32_loop (fuel : nat) (i n : Z) (body : nat -> A -> M S A) (a : A) (s : S)
  : option (res S A) :=
  match fuel with
  | O => None
  | Datatypes.S fuel' =>
      if i <? n then
        match body (Z.to_nat i) a s with
        | Ok a' s' => u32_loop fuel' ((i + 1) mod 2 ^ 32) n body a' s'
        | r => Some r
        end
      else Some (Ok a s)
  end.

(** The signed downward loop.  [--i] cannot overflow: the loop stops at -1. *)
Fixpoint i32_down_loop (fuel : nat) (i : Z) (body : nat -> A -> M S A) (a : A) (s : S)
  : option (res S A) :=
  match fuel with
  | O => None
  | Datatypes.S fuel' =>
      if 0 <=? i then
        match body (Z.to_nat i) a s with
        | Ok a' s' => i32_down_loop fuel' (i - 1) body a' s'
        | r => Some r
        end
      else Some (Ok a s)
  end.

Lemma u32_loop_mono fuel fuel' i n body a s r :
  u32_loop fuel i n body a s = Some r -> (fuel <= fuel')%nat ->
  u32_loop fuel' i n body a s = Some r.
Proof.
  revert fuel' i a s; induction fuel as [|fuel IH]; intros fuel' i a s H Hle; [discriminate|].
  destruct fuel' as [|fuel']; [lia|]. cbn in *. destruct (i <? n); auto.
  destruct (body (Z.to_nat i) a s); auto. apply IH; auto; lia.
Qed.

Lemma u32_loop_spec body (lo cnt : nat) a s :
  (Z.of_nat lo + Z.of_nat cnt < 2 ^ 32) ->
  u32_loop (Datatypes.S cnt) (Z.of_nat lo) (Z.of_nat (lo + cnt)) body a s
  = Some (loop (seq lo cnt) body a s).
Proof.
  revert lo a s; induction cnt as [|cnt IH]; intros lo a s H.
  - cbn. destruct (Z.ltb_spec (Z.of_nat lo) (Z.of_nat (lo + 0))); [lia|reflexivity].
  - cbn [u32_loop seq loop]. destruct (Z.ltb_spec (Z.of_nat lo) (Z.of_nat (lo + Datatypes.S cnt))); [|lia].
    rewrite Nat2Z.id. unfold bind. destruct (body lo a s); auto.
    replace ((Z.of_nat lo + 1) mod 2 ^ 32) with (Z.of_nat (Datatypes.S lo))
      by (rewrite Z.mod_small; lia).
    replace (lo + Datatypes.S cnt)%nat with (Datatypes.S lo + cnt)%nat by lia.
    apply IH. lia.
Qed.

(** For n < 2^32 the wrapping loop and the model's loop agree (whatever the body does). *)
Theorem for_u32_is_the_wrapping_loop body (n : nat) a s :
  Z.of_nat n < 2 ^ 32 ->
  exists fuel0, forall fuel, (fuel0 <= fuel)%nat ->
    u32_loop fuel 0 (Z.of_nat n) body a s = Some (for_u32 0 n body a s).
Proof.
  intros H. exists (Datatypes.S n). intros fuel Hf.
  eapply u32_loop_mono; [|exact Hf].
  unfold for_u32, fits_u32, for_sz. destruct (Z.ltb_spec (Z.of_nat n) (2 ^ 32)); [|lia].
  rewrite Nat.sub_0_r. apply (u32_loop_spec body 0 n a s). lia.
Qed.

(** For n >= 2^32 it never finishes, if every iteration returns normally (with an invariant,
    so that bodies that only work in reachable states are covered). *)
Theorem wrapping_loop_diverges (I : S -> Prop) body (n : Z) a s :
  2 ^ 32 <= n -> I s ->
  (forall i a s, Z.of_nat i < 2 ^ 32 -> I s -> exists a' s', body i a s = Ok a' s' /\ I s') ->
  forall fuel, u32_loop fuel 0 n body a s = None.
Proof.
  intros Hn HI Hb.
  assert (G : forall fuel i a s, 0 <= i < 2 ^ 32 -> I s -> u32_loop fuel i n body a s = None).
  { induction fuel as [|fuel IH]; intros i a0 s0 Hi HI0; [reflexivity|]. cbn.
    destruct (Z.ltb_spec i n); [|lia].
    destruct (Hb (Z.to_nat i) a0 s0) as (a' & s' & -> & HI'); [lia|auto|].
    apply IH; auto. apply Z.mod_pos_bound. lia. }
  intros fuel. apply G; auto. lia.
Qed.

Lemma i32_down_mono fuel fuel' i body a s r :
  i32_down_loop fuel i body a s = Some r -> (fuel <= fuel')%nat ->
  i32_down_loop fuel' i body a s = Some r.
Proof.
  revert fuel' i a s; induction fuel as [|fuel IH]; intros fuel' i a s H Hle; [discriminate|].
  destruct fuel' as [|fuel']; [lia|]. cbn in *. destruct (0 <=? i); auto.
  destruct (body (Z.to_nat i) a s); auto. apply IH; auto; lia.
Qed.

Lemma i32_down_spec body (n : nat) a s :
  i32_down_loop (Datatypes.S n) (Z.of_nat n - 1) body a s = Some (loop (rev (seq 0 n)) body a s).
Proof.
  revert a s; induction n as [|n IH]; intros a s; [reflexivity|].
  rewrite seq_snoc_rev. remember (Datatypes.S n) as m. cbn [i32_down_loop loop]. subst m.
  destruct (Z.leb_spec 0 (Z.of_nat (Datatypes.S n) - 1)); [|lia].
  replace (Z.to_nat (Z.of_nat (Datatypes.S n) - 1)) with n by lia.
  unfold bind. destruct (body n a s); auto.
  replace (Z.of_nat (Datatypes.S n) - 1 - 1) with (Z.of_nat n - 1) by lia. apply IH.
Qed.

(** [down_i32] is the signed loop started at the converted value. *)
Theorem down_i32_is_the_signed_loop body (n : nat) a s :
  exists fuel0, forall fuel, (fuel0 <= fuel)%nat ->
    i32_down_loop fuel (to_int32 (Z.of_nat n - 1)) body a s = Some (down_i32 n body a s).
Proof.
  unfold down_i32, down_list. set (z := to_int32 (Z.of_nat n - 1)).
  destruct (Z.ltb_spec z 0).
  - exists 1%nat. intros fuel Hf. eapply i32_down_mono; [|exact Hf]. cbn.
    destruct (Z.leb_spec 0 z); [lia|reflexivity].
  - exists (Datatypes.S (Datatypes.S (Z.to_nat z))). intros fuel Hf. eapply i32_down_mono; [|exact Hf].
    rewrite <- (i32_down_spec body (Datatypes.S (Z.to_nat z))). f_equal. lia.
Qed.
End Counters.

(** Which rows a backward sweep visits. *)
Theorem down_rows_iff (n : nat) :
  Z.of_nat n < 2 ^ 64 ->
  (down_list (to_int32 (Z.of_nat n - 1)) = rev (seq 0 n) <-> Z.of_nat n <= 2 ^ 31).
Proof.
  intros Hn. split.
  - intros H. destruct (Z.le_gt_cases (Z.of_nat n) (2 ^ 31)) as [|Hgt]; [auto|exfalso].
    apply (f_equal (@length nat)) in H. rewrite rev_length, seq_length in H.
    unfold down_list in H.
    assert (Hr : to_int32 (Z.of_nat n - 1) < 2 ^ 31).
    { unfold to_int32. pose proof (Z.mod_pos_bound (Z.of_nat n - 1) (2 ^ 32)).
      destruct (Z.ltb_spec ((Z.of_nat n - 1) mod 2 ^ 32) (2 ^ 31)); lia. }
    set (z := to_int32 (Z.of_nat n - 1)) in *.
    destruct (Z.ltb_spec z 0).
    + cbn in H. lia.
    + rewrite rev_length, seq_length in H. lia.
  - intros H. destruct n as [|n]; [reflexivity|].
    rewrite to_int32_small by lia. unfold down_list.
    destruct (Z.ltb_spec (Z.of_nat (S n) - 1) 0); [lia|].
    replace (Z.to_nat (Z.of_nat (S n) - 1)) with n by lia. reflexivity.
Qed.
