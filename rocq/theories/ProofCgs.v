(** * Classical Gram-Schmidt: execution and the mathematics of orthogonal families *)
From Coq Require Import Lia.
From Verif Require Import Base Scalar BaseLemmas Spec Sums SpecMat ModelVec ProofVec ProofVecProp ModelIter.
Local Open Scope sc_scope.

Section Run.
Context {T : Type} {Op : Ops T}.
Implicit Types h : heap T.

(** axpy, entry by entry *)
Lemma axpy_rd a x y h : fits_u32 (len h x) = true -> len h x = len h y ->
  post (axpy_d a x y) h (fun r h' => r = y /\ (forall q, q <> y -> mem h' q = mem h q) /\
    next h' = next h /\ len h' y = len h y /\
    forall i, (i < len h y)%nat -> rd h' y i = a * rd h x i + rd h y i).
Proof.
  intros Hf Hl. eapply post_mono; [apply axpy_d_ok; auto|]. cbv beta. intros r h' (-> & Hm & Hu & Hn).
  split; [reflexivity|]. split. { intros q Hq. apply Hu. intros [->|[]]. auto. }
  split; [exact Hn|]. unfold len, rd in *. rewrite Hm. rewrite map2_length by exact Hl. split; [exact Hl|].
  intros i Hi. now rewrite (nth_map2 _ _ _ _ zero zero) by lia.
Qed.

(** scaled copy, entry by entry *)
Lemma scale_rd a x h : (x < next h)%nat -> fits_u32 (len h x) = true ->
  post (op_scale_d a x) h (fun r h' => r = next h /\ next h' = S (next h) /\
    (forall q, (q < next h)%nat -> mem h' q = mem h q) /\ len h' r = len h x /\
    forall i, (i < len h x)%nat -> rd h' r i = a * rd h x i).
Proof.
  intros Hx Hf. eapply post_mono; [apply op_scale_d_ok; auto|]. cbv beta. intros r h' (-> & Hm & Hu & Hn).
  split; [reflexivity|]. split; [exact Hn|]. split. { intros q Hq. apply Hu. intros [E|[]]; lia. }
  unfold len, rd in *. rewrite Hm, map_length. split; [reflexivity|].
  intros i Hi. now rewrite (nth_map' _ _ _ zero) by lia.
Qed.

(** The inner product as the code accumulates it (n >= 1). *)
Definition cdot (n : nat) (x y : nat -> T) : T := lsum (fun i => x i * y i) (n - 1).

Lemma lsum_ext (f g : nat -> T) k : (forall i, (i <= k)%nat -> f i = g i) -> lsum f k = lsum g k.
Proof. induction k as [|k IH]; intros H; cbn; [apply H; lia|]. rewrite IH by (intros; apply H; lia). now rewrite H. Qed.

Lemma cdot_ext n x y x' y' : (0 < n)%nat -> (forall i, (i < n)%nat -> x i = x' i) ->
  (forall i, (i < n)%nat -> y i = y' i) -> cdot n x y = cdot n x' y'.
Proof. intros Hn Hx Hy. apply lsum_ext. intros i Hi. now rewrite Hx, Hy by lia. Qed.

(** The vector after the first k corrections of v by w_0 .. w_(k-1), every coefficient taken with
    the uncorrected v. *)
Fixpoint gacc (n : nat) (w : nat -> nat -> T) (v : nat -> T) (k : nat) (i : nat) : T :=
  match k with
  | 0 => v i
  | S k' => (- cdot n (w k') v / cdot n (w k') (w k')) * w k' i + gacc n w v k' i
  end.

Lemma gacc_ext n w w' v v' k i : (0 < n)%nat -> (i < n)%nat ->
  (forall l t, (l < k)%nat -> (t < n)%nat -> w l t = w' l t) -> (forall t, (t < n)%nat -> v t = v' t) ->
  gacc n w v k i = gacc n w' v' k i.
Proof.
  intros Hn Hi Hw Hv. induction k as [|k IH]; cbn [gacc]; [auto|].
  rewrite IH by (intros; apply Hw; lia).
  rewrite (cdot_ext n (w k) v (w' k) v') by auto. rewrite (cdot_ext n (w k) (w k) (w' k) (w' k)) by auto.
  rewrite (Hw k i) by lia. reflexivity.
Qed.

Variable dbg : bool.
Variable vecs : list ptr.
Let p (k : nat) : ptr := nth k vecs 0%nat.

Lemma cgs_ok n h : vecs <> [] -> NoDup vecs -> fits_u32 (length vecs) = true -> fits_u32 n = true -> (0 < n)%nat ->
  (forall q, In q vecs -> (q < next h)%nat /\ len h q = n) ->
  post (cgs dbg vecs) h (fun _ h' =>
    (forall q, (q < next h)%nat -> ~ In q vecs -> mem h' q = mem h q) /\
    (next h <= next h')%nat /\
    (forall k, (k < length vecs)%nat -> len h' (p k) = n) /\
    mem h' (p 0) = mem h (p 0) /\
    forall k i, (k < length vecs)%nat -> (i < n)%nat ->
      rd h' (p k) i = gacc n (fun l => rd h' (p l)) (rd h (p k)) k i).
Proof.
  intros Hne Hnd Hfm Hfn Hn Hlive. set (m := length vecs).
  assert (Hm : (0 < m)%nat) by (unfold m; destruct vecs; [congruence|cbn; lia]).
  assert (Hin : forall k, (k < m)%nat -> In (p k) vecs) by (intros; apply nth_In; auto).
  assert (Hinj : forall a b, (a < m)%nat -> (b < m)%nat -> p a = p b -> a = b).
  { intros a b Ha Hb E. apply (proj1 (NoDup_nth vecs 0%nat) Hnd a b); auto. }
  unfold cgs. apply post_bind, (post_vec_at _ _ _ 0%nat); [exact Hm|]. apply post_bind, post_vsize.
  change (nth 0 vecs 0%nat) with (p 0). fold m.
  eapply (post_for_u32 (fun j _ h' =>
    (forall q, (q < next h)%nat -> ~ In q vecs -> mem h' q = mem h q) /\
    (next h <= next h')%nat /\
    (forall k, (k < m)%nat -> len h' (p k) = n) /\
    (forall k, (k < m)%nat -> (j <= k)%nat -> mem h' (p k) = mem h (p k)) /\
    mem h' (p 0) = mem h (p 0) /\
    forall k i, (k < j)%nat -> (i < n)%nat ->
      rd h' (p k) i = gacc n (fun l => rd h' (p l)) (rd h (p k)) k i)).
  - exact Hfm.
  - lia.
  - split; [auto|]. split; [lia|]. split. { intros k Hk. apply (Hlive (p k)). auto. }
    split; [auto|]. split; [auto|]. intros k i Hk Hi. replace k with 0%nat by lia. reflexivity.
  - intros j _ h1 Hj (Hfr & Hnx & Hln & Htl & H0 & Hdone). assert (Hj' : (1 <= j < m)%nat) by exact Hj. clear Hj.
    apply post_bind, (post_vec_at _ _ _ 0%nat); [unfold m in *; unfold ptr in *; lia|]. apply post_bind, post_vsize. apply post_bind.
    change (nth 1 vecs 0%nat) with (p 1).
    apply post_assert. { apply Nat.eqb_eq. rewrite Hln by lia. apply (Hlive (p 0)). auto. }
    apply post_bind, (post_vec_at _ _ _ 0%nat); [unfold m in *; unfold ptr in *; lia|]. change (nth j vecs 0%nat) with (p j).
    apply post_bind. unfold vec_copy. apply post_bind, post_contents, post_alloc.
    set (x := next h1). set (h2 := halloc h1 (mem h1 (p j))).
    assert (Hlv : forall k, (k < m)%nat -> (p k < x)%nat) by (intros k Hk; unfold x; pose proof (proj1 (Hlive _ (Hin k Hk))); lia).
    assert (E2 : forall q, (q < x)%nat -> mem h2 q = mem h1 q) by (intros; apply mem_halloc_other; unfold x in *; lia).
    assert (Ex : mem h2 x = mem h1 (p j)) by apply mem_halloc_same.
    eapply (post_for_u32 (fun k _ h' => next h' = next h2 /\
      (forall q, q <> p j -> mem h' q = mem h2 q) /\ len h' (p j) = n /\
      forall i, (i < n)%nat -> rd h' (p j) i = gacc n (fun l => rd h1 (p l)) (rd h (p j)) k i)).
    + apply (fits_u32_le m); [exact Hfm|lia].
    + lia.
    + split; [reflexivity|]. split; [auto|]. split. { unfold len. rewrite E2 by (apply Hlv; lia). apply Hln; lia. }
      intros i Hi. unfold rd. rewrite E2 by (apply Hlv; lia). rewrite Htl by lia. reflexivity.
    + intros k _ h3 [_ Hk] (N3 & F3 & L3 & R3).
      assert (Hkj : p k <> p j) by (intros E; apply Hinj in E; lia).
      assert (Hxj : x <> p j) by (pose proof (Hlv j ltac:(lia)); lia).
      assert (Mk : mem h3 (p k) = mem h1 (p k)) by (rewrite F3 by auto; apply E2, Hlv; lia).
      assert (Mx : mem h3 x = mem h (p j)) by (rewrite F3 by auto; rewrite Ex; apply Htl; lia).
      assert (Lk : len h3 (p k) = n) by (unfold len; rewrite Mk; apply Hln; lia).
      assert (Lx : len h3 x = n) by (unfold len; rewrite Mx; apply (Hlive (p j)); apply Hin; lia).
      apply post_bind, (post_vec_at _ _ _ 0%nat); [unfold m in *; unfold ptr in *; lia|]. change (nth k vecs 0%nat) with (p k).
      apply post_bind. unfold post at 1. rewrite dot_d_ok by (rewrite ?Lk, ?Lx; auto).
      apply post_bind. unfold post at 1. rewrite dot_member_d_ok by (rewrite ?Lk; auto). rewrite Lk.
      apply post_bind. eapply post_mono; [apply axpy_rd; rewrite ?Lk; auto|]. cbv beta.
      intros r h4 (-> & F4 & N4 & L4 & R4). apply post_ret.
      split; [lia|]. split; [intros q Hq; rewrite F4 by auto; auto|]. split; [lia|].
      intros i Hi. cbn [gacc]. rewrite R4 by lia. rewrite R3 by exact Hi.
      assert (Hr : forall t, rd h3 (p k) t = rd h1 (p k) t) by (intros; unfold rd; now rewrite Mk).
      rewrite Hr. unfold cdot. f_equal. f_equal. f_equal.
      * f_equal. apply lsum_ext. intros t Ht. rewrite Hr. unfold rd at 2. now rewrite Mx.
      * apply lsum_ext. intros t Ht. now rewrite Hr.
    + intros _ h3 (N3 & F3 & L3 & R3). cbv beta in *.
      assert (Mk : forall k, (k < m)%nat -> k <> j -> mem h3 (p k) = mem h1 (p k)).
      { intros k Hk Hne'. rewrite F3 by (intros E; apply Hinj in E; lia). apply E2, Hlv; lia. }
      split. { intros q Hq Hni. rewrite F3 by (intros ->; apply Hni, Hin; lia). rewrite E2 by (unfold x; lia). auto. }
      split. { rewrite N3. unfold h2, halloc. cbn [next]. lia. }
      split. { intros k Hk. destruct (Nat.eq_dec k j) as [->|]; [exact L3|]. unfold len. rewrite Mk by auto. apply Hln; auto. }
      split. { intros k Hk Hjk. rewrite Mk by lia. apply Htl; lia. }
      split. { rewrite Mk by lia. exact H0. }
      intros k i Hk Hi. destruct (Nat.eq_dec k j) as [->|].
      * rewrite R3 by exact Hi. apply gacc_ext; auto. intros l t Hl Ht. unfold rd. now rewrite Mk by lia.
      * unfold rd at 1. rewrite Mk by lia. fold (rd h1 (p k) i). rewrite Hdone by lia. apply gacc_ext; auto.
        intros l t Hl Ht. unfold rd. now rewrite Mk by lia.
  - intros _ h' (Hfr & Hnx & Hln & _ & H0 & Hdone). auto.
Qed.
End Run.
