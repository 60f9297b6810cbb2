(** * Proofs: ILU on a matrix type that refuses to read some positions *)
From Verif Require Import Base Scalar BaseLemmas Spec ModelVec ModelMat SpecMat ModelPacked ModelSparse
  ProofPacked ProofSparse ProofVecSched ProofChol ModelIter ProofIlu.
Local Open Scope nat_scope.

Lemma postx_for_u32_from {S A} (I : nat -> A -> S -> Prop) (E : exn -> S -> Prop) (body : nat -> A -> M S A) lo n a s (Q : A -> S -> Prop) :
  fits_u32 n = true -> lo <= n -> I lo a s ->
  (forall i a s, lo <= i < n -> I i a s -> postx (body i a) s (fun a' s' => I (Datatypes.S i) a' s') E) ->
  (forall a' s', I n a' s' -> Q a' s') ->
  postx (for_u32 lo n body a) s Q E.
Proof.
  intros Hf Hl H0 Hs Hq. unfold for_u32. rewrite Hf. unfold for_sz.
  assert (H : forall cnt l a s, lo <= l -> l + cnt = n -> I l a s -> postx (loop (seq l cnt) body a) s (fun a' s' => I n a' s') E).
  { induction cnt as [|cnt IH]; intros l a1 s1 Hl1 Hc HI; cbn [seq loop].
    - unfold postx, ret. now replace n with l by lia.
    - apply postx_bind. eapply postx_mono; [apply Hs; [lia|exact HI]| |auto].
      intros a2 s2 H2. cbv beta in H2. apply IH; [lia|lia|auto]. }
  eapply postx_mono; [apply (H (n - lo) lo); auto; lia|auto|auto].
Qed.
Lemma postx_ret {S A} (a : A) (s : S) (Q : A -> S -> Prop) E : Q a s -> postx (ret a) s Q E.
Proof. auto. Qed.

Section Refuses.
Context {T : Type} {Op : Ops T} {C : Type}.
Variables (shape : M C (nat * nat)) (get : nat -> nat -> M C T) (set : nat -> nat -> T -> M C unit).
Variables (n : nat) (ok : nat -> nat -> bool) (Ex : exn) (good : C -> Prop).
Hypothesis Hn : fits_u32 n = true.
Hypothesis Hshape : forall c, good c -> shape c = Ok (n, n) c.
Hypothesis Hget : forall c i j, good c -> i < n -> j < n ->
  if ok i j then exists v, get i j c = Ok v c else get i j c = Throw Ex c.
Hypothesis Hset : forall c i j x, good c -> i < n -> j < n -> ok i j = true -> exists c', set i j x c = Ok tt c' /\ good c'.

(** A zero pivot can only be met when every position read before it can be read. *)
Definition stopped_at : Prop := exists i j, j < i /\ i < n /\ (forall j', j' <= j -> ok i j' = true) /\
  (forall i' j', i' < i -> j' < n -> ok i' j' = true).
Definition bad : exn -> C -> Prop := fun e c => good c /\
  ((e = Ex /\ exists i j, i < n /\ j < n /\ ok i j = false) \/ (e = RuntimeError /\ stopped_at)).

Lemma get_x c i j (Q : T -> C -> Prop) : good c -> i < n -> j < n -> (forall v, ok i j = true -> Q v c) -> postx (get i j) c Q bad.
Proof.
  intros G Hi Hj H. pose proof (Hget c i j G Hi Hj) as K. unfold postx. destruct (ok i j) eqn:O.
  - destruct K as (v & ->). now apply H.
  - rewrite K. split; [exact G|]. left. split; [reflexivity|]. exists i, j. auto.
Qed.
Lemma set_x c i j x (Q : unit -> C -> Prop) : good c -> i < n -> j < n -> ok i j = true -> (forall c', good c' -> Q tt c') -> postx (set i j x) c Q bad.
Proof. intros G Hi Hj O H. destruct (Hset c i j x G Hi Hj O) as (c' & E & G'). unfold postx. rewrite E. auto. Qed.
Let fits_le k : k <= n -> fits_u32 k = true := fits_u32_le n k Hn.
Lemma sum_x c i j p s0 (Q : T -> C -> Prop) : good c -> i < n -> j < n -> p <= n -> (forall v, Q v c) -> postx (ilu_sum get i j p s0) c Q bad.
Proof.
  intros G Hi Hj Hp H. unfold ilu_sum. apply postx_for_u32 with (I := fun _ _ c' => c' = c).
  - now apply fits_le.
  - reflexivity.
  - intros k s c' Hk ->. apply postx_bind, get_x; auto; [lia|]. intros v _. apply postx_bind, get_x; auto; [lia|]. intros w _. now apply postx_ret.
  - intros v c' ->. apply H.
Qed.

(** The constructor returns only if every position can be read. *)
Lemma ilu_new_refuses c0 : good c0 ->
  postx (ilu_new shape get set) c0 (fun _ c => good c /\ forall i j, i < n -> j < n -> ok i j = true) bad.
Proof.
  intros G0. unfold ilu_new. apply postx_bind.
  assert (K : postx (ilu_decomp shape get set) c0
    (fun (b : bool) c => good c /\ if b then forall i j, i < n -> j < n -> ok i j = true else stopped_at) bad).
  2:{ eapply postx_mono; [exact K| |auto]. intros b c [G D]. destruct b; cbn [negb]; [now apply postx_ret|].
      unfold postx, throw. split; [exact G|]. right. auto. }
  unfold ilu_decomp. apply postx_bind. unfold postx at 1. rewrite (Hshape c0 G0). cbn [fst].
  apply postx_for_u32 with (I := fun r (b : bool) c => good c /\ if b then forall i j, i < r -> j < n -> ok i j = true else stopped_at).
  - exact Hn.
  - split; [exact G0|]. intros; lia.
  - intros i b c Hi [G D]. destruct b; cbn [negb]; [|now apply postx_ret]. apply postx_bind.
    apply postx_for_u32 with (I := fun r (b : bool) c => good c /\ if b then forall j, j < r -> ok i j = true else stopped_at).
    + apply fits_le. lia.
    + split; [exact G|]. intros; lia.
    + intros j b c1 Hj [G1 D1]. destruct b; cbn [negb]; [|now apply postx_ret].
      apply postx_bind, get_x; auto; [lia|]. intros a Oij.
      assert (D2 : forall j', j' < S j -> ok i j' = true).
      { intros j' Hj'. destruct (Nat.eq_dec j' j) as [->|]; [exact Oij|apply D1; lia]. }
      destruct (eqb a zero); cbn [negb]; [now apply postx_ret|].
      apply postx_bind, get_x; auto; [lia|lia|]. intros p _. destruct (eqb p zero).
      { apply postx_ret. split; [exact G1|]. exists i, j. split; [lia|]. split; [lia|]. split; [intros; apply D2; lia|]. intros i' j' H1 H2. apply D; lia. }
      apply postx_bind, get_x; auto; [lia|]. intros s0 _. apply postx_bind, sum_x; auto; [lia|lia|]. intros s.
      apply postx_bind, get_x; auto; [lia|lia|]. intros q _. apply postx_bind, set_x; auto; [lia|]. intros c2 G2. now apply postx_ret.
    + intros b c1 [G1 D1]. destruct b; cbn [negb]; [|now apply postx_ret].
      apply postx_bind. unfold postx at 1. rewrite (Hshape c1 G1). cbn [snd]. apply postx_bind.
      apply postx_for_u32_from with (I := fun r (_ : unit) c => good c /\ forall j, j < r -> ok i j = true).
      * exact Hn.
      * lia.
      * auto.
      * intros j [] c2 Hj [G2 D2]. apply postx_bind, get_x; auto; [lia|]. intros a Oij.
        assert (D3 : forall j', j' < S j -> ok i j' = true).
        { intros j' Hj'. destruct (Nat.eq_dec j' j) as [->|]; [exact Oij|apply D2; lia]. }
        destruct (eqb a zero); cbn [negb]; [now apply postx_ret|].
        apply postx_bind, get_x; auto; [lia|]. intros s0 _. apply postx_bind, sum_x; auto; [lia|lia|]. intros s.
        apply set_x; auto; lia.
      * intros [] c2 [G2 D2]. apply postx_ret. split; [exact G2|]. intros i' j' H1 H2.
        destruct (Nat.eq_dec i' i) as [->|]; [now apply D2|apply D; lia].
  - intros b c [G D]. split; [exact G|]. destruct b; auto.
Qed.
End Refuses.
