(** * Back substitution for any scalar type: which expressions it evaluates *)
From Verif Require Import Base Scalar BaseLemmas Spec ModelVec ModelMat SpecMat ModelPacked ProofPacked ProofChol ProofIlu.
Local Open Scope nat_scope.

Section Bits.
Context {T : Type} {Op : Ops T}.
Implicit Types (h : heap T) (U : utri T).

Lemma back_sub_bits U y n f h :
  un U = n -> (forall i j, i < n -> j < n -> forall S (s : S), utri_get U i j s = Ok (f i j) s) -> isvec h y n ->
  post (back_sub U y) h (fun _ h' =>
    ext_but h h' y /\ next h' = next h /\ isvec h' y n /\ forall i, i < n -> ilu_bwd n f (rd h y) (rd h' y) i).
Proof.
  intros Hn HU [Hy Hl]. unfold back_sub.
  apply post_bind, post_vsize. rewrite Hl, Hn, Nat.eqb_refl. cbn [negb].
  set (b := rd h y).
  apply post_down_sz with (I := fun k (_ : unit) h1 =>
    next h1 = next h /\ (forall q, q <> y -> mem h1 q = mem h q) /\ len h1 y = n /\
    (forall i, i < k -> rd h1 y i = b i) /\
    (forall i, k <= i < n -> ilu_bwd n f b (rd h1 y) i)).
  - repeat split; auto. intros. lia.
  - intros k [] h1 Hk (N1 & M1 & L1 & P1 & P2). apply post_bind.
    apply post_for_sz with (I := fun j (_ : unit) h2 =>
      next h2 = next h /\ (forall q, q <> y -> mem h2 q = mem h q) /\ len h2 y = n /\
      (forall i, i <> k -> rd h2 y i = rd h1 y i) /\
      rd h2 y k = ssub (j - S k) (b k) (fun t => mul (f k (S k + t)) (rd h1 y (S k + t)))).
    + lia.
    + replace (k + 1 - S k) with 0 by lia. repeat split; auto. apply P1. lia.
    + intros j [] h2 Hj (N2 & M2 & L2 & R2 & V2).
      apply post_bind. apply post_load; [lia|].
      apply post_bind. eapply ok_post; [apply HU; lia|].
      apply post_bind. apply post_load; [lia|]. apply post_store; [lia|].
      repeat split.
      * now rewrite next_hset.
      * intros q Hq. rewrite mem_hset_other by auto. auto.
      * now rewrite len_hset.
      * intros i Hi. rewrite rd_hset_idx by auto. auto.
      * rewrite rd_hset_same by lia. rewrite V2, R2 by lia.
        replace (S j - S k) with (S (j - S k)) by lia. cbn [ssub].
        now replace (S k + (j - S k)) with j by lia.
    + intros [] h2 (N2 & M2 & L2 & R2 & V2).
      apply post_bind. apply post_load; [lia|].
      apply post_bind. eapply ok_post; [apply HU; lia|].
      apply post_store; [lia|].
      repeat split.
      * now rewrite next_hset.
      * intros q Hq. rewrite mem_hset_other by auto. auto.
      * now rewrite len_hset.
      * intros i Hi. rewrite rd_hset_idx, R2 by lia. auto with arith.
      * intros i Hi. unfold ilu_bwd. destruct (Nat.eq_dec i k) as [->|Ne].
        -- rewrite rd_hset_same by lia. rewrite V2. f_equal. apply ssub_ext.
           intros t Ht. rewrite rd_hset_idx, R2 by lia. reflexivity.
        -- rewrite rd_hset_idx, R2 by lia. rewrite (P2 i) by lia. f_equal. apply ssub_ext.
           intros t Ht. rewrite rd_hset_idx, R2 by lia. reflexivity.
  - intros [] h' (N1 & M1 & L1 & _ & P2). split; [split; [lia|auto]|]. split; [auto|]. split; [split; lia|].
    intros i Hi. apply P2. lia.
Qed.
End Bits.
