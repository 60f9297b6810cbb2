(** * Calls that do not depend on each other may be made in any order (C91)

    Two calls, neither of which writes to an object the other one is given, end the same way in
    either order, with the same results, and leave the same elements everywhere; a batch of such
    calls leaves the same memory in every order.  First the facts about calls in general, then for
    every operation the proof that it is such a call, with the objects it is given and those it
    writes to. *)
From Coq Require Import Morphisms Permutation.
From Verif Require Import Base Scalar BaseLemmas ModelVec ModelMat ModelPacked ModelSparse ModelSolvers ModelIter
  SpecMat SpecSim SpecFrame SpecCommute PropLocal PropFrame.
Local Open Scope nat_scope.

Section Calls.
Context {T : Type}.
Implicit Types h : heap T.

Definition live h (l : list ptr) : Prop := forall p, In p l -> p < next h.

Lemma moved_corresponds uses h h' : clean h -> clean h' -> live h uses -> next h <= next h' ->
  (forall p, In p uses -> mem h' p = mem h p) -> corresponds (moved uses h h') h h'.
Proof.
  intros C C' L N S. split; cbn; auto.
  - intros p q (-> & I). specialize (L _ I). lia.
  - intros p q (-> & I). symmetry. auto.
  - intros p q q' (-> & _) (-> & _). reflexivity.
  - intros p p' q (-> & _) (-> & _). reflexivity.
Qed.

(** A call made in a later memory that still holds the same elements in the objects it is given
    ends as it would have ended in the earlier one. *)
Lemma call_later {A} uses dests V (m : M (heap T) A) h h' : a_call uses dests V m -> clean h -> clean h' ->
  live h uses -> next h <= next h' -> (forall p, In p uses -> mem h' p = mem h p) ->
  same_ending (V (moved uses h h')) (moved uses h h') h h' (m h) (m h').
Proof. intros [Lo _ _] ? ? ? ? ?. apply Lo; [intros p I; cbn; auto|now apply moved_corresponds]. Qed.

Lemma call_clean {A} uses dests V (m : M (heap T) A) h a h' : a_call uses dests V m -> clean h -> live h uses ->
  m h = Ok a h' -> clean h'.
Proof.
  intros K C L E. assert (H := call_later _ _ _ _ h h K C C L (le_n _) (fun _ _ => eq_refl)).
  rewrite E in H. cbn in H. destruct H as (_ & []). assumption.
Qed.

Lemma call_next {A} uses dests V (m : M (heap T) A) h a h' : a_call uses dests V m -> m h = Ok a h' -> next h <= next h'.
Proof. intros [_ W _] E. specialize (W h). rewrite E in W. tauto. Qed.

Lemma call_kept {A} uses dests V (m : M (heap T) A) h a h' : a_call uses dests V m -> m h = Ok a h' ->
  forall q, q < next h -> ~ In q dests -> mem h' q = mem h q.
Proof. intros [_ W _] E. specialize (W h). rewrite E in W. apply W. Qed.

Lemma moved_unused uses h h' q : ~ In q uses -> forall p, ~ args (moved uses h h') p q.
Proof. cbn. intros N p (-> & I). auto. Qed.

(** Two calls without conflict: made in either order both return if each returns on its own, the
    results are the same ones, every object holds the same elements afterwards (objects that
    existed before, and those created by either call), and equally many objects exist. *)
Theorem C91_two : forall A1 A2 uses1 dests1 V1 (m1 : M (heap T) A1) uses2 dests2 V2 (m2 : M (heap T) A2) h a1 h1 a2 h2,
  a_call uses1 dests1 V1 m1 -> a_call uses2 dests2 V2 m2 -> no_conflict uses1 dests1 uses2 dests2 ->
  clean h -> live h uses1 -> live h uses2 ->
  m1 h = Ok a1 h1 -> m2 h = Ok a2 h2 ->
  exists b1 b2 h12 h21, m2 h1 = Ok b2 h12 /\ m1 h2 = Ok b1 h21 /\
    V1 (moved uses1 h h2) a1 b1 /\ V2 (moved uses2 h h1) a2 b2 /\
    next h12 = next h21 /\
    (forall q, q < next h -> mem h12 q = mem h21 q) /\
    (forall k, next h + k < next h1 -> mem h12 (next h + k) = mem h21 (next h2 + k)) /\
    (forall k, next h + k < next h2 -> mem h12 (next h1 + k) = mem h21 (next h + k)).
Proof.
  intros A1 A2 uses1 dests1 V1 m1 uses2 dests2 V2 m2 h a1 h1 a2 h2 K1 K2 (N1 & N2) C L1 L2 E1 E2.
  assert (C1 := call_clean _ _ _ _ _ _ _ K1 C L1 E1). assert (C2 := call_clean _ _ _ _ _ _ _ K2 C L2 E2).
  assert (X1 := call_next _ _ _ _ _ _ _ K1 E1). assert (X2 := call_next _ _ _ _ _ _ _ K2 E2).
  assert (F1 := call_kept _ _ _ _ _ _ _ K1 E1). assert (F2 := call_kept _ _ _ _ _ _ _ K2 E2).
  assert (S1 := call_later _ _ _ _ h h2 K1 C C2 L1 X2 (fun p I => F2 p (L1 p I) (fun J => N2 p J I))).
  assert (S2 := call_later _ _ _ _ h h1 K2 C C1 L2 X1 (fun p I => F1 p (L2 p I) (fun J => N1 p J I))).
  rewrite E1 in S1. rewrite E2 in S2. unfold same_ending in S1, S2.
  destruct (m1 h2) as [b1 h21| | | | |] eqn:E21; try contradiction.
  destruct (m2 h1) as [b2 h12| | | | |] eqn:E12; try contradiction.
  destruct S1 as (R1 & Q1). destruct S2 as (R2 & Q2).
  exists b1, b2, h12, h21. repeat split; auto.
  - destruct (re_new _ _ _ _ _ Q1) as (k & A & B), (re_new _ _ _ _ _ Q2) as (k' & A' & B'). cbn in *. lia.
  - intros q Lq.
    destruct (in_dec Nat.eq_dec q uses1) as [I1|I1], (in_dec Nat.eq_dec q uses2) as [I2|I2].
    + rewrite <- (re_same _ _ _ _ _ Q1 q q (or_introl (conj eq_refl I1))).
      rewrite <- (re_same _ _ _ _ _ Q2 q q (or_introl (conj eq_refl I2))).
      rewrite F1, F2; auto; intros J; [apply (N2 q J I1)|apply (N1 q J I2)].
    + rewrite <- (re_same _ _ _ _ _ Q1 q q (or_introl (conj eq_refl I1))).
      apply (re_frame2 _ _ _ _ _ Q2); [lia|now apply moved_unused].
    + rewrite <- (re_same _ _ _ _ _ Q2 q q (or_introl (conj eq_refl I2))).
      symmetry. apply (re_frame2 _ _ _ _ _ Q1); [lia|now apply moved_unused].
    + rewrite (re_frame2 _ _ _ _ _ Q2 q ltac:(lia) (moved_unused _ _ _ _ I2)).
      rewrite (re_frame2 _ _ _ _ _ Q1 q ltac:(lia) (moved_unused _ _ _ _ I1)).
      rewrite F1, F2; auto; intros J; [apply I2, (ca_dests _ _ _ _ K2 q J)|apply I1, (ca_dests _ _ _ _ K1 q J)].
  - intros k Hk. rewrite <- (re_same _ _ _ _ _ Q1 (next h + k) (next h2 + k)).
    + apply (re_frame2 _ _ _ _ _ Q2); [auto|apply moved_unused]. intros J. specialize (L2 _ J). lia.
    + right. exists k. cbn. auto.
  - intros k Hk. rewrite <- (re_same _ _ _ _ _ Q2 (next h + k) (next h1 + k)).
    + symmetry. apply (re_frame2 _ _ _ _ _ Q1); [auto|apply moved_unused]. intros J. specialize (L1 _ J). lia.
    + right. exists k. cbn. auto.
Qed.

(** A call ends after other calls it does not conflict with as it would have ended before them:
    same exception, same abort, same result. *)
Lemma batch_keeps l : forall h h', Forall is_call l -> clean h -> (forall t, In t l -> live h (t_uses t)) ->
  batch l h = Ok tt h' ->
  clean h' /\ next h <= next h' /\ forall q, q < next h -> (forall t, In t l -> ~ In q (t_dests t)) -> mem h' q = mem h q.
Proof.
  induction l as [|t l IH]; intros h h' F C L E; cbn in E.
  - injection E as <-. auto.
  - inversion F as [|? ? Ft Fl]; subst. unfold bind in E. destruct (t_run t h) as [a g| | | | |] eqn:Et; try discriminate.
    assert (X := call_next _ _ _ _ _ _ _ Ft Et). assert (K := call_kept _ _ _ _ _ _ _ Ft Et).
    destruct (IH g h' Fl) as (C' & X' & K'); auto.
    + eapply call_clean; eauto. apply L. now left.
    + intros u Iu p Ip. specialize (L u (or_intror Iu) p Ip). lia.
    + split; [exact C'|split; [lia|]]. intros q Lq N. rewrite K'; [|lia|].
      * apply K; auto. apply N. now left.
      * intros u Iu. apply N. now right.
Qed.

Theorem C91_as_alone : forall A uses dests V (m : M (heap T) A) l h h',
  a_call uses dests V m -> Forall is_call l -> (forall t, In t l -> no_conflict uses dests (t_uses t) (t_dests t)) ->
  clean h -> live h uses -> (forall t, In t l -> live h (t_uses t)) ->
  batch l h = Ok tt h' ->
  same_ending (V (moved uses h h')) (moved uses h h') h h' (m h) (m h').
Proof.
  intros A uses dests V m l h h' K F N C L Ll E.
  destruct (batch_keeps l h h' F C Ll E) as (C' & X & Kp).
  eapply call_later; eauto. intros p I. apply Kp; auto. intros t It J. apply (proj2 (N t It) p J I).
Qed.

(** What a batch without conflicts leaves: each destination holds what its call, made alone, puts
    there; everything else is unchanged.  Every call of the batch returns. *)
Lemma batch_result l : forall h, Forall is_call l -> ForallOrdPairs apart l -> clean h ->
  (forall t, In t l -> live h (t_uses t)) ->
  (forall t, In t l -> exists a g, t_run t h = Ok a g) ->
  exists h', batch l h = Ok tt h' /\
    (forall q, q < next h -> (forall t, In t l -> ~ In q (t_dests t)) -> mem h' q = mem h q) /\
    (forall t a g, In t l -> t_run t h = Ok a g -> forall q, In q (t_dests t) -> mem h' q = mem g q).
Proof.
  induction l as [|t l IH]; intros h F P C L R.
  - exists h. repeat split; auto. intros ? ? ? [].
  - inversion F as [|? ? Ft Fl]; subst. inversion P as [|? ? Pt Pl]; subst. rewrite Forall_forall in Pt.
    destruct (R t (or_introl eq_refl)) as (a & g & Et).
    assert (X := call_next _ _ _ _ _ _ _ Ft Et). assert (K := call_kept _ _ _ _ _ _ _ Ft Et).
    assert (Cg : clean g) by (eapply call_clean; eauto; apply L; now left).
    assert (S : forall u, In u l -> same_ending (t_same u (moved (t_uses u) h g)) (moved (t_uses u) h g) h g (t_run u h) (t_run u g)).
    { intros u Iu. rewrite Forall_forall in Fl. eapply call_later; eauto.
      - apply Fl, Iu.
      - apply L. now right.
      - intros p Ip. apply K; [apply (L u (or_intror Iu) p Ip)|]. intros J. apply (proj1 (Pt u Iu) p J Ip). }
    destruct (IH g Fl Pl Cg) as (h' & E & K' & D').
    + intros u Iu p Ip. specialize (L u (or_intror Iu) p Ip). lia.
    + intros u Iu. specialize (S u Iu). destruct (R u (or_intror Iu)) as (b & gu & Eu). rewrite Eu in S. cbn in S.
      destruct (t_run u g); try contradiction. eauto.
    + exists h'. split; [cbn; unfold bind; now rewrite Et|]. split.
      * intros q Lq N. rewrite K'; [|lia|intros u Iu; apply N; now right]. apply K; auto. apply N. now left.
      * intros u b gu [<-|Iu] Eu q Iq.
        -- rewrite Et in Eu. injection Eu as <- <-. apply K'.
           ++ assert (q < next h) by (apply (L t (or_introl eq_refl)), (ca_dests _ _ _ _ Ft q Iq)). lia.
           ++ intros u Iu J. apply (proj2 (Pt u Iu) q J). apply (ca_dests _ _ _ _ Ft q Iq).
        -- specialize (S u Iu). rewrite Eu in S. cbn in S. destruct (t_run u g) as [b' gu'| | | | |] eqn:Eu'; try contradiction.
           rewrite (D' u b' gu' Iu Eu' q Iq). symmetry. apply (re_same _ _ _ _ _ (proj2 S)). left. cbn. split; auto.
           rewrite Forall_forall in Fl. apply (ca_dests _ _ _ _ (Fl u Iu) q Iq).
Qed.

Lemma apart_sym (t u : task T) : apart t u -> apart u t.
Proof. intros (A & B). split; auto. Qed.

Lemma apart_perm (l l' : list (task T)) : Permutation l l' -> ForallOrdPairs apart l -> ForallOrdPairs apart l'.
Proof.
  induction 1 as [|x l l' P IH|x y l|l l' l'' P1 IH1 P2 IH2]; intros H; auto.
  - inversion H; subst. constructor; auto. eapply Permutation_Forall; eauto.
  - inversion H as [|? ? Fy H']; subst. inversion H' as [|? ? Fx H'']; subst. inversion Fy; subst.
    constructor; [constructor; auto; now apply apart_sym|]. constructor; auto.
Qed.

(** A batch of calls, no two of which conflict, each of which returns when made alone: in every
    order all of them return, and every object that existed before holds the same elements. *)
Theorem C91_any_order : forall l l' h, Permutation l l' -> Forall is_call l -> ForallOrdPairs apart l ->
  clean h -> (forall t, In t l -> live h (t_uses t)) ->
  (forall t, In t l -> exists a g, t_run t h = Ok a g) ->
  exists g g', batch l h = Ok tt g /\ batch l' h = Ok tt g' /\
    (forall q, q < next h -> mem g q = mem g' q) /\
    (forall q, q < next h -> (forall t, In t l -> ~ In q (t_dests t)) -> mem g q = mem h q) /\
    (forall t a gt q, In t l -> t_run t h = Ok a gt -> In q (t_dests t) -> mem g q = mem gt q).
Proof.
  intros l l' h P F N C L R.
  assert (P' := Permutation_sym P).
  destruct (batch_result l h F N C L R) as (g & E & K & D).
  destruct (batch_result l' h) as (g' & E' & K' & D'); auto.
  - eapply Permutation_Forall; eauto.
  - eapply apart_perm; eauto.
  - intros t It. apply L. eapply Permutation_in; eauto.
  - intros t It. apply R. eapply Permutation_in; eauto.
  - exists g, g'. split; [exact E|]. split; [exact E'|]. split; [|split; [exact K|intros t a gt q It Et Iq; eapply D; eauto]].
    intros q Lq. destruct (in_dec Nat.eq_dec q (flat_map t_dests l)) as [I|I].
    + apply in_flat_map in I. destruct I as (t & It & Iq). destruct (R t It) as (a & gt & Et).
      rewrite (D t a gt It Et q Iq). symmetry. apply (D' t a gt); auto. eapply Permutation_in; eauto.
    + assert (Nt : forall t, In t l -> ~ In q (t_dests t)) by (intros t It J; apply I, in_flat_map; eauto).
      rewrite K, K'; auto. intros t It. apply Nt. eapply Permutation_in; eauto.
Qed.
End Calls.

(** ** Every operation is such a call *)
Lemma writes_of_modifies {T A} l (R : heap T -> A -> Prop) (m : M (heap T) A) : modifies l R m -> writes_only l m.
Proof.
  intros H h. specialize (H h). destruct (m h); auto; [destruct H as [H _]|]; split; try (apply (ke_live _ _ _ H));
    intros; now apply (ke_same _ _ _ H).
Qed.

Ltac in_uses := left; match goal with H : forall p, In p _ -> args _ p p |- _ => apply H; cbn; auto 10 end.
Ltac uses_go := first [assumption | reflexivity | in_uses
  | (unfold same_mat_shape, same_chol, same_pair; repeat split; in_uses)
  | (match goal with H : forall p, In p _ -> args _ p p |- args _ _ _ => apply H; cbn; auto 10 end)
  | (unfold arg_mat; repeat split; match goal with H : forall p, In p _ -> args _ p p |- args _ _ _ => apply H; cbn; auto 10 end)].
Ltac call_by l f := intros; split;
  [intros w Hw; eapply l; uses_go | eapply writes_of_modifies, f | intros p Hp; cbn in *; tauto].

Theorem C91_neg_s : forall T (Op : Ops T) a0 a1 a2, a_call (T := T) [a1; a2] [a2] (fun w => paired w) (neg_s a0 a1 a2).
Proof. call_by C57_neg_s C58_neg_s. Unshelve. all: assumption. Qed.
Theorem C91_neg_d : forall T (Op : Ops T) a0 a1, a_call (T := T) [a0; a1] [a1] (fun w => paired w) (neg_d a0 a1).
Proof. call_by C57_neg_d C58_neg_d. Unshelve. all: assumption. Qed.
Theorem C91_op_neg_s : forall T (Op : Ops T) a0 a1, a_call (T := T) [a1] [] (fun w => paired w) (op_neg_s a0 a1).
Proof. call_by C57_op_neg_s C58_op_neg_s. Unshelve. all: assumption. Qed.
Theorem C91_op_neg_d : forall T (Op : Ops T) a0, a_call (T := T) [a0] [] (fun w => paired w) (op_neg_d a0).
Proof. call_by C57_op_neg_d C58_op_neg_d. Unshelve. all: assumption. Qed.
Theorem C91_add_s : forall T (Op : Ops T) a0 a1 a2 a3, a_call (T := T) [a1; a2; a3] [a3] (fun w => paired w) (add_s a0 a1 a2 a3).
Proof. call_by C57_add_s C58_add_s. Unshelve. all: assumption. Qed.
Theorem C91_add_sd : forall T (Op : Ops T) a0 a1 a2 a3, a_call (T := T) [a1; a2; a3] [a3] (fun w => paired w) (add_sd a0 a1 a2 a3).
Proof. call_by C57_add_sd C58_add_sd. Unshelve. all: assumption. Qed.
Theorem C91_add_ds : forall T (Op : Ops T) a0 a1 a2 a3, a_call (T := T) [a1; a2; a3] [a3] (fun w => paired w) (add_ds a0 a1 a2 a3).
Proof. call_by C57_add_ds C58_add_ds. Unshelve. all: assumption. Qed.
Theorem C91_add_d : forall T (Op : Ops T) a0 a1 a2, a_call (T := T) [a0; a1; a2] [a2] (fun w => paired w) (add_d a0 a1 a2).
Proof. call_by C57_add_d C58_add_d. Unshelve. all: assumption. Qed.
Theorem C91_op_add_s : forall T (Op : Ops T) a0 a1 a2, a_call (T := T) [a1; a2] [] (fun w => paired w) (op_add_s a0 a1 a2).
Proof. call_by C57_op_add_s C58_op_add_s. Unshelve. all: assumption. Qed.
Theorem C91_op_add_d : forall T (Op : Ops T) a0 a1, a_call (T := T) [a0; a1] [] (fun w => paired w) (op_add_d a0 a1).
Proof. call_by C57_op_add_d C58_op_add_d. Unshelve. all: assumption. Qed.
Theorem C91_sub_s : forall T (Op : Ops T) a0 a1 a2 a3, a_call (T := T) [a1; a2; a3] [a3] (fun w => paired w) (sub_s a0 a1 a2 a3).
Proof. call_by C57_sub_s C58_sub_s. Unshelve. all: assumption. Qed.
Theorem C91_sub_ds : forall T (Op : Ops T) a0 a1 a2 a3, a_call (T := T) [a1; a2; a3] [a3] (fun w => paired w) (sub_ds a0 a1 a2 a3).
Proof. call_by C57_sub_ds C58_sub_ds. Unshelve. all: assumption. Qed.
Theorem C91_sub_d : forall T (Op : Ops T) a0 a1 a2, a_call (T := T) [a0; a1; a2] [a2] (fun w => paired w) (sub_d a0 a1 a2).
Proof. call_by C57_sub_d C58_sub_d. Unshelve. all: assumption. Qed.
Theorem C91_op_sub_s : forall T (Op : Ops T) a0 a1 a2, a_call (T := T) [a1; a2] [] (fun w => paired w) (op_sub_s a0 a1 a2).
Proof. call_by C57_op_sub_s C58_op_sub_s. Unshelve. all: assumption. Qed.
Theorem C91_op_sub_d : forall T (Op : Ops T) a0 a1, a_call (T := T) [a0; a1] [] (fun w => paired w) (op_sub_d a0 a1).
Proof. call_by C57_op_sub_d C58_op_sub_d. Unshelve. all: assumption. Qed.
Theorem C91_axpy_s : forall T (Op : Ops T) a0 a1 a2 a3, a_call (T := T) [a2; a3] [a3] (fun w => paired w) (axpy_s a0 a1 a2 a3).
Proof. call_by C57_axpy_s C58_axpy_s. Unshelve. all: assumption. Qed.
Theorem C91_axpy_d : forall T (Op : Ops T) a0 a1 a2, a_call (T := T) [a1; a2] [a2] (fun w => paired w) (axpy_d a0 a1 a2).
Proof. call_by C57_axpy_d C58_axpy_d. Unshelve. all: assumption. Qed.
Theorem C91_scale_s : forall T (Op : Ops T) a0 a1 a2, a_call (T := T) [a2] [a2] (fun w => paired w) (scale_s a0 a1 a2).
Proof. call_by C57_scale_s C58_scale_s. Unshelve. all: assumption. Qed.
Theorem C91_scale_d : forall T (Op : Ops T) a0 a1, a_call (T := T) [a1] [a1] (fun w => paired w) (scale_d a0 a1).
Proof. call_by C57_scale_d C58_scale_d. Unshelve. all: assumption. Qed.
Theorem C91_op_scale_s : forall T (Op : Ops T) a0 a1 a2, a_call (T := T) [a2] [] (fun w => paired w) (op_scale_s a0 a1 a2).
Proof. call_by C57_op_scale_s C58_op_scale_s. Unshelve. all: assumption. Qed.
Theorem C91_op_scale_d : forall T (Op : Ops T) a0 a1, a_call (T := T) [a1] [] (fun w => paired w) (op_scale_d a0 a1).
Proof. call_by C57_op_scale_d C58_op_scale_d. Unshelve. all: assumption. Qed.
Theorem C91_scaled_s : forall T (Op : Ops T) a0 a1 a2, a_call (T := T) [a2] [] (fun w => paired w) (scaled_s a0 a1 a2).
Proof. call_by C57_scaled_s C58_scaled_s. Unshelve. all: assumption. Qed.
Theorem C91_scaled_d : forall T (Op : Ops T) a0 a1, a_call (T := T) [a1] [] (fun w => paired w) (scaled_d a0 a1).
Proof. call_by C57_scaled_d C58_scaled_d. Unshelve. all: assumption. Qed.
Theorem C91_op_div_s : forall T (Op : Ops T) a0 a1 a2, a_call (T := T) [a1] [] (fun w => paired w) (op_div_s a0 a1 a2).
Proof. call_by C57_op_div_s C58_op_div_s. Unshelve. all: assumption. Qed.
Theorem C91_op_div_d : forall T (Op : Ops T) a0 a1, a_call (T := T) [a0] [] (fun w => paired w) (op_div_d a0 a1).
Proof. call_by C57_op_div_d C58_op_div_d. Unshelve. all: assumption. Qed.
Theorem C91_dot_s : forall T (Op : Ops T) a0 a1 a2, a_call (T := T) [a1; a2] [] (fun _ => eq) (dot_s a0 a1 a2).
Proof. call_by C57_dot_s C58_dot_s. Unshelve. all: assumption. Qed.
Theorem C91_dot_sd : forall T (Op : Ops T) a0 a1 a2, a_call (T := T) [a1; a2] [] (fun _ => eq) (dot_sd a0 a1 a2).
Proof. call_by C57_dot_sd C58_dot_sd. Unshelve. all: assumption. Qed.
Theorem C91_dot_d : forall T (Op : Ops T) a0 a1, a_call (T := T) [a0; a1] [] (fun _ => eq) (dot_d a0 a1).
Proof. call_by C57_dot_d C58_dot_d. Unshelve. all: assumption. Qed.
Theorem C91_dot_member_d : forall T (Op : Ops T) a0 a1, a_call (T := T) [a0; a1] [] (fun _ => eq) (dot_member_d a0 a1).
Proof. call_by C57_dot_member_d C58_dot_member_d. Unshelve. all: assumption. Qed.
Theorem C91_dot_member_ds : forall T (Op : Ops T) a0 a1 a2, a_call (T := T) [a1; a2] [] (fun _ => eq) (dot_member_ds a0 a1 a2).
Proof. call_by C57_dot_member_ds C58_dot_member_ds. Unshelve. all: assumption. Qed.
Theorem C91_norm2_d : forall T (Op : Ops T) a0, a_call (T := T) [a0] [] (fun _ => eq) (norm2_d a0).
Proof. call_by C57_norm2_d C58_norm2_d. Unshelve. all: assumption. Qed.
Theorem C91_norm2_s : forall T (Op : Ops T) a0 a1, a_call (T := T) [a1] [] (fun _ => eq) (norm2_s a0 a1).
Proof. call_by C57_norm2_s C58_norm2_s. Unshelve. all: assumption. Qed.
Theorem C91_cross2 : forall T (Op : Ops T) a0 a1 a2 a3 a4, a_call (T := T) [a3; a4] [] (fun _ => eq) (cross2 a0 a1 a2 a3 a4).
Proof. call_by C57_cross2 C58_cross2. Unshelve. all: assumption. Qed.
Theorem C91_cross3 : forall T (Op : Ops T) a0 a1 a2 a3 a4 a5 a6, a_call (T := T) [a4; a5; a6] [a6] (fun w => paired w) (cross3 a0 a1 a2 a3 a4 a5 a6).
Proof. call_by C57_cross3 C58_cross3. Unshelve. all: assumption. Qed.
Theorem C91_cross3_new : forall T (Op : Ops T) a0 a1 a2 a3 a4, a_call (T := T) [a3; a4] [] (fun w => paired w) (cross3_new a0 a1 a2 a3 a4).
Proof. call_by C57_cross3_new C58_cross3_new. Unshelve. all: assumption. Qed.
Theorem C91_cross3_acc : forall T (Op : Ops T) a0 a1 a2 a3 a4 a5 a6, a_call (T := T) [a4; a5; a6] [a6] (fun w => paired w) (cross3_acc a0 a1 a2 a3 a4 a5 a6).
Proof. call_by C57_cross3_acc C58_cross3_acc. Unshelve. all: assumption. Qed.
Theorem C91_dynvec_uninit : forall T (Op : Ops T) a0, a_call (T := T) [] [] (fun w => paired w) (dynvec_uninit a0).
Proof. call_by C57_dynvec_uninit C58_dynvec_uninit. Unshelve. all: assumption. Qed.
Theorem C91_dynvec_filled : forall T (Op : Ops T) a0 a1, a_call (T := T) [] [] (fun w => paired w) (dynvec_filled a0 a1).
Proof. call_by C57_dynvec_filled C58_dynvec_filled. Unshelve. all: assumption. Qed.
Theorem C91_dynvec_of : forall T (Op : Ops T) a0, a_call (T := T) [] [] (fun w => paired w) (dynvec_of a0).
Proof. call_by C57_dynvec_of C58_dynvec_of. Unshelve. all: assumption. Qed.
Theorem C91_vec_copy : forall T (Op : Ops T) a0, a_call (T := T) [a0] [] (fun w => paired w) (vec_copy a0).
Proof. call_by C57_vec_copy C58_vec_copy. Unshelve. all: assumption. Qed.
Theorem C91_sizedvec_of : forall T (Op : Ops T) a0 a1, a_call (T := T) [] [] (fun w => paired w) (sizedvec_of a0 a1).
Proof. call_by C57_sizedvec_of C58_sizedvec_of. Unshelve. all: assumption. Qed.
Theorem C91_sizedvec_uninit : forall T (Op : Ops T) a0, a_call (T := T) [] [] (fun w => paired w) (sizedvec_uninit a0).
Proof. call_by C57_sizedvec_uninit C58_sizedvec_uninit. Unshelve. all: assumption. Qed.
Theorem C91_sizedvec_filled : forall T (Op : Ops T) a0 a1, a_call (T := T) [] [] (fun w => paired w) (sizedvec_filled a0 a1).
Proof. call_by C57_sizedvec_filled C58_sizedvec_filled. Unshelve. all: assumption. Qed.
Theorem C91_vec_get : forall T (Op : Ops T) a0 a1, a_call (T := T) [a0] [] (fun _ => eq) (vec_get a0 a1).
Proof. call_by C57_vec_get C58_vec_get. Unshelve. all: assumption. Qed.
Theorem C91_vec_put : forall T (Op : Ops T) a0 a1 a2, a_call (T := T) [a0] [a0] (fun _ => eq) (vec_put a0 a1 a2).
Proof. call_by C57_vec_put C58_vec_put. Unshelve. all: assumption. Qed.
Theorem C91_dynmat_of : forall T (Op : Ops T) a0 a1 a2, a_call (T := T) [] [] (fun w => same_mat_shape w) (dynmat_of a0 a1 a2).
Proof. call_by C57_dynmat_of C58_dynmat_of. Unshelve. all: assumption. Qed.
Theorem C91_sizedmat_of : forall T (Op : Ops T) a0 a1 a2, a_call (T := T) [] [] (fun w => same_mat_shape w) (sizedmat_of a0 a1 a2).
Proof. call_by C57_sizedmat_of C58_sizedmat_of. Unshelve. all: assumption. Qed.
Theorem C91_mat_uninit : forall T (Op : Ops T) a0 a1, a_call (T := T) [] [] (fun w => same_mat_shape w) (mat_uninit a0 a1).
Proof. call_by C57_mat_uninit C58_mat_uninit. Unshelve. all: assumption. Qed.
Theorem C91_mat_get : forall T (Op : Ops T) a0 a1 a2, a_call (T := T) [mp a0] [] (fun _ => eq) (mat_get a0 a1 a2).
Proof. call_by C57_mat_get C58_mat_get. Unshelve. all: assumption. Qed.
Theorem C91_mat_put : forall T (Op : Ops T) a0 a1 a2 a3, a_call (T := T) [mp a0] [mp a0] (fun _ => eq) (mat_put a0 a1 a2 a3).
Proof. call_by C57_mat_put C58_mat_put. Unshelve. all: assumption. Qed.
Theorem C91_mat_at : forall T (Op : Ops T) a0 a1 a2, a_call (T := T) [mp a0] [] (fun _ => eq) (mat_at a0 a1 a2).
Proof. call_by C57_mat_at C58_mat_at. Unshelve. all: assumption. Qed.
Theorem C91_mat_mut_at : forall T (Op : Ops T) a0 a1 a2 a3, a_call (T := T) [mp a0] [mp a0] (fun _ => eq) (mat_mut_at a0 a1 a2 a3).
Proof. call_by C57_mat_mut_at C58_mat_mut_at. Unshelve. all: assumption. Qed.
Theorem C91_mat_filled : forall T (Op : Ops T) a0 a1 a2, a_call (T := T) [] [] (fun w => same_mat_shape w) (mat_filled a0 a1 a2).
Proof. call_by C57_mat_filled C58_mat_filled. Unshelve. all: assumption. Qed.
Theorem C91_mat_diag_list : forall T (Op : Ops T) a0, a_call (T := T) [] [] (fun w => same_mat_shape w) (mat_diag_list a0).
Proof. call_by C57_mat_diag_list C58_mat_diag_list. Unshelve. all: assumption. Qed.
Theorem C91_mat_diag : forall T (Op : Ops T) a0 a1, a_call (T := T) [] [] (fun w => same_mat_shape w) (mat_diag a0 a1).
Proof. call_by C57_mat_diag C58_mat_diag. Unshelve. all: assumption. Qed.
Theorem C91_mat_identity : forall T (Op : Ops T) a0, a_call (T := T) [] [] (fun w => same_mat_shape w) (mat_identity a0).
Proof. call_by C57_mat_identity C58_mat_identity. Unshelve. all: assumption. Qed.
Theorem C91_mat_copy : forall T (Op : Ops T) a0, a_call (T := T) [mp a0] [] (fun w => same_mat_shape w) (mat_copy a0).
Proof. call_by C57_mat_copy C58_mat_copy. Unshelve. all: assumption. Qed.
Theorem C91_mulv : forall T (Op : Ops T) a0 a1 a2 a3 a4 a5, a_call (T := T) [mp a2; a3; a5] [a5] (fun w => paired w) (mulv a0 a1 a2 a3 a4 a5).
Proof. call_by C57_mulv C58_mulv. Unshelve. all: assumption. Qed.
Theorem C91_op_mulv : forall T (Op : Ops T) a0 a1 a2, a_call (T := T) [mp a1; a2] [] (fun w => paired w) (op_mulv a0 a1 a2).
Proof. call_by C57_op_mulv C58_op_mulv. Unshelve. all: assumption. Qed.
Theorem C91_mulm : forall T (Op : Ops T) a0 a1 a2 a3 a4 a5, a_call (T := T) [mp a2; mp a3; mp a5] [mp a5] (fun w => same_mat_shape w) (mulm a0 a1 a2 a3 a4 a5).
Proof. call_by C57_mulm C58_mulm. Unshelve. all: assumption. Qed.
Theorem C91_op_mulm : forall T (Op : Ops T) a0 a1 a2, a_call (T := T) [mp a1; mp a2] [] (fun w => same_mat_shape w) (op_mulm a0 a1 a2).
Proof. call_by C57_op_mulm C58_op_mulm. Unshelve. all: assumption. Qed.
Theorem C91_addm : forall T (Op : Ops T) a0 a1 a2 a3, a_call (T := T) [mp a1; mp a2; mp a3] [mp a3] (fun w => same_mat_shape w) (addm a0 a1 a2 a3).
Proof. call_by C57_addm C58_addm. Unshelve. all: assumption. Qed.
Theorem C91_op_addm : forall T (Op : Ops T) a0 a1 a2, a_call (T := T) [mp a1; mp a2] [] (fun w => same_mat_shape w) (op_addm a0 a1 a2).
Proof. call_by C57_op_addm C58_op_addm. Unshelve. all: assumption. Qed.
Theorem C91_subm : forall T (Op : Ops T) a0 a1 a2 a3, a_call (T := T) [mp a1; mp a2; mp a3] [mp a3] (fun w => same_mat_shape w) (subm a0 a1 a2 a3).
Proof. call_by C57_subm C58_subm. Unshelve. all: assumption. Qed.
Theorem C91_op_subm : forall T (Op : Ops T) a0 a1 a2, a_call (T := T) [mp a1; mp a2] [] (fun w => same_mat_shape w) (op_subm a0 a1 a2).
Proof. call_by C57_op_subm C58_op_subm. Unshelve. all: assumption. Qed.
Theorem C91_scalem : forall T (Op : Ops T) a0 a1, a_call (T := T) [mp a1] [mp a1] (fun w => same_mat_shape w) (scalem a0 a1).
Proof. call_by C57_scalem C58_scalem. Unshelve. all: assumption. Qed.
Theorem C91_op_scalem : forall T (Op : Ops T) a0 a1, a_call (T := T) [mp a1] [] (fun w => same_mat_shape w) (op_scalem a0 a1).
Proof. call_by C57_op_scalem C58_op_scalem. Unshelve. all: assumption. Qed.
Theorem C91_op_negm : forall T (Op : Ops T) a0, a_call (T := T) [mp a0] [] (fun w => same_mat_shape w) (op_negm a0).
Proof. call_by C57_op_negm C58_op_negm. Unshelve. all: assumption. Qed.
Theorem C91_invert2 : forall T (Op : Ops T) a0 a1, a_call (T := T) [mp a0; mp a1] [mp a1] (fun w => same_mat_shape w) (invert2 a0 a1).
Proof. call_by C57_invert2 C58_invert2. Unshelve. all: assumption. Qed.
Theorem C91_invert2_inplace : forall T (Op : Ops T) a0, a_call (T := T) [mp a0] [mp a0] (fun w => same_mat_shape w) (invert2_inplace a0).
Proof. call_by C57_invert2_inplace C58_invert2_inplace. Unshelve. all: assumption. Qed.
Theorem C91_inverted2 : forall T (Op : Ops T) a0, a_call (T := T) [mp a0] [] (fun w => same_mat_shape w) (inverted2 a0).
Proof. call_by C57_inverted2 C58_inverted2. Unshelve. all: assumption. Qed.
Theorem C91_back_sub : forall T (Op : Ops T) a0 a1, a_call (T := T) [a1] [a1] (fun _ => eq) (back_sub a0 a1).
Proof. call_by C57_back_sub C58_back_sub. Unshelve. all: assumption. Qed.
Theorem C91_sp_mul : forall T (Op : Ops T) a0 a1 a2 a3 a4 a5, a_call (T := T) [a3; a5] [a5] (fun w => paired w) (sp_mul a0 a1 a2 a3 a4 a5).
Proof. call_by C57_sp_mul C58_sp_mul. Unshelve. all: assumption. Qed.
Theorem C91_sp_op_mul : forall T (Op : Ops T) a0 a1 a2, a_call (T := T) [a2] [] (fun w => paired w) (sp_op_mul a0 a1 a2).
Proof. call_by C57_sp_op_mul C58_sp_op_mul. Unshelve. all: assumption. Qed.
Theorem C91_tridiag_solve_vec : forall T (Op : Ops T) a0 a1 a2 a3, a_call (T := T) [a2; a3] [a3] (fun w => paired w) (tridiag_solve_vec a0 a1 a2 a3).
Proof. call_by C57_tridiag_solve_vec C58_tridiag_solve_vec. Unshelve. all: assumption. Qed.
Theorem C91_tridiag_solve_mat : forall T (Op : Ops T) a0 a1 a2 a3, a_call (T := T) [mp a2; mp a3] [mp a3] (fun w => same_mat_shape w) (tridiag_solve_mat a0 a1 a2 a3).
Proof. call_by C57_tridiag_solve_mat C58_tridiag_solve_mat. Unshelve. all: assumption. Qed.
Theorem C91_tri_cholesky : forall T (Op : Ops T) a0, a_call (T := T) [] [] (fun w => same_chol w) (tri_cholesky a0).
Proof. call_by C57_tri_cholesky C58_tri_cholesky. Unshelve. all: assumption. Qed.
Theorem C91_dyn_cholesky : forall T (Op : Ops T) a0, a_call (T := T) [mp a0] [] (fun w => same_chol w) (dyn_cholesky a0).
Proof. call_by C57_dyn_cholesky C58_dyn_cholesky. Unshelve. all: assumption. Qed.
Theorem C91_mod_cholesky : forall T (Op : Ops T) a0, a_call (T := T) [mp a0] [] (fun w => same_chol w) (mod_cholesky a0).
Proof. call_by C57_mod_cholesky C58_mod_cholesky. Unshelve. all: assumption. Qed.
Theorem C91_lower_mat : forall T (Op : Ops T) a0, a_call (T := T) [chp a0] [] (fun _ => eq) (lower_mat a0).
Proof. call_by C57_lower_mat C58_lower_mat. Unshelve. all: assumption. Qed.
Theorem C91_chol_solve_mut_vec : forall T (Op : Ops T) a0 a1 a2, a_call (T := T) [chp a1; a2] [a2] (fun w => paired w) (chol_solve_mut_vec a0 a1 a2).
Proof. call_by C57_chol_solve_mut_vec C58_chol_solve_mut_vec. Unshelve. all: assumption. Qed.
Theorem C91_chol_solve_vec : forall T (Op : Ops T) a0 a1 a2, a_call (T := T) [chp a1; a2] [] (fun w => paired w) (chol_solve_vec a0 a1 a2).
Proof. call_by C57_chol_solve_vec C58_chol_solve_vec. Unshelve. all: assumption. Qed.
Theorem C91_chol_solve_mut_mat : forall T (Op : Ops T) a0 a1 a2, a_call (T := T) [chp a1; mp a2] [mp a2] (fun w => same_mat_shape w) (chol_solve_mut_mat a0 a1 a2).
Proof. call_by C57_chol_solve_mut_mat C58_chol_solve_mut_mat. Unshelve. all: assumption. Qed.
Theorem C91_chol_solve_mat : forall T (Op : Ops T) a0 a1 a2, a_call (T := T) [chp a1; mp a2] [] (fun w => same_mat_shape w) (chol_solve_mat a0 a1 a2).
Proof. call_by C57_chol_solve_mat C58_chol_solve_mat. Unshelve. all: assumption. Qed.
Theorem C91_mod_solve_mut_vec : forall T (Op : Ops T) a0 a1 a2, a_call (T := T) [chp a1; a2] [a2] (fun w => paired w) (mod_solve_mut_vec a0 a1 a2).
Proof. call_by C57_mod_solve_mut_vec C58_mod_solve_mut_vec. Unshelve. all: assumption. Qed.
Theorem C91_mod_solve_vec : forall T (Op : Ops T) a0 a1 a2, a_call (T := T) [chp a1; a2] [] (fun w => paired w) (mod_solve_vec a0 a1 a2).
Proof. call_by C57_mod_solve_vec C58_mod_solve_vec. Unshelve. all: assumption. Qed.
Theorem C91_mod_solve_mut_mat : forall T (Op : Ops T) a0 a1 a2, a_call (T := T) [chp a1; mp a2] [mp a2] (fun w => same_mat_shape w) (mod_solve_mut_mat a0 a1 a2).
Proof. call_by C57_mod_solve_mut_mat C58_mod_solve_mut_mat. Unshelve. all: assumption. Qed.
Theorem C91_mod_solve_mat : forall T (Op : Ops T) a0 a1 a2, a_call (T := T) [chp a1; mp a2] [] (fun w => same_mat_shape w) (mod_solve_mat a0 a1 a2).
Proof. call_by C57_mod_solve_mat C58_mod_solve_mat. Unshelve. all: assumption. Qed.
Theorem C91_ilu_dyn : forall T (Op : Ops T) a0, a_call (T := T) [mp a0] [] (fun w => same_mat_shape w) (ilu_dyn a0).
Proof. call_by C57_ilu_dyn C58_ilu_dyn. Unshelve. all: assumption. Qed.
Theorem C91_ilu_dyn_solve : forall T (Op : Ops T) a0 a1, a_call (T := T) [mp a0; a1] [] (fun w => paired w) (ilu_dyn_solve a0 a1).
Proof. call_by C57_ilu_dyn_solve C58_ilu_dyn_solve. Unshelve. all: assumption. Qed.
Theorem C91_ilu_csr_solve : forall T (Op : Ops T) a0 a1, a_call (T := T) [a1] [] (fun w => paired w) (ilu_csr_solve a0 a1).
Proof. call_by C57_ilu_csr_solve C58_ilu_csr_solve. Unshelve. all: assumption. Qed.
Theorem C91_gmres_dyn_new : forall T (Op : Ops T) a0, a_call (T := T) [mp a0] [] (fun w => same_pair w) (gmres_dyn_new a0).
Proof. call_by C57_gmres_dyn_new C58_gmres_dyn_new. Unshelve. all: assumption. Qed.
Theorem C91_gmres_dyn_solve : forall T (Op : Ops T) a0 a1 a2 a3 a4, a_call (T := T) [mp (fst a2); mp (snd a2); a4] [] (fun w => paired w) (gmres_dyn_solve a0 a1 a2 a3 a4).
Proof. call_by C57_gmres_dyn_solve C58_gmres_dyn_solve. Unshelve. all: assumption. Qed.
Theorem C91_gmres_csr_solve : forall T (Op : Ops T) a0 a1 a2 a3 a4, a_call (T := T) [a4] [] (fun w => paired w) (gmres_csr_solve a0 a1 a2 a3 a4).
Proof. call_by C57_gmres_csr_solve C58_gmres_csr_solve. Unshelve. all: assumption. Qed.
Theorem C91_cgs : forall T (Op : Ops T) dbg vecs, a_call (T := T) vecs vecs (fun _ => eq) (cgs dbg vecs).
Proof.
  intros. split.
  - intros w Hw. apply C57_cgs; [reflexivity|]. revert Hw. induction vecs as [|p l IH]; intros Hw; constructor.
    + left. apply Hw. now left.
    + apply IH. intros q Iq. apply Hw. now right.
  - eapply writes_of_modifies, C58_cgs.
  - apply incl_refl.
Qed.
Theorem C91_vec_assign : forall T (Op : Ops T) a0 a1, a_call (T := T) [a0; a1] [a0] (fun w => paired w) (vec_assign a0 a1).
Proof.
  intros. split.
  - intros w Hw. eapply (C57_vec_assign _ _ w); uses_go.
  - intros h. destruct (C58_vec_assign T h a0 a1) as (h' & E & N & _ & K). rewrite E. split; [lia|].
    intros q _ I. apply K. intros ->. apply I. now left.
  - intros p [<-|[]]. now left.
Qed.
Theorem C91_mat_assign : forall T (Op : Ops T) a0 a1, a_call (T := T) [mp a0; mp a1] [mp a0] (fun w => same_mat_shape w) (mat_assign a0 a1).
Proof.
  intros. split.
  - intros w Hw. eapply (C57_mat_assign _ _ w); uses_go.
  - intros h. destruct (C58_mat_assign T h a0 a1) as (h' & E & N & _ & K). rewrite E. split; [lia|].
    intros q _ I. apply K. intros ->. apply I. now left.
  - intros p [<-|[]]. now left.
Qed.

(** Example: three calls that share an operand; the hypotheses of [C91_any_order] are met, and the
    batch makes the changes one expects. *)
Definition ex_batch : list (task Z) :=
  [mkTask _ [0; 1] [1] (fun w => paired w) (axpy_d 10%Z 0 1);
   mkTask _ [0; 2] [2] (fun w => paired w) (neg_d 0 2);
   mkTask _ [0; 3] [] (fun w => paired w) (op_add_d 0 3)].
Definition ex_heap : heap Z := heap_of [[1; 2]; [3; 4]; [5; 6]; [7; 8]]%Z.

Example C91_example : Forall is_call ex_batch /\ ForallOrdPairs apart ex_batch /\ clean ex_heap /\
  (forall t, In t ex_batch -> live ex_heap (t_uses t)) /\
  (forall t, In t ex_batch -> exists a g, t_run t ex_heap = Ok a g) /\
  (forall g, batch (rev ex_batch) ex_heap = Ok tt g -> map (mem g) (seq 0 5) = [[1; 2]; [13; 24]; [-1; -2]; [7; 8]; [8; 10]]%Z).
Proof.
  split; [|split; [|split; [|split; [|split]]]].
  - constructor; [apply C91_axpy_d|]. constructor; [apply C91_neg_d|]. constructor; [apply C91_op_add_d|constructor].
  - unfold apart, no_conflict, ex_batch. cbn [t_uses t_dests].
    repeat constructor; cbn; intros p Hp Hq; lia.
  - apply clean_heap_of.
  - intros t It p Ip. cbn. cbn in It. repeat destruct It as [<-|It]; try contradiction; cbn in Ip; lia.
  - intros t It. cbn in It. repeat destruct It as [<-|It]; try contradiction; do 2 eexists; vm_compute; reflexivity.
  - intros g E. revert E. cbn [rev ex_batch app batch t_run].
    match goal with |- ?x = _ -> _ => let y := eval vm_compute in x in change x with y end.
    intros E. injection E as <-. vm_compute. reflexivity.
Qed.

(** The condition is needed: two calls that write to the same vector do not commute. *)
Example C91_conflict : exists g g' : heap Z,
  (axpy_d 10%Z 0 1 ;; scale_d 2%Z 1) ex_heap = Ok 1 g /\ (scale_d 2%Z 1 ;; axpy_d 10%Z 0 1) ex_heap = Ok 1 g' /\
  mem g 1 = [26; 48]%Z /\ mem g' 1 = [16; 28]%Z.
Proof. do 2 eexists. repeat split; vm_compute; reflexivity. Qed.

Print Assumptions C91_two.
Print Assumptions C91_any_order.
Print Assumptions C91_gmres_dyn_solve.
