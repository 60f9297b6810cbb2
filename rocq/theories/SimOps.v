(** * Every modelled function respects the pairing of objects (proofs) *)
From Verif Require Import Base Scalar BaseLemmas ModelVec ModelMat ModelPacked ModelSparse ModelSolvers ModelIter SpecSim Sim.
Local Open Scope nat_scope.

Section SimOps.
Context {T : Type} {Op : Ops T}.
Variable w : pairing.
Variables g1 g2 : heap T.
Hypothesis W : corresponds w g1 g2.

Lemma args_live p q : args w p q -> forall h1 h2, related w g1 g2 h1 h2 -> p < next h1 /\ q < next h2.
Proof.
  intros H h1 h2 Rl. destruct (re_new _ _ _ _ _ Rl) as (k & E1 & E2), (co_live _ _ _ W _ _ H).
  rewrite (co_free1 _ _ _ W) in E1. rewrite (co_free2 _ _ _ W) in E2. lia.
Qed.
Lemma eqb_paired p q p' q' : paired w p p' -> paired w q q' -> Nat.eqb p q = Nat.eqb p' q'.
Proof.
  intros H H'. destruct (Nat.eqb_spec p q) as [->|N], (Nat.eqb_spec p' q') as [->|N']; auto.
  - destruct N'. eapply paired_fun; eauto.
  - destruct N. eapply paired_inj; eauto.
Qed.

Ltac inert_go := repeat (cbv beta zeta; first
  [ apply inert_ret | apply inert_throw | apply inert_ub | apply inert_diverge | apply inert_vec_at | apply inert_vec_set
  | apply inert_assert | apply inert_run_local | apply inert_on_copy | apply inert_noexcept
  | apply inert_bind; [|intros ?] | apply inert_for_u32; intros ? ? | apply inert_for_sz; intros ? ?
  | apply inert_loop; intros ? ? | apply inert_if
  | match goal with |- inert (match ?x with _ => _ end) => destruct x end ]).

Ltac sim_prep := repeat match goal with
  | H : same_mat_shape _ ?A ?B |- _ => destruct A, B; destruct H as (? & ? & ?); cbn [mp mr mc] in *; subst
  | H : arg_mat _ ?A ?B |- _ => destruct A, B; destruct H as (? & ? & ?); cbn [mp mr mc] in *; subst
  | H : same_chol _ ?A ?B |- _ => destruct A, B; destruct H as (? & ? & ?); cbn [chp chn chmt] in *; subst
  | H : same_pair _ ?A ?B |- _ => destruct A, B; destruct H as (? & ?); cbn [fst snd] in *
  | H : ?a = ?b |- _ => first [subst a | subst b]
  | u : unit |- _ => destruct u
  end.

Ltac mat_cbn := cbn [mp mr mc].
Create HintDb simdb.
Create HintDb reldb.
Ltac sim_rel := first [assumption | reflexivity | exact (conj eq_refl eq_refl)
  | solve [eauto 4 with reldb]
  | solve [unfold same_pair, same_mat_shape, same_chol; cbn [fst snd mp mr mc chp chn chmt]; auto 10] ].

#[local] Hint Extern 1 (same_mat_shape _ _ _) => sim_rel : simdb.
#[local] Hint Extern 1 (same_chol _ _ _) => sim_rel : simdb.
#[local] Hint Extern 1 (same_pair _ _ _) => sim_rel : simdb.

Ltac sim_go := cbv beta zeta; sim_prep; cbn [mp mr mc chp chn chmt fst snd]; match goal with
  | |- sim _ _ _ _ (bind _ _) (bind _ _) => eapply sim_bind; [sim_go | intros ? ? ?; sim_go]
  | |- sim _ _ _ _ (ret _) (ret _) => apply sim_ret; sim_rel
  | |- sim _ _ _ _ (throw _) (throw _) => apply sim_throw
  | |- sim _ _ _ _ ub ub => apply sim_ub
  | |- sim _ _ _ _ diverge diverge => apply sim_diverge
  | |- sim _ _ _ _ (noexcept _) (noexcept _) => apply sim_noexcept; sim_go
  | |- sim _ _ _ _ (load _ _) (load _ _) => apply sim_load; assumption
  | |- sim _ _ _ _ (vsize _) (vsize _) => apply sim_vsize; assumption
  | |- sim _ _ _ _ (contents _) (contents _) => apply sim_contents; assumption
  | |- sim _ _ _ _ (store _ _ _) (store _ _ _) => apply (sim_store w g1 g2 W); assumption
  | |- sim _ _ _ _ (alloc _) (alloc _) => apply (sim_alloc w g1 g2 W)
  | |- sim _ _ _ _ (assert_ _ _) (assert_ _ _) => apply sim_assert
  | |- sim _ _ _ _ (copy_n _ _ _) (copy_n _ _ _) => apply (sim_copy_n w g1 g2 W); assumption
  | |- sim _ _ _ _ (vec_at _ _) (vec_at _ _) => first [apply sim_inert, inert_vec_at | apply sim_vec_at; eassumption]
  | |- sim _ _ _ _ (for_u32 _ _ _ _) (for_u32 _ _ _ _) => apply (sim_for_u32 w g1 g2 eq); [reflexivity|intros ? ? ? ?; sim_go]
  | |- sim _ _ _ _ (for_sz _ _ _ _) (for_sz _ _ _ _) => apply (sim_for_sz w g1 g2 eq); [reflexivity|intros ? ? ? ?; sim_go]
  | |- sim _ _ _ _ (down_i32 _ _ _) (down_i32 _ _ _) => apply (sim_down_i32 w g1 g2 eq); [reflexivity|intros ? ? ? ?; sim_go]
  | |- sim _ _ _ _ (down_sz _ _ _) (down_sz _ _ _) => apply (sim_down_sz w g1 g2 eq); [reflexivity|intros ? ? ? ?; sim_go]
  | |- sim _ _ _ _ (if ?c then _ else _) (if ?c' then _ else _) =>
      first [ constr_eq c c' | let E := fresh "E" in assert (E : c = c') by (repeat first [reflexivity | apply eqb_paired; assumption | apply f_equal2 | apply f_equal]); rewrite E; clear E ];
      apply sim_if; sim_go
  | |- sim _ _ _ _ (match ?x with _ => _ end) (match ?x with _ => _ end) => destruct x; sim_go
  | |- _ => first [ solve [eauto 3 with simdb] | solve [eapply sim_inert; inert_go] ]
  end.


Lemma sim_neg_core_simd a0 b0 a1 b1 a2 : paired w a0 b0 -> paired w a1 b1 -> sim w g1 g2 (paired w) (neg_core_simd a0 a1 a2) (neg_core_simd b0 b1 a2).
Proof. intros; sim_prep; unfold neg_core_simd; sim_go. Qed.
#[local] Hint Resolve sim_neg_core_simd : simdb.
Lemma sim_add_core_simd a0 b0 a1 b1 a2 b2 a3 : paired w a0 b0 -> paired w a1 b1 -> paired w a2 b2 -> sim w g1 g2 (paired w) (add_core_simd a0 a1 a2 a3) (add_core_simd b0 b1 b2 a3).
Proof. intros; sim_prep; unfold add_core_simd; sim_go. Qed.
#[local] Hint Resolve sim_add_core_simd : simdb.
Lemma sim_add_core_parallel a0 b0 a1 b1 a2 b2 a3 : paired w a0 b0 -> paired w a1 b1 -> paired w a2 b2 -> sim w g1 g2 (paired w) (add_core_parallel a0 a1 a2 a3) (add_core_parallel b0 b1 b2 a3).
Proof. intros; sim_prep; unfold add_core_parallel; sim_go. Qed.
#[local] Hint Resolve sim_add_core_parallel : simdb.
Lemma sim_add_core a0 b0 a1 b1 a2 b2 a3 : paired w a0 b0 -> paired w a1 b1 -> paired w a2 b2 -> sim w g1 g2 (paired w) (add_core a0 a1 a2 a3) (add_core b0 b1 b2 a3).
Proof. intros; sim_prep; unfold add_core; sim_go. Qed.
#[local] Hint Resolve sim_add_core : simdb.
Lemma sim_sub_core_simd a0 b0 a1 b1 a2 b2 a3 : paired w a0 b0 -> paired w a1 b1 -> paired w a2 b2 -> sim w g1 g2 (paired w) (sub_core_simd a0 a1 a2 a3) (sub_core_simd b0 b1 b2 a3).
Proof. intros; sim_prep; unfold sub_core_simd; sim_go. Qed.
#[local] Hint Resolve sim_sub_core_simd : simdb.
Lemma sim_sub_core_parallel a0 b0 a1 b1 a2 b2 a3 : paired w a0 b0 -> paired w a1 b1 -> paired w a2 b2 -> sim w g1 g2 (paired w) (sub_core_parallel a0 a1 a2 a3) (sub_core_parallel b0 b1 b2 a3).
Proof. intros; sim_prep; unfold sub_core_parallel; sim_go. Qed.
#[local] Hint Resolve sim_sub_core_parallel : simdb.
Lemma sim_sub_core a0 b0 a1 b1 a2 b2 a3 : paired w a0 b0 -> paired w a1 b1 -> paired w a2 b2 -> sim w g1 g2 (paired w) (sub_core a0 a1 a2 a3) (sub_core b0 b1 b2 a3).
Proof. intros; sim_prep; unfold sub_core; sim_go. Qed.
#[local] Hint Resolve sim_sub_core : simdb.
Lemma sim_axpy_core a0 a1 b1 a2 b2 a3 : paired w a1 b1 -> paired w a2 b2 -> sim w g1 g2 (paired w) (axpy_core a0 a1 a2 a3) (axpy_core a0 b1 b2 a3).
Proof. intros; sim_prep; unfold axpy_core; sim_go. Qed.
#[local] Hint Resolve sim_axpy_core : simdb.
Lemma sim_dot_core a0 b0 a1 b1 a2 : paired w a0 b0 -> paired w a1 b1 -> sim w g1 g2 (eq) (dot_core a0 a1 a2) (dot_core b0 b1 a2).
Proof. intros; sim_prep; unfold dot_core; sim_go. Qed.
#[local] Hint Resolve sim_dot_core : simdb.
Lemma sim_cross2_core a0 b0 a1 b1 : paired w a0 b0 -> paired w a1 b1 -> sim w g1 g2 (eq) (cross2_core a0 a1) (cross2_core b0 b1).
Proof. intros; sim_prep; unfold cross2_core; sim_go. Qed.
#[local] Hint Resolve sim_cross2_core : simdb.
Lemma sim_cross3_core a0 b0 a1 b1 a2 b2 : paired w a0 b0 -> paired w a1 b1 -> paired w a2 b2 -> sim w g1 g2 (paired w) (cross3_core a0 a1 a2) (cross3_core b0 b1 b2).
Proof. intros; sim_prep; unfold cross3_core; sim_go. Qed.
#[local] Hint Resolve sim_cross3_core : simdb.
Lemma sim_cross3_acc_core a0 b0 a1 b1 a2 b2 : paired w a0 b0 -> paired w a1 b1 -> paired w a2 b2 -> sim w g1 g2 (paired w) (cross3_acc_core a0 a1 a2) (cross3_acc_core b0 b1 b2).
Proof. intros; sim_prep; unfold cross3_acc_core; sim_go. Qed.
#[local] Hint Resolve sim_cross3_acc_core : simdb.
Lemma sim_scal_core a0 a1 b1 a2 : paired w a1 b1 -> sim w g1 g2 (paired w) (scal_core a0 a1 a2) (scal_core a0 b1 a2).
Proof. intros; sim_prep; unfold scal_core; sim_go. Qed.
#[local] Hint Resolve sim_scal_core : simdb.
Lemma sim_norm2_core a0 b0 a1 : paired w a0 b0 -> sim w g1 g2 (eq) (norm2_core a0 a1) (norm2_core b0 a1).
Proof. intros; sim_prep; unfold norm2_core; sim_go. Qed.
#[local] Hint Resolve sim_norm2_core : simdb.
Lemma sim_check_size a0 a1 : sim w g1 g2 (eq) (check_size a0 a1) (check_size a0 a1).
Proof. intros; sim_prep; unfold check_size; sim_go. Qed.
#[local] Hint Resolve sim_check_size : simdb.
Lemma sim_neg_s a0 a1 b1 a2 b2 : paired w a1 b1 -> paired w a2 b2 -> sim w g1 g2 (paired w) (neg_s a0 a1 a2) (neg_s a0 b1 b2).
Proof. intros; sim_prep; unfold neg_s; sim_go. Qed.
#[local] Hint Resolve sim_neg_s : simdb.
Lemma sim_neg_d a0 b0 a1 b1 : paired w a0 b0 -> paired w a1 b1 -> sim w g1 g2 (paired w) (neg_d a0 a1) (neg_d b0 b1).
Proof. intros; sim_prep; unfold neg_d; sim_go. Qed.
#[local] Hint Resolve sim_neg_d : simdb.
Lemma sim_op_neg_s a0 a1 b1 : paired w a1 b1 -> sim w g1 g2 (paired w) (op_neg_s a0 a1) (op_neg_s a0 b1).
Proof. intros; sim_prep; unfold op_neg_s; sim_go. Qed.
#[local] Hint Resolve sim_op_neg_s : simdb.
Lemma sim_op_neg_d a0 b0 : paired w a0 b0 -> sim w g1 g2 (paired w) (op_neg_d a0) (op_neg_d b0).
Proof. intros; sim_prep; unfold op_neg_d; sim_go. Qed.
#[local] Hint Resolve sim_op_neg_d : simdb.
Lemma sim_add_s a0 a1 b1 a2 b2 a3 b3 : paired w a1 b1 -> paired w a2 b2 -> paired w a3 b3 -> sim w g1 g2 (paired w) (add_s a0 a1 a2 a3) (add_s a0 b1 b2 b3).
Proof. intros; sim_prep; unfold add_s; sim_go. Qed.
#[local] Hint Resolve sim_add_s : simdb.
Lemma sim_add_sd a0 a1 b1 a2 b2 a3 b3 : paired w a1 b1 -> paired w a2 b2 -> paired w a3 b3 -> sim w g1 g2 (paired w) (add_sd a0 a1 a2 a3) (add_sd a0 b1 b2 b3).
Proof. intros; sim_prep; unfold add_sd; sim_go. Qed.
#[local] Hint Resolve sim_add_sd : simdb.
Lemma sim_add_ds a0 a1 b1 a2 b2 a3 b3 : paired w a1 b1 -> paired w a2 b2 -> paired w a3 b3 -> sim w g1 g2 (paired w) (add_ds a0 a1 a2 a3) (add_ds a0 b1 b2 b3).
Proof. intros; sim_prep; unfold add_ds; sim_go. Qed.
#[local] Hint Resolve sim_add_ds : simdb.
Lemma sim_add_d a0 b0 a1 b1 a2 b2 : paired w a0 b0 -> paired w a1 b1 -> paired w a2 b2 -> sim w g1 g2 (paired w) (add_d a0 a1 a2) (add_d b0 b1 b2).
Proof. intros; sim_prep; unfold add_d; sim_go. Qed.
#[local] Hint Resolve sim_add_d : simdb.
Lemma sim_op_add_s a0 a1 b1 a2 b2 : paired w a1 b1 -> paired w a2 b2 -> sim w g1 g2 (paired w) (op_add_s a0 a1 a2) (op_add_s a0 b1 b2).
Proof. intros; sim_prep; unfold op_add_s; sim_go. Qed.
#[local] Hint Resolve sim_op_add_s : simdb.
Lemma sim_op_add_d a0 b0 a1 b1 : paired w a0 b0 -> paired w a1 b1 -> sim w g1 g2 (paired w) (op_add_d a0 a1) (op_add_d b0 b1).
Proof. intros; sim_prep; unfold op_add_d; sim_go. Qed.
#[local] Hint Resolve sim_op_add_d : simdb.
Lemma sim_sub_s a0 a1 b1 a2 b2 a3 b3 : paired w a1 b1 -> paired w a2 b2 -> paired w a3 b3 -> sim w g1 g2 (paired w) (sub_s a0 a1 a2 a3) (sub_s a0 b1 b2 b3).
Proof. intros; sim_prep; unfold sub_s; sim_go. Qed.
#[local] Hint Resolve sim_sub_s : simdb.
Lemma sim_sub_ds a0 a1 b1 a2 b2 a3 b3 : paired w a1 b1 -> paired w a2 b2 -> paired w a3 b3 -> sim w g1 g2 (paired w) (sub_ds a0 a1 a2 a3) (sub_ds a0 b1 b2 b3).
Proof. intros; sim_prep; unfold sub_ds; sim_go. Qed.
#[local] Hint Resolve sim_sub_ds : simdb.
Lemma sim_sub_d a0 b0 a1 b1 a2 b2 : paired w a0 b0 -> paired w a1 b1 -> paired w a2 b2 -> sim w g1 g2 (paired w) (sub_d a0 a1 a2) (sub_d b0 b1 b2).
Proof. intros; sim_prep; unfold sub_d; sim_go. Qed.
#[local] Hint Resolve sim_sub_d : simdb.
Lemma sim_op_sub_s a0 a1 b1 a2 b2 : paired w a1 b1 -> paired w a2 b2 -> sim w g1 g2 (paired w) (op_sub_s a0 a1 a2) (op_sub_s a0 b1 b2).
Proof. intros; sim_prep; unfold op_sub_s; sim_go. Qed.
#[local] Hint Resolve sim_op_sub_s : simdb.
Lemma sim_op_sub_d a0 b0 a1 b1 : paired w a0 b0 -> paired w a1 b1 -> sim w g1 g2 (paired w) (op_sub_d a0 a1) (op_sub_d b0 b1).
Proof. intros; sim_prep; unfold op_sub_d; sim_go. Qed.
#[local] Hint Resolve sim_op_sub_d : simdb.
Lemma sim_axpy_s a0 a1 a2 b2 a3 b3 : paired w a2 b2 -> paired w a3 b3 -> sim w g1 g2 (paired w) (axpy_s a0 a1 a2 a3) (axpy_s a0 a1 b2 b3).
Proof. intros; sim_prep; unfold axpy_s; sim_go. Qed.
#[local] Hint Resolve sim_axpy_s : simdb.
Lemma sim_axpy_d a0 a1 b1 a2 b2 : paired w a1 b1 -> paired w a2 b2 -> sim w g1 g2 (paired w) (axpy_d a0 a1 a2) (axpy_d a0 b1 b2).
Proof. intros; sim_prep; unfold axpy_d; sim_go. Qed.
#[local] Hint Resolve sim_axpy_d : simdb.
Lemma sim_scale_s a0 a1 a2 b2 : paired w a2 b2 -> sim w g1 g2 (paired w) (scale_s a0 a1 a2) (scale_s a0 a1 b2).
Proof. intros; sim_prep; unfold scale_s; sim_go. Qed.
#[local] Hint Resolve sim_scale_s : simdb.
Lemma sim_scale_d a0 a1 b1 : paired w a1 b1 -> sim w g1 g2 (paired w) (scale_d a0 a1) (scale_d a0 b1).
Proof. intros; sim_prep; unfold scale_d; sim_go. Qed.
#[local] Hint Resolve sim_scale_d : simdb.
Lemma sim_op_scale_s a0 a1 a2 b2 : paired w a2 b2 -> sim w g1 g2 (paired w) (op_scale_s a0 a1 a2) (op_scale_s a0 a1 b2).
Proof. intros; sim_prep; unfold op_scale_s; sim_go. Qed.
#[local] Hint Resolve sim_op_scale_s : simdb.
Lemma sim_op_scale_d a0 a1 b1 : paired w a1 b1 -> sim w g1 g2 (paired w) (op_scale_d a0 a1) (op_scale_d a0 b1).
Proof. intros; sim_prep; unfold op_scale_d; sim_go. Qed.
#[local] Hint Resolve sim_op_scale_d : simdb.
Lemma sim_scaled_s a0 a1 a2 b2 : paired w a2 b2 -> sim w g1 g2 (paired w) (scaled_s a0 a1 a2) (scaled_s a0 a1 b2).
Proof. intros; sim_prep; unfold scaled_s; sim_go. Qed.
#[local] Hint Resolve sim_scaled_s : simdb.
Lemma sim_scaled_d a0 a1 b1 : paired w a1 b1 -> sim w g1 g2 (paired w) (scaled_d a0 a1) (scaled_d a0 b1).
Proof. intros; sim_prep; unfold scaled_d; sim_go. Qed.
#[local] Hint Resolve sim_scaled_d : simdb.
Lemma sim_op_div_s a0 a1 b1 a2 : paired w a1 b1 -> sim w g1 g2 (paired w) (op_div_s a0 a1 a2) (op_div_s a0 b1 a2).
Proof. intros; sim_prep; unfold op_div_s; sim_go. Qed.
#[local] Hint Resolve sim_op_div_s : simdb.
Lemma sim_op_div_d a0 b0 a1 : paired w a0 b0 -> sim w g1 g2 (paired w) (op_div_d a0 a1) (op_div_d b0 a1).
Proof. intros; sim_prep; unfold op_div_d; sim_go. Qed.
#[local] Hint Resolve sim_op_div_d : simdb.
Lemma sim_dot_s a0 a1 b1 a2 b2 : paired w a1 b1 -> paired w a2 b2 -> sim w g1 g2 (eq) (dot_s a0 a1 a2) (dot_s a0 b1 b2).
Proof. intros; sim_prep; unfold dot_s; sim_go. Qed.
#[local] Hint Resolve sim_dot_s : simdb.
Lemma sim_dot_sd a0 a1 b1 a2 b2 : paired w a1 b1 -> paired w a2 b2 -> sim w g1 g2 (eq) (dot_sd a0 a1 a2) (dot_sd a0 b1 b2).
Proof. intros; sim_prep; unfold dot_sd; sim_go. Qed.
#[local] Hint Resolve sim_dot_sd : simdb.
Lemma sim_dot_d a0 b0 a1 b1 : paired w a0 b0 -> paired w a1 b1 -> sim w g1 g2 (eq) (dot_d a0 a1) (dot_d b0 b1).
Proof. intros; sim_prep; unfold dot_d; sim_go. Qed.
#[local] Hint Resolve sim_dot_d : simdb.
Lemma sim_dot_member_d a0 b0 a1 b1 : paired w a0 b0 -> paired w a1 b1 -> sim w g1 g2 (eq) (dot_member_d a0 a1) (dot_member_d b0 b1).
Proof. intros; sim_prep; unfold dot_member_d; sim_go. Qed.
#[local] Hint Resolve sim_dot_member_d : simdb.
Lemma sim_dot_member_ds a0 a1 b1 a2 b2 : paired w a1 b1 -> paired w a2 b2 -> sim w g1 g2 (eq) (dot_member_ds a0 a1 a2) (dot_member_ds a0 b1 b2).
Proof. intros; sim_prep; unfold dot_member_ds; sim_go. Qed.
#[local] Hint Resolve sim_dot_member_ds : simdb.
Lemma sim_norm2_d a0 b0 : paired w a0 b0 -> sim w g1 g2 (eq) (norm2_d a0) (norm2_d b0).
Proof. intros; sim_prep; unfold norm2_d; sim_go. Qed.
#[local] Hint Resolve sim_norm2_d : simdb.
Lemma sim_norm2_s a0 a1 b1 : paired w a1 b1 -> sim w g1 g2 (eq) (norm2_s a0 a1) (norm2_s a0 b1).
Proof. intros; sim_prep; unfold norm2_s; sim_go. Qed.
#[local] Hint Resolve sim_norm2_s : simdb.
Lemma sim_cross2 a0 a1 a2 a3 b3 a4 b4 : paired w a3 b3 -> paired w a4 b4 -> sim w g1 g2 (eq) (cross2 a0 a1 a2 a3 a4) (cross2 a0 a1 a2 b3 b4).
Proof. intros; sim_prep; unfold cross2; sim_go. Qed.
#[local] Hint Resolve sim_cross2 : simdb.
Lemma sim_cross3 a0 a1 a2 a3 a4 b4 a5 b5 a6 b6 : paired w a4 b4 -> paired w a5 b5 -> paired w a6 b6 -> sim w g1 g2 (paired w) (cross3 a0 a1 a2 a3 a4 a5 a6) (cross3 a0 a1 a2 a3 b4 b5 b6).
Proof. intros; sim_prep; unfold cross3; sim_go. Qed.
#[local] Hint Resolve sim_cross3 : simdb.
Lemma sim_cross3_new a0 a1 a2 a3 b3 a4 b4 : paired w a3 b3 -> paired w a4 b4 -> sim w g1 g2 (paired w) (cross3_new a0 a1 a2 a3 a4) (cross3_new a0 a1 a2 b3 b4).
Proof. intros; sim_prep; unfold cross3_new; sim_go. Qed.
#[local] Hint Resolve sim_cross3_new : simdb.
Lemma sim_cross3_acc a0 a1 a2 a3 a4 b4 a5 b5 a6 b6 : paired w a4 b4 -> paired w a5 b5 -> paired w a6 b6 -> sim w g1 g2 (paired w) (cross3_acc a0 a1 a2 a3 a4 a5 a6) (cross3_acc a0 a1 a2 a3 b4 b5 b6).
Proof. intros; sim_prep; unfold cross3_acc; sim_go. Qed.
#[local] Hint Resolve sim_cross3_acc : simdb.
Lemma sim_dynvec_uninit a0 : sim w g1 g2 (paired w) (dynvec_uninit a0) (dynvec_uninit a0).
Proof. intros; sim_prep; unfold dynvec_uninit; sim_go. Qed.
#[local] Hint Resolve sim_dynvec_uninit : simdb.
Lemma sim_dynvec_filled a0 a1 : sim w g1 g2 (paired w) (dynvec_filled a0 a1) (dynvec_filled a0 a1).
Proof. intros; sim_prep; unfold dynvec_filled; sim_go. Qed.
#[local] Hint Resolve sim_dynvec_filled : simdb.
Lemma sim_dynvec_of a0 : sim w g1 g2 (paired w) (dynvec_of a0) (dynvec_of a0).
Proof. intros; sim_prep; unfold dynvec_of; sim_go. Qed.
#[local] Hint Resolve sim_dynvec_of : simdb.
Lemma sim_vec_copy a0 b0 : paired w a0 b0 -> sim w g1 g2 (paired w) (vec_copy a0) (vec_copy b0).
Proof. intros; sim_prep; unfold vec_copy; sim_go. Qed.
#[local] Hint Resolve sim_vec_copy : simdb.
Lemma sim_vec_assign a0 b0 a1 b1 : args w a0 b0 -> paired w a1 b1 -> sim w g1 g2 (paired w) (vec_assign a0 a1) (vec_assign b0 b1).
Proof. intros H H1 h1 h2 Rl; unfold vec_assign; rewrite (re_same _ _ _ _ _ Rl _ _ H1); destruct (args_live _ _ H _ _ Rl); cbn; split; [now left|apply (related_upd w g1 g2 W); auto; now left]. Qed.
#[local] Hint Resolve sim_vec_assign : simdb.
Lemma sim_sizedvec_of a0 a1 : sim w g1 g2 (paired w) (sizedvec_of a0 a1) (sizedvec_of a0 a1).
Proof. intros; sim_prep; unfold sizedvec_of; sim_go. Qed.
#[local] Hint Resolve sim_sizedvec_of : simdb.
Lemma sim_sizedvec_uninit a0 : sim w g1 g2 (paired w) (sizedvec_uninit a0) (sizedvec_uninit a0).
Proof. intros; sim_prep; unfold sizedvec_uninit; sim_go. Qed.
#[local] Hint Resolve sim_sizedvec_uninit : simdb.
Lemma sim_sizedvec_filled a0 a1 : sim w g1 g2 (paired w) (sizedvec_filled a0 a1) (sizedvec_filled a0 a1).
Proof. intros; sim_prep; unfold sizedvec_filled; sim_go. Qed.
#[local] Hint Resolve sim_sizedvec_filled : simdb.
Lemma sim_vec_get a0 b0 a1 : paired w a0 b0 -> sim w g1 g2 (eq) (vec_get a0 a1) (vec_get b0 a1).
Proof. intros; sim_prep; unfold vec_get; sim_go. Qed.
#[local] Hint Resolve sim_vec_get : simdb.
Lemma sim_vec_put a0 b0 a1 a2 : paired w a0 b0 -> sim w g1 g2 (eq) (vec_put a0 a1 a2) (vec_put b0 a1 a2).
Proof. intros; sim_prep; unfold vec_put; sim_go. Qed.
#[local] Hint Resolve sim_vec_put : simdb.
Lemma sim_dynmat_of a0 a1 a2 : sim w g1 g2 (same_mat_shape w) (dynmat_of a0 a1 a2) (dynmat_of a0 a1 a2).
Proof. intros; sim_prep; unfold dynmat_of; sim_go. Qed.
#[local] Hint Resolve sim_dynmat_of : simdb.
Lemma sim_sizedmat_of a0 a1 a2 : sim w g1 g2 (same_mat_shape w) (sizedmat_of a0 a1 a2) (sizedmat_of a0 a1 a2).
Proof. intros; sim_prep; unfold sizedmat_of; sim_go. Qed.
#[local] Hint Resolve sim_sizedmat_of : simdb.
Lemma sim_mat_uninit a0 a1 : sim w g1 g2 (same_mat_shape w) (mat_uninit a0 a1) (mat_uninit a0 a1).
Proof. intros; sim_prep; unfold mat_uninit; sim_go. Qed.
#[local] Hint Resolve sim_mat_uninit : simdb.
Lemma sim_mat_get a0 b0 a1 a2 : same_mat_shape w a0 b0 -> sim w g1 g2 (eq) (mat_get a0 a1 a2) (mat_get b0 a1 a2).
Proof. intros; sim_prep; unfold mat_get; sim_go. Qed.
#[local] Hint Resolve sim_mat_get : simdb.
Lemma sim_mat_put a0 b0 a1 a2 a3 : same_mat_shape w a0 b0 -> sim w g1 g2 (eq) (mat_put a0 a1 a2 a3) (mat_put b0 a1 a2 a3).
Proof. intros; sim_prep; unfold mat_put; sim_go. Qed.
#[local] Hint Resolve sim_mat_put : simdb.
Lemma sim_mat_at a0 b0 a1 a2 : same_mat_shape w a0 b0 -> sim w g1 g2 (eq) (mat_at a0 a1 a2) (mat_at b0 a1 a2).
Proof. intros; sim_prep; unfold mat_at; sim_go. Qed.
#[local] Hint Resolve sim_mat_at : simdb.
Lemma sim_mat_mut_at a0 b0 a1 a2 a3 : same_mat_shape w a0 b0 -> sim w g1 g2 (eq) (mat_mut_at a0 a1 a2 a3) (mat_mut_at b0 a1 a2 a3).
Proof. intros; sim_prep; unfold mat_mut_at; sim_go. Qed.
#[local] Hint Resolve sim_mat_mut_at : simdb.
Lemma sim_mat_filled a0 a1 a2 : sim w g1 g2 (same_mat_shape w) (mat_filled a0 a1 a2) (mat_filled a0 a1 a2).
Proof. intros; sim_prep; unfold mat_filled; sim_go. Qed.
#[local] Hint Resolve sim_mat_filled : simdb.
Lemma sim_mat_diag_list a0 : sim w g1 g2 (same_mat_shape w) (mat_diag_list a0) (mat_diag_list a0).
Proof. intros; sim_prep; unfold mat_diag_list; sim_go. Qed.
#[local] Hint Resolve sim_mat_diag_list : simdb.
Lemma sim_mat_diag a0 a1 : sim w g1 g2 (same_mat_shape w) (mat_diag a0 a1) (mat_diag a0 a1).
Proof. intros; sim_prep; unfold mat_diag; sim_go. Qed.
#[local] Hint Resolve sim_mat_diag : simdb.
Lemma sim_mat_identity a0 : sim w g1 g2 (same_mat_shape w) (mat_identity a0) (mat_identity a0).
Proof. intros; sim_prep; unfold mat_identity; sim_go. Qed.
#[local] Hint Resolve sim_mat_identity : simdb.
Lemma sim_mat_copy a0 b0 : same_mat_shape w a0 b0 -> sim w g1 g2 (same_mat_shape w) (mat_copy a0) (mat_copy b0).
Proof. intros; sim_prep; unfold mat_copy; sim_go. Qed.
#[local] Hint Resolve sim_mat_copy : simdb.
Lemma sim_mat_assign a0 b0 a1 b1 : arg_mat w a0 b0 -> same_mat_shape w a1 b1 -> sim w g1 g2 (same_mat_shape w) (mat_assign a0 a1) (mat_assign b0 b1).
Proof. intros H H1; sim_prep; intros h1 h2 Rl; unfold mat_assign; mat_cbn; match goal with H : args w _ _ |- _ => destruct (args_live _ _ H _ _ Rl) end; rewrite (re_same _ _ _ _ _ Rl _ _ ltac:(eassumption)); cbn; split; [unfold same_mat_shape; mat_cbn; repeat split; auto; now left|apply (related_upd w g1 g2 W); auto; now left]. Qed.
#[local] Hint Resolve sim_mat_assign : simdb.
Lemma sim_mv_core a0 a1 a2 a3 b3 a4 b4 a5 a6 b6 : paired w a3 b3 -> paired w a4 b4 -> paired w a6 b6 -> sim w g1 g2 (paired w) (mv_core a0 a1 a2 a3 a4 a5 a6) (mv_core a0 a1 a2 b3 b4 a5 b6).
Proof. intros; sim_prep; unfold mv_core; sim_go. Qed.
#[local] Hint Resolve sim_mv_core : simdb.
Lemma sim_mulv a0 a1 a2 b2 a3 b3 a4 a5 b5 : same_mat_shape w a2 b2 -> paired w a3 b3 -> paired w a5 b5 -> sim w g1 g2 (paired w) (mulv a0 a1 a2 a3 a4 a5) (mulv a0 a1 b2 b3 a4 b5).
Proof. intros; sim_prep; unfold mulv; sim_go. Qed.
#[local] Hint Resolve sim_mulv : simdb.
Lemma sim_op_mulv a0 a1 b1 a2 b2 : same_mat_shape w a1 b1 -> paired w a2 b2 -> sim w g1 g2 (paired w) (op_mulv a0 a1 a2) (op_mulv a0 b1 b2).
Proof. intros; sim_prep; unfold op_mulv; sim_go. Qed.
#[local] Hint Resolve sim_op_mulv : simdb.
Lemma sim_mm_core a0 a1 a2 a3 a4 b4 a5 b5 a6 a7 b7 : paired w a4 b4 -> paired w a5 b5 -> paired w a7 b7 -> sim w g1 g2 (paired w) (mm_core a0 a1 a2 a3 a4 a5 a6 a7) (mm_core a0 a1 a2 a3 b4 b5 a6 b7).
Proof. intros; sim_prep; unfold mm_core; sim_go. Qed.
#[local] Hint Resolve sim_mm_core : simdb.
Lemma sim_mulm a0 a1 a2 b2 a3 b3 a4 a5 b5 : same_mat_shape w a2 b2 -> same_mat_shape w a3 b3 -> same_mat_shape w a5 b5 -> sim w g1 g2 (same_mat_shape w) (mulm a0 a1 a2 a3 a4 a5) (mulm a0 a1 b2 b3 a4 b5).
Proof. intros; sim_prep; unfold mulm; sim_go. Qed.
#[local] Hint Resolve sim_mulm : simdb.
Lemma sim_op_mulm a0 a1 b1 a2 b2 : same_mat_shape w a1 b1 -> same_mat_shape w a2 b2 -> sim w g1 g2 (same_mat_shape w) (op_mulm a0 a1 a2) (op_mulm a0 b1 b2).
Proof. intros; sim_prep; unfold op_mulm; sim_go. Qed.
#[local] Hint Resolve sim_op_mulm : simdb.
Lemma sim_addm a0 a1 b1 a2 b2 a3 b3 : same_mat_shape w a1 b1 -> same_mat_shape w a2 b2 -> same_mat_shape w a3 b3 -> sim w g1 g2 (same_mat_shape w) (addm a0 a1 a2 a3) (addm a0 b1 b2 b3).
Proof. intros; sim_prep; unfold addm; sim_go. Qed.
#[local] Hint Resolve sim_addm : simdb.
Lemma sim_op_addm a0 a1 b1 a2 b2 : same_mat_shape w a1 b1 -> same_mat_shape w a2 b2 -> sim w g1 g2 (same_mat_shape w) (op_addm a0 a1 a2) (op_addm a0 b1 b2).
Proof. intros; sim_prep; unfold op_addm; sim_go. Qed.
#[local] Hint Resolve sim_op_addm : simdb.
Lemma sim_subm a0 a1 b1 a2 b2 a3 b3 : same_mat_shape w a1 b1 -> same_mat_shape w a2 b2 -> same_mat_shape w a3 b3 -> sim w g1 g2 (same_mat_shape w) (subm a0 a1 a2 a3) (subm a0 b1 b2 b3).
Proof. intros; sim_prep; unfold subm; sim_go. Qed.
#[local] Hint Resolve sim_subm : simdb.
Lemma sim_op_subm a0 a1 b1 a2 b2 : same_mat_shape w a1 b1 -> same_mat_shape w a2 b2 -> sim w g1 g2 (same_mat_shape w) (op_subm a0 a1 a2) (op_subm a0 b1 b2).
Proof. intros; sim_prep; unfold op_subm; sim_go. Qed.
#[local] Hint Resolve sim_op_subm : simdb.
Lemma sim_scalem a0 a1 b1 : same_mat_shape w a1 b1 -> sim w g1 g2 (same_mat_shape w) (scalem a0 a1) (scalem a0 b1).
Proof. intros; sim_prep; unfold scalem; sim_go. Qed.
#[local] Hint Resolve sim_scalem : simdb.
Lemma sim_op_scalem a0 a1 b1 : same_mat_shape w a1 b1 -> sim w g1 g2 (same_mat_shape w) (op_scalem a0 a1) (op_scalem a0 b1).
Proof. intros; sim_prep; unfold op_scalem; sim_go. Qed.
#[local] Hint Resolve sim_op_scalem : simdb.
Lemma sim_op_negm a0 b0 : same_mat_shape w a0 b0 -> sim w g1 g2 (same_mat_shape w) (op_negm a0) (op_negm b0).
Proof. intros; sim_prep; unfold op_negm; sim_go. Qed.
#[local] Hint Resolve sim_op_negm : simdb.
Lemma sim_invert2 a0 b0 a1 b1 : same_mat_shape w a0 b0 -> same_mat_shape w a1 b1 -> sim w g1 g2 (same_mat_shape w) (invert2 a0 a1) (invert2 b0 b1).
Proof. intros; sim_prep; unfold invert2; sim_go. Qed.
#[local] Hint Resolve sim_invert2 : simdb.
Lemma sim_invert2_inplace a0 b0 : same_mat_shape w a0 b0 -> sim w g1 g2 (same_mat_shape w) (invert2_inplace a0) (invert2_inplace b0).
Proof. intros; sim_prep; unfold invert2_inplace; sim_go. Qed.
#[local] Hint Resolve sim_invert2_inplace : simdb.
Lemma sim_inverted2 a0 b0 : same_mat_shape w a0 b0 -> sim w g1 g2 (same_mat_shape w) (inverted2 a0) (inverted2 b0).
Proof. intros; sim_prep; unfold inverted2; sim_go. Qed.
#[local] Hint Resolve sim_inverted2 : simdb.
Lemma sim_back_sub a0 a1 b1 : paired w a1 b1 -> sim w g1 g2 (eq) (back_sub a0 a1) (back_sub a0 b1).
Proof. intros; sim_prep; unfold back_sub; sim_go. Qed.
#[local] Hint Resolve sim_back_sub : simdb.
Lemma inert_csr_shape (A : csr T) : inert (T := T) (csr_shape A).
Proof. unfold csr_shape, max_elem. inert_go. Qed.
Lemma sim_csr_shape (A : csr T) : sim w g1 g2 eq (csr_shape A) (csr_shape A).
Proof. apply sim_inert, inert_csr_shape. Qed.
#[local] Hint Resolve sim_csr_shape : simdb.
Lemma sim_sp_mul_core a0 a1 a2 a3 a4 a5 b5 a6 a7 b7 : paired w a5 b5 -> paired w a7 b7 -> sim w g1 g2 (paired w) (sp_mul_core a0 a1 a2 a3 a4 a5 a6 a7) (sp_mul_core a0 a1 a2 a3 a4 b5 a6 b7).
Proof. intros; sim_prep; unfold sp_mul_core; sim_go. Qed.
#[local] Hint Resolve sim_sp_mul_core : simdb.
Lemma sim_sp_mul a0 a1 a2 a3 b3 a4 a5 b5 : paired w a3 b3 -> paired w a5 b5 -> sim w g1 g2 (paired w) (sp_mul a0 a1 a2 a3 a4 a5) (sp_mul a0 a1 a2 b3 a4 b5).
Proof. intros; sim_prep; unfold sp_mul; sim_go. Qed.
#[local] Hint Resolve sim_sp_mul : simdb.
Lemma sim_sp_op_mul a0 a1 a2 b2 : paired w a2 b2 -> sim w g1 g2 (paired w) (sp_op_mul a0 a1 a2) (sp_op_mul a0 a1 b2).
Proof. intros; sim_prep; unfold sp_op_mul; sim_go. Qed.
#[local] Hint Resolve sim_sp_op_mul : simdb.
Lemma sim_tdma_col a0 a1 a2 a3 a4 a5 b5 a6 b6 a7 : paired w a5 b5 -> paired w a6 b6 -> sim w g1 g2 (eq) (tdma_col a0 a1 a2 a3 a4 a5 a6 a7) (tdma_col a0 a1 a2 a3 a4 b5 b6 a7).
Proof. intros; sim_prep; unfold tdma_col; sim_go. Qed.
#[local] Hint Resolve sim_tdma_col : simdb.
Lemma sim_tdma a0 a1 a2 a3 a4 a5 b5 a6 b6 : paired w a5 b5 -> paired w a6 b6 -> sim w g1 g2 (paired w) (tdma a0 a1 a2 a3 a4 a5 a6) (tdma a0 a1 a2 a3 a4 b5 b6).
Proof. intros; sim_prep; unfold tdma; sim_go. Qed.
#[local] Hint Resolve sim_tdma : simdb.
Lemma sim_tridiag_solve_vec a0 a1 a2 b2 a3 b3 : paired w a2 b2 -> paired w a3 b3 -> sim w g1 g2 (paired w) (tridiag_solve_vec a0 a1 a2 a3) (tridiag_solve_vec a0 a1 b2 b3).
Proof. intros; sim_prep; unfold tridiag_solve_vec; sim_go. Qed.
#[local] Hint Resolve sim_tridiag_solve_vec : simdb.
Lemma sim_tridiag_solve_mat a0 a1 a2 b2 a3 b3 : same_mat_shape w a2 b2 -> same_mat_shape w a3 b3 -> sim w g1 g2 (same_mat_shape w) (tridiag_solve_mat a0 a1 a2 a3) (tridiag_solve_mat a0 a1 b2 b3).
Proof. intros; sim_prep; unfold tridiag_solve_mat; sim_go. Qed.
#[local] Hint Resolve sim_tridiag_solve_mat : simdb.
Lemma sim_cholesky_decomposition a0 a1 a2 b2 : paired w a2 b2 -> sim w g1 g2 (eq) (cholesky_decomposition a0 a1 a2) (cholesky_decomposition a0 a1 b2).
Proof. intros; sim_prep; unfold cholesky_decomposition; sim_go. Qed.
#[local] Hint Resolve sim_cholesky_decomposition : simdb.
Lemma sim_cholesky_linear a0 a1 a2 a3 b3 a4 b4 a5 b5 : paired w a3 b3 -> paired w a4 b4 -> paired w a5 b5 -> sim w g1 g2 (paired w) (cholesky_linear a0 a1 a2 a3 a4 a5) (cholesky_linear a0 a1 a2 b3 b4 b5).
Proof. intros; sim_prep; unfold cholesky_linear; sim_go. Qed.
#[local] Hint Resolve sim_cholesky_linear : simdb.
Lemma sim_mod_cholesky_decomposition a0 a1 a2 b2 : paired w a2 b2 -> sim w g1 g2 (eq) (mod_cholesky_decomposition a0 a1 a2) (mod_cholesky_decomposition a0 a1 b2).
Proof. intros; sim_prep; unfold mod_cholesky_decomposition; sim_go. Qed.
#[local] Hint Resolve sim_mod_cholesky_decomposition : simdb.
Lemma sim_mod_cholesky_linear a0 a1 a2 a3 b3 a4 b4 a5 b5 : paired w a3 b3 -> paired w a4 b4 -> paired w a5 b5 -> sim w g1 g2 (eq) (mod_cholesky_linear a0 a1 a2 a3 a4 a5) (mod_cholesky_linear a0 a1 a2 b3 b4 b5).
Proof. intros; sim_prep; unfold mod_cholesky_linear; sim_go. Qed.
#[local] Hint Resolve sim_mod_cholesky_linear : simdb.
Lemma sim_tri_cholesky a0 : sim w g1 g2 (same_chol w) (tri_cholesky a0) (tri_cholesky a0).
Proof. intros; sim_prep; unfold tri_cholesky; sim_go. Qed.
#[local] Hint Resolve sim_tri_cholesky : simdb.
Lemma sim_dyn_cholesky a0 b0 : same_mat_shape w a0 b0 -> sim w g1 g2 (same_chol w) (dyn_cholesky a0) (dyn_cholesky b0).
Proof. intros; sim_prep; unfold dyn_cholesky; sim_go. Qed.
#[local] Hint Resolve sim_dyn_cholesky : simdb.
Lemma sim_mod_cholesky a0 b0 : same_mat_shape w a0 b0 -> sim w g1 g2 (same_chol w) (mod_cholesky a0) (mod_cholesky b0).
Proof. intros; sim_prep; unfold mod_cholesky; sim_go. Qed.
#[local] Hint Resolve sim_mod_cholesky : simdb.
Lemma sim_lower_mat a0 b0 : same_chol w a0 b0 -> sim w g1 g2 (eq) (lower_mat a0) (lower_mat b0).
Proof. intros; sim_prep; unfold lower_mat; sim_go. Qed.
#[local] Hint Resolve sim_lower_mat : simdb.
Lemma sim_chol_solve_mut_vec a0 a1 b1 a2 b2 : same_chol w a1 b1 -> paired w a2 b2 -> sim w g1 g2 (paired w) (chol_solve_mut_vec a0 a1 a2) (chol_solve_mut_vec a0 b1 b2).
Proof. intros; sim_prep; unfold chol_solve_mut_vec; sim_go. Qed.
#[local] Hint Resolve sim_chol_solve_mut_vec : simdb.
Lemma sim_chol_solve_vec a0 a1 b1 a2 b2 : same_chol w a1 b1 -> paired w a2 b2 -> sim w g1 g2 (paired w) (chol_solve_vec a0 a1 a2) (chol_solve_vec a0 b1 b2).
Proof. intros; sim_prep; unfold chol_solve_vec; sim_go. Qed.
#[local] Hint Resolve sim_chol_solve_vec : simdb.
Lemma sim_chol_solve_mut_mat a0 a1 b1 a2 b2 : same_chol w a1 b1 -> same_mat_shape w a2 b2 -> sim w g1 g2 (same_mat_shape w) (chol_solve_mut_mat a0 a1 a2) (chol_solve_mut_mat a0 b1 b2).
Proof. intros; sim_prep; unfold chol_solve_mut_mat; sim_go. Qed.
#[local] Hint Resolve sim_chol_solve_mut_mat : simdb.
Lemma sim_chol_solve_mat a0 a1 b1 a2 b2 : same_chol w a1 b1 -> same_mat_shape w a2 b2 -> sim w g1 g2 (same_mat_shape w) (chol_solve_mat a0 a1 a2) (chol_solve_mat a0 b1 b2).
Proof. intros; sim_prep; unfold chol_solve_mat; sim_go. Qed.
#[local] Hint Resolve sim_chol_solve_mat : simdb.
Lemma sim_mod_solve_mut_vec a0 a1 b1 a2 b2 : same_chol w a1 b1 -> paired w a2 b2 -> sim w g1 g2 (paired w) (mod_solve_mut_vec a0 a1 a2) (mod_solve_mut_vec a0 b1 b2).
Proof. intros; sim_prep; unfold mod_solve_mut_vec; sim_go. Qed.
#[local] Hint Resolve sim_mod_solve_mut_vec : simdb.
Lemma sim_mod_solve_vec a0 a1 b1 a2 b2 : same_chol w a1 b1 -> paired w a2 b2 -> sim w g1 g2 (paired w) (mod_solve_vec a0 a1 a2) (mod_solve_vec a0 b1 b2).
Proof. intros; sim_prep; unfold mod_solve_vec; sim_go. Qed.
#[local] Hint Resolve sim_mod_solve_vec : simdb.
Lemma sim_mod_solve_mut_mat a0 a1 b1 a2 b2 : same_chol w a1 b1 -> same_mat_shape w a2 b2 -> sim w g1 g2 (same_mat_shape w) (mod_solve_mut_mat a0 a1 a2) (mod_solve_mut_mat a0 b1 b2).
Proof. intros; sim_prep; unfold mod_solve_mut_mat; sim_go. Qed.
#[local] Hint Resolve sim_mod_solve_mut_mat : simdb.
Lemma sim_mod_solve_mat a0 a1 b1 a2 b2 : same_chol w a1 b1 -> same_mat_shape w a2 b2 -> sim w g1 g2 (same_mat_shape w) (mod_solve_mat a0 a1 a2) (mod_solve_mat a0 b1 b2).
Proof. intros; sim_prep; unfold mod_solve_mat; sim_go. Qed.
#[local] Hint Resolve sim_mod_solve_mat : simdb.
Lemma Forall2_length {A B} (P : A -> B -> Prop) l l' : Forall2 P l l' -> length l = length l'.
Proof. induction 1; cbn; congruence. Qed.
Lemma Forall2_app_one {A B} (P : A -> B -> Prop) l l' a b : Forall2 P l l' -> P a b -> Forall2 P (l ++ [a]) (l' ++ [b]).
Proof. intros H H'. apply Forall2_app; auto. Qed.
Lemma sim_cgs dbg vs vs' : Forall2 (paired w) vs vs' -> sim w g1 g2 eq (cgs dbg vs) (cgs dbg vs').
Proof.
  intros H. unfold cgs. assert (E : length vs = length vs') by (eapply Forall2_length; eauto). rewrite E. sim_go.
Qed.
Ltac g_cbn := cbn [gq ghess gh gs gc gr gbeta gdone].
Section SimIlu.
Variables (shape1 shape2 : M (heap T) (nat * nat)) (get1 get2 : nat -> nat -> M (heap T) T)
  (set1 set2 : nat -> nat -> T -> M (heap T) unit).
Hypothesis Hshape : sim w g1 g2 eq shape1 shape2.
Hypothesis Hget : forall i j, sim w g1 g2 eq (get1 i j) (get2 i j).
Hypothesis Hset : forall i j x, sim w g1 g2 eq (set1 i j x) (set2 i j x).
#[local] Hint Resolve Hshape Hget Hset : simdb.
Lemma sim_ilu_sum i j p s : sim w g1 g2 eq (ilu_sum get1 i j p s) (ilu_sum get2 i j p s).
Proof. unfold ilu_sum. sim_go. Qed.
#[local] Hint Resolve sim_ilu_sum : simdb.
Lemma sim_ilu_decomp : sim w g1 g2 eq (ilu_decomp shape1 get1 set1) (ilu_decomp shape2 get2 set2).
Proof. unfold ilu_decomp. sim_go. Qed.
#[local] Hint Resolve sim_ilu_decomp : simdb.
Lemma sim_ilu_new : sim w g1 g2 eq (ilu_new shape1 get1 set1) (ilu_new shape2 get2 set2).
Proof. unfold ilu_new. sim_go. Qed.
Lemma sim_ilu_solve p q : paired w p q -> sim w g1 g2 (paired w) (ilu_solve get1 p) (ilu_solve get2 q).
Proof. intros. unfold ilu_solve. sim_go. Qed.
End SimIlu.

Section SimGmres.
Variables (dbg : bool) (isqrt : nat -> nat).
Variables (nrow1 nrow2 : M (heap T) nat) (mulv1 mulv2 lu1 lu2 : ptr -> M (heap T) ptr).
Hypothesis Hrow : sim w g1 g2 eq nrow1 nrow2.
Hypothesis Hmul : forall p q, paired w p q -> sim w g1 g2 (paired w) (mulv1 p) (mulv2 q).
Hypothesis Hlu : forall p q, paired w p q -> sim w g1 g2 (paired w) (lu1 p) (lu2 q).
#[local] Hint Resolve Hrow Hmul Hlu : simdb.

Definition same_arn (a b : list ptr * hess T * T) : Prop :=
  Forall2 (paired w) (fst (fst a)) (fst (fst b)) /\ snd (fst a) = snd (fst b) /\ snd a = snd b.
Definition same_gstate (a b : gstate (T := T)) : Prop :=
  Forall2 (paired w) (gq a) (gq b) /\ ghess a = ghess b /\ gh a = gh b /\ gs a = gs b /\ gc a = gc b /\
  gr a = gr b /\ gbeta a = gbeta b /\ gdone a = gdone b.

Lemma same_arn_intro q q' qn qn' H h : Forall2 (paired w) q q' -> paired w qn qn' -> same_arn (q ++ [qn], H, h) (q' ++ [qn'], H, h).
Proof. intros. split; [apply Forall2_app_one|]; auto. Qed.
#[local] Hint Resolve same_arn_intro : reldb.
Lemma same_gstate_init q q' H h s c r b d : paired w q q' -> same_gstate (mkG [q] H h s c r b d) (mkG [q'] H h s c r b d).
Proof. intros. unfold same_gstate. cbn. auto 12. Qed.
#[local] Hint Resolve same_gstate_init : reldb.
Lemma sim_upd_local {C A} (c : C) (m : M C A) : sim w g1 g2 eq (upd_local c m) (upd_local c m).
Proof. unfold upd_local. apply sim_inert, inert_on_copy. Qed.
#[local] Hint Resolve sim_upd_local : simdb.
Lemma inert_hess_get H i j : inert (T := T) (hess_get (T := T) H i j).
Proof. unfold hess_get. inert_go. Qed.
Lemma sim_hess_get H i j : sim w g1 g2 eq (hess_get (T := T) H i j) (hess_get H i j).
Proof. apply sim_inert, inert_hess_get. Qed.
#[local] Hint Resolve sim_hess_get : simdb.
Lemma inert_utri_get r i j : inert (T := T) (utri_get (T := T) r i j).
Proof. unfold utri_get. inert_go. Qed.

Lemma sim_arnoldi q q' H h : Forall2 (paired w) q q' -> sim w g1 g2 same_arn (arnoldi dbg mulv1 lu1 q H h) (arnoldi dbg mulv2 lu2 q' H h).
Proof.
  intros Q. unfold arnoldi. assert (E : length q = length q') by (eapply Forall2_length; eauto). rewrite E. sim_go.
Qed.
Lemma sim_givens H h s c r beta : sim w g1 g2 eq (givens_rot dbg H h s c r beta) (givens_rot dbg H h s c r beta).
Proof. apply sim_inert. unfold givens_rot, hess_col, upd_local. inert_go; auto using inert_hess_get, inert_utri_get. Qed.
Lemma sim_gmres_step tol a b : same_gstate a b -> sim w g1 g2 same_gstate (gmres_step dbg mulv1 lu1 tol a) (gmres_step dbg mulv2 lu2 tol b).
Proof.
  destruct a, b. unfold same_gstate. g_cbn. intros (Q & ? & ? & ? & ? & ? & ? & ?). subst.
  unfold gmres_step. g_cbn.
  apply sim_if; [apply sim_ret; unfold same_gstate; g_cbn; auto 12|].
  eapply sim_bind; [apply sim_arnoldi; exact Q|]. intros [[q1 H1] h1] [[q2 H2] h2] (Q' & E1 & E2). cbn [fst snd] in *. subst.
  eapply sim_bind; [apply sim_givens|]. intros x y <-. destruct x as [[[s c] r] beta].
  eapply sim_bind; [apply sim_inert, inert_vec_at|]. intros x y <-. apply sim_ret; unfold same_gstate; g_cbn; auto 12.
Qed.
Lemma sim_gmres_init p q : paired w p q -> sim w g1 g2 same_gstate (gmres_init isqrt lu1 p) (gmres_init isqrt lu2 q).
Proof.
  intros P. unfold gmres_init. sim_go.
Qed.
Lemma sim_gmres_finish n a b : same_gstate a b -> sim w g1 g2 (paired w) (gmres_finish n a) (gmres_finish n b).
Proof.
  destruct a, b. unfold same_gstate. g_cbn. intros (Q & ? & ? & ? & ? & ? & ? & ?). subst.
  unfold gmres_finish. g_cbn. sim_go.
Qed.
Lemma sim_gmres_solve tol p q : paired w p q ->
  sim w g1 g2 (paired w) (gmres_solve dbg isqrt nrow1 mulv1 lu1 tol p) (gmres_solve dbg isqrt nrow2 mulv2 lu2 tol q).
Proof.
  intros P. unfold gmres_solve. eapply sim_bind; [apply Hrow|]. intros n ? <-.
  eapply sim_bind; [apply sim_gmres_init; exact P|]. intros a b AB.
  eapply sim_bind; [apply (sim_for_u32 w g1 g2 same_gstate); [exact AB|]|].
  - intros i a' b' AB'. now apply sim_gmres_step.
  - intros a' b' AB'. now apply sim_gmres_finish.
Qed.
End SimGmres.
Lemma inert_csr_get (A : csr T) i j : inert (T := T) (csr_get A i j).
Proof. unfold csr_get. inert_go. Qed.
Lemma sim_ilu_dyn a0 b0 : same_mat_shape w a0 b0 -> sim w g1 g2 (same_mat_shape w) (ilu_dyn a0) (ilu_dyn b0).
Proof. intros; sim_prep; unfold ilu_dyn; eapply sim_bind; [sim_go|intros; sim_prep; eapply sim_bind; [apply sim_ilu_new; intros; sim_go|intros; sim_go]]. Qed.
#[local] Hint Resolve sim_ilu_dyn : simdb.
Lemma sim_ilu_dyn_solve a0 b0 a1 b1 : same_mat_shape w a0 b0 -> paired w a1 b1 -> sim w g1 g2 (paired w) (ilu_dyn_solve a0 a1) (ilu_dyn_solve b0 b1).
Proof. intros; sim_prep; unfold ilu_dyn_solve; apply sim_ilu_solve; intros; sim_go. Qed.
#[local] Hint Resolve sim_ilu_dyn_solve : simdb.
Lemma sim_ilu_csr_solve a0 a1 b1 : paired w a1 b1 -> sim w g1 g2 (paired w) (ilu_csr_solve a0 a1) (ilu_csr_solve a0 b1).
Proof. intros; sim_prep; unfold ilu_csr_solve; apply sim_ilu_solve; [intros; apply sim_inert, inert_csr_get|assumption]. Qed.
#[local] Hint Resolve sim_ilu_csr_solve : simdb.
Lemma sim_gmres_dyn_new a0 b0 : same_mat_shape w a0 b0 -> sim w g1 g2 (same_pair w) (gmres_dyn_new a0) (gmres_dyn_new b0).
Proof. intros; sim_prep; unfold gmres_dyn_new; sim_go. Qed.
#[local] Hint Resolve sim_gmres_dyn_new : simdb.
Lemma sim_gmres_dyn_solve a0 a1 a2 b2 a3 a4 b4 : same_pair w a2 b2 -> paired w a4 b4 -> sim w g1 g2 (paired w) (gmres_dyn_solve a0 a1 a2 a3 a4) (gmres_dyn_solve a0 a1 b2 a3 b4).
Proof. intros; sim_prep; unfold gmres_dyn_solve; apply sim_gmres_solve; intros; sim_go. Qed.
#[local] Hint Resolve sim_gmres_dyn_solve : simdb.
Lemma sim_gmres_csr_solve a0 a1 a2 a3 a4 b4 : paired w a4 b4 -> sim w g1 g2 (paired w) (gmres_csr_solve a0 a1 a2 a3 a4) (gmres_csr_solve a0 a1 a2 a3 b4).
Proof. intros; sim_prep; unfold gmres_csr_solve; apply sim_gmres_solve; intros; sim_go. Qed.
#[local] Hint Resolve sim_gmres_csr_solve : simdb.
End SimOps.
