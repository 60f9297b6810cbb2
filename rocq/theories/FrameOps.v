(** * Every modelled function writes only to its destination (proofs) *)
From Verif Require Import Base Scalar BaseLemmas ModelVec ModelMat ModelPacked ModelSparse ModelSolvers ModelIter SpecFrame Frame.
Local Open Scope nat_scope.

Create HintDb frdb.
Ltac fr_fields := cbn [mp mr mc chp chn chmt fst snd factor_mat] in *.
Ltac fr_tidy := cbv beta in *; fr_fields; repeat match goal with H : _ /\ _ |- _ => destruct H end; subst; fr_fields;
  first [ exact I | reflexivity | assumption | lia | solve [auto] | right; lia | solve [right; auto] | solve [left; cbn; auto] | solve [split; auto] ].

Section FrameOps.
Context {T : Type} {Op : Ops T}.
Variables (n0 : nat) (l : list ptr).
Notation fr := (fr (T := T)).

Ltac fr_leaf := first [ apply fr_load | apply fr_vsize | apply fr_contents | apply fr_assert | apply fr_alloc
  | apply fr_vec_at | apply fr_vec_set | apply fr_run_local | apply fr_on_copy
  | apply fr_store; fr_tidy | apply fr_copy_n; fr_tidy ].
Ltac fr_any := cbv beta zeta; match goal with
  | |- fr _ _ ?Q (bind _ _) => eapply fr_bind; [fr_any | intros ? ?; fr_any]
  | |- fr _ _ ?Q (noexcept _) => apply fr_noexcept; fr_any
  | |- fr ?n ?k ?Q (ret ?a) => apply (fr_ret n k (fun x => x = a)); reflexivity
  | |- _ => first [ fr_leaf
    | solve [eauto 3 with frdb]
    | match goal with |- fr ?n ?k _ ?m => refine (_ : fr n k (fun _ => True) m); fr_go end ]
  end
with fr_go := cbv beta zeta; match goal with
  | |- fr _ _ _ (bind _ _) => eapply fr_bind; [fr_any | intros ? ?; fr_go]
  | |- fr _ _ _ (ret _) => apply fr_ret; fr_tidy
  | |- fr _ _ _ (throw _) => apply fr_throw
  | |- fr _ _ _ ub => apply fr_ub
  | |- fr _ _ _ diverge => apply fr_diverge
  | |- fr _ _ _ (noexcept _) => apply fr_noexcept; fr_go
  | |- fr _ _ _ (if _ then _ else _) => apply fr_if; fr_go
  | |- fr _ _ _ (match ?x with _ => _ end) => destruct x; fr_go
  | |- fr _ _ _ (loop _ _ _) => eapply fr_mono; [apply (fr_loop n0 l (fun _ => True)); [exact I|intros ? ? _; fr_go]|intros; fr_tidy]
  | |- fr _ _ _ (for_u32 _ _ _ _) => eapply fr_mono; [apply (fr_for_u32 n0 l (fun _ => True)); [exact I|intros ? ? _; fr_go]|intros; fr_tidy]
  | |- fr _ _ _ (for_sz _ _ _ _) => eapply fr_mono; [apply (fr_for_sz n0 l (fun _ => True)); [exact I|intros ? ? _; fr_go]|intros; fr_tidy]
  | |- fr _ _ _ (down_i32 _ _ _) => eapply fr_mono; [apply (fr_down_i32 n0 l (fun _ => True)); [exact I|intros ? ? _; fr_go]|intros; fr_tidy]
  | |- fr _ _ _ (down_sz _ _ _) => eapply fr_mono; [apply (fr_down_sz n0 l (fun _ => True)); [exact I|intros ? ? _; fr_go]|intros; fr_tidy]
  | |- _ => first [ eapply fr_mono; [solve [fr_leaf] | intros; fr_tidy] | eapply fr_mono; [solve [eauto 3 with frdb] | intros; fr_tidy] ]
  end.
#[local] Hint Extern 1 (wr _ _ _) => fr_tidy : frdb.
Lemma fr_neg_core_simd a0 a1 a2 : wr n0 l a1 -> fr n0 l (fun r => r = a1) (neg_core_simd a0 a1 a2).
Proof. intros; unfold neg_core_simd; fr_go. Qed.
#[local] Hint Resolve fr_neg_core_simd : frdb.
Lemma fr_add_core_simd a0 a1 a2 a3 : wr n0 l a2 -> fr n0 l (fun r => r = a2) (add_core_simd a0 a1 a2 a3).
Proof. intros; unfold add_core_simd; fr_go. Qed.
#[local] Hint Resolve fr_add_core_simd : frdb.
Lemma fr_add_core_parallel a0 a1 a2 a3 : wr n0 l a2 -> fr n0 l (fun r => r = a2) (add_core_parallel a0 a1 a2 a3).
Proof. intros; unfold add_core_parallel; fr_go. Qed.
#[local] Hint Resolve fr_add_core_parallel : frdb.
Lemma fr_add_core a0 a1 a2 a3 : wr n0 l a2 -> fr n0 l (fun r => r = a2) (add_core a0 a1 a2 a3).
Proof. intros; unfold add_core; fr_go. Qed.
#[local] Hint Resolve fr_add_core : frdb.
Lemma fr_sub_core_simd a0 a1 a2 a3 : wr n0 l a2 -> fr n0 l (fun r => r = a2) (sub_core_simd a0 a1 a2 a3).
Proof. intros; unfold sub_core_simd; fr_go. Qed.
#[local] Hint Resolve fr_sub_core_simd : frdb.
Lemma fr_sub_core_parallel a0 a1 a2 a3 : wr n0 l a2 -> fr n0 l (fun r => r = a2) (sub_core_parallel a0 a1 a2 a3).
Proof. intros; unfold sub_core_parallel; fr_go. Qed.
#[local] Hint Resolve fr_sub_core_parallel : frdb.
Lemma fr_sub_core a0 a1 a2 a3 : wr n0 l a2 -> fr n0 l (fun r => r = a2) (sub_core a0 a1 a2 a3).
Proof. intros; unfold sub_core; fr_go. Qed.
#[local] Hint Resolve fr_sub_core : frdb.
Lemma fr_axpy_core a0 a1 a2 a3 : wr n0 l a2 -> fr n0 l (fun r => r = a2) (axpy_core a0 a1 a2 a3).
Proof. intros; unfold axpy_core; fr_go. Qed.
#[local] Hint Resolve fr_axpy_core : frdb.
Lemma fr_dot_core a0 a1 a2 : fr n0 l (fun _ => True) (dot_core a0 a1 a2).
Proof. intros; unfold dot_core; fr_go. Qed.
#[local] Hint Resolve fr_dot_core : frdb.
Lemma fr_cross2_core a0 a1 : fr n0 l (fun _ => True) (cross2_core a0 a1).
Proof. intros; unfold cross2_core; fr_go. Qed.
#[local] Hint Resolve fr_cross2_core : frdb.
Lemma fr_cross3_core a0 a1 a2 : wr n0 l a2 -> fr n0 l (fun r => r = a2) (cross3_core a0 a1 a2).
Proof. intros; unfold cross3_core; fr_go. Qed.
#[local] Hint Resolve fr_cross3_core : frdb.
Lemma fr_cross3_acc_core a0 a1 a2 : wr n0 l a2 -> fr n0 l (fun r => r = a2) (cross3_acc_core a0 a1 a2).
Proof. intros; unfold cross3_acc_core; fr_go. Qed.
#[local] Hint Resolve fr_cross3_acc_core : frdb.
Lemma fr_scal_core a0 a1 a2 : wr n0 l a1 -> fr n0 l (fun r => r = a1) (scal_core a0 a1 a2).
Proof. intros; unfold scal_core; fr_go. Qed.
#[local] Hint Resolve fr_scal_core : frdb.
Lemma fr_norm2_core a0 a1 : fr n0 l (fun _ => True) (norm2_core a0 a1).
Proof. intros; unfold norm2_core; fr_go. Qed.
#[local] Hint Resolve fr_norm2_core : frdb.
Lemma fr_check_size a0 a1 : fr n0 l (fun _ => True) (check_size a0 a1).
Proof. intros; unfold check_size; fr_go. Qed.
#[local] Hint Resolve fr_check_size : frdb.
Lemma fr_neg_s a0 a1 a2 : wr n0 l a2 -> fr n0 l (fun r => r = a2) (neg_s a0 a1 a2).
Proof. intros; unfold neg_s; fr_go. Qed.
#[local] Hint Resolve fr_neg_s : frdb.
Lemma fr_neg_d a0 a1 : wr n0 l a1 -> fr n0 l (fun r => r = a1) (neg_d a0 a1).
Proof. intros; unfold neg_d; fr_go. Qed.
#[local] Hint Resolve fr_neg_d : frdb.
Lemma fr_op_neg_s a0 a1 : fr n0 l (fun p => n0 <= p) (op_neg_s a0 a1).
Proof. intros; unfold op_neg_s; fr_go. Qed.
#[local] Hint Resolve fr_op_neg_s : frdb.
Lemma fr_op_neg_d a0 : fr n0 l (fun p => n0 <= p) (op_neg_d a0).
Proof. intros; unfold op_neg_d; fr_go. Qed.
#[local] Hint Resolve fr_op_neg_d : frdb.
Lemma fr_add_s a0 a1 a2 a3 : wr n0 l a3 -> fr n0 l (fun r => r = a3) (add_s a0 a1 a2 a3).
Proof. intros; unfold add_s; fr_go. Qed.
#[local] Hint Resolve fr_add_s : frdb.
Lemma fr_add_sd a0 a1 a2 a3 : wr n0 l a3 -> fr n0 l (fun r => r = a3) (add_sd a0 a1 a2 a3).
Proof. intros; unfold add_sd; fr_go. Qed.
#[local] Hint Resolve fr_add_sd : frdb.
Lemma fr_add_ds a0 a1 a2 a3 : wr n0 l a3 -> fr n0 l (fun r => r = a3) (add_ds a0 a1 a2 a3).
Proof. intros; unfold add_ds; fr_go. Qed.
#[local] Hint Resolve fr_add_ds : frdb.
Lemma fr_add_d a0 a1 a2 : wr n0 l a2 -> fr n0 l (fun r => r = a2) (add_d a0 a1 a2).
Proof. intros; unfold add_d; fr_go. Qed.
#[local] Hint Resolve fr_add_d : frdb.
Lemma fr_op_add_s a0 a1 a2 : fr n0 l (fun p => n0 <= p) (op_add_s a0 a1 a2).
Proof. intros; unfold op_add_s; fr_go. Qed.
#[local] Hint Resolve fr_op_add_s : frdb.
Lemma fr_op_add_d a0 a1 : fr n0 l (fun p => n0 <= p) (op_add_d a0 a1).
Proof. intros; unfold op_add_d; fr_go. Qed.
#[local] Hint Resolve fr_op_add_d : frdb.
Lemma fr_sub_s a0 a1 a2 a3 : wr n0 l a3 -> fr n0 l (fun r => r = a3) (sub_s a0 a1 a2 a3).
Proof. intros; unfold sub_s; fr_go. Qed.
#[local] Hint Resolve fr_sub_s : frdb.
Lemma fr_sub_ds a0 a1 a2 a3 : wr n0 l a3 -> fr n0 l (fun r => r = a3) (sub_ds a0 a1 a2 a3).
Proof. intros; unfold sub_ds; fr_go. Qed.
#[local] Hint Resolve fr_sub_ds : frdb.
Lemma fr_sub_d a0 a1 a2 : wr n0 l a2 -> fr n0 l (fun r => r = a2) (sub_d a0 a1 a2).
Proof. intros; unfold sub_d; fr_go. Qed.
#[local] Hint Resolve fr_sub_d : frdb.
Lemma fr_op_sub_s a0 a1 a2 : fr n0 l (fun p => n0 <= p) (op_sub_s a0 a1 a2).
Proof. intros; unfold op_sub_s; fr_go. Qed.
#[local] Hint Resolve fr_op_sub_s : frdb.
Lemma fr_op_sub_d a0 a1 : fr n0 l (fun p => n0 <= p) (op_sub_d a0 a1).
Proof. intros; unfold op_sub_d; fr_go. Qed.
#[local] Hint Resolve fr_op_sub_d : frdb.
Lemma fr_axpy_s a0 a1 a2 a3 : wr n0 l a3 -> fr n0 l (fun r => r = a3) (axpy_s a0 a1 a2 a3).
Proof. intros; unfold axpy_s; fr_go. Qed.
#[local] Hint Resolve fr_axpy_s : frdb.
Lemma fr_axpy_d a0 a1 a2 : wr n0 l a2 -> fr n0 l (fun r => r = a2) (axpy_d a0 a1 a2).
Proof. intros; unfold axpy_d; fr_go. Qed.
#[local] Hint Resolve fr_axpy_d : frdb.
Lemma fr_scale_s a0 a1 a2 : wr n0 l a2 -> fr n0 l (fun r => r = a2) (scale_s a0 a1 a2).
Proof. intros; unfold scale_s; fr_go. Qed.
#[local] Hint Resolve fr_scale_s : frdb.
Lemma fr_scale_d a0 a1 : wr n0 l a1 -> fr n0 l (fun r => r = a1) (scale_d a0 a1).
Proof. intros; unfold scale_d; fr_go. Qed.
#[local] Hint Resolve fr_scale_d : frdb.
Lemma fr_op_scale_s a0 a1 a2 : fr n0 l (fun p => n0 <= p) (op_scale_s a0 a1 a2).
Proof. intros; unfold op_scale_s; fr_go. Qed.
#[local] Hint Resolve fr_op_scale_s : frdb.
Lemma fr_op_scale_d a0 a1 : fr n0 l (fun p => n0 <= p) (op_scale_d a0 a1).
Proof. intros; unfold op_scale_d; fr_go. Qed.
#[local] Hint Resolve fr_op_scale_d : frdb.
Lemma fr_scaled_s a0 a1 a2 : fr n0 l (fun p => n0 <= p) (scaled_s a0 a1 a2).
Proof. intros; unfold scaled_s; fr_go. Qed.
#[local] Hint Resolve fr_scaled_s : frdb.
Lemma fr_scaled_d a0 a1 : fr n0 l (fun p => n0 <= p) (scaled_d a0 a1).
Proof. intros; unfold scaled_d; fr_go. Qed.
#[local] Hint Resolve fr_scaled_d : frdb.
Lemma fr_op_div_s a0 a1 a2 : fr n0 l (fun p => n0 <= p) (op_div_s a0 a1 a2).
Proof. intros; unfold op_div_s; fr_go. Qed.
#[local] Hint Resolve fr_op_div_s : frdb.
Lemma fr_op_div_d a0 a1 : fr n0 l (fun p => n0 <= p) (op_div_d a0 a1).
Proof. intros; unfold op_div_d; fr_go. Qed.
#[local] Hint Resolve fr_op_div_d : frdb.
Lemma fr_dot_s a0 a1 a2 : fr n0 l (fun _ => True) (dot_s a0 a1 a2).
Proof. intros; unfold dot_s; fr_go. Qed.
#[local] Hint Resolve fr_dot_s : frdb.
Lemma fr_dot_sd a0 a1 a2 : fr n0 l (fun _ => True) (dot_sd a0 a1 a2).
Proof. intros; unfold dot_sd; fr_go. Qed.
#[local] Hint Resolve fr_dot_sd : frdb.
Lemma fr_dot_d a0 a1 : fr n0 l (fun _ => True) (dot_d a0 a1).
Proof. intros; unfold dot_d; fr_go. Qed.
#[local] Hint Resolve fr_dot_d : frdb.
Lemma fr_dot_member_d a0 a1 : fr n0 l (fun _ => True) (dot_member_d a0 a1).
Proof. intros; unfold dot_member_d; fr_go. Qed.
#[local] Hint Resolve fr_dot_member_d : frdb.
Lemma fr_dot_member_ds a0 a1 a2 : fr n0 l (fun _ => True) (dot_member_ds a0 a1 a2).
Proof. intros; unfold dot_member_ds; fr_go. Qed.
#[local] Hint Resolve fr_dot_member_ds : frdb.
Lemma fr_norm2_d a0 : fr n0 l (fun _ => True) (norm2_d a0).
Proof. intros; unfold norm2_d; fr_go. Qed.
#[local] Hint Resolve fr_norm2_d : frdb.
Lemma fr_norm2_s a0 a1 : fr n0 l (fun _ => True) (norm2_s a0 a1).
Proof. intros; unfold norm2_s; fr_go. Qed.
#[local] Hint Resolve fr_norm2_s : frdb.
Lemma fr_cross2 a0 a1 a2 a3 a4 : fr n0 l (fun _ => True) (cross2 a0 a1 a2 a3 a4).
Proof. intros; unfold cross2; fr_go. Qed.
#[local] Hint Resolve fr_cross2 : frdb.
Lemma fr_cross3 a0 a1 a2 a3 a4 a5 a6 : wr n0 l a6 -> fr n0 l (fun r => r = a6) (cross3 a0 a1 a2 a3 a4 a5 a6).
Proof. intros; unfold cross3; fr_go. Qed.
#[local] Hint Resolve fr_cross3 : frdb.
Lemma fr_cross3_new a0 a1 a2 a3 a4 : fr n0 l (fun p => n0 <= p) (cross3_new a0 a1 a2 a3 a4).
Proof. intros; unfold cross3_new; fr_go. Qed.
#[local] Hint Resolve fr_cross3_new : frdb.
Lemma fr_cross3_acc a0 a1 a2 a3 a4 a5 a6 : wr n0 l a6 -> fr n0 l (fun r => r = a6) (cross3_acc a0 a1 a2 a3 a4 a5 a6).
Proof. intros; unfold cross3_acc; fr_go. Qed.
#[local] Hint Resolve fr_cross3_acc : frdb.
Lemma fr_dynvec_uninit a0 : fr n0 l (fun p => n0 <= p) (dynvec_uninit a0).
Proof. intros; unfold dynvec_uninit; fr_go. Qed.
#[local] Hint Resolve fr_dynvec_uninit : frdb.
Lemma fr_dynvec_filled a0 a1 : fr n0 l (fun p => n0 <= p) (dynvec_filled a0 a1).
Proof. intros; unfold dynvec_filled; fr_go. Qed.
#[local] Hint Resolve fr_dynvec_filled : frdb.
Lemma fr_dynvec_of a0 : fr n0 l (fun p => n0 <= p) (dynvec_of a0).
Proof. intros; unfold dynvec_of; fr_go. Qed.
#[local] Hint Resolve fr_dynvec_of : frdb.
Lemma fr_vec_copy a0 : fr n0 l (fun p => n0 <= p) (vec_copy a0).
Proof. intros; unfold vec_copy; fr_go. Qed.
#[local] Hint Resolve fr_vec_copy : frdb.
Lemma fr_sizedvec_of a0 a1 : fr n0 l (fun p => n0 <= p) (sizedvec_of a0 a1).
Proof. intros; unfold sizedvec_of; fr_go. Qed.
#[local] Hint Resolve fr_sizedvec_of : frdb.
Lemma fr_sizedvec_uninit a0 : fr n0 l (fun p => n0 <= p) (sizedvec_uninit a0).
Proof. intros; unfold sizedvec_uninit; fr_go. Qed.
#[local] Hint Resolve fr_sizedvec_uninit : frdb.
Lemma fr_sizedvec_filled a0 a1 : fr n0 l (fun p => n0 <= p) (sizedvec_filled a0 a1).
Proof. intros; unfold sizedvec_filled; fr_go. Qed.
#[local] Hint Resolve fr_sizedvec_filled : frdb.
Lemma fr_vec_get a0 a1 : fr n0 l (fun _ => True) (vec_get a0 a1).
Proof. intros; unfold vec_get; fr_go. Qed.
#[local] Hint Resolve fr_vec_get : frdb.
Lemma fr_vec_put a0 a1 a2 : wr n0 l a0 -> fr n0 l (fun _ => True) (vec_put a0 a1 a2).
Proof. intros; unfold vec_put; fr_go. Qed.
#[local] Hint Resolve fr_vec_put : frdb.
Lemma fr_dynmat_of a0 a1 a2 : fr n0 l (fun A => n0 <= mp A) (dynmat_of a0 a1 a2).
Proof. intros; unfold dynmat_of; fr_go. Qed.
#[local] Hint Resolve fr_dynmat_of : frdb.
Lemma fr_sizedmat_of a0 a1 a2 : fr n0 l (fun A => n0 <= mp A) (sizedmat_of a0 a1 a2).
Proof. intros; unfold sizedmat_of; fr_go. Qed.
#[local] Hint Resolve fr_sizedmat_of : frdb.
Lemma fr_mat_uninit a0 a1 : fr n0 l (fun A => n0 <= mp A) (mat_uninit a0 a1).
Proof. intros; unfold mat_uninit; fr_go. Qed.
#[local] Hint Resolve fr_mat_uninit : frdb.
Lemma fr_mat_get a0 a1 a2 : fr n0 l (fun _ => True) (mat_get a0 a1 a2).
Proof. intros; unfold mat_get; fr_go. Qed.
#[local] Hint Resolve fr_mat_get : frdb.
Lemma fr_mat_put a0 a1 a2 a3 : wr n0 l (mp a0) -> fr n0 l (fun _ => True) (mat_put a0 a1 a2 a3).
Proof. intros; unfold mat_put; fr_go. Qed.
#[local] Hint Resolve fr_mat_put : frdb.
Lemma fr_mat_at a0 a1 a2 : fr n0 l (fun _ => True) (mat_at a0 a1 a2).
Proof. intros; unfold mat_at; fr_go. Qed.
#[local] Hint Resolve fr_mat_at : frdb.
Lemma fr_mat_mut_at a0 a1 a2 a3 : wr n0 l (mp a0) -> fr n0 l (fun _ => True) (mat_mut_at a0 a1 a2 a3).
Proof. intros; unfold mat_mut_at; fr_go. Qed.
#[local] Hint Resolve fr_mat_mut_at : frdb.
Lemma fr_mat_filled a0 a1 a2 : fr n0 l (fun A => n0 <= mp A) (mat_filled a0 a1 a2).
Proof. intros; unfold mat_filled; fr_go. Qed.
#[local] Hint Resolve fr_mat_filled : frdb.
Lemma fr_mat_diag_list a0 : fr n0 l (fun A => n0 <= mp A) (mat_diag_list a0).
Proof. intros; unfold mat_diag_list; fr_go. Qed.
#[local] Hint Resolve fr_mat_diag_list : frdb.
Lemma fr_mat_diag a0 a1 : fr n0 l (fun A => n0 <= mp A) (mat_diag a0 a1).
Proof. intros; unfold mat_diag; fr_go. Qed.
#[local] Hint Resolve fr_mat_diag : frdb.
Lemma fr_mat_identity a0 : fr n0 l (fun A => n0 <= mp A) (mat_identity a0).
Proof. intros; unfold mat_identity; fr_go. Qed.
#[local] Hint Resolve fr_mat_identity : frdb.
Lemma fr_mat_copy a0 : fr n0 l (fun A => n0 <= mp A) (mat_copy a0).
Proof. intros; unfold mat_copy; fr_go. Qed.
#[local] Hint Resolve fr_mat_copy : frdb.
Lemma fr_mv_core a0 a1 a2 a3 a4 a5 a6 : wr n0 l a6 -> fr n0 l (fun r => r = a6) (mv_core a0 a1 a2 a3 a4 a5 a6).
Proof. intros; unfold mv_core; fr_go. Qed.
#[local] Hint Resolve fr_mv_core : frdb.
Lemma fr_mulv a0 a1 a2 a3 a4 a5 : wr n0 l a5 -> fr n0 l (fun r => r = a5) (mulv a0 a1 a2 a3 a4 a5).
Proof. intros; unfold mulv; fr_go. Qed.
#[local] Hint Resolve fr_mulv : frdb.
Lemma fr_op_mulv a0 a1 a2 : fr n0 l (fun p => n0 <= p) (op_mulv a0 a1 a2).
Proof. intros; unfold op_mulv; fr_go. Qed.
#[local] Hint Resolve fr_op_mulv : frdb.
Lemma fr_mm_core a0 a1 a2 a3 a4 a5 a6 a7 : wr n0 l a7 -> fr n0 l (fun r => r = a7) (mm_core a0 a1 a2 a3 a4 a5 a6 a7).
Proof. intros; unfold mm_core; fr_go. Qed.
#[local] Hint Resolve fr_mm_core : frdb.
Lemma fr_mulm a0 a1 a2 a3 a4 a5 : wr n0 l (mp a5) -> fr n0 l (fun r => r = a5) (mulm a0 a1 a2 a3 a4 a5).
Proof. intros; unfold mulm; fr_go. Qed.
#[local] Hint Resolve fr_mulm : frdb.
Lemma fr_op_mulm a0 a1 a2 : fr n0 l (fun A => n0 <= mp A) (op_mulm a0 a1 a2).
Proof. intros; unfold op_mulm; fr_go. Qed.
#[local] Hint Resolve fr_op_mulm : frdb.
Lemma fr_addm a0 a1 a2 a3 : wr n0 l (mp a3) -> fr n0 l (fun r => r = a3) (addm a0 a1 a2 a3).
Proof. intros; unfold addm; fr_go. Qed.
#[local] Hint Resolve fr_addm : frdb.
Lemma fr_op_addm a0 a1 a2 : fr n0 l (fun A => n0 <= mp A) (op_addm a0 a1 a2).
Proof. intros; unfold op_addm; fr_go. Qed.
#[local] Hint Resolve fr_op_addm : frdb.
Lemma fr_subm a0 a1 a2 a3 : wr n0 l (mp a3) -> fr n0 l (fun r => r = a3) (subm a0 a1 a2 a3).
Proof. intros; unfold subm; fr_go. Qed.
#[local] Hint Resolve fr_subm : frdb.
Lemma fr_op_subm a0 a1 a2 : fr n0 l (fun A => n0 <= mp A) (op_subm a0 a1 a2).
Proof. intros; unfold op_subm; fr_go. Qed.
#[local] Hint Resolve fr_op_subm : frdb.
Lemma fr_scalem a0 a1 : wr n0 l (mp a1) -> fr n0 l (fun r => r = a1) (scalem a0 a1).
Proof. intros; unfold scalem; fr_go. Qed.
#[local] Hint Resolve fr_scalem : frdb.
Lemma fr_op_scalem a0 a1 : fr n0 l (fun A => n0 <= mp A) (op_scalem a0 a1).
Proof. intros; unfold op_scalem; fr_go. Qed.
#[local] Hint Resolve fr_op_scalem : frdb.
Lemma fr_op_negm a0 : fr n0 l (fun A => n0 <= mp A) (op_negm a0).
Proof. intros; unfold op_negm; fr_go. Qed.
#[local] Hint Resolve fr_op_negm : frdb.
Lemma fr_invert2 a0 a1 : wr n0 l (mp a1) -> fr n0 l (fun A => n0 <= mp A) (invert2 a0 a1).
Proof. intros; unfold invert2; fr_go. Qed.
#[local] Hint Resolve fr_invert2 : frdb.
Lemma fr_invert2_inplace a0 : wr n0 l (mp a0) -> fr n0 l (fun r => r = a0) (invert2_inplace a0).
Proof. intros; unfold invert2_inplace; fr_go. Qed.
#[local] Hint Resolve fr_invert2_inplace : frdb.
Lemma fr_inverted2 a0 : fr n0 l (fun A => n0 <= mp A) (inverted2 a0).
Proof. intros; unfold inverted2; fr_go. Qed.
#[local] Hint Resolve fr_inverted2 : frdb.
Lemma fr_csr_shape (A : csr T) : fr n0 l (fun _ => True) (csr_shape A).
Proof. unfold csr_shape, max_elem. fr_go. Qed.
#[local] Hint Resolve fr_csr_shape : frdb.
Lemma fr_csr_get (A : csr T) i j : fr n0 l (fun _ => True) (csr_get A i j).
Proof. unfold csr_get, csr_find. fr_go. Qed.
#[local] Hint Resolve fr_csr_get : frdb.
Lemma fr_utri_get H i j : fr n0 l (fun _ => True) (utri_get (T := T) H i j).
Proof. unfold utri_get. fr_go. Qed.
#[local] Hint Resolve fr_utri_get : frdb.
Lemma fr_back_sub a0 a1 : wr n0 l a1 -> fr n0 l (fun _ => True) (back_sub a0 a1).
Proof. intros; unfold back_sub; fr_go. Qed.
#[local] Hint Resolve fr_back_sub : frdb.
Lemma fr_sp_mul_core a0 a1 a2 a3 a4 a5 a6 a7 : wr n0 l a7 -> fr n0 l (fun r => r = a7) (sp_mul_core a0 a1 a2 a3 a4 a5 a6 a7).
Proof. intros; unfold sp_mul_core; fr_go. Qed.
#[local] Hint Resolve fr_sp_mul_core : frdb.
Lemma fr_sp_mul a0 a1 a2 a3 a4 a5 : wr n0 l a5 -> fr n0 l (fun r => r = a5) (sp_mul a0 a1 a2 a3 a4 a5).
Proof. intros; unfold sp_mul; fr_go. Qed.
#[local] Hint Resolve fr_sp_mul : frdb.
Lemma fr_sp_op_mul a0 a1 a2 : fr n0 l (fun p => n0 <= p) (sp_op_mul a0 a1 a2).
Proof. intros; unfold sp_op_mul; fr_go. Qed.
#[local] Hint Resolve fr_sp_op_mul : frdb.
Lemma fr_tdma_col a0 a1 a2 a3 a4 a5 a6 a7 : wr n0 l a6 -> fr n0 l (fun _ => True) (tdma_col a0 a1 a2 a3 a4 a5 a6 a7).
Proof. intros; unfold tdma_col; fr_go. Qed.
#[local] Hint Resolve fr_tdma_col : frdb.
Lemma fr_tdma a0 a1 a2 a3 a4 a5 a6 : wr n0 l a6 -> fr n0 l (fun r => r = a6) (tdma a0 a1 a2 a3 a4 a5 a6).
Proof. intros; unfold tdma; fr_go. Qed.
#[local] Hint Resolve fr_tdma : frdb.
Lemma fr_tridiag_solve_vec a0 a1 a2 a3 : wr n0 l a3 -> fr n0 l (fun r => r = a3) (tridiag_solve_vec a0 a1 a2 a3).
Proof. intros; unfold tridiag_solve_vec; fr_go. Qed.
#[local] Hint Resolve fr_tridiag_solve_vec : frdb.
Lemma fr_tridiag_solve_mat a0 a1 a2 a3 : wr n0 l (mp a3) -> fr n0 l (fun r => r = a3) (tridiag_solve_mat a0 a1 a2 a3).
Proof. intros; unfold tridiag_solve_mat; fr_go. Qed.
#[local] Hint Resolve fr_tridiag_solve_mat : frdb.
Lemma fr_cholesky_decomposition a0 a1 a2 : wr n0 l a2 -> fr n0 l (fun _ => True) (cholesky_decomposition a0 a1 a2).
Proof. intros; unfold cholesky_decomposition; fr_go. Qed.
#[local] Hint Resolve fr_cholesky_decomposition : frdb.
Lemma fr_cholesky_linear a0 a1 a2 a3 a4 a5 : wr n0 l a5 -> fr n0 l (fun r => r = a5) (cholesky_linear a0 a1 a2 a3 a4 a5).
Proof. intros; unfold cholesky_linear; fr_go. Qed.
#[local] Hint Resolve fr_cholesky_linear : frdb.
Lemma fr_mod_cholesky_decomposition a0 a1 a2 : wr n0 l a2 -> fr n0 l (fun _ => True) (mod_cholesky_decomposition a0 a1 a2).
Proof. intros; unfold mod_cholesky_decomposition; fr_go. Qed.
#[local] Hint Resolve fr_mod_cholesky_decomposition : frdb.
Lemma fr_mod_cholesky_linear a0 a1 a2 a3 a4 a5 : wr n0 l a5 -> fr n0 l (fun _ => True) (mod_cholesky_linear a0 a1 a2 a3 a4 a5).
Proof. intros; unfold mod_cholesky_linear; fr_go. Qed.
#[local] Hint Resolve fr_mod_cholesky_linear : frdb.
Lemma fr_tri_cholesky a0 : fr n0 l (fun F => n0 <= chp F) (tri_cholesky a0).
Proof. intros; unfold tri_cholesky; fr_go. Qed.
#[local] Hint Resolve fr_tri_cholesky : frdb.
Lemma fr_dyn_cholesky a0 : fr n0 l (fun F => n0 <= chp F) (dyn_cholesky a0).
Proof. intros; unfold dyn_cholesky; fr_go. Qed.
#[local] Hint Resolve fr_dyn_cholesky : frdb.
Lemma fr_mod_cholesky a0 : fr n0 l (fun F => n0 <= chp F) (mod_cholesky a0).
Proof. intros; unfold mod_cholesky; fr_go. Qed.
#[local] Hint Resolve fr_mod_cholesky : frdb.
Lemma fr_lower_mat a0 : fr n0 l (fun _ => True) (lower_mat a0).
Proof. intros; unfold lower_mat; fr_go. Qed.
#[local] Hint Resolve fr_lower_mat : frdb.
Lemma fr_chol_solve_mut_vec a0 a1 a2 : wr n0 l a2 -> fr n0 l (fun r => r = a2) (chol_solve_mut_vec a0 a1 a2).
Proof. intros; unfold chol_solve_mut_vec; fr_go. Qed.
#[local] Hint Resolve fr_chol_solve_mut_vec : frdb.
Lemma fr_chol_solve_vec a0 a1 a2 : fr n0 l (fun p => n0 <= p) (chol_solve_vec a0 a1 a2).
Proof. intros; unfold chol_solve_vec; fr_go. Qed.
#[local] Hint Resolve fr_chol_solve_vec : frdb.
Lemma fr_chol_solve_mut_mat a0 a1 a2 : wr n0 l (mp a2) -> fr n0 l (fun r => r = a2) (chol_solve_mut_mat a0 a1 a2).
Proof. intros; unfold chol_solve_mut_mat; fr_go. Qed.
#[local] Hint Resolve fr_chol_solve_mut_mat : frdb.
Lemma fr_chol_solve_mat a0 a1 a2 : fr n0 l (fun A => n0 <= mp A) (chol_solve_mat a0 a1 a2).
Proof. intros; unfold chol_solve_mat; fr_go. Qed.
#[local] Hint Resolve fr_chol_solve_mat : frdb.
Lemma fr_mod_solve_mut_vec a0 a1 a2 : wr n0 l a2 -> fr n0 l (fun r => r = a2) (mod_solve_mut_vec a0 a1 a2).
Proof. intros; unfold mod_solve_mut_vec; fr_go. Qed.
#[local] Hint Resolve fr_mod_solve_mut_vec : frdb.
Lemma fr_mod_solve_vec a0 a1 a2 : fr n0 l (fun p => n0 <= p) (mod_solve_vec a0 a1 a2).
Proof. intros; unfold mod_solve_vec; fr_go. Qed.
#[local] Hint Resolve fr_mod_solve_vec : frdb.
Lemma fr_mod_solve_mut_mat a0 a1 a2 : wr n0 l (mp a2) -> fr n0 l (fun r => r = a2) (mod_solve_mut_mat a0 a1 a2).
Proof. intros; unfold mod_solve_mut_mat; fr_go. Qed.
#[local] Hint Resolve fr_mod_solve_mut_mat : frdb.
Lemma fr_mod_solve_mat a0 a1 a2 : fr n0 l (fun A => n0 <= mp A) (mod_solve_mat a0 a1 a2).
Proof. intros; unfold mod_solve_mat; fr_go. Qed.
#[local] Hint Resolve fr_mod_solve_mat : frdb.
Lemma fr_cgs dbg vs : (forall p, In p vs -> wr n0 l p) -> fr n0 l (fun _ => True) (cgs dbg vs).
Proof. intros H. unfold cgs. fr_go. Qed.
Section FrIlu.
Variables (shape : M (heap T) (nat * nat)) (get : nat -> nat -> M (heap T) T) (set : nat -> nat -> T -> M (heap T) unit).
Hypothesis Hshape : fr n0 l (fun _ => True) shape.
Hypothesis Hget : forall i j, fr n0 l (fun _ => True) (get i j).
#[local] Hint Resolve Hshape Hget : frdb.
Lemma fr_ilu_solve p : fr n0 l (fun p => n0 <= p) (ilu_solve get p).
Proof using Hget. clear Hshape. unfold ilu_solve. fr_go. Qed.
Hypothesis Hset : forall i j x, fr n0 l (fun _ => True) (set i j x).
#[local] Hint Resolve Hset : frdb.
Lemma fr_ilu_sum i j p s : fr n0 l (fun _ => True) (ilu_sum get i j p s).
Proof using Hget. clear Hset Hshape. unfold ilu_sum. fr_go. Qed.
#[local] Hint Resolve fr_ilu_sum : frdb.
Lemma fr_ilu_decomp : fr n0 l (fun _ => True) (ilu_decomp shape get set).
Proof. unfold ilu_decomp. fr_go. Qed.
#[local] Hint Resolve fr_ilu_decomp : frdb.
Lemma fr_ilu_new : fr n0 l (fun _ => True) (ilu_new shape get set).
Proof. unfold ilu_new. fr_go. Qed.
End FrIlu.

Section FrGmres.
Variables (dbg : bool) (isqrt : nat -> nat) (nrow : M (heap T) nat) (mulv lu : ptr -> M (heap T) ptr).
Hypothesis Hrow : fr n0 l (fun _ => True) nrow.
Hypothesis Hmul : forall p, fr n0 l (fun p => n0 <= p) (mulv p).
Hypothesis Hlu : forall p, fr n0 l (fun p => n0 <= p) (lu p).
#[local] Hint Resolve Hrow Hmul Hlu : frdb.
Lemma fr_upd_local {C A} (c : C) (m : M C A) : fr n0 l (fun _ => True) (upd_local c m).
Proof. unfold upd_local. apply fr_on_copy. Qed.
#[local] Hint Resolve fr_upd_local : frdb.
Lemma fr_hess_get H i j : fr n0 l (fun _ => True) (hess_get (T := T) H i j).
Proof. unfold hess_get. fr_go. Qed.
#[local] Hint Resolve fr_hess_get : frdb.
Lemma fr_hess_col H j : fr n0 l (fun _ => True) (hess_col (T := T) H j).
Proof. unfold hess_col. fr_go. Qed.
#[local] Hint Resolve fr_hess_col : frdb.
Lemma fr_arnoldi q H h : fr n0 l (fun _ => True) (arnoldi dbg mulv lu q H h).
Proof. unfold arnoldi. fr_go. Qed.
Lemma fr_givens H h s c r b : fr n0 l (fun _ => True) (givens_rot dbg H h s c r b).
Proof. unfold givens_rot. fr_go. Qed.
#[local] Hint Resolve fr_arnoldi fr_givens : frdb.
Lemma fr_gmres_step tol g : fr n0 l (fun _ => True) (gmres_step dbg mulv lu tol g).
Proof. unfold gmres_step. fr_go. Qed.
Lemma fr_gmres_init p : fr n0 l (fun _ => True) (gmres_init isqrt lu p).
Proof. unfold gmres_init, utri_with_capacity, hess_with_capacity, utri_of, hess_of, utri_calc_size, hess_calc_size. fr_go. Qed.
#[local] Hint Resolve fr_gmres_step fr_gmres_init : frdb.
Lemma fr_gmres_finish n g : fr n0 l (fun p => n0 <= p) (gmres_finish n g).
Proof. unfold gmres_finish. fr_go. Qed.
#[local] Hint Resolve fr_gmres_finish : frdb.
Lemma fr_gmres_solve tol p : fr n0 l (fun p => n0 <= p) (gmres_solve dbg isqrt nrow mulv lu tol p).
Proof. unfold gmres_solve. fr_go. Qed.
End FrGmres.
Lemma fr_ilu_dyn a0 : fr n0 l (fun A => n0 <= mp A) (ilu_dyn a0).
Proof. intros; unfold ilu_dyn; eapply fr_bind; [fr_any|]; intros F HF; cbn beta in *; eapply fr_bind; [apply fr_ilu_new; intros; fr_go|intros; fr_go]. Qed.
#[local] Hint Resolve fr_ilu_dyn : frdb.
Lemma fr_ilu_dyn_solve a0 a1 : fr n0 l (fun p => n0 <= p) (ilu_dyn_solve a0 a1).
Proof. intros; unfold ilu_dyn_solve; apply fr_ilu_solve; intros; fr_go. Qed.
#[local] Hint Resolve fr_ilu_dyn_solve : frdb.
Lemma fr_ilu_csr_solve a0 a1 : fr n0 l (fun p => n0 <= p) (ilu_csr_solve a0 a1).
Proof. intros; unfold ilu_csr_solve; apply fr_ilu_solve; intros; apply fr_csr_get. Qed.
#[local] Hint Resolve fr_ilu_csr_solve : frdb.
Lemma fr_gmres_dyn_new a0 : fr n0 l (fun G => n0 <= mp (fst G) /\ n0 <= mp (snd G)) (gmres_dyn_new a0).
Proof. intros; unfold gmres_dyn_new; fr_go. Qed.
#[local] Hint Resolve fr_gmres_dyn_new : frdb.
Lemma fr_gmres_dyn_solve a0 a1 a2 a3 a4 : fr n0 l (fun p => n0 <= p) (gmres_dyn_solve a0 a1 a2 a3 a4).
Proof. intros; unfold gmres_dyn_solve; apply fr_gmres_solve; intros; fr_go. Qed.
#[local] Hint Resolve fr_gmres_dyn_solve : frdb.
Lemma fr_gmres_csr_solve a0 a1 a2 a3 a4 : fr n0 l (fun p => n0 <= p) (gmres_csr_solve a0 a1 a2 a3 a4).
Proof. intros; unfold gmres_csr_solve; apply fr_gmres_solve; intros; fr_go. Qed.
#[local] Hint Resolve fr_gmres_csr_solve : frdb.
End FrameOps.
