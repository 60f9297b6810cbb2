(** * Nothing but the destination changes

    For every modelled operation, every scalar type, every state of the memory and without any
    precondition: when the call returns or throws, no object that existed before holds other
    elements than before, except the one passed as destination, and no object has another size;
    an operation that returns a new object returns one that did not exist before, and one that
    returns its destination returns just that.  (Assignment, which may change the size of its
    destination, is stated on its own at the end.) *)
From Coq Require Import QArith Qcanon.
From Verif Require Import Base Scalar BaseLemmas ModelVec ModelMat ModelPacked ModelSparse ModelSolvers ModelIter
  SpecFrame Frame FrameOps.
Definition qz (z : Z) : Qc := Q2Qc (inject_Z z).
Local Open Scope nat_scope.

Ltac frame_by l := intros; eapply fr_modifies; [intros; eapply l; solve [left; cbn; auto] || (intros; left; assumption) || idtac
  | unfold fresh, value, itself; cbv beta; intros; solve [auto | exact I | eassumption]].

Theorem C58_neg_s : forall T (Op : Ops T) a0 a1 a2, modifies (T := T) [a2] (itself a2) (neg_s a0 a1 a2).
Proof. frame_by @fr_neg_s. Qed.
Theorem C58_neg_d : forall T (Op : Ops T) a0 a1, modifies (T := T) [a1] (itself a1) (neg_d a0 a1).
Proof. frame_by @fr_neg_d. Qed.
Theorem C58_op_neg_s : forall T (Op : Ops T) a0 a1, modifies (T := T) [] fresh (op_neg_s a0 a1).
Proof. frame_by @fr_op_neg_s. Qed.
Theorem C58_op_neg_d : forall T (Op : Ops T) a0, modifies (T := T) [] fresh (op_neg_d a0).
Proof. frame_by @fr_op_neg_d. Qed.
Theorem C58_add_s : forall T (Op : Ops T) a0 a1 a2 a3, modifies (T := T) [a3] (itself a3) (add_s a0 a1 a2 a3).
Proof. frame_by @fr_add_s. Qed.
Theorem C58_add_sd : forall T (Op : Ops T) a0 a1 a2 a3, modifies (T := T) [a3] (itself a3) (add_sd a0 a1 a2 a3).
Proof. frame_by @fr_add_sd. Qed.
Theorem C58_add_ds : forall T (Op : Ops T) a0 a1 a2 a3, modifies (T := T) [a3] (itself a3) (add_ds a0 a1 a2 a3).
Proof. frame_by @fr_add_ds. Qed.
Theorem C58_add_d : forall T (Op : Ops T) a0 a1 a2, modifies (T := T) [a2] (itself a2) (add_d a0 a1 a2).
Proof. frame_by @fr_add_d. Qed.
Theorem C58_op_add_s : forall T (Op : Ops T) a0 a1 a2, modifies (T := T) [] fresh (op_add_s a0 a1 a2).
Proof. frame_by @fr_op_add_s. Qed.
Theorem C58_op_add_d : forall T (Op : Ops T) a0 a1, modifies (T := T) [] fresh (op_add_d a0 a1).
Proof. frame_by @fr_op_add_d. Qed.
Theorem C58_sub_s : forall T (Op : Ops T) a0 a1 a2 a3, modifies (T := T) [a3] (itself a3) (sub_s a0 a1 a2 a3).
Proof. frame_by @fr_sub_s. Qed.
Theorem C58_sub_ds : forall T (Op : Ops T) a0 a1 a2 a3, modifies (T := T) [a3] (itself a3) (sub_ds a0 a1 a2 a3).
Proof. frame_by @fr_sub_ds. Qed.
Theorem C58_sub_d : forall T (Op : Ops T) a0 a1 a2, modifies (T := T) [a2] (itself a2) (sub_d a0 a1 a2).
Proof. frame_by @fr_sub_d. Qed.
Theorem C58_op_sub_s : forall T (Op : Ops T) a0 a1 a2, modifies (T := T) [] fresh (op_sub_s a0 a1 a2).
Proof. frame_by @fr_op_sub_s. Qed.
Theorem C58_op_sub_d : forall T (Op : Ops T) a0 a1, modifies (T := T) [] fresh (op_sub_d a0 a1).
Proof. frame_by @fr_op_sub_d. Qed.
Theorem C58_axpy_s : forall T (Op : Ops T) a0 a1 a2 a3, modifies (T := T) [a3] (itself a3) (axpy_s a0 a1 a2 a3).
Proof. frame_by @fr_axpy_s. Qed.
Theorem C58_axpy_d : forall T (Op : Ops T) a0 a1 a2, modifies (T := T) [a2] (itself a2) (axpy_d a0 a1 a2).
Proof. frame_by @fr_axpy_d. Qed.
Theorem C58_scale_s : forall T (Op : Ops T) a0 a1 a2, modifies (T := T) [a2] (itself a2) (scale_s a0 a1 a2).
Proof. frame_by @fr_scale_s. Qed.
Theorem C58_scale_d : forall T (Op : Ops T) a0 a1, modifies (T := T) [a1] (itself a1) (scale_d a0 a1).
Proof. frame_by @fr_scale_d. Qed.
Theorem C58_op_scale_s : forall T (Op : Ops T) a0 a1 a2, modifies (T := T) [] fresh (op_scale_s a0 a1 a2).
Proof. frame_by @fr_op_scale_s. Qed.
Theorem C58_op_scale_d : forall T (Op : Ops T) a0 a1, modifies (T := T) [] fresh (op_scale_d a0 a1).
Proof. frame_by @fr_op_scale_d. Qed.
Theorem C58_scaled_s : forall T (Op : Ops T) a0 a1 a2, modifies (T := T) [] fresh (scaled_s a0 a1 a2).
Proof. frame_by @fr_scaled_s. Qed.
Theorem C58_scaled_d : forall T (Op : Ops T) a0 a1, modifies (T := T) [] fresh (scaled_d a0 a1).
Proof. frame_by @fr_scaled_d. Qed.
Theorem C58_op_div_s : forall T (Op : Ops T) a0 a1 a2, modifies (T := T) [] fresh (op_div_s a0 a1 a2).
Proof. frame_by @fr_op_div_s. Qed.
Theorem C58_op_div_d : forall T (Op : Ops T) a0 a1, modifies (T := T) [] fresh (op_div_d a0 a1).
Proof. frame_by @fr_op_div_d. Qed.
Theorem C58_dot_s : forall T (Op : Ops T) a0 a1 a2, modifies (T := T) [] value (dot_s a0 a1 a2).
Proof. frame_by @fr_dot_s. Qed.
Theorem C58_dot_sd : forall T (Op : Ops T) a0 a1 a2, modifies (T := T) [] value (dot_sd a0 a1 a2).
Proof. frame_by @fr_dot_sd. Qed.
Theorem C58_dot_d : forall T (Op : Ops T) a0 a1, modifies (T := T) [] value (dot_d a0 a1).
Proof. frame_by @fr_dot_d. Qed.
Theorem C58_dot_member_d : forall T (Op : Ops T) a0 a1, modifies (T := T) [] value (dot_member_d a0 a1).
Proof. frame_by @fr_dot_member_d. Qed.
Theorem C58_dot_member_ds : forall T (Op : Ops T) a0 a1 a2, modifies (T := T) [] value (dot_member_ds a0 a1 a2).
Proof. frame_by @fr_dot_member_ds. Qed.
Theorem C58_norm2_d : forall T (Op : Ops T) a0, modifies (T := T) [] value (norm2_d a0).
Proof. frame_by @fr_norm2_d. Qed.
Theorem C58_norm2_s : forall T (Op : Ops T) a0 a1, modifies (T := T) [] value (norm2_s a0 a1).
Proof. frame_by @fr_norm2_s. Qed.
Theorem C58_cross2 : forall T (Op : Ops T) a0 a1 a2 a3 a4, modifies (T := T) [] value (cross2 a0 a1 a2 a3 a4).
Proof. frame_by @fr_cross2. Qed.
Theorem C58_cross3 : forall T (Op : Ops T) a0 a1 a2 a3 a4 a5 a6, modifies (T := T) [a6] (itself a6) (cross3 a0 a1 a2 a3 a4 a5 a6).
Proof. frame_by @fr_cross3. Qed.
Theorem C58_cross3_new : forall T (Op : Ops T) a0 a1 a2 a3 a4, modifies (T := T) [] fresh (cross3_new a0 a1 a2 a3 a4).
Proof. frame_by @fr_cross3_new. Qed.
Theorem C58_cross3_acc : forall T (Op : Ops T) a0 a1 a2 a3 a4 a5 a6, modifies (T := T) [a6] (itself a6) (cross3_acc a0 a1 a2 a3 a4 a5 a6).
Proof. frame_by @fr_cross3_acc. Qed.
Theorem C58_dynvec_uninit : forall T (Op : Ops T) a0, modifies (T := T) [] fresh (dynvec_uninit a0).
Proof. frame_by @fr_dynvec_uninit. Qed.
Theorem C58_dynvec_filled : forall T (Op : Ops T) a0 a1, modifies (T := T) [] fresh (dynvec_filled a0 a1).
Proof. frame_by @fr_dynvec_filled. Qed.
Theorem C58_dynvec_of : forall T (Op : Ops T) a0, modifies (T := T) [] fresh (dynvec_of a0).
Proof. frame_by @fr_dynvec_of. Qed.
Theorem C58_vec_copy : forall T (Op : Ops T) a0, modifies (T := T) [] fresh (vec_copy a0).
Proof. frame_by @fr_vec_copy. Qed.
Theorem C58_sizedvec_of : forall T (Op : Ops T) a0 a1, modifies (T := T) [] fresh (sizedvec_of a0 a1).
Proof. frame_by @fr_sizedvec_of. Qed.
Theorem C58_sizedvec_uninit : forall T (Op : Ops T) a0, modifies (T := T) [] fresh (sizedvec_uninit a0).
Proof. frame_by @fr_sizedvec_uninit. Qed.
Theorem C58_sizedvec_filled : forall T (Op : Ops T) a0 a1, modifies (T := T) [] fresh (sizedvec_filled a0 a1).
Proof. frame_by @fr_sizedvec_filled. Qed.
Theorem C58_vec_get : forall T (Op : Ops T) a0 a1, modifies (T := T) [] value (vec_get a0 a1).
Proof. frame_by @fr_vec_get. Qed.
Theorem C58_vec_put : forall T (Op : Ops T) a0 a1 a2, modifies (T := T) [a0] value (vec_put a0 a1 a2).
Proof. frame_by @fr_vec_put. Qed.
Theorem C58_dynmat_of : forall T (Op : Ops T) a0 a1 a2, modifies (T := T) [] (fun h A => fresh h (mp A)) (dynmat_of a0 a1 a2).
Proof. frame_by @fr_dynmat_of. Qed.
Theorem C58_sizedmat_of : forall T (Op : Ops T) a0 a1 a2, modifies (T := T) [] (fun h A => fresh h (mp A)) (sizedmat_of a0 a1 a2).
Proof. frame_by @fr_sizedmat_of. Qed.
Theorem C58_mat_uninit : forall T (Op : Ops T) a0 a1, modifies (T := T) [] (fun h A => fresh h (mp A)) (mat_uninit a0 a1).
Proof. frame_by @fr_mat_uninit. Qed.
Theorem C58_mat_get : forall T (Op : Ops T) a0 a1 a2, modifies (T := T) [] value (mat_get a0 a1 a2).
Proof. frame_by @fr_mat_get. Qed.
Theorem C58_mat_put : forall T (Op : Ops T) a0 a1 a2 a3, modifies (T := T) [mp a0] value (mat_put a0 a1 a2 a3).
Proof. frame_by @fr_mat_put. Qed.
Theorem C58_mat_at : forall T (Op : Ops T) a0 a1 a2, modifies (T := T) [] value (mat_at a0 a1 a2).
Proof. frame_by @fr_mat_at. Qed.
Theorem C58_mat_mut_at : forall T (Op : Ops T) a0 a1 a2 a3, modifies (T := T) [mp a0] value (mat_mut_at a0 a1 a2 a3).
Proof. frame_by @fr_mat_mut_at. Qed.
Theorem C58_mat_filled : forall T (Op : Ops T) a0 a1 a2, modifies (T := T) [] (fun h A => fresh h (mp A)) (mat_filled a0 a1 a2).
Proof. frame_by @fr_mat_filled. Qed.
Theorem C58_mat_diag_list : forall T (Op : Ops T) a0, modifies (T := T) [] (fun h A => fresh h (mp A)) (mat_diag_list a0).
Proof. frame_by @fr_mat_diag_list. Qed.
Theorem C58_mat_diag : forall T (Op : Ops T) a0 a1, modifies (T := T) [] (fun h A => fresh h (mp A)) (mat_diag a0 a1).
Proof. frame_by @fr_mat_diag. Qed.
Theorem C58_mat_identity : forall T (Op : Ops T) a0, modifies (T := T) [] (fun h A => fresh h (mp A)) (mat_identity a0).
Proof. frame_by @fr_mat_identity. Qed.
Theorem C58_mat_copy : forall T (Op : Ops T) a0, modifies (T := T) [] (fun h A => fresh h (mp A)) (mat_copy a0).
Proof. frame_by @fr_mat_copy. Qed.
Theorem C58_mulv : forall T (Op : Ops T) a0 a1 a2 a3 a4 a5, modifies (T := T) [a5] (itself a5) (mulv a0 a1 a2 a3 a4 a5).
Proof. frame_by @fr_mulv. Qed.
Theorem C58_op_mulv : forall T (Op : Ops T) a0 a1 a2, modifies (T := T) [] fresh (op_mulv a0 a1 a2).
Proof. frame_by @fr_op_mulv. Qed.
Theorem C58_mulm : forall T (Op : Ops T) a0 a1 a2 a3 a4 a5, modifies (T := T) [mp a5] (itself a5) (mulm a0 a1 a2 a3 a4 a5).
Proof. frame_by @fr_mulm. Qed.
Theorem C58_op_mulm : forall T (Op : Ops T) a0 a1 a2, modifies (T := T) [] (fun h A => fresh h (mp A)) (op_mulm a0 a1 a2).
Proof. frame_by @fr_op_mulm. Qed.
Theorem C58_addm : forall T (Op : Ops T) a0 a1 a2 a3, modifies (T := T) [mp a3] (itself a3) (addm a0 a1 a2 a3).
Proof. frame_by @fr_addm. Qed.
Theorem C58_op_addm : forall T (Op : Ops T) a0 a1 a2, modifies (T := T) [] (fun h A => fresh h (mp A)) (op_addm a0 a1 a2).
Proof. frame_by @fr_op_addm. Qed.
Theorem C58_subm : forall T (Op : Ops T) a0 a1 a2 a3, modifies (T := T) [mp a3] (itself a3) (subm a0 a1 a2 a3).
Proof. frame_by @fr_subm. Qed.
Theorem C58_op_subm : forall T (Op : Ops T) a0 a1 a2, modifies (T := T) [] (fun h A => fresh h (mp A)) (op_subm a0 a1 a2).
Proof. frame_by @fr_op_subm. Qed.
Theorem C58_scalem : forall T (Op : Ops T) a0 a1, modifies (T := T) [mp a1] (itself a1) (scalem a0 a1).
Proof. frame_by @fr_scalem. Qed.
Theorem C58_op_scalem : forall T (Op : Ops T) a0 a1, modifies (T := T) [] (fun h A => fresh h (mp A)) (op_scalem a0 a1).
Proof. frame_by @fr_op_scalem. Qed.
Theorem C58_op_negm : forall T (Op : Ops T) a0, modifies (T := T) [] (fun h A => fresh h (mp A)) (op_negm a0).
Proof. frame_by @fr_op_negm. Qed.
Theorem C58_invert2 : forall T (Op : Ops T) a0 a1, modifies (T := T) [mp a1] (fun h A => fresh h (mp A)) (invert2 a0 a1).
Proof. frame_by @fr_invert2. Qed.
Theorem C58_invert2_inplace : forall T (Op : Ops T) a0, modifies (T := T) [mp a0] (itself a0) (invert2_inplace a0).
Proof. frame_by @fr_invert2_inplace. Qed.
Theorem C58_inverted2 : forall T (Op : Ops T) a0, modifies (T := T) [] (fun h A => fresh h (mp A)) (inverted2 a0).
Proof. frame_by @fr_inverted2. Qed.
Theorem C58_back_sub : forall T (Op : Ops T) a0 a1, modifies (T := T) [a1] value (back_sub a0 a1).
Proof. frame_by @fr_back_sub. Qed.
Theorem C58_sp_mul : forall T (Op : Ops T) a0 a1 a2 a3 a4 a5, modifies (T := T) [a5] (itself a5) (sp_mul a0 a1 a2 a3 a4 a5).
Proof. frame_by @fr_sp_mul. Qed.
Theorem C58_sp_op_mul : forall T (Op : Ops T) a0 a1 a2, modifies (T := T) [] fresh (sp_op_mul a0 a1 a2).
Proof. frame_by @fr_sp_op_mul. Qed.
Theorem C58_tridiag_solve_vec : forall T (Op : Ops T) a0 a1 a2 a3, modifies (T := T) [a3] (itself a3) (tridiag_solve_vec a0 a1 a2 a3).
Proof. frame_by @fr_tridiag_solve_vec. Qed.
Theorem C58_tridiag_solve_mat : forall T (Op : Ops T) a0 a1 a2 a3, modifies (T := T) [mp a3] (itself a3) (tridiag_solve_mat a0 a1 a2 a3).
Proof. frame_by @fr_tridiag_solve_mat. Qed.
Theorem C58_tri_cholesky : forall T (Op : Ops T) a0, modifies (T := T) [] (fun h F => fresh h (chp F)) (tri_cholesky a0).
Proof. frame_by @fr_tri_cholesky. Qed.
Theorem C58_dyn_cholesky : forall T (Op : Ops T) a0, modifies (T := T) [] (fun h F => fresh h (chp F)) (dyn_cholesky a0).
Proof. frame_by @fr_dyn_cholesky. Qed.
Theorem C58_mod_cholesky : forall T (Op : Ops T) a0, modifies (T := T) [] (fun h F => fresh h (chp F)) (mod_cholesky a0).
Proof. frame_by @fr_mod_cholesky. Qed.
Theorem C58_lower_mat : forall T (Op : Ops T) a0, modifies (T := T) [] value (lower_mat a0).
Proof. frame_by @fr_lower_mat. Qed.
Theorem C58_chol_solve_mut_vec : forall T (Op : Ops T) a0 a1 a2, modifies (T := T) [a2] (itself a2) (chol_solve_mut_vec a0 a1 a2).
Proof. frame_by @fr_chol_solve_mut_vec. Qed.
Theorem C58_chol_solve_vec : forall T (Op : Ops T) a0 a1 a2, modifies (T := T) [] fresh (chol_solve_vec a0 a1 a2).
Proof. frame_by @fr_chol_solve_vec. Qed.
Theorem C58_chol_solve_mut_mat : forall T (Op : Ops T) a0 a1 a2, modifies (T := T) [mp a2] (itself a2) (chol_solve_mut_mat a0 a1 a2).
Proof. frame_by @fr_chol_solve_mut_mat. Qed.
Theorem C58_chol_solve_mat : forall T (Op : Ops T) a0 a1 a2, modifies (T := T) [] (fun h A => fresh h (mp A)) (chol_solve_mat a0 a1 a2).
Proof. frame_by @fr_chol_solve_mat. Qed.
Theorem C58_mod_solve_mut_vec : forall T (Op : Ops T) a0 a1 a2, modifies (T := T) [a2] (itself a2) (mod_solve_mut_vec a0 a1 a2).
Proof. frame_by @fr_mod_solve_mut_vec. Qed.
Theorem C58_mod_solve_vec : forall T (Op : Ops T) a0 a1 a2, modifies (T := T) [] fresh (mod_solve_vec a0 a1 a2).
Proof. frame_by @fr_mod_solve_vec. Qed.
Theorem C58_mod_solve_mut_mat : forall T (Op : Ops T) a0 a1 a2, modifies (T := T) [mp a2] (itself a2) (mod_solve_mut_mat a0 a1 a2).
Proof. frame_by @fr_mod_solve_mut_mat. Qed.
Theorem C58_mod_solve_mat : forall T (Op : Ops T) a0 a1 a2, modifies (T := T) [] (fun h A => fresh h (mp A)) (mod_solve_mat a0 a1 a2).
Proof. frame_by @fr_mod_solve_mat. Qed.
Theorem C58_ilu_dyn : forall T (Op : Ops T) a0, modifies (T := T) [] (fun h A => fresh h (mp A)) (ilu_dyn a0).
Proof. frame_by @fr_ilu_dyn. Qed.
Theorem C58_ilu_dyn_solve : forall T (Op : Ops T) a0 a1, modifies (T := T) [] fresh (ilu_dyn_solve a0 a1).
Proof. frame_by @fr_ilu_dyn_solve. Qed.
Theorem C58_ilu_csr_solve : forall T (Op : Ops T) a0 a1, modifies (T := T) [] fresh (ilu_csr_solve a0 a1).
Proof. frame_by @fr_ilu_csr_solve. Qed.
Theorem C58_gmres_dyn_new : forall T (Op : Ops T) a0, modifies (T := T) [] (fun h G => fresh h (mp (fst G)) /\ fresh h (mp (snd G))) (gmres_dyn_new a0).
Proof. frame_by @fr_gmres_dyn_new. Qed.
Theorem C58_gmres_dyn_solve : forall T (Op : Ops T) a0 a1 a2 a3 a4, modifies (T := T) [] fresh (gmres_dyn_solve a0 a1 a2 a3 a4).
Proof. frame_by @fr_gmres_dyn_solve. Qed.
Theorem C58_gmres_csr_solve : forall T (Op : Ops T) a0 a1 a2 a3 a4, modifies (T := T) [] fresh (gmres_csr_solve a0 a1 a2 a3 a4).
Proof. frame_by @fr_gmres_csr_solve. Qed.
Theorem C58_cgs : forall T (Op : Ops T) dbg vecs, modifies (T := T) vecs value (cgs dbg vecs).
Proof. intros. eapply (fr_modifies _ _ (fun _ _ => True)); [intros; apply fr_cgs; intros; now left|intros; exact I]. Qed.

(** Assignment takes over elements and size of its source and changes nothing else. *)
Theorem C58_vec_assign : forall T (h : heap T) dst src, exists h', vec_assign dst src h = Ok dst h' /\
  next h' = next h /\ mem h' dst = mem h src /\ forall q, q <> dst -> mem h' q = mem h q.
Proof.
  intros. eexists. split; [reflexivity|]. cbn. rewrite Nat.eqb_refl. repeat split; auto.
  intros q Hq. apply Nat.eqb_neq in Hq. now rewrite Hq.
Qed.
Theorem C58_mat_assign : forall T (h : heap T) dst src, exists h', mat_assign dst src h = Ok (mkMat (mp dst) (mr src) (mc src)) h' /\
  next h' = next h /\ mem h' (mp dst) = mem h (mp src) /\ forall q, q <> mp dst -> mem h' q = mem h q.
Proof.
  intros. eexists. split; [reflexivity|]. cbn. rewrite Nat.eqb_refl. repeat split; auto.
  intros q Hq. apply Nat.eqb_neq in Hq. now rewrite Hq.
Qed.

(** ** Consequences *)
Corollary C58_const : forall T A (R : heap T -> A -> Prop) (m : M (heap T) A) h, modifies [] R m ->
  match m h with
  | Ok _ h' | Throw _ h' => forall q, q < next h -> mem h' q = mem h q
  | _ => True
  end.
Proof.
  intros T A R m h H. specialize (H h). destruct (m h); auto; [destruct H as [H _]|]; intros q Hq;
    apply (ke_same _ _ _ H); auto.
Qed.
(** A factorisation or preconditioner leaves the caller's matrix alone, also when it throws. *)
Corollary C58_factor_keeps : forall T (Op : Ops T) A (h : heap T), mp A < next h ->
  (forall F h', dyn_cholesky A h = Ok F h' -> mem h' (mp A) = mem h (mp A) /\ chp F <> mp A) /\
  (forall F h', mod_cholesky A h = Ok F h' -> mem h' (mp A) = mem h (mp A) /\ chp F <> mp A) /\
  (forall F h', ilu_dyn A h = Ok F h' -> mem h' (mp A) = mem h (mp A) /\ mp F <> mp A) /\
  (forall e h', dyn_cholesky A h = Throw e h' \/ mod_cholesky A h = Throw e h' \/ ilu_dyn A h = Throw e h' ->
    mem h' (mp A) = mem h (mp A)).
Proof.
  intros T Op A h HA.
  pose proof (C58_dyn_cholesky T Op A h) as H1. pose proof (C58_mod_cholesky T Op A h) as H2.
  pose proof (C58_ilu_dyn T Op A h) as H3. unfold fresh in *.
  split; [|split; [|split]].
  - intros F h' E. rewrite E in H1. destruct H1 as [K N]. split; [apply (ke_same _ _ _ K); auto|lia].
  - intros F h' E. rewrite E in H2. destruct H2 as [K N]. split; [apply (ke_same _ _ _ K); auto|lia].
  - intros F h' E. rewrite E in H3. destruct H3 as [K N]. split; [apply (ke_same _ _ _ K); auto|lia].
  - intros e h' [E|[E|E]]; [rewrite E in H1; apply (ke_same _ _ _ H1); auto
      |rewrite E in H2; apply (ke_same _ _ _ H2); auto|rewrite E in H3; apply (ke_same _ _ _ H3); auto].
Qed.

(** A run in which the destination is one of three objects. *)
Example C58_ex : exists h', add_d (T := Qc) 0 1 2 (heap_of [[qz 1; qz 2]; [qz 3; qz 4]; [qz 0; qz 0]]) = Ok 2 h' /\
  map this (mem h' 2) = [4; 6]%Q /\ map this (mem h' 0) = [1; 2]%Q.
Proof. eexists. split; [vm_compute; reflexivity|]. split; vm_compute; reflexivity. Qed.
(** A factorisation that throws after it has written to its copy: the caller's matrix is intact. *)
Example C58_ex_throw : exists h', ilu_dyn (T := Qc) (mkMat 0 2 2) (heap_of [[qz 0; qz 1; qz 1; qz 0]]) = Throw RuntimeError h' /\
  map this (mem h' 0) = [0; 1; 1; 0]%Q.
Proof. eexists. split; [vm_compute; reflexivity|]. vm_compute; reflexivity. Qed.

Print Assumptions C58_add_d.
Print Assumptions C58_op_mulm.
Print Assumptions C58_gmres_dyn_solve.
Print Assumptions C58_cgs.
Print Assumptions C58_factor_keeps.
