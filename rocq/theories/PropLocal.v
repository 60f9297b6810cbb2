(** * No hidden state: the outcome of a call depends on its arguments only

    For every modelled operation that works on objects in memory: run it in two memories in which
    the arguments hold equal elements (and coincide in the same way), then it ends in the same way,
    throws the same exception, returns corresponding results, leaves equal elements in
    corresponding objects and changes nothing but its arguments, whatever else the memories
    contain.  Operations on packed and compressed containers that take and return values have no
    memory to depend on.  Holds for every scalar type, bit for bit. *)
From Coq Require Import Morphisms.
From Verif Require Import Base Scalar BaseLemmas ModelVec ModelMat ModelPacked ModelSparse ModelSolvers ModelIter
  SpecMat SpecSim Sim SimOps.
Local Open Scope nat_scope.

Ltac local_by l := intros; unfold respectful; intros; subst; intros h1 h2 W; eapply l; eauto; apply related_start; exact W.

Theorem C57_neg_s : forall T (Op : Ops T) w, (eq ==> paired w ==> paired w ==> respects (T := T) w (paired w))%signature neg_s neg_s.
Proof. local_by @sim_neg_s. Qed.
Theorem C57_neg_d : forall T (Op : Ops T) w, (paired w ==> paired w ==> respects (T := T) w (paired w))%signature neg_d neg_d.
Proof. local_by @sim_neg_d. Qed.
Theorem C57_op_neg_s : forall T (Op : Ops T) w, (eq ==> paired w ==> respects (T := T) w (paired w))%signature op_neg_s op_neg_s.
Proof. local_by @sim_op_neg_s. Qed.
Theorem C57_op_neg_d : forall T (Op : Ops T) w, (paired w ==> respects (T := T) w (paired w))%signature op_neg_d op_neg_d.
Proof. local_by @sim_op_neg_d. Qed.
Theorem C57_add_s : forall T (Op : Ops T) w, (eq ==> paired w ==> paired w ==> paired w ==> respects (T := T) w (paired w))%signature add_s add_s.
Proof. local_by @sim_add_s. Qed.
Theorem C57_add_sd : forall T (Op : Ops T) w, (eq ==> paired w ==> paired w ==> paired w ==> respects (T := T) w (paired w))%signature add_sd add_sd.
Proof. local_by @sim_add_sd. Qed.
Theorem C57_add_ds : forall T (Op : Ops T) w, (eq ==> paired w ==> paired w ==> paired w ==> respects (T := T) w (paired w))%signature add_ds add_ds.
Proof. local_by @sim_add_ds. Qed.
Theorem C57_add_d : forall T (Op : Ops T) w, (paired w ==> paired w ==> paired w ==> respects (T := T) w (paired w))%signature add_d add_d.
Proof. local_by @sim_add_d. Qed.
Theorem C57_op_add_s : forall T (Op : Ops T) w, (eq ==> paired w ==> paired w ==> respects (T := T) w (paired w))%signature op_add_s op_add_s.
Proof. local_by @sim_op_add_s. Qed.
Theorem C57_op_add_d : forall T (Op : Ops T) w, (paired w ==> paired w ==> respects (T := T) w (paired w))%signature op_add_d op_add_d.
Proof. local_by @sim_op_add_d. Qed.
Theorem C57_sub_s : forall T (Op : Ops T) w, (eq ==> paired w ==> paired w ==> paired w ==> respects (T := T) w (paired w))%signature sub_s sub_s.
Proof. local_by @sim_sub_s. Qed.
Theorem C57_sub_ds : forall T (Op : Ops T) w, (eq ==> paired w ==> paired w ==> paired w ==> respects (T := T) w (paired w))%signature sub_ds sub_ds.
Proof. local_by @sim_sub_ds. Qed.
Theorem C57_sub_d : forall T (Op : Ops T) w, (paired w ==> paired w ==> paired w ==> respects (T := T) w (paired w))%signature sub_d sub_d.
Proof. local_by @sim_sub_d. Qed.
Theorem C57_op_sub_s : forall T (Op : Ops T) w, (eq ==> paired w ==> paired w ==> respects (T := T) w (paired w))%signature op_sub_s op_sub_s.
Proof. local_by @sim_op_sub_s. Qed.
Theorem C57_op_sub_d : forall T (Op : Ops T) w, (paired w ==> paired w ==> respects (T := T) w (paired w))%signature op_sub_d op_sub_d.
Proof. local_by @sim_op_sub_d. Qed.
Theorem C57_axpy_s : forall T (Op : Ops T) w, (eq ==> eq ==> paired w ==> paired w ==> respects (T := T) w (paired w))%signature axpy_s axpy_s.
Proof. local_by @sim_axpy_s. Qed.
Theorem C57_axpy_d : forall T (Op : Ops T) w, (eq ==> paired w ==> paired w ==> respects (T := T) w (paired w))%signature axpy_d axpy_d.
Proof. local_by @sim_axpy_d. Qed.
Theorem C57_scale_s : forall T (Op : Ops T) w, (eq ==> eq ==> paired w ==> respects (T := T) w (paired w))%signature scale_s scale_s.
Proof. local_by @sim_scale_s. Qed.
Theorem C57_scale_d : forall T (Op : Ops T) w, (eq ==> paired w ==> respects (T := T) w (paired w))%signature scale_d scale_d.
Proof. local_by @sim_scale_d. Qed.
Theorem C57_op_scale_s : forall T (Op : Ops T) w, (eq ==> eq ==> paired w ==> respects (T := T) w (paired w))%signature op_scale_s op_scale_s.
Proof. local_by @sim_op_scale_s. Qed.
Theorem C57_op_scale_d : forall T (Op : Ops T) w, (eq ==> paired w ==> respects (T := T) w (paired w))%signature op_scale_d op_scale_d.
Proof. local_by @sim_op_scale_d. Qed.
Theorem C57_scaled_s : forall T (Op : Ops T) w, (eq ==> eq ==> paired w ==> respects (T := T) w (paired w))%signature scaled_s scaled_s.
Proof. local_by @sim_scaled_s. Qed.
Theorem C57_scaled_d : forall T (Op : Ops T) w, (eq ==> paired w ==> respects (T := T) w (paired w))%signature scaled_d scaled_d.
Proof. local_by @sim_scaled_d. Qed.
Theorem C57_op_div_s : forall T (Op : Ops T) w, (eq ==> paired w ==> eq ==> respects (T := T) w (paired w))%signature op_div_s op_div_s.
Proof. local_by @sim_op_div_s. Qed.
Theorem C57_op_div_d : forall T (Op : Ops T) w, (paired w ==> eq ==> respects (T := T) w (paired w))%signature op_div_d op_div_d.
Proof. local_by @sim_op_div_d. Qed.
Theorem C57_dot_s : forall T (Op : Ops T) w, (eq ==> paired w ==> paired w ==> respects (T := T) w (eq))%signature dot_s dot_s.
Proof. local_by @sim_dot_s. Qed.
Theorem C57_dot_sd : forall T (Op : Ops T) w, (eq ==> paired w ==> paired w ==> respects (T := T) w (eq))%signature dot_sd dot_sd.
Proof. local_by @sim_dot_sd. Qed.
Theorem C57_dot_d : forall T (Op : Ops T) w, (paired w ==> paired w ==> respects (T := T) w (eq))%signature dot_d dot_d.
Proof. local_by @sim_dot_d. Qed.
Theorem C57_dot_member_d : forall T (Op : Ops T) w, (paired w ==> paired w ==> respects (T := T) w (eq))%signature dot_member_d dot_member_d.
Proof. local_by @sim_dot_member_d. Qed.
Theorem C57_dot_member_ds : forall T (Op : Ops T) w, (eq ==> paired w ==> paired w ==> respects (T := T) w (eq))%signature dot_member_ds dot_member_ds.
Proof. local_by @sim_dot_member_ds. Qed.
Theorem C57_norm2_d : forall T (Op : Ops T) w, (paired w ==> respects (T := T) w (eq))%signature norm2_d norm2_d.
Proof. local_by @sim_norm2_d. Qed.
Theorem C57_norm2_s : forall T (Op : Ops T) w, (eq ==> paired w ==> respects (T := T) w (eq))%signature norm2_s norm2_s.
Proof. local_by @sim_norm2_s. Qed.
Theorem C57_cross2 : forall T (Op : Ops T) w, (eq ==> eq ==> eq ==> paired w ==> paired w ==> respects (T := T) w (eq))%signature cross2 cross2.
Proof. local_by @sim_cross2. Qed.
Theorem C57_cross3 : forall T (Op : Ops T) w, (eq ==> eq ==> eq ==> eq ==> paired w ==> paired w ==> paired w ==> respects (T := T) w (paired w))%signature cross3 cross3.
Proof. local_by @sim_cross3. Qed.
Theorem C57_cross3_new : forall T (Op : Ops T) w, (eq ==> eq ==> eq ==> paired w ==> paired w ==> respects (T := T) w (paired w))%signature cross3_new cross3_new.
Proof. local_by @sim_cross3_new. Qed.
Theorem C57_cross3_acc : forall T (Op : Ops T) w, (eq ==> eq ==> eq ==> eq ==> paired w ==> paired w ==> paired w ==> respects (T := T) w (paired w))%signature cross3_acc cross3_acc.
Proof. local_by @sim_cross3_acc. Qed.
Theorem C57_dynvec_uninit : forall T (Op : Ops T) w, (eq ==> respects (T := T) w (paired w))%signature dynvec_uninit dynvec_uninit.
Proof. local_by @sim_dynvec_uninit. Qed.
Theorem C57_dynvec_filled : forall T (Op : Ops T) w, (eq ==> eq ==> respects (T := T) w (paired w))%signature dynvec_filled dynvec_filled.
Proof. local_by @sim_dynvec_filled. Qed.
Theorem C57_dynvec_of : forall T (Op : Ops T) w, (eq ==> respects (T := T) w (paired w))%signature dynvec_of dynvec_of.
Proof. local_by @sim_dynvec_of. Qed.
Theorem C57_vec_copy : forall T (Op : Ops T) w, (paired w ==> respects (T := T) w (paired w))%signature vec_copy vec_copy.
Proof. local_by @sim_vec_copy. Qed.
Theorem C57_vec_assign : forall T (Op : Ops T) w, (args w ==> paired w ==> respects (T := T) w (paired w))%signature vec_assign vec_assign.
Proof. local_by @sim_vec_assign. Qed.
Theorem C57_sizedvec_of : forall T (Op : Ops T) w, (eq ==> eq ==> respects (T := T) w (paired w))%signature sizedvec_of sizedvec_of.
Proof. local_by @sim_sizedvec_of. Qed.
Theorem C57_sizedvec_uninit : forall T (Op : Ops T) w, (eq ==> respects (T := T) w (paired w))%signature sizedvec_uninit sizedvec_uninit.
Proof. local_by @sim_sizedvec_uninit. Qed.
Theorem C57_sizedvec_filled : forall T (Op : Ops T) w, (eq ==> eq ==> respects (T := T) w (paired w))%signature sizedvec_filled sizedvec_filled.
Proof. local_by @sim_sizedvec_filled. Qed.
Theorem C57_vec_get : forall T (Op : Ops T) w, (paired w ==> eq ==> respects (T := T) w (eq))%signature vec_get vec_get.
Proof. local_by @sim_vec_get. Qed.
Theorem C57_vec_put : forall T (Op : Ops T) w, (paired w ==> eq ==> eq ==> respects (T := T) w (eq))%signature vec_put vec_put.
Proof. local_by @sim_vec_put. Qed.
Theorem C57_dynmat_of : forall T (Op : Ops T) w, (eq ==> eq ==> eq ==> respects (T := T) w (same_mat_shape w))%signature dynmat_of dynmat_of.
Proof. local_by @sim_dynmat_of. Qed.
Theorem C57_sizedmat_of : forall T (Op : Ops T) w, (eq ==> eq ==> eq ==> respects (T := T) w (same_mat_shape w))%signature sizedmat_of sizedmat_of.
Proof. local_by @sim_sizedmat_of. Qed.
Theorem C57_mat_uninit : forall T (Op : Ops T) w, (eq ==> eq ==> respects (T := T) w (same_mat_shape w))%signature mat_uninit mat_uninit.
Proof. local_by @sim_mat_uninit. Qed.
Theorem C57_mat_get : forall T (Op : Ops T) w, (same_mat_shape w ==> eq ==> eq ==> respects (T := T) w (eq))%signature mat_get mat_get.
Proof. local_by @sim_mat_get. Qed.
Theorem C57_mat_put : forall T (Op : Ops T) w, (same_mat_shape w ==> eq ==> eq ==> eq ==> respects (T := T) w (eq))%signature mat_put mat_put.
Proof. local_by @sim_mat_put. Qed.
Theorem C57_mat_at : forall T (Op : Ops T) w, (same_mat_shape w ==> eq ==> eq ==> respects (T := T) w (eq))%signature mat_at mat_at.
Proof. local_by @sim_mat_at. Qed.
Theorem C57_mat_mut_at : forall T (Op : Ops T) w, (same_mat_shape w ==> eq ==> eq ==> eq ==> respects (T := T) w (eq))%signature mat_mut_at mat_mut_at.
Proof. local_by @sim_mat_mut_at. Qed.
Theorem C57_mat_filled : forall T (Op : Ops T) w, (eq ==> eq ==> eq ==> respects (T := T) w (same_mat_shape w))%signature mat_filled mat_filled.
Proof. local_by @sim_mat_filled. Qed.
Theorem C57_mat_diag_list : forall T (Op : Ops T) w, (eq ==> respects (T := T) w (same_mat_shape w))%signature mat_diag_list mat_diag_list.
Proof. local_by @sim_mat_diag_list. Qed.
Theorem C57_mat_diag : forall T (Op : Ops T) w, (eq ==> eq ==> respects (T := T) w (same_mat_shape w))%signature mat_diag mat_diag.
Proof. local_by @sim_mat_diag. Qed.
Theorem C57_mat_identity : forall T (Op : Ops T) w, (eq ==> respects (T := T) w (same_mat_shape w))%signature mat_identity mat_identity.
Proof. local_by @sim_mat_identity. Qed.
Theorem C57_mat_copy : forall T (Op : Ops T) w, (same_mat_shape w ==> respects (T := T) w (same_mat_shape w))%signature mat_copy mat_copy.
Proof. local_by @sim_mat_copy. Qed.
Theorem C57_mat_assign : forall T (Op : Ops T) w, (arg_mat w ==> same_mat_shape w ==> respects (T := T) w (same_mat_shape w))%signature mat_assign mat_assign.
Proof. local_by @sim_mat_assign. Qed.
Theorem C57_mulv : forall T (Op : Ops T) w, (eq ==> eq ==> same_mat_shape w ==> paired w ==> eq ==> paired w ==> respects (T := T) w (paired w))%signature mulv mulv.
Proof. local_by @sim_mulv. Qed.
Theorem C57_op_mulv : forall T (Op : Ops T) w, (eq ==> same_mat_shape w ==> paired w ==> respects (T := T) w (paired w))%signature op_mulv op_mulv.
Proof. local_by @sim_op_mulv. Qed.
Theorem C57_mulm : forall T (Op : Ops T) w, (eq ==> eq ==> same_mat_shape w ==> same_mat_shape w ==> eq ==> same_mat_shape w ==> respects (T := T) w (same_mat_shape w))%signature mulm mulm.
Proof. local_by @sim_mulm. Qed.
Theorem C57_op_mulm : forall T (Op : Ops T) w, (eq ==> same_mat_shape w ==> same_mat_shape w ==> respects (T := T) w (same_mat_shape w))%signature op_mulm op_mulm.
Proof. local_by @sim_op_mulm. Qed.
Theorem C57_addm : forall T (Op : Ops T) w, (eq ==> same_mat_shape w ==> same_mat_shape w ==> same_mat_shape w ==> respects (T := T) w (same_mat_shape w))%signature addm addm.
Proof. local_by @sim_addm. Qed.
Theorem C57_op_addm : forall T (Op : Ops T) w, (eq ==> same_mat_shape w ==> same_mat_shape w ==> respects (T := T) w (same_mat_shape w))%signature op_addm op_addm.
Proof. local_by @sim_op_addm. Qed.
Theorem C57_subm : forall T (Op : Ops T) w, (eq ==> same_mat_shape w ==> same_mat_shape w ==> same_mat_shape w ==> respects (T := T) w (same_mat_shape w))%signature subm subm.
Proof. local_by @sim_subm. Qed.
Theorem C57_op_subm : forall T (Op : Ops T) w, (eq ==> same_mat_shape w ==> same_mat_shape w ==> respects (T := T) w (same_mat_shape w))%signature op_subm op_subm.
Proof. local_by @sim_op_subm. Qed.
Theorem C57_scalem : forall T (Op : Ops T) w, (eq ==> same_mat_shape w ==> respects (T := T) w (same_mat_shape w))%signature scalem scalem.
Proof. local_by @sim_scalem. Qed.
Theorem C57_op_scalem : forall T (Op : Ops T) w, (eq ==> same_mat_shape w ==> respects (T := T) w (same_mat_shape w))%signature op_scalem op_scalem.
Proof. local_by @sim_op_scalem. Qed.
Theorem C57_op_negm : forall T (Op : Ops T) w, (same_mat_shape w ==> respects (T := T) w (same_mat_shape w))%signature op_negm op_negm.
Proof. local_by @sim_op_negm. Qed.
Theorem C57_invert2 : forall T (Op : Ops T) w, (same_mat_shape w ==> same_mat_shape w ==> respects (T := T) w (same_mat_shape w))%signature invert2 invert2.
Proof. local_by @sim_invert2. Qed.
Theorem C57_invert2_inplace : forall T (Op : Ops T) w, (same_mat_shape w ==> respects (T := T) w (same_mat_shape w))%signature invert2_inplace invert2_inplace.
Proof. local_by @sim_invert2_inplace. Qed.
Theorem C57_inverted2 : forall T (Op : Ops T) w, (same_mat_shape w ==> respects (T := T) w (same_mat_shape w))%signature inverted2 inverted2.
Proof. local_by @sim_inverted2. Qed.
Theorem C57_back_sub : forall T (Op : Ops T) w, (eq ==> paired w ==> respects (T := T) w (eq))%signature back_sub back_sub.
Proof. local_by @sim_back_sub. Qed.
Theorem C57_sp_mul : forall T (Op : Ops T) w, (eq ==> eq ==> eq ==> paired w ==> eq ==> paired w ==> respects (T := T) w (paired w))%signature sp_mul sp_mul.
Proof. local_by @sim_sp_mul. Qed.
Theorem C57_sp_op_mul : forall T (Op : Ops T) w, (eq ==> eq ==> paired w ==> respects (T := T) w (paired w))%signature sp_op_mul sp_op_mul.
Proof. local_by @sim_sp_op_mul. Qed.
Theorem C57_tridiag_solve_vec : forall T (Op : Ops T) w, (eq ==> eq ==> paired w ==> paired w ==> respects (T := T) w (paired w))%signature tridiag_solve_vec tridiag_solve_vec.
Proof. local_by @sim_tridiag_solve_vec. Qed.
Theorem C57_tridiag_solve_mat : forall T (Op : Ops T) w, (eq ==> eq ==> same_mat_shape w ==> same_mat_shape w ==> respects (T := T) w (same_mat_shape w))%signature tridiag_solve_mat tridiag_solve_mat.
Proof. local_by @sim_tridiag_solve_mat. Qed.
Theorem C57_tri_cholesky : forall T (Op : Ops T) w, (eq ==> respects (T := T) w (same_chol w))%signature tri_cholesky tri_cholesky.
Proof. local_by @sim_tri_cholesky. Qed.
Theorem C57_dyn_cholesky : forall T (Op : Ops T) w, (same_mat_shape w ==> respects (T := T) w (same_chol w))%signature dyn_cholesky dyn_cholesky.
Proof. local_by @sim_dyn_cholesky. Qed.
Theorem C57_mod_cholesky : forall T (Op : Ops T) w, (same_mat_shape w ==> respects (T := T) w (same_chol w))%signature mod_cholesky mod_cholesky.
Proof. local_by @sim_mod_cholesky. Qed.
Theorem C57_lower_mat : forall T (Op : Ops T) w, (same_chol w ==> respects (T := T) w (eq))%signature lower_mat lower_mat.
Proof. local_by @sim_lower_mat. Qed.
Theorem C57_chol_solve_mut_vec : forall T (Op : Ops T) w, (eq ==> same_chol w ==> paired w ==> respects (T := T) w (paired w))%signature chol_solve_mut_vec chol_solve_mut_vec.
Proof. local_by @sim_chol_solve_mut_vec. Qed.
Theorem C57_chol_solve_vec : forall T (Op : Ops T) w, (eq ==> same_chol w ==> paired w ==> respects (T := T) w (paired w))%signature chol_solve_vec chol_solve_vec.
Proof. local_by @sim_chol_solve_vec. Qed.
Theorem C57_chol_solve_mut_mat : forall T (Op : Ops T) w, (eq ==> same_chol w ==> same_mat_shape w ==> respects (T := T) w (same_mat_shape w))%signature chol_solve_mut_mat chol_solve_mut_mat.
Proof. local_by @sim_chol_solve_mut_mat. Qed.
Theorem C57_chol_solve_mat : forall T (Op : Ops T) w, (eq ==> same_chol w ==> same_mat_shape w ==> respects (T := T) w (same_mat_shape w))%signature chol_solve_mat chol_solve_mat.
Proof. local_by @sim_chol_solve_mat. Qed.
Theorem C57_mod_solve_mut_vec : forall T (Op : Ops T) w, (eq ==> same_chol w ==> paired w ==> respects (T := T) w (paired w))%signature mod_solve_mut_vec mod_solve_mut_vec.
Proof. local_by @sim_mod_solve_mut_vec. Qed.
Theorem C57_mod_solve_vec : forall T (Op : Ops T) w, (eq ==> same_chol w ==> paired w ==> respects (T := T) w (paired w))%signature mod_solve_vec mod_solve_vec.
Proof. local_by @sim_mod_solve_vec. Qed.
Theorem C57_mod_solve_mut_mat : forall T (Op : Ops T) w, (eq ==> same_chol w ==> same_mat_shape w ==> respects (T := T) w (same_mat_shape w))%signature mod_solve_mut_mat mod_solve_mut_mat.
Proof. local_by @sim_mod_solve_mut_mat. Qed.
Theorem C57_mod_solve_mat : forall T (Op : Ops T) w, (eq ==> same_chol w ==> same_mat_shape w ==> respects (T := T) w (same_mat_shape w))%signature mod_solve_mat mod_solve_mat.
Proof. local_by @sim_mod_solve_mat. Qed.
Theorem C57_cgs : forall T (Op : Ops T) w, (eq ==> Forall2 (paired w) ==> respects (T := T) w (eq))%signature cgs cgs.
Proof. local_by @sim_cgs. Qed.
Theorem C57_ilu_dyn : forall T (Op : Ops T) w, (same_mat_shape w ==> respects (T := T) w (same_mat_shape w))%signature ilu_dyn ilu_dyn.
Proof. local_by @sim_ilu_dyn. Qed.
Theorem C57_ilu_dyn_solve : forall T (Op : Ops T) w, (same_mat_shape w ==> paired w ==> respects (T := T) w (paired w))%signature ilu_dyn_solve ilu_dyn_solve.
Proof. local_by @sim_ilu_dyn_solve. Qed.
Theorem C57_ilu_csr_solve : forall T (Op : Ops T) w, (eq ==> paired w ==> respects (T := T) w (paired w))%signature ilu_csr_solve ilu_csr_solve.
Proof. local_by @sim_ilu_csr_solve. Qed.
Theorem C57_gmres_dyn_new : forall T (Op : Ops T) w, (same_mat_shape w ==> respects (T := T) w (same_pair w))%signature gmres_dyn_new gmres_dyn_new.
Proof. local_by @sim_gmres_dyn_new. Qed.
Theorem C57_gmres_dyn_solve : forall T (Op : Ops T) w, (eq ==> eq ==> same_pair w ==> eq ==> paired w ==> respects (T := T) w (paired w))%signature gmres_dyn_solve gmres_dyn_solve.
Proof. local_by @sim_gmres_dyn_solve. Qed.
Theorem C57_gmres_csr_solve : forall T (Op : Ops T) w, (eq ==> eq ==> eq ==> eq ==> paired w ==> respects (T := T) w (paired w))%signature gmres_csr_solve gmres_csr_solve.
Proof. local_by @sim_gmres_csr_solve. Qed.

(** ** Calling again later

    A call repeated in any later memory that still holds the same elements in all objects that
    existed at the first call ends in the same way, with corresponding results. *)
Lemma later_corresponds T (h h' : heap T) : clean h -> clean h' -> ext h h' -> corresponds (later h h') h h'.
Proof.
  intros C C' (L & E). split; cbn; auto.
  - intros p q (-> & Lp). lia.
  - intros p q (-> & Lp). symmetry. auto.
  - intros p q q' (-> & _) (-> & _). reflexivity.
  - intros p p' q (-> & _) (-> & _). reflexivity.
Qed.

Theorem C57_later : forall T A B (V : A -> B -> Prop) (m1 : M (heap T) A) (m2 : M (heap T) B) h h',
  respects (later h h') V m1 m2 -> clean h -> clean h' -> ext h h' ->
  same_ending V (later h h') h h' (m1 h) (m2 h').
Proof. intros. now apply H, later_corresponds. Qed.

Lemma clean_heap_of T (l : list (list T)) : clean (heap_of l).
Proof. intros p L. cbn in *. apply nth_overflow. auto. Qed.

(** Example: [y += a x] in two memories that differ in everything but the two vectors. *)
Example C57_example :
  let h1 := heap_of [[1%Z; 2%Z]; [3%Z; 4%Z]] in
  let h2 := heap_of [[9%Z]; [3%Z; 4%Z]; []; [1%Z; 2%Z]] in
  let w := mkPairing (fun p q => (p = 0 /\ q = 3) \/ (p = 1 /\ q = 1)) 2 4 in
  corresponds w h1 h2 /\ paired w 0 3 /\ paired w 1 1 /\
  exists h1' h2', axpy_d 10%Z 0 1 h1 = Ok 1 h1' /\ axpy_d 10%Z 3 1 h2 = Ok 1 h2' /\ mem h1' 1 = [13; 24]%Z /\ mem h2' 1 = [13; 24]%Z.
Proof.
  intros h1 h2 w. split; [|split; [|split]].
  - split; cbn; auto.
    + apply clean_heap_of.
    + apply clean_heap_of.
    + intros p q [(-> & ->)|(-> & ->)]; lia.
    + intros p q [(-> & ->)|(-> & ->)]; reflexivity.
    + intros p q q' [(-> & ->)|(-> & ->)] [(E & ->)|(E & ->)]; auto; discriminate E.
    + intros p p' q [(-> & ->)|(-> & ->)] [(-> & E)|(-> & E)]; auto; discriminate E.
  - left. cbn. auto.
  - left. cbn. auto.
  - do 2 eexists. split; [vm_compute; reflexivity|]. split; [vm_compute; reflexivity|]. split; reflexivity.
Qed.

(** The hypotheses of [C57_later] are met by a memory and any extension of it, e.g.: *)
Example C57_later_example : let h := heap_of [[1%Z; 2%Z]; [3%Z; 4%Z]] in let h' := heap_of [[1%Z; 2%Z]; [3%Z; 4%Z]; [5%Z]] in
  clean h /\ clean h' /\ ext h h' /\ respects (later h h') (paired (later h h')) (op_add_d 0 1) (op_add_d 0 1).
Proof.
  intros h h'. repeat split.
  - apply clean_heap_of.
  - apply clean_heap_of.
  - cbn. lia.
  - intros q L. cbn in L. destruct q as [|[|q]]; auto; lia.
  - apply C57_op_add_d; left; cbn; lia.
Qed.

Print Assumptions C57_gmres_dyn_solve.
Print Assumptions C57_later.
