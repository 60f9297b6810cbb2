(** * C89: the library treats element types uniformly (theorem statements)

    Run an operation on two element types related as in SpecParam.v, on corresponding arguments and
    memories: the outcome is the same (result, exception, termination, undefined behaviour), results
    and memories correspond.  One theorem per operation. *)
From Coq Require Import FunctionalExtensionality.
From Verif Require Import Base Scalar BaseLemmas ModelVec ModelMat ModelPacked ModelSparse ModelSolvers ModelIter SpecParam ProofParam SpecFma.
Local Open Scope nat_scope.

Ltac like_by l := intros; eapply l; eauto.

Theorem C89_neg_s : forall T1 T2 (O1 : Ops T1) (O2 : Ops T2) R, Like O1 O2 R -> forall (N : nat) (v : ptr) (vr : ptr), alike (like_heap R) eq (neg_s N v vr) (neg_s N v vr).
Proof. like_by @al_neg_s. Qed.
Theorem C89_neg_d : forall T1 T2 (O1 : Ops T1) (O2 : Ops T2) R, Like O1 O2 R -> forall (v : ptr) (vr : ptr), alike (like_heap R) eq (neg_d v vr) (neg_d v vr).
Proof. like_by @al_neg_d. Qed.
Theorem C89_op_neg_s : forall T1 T2 (O1 : Ops T1) (O2 : Ops T2) R, Like O1 O2 R -> forall (N : nat) (v : ptr), alike (like_heap R) eq (op_neg_s N v) (op_neg_s N v).
Proof. like_by @al_op_neg_s. Qed.
Theorem C89_op_neg_d : forall T1 T2 (O1 : Ops T1) (O2 : Ops T2) R, Like O1 O2 R -> forall (v : ptr), alike (like_heap R) eq (op_neg_d v) (op_neg_d v).
Proof. like_by @al_op_neg_d. Qed.
Theorem C89_add_s : forall T1 T2 (O1 : Ops T1) (O2 : Ops T2) R, Like O1 O2 R -> forall (N : nat) (v1 : ptr) (v2 : ptr) (vr : ptr), alike (like_heap R) eq (add_s N v1 v2 vr) (add_s N v1 v2 vr).
Proof. like_by @al_add_s. Qed.
Theorem C89_add_sd : forall T1 T2 (O1 : Ops T1) (O2 : Ops T2) R, Like O1 O2 R -> forall (N : nat) (v1 : ptr) (v2 : ptr) (vr : ptr), alike (like_heap R) eq (add_sd N v1 v2 vr) (add_sd N v1 v2 vr).
Proof. like_by @al_add_sd. Qed.
Theorem C89_add_ds : forall T1 T2 (O1 : Ops T1) (O2 : Ops T2) R, Like O1 O2 R -> forall (N : nat) (v1 : ptr) (v2 : ptr) (vr : ptr), alike (like_heap R) eq (add_ds N v1 v2 vr) (add_ds N v1 v2 vr).
Proof. like_by @al_add_ds. Qed.
Theorem C89_add_d : forall T1 T2 (O1 : Ops T1) (O2 : Ops T2) R, Like O1 O2 R -> forall (v1 : ptr) (v2 : ptr) (vr : ptr), alike (like_heap R) eq (add_d v1 v2 vr) (add_d v1 v2 vr).
Proof. like_by @al_add_d. Qed.
Theorem C89_op_add_s : forall T1 T2 (O1 : Ops T1) (O2 : Ops T2) R, Like O1 O2 R -> forall (N : nat) (v1 : ptr) (v2 : ptr), alike (like_heap R) eq (op_add_s N v1 v2) (op_add_s N v1 v2).
Proof. like_by @al_op_add_s. Qed.
Theorem C89_op_add_d : forall T1 T2 (O1 : Ops T1) (O2 : Ops T2) R, Like O1 O2 R -> forall (v1 : ptr) (v2 : ptr), alike (like_heap R) eq (op_add_d v1 v2) (op_add_d v1 v2).
Proof. like_by @al_op_add_d. Qed.
Theorem C89_sub_s : forall T1 T2 (O1 : Ops T1) (O2 : Ops T2) R, Like O1 O2 R -> forall (N : nat) (v1 : ptr) (v2 : ptr) (vr : ptr), alike (like_heap R) eq (sub_s N v1 v2 vr) (sub_s N v1 v2 vr).
Proof. like_by @al_sub_s. Qed.
Theorem C89_sub_ds : forall T1 T2 (O1 : Ops T1) (O2 : Ops T2) R, Like O1 O2 R -> forall (N : nat) (v1 : ptr) (v2 : ptr) (vr : ptr), alike (like_heap R) eq (sub_ds N v1 v2 vr) (sub_ds N v1 v2 vr).
Proof. like_by @al_sub_ds. Qed.
Theorem C89_sub_d : forall T1 T2 (O1 : Ops T1) (O2 : Ops T2) R, Like O1 O2 R -> forall (v1 : ptr) (v2 : ptr) (vr : ptr), alike (like_heap R) eq (sub_d v1 v2 vr) (sub_d v1 v2 vr).
Proof. like_by @al_sub_d. Qed.
Theorem C89_op_sub_s : forall T1 T2 (O1 : Ops T1) (O2 : Ops T2) R, Like O1 O2 R -> forall (N : nat) (v1 : ptr) (v2 : ptr), alike (like_heap R) eq (op_sub_s N v1 v2) (op_sub_s N v1 v2).
Proof. like_by @al_op_sub_s. Qed.
Theorem C89_op_sub_d : forall T1 T2 (O1 : Ops T1) (O2 : Ops T2) R, Like O1 O2 R -> forall (v1 : ptr) (v2 : ptr), alike (like_heap R) eq (op_sub_d v1 v2) (op_sub_d v1 v2).
Proof. like_by @al_op_sub_d. Qed.
Theorem C89_axpy_s : forall T1 T2 (O1 : Ops T1) (O2 : Ops T2) R, Like O1 O2 R -> forall (N : nat) (alpha1 : T1) (alpha2 : T2) (x : ptr) (y : ptr), R alpha1 alpha2 -> alike (like_heap R) eq (axpy_s N alpha1 x y) (axpy_s N alpha2 x y).
Proof. like_by @al_axpy_s. Qed.
Theorem C89_axpy_d : forall T1 T2 (O1 : Ops T1) (O2 : Ops T2) R, Like O1 O2 R -> forall (alpha1 : T1) (alpha2 : T2) (x : ptr) (y : ptr), R alpha1 alpha2 -> alike (like_heap R) eq (axpy_d alpha1 x y) (axpy_d alpha2 x y).
Proof. like_by @al_axpy_d. Qed.
Theorem C89_scale_s : forall T1 T2 (O1 : Ops T1) (O2 : Ops T2) R, Like O1 O2 R -> forall (N : nat) (alpha1 : T1) (alpha2 : T2) (x : ptr), R alpha1 alpha2 -> alike (like_heap R) eq (scale_s N alpha1 x) (scale_s N alpha2 x).
Proof. like_by @al_scale_s. Qed.
Theorem C89_scale_d : forall T1 T2 (O1 : Ops T1) (O2 : Ops T2) R, Like O1 O2 R -> forall (alpha1 : T1) (alpha2 : T2) (x : ptr), R alpha1 alpha2 -> alike (like_heap R) eq (scale_d alpha1 x) (scale_d alpha2 x).
Proof. like_by @al_scale_d. Qed.
Theorem C89_op_scale_s : forall T1 T2 (O1 : Ops T1) (O2 : Ops T2) R, Like O1 O2 R -> forall (N : nat) (alpha1 : T1) (alpha2 : T2) (x : ptr), R alpha1 alpha2 -> alike (like_heap R) eq (op_scale_s N alpha1 x) (op_scale_s N alpha2 x).
Proof. like_by @al_op_scale_s. Qed.
Theorem C89_op_scale_d : forall T1 T2 (O1 : Ops T1) (O2 : Ops T2) R, Like O1 O2 R -> forall (alpha1 : T1) (alpha2 : T2) (x : ptr), R alpha1 alpha2 -> alike (like_heap R) eq (op_scale_d alpha1 x) (op_scale_d alpha2 x).
Proof. like_by @al_op_scale_d. Qed.
Theorem C89_scaled_s : forall T1 T2 (O1 : Ops T1) (O2 : Ops T2) R, Like O1 O2 R -> forall (N : nat) (alpha1 : T1) (alpha2 : T2) (x : ptr), R alpha1 alpha2 -> alike (like_heap R) eq (scaled_s N alpha1 x) (scaled_s N alpha2 x).
Proof. like_by @al_scaled_s. Qed.
Theorem C89_scaled_d : forall T1 T2 (O1 : Ops T1) (O2 : Ops T2) R, Like O1 O2 R -> forall (alpha1 : T1) (alpha2 : T2) (x : ptr), R alpha1 alpha2 -> alike (like_heap R) eq (scaled_d alpha1 x) (scaled_d alpha2 x).
Proof. like_by @al_scaled_d. Qed.
Theorem C89_op_div_s : forall T1 T2 (O1 : Ops T1) (O2 : Ops T2) R, Like O1 O2 R -> forall (N : nat) (x : ptr) (alpha1 : T1) (alpha2 : T2), R alpha1 alpha2 -> alike (like_heap R) eq (op_div_s N x alpha1) (op_div_s N x alpha2).
Proof. like_by @al_op_div_s. Qed.
Theorem C89_op_div_d : forall T1 T2 (O1 : Ops T1) (O2 : Ops T2) R, Like O1 O2 R -> forall (x : ptr) (alpha1 : T1) (alpha2 : T2), R alpha1 alpha2 -> alike (like_heap R) eq (op_div_d x alpha1) (op_div_d x alpha2).
Proof. like_by @al_op_div_d. Qed.
Theorem C89_dot_s : forall T1 T2 (O1 : Ops T1) (O2 : Ops T2) R, Like O1 O2 R -> forall (N : nat) (x : ptr) (y : ptr), alike (like_heap R) R (dot_s N x y) (dot_s N x y).
Proof. like_by @al_dot_s. Qed.
Theorem C89_dot_sd : forall T1 T2 (O1 : Ops T1) (O2 : Ops T2) R, Like O1 O2 R -> forall (N : nat) (x : ptr) (y : ptr), alike (like_heap R) R (dot_sd N x y) (dot_sd N x y).
Proof. like_by @al_dot_sd. Qed.
Theorem C89_dot_d : forall T1 T2 (O1 : Ops T1) (O2 : Ops T2) R, Like O1 O2 R -> forall (x : ptr) (y : ptr), alike (like_heap R) R (dot_d x y) (dot_d x y).
Proof. like_by @al_dot_d. Qed.
Theorem C89_dot_member_d : forall T1 T2 (O1 : Ops T1) (O2 : Ops T2) R, Like O1 O2 R -> forall (x : ptr) (y : ptr), alike (like_heap R) R (dot_member_d x y) (dot_member_d x y).
Proof. like_by @al_dot_member_d. Qed.
Theorem C89_dot_member_ds : forall T1 T2 (O1 : Ops T1) (O2 : Ops T2) R, Like O1 O2 R -> forall (N : nat) (x : ptr) (y : ptr), alike (like_heap R) R (dot_member_ds N x y) (dot_member_ds N x y).
Proof. like_by @al_dot_member_ds. Qed.
Theorem C89_norm2_d : forall T1 T2 (O1 : Ops T1) (O2 : Ops T2) R, Like O1 O2 R -> forall (x : ptr), alike (like_heap R) R (norm2_d x) (norm2_d x).
Proof. like_by @al_norm2_d. Qed.
Theorem C89_norm2_s : forall T1 T2 (O1 : Ops T1) (O2 : Ops T2) R, Like O1 O2 R -> forall (N : nat) (x : ptr), alike (like_heap R) R (norm2_s N x) (norm2_s N x).
Proof. like_by @al_norm2_s. Qed.
Theorem C89_cross2 : forall T1 T2 (O1 : Ops T1) (O2 : Ops T2) R, Like O1 O2 R -> forall (dbg : bool) (dx : bool) (dy : bool) (x : ptr) (y : ptr), alike (like_heap R) R (cross2 dbg dx dy x y) (cross2 dbg dx dy x y).
Proof. like_by @al_cross2. Qed.
Theorem C89_cross3 : forall T1 T2 (O1 : Ops T1) (O2 : Ops T2) R, Like O1 O2 R -> forall (dbg : bool) (dx : bool) (dy : bool) (dr : bool) (x : ptr) (y : ptr) (vr : ptr), alike (like_heap R) eq (cross3 dbg dx dy dr x y vr) (cross3 dbg dx dy dr x y vr).
Proof. like_by @al_cross3. Qed.
Theorem C89_cross3_new : forall T1 T2 (O1 : Ops T1) (O2 : Ops T2) R, Like O1 O2 R -> forall (dbg : bool) (dx : bool) (dy : bool) (x : ptr) (y : ptr), alike (like_heap R) eq (cross3_new dbg dx dy x y) (cross3_new dbg dx dy x y).
Proof. like_by @al_cross3_new. Qed.
Theorem C89_cross3_acc : forall T1 T2 (O1 : Ops T1) (O2 : Ops T2) R, Like O1 O2 R -> forall (dbg : bool) (dx : bool) (dy : bool) (dr : bool) (x : ptr) (y : ptr) (vr : ptr), alike (like_heap R) eq (cross3_acc dbg dx dy dr x y vr) (cross3_acc dbg dx dy dr x y vr).
Proof. like_by @al_cross3_acc. Qed.
Theorem C89_dynvec_uninit : forall T1 T2 (O1 : Ops T1) (O2 : Ops T2) R, Like O1 O2 R -> forall (n : nat), alike (like_heap R) eq (dynvec_uninit n) (dynvec_uninit n).
Proof. like_by @al_dynvec_uninit. Qed.
Theorem C89_dynvec_filled : forall T1 T2 (O1 : Ops T1) (O2 : Ops T2) R, Like O1 O2 R -> forall (count : nat) (value1 : T1) (value2 : T2), R value1 value2 -> alike (like_heap R) eq (dynvec_filled count value1) (dynvec_filled count value2).
Proof. like_by @al_dynvec_filled. Qed.
Theorem C89_dynvec_of : forall T1 T2 (O1 : Ops T1) (O2 : Ops T2) R, Like O1 O2 R -> forall (l1 : list T1) (l2 : list T2), Forall2 R l1 l2 -> alike (like_heap R) eq (dynvec_of l1) (dynvec_of l2).
Proof. like_by @al_dynvec_of. Qed.
Theorem C89_vec_copy : forall T1 T2 (O1 : Ops T1) (O2 : Ops T2) R, Like O1 O2 R -> forall (v : ptr), alike (like_heap R) eq (vec_copy v) (vec_copy v).
Proof. like_by @al_vec_copy. Qed.
Theorem C89_vec_assign : forall T1 T2 (O1 : Ops T1) (O2 : Ops T2) R, Like O1 O2 R -> forall (dst : ptr) (src : ptr), alike (like_heap R) eq (vec_assign dst src) (vec_assign dst src).
Proof. like_by @al_vec_assign. Qed.
Theorem C89_dynvec_move : forall T1 T2 (O1 : Ops T1) (O2 : Ops T2) R, Like O1 O2 R -> forall (src : ptr), alike (like_heap R) eq (dynvec_move src) (dynvec_move src).
Proof. like_by @al_dynvec_move. Qed.
Theorem C89_dynvec_move_assign : forall T1 T2 (O1 : Ops T1) (O2 : Ops T2) R, Like O1 O2 R -> forall (left1 : list T1) (left2 : list T2) (dst : ptr) (src : ptr), Forall2 R left1 left2 -> alike (like_heap R) eq (dynvec_move_assign left1 dst src) (dynvec_move_assign left2 dst src).
Proof. like_by @al_dynvec_move_assign. Qed.
Theorem C89_sizedvec_of : forall T1 T2 (O1 : Ops T1) (O2 : Ops T2) R, Like O1 O2 R -> forall (N : nat) (l1 : list T1) (l2 : list T2), Forall2 R l1 l2 -> alike (like_heap R) eq (sizedvec_of N l1) (sizedvec_of N l2).
Proof. like_by @al_sizedvec_of. Qed.
Theorem C89_sizedvec_uninit : forall T1 T2 (O1 : Ops T1) (O2 : Ops T2) R, Like O1 O2 R -> forall (N : nat), alike (like_heap R) eq (sizedvec_uninit N) (sizedvec_uninit N).
Proof. like_by @al_sizedvec_uninit. Qed.
Theorem C89_sizedvec_filled : forall T1 T2 (O1 : Ops T1) (O2 : Ops T2) R, Like O1 O2 R -> forall (N : nat) (value1 : T1) (value2 : T2), R value1 value2 -> alike (like_heap R) eq (sizedvec_filled N value1) (sizedvec_filled N value2).
Proof. like_by @al_sizedvec_filled. Qed.
Theorem C89_vec_get : forall T1 T2 (O1 : Ops T1) (O2 : Ops T2) R, Like O1 O2 R -> forall (v : ptr) (i : nat), alike (like_heap R) R (vec_get v i) (vec_get v i).
Proof. like_by @al_vec_get. Qed.
Theorem C89_vec_put : forall T1 T2 (O1 : Ops T1) (O2 : Ops T2) R, Like O1 O2 R -> forall (v : ptr) (i : nat) (x1 : T1) (x2 : T2), R x1 x2 -> alike (like_heap R) eq (vec_put v i x1) (vec_put v i x2).
Proof. like_by @al_vec_put. Qed.
Theorem C89_dynmat_of : forall T1 T2 (O1 : Ops T1) (O2 : Ops T2) R, Like O1 O2 R -> forall (n : nat) (m : nat) (arr1 : list T1) (arr2 : list T2), Forall2 R arr1 arr2 -> alike (like_heap R) eq (dynmat_of n m arr1) (dynmat_of n m arr2).
Proof. like_by @al_dynmat_of. Qed.
Theorem C89_sizedmat_of : forall T1 T2 (O1 : Ops T1) (O2 : Ops T2) R, Like O1 O2 R -> forall (N : nat) (M' : nat) (arr1 : list T1) (arr2 : list T2), Forall2 R arr1 arr2 -> alike (like_heap R) eq (sizedmat_of N M' arr1) (sizedmat_of N M' arr2).
Proof. like_by @al_sizedmat_of. Qed.
Theorem C89_mat_uninit : forall T1 T2 (O1 : Ops T1) (O2 : Ops T2) R, Like O1 O2 R -> forall (n : nat) (m : nat), alike (like_heap R) eq (mat_uninit n m) (mat_uninit n m).
Proof. like_by @al_mat_uninit. Qed.
Theorem C89_mat_get : forall T1 T2 (O1 : Ops T1) (O2 : Ops T2) R, Like O1 O2 R -> forall (A : mat) (i : nat) (j : nat), alike (like_heap R) R (mat_get A i j) (mat_get A i j).
Proof. like_by @al_mat_get. Qed.
Theorem C89_mat_put : forall T1 T2 (O1 : Ops T1) (O2 : Ops T2) R, Like O1 O2 R -> forall (A : mat) (i : nat) (j : nat) (x1 : T1) (x2 : T2), R x1 x2 -> alike (like_heap R) eq (mat_put A i j x1) (mat_put A i j x2).
Proof. like_by @al_mat_put. Qed.
Theorem C89_mat_at : forall T1 T2 (O1 : Ops T1) (O2 : Ops T2) R, Like O1 O2 R -> forall (A : mat) (i : nat) (j : nat), alike (like_heap R) R (mat_at A i j) (mat_at A i j).
Proof. like_by @al_mat_at. Qed.
Theorem C89_mat_mut_at : forall T1 T2 (O1 : Ops T1) (O2 : Ops T2) R, Like O1 O2 R -> forall (A : mat) (i : nat) (j : nat) (x1 : T1) (x2 : T2), R x1 x2 -> alike (like_heap R) eq (mat_mut_at A i j x1) (mat_mut_at A i j x2).
Proof. like_by @al_mat_mut_at. Qed.
Theorem C89_mat_filled : forall T1 T2 (O1 : Ops T1) (O2 : Ops T2) R, Like O1 O2 R -> forall (value1 : T1) (value2 : T2) (n : nat) (m : nat), R value1 value2 -> alike (like_heap R) eq (mat_filled value1 n m) (mat_filled value2 n m).
Proof. like_by @al_mat_filled. Qed.
Theorem C89_mat_diag_list : forall T1 T2 (O1 : Ops T1) (O2 : Ops T2) R, Like O1 O2 R -> forall (value1 : list T1) (value2 : list T2), Forall2 R value1 value2 -> alike (like_heap R) eq (mat_diag_list value1) (mat_diag_list value2).
Proof. like_by @al_mat_diag_list. Qed.
Theorem C89_mat_diag : forall T1 T2 (O1 : Ops T1) (O2 : Ops T2) R, Like O1 O2 R -> forall (value1 : T1) (value2 : T2) (n : nat), R value1 value2 -> alike (like_heap R) eq (mat_diag value1 n) (mat_diag value2 n).
Proof. like_by @al_mat_diag. Qed.
Theorem C89_mat_identity : forall T1 T2 (O1 : Ops T1) (O2 : Ops T2) R, Like O1 O2 R -> forall (n : nat), alike (like_heap R) eq (mat_identity n) (mat_identity n).
Proof. like_by @al_mat_identity. Qed.
Theorem C89_mat_copy : forall T1 T2 (O1 : Ops T1) (O2 : Ops T2) R, Like O1 O2 R -> forall (A : mat), alike (like_heap R) eq (mat_copy A) (mat_copy A).
Proof. like_by @al_mat_copy. Qed.
Theorem C89_mat_assign : forall T1 T2 (O1 : Ops T1) (O2 : Ops T2) R, Like O1 O2 R -> forall (dst : mat) (src : mat), alike (like_heap R) eq (mat_assign dst src) (mat_assign dst src).
Proof. like_by @al_mat_assign. Qed.
Theorem C89_mulv : forall T1 T2 (O1 : Ops T1) (O2 : Ops T2) R, Like O1 O2 R -> forall (dbg : bool) (alpha1 : T1) (alpha2 : T2) (A : mat) (v : ptr) (beta1 : T1) (beta2 : T2) (vr : ptr), R alpha1 alpha2 -> R beta1 beta2 -> alike (like_heap R) eq (mulv dbg alpha1 A v beta1 vr) (mulv dbg alpha2 A v beta2 vr).
Proof. like_by @al_mulv. Qed.
Theorem C89_op_mulv : forall T1 T2 (O1 : Ops T1) (O2 : Ops T2) R, Like O1 O2 R -> forall (dbg : bool) (A : mat) (v : ptr), alike (like_heap R) eq (op_mulv dbg A v) (op_mulv dbg A v).
Proof. like_by @al_op_mulv. Qed.
Theorem C89_mulm : forall T1 T2 (O1 : Ops T1) (O2 : Ops T2) R, Like O1 O2 R -> forall (dbg : bool) (alpha1 : T1) (alpha2 : T2) (A : mat) (B : mat) (beta1 : T1) (beta2 : T2) (C : mat), R alpha1 alpha2 -> R beta1 beta2 -> alike (like_heap R) eq (mulm dbg alpha1 A B beta1 C) (mulm dbg alpha2 A B beta2 C).
Proof. like_by @al_mulm. Qed.
Theorem C89_op_mulm : forall T1 T2 (O1 : Ops T1) (O2 : Ops T2) R, Like O1 O2 R -> forall (dbg : bool) (A : mat) (B : mat), alike (like_heap R) eq (op_mulm dbg A B) (op_mulm dbg A B).
Proof. like_by @al_op_mulm. Qed.
Theorem C89_addm : forall T1 T2 (O1 : Ops T1) (O2 : Ops T2) R, Like O1 O2 R -> forall (dbg : bool) (A : mat) (B : mat) (C : mat), alike (like_heap R) eq (addm dbg A B C) (addm dbg A B C).
Proof. like_by @al_addm. Qed.
Theorem C89_op_addm : forall T1 T2 (O1 : Ops T1) (O2 : Ops T2) R, Like O1 O2 R -> forall (dbg : bool) (A : mat) (B : mat), alike (like_heap R) eq (op_addm dbg A B) (op_addm dbg A B).
Proof. like_by @al_op_addm. Qed.
Theorem C89_subm : forall T1 T2 (O1 : Ops T1) (O2 : Ops T2) R, Like O1 O2 R -> forall (dbg : bool) (A : mat) (B : mat) (C : mat), alike (like_heap R) eq (subm dbg A B C) (subm dbg A B C).
Proof. like_by @al_subm. Qed.
Theorem C89_op_subm : forall T1 T2 (O1 : Ops T1) (O2 : Ops T2) R, Like O1 O2 R -> forall (dbg : bool) (A : mat) (B : mat), alike (like_heap R) eq (op_subm dbg A B) (op_subm dbg A B).
Proof. like_by @al_op_subm. Qed.
Theorem C89_scalem : forall T1 T2 (O1 : Ops T1) (O2 : Ops T2) R, Like O1 O2 R -> forall (alpha1 : T1) (alpha2 : T2) (A : mat), R alpha1 alpha2 -> alike (like_heap R) eq (scalem alpha1 A) (scalem alpha2 A).
Proof. like_by @al_scalem. Qed.
Theorem C89_op_scalem : forall T1 T2 (O1 : Ops T1) (O2 : Ops T2) R, Like O1 O2 R -> forall (alpha1 : T1) (alpha2 : T2) (A : mat), R alpha1 alpha2 -> alike (like_heap R) eq (op_scalem alpha1 A) (op_scalem alpha2 A).
Proof. like_by @al_op_scalem. Qed.
Theorem C89_op_negm : forall T1 T2 (O1 : Ops T1) (O2 : Ops T2) R, Like O1 O2 R -> forall (A : mat), alike (like_heap R) eq (op_negm A) (op_negm A).
Proof. like_by @al_op_negm. Qed.
Theorem C89_invert2 : forall T1 T2 (O1 : Ops T1) (O2 : Ops T2) R, Like O1 O2 R -> forall (A : mat) (B : mat), alike (like_heap R) eq (invert2 A B) (invert2 A B).
Proof. like_by @al_invert2. Qed.
Theorem C89_invert2_inplace : forall T1 T2 (O1 : Ops T1) (O2 : Ops T2) R, Like O1 O2 R -> forall (A : mat), alike (like_heap R) eq (invert2_inplace A) (invert2_inplace A).
Proof. like_by @al_invert2_inplace. Qed.
Theorem C89_inverted2 : forall T1 T2 (O1 : Ops T1) (O2 : Ops T2) R, Like O1 O2 R -> forall (A : mat), alike (like_heap R) eq (inverted2 A) (inverted2 A).
Proof. like_by @al_inverted2. Qed.
Theorem C89_tri_get : forall T1 T2 (O1 : Ops T1) (O2 : Ops T2) R, Like O1 O2 R -> forall S1 S2 (SR : S1 -> S2 -> Prop) (t1 : tri T1) (t2 : tri T2) (i : nat) (j : nat), like_tri R t1 t2 -> alike SR R (tri_get t1 i j) (tri_get t2 i j).
Proof. like_by @al_tri_get. Qed.
Theorem C89_tri_get_mut : forall T1 T2 (O1 : Ops T1) (O2 : Ops T2) R, Like O1 O2 R -> forall (e : exn) (i : nat) (j : nat), alike (like_tri R) R (tri_get_mut e i j) (tri_get_mut e i j).
Proof. like_by @al_tri_get_mut. Qed.
Theorem C89_tri_set : forall T1 T2 (O1 : Ops T1) (O2 : Ops T2) R, Like O1 O2 R -> forall (e : exn) (i : nat) (j : nat) (x1 : T1) (x2 : T2), R x1 x2 -> alike (like_tri R) eq (tri_set e i j x1) (tri_set e i j x2).
Proof. like_by @al_tri_set. Qed.
Theorem C89_hess_of : forall T1 T2 (O1 : Ops T1) (O2 : Ops T2) R, Like O1 O2 R -> forall S1 S2 (SR : S1 -> S2 -> Prop) (isqrt : nat -> nat) (l1 : list T1) (l2 : list T2), Forall2 R l1 l2 -> alike SR (like_hess R) (hess_of isqrt l1) (hess_of isqrt l2).
Proof. like_by @al_hess_of. Qed.
Theorem C89_hess_with_capacity : forall T1 T2 (O1 : Ops T1) (O2 : Ops T2) R, Like O1 O2 R -> forall S1 S2 (SR : S1 -> S2 -> Prop) (isqrt : nat -> nat), alike SR (like_hess R) (hess_with_capacity isqrt) (hess_with_capacity isqrt).
Proof. like_by @al_hess_with_capacity. Qed.
Theorem C89_hess_get : forall T1 T2 (O1 : Ops T1) (O2 : Ops T2) R, Like O1 O2 R -> forall S1 S2 (SR : S1 -> S2 -> Prop) (H1 : hess T1) (H2 : hess T2) (i : nat) (j : nat), like_hess R H1 H2 -> alike SR R (hess_get H1 i j) (hess_get H2 i j).
Proof. like_by @al_hess_get. Qed.
Theorem C89_hess_set : forall T1 T2 (O1 : Ops T1) (O2 : Ops T2) R, Like O1 O2 R -> forall (i : nat) (j : nat) (x1 : T1) (x2 : T2), R x1 x2 -> alike (like_hess R) eq (hess_set i j x1) (hess_set i j x2).
Proof. like_by @al_hess_set. Qed.
Theorem C89_hess_extend_zero : forall T1 T2 (O1 : Ops T1) (O2 : Ops T2) R, Like O1 O2 R -> alike (like_hess R) eq hess_extend_zero hess_extend_zero.
Proof. like_by @al_hess_extend_zero. Qed.
Theorem C89_hess_extend : forall T1 T2 (O1 : Ops T1) (O2 : Ops T2) R, Like O1 O2 R -> forall (new_elems1 : list T1) (new_elems2 : list T2), Forall2 R new_elems1 new_elems2 -> alike (like_hess R) eq (hess_extend new_elems1) (hess_extend new_elems2).
Proof. like_by @al_hess_extend. Qed.
Theorem C89_hess_col : forall T1 T2 (O1 : Ops T1) (O2 : Ops T2) R, Like O1 O2 R -> forall S1 S2 (SR : S1 -> S2 -> Prop) (H1 : hess T1) (H2 : hess T2) (j : nat), like_hess R H1 H2 -> alike SR (Forall2 R) (hess_col H1 j) (hess_col H2 j).
Proof. like_by @al_hess_col. Qed.
Theorem C89_utri_of : forall T1 T2 (O1 : Ops T1) (O2 : Ops T2) R, Like O1 O2 R -> forall S1 S2 (SR : S1 -> S2 -> Prop) (isqrt : nat -> nat) (l1 : list T1) (l2 : list T2), Forall2 R l1 l2 -> alike SR (like_utri R) (utri_of isqrt l1) (utri_of isqrt l2).
Proof. like_by @al_utri_of. Qed.
Theorem C89_utri_with_capacity : forall T1 T2 (O1 : Ops T1) (O2 : Ops T2) R, Like O1 O2 R -> forall S1 S2 (SR : S1 -> S2 -> Prop) (isqrt : nat -> nat), alike SR (like_utri R) (utri_with_capacity isqrt) (utri_with_capacity isqrt).
Proof. like_by @al_utri_with_capacity. Qed.
Theorem C89_utri_get : forall T1 T2 (O1 : Ops T1) (O2 : Ops T2) R, Like O1 O2 R -> forall S1 S2 (SR : S1 -> S2 -> Prop) (U1 : utri T1) (U2 : utri T2) (i : nat) (j : nat), like_utri R U1 U2 -> alike SR R (utri_get U1 i j) (utri_get U2 i j).
Proof. like_by @al_utri_get. Qed.
Theorem C89_utri_set : forall T1 T2 (O1 : Ops T1) (O2 : Ops T2) R, Like O1 O2 R -> forall (i : nat) (j : nat) (x1 : T1) (x2 : T2), R x1 x2 -> alike (like_utri R) eq (utri_set i j x1) (utri_set i j x2).
Proof. like_by @al_utri_set. Qed.
Theorem C89_utri_extend_zero : forall T1 T2 (O1 : Ops T1) (O2 : Ops T2) R, Like O1 O2 R -> alike (like_utri R) eq utri_extend_zero utri_extend_zero.
Proof. like_by @al_utri_extend_zero. Qed.
Theorem C89_utri_extend : forall T1 T2 (O1 : Ops T1) (O2 : Ops T2) R, Like O1 O2 R -> forall (new_elems1 : list T1) (new_elems2 : list T2), Forall2 R new_elems1 new_elems2 -> alike (like_utri R) eq (utri_extend new_elems1) (utri_extend new_elems2).
Proof. like_by @al_utri_extend. Qed.
Theorem C89_back_sub : forall T1 T2 (O1 : Ops T1) (O2 : Ops T2) R, Like O1 O2 R -> forall (U1 : utri T1) (U2 : utri T2) (y : ptr), like_utri R U1 U2 -> alike (like_heap R) eq (back_sub U1 y) (back_sub U2 y).
Proof. like_by @al_back_sub. Qed.
Theorem C89_ltri_get : forall T1 T2 (O1 : Ops T1) (O2 : Ops T2) R, Like O1 O2 R -> forall S1 S2 (SR : S1 -> S2 -> Prop) (L1 : ltri T1) (L2 : ltri T2) (i : nat) (j : nat), like_ltri R L1 L2 -> alike SR R (ltri_get L1 i j) (ltri_get L2 i j).
Proof. like_by @al_ltri_get. Qed.
Theorem C89_ltri_set : forall T1 T2 (O1 : Ops T1) (O2 : Ops T2) R, Like O1 O2 R -> forall (i : nat) (j : nat) (x1 : T1) (x2 : T2), R x1 x2 -> alike (like_ltri R) eq (ltri_set i j x1) (ltri_set i j x2).
Proof. like_by @al_ltri_set. Qed.
Theorem C89_herm_get : forall T1 T2 (O1 : Ops T1) (O2 : Ops T2) R, Like O1 O2 R -> forall S1 S2 (SR : S1 -> S2 -> Prop) (H1 : herm T1) (H2 : herm T2) (i : nat) (j : nat), like_herm R H1 H2 -> alike SR R (herm_get H1 i j) (herm_get H2 i j).
Proof. like_by @al_herm_get. Qed.
Theorem C89_herm_set : forall T1 T2 (O1 : Ops T1) (O2 : Ops T2) R, Like O1 O2 R -> forall (i : nat) (j : nat) (x1 : T1) (x2 : T2), R x1 x2 -> alike (like_herm R) eq (herm_set i j x1) (herm_set i j x2).
Proof. like_by @al_herm_set. Qed.
Theorem C89_herm_into_lower : forall T1 T2 (O1 : Ops T1) (O2 : Ops T2) R, Like O1 O2 R -> alike (like_herm R) (like_ltri R) herm_into_lower herm_into_lower.
Proof. like_by @al_herm_into_lower. Qed.
Theorem C89_coo_of : forall T1 T2 (O1 : Ops T1) (O2 : Ops T2) R, Like O1 O2 R -> forall S1 S2 (SR : S1 -> S2 -> Prop) (srt : sorter) (val1 : list T1) (val2 : list T2) (rows : list nat) (cols : list nat), Forall2 R val1 val2 -> alike SR (like_coo R) (coo_of srt val1 rows cols) (coo_of srt val2 rows cols).
Proof. like_by @al_coo_of. Qed.
Theorem C89_coo_unit : forall T1 T2 (O1 : Ops T1) (O2 : Ops T2) R, Like O1 O2 R -> forall S1 S2 (SR : S1 -> S2 -> Prop) (srt : sorter) (n : nat), alike SR (like_coo R) (coo_unit srt n) (coo_unit srt n).
Proof. like_by @al_coo_unit. Qed.
Theorem C89_coo_shape : forall T1 T2 (O1 : Ops T1) (O2 : Ops T2) R, Like O1 O2 R -> forall S1 S2 (SR : S1 -> S2 -> Prop) (A1 : coo T1) (A2 : coo T2), like_coo R A1 A2 -> alike SR eq (coo_shape A1) (coo_shape A2).
Proof. like_by @al_coo_shape. Qed.
Theorem C89_coo_get : forall T1 T2 (O1 : Ops T1) (O2 : Ops T2) R, Like O1 O2 R -> forall S1 S2 (SR : S1 -> S2 -> Prop) (A1 : coo T1) (A2 : coo T2) (i : nat) (j : nat), like_coo R A1 A2 -> alike SR R (coo_get A1 i j) (coo_get A2 i j).
Proof. like_by @al_coo_get. Qed.
Theorem C89_coo_get_mut : forall T1 T2 (O1 : Ops T1) (O2 : Ops T2) R, Like O1 O2 R -> forall (i : nat) (j : nat), alike (like_coo R) R (coo_get_mut i j) (coo_get_mut i j).
Proof. like_by @al_coo_get_mut. Qed.
Theorem C89_coo_set : forall T1 T2 (O1 : Ops T1) (O2 : Ops T2) R, Like O1 O2 R -> forall (i : nat) (j : nat) (x1 : T1) (x2 : T2), R x1 x2 -> alike (like_coo R) eq (coo_set i j x1) (coo_set i j x2).
Proof. like_by @al_coo_set. Qed.
Theorem C89_coo_assign : forall T1 T2 (O1 : Ops T1) (O2 : Ops T2) R, Like O1 O2 R -> forall (A1 : coo T1) (A2 : coo T2), like_coo R A1 A2 -> alike (like_coo R) eq (coo_assign A1) (coo_assign A2).
Proof. like_by @al_coo_assign. Qed.
Theorem C89_csr_of_coo : forall T1 T2 (O1 : Ops T1) (O2 : Ops T2) R, Like O1 O2 R -> forall S1 S2 (SR : S1 -> S2 -> Prop) (A1 : coo T1) (A2 : coo T2), like_coo R A1 A2 -> alike SR (like_csr R) (csr_of_coo A1) (csr_of_coo A2).
Proof. like_by @al_csr_of_coo. Qed.
Theorem C89_csr_of : forall T1 T2 (O1 : Ops T1) (O2 : Ops T2) R, Like O1 O2 R -> forall S1 S2 (SR : S1 -> S2 -> Prop) (val1 : list T1) (val2 : list T2) (ptrs : list nat) (cols : list nat), Forall2 R val1 val2 -> alike SR (like_csr R) (csr_of val1 ptrs cols) (csr_of val2 ptrs cols).
Proof. like_by @al_csr_of. Qed.
Theorem C89_csr_unit : forall T1 T2 (O1 : Ops T1) (O2 : Ops T2) R, Like O1 O2 R -> forall S1 S2 (SR : S1 -> S2 -> Prop) (n : nat), alike SR (like_csr R) (csr_unit n) (csr_unit n).
Proof. like_by @al_csr_unit. Qed.
Theorem C89_csr_shape : forall T1 T2 (O1 : Ops T1) (O2 : Ops T2) R, Like O1 O2 R -> forall S1 S2 (SR : S1 -> S2 -> Prop) (A1 : csr T1) (A2 : csr T2), like_csr R A1 A2 -> alike SR eq (csr_shape A1) (csr_shape A2).
Proof. like_by @al_csr_shape. Qed.
Theorem C89_csr_get : forall T1 T2 (O1 : Ops T1) (O2 : Ops T2) R, Like O1 O2 R -> forall S1 S2 (SR : S1 -> S2 -> Prop) (A1 : csr T1) (A2 : csr T2) (i : nat) (j : nat), like_csr R A1 A2 -> alike SR R (csr_get A1 i j) (csr_get A2 i j).
Proof. like_by @al_csr_get. Qed.
Theorem C89_csr_get_mut : forall T1 T2 (O1 : Ops T1) (O2 : Ops T2) R, Like O1 O2 R -> forall (i : nat) (j : nat), alike (like_csr R) R (csr_get_mut i j) (csr_get_mut i j).
Proof. like_by @al_csr_get_mut. Qed.
Theorem C89_csr_set : forall T1 T2 (O1 : Ops T1) (O2 : Ops T2) R, Like O1 O2 R -> forall (i : nat) (j : nat) (x1 : T1) (x2 : T2), R x1 x2 -> alike (like_csr R) eq (csr_set i j x1) (csr_set i j x2).
Proof. like_by @al_csr_set. Qed.
Theorem C89_csr_assign : forall T1 T2 (O1 : Ops T1) (O2 : Ops T2) R, Like O1 O2 R -> forall (A1 : csr T1) (A2 : csr T2), like_csr R A1 A2 -> alike (like_csr R) eq (csr_assign A1) (csr_assign A2).
Proof. like_by @al_csr_assign. Qed.
Theorem C89_coo_scale : forall T1 T2 (O1 : Ops T1) (O2 : Ops T2) R, Like O1 O2 R -> forall (alpha1 : T1) (alpha2 : T2), R alpha1 alpha2 -> alike (like_coo R) eq (coo_scale alpha1) (coo_scale alpha2).
Proof. like_by @al_coo_scale. Qed.
Theorem C89_csr_scale : forall T1 T2 (O1 : Ops T1) (O2 : Ops T2) R, Like O1 O2 R -> forall (alpha1 : T1) (alpha2 : T2), R alpha1 alpha2 -> alike (like_csr R) eq (csr_scale alpha1) (csr_scale alpha2).
Proof. like_by @al_csr_scale. Qed.
Theorem C89_coo_op_scale : forall T1 T2 (O1 : Ops T1) (O2 : Ops T2) R, Like O1 O2 R -> forall S1 S2 (SR : S1 -> S2 -> Prop) (alpha1 : T1) (alpha2 : T2) (A1 : coo T1) (A2 : coo T2), R alpha1 alpha2 -> like_coo R A1 A2 -> alike SR (like_coo R) (coo_op_scale alpha1 A1) (coo_op_scale alpha2 A2).
Proof. like_by @al_coo_op_scale. Qed.
Theorem C89_csr_op_scale : forall T1 T2 (O1 : Ops T1) (O2 : Ops T2) R, Like O1 O2 R -> forall S1 S2 (SR : S1 -> S2 -> Prop) (alpha1 : T1) (alpha2 : T2) (A1 : csr T1) (A2 : csr T2), R alpha1 alpha2 -> like_csr R A1 A2 -> alike SR (like_csr R) (csr_op_scale alpha1 A1) (csr_op_scale alpha2 A2).
Proof. like_by @al_csr_op_scale. Qed.
Theorem C89_coo_neg : forall T1 T2 (O1 : Ops T1) (O2 : Ops T2) R, Like O1 O2 R -> forall S1 S2 (SR : S1 -> S2 -> Prop) (A1 : coo T1) (A2 : coo T2), like_coo R A1 A2 -> alike SR (like_coo R) (coo_neg A1) (coo_neg A2).
Proof. like_by @al_coo_neg. Qed.
Theorem C89_csr_neg : forall T1 T2 (O1 : Ops T1) (O2 : Ops T2) R, Like O1 O2 R -> forall S1 S2 (SR : S1 -> S2 -> Prop) (A1 : csr T1) (A2 : csr T2), like_csr R A1 A2 -> alike SR (like_csr R) (csr_neg A1) (csr_neg A2).
Proof. like_by @al_csr_neg. Qed.
Theorem C89_coo_plus : forall T1 T2 (O1 : Ops T1) (O2 : Ops T2) R, Like O1 O2 R -> forall S1 S2 (SR : S1 -> S2 -> Prop) (srt : sorter) (m11 : coo T1) (m12 : coo T2) (m21 : coo T1) (m22 : coo T2), like_coo R m11 m12 -> like_coo R m21 m22 -> alike SR (like_coo R) (coo_plus srt m11 m21) (coo_plus srt m12 m22).
Proof. like_by @al_coo_plus. Qed.
Theorem C89_coo_minus : forall T1 T2 (O1 : Ops T1) (O2 : Ops T2) R, Like O1 O2 R -> forall S1 S2 (SR : S1 -> S2 -> Prop) (srt : sorter) (m11 : coo T1) (m12 : coo T2) (m21 : coo T1) (m22 : coo T2), like_coo R m11 m12 -> like_coo R m21 m22 -> alike SR (like_coo R) (coo_minus srt m11 m21) (coo_minus srt m12 m22).
Proof. like_by @al_coo_minus. Qed.
Theorem C89_sp_mul : forall T1 T2 (O1 : Ops T1) (O2 : Ops T2) R, Like O1 O2 R -> forall (dbg : bool) (alpha1 : T1) (alpha2 : T2) (A1 : csr T1) (A2 : csr T2) (v : ptr) (beta1 : T1) (beta2 : T2) (vr : ptr), R alpha1 alpha2 -> like_csr R A1 A2 -> R beta1 beta2 -> alike (like_heap R) eq (sp_mul dbg alpha1 A1 v beta1 vr) (sp_mul dbg alpha2 A2 v beta2 vr).
Proof. like_by @al_sp_mul. Qed.
Theorem C89_sp_op_mul : forall T1 T2 (O1 : Ops T1) (O2 : Ops T2) R, Like O1 O2 R -> forall (dbg : bool) (A1 : csr T1) (A2 : csr T2) (v : ptr), like_csr R A1 A2 -> alike (like_heap R) eq (sp_op_mul dbg A1 v) (sp_op_mul dbg A2 v).
Proof. like_by @al_sp_op_mul. Qed.
Theorem C89_tridiag_solve_vec : forall T1 T2 (O1 : Ops T1) (O2 : Ops T2) R, Like O1 O2 R -> forall (dbg : bool) (t1 : tri T1) (t2 : tri T2) (b : ptr) (rslt : ptr), like_tri R t1 t2 -> alike (like_heap R) eq (tridiag_solve_vec dbg t1 b rslt) (tridiag_solve_vec dbg t2 b rslt).
Proof. like_by @al_tridiag_solve_vec. Qed.
Theorem C89_tridiag_solve_mat : forall T1 T2 (O1 : Ops T1) (O2 : Ops T2) R, Like O1 O2 R -> forall (dbg : bool) (t1 : tri T1) (t2 : tri T2) (b : mat) (rslt : mat), like_tri R t1 t2 -> alike (like_heap R) eq (tridiag_solve_mat dbg t1 b rslt) (tridiag_solve_mat dbg t2 b rslt).
Proof. like_by @al_tridiag_solve_mat. Qed.
Theorem C89_tri_cholesky : forall T1 T2 (O1 : Ops T1) (O2 : Ops T2) R, Like O1 O2 R -> forall (H1 : herm T1) (H2 : herm T2), like_herm R H1 H2 -> alike (like_heap R) eq (tri_cholesky H1) (tri_cholesky H2).
Proof. like_by @al_tri_cholesky. Qed.
Theorem C89_dyn_cholesky : forall T1 T2 (O1 : Ops T1) (O2 : Ops T2) R, Like O1 O2 R -> forall (A : mat), alike (like_heap R) eq (dyn_cholesky A) (dyn_cholesky A).
Proof. like_by @al_dyn_cholesky. Qed.
Theorem C89_mod_cholesky : forall T1 T2 (O1 : Ops T1) (O2 : Ops T2) R, Like O1 O2 R -> forall (A : mat), alike (like_heap R) eq (mod_cholesky A) (mod_cholesky A).
Proof. like_by @al_mod_cholesky. Qed.
Theorem C89_lower_mat : forall T1 T2 (O1 : Ops T1) (O2 : Ops T2) R, Like O1 O2 R -> forall (F : chol), alike (like_heap R) (like_ltri R) (lower_mat F) (lower_mat F).
Proof. like_by @al_lower_mat. Qed.
Theorem C89_chol_solve_mut_vec : forall T1 T2 (O1 : Ops T1) (O2 : Ops T2) R, Like O1 O2 R -> forall (dbg : bool) (F : chol) (rhs : ptr), alike (like_heap R) eq (chol_solve_mut_vec dbg F rhs) (chol_solve_mut_vec dbg F rhs).
Proof. like_by @al_chol_solve_mut_vec. Qed.
Theorem C89_chol_solve_vec : forall T1 T2 (O1 : Ops T1) (O2 : Ops T2) R, Like O1 O2 R -> forall (dbg : bool) (F : chol) (rhs : ptr), alike (like_heap R) eq (chol_solve_vec dbg F rhs) (chol_solve_vec dbg F rhs).
Proof. like_by @al_chol_solve_vec. Qed.
Theorem C89_chol_solve_mut_mat : forall T1 T2 (O1 : Ops T1) (O2 : Ops T2) R, Like O1 O2 R -> forall (dbg : bool) (F : chol) (rhs : mat), alike (like_heap R) eq (chol_solve_mut_mat dbg F rhs) (chol_solve_mut_mat dbg F rhs).
Proof. like_by @al_chol_solve_mut_mat. Qed.
Theorem C89_chol_solve_mat : forall T1 T2 (O1 : Ops T1) (O2 : Ops T2) R, Like O1 O2 R -> forall (dbg : bool) (F : chol) (rhs : mat), alike (like_heap R) eq (chol_solve_mat dbg F rhs) (chol_solve_mat dbg F rhs).
Proof. like_by @al_chol_solve_mat. Qed.
Theorem C89_mod_solve_mut_vec : forall T1 T2 (O1 : Ops T1) (O2 : Ops T2) R, Like O1 O2 R -> forall (dbg : bool) (F : chol) (rhs : ptr), alike (like_heap R) eq (mod_solve_mut_vec dbg F rhs) (mod_solve_mut_vec dbg F rhs).
Proof. like_by @al_mod_solve_mut_vec. Qed.
Theorem C89_mod_solve_vec : forall T1 T2 (O1 : Ops T1) (O2 : Ops T2) R, Like O1 O2 R -> forall (dbg : bool) (F : chol) (rhs : ptr), alike (like_heap R) eq (mod_solve_vec dbg F rhs) (mod_solve_vec dbg F rhs).
Proof. like_by @al_mod_solve_vec. Qed.
Theorem C89_mod_solve_mut_mat : forall T1 T2 (O1 : Ops T1) (O2 : Ops T2) R, Like O1 O2 R -> forall (dbg : bool) (F : chol) (rhs : mat), alike (like_heap R) eq (mod_solve_mut_mat dbg F rhs) (mod_solve_mut_mat dbg F rhs).
Proof. like_by @al_mod_solve_mut_mat. Qed.
Theorem C89_mod_solve_mat : forall T1 T2 (O1 : Ops T1) (O2 : Ops T2) R, Like O1 O2 R -> forall (dbg : bool) (F : chol) (rhs : mat), alike (like_heap R) eq (mod_solve_mat dbg F rhs) (mod_solve_mat dbg F rhs).
Proof. like_by @al_mod_solve_mat. Qed.
Theorem C89_cgs : forall T1 T2 (O1 : Ops T1) (O2 : Ops T2) R, Like O1 O2 R -> forall (dbg : bool) (vecs : list ptr), alike (like_heap R) eq (cgs dbg vecs) (cgs dbg vecs).
Proof. like_by @al_cgs. Qed.
Theorem C89_ilu_dyn : forall T1 T2 (O1 : Ops T1) (O2 : Ops T2) R, Like O1 O2 R -> forall A : mat, alike (like_heap R) eq (ilu_dyn A) (ilu_dyn A).
Proof. like_by @al_ilu_dyn. Qed.
Theorem C89_ilu_dyn_solve : forall T1 T2 (O1 : Ops T1) (O2 : Ops T2) R, Like O1 O2 R -> forall (F : mat) (rhs : ptr), alike (like_heap R) eq (ilu_dyn_solve F rhs) (ilu_dyn_solve F rhs).
Proof. like_by @al_ilu_dyn_solve. Qed.
Theorem C89_ilu_csr : forall T1 T2 (O1 : Ops T1) (O2 : Ops T2) R, Like O1 O2 R -> forall S1 S2 (SR : S1 -> S2 -> Prop) (A1 : csr T1) (A2 : csr T2), like_csr R A1 A2 -> alike SR (like_csr R) (ilu_csr A1) (ilu_csr A2).
Proof. like_by @al_ilu_csr. Qed.
Theorem C89_ilu_csr_solve : forall T1 T2 (O1 : Ops T1) (O2 : Ops T2) R, Like O1 O2 R -> forall (F1 : csr T1) (F2 : csr T2) (rhs : ptr), like_csr R F1 F2 -> alike (like_heap R) eq (ilu_csr_solve F1 rhs) (ilu_csr_solve F2 rhs).
Proof. like_by @al_ilu_csr_solve. Qed.
Theorem C89_gmres_dyn_new : forall T1 T2 (O1 : Ops T1) (O2 : Ops T2) R, Like O1 O2 R -> forall (A : mat), alike (like_heap R) eq (gmres_dyn_new A) (gmres_dyn_new A).
Proof. like_by @al_gmres_dyn_new. Qed.
Theorem C89_gmres_dyn_solve : forall T1 T2 (O1 : Ops T1) (O2 : Ops T2) R, Like O1 O2 R -> forall (dbg : bool) (isqrt : nat -> nat) (G : mat * mat) (tol1 : T1) (tol2 : T2) (rhs : ptr), R tol1 tol2 -> alike (like_heap R) eq (gmres_dyn_solve dbg isqrt G tol1 rhs) (gmres_dyn_solve dbg isqrt G tol2 rhs).
Proof. like_by @al_gmres_dyn_solve. Qed.
Theorem C89_gmres_csr_new : forall T1 T2 (O1 : Ops T1) (O2 : Ops T2) R, Like O1 O2 R -> forall S1 S2 (SR : S1 -> S2 -> Prop) (A1 : csr T1) (A2 : csr T2), like_csr R A1 A2 -> alike SR (like_pair (like_csr R) (like_csr R)) (gmres_csr_new A1) (gmres_csr_new A2).
Proof. like_by @al_gmres_csr_new. Qed.
Theorem C89_gmres_csr_solve : forall T1 T2 (O1 : Ops T1) (O2 : Ops T2) R, Like O1 O2 R -> forall (dbg : bool) (isqrt : nat -> nat) (G1 : csr T1 * csr T1) (G2 : csr T2 * csr T2) (tol1 : T1) (tol2 : T2) (rhs : ptr), like_pair (like_csr R) (like_csr R) G1 G2 -> R tol1 tol2 -> alike (like_heap R) eq (gmres_csr_solve dbg isqrt G1 tol1 rhs) (gmres_csr_solve dbg isqrt G2 tol2 rhs).
Proof. like_by @al_gmres_csr_solve. Qed.
Theorem C89_coo_add_assign : forall T1 T2 (O1 : Ops T1) (O2 : Ops T2) R, Like O1 O2 R -> forall B1 B2 srt, like_coo R B1 B2 -> alike (like_coo R) eq (coo_add_assign (Some B1) srt) (coo_add_assign (Some B2) srt).
Proof. intros. apply (al_coo_add_assign R); cbn; auto. Qed.
Theorem C89_coo_add_self : forall T1 T2 (O1 : Ops T1) (O2 : Ops T2) R, Like O1 O2 R -> forall srt, alike (like_coo R) eq (coo_add_assign (T := T1) None srt) (coo_add_assign (T := T2) None srt).
Proof. intros. apply (al_coo_add_assign R); cbn; auto. Qed.

(** ** Maps between element types *)
(** f preserves constants, operators and comparisons. *)
Definition preserves {T1 T2} (O1 : Ops T1) (O2 : Ops T2) (f : T1 -> T2) : Prop :=
  f zero = zero /\ f one = one /\
  (forall a b, f (add a b) = add (f a) (f b)) /\ (forall a b, f (sub a b) = sub (f a) (f b)) /\
  (forall a b, f (mul a b) = mul (f a) (f b)) /\ (forall a b, f (div a b) = div (f a) (f b)) /\
  (forall a, f (opp a) = opp (f a)) /\ (forall a, f (sqrt_ a) = sqrt_ (f a)) /\
  (forall a, f (pow2 a) = pow2 (f a)) /\ (forall a, f (abs_ a) = abs_ (f a)) /\
  (forall a b, eqb (f a) (f b) = eqb a b) /\ (forall a b, ltb (f a) (f b) = ltb a b).
Definition graph {T1 T2} (f : T1 -> T2) : T1 -> T2 -> Prop := fun x y => f x = y.
Lemma preserves_like T1 T2 (O1 : Ops T1) (O2 : Ops T2) f : preserves O1 O2 f -> Like O1 O2 (graph f).
Proof.
  intros (? & ? & ? & ? & ? & ? & ? & ? & ? & ? & E & F). unfold graph. constructor; intros; subst; auto; now rewrite ?E, ?F.
Qed.
Definition map_heap {T1 T2} (f : T1 -> T2) (h : heap T1) : heap T2 := mkHeap (fun p => map f (mem h p)) (next h).
Definition map_res {S1 S2 A1 A2} (fs : S1 -> S2) (fa : A1 -> A2) (r : res S1 A1) : res S2 A2 :=
  match r with Ok a s => Ok (fa a) (fs s) | Throw e s => Throw e (fs s) | Terminate => Terminate | AssertFail => AssertFail | UB => UB | Diverge => Diverge end.
Lemma graph_list T1 T2 (f : T1 -> T2) l : forall k, Forall2 (graph f) l k <-> k = map f l.
Proof.
  induction l as [|x l IH]; intros k; split; intros H; subst; cbn.
  - now inversion H.
  - constructor.
  - inversion H as [|? y ? k' Hx Hk]; subst. f_equal; [now rewrite Hx|now apply IH].
  - constructor; [reflexivity|now apply IH].
Qed.
Lemma graph_heap T1 T2 (f : T1 -> T2) h k : like_heap (graph f) h k <-> k = map_heap f h.
Proof.
  unfold like_heap, map_heap. split.
  - intros [H1 H2]. destruct h as [m n], k as [m' n']. cbn in *. subst n'. f_equal. extensionality p. now apply graph_list.
  - intros ->. cbn. split; auto. intros p. now apply graph_list.
Qed.
(** What the theorems above say for R the graph of f: the run on the images is the image of the run. *)
Theorem C89_map : forall T1 T2 (f : T1 -> T2) A1 A2 (fa : A1 -> A2) (m1 : M (heap T1) A1) (m2 : M (heap T2) A2),
  alike (like_heap (graph f)) (graph fa) m1 m2 -> forall h, m2 (map_heap f h) = map_res (map_heap f) fa (m1 h).
Proof.
  intros T1 T2 f A1 A2 fa m1 m2 H h. specialize (H h (map_heap f h) (proj2 (graph_heap _ _ f _ _) eq_refl)).
  unfold like_res, map_res in *. destruct (m1 h), (m2 (map_heap f h)); try contradiction; auto; destruct H as [E1 E2];
    apply graph_heap in E2; subst; auto. now rewrite E1.
Qed.
Lemma graph_id {A} : @graph A A (fun x => x) = eq.
Proof. reflexivity. Qed.
(** For instance: *)
Theorem C89_map_dot : forall T1 T2 (O1 : Ops T1) (O2 : Ops T2) f, preserves O1 O2 f -> forall x y h,
  dot_d x y (map_heap f h) = map_res (map_heap f) f (dot_d x y h).
Proof. intros T1 T2 O1 O2 f Hf x y. apply (C89_map T1 T2 f _ _ f). apply C89_dot_d. now apply preserves_like. Qed.
Theorem C89_map_matvec : forall T1 T2 (O1 : Ops T1) (O2 : Ops T2) f, preserves O1 O2 f -> forall dbg A v h,
  op_mulv dbg A v (map_heap f h) = map_res (map_heap f) (fun p => p) (op_mulv dbg A v h).
Proof. intros T1 T2 O1 O2 f Hf dbg A v. apply (C89_map T1 T2 f _ _ (fun p => p)). apply C89_op_mulv. now apply preserves_like. Qed.
Theorem C89_map_cholesky : forall T1 T2 (O1 : Ops T1) (O2 : Ops T2) f, preserves O1 O2 f -> forall A h,
  dyn_cholesky A (map_heap f h) = map_res (map_heap f) (fun p => p) (dyn_cholesky A h).
Proof. intros T1 T2 O1 O2 f Hf A. apply (C89_map T1 T2 f _ _ (fun p => p)). apply C89_dyn_cholesky. now apply preserves_like. Qed.
Theorem C89_map_gmres : forall T1 T2 (O1 : Ops T1) (O2 : Ops T2) f, preserves O1 O2 f -> forall dbg isqrt G tol rhs h,
  gmres_dyn_solve dbg isqrt G (f tol) rhs (map_heap f h) = map_res (map_heap f) (fun p => p) (gmres_dyn_solve dbg isqrt G tol rhs h).
Proof.
  intros T1 T2 O1 O2 f Hf dbg isqrt G tol rhs. apply (C89_map T1 T2 f _ _ (fun p => p)). apply C89_gmres_dyn_solve; [now apply preserves_like|reflexivity].
Qed.

(** ** Numbers that carry something along *)
(** An element type that adds a component of any kind W to the numbers (a counter, a name, an error
    estimate), computed in any way, while comparisons look at the numbers only. *)
Section Carry.
Context {T W : Type} (O : Ops T) (w0 w1 : W) (f2 : (T * W) -> (T * W) -> W) (f1 : (T * W) -> W).
Definition CarryOps : Ops (T * W) := {|
  zero := (zero, w0); one := (one, w1);
  add a b := (add (fst a) (fst b), f2 a b); sub a b := (sub (fst a) (fst b), f2 a b);
  mul a b := (mul (fst a) (fst b), f2 a b); div a b := (div (fst a) (fst b), f2 a b);
  opp a := (opp (fst a), f1 a); sqrt_ a := (sqrt_ (fst a), f1 a); pow2 a := (pow2 (fst a), f1 a); abs_ a := (abs_ (fst a), f1 a);
  eqb a b := eqb (fst a) (fst b); ltb a b := ltb (fst a) (fst b) |}.
Theorem C89_carry : preserves CarryOps O fst.
Proof. repeat split. Qed.
End Carry.

(** ** Expressions (SpecFma.v) evaluated without contraction give the ordinary run *)
Theorem C89_plain_terms : forall T (O : Ops T), (forall x, pow2 x = mul x x) -> preserves (TOps O (plainly O)) O (plainly O).
Proof. intros T O P. repeat split; intros; cbn; auto. Qed.

(** ** A run *)
(** Integers that count the operations spent on each result: 3 for a dot product of length two. *)
Definition CountOps : Ops (Z * nat) := CarryOps ZOps 0 0 (fun a b => S (snd a + snd b)) (fun a => S (snd a)).
Definition CH : heap (Z * nat) := heap_of [[(2%Z, 0); (3%Z, 0)]; [(5%Z, 0); (7%Z, 0)]].
Example C89_nonvacuous : @dot_d _ CountOps 0 1 CH = Ok (31%Z, 3) CH /\ @dot_d _ ZOps 0 1 (map_heap fst CH) = Ok 31%Z (map_heap fst CH) /\
  preserves CountOps ZOps fst.
Proof. split; [reflexivity|]. split; [reflexivity|]. apply C89_carry. Qed.
(** Without agreement of the comparisons it is false: Cholesky rejects the one matrix and accepts
    the other. *)
Example C89_comparisons_needed : exists (O1 O2 : Ops Z) h A,
  (forall x y : Z, @add _ O1 x y = @add _ O2 x y /\ @sub _ O1 x y = @sub _ O2 x y /\ @mul _ O1 x y = @mul _ O2 x y /\ @div _ O1 x y = @div _ O2 x y) /\
  (exists h', @dyn_cholesky Z O1 A h = Throw RuntimeError h') /\ exists F h', @dyn_cholesky Z O2 A h = Ok F h'.
Proof.
  exists ZOps, (mkOps Z 0 1 Z.add Z.sub Z.mul Z.quot Z.opp Z.sqrt (fun x => x * x)%Z Z.abs Z.eqb (fun _ _ => false))%Z,
    (heap_of [[1; 2; 2; 1]%Z]), (mkMat 0 2 2).
  split; [repeat split|]. split; [eexists; vm_compute; reflexivity|eexists; eexists; vm_compute; reflexivity].
Qed.

Print Assumptions C89_map.
Print Assumptions C89_map_gmres.
Print Assumptions C89_gmres_csr_solve.
Print Assumptions C89_coo_add_self.
Print Assumptions C89_carry.
Print Assumptions C89_plain_terms.
