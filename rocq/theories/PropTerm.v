(** * Properties C51 and C52: loop counters, termination, rows visited *)
From Coq Require Import Lia ZArith.
From Verif Require Import Base Scalar BaseLemmas Spec Counters ModelVec ModelMat SpecMat ModelPacked ModelSolvers ModelIter ProofVec ProofVecProp.
Local Open Scope nat_scope.

Section Term.
Context {T : Type} {Op : Ops T}.
Implicit Types h : heap T.

(** Every object in memory has fewer than 2^32 elements. *)
Definition small h : Prop := forall p, (Z.of_nat (len h p) < 2 ^ 32)%Z.
Definition terminates {A} (m : M (heap T) A) h : Prop := m h <> Diverge.

(** The logic used for the proofs: whatever else happens, the call returns, and every object is
    still small. *)
Definition tm {A} (m : M (heap T) A) (Q : A -> Prop) : Prop := forall h, small h ->
  match m h with Ok a h' => small h' /\ Q a | Throw _ h' => small h' | Diverge => False | _ => True end.

Lemma tm_term {A} (m : M (heap T) A) Q h : tm m Q -> small h -> terminates m h.
Proof. intros H Hs E. specialize (H h Hs). now rewrite E in H. Qed.
Lemma tm_ret {A} (a : A) (Q : A -> Prop) : Q a -> tm (ret a) Q.
Proof. intros H h Hs. cbn. auto. Qed.
Lemma tm_bind {A B} (m : M (heap T) A) (f : A -> M (heap T) B) (P : A -> Prop) (Q : B -> Prop) :
  tm m P -> (forall a, P a -> tm (f a) Q) -> tm (bind m f) Q.
Proof.
  intros Hm Hf h Hs. unfold bind. specialize (Hm h Hs). destruct (m h) as [a h1|e h1| | | |]; auto.
  destruct Hm as [H1 H2]. exact (Hf a H2 h1 H1).
Qed.
Lemma tm_mono {A} (m : M (heap T) A) (P Q : A -> Prop) : tm m P -> (forall a, P a -> Q a) -> tm m Q.
Proof. intros Hm H h Hs. specialize (Hm h Hs). destruct (m h); intuition. Qed.
Lemma tm_any {A} (m : M (heap T) A) P : tm m P -> tm m (fun _ => True).
Proof. intros H. eapply tm_mono; eauto. Qed.
Lemma tm_noexcept {A} (m : M (heap T) A) Q : tm m Q -> tm (noexcept m) Q.
Proof. intros H h Hs. specialize (H h Hs). unfold noexcept. destruct (m h); auto. Qed.
Lemma tm_assert d b : tm (assert_ d b) (fun _ => True).
Proof. intros h Hs. unfold assert_. destruct d, b; cbn; auto. Qed.
Lemma tm_throw {A} e (Q : A -> Prop) : tm (throw e) Q.
Proof. intros h Hs. exact Hs. Qed.
Lemma tm_ub {A} (Q : A -> Prop) : tm ub Q.
Proof. intros h Hs. exact I. Qed.
Lemma tm_load p i : tm (load p i) (fun _ => True).
Proof. intros h Hs. unfold load. destruct (nth_error _ _); auto. Qed.
Lemma set_nth_length {X} i (x : X) l : length (set_nth i x l) = length l.
Proof. revert i; induction l as [|y l IH]; intros [|i]; cbn; auto. Qed.
Lemma tm_store p i x : tm (store p i x) (fun _ => True).
Proof.
  intros h Hs. unfold store. destruct (Nat.ltb _ _); auto. split; auto. intros q. unfold len, upd. cbn [mem].
  destruct (Nat.eqb_spec q p) as [->|]; [rewrite set_nth_length|]; apply Hs.
Qed.
Lemma tm_vsize p : tm (vsize p) (fun n => (Z.of_nat n < 2 ^ 32)%Z).
Proof. intros h Hs. cbn. split; auto. apply Hs. Qed.
Lemma tm_contents p : tm (contents p) (fun l => (Z.of_nat (length l) < 2 ^ 32)%Z).
Proof. intros h Hs. cbn. split; auto. apply Hs. Qed.
Lemma tm_alloc l : (Z.of_nat (length l) < 2 ^ 32)%Z -> tm (alloc l) (fun _ => True).
Proof.
  intros Hl h Hs. cbn. split; auto. intros q. unfold len. cbn [mem]. destruct (Nat.eqb q (next h)); [exact Hl|apply Hs].
Qed.
Lemma tm_alloc_n x n : (Z.of_nat n < 2 ^ 32)%Z -> tm (alloc (repeat x n)) (fun _ => True).
Proof. intros H. apply tm_alloc. now rewrite repeat_length. Qed.
Lemma tm_vec_at {X} (l : list X) i : tm (vec_at l i) (fun _ => True).
Proof. unfold vec_at. destruct (nth_error l i); [now apply tm_ret|apply tm_ub]. Qed.
Lemma tm_loop {A} l (f : nat -> A -> M (heap T) A) a : (forall i a, In i l -> tm (f i a) (fun _ => True)) -> tm (loop l f a) (fun _ => True).
Proof.
  revert a. induction l as [|i l IH]; intros a H; cbn [loop]; [now apply tm_ret|].
  apply tm_bind with (P := fun _ => True); [apply H; now left|]. intros a' _. apply IH. intros; apply H; now right.
Qed.
Lemma tm_for_sz {A} lo n (f : nat -> A -> M (heap T) A) a : (forall i a, i < n -> tm (f i a) (fun _ => True)) -> tm (for_sz lo n f a) (fun _ => True).
Proof. intros H. unfold for_sz. apply tm_loop. intros i a' Hi. apply in_seq in Hi. apply H. lia. Qed.
Lemma tm_for_u32 {A} lo n (f : nat -> A -> M (heap T) A) a : (Z.of_nat n < 2 ^ 32)%Z ->
  (forall i a, i < n -> tm (f i a) (fun _ => True)) -> tm (for_u32 lo n f a) (fun _ => True).
Proof.
  intros Hn H. unfold for_u32, fits_u32. destruct (Z.ltb_spec (Z.of_nat n) (2 ^ 32)); [|lia]. now apply tm_for_sz.
Qed.
Lemma tm_down_i32 {A} n (f : nat -> A -> M (heap T) A) a : (Z.of_nat n < 2 ^ 32)%Z ->
  (forall i a, i < n -> tm (f i a) (fun _ => True)) -> tm (down_i32 n f a) (fun _ => True).
Proof.
  intros Hn H. unfold down_i32. apply tm_loop. intros i a' Hi. apply H.
  unfold down_list in Hi. destruct (Z.ltb_spec (to_int32 (Z.of_nat n - 1)) 0) as [|Hz]; [destruct Hi|].
  apply in_rev, in_seq in Hi.
  assert (to_int32 (Z.of_nat n - 1) < Z.of_nat n)%Z; [|lia].
  destruct n as [|n]. { exfalso. cbv in Hz. congruence. }
  unfold to_int32 in *. rewrite Z.mod_small in * by lia.
  destruct (Z.ltb_spec (Z.of_nat (S n) - 1) (2 ^ 31)); lia.
Qed.
Lemma tm_if {A} (b : bool) (m1 m2 : M (heap T) A) Q : tm m1 Q -> tm m2 Q -> tm (if b then m1 else m2) Q.
Proof. destruct b; auto. Qed.
Lemma tm_check n m : tm (check_size n m) (fun _ => True).
Proof. unfold check_size. apply tm_if; [now apply tm_ret|apply tm_throw]. Qed.

Ltac tms :=
  lazymatch goal with
  | |- tm (noexcept _) _ => apply tm_noexcept
  | |- tm (ret _) _ => apply tm_ret; exact I
  | |- tm ub _ => apply tm_ub
  | |- tm (throw _) _ => apply tm_throw
  | |- tm (bind (vsize _) _) _ => eapply tm_bind; [apply tm_vsize|intros ? ?; cbv beta in *]
  | |- tm (bind (contents _) _) _ => eapply tm_bind; [apply tm_contents|intros ? ?; cbv beta in *]
  | |- tm (bind _ _) _ => apply tm_bind with (P := fun _ => True); [|intros ? _]
  | |- tm (load _ _) _ => apply tm_load
  | |- tm (mat_get _ _ _) _ => apply tm_load
  | |- tm (store _ _ _) _ => apply tm_store
  | |- tm (mat_put _ _ _ _) _ => apply tm_store
  | |- tm (check_size _ _) _ => apply tm_check
  | |- tm (assert_ _ _) _ => apply tm_assert
  | |- tm (vec_at _ _) _ => apply tm_vec_at
  | |- tm (alloc (repeat _ _)) _ => apply tm_alloc_n; try lia
  | |- tm (alloc _) _ => apply tm_alloc; try lia
  | |- tm (for_u32 _ _ _ _) _ => apply tm_for_u32; [try lia|intros]
  | |- tm (for_sz _ _ _ _) _ => apply tm_for_sz; intros
  | |- tm (down_i32 _ _ _) _ => apply tm_down_i32; [try lia|intros]
  | |- tm (if _ then _ else _) _ => apply tm_if
  | |- tm (match ?x with Some _ => _ | None => _ end) _ => destruct x
  | |- tm (let _ := _ in _) _ => cbv zeta
  end.
Ltac tmt := repeat tms.

Section Kernels.
Variables (n : nat) (Hn : (Z.of_nat n < 2 ^ 32)%Z).
Lemma tm_neg v vr : tm (neg_core_simd v vr n) (fun _ => True). Proof using Hn. unfold neg_core_simd. tmt. Qed.
Lemma tm_add v w r : tm (add_core v w r n) (fun _ => True). Proof using Hn. unfold add_core, add_core_simd, add_core_parallel. tmt. Qed.
Lemma tm_sub v w r : tm (sub_core v w r n) (fun _ => True). Proof using Hn. unfold sub_core, sub_core_simd, sub_core_parallel. tmt. Qed.
Lemma tm_axpy a v w : tm (axpy_core a v w n) (fun _ => True). Proof using Hn. unfold axpy_core. tmt. Qed.
Lemma tm_dot v w : tm (dot_core v w n) (fun _ => True). Proof using Hn. unfold dot_core. tmt. Qed.
Lemma tm_scal a v : tm (scal_core a v n) (fun _ => True). Proof using Hn. unfold scal_core. tmt. Qed.
Lemma tm_norm2 v : tm (norm2_core v n) (fun _ => True). Proof using Hn. unfold norm2_core. tmt. Qed.
End Kernels.
Ltac tmk := first
  [ lazymatch goal with
    | |- tm (neg_core_simd _ _ _) _ => apply tm_neg; try lia
    | |- tm (add_core _ _ _ _) _ => apply tm_add; try lia
    | |- tm (sub_core _ _ _ _) _ => apply tm_sub; try lia
    | |- tm (axpy_core _ _ _ _) _ => apply tm_axpy; try lia
    | |- tm (dot_core _ _ _) _ => apply tm_dot; try lia
    | |- tm (scal_core _ _ _) _ => apply tm_scal; try lia
    | |- tm (norm2_core _ _) _ => apply tm_norm2; try lia
    end | tms ].
Ltac tma := repeat tmk.

Lemma tm_neg_d v r : tm (neg_d v r) (fun _ => True). Proof using. unfold neg_d. tma. Qed.
Lemma tm_add_d v w r : tm (add_d v w r) (fun _ => True). Proof using. unfold add_d. tma. Qed.
Lemma tm_sub_d v w r : tm (sub_d v w r) (fun _ => True). Proof using. unfold sub_d. tma. Qed.

(** ** C51: what does hold.  Whatever the arguments are (right sizes or not), every vector
    operation returns if no vector has 2^32 or more elements ... *)
Theorem C51_vectors_partial : forall h, small h -> forall v w r a,
  terminates (neg_d v r) h /\ terminates (op_neg_d v) h /\
  terminates (add_d v w r) h /\ terminates (op_add_d v w) h /\
  terminates (sub_d v w r) h /\ terminates (op_sub_d v w) h /\
  terminates (axpy_d a v w) h /\ terminates (scale_d a v) h /\
  terminates (op_scale_d a v) h /\ terminates (op_div_d v a) h /\
  terminates (dot_d v w) h /\ terminates (dot_member_d v w) h /\ terminates (norm2_d v) h /\
  (forall dbg dx dy dr, terminates (cross2 dbg dx dy v w) h /\ terminates (cross3 dbg dx dy dr v w r) h /\
    terminates (cross3_new dbg dx dy v w) h /\ terminates (cross3_acc dbg dx dy dr v w r) h).
Proof.
  intros h Hs v w r a.
  split; [apply (tm_term _ (fun _ => True)); [apply tm_neg_d|exact Hs]|].
  split. { apply (tm_term _ (fun _ => True)); [|exact Hs]. unfold op_neg_d. tma. apply tm_neg_d. }
  split; [apply (tm_term _ (fun _ => True)); [apply tm_add_d|exact Hs]|].
  split. { apply (tm_term _ (fun _ => True)); [|exact Hs]. unfold op_add_d. tma. apply tm_add_d. }
  split; [apply (tm_term _ (fun _ => True)); [apply tm_sub_d|exact Hs]|].
  split. { apply (tm_term _ (fun _ => True)); [|exact Hs]. unfold op_sub_d. tma. apply tm_sub_d. }
  split. { apply (tm_term _ (fun _ => True)); [|exact Hs]. unfold axpy_d. tma. }
  split. { apply (tm_term _ (fun _ => True)); [|exact Hs]. unfold scale_d. tma. }
  split. { apply (tm_term _ (fun _ => True)); [|exact Hs]. unfold op_scale_d. tma. }
  split. { apply (tm_term _ (fun _ => True)); [|exact Hs]. unfold op_div_d. tma. }
  split. { apply (tm_term _ (fun _ => True)); [|exact Hs]. unfold dot_d. tma. }
  split. { apply (tm_term _ (fun _ => True)); [|exact Hs]. unfold dot_member_d. tma. }
  split. { apply (tm_term _ (fun _ => True)); [|exact Hs]. unfold norm2_d. tma. }
  intros dbg dx dy dr. split. { apply (tm_term _ (fun _ => True)); [|exact Hs]. unfold cross2, cross2_core. tma. }
  split. { apply (tm_term _ (fun _ => True)); [|exact Hs]. unfold cross3, cross3_core. tma. }
  split. { apply (tm_term _ (fun _ => True)); [|exact Hs]. unfold cross3_new, cross3_core. tma. }
  apply (tm_term _ (fun _ => True)); [|exact Hs]. unfold cross3_acc, cross3_acc_core. tma.
Qed.

Definition small_mat (A : mat) : Prop := (Z.of_nat (mr A) < 2 ^ 32 /\ Z.of_nat (mc A) < 2 ^ 32 /\ Z.of_nat (mr A * mc A) < 2 ^ 32)%Z.

Lemma tm_mv n m a A x b y : (Z.of_nat n < 2 ^ 32)%Z -> (Z.of_nat m < 2 ^ 32)%Z -> tm (mv_core n m a A x b y) (fun _ => True).
Proof. intros Hn Hm. unfold mv_core, copy_n. tma. Qed.
Lemma tm_mm n m o a A B b C : (Z.of_nat n < 2 ^ 32)%Z -> (Z.of_nat m < 2 ^ 32)%Z -> (Z.of_nat o < 2 ^ 32)%Z -> (Z.of_nat (n * m) < 2 ^ 32)%Z ->
  tm (mm_core n m o a A B b C) (fun _ => True).
Proof. intros Hn Hm Ho Hnm. unfold mm_core, copy_n. tma. Qed.

(** ... every matrix operation returns if no matrix has 2^32 or more elements ... *)
Theorem C51_matrices_partial : forall h, small h -> forall A B C v w a b dbg, small_mat A -> small_mat B -> small_mat C ->
  (Z.of_nat (mr A * mc B) < 2 ^ 32)%Z ->
  terminates (mulv dbg a A v b w) h /\ terminates (op_mulv dbg A v) h /\
  terminates (mulm dbg a A B b C) h /\ terminates (op_mulm dbg A B) h /\
  terminates (addm dbg A B C) h /\ terminates (op_addm dbg A B) h /\
  terminates (subm dbg A B C) h /\ terminates (op_subm dbg A B) h /\
  terminates (scalem a A) h /\ terminates (op_scalem a A) h /\ terminates (op_negm A) h /\
  terminates (mat_filled a (mr A) (mc A)) h.
Proof.
  intros h Hs A B C v w a b dbg (A1 & A2 & A3) (B1 & B2 & B3) (C1 & C2 & C3) AB.
  split. { apply (tm_term _ (fun _ => True)); [|exact Hs]. unfold mulv. tma. apply tm_mv; auto. }
  split. { apply (tm_term _ (fun _ => True)); [|exact Hs]. unfold op_mulv. tma. apply tm_mv; auto. }
  split. { apply (tm_term _ (fun _ => True)); [|exact Hs]. unfold mulm. tma. apply tm_mm; auto. }
  split. { apply (tm_term _ (fun _ => True)); [|exact Hs]. unfold op_mulm. apply tm_noexcept.
    apply tm_bind with (P := fun D => mr D = mr A /\ mc D = mc B).
    - unfold mat_uninit. eapply tm_bind; [apply tm_alloc_n; lia|]. intros p _. apply tm_ret. auto.
    - intros D [D1 D2]. unfold mulm. tma. apply tm_mm; rewrite ?D1, ?D2; auto. }
  split. { apply (tm_term _ (fun _ => True)); [|exact Hs]. unfold addm. tma. }
  split. { apply (tm_term _ (fun _ => True)); [|exact Hs]. unfold op_addm, mat_copy, addm. tma. }
  split. { apply (tm_term _ (fun _ => True)); [|exact Hs]. unfold subm. tma. }
  split. { apply (tm_term _ (fun _ => True)); [|exact Hs]. unfold op_subm, mat_copy, subm. tma. }
  split. { apply (tm_term _ (fun _ => True)); [|exact Hs]. unfold scalem. tma. }
  assert (SC : forall x, tm (noexcept (D <- mat_copy A ;; scalem x D ;; ret D)) (fun _ => True)).
  { intros x. apply tm_noexcept. apply tm_bind with (P := fun D => mr D = mr A /\ mc D = mc A).
    - unfold mat_copy. eapply tm_bind; [apply tm_contents|]. intros l Hl. eapply tm_bind; [apply tm_alloc; exact Hl|]. intros p _. apply tm_ret. auto.
    - intros D [D1 D2]. unfold scalem. tma; now rewrite D1, D2. }
  split; [apply (tm_term _ (fun _ => True)); [|exact Hs]; apply SC|].
  split; [apply (tm_term _ (fun _ => True)); [|exact Hs]; apply SC|].
  apply (tm_term _ (fun _ => True)); [|exact Hs]. unfold mat_filled, mat_uninit. tma.
Qed.

(** ... and so do the direct solvers and the application of the ILU preconditioner. *)
Lemma tm_chol_lin mt n m l b x : (Z.of_nat n < 2 ^ 32)%Z -> (Z.of_nat m < 2 ^ 32)%Z -> tm (cholesky_linear mt n m l b x) (fun _ => True).
Proof. intros Hn Hm. unfold cholesky_linear. tma. Qed.
Lemma tm_mod_lin mt n m l b x : (Z.of_nat n < 2 ^ 32)%Z -> (Z.of_nat m < 2 ^ 32)%Z -> tm (mod_cholesky_linear mt n m l b x) (fun _ => True).
Proof. intros Hn Hm. unfold mod_cholesky_linear. tma. Qed.
Theorem C51_solvers_partial : forall h, small h -> forall dbg (t : tri T) v w A B (F : chol) (H : herm T),
  (Z.of_nat (tri_order t) < 2 ^ 32)%Z -> small_mat A -> small_mat B -> (Z.of_nat (chn F) < 2 ^ 32)%Z ->
  (Z.of_nat (en H) < 2 ^ 32)%Z -> (Z.of_nat (length (ev H)) < 2 ^ 32)%Z ->
  terminates (tridiag_solve_vec dbg t v w) h /\ terminates (tridiag_solve_mat dbg t A B) h /\
  terminates (dyn_cholesky A) h /\ terminates (tri_cholesky H) h /\ terminates (mod_cholesky A) h /\
  terminates (chol_solve_mut_vec dbg F v) h /\ terminates (chol_solve_vec dbg F v) h /\
  terminates (chol_solve_mut_mat dbg F A) h /\ terminates (chol_solve_mat dbg F A) h /\
  terminates (mod_solve_mut_vec dbg F v) h /\ terminates (mod_solve_vec dbg F v) h /\
  terminates (mod_solve_mut_mat dbg F A) h /\ terminates (mod_solve_mat dbg F A) h /\
  terminates (ilu_dyn A) h /\ terminates (ilu_dyn_solve A v) h.
Proof.
  intros h Hs dbg t v w A B F H Ht (A1 & A2 & A3) (B1 & B2 & B3) HF H1 H2.
  split. { apply (tm_term _ (fun _ => True)); [|exact Hs]. unfold tridiag_solve_vec, tdma, tdma_col. tma. }
  split. { apply (tm_term _ (fun _ => True)); [|exact Hs]. unfold tridiag_solve_mat, tdma, tdma_col. tma. }
  assert (CD : forall mt n l, (Z.of_nat n < 2 ^ 32)%Z -> tm (cholesky_decomposition mt n l) (fun _ => True)).
  { intros mt n l Hn. unfold cholesky_decomposition. tma. }
  split. { apply (tm_term _ (fun _ => True)); [|exact Hs]. unfold dyn_cholesky, mat_copy. tma. apply CD; auto. }
  split. { apply (tm_term _ (fun _ => True)); [|exact Hs]. unfold tri_cholesky. tma. apply CD; auto. }
  split. { apply (tm_term _ (fun _ => True)); [|exact Hs]. unfold mod_cholesky, mat_copy, mod_cholesky_decomposition. tma. }
  split. { apply (tm_term _ (fun _ => True)); [|exact Hs]. unfold chol_solve_mut_vec. tma. apply tm_chol_lin; lia. }
  split. { apply (tm_term _ (fun _ => True)); [|exact Hs]. unfold chol_solve_vec, vec_copy. tma. apply tm_chol_lin; lia. }
  split. { apply (tm_term _ (fun _ => True)); [|exact Hs]. unfold chol_solve_mut_mat. tma. apply tm_chol_lin; lia. }
  split. { apply (tm_term _ (fun _ => True)); [|exact Hs]. unfold chol_solve_mat, mat_copy. tma. apply tm_chol_lin; lia. }
  split. { apply (tm_term _ (fun _ => True)); [|exact Hs]. unfold mod_solve_mut_vec. tma. apply tm_mod_lin; lia. }
  split. { apply (tm_term _ (fun _ => True)); [|exact Hs]. unfold mod_solve_vec, vec_copy. tma. apply tm_mod_lin; lia. }
  split. { apply (tm_term _ (fun _ => True)); [|exact Hs]. unfold mod_solve_mut_mat. tma. apply tm_mod_lin; lia. }
  split. { apply (tm_term _ (fun _ => True)); [|exact Hs]. unfold mod_solve_mat, mat_copy. tma. apply tm_mod_lin; lia. }
  split. { apply (tm_term _ (fun _ => True)); [|exact Hs]. unfold ilu_dyn, ilu_new, ilu_decomp, ilu_sum.
    eapply tm_bind with (P := fun D => mr D = mr A /\ mc D = mc A); [unfold mat_copy; tma; now apply tm_ret|]. intros D (D1 & D2).
    eapply tm_bind with (P := fun _ => True); [|intros; now apply tm_ret].
    eapply tm_bind with (P := fun _ => True); [|intros; tma].
    eapply tm_bind with (P := fun sh => sh = (mr D, mc D)); [now apply tm_ret|]. intros sh ->. cbn [fst snd]; rewrite ?D1, ?D2.
    apply tm_for_u32; [lia|]. intros i ok Hi. apply tm_if; [now apply tm_ret|].
    eapply tm_bind with (P := fun _ => True).
    - tma.
    - intros ok1 _. apply tm_if; [now apply tm_ret|].
      eapply tm_bind with (P := fun sh => sh = (mr A, mc A)); [now apply tm_ret|]. intros sh ->. cbn [fst snd]. tma. }
  apply (tm_term _ (fun _ => True)); [|exact Hs]. unfold ilu_dyn_solve, ilu_solve, dynvec_uninit. tma.
  unfold down_sz. apply tm_loop. intros. tma.
Qed.

(** ** C51 as stated is false: vectors of 2^32 elements or more *)
Definition huge h p : Prop := (2 ^ 32 <= Z.of_nat (len h p))%Z.
Lemma huge_fits h p : huge h p -> fits_u32 (len h p) = false.
Proof. unfold huge, fits_u32. intros H. destruct (Z.ltb_spec (Z.of_nat (len h p)) (2 ^ 32)); [lia|auto]. Qed.

(** No operation on such vectors returns. *)
Theorem C51_diverges : forall h v w r a, huge h v -> len h w = len h v -> len h r = len h v ->
  neg_d v r h = Diverge /\ add_d v w r h = Diverge /\ sub_d v w r h = Diverge /\ axpy_d a v w h = Diverge /\
  scale_d a v h = Diverge /\ dot_d v w h = Diverge /\ norm2_d v h = Diverge.
Proof.
  intros h v w r a Hv Hw Hr. pose proof (huge_fits h v Hv) as Hf.
  assert (L16 : Nat.ltb (len h v) 16 = false) by (apply Nat.ltb_ge; unfold huge in Hv; lia).
  assert (LD : forall p, len h p = len h v -> exists x, load p 0 h = Ok x h).
  { intros p Hp. unfold load. destruct (nth_error (mem h p) 0) eqn:E; [eauto|].
    apply nth_error_None in E. fold (len h p) in E. unfold huge in Hv. lia. }
  destruct (LD v eq_refl) as (x0 & Ev). destruct (LD w Hw) as (y0 & Ew).
  split. { apply neg_d_diverges; auto. }
  split. { unfold add_d, bind at 1 2 3 4, vsize, check_size. fold (len h v) (len h w). rewrite Hw, Nat.eqb_refl. unfold ret at 1.
    unfold add_core, add_core_parallel, bind, for_u32. now rewrite L16, Hf. }
  split. { unfold sub_d, bind at 1 2 3 4, vsize, check_size. fold (len h v) (len h w). rewrite Hw, Nat.eqb_refl. unfold ret at 1.
    unfold sub_core, sub_core_parallel, bind, for_u32. now rewrite L16, Hf. }
  split. { unfold axpy_d, noexcept, bind at 1 2 3 4, vsize, check_size. fold (len h v) (len h w). rewrite Hw, Nat.eqb_refl. unfold ret at 1.
    unfold axpy_core, bind, for_u32. now rewrite Hf. }
  split. { unfold scale_d, noexcept, bind at 1, vsize. fold (len h v). unfold scal_core, bind, for_u32. now rewrite Hf. }
  split. { unfold dot_d, noexcept, bind at 1 2 3, vsize, check_size. fold (len h v) (len h w). rewrite Hw, Nat.eqb_refl. unfold ret at 1.
    unfold dot_core, bind. rewrite Ev, Ew. unfold for_u32. now rewrite Hf. }
  unfold norm2_d, noexcept, bind at 1, vsize. fold (len h v). unfold norm2_core, bind, for_u32. now rewrite Hf.
Qed.

(** ... and this is what the 32-bit counter of the source does: no number of iterations suffices. *)
Theorem C51_loop_refuted : exists h v r, (Z.of_nat (len h v) < 2 ^ 64)%Z /\ len h v = len h r /\ neg_d v r h = Diverge /\
  forall fuel, u32_loop fuel 0 (Z.of_nat (len h v)) (fun i (_ : unit) => x <- load v i ;; store r i (opp x)) tt h = None.
Proof.
  pose (n := Z.to_nat (2 ^ 32)).
  exists (heap_of [repeat zero n; repeat zero n]), 0, 1.
  assert (L0 : len (heap_of [repeat (zero (T := T)) n; repeat zero n]) 0 = n) by (unfold len; cbn [heap_of mem nth]; apply repeat_length).
  assert (L1 : len (heap_of [repeat (zero (T := T)) n; repeat zero n]) 1 = n) by (unfold len; cbn [heap_of mem nth]; apply repeat_length).
  assert (Zn : Z.of_nat n = (2 ^ 32)%Z) by (unfold n; rewrite Z2Nat.id; lia).
  split; [rewrite L0, Zn; lia|]. split; [congruence|]. split.
  - apply neg_d_diverges; [|congruence]. apply huge_fits. unfold huge. rewrite L0, Zn. lia.
  - apply neg_loop_never_ends; [rewrite L0, Zn; lia|congruence].
Qed.
End Term.

(** ** C52 *)

(** The rows visited by the loop [for (int32_t i = n - 1; i >= 0; --i)] of the source, run
    literally with a body that records the row. *)
Definition visits (n : nat) (rows : list nat) : Prop := exists fuel,
  i32_down_loop fuel (to_int32 (Z.of_nat n - 1)) (fun i (l : list nat) => ret (l ++ [i])) [] tt = Some (Ok rows tt).

Lemma log_loop l acc : loop l (fun i (l : list nat) => ret (S := unit) (l ++ [i])) acc tt = Ok (acc ++ l) tt.
Proof.
  revert acc. induction l as [|i l IH]; intros acc; cbn [loop]; [now rewrite app_nil_r|].
  unfold bind, ret at 1. rewrite IH. now rewrite <- app_assoc.
Qed.
Lemma visits_iff n rows : visits n rows <-> rows = down_list (to_int32 (Z.of_nat n - 1)).
Proof.
  destruct (down_i32_is_the_signed_loop (fun i (l : list nat) => ret (S := unit) (l ++ [i])) n [] tt) as [f0 Hf].
  unfold visits. unfold down_i32 in Hf. rewrite log_loop in Hf. cbn [app] in Hf. split.
  - intros (fuel & E). pose proof (i32_down_mono _ (Nat.max fuel f0) _ _ _ _ _ E ltac:(lia)) as E2.
    rewrite (Hf (Nat.max fuel f0)) in E2 by lia. congruence.
  - intros ->. exists f0. apply Hf. lia.
Qed.

(** The sweep visits rows n-1, ..., 0 exactly if n <= 2^31. *)
Theorem C52_rows_partial : forall n, (Z.of_nat n < 2 ^ 64)%Z -> (visits n (rev (seq 0 n)) <-> (Z.of_nat n <= 2 ^ 31)%Z).
Proof. intros n Hn. rewrite visits_iff. rewrite <- down_rows_iff by auto. split; intros; congruence. Qed.

Theorem C52_rows_refuted : exists n, (Z.of_nat n < 2 ^ 64)%Z /\ visits n [] /\ rev (seq 0 n) <> [].
Proof.
  exists (Z.to_nat (2 ^ 31 + 1)). assert (E : Z.of_nat (Z.to_nat (2 ^ 31 + 1)) = (2 ^ 31 + 1)%Z) by (rewrite Z2Nat.id; lia).
  split; [lia|]. split.
  - apply visits_iff. rewrite E. reflexivity.
  - intros H. apply (f_equal (@length nat)) in H. rewrite rev_length, seq_length in H. cbn [length] in H. lia.
Qed.

(** Between 2^31 and 2^32 rows the sweep is skipped altogether, whatever it was to do; so the
    tridiagonal and Cholesky solvers return the result of the forward sweep. *)
Theorem C52_skipped : forall (S A : Type) n (body : nat -> A -> M S A) a s,
  (2 ^ 31 < Z.of_nat n <= 2 ^ 32)%Z -> down_i32 n body a s = Ok a s.
Proof.
  intros S A n body a s Hn. unfold down_i32.
  assert (to_int32 (Z.of_nat n - 1) < 0)%Z.
  { unfold to_int32. rewrite Z.mod_small by lia. destruct (Z.ltb_spec (Z.of_nat n - 1) (2 ^ 31)); lia. }
  unfold down_list. destruct (Z.ltb_spec (to_int32 (Z.of_nat n - 1)) 0); [reflexivity|lia].
Qed.

(** Hypotheses can be met. *)
Example C51_ex : small (heap_of [[1; 2; 3]%Z; [4; 5; 6]%Z]) /\ small_mat (mkMat 0 1 3).
Proof. split; [intros [|[|[|p]]]; vm_compute; reflexivity|unfold small_mat; cbn; lia]. Qed.
Example C52_ex : visits 3 [2; 1; 0].
Proof. exists 4. reflexivity. Qed.

Print Assumptions C51_vectors_partial.
Print Assumptions C51_matrices_partial.
Print Assumptions C51_solvers_partial.
Print Assumptions C51_diverges.
Print Assumptions C51_loop_refuted.
Print Assumptions C52_rows_partial.
Print Assumptions C52_rows_refuted.
Print Assumptions C52_skipped.
