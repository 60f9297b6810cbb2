(** * Properties C36, C37, C38: the tridiagonal solver *)
From Coq Require Import QArith Qcanon Reals Lra Lia.
From Verif Require Import Base Scalar BaseLemmas Spec Sums RealVec ModelVec ModelMat SpecMat ModelPacked PropPacked
  ProofVecSched ProofPacked ModelSolvers ProofTdma.
Local Open Scope nat_scope.

(** The matrix of the solver object. *)
Definition tmat {T} {Op : Ops T} (t : tri T) : nat -> nat -> T := band T Op (tdl t) (td t) (tdu t).
(** Every leading square block is non-singular: elimination without exchanges meets no zero
    pivot ([tri_pivots] below). *)
Definition leading_nonsingular {T} {Op : Ops T} n (A : nat -> nat -> T) : Prop :=
  forall m, m <= n -> nonsingular m A.

Lemma leading_pivots T (Op : Ops T) (F : IsField T Op) (t : tri T) n :
  leading_nonsingular n (tmat t) -> forall i, i < n -> tri_pivot (atf (tdl t)) (atf (td t)) (atf (tdu t)) i <> zero.
Proof. intros H. apply pivots_iff_leading. exact H. Qed.

(** The pivots d_0, d_(i+1) - l_i u_i / pivot_i of the elimination are non-zero exactly then. *)
Theorem C36_tri_pivots : forall T (Op : Ops T) (F : IsField T Op) (t : tri T) n,
  (forall i, i < n -> tri_pivot (atf (tdl t)) (atf (td t)) (atf (tdu t)) i <> zero) <->
  leading_nonsingular n (tmat t).
Proof. intros. apply pivots_iff_leading. Qed.

Theorem C36_vector : forall T (Op : Ops T) (F : IsField T Op) dbg (t : tri T) n b rslt (h : heap T),
  2 <= n -> fits_i32 n = true -> tri_wf T t n -> leading_nonsingular n (tmat t) ->
  isvec h b n -> rslt < next h -> n <= len h rslt ->
  exists h', tridiag_solve_vec dbg t b rslt h = Ok rslt h' /\
    ext_but h h' rslt /\ next h' = next h /\ len h' rslt = len h rslt /\
    (forall i, n <= i -> rd h' rslt i = rd h rslt i) /\
    solves n (tmat t) (rd h' rslt) (rd h b) /\
    forall y, solves n (tmat t) y (rd h b) -> veq n y (rd h' rslt).
Proof.
  intros T Op F dbg t n b rslt h Hn Hf (W1 & W2 & W3) Hl [Hb Lb] Hr Lr. apply post_eq.
  unfold tridiag_solve_vec. apply post_noexcept. apply post_bind, post_vsize.
  apply post_bind, post_assert. { unfold tri_order. rewrite W1, Lb. apply Nat.eqb_refl. }
  apply post_bind. eapply post_mono.
  { apply tdma_ok; unfold tri_order; rewrite ?W1; auto; try lia; try exact (leading_pivots _ _ _ t n Hl). }
  intros r h' (-> & N & M & L & O & S). apply post_ret. split; [reflexivity|].
  unfold tri_order in *. rewrite W1 in *.
  assert (SX : solves n (tmat t) (rd h' rslt) (rd h b)).
  { intros i Hi. generalize (S 0 ltac:(lia) i Hi). unfold mvmul. rewrite Nat.mul_1_r. cbn [plus]. intros <-.
    apply bsum_ext. intros j Hj. now rewrite Nat.mul_1_r. }
  split; [split; [lia|auto]|]. split; [auto|]. split; [auto|].
  split; [intros i Hi; apply O; lia|]. split; [exact SX|].
  intros y Hy. eapply solves_unique; eauto.
Qed.

Theorem C37_columns : forall T (Op : Ops T) (F : IsField T Op) dbg (t : tri T) n m B X (h : heap T),
  2 <= n -> fits_i32 n = true -> fits_u32 m = true -> tri_wf T t n -> leading_nonsingular n (tmat t) ->
  ismat h B n m -> ismat h X n m ->
  exists h', tridiag_solve_mat dbg t B X h = Ok X h' /\
    ext_but h h' (mp X) /\ next h' = next h /\ ismat h' X n m /\
    forall k, k < m ->
      solves n (tmat t) (fun i => mget h' X i k) (fun i => mget h B i k) /\
      forall y, solves n (tmat t) y (fun i => mget h B i k) -> veq n y (fun i => mget h' X i k).
Proof.
  intros T Op F dbg t n m B X h Hn Hf Hm (W1 & W2 & W3) Hl (B1 & B2 & B3 & B4) (X1 & X2 & X3 & X4). apply post_eq.
  unfold tridiag_solve_mat. apply post_noexcept.
  apply post_bind, post_assert. { unfold tri_order. rewrite W1, B2. apply Nat.eqb_refl. }
  apply post_bind, post_assert. { unfold shape_eqb. rewrite B2, B3, X2, X3, !Nat.eqb_refl. reflexivity. }
  apply post_bind. eapply post_mono.
  { apply tdma_ok; unfold tri_order; rewrite ?W1, ?B3; auto; try lia; try exact (leading_pivots _ _ _ t n Hl). }
  intros r h' (-> & N & M & L & O & S). apply post_ret. split; [reflexivity|].
  unfold tri_order in *. rewrite W1, B3 in *.
  split; [split; [lia|auto]|]. split; [auto|]. split; [repeat split; auto; lia|].
  intros k Hk.
  assert (SX : solves n (tmat t) (fun i => mget h' X i k) (fun i => mget h B i k)).
  { intros i Hi. generalize (S k Hk i Hi). unfold mvmul, mget. rewrite X3, B3.
    replace (i * m + k)%nat with (k + i * m)%nat by lia. intros <-.
    apply bsum_ext. intros j Hj. now rewrite (Nat.add_comm (j * m) k). }
  split; [exact SX|]. intros y Hy. eapply solves_unique; eauto.
Qed.

(** ** Strict diagonal dominance over the reals *)
Local Open Scope R_scope.

Definition strictly_dominant n (A : nat -> nat -> R) : Prop :=
  forall i, (i < n)%nat -> bsum n (fun j => if Nat.eqb j i then 0 else Rabs (A i j)) < Rabs (A i i).
(** Positive definite quadratic form. *)
Definition pos_def n (A : nat -> nat -> R) : Prop :=
  forall x, (exists i, (i < n)%nat /\ x i <> 0) -> 0 < bsum n (fun i => x i * mvmul n A x i).

(** A strictly dominant matrix is non-singular (any matrix, not only tridiagonal). *)
Lemma dominant_nonsingular n A : strictly_dominant n A -> nonsingular n A.
Proof.
  intros HD x Hx.
  (* an index where |x| is largest *)
  assert (HM : forall k, (0 < k <= n)%nat -> exists i, (i < k)%nat /\ forall j, (j < k)%nat -> Rabs (x j) <= Rabs (x i)).
  { induction k as [|k IH]; intros Hk; [lia|]. destruct k as [|k].
    - exists 0%nat. split; [lia|]. intros j Hj. replace j with 0%nat by lia. lra.
    - destruct IH as (i & Hi & Hm); [lia|]. destruct (Rle_dec (Rabs (x (S k))) (Rabs (x i))) as [Hle|Hgt].
      + exists i. split; [lia|]. intros j Hj. destruct (Nat.eq_dec j (S k)) as [->|]; [auto|apply Hm; lia].
      + exists (S k). split; [lia|]. intros j Hj. destruct (Nat.eq_dec j (S k)) as [->|]; [lra|].
        pose proof (Hm j ltac:(lia)). lra. }
  intros i0 Hi0. destruct (HM n ltac:(lia)) as (i & Hi & Hmax).
  destruct (Req_dec (x i) 0) as [Z|NZ].
  { pose proof (Hmax i0 Hi0) as H. rewrite Z, Rabs_R0 in H. destruct (Req_dec (x i0) 0) as [|N]; auto.
    pose proof (Rabs_pos_lt _ N). lra. }
  exfalso.
  assert (E : A i i * x i = - bsum n (fun j => if Nat.eqb j i then 0 else A i j * x j)).
  { pose proof (Hx i Hi) as H. unfold mvmul in H.
    rewrite (bsum_ext n (fun k => mul (A i k) (x k))
      (fun k => add (if Nat.eqb k i then A i i * x i else 0) (if Nat.eqb k i then 0 else A i k * x k))) in H.
    2:{ intros j Hj. cbn. destruct (Nat.eqb_spec j i) as [->|]; ring. }
    rewrite bsum_add in H. rewrite (bsum_single n _ i Hi) in H.
    - rewrite Nat.eqb_refl in H. cbn in H. cbn. lra.
    - intros j Hj Hji. destruct (Nat.eqb_spec j i); [lia|reflexivity]. }
  assert (L : Rabs (A i i) * Rabs (x i) <= bsum n (fun j => if Nat.eqb j i then 0 else Rabs (A i j)) * Rabs (x i)).
  { rewrite <- Rabs_mult, E, Rabs_Ropp. eapply Rle_trans; [apply bsum_abs|].
    change Rmult with (@mul R ROps). rewrite <- bsum_scal_r. apply bsum_le. intros j Hj.
    destruct (Nat.eqb_spec j i); cbn; [rewrite Rabs_R0; lra|].
    rewrite Rabs_mult. apply Rmult_le_compat_l; [apply Rabs_pos|]. apply Hmax; auto. }
  pose proof (HD i Hi). pose proof (Rabs_pos_lt _ NZ). nra.
Qed.

Lemma dominant_leading n A : strictly_dominant n A -> leading_nonsingular n A.
Proof.
  intros HD m Hm. apply dominant_nonsingular. intros i Hi.
  eapply Rle_lt_trans; [|apply (HD i); lia]. rewrite (bsum_split n m) by lia.
  assert (0 <= bsum (n - m) (fun i0 => if Nat.eqb (m + i0) i then 0 else Rabs (A i (m + i0)%nat))).
  { apply bsum_nonneg. intros j Hj. destruct (Nat.eqb (m + j) i); [lra|apply Rabs_pos]. }
  cbn. lra.
Qed.

Lemma pos_def_leading n A : pos_def n A -> leading_nonsingular n A.
Proof.
  intros HP m Hm x Hx i Hi. destruct (Req_dec (x i) 0) as [|N]; auto. exfalso.
  pose (y := fun j => if Nat.ltb j m then x j else 0).
  assert (H : 0 < bsum n (fun i => y i * mvmul n A y i)).
  { apply HP. exists i. split; [lia|]. unfold y. destruct (Nat.ltb_spec i m); [auto|lia]. }
  rewrite (bsum_zero n) in H; [cbn in H; lra|].
  intros j Hj. unfold y at 1. destruct (Nat.ltb_spec j m) as [Hjm|]; [|cbn; ring].
  assert (E : mvmul n A y j = mvmul m A x j).
  { unfold mvmul. rewrite (bsum_trunc n m); [|lia|].
    2:{ intros k Hk. unfold y. destruct (Nat.ltb_spec k m); [lia|]. cbn. ring. }
    apply bsum_ext. intros k Hk. unfold y. destruct (Nat.ltb_spec k m); [reflexivity|lia]. }
  rewrite E, Hx by auto. cbn. ring.
Qed.

Theorem C36_dominant : forall dbg (t : tri R) n b rslt (h : heap R),
  (2 <= n)%nat -> fits_i32 n = true -> tri_wf R t n -> strictly_dominant n (tmat t) ->
  isvec h b n -> (rslt < next h)%nat -> (n <= len h rslt)%nat ->
  exists h', tridiag_solve_vec dbg t b rslt h = Ok rslt h' /\
    solves n (tmat t) (rd h' rslt) (rd h b) /\
    forall y, solves n (tmat t) y (rd h b) -> veq n y (rd h' rslt).
Proof.
  intros. destruct (C36_vector R ROps R_field dbg t n b rslt h) as (h' & E & _ & _ & _ & _ & S & U); auto.
  { now apply dominant_leading. }
  eauto.
Qed.

Theorem C36_pos_def : forall dbg (t : tri R) n b rslt (h : heap R),
  (2 <= n)%nat -> fits_i32 n = true -> tri_wf R t n -> pos_def n (tmat t) ->
  isvec h b n -> (rslt < next h)%nat -> (n <= len h rslt)%nat ->
  exists h', tridiag_solve_vec dbg t b rslt h = Ok rslt h' /\
    solves n (tmat t) (rd h' rslt) (rd h b) /\
    forall y, solves n (tmat t) y (rd h b) -> veq n y (rd h' rslt).
Proof.
  intros. destruct (C36_vector R ROps R_field dbg t n b rslt h) as (h' & E & _ & _ & _ & _ & S & U); auto.
  { now apply pos_def_leading. }
  eauto.
Qed.

Lemma bind_ok_ub {S A B} (m : M S A) (f : A -> M S B) s a s' : m s = Ok a s' -> f a s' = UB -> bind m f s = UB.
Proof. intros E H. unfold bind. now rewrite E. Qed.

(** A vector result that is too short is not detected: the solver writes past its end. *)
Local Open Scope nat_scope.
Theorem C36_short_result : forall T (Op : Ops T) dbg (t : tri T) n b rslt (h : heap T),
  2 <= n -> fits_i32 n = true -> tri_wf T t n -> len h b = n -> len h rslt < n ->
  tridiag_solve_vec dbg t b rslt h = UB.
Proof.
  intros T Op dbg t n b rslt h Hn Hf (W1 & W2 & W3) Lb Lr.
  unfold tridiag_solve_vec, noexcept, vsize, assert_. unfold bind at 1.
  unfold tri_order. unfold len in Lb. rewrite W1, Lb, Nat.eqb_refl. cbn [negb]. rewrite andb_false_r.
  cbv [bind ret]. unfold tdma.
  assert (E : forall k, k < 1 -> tdma_col n 1 (tdl t) (td t) (tdu t) b rslt k h = UB).
  { intros k Hk. unfold tdma_col.
    eapply bind_ok_ub; [apply vec_at_eq; lia|].
    eapply bind_ok_ub; [apply vec_at_eq; lia|].
    eapply bind_ok_ub; [apply load_ok; unfold len; lia|].
    match goal with |- bind (for_u32 1 ?m ?body ?a) ?f h = _ =>
      assert (P : post (for_u32 1 m body a) h (fun pq h1 => h1 = h /\ length (fst pq) = m /\ length (snd pq) = m)) end.
    { apply post_for_u32 with (I := fun i pq h1 => h1 = h /\ length (fst pq) = i /\ length (snd pq) = i).
      - apply fits_u32_le with n; [now apply fits_i32_u32|lia].
      - lia.
      - auto.
      - intros i pq h1 Hi (-> & P1 & P2).
        apply post_bind, (post_vec_at _ _ _ zero); [lia|].
        apply post_bind, (post_vec_at _ _ _ zero); [lia|].
        apply post_bind, (post_vec_at _ _ _ zero); [lia|]. cbv zeta.
        apply post_bind, (post_vec_at _ _ _ zero); [lia|].
        apply post_bind, post_load; [unfold len; lia|].
        apply post_bind, (post_vec_at _ _ _ zero); [lia|].
        apply post_ret. cbn [fst snd]. rewrite !app_length. cbn [length]. repeat split; lia.
      - auto. }
    destruct (post_ok _ _ _ P) as (pq & h1 & E & -> & P1 & P2).
    eapply bind_ok_ub; [exact E|]. cbv beta.
    destruct (Nat.eqb_spec (n - 1) 0); [reflexivity|].
    eapply bind_ok_ub; [apply load_ok; unfold len; lia|].
    eapply bind_ok_ub; [apply vec_at_eq; lia|].
    eapply bind_ok_ub; [apply vec_at_eq; lia|].
    eapply bind_ok_ub; [apply vec_at_eq; lia|].
    eapply bind_ok_ub; [apply vec_at_eq; lia|].
    unfold bind at 1, store at 1. destruct (Nat.ltb_spec (k + (n - 1) * 1) (length (mem h rslt))); [|reflexivity].
    unfold len in Lr. lia. }
  unfold bind, for_u32, for_sz, fits_u32. cbn [Z.of_nat Nat.sub seq loop]. cbn.
  unfold bind. rewrite E by lia. reflexivity.
Qed.

(** ** C38: order 1 *)

(** Every solve of a system of order 1 (or 0) is undefined: the kernel reads du[0], dl[-1]. *)
Theorem C38_order_one_refuted : forall T (Op : Ops T) dbg (t : tri T) b rslt (h : heap T),
  tri_wf T t 1 -> len h b = 1 -> tridiag_solve_vec dbg t b rslt h = UB.
Proof.
  intros T Op dbg t b rslt h (W1 & W2 & W3) Lb.
  unfold tridiag_solve_vec, noexcept, vsize, assert_. unfold bind at 1.
  unfold tri_order. unfold len in Lb. rewrite W1, Lb. cbn [Nat.eqb negb]. rewrite andb_false_r.
  cbv [bind ret tdma for_u32 for_sz fits_u32]. cbn [Z.of_nat Nat.sub seq loop]. cbn.
  unfold bind, tdma_col, bind, vec_at at 1. destruct (tdu t); [reflexivity|discriminate].
Qed.
Theorem C38_order_one_mat : forall T (Op : Ops T) dbg (t : tri T) m B X (h : heap T),
  tri_wf T t 1 -> ismat h B 1 m -> ismat h X 1 m -> 0 < m -> fits_u32 m = true ->
  tridiag_solve_mat dbg t B X h = UB.
Proof.
  intros T Op dbg t m B X h (W1 & W2 & W3) (B1 & B2 & B3 & B4) (X1 & X2 & X3 & X4) Hm Hf.
  unfold tridiag_solve_mat, noexcept, assert_. unfold tri_order, shape_eqb.
  rewrite W1, B2, B3, X2, X3, !Nat.eqb_refl. cbn [negb andb]. rewrite andb_false_r.
  cbv [bind ret tdma for_u32 for_sz]. rewrite Hf. destruct m as [|m]; [lia|]. cbn [Nat.sub seq loop].
  unfold bind, tdma_col, bind, vec_at at 1. destruct (tdu t); [reflexivity|discriminate].
Qed.

(** ** Examples *)
Definition qz (z : Z) : Qc := Q2Qc (z # 1).
Example C36_example :
  let t := mkTri [qz (-1); qz (-1)] [qz 2; qz 2; qz 2] [qz (-1); qz (-1)] in
  let h := heap_of [[qz 1; qz 0; qz 1]; [qz 0; qz 0; qz 0]] in
  tri_wf Qc t 3 /\ leading_nonsingular 3 (tmat t) /\ isvec h 0 3 /\
  option_map (map this) (peek (tridiag_solve_vec true t 0 1 h) (fun r => r)) = Some [1%Q; 1%Q; 1%Q] /\
  option_map (map this) (peek (tridiag_solve_vec true t 0 0 h) (fun r => r)) = Some [1%Q; 1%Q; 1%Q].
Proof.
  cbv zeta. split; [repeat split|]. split.
  - apply (proj1 (C36_tri_pivots _ _ _ _ _)). intros [|[|[|i]]] Hi; [..|lia]; intros H; apply (f_equal this) in H; vm_compute in H; discriminate.
  - split; [split; cbn; auto|]. split; vm_compute; reflexivity.
Qed.
Example C37_example :
  let t := mkTri [qz 1] [qz 2; qz 1] [qz 1] in
  let h := heap_of [[qz 1; qz 0; qz 0; qz 1]] in
  ismat h (mkMat 0 2 2) 2 2 /\ leading_nonsingular 2 (tmat t) /\
  option_map (map this) (peek (tridiag_solve_mat true t (mkMat 0 2 2) (mkMat 0 2 2) h) mp) = Some [1%Q; (-1)%Q; (-1)%Q; 2%Q].
Proof.
  cbv zeta. split; [repeat split; cbn; lia|]. split; [|vm_compute; reflexivity].
  apply (proj1 (C36_tri_pivots _ _ _ _ _)). intros [|[|i]] Hi; [..|lia]; intros H; apply (f_equal this) in H; vm_compute in H; discriminate.
Qed.
Local Open Scope R_scope.
Example C36_dominant_example : strictly_dominant 3 (tmat (mkTri [-1; -1] [3; 3; 3] [-1; -1])).
Proof.
  intros [|[|[|i]]] Hi; [..|lia]; unfold tmat, band; cbn; rewrite ?Rabs_R0, ?Rabs_Ropp, ?Rabs_R1;
    rewrite ?(Rabs_right 3) by lra; rewrite ?(Rabs_left (-1)) by lra; lra.
Qed.
Example C38_example : tri_wf R (mkTri [] [2] []) 1.
Proof. repeat split. Qed.

Print Assumptions C36_vector.
Print Assumptions C36_dominant.
Print Assumptions C37_columns.
Print Assumptions C38_order_one_refuted.
