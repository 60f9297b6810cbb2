(** * Further forms of C42, C64 and C70: all four ways to solve, packed as well as square storage *)
From Coq Require Import Reals Lra Lia.
From Verif Require Import Base Scalar BaseLemmas Spec Sums RealVec ModelVec ModelMat SpecMat ProofVec ProofVecProp
  SpecRound Rounding ProofRound ProofRound2 ProofRound3
  ModelPacked ProofPacked PropPacked ModelSolvers ProofChol ProofCholMath PropChol ProofCholSolve PropCholSolve PropRound PropRound2.

(** ** C42: packed and square storage give the same numbers, for matrices and in place too *)
Section Same.
Context (T : Type) (Op : Ops T).

(** Two objects holding the same lower triangle, whatever the storage. *)
Definition same_factor n (h1 h2 : heap T) (F1 F2 : chol) : Prop :=
  isfac h1 F1 n /\ isfac h2 F2 n /\ forall i j, j <= i -> i < n -> fac h1 F1 i j = fac h2 F2 i j.

Lemma same_subst n h1 h2 F1 F2 (b1 b2 x1 x2 : nat -> T) : same_factor n h1 h2 F1 F2 -> veq n b1 b2 ->
  substituted n (fac h1 F1) b1 x1 -> substituted n (fac h2 F2) b2 x2 -> veq n x1 x2.
Proof.
  intros (_ & _ & E) Eb S1 S2. apply (substituted_unique n (fac h1 F1) (fac h2 F2) b2); auto.
  apply (subst_ext n _ b1 _ x1); auto.
Qed.

Theorem C42_packed_as_square_inplace : forall dbg1 dbg2 F1 F2 n b1 b2 (h1 h2 : heap T), (Z.of_nat n < 2 ^ 31)%Z ->
  same_factor n h1 h2 F1 F2 ->
  isvec h1 b1 n -> isvec h2 b2 n -> chp F1 <> b1 -> chp F2 <> b2 -> veq n (rd h1 b1) (rd h2 b2) ->
  exists g1 g2, chol_solve_mut_vec dbg1 F1 b1 h1 = Ok b1 g1 /\ chol_solve_mut_vec dbg2 F2 b2 h2 = Ok b2 g2 /\
    veq n (rd g1 b1) (rd g2 b2).
Proof.
  intros dbg1 dbg2 F1 F2 n b1 b2 h1 h2 Hn SF V1 V2 D1 D2 Eb. pose proof SF as (I1 & I2 & _).
  destruct (chol_vec_in n dbg1 F1 h1 Hn I1 b1 V1 D1) as (g1 & O1 & _ & _ & _ & S1).
  destruct (chol_vec_in n dbg2 F2 h2 Hn I2 b2 V2 D2) as (g2 & O2 & _ & _ & _ & S2).
  exists g1, g2. split; [auto|]. split; [auto|]. exact (same_subst _ _ _ _ _ _ _ _ _ SF Eb S1 S2).
Qed.
Theorem C42_packed_as_square_matrix : forall dbg1 dbg2 F1 F2 n m B1 B2 (h1 h2 : heap T), (Z.of_nat n < 2 ^ 31)%Z ->
  fits_u32 m = true -> same_factor n h1 h2 F1 F2 ->
  ismat h1 B1 n m -> ismat h2 B2 n m -> meq n m (mget h1 B1) (mget h2 B2) ->
  exists X1 g1 X2 g2, chol_solve_mat dbg1 F1 B1 h1 = Ok X1 g1 /\ chol_solve_mat dbg2 F2 B2 h2 = Ok X2 g2 /\
    ismat g1 X1 n m /\ ismat g2 X2 n m /\ meq n m (mget g1 X1) (mget g2 X2).
Proof.
  intros dbg1 dbg2 F1 F2 n m B1 B2 h1 h2 Hn Hm SF V1 V2 Eb. pose proof SF as (I1 & I2 & _).
  destruct (chol_mat_out n dbg1 F1 h1 Hn I1 B1 m V1 Hm) as (X1 & g1 & O1 & _ & _ & W1 & S1).
  destruct (chol_mat_out n dbg2 F2 h2 Hn I2 B2 m V2 Hm) as (X2 & g2 & O2 & _ & _ & W2 & S2).
  exists X1, g1, X2, g2. split; [auto|]. split; [auto|]. split; [auto|]. split; [auto|].
  intros i j Hi Hj. refine (same_subst _ _ _ _ _ _ _ _ _ SF _ (S1 j Hj) (S2 j Hj) i Hi).
  intros k Hk. now apply Eb.
Qed.
Theorem C42_packed_as_square_matrix_inplace : forall dbg1 dbg2 F1 F2 n m B1 B2 (h1 h2 : heap T), (Z.of_nat n < 2 ^ 31)%Z ->
  fits_u32 m = true -> same_factor n h1 h2 F1 F2 ->
  ismat h1 B1 n m -> ismat h2 B2 n m -> chp F1 <> mp B1 -> chp F2 <> mp B2 -> meq n m (mget h1 B1) (mget h2 B2) ->
  exists g1 g2, chol_solve_mut_mat dbg1 F1 B1 h1 = Ok B1 g1 /\ chol_solve_mut_mat dbg2 F2 B2 h2 = Ok B2 g2 /\
    meq n m (mget g1 B1) (mget g2 B2).
Proof.
  intros dbg1 dbg2 F1 F2 n m B1 B2 h1 h2 Hn Hm SF V1 V2 D1 D2 Eb. pose proof SF as (I1 & I2 & _).
  destruct (chol_mat_in n dbg1 F1 h1 Hn I1 B1 m V1 Hm D1) as (g1 & O1 & _ & _ & _ & S1).
  destruct (chol_mat_in n dbg2 F2 h2 Hn I2 B2 m V2 Hm D2) as (g2 & O2 & _ & _ & _ & S2).
  exists g1, g2. split; [auto|]. split; [auto|].
  intros i j Hi Hj. refine (same_subst _ _ _ _ _ _ _ _ _ SF _ (S1 j Hj) (S2 j Hj) i Hi).
  intros k Hk. now apply Eb.
Qed.
End Same.

Local Open Scope R_scope.
Section Rounded.
Context (O : Ops R) (u : R) (AX : Approx O u).

(** ** C64: no growth with packed storage *)
Theorem C64_no_growth_packed : forall n H (h : heap R) F h1 i j, herm_wf H n -> fits_u32 n = true ->
  tri_cholesky H h = Ok F h1 -> (forall i, (i < n)%nat -> 0 < fac h1 F i i) -> gamma u (n + 1) < 1 ->
  (i < n)%nat -> (j < n)%nat ->
  absLLt n (fac h1 F) i j <= sqrt (hmat H i i) * sqrt (hmat H j j) / (1 - gamma u (n + 1)).
Proof.
  intros n H h F h1 i j HA Hf E P G Hi Hj. rewrite Nat.add_1_r in *.
  destruct (tri_ctor_round O u AX n H h F h1 HA Hf E P) as [_ D]. now apply (chol_abs_bound n (hmat H) (fac h1 F)).
Qed.

(** ** C70: all four ways to solve, square and packed *)
(** Every solve with [F] in state [h1] returns the exact solution of a system whose matrix is
    within gamma(3n+1) sqrt(a_ii a_jj) / (1 - gamma(n+1)) of [A]. *)
Definition solves_all dbg F n (A : nat -> nat -> R) (h1 : heap R) : Prop :=
  let Q := backward u (3 * n + 1) n (fun i j => sqrt (A i i) * sqrt (A j j) / (1 - gamma u (n + 1))) (symf A) in
  (forall rhs, isvec h1 rhs n -> vec_outofplace Q (chol_solve_vec dbg F) h1 n rhs) /\
  (forall rhs, isvec h1 rhs n -> chp F <> rhs -> vec_inplace Q (chol_solve_mut_vec dbg F) h1 n rhs) /\
  (forall m X, ismat h1 X n m -> fits_u32 m = true -> mat_outofplace Q (chol_solve_mat dbg F) h1 n m X) /\
  (forall m X, ismat h1 X n m -> fits_u32 m = true -> chp F <> mp X -> mat_inplace Q (chol_solve_mut_mat dbg F) h1 n m X).

Lemma backward_grow k n (B B' A : nat -> nat -> R) b x : (forall i j, (i < n)%nat -> (j < n)%nat -> B i j <= B' i j) ->
  backward u k n B A b x -> backward u k n B' A b x.
Proof.
  intros HB (A' & W & S). exists A'. split; auto. intros i j Hi Hj. eapply Rle_trans; [apply W; auto|].
  apply Rmult_le_compat_l; [apply (gamma_pos u_range)|auto].
Qed.

Theorem C70_solve_square : forall dbg n A (h : heap R), ismat h A n n -> (Z.of_nat n < 2 ^ 31)%Z ->
  gamma u (n + 1) < 1 -> pos_def_margin u (n + 1) n (symf (mget h A)) ->
  exists F h1, dyn_cholesky A h = Ok F h1 /\ ext h h1 /\ (next h <= chp F)%nat /\ solves_all dbg F n (mget h A) h1.
Proof.
  intros dbg n A h HA Hn Hg HM.
  assert (Hf : fits_u32 n = true) by (unfold fits_u32; apply Z.ltb_lt; lia).
  destruct (C70_square O u AX n A h HA Hf Hg HM) as (F & h1 & E & I & P). exists F, h1. split; auto.
  assert (X : ext h h1 /\ (next h <= chp F)%nat).
  { destruct (dyn_outcome n A h HA Hf) as (h' & Fr & Out). destruct (ctor_ext _ _ _ _ _ Fr eq_refl) as [X Y].
    destruct Out as [[D Q]|[[D Q]|(c & Hc & D & Q)]]; rewrite Q in E; try discriminate; injection E as <- <-; (split; [exact X|apply Y]). }
  split; [apply X|]. split; [apply X|].
  destruct (C64_square O u AX dbg n A h F h1 HA Hn E P) as (Q1 & Q2 & Q3 & Q4).
  pose proof (fun i j => C64_no_growth O u AX n A h F h1 i j HA Hf E P Hg) as G. unfold solves_all. repeat split.
  - intros rhs V. eapply vec_out_mono; [|now apply Q1]. intros b x. now apply backward_grow.
  - intros rhs V D. eapply vec_in_mono; [|now apply Q2]. intros b x. now apply backward_grow.
  - intros m Y V D. eapply mat_out_mono; [|now apply Q3]. intros b x. now apply backward_grow.
  - intros m Y V D D'. eapply mat_in_mono; [|now apply Q4]. intros b x. now apply backward_grow.
Qed.
Theorem C70_solve_packed : forall dbg n H (h : heap R), herm_wf H n -> (Z.of_nat n < 2 ^ 31)%Z ->
  gamma u (n + 1) < 1 -> pos_def_margin u (n + 1) n (symf (hmat H)) ->
  exists F h1, tri_cholesky H h = Ok F h1 /\ ext h h1 /\ (next h <= chp F)%nat /\ solves_all dbg F n (hmat H) h1.
Proof.
  intros dbg n H h HA Hn Hg HM.
  assert (Hf : fits_u32 n = true) by (unfold fits_u32; apply Z.ltb_lt; lia).
  destruct (C70_packed O u AX n H h HA Hf Hg HM) as (F & h1 & E & I & P). exists F, h1. split; auto.
  assert (X : ext h h1 /\ (next h <= chp F)%nat).
  { destruct (tri_outcome n H h HA Hf) as (h' & Fr & Out). destruct (ctor_ext _ _ _ _ _ Fr eq_refl) as [X Y].
    destruct Out as [[D Q]|[[D Q]|(c & Hc & D & Q)]]; rewrite Q in E; try discriminate; injection E as <- <-; (split; [exact X|apply Y]). }
  split; [apply X|]. split; [apply X|].
  destruct (C64_packed O u AX dbg n H h F h1 HA Hn E P) as (Q1 & Q2 & Q3 & Q4).
  pose proof (fun i j => C64_no_growth_packed n H h F h1 i j HA Hf E P Hg) as G. unfold solves_all. repeat split.
  - intros rhs V. eapply vec_out_mono; [|now apply Q1]. intros b x. now apply backward_grow.
  - intros rhs V D. eapply vec_in_mono; [|now apply Q2]. intros b x. now apply backward_grow.
  - intros m Y V D. eapply mat_out_mono; [|now apply Q3]. intros b x. now apply backward_grow.
  - intros m Y V D D'. eapply mat_in_mono; [|now apply Q4]. intros b x. now apply backward_grow.
Qed.
End Rounded.

(** Non-vacuity: in exact arithmetic (u = 0) the packed matrix [[4,2],[2,5]] meets the margin, and
    a packed and a square object hold the same factor. *)
Example C70_nonvacuous_packed : let H := mkHerm 2 [4; 2; 5] in
  herm_wf H 2 /\ gamma 0 (2 + 1) < 1 /\ pos_def_margin 0 (2 + 1) 2 (symf (hmat H)).
Proof.
  assert (G : gamma 0 (2 + 1) = 0) by (unfold gamma; cbn; lra).
  cbv zeta. split; [split; reflexivity|]. rewrite G. split; [lra|].
  intros x (i & Hi & Hx). rewrite G.
  set (a := x 0%nat). set (b := x 1%nat).
  match goal with |- ?l < ?r => assert (El : l = 0) by (cbn; lra); assert (Er : r = (2 * a + b) * (2 * a + b) + 4 * (b * b)) by (cbn; fold a b; ring) end.
  rewrite El, Er. pose proof (Rle_0_sqr (2 * a + b)) as S1. pose proof (Rle_0_sqr b) as S2. unfold Rsqr in *.
  destruct (Req_dec b 0) as [B|B].
  - assert (A0 : a <> 0). { destruct i as [|[|i]]; [exact Hx|contradiction|lia]. }
    rewrite B in *. assert (0 < (2 * a + 0) * (2 * a + 0)) by nra. lra.
  - assert (0 < b * b) by nra. lra.
Qed.
Example C42_nonvacuous_same : same_factor Z ZOps 2 (heap_of [[2; 7; 1; 2]%Z; [2; 1; 2]%Z]) (heap_of [[2; 7; 1; 2]%Z; [2; 1; 2]%Z])
  (mkChol 2%nat 0%nat Square) (mkChol 2%nat 1%nat Triangle).
Proof.
  split; [repeat split; cbn; lia|]. split; [repeat split; cbn; lia|].
  intros i j Hj Hi. destruct i as [|[|i]]; [| |lia]; destruct j as [|[|j]]; try lia; reflexivity.
Qed.

Print Assumptions C42_packed_as_square_inplace.
Print Assumptions C42_packed_as_square_matrix.
Print Assumptions C42_packed_as_square_matrix_inplace.
Print Assumptions C64_no_growth_packed.
Print Assumptions C70_solve_square.
Print Assumptions C70_solve_packed.
