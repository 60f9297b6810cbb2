(** * Euclidean geometry of real vectors given as index functions *)
From Coq Require Import Reals Lra.
From Verif Require Import Base Scalar BaseLemmas Spec Sums.
Local Open Scope R_scope.

Implicit Types (x y z : nat -> R).

Definition nrm (n : nat) x : R := R_sqrt.sqrt (dotp n x x).

Lemma Rbsum_zero n (f : nat -> R) : (forall i, (i < n)%nat -> f i = 0) -> bsum n f = 0.
Proof. exact (bsum_zero n f). Qed.

Lemma bsum_nonneg n (f : nat -> R) : (forall i, (i < n)%nat -> 0 <= f i) -> 0 <= bsum n f.
Proof.
  induction n as [|n IH]; intros H; cbn; [lra|].
  assert (0 <= bsum n f) by (apply IH; intros; apply H; lia).
  assert (0 <= f n) by (apply H; lia). cbn in *; lra.
Qed.

Lemma bsum_le n (f g : nat -> R) : (forall i, (i < n)%nat -> f i <= g i) -> bsum n f <= bsum n g.
Proof.
  induction n as [|n IH]; intros H; cbn; [lra|].
  assert (bsum n f <= bsum n g) by (apply IH; intros; apply H; lia).
  assert (f n <= g n) by (apply H; lia). cbn in *; lra.
Qed.

Lemma bsum_nonneg_zero n (f : nat -> R) :
  (forall i, (i < n)%nat -> 0 <= f i) -> bsum n f = 0 -> forall i, (i < n)%nat -> f i = 0.
Proof.
  induction n as [|n IH]; intros H H0 i Hi; [lia|]. cbn in H0.
  assert (0 <= bsum n f) by (apply bsum_nonneg; intros; apply H; lia).
  assert (0 <= f n) by (apply H; lia).
  destruct (Nat.eq_dec i n) as [->|]; [cbn in *; lra|].
  apply IH; [intros; apply H; lia|cbn in *; lra|lia].
Qed.

Lemma bsum_abs n (f : nat -> R) : Rabs (bsum n f) <= bsum n (fun i => Rabs (f i)).
Proof.
  induction n as [|n IH]; cbn; [rewrite Rabs_R0; lra|].
  eapply Rle_trans; [apply Rabs_triang|]. cbn in *; lra.
Qed.

Lemma dotp_self_nonneg n x : 0 <= dotp n x x.
Proof. apply bsum_nonneg. intros; cbn. apply Rle_0_sqr. Qed.

Lemma dotp_self_zero n x : dotp n x x = 0 -> forall i, (i < n)%nat -> x i = 0.
Proof.
  intros H i Hi. apply Rsqr_0_uniq. unfold Rsqr.
  refine (bsum_nonneg_zero n (fun i => x i * x i) _ H i Hi).
  intros; apply Rle_0_sqr.
Qed.

Lemma nrm_nonneg n x : 0 <= nrm n x.
Proof. apply sqrt_pos. Qed.

Lemma nrm_sqr n x : nrm n x * nrm n x = dotp n x x.
Proof. apply sqrt_sqrt. apply dotp_self_nonneg. Qed.

Lemma nrm_zero_iff n x : nrm n x = 0 <-> (forall i, (i < n)%nat -> x i = 0).
Proof.
  split.
  - intros H. apply dotp_self_zero. rewrite <- nrm_sqr, H. ring.
  - intros H. unfold nrm, dotp. rewrite Rbsum_zero; [apply sqrt_0|].
    intros i Hi. rewrite H by auto. cbn. ring.
Qed.

Lemma nrm_ext n x y : veq n x y -> nrm n x = nrm n y.
Proof. intros H. unfold nrm. f_equal. apply dotp_ext; auto. Qed.

Lemma nrm_scal n c x : nrm n (fun i => c * x i) = Rabs c * nrm n x.
Proof.
  apply Rsqr_inj; [apply nrm_nonneg|apply Rmult_le_pos; [apply Rabs_pos|apply nrm_nonneg]|].
  unfold Rsqr. rewrite nrm_sqr.
  replace (Rabs c * nrm n x * (Rabs c * nrm n x)) with
    ((Rabs c * Rabs c) * (nrm n x * nrm n x)) by ring.
  rewrite nrm_sqr, <- Rabs_mult, (Rabs_pos_eq (c * c)) by apply Rle_0_sqr.
  unfold dotp. rewrite (bsum_ext _ _ (fun i => ((c * c)%R * (x i * x i))%sc)) by (intros; cbn; ring).
  now rewrite bsum_scal_l.
Qed.

Lemma dotp_lin2 n a b x y :
  dotp n (fun i => a * x i - b * y i) (fun i => a * x i - b * y i) =
  a * a * dotp n x x - 2 * a * b * dotp n x y + b * b * dotp n y y.
Proof. unfold dotp. induction n as [|n IH]; cbn; [ring|]. cbn in IH. rewrite IH. ring. Qed.

Lemma cauchy_schwarz_sq n x y : dotp n x y * dotp n x y <= dotp n x x * dotp n y y.
Proof.
  destruct (Req_EM_T (dotp n y y) 0) as [H0|H0].
  - rewrite H0. assert (dotp n x y = 0) as ->; [|lra].
    unfold dotp. apply Rbsum_zero. intros i Hi. rewrite (dotp_self_zero n y H0) by auto. cbn; ring.
  - assert (Hp : 0 < dotp n y y) by (pose proof (dotp_self_nonneg n y); lra).
    pose proof (dotp_self_nonneg n (fun i => dotp n y y * x i - dotp n x y * y i)) as H.
    rewrite dotp_lin2 in H.
    assert (0 <= dotp n y y * (dotp n x x * dotp n y y - dotp n x y * dotp n x y)) as H1.
    { eapply Rle_trans; [exact H|]. right. ring. }
    assert (0 <= dotp n x x * dotp n y y - dotp n x y * dotp n x y); [|lra].
    apply Rmult_le_reg_l with (dotp n y y); auto. lra.
Qed.

Lemma cauchy_schwarz n x y : Rabs (dotp n x y) <= nrm n x * nrm n y.
Proof.
  apply Rsqr_incr_0; [|apply Rabs_pos|apply Rmult_le_pos; apply nrm_nonneg].
  unfold Rsqr. rewrite <- Rabs_mult, Rabs_pos_eq by apply Rle_0_sqr.
  replace (nrm n x * nrm n y * (nrm n x * nrm n y)) with
    (nrm n x * nrm n x * (nrm n y * nrm n y)) by ring.
  rewrite !nrm_sqr. apply cauchy_schwarz_sq.
Qed.

Lemma nrm_triangle n x y : nrm n (fun i => x i + y i) <= nrm n x + nrm n y.
Proof.
  apply Rsqr_incr_0; [|apply nrm_nonneg|pose proof (nrm_nonneg n x); pose proof (nrm_nonneg n y); lra].
  unfold Rsqr. rewrite nrm_sqr.
  assert (dotp n (fun i => x i + y i) (fun i => x i + y i) =
          dotp n x x + 2 * dotp n x y + dotp n y y) as ->.
  { unfold dotp. induction n as [|n IH]; cbn; [ring|]. cbn in IH. rewrite IH. ring. }
  pose proof (cauchy_schwarz n x y). pose proof (Rle_abs (dotp n x y)).
  replace ((nrm n x + nrm n y) * (nrm n x + nrm n y)) with
    (nrm n x * nrm n x + 2 * (nrm n x * nrm n y) + nrm n y * nrm n y) by ring.
  rewrite !nrm_sqr. lra.
Qed.
