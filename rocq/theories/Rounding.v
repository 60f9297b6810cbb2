(** * Rounded arithmetic: factors and sums *)
From Coq Require Import Reals Lra Lia Field.
From Verif Require Import Base Scalar Spec SpecRound.
Local Open Scope R_scope.

Section Near.
Context {u : R} (Hu : 0 <= u < 1).

(** A product of at most [k] factors (1 + d) or 1/(1 + d) with |d| <= u. *)
Definition near (k : nat) (t : R) : Prop := (1 - u) ^ k <= t <= / (1 - u) ^ k.

Lemma w_pos k : 0 < (1 - u) ^ k.
Proof. apply pow_lt. lra. Qed.
Lemma w_le1 k : (1 - u) ^ k <= 1.
Proof. induction k; cbn; [lra|]. pose proof (w_pos k). nra. Qed.
Lemma wi_ge1 k : 1 <= / (1 - u) ^ k.
Proof. rewrite <- Rinv_1 at 1. apply Rinv_le_contravar; [apply w_pos|apply w_le1]. Qed.

Lemma near_pos k t : near k t -> 0 < t.
Proof. intros [H _]. pose proof (w_pos k). lra. Qed.
Lemma near_1 k : near k 1.
Proof. split; [apply w_le1|apply wi_ge1]. Qed.

Lemma near_mul a b s t : near a s -> near b t -> near (a + b) (s * t).
Proof.
  intros [A1 A2] [B1 B2]. pose proof (w_pos a). pose proof (w_pos b). split.
  - rewrite pow_add. apply Rmult_le_compat; lra.
  - rewrite pow_add, Rinv_mult. apply Rmult_le_compat; lra.
Qed.
Lemma near_inv a s : near a s -> near a (/ s).
Proof.
  intros [A1 A2]. pose proof (w_pos a). split.
  - rewrite <- (Rinv_inv ((1 - u) ^ a)). apply Rinv_le_contravar; lra.
  - apply Rinv_le_contravar; lra.
Qed.
Lemma near_div a b s t : near a s -> near b t -> near (a + b) (s / t).
Proof. intros. apply near_mul; auto using near_inv. Qed.

Lemma w_mono a b : (a <= b)%nat -> (1 - u) ^ b <= (1 - u) ^ a.
Proof.
  intros H. replace b with (a + (b - a))%nat by lia. rewrite pow_add.
  pose proof (w_pos a). pose proof (w_le1 (b - a)). nra.
Qed.
Lemma near_mono a b t : (a <= b)%nat -> near a t -> near b t.
Proof.
  intros H [A1 A2]. pose proof (w_mono a b H). pose proof (w_pos b). split; [lra|].
  eapply Rle_trans; [exact A2|]. apply Rinv_le_contravar; auto.
Qed.

Lemma near_delta t : Rabs (t - 1) <= u -> near 1 t.
Proof.
  intros H. apply Rabs_def2b in H || (unfold Rabs in H; destruct (Rcase_abs (t - 1)) in H).
  all: unfold near; rewrite pow_1; split; try lra; apply Rle_trans with (1 + u); try lra;
    apply Rmult_le_reg_r with (1 - u); try lra; rewrite Rinv_l by lra; nra.
Qed.

Lemma near_bound k t : near k t -> Rabs (t - 1) <= gamma u k.
Proof.
  intros [A1 A2]. pose proof (w_pos k). pose proof (wi_ge1 k).
  assert (E : / (1 - u) ^ k * (1 - u) ^ k = 1) by (apply Rinv_l; lra).
  unfold gamma, Rabs. destruct (Rcase_abs (t - 1)); nra.
Qed.

Lemma gamma_pos k : 0 <= gamma u k.
Proof. unfold gamma. pose proof (wi_ge1 k). lra. Qed.
Lemma gamma_mono a b : (a <= b)%nat -> gamma u a <= gamma u b.
Proof.
  intros H. unfold gamma. pose proof (Rinv_le_contravar _ _ (w_pos b) (w_mono a b H)). lra.
Qed.
Lemma gamma_0 : gamma u 0 = 0.
Proof. unfold gamma. cbn. lra. Qed.

(** Bernoulli: the usual constant. *)
Lemma gamma_classic k : INR k * u < 1 -> gamma u k <= INR k * u / (1 - INR k * u).
Proof.
  intros H. assert (B : 1 - INR k * u <= (1 - u) ^ k).
  { clear H. induction k; [cbn; lra|]. rewrite S_INR. cbn [pow]. pose proof (pos_INR k).
    pose proof (w_pos k). nra. }
  unfold gamma. apply Rle_trans with (/ (1 - INR k * u) - 1).
  - apply Rplus_le_compat_r. apply Rinv_le_contravar; lra.
  - right. field. lra.
Qed.

(** Exact value of a relative error. *)
Lemma rel_near x v : Rabs (v - x) <= u * Rabs x -> exists t, near 1 t /\ v = x * t.
Proof.
  intros H. destruct (Req_dec x 0) as [->|Nz].
  - rewrite Rabs_R0, Rmult_0_r in H. exists 1. split; [apply near_1|].
    pose proof (Rabs_pos (v - 0)). assert (v - 0 = 0); [|lra].
    destruct (Req_dec (v - 0) 0); auto. pose proof (Rabs_pos_lt _ H1). lra.
  - exists (v / x). split; [|field; auto]. apply near_delta.
    replace (v / x - 1) with ((v - x) * / x) by (field; auto).
    rewrite Rabs_mult, Rabs_inv. apply Rabs_pos_lt in Nz.
    apply Rmult_le_reg_r with (Rabs x); auto. rewrite Rmult_assoc, Rinv_l by lra. lra.
Qed.

(** A perturbation factor applied to a term changes it by at most gamma times its size. *)
Lemma near_err k t x : near k t -> Rabs (x * t - x) <= gamma u k * Rabs x.
Proof.
  intros H. replace (x * t - x) with ((t - 1) * x) by ring. rewrite Rabs_mult.
  apply Rmult_le_compat_r; [apply Rabs_pos|]. now apply near_bound.
Qed.
End Near.
Arguments near u k t : clear implicits.

(** ** The operators, as exact operations times a factor *)
Section OpsNear.
Context {O : Ops R} {u : R} {AX : Approx O u}.

Lemma add_near x y : exists t, near u 1 t /\ add x y = (x + y) * t.
Proof. apply (rel_near u_range), ax_add. Qed.
Lemma sub_near x y : exists t, near u 1 t /\ sub x y = (x - y) * t.
Proof. apply (rel_near u_range), ax_sub. Qed.
Lemma mul_near x y : exists t, near u 1 t /\ mul x y = x * y * t.
Proof. apply (rel_near u_range), ax_mul. Qed.
Lemma div_near x y : y <> 0 -> exists t, near u 1 t /\ div x y = x / y * t.
Proof. intros H. apply (rel_near u_range), ax_div, H. Qed.
Lemma sqrt_near x : 0 <= x -> exists t, near u 1 t /\ sqrt_ x = sqrt x * t.
Proof.
  intros H. apply (rel_near u_range). rewrite (Rabs_pos_eq (sqrt x)) by apply sqrt_pos. now apply ax_sqrt.
Qed.
Lemma pow2_near x : exists t, near u 1 t /\ pow2 x = x * x * t.
Proof.
  apply (rel_near u_range). rewrite (Rabs_pos_eq (x * x)) by apply Rle_0_sqr. apply ax_pow2.
Qed.
Lemma mul_0l x : mul 0 x = 0.
Proof. destruct (mul_near 0 x) as (t & _ & E). rewrite E. ring. Qed.
Lemma mul_0r x : mul x 0 = 0.
Proof. destruct (mul_near x 0) as (t & _ & E). rewrite E. ring. Qed.
Lemma div_0l x : x <> 0 -> div 0 x = 0.
Proof. intros H. destruct (div_near 0 x H) as (t & _ & E). rewrite E. field. auto. Qed.
Lemma mul_nz x y : x <> 0 -> y <> 0 -> mul x y <> 0.
Proof.
  intros Hx Hy. destruct (mul_near x y) as (t & Nt & ->). apply (near_pos u_range) in Nt.
  repeat apply Rmult_integral_contrapositive_currified; lra.
Qed.

Notation rsum := (@bsum R ROps).

(** A left-to-right sum [a + f 0 + f 1 + ...]. *)
Lemma fsum_near n a f : exists ta t, near u n ta /\ (forall k, (k < n)%nat -> near u (n - k) (t k)) /\
  fsum n a f = a * ta + rsum n (fun k => f k * t k).
Proof.
  induction n as [|n (ta & t & Na & Nt & E)].
  - exists 1, (fun _ => 1). split; [apply (near_1 u_range)|]. split; [intros; lia|]. cbn. ring.
  - cbn [fsum]. destruct (add_near (fsum n a f) (f n)) as (d & Nd & Ed).
    exists (ta * d), (fun k => if Nat.eqb k n then d else t k * d). split; [|split].
    + rewrite <- Nat.add_1_r. now apply (near_mul u_range).
    + intros k Hk. destruct (Nat.eqb_spec k n) as [->|].
      * replace (S n - n)%nat with 1%nat by lia. auto.
      * replace (S n - k)%nat with (n - k + 1)%nat by lia. apply (near_mul u_range); auto. apply Nt. lia.
    + rewrite Ed, E. cbn [bsum]. rewrite Nat.eqb_refl.
      assert (Es : rsum n (fun k => f k * (if Nat.eqb k n then d else t k * d)) = rsum n (fun k => f k * t k) * d).
      { clear -O AX. assert (G : forall m, (m <= n)%nat ->
          rsum m (fun k => f k * (if Nat.eqb k n then d else t k * d)) = rsum m (fun k => f k * t k) * d).
        { induction m as [|m IH]; intros Hm; cbn [bsum]; [cbn; ring|]. rewrite IH by lia.
          destruct (Nat.eqb_spec m n); [lia|]. cbn [add mul ROps]. ring. }
        apply G. lia. }
      rewrite Es. cbn [add mul ROps]. ring.
Qed.
End OpsNear.
