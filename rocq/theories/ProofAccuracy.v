(** * Lemmas: a solution of a nearby system has a small residual and a small error *)
From Coq Require Import Reals Lra Lia.
From Verif Require Import Base Scalar BaseLemmas Spec Sums RealVec ProofRound SpecAccuracy.
Local Open Scope R_scope.
Local Notation mvR := (@mvmul R ROps).
Local Notation mmR := (@mmmul R ROps).
Local Notation solvesR := (@solves R ROps).
Local Notation sumR := (@bsum R ROps).

Lemma argmax (x : nat -> R) n : (0 < n)%nat -> exists i, (i < n)%nat /\ forall j, (j < n)%nat -> x j <= x i.
Proof.
  induction n as [|k IH]; [lia|]. intros _. destruct k as [|k].
  - exists 0%nat. split; [lia|]. intros j Hj. replace j with 0%nat by lia. lra.
  - destruct IH as (i & Hi & Hm); [lia|]. destruct (Rle_dec (x (S k)) (x i)) as [Hle|Hgt].
    + exists i. split; [lia|]. intros j Hj. destruct (Nat.eq_dec j (S k)) as [->|]; [auto|apply Hm; lia].
    + exists (S k). split; [lia|]. intros j Hj. destruct (Nat.eq_dec j (S k)) as [->|]; [lra|]. specialize (Hm j ltac:(lia)). lra.
Qed.
Lemma mv_sub n (A : nat -> nat -> R) x y i : mvR n A (fun k => x k - y k) i = mvR n A x i - mvR n A y i.
Proof. unfold mvmul. rewrite <- rsum_sub. apply bsum_ext. intros k Hk. cbn [mul ROps]. ring. Qed.
Lemma left_inverse_apply n B A z i : left_inverse n B A -> (i < n)%nat -> z i = mvR n B (mvR n A z) i.
Proof.
  intros H Hi. rewrite <- mvmul_assoc. unfold mvmul. rewrite (bsum_single n _ i Hi).
  - rewrite H, Nat.eqb_refl by auto. cbn. ring.
  - intros j Hj N. rewrite H by auto. destruct (Nat.eqb_spec i j); [lia|]. cbn. ring.
Qed.
Lemma nrm_mono n x y : (forall i, (i < n)%nat -> Rabs (x i) <= y i) -> nrm n x <= nrm n y.
Proof.
  intros H. unfold nrm. apply R_sqrt.sqrt_le_1; [apply dotp_self_nonneg|apply dotp_self_nonneg|].
  apply bsum_le. intros i Hi. cbn [mul ROps]. specialize (H i Hi). pose proof (Rabs_pos (x i)).
  replace (x i * x i) with (Rabs (x i) * Rabs (x i)) by (rewrite <- Rabs_mult; apply Rabs_right; nra). nra.
Qed.
Lemma nrm_abs n x : nrm n (fun i => Rabs (x i)) = nrm n x.
Proof.
  unfold nrm, dotp. f_equal. apply bsum_ext. intros i Hi. cbn [mul ROps].
  rewrite <- Rabs_mult. apply Rabs_right. nra.
Qed.

Section Of.
Variables (n : nat) (A W : nat -> nat -> R) (b E xh : nat -> R).
Hypothesis HR : small_residual n A W b E xh.
Hypothesis HW : forall i j, (i < n)%nat -> (j < n)%nat -> 0 <= W i j.

Lemma residual_of_error x i : solvesR n A x b -> (i < n)%nat -> Rabs (mvR n A (fun k => xh k - x k) i) <= slack n W E xh i.
Proof. intros S Hi. rewrite mv_sub, (S i Hi), Rabs_minus_sym. now apply HR. Qed.
Lemma err_inverse : error_by_inverse n A W b E xh.
Proof.
  intros B x HB S i Hi. rewrite (left_inverse_apply n B A (fun k => xh k - x k) i HB Hi). unfold mvmul at 1.
  eapply Rle_trans; [apply bsum_abs|]. apply bsum_le. intros j Hj. cbn [mul ROps]. rewrite Rabs_mult.
  apply Rmult_le_compat_l; [apply Rabs_pos|]. now apply residual_of_error.
Qed.
(** The row of the largest error. *)
Lemma dominance_largest mu z i : row_dominance n A mu -> (i < n)%nat -> (forall j, (j < n)%nat -> Rabs (z j) <= Rabs (z i)) ->
  mu * Rabs (z i) <= Rabs (mvR n A z i).
Proof.
  intros D Hi Hm. specialize (D i Hi).
  assert (Eq : mvR n A z i = A i i * z i + sumR n (fun j => if Nat.eqb j i then 0 else A i j * z j)).
  { unfold mvmul. rewrite (bsum_ext n (fun k => mul (A i k) (z k))
      (fun k => add (if Nat.eqb k i then A i i * z i else 0) (if Nat.eqb k i then 0 else A i k * z k))).
    2:{ intros j Hj. cbn. destruct (Nat.eqb_spec j i) as [->|]; ring. }
    rewrite bsum_add, (bsum_single n _ i Hi); [now rewrite Nat.eqb_refl|].
    intros j Hj Hji. destruct (Nat.eqb_spec j i); [lia|reflexivity]. }
  assert (L : Rabs (sumR n (fun j => if Nat.eqb j i then 0 else A i j * z j)) <= sumR n (fun j => if Nat.eqb j i then 0 else Rabs (A i j)) * Rabs (z i)).
  { eapply Rle_trans; [apply bsum_abs|]. change Rmult with (@mul R ROps). rewrite <- bsum_scal_r. apply bsum_le. intros j Hj.
    destruct (Nat.eqb_spec j i); cbn; [rewrite Rabs_R0; lra|].
    rewrite Rabs_mult. apply Rmult_le_compat_l; [apply Rabs_pos|]. apply Hm; auto. }
  rewrite Eq. pose proof (Rabs_pos (z i)).
  pose proof (Rabs_triang_inv (A i i * z i) (- sumR n (fun j => if Nat.eqb j i then 0 else A i j * z j))) as Q.
  rewrite Rabs_Ropp, Rabs_mult in Q. replace (A i i * z i - - _) with (A i i * z i + sumR n (fun j => if Nat.eqb j i then 0 else A i j * z j)) in Q by ring.
  nra.
Qed.
Lemma err_dominance : error_by_dominance n A W b E xh.
Proof.
  intros mu m x Hmu D S Hm i0 Hi0. destruct (argmax (fun i => Rabs (xh i - x i)) n ltac:(lia)) as (i & Hi & Mx).
  eapply Rle_trans; [apply Mx, Hi0|]. pose proof (dominance_largest mu (fun k => xh k - x k) i D Hi Mx) as Q. cbv beta in Q.
  pose proof (residual_of_error x i S Hi). specialize (Hm i Hi). apply (Rmult_le_reg_l mu); [exact Hmu|].
  unfold Rdiv. replace (mu * (m * / mu)) with m by (field; lra). lra.
Qed.
Lemma coercive_error lambda z : coercive n A lambda -> lambda * nrm n z <= nrm n (mvR n A z).
Proof.
  intros C. specialize (C z). pose proof (cauchy_schwarz n z (mvR n A z)) as Q. pose proof (Rle_abs (dotp n z (mvR n A z))).
  pose proof (nrm_sqr n z). pose proof (nrm_nonneg n z). pose proof (nrm_nonneg n (mvR n A z)).
  destruct (Req_dec (nrm n z) 0) as [Z|NZ]; [rewrite Z; lra|]. apply (Rmult_le_reg_l (nrm n z)); [lra|]. nra.
Qed.
Lemma err_definiteness : error_by_definiteness n A W b E xh.
Proof.
  intros lambda x Hl C S. pose proof (coercive_error lambda (fun k => xh k - x k) C) as Q. apply (Rmult_le_reg_l lambda); [exact Hl|].
  unfold Rdiv. replace (lambda * (nrm n (slack n W E xh) * / lambda)) with (nrm n (slack n W E xh)) by (field; lra).
  eapply Rle_trans; [exact Q|]. apply nrm_mono. intros i Hi. now apply residual_of_error.
Qed.
(** |xh| is at most |x| and the error. *)
Lemma slack_le m d x i : (i < n)%nat -> (forall k, (k < n)%nat -> Rabs (x k) <= m) -> (forall k, (k < n)%nat -> Rabs (xh k - x k) <= d) ->
  slack n W E xh i <= sumR n (W i) * (m + d) + E i.
Proof.
  intros Hi Hm Hd. apply Rplus_le_compat_r. change Rmult with (@mul R ROps). rewrite <- bsum_scal_r. apply bsum_le. intros k Hk. cbn [mul ROps].
  apply Rmult_le_compat_l; [now apply HW|]. specialize (Hm k Hk). specialize (Hd k Hk).
  replace (xh k) with (x k + (xh k - x k)) by ring. pose proof (Rabs_triang (x k) (xh k - x k)). lra.
Qed.
Lemma rel_inverse : relative_by_inverse n A W b E xh.
Proof.
  intros B kappa eps m x HB S Hk He K1 Hm i0 Hi0. destruct (argmax (fun i => Rabs (xh i - x i)) n ltac:(lia)) as (i & Hi & Mx).
  eapply Rle_trans; [apply Mx, Hi0|]. set (d := Rabs (xh i - x i)) in *. pose proof (Rabs_pos (xh i - x i)) as D0. fold d in D0.
  assert (m0 : 0 <= m) by (specialize (Hm i0 Hi0); pose proof (Rabs_pos (x i0)); lra).
  assert (Q : d <= kappa * (m + d) + eps).
  { eapply Rle_trans; [apply (err_inverse B x HB S i Hi)|].
    eapply Rle_trans; [apply bsum_le; intros j Hj; apply Rmult_le_compat_l; [apply Rabs_pos|]; apply (slack_le m d x j Hj Hm Mx)|].
    rewrite (bsum_ext n _ (fun j => add (Rabs (B i j) * sumR n (W j) * (m + d)) (Rabs (B i j) * E j))) by (intros; cbn [add ROps]; ring).
    rewrite bsum_add. cbn [add ROps]. apply Rplus_le_compat; [|now apply He].
    change (fun i1 => Rabs (B i i1) * sumR n (W i1) * (m + d)) with (fun i1 => mul (Rabs (B i i1) * sumR n (W i1)) (m + d)).
    rewrite bsum_scal_r. cbn [mul ROps]. apply Rmult_le_compat_r; [lra|now apply Hk]. }
  apply (Rmult_le_reg_l (1 - kappa)); [lra|]. unfold Rdiv. replace ((1 - kappa) * ((kappa * m + eps) * / (1 - kappa))) with (kappa * m + eps) by (field; lra). lra.
Qed.
Lemma rel_dominance : relative_by_dominance n A W b E xh.
Proof.
  intros mu w eps m x D S Hw He K1 Hm i0 Hi0. destruct (argmax (fun i => Rabs (xh i - x i)) n ltac:(lia)) as (i & Hi & Mx).
  eapply Rle_trans; [apply Mx, Hi0|]. set (d := Rabs (xh i - x i)) in *. pose proof (Rabs_pos (xh i - x i)) as D0. fold d in D0.
  assert (m0 : 0 <= m) by (specialize (Hm i0 Hi0); pose proof (Rabs_pos (x i0)); lra).
  assert (Q : mu * d <= w * (m + d) + eps).
  { eapply Rle_trans; [apply (dominance_largest mu (fun k => xh k - x k) i D Hi Mx)|].
    eapply Rle_trans; [apply (residual_of_error x i S Hi)|]. eapply Rle_trans; [apply (slack_le m d x i Hi Hm Mx)|].
    apply Rplus_le_compat; [|now apply He]. apply Rmult_le_compat_r; [lra|now apply Hw]. }
  apply (Rmult_le_reg_l (mu - w)); [lra|]. unfold Rdiv. replace ((mu - w) * ((w * m + eps) * / (mu - w))) with (w * m + eps) by (field; lra). lra.
Qed.
Lemma rel_definiteness : relative_by_definiteness n A W b E xh.
Proof.
  intros lambda w x C S Hw K1. pose proof (coercive_error lambda (fun k => xh k - x k) C) as Q.
  set (d := nrm n (fun k => xh k - x k)) in *.
  assert (R : nrm n (mvR n A (fun k => xh k - x k)) <= w * (nrm n x + d) + nrm n E).
  { eapply Rle_trans; [apply nrm_mono; intros i Hi; now apply (residual_of_error x i S)|].
    eapply Rle_trans; [apply nrm_triangle|]. apply Rplus_le_compat_r. eapply Rle_trans; [apply Hw|].
    destruct (Rle_lt_dec 0 w) as [W0|W0].
    - apply Rmult_le_compat_l; [exact W0|]. rewrite (nrm_ext n xh (fun k => x k + (xh k - x k))) by (intros k Hk; ring). apply nrm_triangle.
    - (* w < 0: then every vector is zero *)
      assert (Z : forall v, nrm n v = 0).
      { intros v. pose proof (Hw v). pose proof (nrm_nonneg n v). pose proof (nrm_nonneg n (fun i => sumR n (fun j => W i j * Rabs (v j)))). nra. }
      unfold d. rewrite !Z. lra. }
  apply (Rmult_le_reg_l (lambda - w)); [lra|]. unfold Rdiv.
  replace ((lambda - w) * ((w * nrm n x + nrm n E) * / (lambda - w))) with (w * nrm n x + nrm n E) by (field; lra). lra.
Qed.
Lemma accurate_of_residual : accurate n A W b E xh.
Proof.
  split; [exact HR|]. split; [exact err_inverse|]. split; [exact err_dominance|]. split; [exact err_definiteness|].
  split; [exact rel_inverse|]. split; [exact rel_dominance|exact rel_definiteness].
Qed.
End Of.

(** A solution of a nearby system. *)
Lemma accurate_of_near n A A' W b e E xh : (forall i j, (i < n)%nat -> (j < n)%nat -> Rabs (A' i j - A i j) <= W i j) ->
  (forall i, (i < n)%nat -> Rabs (e i) <= E i) -> solvesR n A' xh (fun i => b i + e i) -> accurate n A W b E xh.
Proof.
  intros HW HE S. apply accurate_of_residual.
  - intros i Hi. specialize (S i Hi). cbv beta in S.
    replace (b i - mvR n A xh i) with (mvR n (fun i j => A' i j - A i j) xh i - e i).
    2:{ replace (b i) with (mvR n A' xh i - e i) by (rewrite S; ring).
        replace (mvR n (fun i j => A' i j - A i j) xh i) with (mvR n A' xh i - mvR n A xh i); [ring|].
        unfold mvmul. rewrite <- rsum_sub. apply bsum_ext. intros k Hk. cbn [mul ROps]. ring. }
    unfold Rminus. eapply Rle_trans; [apply Rabs_triang|]. rewrite Rabs_Ropp. apply Rplus_le_compat; [|now apply HE].
    eapply Rle_trans; [apply bsum_abs|]. apply bsum_le. intros j Hj. cbn [mul ROps]. rewrite Rabs_mult.
    apply Rmult_le_compat_r; [apply Rabs_pos|]. now apply HW.
  - intros i j Hi Hj. eapply Rle_trans; [apply Rabs_pos|now apply HW].
Qed.
