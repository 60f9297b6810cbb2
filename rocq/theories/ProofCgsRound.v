(** * Gram-Schmidt in rounded arithmetic *)
From Coq Require Import Reals Lra Lia List.
From Verif Require Import Base Scalar BaseLemmas Spec Sums RealVec SpecMat ModelVec ModelIter ProofCgs PropCgs SpecRound Rounding ProofRound ProofRound2 ProofGmresMath ProofAccuracy.
Import ListNotations.
Local Open Scope R_scope.
Local Notation dotR := (@dotp R ROps).
Local Notation rsum := (@bsum R ROps).

(** ** Vectors *)
Section Vectors.
Variable n : nat.
Lemma nrm_mono x y : (forall i, (i < n)%nat -> Rabs (x i) <= y i) -> nrm n x <= nrm n y.
Proof.
  intros H. unfold nrm. apply sqrt_le_1_alt. unfold dotp. apply bsum_le. intros i Hi. cbn [mul ROps]. specialize (H i Hi).
  pose proof (Rabs_pos (x i)). replace (x i * x i) with (Rabs (x i) * Rabs (x i)) by (rewrite <- Rabs_mult; apply Rabs_pos_eq, Rle_0_sqr). nra.
Qed.
Lemma nrm_comb k c (W : nat -> nat -> R) : nrm n (fun i => rsum k (fun l => c l * W l i)) <= rsum k (fun l => Rabs (c l) * nrm n (W l)).
Proof.
  induction k as [|k IH].
  - cbn [bsum zero ROps]. right. apply nrm_zero_iff. reflexivity.
  - rewrite rsum_S. eapply Rle_trans; [|apply Rplus_le_compat_r, IH]. rewrite <- nrm_scal. eapply Rle_trans; [|apply nrm_triangle]. right. reflexivity.
Qed.
Lemma nrm_opp x : nrm n (fun i => - x i) = nrm n x.
Proof. rewrite <- (nrm_abs n x), <- (nrm_abs n (fun i => - x i)). apply nrm_ext. intros i _. apply Rabs_Ropp. Qed.
Lemma nrm_sub x y : nrm n (fun i => x i - y i) <= nrm n x + nrm n y.
Proof. rewrite <- (nrm_opp y). eapply Rle_trans; [|apply nrm_triangle]. right. reflexivity. Qed.
Lemma nonzero_nrm x : nonzero n x -> 0 < nrm n x.
Proof. intros N. pose proof (nrm_nonneg n x). destruct (Req_dec (nrm n x) 0) as [E|]; [|lra]. exfalso. apply (nonzero_dotp n x N). rewrite <- nrm_sqr, E. ring. Qed.
Lemma nrm_nonzero x : 0 < nrm n x -> nonzero n x.
Proof.
  intros H. assert (D : nonzero n x \/ ~ nonzero n x); [|destruct D as [D|D]; [exact D|exfalso]].
  { apply Classical_Prop.classic. }
  pose proof (not_nonzero n x D) as Z. apply nrm_zero_iff in Z. lra.
Qed.
Lemma dot_abs_le x y : dotR n (vabs x) (vabs y) <= nrm n x * nrm n y.
Proof.
  eapply Rle_trans; [apply Rle_abs|]. eapply Rle_trans; [apply cauchy_schwarz|].
  unfold vabs. rewrite !nrm_abs. lra.
Qed.

Lemma inspan_le k l V x : (l <= k)%nat -> inspan n l V x -> inspan n k V x.
Proof.
  intros H. induction H; auto. intros S0. apply inspan_S. exists 0, x. split; [auto|]. intros; ring.
Qed.
Lemma inspan_at k l V : (l < k)%nat -> inspan n k V (V l).
Proof.
  intros H. apply (inspan_le k (S l)); [lia|]. apply inspan_S. exists 1, (fun _ => 0). split; [|intros; ring].
  exists (fun _ => 0). intros i _. unfold comb. transitivity 0; [reflexivity|]. symmetry. apply rsum_zero. intros; ring.
Qed.
Lemma inspan_sum k V m c (X : nat -> nat -> R) : (forall l, (l < m)%nat -> inspan n k V (X l)) -> inspan n k V (fun i => rsum m (fun l => c l * X l i)).
Proof.
  induction m as [|m IH]; intros H.
  - exists (fun _ => 0). intros i _. unfold comb. transitivity 0; [reflexivity|]. symmetry. apply rsum_zero. intros; ring.
  - apply (inspan_ext n k V (fun i => rsum m (fun l => c l * X l i) + c m * X m i)); [intros; now rewrite rsum_S|].
    apply comb_add; [apply IH; auto|]. apply comb_scal. apply H. lia.
Qed.
End Vectors.

(** ** What each step does *)
Section Steps.
Context {O : Ops R} {u : R} {AX : Approx O u}.
Variable n : nat.
Hypothesis Hn : (0 < n)%nat.

Lemma pos_sum_near k f g : (forall i, (i < n)%nat -> 0 <= f i) -> (forall i, (i < n)%nat -> exists t, near u k t /\ g i = f i * t) ->
  (1 - u) ^ k * rsum n f <= rsum n g /\ rsum n g <= / (1 - u) ^ k * rsum n f.
Proof.
  intros P H. rewrite <- !rs_scal. split; apply bsum_le; intros i Hi; destruct (H i Hi) as (t & [N1 N2] & ->); specialize (P i Hi); nra.
Qed.
Lemma self_dot w : nonzero n w -> exists t, near u n t /\ @cdot R O n w w = dotR n w w * t.
Proof.
  intros Nz. destruct (dot_back (u := u) n w w Hn) as (w' & P & E).
  assert (Pd : 0 < dotR n w w). { pose proof (nonzero_nrm n w Nz). rewrite <- nrm_sqr. nra. }
  destruct (pos_sum_near n (fun i => w i * w i) (fun i => w' i * w i)) as [L U].
  { intros i _. apply Rle_0_sqr. }
  { intros i Hi. destruct (P i Hi) as (t & N & ->). exists t. split; [exact N|]. ring. }
  change (rsum n (fun i => w i * w i)) with (dotR n w w) in L, U.
  exists (rsum n (fun i => w' i * w i) / dotR n w w). split.
  - split.
    + apply Rmult_le_reg_r with (dotR n w w); [exact Pd|]. unfold Rdiv. rewrite Rmult_assoc, Rinv_l by lra. lra.
    + apply Rmult_le_reg_r with (dotR n w w); [exact Pd|]. unfold Rdiv. rewrite (Rmult_assoc (rsum _ _)), Rinv_l by lra. lra.
  - unfold cdot. rewrite E. field. lra.
Qed.
(** The coefficient of one projection. *)
Definition gcoef (w v : nat -> R) : R := - @div R O (@opp R O (@cdot R O n w v)) (@cdot R O n w w).
Lemma gcoef_ok w v : nonzero n w ->
  Rabs (gcoef w v - dotR n w v / dotR n w w) <= gamma u (2 * n + 1) * (dotR n (vabs w) (vabs v) / dotR n w w).
Proof.
  intros Nz. assert (Pd : 0 < dotR n w w). { pose proof (nonzero_nrm n w Nz). rewrite <- nrm_sqr. nra. }
  destruct (self_dot w Nz) as (T & NT & ET). pose proof (near_pos u_range _ _ NT) as PT.
  destruct (dot_back (u := u) n w v Hn) as (w' & P & E).
  destruct (div_near (u := u) (opp (cdot n w v)) (cdot n w w)) as (d & Nd & Ed); [rewrite ET; nra|].
  unfold gcoef. rewrite Ed, (ax_opp (u := u)), ET. unfold cdot at 1. rewrite E.
  destruct (fin_choice n (fun i t => near u n t /\ w' i = w i * t) 1) as (t & Ht). { intros i Hi. apply (P i Hi). }
  assert (Q : Rabs (rsum n (fun i => w i * v i * (t i * d / T)) - rsum n (fun i => w i * v i)) <= gamma u (2 * n + 1) * rsum n (fun i => Rabs (w i * v i))).
  { apply (pert_sum (u := u)). intros i Hi. exists (t i * d / T). split; [|reflexivity].
    replace (2 * n + 1)%nat with (n + 1 + n)%nat by lia. apply (near_div u_range); [|exact NT]. apply (near_mul u_range); [apply Ht; exact Hi|exact Nd]. }
  assert (E1 : - (- rsum n (fun i => w' i * v i) / (dotR n w w * T) * d) = rsum n (fun i => w i * v i * (t i * d / T)) / dotR n w w).
  { rewrite (bsum_ext n (fun i => w i * v i * (t i * d / T)) (fun i => w' i * v i * (d / T))).
    - rewrite rs_scal_r. field. lra.
    - intros i Hi. destruct (Ht i Hi) as [_ ->]. field. lra. }
  rewrite E1. change (dotR n w v) with (rsum n (fun i => w i * v i)) at 1.
  replace (rsum n (fun i => w i * v i * (t i * d / T)) / dotR n w w - rsum n (fun i => w i * v i) / dotR n w w)
    with ((rsum n (fun i => w i * v i * (t i * d / T)) - rsum n (fun i => w i * v i)) * / dotR n w w) by (field; lra).
  rewrite Rabs_mult, (Rabs_pos_eq (/ _)) by (left; now apply Rinv_0_lt_compat).
  replace (gamma u (2 * n + 1) * (dotR n (vabs w) (vabs v) / dotR n w w)) with (gamma u (2 * n + 1) * dotR n (vabs w) (vabs v) * / dotR n w w) by (unfold Rdiv; ring).
  apply Rmult_le_compat_r; [left; now apply Rinv_0_lt_compat|].
  eapply Rle_trans; [exact Q|]. right. f_equal. apply bsum_ext. intros i _. unfold vabs. cbn [mul ROps]. apply Rabs_mult.
Qed.

Lemma gacc_back W v k i : exists T t, near u k T /\ (forall l, (l < k)%nat -> near u (S l) (t l)) /\
  v i = @gacc R O n W v k i * T + rsum k (fun l => gcoef (W l) v * W l i * t l).
Proof.
  induction k as [|k (T & t & NT & Nt & E)].
  - exists 1, (fun _ => 1). split; [apply (near_1 u_range)|]. split; [intros; lia|]. cbn. ring.
  - cbn [gacc]. set (s := @gacc R O n W v k i) in *.
    destruct (mul_near (u := u) (div (opp (cdot n (W k) v)) (cdot n (W k) (W k))) (W k i)) as (m & Nm & Em).
    destruct (add_near (u := u) (mul (div (opp (cdot n (W k) v)) (cdot n (W k) (W k))) (W k i)) s) as (d & Nd & Ed).
    pose proof (near_pos u_range _ _ Nd) as Pd.
    exists (T / d), (fun l => if Nat.eqb l k then m * T else t l). split; [|split].
    + rewrite <- Nat.add_1_r. now apply (near_div u_range).
    + intros l Hl. destruct (Nat.eqb_spec l k) as [->|].
      * replace (S k) with (1 + k)%nat by lia. now apply (near_mul u_range).
      * apply Nt. lia.
    + rewrite Ed, Em, E, rsum_S, Nat.eqb_refl.
      rewrite (bsum_ext k (fun l => gcoef (W l) v * W l i * (if Nat.eqb l k then m * T else t l)) (fun l => gcoef (W l) v * W l i * t l)).
      * unfold gcoef. field. lra.
      * intros l Hl. destruct (Nat.eqb_spec l k); [lia|reflexivity].
Qed.
Lemma gacc_resid W v k i :
  Rabs (v i - @gacc R O n W v k i - rsum k (fun l => gcoef (W l) v * W l i))
    <= gamma u k * (Rabs (@gacc R O n W v k i) + rsum k (fun l => Rabs (gcoef (W l) v) * Rabs (W l i))).
Proof.
  destruct (gacc_back W v k i) as (T & t & NT & Nt & E). set (s := gacc n W v k i) in *.
  rewrite E at 1.
  replace (s * T + rsum k (fun l => gcoef (W l) v * W l i * t l) - s - rsum k (fun l => gcoef (W l) v * W l i))
    with ((s * T - s) + (rsum k (fun l => gcoef (W l) v * W l i * t l) - rsum k (fun l => gcoef (W l) v * W l i))) by ring.
  eapply Rle_trans; [apply Rabs_triang|]. rewrite Rmult_plus_distr_l. apply Rplus_le_compat; [now apply (near_err u_range)|].
  eapply Rle_trans; [apply (pert_sum (u := u) k); intros l Hl; exists (t l); split; [apply (near_mono u_range (S l)); [lia|now apply Nt]|reflexivity]|].
  right. f_equal. apply bsum_ext. intros l _. apply Rabs_mult.
Qed.
End Steps.

(** ** From the steps to orthogonality *)
Section Orth.
Variables (n m : nat) (V W : nat -> nat -> R) (r : nat -> nat -> R) (g1 g2 K : R).
Hypothesis G1 : 0 <= g1.
Hypothesis G2 : 0 <= g2.
Hypothesis HK : 1 <= K.
(** step k, provided no earlier vector has vanished *)
Definition step_ok k : Prop :=
  (forall l, (l < k)%nat -> Rabs (r k l - dotR n (W l) (V k) / dotR n (W l) (W l)) <= g1 * (dotR n (vabs (W l)) (vabs (V k)) / dotR n (W l) (W l))) /\
  (forall i, (i < n)%nat -> Rabs (V k i - W k i - rsum k (fun l => r k l * W l i)) <= g2 * (Rabs (W k i) + rsum k (fun l => Rabs (r k l) * Rabs (W l i)))).

Lemma coef_size k l : step_ok k -> (l < k)%nat -> 0 < nrm n (W l) -> Rabs (r k l) * nrm n (W l) <= (1 + g1) * nrm n (V k).
Proof.
  intros [H _] Hl Pw. specialize (H l Hl). rewrite <- (nrm_sqr n (W l)) in H. set (w := nrm n (W l)) in *. set (v := nrm n (V k)).
  pose proof (nrm_nonneg n (V k)) as Pv. fold v in Pv.
  assert (B1 : Rabs (dotR n (W l) (V k)) <= w * v) by apply cauchy_schwarz.
  assert (B2 : dotR n (vabs (W l)) (vabs (V k)) <= w * v) by apply dot_abs_le.
  assert (Pi : 0 < / (w * w)) by (apply Rinv_0_lt_compat; nra).
  assert (B : Rabs (r k l) <= (1 + g1) * (w * v * / (w * w))).
  { replace (r k l) with (r k l - dotR n (W l) (V k) / (w * w) + dotR n (W l) (V k) / (w * w)) by ring.
    eapply Rle_trans; [apply Rabs_triang|]. unfold Rdiv in *. rewrite (Rabs_mult (dotR n (W l) (V k))), (Rabs_pos_eq (/ (w * w))) by lra.
    assert (dotR n (vabs (W l)) (vabs (V k)) * / (w * w) <= w * v * / (w * w)) by (apply Rmult_le_compat_r; lra).
    assert (Rabs (dotR n (W l) (V k)) * / (w * w) <= w * v * / (w * w)) by (apply Rmult_le_compat_r; lra). nra. }
  apply (Rmult_le_compat_r w) in B; [|lra]. eapply Rle_trans; [exact B|]. right. field. lra.
Qed.
Lemma coef_sum k : step_ok k -> (forall l, (l < k)%nat -> 0 < nrm n (W l)) -> rsum k (fun l => Rabs (r k l) * nrm n (W l)) <= INR k * ((1 + g1) * nrm n (V k)).
Proof.
  intros H P. rewrite <- (rs_one k), <- rs_scal_r. apply bsum_le. intros l Hl. rewrite Rmult_1_l. apply coef_size; auto.
Qed.
(** the part of V_k that the step loses *)
Definition lost k i : R := V k i - W k i - rsum k (fun l => r k l * W l i).
Lemma lost_size k : step_ok k -> (forall l, (l < k)%nat -> 0 < nrm n (W l)) ->
  nrm n (lost k) <= g2 * (nrm n (W k) + INR k * ((1 + g1) * nrm n (V k))).
Proof.
  intros H P. eapply Rle_trans; [apply nrm_mono; apply (proj2 H)|].
  rewrite nrm_scal, (Rabs_pos_eq g2) by exact G2. apply Rmult_le_compat_l; [exact G2|].
  eapply Rle_trans; [apply nrm_triangle|]. apply Rplus_le_compat; [rewrite nrm_abs; lra|].
  eapply Rle_trans; [apply (nrm_comb n k (fun l => Rabs (r k l)) (fun l i => Rabs (W l i)))|].
  eapply Rle_trans; [|apply coef_sum; auto]. right. apply bsum_ext. intros l _. now rewrite nrm_abs, Rabs_Rabsolu.
Qed.

(** The cosine of the angle between two results. *)
Definition slip : R := g1 + g2 * (1 + INR m * (1 + g1)).
Fixpoint skew (k : nat) : R := match k with 0%nat => 0 | S k' => K * (slip + INR m * (1 + g1) * skew k') end.
Lemma slip_pos : 0 <= slip.
Proof. unfold slip. pose proof (pos_INR m). assert (0 <= INR m * (1 + g1)) by nra. nra. Qed.
Lemma skew_pos k : 0 <= skew k.
Proof. induction k; cbn [skew]; [lra|]. pose proof slip_pos. pose proof (pos_INR m). assert (0 <= INR m * (1 + g1)) by nra. assert (0 <= INR m * (1 + g1) * skew k) by nra. nra. Qed.
Lemma skew_step k : (1 <= m)%nat -> skew k <= skew (S k).
Proof.
  intros Hm. cbn [skew]. pose proof slip_pos. pose proof (skew_pos k). assert (1 <= INR m) by (replace 1 with (INR 1) by reflexivity; now apply le_INR).
  assert (1 <= INR m * (1 + g1)) by nra. assert (skew k <= INR m * (1 + g1) * skew k) by nra. nra.
Qed.
Lemma skew_mono a b : (1 <= m)%nat -> (a <= b)%nat -> skew a <= skew b.
Proof. intros Hm H. induction H; [lra|]. pose proof (skew_step m0 Hm). lra. Qed.
Lemma skew_closed k : (1 <= m)%nat -> skew (S k) <= INR (S k) * (K * slip) * (K * (INR m * (1 + g1))) ^ k.
Proof.
  intros Hm. pose proof slip_pos. assert (H1 : 1 <= INR m) by (replace 1 with (INR 1) by reflexivity; now apply le_INR).
  set (q := K * (INR m * (1 + g1))). assert (Hq : 1 <= q) by (unfold q; assert (1 <= INR m * (1 + g1)) by nra; nra).
  assert (PS : 0 <= K * slip) by nra.
  induction k as [|k IH].
  - cbn [skew pow INR]. lra.
  - replace (skew (S (S k))) with (K * slip + q * skew (S k)) by (unfold q; cbn [skew]; ring).
    assert (Pq : 1 <= q ^ S k) by (apply pow_R1_Rle; exact Hq).
    rewrite (S_INR (S k)). cbn [pow] in *.
    apply Rle_trans with (K * slip * (q * q ^ k) + q * (INR (S k) * (K * slip) * q ^ k)); [|right; ring].
    apply Rplus_le_compat; [|apply Rmult_le_compat_l; lra].
    rewrite <- (Rmult_1_r (K * slip)) at 1. apply Rmult_le_compat_l; lra.
Qed.

Lemma orthogonal : (forall k, (k < m)%nat -> step_ok k) -> (forall k, (k < m)%nat -> 0 < nrm n (W k)) -> (forall k, (k < m)%nat -> nrm n (V k) <= K * nrm n (W k)) ->
  forall k, (k < m)%nat -> forall a, (a < k)%nat -> Rabs (dotR n (W a) (W k)) <= skew k * (nrm n (W a) * nrm n (W k)).
Proof.
  intros HS Pw HV. induction k as [k IH] using lt_wf_ind. intros Hk a Ha.
  assert (Hm : (1 <= m)%nat) by lia. destruct k as [|k]; [lia|].
  pose proof (HS (S k) Hk) as St. set (v := nrm n (V (S k))). set (wa := nrm n (W a)). set (wk := nrm n (W (S k))).
  assert (Pa : 0 < wa) by (apply Pw; lia). assert (Pk : 0 < wk) by (apply Pw; lia). assert (Pv : 0 <= v) by apply nrm_nonneg.
  assert (Hv : v <= K * wk) by (apply HV; lia).
  pose proof (pos_INR m) as Pm.
  (* the three parts *)
  set (rest := fun l => if Nat.eqb l a then 0 else r (S k) l * dotR n (W a) (W l)).
  assert (E : dotR n (W a) (W (S k)) = (dotR n (W a) (V (S k)) - r (S k) a * dotR n (W a) (W a)) - rsum (S k) rest - dotR n (W a) (lost (S k))).
  { assert (E0 : dotR n (W a) (lost (S k)) = dotR n (W a) (V (S k)) - dotR n (W a) (W (S k)) - rsum (S k) (fun l => r (S k) l * dotR n (W a) (W l))).
    { rewrite <- (dotp_comb n (S k) (r (S k)) W (W a)), <- !dotp_sub. reflexivity. }
    assert (E1 : rsum (S k) (fun l => r (S k) l * dotR n (W a) (W l)) = r (S k) a * dotR n (W a) (W a) + rsum (S k) rest).
    { rewrite (bsum_ext (S k) (fun l => r (S k) l * dotR n (W a) (W l)) (fun l => (if Nat.eqb l a then r (S k) a * dotR n (W a) (W a) else 0) + rest l)).
      - rewrite rs_add. f_equal. rewrite (rs_single (S k) _ a Ha), Nat.eqb_refl; [reflexivity|]. intros l _ Nl. destruct (Nat.eqb_spec l a); [contradiction|reflexivity].
      - intros l _. unfold rest. destruct (Nat.eqb_spec l a) as [->|]; ring. }
    rewrite E0, E1. ring. }
  assert (B1 : Rabs (dotR n (W a) (V (S k)) - r (S k) a * dotR n (W a) (W a)) <= g1 * (wa * v)).
  { pose proof (proj1 St a Ha) as Q. rewrite <- (nrm_sqr n (W a)) in *. fold wa in Q |- *.
    pose proof (dot_abs_le n (W a) (V (S k))) as D. fold wa v in D.
    replace (dotR n (W a) (V (S k)) - r (S k) a * (wa * wa)) with (- ((r (S k) a - dotR n (W a) (V (S k)) / (wa * wa)) * (wa * wa))) by (field; lra).
    rewrite Rabs_Ropp, Rabs_mult, (Rabs_pos_eq (wa * wa)) by nra.
    apply (Rmult_le_compat_r (wa * wa)) in Q; [|nra]. eapply Rle_trans; [exact Q|].
    replace (g1 * (dotR n (vabs (W a)) (vabs (V (S k))) / (wa * wa)) * (wa * wa)) with (g1 * dotR n (vabs (W a)) (vabs (V (S k)))) by (field; lra).
    apply Rmult_le_compat_l; lra. }
  assert (B2 : Rabs (rsum (S k) rest) <= INR m * (1 + g1) * skew k * (wa * v)).
  { eapply Rle_trans; [apply bsum_abs|]. apply Rle_trans with (rsum (S k) (fun _ => 1 * ((1 + g1) * skew k * (wa * v)))).
    - apply bsum_le. intros l Hl. unfold rest. pose proof (skew_pos k) as Ps. assert (0 <= wa * v) by nra. assert (0 <= skew k * (wa * v)) by nra.
      destruct (Nat.eqb_spec l a) as [->|Nl]; [rewrite Rabs_R0; nra|].
      assert (Pl : 0 < nrm n (W l)) by (apply Pw; lia).
      assert (Q : Rabs (dotR n (W a) (W l)) <= skew k * (wa * nrm n (W l))).
      { destruct (Nat.lt_ge_cases a l) as [L|L].
        - eapply Rle_trans; [apply IH; lia|]. apply Rmult_le_compat_r; [apply Rmult_le_pos; apply nrm_nonneg|]. apply skew_mono; lia.
        - rewrite dotp_comm. eapply Rle_trans; [apply IH; lia|]. fold wa. rewrite (Rmult_comm (nrm n (W l))). apply Rmult_le_compat_r; [apply Rmult_le_pos; [lra|apply nrm_nonneg]|]. apply skew_mono; lia. }
      pose proof (coef_size (S k) l St Hl Pl) as C. fold v in C. rewrite Rabs_mult.
      pose proof (Rabs_pos (r (S k) l)) as Pr.
      apply Rle_trans with (Rabs (r (S k) l) * (skew k * (wa * nrm n (W l)))); [now apply Rmult_le_compat_l|].
      replace (Rabs (r (S k) l) * (skew k * (wa * nrm n (W l)))) with (Rabs (r (S k) l) * nrm n (W l) * (skew k * wa)) by ring.
      apply Rle_trans with ((1 + g1) * v * (skew k * wa)); [|right; ring]. apply Rmult_le_compat_r; [apply Rmult_le_pos; lra|exact C].
    - rewrite rs_scal_r, rs_one. assert (INR (S k) <= INR m) by (apply le_INR; lia). pose proof (skew_pos k).
      assert (0 <= (1 + g1) * skew k * (wa * v)) by (repeat apply Rmult_le_pos; lra).
      apply Rle_trans with (INR m * ((1 + g1) * skew k * (wa * v))); [now apply Rmult_le_compat_r|right; ring]. }
  assert (B3 : Rabs (dotR n (W a) (lost (S k))) <= wa * (g2 * (wk + INR m * ((1 + g1) * v)))).
  { eapply Rle_trans; [apply cauchy_schwarz|]. fold wa. apply Rmult_le_compat_l; [lra|].
    eapply Rle_trans; [apply lost_size; [exact St|intros l Hl; apply Pw; lia]|]. fold wk v. apply Rmult_le_compat_l; [exact G2|].
    assert (INR (S k) <= INR m) by (apply le_INR; lia). assert (0 <= (1 + g1) * v) by nra. nra. }
  assert (T : Rabs (dotR n (W a) (W (S k))) <= g1 * (wa * v) + INR m * (1 + g1) * skew k * (wa * v) + wa * (g2 * (wk + INR m * ((1 + g1) * v)))).
  { rewrite E. unfold Rminus. eapply Rle_trans; [apply Rabs_triang|]. rewrite Rabs_Ropp. apply Rplus_le_compat; [|exact B3].
    eapply Rle_trans; [apply Rabs_triang|]. rewrite Rabs_Ropp. apply Rplus_le_compat; [exact B1|exact B2]. }
  eapply Rle_trans; [exact T|]. cbn [skew]. unfold slip. pose proof (skew_pos k) as Ps.
  set (s := skew k) in *. set (M := INR m * (1 + g1)). assert (PM : 0 <= M) by (unfold M; nra).
  apply Rle_trans with (wa * ((g1 + M * s + g2 * M) * v + g2 * wk)); [right; unfold M; ring|].
  apply Rle_trans with (wa * ((g1 + M * s + g2 * M) * (K * wk) + g2 * (K * wk))); [|right; unfold M; ring].
  assert (0 <= g1 + M * s + g2 * M) by nra. apply Rmult_le_compat_l; [lra|].
  apply Rplus_le_compat; [apply Rmult_le_compat_l; lra|]. apply Rmult_le_compat_l; [lra|]. nra.
Qed.
End Orth.

(** ** Vectors that are independent by a margin *)
Definition spread (n m : nat) (sigma : R) (V : nat -> nat -> R) : Prop :=
  forall k, (k < m)%nat -> nonzero n (V k) /\ forall y, inspan n k V y -> sigma * nrm n (V k) <= nrm n (fun i => V k i - y i).
Fixpoint drift (g1 g2 sigma : R) (m k : nat) : R := match k with
  | 0%nat => 0 | S k' => g2 + 2 * (1 + g2) / sigma * ((1 + g1) * INR m * (g2 + drift g1 g2 sigma m k')) end.

Section Spread.
Variables (n m : nat) (V W : nat -> nat -> R) (r : nat -> nat -> R) (g1 g2 sigma : R).
Hypothesis G1 : 0 <= g1.
Hypothesis G2 : 0 <= g2.
Hypothesis Hs : 0 < sigma.
Hypothesis Sp : spread n m sigma V.
Local Notation K := (2 * (1 + g2) / sigma).
Local Notation D := (drift g1 g2 sigma m).

Lemma sigma_le1 : (1 <= m)%nat -> sigma <= 1.
Proof.
  intros Hm. destruct (Sp 0%nat Hm) as [Nz H]. specialize (H (fun _ => 0)). apply nonzero_nrm in Nz.
  assert (sigma * nrm n (V 0%nat) <= nrm n (V 0%nat)); [|nra].
  eapply Rle_trans; [apply H|].
  - exists (fun _ => 0). intros; reflexivity.
  - right. apply nrm_ext. intros i _. ring.
Qed.
Lemma K_ge : (1 <= m)%nat -> 1 <= K.
Proof. intros Hm. pose proof (sigma_le1 Hm). apply Rmult_le_reg_r with sigma; [exact Hs|]. unfold Rdiv. rewrite (Rmult_assoc (2 * (1 + g2))), Rinv_l by lra. lra. Qed.
Lemma drift_pos k : (1 <= m)%nat -> 0 <= D k.
Proof.
  intros Hm. pose proof (K_ge Hm). pose proof (pos_INR m). induction k as [|k IH]; cbn [drift]; [lra|].
  assert (0 <= (1 + g1) * INR m * (g2 + D k)) by (repeat apply Rmult_le_pos; lra). nra.
Qed.
Lemma drift_step k : (1 <= m)%nat -> D k <= D (S k).
Proof.
  intros Hm. pose proof (K_ge Hm). pose proof (drift_pos k Hm). assert (1 <= INR m) by (replace 1 with (INR 1) by reflexivity; now apply le_INR). cbn [drift].
  assert (1 <= (1 + g1) * INR m) by nra. assert (g2 + D k <= (1 + g1) * INR m * (g2 + D k)) by nra. nra.
Qed.
Lemma drift_mono a b : (1 <= m)%nat -> (a <= b)%nat -> D a <= D b.
Proof. intros Hm H. induction H; [lra|]. pose proof (drift_step m0 Hm). lra. Qed.

Lemma no_breakdown : (1 + g1) * INR m * (g2 + D m) <= sigma / 2 ->
  (forall k, (k < m)%nat -> (forall l, (l < k)%nat -> nonzero n (W l)) -> step_ok n V W r g1 g2 k) ->
  forall k, (k < m)%nat -> nonzero n (W k) /\ nrm n (V k) <= K * nrm n (W k) /\
    exists y, inspan n k V y /\ nrm n (fun i => W k i - (V k i - y i)) <= D (S k) * nrm n (W k).
Proof.
  intros Small HS. induction k as [k IH] using lt_wf_ind. intros Hk. assert (Hm : (1 <= m)%nat) by lia.
  assert (Nw : forall l, (l < k)%nat -> nonzero n (W l)) by (intros l Hl; apply IH; lia).
  assert (Pw : forall l, (l < k)%nat -> 0 < nrm n (W l)) by (intros; now apply nonzero_nrm, Nw).
  pose proof (HS k Hk Nw) as St.
  destruct (fin_choice k (fun l y => inspan n l V y /\ nrm n (fun i => W l i - (V l i - y i)) <= D (S l) * nrm n (W l)) (fun _ => 0)) as (Y & HY).
  { intros l Hl. apply (IH l Hl). lia. }
  set (F := fun l i => W l i - (V l i - Y l i)).
  set (y := fun i => rsum k (fun l => r k l * (V l i - Y l i))).
  assert (Iy : inspan n k V y).
  { apply inspan_sum. intros l Hl. apply (inspan_ext n k V (fun i => V l i + (-1) * Y l i)); [intros; ring|].
    apply comb_add; [now apply inspan_at|]. apply comb_scal. apply (inspan_le n k l); [lia|]. now apply HY. }
  set (Fk := fun i => W k i - (V k i - y i)).
  assert (EF : forall i, Fk i = - (lost V W r k i) - rsum k (fun l => r k l * F l i)).
  { intros i. unfold Fk, lost, y, F. rewrite (bsum_ext k (fun l => r k l * (W l i - (V l i - Y l i))) (fun l => r k l * W l i - r k l * (V l i - Y l i))) by (intros; ring).
    rewrite rs_sub. ring. }
  set (wk := nrm n (W k)). set (v := nrm n (V k)). assert (Pv : 0 < v) by (apply nonzero_nrm; now apply Sp). assert (P0 : 0 <= wk) by apply nrm_nonneg.
  pose proof (drift_pos k Hm) as PD. pose proof (pos_INR m) as Pm. assert (Lm : INR k <= INR m) by (apply le_INR; lia). pose proof (pos_INR k) as Pk.
  assert (BF : nrm n Fk <= g2 * wk + (1 + g1) * INR m * (g2 + D k) * v).
  { rewrite (nrm_ext n Fk (fun i => - lost V W r k i - rsum k (fun l => r k l * F l i))) by (intros i _; apply EF).
    eapply Rle_trans; [apply nrm_sub|]. rewrite nrm_opp.
    pose proof (lost_size n V W r g1 g2 G1 G2 k St Pw) as B1. fold wk v in B1.
    assert (B2 : nrm n (fun i => rsum k (fun l => r k l * F l i)) <= D k * (INR k * ((1 + g1) * v))).
    { eapply Rle_trans; [apply nrm_comb|]. eapply Rle_trans; [|apply Rmult_le_compat_l; [exact PD|apply (coef_sum n V W r g1 g2 G1 k St Pw)]].
      rewrite <- rs_scal. apply bsum_le. intros l Hl. pose proof (Rabs_pos (r k l)) as Pr.
      assert (nrm n (F l) <= D k * nrm n (W l)).
      { eapply Rle_trans; [apply (HY l Hl)|]. apply Rmult_le_compat_r; [apply nrm_nonneg|]. apply drift_mono; lia. }
      apply Rle_trans with (Rabs (r k l) * (D k * nrm n (W l))); [now apply Rmult_le_compat_l|right; ring]. }
    assert (Q : INR k * ((1 + g1) * v) <= INR m * ((1 + g1) * v)) by (apply Rmult_le_compat_r; [apply Rmult_le_pos; lra|exact Lm]).
    assert (D k * (INR k * ((1 + g1) * v)) <= D k * (INR m * ((1 + g1) * v))) by now apply Rmult_le_compat_l.
    assert (g2 * (INR k * ((1 + g1) * v)) <= g2 * (INR m * ((1 + g1) * v))) by now apply Rmult_le_compat_l.
    lra. }
  assert (Bm : (1 + g1) * INR m * (g2 + D k) <= sigma / 2).
  { eapply Rle_trans; [|exact Small]. apply Rmult_le_compat_l; [apply Rmult_le_pos; lra|]. pose proof (drift_mono k m Hm ltac:(lia)). lra. }
  assert (Low : sigma * v <= wk + nrm n Fk).
  { eapply Rle_trans; [apply (proj2 (Sp k Hk) y Iy)|]. rewrite (nrm_ext n (fun i => V k i - y i) (fun i => W k i - Fk i)); [apply nrm_sub|]. intros i _. unfold Fk. ring. }
  assert (Hv : v <= K * wk).
  { assert ((1 + g1) * INR m * (g2 + D k) * v <= sigma / 2 * v) by (apply Rmult_le_compat_r; lra).
    apply Rmult_le_reg_l with (sigma / 2); [lra|]. replace (sigma / 2 * (K * wk)) with ((1 + g2) * wk) by (field; lra). lra. }
  split; [|split; [exact Hv|]].
  - apply nrm_nonzero. fold wk. pose proof (K_ge Hm). destruct (Req_dec wk 0) as [E|]; [|lra]. rewrite E in Hv. lra.
  - exists y. split; [exact Iy|]. eapply Rle_trans; [exact BF|]. cbn [drift]. fold wk.
    assert ((1 + g1) * INR m * (g2 + D k) * v <= (1 + g1) * INR m * (g2 + D k) * (K * wk)).
    { apply Rmult_le_compat_l; [repeat apply Rmult_le_pos; lra|exact Hv]. }
    lra.
Qed.
End Spread.
