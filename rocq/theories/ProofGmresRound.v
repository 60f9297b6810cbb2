(** * GMRES in rounded arithmetic: the computed combination against the residual estimate *)
From Coq Require Import Reals Lra Lia List.
From Verif Require Import Base Scalar BaseLemmas Spec Sums RealVec SpecMat ModelVec ModelIter ProofCgs ProofIlu SpecRound Rounding ProofRound ProofRound2
  ProofGmresMath ProofGmresRun ProofAccuracy ProofCgsRound PropGmresAny.
Local Open Scope R_scope.
Local Notation rsum := (@bsum R ROps).
Local Notation rhoE := (@rho R ROps).
Local Notation tauE := (@tau R ROps).

Lemma rhoE_S c s z i : rhoE c s z (S i) = - s i * rhoE c s z i + c i * z (S i).
Proof. reflexivity. Qed.
Lemma tauE_eq c s z i : tauE c s z i = c i * rhoE c s z i + s i * z (S i).
Proof. reflexivity. Qed.

(** ** Rotations that are only nearly orthogonal, applied exactly *)
Section Exact.
Variables c s : nat -> R.
Lemma rhoE_ext z z' i : (forall l, (l <= i)%nat -> z l = z' l) -> rhoE c s z i = rhoE c s z' i.
Proof. intros H. apply rho_ext; auto. Qed.
Lemma rotations_keep (M : R) m z : 1 <= M -> (forall i, (i < m)%nat -> 1 <= M * (c i * c i + s i * s i)) ->
  rsum (S m) (fun i => z i * z i) <= M ^ m * (rsum m (fun i => tauE c s z i * tauE c s z i) + rhoE c s z m * rhoE c s z m).
Proof.
  intros HM. induction m as [|m IH]; intros H.
  - right. cbn. ring.
  - rewrite rsum_S. specialize (IH ltac:(intros; apply H; lia)). specialize (H m ltac:(lia)).
    rewrite (rsum_S m (fun i => tauE c s z i * tauE c s z i)), rhoE_S, tauE_eq. cbn [pow].
    set (A := rsum m _) in *. set (B := rsum (S m) _) in *. set (r := rhoE c s z m) in *. set (v := z (S m)) in *. set (P := M ^ m) in *.
    assert (HA : 0 <= A) by (apply bsum_nonneg; intros; apply Rle_0_sqr).
    assert (HP : 1 <= P) by (apply pow_R1_Rle; exact HM).
    set (mu := c m * c m + s m * s m) in *.
    replace (A + (c m * r + s m * v) * (c m * r + s m * v) + (- s m * r + c m * v) * (- s m * r + c m * v)) with (A + mu * (r * r + v * v)) by (unfold mu; ring).
    assert (HV : 0 <= r * r + v * v) by (pose proof (Rle_0_sqr r); pose proof (Rle_0_sqr v); unfold Rsqr in *; lra).
    pose proof (Rle_0_sqr v) as Hv. unfold Rsqr in Hv.
    assert (E1 : A <= M * A) by nra.
    assert (E2 : r * r + v * v <= M * mu * (r * r + v * v)) by nra.
    assert (E3 : v * v <= P * (v * v)) by nra.
    assert (E4 : P * (A + (r * r + v * v)) <= P * (M * A + M * mu * (r * r + v * v))) by (apply Rmult_le_compat_l; lra).
    apply Rle_trans with (P * (A + r * r) + P * (v * v)); [lra|]. apply Rle_trans with (P * (A + (r * r + v * v))); [right; ring|].
    eapply Rle_trans; [exact E4|]. right. ring.
Qed.
Lemma rhoE_lin a e k y (U : nat -> nat -> R) i :
  rhoE c s (fun l => a * e l - rsum k (fun j => y j * U j l)) i = a * rhoE c s e i - rsum k (fun j => y j * rhoE c s (U j) i).
Proof.
  induction i as [|i IH]; [reflexivity|]. rewrite !rhoE_S, IH.
  rewrite (bsum_ext k (fun j => y j * rhoE c s (U j) (S i)) (fun j => - s i * (y j * rhoE c s (U j) i) + c i * (y j * U j (S i)))) by (intros j Hj; rewrite rhoE_S; ring).
  rewrite rs_add, !rs_scal. ring.
Qed.
Lemma tauE_lin a e k y (U : nat -> nat -> R) i :
  tauE c s (fun l => a * e l - rsum k (fun j => y j * U j l)) i = a * tauE c s e i - rsum k (fun j => y j * tauE c s (U j) i).
Proof.
  rewrite tauE_eq, rhoE_lin, tauE_eq.
  rewrite (bsum_ext k (fun j => y j * tauE c s (U j) i) (fun j => c i * (y j * rhoE c s (U j) i) + s i * (y j * U j (S i)))) by (intros j Hj; rewrite tauE_eq; ring).
  rewrite rs_add, !rs_scal. ring.
Qed.
(** Sizes, when no coefficient exceeds sg. *)
Lemma rhoE_size (sg : R) m z i : 1 <= sg -> (forall i, (i < m)%nat -> Rabs (c i) <= sg /\ Rabs (s i) <= sg) -> (i <= m)%nat ->
  Rabs (rhoE c s z i) <= sg ^ i * rsum (S i) (fun l => Rabs (z l)).
Proof.
  intros Hs H. induction i as [|i IH]; intros Hi.
  - right. cbn. ring.
  - rewrite rhoE_S, rsum_S. specialize (IH ltac:(lia)). destruct (H i ltac:(lia)) as [Hc Hs']. cbn [pow].
    eapply Rle_trans; [apply Rabs_triang|]. rewrite !Rabs_mult, Rabs_Ropp.
    set (S0 := rsum (S i) _) in *. assert (P : 1 <= sg ^ i) by (apply pow_R1_Rle; exact Hs).
    pose proof (Rabs_pos (rhoE c s z i)). pose proof (Rabs_pos (z (S i))). pose proof (Rabs_pos (s i)). pose proof (Rabs_pos (c i)).
    apply Rle_trans with (sg * (sg ^ i * S0) + sg * (sg ^ i * Rabs (z (S i)))); [|right; ring].
    apply Rplus_le_compat; [apply Rmult_le_compat; auto|]. apply Rmult_le_compat; auto. nra.
Qed.
Lemma rhoE_tail (sg : R) m z a d : 1 <= sg -> (forall i, (i < m)%nat -> Rabs (c i) <= sg /\ Rabs (s i) <= sg) -> (a + d <= m)%nat ->
  (forall l, (a < l)%nat -> z l = 0) -> Rabs (rhoE c s z (a + d)) <= sg ^ d * Rabs (rhoE c s z a).
Proof.
  intros Hs H. induction d as [|d IH]; intros Hm Hz.
  - rewrite Nat.add_0_r. right. cbn. ring.
  - rewrite Nat.add_succ_r, rhoE_S, Hz by lia. specialize (IH ltac:(lia) Hz). rewrite Rmult_0_r, Rplus_0_r, Rabs_mult, Rabs_Ropp. cbn [pow].
    destruct (H (a + d)%nat ltac:(lia)) as [_ B]. rewrite Rmult_assoc. apply Rmult_le_compat; auto using Rabs_pos.
Qed.
End Exact.

Section Rounded.
Context {O : Ops R} {u : R} {AX : Approx O u}.
Local Notation W k := (/ (1 - u) ^ k).
Let Hu : 0 <= u < 1 := u_range.

Lemma W_ge1 k : 1 <= W k. Proof. apply (wi_ge1 u_range). Qed.
Lemma W_add a b : W a * W b = W (a + b).
Proof. rewrite pow_add, Rinv_mult. reflexivity. Qed.
Lemma W_mono a b : (a <= b)%nat -> W a <= W b.
Proof. intros H. apply Rinv_le_contravar; [apply (w_pos u_range)|now apply (w_mono u_range)]. Qed.
Lemma W_pow a b : (W a) ^ b = W (a * b).
Proof. rewrite pow_inv, <- pow_mult. reflexivity. Qed.
Lemma gamma_W a b : gamma u a * W b <= gamma u (a + b).
Proof. unfold gamma. rewrite <- W_add. pose proof (W_ge1 b). lra. Qed.
Lemma W_gamma a b : W b * gamma u a <= gamma u (b + a).
Proof. rewrite Rmult_comm, Nat.add_comm. apply gamma_W. Qed.
Lemma near_diff a b s t : near u a s -> near u b t -> Rabs (s - t) <= gamma u (a + b).
Proof.
  intros Na Nb. pose proof (near_bound u_range _ _ Na). pose proof (near_bound u_range _ _ Nb). replace (s - t) with ((s - 1) - (t - 1)) by ring.
  eapply Rle_trans; [apply Rabs_triang|]. rewrite Rabs_Ropp. pose proof (gamma_add (u := u) a b). lra.
Qed.
Lemma near_W k t : near u k t -> Rabs t <= W k.
Proof. intros N. rewrite Rabs_pos_eq; [apply N|]. left. apply (near_pos u_range _ _ N). Qed.

(** One rotation applied in rounded arithmetic. *)
Lemma comb_near a r b v : exists m1 m2, near u 2 m1 /\ near u 2 m2 /\ @add R O (@mul R O a r) (@mul R O b v) = a * r * m1 + b * v * m2.
Proof.
  destruct (mul_near (u := u) a r) as (t1 & N1 & E1). destruct (mul_near (u := u) b v) as (t2 & N2 & E2).
  destruct (add_near (u := u) (mul a r) (mul b v)) as (t & N & E). exists (t1 * t), (t2 * t).
  split; [now apply (near_mul u_range 1 1)|]. split; [now apply (near_mul u_range 1 1)|]. rewrite E, E1, E2. ring.
Qed.
Lemma comb_err a r b v : Rabs (@add R O (@mul R O a r) (@mul R O b v) - (a * r + b * v)) <= gamma u 2 * (Rabs a * Rabs r + Rabs b * Rabs v).
Proof.
  destruct (comb_near a r b v) as (m1 & m2 & N1 & N2 & ->).
  replace (a * r * m1 + b * v * m2 - (a * r + b * v)) with ((a * r * m1 - a * r) + (b * v * m2 - b * v)) by ring.
  eapply Rle_trans; [apply Rabs_triang|]. rewrite <- !Rabs_mult, Rmult_plus_distr_l. apply Rplus_le_compat; now apply (near_err u_range).
Qed.

Lemma step_err K a b r r' v S0 : Rabs a <= W 3 -> Rabs b <= W 3 -> Rabs (r - r') <= gamma u K * S0 -> Rabs r <= W K * S0 -> 0 <= S0 ->
  Rabs (@add R O (@mul R O a r) (@mul R O b v) - (a * r' + b * v)) <= gamma u (K + 5) * (S0 + Rabs v) /\
  Rabs (@add R O (@mul R O a r) (@mul R O b v)) <= W (K + 5) * (S0 + Rabs v).
Proof.
  intros Ha Hb Hr Rr HS. pose proof (Rabs_pos a) as A0. pose proof (Rabs_pos b) as B0. pose proof (Rabs_pos v) as V0. pose proof (Rabs_pos r) as R0.
  pose proof (W_ge1 3) as W3. pose proof (W_ge1 K) as WK.
  assert (P1 : Rabs a * Rabs r <= W 3 * (W K * S0)) by (apply Rmult_le_compat; auto).
  assert (P2 : Rabs b * Rabs v <= W 3 * Rabs v) by (apply Rmult_le_compat_r; auto).
  assert (P2' : W 3 * Rabs v <= W 3 * (W K * Rabs v)) by (apply Rmult_le_compat_l; [lra|]; nra).
  assert (E5 : W (K + 5) = W 2 * (W 3 * W K)) by (rewrite !W_add; f_equal; f_equal; lia).
  split.
  - pose proof (comb_err a r b v) as E.
    replace (add (mul a r) (mul b v) - (a * r' + b * v)) with ((add (mul a r) (mul b v) - (a * r + b * v)) + a * (r - r')) by ring.
    eapply Rle_trans; [apply Rabs_triang|]. rewrite Rabs_mult.
    assert (P3 : Rabs a * Rabs (r - r') <= W 3 * (gamma u K * S0)) by (apply Rmult_le_compat; auto using Rabs_pos).
    assert (P4 : gamma u 2 * (Rabs a * Rabs r + Rabs b * Rabs v) <= gamma u 2 * (W 3 * (W K * S0) + W 3 * (W K * Rabs v))).
    { apply Rmult_le_compat_l; [apply (gamma_pos u_range)|]. lra. }
    apply Rle_trans with (gamma u 2 * (W 3 * (W K * S0) + W 3 * (W K * Rabs v)) + W 3 * (gamma u K * S0)); [lra|].
    unfold gamma. rewrite E5. set (w3 := W 3) in *. set (wK := W K) in *. set (w2 := W 2) in *.
    assert (X : 0 <= w3 * wK * Rabs v) by (apply Rmult_le_pos; [nra|auto]).
    assert (Y : 1 <= w3 * wK) by nra.
    assert (Z1 : Rabs v <= w3 * wK * Rabs v) by nra. assert (Z2 : S0 <= w3 * S0) by nra. lra.
  - destruct (comb_near a r b v) as (m1 & m2 & N1 & N2 & ->). eapply Rle_trans; [apply Rabs_triang|]. rewrite !Rabs_mult.
    pose proof (near_W _ _ N1) as M1. pose proof (near_W _ _ N2) as M2.
    apply Rle_trans with (W 3 * (W K * S0) * W 2 + W 3 * (W K * Rabs v) * W 2).
    + apply Rplus_le_compat; (apply Rmult_le_compat; [apply Rmult_le_pos; auto|apply Rabs_pos|lra|auto]).
    + rewrite E5. right. ring.
Qed.

Section Rot.
Variables c s : nat -> R.
Variable m : nat.
Hypothesis CS : forall i, (i < m)%nat -> Rabs (c i) <= W 3 /\ Rabs (s i) <= W 3.
Lemma rho_err z i : (i <= m)%nat ->
  Rabs (@rho R O c s z i - rhoE c s z i) <= gamma u (5 * i) * rsum (S i) (fun l => Rabs (z l)) /\
  Rabs (@rho R O c s z i) <= W (5 * i) * rsum (S i) (fun l => Rabs (z l)).
Proof.
  induction i as [|i IH]; intros Hi.
  - cbn [rho]. rewrite rsum_S. cbn [bsum zero ROps]. change (5 * 0)%nat with 0%nat. rewrite (gamma_0 (u := u)), Rminus_eq_0, Rabs_R0. cbn [pow]. rewrite Rinv_1. lra.
  - destruct IH as [I1 I2]; [lia|]. rewrite rhoE_S, rsum_S. cbn [rho]. rewrite (ax_opp (u := u)).
    destruct (CS i ltac:(lia)) as [Hc Hs]. replace (5 * S i)%nat with (5 * i + 5)%nat by lia.
    apply step_err; auto; [now rewrite Rabs_Ropp|]. apply bsum_nonneg. intros; apply Rabs_pos.
Qed.
Lemma tau_err z i : (i < m)%nat ->
  Rabs (@tau R O c s z i - tauE c s z i) <= gamma u (5 * i + 5) * rsum (S (S i)) (fun l => Rabs (z l)) /\
  Rabs (@tau R O c s z i) <= W (5 * i + 5) * rsum (S (S i)) (fun l => Rabs (z l)).
Proof.
  intros Hi. destruct (rho_err z i ltac:(lia)) as [I1 I2]. rewrite tauE_eq, rsum_S. unfold tau.
  destruct (CS i ltac:(lia)) as [Hc Hs]. apply step_err; auto. apply bsum_nonneg. intros; apply Rabs_pos.
Qed.

(** The estimate. *)
Definition e1 (i : nat) : R := match i with 0%nat => 1 | S _ => 0 end.
Lemma rhoE_e1 i : rhoE c s e1 (S i) = - s i * rhoE c s e1 i.
Proof. rewrite rhoE_S. cbn [e1]. ring. Qed.
Lemma tauE_e1 i : tauE c s e1 i = c i * rhoE c s e1 i.
Proof. rewrite tauE_eq. cbn [e1]. ring. Qed.
Lemma gam_near nb i : exists t, near u i t /\ @gam R O s nb i = nb * rhoE c s e1 i * t.
Proof.
  induction i as [|i (t & N & E)].
  - exists 1. split; [apply (near_1 u_range)|]. cbn. ring.
  - cbn [gam]. rewrite (ax_opp (u := u)). destruct (mul_near (u := u) (- s i) (gam s nb i)) as (t' & N' & E'). exists (t * t').
    split; [rewrite <- Nat.add_1_r; now apply (near_mul u_range)|]. rewrite E', E, rhoE_e1. ring.
Qed.
Lemma e1_size i : rsum (S i) (fun l => Rabs (e1 l)) = 1.
Proof. induction i as [|i IH]; [cbn; rewrite Rabs_R1; ring|]. rewrite rsum_S, IH. cbn [e1]. rewrite Rabs_R0. ring. Qed.
Lemma tauE_e1_size i : (i < m)%nat -> Rabs (tauE c s e1 i) <= W (3 * i + 3).
Proof.
  intros Hi. rewrite tauE_e1, Rabs_mult. pose proof (rhoE_size c s (W 3) m e1 i (W_ge1 3) CS ltac:(lia)) as B. rewrite e1_size, Rmult_1_r, W_pow in B.
  destruct (CS i Hi) as [Hc _]. rewrite Nat.add_comm, <- W_add. apply Rmult_le_compat; auto using Rabs_pos.
Qed.
Lemma beta_err nb i : (i < m)%nat -> Rabs (@beta_of R O c s nb i - nb * tauE c s e1 i) <= gamma u (4 * i + 4) * Rabs nb.
Proof.
  intros Hi. destruct (gam_near nb i) as (t & N & E). unfold beta_of. rewrite E. destruct (mul_near (u := u) (c i) (nb * rhoE c s e1 i * t)) as (t' & N' & ->).
  assert (Nt : near u (i + 1) (t * t')) by now apply (near_mul u_range).
  replace (c i * (nb * rhoE c s e1 i * t) * t' - nb * tauE c s e1 i) with (nb * tauE c s e1 i * (t * t') - nb * tauE c s e1 i) by (rewrite tauE_e1; ring).
  eapply Rle_trans; [apply (near_err u_range); exact Nt|]. rewrite Rabs_mult. pose proof (tauE_e1_size i Hi) as B. pose proof (Rabs_pos nb) as P0.
  pose proof (gamma_W (i + 1) (3 * i + 3)) as G. replace (i + 1 + (3 * i + 3))%nat with (4 * i + 4)%nat in G by lia. pose proof (gamma_pos u_range (i + 1)) as G0.
  apply Rle_trans with (gamma u (i + 1) * (Rabs nb * W (3 * i + 3))); [apply Rmult_le_compat_l; auto; apply Rmult_le_compat_l; auto|].
  apply Rle_trans with (gamma u (i + 1) * W (3 * i + 3) * Rabs nb); [right; ring|]. apply Rmult_le_compat_r; auto.
Qed.
Lemma gam_size nb i : Rabs (nb * rhoE c s e1 i) <= W i * Rabs (@gam R O s nb i).
Proof.
  destruct (gam_near nb i) as (t & [N1 N2] & ->). pose proof (w_pos u_range i) as P. rewrite (Rabs_mult _ t), (Rabs_pos_eq t) by lra.
  pose proof (Rabs_pos (nb * rhoE c s e1 i)) as A0.
  apply Rle_trans with (/ (1 - u) ^ i * (Rabs (nb * rhoE c s e1 i) * (1 - u) ^ i)); [right; field; lra|].
  apply Rmult_le_compat_l; [pose proof (W_ge1 i); lra|]. apply Rmult_le_compat_l; auto.
Qed.
End Rot.

(** The coefficients of one rotation. *)
Lemma rot_coef r h : let d := @sqrt_ R O (@add R O (@pow2 R O r) (@pow2 R O h)) in d <> 0 ->
  let c := @div R O r d in let s := @div R O h d in
  0 < d /\ (exists t, near u 6 t /\ c * c + s * s = t) /\ (exists t1 t2, near u 1 t1 /\ near u 1 t2 /\ c = r / d * t1 /\ s = h / d * t2).
Proof.
  cbv zeta. intros Hd. destruct (pow2_near (u := u) r) as (p1 & N1 & E1). destruct (pow2_near (u := u) h) as (p2 & N2 & E2).
  destruct (add_near (u := u) (pow2 r) (pow2 h)) as (a & Na & Ea).
  assert (P1 := near_pos u_range _ _ N1). assert (P2 := near_pos u_range _ _ N2). assert (Pa := near_pos u_range _ _ Na).
  pose proof (Rle_0_sqr r) as R2. pose proof (Rle_0_sqr h) as H2. unfold Rsqr in R2, H2.
  assert (Nn : 0 <= add (pow2 r) (pow2 h)).
  { rewrite Ea, E1, E2. apply Rmult_le_pos; [|lra]. pose proof (Rmult_le_pos _ _ R2 (Rlt_le _ _ P1)). pose proof (Rmult_le_pos _ _ H2 (Rlt_le _ _ P2)). lra. }
  destruct (sqrt_near (u := u) _ Nn) as (q & Nq & Eq). assert (Pq := near_pos u_range _ _ Nq).
  set (d := sqrt_ _) in *.
  assert (D0 : 0 < d). { rewrite Eq. rewrite Eq in Hd. pose proof (sqrt_pos (add (pow2 r) (pow2 h))). destruct (Req_dec (sqrt (add (pow2 r) (pow2 h))) 0) as [Z|Z]; [rewrite Z in Hd; lra|]. nra. }
  assert (D2 : d * d = (r * r * p1 + h * h * p2) * a * (q * q)).
  { rewrite Eq. transitivity (sqrt (add (pow2 r) (pow2 h)) * sqrt (add (pow2 r) (pow2 h)) * (q * q)); [ring|]. rewrite sqrt_sqrt by exact Nn. rewrite Ea, E1, E2. reflexivity. }
  destruct (div_near (u := u) r d ltac:(lra)) as (t1 & T1 & Et1). destruct (div_near (u := u) h d ltac:(lra)) as (t2 & T2 & Et2).
  split; [exact D0|]. split.
  - assert (Q1 := near_pos u_range _ _ T1). assert (Q2 := near_pos u_range _ _ T2).
    assert (Sp : 0 < r * r + h * h).
    { destruct (Req_dec r 0) as [->|Nr]; [destruct (Req_dec h 0) as [->|Nh]|]; [|nra|nra]. exfalso. assert (d * d = 0) by (rewrite D2; ring). nra. }
    exists ((div r d) * (div r d) + (div h d) * (div h d)). split; [|reflexivity]. rewrite Et1, Et2.
    assert (E : forall x y, r / d * t1 * (r / d * t1) + h / d * t2 * (h / d * t2) = (r * r * (t1 * t1) + h * h * (t2 * t2)) / (d * d) + 0 * x * y) by (intros; field; lra).
    rewrite (E 0 0), D2. clear E.
    set (N := r * r * (t1 * t1) + h * h * (t2 * t2)). set (D := r * r * p1 + h * h * p2).
    assert (ND : exists x, near u 2 x /\ N = (r * r + h * h) * x).
    { destruct (near_avg (u := u) 2 2 (fun i => match i with 0%nat => r * r | _ => h * h end) (fun i => match i with 0%nat => t1 * t1 | _ => t2 * t2 end)) as (x & Nx & Ex).
      - intros [|i] _; auto.
      - intros [|i] _; now apply (near_mul u_range 1 1).
      - exists x. split; [exact Nx|]. cbn in Ex. unfold N. lra. }
    assert (DD : exists x, near u 1 x /\ D = (r * r + h * h) * x).
    { destruct (near_avg (u := u) 1 2 (fun i => match i with 0%nat => r * r | _ => h * h end) (fun i => match i with 0%nat => p1 | _ => p2 end)) as (x & Nx & Ex).
      - intros [|i] _; auto.
      - intros [|i] _; auto.
      - exists x. split; [exact Nx|]. cbn in Ex. unfold D. lra. }
    destruct ND as (x & Nx & ->). destruct DD as (y & Ny & ->). assert (Py := near_pos u_range _ _ Ny).
    replace ((r * r + h * h) * x / ((r * r + h * h) * y * a * (q * q)) + 0 * 0 * 0) with (x / (y * (a * (q * q)))) by (field; lra).
    apply (near_div u_range 2 4); [exact Nx|]. apply (near_mul u_range 1 3); [exact Ny|]. apply (near_mul u_range 1 2); [exact Na|]. now apply (near_mul u_range 1 1).
  - exists t1, t2. auto.
Qed.

(** ** The small least squares problem *)
Section Small.
Variables (k : nat) (H Rm : nat -> nat -> R) (c s y : nat -> R).
(** The right-hand side [bt], its rotated form [beta], and how closely they correspond. *)
Variables (bt beta : nat -> R) (est Nb : R).
Hypothesis Hd : forall j, (j < k)%nat -> @delta R O c s H j <> 0.
Hypothesis Hs : forall j, (j < k)%nat -> s j = @div R O (H (j + 1)%nat j) (@delta R O c s H j).
Hypothesis Hc : forall j, (j < k)%nat -> c j = @div R O (@rho R O c s (fun i => H i j) j) (@delta R O c s H j).
Hypothesis HR : forall i j, (j < k)%nat -> (i <= j)%nat -> Rm i j = @tau R O c s (fun i => H i j) i.
Definition upr (i j : nat) : R := if Nat.leb i j then Rm i j else @zero R O.
Hypothesis BW : forall i, (i < k)%nat -> @ilu_bwd R O k upr beta y i.
Hypothesis Nb0 : 0 <= Nb.
Hypothesis Bt : forall i, (i < k)%nat -> Rabs (beta i - tauE c s bt i) <= gamma u (6 * k + 4) * Nb.
Hypothesis Br : Rabs (rhoE c s bt k) <= est + gamma u (6 * k + 4) * Nb.

Lemma coef j : (j < k)%nat -> let r := @rho R O c s (fun i => H i j) j in let h := H (j + 1)%nat j in let d := @delta R O c s H j in
  0 < d /\ (exists t, near u 6 t /\ c j * c j + s j * s j = t) /\ (exists t1 t2, near u 1 t1 /\ near u 1 t2 /\ c j = r / d * t1 /\ s j = h / d * t2).
Proof. intros Hj. cbv zeta. rewrite (Hc j Hj), (Hs j Hj). apply rot_coef. exact (Hd j Hj). Qed.
Lemma cs_size j : (j < k)%nat -> Rabs (c j) <= W 3 /\ Rabs (s j) <= W 3.
Proof.
  intros Hj. destruct (coef j Hj) as (_ & (t & [_ N] & E) & _). rewrite <- E in N. change 6%nat with (3 + 3)%nat in N. rewrite <- W_add in N. clear E.
  pose proof (W_ge1 3) as W3. pose proof (Rle_0_sqr (c j)) as C2. pose proof (Rle_0_sqr (s j)) as S2. unfold Rsqr in C2, S2.
  split; apply Rsqr_incr_0_var; try lra; rewrite <- Rsqr_abs; unfold Rsqr; lra.
Qed.
Lemma cs_keep j : (j < k)%nat -> 1 <= W 6 * (c j * c j + s j * s j).
Proof.
  intros Hj. destruct (coef j Hj) as (_ & (t & [N _] & E) & _). rewrite E. pose proof (w_pos u_range 6) as P.
  apply Rle_trans with (W 6 * (1 - u) ^ 6); [right; field; lra|]. apply Rmult_le_compat_l; [pose proof (W_ge1 6); lra|exact N].
Qed.
Lemma rot_zero j : (j < k)%nat -> let r := @rho R O c s (fun i => H i j) j in let h := H (j + 1)%nat j in
  Rabs (- s j * r + c j * h) <= gamma u 6 * Rabs h.
Proof.
  intros Hj. cbv zeta. destruct (cs_size j Hj) as [C3 _]. destruct (coef j Hj) as (D0 & _ & (t1 & t2 & N1 & N2 & E1 & E2)).
  set (r := rho c s _ j) in *. set (h := H (j + 1)%nat j) in *. set (d := delta c s H j) in *.
  assert (P1 := near_pos u_range _ _ N1).
  assert (Q : Rabs (r / d) <= W 4).
  { apply Rle_trans with (Rabs (c j) * / t1).
    - right. rewrite E1, Rabs_mult, (Rabs_pos_eq t1) by lra. field. lra.
    - replace 4%nat with (3 + 1)%nat by lia. rewrite <- W_add. apply Rmult_le_compat; auto using Rabs_pos; [left; now apply Rinv_0_lt_compat|].
      apply (near_inv u_range) in N1. apply N1. }
  replace (- s j * r + c j * h) with (r / d * (t1 - t2) * h) by (rewrite E1, E2; field; lra).
  rewrite !Rabs_mult. pose proof (near_diff 1 1 _ _ N1 N2) as B. change (1 + 1)%nat with 2%nat in B. apply Rmult_le_compat_r; [apply Rabs_pos|].
  pose proof (W_gamma 2 4) as G. change (4 + 2)%nat with 6%nat in G. eapply Rle_trans; [|exact G]. apply Rmult_le_compat; auto using Rabs_pos.
Qed.
Lemma diag_nz j : (j < k)%nat -> Rm j j <> 0.
Proof.
  intros Hj. rewrite (HR j j Hj (le_n j)). unfold tau. destruct (coef j Hj) as (D0 & _ & (t1 & t2 & N1 & N2 & E1 & E2)).
  destruct (comb_near (c j) (rho c s (fun i => H i j) j) (s j) (H (S j) j)) as (m1 & m2 & M1 & M2 & E).
  rewrite E. replace (j + 1)%nat with (S j) in * by lia.
  set (r := rho c s _ j) in *. set (h := H (S j) j) in *. set (d := delta c s H j) in *. rewrite E1, E2.
  assert (P1 := near_pos u_range _ _ N1). assert (P2 := near_pos u_range _ _ N2). assert (Q1 := near_pos u_range _ _ M1). assert (Q2 := near_pos u_range _ _ M2).
  assert (I0 : 0 < / d) by now apply Rinv_0_lt_compat.
  replace (r / d * t1 * r * m1 + h / d * t2 * h * m2) with (/ d * (r * r * (t1 * m1) + h * h * (t2 * m2))) by (unfold Rdiv; ring).
  assert (Sp : r <> 0 \/ h <> 0).
  { destruct (Req_dec r 0) as [Zr|]; [|now left]. destruct (Req_dec h 0) as [Zh|]; [|now right]. exfalso.
    apply (Hd j Hj). unfold delta. replace (j + 1)%nat with (S j) by lia. fold r h. rewrite Zr, Zh.
    destruct (pow2_near (u := u) 0) as (a & _ & Ea). rewrite Rmult_0_l, Rmult_0_l in Ea. rewrite Ea.
    destruct (add_near (u := u) 0 0) as (b & _ & Eb). rewrite Rplus_0_l, Rmult_0_l in Eb. rewrite Eb.
    destruct (sqrt_near (u := u) 0 (Rle_refl 0)) as (q & _ & Eq). rewrite Eq, sqrt_0. ring. }
  assert (A1 : 0 < t1 * m1) by nra. assert (A2 : 0 < t2 * m2) by nra.
  assert (0 < r * r * (t1 * m1) + h * h * (t2 * m2)).
  { pose proof (Rle_0_sqr r) as R2. pose proof (Rle_0_sqr h) as H2. unfold Rsqr in R2, H2.
    pose proof (Rmult_le_pos _ _ R2 (Rlt_le _ _ A1)). pose proof (Rmult_le_pos _ _ H2 (Rlt_le _ _ A2)).
    destruct Sp as [Z|Z]; apply Rlt_0_sqr in Z; unfold Rsqr in Z; [pose proof (Rmult_lt_0_compat _ _ Z A1)|pose proof (Rmult_lt_0_compat _ _ Z A2)]; lra. }
  nra.
Qed.

Definition Hb (j i : nat) : R := if Nat.leb i (S j) then H i j else 0.
Definition col (j : nat) : R := rsum (S (S j)) (fun i => Rabs (H i j)).
Lemma col_nonneg j : 0 <= col j.
Proof. apply bsum_nonneg. intros; apply Rabs_pos. Qed.
Lemma col_part j i : (i <= S j)%nat -> rsum (S i) (fun l => Rabs (Hb j l)) <= col j.
Proof.
  intros Hi. unfold col. replace (S (S j)) with (S i + (S j - i))%nat by lia. remember (S j - i)%nat as d eqn:Ed.
  assert (E : rsum (S i) (fun l => Rabs (Hb j l)) = rsum (S i) (fun l => Rabs (H l j))).
  { apply bsum_ext. intros l Hl. unfold Hb. destruct (Nat.leb_spec l (S j)); [reflexivity|lia]. }
  rewrite E. clear. induction d as [|d IH]; [rewrite Nat.add_0_r; lra|]. rewrite Nat.add_succ_r, (rsum_S (S i + d)). pose proof (Rabs_pos (H (S i + d)%nat j)). lra.
Qed.
Lemma Hb_at j i : (i <= S j)%nat -> Hb j i = H i j.
Proof. intros. unfold Hb. destruct (Nat.leb_spec i (S j)); [reflexivity|lia]. Qed.
Lemma Hb_0 j i : (S j < i)%nat -> Hb j i = 0.
Proof. intros. unfold Hb. destruct (Nat.leb_spec i (S j)); [lia|reflexivity]. Qed.

Lemma below_first j : (j < k)%nat -> Rabs (rhoE c s (Hb j) (S j)) <= gamma u (5 * j + 6) * col j.
Proof.
  intros Hj. rewrite rhoE_S, Hb_at by lia. pose proof (rot_zero j Hj) as Z. cbv zeta in Z. replace (j + 1)%nat with (S j) in Z by lia.
  destruct (rho_err c s k cs_size (fun i => H i j) j ltac:(lia)) as [E _].
  rewrite (rhoE_ext c s (Hb j) (fun i => H i j) j) by (intros; apply Hb_at; lia).
  set (r := rho c s _ j) in *. set (r' := rhoE c s _ j) in *. set (h := H (S j) j) in *. set (S0 := rsum (S j) _) in *.
  assert (Ec : col j = S0 + Rabs h) by (unfold col; rewrite rsum_S; reflexivity). rewrite Ec.
  replace (- s j * r' + c j * h) with ((- s j * r + c j * h) + s j * (r - r')) by ring.
  eapply Rle_trans; [apply Rabs_triang|]. rewrite Rabs_mult. destruct (cs_size j Hj) as [_ S3].
  assert (P : Rabs (s j) * Rabs (r - r') <= W 3 * (gamma u (5 * j) * S0)) by (apply Rmult_le_compat; auto using Rabs_pos).
  assert (S00 : 0 <= S0) by (apply bsum_nonneg; intros; apply Rabs_pos).
  assert (G1 : W 3 * gamma u (5 * j) <= gamma u (5 * j + 6)).
  { eapply Rle_trans; [apply W_gamma|]. apply (gamma_mono u_range). lia. }
  assert (G2 : gamma u 6 <= gamma u (5 * j + 6)) by (apply (gamma_mono u_range); lia).
  apply Rle_trans with (gamma u 6 * Rabs h + W 3 * gamma u (5 * j) * S0); [lra|].
  rewrite Rmult_plus_distr_l, Rplus_comm. apply Rplus_le_compat; apply Rmult_le_compat_r; auto using Rabs_pos.
Qed.
Lemma below j i : (j < i)%nat -> (i <= k)%nat -> Rabs (rhoE c s (Hb j) i) <= gamma u (5 * k + 1) * col j.
Proof.
  intros Hj Hi. replace i with (S j + (i - S j))%nat by lia. remember (i - S j)%nat as d eqn:Ed.
  eapply Rle_trans; [apply (rhoE_tail c s (W 3) k (Hb j) (S j) d (W_ge1 3) cs_size); [lia|intros; apply Hb_0; lia]|].
  rewrite W_pow. pose proof (below_first j ltac:(lia)) as B. pose proof (col_nonneg j) as C0.
  apply Rle_trans with (W (3 * d) * (gamma u (5 * j + 6) * col j)); [apply Rmult_le_compat_l; [pose proof (W_ge1 (3 * d)); lra|exact B]|].
  rewrite <- Rmult_assoc. apply Rmult_le_compat_r; [exact C0|]. eapply Rle_trans; [apply W_gamma|]. apply (gamma_mono u_range). lia.
Qed.
Lemma below_tau j i : (j < i)%nat -> (i < k)%nat -> Rabs (tauE c s (Hb j) i) <= gamma u (5 * k + 4) * col j.
Proof.
  intros Hj Hi. rewrite tauE_eq, Hb_0 by lia. rewrite Rmult_0_r, Rplus_0_r, Rabs_mult. pose proof (below j i Hj ltac:(lia)) as B. destruct (cs_size i Hi) as [C3 _].
  apply Rle_trans with (W 3 * (gamma u (5 * k + 1) * col j)); [apply Rmult_le_compat; auto using Rabs_pos|].
  rewrite <- Rmult_assoc. apply Rmult_le_compat_r; [apply col_nonneg|]. eapply Rle_trans; [apply W_gamma|]. apply (gamma_mono u_range). lia.
Qed.
Lemma above i j : (i <= j)%nat -> (j < k)%nat ->
  Rabs (Rm i j - tauE c s (Hb j) i) <= gamma u (5 * k) * col j /\ Rabs (Rm i j) <= W (5 * k) * col j.
Proof.
  intros Hi Hj. rewrite HR by lia.
  assert (E : @tau R O c s (fun i => H i j) i = @tau R O c s (Hb j) i).
  { unfold tau. rewrite (Hb_at j (S i)) by lia. f_equal. f_equal. apply rho_ext; auto. intros a Ha. symmetry. apply Hb_at. lia. }
  rewrite E. destruct (tau_err c s k cs_size (Hb j) i ltac:(lia)) as [T1 T2].
  pose proof (col_part j (S i) ltac:(lia)) as P. pose proof (col_nonneg j) as C0.
  assert (S0 : 0 <= rsum (S (S i)) (fun l => Rabs (Hb j l))) by (apply bsum_nonneg; intros; apply Rabs_pos).
  split; [eapply Rle_trans; [exact T1|]|eapply Rle_trans; [exact T2|]]; apply Rmult_le_compat; auto.
  - apply (gamma_pos u_range).
  - apply (gamma_mono u_range). lia.
  - pose proof (W_ge1 (5 * i + 5)). lra.
  - apply W_mono. lia.
Qed.

(** What the least squares problem leaves over. *)
Definition zres (i : nat) : R := bt i - rsum k (fun j => y j * Hb j i).
Definition load : R := Nb + rsum k (fun j => Rabs (y j) * col j).
Lemma load_nonneg : 0 <= load.
Proof.
  unfold load. apply Rplus_le_le_0_compat; [exact Nb0|]. apply bsum_nonneg. intros j _. apply Rmult_le_pos; [apply Rabs_pos|apply col_nonneg].
Qed.
Lemma comb_load K (f : nat -> R) : (forall j, (j < k)%nat -> Rabs (f j) <= gamma u K * col j) ->
  Rabs (rsum k (fun j => y j * f j)) <= gamma u K * rsum k (fun j => Rabs (y j) * col j).
Proof.
  intros B. eapply Rle_trans; [apply bsum_abs|]. rewrite <- rs_scal. apply bsum_le. intros j Hj. rewrite Rabs_mult.
  specialize (B j Hj). pose proof (Rabs_pos (y j)). nra.
Qed.
Lemma zres_tau i : (i < k)%nat -> Rabs (tauE c s zres i) <= gamma u (6 * k + 4) * load.
Proof.
  intros Hi. assert (EL : tauE c s zres i = tauE c s bt i - rsum k (fun j => y j * tauE c s (Hb j) i)).
  { rewrite <- (Rmult_1_l (tauE c s bt i)), <- tauE_lin. unfold tau. unfold zres at 2. rewrite Rmult_1_l. do 2 f_equal. apply rho_ext; auto. intros. unfold zres. now rewrite Rmult_1_l. }
  rewrite EL.
  destruct (upper_back (u := u) k upr beta y) as (U1 & P & S).
  { intros j Hj. unfold upr. rewrite Nat.leb_refl. now apply diag_nz. }
  { exact BW. }
  specialize (S i Hi). pose proof (Bt i Hi) as EB. rewrite <- S in EB. unfold load.
  replace (tauE c s bt i - rsum k (fun j => y j * tauE c s (Hb j) i))
    with (- (rsum k (fun j => U1 i j * y j) - tauE c s bt i) + rsum k (fun j => y j * (U1 i j - tauE c s (Hb j) i))).
  2: { rewrite (bsum_ext k (fun j => y j * (U1 i j - tauE c s (Hb j) i)) (fun j => U1 i j * y j - y j * tauE c s (Hb j) i)) by (intros; ring). rewrite rs_sub. ring. }
  eapply Rle_trans; [apply Rabs_triang|]. rewrite Rabs_Ropp, Rmult_plus_distr_l. apply Rplus_le_compat; [exact EB|].
  apply comb_load. intros j Hj. specialize (P i j Hi Hj). pose proof (col_nonneg j) as C0. unfold upf, upr in P.
  destruct (Nat.leb_spec i j) as [L|L].
  - destruct (above i j L Hj) as [A1 A2]. apply pert_close in P.
    replace (U1 i j - tauE c s (Hb j) i) with ((U1 i j - Rm i j) + (Rm i j - tauE c s (Hb j) i)) by ring.
    eapply Rle_trans; [apply Rabs_triang|].
    assert (B : gamma u k * Rabs (Rm i j) <= gamma u k * (W (5 * k) * col j)) by (apply Rmult_le_compat_l; [apply (gamma_pos u_range)|exact A2]).
    apply Rle_trans with (gamma u (6 * k) * col j); [|apply Rmult_le_compat_r; [exact C0|apply (gamma_mono u_range); lia]].
    apply Rle_trans with (gamma u k * (W (5 * k) * col j) + gamma u (5 * k) * col j); [lra|].
    right. unfold gamma. replace (6 * k)%nat with (k + 5 * k)%nat by lia. rewrite <- W_add. ring.
  - destruct P as (t & _ & Et).
    assert (Z : U1 i j = 0) by (rewrite Et; try rewrite (ax_zero (u := u)); ring). rewrite Z, Rminus_0_l, Rabs_Ropp.
    eapply Rle_trans; [apply below_tau; auto|]. apply Rmult_le_compat_r; [exact C0|]. apply (gamma_mono u_range). lia.
Qed.
Lemma zres_rho : Rabs (rhoE c s zres k) <= est + gamma u (6 * k + 4) * load.
Proof.
  assert (EL : rhoE c s zres k = rhoE c s bt k - rsum k (fun j => y j * rhoE c s (Hb j) k)).
  { rewrite <- (Rmult_1_l (rhoE c s bt k)), <- rhoE_lin. apply rho_ext; auto. intros. unfold zres. now rewrite Rmult_1_l. }
  rewrite EL. unfold Rminus. eapply Rle_trans; [apply Rabs_triang|]. rewrite Rabs_Ropp. unfold load. rewrite Rmult_plus_distr_l, <- Rplus_assoc.
  apply Rplus_le_compat; [exact Br|]. eapply Rle_trans; [apply (comb_load (5 * k + 1)); intros j Hj; apply below; lia|].
  apply Rmult_le_compat_r; [|apply (gamma_mono u_range); lia].
  apply bsum_nonneg. intros j _. apply Rmult_le_pos; [apply Rabs_pos|apply col_nonneg].
Qed.
Lemma sq_sum m (f : nat -> R) b : rsum m (fun i => f i * f i) + b * b <= (rsum m (fun i => Rabs (f i)) + Rabs b) * (rsum m (fun i => Rabs (f i)) + Rabs b).
Proof.
  induction m as [|m IH].
  - cbn [bsum zero ROps]. rewrite !Rplus_0_l, <- Rabs_mult. apply Rle_abs.
  - rewrite !rsum_S. set (A := rsum m (fun i => Rabs (f i))) in *. assert (HA : 0 <= A) by (apply bsum_nonneg; intros; apply Rabs_pos).
    assert (E : f m * f m = Rabs (f m) * Rabs (f m)) by (rewrite <- Rabs_mult; symmetry; apply Rabs_pos_eq, Rle_0_sqr).
    pose proof (Rabs_pos (f m)). pose proof (Rabs_pos b). rewrite E. nra.
Qed.
Lemma zres_norm : nrm (S k) zres <= W (3 * k) * est + (INR k + 1) * gamma u (9 * k + 4) * load.
Proof.
  pose proof (rotations_keep c s (W 6) k zres (W_ge1 6) cs_keep) as E. rewrite W_pow in E.
  pose proof (sq_sum k (tauE c s zres) (rhoE c s zres k)) as Q.
  set (T := rsum k (fun i => Rabs (tauE c s zres i)) + Rabs (rhoE c s zres k)) in *.
  assert (T0 : 0 <= T). { unfold T. apply Rplus_le_le_0_compat; [|apply Rabs_pos]. apply bsum_nonneg. intros; apply Rabs_pos. }
  assert (N : nrm (S k) zres <= W (3 * k) * T).
  { pose proof (W_ge1 (3 * k)) as W3. apply Rsqr_incr_0_var; [|nra]. unfold Rsqr. rewrite nrm_sqr. unfold dotp. cbn [mul ROps].
    eapply Rle_trans; [exact E|]. replace (6 * k)%nat with (3 * k + 3 * k)%nat by lia. rewrite <- W_add.
    assert (WW : 0 <= W (3 * k) * W (3 * k)) by nra.
    apply Rle_trans with (W (3 * k) * W (3 * k) * (T * T)); [apply Rmult_le_compat_l; auto|right; ring]. }
  eapply Rle_trans; [exact N|].
  assert (TB : T <= est + (INR k + 1) * (gamma u (6 * k + 4) * load)).
  { unfold T. pose proof zres_rho as ZR.
    assert (rsum k (fun i => Rabs (tauE c s zres i)) <= INR k * (gamma u (6 * k + 4) * load)).
    { eapply Rle_trans; [apply bsum_le; intros i Hi; apply zres_tau; exact Hi|]. rewrite <- rs_one, <- rs_scal_r. right. apply bsum_ext. intros. ring. }
    lra. }
  apply Rle_trans with (W (3 * k) * (est + (INR k + 1) * (gamma u (6 * k + 4) * load))).
  { apply Rmult_le_compat_l; auto. pose proof (W_ge1 (3 * k)); lra. }
  pose proof (W_gamma (6 * k + 4) (3 * k)) as G. replace (3 * k + (6 * k + 4))%nat with (9 * k + 4)%nat in G by lia.
  pose proof load_nonneg as L0. pose proof (pos_INR k) as K0.
  assert (X : W (3 * k) * gamma u (6 * k + 4) * ((INR k + 1) * load) <= gamma u (9 * k + 4) * ((INR k + 1) * load)).
  { apply Rmult_le_compat_r; [apply Rmult_le_pos; lra|exact G]. }
  lra.
Qed.
End Small.

(** ** The basis *)
Lemma bsum_fsum0 n (f : nat -> R) : @bsum R O n f = @fsum R O n (@zero R O) f.
Proof. induction n as [|n IH]; [reflexivity|]. cbn [bsum fsum]. now rewrite IH. Qed.
Lemma norm_size n x : let h := @sqrt_ R O (@bsum R O n (fun t => @mul R O (x t) (x t))) in
  0 <= h <= W (n + 2) * nrm n x /\ nrm n x <= W (n + 2) * h.
Proof.
  cbv zeta. rewrite bsum_fsum0. destruct (norm_round (u := u) n x) as (t & N & ->). pose proof (nrm_nonneg n x) as X0. pose proof (near_pos u_range _ _ N) as P.
  pose proof (near_inv u_range _ _ N) as [_ NI]. destruct N as [N1 N2]. split; [split|].
  - apply Rmult_le_pos; lra.
  - rewrite Rmult_comm. now apply Rmult_le_compat_r.
  - apply Rle_trans with (/ t * (nrm n x * t)); [right; field; lra|]. apply Rmult_le_compat_r; [apply Rmult_le_pos; lra|exact NI].
Qed.
Lemma unit_vec n x q : let h := @sqrt_ R O (@bsum R O n (fun t => @mul R O (x t) (x t))) in h <> 0 ->
  (forall t, (t < n)%nat -> q t = @mul R O (@div R O (@one R O) h) (x t)) ->
  nrm n q <= W (n + 4) /\ forall t, (t < n)%nat -> Rabs (x t - h * q t) <= gamma u 2 * Rabs (x t).
Proof.
  cbv zeta. pose proof (norm_size n x) as Sz. cbv zeta in Sz. set (h := sqrt_ _) in *. destruct Sz as [[H0 HU] HL]. intros Hz Hq.
  assert (HP : 0 < h) by lra.
  assert (E : forall t, (t < n)%nat -> exists r, near u 2 r /\ q t = x t / h * r).
  { intros t Ht. rewrite Hq by exact Ht. destruct (div_near (u := u) one h Hz) as (r1 & N1 & ->). rewrite (ax_one (u := u)).
    destruct (mul_near (u := u) (1 / h * r1) (x t)) as (r2 & N2 & ->). exists (r1 * r2). split; [now apply (near_mul u_range 1 1)|]. field. lra. }
  split.
  - apply Rle_trans with (nrm n (fun t => W 2 / h * Rabs (x t))).
    + apply nrm_mono. intros t Ht. destruct (E t Ht) as (r & N & ->). rewrite Rabs_mult. unfold Rdiv. rewrite Rabs_mult, (Rabs_pos_eq (/ h)) by (left; now apply Rinv_0_lt_compat).
      pose proof (near_W _ _ N) as B. pose proof (Rinv_0_lt_compat _ HP) as I0. pose proof (Rabs_pos (x t)) as X0.
      apply Rle_trans with (Rabs (x t) * / h * W 2); [apply Rmult_le_compat_l; [apply Rmult_le_pos; lra|exact B]|right; ring].
    + rewrite nrm_scal, nrm_abs. pose proof (W_ge1 2) as W2. rewrite (Rabs_pos_eq (W 2 / h)) by (apply Rmult_le_pos; [lra|left; now apply Rinv_0_lt_compat]).
      replace (n + 4)%nat with (2 + (n + 2))%nat by lia. rewrite <- W_add.
      apply Rle_trans with (W 2 / h * (W (n + 2) * h)); [apply Rmult_le_compat_l; [apply Rmult_le_pos; [lra|left; now apply Rinv_0_lt_compat]|exact HL]|].
      right. unfold Rdiv. rewrite Rmult_assoc, (Rmult_comm (W (n + 2)) h), <- (Rmult_assoc (/ h)), Rinv_l by lra. ring.
  - intros t Ht. destruct (E t Ht) as (r & N & ->). replace (h * (x t / h * r)) with (x t * r) by (field; lra). rewrite Rabs_minus_sym. now apply (near_err u_range).
Qed.
Lemma unit_low n x q : let h := @sqrt_ R O (@bsum R O n (fun t => @mul R O (x t) (x t))) in h <> 0 ->
  (forall t, (t < n)%nat -> q t = @mul R O (@div R O (@one R O) h) (x t)) -> (1 - u) ^ (n + 4) <= nrm n q.
Proof.
  cbv zeta. pose proof (norm_size n x) as Sz. cbv zeta in Sz. set (h := sqrt_ _) in *. destruct Sz as [[H0 HU] HL]. intros Hz Hq.
  assert (HP : 0 < h) by lra. pose proof (Rinv_0_lt_compat _ HP) as I0.
  assert (E : forall t, (t < n)%nat -> exists r, near u 2 r /\ q t = x t / h * r).
  { intros t Ht. rewrite Hq by exact Ht. destruct (div_near (u := u) one h Hz) as (r1 & N1 & ->). rewrite (ax_one (u := u)).
    destruct (mul_near (u := u) (1 / h * r1) (x t)) as (r2 & N2 & ->). exists (r1 * r2). split; [now apply (near_mul u_range 1 1)|]. field. lra. }
  pose proof (w_pos u_range 2) as P2. pose proof (w_pos u_range (n + 2)) as Pn.
  apply Rle_trans with (nrm n (fun t => (1 - u) ^ 2 * / h * x t)).
  - rewrite nrm_scal, Rabs_pos_eq by (apply Rmult_le_pos; lra). replace (n + 4)%nat with (2 + (n + 2))%nat by lia. rewrite pow_add, Rmult_assoc.
    apply Rmult_le_compat_l; [lra|]. apply Rmult_le_reg_l with h; [exact HP|]. rewrite <- Rmult_assoc, Rinv_r, Rmult_1_l by lra.
    apply Rle_trans with ((1 - u) ^ (n + 2) * (W (n + 2) * nrm n x)); [rewrite Rmult_comm; apply Rmult_le_compat_l; lra|]. right. field. lra.
  - rewrite <- (nrm_abs n q). apply nrm_mono. intros t Ht. destruct (E t Ht) as (r & [N1 N2] & ->). rewrite !Rabs_mult. unfold Rdiv. rewrite Rabs_mult, (Rabs_pos_eq (/ h)), (Rabs_pos_eq r), (Rabs_pos_eq ((1 - u) ^ 2)) by lra.
    pose proof (Rabs_pos (x t)) as X0. apply Rle_trans with (Rabs (x t) * / h * (1 - u) ^ 2); [right; ring|]. apply Rmult_le_compat_l; [apply Rmult_le_pos; lra|exact N1].
Qed.
Lemma dot_size n x y : (0 < n)%nat -> Rabs (@cdot R O n x y) <= W n * (nrm n x * nrm n y).
Proof.
  intros Hn. destruct (dot_back (u := u) n x y Hn) as (x' & P & E). unfold cdot. rewrite E.
  eapply Rle_trans; [apply bsum_abs|]. apply Rle_trans with (W n * @dotp R ROps n (vabs x) (vabs y)); [|apply Rmult_le_compat_l; [pose proof (W_ge1 n); lra|apply dot_abs_le]].
  unfold dotp. rewrite <- rs_scal. apply bsum_le. intros i Hi. destruct (P i Hi) as (t & N & ->). unfold vabs. cbn [mul ROps]. rewrite !Rabs_mult.
  pose proof (near_W _ _ N) as B. pose proof (Rmult_le_pos _ _ (Rabs_pos (x i)) (Rabs_pos (y i))). nra.
Qed.
Lemma arn_back n Q v k t : exists T r, near u k T /\ (forall l, (l < k)%nat -> near u (k + 2) (r l)) /\
  @arn_res R O n Q v k t = v t * T - rsum k (fun l => @cdot R O n (Q l) v * Q l t * r l).
Proof.
  induction k as [|k (T & r & NT & Nr & E)].
  - exists 1, (fun _ => 1). split; [apply (near_1 u_range)|]. split; [intros; lia|]. cbn. ring.
  - cbn [arn_res]. set (a := arn_res n Q v k t) in *. set (d := cdot n (Q k) v).
    destruct (mul_near (u := u) d (Q k t)) as (m1 & N1 & E1). destruct (mul_near (u := u) (opp one) (mul d (Q k t))) as (m2 & N2 & E2).
    destruct (add_near (u := u) (mul (opp one) (mul d (Q k t))) a) as (m3 & N3 & E3).
    exists (T * m3), (fun l => if Nat.eqb l k then m1 * (m2 * m3) else r l * m3). split; [|split].
    + rewrite <- Nat.add_1_r. now apply (near_mul u_range).
    + intros l Hl. destruct (Nat.eqb_spec l k) as [->|].
      * apply (near_mono u_range 3); [lia|]. apply (near_mul u_range 1 2); [exact N1|]. now apply (near_mul u_range 1 1).
      * replace (S k + 2)%nat with (k + 2 + 1)%nat by lia. apply (near_mul u_range); [apply Nr; lia|exact N3].
    + rewrite E3, E2, (ax_opp (u := u)), (ax_one (u := u)), E1, E, rsum_S, Nat.eqb_refl.
      rewrite (bsum_ext k (fun l => cdot n (Q l) v * Q l t * (if Nat.eqb l k then m1 * (m2 * m3) else r l * m3)) (fun l => cdot n (Q l) v * Q l t * r l * m3)).
      * rewrite rs_scal_r. fold d. ring.
      * intros l Hl. destruct (Nat.eqb_spec l k); [lia|ring].
Qed.
Lemma arn_err n Q v k t :
  Rabs (@arn_res R O n Q v k t - (v t - rsum k (fun l => @cdot R O n (Q l) v * Q l t)))
    <= gamma u (k + 2) * (Rabs (v t) + rsum k (fun l => Rabs (@cdot R O n (Q l) v) * Rabs (Q l t))).
Proof.
  destruct (arn_back n Q v k t) as (T & r & NT & Nr & ->).
  replace (v t * T - rsum k (fun l => cdot n (Q l) v * Q l t * r l) - (v t - rsum k (fun l => cdot n (Q l) v * Q l t)))
    with ((v t * T - v t) - (rsum k (fun l => cdot n (Q l) v * Q l t * r l) - rsum k (fun l => cdot n (Q l) v * Q l t))) by ring.
  unfold Rminus at 1. eapply Rle_trans; [apply Rabs_triang|]. rewrite Rabs_Ropp, Rmult_plus_distr_l. apply Rplus_le_compat.
  - apply (near_err u_range). apply (near_mono u_range k); [lia|exact NT].
  - eapply Rle_trans; [apply (pert_sum (u := u) (k + 2)); intros l Hl; exists (r l); split; [now apply Nr|reflexivity]|].
    right. f_equal. apply bsum_ext. intros l _. apply Rabs_mult.
Qed.

Section Basis.
Variables (n k : nat) (mv : (nat -> R) -> nat -> R) (Q H Rm : nat -> nat -> R) (c s p : nat -> R) (nb : R).
Hypothesis Hn : (0 < n)%nat.
Hypothesis Hk : (1 <= k)%nat.
Hypothesis G : @gmrec R O n k mv Q H c s Rm.
Hypothesis Enb : nb = @sqrt_ R O (@bsum R O n (fun t => @mul R O (p t) (p t))).
Hypothesis Eq0 : forall t, (t < n)%nat -> Q 0%nat t = @mul R O (@div R O (@one R O) nb) (p t).
Hypothesis Nnb : nb <> 0.
Hypothesis Hh : forall j, (S j < k)%nat -> H (S j) j <> 0.
Let v j := mv (Q j).
Let w j := @wvec R O n mv Q j.

Lemma q_norm i : (i < k)%nat -> nrm n (Q i) <= W (n + 4).
Proof.
  intros Hi. destruct i as [|i].
  - apply (unit_vec n p (Q 0%nat)); [now rewrite <- Enb|]. now rewrite <- Enb.
  - pose proof (g_sub _ _ _ _ _ _ _ _ G i ltac:(lia)) as E. pose proof (g_next _ _ _ _ _ _ _ _ G i) as N. replace (i + 1)%nat with (S i) in * by lia.
    apply (unit_vec n (wvec n mv Q i)); [rewrite <- E; apply Hh; lia|]. rewrite <- E. intros t Ht. apply N; [lia|exact Ht].
Qed.
Lemma q_unit i : (i < k)%nat -> Rabs (nrm n (Q i) - 1) <= gamma u (n + 4).
Proof.
  intros Hi. apply (near_bound u_range). split; [|now apply q_norm]. destruct i as [|i].
  - apply (unit_low n p (Q 0%nat)); now rewrite <- Enb.
  - pose proof (g_sub _ _ _ _ _ _ _ _ G i ltac:(lia)) as E. pose proof (g_next _ _ _ _ _ _ _ _ G i) as N. replace (i + 1)%nat with (S i) in * by lia.
    apply (unit_low n (wvec n mv Q i)); [rewrite <- E; apply Hh; lia|]. rewrite <- E. intros t Ht. apply N; [lia|exact Ht].
Qed.
(** The last basis vector is not formed when its length came out as zero. *)
Definition qx (i t : nat) : R := match i with 0%nat => Q 0%nat t | S j => if Req_EM_T (H (S j) j) 0 then 0 else Q (S j) t end.
Lemma qx_at i t : (i < k)%nat -> qx i t = Q i t.
Proof. intros Hi. destruct i as [|i]; [reflexivity|]. cbn [qx]. destruct (Req_EM_T (H (S i) i) 0) as [Z|]; [exfalso; now apply (Hh i)|reflexivity]. Qed.
Lemma qx_norm i : (i <= k)%nat -> nrm n (qx i) <= W (n + 4).
Proof.
  intros Hi. destruct i as [|i]; [apply (q_norm 0); lia|]. change (nrm n (fun t => qx (S i) t) <= W (n + 4)). cbn [qx]. destruct (Req_EM_T (H (S i) i) 0) as [Z|Z].
  - assert (E : nrm n (fun _ => 0) = 0) by (apply nrm_zero_iff; reflexivity). rewrite E. pose proof (W_ge1 (n + 4)). lra.
  - pose proof (g_sub _ _ _ _ _ _ _ _ G i ltac:(lia)) as E. pose proof (g_next _ _ _ _ _ _ _ _ G i) as N. replace (i + 1)%nat with (S i) in * by lia.
    apply (unit_vec n (wvec n mv Q i)); [now rewrite <- E|]. rewrite <- E. intros t Ht. apply N; [lia|exact Ht].
Qed.
Lemma next_err j t : (j < k)%nat -> (t < n)%nat -> Rabs (w j t - H (S j) j * qx (S j) t) <= gamma u 2 * Rabs (w j t).
Proof.
  intros Hj Ht. cbn [qx].
  pose proof (g_sub _ _ _ _ _ _ _ _ G j Hj) as E. pose proof (g_next _ _ _ _ _ _ _ _ G j) as N. replace (j + 1)%nat with (S j) in * by lia.
  destruct (Req_EM_T (H (S j) j) 0) as [Z|Z].
  - pose proof (norm_size n (w j)) as Sz. cbv zeta in Sz. unfold w in *. rewrite <- E, Z in Sz. destruct Sz as [_ Sz]. pose proof (nrm_nonneg n (wvec n mv Q j)).
    assert (nrm n (wvec n mv Q j) = 0) as Z0 by lra. apply nrm_zero_iff with (i := t) in Z0; [|exact Ht]. rewrite Z0, Rmult_0_r, Rminus_0_r, Rabs_R0. lra.
  - destruct (unit_vec n (wvec n mv Q j) (Q (S j))) as [_ U]; [now rewrite <- E|rewrite <- E; intros; apply N; auto|]. rewrite <- E in U. now apply U.
Qed.
(** What one step of Arnoldi's process loses. *)
Definition lostA j t : R := v j t - rsum (S j) (fun i => H i j * Q i t) - H (S j) j * qx (S j) t.
Definition bulk j t : R := Rabs (v j t) + rsum (S j) (fun i => Rabs (H i j) * Rabs (Q i t)).
Lemma w_err j t : (j < k)%nat -> Rabs (w j t - (v j t - rsum (S j) (fun i => H i j * Q i t))) <= gamma u (j + 3) * bulk j t.
Proof.
  intros Hj. pose proof (arn_err n Q (v j) (j + 1) t) as A. unfold bulk. unfold w, wvec. fold (v j).
  replace (j + 1 + 2)%nat with (j + 3)%nat in A by lia. replace (j + 1)%nat with (S j) in * by lia.
  rewrite (bsum_ext (S j) (fun i => H i j * Q i t) (fun l => cdot n (Q l) (v j) * Q l t)) by (intros i Hi; rewrite (g_dot _ _ _ _ _ _ _ _ G i j) by lia; reflexivity).
  rewrite (bsum_ext (S j) (fun i => Rabs (H i j) * Rabs (Q i t)) (fun l => Rabs (cdot n (Q l) (v j)) * Rabs (Q l t))) by (intros i Hi; rewrite (g_dot _ _ _ _ _ _ _ _ G i j) by lia; reflexivity).
  exact A.
Qed.
Lemma bulk_pos j t : 0 <= bulk j t.
Proof. unfold bulk. apply Rplus_le_le_0_compat; [apply Rabs_pos|]. apply bsum_nonneg. intros. apply Rmult_le_pos; apply Rabs_pos. Qed.
Lemma w_size j t : (j < k)%nat -> Rabs (w j t) <= W (j + 3) * bulk j t.
Proof.
  intros Hj. pose proof (w_err j t Hj) as E. set (a := v j t - _) in *.
  assert (A : Rabs a <= bulk j t).
  { unfold a, bulk, Rminus. eapply Rle_trans; [apply Rabs_triang|]. rewrite Rabs_Ropp. apply Rplus_le_compat_l.
    eapply Rle_trans; [apply bsum_abs|]. right. apply bsum_ext. intros i _. apply Rabs_mult. }
  replace (w j t) with (a + (w j t - a)) by ring. eapply Rle_trans; [apply Rabs_triang|]. unfold gamma in E. lra.
Qed.
Lemma lost_err j t : (j < k)%nat -> (t < n)%nat -> Rabs (lostA j t) <= gamma u (j + 5) * bulk j t.
Proof.
  intros Hj Ht. unfold lostA. pose proof (w_err j t Hj) as E. pose proof (next_err j t Hj Ht) as N. pose proof (w_size j t Hj) as Sz. set (a := v j t - _) in *.
  replace (a - H (S j) j * qx (S j) t) with (- (w j t - a) + (w j t - H (S j) j * qx (S j) t)) by ring.
  eapply Rle_trans; [apply Rabs_triang|]. rewrite Rabs_Ropp.
  assert (B : gamma u 2 * Rabs (w j t) <= gamma u 2 * (W (j + 3) * bulk j t)) by (apply Rmult_le_compat_l; [apply (gamma_pos u_range)|exact Sz]).
  apply Rle_trans with (gamma u (j + 3) * bulk j t + gamma u 2 * (W (j + 3) * bulk j t)); [lra|]. right. unfold gamma.
  replace (j + 5)%nat with (2 + (j + 3))%nat by lia. rewrite <- (W_add 2 (j + 3)). ring.
Qed.
Lemma h_size i j : (i <= j)%nat -> (j < k)%nat -> Rabs (H i j) <= W (2 * n + 4) * nrm n (v j).
Proof.
  intros Hi Hj. rewrite (g_dot _ _ _ _ _ _ _ _ G i j Hj Hi). fold (v j). eapply Rle_trans; [apply dot_size; exact Hn|].
  pose proof (q_norm i ltac:(lia)) as B. pose proof (nrm_nonneg n (v j)) as V0. pose proof (W_ge1 n) as Wn. pose proof (nrm_nonneg n (Q i)).
  replace (2 * n + 4)%nat with (n + (n + 4))%nat by lia. rewrite <- (W_add n (n + 4)), Rmult_assoc. apply Rmult_le_compat_l; [lra|]. now apply Rmult_le_compat_r.
Qed.
Lemma bulk_norm j : (j < k)%nat -> nrm n (bulk j) <= (INR k + 1) * (W (3 * n + 8) * nrm n (v j)).
Proof.
  intros Hj. unfold bulk. pose proof (nrm_nonneg n (v j)) as V0. pose proof (W_ge1 (3 * n + 8)) as W8.
  eapply Rle_trans; [apply (nrm_triangle n (fun t => Rabs (v j t)) (fun t => rsum (S j) (fun i => Rabs (H i j) * Rabs (Q i t))))|].
  rewrite nrm_abs. pose proof (nrm_comb n (S j) (fun i => Rabs (H i j)) (fun i t => Rabs (Q i t))) as C. cbv beta in C.
  assert (B : rsum (S j) (fun l => Rabs (Rabs (H l j)) * nrm n (fun t => Rabs (Q l t))) <= INR k * (W (3 * n + 8) * nrm n (v j))).
  { apply Rle_trans with (rsum (S j) (fun _ => 1 * (W (3 * n + 8) * nrm n (v j)))).
    - apply bsum_le. intros l Hl. rewrite Rabs_Rabsolu, nrm_abs. pose proof (h_size l j ltac:(lia) Hj) as B1. pose proof (q_norm l ltac:(lia)) as B2.
      pose proof (nrm_nonneg n (Q l)) as Q0. replace (3 * n + 8)%nat with (2 * n + 4 + (n + 4))%nat by lia. rewrite <- (W_add (2 * n + 4) (n + 4)).
      apply Rle_trans with (W (2 * n + 4) * nrm n (v j) * W (n + 4)); [apply Rmult_le_compat; auto using Rabs_pos|right; ring].
    - rewrite rs_scal_r, rs_one. apply Rmult_le_compat_r; [apply Rmult_le_pos; lra|]. apply le_INR. lia. }
  assert (V1 : nrm n (v j) <= W (3 * n + 8) * nrm n (v j)) by nra. lra.
Qed.
Lemma lost_norm j : (j < k)%nat -> nrm n (lostA j) <= (INR k + 1) * (gamma u (3 * n + k + 12) * nrm n (v j)).
Proof.
  intros Hj. pose proof (bulk_norm j Hj) as B. pose proof (pos_INR k) as K0. pose proof (nrm_nonneg n (v j)) as V0. pose proof (gamma_pos u_range (j + 5)) as G0.
  apply Rle_trans with (nrm n (fun t => gamma u (j + 5) * bulk j t)); [apply nrm_mono; intros t Ht; now apply lost_err|].
  rewrite nrm_scal, Rabs_pos_eq by exact G0.
  apply Rle_trans with (gamma u (j + 5) * ((INR k + 1) * (W (3 * n + 8) * nrm n (v j)))); [now apply Rmult_le_compat_l|].
  apply Rle_trans with ((INR k + 1) * (gamma u (j + 5) * W (3 * n + 8) * nrm n (v j))); [right; ring|].
  apply Rmult_le_compat_l; [lra|]. apply Rmult_le_compat_r; [exact V0|]. eapply Rle_trans; [apply gamma_W|]. apply (gamma_mono u_range). lia.
Qed.
Lemma col_size j : (j < k)%nat -> col H j <= (2 * INR k + 1) * (W (4 * n + k + 12) * nrm n (v j)).
Proof.
  intros Hj. unfold col. rewrite rsum_S. pose proof (pos_INR k) as K0. pose proof (nrm_nonneg n (v j)) as V0. set (X := W (4 * n + k + 12) * nrm n (v j)).
  assert (A : rsum (S j) (fun i => Rabs (H i j)) <= INR k * X).
  { apply Rle_trans with (rsum (S j) (fun _ => 1 * X)).
    - apply bsum_le. intros i Hi. rewrite Rmult_1_l. eapply Rle_trans; [apply h_size; lia|]. unfold X. apply Rmult_le_compat_r; [exact V0|]. apply W_mono. lia.
    - rewrite rs_scal_r, rs_one. apply Rmult_le_compat_r; [apply Rmult_le_pos; [pose proof (W_ge1 (4 * n + k + 12)); lra|exact V0]|]. apply le_INR. lia. }
  assert (B : Rabs (H (S j) j) <= (INR k + 1) * X); [|lra].
  pose proof (g_sub _ _ _ _ _ _ _ _ G j Hj) as E. replace (j + 1)%nat with (S j) in E by lia.
  pose proof (norm_size n (w j)) as Sz. cbv zeta in Sz. unfold w in Sz. rewrite <- E in Sz. destruct Sz as [[S1 S2] _]. rewrite Rabs_pos_eq by exact S1.
  eapply Rle_trans; [exact S2|].
  assert (Wn : nrm n (wvec n mv Q j) <= W (j + 3) * ((INR k + 1) * (W (3 * n + 8) * nrm n (v j)))).
  { apply Rle_trans with (nrm n (fun t => W (j + 3) * bulk j t)); [apply nrm_mono; intros t Ht; now apply w_size|].
    pose proof (W_ge1 (j + 3)) as W3. rewrite nrm_scal, Rabs_pos_eq by lra. apply Rmult_le_compat_l; [lra|now apply bulk_norm]. }
  pose proof (W_ge1 (n + 2)) as W2. apply Rle_trans with (W (n + 2) * (W (j + 3) * ((INR k + 1) * (W (3 * n + 8) * nrm n (v j))))); [apply Rmult_le_compat_l; lra|].
  apply Rle_trans with ((INR k + 1) * (W (n + 2) * (W (j + 3) * W (3 * n + 8)) * nrm n (v j))); [right; ring|].
  apply Rmult_le_compat_l; [lra|]. unfold X. apply Rmult_le_compat_r; [exact V0|]. rewrite !W_add. apply W_mono. lia.
Qed.

(** Approximating a vector [b], known through its coordinates [bt] up to [ep], by the first m of the v_j. *)
Section Target.
Variables (m : nat) (y b bt ep beta : nat -> R) (est Nb : R).
Hypothesis Hm : (m <= k)%nat.
Hypothesis Hd : forall j, (j < m)%nat -> @delta R O c s H j <> 0.
Hypothesis BW : forall i, (i < m)%nat -> @ilu_bwd R O m (fun i j => if Nat.leb i j then Rm i j else @zero R O) beta y i.
Hypothesis Bt : forall i, (i < m)%nat -> Rabs (beta i - tauE c s bt i) <= gamma u (6 * m + 4) * Nb.
Hypothesis Br : Rabs (rhoE c s bt m) <= est + gamma u (6 * m + 4) * Nb.
Hypothesis Eb : forall t, (t < n)%nat -> b t = rsum (S m) (fun i => bt i * qx i t) + ep t.
Hypothesis Hep : nrm n ep <= (INR k + 1) * (gamma u (3 * n + k + 12) * nrm n b).
Hypothesis HNb : 0 <= Nb <= (2 * INR k + 1) * (W (4 * n + k + 12) * nrm n b).
Hypothesis Hest : 0 <= est.
Definition dres t : R := b t - rsum m (fun j => y j * v j t).
Definition effort : R := nrm n b + rsum m (fun j => Rabs (y j) * nrm n (v j)).
Lemma effort_pos : 0 <= effort.
Proof.
  unfold effort. apply Rplus_le_le_0_compat; [apply nrm_nonneg|]. apply bsum_nonneg. intros j _. apply Rmult_le_pos; [apply Rabs_pos|apply nrm_nonneg].
Qed.
Lemma dres_split t : (t < n)%nat ->
  dres t = ep t - rsum m (fun j => y j * lostA j t) + rsum (S m) (fun i => zres m H y bt i * qx i t).
Proof.
  intros Ht. unfold dres, zres. rewrite Eb by exact Ht.
  rewrite (bsum_ext (S m) (fun i => (bt i - rsum m (fun j => y j * Hb H j i)) * qx i t)
    (fun i => bt i * qx i t - rsum m (fun j => y j * (Hb H j i * qx i t)))).
  2: { intros i _. rewrite (bsum_ext m (fun j => y j * (Hb H j i * qx i t)) (fun j => y j * Hb H j i * qx i t)) by (intros; ring). rewrite rs_scal_r. ring. }
  rewrite rs_sub, (rs_swap (S m) m).
  rewrite (bsum_ext m (fun j => rsum (S m) (fun i => y j * (Hb H j i * qx i t))) (fun j => y j * v j t - y j * lostA j t)).
  - rewrite rs_sub. ring.
  - intros j Hj. rewrite rs_scal.
    assert (E : rsum (S m) (fun i => Hb H j i * qx i t) = v j t - lostA j t); [|rewrite E; ring].
    unfold lostA. replace (S m) with (S (S j) + (m - S j))%nat by lia. remember (m - S j)%nat as d eqn:Ed.
    assert (E1 : rsum (S (S j) + d) (fun i => Hb H j i * qx i t) = rsum (S (S j)) (fun i => Hb H j i * qx i t)).
    { clear Ed. induction d as [|d IH]; [now rewrite Nat.add_0_r|]. rewrite Nat.add_succ_r, (rsum_S (S (S j) + d)), IH, (Hb_0 H j (S (S j) + d)) by lia. ring. }
    rewrite E1, rsum_S, (Hb_at H j (S j)) by lia.
    rewrite (bsum_ext (S j) (fun i => Hb H j i * qx i t) (fun i => H i j * Q i t)); [ring|].
    intros i Hi. rewrite Hb_at, qx_at by lia. reflexivity.
Qed.
Lemma load_size : load m H y Nb <= (2 * INR k + 1) * W (4 * n + k + 12) * effort.
Proof.
  unfold load, effort. rewrite Rmult_plus_distr_l. apply Rplus_le_compat; [rewrite Rmult_assoc; apply HNb|].
  rewrite <- rs_scal. apply bsum_le. intros j Hj. pose proof (col_size j ltac:(lia)) as C. pose proof (Rabs_pos (y j)).
  apply Rle_trans with (Rabs (y j) * ((2 * INR k + 1) * (W (4 * n + k + 12) * nrm n (v j)))); [now apply Rmult_le_compat_l|right; ring].
Qed.
Theorem dres_norm : nrm n dres <= sqrt (INR k + 1) * W (n + 3 * k + 4) * est
  + 2 * (INR k + 1) ^ 3 * gamma u (5 * n + 10 * k + 20) * effort.
Proof.
  pose proof (pos_INR k) as K0. pose proof effort_pos as F0. pose proof (le_INR m k Hm) as MK. pose proof (pos_INR m) as M0. set (K := INR k + 1) in *. assert (K1 : 1 <= K) by (unfold K; lra).
  set (g := gamma u (5 * n + 10 * k + 20)). assert (g0 : 0 <= g) by apply (gamma_pos u_range).
  pose proof (load_nonneg m H y Nb (proj1 HNb)) as L0.
  assert (ZN : nrm (S m) (zres m H y bt) <= W (3 * k) * est + K * gamma u (9 * k + 4) * load m H y Nb).
  { eapply Rle_trans; [apply (zres_norm m H Rm c s y bt beta est Nb Hd); auto; [| | |apply HNb]|].
    - intros j Hj. apply (g_s _ _ _ _ _ _ _ _ G j). lia.
    - intros j Hj. apply (g_c _ _ _ _ _ _ _ _ G j). lia.
    - intros i j Hj Hi. apply (g_R _ _ _ _ _ _ _ _ G i j); [lia|exact Hi].
    - apply Rplus_le_compat.
      + apply Rmult_le_compat_r; [exact Hest|]. apply W_mono. lia.
      + apply Rmult_le_compat_r; [exact L0|]. apply Rmult_le_compat; [lra|apply (gamma_pos u_range)|unfold K; lra|apply (gamma_mono u_range); lia]. }
  (* the combination of the basis *)
  assert (CQ : nrm n (fun t => rsum (S m) (fun i => zres m H y bt i * qx i t)) <= W (n + 4) * (sqrt K * nrm (S m) (zres m H y bt))).
  { eapply Rle_trans; [apply nrm_comb|].
    apply Rle_trans with (rsum (S m) (fun i => W (n + 4) * (1 * Rabs (zres m H y bt i)))).
    - apply bsum_le. intros i Hi. pose proof (qx_norm i ltac:(lia)) as B. pose proof (Rabs_pos (zres m H y bt i)).
      apply Rle_trans with (Rabs (zres m H y bt i) * W (n + 4)); [now apply Rmult_le_compat_l|right; ring].
    - rewrite rs_scal. apply Rmult_le_compat_l; [pose proof (W_ge1 (n + 4)); lra|].
      pose proof (cauchy_schwarz (S m) (fun _ => 1) (fun i => Rabs (zres m H y bt i))) as CS. rewrite nrm_abs in CS.
      assert (E : nrm (S m) (fun _ => 1) <= sqrt K).
      { unfold nrm, dotp. cbn [mul ROps]. apply sqrt_le_1_alt. rewrite (bsum_ext (S m) (fun _ => 1 * 1) (fun _ => 1)) by (intros; ring). rewrite rs_one, S_INR. unfold K. lra. }
      eapply Rle_trans; [apply Rle_abs|]. eapply Rle_trans; [exact CS|]. apply Rmult_le_compat_r; [apply nrm_nonneg|exact E]. }
  assert (SK : sqrt K <= K). { rewrite <- (sqrt_square K) at 2 by lra. apply sqrt_le_1_alt. nra. }
  pose proof (sqrt_pos K) as SK0.
  assert (T2 : nrm n (fun t => rsum m (fun j => y j * lostA j t)) <= K * gamma u (3 * n + k + 12) * rsum m (fun j => Rabs (y j) * nrm n (v j))).
  { eapply Rle_trans; [apply nrm_comb|]. rewrite <- rs_scal. apply bsum_le. intros j Hj. pose proof (lost_norm j ltac:(lia)) as L. pose proof (Rabs_pos (y j)).
    apply Rle_trans with (Rabs (y j) * (K * (gamma u (3 * n + k + 12) * nrm n (v j)))); [now apply Rmult_le_compat_l|right; ring]. }
  assert (T12 : K * (gamma u (3 * n + k + 12) * nrm n b) + K * gamma u (3 * n + k + 12) * rsum m (fun j => Rabs (y j) * nrm n (v j)) <= K * g * effort).
  { apply Rle_trans with (K * gamma u (3 * n + k + 12) * effort); [right; unfold effort; ring|]. apply Rmult_le_compat_r; [exact F0|].
    apply Rmult_le_compat_l; [lra|]. apply (gamma_mono u_range). lia. }
  assert (T3 : W (n + 4) * (sqrt K * nrm (S m) (zres m H y bt)) <= sqrt K * W (n + 3 * k + 4) * est + K * K * (2 * INR k + 1) * g * effort).
  { set (zz := nrm (S m) (zres m H y bt)) in *. pose proof (W_ge1 (n + 4)) as W4. pose proof load_size as LS.
    apply Rle_trans with (W (n + 4) * (sqrt K * (W (3 * k) * est + K * gamma u (9 * k + 4) * load m H y Nb))).
    { apply Rmult_le_compat_l; [lra|]. now apply Rmult_le_compat_l. }
    replace (n + 3 * k + 4)%nat with (n + 4 + 3 * k)%nat by lia. rewrite <- (W_add (n + 4) (3 * k)).
    apply Rle_trans with (sqrt K * (W (n + 4) * W (3 * k)) * est + sqrt K * (K * (W (n + 4) * gamma u (9 * k + 4) * load m H y Nb))); [right; ring|].
    apply Rplus_le_compat_l.
    assert (B : W (n + 4) * gamma u (9 * k + 4) * load m H y Nb <= (2 * INR k + 1) * g * effort).
    { pose proof (W_gamma (9 * k + 4) (n + 4)) as G1. pose proof (gamma_pos u_range (9 * k + 4)) as G0. pose proof (gamma_pos u_range (n + 4 + (9 * k + 4))) as G0'.
      apply Rle_trans with (gamma u (n + 4 + (9 * k + 4)) * ((2 * INR k + 1) * W (4 * n + k + 12) * effort)).
      - apply Rmult_le_compat; auto. apply Rmult_le_pos; lra.
      - apply Rle_trans with ((2 * INR k + 1) * (gamma u (n + 4 + (9 * k + 4)) * W (4 * n + k + 12)) * effort); [right; ring|].
        apply Rmult_le_compat_r; [exact F0|]. apply Rmult_le_compat_l; [lra|]. eapply Rle_trans; [apply gamma_W|]. apply (gamma_mono u_range). lia. }
    assert (C0 : 0 <= W (n + 4) * gamma u (9 * k + 4) * load m H y Nb).
    { apply Rmult_le_pos; [apply Rmult_le_pos; [lra|apply (gamma_pos u_range)]|exact L0]. }
    set (X := W (n + 4) * gamma u (9 * k + 4) * load m H y Nb) in *.
    apply Rle_trans with (K * (K * ((2 * INR k + 1) * g * effort))); [|right; ring].
    apply Rmult_le_compat; auto; [apply Rmult_le_pos; lra|]. apply Rmult_le_compat_l; lra. }
  apply Rle_trans with (nrm n (fun t => ep t - rsum m (fun j => y j * lostA j t) + rsum (S m) (fun i => zres m H y bt i * qx i t))).
  { right. apply nrm_ext. intros t Ht. now apply dres_split. }
  eapply Rle_trans; [apply (nrm_triangle n (fun t => ep t - rsum m (fun j => y j * lostA j t)))|].
  pose proof (nrm_sub n ep (fun t => rsum m (fun j => y j * lostA j t))) as Sz. cbv beta in Sz.
  assert (Fin : K * g * effort + K * K * (2 * INR k + 1) * g * effort <= 2 * K ^ 3 * g * effort).
  { assert (X0 : 0 <= g * effort) by (apply Rmult_le_pos; auto).
    apply Rle_trans with ((K + K * K * (2 * INR k + 1)) * (g * effort)); [right; ring|]. apply Rle_trans with (2 * K ^ 3 * (g * effort)); [|right; ring].
    apply Rmult_le_compat_r; [exact X0|]. replace (INR k) with (K - 1) by (unfold K; ring). nra. }
  lra.
Qed.
End Target.

(** The right-hand side itself. *)
Theorem rhs_norm y : (forall j, (j < k)%nat -> @delta R O c s H j <> 0) ->
  (forall i, (i < k)%nat -> @ilu_bwd R O k (fun i j => if Nat.leb i j then Rm i j else @zero R O) (@beta_of R O c s nb) y i) ->
  nrm n (fun t => p t - rsum k (fun j => y j * v j t)) <= sqrt (INR k + 1) * W (n + 4 * k + 4) * Rabs (@gam R O s nb k)
    + 2 * (INR k + 1) ^ 3 * gamma u (5 * n + 10 * k + 20) * (nrm n p + rsum k (fun j => Rabs (y j) * nrm n (v j))).
Proof.
  intros Hd BW. pose proof (pos_INR k) as K0. pose proof (nrm_nonneg n p) as P0.
  assert (CS : forall j, (j < k)%nat -> Rabs (c j) <= W 3 /\ Rabs (s j) <= W 3).
  { apply (cs_size k H c s Hd); [intros j Hj; apply (g_s _ _ _ _ _ _ _ _ G j Hj)|intros j Hj; apply (g_c _ _ _ _ _ _ _ _ G j Hj)]. }
  pose proof (norm_size n p) as Sz. cbv zeta in Sz. rewrite <- Enb in Sz. destruct Sz as [[S1 S2] _].
  assert (EL : forall i, tauE c s (fun l => nb * e1 l) i = nb * tauE c s e1 i /\ rhoE c s (fun l => nb * e1 l) i = nb * rhoE c s e1 i).
  { intros i. assert (E : forall j, rhoE c s (fun l => nb * e1 l) j = nb * rhoE c s e1 j).
    { induction j as [|j IH]; [reflexivity|]. rewrite !rhoE_S, IH. ring. }
    split; [|apply E]. rewrite !tauE_eq, E. ring. }
  pose proof (dres_norm k y p (fun l => nb * e1 l) (fun t => p t - nb * Q 0%nat t) (@beta_of R O c s nb) (W k * Rabs (@gam R O s nb k)) nb (le_n k) Hd BW) as D.
  unfold dres, effort in D. eapply Rle_trans; [apply D|].
  - intros i Hi. rewrite (proj1 (EL i)). eapply Rle_trans; [apply (beta_err c s k CS); exact Hi|]. rewrite Rabs_pos_eq by exact S1.
    apply Rmult_le_compat_r; [exact S1|]. apply (gamma_mono u_range). lia.
  - rewrite (proj2 (EL k)). pose proof (gam_size c s nb k) as Gs. pose proof (Rmult_le_pos _ _ (gamma_pos u_range (6 * k + 4)) S1). lra.
  - intros t Ht. rewrite (rs_single (S k) (fun i => nb * e1 i * qx i t) 0 ltac:(lia) ltac:(intros [|i] _ Hi; [congruence|cbn [e1]; ring])). cbn [e1 qx]. ring.
  - destruct (unit_vec n p (Q 0%nat)) as [_ U]; [now rewrite <- Enb|now rewrite <- Enb|]. rewrite <- Enb in U.
    apply Rle_trans with (nrm n (fun t => gamma u 2 * Rabs (p t))); [now apply nrm_mono|].
    rewrite nrm_scal, nrm_abs, Rabs_pos_eq by apply (gamma_pos u_range). pose proof (gamma_mono u_range 2 (3 * n + k + 12) ltac:(lia)) as GM.
    pose proof (gamma_pos u_range 2) as G2. assert (X : 0 <= gamma u (3 * n + k + 12) * nrm n p) by (apply Rmult_le_pos; lra).
    apply Rle_trans with (1 * (gamma u (3 * n + k + 12) * nrm n p)); [rewrite Rmult_1_l; now apply Rmult_le_compat_r|]. apply Rmult_le_compat_r; [exact X|lra].
  - split; [exact S1|]. eapply Rle_trans; [exact S2|]. pose proof (W_mono (n + 2) (4 * n + k + 12) ltac:(lia)) as WM. pose proof (W_ge1 (n + 2)).
    assert (X : 0 <= W (4 * n + k + 12) * nrm n p) by (apply Rmult_le_pos; lra).
    apply Rle_trans with (1 * (W (4 * n + k + 12) * nrm n p)); [rewrite Rmult_1_l; now apply Rmult_le_compat_r|]. apply Rmult_le_compat_r; [exact X|lra].
  - apply Rmult_le_pos; [pose proof (W_ge1 k); lra|apply Rabs_pos].
  - apply Rplus_le_compat_r. replace (n + 4 * k + 4)%nat with (n + 3 * k + 4 + k)%nat by lia. rewrite <- (W_add (n + 3 * k + 4) k). right. ring.
Qed.

(** A step that finds nothing new: the last v depends on the ones before it, up to rounding. *)
Theorem stuck_dependent y : (forall j, (j < k - 1)%nat -> @delta R O c s H j <> 0) ->
  @rho R O c s (fun i => H i (k - 1)%nat) (k - 1) = 0 -> H k (k - 1)%nat = 0 ->
  (forall i, (i < k - 1)%nat -> @ilu_bwd R O (k - 1) (fun i j => if Nat.leb i j then Rm i j else @zero R O) (fun i => Rm i (k - 1)%nat) y i) ->
  nrm n (fun t => v (k - 1)%nat t - rsum (k - 1) (fun j => y j * v j t))
    <= 2 * (INR k + 1) ^ 3 * gamma u (5 * n + 10 * k + 20) * (nrm n (v (k - 1)%nat) + rsum (k - 1) (fun j => Rabs (y j) * nrm n (v j))).
Proof.
  set (m := (k - 1)%nat) in *. assert (Ek : k = S m) by (unfold m; lia). intros Hd Zr Zh BW. pose proof (pos_INR k) as K0.
  assert (CS : forall j, (j < m)%nat -> Rabs (c j) <= W 3 /\ Rabs (s j) <= W 3).
  { apply (cs_size m H c s Hd); [intros j Hj; apply (g_s _ _ _ _ _ _ _ _ G j); lia|intros j Hj; apply (g_c _ _ _ _ _ _ _ _ G j); lia]. }
  pose proof (col_nonneg H m) as C0.
  pose proof (dres_norm m y (v m) (Hb H m) (lostA m) (fun i => Rm i m) 0 (col H m) ltac:(lia) Hd BW) as D.
  unfold dres, effort in D. eapply Rle_trans; [apply D|].
  - intros i Hi. rewrite (g_R _ _ _ _ _ _ _ _ G i m) by lia.
    assert (E : @tau R O c s (fun i => H i m) i = @tau R O c s (Hb H m) i).
    { unfold tau. rewrite (Hb_at H m (S i)) by lia. f_equal. f_equal. apply rho_ext; auto. intros a Ha. symmetry. apply Hb_at. lia. }
    rewrite E. destruct (tau_err c s m CS (Hb H m) i Hi) as [T1 _]. eapply Rle_trans; [exact T1|].
    apply Rmult_le_compat; [apply (gamma_pos u_range)|apply bsum_nonneg; intros; apply Rabs_pos|apply (gamma_mono u_range); lia|]. apply col_part. lia.
  - rewrite Rplus_0_l. destruct (rho_err c s m CS (Hb H m) m (le_n m)) as [T1 _].
    assert (E : @rho R O c s (Hb H m) m = 0). { rewrite <- Zr. apply rho_ext; auto. intros. apply Hb_at. lia. }
    rewrite E, Rminus_0_l, Rabs_Ropp in T1. eapply Rle_trans; [exact T1|].
    apply Rmult_le_compat; [apply (gamma_pos u_range)|apply bsum_nonneg; intros; apply Rabs_pos|apply (gamma_mono u_range); lia|]. apply col_part. lia.
  - intros t Ht. unfold lostA. rewrite <- Ek, Zh. rewrite (bsum_ext k (fun i => Hb H m i * qx i t) (fun i => H i m * Q i t)); [ring|].
    intros i Hi. rewrite Hb_at, qx_at by lia. reflexivity.
  - apply lost_norm. lia.
  - split; [exact C0|]. apply col_size. lia.
  - lra.
  - rewrite Rmult_0_r, Rplus_0_l. right. reflexivity.
Qed.
End Basis.

(** The computed combination. *)
Lemma accum_err k y (Q : nat -> nat -> R) t :
  Rabs (@accum R O k y Q t - rsum k (fun j => y j * Q j t)) <= gamma u (k + 2) * rsum k (fun j => Rabs (y j) * Rabs (Q j t)).
Proof.
  assert (B : exists r, (forall j, (j < k)%nat -> near u (k + 2) (r j)) /\ @accum R O k y Q t = rsum k (fun j => y j * Q j t * r j)).
  { induction k as [|k (r & Nr & E)].
    - exists (fun _ => 1). split; [intros; lia|]. cbn [accum bsum zero ROps]. apply (ax_zero (u := u)).
    - cbn [accum]. destruct (mul_near (u := u) (y k) (Q k t)) as (m1 & N1 & E1). destruct (mul_near (u := u) one (mul (y k) (Q k t))) as (m2 & N2 & E2).
      destruct (add_near (u := u) (mul one (mul (y k) (Q k t))) (accum k y Q t)) as (m3 & N3 & E3).
      exists (fun j => if Nat.eqb j k then m1 * (m2 * m3) else r j * m3). split.
      + intros j Hj. destruct (Nat.eqb_spec j k) as [->|].
        * apply (near_mono u_range 3); [lia|]. apply (near_mul u_range 1 2); [exact N1|]. now apply (near_mul u_range 1 1).
        * replace (S k + 2)%nat with (k + 2 + 1)%nat by lia. apply (near_mul u_range); [apply Nr; lia|exact N3].
      + rewrite E3, E2, (ax_one (u := u)), E1, E, rsum_S, Nat.eqb_refl.
        rewrite (bsum_ext k (fun j => y j * Q j t * (if Nat.eqb j k then m1 * (m2 * m3) else r j * m3)) (fun j => y j * Q j t * r j * m3)).
        * rewrite rs_scal_r. ring.
        * intros l Hl. destruct (Nat.eqb_spec l k); [lia|ring]. }
  destruct B as (r & Nr & ->). eapply Rle_trans; [apply (pert_sum (u := u) (k + 2)); intros l Hl; exists (r l); split; [now apply Nr|reflexivity]|].
  right. f_equal. apply bsum_ext. intros l _. apply Rabs_mult.
Qed.
(** The estimate never exceeds the norm of the right-hand side by more than rounding. *)
Lemma gam_bound k c s nb : (forall i, (i < k)%nat -> Rabs (c i) <= W 3 /\ Rabs (s i) <= W 3) -> Rabs (@gam R O s nb k) <= W (4 * k) * Rabs nb.
Proof.
  intros CS. destruct (gam_near c s nb k) as (t & N & ->). rewrite !Rabs_mult. pose proof (near_W _ _ N) as B.
  pose proof (rhoE_size c s (W 3) k e1 k (W_ge1 3) CS (le_n k)) as Z. rewrite e1_size, Rmult_1_r, W_pow in Z.
  replace (4 * k)%nat with (3 * k + k)%nat by lia. rewrite <- W_add.
  apply Rle_trans with (Rabs nb * W (3 * k) * W k); [|right; ring]. apply Rmult_le_compat; auto using Rabs_pos; [apply Rmult_le_pos; apply Rabs_pos|].
  apply Rmult_le_compat_l; [apply Rabs_pos|exact Z].
Qed.
End Rounded.
