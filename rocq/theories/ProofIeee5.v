(** * In IEEE arithmetic the Cholesky factorisation of sufficiently definite matrices succeeds *)
From Coq Require Import Reals Lra Lia Field.
From Verif Require Import Base Scalar BaseLemmas Spec Sums RealVec ModelVec ModelMat ModelSolvers ProofVec ProofChol ProofCholSolve
  ProofCholMath SpecRound Rounding ProofRound ProofRound2 ProofRound3 SpecIeee ProofIeee ProofIeee2.
Local Open Scope R_scope.
Local Notation rsum := (@bsum R ROps).

Lemma unit_quad' n A i : (i < n)%nat -> rsum n (fun a => (if Nat.eqb a i then 1 else 0) * @mvmul R ROps n (symf A) (fun b => if Nat.eqb b i then 1 else 0) a) = A i i.
Proof.
  intros Hi. rewrite (bsum_single (O := ROps) n _ i) by first [assumption | intros k Hk Ne; destruct (Nat.eqb_spec k i); [lia|cbn; ring]].
  rewrite Nat.eqb_refl. unfold mvmul.
  rewrite (bsum_single (O := ROps) n _ i) by first [assumption | intros k Hk Ne; destruct (Nat.eqb_spec k i); [lia|cbn; ring]].
  rewrite Nat.eqb_refl. unfold symf. rewrite Nat.leb_refl. cbn. ring.
Qed.
Lemma unit_diag' n A i : (i < n)%nat -> rsum n (fun a => Rabs (symf A a a) * ((if Nat.eqb a i then 1 else 0) * (if Nat.eqb a i then 1 else 0))) = Rabs (A i i).
Proof.
  intros Hi. rewrite (bsum_single (O := ROps) n _ i) by first [assumption | intros k Hk Ne; destruct (Nat.eqb_spec k i); [lia|cbn; ring]].
  rewrite Nat.eqb_refl. unfold symf. rewrite Nat.leb_refl. ring.
Qed.

(** ** A real-number argument: rows that nearly factor a definite matrix are short *)
Section Margin.
Variables (n : nat) (A : nat -> nat -> R) (g theta : R).
Let kappa := (g + theta) / (1 - g).
Hypotheses (G0 : 0 <= g) (G1 : g < 1) (T0 : 0 <= theta) (HM : pos_def_room kappa n (symf A)).

Lemma room_kappa : 0 <= kappa.
Proof. unfold kappa, Rdiv. apply Rmult_le_pos; [lra|]. left. apply Rinv_0_lt_compat. lra. Qed.
Lemma room_diag i : (i < n)%nat -> 0 < A i i /\ INR n * kappa < 1.
Proof.
  intros Hi. pose proof (HM (fun b => if Nat.eqb b i then 1 else 0)) as H.
  specialize (H ltac:(exists i; rewrite Nat.eqb_refl; split; auto; lra)). cbv beta in H.
  rewrite unit_quad', unit_diag' in H by auto.
  pose proof room_kappa as K. pose proof (pos_INR n) as P. pose proof (Rabs_pos (A i i)) as B.
  assert (0 <= INR n * kappa * Rabs (A i i)) by (apply Rmult_le_pos; auto; apply Rmult_le_pos; auto).
  assert (D : 0 < A i i) by lra. split; auto. rewrite Rabs_pos_eq in H by lra. nra.
Qed.
Lemma kappa_lt1 i : (i < n)%nat -> kappa < 1.
Proof.
  intros Hi. destruct (room_diag i Hi) as [_ K]. pose proof room_kappa. assert (1 <= INR n) by (change 1 with (INR 1); apply le_INR; lia). nra.
Qed.
Lemma g_theta i : (i < n)%nat -> theta < 1 - 2 * g.
Proof.
  intros Hi. pose proof (kappa_lt1 i Hi) as K. unfold kappa in K.
  apply (Rmult_lt_compat_r (1 - g)) in K; [|lra]. unfold Rdiv in K. rewrite Rmult_assoc, Rinv_l in K by lra. lra.
Qed.

Let q i := sqrt (A i i).
Lemma mq_pos i : 0 <= q i.
Proof. apply sqrt_pos. Qed.
Lemma mq_sq i : (i < n)%nat -> q i * q i = A i i.
Proof. intros Hi. apply sqrt_sqrt. left. apply (room_diag i Hi). Qed.

Variables (m : nat) (l : nat -> nat -> R).
Hypothesis (Hm : (m <= n)%nat).
Let P i j := mprod m (lof l) (fun a b => lof l b a) i j.
Let Pa i j := mprod m (mabs (lof l)) (fun a b => mabs (lof l) b a) i j.
Hypothesis (HR : forall i j, (i < m)%nat -> (j < m)%nat -> Rabs (symf A i j - P i j) <= g * Pa i j + theta * (q i * q j)).
Lemma inv1g' : 0 < / (1 - g).
Proof. apply Rinv_0_lt_compat. lra. Qed.
Let rho := (1 + theta) / (1 - g).
Lemma rho_pos : 0 < rho.
Proof. unfold rho, Rdiv. apply Rmult_lt_0_compat; [lra|apply inv1g']. Qed.
Lemma kappa_rho : kappa = g * rho + theta.
Proof. unfold kappa, rho. field. lra. Qed.

(** The rows have length at most rho times the diagonal. *)
Lemma row_len i : (i < m)%nat -> rsum m (fun k => lof l i k * lof l i k) <= rho * A i i.
Proof.
  intros Hi. pose proof (HR i i Hi Hi) as B. rewrite mq_sq in B by lia.
  assert (E : P i i = rsum m (fun k => lof l i k * lof l i k)) by reflexivity.
  assert (Ea : Pa i i = rsum m (fun k => lof l i k * lof l i k)).
  { apply rsum_ext. intros k Hk. unfold mabs. cbn [mul ROps]. rewrite <- Rabs_mult. apply Rabs_pos_eq, Rle_0_sqr. }
  rewrite E, Ea in B. set (s := rsum m (fun k => lof l i k * lof l i k)) in *.
  unfold symf in B. rewrite Nat.leb_refl in B.
  assert (s * (1 - g) <= (1 + theta) * A i i).
  { unfold Rabs in B. destruct (Rcase_abs _) in B; lra. }
  apply Rmult_le_reg_r with (1 - g); [lra|]. unfold rho, Rdiv.
  replace ((1 + theta) * / (1 - g) * A i i * (1 - g)) with ((1 + theta) * A i i) by (field; lra). lra.
Qed.
Lemma Pa_le i j : (i < m)%nat -> (j < m)%nat -> Pa i j <= rho * (q i * q j).
Proof.
  intros Hi Hj. pose proof (cauchy_schwarz m (mabs (lof l) i) (mabs (lof l) j)) as CS.
  eapply Rle_trans; [apply Rle_abs|]. eapply Rle_trans; [exact CS|].
  assert (N : forall a, (a < m)%nat -> nrm m (mabs (lof l) a) <= sqrt rho * q a).
  { intros a Ha. unfold q. destruct (room_diag a ltac:(lia)) as [Pa' _]. rewrite <- sqrt_mult by (pose proof rho_pos; lra).
    apply sqrt_le_1_alt. eapply Rle_trans; [|apply (row_len a Ha)]. right. apply rsum_ext. intros k Hk. unfold mabs. cbn [mul ROps].
    rewrite <- Rabs_mult. apply Rabs_pos_eq, Rle_0_sqr. }
  eapply Rle_trans; [apply Rmult_le_compat; try apply nrm_nonneg; [exact (N i Hi)|exact (N j Hj)]|]. right.
  replace (sqrt rho * q i * (sqrt rho * q j)) with ((sqrt rho * sqrt rho) * (q i * q j)) by ring. rewrite sqrt_sqrt; [ring|]. pose proof rho_pos; lra.
Qed.
Lemma M1 i j : (i < m)%nat -> (j < m)%nat -> Rabs (symf A i j - P i j) <= kappa * (q i * q j).
Proof.
  intros Hi Hj. eapply Rle_trans; [apply HR; auto|]. pose proof (Pa_le i j Hi Hj) as B. rewrite kappa_rho.
  apply Rmult_le_compat_l with (r := g) in B; auto. lra.
Qed.

Variables (c : nat) (r : nat -> R).
Hypotheses (Hmc : (m <= c)%nat) (Hc : (c < n)%nat) (HP : forall i, (i < m)%nat -> 0 < l i i)
  (HC : forall j, (j < m)%nat -> Rabs (A c j - rsum m (fun k => r k * lof l j k)) <= g * rsum m (fun k => Rabs (r k) * Rabs (lof l j k)) + theta * (q c * q j)).

Let w := rsum m (fun k => r k * r k).
Lemma mw_pos : 0 <= w.
Proof. apply rsum_nonneg. intros. apply Rle_0_sqr. Qed.
Section Absurd.
Hypothesis (HB : A c c <= (1 + g) * w + theta * A c c).
Let a' := Rmax (A c c) (/ rho * w).
Let q' := sqrt a'.
Lemma ma_pos : 0 < a'.
Proof. eapply Rlt_le_trans; [apply (room_diag c Hc)|apply Rmax_l]. Qed.
Lemma mq'_sq : q' * q' = a'.
Proof. apply sqrt_sqrt. left. apply ma_pos. Qed.
Lemma mw_le : w <= rho * a'.
Proof.
  pose proof (Rmax_r (A c c) (/ rho * w)) as M. fold a' in M. pose proof rho_pos.
  apply Rmult_le_compat_l with (r := rho) in M; [|lra]. rewrite <- Rmult_assoc, Rinv_r in M by lra. lra.
Qed.
Lemma qc_le : q c <= q'.
Proof. apply sqrt_le_1_alt. apply Rmax_l. Qed.
Lemma ma_w : a' - w <= kappa * (q' * q').
Proof.
  rewrite mq'_sq, kappa_rho. pose proof ma_pos as Pa'. pose proof mw_pos as Pw. pose proof rho_pos as Pr. pose proof mw_le as W.
  assert (0 <= g * (rho * a')) by (apply Rmult_le_pos; auto; apply Rmult_le_pos; lra).
  assert (0 <= theta * a') by (apply Rmult_le_pos; lra).
  destruct (Rle_dec (A c c) (/ rho * w)) as [Le|Gt].
  - assert (E : a' = / rho * w) by (unfold a'; now apply Rmax_right).
    assert (a' <= w). { rewrite E. rewrite <- (Rmult_1_l w) at 2. apply Rmult_le_compat_r; auto. rewrite <- Rinv_1. apply Rinv_le_contravar; [lra|].
      unfold rho. apply Rmult_le_reg_r with (1 - g); [lra|]. unfold Rdiv. rewrite Rmult_assoc, Rinv_l by lra. lra. }
    lra.
  - assert (E : a' = A c c) by (unfold a'; apply Rmax_left; lra). rewrite E in *.
    apply Rmult_le_compat_l with (r := g) in W; auto. lra.
Qed.
Lemma M2 j : (j < m)%nat -> Rabs (A c j - rsum m (fun k => r k * lof l j k)) <= kappa * (q' * q j).
Proof.
  intros Hj. eapply Rle_trans; [apply HC; auto|]. rewrite kappa_rho.
  pose proof (cauchy_schwarz m (fun k => Rabs (r k)) (mabs (lof l) j)) as CS.
  assert (N1 : nrm m (fun k => Rabs (r k)) <= sqrt rho * q').
  { unfold q'. pose proof ma_pos. rewrite <- sqrt_mult by (pose proof rho_pos; lra). apply sqrt_le_1_alt. eapply Rle_trans; [|exact mw_le].
    right. apply rsum_ext. intros k Hk. cbn [mul ROps]. rewrite <- Rabs_mult. apply Rabs_pos_eq, Rle_0_sqr. }
  assert (N2 : nrm m (mabs (lof l) j) <= sqrt rho * q j).
  { unfold q. destruct (room_diag j ltac:(lia)) as [Pj _]. rewrite <- sqrt_mult by (pose proof rho_pos; lra).
    apply sqrt_le_1_alt. eapply Rle_trans; [|apply (row_len j Hj)]. right. apply rsum_ext. intros k Hk. unfold mabs. cbn [mul ROps].
    rewrite <- Rabs_mult. apply Rabs_pos_eq, Rle_0_sqr. }
  assert (B : rsum m (fun k => Rabs (r k) * Rabs (lof l j k)) <= rho * (q' * q j)).
  { eapply Rle_trans; [apply Rle_abs|]. eapply Rle_trans; [exact CS|].
    eapply Rle_trans; [apply Rmult_le_compat; try apply nrm_nonneg; [exact N1|exact N2]|]. right.
    replace (sqrt rho * q' * (sqrt rho * q j)) with ((sqrt rho * sqrt rho) * (q' * q j)) by ring. rewrite sqrt_sqrt; [ring|]. pose proof rho_pos; lra. }
  apply Rmult_le_compat_l with (r := g) in B; auto.
  assert (theta * (q c * q j) <= theta * (q' * q j)).
  { apply Rmult_le_compat_l; auto. apply Rmult_le_compat_r; [apply mq_pos|apply qc_le]. }
  lra.
Qed.

Lemma margin_absurd : False.
Proof.
  destruct (upper_solvable m (fun a b => lof l b a) r) as (z & Hz).
  { intros i Hi. unfold lof. rewrite Nat.leb_refl. apply Rgt_not_eq, HP; auto. }
  { intros i j Hi Hj. unfold lof. destruct (Nat.leb_spec i j); [lia|reflexivity]. }
  cbv beta in Hz.
  pose (x := fun i => if Nat.ltb i m then - z i else if Nat.eqb i c then 1 else 0).
  assert (X1 : forall i, (i < m)%nat -> x i = - z i) by (intros i Hi; unfold x; destruct (Nat.ltb_spec i m); [auto|lia]).
  assert (X2 : x c = 1) by (unfold x; destruct (Nat.ltb_spec c m); [lia|]; now rewrite Nat.eqb_refl).
  assert (X3 : forall i, (m <= i)%nat -> i <> c -> x i = 0).
  { intros i Hi Ne. unfold x. destruct (Nat.ltb_spec i m); [lia|]. destruct (Nat.eqb_spec i c); [lia|auto]. }
  assert (TR : forall f, (forall i, (m <= i)%nat -> i <> c -> f i = 0) -> rsum n f = rsum m f + f c).
  { intros f Hf. rewrite (rsum_split n m) by lia. f_equal.
    rewrite (bsum_single (O := ROps) (n - m) _ (c - m)) by first [lia | intros k Hk Ne; apply Hf; lia].
    f_equal. lia. }
  pose proof (HM x ltac:(exists c; rewrite X2; split; auto; lra)) as H.
  rewrite (TR (fun i => x i * _)) in H by (intros i Hi Ne; rewrite X3 by auto; ring).
  rewrite (TR (fun i => Rabs _ * (x i * x i))) in H by (intros i Hi Ne; rewrite X3 by auto; ring).
  assert (MV : forall i, @mvmul R ROps n (symf A) x i = symf A i c - rsum m (fun j => symf A i j * z j)).
  { intros i. unfold mvmul. rewrite TR by (intros j Hj Ne; rewrite X3 by auto; cbn; ring). rewrite X2. cbn [mul ROps].
    rewrite (rsum_ext m _ (fun j => (-1) * (symf A i j * z j))) by (intros j Hj; rewrite X1 by auto; ring).
    rewrite rsum_scal. ring. }
  rewrite MV, X2 in H. rewrite (rsum_ext m (fun i => x i * _) (fun i => z i * rsum m (fun j => symf A i j * z j) - A c i * z i)) in H.
  2:{ intros i Hi. rewrite MV, X1 by auto. unfold symf at 1. destruct (Nat.leb_spec c i); [lia|]. ring. }
  rewrite rsum_sub in H.
  rewrite (rsum_ext m (fun j => symf A c j * z j) (fun j => A c j * z j)) in H
    by (intros j Hj; unfold symf; destruct (Nat.leb_spec j c); [reflexivity|lia]).
  rewrite (rsum_ext m (fun i => Rabs _ * (x i * x i)) (fun i => (q i * Rabs (z i)) * (q i * Rabs (z i)))) in H.
  2:{ intros i Hi. rewrite X1 by auto. unfold symf. rewrite Nat.leb_refl. destruct (room_diag i ltac:(lia)) as [Pi _].
      rewrite Rabs_pos_eq by lra. rewrite <- (mq_sq i) by lia.
      replace (- z i * - z i) with (Rabs (z i) * Rabs (z i)); [ring|]. rewrite <- Rabs_mult, Rabs_pos_eq; [ring|apply Rle_0_sqr]. }
  replace (Rabs (symf A c c) * (1 * 1)) with (A c c) in H
    by (unfold symf; rewrite Nat.leb_refl, Rabs_pos_eq by (left; apply (room_diag c Hc)); ring).
  replace (symf A c c) with (A c c) in H by (unfold symf; now rewrite Nat.leb_refl).
  set (Q1 := rsum m (fun i => z i * rsum m (fun j => symf A i j * z j))) in *.
  set (Q2 := rsum m (fun j => A c j * z j)) in *.
  set (D := rsum m (fun i => q i * Rabs (z i) * (q i * Rabs (z i)))) in *.
  set (s := rsum m (fun i => q i * Rabs (z i))).
  assert (W1 : rsum m (fun i => z i * rsum m (fun j => P i j * z j)) = w).
  { etransitivity; [exact (quad_LLt m (lof l) z)|]. apply rsum_ext. intros k Hk.
    replace (@mvmul R ROps m (transp (lof l)) z k) with (r k); [reflexivity|]. symmetry. apply Hz; auto. }
  assert (W2 : rsum m (fun j => rsum m (fun k => r k * lof l j k) * z j) = w).
  { rewrite (rsum_ext m _ (fun j => rsum m (fun k => r k * (lof l j k * z j)))) by (intros; rewrite <- rsum_scal_r; apply rsum_ext; intros; ring).
    rewrite rsum_swap. apply rsum_ext. intros k Hk. now rewrite rsum_scal, Hz. }
  assert (B1 : Rabs (Q1 - w) <= kappa * (s * s)).
  { rewrite <- W1. unfold Q1. rewrite <- rsum_sub. eapply Rle_trans; [apply rsum_Rabs|].
    unfold s at 1. rewrite <- rsum_scal_r, <- rsum_scal. apply rsum_le. intros i Hi.
    replace (z i * rsum m (fun j => symf A i j * z j) - z i * rsum m (fun j => P i j * z j))
      with (z i * rsum m (fun j => (symf A i j - P i j) * z j))
      by (rewrite <- Rmult_minus_distr_l, <- rsum_sub; f_equal; apply rsum_ext; intros; ring).
    rewrite Rabs_mult. replace (kappa * (q i * Rabs (z i) * s)) with (Rabs (z i) * (kappa * q i * s)) by ring.
    apply Rmult_le_compat_l; [apply Rabs_pos|]. eapply Rle_trans; [apply rsum_Rabs|]. unfold s. rewrite <- rsum_scal.
    apply rsum_le. intros j Hj. rewrite Rabs_mult. pose proof (M1 i j Hi Hj) as E. pose proof (Rabs_pos (z j)).
    replace (kappa * q i * (q j * Rabs (z j))) with (kappa * (q i * q j) * Rabs (z j)) by ring. now apply Rmult_le_compat_r. }
  assert (B2 : Rabs (Q2 - w) <= kappa * (q' * s)).
  { rewrite <- W2. unfold Q2. rewrite <- rsum_sub. eapply Rle_trans; [apply rsum_Rabs|]. unfold s.
    replace (kappa * (q' * rsum m (fun i => q i * Rabs (z i)))) with (kappa * q' * rsum m (fun i => q i * Rabs (z i))) by ring.
    rewrite <- rsum_scal. apply rsum_le. intros j Hj. rewrite <- Rmult_minus_distr_r, Rabs_mult.
    replace (kappa * q' * (q j * Rabs (z j))) with (kappa * (q' * q j) * Rabs (z j)) by ring.
    apply Rmult_le_compat_r; [apply Rabs_pos|]. now apply M2. }
  assert (UB : Q1 - 2 * Q2 + a' <= kappa * ((s + q') * (s + q'))).
  { pose proof ma_w as B3. pose proof (Rle_abs (Q1 - w)). pose proof (Rle_abs (- (Q2 - w))) as B4. rewrite Rabs_Ropp in B4. lra. }
  assert (SQ : (s + q') * (s + q') <= INR n * (D + a')).
  { pose proof (sum_sq (S m) (fun i => if Nat.eqb i m then q' else q i * Rabs (z i))) as S. rewrite !rsum_S, Nat.eqb_refl, mq'_sq in S.
    rewrite (rsum_ext m _ (fun i => q i * Rabs (z i))) in S by (intros i Hi; destruct (Nat.eqb_spec i m); [lia|reflexivity]).
    rewrite (rsum_ext m (fun i => (if Nat.eqb i m then q' else q i * Rabs (z i)) * (if Nat.eqb i m then q' else q i * Rabs (z i))) (fun i => q i * Rabs (z i) * (q i * Rabs (z i)))) in S by (intros i Hi; destruct (Nat.eqb_spec i m); [lia|reflexivity]).
    fold s D in S. eapply Rle_trans; [exact S|]. apply Rmult_le_compat_r; [|apply le_INR; lia].
    pose proof ma_pos. assert (0 <= D) by (apply rsum_nonneg; intros; apply Rle_0_sqr). lra. }
  destruct (room_diag c Hc) as [Pc Lam]. pose proof (Rmax_l (A c c) (/ rho * w)) as Ma. fold a' in Ma.
  assert (K1 : kappa * ((s + q') * (s + q')) <= INR n * kappa * (D + a')).
  { replace (INR n * kappa * (D + a')) with (kappa * (INR n * (D + a'))) by ring. apply Rmult_le_compat_l; [apply room_kappa|auto]. }
  assert (K2 : INR n * kappa * (a' - A c c) <= a' - A c c).
  { rewrite <- (Rmult_1_l (a' - A c c)) at 2. apply Rmult_le_compat_r; lra. }
  lra.
Qed.
End Absurd.

Lemma margin_row : (1 + g) * w + theta * A c c < A c c.
Proof. destruct (Rlt_le_dec ((1 + g) * w + theta * A c c) (A c c)) as [L|L]; auto. exfalso. now apply margin_absurd. Qed.
End Margin.

Section Success.
Context {T : Type} {Op : Ops T} {val : T -> R} {fin : T -> Prop} {prd : T -> T -> T -> Prop} {u eta omega : R} {I : Ieee Op val fin prd u eta omega}.
Let Hu : 0 <= u < 1 := i_range (Ieee := I).
Let He : 0 <= eta := i_eta (Ieee := I).
Let AX : Approx ROps u := exact_u (I := I).
Local Notation pert := (pert (u := u)).
Local Notation vm := (fun (f : nat -> nat -> T) i j => val (f i j)).

(** Subtracting products from a number stays finite when the sum of the sizes is small enough. *)
Lemma ssub_fin m a (b x : nat -> T) : settled prd a -> fin a -> (forall k, (k < m)%nat -> fin (b k) /\ fin (x k)) ->
  (Rabs (val a) + rsum m (fun k => Rabs (val (b k) * val (x k))) + INR m * eta) * (1 + gamma u (S m)) <= omega ->
  fin (ssub m a (fun k => mul (b k) (x k))) /\
  Rabs (val (ssub m a (fun k => mul (b k) (x k)))) <= (Rabs (val a) + rsum m (fun k => Rabs (val (b k) * val (x k))) + INR m * eta) * (1 + gamma u (S m)).
Proof.
  induction m as [|m IH]; intros Sa Fa Fbx B.
  { split; [exact Fa|]. cbn [ssub]. pose proof (g1_pos (I := I) 1) as G. pose proof (Rabs_pos (val a)).
    change (rsum 0 _) with 0. change (INR 0) with 0. nra. }
  cbn [ssub]. pose proof (Rabs_pos (val a)) as P0. pose proof (rabs_sum_pos m (fun k => val (b k) * val (x k))) as P1. cbn beta in P1.
  pose proof (Rabs_pos (val (b m) * val (x m))) as P2. pose proof (pos_INR m) as P3.
  assert (P4 : 0 <= INR m * eta) by (apply Rmult_le_pos; auto).
  pose proof (g1_pos (I := I) (S m)) as G1. pose proof (g_mono (I := I) (S m) (S (S m)) ltac:(lia)) as G3.
  pose proof (g_mono (I := I) 1 (S m) ltac:(lia)) as G4. pose proof (g_mul (u := u) 1 (S m)) as GM. cbn [plus] in GM.
  rewrite rsum_S, S_INR in *. set (p := Rabs (val (b m) * val (x m))) in *.
  set (q := rsum m (fun k => Rabs (val (b k) * val (x k)))) in *. set (a0 := Rabs (val a)) in *.
  set (g1 := 1 + gamma u (S m)) in *. set (g2 := 1 + gamma u (S (S m))) in *.
  assert (Q1 : (a0 + q + INR m * eta) * g1 <= (a0 + (q + p) + (INR m + 1) * eta) * g2) by (apply Rmult_le_compat; lra).
  assert (Q2 : (a0 + (q + p) + (INR m + 1) * eta) * g1 <= (a0 + (q + p) + (INR m + 1) * eta) * g2) by (apply Rmult_le_compat_l; lra).
  destruct IH as [Fs Bs]; [auto|auto|intros; apply Fbx; lia|lra|].
  assert (Q3 : (p + eta) * g1 <= (a0 + (q + p) + (INR m + 1) * eta) * g2) by (apply Rmult_le_compat; lra).
  assert (Q4 : p <= (p + eta) * g1) by (pose proof (Rmult_le_compat_l (p + eta) 1 g1 ltac:(lra) G1); lra).
  assert (Fp : fin (mul (b m) (x m))).
  { apply i_mul_fin; try apply Fbx; try lia. fold p. lra. }
  assert (S2 : forall w, seen val fin prd u eta (mul (b m) (x m)) w -> Rabs w <= (p + eta) * g1).
  { intros w Ww. destruct (see_mul_ieee (I := I) _ _ _ Ww) as (_ & _ & t & e & Nt & Be & ->). eapply Rle_trans; [apply Rabs_triang|]. rewrite Rabs_mult. fold p. apply (near_le (I := I)) in Nt.
    assert (p * Rabs t <= p * g1) by (apply Rmult_le_compat_l; lra). assert (eta * 1 <= eta * g1) by (apply Rmult_le_compat_l; lra). lra. }
  pose proof (settled_ssub (I := I) m a (fun k => mul (b k) (x k)) Sa) as Ss.
  assert (D : forall v w, seen val fin prd u eta (ssub m a (fun k => mul (b k) (x k))) v -> seen val fin prd u eta (mul (b m) (x m)) w -> Rabs (v - w) <= (a0 + (q + p) + (INR m + 1) * eta) * g1).
  { intros v w Wv Ww. apply see_settled in Wv as [_ ->]; auto. specialize (S2 w Ww).
    unfold Rminus. eapply Rle_trans; [apply Rabs_triang|]. rewrite Rabs_Ropp.
    replace ((a0 + (q + p) + (INR m + 1) * eta) * g1) with ((a0 + q + INR m * eta) * g1 + (p + eta) * g1) by ring. lra. }
  assert (F : fin (sub (ssub m a (fun k => mul (b k) (x k))) (mul (b m) (x m)))) by (apply i_sub_fin; auto; intros v w Wv Ww; specialize (D v w Wv Ww); lra).
  split; [exact F|]. destruct (sub_ieee (I := I) _ _ F) as (v & w & Wv & Ww & s & Ns & ->). specialize (D v w Wv Ww). rewrite Rabs_mult. apply (near_le (I := I)) in Ns.
  eapply Rle_trans; [apply Rmult_le_compat; try apply Rabs_pos; [exact D|exact Ns]|]. right. rewrite <- GM. ring.
Qed.

Variables (n : nat) (A L : nat -> nat -> T) (theta amax : R).
Let g := gamma u (S n).
Let a := vm A.
Let q i := sqrt (a i i).
Hypotheses (SA : msettled prd n n A) (Hg : g < 1) (T0 : 0 <= theta) (HM : pos_def_room ((g + theta) / (1 - g)) n (symf a))
  (HA : forall i j, (i < n)%nat -> (j <= i)%nat -> fin (A i j) /\ Rabs (a i j) <= amax)
  (HO : (3 * amax + INR n * eta) * (1 + g) <= omega)
  (HE : forall i j, (i < n)%nat -> (j < n)%nat -> (INR n + 2 * q j) * eta * (1 + g) <= theta * (q i * q j)).

Lemma sg_pos : 0 <= g.
Proof. apply (gamma_pos Hu). Qed.

(** The rows computed so far. *)
Definition good m : Prop := factored m A L /\ forall i, (i < m)%nat -> fin (L i i) /\ val (L i i) <= 2 * q i.
Lemma good_mono m m' : (m' <= m)%nat -> good m -> good m'.
Proof. intros H [F D]. split; [intros i Hi; apply F; lia|intros; apply D; lia]. Qed.
Lemma set_mono m : (m <= n)%nat -> msettled prd m m A.
Proof. intros H i j Hi Hj. apply SA; lia. Qed.
Lemma good_fin m i j : (m <= n)%nat -> good m -> (i < m)%nat -> (j <= i)%nat -> fin (L i j).
Proof. intros Hm [F D] Hi Hj. apply (chol_fin (I := I) m A L (set_mono m Hm) F); auto. intros k Hk. now apply D. Qed.
Lemma good_pos m i : (m <= n)%nat -> good m -> (i < m)%nat -> 0 < val (L i i).
Proof. intros Hm [F D] Hi. apply (chol_fin (I := I) m A L (set_mono m Hm) F) with (j := i); auto. intros k Hk. now apply D. Qed.

Lemma under_le k c x i j : (i < n)%nat -> (j < n)%nat -> (k <= n)%nat -> (c <= n)%nat -> 0 <= x <= 2 * q j ->
  (INR k + x) * eta * (1 + gamma u (S c)) <= theta * (q i * q j).
Proof.
  intros Hi Hj Hk Hc [X1 X2]. eapply Rle_trans; [|apply HE; auto]. pose proof (pos_INR k). pose proof (le_INR _ _ Hk).
  apply Rmult_le_compat.
  - apply Rmult_le_pos; auto. lra.
  - pose proof (g1_pos (I := I) (S c)). lra.
  - apply Rmult_le_compat_r; auto. lra.
  - apply (g_mono (I := I)). lia.
Qed.

Lemma block_err m : (m <= n)%nat -> good m -> forall i j, (i < m)%nat -> (j < m)%nat ->
  Rabs (symf a i j - mprod m (lof (vm L)) (fun a b => lof (vm L) b a) i j) <=
    g * mprod m (mabs (lof (vm L))) (fun a b => mabs (lof (vm L)) b a) i j + theta * (q i * q j).
Proof.
  intros Hm G.
  assert (B : forall i j, (i < m)%nat -> (j <= i)%nat -> Rabs (a i j - mprod m (lof (vm L)) (fun a b => lof (vm L) b a) i j) <=
    g * mprod m (mabs (lof (vm L))) (fun a b => mabs (lof (vm L)) b a) i j + theta * (q i * q j)).
  { intros i j Hi Hj. destruct G as [F D].
    eapply Rle_trans; [apply (chol_product_ieee (I := I) m A L i j (set_mono m Hm) F); auto; intros k Hk; now apply D|].
    apply Rplus_le_compat.
    - apply Rmult_le_compat_r; [apply rsum_nonneg; intros; apply Rmult_le_pos; apply Rabs_pos|]. apply (gamma_mono Hu). lia.
    - pose proof (good_pos m j Hm (conj F D) ltac:(lia)) as P. rewrite Rabs_pos_eq by lra. apply under_le; try lia. split; [lra|apply D; lia]. }
  intros i j Hi Hj. unfold symf. destruct (Nat.leb_spec j i) as [H|H]; [now apply B|].
  assert (S1 : forall M, mprod m M (fun a b => M b a) j i = mprod m M (fun a b => M b a) i j).
  { intros M. apply rsum_ext. intros; ring. }
  pose proof (B j i Hj ltac:(lia)) as E. rewrite !S1 in E. now rewrite (Rmult_comm (q i)).
Qed.

Lemma lof_sum m j (r : nat -> R) (f : nat -> nat -> R) : (j < m)%nat -> rsum m (fun k => r k * lof f j k) = rsum (S j) (fun k => r k * f j k).
Proof.
  intros Hj. rewrite (rsum_split m (S j)) by lia.
  rewrite (rsum_zero (m - S j)) by (intros k Hk; unfold lof; destruct (Nat.leb_spec (S j + k) j); [lia|ring]).
  rewrite Rplus_0_r. apply rsum_ext. intros k Hk. unfold lof. destruct (Nat.leb_spec k j); [reflexivity|lia].
Qed.
Lemma lof_abs_sum m j (r : nat -> R) (f : nat -> nat -> R) : (j < m)%nat -> rsum m (fun k => Rabs (r k) * Rabs (lof f j k)) = rsum (S j) (fun k => Rabs (r k) * Rabs (f j k)).
Proof.
  intros Hj. rewrite (rsum_split m (S j)) by lia.
  rewrite (rsum_zero (m - S j)) by (intros k Hk; unfold lof; destruct (Nat.leb_spec (S j + k) j); [lia|rewrite Rabs_R0; ring]).
  rewrite Rplus_0_r. apply rsum_ext. intros k Hk. unfold lof. destruct (Nat.leb_spec k j); [reflexivity|lia].
Qed.
(** A row r that the rows 0 .. m - 1 of the factor reproduce row c of the matrix with. *)
Definition row_err c (r : nat -> R) j : Prop :=
  Rabs (a c j - rsum (S j) (fun k => r k * val (L j k))) <= g * rsum (S j) (fun k => Rabs (r k) * Rabs (val (L j k))) + theta * (q c * q j).
Lemma short_row m c r : (m <= c)%nat -> (c < n)%nat -> good m -> (forall j, (j < m)%nat -> row_err c r j) ->
  (1 + g) * rsum m (fun k => r k * r k) + theta * a c c < a c c.
Proof.
  intros Hm Hc G HR. apply (margin_row n a g theta sg_pos Hg T0 HM m (vm L) ltac:(lia) (block_err m ltac:(lia) G) c r Hm Hc).
  - intros i Hi. apply (good_pos m); auto; lia.
  - intros j Hj. specialize (HR j Hj). unfold row_err in HR. now rewrite lof_sum, lof_abs_sum.
Qed.
Lemma adiag c : (c < n)%nat -> 0 < a c c <= amax.
Proof.
  intros Hc. destruct (room_diag n a g theta sg_pos Hg T0 HM c Hc) as [P _]. split; auto. destruct (HA c c Hc ltac:(lia)) as [_ B].
  pose proof (Rle_abs (a c c)). lra.
Qed.
Lemma row_sq c j : (j < c)%nat -> (c < n)%nat -> good c -> rsum (S j) (fun k => val (L j k) * val (L j k)) <= 2 * a j j.
Proof.
  intros Hj Hc G.
  pose proof (row_len n a g theta sg_pos Hg T0 HM c (vm L) ltac:(lia) (block_err c ltac:(lia) G) j Hj) as B.
  pose proof (g_theta n a g theta sg_pos Hg T0 HM c Hc) as GT. destruct (adiag j ltac:(lia)) as [Pj _]. pose proof sg_pos as G0.
  assert (E : rsum c (fun k => lof (vm L) j k * lof (vm L) j k) = rsum (S j) (fun k => val (L j k) * val (L j k))).
  { rewrite (lof_sum c j (fun k => lof (vm L) j k) (vm L) Hj). apply rsum_ext. intros k Hk. unfold lof.
    destruct (Nat.leb_spec k j); [reflexivity|lia]. }
  rewrite <- E. eapply Rle_trans; [exact B|]. apply Rmult_le_compat_r; [lra|].
  apply Rmult_le_reg_r with (1 - g); [lra|]. unfold Rdiv. rewrite Rmult_assoc, Rinv_l by lra. lra.
Qed.
(** |sum of products| through the squares *)
Lemma prod_le m (x y : nat -> R) : rsum m (fun k => Rabs (x k * y k)) <= / 2 * (rsum m (fun k => x k * x k) + rsum m (fun k => y k * y k)).
Proof.
  rewrite <- rsum_add, <- rsum_scal. apply rsum_le. intros k _. rewrite Rabs_mult.
  replace (x k * x k) with (Rabs (x k) * Rabs (x k)) by (rewrite <- Rabs_mult; apply Rabs_pos_eq, Rle_0_sqr).
  replace (y k * y k) with (Rabs (y k) * Rabs (y k)) by (rewrite <- Rabs_mult; apply Rabs_pos_eq, Rle_0_sqr).
  pose proof (Rle_0_sqr (Rabs (x k) - Rabs (y k))) as S. unfold Rsqr in S. lra.
Qed.
Lemma w_lt m c r : (m <= c)%nat -> (c < n)%nat -> good m -> (forall j, (j < m)%nat -> row_err c r j) -> rsum m (fun k => r k * r k) < a c c.
Proof.
  intros Hm Hc G HR. pose proof (short_row m c r Hm Hc G HR) as S. destruct (adiag c Hc) as [Pc _]. pose proof sg_pos as G0.
  assert (0 <= rsum m (fun k => r k * r k)) by (apply rsum_nonneg; intros; apply Rle_0_sqr).
  assert (0 <= theta * a c c) by (apply Rmult_le_pos; lra).
  assert (0 <= g * rsum m (fun k => r k * r k)) by (apply Rmult_le_pos; lra). lra.
Qed.
Lemma amax_le x : 0 <= x <= 3 * amax + INR n * eta -> forall c, (c <= n)%nat -> x * (1 + gamma u (S c)) <= omega.
Proof.
  intros [X1 X2] c Hc. eapply Rle_trans; [|exact HO]. apply Rmult_le_compat; auto.
  - pose proof (g1_pos (I := I) (S c)). lra.
  - apply (g_mono (I := I)). lia.
Qed.

(** One entry of the row: finite, and with a small error. *)
Lemma entry_step c j : (j < c)%nat -> (c < n)%nat -> good c -> offrec A L c j ->
  (forall k, (k < j)%nat -> fin (L c k) /\ row_err c (fun k => val (L c k)) k) -> fin (L c j) /\ row_err c (fun k => val (L c k)) j.
Proof.
  intros Hj Hc G HOf IH. destruct (HA c j Hc ltac:(lia)) as [FA BA]. destruct (adiag c Hc) as [Pc Mc]. destruct (adiag j ltac:(lia)) as [Pj Mj].
  pose proof (good_pos c j ltac:(lia) G Hj) as PL. destruct G as [F D]. pose proof (D j Hj) as [FL BL]. assert (G : good c) by (split; auto).
  assert (Gj : good j) by (apply (good_mono c); auto; lia).
  pose proof (w_lt j c (fun k => val (L c k)) ltac:(lia) Hc Gj (fun k Hk => proj2 (IH k Hk))) as W.
  pose proof (row_sq c j Hj Hc G) as RS. rewrite rsum_S in RS.
  pose proof (Rle_0_sqr (val (L j j))) as SQ. unfold Rsqr in SQ.
  pose proof (prod_le j (fun k => val (L c k)) (fun k => val (L j k))) as PR. cbv beta in PR.
  pose proof (rabs_sum_pos j (fun k => val (L c k) * val (L j k))) as P1. cbv beta in P1.
  pose proof (le_INR j n ltac:(lia)) as LN. pose proof (Rmult_le_compat_r eta _ _ He LN) as LE.
  assert (P0 : 0 <= INR j * eta) by (apply Rmult_le_pos; [apply pos_INR|exact He]).
  destruct (ssub_fin j (A c j) (L c) (L j) (SA c j Hc ltac:(lia)) FA) as [Fs _].
  { intros k Hk. split; [now apply IH|]. apply (good_fin c); auto; lia. }
  { apply amax_le; [|lia]. pose proof (Rabs_pos (val (A c j))). split; [lra|]. change (val (A c j)) with (a c j). lra. }
  set (s := ssub j (A c j) (fun k => mul (L c k) (L j k))) in *.
  destruct (sums_ieee (I := I) j (A c j) (L c) (L j) (SA c j Hc ltac:(lia)) Fs) as (_ & _ & ts & l' & e & Nts & Pl & Be & Ea). fold s in Ea.
  (* the exact quotient *)
  set (x := val s / val (L j j)).
  assert (Ex : val s = x * val (L j j)) by (unfold x; field; lra).
  pose (r := fun k => if Nat.ltb k j then val (L c k) else x).
  assert (R1 : forall k, (k < j)%nat -> r k = val (L c k)) by (intros k Hk; unfold r; destruct (Nat.ltb_spec k j); [auto|lia]).
  assert (R2 : r j = x) by (unfold r; destruct (Nat.ltb_spec j j); [lia|auto]).
  assert (RE : forall k, (k < S j)%nat -> row_err c r k).
  { intros k Hk. destruct (Nat.eq_dec k j) as [->|Ne].
    - unfold row_err. rewrite !rsum_S, R2.
      rewrite (rsum_ext j (fun k => r k * val (L j k)) (fun k => val (L c k) * val (L j k))) by (intros i Hi; now rewrite R1).
      rewrite (rsum_ext j (fun k => Rabs (r k) * Rabs (val (L j k))) (fun k => Rabs (val (L c k) * val (L j k)))) by (intros i Hi; now rewrite R1, Rabs_mult).
      change (a c j) with (val (A c j)). rewrite Ea, Ex.
      replace (x * val (L j j) * ts + rsum j (fun k => l' k * val (L j k)) + e - (rsum j (fun k => val (L c k) * val (L j k)) + x * val (L j j)))
        with ((x * val (L j j) * ts - x * val (L j j)) + (rsum j (fun k => l' k * val (L j k)) - rsum j (fun k => val (L c k) * val (L j k))) + e) by ring.
      assert (E1 : Rabs (x * val (L j j) * ts - x * val (L j j)) <= g * (Rabs x * Rabs (val (L j j)))).
      { rewrite <- Rabs_mult. eapply Rle_trans; [apply (near_err Hu j); auto|]. apply Rmult_le_compat_r; [apply Rabs_pos|]. apply (gamma_mono Hu). lia. }
      assert (E2 : Rabs (rsum j (fun k => l' k * val (L j k)) - rsum j (fun k => val (L c k) * val (L j k))) <= g * rsum j (fun k => Rabs (val (L c k) * val (L j k)))).
      { apply (pert_sum (AX := AX)). intros i Hi. destruct (Pl i Hi) as (t & Nt & ->). exists t. split; [|ring]. apply (near_mono Hu j); [lia|auto]. }
      assert (E3 : Rabs e <= theta * (q c * q j)).
      { eapply Rle_trans; [exact Be|]. eapply Rle_trans; [|apply (under_le j j 0 c j); try lia; pose proof (sqrt_pos (a j j)); unfold q; lra].
        rewrite Rplus_0_r. apply Rmult_le_compat_l; auto. apply (g_mono (I := I)). lia. }
      eapply Rle_trans; [apply Rabs_triang|]. eapply Rle_trans; [apply Rplus_le_compat_r, Rabs_triang|]. lra.
    - destruct (IH k ltac:(lia)) as [_ E]. unfold row_err in *.
      rewrite (rsum_ext (S k) (fun i => r i * val (L k i)) (fun i => val (L c i) * val (L k i))) by (intros i Hi; now rewrite R1 by lia).
      rewrite (rsum_ext (S k) (fun i => Rabs (r i) * Rabs (val (L k i))) (fun i => Rabs (val (L c i)) * Rabs (val (L k i)))) by (intros i Hi; now rewrite R1 by lia).
      exact E. }
  pose proof (w_lt (S j) c r ltac:(lia) Hc (good_mono c (S j) ltac:(lia) G) RE) as WX. rewrite rsum_S, R2 in WX.
  assert (0 <= rsum j (fun k => r k * r k)) by (apply rsum_nonneg; intros; apply Rle_0_sqr).
  assert (X1 : Rabs x <= omega).
  { pose proof (i_omega (Ieee := I)) as O1. pose proof (amax_le amax) as O2. specialize (O2 ltac:(pose proof (pos_INR n); pose proof (Rmult_le_pos _ _ (pos_INR n) He); lra) n ltac:(lia)).
    pose proof (g1_pos (I := I) (S n)) as O3. assert (amax <= omega) by (pose proof (Rmult_le_compat_l amax _ _ ltac:(lra) O3); lra).
    destruct (Rle_dec (Rabs x) 1) as [Le|Gt]; [lra|]. assert (XX : Rabs x * 1 <= Rabs x * Rabs x) by (apply Rmult_le_compat_l; [apply Rabs_pos|lra]).
    replace (Rabs x * Rabs x) with (x * x) in XX by (rewrite <- Rabs_mult; symmetry; apply Rabs_pos_eq, Rle_0_sqr). lra. }
  unfold offrec in HOf. fold s in HOf.
  assert (FC : fin (L c j)). { rewrite HOf. apply i_div_fin; auto. lra. }
  split; [exact FC|].
  pose proof (row_ieee (I := I) j (A c j) (L j j) (L c) (L j)) as RI. cbv beta zeta in RI. fold s in RI. rewrite <- HOf in RI.
  destruct (RI (SA c j Hc ltac:(lia)) FC FL) as (_ & _ & _ & d' & m' & e' & Pd & Pm & Be' & E').
  unfold row_err. rewrite !rsum_S. change (a c j) with (val (A c j)).
  replace (val (A c j)) with (d' * val (L c j) + rsum j (fun k => m' k * val (L j k)) - e') by lra.
  replace (d' * val (L c j) + rsum j (fun k => m' k * val (L j k)) - e' - (rsum j (fun k => val (L c k) * val (L j k)) + val (L c j) * val (L j j)))
    with ((d' * val (L c j) - val (L c j) * val (L j j)) + (rsum j (fun k => m' k * val (L j k)) - rsum j (fun k => val (L c k) * val (L j k))) + - e') by ring.
  rewrite (rsum_ext j (fun k => Rabs (val (L c k)) * Rabs (val (L j k))) (fun k => Rabs (val (L c k) * val (L j k)))) by (intros i Hi; now rewrite Rabs_mult).
  assert (E1 : Rabs (d' * val (L c j) - val (L c j) * val (L j j)) <= g * (Rabs (val (L c j)) * Rabs (val (L j j)))).
  { rewrite <- Rabs_mult. destruct Pd as (t & Nt & ->). replace (val (L j j) * t * val (L c j)) with (val (L c j) * val (L j j) * t) by ring.
    eapply Rle_trans; [apply (near_err Hu (S j)); auto|]. apply Rmult_le_compat_r; [apply Rabs_pos|]. apply (gamma_mono Hu). lia. }
  assert (E2 : Rabs (rsum j (fun k => m' k * val (L j k)) - rsum j (fun k => val (L c k) * val (L j k))) <= g * rsum j (fun k => Rabs (val (L c k) * val (L j k)))).
  { apply (pert_sum (AX := AX)). intros i Hi. destruct (Pm i Hi) as (t & Nt & ->). exists t. split; [|ring]. apply (near_mono Hu j); [lia|auto]. }
  assert (E3 : Rabs (- e') <= theta * (q c * q j)).
  { rewrite Rabs_Ropp. eapply Rle_trans; [exact Be'|]. rewrite Rabs_pos_eq by lra. apply under_le; try lia. lra. }
  eapply Rle_trans; [apply Rabs_triang|]. eapply Rle_trans; [apply Rplus_le_compat_r, Rabs_triang|]. lra.
Qed.
Lemma entries c : (c < n)%nat -> good c -> (forall j, (j < c)%nat -> offrec A L c j) ->
  forall j, (j < c)%nat -> fin (L c j) /\ row_err c (fun k => val (L c k)) j.
Proof.
  intros Hc G HOf j. induction j as [j IH] using lt_wf_ind. intros Hj. apply entry_step; auto. intros k Hk. apply IH; lia.
Qed.
(** The pivot is finite and positive. *)
Lemma pivot_step c : (c < n)%nat -> good c -> (forall j, (j < c)%nat -> offrec A L c j) -> fin (pivot A L c) /\ 0 < val (pivot A L c).
Proof.
  intros Hc G HOf. pose proof (entries c Hc G HOf) as HR.
  assert (EP : pivot A L c = ssub c (A c c) (fun k => mul (L c k) (L c k))) by (unfold pivot; apply ssub_ext; intros; apply i_pow2).
  rewrite EP. destruct (HA c c Hc ltac:(lia)) as [FA BA]. destruct (adiag c Hc) as [Pc Mc].
  pose proof (w_lt c c (fun k => val (L c k)) ltac:(lia) Hc G (fun k Hk => proj2 (HR k Hk))) as W.
  pose proof (short_row c c (fun k => val (L c k)) ltac:(lia) Hc G (fun k Hk => proj2 (HR k Hk))) as SR.
  pose proof (le_INR c n ltac:(lia)) as LN. pose proof (Rmult_le_compat_r eta _ _ He LN) as LE.
  assert (P0 : 0 <= INR c * eta) by (apply Rmult_le_pos; [apply pos_INR|exact He]).
  assert (SQ : rsum c (fun k => Rabs (val (L c k) * val (L c k))) = rsum c (fun k => val (L c k) * val (L c k))).
  { apply rsum_ext. intros. apply Rabs_pos_eq, Rle_0_sqr. }
  assert (S0 : 0 <= rsum c (fun k => val (L c k) * val (L c k))) by (apply rsum_nonneg; intros; apply Rle_0_sqr).
  destruct (ssub_fin c (A c c) (L c) (L c) (SA c c Hc Hc) FA) as [Fs _].
  { intros k Hk. split; now apply HR. }
  { apply amax_le; [|lia]. rewrite SQ. pose proof (Rabs_pos (val (A c c))). split; [lra|]. change (val (A c c)) with (a c c). lra. }
  split; [exact Fs|].
  destruct (sums_ieee (I := I) c (A c c) (L c) (L c) (SA c c Hc Hc) Fs) as (_ & _ & ts & l' & e & Nts & Pl & Be & Ea).
  pose proof (near_pos Hu _ _ Nts) as Pts.
  assert (E2 : rsum c (fun k => l' k * val (L c k)) <= (1 + g) * rsum c (fun k => val (L c k) * val (L c k))).
  { rewrite <- rsum_scal. apply rsum_le. intros k Hk. destruct (Pl k Hk) as (t & Nt & ->).
    replace (val (L c k) * t * val (L c k)) with (t * (val (L c k) * val (L c k))) by ring. apply Rmult_le_compat_r; [apply Rle_0_sqr|].
    apply Rle_trans with (Rabs t); [apply Rle_abs|]. eapply Rle_trans; [apply (near_le (I := I)); exact Nt|]. apply (g_mono (I := I)). lia. }
  assert (E3 : Rabs e <= theta * a c c).
  { eapply Rle_trans; [exact Be|]. rewrite <- (mq_sq n a g theta sg_pos Hg T0 HM c Hc). eapply Rle_trans; [|apply (under_le c c 0 c c); try lia; pose proof (sqrt_pos (a c c)); unfold q; lra].
    rewrite Rplus_0_r. apply Rmult_le_compat_l; auto. apply (g_mono (I := I)). lia. }
  set (p := val (ssub c (A c c) (fun k => mul (L c k) (L c k)))) in *. change (val (A c c)) with (a c c) in Ea.
  pose proof (Rle_abs e). assert (PT : 0 < p * ts) by lra.
  apply Rmult_lt_reg_r with ts; auto. lra.
Qed.
(** The factor is complete up to row c. *)
Lemma diag_step c : (c < n)%nat -> good c -> rowrec A L c -> good (S c).
Proof.
  intros Hc G [HOf [NB E]]. destruct (pivot_step c Hc G HOf) as [Fp Pp].
  assert (FL : fin (L c c)) by (rewrite E; apply i_sqrt_fin; auto; lra).
  assert (F : factored (S c) A L).
  { intros i Hi. destruct (Nat.eq_dec i c) as [->|Ne]; [split; [auto|split; auto]|]. apply (proj1 G). lia. }
  assert (Fd : forall i, (i < S c)%nat -> fin (L i i)).
  { intros i Hi. destruct (Nat.eq_dec i c) as [->|Ne]; auto. apply (proj2 G). lia. }
  split; auto. intros i Hi. split; auto. destruct (Nat.eq_dec i c) as [->|Ne]; [|apply (proj2 G); lia].
  destruct (chol_fin (I := I) (S c) A L (set_mono (S c) Hc) F Fd c c ltac:(lia) ltac:(lia)) as (_ & _ & PL).
  pose proof (chol_product_ieee (I := I) (S c) A L c c (set_mono (S c) Hc) F Fd ltac:(lia) ltac:(lia)) as B. rewrite Rabs_pos_eq with (x := val (L c c)) in B by lra.
  destruct (adiag c Hc) as [Pc _]. pose proof sg_pos as G0. pose proof (g_theta n a g theta sg_pos Hg T0 HM c Hc) as GT.
  assert (Ea : mprod (S c) (mabs (lof (vm L))) (fun a b => mabs (lof (vm L)) b a) c c = mprod (S c) (lof (vm L)) (fun a b => lof (vm L) b a) c c).
  { apply rsum_ext. intros k Hk. unfold mabs. rewrite <- Rabs_mult. apply Rabs_pos_eq, Rle_0_sqr. }
  rewrite Ea in B. change (val (A c c)) with (a c c) in B.
  assert (P1 : val (L c c) * val (L c c) <= mprod (S c) (lof (vm L)) (fun a b => lof (vm L) b a) c c).
  { unfold mprod. rewrite rsum_S. assert (0 <= rsum c (fun k => lof (vm L) c k * lof (vm L) c k)) by (apply rsum_nonneg; intros; apply Rle_0_sqr).
    replace (lof (vm L) c c) with (val (L c c)) by (unfold lof; now rewrite Nat.leb_refl). lra. }
  set (P := mprod (S c) (lof (vm L)) (fun a b => lof (vm L) b a) c c) in *. set (x := val (L c c)) in *.
  pose proof (gamma_mono Hu (S (S c)) (S n) ltac:(lia)) as GM. fold g in GM.
  assert (P2 : gamma u (S (S c)) * P <= g * P). { apply Rmult_le_compat_r; auto. pose proof (Rle_0_sqr x). unfold Rsqr in *. lra. }
  destruct (Rle_dec x (2 * q c)) as [Le|Gt]; auto. exfalso. assert (Gt' : 2 * q c < x) by lra. clear Gt.
  pose proof (mq_sq n a g theta sg_pos Hg T0 HM c Hc) as QQ. fold (q c) in QQ.
  assert (Q0 : 0 < q c) by (apply sqrt_lt_R0; auto).
  (* (n + x) eta' <= theta q x / 2 *)
  assert (U : (INR (S c) + x) * eta * (1 + gamma u (S (S c))) <= theta * (q c * x) / 2).
  { pose proof (HE c c Hc Hc) as H0. set (ee := eta * (1 + g)).
    assert (E0 : 0 <= ee) by (apply Rmult_le_pos; auto; lra).
    assert (H1 : (INR n + 2 * q c) * ee <= theta * (q c * q c)) by (unfold ee; lra).
    assert (H2 : (INR (S c) + x) * eta * (1 + gamma u (S (S c))) <= (INR n + x) * ee).
    { unfold ee. rewrite <- Rmult_assoc. pose proof (le_INR (S c) n ltac:(lia)). pose proof (pos_INR (S c)). apply Rmult_le_compat.
      - apply Rmult_le_pos; auto. lra.
      - pose proof (g1_pos (I := I) (S (S c))). lra.
      - apply Rmult_le_compat_r; auto. lra.
      - lra. }
    eapply Rle_trans; [exact H2|]. apply Rmult_le_reg_l with (2 * q c); [lra|].
    apply Rle_trans with (x * ((INR n + 2 * q c) * ee)).
    - pose proof (pos_INR n) as N0. assert (INR n * ee * (2 * q c) <= INR n * ee * x) by (apply Rmult_le_compat_l; [apply Rmult_le_pos; auto|lra]). lra.
    - apply Rle_trans with (x * (theta * (q c * q c))); [apply Rmult_le_compat_l; lra|]. right. field. }
  assert (U2 : theta * (q c * x) / 2 <= theta * (x * x) / 4).
  { assert (theta * (q c * x) <= theta * (x / 2 * x)) by (apply Rmult_le_compat_l; auto; apply Rmult_le_compat_r; lra). lra. }
  assert (AA : a c c <= x * x / 4). { assert (Q4 : q c * q c <= x / 2 * (x / 2)) by (apply Rmult_le_compat; lra). unfold q in Q4. lra. }
  apply abs_between in B. destruct B as [B _].
  assert (X2 : 0 < x * x) by (apply Rmult_lt_0_compat; lra).
  assert (P3 : P * (1 - g) <= x * x / 4 + theta * (x * x) / 4) by lra.
  assert (P4 : x * x * (1 - g) <= P * (1 - g)) by (apply Rmult_le_compat_r; lra).
  assert (x * x * (1 - g) <= x * x * ((1 + theta) / 4)) by lra. apply Rmult_le_reg_l in H; auto. lra.
Qed.
Lemma rows_good c : (c <= n)%nat -> (forall i, (i < c)%nat -> rowrec A L i) -> good c.
Proof.
  induction c as [|c IH]; intros Hc HR; [split; [intros i Hi; lia|intros; lia]|]. apply diag_step; [lia| |apply HR; lia].
  apply IH; [lia|]. intros; apply HR; lia.
Qed.
(** No row fails, and a complete factor has a good diagonal. *)
Lemma never_failed c : failed n A L c -> False.
Proof.
  intros (Hc & R1 & R2 & _ & B & _). destruct (pivot_step c Hc (rows_good c ltac:(lia) R1) R2) as [Fp Pp].
  destruct (i_zero (Ieee := I)) as [F0 V0]. 
  destruct B as [B|B]; [apply (proj1 (i_eqb (Ieee := I) _ _ Fp F0)) in B|apply (proj1 (i_ltb (Ieee := I) _ _ Fp F0)) in B]; rewrite V0 in B; lra.
Qed.
Lemma factored_good : factored n A L -> forall i, (i < n)%nat -> fin (L i i) /\ 0 < val (L i i) <= 2 * q i.
Proof.
  intros F i Hi. pose proof (rows_good n ltac:(lia) F) as G. destruct (proj2 G i Hi) as [F1 F2]. split; auto. split; auto. now apply (good_pos n).
Qed.
Lemma factored_growth : factored n A L -> forall i j, (i < n)%nat -> (j < n)%nat ->
  mprod n (mabs (lof (vm L))) (fun a b => mabs (lof (vm L)) b a) i j <= 2 * (q i * q j).
Proof.
  intros F i j Hi Hj. pose proof (rows_good n ltac:(lia) F) as G.
  pose proof (Pa_le n a g theta sg_pos Hg T0 HM n (vm L) ltac:(lia) (block_err n ltac:(lia) G) i j Hi Hj) as B.
  eapply Rle_trans; [exact B|]. apply Rmult_le_compat_r; [apply Rmult_le_pos; apply sqrt_pos|].
  pose proof (g_theta n a g theta sg_pos Hg T0 HM i Hi) as GT. pose proof sg_pos as G0.
  apply Rmult_le_reg_r with (1 - g); [lra|]. unfold Rdiv. rewrite Rmult_assoc, Rinv_l by lra. lra.
Qed.
End Success.
