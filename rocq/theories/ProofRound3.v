(** * Cholesky factorisation in rounded arithmetic never fails on sufficiently definite matrices *)
From Coq Require Import Reals Lra Lia Field.
From Verif Require Import Base Scalar Spec Sums RealVec SpecRound Rounding ModelSolvers ProofChol ProofCholSolve ProofCholMath ProofRound.
Local Open Scope R_scope.
Local Notation rsum := (@bsum R ROps).

Lemma rsum_le n f g : (forall i, (i < n)%nat -> f i <= g i) -> rsum n f <= rsum n g.
Proof.
  induction n as [|n IH]; intros H; [right; reflexivity|]. rewrite !rsum_S.
  pose proof (H n ltac:(lia)). assert (rsum n f <= rsum n g) by (apply IH; intros; apply H; lia). lra.
Qed.
Lemma rsum_Rabs n f : Rabs (rsum n f) <= rsum n (fun i => Rabs (f i)).
Proof.
  induction n as [|n IH]; [cbn; rewrite Rabs_R0; lra|]. rewrite !rsum_S. eapply Rle_trans; [apply Rabs_triang|]. lra.
Qed.
Lemma rsum_swap n m f : rsum n (fun i => rsum m (fun j => f i j)) = rsum m (fun j => rsum n (fun i => f i j)).
Proof. exact (bsum_swap (O := ROps) n m f). Qed.
Lemma rsum_scal_r n c f : rsum n (fun i => f i * c) = rsum n f * c.
Proof. exact (bsum_scal_r (O := ROps) n c f). Qed.
Lemma rsum_nonneg n f : (forall i, (i < n)%nat -> 0 <= f i) -> 0 <= rsum n f.
Proof. intros H. rewrite <- (rsum_zero n (fun _ => 0)) by auto. now apply rsum_le. Qed.

(** (x_1 + ... + x_n)^2 <= n (x_1^2 + ... + x_n^2) *)
Lemma sum_sq n (f : nat -> R) : rsum n f * rsum n f <= INR n * rsum n (fun i => f i * f i).
Proof.
  pose proof (cauchy_schwarz_sq n (fun _ => 1) f) as C. unfold dotp in C.
  rewrite (rsum_ext n (fun i => @mul R ROps 1 (f i)) f) in C by (intros; cbn; ring).
  assert (E : rsum n (fun _ => @mul R ROps 1 1) = INR n).
  { clear. induction n as [|n IH]; [reflexivity|]. rewrite rsum_S, S_INR, IH. cbn. lra. }
  rewrite E in C. exact C.
Qed.

(** Upper triangular systems have a solution. *)
Lemma upper_solvable n (M : nat -> nat -> R) b : (forall i, (i < n)%nat -> M i i <> 0) ->
  (forall i j, (i < n)%nat -> (j < i)%nat -> M i j = 0) ->
  exists z, forall i, (i < n)%nat -> rsum n (fun j => M i j * z j) = b i.
Proof.
  revert b; induction n as [|n IH]; intros b Hd Hu; [exists (fun _ => 0); intros; lia|].
  destruct (IH (fun i => b i - M i n * (b n / M n n))) as (z & Hz).
  { intros; apply Hd; lia. } { intros; apply Hu; lia. }
  exists (fun j => if Nat.eqb j n then b n / M n n else z j). intros i Hi. rewrite rsum_S, Nat.eqb_refl.
  rewrite (rsum_ext n _ (fun j => M i j * z j)) by (intros j Hj; destruct (Nat.eqb_spec j n); [lia|reflexivity]).
  destruct (Nat.eq_dec i n) as [->|Ne].
  - rewrite rsum_zero by (intros j Hj; rewrite Hu by lia; ring). field. apply Hd. lia.
  - rewrite Hz by lia. ring.
Qed.

Section Demmel.
Context {O : Ops R} {u : R} {AX : Approx O u}.
Let Hu : 0 <= u < 1 := u_range.
Context (n : nat) (A L : nat -> nat -> R) (c : nat).
Let g := gamma u (S n).
Let kappa := g / (1 - g).
Context (Hg : g < 1) (Hc : (c < n)%nat).
Context (HR : forall i, (i < c)%nat -> rowrec A L i) (HO : forall j, (j < c)%nat -> offrec A L c j) (HB : bad (pivot A L c)).
Context (HM : pos_def_margin u (S n) n (symf A)).

Lemma HFc : factored c A L.
Proof. exact HR. Qed.
Lemma g_pos : 0 <= g.
Proof. apply (gamma_pos Hu). Qed.
Lemma kappa_pos : 0 <= kappa.
Proof. pose proof g_pos. unfold kappa, Rdiv. apply Rmult_le_pos; auto. left. apply Rinv_0_lt_compat. lra. Qed.
Lemma inv1g : 0 < / (1 - g).
Proof. apply Rinv_0_lt_compat. lra. Qed.
Lemma gc_le : gamma u (S c) <= g.
Proof. apply (gamma_mono Hu). lia. Qed.
Lemma kappa_c : gamma u (S c) / (1 - gamma u (S c)) <= kappa.
Proof.
  pose proof gc_le. pose proof (gamma_pos Hu (S c)) as G0. unfold kappa, Rdiv. apply Rmult_le_compat; auto.
  - left. apply Rinv_0_lt_compat. lra.
  - apply Rinv_le_contravar; lra.
Qed.

(** The diagonal is positive. *)
Lemma unit_quad i : (i < n)%nat -> rsum n (fun a => (if Nat.eqb a i then 1 else 0) * @mvmul R ROps n (symf A) (fun b => if Nat.eqb b i then 1 else 0) a) = A i i.
Proof.
  intros Hi. rewrite (bsum_single (O := ROps) n _ i) by first [assumption | intros k Hk Ne; destruct (Nat.eqb_spec k i); [lia|cbn; ring]].
  rewrite Nat.eqb_refl. unfold mvmul.
  rewrite (bsum_single (O := ROps) n _ i) by first [assumption | intros k Hk Ne; destruct (Nat.eqb_spec k i); [lia|cbn; ring]].
  rewrite Nat.eqb_refl. unfold symf. rewrite Nat.leb_refl. cbn. ring.
Qed.
Lemma unit_diag i : (i < n)%nat -> rsum n (fun a => Rabs (symf A a a) * ((if Nat.eqb a i then 1 else 0) * (if Nat.eqb a i then 1 else 0))) = Rabs (A i i).
Proof.
  intros Hi. rewrite (bsum_single (O := ROps) n _ i) by first [assumption | intros k Hk Ne; destruct (Nat.eqb_spec k i); [lia|cbn; ring]].
  rewrite Nat.eqb_refl. unfold symf. rewrite Nat.leb_refl. ring.
Qed.
Lemma diag_A i : (i < n)%nat -> 0 < A i i /\ INR n * kappa < 1.
Proof.
  intros Hi. pose proof (HM (fun b => if Nat.eqb b i then 1 else 0)) as H.
  specialize (H ltac:(exists i; rewrite Nat.eqb_refl; split; auto; lra)). cbv beta in H.
  rewrite unit_quad, unit_diag in H by auto. fold g kappa in H.
  pose proof kappa_pos as K. pose proof (pos_INR n) as P. pose proof (Rabs_pos (A i i)) as B.
  assert (0 <= INR n * kappa * Rabs (A i i)) by (apply Rmult_le_pos; auto; apply Rmult_le_pos; auto).
  assert (D : 0 < A i i) by lra. split; auto. rewrite Rabs_pos_eq in H by lra. nra.
Qed.

Let q i := sqrt (A i i).
Lemma q_pos i : 0 <= q i.
Proof. apply sqrt_pos. Qed.
Lemma q_sq i : (i < n)%nat -> q i * q i = A i i.
Proof. intros Hi. apply sqrt_sqrt. left. apply (diag_A i Hi). Qed.

Let P i j := mprod c (lof L) (fun a b => lof L b a) i j.
Lemma E1 i j : (i < c)%nat -> (j < c)%nat -> Rabs (symf A i j - P i j) <= kappa * (q i * q j).
Proof.
  intros Hi Hj. pose proof gc_le as Gc.
  eapply Rle_trans; [apply (chol_product_round c A L HFc i j Hi Hj)|].
  eapply Rle_trans; [apply Rmult_le_compat_l; [apply (gamma_pos Hu)|]; apply (chol_abs_bound c A L i j HFc Hi Hj); lra|].
  replace (gamma u (S c) * (sqrt (A i i) * sqrt (A j j) / (1 - gamma u (S c)))) with (gamma u (S c) / (1 - gamma u (S c)) * (q i * q j)) by (unfold q, Rdiv; ring).
  apply Rmult_le_compat_r; [apply Rmult_le_pos; apply q_pos|apply kappa_c].
Qed.

Let w := rsum c (fun k => L c k * L c k).
Lemma w_pos : 0 <= w.
Proof. apply rsum_nonneg. intros. apply Rle_0_sqr. Qed.

Lemma E2 j : (j < c)%nat ->
  Rabs (A c j - rsum c (fun k => L c k * lof L j k)) <= g * rsum c (fun k => Rabs (L c k) * Rabs (lof L j k)).
Proof.
  intros Hj. pose proof (HO j Hj) as Ho. unfold offrec in Ho.
  assert (Pj : 0 < L j j) by (apply (diag_pos A); apply HR; auto).
  destruct (row_back j (A c j) (L j j) (L c) (L j)) as (d' & l' & Pd & Pl & E); [lra|]. rewrite <- Ho in E.
  assert (S1 : forall F : R -> R -> R, (forall x, F x 0 = 0) -> rsum c (fun k => F (L c k) (lof L j k)) = rsum j (fun k => F (L c k) (L j k)) + F (L c j) (L j j)).
  { intros F F0. rewrite (rsum_split c (S j)) by lia. rewrite rsum_S. rewrite (rsum_zero (c - S j)).
    - rewrite Rplus_0_r. f_equal.
      + apply rsum_ext. intros k Hk. unfold lof. destruct (Nat.leb_spec k j); [reflexivity|lia].
      + unfold lof. now rewrite Nat.leb_refl.
    - intros k Hk. unfold lof. destruct (Nat.leb_spec (S j + k) j); [lia|]. apply F0. }
  rewrite (S1 (fun x y => x * y)) by (intros; ring). rewrite (S1 (fun x y => Rabs x * Rabs y)) by (intros; rewrite Rabs_R0; ring).
  replace (A c j - (rsum j (fun k => L c k * L j k) + L c j * L j j))
    with ((rsum j (fun k => l' k * L j k) - rsum j (fun k => L c k * L j k)) + (L c j * d' - L c j * L j j)) by (rewrite <- E; ring).
  eapply Rle_trans; [apply Rabs_triang|]. rewrite Rmult_plus_distr_l. apply Rplus_le_compat.
  - rewrite (rsum_ext j (fun k => Rabs (L c k) * Rabs (L j k)) (fun k => Rabs (L c k * L j k))) by (intros; now rewrite Rabs_mult).
    apply pert_sum. intros k Hk. replace (S n) with (S n + 0)%nat by lia. apply pert_mul; [|apply pert_refl].
    apply (pert_mono j); [lia|]. auto.
  - rewrite <- Rabs_mult. apply pert_close. replace (S n) with (0 + S n)%nat by lia. apply pert_mul; [apply pert_refl|].
    apply (pert_mono (S j)); [lia|auto].
Qed.

Lemma E3 : A c c <= (1 + g) * w.
Proof.
  destruct (ssub_back c (A c c) (fun k => pow2 (L c k))) as (T & t & NT & Nt & Ea).
  destruct (fin_choice c (fun k m => near u 1 m /\ pow2 (L c k) = L c k * L c k * m) 1) as (m & Hm).
  { intros k _. apply pow2_near. }
  fold (pivot A L c) in Ea. apply bad_A in HB. pose proof (near_pos Hu _ _ NT) as PT.
  assert (HT : pivot A L c * T <= 0) by nra.
  assert (B : Rabs (rsum c (fun k => pow2 (L c k) * t k) - w) <= g * rsum c (fun k => Rabs (L c k * L c k))).
  { apply pert_sum. intros k Hk. destruct (Hm k Hk) as [N1 ->]. exists (m k * t k). split; [|ring].
    apply (near_mono Hu (1 + k)); [lia|]. apply (near_mul Hu); auto. }
  rewrite (rsum_ext c (fun k => Rabs (L c k * L c k)) (fun k => L c k * L c k)) in B by (intros; apply Rabs_pos_eq, Rle_0_sqr).
  fold w in B. unfold Rabs in B. destruct (Rcase_abs _) in B; lra.
Qed.

Let a' := Rmax (A c c) ((1 - g) * w).
Let q' := sqrt a'.
Lemma a'_pos : 0 < a'.
Proof. eapply Rlt_le_trans; [apply (diag_A c Hc)|apply Rmax_l]. Qed.
Lemma q'_sq : q' * q' = a'.
Proof. apply sqrt_sqrt. left. apply a'_pos. Qed.
Lemma w_le : w <= a' / (1 - g).
Proof.
  apply Rmult_le_reg_r with (1 - g); [lra|]. unfold Rdiv. rewrite Rmult_assoc, Rinv_l by lra.
  pose proof (Rmax_r (A c c) ((1 - g) * w)) as M. fold a' in M. lra.
Qed.
Lemma a'_w : a' - w <= kappa * (q' * q').
Proof.
  rewrite q'_sq. pose proof kappa_pos as K. pose proof a'_pos as Pa. pose proof E3. pose proof w_pos as Pw. pose proof g_pos.
  assert (0 <= kappa * a') by (apply Rmult_le_pos; lra).
  destruct (Rle_dec (A c c) ((1 - g) * w)) as [Le|Gt].
  - assert (E : a' = (1 - g) * w) by (unfold a'; now apply Rmax_right). rewrite E in *. nra.
  - assert (E : a' = A c c) by (unfold a'; apply Rmax_left; lra). rewrite E in *.
    assert (g * w <= kappa * A c c); [|lra]. unfold kappa, Rdiv. pose proof inv1g as I.
    replace (g * / (1 - g) * A c c) with (g * (A c c * / (1 - g))) by ring. apply Rmult_le_compat_l; auto.
    pose proof w_le as W. rewrite E in W. exact W.
Qed.

Lemma E2' j : (j < c)%nat -> Rabs (A c j - rsum c (fun k => L c k * lof L j k)) <= kappa * (q' * q j).
Proof.
  intros Hj. eapply Rle_trans; [apply E2; auto|].
  replace (kappa * (q' * q j)) with (g * (q' * q j / (1 - g))) by (unfold kappa, Rdiv; ring).
  apply Rmult_le_compat_l; [apply g_pos|].
  pose proof (cauchy_schwarz c (fun k => Rabs (L c k)) (mabs (lof L) j)) as CS.
  eapply Rle_trans; [apply Rle_abs|]. eapply Rle_trans; [exact CS|].
  assert (N1 : nrm c (fun k => Rabs (L c k)) <= sqrt (a' / (1 - g))).
  { apply sqrt_le_1_alt. eapply Rle_trans; [|exact w_le]. right. apply rsum_ext. intros k Hk. cbn [mul ROps].
    rewrite <- Rabs_mult. apply Rabs_pos_eq, Rle_0_sqr. }
  assert (N2 : nrm c (mabs (lof L) j) <= sqrt (A j j / (1 - g))).
  { apply sqrt_le_1_alt. pose proof gc_le as Gc. assert (Gc1 : gamma u (S c) < 1) by lra. pose proof (chol_diag_bound c A L j HFc Hj Gc1) as B.
    eapply Rle_trans; [exact B|]. unfold Rdiv. apply Rmult_le_compat_l; [left; apply (diag_A j); lia|].
    apply Rinv_le_contravar; lra. }
  eapply Rle_trans; [apply Rmult_le_compat; try apply nrm_nonneg; [exact N1|exact N2]|].
  pose proof a'_pos as Pa. pose proof inv1g as I. destruct (diag_A j ltac:(lia)) as [Pj _].
  rewrite <- sqrt_mult by (apply Rmult_le_pos; lra).
  replace (a' / (1 - g) * (A j j / (1 - g))) with ((a' * A j j) * (/ (1 - g) * / (1 - g))) by (unfold Rdiv; ring).
  rewrite sqrt_mult, sqrt_square, sqrt_mult; try lra.
  - right. unfold q', q, Rdiv. ring.
  - apply Rmult_le_pos; lra.
  - apply Rle_0_sqr.
Qed.

Lemma breakdown : False.
Proof.
  destruct (upper_solvable c (fun a b => lof L b a) (L c)) as (z & Hz).
  { intros i Hi. unfold lof. rewrite Nat.leb_refl. apply Rgt_not_eq, (diag_pos A). apply HR; auto. }
  { intros i j Hi Hj. unfold lof. destruct (Nat.leb_spec i j); [lia|reflexivity]. }
  cbv beta in Hz.
  pose (x := fun i => if Nat.ltb i c then - z i else if Nat.eqb i c then 1 else 0).
  assert (X1 : forall i, (i < c)%nat -> x i = - z i) by (intros i Hi; unfold x; destruct (Nat.ltb_spec i c); [auto|lia]).
  assert (X2 : x c = 1) by (unfold x; rewrite Nat.ltb_irrefl, Nat.eqb_refl; auto).
  assert (X3 : forall i, (c < i)%nat -> x i = 0).
  { intros i Hi. unfold x. destruct (Nat.ltb_spec i c); [lia|]. destruct (Nat.eqb_spec i c); [lia|auto]. }
  assert (TR : forall f, (forall i, (c < i)%nat -> f i = 0) -> rsum n f = rsum c f + f c).
  { intros f Hf. rewrite (rsum_split n (S c)) by lia. rewrite (rsum_zero (n - S c)) by (intros; apply Hf; lia). rewrite rsum_S. ring. }
  pose proof (HM x ltac:(exists c; rewrite X2; split; auto; lra)) as H. fold g kappa in H.
  rewrite (TR (fun i => x i * _)) in H by (intros i Hi; rewrite X3 by auto; ring).
  rewrite (TR (fun i => Rabs _ * (x i * x i))) in H by (intros i Hi; rewrite X3 by auto; ring).
  assert (MV : forall i, @mvmul R ROps n (symf A) x i = symf A i c - rsum c (fun j => symf A i j * z j)).
  { intros i. unfold mvmul. rewrite TR by (intros j Hj; rewrite X3 by auto; cbn; ring). rewrite X2. cbn [mul ROps].
    rewrite (rsum_ext c _ (fun j => (-1) * (symf A i j * z j))) by (intros j Hj; rewrite X1 by auto; ring).
    rewrite rsum_scal. ring. }
  rewrite MV, X2 in H. rewrite (rsum_ext c (fun i => x i * _) (fun i => z i * rsum c (fun j => symf A i j * z j) - A c i * z i)) in H.
  2:{ intros i Hi. rewrite MV, X1 by auto. unfold symf at 1. destruct (Nat.leb_spec c i); [lia|]. ring. }
  rewrite rsum_sub in H.
  rewrite (rsum_ext c (fun j => symf A c j * z j) (fun j => A c j * z j)) in H
    by (intros j Hj; unfold symf; destruct (Nat.leb_spec j c); [reflexivity|lia]).
  rewrite (rsum_ext c (fun i => Rabs _ * (x i * x i)) (fun i => (q i * Rabs (z i)) * (q i * Rabs (z i)))) in H.
  2:{ intros i Hi. rewrite X1 by auto. unfold symf. rewrite Nat.leb_refl. destruct (diag_A i ltac:(lia)) as [Pi _].
      rewrite Rabs_pos_eq by lra. rewrite <- (q_sq i) by lia.
      replace (- z i * - z i) with (Rabs (z i) * Rabs (z i)); [ring|]. rewrite <- Rabs_mult, Rabs_pos_eq; [ring|apply Rle_0_sqr]. }
  replace (Rabs (symf A c c) * (1 * 1)) with (A c c) in H
    by (unfold symf; rewrite Nat.leb_refl, Rabs_pos_eq by (left; apply (diag_A c Hc)); ring).
  replace (symf A c c) with (A c c) in H by (unfold symf; now rewrite Nat.leb_refl).
  set (Q1 := rsum c (fun i => z i * rsum c (fun j => symf A i j * z j))) in *.
  set (Q2 := rsum c (fun j => A c j * z j)) in *.
  set (D := rsum c (fun i => q i * Rabs (z i) * (q i * Rabs (z i)))) in *.
  set (s := rsum c (fun i => q i * Rabs (z i))).
  (* the exact parts *)
  assert (W1 : rsum c (fun i => z i * rsum c (fun j => P i j * z j)) = w).
  { etransitivity; [exact (quad_LLt c (lof L) z)|]. apply rsum_ext. intros k Hk.
    replace (@mvmul R ROps c (transp (lof L)) z k) with (L c k); [reflexivity|]. symmetry. apply Hz; auto. }
  assert (W2 : rsum c (fun j => rsum c (fun k => L c k * lof L j k) * z j) = w).
  { rewrite (rsum_ext c _ (fun j => rsum c (fun k => L c k * (lof L j k * z j)))) by (intros; rewrite <- rsum_scal_r; apply rsum_ext; intros; ring).
    rewrite rsum_swap. apply rsum_ext. intros k Hk. now rewrite rsum_scal, Hz. }
  assert (B1 : Rabs (Q1 - w) <= kappa * (s * s)).
  { rewrite <- W1. unfold Q1. rewrite <- rsum_sub. eapply Rle_trans; [apply rsum_Rabs|].
    unfold s at 1. rewrite <- rsum_scal_r, <- rsum_scal. apply rsum_le. intros i Hi.
    replace (z i * rsum c (fun j => symf A i j * z j) - z i * rsum c (fun j => P i j * z j))
      with (z i * rsum c (fun j => (symf A i j - P i j) * z j))
      by (rewrite <- Rmult_minus_distr_l, <- rsum_sub; f_equal; apply rsum_ext; intros; ring).
    rewrite Rabs_mult. replace (kappa * (q i * Rabs (z i) * s)) with (Rabs (z i) * (kappa * q i * s)) by ring.
    apply Rmult_le_compat_l; [apply Rabs_pos|]. eapply Rle_trans; [apply rsum_Rabs|]. unfold s. rewrite <- rsum_scal.
    apply rsum_le. intros j Hj. rewrite Rabs_mult. pose proof (E1 i j Hi Hj) as E. pose proof (Rabs_pos (z j)).
    replace (kappa * q i * (q j * Rabs (z j))) with (kappa * (q i * q j) * Rabs (z j)) by ring. now apply Rmult_le_compat_r. }
  assert (B2 : Rabs (Q2 - w) <= kappa * (q' * s)).
  { rewrite <- W2. unfold Q2. rewrite <- rsum_sub. eapply Rle_trans; [apply rsum_Rabs|]. unfold s.
    replace (kappa * (q' * rsum c (fun i => q i * Rabs (z i)))) with (kappa * q' * rsum c (fun i => q i * Rabs (z i))) by ring.
    rewrite <- rsum_scal. apply rsum_le. intros j Hj. rewrite <- Rmult_minus_distr_r, Rabs_mult.
    replace (kappa * q' * (q j * Rabs (z j))) with (kappa * (q' * q j) * Rabs (z j)) by ring.
    apply Rmult_le_compat_r; [apply Rabs_pos|]. now apply E2'. }
  (* the bound from above *)
  assert (UB : Q1 - 2 * Q2 + a' <= kappa * ((s + q') * (s + q'))).
  { pose proof a'_w as B3. pose proof (Rle_abs (Q1 - w)). pose proof (Rle_abs (- (Q2 - w))) as B4. rewrite Rabs_Ropp in B4. lra. }
  assert (SQ : (s + q') * (s + q') <= INR n * (D + a')).
  { pose proof (sum_sq (S c) (fun i => if Nat.eqb i c then q' else q i * Rabs (z i))) as S. rewrite !rsum_S, Nat.eqb_refl, q'_sq in S.
    rewrite (rsum_ext c _ (fun i => q i * Rabs (z i))) in S by (intros i Hi; destruct (Nat.eqb_spec i c); [lia|reflexivity]).
    rewrite (rsum_ext c (fun i => (if Nat.eqb i c then q' else q i * Rabs (z i)) * (if Nat.eqb i c then q' else q i * Rabs (z i))) (fun i => q i * Rabs (z i) * (q i * Rabs (z i)))) in S by (intros i Hi; destruct (Nat.eqb_spec i c); [lia|reflexivity]).
    fold s D in S. eapply Rle_trans; [exact S|]. apply Rmult_le_compat_r; [|apply le_INR; lia].
    pose proof a'_pos. assert (0 <= D) by (apply rsum_nonneg; intros; apply Rle_0_sqr). lra. }
  destruct (diag_A c Hc) as [Pc Lam]. pose proof (Rmax_l (A c c) ((1 - g) * w)) as Ma. fold a' in Ma.
  assert (K1 : kappa * ((s + q') * (s + q')) <= INR n * kappa * (D + a')).
  { replace (INR n * kappa * (D + a')) with (kappa * (INR n * (D + a'))) by ring. apply Rmult_le_compat_l; [apply kappa_pos|auto]. }
  assert (K2 : INR n * kappa * (a' - A c c) <= a' - A c c).
  { rewrite <- (Rmult_1_l (a' - A c c)) at 2. apply Rmult_le_compat_r; lra. }
  lra.
Qed.
End Demmel.
