(** * Rounding errors in IEEE arithmetic: sums, products, substitution, factorisations

    The recurrences proved bit for bit elsewhere, read with operators that satisfy [Ieee]: a finite
    result means that everything it was computed from was finite, and it satisfies the bounds of
    ProofRound.v up to a multiple of [eta]. *)
From Coq Require Import Reals Lra Lia Field.
From Verif Require Import Base Scalar Spec Sums RealVec SpecRound Rounding SpecIeee ModelSolvers ProofVec ProofChol ProofCholSolve ProofCholMath
  ProofIlu ProofRound.
Local Open Scope R_scope.
Local Notation rsum := (@bsum R ROps).

Lemma abs_between x y : Rabs x <= y -> - y <= x <= y.
Proof. unfold Rabs. destruct (Rcase_abs x); lra. Qed.

(** A relative and an absolute error. *)
Lemma rel_abs_near u eta p v : 0 <= u < 1 -> 0 <= eta -> Rabs (v - p) <= u * Rabs p + eta ->
  exists t e, near u 1 t /\ Rabs e <= eta /\ v = p * t + e.
Proof.
  intros Hu He H. assert (U : 0 <= u * Rabs p) by (apply Rmult_le_pos; [lra|apply Rabs_pos]).
  assert (K : forall w, Rabs (w - p) <= u * Rabs p -> Rabs (v - w) <= eta -> exists t e, near u 1 t /\ Rabs e <= eta /\ v = p * t + e).
  { intros w W1 W2. destruct (rel_near Hu p w W1) as (t & Nt & E). exists t, (v - w). split; auto. split; auto. rewrite <- E. ring. }
  destruct (Rle_dec (Rabs (v - p)) (u * Rabs p)) as [L|G].
  - apply (K v L). rewrite Rminus_eq_0, Rabs_R0. auto.
  - apply Rnot_le_lt in G. unfold Rabs in G at 2. unfold Rabs in H at 1. destruct (Rcase_abs (v - p)) as [C|C].
    + apply (K (p - u * Rabs p)).
      * replace (p - u * Rabs p - p) with (- (u * Rabs p)) by ring. rewrite Rabs_Ropp, Rabs_pos_eq; lra.
      * unfold Rabs at 1. destruct (Rcase_abs (v - (p - u * Rabs p))); lra.
    + apply (K (p + u * Rabs p)).
      * replace (p + u * Rabs p - p) with (u * Rabs p) by ring. rewrite Rabs_pos_eq; lra.
      * unfold Rabs at 1. destruct (Rcase_abs (v - (p + u * Rabs p))); lra.
Qed.

Section Ieee.
Context {T : Type} {Op : Ops T} {val : T -> R} {fin : T -> Prop} {prd : T -> T -> T -> Prop} {u eta omega : R} {I : Ieee Op val fin prd u eta omega}.
Let Hu : 0 <= u < 1 := i_range (Ieee := I).
Let He : 0 <= eta := i_eta (Ieee := I).

(** Exact arithmetic also satisfies the rounding model with this [u], so the lemmas about
    perturbed matrices apply. *)
Lemma exact_u : Approx ROps u.
Proof.
  constructor; intros; cbn; auto;
    try (rewrite Rminus_eq_0, Rabs_R0; apply Rmult_le_pos; [lra|]; first [apply Rabs_pos|apply sqrt_pos|apply Rle_0_sqr]).
  - destruct (Req_EM_T x y); split; auto; discriminate.
  - destruct (Rlt_dec x y); split; auto; discriminate.
Qed.
Let AX : Approx ROps u := exact_u.
Local Notation pert := (pert (u := u)).
Local Notation mpert := (mpert (u := u)).

(** ** Single operations *)
Local Notation see := (seen val fin prd u eta).
Lemma see_fin x : fin x -> see x (val x).
Proof. now left. Qed.
Lemma see_settled x w : settled prd x -> see x w -> fin x /\ w = val x.
Proof. intros H [S|(p & q & B & _)]; auto. destruct (H p q B). Qed.
Lemma see_add x y w : see (add x y) w -> fin (add x y) /\ w = val (add x y).
Proof. apply see_settled. apply (i_settled (Ieee := I)). Qed.
Lemma see_sub x y w : see (sub x y) w -> fin (sub x y) /\ w = val (sub x y).
Proof. apply see_settled. apply (i_settled (Ieee := I)). Qed.
Lemma see_div x y w : see (div x y) w -> fin (div x y) /\ w = val (div x y).
Proof. apply see_settled. apply (i_settled (Ieee := I)). Qed.
Lemma see_zero w : see zero w -> w = 0.
Proof. intros H. apply see_settled in H as [_ ->]; apply I. Qed.
Lemma see_mul x y w : see (mul x y) w -> fin x /\ fin y /\ prod_like val fin u eta x y w.
Proof.
  intros [[F ->]|(p & q & B & H)].
  - destruct (i_mul _ _ F) as (Fx & Fy & E). split; auto. split; auto. split; auto. split; [now apply i_mul_sign|].
    intros z Fz Ez. now apply i_mul_exact.
  - apply i_prd in B as [-> ->]. exact H.
Qed.
Lemma see_mul_ieee x y w : see (mul x y) w -> fin x /\ fin y /\ exists t e, near u 1 t /\ Rabs e <= eta /\ w = val x * val y * t + e.
Proof. intros S. destruct (see_mul _ _ _ S) as (F1 & F2 & B & _). split; auto. split; auto. now apply (rel_abs_near u eta). Qed.
Lemma add_ieee x y : fin (add x y) -> exists a b, see x a /\ see y b /\ exists t, near u 1 t /\ val (add x y) = (a + b) * t.
Proof. intros F. destruct (i_add x y F) as (a & b & F1 & F2 & B). exists a, b. split; auto. split; auto. now apply (rel_near Hu). Qed.
Lemma sub_ieee x y : fin (sub x y) -> exists a b, see x a /\ see y b /\ exists t, near u 1 t /\ val (sub x y) = (a - b) * t.
Proof. intros F. destruct (i_sub x y F) as (a & b & F1 & F2 & B). exists a, b. split; auto. split; auto. now apply (rel_near Hu). Qed.
Lemma mul_ieee x y : fin (mul x y) -> fin x /\ fin y /\
  exists t e, near u 1 t /\ Rabs e <= eta /\ val (mul x y) = val x * val y * t + e.
Proof. intros F. destruct (i_mul x y F) as (F1 & F2 & B). split; auto. split; auto. now apply (rel_abs_near u eta). Qed.
Lemma div_ieee x y : fin (div x y) -> fin y -> fin x /\ val y <> 0 /\
  exists t e, near u 1 t /\ Rabs e <= eta /\ val (div x y) = val x / val y * t + e.
Proof. intros F Fy. destruct (i_div x y F Fy) as (F1 & F2 & B). split; auto. split; auto. now apply (rel_abs_near u eta). Qed.
Lemma sqrt_ieee x : fin (sqrt_ x) -> fin x /\ 0 <= val x /\ exists t, near u 1 t /\ val (sqrt_ x) = sqrt (val x) * t.
Proof.
  intros F. destruct (i_sqrt x F) as (F1 & F2 & B). split; auto. split; auto. apply (rel_near Hu).
  now rewrite (Rabs_pos_eq (sqrt (val x))) by apply sqrt_pos.
Qed.

(** ** Sums *)
Lemma fsum_see n a f w : see (fsum n a f) w -> exists wa wf, see a wa /\ (forall k, (k < n)%nat -> see (f k) (wf k)) /\
  exists ta t, near u n ta /\ (forall k, (k < n)%nat -> near u (n - k) (t k)) /\ w = wa * ta + rsum n (fun k => wf k * t k).
Proof.
  revert w. induction n as [|n IH]; intros w F.
  - cbn [fsum] in *. exists w, (fun _ => 0). split; auto. split; [intros; lia|]. exists 1, (fun _ => 1).
    split; [apply (near_1 Hu)|]. split; [intros; lia|]. cbn. ring.
  - cbn [fsum] in *. apply see_add in F as [F ->]. destruct (add_ieee _ _ F) as (v & g & F1 & F2 & d & Nd & Ed).
    destruct (IH v F1) as (wa & wf & Fa & Ff & ta & t & Na & Nt & E). exists wa, (fun k => if Nat.eqb k n then g else wf k). split; auto. split.
    { intros k Hk. destruct (Nat.eqb_spec k n) as [->|]; auto. apply Ff. lia. }
    exists (ta * d), (fun k => if Nat.eqb k n then d else t k * d). split; [|split].
    + rewrite <- Nat.add_1_r. now apply (near_mul Hu).
    + intros k Hk. destruct (Nat.eqb_spec k n) as [->|].
      * replace (S n - n)%nat with 1%nat by lia. auto.
      * replace (S n - k)%nat with (n - k + 1)%nat by lia. apply (near_mul Hu); auto. apply Nt. lia.
    + rewrite Ed, E, rsum_S, Nat.eqb_refl.
      rewrite (rsum_ext n (fun k => (if Nat.eqb k n then g else wf k) * (if Nat.eqb k n then d else t k * d)) (fun k => d * (wf k * t k))).
      * rewrite rsum_scal. ring.
      * intros k Hk. destruct (Nat.eqb_spec k n); [lia|]. ring.
Qed.

(** The same with the first term alone at the start. *)
Lemma lsum_see n f w : see (lsum f n) w -> exists wf, (forall k, (k <= n)%nat -> see (f k) (wf k)) /\
  exists t, (forall k, (k <= n)%nat -> near u n (t k)) /\ w = rsum (S n) (fun k => wf k * t k).
Proof.
  revert w. induction n as [|n IH]; intros w F.
  - cbn [lsum] in *. exists (fun _ => w). split; [intros k Hk; now replace k with 0%nat by lia|]. exists (fun _ => 1). split; [intros; apply (near_1 Hu)|]. cbn. ring.
  - cbn [lsum] in *. apply see_add in F as [F ->]. destruct (add_ieee _ _ F) as (v & g & F1 & F2 & d & Nd & Ed).
    destruct (IH v F1) as (wf & Ff & t & Nt & E). exists (fun k => if Nat.eqb k (S n) then g else wf k). split.
    { intros k Hk. destruct (Nat.eqb_spec k (S n)) as [->|]; auto. apply Ff. lia. }
    exists (fun k => if Nat.eqb k (S n) then d else t k * d). split.
    + intros k Hk. destruct (Nat.eqb_spec k (S n)) as [->|].
      * apply (near_mono Hu 1); auto. lia.
      * rewrite <- Nat.add_1_r. apply (near_mul Hu); auto. apply Nt. lia.
    + rewrite Ed, E, (rsum_S (S n)), Nat.eqb_refl.
      rewrite (rsum_ext (S n) (fun k => (if Nat.eqb k (S n) then g else wf k) * (if Nat.eqb k (S n) then d else t k * d)) (fun k => d * (wf k * t k))).
      * rewrite rsum_scal. ring.
      * intros k Hk. destruct (Nat.eqb_spec k (S n)); [lia|]. ring.
Qed.

(** Differences evaluated from the left. *)
Lemma ssub_see n a f w : see (ssub n a f) w -> exists wa wf, see a wa /\ (forall k, (k < n)%nat -> see (f k) (wf k)) /\
  exists ts t, near u n ts /\ (forall k, (k < n)%nat -> near u k (t k)) /\ wa = w * ts + rsum n (fun k => wf k * t k).
Proof.
  revert w. induction n as [|n IH]; intros w F.
  - cbn [ssub] in *. exists w, (fun _ => 0). split; auto. split; [intros; lia|]. exists 1, (fun _ => 1). split; [apply (near_1 Hu)|]. split; [intros; lia|]. cbn. ring.
  - cbn [ssub] in *. apply see_sub in F as [F ->]. destruct (sub_ieee _ _ F) as (v & g & F1 & F2 & d & Nd & Ed). pose proof (near_pos Hu _ _ Nd) as Pd.
    destruct (IH v F1) as (wa & wf & Fa & Ff & ts & t & Ns & Nt & E). exists wa, (fun k => if Nat.eqb k n then g else wf k). split; auto. split.
    { intros k Hk. destruct (Nat.eqb_spec k n) as [->|]; auto. apply Ff. lia. }
    exists (/ d * ts), (fun k => if Nat.eqb k n then ts else t k). split; [|split].
    + change (S n) with (1 + n)%nat. apply (near_mul Hu); auto. now apply (near_inv Hu).
    + intros k Hk. destruct (Nat.eqb_spec k n) as [->|]; auto. apply Nt. lia.
    + rewrite rsum_S, Nat.eqb_refl. rewrite (rsum_ext n _ (fun k => wf k * t k)).
      * rewrite E, Ed. field. lra.
      * intros k Hk. destruct (Nat.eqb_spec k n); [lia|reflexivity].
Qed.

(** With a first term that is not an unrounded product. *)
Lemma ssub_ieee n a f : settled prd a -> fin (ssub n a f) -> fin a /\ exists wf, (forall k, (k < n)%nat -> see (f k) (wf k)) /\
  exists ts t, near u n ts /\ (forall k, (k < n)%nat -> near u k (t k)) /\
    val a = val (ssub n a f) * ts + rsum n (fun k => wf k * t k).
Proof.
  intros Sa F. destruct (ssub_see n a f _ (see_fin _ F)) as (wa & wf & Fa & H). apply see_settled in Fa as [Fa ->]; auto.
  split; auto. now exists wf.
Qed.

Lemma settled_ssub n a f : settled prd a -> settled prd (ssub n a f).
Proof. intros Sa. destruct n; cbn [ssub]; auto. apply (i_settled (Ieee := I)). Qed.

(** ** Underflow terms *)
Lemma near_le k t : near u k t -> Rabs t <= 1 + gamma u k.
Proof. intros N. pose proof (near_pos Hu _ _ N). rewrite Rabs_pos_eq by lra. destruct N as [_ N]. unfold gamma. lra. Qed.
Lemma g1_pos k : 1 <= 1 + gamma u k.
Proof. pose proof (gamma_pos Hu k). lra. Qed.
Lemma under_sum k n e t : (forall i, (i < n)%nat -> Rabs (e i) <= eta) -> (forall i, (i < n)%nat -> near u k (t i)) ->
  Rabs (rsum n (fun i => e i * t i)) <= INR n * eta * (1 + gamma u k).
Proof.
  intros HE HT. eapply Rle_trans; [apply bsum_abs|].
  eapply Rle_trans; [apply (bsum_le n _ (fun _ => eta * (1 + gamma u k)))|].
  - intros i Hi. rewrite Rabs_mult. apply Rmult_le_compat; try apply Rabs_pos; auto. now apply near_le, HT.
  - right. clear HE HT. induction n as [|n IH]; [cbn; ring|]. rewrite rsum_S, IH, S_INR. ring.
Qed.

(** Products of finite numbers, with their errors. *)
Lemma prods_ieee n (a b : nat -> T) w : (forall k, (k < n)%nat -> see (mul (a k) (b k)) (w k)) ->
  (forall k, (k < n)%nat -> fin (a k) /\ fin (b k)) /\
  exists t e, (forall k, (k < n)%nat -> near u 1 (t k) /\ Rabs (e k) <= eta /\ w k = val (a k) * val (b k) * t k + e k).
Proof.
  intros F. split; [intros k Hk; destruct (see_mul_ieee _ _ _ (F k Hk)) as (A & B & _); auto|].
  destruct (fin_choice n (fun k (p : R * R) => near u 1 (fst p) /\ Rabs (snd p) <= eta /\
    w k = val (a k) * val (b k) * fst p + snd p) (0, 0)) as (g & Hg).
  { intros k Hk. destruct (see_mul_ieee _ _ _ (F k Hk)) as (_ & _ & t & e & H). now exists (t, e). }
  exists (fun k => fst (g k)), (fun k => snd (g k)). auto.
Qed.

Lemma g_mul a b : (1 + gamma u a) * (1 + gamma u b) = 1 + gamma u (a + b).
Proof. unfold gamma. rewrite pow_add, Rinv_mult. ring. Qed.
Lemma g_mono a b : (a <= b)%nat -> 1 + gamma u a <= 1 + gamma u b.
Proof. intros H. pose proof (gamma_mono Hu a b H). lra. Qed.
Lemma rabs_sum_pos n f : 0 <= rsum n (fun k => Rabs (f k)).
Proof. apply bsum_nonneg. intros. apply Rabs_pos. Qed.
Lemma term_le n f k : (k < n)%nat -> Rabs (f k) <= rsum n (fun k => Rabs (f k)).
Proof.
  intros Hk. rewrite (rsum_split n (S k)), rsum_S by lia.
  pose proof (rabs_sum_pos k f). pose proof (rabs_sum_pos (n - S k) (fun i => f (S k + i)%nat)). cbn beta in *. lra.
Qed.

(** ** Accumulation of products: [c + b 0 * x 0 + b 1 * x 1 + ...] *)
Section Acc.
Variables (m : nat) (c : T) (b x : nat -> T).
Notation acc := (fsum m c (fun k => mul (b k) (x k))).
Notation sabs := (rsum m (fun k => Rabs (val (b k) * val (x k)))).

Lemma acc_see w : see acc w -> exists wc, see c wc /\ (forall k, (k < m)%nat -> fin (b k) /\ fin (x k)) /\
  Rabs (w - (wc + rsum m (fun k => val (b k) * val (x k)))) <= gamma u (S m) * (Rabs wc + sabs) + INR m * eta * (1 + gamma u (S m)).
Proof.
  intros F. destruct (fsum_see _ _ _ _ F) as (wc & wf & Fc & Ff & tc & s & Nc & Ns & E). destruct (prods_ieee m b x wf Ff) as (Fbx & t & e & H).
  exists wc. split; auto. split; auto. rewrite E.
  rewrite (rsum_ext m _ (fun k => val (b k) * val (x k) * (t k * s k) + e k * s k)) by (intros k Hk; destruct (H k Hk) as (_ & _ & ->); ring).
  rewrite rsum_add.
  replace (_ - _) with ((wc * tc - wc) + ((rsum m (fun k => val (b k) * val (x k) * (t k * s k)) - rsum m (fun k => val (b k) * val (x k)))
    + rsum m (fun k => e k * s k))) by ring.
  eapply Rle_trans; [apply Rabs_triang|]. rewrite Rmult_plus_distr_l, Rplus_assoc. apply Rplus_le_compat.
  { eapply Rle_trans; [apply (near_err Hu m); exact Nc|]. apply Rmult_le_compat_r; [apply Rabs_pos|]. apply (gamma_mono Hu). lia. }
  eapply Rle_trans; [apply Rabs_triang|]. apply Rplus_le_compat.
  - apply (pert_sum (AX := AX)). intros k Hk. exists (t k * s k). split; [|reflexivity].
    apply (near_mono Hu (1 + (m - k))); [lia|]. apply (near_mul Hu); [apply H|apply Ns]; auto.
  - eapply Rle_trans; [apply (under_sum m)|].
    + intros k Hk. apply H; auto.
    + intros k Hk. apply (near_mono Hu (m - k)); [lia|auto].
    + apply Rmult_le_compat_l; [apply Rmult_le_pos; [apply pos_INR|auto]|]. apply g_mono. lia.
Qed.
End Acc.

Lemma acc_fin m c (b x : nat -> T) : fin c -> (forall k, (k < m)%nat -> fin (b k) /\ fin (x k)) ->
  (forall wc, see c wc -> (Rabs wc + rsum m (fun k => Rabs (val (b k) * val (x k))) + INR m * eta) * (1 + gamma u (S m)) <= omega) ->
  fin (fsum m c (fun k => mul (b k) (x k))).
Proof.
  induction m as [|m IH]; intros Fc Fbx B; [exact Fc|]. cbn [fsum].
  pose proof (rabs_sum_pos m (fun k => val (b k) * val (x k))) as P1. cbn beta in P1.
  pose proof (Rabs_pos (val (b m) * val (x m))) as P2. pose proof (pos_INR m) as P3.
  assert (P4 : 0 <= INR m * eta) by (apply Rmult_le_pos; auto).
  pose proof (g1_pos (S m)) as G1. pose proof (g1_pos (S (S m))) as G2. pose proof (g_mono (S m) (S (S m)) ltac:(lia)) as G3.
  pose proof (g_mono 1 (S m) ltac:(lia)) as G4. pose proof (g1_pos 1) as G5.
  rewrite rsum_S, S_INR in B. cbv beta in B. set (p := Rabs (val (b m) * val (x m))) in *.
  set (q := rsum m (fun k => Rabs (val (b k) * val (x k)))) in *.
  assert (Fp : fin (mul (b m) (x m))).
  { apply i_mul_fin; try apply Fbx; try lia. fold p. specialize (B _ (see_fin c Fc)). pose proof (Rabs_pos (val c)) as P0. nra. }
  assert (Fs : fin (fsum m c (fun k => mul (b k) (x k)))).
  { apply IH; auto. intros wc Wc. specialize (B _ Wc). pose proof (Rabs_pos wc) as P0. fold q. nra. }
  apply i_add_fin; auto. intros s v Hs Hv.
  destruct (acc_see m c b x s Hs) as (wc & Wc & _ & E). fold q in E. destruct (see_mul_ieee _ _ _ Hv) as (_ & _ & t & e & Nt & Be & Ep).
  specialize (B _ Wc). pose proof (Rabs_pos wc) as P0.
  assert (S1 : Rabs s <= (Rabs wc + q + INR m * eta) * (1 + gamma u (S m))).
  { apply abs_between in E.
    assert (A : Rabs (wc + rsum m (fun k => val (b k) * val (x k))) <= Rabs wc + q).
    { eapply Rle_trans; [apply Rabs_triang|]. apply Rplus_le_compat_l. apply bsum_abs. }
    apply abs_between in A. apply Rabs_le. lra. }
  assert (S2 : Rabs v <= (p + eta) * (1 + gamma u (S m))).
  { rewrite Ep. eapply Rle_trans; [apply Rabs_triang|]. rewrite Rabs_mult. fold p. apply near_le in Nt. nra. }
  eapply Rle_trans; [apply Rabs_triang|]. nra.
Qed.

(** The same without a start value. *)
Lemma ldot_see n (b x : nat -> T) w : see (lsum (fun k => mul (b k) (x k)) n) w ->
  (forall k, (k <= n)%nat -> fin (b k) /\ fin (x k)) /\
  Rabs (w - rsum (S n) (fun k => val (b k) * val (x k)))
    <= gamma u (S n) * rsum (S n) (fun k => Rabs (val (b k) * val (x k))) + INR (S n) * eta * (1 + gamma u (S n)).
Proof.
  intros F. destruct (lsum_see _ _ _ F) as (wf & Ff & s & Ns & E). destruct (prods_ieee (S n) b x wf) as (Fbx & t & e & H); [intros; apply Ff; lia|].
  split; [intros; apply Fbx; lia|]. rewrite E.
  rewrite (rsum_ext (S n) _ (fun k => val (b k) * val (x k) * (t k * s k) + e k * s k)) by (intros k Hk; destruct (H k Hk) as (_ & _ & ->); ring).
  rewrite rsum_add.
  match goal with |- Rabs (?A + ?B - ?C) <= _ => replace (A + B - C) with ((A - C) + B) by ring end.
  eapply Rle_trans; [apply Rabs_triang|]. apply Rplus_le_compat.
  - apply (pert_sum (AX := AX)). intros k Hk. exists (t k * s k). split; [|reflexivity].
    change (S n) with (1 + n)%nat. apply (near_mul Hu); [apply H|apply Ns]; lia.
  - eapply Rle_trans; [apply (under_sum n)|].
    + intros k Hk. apply H; auto.
    + intros k Hk. apply Ns. lia.
    + apply Rmult_le_compat_l; [apply Rmult_le_pos; [apply pos_INR|auto]|]. apply g_mono. lia.
Qed.
Lemma ldot_ieee n (b x : nat -> T) : fin (lsum (fun k => mul (b k) (x k)) n) ->
  (forall k, (k <= n)%nat -> fin (b k) /\ fin (x k)) /\
  Rabs (val (lsum (fun k => mul (b k) (x k)) n) - rsum (S n) (fun k => val (b k) * val (x k)))
    <= gamma u (S n) * rsum (S n) (fun k => Rabs (val (b k) * val (x k))) + INR (S n) * eta * (1 + gamma u (S n)).
Proof. intros F. now apply ldot_see, see_fin. Qed.
Lemma ldot_fin n (b x : nat -> T) : (forall k, (k <= n)%nat -> fin (b k) /\ fin (x k)) ->
  (rsum (S n) (fun k => Rabs (val (b k) * val (x k))) + INR (S n) * eta) * (1 + gamma u (S n)) <= omega ->
  fin (lsum (fun k => mul (b k) (x k)) n).
Proof.
  induction n as [|n IH]; intros Fbx B; cbn [lsum].
  - rewrite rsum_S in B. cbn in B. pose proof (g1_pos 1). pose proof (Rabs_pos (val (b 0%nat) * val (x 0%nat))).
    apply i_mul_fin; try apply Fbx; auto. nra.
  - pose proof (rabs_sum_pos (S n) (fun k => val (b k) * val (x k))) as P1. cbn beta in P1.
    pose proof (Rabs_pos (val (b (S n)) * val (x (S n)))) as P2. pose proof (pos_INR (S n)) as P3.
    assert (P4 : 0 <= INR (S n) * eta) by (apply Rmult_le_pos; auto).
    pose proof (g1_pos (S n)) as G1. pose proof (g1_pos (S (S n))) as G2. pose proof (g_mono (S n) (S (S n)) ltac:(lia)) as G3.
    pose proof (g_mono 1 (S n) ltac:(lia)) as G4. pose proof (g1_pos 1) as G5.
    rewrite (rsum_S (S n)), (S_INR (S n)) in B. set (p := Rabs (val (b (S n)) * val (x (S n)))) in *.
    set (q := rsum (S n) (fun k => Rabs (val (b k) * val (x k)))) in *.
    assert (Fp : fin (mul (b (S n)) (x (S n)))).
    { apply i_mul_fin; try apply Fbx; auto. fold p. nra. }
    assert (Fs : fin (lsum (fun k => mul (b k) (x k)) n)).
    { apply IH; [intros; apply Fbx; lia|]. fold q. nra. }
    apply i_add_fin; auto. intros s v Hs Hv.
    destruct (ldot_see n b x s Hs) as (_ & E). fold q in E. destruct (see_mul_ieee _ _ _ Hv) as (_ & _ & t & e & Nt & Be & Ep).
    assert (S1 : Rabs s <= (q + INR (S n) * eta) * (1 + gamma u (S n))).
    { apply abs_between in E.
      assert (A : Rabs (rsum (S n) (fun k => val (b k) * val (x k))) <= q) by apply bsum_abs.
      apply abs_between in A. apply Rabs_le. lra. }
    assert (S2 : Rabs v <= (p + eta) * (1 + gamma u (S n))).
    { rewrite Ep. eapply Rle_trans; [apply Rabs_triang|]. rewrite Rabs_mult. fold p. apply near_le in Nt. nra. }
    eapply Rle_trans; [apply Rabs_triang|]. nra.
Qed.

(** ** alpha * (a . x) + c, as matrix products compute it *)
Section Affine.
Variables (m : nat) (c : T) (cy : R) (alpha : T) (a x : nat -> T).
Notation aff := (fsum m c (fun k => mul (mul alpha (a k)) (x k))).
Notation sax := (rsum m (fun k => Rabs (val alpha * (val (a k) * val (x k))))).
Notation sx := (rsum m (fun k => Rabs (val (x k)))).

Lemma scaled_ieee : (forall k, (k < m)%nat -> fin (mul alpha (a k))) ->
  rsum m (fun k => Rabs (val (mul alpha (a k)) * val (x k))) <= (1 + gamma u 1) * sax + eta * sx /\
  Rabs (rsum m (fun k => val (mul alpha (a k)) * val (x k)) - rsum m (fun k => val alpha * (val (a k) * val (x k)))) <= gamma u 1 * sax + eta * sx.
Proof.
  intros F.
  assert (K : forall k, (k < m)%nat ->
    Rabs (val (mul alpha (a k)) * val (x k) - val alpha * (val (a k) * val (x k))) <=
      gamma u 1 * Rabs (val alpha * (val (a k) * val (x k))) + eta * Rabs (val (x k))).
  { intros k Hk. destruct (mul_ieee _ _ (F k Hk)) as (_ & _ & t & e & Nt & Be & ->).
    replace (_ - _) with ((val alpha * (val (a k) * val (x k)) * t - val alpha * (val (a k) * val (x k))) + e * val (x k)) by ring.
    eapply Rle_trans; [apply Rabs_triang|]. apply Rplus_le_compat; [now apply (near_err Hu)|].
    rewrite Rabs_mult. apply Rmult_le_compat_r; [apply Rabs_pos|auto]. }
  split.
  - rewrite <- !rsum_scal, <- rsum_add. apply bsum_le. intros k Hk. specialize (K k Hk).
    set (p := val (mul alpha (a k)) * val (x k)) in *. set (q := val alpha * (val (a k) * val (x k))) in *.
    pose proof (Rabs_triang (p - q) q) as Tr. replace (p - q + q) with p in Tr by ring. lra.
  - rewrite <- rsum_sub. eapply Rle_trans; [apply bsum_abs|]. rewrite <- !rsum_scal, <- rsum_add. apply bsum_le. intros k Hk. now apply K.
Qed.
Lemma aff_ieee : (forall wc, see c wc -> Rabs (wc - cy) <= u * Rabs cy + eta) -> fin aff ->
  (exists wc, see c wc) /\ (forall k, (k < m)%nat -> fin alpha /\ fin (a k) /\ fin (x k)) /\
  Rabs (val aff - (rsum m (fun k => val alpha * (val (a k) * val (x k))) + cy)) <=
    gamma u (m + 2) * (sax + Rabs cy) + (INR m + 1 + sx) * eta * (1 + gamma u (m + 2)).
Proof.
  intros Hc0 F. destruct (acc_see m c (fun k => mul alpha (a k)) x _ (see_fin _ F)) as (wc & Fc & Fbx & E).
  pose proof (Hc0 _ Fc) as Hc.
  assert (Fa : forall k, (k < m)%nat -> fin (mul alpha (a k))) by (intros k Hk; now apply Fbx).
  split; [now exists wc|]. split.
  { intros k Hk. destruct (Fbx k Hk) as [F1 F2]. destruct (mul_ieee _ _ F1) as (F3 & F4 & _). auto. }
  destruct (scaled_ieee Fa) as [B1 B2].
  assert (U1 : u <= gamma u 1).
  { unfold gamma. cbn [pow]. rewrite Rmult_1_r. apply Rmult_le_reg_r with (1 - u); [lra|]. rewrite Rmult_minus_distr_r, Rinv_l by lra. nra. }
  assert (C1 : Rabs (wc) <= (1 + gamma u 1) * Rabs cy + eta).
  { pose proof (Rabs_triang (wc - cy) cy) as Tr. replace (wc - cy + cy) with (wc) in Tr by ring.
    pose proof (Rabs_pos cy). nra. }
  replace (m + 2)%nat with (S m + 1)%nat by lia. rewrite <- g_mul.
  pose proof (g_mul (S m) 1) as GM. pose proof (gamma_pos Hu (S m)) as G1. pose proof (gamma_pos Hu 1) as G2.
  assert (EG : gamma u (S m + 1) = gamma u (S m) + gamma u 1 + gamma u (S m) * gamma u 1) by lra.
  rewrite EG.
  assert (PX : 0 <= sx) by apply rabs_sum_pos. assert (PA : 0 <= sax) by apply rabs_sum_pos.
  pose proof (Rabs_pos cy) as PC. pose proof (pos_INR m) as PM.
  set (P := rsum m (fun k => val (mul alpha (a k)) * val (x k))) in *.
  set (Q := rsum m (fun k => val alpha * (val (a k) * val (x k)))) in *.
  set (Z := rsum m (fun k => Rabs (val (mul alpha (a k)) * val (x k)))) in *.
  replace (val aff - (Q + cy)) with ((val aff - (wc + P)) + ((P - Q) + (wc - cy))) by ring.
  eapply Rle_trans; [apply Rabs_triang|].
  eapply Rle_trans; [apply Rplus_le_compat; [exact E|eapply Rle_trans; [apply Rabs_triang|apply Rplus_le_compat; [exact B2|exact Hc]]]|].
  assert (X1 : gamma u (S m) * (Rabs (wc) + Z) <= gamma u (S m) * (((1 + gamma u 1) * Rabs cy + eta) + ((1 + gamma u 1) * sax + eta * sx))).
  { apply Rmult_le_compat_l; auto. lra. }
  eapply Rle_trans; [apply Rplus_le_compat_r, Rplus_le_compat_r; exact X1|].
  assert (X2 : u * Rabs cy <= gamma u 1 * Rabs cy) by (apply Rmult_le_compat_r; auto).
  assert (X3 : 0 <= eta * gamma u 1) by (apply Rmult_le_pos; auto).
  assert (X4 : 0 <= eta * gamma u (S m)) by (apply Rmult_le_pos; auto).
  assert (X5 : 0 <= eta * gamma u (S m) * gamma u 1) by (apply Rmult_le_pos; auto).
  assert (X6 : 0 <= (INR m + 1 + sx)) by lra.
  assert (X7 : 0 <= (INR m + 1 + sx) * (eta * gamma u 1 + eta * gamma u (S m) * gamma u 1)) by (apply Rmult_le_pos; lra).
  nra.
Qed.
End Affine.

Lemma aff_fin m c cy alpha (a x : nat -> T) : (forall wc, see c wc -> Rabs (wc - cy) <= u * Rabs cy + eta) -> fin c -> fin alpha ->
  (forall k, (k < m)%nat -> fin (a k) /\ fin (x k) /\ Rabs (val alpha * val (a k)) <= omega) ->
  (rsum m (fun k => Rabs (val alpha * (val (a k) * val (x k)))) + Rabs cy +
    (INR m + 1 + rsum m (fun k => Rabs (val (x k)))) * eta) * (1 + gamma u (m + 2)) <= omega ->
  fin (fsum m c (fun k => mul (mul alpha (a k)) (x k))).
Proof.
  intros Hc Fc Fal Fax B.
  assert (Fa : forall k, (k < m)%nat -> fin (mul alpha (a k))).
  { intros k Hk. destruct (Fax k Hk) as (F1 & F2 & F3). now apply i_mul_fin. }
  apply (acc_fin m c (fun k => mul alpha (a k)) x); auto.
  { intros k Hk. split; [auto|apply Fax; auto]. }
  intros wc Wc. specialize (Hc _ Wc). eapply Rle_trans; [|exact B]. destruct (scaled_ieee m alpha a x Fa) as [B1 _].
  assert (U1 : u <= gamma u 1).
  { unfold gamma. cbn [pow]. rewrite Rmult_1_r. apply Rmult_le_reg_r with (1 - u); [lra|]. rewrite Rmult_minus_distr_r, Rinv_l by lra. nra. }
  assert (C1 : Rabs (wc) <= (1 + gamma u 1) * Rabs cy + eta).
  { pose proof (Rabs_triang (wc - cy) cy) as Tr. replace (wc - cy + cy) with (wc) in Tr by ring.
    pose proof (Rabs_pos cy). nra. }
  replace (m + 2)%nat with (1 + S m)%nat by lia. rewrite <- g_mul, <- Rmult_assoc.
  apply Rmult_le_compat_r; [pose proof (g1_pos (S m)); lra|].
  pose proof (gamma_pos Hu 1) as G2.
  assert (PX : 0 <= rsum m (fun k => Rabs (val (x k)))) by apply rabs_sum_pos.
  pose proof (pos_INR m) as PM.
  assert (X7 : 0 <= (INR m + 1 + rsum m (fun k => Rabs (val (x k)))) * eta * gamma u 1) by (apply Rmult_le_pos; auto; apply Rmult_le_pos; lra).
  nra.
Qed.

(** ** Norms *)
Lemma sqrt_sub_le s N g E : 0 <= s -> 0 <= g -> 0 <= E -> Rabs (s - N * N) <= g * (N * N) + E -> 0 <= N -> Rabs (sqrt s - N) <= g * N + sqrt E.
Proof.
  intros Hs Hg HE H HN. apply abs_between in H. pose proof (sqrt_pos s) as P1. pose proof (sqrt_pos E) as P2.
  pose proof (sqrt_sqrt s Hs) as Q1. pose proof (sqrt_sqrt E HE) as Q2.
  apply Rabs_le. split.
  - (* sqrt s + sqrt E >= (1 - g) N *)
    destruct (Rle_dec g 1) as [G|G]; [|nra].
    assert (K : (1 - g) * N <= sqrt s + sqrt E); [|lra].
    apply Rsqr_incr_0_var; [|lra]. unfold Rsqr.
    assert ((1 - g) * N * ((1 - g) * N) <= (1 - g) * (N * N)).
    { replace ((1 - g) * N * ((1 - g) * N)) with ((1 - g) * (N * N) * (1 - g)) by ring.
      assert (0 <= (1 - g) * (N * N)) by (apply Rmult_le_pos; nra). nra. }
    nra.
  - assert (K : sqrt s <= (1 + g) * N + sqrt E); [|lra].
    apply Rsqr_incr_0_var; [|nra]. unfold Rsqr.
    assert (0 <= g * N * sqrt E) by (apply Rmult_le_pos; auto; apply Rmult_le_pos; auto).
    assert (0 <= N * sqrt E) by (apply Rmult_le_pos; auto).
    assert (0 <= g * (N * N)) by (apply Rmult_le_pos; nra).
    assert (0 <= g * g * (N * N)) by (apply Rmult_le_pos; nra).
    nra.
Qed.
Lemma norm_ieee n (x : nat -> T) : fin (sqrt_ (fsum n zero (fun k => mul (x k) (x k)))) ->
  (forall k, (k < n)%nat -> fin (x k)) /\ 0 <= val (sqrt_ (fsum n zero (fun k => mul (x k) (x k)))) /\
  Rabs (val (sqrt_ (fsum n zero (fun k => mul (x k) (x k)))) - nrm n (fun k => val (x k))) <=
    gamma u (n + 2) * nrm n (fun k => val (x k)) + (1 + gamma u 1) * sqrt (INR n * eta * (1 + gamma u (n + 1))).
Proof.
  intros F. destruct (sqrt_ieee _ F) as (Fs & Ps & t & Nt & Et). destruct (acc_see n zero x x _ (see_fin _ Fs)) as (wz & Vz & Fx & E).
  apply see_zero in Vz. rewrite Vz, Rabs_R0, !Rplus_0_l in E.
  split; [intros k Hk; now apply Fx|]. rewrite Et.
  split; [apply Rmult_le_pos; [apply sqrt_pos|apply (near_pos Hu) in Nt; lra]|].
  set (s := val (fsum n zero (fun k => mul (x k) (x k)))) in *. set (N := nrm n (fun k => val (x k))).
  assert (PN : 0 <= N) by apply nrm_nonneg.
  assert (EN : rsum n (fun k => val (x k) * val (x k)) = N * N).
  { unfold N, nrm. rewrite sqrt_sqrt; [reflexivity|]. apply bsum_nonneg. intros; apply Rle_0_sqr. }
  rewrite (rsum_ext n (fun k => Rabs (val (x k) * val (x k))) (fun k => val (x k) * val (x k))) in E
    by (intros; apply Rabs_pos_eq, Rle_0_sqr). rewrite EN in E.
  pose proof (gamma_pos Hu (S n)) as G1. pose proof (gamma_pos Hu 1) as G2.
  assert (PE : 0 <= INR n * eta * (1 + gamma u (S n))).
  { apply Rmult_le_pos; [apply Rmult_le_pos; [apply pos_INR|auto]|lra]. }
  pose proof (sqrt_sub_le s N _ _ Ps G1 PE E PN) as K.
  replace (n + 2)%nat with (S n + 1)%nat by lia. replace (n + 1)%nat with (S n) by lia.
  set (q := sqrt (INR n * eta * (1 + gamma u (S n)))) in *. assert (Pq : 0 <= q) by apply sqrt_pos.
  pose proof (g_mul (S n) 1) as GM.
  assert (EG : gamma u (S n + 1) = gamma u (S n) + gamma u 1 + gamma u (S n) * gamma u 1) by lra.
  rewrite EG. replace (sqrt s * t - N) with ((sqrt s * t - sqrt s) + (sqrt s - N)) by ring.
  eapply Rle_trans; [apply Rabs_triang|]. pose proof (near_err Hu 1 t (sqrt s) Nt) as K2.
  rewrite (Rabs_pos_eq (sqrt s)) in K2 by apply sqrt_pos. pose proof (abs_between _ _ K) as K3.
  assert (X : gamma u 1 * sqrt s <= gamma u 1 * ((1 + gamma u (S n)) * N + q)) by (apply Rmult_le_compat_l; lra).
  lra.
Qed.
Lemma norm_fin n (x : nat -> T) : (forall k, (k < n)%nat -> fin (x k)) ->
  (rsum n (fun k => val (x k) * val (x k)) + INR n * eta) * (1 + gamma u (n + 1)) <= omega ->
  fin (sqrt_ (fsum n zero (fun k => mul (x k) (x k)))).
Proof.
  intros Fx B. assert (Fs : fin (fsum n zero (fun k => mul (x k) (x k)))).
  2:{ apply i_sqrt_fin; auto. clear B Fx. induction n as [|n IH]; cbn [fsum] in *; [destruct (i_zero (Ieee := I)) as [_ ->]; lra|].
      destruct (add_ieee _ _ Fs) as (a & b & F1 & F2 & t & Nt & ->). apply (near_pos Hu) in Nt.
      assert (Pa : 0 <= a).
      { destruct n as [|m]; [apply see_zero in F1; lra|]. apply see_add in F1 as [F1 ->]. now apply IH. }
      apply see_mul in F2 as (_ & _ & _ & F2 & _). specialize (F2 ltac:(apply Rle_0_sqr)). apply Rmult_le_pos; lra. }
  destruct (i_zero (Ieee := I)) as [Fz _]. apply acc_fin; auto.
  intros wz Vz. apply see_zero in Vz. rewrite Vz, Rabs_R0, Rplus_0_l. rewrite (rsum_ext n _ (fun k => val (x k) * val (x k))) by (intros; apply Rabs_pos_eq, Rle_0_sqr).
  now rewrite Nat.add_1_r in B.
Qed.
End Ieee.
