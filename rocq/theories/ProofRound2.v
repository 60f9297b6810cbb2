(** * Rounding errors, continued: reductions, norms, the square-root-free and the incomplete
      factorisation, the tridiagonal sweeps *)
From Coq Require Import Reals Lra Lia Field List Permutation.
From Verif Require Import Base Scalar Spec Sums RealVec SpecRound Rounding ModelSolvers ProofChol ProofCholSolve ProofCholMath
  ProofIlu ProofTdma ProofTdmaBits ProofVec ProofRound.
Local Open Scope R_scope.
Import ListNotations.
Local Notation rsum := (@bsum R ROps).

Section Round2.
Context {O : Ops R} {u : R} {AX : Approx O u}.
Let Hu : 0 <= u < 1 := u_range.
Local Notation pert := (pert (u := u)).
Local Notation mpert := (mpert (u := u)).

(** ** Any evaluation order of a sum *)
Fixpoint ladd (l : list R) : R := match l with [] => 0 | a :: l' => a + ladd l' end.
Lemma ladd_app a b : ladd (a ++ b) = ladd a + ladd b.
Proof. induction a as [|x a IH]; cbn; [ring|]. rewrite IH. ring. Qed.
Lemma ladd_perm a b : Permutation a b -> ladd a = ladd b.
Proof. induction 1; cbn; try lra. Qed.
Lemma ladd_zeros (z : R) k : z = 0 -> ladd (repeat z k) = 0.
Proof. intros ->. induction k as [|k IH]; cbn; [reflexivity|]. rewrite IH. ring. Qed.
Lemma ladd_seq n f : ladd (map f (seq 0 n)) = rsum n f.
Proof. induction n as [|n IH]; [reflexivity|]. rewrite seq_S, map_app, ladd_app, IH. cbn. ring. Qed.

Fixpoint depth {T} (t : rtree (T := T)) : nat := match t with Leaf _ => 0 | Node l r => S (Nat.max (depth l) (depth r)) end.

Lemma Forall2_pert_step k k' s (l l' : list R) : near u (k' - k) s -> (k <= k')%nat -> Forall2 (pert k) l l' ->
  exists l'', Forall2 (pert k') l l'' /\ ladd l'' = ladd l' * s.
Proof.
  intros Ns Hk H. exists (map (fun x => x * s) l'). split.
  - induction H as [|a b l l' (t & Nt & E) H IH]; cbn; constructor; auto. exists (t * s). split; [|rewrite E; ring].
    replace k' with (k + (k' - k))%nat by lia. now apply (near_mul Hu).
  - clear H. induction l' as [|a l' IH]; cbn; [ring|]. rewrite IH. ring.
Qed.

Lemma tree_back t : exists l', Forall2 (pert (depth t)) (leaves t) l' /\ reval t = ladd l'.
Proof.
  induction t as [x|l (l1 & H1 & E1) r (l2 & H2 & E2)]; cbn [depth leaves reval].
  - exists [x]. split; [|cbn; ring]. constructor; auto. apply pert_refl.
  - destruct (add_near (reval l) (reval r)) as (s & Ns & Es). rewrite Es, E1, E2.
    assert (Hs : forall k, (k <= Nat.max (depth l) (depth r))%nat -> near u (S (Nat.max (depth l) (depth r)) - k) s).
    { intros k Hk. apply (near_mono Hu 1); auto; lia. }
    destruct (Forall2_pert_step (depth l) _ s _ _ (Hs _ (Nat.le_max_l _ _)) ltac:(lia) H1) as (m1 & G1 & F1).
    destruct (Forall2_pert_step (depth r) _ s _ _ (Hs _ (Nat.le_max_r _ _)) ltac:(lia) H2) as (m2 & G2 & F2).
    exists (m1 ++ m2). split; [now apply Forall2_app|]. rewrite ladd_app, F1, F2. ring.
Qed.

Lemma ladd_pert k l l' : Forall2 (pert k) l l' -> Rabs (ladd l' - ladd l) <= gamma u k * ladd (map Rabs l).
Proof.
  induction 1 as [|a b l l' H _ IH]; cbn [ladd map].
  - rewrite Rminus_0_r, Rabs_R0. lra.
  - apply pert_close in H.
    replace (b + ladd l' - (a + ladd l)) with ((b - a) + (ladd l' - ladd l)) by ring.
    eapply Rle_trans; [apply Rabs_triang|]. lra.
Qed.
Lemma ladd_abs_nonneg l : 0 <= ladd (map Rabs l).
Proof. induction l as [|a l IH]; cbn; [lra|]. pose proof (Rabs_pos a). lra. Qed.

(** A reduction over rounded products. *)
Lemma tree_dot n (x y : nat -> R) t k : Permutation (leaves t) (map (fun i => mul (x i) (y i)) (seq 0 n) ++ repeat zero k) ->
  Rabs (reval t - rsum n (fun i => x i * y i)) <= gamma u (S (depth t)) * rsum n (fun i => Rabs (x i * y i)).
Proof.
  intros HP. destruct (tree_back t) as (l' & H & ->). pose proof (ladd_pert _ _ _ H) as B.
  rewrite (ladd_perm _ _ HP) in B. rewrite (ladd_perm _ _ (Permutation_map Rabs HP)) in B.
  rewrite map_app, map_map, !ladd_app, !ladd_seq in B. rewrite ladd_zeros in B by apply ax_zero.
  assert (Z : ladd (map Rabs (repeat zero k)) = 0).
  { rewrite ax_zero. clear. induction k as [|k IH]; cbn; [reflexivity|]. rewrite IH, Rabs_R0. ring. }
  rewrite Z in B.
  destruct (fin_choice n (fun i m => near u 1 m /\ mul (x i) (y i) = x i * y i * m) 1) as (m & Hm).
  { intros i _. apply mul_near. }
  set (P := rsum n (fun i => mul (x i) (y i))) in *. set (Q := rsum n (fun i => Rabs (mul (x i) (y i)))) in *.
  assert (B1 : Rabs (P - rsum n (fun i => x i * y i)) <= gamma u 1 * rsum n (fun i => Rabs (x i * y i))).
  { apply pert_sum. intros i Hi. exists (m i). apply Hm, Hi. }
  assert (B2 : Q <= / (1 - u) ^ 1 * rsum n (fun i => Rabs (x i * y i))).
  { unfold Q. rewrite <- rsum_scal. apply bsum_le. intros i Hi. destruct (Hm i Hi) as [Nm ->]. rewrite Rabs_mult.
    rewrite (Rabs_pos_eq (m i)) by (left; now apply (near_pos Hu 1)). rewrite Rmult_comm.
    apply Rmult_le_compat_r; [apply Rabs_pos|]. apply Nm. }
  replace (ladd l' - rsum n (fun i => x i * y i)) with ((ladd l' - (P + 0)) + (P - rsum n (fun i => x i * y i))) by ring.
  eapply Rle_trans; [apply Rabs_triang|].
  assert (S0 : 0 <= rsum n (fun i => Rabs (x i * y i))) by (apply bsum_nonneg; intros; apply Rabs_pos).
  set (S := rsum n (fun i => Rabs (x i * y i))) in *.
  apply Rle_trans with (gamma u (depth t) * (/ (1 - u) ^ 1 * S) + gamma u 1 * S).
  - pose proof (gamma_pos Hu (depth t)). nra.
  - right. unfold gamma. replace (Datatypes.S (depth t)) with (depth t + 1)%nat by lia. rewrite pow_add, Rinv_mult. ring.
Qed.

(** ** Sums of nonnegative terms keep their relative accuracy *)
Lemma near_avg k n (f t : nat -> R) : (forall i, (i < n)%nat -> 0 <= f i) -> (forall i, (i < n)%nat -> near u k (t i)) ->
  exists s, near u k s /\ rsum n (fun i => f i * t i) = rsum n f * s.
Proof.
  intros Hf Ht.
  assert (A : (1 - u) ^ k * rsum n f <= rsum n (fun i => f i * t i) <= / (1 - u) ^ k * rsum n f).
  { rewrite <- !rsum_scal. split; apply bsum_le; intros i Hi; specialize (Hf i Hi); destruct (Ht i Hi); nra. }
  destruct (Req_dec (rsum n f) 0) as [E|E].
  - exists 1. split; [apply (near_1 Hu)|]. rewrite E in *. lra.
  - assert (P : 0 < rsum n f) by (pose proof (bsum_nonneg n f Hf); lra).
    exists (rsum n (fun i => f i * t i) / rsum n f). split; [|field; lra].
    split.
    + apply Rmult_le_reg_r with (rsum n f); auto. unfold Rdiv. rewrite Rmult_assoc, Rinv_l by lra. lra.
    + apply Rmult_le_reg_r with (rsum n f); auto. unfold Rdiv. rewrite Rmult_assoc, Rinv_l by lra. lra.
Qed.
Lemma near_sqrt k s : near u k s -> near u k (sqrt s).
Proof.
  intros N. pose proof (near_pos Hu _ _ N) as P. destruct N as [N1 N2].
  pose proof (w_pos Hu k) as W0. pose proof (w_le1 Hu k) as W1. pose proof (wi_ge1 Hu k) as W2.
  assert (L : forall a, 0 <= a <= 1 -> a <= sqrt a).
  { intros a Ha. apply Rsqr_incr_0_var; [|apply sqrt_pos]. rewrite Rsqr_sqrt by lra. unfold Rsqr. nra. }
  assert (G : forall a, 1 <= a -> sqrt a <= a).
  { intros a Ha. apply Rsqr_incr_0_var; [|lra]. rewrite Rsqr_sqrt by lra. unfold Rsqr. nra. }
  split.
  - eapply Rle_trans; [apply L; lra|]. now apply sqrt_le_1_alt.
  - eapply Rle_trans; [apply sqrt_le_1_alt, N2|]. now apply G.
Qed.

Lemma norm_round n (x : nat -> R) : pert (n + 2) (nrm n x) (sqrt_ (fsum n zero (fun i => mul (x i) (x i)))).
Proof.
  destruct (fsum_near n zero (fun i => mul (x i) (x i))) as (ta & t & Nta & Nt & E).
  destruct (fin_choice n (fun i m => near u 1 m /\ mul (x i) (x i) = x i * x i * m) 1) as (m & Hm).
  { intros i _. apply mul_near. }
  assert (E' : fsum n zero (fun i => mul (x i) (x i)) = rsum n (fun i => (x i * x i) * (m i * t i))).
  { rewrite E, ax_zero, Rmult_0_l, Rplus_0_l. apply rsum_ext. intros i Hi. destruct (Hm i Hi) as [_ ->]. ring. }
  destruct (near_avg (n + 1) n (fun i => x i * x i) (fun i => m i * t i)) as (s & Ns & Es).
  { intros; apply Rle_0_sqr. }
  { intros i Hi. apply (near_mono Hu (1 + (n - i))); [lia|]. apply (near_mul Hu); [apply Hm; auto|auto]. }
  rewrite E', Es. pose proof (near_pos Hu _ _ Ns) as Ps.
  assert (P0 : 0 <= rsum n (fun i => x i * x i)) by (apply bsum_nonneg; intros; apply Rle_0_sqr).
  destruct (sqrt_near (rsum n (fun i => x i * x i) * s)) as (r & Nr & Er).
  { apply Rmult_le_pos; lra. }
  exists (sqrt s * r). split.
  - replace (n + 2)%nat with ((n + 1) + 1)%nat by lia. apply (near_mul Hu); auto. now apply near_sqrt.
  - rewrite Er, sqrt_mult by lra. unfold nrm, dotp. cbn [mul ROps]. ring.
Qed.

(** A tree of rounded squares keeps its relative accuracy. *)
Lemma ladd_avg k l l' : (forall a, In a l -> 0 <= a) -> Forall2 (pert k) l l' -> exists s, near u k s /\ ladd l' = ladd l * s.
Proof.
  intros Hp H.
  assert (A : 0 <= ladd l /\ (1 - u) ^ k * ladd l <= ladd l' <= / (1 - u) ^ k * ladd l).
  { induction H as [|a b l l' (t & [N1 N2] & ->) H IH]; cbn [ladd]; [lra|].
    destruct IH as (P & Q1 & Q2); [intros; apply Hp; now right|]. pose proof (Hp a (or_introl eq_refl)). split; [lra|]. split; nra. }
  destruct A as (P & Q1 & Q2). destruct (Req_dec (ladd l) 0) as [E|E].
  - exists 1. split; [apply (near_1 Hu)|]. rewrite E in *. lra.
  - exists (ladd l' / ladd l). split; [|field; lra]. split.
    + apply Rmult_le_reg_r with (ladd l); [lra|]. unfold Rdiv. rewrite Rmult_assoc, Rinv_l by lra. lra.
    + apply Rmult_le_reg_r with (ladd l); [lra|]. unfold Rdiv. rewrite Rmult_assoc, Rinv_l by lra. lra.
Qed.

Lemma norm_tree n (x : nat -> R) t k : Permutation (leaves t) (map (fun i => mul (x i) (x i)) (seq 0 n) ++ repeat zero k) ->
  pert (depth t + 2) (nrm n x) (sqrt_ (reval t)).
Proof.
  intros HP. destruct (tree_back t) as (l' & H & ->).
  assert (Pos : forall i, 0 <= mul (x i) (x i)).
  { intros i. destruct (mul_near (x i) (x i)) as (m & Nm & ->). apply (near_pos Hu) in Nm. apply Rmult_le_pos; [apply Rle_0_sqr|lra]. }
  destruct (ladd_avg (depth t) (leaves t) l') as (s & Ns & ->); auto.
  { intros a Ha. apply (Permutation_in _ HP), in_app_or in Ha. destruct Ha as [Ha|Ha].
    - apply in_map_iff in Ha. destruct Ha as (i & <- & _). apply Pos.
    - apply repeat_spec in Ha. rewrite Ha, ax_zero. lra. }
  rewrite (ladd_perm _ _ HP), ladd_app, ladd_seq, ladd_zeros by apply ax_zero. rewrite Rplus_0_r.
  destruct (fin_choice n (fun i m => near u 1 m /\ mul (x i) (x i) = x i * x i * m) 1) as (m & Hm).
  { intros i _. apply mul_near. }
  rewrite (rsum_ext n _ (fun i => (x i * x i) * m i)) by (intros i Hi; apply Hm, Hi).
  destruct (near_avg 1 n (fun i => x i * x i) m) as (q & Nq & ->).
  { intros; apply Rle_0_sqr. }
  { intros i Hi; apply Hm, Hi. }
  assert (P0 : 0 <= rsum n (fun i => x i * x i)) by (apply bsum_nonneg; intros; apply Rle_0_sqr).
  pose proof (near_pos Hu _ _ Ns) as Ps. pose proof (near_pos Hu _ _ Nq) as Pq.
  assert (Nqs : near u (depth t + 1) (q * s)) by (rewrite Nat.add_comm; now apply (near_mul Hu)).
  rewrite Rmult_assoc. destruct (sqrt_near (rsum n (fun i => x i * x i) * (q * s))) as (r & Nr & Er).
  { apply Rmult_le_pos; nra. }
  exists (sqrt (q * s) * r). split.
  - replace (depth t + 2)%nat with ((depth t + 1) + 1)%nat by lia. apply (near_mul Hu); auto. now apply near_sqrt.
  - rewrite Er, sqrt_mult by nra. unfold nrm, dotp. cbn [mul ROps]. ring.
Qed.

(** Sums from the left over products, without a start value. *)
Lemma lsum_fsum (f : nat -> R) k : lsum f k = fsum k (f 0%nat) (fun i => f (S i)).
Proof. induction k as [|k IH]; [reflexivity|]. cbn [lsum fsum]. now rewrite IH. Qed.

Lemma dot_back n (x y : nat -> R) : (0 < n)%nat -> exists x', (forall i, (i < n)%nat -> pert n (x i) (x' i)) /\
  lsum (fun i => mul (x i) (y i)) (n - 1) = rsum n (fun i => x' i * y i).
Proof.
  intros Hn. destruct (fin_choice n (fun i m => near u 1 m /\ mul (x i) (y i) = x i * y i * m) 1) as (m & Hm).
  { intros i _. apply mul_near. }
  rewrite lsum_fsum. destruct (fsum_near (n - 1) (mul (x 0%nat) (y 0%nat)) (fun i => mul (x (S i)) (y (S i)))) as (ta & t & Na & Nt & ->).
  exists (fun i => x i * (m i * match i with 0%nat => ta | S j => t j end)). split.
  - intros i Hi. eexists. split; [|reflexivity]. destruct i as [|j].
    + apply (near_mono Hu (1 + (n - 1))); [lia|]. apply (near_mul Hu); auto. apply Hm; auto.
    + apply (near_mono Hu (1 + (n - 1 - j))); [lia|]. apply (near_mul Hu); [apply Hm; auto|apply Nt; lia].
  - transitivity (rsum (S (n - 1)) (fun i => x i * (m i * match i with 0%nat => ta | S j => t j end) * y i)); [|f_equal; lia].
    rewrite rsum_first. f_equal.
    + destruct (Hm 0%nat Hn) as [_ ->]. ring.
    + apply rsum_ext. intros i Hi. destruct (Hm (S i) ltac:(lia)) as [_ ->]. ring.
Qed.

(** ** Sums with a start value *)
Lemma fsum_round n a b c (f g : nat -> R) : pert b a c -> (forall k, (k < n)%nat -> pert 2 (f k) (g k)) -> (b <= 2)%nat ->
  Rabs (fsum n c g - (a + rsum n f)) <= gamma u (n + 2) * (Rabs a + rsum n (fun k => Rabs (f k))).
Proof.
  intros Pa Pf Hb. destruct (fsum_near n c g) as (ta & t & Nta & Nt & ->).
  replace (c * ta + rsum n (fun k => g k * t k) - (a + rsum n f)) with ((c * ta - a) + (rsum n (fun k => g k * t k) - rsum n f)) by ring.
  eapply Rle_trans; [apply Rabs_triang|]. rewrite Rmult_plus_distr_l. apply Rplus_le_compat.
  - apply pert_close. apply (pert_mono (b + n)); [lia|]. destruct Pa as (s & Ns & ->). exists (s * ta).
    split; [now apply (near_mul Hu)|ring].
  - apply pert_sum. intros k Hk. apply (pert_mono (2 + (n - k))); [lia|]. destruct (Pf k Hk) as (s & Ns & ->).
    exists (s * t k). split; [|ring]. apply (near_mul Hu); auto.
Qed.

(** ** The square-root-free factorisation *)
Definition dsc (L : nat -> nat -> R) (i j : nat) : R := if Nat.leb j i then L i j / L j j else 0.

Lemma mod_diag_nz n A L i : mfactored n A L -> (i < n)%nat -> L i i <> 0.
Proof.
  intros H Hi E. destruct (H i Hi) as [_ B]. assert (eqb (L i i) zero = true) by (apply ax_eqb; now rewrite ax_zero).
  congruence.
Qed.

Lemma dsc_prod n L (F : R -> R) i j : (i < n)%nat -> (j <= i)%nat -> L j j <> 0 -> F 0 = 0 -> (forall a b, F (a * b) = F a * F b) ->
  rsum n (fun k => F (dsc L i k) * F (lof L j k)) = rsum j (fun k => F (L i k * L j k / L k k)) + F (L i j).
Proof.
  intros Hi Hj Hd F0 FM. rewrite (rsum_split n (S j)) by lia. rewrite rsum_S, (rsum_zero (n - S j)).
  - rewrite Rplus_0_r. f_equal.
    + apply rsum_ext. intros k Hk. unfold dsc, lof. destruct (Nat.leb_spec k i); [|lia]. destruct (Nat.leb_spec k j); [|lia].
      rewrite <- FM. f_equal. unfold Rdiv. ring.
    + unfold dsc, lof. destruct (Nat.leb_spec j i); [|lia]. rewrite Nat.leb_refl, <- FM. f_equal. now field.
  - intros k Hk. unfold lof. destruct (Nat.leb_spec (S j + k) j); [lia|]. rewrite F0. ring.
Qed.

Lemma mod_entry n A L i j : mfactored n A L -> (i < n)%nat -> (j <= i)%nat ->
  exists f' d', (forall k, (k < j)%nat -> pert (S n) (L i k * L j k / L k k) (f' k)) /\ pert (S n) (L i j) d' /\ A i j = rsum j f' + d'.
Proof.
  intros HF Hi Hj. destruct (HF i Hi) as [Ho _]. specialize (Ho j Hj). unfold mrec in Ho.
  destruct (ssub_back j (A i j) (fun k => div (mul (L i k) (L j k)) (L k k))) as (T & t & NT & Nt & E).
  destruct (fin_choice j (fun k m => near u 2 m /\ div (mul (L i k) (L j k)) (L k k) = L i k * L j k / L k k * m) 1) as (m & Hm).
  { intros k Hk. assert (Hd : L k k <> 0) by (apply (mod_diag_nz n A L); auto; lia).
    destruct (mul_near (L i k) (L j k)) as (s & Ns & Es). destruct (div_near (mul (L i k) (L j k)) (L k k) Hd) as (r & Nr & Er).
    exists (s * r). split; [change 2%nat with (1 + 1)%nat; now apply (near_mul Hu)|]. rewrite Er, Es. now field. }
  exists (fun k => L i k * L j k / L k k * (m k * t k)), (L i j * T). split; [|split].
  - intros k Hk. exists (m k * t k). split; [|reflexivity]. apply (near_mono Hu (2 + k)); [lia|]. apply (near_mul Hu); auto. apply Hm; auto.
  - exists T. split; [|reflexivity]. apply (near_mono Hu j); [lia|auto].
  - rewrite E at 1. rewrite <- Ho, Rplus_comm. f_equal. apply rsum_ext. intros k Hk. destruct (Hm k Hk) as [_ ->]. ring.
Qed.

Lemma mod_product_round n A L i j : mfactored n A L -> (i < n)%nat -> (j <= i)%nat ->
  Rabs (A i j - mprod n (dsc L) (fun a b => lof L b a) i j)
    <= gamma u (S n) * mprod n (mabs (dsc L)) (fun a b => mabs (lof L) b a) i j.
Proof.
  intros HF Hi Hj. destruct (mod_entry n A L i j HF Hi Hj) as (f' & d' & P1 & P2 & ->).
  assert (Hd : L j j <> 0) by (apply (mod_diag_nz n A L); auto; lia).
  unfold mprod, mabs. rewrite (dsc_prod n L Rabs i j), (dsc_prod n L (fun x => x) i j); auto using Rabs_R0, Rabs_mult.
  replace (rsum j f' + d' - (rsum j (fun k => L i k * L j k / L k k) + L i j))
    with ((rsum j f' - rsum j (fun k => L i k * L j k / L k k)) + (d' - L i j)) by ring.
  eapply Rle_trans; [apply Rabs_triang|]. rewrite Rmult_plus_distr_l. apply Rplus_le_compat; [now apply pert_sum|now apply pert_close].
Qed.

Lemma dsc_sym n A L (F : R -> R) i j : mfactored n A L -> (i < n)%nat -> (j < n)%nat -> F 0 = 0 -> (forall a b, F (a * b) = F a * F b) ->
  rsum n (fun k => F (dsc L i k) * F (lof L j k)) = rsum n (fun k => F (dsc L j k) * F (lof L i k)).
Proof.
  intros HF Hi Hj F0 FM. apply rsum_ext. intros k Hk. rewrite <- !FM. f_equal. unfold dsc, lof.
  destruct (Nat.leb k i), (Nat.leb k j); try ring. field. now apply (mod_diag_nz n A L).
Qed.

Lemma mod_product_within n A L : mfactored n A L ->
  mwithin u (S n) n n (mprod n (mabs (dsc L)) (fun a b => mabs (lof L) b a)) (mprod n (dsc L) (fun a b => lof L b a)) (symf A).
Proof.
  intros HF i j Hi Hj. unfold symf. destruct (Nat.leb_spec j i) as [|H]; [now apply mod_product_round|].
  pose proof (mod_product_round n A L j i HF Hj ltac:(lia)) as G. unfold mprod, mabs in *.
  rewrite (dsc_sym n A L (fun x => x) i j), (dsc_sym n A L Rabs i j); auto using Rabs_R0, Rabs_mult.
Qed.

Lemma mod_lower_back n A L b Y : mfactored n A L -> (forall i, (i < n)%nat -> ufwd L b Y i) ->
  exists L1, mpert (S n) n (dsc L) L1 /\ msolves n L1 Y b.
Proof.
  intros HF H.
  destruct (fin_choice n (fun i (r : nat -> R) =>
    (forall j, (j < n)%nat -> pert (S n) (dsc L i j) (r j)) /\ rsum n (fun j => r j * Y j) = b i) (fun _ => 0)) as (L1 & HL).
  { intros i Hi. destruct (urow_back i (b i) (fun j => div (L i j) (L j j)) Y) as (d' & l' & Pd & Pl & E).
    exists (fun j => if Nat.ltb j i then l' j else if Nat.eqb i j then d' else 0). split.
    - intros j Hj. unfold dsc. destruct (Nat.ltb_spec j i).
      + destruct (Nat.leb_spec j i); [|lia].
        assert (Hd : L j j <> 0) by (apply (mod_diag_nz n A L); auto; lia).
        destruct (Pl j ltac:(lia)) as (s & Ns & ->). destruct (div_near (L i j) (L j j) Hd) as (r & Nr & ->).
        exists (r * s). split; [|ring]. apply (near_mono Hu (1 + i)); [lia|]. now apply (near_mul Hu).
      + destruct (Nat.eqb_spec i j) as [->|].
        * rewrite Nat.leb_refl. replace (L j j / L j j) with 1 by (field; now apply (mod_diag_nz n A L)).
          apply (pert_mono j); [lia|auto].
        * destruct (Nat.leb_spec j i); [lia|]. apply pert_refl.
    - rewrite (lower_row n i); [|auto|].
      + rewrite Nat.ltb_irrefl, Nat.eqb_refl. rewrite <- E. rewrite (H i Hi) at 1. f_equal.
        apply rsum_ext. intros j Hj. destruct (Nat.ltb_spec j i); [reflexivity|lia].
      + intros j Hj. destruct (Nat.ltb_spec j i); [lia|]. destruct (Nat.eqb_spec i j); [lia|reflexivity]. }
  exists L1. split; [intros i j Hi Hj; now apply HL|intros i Hi; now apply HL].
Qed.

Lemma mod_solve_round n A L b x : mfactored n A L -> usubstituted n L b x ->
  exists A', mwithin u (3 * n + 2) n n (mprod n (mabs (dsc L)) (fun a b => mabs (lof L) b a)) (symf A) A' /\ msolves n A' x b.
Proof.
  intros HF (Y & HY & HX).
  assert (Hd : forall i, (i < n)%nat -> L i i <> 0) by (intros; now apply (mod_diag_nz n A L)).
  destruct (mod_lower_back n A L b Y HF HY) as (L1 & P1 & S1).
  destruct (upper_back n (fun a b => L b a) Y x Hd HX) as (U1 & P2 & S2).
  exists (mprod n L1 U1). split; [|eapply mprod_solves; eauto].
  replace (3 * n + 2)%nat with (S n + (S n + n))%nat by lia.
  apply (within_trans _ _ n _ _ (mprod n (dsc L) (fun a b => lof L b a))).
  - intros. apply (mprod_abs_pos n (dsc L) (fun a b => lof L b a)).
  - intros i j Hi Hj. rewrite Rabs_minus_sym. now apply mod_product_within.
  - apply (mprod_pert (S n) n n (dsc L) L1 (fun a b => lof L b a) U1); auto.
Qed.

(** ** The incomplete factorisation *)
Lemma nzb_A (x : R) : nzb x = true <-> x <> 0.
Proof.
  unfold nzb. pose proof (ax_eqb x zero) as H. rewrite ax_zero in H. rewrite ax_zero. destruct (eqb x 0); cbn.
  - split; [discriminate|]. intros N. exfalso. apply N. now apply H.
  - split; auto. intros _ E. apply H in E. discriminate.
Qed.

Lemma ilu_prod n (F : nat -> nat -> R) (G : R -> R) i j : (i < n)%nat -> (j < n)%nat -> G 0 = 0 -> G 1 = 1 -> (forall a b, G (a * b) = G a * G b) ->
  rsum n (fun k => G (ulof F i k) * G (upf F k j)) =
    if Nat.leb i j then rsum i (fun k => G (F i k * F k j)) + G (F i j) else rsum j (fun k => G (F i k * F k j)) + G (F i j * F j j).
Proof.
  intros Hi Hj G0 G1 GM. destruct (Nat.leb_spec i j) as [H|H].
  - rewrite (rsum_split n (S i)) by lia. rewrite rsum_S, (rsum_zero (n - S i)).
    + rewrite Rplus_0_r. f_equal.
      * apply rsum_ext. intros k Hk. unfold ulof, upf. destruct (Nat.ltb_spec k i); [|lia]. destruct (Nat.leb_spec k j); [|lia]. now rewrite GM.
      * unfold ulof, upf. rewrite Nat.ltb_irrefl, Nat.eqb_refl. destruct (Nat.leb_spec i j); [|lia]. rewrite G1. ring.
    + intros k Hk. unfold ulof. destruct (Nat.ltb_spec (S i + k) i); [lia|]. destruct (Nat.eqb_spec i (S i + k)); [lia|]. rewrite G0. ring.
  - rewrite (rsum_split n (S j)) by lia. rewrite rsum_S, (rsum_zero (n - S j)).
    + rewrite Rplus_0_r. f_equal.
      * apply rsum_ext. intros k Hk. unfold ulof, upf. destruct (Nat.ltb_spec k i); [|lia]. destruct (Nat.leb_spec k j); [|lia]. now rewrite GM.
      * unfold ulof, upf. destruct (Nat.ltb_spec j i); [|lia]. rewrite Nat.leb_refl. now rewrite GM.
    + intros k Hk. unfold upf. destruct (Nat.leb_spec (S j + k) j); [lia|]. rewrite G0. ring.
Qed.

Lemma ilu_product_round n m A F i j : ilu_done n m A F -> (i < n)%nat -> (j < n)%nat -> (j < m)%nat -> A i j <> 0 ->
  Rabs (A i j - mprod n (ulof F) (upf F) i j) <= gamma u n * mprod n (mabs (ulof F)) (mabs (upf F)) i j.
Proof.
  intros HF Hi Hj Hm Hnz. apply nzb_A in Hnz. destruct (HF i Hi) as [HL HU]. unfold mprod, mabs.
  rewrite (ilu_prod n F Rabs i j), (ilu_prod n F (fun x => x) i j); auto using Rabs_R0, Rabs_R1, Rabs_mult.
  destruct (Nat.leb_spec i j) as [H|H].
  - specialize (HU j H Hm). unfold urec in HU. rewrite Hnz in HU.
    destruct (urow_back i (A i j) (F i) (fun k => F k j)) as (d' & l' & (s & Ns & Es) & Pl & E). rewrite <- E, <- HU at 1.
    replace (d' * F i j + rsum i (fun k => l' k * F k j) - (rsum i (fun k => F i k * F k j) + F i j))
      with ((rsum i (fun k => l' k * F k j) - rsum i (fun k => F i k * F k j)) + (d' * F i j - F i j)) by ring.
    eapply Rle_trans; [apply Rabs_triang|]. rewrite Rmult_plus_distr_l. apply Rplus_le_compat.
    + apply pert_sum. intros k Hk. replace n with (n + 0)%nat by lia. apply pert_mul; [|apply pert_refl]. apply (pert_mono i); [lia|auto].
    + apply pert_close. exists s. split; [|rewrite Es; ring]. apply (near_mono Hu i); [lia|auto].
  - specialize (HL j H). unfold lrec in HL. rewrite Hnz in HL. destruct HL as [Hd HL]. apply nzb_A in Hd.
    destruct (row_back j (A i j) (F j j) (F i) (fun k => F k j) Hd) as (d' & l' & (s & Ns & Es) & Pl & E). rewrite <- E, <- HL at 1.
    replace (d' * F i j + rsum j (fun k => l' k * F k j) - (rsum j (fun k => F i k * F k j) + F i j * F j j))
      with ((rsum j (fun k => l' k * F k j) - rsum j (fun k => F i k * F k j)) + (d' * F i j - F i j * F j j)) by ring.
    eapply Rle_trans; [apply Rabs_triang|]. rewrite Rmult_plus_distr_l. apply Rplus_le_compat.
    + apply pert_sum. intros k Hk. replace n with (n + 0)%nat by lia. apply pert_mul; [|apply pert_refl]. apply (pert_mono j); [lia|auto].
    + apply pert_close. exists s. split; [|rewrite Es; ring]. apply (near_mono Hu (S j)); [lia|auto].
Qed.

Lemma ilu_solve_round n F b x : (forall i, (i < n)%nat -> F i i <> 0) -> ilu_solved n F b x ->
  exists M, mwithin u (2 * n) n n (mprod n (mabs (ulof F)) (mabs (upf F))) (mprod n (ulof F) (upf F)) M /\ msolves n M x b.
Proof.
  intros Hd (Y & HY & HX).
  destruct (unit_lower_back n F b Y HY) as (L1 & P1 & S1).
  destruct (upper_back n F Y x Hd HX) as (U1 & P2 & S2).
  exists (mprod n L1 U1). split; [|eapply mprod_solves; eauto].
  replace (2 * n)%nat with (n + n)%nat by lia. now apply mprod_pert.
Qed.

(** ** The tridiagonal sweeps *)
Section Tri.
Variables (n : nat) (dl d du b x : nat -> R).
Local Notation P i := (fst (sweep dl d du b i)).
Local Notation Q i := (snd (sweep dl d du b i)).
(** The computed pivots. *)
Definition den (i : nat) : R := match i with 0%nat => d 0%nat | S j => add (d (S j)) (mul (dl j) (P j)) end.

Lemma P_eq i : P i = div (opp (du i)) (den i).
Proof. destruct i; reflexivity. Qed.

(** What goes into each perturbed row. *)
Lemma P_near i : den i <> 0 -> exists s, near u 1 s /\ P i * den i = - du i * s.
Proof.
  intros H. rewrite P_eq. destruct (div_near (opp (du i)) (den i) H) as (s & Ns & ->). exists s. split; auto.
  rewrite ax_opp. field. auto.
Qed.
Lemma den_near i : exists a m, near u 1 a /\ near u 1 m /\ den (S i) = (d (S i) + dl i * P i * m) * a.
Proof.
  destruct (mul_near (dl i) (P i)) as (m & Nm & Em). destruct (add_near (d (S i)) (mul (dl i) (P i))) as (a & Na & Ea).
  exists a, m. split; [auto|split; auto]. cbn [den]. rewrite Ea, Em. ring.
Qed.
Lemma Q0_near : d 0%nat <> 0 -> exists t, near u 1 t /\ b 0%nat = Q 0%nat * d 0%nat * t.
Proof.
  intros H. cbn [sweep snd]. destruct (div_near (b 0%nat) (d 0%nat) H) as (t & Nt & ->). pose proof (near_pos Hu _ _ Nt).
  exists (/ t). split; [now apply (near_inv Hu)|]. field. split; first [assumption|lra].
Qed.
Lemma Q_near i : den (S i) <> 0 -> exists t m, near u 2 t /\ near u 1 m /\ b (S i) = Q (S i) * den (S i) * t + dl i * Q i * m.
Proof.
  intros H. destruct (mul_near (dl i) (Q i)) as (m & Nm & Em). destruct (sub_near (b (S i)) (mul (dl i) (Q i))) as (a & Na & Ea).
  destruct (div_near (sub (b (S i)) (mul (dl i) (Q i))) (den (S i)) H) as (t & Nt & Et).
  pose proof (near_pos Hu _ _ Nt). pose proof (near_pos Hu _ _ Na).
  exists (/ (a * t)), m. split; [|split; auto].
  - apply (near_inv Hu). change 2%nat with (1 + 1)%nat. now apply (near_mul Hu).
  - change (Q (S i)) with (div (sub (b (S i)) (mul (dl i) (Q i))) (den (S i))). rewrite Et, Ea, Em. field. repeat (split; try first [assumption|lra]).
Qed.
Lemma X_near i : (i < n - 1)%nat -> swept n dl d du b x ->
  exists a r, near u 1 a /\ near u 1 r /\ Q i = x i * a - P i * x (S i) * r.
Proof.
  intros Hi [_ H]. specialize (H i Hi). destruct (mul_near (P i) (x (S i))) as (r & Nr & Er).
  destruct (add_near (mul (P i) (x (S i))) (Q i)) as (a & Na & Ea). pose proof (near_pos Hu _ _ Na).
  exists (/ a), r. split; [now apply (near_inv Hu)|split; auto]. rewrite H, Ea, Er. field. lra.
Qed.
(** The last row fits the same shape. *)
Lemma X_near' i : (i < n)%nat -> swept n dl d du b x ->
  exists a r, near u 1 a /\ near u 1 r /\ Q i = x i * a - (if Nat.eqb (S i) n then 0 else P i * x (S i) * r).
Proof.
  intros Hi H. destruct (Nat.eqb_spec (S i) n) as [E|E].
  - exists 1, 1. split; [apply (near_1 Hu)|split; [apply (near_1 Hu)|]]. destruct H as [H _].
    replace (n - 1)%nat with i in H by lia. rewrite H. ring.
  - apply X_near; auto. lia.
Qed.

(** Row 0 and row i+1 of the perturbed system. *)
Lemma tri_row0 : (0 < n)%nat -> d 0%nat <> 0 -> swept n dl d du b x ->
  exists d' u', pert 2 (d 0%nat) d' /\ pert 3 (du 0%nat) u' /\
    d' * x 0%nat + (if Nat.eqb 1 n then 0 else u' * x 1%nat) = b 0%nat.
Proof.
  intros Hn Hd Hs. destruct (Q0_near Hd) as (t & Nt & Eb). destruct (X_near' 0%nat Hn Hs) as (a & r & Na & Nr & EQ).
  destruct (P_near 0%nat Hd) as (s & Ns & EP). cbn [den] in EP.
  exists (d 0%nat * (a * t)), (du 0%nat * (s * (r * t))). split; [|split].
  - exists (a * t). split; [|reflexivity]. change 2%nat with (1 + 1)%nat. now apply (near_mul Hu).
  - exists (s * (r * t)). split; [|reflexivity]. change 3%nat with (1 + (1 + 1))%nat. repeat apply (near_mul Hu); auto.
  - rewrite Eb, EQ. destruct (Nat.eqb 1 n); [ring|].
    replace ((x 0%nat * a - P 0%nat * x 1%nat * r) * d 0%nat * t) with (x 0%nat * a * d 0%nat * t - P 0%nat * d 0%nat * x 1%nat * r * t) by ring.
    rewrite EP. ring.
Qed.

Lemma tri_row i : (S i < n)%nat -> den (S i) <> 0 -> swept n dl d du b x ->
  exists l' dd' ld' lu' u', pert 2 (dl i) l' /\ pert 4 (d (S i)) dd' /\ pert 5 (dl i * P i) ld' /\ pert 2 (dl i * P i) lu' /\ pert 4 (du (S i)) u' /\
    l' * x i + (dd' + (ld' - lu')) * x (S i) + (if Nat.eqb (S (S i)) n then 0 else u' * x (S (S i))) = b (S i).
Proof.
  intros Hn Hd Hs. destruct (Q_near i Hd) as (t & m & Nt & Nm & Eb).
  destruct (X_near' (S i) Hn Hs) as (a & r & Na & Nr & EQ). destruct (X_near i ltac:(lia) Hs) as (a0 & r0 & Na0 & Nr0 & EQ0).
  destruct (P_near (S i) Hd) as (s & Ns & EP). destruct (den_near i) as (e & m1 & Ne & Nm1 & Ed).
  exists (dl i * (m * a0)), (d (S i) * (e * (a * t))), (dl i * P i * (m1 * (e * (a * t)))), (dl i * P i * (m * r0)), (du (S i) * (s * (r * t))).
  split; [|split; [|split; [|split; [|split]]]].
  - eexists. split; [|reflexivity]. change 2%nat with (1 + 1)%nat. now apply (near_mul Hu).
  - eexists. split; [|reflexivity]. change 4%nat with (1 + (1 + 2))%nat. repeat apply (near_mul Hu); auto.
  - eexists. split; [|reflexivity]. change 5%nat with (1 + (1 + (1 + 2)))%nat. repeat apply (near_mul Hu); auto.
  - eexists. split; [|reflexivity]. change 2%nat with (1 + 1)%nat. now apply (near_mul Hu).
  - eexists. split; [|reflexivity]. change 4%nat with (1 + (1 + 2))%nat. repeat apply (near_mul Hu); auto.
  - rewrite Eb, EQ0.
    assert (G : Q (S i) * den (S i) * t = x (S i) * (d (S i) + dl i * P i * m1) * e * (a * t) + (if Nat.eqb (S (S i)) n then 0 else du (S i) * (s * (r * t)) * x (S (S i)))).
    { rewrite EQ. destruct (Nat.eqb (S (S i)) n).
      - rewrite Ed. ring.
      - replace ((x (S i) * a - P (S i) * x (S (S i)) * r) * den (S i) * t)
          with (x (S i) * a * den (S i) * t - (P (S i) * den (S i)) * x (S (S i)) * r * t) by ring.
        rewrite EP, Ed. ring. }
    rewrite G. ring.
Qed.

(** Diagonal dominance with a margin for rounding: the pivots stay away from zero and the
    coefficients of the forward sweep stay in [-1, 1]. *)
Definition dominant : Prop :=
  forall i, (i < n)%nat -> (if Nat.eqb i 0 then 0 else Rabs (dl (i - 1)%nat)) + (if Nat.eqb (S i) n then 0 else Rabs (du i)) < (1 - u) ^ 2 * Rabs (d i).

Lemma near1_bounds t : near u 1 t -> 1 - u <= t /\ t * (1 - u) <= 1.
Proof.
  intros [H1 H2]. cbn [pow] in *. rewrite Rmult_1_r in *. split; auto.
  apply Rmult_le_reg_r with (/ (1 - u)); [apply Rinv_0_lt_compat; lra|]. rewrite Rmult_assoc, Rinv_r by lra. lra.
Qed.

Lemma dominant_pivots : dominant -> forall i, (i < n)%nat -> den i <> 0 /\ ((S i < n)%nat -> Rabs (P i) <= 1).
Proof.
  intros D.
  assert (Step : forall i, (i < n)%nat -> (1 - u) * (Rabs (d i) * (1 - u) - (if Nat.eqb i 0 then 0 else Rabs (dl (i - 1)%nat))) <= (1 - u) * Rabs (den i) ->
      den i <> 0 /\ ((S i < n)%nat -> Rabs (P i) <= 1)).
  { intros i Hi B. specialize (D i Hi). set (l := if Nat.eqb i 0 then 0 else Rabs (dl (i - 1)%nat)) in *.
    assert (L0 : 0 <= l) by (unfold l; destruct (Nat.eqb i 0); [lra|apply Rabs_pos]).
    assert (U0 : 0 <= if Nat.eqb (S i) n then 0 else Rabs (du i)) by (destruct (Nat.eqb (S i) n); [lra|apply Rabs_pos]).
    assert (PD : 0 < Rabs (den i)).
    { assert (0 < (1 - u) * (Rabs (d i) * (1 - u) - l)) by nra. apply Rmult_lt_reg_l with (1 - u); [lra|]. lra. }
    assert (Nz : den i <> 0) by (intros E; rewrite E, Rabs_R0 in PD; lra).
    split; auto. intros Hs. destruct (Nat.eqb_spec (S i) n); [lia|].
    destruct (P_near i Nz) as (s & Ns & E). destruct (near1_bounds s Ns) as [S1 S2].
    assert (E' : Rabs (P i) * Rabs (den i) = Rabs (du i) * s).
    { rewrite <- Rabs_mult, E, Rabs_mult, Rabs_Ropp, (Rabs_pos_eq s); [reflexivity|lra]. }
    apply Rmult_le_reg_r with (Rabs (den i)); auto. rewrite E', Rmult_1_l.
    apply Rmult_le_reg_l with (1 - u); [lra|]. nra. }
  induction i as [|i IH]; intros Hi.
  - apply Step; auto. cbn [den Nat.eqb]. pose proof (Rabs_pos (d 0%nat)). apply Rmult_le_compat_l; nra.
  - destruct (IH ltac:(lia)) as [_ HP]. specialize (HP Hi). apply Step; auto. cbn [Nat.eqb]. replace (S i - 1)%nat with i by lia.
    apply Rmult_le_compat_l; [lra|].
    destruct (den_near i) as (a & m & Na & Nm & E). destruct (near1_bounds a Na) as [A1 A2]. destruct (near1_bounds m Nm) as [M1 M2].
    rewrite E, Rabs_mult, (Rabs_pos_eq a) by lra.
    assert (T : Rabs (d (S i)) - Rabs (dl i) * m <= Rabs (d (S i) + dl i * P i * m)).
    { pose proof (Rabs_triang (d (S i) + dl i * P i * m) (- (dl i * P i * m))) as T.
      replace (d (S i) + dl i * P i * m + - (dl i * P i * m)) with (d (S i)) in T by ring.
      rewrite Rabs_Ropp, !Rabs_mult, (Rabs_pos_eq m) in T by lra.
      pose proof (Rabs_pos (dl i)). assert (Rabs (dl i) * Rabs (P i) * m <= Rabs (dl i) * m).
      { apply Rmult_le_compat_r; [lra|]. rewrite <- (Rmult_1_r (Rabs (dl i))) at 2. now apply Rmult_le_compat_l. } lra. }
    specialize (D (S i) Hi). change (Nat.eqb (S i) 0) with false in D. cbv iota in D. replace (S i - 1)%nat with i in D by lia.
    assert (U0 : 0 <= if Nat.eqb (S (S i)) n then 0 else Rabs (du (S i))) by (destruct (Nat.eqb (S (S i)) n); [lra|apply Rabs_pos]).
    pose proof (Rabs_pos (dl i)).
    assert (L : Rabs (dl i) * m * (1 - u) <= Rabs (dl i)) by nra.
    assert (D' : 0 <= Rabs (d (S i)) - Rabs (dl i) * m).
    { apply Rmult_le_reg_r with (1 - u); [lra|]. rewrite Rmult_0_l. pose proof (Rabs_pos (d (S i))).
      assert ((1 - u) ^ 2 * Rabs (d (S i)) <= (1 - u) * Rabs (d (S i))) by (apply Rmult_le_compat_r; [lra|]; nra). lra. }
    assert (X : (Rabs (d (S i)) - Rabs (dl i) * m) * (1 - u) <= Rabs (d (S i) + dl i * P i * m) * a) by (apply Rmult_le_compat; lra).
    lra.
Qed.
(** The perturbed matrix, assembled. *)
Definition trif (l dd uu : nat -> R) (i j : nat) : R :=
  if Nat.eqb i j then dd i else if Nat.eqb j (i + 1) then uu i else if Nat.eqb i (j + 1) then l j else 0.

Lemma trif_row0 l dd uu (z : nat -> R) : (0 < n)%nat ->
  rsum n (fun j => trif l dd uu 0 j * z j) = dd 0%nat * z 0%nat + (if Nat.eqb 1 n then 0 else uu 0%nat * z 1%nat).
Proof.
  intros Hn. destruct (Nat.eqb_spec 1 n) as [<-|Ne].
  - cbn. ring.
  - rewrite (rsum_split n 2) by lia. rewrite !rsum_S, (rsum_zero (n - 2)).
    + cbn. ring.
    + intros j Hj. unfold trif. cbn. destruct j; cbn; ring.
Qed.
Lemma trif_row l dd uu (z : nat -> R) i : (S i < n)%nat ->
  rsum n (fun j => trif l dd uu (S i) j * z j) =
    l i * z i + dd (S i) * z (S i) + (if Nat.eqb (S (S i)) n then 0 else uu (S i) * z (S (S i))).
Proof.
  intros Hn.
  assert (V : forall j, trif l dd uu (S i) j = if Nat.eqb (S i) j then dd (S i) else if Nat.eqb j (S (S i)) then uu (S i) else if Nat.eqb i j then l i else 0).
  { intros j. unfold trif. replace (S i + 1)%nat with (S (S i)) by lia. destruct (Nat.eqb (S i) j); auto. destruct (Nat.eqb j (S (S i))); auto.
    rewrite Nat.add_1_r. cbn [Nat.eqb]. destruct (Nat.eqb_spec i j); subst; auto. }
  rewrite (rsum_ext n _ (fun j => (if Nat.eqb (S i) j then dd (S i) else if Nat.eqb j (S (S i)) then uu (S i) else if Nat.eqb i j then l i else 0) * z j))
    by (intros; now rewrite V).
  rewrite (rsum_split n i) by lia. rewrite (rsum_zero i).
  2:{ intros j Hj. destruct (Nat.eqb_spec (S i) j); [lia|]. destruct (Nat.eqb_spec j (S (S i))); [lia|]. destruct (Nat.eqb_spec i j); [lia|]. ring. }
  rewrite (rsum_split (n - i) 2) by lia. rewrite !rsum_S. cbn [bsum].
  replace (i + 0)%nat with i by lia. replace (i + 1)%nat with (S i) by lia.
  destruct (Nat.eqb_spec (S i) i); [lia|]. destruct (Nat.eqb_spec i (S (S i))); [lia|]. rewrite !Nat.eqb_refl.
  destruct (Nat.eqb_spec (S (S i)) n) as [E|E].
  - replace (n - i - 2)%nat with 0%nat by lia. cbn. ring.
  - replace (n - i - 2)%nat with (S (n - i - 3)) by lia. rewrite rsum_first. replace (i + (2 + 0))%nat with (S (S i)) by lia.
    destruct (Nat.eqb_spec (S i) (S (S i))); [lia|]. rewrite !Nat.eqb_refl. rewrite (rsum_zero (n - i - 3)).
    + cbn. ring.
    + intros j Hj. destruct (Nat.eqb_spec (S i) (i + (2 + S j))); [lia|]. destruct (Nat.eqb_spec (i + (2 + S j)) (S (S i))); [lia|].
      destruct (Nat.eqb_spec i (i + (2 + S j))); [lia|]. ring.
Qed.

(** Without dominance: the error in the diagonal is measured with the computed coefficients. *)
Lemma tri_backward : (forall i, (i < n)%nat -> den i <> 0) -> swept n dl d du b x ->
  exists l' d' u', (forall i, (S i < n)%nat -> Rabs (l' i - dl i) <= gamma u 2 * Rabs (dl i)) /\
    (forall i, (S i < n)%nat -> Rabs (u' i - du i) <= gamma u 4 * Rabs (du i)) /\
    (forall i, (i < n)%nat -> Rabs (d' i - d i) <= gamma u 4 * Rabs (d i) + (if Nat.eqb i 0 then 0 else gamma u 7 * (Rabs (dl (i - 1)%nat) * Rabs (P (i - 1)%nat)))) /\
    msolves n (trif l' d' u') x b.
Proof.
  intros Hd Hs.
  destruct (fin_choice n (fun i (r : R * R * R) => let '(l, dd, uu) := r in
    (forall k, i = S k -> Rabs (l - dl k) <= gamma u 2 * Rabs (dl k)) /\ Rabs (uu - du i) <= gamma u 4 * Rabs (du i) /\
    Rabs (dd - d i) <= gamma u 4 * Rabs (d i) + (if Nat.eqb i 0 then 0 else gamma u 7 * (Rabs (dl (i - 1)%nat) * Rabs (P (i - 1)%nat))) /\
    match i with 0%nat => 0 | S k => l * x k end + dd * x i + (if Nat.eqb (S i) n then 0 else uu * x (S i)) = b i) (0, 0, 0)) as (f & Hf).
  { intros i Hi. destruct i as [|i].
    - destruct (tri_row0 Hi (Hd 0%nat Hi) Hs) as (d' & u' & P1 & P2 & E). exists (0, d', u'). split; [discriminate|].
      split; [apply pert_close, (pert_mono 3); [lia|auto]|]. split.
      + cbn [Nat.eqb]. rewrite Rplus_0_r. apply pert_close, (pert_mono 2); [lia|auto].
      + rewrite Rplus_0_l. exact E.
    - destruct (tri_row i Hi (Hd (S i) Hi) Hs) as (l' & dd' & ld' & lu' & u' & P1 & P2 & P3 & P4 & P5 & E).
      exists (l', dd' + (ld' - lu'), u'). split; [|split; [|split]].
      + intros k Ek. injection Ek as <-. now apply pert_close.
      + now apply pert_close.
      + change (Nat.eqb (S i) 0) with false. cbv iota. replace (S i - 1)%nat with i by lia. rewrite <- Rabs_mult.
        replace (dd' + (ld' - lu') - d (S i)) with ((dd' - d (S i)) + ((ld' - dl i * P i) - (lu' - dl i * P i))) by ring.
        apply pert_close in P2, P3, P4. pose proof (gamma_add (u := u) 5 2) as G. cbn [Nat.add] in G.
        eapply Rle_trans; [apply Rabs_triang|]. apply Rplus_le_compat; [auto|].
        eapply Rle_trans; [apply Rabs_triang|]. rewrite Rabs_Ropp. pose proof (Rabs_pos (dl i * P i)). nra.
      + exact E. }
  exists (fun i => fst (fst (f (S i)))), (fun i => snd (fst (f i))), (fun i => snd (f i)). split; [|split; [|split]].
  - intros i Hi. specialize (Hf (S i) Hi). destruct (f (S i)) as [[l dd] uu]. now apply Hf.
  - intros i Hi. specialize (Hf i ltac:(lia)). destruct (f i) as [[l dd] uu]. now apply Hf.
  - intros i Hi. specialize (Hf i Hi). destruct (f i) as [[l dd] uu]. now apply Hf.
  - intros i Hi. pose proof (Hf i Hi) as H. destruct i as [|i].
    + rewrite trif_row0 by auto. destruct (f 0%nat) as [[l dd] uu]. destruct H as (_ & _ & _ & H). cbn [fst snd]. lra.
    + rewrite trif_row by auto. destruct (f (S i)) as [[l dd] uu]. destruct H as (_ & _ & _ & H). exact H.
Qed.

Lemma tri_backward_dominant : dominant -> swept n dl d du b x ->
  exists l' d' u', (forall i, (S i < n)%nat -> Rabs (l' i - dl i) <= gamma u 2 * Rabs (dl i)) /\
    (forall i, (S i < n)%nat -> Rabs (u' i - du i) <= gamma u 4 * Rabs (du i)) /\
    (forall i, (i < n)%nat -> Rabs (d' i - d i) <= gamma u 11 * Rabs (d i)) /\
    msolves n (trif l' d' u') x b.
Proof.
  intros D Hs. pose proof (dominant_pivots D) as HP.
  destruct (tri_backward (fun i Hi => proj1 (HP i Hi)) Hs) as (l' & d' & u' & H1 & H2 & H3 & H4).
  exists l', d', u'. split; [auto|split; [auto|split; [|auto]]].
  intros i Hi. eapply Rle_trans; [apply H3; auto|]. pose proof (gamma_add (u := u) 4 7) as G. cbn [Nat.add] in G.
  pose proof (Rabs_pos (d i)) as D0. destruct (Nat.eqb_spec i 0) as [->|Ne].
  - pose proof (gamma_pos Hu 7). nra.
  - destruct (HP (i - 1)%nat ltac:(lia)) as [_ B]. specialize (B ltac:(lia)). specialize (D i Hi).
    destruct (Nat.eqb_spec i 0); [lia|].
    assert (U0 : 0 <= if Nat.eqb (S i) n then 0 else Rabs (du i)) by (destruct (Nat.eqb (S i) n); [lra|apply Rabs_pos]).
    assert (L : Rabs (dl (i - 1)%nat) <= Rabs (d i)).
    { assert ((1 - u) ^ 2 * Rabs (d i) <= 1 * Rabs (d i)) by (apply Rmult_le_compat_r; [auto|nra]). lra. }
    pose proof (Rabs_pos (dl (i - 1)%nat)) as L0.
    assert (X : Rabs (dl (i - 1)%nat) * Rabs (P (i - 1)%nat) <= Rabs (d i)).
    { rewrite <- (Rmult_1_r (Rabs (d i))). apply Rmult_le_compat; auto. apply Rabs_pos. }
    pose proof (gamma_pos Hu 7) as G7. assert (gamma u 7 * (Rabs (dl (i - 1)%nat) * Rabs (P (i - 1)%nat)) <= gamma u 7 * Rabs (d i)) by (now apply Rmult_le_compat_l).
    nra.
Qed.
End Tri.
End Round2.
