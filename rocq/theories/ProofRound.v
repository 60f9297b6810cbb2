(** * Rounding errors: sums, products, substitution, factorisations

    Everything here is about the recurrences proved bit for bit elsewhere (fsum, ssub, reval,
    factored, fwd, bwd, sweep ...), read with operators that satisfy [Approx]. *)
From Coq Require Import Reals Lra Lia Field.
From Verif Require Import Base Scalar Spec Sums RealVec SpecRound Rounding ModelSolvers ProofChol ProofCholSolve ProofCholMath
  ProofIlu ProofTdma ProofTdmaBits.
Local Open Scope R_scope.
Local Notation rsum := (@bsum R ROps).
Local Notation zeroR := (@zero R ROps).

(** Finite choice. *)
Lemma fin_choice {A} (n : nat) (P : nat -> A -> Prop) (a0 : A) :
  (forall i, (i < n)%nat -> exists a, P i a) -> exists f, forall i, (i < n)%nat -> P i (f i).
Proof.
  induction n as [|n IH]; intros H; [exists (fun _ => a0); intros; lia|].
  destruct IH as [f Hf]; [intros; apply H; lia|]. destruct (H n ltac:(lia)) as [a Ha].
  exists (fun i => if Nat.eqb i n then a else f i). intros i Hi.
  destruct (Nat.eqb_spec i n) as [->|]; auto. apply Hf. lia.
Qed.

(** ** Exact real sums *)
Lemma rsum_add n f g : rsum n (fun i => f i + g i) = rsum n f + rsum n g.
Proof. exact (bsum_add (O := ROps) n f g). Qed.
Lemma rsum_sub n f g : rsum n (fun i => f i - g i) = rsum n f - rsum n g.
Proof. exact (bsum_sub (O := ROps) n f g). Qed.
Lemma rsum_scal n c f : rsum n (fun i => c * f i) = c * rsum n f.
Proof. exact (bsum_scal_l (O := ROps) n c f). Qed.
Lemma rsum_S n f : rsum (S n) f = rsum n f + f n.
Proof. reflexivity. Qed.
Lemma rsum_ext n f g : (forall i, (i < n)%nat -> f i = g i) -> rsum n f = rsum n g.
Proof. apply bsum_ext. Qed.

Section Round.
Context {O : Ops R} {u : R} {AX : Approx O u}.
Let Hu : 0 <= u < 1 := u_range.

(** [a'] is [a] times at most k rounding factors. *)
Definition pert (k : nat) (a a' : R) : Prop := exists t, near u k t /\ a' = a * t.
Lemma pert_mono k k' a a' : (k <= k')%nat -> pert k a a' -> pert k' a a'.
Proof. intros H (t & N & E). exists t. split; auto. now apply (near_mono Hu k). Qed.
Lemma pert_close k a a' : pert k a a' -> Rabs (a' - a) <= gamma u k * Rabs a.
Proof. intros (t & N & ->). now apply (near_err Hu). Qed.
Lemma pert_refl k a : pert k a a.
Proof. exists 1. split; [apply (near_1 Hu)|ring]. Qed.
Lemma pert_mul i j a b a' b' : pert i a a' -> pert j b b' -> pert (i + j) (a * b) (a' * b').
Proof.
  intros (s & Ns & ->) (t & Nt & ->). exists (s * t). split; [now apply (near_mul Hu)|ring].
Qed.
Lemma pert_nz k a a' : pert k a a' -> a <> 0 -> a' <> 0.
Proof.
  intros (t & N & ->) H. apply (near_pos Hu) in N. apply Rmult_integral_contrapositive_currified; lra.
Qed.
Lemma pert_abs k a a' : pert k a a' -> pert k (Rabs a) (Rabs a').
Proof.
  intros (t & N & ->). exists t. split; auto. rewrite Rabs_mult, (Rabs_pos_eq t); auto.
  apply (near_pos Hu) in N. lra.
Qed.

(** Sums of perturbed terms. *)
Lemma pert_sum k n f g : (forall i, (i < n)%nat -> pert k (f i) (g i)) ->
  Rabs (rsum n g - rsum n f) <= gamma u k * rsum n (fun i => Rabs (f i)).
Proof.
  intros H. rewrite <- rsum_sub. eapply Rle_trans; [apply bsum_abs|]. rewrite <- rsum_scal.
  apply bsum_le. intros i Hi. apply pert_close; auto.
Qed.

Lemma gamma_add a b : gamma u a + gamma u b <= gamma u (a + b).
Proof.
  unfold gamma. rewrite pow_add, Rinv_mult. pose proof (wi_ge1 Hu a). pose proof (wi_ge1 Hu b). nra.
Qed.

(** ** Differences evaluated from the left: [a - f 0 - f 1 - ...] *)
Lemma ssub_back n a f : exists T t, near u n T /\ (forall k, (k < n)%nat -> near u k (t k)) /\
  a = ssub n a f * T + rsum n (fun k => f k * t k).
Proof.
  induction n as [|n (T & t & NT & Nt & E)].
  - exists 1, (fun _ => 1). split; [apply (near_1 Hu)|]. split; [intros; lia|]. cbn. ring.
  - cbn [ssub]. destruct (sub_near (ssub n a f) (f n)) as (d & Nd & Ed). rewrite Ed.
    pose proof (near_pos Hu _ _ Nd) as Pd.
    exists (/ d * T), (fun k => if Nat.eqb k n then T else t k). split; [|split].
    + change (S n) with (1 + n)%nat. apply (near_mul Hu); auto. now apply (near_inv Hu).
    + intros k Hk. destruct (Nat.eqb_spec k n) as [->|]; auto. apply Nt. lia.
    + rewrite rsum_S, Nat.eqb_refl.
      rewrite (rsum_ext n _ (fun k => f k * t k)).
      * rewrite E at 1. field. lra.
      * intros k Hk. destruct (Nat.eqb_spec k n); [lia|reflexivity].
Qed.

(** One row of a substitution: [y = (b - l 0 * x 0 - ...) / d]. *)
Lemma row_back n b d l x : d <> 0 -> exists d' l', pert (S n) d d' /\ (forall k, (k < n)%nat -> pert n (l k) (l' k)) /\
  d' * div (ssub n b (fun k => mul (l k) (x k))) d + rsum n (fun k => l' k * x k) = b.
Proof.
  intros Hd. set (f := fun k => mul (l k) (x k)).
  destruct (ssub_back n b f) as (T & t & NT & Nt & E).
  destruct (div_near (ssub n b f) d Hd) as (s & Ns & Es). pose proof (near_pos Hu _ _ Ns) as Ps.
  destruct (fin_choice n (fun k m => near u 1 m /\ mul (l k) (x k) = l k * x k * m) 1) as (m & Hm).
  { intros k _. apply mul_near. }
  exists (d * (/ s * T)), (fun k => l k * (m k * t k)). split; [|split].
  - exists (/ s * T). split; [|reflexivity]. change (S n) with (1 + n)%nat. apply (near_mul Hu); auto. now apply (near_inv Hu).
  - intros k Hk. exists (m k * t k). split; [|reflexivity]. apply (near_mono Hu (1 + k)); [lia|].
    apply (near_mul Hu); auto. apply Hm; auto.
  - rewrite Es. rewrite E at 2.
    rewrite (rsum_ext n (fun k => f k * t k) (fun k => l k * (m k * t k) * x k)).
    + field. lra.
    + intros k Hk. unfold f. destruct (Hm k Hk) as [_ ->]. ring.
Qed.

(** The same without the division. *)
Lemma urow_back n b l x : exists d' l', pert n 1 d' /\ (forall k, (k < n)%nat -> pert n (l k) (l' k)) /\
  d' * ssub n b (fun k => mul (l k) (x k)) + rsum n (fun k => l' k * x k) = b.
Proof.
  set (f := fun k => mul (l k) (x k)).
  destruct (ssub_back n b f) as (T & t & NT & Nt & E).
  destruct (fin_choice n (fun k m => near u 1 m /\ mul (l k) (x k) = l k * x k * m) 1) as (m & Hm).
  { intros k _. apply mul_near. }
  exists T, (fun k => l k * (m k * t k)). split; [|split].
  - exists T. split; [auto|ring].
  - intros k Hk. exists (m k * t k). split; [|reflexivity]. apply (near_mono Hu (1 + k)); [lia|].
    apply (near_mul Hu); auto. apply Hm; auto.
  - rewrite E at 2. rewrite (rsum_ext n (fun k => f k * t k) (fun k => l k * (m k * t k) * x k)); [ring|].
    intros k Hk. unfold f. destruct (Hm k Hk) as [_ ->]. ring.
Qed.

(** ** Triangular systems *)
Definition upf (F : nat -> nat -> R) (i j : nat) : R := if Nat.leb i j then F i j else 0.
Definition lof (L : nat -> nat -> R) (i j : nat) : R := if Nat.leb j i then L i j else 0.
(** Unit lower triangle below the diagonal of F. *)
Definition ulof (F : nat -> nat -> R) (i j : nat) : R := if Nat.ltb j i then F i j else if Nat.eqb i j then 1 else 0.

Definition mpert (k n : nat) (A A' : nat -> nat -> R) : Prop :=
  forall i j, (i < n)%nat -> (j < n)%nat -> pert k (A i j) (A' i j).
Definition msolves (n : nat) (A : nat -> nat -> R) (x b : nat -> R) : Prop :=
  forall i, (i < n)%nat -> rsum n (fun j => A i j * x j) = b i.

Lemma rsum_split n k f : (k <= n)%nat -> rsum n f = rsum k f + rsum (n - k) (fun i => f (k + i)%nat).
Proof. exact (bsum_split (O := ROps) n k f). Qed.
Lemma rsum_first n f : rsum (S n) f = f 0%nat + rsum n (fun i => f (S i)).
Proof. exact (bsum_first (O := ROps) n f). Qed.
Lemma rsum_zero n f : (forall i, (i < n)%nat -> f i = 0) -> rsum n f = 0.
Proof. exact (bsum_zero (O := ROps) n f). Qed.

Lemma lower_row n i (a x : nat -> R) : (i < n)%nat -> (forall j, (i < j < n)%nat -> a j = 0) ->
  rsum n (fun j => a j * x j) = a i * x i + rsum i (fun j => a j * x j).
Proof.
  intros Hi H. rewrite (rsum_split n (S i)) by lia. rewrite rsum_S.
  rewrite (rsum_zero (n - S i)); [ring|]. intros j Hj. rewrite H by lia. ring.
Qed.
Lemma upper_row n i (a x : nat -> R) : (i < n)%nat -> (forall j, (j < i)%nat -> a j = 0) ->
  rsum n (fun j => a j * x j) = a i * x i + rsum (n - S i) (fun t => a (S i + t)%nat * x (S i + t)%nat).
Proof.
  intros Hi H. rewrite (rsum_split n i) by lia. rewrite (rsum_zero i) by (intros j Hj; rewrite H by lia; ring).
  replace (n - i)%nat with (S (n - S i)) by lia. rewrite rsum_first, Nat.add_0_r.
  rewrite (rsum_ext (n - S i) (fun k => a (i + S k)%nat * x (i + S k)%nat) (fun t => a (S i + t)%nat * x (S i + t)%nat)); [ring|].
  intros t _. now replace (i + S t)%nat with (S i + t)%nat by lia.
Qed.

Lemma lower_back n L b Y : (forall i, (i < n)%nat -> L i i <> 0) -> (forall i, (i < n)%nat -> fwd L b Y i) ->
  exists L1, mpert n n (lof L) L1 /\ msolves n L1 Y b.
Proof.
  intros Hd H.
  destruct (fin_choice n (fun i (r : nat -> R) =>
    (forall j, (j < n)%nat -> pert n (lof L i j) (r j)) /\ rsum n (fun j => r j * Y j) = b i) (fun _ => 0)) as (L1 & HL).
  { intros i Hi. destruct (row_back i (b i) (L i i) (L i) Y (Hd i Hi)) as (d' & l' & Pd & Pl & E).
    exists (fun j => if Nat.ltb j i then l' j else if Nat.eqb j i then d' else 0). split.
    - intros j Hj. unfold lof. destruct (Nat.ltb_spec j i).
      + destruct (Nat.leb_spec j i); [|lia]. apply (pert_mono i); [lia|]. auto.
      + destruct (Nat.eqb_spec j i) as [->|].
        * rewrite Nat.leb_refl. apply (pert_mono (S i)); [lia|auto].
        * destruct (Nat.leb_spec j i); [lia|]. apply pert_refl.
    - rewrite (lower_row n i); [|auto|].
      + rewrite Nat.ltb_irrefl, Nat.eqb_refl. rewrite <- E. rewrite (H i Hi) at 1. f_equal.
        apply rsum_ext. intros j Hj. destruct (Nat.ltb_spec j i); [reflexivity|lia].
      + intros j Hj. destruct (Nat.ltb_spec j i); [lia|]. destruct (Nat.eqb_spec j i); [lia|reflexivity]. }
  exists L1. split; [intros i j Hi Hj; now apply HL|intros i Hi; now apply HL].
Qed.

Lemma unit_lower_back n F b Y : (forall i, (i < n)%nat -> ilu_fwd F b Y i) ->
  exists L1, mpert n n (ulof F) L1 /\ msolves n L1 Y b.
Proof.
  intros H.
  destruct (fin_choice n (fun i (r : nat -> R) =>
    (forall j, (j < n)%nat -> pert n (ulof F i j) (r j)) /\ rsum n (fun j => r j * Y j) = b i) (fun _ => 0)) as (L1 & HL).
  { intros i Hi. destruct (urow_back i (b i) (F i) Y) as (d' & l' & Pd & Pl & E).
    exists (fun j => if Nat.ltb j i then l' j else if Nat.eqb i j then d' else 0). split.
    - intros j Hj. unfold ulof. destruct (Nat.ltb_spec j i).
      + apply (pert_mono i); [lia|]. auto.
      + destruct (Nat.eqb_spec i j) as [->|].
        * apply (pert_mono j); [lia|auto].
        * apply pert_refl.
    - rewrite (lower_row n i); [|auto|].
      + rewrite Nat.ltb_irrefl, Nat.eqb_refl. rewrite <- E. rewrite (H i Hi) at 1. f_equal.
        apply rsum_ext. intros j Hj. destruct (Nat.ltb_spec j i); [reflexivity|lia].
      + intros j Hj. destruct (Nat.ltb_spec j i); [lia|]. destruct (Nat.eqb_spec i j); [lia|reflexivity]. }
  exists L1. split; [intros i j Hi Hj; now apply HL|intros i Hi; now apply HL].
Qed.

Lemma upper_back n F y x : (forall i, (i < n)%nat -> F i i <> 0) -> (forall i, (i < n)%nat -> ilu_bwd n F y x i) ->
  exists U1, mpert n n (upf F) U1 /\ msolves n U1 x y.
Proof.
  intros Hd H.
  destruct (fin_choice n (fun i (r : nat -> R) =>
    (forall j, (j < n)%nat -> pert n (upf F i j) (r j)) /\ rsum n (fun j => r j * x j) = y i) (fun _ => 0)) as (L1 & HL).
  { intros i Hi.
    destruct (row_back (n - S i) (y i) (F i i) (fun t => F i (S i + t)%nat) (fun t => x (S i + t)%nat) (Hd i Hi)) as (d' & l' & Pd & Pl & E).
    exists (fun j => if Nat.ltb i j then l' (j - S i)%nat else if Nat.eqb j i then d' else 0). split.
    - intros j Hj. unfold upf. destruct (Nat.ltb_spec i j).
      + destruct (Nat.leb_spec i j); [|lia]. apply (pert_mono (n - S i)); [lia|].
        specialize (Pl (j - S i)%nat ltac:(lia)). now replace (S i + (j - S i))%nat with j in Pl by lia.
      + destruct (Nat.eqb_spec j i) as [->|].
        * rewrite Nat.leb_refl. apply (pert_mono (S (n - S i))); [lia|auto].
        * destruct (Nat.leb_spec i j); [lia|]. apply pert_refl.
    - rewrite (upper_row n i); [|auto|].
      + rewrite Nat.ltb_irrefl, Nat.eqb_refl. rewrite <- E. rewrite (H i Hi) at 1. f_equal.
        apply rsum_ext. intros t Ht. destruct (Nat.ltb_spec i (S i + t)); [|lia]. do 2 f_equal. lia.
      + intros j Hj. destruct (Nat.ltb_spec i j); [lia|]. destruct (Nat.eqb_spec j i); [lia|reflexivity]. }
  exists L1. split; [intros i j Hi Hj; now apply HL|intros i Hi; now apply HL].
Qed.

(** Products of perturbed matrices. *)
Definition mprod (n : nat) (A B : nat -> nat -> R) (i j : nat) : R := rsum n (fun k => A i k * B k j).
Lemma mprod_pert a b n A A' B B' : mpert a n A A' -> mpert b n B B' ->
  mwithin u (a + b) n n (mprod n (mabs A) (mabs B)) (mprod n A B) (mprod n A' B').
Proof.
  intros HA HB i j Hi Hj. unfold mprod, mabs.
  rewrite (rsum_ext n (fun k => Rabs (A i k) * Rabs (B k j)) (fun k => Rabs (A i k * B k j))) by (intros; now rewrite Rabs_mult).
  apply pert_sum. intros k Hk. apply pert_mul; auto.
Qed.
Lemma mprod_solves n A B x y b : msolves n A y b -> msolves n B x y -> msolves n (mprod n A B) x b.
Proof.
  intros HA HB i Hi. rewrite <- (HA i Hi). unfold mprod.
  rewrite (rsum_ext n (fun j => A i j * y j) (fun j => rsum n (fun k => A i j * (B j k * x k)))).
  - transitivity (rsum n (fun j => rsum n (fun k => A i k * B k j * x j))).
    + apply rsum_ext. intros j Hj. rewrite <- (Rmult_comm (x j)), <- rsum_scal. apply rsum_ext. intros; ring.
    + rewrite (bsum_swap (O := ROps) n n (fun j k => A i k * B k j * x j)). apply rsum_ext. intros j Hj. apply rsum_ext. intros. ring.
  - intros j Hj. rewrite rsum_scal. now rewrite (HB j Hj).
Qed.
Lemma mprod_abs_pos n A B i j : 0 <= mprod n (mabs A) (mabs B) i j.
Proof. apply bsum_nonneg. intros. apply Rmult_le_pos; apply Rabs_pos. Qed.

Lemma within_trans a b n B A A' A'' : (forall i j, (i < n)%nat -> (j < n)%nat -> 0 <= B i j) ->
  mwithin u a n n B A A' -> mwithin u b n n B A' A'' -> mwithin u (a + b) n n B A A''.
Proof.
  intros HB H1 H2 i j Hi Hj. specialize (H1 i j Hi Hj). specialize (H2 i j Hi Hj). specialize (HB i j Hi Hj).
  replace (A'' i j - A i j) with ((A'' i j - A' i j) + (A' i j - A i j)) by ring.
  eapply Rle_trans; [apply Rabs_triang|]. pose proof (gamma_add a b). nra.
Qed.
Lemma within_mono a b n B A A' : (a <= b)%nat -> (forall i j, (i < n)%nat -> (j < n)%nat -> 0 <= B i j) ->
  mwithin u a n n B A A' -> mwithin u b n n B A A'.
Proof.
  intros Hab HB H i j Hi Hj. eapply Rle_trans; [apply H; auto|]. apply Rmult_le_compat_r; [auto|]. now apply (gamma_mono Hu).
Qed.

(** ** Cholesky *)
Lemma bad_A (v : R) : bad v <-> v <= 0.
Proof.
  unfold bad. rewrite ax_eqb, ax_ltb, ax_zero. lra.
Qed.
Lemma diag_pos A L i : rowrec A L i -> 0 < L i i.
Proof.
  intros [_ [B E]]. rewrite bad_A in B. destruct (sqrt_near (pivot A L i)) as (t & Nt & Et); [lra|].
  rewrite E, Et. apply Rmult_lt_0_compat; [apply sqrt_lt_R0; lra|]. now apply (near_pos Hu 1).
Qed.

Lemma low_prod_R n L i j : (i < n)%nat -> (j <= i)%nat ->
  mprod n (lof L) (fun a b => lof L b a) i j = rsum j (fun k => L i k * L j k) + L i j * L j j.
Proof.
  intros Hi Hj. unfold mprod. rewrite (rsum_split n (S j)) by lia. rewrite rsum_S.
  rewrite (rsum_zero (n - S j)).
  - unfold lof. rewrite Nat.leb_refl. destruct (Nat.leb_spec j i); [|lia]. rewrite Rplus_0_r. f_equal. apply rsum_ext. intros k Hk.
    destruct (Nat.leb_spec k i); [|lia]. destruct (Nat.leb_spec k j); [reflexivity|lia].
  - intros k Hk. unfold lof. destruct (Nat.leb_spec (S j + k) j); [lia|]. ring.
Qed.
Lemma low_abs_R n L i j : (i < n)%nat -> (j <= i)%nat ->
  mprod n (mabs (lof L)) (fun a b => mabs (lof L) b a) i j = rsum j (fun k => Rabs (L i k * L j k)) + Rabs (L i j * L j j).
Proof.
  intros Hi Hj. rewrite Rabs_mult. rewrite (rsum_ext j _ (fun k => Rabs (L i k) * Rabs (L j k))) by (intros; apply Rabs_mult).
  rewrite <- (low_prod_R n (fun a b => Rabs (L a b))) by auto. apply rsum_ext. intros k Hk. unfold mabs, lof.
  destruct (Nat.leb k i), (Nat.leb k j); rewrite ?Rabs_R0; reflexivity.
Qed.

Lemma chol_entry n A L i j : factored n A L -> (i < n)%nat -> (j <= i)%nat ->
  exists f' d', (forall k, (k < j)%nat -> pert (S n) (L i k * L j k) (f' k)) /\ pert (S n) (L i j * L j j) d' /\
    A i j = rsum j f' + d'.
Proof.
  intros HF Hi Hj. destruct (Nat.eq_dec j i) as [->|Ne].
  - destruct (HF i Hi) as [_ [B E]]. rewrite bad_A in B.
    destruct (sqrt_near (pivot A L i)) as (s & Ns & Es); [lra|]. pose proof (near_pos Hu _ _ Ns) as Ps.
    destruct (ssub_back i (A i i) (fun k => pow2 (L i k))) as (T & t & NT & Nt & Ea).
    destruct (fin_choice i (fun k m => near u 1 m /\ pow2 (L i k) = L i k * L i k * m) 1) as (m & Hm).
    { intros k _. apply pow2_near. }
    exists (fun k => L i k * L i k * (m k * t k)), (L i i * L i i * (/ (s * s) * T)). split; [|split].
    + intros k Hk. exists (m k * t k). split; [|reflexivity]. apply (near_mono Hu (1 + k)); [lia|].
      apply (near_mul Hu); auto. apply Hm; auto.
    + exists (/ (s * s) * T). split; [|reflexivity]. apply (near_mono Hu (1 + 1 + i)); [lia|].
      apply (near_mul Hu); auto. apply (near_inv Hu), (near_mul Hu); auto.
    + rewrite Ea at 1. fold (pivot A L i). rewrite Rplus_comm. f_equal.
      * apply rsum_ext. intros k Hk. destruct (Hm k Hk) as [_ ->]. ring.
      * rewrite E, Es.
        replace (sqrt (pivot A L i) * s * (sqrt (pivot A L i) * s)) with (sqrt (pivot A L i) * sqrt (pivot A L i) * (s * s)) by ring.
        rewrite sqrt_sqrt by lra. field. lra.
  - destruct (HF i Hi) as [Ho _]. specialize (Ho j ltac:(lia)). unfold offrec in Ho.
    assert (Pj : 0 < L j j) by (apply (diag_pos A); apply HF; lia).
    destruct (row_back j (A i j) (L j j) (L i) (L j)) as (d' & l' & Pd & Pl & E); [lra|].
    exists (fun k => l' k * L j k), (d' * L i j). split; [|split].
    + intros k Hk. replace (S n) with (S n + 0)%nat by lia. apply pert_mul; [|apply pert_refl]. apply (pert_mono j); [lia|]. auto.
    + rewrite Rmult_comm. replace (S n) with (S n + 0)%nat by lia. rewrite (Rmult_comm d'). rewrite (Rmult_comm (L j j)).
      rewrite Nat.add_comm. apply pert_mul; [apply pert_refl|]. apply (pert_mono (S j)); [lia|auto].
    + rewrite <- E at 1. rewrite <- Ho. ring.
Qed.

Lemma chol_product_round n A L : factored n A L ->
  mwithin u (S n) n n (mprod n (mabs (lof L)) (fun a b => mabs (lof L) b a))
    (mprod n (lof L) (fun a b => lof L b a)) (symf A).
Proof.
  intros HF.
  assert (G : forall i j, (i < n)%nat -> (j <= i)%nat ->
    Rabs (A i j - mprod n (lof L) (fun a b => lof L b a) i j) <= gamma u (S n) * mprod n (mabs (lof L)) (fun a b => mabs (lof L) b a) i j).
  { intros i j Hi Hj. destruct (chol_entry n A L i j HF Hi Hj) as (f' & d' & P1 & P2 & ->).
    rewrite low_prod_R, low_abs_R by auto.
    replace (rsum j f' + d' - (rsum j (fun k => L i k * L j k) + L i j * L j j))
      with ((rsum j f' - rsum j (fun k => L i k * L j k)) + (d' - L i j * L j j)) by ring.
    eapply Rle_trans; [apply Rabs_triang|]. rewrite Rmult_plus_distr_l. apply Rplus_le_compat; [now apply pert_sum|now apply pert_close]. }
  intros i j Hi Hj. unfold symf. destruct (Nat.leb_spec j i) as [|H]; [now apply G|].
  specialize (G j i Hj ltac:(lia)).
  assert (S1 : forall M, mprod n M (fun a b => M b a) j i = mprod n M (fun a b => M b a) i j).
  { intros M. apply rsum_ext. intros; ring. }
  now rewrite !S1 in G.
Qed.

Lemma chol_solve_round n A L b x : factored n A L -> substituted n L b x ->
  exists A', mwithin u (3 * n + 1) n n (mprod n (mabs (lof L)) (fun a b => mabs (lof L) b a)) (symf A) A' /\ msolves n A' x b.
Proof.
  intros HF (Y & HY & HX).
  assert (Hd : forall i, (i < n)%nat -> L i i <> 0).
  { intros i Hi. apply Rgt_not_eq, (diag_pos A). now apply HF. }
  destruct (lower_back n L b Y Hd HY) as (L1 & P1 & S1).
  destruct (upper_back n (fun a b => L b a) Y x Hd HX) as (U1 & P2 & S2).
  exists (mprod n L1 U1). split; [|eapply mprod_solves; eauto].
  assert (Pos : forall i j, (i < n)%nat -> (j < n)%nat -> 0 <= mprod n (mabs (lof L)) (fun a b => mabs (lof L) b a) i j).
  { intros. apply (mprod_abs_pos n (lof L) (fun a b => lof L b a)). }
  replace (3 * n + 1)%nat with (S n + (n + n))%nat by lia.
  apply (within_trans _ _ n _ _ (mprod n (lof L) (fun a b => lof L b a))); auto.
  - intros i j Hi Hj. rewrite Rabs_minus_sym. now apply chol_product_round.
  - apply (mprod_pert n n n (lof L) L1 (fun a b => lof L b a) U1); auto.
Qed.

(** In terms of A alone: |L||L^T| is bounded by the diagonal of A. *)
Lemma chol_diag_bound n A L i : factored n A L -> (i < n)%nat -> gamma u (S n) < 1 ->
  mprod n (mabs (lof L)) (fun a b => mabs (lof L) b a) i i <= A i i / (1 - gamma u (S n)).
Proof.
  intros HF Hi Hg. pose proof (chol_product_round n A L HF i i Hi Hi) as H. unfold symf in H. rewrite Nat.leb_refl in H.
  assert (E : mprod n (mabs (lof L)) (fun a b => mabs (lof L) b a) i i = mprod n (lof L) (fun a b => lof L b a) i i).
  { apply rsum_ext. intros k Hk. unfold mabs. rewrite <- Rabs_mult. apply Rabs_pos_eq. apply Rle_0_sqr. }
  rewrite E in *. set (m := mprod n (lof L) (fun a b => lof L b a) i i) in *.
  apply Rmult_le_reg_r with (1 - gamma u (S n)); [lra|]. unfold Rdiv. rewrite Rmult_assoc, Rinv_l by lra.
  unfold Rabs in H. destruct (Rcase_abs (A i i - m)); lra.
Qed.

Lemma chol_abs_bound n A L i j : factored n A L -> (i < n)%nat -> (j < n)%nat -> gamma u (S n) < 1 ->
  mprod n (mabs (lof L)) (fun a b => mabs (lof L) b a) i j <= sqrt (A i i) * sqrt (A j j) / (1 - gamma u (S n)).
Proof.
  intros HF Hi Hj Hg. set (M := mabs (lof L)).
  pose proof (cauchy_schwarz n (M i) (M j)) as CS.
  assert (D : forall i, (i < n)%nat -> nrm n (M i) <= sqrt (A i i / (1 - gamma u (S n)))).
  { intros k Hk. apply sqrt_le_1_alt. pose proof (chol_diag_bound n A L k HF Hk Hg) as B.
    exact B. }
  assert (P : forall i, (i < n)%nat -> 0 <= A i i).
  { intros k Hk. pose proof (chol_diag_bound n A L k HF Hk Hg) as B.
    pose proof (mprod_abs_pos n (lof L) (fun a b => lof L b a) k k) as B0.
    assert (0 <= A k k / (1 - gamma u (S n))) by (eapply Rle_trans; [exact B0|exact B]).
    apply Rmult_le_reg_r with (/ (1 - gamma u (S n))); [apply Rinv_0_lt_compat; lra|]. unfold Rdiv in H. lra. }
  change (mprod n M (fun a b => M b a) i j) with (@dotp R ROps n (M i) (M j)).
  eapply Rle_trans; [apply Rle_abs|]. eapply Rle_trans; [exact CS|].
  eapply Rle_trans; [apply Rmult_le_compat; try apply nrm_nonneg; apply D; auto|].
  rewrite <- sqrt_mult by (apply Rmult_le_pos; auto; left; apply Rinv_0_lt_compat; lra).
  replace (A i i / (1 - gamma u (S n)) * (A j j / (1 - gamma u (S n))))
    with ((A i i * A j j) * ((/ (1 - gamma u (S n))) * (/ (1 - gamma u (S n))))) by (field; lra).
  rewrite sqrt_mult, sqrt_square, sqrt_mult; auto.
  - right. field. lra.
  - left. apply Rinv_0_lt_compat. lra.
  - apply Rmult_le_pos; auto.
  - apply Rle_0_sqr.
Qed.
End Round.
