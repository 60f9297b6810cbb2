(** * Triangular solves and factorisations in IEEE arithmetic (C79, C80) *)
From Coq Require Import Reals Lra Lia.
From Verif Require Import Base Scalar BaseLemmas Spec Sums RealVec ModelVec ModelMat ModelSolvers ModelIter ProofVec ProofChol ProofCholSolve
  ProofCholMath ProofIlu SpecRound Rounding ProofRound ProofRound2 SpecIeee ProofIeee.
Local Open Scope R_scope.

Local Notation rsum := (@bsum R ROps).

Section IeeeSolve.
Context {T : Type} {Op : Ops T} {val : T -> R} {fin : T -> Prop} {prd : T -> T -> T -> Prop} {u eta omega : R} {I : Ieee Op val fin prd u eta omega}.
Let Hu : 0 <= u < 1 := i_range (Ieee := I).
Let He : 0 <= eta := i_eta (Ieee := I).
Let AX : Approx ROps u := exact_u (I := I).
Local Notation pert := (pert (u := u)).
Local Notation mpert := (mpert (u := u)).

(** One row of a triangular solve: exact for perturbed coefficients and a right-hand side moved by
    the underflows. *)
Lemma sums_ieee k a (l y : nat -> T) : settled prd a -> fin (ssub k a (fun j => mul (l j) (y j))) ->
  fin a /\ (forall j, (j < k)%nat -> fin (l j) /\ fin (y j)) /\
  exists ts l' e, near u k ts /\ (forall j, (j < k)%nat -> pert k (val (l j)) (l' j)) /\ Rabs e <= INR k * eta * (1 + gamma u k) /\
    val a = val (ssub k a (fun j => mul (l j) (y j))) * ts + rsum k (fun j => l' j * val (y j)) + e.
Proof.
  intros Sa F. destruct (ssub_ieee _ _ _ Sa F) as (Fa & wf & Ff & ts & t & Nts & Nt & E). destruct (prods_ieee k l y wf Ff) as (Fly & m & e & H).
  split; auto. split; auto. exists ts, (fun j => val (l j) * (m j * t j)), (rsum k (fun j => e j * t j)). split; auto. split; [|split].
  - intros j Hj. exists (m j * t j). split; [|reflexivity]. apply (near_mono Hu (1 + j)); [lia|]. apply (near_mul Hu); auto. apply H; auto.
  - apply under_sum; [intros j Hj; apply H; auto|]. intros j Hj. apply (near_mono Hu j); [lia|]. auto.
  - rewrite E at 1. rewrite Rplus_assoc. f_equal. rewrite <- rsum_add. apply rsum_ext. intros j Hj. destruct (H j Hj) as (_ & _ & ->). ring.
Qed.

Lemma row_ieee k a d (l y : nat -> T) : let q := div (ssub k a (fun j => mul (l j) (y j))) d in settled prd a -> fin q -> fin d ->
  fin a /\ (forall j, (j < k)%nat -> fin (l j) /\ fin (y j)) /\ val d <> 0 /\
  exists d' l' e, pert (S k) (val d) d' /\ (forall j, (j < k)%nat -> pert k (val (l j)) (l' j)) /\
    Rabs e <= (INR k + Rabs (val d)) * eta * (1 + gamma u (S k)) /\
    d' * val q + rsum k (fun j => l' j * val (y j)) = val a + e.
Proof.
  intros q Sa F Fd. destruct (div_ieee _ _ F Fd) as (Fs & Nz & r & e0 & Nr & Be0 & Eq). fold q in Eq.
  destruct (sums_ieee k a l y Sa Fs) as (Fa & Fly & ts & l' & e & Nts & Pl & Be & E). split; auto. split; auto. split; auto.
  set (s := val (ssub k a (fun j => mul (l j) (y j)))) in *. pose proof (near_pos Hu _ _ Nr) as Pr.
  assert (NN : near u (S k) (/ r * ts)). { change (S k) with (1 + k)%nat. apply (near_mul Hu); auto. now apply (near_inv Hu). }
  exists (val d * (/ r * ts)), l', (- (e - e0 * (val d * (/ r * ts)))). split; [exists (/ r * ts); auto|]. split; auto. split.
  - rewrite Rabs_Ropp. unfold Rminus. eapply Rle_trans; [apply Rabs_triang|]. rewrite Rabs_Ropp, !Rabs_mult.
    pose proof (near_le (I := I) _ _ NN) as B. rewrite Rabs_mult in B. pose proof (Rabs_pos (val d)) as Pd. pose proof (Rabs_pos (/ r)). pose proof (Rabs_pos ts).
    assert (B1 : Rabs e0 * (Rabs (val d) * (Rabs (/ r) * Rabs ts)) <= eta * (Rabs (val d) * (1 + gamma u (S k)))).
    { apply Rmult_le_compat; auto using Rabs_pos. repeat apply Rmult_le_pos; auto. apply Rmult_le_compat_l; auto. }
    assert (B2 : INR k * eta * (1 + gamma u k) <= INR k * eta * (1 + gamma u (S k))).
    { apply Rmult_le_compat_l; [apply Rmult_le_pos; auto using pos_INR|]. apply (g_mono (I := I)). lia. }
    lra.
  - assert (E1 : s = (val q - e0) * val d / r). { rewrite Eq. field. lra. }
    rewrite E, E1. field. lra.
Qed.

Lemma urow_ieee k a (l y : nat -> T) : let q := ssub k a (fun j => mul (l j) (y j)) in settled prd a -> fin q ->
  fin a /\ (forall j, (j < k)%nat -> fin (l j) /\ fin (y j)) /\
  exists d' l' e, pert k 1 d' /\ (forall j, (j < k)%nat -> pert k (val (l j)) (l' j)) /\
    Rabs e <= INR k * eta * (1 + gamma u k) /\ d' * val q + rsum k (fun j => l' j * val (y j)) = val a + e.
Proof.
  intros q Sa F. destruct (sums_ieee k a l y Sa F) as (Fa & Fly & ts & l' & e & Nts & Pl & Be & E). split; auto. split; auto.
  exists ts, l', (- e). split; [exists ts; split; [auto|ring]|]. split; auto. split; [now rewrite Rabs_Ropp|]. fold q in E. rewrite E. ring.
Qed.

(** ** Triangular systems *)
Local Notation vm := (fun (f : nat -> nat -> T) i j => val (f i j)).
Local Notation vv := (fun (f : nat -> T) i => val (f i)).
Definition diag_fin (n : nat) (L : nat -> nat -> T) : Prop := forall i, (i < n)%nat -> fin (L i i).

Lemma lower_ieee n (L : nat -> nat -> T) b Y : diag_fin n L -> vsettled prd n b -> (forall i, (i < n)%nat -> fwd L b Y i) -> (forall i, (i < n)%nat -> fin (Y i)) ->
  (forall i, (i < n)%nat -> fin (b i) /\ val (L i i) <> 0 /\ forall j, (j < i)%nat -> fin (L i j)) /\
  exists L1 e, mpert n n (lof (vm L)) L1 /\ (forall i, (i < n)%nat -> Rabs (e i) <= (INR n + Rabs (val (L i i))) * eta * (1 + gamma u n)) /\
    msolves n L1 (vv Y) (fun i => val (b i) + e i).
Proof.
  intros Hd Sb H HF.
  assert (RW : forall i, (i < n)%nat -> fin (b i) /\ (forall j, (j < i)%nat -> fin (L i j) /\ fin (Y j)) /\ val (L i i) <> 0 /\
    exists d' l' e, pert (S i) (val (L i i)) d' /\ (forall j, (j < i)%nat -> pert i (val (L i j)) (l' j)) /\
      Rabs e <= (INR i + Rabs (val (L i i))) * eta * (1 + gamma u (S i)) /\
      d' * val (Y i) + rsum i (fun j => l' j * val (Y j)) = val (b i) + e).
  { intros i Hi. pose proof (row_ieee i (b i) (L i i) (L i) Y) as R. cbv beta zeta in R. pose proof (H i Hi) as E. unfold fwd in E. rewrite <- E in R. apply R; auto. }
  split; [intros i Hi; destruct (RW i Hi) as (F1 & F2 & F3 & _); split; auto; split; auto; intros j Hj; now apply F2|].
  destruct (fin_choice n (fun i (p : (nat -> R) * R) =>
    (forall j, (j < n)%nat -> pert n (lof (vm L) i j) (fst p j)) /\ Rabs (snd p) <= (INR n + Rabs (val (L i i))) * eta * (1 + gamma u n) /\
    rsum n (fun j => fst p j * val (Y j)) = val (b i) + snd p) ((fun _ => 0), 0)) as (g & Hg).
  { intros i Hi. destruct (RW i Hi) as (_ & _ & _ & d' & l' & e & Pd & Pl & Be & E).
    exists ((fun j => if Nat.ltb j i then l' j else if Nat.eqb j i then d' else 0), e). cbn [fst snd]. split; [|split].
    - intros j Hj. unfold lof. destruct (Nat.ltb_spec j i).
      + destruct (Nat.leb_spec j i); [|lia]. apply (pert_mono (AX := AX) i); [lia|]. auto.
      + destruct (Nat.eqb_spec j i) as [->|].
        * rewrite Nat.leb_refl. apply (pert_mono (AX := AX) (S i)); [lia|auto].
        * destruct (Nat.leb_spec j i); [lia|]. apply (pert_refl (AX := AX)).
    - eapply Rle_trans; [exact Be|]. apply Rmult_le_compat.
      + apply Rmult_le_pos; auto. pose proof (pos_INR i). pose proof (Rabs_pos (val (L i i))). lra.
      + pose proof (g1_pos (I := I) (S i)). lra.
      + apply Rmult_le_compat_r; auto. apply Rplus_le_compat_r, le_INR. lia.
      + apply (g_mono (I := I)). lia.
    - rewrite (lower_row n i); [|auto|].
      + rewrite Nat.ltb_irrefl, Nat.eqb_refl. rewrite <- E. f_equal.
        apply rsum_ext. intros j Hj. destruct (Nat.ltb_spec j i); [reflexivity|lia].
      + intros j Hj. destruct (Nat.ltb_spec j i); [lia|]. destruct (Nat.eqb_spec j i); [lia|reflexivity]. }
  exists (fun i => fst (g i)), (fun i => snd (g i)). split; [intros i j Hi Hj; now apply Hg|]. split; [intros i Hi; now apply Hg|intros i Hi; now apply Hg].
Qed.

Lemma unit_lower_ieee n (F : nat -> nat -> T) b Y : vsettled prd n b -> (forall i, (i < n)%nat -> ilu_fwd F b Y i) -> (forall i, (i < n)%nat -> fin (Y i)) ->
  (forall i, (i < n)%nat -> fin (b i) /\ forall j, (j < i)%nat -> fin (F i j)) /\
  exists L1 e, mpert n n (ulof (vm F)) L1 /\ (forall i, (i < n)%nat -> Rabs (e i) <= INR n * eta * (1 + gamma u n)) /\
    msolves n L1 (vv Y) (fun i => val (b i) + e i).
Proof.
  intros Sb H HF.
  assert (RW : forall i, (i < n)%nat -> fin (b i) /\ (forall j, (j < i)%nat -> fin (F i j) /\ fin (Y j)) /\
    exists d' l' e, pert i 1 d' /\ (forall j, (j < i)%nat -> pert i (val (F i j)) (l' j)) /\
      Rabs e <= INR i * eta * (1 + gamma u i) /\ d' * val (Y i) + rsum i (fun j => l' j * val (Y j)) = val (b i) + e).
  { intros i Hi. pose proof (urow_ieee i (b i) (F i) Y) as R. cbv beta zeta in R. pose proof (H i Hi) as E. unfold ilu_fwd in E. rewrite <- E in R. apply R; auto. }
  split; [intros i Hi; destruct (RW i Hi) as (F1 & F2 & _); split; auto; intros j Hj; now apply F2|].
  destruct (fin_choice n (fun i (p : (nat -> R) * R) =>
    (forall j, (j < n)%nat -> pert n (ulof (vm F) i j) (fst p j)) /\ Rabs (snd p) <= INR n * eta * (1 + gamma u n) /\
    rsum n (fun j => fst p j * val (Y j)) = val (b i) + snd p) ((fun _ => 0), 0)) as (g & Hg).
  { intros i Hi. destruct (RW i Hi) as (_ & _ & d' & l' & e & Pd & Pl & Be & E).
    exists ((fun j => if Nat.ltb j i then l' j else if Nat.eqb i j then d' else 0), e). cbn [fst snd]. split; [|split].
    - intros j Hj. unfold ulof. destruct (Nat.ltb_spec j i).
      + apply (pert_mono (AX := AX) i); [lia|]. auto.
      + destruct (Nat.eqb_spec i j) as [->|].
        * apply (pert_mono (AX := AX) j); [lia|auto].
        * apply (pert_refl (AX := AX)).
    - eapply Rle_trans; [exact Be|]. apply Rmult_le_compat.
      + apply Rmult_le_pos; auto using pos_INR.
      + pose proof (g1_pos (I := I) i). lra.
      + apply Rmult_le_compat_r; auto. apply le_INR. lia.
      + apply (g_mono (I := I)). lia.
    - rewrite (lower_row n i); [|auto|].
      + rewrite Nat.ltb_irrefl, Nat.eqb_refl. rewrite <- E. f_equal.
        apply rsum_ext. intros j Hj. destruct (Nat.ltb_spec j i); [reflexivity|lia].
      + intros j Hj. destruct (Nat.ltb_spec j i); [lia|]. destruct (Nat.eqb_spec i j); [lia|reflexivity]. }
  exists (fun i => fst (g i)), (fun i => snd (g i)). split; [intros i j Hi Hj; now apply Hg|]. split; [intros i Hi; now apply Hg|intros i Hi; now apply Hg].
Qed.

Lemma upper_ieee n (F : nat -> nat -> T) y x : diag_fin n F -> vsettled prd n y -> (forall i, (i < n)%nat -> ilu_bwd n F y x i) -> (forall i, (i < n)%nat -> fin (x i)) ->
  (forall i, (i < n)%nat -> fin (y i) /\ val (F i i) <> 0 /\ forall j, (i < j < n)%nat -> fin (F i j)) /\
  exists U1 e, mpert n n (upf (vm F)) U1 /\ (forall i, (i < n)%nat -> Rabs (e i) <= (INR n + Rabs (val (F i i))) * eta * (1 + gamma u n)) /\
    msolves n U1 (vv x) (fun i => val (y i) + e i).
Proof.
  intros Hd Sb H HF.
  assert (RW : forall i, (i < n)%nat -> fin (y i) /\ (forall t, (t < n - S i)%nat -> fin (F i (S i + t)%nat) /\ fin (x (S i + t)%nat)) /\ val (F i i) <> 0 /\
    exists d' l' e, pert (S (n - S i)) (val (F i i)) d' /\ (forall t, (t < n - S i)%nat -> pert (n - S i) (val (F i (S i + t)%nat)) (l' t)) /\
      Rabs e <= (INR (n - S i) + Rabs (val (F i i))) * eta * (1 + gamma u (S (n - S i))) /\
      d' * val (x i) + rsum (n - S i) (fun t => l' t * val (x (S i + t)%nat)) = val (y i) + e).
  { intros i Hi. pose proof (row_ieee (n - S i) (y i) (F i i) (fun t => F i (S i + t)%nat) (fun t => x (S i + t)%nat)) as R. cbv beta zeta in R.
    pose proof (H i Hi) as E. unfold ilu_bwd in E. rewrite <- E in R. apply R; auto. }
  split.
  { intros i Hi; destruct (RW i Hi) as (F1 & F2 & F3 & _); split; auto; split; auto; intros j Hj.
    destruct (F2 (j - S i)%nat ltac:(lia)) as [F4 _]. now replace (S i + (j - S i))%nat with j in F4 by lia. }
  destruct (fin_choice n (fun i (p : (nat -> R) * R) =>
    (forall j, (j < n)%nat -> pert n (upf (vm F) i j) (fst p j)) /\ Rabs (snd p) <= (INR n + Rabs (val (F i i))) * eta * (1 + gamma u n) /\
    rsum n (fun j => fst p j * val (x j)) = val (y i) + snd p) ((fun _ => 0), 0)) as (g & Hg).
  { intros i Hi. destruct (RW i Hi) as (_ & _ & _ & d' & l' & e & Pd & Pl & Be & E).
    exists ((fun j => if Nat.ltb i j then l' (j - S i)%nat else if Nat.eqb j i then d' else 0), e). cbn [fst snd]. split; [|split].
    - intros j Hj. unfold upf. destruct (Nat.ltb_spec i j).
      + destruct (Nat.leb_spec i j); [|lia]. apply (pert_mono (AX := AX) (n - S i)); [lia|].
        specialize (Pl (j - S i)%nat ltac:(lia)). now replace (S i + (j - S i))%nat with j in Pl by lia.
      + destruct (Nat.eqb_spec j i) as [->|].
        * rewrite Nat.leb_refl. apply (pert_mono (AX := AX) (S (n - S i))); [lia|auto].
        * destruct (Nat.leb_spec i j); [lia|]. apply (pert_refl (AX := AX)).
    - eapply Rle_trans; [exact Be|]. apply Rmult_le_compat.
      + apply Rmult_le_pos; auto. pose proof (pos_INR (n - S i)). pose proof (Rabs_pos (val (F i i))). lra.
      + pose proof (g1_pos (I := I) (S (n - S i))). lra.
      + apply Rmult_le_compat_r; auto. apply Rplus_le_compat_r, le_INR. lia.
      + apply (g_mono (I := I)). lia.
    - rewrite (upper_row n i); [|auto|].
      + rewrite Nat.ltb_irrefl, Nat.eqb_refl. rewrite <- E. f_equal.
        apply rsum_ext. intros t Ht. destruct (Nat.ltb_spec i (S i + t)); [|lia]. do 2 f_equal. lia.
      + intros j Hj. destruct (Nat.ltb_spec i j); [lia|]. destruct (Nat.eqb_spec j i); [lia|reflexivity]. }
  exists (fun i => fst (g i)), (fun i => snd (g i)). split; [intros i j Hi Hj; now apply Hg|]. split; [intros i Hi; now apply Hg|intros i Hi; now apply Hg].
Qed.

(** ** Two triangular solves in a row *)
(** A solves y for b + e1, B solves x for y + e2: the product solves x for b + e1 + A e2. *)
Lemma solves_chain n A B x y b e1 e2 : msolves n A y (fun i => b i + e1 i) -> msolves n B x (fun i => y i + e2 i) ->
  msolves n (mprod n A B) x (fun i => b i + (e1 i + rsum n (fun j => A i j * e2 j))).
Proof.
  intros HA HB. apply (mprod_solves n A B x (fun i => y i + e2 i)); auto.
  intros i Hi. specialize (HA i Hi). cbn beta in *. rewrite <- Rplus_assoc, <- HA, <- rsum_add. apply rsum_ext. intros; ring.
Qed.
Lemma pert_le k a a' : pert k a a' -> Rabs a' <= Rabs a * (1 + gamma u k).
Proof. intros (t & N & ->). rewrite Rabs_mult. apply Rmult_le_compat_l; [apply Rabs_pos|]. now apply (near_le (I := I)). Qed.
Lemma chain_err n A A1 e1 e2 (c1 c2 : nat -> R) i : mpert n n A A1 -> (i < n)%nat ->
  (forall i, (i < n)%nat -> Rabs (e1 i) <= c1 i * eta * (1 + gamma u n)) -> (forall i, (i < n)%nat -> Rabs (e2 i) <= c2 i * eta * (1 + gamma u n)) ->
  (forall i, (i < n)%nat -> 0 <= c1 i) ->
  Rabs (e1 i + rsum n (fun j => A1 i j * e2 j)) <= (c1 i + rsum n (fun j => Rabs (A i j) * c2 j)) * eta * (1 + gamma u (2 * n)).
Proof.
  intros HA Hi H1 H2 P1. eapply Rle_trans; [apply Rabs_triang|]. rewrite !Rmult_plus_distr_r.
  assert (G : (1 + gamma u n) * (1 + gamma u n) = 1 + gamma u (2 * n)) by (rewrite (g_mul (u := u)); f_equal; f_equal; lia).
  apply Rplus_le_compat.
  - eapply Rle_trans; [apply H1; auto|]. apply Rmult_le_compat_l; [apply Rmult_le_pos; auto|]. apply (g_mono (I := I)). lia.
  - eapply Rle_trans; [apply bsum_abs|]. rewrite Rmult_assoc, (Rmult_comm (rsum n _)), <- rsum_scal. apply bsum_le. intros j Hj.
    rewrite Rabs_mult. pose proof (pert_le n _ _ (HA i j Hi Hj)) as P. specialize (H2 j Hj).
    eapply Rle_trans; [apply Rmult_le_compat; [apply Rabs_pos|apply Rabs_pos|exact P|exact H2]|]. rewrite <- G. right. ring.
Qed.

(** The two solves with a Cholesky factor. *)
Definition chol_under n (L : nat -> nat -> R) (i : nat) : R :=
  INR n + Rabs (L i i) + rsum n (fun j => Rabs (lof L i j) * (INR n + Rabs (L j j))).
Lemma subst_ieee n (L : nat -> nat -> T) b x : diag_fin n L -> vsettled prd n b -> substituted n L b x -> (forall i, (i < n)%nat -> fin (x i)) ->
  (forall i, (i < n)%nat -> fin (b i) /\ val (L i i) <> 0 /\ forall j, (j < i)%nat -> fin (L i j)) /\
  exists M e, mwithin u (2 * n) n n (mprod n (mabs (lof (vm L))) (fun a b => mabs (lof (vm L)) b a)) (mprod n (lof (vm L)) (fun a b => lof (vm L) b a)) M /\
    (forall i, (i < n)%nat -> Rabs (e i) <= chol_under n (vm L) i * eta * (1 + gamma u (2 * n))) /\
    msolves n M (vv x) (fun i => val (b i) + e i).
Proof.
  intros Hd Sb (Y & HY & HX) Fx.
  assert (SY : vsettled prd n Y) by (intros i Hi; rewrite (HY i Hi); apply (i_settled (Ieee := I))).
  destruct (upper_ieee n (fun a b => L b a) Y x Hd SY HX Fx) as (FY & U1 & e2 & P2 & B2 & S2).
  destruct (lower_ieee n L b Y Hd Sb HY) as (Fb & L1 & e1 & P1 & B1 & S1); [intros i Hi; now apply FY|]. split; [exact Fb|].
  exists (mprod n L1 U1), (fun i => e1 i + rsum n (fun j => L1 i j * e2 j)). split; [|split].
  - replace (2 * n)%nat with (n + n)%nat by lia. exact (mprod_pert (AX := AX) n n n (lof (vm L)) L1 (fun a b => lof (vm L) b a) U1 P1 P2).
  - intros i Hi. apply (chain_err n (lof (vm L)) L1 e1 e2 (fun i => INR n + Rabs (val (L i i))) (fun i => INR n + Rabs (val (L i i)))); auto.
    intros k Hk. pose proof (pos_INR n). pose proof (Rabs_pos (val (L k k))). lra.
  - exact (solves_chain n L1 U1 (vv x) (vv Y) (vv b) e1 e2 S1 S2).
Qed.

(** The two solves with an incomplete factorisation. *)
Definition ilu_under n (F : nat -> nat -> R) (i : nat) : R :=
  INR n + rsum n (fun j => Rabs (ulof F i j) * (INR n + Rabs (F j j))).
Lemma ilu_subst_ieee n (F : nat -> nat -> T) b x : diag_fin n F -> vsettled prd n b -> ilu_solved n F b x -> (forall i, (i < n)%nat -> fin (x i)) ->
  (forall i, (i < n)%nat -> fin (b i) /\ val (F i i) <> 0 /\ forall j, (j < n)%nat -> fin (F i j)) /\
  exists M e, mwithin u (2 * n) n n (mprod n (mabs (ulof (vm F))) (mabs (upf (vm F)))) (mprod n (ulof (vm F)) (upf (vm F))) M /\
    (forall i, (i < n)%nat -> Rabs (e i) <= ilu_under n (vm F) i * eta * (1 + gamma u (2 * n))) /\
    msolves n M (vv x) (fun i => val (b i) + e i).
Proof.
  intros Hd Sb (Y & HY & HX) Fx.
  assert (SY : vsettled prd n Y) by (intros i Hi; rewrite (HY i Hi); apply (settled_ssub (I := I)); auto).
  destruct (upper_ieee n F Y x Hd SY HX Fx) as (FY & U1 & e2 & P2 & B2 & S2).
  destruct (unit_lower_ieee n F b Y Sb HY) as (Fb & L1 & e1 & P1 & B1 & S1); [intros i Hi; now apply FY|]. split.
  { intros i Hi. destruct (Fb i Hi) as [F1 F2]. destruct (FY i Hi) as (_ & F3 & F4). split; auto. split; auto. intros j Hj.
    destruct (Nat.lt_trichotomy j i) as [L|[->|L]]; [now apply F2|now apply Hd|]. apply F4. lia. }
  exists (mprod n L1 U1), (fun i => e1 i + rsum n (fun j => L1 i j * e2 j)). split; [|split].
  - replace (2 * n)%nat with (n + n)%nat by lia. exact (mprod_pert (AX := AX) n n n _ L1 _ U1 P1 P2).
  - intros i Hi. apply (chain_err n (ulof (vm F)) L1 e1 e2 (fun i => INR n) (fun i => INR n + Rabs (val (F i i)))); auto.
    intros k Hk. apply pos_INR.
  - exact (solves_chain n L1 U1 (vv x) (vv Y) (vv b) e1 e2 S1 S2).
Qed.

(** ** The Cholesky factor *)
(** A finite diagonal means that the whole factor is finite. *)
Lemma chol_fin n A (L : nat -> nat -> T) : msettled prd n n A -> factored n A L -> diag_fin n L ->
  forall i j, (i < n)%nat -> (j <= i)%nat -> fin (L i j) /\ fin (A i j) /\ 0 < val (L i i).
Proof.
  intros SA HF Hd i j Hi Hj. destruct (HF i Hi) as [Ho [B E]].
  pose proof (Hd i Hi) as Fi. rewrite E in Fi. destruct (sqrt_ieee _ Fi) as (Fp & Pp & t & Nt & Et).
  unfold pivot in Fp. destruct (ssub_ieee _ _ _ (SA i i Hi Hi) Fp) as (Fa & wf & Ff & _).
  assert (Fij : forall k, (k < i)%nat -> fin (L i k)). { intros k Hk. specialize (Ff k Hk). rewrite i_pow2 in Ff. now destruct (see_mul _ _ _ Ff). }
  assert (Pos : 0 < val (L i i)).
  { rewrite E, Et. apply Rmult_lt_0_compat; [|now apply (near_pos Hu 1)]. apply sqrt_lt_R0. destruct (i_zero (Ieee := I)) as [F0 V0].
    assert (NB : ~ (val (pivot A L i) = val zero \/ val (pivot A L i) < val zero)).
    { intros [C|C]; apply B; [left; apply i_eqb|right; apply i_ltb]; auto. }
    rewrite V0 in NB. fold (pivot A L i) in Pp. lra. }
  destruct (Nat.eq_dec j i) as [->|Ne]; [split; auto|]. split; [apply Fij; lia|]. split; auto.
  specialize (Fij j ltac:(lia)). rewrite (Ho j ltac:(lia)) in Fij.
  destruct (div_ieee _ _ Fij) as (Fs & _); [apply Hd; lia|]. now destruct (ssub_ieee _ _ _ (SA i j Hi ltac:(lia)) Fs).
Qed.

Lemma chol_entry_ieee n A (L : nat -> nat -> T) i j : msettled prd n n A -> factored n A L -> diag_fin n L -> (i < n)%nat -> (j <= i)%nat ->
  exists f' d' e, (forall k, (k < j)%nat -> pert (S n) (val (L i k) * val (L j k)) (f' k)) /\ pert (S n) (val (L i j) * val (L j j)) d' /\
    Rabs e <= (INR n + Rabs (val (L j j))) * eta * (1 + gamma u (S n)) /\
    val (A i j) = rsum j f' + d' + e.
Proof.
  intros SA HF Hd Hi Hj.
  assert (W : forall k c, (k <= n)%nat -> (c <= n)%nat -> INR k * eta * (1 + gamma u c) <= (INR n + Rabs (val (L j j))) * eta * (1 + gamma u (S n))).
  { intros k c Hk Hc. apply Rmult_le_compat; [apply Rmult_le_pos; auto using pos_INR|pose proof (g1_pos (I := I) c); lra| |apply (g_mono (I := I)); lia].
    apply Rmult_le_compat_r; auto. pose proof (Rabs_pos (val (L j j))). pose proof (le_INR _ _ Hk). lra. }
  destruct (Nat.eq_dec j i) as [->|Ne].
  - destruct (HF i Hi) as [_ [_ E]]. pose proof (Hd i Hi) as Fi. rewrite E in Fi. destruct (sqrt_ieee _ Fi) as (Fp & Pp & s & Ns & Es).
    rewrite <- E in Es. pose proof (near_pos Hu _ _ Ns) as Ps. unfold pivot in *.
    assert (EP : ssub i (A i i) (fun k => pow2 (L i k)) = ssub i (A i i) (fun k => mul (L i k) (L i k))).
    { apply ssub_ext. intros. apply i_pow2. }
    rewrite EP in *. destruct (ssub_ieee _ _ _ (SA i i Hi Hi) Fp) as (Fa & wf & Ff & ts & t & Nts & Nt & Ea). destruct (prods_ieee i (L i) (L i) wf Ff) as (_ & m & e & Hm).
    set (p := val (ssub i (A i i) (fun k => mul (L i k) (L i k)))) in *.
    exists (fun k => val (L i k) * val (L i k) * (m k * t k)), (val (L i i) * val (L i i) * (/ (s * s) * ts)), (rsum i (fun k => e k * t k)).
    split; [|split; [|split]].
    + intros k Hk. exists (m k * t k). split; [|reflexivity]. apply (near_mono Hu (1 + k)); [lia|]. apply (near_mul Hu); auto. apply Hm; auto.
    + exists (/ (s * s) * ts). split; [|reflexivity]. apply (near_mono Hu (1 + 1 + i)); [lia|].
      apply (near_mul Hu); auto. apply (near_inv Hu), (near_mul Hu); auto.
    + eapply Rle_trans; [apply (under_sum (I := I) i)|apply W; lia]; [intros k Hk; apply Hm; auto|]. intros k Hk. apply (near_mono Hu k); [lia|auto].
    + rewrite Ea at 1.
      replace (val (L i i) * val (L i i) * (/ (s * s) * ts)) with (p * ts).
      * rewrite (rsum_ext i (fun k => wf k * t k) (fun k => val (L i k) * val (L i k) * (m k * t k) + e k * t k)).
        { rewrite rsum_add. ring. }
        intros k Hk. destruct (Hm k Hk) as (_ & _ & ->). ring.
      * rewrite Es. replace (sqrt p * s * (sqrt p * s)) with (sqrt p * sqrt p * (s * s)) by ring. rewrite sqrt_sqrt by auto. field. lra.
  - destruct (HF i Hi) as [Ho _]. specialize (Ho j ltac:(lia)). unfold offrec in Ho.
    destruct (chol_fin n A L SA HF Hd i j Hi Hj) as (Fij & _ & _).
    pose proof (row_ieee j (A i j) (L j j) (L i) (L j)) as R. cbv beta zeta in R. rewrite <- Ho in R.
    destruct (R (SA i j Hi ltac:(lia)) Fij ltac:(apply Hd; lia)) as (_ & _ & _ & d' & l' & e & (s & Ns & Es) & Pl & Be & E).
    exists (fun k => l' k * val (L j k)), (d' * val (L i j)), (- e). split; [|split; [|split]].
    + intros k Hk. destruct (Pl k Hk) as (r & Nr & ->). exists r. split; [|ring]. apply (near_mono Hu j); [lia|auto].
    + exists s. split; [apply (near_mono Hu (S j)); [lia|auto]|]. rewrite Es. ring.
    + rewrite Rabs_Ropp. eapply Rle_trans; [exact Be|]. apply Rmult_le_compat.
      * apply Rmult_le_pos; auto. pose proof (pos_INR j). pose proof (Rabs_pos (val (L j j))). lra.
      * pose proof (g1_pos (I := I) (S j)). lra.
      * apply Rmult_le_compat_r; auto. apply Rplus_le_compat_r, le_INR. lia.
      * apply (g_mono (I := I)). lia.
    + lra.
Qed.

Lemma chol_product_ieee n A (L : nat -> nat -> T) i j : msettled prd n n A -> factored n A L -> diag_fin n L -> (i < n)%nat -> (j <= i)%nat ->
  Rabs (val (A i j) - mprod n (lof (vm L)) (fun a b => lof (vm L) b a) i j) <=
    gamma u (S n) * mprod n (mabs (lof (vm L))) (fun a b => mabs (lof (vm L)) b a) i j
      + (INR n + Rabs (val (L j j))) * eta * (1 + gamma u (S n)).
Proof.
  intros SA HF Hd Hi Hj. destruct (chol_entry_ieee n A L i j SA HF Hd Hi Hj) as (f' & d' & e & P1 & P2 & Be & ->).
  rewrite (low_prod_R n (vm L)), (low_abs_R n (vm L)) by auto.
  replace (rsum j f' + d' + e - (rsum j (fun k => val (L i k) * val (L j k)) + val (L i j) * val (L j j)))
    with ((rsum j f' - rsum j (fun k => val (L i k) * val (L j k))) + (d' - val (L i j) * val (L j j)) + e) by ring.
  eapply Rle_trans; [apply Rabs_triang|]. apply Rplus_le_compat; auto.
  eapply Rle_trans; [apply Rabs_triang|]. rewrite Rmult_plus_distr_l. apply Rplus_le_compat; [now apply (pert_sum (AX := AX))|now apply (pert_close (AX := AX))].
Qed.

(** ** The incomplete factorisation *)
Lemma nzb_ieee (x : T) : fin x -> nzb x = true -> val x <> 0.
Proof.
  intros F H E. destruct (i_zero (Ieee := I)) as [F0 V0]. unfold nzb in H.
  assert (eqb x zero = true) by (apply i_eqb; auto; congruence). rewrite H0 in H. discriminate.
Qed.
Lemma ilu_product_ieee n m A (F : nat -> nat -> T) i j : settled prd (A i j) -> ilu_done n m A F -> (forall i j, (i < n)%nat -> (j < n)%nat -> fin (F i j)) ->
  (i < n)%nat -> (j < n)%nat -> (j < m)%nat -> nzb (A i j) = true ->
  fin (A i j) /\ val (A i j) <> 0 /\
  Rabs (val (A i j) - mprod n (ulof (vm F)) (upf (vm F)) i j) <=
    gamma u n * mprod n (mabs (ulof (vm F))) (mabs (upf (vm F))) i j + (INR n + Rabs (val (F j j))) * eta * (1 + gamma u n).
Proof.
  intros SA HF FF Hi Hj Hm Hnz. destruct (HF i Hi) as [HL HU].
  assert (KK : fin (A i j) /\ Rabs (val (A i j) - mprod n (ulof (vm F)) (upf (vm F)) i j) <=
    gamma u n * mprod n (mabs (ulof (vm F))) (mabs (upf (vm F))) i j + (INR n + Rabs (val (F j j))) * eta * (1 + gamma u n)).
  2: { destruct KK as [K1 K2]. split; auto. split; auto. now apply nzb_ieee. }
  unfold mprod, mabs.
  rewrite (ilu_prod n (vm F) Rabs i j), (ilu_prod n (vm F) (fun x => x) i j); auto using Rabs_R0, Rabs_R1, Rabs_mult.
  destruct (Nat.leb_spec i j) as [H|H].
  - specialize (HU j H Hm). unfold urec in HU. rewrite Hnz in HU.
    pose proof (urow_ieee i (A i j) (F i) (fun k => F k j)) as R. cbv beta zeta in R. rewrite <- HU in R.
    destruct (R SA ltac:(apply FF; auto)) as (Fa & _ & d' & l' & e & (s & Ns & Es) & Pl & Be & E). split; auto.
    replace (val (A i j)) with (d' * val (F i j) + rsum i (fun k => l' k * val (F k j)) - e) by lra.
    replace (d' * val (F i j) + rsum i (fun k => l' k * val (F k j)) - e - (rsum i (fun k => val (F i k) * val (F k j)) + val (F i j)))
      with ((rsum i (fun k => l' k * val (F k j)) - rsum i (fun k => val (F i k) * val (F k j))) + (d' * val (F i j) - val (F i j)) + - e) by ring.
    eapply Rle_trans; [apply Rabs_triang|]. rewrite Rabs_Ropp. apply Rplus_le_compat.
    + eapply Rle_trans; [apply Rabs_triang|]. rewrite Rmult_plus_distr_l. apply Rplus_le_compat.
      * apply (pert_sum (AX := AX)). intros k Hk. replace n with (n + 0)%nat by lia. apply (pert_mul (AX := AX)); [|apply (pert_refl (AX := AX))].
        apply (pert_mono (AX := AX) i); [lia|auto].
      * apply (pert_close (AX := AX)). exists s. split; [|rewrite Es; ring]. apply (near_mono Hu i); [lia|auto].
    + eapply Rle_trans; [exact Be|]. apply Rmult_le_compat.
      * apply Rmult_le_pos; auto using pos_INR.
      * pose proof (g1_pos (I := I) i). lra.
      * apply Rmult_le_compat_r; auto. pose proof (Rabs_pos (val (F j j))). assert (INR i <= INR n) by (apply le_INR; lia). lra.
      * apply (g_mono (I := I)). lia.
  - specialize (HL j H). unfold lrec in HL. rewrite Hnz in HL. destruct HL as [Hd HL].
    pose proof (row_ieee j (A i j) (F j j) (F i) (fun k => F k j)) as R. cbv beta zeta in R. rewrite <- HL in R.
    destruct (R SA ltac:(apply FF; auto) ltac:(apply FF; auto)) as (Fa & _ & _ & d' & l' & e & (s & Ns & Es) & Pl & Be & E). split; auto.
    replace (val (A i j)) with (d' * val (F i j) + rsum j (fun k => l' k * val (F k j)) - e) by lra.
    replace (d' * val (F i j) + rsum j (fun k => l' k * val (F k j)) - e - (rsum j (fun k => val (F i k) * val (F k j)) + val (F i j) * val (F j j)))
      with ((rsum j (fun k => l' k * val (F k j)) - rsum j (fun k => val (F i k) * val (F k j))) + (d' * val (F i j) - val (F i j) * val (F j j)) + - e) by ring.
    eapply Rle_trans; [apply Rabs_triang|]. rewrite Rabs_Ropp. apply Rplus_le_compat.
    + eapply Rle_trans; [apply Rabs_triang|]. rewrite Rmult_plus_distr_l. apply Rplus_le_compat.
      * apply (pert_sum (AX := AX)). intros k Hk. replace n with (n + 0)%nat by lia. apply (pert_mul (AX := AX)); [|apply (pert_refl (AX := AX))].
        apply (pert_mono (AX := AX) j); [lia|auto].
      * apply (pert_close (AX := AX)). exists s. split; [|rewrite Es; ring]. apply (near_mono Hu (S j)); [lia|auto].
    + eapply Rle_trans; [exact Be|]. apply Rmult_le_compat.
      * apply Rmult_le_pos; auto. pose proof (pos_INR j). pose proof (Rabs_pos (val (F j j))). lra.
      * pose proof (g1_pos (I := I) (S j)). lra.
      * apply Rmult_le_compat_r; auto. apply Rplus_le_compat_r, le_INR. lia.
      * apply (g_mono (I := I)). lia.
Qed.
End IeeeSolve.
