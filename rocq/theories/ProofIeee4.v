(** * The square-root-free factorisation in IEEE arithmetic (C84) *)
From Coq Require Import Reals Lra Lia Psatz.
From Verif Require Import Base Scalar BaseLemmas Spec Sums RealVec ModelVec ModelMat ModelSolvers ModelIter ProofVec ProofChol ProofCholSolve
  ProofCholMath ProofIlu SpecRound Rounding ProofRound ProofRound2 SpecIeee ProofIeee ProofIeee2.
Local Open Scope R_scope.

Local Notation rsum := (@bsum R ROps).

Section IeeeMod.
Context {T : Type} {Op : Ops T} {val : T -> R} {fin : T -> Prop} {prd : T -> T -> T -> Prop} {u eta omega : R} {I : Ieee Op val fin prd u eta omega}.
Let Hu : 0 <= u < 1 := i_range (Ieee := I).
Let He : 0 <= eta := i_eta (Ieee := I).
Let AX : Approx ROps u := exact_u (I := I).
Local Notation pert := (pert (u := u)).
Local Notation mpert := (mpert (u := u)).
Local Notation vm := (fun (f : nat -> nat -> T) i j => val (f i j)).
Local Notation vv := (fun (f : nat -> T) i => val (f i)).
Local Notation dsc := (dsc).

Lemma mod_fin n A (L : nat -> nat -> T) : msettled prd n n A -> mfactored n A L -> diag_fin (fin := fin) n L ->
  forall i j, (i < n)%nat -> (j <= i)%nat -> fin (L i j) /\ fin (A i j) /\ val (L i i) <> 0.
Proof.
  intros SA HF Hd i j Hi Hj. destruct (HF i Hi) as [Ho B].
  assert (Fi : forall k, (k <= i)%nat -> fin (L i k)).
  { intros k Hk. destruct (Nat.eq_dec k i) as [->|Ne]; [now apply Hd|].
    pose proof (Hd i Hi) as Fi. pose proof (Ho i (le_n i)) as E. unfold mrec in E. rewrite E in Fi.
    destruct (ssub_ieee _ _ _ (SA i i Hi Hi) Fi) as (_ & wf & Ff & _). specialize (Ff k ltac:(lia)). apply see_div in Ff as [Ff _].
    destruct (div_ieee _ _ Ff) as (Fm & _); [apply Hd; lia|]. now destruct (i_mul _ _ Fm). }
  split; [now apply Fi|]. split.
  - pose proof (Fi j Hj) as F. pose proof (Ho j Hj) as E. unfold mrec in E. rewrite E in F. now destruct (ssub_ieee _ _ _ (SA i j Hi ltac:(lia)) F).
  - intros Z. destruct (i_zero (Ieee := I)) as [F0 V0]. assert (eqb (L i i) zero = true) by (apply i_eqb; auto; congruence). congruence.
Qed.

(** What the underflows of the quotients amount to. *)
Definition mod_under (n : nat) (L : nat -> nat -> R) : R := rsum n (fun k => 1 + / Rabs (L k k)).
Lemma mod_under_part n L j : (j <= n)%nat -> (forall k, (k < n)%nat -> L k k <> 0) -> rsum j (fun k => 1 + / Rabs (L k k)) <= mod_under n L.
Proof.
  intros Hj Hd. unfold mod_under. rewrite (rsum_split n j) by auto. rewrite <- Rplus_0_r at 1. apply Rplus_le_compat_l. apply bsum_nonneg.
  intros k Hk. assert (0 < Rabs (L (j + k)%nat (j + k)%nat)) by (apply Rabs_pos_lt, Hd; lia). pose proof (Rinv_0_lt_compat _ H). lra.
Qed.

Lemma mod_entry_ieee n A (L : nat -> nat -> T) i j : msettled prd n n A -> mfactored n A L -> diag_fin (fin := fin) n L -> (i < n)%nat -> (j <= i)%nat ->
  exists f' d' e, (forall k, (k < j)%nat -> pert (S n) (val (L i k) * val (L j k) / val (L k k)) (f' k)) /\ pert (S n) (val (L i j)) d' /\
    Rabs e <= mod_under n (vm L) * eta * (1 + gamma u (S n)) /\ val (A i j) = rsum j f' + d' + e.
Proof.
  intros SA HF Hd Hi Hj. destruct (HF i Hi) as [Ho _]. specialize (Ho j Hj). unfold mrec in Ho.
  destruct (mod_fin n A L SA HF Hd i j Hi Hj) as (Fij & _ & _). pose proof Fij as Fs. rewrite Ho in Fs.
  destruct (ssub_ieee _ _ _ (SA i j Hi ltac:(lia)) Fs) as (Fa & wf & Ff & ts & t & Nts & Nt & E). rewrite <- Ho in E.
  destruct (fin_choice j (fun k (p : R * R) => near u 2 (fst p) /\ Rabs (snd p) <= (1 + / Rabs (val (L k k))) * eta * (1 + gamma u 1) /\
    wf k = val (L i k) * val (L j k) / val (L k k) * fst p + snd p) (0, 0)) as (m & Hm).
  { intros k Hk. specialize (Ff k Hk). apply see_div in Ff as [Ff ->]. destruct (div_ieee _ _ Ff) as (Fm & Nz & r & e2 & Nr & B2 & E2); [apply Hd; lia|].
    destruct (mul_ieee _ _ Fm) as (_ & _ & s & e1 & Ns & B1 & E1). exists (s * r, e1 / val (L k k) * r + e2). cbn [fst snd]. split; [|split].
    - change 2%nat with (1 + 1)%nat. now apply (near_mul Hu).
    - assert (P : 0 < Rabs (val (L k k))) by now apply Rabs_pos_lt. pose proof (Rinv_0_lt_compat _ P) as P'.
      pose proof (near_le (I := I) _ _ Nr) as Lr. pose proof (g1_pos (I := I) 1) as G1.
      eapply Rle_trans; [apply Rabs_triang|]. unfold Rdiv. rewrite !Rabs_mult, Rabs_inv.
      assert (Rabs e1 * / Rabs (val (L k k)) * Rabs r <= eta * / Rabs (val (L k k)) * (1 + gamma u 1)).
      { apply Rmult_le_compat; auto using Rabs_pos; [apply Rmult_le_pos; [apply Rabs_pos|lra]|]. apply Rmult_le_compat_r; lra. }
      nra.
    - rewrite E2, E1. field. auto. }
  exists (fun k => val (L i k) * val (L j k) / val (L k k) * (fst (m k) * t k)), (val (L i j) * ts), (rsum j (fun k => snd (m k) * t k)).
  split; [|split; [|split]].
  - intros k Hk. exists (fst (m k) * t k). split; [|reflexivity]. apply (near_mono Hu (2 + k)); [lia|]. apply (near_mul Hu); auto. apply Hm; auto.
  - exists ts. split; [|reflexivity]. apply (near_mono Hu j); [lia|auto].
  - eapply Rle_trans; [apply bsum_abs|]. pose proof (g1_pos (I := I) (S n)) as G.
    apply Rle_trans with (rsum j (fun k => 1 + / Rabs (val (L k k))) * eta * (1 + gamma u (S n))).
    2:{ apply Rmult_le_compat_r; [lra|]. apply Rmult_le_compat_r; auto. apply (mod_under_part n (vm L)); [lia|].
        intros k Hk. now apply (mod_fin n A L SA HF Hd k k). }
    rewrite Rmult_assoc, (Rmult_comm (rsum j _)), <- rsum_scal. apply bsum_le. intros k Hk. destruct (Hm k Hk) as (_ & Bk & _).
    rewrite Rabs_mult. pose proof (near_le (I := I) _ _ (Nt k Hk)) as Lt. pose proof (g1_pos (I := I) 1) as G1. pose proof (g1_pos (I := I) k) as Gk.
    assert (GG : (1 + gamma u 1) * (1 + gamma u k) <= 1 + gamma u (S n)) by (rewrite (g_mul (u := u)); apply (g_mono (I := I)); lia).
    assert (P0 : 0 <= (1 + / Rabs (val (L k k))) * eta).
    { apply Rmult_le_pos; auto. assert (0 < Rabs (val (L k k))) by (apply Rabs_pos_lt, (mod_fin n A L SA HF Hd k k); lia). pose proof (Rinv_0_lt_compat _ H). lra. }
    eapply Rle_trans; [apply Rmult_le_compat; [apply Rabs_pos|apply Rabs_pos|exact Bk|exact Lt]|].
    rewrite Rmult_assoc. eapply Rle_trans; [apply Rmult_le_compat_l; [exact P0|exact GG]|]. right. ring.
  - rewrite E at 1. rewrite (rsum_ext j (fun k => wf k * t k)
      (fun k => val (L i k) * val (L j k) / val (L k k) * (fst (m k) * t k) + snd (m k) * t k)).
    + rewrite rsum_add. ring.
    + intros k Hk. destruct (Hm k Hk) as (_ & _ & ->). ring.
Qed.

Lemma mod_product_ieee n A (L : nat -> nat -> T) i j : msettled prd n n A -> mfactored n A L -> diag_fin (fin := fin) n L -> (i < n)%nat -> (j <= i)%nat ->
  Rabs (val (A i j) - mprod n (dsc (vm L)) (fun a b => lof (vm L) b a) i j)
    <= gamma u (S n) * mprod n (mabs (dsc (vm L))) (fun a b => mabs (lof (vm L)) b a) i j + mod_under n (vm L) * eta * (1 + gamma u (S n)).
Proof.
  intros SA HF Hd Hi Hj. destruct (mod_entry_ieee n A L i j SA HF Hd Hi Hj) as (f' & d' & e & P1 & P2 & Be & ->).
  assert (Nz : val (L j j) <> 0) by (apply (mod_fin n A L SA HF Hd j j); lia).
  unfold mprod, mabs. rewrite (dsc_prod n (vm L) Rabs i j), (dsc_prod n (vm L) (fun x => x) i j); auto using Rabs_R0, Rabs_mult.
  replace (rsum j f' + d' + e - (rsum j (fun k => val (L i k) * val (L j k) / val (L k k)) + val (L i j)))
    with ((rsum j f' - rsum j (fun k => val (L i k) * val (L j k) / val (L k k))) + (d' - val (L i j)) + e) by ring.
  eapply Rle_trans; [apply Rabs_triang|]. apply Rplus_le_compat; auto.
  eapply Rle_trans; [apply Rabs_triang|]. rewrite Rmult_plus_distr_l. apply Rplus_le_compat; [now apply (pert_sum (AX := AX))|now apply (pert_close (AX := AX))].
Qed.
Lemma dsc_sym_R n (L : nat -> nat -> R) (F : R -> R) i j : (forall k, (k < n)%nat -> L k k <> 0) -> (i < n)%nat -> (j < n)%nat -> F 0 = 0 -> (forall a b, F (a * b) = F a * F b) ->
  rsum n (fun k => F (dsc L i k) * F (lof L j k)) = rsum n (fun k => F (dsc L j k) * F (lof L i k)).
Proof.
  intros Hd Hi Hj F0 FM. apply rsum_ext. intros k Hk. rewrite <- !FM. f_equal. unfold ProofRound2.dsc, lof.
  destruct (Nat.leb k i), (Nat.leb k j); try ring. field. now apply Hd.
Qed.

(** ** The two solves *)
Definition mod_under_b n (L : nat -> nat -> R) (i : nat) : R := INR n + rsum n (fun j => (Rabs (dsc L i j) + eta) * (INR n + Rabs (L j j))).
Definition mod_under_m n (L : nat -> nat -> R) (j : nat) : R := rsum n (fun k => Rabs (lof L j k)).

Lemma mod_subst_ieee n A (L : nat -> nat -> T) b x : msettled prd n n A -> vsettled prd n b -> mfactored n A L -> diag_fin (fin := fin) n L -> usubstituted n L b x -> (forall i, (i < n)%nat -> fin (x i)) ->
  (forall i, (i < n)%nat -> fin (b i)) /\
  exists M e, (forall i j, (i < n)%nat -> (j < n)%nat -> Rabs (M i j - mprod n (dsc (vm L)) (fun a b => lof (vm L) b a) i j) <=
      gamma u (2 * n + 1) * mprod n (mabs (dsc (vm L))) (fun a b => mabs (lof (vm L)) b a) i j + mod_under_m n (vm L) j * eta * (1 + gamma u (2 * n + 1))) /\
    (forall i, (i < n)%nat -> Rabs (e i) <= mod_under_b n (vm L) i * eta * (1 + gamma u (2 * n + 1))) /\
    msolves n M (vv x) (fun i => val (b i) + e i).
Proof.
  intros SA Sb HF Hd (Y & HY & HX) Fx.
  assert (Nz : forall k, (k < n)%nat -> val (L k k) <> 0) by (intros k Hk; now apply (mod_fin n A L SA HF Hd k k)).
  assert (SY : vsettled prd n Y) by (intros i Hi; rewrite (HY i Hi); apply (settled_ssub (I := I)); auto).
  destruct (upper_ieee n (fun a b => L b a) Y x Hd SY HX Fx) as (FY & U1 & e2 & P2 & B2 & S2).
  pose (F := fun i j => div (L i j) (L j j)).
  destruct (unit_lower_ieee n F b Y) as (Fb & L1 & e1 & P1 & B1 & S1); [exact Sb|exact HY|intros i Hi; now apply FY|].
  split; [intros i Hi; now apply Fb|].
  exists (mprod n L1 U1), (fun i => e1 i + rsum n (fun j => L1 i j * e2 j)).
  (* the computed multipliers against the exact quotients *)
  assert (QF : forall i k, (i < n)%nat -> (k < n)%nat -> exists t e, near u 1 t /\ Rabs e <= eta /\ ulof (vm F) i k = dsc (vm L) i k * t + e).
  { intros i k Hi Hk. unfold ulof, ProofRound2.dsc. destruct (Nat.ltb_spec k i) as [Hki|Hki].
    - destruct (Nat.leb_spec k i); [|lia]. destruct (Fb i Hi) as [_ FF]. specialize (FF k Hki). unfold F in *.
      destruct (div_ieee _ _ FF (Hd k Hk)) as (_ & _ & t & e & Nt & Be & E). exists t, e. auto.
    - exists 1, 0. split; [apply (near_1 Hu)|]. split; [now rewrite Rabs_R0|]. destruct (Nat.eqb_spec i k) as [->|].
      + rewrite Nat.leb_refl. rewrite Rmult_1_r, Rplus_0_r. field. auto.
      + destruct (Nat.leb_spec k i); [lia|]. ring. }
  split; [|split].
  - intros i j Hi Hj.
    destruct (fin_choice n (fun k (p : R * R) => pert (n + 1) (dsc (vm L) i k) (fst p) /\ Rabs (snd p) <= eta * (1 + gamma u n) /\ L1 i k = fst p + snd p) (0, 0)) as (q & Hq).
    { intros k Hk. destruct (QF i k Hi Hk) as (t & e & Nt & Be & E). destruct (P1 i k Hi Hk) as (s & Ns & Es).
      exists (dsc (vm L) i k * (t * s), e * s). cbn [fst snd]. split; [|split].
      - exists (t * s). split; [|reflexivity]. rewrite Nat.add_comm. now apply (near_mul Hu).
      - rewrite Rabs_mult. apply Rmult_le_compat; auto using Rabs_pos. now apply (near_le (I := I)).
      - rewrite Es, E. ring. }
    assert (EM : mprod n L1 U1 i j = rsum n (fun k => fst (q k) * U1 k j) + rsum n (fun k => snd (q k) * U1 k j)).
    { unfold mprod. rewrite <- rsum_add. apply rsum_ext. intros k Hk. destruct (Hq k Hk) as (_ & _ & ->). ring. }
    rewrite EM. match goal with |- Rabs (?a + ?b - ?c) <= _ => replace (a + b - c) with ((a - c) + b) by ring end.
    eapply Rle_trans; [apply Rabs_triang|]. apply Rplus_le_compat.
    + unfold mprod, mabs. rewrite (rsum_ext n (fun k => Rabs (dsc (vm L) i k) * Rabs (lof (vm L) j k)) (fun k => Rabs (dsc (vm L) i k * lof (vm L) j k)))
        by (intros; now rewrite Rabs_mult).
      apply (pert_sum (AX := AX)). intros k Hk. replace (2 * n + 1)%nat with ((n + 1) + n)%nat by lia. apply (pert_mul (AX := AX)); [apply Hq; auto|].
      exact (P2 k j Hk Hj).
    + eapply Rle_trans; [apply bsum_abs|]. unfold mod_under_m. rewrite Rmult_assoc, (Rmult_comm (rsum n _)), <- rsum_scal. apply bsum_le. intros k Hk.
      rewrite Rabs_mult. destruct (Hq k Hk) as (_ & Bq & _). pose proof (pert_le (I := I) _ _ _ (P2 k j Hk Hj)) as BU.
      change (upf (fun a b => val (L b a)) k j) with (lof (vm L) j k) in BU.
      assert (GG : (1 + gamma u n) * (1 + gamma u n) <= 1 + gamma u (2 * n + 1)) by (rewrite (g_mul (u := u)); apply (g_mono (I := I)); lia).
      eapply Rle_trans; [apply Rmult_le_compat; [apply Rabs_pos|apply Rabs_pos|exact Bq|exact BU]|].
      pose proof (Rmult_le_pos _ _ He (Rabs_pos (lof (vm L) j k))) as P0.
      apply Rle_trans with (eta * Rabs (lof (vm L) j k) * ((1 + gamma u n) * (1 + gamma u n))); [right; ring|].
      apply Rle_trans with (eta * Rabs (lof (vm L) j k) * (1 + gamma u (2 * n + 1))); [now apply Rmult_le_compat_l|right; ring].
  - intros i Hi.
    pose proof (chain_err (I := I) n (ulof (vm F)) L1 e1 e2 (fun _ => INR n) (fun i => INR n + Rabs (val (L i i))) i P1 Hi B1 B2 ltac:(intros; apply pos_INR)) as CE.
    eapply Rle_trans; [exact CE|]. clear CE. unfold mod_under_b.
    pose proof (g1_pos (I := I) (2 * n)) as G2. pose proof (g1_pos (I := I) 1) as G1.
    assert (GG : (1 + gamma u 1) * (1 + gamma u (2 * n)) = 1 + gamma u (2 * n + 1)) by (rewrite (g_mul (u := u)); do 2 f_equal; lia).
    rewrite <- GG.
    replace ((INR n + rsum n (fun j => (Rabs (dsc (vm L) i j) + eta) * (INR n + Rabs (val (L j j))))) * eta * ((1 + gamma u 1) * (1 + gamma u (2 * n))))
      with (((1 + gamma u 1) * (INR n + rsum n (fun j => (Rabs (dsc (vm L) i j) + eta) * (INR n + Rabs (val (L j j)))))) * eta * (1 + gamma u (2 * n))) by ring.
    apply Rmult_le_compat_r; [lra|]. apply Rmult_le_compat_r; auto. rewrite Rmult_plus_distr_l. apply Rplus_le_compat.
    + pose proof (pos_INR n). nra.
    + rewrite <- rsum_scal. apply bsum_le. intros k Hk. rewrite <- Rmult_assoc. apply Rmult_le_compat_r.
      * pose proof (pos_INR n). pose proof (Rabs_pos (val (L k k))). lra.
      * destruct (QF i k Hi Hk) as (t & e & Nt & Be & ->). eapply Rle_trans; [apply Rabs_triang|]. rewrite Rabs_mult.
        pose proof (near_le (I := I) _ _ Nt) as Lt. pose proof (Rabs_pos (dsc (vm L) i k)).
        assert (Rabs (dsc (vm L) i k) * Rabs t <= Rabs (dsc (vm L) i k) * (1 + gamma u 1)) by (apply Rmult_le_compat_l; auto). nra.
  - exact (solves_chain n L1 U1 (vv x) (vv Y) (vv b) e1 e2 S1 S2).
Qed.
End IeeeMod.
