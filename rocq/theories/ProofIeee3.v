(** * The tridiagonal solver in IEEE arithmetic (C83) *)
From Coq Require Import Reals Lra Lia Psatz.
From Verif Require Import Base Scalar BaseLemmas Spec Sums RealVec ModelVec ModelMat ModelSolvers ModelIter ProofVec
  ProofTdmaBits SpecRound Rounding ProofRound ProofRound2 SpecIeee ProofIeee ProofIeee2.
Local Open Scope R_scope.

Local Notation rsum := (@bsum R ROps).

Section IeeeTri.
Context {T : Type} {Op : Ops T} {val : T -> R} {fin : T -> Prop} {prd : T -> T -> T -> Prop} {u eta omega : R} {I : Ieee Op val fin prd u eta omega}.
Let Hu : 0 <= u < 1 := i_range (Ieee := I).
Let He : 0 <= eta := i_eta (Ieee := I).
Let AX : Approx ROps u := exact_u (I := I).
Local Notation pert := (pert (u := u)).

(** ** Sizes of computed values *)
Lemma size_of p v a : Rabs (v - p) <= a -> Rabs v <= Rabs p + a.
Proof. intros H. replace v with (p + (v - p)) by ring. eapply Rle_trans; [apply Rabs_triang|]. lra. Qed.
Lemma size_low p v a : Rabs (v - p) <= a -> Rabs p - a <= Rabs v.
Proof. intros H. rewrite Rabs_minus_sym in H. apply size_of in H. lra. Qed.

Variables (n : nat) (dl d du b x : nat -> T).
Local Notation P i := (fst (sweep dl d du b i)).
Local Notation Q i := (snd (sweep dl d du b i)).
Definition dent (i : nat) : T := match i with 0%nat => d 0%nat | S j => add (d (S j)) (mul (dl j) (P j)) end.
Local Notation D i := (Rabs (val (d i))).
Definition lo (i : nat) : R := match i with 0%nat => 0 | S j => Rabs (val (dl j)) end.
Definition up (i : nat) : R := if Nat.eqb (S i) n then 0 else Rabs (val (du i)).
Definition pab (i : nat) : R := if Nat.eqb (S i) n then 0 else Rabs (val (P i)).
Definition margin (i : nat) : R := (1 - eta) * (1 - u) * D i - (1 + u) ^ 3 * (lo i + up i) - eta.
Definition room (i : nat) : R := (1 + u) ^ 2 * (2 * D i + eta).

Hypothesis Fl : forall i, (S i < n)%nat -> fin (dl i).
Hypothesis Fd : forall i, (i < n)%nat -> fin (d i).
Hypothesis Fu : forall i, (S i < n)%nat -> fin (du i).
Hypothesis Sd : vsettled prd n d.
Hypothesis Sb : vsettled prd n b.
Hypothesis Hm : forall i, (i < n)%nat -> 0 < margin i.
Hypothesis Ho : forall i, (i < n)%nat -> room i <= omega.

Lemma P_div i : P i = div (opp (du i)) (dent i).
Proof. destruct i; reflexivity. Qed.
Lemma lo_pos i : 0 <= lo i.
Proof. destruct i; cbn; [lra|apply Rabs_pos]. Qed.
Lemma up_pos i : 0 <= up i.
Proof. unfold up. destruct (Nat.eqb (S i) n); [lra|apply Rabs_pos]. Qed.
Lemma pow3_ge x0 : 0 <= x0 -> x0 <= (1 + u) ^ 3 * x0.
Proof. intros H. assert (1 <= (1 + u) ^ 3) by (apply pow_R1_Rle; lra). nra. Qed.
Lemma eta_lt i : (i < n)%nat -> eta < 1 /\ lo i + up i <= D i /\ (1 + u) ^ 3 * (lo i + up i) + eta < (1 - eta) * (1 - u) * D i.
Proof.
  intros Hi. specialize (Hm i Hi). unfold margin in Hm. pose proof (lo_pos i). pose proof (up_pos i). pose proof (Rabs_pos (val (d i))) as PD.
  pose proof (pow3_ge (lo i + up i) ltac:(lra)).
  assert (K : 0 < (1 - eta) * ((1 - u) * D i)) by lra. assert (PQ : 0 <= (1 - u) * D i) by (apply Rmult_le_pos; lra).
  assert (E : eta < 1). { destruct (Rlt_le_dec eta 1); auto. assert ((1 - eta) * ((1 - u) * D i) <= 0); [|lra]. nra. }
  split; [auto|]. split; [|lra].
  assert ((1 - eta) * (1 - u) * D i <= 1 * D i); [|lra]. apply Rmult_le_compat_r; auto. nra.
Qed.

(** ** The pivots *)
Definition piv_ok (i : nat) : Prop :=
  fin (dent i) /\ (1 - u) * (D i - (1 + u) * (lo i * match i with 0%nat => 0 | S j => Rabs (val (P j)) end) - eta) <= Rabs (val (dent i)) /\
  Rabs (val (dent i)) <= room i /\ 0 < Rabs (val (dent i)) /\ (1 + u) * up i <= (1 - eta) * Rabs (val (dent i)).
Definition coef_ok (i : nat) : Prop := fin (P i) /\ Rabs (val (P i)) <= 1 /\
  Rabs (val (P i)) * Rabs (val (dent i)) <= (1 + u) * up i + eta * Rabs (val (dent i)).

Lemma piv_enough i l : (i < n)%nat -> 0 <= l <= lo i -> (1 - u) * (D i - (1 + u) * l - eta) <= Rabs (val (dent i)) ->
  0 < Rabs (val (dent i)) /\ (1 + u) * up i <= (1 - eta) * Rabs (val (dent i)).
Proof.
  intros Hi Hl H. destruct (eta_lt i Hi) as (E1 & E2 & E3). pose proof (lo_pos i) as L0. pose proof (up_pos i) as U0.
  assert (A : (1 + u) ^ 3 * (lo i + up i) + eta - (1 - eta) * (1 - u) * ((1 + u) * lo i + eta) <= (1 - eta) * Rabs (val (dent i))).
  { eapply Rle_trans; [|apply Rmult_le_compat_l; [lra|exact H]].
    assert ((1 - eta) * (1 - u) * ((1 + u) * l) <= (1 - eta) * (1 - u) * ((1 + u) * lo i)).
    { apply Rmult_le_compat_l; [apply Rmult_le_pos; lra|]. apply Rmult_le_compat_l; lra. }
    lra. }
  assert (B : (1 - eta) * (1 - u) * ((1 + u) * lo i + eta) <= (1 + u) * lo i + eta).
  { rewrite <- (Rmult_1_l ((1 + u) * lo i + eta)) at 2. apply Rmult_le_compat_r; [nra|]. nra. }
  assert (C : (1 + u) * (lo i + up i) <= (1 + u) ^ 3 * (lo i + up i)).
  { apply Rmult_le_compat_r; [lra|]. assert (1 <= (1 + u) ^ 2) by (apply pow_R1_Rle; lra). cbn [pow] in *. nra. }
  split; [|lra].
  destruct (Rle_lt_or_eq_dec 0 (Rabs (val (dent i))) (Rabs_pos _)) as [|Z]; auto. exfalso. rewrite <- Z in *.
  assert (U1 : up i = 0) by nra. pose proof (pow3_ge (lo i + up i) ltac:(lra)).
  assert (0 < D i). { destruct (Rle_lt_or_eq_dec 0 (D i) (Rabs_pos _)) as [|Z']; auto. exfalso. rewrite <- Z', Rmult_0_r in E3. lra. }
  assert (0 < D i - (1 + u) * l - eta); [|nra].
  assert ((1 - eta) * (1 - u) * D i <= 1 * D i) by (apply Rmult_le_compat_r; [lra|nra]).
  rewrite U1, Rplus_0_r in *. assert ((1 + u) * l <= (1 + u) * lo i) by (apply Rmult_le_compat_l; lra). lra.
Qed.

Lemma coef_step i : (S i < n)%nat -> piv_ok i -> coef_ok i.
Proof.
  intros Hi (Fp & _ & _ & Pos & B). pose proof (Rabs_pos (val (dent i))) as P0.
  assert (EU : up i = Rabs (val (du i))) by (unfold up; destruct (Nat.eqb_spec (S i) n); [lia|auto]).
  assert (Nz : val (dent i) <> 0). { intros Z. rewrite Z, Rabs_R0 in Pos. lra. }
  destruct (i_opp (Ieee := I) (du i)) as [Fo Vo].
  assert (Q1 : Rabs (val (opp (du i)) / val (dent i)) * Rabs (val (dent i)) = up i).
  { rewrite Vo. unfold Rdiv. rewrite Rabs_mult, Rabs_Ropp, Rabs_inv, EU. field. lra. }
  assert (Q2 : Rabs (val (opp (du i)) / val (dent i)) <= 1).
  { apply Rmult_le_reg_r with (Rabs (val (dent i))); auto. rewrite Q1, Rmult_1_l. pose proof (up_pos i).
    assert ((1 - eta) * Rabs (val (dent i)) <= 1 * Rabs (val (dent i))) by (apply Rmult_le_compat_r; lra). nra. }
  assert (FP : fin (P i)).
  { rewrite P_div. apply i_div_fin; auto; [apply Fo, Fu; auto|]. pose proof (i_omega (Ieee := I)). lra. }
  assert (K : Rabs (val (P i)) * Rabs (val (dent i)) <= (1 + u) * up i + eta * Rabs (val (dent i))).
  { rewrite P_div in *. destruct (i_div _ _ FP Fp) as (_ & _ & Bd). apply size_of in Bd. rewrite <- Q1.
    replace ((1 + u) * (Rabs (val (opp (du i)) / val (dent i)) * Rabs (val (dent i))) + eta * Rabs (val (dent i)))
      with ((Rabs (val (opp (du i)) / val (dent i)) + (u * Rabs (val (opp (du i)) / val (dent i)) + eta)) * Rabs (val (dent i))) by ring.
    apply Rmult_le_compat_r; auto. }
  split; auto. split; auto. apply Rmult_le_reg_r with (Rabs (val (dent i))); auto. lra.
Qed.

Lemma pivots i : (i < n)%nat -> piv_ok i /\ ((S i < n)%nat -> coef_ok i).
Proof.
  assert (Step : forall j, piv_ok j -> piv_ok j /\ ((S j < n)%nat -> coef_ok j)) by (intros j K; split; [exact K|intros; now apply coef_step]).
  induction i as [|i IH]; intros Hi; apply Step.
  - unfold piv_ok. cbn [dent lo]. destruct (eta_lt 0%nat Hi) as (E1 & _). pose proof (Rabs_pos (val (d 0%nat))).
    assert (B : (1 - u) * (D 0%nat - (1 + u) * (0 * 0) - eta) <= D 0%nat) by nra.
    split; [auto|]. split; [exact B|]. split.
    { unfold room. assert (1 <= (1 + u) ^ 2) by (apply pow_R1_Rle; lra). nra. }
    apply (piv_enough 0%nat 0); auto; [cbn; lra|]. cbn [dent]. lra.
  - destruct (IH ltac:(lia)) as [_ C]. destruct (C Hi) as (FP & P1 & _). clear IH C.
    destruct (eta_lt (S i) Hi) as (E1 & E2 & _). pose proof (Rabs_pos (val (d (S i)))) as D0. pose proof (up_pos (S i)). pose proof (i_omega (Ieee := I)) as W1.
    cbn [lo] in E2. pose proof (Rabs_pos (val (dl i))) as L0. pose proof (Rabs_pos (val (P i))) as P0.
    specialize (Ho (S i) Hi). unfold room in Ho. assert (U2 : 1 <= (1 + u) ^ 2) by (apply pow_R1_Rle; lra).
    assert (LP : Rabs (val (dl i)) * Rabs (val (P i)) <= Rabs (val (dl i))) by (rewrite <- (Rmult_1_r (Rabs (val (dl i)))) at 2; apply Rmult_le_compat_l; auto).
    assert (FM : fin (mul (dl i) (P i))).
    { apply i_mul_fin; auto. rewrite Rabs_mult. nra. }
    assert (FA : fin (add (d (S i)) (mul (dl i) (P i)))).
    { apply i_add_fin; auto. intros wd w Wd Ww. apply see_settled in Wd as [_ ->]; auto. apply see_mul in Ww as (_ & _ & BM1 & _).
      apply size_of in BM1. rewrite Rabs_mult in BM1. eapply Rle_trans; [apply Rabs_triang|]. cbn [pow] in *. nra. }
    destruct (i_add _ _ FA) as (wd & w & Wd & Ww & BA). apply see_settled in Wd as [_ ->]; auto. apply see_mul in Ww as (_ & _ & BM1 & _).
    apply size_of in BM1. rewrite Rabs_mult in BM1. pose proof BA as BA1. apply size_of in BA1. apply size_low in BA.
    pose proof (Rabs_triang (val (d (S i))) (w)) as TR.
    assert (TL : D (S i) - Rabs (w) <= Rabs (val (d (S i)) + w)).
    { pose proof (Rabs_triang (val (d (S i)) + w) (- w)) as TR2.
      replace (val (d (S i)) + w + - w) with (val (d (S i))) in TR2 by ring. rewrite Rabs_Ropp in TR2. lra. }
    assert (BL : (1 - u) * (D (S i) - (1 + u) * (Rabs (val (dl i)) * Rabs (val (P i))) - eta) <= Rabs (val (dent (S i)))).
    { cbn [dent]. eapply Rle_trans; [|exact BA]. replace (Rabs (val (d (S i)) + w) - u * Rabs (val (d (S i)) + w))
        with ((1 - u) * Rabs (val (d (S i)) + w)) by ring. apply Rmult_le_compat_l; lra. }
    unfold piv_ok. cbn [lo]. split; [exact FA|]. split; [exact BL|]. split.
    + cbn [dent]. unfold room. eapply Rle_trans; [exact BA1|].
      replace (Rabs (val (d (S i)) + w) + u * Rabs (val (d (S i)) + w))
        with ((1 + u) * Rabs (val (d (S i)) + w)) by ring.
      replace ((1 + u) ^ 2 * (2 * D (S i) + eta)) with ((1 + u) * ((1 + u) * (2 * D (S i) + eta))) by ring.
      apply Rmult_le_compat_l; [lra|]. nra.
    + apply (piv_enough (S i) (Rabs (val (dl i)) * Rabs (val (P i)))); auto. split; [now apply Rmult_le_pos|exact LP].
Qed.

(** ** Finite right-hand sides give finite, bounded results *)
Section Bounded.
Variable M : R.
Hypothesis Fb : forall i, (i < n)%nat -> fin (b i).
Hypothesis HM : forall i, (i < n)%nat -> (1 + u) ^ 2 * (Rabs (val (b i)) + eta * (1 + 2 * D i + eta)) <= M * margin i.
Hypothesis HoM : forall i, (i < n)%nat -> M * room i <= omega.
Hypothesis HoX : (1 + u) ^ (2 * n) * (M + INR n * eta) <= omega.

Lemma M_pos i : (i < n)%nat -> 0 <= M.
Proof.
  intros Hi. specialize (HM i Hi). specialize (Hm i Hi). destruct (Rle_lt_dec 0 M); auto. exfalso.
  assert (M * margin i < 0) by nra. pose proof (Rabs_pos (val (b i))). pose proof (Rabs_pos (val (d i))).
  assert (0 <= (1 + u) ^ 2) by (apply pow_le; lra). assert (0 <= (1 + u) ^ 2 * (Rabs (val (b i)) + eta * (1 + 2 * D i + eta))); [|lra].
  apply Rmult_le_pos; auto. apply Rplus_le_le_0_compat; auto. apply Rmult_le_pos; lra.
Qed.
Lemma M_omega i : (i < n)%nat -> M <= omega.
Proof.
  intros Hi. pose proof (M_pos i Hi). eapply Rle_trans; [|exact HoX].
  assert (1 <= (1 + u) ^ (2 * n)) by (apply pow_R1_Rle; lra). assert (0 <= INR n * eta) by (apply Rmult_le_pos; auto using pos_INR).
  assert (0 <= M + INR n * eta) by lra. nra.
Qed.
(** What a numerator may be. *)
Lemma num_ok i l q : (i < n)%nat -> 0 <= l <= lo i -> 0 <= q -> l = lo i * q -> q <= 1 ->
  (1 - u) * (D i - (1 + u) * l - eta) <= Rabs (val (dent i)) -> Rabs (val (dent i)) <= room i ->
  (1 + u) ^ 2 * (Rabs (val (b i)) + eta + (1 + u) * (lo i * (M * (1 - q)))) + eta * Rabs (val (dent i)) <= M * ((1 - eta) * Rabs (val (dent i)) - (1 + u) * up i).
Proof.
  intros Hi Hl Hq El Hq1 B1 B2. pose proof (M_pos i Hi) as M0. specialize (HM i Hi). destruct (eta_lt i Hi) as (E1 & E2 & E3).
  unfold room in B2. pose proof (lo_pos i) as L0. pose proof (up_pos i) as U0. pose proof (Rabs_pos (val (d i))) as D0.
  assert (U2 : 1 <= (1 + u) ^ 2) by (apply pow_R1_Rle; lra).
  assert (X1 : eta * Rabs (val (dent i)) <= (1 + u) ^ 2 * (eta * (2 * D i + eta))).
  { replace ((1 + u) ^ 2 * (eta * (2 * D i + eta))) with (eta * ((1 + u) ^ 2 * (2 * D i + eta))) by ring. apply Rmult_le_compat_l; auto. }
  assert (X2 : margin i + (1 + u) ^ 3 * lo i * (1 - q) <= (1 - eta) * Rabs (val (dent i)) - (1 + u) * up i).
  { unfold margin. assert (Y1 : (1 - eta) * ((1 - u) * (D i - (1 + u) * l - eta)) <= (1 - eta) * Rabs (val (dent i))) by (apply Rmult_le_compat_l; lra).
    assert (Y2 : (1 - eta) * (1 - u) * ((1 + u) * l + eta) <= 1 * ((1 + u) * l + eta)).
    { apply Rmult_le_compat_r; [nra|]. nra. }
    assert (U3 : (1 + u) <= (1 + u) ^ 3) by (cbn [pow] in *; nra).
    assert (Y3 : (1 + u) * l <= (1 + u) ^ 3 * l) by (apply Rmult_le_compat_r; lra).
    assert (Y4 : (1 + u) * up i <= (1 + u) ^ 3 * up i) by (apply Rmult_le_compat_r; lra).
    assert (Y5 : (1 + u) ^ 3 * lo i * (1 - q) = (1 + u) ^ 3 * lo i - (1 + u) ^ 3 * l) by (rewrite El; ring).
    lra. }
  assert (X3 : M * (margin i + (1 + u) ^ 3 * lo i * (1 - q)) <= M * ((1 - eta) * Rabs (val (dent i)) - (1 + u) * up i)) by (apply Rmult_le_compat_l; auto).
  eapply Rle_trans; [|exact X3].
  replace ((1 + u) ^ 2 * (Rabs (val (b i)) + eta + (1 + u) * (lo i * (M * (1 - q)))))
    with ((1 + u) ^ 2 * (Rabs (val (b i)) + eta) + M * ((1 + u) ^ 3 * lo i * (1 - q))) by ring.
  rewrite Rmult_plus_distr_l. lra.
Qed.
Lemma quot_ok i a N : (i < n)%nat -> fin a -> Rabs (val a) <= N -> (1 + u) * N + eta * Rabs (val (dent i)) <= M * ((1 - eta) * Rabs (val (dent i)) - (1 + u) * up i) ->
  fin (div a (dent i)) /\ Rabs (val (div a (dent i))) <= M * (1 - pab i).
Proof.
  intros Hi Fa Ba B. destruct (pivots i Hi) as [(Fp & _ & _ & Pos & PU) C]. pose proof (M_pos i Hi) as M0. pose proof (M_omega i Hi) as MO.
  destruct (eta_lt i Hi) as (E1 & _). pose proof (up_pos i) as U0. pose proof (Rabs_pos (val a)) as A0.
  assert (Nz : val (dent i) <> 0). { intros Z. rewrite Z, Rabs_R0 in Pos. lra. }
  assert (Q1 : Rabs (val a / val (dent i)) * Rabs (val (dent i)) = Rabs (val a)).
  { unfold Rdiv. rewrite Rabs_mult, Rabs_inv. field. lra. }
  assert (Q2 : Rabs (val a / val (dent i)) <= M).
  { apply Rmult_le_reg_r with (Rabs (val (dent i))); auto. rewrite Q1.
    assert (M * ((1 - eta) * Rabs (val (dent i)) - (1 + u) * up i) <= M * Rabs (val (dent i))) by (apply Rmult_le_compat_l; auto; nra). nra. }
  assert (FQ : fin (div a (dent i))) by (apply i_div_fin; auto; lra). split; auto.
  destruct (i_div _ _ FQ Fp) as (_ & _ & Bd). apply size_of in Bd.
  apply Rmult_le_reg_r with (Rabs (val (dent i))); auto.
  assert (K : Rabs (val (div a (dent i))) * Rabs (val (dent i)) <= (1 + u) * Rabs (val a) + eta * Rabs (val (dent i))).
  { rewrite <- Q1. replace ((1 + u) * (Rabs (val a / val (dent i)) * Rabs (val (dent i))) + eta * Rabs (val (dent i)))
      with ((Rabs (val a / val (dent i)) + (u * Rabs (val a / val (dent i)) + eta)) * Rabs (val (dent i))) by ring. apply Rmult_le_compat_r; lra. }
  assert (PB : pab i * Rabs (val (dent i)) <= (1 + u) * up i + eta * Rabs (val (dent i))).
  { unfold pab. destruct (Nat.eqb_spec (S i) n) as [|Ne]; [nra|]. destruct (C ltac:(lia)) as (_ & _ & C3). exact C3. }
  assert (MB : M * (pab i * Rabs (val (dent i))) <= M * ((1 + u) * up i + eta * Rabs (val (dent i)))) by (apply Rmult_le_compat_l; auto).
  nra.
Qed.
Lemma quotients i : (i < n)%nat -> fin (Q i) /\ Rabs (val (Q i)) <= M * (1 - pab i).
Proof.
  induction i as [|i IH]; intros Hi.
  - change (Q 0%nat) with (div (b 0%nat) (dent 0%nat)). destruct (pivots 0%nat Hi) as [(_ & B1 & B2 & _) _].
    apply (quot_ok 0%nat (b 0%nat) (Rabs (val (b 0%nat)))); auto; [lra|].
    pose proof (num_ok 0%nat 0 0 Hi) as K. cbn [lo] in *. specialize (K ltac:(lra) ltac:(lra) ltac:(ring) ltac:(lra)).
    rewrite Rmult_0_r in B1. specialize (K B1 B2). eapply Rle_trans; [|exact K].
    pose proof (Rabs_pos (val (b 0%nat))). assert (1 + u <= (1 + u) ^ 2) by (cbn; nra). apply Rplus_le_compat_r.
    apply Rmult_le_compat; lra.
  - destruct (IH ltac:(lia)) as [FQ BQ]. destruct (pivots i ltac:(lia)) as [_ C]. destruct (C Hi) as (FP & P1 & _).
    destruct (pivots (S i) Hi) as [(_ & B1 & B2 & _) _]. pose proof (Rabs_pos (val (P i))) as P0. pose proof (Rabs_pos (val (dl i))) as L0. pose proof (Rabs_pos (val (Q i))) as Q0.
    assert (EP : pab i = Rabs (val (P i))) by (unfold pab; destruct (Nat.eqb_spec (S i) n); [lia|auto]). rewrite EP in BQ.
    pose proof (M_pos _ Hi) as M0. pose proof (HoM (S i) Hi) as HO. destruct (eta_lt (S i) Hi) as (E1 & E2 & _). cbn [lo] in E2. pose proof (up_pos (S i)) as U0.
    pose proof (num_ok (S i) (Rabs (val (dl i)) * Rabs (val (P i))) (Rabs (val (P i))) Hi) as K. cbn [lo] in K, B1.
    specialize (K ltac:(split; [now apply Rmult_le_pos|nra]) P0 eq_refl P1 B1 B2).
    assert (LQ : Rabs (val (dl i)) * Rabs (val (Q i)) <= Rabs (val (dl i)) * (M * (1 - Rabs (val (P i))))) by (apply Rmult_le_compat_l; auto).
    set (W := Rabs (val (dl i)) * (M * (1 - Rabs (val (P i))))) in *.
    assert (W0 : 0 <= W) by (unfold W; apply Rmult_le_pos; auto; apply Rmult_le_pos; lra).
    assert (KO : (1 + u) ^ 2 * (Rabs (val (b (S i))) + eta + (1 + u) * W) <= omega).
    { assert (0 <= eta * Rabs (val (dent (S i)))) by (apply Rmult_le_pos; auto using Rabs_pos).
      assert (M * ((1 - eta) * Rabs (val (dent (S i))) - (1 + u) * up (S i)) <= M * room (S i)).
      { apply Rmult_le_compat_l; auto. pose proof (Rabs_pos (val (dent (S i)))). nra. } lra. }
    assert (U2 : 1 <= (1 + u) ^ 2) by (apply pow_R1_Rle; lra). pose proof (Rabs_pos (val (b (S i)))) as B0.
    assert (UW : W <= (1 + u) * W) by nra.
    assert (Big : Rabs (val (b (S i))) + eta + (1 + u) * W <= (1 + u) ^ 2 * (Rabs (val (b (S i))) + eta + (1 + u) * W)) by nra.
    assert (FM : fin (mul (dl i) (Q i))). { apply i_mul_fin; auto. rewrite Rabs_mult. lra. }
    assert (TS : forall w, seen val fin prd u eta (mul (dl i) (Q i)) w -> Rabs (val (b (S i)) - w) <= Rabs (val (b (S i))) + eta + (1 + u) * W).
    { intros w Ww. apply see_mul in Ww as (_ & _ & BM & _). apply size_of in BM. rewrite Rabs_mult in BM.
      unfold Rminus. eapply Rle_trans; [apply Rabs_triang|]. rewrite Rabs_Ropp. nra. }
    assert (FS : fin (sub (b (S i)) (mul (dl i) (Q i)))).
    { apply i_sub_fin; auto. intros wb w Wb Ww. apply see_settled in Wb as [_ ->]; auto. specialize (TS w Ww). lra. }
    destruct (i_sub _ _ FS) as (wb & w & Wb & Ww & BS). apply see_settled in Wb as [_ ->]; auto. specialize (TS w Ww). apply size_of in BS.
    change (Q (S i)) with (div (sub (b (S i)) (mul (dl i) (Q i))) (dent (S i))).
    apply (quot_ok (S i) _ ((1 + u) * (Rabs (val (b (S i))) + eta + (1 + u) * W))); auto.
    + eapply Rle_trans; [exact BS|]. nra.
    + eapply Rle_trans; [|exact K]. right. ring.
Qed.

Lemma results : swept n dl d du b x -> forall k i, (i < n)%nat -> (i + k = n - 1)%nat ->
  fin (x i) /\ Rabs (val (x i)) <= (1 + u) ^ (2 * k) * (M + INR k * eta).
Proof.
  intros [HL HR]. induction k as [|k IH]; intros i Hi Ek.
  - replace i with (n - 1)%nat in * by lia. rewrite HL. destruct (quotients (n - 1)%nat Hi) as [FQ BQ]. split; auto.
    cbn. unfold pab in BQ. destruct (Nat.eqb_spec (S (n - 1)) n); [|lia]. lra.
  - destruct (IH (S i) ltac:(lia) ltac:(lia)) as [Fx Bx]. rewrite (HR i ltac:(lia)).
    destruct (quotients i Hi) as [FQ BQ]. destruct (pivots i Hi) as [_ C]. destruct (C ltac:(lia)) as (FP & P1 & _).
    assert (EP : pab i = Rabs (val (P i))) by (unfold pab; destruct (Nat.eqb_spec (S i) n); [lia|auto]). rewrite EP in BQ.
    pose proof (Rabs_pos (val (P i))) as P0. pose proof (Rabs_pos (val (x (S i)))) as X0. pose proof (M_pos i Hi) as M0.
    set (B := (1 + u) ^ (2 * k) * (M + INR k * eta)) in *.
    assert (Ep : (1 + u) ^ (2 * S k) = (1 + u) ^ 2 * (1 + u) ^ (2 * k)) by (rewrite <- pow_add; f_equal; lia).
    assert (G1 : 1 <= (1 + u) ^ (2 * k)) by (apply pow_R1_Rle; lra). assert (U2 : 1 <= (1 + u) ^ 2) by (apply pow_R1_Rle; lra).
    assert (KE : 0 <= INR k * eta) by (apply Rmult_le_pos; auto using pos_INR).
    assert (BM : M <= B) by (unfold B; nra).
    assert (NX : (1 + u) ^ 2 * (B + eta) <= (1 + u) ^ (2 * S k) * (M + INR (S k) * eta)).
    { rewrite Ep, S_INR. unfold B. replace ((1 + u) ^ 2 * (1 + u) ^ (2 * k) * (M + (INR k + 1) * eta))
        with ((1 + u) ^ 2 * ((1 + u) ^ (2 * k) * (M + INR k * eta) + (1 + u) ^ (2 * k) * eta)) by ring.
      apply Rmult_le_compat_l; [lra|]. apply Rplus_le_compat_l. nra. }
    assert (NO : (1 + u) ^ (2 * S k) * (M + INR (S k) * eta) <= omega).
    { eapply Rle_trans; [|exact HoX]. apply Rmult_le_compat.
      - apply pow_le; lra.
      - pose proof (pos_INR (S k)). nra.
      - apply Rle_pow; [lra|lia].
      - apply Rplus_le_compat_l, Rmult_le_compat_r; auto. apply le_INR. lia. }
    assert (PX : Rabs (val (P i)) * Rabs (val (x (S i))) <= Rabs (val (P i)) * B) by (apply Rmult_le_compat_l; auto).
    assert (CV : Rabs (val (P i)) * B + M * (1 - Rabs (val (P i))) <= B) by nra.
    assert (FM : fin (mul (P i) (x (S i)))). { apply i_mul_fin; auto. rewrite Rabs_mult. nra. }
    assert (SQ : settled prd (Q i)) by (destruct i; apply (i_settled (Ieee := I))).
    assert (TS : forall w, seen val fin prd u eta (mul (P i) (x (S i))) w -> Rabs (w + val (Q i)) <= (1 + u) * (B + eta)).
    { intros w Ww. apply see_mul in Ww as (_ & _ & BMu & _). apply size_of in BMu. rewrite Rabs_mult in BMu. eapply Rle_trans; [apply Rabs_triang|]. assert (0 <= M * (1 - Rabs (val (P i)))) by (apply Rmult_le_pos; lra). nra. }
    assert (UB : (1 + u) * (B + eta) <= (1 + u) ^ 2 * (B + eta)) by (apply Rmult_le_compat_r; [lra|cbn; nra]).
    assert (FA : fin (add (mul (P i) (x (S i))) (Q i))).
    { apply i_add_fin; auto. intros w wq Ww Wq. apply see_settled in Wq as [_ ->]; auto. specialize (TS w Ww). lra. }
    split; [exact FA|].
    destruct (i_add _ _ FA) as (w & wq & Ww & Wq & BA). apply see_settled in Wq as [_ ->]; auto. specialize (TS w Ww). apply size_of in BA. eapply Rle_trans; [exact BA|]. eapply Rle_trans; [|exact NX].
    replace ((1 + u) ^ 2 * (B + eta)) with ((1 + u) * ((1 + u) * (B + eta))) by ring.
    replace (Rabs (w + val (Q i)) + u * Rabs (w + val (Q i))) with ((1 + u) * Rabs (w + val (Q i))) by ring. apply Rmult_le_compat_l; lra.
Qed.
Lemma results_bound : swept n dl d du b x -> forall i, (i < n)%nat -> fin (x i) /\ Rabs (val (x i)) <= (1 + u) ^ (2 * n) * (M + INR n * eta).
Proof.
  intros S i Hi. destruct (results S (n - 1 - i)%nat i Hi ltac:(lia)) as [F B]. split; auto. eapply Rle_trans; [exact B|].
  pose proof (M_pos i Hi). apply Rmult_le_compat.
  - apply pow_le; lra.
  - pose proof (pos_INR (n - 1 - i)). nra.
  - apply Rle_pow; [lra|lia].
  - apply Rplus_le_compat_l, Rmult_le_compat_r; auto. apply le_INR. lia.
Qed.
End Bounded.

(** ** A finite result is the solution of a nearby tridiagonal system *)
Section Backward.
Hypothesis Sw : swept n dl d du b x.
Hypothesis Fx : forall i, (i < n)%nat -> fin (x i).
Local Notation g k := (1 + gamma u k).

Lemma fin_Q i : (i < n)%nat -> fin (Q i).
Proof.
  intros Hi. destruct Sw as [HL HR]. destruct (Nat.eq_dec (S i) n) as [E|E].
  - specialize (Fx i Hi). replace (n - 1)%nat with i in HL by lia. now rewrite <- HL.
  - specialize (Fx i Hi). rewrite (HR i ltac:(lia)) in Fx. destruct (add_ieee _ _ Fx) as (w & wq & _ & F & _).
    apply see_settled in F as [F _]; auto. destruct i; apply (i_settled (Ieee := I)).
Qed.
Lemma dent_nz i : (i < n)%nat -> fin (dent i) /\ val (dent i) <> 0 /\ Rabs (val (dent i)) <= g 2 * (2 * D i + 1).
Proof.
  intros Hi. destruct (pivots i Hi) as [(Fp & _ & B & Pos & _) _]. split; auto. split; [intros Z; rewrite Z, Rabs_R0 in Pos; lra|].
  eapply Rle_trans; [exact B|]. destruct (eta_lt i Hi) as (E1 & _). pose proof (Rabs_pos (val (d i))). unfold room.
  assert (K : 1 + u <= / (1 - u)). { apply Rmult_le_reg_r with (1 - u); [lra|]. rewrite Rinv_l by lra. nra. }
  apply Rmult_le_compat; [apply pow_le; lra|lra| |lra]. unfold gamma. replace (1 + (/ (1 - u) ^ 2 - 1)) with (/ (1 - u) ^ 2) by ring.
  rewrite <- pow_inv. apply pow_incr. lra.
Qed.
Lemma P_row i : (S i < n)%nat -> exists s e, near u 1 s /\ Rabs e <= eta /\ val (P i) * val (dent i) = - val (du i) * s + e * val (dent i).
Proof.
  intros Hi. destruct (pivots i ltac:(lia)) as [(Fp & _) C]. destruct (C Hi) as (FP & _). rewrite P_div in *.
  destruct (div_ieee _ _ FP Fp) as (_ & Nz & s & e & Ns & Be & E). exists s, e. split; auto. split; auto. rewrite E.
  destruct (i_opp (Ieee := I) (du i)) as [_ ->]. now field.
Qed.
Lemma X_row i : (i < n)%nat -> exists a r e, near u 1 a /\ near u 1 r /\ Rabs e <= eta /\
  val (Q i) = val (x i) * a - (if Nat.eqb (S i) n then 0 else val (P i) * val (x (S i)) * r) - e.
Proof.
  intros Hi. destruct Sw as [HL HR]. destruct (Nat.eqb_spec (S i) n) as [E|E].
  - exists 1, 1, 0. split; [apply (near_1 Hu)|split; [apply (near_1 Hu)|split; [now rewrite Rabs_R0|]]].
    replace (n - 1)%nat with i in HL by lia. rewrite HL. ring.
  - pose proof (Fx i Hi) as Fi. rewrite (HR i ltac:(lia)) in Fi. destruct (add_ieee _ _ Fi) as (w & wq & FM & Wq & a & Na & Ea).
    apply see_settled in Wq as [_ ->]; [|destruct i; apply (i_settled (Ieee := I))].
    destruct (see_mul_ieee _ _ _ FM) as (_ & _ & r & e & Nr & Be & Em). pose proof (near_pos Hu _ _ Na).
    exists (/ a), r, e. split; [now apply (near_inv Hu)|split; [auto|split; [auto|]]]. rewrite (HR i ltac:(lia)), Ea, Em. field. lra.
Qed.
Definition under_b (i : nat) : R := 5 * D i + 3.
Definition under_m (i : nat) : R := 2 * D i + 1.

Lemma abs3 a b0 c A B C : Rabs a <= A -> Rabs b0 <= B -> Rabs c <= C -> Rabs (a * b0 * c) <= A * B * C.
Proof.
  intros. rewrite !Rabs_mult. apply Rmult_le_compat; auto using Rabs_pos.
  - apply Rmult_le_pos; apply Rabs_pos.
  - apply Rmult_le_compat; auto using Rabs_pos.
Qed.
Lemma g_up a c : (a <= c)%nat -> g a <= g c.
Proof. apply (g_mono (I := I)). Qed.

Lemma row_first : (0 < n)%nat -> exists d' u' e, Rabs (d' - val (d 0%nat)) <= gamma u 4 * D 0%nat /\
  ((1 < n)%nat -> Rabs (u' - val (du 0%nat)) <= gamma u 4 * Rabs (val (du 0%nat)) + under_m 0 * eta * g 5) /\
  Rabs e <= under_b 0 * eta * g 5 /\ fin (b 0%nat) /\
  d' * val (x 0%nat) + (if Nat.eqb 1 n then 0 else u' * val (x 1%nat)) = val (b 0%nat) + e.
Proof.
  intros Hn. pose proof (fin_Q 0%nat Hn) as FQ. destruct (dent_nz 0%nat Hn) as (Fp & Nz & _). change (Q 0%nat) with (div (b 0%nat) (dent 0%nat)) in FQ.
  destruct (div_ieee _ _ FQ Fp) as (Fb0 & _ & t & e4 & Nt & B4 & E4). change (div (b 0%nat) (dent 0%nat)) with (Q 0%nat) in E4. cbn [dent] in *.
  destruct (X_row 0%nat Hn) as (a & r & e5 & Na & Nr & B5 & E5).
  pose proof (near_inv Hu _ _ Nt) as NT. pose proof (near_pos Hu _ _ Nt) as Pt. set (tt := / t) in *.
  assert (Eb : val (b 0%nat) = (val (Q 0%nat) - e4) * val (d 0%nat) * tt) by (rewrite E4; unfold tt; field; lra).
  pose proof (Rabs_pos (val (d 0%nat))) as D0. pose proof (near_le (I := I) _ _ NT) as LT.
  assert (E0 : exists s e1, near u 1 s /\ Rabs e1 <= eta /\ (if Nat.eqb 1 n then 0 else val (P 0%nat) * val (x 1%nat) * r) * val (d 0%nat) =
      (if Nat.eqb 1 n then 0 else (- val (du 0%nat) * s + e1 * val (d 0%nat)) * val (x 1%nat) * r)).
  { destruct (Nat.eqb_spec 1 n).
    - exists 1, 0. split; [apply (near_1 Hu)|]. split; [now rewrite Rabs_R0|ring].
    - destruct (P_row 0%nat ltac:(lia)) as (s & e1 & Ns & B1 & E1). exists s, e1. split; auto. split; auto. cbn [dent] in E1. rewrite <- E1. ring. }
  destruct E0 as (s & e1 & Ns & B1 & E1).
  exists (val (d 0%nat) * (a * tt)), (val (du 0%nat) * (s * (r * tt)) - e1 * val (d 0%nat) * (r * tt)), ((e4 + e5) * val (d 0%nat) * tt).
  assert (NRT : near u 2 (r * tt)) by (change 2%nat with (1 + 1)%nat; now apply (near_mul Hu)).
  split; [|split; [|split; [|split; [exact Fb0|]]]].
  - apply (pert_close (AX := AX)). exists (a * tt). split; [|ring]. apply (near_mono Hu (1 + 1)); [lia|]. now apply (near_mul Hu).
  - intros H1. replace (val (du 0%nat) * (s * (r * tt)) - e1 * val (d 0%nat) * (r * tt) - val (du 0%nat))
      with ((val (du 0%nat) * (s * (r * tt)) - val (du 0%nat)) + - (e1 * val (d 0%nat) * (r * tt))) by ring.
    eapply Rle_trans; [apply Rabs_triang|]. rewrite Rabs_Ropp. apply Rplus_le_compat.
    + apply (pert_close (AX := AX)). exists (s * (r * tt)). split; [|ring]. apply (near_mono Hu (1 + 2)); [lia|]. now apply (near_mul Hu).
    + pose proof (near_le (I := I) _ _ NRT) as L2. pose proof (g_up 2 5 ltac:(lia)). pose proof (abs3 e1 (val (d 0%nat)) (r * tt) eta (D 0%nat) (g 5) B1 ltac:(lra) ltac:(lra)) as K.
      eapply Rle_trans; [exact K|]. unfold under_m. rewrite (Rmult_comm (2 * D 0%nat + 1)).
      apply Rmult_le_compat_r; [pose proof (g1_pos (I := I) 5); lra|]. apply Rmult_le_compat_l; auto. lra.
  - assert (B45 : Rabs (e4 + e5) <= 2 * eta) by (eapply Rle_trans; [apply Rabs_triang|]; lra). pose proof (g_up 1 5 ltac:(lia)).
    pose proof (abs3 (e4 + e5) (val (d 0%nat)) tt (2 * eta) (D 0%nat) (g 5) B45 ltac:(lra) ltac:(lra)) as K.
    eapply Rle_trans; [exact K|]. unfold under_b. replace (2 * eta * D 0%nat) with (2 * D 0%nat * eta) by ring.
    apply Rmult_le_compat_r; [pose proof (g1_pos (I := I) 5); lra|]. apply Rmult_le_compat_r; auto. lra.
  - rewrite Eb, E5. destruct (Nat.eqb 1 n); [ring|].
    replace ((val (x 0%nat) * a - val (P 0%nat) * val (x 1%nat) * r - e5 - e4) * val (d 0%nat) * tt)
      with (val (x 0%nat) * a * val (d 0%nat) * tt - val (P 0%nat) * val (x 1%nat) * r * val (d 0%nat) * tt - (e4 + e5) * val (d 0%nat) * tt) by ring.
    rewrite E1. ring.
Qed.

Lemma row_next i : (S i < n)%nat -> exists l' d' u' e, Rabs (l' - val (dl i)) <= gamma u 2 * Rabs (val (dl i)) /\
  Rabs (d' - val (d (S i))) <= gamma u 4 * D (S i) + gamma u 7 * Rabs (val (dl i)) + under_m (S i) * eta * g 5 /\
  ((S (S i) < n)%nat -> Rabs (u' - val (du (S i))) <= gamma u 4 * Rabs (val (du (S i))) + under_m (S i) * eta * g 5) /\
  Rabs e <= under_b (S i) * eta * g 5 /\ fin (b (S i)) /\
  l' * val (x i) + d' * val (x (S i)) + (if Nat.eqb (S (S i)) n then 0 else u' * val (x (S (S i)))) = val (b (S i)) + e.
Proof.
  intros Hi. pose proof (fin_Q (S i) Hi) as FQ. destruct (dent_nz (S i) Hi) as (Fp & Nz & BD).
  change (Q (S i)) with (div (sub (b (S i)) (mul (dl i) (Q i))) (dent (S i))) in FQ.
  destruct (div_ieee _ _ FQ Fp) as (FS & _ & t & e4 & Nt & B4 & E4). change (div (sub (b (S i)) (mul (dl i) (Q i))) (dent (S i))) with (Q (S i)) in E4.
  destruct (sub_ieee _ _ FS) as (wb & w & Fbi & FM & a1 & Na1 & Ea1). apply see_settled in Fbi as [Fbi ->]; auto.
  destruct (see_mul_ieee _ _ _ FM) as (_ & _ & m & e3 & Nm & B3 & E3).
  cbn [dent] in Fp. destruct (add_ieee _ _ Fp) as (wd & w1 & Wd & FM1 & e & Ne & Ee). apply see_settled in Wd as [_ ->]; auto.
  destruct (see_mul_ieee _ _ _ FM1) as (_ & _ & m1 & e2 & Nm1 & B2 & E2).
  assert (Ed : val (dent (S i)) = (val (d (S i)) + (val (dl i) * val (P i) * m1 + e2)) * e) by (cbn [dent]; rewrite Ee, E2; ring).
  destruct (X_row (S i) Hi) as (a & r & e5 & Na & Nr & B5 & E5). destruct (X_row i ltac:(lia)) as (a0 & r0 & e6 & Na0 & Nr0 & B6 & E6).
  destruct (Nat.eqb_spec (S i) n) as [|_]; [lia|].
  pose proof (near_pos Hu _ _ Nt) as Pt. pose proof (near_pos Hu _ _ Na1) as Pa1.
  assert (NT : near u 2 (/ (a1 * t))). { apply (near_inv Hu). change 2%nat with (1 + 1)%nat. now apply (near_mul Hu). }
  set (tt := / (a1 * t)) in *.
  assert (Eb : val (b (S i)) = (val (Q (S i)) - e4) * val (dent (S i)) * tt + val (dl i) * val (Q i) * m + e3).
  { rewrite E4, Ea1, E3. unfold tt. field. repeat split; auto; lra. }
  assert (E0 : exists s e1, near u 1 s /\ Rabs e1 <= eta /\ (if Nat.eqb (S (S i)) n then 0 else val (P (S i)) * val (x (S (S i))) * r) * val (dent (S i)) =
      (if Nat.eqb (S (S i)) n then 0 else (- val (du (S i)) * s + e1 * val (dent (S i))) * val (x (S (S i))) * r)).
  { destruct (Nat.eqb_spec (S (S i)) n).
    - exists 1, 0. split; [apply (near_1 Hu)|]. split; [now rewrite Rabs_R0|ring].
    - destruct (P_row (S i) ltac:(lia)) as (s & e1 & Ns & B1 & E1). exists s, e1. split; auto. split; auto. rewrite <- E1. ring. }
  destruct E0 as (s & e1 & Ns & B1 & E1).
  destruct (pivots i ltac:(lia)) as [_ C]. destruct (C Hi) as (_ & P1 & _).
  pose proof (Rabs_pos (val (d (S i)))) as D0. pose proof (Rabs_pos (val (dl i))) as L0. pose proof (Rabs_pos (val (P i))) as P0.
  destruct (eta_lt (S i) Hi) as (_ & LD & _). cbn [lo] in LD. pose proof (up_pos (S i)) as U0.
  assert (NAT : near u 4 (a * tt * e)). { change 4%nat with (1 + 2 + 1)%nat. repeat apply (near_mul Hu); auto. }
  assert (NRT : near u 3 (r * tt)) by (change 3%nat with (1 + 2)%nat; now apply (near_mul Hu)).
  pose proof (near_le (I := I) _ _ NT) as LT. pose proof (near_le (I := I) _ _ NAT) as LAT. pose proof (near_le (I := I) _ _ NRT) as LRT. pose proof (near_le (I := I) _ _ Nm) as Lm.
  pose proof (g1_pos (I := I) 5) as G5. pose proof (g_up 4 5 ltac:(lia)) as G45. pose proof (g_up 1 5 ltac:(lia)) as G15.
  assert (G23 : g 2 * g 3 = g 5) by (rewrite (g_mul (u := u)); reflexivity). assert (G22 : g 2 * g 2 = g 4) by (rewrite (g_mul (u := u)); reflexivity).
  exists (val (dl i) * (m * a0)),
    (val (d (S i)) * (a * tt * e) + (val (dl i) * val (P i) * (m1 * (a * tt * e)) - val (dl i) * val (P i) * (m * r0)) + e2 * (a * tt * e)),
    (val (du (S i)) * (s * (r * tt)) - e1 * val (dent (S i)) * (r * tt)),
    ((e4 + e5) * val (dent (S i)) * tt + val (dl i) * m * e6 - e3).
  split; [|split; [|split; [|split; [|split; [exact Fbi|]]]]].
  - apply (pert_close (AX := AX)). exists (m * a0). split; [|ring]. change 2%nat with (1 + 1)%nat. now apply (near_mul Hu).
  - match goal with |- Rabs (?A + (?B1 - ?B2) + ?C0 - ?D0) <= _ => replace (A + (B1 - B2) + C0 - D0) with ((A - D0) + ((B1 - val (dl i) * val (P i)) - (B2 - val (dl i) * val (P i))) + C0) by ring end.
    eapply Rle_trans; [apply Rabs_triang|]. apply Rplus_le_compat; [eapply Rle_trans; [apply Rabs_triang|]; apply Rplus_le_compat|].
    + apply (pert_close (AX := AX)). exists (a * tt * e). split; [auto|ring].
    + assert (Z1 : Rabs (val (dl i) * val (P i) * (m1 * (a * tt * e)) - val (dl i) * val (P i)) <= gamma u 5 * Rabs (val (dl i) * val (P i))).
      { apply (pert_close (AX := AX)). exists (m1 * (a * tt * e)). split; [|ring]. change 5%nat with (1 + 4)%nat. now apply (near_mul Hu). }
      assert (Z2 : Rabs (val (dl i) * val (P i) * (m * r0) - val (dl i) * val (P i)) <= gamma u 2 * Rabs (val (dl i) * val (P i))).
      { apply (pert_close (AX := AX)). exists (m * r0). split; [|ring]. change 2%nat with (1 + 1)%nat. now apply (near_mul Hu). }
      assert (Z3 : Rabs (val (dl i) * val (P i)) <= Rabs (val (dl i))) by (rewrite Rabs_mult; nra).
      pose proof (gamma_add (AX := AX) 5 2) as G. cbn [Nat.add] in G. pose proof (gamma_pos Hu 5). pose proof (gamma_pos Hu 2). pose proof (Rabs_pos (val (dl i) * val (P i))).
      eapply Rle_trans; [apply Rabs_triang|]. rewrite Rabs_Ropp. nra.
    + rewrite Rabs_mult. unfold under_m. replace ((2 * D (S i) + 1) * eta * g 5) with (eta * ((2 * D (S i) + 1) * g 5)) by ring.
      apply Rmult_le_compat; auto using Rabs_pos. nra.
  - intros H2. replace (val (du (S i)) * (s * (r * tt)) - e1 * val (dent (S i)) * (r * tt) - val (du (S i)))
      with ((val (du (S i)) * (s * (r * tt)) - val (du (S i))) + - (e1 * val (dent (S i)) * (r * tt))) by ring.
    eapply Rle_trans; [apply Rabs_triang|]. rewrite Rabs_Ropp. apply Rplus_le_compat.
    + apply (pert_close (AX := AX)). exists (s * (r * tt)). split; [|ring]. change 4%nat with (1 + 3)%nat. now apply (near_mul Hu).
    + pose proof (abs3 e1 (val (dent (S i))) (r * tt) eta _ _ B1 BD LRT) as K. eapply Rle_trans; [exact K|].
      unfold under_m. rewrite <- G23. right. ring.
  - assert (B45 : Rabs (e4 + e5) <= 2 * eta) by (eapply Rle_trans; [apply Rabs_triang|]; lra).
    pose proof (abs3 _ _ _ _ _ _ B45 BD LT) as K1. assert (K2 : Rabs (val (dl i) * m * e6) <= D (S i) * g 5 * eta).
    { apply abs3; auto; lra. }
    unfold Rminus. eapply Rle_trans; [apply Rabs_triang|]. rewrite Rabs_Ropp. eapply Rle_trans; [apply Rplus_le_compat; [apply Rabs_triang|exact B3]|].
    assert (K3 : 2 * eta * (g 2 * (2 * D (S i) + 1)) * g 2 <= 2 * eta * (2 * D (S i) + 1) * g 5).
    { replace (2 * eta * (g 2 * (2 * D (S i) + 1)) * g 2) with (2 * eta * (2 * D (S i) + 1) * (g 2 * g 2)) by ring. rewrite G22.
      apply Rmult_le_compat_l; auto. repeat apply Rmult_le_pos; lra. }
    assert (K4 : eta <= eta * g 5) by nra. unfold under_b.
    replace ((5 * D (S i) + 3) * eta * g 5) with (2 * eta * (2 * D (S i) + 1) * g 5 + D (S i) * g 5 * eta + eta * g 5) by ring. lra.
  - rewrite Eb, E5, E6.
    assert (G : (val (x (S i)) * a - (if Nat.eqb (S (S i)) n then 0 else val (P (S i)) * val (x (S (S i))) * r) - e5 - e4) * val (dent (S i)) * tt
      = val (x (S i)) * a * tt * e * (val (d (S i)) + (val (dl i) * val (P i) * m1 + e2))
        + (if Nat.eqb (S (S i)) n then 0 else (val (du (S i)) * s - e1 * val (dent (S i))) * val (x (S (S i))) * r * tt) - (e4 + e5) * val (dent (S i)) * tt).
    { match goal with |- (?X0 * a - ?Y - e5 - e4) * ?Z * tt = _ => replace ((X0 * a - Y - e5 - e4) * Z * tt) with (X0 * a * tt * Z - Y * Z * tt - (e4 + e5) * Z * tt) by ring end.
      rewrite E1. rewrite Ed at 1. destruct (Nat.eqb (S (S i)) n); ring. }
    rewrite G. destruct (Nat.eqb (S (S i)) n); ring.
Qed.

Lemma tri_near : exists l' d' u' e,
  (forall i, (S i < n)%nat -> Rabs (l' i - val (dl i)) <= gamma u 2 * Rabs (val (dl i))) /\
  (forall i, (S i < n)%nat -> Rabs (u' i - val (du i)) <= gamma u 4 * Rabs (val (du i)) + under_m i * eta * g 5) /\
  (forall i, (i < n)%nat -> Rabs (d' i - val (d i)) <= gamma u 11 * D i + under_m i * eta * g 5) /\
  (forall i, (i < n)%nat -> fin (b i) /\ Rabs (e i) <= under_b i * eta * g 5) /\
  msolves n (trif l' d' u') (fun i => val (x i)) (fun i => val (b i) + e i).
Proof.
  destruct (fin_choice n (fun i (r : R * R * R * R) => let '(l, dd, uu, ee) := r in
    (forall k, i = S k -> Rabs (l - val (dl k)) <= gamma u 2 * Rabs (val (dl k))) /\
    ((S i < n)%nat -> Rabs (uu - val (du i)) <= gamma u 4 * Rabs (val (du i)) + under_m i * eta * g 5) /\
    Rabs (dd - val (d i)) <= gamma u 11 * D i + under_m i * eta * g 5 /\ Rabs ee <= under_b i * eta * g 5 /\ fin (b i) /\
    match i with 0%nat => 0 | S k => l * val (x k) end + dd * val (x i) + (if Nat.eqb (S i) n then 0 else uu * val (x (S i))) = val (b i) + ee) (0, 0, 0, 0)) as (f & Hf).
  { assert (GU : forall i, 0 <= under_m i * eta * g 5).
    { intros i. unfold under_m. pose proof (Rabs_pos (val (d i))). pose proof (g1_pos (I := I) 5). repeat apply Rmult_le_pos; lra. }
    intros i Hi. pose proof (Rabs_pos (val (d i))) as D0. destruct i as [|i].
    - destruct (row_first Hi) as (d' & u' & e & B1 & B2 & B3 & Fb0 & E). exists (0, d', u', e). split; [discriminate|]. split; [exact B2|]. split.
      { eapply Rle_trans; [exact B1|]. pose proof (gamma_mono Hu 4 11 ltac:(lia)). specialize (GU 0%nat). nra. }
      split; [exact B3|]. split; [exact Fb0|]. rewrite Rplus_0_l. exact E.
    - destruct (row_next i Hi) as (l' & d' & u' & e & B1 & B2 & B3 & B4 & Fbi & E). exists (l', d', u', e).
      split; [intros k Ek; injection Ek as <-; exact B1|]. split; [exact B3|]. split; [|split; [exact B4|split; [exact Fbi|exact E]]].
      eapply Rle_trans; [exact B2|]. apply Rplus_le_compat_r. destruct (eta_lt (S i) Hi) as (_ & LD & _). cbn [lo] in LD. pose proof (up_pos (S i)).
      pose proof (gamma_add (AX := AX) 4 7) as G. cbn [Nat.add] in G. pose proof (gamma_pos Hu 7). nra. }
  exists (fun i => fst (fst (fst (f (S i))))), (fun i => snd (fst (fst (f i)))), (fun i => snd (fst (f i))), (fun i => snd (f i)).
  split; [|split; [|split; [|split]]].
  - intros i Hi. specialize (Hf (S i) Hi). destruct (f (S i)) as [[[l dd] uu] ee]. now apply Hf.
  - intros i Hi. specialize (Hf i ltac:(lia)). destruct (f i) as [[[l dd] uu] ee]. now apply Hf.
  - intros i Hi. specialize (Hf i Hi). destruct (f i) as [[[l dd] uu] ee]. now apply Hf.
  - intros i Hi. specialize (Hf i Hi). destruct (f i) as [[[l dd] uu] ee]. split; now apply Hf.
  - intros i Hi. pose proof (Hf i Hi) as H. destruct i as [|i].
    + rewrite trif_row0 by auto. destruct (f 0%nat) as [[[l dd] uu] ee]. destruct H as (_ & _ & _ & _ & _ & H). cbn [fst snd]. lra.
    + rewrite trif_row by auto. destruct (f (S i)) as [[[l dd] uu] ee]. destruct H as (_ & _ & _ & _ & _ & H). exact H.
Qed.
End Backward.
End IeeeTri.
