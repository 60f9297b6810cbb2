(** * ILU(0) in rounded arithmetic on dominant matrices: the rows of the factors stay dominant *)
From Coq Require Import Reals Lra Lia List.
From Verif Require Import Base Scalar Spec Sums RealVec SpecRound Rounding ProofChol ProofIlu ProofRound ProofRound2 ProofGmresMath.
Import ListNotations.
Local Open Scope R_scope.
Local Notation rsum := (@bsum R ROps).

Section Pow.
Variable q : R.
Hypothesis Hq : 0 < q <= 1.
Lemma pow_q_pos k : 0 < q ^ k.
Proof. apply pow_lt. lra. Qed.
Lemma pow_q_le1 k : q ^ k <= 1.
Proof. induction k; cbn; [lra|]. pose proof (pow_q_pos k). nra. Qed.
Lemma pow_q_mono k l : (k <= l)%nat -> q ^ l <= q ^ k.
Proof.
  intros H. replace l with (k + (l - k))%nat by lia. rewrite pow_add. pose proof (pow_q_pos k). pose proof (pow_q_le1 (l - k)). nra.
Qed.
End Pow.

(** ** One row, in terms of inequalities only *)
Section Row.
Variables (n i : nat) (q : R) (d : nat -> R) (a : nat -> R) (f : nat -> nat -> R) (w : nat -> nat -> R).
Hypothesis Hq : 0 < q <= 1.
Hypothesis Hi : (i < n)%nat.
Hypothesis Pd : forall j, (j < n)%nat -> 0 < d j.
(** [w t j]: entry j of row i after the eliminations with rows 0 .. t-1. *)
Hypothesis W0 : forall j, (j < n)%nat -> w 0%nat j = a j.
Hypothesis Wz : forall t j, (j < n)%nat -> a j = 0 -> w t j = 0.
Hypothesis Wup : forall t j, (t < i)%nat -> (j < n)%nat -> a j <> 0 -> Rabs (w (S t) j) <= (Rabs (w t j) + Rabs (f i t) * Rabs (f t j) / q) / q.
Hypothesis Wlo : forall t j, (t < i)%nat -> (j < n)%nat -> a j <> 0 -> q * (Rabs (w t j) - Rabs (f i t) * Rabs (f t j) / q) <= Rabs (w (S t) j).
Hypothesis Wl : forall t, (t < i)%nat -> Rabs (f i t) * Rabs (f t t) <= Rabs (w t t) / q.
Hypothesis Ud : forall t, (t < i)%nat -> rsum n (fun j => if Nat.ltb t j then Rabs (f t j) * d j else 0) <= q ^ 2 * (Rabs (f t t) * d t).
Hypothesis Dom : rsum n (fun j => if Nat.eqb j i then 0 else Rabs (a j) * d j) < q ^ (2 * n) * (Rabs (a i) * d i).

Let off t j := if orb (Nat.ltb j t) (Nat.eqb j i) then 0 else Rabs (w t j) * d j.
Let D t := Rabs (w t i) * d i.
Let Sm t := rsum n (off t).

Lemma off_nonneg t j : (j < n)%nat -> 0 <= off t j.
Proof.
  intros Hj. unfold off. destruct (orb _ _); [lra|]. apply Rmult_le_pos; [apply Rabs_pos|]. pose proof (Pd j Hj). lra.
Qed.
Lemma Sm_nonneg t : 0 <= Sm t.
Proof. apply bsum_nonneg. apply off_nonneg. Qed.
Lemma S0 : Sm 0 = rsum n (fun j => if Nat.eqb j i then 0 else Rabs (a j) * d j).
Proof. apply bsum_ext. intros j Hj. unfold off. cbn [Nat.ltb Nat.leb orb]. now rewrite W0. Qed.
Lemma D0 : D 0 = Rabs (a i) * d i.
Proof. unfold D. now rewrite W0. Qed.
Lemma diag_nz : a i <> 0.
Proof.
  intros E. pose proof Dom as H. rewrite <- S0 in H. pose proof (Sm_nonneg 0). rewrite E, Rabs_R0 in H. lra.
Qed.

(** The elimination with row t: what it costs the diagonal is at least what it adds outside. *)
Lemma row_step t : (t < i)%nat -> exists x, 0 <= x /\
  Sm (S t) <= (Sm t - x) / q /\ q * (D t - x) <= D (S t) /\ D (S t) <= (D t + x) / q /\
  Rabs (w t t) * d t <= Sm t.
Proof.
  intros Ht. exists (Rabs (f i t) / q * (Rabs (f t i) * d i)).
  pose proof (Pd i Hi) as Pi. pose proof (Pd t ltac:(lia)) as Pt.
  set (l := Rabs (f i t)). assert (Pl : 0 <= l) by apply Rabs_pos.
  assert (Iq : 0 < / q) by (apply Rinv_0_lt_compat; lra).
  assert (Plq : 0 <= l / q) by (unfold Rdiv; nra).
  set (sel := fun j => if Nat.eqb j t then Rabs (w t t) * d t else 0).
  set (fi := fun j => if Nat.eqb j i then Rabs (f t i) * d i else 0).
  assert (E1 : rsum n sel = Rabs (w t t) * d t).
  { rewrite (bsum_single n sel t); [unfold sel; now rewrite Nat.eqb_refl|lia|]. intros j _ Nj. unfold sel. destruct (Nat.eqb_spec j t); [contradiction|reflexivity]. }
  assert (E2 : rsum n fi = Rabs (f t i) * d i).
  { rewrite (bsum_single n fi i); [unfold fi; now rewrite Nat.eqb_refl|lia|]. intros j _ Nj. unfold fi. destruct (Nat.eqb_spec j i); [contradiction|reflexivity]. }
  split. { apply Rmult_le_pos; [exact Plq|]. apply Rmult_le_pos; [apply Rabs_pos|lra]. }
  split; [|split; [|split]].
  - assert (Bd : q * Sm (S t) <= rsum n (fun j => (off t j - sel j) + l / q * ((if Nat.ltb t j then Rabs (f t j) * d j else 0) - fi j))).
    { unfold Sm. rewrite <- rs_scal. apply bsum_le. intros j Hj. unfold off, sel, fi. pose proof (Pd j Hj) as Pj.
      destruct (Nat.eqb_spec j i) as [->|Nji].
      - rewrite !Bool.orb_true_r. destruct (Nat.eqb_spec i t); [lia|]. destruct (Nat.ltb_spec t i); [|lia]. lra.
      - rewrite !Bool.orb_false_r. destruct (Nat.ltb_spec j (S t)) as [L1|L1].
        + destruct (Nat.ltb_spec t j); [lia|]. destruct (Nat.eqb_spec j t) as [->|Nt].
          * destruct (Nat.ltb_spec t t); [lia|]. lra.
          * destruct (Nat.ltb_spec j t); [|lia]. lra.
        + destruct (Nat.ltb_spec j t); [lia|]. destruct (Nat.eqb_spec j t); [lia|]. destruct (Nat.ltb_spec t j); [|lia].
          assert (P1 : 0 <= Rabs (w t j) * d j) by (apply Rmult_le_pos; [apply Rabs_pos|lra]).
          assert (P2 : 0 <= l / q * (Rabs (f t j) * d j)) by (apply Rmult_le_pos; [exact Plq|apply Rmult_le_pos; [apply Rabs_pos|lra]]).
          destruct (Req_EM_T (a j) 0) as [Z|Na].
          * rewrite (Wz (S t) j Hj Z), Rabs_R0. lra.
          * pose proof (Wup t j Ht Hj Na) as H2. fold l in H2. apply (Rmult_le_compat_l q) in H2; [|lra].
            replace (q * ((Rabs (w t j) + l * Rabs (f t j) / q) / q)) with (Rabs (w t j) + l / q * Rabs (f t j)) in H2 by (field; lra).
            apply (Rmult_le_compat_r (d j)) in H2; lra. }
    rewrite rs_add, rs_sub, rs_scal, rs_sub, E1, E2 in Bd. change (fun j => off t j) with (off t) in Bd. fold (Sm t) in Bd.
    assert (Pay : l / q * rsum n (fun j => if Nat.ltb t j then Rabs (f t j) * d j else 0) <= Rabs (w t t) * d t).
    { eapply Rle_trans; [apply Rmult_le_compat_l; [exact Plq|apply (Ud t Ht)]|].
      replace (l / q * (q ^ 2 * (Rabs (f t t) * d t))) with (q * (l * Rabs (f t t)) * d t) by (field; lra).
      apply Rmult_le_compat_r; [lra|]. pose proof (Wl t Ht) as H2. fold l in H2. apply (Rmult_le_compat_l q) in H2; [|lra].
      replace (q * (Rabs (w t t) / q)) with (Rabs (w t t)) in H2 by (field; lra). exact H2. }
    apply Rmult_le_reg_l with q; [lra|]. replace (q * ((Sm t - l / q * (Rabs (f t i) * d i)) / q)) with (Sm t - l / q * (Rabs (f t i) * d i)) by (field; lra). lra.
  - pose proof (Wlo t i Ht Hi diag_nz) as H2. fold l in H2. unfold D. apply (Rmult_le_compat_r (d i)) in H2; [|lra].
    replace (q * (Rabs (w t i) * d i - l / q * (Rabs (f t i) * d i))) with (q * (Rabs (w t i) - l * Rabs (f t i) / q) * d i) by (field; lra). exact H2.
  - pose proof (Wup t i Ht Hi diag_nz) as H2. fold l in H2. unfold D. apply (Rmult_le_compat_r (d i)) in H2; [|lra].
    replace ((Rabs (w t i) * d i + l / q * (Rabs (f t i) * d i)) / q) with ((Rabs (w t i) + l * Rabs (f t i) / q) / q * d i) by (field; lra). exact H2.
  - unfold Sm. rewrite <- E1. apply bsum_le. intros j Hj. unfold sel. destruct (Nat.eqb_spec j t) as [->|N]; [|now apply off_nonneg].
    unfold off. rewrite Nat.ltb_irrefl. destruct (Nat.eqb_spec t i); [lia|]. cbn [orb]. lra.
Qed.

Lemma row_gap t : (t <= i)%nat -> Sm t < q ^ (2 * (n - t)) * D t /\ (Sm t + D t) * q ^ t <= Sm 0 + D 0.
Proof.
  induction t as [|t IH]; intros Ht.
  - rewrite Nat.sub_0_r, S0, D0. cbn [pow]. split; [exact Dom|]. lra.
  - destruct (IH ltac:(lia)) as [G E]. clear IH. destruct (row_step t ltac:(lia)) as (x & Px & A1 & A2 & A3 & _).
    replace (2 * (n - t))%nat with (2 + 2 * (n - S t))%nat in G by lia. rewrite pow_add in G.
    set (r := q ^ (2 * (n - S t))) in *. assert (Pr : 0 < r) by apply (pow_q_pos q Hq). assert (r <= 1) by apply (pow_q_le1 q Hq).
    assert (P2 : q ^ 2 <= 1) by apply (pow_q_le1 q Hq). assert (P2' : 0 < q ^ 2) by apply (pow_q_pos q Hq).
    assert (A1' : q * Sm (S t) <= Sm t - x).
    { apply (Rmult_le_compat_l q) in A1; [|lra]. replace (q * ((Sm t - x) / q)) with (Sm t - x) in A1 by (field; lra). exact A1. }
    assert (A3' : q * D (S t) <= D t + x).
    { apply (Rmult_le_compat_l q) in A3; [|lra]. replace (q * ((D t + x) / q)) with (D t + x) in A3 by (field; lra). exact A3. }
    split.
    + assert (K1 : Sm t - x < q ^ 2 * r * (D t - x)).
      { assert (q ^ 2 * r * x <= 1 * x) by (apply Rmult_le_compat_r; [lra|]; nra). lra. }
      assert (K2 : q ^ 2 * r * (D t - x) <= q * r * D (S t)).
      { replace (q ^ 2 * r * (D t - x)) with (q * r * (q * (D t - x))) by ring. apply Rmult_le_compat_l; [nra|exact A2]. }
      apply Rmult_lt_reg_l with q; [lra|]. replace (q * (r * D (S t))) with (q * r * D (S t)) by ring. lra.
    + cbn [pow]. replace ((Sm (S t) + D (S t)) * (q * q ^ t)) with ((q * Sm (S t) + q * D (S t)) * q ^ t) by ring.
      eapply Rle_trans; [|exact E]. apply Rmult_le_compat_r; [pose proof (pow_q_pos q Hq t); lra|lra].
Qed.

(** The entries eliminated and the final diagonal stay below the size of the given row. *)
Lemma row_sizes t : (t <= i)%nat -> Sm t * q ^ t <= D 0 /\ D t * q ^ t <= 2 * D 0.
Proof.
  intros Ht. destruct (row_gap t Ht) as [G E]. destruct (row_gap 0 ltac:(lia)) as [G0 _].
  assert (P0 : 0 <= D 0) by (unfold D; apply Rmult_le_pos; [apply Rabs_pos|pose proof (Pd i Hi); lra]).
  assert (Pt : 0 <= D t) by (unfold D; apply Rmult_le_pos; [apply Rabs_pos|pose proof (Pd i Hi); lra]).
  pose proof (pow_q_le1 q Hq (2 * (n - t))). pose proof (pow_q_le1 q Hq (2 * (n - 0))). pose proof (Sm_nonneg t) as St. pose proof (pow_q_pos q Hq t) as Pq.
  assert (L0 : Sm 0 <= D 0) by nra. assert (Lt : Sm t <= D t) by nra. split; nra.
Qed.
Lemma row_eliminated t : (t < i)%nat -> Rabs (w t t) * d t * q ^ t <= Rabs (a i) * d i.
Proof.
  intros Ht. rewrite <- D0. destruct (row_step t Ht) as (_ & _ & _ & _ & _ & H). destruct (row_sizes t ltac:(lia)) as [H2 _].
  pose proof (pow_q_pos q Hq t). nra.
Qed.
Lemma row_final : rsum n (fun j => if Nat.ltb i j then Rabs (w i j) * d j else 0) < q ^ (2 * (n - i)) * (Rabs (w i i) * d i) /\
  Rabs (w i i) * d i * q ^ i <= 2 * (Rabs (a i) * d i).
Proof.
  rewrite <- D0. split; [|apply row_sizes; lia]. destruct (row_gap i ltac:(lia)) as [G _]. fold (D i).
  eapply Rle_lt_trans; [|exact G]. apply bsum_le. intros j Hj. unfold off. pose proof (Pd j Hj).
  destruct (Nat.ltb_spec i j) as [L|L].
  - destruct (Nat.ltb_spec j i); [lia|]. destruct (Nat.eqb_spec j i); [lia|]. cbn [orb]. lra.
  - apply (off_nonneg i j Hj).
Qed.
End Row.

(** ** The recurrences of the code *)
Section Code.
Context {O : Ops R} {u : R} {AX : Approx O u}.
Lemma Hu : 0 <= u < 1.
Proof. exact u_range. Qed.
Variables (n m : nat) (d : nat -> R) (a f : nat -> nat -> R).
Hypothesis Pd : forall j, (j < n)%nat -> 0 < d j.
Hypothesis Hm : (m <= n)%nat.
(** Columns from m on are empty. *)
Hypothesis Out : forall i j, (i < n)%nat -> (m <= j)%nat -> (j < n)%nat -> a i j = 0 /\ f i j = 0.

Definition row_dominant i : Prop := rsum n (fun j => if Nat.eqb j i then 0 else Rabs (a i j) * d j) < (1 - u) ^ (2 * n) * (Rabs (a i i) * d i).
Definition urow_dominant i : Prop := rsum n (fun j => if Nat.ltb i j then Rabs (f i j) * d j else 0) < (1 - u) ^ 2 * (Rabs (f i i) * d i).

Definition wrow i t j : R := if Req_EM_T (a i j) 0 then 0 else ssub t (a i j) (fun k => mul (f i k) (f k j)).

Lemma near1 t : near u 1 t -> 1 - u <= t /\ t <= / (1 - u) /\ 0 < t.
Proof. pose proof Hu. intros [A B]. rewrite pow_1 in *. repeat split; lra. Qed.
Lemma nzb_F x : x = 0 -> nzb x = false.
Proof. intros E. pose proof (nzb_A (u := u) x) as N. destruct (nzb x); auto. exfalso. now apply N. Qed.

Lemma wrow_step i t j : a i j <> 0 -> exists s, near u 1 s /\ exists r, near u 1 r /\ wrow i (S t) j = (wrow i t j - f i t * f t j * s) * r.
Proof.
  intros N. unfold wrow. destruct (Req_EM_T (a i j) 0); [contradiction|]. cbn [ssub].
  destruct (mul_near (u := u) (f i t) (f t j)) as (s & Ns & Es). exists s. split; [exact Ns|].
  rewrite Es. destruct (sub_near (u := u) (ssub t (a i j) (fun k => mul (f i k) (f k j))) (f i t * f t j * s)) as (r & Nr & Er).
  exists r. split; [exact Nr|exact Er].
Qed.
Lemma wrow_up i t j : a i j <> 0 -> Rabs (wrow i (S t) j) <= (Rabs (wrow i t j) + Rabs (f i t) * Rabs (f t j) / (1 - u)) / (1 - u).
Proof.
  pose proof Hu as Hu'.
  intros N. destruct (wrow_step i t j N) as (s & Ns & r & Nr & E). apply near1 in Ns, Nr.
  assert (Iq : 0 < / (1 - u)) by (apply Rinv_0_lt_compat; lra).
  rewrite E, Rabs_mult, (Rabs_pos_eq r) by lra. pose proof (Rabs_pos (wrow i t j)) as P1. pose proof (Rabs_pos (f i t)) as P2. pose proof (Rabs_pos (f t j)) as P3.
  unfold Rdiv. apply Rmult_le_compat; [apply Rabs_pos|lra| |lra].
  apply Rle_trans with (Rabs (wrow i t j) + Rabs (- (f i t * f t j * s))); [exact (Rabs_triang _ _)|]. apply Rplus_le_compat_l. rewrite Rabs_Ropp, !Rabs_mult, (Rabs_pos_eq s) by lra.
  apply Rmult_le_compat_l; [nra|lra].
Qed.
Lemma wrow_lo i t j : a i j <> 0 -> (1 - u) * (Rabs (wrow i t j) - Rabs (f i t) * Rabs (f t j) / (1 - u)) <= Rabs (wrow i (S t) j).
Proof.
  pose proof Hu as Hu'.
  intros N. destruct (wrow_step i t j N) as (s & Ns & r & Nr & E). apply near1 in Ns, Nr.
  rewrite E, Rabs_mult, (Rabs_pos_eq r) by lra. pose proof (Rabs_pos (wrow i t j)) as P1. pose proof (Rabs_pos (f i t)) as P2. pose proof (Rabs_pos (f t j)) as P3.
  assert (T : Rabs (wrow i t j) - Rabs (f i t) * Rabs (f t j) / (1 - u) <= Rabs (wrow i t j - f i t * f t j * s)).
  { eapply Rle_trans; [|apply Rabs_triang_inv]. rewrite !Rabs_mult, (Rabs_pos_eq s) by lra.
    assert (Rabs (f i t) * Rabs (f t j) * s <= Rabs (f i t) * Rabs (f t j) * / (1 - u)) by (apply Rmult_le_compat_l; [nra|lra]). unfold Rdiv. lra. }
  pose proof (Rabs_pos (wrow i t j - f i t * f t j * s)) as P4.
  eapply Rle_trans; [apply Rmult_le_compat_l; [lra|exact T]|]. rewrite Rmult_comm. apply Rmult_le_compat_l; lra.
Qed.
Lemma wrow_low i t : (t < i)%nat -> lrec a f i t -> Rabs (f i t) * Rabs (f t t) <= Rabs (wrow i t t) / (1 - u).
Proof.
  pose proof Hu as Hu'.
  intros Ht L. unfold lrec in L. destruct (Req_EM_T (a i t) 0) as [Z|N].
  - rewrite (nzb_F _ Z) in L. rewrite L, Z. unfold wrow. destruct (Req_EM_T (a i t) 0); [|contradiction]. rewrite Rabs_R0. lra.
  - pose proof (proj2 (nzb_A (u := u) (a i t)) N) as B. rewrite B in L. destruct L as [Hd E]. apply (nzb_A (u := u)) in Hd.
    unfold wrow. destruct (Req_EM_T (a i t) 0); [contradiction|]. set (x := ssub _ _ _) in *.
    destruct (div_near (u := u) x (f t t) Hd) as (s & Ns & Es). apply near1 in Ns. rewrite E, Es.
    replace (x / f t t * s) with (x * s * / f t t) by (unfold Rdiv; ring).
    rewrite <- Rabs_mult. replace (x * s * / f t t * f t t) with (x * s) by (field; auto).
    rewrite Rabs_mult, (Rabs_pos_eq s) by lra. unfold Rdiv. apply Rmult_le_compat_l; [apply Rabs_pos|lra].
Qed.
Lemma wrow_final i j : (i < n)%nat -> (i <= j)%nat -> (j < n)%nat -> (forall j, (i <= j)%nat -> (j < m)%nat -> urec a f i j) -> wrow i i j = f i j.
Proof.
  intros Hi Hij Hj U. unfold wrow. destruct (Nat.lt_ge_cases j m) as [L|L].
  - specialize (U j Hij L). unfold urec in U. destruct (Req_EM_T (a i j) 0) as [Z|N].
    + rewrite (nzb_F _ Z) in U. now rewrite U.
    + pose proof (proj2 (nzb_A (u := u) (a i j)) N) as B. rewrite B in U. now rewrite U.
  - destruct (Out i j Hi L Hj) as [-> ->]. destruct (Req_EM_T 0 0); [reflexivity|contradiction].
Qed.

Lemma q_range : 0 < 1 - u <= 1.
Proof. pose proof Hu. lra. Qed.

(** A row with dominant rows above it. *)
Lemma row_facts i : (i < n)%nat -> ilurow m a f i -> row_dominant i -> (forall t, (t < i)%nat -> urow_dominant t) ->
  urow_dominant i /\ Rabs (f i i) * d i * (1 - u) ^ i <= 2 * (Rabs (a i i) * d i) /\
  forall t, (t < i)%nat -> Rabs (f i t) * (Rabs (f t t) * d t) * (1 - u) ^ S t <= Rabs (a i i) * d i.
Proof.
  pose proof Hu as Hu'.
  intros Hi [L U] SD Hq.
  assert (W0 : forall j, (j < n)%nat -> wrow i 0 j = a i j).
  { intros j _. unfold wrow. destruct (Req_EM_T (a i j) 0) as [->|_]; reflexivity. }
  assert (Wz : forall t j, (j < n)%nat -> a i j = 0 -> wrow i t j = 0).
  { intros t j _ Z. unfold wrow. destruct (Req_EM_T (a i j) 0); [reflexivity|contradiction]. }
  assert (Wup : forall t j, (t < i)%nat -> (j < n)%nat -> a i j <> 0 -> Rabs (wrow i (S t) j) <= (Rabs (wrow i t j) + Rabs (f i t) * Rabs (f t j) / (1 - u)) / (1 - u)).
  { intros. now apply wrow_up. }
  assert (Wlo : forall t j, (t < i)%nat -> (j < n)%nat -> a i j <> 0 -> (1 - u) * (Rabs (wrow i t j) - Rabs (f i t) * Rabs (f t j) / (1 - u)) <= Rabs (wrow i (S t) j)).
  { intros. now apply wrow_lo. }
  assert (Wl : forall t, (t < i)%nat -> Rabs (f i t) * Rabs (f t t) <= Rabs (wrow i t t) / (1 - u)).
  { intros t Ht. apply wrow_low; auto. }
  assert (Ud : forall t, (t < i)%nat -> rsum n (fun j => if Nat.ltb t j then Rabs (f t j) * d j else 0) <= (1 - u) ^ 2 * (Rabs (f t t) * d t)).
  { intros t Ht. apply Rlt_le. now apply Hq. }
  pose proof (row_final n i (1 - u) d (a i) f (wrow i) q_range Hi Pd W0 Wz Wup Wlo Wl Ud SD) as [F1 F2].
  pose proof (fun t Ht => row_eliminated n i (1 - u) d (a i) f (wrow i) q_range Hi Pd W0 Wz Wup Wlo Wl Ud SD t Ht) as F3.
  rewrite (wrow_final i i Hi) in F1, F2 by auto. split; [|split; [exact F2|]].
  - unfold urow_dominant. eapply Rle_lt_trans with (rsum n (fun j => if Nat.ltb i j then Rabs (wrow i i j) * d j else 0)).
    { right. apply bsum_ext. intros j Hj. destruct (Nat.ltb_spec i j); [|reflexivity]. rewrite wrow_final by (auto; lia). reflexivity. }
    eapply Rlt_le_trans; [exact F1|]. apply Rmult_le_compat_r; [apply Rmult_le_pos; [apply Rabs_pos|pose proof (Pd i Hi); lra]|].
    apply (pow_q_mono (1 - u) q_range). lia.
  - intros t Ht. eapply Rle_trans; [|apply (F3 t Ht)]. pose proof (Wl t Ht) as H. pose proof (Pd t ltac:(lia)) as Pt.
    pose proof (pow_q_pos (1 - u) q_range t) as Pq. cbn [pow].
    apply (Rmult_le_compat_r (1 - u)) in H; [|lra]. replace (Rabs (wrow i t t) / (1 - u) * (1 - u)) with (Rabs (wrow i t t)) in H by (field; lra).
    replace (Rabs (f i t) * (Rabs (f t t) * d t) * ((1 - u) * (1 - u) ^ t)) with (Rabs (f i t) * Rabs (f t t) * (1 - u) * (d t * (1 - u) ^ t)) by ring.
    rewrite (Rmult_assoc (Rabs (wrow i t t))). apply Rmult_le_compat_r; [|exact H]. apply Rmult_le_pos; lra.
Qed.

Lemma urows k : (k <= n)%nat -> (forall i, (i < k)%nat -> ilurow m a f i) -> (forall i, (i < n)%nat -> row_dominant i) ->
  forall i, (i < k)%nat -> urow_dominant i.
Proof.
  intros Hk D SD i. induction i as [i IH] using lt_wf_ind. intros Hi. apply row_facts; auto; [lia|apply SD; lia|]. intros t Ht. apply IH; lia.
Qed.
Lemma urow_pivot i : (i < n)%nat -> urow_dominant i -> f i i <> 0.
Proof.
  unfold urow_dominant. intros Hi H E. rewrite E, Rabs_R0 in H.
  assert (0 <= rsum n (fun j => if Nat.ltb i j then Rabs (f i j) * d j else 0)); [|lra].
  apply bsum_nonneg. intros j Hj. destruct (Nat.ltb i j); [|lra]. apply Rmult_le_pos; [apply Rabs_pos|]. specialize (Pd j Hj). lra.
Qed.
(** The decomposition of a dominant matrix does not stop. *)
Lemma dominant_no_stop : (forall i, (i < n)%nat -> row_dominant i) -> ilu_stop n m a f -> False.
Proof.
  intros SD (i & j & Hj & Hi & D & _ & _ & Z).
  assert (N : f j j <> 0) by (apply urow_pivot; [lia|]; apply (urows i); auto; lia).
  apply (nzb_A (u := u)) in N. congruence.
Qed.

(** |L||U| has weighted row sums of at most 2(n+1)/(1-u)^n times the diagonal of A. *)
Lemma lu_growth i : (i < n)%nat -> ilu_done n m a f -> (forall i, (i < n)%nat -> row_dominant i) ->
  rsum n (fun j => mprod n (mabs (ulof f)) (mabs (upf f)) i j * d j) <= 2 * (INR n + 1) / (1 - u) ^ n * (Rabs (a i i) * d i).
Proof.
  pose proof Hu as Hu'.
  intros Hi D SD.
  pose proof (urows n (le_n n) D SD) as U.
  destruct (row_facts i Hi (D i Hi) (SD i Hi) ltac:(intros; apply U; lia)) as (_ & F2 & F3).
  set (A0 := Rabs (a i i) * d i) in *.
  assert (PA : 0 <= A0) by (apply Rmult_le_pos; [apply Rabs_pos|pose proof (Pd i Hi); lra]).
  set (ur := fun k => rsum n (fun j => mabs (upf f) k j * d j)).
  assert (Ur : forall k, (k < n)%nat -> 0 <= ur k <= 2 * (Rabs (f k k) * d k)).
  { intros k Hk. split.
    - apply bsum_nonneg. intros j Hj. apply Rmult_le_pos; [apply Rabs_pos|pose proof (Pd j Hj); lra].
    - pose proof (U k Hk) as H. unfold urow_dominant in H.
      assert (E : ur k = rsum n (fun j => (if Nat.ltb k j then Rabs (f k j) * d j else 0) + (if Nat.eqb j k then Rabs (f k k) * d k else 0))).
      { apply bsum_ext. intros j Hj. unfold mabs, upf. destruct (Nat.eqb_spec j k) as [->|N].
        - rewrite Nat.leb_refl, Nat.ltb_irrefl. ring.
        - destruct (Nat.leb_spec k j); destruct (Nat.ltb_spec k j); try lia; rewrite ?Rabs_R0; ring. }
      rewrite E, rs_add. rewrite (bsum_single n (fun j => if Nat.eqb j k then Rabs (f k k) * d k else 0) k Hk), Nat.eqb_refl.
      2: { intros j _ Nj. destruct (Nat.eqb_spec j k); [contradiction|reflexivity]. }
      pose proof (pow_q_le1 (1 - u) q_range 2). assert (0 <= Rabs (f k k) * d k) by (apply Rmult_le_pos; [apply Rabs_pos|pose proof (Pd k Hk); lra]). nra. }
  assert (E : rsum n (fun j => mprod n (mabs (ulof f)) (mabs (upf f)) i j * d j) = rsum n (fun k => mabs (ulof f) i k * ur k)).
  { unfold ur, mprod. rewrite (bsum_ext n _ (fun j => rsum n (fun k => mabs (ulof f) i k * mabs (upf f) k j * d j))).
    - rewrite (bsum_swap n n). apply bsum_ext. intros k Hk. rewrite <- rs_scal. apply bsum_ext. intros; ring.
    - intros j Hj. symmetry. apply rs_scal_r. }
  rewrite E. clear E.
  pose proof (pow_q_pos (1 - u) q_range n) as Pn.
  assert (Iq : 0 < / (1 - u) ^ n) by (apply Rinv_0_lt_compat; lra).
  assert (Bk : forall k, (k < n)%nat -> mabs (ulof f) i k * ur k <= (if Nat.ltb k i then 2 * (A0 / (1 - u) ^ n) else 0) + (if Nat.eqb k i then 2 * (2 * (A0 / (1 - u) ^ n)) else 0)).
  { intros k Hk. unfold mabs, ulof. pose proof (Ur k Hk) as [U1 U2].
    assert (Div : forall x p, (p <= n)%nat -> 0 <= x -> forall y, x * (1 - u) ^ p <= y -> x <= y / (1 - u) ^ n).
    { intros x p Hp Px y H. apply Rmult_le_reg_r with ((1 - u) ^ n); [lra|]. unfold Rdiv. rewrite Rmult_assoc, Rinv_l by lra. rewrite Rmult_1_r.
      eapply Rle_trans; [|exact H]. apply Rmult_le_compat_l; [exact Px|]. now apply (pow_q_mono (1 - u) q_range). }
    destruct (Nat.ltb_spec k i) as [L|L].
    - destruct (Nat.eqb_spec k i); [lia|]. pose proof (F3 k L) as H. pose proof (Rabs_pos (f i k)) as P1.
      assert (P2 : 0 <= Rabs (f k k) * d k) by (apply Rmult_le_pos; [apply Rabs_pos|pose proof (Pd k Hk); lra]).
      pose proof (Div (Rabs (f i k) * (Rabs (f k k) * d k)) (S k) ltac:(lia) ltac:(nra) A0 H) as B.
      apply (Rmult_le_compat_l (Rabs (f i k))) in U2; [|exact P1]. lra.
    - destruct (Nat.eqb_spec i k) as [->|N].
      + rewrite Nat.eqb_refl, Rabs_R1.
        assert (P2 : 0 <= Rabs (f k k) * d k) by (apply Rmult_le_pos; [apply Rabs_pos|pose proof (Pd k Hk); lra]).
        pose proof (Div (Rabs (f k k) * d k) k ltac:(lia) P2 (2 * A0) F2) as H. unfold Rdiv in *. lra.
      + rewrite Rabs_R0. destruct (Nat.eqb_spec k i); [lia|]. lra. }
  eapply Rle_trans; [apply bsum_le, Bk|]. rewrite rs_add.
  rewrite (bsum_single n (fun k => if Nat.eqb k i then 2 * (2 * (A0 / (1 - u) ^ n)) else 0) i Hi), Nat.eqb_refl.
  2: { intros j _ Nj. destruct (Nat.eqb_spec j i); [contradiction|reflexivity]. }
  set (c := A0 / (1 - u) ^ n). assert (Pc : 0 <= c) by (unfold c, Rdiv; nra).
  assert (B1 : rsum n (fun k => if Nat.ltb k i then 2 * c else 0) <= (INR n - 1) * (2 * c)).
  { clearbody c. replace (INR n - 1) with (INR (n - 1)) by (rewrite minus_INR by lia; cbn; lra).
    clear -Pc Hi.
    destruct n as [|p]; [lia|]. replace (S p - 1)%nat with p by lia. rewrite rs_S. destruct (Nat.ltb_spec p i); [lia|].
    rewrite Rplus_0_r. clear -Pc. induction p as [|p IH]; [cbn; lra|]. rewrite rs_S, S_INR. destruct (Nat.ltb p i); lra. }
  replace (2 * (INR n + 1) / (1 - u) ^ n * A0) with (2 * (INR n + 1) * c) by (unfold c, Rdiv; ring). lra.
Qed.
End Code.
