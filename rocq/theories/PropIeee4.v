(** * Property C83: the tridiagonal solver in IEEE arithmetic *)
From Coq Require Import Reals Lra Lia.
From Verif Require Import Base Scalar BaseLemmas Spec Sums RealVec ModelVec ModelMat SpecMat ModelPacked ProofPacked ModelSparse
  PropPacked ProofVec ProofVecProp ProofMatOps ProofVecSched ModelSolvers ModelIter ProofTdma ProofTdmaBits PropTdma
  PropVec PropMat PropRepeat SpecRound Rounding ProofRound ProofRound2 PropRound PropRound2 SpecIeee ProofIeee ProofIeee2 ProofIeee3 PropIeee.
Local Open Scope R_scope.

Local Notation solvesR := (@solves R ROps).
Local Notation sumR := (@bsum R ROps).

Section Ieee.
Context {T : Type} (Op : Ops T) (val : T -> R) (fin : T -> Prop) (prd : T -> T -> T -> Prop) (u eta omega : R) (I : Ieee Op val fin prd u eta omega).
Local Notation vv := (vv val).
Local Notation vm := (vm val).
Local Notation vfin := (vfin fin).
Let AX : Approx ROps u := exact_u (I := I).

(** By how much row i is dominated by its diagonal entry, rounding and underflow taken off. *)
Definition off_sum n (A : nat -> nat -> R) (i : nat) : R := sumR n (fun j => if Nat.eqb j i then 0 else Rabs (A i j)).
Definition row_margin n (A : nat -> nat -> R) (i : nat) : R :=
  (1 - eta) * (1 - u) * Rabs (A i i) - (1 + u) ^ 3 * off_sum n A i - eta.
(** A bound on the pivot of row i. *)
Definition row_room (A : nat -> nat -> R) (i : nat) : R := (1 + u) ^ 2 * (2 * Rabs (A i i) + eta).
(** Finite, dominant by rows, and twice the diagonal does not overflow. *)
Definition dominant_ieee n (A : nat -> nat -> T) : Prop :=
  (forall i j, (i < n)%nat -> (j < n)%nat -> fin (A i j)) /\
  forall i, (i < n)%nat -> 0 < row_margin n (vm A) i /\ row_room (vm A) i <= omega.

(** The vector x is the exact solution of a nearby tridiagonal system. *)
Definition tri_solution n (A : nat -> nat -> R) (b x : nat -> R) : Prop :=
  exists A' e, tridiagonal n A' /\
    (forall i j, (i < n)%nat -> (j < n)%nat -> Rabs (A' i j - A i j) <= gamma u 11 * Rabs (A i j) + (2 * Rabs (A i i) + 1) * eta * (1 + gamma u 11)) /\
    (forall i, (i < n)%nat -> Rabs (e i) <= (5 * Rabs (A i i) + 3) * eta * (1 + gamma u 11)) /\
    solvesR n A' x (fun i => b i + e i).
(** A size that the right-hand side allows for the result. *)
Definition tri_bound n (A : nat -> nat -> R) (b : nat -> R) (M : R) : Prop :=
  (forall i, (i < n)%nat -> (1 + u) ^ 2 * (Rabs (b i) + eta * (1 + 2 * Rabs (A i i) + eta)) <= M * row_margin n A i /\ M * row_room A i <= omega) /\
  (1 + u) ^ (2 * n) * (M + INR n * eta) <= omega.

Lemma val_trif (t : tri T) i j : val (tmat t i j) =
  trif (fun k => val (atf (tdl t) k)) (fun k => val (atf (td t) k)) (fun k => val (atf (tdu t) k)) i j.
Proof.
  unfold tmat, band, trif, atf. destruct (Nat.eqb i j); auto. destruct (Nat.eqb j (i + 1)); auto. destruct (Nat.eqb i (j + 1)); auto.
  apply (i_zero (Ieee := I)).
Qed.
Lemma val_diag (t : tri T) i : vm (tmat t) i i = val (atf (td t) i).
Proof. unfold PropIeee.vm. rewrite val_trif. unfold trif. now rewrite Nat.eqb_refl. Qed.
Lemma off_bands (t : tri T) n i : (i < n)%nat ->
  off_sum n (vm (tmat t)) i = lo (val := val) (atf (tdl t)) i + up (val := val) n (atf (tdu t)) i.
Proof.
  intros Hi. unfold off_sum.
  rewrite (rsum_ext n _ (fun j => trif (fun k => Rabs (val (atf (tdl t) k))) (fun _ => 0) (fun k => Rabs (val (atf (tdu t) k))) i j * 1)).
  - destruct i as [|i].
    + rewrite (trif_row0 n _ _ _ (fun _ => 1)) by auto. unfold up. cbn [lo]. destruct n as [|[|n]]; cbn; ring.
    + rewrite (trif_row n _ _ _ (fun _ => 1)) by auto. unfold up. cbn [lo]. destruct (Nat.eqb (S (S i)) n); ring.
  - intros j Hj. unfold PropIeee.vm. rewrite val_trif. unfold trif. rewrite (Nat.eqb_sym i j). destruct (Nat.eqb j i); [ring|].
    destruct (Nat.eqb j (i + 1)); [ring|]. destruct (Nat.eqb i (j + 1)); [ring|]. rewrite Rabs_R0. ring.
Qed.
Section Bands.
Variables (t : tri T) (n : nat).
Hypothesis Sd : vsettled prd n (atf (td t)).
Hypothesis D : dominant_ieee n (tmat t).
Lemma bands_fin : (forall i, (S i < n)%nat -> fin (atf (tdl t) i)) /\ (forall i, (i < n)%nat -> fin (atf (td t) i)) /\
  (forall i, (S i < n)%nat -> fin (atf (tdu t) i)).
Proof.
  destruct D as [F _]. split; [|split]; intros i Hi.
  - specialize (F (S i) i Hi ltac:(lia)). unfold tmat, band in F. destruct (Nat.eqb_spec (S i) i); [lia|].
    destruct (Nat.eqb_spec i (S i + 1)); [lia|]. rewrite Nat.add_1_r, Nat.eqb_refl in F. exact F.
  - specialize (F i i Hi Hi). unfold tmat, band in F. rewrite Nat.eqb_refl in F. exact F.
  - specialize (F i (S i) ltac:(lia) Hi). unfold tmat, band in F. destruct (Nat.eqb_spec i (S i)); [lia|].
    rewrite Nat.add_1_r, Nat.eqb_refl in F. exact F.
Qed.
Lemma bands_margin i : (i < n)%nat -> margin (val := val) (u := u) (eta := eta) n (atf (tdl t)) (atf (td t)) (atf (tdu t)) i = row_margin n (vm (tmat t)) i.
Proof. intros Hi. unfold margin, row_margin. now rewrite off_bands, val_diag. Qed.
Lemma bands_room i : room (val := val) (u := u) (eta := eta) (atf (td t)) i = row_room (vm (tmat t)) i.
Proof. unfold room, row_room. now rewrite val_diag. Qed.

Lemma swept_solution b x : vsettled prd n b -> swept n (atf (tdl t)) (atf (td t)) (atf (tdu t)) b x -> vfin n x ->
  vfin n b /\ tri_solution n (vm (tmat t)) (vv b) (vv x).
Proof.
  intros Sb Sw Fx. destruct bands_fin as (F1 & F2 & F3). destruct D as [_ DM].
  destruct (tri_near n (atf (tdl t)) (atf (td t)) (atf (tdu t)) b x F1 F2 F3 Sd Sb) as (l' & d' & u' & e & B1 & B2 & B3 & B4 & S); auto.
  { intros i Hi. rewrite bands_margin by auto. now apply DM. }
  { intros i Hi. rewrite bands_room. now apply DM. }
  split; [intros i Hi; now apply B4|]. pose proof (g_mono (I := I) 5 11 ltac:(lia)) as G.
  pose proof (i_eta (Ieee := I)) as He. pose proof (i_range (Ieee := I)) as Hu.
  assert (W : forall c, 0 <= c -> c * eta * (1 + gamma u 5) <= c * eta * (1 + gamma u 11)) by (intros c Hc; apply Rmult_le_compat_l; auto; now apply Rmult_le_pos).
  exists (trif l' d' u'), e. split; [|split; [|split; [|exact S]]].
  - intros i j Hi Hj Hd. unfold trif. destruct (Nat.eqb_spec i j); [lia|]. destruct (Nat.eqb_spec j (i + 1)); [lia|].
    destruct (Nat.eqb_spec i (j + 1)); [lia|reflexivity].
  - intros i j Hi Hj. rewrite val_diag. unfold PropIeee.vm. rewrite val_trif. unfold trif.
    assert (U0 : 0 <= 2 * Rabs (val (atf (td t) i)) + 1) by (pose proof (Rabs_pos (val (atf (td t) i))); lra).
    specialize (W _ U0). assert (V0 : 0 <= (2 * Rabs (val (atf (td t) i)) + 1) * eta * (1 + gamma u 11)).
    { repeat apply Rmult_le_pos; auto. pose proof (g1_pos (I := I) 11). lra. }
    destruct (Nat.eqb_spec i j) as [->|N1].
    { eapply Rle_trans; [apply B3; auto|]. apply Rplus_le_compat_l. exact W. }
    destruct (Nat.eqb_spec j (i + 1)) as [->|N2].
    + eapply Rle_trans; [apply B2; lia|]. apply Rplus_le_compat; [|exact W]. apply Rmult_le_compat_r; [apply Rabs_pos|]. apply (gamma_mono Hu). lia.
    + destruct (Nat.eqb_spec i (j + 1)) as [->|N3].
      * eapply Rle_trans; [apply B1; lia|]. rewrite <- (Rplus_0_r (gamma u 2 * _)). apply Rplus_le_compat; [|exact V0].
        apply Rmult_le_compat_r; [apply Rabs_pos|]. apply (gamma_mono Hu). lia.
      * rewrite Rminus_0_r, Rabs_R0, Rmult_0_r. lra.
  - intros i Hi. rewrite val_diag. destruct (B4 i Hi) as [_ B]. eapply Rle_trans; [exact B|]. unfold under_b. apply W.
    pose proof (Rabs_pos (val (atf (td t) i))). lra.
Qed.
Lemma swept_finite b x M : vsettled prd n b -> swept n (atf (tdl t)) (atf (td t)) (atf (tdu t)) b x -> vfin n b -> tri_bound n (vm (tmat t)) (vv b) M ->
  forall i, (i < n)%nat -> fin (x i) /\ Rabs (val (x i)) <= (1 + u) ^ (2 * n) * (M + INR n * eta).
Proof.
  intros Sb Sw Fb [B1 B2]. destruct bands_fin as (F1 & F2 & F3). destruct D as [_ DM].
  apply (results_bound n (atf (tdl t)) (atf (td t)) (atf (tdu t)) b x F1 F2 F3 Sd Sb); auto.
  - intros i Hi. rewrite bands_margin by auto. now apply DM.
  - intros i Hi. rewrite bands_room. now apply DM.
  - intros i Hi. rewrite bands_margin by auto. rewrite <- val_diag. now apply B1.
  - intros i Hi. rewrite bands_room. now apply B1.
Qed.
End Bands.

(** ** C83 *)
(** A finite result is the exact solution of a nearby system, whatever the right-hand side; and the
    result is finite unless the solution comes close to the largest number. *)
Theorem C83_vector : forall dbg (t : tri T) n b rslt (h : heap T),
  (2 <= n)%nat -> fits_i32 n = true -> tri_wf T t n -> dominant_ieee n (tmat t) -> isvec h b n -> (n <= len h rslt)%nat ->
  vsettled prd n (atf (td t)) -> vsettled prd n (rd h b) ->
  exists h', tridiag_solve_vec dbg t b rslt h = Ok rslt h' /\
    (vfin n (rd h' rslt) -> vfin n (rd h b) /\ tri_solution n (vm (tmat t)) (vv (rd h b)) (vv (rd h' rslt))) /\
    (forall M, vfin n (rd h b) -> tri_bound n (vm (tmat t)) (vv (rd h b)) M ->
      vfin n (rd h' rslt) /\ forall i, (i < n)%nat -> Rabs (val (rd h' rslt i)) <= (1 + u) ^ (2 * n) * (M + INR n * eta)).
Proof.
  intros dbg t n b rslt h Hn Hf W D Hb Lr Sd Sb.
  destruct (tridiag_bits dbg t n b rslt h Hn Hf W Hb Lr) as (h' & E & _ & _ & _ & _ & Sw).
  exists h'. split; [exact E|]. split; [now apply swept_solution|].
  intros M Fb HM. pose proof (swept_finite t n Sd D _ _ M Sb Sw Fb HM) as K. split; intros i Hi; now apply K.
Qed.
Theorem C83_columns : forall dbg (t : tri T) n m B X (h : heap T),
  (2 <= n)%nat -> fits_i32 n = true -> fits_u32 m = true -> tri_wf T t n -> dominant_ieee n (tmat t) -> ismat h B n m -> ismat h X n m ->
  vsettled prd n (atf (td t)) -> msettled prd n m (mget h B) ->
  exists h', tridiag_solve_mat dbg t B X h = Ok X h' /\ forall k, (k < m)%nat ->
    (vfin n (fun i => mget h' X i k) ->
      vfin n (fun i => mget h B i k) /\ tri_solution n (vm (tmat t)) (vv (fun i => mget h B i k)) (vv (fun i => mget h' X i k))) /\
    (forall M, vfin n (fun i => mget h B i k) -> tri_bound n (vm (tmat t)) (vv (fun i => mget h B i k)) M ->
      vfin n (fun i => mget h' X i k) /\ forall i, (i < n)%nat -> Rabs (val (mget h' X i k)) <= (1 + u) ^ (2 * n) * (M + INR n * eta)).
Proof.
  intros dbg t n m B X h Hn Hf Hm W D HB HX Sd SB.
  destruct (tridiag_mat_bits dbg t n m B X h Hn Hf Hm W HB HX) as (h' & E & _ & _ & _ & Sw).
  exists h'. split; [exact E|]. intros k Hk. specialize (Sw k Hk).
  assert (Sb : vsettled prd n (fun i => mget h B i k)) by (intros i Hi; now apply SB). split; [now apply swept_solution|].
  intros M Fb HM. pose proof (swept_finite t n Sd D _ _ M Sb Sw Fb HM) as K. split; intros i Hi; now apply K.
Qed.
End Ieee.

Print Assumptions C83_vector.
Print Assumptions C83_columns.
