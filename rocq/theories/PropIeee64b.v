(** * The cases that show C83 and the following are not vacuous: the code in binary64 *)
From Coq Require Import ZArith List Floats Reals Lra Lia.
From Flocq Require Import Core.Zaux Core.Raux Core.Defs Core.Float_prop IEEE754.BinarySingleNaN.
From Verif Require Import Base Scalar BaseLemmas Spec Sums RealVec ModelVec ModelMat SpecMat ModelPacked ProofPacked ModelSparse
  PropPacked ProofVec ModelSolvers ModelIter ProofTdma PropTdma ProofChol PropChol PropCholSolve PropIlu SpecSparse PropSparse
  SpecRound Rounding SpecIeee RoundIeee ProofIeee ProofIeee2 PropIeee PropIeee2 PropIeee3 PropIeee4 PropIeee5 PropIeee64.
Import ListNotations.
Local Open Scope R_scope.
Local Existing Instance FOps.
Local Notation flt := Coq.Floats.PrimFloat.float.

Lemma small64 : 0 <= u64 <= / 8 /\ 0 <= eta64 <= / 8 /\ 1024 <= omega64.
Proof.
  assert (E : / 8 = bpow radix2 (-3)) by reflexivity. unfold u64, eta64, omega64. rewrite E.
  repeat split; try apply bpow_ge_0; try (apply bpow_le; lia).
  assert (bpow radix2 971 <= bpow radix2 1023) by (apply bpow_le; lia).
  replace (bpow radix2 1024) with (2 * bpow radix2 1023) by (change 2 with (bpow radix2 1); rewrite <- bpow_plus; reflexivity).
  assert (bpow radix2 10 <= bpow radix2 1023) by (apply bpow_le; lia). change (bpow radix2 10) with 1024 in *. lra.
Qed.

(** ** C83 *)
Definition ET : tri flt := mkTri [-1; 1]%float [8; 8; -8]%float [1; -1]%float.
Definition ETH : heap flt := heap_of [[1; 0x1.999999999999ap-4; -1]; [0; 0; 0]]%float.

Lemma v64 : fval 1%float = 1 /\ fval (-1)%float = -1 /\ fval 8%float = 8 /\ fval (-8)%float = -8 /\ fval 0%float = 0.
Proof.
  assert (V1 : fval 1%float = 1) by apply (i_one (Ieee := float_ieee)).
  assert (V8 : fval 8%float = 8).
  { rewrite (fval_pos 8%float 4503599627370496 (-49)) by reflexivity. replace (IZR 4503599627370496) with (bpow radix2 52) by reflexivity.
    rewrite <- bpow_plus. reflexivity. }
  split; [exact V1|]. split; [|split; [exact V8|split]].
  - change (-1)%float with (opp 1%float). destruct (i_opp (Ieee := float_ieee) 1%float) as [_ ->]. lra.
  - change (-8)%float with (opp 8%float). destruct (i_opp (Ieee := float_ieee) 8%float) as [_ ->]. lra.
  - apply (i_zero (Ieee := float_ieee)).
Qed.
Lemma tenth_64 : Rabs (fval 0x1.999999999999ap-4%float) <= 1.
Proof.
  destruct v64 as (V1 & _ & _ & _ & V0).
  assert (fval 0x1.999999999999ap-4%float < 1) by (rewrite <- V1; apply (i_ltb (Ieee := float_ieee)); vm_compute; reflexivity).
  assert (0 < fval 0x1.999999999999ap-4%float) by (rewrite <- V0; apply (i_ltb (Ieee := float_ieee)); vm_compute; reflexivity).
  rewrite Rabs_pos_eq; lra.
Qed.
Example C83_nonvacuous : tri_wf flt ET 3 /\ dominant_ieee fval ffin u64 eta64 omega64 3 (tmat ET) /\ isvec ETH 0%nat 3 /\
  vfin ffin 3 (rd ETH 0%nat) /\ tri_bound u64 eta64 omega64 3 (vm fval (tmat ET)) (vv fval (rd ETH 0%nat)) 4 /\
  exists h', tridiag_solve_vec true ET 0%nat 1%nat ETH = Ok 1%nat h' /\ all_fin (mem h' 1%nat) = true.
Proof.
  destruct small64 as (Hu & He & Ho). destruct v64 as (V1 & Vm1 & V8 & Vm8 & V0). pose proof tenth_64 as Vt.
  assert (RM : forall i, (i < 3)%nat -> Rabs (vm fval (tmat ET) i i) = 8 /\ 3 <= row_margin u64 eta64 3 (vm fval (tmat ET)) i).
  { assert (A1 : Rabs (-1) = 1) by (rewrite Rabs_left; lra). assert (A8 : Rabs (-8) = 8) by (rewrite Rabs_left; lra).
    assert (B1 : Rabs 1 = 1) by (apply Rabs_pos_eq; lra). assert (B8 : Rabs 8 = 8) by (apply Rabs_pos_eq; lra).
    assert (K : forall o, o <= 2 -> 0 <= o -> 3 <= (1 - eta64) * (1 - u64) * 8 - (1 + u64) ^ 3 * o - eta64).
    { intros o Ho2 Ho0. assert (49 / 64 <= (1 - eta64) * (1 - u64)) by nra. assert (U3 : (1 + u64) ^ 3 <= 729 / 512).
      { replace (729 / 512) with ((9 / 8) ^ 3) by field. apply pow_incr. lra. }
      assert ((1 + u64) ^ 3 * o <= 729 / 512 * 2) by (apply Rmult_le_compat; auto; apply pow_le; lra). lra. }
    intros i Hi. unfold row_margin, off_sum, vm. destruct i as [|[|[|i]]]; try lia; cbn [bsum Nat.eqb add zero ROps];
      repeat match goal with |- context [tmat ET ?a ?b] => let v := eval vm_compute in (tmat ET a b) in change (tmat ET a b) with v end;
      rewrite ?V1, ?Vm1, ?V8, ?Vm8, ?V0, ?A1, ?A8, ?B1, ?B8, ?Rabs_R0; (split; [reflexivity|apply K; lra]). }
  assert (U2 : 1 <= (1 + u64) ^ 2 <= 2) by (split; [apply pow_R1_Rle; lra|apply Rle_trans with ((9 / 8) ^ 2); [apply pow_incr; lra|lra]]).
  split; [repeat split|]. split; [split|split; [split; cbn; auto; lia|split; [|split; [|eexists; split; vm_compute; reflexivity]]]].
  - intros [|[|[|i]]] [|[|[|j]]] Hi Hj; try lia; vm_compute; reflexivity.
  - intros i Hi. destruct (RM i Hi) as [R1 R2]. unfold row_room. rewrite R1. split; [lra|].
    apply Rle_trans with (2 * (2 * 8 + / 8)); [apply Rmult_le_compat; lra|lra].
  - intros [|[|[|i]]] Hi; try lia; vm_compute; reflexivity.
  - split.
    + intros i Hi. destruct (RM i Hi) as [R1 R2]. unfold row_room. rewrite R1.
      assert (Bb : Rabs (vv fval (rd ETH 0%nat) i) <= 1).
      { unfold vv. destruct i as [|[|[|i]]]; try lia.
        - change (rd ETH 0%nat 0%nat) with 1%float. rewrite V1, Rabs_pos_eq; lra.
        - exact Vt.
        - change (rd ETH 0%nat 2%nat) with (-1)%float. rewrite Vm1, Rabs_left; lra. }
      pose proof (Rabs_pos (vv fval (rd ETH 0%nat) i)). split.
      * apply Rle_trans with (2 * (1 + / 8 * (1 + 2 * 8 + / 8))); [apply Rmult_le_compat; try lra|lra].
        -- apply Rplus_le_le_0_compat; auto. apply Rmult_le_pos; lra.
        -- apply Rplus_le_compat; auto. apply Rmult_le_compat; lra.
      * apply Rle_trans with (4 * (2 * (2 * 8 + / 8))); [apply Rmult_le_compat_l; [lra|]; apply Rmult_le_compat; lra|lra].
    + assert ((1 + u64) ^ (2 * 3) <= 3).
      { apply Rle_trans with ((9 / 8) ^ 6); [apply pow_incr; lra|lra]. }
      assert (0 <= (1 + u64) ^ (2 * 3)) by (apply pow_le; lra). cbn [INR].
      apply Rle_trans with (3 * (4 + 3 * / 8)); [apply Rmult_le_compat; lra|lra].
Qed.

(** C84: an indefinite matrix; the pivots are 1, -3 and 10/3 rounded. *)
Definition EI : heap flt := heap_of [[1; 2; 0; 2; 1; 1; 0; 1; 3]; [1; 0x1.999999999999ap-4; -1]]%float.
Example C84_nonvacuous : ismat EI (mkMat 0%nat 3%nat 3%nat) 3 3 /\ isvec EI 1%nat 3 /\
  exists F h1 r h2, mod_cholesky (mkMat 0%nat 3%nat 3%nat) EI = Ok F h1 /\ (forall i, (i < 3)%nat -> ffin (fac h1 F i i)) /\
    mod_solve_vec true F 1%nat h1 = Ok r h2 /\ all_fin (mem h2 r) = true.
Proof.
  split; [repeat split; cbn; lia|]. split; [repeat split; cbn; lia|].
  eexists. eexists. eexists. eexists. split; [vm_compute; reflexivity|]. split.
  - intros [|[|[|i]]] Hi; try lia; vm_compute; reflexivity.
  - split; vm_compute; reflexivity.
Qed.
