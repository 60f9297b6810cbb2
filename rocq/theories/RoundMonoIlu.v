(** * C104 for the ILU preconditioner: the second difference of any order in binary64 *)
From Coq Require Import ZArith List Floats Reals Lra Lia.
From Flocq Require Import Core BinarySingleNaN.
From Flocq Require PrimFloat.
From Verif Require Import Base Scalar BaseLemmas Spec ModelVec ProofVec ModelMat SpecMat ModelPacked ProofPacked PropPacked ModelSolvers ProofTdma PropTdma
  ProofChol PropChol PropCholSolve ModelIter PropIlu SpecIeee RoundIeee PropIeee64 PropIeee64b SpecMono PropMono RoundMono SpecComp PropComp RoundComp PropMonoIlu.
Import ListNotations.
Local Open Scope R_scope.
Local Existing Instance FOps.

Definition second_difference (i j : nat) : PrimFloat.float :=
  if Nat.eqb i j then 2%float else if Nat.eqb (S i) j then (-1)%float else if Nat.eqb (S j) i then (-1)%float else 0%float.

Lemma second_difference_ok n : z_tridiagonal_columns fval ffin n second_difference.
Proof.
  destruct v64 as (V1 & Vm1 & _ & _ & V0). pose proof f64_2 as V2. split; [split|].
  - intros i j Hi Hj. unfold second_difference. destruct (Nat.eqb_spec j i) as [->|N].
    + split; [vm_compute; reflexivity|]. intros K. now contradiction K.
    + destruct (Nat.eqb_spec (S j) i); [split; [vm_compute; reflexivity|lra]|].
      destruct (Nat.eqb_spec (S i) j); [split; [vm_compute; reflexivity|lra]|]. split; [vm_compute; reflexivity|lra].
  - intros i Hi. cbv zeta. unfold second_difference. rewrite Nat.eqb_refl, V2.
    assert (E : fval (if (S i =? i)%nat then 2%float else if (S (S i) =? i)%nat then (-1)%float else if (S i =? S i)%nat then (-1)%float else 0%float) = -1).
    { rewrite (proj2 (Nat.eqb_neq (S i) i)), (proj2 (Nat.eqb_neq (S (S i)) i)), Nat.eqb_refl by lia. exact Vm1. }
    rewrite E. assert (D : forall k, fval (if (k =? S k)%nat then 2%float else if (S k =? S k)%nat then (-1)%float else if (S (S k) =? k)%nat then (-1)%float else 0%float) = -1).
    { intros k. rewrite (proj2 (Nat.eqb_neq k (S k))), Nat.eqb_refl by lia. exact Vm1. }
    destruct i as [|k]; [|rewrite D]; destruct (_ <? _)%nat; lra.
  - intros i j Hi Hj B. unfold second_difference. rewrite (proj2 (Nat.eqb_neq i j)), (proj2 (Nat.eqb_neq (S i) j)), (proj2 (Nat.eqb_neq (S j) i)) by lia. exact V0.
Qed.

(** Any order below 2^32, no margin: the column sums are zero. *)
Theorem C104_second_difference : forall n A (h : heap PrimFloat.float), ismat h A n n -> fits_u32 n = true ->
  (forall i j, (i < n)%nat -> (j < n)%nat -> mget h A i j = second_difference i j) ->
  exists F h', ilu_dyn A h = Ok F h' /\ good_factor (val := fval) (fin := ffin) n (mget h' F) /\
  z_matrix (val := fval) n (mget h' F) /\ forall b b', isvec h' b n -> isvec h' b' n ->
    exists x x' h1 h2, ilu_dyn_solve F b h' = Ok x h1 /\ ilu_dyn_solve F b' h' = Ok x' h2 /\
      isvec h1 x n /\ isvec h2 x' n /\ signs_kept (val := fval) (fin := ffin) n (rd h' b) (rd h' b') (rd h1 x) (rd h2 x').
Proof.
  intros n A h HA Hf E. apply (C104_ilu_tridiagonal (RI := float_ranged)); auto.
  destruct (second_difference_ok n) as [[Z1 Z2] Z3]. split; [split|].
  - intros i j Hi Hj. rewrite E by auto. now apply Z1.
  - intros i Hi. specialize (Z2 i Hi). cbv zeta in *. rewrite E by auto. destruct (S i <? n)%nat eqn:L.
    + apply Nat.ltb_lt in L. rewrite E by auto. destruct i; [exact Z2|]. rewrite E by lia. exact Z2.
    + destruct i; [exact Z2|]. rewrite E by lia. exact Z2.
  - intros i j Hi Hj. rewrite E by auto. now apply Z3.
Qed.
Example C104_nonvacuous_second_difference : let A := mkMat 0%nat 3%nat 3%nat in ismat MC A 3 3 /\
  forall i j, (i < 3)%nat -> (j < 3)%nat -> mget MC A i j = second_difference i j.
Proof. intros A. split; [repeat split; cbn; auto; lia|]. intros [|[|[|i]]] [|[|[|j]]] Hi Hj; try lia; vm_compute; reflexivity. Qed.

Print Assumptions C104_ilu_tridiagonal.
Print Assumptions C104_ilu_sparse_tridiagonal.
Print Assumptions C104_second_difference.
