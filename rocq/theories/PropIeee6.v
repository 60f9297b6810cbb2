(** * Property C87: in IEEE arithmetic the Cholesky factorisation of a sufficiently definite matrix succeeds *)
From Coq Require Import ZArith List Floats Reals Lra Lia.
From Flocq Require Import Core.Zaux Core.Raux Core.Defs Core.Float_prop IEEE754.BinarySingleNaN.
From Verif Require Import Base Scalar BaseLemmas Spec Sums RealVec ModelVec ModelMat SpecMat ModelPacked ProofPacked
  PropPacked ProofVec ModelSolvers ProofChol ProofCholSolve ProofCholMath PropChol PropCholSolve PropRepeat
  SpecRound Rounding ProofRound PropRound PropRound2 SpecIeee RoundIeee ProofIeee ProofIeee2 ProofIeee5 PropIeee PropIeee3 PropIeee64 PropIeee64b.
Import ListNotations.
Local Open Scope R_scope.

Section Ieee.
Context {T : Type} (Op : Ops T) (val : T -> R) (fin : T -> Prop) (prd : T -> T -> T -> Prop) (u eta omega : R) (I : Ieee Op val fin prd u eta omega).
Local Notation vv := (vv val).
Local Notation vm := (vm val).
Local Notation vfin := (vfin fin).

(** The matrix (its lower triangle) is finite and positive definite with room for rounding and
    underflow, at most [amax] in size, far enough from overflow, and its diagonal is not too close
    to the underflow threshold. *)
Definition definite_ieee (theta amax : R) (n : nat) (A : nat -> nat -> T) : Prop :=
  let g := gamma u (n + 1) in
  g < 1 /\ 0 <= theta /\ pos_def_room ((g + theta) / (1 - g)) n (symf (vm A)) /\
  (forall i j, (i < n)%nat -> (j <= i)%nat -> fin (A i j) /\ Rabs (vm A i j) <= amax) /\
  (3 * amax + INR n * eta) * (1 + g) <= omega /\
  (forall i j, (i < n)%nat -> (j < n)%nat ->
    (INR n + 2 * sqrt (vm A j j)) * eta * (1 + g) <= theta * (sqrt (vm A i i) * sqrt (vm A j j))).

(** The factor: every entry of the lower triangle is finite, the diagonal is positive, its product
    with its transpose is the matrix up to rounding and underflow, and nothing grows. *)
Definition chol_success (n : nat) (A L : nat -> nat -> T) : Prop :=
  good_diag val fin n L /\ chol_factored val fin u eta n L A /\
  forall i j, (i < n)%nat -> (j < n)%nat -> absLLt n (vm L) i j <= 2 * (sqrt (vm A i i) * sqrt (vm A j j)).

Lemma outcome_ieee m (h h0 : heap T) F n (A : nat -> nat -> T) theta amax : ctor_outcome m h h0 F n A -> msettled prd n n A ->
  definite_ieee theta amax n A -> exists h', m h = Ok F h' /\ factored n A (fac h' F) /\ chol_success n A (fac h' F).
Proof.
  intros (h' & Fr & Out) SA (Hg & T0 & HM & HA & HO & HE). rewrite Nat.add_1_r in *.
  pose proof (never_failed (I := I) n A (fac h' F) theta amax SA Hg T0 HM HA HO HE) as NF.
  destruct Out as [[D Q]|[[D Q]|(c & Hc & D & Q)]]; [|exfalso; eauto|exfalso; eauto].
  exists h'. split; auto. split; auto. assert (P : good_diag val fin n (fac h' F)).
  { intros i Hi. destruct (factored_good (I := I) n A (fac h' F) theta amax SA Hg T0 HM HA HO HE D i Hi) as (F1 & F2 & _). auto. }
  split; auto. split; [now apply (factored_ieee Op val fin prd u eta omega I)|].
  exact (factored_growth (I := I) n A (fac h' F) theta amax SA Hg T0 HM HA HO HE D).
Qed.

Theorem C87_square : forall theta amax n A (h : heap T), ismat h A n n -> fits_u32 n = true ->
  msettled prd n n (mget h A) -> definite_ieee theta amax n (mget h A) ->
  exists F h', dyn_cholesky A h = Ok F h' /\ ext h h' /\ isfac h' F n /\ chol_success n (mget h A) (fac h' F).
Proof.
  intros theta amax n A h HA Hf SA HM. pose proof (dyn_outcome n A h HA Hf) as Out.
  destruct (outcome_ieee _ _ _ _ _ _ _ _ Out SA HM) as (h' & E & _ & P). exists (mkChol n (next h) Square), h'. split; auto.
  destruct Out as (h1 & Fr & Out). destruct (ctor_ext _ _ _ _ _ Fr eq_refl) as [X _].
  split; [|split; [|exact P]].
  - destruct Out as [[D Q]|[[D Q]|(c & Hc & D & Q)]]; rewrite Q in E; try discriminate; injection E as <-; exact X.
  - exact (proj1 (dyn_ctor_ieee Op val fin prd u eta omega I n A h _ h' HA Hf E (proj1 P))).
Qed.
Theorem C87_packed : forall theta amax n H (h : heap T), herm_wf H n -> fits_u32 n = true ->
  msettled prd n n (hmat H) -> definite_ieee theta amax n (hmat H) ->
  exists F h', tri_cholesky H h = Ok F h' /\ ext h h' /\ isfac h' F n /\ chol_success n (hmat H) (fac h' F).
Proof.
  intros theta amax n H h HA Hf SA HM. pose proof (tri_outcome n H h HA Hf) as Out.
  destruct (outcome_ieee _ _ _ _ _ _ _ _ Out SA HM) as (h' & E & _ & P). exists (mkChol n (next h) Triangle), h'. split; auto.
  destruct Out as (h1 & Fr & Out). destruct (ctor_ext _ _ _ _ _ Fr eq_refl) as [X _].
  split; [|split; [|exact P]].
  - destruct Out as [[D Q]|[[D Q]|(c & Hc & D & Q)]]; rewrite Q in E; try discriminate; injection E as <-; exact X.
  - exact (proj1 (tri_ctor_ieee Op val fin prd u eta omega I n H h _ h' HA Hf E (proj1 P))).
Qed.

(** Construct and solve: a finite result solves a system whose matrix is off by at most a bound in
    terms of the diagonal of A. *)
Definition definite_solved n (A : nat -> nat -> T) (L : nat -> nat -> T) (b x : nat -> T) : Prop :=
  vsettled prd n b -> vfin n x -> vfin n b /\ exists A' e,
    (forall i j, (i < n)%nat -> (j < n)%nat -> Rabs (A' i j - symf (vm A) i j) <=
      gamma u (3 * n + 1) * (2 * (sqrt (vm A i i) * sqrt (vm A j j))) + chol_round val n L i j * eta * (1 + gamma u (3 * n + 1))) /\
    (forall i, (i < n)%nat -> Rabs (e i) <= chol_under n (vm L) i * eta * (1 + gamma u (3 * n + 1))) /\
    @solves R ROps n A' (vv x) (fun i => vv b i + e i).
Theorem C87_solve : forall dbg theta amax n A (h : heap T), ismat h A n n -> (Z.of_nat n < 2 ^ 31)%Z ->
  msettled prd n n (mget h A) -> definite_ieee theta amax n (mget h A) ->
  exists F h1, dyn_cholesky A h = Ok F h1 /\ ext h h1 /\
    forall rhs, isvec h rhs n -> vec_outofplace (definite_solved n (mget h A) (fac h1 F)) (chol_solve_vec dbg F) h1 n rhs.
Proof.
  intros dbg theta amax n A h HA Hn SA HM.
  assert (Hf : fits_u32 n = true) by (unfold fits_u32; apply Z.ltb_lt; lia).
  destruct (C87_square theta amax n A h HA Hf SA HM) as (F & h1 & E & X & IF & P & CF & GR). exists F, h1. split; auto.
  split; auto. intros rhs [V1 V2].
  assert (V' : isvec h1 rhs n). { split; [destruct X; lia|]. unfold len. destruct X as [_ X]. now rewrite X. }
  destruct (C80_square Op val fin prd u eta omega I dbg n A h F h1 HA Hn SA E P) as (Q & _). eapply vec_out_mono; [|apply Q; exact V'].
  intros b x CS Sb Fx. destruct (CS Sb Fx) as (Fb & A' & e & W & Be & S). split; auto. exists A', e. split; [|split; auto].
  intros i j Hi Hj. eapply Rle_trans; [apply W; auto|]. apply Rplus_le_compat_r.
  apply Rmult_le_compat_l; [apply (gamma_pos (i_range (Ieee := I)))|]. now apply GR.
Qed.
End Ieee.

Print Assumptions C87_square.
Print Assumptions C87_packed.
Print Assumptions C87_solve.

(** ** A matrix of binary64 numbers that meets the hypotheses: 8 on the diagonal, 0.1 off it *)
Local Existing Instance FOps.
Local Notation flt := Coq.Floats.PrimFloat.float.
Definition ED : heap flt := heap_of [[8; 77; 0x1.999999999999ap-4; 8]; [1; -1]]%float.
Lemma tiny64 : 0 <= u64 <= / 256 /\ 0 <= eta64 <= / 256.
Proof.
  assert (E : / 256 = bpow radix2 (-8)) by reflexivity. unfold u64, eta64. rewrite E.
  repeat split; try apply bpow_ge_0; apply bpow_le; lia.
Qed.
Lemma gamma64_3 : 0 <= gamma u64 3 <= / 64.
Proof.
  destruct tiny64 as [[U1 U2] _]. unfold gamma.
  assert (P : 64 / 65 <= (1 - u64) ^ 3 <= 1).
  { split; [apply Rle_trans with ((255 / 256) ^ 3); [lra|apply pow_incr; lra]|]. rewrite <- (pow1 3). apply pow_incr. lra. }
  assert (I1 : / (1 - u64) ^ 3 <= / (64 / 65)) by (apply Rinv_le_contravar; lra).
  assert (I2 : / 1 <= / (1 - u64) ^ 3) by (apply Rinv_le_contravar; lra).
  replace (/ (64 / 65)) with (65 / 64) in I1 by field. rewrite Rinv_1 in I2. lra.
Qed.
Example C87_nonvacuous : ismat ED (mkMat 0%nat 2%nat 2%nat) 2 2 /\ definite_ieee fval ffin u64 eta64 omega64 (/ 16) 8 2 (mget ED (mkMat 0%nat 2%nat 2%nat)) /\
  exists F h1 r h2, dyn_cholesky (mkMat 0%nat 2%nat 2%nat) ED = Ok F h1 /\ chol_solve_vec true F 1%nat h1 = Ok r h2 /\ all_fin (mem h2 r) = true.
Proof.
  split; [repeat split; cbn; lia|]. split; [|eexists; eexists; eexists; eexists; repeat split; vm_compute; reflexivity].
  destruct small64 as (_ & _ & Ho). destruct tiny64 as [[U1 U2] [E1 E2]]. destruct v64 as (V1 & Vm1 & V8 & Vm8 & V0). pose proof tenth_64 as Vt.
  pose proof gamma64_3 as G. set (t := fval 0x1.999999999999ap-4%float) in *.
  set (A := mget ED (mkMat 0%nat 2%nat 2%nat)).
  assert (A00 : vm fval A 0 0 = 8) by exact V8. assert (A11 : vm fval A 1 1 = 8) by exact V8. assert (A10 : vm fval A 1 0 = t) by reflexivity.
  assert (S8 : 0 <= sqrt 8 <= 3).
  { split; [apply sqrt_pos|]. replace 3 with (sqrt (3 * 3)) by (rewrite sqrt_square; lra). apply sqrt_le_1_alt. lra. }
  assert (SS : sqrt 8 * sqrt 8 = 8) by (apply sqrt_sqrt; lra).
  unfold definite_ieee. change (2 + 1)%nat with 3%nat. set (g := gamma u64 3) in *.
  split; [lra|]. split; [lra|]. split; [|split; [|split]].
  - assert (K : 0 <= (g + / 16) / (1 - g) <= / 8).
    { unfold Rdiv. assert (0 < / (1 - g)) by (apply Rinv_0_lt_compat; lra). split; [apply Rmult_le_pos; lra|].
      apply Rmult_le_reg_r with (1 - g); [lra|]. rewrite Rmult_assoc, Rinv_l by lra. lra. }
    set (k := (g + / 16) / (1 - g)) in *. intros x (i & Hi & Nz).
    unfold mvmul. cbn [bsum add mul zero ROps INR]. unfold symf. cbn [Nat.leb]. rewrite A00, A11, A10, Rabs_pos_eq by lra.
    set (a := x 0%nat) in *. set (b := x 1%nat) in *.
    assert (Pab : 0 < a * a + b * b).
    { assert (0 <= a * a) by apply Rle_0_sqr. assert (0 <= b * b) by apply Rle_0_sqr.
      destruct i as [|[|i]]; [| |lia]; [assert (0 < a * a) by now apply Rsqr_pos_lt|assert (0 < b * b) by now apply Rsqr_pos_lt]; lra. }
    assert (T2 : Rabs (t * (2 * (a * b))) <= a * a + b * b).
    { rewrite Rabs_mult. assert (Rabs (2 * (a * b)) <= a * a + b * b).
      { pose proof (Rle_0_sqr (a - b)). pose proof (Rle_0_sqr (a + b)). unfold Rsqr in *. apply Rabs_le. lra. }
      pose proof (Rabs_pos (2 * (a * b))). pose proof (Rabs_pos t).
      apply Rle_trans with (1 * Rabs (2 * (a * b))); [apply Rmult_le_compat_r; auto|lra]. }
    apply abs_between in T2.
    assert (k * (a * a + b * b) <= / 8 * (a * a + b * b)) by (apply Rmult_le_compat_r; lra). lra.
  - intros i j Hi Hj. destruct i as [|[|i]]; [| |lia]; (destruct j as [|[|j]]; [| |lia]); try lia; (split; [vm_compute; reflexivity|]).
    + rewrite A00, Rabs_pos_eq; lra.
    + rewrite A10. lra.
    + rewrite A11, Rabs_pos_eq; lra.
  - cbn [INR]. apply Rle_trans with (26 * (1 + / 64)); [apply Rmult_le_compat; lra|lra].
  - intros i j Hi Hj. assert (AA : forall i, (i < 2)%nat -> vm fval A i i = 8) by (intros [|[|k]] Hk; auto; lia).
    rewrite !AA, SS by auto. cbn [INR]. apply Rle_trans with (8 * / 256 * (1 + / 64)); [|lra].
    apply Rmult_le_compat; try lra; [apply Rmult_le_pos; lra|apply Rmult_le_compat; lra].
Qed.
