(** * Property C84: the square-root-free Cholesky factorisation in IEEE arithmetic *)
From Coq Require Import Reals Lra Lia.
From Verif Require Import Base Scalar BaseLemmas Spec Sums RealVec ModelVec ModelMat SpecMat ModelSolvers ModelIter
  ProofVec ProofVecProp ProofMatOps ProofVecSched ProofChol ProofCholSolve ProofCholMath PropVec PropMat PropChol PropCholSolve PropRepeat
  SpecRound Rounding ProofRound ProofRound2 PropRound PropRound2 SpecIeee ProofIeee ProofIeee2 ProofIeee4 PropIeee PropIeee2 PropIeee3.
Local Open Scope R_scope.

Local Notation solvesR := (@solves R ROps).
Local Notation sumR := (@bsum R ROps).
Local Notation lowR := (@lowf R ROps).

Section Ieee.
Context {T : Type} (Op : Ops T) (val : T -> R) (fin : T -> Prop) (prd : T -> T -> T -> Prop) (u eta omega : R) (I : Ieee Op val fin prd u eta omega).
Local Notation vv := (vv val).
Local Notation vm := (vm val).
Local Notation vfin := (vfin fin).
Let AX : Approx ROps u := exact_u (I := I).

(** Multiples of the underflow error: of the product of the factors, of the matrix in a solve, of
    the right-hand side. *)
Definition factor_lost n (L : nat -> nat -> R) : R := sumR n (fun k => 1 + / Rabs (L k k)).
Definition matrix_lost n (L : nat -> nat -> R) (j : nat) : R := factor_lost n L + sumR n (fun k => Rabs (lowR L j k)).
Definition rhs_lost n (L : nat -> nat -> R) (i : nat) : R :=
  INR n + sumR n (fun j => (Rabs (scaled L i j) + eta) * (INR n + Rabs (L j j))).

(** With a finite diagonal the whole factor and the matrix read are finite, the pivots are not zero
    and L D^-1 L^T is the matrix up to rounding and underflow. *)
Definition mod_factored n (L A : nat -> nat -> T) : Prop :=
  (forall i j, (i < n)%nat -> (j <= i)%nat -> fin (L i j) /\ fin (A i j)) /\ (forall i, (i < n)%nat -> val (L i i) <> 0) /\
  forall i j, (i < n)%nat -> (j < n)%nat ->
    Rabs (symf (vm A) i j - LDLt n (vm L) i j) <= gamma u (n + 1) * absLDLt n (vm L) i j + factor_lost n (vm L) * eta * (1 + gamma u (n + 1)).
Definition mod_solved n (L : nat -> nat -> T) (A : nat -> nat -> R) (b x : nat -> T) : Prop :=
  vsettled prd n b -> vfin n x -> vfin n b /\ exists A' e,
    (forall i j, (i < n)%nat -> (j < n)%nat -> Rabs (A' i j - A i j) <=
      gamma u (3 * n + 2) * absLDLt n (vm L) i j + matrix_lost n (vm L) j * eta * (1 + gamma u (3 * n + 2))) /\
    (forall i, (i < n)%nat -> Rabs (e i) <= rhs_lost n (vm L) i * eta * (1 + gamma u (3 * n + 2))) /\
    solvesR n A' (vv x) (fun i => vv b i + e i).

Lemma mod_ctor_ieee n A (h : heap T) F h1 : ismat h A n n -> fits_u32 n = true -> mod_cholesky A h = Ok F h1 ->
  isfac h1 F n /\ mfactored n (mget h A) (fac h1 F).
Proof.
  intros HA Hf E. destruct (mod_outcome T Op n A h HA Hf) as (h' & X & N & U & [(E' & Mf & Is)|(E' & _)]); rewrite E' in E; [|discriminate].
  injection E as <- <-. split; [|exact Mf]. destruct Is as (I1 & I2 & I3 & I4). repeat split; auto.
Qed.
Lemma mfactored_ieee n A L : msettled prd n n A -> mfactored n A L -> (forall i, (i < n)%nat -> fin (L i i)) -> mod_factored n L A.
Proof.
  intros SA HF Hd. assert (Nz : forall i, (i < n)%nat -> val (L i i) <> 0) by (intros i Hi; now apply (mod_fin n A L SA HF Hd i i)).
  split; [|split; [exact Nz|]].
  - intros i j Hi Hj. destruct (mod_fin n A L SA HF Hd i j Hi Hj) as (F1 & F2 & _). auto.
  - rewrite Nat.add_1_r. intros i j Hi Hj. unfold symf. destruct (Nat.leb_spec j i) as [H|H].
    + exact (mod_product_ieee n A L i j SA HF Hd Hi H).
    + pose proof (mod_product_ieee n A L j i SA HF Hd Hj ltac:(lia)) as B.
      unfold mprod, mabs in B. rewrite (dsc_sym_R n _ Rabs j i), (dsc_sym_R n _ (fun x => x) j i) in B; auto using Rabs_R0, Rabs_mult.
Qed.
Lemma lost_nonneg n (L : nat -> nat -> R) : (forall i, (i < n)%nat -> L i i <> 0) -> 0 <= factor_lost n L.
Proof.
  intros Nz. apply bsum_nonneg. intros k Hk. pose proof (Rinv_0_lt_compat _ (Rabs_pos_lt _ (Nz k Hk))). lra.
Qed.
Lemma mod_solve_ieee n A L b x : msettled prd n n A -> mfactored n A L -> (forall i, (i < n)%nat -> fin (L i i)) -> usubstituted n L b x ->
  mod_solved n L (symf (vm A)) b x.
Proof.
  intros SA HF Hd S Sb Fx. destruct (mod_subst_ieee n A L b x SA Sb HF Hd S Fx) as (Fb & M & e & W & B & SS). split; [exact Fb|].
  destruct (mfactored_ieee n A L SA HF Hd) as (_ & Nz & FB).
  exists M, e. split; [|split; [|exact SS]].
  - intros i j Hi Hj. specialize (FB i j Hi Hj). specialize (W i j Hi Hj).
    replace (M i j - symf (vm A) i j) with ((M i j - LDLt n (vm L) i j) + - (symf (vm A) i j - LDLt n (vm L) i j)) by ring.
    eapply Rle_trans; [apply Rabs_triang|]. rewrite Rabs_Ropp.
    assert (Pos : 0 <= absLDLt n (vm L) i j) by (apply bsum_nonneg; intros; apply Rmult_le_pos; apply Rabs_pos).
    pose proof (gamma_add (AX := AX) (2 * n + 1) (n + 1)) as G. replace (2 * n + 1 + (n + 1))%nat with (3 * n + 2)%nat in G by lia.
    pose proof (g_mono (I := I) (n + 1) (3 * n + 2) ltac:(lia)) as G1. pose proof (g_mono (I := I) (2 * n + 1) (3 * n + 2) ltac:(lia)) as G2.
    pose proof (Rmult_le_pos _ _ (lost_nonneg n (vm L) Nz) (i_eta (Ieee := I))) as P1.
    assert (P2 : 0 <= mod_under_m n (vm L) j * eta) by (apply Rmult_le_pos; [|apply (i_eta (Ieee := I))]; apply bsum_nonneg; intros; apply Rabs_pos).
    change (Rabs (M i j - LDLt n (vm L) i j) <= gamma u (2 * n + 1) * absLDLt n (vm L) i j + mod_under_m n (vm L) j * eta * (1 + gamma u (2 * n + 1))) in W.
    change (matrix_lost n (vm L) j) with (factor_lost n (vm L) + mod_under_m n (vm L) j).
    pose proof (Rmult_le_compat_r _ _ _ Pos G) as Q1. pose proof (Rmult_le_compat_l _ _ _ P1 G1) as Q2. pose proof (Rmult_le_compat_l _ _ _ P2 G2) as Q3. lra.
  - intros i Hi. eapply Rle_trans; [apply B; auto|]. apply Rmult_le_compat_l; [|apply (g_mono (I := I)); lia].
    apply Rmult_le_pos; [|apply (i_eta (Ieee := I))]. unfold mod_under_b. pose proof (pos_INR n) as PN.
    apply Rplus_le_le_0_compat; auto. apply bsum_nonneg. intros k Hk. apply Rmult_le_pos.
    + apply Rplus_le_le_0_compat; [apply Rabs_pos|apply (i_eta (Ieee := I))].
    + apply Rplus_le_le_0_compat; [exact PN|apply Rabs_pos].
Qed.

Theorem C84_factor : forall n A (h : heap T) F h1, ismat h A n n -> fits_u32 n = true -> msettled prd n n (mget h A) -> mod_cholesky A h = Ok F h1 ->
  (forall i, (i < n)%nat -> fin (fac h1 F i i)) -> mod_factored n (fac h1 F) (mget h A).
Proof.
  intros n A h F h1 HA Hf SA E Hd. destruct (mod_ctor_ieee n A h F h1 HA Hf E) as [_ D]. now apply mfactored_ieee.
Qed.
Theorem C84_solve : forall dbg n A (h : heap T) F h1, ismat h A n n -> (Z.of_nat n < 2 ^ 31)%Z -> msettled prd n n (mget h A) -> mod_cholesky A h = Ok F h1 ->
  (forall i, (i < n)%nat -> fin (fac h1 F i i)) ->
  let Q := mod_solved n (fac h1 F) (symf (vm (mget h A))) in
  (forall rhs, isvec h1 rhs n -> vec_outofplace Q (mod_solve_vec dbg F) h1 n rhs) /\
  (forall rhs, isvec h1 rhs n -> chp F <> rhs -> vec_inplace Q (mod_solve_mut_vec dbg F) h1 n rhs) /\
  (forall m X, ismat h1 X n m -> fits_u32 m = true -> mat_outofplace Q (mod_solve_mat dbg F) h1 n m X) /\
  (forall m X, ismat h1 X n m -> fits_u32 m = true -> chp F <> mp X -> mat_inplace Q (mod_solve_mut_mat dbg F) h1 n m X).
Proof.
  intros dbg n A h F h1 HA Hn SA E Hd Q. destruct (mod_ctor_ieee n A h F h1 HA) as [HF D]; auto.
  { unfold fits_u32. apply Z.ltb_lt. lia. }
  assert (RR : forall b x, usubstituted n (fac h1 F) b x -> Q b x) by (intros; now apply mod_solve_ieee).
  split; [|split; [|split]]; intros.
  - eapply vec_out_mono; [exact RR|now apply mod_vec_out].
  - eapply vec_in_mono; [exact RR|now apply mod_vec_in].
  - eapply mat_out_mono; [exact RR|now apply mod_mat_out].
  - eapply mat_in_mono; [exact RR|now apply mod_mat_in].
Qed.
End Ieee.

Print Assumptions C84_factor.
Print Assumptions C84_solve.
