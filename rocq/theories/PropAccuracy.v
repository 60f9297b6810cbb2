(** * C93: computed solutions have small residuals and errors (theorem statements)

    [accurate n A W b E xh] (SpecAccuracy.v): the residual of xh is at most W |xh| + E row by row, and
    the error is bounded accordingly through an inverse, diagonal dominance or definiteness of A.
    Here for every solver that is backward stable in IEEE arithmetic (C79 - C84, C87), with W
    and E explicit; [val], [fin], u, eta, omega as there. *)
From Coq Require Import ZArith List Floats Reals Lra Lia.
From Flocq Require Import Core.Zaux Core.Raux Core.Defs Core.Float_prop IEEE754.BinarySingleNaN.
From Verif Require Import Base Scalar BaseLemmas Spec Sums RealVec ModelVec ModelMat SpecMat ModelPacked ProofPacked ModelSparse
  PropPacked ProofVec ProofVecProp ProofMatOps ProofVecSched ModelSolvers ModelIter ProofChol ProofCholSolve ProofCholMath ProofIlu
  ProofTdma ProofTdmaBits PropTdma PropVec PropMat PropChol PropCholSolve PropIlu PropRepeat ProofSparse SpecSparse PropSparse ProofSpmv PropSpmv
  SpecRound Rounding ProofBackSub ProofRound ProofRound2 PropRound PropRound2 SpecIeee RoundIeee ProofIeee ProofIeee2 ProofIeee3 ProofIeee4
  PropIeee PropIeee2 PropIeee3 PropIeee4 PropIeee5 PropIeee64 PropIeee64b PropIeee6 SpecAccuracy ProofAccuracy.
Import ListNotations.
Local Open Scope R_scope.

Local Notation mmR := (@mmmul R ROps).
Local Notation solvesR := (@solves R ROps).
Local Notation sumR := (@bsum R ROps).
Local Notation lfacR := (@lfac R ROps).
Local Notation ufacR := (@ufac R ROps).

Section Ieee.
Context {T : Type} (Op : Ops T) (val : T -> R) (fin : T -> Prop) (prd : T -> T -> T -> Prop) (u eta omega : R) (I : Ieee Op val fin prd u eta omega).
Local Notation vv := (vv val).
Local Notation vm := (vm val).
Local Notation vfin := (vfin fin).

(** k roundings relative to B, and C underflows. *)
Definition roundings k (B C : nat -> nat -> R) (i j : nat) : R := gamma u k * B i j + C i j * eta * (1 + gamma u k).
Definition underflows k (c : nat -> R) (i : nat) : R := c i * eta * (1 + gamma u k).
(** A finite result for a right-hand side of rounded numbers is accurate. *)
Definition solved_accurately n (A W : nat -> nat -> R) (E : nat -> R) (b x : nat -> T) : Prop :=
  vsettled prd n b -> vfin n x -> vfin n b /\ accurate n A W (vv b) E (vv x).

(** Back substitution. *)
Theorem C93_back_sub : forall (U : utri T) n f y (h : heap T),
  utri_wf U n -> (forall i j, (i < n)%nat -> (j < n)%nat -> forall S (s : S), utri_get U i j s = Ok (f i j) s) ->
  isvec h y n -> (forall i, (i < n)%nat -> fin (f i i)) ->
  exists h', back_sub U y h = Ok tt h' /\ ext_but h h' y /\ isvec h' y n /\
    solved_accurately n (vm f) (roundings n (mabs (vm f)) (fun _ _ => 0)) (underflows n (fun i => INR n + Rabs (val (f i i)))) (rd h y) (rd h' y).
Proof.
  intros U n f y h W RD Hy Hd. destruct (C79_back_sub Op val fin prd u eta omega I U n f y h W RD Hy Hd) as (h' & E & X & V & Q).
  exists h'. split; [exact E|]. split; [exact X|]. split; [exact V|]. intros Sy Fx. destruct (Q Sy Fx) as (Fy & _ & _ & A' & e & HW & He & S).
  split; [exact Fy|]. apply (accurate_of_near n _ A' _ _ e); auto.
  intros i j Hi Hj. unfold roundings. rewrite !Rmult_0_l, Rplus_0_r. now apply HW.
Qed.

(** The tridiagonal solver, for dominant matrices (the hypothesis of C83). *)
Definition tri_roundings (A : nat -> nat -> R) : nat -> nat -> R := roundings 11 (mabs A) (fun i _ => 2 * Rabs (A i i) + 1).
Definition tri_underflows (A : nat -> nat -> R) : nat -> R := underflows 11 (fun i => 5 * Rabs (A i i) + 3).
Theorem C93_tridiagonal : forall dbg (t : tri T) n b rslt (h : heap T),
  (2 <= n)%nat -> fits_i32 n = true -> tri_wf T t n -> dominant_ieee val fin u eta omega n (tmat t) -> isvec h b n -> (n <= len h rslt)%nat ->
  vsettled prd n (atf (td t)) ->
  exists h', tridiag_solve_vec dbg t b rslt h = Ok rslt h' /\
    solved_accurately n (vm (tmat t)) (tri_roundings (vm (tmat t))) (tri_underflows (vm (tmat t))) (rd h b) (rd h' rslt).
Proof.
  intros dbg t n b rslt h Hn Hf W D Hb Lr Sd. destruct (tridiag_bits dbg t n b rslt h Hn Hf W Hb Lr) as (h0 & E0 & _).
  exists h0. split; [exact E0|]. intros Sb Fx.
  destruct (C83_vector Op val fin prd u eta omega I dbg t n b rslt h Hn Hf W D Hb Lr Sd Sb) as (h' & E & Q & _).
  rewrite E0 in E. injection E as <-. destruct (Q Fx) as (Fb & A' & e & _ & HW & He & S). split; [exact Fb|].
  apply (accurate_of_near n _ A' _ _ e); auto.
Qed.
Theorem C93_tridiagonal_columns : forall dbg (t : tri T) n m B X (h : heap T),
  (2 <= n)%nat -> fits_i32 n = true -> fits_u32 m = true -> tri_wf T t n -> dominant_ieee val fin u eta omega n (tmat t) -> ismat h B n m -> ismat h X n m ->
  vsettled prd n (atf (td t)) -> msettled prd n m (mget h B) ->
  exists h', tridiag_solve_mat dbg t B X h = Ok X h' /\ forall k, (k < m)%nat ->
    solved_accurately n (vm (tmat t)) (tri_roundings (vm (tmat t))) (tri_underflows (vm (tmat t))) (fun i => mget h B i k) (fun i => mget h' X i k).
Proof.
  intros dbg t n m B X h Hn Hf Hm W D HB HX Sd SB.
  destruct (C83_columns Op val fin prd u eta omega I dbg t n m B X h Hn Hf Hm W D HB HX Sd SB) as (h' & E & Q).
  exists h'. split; [exact E|]. intros k Hk _ Fx. destruct (Q k Hk) as [Q1 _]. destruct (Q1 Fx) as (Fb & A' & e & _ & HW & He & S). split; [exact Fb|].
  apply (accurate_of_near n _ A' _ _ e); auto.
Qed.

(** Cholesky: the constructor returned a factor with a positive finite diagonal. *)
Definition chol_roundings n (L : nat -> nat -> T) : nat -> nat -> R := roundings (3 * n + 1) (absLLt n (vm L)) (chol_round val n L).
Definition chol_underflows n (L : nat -> nat -> T) : nat -> R := underflows (3 * n + 1) (chol_under n (vm L)).
Lemma chol_accurately n L A b x : chol_solved val fin prd u eta (3 * n + 1) n (chol_round val n L) L A b x ->
  solved_accurately n A (chol_roundings n L) (chol_underflows n L) b x.
Proof.
  intros Q Sb Fx. destruct (Q Sb Fx) as (Fb & A' & e & HW & He & S). split; [exact Fb|]. apply (accurate_of_near n _ A' _ _ e); auto.
Qed.
Theorem C93_cholesky_square : forall dbg n A (h : heap T) F h1, ismat h A n n -> (Z.of_nat n < 2 ^ 31)%Z -> msettled prd n n (mget h A) ->
  dyn_cholesky A h = Ok F h1 -> good_diag val fin n (fac h1 F) ->
  let Q := solved_accurately n (symf (vm (mget h A))) (chol_roundings n (fac h1 F)) (chol_underflows n (fac h1 F)) in
  (forall rhs, isvec h1 rhs n -> vec_outofplace Q (chol_solve_vec dbg F) h1 n rhs) /\
  (forall rhs, isvec h1 rhs n -> chp F <> rhs -> vec_inplace Q (chol_solve_mut_vec dbg F) h1 n rhs) /\
  (forall m X, ismat h1 X n m -> fits_u32 m = true -> mat_outofplace Q (chol_solve_mat dbg F) h1 n m X) /\
  (forall m X, ismat h1 X n m -> fits_u32 m = true -> chp F <> mp X -> mat_inplace Q (chol_solve_mut_mat dbg F) h1 n m X).
Proof.
  intros dbg n A h F h1 HA Hn SA E P Q. destruct (C80_square Op val fin prd u eta omega I dbg n A h F h1 HA Hn SA E P) as (Q1 & Q2 & Q3 & Q4).
  split; [|split; [|split]]; intros.
  - eapply vec_out_mono; [apply chol_accurately|now apply Q1].
  - eapply vec_in_mono; [apply chol_accurately|now apply Q2].
  - eapply mat_out_mono; [apply chol_accurately|now apply Q3].
  - eapply mat_in_mono; [apply chol_accurately|now apply Q4].
Qed.
Theorem C93_cholesky_packed : forall dbg n H (h : heap T) F h1, herm_wf H n -> (Z.of_nat n < 2 ^ 31)%Z -> msettled prd n n (hmat H) ->
  tri_cholesky H h = Ok F h1 -> good_diag val fin n (fac h1 F) ->
  let Q := solved_accurately n (symf (vm (hmat H))) (chol_roundings n (fac h1 F)) (chol_underflows n (fac h1 F)) in
  (forall rhs, isvec h1 rhs n -> vec_outofplace Q (chol_solve_vec dbg F) h1 n rhs) /\
  (forall rhs, isvec h1 rhs n -> chp F <> rhs -> vec_inplace Q (chol_solve_mut_vec dbg F) h1 n rhs) /\
  (forall m X, ismat h1 X n m -> fits_u32 m = true -> mat_outofplace Q (chol_solve_mat dbg F) h1 n m X) /\
  (forall m X, ismat h1 X n m -> fits_u32 m = true -> chp F <> mp X -> mat_inplace Q (chol_solve_mut_mat dbg F) h1 n m X).
Proof.
  intros dbg n H h F h1 HA Hn SA E P Q. destruct (C80_packed Op val fin prd u eta omega I dbg n H h F h1 HA Hn SA E P) as (Q1 & Q2 & Q3 & Q4).
  split; [|split; [|split]]; intros.
  - eapply vec_out_mono; [apply chol_accurately|now apply Q1].
  - eapply vec_in_mono; [apply chol_accurately|now apply Q2].
  - eapply mat_out_mono; [apply chol_accurately|now apply Q3].
  - eapply mat_in_mono; [apply chol_accurately|now apply Q4].
Qed.
(** A sufficiently definite matrix (the hypothesis of C87): the constructor succeeds, and the bound
    is in terms of the diagonal of the matrix. *)
Definition definite_roundings n (A L : nat -> nat -> T) : nat -> nat -> R :=
  roundings (3 * n + 1) (fun i j => 2 * (sqrt (vm A i i) * sqrt (vm A j j))) (chol_round val n L).
Theorem C93_definite : forall dbg theta amax n A (h : heap T), ismat h A n n -> (Z.of_nat n < 2 ^ 31)%Z ->
  msettled prd n n (mget h A) -> definite_ieee val fin u eta omega theta amax n (mget h A) ->
  exists F h1, dyn_cholesky A h = Ok F h1 /\ ext h h1 /\ (forall i, (i < n)%nat -> Rabs (vm (fac h1 F) i i) <= sqrt (2 * vm (mget h A) i i)) /\
    forall rhs, isvec h rhs n -> vec_outofplace (solved_accurately n (symf (vm (mget h A))) (definite_roundings n (mget h A) (fac h1 F))
      (chol_underflows n (fac h1 F))) (chol_solve_vec dbg F) h1 n rhs.
Proof.
  intros dbg theta amax n A h HA Hn SA HM.
  assert (Hf : fits_u32 n = true) by (unfold fits_u32; apply Z.ltb_lt; lia).
  destruct (C87_square Op val fin prd u eta omega I theta amax n A h HA Hf SA HM) as (F' & h1' & E' & X' & _ & P & _ & GR).
  destruct (C87_solve Op val fin prd u eta omega I dbg theta amax n A h HA Hn SA HM) as (F & h1 & E & X & Q).
  rewrite E' in E. injection E as <- <-. exists F', h1'. split; [exact E'|]. split; [exact X'|]. split.
  - intros i Hi. specialize (GR i i Hi Hi). apply sqrt_le_1_alt in GR.
    assert (D0 : 0 <= sqrt (vm (mget h A) i i)) by apply sqrt_pos.
    eapply Rle_trans; [|apply Rle_trans with (1 := GR)].
    + rewrite <- sqrt_Rsqr_abs. apply sqrt_le_1_alt. unfold absLLt, mmmul, transp, mabs.
      rewrite (bsum_split n i), (bsum_split (n - i) 1) by lia. cbn [bsum add mul zero ROps].
      rewrite Nat.add_0_r. unfold lowf. rewrite Nat.leb_refl.
      rewrite <- Rabs_mult. rewrite (Rabs_pos_eq (_ * _)) by (apply Rle_0_sqr).
      match goal with |- _ <= ?a + (_ + ?b) => assert (A0 : 0 <= a) by (apply bsum_nonneg; intros; apply Rmult_le_pos; apply Rabs_pos);
        assert (B0 : 0 <= b) by (apply bsum_nonneg; intros; apply Rmult_le_pos; apply Rabs_pos) end.
      unfold Rsqr. lra.
    + destruct (Rle_lt_dec 0 (vm (mget h A) i i)) as [N|N]; [rewrite sqrt_sqrt by exact N; lra|].
      rewrite (sqrt_neg_0 (vm (mget h A) i i)) by lra. rewrite Rmult_0_l, Rmult_0_r, sqrt_0. apply sqrt_pos.
  - intros rhs V. eapply vec_out_mono; [|apply Q; exact V]. intros b x CS Sb Fx. destruct (CS Sb Fx) as (Fb & A' & e & HW & He & S).
    split; [exact Fb|]. apply (accurate_of_near n _ A' _ _ e); auto.
Qed.

(** The square-root-free factorisation: the constructor returned and the pivots are finite. *)
Definition mod_roundings n (L : nat -> nat -> T) : nat -> nat -> R :=
  roundings (3 * n + 2) (absLDLt n (vm L)) (fun _ j => matrix_lost n (vm L) j).
Definition mod_underflows n (L : nat -> nat -> T) : nat -> R := underflows (3 * n + 2) (rhs_lost eta n (vm L)).
Lemma mod_accurately n L A b x : mod_solved val fin prd u eta n L A b x -> solved_accurately n A (mod_roundings n L) (mod_underflows n L) b x.
Proof.
  intros Q Sb Fx. destruct (Q Sb Fx) as (Fb & A' & e & HW & He & S). split; [exact Fb|]. apply (accurate_of_near n _ A' _ _ e); auto.
Qed.
Theorem C93_modified : forall dbg n A (h : heap T) F h1, ismat h A n n -> (Z.of_nat n < 2 ^ 31)%Z -> msettled prd n n (mget h A) -> mod_cholesky A h = Ok F h1 ->
  (forall i, (i < n)%nat -> fin (fac h1 F i i)) ->
  let Q := solved_accurately n (symf (vm (mget h A))) (mod_roundings n (fac h1 F)) (mod_underflows n (fac h1 F)) in
  (forall rhs, isvec h1 rhs n -> vec_outofplace Q (mod_solve_vec dbg F) h1 n rhs) /\
  (forall rhs, isvec h1 rhs n -> chp F <> rhs -> vec_inplace Q (mod_solve_mut_vec dbg F) h1 n rhs) /\
  (forall m X, ismat h1 X n m -> fits_u32 m = true -> mat_outofplace Q (mod_solve_mat dbg F) h1 n m X) /\
  (forall m X, ismat h1 X n m -> fits_u32 m = true -> chp F <> mp X -> mat_inplace Q (mod_solve_mut_mat dbg F) h1 n m X).
Proof.
  intros dbg n A h F h1 HA Hn SA E P Q. destruct (C84_solve Op val fin prd u eta omega I dbg n A h F h1 HA Hn SA E P) as (Q1 & Q2 & Q3 & Q4).
  split; [|split; [|split]]; intros.
  - eapply vec_out_mono; [apply mod_accurately|now apply Q1].
  - eapply vec_in_mono; [apply mod_accurately|now apply Q2].
  - eapply mat_out_mono; [apply mod_accurately|now apply Q3].
  - eapply mat_in_mono; [apply mod_accurately|now apply Q4].
Qed.

(** ILU: solving with the factors (for the system L U x = b). *)
Definition lu_roundings n (f : nat -> nat -> R) : nat -> nat -> R :=
  roundings (2 * n) (mmR n (mabs (lfacR f)) (mabs (ufacR f))) (fun _ _ => 0).
Definition lu_underflows n (f : nat -> nat -> R) : nat -> R := underflows (2 * n) (ilu_under n f).
Lemma lu_accurately n f b x : ilu_solution val fin prd u eta n f b x ->
  solved_accurately n (mmR n (lfacR (vm f)) (ufacR (vm f))) (lu_roundings n (vm f)) (lu_underflows n (vm f)) b x.
Proof.
  intros Q Sb Fx. destruct (Q Sb Fx) as (Fb & _ & _ & A' & e & HW & He & S). split; [exact Fb|]. apply (accurate_of_near n _ A' _ _ e); auto.
  intros i j Hi Hj. unfold lu_roundings, roundings. rewrite !Rmult_0_l, Rplus_0_r. now apply HW.
Qed.
Theorem C93_ilu : forall n F rhs h, ismat h F n n -> fits_u32 n = true -> isvec h rhs n -> (forall i, (i < n)%nat -> fin (mget h F i i)) ->
  exists x h', ilu_dyn_solve F rhs h = Ok x h' /\ newvec h h' x n (rd h' x) /\
    solved_accurately n (mmR n (lfacR (vm (mget h F))) (ufacR (vm (mget h F)))) (lu_roundings n (vm (mget h F))) (lu_underflows n (vm (mget h F))) (rd h rhs) (rd h' x).
Proof.
  intros n F rhs h HF Hf HV Hd. destruct (C81_solve Op val fin prd u eta omega I n F rhs h HF Hf HV Hd) as (x & h' & E & N & Q).
  exists x, h'. split; [exact E|]. split; [exact N|now apply lu_accurately].
Qed.
Theorem C93_ilu_csr : forall n F f rhs h, csr_wf F n -> reads_as F n f -> fits_u32 n = true -> isvec h rhs n -> (forall i, (i < n)%nat -> fin (f i i)) ->
  exists x h', ilu_csr_solve F rhs h = Ok x h' /\ newvec h h' x n (rd h' x) /\
    solved_accurately n (mmR n (lfacR (vm f)) (ufacR (vm f))) (lu_roundings n (vm f)) (lu_underflows n (vm f)) (rd h rhs) (rd h' x).
Proof.
  intros n F f rhs h W RA Hf HV Hd. destruct (C81_solve_csr Op val fin prd u eta omega I n F f rhs h W RA Hf HV Hd) as (x & h' & E & N & Q).
  exists x, h'. split; [exact E|]. split; [exact N|now apply lu_accurately].
Qed.
End Ieee.

(** ** A system in binary64: the computed solution is within 2^-47 of the exact one. *)
Local Existing Instance FOps.
Local Notation flt := Coq.Floats.PrimFloat.float.
Lemma gamma11_64 : 0 <= gamma u64 11 <= 12 * u64.
Proof.
  destruct small64 as (Hu & He & Ho). assert (U : u64 <= / 1024) by (change (/ 1024) with (bpow radix2 (-10)); unfold u64; apply bpow_le; lia).
  split; [apply (gamma_pos (i_range (Ieee := float_ieee)))|].
  assert (E : INR 11 = 11) by (rewrite INR_IZR_INZ; reflexivity).
  eapply Rle_trans; [apply (gamma_classic (i_range (Ieee := float_ieee)))|]; rewrite E; [lra|].
  apply (Rmult_le_reg_r (1 - 11 * u64)); [lra|].
  replace (11 * u64 / (1 - 11 * u64) * (1 - 11 * u64)) with (11 * u64) by (field; lra). nra.
Qed.
Lemma rows_64 i : (i < 3)%nat -> Rabs (vm fval (tmat ET) i i) = 8 /\ sumR 3 (fun j => Rabs (vm fval (tmat ET) i j)) <= 10 /\
  Rabs (vv fval (rd ETH 0%nat) i) <= 1 /\ 6 <= Rabs (vm fval (tmat ET) i i) - sumR 3 (fun j => if Nat.eqb j i then 0 else Rabs (vm fval (tmat ET) i j)).
Proof.
  destruct v64 as (V1 & Vm1 & V8 & Vm8 & V0). pose proof tenth_64 as Vt.
  assert (A1 : Rabs (-1) = 1) by (rewrite Rabs_left; lra). assert (A8 : Rabs (-8) = 8) by (rewrite Rabs_left; lra).
  assert (B1 : Rabs 1 = 1) by (apply Rabs_pos_eq; lra). assert (B8 : Rabs 8 = 8) by (apply Rabs_pos_eq; lra).
  intros Hi. unfold vm, vv. destruct i as [|[|[|i]]]; try lia; cbn [bsum Nat.eqb add zero ROps];
    repeat match goal with |- context [tmat ET ?a ?b] => let v := eval vm_compute in (tmat ET a b) in change (tmat ET a b) with v end;
    match goal with |- context [rd ETH ?a ?b] => let v := eval vm_compute in (rd ETH a b) in change (rd ETH a b) with v end;
    rewrite ?V1, ?Vm1, ?V8, ?Vm8, ?V0, ?A1, ?A8, ?B1, ?B8, ?Rabs_R0; repeat split; try lra; exact Vt.
Qed.
Example C93_nonvacuous : exists h', tridiag_solve_vec true ET 0%nat 1%nat ETH = Ok 1%nat h' /\
  forall x, solvesR 3 (vm fval (tmat ET)) x (vv fval (rd ETH 0%nat)) -> forall i, (i < 3)%nat -> Rabs (fval (rd h' 1%nat i) - x i) <= bpow radix2 (-47).
Proof.
  destruct C83_nonvacuous as (W & D & V & Fb & _ & h0 & E0 & F0).
  destruct (C93_tridiagonal FOps fval ffin _ u64 eta64 omega64 float_ieee true ET 3 0%nat 1%nat ETH) as (h' & E & Q); auto.
  { intros i Hi. apply plain_settled. }
  exists h'. split; [exact E|]. rewrite E0 in E. injection E as <-.
  destruct Q as (_ & _ & _ & _ & _ & _ & RD & _).
  { intros i Hi. apply plain_settled. }
  { intros i Hi. unfold rd, ffin. destruct (nth_in_or_default i (mem h0 1%nat) 0%float) as [N|N].
    - unfold all_fin in F0. rewrite forallb_forall in F0. now apply F0.
    - refine (eq_trans (f_equal _ N) _). reflexivity. }
  intros x Sx i Hi. destruct gamma11_64 as [G0 G1]. destruct small64 as (Hu & He & Ho).
  assert (RW : row_dominance 3 (vm fval (tmat ET)) 6) by (intros k Hk; apply rows_64, Hk).
  assert (EU : eta64 <= u64 * / 1024) by (change (/ 1024) with (bpow radix2 (-10)); unfold u64, eta64; rewrite <- bpow_plus; apply bpow_le; lia).
  assert (U : u64 <= / 1024) by (change (/ 1024) with (bpow radix2 (-10)); unfold u64; apply bpow_le; lia).
  assert (E47 : bpow radix2 (-47) = 64 * u64) by (unfold u64; change 64 with (bpow radix2 6); rewrite <- bpow_plus; reflexivity).
  assert (X1 : forall k, (k < 3)%nat -> Rabs (x k) <= 1).
  { destruct (argmax (fun k => Rabs (x k)) 3) as (k & Hk & Mx); [lia|]. intros l Hl. eapply Rle_trans; [apply Mx, Hl|].
    pose proof (dominance_largest 3 _ 6 x k RW Hk Mx) as L. rewrite (Sx k Hk) in L. destruct (rows_64 k Hk) as (_ & _ & B & _). lra. }
  eapply Rle_trans; [apply (RD 6 (124 * u64) u64 1 x RW Sx); auto|].
  - intros k Hk. destruct (rows_64 k Hk) as (D8 & S10 & _). unfold tri_roundings, roundings, mabs.
    rewrite D8. pose proof (Rabs_pos (vm fval (tmat ET) k 0%nat)). cbn [bsum add zero ROps] in *.
    set (a := Rabs (vm fval (tmat ET) k 0%nat)) in *. set (b := Rabs (vm fval (tmat ET) k 1%nat)) in *. set (c := Rabs (vm fval (tmat ET) k 2%nat)) in *.
    assert (gamma u64 11 * (a + b + c) <= 12 * u64 * 10) by (apply Rmult_le_compat; unfold a, b, c in *; try lra; pose proof (Rabs_pos (vm fval (tmat ET) k 1%nat)); pose proof (Rabs_pos (vm fval (tmat ET) k 2%nat)); lra).
    assert (17 * eta64 * (1 + gamma u64 11) <= u64) by nra. lra.
  - intros k Hk. destruct (rows_64 k Hk) as (D8 & _). unfold tri_underflows, underflows. rewrite D8. nra.
  - lra.
  - rewrite E47. apply (Rmult_le_reg_r (6 - 124 * u64)); [lra|]. unfold Rdiv. rewrite Rmult_assoc, Rinv_l, Rmult_1_r by lra. nra.
Qed.

Print Assumptions C93_back_sub.
Print Assumptions C93_tridiagonal.
Print Assumptions C93_tridiagonal_columns.
Print Assumptions C93_cholesky_square.
Print Assumptions C93_cholesky_packed.
Print Assumptions C93_definite.
Print Assumptions C93_modified.
Print Assumptions C93_ilu.
Print Assumptions C93_ilu_csr.
Print Assumptions C93_nonvacuous.
