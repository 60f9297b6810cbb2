(** * Property C98: ILU(0) and GMRES on dominant matrices in rounded arithmetic

    The code is run with operators that each commit a relative error of at most [u] ([Approx O u]). *)
From Coq Require Import ZArith Floats Reals Lra Lia List.
From Flocq Require Import Core Binary.
From Verif Require Import Base Scalar BaseLemmas Spec Sums RealVec SpecMat ModelVec ModelMat ProofMatOps ModelSparse SpecSparse ProofSparse PropSparse PropSpmv ModelIter
  ProofChol ProofIlu FloatSqrt PropChol PropCholSolve PropIlu SpecRound Rounding ProofRound ProofRound2 PropRound ProofGmresMath
  PropTdma PropIluDom ProofIluRound PropGmresAny RoundFlocq SpecIeee RoundIeee.
Import ListNotations.
Local Open Scope R_scope.
Local Notation mvR := (@mvmul R ROps).
Local Notation mmR := (@mmmul R ROps).
Local Notation solvesR := (@solves R ROps).
Local Notation sumR := (@bsum R ROps).
Local Notation lfacR := (@lfac R ROps).
Local Notation ufacR := (@ufac R ROps).

(** Row dominance with weights [d] and a margin of 2n roundings; with u = 0 this is [weighted_dominant]. *)
Definition weighted_margin (u : R) n (d : nat -> R) (a : nat -> nat -> R) : Prop :=
  (forall j, (j < n)%nat -> 0 < d j) /\
  forall i, (i < n)%nat -> sumR n (fun j => if Nat.eqb j i then 0 else Rabs (a i j) * d j) < (1 - u) ^ (2 * n) * (Rabs (a i i) * d i).
Lemma margin_0 n d a : weighted_margin 0 n d a <-> weighted_dominant n d a.
Proof.
  assert (E : (1 - 0) ^ (2 * n) = 1) by (rewrite Rminus_0_r; apply pow1).
  unfold weighted_margin, weighted_dominant. split; intros [P H]; (split; [exact P|]); intros i Hi; specialize (H i Hi); rewrite ?E, ?Rmult_1_l in *; exact H.
Qed.

(** What the factors of a dominant matrix look like: every row of U is dominated by its diagonal,
    and |L||U| is not much larger than the diagonal of A. *)
Definition tame (u : R) n d (a f : nat -> nat -> R) : Prop :=
  (forall i, (i < n)%nat -> f i i <> 0) /\
  (forall i, (i < n)%nat -> sumR n (fun j => if Nat.ltb i j then Rabs (f i j) * d j else 0) < (1 - u) ^ 2 * (Rabs (f i i) * d i)) /\
  (forall i, (i < n)%nat -> sumR n (fun j => mmR n (mabs (lfacR f)) (mabs (ufacR f)) i j * d j) <= 2 * (INR n + 1) / (1 - u) ^ n * (Rabs (a i i) * d i)).

Section Rounded.
Context (O : Ops R) (u : R) (AX : Approx O u).

Lemma done_tame n m d a f : (m <= n)%nat -> (forall i j, (i < n)%nat -> (m <= j)%nat -> (j < n)%nat -> a i j = 0 /\ f i j = 0) ->
  ilu_done n m a f -> weighted_margin u n d a -> tame u n d a f.
Proof.
  intros Hm B D [Pd SD].
  pose proof (urows (u := u) n m d a f Pd Hm B n (le_n n) D SD) as U. split; [|split].
  - intros i Hi. apply (urow_pivot (u := u) n d f Pd i Hi). now apply U.
  - exact U.
  - intros i Hi. pose proof (lu_growth (u := u) n m d a f Pd Hm B i Hi D SD) as G.
    eapply Rle_trans; [|exact G]. right. apply bsum_ext. intros j Hj. now rewrite <- lu_abs_eq.
Qed.

(** The constructor accepts every such matrix, whatever its pattern. *)
Theorem C98_dense : forall n d A (h : heap R), ismat h A n n -> fits_u32 n = true -> weighted_margin u n d (mget h A) ->
  exists F h', ilu_dyn A h = Ok F h' /\ newmat h h' F n n (mget h' F) /\ ilu_rounded u n (mget h A) (mget h' F) /\ tame u n d (mget h A) (mget h' F).
Proof.
  intros n d A h HA Hf SD. pose proof (ilu_dyn_outcome n A h HA Hf) as P. unfold postx in P.
  destruct (ilu_dyn A h) as [F h'|e h'| | | |] eqn:E; try contradiction.
  - destruct P as (N & D). exists F, h'. split; [reflexivity|]. split; [exact N|].
    split; [apply (done_rounded O u AX n n); auto; intros; lia|]. apply (done_tame n n); auto. intros; lia.
  - exfalso. destruct P as (_ & _ & f & D). destruct SD as [Pd SD].
    apply (dominant_no_stop (u := u) n n d (mget h A) f Pd (le_n n)); auto. intros; lia.
Qed.
Theorem C98_csr : forall n m d A a S (s : S), csr_wf A n -> csr_shape A tt = Ok (n, m) tt -> (m <= n)%nat -> fits_u32 n = true ->
  reads_as A n a -> weighted_margin u n d a ->
  exists F f, ilu_csr A s = Ok F s /\ csr_wf F n /\ sptr F = sptr A /\ scol F = scol A /\ reads_as F n f /\
    ilu_rounded u n a f /\ tame u n d a f.
Proof.
  intros n m d A a S s W Hs Hm Hf RA [Pd SD].
  assert (Z : eqb (zero : R) zero = true) by now apply ax_eqb.
  pose proof (cview_reads_R O A n a W RA) as Ea.
  assert (SD' : weighted_margin u n d (cview A)).
  { split; [exact Pd|]. intros i Hi. rewrite (Ea i i Hi Hi). eapply Rle_lt_trans; [|apply (SD i Hi)]. right. apply bsum_ext. intros j Hj. now rewrite Ea. }
  assert (B : forall F : csr R, csr_wf F n -> sptr F = sptr A -> scol F = scol A ->
    forall i j, (i < n)%nat -> (m <= j)%nat -> (j < n)%nat -> cview A i j = 0 /\ cview F i j = 0).
  { intros F W' E1 E2 i j Hi Hj _. rewrite <- !(ax_zero (O := O) (u := u)).
    split; [now apply (cview_beyond A n m unit tt)|]. apply (cview_beyond F n m unit tt); auto. unfold csr_shape, bind in *. now rewrite E1, E2. }
  destruct (ilu_csr_outcome n m A S s Z W Hs Hm Hf) as [(F & E & W' & E1 & E2 & D)|(F & E & W' & E1 & E2 & D)].
  - exists F, (cview F). split; [exact E|]. split; [exact W'|]. split; [exact E1|]. split; [exact E2|].
    split. { intros S0 s0 i j Hi Hj. now apply (cview_ok F n). }
    split.
    + intros i j Hi Hj. pose proof (done_rounded O u AX n m (cview A) (cview F) D (B F W' E1 E2) i j Hi Hj) as DR. now rewrite (Ea i j Hi Hj) in DR.
    + destruct (done_tame n m d (cview A) (cview F) Hm (B F W' E1 E2) D SD') as (T1 & T2 & T3). split; [exact T1|]. split; [exact T2|].
      intros i Hi. rewrite <- (Ea i i Hi Hi). now apply T3.
  - exfalso. apply (dominant_no_stop (u := u) n m d (cview A) (cview F) Pd Hm (B F W' E1 E2)); [apply SD'|exact D].
Qed.

(** So does GMRES, and its solve always returns a vector. *)
Theorem C98_gmres_dense : forall dbg isqrt n d A b tol (h : heap R), isqrt_exact isqrt -> (0 < n)%nat -> fits_u32 n = true ->
  ismat h A n n -> isvec h b n -> weighted_margin u n d (mget h A) ->
  exists G h1 x h2, gmres_dyn_new A h = Ok G h1 /\ ext h h1 /\ gmres_dyn_solve dbg isqrt G tol b h1 = Ok x h2 /\ newvec h1 h2 x n (rd h2 x).
Proof.
  intros dbg isqrt n d A b tol h Hq Hp Hf HA Hb SD.
  destruct (C75_dense R O dbg isqrt n A b tol h Hq Hp Hf HA Hb) as (h1 & X & [(G & x & h2 & E1 & E2 & N)|E]); [exists G, h1, x, h2; auto|].
  exfalso. unfold gmres_dyn_new, bind in E.
  destruct (post_ok _ _ _ (copy_ok A n n h HA)) as (m & h' & Ec & (X1 & _) & _). rewrite Ec in E.
  assert (HA' : ismat h' A n n) by (eapply ext_ismat; eauto).
  assert (EA : mget h' A = mget h A) by (unfold mget, rd; destruct X1 as [_ ->]; [reflexivity|apply HA]).
  destruct (C98_dense n d A h' HA' Hf) as (F & h3 & E3 & _); [now rewrite EA|]. rewrite E3 in E. discriminate.
Qed.
Theorem C98_gmres_sparse : forall dbg isqrt n d A a b tol (h : heap R), isqrt_exact isqrt -> (0 < n)%nat -> fits_u32 n = true ->
  csr_wf A n -> csr_shape A tt = Ok (n, n) tt -> reads_as A n a -> isvec h b n -> weighted_margin u n d a ->
  exists G x h2, gmres_csr_new A h = Ok G h /\ gmres_csr_solve dbg isqrt G tol b h = Ok x h2 /\ newvec h h2 x n (rd h2 x).
Proof.
  intros dbg isqrt n d A a b tol h Hq Hp Hf W Sh RA Hb SD.
  assert (Z : eqb (zero : R) zero = true) by now apply ax_eqb.
  destruct (C75_sparse R O dbg isqrt n A b tol h Hq Hp Hf Z W Sh Hb) as [K|E]; [exact K|].
  exfalso. destruct (C98_csr n n d A a (heap R) h W Sh (le_n n) Hf RA SD) as (F & f & E3 & _). unfold gmres_csr_new, bind in E. rewrite E3 in E. discriminate.
Qed.

(** ** When no fill-in is dropped, the preconditioner is a backward stable direct solver *)
Local Notation closed n a := (@closed_pattern R ROps n a).

Lemma closed_product n a f : closed n a -> ilu_rounded u n a f ->
  mwithin u n n n (mmR n (mabs (lfacR f)) (mabs (ufacR f))) a (mmR n (lfacR f) (ufacR f)).
Proof.
  intros C D i j Hi Hj. destruct (D i j Hi Hj) as [D0 D1]. destruct (Req_EM_T (a i j) 0) as [Z|N].
  2: { rewrite Rabs_minus_sym. now apply D1. }
  assert (E : mmR n (lfacR f) (ufacR f) i j = 0).
  { rewrite <- lu_eq. unfold mprod. rewrite (ilu_prod n f (fun x => x) i j); auto.
    assert (K : forall k, (k < i)%nat -> (k < j)%nat -> f i k * f k j = 0).
    { intros k H1 H2. destruct (Req_EM_T (a i k) 0) as [Z1|N1]; [rewrite (proj1 (D i k Hi ltac:(lia)) Z1); ring|].
      destruct (Req_EM_T (a k j) 0) as [Z2|N2]; [rewrite (proj1 (D k j ltac:(lia) Hj) Z2); ring|].
      exfalso. exact (C i j k Hi Hj H1 H2 N1 N2 Z). }
    destruct (Nat.leb_spec i j) as [L|L]; rewrite (rsum_zero _ _), (D0 Z); try ring; intros k Hk; apply K; lia. }
  rewrite E, Z, Rminus_0_r, Rabs_R0. apply Rmult_le_pos; [apply (gamma_pos u_range)|].
  rewrite <- lu_abs_eq. apply mprod_abs_pos.
Qed.

(** The exact solution of a system whose matrix differs from [a], in weighted row sums, by at most
    [direct_eps u n] times the diagonal. *)
Definition direct_eps n : R := gamma u (3 * n) * (2 * (INR n + 1) / (1 - u) ^ n).
Definition nearly_solves n d (a : nat -> nat -> R) (b x : nat -> R) : Prop :=
  exists A', solvesR n A' x b /\
    forall i, (i < n)%nat -> sumR n (fun j => Rabs (A' i j - a i j) * d j) <= direct_eps n * (Rabs (a i i) * d i).

Lemma direct n d a f b x : (forall j, (j < n)%nat -> 0 < d j) -> closed n a -> ilu_rounded u n a f -> tame u n d a f ->
  backward u (2 * n) n (mmR n (mabs (lfacR f)) (mabs (ufacR f))) (mmR n (lfacR f) (ufacR f)) b x -> nearly_solves n d a b x.
Proof.
  intros Pd C D (_ & _ & T) (A' & W & Sx). exists A'. split; [exact Sx|].
  assert (W3 : mwithin u (3 * n) n n (mmR n (mabs (lfacR f)) (mabs (ufacR f))) a A').
  { replace (3 * n)%nat with (n + 2 * n)%nat by lia. eapply (within_trans (u := u)); [|apply closed_product; eassumption|exact W].
    intros i j _ _. rewrite <- lu_abs_eq. apply mprod_abs_pos. }
  intros i Hi. unfold direct_eps. rewrite Rmult_assoc. eapply Rle_trans; [|apply Rmult_le_compat_l; [apply (gamma_pos u_range)|apply (T i Hi)]].
  rewrite <- rs_scal. apply bsum_le. intros j Hj. rewrite <- Rmult_assoc. apply Rmult_le_compat_r; [pose proof (Pd j Hj); lra|]. now apply W3.
Qed.
Theorem C98_direct_dense : forall n d A (h : heap R), ismat h A n n -> fits_u32 n = true -> weighted_margin u n d (mget h A) ->
  closed n (mget h A) ->
  exists F h1, ilu_dyn A h = Ok F h1 /\ ext h h1 /\
    forall rhs, isvec h1 rhs n -> exists x h2, ilu_dyn_solve F rhs h1 = Ok x h2 /\ newvec h1 h2 x n (rd h2 x) /\
      nearly_solves n d (mget h A) (rd h1 rhs) (rd h2 x).
Proof.
  intros n d A h HA Hf SD C. destruct (C98_dense n d A h HA Hf SD) as (F & h1 & E & N & D & T). exists F, h1. split; [exact E|].
  pose proof N as (X & _ & V & _). split; [exact X|]. intros rhs Hr.
  destruct (C66_solve O u AX n F rhs h1 V Hf Hr (proj1 T)) as (x & h2 & E2 & N2 & B). exists x, h2. split; [exact E2|]. split; [exact N2|].
  apply (direct n d (mget h A) (mget h1 F)); auto. apply SD.
Qed.
Theorem C98_direct_csr : forall n m d A a (h : heap R), csr_wf A n -> csr_shape A tt = Ok (n, m) tt -> (m <= n)%nat -> fits_u32 n = true ->
  reads_as A n a -> weighted_margin u n d a -> closed n a ->
  exists F, ilu_csr A h = Ok F h /\
    forall rhs, isvec h rhs n -> exists x h2, ilu_csr_solve F rhs h = Ok x h2 /\ newvec h h2 x n (rd h2 x) /\
      nearly_solves n d a (rd h rhs) (rd h2 x).
Proof.
  intros n m d A a h W Hs Hm Hf RA SD C. destruct (C98_csr n m d A a (heap R) h W Hs Hm Hf RA SD) as (F & f & E & W' & _ & _ & RF & D & T).
  exists F. split; [exact E|]. intros rhs Hr.
  destruct (C66_solve_csr O u AX n F f rhs h W' RF Hf Hr (proj1 T)) as (x & h2 & E2 & N2 & B). exists x, h2. split; [exact E2|]. split; [exact N2|].
  apply (direct n d a f); auto. apply SD.
Qed.

(** Hence the distance to the solution, in the maximum norm with weights [d]. *)
Theorem C98_forward : forall n d a theta c b x y, (forall j, (j < n)%nat -> 0 < d j) -> theta < 1 ->
  (forall i, (i < n)%nat -> a i i <> 0 /\ sumR n (fun j => if Nat.eqb j i then 0 else Rabs (a i j) * d j) <= theta * (Rabs (a i i) * d i)) ->
  nearly_solves n d a b x -> solvesR n a y b -> (forall j, (j < n)%nat -> Rabs (x j) <= c * d j) ->
  forall j, (j < n)%nat -> Rabs (x j - y j) <= direct_eps n * c / (1 - theta) * d j.
Proof.
  intros n d a theta c b x y Pd Ht SD (A' & Sx & HE) Sy Hc j0 Hj0.
  assert (M : exists k, (k < n)%nat /\ forall j, (j < n)%nat -> Rabs (x j - y j) / d j <= Rabs (x k - y k) / d k).
  { assert (G : forall p, p <> 0%nat -> exists k, (k < p)%nat /\ forall j, (j < p)%nat -> Rabs (x j - y j) / d j <= Rabs (x k - y k) / d k).
    { clear. induction p as [|p IH]; [contradiction|]. intros _. destruct (Nat.eq_dec p 0) as [->|Np].
      { exists 0%nat. split; [lia|]. intros j Hj. replace j with 0%nat by lia. lra. }
      destruct (IH Np) as (k & Hk & H). destruct (Rle_or_lt (Rabs (x p - y p) / d p) (Rabs (x k - y k) / d k)) as [L|L].
      - exists k. split; [lia|]. intros j Hj. destruct (Nat.eq_dec j p) as [->|]; [exact L|apply H; lia].
      - exists p. split; [lia|]. intros j Hj. destruct (Nat.eq_dec j p) as [->|]; [lra|]. specialize (H j ltac:(lia)). lra. }
    apply G. lia. }
  destruct M as (i & Hi & Mx). set (mu := Rabs (x i - y i) / d i) in *.
  assert (Bz : forall j, (j < n)%nat -> Rabs (x j - y j) <= mu * d j).
  { intros j Hj. specialize (Mx j Hj). pose proof (Pd j Hj). apply (Rmult_le_compat_r (d j)) in Mx; [|lra].
    replace (Rabs (x j - y j) / d j * d j) with (Rabs (x j - y j)) in Mx by (field; lra). exact Mx. }
  assert (Pmu : 0 <= mu) by (unfold mu, Rdiv; apply Rmult_le_pos; [apply Rabs_pos|apply Rlt_le, Rinv_0_lt_compat, Pd, Hi]).
  destruct (SD i Hi) as [Nz Di]. pose proof (HE i Hi) as Ei. pose proof (Pd i Hi) as Pi.
  assert (Pa : 0 < Rabs (a i i)) by now apply Rabs_pos_lt.
  (* row i of a (x - y) = (a - A') x *)
  assert (Row : sumR n (fun j => a i j * (x j - y j)) = sumR n (fun j => (a i j - A' i j) * x j)).
  { pose proof (Sx i Hi) as Q1. pose proof (Sy i Hi) as Q2. unfold mvmul in Q1, Q2. cbn [mul ROps] in Q1, Q2.
    rewrite (bsum_ext n (fun j => a i j * (x j - y j)) (fun j => a i j * x j - a i j * y j)) by (intros; ring).
    rewrite (bsum_ext n (fun j => (a i j - A' i j) * x j) (fun j => a i j * x j - A' i j * x j)) by (intros; ring).
    rewrite !rs_sub, Q1, Q2. reflexivity. }
  assert (Up : Rabs (sumR n (fun j => (a i j - A' i j) * x j)) <= direct_eps n * (Rabs (a i i) * d i) * c).
  { eapply Rle_trans; [apply bsum_abs|]. apply Rle_trans with (sumR n (fun j => Rabs (A' i j - a i j) * d j) * c).
    - rewrite <- rs_scal_r. apply bsum_le. intros j Hj. rewrite Rabs_mult, Rabs_minus_sym. specialize (Hc j Hj). pose proof (Rabs_pos (A' i j - a i j)). nra.
    - assert (Pc : 0 <= c). { specialize (Hc i Hi). pose proof (Rabs_pos (x i)). assert (0 <= c * d i) by lra. nra. }
      apply Rmult_le_compat_r; lra. }
  assert (Lo : (1 - theta) * (Rabs (a i i) * d i) * mu <= Rabs (sumR n (fun j => a i j * (x j - y j)))).
  { assert (Sp : sumR n (fun j => a i j * (x j - y j)) = a i i * (x i - y i) + sumR n (fun j => if Nat.eqb j i then 0 else a i j * (x j - y j))).
    { rewrite (bsum_ext n _ (fun j => (if Nat.eqb j i then a i i * (x i - y i) else 0) + (if Nat.eqb j i then 0 else a i j * (x j - y j)))).
      - rewrite rs_add. f_equal. rewrite (rs_single n (fun j => if Nat.eqb j i then a i i * (x i - y i) else 0) i Hi), Nat.eqb_refl; [reflexivity|].
        intros j _ Nj. destruct (Nat.eqb_spec j i); [contradiction|reflexivity].
      - intros j Hj. destruct (Nat.eqb_spec j i) as [->|]; ring. }
    rewrite Sp. set (t := sumR n (fun j => if Nat.eqb j i then 0 else a i j * (x j - y j))).
    assert (Bt : Rabs t <= theta * (Rabs (a i i) * d i) * mu).
    { eapply Rle_trans; [apply bsum_abs|]. eapply Rle_trans; [|apply Rmult_le_compat_r; [exact Pmu|exact Di]].
      rewrite <- rs_scal_r. apply bsum_le. intros j Hj. destruct (Nat.eqb j i); [rewrite Rabs_R0; lra|]. rewrite Rabs_mult.
      pose proof (Bz j Hj). pose proof (Rabs_pos (a i j)). nra. }
    replace (a i i * (x i - y i) + t) with (a i i * (x i - y i) - - t) by ring.
    eapply Rle_trans; [|apply Rabs_triang_inv]. rewrite Rabs_Ropp, Rabs_mult.
    assert (Ex : Rabs (x i - y i) = mu * d i) by (unfold mu; field; lra). rewrite Ex. nra. }
  rewrite Row in Lo.
  assert (Fin : (1 - theta) * mu <= direct_eps n * c).
  { apply Rmult_le_reg_r with (Rabs (a i i) * d i); [nra|]. nra. }
  eapply Rle_trans; [apply Bz, Hj0|]. apply Rmult_le_compat_r; [pose proof (Pd j0 Hj0); lra|].
  apply Rmult_le_reg_r with (1 - theta); [lra|]. unfold Rdiv. rewrite (Rmult_assoc (direct_eps n * c)), Rinv_l by lra. lra.
Qed.
End Rounded.

(** ** The matrices of the one-dimensional Laplacian, of every order with n (n+1)^2 u < 2 (binary64: n < 2^18) *)
Definition lweight n (j : nat) : R := (INR j + 1) * (INR n - INR j).
Lemma lweight_pos n j : (j < n)%nat -> 0 < lweight n j.
Proof. intros Hj. pose proof (pos_INR j). apply lt_INR in Hj. unfold lweight. nra. Qed.
Lemma lweight_le n j : lweight n j <= (INR n + 1) * (INR n + 1) / 4.
Proof. unfold lweight. pose proof (Rle_0_sqr (INR n - 1 - 2 * INR j)). unfold Rsqr in *. lra. Qed.
Lemma laplace_diag n i : Rabs (laplace i i) * lweight n i = 2 * lweight n i.
Proof. unfold laplace. rewrite Nat.eqb_refl, Rabs_pos_eq by lra. reflexivity. Qed.
Lemma laplace_row n i : (i < n)%nat -> sumR n (fun j => if Nat.eqb j i then 0 else Rabs (laplace i j) * lweight n j) <= 2 * lweight n i - 2.
Proof.
  intros Hi. pose proof (lt_INR i n Hi) as Li. unfold lweight.
  set (t := fun k j => if Nat.eqb j k then 1 * ((INR j + 1) * (INR n - INR j)) else 0).
  assert (T0 : forall k, (k < n)%nat -> sumR n (t k) = (INR k + 1) * (INR n - INR k)).
  { intros k Hk. rewrite (rs_single n (t k) k Hk); [unfold t; rewrite Nat.eqb_refl; ring|]. intros j _ Nj. unfold t. destruct (Nat.eqb_spec j k); [contradiction|reflexivity]. }
  assert (T1 : sumR n (t (S i)) <= (INR i + 2) * (INR n - INR i - 1)).
  { destruct (Nat.lt_ge_cases (S i) n) as [L|L].
    - rewrite T0, S_INR by auto. right. ring.
    - rewrite bsum_zero; [cbn [zero ROps]|intros j Hj; unfold t; destruct (Nat.eqb_spec j (S i)); [lia|reflexivity]].
      pose proof (pos_INR i). assert (INR i + 1 <= INR n) by (rewrite <- S_INR; apply le_INR; lia). nra. }
  destruct i as [|i].
  - eapply Rle_trans with (sumR n (t 1%nat)).
    + apply bsum_le. intros j Hj. unfold t, laplace. destruct j as [|[|j]]; cbn [Nat.eqb]; rewrite ?Rabs_Ropp, ?Rabs_R1, ?Rabs_R0;
        try (unfold Rabs; destruct (Rcase_abs _)); lra.
    + cbn [INR] in *. lra.
  - assert (T2 := T0 i ltac:(lia)).
    eapply Rle_trans with (sumR n (fun j => t i j + t (S (S i)) j)).
    + apply bsum_le. intros j Hj. unfold t, laplace.
      destruct (Nat.eqb_spec j (S i)) as [->|N0].
      { destruct (Nat.eqb_spec (S i) i); [lia|]. destruct (Nat.eqb_spec (S i) (S (S i))); [lia|]. lra. }
      destruct (Nat.eqb_spec (S i) j); [lia|].
      destruct (Nat.eqb_spec (S i) (S j)) as [E|E].
      { replace j with i by lia. rewrite Nat.eqb_refl. destruct (Nat.eqb_spec i (S (S i))); [lia|]. unfold Rabs. destruct (Rcase_abs _); lra. }
      destruct (Nat.eqb_spec (S (S i)) j) as [E2|E2].
      { subst j. rewrite Nat.eqb_refl. destruct (Nat.eqb_spec (S (S i)) i); [lia|]. unfold Rabs. destruct (Rcase_abs _); lra. }
      destruct (Nat.eqb_spec j i); [lia|]. destruct (Nat.eqb_spec j (S (S i))); [lia|]. rewrite Rabs_R0. lra.
    + rewrite rs_add, T2. rewrite S_INR in *. change (fun j => t (S (S i)) j) with (t (S (S i))). lra.
Qed.
Lemma laplace_margin u n : 0 <= u < 1 -> INR n * ((INR n + 1) * (INR n + 1)) * u < 2 -> weighted_margin u n (lweight n) laplace.
Proof.
  intros Hu Hn. split; [apply lweight_pos|]. intros i Hi. eapply Rle_lt_trans; [apply laplace_row, Hi|]. rewrite laplace_diag.
  pose proof (lweight_pos n i Hi) as Pw. pose proof (lweight_le n i) as Lw. pose proof (pos_INR n).
  assert (B : 1 - INR (2 * n) * u <= (1 - u) ^ (2 * n)).
  { clear - Hu. induction (2 * n)%nat as [|k IH]; [cbn; lra|]. rewrite S_INR. cbn [pow]. pose proof (pos_INR k).
    apply Rle_trans with ((1 - u) * (1 - INR k * u)); [nra|]. apply Rmult_le_compat_l; lra. }
  rewrite mult_INR in B. change (INR 2) with 2 in B.
  apply Rlt_le_trans with ((1 - 2 * INR n * u) * (2 * lweight n i)); [|apply Rmult_le_compat_r; lra].
  assert (K : 2 * INR n * u * lweight n i < 1).
  { eapply Rle_lt_trans; [apply Rmult_le_compat_l with (r2 := (INR n + 1) * (INR n + 1) / 4); [nra|exact Lw]|]. lra. }
  lra.
Qed.
Lemma laplace_closed n : @closed_pattern R ROps n laplace.
Proof.
  intros i j k _ _ H1 H2 Z1 Z2 Z. unfold laplace in *. cbn [zero ROps] in *.
  destruct (Nat.eqb_spec i k); [lia|]. destruct (Nat.eqb_spec k j); [lia|].
  destruct (Nat.eqb_spec i (S k)); [|destruct (Nat.eqb_spec (S i) k); [lia|contradiction]].
  destruct (Nat.eqb_spec k (S j)); [lia|]. destruct (Nat.eqb_spec (S k) j); [|contradiction].
  destruct (Nat.eqb_spec i j); [lra|lia].
Qed.
(** The computed solution of the discrete Poisson problem: distance to the exact one. *)
Theorem C98_laplace : forall O u (AX : Approx O u) n A (h : heap R), ismat h A n n -> fits_u32 n = true ->
  INR n * ((INR n + 1) * (INR n + 1)) * u < 2 -> (forall i j, (i < n)%nat -> (j < n)%nat -> mget h A i j = laplace i j) ->
  exists F h1, ilu_dyn A h = Ok F h1 /\ forall rhs y c, isvec h1 rhs n -> solvesR n laplace y (rd h1 rhs) ->
    exists x h2, ilu_dyn_solve F rhs h1 = Ok x h2 /\ newvec h1 h2 x n (rd h2 x) /\
      ((forall j, (j < n)%nat -> Rabs (rd h2 x j) <= c * lweight n j) ->
       forall j, (j < n)%nat -> Rabs (rd h2 x j - y j) <= direct_eps u n * c * ((INR n + 1) * (INR n + 1) / 4) * lweight n j).
Proof.
  intros O u AX n A h HA Hf Hn EA.
  assert (SD : weighted_margin u n (lweight n) (mget h A)).
  { destruct (laplace_margin u n (u_range (u := u)) Hn) as [Pd SD]. split; [exact Pd|]. intros i Hi. rewrite EA by auto.
    eapply Rle_lt_trans; [|apply (SD i Hi)]. right. apply bsum_ext. intros j Hj. now rewrite EA. }
  assert (C : @closed_pattern R ROps n (mget h A)).
  { intros i j k Hi Hj H1 H2. rewrite !EA by lia. now apply (laplace_closed n). }
  destruct (C98_direct_dense O u AX n (lweight n) A h HA Hf SD C) as (F & h1 & E & X & K). exists F, h1. split; [exact E|].
  intros rhs y c Hr Sy. destruct (K rhs Hr) as (x & h2 & E2 & N & Ns). exists x, h2. split; [exact E2|]. split; [exact N|].
  intros Hc j Hj. pose proof (pos_INR n) as Pn.
  assert (Sy' : solvesR n (mget h A) y (rd h1 rhs)).
  { intros i Hi. rewrite <- (Sy i Hi). unfold mvmul. apply bsum_ext. intros k Hk. now rewrite EA. }
  pose proof (C98_forward u n (lweight n) (mget h A) (1 - 4 / ((INR n + 1) * (INR n + 1))) c (rd h1 rhs) (rd h2 x) y (lweight_pos n)) as Q.
  replace (direct_eps u n * c * ((INR n + 1) * (INR n + 1) / 4)) with (direct_eps u n * c / (1 - (1 - 4 / ((INR n + 1) * (INR n + 1))))) by (field; nra).
  apply Q; auto.
  - assert (0 < 4 / ((INR n + 1) * (INR n + 1))) by (apply Rdiv_lt_0_compat; nra). lra.
  - intros i Hi. rewrite EA by auto. split; [unfold laplace; rewrite Nat.eqb_refl; lra|].
    apply Rle_trans with (sumR n (fun j => if Nat.eqb j i then 0 else Rabs (laplace i j) * lweight n j)).
    { right. apply bsum_ext. intros k Hk. now rewrite EA. }
    eapply Rle_trans; [apply laplace_row, Hi|]. rewrite laplace_diag. pose proof (lweight_le n i) as Lw.
    assert (4 / ((INR n + 1) * (INR n + 1)) * lweight n i <= 1).
    { apply Rmult_le_reg_r with ((INR n + 1) * (INR n + 1) / 4); [nra|]. replace (4 / ((INR n + 1) * (INR n + 1)) * lweight n i * ((INR n + 1) * (INR n + 1) / 4)) with (lweight n i) by (field; nra). lra. }
    lra.
Qed.

(** ** The hypotheses are met *)
(** A matrix whose fill-in is dropped, for any unit roundoff below 1/64. *)
Example C98_nonvacuous : forall u, 0 <= u < / 64 -> let A := mkMat 0%nat 3%nat 3%nat in
  ismat DH A 3 3 /\ isvec DH 1%nat 3%nat /\ weighted_margin u 3 (fun _ => 1) (mget DH A) /\ ~ @closed_pattern R ROps 3 (mget DH A).
Proof.
  intros u Hu A. split; [apply C74_nonvacuous|]. split; [apply C74_nonvacuous|]. split; [|apply C74_nonvacuous].
  assert (B : 3 / 4 <= (1 - u) ^ 6).
  { assert (1 - 6 * u <= (1 - u) ^ 6); [|lra]. assert (1 - 2 * u <= (1 - u) * (1 - u)) by nra.
    assert (1 - 4 * u <= ((1 - u) * (1 - u)) * ((1 - u) * (1 - u))) by nra.
    replace ((1 - u) ^ 6) with (((1 - u) * (1 - u)) * ((1 - u) * (1 - u)) * ((1 - u) * (1 - u))) by ring. nra. }
  split; [intros; lra|]. change (2 * 3)%nat with 6%nat.
  intros [|[|[|i]]] Hi; try lia; cbn [bsum Nat.eqb add zero ROps]; unfold mget, rd; cbn [mem DH heap_of]; cbn;
    rewrite ?Rabs_R0; repeat (rewrite Rabs_pos_eq by lra); cbn in B; lra.
Qed.
(** A Laplacian on the heap, whose right-hand side and solution are those of -x'' = const. *)
Definition LH : heap R := heap_of [[2; -1; 0;  -1; 2; -1;  0; -1; 2]; [2; 2; 2]].
Example C98_nonvacuous_laplace : let A := mkMat 0%nat 3%nat 3%nat in
  ismat LH A 3 3 /\ isvec LH 1%nat 3%nat /\ (forall i j, (i < 3)%nat -> (j < 3)%nat -> mget LH A i j = laplace i j) /\
  solvesR 3 laplace (lweight 3) (rd LH 1%nat).
Proof.
  intros A. split; [repeat split; cbn; lia|]. split; [repeat split; cbn; lia|]. split.
  - intros [|[|[|i]]] [|[|[|j]]] Hi Hj; try lia; unfold mget, rd; cbn; unfold laplace; cbn; lra.
  - intros [|[|[|i]]] Hi; try lia; unfold mvmul, lweight, laplace; cbn; unfold rd; cbn; lra.
Qed.
(** Weighted dominance alone is not enough: this matrix is dominant (its determinant is 2^30), but in binary64
    the second pivot 2^30 - (2^30+1)/2^30 (2^30-1) = 2^-30 is computed as 0 and the constructor throws. *)
Definition mh_row0 : list PrimFloat.float := [1073741824; 1073741823; 0]%float.
Definition mh_row1 : list PrimFloat.float := [1073741825; 1073741824; 0]%float.
Definition mh_row2 : list PrimFloat.float := [0; 1; 1073741824]%float.
Definition MH : heap PrimFloat.float := heap_of [mh_row0 ++ mh_row1 ++ mh_row2].
Theorem C98_margin_needed : exists (h h' : heap PrimFloat.float) A d, ismat h A 3 3 /\
  (forall i j, (i < 3)%nat -> (j < 3)%nat -> ffin (mget h A i j)) /\
  weighted_dominant 3 d (fun i j => fval (mget h A i j)) /\ ilu_dyn A h = Throw RuntimeError h'.
Proof.
  exists MH. destruct (ilu_dyn (mkMat 0%nat 3%nat 3%nat) MH) as [F h1|e h1| | | |] eqn:E; try (vm_compute in E; discriminate E).
  exists h1, (mkMat 0%nat 3%nat 3%nat), (fun j => match j with 0%nat => 1 - / 1073741824 + / 1073741824 / 1073741824 / 2 | _ => 1 end).
  split; [repeat split; cbn; lia|]. split.
  { intros [|[|[|i]]] [|[|[|j]]] Hi Hj; try lia; vm_compute; reflexivity. }
  split; [|destruct e; [..]; try (vm_compute in E; discriminate E); exact E].
  assert (V0 : fval 0%float = 0) by apply (i_zero (Ieee := float_ieee)).
  assert (V1 : fval 1%float = 1) by apply (i_one (Ieee := float_ieee)).
  assert (Va : fval 1073741824%float = 1073741824).
  { unfold fval. replace (Prim2SF 1073741824%float) with (S754_finite false 4503599627370496 (-22)) by (vm_compute; reflexivity). cbn. unfold F2R. cbn. lra. }
  assert (Vb : fval 1073741823%float = 1073741823).
  { unfold fval. replace (Prim2SF 1073741823%float) with (S754_finite false 9007199246352384 (-23)) by (vm_compute; reflexivity). cbn. unfold F2R. cbn. lra. }
  assert (Vc : fval 1073741825%float = 1073741825).
  { unfold fval. replace (Prim2SF 1073741825%float) with (S754_finite false 4503599631564800 (-22)) by (vm_compute; reflexivity). cbn. unfold F2R. cbn. lra. }
  split.
  { intros [|j] _; lra. }
  intros [|[|[|i]]] Hi; try lia; cbn [bsum Nat.eqb add zero ROps]; unfold mget, rd; cbn [mem MH heap_of mh_row0 mh_row1 mh_row2 app nth Nat.mul Nat.add];
    cbn -[fval Rabs]; rewrite ?V0, ?V1, ?Va, ?Vb, ?Vc, ?Rabs_R0; repeat (rewrite Rabs_pos_eq by lra); lra.
Qed.

Print Assumptions C98_dense.
Print Assumptions C98_csr.
Print Assumptions C98_gmres_dense.
Print Assumptions C98_gmres_sparse.
Print Assumptions C98_direct_dense.
Print Assumptions C98_direct_csr.
Print Assumptions C98_forward.
Print Assumptions C98_laplace.
Print Assumptions C98_margin_needed.
