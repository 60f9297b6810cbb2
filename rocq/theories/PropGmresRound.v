(** * Property C100: what GMRES returns in rounded arithmetic

    The code is run with operators that each commit a relative error of at most [u] ([Approx O u]). *)
From Coq Require Import Reals Lra Lia List.
From Verif Require Import Base Scalar BaseLemmas Spec Sums RealVec SpecMat ModelVec ModelMat ProofMatOps ModelSparse SpecSparse ProofSparse PropSparse PropSpmv ModelIter
  ProofChol ProofIlu FloatSqrt PropIlu SpecRound Rounding ProofRound ProofRound2 PropRound PropRound2 ProofGmresMath ProofGmresRun PropCgs ProofCgs ProofCgsRound
  PropGmresAny ProofGmresBits PropUnits PropIluDom ProofIluRound PropIluRound ProofGmresRound RoundFlocq.
Import ListNotations.
From Flocq Require Raux.
Local Open Scope R_scope.
Local Notation mvR := (@mvmul R ROps).
Local Notation mmR := (@mmmul R ROps).
Local Notation sumR := (@bsum R ROps).
Local Notation solvesR := (@Spec.solves R ROps).
Local Notation lfacR := (@lfac R ROps).
Local Notation ufacR := (@ufac R ROps).

(** The product of the factors held in [f], and the product of their absolute values. *)
Definition lu_of n (f : nat -> nat -> R) := mmR n (lfacR f) (ufacR f).
Definition lu_abs n (f : nat -> nat -> R) := mmR n (mabs (lfacR f)) (mabs (ufacR f)).

(** [p] comes from [b], and each [v j] from [q j], by the preconditioned operator, up to rounding:
    p solves nearly L U p = b; q j has nearly length one; v j solves nearly L U (v j) = r where r is
    nearly a (q j).  [w] counts the roundings in one product with [a]. *)
Definition images (u : R) (w n : nat) (a f : nat -> nat -> R) (b : nat -> R) (m : nat) (p : nat -> R) (q v : nat -> nat -> R) : Prop :=
  backward u (2 * n) n (lu_abs n f) (lu_of n f) b p /\
  forall j, (j < m)%nat -> Rabs (nrm n (q j) - 1) <= gamma u (n + 4) /\
    exists r, (forall i, (i < n)%nat -> Rabs (r i - mvR n a (q j) i) <= gamma u w * mvR n (mabs a) (vabs (q j)) i) /\
      backward u (2 * n) n (lu_abs n f) (lu_of n f) r (v j).

(** [x] is nearly the combination of the first k vectors q with coefficients y. *)
Definition combined (u : R) (n k : nat) (y : nat -> R) (q : nat -> nat -> R) (x : nat -> R) : Prop :=
  forall t, (t < n)%nat -> Rabs (x t - sumR k (fun j => y j * q j t)) <= gamma u (k + 2) * sumR k (fun j => Rabs (y j) * Rabs (q j t)).

(** The error constants: both small multiples of u, whatever the data. *)
Definition gm_slack u n k : R := 2 * (INR k + 1) ^ 3 * gamma u (5 * n + 10 * k + 20).

(** The outcome aimed at: after k steps the estimate [est] is below the tolerance, or k = n; the
    preconditioned residual is not larger than the estimate allows. *)
Definition estimated (u : R) (w n : nat) (a f : nat -> nat -> R) (b : nat -> R) (tol : R) (x : nat -> R) : Prop :=
  exists k p q v y est, (1 <= k <= n)%nat /\ images u w n a f b k p q v /\ combined u n k y q x /\
    (k = n \/ Rabs est < tol) /\ Rabs est <= (1 + gamma u (n + 4 * k + 2)) * nrm n p /\
    nrm n (fun t => p t - sumR k (fun j => y j * v j t)) <=
      sqrt (INR k + 1) * (1 + gamma u (n + 4 * k + 4)) * Rabs est + gm_slack u n k * (nrm n p + sumR k (fun j => Rabs (y j) * nrm n (v j))).
(** The other one: at some step the new vector is, up to rounding, a combination of the earlier ones. *)
Definition dependent (u : R) (w n : nat) (a f : nat -> nat -> R) (b : nat -> R) : Prop :=
  exists m p q v g, (m < n)%nat /\ images u w n a f b (S m) p q v /\
    nrm n (fun t => v m t - sumR m (fun j => g j * v j t)) <= gm_slack u n (S m) * (nrm n (v m) + sumR m (fun j => Rabs (g j) * nrm n (v j))).

(** ** Triangular solves always have a result *)
Section AnyOps.
Context {T : Type} {Op : Ops T}.
Local Open Scope nat_scope.
Lemma fwd_list_ok F (b : nat -> T) m i : i < m -> nth i (fwd_list F b m) zero = ssub i (b i) (fun j => mul (F i j) (nth j (fwd_list F b m) zero)).
Proof.
  induction m as [|m IH]; intros Hi; [lia|]. cbn [fwd_list]. cbv zeta. destruct (Nat.eq_dec i m) as [->|].
  - rewrite app_nth2, fwd_length, Nat.sub_diag by (rewrite fwd_length; lia). cbn [nth]. apply ssub_ext. intros j Hj. rewrite app_nth1; [reflexivity|]. rewrite fwd_length. lia.
  - rewrite app_nth1 by (rewrite fwd_length; lia). rewrite IH by lia. apply ssub_ext. intros j Hj. rewrite app_nth1; [reflexivity|]. rewrite fwd_length. lia.
Qed.
Lemma bwd_list_ok n F (y : nat -> T) m t : m <= n -> t < m -> nth t (bwd_list n F y m) zero =
  div (ssub (m - S t) (y (n - m + t)) (fun s => mul (F (n - m + t) (S (n - m + t) + s)) (nth (S t + s) (bwd_list n F y m) zero))) (F (n - m + t) (n - m + t)).
Proof.
  revert t. induction m as [|m IH]; intros t Hm Ht; [lia|]. cbn [bwd_list]. cbv zeta. destruct t as [|t].
  - cbn [nth]. rewrite Nat.add_0_r. replace (S m - 1) with m by lia. reflexivity.
  - cbn [nth]. rewrite IH by lia. replace (n - S m + S t) with (n - m + t) by lia. replace (S m - S (S t)) with (m - S t) by lia. reflexivity.
Qed.
Lemma bwd_exists n F (y : nat -> T) : exists x, forall i, i < n -> ilu_bwd n F y x i.
Proof.
  exists (fun i => nth i (bwd_list n F y n) zero). intros i Hi. unfold ilu_bwd. rewrite (bwd_list_ok n F y n i (le_n n) Hi).
  replace (n - n + i) with i by lia. reflexivity.
Qed.
Lemma lu_solved n F (b : nat -> T) : ilu_solved n F b (lu_apply n F b).
Proof.
  exists (fun k => nth k (fwd_list F b n) zero). split; intros i Hi.
  - now apply fwd_list_ok.
  - unfold ilu_bwd, lu_apply. rewrite (bwd_list_ok n F _ n i (le_n n) Hi) at 1. replace (n - n + i) with i by lia. reflexivity.
Qed.
End AnyOps.

Section Rounded.
Context (O : Ops R) (u : R) (AX : Approx O u).

Lemma lu_round n f b : (forall i, (i < n)%nat -> f i i <> 0) -> backward u (2 * n) n (lu_abs n f) (lu_of n f) b (@lu_apply R O n f b).
Proof.
  intros Hd. destruct (ilu_solve_round (u := u) n f b _ Hd (lu_solved n f b)) as (M & B & Q). exists M. split; [|exact Q].
  intros i j Hi Hj. unfold lu_abs, lu_of. rewrite <- lu_eq, <- lu_abs_eq. now apply B.
Qed.
Lemma dense_round n a x i : (i < n)%nat -> Rabs (@dense_apply R O n a x i - mvR n a x i) <= gamma u (n + 2) * mvR n (mabs a) (vabs x) i.
Proof.
  intros Hi. pose proof (affine_round O u AX n (mul zero zero) 0 (fun k => a i k) x one) as B.
  rewrite Rabs_R0, !Rplus_0_r in B. rewrite (ax_one (u := u)) in *. rewrite Rabs_R1, !Rmult_1_l in B. unfold dense_apply. rewrite (ax_one (u := u)). apply B.
  pose proof (pert_of_mul O u AX zero zero) as Z. rewrite (ax_zero (u := u)), Rmult_0_l in *. exact Z.
Qed.
Lemma sparse_round n A (a : nat -> nat -> R) w x i : csr_wf A n -> @csr_shape R unit A tt = Ok (n, n) tt -> @distinct R (csr_entries A n) -> reads_as A n a ->
  (forall i, (i < n)%nat -> (length (csr_row A i) <= w)%nat) -> (i < n)%nat ->
  Rabs (@row_apply R O A x i - mvR n a x i) <= gamma u (w + 2) * mvR n (mabs a) (vabs x) i.
Proof.
  intros Wf Sh D RA Hw Hi. destruct (shape_cols A n n Sh) as [_ Hc].
  pose (h := heap_of [map x (seq 0 n)] : heap R).
  assert (Ex : forall k, (k < n)%nat -> rd h 0%nat k = x k).
  { intros k Hk. unfold rd. cbn [mem h heap_of nth]. rewrite (nth_indep _ zero (x 0%nat)) by (rewrite map_length, seq_length; lia). rewrite map_nth, seq_nth by lia. reflexivity. }
  pose proof (spmv_round O u AX h A n n a one 0%nat zero 1%nat i Wf Hi Hc D (fun i j Hi Hj => RA _ h i j Hi Hj)) as B.
  assert (E1 : rd h 1%nat i = zero) by (unfold rd; cbn [mem h heap_of nth]; destruct i; reflexivity).
  rewrite (spmv_val_fold R O h A one 0%nat zero 1%nat i), E1 in B.
  assert (E : row_value R O (csr_row A i) one (rd h 0%nat) (mul zero zero) = row_apply A x i).
  { apply (row_value_ext _ _ _ _ _ n); [|exact Ex]. intros e He. apply Hc. now apply (row_cols A n i). }
  rewrite E, (ax_one (u := u)), (ax_zero (u := u)), Rmult_0_l, Rabs_R0, Rabs_R1, !Rmult_1_l, !Rplus_0_r in B.
  replace (mvR n a x i) with (mvR n a (rd h 0%nat) i) by (apply bsum_ext; intros k Hk; cbn [mul ROps]; now rewrite Ex).
  replace (mvR n (mabs a) (vabs x) i) with (mvR n (mabs a) (vabs (rd h 0%nat)) i) by (apply bsum_ext; intros k Hk; unfold vabs; cbn [mul ROps]; now rewrite Ex).
  eapply Rle_trans; [exact B|]. apply Rmult_le_compat_r; [|apply (gamma_mono u_range); specialize (Hw i Hi); lia].
  apply bsum_nonneg. intros k Hk. unfold mabs, vabs. cbn [mul ROps]. apply Rmult_le_pos; apply Rabs_pos.
Qed.

(** ** One run *)
Lemma first_zero (d : nat -> R) k : (forall j, (j < k)%nat -> d j <> 0) \/ exists m, (m < k)%nat /\ d m = 0 /\ forall j, (j < m)%nat -> d j <> 0.
Proof.
  induction k as [|k [IH|(m & Hm & Z & N)]]; [left; intros; lia| |right; exists m; repeat split; auto].
  destruct (Req_EM_T (d k) 0) as [Z|N]; [right; exists k; repeat split; auto|left]. intros j Hj. destruct (Nat.eq_dec j k) as [->|]; [exact N|apply IH; lia].
Qed.
Lemma delta_zero c s (H : nat -> nat -> R) j : @delta R O c s H j = 0 -> @rho R O c s (fun i => H i j) j = 0 /\ H (S j) j = 0.
Proof.
  unfold delta. replace (j + 1)%nat with (S j) by lia. set (r := rho c s _ j). set (h := H (S j) j).
  destruct (pow2_near (u := u) r) as (t1 & N1 & ->). destruct (pow2_near (u := u) h) as (t2 & N2 & ->).
  destruct (add_near (u := u) (r * r * t1) (h * h * t2)) as (t3 & N3 & ->).
  apply (near_pos u_range) in N1, N2, N3. pose proof (Rle_0_sqr r) as R2. pose proof (Rle_0_sqr h) as H2. unfold Rsqr in R2, H2.
  pose proof (Rmult_le_pos _ _ R2 (Rlt_le _ _ N1)) as A. pose proof (Rmult_le_pos _ _ H2 (Rlt_le _ _ N2)) as B.
  assert (C : 0 <= (r * r * t1 + h * h * t2) * t3) by (apply Rmult_le_pos; lra).
  destruct (sqrt_near (u := u) _ C) as (t4 & N4 & ->). apply (near_pos u_range) in N4. intros Z.
  apply Rmult_integral in Z. destruct Z as [Z|Z]; [|lra]. apply sqrt_eq_0 in Z; [|exact C]. apply Rmult_integral in Z. destruct Z as [Z|Z]; [|lra].
  assert (Za : r * r * t1 = 0) by lra. assert (Zb : h * h * t2 = 0) by lra.
  apply Rmult_integral in Za, Zb. destruct Za as [Za|Za]; [|lra]. destruct Zb as [Zb|Zb]; [|lra].
  apply Rmult_integral in Za, Zb. split; tauto.
Qed.
Lemma gam_dead s nb j : s j = 0 -> @gam R O s nb (S j) = 0.
Proof. intros Z. cbn [gam]. rewrite Z. destruct (mul_near (u := u) (opp 0) (gam s nb j)) as (t & _ & ->). rewrite (ax_opp (u := u)). ring. Qed.

Section Run.
Variables (n w : nat) (a f : nat -> nat -> R) (Av Pv : (nat -> R) -> nat -> R).
Hypothesis HA : forall x i, (i < n)%nat -> Rabs (Av x i - mvR n a x i) <= gamma u w * mvR n (mabs a) (vabs x) i.
Hypothesis HP : forall r, backward u (2 * n) n (lu_abs n f) (lu_of n f) r (Pv r).

Lemma run_round b tol x nb k Q H c s Rm y : (exists i, (i < n)%nat /\ b i <> 0) -> 0 < tol ->
  @gm_run R O n Av Pv tol (Pv b) x nb k Q H c s Rm y -> estimated u w n a f b tol x \/ dependent u w n a f b.
Proof.
  intros (i0 & Hi0 & Nb) Ht G.
  pose proof (gr_k _ _ _ _ _ _ _ _ _ _ _ _ _ _ G) as Hk. pose proof (gr_nb _ _ _ _ _ _ _ _ _ _ _ _ _ _ G) as Enb.
  pose proof (gr_q0 _ _ _ _ _ _ _ _ _ _ _ _ _ _ G) as Eq0. pose proof (gr_rec _ _ _ _ _ _ _ _ _ _ _ _ _ _ G) as Rec.
  assert (Hn : (0 < n)%nat) by lia.
  (* b not zero, so p is not zero *)
  assert (Np : nrm n (Pv b) <> 0).
  { intros Z0. pose proof (proj1 (nrm_zero_iff n _) Z0) as Z. destruct (HP b) as (A' & _ & S'). apply Nb. rewrite <- (S' i0 Hi0). apply (rsum_zero n). intros l Hl. cbn [mul ROps]. rewrite Z by exact Hl. ring. }
  pose proof (norm_size (u := u) n (Pv b)) as Sz. cbv zeta in Sz. rewrite <- Enb in Sz. destruct Sz as [[S1 S2] S3].
  assert (Nnb : nb <> 0).
  { intros Z. rewrite Z, Rmult_0_r in S3. pose proof (nrm_nonneg n (Pv b)). lra. }
  (* the code stops as soon as the estimate is small, so no subdiagonal entry is zero before *)
  assert (Hh : forall m, (m <= k)%nat -> (forall j, (S j < m)%nat -> @delta R O c s H j <> 0) -> forall j, (S j < m)%nat -> H (S j) j <> 0).
  { intros m Hm Hd j Hj Z. pose proof (gr_go _ _ _ _ _ _ _ _ _ _ _ _ _ _ G (S j) ltac:(lia)) as Go.
    pose proof (g_s _ _ _ _ _ _ _ _ Rec j ltac:(lia)) as Es. replace (j + 1)%nat with (S j) in Es by lia. rewrite Z in Es.
    destruct (div_near (u := u) 0 (@delta R O c s H j) (Hd j Hj)) as (t & _ & Ed). rewrite Ed in Es. unfold Rdiv in Es. rewrite !Rmult_0_l in Es.
    rewrite (gam_dead s nb j Es), (ax_abs (u := u)), Rabs_R0 in Go. apply Bool.not_true_iff_false in Go. apply Go. now apply (ax_ltb (u := u)). }
  assert (Im : forall m, (m <= k)%nat -> (1 <= m)%nat -> (forall j, (S j < m)%nat -> @delta R O c s H j <> 0) -> images u w n a f b m (Pv b) Q (fun j => pmv Av Pv (Q j))).
  { intros m Hm H1 Hd. split; [apply HP|]. intros j Hj. split.
    - exact (q_unit n m (pmv Av Pv) Q H Rm c s (Pv b) nb Hn H1 (gmrec_less n k m _ _ _ _ _ _ Hm Rec) Enb Eq0 Nnb (Hh m Hm Hd) j Hj).
    - exists (Av (Q j)). split; [intros i Hi; now apply HA|apply HP]. }
  destruct (first_zero (fun j => @delta R O c s H j) k) as [Hd|(m & Hm & Z & Hd)].
  - left. exists k, (Pv b), Q, (fun j => pmv Av Pv (Q j)), y, (@gam R O s nb k).
    assert (Hd' : forall j, (S j < k)%nat -> @delta R O c s H j <> 0) by (intros; apply Hd; lia).
    split; [exact Hk|]. split; [apply Im; auto; lia|]. split; [|split; [|split]].
    + intros t Htn. rewrite (gr_x _ _ _ _ _ _ _ _ _ _ _ _ _ _ G t Htn). apply (accum_err (u := u)).
    + destruct (gr_stop _ _ _ _ _ _ _ _ _ _ _ _ _ _ G) as [E|E]; [now left|right]. apply (ax_ltb (u := u)) in E. now rewrite (ax_abs (u := u)) in E.
    + assert (CS : forall j, (j < k)%nat -> Rabs (c j) <= / (1 - u) ^ 3 /\ Rabs (s j) <= / (1 - u) ^ 3).
      { apply (cs_size (u := u) k H c s Hd); [intros j Hj; apply (g_s _ _ _ _ _ _ _ _ Rec j Hj)|intros j Hj; apply (g_c _ _ _ _ _ _ _ _ Rec j Hj)]. }
      pose proof (gam_bound (u := u) k c s nb CS) as B. eapply Rle_trans; [exact B|]. rewrite Rabs_pos_eq by exact S1.
      pose proof (W_ge1 (u := u) (4 * k)) as W1. unfold gamma. replace (n + 4 * k + 2)%nat with (4 * k + (n + 2))%nat by lia. rewrite <- (W_add (u := u) (4 * k) (n + 2)).
      eapply Rle_trans; [apply Rmult_le_compat_l; [lra|exact S2]|]. right. ring.
    + pose proof (rhs_norm n k (pmv Av Pv) Q H Rm c s (Pv b) nb Hn (proj1 Hk) Rec Enb Eq0 Nnb (Hh k (le_n k) Hd') y Hd (gr_y _ _ _ _ _ _ _ _ _ _ _ _ _ _ G)) as B.
      unfold gm_slack. eapply Rle_trans; [exact B|]. right. unfold gamma. ring.
  - right. destruct (delta_zero c s H m Z) as [Zr Zh].
    destruct (bwd_exists m (fun i j => if Nat.leb i j then Rm i j else zero) (fun i => Rm i m)) as (g & Hg).
    assert (Hd' : forall j, (S j < S m)%nat -> @delta R O c s H j <> 0) by (intros; apply Hd; lia).
    exists m, (Pv b), Q, (fun j => pmv Av Pv (Q j)), g. split; [lia|]. split; [apply Im; auto; lia|].
    assert (Em : (S m - 1 = m)%nat) by lia.
    pose proof (stuck_dependent n (S m) (pmv Av Pv) Q H Rm c s (Pv b) nb Hn ltac:(lia) (gmrec_less n k (S m) _ _ _ _ _ _ ltac:(lia) Rec) Enb Eq0 Nnb (Hh (S m) ltac:(lia) Hd') g) as B.
    rewrite Em in B. apply B; auto.
Qed.
End Run.

(** ** C100 *)
Theorem C100_dense : forall dbg isqrt n G tol b (h : heap R), isqrt_exact isqrt -> (0 < n)%nat -> fits_u32 n = true ->
  ismat h (fst G) n n -> ismat h (snd G) n n -> isvec h b n -> (forall i, (i < n)%nat -> mget h (snd G) i i <> 0) ->
  (exists i, (i < n)%nat /\ rd h b i <> 0) -> 0 < tol ->
  exists x h', gmres_dyn_solve dbg isqrt G tol b h = Ok x h' /\ newvec h h' x n (rd h' x) /\
    (estimated u (n + 2) n (mget h (fst G)) (mget h (snd G)) (rd h b) tol (rd h' x) \/ dependent u (n + 2) n (mget h (fst G)) (mget h (snd G)) (rd h b)).
Proof.
  intros dbg isqrt n G tol b h Hq Hn Hf HA HF Hb Hd Nb Ht.
  destruct (dense_run O dbg isqrt n G tol b h Hq Hn Hf HA HF Hb) as (x & h' & E & N & nb & k & Q & H & c & s & Rm & y & Rn).
  exists x, h'. split; [exact E|]. split; [exact N|]. eapply run_round; [| |exact Nb|exact Ht|exact Rn].
  - intros z i Hi. now apply dense_round.
  - intros r. now apply lu_round.
Qed.
Theorem C100_sparse : forall dbg isqrt n G a f w tol b (h : heap R), isqrt_exact isqrt -> (0 < n)%nat -> fits_u32 n = true ->
  csr_wf (fst G) n -> csr_shape (fst G) tt = Ok (n, n) tt -> @distinct R (csr_entries (fst G) n) -> reads_as (fst G) n a ->
  (forall i, (i < n)%nat -> (length (csr_row (fst G) i) <= w)%nat) ->
  csr_wf (snd G) n -> reads_as (snd G) n f -> isvec h b n -> (forall i, (i < n)%nat -> f i i <> 0) ->
  (exists i, (i < n)%nat /\ rd h b i <> 0) -> 0 < tol ->
  exists x h', gmres_csr_solve dbg isqrt G tol b h = Ok x h' /\ newvec h h' x n (rd h' x) /\
    (estimated u (w + 2) n a f (rd h b) tol (rd h' x) \/ dependent u (w + 2) n a f (rd h b)).
Proof.
  intros dbg isqrt n G a f w tol b h Hq Hn Hf WA SA D RA Hw WF RF Hb Hd Nb Ht.
  destruct (sparse_run O dbg isqrt n G tol b h Hq Hn Hf WA SA WF Hb) as (x & h' & E & N & nb & k & Q & H & c & s & Rm & y & Rn).
  exists x, h'. split; [exact E|]. split; [exact N|].
  assert (Ef : forall i j, (i < n)%nat -> (j < n)%nat -> cview (snd G) i j = f i j) by now apply cview_reads_R.
  eapply run_round; [| |exact Nb|exact Ht|exact Rn].
  - intros z i Hi. now apply (sparse_round n (fst G)).
  - intros r. destruct (lu_round n (cview (snd G)) r) as (A' & B & S'); [intros i Hi; rewrite Ef by exact Hi; auto|].
    exists A'. split; [|exact S']. intros i j Hi Hj. specialize (B i j Hi Hj).
    assert (E1 : lu_of n (cview (snd G)) i j = lu_of n f i j).
    { apply bsum_ext. intros l Hl. unfold lfac, ufac. cbn [mul ROps]. now rewrite !Ef. }
    assert (E2 : lu_abs n (cview (snd G)) i j = lu_abs n f i j).
    { apply bsum_ext. intros l Hl. unfold mabs, lfac, ufac. cbn [mul ROps]. now rewrite !Ef. }
    now rewrite E1, E2 in B.
Qed.

(** With the constructor: a dominant matrix, whatever fill-in is dropped.  The factors are those of C98. *)
Theorem C100_dominant : forall dbg isqrt n d A b tol (h : heap R), isqrt_exact isqrt -> (0 < n)%nat -> fits_u32 n = true ->
  ismat h A n n -> isvec h b n -> weighted_margin u n d (mget h A) -> (exists i, (i < n)%nat /\ rd h b i <> 0) -> 0 < tol ->
  exists G h1 x h2 f, gmres_dyn_new A h = Ok G h1 /\ ext h h1 /\ gmres_dyn_solve dbg isqrt G tol b h1 = Ok x h2 /\ newvec h1 h2 x n (rd h2 x) /\
    ilu_rounded u n (mget h A) f /\ tame u n d (mget h A) f /\
    (estimated u (n + 2) n (mget h A) f (rd h b) tol (rd h2 x) \/ dependent u (n + 2) n (mget h A) f (rd h b)).
Proof.
  intros dbg isqrt n d A b tol h Hq Hn Hf HA Hb SD Nb Ht.
  destruct (post_ok _ _ _ (copy_ok A n n h HA)) as (m & h' & Ec & (X1 & P1 & V1 & R1) & _).
  assert (HA' : ismat h' A n n) by (eapply ext_ismat; eauto).
  assert (EA : mget h' A = mget h A) by (unfold mget, rd; destruct X1 as [_ ->]; [reflexivity|apply HA]).
  destruct (C98_dense O u AX n d A h' HA' Hf) as (F & h1 & E3 & (X2 & P2 & V2 & R2) & D1 & D2); [now rewrite EA|]. rewrite EA in D1, D2.
  assert (En : gmres_dyn_new A h = Ok (m, F) h1) by (unfold gmres_dyn_new, bind; rewrite Ec, E3; reflexivity).
  assert (X : ext h h1) by (eapply ext_trans; eauto).
  assert (Eb : rd h1 b = rd h b) by (unfold rd; destruct X as [_ ->]; [reflexivity|apply Hb]).
  destruct (C100_dense dbg isqrt n (m, F) tol b h1 Hq Hn Hf (ext_ismat _ _ _ _ _ X2 V1) V2 (ext_isvec _ _ _ _ X Hb) (proj1 D2)) as (x & h2 & Es & N & C); [now rewrite Eb|exact Ht|].
  exists (m, F), h1, x, h2, (mget h1 F). split; [exact En|]. split; [exact X|]. split; [exact Es|]. split; [exact N|]. split; [exact D1|]. split; [exact D2|].
  assert (Em : forall i j, (i < n)%nat -> (j < n)%nat -> mget h1 m i j = mget h A i j).
  { intros i j Hi Hj. rewrite <- R1 by auto. unfold mget, rd. destruct X2 as [_ ->]; [reflexivity|apply V1]. }
  cbn [fst snd] in C. rewrite Eb in C.
  assert (Im : forall k p q v, images u (n + 2) n (mget h1 m) (mget h1 F) (rd h b) k p q v -> images u (n + 2) n (mget h A) (mget h1 F) (rd h b) k p q v).
  { intros k p q v [I1 I2]. split; [exact I1|]. intros j Hj. destruct (I2 j Hj) as (I3 & r & I4 & I5). split; [exact I3|]. exists r. split; [|exact I5].
    intros i Hi. specialize (I4 i Hi).
    replace (mvR n (mget h1 m) (q j) i) with (mvR n (mget h A) (q j) i) in I4 by (apply bsum_ext; intros l Hl; cbn [mul ROps]; now rewrite Em).
    replace (mvR n (mabs (mget h1 m)) (vabs (q j)) i) with (mvR n (mabs (mget h A)) (vabs (q j)) i) in I4 by (apply bsum_ext; intros l Hl; unfold mabs; cbn [mul ROps]; now rewrite Em).
    exact I4. }
  destruct C as [(k & p & q & v & y & est & C1 & C2 & C3)|(k & p & q & v & g & C1 & C2 & C3)].
  - left. exists k, p, q, v, y, est. split; [exact C1|]. split; [now apply Im|exact C3].
  - right. exists k, p, q, v, g. split; [exact C1|]. split; [now apply Im|exact C3].
Qed.
End Rounded.

(** ** From the preconditioned residual to the residual *)
Lemma mv_comb n k (A : nat -> nat -> R) (y : nat -> R) (q : nat -> nat -> R) i :
  mvR n A (fun t => sumR k (fun j => y j * q j t)) i = sumR k (fun j => y j * mvR n A (q j) i).
Proof.
  unfold mvmul. cbn [mul ROps]. rewrite (bsum_ext n _ (fun l => sumR k (fun j => y j * (A i l * q j l)))).
  - rewrite rs_swap. apply bsum_ext. intros j Hj. now rewrite rs_scal.
  - intros l Hl. rewrite <- rs_scal. apply bsum_ext. intros j Hj. ring.
Qed.
Lemma mv_sub n (A : nat -> nat -> R) x y i : mvR n A (fun t => x t - y t) i = mvR n A x i - mvR n A y i.
Proof. unfold mvmul. cbn [mul ROps]. rewrite <- rs_sub. apply bsum_ext. intros l Hl. ring. Qed.
Lemma mv_add n (A : nat -> nat -> R) x y i : mvR n A (fun t => x t + y t) i = mvR n A x i + mvR n A y i.
Proof. unfold mvmul. cbn [mul ROps]. rewrite <- rs_add. apply bsum_ext. intros l Hl. ring. Qed.
Lemma mv_bound n (A B : nat -> nat -> R) x z i : (forall l, (l < n)%nat -> Rabs (A i l) <= B i l) -> (forall l, (l < n)%nat -> Rabs (x l) <= z l) ->
  Rabs (mvR n A x i) <= mvR n B z i.
Proof.
  intros HB Hz. unfold mvmul. eapply Rle_trans; [apply bsum_abs|]. apply bsum_le. intros l Hl. cbn [mul ROps]. rewrite Rabs_mult.
  apply Rmult_le_compat; auto using Rabs_pos.
Qed.
Lemma backward_residual u K n (B A : nat -> nat -> R) b x i : (i < n)%nat -> backward u K n B A b x -> Rabs (b i - mvR n A x i) <= gamma u K * mvR n B (vabs x) i.
Proof.
  intros Hi (A' & W & S'). rewrite <- (S' i Hi).
  replace (mvR n A' x i - mvR n A x i) with (mvR n (fun i l => A' i l - A i l) x i) by (unfold mvmul; cbn [mul ROps]; rewrite <- rs_sub; apply bsum_ext; intros; ring).
  replace (gamma u K * mvR n B (vabs x) i) with (mvR n (fun i l => gamma u K * B i l) (vabs x) i) by (unfold mvmul; cbn [mul ROps]; rewrite <- rs_scal; apply bsum_ext; intros; ring).
  apply mv_bound; [intros l Hl; now apply W|intros; unfold vabs; lra].
Qed.

(** The residual of x is L U times the preconditioned residual, up to rounding. *)
Theorem C100_residual : forall u w n a f b k p q v y x, 0 <= u < 1 -> images u w n a f b k p q v -> combined u n k y q x ->
  forall i, (i < n)%nat ->
    Rabs (b i - mvR n a x i - mvR n (lu_of n f) (fun t => p t - sumR k (fun j => y j * v j t)) i) <=
      gamma u (2 * n) * mvR n (lu_abs n f) (fun t => Rabs (p t) + sumR k (fun j => Rabs (y j) * Rabs (v j t))) i
      + gamma u (w + (k + 2)) * mvR n (mabs a) (fun t => sumR k (fun j => Rabs (y j) * Rabs (q j t))) i.
Proof.
  intros u w n a f b k p q v y x Hu [I1 I2] Cx i Hi.
  pose proof (backward_residual u _ n _ _ b p i Hi I1) as Bp.
  assert (Bq : forall j, (j < k)%nat -> Rabs (mvR n a (q j) i - mvR n (lu_of n f) (v j) i) <= gamma u w * mvR n (mabs a) (vabs (q j)) i + gamma u (2 * n) * mvR n (lu_abs n f) (vabs (v j)) i).
  { intros j Hj. destruct (I2 j Hj) as (_ & r & I4 & I5). specialize (I4 i Hi). pose proof (backward_residual u _ n _ _ r (v j) i Hi I5) as Bv.
    rewrite Rabs_minus_sym in I4. pose proof (Rabs_triang (mvR n a (q j) i - r i) (r i - mvR n (lu_of n f) (v j) i)) as Tr.
    replace (mvR n a (q j) i - r i + (r i - mvR n (lu_of n f) (v j) i)) with (mvR n a (q j) i - mvR n (lu_of n f) (v j) i) in Tr by ring. lra. }
  set (z := fun t => sumR k (fun j => y j * q j t)). set (zz := fun t => sumR k (fun j => Rabs (y j) * Rabs (q j t))).
  assert (Bx : Rabs (mvR n a (fun t => x t - z t) i) <= gamma u (k + 2) * mvR n (mabs a) zz i).
  { replace (gamma u (k + 2) * mvR n (mabs a) zz i) with (mvR n (mabs a) (fun t => gamma u (k + 2) * zz t) i) by (unfold mvmul; cbn [mul ROps]; rewrite <- rs_scal; apply bsum_ext; intros; ring).
    apply mv_bound; [intros; unfold mabs; lra|]. intros l Hl. now apply Cx. }
  rewrite mv_sub in Bx. rewrite mv_sub, (mv_comb n k (lu_of n f) y v i).
  assert (Ez : mvR n a z i = sumR k (fun j => y j * mvR n a (q j) i)) by apply mv_comb.
  assert (Es : Rabs (sumR k (fun j => y j * (mvR n a (q j) i - mvR n (lu_of n f) (v j) i))) <=
    gamma u w * mvR n (mabs a) zz i + gamma u (2 * n) * mvR n (lu_abs n f) (fun t => sumR k (fun j => Rabs (y j) * Rabs (v j t))) i).
  { unfold zz. rewrite (mv_comb n k (mabs a) (fun j => Rabs (y j)) (fun j t => Rabs (q j t)) i), (mv_comb n k (lu_abs n f) (fun j => Rabs (y j)) (fun j t => Rabs (v j t)) i).
    rewrite <- !rs_scal, <- rs_add. eapply Rle_trans; [apply bsum_abs|]. apply bsum_le. intros j Hj. rewrite Rabs_mult.
    eapply Rle_trans; [apply Rmult_le_compat_l; [apply Rabs_pos|apply (Bq j Hj)]|]. right. unfold vabs. ring. }
  assert (E2 : sumR k (fun j => y j * (mvR n a (q j) i - mvR n (lu_of n f) (v j) i)) = mvR n a z i - sumR k (fun j => y j * mvR n (lu_of n f) (v j) i)).
  { rewrite Ez, <- rs_sub. apply bsum_ext. intros; ring. }
  rewrite E2 in Es. rewrite mv_add.
  assert (Z0 : 0 <= mvR n (mabs a) zz i).
  { apply bsum_nonneg. intros l Hl. cbn [mul ROps]. apply Rmult_le_pos; [apply Rabs_pos|]. apply bsum_nonneg. intros. apply Rmult_le_pos; apply Rabs_pos. }
  assert (GA : gamma u w + gamma u (k + 2) <= gamma u (w + (k + 2))).
  { unfold gamma. rewrite (pow_add (1 - u) w (k + 2)), Rinv_mult. pose proof (wi_ge1 Hu w). pose proof (wi_ge1 Hu (k + 2)). nra. }
  pose proof (Rmult_le_compat_r _ _ _ Z0 GA) as GB. rewrite Rmult_plus_distr_r in GB.
  change (mvR n (lu_abs n f) (vabs p) i) with (mvR n (lu_abs n f) (fun t => Rabs (p t)) i) in Bp.
  set (X1 := b i - mvR n (lu_of n f) p i) in *. set (X2 := mvR n a z i - sumR k (fun j => y j * mvR n (lu_of n f) (v j) i)) in *. set (X3 := mvR n a x i - mvR n a z i) in *.
  replace (b i - mvR n a x i - (mvR n (lu_of n f) p i - sumR k (fun j => y j * mvR n (lu_of n f) (v j) i))) with (X1 - X2 - X3) by (unfold X1, X2, X3; ring).
  pose proof (Rabs_triang (X1 - X2) (- X3)) as T1. pose proof (Rabs_triang X1 (- X2)) as T2. rewrite Rabs_Ropp in T1, T2.
  fold (X1 - X2) in T2. fold (X1 - X2 - X3) in T1. lra.
Qed.

(** ** The second outcome at the first step means that a is singular up to rounding *)
Theorem C100_first : forall u w n a f b p q v, gm_slack u n 1 < 1 -> images u w n a f b 1 p q v ->
  nrm n (fun t => v 0%nat t - 0) <= gm_slack u n 1 * (nrm n (v 0%nat) + 0) ->
  forall i, (i < n)%nat -> Rabs (mvR n a (q 0%nat) i) <= gamma u w * mvR n (mabs a) (vabs (q 0%nat)) i.
Proof.
  intros u w n a f b p q v Hs [_ I] Hv i Hi. rewrite Rplus_0_r in Hv.
  assert (Ev : nrm n (fun t => v 0%nat t - 0) = nrm n (v 0%nat)) by (apply nrm_ext; intros t0 _; apply Rminus_0_r). rewrite Ev in Hv.
  assert (Z0 : nrm n (v 0%nat) = 0) by (pose proof (nrm_nonneg n (v 0%nat)); nra).
  pose proof (proj1 (nrm_zero_iff n _) Z0) as Z. destruct (I 0%nat (le_n 1)) as (_ & r & I4 & (A' & _ & S')).
  assert (Er : r i = 0). { rewrite <- (S' i Hi). apply (rsum_zero n). intros l Hl. cbn [mul ROps]. rewrite Z by exact Hl. ring. }
  specialize (I4 i Hi). rewrite Er, Rminus_0_l, Rabs_Ropp in I4. exact I4.
Qed.
(** One equation: the second outcome cannot happen. *)
Theorem C100_one : forall u w a f b, 0 <= u < 1 -> gm_slack u 1 1 < 1 -> gamma u w < 1 -> a 0%nat 0%nat <> 0 -> ~ dependent u w 1 a f b.
Proof.
  intros u w a f b Hu Hs Hw Na (m & p & q & v & g & Hm & Im & B). assert (m = 0%nat) by lia. subst m.
  pose proof (C100_first u w 1 a f b p q v Hs Im B 0%nat (le_n 1)) as F. unfold mvmul, mabs, vabs in F. cbn [bsum add mul zero ROps] in F. rewrite !Rplus_0_l, Rabs_mult in F.
  pose proof (Rabs_pos_lt _ Na) as A0. destruct (proj2 Im 0%nat (le_n 1)) as [Q1 _].
  assert (Zq : Rabs (q 0%nat 0%nat) = 0). { pose proof (Rabs_pos (q 0%nat 0%nat)) as Q0. destruct (Rle_lt_or_eq_dec _ _ Q0) as [Q2|Q2]; [|now symmetry]. pose proof (Rmult_lt_0_compat _ _ A0 Q2). nra. }
  assert (Zn : nrm 1 (q 0%nat) = 0). { apply nrm_zero_iff. intros l Hl. assert (l = 0%nat) by lia. subst l. destruct (Req_dec (q 0%nat 0%nat) 0) as [E|E]; [exact E|]. apply Rabs_pos_lt in E. lra. }
  rewrite Zn, Rminus_0_l, Rabs_Ropp, Rabs_R1 in Q1. unfold gm_slack in Hs. cbn [INR] in Hs.
  pose proof (gamma_mono Hu (1 + 4) (5 * 1 + 10 * 1 + 20) ltac:(lia)) as GM. lra.
Qed.

(** ** The hypotheses are met *)
(** The constants are small in binary64. *)
Lemma u53_tiny : 0 < u53 <= / 1000000000000.
Proof. unfold u53. split; [apply Raux.bpow_gt_0|]. cbn. lra. Qed.
Lemma gamma53 k : INR k <= 100 -> gamma u53 k <= / 1000000000.
Proof.
  intros Hk. pose proof u53_tiny as [P Q]. pose proof (pos_INR k) as K0.
  assert (B : INR k * u53 <= 100 * / 1000000000000) by (apply Rmult_le_compat; lra).
  eapply Rle_trans; [apply (gamma_classic (u_range (Approx := flx_approx))); lra|].
  apply Rmult_le_reg_r with (1 - INR k * u53); [lra|]. unfold Rdiv. rewrite Rmult_assoc, Rinv_l by lra. lra.
Qed.
Example C100_small : gm_slack u53 1 1 < 1 /\ gm_slack u53 3 3 <= / 1000000 /\ gamma u53 3 < 1.
Proof.
  unfold gm_slack. pose proof (gamma53 (5 * 1 + 10 * 1 + 20) ltac:(cbn; lra)) as A. pose proof (gamma53 (5 * 3 + 10 * 3 + 20) ltac:(cbn; lra)) as B. pose proof (gamma53 3 ltac:(cbn; lra)) as C.
  set (g1 := gamma u53 (5 * 1 + 10 * 1 + 20)) in *. set (g2 := gamma u53 (5 * 3 + 10 * 3 + 20)) in *. cbn [INR]. repeat split; lra.
Qed.
(** A matrix whose fill-in is dropped. *)
Example C100_nonvacuous : forall dbg, exists G h1 x h2 f, @gmres_dyn_new R FlxOps (mkMat 0%nat 3%nat 3%nat) DH = Ok G h1 /\
  @gmres_dyn_solve R FlxOps dbg Nat.sqrt G (/ 1000) 1%nat h1 = Ok x h2 /\
  (estimated u53 5 3 (mget DH (mkMat 0%nat 3%nat 3%nat)) f (rd DH 1%nat) (/ 1000) (@rd R FlxOps h2 x) \/
   dependent u53 5 3 (mget DH (mkMat 0%nat 3%nat 3%nat)) f (rd DH 1%nat)).
Proof.
  intros dbg. pose proof u53_tiny as Hu. destruct (C98_nonvacuous u53 ltac:(lra)) as (H1 & H2 & H3 & _).
  destruct (C100_dominant FlxOps u53 flx_approx dbg Nat.sqrt 3 (fun _ => 1) (mkMat 0%nat 3%nat 3%nat) 1%nat (/ 1000) DH sqrt_sq_exact ltac:(lia) eq_refl H1 H2 H3)
    as (G & h1 & x & h2 & f & E1 & _ & E2 & _ & _ & _ & C).
  - exists 0%nat. split; [lia|]. unfold rd. cbn. lra.
  - lra.
  - exists G, h1, x, h2, f. auto.
Qed.
(** A sparse matrix, preconditioned by itself. *)
Example C100_nonvacuous_sparse : forall dbg, exists x h', @gmres_csr_solve R FlxOps dbg Nat.sqrt (cx, cx) (/ 1000) 1%nat hx = Ok x h'.
Proof.
  intros dbg. pose (a := fun i j : nat => match i, j with 0%nat, 0%nat => 2 | 1%nat, 0%nat => 1 | 1%nat, 1%nat => 3 | _, _ => 0 end).
  assert (W : csr_wf cx 2). { repeat split. intros i Hi. destruct i as [|[|i]]; cbn; lia. }
  assert (RA : reads_as (Op := FlxOps) cx 2 a) by (intros S s i j Hi Hj; destruct i as [|[|i]], j as [|[|j]]; try lia; reflexivity).
  destruct (C100_sparse FlxOps u53 flx_approx dbg Nat.sqrt 2 (cx, cx) a a 2 (/ 1000) 1%nat hx sqrt_sq_exact ltac:(lia) eq_refl W eq_refl) as (x & h' & E & _); auto.
  - unfold distinct, csr_entries, csr_row. cbn. repeat (constructor; [cbn; intuition congruence|]). constructor.
  - intros [|[|i]] Hi; cbn; lia.
  - repeat split; cbn; lia.
  - intros [|[|i]] Hi; cbn; try lra; lia.
  - exists 0%nat. split; [lia|]. unfold rd. cbn. lra.
  - lra.
  - eauto.
Qed.
(** One equation in binary64 arithmetic without overflow: always the first outcome. *)
Definition OH : heap R := heap_of [[2]; [3]].
Example C100_nonvacuous_one : forall dbg, exists x h', @gmres_dyn_solve R FlxOps dbg Nat.sqrt (mkMat 0%nat 1%nat 1%nat, mkMat 0%nat 1%nat 1%nat) (/ 1000) 1%nat OH = Ok x h' /\
  estimated u53 3 1 (mget OH (mkMat 0%nat 1%nat 1%nat)) (mget OH (mkMat 0%nat 1%nat 1%nat)) (rd OH 1%nat) (/ 1000) (@rd R FlxOps h' x).
Proof.
  intros dbg. pose proof u53_tiny as Hu. destruct C100_small as (S1 & _ & S3).
  destruct (C100_dense FlxOps u53 flx_approx dbg Nat.sqrt 1 (mkMat 0%nat 1%nat 1%nat, mkMat 0%nat 1%nat 1%nat) (/ 1000) 1%nat OH sqrt_sq_exact ltac:(lia) eq_refl) as (x & h' & E & _ & C).
  - repeat split; cbn; lia.
  - repeat split; cbn; lia.
  - repeat split; cbn; lia.
  - intros [|i] Hi; [|lia]. unfold mget, rd. cbn. lra.
  - exists 0%nat. split; [lia|]. unfold rd. cbn. lra.
  - lra.
  - exists x, h'. split; [exact E|]. destruct C as [C|C]; [exact C|]. exfalso.
    refine (C100_one u53 3 _ _ _ _ S1 S3 _ C); [lra|]. unfold mget, rd. cbn. lra.
Qed.

Print Assumptions C100_dense.
Print Assumptions C100_sparse.
Print Assumptions C100_dominant.
Print Assumptions C100_residual.
Print Assumptions C100_first.
Print Assumptions C100_one.
