(** * Property C97: how many steps GMRES takes

    M is the product L U of the incomplete factors.  Everything is said about the matrix a, about M
    and about systems with the matrix M; P is the inverse of M. *)
From Coq Require Import Lia Reals Lra List.
From Verif Require Import Base Scalar BaseLemmas Spec Sums SpecMat RealVec ModelVec ModelMat ProofMatOps ProofMatProp FloatSqrt ProofCholMath
  ModelSparse SpecSparse ProofSparse PropSpmv ModelIter ProofIlu PropChol PropCholSolve PropIlu PropCgs ProofGmresRun ProofGmresMath ProofGmres
  PropTdma PropGmres PropIluDom ProofConv.
Import ListNotations.
Local Open Scope R_scope.

(** Some multiple of the preconditioned product brings every vector closer to zero by the factor rho. *)
Definition shrinks (n : nat) (a M : nat -> nat -> R) (rho : R) : Prop :=
  forall v z, solves n M z (mvmul n a v) -> exists w, nrm n (fun t => v t - w * z t) <= rho * nrm n v.
(** a and M differ in the given rows only. *)
Definition rows_differ (n : nat) (a M : nat -> nat -> R) (rows : list nat) : Prop :=
  forall i j, (i < n)%nat -> (j < n)%nat -> ~ In i rows -> M i j = a i j.

(** x is a combination of the first k of P b, P A P b, ..., and none is better. *)
Definition best_of (n : nat) (a P : nat -> nat -> R) (b : nat -> R) (k : nat) (x : nat -> R) : Prop :=
  let pa v := mvmul n P (mvmul n a v) in
  inspan n k (kvec pa (mvmul n P b)) x /\
  forall y, inspan n k (kvec pa (mvmul n P b)) y ->
    nrm n (mvmul n P (residual_of n a b x)) <= nrm n (mvmul n P (residual_of n a b y)).
(** The result x was reached in k steps: it is the best in k steps and meets the tolerance, and no
    smaller number of steps would have met it. *)
Definition reached_in (n : nat) (a P : nat -> nat -> R) (b : nat -> R) (tol : R) (k : nat) (x : nat -> R) : Prop :=
  (1 <= k <= n)%nat /\ best_of n a P b k x /\ nrm n (mvmul n P (residual_of n a b x)) < tol /\
  forall i y, (1 <= i < k)%nat -> inspan n i (kvec (fun v => mvmul n P (mvmul n a v)) (mvmul n P b)) y ->
    tol <= nrm n (mvmul n P (residual_of n a b y)).

Section Result.
Variables (n : nat) (a M P : nat -> nat -> R).
Hypothesis HI : inverse_of n M P.
Hypothesis HM : nonsingular n M.
Hypothesis HA : nonsingular n a.
Let pa v := mvmul n P (mvmul n a v).

Lemma pa_e : mv_ext n pa.
Proof. intros x y E t Ht. apply mvmul_ext; [reflexivity|]. intros k Hk. now apply mvmul_ext. Qed.
Lemma pa_l m y X t : (t < n)%nat -> pa (comb m y X) t = comb m y (fun l => pa (X l)) t.
Proof. intros Ht. exact (pa_lin n a P m y X t Ht). Qed.
Lemma pa_i x : (forall t, (t < n)%nat -> pa x t = 0) -> forall t, (t < n)%nat -> x t = 0.
Proof. apply (pa_inj n a P HA (inverse_nonsingular n M P HI)). Qed.
Lemma pa_solves v : solves n M (pa v) (mvmul n a v).
Proof. apply HI. Qed.
Lemma p_left v t : (t < n)%nat -> mvmul n P (mvmul n M v) t = v t.
Proof. intros Ht. refine (solves_unique n M _ _ (mvmul n M v) HM (HI _) _ t Ht). intros i Hi. reflexivity. Qed.
Lemma res_split b x t : (t < n)%nat -> mvmul n P (residual_of n a b x) t = mvmul n P b t - pa x t.
Proof. intros Ht. unfold residual_of, pa. exact (mvmul_sub n P b (mvmul n a x) t). Qed.
Lemma res_nrm b x : nrm n (mvmul n P (residual_of n a b x)) = nrm n (fun t => mvmul n P b t - pa x t).
Proof. apply nrm_ext. intros t Ht. now apply res_split. Qed.

Lemma result_reached b tol x : gmres_result n pa (mvmul n P b) tol x -> exists k, reached_in n a P b tol k x.
Proof.
  intros (k & Hk & Hx & Hr & Hb & Hf). exists k. split; [exact Hk|]. split; [|split].
  - split; [exact Hx|]. intros y Hy. rewrite !res_nrm. now apply Hb.
  - now rewrite res_nrm.
  - intros i y Hi Hy. rewrite res_nrm. now apply (Hf i).
Qed.

Lemma krylov_rate b rho m : 0 <= rho -> shrinks n a M rho -> exists z, inspan n m (kvec pa (mvmul n P b)) z /\
  nrm n (mvmul n P (residual_of n a b z)) <= rho ^ m * nrm n (mvmul n P b).
Proof.
  intros Hr Hs.
  destruct (shrink n pa (mvmul n P b) pa_e pa_l rho Hr (fun v => Hs v (pa v) (pa_solves v)) m) as (z & Hz & Hn).
  exists z. split; [exact Hz|]. now rewrite res_nrm.
Qed.
Lemma differ_span rows v : rows_differ n a M rows ->
  inspan n (length rows) (fun l i => P i (nth l rows 0%nat)) (fun t => v t - pa v t).
Proof.
  intros Hd. pose (y := fun i => mvmul n M v i - mvmul n a v i).
  assert (Y : forall i, (i < n)%nat -> ~ In i rows -> y i = 0).
  { intros i Hi N. unfold y. rewrite (mvmul_ext n M a v v i); [ring| |reflexivity]. intros k Hk. now apply Hd. }
  apply (inspan_ext n _ _ (comb n y (fun i t => if in_dec Nat.eq_dec i rows then P t i else 0))).
  - intros t Ht. transitivity (mvmul n P y t).
    + unfold comb, mvmul. apply bsum_ext. intros i Hi. cbn. destruct (in_dec Nat.eq_dec i rows) as [|N]; [ring|]. rewrite (Y i Hi N). ring.
    + transitivity (mvmul n P (mvmul n M v) t - pa v t); [exact (mvmul_sub n P (mvmul n M v) (mvmul n a v) t)|]. now rewrite p_left.
  - apply inspan_comb. intros i Hi. destruct (in_dec Nat.eq_dec i rows) as [I|N]; [|apply inspan_zero].
    destruct (In_nth rows i 0%nat I) as (l & Hl & E).
    apply (inspan_ext n _ _ (fun t => P t (nth l rows 0%nat))); [intros; now rewrite E|].
    exact (inspan_gen n (length rows) (fun l i => P i (nth l rows 0%nat)) l Hl).
Qed.
Lemma krylov_rows b rows m : rows_differ n a M rows -> (length rows < m)%nat -> exists z, inspan n m (kvec pa (mvmul n P b)) z /\
  nrm n (mvmul n P (residual_of n a b z)) = 0.
Proof.
  intros Hd Hk.
  destruct (low_rank n pa (mvmul n P b) pa_e pa_l pa_i (length rows) _ (fun v => differ_span rows v Hd)) as (z & Hz & Ez).
  exists z. split; [eapply inspan_le; [|exact Hz]; lia|]. rewrite res_nrm. apply nrm_zero_iff.
  intros t Ht. rewrite Ez by exact Ht. ring.
Qed.

(** The bounds on a result reached in k steps. *)
Lemma reached_rate b tol k x rho : 0 <= rho -> shrinks n a M rho -> reached_in n a P b tol k x ->
  nrm n (mvmul n P (residual_of n a b x)) <= rho ^ k * nrm n (mvmul n P b) /\
  forall m, (1 <= m)%nat -> rho ^ m * nrm n (mvmul n P b) < tol -> (k <= m)%nat.
Proof.
  intros Hr Hs (Hk & (_ & Hb) & _ & Hf). split.
  - destruct (krylov_rate b rho k Hr Hs) as (z & Hz & Hn). eapply Rle_trans; [now apply (Hb z)|exact Hn].
  - intros m Hm Ht. destruct (le_lt_dec k m) as [|L]; [assumption|]. exfalso.
    destruct (krylov_rate b rho m Hr Hs) as (z & Hz & Hn). pose proof (Hf m z ltac:(lia) Hz). lra.
Qed.
Lemma reached_rows b tol k x rows : 0 < tol -> rows_differ n a M rows -> reached_in n a P b tol k x -> (k <= S (length rows))%nat.
Proof.
  intros Ht Hd (Hk & _ & _ & Hf). destruct (le_lt_dec k (S (length rows))) as [|L]; [assumption|]. exfalso.
  destruct (krylov_rows b rows (S (length rows)) Hd ltac:(lia)) as (z & Hz & Hn). pose proof (Hf (S (length rows)) z ltac:(lia) Hz). lra.
Qed.
End Result.

(** Two sufficient conditions: the preconditioned matrix is close to the identity, or its symmetric
    part is positive definite. *)
Lemma near_identity_shrinks n a M rho :
  (forall v z, solves n M z (mvmul n a v) -> nrm n (fun t => v t - z t) <= rho * nrm n v) -> shrinks n a M rho.
Proof.
  intros H v z Hz. exists 1. rewrite (nrm_ext n _ (fun t => v t - z t)); [now apply H|]. intros t Ht. ring.
Qed.
Lemma definite_part_shrinks n a M P c C : inverse_of n M P -> nonsingular n M -> 0 < c <= C ->
  (forall v z, solves n M z (mvmul n a v) -> c * (nrm n v * nrm n v) <= dotp n v z /\ nrm n z <= C * nrm n v) ->
  shrinks n a M (R_sqrt.sqrt (1 - c / C * (c / C))).
Proof.
  intros HI HM Hc H v z Hz. exists (c / (C * C)).
  assert (E : veq n z (mvmul n P (mvmul n a v))) by (intros t Ht; exact (solves_unique n M _ _ _ HM Hz (HI _) t Ht)).
  rewrite (nrm_ext n _ (fun t => v t - c / (C * C) * mvmul n P (mvmul n a v) t)); [|intros t Ht; now rewrite E].
  apply (definite_shrinks n (fun v => mvmul n P (mvmul n a v)) c C Hc).
  - intros u. rewrite <- nrm_sqr. apply (H u _ (HI _)).
  - intros u. apply (H u _ (HI _)).
Qed.

(** ** The code *)

Theorem C97_dense : forall dbg isqrt n A b tol (h : heap R) G h1, isqrt_exact isqrt -> (0 < n)%nat -> fits_u32 n = true ->
  ismat h A n n -> isvec h b n -> nonsingular n (mget h A) -> nonzero n (rd h b) -> 0 < tol ->
  gmres_dyn_new A h = Ok G h1 -> (forall i, (i < n)%nat -> mget h1 (snd G) i i <> 0) ->
  let M := mmmul n (lfac (mget h1 (snd G))) (ufac (mget h1 (snd G))) in
  exists x h2 P k, gmres_dyn_solve dbg isqrt G tol b h1 = Ok x h2 /\ newvec h1 h2 x n (rd h2 x) /\ inverse_of n M P /\
    reached_in n (mget h A) P (rd h b) tol k (rd h2 x) /\
    (forall rho, 0 <= rho -> shrinks n (mget h A) M rho ->
      nrm n (mvmul n P (residual_of n (mget h A) (rd h b) (rd h2 x))) <= rho ^ k * nrm n (mvmul n P (rd h b)) /\
      forall m, (1 <= m)%nat -> rho ^ m * nrm n (mvmul n P (rd h b)) < tol -> (k <= m)%nat) /\
    (forall rows, rows_differ n (mget h A) M rows -> (k <= S (length rows))%nat).
Proof.
  intros dbg isqrt n A b tol h G h1 Hsq Hpos Hf HA Hb HN Hz Ht E Hd M.
  destruct (C48_dense dbg isqrt n A b tol h G h1 Hsq Hpos Hf HA Hb HN Hz Ht E Hd) as (_ & x & h2 & E2 & V & _ & P & I & Rs).
  assert (HM : nonsingular n M) by (now apply lu_nonsingular).
  destruct (result_reached n (mget h A) P (rd h b) tol (rd h2 x) Rs) as (k & Hk).
  exists x, h2, P, k. split; [exact E2|]. split; [exact V|]. split; [exact I|]. split; [exact Hk|]. split.
  - intros rho Hr Hs. exact (reached_rate n (mget h A) M P I (rd h b) tol k (rd h2 x) rho Hr Hs Hk).
  - intros rows Hw. exact (reached_rows n (mget h A) M P I HM HN (rd h b) tol k (rd h2 x) rows Ht Hw Hk).
Qed.

Theorem C97_sparse : forall dbg isqrt n A a b tol (h : heap R) G, isqrt_exact isqrt -> (0 < n)%nat -> fits_u32 n = true ->
  csr_wf A n -> csr_shape A tt = Ok (n, n) tt -> distinct (csr_entries A n) -> reads_as A n a ->
  isvec h b n -> nonsingular n a -> nonzero n (rd h b) -> 0 < tol ->
  gmres_csr_new A h = Ok G h ->
  exists f, reads_as (snd G) n f /\ ilu0 n n a f /\
  ((forall i, (i < n)%nat -> f i i <> 0) ->
  let M := mmmul n (lfac f) (ufac f) in
  exists x h2 P k, gmres_csr_solve dbg isqrt G tol b h = Ok x h2 /\ newvec h h2 x n (rd h2 x) /\ inverse_of n M P /\
    reached_in n a P (rd h b) tol k (rd h2 x) /\
    (forall rho, 0 <= rho -> shrinks n a M rho ->
      nrm n (mvmul n P (residual_of n a (rd h b) (rd h2 x))) <= rho ^ k * nrm n (mvmul n P (rd h b)) /\
      forall m, (1 <= m)%nat -> rho ^ m * nrm n (mvmul n P (rd h b)) < tol -> (k <= m)%nat) /\
    (forall rows, rows_differ n a M rows -> (k <= S (length rows))%nat)).
Proof.
  intros dbg isqrt n A a b tol h G Hsq Hpos Hf WA SA DA RA Hb HN Hz Ht E.
  destruct (C48_sparse dbg isqrt n A a b tol h G Hsq Hpos Hf WA SA DA RA Hb HN Hz Ht E) as (_ & f & RF & D & S).
  exists f. split; [exact RF|]. split; [exact D|]. intros Hd M.
  destruct (S Hd) as (x & h2 & E2 & V & _ & P & I & Rs).
  assert (HM : nonsingular n M) by (now apply lu_nonsingular).
  destruct (result_reached n a P (rd h b) tol (rd h2 x) Rs) as (k & Hk).
  exists x, h2, P, k. split; [exact E2|]. split; [exact V|]. split; [exact I|]. split; [exact Hk|]. split.
  - intros rho Hr Hs. exact (reached_rate n a M P I (rd h b) tol k (rd h2 x) rho Hr Hs Hk).
  - intros rows Hw. exact (reached_rows n a M P I HM HN (rd h b) tol k (rd h2 x) rows Ht Hw Hk).
Qed.

(** Positive definite symmetric part of the preconditioned matrix. *)
Theorem C97_definite : forall n f a c C, (forall i, (i < n)%nat -> f i i <> 0) -> 0 < c <= C ->
  let M := mmmul n (lfac f) (ufac f) in
  (forall v z, solves n M z (mvmul n a v) -> c * (nrm n v * nrm n v) <= dotp n v z /\ nrm n z <= C * nrm n v) ->
  shrinks n a M (R_sqrt.sqrt (1 - c / C * (c / C))).
Proof.
  intros n f a c C Hd Hc M H. destruct (dense_inverse n f Hd) as (P & I & N & _).
  now apply (definite_part_shrinks n a M P c C I N Hc).
Qed.

(** When no fill-in is dropped one step is taken, and its result is the solution. *)
Lemma closed_exact n a f P b tol k x : closed_pattern n a -> ilu0 n n a f -> nonsingular n a ->
  inverse_of n (mmmul n (lfac f) (ufac f)) P -> (forall i, (i < n)%nat -> f i i <> 0) -> reached_in n a P b tol k x -> solves n a x b.
Proof.
  intros C D HN I Hd Hk. set (M := mmmul n (lfac f) (ufac f)) in *.
  assert (W : rows_differ n a M []) by (intros i j Hi Hj _; now apply (ilu0_exact n n _ _ (le_n n) C D)).
  assert (HM : nonsingular n M) by (now apply lu_nonsingular).
  destruct Hk as (Hk & (_ & Hb2) & _).
  destruct (krylov_rows n a M P I HM HN b [] k W ltac:(cbn; lia)) as (z & Hz2 & Ez).
  assert (Z : nrm n (mvmul n P (residual_of n a b x)) = 0).
  { apply Rle_antisym; [|apply nrm_nonneg]. rewrite <- Ez. now apply Hb2. }
  pose proof (proj1 (nrm_zero_iff n _) Z) as Zt. intros i Hi.
  pose proof (inverse_nonsingular n M P I _ Zt i Hi) as Q. unfold residual_of in Q.
  symmetry. apply Rminus_diag_uniq. exact Q.
Qed.
Theorem C97_dense_closed : forall dbg isqrt n A b tol (h : heap R) G h1, isqrt_exact isqrt -> (0 < n)%nat -> fits_u32 n = true ->
  ismat h A n n -> isvec h b n -> nonsingular n (mget h A) -> nonzero n (rd h b) -> 0 < tol ->
  closed_pattern n (mget h A) -> gmres_dyn_new A h = Ok G h1 ->
  exists x h2, gmres_dyn_solve dbg isqrt G tol b h1 = Ok x h2 /\ newvec h1 h2 x n (rd h2 x) /\ solves n (mget h A) (rd h2 x) (rd h b).
Proof.
  intros dbg isqrt n A b tol h G h1 Hsq Hpos Hf HA Hb HN Hz Ht C E.
  destruct (dense_new n A h G h1 HA Hf E) as (HG & D & X).
  assert (Hd : forall i, (i < n)%nat -> mget h1 (snd G) i i <> 0) by (now apply (exact_pivots n (mget h A) _ C D)).
  destruct (C97_dense dbg isqrt n A b tol h G h1 Hsq Hpos Hf HA Hb HN Hz Ht E Hd) as (x & h2 & P & k & E2 & V & I & Hk & _ & Hr).
  exists x, h2. split; [exact E2|]. split; [exact V|].
  exact (closed_exact n (mget h A) _ P (rd h b) tol k (rd h2 x) C D HN I Hd Hk).
Qed.
Theorem C97_sparse_closed : forall dbg isqrt n A a b tol (h : heap R) G, isqrt_exact isqrt -> (0 < n)%nat -> fits_u32 n = true ->
  csr_wf A n -> csr_shape A tt = Ok (n, n) tt -> distinct (csr_entries A n) -> reads_as A n a ->
  isvec h b n -> nonsingular n a -> nonzero n (rd h b) -> 0 < tol -> closed_pattern n a -> gmres_csr_new A h = Ok G h ->
  exists x h2, gmres_csr_solve dbg isqrt G tol b h = Ok x h2 /\ newvec h h2 x n (rd h2 x) /\ solves n a (rd h2 x) (rd h b).
Proof.
  intros dbg isqrt n A a b tol h G Hsq Hpos Hf WA SA DA RA Hb HN Hz Ht C E.
  destruct (C97_sparse dbg isqrt n A a b tol h G Hsq Hpos Hf WA SA DA RA Hb HN Hz Ht E) as (f & RF & D & S).
  assert (Hd : forall i, (i < n)%nat -> f i i <> 0) by (now apply (exact_pivots n a _ C D)).
  destruct (S Hd) as (x & h2 & P & k & E2 & V & I & Hk & _).
  exists x, h2. split; [exact E2|]. split; [exact V|].
  exact (closed_exact n a f P (rd h b) tol k (rd h2 x) C D HN I Hd Hk).
Qed.

(** The loop itself: once the bound is below the tolerance the stopping test has succeeded. *)
Theorem C97_dense_stops : forall dbg isqrt n (h1 : heap R) G a f b tol m, isqrt_exact isqrt -> (0 < n)%nat -> fits_u32 n = true ->
  dense_solver h1 G n a f -> nonsingular n a -> (forall i, (i < n)%nat -> f i i <> 0) ->
  isvec h1 b n -> nonzero n (rd h1 b) -> 0 < tol -> (1 <= m <= n)%nat ->
  let M := mmmul n (lfac f) (ufac f) in
  (exists rho z, 0 <= rho /\ shrinks n a M rho /\ solves n M z (rd h1 b) /\ rho ^ m * nrm n z < tol) \/
  (exists rows, rows_differ n a M rows /\ (length rows < m)%nat) ->
  exists g h2, bind (gmres_init isqrt (ilu_dyn_solve (snd G)) b)
      (for_u32 0 m (fun _ g => gmres_step dbg (op_mulv dbg (fst G)) (ilu_dyn_solve (snd G)) tol g)) h1 = Ok g h2 /\
    exists k, (1 <= k <= m)%nat /\ length (gbeta g) = (k + 1)%nat /\ Rabs (nth k (gbeta g) 0) < tol.
Proof.
  intros dbg isqrt n h1 G a f b tol m Hsq Hpos Hf HG HA Hd Hb Hz Ht Hm M Hc.
  assert (HM : nonsingular n M) by (now apply lu_nonsingular).
  destruct (C47_dense_estimate dbg isqrt n h1 G a f b tol m Hsq Hpos Hf HG HA Hd Hb Hz Ht Hm) as (P & g & h2 & I & E & k & Hk & Lk & T & (_ & Lr)).
  exists g, h2. split; [exact E|]. exists k. split; [exact Hk|]. split; [exact Lk|].
  destruct T as [->|T]; [|exact T]. destruct Hc as [(rho & z & Hr & Hs & Hz2 & B)|(rows & Hw & L)].
  - destruct (krylov_rate n a M P I (rd h1 b) rho m Hr Hs) as (y & Hy & Hn).
    eapply Rle_lt_trans; [apply (Lr y Hy)|]. rewrite <- (res_nrm n a P). eapply Rle_lt_trans; [exact Hn|].
    rewrite (nrm_ext n _ z); [exact B|]. intros t Hth. exact (solves_unique n M _ _ _ HM (I _) Hz2 t Hth).
  - destruct (krylov_rows n a M P I HM HA (rd h1 b) rows m Hw L) as (y & Hy & Hn).
    eapply Rle_lt_trans; [apply (Lr y Hy)|]. rewrite <- (res_nrm n a P). lra.
Qed.
Theorem C97_sparse_stops : forall dbg isqrt n A F a f b tol (h1 : heap R) m, isqrt_exact isqrt -> (0 < n)%nat -> fits_u32 n = true ->
  csr_wf A n -> csr_shape A tt = Ok (n, n) tt -> distinct (csr_entries A n) -> reads_as A n a -> nonsingular n a ->
  csr_wf F n -> reads_as F n f -> (forall i, (i < n)%nat -> f i i <> 0) ->
  isvec h1 b n -> nonzero n (rd h1 b) -> 0 < tol -> (1 <= m <= n)%nat ->
  let M := mmmul n (lfac f) (ufac f) in
  (exists rho z, 0 <= rho /\ shrinks n a M rho /\ solves n M z (rd h1 b) /\ rho ^ m * nrm n z < tol) \/
  (exists rows, rows_differ n a M rows /\ (length rows < m)%nat) ->
  exists g h2, bind (gmres_init isqrt (ilu_csr_solve F) b)
      (for_u32 0 m (fun _ g => gmres_step dbg (sp_op_mul dbg A) (ilu_csr_solve F) tol g)) h1 = Ok g h2 /\
    exists k, (1 <= k <= m)%nat /\ length (gbeta g) = (k + 1)%nat /\ Rabs (nth k (gbeta g) 0) < tol.
Proof.
  intros dbg isqrt n A F a f b tol h1 m Hsq Hpos Hf WA SA DA RA HA WF RF Hd Hb Hz Ht Hm M Hc.
  assert (HM : nonsingular n M) by (now apply lu_nonsingular).
  destruct (C47_sparse_estimate dbg isqrt n A F a f b tol h1 m Hsq Hpos Hf WA SA DA RA HA WF RF Hd Hb Hz Ht Hm) as (P & g & h2 & I & E & k & Hk & Lk & T & (_ & Lr)).
  exists g, h2. split; [exact E|]. exists k. split; [exact Hk|]. split; [exact Lk|].
  destruct T as [->|T]; [|exact T]. destruct Hc as [(rho & z & Hr & Hs & Hz2 & B)|(rows & Hw & L)].
  - destruct (krylov_rate n a M P I (rd h1 b) rho m Hr Hs) as (y & Hy & Hn).
    eapply Rle_lt_trans; [apply (Lr y Hy)|]. rewrite <- (res_nrm n a P). eapply Rle_lt_trans; [exact Hn|].
    rewrite (nrm_ext n _ z); [exact B|]. intros t Hth. exact (solves_unique n M _ _ _ HM (I _) Hz2 t Hth).
  - destruct (krylov_rows n a M P I HM HA (rd h1 b) rows m Hw L) as (y & Hy & Hn).
    eapply Rle_lt_trans; [apply (Lr y Hy)|]. rewrite <- (res_nrm n a P). lra.
Qed.

(** ** A concrete case: fill-in is dropped in one row of three, so that two steps suffice, and each
    step gains at least a factor two. *)
Definition VH : heap R := heap_of [[4; 1; 1;  1; 4; 0;  0; 0; 4]; [1; 2; 3]].
Definition VA : mat := mkMat 0%nat 3%nat 3%nat.
Ltac vcases := unfold mget, rd; cbn; lra.
Lemma VA_dominant : strictly_dominant 3 (mget VH VA).
Proof.
  intros [|[|[|i]]] Hi; try lia; cbn; unfold mget, rd; cbn; rewrite ?Rabs_R0; repeat (rewrite Rabs_pos_eq by lra); lra.
Qed.
Lemma VA_factors f : ilu0 3 3 (mget VH VA) f ->
  let M := mmmul 3 (lfac f) (ufac f) in
  M 1%nat 0%nat = 1 /\ M 1%nat 1%nat = 4 /\ M 1%nat 2%nat = 1 / 4 /\
  (forall i j, (i < 3)%nat -> (j < 3)%nat -> i <> 1%nat -> M i j = mget VH VA i j).
Proof.
  intros D M.
  assert (E : forall i j, (i < 3)%nat -> (j < 3)%nat -> mget VH VA i j <> 0 -> M i j = mget VH VA i j).
  { intros i j Hi Hj N. now apply (D i j Hi Hj). }
  assert (Z : forall i j, (i < 3)%nat -> (j < 3)%nat -> mget VH VA i j = 0 -> f i j = 0).
  { intros i j Hi Hj N. now apply (D i j Hi Hj). }
  assert (F12 : f 1%nat 2%nat = 0) by (apply Z; [lia|lia|vcases]).
  assert (F20 : f 2%nat 0%nat = 0) by (apply Z; [lia|lia|vcases]).
  assert (F21 : f 2%nat 1%nat = 0) by (apply Z; [lia|lia|vcases]).
  pose proof (E 0 0 ltac:(lia) ltac:(lia) ltac:(vcases))%nat as E00.
  pose proof (E 0 2 ltac:(lia) ltac:(lia) ltac:(vcases))%nat as E02.
  pose proof (E 1 0 ltac:(lia) ltac:(lia) ltac:(vcases))%nat as E10.
  pose proof (E 1 1 ltac:(lia) ltac:(lia) ltac:(vcases))%nat as E11.
  split; [rewrite E10; reflexivity|]. split; [rewrite E11; reflexivity|].
  assert (G00 : f 0%nat 0%nat = 4) by (revert E00; unfold M, mmmul, lfac, ufac, mget, rd; cbn; lra).
  assert (G02 : f 0%nat 2%nat = 1) by (revert E02; unfold M, mmmul, lfac, ufac, mget, rd; cbn; lra).
  assert (G10 : f 1%nat 0%nat = 1 / 4) by (revert E10; unfold M, mmmul, lfac, ufac, mget, rd; cbn; rewrite G00; lra).
  split; [unfold M, mmmul, lfac, ufac; cbn; rewrite G10, G02, F12; lra|].
  intros [|[|[|i]]] [|[|[|j]]] Hi Hj N; try lia; try (apply E; [lia|lia|vcases]); unfold M, mmmul, lfac, ufac, mget, rd; cbn; rewrite ?F20, ?F21; lra.
Qed.
Lemma VA_rows f : ilu0 3 3 (mget VH VA) f -> rows_differ 3 (mget VH VA) (mmmul 3 (lfac f) (ufac f)) [1%nat].
Proof.
  intros D i j Hi Hj N. destruct (VA_factors f D) as (_ & _ & _ & E). apply E; auto. intros ->. apply N. now left.
Qed.
Lemma VA_shrinks f : ilu0 3 3 (mget VH VA) f -> shrinks 3 (mget VH VA) (mmmul 3 (lfac f) (ufac f)) (1 / 2).
Proof.
  intros D. destruct (VA_factors f D) as (E10 & E11 & E12 & E). apply near_identity_shrinks. intros v z Hz.
  pose proof (Hz 0%nat ltac:(lia)) as S0. pose proof (Hz 1%nat ltac:(lia)) as S1. pose proof (Hz 2%nat ltac:(lia)) as S2.
  unfold mvmul in S0, S1, S2. cbn [bsum] in S0, S1, S2. rewrite E10, E11, E12 in S1.
  rewrite !E in S0 by lia. rewrite !E in S2 by lia. unfold mget, rd in S0, S1, S2. cbn in S0, S1, S2.
  apply Rsqr_incr_0; [|apply nrm_nonneg|apply Rmult_le_pos; [lra|apply nrm_nonneg]].
  unfold Rsqr. rewrite nrm_sqr. replace (1 / 2 * nrm 3 v * (1 / 2 * nrm 3 v)) with (1 / 4 * (nrm 3 v * nrm 3 v)) by field.
  rewrite nrm_sqr. unfold dotp. cbn.
  assert (Z2 : z 2%nat = v 2%nat) by lra. assert (Z1 : v 1%nat - z 1%nat = v 2%nat / 15) by lra. assert (Z0 : v 0%nat - z 0%nat = - v 2%nat / 60) by lra.
  rewrite Z0, Z1, Z2. nra.
Qed.
Example C97_nonvacuous : ismat VH VA 3 3 /\ isvec VH 1%nat 3%nat /\ nonsingular 3 (mget VH VA) /\ nonzero 3 (rd VH 1%nat) /\
  ~ closed_pattern 3 (mget VH VA) /\
  exists G h1, gmres_dyn_new VA VH = Ok G h1 /\ (forall i, (i < 3)%nat -> mget h1 (snd G) i i <> 0) /\
    let M := mmmul 3 (lfac (mget h1 (snd G))) (ufac (mget h1 (snd G))) in
    shrinks 3 (mget VH VA) M (1 / 2) /\ rows_differ 3 (mget VH VA) M [1%nat].
Proof.
  assert (HM : ismat VH VA 3 3) by (repeat split; cbn; lia).
  split; [exact HM|]. split; [repeat split; cbn; lia|].
  assert (GD : gen_dominant 3 (mget VH VA)) by (apply strictly_gen, VA_dominant).
  split; [now apply gen_nonsingular|]. split. { exists 0%nat. split; [lia|]. unfold rd. cbn. lra. }
  split. { intros C. apply (C 1%nat 2%nat 0%nat); try lia; unfold mget, rd; cbn; lra. }
  destruct GD as [d SD].
  assert (exists G h1, gmres_dyn_new VA VH = Ok G h1) as (G & h1 & E).
  { unfold gmres_dyn_new, bind.
    destruct (post_ok _ _ _ (copy_ok VA 3 3 VH HM)) as (m & h' & Ec & (X1 & _) & _). rewrite Ec.
    assert (EA : mget h' VA = mget VH VA) by (unfold mget, rd; destruct X1 as [_ ->]; [reflexivity|cbn; lia]).
    assert (HM' : ismat h' VA 3 3) by (eapply ext_ismat; eauto).
    destruct (C74_ilu_dense 3 d VA h' HM' eq_refl ltac:(now rewrite EA)) as (F & h2 & E2 & _). rewrite E2. eexists. eexists. reflexivity. }
  exists G, h1. split; [exact E|]. destruct (dense_new 3 VA VH G h1 HM eq_refl E) as (_ & D & _).
  split. { intros i Hi. apply (udom_pivot 3 d _ (proj1 SD)); [exact Hi|]. apply (dominant_rows 3 d (mget VH VA) _ (proj1 SD) 3); auto. }
  split; [now apply VA_shrinks|now apply VA_rows].
Qed.
(** The condition of [C97_definite] holds for the same matrix, with c = 1/2 and C = 2. *)
Example C97_nonvacuous_definite : forall f, ilu0 3 3 (mget VH VA) f ->
  forall v z, solves 3 (mmmul 3 (lfac f) (ufac f)) z (mvmul 3 (mget VH VA) v) ->
  1 / 2 * (nrm 3 v * nrm 3 v) <= dotp 3 v z /\ nrm 3 z <= 2 * nrm 3 v.
Proof.
  intros f D v z Hz. destruct (VA_factors f D) as (E10 & E11 & E12 & E).
  pose proof (Hz 0%nat ltac:(lia)) as S0. pose proof (Hz 1%nat ltac:(lia)) as S1. pose proof (Hz 2%nat ltac:(lia)) as S2.
  unfold mvmul in S0, S1, S2. cbn [bsum] in S0, S1, S2. rewrite E10, E11, E12 in S1.
  rewrite !E in S0 by lia. rewrite !E in S2 by lia. unfold mget, rd in S0, S1, S2. cbn in S0, S1, S2.
  assert (Z2 : z 2%nat = v 2%nat) by lra. assert (Z1 : z 1%nat = v 1%nat - v 2%nat / 15) by lra. assert (Z0 : z 0%nat = v 0%nat + v 2%nat / 60) by lra.
  split.
  - rewrite nrm_sqr. unfold dotp. cbn. rewrite Z0, Z1, Z2.
    pose proof (Rle_0_sqr (v 0%nat + v 2%nat / 60)) as Q0. pose proof (Rle_0_sqr (v 1%nat - v 2%nat / 15)) as Q1.
    pose proof (Rle_0_sqr (v 2%nat)) as Q4. unfold Rsqr in *. lra.
  - apply Rsqr_incr_0; [|apply nrm_nonneg|apply Rmult_le_pos; [lra|apply nrm_nonneg]].
    unfold Rsqr. rewrite nrm_sqr. replace (2 * nrm 3 v * (2 * nrm 3 v)) with (4 * (nrm 3 v * nrm 3 v)) by ring.
    rewrite nrm_sqr. unfold dotp. cbn. rewrite Z0, Z1, Z2.
    pose proof (Rle_0_sqr (v 0%nat - v 2%nat / 60)) as Q0. pose proof (Rle_0_sqr (v 1%nat + v 2%nat / 15)) as Q1.
    pose proof (Rle_0_sqr (v 0%nat)) as Q2. pose proof (Rle_0_sqr (v 1%nat)) as Q3. pose proof (Rle_0_sqr (v 2%nat)) as Q4. unfold Rsqr in *. lra.
Qed.

Print Assumptions C97_dense.
Print Assumptions C97_sparse.
Print Assumptions C97_definite.
Print Assumptions C97_dense_closed.
Print Assumptions C97_dense_stops.
Print Assumptions C97_sparse_closed.
Print Assumptions C97_sparse_stops.
