(** * Properties C47-C49: GMRES *)
From Coq Require Import Lia Reals Lra List Floats.
From Verif Require Import Base Scalar BaseLemmas Spec Sums SpecMat RealVec ModelVec ModelMat ProofMatOps ProofMatProp FloatSqrt ProofCholMath
  ModelSparse SpecSparse ProofSparse PropSpmv ModelIter ProofIlu PropChol PropCholSolve PropIlu PropCgs ProofGmresRun ProofGmresMath ProofGmres.
Import ListNotations.
Local Open Scope R_scope.

(** ** Inverses *)
Definition inverse_of (n : nat) (M P : nat -> nat -> R) : Prop := forall v, solves n M (mvmul n P v) v.

Lemma unit_lower_solve n f b : exists x : nat -> R, solves n (lfac f) x b.
Proof.
  assert (H : forall m, exists x : nat -> R, forall i, (i < m)%nat -> bsum i (fun k => f i k * x k) + x i = b i).
  { induction m as [|m [x Hx]]; [exists (fun _ => 0); intros; lia|].
    exists (fun i => if Nat.eqb i m then b m - bsum m (fun k => f m k * x k) else x i). intros i Hi.
    rewrite (bsum_ext i (fun k => f i k * (if Nat.eqb k m then _ else x k)) (fun k => f i k * x k)).
    2: { intros k Hk. destruct (Nat.eqb_spec k m); [lia|reflexivity]. }
    destruct (Nat.eqb_spec i m) as [->|Ne]; [cbn; ring|]. apply Hx. lia. }
  destruct (H n) as [x Hx]. exists x. intros i Hi. rewrite <- (Hx i Hi). unfold mvmul.
  rewrite (bsum_trunc n (S i) _).
  - rewrite rs_S. cbn [mul ROps]. unfold lfac at 2. rewrite Nat.eqb_refl. f_equal; [|cbn; ring].
    apply bsum_ext. intros k Hk. unfold lfac. destruct (Nat.eqb_spec i k); [lia|]. destruct (Nat.ltb_spec k i); [reflexivity|lia].
  - lia.
  - intros k Hk. unfold lfac. destruct (Nat.eqb_spec i k); [lia|]. destruct (Nat.ltb_spec k i); [lia|]. cbn; ring.
Qed.
Lemma lu_solve n f b : (forall i, (i < n)%nat -> f i i <> 0) -> exists x, solves n (mmmul n (lfac f) (ufac f)) x b.
Proof.
  intros Hd. destruct (unit_lower_solve n f b) as [y Hy].
  destruct (upper_solve n (ufac f) y) as [x Hx].
  { apply ufac_upper. } { intros i Hi. rewrite ufac_in by lia. now apply Hd. }
  exists x. intros i Hi. rewrite <- (Hy i Hi). rewrite mvmul_assoc. now apply mvmul_ext.
Qed.
Lemma inverse_exists n (M : nat -> nat -> R) : (forall b, exists x, solves n M x b) -> exists P, inverse_of n M P.
Proof.
  intros H.
  assert (C : forall m, exists P : nat -> nat -> R, forall j, (j < m)%nat -> solves n M (fun i => P i j) (fun i => Id i j)).
  { induction m as [|m [P HP]]; [exists (fun _ _ => 0); intros; lia|].
    destruct (H (fun i => Id i m)) as [x Hx].
    exists (fun i j => if Nat.eqb j m then x i else P i j). intros j Hj. destruct (Nat.eqb_spec j m) as [->|]; [exact Hx|].
    apply HP. lia. }
  destruct (C n) as [P HP]. exists P. intros v i Hi. rewrite <- mvmul_assoc.
  transitivity (bsum n (fun j => Id i j * v j)).
  { unfold mvmul. apply bsum_ext. intros j Hj. pose proof (HP j Hj i Hi) as E. cbn. f_equal. exact E. }
  rewrite (rs_single n (fun j => Id i j * v j) i Hi).
  - unfold Id. rewrite Nat.eqb_refl. cbn; ring.
  - intros j Hj Hne. unfold Id. destruct (Nat.eqb_spec i j); [congruence|]. cbn; ring.
Qed.
Lemma inverse_nonsingular n M P : inverse_of n M P -> nonsingular n P.
Proof.
  intros I x H i Hi. rewrite <- (I x i Hi). unfold mvmul at 1. apply Rbsum_zero. intros j Hj. rewrite H by exact Hj. cbn; ring.
Qed.
Lemma mvmul_lin n (A : nat -> nat -> R) m y X t : mvmul n A (comb m y X) t = comb m y (fun l => mvmul n A (X l)) t.
Proof.
  unfold mvmul, comb. cbn [mul ROps].
  transitivity (bsum n (fun k => bsum m (fun l => A t k * (y l * X l k)))); [apply bsum_ext; intros; now rewrite <- rs_scal|].
  rewrite rs_swap. apply bsum_ext. intros l Hl. rewrite <- rs_scal. apply bsum_ext. intros; cbn; ring.
Qed.

(** ** The result, for any product and preconditioner given by matrices *)
Section Any.
Variables (dbg : bool) (isqrt : nat -> nat) (nrow : M (heap R) nat) (mulv lu : ptr -> M (heap R) ptr).
Variables (n : nat) (h0 : heap R) (a P : nat -> nat -> R).
Hypothesis Hpos : (0 < n)%nat.
Hypothesis Hfit : fits_u32 n = true.
Hypothesis Hmul : applies n h0 mulv (mvmul n a).
Hypothesis Hlu : applies n h0 lu (mvmul n P).
Hypothesis Hsq : isqrt_exact isqrt.
Hypothesis Hrow : forall h, nrow h = Ok n h.
Hypothesis HA : nonsingular n a.
Hypothesis HP : nonsingular n P.

Let pa x := mvmul n P (mvmul n a x).
Lemma mv_ext_mv (A : nat -> nat -> R) : mv_ext n (mvmul n A).
Proof. intros x y E t Ht. now apply mvmul_ext. Qed.
Lemma pa_lin m y X t : (t < n)%nat -> pa (comb m y X) t = comb m y (fun l => pa (X l)) t.
Proof. intros Ht. unfold pa. rewrite <- mvmul_lin. apply mvmul_ext; [reflexivity|]. intros k Hk. apply mvmul_lin. Qed.
Lemma pa_inj x : (forall t, (t < n)%nat -> pa x t = 0) -> forall t, (t < n)%nat -> x t = 0.
Proof. intros H. apply HA. apply HP. exact H. Qed.
Lemma p_nonzero b : nonzero n b -> nonzero n (mvmul n P b).
Proof.
  intros (i & Hi & Hb). destruct (Classical_Prop.classic (nonzero n (mvmul n P b))) as [|N]; [assumption|].
  exfalso. apply Hb. apply (HP b); [|exact Hi]. now apply not_nonzero.
Qed.
Lemma any_run tol rhs : 0 < tol -> isvec h0 rhs n -> nonzero n (rd h0 rhs) ->
  exists x h', gmres_solve dbg isqrt nrow mulv lu tol rhs h0 = Ok x h' /\ newvec h0 h' x n (rd h' x) /\
    gmres_result n pa (mvmul n P (rd h0 rhs)) tol (rd h' x).
Proof.
  intros Ht Hr Hz. apply post_ok.
  apply (gmres_run dbg isqrt nrow mulv lu n h0 (mvmul n a) (mvmul n P)); auto using mv_ext_mv, pa_lin, pa_inj, p_nonzero.
Qed.
Lemma any_estimates tol m rhs : 0 < tol -> (1 <= m <= n)%nat -> isvec h0 rhs n -> nonzero n (rd h0 rhs) ->
  exists g h', bind (gmres_init isqrt lu rhs) (for_u32 0 m (fun _ g => gmres_step dbg mulv lu tol g)) h0 = Ok g h' /\ exists k,
    (1 <= k <= m)%nat /\ length (gbeta g) = (k + 1)%nat /\ (k = m \/ Rabs (nth k (gbeta g) 0) < tol) /\
    least_residual n pa (mvmul n P (rd h0 rhs)) k (Rabs (nth k (gbeta g) 0)).
Proof.
  intros Ht Hm Hr Hz. apply post_ok.
  apply (gmres_estimates dbg isqrt mulv lu n h0 (mvmul n a) (mvmul n P)); auto using mv_ext_mv, pa_lin, pa_inj, p_nonzero.
Qed.
End Any.

(** The preconditioned residual of the result is below the tolerance. *)
Lemma result_residual n a (M P : nat -> nat -> R) b tol x : inverse_of n M P -> nonsingular n M ->
  gmres_result n (fun x => mvmul n P (mvmul n a x)) (mvmul n P b) tol x ->
  forall z, solves n M z (fun t => b t - mvmul n a x t) -> nrm n z < tol.
Proof.
  intros I N (k & _ & _ & L & _) z Hz.
  rewrite (nrm_ext n z (fun t => mvmul n P b t - mvmul n P (mvmul n a x) t)); [exact L|].
  apply (solves_unique n M _ _ _ N Hz). intros i Hi.
  transitivity (mvmul n M (mvmul n P b) i - mvmul n M (mvmul n P (mvmul n a x)) i).
  - refine (eq_trans _ (rs_sub n (fun k => M i k * mvmul n P b k) (fun k => M i k * mvmul n P (mvmul n a x) k))).
    apply bsum_ext. intros k0 Hk. cbn [mul ROps]. ring.
  - rewrite (I b i Hi), (I (mvmul n a x) i Hi). reflexivity.
Qed.

(** ** Dense matrices *)

(** What the constructor leaves behind: the stored matrix, and the factors L U of the preconditioner. *)
Definition dense_solver (h1 : heap R) (G : mat * mat) (n : nat) (a f : nat -> nat -> R) : Prop :=
  ismat h1 (fst G) n n /\ ismat h1 (snd G) n n /\ meq n n (mget h1 (fst G)) a /\ meq n n (mget h1 (snd G)) f.

Lemma dense_new n A h G h1 : ismat h A n n -> fits_u32 n = true -> gmres_dyn_new A h = Ok G h1 ->
  dense_solver h1 G n (mget h A) (mget h1 (snd G)) /\ ilu0 n n (mget h A) (mget h1 (snd G)) /\
  ext h h1.
Proof.
  intros HA Hf E. unfold gmres_dyn_new, bind in E.
  destruct (post_ok _ _ _ (copy_ok A n n h HA)) as (m & h' & Ec & (X1 & P1 & V1 & R1) & _). rewrite Ec in E.
  assert (HA' : ismat h' A n n) by (eapply ext_ismat; eauto).
  destruct (ilu_dyn A h') as [F h''|e h''| | | |] eqn:Ei; try discriminate. injection E as <- <-. cbn [fst snd].
  destruct (C44_dyn n A h' F h'' HA' Hf Ei) as (((X2 & X2') & _ & V2 & _) & D).
  assert (EA : forall i j, (i < n)%nat -> (j < n)%nat -> mget h' A i j = mget h A i j).
  { intros i j Hi Hj. unfold mget, rd. destruct HA as (H1 & _). destruct X1 as [_ ->]; [reflexivity|exact H1]. }
  assert (Em : mem h'' (mp m) = mem h' (mp m)) by (apply X2'; apply V1).
  split.
  { split.
    - destruct V1 as (W1 & W2 & W3 & W4). cbn [fst]. split; [lia|]. split; [auto|]. split; [auto|]. unfold len. now rewrite Em.
    - split; [exact V2|]. split; [|intros i j _ _; reflexivity].
      intros i j Hi Hj. cbn [fst]. rewrite <- R1 by auto. unfold mget, rd. now rewrite Em. }
  split.
  { intros i j Hi Hj. destruct (D i j Hi Hj) as [D1 D2]. rewrite EA in D1, D2 by auto. split; auto. }
  split; [destruct X1; lia|]. intros q Hq. rewrite X2' by (destruct X1; lia). now apply X1.
Qed.

Section Dense.
Variables (dbg : bool) (isqrt : nat -> nat) (n : nat) (h1 : heap R) (G : mat * mat) (a f : nat -> nat -> R).
Hypothesis Hpos : (0 < n)%nat.
Hypothesis Hfit : fits_u32 n = true.
Hypothesis Hsq : isqrt_exact isqrt.
Hypothesis HG : dense_solver h1 G n a f.
Hypothesis HA : nonsingular n a.
Hypothesis Hd : forall i, (i < n)%nat -> f i i <> 0.
Let LU := mmmul n (lfac f) (ufac f).

Lemma lu_meq g : meq n n g f -> meq n n (mmmul n (lfac g) (ufac g)) LU.
Proof.
  intros E i j Hi Hj. unfold LU, mmmul. apply bsum_ext. intros k Hk. unfold lfac, ufac. now rewrite !E by auto.
Qed.
Lemma dense_mul : applies n h1 (op_mulv dbg (fst G)) (mvmul n a).
Proof.
  intros h p X V. destruct HG as (G1 & G2 & G3 & G4).
  eapply post_mono; [apply (op_mulv_ring dbg (fst G) p n n); auto; eapply ext_ismat; eauto|]. cbv beta.
  intros y h' (Y1 & Y2 & Y3 & Y4). split; [exact Y1|]. split; [exact Y2|]. split; [exact Y3|]. intros i Hi. rewrite Y4 by exact Hi.
  apply mvmul_ext; [|reflexivity]. intros k Hk. rewrite <- G3 by auto. unfold mget, rd. destruct X as [_ ->]; [reflexivity|apply G1].
Qed.
Lemma dense_lu P : inverse_of n LU P -> applies n h1 (ilu_dyn_solve (snd G)) (mvmul n P).
Proof.
  intros I h p X V. destruct HG as (G1 & G2 & G3 & G4).
  assert (Ef : meq n n (mget h (snd G)) f).
  { intros i j Hi Hj. rewrite <- G4 by auto. unfold mget, rd. destruct X as [_ ->]; [reflexivity|apply G2]. }
  destruct (C45_dyn n (snd G) p h (ext_ismat _ _ _ _ _ X G2) Hfit V) as (x & h' & E & (N1 & N2 & N3 & _) & S).
  { intros i Hi. rewrite Ef by auto. now apply Hd. }
  unfold post. rewrite E. split; [exact N1|]. split; [exact N2|]. split; [exact N3|].
  destruct (the_solution_meq n _ _ _ _ (lu_meq _ Ef) S) as [S1 S2].
  intros i Hi. symmetry. apply S2; [apply I|exact Hi].
Qed.
Lemma dense_inverse : exists P, inverse_of n LU P /\ nonsingular n LU /\ nonsingular n P.
Proof.
  destruct (inverse_exists n LU) as [P I]; [intros b; now apply lu_solve|]. exists P. split; [exact I|].
  split; [now apply lu_nonsingular|]. eapply inverse_nonsingular; eauto.
Qed.
End Dense.

Definition residual_of n (a : nat -> nat -> R) (b x : nat -> R) (t : nat) : R := b t - mvmul n a x t.
(** The outcome promised for the system a x = b with preconditioner L U = M: the preconditioned
    residual is below the tolerance, and x is the minimiser over the first Krylov space that
    contains such a vector; there is one of dimension at most n. *)
Definition gmres_solution n (a M : nat -> nat -> R) (b : nat -> R) (tol : R) (x : nat -> R) : Prop :=
  (forall z, solves n M z (residual_of n a b x) -> nrm n z < tol) /\
  exists P, inverse_of n M P /\ gmres_result n (fun x => mvmul n P (mvmul n a x)) (mvmul n P b) tol x.

Theorem C48_dense_solver : forall dbg isqrt n (h1 : heap R) G a f b tol, isqrt_exact isqrt -> (0 < n)%nat -> fits_u32 n = true ->
  dense_solver h1 G n a f -> nonsingular n a -> (forall i, (i < n)%nat -> f i i <> 0) ->
  isvec h1 b n -> nonzero n (rd h1 b) -> 0 < tol ->
  exists x h2, gmres_dyn_solve dbg isqrt G tol b h1 = Ok x h2 /\ newvec h1 h2 x n (rd h2 x) /\
    gmres_solution n a (mmmul n (lfac f) (ufac f)) (rd h1 b) tol (rd h2 x).
Proof.
  intros dbg isqrt n h1 G a f b tol Hsq Hpos Hf HG HA Hd Hb Hz Ht.
  destruct (dense_inverse n f Hd) as (P & I & N & NP).
  destruct (any_run dbg isqrt (ret (mr (fst G))) (op_mulv dbg (fst G)) (ilu_dyn_solve (snd G)) n h1 a P Hpos Hf
    (dense_mul dbg n h1 G a f Hf HG) (dense_lu n h1 G a f Hf HG Hd P I) Hsq) with (tol := tol) (rhs := b) as (x & h2 & E & V & Rs); auto.
  { intros h. unfold ret. destruct HG as ((_ & -> & _) & _). reflexivity. }
  exists x, h2. split; [exact E|]. split; [exact V|]. split; [|exists P; auto].
  exact (result_residual n a _ P (rd h1 b) tol (rd h2 x) I N Rs).
Qed.

(** From construction to solution. *)
Theorem C48_dense : forall dbg isqrt n A b tol (h : heap R) G h1, isqrt_exact isqrt -> (0 < n)%nat -> fits_u32 n = true ->
  ismat h A n n -> isvec h b n -> nonsingular n (mget h A) -> nonzero n (rd h b) -> 0 < tol ->
  gmres_dyn_new A h = Ok G h1 -> (forall i, (i < n)%nat -> mget h1 (snd G) i i <> 0) ->
  let f := mget h1 (snd G) in
  ilu0 n n (mget h A) f /\
  exists x h2, gmres_dyn_solve dbg isqrt G tol b h1 = Ok x h2 /\ newvec h1 h2 x n (rd h2 x) /\
    gmres_solution n (mget h A) (mmmul n (lfac f) (ufac f)) (rd h b) tol (rd h2 x).
Proof.
  intros dbg isqrt n A b tol h G h1 Hsq Hpos Hf HA [Vb Lb] HN Hz Ht E Hd f.
  destruct (dense_new n A h G h1 HA Hf E) as (HG & D & X1 & X2). split; [exact D|].
  assert (Eb : mem h1 b = mem h b) by (apply X2; auto).
  assert (Er : rd h1 b = rd h b) by (unfold rd; now rewrite Eb). rewrite <- Er.
  apply C48_dense_solver; auto.
  - split; [lia|]. unfold len. now rewrite Eb.
  - now rewrite Er.
Qed.

(** When no fill-in is dropped no further hypothesis is needed, and the preconditioner is the matrix. *)
Theorem C48_dense_closed : forall dbg isqrt n A b tol (h : heap R) G h1, isqrt_exact isqrt -> (0 < n)%nat -> fits_u32 n = true ->
  ismat h A n n -> isvec h b n -> nonsingular n (mget h A) -> nonzero n (rd h b) -> 0 < tol ->
  closed_pattern n (mget h A) -> gmres_dyn_new A h = Ok G h1 ->
  exists x h2, gmres_dyn_solve dbg isqrt G tol b h1 = Ok x h2 /\ newvec h1 h2 x n (rd h2 x) /\
    forall z, solves n (mget h A) z (rd h b) -> nrm n (fun t => z t - rd h2 x t) < tol.
Proof.
  intros dbg isqrt n A b tol h G h1 Hsq Hpos Hf HA Hb HN Hz Ht C E.
  destruct (dense_new n A h G h1 HA Hf E) as (HG & D & X).
  assert (Hd : forall i, (i < n)%nat -> mget h1 (snd G) i i <> 0) by (now apply (exact_pivots n (mget h A) _ C D)).
  destruct (C48_dense dbg isqrt n A b tol h G h1 Hsq Hpos Hf HA Hb HN Hz Ht E Hd) as (_ & x & h2 & E2 & V & (S & _)).
  exists x, h2. split; [exact E2|]. split; [exact V|]. intros z Hz'. apply S.
  intros i Hi. rewrite (mvmul_ext n _ (mget h A) _ (fun t => z t - rd h2 x t)); [|intros k Hk; now apply (ilu0_exact n n _ _ (le_n n) C D)|reflexivity].
  unfold residual_of. rewrite <- (Hz' i Hi).
  refine (eq_trans _ (rs_sub n (fun k => mget h A i k * z k) (fun k => mget h A i k * rd h2 x k))).
  apply bsum_ext. intros k Hk. cbn [mul ROps]. ring.
Qed.

(** C47: the estimate after each step. *)
Theorem C47_dense_estimate : forall dbg isqrt n (h1 : heap R) G a f b tol m, isqrt_exact isqrt -> (0 < n)%nat -> fits_u32 n = true ->
  dense_solver h1 G n a f -> nonsingular n a -> (forall i, (i < n)%nat -> f i i <> 0) ->
  isvec h1 b n -> nonzero n (rd h1 b) -> 0 < tol -> (1 <= m <= n)%nat ->
  exists P g h2, inverse_of n (mmmul n (lfac f) (ufac f)) P /\
    bind (gmres_init isqrt (ilu_dyn_solve (snd G)) b)
      (for_u32 0 m (fun _ g => gmres_step dbg (op_mulv dbg (fst G)) (ilu_dyn_solve (snd G)) tol g)) h1 = Ok g h2 /\
    exists k, (1 <= k <= m)%nat /\ length (gbeta g) = (k + 1)%nat /\ (k = m \/ Rabs (nth k (gbeta g) 0) < tol) /\
      least_residual n (fun x => mvmul n P (mvmul n a x)) (mvmul n P (rd h1 b)) k (Rabs (nth k (gbeta g) 0)).
Proof.
  intros dbg isqrt n h1 G a f b tol m Hsq Hpos Hf HG HA Hd Hb Hz Ht Hm.
  destruct (dense_inverse n f Hd) as (P & I & N & NP). exists P.
  destruct (any_estimates dbg isqrt (op_mulv dbg (fst G)) (ilu_dyn_solve (snd G)) n h1 a P Hpos Hf
    (dense_mul dbg n h1 G a f Hf HG) (dense_lu n h1 G a f Hf HG Hd P I) Hsq HA NP tol m b Ht Hm Hb Hz) as (g & h2 & E & k & K).
  exists g, h2. split; [exact I|]. split; [exact E|]. exists k. exact K.
Qed.

(** ** Sparse matrices *)
Section Sparse.
Variables (dbg : bool) (isqrt : nat -> nat) (n : nat) (A F : csr R) (a f : nat -> nat -> R).
Hypothesis Hpos : (0 < n)%nat.
Hypothesis Hfit : fits_u32 n = true.
Hypothesis WA : csr_wf A n.
Hypothesis SA : csr_shape A tt = Ok (n, n) tt.
Hypothesis DA : distinct (csr_entries A n).
Hypothesis RA : reads_as A n a.
Hypothesis WF : csr_wf F n.
Hypothesis RF : reads_as F n f.
Hypothesis Hd : forall i, (i < n)%nat -> f i i <> 0.

Lemma csr_shape_any S (s : S) p : csr_shape A tt = Ok p tt -> csr_shape A s = Ok p s.
Proof.
  unfold csr_shape, bind, max_elem. destruct (scol A); cbn; [discriminate|]. intros E. injection E as <-. reflexivity.
Qed.
Lemma scol_nonempty : scol A <> [].
Proof. intros E. unfold csr_shape, bind, max_elem in SA. rewrite E in SA. discriminate. Qed.
Lemma sparse_mul h0 : applies n h0 (sp_op_mul dbg A) (mvmul n a).
Proof.
  intros h p X V.
  destruct (C32_operator R ROps dbg n n A a p h WA scol_nonempty (csr_shape_any _ h _ SA) Hfit DA) as (y & h' & E & N).
  { intros i j Hi Hj. now apply RA. } { exact V. }
  unfold post. rewrite E. exact N.
Qed.
Lemma sparse_lu h0 P : inverse_of n (mmmul n (lfac f) (ufac f)) P -> applies n h0 (ilu_csr_solve F) (mvmul n P).
Proof.
  intros I h p X V.
  destruct (C45_csr n F f p h WF RF Hfit V Hd) as (x & h' & E & (N1 & N2 & N3 & _) & S1 & S2).
  unfold post. rewrite E. split; [exact N1|]. split; [exact N2|]. split; [exact N3|].
  intros i Hi. symmetry. apply S2; [apply I|exact Hi].
Qed.
End Sparse.

Theorem C48_sparse : forall dbg isqrt n A a b tol (h : heap R) G, isqrt_exact isqrt -> (0 < n)%nat -> fits_u32 n = true ->
  csr_wf A n -> csr_shape A tt = Ok (n, n) tt -> distinct (csr_entries A n) -> reads_as A n a ->
  isvec h b n -> nonsingular n a -> nonzero n (rd h b) -> 0 < tol ->
  gmres_csr_new A h = Ok G h ->
  fst G = A /\ exists f, reads_as (snd G) n f /\ ilu0 n n a f /\
  ((forall i, (i < n)%nat -> f i i <> 0) ->
  exists x h2, gmres_csr_solve dbg isqrt G tol b h = Ok x h2 /\ newvec h h2 x n (rd h2 x) /\
    gmres_solution n a (mmmul n (lfac f) (ufac f)) (rd h b) tol (rd h2 x)).
Proof.
  intros dbg isqrt n A a b tol h G Hsq Hpos Hf WA SA DA RA Hb HN Hz Ht E.
  unfold gmres_csr_new, bind in E. destruct (ilu_csr A h) as [F h'|e h'| | | |] eqn:Ei; try discriminate. injection E as <- ->. cbn [fst snd].
  split; [reflexivity|].
  destruct (C44_csr n n A a (heap R) h F h WA SA (le_n n) Hf RA Ei) as (_ & WF & _ & _ & f & RF & D).
  exists f. split; [exact RF|]. split; [exact D|]. intros Hd.
  destruct (dense_inverse n f Hd) as (P & I & N & NP).
  destruct (any_run dbg isqrt (sh <- csr_shape A ;; ret (fst sh)) (sp_op_mul dbg A) (ilu_csr_solve F) n h a P Hpos Hf
    (sparse_mul dbg n A a Hf WA SA DA RA h) (sparse_lu n F f Hf WF RF Hd h P I) Hsq) with (tol := tol) (rhs := b) as (x & h2 & E & V & Rs); auto.
  { intros h0. unfold bind. rewrite (csr_shape_any A _ h0 _ SA). reflexivity. }
  exists x, h2. split; [exact E|]. split; [exact V|]. split; [|exists P; auto].
  exact (result_residual n a _ P (rd h b) tol (rd h2 x) I N Rs).
Qed.

Theorem C47_sparse_estimate : forall dbg isqrt n A F a f b tol (h : heap R) m, isqrt_exact isqrt -> (0 < n)%nat -> fits_u32 n = true ->
  csr_wf A n -> csr_shape A tt = Ok (n, n) tt -> distinct (csr_entries A n) -> reads_as A n a -> nonsingular n a ->
  csr_wf F n -> reads_as F n f -> (forall i, (i < n)%nat -> f i i <> 0) ->
  isvec h b n -> nonzero n (rd h b) -> 0 < tol -> (1 <= m <= n)%nat ->
  exists P g h2, inverse_of n (mmmul n (lfac f) (ufac f)) P /\
    bind (gmres_init isqrt (ilu_csr_solve F) b)
      (for_u32 0 m (fun _ g => gmres_step dbg (sp_op_mul dbg A) (ilu_csr_solve F) tol g)) h = Ok g h2 /\
    exists k, (1 <= k <= m)%nat /\ length (gbeta g) = (k + 1)%nat /\ (k = m \/ Rabs (nth k (gbeta g) 0) < tol) /\
      least_residual n (fun x => mvmul n P (mvmul n a x)) (mvmul n P (rd h b)) k (Rabs (nth k (gbeta g) 0)).
Proof.
  intros dbg isqrt n A F a f b tol h m Hsq Hpos Hf WA SA DA RA HN WF RF Hd Hb Hz Ht Hm.
  destruct (dense_inverse n f Hd) as (P & I & N & NP). exists P.
  destruct (any_estimates dbg isqrt (sp_op_mul dbg A) (ilu_csr_solve F) n h a P Hpos Hf
    (sparse_mul dbg n A a Hf WA SA DA RA h) (sparse_lu n F f Hf WF RF Hd h P I) Hsq HN NP tol m b Ht Hm Hb Hz) as (g & h2 & E & k & K).
  exists g, h2. split; [exact I|]. split; [exact E|]. exists k. exact K.
Qed.

(** ** Concrete cases *)

(** The hypotheses of the theorems over R: a 2 x 2 system. *)
Definition GH : heap R := heap_of [[2; 1; 1; 2]; [1; 0]].
Definition GA : mat := mkMat 0%nat 2%nat 2%nat.
Lemma GA_nonsingular : nonsingular 2 (mget GH GA).
Proof.
  intros x H i Hi. pose proof (H 0%nat ltac:(lia)) as H0. pose proof (H 1%nat ltac:(lia)) as H1.
  change (0 + 2 * x 0%nat + 1 * x 1%nat = 0) in H0. change (0 + 1 * x 0%nat + 2 * x 1%nat = 0) in H1.
  destruct i as [|[|i]]; [| |lia]; cbn; lra.
Qed.
Lemma GA_full : full_pattern 2 (mget GH GA).
Proof. intros [|[|i]] [|[|j]] Hi Hj; try lia; unfold mget, rd; cbn; lra. Qed.
Example C48_ex : ismat GH GA 2 2 /\ isvec GH 1%nat 2%nat /\ nonzero 2 (rd GH 1%nat) /\ closed_pattern 2 (mget GH GA) /\
  exists G h1, gmres_dyn_new GA GH = Ok G h1 /\ forall i, (i < 2)%nat -> mget h1 (snd G) i i <> 0.
Proof.
  assert (HM : ismat GH GA 2 2) by (repeat split; cbn; lia).
  split; [exact HM|]. split; [repeat split; cbn; lia|].
  split. { exists 0%nat. split; [lia|]. unfold rd. cbn. lra. }
  split; [apply full_closed, GA_full|].
  assert (exists G h1, gmres_dyn_new GA GH = Ok G h1) as (G & h1 & E).
  { unfold gmres_dyn_new, bind.
    destruct (post_ok _ _ _ (copy_ok GA 2 2 GH HM)) as (m & h' & Ec & (X1 & _) & _). rewrite Ec.
    assert (EA : mget h' GA = mget GH GA) by (unfold mget, rd; destruct X1 as [_ ->]; [reflexivity|cbn; lia]).
    assert (HM' : ismat h' GA 2 2) by (eapply ext_ismat; eauto).
    destruct (C46_dyn_outcome 2 GA h' HM' eq_refl) as [[_ (F & h2 & E2)]|[_ (h2 & E2 & _)]].
    - rewrite E2. eexists. eexists. reflexivity.
    - exfalso. assert (exists k, (k < 2)%nat /\ ~ nonsingular k (mget h' GA)) as (k & Hk & Nk).
      { apply (proj1 (C46_full_pattern 2 GA h' HM' eq_refl ltac:(rewrite EA; exact GA_full))). eauto. }
      apply Nk. rewrite EA. intros x H i Hi. destruct k as [|[|k]]; [lia| |lia].
      pose proof (H 0%nat ltac:(lia)) as H0. change (0 + 2 * x 0%nat = 0) in H0. replace i with 0%nat by lia. cbn; lra. }
  exists G, h1. split; [exact E|].
  destruct (dense_new 2 GA GH G h1 HM eq_refl E) as (_ & D & _).
  now apply (exact_pivots 2 (mget GH GA) _ (full_closed _ _ GA_full) D), GA_nonsingular.
Qed.

(** The code itself run in binary64 on a 3 x 3 system whose fill-in is dropped (dense and sparse
    storage): the residual of [x] is below 2^-30. *)
Definition FH : heap float := heap_of [[2; 1; 1;  1; 2; 0;  1; 0; 2]; [4; 3; 3]]%float.
Definition fres (x : list float) : list bool :=
  map (fun p => PrimFloat.ltb (PrimFloat.abs p) 0x1p-30%float)
    [ (4 - (2 * nth 0 x 0 + nth 1 x 0 + nth 2 x 0))%float; (3 - (nth 0 x 0 + 2 * nth 1 x 0))%float; (3 - (nth 0 x 0 + 2 * nth 2 x 0))%float ].
Example C47_run_dense : exists G h1 x h2, gmres_dyn_new (mkMat 0%nat 3%nat 3%nat) FH = Ok G h1 /\
  gmres_dyn_solve true Nat.sqrt G 0x1p-40%float 1%nat h1 = Ok x h2 /\ fres (mem h2 x) = [true; true; true] /\
  PrimFloat.eqb (nth 0 (mem h2 x) 0%float) 0%float = false.
Proof.
  eexists. eexists. eexists. eexists. split; [vm_compute; reflexivity|].
  split; [vm_compute; reflexivity|]. split; vm_compute; reflexivity.
Qed.
Definition FS : csr float := mkCsr [2; 1; 1; 1; 2; 1; 2]%float [0; 3; 5; 7]%nat [0; 1; 2; 0; 1; 0; 2]%nat.
Example C47_run_sparse : exists G x h2, gmres_csr_new FS FH = Ok G FH /\
  gmres_csr_solve true Nat.sqrt G 0x1p-40%float 1%nat FH = Ok x h2 /\ fres (mem h2 x) = [true; true; true].
Proof.
  eexists. eexists. eexists. split; [vm_compute; reflexivity|].
  split; [vm_compute; reflexivity|]. vm_compute; reflexivity.
Qed.

(** ** C49 is false: with a zero right-hand side the code divides by the norm of the zero vector
    and returns NaN, although x = 0 is exact. *)
Theorem C49_refuted : exists (h : heap float) G h1 x h2, mem h 0%nat = [2; 1; 1; 2]%float /\ mem h 1%nat = [0; 0]%float /\
  gmres_dyn_new (mkMat 0%nat 2%nat 2%nat) h = Ok G h1 /\ gmres_dyn_solve true Nat.sqrt G 0x1p-40%float 1%nat h1 = Ok x h2 /\
  map PrimFloat.is_nan (mem h2 x) = [true; true].
Proof.
  exists (heap_of [[2; 1; 1; 2]; [0; 0]]%float). eexists. eexists. eexists. eexists.
  split; [reflexivity|]. split; [reflexivity|]. split; [vm_compute; reflexivity|].
  split; [vm_compute; reflexivity|]. vm_compute. reflexivity.
Qed.
Theorem C49_sparse_refuted : exists (A : csr float) (h : heap float) G x h2, mem h 0%nat = [0; 0]%float /\
  gmres_csr_new A h = Ok G h /\ gmres_csr_solve true Nat.sqrt G 0x1p-40%float 0%nat h = Ok x h2 /\
  map PrimFloat.is_nan (mem h2 x) = [true; true].
Proof.
  exists (mkCsr [2; 1; 1; 2]%float [0; 2; 4]%nat [0; 1; 0; 1]%nat), (heap_of [[0; 0]]%float). eexists. eexists. eexists.
  split; [reflexivity|]. split; [vm_compute; reflexivity|]. split; [vm_compute; reflexivity|]. vm_compute. reflexivity.
Qed.

Print Assumptions C47_dense_estimate.
Print Assumptions C47_sparse_estimate.
Print Assumptions C48_dense_solver.
Print Assumptions C48_dense.
Print Assumptions C48_dense_closed.
Print Assumptions C48_sparse.
Print Assumptions C49_refuted.
Print Assumptions C49_sparse_refuted.
