(** * How fast Krylov spaces approach the solution *)
From Coq Require Import Lia Reals Lra List Classical.
From Verif Require Import Base Scalar BaseLemmas Spec Sums RealVec ProofCgs PropCgs ProofGmresRun ProofGmresMath ProofGmres.
Import ListNotations.
Local Open Scope R_scope.

Lemma comb_ext n m c V V' t : (t < n)%nat -> (forall l, (l < m)%nat -> V l t = V' l t) -> comb m c V t = comb m c V' t.
Proof. intros Ht E. unfold comb. apply bsum_ext. intros l Hl. now rewrite E. Qed.
Lemma comb_first m c V t : comb (S m) c V t = c 0%nat * V 0%nat t + comb m (fun l => c (S l)) (fun l => V (S l)) t.
Proof. unfold comb. exact (bsum_first m (fun k => c k * V k t)). Qed.
Lemma inspan_zero n m V : inspan n m V (fun _ => 0).
Proof. exists (fun _ => 0). intros i Hi. symmetry. apply Rbsum_zero. intros; ring. Qed.

(** ** More than n vectors of R^n are dependent *)
Lemma gs_exists n V m : exists W, gram_schmidt n m V W.
Proof.
  induction m as [|m [W HW]]; [exists (fun _ _ => 0); intros k i Hk; lia|].
  exists (fun k i => if Nat.eqb k m then V m i - comb m (fun l => proj_coef n (W l) (V m)) W i else W k i).
  intros k i Hk Hi. cbv beta.
  assert (E : forall p, (p <= m)%nat -> forall v, comb p (fun l => proj_coef n (fun i => if Nat.eqb l m then V m i - comb m (fun l => proj_coef n (W l) (V m)) W i else W l i) v)
      (fun k i => if Nat.eqb k m then V m i - comb m (fun l => proj_coef n (W l) (V m)) W i else W k i) i =
    comb p (fun l => proj_coef n (W l) v) W i).
  { intros p Hp v. unfold comb. apply bsum_ext. intros l Hl. destruct (Nat.eqb_spec l m); [lia|reflexivity]. }
  destruct (Nat.eqb_spec k m) as [->|Ne]; rewrite E by lia; [reflexivity|]. apply HW; [lia|exact Hi].
Qed.
Lemma independent_card n m V : independent n m V -> (m <= n)%nat.
Proof.
  intros HI. destruct (gs_exists n V m) as [W HW].
  destruct (gs_math n m V W HI HW m (le_n m)) as (Ho & Hz & _).
  apply (orthon_card n m (fun k i => / nrm n (W k) * W k i)). intros a b Ha Hb.
  assert (P : forall k, (k < m)%nat -> nrm n (W k) <> 0).
  { intros k Hk E. apply (nonzero_dotp n (W k) (Hz k Hk)). rewrite <- nrm_sqr, E. ring. }
  rewrite dotp_scal_r, dotp_comm, dotp_scal_r. destruct (Nat.eqb_spec a b) as [->|Ne].
  - rewrite <- nrm_sqr. field. now apply P.
  - rewrite dotp_comm, (Ho a b Ha Hb Ne). ring.
Qed.
Lemma dependent n m V : (n < m)%nat -> exists c, (exists k, (k < m)%nat /\ c k <> 0) /\ forall i, (i < n)%nat -> comb m c V i = 0.
Proof.
  intros Hm. apply NNPP. intros N.
  assert (I : independent n m V).
  { intros c Hc k Hk. apply NNPP. intros Nk. apply N. exists c. split; [exists k; auto|exact Hc]. }
  pose proof (independent_card n m V I). lia.
Qed.

Section Conv.
Variables (n : nat) (mv : (nat -> R) -> nat -> R) (b : nat -> R).
Hypothesis mv_e : mv_ext n mv.
Hypothesis mv_lin : forall m y X t, (t < n)%nat -> mv (comb m y X) t = comb m y (fun l => mv (X l)) t.
Let K := kvec mv b.

Lemma mv_axpy x w y t : (t < n)%nat -> mv (fun i => x i + w * y i) t = mv x t + w * mv y t.
Proof.
  intros Ht.
  transitivity (mv (comb 2 (fun l => if Nat.eqb l 0 then 1 else w) (fun l => if Nat.eqb l 0 then x else y)) t).
  - apply mv_e; [|exact Ht]. intros i Hi. unfold comb. cbn. ring.
  - rewrite mv_lin by exact Ht. unfold comb. cbn. ring.
Qed.
Lemma mv_zero t : (t < n)%nat -> mv (fun _ => 0) t = 0.
Proof.
  intros Ht. transitivity (mv (comb 0 (fun _ => 0) (fun _ _ => 0)) t).
  - apply mv_e; [|exact Ht]. intros; reflexivity.
  - now rewrite mv_lin.
Qed.
Lemma krylov_step m x : inspan n m K x -> inspan n (S m) K (mv x).
Proof. intros H. apply (mv_inspan n mv mv_e mv_lin m (S m) K); [exact H|]. intros l Hl. exact (inspan_gen n (S m) K (S l) ltac:(lia)). Qed.
Lemma krylov_shift m c t : (t < n)%nat -> comb m c (fun l => K (S l)) t = mv (comb m c K) t.
Proof. intros Ht. rewrite mv_lin by exact Ht. reflexivity. Qed.

(** ** A step that shrinks every vector gives geometric convergence *)
Lemma shrink rho : 0 <= rho -> (forall v, exists w, nrm n (fun t => v t - w * mv v t) <= rho * nrm n v) ->
  forall m, exists z, inspan n m K z /\ nrm n (fun t => b t - mv z t) <= rho ^ m * nrm n b.
Proof.
  intros Hr Hs. induction m as [|m (z & Hz & Hn)].
  - exists (fun _ => 0). split; [apply inspan_zero|]. cbn [pow]. rewrite (nrm_ext n _ b); [lra|].
    intros t Ht. rewrite mv_zero by exact Ht. ring.
  - destruct (Hs (fun t => b t - mv z t)) as [w Hw].
    exists (fun t => z t + w * (b t - mv z t)). split.
    + apply comb_add; [eapply inspan_le; [|exact Hz]; lia|]. apply comb_scal.
      apply (inspan_ext n (S m) K (fun t => b t + -1 * mv z t)); [intros; ring|].
      apply comb_add; [exact (inspan_gen n (S m) K 0 ltac:(lia))|]. apply comb_scal. now apply krylov_step.
    + rewrite (nrm_ext n _ (fun t => (b t - mv z t) - w * mv (fun t => b t - mv z t) t)).
      * eapply Rle_trans; [exact Hw|]. cbn [pow]. rewrite Rmult_assoc. now apply Rmult_le_compat_l.
      * intros t Ht. rewrite (mv_axpy z w (fun t => b t - mv z t)) by exact Ht. ring.
Qed.

(** A positive definite symmetric part is enough. *)
Lemma definite_shrinks c C : 0 < c <= C -> (forall v, c * dotp n v v <= dotp n v (mv v)) ->
  (forall v, nrm n (mv v) <= C * nrm n v) ->
  forall v, nrm n (fun t => v t - c / (C * C) * mv v t) <= R_sqrt.sqrt (1 - c / C * (c / C)) * nrm n v.
Proof.
  intros Hc Hd Hb v. assert (HC : 0 < C) by lra.
  assert (Q : 0 <= 1 - c / C * (c / C)).
  { assert (0 <= c / C <= 1). { split; [apply Rlt_le, Rdiv_lt_0_compat; lra|]. apply Rmult_le_reg_r with C; [lra|]. unfold Rdiv. rewrite Rmult_assoc, Rinv_l by lra. lra. }
    assert (c / C * (c / C) <= 1 * 1) by (apply Rmult_le_compat; lra). lra. }
  apply Rsqr_incr_0; [|apply nrm_nonneg|apply Rmult_le_pos; [apply sqrt_pos|apply nrm_nonneg]].
  unfold Rsqr. rewrite nrm_sqr.
  replace (R_sqrt.sqrt (1 - c / C * (c / C)) * nrm n v * (R_sqrt.sqrt (1 - c / C * (c / C)) * nrm n v)) with
    (R_sqrt.sqrt (1 - c / C * (c / C)) * R_sqrt.sqrt (1 - c / C * (c / C)) * (nrm n v * nrm n v)) by ring.
  rewrite sqrt_sqrt by exact Q. rewrite nrm_sqr.
  replace (dotp n (fun t => v t - c / (C * C) * mv v t) (fun t => v t - c / (C * C) * mv v t)) with
    (dotp n (fun t => 1 * v t - c / (C * C) * mv v t) (fun t => 1 * v t - c / (C * C) * mv v t)).
  2: { apply dotp_ext; intros t Ht; ring. }
  rewrite dotp_lin2.
  assert (W : 0 < c / (C * C)) by (apply Rdiv_lt_0_compat; [lra|now apply Rmult_lt_0_compat]).
  assert (M2 : dotp n (mv v) (mv v) <= C * C * dotp n v v).
  { rewrite <- !nrm_sqr. replace (C * C * (nrm n v * nrm n v)) with ((C * nrm n v) * (C * nrm n v)) by ring.
    apply Rmult_le_compat; try apply nrm_nonneg; apply Hb. }
  pose proof (Rmult_le_compat_l (c / (C * C)) _ _ (Rlt_le _ _ W) (Hd v)) as A1.
  pose proof (Rmult_le_compat_l (c / (C * C) * (c / (C * C))) _ _ (Rmult_le_pos _ _ (Rlt_le _ _ W) (Rlt_le _ _ W)) M2) as A2.
  replace (c / (C * C) * (c / (C * C)) * (C * C * dotp n v v)) with (c / C * (c / C) * dotp n v v) in A2 by (field; lra).
  replace (c / (C * C) * (c * dotp n v v)) with (c / C * (c / C) * dotp n v v) in A1 by (field; lra).
  lra.
Qed.

(** ** A perturbation of the identity of rank r needs r + 1 steps *)
Hypothesis mv_inj : forall x, (forall t, (t < n)%nat -> mv x t = 0) -> forall t, (t < n)%nat -> x t = 0.

Lemma fixed_point : forall d c, (exists j, (j < S d)%nat /\ c j <> 0) ->
  (forall t, (t < n)%nat -> mv (comb (S d) c K) t = comb (S d) c K t) ->
  exists z, inspan n (S d) K z /\ forall t, (t < n)%nat -> mv z t = b t.
Proof.
  induction d as [|d IH]; intros c (j & Hj & Nj) Hv; destruct (Req_dec (c 0%nat) 0) as [E0|N0].
  - exfalso. apply Nj. now replace j with 0%nat by lia.
  - exists (fun t => b t). split; [exact (inspan_gen n 1 K 0 ltac:(lia))|]. intros t Ht.
    specialize (Hv t Ht). rewrite mv_lin in Hv by exact Ht. unfold comb in Hv. cbn in Hv.
    apply Rmult_eq_reg_l with (c 0%nat); [|exact N0]. cbn in *. change (mv (fun t => b t) t) with (mv b t). lra.
  - destruct (IH (fun l => c (S l))) as (z & Hz & Ez).
    + destruct j as [|j]; [congruence|]. exists j. split; [lia|exact Nj].
    + assert (Sh : forall t, (t < n)%nat -> comb (S (S d)) c K t = mv (comb (S d) (fun l => c (S l)) K) t).
      { intros t Ht. rewrite comb_first, E0, <- krylov_shift by exact Ht. ring. }
      intros t Ht.
      assert (Z : forall t, (t < n)%nat -> mv (fun i => mv (comb (S d) (fun l => c (S l)) K) i + -1 * comb (S d) (fun l => c (S l)) K i) t = 0).
      { intros u Hu. rewrite mv_axpy by exact Hu. rewrite <- (Sh u Hu), <- (Hv u Hu).
        rewrite (mv_e (comb (S (S d)) c K) (mv (comb (S d) (fun l => c (S l)) K)) Sh u Hu). ring. }
      pose proof (mv_inj _ Z t Ht). cbv beta in H. lra.
    + exists z. split; [eapply inspan_le; [|exact Hz]; lia|exact Ez].
  - exists (fun t => / c 0%nat * (comb (S (S d)) c K t + -1 * comb (S d) (fun l => c (S l)) K t)). split.
    + apply comb_scal. apply comb_add; [exists c; intros; reflexivity|]. apply comb_scal.
      eapply inspan_le with (m := S d); [lia|]. exists (fun l => c (S l)). reflexivity.
    + intros t Ht.
      rewrite (mv_e _ (fun i => 0 + / c 0%nat * (comb (S (S d)) c K i + -1 * comb (S d) (fun l => c (S l)) K i))) by (try exact Ht; intros; ring).
      rewrite (mv_axpy (fun _ => 0) _ (fun i => comb (S (S d)) c K i + -1 * comb (S d) (fun l => c (S l)) K i)) by exact Ht.
      rewrite mv_zero by exact Ht. rewrite (mv_axpy (comb (S (S d)) c K) (-1) (comb (S d) (fun l => c (S l)) K)) by exact Ht.
      rewrite (Hv t Ht), <- krylov_shift, comb_first by exact Ht. change (K 0%nat t) with (b t). field. exact N0.
Qed.

Lemma low_rank r W : (forall v, inspan n r W (fun t => v t - mv v t)) ->
  exists z, inspan n (S r) K z /\ forall t, (t < n)%nat -> mv z t = b t.
Proof.
  intros HW.
  assert (C : forall m, exists D : nat -> nat -> R, forall l t, (l < m)%nat -> (t < n)%nat -> K l t - mv (K l) t = comb r (D l) W t).
  { induction m as [|m [D HD]]; [exists (fun _ _ => 0); intros; lia|]. destruct (HW (K m)) as [d Hd].
    exists (fun l => if Nat.eqb l m then d else D l). intros l t Hl Ht. destruct (Nat.eqb_spec l m) as [->|]; [now apply Hd|].
    apply HD; [lia|exact Ht]. }
  destruct (C (S r)) as [D HD]. destruct (dependent r (S r) D ltac:(lia)) as (c & Nc & Hc).
  apply (fixed_point r c Nc). intros t Ht. apply Rminus_diag_uniq_sym.
  rewrite <- krylov_shift by exact Ht.
  transitivity (bsum (S r) (fun l => c l * (K l t - K (S l) t))).
  { unfold comb. rewrite <- rs_sub. apply bsum_ext. intros l Hl. cbn. ring. }
  transitivity (bsum (S r) (fun l => c l * comb r (D l) W t)).
  { apply bsum_ext. intros l Hl. rewrite <- HD by auto. reflexivity. }
  unfold comb. transitivity (bsum r (fun k => W k t * bsum (S r) (fun l => c l * D l k))).
  { transitivity (bsum (S r) (fun l => bsum r (fun k => c l * (D l k * W k t)))); [apply bsum_ext; intros; now rewrite <- rs_scal|].
    rewrite rs_swap. apply bsum_ext. intros k Hk. rewrite <- rs_scal. apply bsum_ext. intros; cbn; ring. }
  apply Rbsum_zero. intros k Hk. change (bsum (S r) (fun l => c l * D l k)) with (comb (S r) c D k). rewrite (Hc k Hk). ring.
Qed.
End Conv.
