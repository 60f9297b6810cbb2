(** * GMRES: the result of a run, over the reals *)
From Coq Require Import Lia Reals Lra List.
From Verif Require Import Base Scalar BaseLemmas Spec Sums SpecMat RealVec ModelVec ProofVec ModelPacked ProofPacked PropPacked
  ProofMatOps FloatSqrt ProofCholMath ModelIter ProofCgs PropCgs ProofGmresRun ProofGmresMath.
Import ListNotations.
Local Open Scope R_scope.

(** ** Spans *)
Lemma inspan_comb n m p W V c : (forall l, (l < m)%nat -> inspan n p W (V l)) -> inspan n p W (comb m c V).
Proof.
  induction m as [|m IH]; intros H.
  - exists (fun _ => 0). intros i Hi. transitivity 0; [reflexivity|]. symmetry. apply Rbsum_zero. intros; ring.
  - apply (inspan_ext n p W (fun i => comb m c V i + c m * V m i)); [reflexivity|].
    apply comb_add; [apply IH; intros; apply H; lia|]. apply (comb_scal n p W (c m)). apply H; lia.
Qed.
Lemma inspan_trans n m p W V x : (forall l, (l < m)%nat -> inspan n p W (V l)) -> inspan n m V x -> inspan n p W x.
Proof. intros H (c & E). eapply inspan_ext; [|apply (inspan_comb n m p W V c H)]. intros i Hi. symmetry. now apply E. Qed.
Lemma inspan_gen n m V l : (l < m)%nat -> inspan n m V (V l).
Proof.
  intros Hl. exists (fun i => if Nat.eqb i l then 1 else 0). intros t Ht. unfold comb.
  rewrite (rs_single m (fun k => (if Nat.eqb k l then 1 else 0) * V k t) l Hl).
  - rewrite Nat.eqb_refl. ring.
  - intros i Hi Hne. destruct (Nat.eqb_spec i l); [congruence|ring].
Qed.
Lemma inspan_le n m p V x : (m <= p)%nat -> inspan n m V x -> inspan n p V x.
Proof. intros L. apply inspan_trans. intros l Hl. apply inspan_gen. lia. Qed.

(** The vectors b, M b, M (M b), ... spanning the Krylov spaces. *)
Fixpoint kvec (mv : (nat -> R) -> nat -> R) (b : nat -> R) (i : nat) : nat -> R :=
  match i with O => b | S i => mv (kvec mv b i) end.

Lemma gmrec_le n k k' (mv : (nat -> R) -> nat -> R) Q H c s Rm : (k' <= k)%nat -> gmrec n k mv Q H c s Rm -> gmrec n k' mv Q H c s Rm.
Proof.
  intros L [G1 G2 G3 G4 G5 G6]. split; intros.
  - apply G1; lia. - apply G2; lia. - apply G3; lia. - apply G4; lia. - apply G5; lia. - apply G6; lia.
Qed.

Section Span.
Variables (n k : nat) (mv : (nat -> R) -> nat -> R) (Q H : nat -> nat -> R) (c s : nat -> R) (Rm : nat -> nat -> R).
Hypothesis Hn : (0 < n)%nat.
Hypothesis G : gmrec n k mv Q H c s Rm.
Hypothesis mv_e : mv_ext n mv.
Hypothesis mv_lin : forall m y X t, (t < n)%nat -> mv (comb m y X) t = comb m y (fun l => mv (X l)) t.
Variables (b : nat -> R) (nb : R).
Hypothesis Hb0 : forall t, (t < n)%nat -> b t = nb * Q 0%nat t.
Hypothesis Hnb : nb <> 0.
Hypothesis Hs : forall i, (i + 1 < k)%nat -> H (i + 1)%nat i <> 0.

Lemma mv_inspan m p V W x : inspan n m V x -> (forall l, (l < m)%nat -> inspan n p W (mv (V l))) -> inspan n p W (mv x).
Proof.
  intros (y & E) HW. eapply inspan_ext; [|apply (inspan_comb n m p W (fun l => mv (V l)) y HW)].
  intros i Hi. rewrite <- mv_lin by exact Hi. apply mv_e; [|exact Hi]. intros t Ht. symmetry. now apply E.
Qed.

Lemma q_in_krylov j : (j < k)%nat -> inspan n (j + 1) (kvec mv b) (Q j).
Proof.
  induction j as [j IH] using (well_founded_induction Wf_nat.lt_wf). intros Hj. destruct j as [|j].
  - apply (inspan_ext n 1 _ (fun t => / nb * b t)).
    + intros t Ht. rewrite Hb0 by exact Ht. field. exact Hnb.
    + apply comb_scal. exact (inspan_gen n 1 (kvec mv b) 0 ltac:(lia)).
  - apply (inspan_ext n (S j + 1) _ (fun t => / H (j + 1)%nat j * (mv (Q j) t + (-1) * comb (j + 1) (fun i => H i j) Q t))).
    + intros t Ht. rewrite (mv_q n k mv Q H c s Rm Hn G j t) by lia.
      rewrite (w_next n k mv Q H c s Rm G j t) by (try apply Hs; lia).
      replace (S j) with (j + 1)%nat by lia. field. apply Hs; lia.
    + apply comb_scal. apply comb_add.
      * apply (mv_inspan (j + 1) _ (kvec mv b)); [apply IH; lia|]. intros l Hl.
        exact (inspan_gen n (S j + 1) (kvec mv b) (S l) ltac:(lia)).
      * apply comb_scal. apply inspan_comb. intros l Hl. eapply inspan_le; [|apply (IH l); lia]. lia.
Qed.
Lemma krylov_in_q j : (j < k)%nat -> inspan n (j + 1) Q (kvec mv b j).
Proof.
  induction j as [|j IH]; intros Hj.
  - apply (inspan_ext n 1 _ (fun t => nb * Q 0%nat t)); [intros; symmetry; now apply Hb0|].
    apply comb_scal. apply inspan_gen. lia.
  - cbn [kvec]. apply (mv_inspan (j + 1) _ Q); [apply IH; lia|]. intros l Hl.
    apply (inspan_ext n (S j + 1) _ (fun t => comb (l + 1) (fun i => H i l) Q t + H (l + 1)%nat l * Q (l + 1)%nat t)).
    + intros t Ht. rewrite (mv_q n k mv Q H c s Rm Hn G l t) by lia.
      rewrite (w_next n k mv Q H c s Rm G l t) by (try apply Hs; lia). reflexivity.
    + apply comb_add; [apply inspan_comb; intros; apply inspan_gen; lia|]. apply comb_scal. apply inspan_gen. lia.
Qed.
Lemma krylov_q x : inspan n k (kvec mv b) x <-> inspan n k Q x.
Proof.
  split; apply inspan_trans; intros l Hl.
  - eapply inspan_le; [|apply krylov_in_q; exact Hl]. lia.
  - eapply inspan_le; [|apply q_in_krylov; exact Hl]. lia.
Qed.
End Span.

Lemma ltb_R_true (x y : R) : ltb (abs_ x) y = true -> Rabs x < y.
Proof. cbn. destruct (Rlt_dec (Rabs x) y); [auto|discriminate]. Qed.
Lemma ltb_R_false (x y : R) : ltb (abs_ x) y = false -> y <= Rabs x.
Proof. cbn. destruct (Rlt_dec (Rabs x) y); [discriminate|lra]. Qed.

(** The iterate that GMRES is documented to return. *)
Definition gmres_result (n : nat) (mv : (nat -> R) -> nat -> R) (b : nat -> R) (tol : R) (x : nat -> R) : Prop :=
  exists k, (1 <= k <= n)%nat /\ inspan n k (kvec mv b) x /\
    nrm n (fun t => b t - mv x t) < tol /\
    (forall z, inspan n k (kvec mv b) z -> nrm n (fun t => b t - mv x t) <= nrm n (fun t => b t - mv z t)) /\
    (forall i z, (1 <= i < k)%nat -> inspan n i (kvec mv b) z -> tol <= nrm n (fun t => b t - mv z t)).

Section Fin.
Variables (dbg : bool) (isqrt : nat -> nat) (nrow : M (heap R) nat) (mulv lu : ptr -> M (heap R) ptr).
Variables (n : nat) (h0 : heap R) (Av Pv : (nat -> R) -> nat -> R).
Hypothesis Hpos : (0 < n)%nat.
Hypothesis Hfit : fits_u32 n = true.
Hypothesis Hmul : applies n h0 mulv Av.
Hypothesis Hlu : applies n h0 lu Pv.
Hypothesis HeA : mv_ext n Av.
Hypothesis HeP : mv_ext n Pv.

Lemma gmres_finish_ok k h g nb Hf Rf : (k <= n)%nat -> gst n h0 Av Pv k h g nb Hf Rf ->
  (forall j, (j < k)%nat -> Rf j j <> 0) ->
  post (gmres_finish n g) h (fun x h' => exists y, newvec h h' x n (comb k y (qf h g)) /\
    solves k (Ru Rf) y (beta_of (cf g) (sf g) nb)).
Proof.
  intros Hk G Hd. unfold gmres_finish. rewrite (st_beta _ _ _ _ _ _ _ _ _ _ G).
  replace (k + 1 - 1)%nat with k by lia.
  set (b0 := firstn k (gbeta g)). set (hl := heap_of [b0]).
  assert (Lb0 : length b0 = k) by (unfold b0; rewrite firstn_length, (st_beta _ _ _ _ _ _ _ _ _ _ G); lia).
  assert (Eb0 : forall i, (i < k)%nat -> nth i b0 0 = beta_of (cf g) (sf g) nb i).
  { intros i Hi. rewrite <- (st_b _ _ _ _ _ _ _ _ _ _ G i Hi). unfold b0.
    rewrite <- (firstn_skipn k (gbeta g)) at 2. rewrite app_nth1 by (fold b0; lia). reflexivity. }
  destruct (st_r _ _ _ _ _ _ _ _ _ _ G) as [WU RU].
  destruct (C24_back_sub R ROps R_field (gr g) k (Ru Rf) 0%nat hl WU) as (hl' & E & X & V & Sv & _).
  { intros i j Hi Hj S s. unfold Ru. destruct (Nat.leb_spec i j); [now apply RU|exact (utri_get_below (gr g) i j s ltac:(assumption))]. }
  { split; [cbn; lia|]. unfold len, hl. cbn. exact Lb0. }
  { intros i Hi. unfold Ru. rewrite Nat.leb_refl. now apply Hd. }
  apply post_bind, post_run_local. unfold post at 1. rewrite E. cbn [snd].
  set (y := rd hl' 0%nat). destruct V as [V1 V2].
  assert (Hy : solves k (Ru Rf) y (beta_of (cf g) (sf g) nb)).
  { intros i Hi. etransitivity; [exact (Sv i Hi)|]. unfold rd, hl. cbn. now apply Eb0. }
  set (beta := mem hl' 0%nat ++ skipn k (gbeta g)).
  assert (Lbeta : length beta = (k + 1)%nat).
  { unfold beta. rewrite app_length, skipn_length, (st_beta _ _ _ _ _ _ _ _ _ _ G). unfold len in V2. lia. }
  assert (Ebeta : forall i, (i < k)%nat -> nth i beta 0 = y i).
  { intros i Hi. unfold beta, y, rd. unfold len in V2. now rewrite app_nth1 by lia. }
  apply post_bind. eapply (post_alloc (T := R)). set (h1 := halloc h _). set (x := next h).
  rewrite Lbeta. replace (k + 1 - 1)%nat with k by lia.
  assert (X1 : ext h h1). { split; [unfold h1, halloc; cbn [next]; lia|]. intros q Hq. unfold h1. apply mem_halloc_other. lia. }
  assert (Vx : isvec h1 x n). { split; [unfold h1, halloc, x; cbn [next]; lia|]. unfold len, h1, x. rewrite mem_halloc_same. apply repeat_length. }
  apply post_bind.
  eapply (post_for_u32 (fun i _ h' => ext h h' /\ isvec h' x n /\ forall t, (t < n)%nat -> rd h' x t = comb i y (qf h g) t)).
  - apply (fits_u32_le n); [exact Hfit|lia].
  - lia.
  - split; [exact X1|]. split; [exact Vx|]. intros t Ht. unfold rd, h1, x. rewrite mem_halloc_same.
    unfold comb. cbn. now rewrite nth_repeat.
  - intros i _ h2 [_ Hi] (X2 & V2' & R2).
    apply post_bind, (post_vec_at _ _ _ 0); [lia|].
    pose proof (st_q _ _ _ _ _ _ _ _ _ _ G) as Lq.
    apply post_bind, (post_vec_at (T := ptr) _ _ _ 0%nat); [lia|].
    pose proof (st_vec _ _ _ _ _ _ _ _ _ _ G i ltac:(lia)) as Vi.
    pose proof (ext_isvec _ _ _ _ X2 Vi) as [Vi2 Li2].
    apply post_bind. eapply post_mono; [apply scale_rd; [exact Vi2|now rewrite Li2]|]. cbv beta.
    intros r h3 (-> & N3 & F3 & L3 & R3). destruct V2' as [Vx2 Lx2]. destruct X2 as [Xn Xm].
    assert (Lx3 : len h3 x = n) by (unfold len; rewrite F3 by exact Vx2; exact Lx2).
    apply post_bind. eapply post_mono; [apply axpy_rd; [rewrite L3, Li2; exact Hfit|rewrite L3, Li2; auto]|]. cbv beta.
    intros r h4 (-> & F4 & N4 & L4 & R4). apply post_ret.
    split. { split; [lia|]. intros q Hq. rewrite F4 by (unfold x; lia). rewrite F3 by lia. now apply Xm. }
    split. { split; [lia|]. now rewrite L4. }
    intros t Ht. rewrite R4 by lia. rewrite R3 by lia. rewrite Ebeta by lia.
    assert (rd h3 x t = rd h2 x t) as -> by (unfold rd; now rewrite F3).
    rewrite R2 by exact Ht. unfold comb. rewrite rs_S. cbn [mul add one ROps].
    assert (rd h2 (nth i (gq g) 0%nat) t = qf h g i t) as ->.
    { unfold qf. unfold rd. rewrite Xm by apply Vi. reflexivity. }
    ring.
  - intros _ h2 (X2 & V2' & R2). apply post_ret. exists y. split; [|exact Hy].
    split; [exact X2|]. split; [unfold x; lia|]. split; [exact V2'|exact R2].
Qed.

Hypothesis Hsq : isqrt_exact isqrt.
Hypothesis Hrow : forall h, nrow h = Ok n h.
Hypothesis p_lin : forall m y X t, (t < n)%nat -> pmv Av Pv (comb m y X) t = comb m y (fun l => pmv Av Pv (X l)) t.
Hypothesis p_inj : forall x, (forall t, (t < n)%nat -> pmv Av Pv x t = 0) -> forall t, (t < n)%nat -> x t = 0.

(** The estimate after a number of steps is the least residual over the Krylov space of that dimension. *)
Definition least_residual (mv : (nat -> R) -> nat -> R) (b : nat -> R) (k : nat) (r : R) : Prop :=
  (exists x, inspan n k (kvec mv b) x /\ nrm n (fun t => b t - mv x t) = r) /\
  forall z, inspan n k (kvec mv b) z -> r <= nrm n (fun t => b t - mv z t).

Lemma state_facts tol k h g nb b Hf Rf : 0 < tol -> (1 <= k <= n)%nat -> gst n h0 Av Pv k h g nb Hf Rf ->
  nb <> 0 -> (forall t, (t < n)%nat -> b t = nb * qf h g 0 t) -> dotp n (qf h g 0) (qf h g 0) = 1 ->
  (forall i, (1 <= i < k)%nat -> ltb (abs_ (gam (sf g) nb i)) tol = false) ->
  let mv := pmv Av Pv in
  (forall j, (j < k)%nat -> Rf j j <> 0) /\
  (forall i, (1 <= i <= k)%nat -> least_residual mv b i (Rabs (gam (sf g) nb i))) /\
  (forall y, solves k (Ru Rf) y (beta_of (cf g) (sf g) nb) ->
     nrm n (fun t => b t - mv (comb k y (qf h g)) t) = Rabs (gam (sf g) nb k)) /\
  inspan n k (kvec mv b) (comb k (fun i => nth i (gbeta g) 0) (qf h g)) /\
  (forall y, inspan n k (kvec mv b) (comb k y (qf h g))) /\
  (k = n -> gam (sf g) nb k = 0).
Proof.
  intros Ht Hk G Hnb Hb Q0 Htol mv.
  pose proof (st_rec _ _ _ _ _ _ _ _ _ _ G) as GR.
  assert (Htol' : forall i, (1 <= i < k)%nat -> tol <= Rabs (gam (sf g) nb i)).
  { intros i Hi. apply ltb_R_false. now apply Htol. }
  assert (Hs : forall i, (i + 1 < k)%nat -> Hf (i + 1)%nat i <> 0).
  { intros i Hi Z. specialize (Htol' (i + 1)%nat ltac:(lia)).
    rewrite (gam_breakdown n k mv (qf h g) Hf (cf g) (sf g) Rf Hpos GR nb ltac:(lia) i ltac:(lia) Z) in Htol'.
    rewrite Rabs_R0 in Htol'. lra. }
  assert (De : forall j, (j < k)%nat -> Rf j j <> 0).
  { intros j Hj. rewrite (R_diag n k mv (qf h g) Hf (cf g) (sf g) Rf Hpos GR j Hj).
    apply (all_de n k mv (qf h g) Hf (cf g) (sf g) Rf Hpos GR Q0); auto; lia. }
  assert (Res : forall i y, (1 <= i <= k)%nat -> dotp n (fun t => b t - mv (comb i y (qf h g)) t) (fun t => b t - mv (comb i y (qf h g)) t) =
     bsum i (fun a => (beta_of (cf g) (sf g) nb a - mvmul i (Ru Rf) y a) * (beta_of (cf g) (sf g) nb a - mvmul i (Ru Rf) y a)) +
     gam (sf g) nb i * gam (sf g) nb i).
  { intros i y Hi. apply (residual n i mv (qf h g) Hf (cf g) (sf g) Rf Hpos).
    - apply (gmrec_le n k); [lia|exact GR].
    - exact Q0.
    - exact p_lin.
    - exact p_inj.
    - exact Hb.
    - lia.
    - intros a Ha. apply Hs. lia. }
  assert (Nrm : forall i y, (1 <= i <= k)%nat -> solves i (Ru Rf) y (beta_of (cf g) (sf g) nb) ->
     nrm n (fun t => b t - mv (comb i y (qf h g)) t) = Rabs (gam (sf g) nb i)).
  { intros i y Hi Hy. unfold nrm. rewrite Res by exact Hi. rewrite Rbsum_zero.
    - rewrite Rplus_0_l. apply sqrt_Rsqr_abs.
    - intros a Ha. rewrite (Hy a Ha). ring. }
  assert (Kr : forall i, (1 <= i <= k)%nat -> forall x, inspan n i (kvec mv b) x <-> inspan n i (qf h g) x).
  { intros i Hi. apply (krylov_q n i mv (qf h g) Hf (cf g) (sf g) Rf Hpos) with (nb := nb).
    - apply (gmrec_le n k); [lia|exact GR].
    - now apply pmv_ext.
    - exact p_lin.
    - exact Hb.
    - exact Hnb.
    - intros a Ha. apply Hs. lia. }
  assert (Kc : forall i y, (1 <= i <= k)%nat -> inspan n i (kvec mv b) (comb i y (qf h g))).
  { intros i y Hi. apply Kr; [exact Hi|]. exists y. reflexivity. }
  split; [exact De|]. split.
  { intros i Hi. split.
    - destruct (upper_solve i (Ru Rf) (beta_of (cf g) (sf g) nb)) as (y & Hy).
      + intros a c Ha Hc Hac. unfold Ru. destruct (Nat.leb_spec a c); [lia|reflexivity].
      + intros a Ha. unfold Ru. rewrite Nat.leb_refl. apply De. lia.
      + exists (comb i y (qf h g)). split; [now apply Kc|]. now apply Nrm.
    - intros z Hz. apply Kr in Hz; [|exact Hi]. destruct Hz as (y & Ey).
      rewrite (nrm_ext n (fun t => b t - mv z t) (fun t => b t - mv (comb i y (qf h g)) t)).
      2: { intros t Ht'. f_equal. apply (pmv_ext n Av Pv HeA HeP); auto. }
      unfold nrm. rewrite <- sqrt_Rsqr_abs. apply sqrt_le_1_alt. rewrite Res by exact Hi. unfold Rsqr.
      rewrite <- (Rplus_0_l (gam _ _ _ * _)) at 1. apply Rplus_le_compat_r. apply bsum_nonneg. intros a Ha. apply Rle_0_sqr. }
  split; [intros y Hy; apply Nrm; auto; lia|]. split; [apply Kc; lia|]. split; [intros y; apply Kc; lia|].
  intros ->. destruct (Req_dec (Hf (n - 1 + 1)%nat (n - 1)%nat) 0) as [Z|Z].
  - rewrite <- (gam_breakdown n n mv (qf h g) Hf (cf g) (sf g) Rf Hpos GR nb ltac:(lia) (n - 1) ltac:(lia) Z). f_equal. lia.
  - exfalso. assert (O1 : orthon n (n + 1) (qf h g)).
    { apply (q_orthon n n mv (qf h g) Hf (cf g) (sf g) Rf Hpos GR Q0 n); [lia|]. intros i Hi.
      destruct (Nat.eq_dec i (n - 1)) as [->|]; [exact Z|]. apply Hs. lia. }
    apply orthon_card in O1. lia.
Qed.

Lemma start_facts h rhs nb (q : nat -> R) : nonzero n (Pv (rd h rhs)) -> nb = sqrt (dotp n (Pv (rd h rhs)) (Pv (rd h rhs))) ->
  (forall t, (t < n)%nat -> q t = 1 / nb * Pv (rd h rhs) t) ->
  nb <> 0 /\ (forall t, (t < n)%nat -> Pv (rd h rhs) t = nb * q t) /\ dotp n q q = 1.
Proof.
  intros Hz -> Hq. set (b := Pv (rd h rhs)) in *. set (nb := sqrt (dotp n b b)) in *.
  assert (E : nb * nb = dotp n b b) by (apply sqrt_sqrt, dotp_self_nonneg).
  assert (N : nb <> 0). { intros Z. apply (nonzero_dotp n b Hz). rewrite <- E, Z. ring. }
  split; [exact N|]. split. { intros t Ht. rewrite Hq by exact Ht. field. exact N. }
  transitivity (dotp n (fun t => 1 / nb * b t) (fun t => 1 / nb * b t)).
  { apply bsum_ext. intros t Ht. now rewrite Hq. }
  rewrite dotp_scal_r, dotp_comm, dotp_scal_r, <- E. field. exact N.
Qed.

Theorem gmres_run tol rhs : 0 < tol -> isvec h0 rhs n -> nonzero n (Pv (rd h0 rhs)) ->
  post (gmres_solve dbg isqrt nrow mulv lu tol rhs) h0 (fun x h' => newvec h0 h' x n (rd h' x) /\
    gmres_result n (pmv Av Pv) (Pv (rd h0 rhs)) tol (rd h' x)).
Proof.
  intros Ht Hr Hz. unfold gmres_solve. apply post_bind. unfold post at 1. rewrite Hrow.
  apply post_bind. eapply post_mono; [apply (gmres_init_ok isqrt lu n h0 Av Pv Hpos Hfit Hlu rhs h0 Hsq (ext_refl _) Hr)|].
  cbv beta zeta. intros g h1 (X1 & D1 & G1 & Q1).
  set (nb := sqrt_ _) in *.
  apply post_bind. eapply post_mono; [apply (gmres_loop_ok dbg mulv lu n h0 Av Pv Hpos Hfit Hmul Hlu HeA HeP tol n h1 g nb ltac:(lia) G1 D1)|].
  cbv beta. intros g' h2 (X2 & k & Hf & Rf & Hk & G2 & Q2 & B & C).
  destruct (start_facts h0 rhs nb (qf h2 g' 0) Hz eq_refl) as (Hnb & Hb & Q0).
  { intros t Ht'. rewrite Q2 by exact Ht'. now apply Q1. }
  destruct (state_facts tol k h2 g' nb (Pv (rd h0 rhs)) Hf Rf Ht Hk G2 Hnb Hb Q0 B) as (De & LR & Nrm & _ & Kc & Kn).
  set (mv := pmv Av Pv) in *. set (b := Pv (rd h0 rhs)) in *.
  eapply post_mono; [apply (gmres_finish_ok k h2 g' nb Hf Rf ltac:(lia) G2 De)|]. cbv beta.
  intros x h3 (y & (X3 & P3 & V3 & R3) & Hy).
  assert (X : ext h0 h3) by (eapply ext_trans; [exact X1|]; eapply ext_trans; eauto).
  split.
  { split; [exact X|]. split; [destruct X1, X2; lia|]. split; [exact V3|]. reflexivity. }
  assert (Ex : forall t, (t < n)%nat -> mv (rd h3 x) t = mv (comb k y (qf h2 g')) t).
  { intros t Ht'. apply (pmv_ext n Av Pv HeA HeP); auto. }
  assert (En : nrm n (fun t => b t - mv (rd h3 x) t) = Rabs (gam (sf g') nb k)).
  { rewrite <- (Nrm y Hy). apply nrm_ext. intros t Ht'. now rewrite Ex. }
  exists k. split; [exact Hk|]. split.
  { eapply inspan_ext; [|apply (Kc y)]. intros t Ht'. symmetry. now apply R3. }
  rewrite En. split.
  { destruct C as [C|C].
    - rewrite (Kn C), Rabs_R0. exact Ht.
    - now apply ltb_R_true. }
  split; [apply (LR k); lia|]. intros i z Hi Hz'. specialize (B i Hi). apply ltb_R_false in B. destruct (LR i ltac:(lia)) as [_ L]. specialize (L z Hz'). lra.
Qed.

(** Every intermediate estimate. *)
Theorem gmres_estimates tol m rhs : 0 < tol -> (1 <= m <= n)%nat -> isvec h0 rhs n -> nonzero n (Pv (rd h0 rhs)) ->
  post (bind (gmres_init isqrt lu rhs) (for_u32 0 m (fun _ g => gmres_step dbg mulv lu tol g))) h0 (fun g h' => exists k,
    (1 <= k <= m)%nat /\ length (gbeta g) = (k + 1)%nat /\ (k = m \/ Rabs (nth k (gbeta g) 0) < tol) /\
    least_residual (pmv Av Pv) (Pv (rd h0 rhs)) k (Rabs (nth k (gbeta g) 0))).
Proof.
  intros Ht Hm Hr Hz.
  apply post_bind. eapply post_mono; [apply (gmres_init_ok isqrt lu n h0 Av Pv Hpos Hfit Hlu rhs h0 Hsq (ext_refl _) Hr)|].
  cbv beta zeta. intros g h1 (X1 & D1 & G1 & Q1).
  set (nb := sqrt_ _) in *.
  eapply post_mono; [apply (gmres_loop_ok dbg mulv lu n h0 Av Pv Hpos Hfit Hmul Hlu HeA HeP tol m h1 g nb ltac:(lia) G1 D1)|].
  cbv beta. intros g' h2 (X2 & k & Hf & Rf & Hk & G2 & Q2 & B & C).
  destruct (start_facts h0 rhs nb (qf h2 g' 0) Hz eq_refl) as (Hnb & Hb & Q0).
  { intros t Ht'. rewrite Q2 by exact Ht'. now apply Q1. }
  destruct (state_facts tol k h2 g' nb (Pv (rd h0 rhs)) Hf Rf Ht ltac:(lia) G2 Hnb Hb Q0 B) as (De & LR & _).
  exists k. split; [exact Hk|]. split; [apply (st_beta _ _ _ _ _ _ _ _ _ _ G2)|].
  pose proof (st_g _ _ _ _ _ _ _ _ _ _ G2) as Eg. cbn [zero ROps] in Eg. rewrite Eg. split; [|apply LR; lia].
  destruct C as [C|C]; [now left|right]. now apply ltb_R_true.
Qed.
End Fin.
