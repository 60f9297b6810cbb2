(** * GMRES bit for bit: the recurrences of every quantity it computes, in any arithmetic *)
From Coq Require Import Lia List ZArith.
From Verif Require Import Base Scalar BaseLemmas Spec Sums SpecMat ModelVec ProofVec ModelMat ProofMatOps ModelPacked ProofPacked PropPacked
  ModelSparse SpecSparse ProofSparse PropSparse ProofSparseCsr PropSpmv ModelIter FloatSqrt ProofChol ProofIlu ProofBackSub PropIlu ProofCgs ProofGmresRun
  PropGmresAny SpecUnits ProofUnits.
Import ListNotations.
Local Open Scope nat_scope.

Lemma nth_firstn_lt {A} (l : list A) k i d : i < k -> nth i (firstn k l) d = nth i l d.
Proof. revert k i. induction l as [|a l IH]; intros [|k] [|i] H; cbn; auto; try lia. apply IH. lia. Qed.

Section Run.
Context {T : Type} {Op : Ops T}.
Implicit Types h : heap T.
Variables (dbg : bool) (isqrt : nat -> nat) (nrow : M (heap T) nat) (mulv lu : ptr -> M (heap T) ptr).
Variables (n : nat) (h0 : heap T) (Av Pv : (nat -> T) -> nat -> T).
Hypothesis Hpos : 0 < n.
Hypothesis Hfit : fits_u32 n = true.
Hypothesis Hmul : applies n h0 mulv Av.
Hypothesis Hlu : applies n h0 lu Pv.
Hypothesis HeA : mv_ext n Av.
Hypothesis HeP : mv_ext n Pv.
Hypothesis Hsq : isqrt_exact isqrt.
Hypothesis Hrow : forall h, nrow h = Ok n h.

Lemma finish_bits k h g nb Hf Rf : k <= n -> gst n h0 Av Pv k h g nb Hf Rf ->
  post (gmres_finish n g) h (fun x h' => exists y, newvec h h' x n (accum k y (qf h g)) /\
    forall i, i < k -> ilu_bwd k (fun i j => if Nat.leb i j then Rf i j else zero) (beta_of (cf g) (sf g) nb) y i).
Proof.
  intros Hk G. unfold gmres_finish. rewrite (st_beta _ _ _ _ _ _ _ _ _ _ G).
  replace (k + 1 - 1) with k by lia.
  set (b0 := firstn k (gbeta g)). set (hl := heap_of [b0]).
  assert (Lb0 : length b0 = k) by (unfold b0; rewrite firstn_length, (st_beta _ _ _ _ _ _ _ _ _ _ G); lia).
  destruct (st_r _ _ _ _ _ _ _ _ _ _ G) as [WU RU].
  set (f := fun i j => if Nat.leb i j then Rf i j else zero).
  assert (V0 : isvec hl 0 k) by (split; [cbn; lia|]; unfold len, hl; cbn; exact Lb0).
  destruct (post_ok _ _ _ (back_sub_bits (gr g) 0 k f hl (proj1 WU)
    ltac:(intros i j Hi Hj S s; unfold f; destruct (Nat.leb_spec i j); [now apply RU|now apply utri_get_below]) V0))
    as (r & hl' & E & _ & _ & [V1 V2] & BW).
  apply post_bind, post_run_local. unfold post at 1. rewrite E. cbn [snd].
  set (y := rd hl' 0).
  set (beta := mem hl' 0 ++ skipn k (gbeta g)).
  assert (Lbeta : length beta = k + 1).
  { unfold beta. rewrite app_length, skipn_length, (st_beta _ _ _ _ _ _ _ _ _ _ G). unfold len in V2. lia. }
  assert (Ebeta : forall i, i < k -> nth i beta zero = y i).
  { intros i Hi. unfold beta, y, rd. unfold len in V2. now rewrite app_nth1 by lia. }
  apply post_bind. eapply (post_alloc (T := T)). set (h1 := halloc h _). set (x := next h).
  rewrite Lbeta. replace (k + 1 - 1) with k by lia.
  assert (X1 : ext h h1). { split; [unfold h1, halloc; cbn [next]; lia|]. intros q Hq. unfold h1. apply mem_halloc_other. lia. }
  assert (Vx : isvec h1 x n). { split; [unfold h1, halloc, x; cbn [next]; lia|]. unfold len, h1, x. rewrite mem_halloc_same. apply repeat_length. }
  apply post_bind.
  eapply (post_for_u32 (fun i _ h' => ext h h' /\ isvec h' x n /\ forall t, t < n -> rd h' x t = accum i y (qf h g) t)).
  - apply (fits_u32_le n); [exact Hfit|lia].
  - lia.
  - split; [exact X1|]. split; [exact Vx|]. intros t Ht. unfold rd, h1, x. rewrite mem_halloc_same.
    cbn. now rewrite nth_repeat.
  - intros i _ h2 [_ Hi] (X2 & V2' & R2).
    apply post_bind, (post_vec_at _ _ _ zero); [lia|].
    pose proof (st_q _ _ _ _ _ _ _ _ _ _ G) as Lq.
    apply post_bind, (post_vec_at (T := ptr) _ _ _ 0); [lia|].
    pose proof (st_vec _ _ _ _ _ _ _ _ _ _ G i ltac:(lia)) as Vi.
    pose proof (ext_isvec _ _ _ _ X2 Vi) as [Vi2 Li2].
    apply post_bind. eapply post_mono; [apply scale_rd; [exact Vi2|now rewrite Li2]|]. cbv beta.
    intros r1 h3 (-> & N3 & F3 & L3 & R3). destruct V2' as [Vx2 Lx2]. destruct X2 as [Xn Xm].
    assert (Lx3 : len h3 x = n) by (unfold len; rewrite F3 by exact Vx2; exact Lx2).
    apply post_bind. eapply post_mono; [apply axpy_rd; [rewrite L3, Li2; exact Hfit|rewrite L3, Li2; auto]|]. cbv beta.
    intros r1 h4 (-> & F4 & N4 & L4 & R4). apply post_ret.
    split. { split; [lia|]. intros q Hq. rewrite F4 by (unfold x; lia). rewrite F3 by lia. now apply Xm. }
    split. { split; [lia|]. now rewrite L4. }
    intros t Ht. rewrite R4 by lia. rewrite R3 by lia. rewrite Ebeta by lia.
    assert (rd h3 x t = rd h2 x t) as -> by (unfold rd; now rewrite F3).
    rewrite R2 by exact Ht. cbn [accum].
    assert (rd h2 (nth i (gq g) 0) t = qf h g i t) as ->.
    { unfold qf. unfold rd. rewrite Xm by apply Vi. reflexivity. }
    reflexivity.
  - intros _ h2 (X2 & V2' & R2). apply post_ret. exists y.
    split; [split; [exact X2|]; split; [unfold x; lia|]; split; [exact V2'|exact R2]|].
    intros i Hi. specialize (BW i Hi). unfold ilu_bwd in *. fold f. unfold y. rewrite BW. f_equal. f_equal.
    unfold rd at 1, hl. cbn [mem heap_of nth]. unfold b0. rewrite nth_firstn_lt by exact Hi. now apply (st_b _ _ _ _ _ _ _ _ _ _ G).
Qed.


(** What a run computes from p, the preconditioned right-hand side: k steps, their combination. *)
Record gm_run (tol : T) (p : nat -> T) (x : nat -> T) (nb : T) (k : nat) (Q H : nat -> nat -> T) (c s : nat -> T) (R : nat -> nat -> T) (y : nat -> T) : Prop := {
  gr_k : 1 <= k <= n;
  gr_nb : nb = sqrt_ (bsum n (fun t => mul (p t) (p t)));
  gr_q0 : forall t, t < n -> Q 0 t = mul (div one nb) (p t);
  gr_rec : gmrec n k (pmv Av Pv) Q H c s R;
  gr_y : forall i, i < k -> ilu_bwd k (fun i j => if Nat.leb i j then R i j else zero) (beta_of c s nb) y i;
  gr_x : forall t, t < n -> x t = accum k y Q t;
  gr_go : forall i, 1 <= i < k -> ltb (abs_ (gam s nb i)) tol = false;
  gr_stop : k = n \/ ltb (abs_ (gam s nb k)) tol = true
}.
Lemma run_bits tol rhs : isvec h0 rhs n ->
  exists x h', gmres_solve dbg isqrt nrow mulv lu tol rhs h0 = Ok x h' /\ newvec h0 h' x n (rd h' x) /\
    exists nb k Q H c s R y, gm_run tol (Pv (rd h0 rhs)) (rd h' x) nb k Q H c s R y.
Proof.
  intros Hr. apply post_ok. unfold gmres_solve. apply post_bind. unfold post at 1. rewrite Hrow.
  apply post_bind. eapply post_mono; [apply (gmres_init_ok isqrt lu n h0 Av Pv Hpos Hfit Hlu rhs h0 Hsq (ext_refl _) Hr)|].
  cbv beta zeta. intros g h1 (X1 & D1 & G1 & Q1).
  set (nb := sqrt_ _) in *.
  apply post_bind. eapply post_mono; [apply (gmres_loop_ok dbg mulv lu n h0 Av Pv Hpos Hfit Hmul Hlu HeA HeP tol n h1 g nb ltac:(lia) G1 D1)|].
  cbv beta. intros g' h2 (X2 & k & Hf & Rf & Hk & G2 & Q2 & B2 & C2).
  eapply post_mono; [apply (finish_bits k h2 g' nb Hf Rf ltac:(lia) G2)|]. cbv beta.
  intros x h3 (y & (X3 & P3 & V3 & R3) & BW).
  split. { split; [eapply ext_trans; [exact X1|]; eapply ext_trans; eauto|]. split; [destruct X1, X2; lia|]. split; [exact V3|reflexivity]. }
  exists nb, k, (qf h2 g'), Hf, (cf g'), (sf g'), Rf, y. split; auto.
  - intros t Ht. rewrite Q2 by exact Ht. now apply Q1.
  - apply (st_rec _ _ _ _ _ _ _ _ _ _ G2).
Qed.
End Run.

(** ** Two runs in different units: every quantity of the iteration but the norm, the estimates and
    the result is a pure number *)
Section Units.
Context {T : Type} {Op : Ops T} {s : Z -> T -> T -> Prop} {den : T -> Prop}.
Context (U : Units Op s den) (UR : UnitsRoot Op s) (UO : UnitsOrder Op s).
Hypothesis Hden : forall y, den y.
Local Notation pure := (fun _ : nat => 0%Z).

Lemma arn_res_units n Q Q' v v' k t : 0 < n -> t < n -> (forall i, i < k -> vunits s n pure (Q i) (Q' i)) -> vunits s n pure v v' ->
  s 0%Z (arn_res n Q v k t) (arn_res n Q' v' k t).
Proof.
  intros Hn Ht HQ Hv. induction k as [|k IH]; cbn [arn_res]; [now apply Hv|]. apply (s_add U); [|apply IH; intros; apply HQ; lia].
  eapply (s_mul U 0%Z 0%Z 0%Z); [apply (s_opp U 0%Z), (s_one U)| |reflexivity]. eapply (s_mul U 0%Z 0%Z 0%Z); [|apply (HQ k); lia|reflexivity].
  apply (cdot_units U n pure pure); auto.
Qed.
Lemma rho_units c c' f f' u u' i : (forall a, a < i -> s 0%Z (c a) (c' a)) -> (forall a, a < i -> s 0%Z (f a) (f' a)) ->
  (forall a, a <= i -> s 0%Z (u a) (u' a)) -> s 0%Z (rho c f u i) (rho c' f' u' i).
Proof.
  intros Hc Hs Hu. induction i as [|i IH]; cbn [rho]; [apply Hu; lia|]. apply (s_add U).
  - eapply (s_mul U 0%Z 0%Z); [apply (s_opp U), Hs; lia| |reflexivity]. apply IH; intros; [apply Hc|apply Hs|apply Hu]; lia.
  - eapply (s_mul U 0%Z 0%Z); [apply Hc; lia|apply Hu; lia|reflexivity].
Qed.
Lemma gam_units f f' g nb nb' i : (forall a, a < i -> s 0%Z (f a) (f' a)) -> s g nb nb' -> s g (gam f nb i) (gam f' nb' i).
Proof.
  intros Hs Hn. induction i as [|i IH]; cbn [gam]; [exact Hn|].
  eapply (s_mul U 0%Z g); [apply (s_opp U), Hs; lia| |lia]. apply IH. intros; apply Hs; lia.
Qed.
Lemma accum_units g y y' Q Q' k t : (forall i, i < k -> s g (y i) (y' i)) -> (forall i, i < k -> s 0%Z (Q i t) (Q' i t)) ->
  s g (accum k y Q t) (accum k y' Q' t).
Proof.
  intros Hy HQ. induction k as [|k IH]; cbn [accum]; [apply (s_zero U)|]. apply (s_add U); [|apply IH; intros; [apply Hy|apply HQ]; lia].
  eapply (s_mul U 0%Z g); [apply (s_one U)| |lia]. eapply (s_mul U g 0%Z); [apply Hy; lia|apply HQ; lia|lia].
Qed.
(** The preconditioned matrix takes pure numbers to pure numbers. *)
Definition mv_units n (f f' : (nat -> T) -> nat -> T) (p q : nat -> Z) : Prop :=
  forall x x', vunits s n p x x' -> vunits s n q (f x) (f' x').

Lemma gmrec_units n mv mv' Q Q' H H' c c' f f' R R' m : 0 < n -> mv_units n mv mv' pure pure ->
  vunits s n pure (Q 0) (Q' 0) -> gmrec n m mv Q H c f R -> gmrec n m mv' Q' H' c' f' R' ->
  (forall j, j <= m -> vunits s n pure (Q j) (Q' j)) /\
  (forall j, j < m -> s 0%Z (c j) (c' j) /\ s 0%Z (f j) (f' j)) /\
  (forall i j, j < m -> i <= j -> s 0%Z (R i j) (R' i j)).
Proof.
  intros Hn Hmv HQ0 G G'.
  assert (K : forall j, j <= m -> (forall i, i <= j -> vunits s n pure (Q i) (Q' i)) /\
    (forall i, i < j -> (forall a, a <= i + 1 -> s 0%Z (H a i) (H' a i)) /\ s 0%Z (c i) (c' i) /\ s 0%Z (f i) (f' i))).
  { induction j as [|j IH]; intros Hj.
    - split; [|intros; lia]. intros i Hi. now replace i with 0 by lia.
    - destruct (IH ltac:(lia)) as [IQ IC].
      assert (HD : forall a, a <= j -> s 0%Z (H a j) (H' a j)).
      { intros a Ha. rewrite (g_dot _ _ _ _ _ _ _ _ G a j ltac:(lia) Ha), (g_dot _ _ _ _ _ _ _ _ G' a j ltac:(lia) Ha).
        apply (cdot_units U n pure pure); auto. }
      assert (HW : vunits s n pure (wvec n mv Q j) (wvec n mv' Q' j)).
      { intros t Ht. apply arn_res_units; auto. intros i Hi. apply IQ. lia. }
      assert (HS : s 0%Z (H (j + 1) j) (H' (j + 1) j)).
      { rewrite (g_sub _ _ _ _ _ _ _ _ G j ltac:(lia)), (g_sub _ _ _ _ _ _ _ _ G' j ltac:(lia)).
        apply (s_sqrt UR 0%Z); [|reflexivity]. apply (bsum_units U). intros i Hi. eapply (s_mul U 0%Z 0%Z); auto. }
      assert (HR : s 0%Z (rho c f (fun i => H i j) j) (rho c' f' (fun i => H' i j) j)).
      { apply rho_units; auto; intros a Ha; apply IC; lia. }
      assert (HDl : s 0%Z (delta c f H j) (delta c' f' H' j)).
      { apply (s_sqrt UR 0%Z); [|reflexivity]. apply (s_add U); apply (s_pow2 U 0%Z); auto. }
      split.
      + intros i Hi. destruct (Nat.eq_dec i (S j)) as [->|]; [|apply IQ; lia]. intros t Ht. replace (S j) with (j + 1) by lia.
        rewrite (g_next _ _ _ _ _ _ _ _ G j t ltac:(lia) Ht), (g_next _ _ _ _ _ _ _ _ G' j t ltac:(lia) Ht).
        eapply (s_mul U 0%Z 0%Z); [|now apply HW|reflexivity]. apply (s_div U 0%Z 0%Z); auto. apply (s_one U).
      + intros i Hi. destruct (Nat.eq_dec i j) as [->|]; [|apply IC; lia]. split.
        { intros a Ha. destruct (Nat.eq_dec a (j + 1)) as [->|]; [exact HS|apply HD; lia]. }
        rewrite (g_c _ _ _ _ _ _ _ _ G j ltac:(lia)), (g_c _ _ _ _ _ _ _ _ G' j ltac:(lia)).
        rewrite (g_s _ _ _ _ _ _ _ _ G j ltac:(lia)), (g_s _ _ _ _ _ _ _ _ G' j ltac:(lia)).
        split; apply (s_div U 0%Z 0%Z); auto. }
  destruct (K m (le_n m)) as [KQ KC]. split; [exact KQ|]. split; [intros j Hj; apply KC; lia|].
  intros i j Hj Hi. rewrite (g_R _ _ _ _ _ _ _ _ G i j Hj Hi), (g_R _ _ _ _ _ _ _ _ G' i j Hj Hi). unfold tau.
  apply (s_add U); apply (s_mul U 0%Z 0%Z); try reflexivity; try (apply KC; lia).
  apply rho_units; intros a Ha; apply KC; lia.
Qed.
Lemma gmrec_less n k m mv Q H c f (R : nat -> nat -> T) : m <= k -> gmrec n k mv Q H c f R -> gmrec n m mv Q H c f R.
Proof. intros Hm G. split; intros; apply G; lia || auto. Qed.

(** The runs stop at the same step and their results are the same quantity. *)
Lemma gm_run_units n Av Pv Av' Pv' g tol tol' p p' x x' nb nb' k k' Q Q' H H' c c' f f' R R' y y' : 0 < n ->
  mv_units n (pmv Av Pv) (pmv Av' Pv') pure pure -> s g tol tol' -> vunits s n (fun _ => g) p p' ->
  gm_run n Av Pv tol p x nb k Q H c f R y -> gm_run n Av' Pv' tol' p' x' nb' k' Q' H' c' f' R' y' ->
  k' = k /\ vunits s n (fun _ => g) x x'.
Proof.
  intros Hn Hmv Ht Hp G G'.
  assert (Hnb : s g nb nb').
  { rewrite (gr_nb _ _ _ _ _ _ _ _ _ _ _ _ _ _ G), (gr_nb _ _ _ _ _ _ _ _ _ _ _ _ _ _ G').
    apply (s_sqrt UR (g + g)%Z); [|lia]. apply (bsum_units U). intros i Hi. eapply (s_mul U g g); auto. }
  assert (HQ0 : vunits s n pure (Q 0) (Q' 0)).
  { intros t Ht0. rewrite (gr_q0 _ _ _ _ _ _ _ _ _ _ _ _ _ _ G) by auto. rewrite (gr_q0 _ _ _ _ _ _ _ _ _ _ _ _ _ _ G') by auto.
    eapply (s_mul U (0 - g)%Z g); [|now apply Hp|lia]. apply (s_div U 0%Z g); auto. apply (s_one U). }
  pose proof (gr_rec _ _ _ _ _ _ _ _ _ _ _ _ _ _ G) as GR. pose proof (gr_rec _ _ _ _ _ _ _ _ _ _ _ _ _ _ G') as GR'.
  pose proof (gr_k _ _ _ _ _ _ _ _ _ _ _ _ _ _ G) as Hk. pose proof (gr_k _ _ _ _ _ _ _ _ _ _ _ _ _ _ G') as Hk'.
  assert (Test : forall i, i <= k -> i <= k' -> ltb (abs_ (gam f' nb' i)) tol' = ltb (abs_ (gam f nb i)) tol).
  { intros i Hi Hi'. destruct (gmrec_units n _ _ Q Q' H H' c c' f f' R R' i Hn Hmv HQ0 (gmrec_less _ _ _ _ _ _ _ _ _ Hi GR) (gmrec_less _ _ _ _ _ _ _ _ _ Hi' GR'))
      as (_ & CS & _). apply (un_ltb (UnitsOrder := UO) g); [|exact Ht]. apply (s_abs UR). apply gam_units; [|exact Hnb]. intros a Ha. now apply CS. }
  assert (E : k' = k).
  { destruct (Nat.lt_total k k') as [C|[C|C]]; [exfalso|now symmetry|exfalso].
    - pose proof (gr_go _ _ _ _ _ _ _ _ _ _ _ _ _ _ G' k ltac:(lia)) as E1. rewrite Test in E1 by lia.
      destruct (gr_stop _ _ _ _ _ _ _ _ _ _ _ _ _ _ G) as [->|E2]; [lia|congruence].
    - pose proof (gr_go _ _ _ _ _ _ _ _ _ _ _ _ _ _ G k' ltac:(lia)) as E1. rewrite <- Test in E1 by lia.
      destruct (gr_stop _ _ _ _ _ _ _ _ _ _ _ _ _ _ G') as [->|E2]; [lia|congruence]. }
  subst k'. split; [reflexivity|].
  destruct (gmrec_units n _ _ Q Q' H H' c c' f f' R R' k Hn Hmv HQ0 GR GR') as (KQ & CS & KR).
  assert (HY : vunits s k (fun _ => g) y y').
  { intros i Hi. eapply (s_at g); [|reflexivity]. 
    pose proof (ilu_bwd_units U k pure pure g (fun i j => if Nat.leb i j then R i j else zero) (fun i j => if Nat.leb i j then R' i j else zero)
      (beta_of c f nb) (beta_of c' f' nb') y y') as B. cbv beta in B. eapply s_at; [apply B|]; auto.
    - intros a b Ha Hb. destruct (Nat.leb_spec a b); [|lia]. now apply KR.
    - intros a Ha. unfold beta_of. eapply (s_mul U 0%Z g); [now apply CS| |lia]. apply gam_units; [|exact Hnb]. intros; apply CS; lia.
    - apply (gr_y _ _ _ _ _ _ _ _ _ _ _ _ _ _ G).
    - apply (gr_y _ _ _ _ _ _ _ _ _ _ _ _ _ _ G').
    - lia. }
  intros t Ht0. rewrite (gr_x _ _ _ _ _ _ _ _ _ _ _ _ _ _ G), (gr_x _ _ _ _ _ _ _ _ _ _ _ _ _ _ G') by auto.
  apply accum_units; [exact HY|]. intros i Hi. apply KQ; [lia|exact Ht0].
Qed.

(** The operators *)
Lemma lu_apply_den n r c t (F F' : nat -> nat -> T) b b' : munits s n n (lu_unit r c) F F' -> (forall i, i < n -> den (F i i)) ->
  vunits s n (fun i => r i + t)%Z b b' -> vunits s n (fun i => t - c i)%Z (lu_apply n F b) (lu_apply n F' b').
Proof.
  clear Hden. intros HF Hden Hb. 
  assert (Y : forall m, m <= n -> forall i, i < m -> s (r i + t)%Z (nth i (fwd_list F b m) zero) (nth i (fwd_list F' b' m) zero)).
  { induction m as [|m IH]; intros Hm i Hi; [lia|]. cbn [fwd_list]. cbv zeta. destruct (Nat.eq_dec i m) as [->|].
    - rewrite !app_nth2, !fwd_length, Nat.sub_diag by (rewrite fwd_length; lia). cbn [nth]. apply (ssub_units U); [apply Hb; lia|].
      intros j Hj. eapply (s_mul U); [apply HF; lia|apply IH; lia|]. unfold lu_unit. destruct (Nat.ltb_spec j m); lia.
    - rewrite !app_nth1 by (rewrite fwd_length; lia). apply IH; lia. }
  assert (X : forall y y', vunits s n (fun i => r i + t)%Z y y' -> forall m, m <= n -> forall i, i < m ->
    s (t - c (n - m + i)%nat)%Z (nth i (bwd_list n F y m) zero) (nth i (bwd_list n F' y' m) zero)).
  { intros y y' Hy. induction m as [|m IH]; intros Hm i Hi; [lia|]. cbn [bwd_list]. cbv zeta. destruct i as [|i]; cbn [nth].
    - rewrite Nat.add_0_r. eapply (s_div U); [apply (ssub_units U); [apply (Hy (n - S m)); lia|]|apply (HF (n - S m) (n - S m)); lia|apply Hden; lia|].
      + intros j Hj. eapply (s_mul U); [apply (HF (n - S m) (S (n - S m) + j)); lia|apply IH; lia|].
        unfold lu_unit. destruct (Nat.ltb_spec (S (n - S m) + j) (n - S m)); [lia|]. replace (n - m + j) with (S (n - S m) + j) by lia. lia.
      + unfold lu_unit. rewrite Nat.ltb_irrefl. lia.
    - eapply s_at; [apply IH; lia|]. do 2 f_equal. lia. }
  intros i Hi. unfold lu_apply. eapply s_at; [apply X; auto|]; [|cbv beta; do 2 f_equal; lia].
  intros a Ha. now apply Y.
Qed.
Lemma lu_apply_units n r c t (F F' : nat -> nat -> T) b b' : munits s n n (lu_unit r c) F F' ->
  vunits s n (fun i => r i + t)%Z b b' -> vunits s n (fun i => t - c i)%Z (lu_apply n F b) (lu_apply n F' b').
Proof. intros HF. apply lu_apply_den; auto. Qed.
Lemma dense_apply_units n r c t (A A' : nat -> nat -> T) x x' : munits s n n (fun i j => r i + c j)%Z A A' ->
  vunits s n (fun i => t - c i)%Z x x' -> vunits s n (fun i => r i + t)%Z (dense_apply n A x) (dense_apply n A' x').
Proof.
  intros HA Hx i Hi. unfold dense_apply. apply (fsum_units U).
  - eapply (s_mul U (r i) t); [apply (s_zero U)|apply (s_zero U)|lia].
  - intros k Hk. eapply (s_mul U (r i + c k)%Z (t - c k)%Z); [|now apply Hx|lia].
    eapply (s_mul U 0%Z); [apply (s_one U)|now apply HA|lia].
Qed.
End Units.
