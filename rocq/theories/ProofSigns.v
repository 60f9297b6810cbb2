(** * Changes of sign through the recurrences of the algorithms with roots *)
From Coq Require Import ZArith Lia List.
From Verif Require Import Base Scalar BaseLemmas Spec Sums SpecMat ModelVec ProofVec ProofMatOps ProofChol ProofCholSolve ProofIlu
  ProofTdmaBits ProofCgs ProofGmresRun PropGmresAny SpecUnits ProofUnits ProofGmresBits SpecSigns.
Import ListNotations.
Local Open Scope Z_scope.

Section S.
Context {T : Type} {Op : Ops T} {fin : T -> Prop} (Sg : Signs Op fin).
Local Notation s := (sgn Op).
Let U : Units Op s (nonzero Op) := sg_units.
Let UZ : UnitsZero Op s := sg_zero.

(** Only the parity of a grade matters. *)
Lemma sgn_par j k x y : s j x y -> Z.even j = Z.even k -> s k x y.
Proof. unfold sgn. now intros H <-. Qed.
Lemma sgn_at j k m x y : s j x y -> j = k + 2 * m -> s k x y.
Proof. intros H ->. apply (sgn_par _ _ _ _ H). rewrite Z.even_add, Z.even_mul. now destruct (Z.even k). Qed.
Lemma to_same x y : s 0 x y -> same Op x y.
Proof. auto. Qed.
Lemma of_same x y : same Op x y -> s 0 x y.
Proof. auto. Qed.
Lemma same_refl x : same Op x x.
Proof. now left. Qed.
Lemma pow2_same k x y : s k x y -> pow2 y = pow2 x.
Proof. apply sg_square. Qed.
Lemma mul_same k x y : s k x y -> mul y y = mul x x.
Proof. apply sg_square. Qed.

(** ** Cholesky: A i j gets the sign r i + r j, and so does the factor *)
Lemma good_root v : ~ bad v -> nonzero Op (sqrt_ v).
Proof.
  intros N. unfold bad in N. apply (sg_root (Signs := Sg)); [destruct (eqb v zero)|destruct (ltb v zero)]; auto; elim N; auto.
Qed.
Lemma soffrec n r (A A' L L' : nat -> nat -> T) i : (i < n)%nat -> lunits s n (fun i j => r i + r j) A A' ->
  (forall j, (j < i)%nat -> nonzero Op (L j j)) -> (forall k j, (k < i)%nat -> (j <= k)%nat -> s (r k + r j) (L k j) (L' k j)) ->
  (forall j, (j < i)%nat -> offrec A L i j) -> (forall j, (j < i)%nat -> offrec A' L' i j) ->
  forall j, (j < i)%nat -> s (r i + r j) (L i j) (L' i j).
Proof.
  intros Hi HA D Hup H H' j. induction j as [j IH] using lt_wf_ind. intros Hj. rewrite (H j Hj), (H' j Hj).
  eapply (sgn_at (r i + r j - (r j + r j)) _ (- r j)); [|lia].
  eapply (s_div U (r i + r j) (r j + r j)); [apply (ssub_units U); [apply HA; lia|]|apply (Hup j j); lia|now apply D|reflexivity].
  intros k Hk. eapply (sgn_at ((r i + r k) + (r j + r k)) _ (r k)); [|lia].
  eapply (s_mul U (r i + r k) (r j + r k)); [apply IH; lia|apply Hup; lia|reflexivity].
Qed.
Lemma spivot n r (A A' L L' : nat -> nat -> T) i : (i < n)%nat -> lunits s n (fun i j => r i + r j) A A' ->
  (forall j, (j < i)%nat -> s (r i + r j) (L i j) (L' i j)) -> same Op (pivot A L i) (pivot A' L' i).
Proof.
  intros Hi HA H. unfold pivot. apply to_same. apply (ssub_units U); [eapply (sgn_at (r i + r i) _ (r i)); [apply HA; lia|lia]|].
  intros k Hk. apply of_same. rewrite (pow2_same _ _ _ (H k Hk)). apply same_refl.
Qed.
Lemma srows n r (A A' L L' : nat -> nat -> T) m : (m <= n)%nat -> lunits s n (fun i j => r i + r j) A A' ->
  (forall i, (i < m)%nat -> rowrec A L i) -> (forall i, (i < m)%nat -> rowrec A' L' i) ->
  lunits s m (fun i j => r i + r j) L L'.
Proof.
  intros Hm HA H H' i. induction i as [i IH] using lt_wf_ind. intros j Hi Hj.
  destruct (H i Hi) as [Ho [_ Hd]]. destruct (H' i Hi) as [Ho' [_ Hd']].
  assert (L0 : forall j, (j < i)%nat -> s (r i + r j) (L i j) (L' i j)).
  { apply (soffrec n r A A'); auto; [lia| |].
    - intros k Hk. destruct (H k ltac:(lia)) as [_ [N E]]. rewrite E. now apply good_root.
    - intros k j' Hk Hj'. apply IH; lia. }
  destruct (Nat.eq_dec j i) as [->|]; [|apply L0; lia]. rewrite Hd, Hd'. eapply (sgn_at 0 _ (- r i)); [|lia].
  apply of_same. apply (sg_sqrt (Signs := Sg)). apply (spivot n r A A'); auto. lia.
Qed.
Lemma sdiag (A L : nat -> nat -> T) n : factored n A L -> forall i, (i < n)%nat -> nonzero Op (L i i).
Proof. intros H i Hi. destruct (H i Hi) as [_ [N E]]. rewrite E. now apply good_root. Qed.
Lemma sbad x x' : same Op x x' -> bad x' <-> bad x.
Proof.
  intros H. unfold bad. rewrite (un_eqb (UnitsZero := UZ) 0 x x' H), (sg_ltb (Signs := Sg) x zero x' zero H (same_refl _)). tauto.
Qed.
(** Both fail at the same column, or none. *)
Lemma spivots n r (A A' L L' : nat -> nat -> T) m : (m < n)%nat -> lunits s n (fun i j => r i + r j) A A' ->
  (forall i, (i < m)%nat -> rowrec A L i) -> (forall i, (i < m)%nat -> rowrec A' L' i) ->
  (forall j, (j < m)%nat -> offrec A L m j) -> (forall j, (j < m)%nat -> offrec A' L' m j) ->
  bad (pivot A' L' m) <-> bad (pivot A L m).
Proof.
  intros Hm HA H H' Ho Ho'. apply sbad. apply (spivot n r A A'); auto.
  apply (soffrec n r A A'); auto.
  - intros k Hk. destruct (H k ltac:(lia)) as [_ [N E]]. rewrite E. now apply good_root.
  - intros k j Hk Hj. apply (srows n r A A' L L' m); auto. lia.
Qed.
Lemma sfact_fail n r (A A' L L' : nat -> nat -> T) k : lunits s n (fun i j => r i + r j) A A' ->
  factored n A L -> failed n A' L' k -> False.
Proof.
  intros HA H (Hk & H1 & H2 & _ & B & _). destruct (H k Hk) as [Ho [N _]]. apply N.
  apply (spivots n r A A' L L' k Hk HA); auto; intros; apply H; lia.
Qed.
Lemma sfail_fact n r (A A' L L' : nat -> nat -> T) k : lunits s n (fun i j => r i + r j) A A' ->
  failed n A L k -> factored n A' L' -> False.
Proof.
  intros HA (Hk & H1 & H2 & _ & B & _) H'. destruct (H' k Hk) as [Ho [N _]]. apply N.
  apply (spivots n r A A' L L' k Hk HA); auto; intros; apply H'; lia.
Qed.
Lemma sfail n r (A A' L L' : nat -> nat -> T) k k' : lunits s n (fun i j => r i + r j) A A' ->
  failed n A L k -> failed n A' L' k' -> k = k'.
Proof.
  intros HA (Hk & H1 & H2 & _ & B & _) (Hk' & H1' & H2' & _ & B' & _).
  destruct (Nat.lt_total k k') as [C|[C|C]]; [exfalso| exact C|exfalso].
  - destruct (H1' k C) as [Ho [N _]]. apply N. apply (spivots n r A A' L L' k Hk HA); auto; intros; apply H1'; lia.
  - destruct (H1 k' C) as [Ho [N _]]. apply N. apply (spivots n r A A' L L' k' Hk' HA); auto; intros; apply H1; lia.
Qed.
Lemma ssubst n r t (L L' : nat -> nat -> T) b b' X X' :
  lunits s n (fun i j => r i + r j) L L' -> vunits s n (fun i => r i + t) b b' -> (forall i, (i < n)%nat -> nonzero Op (L i i)) ->
  substituted n L b X -> substituted n L' b' X' -> vunits s n (fun i => t - r i) X X'.
Proof.
  intros HL Hb D (Y & H1 & H2) (Y' & H1' & H2').
  assert (HY : vunits s n (fun i => r i + t) Y Y').
  { intros i. induction i as [i IH] using lt_wf_ind. intros Hi. rewrite (H1 i Hi), (H1' i Hi).
    eapply (sgn_at (r i + t - (r i + r i)) _ (- r i)); [|lia].
    eapply (s_div U (r i + t) (r i + r i)); [apply (ssub_units U); [now apply Hb|]|apply (HL i i); lia|now apply D|reflexivity].
    intros j Hj. eapply (sgn_at ((r i + r j) + (r j + t)) _ (r j)); [|lia].
    eapply (s_mul U (r i + r j) (r j + t)); [apply HL; lia|apply IH; lia|reflexivity]. }
  cut (forall m i, (i < n)%nat -> (n - S i < m)%nat -> s (t - r i) (X i) (X' i)).
  { intros C i Hi. apply (C n); lia. }
  induction m as [|m IH]; intros i Hi Hm; [lia|]. rewrite (H2 i Hi), (H2' i Hi).
  eapply (s_div U (r i + t) (r i + r i)); [apply (ssub_units U); [now apply HY|]|apply (HL i i); lia|now apply D|lia].
  intros j Hj. eapply (s_mul U (r (S i + j)%nat + r i) (t - r (S i + j)%nat)); [apply HL; lia|apply IH; lia|lia].
Qed.

(** ** GMRES: every vector gets the signs q, the numbers are the same *)
Section Gmres.
Variable q : nat -> Z.
Lemma scdot n x x' y y' : (0 < n)%nat -> vunits s n q x x' -> vunits s n q y y' -> same Op (cdot n x y) (cdot n x' y').
Proof.
  intros Hn Hx Hy. apply to_same. apply (lsum_units U). intros i Hi. eapply (sgn_at (q i + q i) _ (q i)); [|lia].
  eapply (s_mul U (q i) (q i)); [apply Hx; lia|apply Hy; lia|reflexivity].
Qed.
Lemma ssquares n x x' : vunits s n q x x' -> bsum n (fun t => mul (x' t) (x' t)) = bsum n (fun t => mul (x t) (x t)).
Proof. intros H. induction n as [|n IH]; cbn; [reflexivity|]. rewrite IH by (intros i Hi; apply H; lia). now rewrite (mul_same (q n) (x n) (x' n)) by (apply H; lia). Qed.
Lemma sarn n Q Q' v v' k t : (0 < n)%nat -> (t < n)%nat -> (forall i, (i < k)%nat -> vunits s n q (Q i) (Q' i)) -> vunits s n q v v' ->
  s (q t) (arn_res n Q v k t) (arn_res n Q' v' k t).
Proof.
  intros Hn Ht HQ Hv. induction k as [|k IH]; cbn [arn_res]; [now apply Hv|]. apply (s_add U); [|apply IH; intros; apply HQ; lia].
  eapply (s_mul U 0 (q t)); [apply (s_opp U 0), (s_one U)| |lia]. eapply (s_mul U 0 (q t)); [|apply (HQ k); lia|lia].
  apply of_same, scdot; auto.
Qed.
Lemma srho c c' f f' u u' i : (forall a, (a < i)%nat -> same Op (c a) (c' a)) -> (forall a, (a < i)%nat -> same Op (f a) (f' a)) ->
  (forall a, (a <= i)%nat -> same Op (u a) (u' a)) -> same Op (rho c f u i) (rho c' f' u' i).
Proof.
  intros Hc Hs Hu. induction i as [|i IH]; cbn [rho]; [apply Hu; lia|]. apply to_same, (s_add U).
  - eapply (s_mul U 0 0); [apply (s_opp U), of_same, Hs; lia| |reflexivity]. apply of_same, IH; intros; [apply Hc|apply Hs|apply Hu]; lia.
  - eapply (s_mul U 0 0); [apply of_same, Hc; lia|apply of_same, Hu; lia|reflexivity].
Qed.
Lemma sgam f f' nb i : (forall a, (a < i)%nat -> same Op (f a) (f' a)) -> same Op (gam f nb i) (gam f' nb i).
Proof.
  intros Hs. induction i as [|i IH]; cbn [gam]; [apply same_refl|]. apply to_same.
  eapply (s_mul U 0 0); [apply (s_opp U), of_same, Hs; lia| |lia]. apply of_same, IH. intros; apply Hs; lia.
Qed.
Lemma saccum y y' Q Q' k t : (forall i, (i < k)%nat -> same Op (y i) (y' i)) -> (forall i, (i < k)%nat -> s (q t) (Q i t) (Q' i t)) ->
  s (q t) (accum k y Q t) (accum k y' Q' t).
Proof.
  intros Hy HQ. induction k as [|k IH]; cbn [accum]; [apply (s_zero U)|]. apply (s_add U); [|apply IH; intros; [apply Hy|apply HQ]; lia].
  eapply (s_mul U 0 (q t)); [apply (s_one U)| |lia]. eapply (s_mul U 0 (q t)); [apply of_same, Hy; lia|apply HQ; lia|lia].
Qed.
Lemma sgmrec n mv mv' Q Q' H H' c c' f f' R R' m : (0 < n)%nat -> mv_units (s := s) n mv mv' q q ->
  vunits s n q (Q 0%nat) (Q' 0%nat) -> gmrec n m mv Q H c f R -> gmrec n m mv' Q' H' c' f' R' ->
  (forall j, (j <= m)%nat -> vunits s n q (Q j) (Q' j)) /\
  (forall j, (j < m)%nat -> same Op (c j) (c' j) /\ same Op (f j) (f' j)) /\
  (forall i j, (j < m)%nat -> (i <= j)%nat -> same Op (R i j) (R' i j)).
Proof.
  intros Hn Hmv HQ0 G G'.
  assert (K : forall j, (j <= m)%nat -> (forall i, (i <= j)%nat -> vunits s n q (Q i) (Q' i)) /\
    (forall i, (i < j)%nat -> (forall a, (a <= i + 1)%nat -> same Op (H a i) (H' a i)) /\ same Op (c i) (c' i) /\ same Op (f i) (f' i))).
  { induction j as [|j IH]; intros Hj.
    - split; [|intros; lia]. intros i Hi. now replace i with 0%nat by lia.
    - destruct (IH ltac:(lia)) as [IQ IC].
      assert (HD : forall a, (a <= j)%nat -> same Op (H a j) (H' a j)).
      { intros a Ha. rewrite (g_dot _ _ _ _ _ _ _ _ G a j ltac:(lia) Ha), (g_dot _ _ _ _ _ _ _ _ G' a j ltac:(lia) Ha).
        apply scdot; auto. }
      assert (HW : vunits s n q (wvec n mv Q j) (wvec n mv' Q' j)).
      { intros t Ht. apply sarn; auto. intros i Hi. apply IQ. lia. }
      assert (HS : H' (j + 1)%nat j = H (j + 1)%nat j).
      { rewrite (g_sub _ _ _ _ _ _ _ _ G j ltac:(lia)), (g_sub _ _ _ _ _ _ _ _ G' j ltac:(lia)).
        f_equal. now apply ssquares. }
      assert (HR : same Op (rho c f (fun i => H i j) j) (rho c' f' (fun i => H' i j) j)).
      { apply srho; auto; intros a Ha; apply IC; lia. }
      assert (HDl : delta c' f' H' j = delta c f H j).
      { unfold delta. now rewrite HS, (pow2_same 0 _ _ HR). }
      split.
      + intros i Hi. destruct (Nat.eq_dec i (S j)) as [->|]; [|apply IQ; lia]. intros t Ht. replace (S j) with (j + 1)%nat by lia.
        rewrite (g_next _ _ _ _ _ _ _ _ G j t ltac:(lia) Ht), (g_next _ _ _ _ _ _ _ _ G' j t ltac:(lia) Ht), HS.
        eapply (s_mul U 0 (q t)); [apply of_same, same_refl|now apply HW|reflexivity].
      + intros i Hi. destruct (Nat.eq_dec i j) as [->|]; [|apply IC; lia]. split.
        { intros a Ha. destruct (Nat.eq_dec a (j + 1)) as [->|]; [rewrite HS; apply same_refl|apply HD; lia]. }
        rewrite (g_c _ _ _ _ _ _ _ _ G j ltac:(lia)), (g_c _ _ _ _ _ _ _ _ G' j ltac:(lia)).
        rewrite (g_s _ _ _ _ _ _ _ _ G j ltac:(lia)), (g_s _ _ _ _ _ _ _ _ G' j ltac:(lia)).
        rewrite HDl, HS. split; [|apply same_refl]. apply (sg_div (Signs := Sg) 0). exact HR. }
  destruct (K m (le_n m)) as [KQ KC]. split; [exact KQ|]. split; [intros j Hj; apply KC; lia|].
  intros i j Hj Hi. rewrite (g_R _ _ _ _ _ _ _ _ G i j Hj Hi), (g_R _ _ _ _ _ _ _ _ G' i j Hj Hi). unfold tau. apply to_same.
  apply (s_add U); apply (s_mul U 0 0); try reflexivity; try (apply of_same; apply KC; lia).
  apply of_same, srho; intros a Ha; apply KC; lia.
Qed.

(** What a finite result says about the numbers it was computed from. *)
Lemma fin_accum k y Q t : fin (accum k y Q t) -> forall i, (i < k)%nat -> fin (y i) /\ fin (Q i t).
Proof.
  induction k as [|k IH]; cbn [accum]; intros F i Hi; [lia|]. destruct (sg_fin_add (Signs := Sg) _ _ F) as [F1 F2].
  destruct (Nat.eq_dec i k) as [->|]; [|apply IH; auto; lia]. apply (sg_fin_mul (Signs := Sg)) in F1. now apply (sg_fin_mul (Signs := Sg)).
Qed.
Lemma fin_run n Av Pv tol p x nb k Q H c f R y : (0 < n)%nat -> gm_run n Av Pv tol p x nb k Q H c f R y -> (forall t, (t < n)%nat -> fin (x t)) ->
  (forall t, (t < n)%nat -> fin (p t)) /\ (forall i, (i < k)%nat -> nonzero Op (R i i)).
Proof.
  intros Hn G F. pose proof (gr_k _ _ _ _ _ _ _ _ _ _ _ _ _ _ G) as Hk.
  assert (FA : forall t, (t < n)%nat -> forall i, (i < k)%nat -> fin (y i) /\ fin (Q i t)).
  { intros t Ht. apply fin_accum. rewrite <- (gr_x _ _ _ _ _ _ _ _ _ _ _ _ _ _ G) by exact Ht. now apply F. }
  split.
  - intros t Ht. destruct (FA t Ht 0%nat ltac:(lia)) as [_ K]. rewrite (gr_q0 _ _ _ _ _ _ _ _ _ _ _ _ _ _ G) in K by exact Ht.
    now apply (sg_fin_mul (Signs := Sg)) in K.
  - intros i Hi. destruct (FA 0%nat Hn i Hi) as [K _]. rewrite (gr_y _ _ _ _ _ _ _ _ _ _ _ _ _ _ G i Hi) in K.
    apply (sg_fin_div (Signs := Sg)) in K. now rewrite Nat.leb_refl in K.
Qed.
Lemma fin_lu n F b : (forall t, (t < n)%nat -> fin (lu_apply n F b t)) -> forall i, (i < n)%nat -> nonzero Op (F i i).
Proof.
  intros H i Hi. specialize (H i Hi). unfold lu_apply in H.
  assert (K : forall m y i, (m <= n)%nat -> (i < m)%nat -> exists a, nth i (bwd_list n F y m) zero = div a (F (n - m + i)%nat (n - m + i)%nat)).
  { clear. induction m as [|m IH]; intros y i Hm Hi; [lia|]. cbn [bwd_list]. cbv zeta. destruct i as [|i]; cbn [nth].
    - rewrite Nat.add_0_r. eauto.
    - destruct (IH y i ltac:(lia) ltac:(lia)) as [a E]. exists a. rewrite E. do 2 f_equal; lia. }
  destruct (K n (fun k => nth k (fwd_list F b n) zero) i (le_n n) Hi) as [a E]. rewrite E in H. apply (sg_fin_div (Signs := Sg)) in H.
  now replace (n - n + i)%nat with i in H by lia.
Qed.

(** The runs stop at the same step; a finite result gets the signs q. *)
Lemma sgm_run n Av Pv Av' Pv' tol tol' p p' x x' nb nb' k k' Q Q' H H' c c' f f' R R' y y' : (0 < n)%nat ->
  mv_units (s := s) n (pmv Av Pv) (pmv Av' Pv') q q -> same Op tol tol' -> vunits s n q p p' ->
  gm_run n Av Pv tol p x nb k Q H c f R y -> gm_run n Av' Pv' tol' p' x' nb' k' Q' H' c' f' R' y' ->
  (forall t, (t < n)%nat -> fin (x t)) -> k' = k /\ vunits s n q x x'.
Proof.
  intros Hn Hmv Ht Hp G G' F. destruct (fin_run _ _ _ _ _ _ _ _ _ _ _ _ _ _ Hn G F) as [_ RN].
  assert (Hnb : nb' = nb).
  { rewrite (gr_nb _ _ _ _ _ _ _ _ _ _ _ _ _ _ G), (gr_nb _ _ _ _ _ _ _ _ _ _ _ _ _ _ G'). f_equal. now apply ssquares. }
  subst nb'.
  assert (HQ0 : vunits s n q (Q 0%nat) (Q' 0%nat)).
  { intros t Ht0. rewrite (gr_q0 _ _ _ _ _ _ _ _ _ _ _ _ _ _ G) by auto. rewrite (gr_q0 _ _ _ _ _ _ _ _ _ _ _ _ _ _ G') by auto.
    eapply (s_mul U 0 (q t)); [apply of_same, same_refl|now apply Hp|lia]. }
  pose proof (gr_rec _ _ _ _ _ _ _ _ _ _ _ _ _ _ G) as GR. pose proof (gr_rec _ _ _ _ _ _ _ _ _ _ _ _ _ _ G') as GR'.
  pose proof (gr_k _ _ _ _ _ _ _ _ _ _ _ _ _ _ G) as Hk. pose proof (gr_k _ _ _ _ _ _ _ _ _ _ _ _ _ _ G') as Hk'.
  assert (Test : forall i, (i <= k)%nat -> (i <= k')%nat -> ltb (abs_ (gam f' nb i)) tol' = ltb (abs_ (gam f nb i)) tol).
  { intros i Hi Hi'. destruct (sgmrec n _ _ Q Q' H H' c c' f f' R R' i Hn Hmv HQ0 (gmrec_less _ _ _ _ _ _ _ _ _ Hi GR) (gmrec_less _ _ _ _ _ _ _ _ _ Hi' GR'))
      as (_ & CS & _). apply (sg_ltb (Signs := Sg)); [|exact Ht]. apply (sg_abs (Signs := Sg) 0). apply of_same, sgam. intros a Ha. now apply CS. }
  assert (E : k' = k).
  { destruct (Nat.lt_total k k') as [C|[C|C]]; [exfalso|now symmetry|exfalso].
    - pose proof (gr_go _ _ _ _ _ _ _ _ _ _ _ _ _ _ G' k ltac:(lia)) as E1. rewrite Test in E1 by lia.
      destruct (gr_stop _ _ _ _ _ _ _ _ _ _ _ _ _ _ G) as [->|E2]; [lia|congruence].
    - pose proof (gr_go _ _ _ _ _ _ _ _ _ _ _ _ _ _ G k' ltac:(lia)) as E1. rewrite <- Test in E1 by lia.
      destruct (gr_stop _ _ _ _ _ _ _ _ _ _ _ _ _ _ G') as [->|E2]; [lia|congruence]. }
  subst k'. split; [reflexivity|].
  destruct (sgmrec n _ _ Q Q' H H' c c' f f' R R' k Hn Hmv HQ0 GR GR') as (KQ & CS & KR).
  assert (HY : vunits s k (fun _ => 0) y y').
  { intros i Hi.
    pose proof (ilu_bwd_units U k (fun _ => 0) (fun _ => 0) 0 (fun i j => if Nat.leb i j then R i j else zero) (fun i j => if Nat.leb i j then R' i j else zero)
      (beta_of c f nb) (beta_of c' f' nb) y y') as B. cbv beta in B. eapply s_at; [apply B|]; auto.
    - intros a b Ha Hb. destruct (Nat.leb_spec a b); [|lia]. apply of_same. now apply KR.
    - intros a Ha. unfold beta_of. eapply (s_mul U 0 0); [now apply CS| |lia]. apply of_same, sgam. intros; apply CS; lia.
    - intros a Ha. rewrite Nat.leb_refl. now apply RN.
    - apply (gr_y _ _ _ _ _ _ _ _ _ _ _ _ _ _ G).
    - apply (gr_y _ _ _ _ _ _ _ _ _ _ _ _ _ _ G'). }
  intros t Ht0. rewrite (gr_x _ _ _ _ _ _ _ _ _ _ _ _ _ _ G), (gr_x _ _ _ _ _ _ _ _ _ _ _ _ _ _ G') by auto.
  apply saccum; [exact HY|]. intros i Hi. apply KQ; [lia|exact Ht0].
Qed.
End Gmres.
End S.
