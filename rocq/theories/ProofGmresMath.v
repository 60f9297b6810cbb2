(** * GMRES: the mathematics, over the reals *)
From Coq Require Import Lia Reals Lra.
From Verif Require Import Base Scalar BaseLemmas Spec Sums SpecMat RealVec ProofPacked ProofCholMath ProofCgs PropCgs ProofGmresRun.
Local Open Scope R_scope.

(** Real sums *)
Lemma rs_add n (f g : nat -> R) : bsum n (fun i => f i + g i) = bsum n f + bsum n g.
Proof. exact (bsum_add n f g). Qed.
Lemma rs_sub n (f g : nat -> R) : bsum n (fun i => f i - g i) = bsum n f - bsum n g.
Proof. exact (bsum_sub n f g). Qed.
Lemma rs_scal n c (f : nat -> R) : bsum n (fun i => c * f i) = c * bsum n f.
Proof. exact (bsum_scal_l n c f). Qed.
Lemma rs_scal_r n c (f : nat -> R) : bsum n (fun i => f i * c) = bsum n f * c.
Proof. exact (bsum_scal_r n c f). Qed.
Lemma rs_S n (f : nat -> R) : bsum (S n) f = bsum n f + f n.
Proof. reflexivity. Qed.
Lemma rs_single n (f : nat -> R) k : (k < n)%nat -> (forall i, (i < n)%nat -> i <> k -> f i = 0) -> bsum n f = f k.
Proof. exact (bsum_single n f k). Qed.
Lemma rs_swap n m (f : nat -> nat -> R) :
  bsum n (fun i => bsum m (fun j => f i j)) = bsum m (fun j => bsum n (fun i => f i j)).
Proof. exact (bsum_swap n m f). Qed.
Lemma rs_sq_zero n (f : nat -> R) : bsum n (fun i => f i * f i) = 0 -> forall i, (i < n)%nat -> f i = 0.
Proof. exact (dotp_self_zero n f). Qed.
Lemma rs_one n : bsum n (fun _ => 1) = INR n.
Proof. induction n as [|n IH]; [reflexivity|]. rewrite rs_S, S_INR, IH. reflexivity. Qed.

(** ** Orthonormal families *)
Definition orthon (n m : nat) (Q : nat -> nat -> R) : Prop :=
  forall a b, (a < m)%nat -> (b < m)%nat -> dotp n (Q a) (Q b) = if Nat.eqb a b then 1 else 0.

Lemma dotp_add_r n (x y z : nat -> R) : dotp n x (fun t => y t + z t) = dotp n x y + dotp n x z.
Proof. unfold dotp. rewrite <- rs_add. apply bsum_ext. intros; cbn; ring. Qed.
Lemma dotp_scal_r n a (x y : nat -> R) : dotp n x (fun t => a * y t) = a * dotp n x y.
Proof. unfold dotp. rewrite <- rs_scal. apply bsum_ext. intros; cbn; ring. Qed.
Lemma dotp_orthon n m Q c a : orthon n m Q -> (a < m)%nat -> dotp n (Q a) (comb m c Q) = c a.
Proof.
  intros HO Ha. rewrite dotp_comb. rewrite (rs_single m (fun k => c k * dotp n (Q a) (Q k)) a Ha).
  - rewrite HO by auto. rewrite Nat.eqb_refl. ring.
  - intros i Hi Hne. rewrite HO by auto. destruct (Nat.eqb_spec a i); [congruence|ring].
Qed.
Lemma dotp_comb_l n m c V (x : nat -> R) : dotp n (comb m c V) x = bsum m (fun k => c k * dotp n (V k) x).
Proof. rewrite dotp_comm, dotp_comb. apply bsum_ext. intros k _. now rewrite dotp_comm. Qed.
Lemma pythagoras n m Q c : orthon n m Q -> dotp n (comb m c Q) (comb m c Q) = bsum m (fun k => c k * c k).
Proof.
  intros HO. rewrite dotp_comb_l. apply bsum_ext. intros k Hk. rewrite dotp_orthon; auto.
Qed.
Lemma orthon_indep n m Q c : orthon n m Q -> (forall t, (t < n)%nat -> comb m c Q t = 0) -> forall a, (a < m)%nat -> c a = 0.
Proof.
  intros HO H a Ha. rewrite <- (dotp_orthon n m Q c a HO Ha). unfold dotp. apply Rbsum_zero. intros i Hi.
  rewrite H by exact Hi. cbn; ring.
Qed.
Lemma orthon_le n m m' Q : (m' <= m)%nat -> orthon n m Q -> orthon n m' Q.
Proof. intros L HO a b Ha Hb. apply HO; lia. Qed.

(** No more than n orthonormal vectors in R^n. *)
Lemma orthon_card n m Q : orthon n m Q -> (m <= n)%nat.
Proof.
  intros HO.
  assert (B : forall t, (t < n)%nat -> bsum m (fun a => Q a t * Q a t) <= 1).
  { intros t Ht. pose (e := fun i => if Nat.eqb i t then 1 else 0).
    assert (De : forall x : nat -> R, dotp n x e = x t).
    { intros x. refine (eq_trans (rs_single n (fun k => x k * e k) t Ht _) _).
      - intros i Hi Hne. unfold e. destruct (Nat.eqb_spec i t); [congruence|ring].
      - unfold e. rewrite Nat.eqb_refl. ring. }
    pose (p := comb m (fun a => Q a t) Q).
    pose proof (dotp_self_nonneg n (fun i => 1 * e i - 1 * p i)) as H. rewrite dotp_lin2 in H.
    assert (Epp : dotp n p p = bsum m (fun a => Q a t * Q a t)) by (apply pythagoras; auto).
    assert (Eep : dotp n e p = bsum m (fun a => Q a t * Q a t)).
    { rewrite dotp_comm. unfold p. rewrite dotp_comb_l. apply bsum_ext. intros k Hk. now rewrite De. }
    assert (Eee : dotp n e e = 1) by (rewrite De; unfold e; now rewrite Nat.eqb_refl).
    rewrite Epp, Eep, Eee in H. lra. }
  assert (S1 : bsum n (fun t => bsum m (fun a => Q a t * Q a t)) <= INR n).
  { rewrite <- rs_one. apply bsum_le. exact B. }
  rewrite rs_swap in S1.
  assert (S2 : bsum m (fun a => bsum n (fun t => Q a t * Q a t)) = INR m).
  { rewrite <- rs_one. apply bsum_ext. intros a Ha. change (dotp n (Q a) (Q a) = 1). rewrite HO by auto. now rewrite Nat.eqb_refl. }
  rewrite S2 in S1. now apply INR_le.
Qed.

(** ** Rotations *)
Lemma rho_comb c s m (y : nat -> R) (U : nat -> nat -> R) i :
  rho c s (fun a => bsum m (fun l => y l * U a l)) i = bsum m (fun l => y l * rho c s (fun a => U a l) i).
Proof.
  induction i as [|i IH]; cbn [rho]; [reflexivity|]. rewrite IH. cbn. rewrite <- !rs_scal. rewrite <- rs_add.
  apply bsum_ext. intros; ring.
Qed.
Lemma tau_comb c s m (y : nat -> R) (U : nat -> nat -> R) i :
  tau c s (fun a => bsum m (fun l => y l * U a l)) i = bsum m (fun l => y l * tau c s (fun a => U a l) i).
Proof.
  unfold tau. rewrite rho_comb. cbn. rewrite <- !rs_scal. rewrite <- rs_add. apply bsum_ext. intros; ring.
Qed.
Lemma rho_sub (c s u v : nat -> R) i : rho c s (fun a => u a - v a) i = rho c s u i - rho c s v i.
Proof. induction i as [|i IH]; cbn [rho]; [reflexivity|]. rewrite IH. cbn. ring. Qed.
Lemma tau_sub (c s u v : nat -> R) i : tau c s (fun a => u a - v a) i = tau c s u i - tau c s v i.
Proof. unfold tau. rewrite rho_sub. cbn. ring. Qed.
Lemma rho_e1 (c s : nat -> R) nb i : rho c s (fun a => if Nat.eqb a 0 then nb else 0) i = gam s nb i.
Proof. induction i as [|i IH]; cbn [rho gam]; [reflexivity|]. rewrite IH. cbn. ring. Qed.
Lemma tau_e1 (c s : nat -> R) nb i : tau c s (fun a => if Nat.eqb a 0 then nb else 0) i = beta_of c s nb i.
Proof. unfold tau, beta_of. rewrite rho_e1. cbn. ring. Qed.

(** Rotations keep the sum of squares. *)
Lemma rot_norm (c s u : nat -> R) k : (forall i, (i < k)%nat -> c i * c i + s i * s i = 1) ->
  bsum (S k) (fun i => u i * u i) = bsum k (fun i => tau c s u i * tau c s u i) + rho c s u k * rho c s u k.
Proof.
  induction k as [|k IH]; intros H; [cbn; ring|].
  rewrite rs_S, IH by (intros; apply H; lia). rewrite rs_S. specialize (H k ltac:(lia)).
  set (B := bsum k (fun i => tau c s u i * tau c s u i)).
  change (rho c s u (S k)) with (- s k * rho c s u k + c k * u (S k)).
  change (tau c s u k) with (c k * rho c s u k + s k * u (S k)).
  set (r := rho c s u k). set (x := u (S k)).
  replace (B + r * r + x * x) with (B + (c k * c k + s k * s k) * (r * r + x * x)) by (rewrite H; ring).
  ring.
Qed.

(** ** The recurrences *)
Section Gm.
Variables (n k : nat) (mv : (nat -> R) -> nat -> R) (Q H : nat -> nat -> R) (c s : nat -> R) (Rm : nat -> nat -> R).
Hypothesis Hn : (0 < n)%nat.
Hypothesis G : gmrec n k mv Q H c s Rm.

Lemma arn_res_R v j t : arn_res n Q v j t = v t - comb j (fun i => dotp n (Q i) v) Q t.
Proof.
  induction j as [|j IH]; cbn [arn_res]; [unfold comb; cbn; ring|].
  rewrite IH, cdot_dotp by exact Hn. unfold comb. rewrite rs_S. cbn. ring.
Qed.

Let w (j : nat) : nat -> R := wvec n mv Q j.
Let sub (j : nat) : R := H (j + 1)%nat j.

Lemma mv_q j t : (j < k)%nat -> mv (Q j) t = comb (j + 1) (fun i => H i j) Q t + w j t.
Proof.
  intros Hj. unfold w, wvec. rewrite arn_res_R.
  assert (comb (j + 1) (fun i => dotp n (Q i) (mv (Q j))) Q t = comb (j + 1) (fun i => H i j) Q t) as ->.
  { unfold comb. apply bsum_ext. intros i Hi. rewrite (g_dot _ _ _ _ _ _ _ _ G) by lia. now rewrite cdot_dotp. }
  ring.
Qed.
Lemma sub_sq j : (j < k)%nat -> sub j * sub j = dotp n (w j) (w j).
Proof.
  intros Hj. unfold sub. rewrite (g_sub _ _ _ _ _ _ _ _ G) by lia. apply sqrt_sqrt. apply dotp_self_nonneg.
Qed.
Lemma sub_nonneg j : (j < k)%nat -> 0 <= sub j.
Proof. intros Hj. unfold sub. rewrite (g_sub _ _ _ _ _ _ _ _ G) by lia. apply sqrt_pos. Qed.
Lemma w_zero j : (j < k)%nat -> sub j = 0 -> forall t, (t < n)%nat -> w j t = 0.
Proof. intros Hj E. apply dotp_self_zero. rewrite <- sub_sq, E by exact Hj. ring. Qed.
Lemma w_next j t : (j < k)%nat -> sub j <> 0 -> (t < n)%nat -> w j t = sub j * Q (j + 1)%nat t.
Proof. intros Hj E Ht. rewrite (g_next _ _ _ _ _ _ _ _ G) by auto. fold (sub j). fold (w j). cbn. field. exact E. Qed.

Lemma w_orth j a : (j < k)%nat -> (a <= j)%nat -> orthon n (j + 1) Q -> dotp n (Q a) (w j) = 0.
Proof.
  intros Hj Ha HO.
  rewrite (dotp_ext_r n (Q a) (w j) (fun t => mv (Q j) t - comb (j + 1) (fun i => dotp n (Q i) (mv (Q j))) Q t))
    by (intros; apply arn_res_R).
  rewrite dotp_sub, dotp_orthon by (auto; lia). ring.
Qed.

Hypothesis Q0 : dotp n (Q 0%nat) (Q 0%nat) = 1.

Lemma q_orthon j : (j <= k)%nat -> (forall i, (i < j)%nat -> sub i <> 0) -> orthon n (j + 1) Q.
Proof.
  induction j as [|j IH]; intros Hj Hs.
  - intros a b Ha Hb. replace a with 0%nat by lia. replace b with 0%nat by lia. exact Q0.
  - specialize (IH ltac:(lia) ltac:(intros; apply Hs; lia)).
    assert (E : forall t, (t < n)%nat -> Q (j + 1)%nat t = / sub j * w j t).
    { intros t Ht. rewrite w_next by (try apply Hs; lia). field. apply Hs; lia. }
    assert (N : dotp n (Q (j + 1)%nat) (Q (j + 1)%nat) = 1).
    { rewrite (dotp_ext_r n _ _ (fun t => / sub j * w j t)) by exact E. rewrite dotp_scal_r, dotp_comm.
      rewrite (dotp_ext_r n _ _ (fun t => / sub j * w j t)) by exact E. rewrite dotp_scal_r.
      rewrite <- sub_sq by lia. field. apply Hs; lia. }
    assert (O1 : forall a, (a <= j)%nat -> dotp n (Q a) (Q (j + 1)%nat) = 0).
    { intros a Ha. rewrite (dotp_ext_r n _ _ (fun t => / sub j * w j t)) by exact E. rewrite dotp_scal_r.
      rewrite w_orth by (auto; lia). ring. }
    intros a b Ha Hb. destruct (Nat.eqb_spec a b) as [->|Ne].
    + destruct (Nat.eq_dec b (j + 1)) as [->|]; [exact N|]. rewrite IH by lia. now rewrite Nat.eqb_refl.
    + destruct (Nat.eq_dec b (j + 1)) as [->|]; [apply O1; lia|].
      destruct (Nat.eq_dec a (j + 1)) as [->|]; [rewrite dotp_comm; apply O1; lia|].
      rewrite IH by lia. destruct (Nat.eqb_spec a b); [congruence|reflexivity].
Qed.

(** The Hessenberg matrix with its zeros. *)
Let Hb (i l : nat) : R := if Nat.leb i (l + 1) then H i l else 0.

Hypothesis mv_lin : forall m y X t, (t < n)%nat -> mv (comb m y X) t = comb m y (fun l => mv (X l)) t.

Lemma krylov m y t : (1 <= m)%nat -> (m <= k)%nat -> (forall i, (i + 1 < m)%nat -> sub i <> 0) -> (t < n)%nat ->
  mv (comb m y Q) t = comb m (fun i => bsum m (fun l => y l * Hb i l)) Q t + y (m - 1)%nat * w (m - 1) t.
Proof.
  intros Hm Hk Hs Ht. rewrite mv_lin by exact Ht.
  assert (Hcol : forall l, (l < m)%nat -> mv (Q l) t = comb m (fun i => Hb i l) Q t + (if Nat.eqb l (m - 1) then w l t else 0)).
  { intros l Hl. rewrite mv_q by lia. unfold comb.
    assert (Trunc : bsum m (fun i => Hb i l * Q i t) =
      bsum (l + 1) (fun i => H i l * Q i t) + (if Nat.eqb l (m - 1) then 0 else sub l * Q (l + 1)%nat t)).
    { destruct (Nat.eqb_spec l (m - 1)) as [E|E].
      - replace (l + 1)%nat with m by lia. rewrite Rplus_0_r. apply bsum_ext. intros i Hi. unfold Hb.
        destruct (Nat.leb_spec i (l + 1)); [reflexivity|lia].
      - transitivity (bsum (l + 2) (fun i => Hb i l * Q i t)).
        + refine (bsum_trunc m (l + 2) (fun i => Hb i l * Q i t) _ _); [lia|].
          intros i Hi. unfold Hb. destruct (Nat.leb_spec i (l + 1)); [lia|]. cbn; ring.
        + replace (l + 2)%nat with (S (l + 1)) by lia. rewrite rs_S. f_equal.
          * apply bsum_ext. intros i Hi. unfold Hb. destruct (Nat.leb_spec i (l + 1)); [reflexivity|lia].
          * unfold Hb, sub. destruct (Nat.leb_spec (l + 1) (l + 1)); [reflexivity|lia]. }
    rewrite Trunc. destruct (Nat.eqb_spec l (m - 1)) as [E|E]; [cbn; ring|].
    rewrite (w_next l t) by (try apply Hs; lia). cbn; ring. }
  transitivity (bsum m (fun l => y l * comb m (fun i => Hb i l) Q t) + bsum m (fun l => y l * (if Nat.eqb l (m - 1) then w l t else 0))).
  - rewrite <- rs_add. unfold comb at 1. apply bsum_ext. intros l Hl. rewrite Hcol by exact Hl. ring.
  - f_equal.
    + unfold comb. transitivity (bsum m (fun l => bsum m (fun i => y l * Hb i l * Q i t))).
      * apply bsum_ext. intros l Hl. rewrite <- rs_scal. apply bsum_ext. intros; ring.
      * rewrite rs_swap. apply bsum_ext. intros i Hi. rewrite <- rs_scal_r. reflexivity.
    + rewrite (rs_single m (fun l => y l * (if Nat.eqb l (m - 1) then w l t else 0)) (m - 1)%nat) by
        first [lia | intros i Hi Hne; destruct (Nat.eqb_spec i (m - 1)); [congruence|ring]].
      now rewrite Nat.eqb_refl.
Qed.

(** The rotated columns are those of the triangular matrix. *)
Let de (j : nat) : R := delta c s H j.
Lemma de_sq j : (j < k)%nat -> de j * de j = rho c s (fun i => H i j) j * rho c s (fun i => H i j) j + sub j * sub j.
Proof. intros Hj. unfold de, delta. cbn. apply sqrt_sqrt. fold (sub j). nra. Qed.
Lemma c_eq j : (j < k)%nat -> c j = rho c s (fun i => H i j) j / de j.
Proof. exact (g_c _ _ _ _ _ _ _ _ G j). Qed.
Lemma s_eq j : (j < k)%nat -> s j = sub j / de j.
Proof. exact (g_s _ _ _ _ _ _ _ _ G j). Qed.
Lemma cs_one j : (j < k)%nat -> de j <> 0 -> c j * c j + s j * s j = 1.
Proof.
  intros Hj Hd. rewrite (c_eq j), (s_eq j) by exact Hj.
  transitivity ((rho c s (fun i => H i j) j * rho c s (fun i => H i j) j + sub j * sub j) / (de j * de j)); [field; exact Hd|].
  rewrite <- de_sq by exact Hj. field. exact Hd.
Qed.
Lemma rho_Hb i l : (i <= l + 1)%nat -> rho c s (fun a => Hb a l) i = rho c s (fun a => H a l) i.
Proof. intros Hi. apply rho_ext; auto. intros a Ha. unfold Hb. destruct (Nat.leb_spec a (l + 1)); [reflexivity|lia]. Qed.
Lemma tau_Hb i l : (l < k)%nat -> (i <= l)%nat -> tau c s (fun a => Hb a l) i = Rm i l.
Proof.
  intros Hl Hi. rewrite (g_R _ _ _ _ _ _ _ _ G) by auto. unfold tau. rewrite rho_Hb by lia. unfold Hb.
  destruct (Nat.leb_spec (S i) (l + 1)); [reflexivity|lia].
Qed.
Lemma rho_Hb_zero i l : (l < k)%nat -> (l < i)%nat -> de l <> 0 -> rho c s (fun a => Hb a l) i = 0.
Proof.
  intros Hl Hi Hd. induction i as [|i IH]; [lia|]. cbn [rho].
  destruct (Nat.eq_dec i l) as [->|].
  - rewrite rho_Hb by lia. unfold Hb. destruct (Nat.leb_spec (S l) (l + 1)); [|lia].
    replace (S l) with (l + 1)%nat by lia. fold (sub l).
    change (- s l * rho c s (fun a => H a l) l + c l * sub l = 0).
    rewrite s_eq, c_eq by exact Hl. field. exact Hd.
  - rewrite IH by lia. unfold Hb. destruct (Nat.leb_spec (S i) (l + 1)); [lia|]. cbn. ring.
Qed.
Lemma tau_Hb_zero i l : (l < k)%nat -> (l < i)%nat -> de l <> 0 -> tau c s (fun a => Hb a l) i = 0.
Proof.
  intros Hl Hi Hd. unfold tau. rewrite rho_Hb_zero by auto. unfold Hb. destruct (Nat.leb_spec (S i) (l + 1)); [lia|]. cbn; ring.
Qed.
Lemma R_diag j : (j < k)%nat -> Rm j j = de j.
Proof.
  intros Hj. rewrite (g_R _ _ _ _ _ _ _ _ G) by auto. unfold tau.
  replace (S j) with (j + 1)%nat by lia. fold (sub j).
  change (c j * rho c s (fun i => H i j) j + s j * sub j = de j).
  rewrite (c_eq j), (s_eq j) by exact Hj.
  destruct (Req_dec (de j) 0) as [E|E].
  - pose proof (de_sq j Hj) as S. rewrite E in S.
    assert (rho c s (fun i => H i j) j = 0 /\ sub j = 0) as [-> ->] by (split; nra). rewrite E. unfold Rdiv. ring.
  - transitivity ((rho c s (fun i => H i j) j * rho c s (fun i => H i j) j + sub j * sub j) / de j); [field; exact E|].
    rewrite <- de_sq by exact Hj. field. exact E.
Qed.

(** The triangular matrix with its zeros. *)
Definition Ru (i l : nat) : R := if Nat.leb i l then Rm i l else 0.
Lemma tau_col i l : (l < k)%nat -> (forall j, (j < l + 1)%nat -> de j <> 0) -> tau c s (fun a => Hb a l) i = Ru i l.
Proof.
  intros Hl Hd. unfold Ru. destruct (Nat.leb_spec i l); [now apply tau_Hb|]. apply tau_Hb_zero; auto. apply Hd; lia.
Qed.

Hypothesis mv_inj : forall x, (forall t, (t < n)%nat -> mv x t = 0) -> forall t, (t < n)%nat -> x t = 0.

Lemma de_nonzero j : (j < k)%nat -> (forall i, (i < j)%nat -> sub i <> 0) -> de j <> 0.
Proof.
  induction j as [j IH] using (well_founded_induction Wf_nat.lt_wf). intros Hj Hs Z.
  assert (Hd : forall i, (i < j)%nat -> de i <> 0) by (intros i Hi; apply IH; auto; try lia; intros; apply Hs; lia).
  assert (HO : orthon n (S j) Q) by (replace (S j) with (j + 1)%nat by lia; apply q_orthon; auto; lia).
  pose proof (de_sq j Hj) as Sq. rewrite Z in Sq.
  assert (Hz : rho c s (fun i => H i j) j = 0 /\ sub j = 0) by (split; nra). destruct Hz as [Hr Hsub].
  destruct (upper_null j Ru) as (y & Y1 & Y2).
  { intros a b Ha Hb'. unfold Ru. destruct (Nat.leb_spec a b); [lia|reflexivity]. }
  { intros a Ha. unfold Ru. rewrite Nat.leb_refl, R_diag by lia. apply Hd. exact Ha. }
  { unfold Ru. rewrite Nat.leb_refl, R_diag by exact Hj. exact Z. }
  set (u := fun a => bsum (S j) (fun l => y l * Hb a l)).
  assert (Tu : forall i, (i < j)%nat -> tau c s u i = 0).
  { intros i Hi. unfold u. rewrite tau_comb. etransitivity; [|exact (Y2 i ltac:(lia))].
    unfold mvmul. apply bsum_ext. intros l Hl. change (y l * tau c s (fun a => Hb a l) i = Ru i l * y l).
    destruct (Nat.eq_dec l j) as [->|].
    - rewrite tau_Hb by lia. unfold Ru. destruct (Nat.leb_spec i j); [ring|lia].
    - rewrite tau_col by (try lia; intros; apply Hd; lia). ring. }
  assert (Ru0 : rho c s u j = 0).
  { unfold u. rewrite rho_comb. apply Rbsum_zero. intros l Hl. destruct (Nat.eq_dec l j) as [->|].
    - rewrite rho_Hb by lia. rewrite Hr. ring.
    - rewrite rho_Hb_zero by (auto; try lia; apply Hd; lia). ring. }
  assert (U0 : forall i, (i < S j)%nat -> u i = 0).
  { apply rs_sq_zero. rewrite (rot_norm c s u j) by (intros i Hi; apply cs_one; [lia|apply Hd; lia]).
    rewrite Ru0. rewrite Rbsum_zero; [ring|]. intros i Hi. rewrite Tu by exact Hi. ring. }
  assert (X0 : forall t, (t < n)%nat -> comb (S j) y Q t = 0).
  { apply mv_inj. intros t Ht. rewrite krylov by (try lia; auto; intros; apply Hs; lia).
    replace (S j - 1)%nat with j by lia. rewrite w_zero by auto.
    unfold comb. rewrite Rbsum_zero; [ring|]. intros i Hi. fold (u i). rewrite U0 by exact Hi. ring. }
  pose proof (orthon_indep n (S j) Q y HO X0 j ltac:(lia)) as Yj. rewrite Y1 in Yj. cbn in Yj. lra.
Qed.

(** The residual of an arbitrary combination of the basis vectors. *)
Variables (b : nat -> R) (nb : R).
Hypothesis Hb0 : forall t, (t < n)%nat -> b t = nb * Q 0%nat t.
Hypothesis Hk : (1 <= k)%nat.
Hypothesis Hs : forall i, (i + 1 < k)%nat -> sub i <> 0.

Lemma all_de : forall j, (j < k)%nat -> de j <> 0.
Proof. intros j Hj. apply de_nonzero; auto. intros i Hi. apply Hs. lia. Qed.

Lemma residual y : let r t := b t - mv (comb k y Q) t in
  dotp n r r = bsum k (fun i => (beta_of c s nb i - mvmul k Ru y i) * (beta_of c s nb i - mvmul k Ru y i)) + gam s nb k * gam s nb k.
Proof.
  intros r.
  set (u := fun a => bsum k (fun l => y l * Hb a l)).
  set (e := fun a => if Nat.eqb a 0 then nb else 0).
  set (g := fun a => e a - u a).
  set (yl := y (k - 1)%nat). set (wl := w (k - 1)).
  assert (HO : orthon n k Q).
  { replace k with (k - 1 + 1)%nat by lia. apply q_orthon; [lia|]. intros; apply Hs; lia. }
  assert (Er : forall t, (t < n)%nat -> r t = comb k g Q t - yl * wl t).
  { intros t Ht. unfold r. rewrite krylov by (auto; lia). rewrite Hb0 by exact Ht. fold u. fold yl wl.
    assert (Ee : comb k g Q t = nb * Q 0%nat t - comb k u Q t).
    { unfold comb, g. transitivity (bsum k (fun i => e i * Q i t) - bsum k (fun i => u i * Q i t)).
      - rewrite <- rs_sub. apply bsum_ext. intros; ring.
      - f_equal. rewrite (rs_single k (fun i => e i * Q i t) 0%nat) by
          first [lia | intros i Hi Hne; unfold e; destruct (Nat.eqb_spec i 0); [congruence|ring]]. reflexivity. }
    rewrite Ee. unfold u. ring. }
  assert (Gk : g k = - (sub (k - 1) * yl)).
  { unfold g, e, u. destruct (Nat.eqb_spec k 0); [lia|].
    rewrite (rs_single k (fun l => y l * Hb k l) (k - 1)%nat).
    - unfold Hb, sub, yl. replace (k - 1 + 1)%nat with k by lia. rewrite Nat.leb_refl. ring.
    - lia.
    - intros l Hl Hne. unfold Hb. destruct (Nat.leb_spec k (l + 1)); [lia|ring]. }
  assert (Nr : dotp n r r = bsum (S k) (fun i => g i * g i)).
  { assert (Err : dotp n r r = dotp n (fun t => 1 * comb k g Q t - yl * wl t) (fun t => 1 * comb k g Q t - yl * wl t)).
    { apply bsum_ext. intros t Ht. rewrite Er by exact Ht. cbn; ring. }
    rewrite Err, dotp_lin2, pythagoras by exact HO.
    assert (dotp n (comb k g Q) wl = 0) as ->.
    { rewrite dotp_comb_l. apply Rbsum_zero. intros a Ha. unfold wl. rewrite w_orth; [ring|lia|lia|].
      replace (k - 1 + 1)%nat with k by lia. exact HO. }
    unfold wl. rewrite <- sub_sq by lia. rewrite rs_S, Gk. ring. }
  rewrite Nr. rewrite (rot_norm c s g k) by (intros i Hi; apply cs_one; [lia|apply all_de; lia]).
  f_equal.
  - apply bsum_ext. intros i Hi.
    assert (tau c s g i = beta_of c s nb i - mvmul k Ru y i) as ->; [|reflexivity].
    unfold g. rewrite tau_sub. unfold e. rewrite tau_e1. f_equal. unfold u. rewrite tau_comb. unfold mvmul.
    apply bsum_ext. intros l Hl. rewrite tau_col by (try lia; intros; apply all_de; lia). cbn; ring.
  - assert (rho c s g k = gam s nb k) as ->; [|reflexivity].
    unfold g. rewrite rho_sub. unfold e. rewrite rho_e1.
    assert (rho c s u k = 0) as ->; [|ring].
    unfold u. rewrite rho_comb. apply Rbsum_zero. intros l Hl. rewrite rho_Hb_zero by (auto; apply all_de; lia). ring.
Qed.

(** Breakdown makes the estimate vanish. *)
Lemma gam_breakdown j : (j < k)%nat -> sub j = 0 -> gam s nb (j + 1) = 0.
Proof.
  intros Hj E. replace (j + 1)%nat with (S j) by lia. change (- s j * gam s nb j = 0). rewrite s_eq by exact Hj.
  rewrite E. unfold Rdiv. ring.
Qed.
End Gm.
