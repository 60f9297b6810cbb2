(** * GMRES: what the run computes, for every scalar type *)
From Coq Require Import Lia.
From Verif Require Import Base Scalar BaseLemmas Spec Sums SpecMat ModelVec ProofVec ProofVecProp ModelMat ProofMatOps
  ModelPacked ProofPacked FloatSqrt PropPacked ModelSparse ModelIter ProofCgs.
Local Open Scope sc_scope.

(** ** The recurrences *)
Section Rec.
Context {T : Type} {Op : Ops T}.

(** v minus its components along q_0 .. q_(k-1), all taken with the original v. *)
Fixpoint arn_res (n : nat) (Q : nat -> nat -> T) (v : nat -> T) (k t : nat) : T :=
  match k with 0 => v t | S j => (- one) * (cdot n (Q j) v * Q j t) + arn_res n Q v j t end.
(** A column u under the rotations: the entry i just before rotation i, and after it. *)
Fixpoint rho (c s : nat -> T) (u : nat -> T) (i : nat) : T :=
  match i with 0 => u 0%nat | S i' => - s i' * rho c s u i' + c i' * u (S i') end.
Definition tau (c s u : nat -> T) (i : nat) : T := c i * rho c s u i + s i * u (S i).
(** The residual estimate. *)
Fixpoint gam (s : nat -> T) (nb : T) (i : nat) : T :=
  match i with 0 => nb | S i' => - s i' * gam s nb i' end.
Definition beta_of (c s : nat -> T) (nb : T) (i : nat) : T := c i * gam s nb i.

Definition wvec (n : nat) (mv : (nat -> T) -> nat -> T) (Q : nat -> nat -> T) (j : nat) : nat -> T :=
  arn_res n Q (mv (Q j)) (j + 1).
Definition delta (c s : nat -> T) (H : nat -> nat -> T) (j : nat) : T :=
  sqrt_ (pow2 (rho c s (fun i => H i j) j) + pow2 (H (j + 1)%nat j)).

(** k steps of Arnoldi's process with Givens rotations. *)
Record gmrec (n k : nat) (mv : (nat -> T) -> nat -> T) (Q H : nat -> nat -> T) (c s : nat -> T) (R : nat -> nat -> T) : Prop := {
  g_dot : forall i j, (j < k)%nat -> (i <= j)%nat -> H i j = cdot n (Q i) (mv (Q j));
  g_sub : forall j, (j < k)%nat -> H (j + 1)%nat j = sqrt_ (bsum n (fun t => wvec n mv Q j t * wvec n mv Q j t));
  g_next : forall j t, (j < k)%nat -> (t < n)%nat -> Q (j + 1)%nat t = (one / H (j + 1)%nat j) * wvec n mv Q j t;
  g_s : forall j, (j < k)%nat -> s j = H (j + 1)%nat j / delta c s H j;
  g_c : forall j, (j < k)%nat -> c j = rho c s (fun i => H i j) j / delta c s H j;
  g_R : forall i j, (j < k)%nat -> (i <= j)%nat -> R i j = tau c s (fun i => H i j) i
}.

Lemma arn_res_ext n Q Q' v v' k t : (0 < n)%nat -> (t < n)%nat ->
  (forall j u, (j < k)%nat -> (u < n)%nat -> Q j u = Q' j u) -> (forall u, (u < n)%nat -> v u = v' u) ->
  arn_res n Q v k t = arn_res n Q' v' k t.
Proof.
  intros Hn Ht HQ Hv. induction k as [|k IH]; cbn [arn_res]; [auto|].
  rewrite IH by (intros; apply HQ; lia). rewrite (HQ k t) by lia.
  rewrite (cdot_ext n (Q k) v (Q' k) v') by auto. reflexivity.
Qed.
Lemma rho_ext c s u c' s' u' i : (forall a, (a < i)%nat -> c a = c' a) -> (forall a, (a < i)%nat -> s a = s' a) ->
  (forall a, (a <= i)%nat -> u a = u' a) -> rho c s u i = rho c' s' u' i.
Proof.
  intros Hc Hs Hu. induction i as [|i IH]; cbn [rho]; [apply Hu; lia|].
  rewrite IH by (intros; auto with arith). rewrite Hc, Hs, Hu by lia. reflexivity.
Qed.
Lemma gam_ext s s' nb i : (forall a, (a < i)%nat -> s a = s' a) -> gam s nb i = gam s' nb i.
Proof. induction i as [|i IH]; intros Hs; cbn [gam]; [reflexivity|]. rewrite IH by (intros; apply Hs; lia). now rewrite Hs by lia. Qed.

Definition mv_ext (n : nat) (mv : (nat -> T) -> nat -> T) : Prop :=
  forall x y, (forall t, (t < n)%nat -> x t = y t) -> forall t, (t < n)%nat -> mv x t = mv y t.

Lemma wvec_ext n mv Q Q' j t : (0 < n)%nat -> mv_ext n mv -> (t < n)%nat ->
  (forall i u, (i <= j)%nat -> (u < n)%nat -> Q i u = Q' i u) -> wvec n mv Q j t = wvec n mv Q' j t.
Proof.
  intros Hn Hmv Ht HQ. apply arn_res_ext; [auto|auto|intros; apply HQ; lia|].
  apply Hmv. intros; apply HQ; auto.
Qed.

Lemma gmrec_ext n k mv Q H c s R Q' H' c' s' R' : (0 < n)%nat -> mv_ext n mv ->
  (forall i t, (i <= k)%nat -> (t < n)%nat -> Q i t = Q' i t) ->
  (forall i j, (j < k)%nat -> (i <= j + 1)%nat -> H i j = H' i j) ->
  (forall i, (i < k)%nat -> c i = c' i) -> (forall i, (i < k)%nat -> s i = s' i) ->
  (forall i j, (j < k)%nat -> (i <= j)%nat -> R i j = R' i j) ->
  gmrec n k mv Q H c s R -> gmrec n k mv Q' H' c' s' R'.
Proof.
  intros Hn Hmv HQ HH Hc Hs HR G.
  assert (Erho : forall i j, (j < k)%nat -> (i <= j)%nat -> rho c s (fun i => H i j) i = rho c' s' (fun i => H' i j) i).
  { intros i j Hj Hi. apply rho_ext; intros; [apply Hc|apply Hs|apply HH]; lia. }
  assert (Edel : forall j, (j < k)%nat -> delta c s H j = delta c' s' H' j).
  { intros j Hj. unfold delta. rewrite Erho, HH by lia. reflexivity. }
  assert (Ew : forall j t, (j < k)%nat -> (t < n)%nat -> wvec n mv Q j t = wvec n mv Q' j t).
  { intros j t Hj Ht. apply wvec_ext; auto. intros; apply HQ; lia. }
  split.
  - intros i j Hj Hi. rewrite <- HH by lia. rewrite (g_dot _ _ _ _ _ _ _ _ G) by lia.
    apply cdot_ext; auto; intros t Ht; [apply HQ; lia|]. apply Hmv; auto. intros; apply HQ; lia.
  - intros j Hj. rewrite <- HH by lia. rewrite (g_sub _ _ _ _ _ _ _ _ G) by lia. f_equal. apply bsum_ext.
    intros t Ht. now rewrite Ew.
  - intros j t Hj Ht. rewrite <- HQ, <- HH, <- Ew by lia. apply (g_next _ _ _ _ _ _ _ _ G); lia.
  - intros j Hj. rewrite <- Hs, <- HH, <- Edel by lia. now apply (g_s _ _ _ _ _ _ _ _ G).
  - intros j Hj. rewrite <- Hc, <- Edel, <- Erho by lia. now apply (g_c _ _ _ _ _ _ _ _ G).
  - intros i j Hj Hi. rewrite <- HR by lia. rewrite (g_R _ _ _ _ _ _ _ _ G) by lia. unfold tau.
    rewrite Erho, Hc, Hs, HH by lia. reflexivity.
Qed.
End Rec.

(** ** Packed matrices as functions *)
Section Packed.
Context {T : Type} {Op : Ops T}.
Implicit Types (H : hess T) (U : utri T) (f : nat -> nat -> T).
Local Open Scope nat_scope.

Definition hreads H n f : Prop := hess_wf H n /\
  forall i j, i < n -> j < n -> i <= j + 1 -> forall S (s : S), hess_get H i j s = Ok (f i j) s.
Definition ureads U n f : Prop := utri_wf U n /\
  forall i j, i <= j -> j < n -> forall S (s : S), utri_get U i j s = Ok (f i j) s.

Lemma hreads_ext H n f f' : (forall i j, i < n -> j < n -> i <= j + 1 -> f i j = f' i j) -> hreads H n f -> hreads H n f'.
Proof. intros E [W R]. split; auto. intros. rewrite R by auto. now rewrite E. Qed.
Lemma ureads_ext U n f f' : (forall i j, i <= j -> j < n -> f i j = f' i j) -> ureads U n f -> ureads U n f'.
Proof. intros E [W R]. split; auto. intros. rewrite R by auto. now rewrite E. Qed.

Lemma hreads_extend H n f : hreads H n f -> exists H', hess_extend_zero H = Ok tt H' /\
  hreads H' (n + 1) (fun i j => if (Nat.ltb i n && Nat.ltb j n)%bool then f i j else zero).
Proof.
  intros [W R]. destruct (C22_extend_zero _ _ H n W) as (H' & E & W' & R1 & R2 & R3). exists H'. split; [exact E|]. split; [exact W'|].
  intros i j Hi Hj Hij S s. destruct (Nat.ltb_spec i n), (Nat.ltb_spec j n); cbn [andb].
  - rewrite R1 by auto. auto.
  - replace j with n by lia. apply R2. lia.
  - replace i with n by lia. replace j with (n - 1) by lia. apply R3. lia.
  - replace j with n by lia. apply R2. lia.
Qed.
Lemma hreads_set H n f i j x : hreads H n f -> i < n -> j < n -> i <= j + 1 -> exists H', hess_set i j x H = Ok tt H' /\
  hreads H' n (fun a b => if (Nat.eqb a i && Nat.eqb b j)%bool then x else f a b).
Proof.
  intros [W R] Hi Hj Hij. destruct (proj2 (C21_write _ _ H n i j x W Hi Hj) Hij) as (H' & E & W' & R'). exists H'.
  split; [exact E|]. split; [exact W'|]. intros a b Ha Hb Hab S s. rewrite R' by auto.
  destruct (_ && _)%bool; auto.
Qed.
Lemma ureads_set U n f i j x : ureads U n f -> i <= j -> j < n -> exists U', utri_set i j x U = Ok tt U' /\
  ureads U' n (fun a b => if (Nat.eqb a i && Nat.eqb b j)%bool then x else f a b).
Proof.
  intros [W R] Hij Hj. destruct (proj2 (C23_write _ _ U n i j x W ltac:(lia) Hj) Hij) as (U' & E & W' & R'). exists U'.
  split; [exact E|]. split; [exact W'|]. intros a b Hab Hb S s. rewrite R' by lia.
  destruct (_ && _)%bool; auto.
Qed.
Lemma ureads_extend U n f e : ureads U n f -> length e = n + 1 -> exists U', utri_extend e U = Ok tt U' /\
  ureads U' (n + 1) (fun a b => if Nat.ltb b n then f a b else nth a e zero).
Proof.
  intros [W R] He. destruct (proj1 (C23_extend _ _ U n e W) He) as (U' & E & W' & R1 & R2). exists U'.
  split; [exact E|]. split; [exact W'|]. intros a b Hab Hb S s. destruct (Nat.ltb_spec b n).
  - rewrite R1 by lia. auto.
  - replace b with n by lia. apply R2. lia.
Qed.
Lemma hreads_col H n f : hreads H (n + 1) f -> forall S (s : S), exists col, hess_col H n s = Ok col s /\ length col = n + 1 /\
  forall i, i <= n -> nth i col zero = f i n.
Proof.
  intros [W R] S s. destruct (C54_get_col _ _ H (n + 1) n S s W ltac:(lia)) as (col & E & L & P). exists col.
  split; [exact E|]. rewrite Nat.min_r in L by lia. split; [exact L|].
  intros i Hi. specialize (P i ltac:(lia)). rewrite R in P by lia. congruence.
Qed.
Lemma upd_local_ok {S C} (c c' : C) (m : M C unit) (s : S) : m c = Ok tt c' -> upd_local c m s = Ok c' s.
Proof. intros E. unfold upd_local, on_copy. now rewrite E. Qed.
End Packed.

(** ** One rotation step (gmres.hpp:115-148) *)
Section Givens.
Context {T : Type} {Op : Ops T} (dbg : bool).

Lemma nth_app_l {X} (l e : list X) i d : (i < length l)%nat -> nth i (l ++ e) d = nth i l d.
Proof. intros. now apply app_nth1. Qed.
Lemma nth_app_e {X} (l e : list X) i d : (i = length l)%nat -> nth i (l ++ e) d = nth 0 e d.
Proof. intros ->. rewrite app_nth2 by lia. now rewrite Nat.sub_diag. Qed.

Lemma givens_ok {St} (st : St) k (H : hess T) h sl cl (r : utri T) beta (Hf Rf : nat -> nat -> T) :
  hreads H (k + 1) Hf -> ureads r k Rf -> length sl = k -> length cl = k -> length beta = (k + 1)%nat ->
  Hf (k + 1)%nat k = h -> fits_u32 k = true ->
  let c i := nth i cl zero in let s i := nth i sl zero in
  let u i := Hf i k in
  let d := sqrt_ (pow2 (rho c s u k) + pow2 h) in
  let s' := h / d in let c' := rho c s u k / d in
  post (givens_rot dbg H h sl cl r beta) st (fun a st' => st' = st /\
    let '(sl1, cl1, r1, beta1) := a in
    sl1 = sl ++ [s'] /\ cl1 = cl ++ [c'] /\
    ureads r1 (k + 1) (fun i j => if Nat.ltb j k then Rf i j else if Nat.ltb i k then tau c s u i else c' * rho c s u k + s' * h) /\
    length beta1 = (k + 2)%nat /\ (forall i, (i < k)%nat -> nth i beta1 zero = nth i beta zero) /\
    nth k beta1 zero = c' * nth k beta zero /\ nth (k + 1) beta1 zero = - s' * nth k beta zero).
Proof.
  intros HH HR Ls Lc Lb Hh Hfit c s u d s' c'. unfold givens_rot.
  assert (En : hn H = (k + 1)%nat) by apply HH. rewrite En. replace (k + 1 - 1)%nat with k by lia.
  destruct (hreads_col H k Hf HH St st) as (col & Ecol & Lcol & Pcol).
  apply post_bind. unfold post at 1. rewrite Ecol.
  destruct (ureads_extend r k Rf col HR Lcol) as (r0 & E0 & R0).
  apply post_bind. unfold post at 1. rewrite (upd_local_ok _ _ _ _ E0).
  apply post_bind, post_assert. { apply Nat.eqb_eq. apply R0. }
  apply post_bind, post_assert. { apply Nat.eqb_eq. rewrite app_length, Lb. cbn. lia. }
  apply post_bind.
  eapply (post_for_u32 (fun i r st' => st' = st /\
    ureads r (k + 1) (fun a b => if Nat.ltb b k then Rf a b else
      if Nat.ltb a i then tau c s u a else if Nat.eqb a i then rho c s u a else u a))).
  - exact Hfit.
  - lia.
  - split; [reflexivity|]. eapply ureads_ext; [|exact R0]. cbv beta. intros a b Hab Hb. destruct (Nat.ltb_spec b k); [reflexivity|].
    replace b with k in * by lia. rewrite Pcol by lia. destruct (Nat.eqb_spec a 0) as [->|]; reflexivity.
  - intros i ri st1 [_ Hi] (-> & Hri).
    apply post_bind, (post_vec_at _ _ _ zero); [lia|]. fold (c i).
    apply post_bind. unfold post at 1. rewrite (proj2 Hri) by lia. cbv beta. rewrite Nat.ltb_irrefl, Nat.ltb_irrefl, Nat.eqb_refl.
    apply post_bind, (post_vec_at _ _ _ zero); [lia|]. fold (s i).
    apply post_bind. unfold post at 1. rewrite (proj2 HH) by lia.
    change (Hf (i + 1)%nat k) with (u (i + 1)%nat).
    destruct (ureads_set ri (k + 1) _ (i + 1) k (- s i * rho c s u i + c i * u (i + 1)%nat) Hri ltac:(lia) ltac:(lia)) as (r1 & E1 & R1).
    apply post_bind. unfold post at 1. rewrite (upd_local_ok _ _ _ _ E1).
    destruct (ureads_set r1 (k + 1) _ i k (c i * rho c s u i + s i * u (i + 1)%nat) R1 ltac:(lia) ltac:(lia)) as (r2 & E2 & R2).
    unfold post. rewrite (upd_local_ok _ _ _ _ E2). split; [reflexivity|].
    eapply ureads_ext; [|exact R2]. cbv beta. intros a b Hab Hb.
    destruct (Nat.eqb_spec b k) as [->|Nb].
    + rewrite Nat.ltb_irrefl, !andb_true_r. destruct (Nat.eqb_spec a i) as [->|Na].
      * destruct (Nat.ltb_spec i (S i)); [|lia]. unfold tau. now rewrite Nat.add_1_r.
      * destruct (Nat.eqb_spec a (i + 1)) as [->|Na1].
        -- destruct (Nat.ltb_spec (i + 1) (S i)); [lia|]. destruct (Nat.eqb_spec (i + 1) (S i)); [|lia].
           rewrite Nat.add_1_r. reflexivity.
        -- destruct (Nat.ltb_spec a i), (Nat.ltb_spec a (S i)); try lia; auto.
           destruct (Nat.eqb_spec a (S i)); [lia|]. reflexivity.
    + rewrite !andb_false_r. destruct (Nat.ltb_spec b k); [reflexivity|lia].
  - intros r1 st1 (-> & R1).
    assert (Ekk : forall S0 (s0 : S0), utri_get r1 k k s0 = Ok (rho c s u k) s0).
    { intros. rewrite (proj2 R1) by lia. cbv beta. now rewrite Nat.ltb_irrefl, Nat.eqb_refl. }
    apply post_bind. unfold post at 1. rewrite Ekk. apply post_bind. unfold post at 1. rewrite Ekk.
    fold d. fold s' c'.
    apply post_bind, post_assert. { apply Nat.eqb_eq. rewrite app_length, Lc. cbn. lia. }
    apply post_bind, post_assert. { apply Nat.eqb_eq. rewrite app_length, Ls. cbn. lia. }
    assert (Esk : nth k (sl ++ [s']) zero = s') by (rewrite nth_app_e by lia; reflexivity).
    assert (Eck : nth k (cl ++ [c']) zero = c') by (rewrite nth_app_e by lia; reflexivity).
    apply post_bind, (post_vec_at _ _ _ zero); [rewrite app_length; cbn; lia|]. rewrite Esk.
    apply post_bind, (post_vec_at _ _ _ zero); [rewrite app_length; cbn; lia|].
    rewrite (nth_app_l beta) by lia.
    apply post_bind, post_vec_set; [rewrite app_length; cbn; lia|].
    set (b1 := set_nth (k + 1) (- s' * nth k beta zero) (beta ++ [zero])).
    assert (Lb1 : length b1 = (k + 2)%nat) by (unfold b1; rewrite set_nth_length, app_length; cbn; lia).
    assert (Eb1 : forall i, i <> (k + 1)%nat -> nth i b1 zero = nth i (beta ++ [zero]) zero)
      by (intros i Hi; unfold b1; rewrite nth_set_nth_other by auto; reflexivity).
    assert (Eb1k : nth (k + 1) b1 zero = - s' * nth k beta zero)
      by (unfold b1; apply nth_set_same; rewrite app_length; cbn; lia).
    apply post_bind, (post_vec_at _ _ _ zero); [rewrite app_length; cbn; lia|]. rewrite Eck.
    apply post_bind, (post_vec_at _ _ _ zero); [lia|]. rewrite (Eb1 k) by lia. rewrite (nth_app_l beta) by lia.
    apply post_bind, post_vec_set; [lia|].
    apply post_bind, (post_vec_at _ _ _ zero); [rewrite app_length; cbn; lia|]. rewrite Eck.
    apply post_bind. unfold post at 1. rewrite Ekk.
    apply post_bind, (post_vec_at _ _ _ zero); [rewrite app_length; cbn; lia|]. rewrite Esk.
    destruct (ureads_set r1 (k + 1) _ k k (c' * rho c s u k + s' * h) R1 ltac:(lia) ltac:(lia)) as (r2 & E2 & R2).
    apply post_bind. unfold post at 1. rewrite (upd_local_ok _ _ _ _ E2). apply post_ret.
    split; [reflexivity|]. split; [reflexivity|]. split; [reflexivity|]. split.
    { eapply ureads_ext; [|exact R2]. cbv beta. intros a b Hab Hb.
      destruct (Nat.eqb_spec b k) as [->|Nb].
      + rewrite Nat.ltb_irrefl, andb_true_r. destruct (Nat.eqb_spec a k) as [->|Na]; [now rewrite Nat.ltb_irrefl|].
        destruct (Nat.ltb_spec a k); [reflexivity|lia].
      + rewrite andb_false_r. destruct (Nat.ltb_spec b k); [reflexivity|lia]. }
    split; [now rewrite set_nth_length|].
    split. { intros i Hi. rewrite nth_set_nth_other by lia. rewrite Eb1 by lia. now rewrite nth_app_l by lia. }
    split; [apply nth_set_same; lia|]. rewrite nth_set_nth_other by lia. exact Eb1k.
Qed.
End Givens.

(** ** Arnoldi steps and the iteration *)
Section Iter.
Context {T : Type} {Op : Ops T}.
Implicit Types h : heap T.
Variables (dbg : bool) (isqrt : nat -> nat) (mulv lu : ptr -> M (heap T) ptr).
Variables (n : nat) (h0 : heap T) (Av Pv : (nat -> T) -> nat -> T).
(** The matrix product and the preconditioner, as the iteration sees them: each returns a new
    vector with the stated entries. *)
Definition applies (op : ptr -> M (heap T) ptr) (f : (nat -> T) -> nat -> T) : Prop :=
  forall h p, ext h0 h -> isvec h p n -> post (op p) h (fun r h' => newvec h h' r n (f (rd h p))).
Hypothesis Hpos : (0 < n)%nat.
Hypothesis Hfit : fits_u32 n = true.
Hypothesis Hmul : applies mulv Av.
Hypothesis Hlu : applies lu Pv.
Hypothesis HeA : mv_ext n Av.
Hypothesis HeP : mv_ext n Pv.
Definition pmv : (nat -> T) -> nat -> T := fun x => Pv (Av x).

Lemma pmv_ext : mv_ext n pmv.
Proof. intros x y H. apply HeP. intros. apply HeA; auto. Qed.

Lemma arnoldi_ok k (q : list ptr) (H : hess T) hl (Hf : nat -> nat -> T) h :
  (k < n)%nat -> ext h0 h -> length q = (k + 1)%nat -> (forall i, (i <= k)%nat -> isvec h (nth i q 0%nat) n) ->
  hreads H k Hf -> ((0 < k)%nat -> hl = Hf k (k - 1)%nat) ->
  let Q i := rd h (nth i q 0%nat) in
  post (arnoldi dbg mulv lu q H hl) h (fun a h' => ext h h' /\
    let '(q1, H1, h1) := a in exists qn, q1 = q ++ [qn] /\ isvec h' qn n /\
      h1 = sqrt_ (bsum n (fun t => wvec n pmv Q k t * wvec n pmv Q k t)) /\
      (forall t, (t < n)%nat -> rd h' qn t = one / h1 * wvec n pmv Q k t) /\
      hreads H1 (k + 1) (fun i j => if Nat.ltb j k then Hf i j else cdot n (Q i) (pmv (Q k)))).
Proof.
  intros Hk He Lq Hq HH Hh Q. unfold arnoldi. rewrite Lq. replace (k + 1 - 1)%nat with k by lia.
  destruct (hreads_extend H k Hf HH) as (Ha & Ea & Ra).
  apply post_bind. unfold post at 1. rewrite (upd_local_ok _ _ _ _ Ea).
  apply post_bind.
  assert (Hb : post (if Nat.ltb 0 k then upd_local Ha (hess_set k (k - 1) hl) else ret Ha) h (fun Hb h' => h' = h /\
    hreads Hb (k + 1) (fun i j => if Nat.ltb j k then Hf i j else zero))).
  { destruct (Nat.ltb_spec 0 k) as [K|K].
    - destruct (hreads_set Ha (k + 1) _ k (k - 1) hl Ra ltac:(lia) ltac:(lia) ltac:(lia)) as (Hb & Eb & Rb).
      unfold post. rewrite (upd_local_ok _ _ _ _ Eb). split; [reflexivity|].
      eapply hreads_ext; [|exact Rb]. cbv beta. intros i j Hi Hj Hij.
      destruct (Nat.eqb_spec i k) as [->|Ni].
      + destruct (Nat.eqb_spec j (k - 1)) as [->|Nj]; cbn [andb].
        * rewrite Hh by lia. destruct (Nat.ltb_spec (k - 1) k); [reflexivity|lia].
        * rewrite Nat.ltb_irrefl. cbn [andb]. destruct (Nat.ltb_spec j k); [lia|reflexivity].
      + cbn [andb]. destruct (Nat.ltb_spec i k); [|lia]. reflexivity.
    - apply post_ret. split; [reflexivity|]. eapply hreads_ext; [|exact Ra]. cbv beta. intros i j Hi Hj Hij.
      destruct (Nat.ltb_spec i k); [lia|]. cbn [andb]. destruct (Nat.ltb_spec j k); [lia|reflexivity]. }
  eapply post_mono; [exact Hb|]. clear Hb Ea Ra Ha. cbv beta. intros Hb h' (-> & Rb).
  apply post_bind, post_assert. { apply Nat.eqb_eq. apply Rb. }
  apply post_bind, (post_vec_at (T := ptr) _ _ _ 0%nat); [lia|].
  apply post_bind. eapply post_mono; [apply Hmul; [exact He|apply Hq; lia]|]. cbv beta.
  intros p h1 (X1 & P1 & V1 & R1).
  apply post_bind. eapply post_mono; [apply Hlu; [eapply ext_trans; eauto|exact V1]|]. cbv beta.
  intros v h2 (X2 & P2 & V2 & R2).
  assert (X : ext h h2) by (eapply ext_trans; eauto).
  assert (HV : forall t, (t < n)%nat -> rd h2 v t = pmv (Q k) t).
  { intros t Ht. rewrite R2 by exact Ht. apply HeP; [|exact Ht]. intros a Ha. now apply R1. }
  assert (Hv : (next h <= v)%nat) by (destruct X1; lia).
  apply post_bind.
  eapply (post_for_u32 (fun i H' h' => h' = h2 /\ hreads H' (k + 1)
    (fun a b => if Nat.ltb b k then Hf a b else if Nat.ltb a i then cdot n (Q a) (pmv (Q k)) else zero))).
  { apply (fits_u32_le n); [exact Hfit|lia]. }
  { lia. }
  { split; [reflexivity|]. exact Rb. }
  { intros i H' h' [_ Hi] (-> & R').
    apply post_bind, (post_vec_at (T := ptr) _ _ _ 0%nat); [lia|].
    pose proof (Hq i ltac:(lia)) as Vi.
    pose proof (ext_isvec _ _ _ _ X Vi) as [Vi2 Li2].
    apply post_bind. unfold post at 1. rewrite dot_d_ok by (rewrite ?Li2, ?(proj2 V2); auto). rewrite Li2.
    destruct (hreads_set H' (k + 1) _ i k (cdot n (Q i) (pmv (Q k))) R' ltac:(lia) ltac:(lia) ltac:(lia)) as (H'' & E'' & R'').
    assert (Ed : lsum (fun t => rd h2 (nth i q 0%nat) t * rd h2 v t) (n - 1) = cdot n (Q i) (pmv (Q k))).
    { apply lsum_ext. intros t Ht. rewrite HV by lia. now rewrite (ext_rd _ _ _ n t X Vi). }
    rewrite Ed. unfold post. rewrite (upd_local_ok _ _ _ _ E''). split; [reflexivity|].
    eapply hreads_ext; [|exact R'']. cbv beta. intros a b Ha Hb' Hab.
    destruct (Nat.eqb_spec b k) as [->|Nb].
    - rewrite Nat.ltb_irrefl, andb_true_r. destruct (Nat.eqb_spec a i) as [->|Na].
      + destruct (Nat.ltb_spec i (S i)); [reflexivity|lia].
      + destruct (Nat.ltb_spec a i), (Nat.ltb_spec a (S i)); try lia; reflexivity.
    - rewrite andb_false_r. destruct (Nat.ltb_spec b k); [reflexivity|lia]. }
  intros H' h' (-> & R'). cbv beta in R'. clear Rb Hb. apply post_bind.
  eapply (post_for_u32 (fun i _ h' => ext_but h2 h' v /\ isvec h' v n /\
    forall t, (t < n)%nat -> rd h' v t = arn_res n Q (pmv (Q k)) i t)).
  { apply (fits_u32_le n); [exact Hfit|lia]. }
  { lia. }
  { split; [split; auto|]. split; [exact V2|]. intros t Ht. cbn [arn_res]. auto. }
  { intros i _ h3 [_ Hi] (X3 & V3 & R3).
    apply post_bind. unfold post at 1. rewrite (proj2 R') by lia. cbv beta.
    rewrite Nat.ltb_irrefl. destruct (Nat.ltb_spec i (k + 1)); [|lia].
    apply post_bind, (post_vec_at (T := ptr) _ _ _ 0%nat); [lia|].
    pose proof (Hq i ltac:(lia)) as Vi.
    assert (Vi3 : isvec h3 (nth i q 0%nat) n /\ mem h3 (nth i q 0%nat) = mem h (nth i q 0%nat)).
    { destruct Vi as [Vi1 Vi2]. destruct X as [Xn Xm], X3 as [Xn3 Xm3].
      assert (Em : mem h3 (nth i q 0%nat) = mem h (nth i q 0%nat)) by (rewrite Xm3 by lia; apply Xm; lia).
      split; [|exact Em]. split; [lia|]. unfold len. now rewrite Em. }
    destruct Vi3 as [[Vi3 Li3] Mi3].
    apply post_bind. eapply post_mono; [apply scale_rd; [exact Vi3|now rewrite Li3]|]. cbv beta.
    intros r h4 (-> & N4 & F4 & L4 & R4).
    assert (L4v : len h4 v = n) by (unfold len; rewrite F4 by apply V3; apply V3).
    apply post_bind. eapply post_mono; [apply axpy_rd; [rewrite L4, Li3; exact Hfit|rewrite L4, Li3; auto]|]. cbv beta.
    intros r h5 (-> & F5 & N5 & L5 & R5). apply post_ret.
    destruct X3 as [Xn3 Xm3]. destruct V3 as [V3 LV3].
    split. { split; [lia|]. intros x Hx Nx. rewrite F5 by exact Nx. rewrite F4 by lia. auto. }
    split. { split; [lia|]. now rewrite L5. }
    intros t Ht. rewrite R5 by lia. rewrite R4 by lia. cbn [arn_res].
    assert (rd h4 v t = rd h3 v t) as -> by (unfold rd; now rewrite F4).
    rewrite R3 by exact Ht. unfold Q at 4. unfold rd at 1. rewrite Mi3. reflexivity. }
  intros _ h3 (X3 & V3 & R3). cbv beta in *.
  assert (Hw : forall t, (t < n)%nat -> rd h3 v t = wvec n pmv Q k t) by exact R3.
  apply post_bind. unfold post at 1. rewrite norm2_d_ok by (destruct V3 as [_ ->]; exact Hfit).
  destruct V3 as [V3 LV3]. rewrite LV3.
  assert (Es : bsum n (fun t => rd h3 v t * rd h3 v t) = bsum n (fun t => wvec n pmv Q k t * wvec n pmv Q k t))
    by (apply bsum_ext; intros t Ht; now rewrite Hw).
  rewrite Es. set (hn' := sqrt_ _).
  apply post_bind. eapply post_mono; [apply scale_rd; [exact V3|now rewrite LV3]|]. cbv beta.
  intros r h4 (-> & N4 & F4 & L4 & R4). apply post_ret.
  destruct X as [Xn Xm], X3 as [Xn3 Xm3].
  split. { split; [lia|]. intros x Hx. rewrite F4 by lia. rewrite Xm3 by lia. apply Xm; lia. }
  exists (next h3). split; [reflexivity|]. split; [split; [lia|]; rewrite L4; exact LV3|]. split; [reflexivity|].
  split. { intros t Ht. rewrite R4 by lia. now rewrite Hw. }
  eapply hreads_ext; [|exact R']. cbv beta. intros i j Hi Hj Hij. destruct (Nat.ltb_spec i (k + 1)); [reflexivity|lia].
Qed.

(** The state after k steps. *)
Definition qf h (g : gstate (T := T)) (i : nat) : nat -> T := rd h (nth i (gq g) 0%nat).
Definition cf (g : gstate (T := T)) (i : nat) : T := nth i (gc g) zero.
Definition sf (g : gstate (T := T)) (i : nat) : T := nth i (gs g) zero.
Record gst (k : nat) h (g : gstate (T := T)) (nb : T) (Hf Rf : nat -> nat -> T) : Prop := {
  st_ext : ext h0 h;
  st_q : length (gq g) = (k + 1)%nat;
  st_vec : forall i, (i <= k)%nat -> isvec h (nth i (gq g) 0%nat) n;
  st_hess : hreads (ghess g) k Hf;
  st_h : (0 < k)%nat -> gh g = Hf k (k - 1)%nat;
  st_r : ureads (gr g) k Rf;
  st_s : length (gs g) = k;
  st_c : length (gc g) = k;
  st_beta : length (gbeta g) = (k + 1)%nat;
  st_b : forall i, (i < k)%nat -> nth i (gbeta g) zero = beta_of (cf g) (sf g) nb i;
  st_g : nth k (gbeta g) zero = gam (sf g) nb k;
  st_rec : gmrec n k pmv (qf h g) Hf (cf g) (sf g) Rf
}.

Lemma gmres_step_ok tol k h g nb Hf Rf : (k < n)%nat -> gst k h g nb Hf Rf -> gdone g = false ->
  post (gmres_step dbg mulv lu tol g) h (fun g' h' => ext h h' /\ exists Hf' Rf',
    gst (k + 1) h' g' nb Hf' Rf' /\ gdone g' = ltb (abs_ (gam (sf g') nb (k + 1))) tol /\
    (forall t, (t < n)%nat -> qf h' g' 0 t = qf h g 0 t) /\
    (forall i, (i <= k)%nat -> gam (sf g') nb i = gam (sf g) nb i)).
Proof.
  intros Hk G Hd. unfold gmres_step. rewrite Hd. apply post_bind.
  eapply post_mono; [apply (arnoldi_ok k (gq g) (ghess g) (gh g) Hf h Hk (st_ext _ _ _ _ _ _ G) (st_q _ _ _ _ _ _ G)
    (st_vec _ _ _ _ _ _ G) (st_hess _ _ _ _ _ _ G) (st_h _ _ _ _ _ _ G))|].
  cbv beta zeta. fold (qf h g). intros [[q1 H1] h1] h' (X & qn & -> & Vqn & E1 & Rqn & RH).
  set (Hf' := fun i j => if Nat.ltb j k then Hf i j else if Nat.leb i k then cdot n (qf h g i) (pmv (qf h g k)) else h1).
  assert (RH' : hreads H1 (k + 1) Hf').
  { eapply hreads_ext; [|exact RH]. cbv beta. intros i j Hi Hj Hij. unfold Hf'.
    destruct (Nat.ltb_spec j k); [reflexivity|]. destruct (Nat.leb_spec i k); [reflexivity|lia]. }
  assert (Eh : Hf' (k + 1)%nat k = h1).
  { unfold Hf'. rewrite Nat.ltb_irrefl. destruct (Nat.leb_spec (k + 1) k); [lia|reflexivity]. }
  apply post_bind.
  eapply post_mono; [apply (givens_ok dbg h' k H1 h1 (gs g) (gc g) (gr g) (gbeta g) Hf' Rf RH' (st_r _ _ _ _ _ _ G)
    (st_s _ _ _ _ _ _ G) (st_c _ _ _ _ _ _ G) (st_beta _ _ _ _ _ _ G) Eh); apply (fits_u32_le n); [exact Hfit|lia]|].
  cbv beta zeta. fold (cf g). fold (sf g). intros [[[sl cl] r1] beta1] h'' (-> & -> & -> & RR & Lb & Bi & Bk & Bk1).
  pose proof (st_s _ _ _ _ _ _ G) as Ls. pose proof (st_c _ _ _ _ _ _ G) as Lc. pose proof (st_q _ _ _ _ _ _ G) as Lq.
  set (u := fun i => Hf' i k) in *.
  set (d := sqrt_ (pow2 (rho (cf g) (sf g) u k) + pow2 h1)) in *.
  set (c' := rho (cf g) (sf g) u k / d) in *. set (s' := h1 / d) in *.
  set (Rf' := fun i j => if Nat.ltb j k then Rf i j else if Nat.ltb i k then tau (cf g) (sf g) u i else c' * rho (cf g) (sf g) u k + s' * h1) in *.
  apply post_bind, (post_vec_at _ _ _ zero); [lia|]. rewrite Lb. replace (k + 2 - 1)%nat with (k + 1)%nat by lia.
  apply post_ret. split; [exact X|]. exists Hf', Rf'.
  set (g' := mkG _ _ _ _ _ _ _ _).
  assert (Ec : forall i, (i < k)%nat -> cf g i = cf g' i) by (intros i Hi; unfold cf, g'; cbn [gc]; now rewrite nth_app_l by lia).
  assert (Es : forall i, (i < k)%nat -> sf g i = sf g' i) by (intros i Hi; unfold sf, g'; cbn [gs]; now rewrite nth_app_l by lia).
  assert (Eck : cf g' k = c') by (unfold cf, g'; cbn [gc]; now rewrite nth_app_e by lia).
  assert (Esk : sf g' k = s') by (unfold sf, g'; cbn [gs]; now rewrite nth_app_e by lia).
  assert (Eq : forall i t, (i <= k)%nat -> qf h g i t = qf h' g' i t).
  { intros i t Hi. unfold qf, g'; cbn [gq]. rewrite nth_app_l by lia. symmetry. apply (ext_rd _ _ _ n t X).
    now apply (st_vec _ _ _ _ _ _ G). }
  assert (Eqk : forall t, qf h' g' (k + 1) t = rd h' qn t) by (intros t; unfold qf, g'; cbn [gq]; now rewrite nth_app_e by lia).
  assert (Eg : forall i, (i <= k)%nat -> gam (sf g') nb i = gam (sf g) nb i)
    by (intros i Hi; apply gam_ext; intros a Ha; symmetry; apply Es; lia).
  assert (EH : forall i j, (j < k)%nat -> Hf i j = Hf' i j) by (intros i j Hj; unfold Hf'; destruct (Nat.ltb_spec j k); [reflexivity|lia]).
  assert (ER : forall i j, (j < k)%nat -> Rf i j = Rf' i j) by (intros i j Hj; unfold Rf'; destruct (Nat.ltb_spec j k); [reflexivity|lia]).
  assert (Eu : forall i, (i <= k)%nat -> u i = cdot n (qf h g i) (pmv (qf h g k))).
  { intros i Hi. unfold u, Hf'. rewrite Nat.ltb_irrefl. destruct (Nat.leb_spec i k); [reflexivity|lia]. }
  assert (Erho : forall i, (i <= k)%nat -> rho (cf g') (sf g') u i = rho (cf g) (sf g) u i).
  { intros i Hi. apply rho_ext; intros a Ha; [symmetry; apply Ec; lia|symmetry; apply Es; lia|reflexivity]. }
  assert (Edelta : delta (cf g') (sf g') Hf' k = d).
  { unfold delta. fold u. rewrite Erho, Eh by lia. reflexivity. }
  assert (Ew : forall t, (t < n)%nat -> wvec n pmv (qf h' g') k t = wvec n pmv (qf h g) k t).
  { intros t Ht. apply wvec_ext; [exact Hpos|exact pmv_ext|exact Ht|]. intros; symmetry; apply Eq; lia. }
  pose proof (gmrec_ext n k pmv (qf h g) Hf (cf g) (sf g) Rf (qf h' g') Hf' (cf g') (sf g') Rf' Hpos pmv_ext
    ltac:(intros; apply Eq; lia) ltac:(intros; apply EH; lia) Ec Es ltac:(intros; apply ER; lia) (st_rec _ _ _ _ _ _ G)) as GR.
  split.
  { split.
    - eapply ext_trans; [apply (st_ext _ _ _ _ _ _ G)|exact X].
    - unfold g'; cbn [gq]. rewrite app_length. cbn. lia.
    - intros i Hi. unfold g'; cbn [gq]. destruct (Nat.eq_dec i (k + 1)) as [->|].
      + rewrite nth_app_e by lia. exact Vqn.
      + rewrite nth_app_l by lia. apply (ext_isvec _ _ _ _ X). apply (st_vec _ _ _ _ _ _ G). lia.
    - exact RH'.
    - intros _. unfold g'; cbn [gh]. replace (k + 1 - 1)%nat with k by lia. auto.
    - exact RR.
    - unfold g'; cbn [gs]. rewrite app_length. cbn. lia.
    - unfold g'; cbn [gc]. rewrite app_length. cbn. lia.
    - unfold g'; cbn [gbeta]. lia.
    - intros i Hi. unfold g'; cbn [gbeta]. fold g'. unfold beta_of. destruct (Nat.eq_dec i k) as [->|].
      + rewrite Bk, (st_g _ _ _ _ _ _ G), Eck, Eg by lia. reflexivity.
      + rewrite Bi, (st_b _ _ _ _ _ _ G) by lia. unfold beta_of. rewrite Ec, Eg by lia. reflexivity.
    - unfold g' at 1; cbn [gbeta]. rewrite Bk1, (st_g _ _ _ _ _ _ G). rewrite Nat.add_1_r. cbn [gam].
      rewrite Esk, Eg by lia. reflexivity.
    - split.
      + intros i j Hj Hi. destruct (Nat.eq_dec j k) as [->|]; [|apply (g_dot _ _ _ _ _ _ _ _ GR); lia].
        fold (u i). rewrite Eu by lia. apply cdot_ext; [exact Hpos|intros t Ht; apply Eq; lia|]. intros t Ht.
        apply pmv_ext; auto.
      + intros j Hj. destruct (Nat.eq_dec j k) as [->|]; [|apply (g_sub _ _ _ _ _ _ _ _ GR); lia].
        rewrite Eh, E1. f_equal. apply bsum_ext. intros t Ht. now rewrite Ew.
      + intros j t Hj Ht. destruct (Nat.eq_dec j k) as [->|]; [|apply (g_next _ _ _ _ _ _ _ _ GR); lia].
        rewrite Eqk, Eh, Ew by exact Ht. now apply Rqn.
      + intros j Hj. destruct (Nat.eq_dec j k) as [->|]; [|apply (g_s _ _ _ _ _ _ _ _ GR); lia].
        rewrite Esk, Eh, Edelta. reflexivity.
      + intros j Hj. destruct (Nat.eq_dec j k) as [->|]; [|apply (g_c _ _ _ _ _ _ _ _ GR); lia].
        rewrite Eck, Edelta. fold u. rewrite Erho by lia. reflexivity.
      + intros i j Hj Hi. destruct (Nat.eq_dec j k) as [->|]; [|apply (g_R _ _ _ _ _ _ _ _ GR); lia].
        fold u. unfold Rf', tau. rewrite Nat.ltb_irrefl. destruct (Nat.ltb_spec i k).
        * rewrite Erho, Ec, Es by lia. reflexivity.
        * replace i with k by lia. rewrite Erho, Eck, Esk by lia. rewrite <- Nat.add_1_r.
          change (u (k + 1)%nat) with (Hf' (k + 1)%nat k). rewrite Eh. reflexivity. }
  split. { unfold g' at 1; cbn [gdone]. rewrite Bk1, (st_g _ _ _ _ _ _ G). rewrite Nat.add_1_r. cbn [gam].
    rewrite Esk, Eg by lia. reflexivity. }
  split; [intros t Ht; symmetry; apply Eq; lia|exact Eg].
Qed.

Lemma gmres_init_ok rhs h : isqrt_exact isqrt -> ext h0 h -> isvec h rhs n ->
  post (gmres_init isqrt lu rhs) h (fun g h' => ext h h' /\ gdone g = false /\
    let nb := sqrt_ (bsum n (fun t => Pv (rd h rhs) t * Pv (rd h rhs) t)) in
    gst 0 h' g nb (fun _ _ => zero) (fun _ _ => zero) /\
    forall t, (t < n)%nat -> qf h' g 0 t = one / nb * Pv (rd h rhs) t).
Proof.
  intros Hi He Hr. unfold gmres_init. apply post_bind. eapply post_mono; [apply Hlu; auto|]. cbv beta.
  intros b h1 (X1 & P1 & [V1 L1] & R1).
  assert (E : norm2_d b h1 = Ok (sqrt_ (bsum n (fun t => Pv (rd h rhs) t * Pv (rd h rhs) t))) h1).
  { rewrite norm2_d_ok by (now rewrite L1). rewrite L1. do 2 f_equal. apply bsum_ext. intros t Ht. now rewrite R1. }
  set (nb := sqrt_ _) in *. apply post_bind. unfold post at 1. rewrite E.
  apply post_bind. eapply post_mono; [apply scale_rd; [exact V1|now rewrite L1]|]. cbv beta.
  intros r h2 (-> & N2 & F2 & L2 & R2).
  assert (E2 : norm2_d b h2 = Ok nb h2).
  { rewrite norm2_d_ok by (unfold len; rewrite F2 by exact V1; fold (len h1 b); now rewrite L1).
    unfold len. rewrite F2 by exact V1. fold (len h1 b). rewrite L1. unfold nb. do 2 f_equal. apply bsum_ext. intros t Ht.
    unfold rd at 1 2. rewrite F2 by exact V1. fold (rd h1 b t). now rewrite R1. }
  apply post_bind. unfold post at 1. rewrite E2.
  apply post_bind. unfold post at 1, utri_with_capacity. rewrite (utri_of_ok isqrt [] h2 0 Hi) by (cbn; auto; lia).
  apply post_bind. unfold post at 1, hess_with_capacity, noexcept. rewrite (hess_of_ok isqrt [] h2 0 Hi) by (cbn; auto; lia).
  apply post_ret. destruct X1 as [Xn Xm].
  assert (X : ext h h2). { split; [lia|]. intros q Hq. rewrite F2 by lia. apply Xm; lia. }
  split; [exact X|]. split; [reflexivity|]. cbv zeta. split.
  - split; cbn [gq ghess gh gs gc gr gbeta length nth]; try reflexivity; try lia.
    + eapply ext_trans; eauto.
    + intros i Hi'. replace i with 0%nat by lia. split; [lia|]. now rewrite L2.
    + split; [split; reflexivity|]. intros; lia.
    + split; [split; reflexivity|]. intros; lia.
    + split; intros; lia.
  - intros t Ht. unfold qf. cbn [gq nth]. rewrite R2 by lia. now rewrite R1.
Qed.

(** The iteration: it stops after the first k whose estimate is below the tolerance, or after the
    given number of steps. *)
Lemma gmres_loop_ok tol m h g nb : (0 < m <= n)%nat -> gst 0 h g nb (fun _ _ => zero) (fun _ _ => zero) -> gdone g = false ->
  post (for_u32 0 m (fun _ g => gmres_step dbg mulv lu tol g) g) h (fun g' h' => ext h h' /\ exists k Hf Rf,
    (1 <= k <= m)%nat /\ gst k h' g' nb Hf Rf /\
    (forall t, (t < n)%nat -> qf h' g' 0 t = qf h g 0 t) /\
    (forall i, (1 <= i < k)%nat -> ltb (abs_ (gam (sf g') nb i)) tol = false) /\
    (k = m \/ ltb (abs_ (gam (sf g') nb k)) tol = true)).
Proof.
  intros Hm G0 D0.
  eapply (post_for_u32 (fun i g' h' => ext h h' /\ exists k Hf Rf, (k <= i)%nat /\ (i = 0%nat \/ 1 <= k)%nat /\
    gst k h' g' nb Hf Rf /\
    (forall t, (t < n)%nat -> qf h' g' 0 t = qf h g 0 t) /\
    (forall i, (1 <= i < k)%nat -> ltb (abs_ (gam (sf g') nb i)) tol = false) /\
    ((gdone g' = false /\ k = i /\ ((1 <= k)%nat -> ltb (abs_ (gam (sf g') nb k)) tol = false)) \/
     (gdone g' = true /\ (1 <= k)%nat /\ ltb (abs_ (gam (sf g') nb k)) tol = true)))).
  - apply (fits_u32_le n); [exact Hfit|lia].
  - lia.
  - split; [apply ext_refl|]. exists 0%nat, (fun _ _ => zero), (fun _ _ => zero).
    split; [lia|]. split; [auto|]. split; [exact G0|]. split; [auto|]. split; [intros; lia|].
    left. split; [exact D0|]. split; [reflexivity|]. lia.
  - intros i g1 h1 [_ Hi] (X & k & Hf & Rf & Hk & Hk1 & G & Q0 & B & [(D & -> & Bk)|(D & K1 & Bk)]).
    + eapply post_mono; [apply (gmres_step_ok tol i h1 g1 nb Hf Rf ltac:(lia) G D)|]. cbv beta.
      intros g2 h2 (X2 & Hf2 & Rf2 & G2 & D2 & Q2 & Eg). split; [eapply ext_trans; eauto|].
      exists (i + 1)%nat, Hf2, Rf2. split; [lia|]. split; [right; lia|]. split; [exact G2|].
      split. { intros t Ht. rewrite Q2 by exact Ht. auto. }
      split. { intros a Ha. rewrite Eg by lia. destruct (Nat.eq_dec a i) as [->|]; [apply Bk; lia|apply B; lia]. }
      destruct (gdone g2) eqn:E2; [right|left]; (split; [reflexivity|]); split; auto; lia.
    + unfold gmres_step. rewrite D. apply post_ret. split; [exact X|]. exists k, Hf, Rf.
      split; [lia|]. split; [right; exact K1|].
      split; [exact G|]. split; [exact Q0|]. split; [exact B|]. right; auto.
  - intros g' h' (X & k & Hf & Rf & Hk & Hk1 & G & Q0 & B & C). split; [exact X|]. exists k, Hf, Rf.
    split; [lia|]. split; [exact G|]. split; [exact Q0|]. split; [exact B|]. destruct C as [(_ & -> & _)|(_ & _ & E)]; auto.
Qed.
End Iter.
