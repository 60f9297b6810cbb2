(** * What the recurrences of the Cholesky kernels mean *)
From Coq Require Import Field Reals Lra.
From Verif Require Import Base Scalar BaseLemmas Spec Sums RealVec ModelSolvers ProofChol ProofCholSolve PropTdma.
Local Open Scope sc_scope.

Section AnyScalar.
Context {T : Type} {Op : Ops T}.
(** The symmetric matrix whose lower triangle is [A]; the lower triangular matrix in [L]. *)
Definition symf (A : nat -> nat -> T) (i j : nat) : T := if Nat.leb j i then A i j else A j i.
Definition lowf (L : nat -> nat -> T) (i j : nat) : T := if Nat.leb j i then L i j else zero.

(** The recurrences determine the factor, and whether there is one. *)
Lemma offrec_unique (A L L' : nat -> nat -> T) i j :
  (forall k, (k < j)%nat -> L i k = L' i k) -> (forall k, (k <= j)%nat -> L j k = L' j k) ->
  offrec A L i j -> offrec A L' i j -> L i j = L' i j.
Proof.
  unfold offrec. intros H1 H2 E E'. rewrite E, E', H2 by lia. f_equal. apply ssub_ext.
  intros k Hk. now rewrite H1, H2 by lia.
Qed.
Lemma row_unique (A L L' : nat -> nat -> T) i :
  (forall i' k, (k <= i')%nat -> (i' < i)%nat -> L i' k = L' i' k) ->
  (forall j, (j < i)%nat -> offrec A L i j) -> (forall j, (j < i)%nat -> offrec A L' i j) ->
  forall j, (j < i)%nat -> L i j = L' i j.
Proof.
  intros H O O' j. induction j as [j IH] using lt_wf_ind. intros Hj.
  apply (offrec_unique A); auto. intros k Hk. apply IH; lia.
Qed.
Lemma rows_unique (A L L' : nat -> nat -> T) m :
  (forall i, (i < m)%nat -> rowrec A L i) -> (forall i, (i < m)%nat -> rowrec A L' i) ->
  forall i j, (j <= i)%nat -> (i < m)%nat -> L i j = L' i j.
Proof.
  intros H H' i. induction i as [i IH] using lt_wf_ind. intros j Hj Hi.
  assert (R : forall j, (j < i)%nat -> L i j = L' i j).
  { apply (row_unique A); [intros; apply IH; lia|apply H; auto|apply H'; auto]. }
  destruct (Nat.eq_dec j i) as [->|]; [|apply R; lia].
  destruct (H i Hi) as [_ [_ E]], (H' i Hi) as [_ [_ E']]. rewrite E, E'. f_equal. apply pivot_ext.
  intros k Hk. symmetry. auto. now rewrite R.
Qed.
Lemma factored_not_failed n (A L L' : nat -> nat -> T) c :
  (forall i, (i <= c)%nat -> rowrec A L i) -> failed n A L' c -> False.
Proof.
  intros H (Hc & R & O & D & B & _).
  assert (E : forall i j, (j <= i)%nat -> (i < c)%nat -> L i j = L' i j)
    by (apply (rows_unique A); auto; intros; apply H; lia).
  destruct (H c (le_n c)) as [O1 [P1 _]]. apply P1.
  rewrite (pivot_ext A L' L); auto. apply (row_unique A); auto.
Qed.
Lemma factored_ext n (A A' L : nat -> nat -> T) :
  (forall i j, (j <= i)%nat -> (i < n)%nat -> A i j = A' i j) -> forall i, (i < n)%nat -> rowrec A L i -> rowrec A' L i.
Proof.
  intros H i Hi [O [P D]]. split.
  - intros j Hj. generalize (O j Hj). unfold offrec. now rewrite H by lia.
  - unfold diarec, pivot in *. rewrite <- H by lia. auto.
Qed.
Lemma failed_ext n (A A' L : nat -> nat -> T) c :
  (forall i j, (j <= i)%nat -> (i < n)%nat -> A i j = A' i j) -> failed n A L c -> failed n A' L c.
Proof.
  intros H (Hc & R & O & D & B & U). split; [auto|]. split.
  { intros i Hi. apply (factored_ext n A); auto. lia. }
  split. { intros j Hj. generalize (O j Hj). unfold offrec. now rewrite H by lia. }
  unfold pivot in *. rewrite <- H by lia. do 2 (split; [auto|]). intros. rewrite <- H by lia. auto.
Qed.

(** Substitution is determined. *)
Lemma substituted_unique n (L L' : nat -> nat -> T) b X X' :
  (forall i j, (j <= i)%nat -> (i < n)%nat -> L i j = L' i j) ->
  substituted n L b X -> substituted n L' b X' -> veq n X X'.
Proof.
  intros HL (Y & H1 & H2) (Y' & H1' & H2').
  assert (EY : forall i, (i < n)%nat -> Y i = Y' i).
  { intros i. induction i as [i IH] using lt_wf_ind. intros Hi. rewrite (H1 i Hi), (H1' i Hi), HL by lia. f_equal.
    apply ssub_ext. intros k Hk. rewrite HL by lia. f_equal. apply IH; lia. }
  assert (EX : forall k i, (i < n)%nat -> (n - i <= k)%nat -> X i = X' i).
  { induction k as [|k IH]; intros i Hi Hk; [lia|]. rewrite (H2 i Hi), (H2' i Hi), HL, EY by lia. f_equal.
    apply ssub_ext. intros t Ht. rewrite HL by lia. f_equal. apply IH; lia. }
  intros i Hi. apply (EX n); lia.
Qed.
End AnyScalar.

Section FieldMath.
Context {T : Type} {Op : Ops T} {F : IsField T Op}.
Add Field Tfield8 : (field_th (IsField := F)).

Lemma ssub_bsum n a (f : nat -> T) : ssub n a f = a - bsum n f.
Proof. induction n as [|n IH]; cbn; [ring|rewrite IH; ring]. Qed.

Lemma lowf_lower n (L : nat -> nat -> T) : lower_tri n (lowf L).
Proof. intros i j _ _ H. unfold lowf. destruct (Nat.leb_spec j i); [lia|auto]. Qed.
Lemma lowf_transp_upper n (L : nat -> nat -> T) : upper_tri n (transp (lowf L)).
Proof. intros i j _ _ H. unfold transp, lowf. destruct (Nat.leb_spec i j); [lia|auto]. Qed.
Lemma lowf_in (L : nat -> nat -> T) i j : (j <= i)%nat -> lowf L i j = L i j.
Proof. intros H. unfold lowf. destruct (Nat.leb_spec j i); [auto|lia]. Qed.
Lemma lowf_out (L : nat -> nat -> T) i j : (i < j)%nat -> lowf L i j = zero.
Proof. intros H. unfold lowf. destruct (Nat.leb_spec j i); [lia|auto]. Qed.

(** A triangular row-sum: only the first j+1 terms matter. *)
Lemma low_prod n (L M : nat -> nat -> T) i j : (i < n)%nat -> (j <= i)%nat ->
  bsum n (fun k => lowf L i k * lowf M j k) = bsum j (fun k => L i k * M j k) + L i j * M j j.
Proof.
  intros Hi Hj. rewrite (bsum_trunc n (S j)) by (try lia; intros k Hk; rewrite (lowf_out M) by lia; ring).
  cbn [bsum]. rewrite !lowf_in by lia. f_equal. apply bsum_ext. intros k Hk. now rewrite !lowf_in by lia.
Qed.

(** Forward substitution solves L y = b; backward solves L^T x = y. *)
Lemma fwd_solves n (L : nat -> nat -> T) b Y : (forall i, (i < n)%nat -> L i i <> zero) ->
  (forall i, (i < n)%nat -> fwd L b Y i) -> solves n (lowf L) Y b.
Proof.
  intros Hd H i Hi. unfold mvmul.
  rewrite (bsum_trunc n (S i)) by (try lia; intros k Hk; rewrite lowf_out by lia; ring).
  cbn [bsum]. rewrite lowf_in by lia. pose proof (H i Hi) as E. unfold fwd in E. rewrite ssub_bsum in E.
  rewrite E. rewrite (bsum_ext i _ (fun k => L i k * Y k)) by (intros; now rewrite lowf_in by lia).
  field. auto.
Qed.
Lemma bwd_solves n (L : nat -> nat -> T) Y X : (forall i, (i < n)%nat -> L i i <> zero) ->
  (forall i, (i < n)%nat -> bwd n L Y X i) -> solves n (transp (lowf L)) X Y.
Proof.
  intros Hd H i Hi. unfold mvmul, transp. rewrite (bsum_split n i) by lia.
  rewrite bsum_zero by (intros k Hk; rewrite lowf_out by lia; ring).
  replace (n - i)%nat with (S (n - S i)) by lia. rewrite bsum_first. rewrite Nat.add_0_r, lowf_in by lia.
  pose proof (H i Hi) as E. unfold bwd in E. rewrite ssub_bsum in E.
  rewrite (bsum_ext (n - S i) (fun i0 => lowf L (i + S i0)%nat i * X (i + S i0)%nat) (fun t => L (S i + t)%nat i * X (S i + t)%nat)).
  - rewrite E. field. auto.
  - intros t Ht. rewrite lowf_in by lia. now replace (i + S t)%nat with (S i + t)%nat by lia.
Qed.
Lemma subst_solves n (L : nat -> nat -> T) b X : (forall i, (i < n)%nat -> L i i <> zero) ->
  substituted n L b X -> solves n (mmmul n (lowf L) (transp (lowf L))) X b.
Proof.
  intros Hd (Y & H1 & H2) i Hi. rewrite mvmul_assoc.
  rewrite <- (fwd_solves n L b Y Hd H1 i Hi). apply mvmul_ext; auto.
  intros k Hk. now apply bwd_solves.
Qed.

(** Unit lower and upper factor of the modified factorisation. *)
Definition unitl (L : nat -> nat -> T) (i j : nat) : T :=
  if Nat.eqb j i then one else if Nat.ltb j i then L i j / L j j else zero.
Lemma unitl_diag L i : unitl L i i = one.
Proof. unfold unitl. now rewrite Nat.eqb_refl. Qed.
Lemma unitl_in L i j : (j < i)%nat -> unitl L i j = L i j / L j j.
Proof. intros H. unfold unitl. destruct (Nat.eqb_spec j i); [lia|]. destruct (Nat.ltb_spec j i); [auto|lia]. Qed.
Lemma unitl_out L i j : (i < j)%nat -> unitl L i j = zero.
Proof. intros H. unfold unitl. destruct (Nat.eqb_spec j i); [lia|]. destruct (Nat.ltb_spec j i); [lia|auto]. Qed.
Lemma unitl_nonsingular n L : nonsingular n (unitl L).
Proof.
  apply lower_nonsingular.
  - intros i j _ _ H. now apply unitl_out.
  - intros i Hi. rewrite unitl_diag. exact (F_1_neq_0 (field_th (IsField := F))).
Qed.

Lemma ufwd_solves n (L : nat -> nat -> T) b Y :
  (forall i, (i < n)%nat -> ufwd L b Y i) -> solves n (unitl L) Y b.
Proof.
  intros H i Hi. unfold mvmul.
  rewrite (bsum_trunc n (S i)) by (try lia; intros k Hk; rewrite unitl_out by lia; ring).
  cbn [bsum]. rewrite unitl_diag. pose proof (H i Hi) as E. unfold ufwd in E. rewrite ssub_bsum in E.
  rewrite E. rewrite (bsum_ext i _ (fun k => L i k / L k k * Y k)) by (intros; now rewrite unitl_in by lia).
  ring.
Qed.
Lemma usubst_solves n (L : nat -> nat -> T) b X : (forall i, (i < n)%nat -> L i i <> zero) ->
  usubstituted n L b X -> solves n (mmmul n (unitl L) (transp (lowf L))) X b.
Proof.
  intros Hd (Y & H1 & H2) i Hi. rewrite mvmul_assoc.
  rewrite <- (ufwd_solves n L b Y H1 i Hi). apply mvmul_ext; auto.
  intros k Hk. now apply bwd_solves.
Qed.

(** The factors reproduce the matrix; the last pivot may be zero. *)
Lemma mod_product c (A L : nat -> nat -> T) :
  (forall i, (i < c)%nat -> L i i <> zero) -> (forall i j, (j <= i)%nat -> (i <= c)%nat -> mrec A L i j) ->
  meq (S c) (S c) (mmmul (S c) (unitl L) (transp (lowf L))) (symf A).
Proof.
  intros Hd HR.
  assert (G : forall i j, (i <= c)%nat -> (j <= i)%nat ->
    bsum j (fun k => L i k / L k k * L j k) + L i j = A i j).
  { intros i j Hi Hj. pose proof (HR i j Hj Hi) as E. unfold mrec in E. rewrite ssub_bsum in E. rewrite E.
    rewrite (bsum_ext j (fun k => L i k / L k k * L j k) (fun k => L i k * L j k / L k k)).
    - ring.
    - intros k Hk. field. apply Hd. lia. }
  intros i j Hi Hj. unfold mmmul, transp, symf. destruct (Nat.leb_spec j i) as [Hle|Hlt].
  - rewrite <- (G i j) by lia.
    rewrite (bsum_trunc (S c) (S j)) by (try lia; intros k Hk; rewrite lowf_out by lia; ring). cbn [bsum].
    rewrite lowf_in by lia.
    rewrite (bsum_ext j _ (fun k => L i k / L k k * L j k)) by (intros; rewrite unitl_in, lowf_in by lia; reflexivity).
    f_equal. destruct (Nat.eq_dec j i) as [->|]; [rewrite unitl_diag; ring|].
    rewrite unitl_in by lia. field. apply Hd. lia.
  - rewrite <- (G j i) by lia.
    rewrite (bsum_trunc (S c) (S i)) by (try lia; intros k Hk; rewrite unitl_out by lia; ring). cbn [bsum].
    rewrite unitl_diag, lowf_in by lia.
    rewrite (bsum_ext i _ (fun k => L j k / L k k * L i k)); [ring|].
    intros k Hk. rewrite unitl_in, lowf_in by lia. field. apply Hd. lia.
Qed.

(** Upper triangular systems have solutions; a zero in the last diagonal place gives a vector
    that is annihilated. *)
Lemma upper_solve n (U : nat -> nat -> T) b : upper_tri n U -> diag_nz n U -> exists x, solves n U x b.
Proof.
  revert b. induction n as [|n IH]; intros b HU HD.
  { exists b. intros i Hi. lia. }
  pose (xn := b n / U n n).
  destruct (IH (fun i => b i - U i n * xn)) as [x Hx].
  { intros i j H1 H2. apply HU; lia. } { intros i H1. apply HD. lia. }
  exists (fun i => if Nat.ltb i n then x i else xn). intros i Hi. unfold mvmul. cbn [bsum].
  rewrite (bsum_ext n _ (fun k => U i k * x k)).
  2:{ intros k Hk. destruct (Nat.ltb_spec k n); [auto|lia]. }
  destruct (Nat.ltb_spec n n); [lia|]. destruct (Nat.eq_dec i n) as [->|].
  - rewrite bsum_zero by (intros k Hk; rewrite (HU n k) by lia; ring). unfold xn. field. apply HD. lia.
  - pose proof (Hx i ltac:(lia)) as E. unfold mvmul in E. rewrite E. ring.
Qed.
Lemma upper_null c (U : nat -> nat -> T) : upper_tri (S c) U -> diag_nz c U -> U c c = zero ->
  exists x, x c = one /\ forall i, (i < S c)%nat -> mvmul (S c) U x i = zero.
Proof.
  intros HU HD HZ.
  destruct (upper_solve c U (fun i => - U i c)) as [x Hx].
  { intros i j H1 H2. apply HU; lia. } { exact HD. }
  exists (fun i => if Nat.ltb i c then x i else one). split.
  { destruct (Nat.ltb_spec c c); [lia|auto]. }
  intros i Hi. unfold mvmul. cbn [bsum].
  rewrite (bsum_ext c _ (fun k => U i k * x k)).
  2:{ intros k Hk. destruct (Nat.ltb_spec k c); [auto|lia]. }
  destruct (Nat.ltb_spec c c); [lia|]. destruct (Nat.eq_dec i c) as [->|].
  - rewrite bsum_zero by (intros k Hk; rewrite (HU c k) by lia; ring). rewrite HZ. ring.
  - pose proof (Hx i ltac:(lia)) as E. unfold mvmul in E. rewrite E. ring.
Qed.

Lemma nz_of_eqb (v : T) : eqb v zero = false -> v <> zero.
Proof. intros H E. apply eqb_ok in E. congruence. Qed.

(** The factorisation succeeds exactly when every leading block is non-singular. *)
Lemma mfactored_leading n (A L : nat -> nat -> T) : mfactored n A L -> leading_nonsingular n (symf A).
Proof.
  intros H m Hm. destruct m as [|c]. { intros x _ i Hi. lia. }
  assert (D : forall i, (i < n)%nat -> L i i <> zero) by (intros i Hi; apply nz_of_eqb, (H i Hi)).
  assert (E : meq (S c) (S c) (mmmul (S c) (unitl L) (transp (lowf L))) (symf A)).
  { apply mod_product; [intros; apply D; lia|]. intros i j H1 H2. apply (H i); lia. }
  assert (N : nonsingular (S c) (mmmul (S c) (unitl L) (transp (lowf L)))).
  { apply product_nonsingular; [apply unitl_nonsingular|]. apply upper_nonsingular; [apply lowf_transp_upper|].
    intros i Hi. unfold transp. rewrite lowf_in by lia. apply D. lia. }
  intros x Hx. apply N. intros i Hi. rewrite <- (Hx i Hi). apply mvmul_ext; auto.
Qed.
Lemma mfailed_singular n (A L : nat -> nat -> T) c : mfailed n A L c -> ~ leading_nonsingular n (symf A).
Proof.
  intros (Hc & R & O & Z) N.
  assert (D : forall i, (i < c)%nat -> L i i <> zero) by (intros i Hi; apply nz_of_eqb, (R i Hi)).
  assert (E : meq (S c) (S c) (mmmul (S c) (unitl L) (transp (lowf L))) (symf A)).
  { apply mod_product; auto. intros i j H1 H2. destruct (Nat.eq_dec i c) as [->|]; [auto|]. apply (R i); lia. }
  destruct (upper_null c (transp (lowf L))) as (x & X1 & X2).
  { apply lowf_transp_upper. }
  { intros i Hi. unfold transp. rewrite lowf_in by lia. auto. }
  { unfold transp. rewrite lowf_in by lia. now apply eqb_ok. }
  assert (X0 : x c = zero).
  { apply (N (S c) ltac:(lia)); [|lia]. intros i Hi.
    transitivity (mvmul (S c) (mmmul (S c) (unitl L) (transp (lowf L))) x i).
    - apply mvmul_ext; auto. intros k Hk. symmetry. apply E; auto.
    - rewrite mvmul_assoc. unfold mvmul at 1. apply bsum_zero. intros k Hk. rewrite X2 by auto. ring. }
  apply (F_1_neq_0 (field_th (IsField := F))). congruence.
Qed.
End FieldMath.

(** ** The square-root factorisation over the reals *)
Section RealChol.
Local Open Scope R_scope.
Implicit Types A L : nat -> nat -> R.

Lemma bad_R (v : R) : bad v <-> v <= 0.
Proof.
  unfold bad. cbn. destruct (Req_EM_T v 0), (Rlt_dec v 0); split; intros H; try lra; auto;
    destruct H; try discriminate; lra.
Qed.
Lemma pivot_R A L i : pivot A L i = A i i - bsum i (fun k => L i k * L i k).
Proof. unfold pivot. rewrite ssub_bsum. reflexivity. Qed.
Lemma rowrec_pos A L i : rowrec A L i -> 0 < L i i /\ L i i * L i i = pivot A L i.
Proof.
  intros [_ [H E]]. rewrite bad_R in H. rewrite E. cbn. split; [apply sqrt_lt_R0; lra|apply sqrt_sqrt; lra].
Qed.

(** Leading block of order c+1 as L L^T plus the last pivot in the last place. *)
Lemma chol_product c A L v :
  (forall i, (i < c)%nat -> rowrec A L i) -> (forall j, (j < c)%nat -> offrec A L c j) ->
  L c c * L c c + v = pivot A L c ->
  forall i j, (i < S c)%nat -> (j < S c)%nat ->
    symf A i j = mmmul (S c) (lowf L) (transp (lowf L)) i j + (if Nat.eqb i c && Nat.eqb j c then v else 0).
Proof.
  intros R O Hv.
  assert (G : forall i j, (j <= i)%nat -> (i <= c)%nat ->
    A i j = bsum j (fun k => L i k * L j k) + L i j * L j j + (if Nat.eqb i c && Nat.eqb j c then v else 0)).
  { intros i j Hj Hi. destruct (Nat.eq_dec j i) as [->|Ne].
    - destruct (Nat.eqb_spec i c) as [->|]; cbn [andb].
      + rewrite pivot_R in Hv. cbn in *. lra.
      + destruct (rowrec_pos A L i (R i ltac:(lia))) as [_ E]. rewrite pivot_R in E. cbn in *. lra.
    - assert (E : offrec A L i j).
      { destruct (Nat.eq_dec i c) as [->|]; [apply O; lia|]. apply (R i); lia. }
      destruct (Nat.eqb_spec j c); [lia|]. rewrite andb_false_r.
      unfold offrec in E. rewrite ssub_bsum in E. rewrite E at 1.
      destruct (rowrec_pos A L j (R j ltac:(lia))) as [P _]. cbn. field. lra. }
  intros i j Hi Hj. unfold symf, mmmul, transp. destruct (Nat.leb_spec j i).
  - rewrite (low_prod (S c)) by lia. rewrite (G i j) by lia. reflexivity.
  - rewrite (bsum_ext (S c) _ (fun k => mul (lowf L j k) (lowf L i k))) by (intros; cbn; ring).
    rewrite (low_prod (S c)) by lia. rewrite (G j i) by lia. rewrite andb_comm. reflexivity.
Qed.

Lemma factored_product n A L : factored n A L -> meq n n (mmmul n (lowf L) (transp (lowf L))) (symf A).
Proof.
  intros H i j Hi Hj. destruct n as [|c]; [lia|].
  rewrite (chol_product c A L 0); auto.
  - destruct (_ && _); cbn; lra.
  - intros j' Hj'. apply (H c); lia.
  - destruct (rowrec_pos A L c (H c ltac:(lia))) as [_ E]. rewrite <- E. cbn. lra.
Qed.

Lemma quad_LLt n M x : bsum n (fun i => x i * mvmul n (mmmul n M (transp M)) x i) = dotp n (mvmul n (transp M) x) (mvmul n (transp M) x).
Proof.
  transitivity (bsum n (fun i => bsum n (fun k => x i * M i k * mvmul n (transp M) x k))).
  - apply bsum_ext. intros i Hi. rewrite mvmul_assoc. unfold mvmul at 1. change Rmult with (@mul R ROps) at 1.
    rewrite <- bsum_scal_l. apply bsum_ext. intros k Hk. cbn. ring.
  - rewrite bsum_swap. unfold dotp. apply bsum_ext. intros k Hk.
    rewrite (bsum_ext n _ (fun i => mul (mul (transp M k i) (x i)) (mvmul n (transp M) x k))) by (intros; cbn; unfold transp; ring).
    rewrite bsum_scal_r. reflexivity.
Qed.

(** A factored matrix is positive definite. *)
Lemma factored_pos_def n A L : factored n A L -> pos_def n (symf A).
Proof.
  intros H x (i & Hi & Nz).
  assert (E : bsum n (fun i => x i * mvmul n (symf A) x i) = dotp n (mvmul n (transp (lowf L)) x) (mvmul n (transp (lowf L)) x)).
  { rewrite <- quad_LLt. apply bsum_ext. intros k Hk. f_equal. apply mvmul_ext; auto.
    intros j Hj. symmetry. apply (factored_product n A L H); auto. }
  rewrite E. destruct (dotp_self_nonneg n (mvmul n (transp (lowf L)) x)) as [|Z]; auto.
  exfalso. apply Nz.
  assert (N : nonsingular n (transp (lowf L))).
  { apply upper_nonsingular; [apply lowf_transp_upper|]. intros k Hk. unfold transp. rewrite lowf_in by lia.
    destruct (rowrec_pos A L k (H k Hk)). cbn. lra. }
  apply N; auto. apply (dotp_self_zero n). auto.
Qed.

(** A failed one is not. *)
Lemma failed_not_pos_def n A L c : failed n A L c -> ~ pos_def n (symf A).
Proof.
  intros (Hc & R & O & D & B & _) HP. apply bad_R in B.
  set (v := pivot A L c) in *.
  (* the factor with its last diagonal entry removed *)
  pose (L0 := fun i j => if Nat.eqb i c && Nat.eqb j c then 0 else L i j).
  assert (E0 : forall i j, (i < c \/ j < c)%nat -> L0 i j = L i j).
  { intros i j Hij. unfold L0. destruct (Nat.eqb_spec i c), (Nat.eqb_spec j c); cbn; auto; lia. }
  assert (Z0 : L0 c c = 0) by (unfold L0; now rewrite Nat.eqb_refl).
  assert (R0 : forall i, (i < c)%nat -> rowrec A L0 i).
  { intros i Hi. apply (rowrec_ext A L); auto. intros i' k Hk Hi'. apply E0. lia. }
  assert (O0 : forall j, (j < c)%nat -> offrec A L0 c j).
  { intros j Hj. apply (offrec_ext A L); auto; intros k Hk; apply E0; lia. }
  assert (P0 : pivot A L0 c = v) by (apply pivot_ext; intros; apply E0; lia).
  pose proof (chol_product c A L0 v R0 O0) as HA. rewrite Z0, P0 in HA. specialize (HA ltac:(cbn; lra)).
  destruct (upper_null c (transp (lowf L0))) as (x & X1 & X2).
  { apply lowf_transp_upper. }
  { intros i Hi. unfold transp. rewrite lowf_in by lia. destruct (rowrec_pos A L0 i (R0 i Hi)). cbn. lra. }
  { unfold transp. rewrite lowf_in by lia. exact Z0. }
  pose (y := fun j => if Nat.ltb j (S c) then x j else 0).
  assert (HQ : 0 < bsum n (fun i => y i * mvmul n (symf A) y i)).
  { apply HP. exists c. split; [auto|]. unfold y. destruct (Nat.ltb_spec c (S c)); [|lia]. rewrite X1. cbn. lra. }
  rewrite (bsum_single n _ c Hc) in HQ.
  - assert (HV : mvmul n (symf A) y c = v).
    { unfold mvmul. rewrite (bsum_trunc n (S c)); [|lia|].
      2:{ intros k Hk. unfold y. destruct (Nat.ltb_spec k (S c)); [lia|]. cbn. ring. }
      rewrite (bsum_ext (S c) _ (fun k => add (mul (mmmul (S c) (lowf L0) (transp (lowf L0)) c k) (x k)) (if Nat.eqb k c then v * x k else 0))).
      - rewrite bsum_add. rewrite (bsum_single (S c) (fun i => if Nat.eqb i c then v * x i else 0) c); [|lia|].
        + rewrite Nat.eqb_refl, X1. pose proof (mvmul_assoc (S c) (S c) (lowf L0) (transp (lowf L0)) x c) as Q.
          unfold mvmul at 1 in Q. rewrite Q. unfold mvmul at 1. rewrite bsum_zero; [cbn; lra|].
          intros k Hk. rewrite X2 by auto. cbn. ring.
        + intros k Hk Hkc. destruct (Nat.eqb_spec k c); [lia|auto].
      - intros k Hk. unfold y. destruct (Nat.ltb_spec k (S c)); [|lia]. rewrite HA by lia. rewrite Nat.eqb_refl.
        cbn [andb]. destruct (Nat.eqb k c); cbn; ring. }
    rewrite HV in HQ. unfold y in HQ. destruct (Nat.ltb_spec c (S c)); [|lia]. rewrite X1 in HQ. cbn in *. lra.
  - intros i Hi Hic. unfold y at 1. destruct (Nat.ltb_spec i (S c)) as [Hlt|]; [|cbn; ring].
    assert (HV : mvmul n (symf A) y i = 0).
    { unfold mvmul. rewrite (bsum_trunc n (S c)); [|lia|].
      2:{ intros k Hk. unfold y. destruct (Nat.ltb_spec k (S c)); [lia|]. cbn. ring. }
      rewrite (bsum_ext (S c) _ (fun k => mul (mmmul (S c) (lowf L0) (transp (lowf L0)) i k) (x k))).
      - pose proof (mvmul_assoc (S c) (S c) (lowf L0) (transp (lowf L0)) x i) as Q.
        unfold mvmul at 1 in Q. rewrite Q. unfold mvmul at 1. apply Rbsum_zero.
        intros k Hk. rewrite X2 by auto. cbn. ring.
      - intros k Hk. unfold y. destruct (Nat.ltb_spec k (S c)); [|lia]. rewrite HA by lia.
        destruct (Nat.eqb_spec i c); [lia|]. cbn. ring. }
    rewrite HV. cbn. ring.
Qed.
End RealChol.
