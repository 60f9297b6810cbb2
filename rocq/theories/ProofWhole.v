(** * Exact integer arithmetic: sums, substitution, Cholesky *)
From Coq Require Import ZArith Lia Permutation.
From Verif Require Import Base Scalar BaseLemmas Spec Sums ProofVec ProofChol ProofCholSolve SpecWhole.
Local Open Scope Z_scope.
Local Notation zsum := (@bsum Z ZOps).

Lemma zsum_S n f : zsum (S n) f = zsum n f + f n.
Proof. reflexivity. Qed.
Lemma asum_S n f : asum (S n) f = asum n f + Z.abs (f n).
Proof. reflexivity. Qed.
Lemma asum_nonneg n f : 0 <= asum n f.
Proof. induction n as [|n IH]; [reflexivity|]. rewrite asum_S. lia. Qed.
Lemma zsum_le n f : Z.abs (zsum n f) <= asum n f.
Proof. induction n as [|n IH]; [reflexivity|]. rewrite zsum_S, asum_S. lia. Qed.
Lemma asum_term n f k : (k < n)%nat -> Z.abs (f k) <= asum n f.
Proof.
  induction n as [|n IH]; intros H; [lia|]. rewrite asum_S. pose proof (asum_nonneg n f).
  destruct (Nat.eq_dec k n) as [->|]; [lia|]. specialize (IH ltac:(lia)). lia.
Qed.
Lemma asum_mono n m f : (n <= m)%nat -> asum n f <= asum m f.
Proof. induction 1 as [|m H IH]; [lia|]. rewrite asum_S. lia. Qed.
Lemma asum_ext n f g : (forall k, (k < n)%nat -> f k = g k) -> asum n f = asum n g.
Proof. intros H. apply bsum_ext. intros k Hk. now rewrite H. Qed.

Section Whole.
Context {T : Type} {Op : Ops T} {B : Z} {is : T -> Z -> Prop} {W : Whole Op B is}.
Local Notation ints := (ints is).

Lemma is_eq x a b : is x a -> a = b -> is x b.
Proof. now intros H ->. Qed.

Lemma fsum_whole n c a f F : is c a -> ints n f F -> Z.abs a + asum n F <= B -> is (fsum n c f) (a + zsum n F).
Proof.
  intros Hc Hf. induction n as [|n IH]; intros H.
  - cbn. now rewrite Z.add_0_r.
  - rewrite asum_S in H. cbn [fsum]. rewrite zsum_S, Z.add_assoc. apply w_add.
    + apply IH; [intros i Hi; apply Hf; lia|lia].
    + apply Hf. lia.
    + pose proof (zsum_le n F). lia.
Qed.
Lemma lsum_whole n f F : ints (S n) f F -> asum (S n) F <= B -> is (lsum f n) (zsum (S n) F).
Proof.
  induction n as [|n IH]; intros Hf H.
  - apply (is_eq _ (F 0%nat)); [apply Hf; lia|]. reflexivity.
  - rewrite zsum_S. cbn [lsum]. rewrite asum_S in H. apply w_add.
    + apply IH; [intros i Hi; apply Hf; lia|]. lia.
    + apply Hf. lia.
    + pose proof (zsum_le (S n) F). lia.
Qed.
Lemma bsum_whole n f F : ints n f F -> asum n F <= B -> is (bsum n f) (zsum n F).
Proof.
  intros Hf. induction n as [|n IH]; intros H; [apply w_zero|]. rewrite asum_S in H. rewrite zsum_S. apply (w_add (bsum n f)).
  - apply IH; [intros i Hi; apply Hf; lia|lia].
  - apply Hf. lia.
  - pose proof (zsum_le n F). lia.
Qed.
(** A sum with terms taken away one after the other. *)
Lemma ssub_whole m a A f F : is a A -> ints m f F -> (forall k, (k <= m)%nat -> Z.abs (A - zsum k F) <= B) -> is (ssub m a f) (A - zsum m F).
Proof.
  intros Ha. induction m as [|m IH]; intros Hf H.
  - apply (is_eq _ A); [exact Ha|]. cbn. lia.
  - cbn [ssub]. apply (is_eq _ ((A - zsum m F) - F m)); [|rewrite zsum_S; lia]. apply w_sub.
    + apply IH; [intros i Hi; apply Hf; lia|]. intros k Hk. apply H. lia.
    + apply Hf. lia.
    + specialize (H (S m) ltac:(lia)). rewrite zsum_S in H. replace (A - zsum m F - F m) with (A - (zsum m F + F m)) by lia. exact H.
Qed.
(** The rest of a sum is bounded like the sum. *)
Lemma rest_le n F k : (k <= n)%nat -> Z.abs (zsum n F - zsum k F) <= asum n F - asum k F.
Proof. induction 1 as [|n H IH]; [lia|]. rewrite zsum_S, asum_S. lia. Qed.
Lemma ssub_rest m a f F N : is a (zsum N F) -> ints m f F -> (m <= N)%nat -> asum N F <= B -> is (ssub m a f) (zsum N F - zsum m F).
Proof.
  intros Ha Hf Hm H. apply ssub_whole; auto. intros k Hk. pose proof (rest_le N F k ltac:(lia)). pose proof (asum_nonneg k F). lia.
Qed.

Lemma prod_whole n (x y : nat -> T) f g : ints n x f -> ints n y g -> asum n (fun k => f k * g k) <= B ->
  ints n (fun k => mul (x k) (y k)) (fun k => f k * g k).
Proof.
  intros Hx Hy H i Hi. apply w_mul; auto. pose proof (asum_term n (fun k => f k * g k) i Hi). cbv beta in *. lia.
Qed.

(** One entry of a product: beta y + alpha a 0 x 0 + ... *)
Lemma entry_whole m c beta y alpha (a x : nat -> T) zb zy za f g : c = mul beta y \/ c = mul y beta ->
  is beta zb -> is y zy -> is alpha za -> ints m a f -> ints m x g ->
  (forall k, (k < m)%nat -> Z.abs (za * f k) <= B) -> Z.abs (zb * zy) + asum m (fun k => za * f k * g k) <= B ->
  is (fsum m c (fun k => mul (mul alpha (a k)) (x k))) (za * zsum m (fun k => f k * g k) + zb * zy).
Proof.
  intros Hc Hb Hy Ha Hf Hg Ba H. pose proof (asum_nonneg m (fun k => za * f k * g k)) as P.
  assert (C : is c (zb * zy)).
  { destruct Hc as [->| ->]; [apply w_mul; auto; lia|]. rewrite Z.mul_comm. apply w_mul; auto. rewrite Z.mul_comm. lia. }
  apply (is_eq _ (zb * zy + zsum m (fun k => za * f k * g k))).
  - apply fsum_whole; auto. intros k Hk. pose proof (asum_term m (fun k => za * f k * g k) k Hk). cbv beta in *. apply w_mul; auto; [|lia]. apply w_mul; auto.
  - rewrite Z.add_comm. f_equal. rewrite <- (bsum_scal_l (R := Z_ring)). apply bsum_ext. intros. cbn [mul ZOps]. ring.
Qed.
Lemma op_entry_whole m (a x : nat -> T) f g : ints m a f -> ints m x g ->
  (forall k, (k < m)%nat -> Z.abs (f k) <= B) -> asum m (fun k => f k * g k) <= B ->
  is (fsum m (mul zero zero) (fun k => mul (mul one (a k)) (x k))) (zsum m (fun k => f k * g k)).
Proof.
  intros Hf Hg Ba H. pose proof (w_range (Whole := W)).
  apply (is_eq _ (1 * zsum m (fun k => f k * g k) + 0 * 0)); [|lia].
  apply (entry_whole m _ zero zero one); auto using w_zero, w_one.
  - intros k Hk. rewrite Z.mul_1_l. auto.
  - rewrite (asum_ext m _ (fun k => f k * g k)) by (intros; ring). cbn. lia.
Qed.

(** ** Sums in any order *)
Lemma lsum_list_abs (l : list Z) : Z.abs (@lsum_list Z ZOps l) <= @lsum_list Z ZOps (map Z.abs l).
Proof. induction l as [|x l IH]; cbn [lsum_list map]; [reflexivity|]. cbn [add ZOps] in *. lia. Qed.
Lemma lsum_list_nonneg (l : list Z) : 0 <= @lsum_list Z ZOps (map Z.abs l).
Proof. induction l as [|x l IH]; cbn [lsum_list map]; [reflexivity|]. cbn [add ZOps] in *. lia. Qed.
Lemma reval_whole (t : rtree) : forall l, Forall2 is (leaves t) l -> @lsum_list Z ZOps (map Z.abs l) <= B -> is (reval t) (@lsum_list Z ZOps l).
Proof.
  induction t as [x|t1 IH1 t2 IH2]; intros l H Hb; cbn [leaves reval] in *.
  - inversion H as [|? k ? l' Hk H']; subst. inversion H'; subst. apply (is_eq _ k); auto. cbn. lia.
  - apply Forall2_app_inv_l in H as (l1 & l2 & H1 & H2 & ->). rewrite map_app, (lsum_app (R := Z_ring)) in Hb. rewrite (lsum_app (R := Z_ring)).
    cbn [add ZOps] in *. pose proof (lsum_list_nonneg l1). pose proof (lsum_list_nonneg l2).
    pose proof (lsum_list_abs l1). pose proof (lsum_list_abs l2). apply w_add; [apply IH1|apply IH2|]; auto; lia.
Qed.
Lemma perm_forall2 (l l' : list T) : Permutation l l' -> forall k, Forall2 is l' k -> exists k', Permutation k' k /\ Forall2 is l k'.
Proof.
  induction 1 as [|x l l' P IH|x y l|l l' l'' P1 IH1 P2 IH2]; intros k Hk.
  - inversion Hk; subst. exists []. auto.
  - inversion Hk as [|? a ? k1 Ha Hk1]; subst. destruct (IH _ Hk1) as (k2 & P2 & F2). exists (a :: k2). auto.
  - inversion Hk as [|? a ? k1 Ha Hk1]; subst. inversion Hk1 as [|? b ? k2 Hb Hk2]; subst. exists (b :: a :: k2). split; [apply perm_swap|auto].
  - destruct (IH2 _ Hk) as (k2 & Q2 & F2). destruct (IH1 _ F2) as (k1 & Q1 & F1). exists k1. split; [now transitivity k2|auto].
Qed.

(** ** Cholesky *)
Section Chol.
Variables (n : nat) (A L : nat -> nat -> T) (M : nat -> nat -> Z).
Hypothesis Hpos : forall i, (i < n)%nat -> 0 < M i i.
Hypothesis Hsum : forall i j, (i < n)%nat -> (j <= i)%nat -> asum (S j) (fun k => M i k * M j k) <= B.
Hypothesis HA : forall i j, (i < n)%nat -> (j <= i)%nat -> is (A i j) (zsum (S j) (fun k => M i k * M j k)).

Lemma M_le i j : (i < n)%nat -> (j <= i)%nat -> Z.abs (M i j) <= B.
Proof.
  intros Hi Hj. specialize (Hsum i i Hi ltac:(lia)). pose proof (asum_term (S i) (fun k => M i k * M i k) j ltac:(lia)) as H. cbv beta in H. nia.
Qed.
Definition rowis i : Prop := forall j, (j <= i)%nat -> is (L i j) (M i j).
Lemma off_whole i j : (j < i)%nat -> (i < n)%nat -> (forall k, (k < j)%nat -> is (L i k) (M i k)) -> rowis j -> offrec A L i j -> is (L i j) (M i j).
Proof.
  intros Hj Hi Hk Hr E. rewrite E. apply (w_div _ _ (M i j) (M j j)).
  - apply (is_eq _ (zsum (S j) (fun k => M i k * M j k) - zsum j (fun k => M i k * M j k))); [|rewrite zsum_S; lia].
    apply ssub_rest; [apply HA; lia| |lia|apply Hsum; lia]. intros k Hk'. apply w_mul; [auto|apply Hr; lia|].
    pose proof (asum_term (S j) (fun k => M i k * M j k) k ltac:(lia)) as H. specialize (Hsum i j Hi ltac:(lia)). cbv beta in H. lia.
  - apply Hr. lia.
  - specialize (Hpos j ltac:(lia)). lia.
  - apply M_le; lia.
Qed.
Lemma offs_whole i : (i < n)%nat -> (forall i', (i' < i)%nat -> rowis i') -> (forall j, (j < i)%nat -> offrec A L i j) ->
  forall j, (j < i)%nat -> is (L i j) (M i j).
Proof.
  intros Hi Hr Ho j. induction j as [j IH] using lt_wf_ind. intros Hj. apply off_whole; auto. intros k Hk. apply IH; lia.
Qed.
Lemma pivot_whole i : (i < n)%nat -> (forall j, (j < i)%nat -> is (L i j) (M i j)) -> is (pivot A L i) (M i i * M i i).
Proof.
  intros Hi Hr. unfold pivot.
  apply (is_eq _ (zsum (S i) (fun k => M i k * M i k) - zsum i (fun k => M i k * M i k))); [|rewrite zsum_S; lia].
  apply ssub_rest; [apply HA; lia| |lia|apply Hsum; lia]. intros k Hk. apply w_pow2; auto.
  pose proof (asum_term (S i) (fun k => M i k * M i k) k ltac:(lia)) as H. specialize (Hsum i i Hi ltac:(lia)). cbv beta in H. lia.
Qed.
Lemma pivot_good i : (i < n)%nat -> (forall j, (j < i)%nat -> is (L i j) (M i j)) -> ~ bad (pivot A L i).
Proof.
  intros Hi Hr. pose proof (pivot_whole i Hi Hr) as P. specialize (Hpos i Hi). unfold bad.
  rewrite (w_eqb _ _ _ _ P w_zero), (w_ltb _ _ _ _ P w_zero), Z.eqb_eq, Z.ltb_lt. nia.
Qed.
Lemma row_whole i : (i < n)%nat -> (forall i', (i' < i)%nat -> rowis i') -> rowrec A L i -> rowis i.
Proof.
  intros Hi Hr [Ho [_ Hd]] j Hj. pose proof (offs_whole i Hi Hr Ho) as Off. destruct (Nat.eq_dec j i) as [->|]; [|apply Off; lia].
  rewrite Hd. apply w_sqrt; [now apply pivot_whole|]. pose proof (M_le i i Hi ltac:(lia)). specialize (Hpos i Hi). lia.
Qed.
Lemma rows_whole c : (c <= n)%nat -> (forall i, (i < c)%nat -> rowrec A L i) -> forall i, (i < c)%nat -> rowis i.
Proof.
  intros Hc Hr i. induction i as [i IH] using lt_wf_ind. intros Hi. apply row_whole; auto; [lia|]. intros i' Hi'. apply IH; lia.
Qed.
Lemma factored_whole : factored n A L -> lints is n L M.
Proof. intros F i j Hi Hj. now apply (rows_whole n). Qed.
Lemma never_failed_whole c : failed n A L c -> False.
Proof.
  intros (Hc & Hr & Ho & _ & Hb & _). revert Hb. apply pivot_good; auto. apply offs_whole; auto. intros i' Hi'. apply (rows_whole c); auto. lia.
Qed.
End Chol.

(** ** Substitution with a lower triangular factor and its transpose *)
Section Subst.
Variables (n : nat) (L : nat -> nat -> T) (M : nat -> nat -> Z).
Hypothesis HL : lints is n L M.
Hypothesis Hnz : forall i, (i < n)%nat -> M i i <> 0.

Lemma fwd_whole (b Y : nat -> T) (y : nat -> Z) : (forall i, (i < n)%nat -> is (b i) (zsum (S i) (fun k => M i k * y k))) ->
  (forall i, (i < n)%nat -> asum (S i) (fun k => M i k * y k) <= B) -> (forall i, (i < n)%nat -> Z.abs (y i) <= B) ->
  (forall i, (i < n)%nat -> fwd L b Y i) -> ints n Y y.
Proof.
  intros Hb Hs Hy HF i. induction i as [i IH] using lt_wf_ind. intros Hi. rewrite (HF i Hi). apply (w_div _ _ (y i) (M i i)); auto.
  apply (is_eq _ (zsum (S i) (fun k => M i k * y k) - zsum i (fun k => M i k * y k))); [|rewrite zsum_S; lia].
  apply ssub_rest; auto. intros k Hk. apply w_mul; [apply HL; lia|apply IH; lia|].
  pose proof (asum_term (S i) (fun k => M i k * y k) k ltac:(lia)) as H. specialize (Hs i Hi). cbv beta in H. lia.
Qed.
Lemma bwd_whole (Y X : nat -> T) (x : nat -> Z) : (forall i, (i < n)%nat -> is (Y i) (zsum (n - i) (fun t => M (i + t)%nat i * x (i + t)%nat))) ->
  (forall i, (i < n)%nat -> asum (n - i) (fun t => M (i + t)%nat i * x (i + t)%nat) <= B) -> (forall i, (i < n)%nat -> Z.abs (x i) <= B) ->
  (forall i, (i < n)%nat -> bwd n L Y X i) -> ints n X x.
Proof.
  intros Hb Hs Hx HF.
  assert (G : forall d i, (i < n)%nat -> (n - i <= d)%nat -> is (X i) (x i)); [|intros i Hi; apply (G n i); lia].
  induction d as [|d IH]; intros i Hi Hd; [lia|]. rewrite (HF i Hi). apply (w_div _ _ (x i) (M i i)); auto.
  set (F := fun t => M (S i + t)%nat i * x (S i + t)%nat).
  assert (E : zsum (n - i) (fun t => M (i + t)%nat i * x (i + t)%nat) = x i * M i i + zsum (n - S i) F).
  { replace (n - i)%nat with (S (n - S i)) by lia. rewrite (bsum_first (R := Z_ring)), Nat.add_0_r. cbn [add ZOps]. f_equal; [ring|].
    apply bsum_ext. intros k Hk. unfold F. now replace (i + S k)%nat with (S i + k)%nat by lia. }
  assert (EA : asum (n - i) (fun t => M (i + t)%nat i * x (i + t)%nat) = Z.abs (x i * M i i) + asum (n - S i) F).
  { replace (n - i)%nat with (S (n - S i)) by lia. unfold asum. rewrite (bsum_first (R := Z_ring)), Nat.add_0_r. cbn [add ZOps]. f_equal; [f_equal; ring|].
    apply bsum_ext. intros k Hk. unfold F. now replace (i + S k)%nat with (S i + k)%nat by lia. }
  specialize (Hs i Hi). rewrite EA in Hs.
  apply (is_eq _ ((x i * M i i + zsum (n - S i) F) - zsum (n - S i) F)); [|lia].
  apply ssub_whole.
  - rewrite <- E. auto.
  - intros k Hk. unfold F. apply w_mul; [apply HL; lia|apply IH; lia|]. pose proof (asum_term (n - S i) F k Hk) as H. unfold F in H at 1. lia.
  - intros k Hk. pose proof (rest_le (n - S i) F k Hk). pose proof (asum_nonneg k F). lia.
Qed.
End Subst.
End Whole.
