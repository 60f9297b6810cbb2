(** * Properties C72, C73: vector operations, Gram-Schmidt and GMRES with the BLAS backend *)
From Coq Require Import Ring FunctionalExtensionality.
From Verif Require Import Base Scalar BaseLemmas Spec Sums ModelVec ModelMat ModelPacked ModelSparse ModelIter SpecMat SpecSparse ProofVec ProofMat ProofMatOps
  ProofMatProp PropVec PropMat ModelBlas SpecBlas PropBlas ModelBlasVec SpecBlasVec ProofSparse ProofSparseCsr ProofSpmv PropSparse PropSpmv ProofIlu ProofCgs PropIlu.
Local Open Scope nat_scope.

Definition int_size (n : nat) : Prop := (Z.of_nat n < 2 ^ 31)%Z.

Lemma heap_eq {T} (h1 h2 : heap T) : (forall q, mem h1 q = mem h2 q) -> next h1 = next h2 -> h1 = h2.
Proof. destruct h1, h2. cbn. intros H ->. f_equal. extensionality q. apply H. Qed.

Lemma bind_eq {S A B} (m1 m2 : M S A) (f1 f2 : A -> M S B) s :
  m1 s = m2 s -> (forall a s', m2 s = Ok a s' -> f1 a s' = f2 a s') -> bind m1 f1 s = bind m2 f2 s.
Proof. intros E H. unfold bind. rewrite E. destruct (m2 s); auto. Qed.
Lemma noexcept_eq {S A} (m1 m2 : M S A) s : m1 s = m2 s -> noexcept m1 s = noexcept m2 s.
Proof. intros E. unfold noexcept. now rewrite E. Qed.

Lemma loop_eq {S A} (I : A -> S -> Prop) (b1 b2 : nat -> A -> M S A) l : forall a s,
  (forall i a s, In i l -> I a s -> b1 i a s = b2 i a s) ->
  (forall i a s a' s', In i l -> I a s -> b2 i a s = Ok a' s' -> I a' s') -> I a s ->
  loop l b1 a s = loop l b2 a s /\ forall a' s', loop l b2 a s = Ok a' s' -> I a' s'.
Proof.
  induction l as [|i l IH]; intros a s He Hp H0; cbn [loop].
  - split; [reflexivity|]. intros a' s' E. injection E as <- <-. exact H0.
  - assert (K : forall a1 s1, b2 i a s = Ok a1 s1 -> I a1 s1) by (intros a1 s1 E1; apply (Hp i a s); auto using in_eq).
    split.
    + apply bind_eq; [apply He; auto using in_eq|]. intros a1 s1 E1. apply IH; auto.
      * intros; apply He; auto using in_cons.
      * intros i0 a0 s0 a' s' Hi. apply Hp. now apply in_cons.
    + unfold bind. destruct (b2 i a s) as [a1 s1| | | | |] eqn:E1; try discriminate. apply IH; auto.
      * intros; apply He; auto using in_cons.
      * intros i0 a0 s0 a' s' Hi. apply Hp. now apply in_cons.
Qed.
Lemma for_u32_eq {S A} (I : A -> S -> Prop) (b1 b2 : nat -> A -> M S A) lo n a s :
  (forall i a s, lo <= i < n -> I a s -> b1 i a s = b2 i a s) ->
  (forall i a s a' s', lo <= i < n -> I a s -> b2 i a s = Ok a' s' -> I a' s') -> I a s ->
  for_u32 lo n b1 a s = for_u32 lo n b2 a s /\ forall a' s', for_u32 lo n b2 a s = Ok a' s' -> I a' s'.
Proof.
  intros He Hp H0. unfold for_u32. destruct (fits_u32 n); [|split; [reflexivity|discriminate]].
  unfold for_sz. apply loop_eq; auto.
  - intros i a0 s0 Hi. apply He. apply in_seq in Hi. lia.
  - intros i a0 s0 a' s' Hi. apply Hp. apply in_seq in Hi. lia.
Qed.

Section C72.
Context {T : Type} {Op : Ops T} {R : IsRing T Op}.
Implicit Types (h : heap T).
Add Ring Tring72 : (ring_th (IsRing := R)).
Variable B : vblas T.
Hypothesis HB : vblas_contract B.

Lemma wrote_eq h h1 h2 y n g : wrote h h1 y n g -> wrote_only h h2 y ->
  (forall i, rd h2 y i = if Nat.ltb i n then g i else rd h y i) -> h2 = h1.
Proof.
  intros (F1 & N1 & L1 & V1) (N2 & F2 & L2) V2. apply heap_eq; [|congruence]. intros q.
  destruct (Nat.eq_dec q y) as [->|Ne]; [|rewrite F1, F2; auto].
  apply (list_ext_nth zero); [unfold len in *; congruence|]. intros i _. unfold rd in *. now rewrite V1, V2.
Qed.

Lemma axpy_core_eq alpha x y n h : int_size n -> x <> y -> n <= len h x -> n <= len h y ->
  axpy_core_blas B alpha x y n h = axpy_core alpha x y n h.
Proof.
  intros Hn Nxy Hx Hy. unfold axpy_core_blas. rewrite c_int_small by exact Hn.
  destruct (post_ok _ _ _ (axpy_core_wrote alpha x y n h (small_u32 _ Hn) Hx Hy)) as (r & h1 & E1 & -> & W1).
  destruct (post_ok _ _ _ (axpy_computes _ HB n alpha x y h Nxy Hx Hy)) as ([] & h2 & E2 & W2 & V2).
  rewrite (bind_run _ _ _ _ _ E2), E1. unfold ret. f_equal. eapply wrote_eq; eauto.
Qed.
Lemma scal_core_eq alpha x n h : int_size n -> n <= len h x ->
  scal_core_blas B alpha x n h = scal_core alpha x n h.
Proof.
  intros Hn Hx. unfold scal_core_blas. rewrite c_int_small by exact Hn.
  destruct (post_ok _ _ _ (scal_core_wrote alpha x n h (small_u32 _ Hn) Hx)) as (r & h1 & E1 & -> & W1).
  destruct (post_ok _ _ _ (scal_computes _ HB n alpha x h Hx)) as ([] & h2 & E2 & W2 & V2).
  rewrite (bind_run _ _ _ _ _ E2), E1. unfold ret. f_equal. eapply wrote_eq; eauto.
Qed.
Lemma lsum_bsum_S (f : nat -> T) k : lsum f k = bsum (S k) f.
Proof. induction k as [|k IH]; cbn [lsum bsum] in *; [ring|]. now rewrite IH. Qed.
Lemma dot_core_eq x y n h : int_size n -> 0 < n -> n <= len h x -> n <= len h y ->
  dot_core_blas B x y n h = dot_core x y n h.
Proof.
  intros Hn Pn Hx Hy. unfold dot_core_blas. rewrite c_int_small by exact Hn. rewrite (dot_computes _ HB) by auto.
  destruct (post_ok _ _ _ (dot_core_ok x y n h (small_u32 _ Hn) Pn Hx Hy)) as (r & h1 & E1 & -> & ->).
  rewrite E1, lsum_bsum_S. do 2 f_equal. lia.
Qed.
Lemma norm2_core_eq x n h : int_size n -> 0 < n -> n <= len h x ->
  norm2_core_blas B x n h = norm2_core x n h.
Proof.
  intros Hn Pn Hx. unfold norm2_core_blas. rewrite c_int_small by exact Hn. rewrite (nrm2_computes _ HB) by auto.
  destruct (post_ok _ _ _ (norm2_core_ok x n h (small_u32 _ Hn) Hx)) as (r & h1 & E1 & -> & ->). now rewrite E1.
Qed.

Ltac bstep := unfold bind, ret, vsize, contents, alloc, check_size; cbv beta iota;
  repeat match goal with |- context [mkHeap (fun q => if Nat.eqb q (next ?h) then ?b else mem ?h q) (S (next ?h))] =>
    change (mkHeap (fun q => if Nat.eqb q (next h) then b else mem h q) (S (next h))) with (halloc h b) end;
  repeat match goal with |- context [length (mem ?h ?x)] => change (length (mem h x)) with (len h x) end.
Lemma len_halloc_new h l : len (halloc h l) (next h) = length l.
Proof. unfold len, halloc. cbn. now rewrite Nat.eqb_refl. Qed.

(** For operands of fewer than 2^31 elements, each operation does exactly what it does without BLAS:
    same outcome, same value, same final memory. *)
Theorem C72_axpy : forall alpha x y h,
  x <> y -> int_size (len h x) ->
  axpy_d_blas B alpha x y h = axpy_d alpha x y h /\
  forall N, N <= len h x -> N <= len h y -> axpy_s_blas B N alpha x y h = axpy_s N alpha x y h.
Proof.
  intros alpha x y h Ne Hx. split.
  - apply noexcept_eq. bstep. destruct (Nat.eqb_spec (len h x) (len h y)) as [E|E]; [|unfold throw; cbv iota; reflexivity].
    unfold ret; cbv iota. rewrite axpy_core_eq; auto; lia.
  - intros N H1 H2. apply noexcept_eq. apply bind_eq; [|reflexivity]. apply axpy_core_eq; auto. unfold int_size in *; lia.
Qed.
Theorem C72_scale : forall alpha x h,
  int_size (len h x) ->
  scale_d_blas B alpha x h = scale_d alpha x h /\
  op_scale_d_blas B alpha x h = op_scale_d alpha x h /\
  op_div_d_blas B x alpha h = op_div_d x alpha h /\
  forall N, N <= len h x -> scale_s_blas B N alpha x h = scale_s N alpha x h /\
    op_scale_s_blas B N alpha x h = op_scale_s N alpha x h /\ op_div_s_blas B N x alpha h = op_div_s N x alpha h.
Proof.
  intros alpha x h Hx.
  assert (K : forall a n, n <= len h x ->
     scal_core_blas B a (next h) n (halloc h (mem h x)) = scal_core a (next h) n (halloc h (mem h x))).
  { intros a n Hn. apply scal_core_eq; [unfold int_size in *; lia|]. now rewrite len_halloc_new. }
  assert (L : len (halloc h (mem h x)) (next h) = len h x) by apply len_halloc_new.
  repeat split; try (apply noexcept_eq; bstep; rewrite ?L, ?K by lia; reflexivity).
  - apply noexcept_eq; bstep. rewrite scal_core_eq; auto.
  - apply noexcept_eq; bstep. rewrite scal_core_eq; auto. unfold int_size in *; lia.
Qed.
Theorem C72_dot : forall x y h,
  int_size (len h x) -> 0 < len h x ->
  dot_d_blas B x y h = dot_d x y h /\ dot_member_d_blas B x y h = dot_member_d x y h /\
  (forall N, N <= len h y -> dot_member_ds_blas B N x y h = dot_member_ds N x y h) /\
  forall N, 0 < N -> N <= len h x -> N <= len h y -> dot_s_blas B N x y h = dot_s N x y h.
Proof.
  intros x y h Hx Px. repeat split.
  - apply noexcept_eq. bstep. destruct (Nat.eqb_spec (len h x) (len h y)) as [E|E]; [|unfold throw; cbv iota; reflexivity].
    unfold ret; cbv iota. apply dot_core_eq; auto; lia.
  - unfold dot_member_d_blas, dot_member_d. bstep. destruct (Nat.eqb_spec (len h x) (len h y)) as [E|E]; [|unfold throw; cbv iota; reflexivity].
    unfold ret; cbv iota. apply dot_core_eq; auto; lia.
  - intros N HN. unfold dot_member_ds_blas, dot_member_ds. bstep. destruct (Nat.eqb_spec (len h x) N) as [E|E]; [|unfold throw; cbv iota; reflexivity].
    unfold ret; cbv iota. apply dot_core_eq; auto; lia.
  - intros N PN H1 H2. apply noexcept_eq. apply dot_core_eq; auto. unfold int_size in *; lia.
Qed.
Theorem C72_norm2 : forall x h,
  int_size (len h x) -> (0 < len h x \/ sqrt_ zero = zero) ->
  norm2_d_blas B x h = norm2_d x h /\
  forall N, (0 < N \/ sqrt_ zero = zero) -> N <= len h x -> norm2_s_blas B N x h = norm2_s N x h.
Proof.
  intros x h Hx Hp.
  assert (K : forall N, (0 < N \/ sqrt_ zero = zero) -> N <= len h x -> norm2_core_blas B x N h = norm2_core x N h).
  { intros N HN HL. destruct N as [|N]; [|apply norm2_core_eq; unfold int_size in *; lia].
    destruct HN as [HN|HN]; [lia|]. unfold norm2_core_blas. rewrite c_int_small by (cbn; lia).
    rewrite (nrm2_quick _ HB) by lia. unfold norm2_core, for_u32, for_sz, fits_u32. cbn. unfold bind, ret. now rewrite HN. }
  split; [|intros N HN HL]; apply noexcept_eq; [bstep|]; apply K; auto.
Qed.
Theorem C72_matrix_scale : forall alpha A h,
  mr A * mc A <= len h (mp A) -> int_size (mr A * mc A) ->
  scalem_blas B alpha A h = scalem alpha A h /\
  op_scalem_blas B alpha A h = op_scalem alpha A h /\ op_negm_blas B A h = op_negm A h.
Proof.
  intros alpha A h Hl Hn. 
  assert (K : forall a C h', mr A * mc A <= len h' (mp C) -> mr C = mr A -> mc C = mc A -> scalem_blas B a C h' = scalem a C h').
  { intros a C h' Hl' E1 E2. apply noexcept_eq. apply bind_eq; [|reflexivity]. rewrite E1, E2. apply scal_core_eq; auto. }
  split; [auto|]. split; apply noexcept_eq; (apply bind_eq; [reflexivity|]); intros C h' E; unfold mat_copy, bind, contents, alloc, ret in E;
    injection E as <- <-; (apply bind_eq; [|reflexivity]); apply K; auto; exact (eq_ind_r (fun k => _ <= k) Hl (len_halloc_new h (mem h (mp A)))).
Qed.

(** The same for the stored values of sparse matrices. *)
Theorem C72_sparse_scale : forall alpha (A A2 : coo T) (C : csr T) srt s,
  int_size (length (cval A)) -> int_size (length (sval C)) ->
  coo_scale_blas B alpha A = coo_scale alpha A /\ csr_scale_blas B alpha C = csr_scale alpha C /\
  @coo_op_scale_blas _ B (heap T) alpha A s = coo_op_scale alpha A s /\
  @csr_op_scale_blas _ B (heap T) alpha C s = csr_op_scale alpha C s /\
  @coo_neg_blas _ _ B (heap T) A s = coo_neg A s /\ @csr_neg_blas _ _ B (heap T) C s = csr_neg C s /\
  @coo_minus_blas _ _ B (heap T) srt A2 A s = coo_minus srt A2 A s.
Proof.
  intros alpha A A2 C srt s HA HC.
  assert (K : forall (St : Type) a l (s0 : St), int_size (length l) -> @scal_vals_blas _ B St a l s0 = scal_vals a l s0).
  { intros St a l s0 Hl. apply bind_eq; [|reflexivity]. unfold run_local. rewrite scal_core_eq; auto. }
  assert (KA : forall a, coo_scale_blas B a A = coo_scale a A) by (intros a; apply noexcept_eq; apply bind_eq; [apply K; auto|reflexivity]).
  assert (KC : forall a, csr_scale_blas B a C = csr_scale a C) by (intros a; apply noexcept_eq; apply bind_eq; [apply K; auto|reflexivity]).
  assert (KN : @coo_neg_blas _ _ B (heap T) A s = coo_neg A s) by (apply noexcept_eq; unfold on_copy; now rewrite KA).
  repeat split; auto; apply noexcept_eq; try (unfold on_copy; now rewrite ?KA, ?KC).
  apply bind_eq; [exact KN|reflexivity].
Qed.

(** Without BLAS the dot product of two empty vectors reads past their end; with BLAS it is zero. *)
Theorem C72_dot_empty : forall x y h,
  len h x = 0 -> len h y = 0 -> dot_d_blas B x y h = Ok zero h /\ dot_d x y h = UB.
Proof.
  intros x y h Hx Hy. unfold dot_d_blas, dot_d, noexcept. bstep. rewrite Hx, Hy. cbn [Nat.eqb]. unfold ret. cbv iota. split.
  - unfold dot_core_blas. rewrite c_int_small by (cbn; lia). rewrite (dot_computes _ HB) by lia. reflexivity.
  - unfold dot_core, bind, load. destruct (nth_error (mem h x) 0) eqn:E0; [|reflexivity].
    unfold len in Hx. destruct (mem h x); discriminate.
Qed.

(** From 2^31 elements on the count reaches CBLAS as a negative [int]: nothing is written, and dot
    product and norm are zero, without an error. *)
Theorem C72_too_long : forall x h,
  (2 ^ 31 <= Z.of_nat (len h x) < 2 ^ 32)%Z ->
  (forall alpha y, len h y = len h x -> axpy_d_blas B alpha x y h = Ok y h) /\
  (forall alpha, scale_d_blas B alpha x h = Ok x h) /\
  (forall y, len h y = len h x -> dot_d_blas B x y h = Ok zero h) /\
  norm2_d_blas B x h = Ok zero h.
Proof.
  intros x h H. assert (C : (c_int (len h x) < 0)%Z).
  { unfold c_int, to_int32. cbv zeta. rewrite Z.mod_small by lia. destruct (Z.ltb_spec (Z.of_nat (len h x)) (2 ^ 31)); lia. }
  repeat split; intros; unfold axpy_d_blas, scale_d_blas, dot_d_blas, norm2_d_blas, noexcept; bstep.
  - rewrite H0, Nat.eqb_refl. unfold ret, axpy_core_blas, bind. rewrite (axpy_quick _ HB) by exact C. reflexivity.
  - unfold scal_core_blas, bind. rewrite (scal_quick _ HB) by exact C. reflexivity.
  - rewrite H0, Nat.eqb_refl. unfold ret, dot_core_blas. rewrite (dot_quick _ HB) by exact C. reflexivity.
  - unfold norm2_core_blas. rewrite (nrm2_quick _ HB) by lia. reflexivity.
Qed.

Lemma C72_refuted_at n : one <> zero -> Z.of_nat n = (2 ^ 31)%Z ->
  exists alpha x h, (Z.of_nat (len h x) < 2 ^ 32)%Z /\ scale_d_blas B alpha x h <> scale_d alpha x h.
Proof.
  intros Ne HZ. set (h := heap_of [repeat one n] : heap T).
  assert (Hl : len h 0 = n) by (unfold len, h; cbn; apply repeat_length).
  exists zero, 0, h. rewrite Hl, HZ. split; [lia|].
  rewrite (proj1 (proj2 (C72_too_long 0 h ltac:(rewrite Hl, HZ; lia)))).
  assert (F : fits_u32 n = true) by (unfold fits_u32; apply Z.ltb_lt; rewrite HZ; lia).
  assert (W := post_ok _ _ _ (scal_core_wrote zero 0 n h F ltac:(lia))). destruct W as (r & h1 & E & -> & W1).
  assert (E2 : scale_d zero 0 h = Ok 0 h1).
  { unfold scale_d, noexcept. bstep. rewrite Hl, E. reflexivity. }
  rewrite E2. intros X. injection X as <-. destruct W1 as (_ & _ & _ & V). specialize (V 0).
  assert (P : Nat.ltb 0 n = true) by (apply Nat.ltb_lt; lia). rewrite P in V.
  assert (R0 : rd h 0 0 = one).
  { unfold rd, h. cbn [mem heap_of nth]. destruct n; [lia|reflexivity]. }
  apply Ne. rewrite <- R0, V. ring.
Qed.
Theorem C72_any_length_refuted :
  one <> zero ->
  exists alpha x h, (Z.of_nat (len h x) < 2 ^ 32)%Z /\ scale_d_blas B alpha x h <> scale_d alpha x h.
Proof. intros Ne. apply (C72_refuted_at (Z.to_nat (2 ^ 31)) Ne). apply Z2Nat.id. lia. Qed.
End C72.

(** There is a library with this contract, and the theorems say something about it. *)
Theorem ref_vblas_meets_contract {T} {Op : Ops T} {R : IsRing T Op} : vblas_contract (T := T) ref_vblas.
Proof.
  assert (N : forall (f : nat -> T) n i, i < n -> nth i (map f (seq 0 n)) zero = f i).
  { intros f n i Hi. rewrite nth_indep with (d' := f 0) by (rewrite map_length, seq_length; lia).
    rewrite map_nth, seq_nth by lia. reflexivity. }
  split.
  - intros n alpha x y h Ne Hx Hy. cbn [ref_vblas b_axpy]. unfold post. cbn [ref_vblas b_axpy b_scal]. destruct (Z.ltb_spec (Z.of_nat n) 0); [lia|]. cbv zeta iota beta.
    rewrite Nat2Z.id. split.
    + unfold wrote_only, len. cbn. rewrite Nat.eqb_refl, map_length, seq_length. repeat split.
      intros q Hq. destruct (Nat.eqb_spec q y); congruence.
    + intros i. unfold rd at 1. cbn [upd mem]. rewrite Nat.eqb_refl. destruct (Nat.ltb_spec i (len h y)) as [L|L].
      * rewrite N by lia. reflexivity.
      * rewrite nth_overflow by (rewrite map_length, seq_length; lia). destruct (Nat.ltb_spec i n); [lia|].
        unfold rd. rewrite nth_overflow; [reflexivity|exact L].
  - intros n alpha x h Hx. cbn [ref_vblas b_scal]. unfold post. cbn [ref_vblas b_axpy b_scal]. destruct (Z.ltb_spec (Z.of_nat n) 0); [lia|]. cbv zeta iota beta.
    rewrite Nat2Z.id. split.
    + unfold wrote_only, len. cbn. rewrite Nat.eqb_refl, map_length, seq_length. repeat split.
      intros q Hq. destruct (Nat.eqb_spec q x); congruence.
    + intros i. unfold rd at 1. cbn [upd mem]. rewrite Nat.eqb_refl. destruct (Nat.ltb_spec i (len h x)) as [L|L].
      * rewrite N by lia. reflexivity.
      * rewrite nth_overflow by (rewrite map_length, seq_length; lia). destruct (Nat.ltb_spec i n); [lia|].
        unfold rd. rewrite nth_overflow; [reflexivity|exact L].
  - intros n x y h Hx Hy. cbn [ref_vblas b_dot]. now rewrite Nat2Z.id.
  - intros n x h Pn Hx. cbn [ref_vblas b_nrm2]. destruct (Z.leb_spec (Z.of_nat n) 0); [lia|]. now rewrite Nat2Z.id.
  - intros n alpha x y h Hn. cbn [ref_vblas b_axpy]. destruct (Z.ltb_spec n 0); [reflexivity|lia].
  - intros n alpha x h Hn. cbn [ref_vblas b_scal]. destruct (Z.ltb_spec n 0); [reflexivity|lia].
  - intros n x y h Hn. cbn [ref_vblas b_dot]. destruct n; [lia|lia|reflexivity].
  - intros n x h Hn. cbn [ref_vblas b_nrm2]. destruct (Z.leb_spec n 0); [reflexivity|lia].
Qed.

Example C72_nonvacuous :
  let h := heap_of [[1; 2; 3]; [4; 5; 6]]%Z : heap Z in
  int_size (len h 0) /\ 0 < len h 0 /\
  dot_d_blas ref_vblas 0 1 h = Ok 32%Z h /\ dot_d 0 1 h = Ok 32%Z h /\
  match axpy_d_blas ref_vblas 2%Z 0 1 h with Ok _ h' => mem h' 1 = [6; 9; 12]%Z | _ => False end /\
  match axpy_d 2%Z 0 1 h with Ok _ h' => mem h' 1 = [6; 9; 12]%Z | _ => False end.
Proof. split; [vm_compute; reflexivity|]. split; [apply Nat.ltb_lt; reflexivity|]. repeat split; vm_compute; reflexivity. Qed.

Print Assumptions C72_axpy.
Print Assumptions C72_scale.
Print Assumptions C72_dot.
Print Assumptions C72_norm2.
Print Assumptions C72_matrix_scale.
Print Assumptions C72_sparse_scale.
Print Assumptions C72_dot_empty.
Print Assumptions C72_too_long.
Print Assumptions C72_any_length_refuted.
Print Assumptions ref_vblas_meets_contract.
