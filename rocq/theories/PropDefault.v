(** * Property C106: default-constructed objects *)
From Coq Require Import Permutation Qcanon.
From Verif Require Import Base Scalar BaseLemmas Spec ModelVec ModelMat ModelSparse SpecSparse ModelPacked
  ModelIter ModelDefault ProofSparse PropSparse.
Local Open Scope nat_scope.

Section Default.
Context (T : Type) (Op : Ops T).

(** ** DynVec *)

Theorem C106_vector : forall h : heap T, exists v h', vec_default h = Ok v h' /\
  v = next h /\ vsize v h' = Ok 0 h' /\ (forall i, load v i h' = UB) /\ (forall w, w <> v -> mem h' w = mem h w).
Proof.
  intros h. eexists _, _. split; [reflexivity|]. unfold vsize, load. cbn [mem next]. rewrite Nat.eqb_refl. repeat split.
  - intros i. now destruct i.
  - intros w Hw. now rewrite (proj2 (Nat.eqb_neq _ _) Hw).
Qed.

(** ** SpCooMat *)

(** What works: nnz() is 0, every read returns zero, mut_at throws, scaling and negation give an
    empty matrix, the matrix is in the form the other operations rely on, and assigning to it makes
    it the assigned matrix, whatever was reserved.  No use of any matrix can tell whether reserve
    was called before. *)
Theorem C106_coo : forall St (s : St),
  coo_nnz (coo_default (T := T)) = 0 /\ coo_wf (coo_default (T := T)) /\ coo_entries (coo_default (T := T)) = [] /\
  (forall i j, coo_get (coo_default (T := T)) i j s = Ok zero s) /\
  (forall i j, coo_get_mut i j (coo_default (T := T)) = Throw OutOfRange coo_default) /\
  (forall i j x, coo_set i j x (coo_default (T := T)) = Throw OutOfRange coo_default) /\
  (forall a, coo_op_scale a (coo_default (T := T)) s = Ok coo_default s) /\
  coo_neg (coo_default (T := T)) s = Ok coo_default s /\
  (forall n A, (coo_reserve n ;; coo_assign A) (coo_default (T := T)) = Ok tt A) /\
  (forall R (use : M (coo T) R) n A, (coo_reserve n ;; use) A = use A).
Proof.
  intros St s. repeat split; try reflexivity.
  - intros a b _ Hb. cbn in Hb. lia.
  - intros n [v r c]. reflexivity.
Qed.

(** What does not: shape() dereferences the end of an empty array. *)
Theorem C106_coo_shape_ub : forall St (s : St), coo_shape (coo_default (T := T)) s = UB.
Proof. reflexivity. Qed.

Lemma max_ge : forall l x, x <= fold_left Nat.max l x.
Proof. induction l as [|y l IH]; intros x; cbn; [lia|]. specialize (IH (Nat.max x y)). lia. Qed.

Lemma leading_lt r l i : i < r -> leading i (r :: l) = 0.
Proof. intros H. cbn. now rewrite (proj2 (Nat.leb_gt _ _) H). Qed.

Lemma first_ub {S A} (body : nat -> A -> M S A) (a : A) (s : S) r : forall k i,
  (forall i, i < r -> body i a s = Ok a s) -> body r a s = UB -> i <= r -> r < i + k -> loop (seq i k) body a s = UB.
Proof.
  induction k as [|k IH]; intros i H1 H2 Hi Hk; [lia|]. cbn [seq loop]. unfold bind.
  destruct (Nat.eq_dec i r) as [->|Ne]; [now rewrite H2|]. rewrite H1 by lia. apply IH; auto; lia.
Qed.

(** Sums cannot start from it: adding any matrix with an entry reads the column array of the empty
    left-hand side, and adding the empty matrix to any matrix asks for its shape. *)
Theorem C106_coo_accumulate_ub : forall srt (B : coo T) r rs, crow B = r :: rs -> length (ccol B) = length (crow B) ->
  (forall i, In i (crow B) -> fits_u32 (i + 1) = true) ->
  coo_add_assign (Some B) srt coo_default = UB.
Proof.
  intros srt B r rs Er Hl Hf.
  set (m := fold_left Nat.max rs r).
  assert (Hm : In m (r :: rs)).
  { unfold m. clear. revert r. induction rs as [|y l IH]; intros r; cbn; [auto|].
    destruct (IH (Nat.max r y)) as [E|E]; [|right; right; exact E]. rewrite <- E.
    destruct (Nat.max_spec r y) as [[_ K]|[_ K]]; rewrite K; auto. }
  assert (Hr : r <= m) by apply max_ge.
  assert (Es : exists k, coo_shape B (coo_default (T := T)) = Ok (m + 1, k) coo_default).
  { unfold coo_shape, bind. rewrite Er. destruct (ccol B) as [|c cs] eqn:Ec; [rewrite Er in Hl; discriminate|]. cbn [max_elem ret]. eauto. }
  destruct Es as (k & Es). unfold coo_add_assign. unfold get_coo at 1. unfold bind at 1. cbn [rhs_of]. unfold bind at 1. rewrite Es.
  cbn [fst]. unfold bind at 1. unfold for_u32. rewrite (Hf m) by (rewrite Er; exact Hm). unfold for_sz. rewrite Nat.sub_0_r.
  rewrite (first_ub _ _ (coo_default (T := T)) r (m + 1) 0); [reflexivity| | |lia|lia].
  - intros i Hi. unfold get_coo, bind at 1. cbn [fst snd rhs_of crow coo_default]. unfold upper_bound. rewrite Er. cbn [skipn].
    rewrite !Nat.sub_0_r, (firstn_all (r :: rs)), leading_lt by exact Hi. cbn [length firstn leading Nat.add]. rewrite Nat.add_1_r. cbn [add_row].
    unfold bind. reflexivity.
  - unfold get_coo, bind at 1. cbn [fst snd rhs_of crow coo_default]. unfold upper_bound. rewrite Er. cbn [skipn].
    rewrite !Nat.sub_0_r, (firstn_all (r :: rs)). cbn [length firstn leading Nat.add]. rewrite Nat.leb_refl, Nat.add_1_r. cbn [add_row].
    replace (Z.of_nat 0 <=? _)%Z with true by (symmetry; apply Z.leb_le; lia). reflexivity.
Qed.
Theorem C106_coo_add_default_ub : forall srt (A : coo T), coo_add_assign (Some coo_default) srt A = UB.
Proof. intros. reflexivity. Qed.

(** ** SpMat *)

Theorem C106_csr : forall St (s : St),
  csr_nnz (csr_default (T := T)) = 0 /\
  (forall a, csr_op_scale a (csr_default (T := T)) s = Ok csr_default s) /\
  csr_neg (csr_default (T := T)) s = Ok csr_default s /\
  (forall n k A, (csr_reserve n k ;; csr_assign A) (csr_default (T := T)) = Ok tt A) /\
  (forall R (use : M (csr T) R) n k A, (csr_reserve n k ;; use) A = use A).
Proof. intros St s. repeat split; try reflexivity. intros n k [v r c]. reflexivity. Qed.

(** Every other use is undefined, the reads included; unlike an empty SpCooMat. *)
Theorem C106_csr_ub : forall St (s : St),
  csr_shape (csr_default (T := T)) s = UB /\
  (forall i j, csr_get (csr_default (T := T)) i j s = UB) /\
  (forall i j, csr_get_mut i j (csr_default (T := T)) = UB) /\
  (forall i j x, csr_set i j x (csr_default (T := T)) = UB) /\
  (forall dbg a b v w (h : heap T), sp_mul dbg a csr_default v b w h = UB) /\
  (forall dbg v (h : heap T), sp_op_mul dbg csr_default v h = UB) /\
  ilu_csr (csr_default (T := T)) s = UB.
Proof.
  intros St s. repeat split; try reflexivity.
  all: intros; unfold csr_get, csr_get_mut, csr_set, csr_find, bind, vec_at; cbn [sptr csr_default]; destruct i; reflexivity.
Qed.

(** Converting the empty SpCooMat gives a matrix with one row pointer: its reads are undefined too,
    for every position, although those of the SpCooMat return zero. *)
Theorem C106_converted : forall St (s : St), exists A : csr T,
  csr_of_coo coo_default s = Ok A s /\ csr_nnz A = 0 /\ sptr A = [0] /\
  csr_shape A s = UB /\ (forall i j, csr_get A i j s = UB).
Proof.
  intros St s. eexists. split; [reflexivity|]. repeat split.
  intros i j. unfold csr_get, csr_find, bind, vec_at. cbn [sptr]. destruct i as [|i]; [reflexivity|]. destruct i; reflexivity.
Qed.

(** ** DynUpperTriMat *)

(** [DynUpperTriMat<T> R{}]: the empty matrix, the same as with_capacity gives, and it grows. *)
Theorem C106_utri_value : forall isqrt St (s : St), isqrt 1 = 1 ->
  uobj_shape (utri_value_init (T := T)) s = Ok (0, 0) s /\
  utri_with_capacity isqrt s = Ok (mkUtri (T := T) 0 (ov utri_value_init)) s /\
  (forall es : list (list T), (forall k e, nth_error es k = Some e -> length e = k + 1) ->
    exists o, fold_left (fun m e => m ;; uobj_extend e) es (ret tt) utri_value_init = Ok tt o /\
      on o = Some (length es) /\ ov o = concat es) /\
  (forall e, length e <> 1 -> uobj_extend e (utri_value_init (T := T)) = Throw InvalidArgument utri_value_init).
Proof.
  intros isqrt St s H1. split; [reflexivity|]. split; [|split].
  - unfold utri_with_capacity, utri_of, utri_calc_size. cbn [length Nat.mul Nat.add]. rewrite H1. reflexivity.
  - intros es. induction es as [|e es IH] using rev_ind; intros He; [eexists; repeat split|].
    destruct IH as (o & E & En & Ev). { intros k e' Hk. apply (He k). rewrite nth_error_app1; [exact Hk|]. apply nth_error_Some. congruence. }
    assert (Le : length e = length es + 1). { apply (He (length es)). rewrite nth_error_app2, Nat.sub_diag by lia. reflexivity. }
    rewrite fold_left_app. cbn [fold_left].
    assert (B : forall (m f : M (utri_obj T) unit) a b, m a = Ok tt b -> (m ;; f) a = f b) by (intros m f a b H; unfold bind; now rewrite H).
    rewrite (B _ _ _ _ E). unfold uobj_extend, with_n, utri_extend. rewrite En. cbn [un uv].
    rewrite Le, Nat.eqb_refl. cbn [negb]. eexists. split; [reflexivity|]. cbn [on ov un uv].
    rewrite app_length, concat_app, Ev. cbn. rewrite app_nil_r. split; [reflexivity|reflexivity].
  - intros e He. unfold uobj_extend, with_n, utri_extend. cbn [on utri_value_init un]. cbn [Nat.add].
    rewrite (proj2 (Nat.eqb_neq _ _) He). reflexivity.
Qed.

(** [DynUpperTriMat<T> R;]: every operation that looks at the size uses an indeterminate value;
    only the reads below the diagonal, which do not, are defined. *)
Theorem C106_utri_default_ub : forall St (s : St),
  uobj_shape (utri_default_init (T := T)) s = UB /\
  uobj_extend_zero (utri_default_init (T := T)) = UB /\
  (forall e, uobj_extend e (utri_default_init (T := T)) = UB) /\
  (forall y (h : heap T), uobj_back_sub utri_default_init y h = UB) /\
  (forall i j, i <= j -> uobj_get (utri_default_init (T := T)) i j s = UB) /\
  (forall i j, j < i -> uobj_get (utri_default_init (T := T)) i j s = Ok zero s).
Proof.
  intros St s. repeat split; try reflexivity; intros i j H; unfold uobj_get, utri_get.
  - rewrite (proj2 (Nat.leb_le _ _) H). unfold vec_at. cbn [uv ov utri_default_init]. now destruct (utri_off i j).
  - now rewrite (proj2 (Nat.leb_gt _ _) H).
Qed.

(** Once [_n] has a value, the object is the one of ModelPacked.v. *)
Theorem C106_utri_agrees : forall n (l : list T), 
  (forall St (s : St) i j, uobj_get (mkUobj (Some n) l) i j s = utri_get (mkUtri n l) i j s) /\
  (forall y (h : heap T), uobj_back_sub (mkUobj (Some n) l) y h = back_sub (mkUtri n l) y h) /\
  (forall St (s : St), uobj_shape (mkUobj (Some n) l) s = Ok (n, n) s) /\
  (forall e n' l', uobj_extend e (mkUobj (Some n) l) = Ok tt (mkUobj (Some n') l') <->
    utri_extend e (mkUtri n l) = Ok tt (mkUtri n' l')) /\
  (forall e, uobj_extend e (mkUobj (Some n) l) = Throw InvalidArgument (mkUobj (Some n) l) <-> length e <> n + 1) /\
  uobj_extend_zero (mkUobj (Some n) l) = Ok tt (mkUobj (Some (n + 1)) (l ++ repeat zero (n + 1))).
Proof.
  intros n l. repeat split; try reflexivity; intros H; unfold uobj_extend, with_n, utri_extend in *; cbn [on ov un uv] in *;
    try (destruct (negb _); inversion H; subst; reflexivity).
  - destruct (Nat.eqb_spec (length e) (n + 1)); cbn [negb] in H; [discriminate|assumption].
  - now rewrite (proj2 (Nat.eqb_neq _ _) H).
Qed.

(** The claim at face value: a default-constructed sparse matrix or triangular matrix is an empty
    one, of shape (0,0). *)
Theorem C106_refuted :
  coo_shape (coo_default (T := T)) tt <> Ok (0, 0) tt /\ csr_shape (csr_default (T := T)) tt <> Ok (0, 0) tt /\
  uobj_shape (utri_default_init (T := T)) tt <> Ok (0, 0) tt /\
  exists srt (B : coo T), coo_wf B /\ sort_contract srt /\ coo_add_assign (Some B) srt coo_default = UB.
Proof.
  repeat split; try discriminate.
  exists isort, (mkCoo [zero] [0] [0]). split; [|split; [apply isort_contract|]].
  - repeat split. intros a b Hab Hb. cbn in Hb. lia.
  - apply (C106_coo_accumulate_ub isort (mkCoo [zero] [0] [0]) 0 []); [reflexivity|reflexivity|].
    intros i [<-|[]]. reflexivity.
Qed.
End Default.

(** Instances of the hypotheses: a matrix whose first entry is in row 2, added to an empty one; a
    triangular matrix grown to order 2. *)
Example C106_nonvacuous_accumulate :
  let B := mkCoo [5%Z; 7%Z] [2; 4] [1; 0] in
  coo_wf B /\ (forall i, In i (crow B) -> fits_u32 (i + 1) = true) /\ coo_add_assign (Some B) isort coo_default = UB.
Proof.
  intros B. split; [|split].
  - repeat split. intros a b Hab Hb. cbn in Hb. destruct b as [|[|b]]; [lia| |lia]. destruct a as [|a]; [|lia]. cbn. unfold pos_le. cbn. lia.
  - intros i [<-|[<-|[]]]; reflexivity.
  - apply (C106_coo_accumulate_ub Z ZOps isort B 2 [4]); [reflexivity|reflexivity|]. intros i [<-|[<-|[]]]; reflexivity.
Qed.
Example C106_nonvacuous_utri : exists o : utri_obj Z,
  fold_left (fun m e => m ;; uobj_extend e) [[1%Z]; [2%Z; 3%Z]] (ret tt) utri_value_init = Ok tt o /\
  on o = Some 2 /\ ov o = [1%Z; 2%Z; 3%Z].
Proof.
  apply (C106_utri_value Z Nat.sqrt unit tt eq_refl).
  intros [|[|k]] e H; [injection H as <-; reflexivity|injection H as <-; reflexivity|destruct k; discriminate].
Qed.

Print Assumptions C106_coo.
Print Assumptions C106_coo_accumulate_ub.
Print Assumptions C106_csr_ub.
Print Assumptions C106_converted.
Print Assumptions C106_utri_value.
Print Assumptions C106_utri_default_ub.
Print Assumptions C106_refuted.
