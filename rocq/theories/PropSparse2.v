(** * Property C71: compressed-row matrices built from their three arrays *)
From Verif Require Import Base Scalar BaseLemmas ModelVec ModelSparse SpecSparse ProofSparse ProofSparseCsr PropSparse PropSpmv.
Local Open Scope nat_scope.

(** What the three arrays of a compressed-row matrix with [n] rows have to satisfy. *)
Definition consistent (n nnz : nat) (ptrs : list nat) : Prop :=
  length ptrs = n + 1 /\ nth 0 ptrs 0 = 0 /\ nth n ptrs 0 = nnz /\ forall i, i < n -> nth i ptrs 0 <= nth (i + 1) ptrs 0.

Section C71.
Context {T : Type} {Op : Ops T}.

(** Construction fails exactly when the value and column arrays differ in length, whatever the row
    pointers are. *)
Theorem C71_throws : forall St (val : list T) ptrs cols (s : St),
  (length val <> length cols -> csr_of val ptrs cols s = Throw RuntimeError s) /\
  (length val = length cols -> exists A, csr_of val ptrs cols s = Ok A s /\ csr_nnz A = length val).
Proof.
  intros St val ptrs cols s. unfold csr_of. split; intros H.
  - rewrite (proj2 (Nat.eqb_neq _ _) H). reflexivity.
  - rewrite (proj2 (Nat.eqb_eq _ _) H). cbn [negb]. eexists. split; reflexivity.
Qed.

(** With consistent row pointers, element (i,j) reads as the first value of row i whose column is j,
    and as zero when row i has no such entry. *)
Theorem C71_reads : forall St St' (val : list T) ptrs cols n (s : St) A i j (s' : St'),
  consistent n (length val) ptrs -> csr_of val ptrs cols s = Ok A s -> i < n ->
  (exists k, nth i ptrs 0 <= k < nth (i + 1) ptrs 0 /\ nth k cols 0 = j /\ (forall k', nth i ptrs 0 <= k' < k -> nth k' cols 0 <> j) /\
     csr_get A i j s' = Ok (nth k val zero) s') \/
  ((forall k, nth i ptrs 0 <= k < nth (i + 1) ptrs 0 -> nth k cols 0 <> j) /\ csr_get A i j s' = Ok zero s').
Proof.
  intros St St' val ptrs cols n s A i j s' (P1 & P2 & P3 & P4) E Hi. unfold csr_of in E.
  destruct (Nat.eqb_spec (length val) (length cols)) as [L|L]; cbn [negb] in E; [|discriminate].
  injection E as <-.
  assert (W : csr_wf (mkCsr val ptrs cols) n) by (unfold csr_wf; cbn [sval sptr scol]; repeat split; auto).
  unfold csr_get, bind. rewrite (csr_find_ok _ n) by auto. cbn [sval sptr scol].
  pose proof (ptr_le _ n (i + 1) W ltac:(lia)) as Hle. cbn [sval sptr] in Hle.
  destruct (find _ _) as [k|] eqn:F.
  - left. pose proof (find_seq_some _ _ _ _ F) as (H1 & H2 & H3). apply Nat.eqb_eq in H2. exists k.
    split; [lia|]. split; [auto|]. split.
    + intros k' Hk'. specialize (H3 k' ltac:(lia)). now apply Nat.eqb_neq in H3.
    + apply vec_at_d. lia.
  - right. split; [|reflexivity]. intros k Hk. pose proof (find_seq_none _ _ _ F k ltac:(lia)) as G. now apply Nat.eqb_neq in G.
Qed.

(** The shape is the number of rows and the largest column plus one. *)
Theorem C71_shape : forall St (val : list T) ptrs cols n (s : St) A,
  consistent n (length val) ptrs -> csr_of val ptrs cols s = Ok A s -> cols <> [] ->
  exists m, csr_shape A s = Ok (n, m) s /\ (forall c, In c cols -> c < m) /\ In (m - 1) cols.
Proof.
  intros St val ptrs cols n s A (P1 & _) E N. unfold csr_of in E.
  destruct (Nat.eqb_spec (length val) (length cols)) as [L|L]; cbn [negb] in E; [|discriminate].
  injection E as <-. destruct (max_elem_ok cols s N) as (c & E1 & I1 & M1). exists (c + 1). split; [|split].
  - unfold csr_shape, bind. cbn [scol sptr]. rewrite E1, P1. unfold ret. do 2 f_equal. lia.
  - intros x Hx. specialize (M1 x Hx). lia.
  - now replace (c + 1 - 1) with c by lia.
Qed.
End C71.

(** The full claim "construction accepts exactly consistent arrays" is false: row pointers are not
    looked at; the matrix is accepted and its second element read is out of bounds. *)
Theorem C71_accepts_refuted : exists (val : list Z) ptrs cols A,
  (forall n, ~ consistent n (length val) ptrs) /\ csr_of val ptrs cols tt = Ok A tt /\ csr_shape A tt = Ok (1, 1) tt /\ csr_get A 0 1 tt = UB.
Proof.
  exists [5%Z], [0; 7], [0], (mkCsr [5%Z] [0; 7] [0]). split; [|vm_compute; repeat split].
  intros n (P1 & _ & P3 & _). cbn in P1. assert (n = 1) as -> by lia. cbn in P3. lia.
Qed.

Example C71_nonvacuous : consistent 3 4 [0; 2; 3; 4] /\
  csr_of [40; 20; 30; 10]%Z [0; 2; 3; 4] [0; 2; 1; 0] tt = Ok (mkCsr [40; 20; 30; 10]%Z [0; 2; 3; 4] [0; 2; 1; 0]) tt /\
  csr_get (mkCsr [40; 20; 30; 10]%Z [0; 2; 3; 4] [0; 2; 1; 0]) 0 2 tt = Ok 20%Z tt.
Proof.
  split; [|vm_compute; auto]. split; [reflexivity|]. split; [reflexivity|]. split; [reflexivity|].
  intros i Hi. do 3 (destruct i as [|i]; [cbn; lia|]). lia.
Qed.

Print Assumptions C71_throws.
Print Assumptions C71_reads.
Print Assumptions C71_shape.
Print Assumptions C71_accepts_refuted.
