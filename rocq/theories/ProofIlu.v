(** * Proofs about ILU(0): what the decomposition and the solve compute, for every scalar type *)
From Verif Require Import Base Scalar BaseLemmas Spec ModelVec ModelMat SpecMat ModelPacked ModelSparse SpecSparse
  ProofPacked ProofSparse ProofSparseCsr ProofVecSched ProofChol ModelIter.
Local Open Scope nat_scope.

Section Rec.
Context {T : Type} {Op : Ops T}.

(** The recurrences of the factors, both held in [F] (the unit diagonal of L is not stored).
    A position takes part when its entry of [A] is not zero; the others keep their value. *)
Definition nzb (x : T) : bool := negb (eqb x zero).
Definition lrec (A F : nat -> nat -> T) i j : Prop :=
  if nzb (A i j)
  then nzb (F j j) = true /\ F i j = div (ssub j (A i j) (fun k => mul (F i k) (F k j))) (F j j)
  else F i j = A i j.
Definition urec (A F : nat -> nat -> T) i j : Prop :=
  if nzb (A i j) then F i j = ssub i (A i j) (fun k => mul (F i k) (F k j)) else F i j = A i j.
Definition ilurow (m : nat) A F i : Prop := (forall j, j < i -> lrec A F i j) /\ (forall j, i <= j -> j < m -> urec A F i j).
Definition ilu_done n m A F : Prop := forall i, i < n -> ilurow m A F i.
(** The decomposition stopped in row i because the pivot of column j was zero. *)
Definition ilu_stop n m A F : Prop := exists i j, j < i /\ i < n /\ (forall i', i' < i -> ilurow m A F i') /\
  (forall j', j' < j -> lrec A F i j') /\ nzb (A i j) = true /\ nzb (F j j) = false.

Lemma lrec_ext A F F' i j : (forall k, k <= j -> F i k = F' i k) -> (forall k, k <= j -> F k j = F' k j) ->
  lrec A F i j -> lrec A F' i j.
Proof.
  intros H1 H2. unfold lrec. destruct (nzb (A i j)).
  - intros [E1 E2]. rewrite <- H1, <- H2 by lia. split; [exact E1|]. rewrite E2. f_equal. apply ssub_ext.
    intros k Hk. now rewrite H1, H2 by lia.
  - rewrite H1 by lia. auto.
Qed.
Lemma urec_ext A F F' i j : i <= j -> (forall k, k < i -> F i k = F' i k) -> (forall k, k <= i -> F k j = F' k j) ->
  urec A F i j -> urec A F' i j.
Proof.
  intros Hij H1 H2. unfold urec. destruct (nzb (A i j)).
  - intros E2. rewrite <- H2 by lia. rewrite E2. apply ssub_ext. intros k Hk. now rewrite H1, H2 by lia.
  - rewrite H2 by lia. auto.
Qed.
Lemma ilurow_ext m A F F' i : (forall i' j, i' <= i -> F i' j = F' i' j) -> ilurow m A F i -> ilurow m A F' i.
Proof.
  intros H [L U]. split.
  - intros j Hj. apply (lrec_ext A F); auto; intros; apply H; lia.
  - intros j Hij Hj. apply (urec_ext A F); auto; intros; apply H; lia.
Qed.
Lemma done_not_stop n m A F : ilu_done n m A F -> ilu_stop n m A F -> False.
Proof.
  intros D (i & j & Hj & Hi & _ & _ & H1 & H2). destruct (D i Hi) as [L _]. specialize (L j Hj).
  unfold lrec in L. rewrite H1 in L. destruct L as [L _]. congruence.
Qed.

(** The factors are determined by the recurrences. *)
Lemma ilurow_unique m n A A' F F' : (forall i j, i < n -> j < m -> A i j = A' i j) -> n <= m ->
  forall i, i < n -> (forall i', i' <= i -> ilurow m A F i') -> (forall i', i' <= i -> ilurow m A' F' i') ->
  forall j, j < m -> F i j = F' i j.
Proof.
  intros HA Hnm i. induction i as [i IHi] using lt_wf_ind. intros Hi D D'.
  assert (P : forall i', i' < i -> forall j, j < m -> F i' j = F' i' j).
  { intros i' Hi' j Hj. apply IHi; auto; try lia; intros; [apply D|apply D']; lia. }
  destruct (D i (Nat.le_refl i)) as [L U]. destruct (D' i (Nat.le_refl i)) as [L' U'].
  intros j. induction j as [j IHj] using lt_wf_ind. intros Hj.
  destruct (Nat.lt_ge_cases j i) as [C|C].
  - specialize (L j C). specialize (L' j C). unfold lrec in L, L'. rewrite <- HA in L' by auto.
    destruct (nzb (A i j)); [|congruence]. destruct L as [_ ->]. destruct L' as [_ ->]. f_equal.
    + apply ssub_ext. intros k Hk. rewrite IHj, (P k) by lia. reflexivity.
    + apply P; lia.
  - specialize (U j C Hj). specialize (U' j C Hj). unfold urec in U, U'. rewrite <- HA in U' by auto.
    destruct (nzb (A i j)); [|congruence]. rewrite U, U'. apply ssub_ext. intros k Hk.
    rewrite IHj, (P k) by lia. reflexivity.
Qed.
Lemma ilu_done_unique n m A A' F F' : (forall i j, i < n -> j < m -> A i j = A' i j) -> n <= m ->
  ilu_done n m A F -> ilu_done n m A' F' -> forall i j, i < n -> j < m -> F i j = F' i j.
Proof. intros HA Hnm D D' i j Hi Hj. apply (ilurow_unique m n A A'); auto; intros; [apply D|apply D']; lia. Qed.
End Rec.

Section Decomp.
Context {T : Type} {Op : Ops T} {C : Type}.
Variables (shape : M C (nat * nat)) (get : nat -> nat -> M C T) (set : nat -> nat -> T -> M C unit).
Variables (n m : nat) (good : C -> Prop) (view : C -> nat -> nat -> T).
Hypothesis mn : m <= n.
Hypothesis Hshape : forall c, good c -> shape c = Ok (n, m) c.
Hypothesis Hget : forall c i j, good c -> i < n -> j < n -> get i j c = Ok (view c i j) c.
Hypothesis Hset : forall c i j x, good c -> i < n -> j < n -> nzb (view c i j) = true ->
  exists c', set i j x c = Ok tt c' /\ good c' /\ view c' i j = x /\
    forall i' j', i' < n -> j' < n -> (i', j') <> (i, j) -> view c' i' j' = view c i' j'.
Hypothesis Hn : fits_u32 n = true.

Lemma ilu_sum_ok c i j p s0 : good c -> i < n -> j < n -> p <= n -> fits_u32 p = true ->
  ilu_sum get i j p s0 c = Ok (ssub p s0 (fun k => mul (view c i k) (view c k j))) c.
Proof.
  intros G Hi Hj Hp Hf.
  assert (P : post (ilu_sum get i j p s0) c (fun r c' => c' = c /\ r = ssub p s0 (fun k => mul (view c i k) (view c k j)))).
  { unfold ilu_sum. apply post_for_u32 with (I := fun k s c' => c' = c /\ s = ssub k s0 (fun k => mul (view c i k) (view c k j))).
    - exact Hf.
    - lia.
    - split; reflexivity.
    - intros k s c' Hk [-> ->]. apply post_bind. eapply ok_post; [apply Hget; auto; lia|]. apply post_bind. eapply ok_post; [apply Hget; auto; lia|].
      apply post_ret. split; reflexivity.
    - auto. }
  destruct (post_ok _ _ _ P) as (r & c' & E & -> & ->). exact E.
Qed.

Let fits_le k : k <= n -> fits_u32 k = true := fits_u32_le n k Hn.

Variables (c0 : C).
Hypothesis good0 : good c0.
Notation A := (view c0).

(** Rows above i are done, row i is done up to column j (exclusive), the rest is untouched. *)
Definition lpart c i j : Prop := good c /\ (forall i', i' < i -> ilurow m A (view c) i') /\
  (forall j', j' < j -> j' < i -> lrec A (view c) i j') /\
  (forall i' j', i' < n -> j' < n -> i < i' \/ (i' = i /\ j <= j') -> view c i' j' = A i' j').
Definition upart c i j : Prop := good c /\ (forall i', i' < i -> ilurow m A (view c) i') /\
  (forall j', j' < i -> lrec A (view c) i j') /\ (forall j', i <= j' -> j' < j -> urec A (view c) i j') /\
  (forall i' j', i' < n -> j' < n -> i < i' \/ (i' = i /\ j <= j') -> view c i' j' = A i' j').

(** Changing entry (i, j) does not disturb what is above and to the left of it. *)
Lemma keep_rows c c' i j : i < n -> (forall i' j', i' < n -> j' < n -> (i', j') <> (i, j) -> view c' i' j' = view c i' j') ->
  forall i', i' < i -> ilurow m A (view c) i' -> ilurow m A (view c') i'.
Proof.
  intros Hi E i' Hi' [L U]. split.
  - intros j' Hj'. apply (lrec_ext A (view c)); auto; intros; symmetry; apply E; try lia; intros [=]; lia.
  - intros j' H1 H2. apply (urec_ext A (view c)); auto; intros; symmetry; apply E; try lia; intros [=]; lia.
Qed.

Lemma decomp_ok : post (ilu_decomp shape get set) c0 (fun ok c =>
  good c /\ if ok then ilu_done n m A (view c) else ilu_stop n m A (view c)).
Proof.
  unfold ilu_decomp. apply post_bind. eapply ok_post; [apply Hshape; auto|]. cbn [fst].
  apply post_for_u32 with (I := fun i (ok : bool) c => if ok then lpart c i 0 else good c /\ ilu_stop n m A (view c)).
  - exact Hn.
  - lia.
  - split; [exact good0|]. split; [intros; lia|]. split; [intros; lia|]. auto.
  - intros i ok c [_ Hi] HI. destruct ok; cbn [negb]; [|apply post_ret; exact HI].
    apply post_bind.
    apply post_for_u32 with (I := fun j (ok : bool) c => if ok then lpart c i j else good c /\ ilu_stop n m A (view c)).
    + apply fits_le. lia.
    + lia.
    + exact HI.
    + intros j ok1 c1 [_ Hj] HJ. destruct ok1; cbn [negb]; [|apply post_ret; exact HJ].
      destruct HJ as (G & R & L & Un).
      assert (EA : view c1 i j = A i j) by (apply Un; lia).
      apply post_bind. eapply ok_post; [apply Hget; auto; lia|]. fold (nzb (view c1 i j)).
      destruct (nzb (view c1 i j)) eqn:Nz.
      * apply post_bind. eapply ok_post; [apply Hget; auto; lia|].
        destruct (eqb (view c1 j j) zero) eqn:Pz.
        { apply post_ret. split; [exact G|]. exists i, j. split; [lia|]. split; [lia|].
          split; [exact R|]. split; [intros; apply L; lia|]. rewrite <- EA. split; [exact Nz|].
          unfold nzb. now rewrite Pz. }
        apply post_bind. eapply ok_post; [apply Hget; auto; lia|].
        apply post_bind. eapply ok_post; [apply ilu_sum_ok; auto; try lia; apply fits_le; lia|].
        apply post_bind. eapply ok_post; [apply Hget; auto; lia|].
        match goal with |- post (bind (set i j ?x) _) _ _ => destruct (Hset c1 i j x G ltac:(lia) ltac:(lia) Nz) as (c2 & E & G2 & V & O) end.
        apply post_bind. eapply ok_post; [exact E|]. apply post_ret.
        assert (RW : forall i' j', i' < n -> j' < n -> i' < i \/ j' <> j -> view c2 i' j' = view c1 i' j').
        { intros. apply O; auto. intros [=]; lia. }
        split; [exact G2|]. split; [intros; apply (keep_rows c1 c2 i j); auto|]. split.
        { intros j' Hj' Hj2. destruct (Nat.eq_dec j' j) as [->|].
          - unfold lrec. rewrite <- EA, Nz. rewrite (RW j j) by lia. unfold nzb. rewrite Pz. split; [reflexivity|].
            rewrite V. f_equal. apply ssub_ext. intros k Hk. now rewrite !RW by lia.
          - apply (lrec_ext A (view c1)); [..|apply L; lia]; intros; symmetry; apply RW; lia. }
        intros i' j' Hi' Hj' Hij. rewrite O; auto. { apply Un; auto. lia. } intros [=]; lia.
      * apply post_ret. split; [exact G|]. split; [exact R|]. split.
        { intros j' Hj' Hj2. destruct (Nat.eq_dec j' j) as [->|]; [|apply L; lia].
          unfold lrec. rewrite <- EA, Nz. reflexivity. }
        intros i' j' Hi' Hj' Hij. apply Un; auto. lia.
    + intros ok1 c1 HJ. destruct ok1; cbn [negb]; [|apply post_ret; exact HJ].
      apply post_bind. eapply ok_post; [apply Hshape; apply HJ|]. cbn [snd].
      assert (HU : upart c1 i i).
      { destruct HJ as (G & R & L & Un). split; [exact G|]. split; [exact R|]. split; [intros; apply L; lia|].
        split; [intros; lia|]. exact Un. }
      apply post_bind.
      assert (FIN : forall c2, upart c2 i (Nat.max i m) -> lpart c2 (S i) 0).
      { intros c2 (G & R & L & U & Un). split; [exact G|]. split.
        - intros i' Hi'. destruct (Nat.eq_dec i' i) as [->|]; [|apply R; lia]. split; [auto|]. intros; apply U; lia.
        - split; [intros; lia|]. intros i' j' Hi' Hj' Hij. apply Un; lia. }
      assert (Hm : fits_u32 m = true) by (apply fits_le; lia).
      destruct (Nat.le_gt_cases i m) as [Him|Him].
      * apply post_for_u32 with (I := fun j (_ : unit) c2 => upart c2 i j).
        -- exact Hm.
        -- lia.
        -- exact HU.
        -- intros j [] c2 Hj (G & R & L & U & Un).
           assert (EA : view c2 i j = A i j) by (apply Un; lia).
           apply post_bind. eapply ok_post; [apply Hget; auto; lia|]. fold (nzb (view c2 i j)).
           destruct (nzb (view c2 i j)) eqn:Nz.
           ++ apply post_bind. eapply ok_post; [apply Hget; auto; lia|].
              apply post_bind. eapply ok_post; [apply ilu_sum_ok; auto; try lia; apply fits_le; lia|].
              match goal with |- post (set i j ?x) _ _ => destruct (Hset c2 i j x G ltac:(lia) ltac:(lia) Nz) as (c3 & E & G2 & V & O) end.
              eapply ok_post; [exact E|].
              assert (RW : forall i' j', i' < n -> j' < n -> i' < i \/ j' <> j -> view c3 i' j' = view c2 i' j').
              { intros. apply O; auto. intros [=]; lia. }
              split; [exact G2|]. split; [intros; apply (keep_rows c2 c3 i j); auto|]. split.
              { intros j' Hj'. apply (lrec_ext A (view c2)); [..|apply L; lia]; intros; symmetry; apply RW; lia. }
              split.
              { intros j' H1 H2. destruct (Nat.eq_dec j' j) as [->|].
                - unfold urec. rewrite <- EA, Nz, V. apply ssub_ext. intros k Hk. now rewrite !RW by lia.
                - apply (urec_ext A (view c2)); [lia|..|apply U; lia]; intros; symmetry; apply RW; lia. }
              intros i' j' Hi' Hj' Hij. rewrite O; auto. { apply Un; auto. lia. } intros [=]; lia.
           ++ apply post_ret. split; [exact G|]. split; [exact R|]. split; [exact L|]. split.
              { intros j' H1 H2. destruct (Nat.eq_dec j' j) as [->|]; [|apply U; lia].
                unfold urec. rewrite <- EA, Nz. reflexivity. }
              intros i' j' Hi' Hj' Hij. apply Un; auto. lia.
        -- intros [] c2 HU2. apply post_ret. apply FIN. now rewrite Nat.max_r by lia.
      * unfold for_u32. rewrite Hm. unfold for_sz. replace (m - i) with 0 by lia. cbn [seq loop].
        apply post_ret. apply post_ret. apply FIN. now rewrite Nat.max_l by lia.
  - intros ok c HI. destruct ok; [|exact HI]. destruct HI as (G & R & _). split; [exact G|]. intros i Hi. now apply R.
Qed.

(** The constructor. *)
Lemma ilu_new_ok : postx (ilu_new shape get set) c0
  (fun _ c => good c /\ ilu_done n m A (view c)) (fun e c => e = RuntimeError /\ good c /\ ilu_stop n m A (view c)).
Proof.
  unfold ilu_new. apply postx_bind. apply postx_post. eapply post_mono; [apply decomp_ok|].
  intros ok c [G D]. destruct ok; cbn [negb]; unfold postx; cbn; auto.
Qed.
End Decomp.

(** ** The solve *)
Section Solve.
Context {T : Type} {Op : Ops T}.
Implicit Types h : heap T.

Definition ilu_fwd (F : nat -> nat -> T) (b y : nat -> T) i : Prop := y i = ssub i (b i) (fun j => mul (F i j) (y j)).
Definition ilu_bwd n (F : nat -> nat -> T) (y x : nat -> T) i : Prop :=
  x i = div (ssub (n - S i) (y i) (fun t => mul (F i (S i + t)) (x (S i + t)))) (F i i).
Definition ilu_solved n F b x : Prop := exists y, (forall i, i < n -> ilu_fwd F b y i) /\ (forall i, i < n -> ilu_bwd n F y x i).

Lemma ilu_solve_ok get F n rhs h0 : fits_u32 n = true -> isvec h0 rhs n ->
  (forall h i j, ext h0 h -> i < n -> j < n -> get i j h = Ok (F i j) h) ->
  post (ilu_solve get rhs) h0 (fun x h => newvec h0 h x n (rd h x) /\ ilu_solved n F (rd h0 rhs) (rd h x)).
Proof.
  intros Hf (V1 & V2) Hg. unfold ilu_solve. apply post_noexcept.
  apply post_bind, post_vsize. rewrite V2. apply post_bind, post_alloc.
  set (y := next h0). set (h1 := halloc h0 (repeat zero n)).
  assert (L1 : len h1 y = n) by (unfold len, h1, y; rewrite mem_halloc_same; apply repeat_length).
  assert (X1 : ext h0 h1) by (split; [unfold h1, halloc; cbn [next]; lia|]; intros q Hq; apply mem_halloc_other; lia).
  apply post_bind, post_vsize. rewrite L1. apply post_bind.
  assert (fle : forall k, k <= n -> fits_u32 k = true) by (intros; apply (fits_u32_le n); auto).
  assert (EX : forall h, frame y (fun _ => True) h1 h -> ext h0 h).
  { intros h (N & Mq & _). destruct X1 as [X1 X2]. split; [lia|]. intros q Hq. rewrite Mq; [auto|]. unfold y. lia. }
  apply post_for_u32 with (I := fun i (_ : unit) h => frame y (fun _ => True) h1 h /\
     forall i', i' < i -> ilu_fwd F (rd h0 rhs) (rd h y) i').
  - exact Hf.
  - lia.
  - split; [apply frame_refl|]. intros; lia.
  - intros i [] h Hi [Fr S].
    assert (RR : forall k, rd h rhs k = rd h0 rhs k) by (intros k; unfold rd; rewrite (proj2 (EX h Fr)); auto).
    apply post_bind. apply post_load. { unfold len. rewrite (proj2 (EX h Fr)) by auto. fold (len h0 rhs). lia. }
    rewrite RR. apply post_bind.
    apply post_for_u32 with (I := fun j s h' => h' = h /\ s = ssub j (rd h0 rhs i) (fun j => mul (F i j) (rd h y j))).
    + apply fle. lia.
    + lia.
    + split; reflexivity.
    + intros j s h' Hj [-> ->]. apply post_bind. eapply ok_post; [apply Hg; auto; lia|]. apply post_bind, post_load.
      { rewrite (frame_len _ _ _ _ _ Fr). lia. }
      apply post_ret. split; reflexivity.
    + intros s h' [-> ->]. apply post_store. { rewrite (frame_len _ _ _ _ _ Fr). lia. }
      split. { apply frame_hset; auto. }
      intros i' Hi'. unfold ilu_fwd. destruct (Nat.eq_dec i' i) as [->|].
      * rewrite rd_hset_same by (rewrite (frame_len _ _ _ _ _ Fr); lia). apply ssub_ext. intros k Hk. now rewrite rd_hset_idx by lia.
      * rewrite rd_hset_idx by lia. rewrite (S i') by lia. apply ssub_ext. intros k Hk. now rewrite rd_hset_idx by lia.
  - intros [] h [Fr S].
    pose proof (EX h Fr) as [XN XM].
    assert (LR : len h rhs = n) by (unfold len; rewrite XM by auto; exact V2).
    apply post_bind, post_vsize. rewrite LR. apply post_bind, post_alloc.
    set (x := next h). set (h2 := halloc h (repeat zero n)).
    assert (N1 : next h = Datatypes.S y) by (destruct Fr as (N & _); rewrite N; reflexivity).
    assert (L2 : len h2 x = n) by (unfold len, h2, x; rewrite mem_halloc_same; apply repeat_length).
    apply post_bind, post_vsize. rewrite L2. apply post_bind.
    assert (Y2 : mem h2 y = mem h y) by (apply mem_halloc_other; unfold x; lia).
    assert (LY : len h y = n) by (rewrite (frame_len _ _ _ _ _ Fr); exact L1).
    assert (EX2 : forall h3, frame x (fun _ => True) h2 h3 -> ext h0 h3).
    { intros h3 (N & Mq & _). split; [rewrite N; unfold h2, halloc; cbn [next]; lia|]. intros q Hq.
      rewrite Mq by (unfold x; lia). unfold h2. rewrite mem_halloc_other by lia. auto. }
    apply post_down_sz with (I := fun i (_ : unit) h3 => frame x (fun _ => True) h2 h3 /\
       forall i', i <= i' -> i' < n -> ilu_bwd n F (rd h y) (rd h3 x) i').
    + split; [apply frame_refl|]. intros; lia.
    + intros i [] h3 Hi [Fr3 S3].
      assert (Y3 : forall k, rd h3 y k = rd h y k).
      { intros k. unfold rd. destruct Fr3 as (_ & Mq & _). rewrite Mq by (unfold x; lia). now rewrite Y2. }
      apply post_bind, post_load. { unfold len. destruct Fr3 as (_ & Mq & _). rewrite Mq by (unfold x; lia). rewrite Y2. fold (len h y). lia. }
      rewrite Y3. apply post_bind.
      apply post_for_sz with (I := fun j s h' => h' = h3 /\
        s = ssub (j - Datatypes.S i) (rd h y i) (fun t => mul (F i (Datatypes.S i + t)) (rd h3 x (Datatypes.S i + t)))).
      * lia.
      * split; [reflexivity|]. now replace (i + 1 - Datatypes.S i) with 0 by lia.
      * intros j s h' Hj [-> ->]. apply post_bind. eapply ok_post; [apply Hg; auto; lia|]. apply post_bind, post_load.
        { rewrite (frame_len _ _ _ _ _ Fr3). lia. }
        apply post_ret. split; [reflexivity|]. replace (Datatypes.S j - Datatypes.S i) with (Datatypes.S (j - Datatypes.S i)) by lia.
        cbn [ssub]. now replace (Datatypes.S i + (j - Datatypes.S i)) with j by lia.
      * intros s h' [-> ->]. apply post_bind. eapply ok_post; [apply Hg; auto; lia|].
        apply post_store. { rewrite (frame_len _ _ _ _ _ Fr3). lia. }
        split. { apply frame_hset; auto. }
        intros i' Hi' Hi2. unfold ilu_bwd. destruct (Nat.eq_dec i' i) as [->|].
        -- rewrite rd_hset_same by (rewrite (frame_len _ _ _ _ _ Fr3); lia). f_equal. apply ssub_ext. intros k Hk.
           now rewrite rd_hset_idx by lia.
        -- rewrite rd_hset_idx by lia. rewrite (S3 i') by lia. f_equal. apply ssub_ext. intros k Hk. now rewrite rd_hset_idx by lia.
    + intros [] h3 [Fr3 S3]. apply post_ret. split.
      * pose proof (EX2 h3 Fr3) as E3. destruct Fr3 as (N3 & _ & L3 & _).
        assert (N2 : next h2 = Datatypes.S x) by reflexivity.
        split; [exact E3|]. split; [unfold x; lia|]. split; [split; [lia|congruence]|]. auto.
      * exists (rd h y). split; [exact S|]. intros i Hi. apply S3; lia.
Qed.
End Solve.
