(** * Proofs about the Cholesky kernels: what they compute, operation by operation

    Everything in this file holds for every scalar type, including floating point: the results
    satisfy the same recurrences, with the operations in the same order, as the text of the
    kernels. *)
From Verif Require Import Base Scalar BaseLemmas Spec ModelVec ModelMat SpecMat ModelPacked ProofPacked ProofVecSched
  ModelSolvers.
Local Open Scope nat_scope.

(** ** Outcomes that may be exceptions *)
Definition postx {S A} (m : M S A) (s : S) (Q : A -> S -> Prop) (E : exn -> S -> Prop) : Prop :=
  match m s with Ok a s' => Q a s' | Throw e s' => E e s' | _ => False end.
Lemma postx_bind {S A B} (m : M S A) (f : A -> M S B) s Q E :
  postx m s (fun a s' => postx (f a) s' Q E) E -> postx (bind m f) s Q E.
Proof. unfold postx, bind; destruct (m s); auto. Qed.
Lemma postx_post {S A} (m : M S A) s Q E : post m s Q -> postx m s Q E.
Proof. unfold postx, post; destruct (m s); auto; contradiction. Qed.
Lemma postx_mono {S A} (m : M S A) s (Q Q' : A -> S -> Prop) (E E' : exn -> S -> Prop) :
  postx m s Q E -> (forall a s', Q a s' -> Q' a s') -> (forall e s', E e s' -> E' e s') -> postx m s Q' E'.
Proof. unfold postx; destruct (m s); auto. Qed.
Lemma postx_for_u32 {S A} (I : nat -> A -> S -> Prop) (E : exn -> S -> Prop) (body : nat -> A -> M S A) n a s (Q : A -> S -> Prop) :
  fits_u32 n = true -> I 0 a s ->
  (forall i a s, i < n -> I i a s -> postx (body i a) s (fun a' s' => I (Datatypes.S i) a' s') E) ->
  (forall a' s', I n a' s' -> Q a' s') ->
  postx (for_u32 0 n body a) s Q E.
Proof.
  intros Hf H0 Hs Hq. unfold for_u32. rewrite Hf. unfold for_sz. rewrite Nat.sub_0_r.
  assert (H : forall cnt lo a s, lo + cnt = n -> I lo a s -> postx (loop (seq lo cnt) body a) s (fun a' s' => I n a' s') E).
  { induction cnt as [|cnt IH]; intros lo a1 s1 Hc HI; cbn [seq loop].
    - unfold postx, ret. now replace n with lo by lia.
    - apply postx_bind. eapply postx_mono; [apply Hs; [lia|exact HI]| |auto].
      intros a2 s2 H2. cbv beta in H2. apply IH; [lia|auto]. }
  eapply postx_mono; [apply (H n 0); auto|auto|auto].
Qed.

Section Frame.
Context {T : Type} {Op : Ops T}.
Implicit Types h : heap T.

(** [h1] differs from [h] only at positions [P] of buffer [l]. *)
Definition frame (l : ptr) (P : nat -> Prop) h h1 : Prop :=
  next h1 = next h /\ (forall q, q <> l -> mem h1 q = mem h q) /\ len h1 l = len h l /\
  (forall p, ~ P p -> rd h1 l p = rd h l p).

Lemma frame_refl l P h : frame l P h h.
Proof. repeat split; auto. Qed.
Lemma frame_trans l (P : nat -> Prop) h h1 h2 : frame l P h h1 -> frame l P h1 h2 -> frame l P h h2.
Proof.
  intros (A1 & A2 & A3 & A4) (B1 & B2 & B3 & B4). split; [congruence|]. split; [intros; rewrite B2, A2; auto|].
  split; [congruence|]. intros p Hp. rewrite B4, A4; auto.
Qed.
Lemma frame_mono l (P P' : nat -> Prop) h h1 : frame l P h h1 -> (forall p, P p -> P' p) -> frame l P' h h1.
Proof. intros (A1 & A2 & A3 & A4) H. repeat split; auto. Qed.
Lemma frame_hset l (P : nat -> Prop) h h1 p v : frame l P h h1 -> P p -> frame l P h (hset h1 l p v).
Proof.
  intros (A1 & A2 & A3 & A4) Hp. split; [now rewrite next_hset|]. split.
  { intros q Hq. rewrite mem_hset_other by auto. auto. }
  split; [now rewrite len_hset|]. intros p' Hp'. rewrite rd_hset_idx by congruence. auto.
Qed.
Lemma frame_len l P h h1 q : frame l P h h1 -> len h1 q = len h q.
Proof. intros (A1 & A2 & A3 & A4). destruct (Nat.eq_dec q l) as [->|]; auto. unfold len. now rewrite A2. Qed.
Lemma frame_rd l (P : nat -> Prop) h h1 p : frame l P h h1 -> ~ P p -> rd h1 l p = rd h l p.
Proof. intros (A1 & A2 & A3 & A4). auto. Qed.
Lemma frame_rd_other l (P : nat -> Prop) h h1 q p : frame l P h h1 -> q <> l -> rd h1 q p = rd h q p.
Proof. intros (A1 & A2 & A3 & A4) H. unfold rd. now rewrite A2. Qed.

(** a - f 0 - f 1 - ... - f (n-1), from the left. *)
Fixpoint ssub (n : nat) (a : T) (f : nat -> T) : T :=
  match n with 0 => a | S k => sub (ssub k a f) (f k) end.
Lemma ssub_ext n a f g : (forall k, k < n -> f k = g k) -> ssub n a f = ssub n a g.
Proof. induction n as [|n IH]; intros H; cbn; auto. rewrite IH, H by auto with arith. reflexivity. Qed.

(** Loops that subtract from one position of the buffer. *)
Lemma acc_loop l pos (f : nat -> T) lo n body h :
  lo <= n -> pos < len h l ->
  (forall k h2, lo <= k < n -> frame l (eq pos) h h2 -> body k tt h2 = Ok tt (hset h2 l pos (sub (rd h2 l pos) (f k)))) ->
  post (for_sz lo n body tt) h (fun _ h' =>
    frame l (eq pos) h h' /\ rd h' l pos = ssub (n - lo) (rd h l pos) (fun t => f (lo + t))).
Proof.
  intros Hn Hp Hb.
  apply post_for_sz with (I := fun k (_ : unit) h2 =>
    frame l (eq pos) h h2 /\ rd h2 l pos = ssub (k - lo) (rd h l pos) (fun t => f (lo + t))); auto.
  - rewrite Nat.sub_diag. split; [apply frame_refl|reflexivity].
  - intros k [] h2 Hk [F2 V2]. eapply ok_post; [apply Hb; auto|]. split.
    + apply frame_hset; auto.
    + rewrite rd_hset_same by (rewrite (frame_len _ _ _ _ _ F2); auto).
      replace (S k - lo) with (S (k - lo)) by lia. cbn [ssub]. rewrite V2.
      now replace (lo + (k - lo)) with k by lia.
Qed.
Lemma acc_loop_u32 l pos (f : nat -> T) n body h :
  fits_u32 n = true -> pos < len h l ->
  (forall k h2, k < n -> frame l (eq pos) h h2 -> body k tt h2 = Ok tt (hset h2 l pos (sub (rd h2 l pos) (f k)))) ->
  post (for_u32 0 n body tt) h (fun _ h' => frame l (eq pos) h h' /\ rd h' l pos = ssub n (rd h l pos) f).
Proof.
  intros Hf Hp Hb. unfold for_u32. rewrite Hf. eapply post_mono; [apply (acc_loop l pos f); auto; try lia|].
  { intros k h2 Hk. apply Hb. lia. }
  intros _ h' [F V]. split; auto. rewrite V, Nat.sub_0_r. apply ssub_ext. auto.
Qed.
End Frame.

(** ** Storage layouts *)
Definition storage (mt : memtype) (n : nat) : nat := match mt with Square => n * n | Triangle => tri_len n end.
Lemma index_low mt n i j : j <= i -> index mt n i j = match mt with Square => i * n + j | Triangle => low_off i j end.
Proof.
  intros H. destruct mt; [reflexivity|]. unfold index, low_off. destruct (Nat.ltb_spec i j); [lia|reflexivity].
Qed.
Lemma index_lt mt n i j : j <= i -> i < n -> index mt n i j < storage mt n.
Proof.
  intros H H1. rewrite index_low by auto. destruct mt; cbn [storage]; [nia|]. apply low_off_lt; lia.
Qed.
Lemma index_inj mt n i j i' j' : j <= i -> i < n -> j' <= i' -> i' < n ->
  index mt n i j = index mt n i' j' -> i = i' /\ j = j'.
Proof.
  intros H1 H2 H3 H4. rewrite !index_low by auto. destruct mt.
  - intros E. assert (i = i') by nia. subst. lia.
  - intros E%low_off_inj. lia.
Qed.

Section Kernel.
Context {T : Type} {Op : Ops T}.
Implicit Types h : heap T.
Variables (mt : memtype) (n : nat) (l : ptr).
Notation ix := (index mt n).

(** Entry (i,j) of the lower triangle held in the buffer. *)
Definition lo h i j : T := rd h l (index mt n i j).
(** Positions of the lower triangle; of row i of it. *)
Definition lowpos (p : nat) : Prop := exists i j, j <= i /\ i < n /\ p = ix i j.
Definition rowpos (i : nat) (p : nat) : Prop := exists j, j <= i /\ p = ix i j.

Section Given.
Variable A : nat -> nat -> T.

(** The recurrences of the factor [L] of [A]. *)
Definition offrec (L : nat -> nat -> T) i j : Prop :=
  L i j = div (ssub j (A i j) (fun k => mul (L i k) (L j k))) (L j j).
Definition pivot (L : nat -> nat -> T) i : T := ssub i (A i i) (fun k => pow2 (L i k)).
Definition bad (v : T) : Prop := eqb v zero = true \/ ltb v zero = true.
Definition diarec (L : nat -> nat -> T) i : Prop := ~ bad (pivot L i) /\ L i i = sqrt_ (pivot L i).
Definition rowrec L i : Prop := (forall j, j < i -> offrec L i j) /\ diarec L i.
Definition factored L : Prop := forall i, i < n -> rowrec L i.
Definition failed L c : Prop :=
  c < n /\ (forall i, i < c -> rowrec L i) /\ (forall j, j < c -> offrec L c j) /\
  L c c = pivot L c /\ bad (pivot L c) /\ forall i j, c < i -> j <= i -> i < n -> L i j = A i j.

Lemma offrec_ext L L' i j : (forall k, k <= j -> L' i k = L i k) -> (forall k, k <= j -> L' j k = L j k) ->
  offrec L i j -> offrec L' i j.
Proof.
  unfold offrec. intros H1 H2 E. rewrite H1, H2, E by lia. f_equal. apply ssub_ext.
  intros k Hk. rewrite H1, H2 by lia. reflexivity.
Qed.
Lemma pivot_ext L L' i : (forall k, k < i -> L' i k = L i k) -> pivot L' i = pivot L i.
Proof. intros H. apply ssub_ext. intros k Hk. now rewrite H. Qed.
Lemma rowrec_ext L L' i : (forall i' k, k <= i' -> i' <= i -> L' i' k = L i' k) -> rowrec L i -> rowrec L' i.
Proof.
  intros H [H1 H2]. split.
  - intros j Hj. apply (offrec_ext L); auto; intros; apply H; lia.
  - unfold diarec in *. rewrite (pivot_ext L) by (intros; apply H; lia). rewrite H by lia. exact H2.
Qed.
End Given.

Lemma lo_frame_row h h1 i0 i j : frame l (rowpos i0) h h1 -> i0 < n -> j <= i -> i < n -> i <> i0 -> lo h1 i j = lo h i j.
Proof.
  intros F H0 H1 H2 H3. apply (frame_rd _ _ _ _ _ F). intros (j' & Hj' & E). apply index_inj in E; lia.
Qed.
Lemma lo_frame_pos h h1 i0 j0 i j : frame l (eq (ix i0 j0)) h h1 -> j0 <= i0 -> i0 < n -> j <= i -> i < n ->
  i <> i0 \/ j <> j0 -> lo h1 i j = lo h i j.
Proof.
  intros F H0 H1 H2 H3 H4. apply (frame_rd _ _ _ _ _ F). intros E. apply index_inj in E; lia.
Qed.

(** Off-diagonal entries of row i. *)
Lemma chol_row_off i h : i < n -> fits_u32 n = true -> len h l = storage mt n ->
  post (for_u32 0 i (fun j _ =>
        bind (for_u32 0 j (fun k _ =>
          bind (load l (ix i j)) (fun lij => bind (load l (ix i k)) (fun lik => bind (load l (ix j k)) (fun ljk =>
          store l (ix i j) (sub lij (mul lik ljk)))))) tt) (fun _ =>
        bind (load l (ix i j)) (fun lij => bind (load l (ix j j)) (fun ljj =>
        store l (ix i j) (div lij ljj))))) tt) h (fun _ h' =>
    frame l (rowpos i) h h' /\ lo h' i i = lo h i i /\
    forall j, j < i -> offrec (lo h) (lo h') i j).
Proof.
  intros Hi Hf Hl.
  apply post_for_u32 with (I := fun j (_ : unit) h1 =>
    frame l (rowpos i) h h1 /\
    (forall j', j <= j' <= i -> lo h1 i j' = lo h i j') /\ forall j', j' < j -> offrec (lo h) (lo h1) i j').
  - apply fits_u32_le with n; [auto|lia].
  - lia.
  - split; [apply frame_refl|]. split; auto. intros; lia.
  - intros j [] h1 Hj (F1 & U1 & R1).
    assert (L1 : len h1 l = storage mt n) by (rewrite (frame_len _ _ _ _ _ F1); auto).
    assert (B : ix i j < len h1 l) by (rewrite L1; apply index_lt; lia).
    apply post_bind. eapply post_mono.
    { apply (acc_loop_u32 l (ix i j) (fun k => mul (lo h1 i k) (lo h1 j k))).
      - apply fits_u32_le with n; [auto|lia].
      - exact B.
      - intros k h2 Hk F2. pose proof (frame_len _ _ _ _ l F2) as L2.
        unfold bind. rewrite !load_ok, store_ok; rewrite ?L2, ?L1; try (apply index_lt; lia).
        do 4 f_equal; [apply (lo_frame_pos h1 h2 i j)|apply (lo_frame_pos h1 h2 i j)]; auto; lia. }
    intros _ h2 [F2 V2]. cbv beta in *.
    assert (L2 : len h2 l = storage mt n) by (rewrite (frame_len _ _ _ _ _ F2); auto).
    apply post_bind, post_load; [rewrite L2; apply index_lt; lia|].
    apply post_bind, post_load; [rewrite L2; apply index_lt; lia|].
    apply post_store; [rewrite L2; apply index_lt; lia|].
    match goal with |- context [hset h2 l (ix i j) ?v] => set (w := v); set (h3 := hset h2 l (ix i j) w) end.
    assert (F3 : frame l (eq (ix i j)) h1 h3) by (apply frame_hset; auto).
    assert (K : forall i' j', j' <= i' -> i' < n -> i' <> i \/ j' <> j -> lo h3 i' j' = lo h1 i' j')
      by (intros; apply (lo_frame_pos h1 h3 i j); auto; lia).
    assert (W : lo h3 i j = w) by (unfold lo, h3; apply rd_hset_same; rewrite L2; apply index_lt; lia).
    split; [|split].
    + eapply frame_trans; [exact F1|]. apply (frame_mono l _ _ _ _ F3). intros p <-. exists j. split; [lia|auto].
    + intros j' Hj'. rewrite K by lia. apply U1. lia.
    + intros j' Hj'. destruct (Nat.eq_dec j' j) as [->|].
      * unfold offrec. rewrite W. unfold w. f_equal.
        -- rewrite V2. fold (lo h1 i j). rewrite U1 by lia. apply ssub_ext. intros k Hk.
           now rewrite !K by lia.
        -- rewrite K by lia. apply (lo_frame_pos h1 h2 i j); auto; lia.
      * apply (offrec_ext (lo h) (lo h1)); [| |apply R1; lia]; intros k Hk; apply K; lia.
  - intros _ h1 (F1 & U1 & R1). split; [auto|]. split; [apply U1; lia|auto].
Qed.

Lemma bad_dec (v : T) : {bad v} + {~ bad v}.
Proof.
  unfold bad. destruct (eqb v zero); [left; auto|]. destruct (ltb v zero); [left; auto|].
  right. intros [H|H]; discriminate.
Qed.

Lemma chol_kernel h : fits_u32 n = true -> len h l = storage mt n ->
  post (cholesky_decomposition mt n l) h (fun c h' =>
    frame l lowpos h h' /\
    ((c = 0%Z /\ factored (lo h) (lo h')) \/
     exists i, c = to_int32 (Z.of_nat i) /\ failed (lo h) (lo h') i)).
Proof.
  intros Hf Hl. unfold cholesky_decomposition. apply post_bind.
  apply post_for_u32 with (I := fun i (acc : option nat) h1 =>
    frame l lowpos h h1 /\
    match acc with
    | None => (forall i' , i' < i -> rowrec (lo h) (lo h1) i') /\
              (forall i' j', i <= i' -> j' <= i' -> i' < n -> lo h1 i' j' = lo h i' j')
    | Some c => c < i /\ failed (lo h) (lo h1) c
    end); auto; [lia| | |].
  - split; [apply frame_refl|]. split; [intros; lia|auto].
  - intros i acc h1 Hi [F1 H]. destruct acc as [c|].
    { apply post_ret. split; auto. destruct H. split; auto. }
    destruct H as [R1 U1].
    assert (L1 : len h1 l = storage mt n) by (rewrite (frame_len _ _ _ _ _ F1); auto).
    apply post_bind. eapply post_mono; [apply chol_row_off; [lia|auto|auto]|].
    intros _ h2 (F2 & D2 & O2).
    assert (L2 : len h2 l = storage mt n) by (rewrite (frame_len _ _ _ _ _ F2); auto).
    assert (B : ix i i < storage mt n) by (apply index_lt; lia).
    apply post_bind. eapply post_mono.
    { apply (acc_loop_u32 l (ix i i) (fun k => pow2 (lo h2 i k))).
      - apply fits_u32_le with n; [auto|lia].
      - lia.
      - intros k h3 Hk F3. pose proof (frame_len _ _ _ _ l F3) as L3.
        unfold bind. rewrite !load_ok, store_ok; rewrite ?L3, ?L2; try (apply index_lt; lia).
        do 4 f_equal. apply (lo_frame_pos h2 h3 i i); auto; lia. }
    intros _ h3 [F3 V3]. cbv beta in *.
    assert (L3 : len h3 l = storage mt n) by (rewrite (frame_len _ _ _ _ _ F3); auto).
    assert (K3 : forall i' j', j' <= i' -> i' < n -> i' <> i \/ j' <> i -> lo h3 i' j' = lo h2 i' j')
      by (intros; apply (lo_frame_pos h2 h3 i i); auto; lia).
    assert (R2 : forall i' j', j' <= i' -> i' < n -> i' <> i -> lo h2 i' j' = lo h1 i' j')
      by (intros; apply (lo_frame_row h1 h2 i); auto; lia).
    assert (V : lo h3 i i = pivot (lo h) (lo h3) i).
    { unfold lo at 1. rewrite V3. fold (lo h2 i i). rewrite D2, U1 by lia.
      unfold pivot. apply ssub_ext. intros k Hk. now rewrite K3 by lia. }
    assert (O3 : forall j, j < i -> offrec (lo h) (lo h3) i j).
    { intros j Hj. assert (E : offrec (lo h1) (lo h3) i j).
      { apply (offrec_ext (lo h1) (lo h2)); [| |auto]; intros k Hk; apply K3; lia. }
      unfold offrec in *. rewrite E. f_equal. rewrite U1 by lia. reflexivity. }
    assert (Fr : frame l lowpos h h3).
    { eapply frame_trans; [exact F1|]. eapply frame_trans.
      - apply (frame_mono _ _ _ _ _ F2). intros p (j & Hj & ->). exists i, j. repeat split; auto; lia.
      - apply (frame_mono _ _ _ _ _ F3). intros p <-. exists i, i. repeat split; auto; lia. }
    apply post_bind, post_load; [lia|]. fold (lo h3 i i). rewrite V.
    assert (Old : forall h4, (forall i' j', j' <= i' -> i' < n -> i' <> i \/ j' <> i -> lo h4 i' j' = lo h3 i' j') ->
      forall i', i' < i -> rowrec (lo h) (lo h4) i').
    { intros h4 K4 i' Hi'. apply (rowrec_ext (lo h) (lo h1)); [|apply R1; lia].
      intros i'' k Hk Hi''. rewrite K4, K3, R2 by lia. reflexivity. }
    destruct (bad_dec (pivot (lo h) (lo h3) i)) as [Hb|Hg].
    { assert (G : failed (lo h) (lo h3) i).
      { split; [lia|]. split; [apply Old; auto|]. split; [auto|]. split; [auto|]. split; [auto|].
        intros i' j' H1 H2 H3. rewrite K3, R2 by lia. apply U1; lia. }
      destruct (eqb (pivot (lo h) (lo h3) i) zero) eqn:E1.
      { apply post_ret. split; auto. }
      destruct (ltb (pivot (lo h) (lo h3) i) zero) eqn:E2.
      { apply post_ret. split; auto. }
      destruct Hb; congruence. }
    destruct (eqb (pivot (lo h) (lo h3) i) zero) eqn:E1. { exfalso. apply Hg. now left. }
    destruct (ltb (pivot (lo h) (lo h3) i) zero) eqn:E2. { exfalso. apply Hg. now right. }
    apply post_bind, post_store; [lia|]. apply post_ret.
    match goal with |- context [hset h3 l (ix i i) ?v] => set (w := v); set (h4 := hset h3 l (ix i i) w) end.
    assert (F4 : frame l (eq (ix i i)) h3 h4) by (apply frame_hset; auto using frame_refl).
    assert (K4 : forall i' j', j' <= i' -> i' < n -> i' <> i \/ j' <> i -> lo h4 i' j' = lo h3 i' j')
      by (intros; apply (lo_frame_pos h3 h4 i i); auto; lia).
    assert (W : lo h4 i i = w) by (unfold lo, h4; apply rd_hset_same; lia).
    split; [|split].
    + apply frame_hset; auto. exists i, i. repeat split; auto; lia.
    + intros i' Hi'. destruct (Nat.eq_dec i' i) as [->|]; [|apply Old; auto; lia].
      split.
      * intros j Hj. apply (offrec_ext (lo h) (lo h3)); [| |auto]; intros k Hk; apply K4; lia.
      * unfold diarec. rewrite (pivot_ext (lo h) (lo h3)) by (intros; apply K4; lia).
        split; auto.
    + intros i' j' H1 H2 H3. rewrite K4, K3, R2 by lia. apply U1; lia.
  - intros acc h1 [F1 H]. apply post_ret. split; auto. destruct acc as [c|].
    + right. exists c. split; auto. apply H.
    + left. split; auto. intros i Hi. apply H. exact Hi.
Qed.

(** ** The modified factorisation *)
Section GivenM.
Variable A : nat -> nat -> T.
Definition mrec (L : nat -> nat -> T) i j : Prop :=
  L i j = ssub j (A i j) (fun k => div (mul (L i k) (L j k)) (L k k)).
Definition mrow L i : Prop := (forall j, j <= i -> mrec L i j) /\ eqb (L i i) zero = false.
Definition mfactored L : Prop := forall i, i < n -> mrow L i.
Definition mfailed L c : Prop :=
  c < n /\ (forall i, i < c -> mrow L i) /\ (forall j, j <= c -> mrec L c j) /\ eqb (L c c) zero = true.

Lemma mrec_ext L L' i j : (forall k, k <= j -> L' i k = L i k) -> (forall i' k, k <= i' -> i' <= j -> L' i' k = L i' k) ->
  mrec L i j -> mrec L' i j.
Proof.
  unfold mrec. intros H1 H2 E. rewrite H1, E by lia. apply ssub_ext.
  intros k Hk. rewrite H1, !H2 by lia. reflexivity.
Qed.
Lemma mrow_ext L L' i : (forall i' k, k <= i' -> i' <= i -> L' i' k = L i' k) -> mrow L i -> mrow L' i.
Proof.
  intros H [H1 H2]. split.
  - intros j Hj. apply (mrec_ext L); auto; intros; apply H; lia.
  - rewrite H by lia. exact H2.
Qed.
End GivenM.

Lemma mod_row i h : i < n -> fits_u32 n = true -> len h l = storage mt n ->
  post (for_u32 0 (i + 1) (fun j _ =>
        for_u32 0 j (fun k _ =>
          bind (load l (ix i j)) (fun lij => bind (load l (ix i k)) (fun lik => bind (load l (ix j k)) (fun ljk =>
          bind (load l (ix k k)) (fun lkk =>
          store l (ix i j) (sub lij (div (mul lik ljk) lkk))))))) tt) tt) h (fun _ h' =>
    frame l (rowpos i) h h' /\ forall j, j <= i -> mrec (lo h) (lo h') i j).
Proof.
  intros Hi Hf Hl.
  apply post_for_u32 with (I := fun j (_ : unit) h1 =>
    frame l (rowpos i) h h1 /\
    (forall j', j <= j' <= i -> lo h1 i j' = lo h i j') /\ forall j', j' < j -> mrec (lo h) (lo h1) i j').
  - apply fits_u32_le with n; [auto|lia].
  - lia.
  - split; [apply frame_refl|]. split; auto. intros; lia.
  - intros j [] h1 Hj (F1 & U1 & R1).
    assert (L1 : len h1 l = storage mt n) by (rewrite (frame_len _ _ _ _ _ F1); auto).
    assert (B : ix i j < len h1 l) by (rewrite L1; apply index_lt; lia).
    eapply post_mono.
    { apply (acc_loop_u32 l (ix i j) (fun k => div (mul (lo h1 i k) (lo h1 j k)) (lo h1 k k))).
      - apply fits_u32_le with n; [auto|lia].
      - exact B.
      - intros k h2 Hk F2. pose proof (frame_len _ _ _ _ l F2) as L2.
        unfold bind. rewrite !load_ok, store_ok; rewrite ?L2, ?L1; try (apply index_lt; lia).
        do 4 f_equal; [f_equal|]; apply (lo_frame_pos h1 h2 i j); auto; lia. }
    intros _ h2 [F2 V2]. cbv beta in *.
    assert (K : forall i' j', j' <= i' -> i' < n -> i' <> i \/ j' <> j -> lo h2 i' j' = lo h1 i' j')
      by (intros; apply (lo_frame_pos h1 h2 i j); auto; lia).
    split; [|split].
    + eapply frame_trans; [exact F1|]. apply (frame_mono l _ _ _ _ F2). intros p <-. exists j. split; [lia|auto].
    + intros j' Hj'. rewrite K by lia. apply U1. lia.
    + intros j' Hj'. destruct (Nat.eq_dec j' j) as [->|].
      * unfold mrec. unfold lo at 1. rewrite V2. fold (lo h1 i j). rewrite U1 by lia. apply ssub_ext. intros k Hk.
        now rewrite !K by lia.
      * apply (mrec_ext (lo h) (lo h1)); [| |apply R1; lia]; intros; apply K; lia.
  - intros _ h1 (F1 & U1 & R1). split; auto. intros j Hj. apply R1. lia.
Qed.

Lemma mod_kernel h : fits_u32 n = true -> len h l = storage mt n ->
  postx (mod_cholesky_decomposition mt n l) h
    (fun _ h' => frame l lowpos h h' /\ mfactored (lo h) (lo h'))
    (fun e h' => e = RuntimeError /\ frame l lowpos h h' /\ exists c, mfailed (lo h) (lo h') c).
Proof.
  intros Hf Hl. unfold mod_cholesky_decomposition. apply postx_bind.
  apply postx_for_u32 with (I := fun i (_ : unit) h1 =>
    frame l lowpos h h1 /\ (forall i' , i' < i -> mrow (lo h) (lo h1) i') /\
    (forall i' j', i <= i' -> j' <= i' -> i' < n -> lo h1 i' j' = lo h i' j')); auto.
  - split; [apply frame_refl|]. split; [intros; lia|auto].
  - intros i [] h1 Hi (F1 & R1 & U1).
    assert (L1 : len h1 l = storage mt n) by (rewrite (frame_len _ _ _ _ _ F1); auto).
    apply postx_bind, postx_post. eapply post_mono; [apply mod_row; [lia|auto|auto]|].
    intros _ h2 (F2 & O2).
    assert (L2 : len h2 l = storage mt n) by (rewrite (frame_len _ _ _ _ _ F2); auto).
    assert (B : ix i i < storage mt n) by (apply index_lt; lia).
    assert (R2 : forall i' j', j' <= i' -> i' < n -> i' <> i -> lo h2 i' j' = lo h1 i' j')
      by (intros; apply (lo_frame_row h1 h2 i); auto; lia).
    assert (O3 : forall j, j <= i -> mrec (lo h) (lo h2) i j).
    { intros j Hj. pose proof (O2 j Hj) as E. unfold mrec in *. rewrite E. rewrite U1 by lia. reflexivity. }
    assert (Fr : frame l lowpos h h2).
    { eapply frame_trans; [exact F1|]. 
      apply (frame_mono _ _ _ _ _ F2). intros p (j & Hj & ->). exists i, j. repeat split; auto; lia. }
    assert (Old : forall i', i' < i -> mrow (lo h) (lo h2) i').
    { intros i' Hi'. apply (mrow_ext (lo h) (lo h1)); [|apply R1; lia]. intros i'' k Hk Hi''. apply R2; lia. }
    apply postx_bind, postx_post, post_load; [lia|]. fold (lo h2 i i).
    destruct (eqb (lo h2 i i) zero) eqn:E.
    + unfold postx, throw. split; auto. split; auto. exists i. split; [lia|]. split; [auto|]. split; auto.
    + unfold postx, ret. split; auto. split.
      * intros i' Hi'. destruct (Nat.eq_dec i' i) as [->|]; [split; auto|]. apply Old. lia.
      * intros i' j' H1 H2 H3. rewrite R2 by lia. apply U1; lia.
  - intros [] h1 (F1 & R1 & U1). unfold postx, ret. split; auto.
Qed.
End Kernel.
