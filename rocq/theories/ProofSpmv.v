(** * Sparse matrix-vector product: schedules, unit matrices *)
From Coq Require Import Permutation Ring.
From Verif Require Import Base Scalar BaseLemmas Spec Sums Schedules ModelVec ProofVec ProofVecSched ModelMat SpecMat ProofMat
  ProofMatSched ModelSparse SpecSparse ProofPacked ProofSparse ProofSparseAdd ProofSparseCsr PropSparse.
Local Open Scope nat_scope.

Section SpSched.
Context {T : Type} {Op : Ops T}.
Implicit Types (h : heap T).

(** Accesses of one row of the kernel (mat_vec_ops_core.hpp:57-60) to the vectors, in program
    order; [terms] lists (value, column) of the stored entries of the row.  The three arrays of
    the matrix are only read. *)
Definition sp_term_acts (alpha : T) y i x (t : T * nat) : list (act T) :=
  [ALoad x (snd t); ALoad y i;
   AStore y i (fun r => add (nth 0 r zero) (mul (mul alpha (fst t)) (nth 1 r zero)))].
Definition sp_row_acts (alpha beta : T) x y (i : nat) (terms : list (T * nat)) : list (act T) :=
  [ALoad y i; AStore y i (fun r => mul beta (nth 0 r zero))] ++ flat_map (sp_term_acts alpha y i x) terms.
Definition sp_terms (A : csr T) (i : nat) : list (T * nat) := map (fun e => (snd e, snd (fst e))) (csr_row A i).
Definition sp_acts (A : csr T) (alpha : T) x (beta : T) y (i : nat) : list (act T) :=
  sp_row_acts alpha beta x y i (sp_terms A i).

Lemma sp_row_accs alpha beta x y i terms p j :
  accs (sp_row_acts alpha beta x y i terms) p j -> (p = y /\ j = i) \/ (p = x /\ In j (map snd terms)).
Proof.
  intros (c & Hc & Ht). unfold sp_row_acts in Hc. apply in_app_or in Hc. destruct Hc as [Hc|Hc].
  - cbn in Hc. destruct Hc as [<-|[<-|[]]]; cbn in Ht; destruct Ht; subst; auto.
  - apply in_flat_map in Hc. destruct Hc as (t & Hin & Hc). cbn in Hc.
    destruct Hc as [<-|[<-|[<-|[]]]]; cbn in Ht; destruct Ht as [<- <-]; auto.
    right. split; auto. apply in_map_iff. eauto.
Qed.
Lemma sp_row_wrs alpha beta x y i terms p j :
  wrs (sp_row_acts alpha beta x y i terms) p j -> p = y /\ j = i.
Proof.
  intros (c & Hc & Ht). unfold sp_row_acts in Hc. apply in_app_or in Hc. destruct Hc as [Hc|Hc].
  - cbn in Hc. destruct Hc as [<-|[<-|[]]]; cbn in Ht; [contradiction|]. destruct Ht; auto.
  - apply in_flat_map in Hc. destruct Hc as (t & Hin & Hc). cbn in Hc.
    destruct Hc as [<-|[<-|[<-|[]]]]; cbn in Ht; try contradiction. destruct Ht; auto.
Qed.

Lemma sp_row_loop alpha A x y i lo cnt h regs :
  lo + cnt <= length (sval A) -> length (scol A) = length (sval A) ->
  (forall c, In c (scol A) -> c < len h x) -> i < len h y ->
  loop (seq lo cnt) (fun k _ => v <- vec_at (sval A) k ;; c <- vec_at (scol A) k ;; xk <- load x c ;;
        yi <- load y i ;; store y i (add yi (mul (mul alpha v) xk))) tt h
  = Ok tt (snd (execs (flat_map (sp_term_acts alpha y i x)
      (map (fun k => (nth k (sval A) zero, nth k (scol A) 0)) (seq lo cnt))) (regs, h))).
Proof.
  revert lo h regs. induction cnt as [|cnt IH]; intros lo h regs Hlo Hc Hx Hy; [reflexivity|].
  cbn [seq map flat_map loop]. rewrite execs_app.
  unfold bind at 1 2. rewrite (vec_at_d _ zero) by lia. unfold bind at 1. rewrite (vec_at_d _ 0) by lia.
  assert (nth lo (scol A) 0 < len h x) by (apply Hx, nth_In; lia).
  unfold bind at 1 2. rewrite !load_ok by auto. rewrite store_ok by auto.
  unfold sp_term_acts at 2. cbn [execs exec1 fold_left fst snd app nth].
  apply IH; try lia; auto; intros; rewrite len_hset; auto.
Qed.

Lemma sp_schedules n A alpha x beta y h :
  csr_wf A n -> fits_u32 n = true -> (forall c, In c (scol A) -> c < len h x) -> n <= len h y -> x <> y ->
  exists h', sp_mul_core n (scol A) (sptr A) alpha (sval A) x beta y h = Ok y h' /\
    all_schedules_agree n (sp_acts A alpha x beta y) h h'.
Proof.
  intros W Hf Hx Hy Nxy. pose proof W as (W1 & W2 & W3 & W4 & W5).
  match goal with |- context [sp_mul_core] => idtac end.
  destruct (loop_all_schedules (sp_acts A alpha x beta y)
    (fun i _ => y0 <- load y i ;; store y i (mul beta y0) ;;
      a <- vec_at (sptr A) i ;; b <- vec_at (sptr A) (i + 1)%nat ;;
      for_sz a b (fun k _ =>
        v <- vec_at (sval A) k ;; c <- vec_at (scol A) k ;; xk <- load x c ;;
        yi <- load y i ;; store y i (add yi (mul (mul alpha v) xk))) tt) n h) as (h' & E & HA).
  - intros j k p i _ _ Hjk Hw Hacc. apply sp_row_wrs in Hw. destruct Hw as [-> ->].
    apply sp_row_accs in Hacc. destruct Hacc as [[E1 E2]|[E1 _]]; congruence.
  - intros k p i Hk Hacc. apply sp_row_accs in Hacc. destruct Hacc as [[-> ->]|[-> Hi]]; [lia|].
    apply Hx. unfold sp_terms, csr_row in Hi. rewrite !map_map in Hi. cbn [fst snd] in Hi.
    apply in_map_iff in Hi. destruct Hi as (c & <- & Hc). apply in_seq in Hc. apply nth_In.
    pose proof (ptr_le A n (k + 1) W ltac:(lia)). lia.
  - intros i h1 Hi Hl. pose proof (ptr_le A n (i + 1) W ltac:(lia)) as Hle. specialize (W5 i Hi).
    unfold sp_acts, sp_row_acts. rewrite execs_app. cbn [execs exec1 fold_left fst snd app nth].
    unfold bind at 1. rewrite load_ok by (rewrite Hl; lia). unfold bind at 1. rewrite store_ok by (rewrite Hl; lia).
    unfold bind at 1. rewrite (vec_at_d _ 0) by lia. unfold bind at 1. rewrite (vec_at_d _ 0) by lia.
    unfold for_sz. rewrite (sp_row_loop alpha A x y i _ _ _ [rd h1 y i]); try lia.
    + unfold sp_terms, csr_row. now rewrite map_map.
    + intros c Hc. rewrite len_hset, Hl. auto.
    + rewrite len_hset, Hl. lia.
  - exists h'. split; auto. unfold sp_mul_core, noexcept. unfold bind at 1. rewrite u32_sz by auto. rewrite E. reflexivity.
Qed.

(** ** Unit matrices *)

Definition diag_entries (n : nat) : triples T := map (fun i => ((i, i), one)) (seq 0 n).

Lemma post_pure {S A} (m : M S A) s y : post m s (fun r s' => s' = s /\ r = y) -> m s = Ok y s.
Proof. intros H. destruct (post_ok _ _ _ H) as (a & s' & E & -> & ->). exact E. Qed.

Lemma ids_loop {S} n (s : S) : fits_u32 n = true -> for_u32 0 n (fun i l => vec_set l i i) (repeat 0 n) s = Ok (seq 0 n) s.
Proof.
  intros Hf. apply post_pure. eapply (post_for_u32 (fun k (l : list nat) s' => s' = s /\ length l = n /\ forall i, i < k -> nth i l 0 = i));
    [exact Hf|lia|split; [auto|split; [apply repeat_length|intros; lia]]| |].
  - intros k l s' Hk (-> & Hl & Hv). unfold post. rewrite vec_set_d by lia. split; auto. split; [now rewrite set_nth_length|].
    intros i Hi. rewrite nth_set_nth by lia. destruct (Nat.eqb_spec i k); auto. apply Hv. lia.
  - intros l s' (-> & Hl & Hv). split; auto. apply (list_ext_nth 0); [now rewrite seq_length|].
    intros i Hi. rewrite seq_nth by lia. rewrite Hv; lia.
Qed.

Lemma diag_zip n : zip3 (seq 0 n) (seq 0 n) (repeat (one : T) n) = diag_entries n.
Proof.
  unfold zip3, diag_entries. generalize 0. induction n as [|n IH]; intros a; cbn; auto. now rewrite IH.
Qed.
Lemma diag_In n i j x : In ((i, j), x) (diag_entries n) <-> i < n /\ j = i /\ x = one.
Proof.
  unfold diag_entries. rewrite in_map_iff. split.
  - intros (k & E & Hk). apply in_seq in Hk. injection E as <- <- <-. split; [lia|auto].
  - intros (H & -> & ->). exists i. split; auto. apply in_seq. lia.
Qed.
Lemma diag_distinct n : distinct (diag_entries n).
Proof.
  unfold distinct, diag_entries. rewrite map_map. cbn [fst].
  apply FinFun.Injective_map_NoDup; [|apply seq_NoDup]. intros a b E. now inversion E.
Qed.
Lemma diag_reads n i j x : i < n -> reads (diag_entries n) i j x -> x = Id i j.
Proof.
  intros Hi. unfold Id. intros [H|[H ->]].
  - apply diag_In in H. destruct H as (_ & -> & ->). now rewrite Nat.eqb_refl.
  - destruct (Nat.eqb_spec i j) as [->|]; auto. exfalso. apply (H one). apply diag_In. auto.
Qed.
Lemma diag_shape n : 0 < n -> is_shape (diag_entries n) n n.
Proof.
  intros Hn. split.
  - intros i j v H. apply diag_In in H. lia.
  - intros n' m' H. assert (n - 1 < n' /\ n - 1 < m'); [|lia]. apply (H _ _ one). apply diag_In. split; [lia|auto].
Qed.

Lemma shape_unique (es : triples T) n m n' m' : is_shape es n m -> is_shape es n' m' -> n = n' /\ m = m'.
Proof. intros [H1 H2] [H3 H4]. specialize (H2 _ _ H3). specialize (H4 _ _ H1). lia. Qed.

Lemma is_shape_perm (es es' : triples T) n m : Permutation es es' -> is_shape es n m -> is_shape es' n m.
Proof.
  intros P [H1 H2]. split.
  - intros i j v Hin. apply (H1 i j v). eapply Permutation_in; [symmetry|]; eauto.
  - intros n' m' H. apply H2. intros i j v Hin. apply (H i j v). eapply Permutation_in; eauto.
Qed.

Lemma csr_unit_ok {S} n (s : S) : fits_u32 n = true ->
  csr_unit n s = Ok (mkCsr (repeat one n) (seq 0 (n + 1)) (seq 0 n)) s.
Proof.
  intros Hf. unfold csr_unit.
  set (body := fun i (pc : list nat * list nat) => p <- vec_set (fst pc) i i ;; c <- vec_set (snd pc) i i ;; ret (p, c)).
  assert (H : for_u32 0 n body (repeat 0 (n + 1), repeat 0 n) s = Ok (seq 0 n ++ [0], seq 0 n) s).
  { apply post_pure. eapply (post_for_u32 (fun k (pc : list nat * list nat) s' => s' = s /\ length (fst pc) = n + 1 /\ length (snd pc) = n /\
      nth n (fst pc) 0 = 0 /\ forall i, i < k -> nth i (fst pc) 0 = i /\ nth i (snd pc) 0 = i));
    [exact Hf|lia|cbn [fst snd]; rewrite !repeat_length; split; [auto|split; [auto|split; [auto|split; [apply nth_repeat_same|intros; lia]]]]| |].
    - intros k [p c] s' Hk (-> & Hp & Hc & H0 & Hv). unfold body, post, bind. cbn [fst snd] in *.
      rewrite !vec_set_d by lia. cbn [ret fst snd]. rewrite !set_nth_length. split; auto. split; auto. split; auto. split.
      + rewrite nth_set_nth_other by lia. auto.
      + intros i Hi. rewrite !nth_set_nth by lia. destruct (Nat.eqb_spec i k); auto. apply Hv. lia.
    - intros [p c] s' (-> & Hp & Hc & H0 & Hv). cbn [fst snd] in *. split; auto. f_equal.
      + apply (list_ext_nth 0); [rewrite app_length, seq_length; cbn; lia|]. intros i Hi.
        destruct (Nat.eq_dec i n) as [->|]; [rewrite app_nth2, seq_length, Nat.sub_diag by (rewrite seq_length; lia); auto|].
        rewrite app_nth1, seq_nth by (rewrite ?seq_length; lia). apply Hv. lia.
      + apply (list_ext_nth 0); [now rewrite seq_length|]. intros i Hi. rewrite seq_nth by lia. apply Hv. lia. }
  unfold bind at 1. rewrite H. cbn [fst snd]. unfold bind. rewrite vec_set_d by (rewrite app_length, seq_length; cbn; lia).
  unfold csr_of. rewrite repeat_length, seq_length, Nat.eqb_refl. cbn [negb]. unfold ret. do 2 f_equal.
  rewrite seq_app. cbn [seq Nat.add]. apply (list_ext_nth 0).
  - rewrite set_nth_length, !app_length, seq_length. reflexivity.
  - intros i Hi. rewrite set_nth_length, app_length, seq_length in Hi. cbn in Hi.
    rewrite nth_set_nth by (rewrite app_length, seq_length; cbn; lia). destruct (Nat.eqb_spec i n) as [->|].
    + now rewrite app_nth2, seq_length, Nat.sub_diag by (rewrite seq_length; lia).
    + rewrite !app_nth1 by (rewrite seq_length; lia). reflexivity.
Qed.

Lemma csr_unit_wf n : csr_wf (mkCsr (repeat (one : T) n) (seq 0 (n + 1)) (seq 0 n)) n.
Proof.
  unfold csr_wf. cbn [sval sptr scol]. rewrite repeat_length, !seq_length. split; auto. split; auto.
  split; [rewrite Nat.add_comm; reflexivity|]. split; [rewrite seq_nth; lia|]. intros i Hi. rewrite !seq_nth; lia.
Qed.
Lemma csr_unit_entries n : csr_entries (mkCsr (repeat (one : T) n) (seq 0 (n + 1)) (seq 0 n)) n = diag_entries n.
Proof.
  unfold csr_entries, diag_entries.
  assert (forall l, (forall i, In i l -> i < n) -> flat_map (csr_row (mkCsr (repeat (one : T) n) (seq 0 (n + 1)) (seq 0 n))) l = map (fun i => ((i, i), one)) l) as G.
  { induction l as [|i l IH]; intros H; [reflexivity|]. cbn [flat_map map]. rewrite IH by (intros; apply H; right; auto).
    specialize (H i (or_introl eq_refl)). unfold csr_row. cbn [sval sptr scol]. rewrite !seq_nth by lia.
    replace (0 + (i + 1) - (0 + i)) with 1 by lia. cbn [seq map Nat.add app]. rewrite seq_nth by lia.
    rewrite (nth_indep _ _ one) by (rewrite repeat_length; lia). now rewrite nth_repeat_same. }
  apply G. intros i Hi. apply in_seq in Hi. lia.
Qed.
End SpSched.
