(** * The row loops of the matrix-vector kernels under every schedule *)
From Verif Require Import Base Scalar BaseLemmas Spec Schedules ModelVec ProofVecSched ModelMat.
Local Open Scope nat_scope.

Section MatSched.
Context {T : Type} {O : Ops T}.
Implicit Types (h : heap T) (a x s d : ptr).

(** Accesses of one [d[i] += alpha * pa[ia] * px[ix]], in program order. *)
Definition term_acts (alpha : T) d i a x (t : nat * nat) : list (act T) :=
  [ALoad d i; ALoad a (fst t); ALoad x (snd t);
   AStore d i (fun r => add (nth 2 r zero) (mul (mul alpha (nth 1 r zero)) (nth 0 r zero)))].

(** Accesses of one row: [d[i] = beta * s[i]], then the products (mat_vec_ops_core.hpp:33-38,
    42-47 with [terms] = the entries of row i; 57-62 with [terms] = the stored entries). *)
Definition row_acts (alpha beta : T) s d a x (i : nat) (terms : list (nat * nat)) : list (act T) :=
  [ALoad s i; AStore d i (fun r => mul beta (nth 0 r zero))] ++
  flat_map (term_acts alpha d i a x) terms.

Lemma execs_app l1 l2 (st : list T * heap T) : execs (l1 ++ l2) st = execs l2 (execs l1 st).
Proof. unfold execs. apply fold_left_app. Qed.

Lemma row_body alpha beta s d a x i (idx : nat -> nat * nat) lo cnt h :
  i < len h s -> i < len h d -> (forall k, lo <= k < lo + cnt -> fst (idx k) < len h a /\ snd (idx k) < len h x) ->
  (v <- load s i ;; store d i (mul beta v) ;;
   loop (seq lo cnt) (fun k _ =>
     t <- load d i ;; aik <- load a (fst (idx k)) ;; xk <- load x (snd (idx k)) ;;
     store d i (add t (mul (mul alpha aik) xk))) tt) h
  = Ok tt (snd (execs (row_acts alpha beta s d a x i (map idx (seq lo cnt))) ([], h))).
Proof.
  intros Hs Hd Ht. unfold row_acts. rewrite execs_app. cbn [execs exec1 fold_left fst snd app nth].
  unfold bind at 1. rewrite load_ok by auto. unfold bind at 1. rewrite store_ok by auto.
  generalize [rd h s i] as regs. set (h1 := hset h d i (mul beta (rd h s i))).
  assert (Hl : forall p, len h1 p = len h p) by (intros; apply len_hset).
  clearbody h1. revert lo h1 Ht Hl. induction cnt as [|cnt IH]; intros lo h1 Ht Hl regs; [reflexivity|].
  cbn [seq map flat_map loop]. rewrite execs_app.
  destruct (Ht lo ltac:(lia)) as [Ha Hx].
  unfold bind at 1 2 3 4. rewrite !load_ok by (rewrite ?Hl; auto). rewrite store_ok by (rewrite Hl; auto).
  unfold term_acts at 2. cbn [execs exec1 fold_left fst snd app nth].
  apply IH.
  - intros k Hk. apply Ht. lia.
  - intros p. rewrite len_hset. apply Hl.
Qed.

Lemma row_accs alpha beta s d a x i terms p j :
  accs (row_acts alpha beta s d a x i terms) p j ->
  (p = s /\ j = i) \/ (p = d /\ j = i) \/ (p = a /\ In j (map fst terms)) \/ (p = x /\ In j (map snd terms)).
Proof.
  intros (c & Hc & Ht). unfold row_acts in Hc. apply in_app_or in Hc. destruct Hc as [Hc|Hc].
  - cbn in Hc. destruct Hc as [<-|[<-|[]]]; cbn in Ht; tauto || (destruct Ht; subst; auto).
  - apply in_flat_map in Hc. destruct Hc as (t & Hin & Hc). cbn in Hc.
    destruct Hc as [<-|[<-|[<-|[<-|[]]]]]; cbn in Ht; destruct Ht as [<- <-]; auto.
    + right; right; left. split; auto. apply in_map_iff. eauto.
    + right; right; right. split; auto. apply in_map_iff. eauto.
Qed.

Lemma row_wrs alpha beta s d a x i terms p j :
  wrs (row_acts alpha beta s d a x i terms) p j -> p = d /\ j = i.
Proof.
  intros (c & Hc & Ht). unfold row_acts in Hc. apply in_app_or in Hc. destruct Hc as [Hc|Hc].
  - cbn in Hc. destruct Hc as [<-|[<-|[]]]; cbn in Ht; [contradiction|]. destruct Ht; auto.
  - apply in_flat_map in Hc. destruct Hc as (t & Hin & Hc). cbn in Hc.
    destruct Hc as [<-|[<-|[<-|[<-|[]]]]]; cbn in Ht; try contradiction. destruct Ht; auto.
Qed.

Lemma rows_race_free alpha beta s d a x n (terms : nat -> list (nat * nat)) :
  a <> d -> x <> d -> race_free n (fun i => row_acts alpha beta s d a x i (terms i)).
Proof.
  intros Ha Hx j k p i _ _ Hjk Hw Hacc. apply row_wrs in Hw. destruct Hw as [-> ->].
  apply row_accs in Hacc. destruct Hacc as [[E1 E2]|[[E1 E2]|[[E1 _]|[E1 _]]]]; congruence.
Qed.

(** Dense row loop: the terms of row [i]. *)
Definition dense_terms (m i : nat) : list (nat * nat) := map (fun k => (i * m + k, k)) (seq 0 m).
Definition mv_acts (m : nat) (alpha : T) a x (beta : T) s d (i : nat) : list (act T) :=
  row_acts alpha beta s d a x i (dense_terms m i).

Lemma mv_rows_schedules n m alpha a x beta s d h :
  fits_u32 n = true -> fits_u32 m = true ->
  n * m <= len h a -> m <= len h x -> n <= len h s -> n <= len h d -> a <> d -> x <> d ->
  exists h', for_u32 0 n (fun i _ =>
      v <- load s i ;; store d i (mul beta v) ;;
      for_u32 0 m (fun k _ =>
        t <- load d i ;; aik <- load a (i * m + k)%nat ;; xk <- load x k ;;
        store d i (add t (mul (mul alpha aik) xk))) tt) tt h = Ok tt h' /\
    all_schedules_agree n (mv_acts m alpha a x beta s d) h h'.
Proof.
  intros Hn Hm Ha Hx Hs Hd Na Nx. rewrite u32_sz by auto.
  apply (loop_all_schedules (mv_acts m alpha a x beta s d)).
  - apply rows_race_free; auto.
  - intros k p i Hk Hacc. apply row_accs in Hacc. unfold dense_terms in Hacc.
    rewrite !map_map in Hacc. cbn [fst snd] in Hacc.
    destruct Hacc as [[-> ->]|[[-> ->]|[[-> Hi]|[-> Hi]]]]; try lia;
      apply in_map_iff in Hi; destruct Hi as (c & <- & Hc); apply in_seq in Hc; nia.
  - intros i h1 Hi Hl. unfold for_u32. rewrite Hm. unfold for_sz. rewrite Nat.sub_0_r.
    apply (row_body alpha beta s d a x i (fun k => (i * m + k, k)) 0 m h1); rewrite ?Hl; try lia.
    intros k Hk. cbn [fst snd]. nia.
Qed.

(** The kernel: if the vectors are distinct the row loop works on [y] itself, otherwise on a
    temporary that is copied back after the loop. *)
Lemma mv_core_schedules n m alpha a x beta y h :
  fits_u32 n = true -> fits_u32 m = true ->
  n * m <= len h a -> m <= len h x -> n <= len h y -> a <> y ->
  a < next h -> x < next h -> y < next h ->
  (x <> y -> exists h', mv_core n m alpha a x beta y h = Ok y h' /\
     all_schedules_agree n (mv_acts m alpha a x beta y y) h h') /\
  (x = y -> exists h1 h2, alloc (repeat zero n) h = Ok (next h) h1 /\
     all_schedules_agree n (mv_acts m alpha a x beta y (next h)) h1 h2 /\
     mv_core n m alpha a x beta y h = (copy_n n (next h) y ;; ret y) h2).
Proof.
  intros Hn Hm Ha Hx Hy Nay La Lx Ly. split.
  - intros Nxy. destruct (mv_rows_schedules n m alpha a x beta y y h) as (h' & E & HA); auto.
    exists h'. split; auto. unfold mv_core. apply Nat.eqb_neq in Nxy. rewrite Nxy.
    unfold bind at 1. rewrite E. reflexivity.
  - intros ->. set (h1 := halloc h (repeat zero n)).
    assert (Hl : forall q, q < next h -> len h1 q = len h q).
    { intros q Hq. unfold len, h1. rewrite mem_halloc_other by lia. reflexivity. }
    destruct (mv_rows_schedules n m alpha a y beta y (next h) h1) as (h2 & E & HA); auto;
      rewrite ?Hl by auto; auto; try lia.
    { unfold len, h1. rewrite mem_halloc_same, repeat_length. auto. }
    exists h1, h2. split; [reflexivity|]. split; auto.
    unfold mv_core. rewrite Nat.eqb_refl. unfold bind at 1, alloc. fold h1.
    change (mkHeap (fun q => if Nat.eqb q (next h) then repeat zero n else mem h q) (S (next h))) with h1.
    unfold bind at 1. rewrite E. reflexivity.
Qed.

End MatSched.
