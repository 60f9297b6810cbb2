(** * The element-wise kernels under every schedule *)
From Verif Require Import Base Scalar BaseLemmas Spec Schedules ModelVec.
Local Open Scope nat_scope.

Section VecSched.
Context {T : Type} {O : Ops T}.
Implicit Types (h : heap T) (v vr : ptr).

(** Memory accesses of iteration [i], in program order (vec_ops_core.hpp:12-28, 30-46, 80-96,
    130-137, 276-283). *)
Definition neg_acts v vr (i : nat) : list (act T) :=
  [ALoad v i; AStore vr i (fun r => opp (nth 0 r zero))].
Definition add_acts v1 v2 vr (i : nat) : list (act T) :=
  [ALoad v1 i; ALoad v2 i; AStore vr i (fun r => add (nth 1 r zero) (nth 0 r zero))].
Definition sub_acts v1 v2 vr (i : nat) : list (act T) :=
  [ALoad v1 i; ALoad v2 i; AStore vr i (fun r => sub (nth 1 r zero) (nth 0 r zero))].
Definition axpy_acts (alpha : T) v1 v2 (i : nat) : list (act T) :=
  [ALoad v1 i; ALoad v2 i;
   AStore v2 i (fun r => add (mul alpha (nth 1 r zero)) (nth 0 r zero))].
Definition scal_acts (alpha : T) v (i : nat) : list (act T) :=
  [ALoad v i; AStore v i (fun r => mul alpha (nth 0 r zero))].

(** Iterations that only touch elements of their own index never conflict. *)
Lemma own_index_race_free n (its : nat -> list (act T)) :
  (forall k p i, accs (its k) p i -> i = k) -> race_free n its.
Proof.
  intros H j k p i _ _ Hjk Hw Ha. apply wrs_accs, H in Hw. apply H in Ha. congruence.
Qed.

Ltac own := intros k p i (a & Ha & Ht); cbn in Ha;
  repeat (destruct Ha as [<-|Ha]; [cbn in Ht; lia|]); contradiction.
Ltac inb := intros k p i Hk (a & Ha & Ht); cbn in Ha;
  repeat (destruct Ha as [<-|Ha]; [cbn in Ht; destruct Ht as [<- <-]; lia|]); contradiction.

Lemma load_ok h p i : i < len h p -> load p i h = Ok (rd h p i) h.
Proof. intros H. unfold load, rd. now rewrite (nth_error_nth' _ zero H). Qed.
Lemma store_ok h p i x : i < len h p -> store p i x h = Ok tt (hset h p i x).
Proof. intros H. unfold store. unfold len in H. apply Nat.ltb_lt in H. now rewrite H. Qed.

Lemma u32_sz {S A} n (body : nat -> A -> M S A) a s :
  fits_u32 n = true -> for_u32 0 n body a s = for_sz 0 n body a s.
Proof. intros H. unfold for_u32. now rewrite H. Qed.

Ltac body Hl := unfold bind; rewrite ?load_ok by (rewrite Hl; lia);
  cbn [execs exec1 fold_left fst snd app nth]; rewrite ?store_ok by (rewrite Hl; lia); reflexivity.

Lemma neg_schedules v vr n h :
  fits_u32 n = true -> n <= len h v -> n <= len h vr ->
  exists h', neg_core_simd v vr n h = Ok vr h' /\ all_schedules_agree n (neg_acts v vr) h h'.
Proof.
  intros Hf H1 H2.
  destruct (loop_all_schedules (neg_acts v vr)
             (fun i _ => x <- load v i ;; store vr i (opp x)) n h) as (h' & E & HA).
  - apply own_index_race_free. own.
  - inb.
  - intros i h1 Hi Hl. body Hl.
  - exists h'. split; auto. unfold neg_core_simd, bind at 1. rewrite u32_sz, E by auto. reflexivity.
Qed.

Lemma add_schedules v1 v2 vr n h :
  fits_u32 n = true -> n <= len h v1 -> n <= len h v2 -> n <= len h vr ->
  exists h', add_core v1 v2 vr n h = Ok vr h' /\ all_schedules_agree n (add_acts v1 v2 vr) h h'.
Proof.
  intros Hf H1 H2 H3.
  destruct (loop_all_schedules (add_acts v1 v2 vr)
             (fun i _ => x <- load v1 i ;; y <- load v2 i ;; store vr i (add x y)) n h) as (h' & E & HA).
  - apply own_index_race_free. own.
  - inb.
  - intros i h1 Hi Hl. body Hl.
  - exists h'. split; auto. unfold add_core, add_core_simd, add_core_parallel.
    destruct (Nat.ltb n 16); unfold bind at 1 2; rewrite u32_sz, E by auto; reflexivity.
Qed.

Lemma sub_schedules v1 v2 vr n h :
  fits_u32 n = true -> n <= len h v1 -> n <= len h v2 -> n <= len h vr ->
  exists h', sub_core v1 v2 vr n h = Ok vr h' /\ all_schedules_agree n (sub_acts v1 v2 vr) h h'.
Proof.
  intros Hf H1 H2 H3.
  destruct (loop_all_schedules (sub_acts v1 v2 vr)
             (fun i _ => x <- load v1 i ;; y <- load v2 i ;; store vr i (sub x y)) n h) as (h' & E & HA).
  - apply own_index_race_free. own.
  - inb.
  - intros i h1 Hi Hl. body Hl.
  - exists h'. split; auto. unfold sub_core, sub_core_simd, sub_core_parallel.
    destruct (Nat.ltb n 16); unfold bind at 1 2; rewrite u32_sz, E by auto; reflexivity.
Qed.

Lemma axpy_schedules alpha x y n h :
  fits_u32 n = true -> n <= len h x -> n <= len h y ->
  exists h', axpy_core alpha x y n h = Ok y h' /\ all_schedules_agree n (axpy_acts alpha x y) h h'.
Proof.
  intros Hf H1 H2.
  destruct (loop_all_schedules (axpy_acts alpha x y)
             (fun i _ => a <- load x i ;; b <- load y i ;; store y i (add (mul alpha a) b)) n h) as (h' & E & HA).
  - apply own_index_race_free. own.
  - inb.
  - intros i h1 Hi Hl. body Hl.
  - exists h'. split; auto. unfold axpy_core, bind at 1. rewrite u32_sz, E by auto. reflexivity.
Qed.

Lemma scal_schedules alpha x n h :
  fits_u32 n = true -> n <= len h x ->
  exists h', scal_core alpha x n h = Ok x h' /\ all_schedules_agree n (scal_acts alpha x) h h'.
Proof.
  intros Hf H1.
  destruct (loop_all_schedules (scal_acts alpha x)
             (fun i _ => a <- load x i ;; store x i (mul alpha a)) n h) as (h' & E & HA).
  - apply own_index_race_free. own.
  - inb.
  - intros i h1 Hi Hl. body Hl.
  - exists h'. split; auto. unfold scal_core, bind at 1. rewrite u32_sz, E by auto. reflexivity.
Qed.

End VecSched.
