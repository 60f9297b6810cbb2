(** * Proof rules for [modifies] *)
From Verif Require Import Base Scalar BaseLemmas ModelVec ModelMat ModelPacked ModelSparse SpecFrame.
Local Open Scope nat_scope.

Section Frame.
Context {T : Type}.
Variables (n0 : nat) (l : list ptr).

Definition step (h h' : heap T) : Prop :=
  next h <= next h' /\ (forall q, q < n0 -> ~ In q l -> mem h' q = mem h q) /\
  (forall q, q < n0 -> length (mem h' q) = length (mem h q)).
(** Objects the code may write to: the listed ones and those it created itself. *)
Definition wr (p : ptr) : Prop := In p l \/ n0 <= p.
Definition fr {A} (Q : A -> Prop) (m : M (heap T) A) : Prop :=
  forall h, n0 <= next h -> match m h with
    | Ok a h' => step h h' /\ Q a | Throw _ h' => step h h' | _ => True end.

Lemma step_refl h : step h h. Proof. repeat split; auto. Qed.
Lemma step_trans h h' h'' : step h h' -> step h' h'' -> step h h''.
Proof.
  intros (A1 & A2 & A3) (B1 & B2 & B3). split; [lia|]. split.
  - intros q Hq Nq. rewrite B2, A2; auto.
  - intros q Hq. rewrite B3, A3; auto.
Qed.
Lemma fr_ret {A} (Q : A -> Prop) a : Q a -> fr Q (ret a).
Proof. intros H h Hn. split; auto using step_refl. Qed.
Lemma fr_bind {A B} (P : A -> Prop) (Q : B -> Prop) m f : fr P m -> (forall a, P a -> fr Q (f a)) -> fr Q (bind m f).
Proof.
  intros H H' h Hn. specialize (H h Hn). unfold bind. destruct (m h) as [a h1|e h1| | | |]; auto.
  destruct H as [S1 Ha]. specialize (H' a Ha h1 ltac:(destruct S1; lia)).
  destruct (f a h1) as [b h2|e h2| | | |]; auto; [destruct H' as [S2 Hb]; split; auto|]; eapply step_trans; eauto.
Qed.
Lemma fr_mono {A} (P Q : A -> Prop) m : fr P m -> (forall a, P a -> Q a) -> fr Q m.
Proof. intros H HQ h Hn. specialize (H h Hn). destruct (m h); auto. destruct H; auto. Qed.
Lemma fr_throw {A} (Q : A -> Prop) e : fr Q (throw e). Proof. intros h Hn. apply step_refl. Qed.
Lemma fr_ub {A} (Q : A -> Prop) : fr Q ub. Proof. intros h Hn. exact I. Qed.
Lemma fr_diverge {A} (Q : A -> Prop) : fr Q diverge. Proof. intros h Hn. exact I. Qed.
Lemma fr_noexcept {A} (Q : A -> Prop) m : fr Q m -> fr Q (noexcept m).
Proof. intros H h Hn. specialize (H h Hn). unfold noexcept. destruct (m h); auto. Qed.
Lemma fr_if {A} (Q : A -> Prop) (b : bool) m m' : fr Q m -> fr Q m' -> fr Q (if b then m else m').
Proof. destruct b; auto. Qed.
Lemma fr_load p i : fr (fun _ => True) (load p i).
Proof. intros h Hn. unfold load. destruct (nth_error _ _); auto using step_refl. Qed.
Lemma fr_vsize p : fr (fun _ => True) (vsize p). Proof. intros h Hn. cbn. auto using step_refl. Qed.
Lemma fr_contents p : fr (fun _ => True) (contents p). Proof. intros h Hn. cbn. auto using step_refl. Qed.
Lemma fr_assert d b : fr (fun _ => True) (assert_ d b).
Proof. intros h Hn. unfold assert_. destruct (_ && _); auto using step_refl. Qed.
Lemma fr_store p i x : wr p -> fr (fun _ => True) (store p i x).
Proof.
  intros Hp h Hn. unfold store. destruct (Nat.ltb i _) eqn:E; [|exact I]. split; [|exact I]. split; [cbn; lia|]. split.
  - intros q Hq Nq. cbn. destruct (Nat.eqb_spec q p) as [->|]; auto. destruct Hp; [contradiction|lia].
  - intros q Hq. cbn. destruct (Nat.eqb_spec q p) as [->|]; auto. apply set_nth_length.
Qed.
Lemma fr_alloc b : fr (fun p => n0 <= p) (alloc b).
Proof.
  intros h Hn. unfold alloc. split; [|exact Hn]. split; [cbn; lia|]. split.
  - intros q Hq Nq. cbn. destruct (Nat.eqb_spec q (next h)) as [->|]; auto. lia.
  - intros q Hq. cbn. destruct (Nat.eqb_spec q (next h)) as [->|]; auto. lia.
Qed.
Lemma fr_loop {A} (P : A -> Prop) is f a : P a -> (forall i a, P a -> fr P (f i a)) -> fr P (loop is f a).
Proof.
  intros Ha Hf. revert a Ha. induction is as [|i is IH]; intros a Ha; cbn; [now apply fr_ret|].
  eapply fr_bind; [apply Hf; exact Ha|]. intros b Hb. now apply IH.
Qed.
Lemma fr_for_sz {A} (P : A -> Prop) lo n f a : P a -> (forall i a, P a -> fr P (f i a)) -> fr P (for_sz lo n f a).
Proof. apply fr_loop. Qed.
Lemma fr_for_u32 {A} (P : A -> Prop) lo n f a : P a -> (forall i a, P a -> fr P (f i a)) -> fr P (for_u32 lo n f a).
Proof. intros. unfold for_u32. destruct (fits_u32 n); [now apply fr_for_sz|apply fr_diverge]. Qed.
Lemma fr_down_i32 {A} (P : A -> Prop) n f a : P a -> (forall i a, P a -> fr P (f i a)) -> fr P (down_i32 n f a).
Proof. apply fr_loop. Qed.
Lemma fr_down_sz {A} (P : A -> Prop) n f a : P a -> (forall i a, P a -> fr P (f i a)) -> fr P (down_sz n f a).
Proof. apply fr_loop. Qed.
Lemma fr_copy_n n src dst : wr dst -> fr (fun _ => True) (copy_n n src dst).
Proof. intros H. apply fr_for_sz; auto. intros. eapply fr_bind; [apply fr_load|]. intros. now apply fr_store. Qed.
Lemma fr_vec_at {B} (v : list B) i : fr (fun x => In x v) (vec_at v i).
Proof.
  intros h Hn. unfold vec_at. destruct (nth_error v i) eqn:E; [|exact I]. split; [apply step_refl|].
  eapply nth_error_In; eauto.
Qed.
Lemma fr_vec_set {B} (v : list B) i x : fr (fun _ => True) (vec_set v i x).
Proof. intros h Hn. unfold vec_set. destruct (Nat.ltb _ _); cbn; auto using step_refl. Qed.
Lemma fr_run_local {S B} (h0 : heap S) (m : M (heap S) B) : fr (fun _ => True) (run_local h0 m).
Proof. intros h Hn. unfold run_local. destruct (m h0); auto using step_refl. Qed.
Lemma fr_on_copy {C B} (c : C) (m : M C B) : fr (fun _ => True) (on_copy c m).
Proof. intros h Hn. unfold on_copy. destruct (m c); auto using step_refl. Qed.
End Frame.

(** From the rules to the specification. *)
Lemma fr_modifies {T A} l (R : heap T -> A -> Prop) (Q : nat -> A -> Prop) m :
  (forall n0, fr n0 l (Q n0) m) -> (forall h a, Q (next h) a -> R h a) -> modifies l R m.
Proof.
  intros H HR h. specialize (H (next h) h (le_n _)). destruct (m h); auto.
  - destruct H as [(S1 & S2 & S3) Ha]. split; [split; auto|auto].
  - destruct H as (S1 & S2 & S3). split; auto.
Qed.
