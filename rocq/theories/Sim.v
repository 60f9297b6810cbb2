(** * Proof rules for [respects] *)
From Verif Require Import Base Scalar BaseLemmas ModelVec ModelMat ModelPacked ModelSparse SpecSim.
Local Open Scope nat_scope.

Section Sim.
Context {T : Type}.
Variable w : pairing.
Variables g1 g2 : heap T.
Hypothesis W : corresponds w g1 g2.

Lemma paired_fun p q q' : paired w p q -> paired w p q' -> q = q'.
Proof.
  destruct W as [_ _ F1 F2 LV SM FN IN]. intros [H|(k & -> & ->)] [H'|(k' & E & ->)].
  - eapply FN; eauto.
  - apply LV in H. lia.
  - apply LV in H'. lia.
  - f_equal. lia.
Qed.
Lemma paired_inj p p' q : paired w p q -> paired w p' q -> p = p'.
Proof.
  destruct W as [_ _ F1 F2 LV SM FN IN]. intros [H|(k & -> & ->)] [H'|(k' & -> & E)].
  - eapply IN; eauto.
  - apply LV in H. lia.
  - apply LV in H'. lia.
  - f_equal. lia.
Qed.

Definition sim {A B} (V : A -> B -> Prop) (m1 : M (heap T) A) (m2 : M (heap T) B) : Prop :=
  forall h1 h2, related w g1 g2 h1 h2 -> same_ending V w g1 g2 (m1 h1) (m2 h2).

Lemma related_start : related w g1 g2 g1 g2.
Proof.
  destruct W as [C1 C2 F1 F2 LV SM FN IN]. split; auto.
  - exists 0. lia.
  - intros p q [H|(k & -> & ->)]; [auto|]. rewrite C1, C2 by lia. reflexivity.
Qed.

Lemma sim_ret {A B} (V : A -> B -> Prop) a b : V a b -> sim V (ret a) (ret b).
Proof. intros H h1 h2 Rl. split; auto. Qed.
Lemma sim_bind {A B C D} (V : A -> B -> Prop) (V' : C -> D -> Prop) m1 m2 f1 f2 :
  sim V m1 m2 -> (forall a b, V a b -> sim V' (f1 a) (f2 b)) -> sim V' (bind m1 f1) (bind m2 f2).
Proof.
  intros H H' h1 h2 Rl. specialize (H h1 h2 Rl). unfold bind.
  destruct (m1 h1), (m2 h2); cbn in H; try contradiction; auto. destruct H as [HV HR]. now apply H'.
Qed.
Lemma sim_throw {A B} (V : A -> B -> Prop) e : sim V (throw e) (throw e).
Proof. intros h1 h2 Rl. split; auto. Qed.
Lemma sim_ub {A B} (V : A -> B -> Prop) : sim V ub ub. Proof. intros h1 h2 Rl. exact I. Qed.
Lemma sim_diverge {A B} (V : A -> B -> Prop) : sim V diverge diverge. Proof. intros h1 h2 Rl. exact I. Qed.
Lemma sim_noexcept {A B} (V : A -> B -> Prop) m1 m2 : sim V m1 m2 -> sim V (noexcept m1) (noexcept m2).
Proof.
  intros H h1 h2 Rl. specialize (H h1 h2 Rl). unfold noexcept.
  destruct (m1 h1), (m2 h2); cbn in *; try contradiction; auto.
Qed.
Lemma sim_mono {A B} (V V' : A -> B -> Prop) m1 m2 : sim V m1 m2 -> (forall a b, V a b -> V' a b) -> sim V' m1 m2.
Proof.
  intros H HV h1 h2 Rl. specialize (H h1 h2 Rl). destruct (m1 h1), (m2 h2); cbn in *; try contradiction; auto.
  destruct H. auto.
Qed.
Lemma sim_if {A B} (V : A -> B -> Prop) (c : bool) m1 m2 m1' m2' :
  sim V m1 m2 -> sim V m1' m2' -> sim V (if c then m1 else m1') (if c then m2 else m2').
Proof. destruct c; auto. Qed.

Lemma sim_load p q i : paired w p q -> sim eq (load p i) (load q i).
Proof.
  intros H h1 h2 Rl. unfold load. rewrite (re_same _ _ _ _ _ Rl p q H). destruct (nth_error _ _); cbn; auto.
Qed.
Lemma sim_vsize p q : paired w p q -> sim eq (vsize p) (vsize q).
Proof. intros H h1 h2 Rl. unfold vsize. rewrite (re_same _ _ _ _ _ Rl p q H). cbn. auto. Qed.
Lemma sim_contents p q : paired w p q -> sim eq (contents p) (contents q).
Proof. intros H h1 h2 Rl. unfold contents. rewrite (re_same _ _ _ _ _ Rl p q H). cbn. auto. Qed.
Lemma clean_upd (h : heap T) p b : p < next h -> clean h -> clean (upd h p b).
Proof. intros L C x Lx. cbn in Lx. rewrite mem_upd. destruct (Nat.eqb_spec x p); [lia|auto]. Qed.
Lemma clean_live (h : heap T) p i : clean h -> i < length (mem h p) -> p < next h.
Proof. intros C L. destruct (Nat.lt_ge_cases p (next h)) as [H|H]; auto. rewrite (C p H) in L. cbn in L. lia. Qed.
Lemma related_upd h1 h2 p q b : p < next h1 -> q < next h2 -> paired w p q -> related w g1 g2 h1 h2 -> related w g1 g2 (upd h1 p b) (upd h2 q b).
Proof.
  intros Lp Lq H [C1 C2 N S F1 F2]. split; auto using clean_upd.
  - intros p' q' H'. rewrite !mem_upd.
    destruct (Nat.eqb_spec p' p) as [->|Np], (Nat.eqb_spec q' q) as [->|Nq]; auto.
    + destruct Nq. eapply paired_fun; eauto.
    + destruct Np. eapply paired_inj; eauto.
  - intros p' L Hp'. rewrite mem_upd. destruct (Nat.eqb_spec p' p) as [->|]; auto.
    destruct H as [H|(k & -> & ->)]; [now apply Hp' in H|]. rewrite (co_free1 _ _ _ W) in L. lia.
  - intros q' L Hq'. rewrite mem_upd. destruct (Nat.eqb_spec q' q) as [->|]; auto.
    destruct H as [H|(k & -> & ->)]; [now apply Hq' in H|]. rewrite (co_free2 _ _ _ W) in L. lia.
Qed.
Lemma sim_store p q i x : paired w p q -> sim eq (store p i x) (store q i x).
Proof.
  intros H h1 h2 Rl. unfold store. rewrite (re_same _ _ _ _ _ Rl p q H).
  destruct (Nat.ltb_spec i (length (mem h2 q))); cbn; auto.
  split; auto. apply related_upd; auto.
  - apply (clean_live h1 p i); [apply Rl|]. now rewrite (re_same _ _ _ _ _ Rl p q H).
  - apply (clean_live h2 q i); [apply Rl|auto].
Qed.
Lemma sim_alloc b : sim (paired w) (alloc b) (alloc b).
Proof.
  intros h1 h2 [C1 C2 (k & N1 & N2) S F1 F2]. cbn. split.
  - right. exists k. auto.
  - split; cbn [next mem].
    + intros p Lp. cbn in *. destruct (Nat.eqb_spec p (next h1)); [lia|]. apply C1. lia.
    + intros p Lp. cbn in *. destruct (Nat.eqb_spec p (next h2)); [lia|]. apply C2. lia.
    + exists (Datatypes.S k). lia.
    + intros p q H. destruct (Nat.eqb_spec p (next h1)) as [Ep|Np], (Nat.eqb_spec q (next h2)) as [Eq|Nq]; auto.
      * destruct Nq. eapply paired_fun; eauto. right. exists k. subst p. auto.
      * destruct Np. eapply paired_inj; eauto. right. exists k. subst q. auto.
    + intros p L Hp. destruct (Nat.eqb_spec p (next h1)); auto. rewrite (co_free1 _ _ _ W) in N1. lia.
    + intros q L Hq. destruct (Nat.eqb_spec q (next h2)); auto. rewrite (co_free2 _ _ _ W) in N2. lia.
Qed.
Lemma sim_assert dbg c : sim eq (assert_ dbg c) (assert_ dbg c).
Proof. intros h1 h2 Rl. unfold assert_. destruct (dbg && negb c); cbn; auto. Qed.

Lemma sim_loop {A B} (V : A -> B -> Prop) l f1 f2 : (forall i a b, V a b -> sim V (f1 i a) (f2 i b)) ->
  forall a b, V a b -> sim V (loop l f1 a) (loop l f2 b).
Proof.
  intros H. induction l as [|i l IH]; intros a b HV; [now apply sim_ret|]. cbn [loop].
  eapply sim_bind; [apply H; exact HV|]. auto.
Qed.
Lemma sim_for_sz {A B} (V : A -> B -> Prop) lo n f1 f2 a b : V a b ->
  (forall i a b, V a b -> sim V (f1 i a) (f2 i b)) -> sim V (for_sz lo n f1 a) (for_sz lo n f2 b).
Proof. intros H H'. now apply sim_loop. Qed.
Lemma sim_for_u32 {A B} (V : A -> B -> Prop) lo n f1 f2 a b : V a b ->
  (forall i a b, V a b -> sim V (f1 i a) (f2 i b)) -> sim V (for_u32 lo n f1 a) (for_u32 lo n f2 b).
Proof. intros H H'. unfold for_u32. destruct (fits_u32 n); [now apply sim_for_sz|apply sim_diverge]. Qed.
Lemma sim_down_i32 {A B} (V : A -> B -> Prop) n f1 f2 a b : V a b ->
  (forall i a b, V a b -> sim V (f1 i a) (f2 i b)) -> sim V (down_i32 n f1 a) (down_i32 n f2 b).
Proof. intros H H'. now apply sim_loop. Qed.
Lemma sim_down_sz {A B} (V : A -> B -> Prop) n f1 f2 a b : V a b ->
  (forall i a b, V a b -> sim V (f1 i a) (f2 i b)) -> sim V (down_sz n f1 a) (down_sz n f2 b).
Proof. intros H H'. now apply sim_loop. Qed.
Lemma sim_copy_n n p q p' q' : paired w p q -> paired w p' q' -> sim eq (copy_n n p p') (copy_n n q q').
Proof.
  intros H H'. apply sim_for_sz; auto. intros i [] [] _. eapply sim_bind; [now apply sim_load|].
  intros x y <-. now apply sim_store.
Qed.

(** Elements of two lists of paired vectors. *)
Lemma sim_vec_at {A B} (V : A -> B -> Prop) l1 l2 i : Forall2 V l1 l2 -> sim V (vec_at l1 i) (vec_at l2 i).
Proof.
  intros H. unfold vec_at. revert l2 H. induction l1 as [|a l1 IH] in i |- *; intros l2 H; inversion H; subst.
  - destruct i; apply sim_ub.
  - destruct i; cbn [nth_error]; [now apply sim_ret|]. now apply IH.
Qed.

(** Computations that do not look at the memory at all. *)
Definition inert {A} (m : M (heap T) A) : Prop :=
  (exists a, forall s, m s = Ok a s) \/ (exists e, forall s, m s = Throw e s) \/ (forall s, m s = Terminate) \/
  (forall s, m s = AssertFail) \/ (forall s, m s = UB) \/ (forall s, m s = Diverge).
Lemma sim_inert {A} (m : M (heap T) A) : inert m -> sim eq m m.
Proof.
  intros H h1 h2 Rl.
  destruct H as [(a & E)|[(e & E)|[E|[E|[E|E]]]]]; rewrite !E; cbn; auto.
Qed.
Lemma inert_ret {A} (a : A) : inert (ret a). Proof. left. exists a. reflexivity. Qed.
Lemma inert_throw {A} e : inert (throw (A := A) e). Proof. right. left. exists e. reflexivity. Qed.
Lemma inert_ub {A} : inert (ub (A := A)). Proof. do 4 right. left. reflexivity. Qed.
Lemma inert_diverge {A} : inert (diverge (A := A)). Proof. do 5 right. reflexivity. Qed.
Lemma inert_bind {A B} (m : M (heap T) A) (f : A -> M (heap T) B) : inert m -> (forall a, inert (f a)) -> inert (bind m f).
Proof.
  intros H Hf. unfold bind. destruct H as [(a & E)|[(e & E)|[E|[E|[E|E]]]]].
  - destruct (Hf a) as [(b & E')|[(e & E')|[E'|[E'|[E'|E']]]]].
    + left. exists b. intros s. now rewrite E, E'.
    + right. left. exists e. intros s. now rewrite E, E'.
    + do 2 right. left. intros s. now rewrite E, E'.
    + do 3 right. left. intros s. now rewrite E, E'.
    + do 4 right. left. intros s. now rewrite E, E'.
    + do 5 right. intros s. now rewrite E, E'.
  - right. left. exists e. intros s. now rewrite E.
  - do 2 right. left. intros s. now rewrite E.
  - do 3 right. left. intros s. now rewrite E.
  - do 4 right. left. intros s. now rewrite E.
  - do 5 right. intros s. now rewrite E.
Qed.
Lemma inert_vec_at {A} (l : list A) i : inert (vec_at l i).
Proof. unfold vec_at. destruct (nth_error l i); [apply inert_ret|apply inert_ub]. Qed.
Lemma inert_vec_set {A} (l : list A) i x : inert (vec_set l i x).
Proof. unfold vec_set. destruct (Nat.ltb _ _); [apply inert_ret|apply inert_ub]. Qed.
Lemma inert_assert dbg c : inert (assert_ dbg c).
Proof. unfold assert_. destruct (dbg && negb c); [do 3 right; left; reflexivity|left; exists tt; reflexivity]. Qed.
Lemma inert_noexcept {A} (m : M (heap T) A) : inert m -> inert (noexcept m).
Proof.
  unfold noexcept. intros [(a & E)|[(e & E)|[E|[E|[E|E]]]]].
  - left. exists a. intros s. now rewrite E.
  - do 2 right. left. intros s. now rewrite E.
  - do 2 right. left. intros s. now rewrite E.
  - do 3 right. left. intros s. now rewrite E.
  - do 4 right. left. intros s. now rewrite E.
  - do 5 right. intros s. now rewrite E.
Qed.
Lemma inert_loop {A} l (f : nat -> A -> M (heap T) A) a : (forall i a, inert (f i a)) -> inert (loop l f a).
Proof.
  intros H. revert a. induction l as [|i l IH]; intros a; [apply inert_ret|]. cbn [loop]. now apply inert_bind.
Qed.
Lemma inert_for_sz {A} lo n (f : nat -> A -> M (heap T) A) a : (forall i a, inert (f i a)) -> inert (for_sz lo n f a).
Proof. intros H. now apply inert_loop. Qed.
Lemma inert_for_u32 {A} lo n (f : nat -> A -> M (heap T) A) a : (forall i a, inert (f i a)) -> inert (for_u32 lo n f a).
Proof. intros H. unfold for_u32. destruct (fits_u32 n); [now apply inert_for_sz|apply inert_diverge]. Qed.
Lemma inert_run_local {U A} (h : heap U) (m : M (heap U) A) : inert (run_local h m).
Proof.
  unfold run_local. destruct (m h) as [a s|e s| | | |].
  - left. exists (a, s). reflexivity.
  - right. left. exists e. reflexivity.
  - do 2 right. left. reflexivity.
  - do 3 right. left. reflexivity.
  - do 4 right. left. reflexivity.
  - do 5 right. reflexivity.
Qed.
Lemma inert_on_copy {C A} (c : C) (m : M C A) : inert (on_copy c m).
Proof.
  unfold on_copy. destruct (m c) as [a s|e s| | | |].
  - left. exists s. reflexivity.
  - right. left. exists e. reflexivity.
  - do 2 right. left. reflexivity.
  - do 3 right. left. reflexivity.
  - do 4 right. left. reflexivity.
  - do 5 right. reflexivity.
Qed.
Lemma inert_if {A} (c : bool) (m1 m2 : M (heap T) A) : inert m1 -> inert m2 -> inert (if c then m1 else m2).
Proof. destruct c; auto. Qed.
End Sim.
