(** * Interleaving semantics of the parallel / SIMD loops

    A loop marked [#pragma omp simd], [omp parallel for] or [omp parallel for simd] lets its
    iterations run in any order and overlap.  Here an iteration is the list of its individual
    memory accesses; a scheduler may pick any iteration at any moment and let it perform its
    next access.  Assigning iterations to threads or lanes only removes schedules, so a statement
    about all schedules covers every assignment.  (Memory is sequentially consistent; for
    race-free programs that is what the C++ memory model guarantees, and race freedom is proved
    below, not assumed.) *)
From Verif Require Import Base Scalar BaseLemmas Spec.
Local Open Scope nat_scope.

Section Machine.
Context {T : Type} {O : Ops T}.

(** One memory access; a store computes its value from the values loaded so far (latest first). *)
Inductive act : Type :=
| ALoad (p : ptr) (i : nat)
| AStore (p : ptr) (i : nat) (f : list T -> T).

Inductive config : Type :=
| Running (h : heap T) (pool : nat -> list act * list T)
| Bad.   (* an access outside its buffer was performed *)

Definition setp (pool : nat -> list act * list T) k s : nat -> list act * list T :=
  fun j => if Nat.eqb j k then s else pool j.

(** One access of iteration [k < n]. *)
Inductive step (n : nat) : config -> config -> Prop :=
| SLoad h pool k p i acts regs :
    k < n -> pool k = (ALoad p i :: acts, regs) -> i < len h p ->
    step n (Running h pool) (Running h (setp pool k (acts, rd h p i :: regs)))
| SStore h pool k p i f acts regs :
    k < n -> pool k = (AStore p i f :: acts, regs) -> i < len h p ->
    step n (Running h pool) (Running (hset h p i (f regs)) (setp pool k (acts, regs)))
| SBadL h pool k p i acts regs :
    k < n -> pool k = (ALoad p i :: acts, regs) -> ~ i < len h p -> step n (Running h pool) Bad
| SBadS h pool k p i f acts regs :
    k < n -> pool k = (AStore p i f :: acts, regs) -> ~ i < len h p -> step n (Running h pool) Bad.

(** [steps n m c c']: c' is reached from c by m steps of some schedule. *)
Inductive steps (n : nat) : nat -> config -> config -> Prop :=
| St0 c : steps n 0 c c
| StS m c c' c'' : steps n m c c' -> step n c' c'' -> steps n (S m) c c''.

Definition start (its : nat -> list act) (h : heap T) : config := Running h (fun k => (its k, [])).

Definition complete (n : nat) (pool : nat -> list act * list T) : Prop :=
  forall k, k < n -> fst (pool k) = [].

(** Two different iterations are about to touch the same element, one of them storing. *)
Definition touches (a : act) (p : ptr) (i : nat) : Prop :=
  match a with ALoad q j => q = p /\ j = i | AStore q j _ => q = p /\ j = i end.
Definition stores (a : act) (p : ptr) (i : nat) : Prop :=
  match a with ALoad _ _ => False | AStore q j _ => q = p /\ j = i end.
Definition racy (n : nat) (c : config) : Prop :=
  match c with
  | Bad => False
  | Running _ pool => exists j k a b aj ak rj rk p i,
      j < n /\ k < n /\ j <> k /\ pool j = (a :: aj, rj) /\ pool k = (b :: ak, rk) /\
      stores a p i /\ touches b p i
  end.

(** ** What the loops have to satisfy *)

Definition accs (l : list act) p i : Prop := exists a, In a l /\ touches a p i.
Definition wrs (l : list act) p i : Prop := exists a, In a l /\ stores a p i.

Definition race_free n (its : nat -> list act) : Prop :=
  forall j k p i, j < n -> k < n -> j <> k -> wrs (its j) p i -> accs (its k) p i -> False.
Definition in_bounds n (its : nat -> list act) (h : heap T) : Prop :=
  forall k p i, k < n -> accs (its k) p i -> i < len h p.

(** An iteration on its own. *)
Definition exec1 (a : act) (s : list T * heap T) : list T * heap T :=
  match a with
  | ALoad p i => (rd (snd s) p i :: fst s, snd s)
  | AStore p i f => (fst s, hset (snd s) p i (f (fst s)))
  end.
Definition execs (l : list act) (s : list T * heap T) : list T * heap T :=
  fold_left (fun s a => exec1 a s) l s.

Lemma execs_snoc l a s : execs (l ++ [a]) s = exec1 a (execs l s).
Proof. unfold execs. now rewrite fold_left_app. Qed.

Lemma execs_len l s p : len (snd (execs l s)) p = len (snd s) p.
Proof.
  revert s; induction l as [|a l IH]; intros s; cbn; auto.
  fold (execs l (exec1 a s)). rewrite IH. destruct a; cbn; auto using len_hset.
Qed.

Lemma execs_next l s : next (snd (execs l s)) = next (snd s).
Proof.
  revert s; induction l as [|a l IH]; intros s; cbn; auto.
  fold (execs l (exec1 a s)). rewrite IH. destruct a; auto.
Qed.

Lemma wrs_accs l p i : wrs l p i -> accs l p i.
Proof. intros (a & Ha & Hs). exists a; split; auto. destruct a; cbn in *; tauto. Qed.

Lemma loc_dec (p p' : ptr) (i i' : nat) : {p = p' /\ i = i'} + {~ (p = p' /\ i = i')}.
Proof. destruct (Nat.eq_dec p p'), (Nat.eq_dec i i'); auto; right; tauto. Qed.

Lemma wrs_dec l p i : wrs l p i \/ ~ wrs l p i.
Proof.
  induction l as [|a l [IH|IH]].
  - right. intros (a & [] & _).
  - left. destruct IH as (b & Hb & Hs). exists b; split; [right|]; auto.
  - destruct a as [q j|q j f].
    + right. intros (b & [<-|Hb] & Hs); [exact Hs|]. apply IH. exists b; auto.
    + destruct (loc_dec q p j i) as [H|H].
      * left. exists (AStore q j f). split; [left|]; auto.
      * right. intros (b & [<-|Hb] & Hs); [tauto|]. apply IH. exists b; auto.
Qed.

Lemma rd_hset_loc (h : heap T) p i x q j :
  i < len h p -> (q <> p \/ j <> i -> rd (hset h p i x) q j = rd h q j) /\
  (q = p -> j = i -> rd (hset h p i x) q j = x).
Proof.
  intros Hi. rewrite rd_hset by auto.
  destruct (Nat.eqb_spec q p), (Nat.eqb_spec j i); cbn; split; intros; try tauto; try lia.
Qed.

(** Invariant of all schedules. *)
Definition Inv n its (h0 h : heap T) (pool : nat -> list act * list T) : Prop :=
  (forall p, len h p = len h0 p) /\ next h = next h0 /\
  (forall k, k < n -> exists dn, its k = dn ++ fst (pool k) /\
      snd (pool k) = fst (execs dn ([], h0)) /\
      forall p i, accs (its k) p i -> rd h p i = rd (snd (execs dn ([], h0))) p i) /\
  (forall p i, (forall k, k < n -> ~ wrs (its k) p i) -> rd h p i = rd h0 p i).

Lemma accs_mid dn a rest p i : touches a p i -> accs (dn ++ a :: rest) p i.
Proof. intros H. exists a; split; auto. apply in_or_app; right; left; auto. Qed.
Lemma wrs_mid dn a rest p i : stores a p i -> wrs (dn ++ a :: rest) p i.
Proof. intros H. exists a; split; auto. apply in_or_app; right; left; auto. Qed.

Lemma Inv_step n its h0 h pool c' :
  race_free n its -> in_bounds n its h0 ->
  Inv n its h0 h pool -> step n (Running h pool) c' ->
  exists h' pool', c' = Running h' pool' /\ Inv n its h0 h' pool'.
Proof.
  intros RF IB (Hl & Hn & Hk & Hw) Hs. inversion Hs; subst;
    match goal with E : pool _ = _ |- _ => rename E into Ep end;
    match goal with E : _ < n |- _ => rename E into Ek end;
    match goal with E : context [_ < len h _] |- _ => rename E into Eb end.
  - (* load *)
    do 2 eexists. split; [reflexivity|]. split; [exact Hl|]. split; [exact Hn|]. split; [|exact Hw].
    intros j Hj. unfold setp. destruct (Nat.eqb_spec j k) as [->|Hjk]; [|apply Hk; auto].
    destruct (Hk k Hj) as (dn & E & Er & Ev). rewrite Ep in E, Er. cbn [fst snd] in *.
    exists (dn ++ [ALoad p i]). split; [now rewrite <- app_assoc|].
    rewrite execs_snoc. cbn [exec1 fst snd]. split.
    + rewrite Er. f_equal. apply Ev. rewrite E. apply accs_mid. cbn; auto.
    + exact Ev.
  - (* store *)
    destruct (Hk k Ek) as (dn & E & Er & Ev). rewrite Ep in E, Er. cbn [fst snd] in *.
    assert (Hwk : wrs (its k) p i) by (rewrite E; apply wrs_mid; cbn; auto).
    do 2 eexists. split; [reflexivity|].
    split; [intros q; rewrite len_hset; apply Hl|]. split; [exact Hn|]. split.
    + intros j Hj. unfold setp. destruct (Nat.eqb_spec j k) as [->|Hjk].
      * exists (dn ++ [AStore p i f]). split; [now rewrite <- app_assoc|].
        rewrite execs_snoc. cbn [exec1 fst snd]. split; [exact Er|].
        intros q l Hacc.
        assert (Hi2 : i < len (snd (execs dn ([], h0))) p)
          by (rewrite execs_len; cbn; rewrite <- Hl; auto).
        rewrite !rd_hset by auto. rewrite Er.
        destruct (Nat.eqb q p && Nat.eqb l i); auto.
      * destruct (Hk j Hj) as (dj & Ej & Erj & Evj). exists dj. split; [exact Ej|]. split; [exact Erj|].
        intros q l Hacc. destruct (loc_dec q p l i) as [[-> ->]|Hne].
        -- exfalso. eapply (RF k j); eauto.
        -- rewrite <- (Evj q l Hacc). apply (rd_hset_loc h p i (f regs) q l); auto.
           destruct (Nat.eq_dec q p); [right|left]; auto.
    + intros q l Hno. destruct (loc_dec q p l i) as [[-> ->]|Hne].
      * exfalso. eapply Hno; eauto.
      * rewrite <- (Hw q l Hno). apply (rd_hset_loc h p i (f regs) q l); auto.
        destruct (Nat.eq_dec q p); [right|left]; auto.
  - exfalso. apply Eb. rewrite Hl. destruct (Hk k Ek) as (dn & E & _).
    rewrite Ep in E. apply (IB k); auto. rewrite E. apply accs_mid. cbn; auto.
  - exfalso. apply Eb. rewrite Hl. destruct (Hk k Ek) as (dn & E & _).
    rewrite Ep in E. apply (IB k); auto. rewrite E. apply accs_mid. cbn; auto.
Qed.

Lemma Inv_start n its h0 : Inv n its h0 h0 (fun k => (its k, [])).
Proof.
  repeat split; auto. intros k Hk. exists []. repeat split; auto.
Qed.

Lemma Inv_reach n its h0 m c :
  race_free n its -> in_bounds n its h0 -> steps n m (start its h0) c ->
  exists h pool, c = Running h pool /\ Inv n its h0 h pool.
Proof.
  intros RF IB Hs. remember (start its h0) as c0 eqn:E0. induction Hs.
  - subst. do 2 eexists; split; [reflexivity|apply Inv_start].
  - destruct (IHHs E0) as (h & pool & -> & HI). eapply Inv_step; eauto.
Qed.

(** Never out of bounds. *)
Theorem schedule_safe n its h0 m c :
  race_free n its -> in_bounds n its h0 -> steps n m (start its h0) c -> c <> Bad.
Proof. intros RF IB Hs. destruct (Inv_reach _ _ _ _ _ RF IB Hs) as (h & pool & -> & _). discriminate. Qed.

(** No data race in any reachable state. *)
Theorem schedule_race_free n its h0 m c :
  race_free n its -> in_bounds n its h0 -> steps n m (start its h0) c -> ~ racy n c.
Proof.
  intros RF IB Hs. destruct (Inv_reach _ _ _ _ _ RF IB Hs) as (h & pool & -> & (_ & _ & Hk & _)).
  intros (j & k & a & b & aj & ak & rj & rk & p & i & Hj & Hkn & Hjk & Ej & Ek & Hst & Hto).
  destruct (Hk j Hj) as (dj & Dj & _). destruct (Hk k Hkn) as (dk & Dk & _).
  rewrite Ej in Dj. rewrite Ek in Dk. cbn [fst] in *.
  apply (RF j k p i Hj Hkn Hjk).
  - rewrite Dj. apply wrs_mid; auto.
  - rewrite Dk. apply accs_mid; auto.
Qed.

(** Two complete executions end with the same memory. *)
Theorem schedule_deterministic n its h0 m m' h h' pool pool' :
  race_free n its -> in_bounds n its h0 ->
  steps n m (start its h0) (Running h pool) -> complete n pool ->
  steps n m' (start its h0) (Running h' pool') -> complete n pool' ->
  (forall p, mem h p = mem h' p) /\ next h = next h'.
Proof.
  intros RF IB H1 C1 H2 C2.
  destruct (Inv_reach _ _ _ _ _ RF IB H1) as (x & y & E & HI); inversion E; subst x y; clear E.
  destruct (Inv_reach _ _ _ _ _ RF IB H2) as (x & y & E & HI'); inversion E; subst x y; clear E.
  destruct HI as (Hl & Hn & Hk & Hw), HI' as (Hl' & Hn' & Hk' & Hw').
  split; [|congruence].
  intros p. apply mem_len_ext; [congruence|]. intros i _.
  assert (D : forall m, (exists k, k < m /\ wrs (its k) p i) \/ (forall k, k < m -> ~ wrs (its k) p i)).
  { induction m0 as [|m0 [IH|IH]].
    - right; intros; lia.
    - left. destruct IH as (k & ? & ?). exists k; auto.
    - destruct (wrs_dec (its m0) p i) as [W|W].
      + left; exists m0; auto.
      + right. intros k Hk0. destruct (Nat.eq_dec k m0) as [->|]; auto. apply IH; lia. }
  destruct (D n) as [(k & Hkn & W)|No].
  - destruct (Hk k Hkn) as (dn & E & _ & Ev). destruct (Hk' k Hkn) as (dn' & E' & _ & Ev').
    rewrite C1, app_nil_r in E by auto. rewrite C2, app_nil_r in E' by auto.
    rewrite Ev, Ev' by (apply wrs_accs; auto). congruence.
  - rewrite Hw, Hw'; auto.
Qed.

(** Every execution is finite: at most one step per access. *)
Definition work n (pool : nat -> list act * list T) : nat :=
  list_sum (map (fun k => length (fst (pool k))) (seq 0 n)).

Lemma work_setp n pool k s :
  k < n -> S (length (fst s)) = length (fst (pool k)) -> S (work n (setp pool k s)) = work n pool.
Proof.
  unfold work. intros Hk Hs.
  assert (G : forall l, NoDup l ->
    list_sum (map (fun j => length (fst (setp pool k s j))) l) + (if in_dec Nat.eq_dec k l then 1 else 0)
    = list_sum (map (fun j => length (fst (pool j))) l)).
  { induction l as [|a l IH]; intros ND; [reflexivity|].
    inversion ND; subst. specialize (IH H2). cbn [map list_sum fold_right].
    fold (list_sum (map (fun j => length (fst (setp pool k s j))) l)).
    fold (list_sum (map (fun j => length (fst (pool j))) l)).
    rewrite <- IH. unfold setp at 1.
    destruct (Nat.eqb_spec a k) as [->|Hne].
    - destruct (in_dec Nat.eq_dec k (k :: l)) as [_|N]; [|exfalso; apply N; left; auto].
      destruct (in_dec Nat.eq_dec k l); [contradiction|]. lia.
    - destruct (in_dec Nat.eq_dec k l) as [I|I], (in_dec Nat.eq_dec k (a :: l)) as [J|J]; try lia.
      + exfalso; apply J; right; auto.
      + exfalso. destruct J as [J|J]; [congruence|contradiction]. }
  rewrite <- (G (seq 0 n)) by apply seq_NoDup.
  destruct (in_dec Nat.eq_dec k (seq 0 n)) as [_|N]; [lia|].
  exfalso; apply N. apply in_seq. lia.
Qed.

Theorem schedule_terminates n its h0 m c :
  race_free n its -> in_bounds n its h0 -> steps n m (start its h0) c ->
  exists h pool, c = Running h pool /\ m + work n pool = work n (fun k => (its k, [])).
Proof.
  intros RF IB Hs. remember (start its h0) as c0 eqn:E0. induction Hs; subst.
  - do 2 eexists; split; [reflexivity|]. reflexivity.
  - destruct (IHHs eq_refl) as (h & pool & -> & Hm).
    destruct (Inv_reach _ _ _ _ _ RF IB (StS _ _ _ _ _ Hs H)) as (h' & pool' & -> & _).
    exists h', pool'. split; [reflexivity|].
    inversion H; subst; rewrite <- Hm;
      match goal with E : pool _ = _ |- _ => rename E into Ep end.
    + erewrite <- (work_setp n pool k (acts, rd h' p i :: regs)); eauto; [lia|rewrite Ep; auto].
    + erewrite <- (work_setp n pool k (acts, regs)); eauto; [lia|rewrite Ep; auto].
Qed.

(** A state in which no iteration can move is complete. *)
Theorem schedule_progress n pool (h : heap T) :
  (forall c, ~ step n (Running h pool) c) -> complete n pool.
Proof.
  intros H k Hk. destruct (pool k) as [[|a acts] regs] eqn:E; [reflexivity|]. exfalso.
  destruct a as [p i|p i f]; destruct (Nat.lt_ge_cases i (len h p)) as [Hi|Hi].
  - eapply H; eapply SLoad; eauto.
  - eapply H; eapply SBadL; eauto; lia.
  - eapply H; eapply SStore; eauto.
  - eapply H; eapply SBadS; eauto; lia.
Qed.

(** ** The sequential loop is one of the schedules *)

Definition seqrun (its : nat -> list act) (n : nat) (h : heap T) : heap T :=
  fold_left (fun h k => snd (execs (its k) ([], h))) (seq 0 n) h.

Lemma steps_trans n m m' c c' c'' : steps n m c c' -> steps n m' c' c'' -> exists m'', steps n m'' c c''.
Proof.
  intros H1 H2. induction H2.
  - eauto.
  - destruct IHsteps as (x & Hx); auto. exists (S x). econstructor; eauto.
Qed.

(** Running iteration [k] alone to its end. *)
Lemma run_one n k l : forall h pool regs,
  k < n -> pool k = (l, regs) -> (forall p i, accs l p i -> i < len h p) ->
  exists m pool', steps n m (Running h pool) (Running (snd (execs l (regs, h))) pool') /\
    fst (pool' k) = [] /\ forall j, j <> k -> pool' j = pool j.
Proof.
  induction l as [|a l IH]; intros h pool regs Hk E HB.
  - exists 0, pool. split; [constructor|]. rewrite E. auto.
  - assert (Ha : match a with ALoad p i => i < len h p | AStore p i _ => i < len h p end).
    { destruct a; apply HB; eexists; split; try (left; reflexivity); cbn; auto. }
    destruct a as [p i|p i f].
    + destruct (IH h (setp pool k (l, rd h p i :: regs)) (rd h p i :: regs))
        as (m & pool' & Hs & H1 & H2).
      * auto.
      * unfold setp. now rewrite Nat.eqb_refl.
      * intros q j (b & Hb & Ht). apply HB. exists b; split; [right|]; auto.
      * destruct (steps_trans n 1 m (Running h pool) (Running h (setp pool k (l, rd h p i :: regs)))
          (Running (snd (execs l (rd h p i :: regs, h))) pool')) as (m'' & Hm); auto.
        { econstructor; [constructor|]. eapply SLoad; eauto. }
        exists m'', pool'. split; [exact Hm|]. split; auto.
        intros j Hj. rewrite H2 by auto. unfold setp. destruct (Nat.eqb_spec j k); congruence.
    + destruct (IH (hset h p i (f regs)) (setp pool k (l, regs)) regs)
        as (m & pool' & Hs & H1 & H2).
      * auto.
      * unfold setp. now rewrite Nat.eqb_refl.
      * intros q j (b & Hb & Ht). rewrite len_hset. apply HB. exists b; split; [right|]; auto.
      * destruct (steps_trans n 1 m (Running h pool) (Running (hset h p i (f regs)) (setp pool k (l, regs)))
          (Running (snd (execs l (regs, hset h p i (f regs)))) pool')) as (m'' & Hm); auto.
        { econstructor; [constructor|]. eapply SStore; eauto. }
        exists m'', pool'. split; [exact Hm|]. split; auto.
        intros j Hj. rewrite H2 by auto. unfold setp. destruct (Nat.eqb_spec j k); congruence.
Qed.

Lemma seqrun_len its n h p : len (seqrun its n h) p = len h p.
Proof.
  unfold seqrun. generalize (seq 0 n) as l. intros l; revert h; induction l as [|k l IH]; intros h; cbn; auto.
  rewrite IH, execs_len. reflexivity.
Qed.

Lemma seqrun_S its n h : seqrun its (S n) h = snd (execs (its n) ([], seqrun its n h)).
Proof. unfold seqrun. rewrite seq_S, fold_left_app. reflexivity. Qed.

Theorem sequential_is_schedule n its h0 :
  in_bounds n its h0 ->
  exists m pool, steps n m (start its h0) (Running (seqrun its n h0) pool) /\ complete n pool.
Proof.
  intros IB.
  assert (G : forall k, k <= n -> exists m pool,
     steps n m (start its h0) (Running (seqrun its k h0) pool) /\
     (forall j, j < k -> fst (pool j) = []) /\ (forall j, k <= j -> pool j = (its j, []))).
  { induction k as [|k IH]; intros Hk.
    - exists 0, (fun k => (its k, [])). repeat split; [constructor|intros; lia].
    - destruct IH as (m & pool & Hs & Hd & Hr); [lia|].
      destruct (run_one n k (its k) (seqrun its k h0) pool []) as (m' & pool' & Hs' & H1 & H2).
      + lia.
      + apply Hr; lia.
      + intros p i Ha. rewrite seqrun_len. eapply IB; eauto.
      + destruct (steps_trans _ _ _ _ _ _ Hs Hs') as (m'' & Hm).
        rewrite <- seqrun_S in Hm. exists m'', pool'. split; [exact Hm|]. split.
        * intros j Hj. destruct (Nat.eq_dec j k) as [->|]; auto. rewrite H2 by auto. apply Hd; lia.
        * intros j Hj. rewrite H2 by lia. apply Hr; lia. }
  destruct (G n (le_n n)) as (m & pool & Hs & Hd & _). exists m, pool. auto.
Qed.

Theorem schedule_equals_sequential n its h0 m h pool :
  race_free n its -> in_bounds n its h0 ->
  steps n m (start its h0) (Running h pool) -> complete n pool ->
  (forall p, mem h p = mem (seqrun its n h0) p) /\ next h = next (seqrun its n h0).
Proof.
  intros RF IB Hs HC. destruct (sequential_is_schedule n its h0 IB) as (m' & pool' & Hs' & HC').
  eapply schedule_deterministic; eauto.
Qed.

(** ** Connection with the loops of the model *)

(** A loop of the model whose body performs the accesses [its i]. *)
Lemma loop_seqrun (its : nat -> list act) (body : nat -> unit -> M (heap T) unit) n h0 :
  (forall i h, i < n -> (forall p, len h p = len h0 p) ->
     body i tt h = Ok tt (snd (execs (its i) ([], h)))) ->
  for_sz 0 n body tt h0 = Ok tt (seqrun its n h0).
Proof.
  intros Hb.
  assert (P : post (for_sz 0 n body tt) h0 (fun _ h => h = seqrun its n h0)).
  { apply (post_for_sz (fun k _ h => h = seqrun its k h0)); [lia|reflexivity| |auto].
    intros i [] h Hi ->. unfold post. rewrite Hb; [|lia|apply seqrun_len].
    symmetry. apply seqrun_S. }
  unfold post in P. destruct (for_sz 0 n body tt h0) as [[] s| | | | |]; try contradiction. now subst.
Qed.

(** The summary used by the property theorems: the loop terminates sequentially in h', and
    every schedule is safe, race free, finite, and when finished has the memory of h'. *)
Definition all_schedules_agree n its (h0 h' : heap T) : Prop :=
  forall m c, steps n m (start its h0) c ->
    c <> Bad /\ ~ racy n c /\ m <= work n (fun k => (its k, [])) /\
    forall h pool, c = Running h pool -> (forall c', ~ step n c c') ->
      (forall p, mem h p = mem h' p) /\ next h = next h'.

Theorem loop_all_schedules its (body : nat -> unit -> M (heap T) unit) n h0 :
  race_free n its -> in_bounds n its h0 ->
  (forall i h, i < n -> (forall p, len h p = len h0 p) ->
     body i tt h = Ok tt (snd (execs (its i) ([], h)))) ->
  exists h', for_sz 0 n body tt h0 = Ok tt h' /\ all_schedules_agree n its h0 h'.
Proof.
  intros RF IB Hb. exists (seqrun its n h0). split; [apply loop_seqrun; auto|].
  intros m c Hs. split; [eapply schedule_safe; eauto|]. split; [eapply schedule_race_free; eauto|].
  split.
  - destruct (schedule_terminates _ _ _ _ _ RF IB Hs) as (h & pool & _ & E). lia.
  - intros h pool -> Hfin. eapply schedule_equals_sequential; eauto.
    eapply schedule_progress; eauto.
Qed.

End Machine.
Arguments act T : clear implicits.
Arguments config T : clear implicits.
