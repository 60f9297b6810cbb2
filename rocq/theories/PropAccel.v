(** * Property C86: addition and subtraction built with LALIB_USE_ACCELERATOR *)
From Verif Require Import Base Scalar BaseLemmas Spec SpecMat Schedules ModelVec ModelMat ModelAccel
  ProofVec ProofVecSched PropVec.
Local Open Scope nat_scope.

(** [agrees m1 m2 h d]: from host memory [h] and device memory [d], the accelerated [m1] has the
    outcome that the ordinary [m2] has from [h], and does not touch the device memory. *)
Definition agrees {T A} (m1 : M (heap T * heap T) A) (m2 : M (heap T) A) (h d : heap T) : Prop :=
  m1 (h, d) = match m2 h with
              | Ok a h' => Ok a (h', d)
              | Throw e h' => Throw e (h', d)
              | Terminate => Terminate
              | AssertFail => AssertFail
              | UB => UB
              | Diverge => Diverge
              end.

Section Agree.
Context {T : Type} {O : Ops T}.
Variables (dv : device) (h d : heap T).

(** A size at which the kernel works on the host memory. *)
Definition on_host_size (n : nat) : Prop := dv = SharedMem \/ n < 16.

Lemma ag_bind {A B} (m1 : M (heap T * heap T) A) m2 (f1 : A -> M (heap T * heap T) B) f2 h0 :
  agrees m1 m2 h0 d -> (forall a h', m2 h0 = Ok a h' -> agrees (f1 a) (f2 a) h' d) ->
  agrees (bind m1 f1) (bind m2 f2) h0 d.
Proof.
  unfold agrees, bind. intros E F. rewrite E. destruct (m2 h0) as [a h1|e h1| | | |]; auto.
Qed.
Lemma ag_ret {A} (a : A) h0 : agrees (ret a) (ret a) h0 d.
Proof. reflexivity. Qed.
Lemma ag_host {A} (m : M (heap T) A) h0 : agrees (on_host m) m h0 d.
Proof. unfold agrees, on_host. cbn [fst snd]. destruct (m h0); reflexivity. Qed.
Lemma ag_noexcept {A} (m1 : M (heap T * heap T) A) m2 h0 : agrees m1 m2 h0 d -> agrees (noexcept m1) (noexcept m2) h0 d.
Proof. unfold agrees, noexcept. intros ->. destruct (m2 h0); reflexivity. Qed.
Lemma ag_assert dbg c h0 : agrees (assert_ dbg c) (assert_ dbg c) h0 d.
Proof. unfold agrees, assert_. destruct (dbg && negb c); reflexivity. Qed.

Lemma ag_add_core v1 v2 vr n h0 : on_host_size n -> agrees (add_core_acc dv v1 v2 vr n) (add_core v1 v2 vr n) h0 d.
Proof.
  intros [->|L]; unfold add_core_acc, add_core.
  - apply ag_bind; [|intros; apply ag_ret]. destruct (Nat.ltb n 16); [apply ag_host|].
    unfold add_core_accelerator, add_core_parallel, target. apply ag_bind; [apply ag_host|intros; apply ag_ret].
  - apply Nat.ltb_lt in L. rewrite L. apply ag_bind; [apply ag_host|intros; apply ag_ret].
Qed.
Lemma ag_sub_core v1 v2 vr n h0 : on_host_size n -> agrees (sub_core_acc dv v1 v2 vr n) (sub_core v1 v2 vr n) h0 d.
Proof.
  intros [->|L]; unfold sub_core_acc, sub_core.
  - apply ag_bind; [|intros; apply ag_ret]. destruct (Nat.ltb n 16); [apply ag_host|].
    unfold sub_core_accelerator, sub_core_parallel, target. apply ag_bind; [apply ag_host|intros; apply ag_ret].
  - apply Nat.ltb_lt in L. rewrite L. apply ag_bind; [apply ag_host|intros; apply ag_ret].
Qed.
End Agree.

Ltac ag :=
  intros;
  repeat match goal with
  | H : bind _ _ _ = _ |- _ => idtac
  | H : vsize _ _ = Ok _ _ |- _ => inversion H; clear H; subst
  | H : check_size _ _ _ = Ok _ _ |- _ =>
      unfold check_size, ret, throw in H; destruct (Nat.eqb _ _) eqn:?; inversion H; clear H; subst
  | H : contents _ _ = Ok _ _ |- _ => inversion H; clear H; subst
  | |- agrees (noexcept _) _ _ _ => apply ag_noexcept
  | |- agrees (bind _ _) _ _ _ => apply ag_bind; [|intros]
  | |- agrees (ret _) _ _ _ => apply ag_ret
  | |- agrees (on_host _) _ _ _ => apply ag_host
  | |- agrees (assert_ _ _) _ _ _ => apply ag_assert
  | |- agrees (add_core_acc _ _ _ _ _) _ _ _ => apply ag_add_core
  | |- agrees (sub_core_acc _ _ _ _ _) _ _ _ => apply ag_sub_core
  | |- agrees (add_s_acc _ _ _ _ _) _ _ _ => unfold add_s_acc, add_s
  | |- agrees (sub_s_acc _ _ _ _ _) _ _ _ => unfold sub_s_acc, sub_s
  | |- agrees (addm_acc _ _ _ _ _) _ _ _ => unfold addm_acc, addm
  | |- agrees (subm_acc _ _ _ _ _) _ _ _ => unfold subm_acc, subm
  | |- agrees (add_d_acc _ _ _ _) _ _ _ => unfold add_d_acc, add_d
  | |- agrees (sub_d_acc _ _ _ _) _ _ _ => unfold sub_d_acc, sub_d
  end; auto.

(** The same outcome as without the macro, for every vector and matrix operation that uses the
    kernels, whenever the device works on the host memory or the operands have fewer than 16
    elements. *)
Theorem C86_vectors_partial : forall T (O : Ops T) dv v1 v2 vr N (h d : heap T),
  (dv = SharedMem \/ (length (mem h v1) < 16 /\ v1 < next h)) ->
  agrees (add_d_acc dv v1 v2 vr) (add_d v1 v2 vr) h d /\
  agrees (sub_d_acc dv v1 v2 vr) (sub_d v1 v2 vr) h d /\
  agrees (op_add_d_acc dv v1 v2) (op_add_d v1 v2) h d /\
  agrees (op_sub_d_acc dv v1 v2) (op_sub_d v1 v2) h d /\
  (dv = SharedMem \/ N < 16 ->
   agrees (add_s_acc dv N v1 v2 vr) (add_s N v1 v2 vr) h d /\
   agrees (sub_s_acc dv N v1 v2 vr) (sub_s N v1 v2 vr) h d /\
   agrees (add_sd_acc dv N v1 v2 vr) (add_sd N v1 v2 vr) h d /\
   agrees (add_ds_acc dv N v1 v2 vr) (add_ds N v1 v2 vr) h d /\
   agrees (sub_ds_acc dv N v1 v2 vr) (sub_ds N v1 v2 vr) h d /\
   agrees (op_add_s_acc dv N v1 v2) (op_add_s N v1 v2) h d /\
   agrees (op_sub_s_acc dv N v1 v2) (op_sub_s N v1 v2) h d).
Proof.
  intros T O dv v1 v2 vr N h d H.
  assert (K : on_host_size dv (length (mem h v1))) by (destruct H as [E|[E _]]; [now left|now right]).
  assert (K' : forall l p h', alloc l h = Ok p h' -> on_host_size dv (length (mem h' v1))).
  { intros l p h' E. inversion E; subst. destruct H as [E'|[E' E'']]; [now left|right]. cbn [mem].
    destruct (Nat.eqb_spec v1 (next h)); [lia|exact E']. }
  split; [|split; [|split; [|split]]].
  - ag.
  - ag.
  - unfold op_add_d_acc, op_add_d. ag. eapply K'; eauto.
  - unfold op_sub_d_acc, op_sub_d. ag. eapply K'; eauto.
  - intros HN. assert (KN : on_host_size dv N) by exact HN. clear - KN.
    repeat split; unfold add_sd_acc, add_sd, add_ds_acc, add_ds, sub_ds_acc, sub_ds, op_add_s_acc, op_add_s, op_sub_s_acc, op_sub_s; ag.
Qed.

Theorem C86_matrices_partial : forall T (O : Ops T) dv dbg A B C (h d : heap T),
  (dv = SharedMem \/ mr A * mc A < 16) ->
  agrees (addm_acc dv dbg A B C) (addm dbg A B C) h d /\
  agrees (subm_acc dv dbg A B C) (subm dbg A B C) h d /\
  agrees (op_addm_acc dv dbg A B) (op_addm dbg A B) h d /\
  agrees (op_subm_acc dv dbg A B) (op_subm dbg A B) h d.
Proof.
  intros T O dv dbg A B C h d H. assert (K : on_host_size dv (mr A * mc A)) by exact H. clear - K.
  repeat split; unfold op_addm_acc, op_addm, op_subm_acc, op_subm; ag.
Qed.

(** The device loop may run its iterations in any order and in parallel: every schedule gives the
    sequential result (in the memory the loop works on). *)
Theorem C86_schedules : forall T (O : Ops T) v1 v2 vr n (h d : heap T),
  fits_u32 n = true -> n <= len h v1 -> n <= len h v2 -> n <= len h vr ->
  (exists h', add_core_acc SharedMem v1 v2 vr n (h, d) = Ok vr (h', d) /\
     all_schedules_agree n (add_acts v1 v2 vr) h h') /\
  (exists h', sub_core_acc SharedMem v1 v2 vr n (h, d) = Ok vr (h', d) /\
     all_schedules_agree n (sub_acts v1 v2 vr) h h').
Proof.
  intros T O v1 v2 vr n h d F L1 L2 Lr. split.
  - destruct (C02_add T O v1 v2 vr n h F L1 L2 Lr) as (h' & E & S). exists h'. split; auto.
    pose proof (ag_add_core SharedMem d v1 v2 vr n h (or_introl eq_refl)) as A. unfold agrees in A. now rewrite A, E.
  - destruct (C02_sub T O v1 v2 vr n h F L1 L2 Lr) as (h' & E & S). exists h'. split; auto.
    pose proof (ag_sub_core SharedMem d v1 v2 vr n h (or_introl eq_refl)) as A. unfold agrees in A. now rewrite A, E.
Qed.

(** ** Devices with their own memory *)

Section Own.
Context {T : Type} {O : Ops T}.
Variable present : ptr -> bool.
Lemma own_add_ub v1 v2 vr n s : present v1 && present v2 && present vr = false -> 16 <= n ->
  add_core_acc (T := T) (OwnMem present) v1 v2 vr n s = UB.
Proof.
  intros P L. unfold add_core_acc, add_core_accelerator, target. rewrite P.
  destruct (Nat.ltb_spec n 16); [lia|]. reflexivity.
Qed.
Lemma own_sub_ub v1 v2 vr n s : present v1 && present v2 && present vr = false -> 16 <= n ->
  sub_core_acc (T := T) (OwnMem present) v1 v2 vr n s = UB.
Proof.
  intros P L. unfold sub_core_acc, sub_core_accelerator, target. rewrite P.
  destruct (Nat.ltb_spec n 16); [lia|]. reflexivity.
Qed.
Lemma own_add_dev v1 v2 vr n (h d d' : heap T) : present v1 = true -> present v2 = true -> present vr = true -> 16 <= n ->
  add_core v1 v2 vr n d = Ok vr d' -> add_core_acc (OwnMem present) v1 v2 vr n (h, d) = Ok vr (h, d').
Proof.
  intros P1 P2 Pr L. unfold add_core, add_core_acc, add_core_parallel, add_core_accelerator, target.
  rewrite P1, P2, Pr. destruct (Nat.ltb_spec n 16); [lia|]. unfold on_device, bind, ret. cbn [andb fst snd].
  destruct (for_u32 0 n _ tt d); intros E; inversion E; subst; reflexivity.
Qed.
Lemma own_sub_dev v1 v2 vr n (h d d' : heap T) : present v1 = true -> present v2 = true -> present vr = true -> 16 <= n ->
  sub_core v1 v2 vr n d = Ok vr d' -> sub_core_acc (OwnMem present) v1 v2 vr n (h, d) = Ok vr (h, d').
Proof.
  intros P1 P2 Pr L. unfold sub_core, sub_core_acc, sub_core_parallel, sub_core_accelerator, target.
  rewrite P1, P2, Pr. destruct (Nat.ltb_spec n 16); [lia|]. unfold on_device, bind, ret. cbn [andb fst snd].
  destruct (for_u32 0 n _ tt d); intros E; inversion E; subst; reflexivity.
Qed.
End Own.

(** An operand or result that the program has not mapped: undefined from 16 elements on. *)
Theorem C86_unmapped : forall T (O : Ops T) present v1 v2 vr (h d : heap T),
  (present v1 = false \/ present v2 = false \/ present vr = false) ->
  length (mem h v1) = length (mem h v2) -> 16 <= length (mem h v1) ->
  add_d_acc (OwnMem present) v1 v2 vr (h, d) = UB /\ sub_d_acc (OwnMem present) v1 v2 vr (h, d) = UB.
Proof.
  intros T O present v1 v2 vr h d P L G.
  assert (PP : present v1 && present v2 && present vr = false).
  { destruct P as [-> |[-> | ->]]; auto; now rewrite ?andb_false_r. }
  unfold add_d_acc, sub_d_acc, bind, on_host, vsize, check_size. cbn [fst snd]. rewrite <- L, Nat.eqb_refl. unfold ret.
  rewrite own_add_ub, own_sub_ub by auto. auto.
Qed.

(** [v1 + v2] and [v1 - v2] write to a vector that did not exist before the call, so no program
    can have mapped it: undefined for every vector and matrix of 16 or more elements. *)
Theorem C86_operators_undefined : forall T (O : Ops T) present v1 v2 (h d : heap T),
  (forall p, present p = true -> p < next h) -> v1 < next h -> v2 < next h ->
  length (mem h v1) = length (mem h v2) -> 16 <= length (mem h v1) ->
  op_add_d_acc (OwnMem present) v1 v2 (h, d) = UB /\ op_sub_d_acc (OwnMem present) v1 v2 (h, d) = UB /\
  op_add_s_acc (OwnMem present) (length (mem h v1)) v1 v2 (h, d) = UB /\
  op_sub_s_acc (OwnMem present) (length (mem h v1)) v1 v2 (h, d) = UB.
Proof.
  intros T O present v1 v2 h d P V1 V2 L G.
  assert (N : present (next h) = false) by (destruct (present (next h)) eqn:E; auto; apply P in E; lia).
  assert (PP : present v1 && present v2 && present (next h) = false) by (now rewrite N, andb_false_r).
  set (h1 := halloc h (mem h v1)).
  assert (M1 : mem h1 v1 = mem h v1) by (apply mem_halloc_other; lia).
  assert (M2 : mem h1 v2 = mem h v2) by (apply mem_halloc_other; lia).
  destruct (C86_unmapped T O present v1 v2 (next h) h1 d) as [A B]; [auto|congruence|now rewrite M1|].
  repeat split.
  - unfold op_add_d_acc, bind at 1 2, on_host at 1 2, contents, alloc. cbn [fst snd].
    change (mkHeap _ _) with h1. unfold bind. now rewrite A.
  - unfold op_sub_d_acc, bind at 1 2, on_host at 1 2, contents, alloc. cbn [fst snd].
    change (mkHeap _ _) with h1. unfold bind. now rewrite B.
  - unfold op_add_s_acc, noexcept at 1, bind at 1 2, on_host at 1 2, contents, alloc. cbn [fst snd].
    unfold add_s_acc, noexcept, bind. now rewrite own_add_ub.
  - unfold op_sub_s_acc, noexcept at 1, bind at 1 2, on_host at 1 2, contents, alloc. cbn [fst snd].
    unfold sub_s_acc, noexcept, bind. now rewrite own_sub_ub.
Qed.

Theorem C86_matrix_operators_undefined : forall T (O : Ops T) present A B n m (h d : heap T),
  (forall p, present p = true -> p < next h) -> ismat h A n m -> ismat h B n m -> 16 <= n * m ->
  op_addm_acc (OwnMem present) true A B (h, d) = UB /\ op_subm_acc (OwnMem present) true A B (h, d) = UB.
Proof.
  intros T O present A B n m h d P (_ & RA & CA & _) (_ & RB & CB & _) G.
  assert (N : present (next h) = false) by (destruct (present (next h)) eqn:E; auto; apply P in E; lia).
  unfold op_addm_acc, op_subm_acc, mat_copy, noexcept, bind, on_host, contents, alloc, ret. cbn [fst snd].
  unfold addm_acc, subm_acc, noexcept, bind, assert_, shape_eqb. cbn [mr mc mp].
  rewrite RA, CA, RB, CB, !Nat.eqb_refl. cbn [andb negb].
  rewrite own_add_ub, own_sub_ub by (auto; now rewrite N, andb_false_r). auto.
Qed.

(** All three mapped: the device copies are added and the host memory, i.e. everything the library's
    accessors return, stays exactly as it was. *)
Theorem C86_mapped_host_unchanged : forall T (O : Ops T) present v1 v2 vr (h d : heap T),
  present v1 = true -> present v2 = true -> present vr = true ->
  fits_u32 (len h v1) = true -> len h v1 = len h v2 -> 16 <= len h v1 ->
  len d v1 = len h v1 -> len d v2 = len h v1 -> len d vr = len h v1 ->
  (exists d', add_d_acc (OwnMem present) v1 v2 vr (h, d) = Ok vr (h, d') /\
     mem d' vr = map2 add (mem d v1) (mem d v2) /\ unchanged_except [vr] d d') /\
  (exists d', sub_d_acc (OwnMem present) v1 v2 vr (h, d) = Ok vr (h, d') /\
     mem d' vr = map2 sub (mem d v1) (mem d v2) /\ unchanged_except [vr] d d').
Proof.
  intros T O present v1 v2 vr h d P1 P2 Pr F L G D1 D2 Dr.

  split.
  - destruct (C01_add_dyn T O v1 v2 vr d) as (d' & E & M' & U); [congruence..|].
    exists d'. split; [|auto]. unfold add_d, bind, vsize, check_size in E.
    change (length (mem d v1)) with (len d v1) in E. change (length (mem d v2)) with (len d v2) in E.
    rewrite D1, D2, Nat.eqb_refl in E. unfold ret at 1 in E.
    destruct (add_core v1 v2 vr (len h v1) d) as [r g| | | | |] eqn:EC; try discriminate. inversion E; subst.
    assert (r = vr). { unfold add_core, bind, ret in EC. destruct (if Nat.ltb _ _ then _ else _); inversion EC; auto. } subst r.
    unfold add_d_acc, bind, on_host, vsize, check_size. cbn [fst snd].
    change (length (mem h v1)) with (len h v1). change (length (mem h v2)) with (len h v2). rewrite <- L, Nat.eqb_refl.
    unfold ret. now rewrite (own_add_dev present v1 v2 vr (len h v1) h d d').
  - destruct (C01_sub_dyn T O v1 v2 vr d) as (d' & E & M' & U); [congruence..|].
    exists d'. split; [|auto]. unfold sub_d, bind, vsize, check_size in E.
    change (length (mem d v1)) with (len d v1) in E. change (length (mem d v2)) with (len d v2) in E.
    rewrite D1, D2, Nat.eqb_refl in E. unfold ret at 1 in E.
    destruct (sub_core v1 v2 vr (len h v1) d) as [r g| | | | |] eqn:EC; try discriminate. inversion E; subst.
    assert (r = vr). { unfold sub_core, bind, ret in EC. destruct (if Nat.ltb _ _ then _ else _); inversion EC; auto. } subst r.
    unfold sub_d_acc, bind, on_host, vsize, check_size. cbn [fst snd].
    change (length (mem h v1)) with (len h v1). change (length (mem h v2)) with (len h v2). rewrite <- L, Nat.eqb_refl.
    unfold ret. now rewrite (own_sub_dev present v1 v2 vr (len h v1) h d d').
Qed.

(** So the claim that the option does not change results is false: 16 ones plus 16 twos is undefined
    on a device that has nothing mapped, and is still 16 zeros on the host when everything is mapped. *)
Definition unmapped : ptr -> bool := fun _ => false.
Definition acc_heap : heap Z := heap_of [repeat 1%Z 16; repeat 2%Z 16; repeat 0%Z 16].
Theorem C86_refuted :
  ~ (forall T (O : Ops T) dv v1 v2 vr (h d : heap T),
       v1 < next h -> v2 < next h -> vr < next h -> (forall p, mem d p = mem h p) ->
       length (mem h v1) = length (mem h v2) -> length (mem h vr) = length (mem h v1) ->
       agrees (add_d_acc dv v1 v2 vr) (add_d v1 v2 vr) h d).
Proof.
  intros C. specialize (C Z ZOps (OwnMem unmapped) 0 1 2 acc_heap acc_heap).
  assert (X : agrees (add_d_acc (OwnMem unmapped) 0 1 2) (add_d 0 1 2) acc_heap acc_heap) by (apply C; cbn; auto; lia).
  clear C. unfold agrees in X. destruct (C86_unmapped Z ZOps unmapped 0 1 2 acc_heap acc_heap) as [U _]; [auto|reflexivity|cbn; lia|].
  rewrite U in X. destruct (C01_add_dyn Z ZOps 0 1 2 acc_heap) as (h' & E & _); [reflexivity..|]. rewrite E in X. discriminate.
Qed.
Theorem C86_mapped_refuted : exists present (h d : heap Z) d',
  (forall p, mem d p = mem h p) /\ add_d_acc (OwnMem present) 0 1 2 (h, d) = Ok 2 (h, d') /\
  mem h 0 = repeat 1%Z 16 /\ mem h 1 = repeat 2%Z 16 /\ mem h 2 = repeat 0%Z 16 /\ mem d' 2 = repeat 3%Z 16.
Proof.
  destruct (C86_mapped_host_unchanged Z ZOps (fun _ => true) 0 1 2 acc_heap acc_heap) as [(d' & E & M' & _) _]; [try reflexivity; cbn; lia..|].
  exists (fun _ => true), acc_heap, acc_heap, d'. repeat split; auto.
Qed.

(** Non-vacuity: 15 elements, and 16 elements in unified shared memory. *)
Definition acc_heap2 : heap Z := heap_of [repeat 1%Z 15; repeat 2%Z 15; repeat 5%Z 16; repeat 6%Z 16].
Definition seen (r : res (heap Z * heap Z) ptr) : option (list Z) :=
  match r with Ok p (h, _) => Some (mem h p) | _ => None end.
Example C86_nonvacuous :
  seen (op_add_d_acc (OwnMem unmapped) 0 1 (acc_heap2, acc_heap2)) = Some (repeat 3%Z 15) /\
  seen (op_sub_d_acc SharedMem 2 3 (acc_heap2, acc_heap2)) = Some (repeat (-1)%Z 16) /\
  op_add_d_acc (OwnMem (fun p => Nat.ltb p 4)) 2 3 (acc_heap2, acc_heap2) = UB.
Proof. repeat split; vm_compute; reflexivity. Qed.

Print Assumptions C86_vectors_partial.
Print Assumptions C86_matrices_partial.
Print Assumptions C86_schedules.
Print Assumptions C86_operators_undefined.
Print Assumptions C86_mapped_host_unchanged.
