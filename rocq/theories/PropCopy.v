(** * Property C35: copies are independent values *)
From Coq Require Import Lia.
From Verif Require Import Base Scalar BaseLemmas Spec ModelVec ModelMat SpecMat ModelPacked ModelSparse.
Local Open Scope nat_scope.

Section Vec.
Context {T : Type} {Op : Ops T}.
Implicit Types h : heap T.

(** A history of element writes [v[i] = x], and what it means for one object, independently of
    how memory works: the writes to the other objects do not count. *)
Definition write : Type := ptr * nat * T.
Fixpoint put (l : list T) (i : nat) (x : T) : list T :=
  match l, i with [], _ => [] | _ :: l, 0 => x :: l | y :: l, S i => y :: put l i x end.
Fixpoint after (p : ptr) (l : list T) (ws : list write) : list T :=
  match ws with
  | [] => l
  | (q, i, x) :: ws => after p (if Nat.eqb q p then put l i x else l) ws
  end.
(** The history as a program. *)
Fixpoint writes (ws : list write) : M (heap T) unit :=
  match ws with [] => ret tt | (q, i, x) :: ws => vec_put q i x ;; writes ws end.

Lemma put_length l i x : length (put l i x) = length l.
Proof. revert i; induction l as [|y l IH]; intros [|i]; cbn; auto. Qed.
Lemma put_set l i x : i < length l -> put l i x = set_nth i x l.
Proof. revert i; induction l as [|y l IH]; intros [|i] H; cbn in *; auto; try lia. f_equal. apply IH. lia. Qed.

Lemma writes_ok ws h : (forall q i x, In (q, i, x) ws -> i < len h q) ->
  exists h', writes ws h = Ok tt h' /\ next h' = next h /\ forall p, mem h' p = after p (mem h p) ws.
Proof.
  revert h. induction ws as [|[[q i] x] ws IH]; intros h H.
  - exists h. split; [reflexivity|]. split; [reflexivity|]. reflexivity.
  - pose proof (H q i x (or_introl eq_refl)) as Hi.
    pose (h1 := hset h q i x).
    assert (E1 : vec_put q i x h = Ok tt h1).
    { unfold vec_put, store. fold (len h q). apply Nat.ltb_lt in Hi. now rewrite Hi. }
    destruct (IH h1) as (h' & E & N & P).
    + intros q' i' x' Hin. unfold h1. rewrite len_hset. eapply H. right. exact Hin.
    + exists h'. split; [cbn [writes]; unfold bind; now rewrite E1|]. split; [unfold h1 in N; now rewrite next_hset in N|].
      intros p. rewrite P. cbn [after]. f_equal. unfold h1. destruct (Nat.eqb_spec q p) as [->|].
      * rewrite put_set by exact Hi. unfold hset, upd. cbn [mem]. now rewrite Nat.eqb_refl.
      * now rewrite mem_hset_other by auto.
Qed.

(** Copy construction (DynVec, SizedVec): the copy reads as the source, nothing existing changed,
    and after any history of writes to source and copy each of them holds exactly what its own
    writes put there. *)
Theorem C35_vector_copy : forall v h, v < next h -> exists w h1, vec_copy v h = Ok w h1 /\
  w <> v /\ ext h h1 /\ w < next h1 /\ mem h1 w = mem h v /\
  forall ws, (forall q i x, In (q, i, x) ws -> (q = v \/ q = w) /\ i < len h v) ->
    exists h2, writes ws h1 = Ok tt h2 /\
      mem h2 v = after v (mem h v) ws /\ mem h2 w = after w (mem h v) ws /\
      forall q, q < next h -> q <> v -> mem h2 q = mem h q.
Proof.
  intros v h Hv. exists (next h), (halloc h (mem h v)).
  assert (Mv : mem (halloc h (mem h v)) v = mem h v) by (apply mem_halloc_other; lia).
  assert (Mw : mem (halloc h (mem h v)) (next h) = mem h v) by apply mem_halloc_same.
  split; [reflexivity|]. split; [lia|]. split. { split; [unfold halloc; cbn [next]; lia|]. intros q Hq. apply mem_halloc_other. lia. }
  split; [unfold halloc; cbn [next]; lia|]. split; [exact Mw|].
  intros ws Hws. destruct (writes_ok ws (halloc h (mem h v))) as (h2 & E & N & P).
  - intros q i x Hin. destruct (Hws q i x Hin) as [[->| ->] Hi]; unfold len; rewrite ?Mv, ?Mw; exact Hi.
  - exists h2. split; [exact E|]. rewrite !P, Mv, Mw. split; [reflexivity|]. split; [reflexivity|].
    intros q Hq Hne. rewrite P. rewrite mem_halloc_other by lia. revert Hws. generalize (mem h q). clear P E.
    induction ws as [|[[q' i] x] ws IH]; intros l Hws; [reflexivity|]. cbn [after].
    destruct (Hws q' i x (or_introl eq_refl)) as [Hq' _].
    destruct (Nat.eqb_spec q' q) as [->|]; [exfalso; lia|]. apply IH. intros; apply (Hws q0 i0 x0); now right.
Qed.

(** Copy assignment; self-assignment leaves everything as it was. *)
Theorem C35_vector_assign : forall d v h, d < next h -> v < next h -> exists h1, vec_assign d v h = Ok d h1 /\
  mem h1 d = mem h v /\ (forall q, q <> d -> mem h1 q = mem h q) /\
  (d = v -> forall q, mem h1 q = mem h q) /\
  (d <> v -> forall ws, (forall q i x, In (q, i, x) ws -> (q = v \/ q = d) /\ i < len h v) ->
    exists h2, writes ws h1 = Ok tt h2 /\
      mem h2 v = after v (mem h v) ws /\ mem h2 d = after d (mem h v) ws).
Proof.
  intros d v h Hd Hv. exists (upd h d (mem h v)).
  assert (Md : mem (upd h d (mem h v)) d = mem h v) by (unfold upd; cbn [mem]; now rewrite Nat.eqb_refl).
  assert (Mo : forall q, q <> d -> mem (upd h d (mem h v)) q = mem h q).
  { intros q Hq. unfold upd. cbn [mem]. destruct (Nat.eqb_spec q d); [tauto|auto]. }
  split; [reflexivity|]. split; [exact Md|]. split; [exact Mo|]. split.
  - intros -> q. destruct (Nat.eq_dec q v) as [->|]; auto.
  - intros Ne ws Hws. destruct (writes_ok ws (upd h d (mem h v))) as (h2 & E & N & P).
    + intros q i x Hin. destruct (Hws q i x Hin) as [[->| ->] Hi]; unfold len; rewrite ?Md, ?Mo by auto; exact Hi.
    + exists h2. split; [exact E|]. rewrite !P, Md, Mo by auto. auto.
Qed.

(** ** Dense matrices *)

(** A history of element writes A(i,j) = x on two matrices, [true] for the first one, and the
    value the history leaves at (i,j): the last value written there, if any. *)
Definition mwrite : Type := bool * nat * nat * T.
Fixpoint mwrites (A B : mat) (ws : list mwrite) : M (heap T) unit :=
  match ws with [] => ret tt | (b, i, j, x) :: ws => mat_put (if b then A else B) i j x ;; mwrites A B ws end.
Fixpoint mafter (b : bool) (f : nat -> nat -> T) (ws : list mwrite) (i j : nat) : T :=
  match ws with
  | [] => f i j
  | (b', i', j', x) :: ws =>
      mafter b (fun i j => if Bool.eqb b b' && (Nat.eqb i i' && Nat.eqb j j') then x else f i j) ws i j
  end.

Lemma mafter_ext b n m ws : forall f g, (forall i j, i < n -> j < m -> f i j = g i j) ->
  forall i j, i < n -> j < m -> mafter b f ws i j = mafter b g ws i j.
Proof.
  induction ws as [|[[[b' i'] j'] x] ws IH]; intros f g H i j Hi Hj; cbn [mafter]; auto.
  apply IH; auto. intros p q Hp Hq. cbv beta. now rewrite H.
Qed.

Lemma pos_inj3 m i j i' j' : j < m -> j' < m -> i * m + j = i' * m + j' -> i = i' /\ j = j'.
Proof. intros H1 H2 E. assert (i = i') by nia. subst. lia. Qed.

Lemma mput_ok h A n m i j x : ismat h A n m -> i < n -> j < m ->
  exists h1, mat_put A i j x h = Ok tt h1 /\ next h1 = next h /\ ismat h1 A n m /\
    (forall q, q <> mp A -> mem h1 q = mem h q) /\
    forall p q, p < n -> q < m -> mget h1 A p q = if Nat.eqb p i && Nat.eqb q j then x else mget h A p q.
Proof.
  intros (A1 & A2 & A3 & A4) Hi Hj. assert (L : i * mc A + j < len h (mp A)) by (rewrite A3, A4; nia).
  exists (hset h (mp A) (i * mc A + j) x).
  split. { unfold mat_put, store. fold (len h (mp A)). apply Nat.ltb_lt in L. now rewrite L. }
  split; [apply next_hset|]. split. { split; [now rewrite next_hset|]. split; [auto|]. split; [auto|]. now rewrite len_hset. }
  split. { intros q Hq. now apply mem_hset_other. }
  intros p q Hp Hq. unfold mget. rewrite A3 in *.
  destruct (Nat.eqb_spec p i) as [->|]; destruct (Nat.eqb_spec q j) as [->|]; cbn [andb].
  - now apply rd_hset_same.
  - apply rd_hset_idx. lia.
  - apply rd_hset_idx. intros E. apply pos_inj3 in E; auto. tauto.
  - apply rd_hset_idx. intros E. apply pos_inj3 in E; auto. tauto.
Qed.

Lemma mwrites_ok A B n m ws : mp A <> mp B -> (forall b i j x, In (b, i, j, x) ws -> i < n /\ j < m) ->
  forall h, ismat h A n m -> ismat h B n m ->
  exists h', mwrites A B ws h = Ok tt h' /\ next h' = next h /\ ismat h' A n m /\ ismat h' B n m /\
    (forall q, q <> mp A -> q <> mp B -> mem h' q = mem h q) /\
    (forall i j, i < n -> j < m -> mget h' A i j = mafter true (mget h A) ws i j) /\
    (forall i j, i < n -> j < m -> mget h' B i j = mafter false (mget h B) ws i j).
Proof.
  intros Ne. induction ws as [|[[[b i] j] x] ws IH]; intros Hws h HA HB.
  - exists h. cbn. repeat (split; auto).
  - destruct (Hws b i j x (or_introl eq_refl)) as [Hi Hj].
    assert (Hws' : forall b i j x, In (b, i, j, x) ws -> i < n /\ j < m) by (intros; eapply Hws; right; eauto).
    assert (MO : forall h1 (D : mat), (forall q, q <> mp (if b then A else B) -> mem h1 q = mem h q) -> mp D <> mp (if b then A else B) ->
      next h1 = next h -> ismat h D n m -> ismat h1 D n m /\ forall p q, mget h1 D p q = mget h D p q).
    { intros h1 D M Q N (D1 & D2 & D3 & D4). split.
      - split; [lia|]. split; [auto|]. split; [auto|]. unfold len. rewrite M by auto. exact D4.
      - intros p q. unfold mget, rd. now rewrite M. }
    destruct b.
    + destruct (mput_ok h A n m i j x HA Hi Hj) as (h1 & E1 & N1 & I1 & M1 & V1).
      destruct (MO h1 B M1 ltac:(congruence) N1 HB) as [IB VB].
      destruct (IH Hws' h1 I1 IB) as (h' & E & N & IA' & IB' & O & VA & VB').
      exists h'. split; [cbn [mwrites]; unfold bind; now rewrite E1|]. split; [congruence|]. split; [auto|]. split; [auto|].
      split; [intros q Q1 Q2; rewrite O by auto; now apply M1|]. split.
      * intros p q Hp Hq. rewrite VA by auto. cbn [mafter Bool.eqb andb]. apply (mafter_ext true n m); auto.
      * intros p q Hp Hq. rewrite VB' by auto. cbn [mafter Bool.eqb andb]. apply (mafter_ext false n m); auto.
    + destruct (mput_ok h B n m i j x HB Hi Hj) as (h1 & E1 & N1 & I1 & M1 & V1).
      destruct (MO h1 A M1 Ne N1 HA) as [IA VA].
      destruct (IH Hws' h1 IA I1) as (h' & E & N & IA' & IB' & O & VA' & VB).
      exists h'. split; [cbn [mwrites]; unfold bind; now rewrite E1|]. split; [congruence|]. split; [auto|]. split; [auto|].
      split; [intros q Q1 Q2; rewrite O by auto; now apply M1|]. split.
      * intros p q Hp Hq. rewrite VA' by auto. cbn [mafter Bool.eqb andb]. apply (mafter_ext true n m); auto.
      * intros p q Hp Hq. rewrite VB by auto. cbn [mafter Bool.eqb andb]. apply (mafter_ext false n m); auto.
Qed.

Theorem C35_matrix_copy : forall A n m h, ismat h A n m -> exists B h1, mat_copy A h = Ok B h1 /\
  newmat h h1 B n m (mget h A) /\
  forall ws, (forall b i j x, In (b, i, j, x) ws -> i < n /\ j < m) ->
    exists h2, mwrites A B ws h1 = Ok tt h2 /\ ismat h2 A n m /\ ismat h2 B n m /\
      (forall i j, i < n -> j < m -> mget h2 A i j = mafter true (mget h A) ws i j) /\
      (forall i j, i < n -> j < m -> mget h2 B i j = mafter false (mget h A) ws i j).
Proof.
  intros A n m h (A1 & A2 & A3 & A4). pose (h1 := halloc h (mem h (mp A))). pose (B := mkMat (next h) (mr A) (mc A)).
  assert (N1 : next h1 = S (next h)) by reflexivity.
  assert (MA : mem h1 (mp A) = mem h (mp A)) by (apply mem_halloc_other; lia).
  assert (MB : mem h1 (next h) = mem h (mp A)) by apply mem_halloc_same.
  assert (IA : ismat h1 A n m) by (split; [lia|]; split; [auto|]; split; [auto|]; unfold len; now rewrite MA).
  assert (IB : ismat h1 B n m) by (split; [cbn; lia|]; split; [auto|]; split; [auto|]; unfold len; cbn [B mp]; now rewrite MB).
  assert (VA : forall i j, mget h1 A i j = mget h A i j) by (intros; unfold mget, rd; now rewrite MA).
  assert (VB : forall i j, mget h1 B i j = mget h A i j) by (intros; unfold mget, rd; cbn [B mp mc]; now rewrite MB).
  exists B, h1. split; [reflexivity|]. split.
  { split; [split; [lia|]; intros q Hq; apply mem_halloc_other; lia|]. split; [cbn; lia|]. auto. }
  intros ws Hws. destruct (mwrites_ok A B n m ws) with (h := h1) as (h2 & E & _ & IA2 & IB2 & _ & WA & WB); auto.
  { cbn. lia. }
  exists h2. split; [exact E|]. split; [auto|]. split; [auto|]. split; intros i j Hi Hj.
  - rewrite WA by auto. apply (mafter_ext true n m); auto.
  - rewrite WB by auto. apply (mafter_ext false n m); auto.
Qed.

Theorem C35_matrix_assign : forall D A n m h, mp D < next h -> ismat h A n m -> exists D' h1, mat_assign D A h = Ok D' h1 /\
  mp D' = mp D /\ setmat h h1 D' n m (mget h A) /\
  (mp D = mp A -> forall q, mem h1 q = mem h q) /\
  (mp D <> mp A -> forall ws, (forall b i j x, In (b, i, j, x) ws -> i < n /\ j < m) ->
    exists h2, mwrites A D' ws h1 = Ok tt h2 /\ ismat h2 A n m /\ ismat h2 D' n m /\
      (forall i j, i < n -> j < m -> mget h2 A i j = mafter true (mget h A) ws i j) /\
      (forall i j, i < n -> j < m -> mget h2 D' i j = mafter false (mget h A) ws i j)).
Proof.
  intros D A n m h HD (A1 & A2 & A3 & A4). pose (h1 := upd h (mp D) (mem h (mp A))). pose (D' := mkMat (mp D) (mr A) (mc A)).
  assert (MD : mem h1 (mp D) = mem h (mp A)) by (unfold h1, upd; cbn [mem]; now rewrite Nat.eqb_refl).
  assert (MO : forall q, q <> mp D -> mem h1 q = mem h q).
  { intros q Hq. unfold h1, upd. cbn [mem]. destruct (Nat.eqb_spec q (mp D)); [tauto|auto]. }
  assert (N1 : next h1 = next h) by reflexivity.
  assert (ID : ismat h1 D' n m) by (split; [cbn; lia|]; split; [auto|]; split; [auto|]; unfold len; cbn [D' mp]; now rewrite MD).
  assert (VD : forall i j, mget h1 D' i j = mget h A i j) by (intros; unfold mget, rd; cbn [D' mp mc]; now rewrite MD).
  exists D', h1. split; [reflexivity|]. split; [reflexivity|]. split.
  { split; [split; [lia|auto]|]. auto. }
  split. { intros E q. destruct (Nat.eq_dec q (mp D)) as [->|]; [rewrite MD; congruence|auto]. }
  intros Ne ws Hws.
  assert (MA : mem h1 (mp A) = mem h (mp A)) by auto.
  assert (IA : ismat h1 A n m) by (split; [lia|]; split; [auto|]; split; [auto|]; unfold len; now rewrite MA).
  assert (VA : forall i j, mget h1 A i j = mget h A i j) by (intros; unfold mget, rd; now rewrite MA).
  destruct (mwrites_ok A D' n m ws) with (h := h1) as (h2 & E & _ & IA2 & ID2 & _ & WA & WD); auto.
  exists h2. split; [exact E|]. split; [auto|]. split; [auto|]. split; intros i j Hi Hj.
  - rewrite WA by auto. apply (mafter_ext true n m); auto.
  - rewrite WD by auto. apply (mafter_ext false n m); auto.
Qed.

(** ** Sparse matrices: the hand-written copy assignments make every later access read as the
    source does, and run identically under every further program. *)
Theorem C35_coo_assign : forall (A B : coo T), exists C, coo_assign A B = Ok tt C /\
  (forall X (k : M (coo T) X), k C = k A) /\
  (forall St (s : St) i j, coo_get C i j s = coo_get A i j s) /\ (A = B -> C = B).
Proof. intros [v r c] B. eexists. split; [reflexivity|]. cbn. repeat split; auto. Qed.
Theorem C35_csr_assign : forall (A B : csr T), exists C, csr_assign A B = Ok tt C /\
  (forall X (k : M (csr T) X), k C = k A) /\
  (forall St (s : St) i j, csr_get C i j s = csr_get A i j s) /\ (A = B -> C = B).
Proof. intros [v r c] B. eexists. split; [reflexivity|]. cbn. repeat split; auto. Qed.
End Vec.

(** ** Containers held by value (packed and sparse matrices)

    Two objects of the same class; a history applies arbitrary member functions to one or the
    other.  Each ends as if the operations on the other had not happened. *)
Section Value.
Context {C : Type}.
Definition on_left (m : M C unit) : M (C * C) unit := fun s =>
  match m (fst s) with Ok _ c => Ok tt (c, snd s) | Throw e c => Throw e (c, snd s)
  | Terminate => Terminate | AssertFail => AssertFail | UB => UB | Diverge => Diverge end.
Definition on_right (m : M C unit) : M (C * C) unit := fun s =>
  match m (snd s) with Ok _ c => Ok tt (fst s, c) | Throw e c => Throw e (fst s, c)
  | Terminate => Terminate | AssertFail => AssertFail | UB => UB | Diverge => Diverge end.
Fixpoint run_pair (ops : list (bool * M C unit)) : M (C * C) unit :=
  match ops with [] => ret tt | (b, m) :: ops => (if b then on_left m else on_right m) ;; run_pair ops end.
Fixpoint run_one (b : bool) (ops : list (bool * M C unit)) : M C unit :=
  match ops with [] => ret tt | (b', m) :: ops => if Bool.eqb b b' then m ;; run_one b ops else run_one b ops end.
Theorem C35_by_value : forall ops c d c' d', run_pair ops (c, d) = Ok tt (c', d') ->
  run_one true ops c = Ok tt c' /\ run_one false ops d = Ok tt d'.
Proof.
  induction ops as [|[b m] ops IH]; intros c d c' d'; cbn [run_pair run_one].
  - unfold ret. intros [=]; subst; auto.
  - destruct b; cbn [Bool.eqb]; unfold bind at 1; unfold on_left, on_right; cbn [fst snd].
    + destruct (m c) as [[] c1|e c1| | | |] eqn:E; try discriminate. intros H. apply IH in H as [H1 H2].
      split; [unfold bind; now rewrite E|auto].
    + destruct (m d) as [[] d1|e d1| | | |] eqn:E; try discriminate. intros H. apply IH in H as [H1 H2].
      split; [auto|unfold bind; now rewrite E].
Qed.
End Value.

(** ** Concrete histories *)
Example C35_ex : let h := heap_of [[1; 2; 3]%Z] in exists h1 h2, vec_copy 0 h = Ok 1 h1 /\
  writes [(0, 0, 9%Z); (1, 2, 7%Z); (0, 0, 8%Z)] h1 = Ok tt h2 /\ mem h2 0 = [8; 2; 3]%Z /\ mem h2 1 = [1; 2; 7]%Z.
Proof. eexists. eexists. repeat split. Qed.
Example C35_mat_ex : let h := heap_of [[1; 2; 3; 4]%Z] in let A := mkMat 0 2 2 in exists B h1 h2, mat_copy A h = Ok B h1 /\
  mwrites A B [(true, 0, 1, 9%Z); (false, 1, 0, 7%Z)] h1 = Ok tt h2 /\
  mem h2 (mp A) = [1; 9; 3; 4]%Z /\ mem h2 (mp B) = [1; 2; 7; 4]%Z.
Proof. eexists. eexists. eexists. repeat split. Qed.
Example C35_value_ex : exists c d, run_pair [(true, csr_set 0 1 5%Z); (false, csr_set 0 0 6%Z)]
    (mkCsr [1; 2]%Z [0; 2] [0; 1], mkCsr [1; 2]%Z [0; 2] [0; 1]) = Ok tt (c, d) /\ sval c = [1; 5]%Z /\ sval d = [6; 2]%Z.
Proof. eexists. eexists. repeat split. Qed.

Print Assumptions C35_vector_copy.
Print Assumptions C35_vector_assign.
Print Assumptions C35_matrix_copy.
Print Assumptions C35_matrix_assign.
Print Assumptions C35_coo_assign.
Print Assumptions C35_csr_assign.
Print Assumptions C35_by_value.
