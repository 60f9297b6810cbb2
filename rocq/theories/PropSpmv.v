(** * Properties C30, C32 and C55; examples for C27-C34 *)
From Coq Require Import Permutation Ring.
From Verif Require Import Base Scalar BaseLemmas Spec Sums Schedules ModelVec ProofVec ProofVecSched ModelMat SpecMat ProofMat
  ProofMatSched ModelSparse SpecSparse ProofPacked ProofSparse ProofSparseAdd ProofSparseCsr PropSparse ProofSpmv.
Local Open Scope nat_scope.

(** ** C55 *)

Theorem C55_spmv_distinct : forall T (Op : Ops T) n (A : csr T) alpha x beta y (h : heap T),
  csr_wf A n -> fits_u32 n = true -> (forall c, In c (scol A) -> c < len h x) -> n <= len h y -> x <> y ->
  exists h', sp_mul_core n (scol A) (sptr A) alpha (sval A) x beta y h = Ok y h' /\
    all_schedules_agree n (sp_acts A alpha x beta y) h h'.
Proof. intros. apply sp_schedules; auto. Qed.

(** With y = x (which the dense kernel guards against) the row loop is a data race: here iteration
    1 is about to store y[1] while iteration 0 is about to load it. *)
Theorem C55_spmv_inplace_refuted : exists (A : csr Z) (h : heap Z), csr_wf A 2 /\
  (forall c, In c (scol A) -> c < len h 0) /\ 2 <= len h 0 /\
  exists m c, steps 2 m (start (sp_acts A 1%Z 0 0%Z 0) h) c /\ racy 2 c.
Proof.
  exists (mkCsr [1; 1]%Z [0; 1; 2] [1; 0]), (heap_of [[3; 4]%Z]).
  split. { unfold csr_wf. cbn. split; auto. split; auto. split; auto. split; auto. intros [|[|i]] Hi; cbn; lia. }
  split. { intros c [<-|[<-|[]]]; unfold len; cbn; lia. } split; [unfold len; cbn; lia|].
  exists 3. eexists. split.
  - eapply StS; [eapply StS; [eapply StS; [apply St0|]|]|].
    + eapply (SLoad _ _ _ 0); [lia|reflexivity|vm_compute; lia].
    + eapply (SStore _ _ _ 0); [lia|reflexivity|vm_compute; lia].
    + eapply (SLoad _ _ _ 1); [lia|reflexivity|vm_compute; lia].
  - exists 1, 0. do 6 eexists. exists 0, 1. split; [lia|]. split; [lia|]. split; [lia|].
    split; [reflexivity|]. split; [reflexivity|]. split; cbn; auto.
Qed.

(** ** C30: unit matrices *)

Theorem C30_coo_unit : forall T (Op : Ops T) St srt n (s : St),
  sort_contract srt -> 0 < n -> fits_u32 n = true ->
  exists A, coo_unit srt n s = Ok A s /\ coo_wf A /\ coo_shape A s = Ok (n, n) s /\ coo_nnz A = n /\
    forall i j, i < n -> j < n -> coo_get A i j s = Ok (Id i j) s.
Proof.
  intros T Op St srt n s HS Hn Hf. unfold coo_unit. unfold bind at 1. rewrite ids_loop by auto.
  assert (L1 : length (seq 0 n) = length (repeat (one : T) n)) by now rewrite repeat_length, seq_length.
  assert (Hf' : fits_u32 (length (repeat (one : T) n)) = true) by now rewrite repeat_length.
  destruct (C27_construct T Op St srt (repeat one n) (seq 0 n) (seq 0 n) s HS L1 L1 Hf') as (A & E & W & P).
  rewrite diag_zip in P. pose proof W as (W1 & W2 & W3).
  assert (LA : length (cval A) = n).
  { apply Permutation_length in P. unfold coo_entries, diag_entries in P.
    rewrite zip3_length, map_length, seq_length in P by auto. exact P. }
  exists A. split; auto. split; auto. split.
  - destruct (C34_coo_shape T Op St A s W ltac:(lia)) as (n' & m' & Es & Hs & _).
    apply (is_shape_perm _ _ _ _ P) in Hs. destruct (shape_unique _ _ _ _ _ Hs (diag_shape n Hn)) as [-> ->]. exact Es.
  - split; [exact LA|]. intros i j Hi Hj. destruct (coo_get_ok A i j s W1 W2 ltac:(now rewrite LA)) as (x & Ex & Rx).
    apply (reads_perm _ _ _ _ _ P) in Rx. apply diag_reads in Rx; auto. congruence.
Qed.

Theorem C30_csr_unit : forall T (Op : Ops T) St n (s : St),
  0 < n -> fits_u32 n = true ->
  exists A, csr_unit n s = Ok A s /\ csr_wf A n /\ csr_shape A s = Ok (n, n) s /\ csr_nnz A = n /\
    forall i j, i < n -> j < n -> csr_get A i j s = Ok (Id i j) s.
Proof.
  intros T Op St n s Hn Hf. eexists. split; [apply csr_unit_ok; auto|]. pose proof (csr_unit_wf (T := T) n) as W.
  split; [exact W|]. split; [|split].
  - unfold csr_shape, bind. cbn [scol sptr].
    destruct (max_elem_ok (seq 0 n) s) as (x & Ex & Ix & Mx). { destruct n; [lia|discriminate]. }
    rewrite Ex. unfold ret. rewrite seq_length. apply in_seq in Ix. specialize (Mx (n - 1) ltac:(apply in_seq; lia)).
    do 2 f_equal; lia.
  - unfold csr_nnz. cbn [sval]. apply repeat_length.
  - intros i j Hi Hj. destruct (csr_get_ok _ n i j s W Hi) as (x & Ex & Rx). rewrite csr_unit_entries in Rx.
    apply diag_reads in Rx; auto. congruence.
Qed.

(** ** C32: matrix-vector product *)

Section Spmv.
Context (T : Type) (Op : Ops T).

(** What row [i] of a list of stored entries gives, in the order of the code. *)
Definition row_value (es : triples T) (alpha : T) (x : nat -> T) (start : T) : T :=
  fold_left (fun acc e => add acc (mul (mul alpha (snd e)) (x (snd (fst e))))) es start.

Lemma spmv_val_fold h (A : csr T) alpha x beta y i :
  spmv_val h A alpha x beta y i = row_value (csr_row A i) alpha (rd h x) (mul beta (rd h y i)).
Proof.
  unfold spmv_val, row_value, csr_row. set (a := nth i (sptr A) 0). set (c := nth (i + 1) (sptr A) 0 - a).
  generalize (mul beta (rd h y i)) as acc. rewrite (seq_off a c), map_map.
  induction c as [|c IH]; intros acc; [reflexivity|]. rewrite seq_S, map_app, fold_left_app. cbn [Nat.add map fold_left fsum].
  rewrite <- IH. reflexivity.
Qed.

(** Bit-exact form: any scalar type, y different from x; duplicates are processed one by one. *)
Theorem C32_rows_partial : forall dbg n m (A : csr T) alpha x beta y (h : heap T),
  csr_wf A n -> scol A <> [] -> csr_shape A h = Ok (n, m) h -> fits_u32 n = true ->
  len h x = m -> len h y = n -> x <> y ->
  exists h', sp_mul dbg alpha A x beta y h = Ok y h' /\ unchanged_except [y] h h' /\ next h' = next h /\ len h' y = n /\
    forall i, i < n -> rd h' y i = row_value (csr_row A i) alpha (rd h x) (mul beta (rd h y i)).
Proof.
  intros dbg n m A alpha x beta y h W Hne Hsh Hf Hx Hy Nxy.
  assert (Hc : forall c, In c (scol A) -> c < len h x).
  { intros c Hin. destruct (max_elem_ok (scol A) h Hne) as (mx & Ex & _ & Mx). unfold csr_shape, bind in Hsh. rewrite Ex in Hsh.
    injection Hsh as _ <-. specialize (Mx c Hin). lia. }
  destruct (post_ok _ _ _ (sp_rows n A alpha x beta y h W Hf Hc ltac:(lia) Nxy)) as (r & h' & E & -> & (Fr & Nx & Ly & V)).
  exists h'. split.
  - unfold sp_mul. cbv [bind vsize assert_ noexcept]. rewrite Hsh. cbn [fst snd]. unfold len in Hx, Hy.
    rewrite Hx, Nat.eqb_refl, andb_false_r. cbn [negb]. rewrite Hy, Nat.eqb_refl, andb_false_r, E. reflexivity.
  - split; [intros q Hq; apply Fr; intros ->; apply Hq; left; auto|]. split; auto. split; [lia|].
    intros i Hi. rewrite V. destruct (Nat.ltb_spec i n); [|lia]. apply spmv_val_fold.
Qed.

(** In a debug build the assertions compare the sizes with shape(), whose column count is the
    largest stored column plus one. *)
Theorem C32_assert : forall n m (A : csr T) alpha x beta y (h : heap T),
  csr_shape A h = Ok (n, m) h -> len h x <> m \/ len h y <> n -> sp_mul true alpha A x beta y h = AssertFail.
Proof.
  intros n m A alpha x beta y h Hsh Hne. unfold sp_mul. cbv [bind vsize assert_ noexcept]. rewrite Hsh. cbn [fst snd andb].
  unfold len in Hne. destruct (Nat.eqb_spec m (length (mem h x))); cbn [negb]; [|reflexivity].
  destruct (Nat.eqb_spec n (length (mem h y))); cbn [negb]; [|reflexivity]. lia.
Qed.

Section RingSpmv.
Context {R : IsRing T Op}.
Add Ring Tring3 : (ring_th (IsRing := R)).

(** In a ring, when no position is stored twice: the product with the matrix of element reads. *)
Theorem C32_matches_reads_partial : forall dbg n m (A : csr T) (a : nat -> nat -> T) alpha x beta y (h : heap T),
  csr_wf A n -> scol A <> [] -> csr_shape A h = Ok (n, m) h -> fits_u32 n = true ->
  distinct (csr_entries A n) ->
  (forall i j, i < n -> j < m -> csr_get A i j h = Ok (a i j) h) ->
  len h x = m -> len h y = n -> x <> y ->
  exists h', sp_mul dbg alpha A x beta y h = Ok y h' /\ unchanged_except [y] h h' /\ next h' = next h /\ len h' y = n /\
    forall i, i < n -> rd h' y i = add (mul alpha (mvmul m a (rd h x) i)) (mul beta (rd h y i)).
Proof.
  intros dbg n m A a alpha x beta y h W Hne Hsh Hf D Ha Hx Hy Nxy.
  destruct (C32_rows_partial dbg n m A alpha x beta y h W Hne Hsh Hf Hx Hy Nxy) as (h' & E & U & Nx & L & V).
  exists h'. split; auto. split; auto. split; auto. split; auto. intros i Hi. rewrite V by auto.
  rewrite <- spmv_val_fold. rewrite (spmv_val_sum h A n m) by (auto; intros c Hin;
    destruct (max_elem_ok (scol A) h Hne) as (mx & Ex & _ & Mx); unfold csr_shape, bind in Hsh; rewrite Ex in Hsh;
    injection Hsh as _ <-; specialize (Mx c Hin); lia).
  do 2 f_equal. unfold mvmul. apply bsum_ext. intros k Hk. f_equal.
  destruct (csr_get_ok A n i k h W Hi) as (v & Ev & Rv). rewrite (Ha i k Hi Hk) in Ev. injection Ev as <-.
  now apply total_reads.
Qed.

(** Positions stored several times count with the sum of their values. *)
Theorem C32_duplicates_sum : forall dbg n m (A : csr T) alpha x beta y (h : heap T),
  csr_wf A n -> scol A <> [] -> csr_shape A h = Ok (n, m) h -> fits_u32 n = true ->
  len h x = m -> len h y = n -> x <> y ->
  exists h', sp_mul dbg alpha A x beta y h = Ok y h' /\
    forall i, i < n -> rd h' y i = add (mul alpha (mvmul m (total (csr_entries A n)) (rd h x) i)) (mul beta (rd h y i)).
Proof.
  intros dbg n m A alpha x beta y h W Hne Hsh Hf Hx Hy Nxy.
  destruct (C32_rows_partial dbg n m A alpha x beta y h W Hne Hsh Hf Hx Hy Nxy) as (h' & E & U & Nx & L & V).
  exists h'. split; auto. intros i Hi. rewrite V by auto. rewrite <- spmv_val_fold. apply spmv_val_sum; auto.
  intros c Hin. destruct (max_elem_ok (scol A) h Hne) as (mx & Ex & _ & Mx); unfold csr_shape, bind in Hsh; rewrite Ex in Hsh;
    injection Hsh as _ <-; specialize (Mx c Hin); lia.
Qed.

(** The operator form: a new vector A x. *)
Theorem C32_operator : forall dbg n m (A : csr T) (a : nat -> nat -> T) x (h : heap T),
  csr_wf A n -> scol A <> [] -> csr_shape A h = Ok (n, m) h -> fits_u32 n = true ->
  distinct (csr_entries A n) ->
  (forall i j, i < n -> j < m -> csr_get A i j h = Ok (a i j) h) ->
  isvec h x m ->
  exists y h', sp_op_mul dbg A x h = Ok y h' /\ newvec h h' y n (mvmul m a (rd h x)).
Proof.
  intros dbg n m A a x h W Hne Hsh Hf D Ha (Lx & Hx).
  assert (Hc : forall c, In c (scol A) -> c < m).
  { intros c Hin. destruct (max_elem_ok (scol A) h Hne) as (mx & Ex & _ & Mx). unfold csr_shape, bind in Hsh. rewrite Ex in Hsh.
    injection Hsh as _ <-. specialize (Mx c Hin). lia. }
  set (h1 := halloc h (repeat zero n)).
  assert (Hxy : x <> next h) by lia.
  assert (M1 : forall q, q <> next h -> mem h1 q = mem h q) by (intros; apply mem_halloc_other; auto).
  assert (L1 : len h1 (next h) = n). { unfold len, h1. rewrite mem_halloc_same. apply repeat_length. }
  assert (L2 : len h1 x = m). { unfold len. rewrite M1 by auto. exact Hx. }
  destruct (post_ok _ _ _ (sp_rows n A one x zero (next h) h1 W Hf ltac:(now rewrite L2) ltac:(lia) Hxy)) as (r & h' & E & -> & (Fr & Nx & Ly & V)).
  exists (next h), h'. split.
  - unfold sp_op_mul. cbv [bind vsize assert_ noexcept]. rewrite Hsh. cbn [fst snd]. unfold len in Hx.
    rewrite Hx, !Nat.eqb_refl, andb_false_r. change (alloc (repeat zero n) h) with (Ok (next h) h1). cbv iota beta. rewrite E. reflexivity.
  - assert (Nn : next h1 = S (next h)) by reflexivity. split; [|split; [lia|split]].
    + split; [lia|]. intros q Hq. rewrite Fr by lia. apply M1. lia.
    + split; lia.
    + intros i Hi. rewrite V. destruct (Nat.ltb_spec i n); [|lia]. rewrite (spmv_val_sum h1 A n m) by auto.
      transitivity (mvmul m (total (csr_entries A n)) (rd h1 x) i); [ring|]. unfold mvmul. apply bsum_ext. intros k Hk. f_equal.
      * destruct (csr_get_ok A n i k h W Hi) as (v & Ev & Rv). rewrite (Ha i k Hi Hk) in Ev. injection Ev as <-.
        now apply total_reads.
      * unfold rd. now rewrite M1 by auto.
Qed.

(** C30, last part: the sparse unit matrix times a vector. *)
Theorem C30_unit_times_vector : forall dbg n x (h : heap T), 0 < n -> fits_u32 n = true -> isvec h x n ->
  exists A y h', csr_unit n h = Ok A h /\ sp_op_mul dbg A x h = Ok y h' /\ newvec h h' y n (rd h x).
Proof.
  intros dbg n x h Hn Hf Hx. destruct (C30_csr_unit T Op (heap T) n h Hn Hf) as (A & E & W & Es & En & Hg).
  assert (A = mkCsr (repeat one n) (seq 0 (n + 1)) (seq 0 n)) as EA by (rewrite csr_unit_ok in E by auto; congruence).
  destruct (C32_operator dbg n n A Id x h W) as (y & h' & E' & N1 & N2 & N3 & N4); auto.
  - rewrite EA. cbn. destruct n; [lia|discriminate].
  - rewrite EA, csr_unit_entries. apply diag_distinct.
  - exists A, y, h'. split; auto. split; auto. split; auto. split; auto. split; auto.
    intros i Hi. rewrite N4 by auto. unfold mvmul. rewrite (bsum_single n _ i).
    + unfold Id. rewrite Nat.eqb_refl. ring.
    + exact Hi.
    + intros k Hk Hne. unfold Id. destruct (Nat.eqb_spec i k); [congruence|]. ring.
Qed.
End RingSpmv.
End Spmv.

(** ** False parts of C31 and C32 *)

(** C31: row 0 of A is empty; 1 is added to A(1,0) instead of A(0,0). *)
Definition exA : coo Z := mkCoo [5]%Z [1] [0].
Definition exB : coo Z := mkCoo [1]%Z [0] [0].
Theorem C31_wrong_position_refuted : exists A B : coo Z, coo_wf A /\ coo_wf B /\ distinct (coo_entries A) /\ distinct (coo_entries B) /\
  exists A', coo_add_assign (Some B) isort A = Ok tt A' /\
    coo_get A 0 0 tt = Ok 0%Z tt /\ coo_get B 0 0 tt = Ok 1%Z tt /\ coo_get A' 0 0 tt = Ok 0%Z tt /\
    coo_get A 1 0 tt = Ok 5%Z tt /\ coo_get B 1 0 tt = Ok 0%Z tt /\ coo_get A' 1 0 tt = Ok 6%Z tt.
Proof.
  assert (N : forall p : nat * nat, NoDup [p]) by (intros; constructor; [intros []|constructor]).
  exists exA, exB. split; [split; [reflexivity|split; [reflexivity|intros a b; cbn; lia]]|].
  split; [split; [reflexivity|split; [reflexivity|intros a b; cbn; lia]]|]. split; [apply N|]. split; [apply N|].
  exists (mkCoo [6]%Z [1] [0]). vm_compute. repeat split.
Qed.
(** C31: the last row of A is empty; the merge reads past the end. *)
Theorem C31_undefined_refuted : exists A B : coo Z, coo_wf A /\ coo_wf B /\ distinct (coo_entries A) /\ distinct (coo_entries B) /\
  cval A <> [] /\ coo_add_assign (Some B) isort A = UB.
Proof.
  assert (N : forall p : nat * nat, NoDup [p]) by (intros; constructor; [intros []|constructor]).
  exists exB, exA. split; [split; [reflexivity|split; [reflexivity|intros a b; cbn; lia]]|].
  split; [split; [reflexivity|split; [reflexivity|intros a b; cbn; lia]]|]. split; [apply N|]. split; [apply N|].
  split; [discriminate|]. vm_compute. reflexivity.
Qed.

(** C32, in place: y = A y with A = [[0,1],[1,0]] should swap (3,4); the code gives (4,4). *)
Definition exP : csr Z := mkCsr [1; 1]%Z [0; 1; 2] [1; 0].
Theorem C32_inplace_refuted : exists (A : csr Z) (h : heap Z),
  csr_wf A 2 /\ csr_shape A h = Ok (2, 2) h /\ len h 0 = 2 /\
  exists h', sp_mul true 1%Z A 0 0%Z 0 h = Ok 0 h' /\
    csr_get A 1 0 h = Ok 1%Z h /\ csr_get A 1 1 h = Ok 0%Z h /\ mem h 0 = [3; 4]%Z /\
    rd h' 0 1 <> (1 * 3 + 0 * 4)%Z.
Proof.
  exists exP, (heap_of [[3; 4]%Z]).
  split. { unfold csr_wf, exP. cbn. split; auto. split; auto. split; auto. split; auto. intros [|[|i]] Hi; cbn; lia. }
  split; [reflexivity|]. split; [reflexivity|].
  destruct (sp_mul true 1%Z exP 0 0%Z 0 (heap_of [[3; 4]%Z])) as [r h'| | | | |] eqn:E; vm_compute in E; try discriminate.
  injection E as <- <-. eexists. split; [reflexivity|]. split; [reflexivity|]. split; [reflexivity|]. split; [reflexivity|]. vm_compute. discriminate.
Qed.

(** C32, duplicates: position (0,0) stored as 2 and 3 reads 2 but multiplies as 5. *)
Theorem C32_duplicates_refuted : exists (A : csr Z) (h : heap Z),
  csr_wf A 1 /\ csr_shape A h = Ok (1, 1) h /\ csr_get A 0 0 h = Ok 2%Z h /\ mem h 0 = [10]%Z /\
  exists h', sp_mul true 1%Z A 0 0%Z 1 h = Ok 1 h' /\ mem h' 1 = [50]%Z.
Proof.
  exists (mkCsr [2; 3]%Z [0; 2] [0; 0]), (heap_of [[10]%Z; [0]%Z]).
  split. { unfold csr_wf. cbn. split; auto. split; auto. split; auto. split; auto. intros [|i] Hi; cbn; lia. }
  split; [reflexivity|]. split; [reflexivity|]. split; [reflexivity|].
  destruct (sp_mul true 1%Z (mkCsr [2; 3]%Z [0; 2] [0; 0]) 0 0%Z 1 (heap_of [[10]%Z; [0]%Z])) as [r h'| | | | |] eqn:E; vm_compute in E; try discriminate.
  injection E as <- <-. eexists. split; [reflexivity|]. reflexivity.
Qed.

(** ** Concrete instances meeting the hypotheses *)

Definition ex27 := coo_of (S := unit) isort [10; 20; 30; 40]%Z [2; 0; 1; 0] [0; 2; 1; 0].
Definition ex27A : coo Z := mkCoo [40; 20; 30; 10]%Z [0; 0; 1; 2] [0; 2; 1; 0].
Example C27_nonvacuous : ex27 tt = Ok ex27A tt /\ coo_get ex27A 0 2 tt = Ok 20%Z tt /\ coo_get ex27A 2 2 tt = Ok 0%Z tt.
Proof. vm_compute. repeat split. Qed.
Example C27_contract : sort_contract isort.
Proof. exact isort_contract. Qed.
Lemma ex27_wf : coo_wf ex27A.
Proof.
  split; [reflexivity|]. split; [reflexivity|]. intros a b Hab Hb. cbn in Hb.
  do 4 (destruct b as [|b]; [do 4 (destruct a as [|a]; [cbn; unfold pos_le; cbn; lia|]); lia|]); lia.
Qed.
Lemma ex27_distinct : distinct (coo_entries ex27A).
Proof. unfold distinct. cbn. repeat constructor; cbn; intuition congruence. Qed.
Example C28_nonvacuous : coo_set 1 1 7%Z ex27A = Ok tt (mkCoo [40; 20; 7; 10]%Z [0; 0; 1; 2] [0; 2; 1; 0])
  /\ coo_set 1 2 7%Z ex27A = Throw OutOfRange ex27A.
Proof. vm_compute. repeat split. Qed.
Example C29_nonvacuous : csr_of_coo ex27A tt = Ok (mkCsr [40; 20; 30; 10]%Z [0; 2; 3; 4] [0; 2; 1; 0]) tt.
Proof. vm_compute. reflexivity. Qed.
Example C30_nonvacuous : coo_unit (T := Z) isort 3 tt = Ok (mkCoo [1; 1; 1]%Z [0; 1; 2] [0; 1; 2]) tt.
Proof. vm_compute. reflexivity. Qed.

(** A pattern that the merge handles, with an entry of B in a row that is empty in A. *)
Definition ex31A : coo Z := mkCoo [1; 2]%Z [0; 2] [1; 2].
Definition ex31B : coo Z := mkCoo [10; 20; 30; 40]%Z [0; 0; 1; 2] [0; 1; 1; 2].
Example C31_nonvacuous : addable Z ex31A ex31B /\ rows_fit Z ex31B /\
  coo_add_assign (Some ex31B) isort ex31A = Ok tt (mkCoo [10; 21; 30; 42]%Z [0; 0; 1; 2] [0; 1; 1; 2]).
Proof.
  split; [|split].
  - intros i j b Hin. cbn in Hin. destruct Hin as [E|[E|[E|[E|[]]]]]; injection E as <- <- <-.
    + left. exists 1, 1%Z. cbn. auto.
    + left. exists 1, 1%Z. cbn. auto.
    + right. exists (2, 2). split.
      * split; [cbn; auto|]. split; [cbn; lia|]. intros q [<-|[<-|[]]] Hq; cbn in *; unfold pos_le; cbn; lia.
      * intros b' Hb. cbn in Hb. intuition congruence.
    + left. exists 2, 2%Z. cbn. auto.
  - intros i j b Hin. cbn in Hin. destruct Hin as [E|[E|[E|[E|[]]]]]; injection E as <- <- <-; reflexivity.
  - vm_compute. reflexivity.
Qed.
Example C31_self_nonvacuous : coo_add_assign None isort ex27A = Ok tt (mkCoo [80; 40; 60; 20]%Z [0; 0; 1; 2] [0; 2; 1; 0]).
Proof. vm_compute. reflexivity. Qed.
Definition ex32 : csr Z := mkCsr [40; 20; 30; 10]%Z [0; 2; 3; 4] [0; 2; 1; 0].
Example C32_nonvacuous : csr_wf ex32 3 /\ csr_shape ex32 tt = Ok (3, 3) tt /\ distinct (csr_entries ex32 3) /\
  peek (sp_mul true 2%Z ex32 0 10%Z 1 (heap_of [[1; 2; 3]; [4; 5; 6]]%Z)) (fun y => y) = Some [240; 170; 80]%Z.
Proof.
  split. { unfold csr_wf, ex32. cbn. split; auto. split; auto. split; auto. split; auto. intros [|[|[|i]]] Hi; cbn; lia. }
  split; [reflexivity|]. split; [|vm_compute; reflexivity].
  unfold distinct. cbn. repeat constructor; cbn; intuition congruence.
Qed.
Example C33_nonvacuous : coo_scale 3%Z ex27A = Ok tt (mkCoo [120; 60; 90; 30]%Z [0; 0; 1; 2] [0; 2; 1; 0]) /\
  coo_neg ex27A tt = Ok (mkCoo [-40; -20; -30; -10]%Z [0; 0; 1; 2] [0; 2; 1; 0]) tt.
Proof. vm_compute. repeat split. Qed.
Example C34_nonvacuous : coo_shape ex27A tt = Ok (3, 3) tt /\ coo_nnz ex27A = 4.
Proof. vm_compute. repeat split. Qed.

Print Assumptions C55_spmv_distinct.
Print Assumptions C27_construct.
Print Assumptions C27_read.
Print Assumptions C28_csr_stored.
Print Assumptions C29_convert.
Print Assumptions C30_unit_times_vector.
Print Assumptions C31_reads_partial.
Print Assumptions C31_add_self.
Print Assumptions C32_matches_reads_partial.
Print Assumptions C33_csr_reads.
Print Assumptions C34_csr_shape.
