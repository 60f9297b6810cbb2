(** * Properties C02 (matrix part), C11-C17, C19: dense matrices *)
From Coq Require Import Ring Field QArith Qcanon Floats.
From Verif Require Import Base Scalar BaseLemmas Spec Sums Schedules ModelVec ModelMat SpecMat
  ProofVec ProofMat ProofMatOps ProofMatSched ProofMatProp.
Local Open Scope nat_scope.

Ltac run L := let P := fresh "PP" in pose proof L as P; apply post_ok in P;
  let r := fresh "r" in let h' := fresh "h'" in let E := fresh "E" in let H := fresh "H" in
  destruct P as (r & h' & E & H); cbv beta in H.

(** Example memory: two 2x2 matrices (buffers 0, 1), a 2-vector, a 2x3 matrix, a 3-vector. *)
Definition exm : heap Z := heap_of [[1; 2; 3; 4]%Z; [5; 6; 7; 8]%Z; [1; -1]%Z; [1; 2; 3; 4; 5; 6]%Z; [1; 0; 2]%Z].
Definition exA := mkMat 0 2 2.
Definition exB := mkMat 1 2 2.
Definition exC := mkMat 3 2 3.
Lemma exA_ok : ismat exm exA 2 2. Proof. repeat split; cbn; lia. Qed.
Lemma exB_ok : ismat exm exB 2 2. Proof. repeat split; cbn; lia. Qed.
Lemma exC_ok : ismat exm exC 2 3. Proof. repeat split; cbn; lia. Qed.

(** ** C02, matrix part: the row loop of the matrix-vector product *)

Theorem C02_matvec_distinct : forall T (O : Ops T) n m alpha a x beta y (h : heap T),
  fits_u32 n = true -> fits_u32 m = true ->
  n * m <= len h a -> m <= len h x -> n <= len h y ->
  a < next h -> x < next h -> y < next h -> a <> y -> x <> y ->
  exists h', mv_core n m alpha a x beta y h = Ok y h' /\
    all_schedules_agree n (mv_acts m alpha a x beta y y) h h'.
Proof. intros. apply mv_core_schedules; auto. Qed.

(** In place: the parallel loop works on a temporary which is then copied sequentially. *)
Theorem C02_matvec_inplace : forall T (O : Ops T) n m alpha a beta y (h : heap T),
  fits_u32 n = true -> fits_u32 m = true ->
  n * m <= len h a -> m <= len h y -> n <= len h y ->
  a < next h -> y < next h -> a <> y ->
  exists h1 h2, alloc (repeat zero n) h = Ok (next h) h1 /\
    all_schedules_agree n (mv_acts m alpha a y beta y (next h)) h1 h2 /\
    mv_core n m alpha a y beta y h = (copy_n n (next h) y ;; ret y) h2.
Proof. intros. apply mv_core_schedules; auto. Qed.

Example C02_matvec_nonvacuous :
  exists h', mv_core 2 3 2%Z 3 4 10%Z 2 exm = Ok 2 h' /\ mem h' 2 = [24; 22]%Z /\
    all_schedules_agree 2 (mv_acts 3 2%Z 3 4 10%Z 2 2) exm h'.
Proof.
  destruct (C02_matvec_distinct Z ZOps 2 3 2%Z 3 4 10%Z 2 exm) as (h' & E & H); try (cbn; lia); auto.
  exists h'. split; [exact E|]. split; [|exact H].
  vm_compute in E. injection E as <-. reflexivity.
Qed.

(** ** C11: element access *)

Theorem C11_offset_in_bounds : forall n m i j, i < n -> j < m -> i * m + j < n * m.
Proof. exact idx_lt. Qed.

Theorem C11_read_write : forall T (O : Ops T) A n m i j x (h : heap T),
  ismat h A n m -> i < n -> j < m ->
  mat_get A i j h = Ok (mget h A i j) h /\ mat_at A i j h = mat_get A i j h /\
  mat_mut_at A i j x h = mat_put A i j x h /\
  exists h', mat_put A i j x h = Ok tt h' /\ unchanged_except [mp A] h h' /\
    forall i' j', i' < n -> j' < m ->
      mat_get A i' j' h' = if Nat.eqb i' i && Nat.eqb j' j then Ok x h'
                           else match mat_get A i' j' h with Ok y _ => Ok y h' | _ => UB end.
Proof.
  intros T O A n m i j x h HA Hi Hj. split; [eapply get_ok; eauto|]. split; [reflexivity|]. split; [reflexivity|].
  run (put_ok A i j x n m h HA Hi Hj). destruct r, H as ((_ & HA' & V) & N). exists h'. split; auto. split.
  - intros q Hq. unfold mat_put, store in E. destruct (Nat.ltb _ _); inversion E. cbn.
    destruct (Nat.eqb_spec q (mp A)); auto. subst. destruct Hq. left; auto.
  - intros i' j' Hi' Hj'. rewrite (get_ok A i' j' n m h'), (get_ok A i' j' n m h) by auto. rewrite V by auto.
    destruct (Nat.eqb i' i && Nat.eqb j' j); auto.
Qed.

(** Any sequence of writes: every element reads as last written, the others as before. *)
Theorem C11_write_sequence : forall T (O : Ops T) A n m ws (h : heap T),
  ismat h A n m -> (forall i j x, In (i, j, x) ws -> i < n /\ j < m) ->
  exists h', put_all A ws h = Ok tt h' /\ ext_but h h' (mp A) /\
    forall i j, i < n -> j < m ->
      mat_get A i j h' = Ok (match last_write ws i j with Some x => x | None => mget h A i j end) h'.
Proof.
  intros T O A n m ws h HA Hw. run (put_all_ok A n m ws h HA Hw). destruct r, H as ((E1 & HA' & V) & N).
  exists h'. split; auto. split; auto. intros i j Hi Hj. rewrite (get_ok A i j n m h') by auto. now rewrite V.
Qed.

(** Row-major construction from flat data. *)
Theorem C11_construct_dyn : forall T (O : Ops T) n m data (h : heap T),
  length data = n * m ->
  exists A h', dynmat_of n m data h = Ok A h' /\
    newmat h h' A n m (fun i j => nth (i * m + j) data zero).
Proof.
  intros T O n m data h Hl. unfold dynmat_of, alloc, bind, ret. do 2 eexists. split; [reflexivity|].
  eapply (new_then_set h _ data); [reflexivity|]. split; [split; auto|]. split.
  - repeat split; cbn [mp mr mc]; auto. change (len (halloc h data) (next h) = n * m). now rewrite new_len.
  - intros i j Hi Hj. unfold mget, rd. cbn [mp mc mem]. now rewrite Nat.eqb_refl.
Qed.

Theorem C11_construct_static : forall T (O : Ops T) N M data (h : heap T),
  length data = N * M ->
  exists A h', sizedmat_of N M data h = Ok A h' /\
    newmat h h' A N M (fun i j => nth (i * M + j) data zero).
Proof.
  intros T O N M data h Hl. unfold sizedmat_of. rewrite Hl, Nat.eqb_refl. cbn [negb].
  exact (C11_construct_dyn T O N M data h Hl).
Qed.

Example C11_nonvacuous :
  exists h', put_all exC [(0, 1, 7%Z); (1, 2, 8%Z); (0, 1, 9%Z)] exm = Ok tt h' /\
    mem h' 3 = [1; 9; 3; 4; 5; 8]%Z.
Proof. eexists. split; [reflexivity|]. reflexivity. Qed.

(** ** C12: constructors and data length *)

Theorem C12_sizedmat : forall T (O : Ops T) N M data (h : heap T),
  (length data <> N * M -> sizedmat_of N M data h = Throw RuntimeError h) /\
  (length data = N * M -> exists A h', sizedmat_of N M data h = Ok A h' /\ mem h' (mp A) = data /\
     mr A = N /\ mc A = M /\ ext h h').
Proof.
  intros T O N M data h. split; intros Hl; unfold sizedmat_of.
  - apply Nat.eqb_neq in Hl. rewrite Hl. reflexivity.
  - rewrite Hl, Nat.eqb_refl. cbn [negb]. do 2 eexists. split; [reflexivity|]. cbn [mp mr mc].
    split; [exact (mem_halloc_same h data)|]. split; [reflexivity|]. split; [reflexivity|]. apply ext_halloc.
Qed.

Theorem C12_sizedvec : forall T (O : Ops T) N data (h : heap T),
  (length data <> N -> sizedvec_of N data h = Throw RuntimeError h) /\
  (length data = N -> exists v h', sizedvec_of N data h = Ok v h' /\ mem h' v = data /\ ext h h').
Proof.
  intros T O N data h. split; intros Hl; unfold sizedvec_of.
  - apply Nat.eqb_neq in Hl. rewrite Hl. reflexivity.
  - rewrite Hl, Nat.eqb_refl. cbn [negb]. do 2 eexists. split; [reflexivity|].
    split; [exact (mem_halloc_same h data)|]. apply ext_halloc.
Qed.

(** The dynamic matrix constructor accepts everything; all in-range reads are in bounds exactly
    when at least n*m values were given. *)
Theorem C12_dynmat_actual_partial : forall T (O : Ops T) n m data (h : heap T),
  exists A h', dynmat_of n m data h = Ok A h' /\
    ((forall i j, i < n -> j < m -> mat_get A i j h' <> UB) <-> n * m <= length data).
Proof.
  intros T O n m data h. do 2 eexists. split; [reflexivity|]. split.
  - intros H. destruct (Nat.le_gt_cases (n * m) (length data)) as [|Hlt]; auto. exfalso.
    destruct n as [|n]; [cbn in Hlt; lia|]. destruct m as [|m]; [rewrite Nat.mul_0_r in Hlt; lia|].
    apply (H n m); [lia|lia|]. unfold mat_get, load. cbn [mp mc mem]. rewrite Nat.eqb_refl.
    destruct (nth_error data (n * S m + m)) eqn:En; auto.
    assert (nth_error data (n * S m + m) <> None) as Hs%nth_error_Some by congruence. lia.
  - intros Hle i j Hi Hj. unfold mat_get, load. cbn [mp mc mem]. rewrite Nat.eqb_refl.
    destruct (nth_error data (i * m + j)) eqn:En; [discriminate|].
    apply nth_error_None in En. pose proof (idx_lt n m i j Hi Hj). lia.
Qed.

Theorem C12_dynmat_refuted :
  exists n m (data : list Z) i j A h', length data <> n * m /\ i < n /\ j < m /\
    dynmat_of n m data (heap_of []) = Ok A h' /\ mat_get A i j h' = UB.
Proof.
  exists 2, 2, [1; 2; 3]%Z, 1, 1. do 2 eexists. repeat split; auto; try (cbn; lia).
Qed.

Example C12_nonvacuous : sizedmat_of 2 2 [1; 2; 3]%Z (heap_of []) = Throw RuntimeError (heap_of []) /\
  exists A h', sizedmat_of 2 2 [1; 2; 3; 4]%Z (heap_of []) = Ok A h' /\ mem h' (mp A) = [1; 2; 3; 4]%Z.
Proof. split; [reflexivity|]. do 2 eexists. split; reflexivity. Qed.

(** ** C13: filled, uninit, diag, identity *)

Theorem C13_filled : forall T (O : Ops T) value n m (h : heap T),
  fits_u32 n = true -> fits_u32 m = true ->
  exists C h', mat_filled value n m h = Ok C h' /\ newmat h h' C n m (fun _ _ => value).
Proof. intros. run (filled_ok value n m h ltac:(auto) ltac:(auto)). eauto. Qed.

Theorem C13_uninit_is_zero : forall T (O : Ops T) n m (h : heap T),
  exists C h', mat_uninit n m h = Ok C h' /\ newmat h h' C n m (fun _ _ => zero).
Proof. intros. run (uninit_ok n m h). eauto. Qed.

Theorem C13_diag_list : forall T (O : Ops T) ds (h : heap T),
  fits_u32 (length ds) = true ->
  exists C h', mat_diag_list ds h = Ok C h' /\
    newmat h h' C (length ds) (length ds) (fun i j => if Nat.eqb i j then nth i ds zero else zero).
Proof. intros. run (diag_list_ok ds h ltac:(auto)). eauto. Qed.

Theorem C13_diag : forall T (O : Ops T) d n (h : heap T),
  fits_u32 n = true ->
  exists C h', mat_diag d n h = Ok C h' /\
    newmat h h' C n n (fun i j => if Nat.eqb i j then d else zero).
Proof. intros. run (diag_ok d n h ltac:(auto)). eauto. Qed.

Theorem C13_identity : forall T (O : Ops T) n (h : heap T),
  fits_u32 n = true ->
  exists C h', mat_identity n h = Ok C h' /\
    newmat h h' C n n (fun i j => if Nat.eqb i j then one else zero).
Proof. intros. run (identity_ok n h ltac:(auto)). eauto. Qed.

Theorem C13_vec_filled : forall T (O : Ops T) n value (h : heap T),
  exists v h', dynvec_filled n value h = Ok v h' /\ newvec h h' v n (fun _ => value) /\ mem h' v = repeat value n.
Proof.
  intros. do 2 eexists. split; [reflexivity|]. split; [|exact (mem_halloc_same h (repeat value n))].
  eapply (newv_then_set h _ (repeat value n)); [reflexivity|]. split; [split; auto|]. split.
  - split; [cbn; lia|]. change (len (halloc h (repeat value n)) (next h) = n). now rewrite new_len, repeat_length.
  - intros i Hi. change (rd (halloc h (repeat value n)) (next h) i = value).
    unfold rd. rewrite mem_halloc_same. now apply nth_repeat_in.
Qed.

(** Multiplying by the identity returns the operand. *)
Theorem C13_identity_times_vector : forall T (O : Ops T) (R : IsRing T O) dbg n x (h : heap T),
  fits_u32 n = true -> isvec h x n ->
  exists y h', (I <- mat_identity n ;; op_mulv dbg I x) h = Ok y h' /\ newvec h h' y n (rd h x).
Proof.
  intros T O R dbg n x h Hn Hx. apply post_ok. apply post_bind.
  eapply post_mono; [apply identity_ok; auto|]. cbv beta. intros I h1 H1. pose proof H1 as (E1 & _ & HI & V1).
  eapply post_mono; [apply (op_mulv_ring dbg I x n n); eauto using ext_isvec|]. cbv beta. intros y h2 H2.
  eapply newvec_transm; [exact H1|]. eapply newvec_ext; [|exact H2].
  intros i Hi. cbv beta. rewrite (mvmul_ext n _ Id _ (rd h x)); [apply mvmul_Id; auto| |].
  - intros k Hk. now apply V1.
  - intros k Hk. eapply ext_rd; eauto.
Qed.

Example C13_nonvacuous : exists C h', mat_diag_list [4; 5; 6]%Z exm = Ok C h' /\ mp C = 5 /\
  mem h' 5 = [4; 0; 0; 0; 5; 0; 0; 0; 6]%Z.
Proof. do 2 eexists. repeat split. Qed.

(** ** C14: matrix-vector product *)

(** Any scalar type: the exact order of operations.  [x] and [y] may be the same vector. *)
Theorem C14_matvec_exact : forall T (O : Ops T) dbg alpha A x beta y n m (h : heap T),
  fits_u32 n = true -> fits_u32 m = true ->
  ismat h A n m -> isvec h x m -> isvec h y n -> mp A <> y ->
  exists h', mulv dbg alpha A x beta y h = Ok y h' /\
    setvec h h' y n (fun i =>
      fsum m (mul beta (rd h y i)) (fun k => mul (mul alpha (mget h A i k)) (rd h x k))).
Proof. intros. apply post_eq. apply mulv_ok; auto. Qed.

(** Commutative rings: alpha * A x + beta * y. *)
Theorem C14_matvec : forall T (O : Ops T) (R : IsRing T O) dbg alpha A x beta y n m (h : heap T),
  fits_u32 n = true -> fits_u32 m = true ->
  ismat h A n m -> isvec h x m -> isvec h y n -> mp A <> y ->
  exists h', mulv dbg alpha A x beta y h = Ok y h' /\
    setvec h h' y n (fun i =>
      add (mul alpha (mvmul m (mget h A) (rd h x) i)) (mul beta (rd h y i))).
Proof.
  intros T O R dbg alpha A x beta y n m h Hn Hm HA Hx Hy Hd.
  destruct (C14_matvec_exact T O dbg alpha A x beta y n m h Hn Hm HA Hx Hy Hd) as (h' & E & H1 & H2 & H3).
  exists h'. split; auto. split; [|split]; auto. intros i Hi. rewrite H3 by auto. apply fsum_affine.
Qed.

(** y = A*y in place. *)
Corollary C14_matvec_inplace : forall T (O : Ops T) (R : IsRing T O) dbg alpha A y n (h : heap T),
  fits_u32 n = true -> ismat h A n n -> isvec h y n -> mp A <> y ->
  exists h', mulv dbg alpha A y zero y h = Ok y h' /\
    setvec h h' y n (fun i => mul alpha (mvmul n (mget h A) (rd h y) i)).
Proof.
  intros T O R dbg alpha A y n h Hn HA Hy Hd.
  destruct (C14_matvec T O R dbg alpha A y zero y n n h Hn Hn HA Hy Hy Hd) as (h' & E & H1 & H2 & H3).
  exists h'. split; auto. split; [|split]; auto. intros i Hi. rewrite H3 by auto. apply ring_plus_mul0.
Qed.

Theorem C14_matvec_operator : forall T (O : Ops T) (R : IsRing T O) dbg A x n m (h : heap T),
  fits_u32 n = true -> fits_u32 m = true -> ismat h A n m -> isvec h x m ->
  exists y h', op_mulv dbg A x h = Ok y h' /\ newvec h h' y n (mvmul m (mget h A) (rd h x)).
Proof. intros. apply post_ok. apply op_mulv_ring; auto. Qed.

(** A wrongly sized operand is caught when asserts are compiled in. *)
Theorem C14_assert : forall T (O : Ops T) alpha A x beta y (h : heap T),
  (mc A <> len h x \/ mr A <> len h y) -> mulv true alpha A x beta y h = AssertFail.
Proof.
  intros T O alpha A x beta y h Hd. unfold mulv, noexcept, bind, vsize, assert_.
  change (length (mem h x)) with (len h x). change (length (mem h y)) with (len h y).
  destruct (Nat.eqb_spec (mc A) (len h x)), (Nat.eqb_spec (mr A) (len h y)); cbn; auto. tauto.
Qed.

Example C14_nonvacuous : peek (mulv true 2%Z exA 2 10%Z 2 exm) id = Some [8; -12]%Z.
Proof. vm_compute. reflexivity. Qed.

(** ** C15: matrix-matrix product *)

(** Any scalar type.  In the aliased branch the code computes beta*c, otherwise c*beta. *)
Theorem C15_matmat_exact : forall T (O : Ops T) dbg alpha A B beta C n m o (h : heap T),
  fits_u32 n = true -> fits_u32 m = true -> fits_u32 o = true ->
  ismat h A n o -> ismat h B o m -> ismat h C n m ->
  exists h', mulm dbg alpha A B beta C h = Ok C h' /\
    setmat h h' C n m (fun i j =>
      fsum o (if Nat.eqb (mp A) (mp C) || Nat.eqb (mp B) (mp C) then mul beta (mget h C i j) else mul (mget h C i j) beta)
        (fun k => mul (mul alpha (mget h A i k)) (mget h B k j))).
Proof. intros. apply post_eq. apply mulm_ok; auto. Qed.

(** Commutative rings: alpha * A B + beta * C; C may be the same object as A, B or both. *)
Theorem C15_matmat : forall T (O : Ops T) (R : IsRing T O) dbg alpha A B beta C n m o (h : heap T),
  fits_u32 n = true -> fits_u32 m = true -> fits_u32 o = true ->
  ismat h A n o -> ismat h B o m -> ismat h C n m ->
  exists h', mulm dbg alpha A B beta C h = Ok C h' /\
    setmat h h' C n m (fun i j =>
      add (mul alpha (mmmul o (mget h A) (mget h B) i j)) (mul beta (mget h C i j))).
Proof.
  intros T O R dbg alpha A B beta C n m o h Hn Hm Ho HA HB HC.
  destruct (C15_matmat_exact T O dbg alpha A B beta C n m o h Hn Hm Ho HA HB HC) as (h' & E & H1 & H2 & H3).
  exists h'. split; auto. split; [|split]; auto. intros i j Hi Hj. rewrite H3 by auto.
  rewrite fsum_affine. unfold mmmul. f_equal. destruct (_ || _); auto. apply (Rmul_comm ring_th).
Qed.

Theorem C15_operator : forall T (O : Ops T) (R : IsRing T O) dbg A B n m o (h : heap T),
  fits_u32 n = true -> fits_u32 m = true -> fits_u32 o = true ->
  ismat h A n o -> ismat h B o m ->
  exists C h', op_mulm dbg A B h = Ok C h' /\ newmat h h' C n m (mmmul o (mget h A) (mget h B)).
Proof. intros. apply post_ok. apply op_mulm_ring; auto. Qed.

Theorem C15_assert : forall T (O : Ops T) alpha A B beta C (h : heap T),
  (mr A <> mr C \/ mc B <> mc C \/ mc A <> mr B) -> mulm true alpha A B beta C h = AssertFail.
Proof.
  intros T O alpha A B beta C h Hd. unfold mulm, noexcept, bind, assert_.
  destruct (Nat.eqb_spec (mr A) (mr C)), (Nat.eqb_spec (mc B) (mc C)), (Nat.eqb_spec (mc A) (mr B)); cbn; auto. tauto.
Qed.

Example C15_nonvacuous :
  peek (mulm true 1%Z exA exC 0%Z exC exm) mp = Some [9; 12; 15; 19; 26; 33]%Z /\
  peek (mulm true 1%Z exA exA 1%Z exA exm) mp = Some [8; 12; 18; 26]%Z.
Proof. vm_compute. auto. Qed.

(** ** C16: laws of the product, for objects built and multiplied through the API *)

Section Laws.
Context (T : Type) (O : Ops T) (R : IsRing T O) (dbg : bool).
Implicit Types (h : heap T) (A B C : mat).

Theorem C16_assoc : forall A B C n m o q h,
  fits_u32 n = true -> fits_u32 m = true -> fits_u32 o = true -> fits_u32 q = true ->
  ismat h A n m -> ismat h B m o -> ismat h C o q ->
  same_mat (AB <- op_mulm dbg A B ;; op_mulm dbg AB C) (BC <- op_mulm dbg B C ;; op_mulm dbg A BC) h n q.
Proof.
  intros A B C n m o q h Hn Hm Ho Hq HA HB HC. eapply same_mat_intro.
  - apply post_bind. eapply post_mono; [apply (op_mulm_ring dbg A B n o m); auto|]. cbv beta. intros AB h1 H1.
    pose proof H1 as (E1 & _ & HAB & V1).
    eapply post_mono; [apply (op_mulm_ring dbg AB C n q o); eauto using ext_ismat|]. cbv beta. intros r h2 H2.
    eapply newmat_trans; [exact H1|]. eapply newmat_ext; [|exact H2]. intros i j Hi Hj. cbv beta.
    apply mmmul_ext; intros k Hk; [now apply V1|eapply ext_mget; eauto].
  - apply post_bind. eapply post_mono; [apply (op_mulm_ring dbg B C m q o); auto|]. cbv beta. intros BC h1 H1.
    pose proof H1 as (E1 & _ & HBC & V1).
    eapply post_mono; [apply (op_mulm_ring dbg A BC n q m); eauto using ext_ismat|]. cbv beta. intros r h2 H2.
    eapply newmat_trans; [exact H1|]. eapply newmat_ext; [|exact H2]. intros i j Hi Hj. cbv beta.
    apply mmmul_ext; intros k Hk; [eapply ext_mget; eauto|now apply V1].
  - intros i j _ _. apply mmmul_assoc.
Qed.

Theorem C16_vector : forall A B x n m o h,
  fits_u32 n = true -> fits_u32 m = true -> fits_u32 o = true ->
  ismat h A n m -> ismat h B m o -> isvec h x o ->
  same_vec (AB <- op_mulm dbg A B ;; op_mulv dbg AB x) (Bx <- op_mulv dbg B x ;; op_mulv dbg A Bx) h n.
Proof.
  intros A B x n m o h Hn Hm Ho HA HB Hx. eapply same_vec_intro.
  - apply post_bind. eapply post_mono; [apply (op_mulm_ring dbg A B n o m); auto|]. cbv beta. intros AB h1 H1.
    pose proof H1 as (E1 & _ & HAB & V1).
    eapply post_mono; [apply (op_mulv_ring dbg AB x n o); eauto using ext_isvec|]. cbv beta. intros r h2 H2.
    eapply newvec_transm; [exact H1|]. eapply newvec_ext; [|exact H2]. intros i Hi. cbv beta.
    apply mvmul_ext; intros k Hk; [now apply V1|eapply ext_rd; eauto].
  - apply post_bind. eapply post_mono; [apply (op_mulv_ring dbg B x m o); auto|]. cbv beta. intros Bx h1 H1.
    pose proof H1 as (E1 & _ & HBx & V1).
    eapply post_mono; [apply (op_mulv_ring dbg A Bx n m); eauto using ext_ismat|]. cbv beta. intros r h2 H2.
    eapply newvec_trans; [exact H1|]. eapply newvec_ext; [|exact H2]. intros i Hi. cbv beta.
    apply mvmul_ext; intros k Hk; [eapply ext_mget; eauto|now apply V1].
  - intros i _. apply mvmul_assoc.
Qed.

Theorem C16_distrib : forall A B C n m o h,
  fits_u32 n = true -> fits_u32 m = true -> fits_u32 o = true ->
  fits_u32 (o * m) = true -> fits_u32 (n * m) = true ->
  ismat h A n o -> ismat h B o m -> ismat h C o m ->
  same_mat (S <- op_addm dbg B C ;; op_mulm dbg A S)
           (AB <- op_mulm dbg A B ;; AC <- op_mulm dbg A C ;; op_addm dbg AB AC) h n m.
Proof.
  intros A B C n m o h Hn Hm Ho Hom Hnm HA HB HC. eapply same_mat_intro.
  - apply post_bind. eapply post_mono; [apply (op_addm_ok dbg B C o m); auto|]. cbv beta. intros S h1 H1.
    pose proof H1 as (E1 & _ & HS & V1).
    eapply post_mono; [apply (op_mulm_ring dbg A S n m o); eauto using ext_ismat|]. cbv beta. intros r h2 H2.
    eapply newmat_trans; [exact H1|]. eapply newmat_ext; [|exact H2]. intros i j Hi Hj. cbv beta.
    apply (mmmul_ext o _ (mget h A) _ (fun i j => add (mget h B i j) (mget h C i j)));
      intros k Hk; [eapply ext_mget; eauto|now apply V1].
  - apply post_bind. eapply post_mono; [apply (op_mulm_ring dbg A B n m o); auto|]. cbv beta. intros AB h1 H1.
    pose proof H1 as (E1 & _ & HAB & V1). apply post_bind.
    eapply post_mono; [apply (op_mulm_ring dbg A C n m o); eauto using ext_ismat|]. cbv beta. intros AC h2 H2.
    pose proof H2 as (E2 & _ & HAC & V2).
    eapply post_mono; [apply (op_addm_ok dbg AB AC n m); eauto using ext_ismat|]. cbv beta. intros r h3 H3.
    eapply newmat_trans; [exact H1|]. eapply newmat_trans; [exact H2|]. eapply newmat_ext; [|exact H3].
    intros i j Hi Hj. cbv beta. rewrite (ext_mget h1 h2 AB n m i j E2 HAB), V1, V2 by auto.
    rewrite (mmmul_ext o (mget h1 A) (mget h A) (mget h1 C) (mget h C)) by (intros k Hk; eapply ext_mget; eauto).
    reflexivity.
  - intros i j _ _. cbv beta. apply mmmul_add_r.
Qed.

Theorem C16_identity : forall A n m h,
  fits_u32 n = true -> fits_u32 m = true -> ismat h A n m ->
  same_mat (I <- mat_identity n ;; op_mulm dbg I A) (mat_copy A) h n m /\
  same_mat (I <- mat_identity m ;; op_mulm dbg A I) (mat_copy A) h n m.
Proof.
  intros A n m h Hn Hm HA. split; eapply same_mat_intro.
  - apply post_bind. eapply post_mono; [apply (identity_ok n); auto|]. cbv beta. intros I h1 H1.
    pose proof H1 as (E1 & _ & HI & V1).
    eapply post_mono; [apply (op_mulm_ring dbg I A n m n); eauto using ext_ismat|]. cbv beta. intros r h2 H2.
    eapply newmat_trans; [exact H1|]. eapply newmat_ext; [|exact H2]. intros i j Hi Hj. cbv beta.
    apply (mmmul_ext n _ Id _ (mget h A)); intros k Hk; [now apply V1|eapply ext_mget; eauto].
  - eapply post_mono; [apply (copy_ok A n m); auto|]. cbv beta. intros C h' [H' _]. exact H'.
  - intros i j Hi Hj. cbv beta. apply mmmul_Id_l; auto.
  - apply post_bind. eapply post_mono; [apply (identity_ok m); auto|]. cbv beta. intros I h1 H1.
    pose proof H1 as (E1 & _ & HI & V1).
    eapply post_mono; [apply (op_mulm_ring dbg A I n m m); eauto using ext_ismat|]. cbv beta. intros r h2 H2.
    eapply newmat_trans; [exact H1|]. eapply newmat_ext; [|exact H2]. intros i j Hi Hj. cbv beta.
    apply (mmmul_ext m _ (mget h A) _ Id); intros k Hk; [eapply ext_mget; eauto|now apply V1].
  - eapply post_mono; [apply (copy_ok A n m); auto|]. cbv beta. intros C h' [H' _]. exact H'.
  - intros i j Hi Hj. cbv beta. apply mmmul_Id_r; auto.
Qed.

Theorem C16_scalar : forall alpha A B n m o h,
  fits_u32 n = true -> fits_u32 m = true -> fits_u32 o = true ->
  fits_u32 (n * o) = true -> fits_u32 (n * m) = true ->
  ismat h A n o -> ismat h B o m ->
  same_mat (sA <- op_scalem alpha A ;; op_mulm dbg sA B) (AB <- op_mulm dbg A B ;; op_scalem alpha AB) h n m.
Proof.
  intros alpha A B n m o h Hn Hm Ho Hno Hnm HA HB. eapply same_mat_intro.
  - apply post_bind. eapply post_mono; [apply (op_scalem_ok alpha A n o); auto|]. cbv beta. intros sA h1 H1.
    pose proof H1 as (E1 & _ & HS & V1).
    eapply post_mono; [apply (op_mulm_ring dbg sA B n m o); eauto using ext_ismat|]. cbv beta. intros r h2 H2.
    eapply newmat_trans; [exact H1|]. eapply newmat_ext; [|exact H2]. intros i j Hi Hj. cbv beta.
    apply (mmmul_ext o _ (fun i j => mul alpha (mget h A i j)) _ (mget h B));
      intros k Hk; [now apply V1|eapply ext_mget; eauto].
  - apply post_bind. eapply post_mono; [apply (op_mulm_ring dbg A B n m o); auto|]. cbv beta. intros AB h1 H1.
    pose proof H1 as (E1 & _ & HAB & V1).
    eapply post_mono; [apply (op_scalem_ok alpha AB n m); eauto using ext_ismat|]. cbv beta. intros r h2 H2.
    eapply newmat_trans; [exact H1|]. eapply newmat_ext; [|exact H2]. intros i j Hi Hj. cbv beta.
    now rewrite V1.
  - intros i j Hi Hj. cbv beta. apply mmmul_scal_l.
Qed.

End Laws.

Example C16_nonvacuous :
  peek ((AB <- op_mulm true exA exB ;; op_mulm true AB exC) exm) mp = Some [107; 148; 189; 243; 336; 429]%Z.
Proof. vm_compute. reflexivity. Qed.

(** ** C17: entry-wise operations *)

Theorem C17_add : forall T (O : Ops T) dbg A B C n m (h : heap T),
  fits_u32 (n * m) = true -> ismat h A n m -> ismat h B n m -> ismat h C n m ->
  exists h', addm dbg A B C h = Ok C h' /\ setmat h h' C n m (fun i j => add (mget h A i j) (mget h B i j)).
Proof. intros. apply post_eq. apply addm_ok; auto. Qed.

Theorem C17_sub : forall T (O : Ops T) dbg A B C n m (h : heap T),
  fits_u32 (n * m) = true -> ismat h A n m -> ismat h B n m -> ismat h C n m ->
  exists h', subm dbg A B C h = Ok C h' /\ setmat h h' C n m (fun i j => sub (mget h A i j) (mget h B i j)).
Proof. intros. apply post_eq. apply subm_ok; auto. Qed.

Theorem C17_scale : forall T (O : Ops T) alpha A n m (h : heap T),
  fits_u32 (n * m) = true -> ismat h A n m ->
  exists h', scalem alpha A h = Ok A h' /\ setmat h h' A n m (fun i j => mul alpha (mget h A i j)).
Proof. intros. apply post_eq. apply scalem_ok; auto. Qed.

Theorem C17_operators : forall T (O : Ops T) dbg alpha A B n m (h : heap T),
  fits_u32 (n * m) = true -> ismat h A n m -> ismat h B n m ->
  (exists C h', op_addm dbg A B h = Ok C h' /\ newmat h h' C n m (fun i j => add (mget h A i j) (mget h B i j))) /\
  (exists C h', op_subm dbg A B h = Ok C h' /\ newmat h h' C n m (fun i j => sub (mget h A i j) (mget h B i j))) /\
  (exists C h', op_scalem alpha A h = Ok C h' /\ newmat h h' C n m (fun i j => mul alpha (mget h A i j))) /\
  (exists C h', op_negm A h = Ok C h' /\ newmat h h' C n m (fun i j => mul (opp one) (mget h A i j))).
Proof.
  intros. repeat split; apply post_ok; [apply op_addm_ok|apply op_subm_ok|apply op_scalem_ok|apply op_negm_ok]; auto.
Qed.

Theorem C17_neg_ring : forall T (O : Ops T) (R : IsRing T O) A n m (h : heap T),
  fits_u32 (n * m) = true -> ismat h A n m ->
  exists C h', op_negm A h = Ok C h' /\ newmat h h' C n m (fun i j => opp (mget h A i j)).
Proof. intros. apply post_ok. apply op_negm_ring; auto. Qed.

(** With binary64 the unary minus of a matrix multiplies by -1.0; on every value but NaN this
    is the sign flip.  Zeros are covered too: *)
Example C17_neg_zero_binary64 : PrimFloat.mul (PrimFloat.opp 1) 0 = PrimFloat.opp 0.
Proof. reflexivity. Qed.

(** Module laws. *)
Section Module_.
Context (T : Type) (O : Ops T) (R : IsRing T O) (dbg : bool).
Add Ring Tring4 : (ring_th (IsRing := R)).
Implicit Types (h : heap T) (A B C : mat).

Theorem C17_add_comm : forall A B n m h,
  fits_u32 (n * m) = true -> ismat h A n m -> ismat h B n m ->
  same_mat (op_addm dbg A B) (op_addm dbg B A) h n m.
Proof.
  intros A B n m h Hf HA HB. eapply same_mat_intro; [apply op_addm_ok; auto|apply op_addm_ok; auto|].
  intros; cbv beta; ring.
Qed.

Theorem C17_add_assoc : forall A B C n m h,
  fits_u32 (n * m) = true -> ismat h A n m -> ismat h B n m -> ismat h C n m ->
  same_mat (X <- op_addm dbg A B ;; op_addm dbg X C) (X <- op_addm dbg B C ;; op_addm dbg A X) h n m.
Proof.
  intros A B C n m h Hf HA HB HC. eapply same_mat_intro.
  - apply post_bind. eapply post_mono; [apply (op_addm_ok dbg A B n m); auto|]. cbv beta. intros X h1 H1.
    pose proof H1 as (E1 & _ & HX & V1).
    eapply post_mono; [apply (op_addm_ok dbg X C n m); eauto using ext_ismat|]. cbv beta. intros r h2 H2.
    eapply newmat_trans; [exact H1|]. eapply newmat_ext; [|exact H2]. intros i j Hi Hj. cbv beta.
    rewrite V1, (ext_mget h h1 C n m) by auto. reflexivity.
  - apply post_bind. eapply post_mono; [apply (op_addm_ok dbg B C n m); auto|]. cbv beta. intros X h1 H1.
    pose proof H1 as (E1 & _ & HX & V1).
    eapply post_mono; [apply (op_addm_ok dbg A X n m); eauto using ext_ismat|]. cbv beta. intros r h2 H2.
    eapply newmat_trans; [exact H1|]. eapply newmat_ext; [|exact H2]. intros i j Hi Hj. cbv beta.
    rewrite V1, (ext_mget h h1 A n m) by auto. reflexivity.
  - intros; cbv beta; ring.
Qed.

(** A - B = A + (-B) *)
Theorem C17_sub_is_add_neg : forall A B n m h,
  fits_u32 (n * m) = true -> ismat h A n m -> ismat h B n m ->
  same_mat (op_subm dbg A B) (X <- op_negm B ;; op_addm dbg A X) h n m.
Proof.
  intros A B n m h Hf HA HB. eapply same_mat_intro.
  - apply op_subm_ok; auto.
  - apply post_bind. eapply post_mono; [apply (op_negm_ok B n m); auto|]. cbv beta. intros X h1 H1.
    pose proof H1 as (E1 & _ & HX & V1).
    eapply post_mono; [apply (op_addm_ok dbg A X n m); eauto using ext_ismat|]. cbv beta. intros r h2 H2.
    eapply newmat_trans; [exact H1|]. eapply newmat_ext; [|exact H2]. intros i j Hi Hj. cbv beta.
    rewrite V1, (ext_mget h h1 A n m) by auto. reflexivity.
  - intros; cbv beta; ring.
Qed.

(** alpha (A + B) = alpha A + alpha B *)
Theorem C17_scale_add : forall alpha A B n m h,
  fits_u32 (n * m) = true -> ismat h A n m -> ismat h B n m ->
  same_mat (X <- op_addm dbg A B ;; op_scalem alpha X)
           (X <- op_scalem alpha A ;; Y <- op_scalem alpha B ;; op_addm dbg X Y) h n m.
Proof.
  intros alpha A B n m h Hf HA HB. eapply same_mat_intro.
  - apply post_bind. eapply post_mono; [apply (op_addm_ok dbg A B n m); auto|]. cbv beta. intros X h1 H1.
    pose proof H1 as (E1 & _ & HX & V1).
    eapply post_mono; [apply (op_scalem_ok alpha X n m); eauto using ext_ismat|]. cbv beta. intros r h2 H2.
    eapply newmat_trans; [exact H1|]. eapply newmat_ext; [|exact H2]. intros i j Hi Hj. cbv beta.
    rewrite V1 by auto. reflexivity.
  - apply post_bind. eapply post_mono; [apply (op_scalem_ok alpha A n m); auto|]. cbv beta. intros X h1 H1.
    pose proof H1 as (E1 & _ & HX & V1). apply post_bind.
    eapply post_mono; [apply (op_scalem_ok alpha B n m); eauto using ext_ismat|]. cbv beta. intros Y h2 H2.
    pose proof H2 as (E2 & _ & HY & V2).
    eapply post_mono; [apply (op_addm_ok dbg X Y n m); eauto using ext_ismat|]. cbv beta. intros r h3 H3.
    eapply newmat_trans; [exact H1|]. eapply newmat_trans; [exact H2|].
    eapply newmat_ext; [|exact H3]. intros i j Hi Hj. cbv beta.
    rewrite (ext_mget h1 h2 X n m), V1, V2, (ext_mget h h1 B n m) by auto. reflexivity.
  - intros; cbv beta; ring.
Qed.

(** (alpha + beta) A = alpha A + beta A and (alpha beta) A = alpha (beta A) and 1 A = A *)
Theorem C17_scale_sum : forall alpha beta A n m h,
  fits_u32 (n * m) = true -> ismat h A n m ->
  same_mat (op_scalem (add alpha beta) A)
           (X <- op_scalem alpha A ;; Y <- op_scalem beta A ;; op_addm dbg X Y) h n m.
Proof.
  intros alpha beta A n m h Hf HA. eapply same_mat_intro.
  - apply (op_scalem_ok (add alpha beta) A n m); auto.
  - apply post_bind. eapply post_mono; [apply (op_scalem_ok alpha A n m); auto|]. cbv beta. intros X h1 H1.
    pose proof H1 as (E1 & _ & HX & V1). apply post_bind.
    eapply post_mono; [apply (op_scalem_ok beta A n m); eauto using ext_ismat|]. cbv beta. intros Y h2 H2.
    pose proof H2 as (E2 & _ & HY & V2).
    eapply post_mono; [apply (op_addm_ok dbg X Y n m); eauto using ext_ismat|]. cbv beta. intros r h3 H3.
    eapply newmat_trans; [exact H1|]. eapply newmat_trans; [exact H2|].
    eapply newmat_ext; [|exact H3]. intros i j Hi Hj. cbv beta.
    rewrite (ext_mget h1 h2 X n m), V1, V2, (ext_mget h h1 A n m) by auto. reflexivity.
  - intros; cbv beta; ring.
Qed.

Theorem C17_scale_scale : forall alpha beta A n m h,
  fits_u32 (n * m) = true -> ismat h A n m ->
  same_mat (op_scalem (mul alpha beta) A) (X <- op_scalem beta A ;; op_scalem alpha X) h n m /\
  same_mat (op_scalem one A) (mat_copy A) h n m.
Proof.
  intros alpha beta A n m h Hf HA. split; eapply same_mat_intro.
  - apply (op_scalem_ok (mul alpha beta) A n m); auto.
  - apply post_bind. eapply post_mono; [apply (op_scalem_ok beta A n m); auto|]. cbv beta. intros X h1 H1.
    pose proof H1 as (E1 & _ & HX & V1).
    eapply post_mono; [apply (op_scalem_ok alpha X n m); eauto using ext_ismat|]. cbv beta. intros r h2 H2.
    eapply newmat_trans; [exact H1|]. eapply newmat_ext; [|exact H2]. intros i j Hi Hj. cbv beta.
    rewrite V1 by auto. reflexivity.
  - intros; cbv beta; ring.
  - apply (op_scalem_ok one A n m); auto.
  - eapply post_mono; [apply (copy_ok A n m); auto|]. cbv beta. intros C h' [H' _]. exact H'.
  - intros; cbv beta; ring.
Qed.
End Module_.

(** Shape violations: every assert-enabled build stops. *)
Theorem C17_assert : forall T (O : Ops T) A B C (h : heap T),
  ((mr A, mc A) <> (mr B, mc B) \/ (mr A, mc A) <> (mr C, mc C)) ->
  addm true A B C h = AssertFail /\ subm true A B C h = AssertFail.
Proof.
  intros T O A B C h Hd. unfold addm, subm, noexcept, bind, assert_, shape_eqb.
  destruct (Nat.eqb_spec (mr A) (mr B)), (Nat.eqb_spec (mc A) (mc B)),
    (Nat.eqb_spec (mr A) (mr C)), (Nat.eqb_spec (mc A) (mc C)); cbn; auto.
  exfalso. destruct Hd as [Hd|Hd]; apply Hd; congruence.
Qed.

Example C17_nonvacuous :
  peek (addm true exA exB exA exm) mp = Some [6; 8; 10; 12]%Z /\
  peek (op_negm exC exm) mp = Some [-1; -2; -3; -4; -5; -6]%Z.
Proof. vm_compute. auto. Qed.

(** ** C19: 2x2 inversion *)

Theorem C19_invert : forall T (O : Ops T) (F : IsField T O) A B (h : heap T),
  ismat h A 2 2 -> ismat h B 2 2 ->
  sub (mul (mget h A 0 0) (mget h A 1 1)) (mul (mget h A 0 1) (mget h A 1 0)) <> zero ->
  exists C h', invert2 A B h = Ok C h' /\
    ext_but h h' (mp B) /\ next h <= mp C /\ ismat h' C 2 2 /\ ismat h' B 2 2 /\
    mem h' (mp C) = mem h' (mp B) /\
    meq 2 2 (mmmul 2 (mget h A) (mget h' B)) Id /\ meq 2 2 (mmmul 2 (mget h' B) (mget h A)) Id.
Proof. intros. apply post_ok. apply invert2_ok; auto. Qed.

(** In place. *)
Theorem C19_invert_inplace : forall T (O : Ops T) (F : IsField T O) A (h : heap T),
  ismat h A 2 2 ->
  sub (mul (mget h A 0 0) (mget h A 1 1)) (mul (mget h A 0 1) (mget h A 1 0)) <> zero ->
  exists h', invert2_inplace A h = Ok A h' /\
    ext_but h h' (mp A) /\ ismat h' A 2 2 /\
    meq 2 2 (mmmul 2 (mget h A) (mget h' A)) Id /\ meq 2 2 (mmmul 2 (mget h' A) (mget h A)) Id.
Proof.
  intros T O F A h HA Hd. destruct (C19_invert T O F A A h HA HA Hd) as (C & h' & E & H1 & H2 & H3 & H4 & H5 & H6 & H7).
  exists h'. unfold invert2_inplace, bind. rewrite E. repeat split; auto; try apply H1; apply H4.
Qed.

(** Returned by value: a fresh matrix, the source untouched. *)
Theorem C19_inverted : forall T (O : Ops T) (F : IsField T O) A (h : heap T),
  ismat h A 2 2 ->
  sub (mul (mget h A 0 0) (mget h A 1 1)) (mul (mget h A 0 1) (mget h A 1 0)) <> zero ->
  exists C h', inverted2 A h = Ok C h' /\
    ext h h' /\ next h <= mp C /\ ismat h' C 2 2 /\
    meq 2 2 (mmmul 2 (mget h A) (mget h' C)) Id /\ meq 2 2 (mmmul 2 (mget h' C) (mget h A)) Id.
Proof. intros. apply post_ok. apply inverted2_ok; auto. Qed.

Definition exq : heap Qc := heap_of [map Q2Qc [2; 3; 5; 8]%Q].
Example C19_nonvacuous :
  option_map (map this) (peek (invert2_inplace (mkMat 0 2 2) exq) mp) = Some [8; -(3); -(5); 2]%Q.
Proof. vm_compute. reflexivity. Qed.

Print Assumptions C02_matvec_distinct.
Print Assumptions C02_matvec_inplace.
Print Assumptions C11_write_sequence.
Print Assumptions C12_dynmat_actual_partial.
Print Assumptions C13_identity_times_vector.
Print Assumptions C14_matvec.
Print Assumptions C15_matmat.
Print Assumptions C16_assoc.
Print Assumptions C16_distrib.
Print Assumptions C17_add_assoc.
Print Assumptions C17_scale_scale.
Print Assumptions C19_invert.
Print Assumptions C19_inverted.
