(** * Properties C44-C46: the ILU(0) preconditioner *)
From Coq Require Import QArith Qcanon Reals Lra Lia Field Floats.
From Verif Require Import Base Scalar BaseLemmas Spec Sums RealVec ModelVec ModelMat SpecMat ProofMat ProofMatOps ModelPacked ProofPacked
  ModelSparse SpecSparse ProofSparse ProofSparseAdd ProofSparseCsr PropSparse ProofVecSched ProofTdma ProofChol ProofCholMath ModelIter ProofIlu
  PropTdma PropChol PropCholSolve.
Local Open Scope nat_scope.

(** ** Outcomes, for every scalar type *)
Section Outcome.
Context {T : Type} {Op : Ops T}.
Implicit Types h : heap T.

(** What A(i,j) reads in a sparse matrix with n rows. *)
Definition reads_as (A : csr T) n (a : nat -> nat -> T) : Prop :=
  forall S (s : S) i j, i < n -> j < n -> csr_get A i j s = Ok (a i j) s.

Lemma pos_inj2 n i j i' j' : j < n -> j' < n -> i * n + j = i' * n + j' -> i = i' /\ j = j'.
Proof. intros H1 H2 E. rewrite (Nat.add_comm (i * n)), (Nat.add_comm (i' * n)) in E. apply pos_inj in E; lia. Qed.

(** The decomposition of a matrix in its own buffer. *)
Lemma ilu_own_outcome n A h : ismat h A n n -> fits_u32 n = true ->
  postx (ilu_new (ret (mr A, mc A)) (mat_get A) (mat_put A) ;; ret A) h
    (fun F h' => F = A /\ setmat h h' A n n (mget h' A) /\ next h' = next h /\ ilu_done n n (mget h A) (mget h' A))
    (fun e h' => e = RuntimeError /\ ext_but h h' (mp A) /\ ilu_stop n n (mget h A) (mget h' A)).
Proof.
  intros (A1 & A2 & A3 & A4) Hf.
  pose (good := fun h1 : heap T => next h1 = next h /\ (forall q, q <> mp A -> mem h1 q = mem h q) /\ len h1 (mp A) = n * n).
  assert (G0 : good h) by (repeat split; auto).
  apply postx_bind.
  eapply postx_mono.
  - apply (ilu_new_ok (ret (mr A, mc A)) (mat_get A) (mat_put A) n n good (fun h1 => mget h1 A)); auto.
    + intros c G. unfold ret. now rewrite A2, A3.
    + intros c i j (G1 & G2 & G3) Hi Hj. unfold mat_get, load, mget, rd.
      destruct (nth_error (mem c (mp A)) (i * mc A + j)) as [v|] eqn:E.
      * f_equal. symmetry. now apply nth_error_nth.
      * exfalso. apply nth_error_None in E. unfold len in G3. rewrite A3 in E. nia.
    + intros c i j x (G1 & G2 & G3) Hi Hj _. exists (hset c (mp A) (i * mc A + j) x).
      assert (B : i * mc A + j < len c (mp A)) by (rewrite A3, G3; nia).
      split. { unfold mat_put, store. fold (len c (mp A)). apply Nat.ltb_lt in B. rewrite B. reflexivity. }
      split. { split; [now rewrite next_hset|]. split; [|now rewrite len_hset]. intros q Hq. rewrite mem_hset_other by auto. auto. }
      split. { unfold mget. now apply rd_hset_same. }
      intros i' j' Hi' Hj' Hne. unfold mget. apply rd_hset_idx. rewrite A3. intros E. apply pos_inj2 in E; auto.
      apply Hne. f_equal; tauto.
  - intros [] h' [(G1 & G2 & G3) D]. unfold postx, ret. split; [reflexivity|]. split.
    + split; [split; [lia|auto]|]. split; [repeat split; auto; lia|]. auto.
    + auto.
  - intros e h' (-> & (G1 & G2 & G3) & D). split; [auto|]. split; [|auto]. split; [lia|auto].
Qed.
Lemma ilu_dyn_outcome n A h : ismat h A n n -> fits_u32 n = true ->
  postx (ilu_dyn A) h
    (fun F h' => newmat h h' F n n (mget h' F) /\ ilu_done n n (mget h A) (mget h' F))
    (fun e h' => e = RuntimeError /\ ext h h' /\ exists f, ilu_stop n n (mget h A) f).
Proof.
  intros HA0 Hf. unfold ilu_dyn. apply postx_bind. unfold postx.
  destruct (post_ok _ _ _ (copy_ok A n n h HA0)) as (F & h0 & Ec & (X0 & P0 & V0 & _) & M0). rewrite Ec.
  assert (E0 : mget h0 F = mget h A).
  { unfold mget, rd. rewrite M0. destruct V0 as (_ & _ & -> & _), HA0 as (_ & _ & -> & _). reflexivity. }
  eapply postx_mono; [apply (ilu_own_outcome n F h0 V0 Hf)| |]; cbv beta; rewrite E0.
  - intros F' h' (-> & (X1 & V1 & _) & N1 & D). split; [|exact D].
    split; [|split; [exact P0|split; [exact V1|auto]]]. destruct X0 as [X0 X0'], X1 as [X1 X1']. split; [lia|].
    intros q Hq. rewrite X1' by lia. auto.
  - intros e h' (-> & X1 & D). split; [reflexivity|]. split; [|eauto]. destruct X0 as [X0 X0'], X1 as [X1 X1']. split; [lia|].
    intros q Hq. rewrite X1' by lia. auto.
Qed.

Definition csr_good (A : csr T) n (B : csr T) : Prop := csr_wf B n /\ sptr B = sptr A /\ scol B = scol A.
Definition cview (A : csr T) (i j : nat) : T := match csr_get A i j tt with Ok x _ => x | _ => zero end.
Lemma cview_ok A n S (s : S) i j : csr_wf A n -> i < n -> csr_get A i j s = Ok (cview A i j) s.
Proof.
  intros W Hi. unfold cview, csr_get, bind. rewrite !(csr_find_ok A n) by auto.
  destruct (find _ _) as [k|] eqn:E; [|reflexivity].
  pose proof (ptr_le A n (i + 1) W ltac:(lia)) as Hle. apply find_seq_some in E. destruct E as (Hk & _).
  pose proof W as (W1 & _). now rewrite !(vec_at_d _ zero) by lia.
Qed.

Lemma ilu_csr_outcome n m A S (s : S) : eqb zero zero = true -> csr_wf A n -> csr_shape A tt = Ok (n, m) tt -> m <= n ->
  fits_u32 n = true ->
  (exists F, ilu_csr A s = Ok F s /\ csr_wf F n /\ sptr F = sptr A /\ scol F = scol A /\ ilu_done n m (cview A) (cview F)) \/
  (exists F, ilu_csr A s = Throw RuntimeError s /\ csr_wf F n /\ sptr F = sptr A /\ scol F = scol A /\ ilu_stop n m (cview A) (cview F)).
Proof.
  intros Z W Hs Hm Hf.
  assert (HS : forall S (s : S) (B : csr T), scol B = scol A -> sptr B = sptr A -> csr_shape B s = Ok (n, m) s).
  { intros S0 s0 B E1 E2. unfold csr_shape, bind in *. rewrite E1, E2. destruct (scol A); [discriminate|].
    cbn [max_elem ret] in *. unfold ret in *. congruence. }
  pose proof (ilu_new_ok (fun A => csr_shape A A) (fun i j A => csr_get A i j A) (fun i j x => csr_set i j x) n m
    (csr_good A n) cview Hm) as K.
  assert (P : postx ilu_csr_run A (fun _ B => csr_good A n B /\ ilu_done n m (cview A) (cview B))
     (fun e B => e = RuntimeError /\ csr_good A n B /\ ilu_stop n m (cview A) (cview B))).
  { apply K; auto.
    - intros c (G1 & G2 & G3). now apply HS.
    - intros c i j (G1 & G2 & G3) Hi Hj. now apply (cview_ok c n).
    - intros c i j x (G1 & G2 & G3) Hi Hj Nz.
      destruct (csr_get_ok c n i j tt G1 Hi) as (v & Ev & Rv).
      destruct Rv as [Hin|[_ ->]].
      2:{ exfalso. rewrite (cview_ok c n unit tt) in Ev by auto. injection Ev as E. unfold nzb in Nz. rewrite E, Z in Nz. discriminate. }
      destruct (C28_csr_stored T Op c n i j v x G1 Hi Hin) as (c' & E & W' & E1 & E2 & E3 & E4 & _).
      exists c'. split; [exact E|]. split; [split; [auto|split; congruence]|]. split.
      + unfold cview. now rewrite (E3 unit tt).
      + intros i' j' Hi' Hj' Hne. unfold cview. now rewrite (E4 unit tt).
    - split; auto. }
  unfold postx in P. unfold ilu_csr, on_copy. destruct (ilu_csr_run A) as [u B|e B| | | |]; try contradiction.
  - left. destruct P as [(G1 & G2 & G3) D]. exists B. auto.
  - right. destruct P as (-> & (G1 & G2 & G3) & D). exists B. auto.
Qed.
End Outcome.

(** ** In a field *)
Section Field.
Context {T : Type} {Op : Ops T} {Fi : IsField T Op}.
Add Field Tfield10 : (field_th (IsField := Fi)).
Local Open Scope sc_scope.
Implicit Types h : heap T.

(** The two factors kept in one matrix: L has a unit diagonal, U is the upper part. *)
Definition lfac (f : nat -> nat -> T) (i j : nat) : T :=
  if Nat.eqb i j then one else if Nat.ltb j i then f i j else zero.
Definition ufac (f : nat -> nat -> T) (i j : nat) : T := if Nat.leb i j then f i j else zero.

(** Rows 0 .. k-1 of an ILU(0) factorisation of the n x n matrix a: f vanishes where a does, and
    L U agrees with a everywhere else; a pivot in use is not zero. *)
Definition ilu0 (n k : nat) (a f : nat -> nat -> T) : Prop :=
  forall i j, (i < k)%nat -> (j < n)%nat ->
    (a i j = zero -> f i j = zero) /\
    (a i j <> zero -> mmmul n (lfac f) (ufac f) i j = a i j /\ ((j < i)%nat -> f j j <> zero)).

(** The update that ILU(0) drops at a position where a is zero. *)
Definition fillin (f : nat -> nat -> T) (i j : nat) : T := bsum (Nat.min i j) (fun k => f i k * f k j).

Lemma lfac_diag f i : lfac f i i = one.
Proof. unfold lfac. now rewrite Nat.eqb_refl. Qed.
Lemma lfac_in f i j : (j < i)%nat -> lfac f i j = f i j.
Proof. intros H. unfold lfac. destruct (Nat.eqb_spec i j); [lia|]. destruct (Nat.ltb_spec j i); [auto|lia]. Qed.
Lemma lfac_out f i j : (i < j)%nat -> lfac f i j = zero.
Proof. intros H. unfold lfac. destruct (Nat.eqb_spec i j); [lia|]. destruct (Nat.ltb_spec j i); [lia|auto]. Qed.
Lemma ufac_in f i j : (i <= j)%nat -> ufac f i j = f i j.
Proof. intros H. unfold ufac. destruct (Nat.leb_spec i j); [auto|lia]. Qed.
Lemma ufac_out f i j : (j < i)%nat -> ufac f i j = zero.
Proof. intros H. unfold ufac. destruct (Nat.leb_spec i j); [lia|auto]. Qed.

(** Entry (i,j) of L U. *)
Lemma lu_low n f i j : (i < n)%nat -> (j < i)%nat ->
  mmmul n (lfac f) (ufac f) i j = fillin f i j + f i j * f j j.
Proof.
  intros Hi Hj. unfold mmmul. rewrite (bsum_trunc n (S j)).
  - cbn [bsum]. unfold fillin. rewrite Nat.min_r by lia. f_equal.
    + apply bsum_ext. intros k Hk. now rewrite lfac_in, ufac_in by lia.
    + now rewrite lfac_in, ufac_in by lia.
  - lia.
  - intros k Hk. rewrite ufac_out by lia. ring.
Qed.
Lemma lu_up n f i j : (i < n)%nat -> (i <= j)%nat ->
  mmmul n (lfac f) (ufac f) i j = fillin f i j + f i j.
Proof.
  intros Hi Hj. unfold mmmul. rewrite (bsum_trunc n (S i)).
  - cbn [bsum]. unfold fillin. rewrite Nat.min_l by lia. f_equal.
    + apply bsum_ext. intros k Hk. now rewrite lfac_in, ufac_in by lia.
    + rewrite lfac_diag, ufac_in by lia. ring.
  - lia.
  - intros k Hk. rewrite lfac_out by lia. ring.
Qed.

Lemma nzb_true (x : T) : nzb x = true <-> x <> zero.
Proof.
  unfold nzb. destruct (eqb x zero) eqn:E; cbn [negb].
  - apply (proj1 (eqb_ok x zero)) in E. split; [discriminate|tauto].
  - split; auto. intros _ H. apply (proj2 (eqb_ok x zero)) in H. congruence.
Qed.
Lemma nzb_false (x : T) : nzb x = false <-> x = zero.
Proof. destruct (nzb x) eqn:E; [|split; auto; intros _]. - apply nzb_true in E. split; [discriminate|tauto].
  - unfold nzb in E. destruct (eqb x zero) eqn:E'; [|discriminate]. now apply eqb_ok. Qed.

Lemma lrec_field a f i j : (j < i)%nat -> lrec a f i j ->
  (a i j = zero -> f i j = zero) /\ (a i j <> zero -> fillin f i j + f i j * f j j = a i j /\ f j j <> zero).
Proof.
  intros Hj. unfold lrec. destruct (nzb (a i j)) eqn:E.
  - intros [P V]. apply nzb_true in E. apply nzb_true in P. split; [tauto|]. intros _. split; [|exact P].
    rewrite V. rewrite ssub_bsum. unfold fillin. rewrite Nat.min_r by lia. field. exact P.
  - intros V. apply nzb_false in E. split; [congruence|tauto].
Qed.
Lemma urec_field a f i j : (i <= j)%nat -> urec a f i j ->
  (a i j = zero -> f i j = zero) /\ (a i j <> zero -> fillin f i j + f i j = a i j).
Proof.
  intros Hj. unfold urec. destruct (nzb (a i j)) eqn:E.
  - intros V. apply nzb_true in E. split; [tauto|]. intros _.
    rewrite V. rewrite ssub_bsum. unfold fillin. rewrite Nat.min_l by lia. ring.
  - intros V. apply nzb_false in E. split; [congruence|tauto].
Qed.
(** A matrix without entries in columns m .. n-1. *)
Lemma rows_ilu0 n m k a f : (k <= n)%nat -> (m <= n)%nat ->
  (forall i j, (i < n)%nat -> (m <= j)%nat -> (j < n)%nat -> a i j = zero /\ f i j = zero) ->
  (forall i, (i < k)%nat -> ilurow m a f i) -> ilu0 n k a f.
Proof.
  intros Hk Hm Z D i j Hi Hj. destruct (D i Hi) as [L U]. destruct (Nat.lt_ge_cases j i) as [C|C].
  - rewrite lu_low by lia. destruct (lrec_field a f i j C (L j C)) as [P Q]. split; [exact P|]. intros N. destruct (Q N). auto.
  - destruct (Nat.lt_ge_cases j m) as [C2|C2].
    + rewrite lu_up by lia. destruct (urec_field a f i j C (U j C C2)) as [P Q]. split; [exact P|]. intros N.
      split; [auto|lia].
    + destruct (Z i j ltac:(lia) C2 Hj) as [Z1 Z2]. split; tauto.
Qed.

(** The outcome in these terms. *)
Definition ilu_zero_pivot n (a : nat -> nat -> T) : Prop :=
  exists f i j, (j < i)%nat /\ (i < n)%nat /\ ilu0 n i a f /\ a i j <> zero /\ f j j = zero.

Lemma stop_zero_pivot n m a f : (m <= n)%nat ->
  (forall i j, (i < n)%nat -> (m <= j)%nat -> (j < n)%nat -> a i j = zero /\ f i j = zero) ->
  ilu_stop n m a f -> ilu_zero_pivot n a.
Proof.
  intros Hm Z (i & j & Hj & Hi & R & _ & N & P). exists f, i, j. split; [auto|]. split; [auto|]. split.
  - apply (rows_ilu0 n m); auto. lia.
  - split; [now apply nzb_true|now apply nzb_false].
Qed.

(** ilu0 determines its rows. *)
Lemma ilu0_rows n k a f : (k <= n)%nat -> ilu0 n k a f -> forall i, (i < k)%nat -> ilurow n a f i.
Proof.
  intros Hk H i Hi. split.
  - intros j Hj. destruct (H i j Hi ltac:(lia)) as [Z N]. rewrite lu_low in N by lia. unfold lrec.
    destruct (nzb (a i j)) eqn:E.
    + apply nzb_true in E. destruct (N E) as [V P]. specialize (P Hj). split; [now apply nzb_true|].
      rewrite ssub_bsum. rewrite <- V at 1. unfold fillin. rewrite Nat.min_r by lia. field. exact P.
    + apply nzb_false in E. rewrite Z; auto.
  - intros j Hij Hj. destruct (H i j Hi Hj) as [Z N]. rewrite lu_up in N by lia. unfold urec.
    destruct (nzb (a i j)) eqn:E.
    + apply nzb_true in E. destruct (N E) as [V P].
      rewrite ssub_bsum. rewrite <- V at 1. unfold fillin. rewrite Nat.min_l by lia. ring.
    + apply nzb_false in E. rewrite Z; auto.
Qed.
Lemma done_no_zero_pivot n a f : ilu0 n n a f -> ~ ilu_zero_pivot n a.
Proof.
  intros D (g & i & j & Hj & Hi & G & N & P).
  assert (E : f j j = g j j).
  { apply (ilurow_unique n n a a f g); auto; try lia; intros i' Hi'; apply (ilu0_rows n n a f) || apply (ilu0_rows n i a g); auto; lia. }
  destruct (D i j Hi ltac:(lia)) as [_ Q]. destruct (Q N) as [_ Q2]. apply (Q2 Hj). congruence.
Qed.


(** The pattern of a is closed under elimination: no fill-in is ever dropped. *)
Definition closed_pattern n (a : nat -> nat -> T) : Prop :=
  forall i j k, (i < n)%nat -> (j < n)%nat -> (k < i)%nat -> (k < j)%nat ->
    a i k <> zero -> a k j <> zero -> a i j <> zero.
Definition full_pattern n (a : nat -> nat -> T) : Prop := forall i j, (i < n)%nat -> (j < n)%nat -> a i j <> zero.
Lemma full_closed n a : full_pattern n a -> closed_pattern n a.
Proof. intros H i j k Hi Hj _ _ _ _. auto. Qed.
(** Tridiagonal with a nonzero diagonal. *)
Lemma tridiag_closed n a : (forall i j, (i < n)%nat -> (j < n)%nat -> (S i < j)%nat \/ (S j < i)%nat -> a i j = zero) ->
  (forall i, (i < n)%nat -> a i i <> zero) -> closed_pattern n a.
Proof.
  intros Z D i j k Hi Hj Hki Hkj N1 N2.
  destruct (Nat.eq_dec i (S k)) as [->|C]. 2:{ exfalso. apply N1, Z; lia. }
  destruct (Nat.eq_dec j (S k)) as [->|C]. 2:{ exfalso. apply N2, Z; lia. }
  auto.
Qed.

Lemma zero_dec (x : T) : {x = zero} + {x <> zero}.
Proof. destruct (nzb x) eqn:E; [right; now apply nzb_true|left; now apply nzb_false]. Qed.

(** With a closed pattern the factorisation is exact. *)
Lemma ilu0_exact n k a f : (k <= n)%nat -> closed_pattern n a -> ilu0 n k a f ->
  meq k n (mmmul n (lfac f) (ufac f)) a.
Proof.
  intros Hk C H i j Hi Hj. destruct (H i j Hi Hj) as [Z N]. destruct (zero_dec (a i j)) as [E|E]; [|now apply N].
  assert (FI : fillin f i j = zero).
  { unfold fillin. apply bsum_zero. intros q Hq.
    destruct (H i q Hi ltac:(lia)) as [Z1 _]. destruct (H q j ltac:(lia) Hj) as [Z2 _].
    destruct (zero_dec (a i q)) as [E1|E1]; [rewrite (Z1 E1); ring|].
    destruct (zero_dec (a q j)) as [E2|E2]; [rewrite (Z2 E2); ring|].
    exfalso. apply (C i j q ltac:(lia) Hj ltac:(lia) ltac:(lia) E1 E2 E). }
  destruct (Nat.lt_ge_cases j i) as [L|L].
  - rewrite lu_low, FI, (Z E), E by lia. ring.
  - rewrite lu_up, FI, (Z E), E by lia. ring.
Qed.

Lemma lfac_nonsingular n f : nonsingular n (lfac f).
Proof.
  apply lower_nonsingular.
  - intros i j _ _ H. now apply lfac_out.
  - intros i Hi. rewrite lfac_diag. exact (F_1_neq_0 (field_th (IsField := Fi))).
Qed.
Lemma ufac_upper n f : upper_tri n (ufac f).
Proof. intros i j _ _ H. now apply ufac_out. Qed.
Lemma ufac_nonsingular n f : (forall i, (i < n)%nat -> f i i <> zero) -> nonsingular n (ufac f).
Proof. intros H. apply upper_nonsingular; [apply ufac_upper|]. intros i Hi. rewrite ufac_in by lia. auto. Qed.
Lemma lu_nonsingular n f : (forall i, (i < n)%nat -> f i i <> zero) -> nonsingular n (mmmul n (lfac f) (ufac f)).
Proof. intros H. apply product_nonsingular; [apply lfac_nonsingular|now apply ufac_nonsingular]. Qed.

(** The leading blocks of L U are the products of the leading blocks. *)
Lemma lu_block n k f i j : (k <= n)%nat -> (i < k)%nat ->
  mmmul n (lfac f) (ufac f) i j = mmmul k (lfac f) (ufac f) i j.
Proof. intros Hk Hi. unfold mmmul. apply bsum_trunc; auto. intros q Hq. rewrite lfac_out by lia. ring. Qed.

Lemma first_zero_pivot f j : f j j = zero -> exists c, (c <= j)%nat /\ f c c = zero /\ forall k, (k < c)%nat -> f k k <> zero.
Proof.
  induction j as [j IH] using lt_wf_ind. intros E.
  assert (D : (exists k, (k < j)%nat /\ f k k = zero) \/ forall k, (k < j)%nat -> f k k <> zero).
  { clear IH E. induction j as [|j [(k & H1 & H2)|H]]; [right; lia|left; exists k; split; [lia|auto]|].
    destruct (zero_dec (f j j)); [left; exists j; split; [lia|auto]|]. right. intros k Hk.
    destruct (Nat.eq_dec k j) as [->|]; auto. apply H. lia. }
  destruct D as [(k & H1 & H2)|H]; [|exists j; split; auto].
  destruct (IH k H1 H2) as (c & C1 & C2 & C3). exists c. split; [lia|auto].
Qed.
Lemma zero_pivot_singular n a f j : (j < n)%nat -> meq (S j) (S j) (mmmul n (lfac f) (ufac f)) a -> f j j = zero ->
  exists k, (k <= S j)%nat /\ ~ nonsingular k a.
Proof.
  intros Hj E Z. destruct (first_zero_pivot f j Z) as (c & Hc & Zc & Nc). exists (S c). split; [lia|]. intros N.
  destruct (upper_null c (ufac f)) as (x & X1 & X2).
  { apply ufac_upper. }
  { intros i Hi. rewrite ufac_in by lia. auto. }
  { rewrite ufac_in by lia. auto. }
  assert (X0 : x c = zero).
  { apply N; [|lia]. intros i Hi.
    rewrite (mvmul_ext (S c) a (mmmul (S c) (lfac f) (ufac f)) x x).
    - rewrite mvmul_assoc. unfold mvmul at 1. apply bsum_zero. intros k Hk. rewrite X2 by auto. ring.
    - intros k Hk. rewrite <- (lu_block n) by lia. symmetry. apply E; lia.
    - auto. }
  apply (F_1_neq_0 (field_th (IsField := Fi))). congruence.
Qed.

(** Substitution with the factors. *)
Lemma ilu_solved_solves n f b x : (forall i, (i < n)%nat -> f i i <> zero) -> ilu_solved n f b x ->
  the_solution n (mmmul n (lfac f) (ufac f)) b x.
Proof.
  intros Hd (y & H1 & H2).
  assert (S1 : solves n (lfac f) y b).
  { intros i Hi. unfold mvmul. rewrite (bsum_trunc n (S i)) by (try lia; intros k Hk; rewrite lfac_out by lia; ring).
    cbn [bsum]. rewrite lfac_diag. pose proof (H1 i Hi) as E. unfold ilu_fwd in E. rewrite ssub_bsum in E. rewrite E.
    rewrite (bsum_ext i _ (fun k => f i k * y k)) by (intros; now rewrite lfac_in by lia). ring. }
  assert (S2 : solves n (ufac f) x y).
  { intros i Hi. unfold mvmul. rewrite (bsum_split n i) by lia.
    rewrite bsum_zero by (intros k Hk; rewrite ufac_out by lia; ring).
    replace (n - i)%nat with (S (n - S i)) by lia. rewrite bsum_first. rewrite Nat.add_0_r, ufac_in by lia.
    pose proof (H2 i Hi) as E. unfold ilu_bwd in E. rewrite ssub_bsum in E.
    rewrite (bsum_ext (n - S i) (fun i0 => ufac f i (i + S i0)%nat * x (i + S i0)%nat) (fun t => f i (S i + t)%nat * x (S i + t)%nat)).
    - rewrite E. field. auto.
    - intros t Ht. rewrite ufac_in by lia. now replace (i + S t)%nat with (S i + t)%nat by lia. }
  assert (SX : solves n (mmmul n (lfac f) (ufac f)) x b).
  { intros i Hi. rewrite mvmul_assoc. rewrite <- (S1 i Hi). apply mvmul_ext; auto. }
  split; [exact SX|]. intros z Hz. eapply solves_unique; eauto. now apply lu_nonsingular.
Qed.

(** The compressed-row view: nothing is stored in the columns from m on. *)
Lemma cview_beyond A n m S (s : S) i j : csr_wf A n -> csr_shape A s = Ok (n, m) s -> (i < n)%nat -> (m <= j)%nat ->
  cview A i j = zero.
Proof.
  intros W Hs Hi Hj. destruct (csr_get_ok A n i j tt W Hi) as (v & Ev & Rv).
  rewrite (cview_ok A n unit tt) in Ev by auto. injection Ev as ->.
  destruct Rv as [Hin|[_ ->]]; [|reflexivity]. exfalso.
  pose proof W as (W1 & W2 & W3 & W4 & W5). pose proof (ptr_le A n (i + 1) W ltac:(lia)) as Hle.
  apply csr_entries_In in Hin; auto. apply csr_row_In in Hin as (_ & k & Hk & Ec & _).
  unfold csr_shape, bind in Hs. destruct (scol A) as [|c0 l] eqn:Es; [discriminate|].
  cbn [max_elem] in Hs. unfold ret in Hs. injection Hs as _ Hm.
  assert (j <= fold_left Nat.max l c0)%nat; [|lia].
  apply max_elem_fold. rewrite <- Ec. apply nth_In. lia.
Qed.
Lemma reads_cview A n a : csr_wf A n -> reads_as A n a -> forall i j, (i < n)%nat -> (j < n)%nat -> a i j = cview A i j.
Proof. intros W R i j Hi Hj. pose proof (R unit tt i j Hi Hj) as E. rewrite (cview_ok A n) in E by auto. congruence. Qed.
Lemma cview_reads A n : csr_wf A n -> reads_as A n (cview A).
Proof. intros W S s i j Hi _. now apply (cview_ok A n). Qed.

Lemma ilu0_ext n k a a' f : (k <= n)%nat -> (forall i j, (i < n)%nat -> (j < n)%nat -> a i j = a' i j) -> ilu0 n k a f -> ilu0 n k a' f.
Proof. intros Hk E H i j Hi Hj. rewrite <- E by lia. now apply H. Qed.
Lemma zero_pivot_ext n a a' : (forall i j, (i < n)%nat -> (j < n)%nat -> a i j = a' i j) -> ilu_zero_pivot n a -> ilu_zero_pivot n a'.
Proof.
  intros E (f & i & j & Hj & Hi & H & N & P). exists f, i, j. split; [auto|]. split; [auto|]. split.
  - apply (ilu0_ext n i a); auto; lia.
  - rewrite <- E by lia. auto.
Qed.

(** ** C44 and C46: the outcome of constructing the preconditioner *)
Theorem C46_dyn_outcome : forall n A h, ismat h A n n -> fits_u32 n = true ->
  (~ ilu_zero_pivot n (mget h A) /\ exists F h', ilu_dyn A h = Ok F h') \/
  (ilu_zero_pivot n (mget h A) /\ exists h', ilu_dyn A h = Throw RuntimeError h' /\ ext h h').
Proof.
  intros n A h HA Hf. pose proof (ilu_dyn_outcome n A h HA Hf) as P. unfold postx in P.
  destruct (ilu_dyn A h) as [F h'|e h'| | | |]; try contradiction.
  - left. destruct P as (_ & D). split; [|eauto]. eapply done_no_zero_pivot.
    apply (rows_ilu0 n n n); [lia|lia|intros; lia|exact D].
  - right. destruct P as (-> & X & f & D). split; [|eauto]. eapply (stop_zero_pivot n n); [lia|intros; lia|exact D].
Qed.

Theorem C44_dyn : forall n A h F h', ismat h A n n -> fits_u32 n = true -> ilu_dyn A h = Ok F h' ->
  newmat h h' F n n (mget h' F) /\ ilu0 n n (mget h A) (mget h' F).
Proof.
  intros n A h F h' HA Hf E. pose proof (ilu_dyn_outcome n A h HA Hf) as P. unfold postx in P. rewrite E in P.
  destruct P as (S & D). split; [auto|].
  apply (rows_ilu0 n n); auto. intros; lia.
Qed.

Lemma zero_eqb : eqb (T := T) zero zero = true.
Proof. now apply (proj2 (eqb_ok zero zero)). Qed.

Lemma csr_outcome n m A S (s : S) a : csr_wf A n -> csr_shape A tt = Ok (n, m) tt -> (m <= n)%nat -> fits_u32 n = true ->
  reads_as A n a ->
  (exists F f, ilu_csr A s = Ok F s /\ csr_wf F n /\ sptr F = sptr A /\ scol F = scol A /\ reads_as F n f /\ ilu0 n n a f) \/
  (ilu_zero_pivot n a /\ ilu_csr A s = Throw RuntimeError s).
Proof.
  intros W Hs Hm Hf R. pose proof (reads_cview A n a W R) as Ea.
  destruct (ilu_csr_outcome n m A S s zero_eqb W Hs Hm Hf) as [(F & E & W' & E1 & E2 & D)|(F & E & W' & E1 & E2 & D)].
  - left. exists F, (cview F). split; [auto|]. split; [auto|]. split; [auto|]. split; [auto|]. split; [now apply cview_reads|].
    apply (ilu0_ext n n (cview A)); [lia|intros; symmetry; now apply Ea|].
    apply (rows_ilu0 n m n); auto. intros i j Hi Hj _. split; [now apply (cview_beyond A n m unit tt)|].
    apply (cview_beyond F n m unit tt); auto. unfold csr_shape, bind in *. now rewrite E1, E2.
  - right. split; [|auto]. apply (zero_pivot_ext n (cview A)); [intros; symmetry; now apply Ea|].
    apply (stop_zero_pivot n m _ (cview F)); auto. intros i j Hi Hj _. split; [now apply (cview_beyond A n m unit tt)|].
    apply (cview_beyond F n m unit tt); auto. unfold csr_shape, bind in *. now rewrite E1, E2.
Qed.

Theorem C46_csr_outcome : forall n m A a S (s : S), csr_wf A n -> csr_shape A tt = Ok (n, m) tt -> (m <= n)%nat ->
  fits_u32 n = true -> reads_as A n a ->
  (~ ilu_zero_pivot n a /\ exists F, ilu_csr A s = Ok F s) \/
  (ilu_zero_pivot n a /\ ilu_csr A s = Throw RuntimeError s).
Proof.
  intros n m A a S s W Hs Hm Hf R. destruct (csr_outcome n m A S s a W Hs Hm Hf R) as [(F & f & E & _ & _ & _ & _ & D)|D]; [|auto].
  left. split; [now apply (done_no_zero_pivot n a f)|eauto].
Qed.

Theorem C44_csr : forall n m A a S (s : S) F s', csr_wf A n -> csr_shape A tt = Ok (n, m) tt -> (m <= n)%nat ->
  fits_u32 n = true -> reads_as A n a -> ilu_csr A s = Ok F s' ->
  s' = s /\ csr_wf F n /\ sptr F = sptr A /\ scol F = scol A /\ exists f, reads_as F n f /\ ilu0 n n a f.
Proof.
  intros n m A a S s F s' W Hs Hm Hf R E.
  destruct (csr_outcome n m A S s a W Hs Hm Hf R) as [(F' & f & E' & W' & E1 & E2 & R' & D)|[_ D]]; [|congruence].
  rewrite E in E'. injection E' as -> ->. eauto 10.
Qed.

(** ** C45 *)
Theorem C45_dyn : forall n F rhs h, ismat h F n n -> fits_u32 n = true -> isvec h rhs n ->
  (forall i, (i < n)%nat -> mget h F i i <> zero) ->
  exists x h', ilu_dyn_solve F rhs h = Ok x h' /\ newvec h h' x n (rd h' x) /\
    the_solution n (mmmul n (lfac (mget h F)) (ufac (mget h F))) (rd h rhs) (rd h' x).
Proof.
  intros n F rhs h (A1 & A2 & A3 & A4) Hf HV Hd.
  pose proof (ilu_solve_ok (mat_get F) (mget h F) n rhs h Hf HV) as P.
  assert (G : forall h1 i j, ext h h1 -> (i < n)%nat -> (j < n)%nat -> mat_get F i j h1 = Ok (mget h F i j) h1).
  { intros h1 i j [X1 X2] Hi Hj. unfold mat_get, load, mget, rd. rewrite X2 by auto.
    destruct (nth_error (mem h (mp F)) (i * mc F + j)) as [v|] eqn:E.
    - f_equal. symmetry. now apply nth_error_nth.
    - exfalso. apply nth_error_None in E. unfold len in A4. rewrite A3 in E. nia. }
  specialize (P G). unfold post, ilu_dyn_solve in *.
  destruct (ilu_solve (mat_get F) rhs h) as [x h'|e h'| | | |]; try contradiction.
  destruct P as [N Sv]. exists x, h'. split; [auto|]. split; [auto|]. now apply ilu_solved_solves.
Qed.

Theorem C45_csr : forall n F f rhs h, csr_wf F n -> reads_as F n f -> fits_u32 n = true -> isvec h rhs n ->
  (forall i, (i < n)%nat -> f i i <> zero) ->
  exists x h', ilu_csr_solve F rhs h = Ok x h' /\ newvec h h' x n (rd h' x) /\
    the_solution n (mmmul n (lfac f) (ufac f)) (rd h rhs) (rd h' x).
Proof.
  intros n F f rhs h W R Hf HV Hd.
  pose proof (ilu_solve_ok (csr_get F) f n rhs h Hf HV) as P.
  assert (G : forall h1 i j, ext h h1 -> (i < n)%nat -> (j < n)%nat -> csr_get F i j h1 = Ok (f i j) h1) by (intros; now apply R).
  specialize (P G). unfold post, ilu_csr_solve in *.
  destruct (ilu_solve (csr_get F) rhs h) as [x h'|e h'| | | |]; try contradiction.
  destruct P as [N Sv]. exists x, h'. split; [auto|]. split; [auto|]. now apply ilu_solved_solves.
Qed.


(** ** When no fill-in is dropped *)
Lemma exact_pivots n a f : closed_pattern n a -> ilu0 n n a f -> (nonsingular n a <-> forall i, (i < n)%nat -> f i i <> zero).
Proof.
  intros C D. pose proof (ilu0_exact n n a f (le_n n) C D) as E. split.
  - intros N i Hi Z.
    destruct (first_zero_pivot f i Z) as (c & Hc & Zc & Nc).
    destruct (upper_solve c (ufac f) (fun i => - ufac f i c)) as [x Hx].
    { apply ufac_upper. } { intros q Hq. rewrite ufac_in by lia. auto. }
    pose (z := fun q => if Nat.ltb q c then x q else if Nat.eqb q c then one else zero).
    assert (Zz : z c = zero).
    { apply N; [|lia]. intros r Hr.
      rewrite (mvmul_ext n a (mmmul n (lfac f) (ufac f)) z z) by (auto; intros k Hk; symmetry; now apply E).
      rewrite mvmul_assoc. unfold mvmul at 1. apply bsum_zero. intros k Hk.
      assert (U : mvmul n (ufac f) z k = zero); [|rewrite U; ring].
      destruct (Nat.lt_ge_cases k c) as [L|L].
      - unfold mvmul. rewrite (bsum_trunc n (S c)); [|lia|intros q Hq; unfold z; destruct (Nat.ltb_spec q c); [lia|]; destruct (Nat.eqb_spec q c); [lia|ring]].
        cbn [bsum]. rewrite (bsum_ext c _ (fun q => ufac f k q * x q)).
        + change (bsum c (fun q => ufac f k q * x q)) with (mvmul c (ufac f) x k). rewrite (Hx k L).
          unfold z. rewrite Nat.ltb_irrefl, Nat.eqb_refl. ring.
        + intros q Hq. unfold z. destruct (Nat.ltb_spec q c); [auto|lia].
      - unfold mvmul. apply bsum_zero. intros q Hq. unfold z. destruct (Nat.ltb_spec q c); [rewrite ufac_out by lia; ring|].
        destruct (Nat.eqb_spec q c) as [->|]; [|ring]. destruct (Nat.eq_dec k c) as [->|]; [rewrite ufac_in by lia; rewrite Zc; ring|].
        rewrite ufac_out by lia. ring. }
    unfold z in Zz. rewrite Nat.ltb_irrefl, Nat.eqb_refl in Zz. exact (F_1_neq_0 (field_th (IsField := Fi)) Zz).
  - intros Hd. apply (nonsingular_meq n _ _ E). now apply lu_nonsingular.
Qed.

Lemma the_solution_meq n A B b x : meq n n A B -> the_solution n A b x -> the_solution n B b x.
Proof.
  intros E [S U]. split; [now apply (solves_meq n A)|]. intros y Hy. apply U. apply (solves_meq n B); auto.
  intros i j Hi Hj. symmetry. now apply E.
Qed.

Theorem C45_dyn_exact : forall n A rhs h F h1, ismat h A n n -> fits_u32 n = true -> isvec h rhs n ->
  closed_pattern n (mget h A) -> ilu_dyn A h = Ok F h1 -> nonsingular n (mget h A) ->
  exists x h2, ilu_dyn_solve F rhs h1 = Ok x h2 /\ newvec h1 h2 x n (rd h2 x) /\
    the_solution n (mget h A) (rd h rhs) (rd h2 x).
Proof.
  intros n A rhs h F h1 HA Hf [V1 V2] C E N.
  destruct (C44_dyn n A h F h1 HA Hf E) as (((X1 & X2) & _ & HA1 & _) & D).
  assert (M : mem h1 rhs = mem h rhs) by auto.
  destruct (C45_dyn n F rhs h1 HA1 Hf) as (x & h2 & E2 & NV & S).
  - split; [lia|]. unfold len in *. now rewrite M.
  - now apply (exact_pivots n (mget h A)).
  - exists x, h2. split; [auto|]. split; [auto|].
    apply (the_solution_meq n _ _ _ _ (ilu0_exact n n _ _ (le_n n) C D)).
    assert (R : rd h1 rhs = rd h rhs) by (unfold rd; now rewrite M). rewrite R in S. exact S.
Qed.
Theorem C45_csr_exact : forall n m A a rhs h F, csr_wf A n -> csr_shape A tt = Ok (n, m) tt -> (m <= n)%nat -> reads_as A n a ->
  fits_u32 n = true -> isvec h rhs n ->
  closed_pattern n a -> ilu_csr A h = Ok F h -> nonsingular n a ->
  exists x h2, ilu_csr_solve F rhs h = Ok x h2 /\ newvec h h2 x n (rd h2 x) /\ the_solution n a (rd h rhs) (rd h2 x).
Proof.
  intros n m A a rhs h F W Hs Hm R Hf HV C E N.
  destruct (C44_csr n m A a (heap T) h F h W Hs Hm Hf R E) as (_ & W' & _ & _ & f & R' & D).
  destruct (C45_csr n F f rhs h W' R' Hf HV) as (x & h2 & E2 & NV & S).
  - now apply (exact_pivots n a).
  - exists x, h2. split; [auto|]. split; [auto|].
    exact (the_solution_meq n _ _ _ _ (ilu0_exact n n _ _ (le_n n) C D) S).
Qed.

(** What the exception does tell: for a matrix without zero entries it is thrown exactly when a
    proper leading block is singular. *)
Lemma zero_pivot_leading n a : closed_pattern n a -> ilu_zero_pivot n a -> exists k, (k < n)%nat /\ ~ nonsingular k a.
Proof.
  intros C (f & i & j & Hj & Hi & D & N & Z).
  destruct (zero_pivot_singular n a f j ltac:(lia)) as (k & Hk & Hs); auto.
  - intros p q Hp Hq. apply (ilu0_exact n i a f); auto; lia.
  - exists k. split; [lia|auto].
Qed.
Lemma leading_zero_pivot n a f : full_pattern n a -> ilu0 n n a f -> forall k, (k < n)%nat -> nonsingular k a.
Proof.
  intros Fp D k Hk. pose proof (ilu0_exact n n a f (le_n n) (full_closed n a Fp) D) as E.
  apply (nonsingular_meq k (mmmul k (lfac f) (ufac f))).
  - intros i j Hi Hj. rewrite <- (lu_block n) by lia. apply E; lia.
  - apply lu_nonsingular. intros i Hi. destruct (D k i ltac:(lia) ltac:(lia)) as [_ Q]. apply Q; auto. apply Fp; lia.
Qed.

Theorem C46_full_pattern : forall n A h, ismat h A n n -> fits_u32 n = true -> full_pattern n (mget h A) ->
  (exists h', ilu_dyn A h = Throw RuntimeError h') <-> exists k, (k < n)%nat /\ ~ nonsingular k (mget h A).
Proof.
  intros n A h HA Hf Fp. destruct (C46_dyn_outcome n A h HA Hf) as [[Z (F & h' & E)]|[Z (h' & E & _)]]; split; intros H; eauto.
  - destruct H as (h2 & H). congruence.
  - exfalso. destruct H as (k & Hk & H). apply H.
    destruct (C44_dyn n A h F h' HA Hf E) as (_ & D). now apply (leading_zero_pivot n _ _ Fp D).
  - now apply zero_pivot_leading, Z; apply full_closed.
Qed.
Theorem C46_closed_throws : forall n A h h', ismat h A n n -> fits_u32 n = true -> closed_pattern n (mget h A) ->
  ilu_dyn A h = Throw RuntimeError h' -> exists k, (k < n)%nat /\ ~ nonsingular k (mget h A).
Proof.
  intros n A h h' HA Hf C E. destruct (C46_dyn_outcome n A h HA Hf) as [[Z (F & h2 & E2)]|[Z _]]; [congruence|].
  now apply zero_pivot_leading.
Qed.
(** ... and an accepted matrix is nonsingular exactly when no pivot is zero. *)
Theorem C46_accepted : forall n A h F h', ismat h A n n -> fits_u32 n = true -> closed_pattern n (mget h A) ->
  ilu_dyn A h = Ok F h' -> (nonsingular n (mget h A) <-> forall i, (i < n)%nat -> mget h' F i i <> zero).
Proof.
  intros n A h F h' HA Hf C E. destruct (C44_dyn n A h F h' HA Hf E) as (_ & D). now apply exact_pivots.
Qed.
End Field.

(** ** Concrete cases, over the rationals *)
Definition Q3 : heap Qc := heap_of [map qz [2; 1; 1;  1; 2; 0;  1; 0; 2]%Z; map qz [1; 2; 3]%Z].
Definition T3 : heap Qc := heap_of [map qz [2; 1; 0;  1; 2; 1;  0; 1; 2]%Z; map qz [3; 4; 3]%Z].
Definition A3 : mat := mkMat 0 3 3.

(** Hypotheses of the theorems, and a case where fill-in is dropped at (1,2): L U is 1/2 there,
    although A is 0. *)
Example C44_ex : ismat Q3 A3 3 3 /\ isvec Q3 1 3 /\
  exists F h', ilu_dyn A3 Q3 = Ok F h' /\ mem h' 0 = mem Q3 0 /\
    map this (mem h' (mp F)) = [2; 1; 1;  1 # 2; 3 # 2; 0;  1 # 2; 0; 3 # 2]%Q /\
    this (mmmul 3 (lfac (mget h' F)) (ufac (mget h' F)) 1 2) = (1 # 2)%Q /\
    forall i, i < 3 -> mget h' F i i <> zero.
Proof.
  split; [repeat split; vm_compute; lia|]. split; [repeat split; vm_compute; lia|].
  eexists. eexists. split; [vm_compute; reflexivity|]. split; [reflexivity|]. split; [vm_compute; reflexivity|]. split; [vm_compute; reflexivity|].
  intros [|[|[|i]]] Hi; try lia; intros E; apply (f_equal this) in E; vm_compute in E; discriminate.
Qed.
(** A tridiagonal matrix: nothing is dropped, and one application solves A x = b. *)
Lemma T3_closed : closed_pattern 3 (mget T3 A3).
Proof.
  apply tridiag_closed.
  - intros [|[|[|i]]] [|[|[|j]]] Hi Hj H; try lia; reflexivity.
  - intros [|[|[|i]]] Hi E; try lia; apply (f_equal this) in E; vm_compute in E; discriminate.
Qed.
Example C45_ex : exists F h1 x h2, ilu_dyn A3 T3 = Ok F h1 /\ ilu_dyn_solve F 1 h1 = Ok x h2 /\
  map this (mem h2 x) = [1; 1; 1]%Q.
Proof. eexists. eexists. eexists. eexists. split; [vm_compute; reflexivity|]. split; [vm_compute; reflexivity|vm_compute; reflexivity]. Qed.
(** The same matrix in compressed rows. *)
Definition S3 : csr Qc := mkCsr (map qz [2; 1; 1; 2; 1; 1; 2]%Z) [0; 2; 5; 7] [0; 1; 0; 1; 2; 1; 2].
Example C44_csr_ex : csr_wf S3 3 /\ csr_shape S3 tt = Ok (3, 3) tt /\ reads_as S3 3 (mget T3 A3) /\
  exists F x h2, ilu_csr S3 T3 = Ok F T3 /\ map this (sval F) = [2; 1; 1 # 2; 3 # 2; 1; 2 # 3; 4 # 3]%Q /\
    ilu_csr_solve F 1 T3 = Ok x h2 /\ map this (mem h2 x) = [1; 1; 1]%Q.
Proof.
  split. { repeat split; try reflexivity. intros [|[|[|i]]] Hi; vm_compute; lia. }
  split; [reflexivity|]. split.
  { intros S s [|[|[|i]]] j Hi Hj; try lia; (destruct j as [|[|[|j]]]; [..|lia]; reflexivity). }
  eexists. eexists. eexists. split; [vm_compute; reflexivity|]. split; [vm_compute; reflexivity|].
  split; [vm_compute; reflexivity|vm_compute; reflexivity].
Qed.

(** ** C46 as stated is false in both directions *)
Lemma nonsingular_swap : nonsingular 2 (mget (heap_of [qm 0 1 1 0]) (mkMat 0 2 2)).
Proof.
  intros x H i Hi. pose proof (H 0 ltac:(lia)) as H0. pose proof (H 1 ltac:(lia)) as H1.
  change (0 + 0 * x 0%nat + 1 * x 1%nat = 0)%Qc in H0. change (0 + 1 * x 0%nat + 0 * x 1%nat = 0)%Qc in H1.
  assert (E1 : x 1 = 0%Qc). { etransitivity; [|exact H0]. ring. }
  assert (E0 : x 0 = 0%Qc). { etransitivity; [|exact H1]. ring. }
  destruct i as [|[|i]]; auto; lia.
Qed.
Theorem C46_rejects_refuted : exists n A (h : heap Qc), ismat h A n n /\ nonsingular n (mget h A) /\
  exists h', ilu_dyn A h = Throw RuntimeError h'.
Proof.
  exists 2, (mkMat 0 2 2), (heap_of [qm 0 1 1 0]). split; [repeat split; vm_compute; lia|].
  split; [apply nonsingular_swap|]. eexists. vm_compute. reflexivity.
Qed.
Theorem C46_accepts_refuted : exists n A (h : heap Qc), ismat h A n n /\ ~ nonsingular n (mget h A) /\
  exists F h', ilu_dyn A h = Ok F h'.
Proof.
  exists 2, (mkMat 0 2 2), (heap_of [qm 1 1 1 1]). split; [repeat split; vm_compute; lia|].
  split.
  - intros N. specialize (N (fun i => if Nat.eqb i 0 then qz 1 else qz (-1))).
    assert (E : qz 1 = 0%Qc); [|apply (f_equal this) in E; vm_compute in E; discriminate].
    apply (N ltac:(intros [|[|i]] Hi; try lia; apply Qc_is_canon; vm_compute; reflexivity) 0). lia.
  - eexists. eexists. vm_compute. reflexivity.
Qed.
(** In binary64 the accepted singular matrix then yields a vector that is no solution of anything:
    applying it to (1, 2) divides by the zero pivot. *)
Theorem C46_accepts_float : exists (h : heap PrimFloat.float) F h1 x h2, mem h 0 = [1; 1; 1; 1]%float /\
  ilu_dyn (mkMat 0 2 2) h = Ok F h1 /\ ilu_dyn_solve F 1 h1 = Ok x h2 /\
  mem h2 x = [PrimFloat.neg_infinity; PrimFloat.infinity].
Proof.
  exists (heap_of [[1; 1; 1; 1]; [1; 2]]%float). do 4 eexists. split; [reflexivity|].
  split; [vm_compute; reflexivity|]. split; vm_compute; reflexivity.
Qed.

Print Assumptions C44_dyn.
Print Assumptions C44_csr.
Print Assumptions C45_dyn.
Print Assumptions C45_csr.
Print Assumptions C45_dyn_exact.
Print Assumptions C45_csr_exact.
Print Assumptions C46_dyn_outcome.
Print Assumptions C46_csr_outcome.
Print Assumptions C46_full_pattern.
Print Assumptions C46_closed_throws.
Print Assumptions C46_accepted.
Print Assumptions C46_rejects_refuted.
Print Assumptions C46_accepts_refuted.
Print Assumptions C46_accepts_float.
