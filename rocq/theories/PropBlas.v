(** * Property C18: products with the BLAS backend *)
From Coq Require Import Ring.
From Verif Require Import Base Scalar BaseLemmas Spec Sums ModelVec ModelMat SpecMat ProofVec ProofMat ProofMatOps
  ProofMatProp PropMat ModelBlas SpecBlas.
Local Open Scope nat_scope.

Lemma c_int_small n : (Z.of_nat n < 2 ^ 31)%Z -> c_int n = Z.of_nat n.
Proof. intros H. apply to_int32_small. lia. Qed.
Lemma small_u32 n : (Z.of_nat n < 2 ^ 31)%Z -> fits_u32 n = true.
Proof. intros H. unfold fits_u32. apply Z.ltb_lt. lia. Qed.

(** The two calls return the same object and leave the same contents in every object that
    existed before. *)
Definition agree {T A} (m1 m2 : M (heap T) A) (h : heap T) (r : A) : Prop :=
  exists h1 h2, m1 h = Ok r h1 /\ m2 h = Ok r h2 /\ next h <= next h1 /\ next h <= next h2 /\
    forall q, q < next h -> mem h1 q = mem h2 q.

Lemma bind_run {S A B} (m : M S A) (f : A -> M S B) s a s' : m s = Ok a s' -> bind m f s = f a s'.
Proof. intros E. unfold bind. now rewrite E. Qed.
Lemma bind_term {S A B} (m : M S A) (f : A -> M S B) s : m s = Terminate -> bind m f s = Terminate.
Proof. intros E. unfold bind. now rewrite E. Qed.

Section C18.
Context {T : Type} {Op : Ops T} {R : IsRing T Op}.
Implicit Types (h : heap T).
Add Ring Tring18 : (ring_th (IsRing := R)).
Lemma plus_mul_zero (a b : T) : add a (mul b zero) = a. Proof. ring. Qed.

Lemma setvec_agree (m1 m2 : M (heap T) ptr) h y n f :
  (exists h1, m1 h = Ok y h1 /\ setvec h h1 y n f) -> (exists h2, m2 h = Ok y h2 /\ setvec h h2 y n f) -> agree m1 m2 h y.
Proof.
  intros (h1 & E1 & [N1 F1] & [_ L1] & V1) (h2 & E2 & [N2 F2] & [_ L2] & V2). exists h1, h2. do 4 (split; [auto|]).
  intros q Hq. destruct (Nat.eq_dec q y) as [->|Ne]; [|rewrite F1, F2; auto].
  apply (list_ext_nth zero); [unfold len in *; congruence|]. intros i Hi. unfold len in L1. rewrite L1 in Hi.
  specialize (V1 i Hi). specialize (V2 i Hi). unfold rd in *. congruence.
Qed.
Lemma setmat_agree (m1 m2 : M (heap T) mat) h C n m f :
  (exists h1, m1 h = Ok C h1 /\ setmat h h1 C n m f) -> (exists h2, m2 h = Ok C h2 /\ setmat h h2 C n m f) -> agree m1 m2 h C.
Proof.
  intros (h1 & E1 & [N1 F1] & (_ & _ & C1 & L1) & V1) (h2 & E2 & [N2 F2] & (_ & _ & C2 & L2) & V2).
  exists h1, h2. do 4 (split; [auto|]).
  intros q Hq. destruct (Nat.eq_dec q (mp C)) as [->|Ne]; [|rewrite F1, F2; auto].
  apply (list_ext_nth zero); [unfold len in *; congruence|]. intros p Hp. unfold len in L1. rewrite L1 in Hp.
  assert (Hm : m <> 0) by (intros ->; lia).
  assert (Hi : p / m < n) by (apply Nat.div_lt_upper_bound; [auto|lia]).
  assert (Hj : p mod m < m) by (apply Nat.mod_upper_bound; auto).
  specialize (V1 _ _ Hi Hj). specialize (V2 _ _ Hi Hj). unfold mget, rd in *. rewrite C1 in V1, V2.
  rewrite Nat.mul_comm, <- Nat.div_mod in V1 by auto. rewrite Nat.mul_comm, <- Nat.div_mod in V2 by auto. congruence.
Qed.

Section Vec.
Variable gemv : gemv_routine (T := T).
Hypothesis G : gemv_contract gemv.

(** The call made by the kernel, for a matrix object and two distinct vectors. *)
Lemma gemv_call A x alpha beta y n m h : (Z.of_nat n < 2 ^ 31)%Z -> (Z.of_nat m < 2 ^ 31)%Z -> 0 < m ->
  n * m <= len h (mp A) -> mc A = m -> m <= len h x -> n <= len h y -> x <> y -> mp A <> y ->
  post (gemv (c_int n) (c_int m) alpha (mp A) (c_int (Nat.max 1 m)) x beta y) h (fun _ h' =>
    wrote_only h h' y /\
    (forall i, i < n -> rd h' y i = add (mul alpha (mvmul m (mget h A) (rd h x) i)) (mul beta (rd h y i)))).
Proof.
  intros Hn Hm Pm HA E Hx Hy Nxy Nay. rewrite !c_int_small by lia. replace (Nat.max 1 m) with m by lia.
  destruct (Nat.eq_dec n 0) as [->|Nz].
  - unfold post. rewrite (gemv_no_rows _ G) by lia. split; [repeat split; auto|]. intros; lia.
  - eapply post_mono; [apply (gemv_computes _ G); auto; try lia|].
    { replace ((n - 1) * m + m) with (n * m) by nia. auto. }
    cbv beta. intros _ h' (W & V & _). split; [exact W|]. intros i Hi. rewrite V by auto.
    unfold mvmul, mget. now rewrite E.
Qed.

(** *** y = alpha*A*x + beta*y, x and y different objects: the same as the built-in kernel. *)
Theorem C18_matvec : forall dbg alpha A x beta y n m h,
  (Z.of_nat n < 2 ^ 31)%Z -> (Z.of_nat m < 2 ^ 31)%Z -> 0 < m ->
  ismat h A n m -> isvec h x m -> isvec h y n -> mp A <> y -> x <> y ->
  agree (mulv_blas gemv dbg alpha A x beta y) (mulv dbg alpha A x beta y) h y.
Proof.
  intros dbg alpha A x beta y n m h Hn Hm Pm HA Hx Hy Nay Nxy.
  eapply setvec_agree; [|apply (C14_matvec T Op R dbg alpha A x beta y n m); auto using small_u32].
  apply post_eq. pose proof HA as (A1 & A2 & A3 & A4). pose proof Hx as (X1 & X2). pose proof Hy as (Y1 & Y2).
  unfold mulv_blas. repeat pstep.
  apply post_assert; [apply Nat.eqb_eq; lia|]. pstep. apply post_assert; [apply Nat.eqb_eq; lia|]. pstep.
  unfold mv_core_blas. destruct (Nat.eqb_spec x y); [contradiction|]. pstep. rewrite A2, A3.
  eapply post_mono; [apply (gemv_call A x alpha beta y n m); auto; lia|].
  cbv beta. intros _ h' ((N & F & L) & V). repeat pstep. split; [auto|]. split; [split; [lia|auto]|]. split; [split; lia|]. exact V.
Qed.

(** *** In place (x and y the same vector): the BLAS path computes alpha*A*y and drops beta*y. *)
Theorem C18_matvec_inplace : forall dbg alpha A beta y n h,
  (Z.of_nat n < 2 ^ 31)%Z -> 0 < n -> ismat h A n n -> isvec h y n -> mp A <> y ->
  exists h', mulv_blas gemv dbg alpha A y beta y h = Ok y h' /\
    setvec h h' y n (fun i => mul alpha (mvmul n (mget h A) (rd h y) i)).
Proof.
  intros dbg alpha A beta y n h Hn Pn HA Hy Nay. apply post_eq.
  pose proof HA as (A1 & A2 & A3 & A4). pose proof Hy as (Y1 & Y2).
  unfold mulv_blas. repeat pstep.
  apply post_assert; [apply Nat.eqb_eq; lia|]. pstep. apply post_assert; [apply Nat.eqb_eq; lia|]. pstep.
  unfold mv_core_blas. rewrite Nat.eqb_refl. repeat pstep. rewrite A2, A3.
  set (h1 := halloc h (repeat zero n)).
  assert (Hl1 : forall q, q < next h -> len h1 q = len h q) by (intros; apply live_len; auto).
  assert (Ht : len h1 (next h) = n) by (unfold h1; rewrite new_len; apply repeat_length).
  eapply post_mono; [apply (gemv_call A y alpha beta (next h) n n h1); rewrite ?Hl1 by auto; auto; try lia|].
  cbv beta. intros _ h2 ((N & F & L) & V). pstep.
  assert (Ly : len h2 y = n) by (unfold len in *; rewrite F by lia; rewrite <- Y2; apply Hl1; auto).
  apply post_copy_n; try lia.
  intros h3 F3 L3 N3 V3. repeat pstep. split; [auto|].
  assert (NX : next h1 = S (next h)) by reflexivity.
  split; [split; [lia|]|split; [split; lia|]].
  - intros q Hq Ne. rewrite F3, F by lia. unfold h1. apply mem_halloc_other. lia.
  - intros i Hi. rewrite V3. destruct (Nat.ltb_spec i n); [|lia]. rewrite V by auto.
    assert (Z0 : rd h1 (next h) i = zero) by (unfold rd, h1; rewrite mem_halloc_same; apply nth_repeat_same).
    rewrite Z0. rewrite plus_mul_zero. f_equal. apply mvmul_ext.
    + intros k Hk. unfold mget, rd, h1. rewrite mem_halloc_other by lia. reflexivity.
    + intros k Hk. unfold rd, h1. rewrite mem_halloc_other by lia. reflexivity.
Qed.

(** With beta = 0 nothing is lost: the in-place product agrees with the built-in one. *)
Corollary C18_matvec_inplace_beta0 : forall dbg alpha A y n h,
  (Z.of_nat n < 2 ^ 31)%Z -> 0 < n -> ismat h A n n -> isvec h y n -> mp A <> y ->
  agree (mulv_blas gemv dbg alpha A y zero y) (mulv dbg alpha A y zero y) h y.
Proof.
  intros. eapply setvec_agree; [apply C18_matvec_inplace; eauto|].
  apply (C14_matvec_inplace T Op R dbg alpha A y n); auto using small_u32.
Qed.

(** The operator A * x. *)
Theorem C18_matvec_operator : forall dbg A x n m h,
  (Z.of_nat n < 2 ^ 31)%Z -> (Z.of_nat m < 2 ^ 31)%Z -> 0 < m -> ismat h A n m -> isvec h x m ->
  same_vec (op_mulv_blas gemv dbg A x) (op_mulv dbg A x) h n.
Proof.
  intros dbg A x n m h Hn Hm Pm HA Hx.
  destruct (C14_matvec_operator T Op R dbg A x n m h (small_u32 n Hn) (small_u32 m Hm) HA Hx) as (v2 & h2 & E2 & X2 & _ & I2 & V2).
  enough (P : post (op_mulv_blas gemv dbg A x) h (fun v h' => newvec h h' v n (mvmul m (mget h A) (rd h x)))).
  { apply post_ok in P. destruct P as (v1 & h1 & E1 & X1 & _ & I1 & V1). exists v1, h1, v2, h2.
    do 6 (split; [auto|]). intros i Hi. now rewrite V1, V2. }
  pose proof HA as (A1 & A2 & A3 & A4). pose proof Hx as (X1' & X2').
  unfold op_mulv_blas. repeat pstep. apply post_assert; [apply Nat.eqb_eq; lia|]. repeat pstep.
  unfold mv_core_blas. destruct (Nat.eqb_spec x (next h)); [lia|]. rewrite A2, A3. pstep.
  set (h1 := halloc h (repeat zero n)).
  assert (Hl1 : forall q, q < next h -> len h1 q = len h q) by (intros; apply live_len; auto).
  assert (Ht : len h1 (next h) = n) by (unfold h1; rewrite new_len; apply repeat_length).
  eapply post_mono; [apply (gemv_call A x one zero (next h) n m h1); rewrite ?Hl1 by auto; auto; try lia|].
  cbv beta. intros _ h3 ((N & F & L) & V). repeat pstep.
  eapply (newv_then_set h h3 (repeat zero n)); [reflexivity|]. fold h1.
  split; [split; [lia|auto]|]. split; [split; [assert (NX : next h1 = S (next h)) by reflexivity; lia|lia]|].
  intros i Hi. rewrite V by auto. transitivity (mvmul m (mget h1 A) (rd h1 x) i); [ring|].
  apply mvmul_ext; intros k Hk; unfold mget, rd, h1; rewrite mem_halloc_other by lia; reflexivity.
Qed.
End Vec.

Section Mat.
Variable gemm : gemm_routine (T := T).
Hypothesis G : gemm_contract gemm.

Lemma square_call A B alpha beta c n l h : (Z.of_nat n < 2 ^ 31)%Z -> (Z.of_nat l < 2 ^ 31)%Z -> 0 < n -> 0 < l ->
  n * l <= len h (mp A) -> mc A = l -> l * n <= len h (mp B) -> mc B = n -> n * n <= len h c -> mp A <> c -> mp B <> c ->
  post (gemm (c_int n) (c_int n) (c_int l) alpha (mp A) (c_int l) (mp B) (c_int n) beta c (c_int n)) h (fun _ h' =>
    wrote_only h h' c /\
    (forall i j, i < n -> j < n -> rd h' c (i * n + j) =
       add (mul alpha (mmmul l (mget h A) (mget h B) i j)) (mul beta (rd h c (i * n + j))))).
Proof.
  intros Hn Hl Pn Pl HA EA HB EB Hc Nac Nbc. rewrite !c_int_small by lia.
  eapply post_mono; [apply (gemm_computes _ G); auto; try nia|].
  cbv beta. intros _ h' (W & V & _). split; [exact W|]. intros i j Hi Hj. rewrite V by auto.
  unfold mmmul, mget. now rewrite EA, EB.
Qed.

(** *** C = alpha*A*B + beta*C for a square result: the same as the built-in kernel, whatever is
    aliased. *)
Theorem C18_matmat_square : forall dbg alpha A B beta C n l h,
  (Z.of_nat n < 2 ^ 31)%Z -> (Z.of_nat l < 2 ^ 31)%Z -> 0 < n -> 0 < l ->
  ismat h A n l -> ismat h B l n -> ismat h C n n ->
  agree (mulm_blas gemm dbg alpha A B beta C) (mulm dbg alpha A B beta C) h C.
Proof.
  intros dbg alpha A B beta C n l h Hn Hl Pn Pl HA HB HC.
  eapply setmat_agree; [|apply (C15_matmat T Op R dbg alpha A B beta C n n l); auto using small_u32].
  apply post_eq. pose proof HA as (A1 & A2 & A3 & A4). pose proof HB as (B1 & B2 & B3 & B4). pose proof HC as (C1 & C2 & C3 & C4).
  unfold mulm_blas. repeat pstep.
  do 3 (apply post_assert; [apply Nat.eqb_eq; lia|]; pstep).
  rewrite C2, C3, A3. unfold mm_core_blas. destruct (Nat.eqb (mp A) (mp C) || Nat.eqb (mp B) (mp C)) eqn:Al.
  - repeat pstep. set (h1 := halloc h (repeat zero (n * n))). set (t := next h).
    assert (Hl1 : forall q, q < next h -> len h1 q = len h q) by (intros; apply live_len; auto).
    assert (Ht : len h1 t = n * n) by (unfold h1, t; rewrite new_len; apply repeat_length).
    assert (NX : next h1 = S (next h)) by reflexivity.
    assert (Tn : t = next h) by reflexivity. clearbody t.
    apply post_copy_n; rewrite ?Hl1 by lia; try lia.
    intros h2 F2 L2 N2 V2. pstep.
    assert (M2 : forall q, q < next h -> mem h2 q = mem h q).
    { intros q Hq. rewrite F2 by lia. unfold h1. apply mem_halloc_other. lia. }
    assert (Hl2 : forall q, q < next h -> len h2 q = len h q) by (intros; unfold len; rewrite M2; auto).
    assert (Hr2 : forall q i, q < next h -> rd h2 q i = rd h q i) by (intros; unfold rd; rewrite M2; auto).
    eapply post_mono; [apply (square_call A B alpha beta t n l h2); rewrite ?Hl2 by lia; auto; try lia|].
    cbv beta. intros _ h3 ((N3 & F3 & L3) & V3). pstep.
    assert (LC3 : len h3 (mp C) = n * n) by (unfold len in *; rewrite F3, M2 by lia; auto).
    apply post_copy_n; try lia. intros h4 F4 L4 N4 V4. repeat pstep.
    split; [auto|]. split; [split; [lia|]|split; [repeat split; auto; lia|]].
    + intros q Hq Ne. rewrite F4, F3, M2 by lia. auto.
    + intros i j Hi Hj. unfold mget at 1. rewrite C3, V4. pose proof (idx_lt n n i j Hi Hj).
      destruct (Nat.ltb_spec (i * n + j) (n * n)); [|lia]. rewrite V3 by auto. f_equal.
      * f_equal. unfold mmmul. apply bsum_ext. intros k Hk. unfold mget. now rewrite !Hr2 by lia.
      * f_equal. rewrite V2. destruct (Nat.ltb_spec (i * n + j) (n * n)); [|lia].
        unfold mget. rewrite C3. unfold rd, h1. rewrite mem_halloc_other by lia. reflexivity.
  - apply orb_false_elim in Al. destruct Al as [Nac Nbc]. apply Nat.eqb_neq in Nac, Nbc. pstep.
    eapply post_mono; [apply (square_call A B alpha beta (mp C) n l h); auto; lia|].
    cbv beta. intros _ h3 ((N3 & F3 & L3) & V3). repeat pstep.
    split; [auto|]. split; [split; [lia|auto]|split; [repeat split; auto; lia|]].
    intros i j Hi Hj. unfold mget at 1 4. rewrite C3. auto.
Qed.

(** *** More columns than rows: the call is rejected, the result matrix is not computed. *)
Theorem C18_matmat_wide : forall dbg alpha A B beta C n m l h,
  (Z.of_nat n < 2 ^ 31)%Z -> (Z.of_nat m < 2 ^ 31)%Z -> (Z.of_nat l < 2 ^ 31)%Z -> n < m ->
  ismat h A n l -> ismat h B l m -> ismat h C n m ->
  mulm_blas gemm dbg alpha A B beta C h = Terminate \/
  exists h', mulm_blas gemm dbg alpha A B beta C h = Ok C h' /\ ext h h'.
Proof.
  intros dbg alpha A B beta C n m l h Hn Hm Hl Lt (A1 & A2 & A3 & A4) (B1 & B2 & B3 & B4) (C1 & C2 & C3 & C4).
  enough (P : forall Q : M (heap T) ptr, (Q = mm_core_blas gemm n m l alpha (mp A) (mp B) beta (mp C)) ->
     Q h = Terminate \/ exists h', Q h = Ok (mp C) h' /\ ext h h').
  { unfold mulm_blas, noexcept. unfold assert_.
    assert (E : Nat.eqb (mr A) (mr C) = true /\ Nat.eqb (mc B) (mc C) = true /\ Nat.eqb (mc A) (mr B) = true)
      by (repeat split; apply Nat.eqb_eq; lia).
    destruct E as (E1 & E2 & E3). rewrite E1, E2, E3. cbn [negb]. rewrite andb_false_r. cbv beta iota delta [bind].
    rewrite C2, C3, A3. destruct (P _ eq_refl) as [->|(h' & -> & X)]; [auto|right; exists h'; auto]. }
  intros Q ->. unfold mm_core_blas. rewrite !c_int_small by lia.
  assert (RJ : forall a b c h0, rejected (gemm (Z.of_nat n) (Z.of_nat m) (Z.of_nat l) alpha a (Z.of_nat l) b (Z.of_nat m) beta c (Z.of_nat n)) h0).
  { intros a b c h0. apply (gemm_rejects _ G). lia. }
  destruct (Nat.eqb (mp A) (mp C) || Nat.eqb (mp B) (mp C)).
  - set (h1 := halloc h (repeat zero (n * m))).
    assert (P : post (copy_n (n * m) (mp C) (next h)) h1 (fun _ h2 =>
       (forall q, q < next h -> mem h2 q = mem h q) /\ next h2 = S (next h) /\ len h2 (next h) = n * m /\
       forall i, i < n * m -> rd h2 (next h) i = rd h (mp C) i)).
    { assert (Ht : len h1 (next h) = n * m) by (unfold h1; rewrite new_len; apply repeat_length).
      assert (Hl1 : len h1 (mp C) = len h (mp C)) by (apply live_len; auto).
      apply post_copy_n; try lia. intros h2 F2 L2 N2 V2. repeat split; auto; try lia.
      - intros q Hq. rewrite F2 by lia. unfold h1. apply mem_halloc_other. lia.
      - intros i Hi. rewrite V2. destruct (Nat.ltb_spec i (n * m)); [|lia].
        unfold rd, h1. rewrite mem_halloc_other by lia. reflexivity. }
    apply post_ok in P. destruct P as ([] & h2 & E2 & M2 & N2 & L2 & V2).
    assert (EA : alloc (repeat zero (n * m)) h = Ok (next h) h1) by reflexivity.
    rewrite (bind_run _ _ _ _ _ EA). rewrite (bind_run _ _ _ _ _ E2).
    destruct (RJ (mp A) (mp B) (next h) h2) as [E|E]; [left; now apply bind_term|right; rewrite (bind_run _ _ _ _ _ E)].
    assert (P : post (copy_n (n * m) (next h) (mp C)) h2 (fun _ h3 => ext h h3)).
    { assert (LC : len h2 (mp C) = n * m) by (unfold len in *; rewrite M2; auto).
      apply post_copy_n; try lia. intros h3 F3 L3 N3 V3. split; [lia|]. intros q Hq.
      destruct (Nat.eq_dec q (mp C)) as [->|Ne]; [|rewrite F3, M2; auto].
      apply (list_ext_nth zero). { unfold len in *. congruence. }
      intros i Hi. unfold len in LC, L3, C4. rewrite L3, LC in Hi. specialize (V3 i). specialize (V2 i Hi).
      destruct (Nat.ltb_spec i (n * m)); [|lia]. unfold rd in *. congruence. }
    apply post_ok in P. destruct P as ([] & h3 & E3 & X). exists h3. rewrite (bind_run _ _ _ _ _ E3). auto.
  - destruct (RJ (mp A) (mp B) (mp C) h) as [E|E]; [left; now apply bind_term|right; rewrite (bind_run _ _ _ _ _ E)].
    exists h. split; [reflexivity|apply ext_refl].
Qed.

(** *** More rows than columns: the library writes past the end of the result. *)
Theorem C18_matmat_tall : forall dbg alpha A B beta C n m l h,
  (Z.of_nat n < 2 ^ 31)%Z -> (Z.of_nat m < 2 ^ 31)%Z -> (Z.of_nat l < 2 ^ 31)%Z -> 0 < m -> m < n -> 0 < l ->
  ismat h A n l -> ismat h B l m -> ismat h C n m ->
  mulm_blas gemm dbg alpha A B beta C h = UB.
Proof.
  intros dbg alpha A B beta C n m l h Hn Hm Hl Pm Lt Pl (A1 & A2 & A3 & A4) (B1 & B2 & B3 & B4) (C1 & C2 & C3 & C4).
  unfold mulm_blas, noexcept, assert_.
  assert (E : Nat.eqb (mr A) (mr C) = true /\ Nat.eqb (mc B) (mc C) = true /\ Nat.eqb (mc A) (mr B) = true)
    by (repeat split; apply Nat.eqb_eq; lia).
  destruct E as (E1 & E2 & E3). rewrite E1, E2, E3. cbn [negb]. rewrite andb_false_r. cbv beta iota delta [bind].
  rewrite C2, C3, A3. unfold mm_core_blas. rewrite !c_int_small by lia.
  destruct (Nat.eqb (mp A) (mp C) || Nat.eqb (mp B) (mp C)) eqn:Al.
  - set (h1 := halloc h (repeat zero (n * m))).
    assert (P : post (copy_n (n * m) (mp C) (next h)) h1 (fun _ h2 => len h2 (next h) = n * m)).
    { assert (Ht : len h1 (next h) = n * m) by (unfold h1; rewrite new_len; apply repeat_length).
      assert (Hl1 : len h1 (mp C) = len h (mp C)) by (apply live_len; auto).
      apply post_copy_n; lia. }
    apply post_ok in P. destruct P as ([] & h2 & X2 & L2).
    assert (EA : alloc (repeat zero (n * m)) h = Ok (next h) h1) by reflexivity.
    rewrite (bind_run _ _ _ _ _ EA). rewrite (bind_run _ _ _ _ _ X2). unfold bind.
    rewrite (gemm_overrun _ G); auto; try lia. nia.
  - apply orb_false_elim in Al. destruct Al as [Nac Nbc]. apply Nat.eqb_neq in Nac, Nbc.
    unfold bind. rewrite (gemm_overrun _ G); auto; try lia. nia.
Qed.

(** The operator A * B. *)
Theorem C18_matmat_operator : forall dbg A B n m l h,
  (Z.of_nat n < 2 ^ 31)%Z -> (Z.of_nat m < 2 ^ 31)%Z -> (Z.of_nat l < 2 ^ 31)%Z -> 0 < n -> 0 < m -> 0 < l ->
  ismat h A n l -> ismat h B l m ->
  (n = m -> same_mat (op_mulm_blas gemm dbg A B) (op_mulm dbg A B) h n m) /\
  (n < m -> op_mulm_blas gemm dbg A B h = Terminate \/
     exists C h', op_mulm_blas gemm dbg A B h = Ok C h' /\ newmat h h' C n m (fun _ _ => zero)) /\
  (m < n -> op_mulm_blas gemm dbg A B h = UB).
Proof.
  intros dbg A B n m l h Hn Hm Hl Pn Pm Pl HA HB.
  destruct (post_ok _ _ _ (uninit_ok n m h)) as (C & h0 & E0 & (N0 & X0) & F0 & I0 & V0).
  assert (HA0 : ismat h0 A n l) by (destruct HA as (A1 & A2 & A3 & A4); repeat split; auto; [lia|]; unfold len in *; now rewrite X0).
  assert (HB0 : ismat h0 B l m) by (destruct HB as (A1 & A2 & A3 & A4); repeat split; auto; [lia|]; unfold len in *; now rewrite X0).
  assert (E : op_mulm_blas gemm dbg A B h = noexcept (_ <- mulm_blas gemm dbg one A B zero C ;; ret C) h0).
  { unfold op_mulm_blas, noexcept. destruct HA as (_ & -> & _), HB as (_ & _ & -> & _). now rewrite (bind_run _ _ _ _ _ E0). }
  rewrite E. split; [|split].
  - intros <-. destruct (C18_matmat_square dbg one A B zero C n l h0 Hn Hl Pn Pl HA0 HB0 I0) as (h1 & h2 & E1 & E2 & N1 & N2 & M12).
    destruct (C15_operator T Op R dbg A B n n l h (small_u32 n Hn) (small_u32 n Hn) (small_u32 l Hl) HA HB) as (C' & h3 & E3 & X3 & _ & I3 & V3).
    destruct (C15_matmat T Op R dbg one A B zero C n n l h0) as (h2' & E2' & (X2 & I2 & V2)); auto using small_u32.
    assert (h2' = h2) by congruence. subst h2'. destruct I2 as (I2a & I2b & I2c & I2d). destruct I0 as (I0a & I0b & I0c & I0d).
    exists C, h1, C', h3. split; [rewrite E; unfold noexcept; now rewrite (bind_run _ _ _ _ _ E1)|]. split; [auto|].
    assert (Gq : forall q, q < next h -> mem h1 q = mem h q).
    { intros q Hq. rewrite M12 by lia. destruct X2 as (_ & X2). rewrite X2 by lia. apply X0. lia. }
    split; [split; [lia|exact Gq]|]. split; [auto|]. split; [|split; [auto|]].
    + repeat split; auto; [lia|]. unfold len. now rewrite M12.
    + intros i j Hi Hj. rewrite (V3 i j Hi Hj). transitivity (mget h2 C i j); [unfold mget, rd; now rewrite M12|].
      rewrite (V2 i j Hi Hj), (V0 i j Hi Hj).
      assert (K : mmmul l (mget h0 A) (mget h0 B) i j = mmmul l (mget h A) (mget h B) i j).
      { unfold mget, rd. destruct HA as (A1 & _), HB as (B1 & _). now rewrite !X0. }
      rewrite K. ring.
  - intros Lt. destruct (C18_matmat_wide dbg one A B zero C n m l h0 Hn Hm Hl Lt HA0 HB0 I0) as [E1|(h1 & E1 & N1 & X1)].
    + left. unfold noexcept. now rewrite (bind_term _ _ _ E1).
    + right. exists C, h1. split; [unfold noexcept; now rewrite (bind_run _ _ _ _ _ E1)|].
      destruct I0 as (I0a & I0b & I0c & I0d). split; [split; [lia|]|].
      { intros q Hq. rewrite X1 by lia. apply X0. lia. }
      split; [auto|]. split; [repeat split; auto; [lia|]; unfold len in *; now rewrite X1|].
      intros i j Hi Hj. rewrite <- (V0 i j Hi Hj). unfold mget, rd. now rewrite X1.
  - intros Lt. unfold noexcept, bind. rewrite (C18_matmat_tall dbg one A B zero C n m l h0 Hn Hm Hl Pm Lt Pl HA0 HB0 I0). reflexivity.
Qed.
End Mat.

(** ** The reference library meets the contract. *)
Lemma upd_wrote_only h y g : wrote_only h (upd h y (map g (seq 0 (len h y)))) y.
Proof.
  split; [reflexivity|]. split; [intros q Hq; now apply mem_upd_other|].
  unfold len. rewrite mem_upd_same. now rewrite map_length, seq_length.
Qed.
Lemma rd_upd_map h y g i : (i < len h y -> rd (upd h y (map g (seq 0 (len h y)))) y i = g i).
Proof. intros Hi. unfold rd. rewrite mem_upd_same. now apply nth_map_seq. Qed.
Lemma rd_beyond h y i : len h y <= i -> rd h y i = zero.
Proof. apply nth_overflow. Qed.

Lemma ref_gemv_contract : gemv_contract ref_gemv.
Proof.
  split.
  - intros n m alpha a lda x beta y h Pn Pm Hl Nxy Nay Ha Hx Hy. unfold ref_gemv, post.
    destruct (Z.ltb_spec (Z.of_nat n) 0), (Z.ltb_spec (Z.of_nat m) 0), (Z.ltb_spec (Z.of_nat lda) (Z.max 1 (Z.of_nat m)));
      try lia. cbn [orb]. rewrite !Nat2Z.id. destruct (Nat.eqb_spec n 0); [lia|].
    split; [apply upd_wrote_only|]. split.
    + intros i Hi. rewrite rd_upd_map by lia. destruct (Nat.ltb_spec i n); [reflexivity|lia].
    + intros i Hi. destruct (Nat.lt_ge_cases i (len h y)) as [L|L].
      * rewrite rd_upd_map by lia. destruct (Nat.ltb_spec i n); [lia|reflexivity].
      * rewrite (rd_beyond h) by auto. apply rd_beyond. destruct (upd_wrote_only h y (fun i => if Nat.ltb i n then
          add (mul alpha (bsum m (fun k => mul (rd h a (i * lda + k)) (rd h x k)))) (mul beta (rd h y i)) else rd h y i)) as (_ & _ & E).
        rewrite E. auto.
  - intros m alpha a lda x beta y h Hl Pl. unfold ref_gemv. cbn [Z.to_nat Nat.eqb].
    destruct (_ || _); reflexivity.
  - intros n m alpha a lda x beta y h H. right. unfold ref_gemv.
    replace ((n <? 0)%Z || (m <? 0)%Z || (lda <? Z.max 1 m)%Z) with true; [reflexivity|]. symmetry.
    destruct (Z.ltb_spec n 0), (Z.ltb_spec m 0), (Z.ltb_spec lda (Z.max 1 m)); auto. lia.
Qed.

Lemma ref_gemm_contract : gemm_contract ref_gemm.
Proof.
  split.
  - intros n m k alpha a lda b ldb beta c ldc h Pn Pm Pk Hla Hlb Hlc Nac Nbc Ha Hb Hc. unfold ref_gemm, post.
    destruct (Z.ltb_spec (Z.of_nat n) 0), (Z.ltb_spec (Z.of_nat m) 0), (Z.ltb_spec (Z.of_nat k) 0),
      (Z.ltb_spec (Z.of_nat lda) (Z.max 1 (Z.of_nat k))), (Z.ltb_spec (Z.of_nat ldb) (Z.max 1 (Z.of_nat m))),
      (Z.ltb_spec (Z.of_nat ldc) (Z.max 1 (Z.of_nat m))); try lia.
    cbn [orb]. rewrite !Nat2Z.id. destruct (Nat.ltb_spec (len h c) ((n - 1) * ldc + m)); [lia|].
    set (g := fun p => _). split; [apply upd_wrote_only|]. split.
    + intros i j Hi Hj. rewrite rd_upd_map by nia. unfold g. cbv zeta.
      assert (E1 : (i * ldc + j) / ldc = i) by (rewrite Nat.div_add_l by lia; rewrite Nat.div_small by lia; lia).
      assert (E2 : (i * ldc + j) mod ldc = j) by (rewrite Nat.add_comm, Nat.mod_add by lia; apply Nat.mod_small; lia).
      rewrite E1, E2. destruct (Nat.ltb_spec i n), (Nat.ltb_spec j m); try lia. reflexivity.
    + intros p Hp. destruct (Nat.lt_ge_cases p (len h c)) as [L|L].
      * rewrite rd_upd_map by lia. unfold g. cbv zeta.
        destruct (Nat.ltb_spec (p / ldc) n), (Nat.ltb_spec (p mod ldc) m); auto. exfalso.
        apply (Hp (p / ldc) (p mod ldc)); auto. rewrite Nat.mul_comm. apply Nat.div_mod. lia.
      * rewrite (rd_beyond h) by auto. apply rd_beyond. destruct (upd_wrote_only h c g) as (_ & _ & E). rewrite E. auto.
  - intros n m k alpha a lda b ldb beta c ldc h Pn Pm Pk Hla Hlb Hlc Nac Nbc Hc. unfold ref_gemm.
    destruct (Z.ltb_spec (Z.of_nat n) 0), (Z.ltb_spec (Z.of_nat m) 0), (Z.ltb_spec (Z.of_nat k) 0),
      (Z.ltb_spec (Z.of_nat lda) (Z.max 1 (Z.of_nat k))), (Z.ltb_spec (Z.of_nat ldb) (Z.max 1 (Z.of_nat m))),
      (Z.ltb_spec (Z.of_nat ldc) (Z.max 1 (Z.of_nat m))); try lia.
    cbn [orb]. rewrite !Nat2Z.id. destruct (Nat.ltb_spec (len h c) ((n - 1) * ldc + m)); [reflexivity|lia].
  - intros n m k alpha a lda b ldb beta c ldc h H. right. unfold ref_gemm.
    match goal with |- (if ?c then _ else _) = _ => replace c with true; [reflexivity|] end. symmetry.
    destruct (Z.ltb_spec n 0), (Z.ltb_spec m 0), (Z.ltb_spec k 0), (Z.ltb_spec lda (Z.max 1 k)), (Z.ltb_spec ldb (Z.max 1 m)),
      (Z.ltb_spec ldc (Z.max 1 m)); auto. lia.
Qed.
End C18.

(** ** The full statement is false, whichever library is linked. *)
Theorem C18_matvec_refuted : forall gemv : gemv_routine (T := Z), gemv_contract gemv ->
  exists alpha A beta y (h : heap Z) h1 h2, ismat h A 1 1 /\ isvec h y 1 /\ mp A <> y /\
    mulv_blas gemv true alpha A y beta y h = Ok y h1 /\ mulv true alpha A y beta y h = Ok y h2 /\
    mem h1 y = [6]%Z /\ mem h2 y = [9]%Z.
Proof.
  intros gemv G. exists 1%Z, (mkMat 0 1 1), 1%Z, 1, (heap_of [[2]; [3]]%Z).
  destruct (C18_matvec_inplace gemv G true 1%Z (mkMat 0 1 1) 1%Z 1 1 (heap_of [[2]; [3]]%Z)) as (h1 & E1 & _ & [_ L1] & V1);
    try (repeat split; cbn; lia).
  exists h1. eexists. split; [repeat split; cbn; lia|]. split; [repeat split; cbn; lia|]. split; [cbn; lia|]. split; [exact E1|].
  split; [vm_compute; reflexivity|]. split; [|vm_compute; reflexivity].
  apply (list_ext_nth 0%Z); [exact L1|]. unfold len in L1. rewrite L1. intros [|i] Hi; [|lia].
  change (nth 0 (mem h1 1) 0%Z) with (rd h1 1 0). rewrite V1 by lia. reflexivity.
Qed.

Theorem C18_matmat_refuted : forall gemm : gemm_routine (T := Z), gemm_contract gemm ->
  exists alpha A B beta C (h : heap Z) h2, ismat h A 1 1 /\ ismat h B 1 2 /\ ismat h C 1 2 /\
    mulm true alpha A B beta C h = Ok C h2 /\ mem h2 (mp C) = [6; 8]%Z /\
    forall h1, mulm_blas gemm true alpha A B beta C h = Ok C h1 -> mem h1 (mp C) = [0; 0]%Z.
Proof.
  intros gemm G. set (h := heap_of [[2]; [3; 4]; [0; 0]]%Z).
  exists 1%Z, (mkMat 0 1 1), (mkMat 1 1 2), 0%Z, (mkMat 2 1 2), h.
  eexists. do 3 (split; [repeat split; cbn; lia|]). split; [vm_compute; reflexivity|]. split; [vm_compute; reflexivity|].
  intros h1 E1.
  destruct (C18_matmat_wide gemm G true 1%Z (mkMat 0 1 1) (mkMat 1 1 2) 0%Z (mkMat 2 1 2) 1 2 1 h) as [E|(h' & E & _ & X)];
    try (repeat split; cbn; lia).
  - congruence.
  - assert (h1 = h') by congruence. subst h'. rewrite X by (cbn; lia). reflexivity.
Qed.

Example C18_example :
  gemv_contract (ref_gemv (T := Z)) /\ gemm_contract (ref_gemm (T := Z)) /\
  peek (mulv_blas ref_gemv true 2%Z exA 2 10%Z 2 exm) id = Some [-2; -2]%Z /\
  peek (mulm_blas ref_gemm true 1%Z exA exA 1%Z exA exm) mp = Some [8; 12; 18; 26]%Z /\
  peek (mulm_blas ref_gemm true 1%Z exA exC 0%Z exC exm) mp = Some [1; 2; 3; 4; 5; 6]%Z.
Proof. split; [apply ref_gemv_contract|]. split; [apply ref_gemm_contract|]. vm_compute. auto. Qed.

Print Assumptions C18_matvec.
Print Assumptions C18_matvec_inplace.
Print Assumptions C18_matvec_inplace_beta0.
Print Assumptions C18_matvec_operator.
Print Assumptions C18_matmat_square.
Print Assumptions C18_matmat_wide.
Print Assumptions C18_matmat_tall.
Print Assumptions C18_matmat_operator.
Print Assumptions C18_matvec_refuted.
Print Assumptions C18_matmat_refuted.
