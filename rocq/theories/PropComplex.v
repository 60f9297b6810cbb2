(** * C94, C95: complex elements *)
From Coq Require Import Reals Lra Lia.
From Verif Require Import Base Scalar BaseLemmas Spec Sums RealVec ProofVec ProofVecProp ModelVec PropVec ModelMat SpecMat PropMat ModelPacked ProofPacked PropPacked ModelSolvers
  ModelSparse SpecSparse PropSpmv ModelBlas SpecBlas ModelLapack ProofChol ProofCholMath PropChol PropCholSolve ModelComplex SpecComplex ProofComplex ProofComplexLapack PropLapack.
Local Open Scope nat_scope.
Add Field Cfield3 : (field_th (IsField := C_field)).

(** ** C94: vectors and matrices of complex numbers follow complex arithmetic *)

(** The elements form a field, so every theorem of the other files that is stated for fields or
    rings holds for them. *)
Theorem C94_field : IsField C COps.
Proof. exact C_field. Qed.

(** + - unary minus, scaling and axpy on vectors, by real and imaginary parts. *)
Theorem C94_vectors : forall v1 v2 alpha (h : heap C),
  v1 < next h -> v2 < next h -> fits_u32 (len h v1) = true -> len h v1 = len h v2 ->
  let a := rd h v1 in let b := rd h v2 in
  let result op (f : nat -> C) := exists h', op h = Ok (next h) h' /\ len h' (next h) = len h v1 /\
    unchanged_except [next h] h h' /\ forall i, i < len h v1 -> rd h' (next h) i = f i in
  result (op_add_d v1 v2) (fun i => (re (a i) + re (b i), im (a i) + im (b i))%R) /\
  result (op_sub_d v1 v2) (fun i => (re (a i) - re (b i), im (a i) - im (b i))%R) /\
  result (op_neg_d v1) (fun i => (- re (a i), - im (a i))%R) /\
  result (op_scale_d alpha v1) (fun i => (re alpha * re (a i) - im alpha * im (a i), re alpha * im (a i) + im alpha * re (a i))%R) /\
  exists h', axpy_d alpha v1 v2 h = Ok v2 h' /\ len h' v2 = len h v1 /\ unchanged_except [v2] h h' /\
    forall i, i < len h v1 -> rd h' v2 i =
      (re alpha * re (a i) - im alpha * im (a i) + re (b i), re alpha * im (a i) + im alpha * re (a i) + im (b i))%R.
Proof.
  intros v1 v2 alpha h H1 H2 Hf HL a b result.
  assert (M1 : forall (f : C -> C) p (h' : heap C) i, mem h' p = map f (mem h v1) -> i < len h v1 ->
    rd h' p i = f (a i)).
  { intros f p h' i E Hi. unfold rd. rewrite E. exact (nth_map' f (mem h v1) i zero zero Hi). }
  assert (M2 : forall (f : C -> C -> C) p (h' : heap C) i, mem h' p = map2 f (mem h v1) (mem h v2) -> i < len h v1 ->
    rd h' p i = f (a i) (b i)).
  { intros f p h' i E Hi. unfold rd. rewrite E. exact (vec_of_map2 f (mem h v1) (mem h v2) i Hi HL). }
  assert (L1 : forall (f : C -> C) p (h' : heap C), mem h' p = map f (mem h v1) -> len h' p = len h v1).
  { intros f p h' E. unfold len. rewrite E, map_length. reflexivity. }
  assert (L2 : forall (f : C -> C -> C) p (h' : heap C), mem h' p = map2 f (mem h v1) (mem h v2) -> len h' p = len h v1).
  { intros f p h' E. unfold len in *. rewrite E, map2_length by lia. lia. }
  destruct (C01_operators_dyn C COps v1 v2 alpha h H1 H2 Hf HL) as ((ha & A1 & A2 & A3) & (hb & B1 & B2 & B3) & (hc & C1 & C2 & C3) & (hd & D1 & D2 & D3) & _).
  destruct (C01_axpy_dyn C COps alpha v1 v2 h Hf HL) as (he & E1 & E2 & E3).
  split. { exists hb. split; [exact B1|]. split; [eapply L2; eauto|]. split; [exact B3|]. intros i Hi. rewrite (M2 _ _ _ i B2 Hi). reflexivity. }
  split. { exists hc. split; [exact C1|]. split; [eapply L2; eauto|]. split; [exact C3|]. intros i Hi. rewrite (M2 _ _ _ i C2 Hi). reflexivity. }
  split. { exists ha. split; [exact A1|]. split; [eapply L1; eauto|]. split; [exact A3|]. intros i Hi. rewrite (M1 _ _ _ i A2 Hi). reflexivity. }
  split. { exists hd. split; [exact D1|]. split; [eapply L1; eauto|]. split; [exact D3|]. intros i Hi. rewrite (M1 _ _ _ i D2 Hi). reflexivity. }
  exists he. split; [exact E1|]. split; [eapply (L2 (fun x y => add (mul alpha x) y)); eauto|]. split; [exact E3|].
  intros i Hi. rewrite (M2 _ _ _ i E2 Hi). reflexivity.
Qed.

(** The product of a complex matrix and vector by real and imaginary parts: four real sums. *)
Definition cprod m (A : nat -> C) (x : nat -> C) : C :=
  (bsum m (fun k => re (A k) * re (x k)) - bsum m (fun k => im (A k) * im (x k)),
   bsum m (fun k => re (A k) * im (x k)) + bsum m (fun k => im (A k) * re (x k)))%R.
Lemma cprod_ok m A x : bsum m (fun k => mul (A k) (x k)) = cprod m A x.
Proof.
  unfold cprod. induction m as [|m IH]; cbn [bsum]; [apply C_ext; cbn; ring|]. rewrite IH. apply C_ext; cbn; ring.
Qed.
Theorem C94_matvec : forall dbg alpha A x beta y n m (h : heap C), fits_u32 n = true -> fits_u32 m = true ->
  ismat h A n m -> isvec h x m -> isvec h y n -> mp A <> y ->
  exists h', mulv dbg alpha A x beta y h = Ok y h' /\
    setvec h h' y n (fun i => cadd (cmul alpha (cprod m (mget h A i) (rd h x))) (cmul beta (rd h y i))).
Proof.
  intros dbg alpha A x beta y n m h Hn Hm HA Hx Hy Hd.
  destruct (C14_matvec C COps _ dbg alpha A x beta y n m h Hn Hm HA Hx Hy Hd) as (h' & E & S1 & S2 & S3).
  exists h'. split; [exact E|]. split; [exact S1|]. split; [exact S2|]. intros i Hi. rewrite (S3 i Hi).
  unfold mvmul. rewrite cprod_ok. reflexivity.
Qed.
Theorem C94_matmat : forall dbg alpha A B beta D n m o (h : heap C), fits_u32 n = true -> fits_u32 m = true -> fits_u32 o = true ->
  ismat h A n o -> ismat h B o m -> ismat h D n m ->
  exists h', mulm dbg alpha A B beta D h = Ok D h' /\
    setmat h h' D n m (fun i j => cadd (cmul alpha (cprod o (mget h A i) (fun k => mget h B k j))) (cmul beta (mget h D i j))).
Proof.
  intros dbg alpha A B beta D n m o h Hn Hm Ho HA HB HD.
  destruct (C15_matmat C COps _ dbg alpha A B beta D n m o h Hn Hm Ho HA HB HD) as (h' & E & S1 & S2 & S3).
  exists h'. split; [exact E|]. split; [exact S1|]. split; [exact S2|]. intros i j Hi Hj. rewrite (S3 i j Hi Hj).
  unfold mmmul. rewrite cprod_ok. reflexivity.
Qed.
Theorem C94_matrices : forall dbg alpha A B n m (h : heap C), fits_u32 (n * m) = true -> ismat h A n m -> ismat h B n m ->
  (exists D h', op_addm dbg A B h = Ok D h' /\ newmat h h' D n m (fun i j => cadd (mget h A i j) (mget h B i j))) /\
  (exists D h', op_subm dbg A B h = Ok D h' /\ newmat h h' D n m (fun i j => csub (mget h A i j) (mget h B i j))) /\
  (exists D h', op_scalem alpha A h = Ok D h' /\ newmat h h' D n m (fun i j => cmul alpha (mget h A i j))) /\
  (exists h', scalem alpha A h = Ok A h' /\ setmat h h' A n m (fun i j => cmul alpha (mget h A i j))).
Proof.
  intros dbg alpha A B n m h Hf HA HB.
  destruct (C17_operators C COps dbg alpha A B n m h Hf HA HB) as (P & Q & S & _).
  repeat split; auto. apply C17_scale; auto.
Qed.

(** ** Cholesky with LAPACK: Hermitian positive definite systems *)
Lemma real_pos_nz (z : C) : (0 < re z)%R /\ im z = 0%R -> z <> zero.
Proof. intros [P _] E. rewrite E in P. cbn in P. lra. Qed.
Lemma hpos_meq n A B : meq n n A B -> hpos_def n A -> hpos_def n B.
Proof. intros E P x Hx. rewrite <- (hform_meq n A B x E). auto. Qed.
Lemma hermf_of n A : hermitian n A -> meq n n A (hermf A).
Proof.
  intros H i j Hi Hj. unfold hermf. destruct (Nat.ltb_spec j i); [reflexivity|]. destruct (Nat.eqb_spec j i) as [->|].
  - pose proof (H i i Hi Hi) as E. apply (f_equal im) in E. cbn in E. apply C_ext; [reflexivity|]. cbn. lra.
  - apply H; auto.
Qed.
Theorem C94_cholesky : forall potrf, cpotrf_contract potrf -> forall n A (h : heap C),
  0 < n -> (Z.of_nat n < 2 ^ 31)%Z -> ismat h A n n -> hermitian n (mget h A) -> hpos_def n (mget h A) ->
  exists F h', dyn_cholesky_lapack potrf A h = Ok F h' /\ cfactor_of h' F n (mget h A) /\ chmt F = Square /\
    ext h h' /\ next h <= chp F.
Proof.
  intros potrf G n A h Hn Hs HA Sy Pd. pose proof HA as (A1 & A2 & A3 & A4).
  set (h1 := halloc h (mem h (mp A))).
  assert (L1 : len h1 (next h) = n * n) by (unfold len, h1; rewrite mem_halloc_same; exact A4).
  assert (E1 : forall i j, atc h1 (next h) n i j = mget h A i j).
  { intros i j. unfold atc, mget, rd, h1. now rewrite mem_halloc_same, A3. }
  assert (EH : meq n n (mget h A) (hermf (atc h1 (next h) n))).
  { intros i j Hi Hj. rewrite (hermf_of n (mget h A) Sy i j Hi Hj). unfold hermf. rewrite !E1. reflexivity. }
  assert (P : post (dyn_cholesky_lapack potrf A) h (fun F h' =>
    F = mkChol n (next h) Square /\ cfactor_of h' F n (mget h A) /\ ext h h')).
  { unfold dyn_cholesky_lapack. apply post_bind. unfold mat_copy. apply post_bind, post_contents.
    apply post_bind, post_alloc, post_ret. fold h1. cbn [mp]. rewrite A2, c_int_id by auto.
    apply post_bind. eapply post_mono.
    { apply (cpotrf_factors potrf G n (next h) h1 Hn Hs); [unfold h1, halloc; cbn [next]; lia|exact L1|].
      apply (hpos_meq n (mget h A)); auto. }
    intros c h' (-> & (N & M & L) & U & D & Pr). cbn [Z.eqb]. apply post_ret.
    assert (N1 : next h1 = S (next h)) by reflexivity.
    split; [reflexivity|]. split.
    { split. { split; [reflexivity|]. cbn [chp chmt]. split; [lia|]. rewrite L. exact L1. }
      split; [exact D|]. intros i j Hi Hj. etransitivity; [exact (Pr i j Hi Hj)|]. symmetry. now apply EH. }
    split; [lia|]. intros q Hq. rewrite M by lia. apply mem_halloc_other. lia. }
  destruct (post_ok _ _ _ P) as (F & h' & E & -> & FA & X).
  exists (mkChol n (next h) Square), h'. split; [exact E|]. split; [exact FA|]. split; [reflexivity|]. split; [exact X|]. cbn [chp]. lia.
Qed.
Theorem C94_cholesky_rejects : forall potrf, cpotrf_contract potrf -> forall n A (h : heap C),
  0 < n -> (Z.of_nat n < 2 ^ 31)%Z -> ismat h A n n -> ~ hpos_def n (hermf (mget h A)) ->
  exists h', dyn_cholesky_lapack potrf A h = Throw RuntimeError h' /\ ext h h'.
Proof.
  intros potrf G n A h Hn Hs (A1 & A2 & A3 & A4) Pd.
  set (h1 := halloc h (mem h (mp A))).
  assert (L1 : len h1 (next h) = n * n) by (unfold len, h1; rewrite mem_halloc_same; exact A4).
  destruct (post_ok _ _ _ (cpotrf_reports potrf G n (next h) h1 Hn Hs ltac:(unfold h1, halloc; cbn [next]; lia) L1
    ltac:(intros Q; apply Pd; revert Q; apply hpos_meq; intros i j Hi Hj; unfold hermf, atc, mget, rd, h1;
          rewrite mem_halloc_same, A3; reflexivity))) as (c & h' & E & Hc & (N & M & L)).
  exists h'. split.
  - unfold dyn_cholesky_lapack, mat_copy, bind, contents, alloc, ret. cbn [mp]. rewrite A2, c_int_id by auto.
    match goal with |- context [potrf _ _ _ ?g] => change g with h1 end. rewrite E.
    destruct (Z.eqb_spec c 0); [contradiction|reflexivity].
  - assert (N1 : next h1 = S (next h)) by reflexivity.
    split; [lia|]. intros q Hq. rewrite M by lia. apply mem_halloc_other. lia.
Qed.

(** Solving with the factor. *)
Section Solve.
Variable potrs : potrs_routine (T := C).
Hypothesis G : cpotrs_contract potrs.
Variables (dbg : bool) (F : chol) (n : nat) (A : nat -> nat -> C).
Hypotheses (Hn : 0 < n) (Hs : (Z.of_nat n < 2 ^ 31)%Z) (Sq : chmt F = Square).

Lemma potrs_solution (h : heap C) m b : cfactor_of h F n A -> 0 < m -> (Z.of_nat m < 2 ^ 31)%Z ->
  chp F <> b -> b < next h -> len h b = n * m ->
  post (potrs (Z.of_nat n) (Z.of_nat m) (chp F) (Z.of_nat n) b (Z.of_nat m)) h (fun _ h' =>
    wrote_only h h' b /\
    forall k, k < m -> the_solution n A (fun i => atc h b m i k) (fun i => atc h' b m i k)).
Proof.
  intros (I & D & Pr) Hm Bm Ne Hb Lb. destruct I as (I1 & I2 & I3). rewrite Sq in I3.
  assert (EF : forall i j, fac h F i j = atc h (chp F) n i j) by (intros; unfold fac; rewrite Sq, I1; reflexivity).
  eapply post_mono.
  { apply (cpotrs_solves potrs G n m (chp F) b h); auto. intros i Hi. rewrite <- EF. apply real_pos_nz. auto. }
  intros c h' (_ & W & S). split; [exact W|]. intros k Hk.
  assert (SX : solves n A (fun i => atc h' b m i k) (fun i => atc h b m i k)).
  { apply (solves_meq n _ _ _ _ Pr). intros i Hi. rewrite <- (S k Hk i Hi). apply bsum_ext. intros j Hj. f_equal.
    unfold mmmul. apply bsum_ext. intros c0 _. unfold ctransp, lowf. now rewrite !EF. }
  split; [exact SX|]. intros y Hy. apply (solves_unique n A y _ (fun i => atc h b m i k)); auto.
  apply (nonsingular_meq n _ _ Pr). apply cfactor_nonsingular. intros i Hi. apply real_pos_nz. auto.
Qed.
Lemma the_solution_ext (b b' x x' : nat -> C) : (forall i, i < n -> b i = b' i) -> (forall i, i < n -> x i = x' i) ->
  the_solution n A b x -> the_solution n A b' x'.
Proof.
  intros Eb Ex [S U]. split.
  - intros i Hi. rewrite <- Eb by auto. rewrite <- (S i Hi). apply bsum_ext. intros j Hj. now rewrite Ex.
  - intros y Hy i Hi. rewrite <- Ex by auto. apply U; auto. intros j Hj. rewrite Eb by auto. apply Hy. auto.
Qed.

Lemma factor_later (h h1 : heap C) : cfactor_of h F n A -> ext h h1 -> cfactor_of h1 F n A.
Proof.
  intros ((I1 & I2 & I3) & D & Pr) [N M].
  assert (E : forall i j, fac h1 F i j = fac h F i j) by (intros; unfold fac, rd; now rewrite M).
  split. { split; [auto|]. split; [lia|]. unfold len. rewrite M by auto. exact I3. }
  split; [intros i Hi; rewrite E; auto|]. intros i j Hi Hj. rewrite <- (Pr i j Hi Hj).
  unfold mmmul. apply bsum_ext. intros c _. unfold ctransp, lowf. now rewrite !E.
Qed.

Theorem C94_solve_vector_inplace : forall rhs (h : heap C), cfactor_of h F n A -> isvec h rhs n -> chp F <> rhs ->
  vec_inplace (the_solution n A) (chol_solve_mut_vec_lapack potrs dbg F) h n rhs.
Proof.
  intros rhs h HF [V L] Ne. apply post_eq. unfold chol_solve_mut_vec_lapack. apply post_bind, post_vsize.
  assert (I1 : chn F = n) by apply HF.
  apply post_bind, post_assert; [rewrite I1, L; apply Nat.eqb_refl|]. rewrite I1, L, c_int_id by auto.
  apply post_bind. eapply post_mono; [apply (potrs_solution h 1 rhs HF); auto; try lia; rewrite L; lia|].
  intros _ h' ((N & M & L') & S). apply post_ret. split; [reflexivity|]. split; [split; [lia|auto]|].
  split; [auto|]. split; [split; lia|].
  eapply the_solution_ext; [| |apply (S 0); lia]; intros i Hi; unfold atc; now rewrite Nat.mul_1_r, Nat.add_0_r.
Qed.
Theorem C94_solve_vector : forall rhs (h : heap C), cfactor_of h F n A -> isvec h rhs n ->
  vec_outofplace (the_solution n A) (chol_solve_vec_lapack potrs dbg F) h n rhs.
Proof.
  intros rhs h HF [V L]. assert (I1 : chn F = n) by apply HF.
  assert (P : post (chol_solve_vec_lapack potrs dbg F rhs) h (fun r h' => ext h h' /\ next h <= r /\ isvec h' r n /\
    the_solution n A (rd h rhs) (rd h' r))).
  { unfold chol_solve_vec_lapack. apply post_bind, post_vsize.
    apply post_bind, post_assert; [rewrite I1, L; apply Nat.eqb_refl|].
    apply post_bind. unfold vec_copy. apply post_bind, post_contents, post_alloc.
    set (h1 := halloc h (mem h rhs)). rewrite I1, L, c_int_id by auto.
    assert (L1 : len h1 (next h) = n) by (unfold len, h1; rewrite mem_halloc_same; exact L).
    assert (N1 : next h1 = Datatypes.S (next h)) by reflexivity.
    assert (X1 : ext h h1) by (split; [lia|]; intros q Hq; apply mem_halloc_other; lia).
    assert (HP : chp F < next h) by apply HF.
    apply post_bind. eapply post_mono.
    { apply (potrs_solution h1 1 (next h)); try lia. now apply (factor_later h). }
    intros _ h' ((N & M & L') & S). apply post_ret.
    split. { split; [lia|]. intros q Hq. rewrite M by lia. apply X1; auto. }
    split; [lia|]. split; [split; lia|].
    eapply the_solution_ext; [| |apply (S 0); lia]; intros i Hi; unfold atc; rewrite Nat.mul_1_r, Nat.add_0_r; auto.
    unfold rd, h1. now rewrite mem_halloc_same. }
  destruct (post_ok _ _ _ P) as (r & h' & E & Q). exists r, h'. auto.
Qed.
Theorem C94_solve_matrix_inplace : forall m B (h : heap C), cfactor_of h F n A -> 0 < m -> (Z.of_nat m < 2 ^ 31)%Z ->
  ismat h B n m -> chp F <> mp B ->
  mat_inplace (the_solution n A) (chol_solve_mut_mat_lapack potrs dbg F) h n m B.
Proof.
  intros m B h HF Hm Bm (B1 & B2 & B3 & B4) Ne. apply post_eq. unfold chol_solve_mut_mat_lapack.
  assert (I1 : chn F = n) by apply HF.
  apply post_bind, post_assert; [rewrite I1, B2; apply Nat.eqb_refl|]. rewrite I1, B2, B3, !c_int_id by auto.
  apply post_bind. eapply post_mono; [apply (potrs_solution h m (mp B) HF); auto|].
  intros _ h' ((N & M & L') & S). apply post_ret. split; [reflexivity|]. split; [split; [lia|auto]|].
  split; [auto|]. split; [repeat split; auto; lia|].
  intros k Hk. eapply the_solution_ext; [| |apply (S k Hk)]; intros i Hi; unfold atc, mget; now rewrite B3.
Qed.
Theorem C94_solve_matrix : forall m B (h : heap C), cfactor_of h F n A -> 0 < m -> (Z.of_nat m < 2 ^ 31)%Z ->
  ismat h B n m ->
  mat_outofplace (the_solution n A) (chol_solve_mat_lapack potrs dbg F) h n m B.
Proof.
  intros m B h HF Hm Bm (B1 & B2 & B3 & B4). assert (I1 : chn F = n) by apply HF.
  assert (P : post (chol_solve_mat_lapack potrs dbg F B) h (fun X h' => ext h h' /\ next h <= mp X /\ ismat h' X n m /\
    forall k, k < m -> the_solution n A (fun i => mget h B i k) (fun i => mget h' X i k))).
  { unfold chol_solve_mat_lapack.
    apply post_bind, post_assert; [rewrite I1, B2; apply Nat.eqb_refl|].
    apply post_bind. unfold mat_copy. apply post_bind, post_contents. apply post_bind, post_alloc, post_ret.
    set (h1 := halloc h (mem h (mp B))). cbn [mp mc]. rewrite I1, B2, B3, !c_int_id by auto.
    assert (L1 : len h1 (next h) = n * m) by (unfold len, h1; rewrite mem_halloc_same; exact B4).
    assert (N1 : next h1 = Datatypes.S (next h)) by reflexivity.
    assert (X1 : ext h h1) by (split; [lia|]; intros q Hq; apply mem_halloc_other; lia).
    assert (HP : chp F < next h) by apply HF.
    apply post_bind. eapply post_mono.
    { apply (potrs_solution h1 m (next h)); try lia. now apply (factor_later h). }
    intros _ h' ((N & M & L') & S). apply post_ret. cbn [mp].
    split. { split; [lia|]. intros q Hq. rewrite M by lia. apply X1; auto. }
    split; [lia|]. split; [split; [cbn [mp]; lia|]; cbn [mr mc mp]; repeat split; auto; lia|].
    intros k Hk. eapply the_solution_ext; [| |apply (S k Hk)]; intros i Hi; unfold atc, mget; cbn [mp mc]; auto.
    rewrite B3. unfold rd, h1. now rewrite mem_halloc_same. }
  destruct (post_ok _ _ _ P) as (r & h' & E & Q). exists r, h'. auto.
Qed.
End Solve.

(** The Hermitian system [[2 -i];[i 2]] x = (1, 1). *)
Example C94_example : cpotrf_contract ref_cpotrf /\ cpotrs_contract ref_cpotrs /\
  let A := mkMat 0 2 2 in let h := heap_of [[(2, 0); (0, -1); (0, 1); (2, 0)]; [(1, 0); (1, 0)]]%R in
  ismat h A 2 2 /\ isvec h 1 2 /\ hermitian 2 (mget h A) /\ hpos_def 2 (mget h A) /\
  exists F h' x h'', dyn_cholesky_lapack ref_cpotrf A h = Ok F h' /\
    chol_solve_vec_lapack ref_cpotrs true F 1 h' = Ok x h'' /\ mem h'' x = [(2 / 3, 1 / 3); (2 / 3, - 1 / 3)]%R.
Proof.
  split; [apply ref_cpotrf_contract|]. split; [apply ref_cpotrs_contract|]. intros A h.
  assert (HA : ismat h A 2 2) by (split; [cbn; lia|split; [|split]; reflexivity]).
  assert (HV : isvec h 1 2) by (split; [cbn; lia|reflexivity]).
  assert (Hm : hermitian 2 (mget h A)).
  { intros i j Hi Hj. destruct i as [|[|i]], j as [|[|j]]; try lia; apply C_ext; unfold mget, rd, conj, re, im; cbn; lra. }
  assert (Hp : hpos_def 2 (mget h A)).
  { intros x (i & Hi & Nz). unfold hform, mvmul, mget, rd. cbn.
    set (a := re (x 0)). set (b := im (x 0)). set (c := re (x 1)). set (d := im (x 1)).
    assert (K : (0 < (a * a + b * b) + (c * c + d * d))%R).
    { destruct (Rlt_or_le 0 ((a * a + b * b) + (c * c + d * d))) as [|B]; auto. exfalso. apply Nz.
      assert (Z : forall r : R, (0 <= r * r)%R) by (intros; apply Rle_0_sqr).
      pose proof (Z a). pose proof (Z b). pose proof (Z c). pose proof (Z d).
      destruct i as [|[|i]]; try lia; apply csq_zero; unfold csq; fold a b c d; lra. }
    assert (Q : (0 <= (a + d) * (a + d) + (b - c) * (b - c))%R) by (apply Rplus_le_le_0_compat; apply Rle_0_sqr).
    eapply Rlt_le_trans; [exact K|]. eapply Rle_trans; [|right; symmetry; match goal with |- ?e = _ => assert (EQ : e = ((a + d) * (a + d) + (b - c) * (b - c) + ((a * a + b * b) + (c * c + d * d)))%R) by (unfold a, b, c, d, re, im; ring); exact EQ end]. lra. }
  split; [exact HA|]. split; [exact HV|]. split; [exact Hm|]. split; [exact Hp|].
  destruct (C94_cholesky ref_cpotrf ref_cpotrf_contract 2 A h ltac:(lia) ltac:(lia) HA Hm Hp) as (F & h' & E & HF & Sq & X & _).
  assert (HV' : isvec h' 1 2).
  { destruct X as [N M]. split; [cbn in N; lia|]. unfold len. rewrite M by (cbn; lia). reflexivity. }
  destruct (C94_solve_vector ref_cpotrs ref_cpotrs_contract true F 2 (mget h A) ltac:(lia) ltac:(lia) Sq 1 h' HF HV')
    as (x & h'' & E2 & _ & _ & (V & L) & S & _).
  exists F, h', x, h''. split; [exact E|]. split; [exact E2|].
  assert (B : forall i, i < 2 -> rd h' 1 i = (1, 0)%R).
  { intros i Hi. unfold rd. rewrite (proj2 X) by (cbn; lia). destruct i as [|[|i]]; [reflexivity|reflexivity|lia]. }
  pose proof (S 0 ltac:(lia)) as E0. pose proof (S 1 ltac:(lia)) as E1. rewrite B in E0, E1 by lia.
  unfold mvmul, mget, rd in E0, E1. unfold len in L. destruct (mem h'' x) as [|u [|v [|w l]]]; try discriminate.
  pose proof (f_equal re E0) as R0. pose proof (f_equal im E0) as I0. pose proof (f_equal re E1) as R1. pose proof (f_equal im E1) as I1.
  cbn in R0, I0, R1, I1. destruct u as [a b], v as [c d]. unfold re, im in *. cbn in R0, I0, R1, I1.
  f_equal; [apply C_ext; unfold re, im; cbn; lra|]. f_equal. apply C_ext; unfold re, im; cbn; lra.
Qed.

(** ** C95: where conjugation is missing *)

(** norm2 returns the square root of the sum of the squares, without absolute values. *)
Theorem C95_norm2 : forall x (h : heap C), fits_u32 (len h x) = true ->
  exists r, norm2_d x h = Ok r h /\ (0 <= re r)%R /\ cmul r r = bsum (len h x) (fun i => cmul (rd h x i) (rd h x i)).
Proof.
  intros x h Hf. eexists. split; [apply norm2_d_ok; exact Hf|]. split; [apply csqrt_re|]. apply csqrt_sq.
Qed.
(** It is the Euclidean norm for vectors of real numbers, and for no other. *)
Theorem C95_norm2_real : forall x (h : heap C), fits_u32 (len h x) = true ->
  (norm2_d x h = Ok (cnorm (len h x) (rd h x), 0%R) h <-> forall i, i < len h x -> im (rd h x i) = 0%R).
Proof.
  intros x h Hf. rewrite norm2_d_ok by auto. set (n := len h x). set (f := rd h x). unfold cnorm.
  assert (S0 : (0 <= bsum n (fun i => csq (f i)))%R) by (apply bsum_nonneg; intros; apply csq_pos).
  split.
  - intros E i Hi. apply (f_equal (fun r => match r with Ok a _ => a | _ => zero end)) in E. cbn [sqrt_ COps] in E.
    pose proof (csqrt_sq (bsum n (fun i => mul (f i) (f i)))) as Q. rewrite E in Q.
    assert (Q1 : bsum n (fun i => csq (f i)) = bsum n (fun i => re (mul (f i) (f i)))).
    { rewrite <- re_bsum, <- Q. transitivity (R_sqrt.sqrt (bsum n (fun i => csq (f i))) * R_sqrt.sqrt (bsum n (fun i => csq (f i))))%R; [symmetry; apply R_sqrt.sqrt_sqrt; exact S0|]. cbn. ring. }
    assert (Q2 : bsum n (fun i => (im (f i) * im (f i))%R) = 0%R).
    { assert (K : forall m, (bsum m (fun i => csq (f i)) = bsum m (fun i => re (mul (f i) (f i))) + 2 * bsum m (fun i => im (f i) * im (f i)))%R).
      { induction m as [|m IH]; cbn [bsum]; [cbn; ring|]. rewrite IH. cbn. unfold csq. ring. }
      pose proof (K n). lra. }
    assert (Q3 : forall m, (bsum m (fun i => im (f i) * im (f i)) = 0)%R -> forall k, k < m -> im (f k) = 0%R).
    { induction m as [|m IH]; intros H k Hk; [lia|]. cbn [bsum] in H.
      assert ((0 <= bsum m (fun i => im (f i) * im (f i)))%R) by (apply bsum_nonneg; intros; apply Rle_0_sqr).
      pose proof (Rle_0_sqr (im (f m))). unfold Rsqr in *. cbn in *.
      destruct (Nat.eq_dec k m) as [->|]; [apply Rsqr_0_uniq; unfold Rsqr; lra|]. apply IH; [lra|lia]. }
    apply (Q3 n Q2 i Hi).
  - intros H. do 2 f_equal. cbn [sqrt_ COps].
    assert (E : bsum n (fun i => mul (f i) (f i)) = (bsum n (fun i => csq (f i)), 0%R)).
    { apply C_ext; [rewrite re_bsum|rewrite im_bsum].
      - apply bsum_ext. intros i Hi. cbn. unfold csq. rewrite (H i Hi). ring.
      - apply rsum_zero. intros i Hi. cbn. rewrite (H i Hi). ring. }
    rewrite E. apply csqrt_real. exact S0.
Qed.
(** The norm of (1, i) is reported as zero. *)
Theorem C95_norm2_refuted : exists x (h : heap C), fits_u32 (len h x) = true /\ (exists i, i < len h x /\ rd h x i <> zero) /\
  norm2_d x h = Ok zero h /\ cnorm (len h x) (rd h x) = R_sqrt.sqrt 2.
Proof.
  exists 0, (heap_of [[(1, 0); (0, 1)]]%R). split; [reflexivity|]. split.
  { exists 0. split; [unfold len; cbn; lia|]. intros E. apply (f_equal fst) in E. unfold rd in E. cbn in E. lra. }
  split.
  - rewrite norm2_d_ok by reflexivity. f_equal. cbn [sqrt_ COps].
    match goal with |- csqrt ?z = _ => assert (E : z = (0, 0)%R) end.
    { match goal with |- bsum ?k _ = _ => change k with 2 end. unfold rd. apply C_ext; cbn; ring. }
    rewrite E, csqrt_real by lra. rewrite R_sqrt.sqrt_0. reflexivity.
  - unfold cnorm. f_equal. match goal with |- bsum ?k _ = _ => change k with 2 end. unfold csq, rd, re, im. cbn. ring.
Qed.

(** A Hermite matrix reads the same element at (i,j) and (j,i): it is Hermitian exactly when all
    its elements are real. *)
Theorem C95_hermite : forall (H : herm C) n, en H = n -> length (ev H) = tri_len n ->
  exists a : nat -> nat -> C, (forall i j, i < n -> j < n -> forall S (s : S), herm_get H i j s = Ok (a i j) s) /\
    (forall i j, i < n -> j < n -> a j i = a i j) /\
    (hermitian n a <-> forall i j, i < n -> j < n -> im (a i j) = 0%R).
Proof.
  intros H n W1 W2. exists (fun i j => nth (low_off i j) (ev H) zero).
  assert (G : forall i j, i < n -> j < n -> forall S (s : S), herm_get H i j s = Ok (nth (low_off i j) (ev H) zero) s).
  { intros i j Hi Hj S s. pose proof (low_off_lt n i j Hi Hj) as B. unfold herm_get.
    rewrite vec_at_eq by lia. reflexivity. }
  assert (Sy : forall i j, nth (low_off j i) (ev H) zero = nth (low_off i j) (ev H) zero) by (intros; now rewrite low_off_sym).
  split; [exact G|]. split; [auto|]. split.
  - intros K i j Hi Hj. pose proof (K i j Hi Hj) as E. cbv beta in E. rewrite (Sy i j) in E. apply (f_equal im) in E. cbn [im conj snd] in E. lra.
  - intros K i j Hi Hj. cbv beta. rewrite (Sy i j). symmetry. apply conj_real. apply K; auto.
Qed.
Theorem C95_hermite_refuted : exists (H : herm C) n, en H = n /\ length (ev H) = tri_len n /\
  exists i j x y, i < n /\ j < n /\ herm_get H i j tt = Ok x tt /\ herm_get H j i tt = Ok y tt /\ y <> conj x.
Proof.
  exists (mkHerm 2 [(1, 0); (0, 1); (1, 0)]%R), 2. split; [reflexivity|]. split; [reflexivity|].
  exists 1, 0, (0, 1)%R, (0, 1)%R. split; [lia|]. split; [lia|]. split; [reflexivity|]. split; [reflexivity|].
  intros E. apply (f_equal snd) in E. cbn in E. lra.
Qed.

Print Assumptions C94_matvec.
Print Assumptions C94_cholesky.
Print Assumptions C94_solve_matrix.
Print Assumptions C94_example.
Print Assumptions C95_norm2_real.
Print Assumptions C95_hermite.
