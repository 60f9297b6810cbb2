(** * Property C59: the direct solvers as compiled with LALIB_LAPACK_BACKEND

    Everything here is relative to routines meeting the contracts of SpecLapack.v (exact real
    arithmetic); ProofLapack.v shows routines that meet them. *)
From Coq Require Import Reals Lra Lia.
From Verif Require Import Base Scalar BaseLemmas Spec Sums RealVec ModelVec ModelMat SpecMat ModelPacked PropPacked ModelSolvers
  ModelBlas SpecBlas ModelLapack ProofTdma PropTdma ProofChol ProofCholSolve ProofCholMath PropChol PropCholSolve PropBlas
  SpecLapack ProofLapack.
Local Open Scope nat_scope.

Lemma c_int_id n : (Z.of_nat n < 2 ^ 31)%Z -> c_int n = Z.of_nat n.
Proof. intros H. unfold c_int. apply to_int32_small. lia. Qed.

(** ** The tridiagonal solver: every non-singular system, order 1 included, no condition on the
    pivots or on the size of the result vector, which may be the right-hand side itself *)

Theorem C59_tridiag_vector : forall gtsv, gtsv_contract gtsv -> forall dbg (t : tri R) n b rslt (h : heap R),
  0 < n -> (Z.of_nat n < 2 ^ 31)%Z -> tri_wf R t n -> nonsingular n (tmat t) -> isvec h b n -> rslt < next h ->
  exists t' h', tridiag_solve_vec_lapack gtsv dbg t b rslt h = Ok (rslt, t') h' /\
    ext_but h h' rslt /\ next h' = next h /\ isvec h' rslt n /\ tri_wf R t' n /\
    the_solution n (tmat t) (rd h b) (rd h' rslt).
Proof.
  intros gtsv G dbg t n b rslt h Hn Hs W Ns [Vb Lb] Hr.
  assert (Ho : tri_order t = n) by apply W.
  set (h1 := upd h rslt (mem h b)).
  assert (L1 : len h1 rslt = n) by (unfold len, h1; rewrite mem_upd_same; exact Lb).
  assert (P : post (tridiag_solve_vec_lapack gtsv dbg t b rslt) h (fun r h' => fst r = rslt /\
    ext_but h h' rslt /\ next h' = next h /\ isvec h' rslt n /\ tri_wf R (snd r) n /\
    the_solution n (tmat t) (rd h b) (rd h' rslt))).
  { unfold tridiag_solve_vec_lapack. apply post_noexcept. apply post_bind, post_vsize.
    apply post_bind, post_assert. { rewrite Ho, Lb. apply Nat.eqb_refl. }
    apply post_bind. unfold vec_assign at 1, post at 1. fold h1. rewrite Ho, c_int_id by auto.
    apply post_bind. eapply post_mono.
    { apply (gtsv_solves gtsv G n 1 t rslt h1 Hn Hs ltac:(lia) ltac:(lia) W Ns Hr). rewrite L1. lia. }
    intros r h' (_ & (N & M & L) & _ & W' & S). apply post_ret. cbn [fst snd]. split; [reflexivity|].
    assert (N1 : next h1 = next h) by reflexivity.
    split. { split; [lia|]. intros q Hq Ne. rewrite M by auto. unfold h1. now apply mem_upd_other. }
    split; [lia|]. split; [split; lia|]. split; [exact W'|].
    assert (SX : solves n (tmat t) (rd h' rslt) (rd h b)).
    { intros i Hi. generalize (S 0 ltac:(lia) i Hi). unfold mvmul, at_rows. rewrite Nat.mul_1_r, Nat.add_0_r.
      intros E. transitivity (rd h1 rslt i); [|unfold rd, h1; now rewrite mem_upd_same].
      rewrite <- E. apply bsum_ext. intros j Hj. now rewrite Nat.mul_1_r, Nat.add_0_r. }
    split; [exact SX|]. intros y Hy. apply (solves_unique n (tmat t) y _ (rd h b)); auto. }
  destruct (post_ok _ _ _ P) as ([r t'] & h' & E & E1 & Q). cbn [fst snd] in *. subst r. eauto.
Qed.

Theorem C59_tridiag_matrix : forall gtsv, gtsv_contract gtsv -> forall dbg (t : tri R) n m B X (h : heap R),
  0 < n -> (Z.of_nat n < 2 ^ 31)%Z -> 0 < m -> (Z.of_nat m < 2 ^ 31)%Z -> tri_wf R t n -> nonsingular n (tmat t) ->
  ismat h B n m -> ismat h X n m ->
  exists t' h', tridiag_solve_mat_lapack gtsv dbg t B X h = Ok (X, t') h' /\
    ext_but h h' (mp X) /\ next h' = next h /\ ismat h' X n m /\ tri_wf R t' n /\
    forall k, k < m -> the_solution n (tmat t) (fun i => mget h B i k) (fun i => mget h' X i k).
Proof.
  intros gtsv G dbg t n m B X h Hn Hs Hm Hsm W Ns (B1 & B2 & B3 & B4) (X1 & X2 & X3 & X4).
  assert (Ho : tri_order t = n) by apply W.
  set (h1 := upd h (mp X) (mem h (mp B))).
  assert (L1 : len h1 (mp X) = n * m) by (unfold len, h1; rewrite mem_upd_same; exact B4).
  assert (P : post (tridiag_solve_mat_lapack gtsv dbg t B X) h (fun r h' => fst r = X /\
    ext_but h h' (mp X) /\ next h' = next h /\ ismat h' X n m /\ tri_wf R (snd r) n /\
    forall k, k < m -> the_solution n (tmat t) (fun i => mget h B i k) (fun i => mget h' X i k))).
  { unfold tridiag_solve_mat_lapack. apply post_noexcept.
    apply post_bind, post_assert. { rewrite Ho, B2. apply Nat.eqb_refl. }
    apply post_bind, post_assert. { unfold shape_eqb. rewrite B2, B3, X2, X3, !Nat.eqb_refl. reflexivity. }
    apply post_bind. unfold mat_assign at 1, post at 1. fold h1. cbn [mp mr mc]. rewrite Ho, B2, B3, !c_int_id by auto.
    apply post_bind. eapply post_mono.
    { apply (gtsv_solves gtsv G n m t (mp X) h1 Hn Hs Hm Hsm W Ns X1). rewrite L1. lia. }
    intros r h' (_ & (N & M & L) & _ & W' & S). apply post_ret. cbn [fst snd].
    split; [destruct X as [xp xr xc]; cbn in X2, X3; cbn; congruence|].
    assert (N1 : next h1 = next h) by reflexivity.
    split. { split; [lia|]. intros q Hq Ne. rewrite M by auto. unfold h1. now apply mem_upd_other. }
    split; [lia|]. split; [repeat split; auto; lia|]. split; [exact W'|].
    intros k Hk.
    assert (SX : solves n (tmat t) (fun i => mget h' X i k) (fun i => mget h B i k)).
    { intros i Hi. unfold mget. rewrite B3, X3. etransitivity; [exact (S k Hk i Hi)|].
      unfold at_rows, rd, h1. now rewrite mem_upd_same. }
    split; [exact SX|]. intros y Hy. apply (solves_unique n (tmat t) y _ (fun i => mget h B i k)); auto. }
  destruct (post_ok _ _ _ P) as ([r t'] & h' & E & E1 & Q). cbn [fst snd] in *. subst r. eauto.
Qed.

(** ** The dense Cholesky factorisation *)

(** The factor with positive diagonal is unique. *)
Lemma lowf_entry n (L : nat -> nat -> R) i j : j <= i -> i < n ->
  mmmul n (lowf L) (transp (lowf L)) i j = (bsum j (fun k => L i k * L j k) + L i j * L j j)%R.
Proof.
  intros Hj Hi. unfold mmmul, transp. rewrite (bsum_split n (S j)) by lia. cbn [bsum].
  rewrite (bsum_zero (n - S j)).
  2:{ intros k Hk. rewrite (lowf_out L j (S j + k)) by lia. cbn. ring. }
  rewrite !lowf_in by lia. rewrite (bsum_ext j _ (fun k => (L i k * L j k)%R)).
  2:{ intros k Hk. rewrite !lowf_in by lia. reflexivity. }
  cbn [add mul zero ROps]. ring.
Qed.
Lemma chol_unique n (L M A : nat -> nat -> R) :
  (forall i, i < n -> (0 < L i i)%R) -> (forall i, i < n -> (0 < M i i)%R) ->
  meq n n (mmmul n (lowf L) (transp (lowf L))) A -> meq n n (mmmul n (lowf M) (transp (lowf M))) A ->
  forall i j, i < n -> j <= i -> L i j = M i j.
Proof.
  intros DL DM EL EM i. induction i as [i IHi] using lt_wf_ind. intros j Hi. revert j.
  induction j as [j IHj] using lt_wf_ind. intros Hj.
  assert (E : (bsum j (fun k => L i k * L j k) + L i j * L j j = bsum j (fun k => M i k * M j k) + M i j * M j j)%R).
  { rewrite <- (lowf_entry n L i j), <- (lowf_entry n M i j) by auto. rewrite (EL i j), (EM i j) by lia. reflexivity. }
  rewrite (bsum_ext j _ (fun k => (M i k * M j k)%R)) in E.
  2:{ intros k Hk. rewrite (IHj k) by lia. destruct (Nat.eq_dec j i) as [->|]; [rewrite (IHj k) by lia; reflexivity|].
      rewrite (IHi j) by lia. reflexivity. }
  assert (E2 : (L i j * L j j = M i j * M j j)%R) by lra. clear E.
  destruct (Nat.eq_dec j i) as [->|Ne].
  - pose proof (DL i Hi). pose proof (DM i Hi). nra.
  - rewrite (IHi j ltac:(lia) j) in E2 by lia. pose proof (DM j ltac:(lia)). apply (Rmult_eq_reg_r (M j j)); lra.
Qed.

(** A positive definite matrix is factored, with the same factor as the built-in routine. *)
Theorem C59_cholesky : forall potrf, potrf_contract potrf -> forall n A (h : heap R),
  0 < n -> (Z.of_nat n < 2 ^ 31)%Z -> ismat h A n n -> symmetric n (mget h A) -> pos_def n (mget h A) ->
  exists F h' F0 h0, dyn_cholesky_lapack potrf A h = Ok F h' /\ factor_of h' F n (mget h A) /\ chmt F = Square /\
    ext h h' /\ next h <= chp F /\
    dyn_cholesky A h = Ok F0 h0 /\
    forall i j, i < n -> j < n -> mget h' (factor_mat F) i j = mget h0 (factor_mat F0) i j.
Proof.
  intros potrf G n A h Hn Hs HA Sy Pd. pose proof HA as (A1 & A2 & A3 & A4).
  assert (Hf : fits_u32 n = true) by (unfold fits_u32; apply Z.ltb_lt; lia).
  set (h1 := halloc h (mem h (mp A))).
  assert (L1 : len h1 (next h) = n * n) by (unfold len, h1; rewrite mem_halloc_same; exact A4).
  assert (E1 : forall i j, at_rows h1 (next h) n i j = mget h A i j).
  { intros i j. unfold at_rows, mget, rd, h1. now rewrite mem_halloc_same, A3. }
  assert (P : post (dyn_cholesky_lapack potrf A) h (fun F h' =>
    F = mkChol n (next h) Square /\ factor_of h' F n (mget h A) /\ ext h h' /\
    forall i j, i < n -> j < n -> i < j -> mget h' (factor_mat F) i j = mget h A i j)).
  { unfold dyn_cholesky_lapack. apply post_bind. unfold mat_copy. apply post_bind, post_contents.
    apply post_bind, post_alloc, post_ret. fold h1. cbn [mp]. rewrite A2, c_int_id by auto.
    apply post_bind. eapply post_mono.
    { apply (potrf_factors potrf G n (next h) h1 Hn Hs); [unfold h1, halloc; cbn [next]; lia|exact L1|].
      apply (pos_def_meq n (mget h A)); auto. intros i j Hi Hj. unfold symf. rewrite !E1.
      destruct (Nat.leb_spec j i); auto. }
    intros c h' (-> & (N & M & L) & U & D & Pr). cbn [Z.eqb]. apply post_ret.
    assert (N1 : next h1 = S (next h)) by reflexivity.
    split; [reflexivity|]. split.
    { split. { split; [reflexivity|]. cbn [chp chmt]. split; [lia|]. rewrite L. exact L1. }
      split; [exact D|]. intros i j Hi Hj. etransitivity; [exact (Pr i j Hi Hj)|].
      unfold symf. rewrite !E1. destruct (Nat.leb_spec j i); auto. }
    split. { split; [lia|]. intros q Hq. rewrite M by lia. apply mem_halloc_other. lia. }
    intros i j Hi Hj Hij. etransitivity; [exact (U i j Hi Hj Hij)|]. apply E1. }
  destruct (post_ok _ _ _ P) as (F & h' & E & -> & FA & X & U).
  destruct (C40_square n A h HA Hf Sy Pd) as (F0 & h0 & E0 & FA0 & T0 & X0 & B0).
  exists (mkChol n (next h) Square), h', F0, h0. split; [exact E|]. split; [exact FA|]. split; [reflexivity|].
  split; [exact X|]. split; [cbn [chp]; lia|]. split; [exact E0|].
  destruct (C39_square n A h F0 h0 HA Hf E0) as (_ & _ & _ & U0 & _).
  { destruct FA0 as ((I1 & _) & D0 & _). intros i Hi. specialize (D0 i Hi). unfold fac in D0. rewrite T0 in D0. exact D0. }
  intros i j Hi Hj. destruct (Nat.lt_ge_cases i j) as [Lt|Ge].
  - rewrite U, U0 by auto. reflexivity.
  - destruct FA as (I & D & Pr), FA0 as (I0 & D0 & Pr0).
    generalize (chol_unique n (fac h' (mkChol n (next h) Square)) (fac h0 F0) (mget h A) D D0 Pr Pr0 i j Hi Ge).
    unfold fac. rewrite T0. cbn [chmt]. auto.
Qed.

(** A matrix whose symmetric completion from the lower triangle is not positive definite is
    rejected, whatever its first pivot; nothing that existed is changed. *)
Theorem C59_cholesky_rejects : forall potrf, potrf_contract potrf -> forall n A (h : heap R),
  0 < n -> (Z.of_nat n < 2 ^ 31)%Z -> ismat h A n n -> ~ pos_def n (symf (mget h A)) ->
  exists h', dyn_cholesky_lapack potrf A h = Throw RuntimeError h' /\ ext h h'.
Proof.
  intros potrf G n A h Hn Hs (A1 & A2 & A3 & A4) Pd.
  set (h1 := halloc h (mem h (mp A))).
  assert (L1 : len h1 (next h) = n * n) by (unfold len, h1; rewrite mem_halloc_same; exact A4).
  destruct (post_ok _ _ _ (potrf_reports potrf G n (next h) h1 Hn Hs ltac:(unfold h1, halloc; cbn [next]; lia) L1
    ltac:(intros Q; apply Pd; revert Q; apply pos_def_meq; intros i j Hi Hj; unfold symf, at_rows, mget, rd, h1;
          rewrite mem_halloc_same, A3; reflexivity))) as (c & h' & E & Hc & (N & M & L)).
  exists h'. split.
  - unfold dyn_cholesky_lapack, mat_copy, bind, contents, alloc, ret. cbn [mp]. rewrite A2, c_int_id by auto.
    match goal with |- context [potrf _ _ _ ?g] => change g with h1 end. rewrite E.
    destruct (Z.eqb_spec c 0); [contradiction|reflexivity].
  - assert (N1 : next h1 = S (next h)) by reflexivity.
    split; [lia|]. intros q Hq. rewrite M by lia. apply mem_halloc_other. lia.
Qed.

(** ** Solving with the factor *)
Section Solve.
Variable potrs : potrs_routine (T := R).
Hypothesis G : potrs_contract potrs.
Variables (dbg : bool) (F : chol) (n : nat) (A : nat -> nat -> R).
Hypotheses (Hn : 0 < n) (Hs : (Z.of_nat n < 2 ^ 31)%Z) (Sq : chmt F = Square).

Lemma potrs_solution (h : heap R) m b : factor_of h F n A -> 0 < m -> (Z.of_nat m < 2 ^ 31)%Z ->
  chp F <> b -> b < next h -> len h b = n * m ->
  post (potrs (Z.of_nat n) (Z.of_nat m) (chp F) (Z.of_nat n) b (Z.of_nat m)) h (fun _ h' =>
    wrote_only h h' b /\
    forall k, k < m -> the_solution n A (fun i => at_rows h b m i k) (fun i => at_rows h' b m i k)).
Proof.
  intros (I & D & Pr) Hm Bm Ne Hb Lb. destruct I as (I1 & I2 & I3). rewrite Sq in I3.
  assert (EF : forall i j, fac h F i j = at_rows h (chp F) n i j) by (intros; unfold fac; rewrite Sq, I1; reflexivity).
  eapply post_mono.
  { apply (potrs_solves potrs G n m (chp F) b h); auto. intros i Hi. rewrite <- EF. pose proof (D i Hi). lra. }
  intros c h' (_ & W & S). split; [exact W|]. intros k Hk.
  assert (SX : solves n A (fun i => at_rows h' b m i k) (fun i => at_rows h b m i k)).
  { apply (solves_meq n _ _ _ _ Pr). intros i Hi. rewrite <- (S k Hk i Hi). apply bsum_ext. intros j Hj. f_equal.
    unfold mmmul. apply bsum_ext. intros c0 _. unfold transp, lowf. now rewrite !EF. }
  split; [exact SX|]. intros y Hy. apply (solves_unique n A y _ (fun i => at_rows h b m i k)); auto.
  apply (nonsingular_meq n _ _ Pr). now apply factor_nonsingular.
Qed.
Lemma the_solution_ext (b b' x x' : nat -> R) : (forall i, i < n -> b i = b' i) -> (forall i, i < n -> x i = x' i) ->
  the_solution n A b x -> the_solution n A b' x'.
Proof.
  intros Eb Ex [S U]. split.
  - intros i Hi. rewrite <- Eb by auto. rewrite <- (S i Hi). apply bsum_ext. intros j Hj. now rewrite Ex.
  - intros y Hy i Hi. rewrite <- Ex by auto. apply U; auto. intros j Hj. rewrite Eb by auto. apply Hy. auto.
Qed.

Lemma factor_later (h h1 : heap R) : factor_of h F n A -> ext h h1 -> factor_of h1 F n A.
Proof.
  intros ((I1 & I2 & I3) & D & Pr) [N M].
  assert (E : forall i j, fac h1 F i j = fac h F i j) by (intros; unfold fac, rd; now rewrite M).
  split. { split; [auto|]. split; [lia|]. unfold len. rewrite M by auto. exact I3. }
  split; [intros i Hi; rewrite E; auto|]. intros i j Hi Hj. rewrite <- (Pr i j Hi Hj).
  unfold mmmul. apply bsum_ext. intros c _. unfold transp, lowf. now rewrite !E.
Qed.

Theorem C59_solve_vector_inplace : forall rhs (h : heap R), factor_of h F n A -> isvec h rhs n -> chp F <> rhs ->
  vec_inplace (the_solution n A) (chol_solve_mut_vec_lapack potrs dbg F) h n rhs.
Proof.
  intros rhs h HF [V L] Ne. apply post_eq. unfold chol_solve_mut_vec_lapack. apply post_bind, post_vsize.
  assert (I1 : chn F = n) by apply HF.
  apply post_bind, post_assert; [rewrite I1, L; apply Nat.eqb_refl|]. rewrite I1, L, c_int_id by auto.
  apply post_bind. eapply post_mono; [apply (potrs_solution h 1 rhs HF); auto; try lia; rewrite L; lia|].
  intros _ h' ((N & M & L') & S). apply post_ret. split; [reflexivity|]. split; [split; [lia|auto]|].
  split; [auto|]. split; [split; lia|].
  eapply the_solution_ext; [| |apply (S 0); lia]; intros i Hi; unfold at_rows; now rewrite Nat.mul_1_r, Nat.add_0_r.
Qed.
Theorem C59_solve_vector : forall rhs (h : heap R), factor_of h F n A -> isvec h rhs n ->
  vec_outofplace (the_solution n A) (chol_solve_vec_lapack potrs dbg F) h n rhs.
Proof.
  intros rhs h HF [V L]. assert (I1 : chn F = n) by apply HF.
  assert (P : post (chol_solve_vec_lapack potrs dbg F rhs) h (fun r h' => ext h h' /\ next h <= r /\ isvec h' r n /\
    the_solution n A (rd h rhs) (rd h' r))).
  { unfold chol_solve_vec_lapack. apply post_bind, post_vsize.
    apply post_bind, post_assert; [rewrite I1, L; apply Nat.eqb_refl|].
    apply post_bind. unfold vec_copy. apply post_bind, post_contents, post_alloc.
    set (h1 := halloc h (mem h rhs)). rewrite I1, L, c_int_id by auto.
    assert (L1 : len h1 (next h) = n) by (unfold len, h1; rewrite mem_halloc_same; exact L).
    assert (N1 : next h1 = Datatypes.S (next h)) by reflexivity.
    assert (X1 : ext h h1) by (split; [lia|]; intros q Hq; apply mem_halloc_other; lia).
    assert (HP : chp F < next h) by apply HF.
    apply post_bind. eapply post_mono.
    { apply (potrs_solution h1 1 (next h)); try lia. now apply (factor_later h). }
    intros _ h' ((N & M & L') & S). apply post_ret.
    split. { split; [lia|]. intros q Hq. rewrite M by lia. apply X1; auto. }
    split; [lia|]. split; [split; lia|].
    eapply the_solution_ext; [| |apply (S 0); lia]; intros i Hi; unfold at_rows; rewrite Nat.mul_1_r, Nat.add_0_r; auto.
    unfold rd, h1. now rewrite mem_halloc_same. }
  destruct (post_ok _ _ _ P) as (r & h' & E & Q). exists r, h'. auto.
Qed.
Theorem C59_solve_matrix_inplace : forall m B (h : heap R), factor_of h F n A -> 0 < m -> (Z.of_nat m < 2 ^ 31)%Z ->
  ismat h B n m -> chp F <> mp B ->
  mat_inplace (the_solution n A) (chol_solve_mut_mat_lapack potrs dbg F) h n m B.
Proof.
  intros m B h HF Hm Bm (B1 & B2 & B3 & B4) Ne. apply post_eq. unfold chol_solve_mut_mat_lapack.
  assert (I1 : chn F = n) by apply HF.
  apply post_bind, post_assert; [rewrite I1, B2; apply Nat.eqb_refl|]. rewrite I1, B2, B3, !c_int_id by auto.
  apply post_bind. eapply post_mono; [apply (potrs_solution h m (mp B) HF); auto|].
  intros _ h' ((N & M & L') & S). apply post_ret. split; [reflexivity|]. split; [split; [lia|auto]|].
  split; [auto|]. split; [repeat split; auto; lia|].
  intros k Hk. eapply the_solution_ext; [| |apply (S k Hk)]; intros i Hi; unfold at_rows, mget; now rewrite B3.
Qed.
Theorem C59_solve_matrix : forall m B (h : heap R), factor_of h F n A -> 0 < m -> (Z.of_nat m < 2 ^ 31)%Z ->
  ismat h B n m ->
  mat_outofplace (the_solution n A) (chol_solve_mat_lapack potrs dbg F) h n m B.
Proof.
  intros m B h HF Hm Bm (B1 & B2 & B3 & B4). assert (I1 : chn F = n) by apply HF.
  assert (P : post (chol_solve_mat_lapack potrs dbg F B) h (fun X h' => ext h h' /\ next h <= mp X /\ ismat h' X n m /\
    forall k, k < m -> the_solution n A (fun i => mget h B i k) (fun i => mget h' X i k))).
  { unfold chol_solve_mat_lapack.
    apply post_bind, post_assert; [rewrite I1, B2; apply Nat.eqb_refl|].
    apply post_bind. unfold mat_copy. apply post_bind, post_contents. apply post_bind, post_alloc, post_ret.
    set (h1 := halloc h (mem h (mp B))). cbn [mp mc]. rewrite I1, B2, B3, !c_int_id by auto.
    assert (L1 : len h1 (next h) = n * m) by (unfold len, h1; rewrite mem_halloc_same; exact B4).
    assert (N1 : next h1 = Datatypes.S (next h)) by reflexivity.
    assert (X1 : ext h h1) by (split; [lia|]; intros q Hq; apply mem_halloc_other; lia).
    assert (HP : chp F < next h) by apply HF.
    apply post_bind. eapply post_mono.
    { apply (potrs_solution h1 m (next h)); try lia. now apply (factor_later h). }
    intros _ h' ((N & M & L') & S). apply post_ret. cbn [mp].
    split. { split; [lia|]. intros q Hq. rewrite M by lia. apply X1; auto. }
    split; [lia|]. split; [split; [cbn [mp]; lia|]; cbn [mr mc mp]; repeat split; auto; lia|].
    intros k Hk. eapply the_solution_ext; [| |apply (S k Hk)]; intros i Hi; unfold at_rows, mget; cbn [mp mc]; auto.
    rewrite B3. unfold rd, h1. now rewrite mem_halloc_same. }
  destruct (post_ok _ _ _ P) as (r & h' & E & Q). exists r, h'. auto.
Qed.
End Solve.

(** ** The built-in constructor accepts a matrix the LAPACK one rejects: the two builds differ *)
Theorem C59_builds_differ_refuted : exists A (h : heap R), ismat h A 1 1 /\
  (exists F h', dyn_cholesky A h = Ok F h') /\
  forall potrf, potrf_contract potrf -> exists h', dyn_cholesky_lapack potrf A h = Throw RuntimeError h'.
Proof.
  exists (mkMat 0 1 1), (heap_of [[(-1)%R]]).
  assert (W : ismat (heap_of [[(-1)%R]]) (mkMat 0 1 1) 1 1) by (repeat split; cbn; lia).
  split; [exact W|]. split.
  - assert (Hf : fits_u32 1 = true) by reflexivity.
    destruct (dyn_outcome 1 _ _ W Hf) as (h' & _ & R). destruct R as [[R O]|[[R O]|(c & Hc & (Hl & _) & _)]]; eauto. lia.
  - intros potrf G.
    destruct (C59_cholesky_rejects potrf G 1 (mkMat 0 1 1) (heap_of [[(-1)%R]])) as (h' & E & _); [lia|lia|exact W| |eauto].
    intros P. assert (Q : (0 < bsum 1%nat (fun i => 1 * mvmul 1%nat (symf (mget (heap_of [[-1]]) (mkMat 0%nat 1%nat 1%nat))) (fun _ => 1) i))%R).
    { apply (P (fun _ => 1%R)). exists 0. split; [lia|lra]. }
    cbn in Q. unfold mvmul, symf, mget, rd in Q. cbn in Q. lra.
Qed.

(** ** Example: the routines of ProofLapack.v, the 2 x 2 system [[0 1];[1 0]] x = (3, 5), which needs a
    row exchange and on which the built-in solver divides by zero *)
Example C59_example : gtsv_contract ref_gtsv /\ potrf_contract ref_potrf /\ potrs_contract ref_potrs /\
  let t := mkTri [1%R] [0%R; 0%R] [1%R] in let h := heap_of [[3%R; 5%R]; []] in
  tri_wf R t 2 /\ nonsingular 2 (tmat t) /\ isvec h 0 2 /\
  exists t' h', tridiag_solve_vec_lapack ref_gtsv true t 0 1 h = Ok (1, t') h' /\ mem h' 1 = [5%R; 3%R].
Proof.
  split; [apply ref_gtsv_contract|]. split; [apply ref_potrf_contract|]. split; [apply ref_potrs_contract|].
  intros t h. split; [repeat split|].
  assert (Ns : nonsingular 2 (tmat t)).
  { intros x Hx. pose proof (Hx 0 ltac:(lia)) as E0. pose proof (Hx 1 ltac:(lia)) as E1. cbn in E0, E1.
    intros [|[|i]] Hi; cbn; try lia; lra. }
  split; [exact Ns|]. split; [split; [cbn; lia|reflexivity]|].
  destruct (C59_tridiag_vector ref_gtsv ref_gtsv_contract true t 2 0 1 h) as (t' & h' & E & _ & _ & (V & L) & _ & S & _);
    auto; try (cbn; lia); try (repeat split; cbn; lia).
  exists t', h'. split; [exact E|].
  pose proof (S 0 ltac:(lia)) as E0. pose proof (S 1 ltac:(lia)) as E1. cbn in E0, E1. unfold rd in E0, E1. unfold len in L.
  destruct (mem h' 1) as [|a [|b [|c l]]]; try discriminate. cbn in E0, E1.
  f_equal; [lra|f_equal; lra].
Qed.

Print Assumptions C59_tridiag_vector.
Print Assumptions C59_cholesky.
Print Assumptions C59_solve_matrix.
