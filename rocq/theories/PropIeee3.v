(** * Properties C79 - C81: triangular solves and factorisations in IEEE arithmetic *)
From Coq Require Import Reals Lra Lia.
From Verif Require Import Base Scalar BaseLemmas Spec Sums RealVec ModelVec ModelMat SpecMat ModelPacked ProofPacked ModelSparse
  PropPacked ProofVec ProofVecProp ProofMatOps ProofVecSched ModelSolvers ModelIter ProofChol ProofCholSolve ProofCholMath ProofIlu
  PropVec PropMat PropChol PropCholSolve PropIlu PropRepeat ProofSparse SpecSparse PropSparse ProofSpmv PropSpmv
  SpecRound Rounding ProofBackSub ProofRound ProofRound2 PropRound PropRound2 SpecIeee ProofIeee ProofIeee2 PropIeee.
Local Open Scope R_scope.

Local Notation mmR := (@mmmul R ROps).
Local Notation solvesR := (@solves R ROps).
Local Notation sumR := (@bsum R ROps).
Local Notation lowR := (@lowf R ROps).
Local Notation lfacR := (@lfac R ROps).
Local Notation ufacR := (@ufac R ROps).

Section Ieee.
Context {T : Type} (Op : Ops T) (val : T -> R) (fin : T -> Prop) (prd : T -> T -> T -> Prop) (u eta omega : R) (I : Ieee Op val fin prd u eta omega).
Local Notation vv := (vv val).
Local Notation vm := (vm val).
Local Notation vfin := (vfin fin).
Let AX : Approx ROps u := exact_u (I := I).

(** The vector x is the exact solution of a system whose matrix differs from A by at most
    gamma k times B, and whose right-hand side differs from b by at most [c i] smallest numbers in
    row i. *)
Definition near_solution k n (B A : nat -> nat -> R) (c b x : nat -> R) : Prop :=
  exists A' e, mwithin u k n n B A A' /\ (forall i, (i < n)%nat -> Rabs (e i) <= c i * eta * (1 + gamma u k)) /\
    solvesR n A' x (fun i => b i + e i).

(** ** C79: back substitution *)
Theorem C79_back_sub : forall (U : utri T) n f y (h : heap T),
  utri_wf U n -> (forall i j, (i < n)%nat -> (j < n)%nat -> forall S (s : S), utri_get U i j s = Ok (f i j) s) ->
  isvec h y n -> (forall i, (i < n)%nat -> fin (f i i)) ->
  exists h', back_sub U y h = Ok tt h' /\ ext_but h h' y /\ isvec h' y n /\
    (vsettled prd n (rd h y) -> vfin n (rd h' y) ->
      vfin n (rd h y) /\ (forall i j, (i < n)%nat -> (j < n)%nat -> fin (f i j)) /\ (forall i, (i < n)%nat -> val (f i i) <> 0) /\
      near_solution n n (mabs (vm f)) (vm f) (fun i => INR n + Rabs (val (f i i))) (vv (rd h y)) (vv (rd h' y))).
Proof.
  intros U n f y h W RD Hy Hd.
  destruct (post_ok _ _ _ (back_sub_bits U y n f h (proj1 W) RD Hy)) as ([] & h' & E & H1 & H2 & H3 & H4).
  exists h'. split; [exact E|]. split; [exact H1|]. split; [exact H3|]. intros Sy Fx.
  destruct (upper_ieee n f (rd h y) (rd h' y) Hd Sy H4 Fx) as (FF & U1 & e & P & B & S).
  assert (Z : forall i j, (i < n)%nat -> (j < i)%nat -> f i j = zero).
  { intros i j Hi Hj. specialize (RD i j Hi ltac:(lia) unit tt). rewrite utri_get_below in RD by auto. congruence. }
  destruct (i_zero (Ieee := I)) as [F0 V0].
  split; [intros i Hi; now apply FF|]. split; [|split; [intros i Hi; now apply FF|]].
  - intros i j Hi Hj. destruct (Nat.lt_trichotomy i j) as [L|[->|L]]; [apply FF; auto|auto|rewrite Z by auto; auto].
  - exists U1, e. split; [|split; [exact B|exact S]].
    intros i j Hi Hj. specialize (P i j Hi Hj). apply (pert_close (AX := AX)) in P. unfold upf in P. destruct (Nat.leb_spec i j) as [L|L]; [exact P|].
    unfold mabs, PropIeee.vm. rewrite Z by auto. now rewrite V0.
Qed.

(** ** C80: Cholesky *)
(** What a solve with the factor L guarantees when the result is finite, for a right-hand side of
    rounded numbers. *)
Definition chol_solved k n (B : nat -> nat -> R) (L : nat -> nat -> T) (A : nat -> nat -> R) (b x : nat -> T) : Prop :=
  vsettled prd n b -> vfin n x -> vfin n b /\ exists A' e,
    (forall i j, (i < n)%nat -> (j < n)%nat -> Rabs (A' i j - A i j) <= gamma u k * absLLt n (vm L) i j + B i j * eta * (1 + gamma u k)) /\
    (forall i, (i < n)%nat -> Rabs (e i) <= chol_under n (vm L) i * eta * (1 + gamma u k)) /\
    solvesR n A' (vv x) (fun i => vv b i + e i).

Theorem C80_solve : forall dbg F n (h : heap T), (Z.of_nat n < 2 ^ 31)%Z -> isfac h F n ->
  (forall i, (i < n)%nat -> fin (fac h F i i)) ->
  let Q := chol_solved (2 * n) n (fun _ _ => 0) (fac h F) (LLt n (vm (fac h F))) in
  (forall rhs, isvec h rhs n -> vec_outofplace Q (chol_solve_vec dbg F) h n rhs) /\
  (forall rhs, isvec h rhs n -> chp F <> rhs -> vec_inplace Q (chol_solve_mut_vec dbg F) h n rhs) /\
  (forall m X, ismat h X n m -> fits_u32 m = true -> mat_outofplace Q (chol_solve_mat dbg F) h n m X) /\
  (forall m X, ismat h X n m -> fits_u32 m = true -> chp F <> mp X -> mat_inplace Q (chol_solve_mut_mat dbg F) h n m X).
Proof.
  intros dbg F n h Hn HF Hd Q.
  assert (RR : forall b x, substituted n (fac h F) b x -> Q b x).
  { intros b x S Sb Fx. destruct (subst_ieee n (fac h F) b x Hd Sb S Fx) as (Fb & M & e & W & B & SS). split; [intros i Hi; now apply Fb|].
    exists M, e. split; [|split; [exact B|exact SS]]. intros i j Hi Hj. rewrite !Rmult_0_l, Rplus_0_r. exact (W i j Hi Hj). }
  split; [|split; [|split]]; intros.
  - eapply vec_out_mono; [exact RR|now apply chol_vec_out].
  - eapply vec_in_mono; [exact RR|now apply chol_vec_in].
  - eapply mat_out_mono; [exact RR|now apply chol_mat_out].
  - eapply mat_in_mono; [exact RR|now apply chol_mat_in].
Qed.

(** The factor.  The constructor returns an object also when the first pivot is not positive (see
    C41); with a positive finite diagonal it is a factor of the matrix. *)
Definition good_diag n (L : nat -> nat -> T) : Prop := forall i, (i < n)%nat -> fin (L i i) /\ 0 < val (L i i).
Lemma ctor_ieee m h h0 F n (A : nat -> nat -> T) h' : ctor_outcome m h h0 F n A -> isfac h0 F n ->
  m h = Ok F h' -> good_diag n (fac h' F) -> isfac h' F n /\ factored n A (fac h' F).
Proof.
  intros (h1 & Fr & Out) IF E P. destruct Out as [[D Q]|[[D Q]|(c & Hc & D & Q)]]; rewrite Q in E; try discriminate; injection E as <-.
  - split; [|exact D]. destruct IF as (I1 & I2 & I3), Fr as (N & M & L & _). repeat split; auto; [lia|]. now rewrite L.
  - destruct D as (Hn & _ & _ & D0 & B & _). destruct (P 0%nat Hn) as [Fp P0]. rewrite D0 in Fp, P0.
    destruct (i_zero (Ieee := I)) as [F0 V0]. exfalso. destruct B as [B|B]; [apply i_eqb in B|apply i_ltb in B]; auto; lra.
Qed.
Lemma dyn_ctor_ieee n A (h : heap T) F h' : ismat h A n n -> fits_u32 n = true -> dyn_cholesky A h = Ok F h' ->
  good_diag n (fac h' F) -> isfac h' F n /\ factored n (mget h A) (fac h' F).
Proof.
  intros HA Hf E P. pose proof (dyn_outcome n A h HA Hf) as Out.
  assert (EF : F = mkChol n (next h) Square).
  { destruct Out as (h1 & _ & [[_ Q]|[[_ Q]|(c & _ & _ & Q)]]); rewrite Q in E; congruence. }
  subst F. eapply ctor_ieee; eauto. destruct HA as (_ & _ & _ & A4). repeat split.
  - unfold halloc. cbn [chp next]. lia.
  - unfold len. cbn [chp]. rewrite mem_halloc_same. exact A4.
Qed.
Lemma tri_ctor_ieee n H (h : heap T) F h' : herm_wf H n -> fits_u32 n = true -> tri_cholesky H h = Ok F h' ->
  good_diag n (fac h' F) -> isfac h' F n /\ factored n (hmat H) (fac h' F).
Proof.
  intros HA Hf E P. pose proof (tri_outcome n H h HA Hf) as Out.
  assert (EF : F = mkChol n (next h) Triangle).
  { destruct Out as (h1 & _ & [[_ Q]|[[_ Q]|(c & _ & _ & Q)]]); rewrite Q in E; congruence. }
  subst F. eapply ctor_ieee; eauto. destruct HA as (_ & A4). repeat split.
  - unfold halloc. cbn [chp next]. lia.
  - unfold len. cbn [chp]. rewrite mem_halloc_same. exact A4.
Qed.

(** L L^T against A, entry by entry; with a finite diagonal everything is finite. *)
Definition chol_factored n (L A : nat -> nat -> T) : Prop :=
  (forall i j, (i < n)%nat -> (j <= i)%nat -> fin (L i j) /\ fin (A i j)) /\
  forall i j, (i < n)%nat -> (j < n)%nat ->
    Rabs (symf (vm A) i j - LLt n (vm L) i j) <=
      gamma u (n + 1) * absLLt n (vm L) i j + (INR n + Rabs (val (L (Nat.min i j) (Nat.min i j)))) * eta * (1 + gamma u (n + 1)).
Lemma factored_ieee n A L : msettled prd n n A -> factored n A L -> good_diag n L -> chol_factored n L A.
Proof.
  intros SA HF P. assert (Hd : diag_fin (fin := fin) n L) by (intros i Hi; now apply P). split.
  - intros i j Hi Hj. destruct (chol_fin n A L SA HF Hd i j Hi Hj) as (F1 & F2 & _). auto.
  - rewrite Nat.add_1_r. intros i j Hi Hj. unfold symf. destruct (Nat.leb_spec j i) as [H|H].
    + rewrite Nat.min_r by auto. exact (chol_product_ieee n A L i j SA HF Hd Hi H).
    + rewrite Nat.min_l by lia. pose proof (chol_product_ieee n A L j i SA HF Hd Hj ltac:(lia)) as B.
      assert (S1 : forall M, mprod n M (fun a b => M b a) j i = mprod n M (fun a b => M b a) i j).
      { intros M. apply rsum_ext. intros; ring. }
      rewrite !S1 in B. exact B.
Qed.
Theorem C80_factor_square : forall n A (h : heap T) F h', ismat h A n n -> fits_u32 n = true -> msettled prd n n (mget h A) ->
  dyn_cholesky A h = Ok F h' -> good_diag n (fac h' F) -> chol_factored n (mget h' (factor_mat F)) (mget h A).
Proof.
  intros n A h F h' HA Hf SA E P.
  assert (EF : F = mkChol n (next h) Square).
  { destruct (dyn_outcome n A h HA Hf) as (h1 & _ & [[_ Q]|[[_ Q]|(c & _ & _ & Q)]]); rewrite Q in E; congruence. }
  subst F. destruct (dyn_ctor_ieee n A h _ h' HA Hf E P) as [_ D]. exact (factored_ieee n _ _ SA D P).
Qed.
Theorem C80_factor_packed : forall n H (h : heap T) F h', herm_wf H n -> fits_u32 n = true -> msettled prd n n (hmat H) ->
  tri_cholesky H h = Ok F h' -> good_diag n (fac h' F) -> chol_factored n (fac h' F) (hmat H).
Proof.
  intros n H h F h' HA Hf SA E P. destruct (tri_ctor_ieee n H h F h' HA Hf E P) as [_ D]. exact (factored_ieee n _ _ SA D P).
Qed.

(** Factorise and solve. *)
Definition chol_round n (L : nat -> nat -> T) (i j : nat) : R := INR n + Rabs (val (L (Nat.min i j) (Nat.min i j))).
Lemma solve_ieee n A L b x : msettled prd n n A -> factored n A L -> good_diag n L -> substituted n L b x ->
  chol_solved (3 * n + 1) n (chol_round n L) L (symf (vm A)) b x.
Proof.
  intros SA HF P S Sb Fx. assert (Hd : diag_fin (fin := fin) n L) by (intros i Hi; now apply P).
  destruct (subst_ieee n L b x Hd Sb S Fx) as (Fb & M & e & W & B & SS). split; [intros i Hi; now apply Fb|].
  exists M, e. split; [|split; [|exact SS]].
  - intros i j Hi Hj. destruct (factored_ieee n A L SA HF P) as [_ FB]. specialize (FB i j Hi Hj). specialize (W i j Hi Hj).
    replace (M i j - symf (vm A) i j) with ((M i j - LLt n (vm L) i j) + - (symf (vm A) i j - LLt n (vm L) i j)) by ring.
    eapply Rle_trans; [apply Rabs_triang|]. rewrite Rabs_Ropp.
    assert (Pos : 0 <= absLLt n (vm L) i j) by (apply bsum_nonneg; intros; apply Rmult_le_pos; apply Rabs_pos).
    pose proof (gamma_add (AX := AX) (2 * n) (n + 1)) as G. replace (2 * n + (n + 1))%nat with (3 * n + 1)%nat in G by lia.
    pose proof (g_mono (I := I) (n + 1) (3 * n + 1) ltac:(lia)) as G2. fold (chol_round n L i j) in FB.
    assert (0 <= chol_round n L i j * eta).
    { apply Rmult_le_pos; [|apply (i_eta (Ieee := I))]. unfold chol_round. pose proof (pos_INR n). pose proof (Rabs_pos (val (L (Nat.min i j) (Nat.min i j)))). lra. }
    change (Rabs (M i j - LLt n (vm L) i j) <= gamma u (2 * n) * absLLt n (vm L) i j) in W.
    nra.
  - intros i Hi. eapply Rle_trans; [apply B; auto|]. apply Rmult_le_compat_l; [|apply (g_mono (I := I)); lia].
    apply Rmult_le_pos; [|apply (i_eta (Ieee := I))]. unfold chol_under. pose proof (pos_INR n) as PN.
    pose proof (Rabs_pos (val (L i i))). apply Rplus_le_le_0_compat; [unfold PropIeee.vm; lra|]. apply bsum_nonneg. intros k Hk.
    apply Rmult_le_pos; [apply Rabs_pos|]. pose proof (Rabs_pos (vm L k k)). lra.
Qed.
Lemma solve_forms_ieee dbg F n A (h : heap T) : (Z.of_nat n < 2 ^ 31)%Z -> isfac h F n -> msettled prd n n A -> factored n A (fac h F) -> good_diag n (fac h F) ->
  let Q := chol_solved (3 * n + 1) n (chol_round n (fac h F)) (fac h F) (symf (vm A)) in
  (forall rhs, isvec h rhs n -> vec_outofplace Q (chol_solve_vec dbg F) h n rhs) /\
  (forall rhs, isvec h rhs n -> chp F <> rhs -> vec_inplace Q (chol_solve_mut_vec dbg F) h n rhs) /\
  (forall m X, ismat h X n m -> fits_u32 m = true -> mat_outofplace Q (chol_solve_mat dbg F) h n m X) /\
  (forall m X, ismat h X n m -> fits_u32 m = true -> chp F <> mp X -> mat_inplace Q (chol_solve_mut_mat dbg F) h n m X).
Proof.
  intros Hn HF SA D P Q.
  assert (RR : forall b x, substituted n (fac h F) b x -> Q b x) by (intros; now apply solve_ieee).
  split; [|split; [|split]]; intros.
  - eapply vec_out_mono; [exact RR|now apply chol_vec_out].
  - eapply vec_in_mono; [exact RR|now apply chol_vec_in].
  - eapply mat_out_mono; [exact RR|now apply chol_mat_out].
  - eapply mat_in_mono; [exact RR|now apply chol_mat_in].
Qed.
Theorem C80_square : forall dbg n A (h : heap T) F h1, ismat h A n n -> (Z.of_nat n < 2 ^ 31)%Z -> msettled prd n n (mget h A) ->
  dyn_cholesky A h = Ok F h1 -> good_diag n (fac h1 F) ->
  let Q := chol_solved (3 * n + 1) n (chol_round n (fac h1 F)) (fac h1 F) (symf (vm (mget h A))) in
  (forall rhs, isvec h1 rhs n -> vec_outofplace Q (chol_solve_vec dbg F) h1 n rhs) /\
  (forall rhs, isvec h1 rhs n -> chp F <> rhs -> vec_inplace Q (chol_solve_mut_vec dbg F) h1 n rhs) /\
  (forall m X, ismat h1 X n m -> fits_u32 m = true -> mat_outofplace Q (chol_solve_mat dbg F) h1 n m X) /\
  (forall m X, ismat h1 X n m -> fits_u32 m = true -> chp F <> mp X -> mat_inplace Q (chol_solve_mut_mat dbg F) h1 n m X).
Proof.
  intros dbg n A h F h1 HA Hn SA E P. destruct (dyn_ctor_ieee n A h F h1 HA) as [IF D]; auto.
  { unfold fits_u32. apply Z.ltb_lt. lia. }
  now apply solve_forms_ieee.
Qed.
Theorem C80_packed : forall dbg n H (h : heap T) F h1, herm_wf H n -> (Z.of_nat n < 2 ^ 31)%Z -> msettled prd n n (hmat H) ->
  tri_cholesky H h = Ok F h1 -> good_diag n (fac h1 F) ->
  let Q := chol_solved (3 * n + 1) n (chol_round n (fac h1 F)) (fac h1 F) (symf (vm (hmat H))) in
  (forall rhs, isvec h1 rhs n -> vec_outofplace Q (chol_solve_vec dbg F) h1 n rhs) /\
  (forall rhs, isvec h1 rhs n -> chp F <> rhs -> vec_inplace Q (chol_solve_mut_vec dbg F) h1 n rhs) /\
  (forall m X, ismat h1 X n m -> fits_u32 m = true -> mat_outofplace Q (chol_solve_mat dbg F) h1 n m X) /\
  (forall m X, ismat h1 X n m -> fits_u32 m = true -> chp F <> mp X -> mat_inplace Q (chol_solve_mut_mat dbg F) h1 n m X).
Proof.
  intros dbg n H h F h1 HA Hn SA E P. destruct (tri_ctor_ieee n H h F h1 HA) as [IF D]; auto.
  { unfold fits_u32. apply Z.ltb_lt. lia. }
  now apply solve_forms_ieee.
Qed.

(** ** C81: incomplete LU *)
(** Where the matrix holds a zero so do the factors; elsewhere the matrix is finite and the product
    of the triangles is the matrix up to rounding and underflow. *)
Definition ilu_near n (a f : nat -> nat -> T) : Prop :=
  forall i j, (i < n)%nat -> (j < n)%nat ->
    (eqb (a i j) zero = true -> f i j = a i j) /\
    (eqb (a i j) zero = false -> fin (a i j) /\ val (a i j) <> 0 /\
      Rabs (vm a i j - mmR n (lfacR (vm f)) (ufacR (vm f)) i j) <=
        gamma u n * mmR n (mabs (lfacR (vm f))) (mabs (ufacR (vm f))) i j + (INR n + Rabs (val (f j j))) * eta * (1 + gamma u n)).
Definition mfin n (f : nat -> nat -> T) : Prop := forall i j, (i < n)%nat -> (j < n)%nat -> fin (f i j).
Lemma done_near n m a f : ilu_done n m a f -> (forall i j, (i < n)%nat -> (m <= j)%nat -> (j < n)%nat -> a i j = zero /\ f i j = zero) ->
  msettled prd n n a -> mfin n f -> ilu_near n a f.
Proof.
  intros D B SA FF i j Hi Hj. assert (Z : eqb (zero : T) zero = true) by (destruct (i_zero (Ieee := I)); apply i_eqb; auto).
  destruct (Nat.le_gt_cases m j) as [Hm|Hm].
  { destruct (B i j Hi Hm Hj) as [B1 B2]. split; intros H; [congruence|]. rewrite B1, Z in H. discriminate. }
  split.
  - intros E. destruct (D i Hi) as [DL DU]. assert (NZ : nzb (a i j) = false) by (unfold nzb; now rewrite E).
    destruct (Nat.lt_ge_cases j i) as [L|L].
    + specialize (DL j L). unfold lrec in DL. rewrite NZ in DL. auto.
    + specialize (DU j L Hm). unfold urec in DU. rewrite NZ in DU. auto.
  - intros E. rewrite <- lu_eq, <- lu_abs_eq. apply (ilu_product_ieee n m); auto. unfold nzb. now rewrite E.
Qed.

Theorem C81_factor : forall n A h F h', ismat h A n n -> fits_u32 n = true -> ilu_dyn A h = Ok F h' ->
  newmat h h' F n n (mget h' F) /\ (msettled prd n n (mget h A) -> mfin n (mget h' F) -> ilu_near n (mget h A) (mget h' F)).
Proof.
  intros n A h F h' HA Hf E. pose proof (ilu_dyn_outcome n A h HA Hf) as P. unfold postx in P. rewrite E in P.
  destruct P as (S & D). split; [auto|]. apply (done_near n n); auto. intros; lia.
Qed.
Theorem C81_factor_csr : forall n m A a S (s : S) F s', csr_wf A n -> csr_shape A tt = Ok (n, m) tt -> (m <= n)%nat ->
  fits_u32 n = true -> reads_as A n a -> ilu_csr A s = Ok F s' ->
  s' = s /\ csr_wf F n /\ sptr F = sptr A /\ scol F = scol A /\ exists f, reads_as F n f /\ (msettled prd n n a -> mfin n f -> ilu_near n a f).
Proof.
  intros n m A a S s F s' W Hs Hm Hf RA E.
  assert (Z : eqb (zero : T) zero = true) by (destruct (i_zero (Ieee := I)); apply i_eqb; auto).
  destruct (ilu_csr_outcome n m A S s Z W Hs Hm Hf) as [(F' & E' & W' & E1 & E2 & D)|(F' & E' & _)]; rewrite E' in E; [|discriminate].
  injection E as -> <-. split; [auto|]. split; [auto|]. split; [auto|]. split; [auto|].
  exists (cview F). split.
  { intros S0 s0 i j Hi Hj. now apply (cview_ok F n). }
  assert (Ea : forall i j, (i < n)%nat -> (j < n)%nat -> cview A i j = a i j).
  { intros i j Hi Hj. unfold cview. now rewrite (RA unit tt i j Hi Hj). }
  intros SA FF.
  assert (DR : ilu_near n (cview A) (cview F)).
  { apply (done_near n m); [exact D| |intros i j Hi Hj; rewrite Ea by auto; now apply SA|exact FF]. intros i j Hi Hj _.
    split; [now apply (cview_beyond A n m unit tt)|]. apply (cview_beyond F n m unit tt); auto. unfold csr_shape, bind in *. now rewrite E1, E2. }
  intros i j Hi Hj. specialize (DR i j Hi Hj). unfold PropIeee.vm in *. now rewrite (Ea i j Hi Hj) in DR.
Qed.
(** The triangular solves with given factors. *)
Definition ilu_solution n (f : nat -> nat -> T) (b x : nat -> T) : Prop :=
  vsettled prd n b -> vfin n x -> vfin n b /\ mfin n f /\ (forall i, (i < n)%nat -> val (f i i) <> 0) /\
    near_solution (2 * n) n (mmR n (mabs (lfacR (vm f))) (mabs (ufacR (vm f)))) (mmR n (lfacR (vm f)) (ufacR (vm f)))
      (ilu_under n (vm f)) (vv b) (vv x).
Lemma solved_solution n f b x : (forall i, (i < n)%nat -> fin (f i i)) -> ilu_solved n f b x -> ilu_solution n f b x.
Proof.
  intros Hd Sv Sb Fx. destruct (ilu_subst_ieee n f b x Hd Sb Sv Fx) as (FF & M & e & W & B & Q).
  split; [intros i Hi; now apply FF|]. split; [intros i j Hi Hj; now apply FF|]. split; [intros i Hi; now apply FF|].
  exists M, e. split; [|split; [exact B|exact Q]]. intros i j Hi Hj. rewrite <- lu_eq, <- lu_abs_eq. now apply W.
Qed.
Theorem C81_solve : forall n F rhs h, ismat h F n n -> fits_u32 n = true -> isvec h rhs n ->
  (forall i, (i < n)%nat -> fin (mget h F i i)) ->
  exists x h', ilu_dyn_solve F rhs h = Ok x h' /\ newvec h h' x n (rd h' x) /\ ilu_solution n (mget h F) (rd h rhs) (rd h' x).
Proof.
  intros n F rhs h (A1 & A2 & A3 & A4) Hf HV Hd.
  pose proof (ilu_solve_ok (mat_get F) (mget h F) n rhs h Hf HV) as P.
  assert (G : forall h1 i j, ext h h1 -> (i < n)%nat -> (j < n)%nat -> mat_get F i j h1 = Ok (mget h F i j) h1).
  { intros h1 i j [X1 X2] Hi Hj. unfold mat_get, load, mget, rd. rewrite X2 by auto.
    destruct (nth_error (mem h (mp F)) (i * mc F + j)) as [v|] eqn:E.
    - f_equal. symmetry. now apply nth_error_nth.
    - exfalso. apply nth_error_None in E. unfold len in A4. rewrite A3 in E. nia. }
  specialize (P G). unfold post, ilu_dyn_solve in *.
  destruct (ilu_solve (mat_get F) rhs h) as [x h'|e h'| | | |]; try contradiction.
  destruct P as [N Sv]. exists x, h'. split; [auto|]. split; [auto|]. now apply solved_solution.
Qed.
Theorem C81_solve_csr : forall n F f rhs h, csr_wf F n -> reads_as F n f -> fits_u32 n = true -> isvec h rhs n ->
  (forall i, (i < n)%nat -> fin (f i i)) ->
  exists x h', ilu_csr_solve F rhs h = Ok x h' /\ newvec h h' x n (rd h' x) /\ ilu_solution n f (rd h rhs) (rd h' x).
Proof.
  intros n F f rhs h W RA Hf HV Hd.
  pose proof (ilu_solve_ok (csr_get F) f n rhs h Hf HV) as P.
  assert (G : forall h1 i j, ext h h1 -> (i < n)%nat -> (j < n)%nat -> csr_get F i j h1 = Ok (f i j) h1) by (intros; now apply RA).
  specialize (P G). unfold post, ilu_csr_solve in *.
  destruct (ilu_solve (csr_get F) rhs h) as [x h'|e h'| | | |]; try contradiction.
  destruct P as [N Sv]. exists x, h'. split; [auto|]. split; [auto|]. now apply solved_solution.
Qed.
End Ieee.

Print Assumptions C79_back_sub.
Print Assumptions C80_solve.
Print Assumptions C80_factor_square.
Print Assumptions C80_factor_packed.
Print Assumptions C80_square.
Print Assumptions C80_packed.
Print Assumptions C81_factor.
Print Assumptions C81_factor_csr.
Print Assumptions C81_solve.
Print Assumptions C81_solve_csr.
