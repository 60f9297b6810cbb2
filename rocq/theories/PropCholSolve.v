(** * Properties C42 and C43: solving with a Cholesky factor; modified Cholesky *)
From Coq Require Import QArith Qcanon Reals Lra Lia Field Floats.
From Verif Require Import Base Scalar BaseLemmas Spec Sums RealVec ModelVec ModelMat SpecMat ModelPacked ProofPacked
  PropPacked ProofVecSched ModelSolvers ProofTdma ProofChol ProofCholSolve ProofCholMath PropTdma PropChol.
Local Open Scope nat_scope.

(** ** The four entry points, for any scalar type: what they compute *)
Section Entry.
Context {T : Type} {Op : Ops T}.
Implicit Types h : heap T.

Lemma isfac_frame h h' F n p P : isfac h F n -> frame p P h h' -> chp F <> p ->
  isfac h' F n /\ forall i j, fac h' F i j = fac h F i j.
Proof.
  intros (I1 & I2 & I3) (N & M & L & U) Hp. split.
  - split; [auto|]. split; [lia|]. unfold len. rewrite M by auto. exact I3.
  - intros i j. unfold fac, rd. now rewrite M by auto.
Qed.

(** The four calling forms.  In place: the call returns, its argument [rhs] now holds an x with
    [R b x], where b was its content, and no other object changed.  Out of place: the result is a
    new object and no object changed.  For matrices this holds column by column. *)
Definition vec_inplace (R : (nat -> T) -> (nat -> T) -> Prop)
    (solve : ptr -> M (heap T) ptr) (h : heap T) n rhs : Prop :=
  exists h', solve rhs h = Ok rhs h' /\ ext_but h h' rhs /\ next h' = next h /\ isvec h' rhs n /\
    R (rd h rhs) (rd h' rhs).
Definition vec_outofplace (R : (nat -> T) -> (nat -> T) -> Prop)
    (solve : ptr -> M (heap T) ptr) (h : heap T) n rhs : Prop :=
  exists r h', solve rhs h = Ok r h' /\ ext h h' /\ next h <= r /\ isvec h' r n /\
    R (rd h rhs) (rd h' r).
Definition mat_inplace (R : (nat -> T) -> (nat -> T) -> Prop)
    (solve : mat -> M (heap T) mat) (h : heap T) n m B : Prop :=
  exists h', solve B h = Ok B h' /\ ext_but h h' (mp B) /\ next h' = next h /\ ismat h' B n m /\
    forall k, k < m -> R (fun i => mget h B i k) (fun i => mget h' B i k).
Definition mat_outofplace (R : (nat -> T) -> (nat -> T) -> Prop)
    (solve : mat -> M (heap T) mat) (h : heap T) n m B : Prop :=
  exists X h', solve B h = Ok X h' /\ ext h h' /\ next h <= mp X /\ ismat h' X n m /\
    forall k, k < m -> R (fun i => mget h B i k) (fun i => mget h' X i k).

Variable n : nat.
Hypothesis Hn : (Z.of_nat n < 2 ^ 31)%Z.

Lemma vec_col h x i : colof 1 h x 0 i = rd h x i.
Proof. unfold colof. now rewrite Nat.mul_1_r. Qed.
Lemma mat_col h X m k i : mc X = m -> colof m h (mp X) k i = mget h X i k.
Proof. intros E. unfold colof, mget. rewrite E. f_equal. lia. Qed.

Lemma frame_ext_but h h' p P : frame p P h h' -> ext_but h h' p.
Proof. intros (N & M & _). split; [lia|]. auto. Qed.

(** A kernel with the shape shared by both. *)
Definition kernel_spec (R : (nat -> nat -> T) -> (nat -> T) -> (nat -> T) -> Prop) A
    (kernel : memtype -> nat -> nat -> ptr -> ptr -> ptr -> M (heap T) A) : Prop :=
  forall mt nrow l rhs rslt h, l <> rslt -> fits_u32 nrow = true ->
    len h l = storage mt n -> n * nrow <= len h rhs -> n * nrow <= len h rslt ->
    post (kernel mt n nrow l rhs rslt) h (fun _ h' => frame rslt (fun p => p < n * nrow) h h' /\
      forall k, k < nrow -> R (lo mt n l h) (colof nrow h rhs k) (colof nrow h' rslt k)).

Section Lift.
Variables (R : (nat -> nat -> T) -> (nat -> T) -> (nat -> T) -> Prop) (A : Type)
  (kernel : memtype -> nat -> nat -> ptr -> ptr -> ptr -> M (heap T) A).
Hypothesis KS : kernel_spec R A kernel.
Hypothesis R_ext : forall L b b' X X', (forall i, i < n -> b i = b' i) -> (forall i, i < n -> X i = X' i) -> R L b X -> R L b' X'.

Lemma lift_vec_in dbg F rhs h : isfac h F n -> isvec h rhs n -> chp F <> rhs ->
  vec_inplace (R (fac h F)) (fun rhs => bind (vsize rhs) (fun m => bind (assert_ dbg (Nat.eqb (chn F) m)) (fun _ =>
    bind (kernel (chmt F) n 1 (chp F) rhs rhs) (fun _ => ret rhs)))) h n rhs.
Proof.
  intros (I1 & I2 & I3) (V1 & V2) Hp. apply post_eq. apply post_bind, post_vsize.
  apply post_bind, post_assert; [rewrite I1, V2; apply Nat.eqb_refl|].
  apply post_bind. eapply post_mono; [apply KS; auto; lia|].
  intros _ h' [Fr S]. apply post_ret. split; [reflexivity|]. split; [apply (frame_ext_but _ _ _ _ Fr)|].
  split; [apply Fr|]. split. { split; [destruct Fr as (N & _); lia|]. rewrite (frame_len _ _ _ _ _ Fr). auto. }
  unfold fac. rewrite I1. apply (R_ext _ (colof 1 h rhs 0) _ (colof 1 h' rhs 0)); [| |apply S; lia]; intros; apply vec_col.
Qed.
Lemma lift_vec_out dbg F rhs h : isfac h F n -> isvec h rhs n ->
  vec_outofplace (R (fac h F)) (fun rhs => bind (vsize rhs) (fun m => bind (assert_ dbg (Nat.eqb (chn F) m)) (fun _ =>
    bind (vec_copy rhs) (fun rslt => bind (kernel (chmt F) n 1 (chp F) rhs rslt) (fun _ => ret rslt))))) h n rhs.
Proof.
  intros (I1 & I2 & I3) (V1 & V2). unfold vec_outofplace. 
  match goal with |- exists r h', ?m h = Ok r h' /\ _ =>
    cut (post m h (fun r h' => ext h h' /\ next h <= r /\ isvec h' r n /\ R (fac h F) (rd h rhs) (rd h' r))) end.
  { intros P. destruct (post_ok _ _ _ P) as (r & h' & E & Q). exists r, h'. split; auto. }
  apply post_bind, post_vsize.
  apply post_bind, post_assert; [rewrite I1, V2; apply Nat.eqb_refl|].
  apply post_bind. unfold vec_copy. apply post_bind, post_contents, post_alloc.
  set (h1 := halloc h (mem h rhs)).
  assert (M1 : forall q, q < next h -> mem h1 q = mem h q) by (intros; apply mem_halloc_other; lia).
  assert (L1 : len h1 (next h) = n) by (unfold len, h1; rewrite mem_halloc_same; exact V2).
  apply post_bind. eapply post_mono.
  { apply KS; [lia|auto|unfold len; rewrite M1 by auto; exact I3|unfold len; rewrite M1 by auto; fold (len h rhs); lia|lia]. }
  intros _ h' [Fr S]. apply post_ret.
  assert (N1 : next h1 = Datatypes.S (next h)) by reflexivity.
  assert (E1 : lo (chmt F) n (chp F) h1 = fac h F).
  { unfold lo, fac, rd. rewrite M1 by auto. rewrite I1. reflexivity. }
  pose proof Fr as (N & M & L & U). split.
  { split; [lia|]. intros q Hq. rewrite M by lia. auto. }
  split; [lia|]. split; [split; lia|]. rewrite <- E1.
  apply (R_ext _ (colof 1 h1 rhs 0) _ (colof 1 h' (next h) 0)); [| |apply S; lia]; intros; rewrite vec_col; auto.
  unfold rd. now rewrite M1.
Qed.
Lemma lift_mat_in dbg F B m h : isfac h F n -> ismat h B n m -> fits_u32 m = true -> chp F <> mp B ->
  mat_inplace (R (fac h F)) (fun rhs => bind (assert_ dbg (Nat.eqb (chn F) (mr rhs))) (fun _ =>
    bind (kernel (chmt F) n (mc rhs) (chp F) (mp rhs) (mp rhs)) (fun _ => ret rhs))) h n m B.
Proof.
  intros (I1 & I2 & I3) (B1 & B2 & B3 & B4) Hm Hp. apply post_eq.
  apply post_bind, post_assert; [rewrite I1, B2; apply Nat.eqb_refl|].
  rewrite B3. apply post_bind. eapply post_mono; [apply KS; auto; lia|].
  intros _ h' [Fr S]. apply post_ret. split; [reflexivity|]. split; [apply (frame_ext_but _ _ _ _ Fr)|].
  split; [apply Fr|]. split.
  { split; [destruct Fr as (N & _); lia|]. rewrite (frame_len _ _ _ _ _ Fr). auto. }
  intros k Hk. unfold fac. rewrite I1.
  apply (R_ext _ (colof m h (mp B) k) _ (colof m h' (mp B) k)); [| |apply S; lia]; intros; apply mat_col; auto.
Qed.
Lemma lift_mat_out dbg F B m h : isfac h F n -> ismat h B n m -> fits_u32 m = true ->
  mat_outofplace (R (fac h F)) (fun rhs => bind (assert_ dbg (Nat.eqb (chn F) (mr rhs))) (fun _ =>
    bind (mat_copy rhs) (fun rslt =>
    bind (kernel (chmt F) n (mc rhs) (chp F) (mp rhs) (mp rslt)) (fun _ => ret rslt)))) h n m B.
Proof.
  intros (I1 & I2 & I3) (B1 & B2 & B3 & B4) Hm. unfold mat_outofplace.
  match goal with |- exists r h', ?c h = Ok r h' /\ _ =>
    cut (post c h (fun X h' => ext h h' /\ next h <= mp X /\ ismat h' X n m /\
      forall k, k < m -> R (fac h F) (fun i => mget h B i k) (fun i => mget h' X i k))) end.
  { intros P. destruct (post_ok _ _ _ P) as (r & h' & E & Q). exists r, h'. split; auto. }
  apply post_bind, post_assert; [rewrite I1, B2; apply Nat.eqb_refl|].
  apply post_bind. unfold mat_copy. apply post_bind, post_contents. apply post_bind, post_alloc, post_ret.
  cbn [mp]. rewrite B3.
  set (h1 := halloc h (mem h (mp B))).
  assert (M1 : forall q, q < next h -> mem h1 q = mem h q) by (intros; apply mem_halloc_other; lia).
  assert (L1 : len h1 (next h) = n * m) by (unfold len, h1; rewrite mem_halloc_same; exact B4).
  apply post_bind. eapply post_mono.
  { apply KS; [lia|auto|unfold len; rewrite M1 by auto; exact I3|unfold len; rewrite M1 by auto; fold (len h (mp B)); lia|lia]. }
  intros _ h' [Fr S]. apply post_ret. cbn [mp].
  assert (N1 : next h1 = Datatypes.S (next h)) by reflexivity.
  assert (E1 : lo (chmt F) n (chp F) h1 = fac h F).
  { unfold lo, fac, rd. rewrite M1 by auto. rewrite I1. reflexivity. }
  pose proof Fr as (N & M & L & U). split.
  { split; [lia|]. intros q Hq. rewrite M by lia. auto. }
  split; [lia|]. split; [split; [cbn [mp]; lia|]; cbn [mr mc mp]; repeat split; auto; lia|].
  intros k Hk. rewrite <- E1.
  apply (R_ext _ (colof m h1 (mp B) k) _ (colof m h' (next h) k)); [| |apply S; lia]; intros i Hi.
  - rewrite (mat_col h1 B m k i B3). unfold mget, rd. now rewrite M1.
  - unfold mget, colof. cbn [mp mc]. f_equal. lia.
Qed.
End Lift.
End Entry.

(** ** C42 *)

(** x is the solution of A x = b. *)
Definition the_solution {T} {Op : Ops T} n (A : nat -> nat -> T) (b x : nat -> T) : Prop :=
  solves n A x b /\ forall y, solves n A y b -> veq n y x.

Section Cholesky.
Context {T : Type} {Op : Ops T}.
Implicit Types h : heap T.

Lemma subst_ext n L (b b' X X' : nat -> T) : (forall i, i < n -> b i = b' i) -> (forall i, i < n -> X i = X' i) ->
  substituted n L b X -> substituted n L b' X'.
Proof. apply (substituted_ext n 0 1). discriminate. Qed.
Lemma usubst_ext n L (b b' X X' : nat -> T) : (forall i, i < n -> b i = b' i) -> (forall i, i < n -> X i = X' i) ->
  usubstituted n L b X -> usubstituted n L b' X'.
Proof. apply (usubstituted_ext n 0 1). discriminate. Qed.
Lemma chol_kernel_spec n : (Z.of_nat n < 2 ^ 31)%Z -> kernel_spec n (substituted n) ptr cholesky_linear.
Proof.
  intros Hn mt nrow l rhs rslt h H1 H2 H3 H4 H5. eapply post_mono.
  - apply (cholesky_linear_ok mt n nrow l rhs rslt H1 h); auto.
  - intros r h' (_ & Fr & S). auto.
Qed.
Lemma mod_kernel_spec n : (Z.of_nat n < 2 ^ 31)%Z -> kernel_spec n (usubstituted n) unit mod_cholesky_linear.
Proof.
  intros Hn mt nrow l rhs rslt h H1 H2 H3 H4 H5.
  apply (mod_linear_ok mt n nrow l rhs rslt H1 h); auto. unfold fits_i32. apply Z.leb_le. lia.
Qed.

Lemma vec_in_eq (R : (nat -> T) -> (nat -> T) -> Prop) f g h n rhs : f rhs h = g rhs h ->
  vec_inplace R g h n rhs -> vec_inplace R f h n rhs.
Proof. intros E (h' & H & Q). exists h'. rewrite E. auto. Qed.
Lemma vec_out_eq (R : (nat -> T) -> (nat -> T) -> Prop) f g h n rhs : f rhs h = g rhs h ->
  vec_outofplace R g h n rhs -> vec_outofplace R f h n rhs.
Proof. intros E (r & h' & H & Q). exists r, h'. rewrite E. auto. Qed.
Lemma mat_in_eq (R : (nat -> T) -> (nat -> T) -> Prop) f g h n m B : f B h = g B h ->
  mat_inplace R g h n m B -> mat_inplace R f h n m B.
Proof. intros E (h' & H & Q). exists h'. rewrite E. auto. Qed.
Lemma mat_out_eq (R : (nat -> T) -> (nat -> T) -> Prop) f g h n m B : f B h = g B h ->
  mat_outofplace R g h n m B -> mat_outofplace R f h n m B.
Proof. intros E (r & h' & H & Q). exists r, h'. rewrite E. auto. Qed.

Section Rel.
Variables (n : nat) (dbg : bool) (F : chol) (h : heap T).
Hypothesis Hn : (Z.of_nat n < 2 ^ 31)%Z.
Hypothesis HF : isfac h F n.

Lemma chol_vec_in rhs : isvec h rhs n -> chp F <> rhs ->
  vec_inplace (substituted n (fac h F)) (chol_solve_mut_vec dbg F) h n rhs.
Proof.
  intros V P. eapply vec_in_eq; [|apply (lift_vec_in n _ _ _ (chol_kernel_spec n Hn) (subst_ext n) dbg F rhs h); auto].
  unfold chol_solve_mut_vec, bind, vsize. fold (len h rhs). destruct V as [_ ->]. reflexivity.
Qed.
Lemma chol_vec_out rhs : isvec h rhs n ->
  vec_outofplace (substituted n (fac h F)) (chol_solve_vec dbg F) h n rhs.
Proof.
  intros V. eapply vec_out_eq; [|apply (lift_vec_out n _ _ _ (chol_kernel_spec n Hn) (subst_ext n) dbg F rhs h); auto].
  unfold chol_solve_vec, bind, vsize. fold (len h rhs). destruct V as [_ ->]. reflexivity.
Qed.
Lemma chol_mat_in B m : ismat h B n m -> fits_u32 m = true -> chp F <> mp B ->
  mat_inplace (substituted n (fac h F)) (chol_solve_mut_mat dbg F) h n m B.
Proof.
  intros V Hm P. eapply mat_in_eq; [|apply (lift_mat_in n _ _ _ (chol_kernel_spec n Hn) (subst_ext n) dbg F B m h); auto].
  unfold chol_solve_mut_mat. destruct V as (_ & -> & _ & _). reflexivity.
Qed.
Lemma chol_mat_out B m : ismat h B n m -> fits_u32 m = true ->
  mat_outofplace (substituted n (fac h F)) (chol_solve_mat dbg F) h n m B.
Proof.
  intros V Hm. eapply mat_out_eq; [|apply (lift_mat_out n _ _ _ (chol_kernel_spec n Hn) (subst_ext n) dbg F B m h); auto].
  unfold chol_solve_mat. destruct V as (_ & -> & _ & _). reflexivity.
Qed.
Lemma mod_vec_in rhs : isvec h rhs n -> chp F <> rhs ->
  vec_inplace (usubstituted n (fac h F)) (mod_solve_mut_vec dbg F) h n rhs.
Proof.
  intros V P. eapply vec_in_eq; [|apply (lift_vec_in n _ _ _ (mod_kernel_spec n Hn) (usubst_ext n) dbg F rhs h); auto].
  unfold mod_solve_mut_vec. destruct HF as (-> & _). reflexivity.
Qed.
Lemma mod_vec_out rhs : isvec h rhs n ->
  vec_outofplace (usubstituted n (fac h F)) (mod_solve_vec dbg F) h n rhs.
Proof.
  intros V. eapply vec_out_eq; [|apply (lift_vec_out n _ _ _ (mod_kernel_spec n Hn) (usubst_ext n) dbg F rhs h); auto].
  unfold mod_solve_vec. destruct HF as (-> & _). reflexivity.
Qed.
Lemma mod_mat_in B m : ismat h B n m -> fits_u32 m = true -> chp F <> mp B ->
  mat_inplace (usubstituted n (fac h F)) (mod_solve_mut_mat dbg F) h n m B.
Proof.
  intros V Hm P. eapply mat_in_eq; [|apply (lift_mat_in n _ _ _ (mod_kernel_spec n Hn) (usubst_ext n) dbg F B m h); auto].
  unfold mod_solve_mut_mat. destruct HF as (-> & _). reflexivity.
Qed.
Lemma mod_mat_out B m : ismat h B n m -> fits_u32 m = true ->
  mat_outofplace (usubstituted n (fac h F)) (mod_solve_mat dbg F) h n m B.
Proof.
  intros V Hm. eapply mat_out_eq; [|apply (lift_mat_out n _ _ _ (mod_kernel_spec n Hn) (usubst_ext n) dbg F B m h); auto].
  unfold mod_solve_mat. destruct HF as (-> & _). reflexivity.
Qed.
End Rel.
End Cholesky.

Section Weaken.
Context {T : Type} {Op : Ops T}.
Variables (R R' : (nat -> T) -> (nat -> T) -> Prop).
Hypothesis RR : forall b x, R b x -> R' b x.
Lemma vec_in_mono f h n rhs : vec_inplace R f h n rhs -> vec_inplace R' f h n rhs.
Proof. intros (h' & H1 & H2 & H3 & H4 & H5). exists h'. auto 10. Qed.
Lemma vec_out_mono f h n rhs : vec_outofplace R f h n rhs -> vec_outofplace R' f h n rhs.
Proof. intros (r & h' & H1 & H2 & H3 & H4 & H5). exists r, h'. auto 10. Qed.
Lemma mat_in_mono f h n m B : mat_inplace R f h n m B -> mat_inplace R' f h n m B.
Proof. intros (h' & H1 & H2 & H3 & H4 & H5). exists h'. auto 10. Qed.
Lemma mat_out_mono f h n m B : mat_outofplace R f h n m B -> mat_outofplace R' f h n m B.
Proof. intros (r & h' & H1 & H2 & H3 & H4 & H5). exists r, h'. auto 10. Qed.
End Weaken.

Lemma factor_nonsingular n (L : nat -> nat -> R) : (forall i, i < n -> (0 < L i i)%R) ->
  nonsingular n (mmmul n (lowf L) (transp (lowf L))).
Proof.
  intros P. apply product_nonsingular.
  - apply lower_nonsingular; [apply lowf_lower|]. intros i Hi. rewrite lowf_in by lia. pose proof (P i Hi). cbn. lra.
  - apply upper_nonsingular; [apply lowf_transp_upper|]. intros i Hi. unfold transp. rewrite lowf_in by lia.
    pose proof (P i Hi). cbn. lra.
Qed.
Lemma factor_solution h F n A b x : factor_of h F n A -> substituted n (fac h F) b x -> the_solution n A b x.
Proof.
  intros (I & P & E) S.
  assert (SX : solves n A x b).
  { apply (solves_meq n _ _ _ _ E). apply subst_solves; auto. intros i Hi. pose proof (P i Hi). cbn. lra. }
  split; [exact SX|]. intros y Hy. apply (solves_unique n A y x b); auto.
  apply (nonsingular_meq n _ _ E). now apply factor_nonsingular.
Qed.

Theorem C42_vector_inplace : forall dbg F n A rhs (h : heap R), (Z.of_nat n < 2 ^ 31)%Z ->
  factor_of h F n A -> isvec h rhs n -> chp F <> rhs ->
  vec_inplace (the_solution n A) (chol_solve_mut_vec dbg F) h n rhs.
Proof.
  intros dbg F n A rhs h Hn HF V P. eapply vec_in_mono; [|apply chol_vec_in; auto; apply HF].
  intros b x S. apply (factor_solution h F n A b x HF S).
Qed.
Theorem C42_vector : forall dbg F n A rhs (h : heap R), (Z.of_nat n < 2 ^ 31)%Z ->
  factor_of h F n A -> isvec h rhs n ->
  vec_outofplace (the_solution n A) (chol_solve_vec dbg F) h n rhs.
Proof.
  intros dbg F n A rhs h Hn HF V. eapply vec_out_mono; [|apply chol_vec_out; auto; apply HF].
  intros b x S. apply (factor_solution h F n A b x HF S).
Qed.
Theorem C42_matrix_inplace : forall dbg F n m A B (h : heap R), (Z.of_nat n < 2 ^ 31)%Z -> fits_u32 m = true ->
  factor_of h F n A -> ismat h B n m -> chp F <> mp B ->
  mat_inplace (the_solution n A) (chol_solve_mut_mat dbg F) h n m B.
Proof.
  intros dbg F n m A B h Hn Hm HF V P. eapply mat_in_mono; [|apply chol_mat_in; auto; apply HF].
  intros b x S. apply (factor_solution h F n A b x HF S).
Qed.
Theorem C42_matrix : forall dbg F n m A B (h : heap R), (Z.of_nat n < 2 ^ 31)%Z -> fits_u32 m = true ->
  factor_of h F n A -> ismat h B n m ->
  mat_outofplace (the_solution n A) (chol_solve_mat dbg F) h n m B.
Proof.
  intros dbg F n m A B h Hn Hm HF V. eapply mat_out_mono; [|apply chol_mat_out; auto; apply HF].
  intros b x S. apply (factor_solution h F n A b x HF S).
Qed.

(** From the matrix to the solution: construct, then solve. *)
Theorem C42_end_to_end : forall dbg n A rhs (h : heap R), (Z.of_nat n < 2 ^ 31)%Z ->
  ismat h A n n -> isvec h rhs n -> symmetric n (mget h A) -> pos_def n (mget h A) ->
  exists F h1 r h2, dyn_cholesky A h = Ok F h1 /\ chol_solve_vec dbg F rhs h1 = Ok r h2 /\ isvec h2 r n /\
    the_solution n (mget h A) (rd h rhs) (rd h2 r) /\ mem h2 rhs = mem h rhs.
Proof.
  intros dbg n A rhs h Hn HA HR S P.
  assert (Hf : fits_u32 n = true) by (unfold fits_u32; apply Z.ltb_lt; lia).
  destruct (C40_square n A h HA Hf S P) as (F & h1 & E1 & HF & _ & [N1 X1] & _).
  destruct HR as [R1 R2].
  assert (V1 : isvec h1 rhs n) by (split; [lia|unfold len; rewrite X1 by auto; exact R2]).
  destruct (C42_vector dbg F n (mget h A) rhs h1 Hn HF V1) as (r & h2 & E2 & [X2 X3] & Y & V2 & Q).
  exists F, h1, r, h2. split; [auto|]. split; [auto|]. split; [auto|].
  assert (EB : forall i, rd h1 rhs i = rd h rhs i) by (intros i; unfold rd; now rewrite X1 by auto).
  split.
  - destruct Q as [Q1 Q2]. split.
    + intros i Hi. rewrite (Q1 i Hi). apply EB.
    + intros y Hy. apply Q2. intros i Hi. rewrite (Hy i Hi). symmetry. apply EB.
  - rewrite X3 by lia. apply X1; lia.
Qed.

(** Packed and square storage give the same numbers, for every scalar type: same lower triangle
    of the factor, same right-hand side, same solution. *)
Theorem C42_packed_as_square : forall T (Op : Ops T) dbg1 dbg2 F1 F2 n b1 b2 (h1 h2 : heap T), (Z.of_nat n < 2 ^ 31)%Z ->
  isfac h1 F1 n -> isfac h2 F2 n -> (forall i j, j <= i -> i < n -> fac h1 F1 i j = fac h2 F2 i j) ->
  isvec h1 b1 n -> isvec h2 b2 n -> veq n (rd h1 b1) (rd h2 b2) ->
  exists r1 g1 r2 g2, chol_solve_vec dbg1 F1 b1 h1 = Ok r1 g1 /\ chol_solve_vec dbg2 F2 b2 h2 = Ok r2 g2 /\
    veq n (rd g1 r1) (rd g2 r2).
Proof.
  intros T Op dbg1 dbg2 F1 F2 n b1 b2 h1 h2 Hn I1 I2 E V1 V2 Eb.
  destruct (chol_vec_out n dbg1 F1 h1 Hn I1 b1 V1) as (r1 & g1 & O1 & _ & _ & _ & S1).
  destruct (chol_vec_out n dbg2 F2 h2 Hn I2 b2 V2) as (r2 & g2 & O2 & _ & _ & _ & S2).
  exists r1, g1, r2, g2. split; [auto|]. split; [auto|].
  apply (substituted_unique n (fac h1 F1) (fac h2 F2) (rd h2 b2)); auto.
  apply (subst_ext n _ (rd h1 b1) _ (rd g1 r1)); auto.
Qed.

(** ** C43 *)
Section Modified.
Context (T : Type) (Op : Ops T) (Fi : IsField T Op).
Add Field Tfield9 : (field_th (IsField := Fi)).
Local Open Scope sc_scope.
Implicit Types h : heap T.

(** A(i,j) = sum over k <= j of L(i,k) L(j,k) / L(k,k), no L(k,k) zero. *)
Definition ldl n (A L : nat -> nat -> T) : Prop :=
  (forall k, (k < n)%nat -> L k k <> zero) /\
  forall i j, (j <= i)%nat -> (i < n)%nat -> A i j = bsum (S j) (fun k => L i k * L j k / L k k).
Definition mod_factor_of h (F : chol) n (A : nat -> nat -> T) : Prop := isfac h F n /\ ldl n A (fac h F).

Lemma mfactored_ldl n A L : mfactored n A L -> ldl n A L.
Proof.
  intros H. assert (D : forall i, (i < n)%nat -> L i i <> zero) by (intros i Hi; apply nz_of_eqb, (H i Hi)).
  split; [exact D|]. intros i j Hj Hi. destruct (H i Hi) as [R _]. specialize (R j Hj). unfold mrec in R.
  rewrite ssub_bsum in R. cbn [bsum]. replace (L i j * L j j / L j j) with (L i j) by (field; apply D; lia).
  rewrite R. ring.
Qed.
Lemma ldl_product n A L : ldl n A L -> meq n n (mmmul n (unitl L) (transp (lowf L))) (symf A).
Proof.
  intros [D R]. destruct n as [|c]. { intros i j Hi. lia. }
  apply mod_product; [intros; apply D; lia|]. intros i j Hj Hi. unfold mrec. rewrite ssub_bsum.
  rewrite (R i j) by lia. cbn [bsum]. field. apply D. lia.
Qed.

Lemma mod_outcome n A h : ismat h A n n -> fits_u32 n = true ->
  let D := mkMat (next h) n n in
  exists h', ext h h' /\ next h' = S (next h) /\
  (forall i j, (i < j)%nat -> (j < n)%nat -> mget h' D i j = mget h A i j) /\
  ((mod_cholesky A h = Ok (mkChol n (next h) Square) h' /\ mfactored n (mget h A) (mget h' D) /\ ismat h' D n n) \/
   (mod_cholesky A h = Throw RuntimeError h' /\ exists c, mfailed n (mget h A) (mget h' D) c)).
Proof.
  intros (A1 & A2 & A3 & A4) Hf D. pose (h0 := halloc h (mem h (mp A))).
  assert (L0 : len h0 (next h) = (n * n)%nat) by (unfold len, h0; rewrite mem_halloc_same; exact A4).
  pose proof (mod_kernel Square n (next h) h0 Hf L0) as K. unfold postx in K.
  assert (EM : mod_cholesky A h = bind (mod_cholesky_decomposition Square n (next h))
    (fun _ => ret (mkChol n (next h) Square)) h0) by (unfold mod_cholesky; rewrite A2; reflexivity).
  rewrite EM. unfold bind.
  assert (EL : forall g, lo Square n (next h) g = mget g D) by reflexivity.
  assert (E0 : mget h0 D = mget h A) by (unfold mget, rd, h0; cbn [mp mc D]; now rewrite mem_halloc_same, A3).
  assert (UP : forall h', frame (next h) (lowpos Square n) h0 h' ->
    forall i j, (i < j)%nat -> (j < n)%nat -> mget h' D i j = mget h A i j).
  { intros h' (N & M & L & U) i j Hij Hj. rewrite <- E0. unfold mget. cbn [mp mc D]. apply U.
    intros (i' & j' & H1 & H2 & H3). cbn [index] in H3.
    rewrite (Nat.add_comm (i * n)), (Nat.add_comm (i' * n)) in H3. apply pos_inj in H3; lia. }
  destruct (mod_cholesky_decomposition Square n (next h) h0) as [z h'|e h'| | | |]; try contradiction.
  - destruct K as [Fr Mf]. exists h'. rewrite !EL, E0 in Mf. split; [apply (ctor_ext h h' _ _ _ Fr eq_refl)|].
    split; [apply Fr|]. split; [now apply UP|]. destruct Fr as (N & M & L & U).
    left. split; [reflexivity|]. split; [exact Mf|]. unfold h0, halloc in N. cbn [next] in N.
    split; [cbn [mp D]; lia|]. split; [reflexivity|]. split; [reflexivity|]. cbn [mp D]. lia.
  - destruct K as (-> & Fr & c & Mf). exists h'. rewrite !EL, E0 in Mf. split; [apply (ctor_ext h h' _ _ _ Fr eq_refl)|].
    split; [apply Fr|]. split; [now apply UP|]. right. split; eauto.
Qed.

(** It succeeds exactly when every leading block is non-singular, and otherwise throws. *)
Theorem C43_success : forall n A h, ismat h A n n -> fits_u32 n = true -> leading_nonsingular n (symf (mget h A)) ->
  exists F h', mod_cholesky A h = Ok F h' /\ mod_factor_of h' F n (mget h A) /\
    ext h h' /\ next h <= chp F < next h' /\
    (forall i j, (i < j)%nat -> (j < n)%nat -> mget h' (factor_mat F) i j = mget h A i j).
Proof.
  intros n A h HA Hf HL. destruct (mod_outcome n A h HA Hf) as (h' & X & N & U & [(E & Mf & I)|(E & c & Mf)]).
  - exists (mkChol n (next h) Square), h'. split; [exact E|].
    assert (EF : forall i j, fac h' (mkChol n (next h) Square) i j = mget h' (mkMat (next h) n n) i j) by reflexivity.
    split.
    { split. { destruct I as (I1 & I2 & I3 & I4). repeat split; auto. }
      destruct (mfactored_ldl _ _ _ Mf) as [D R]. split.
      - intros k Hk. rewrite EF. auto.
      - intros i j Hj Hi. rewrite (R i j Hj Hi). apply bsum_ext. intros k Hk. now rewrite !EF. }
    split; [exact X|]. split; [cbn [chp]; lia|]. exact U.
  - exfalso. apply (mfailed_singular _ _ _ _ Mf HL).
Qed.
Theorem C43_throws : forall n A h, ismat h A n n -> fits_u32 n = true -> ~ leading_nonsingular n (symf (mget h A)) ->
  exists h', mod_cholesky A h = Throw RuntimeError h' /\ ext h h'.
Proof.
  intros n A h HA Hf HL. destruct (mod_outcome n A h HA Hf) as (h' & X & N & U & [(E & Mf & I)|(E & c & Mf)]).
  - exfalso. apply HL. apply (mfactored_leading _ _ _ Mf).
  - eauto.
Qed.

Lemma mod_solution h F n A b x : mod_factor_of h F n A -> usubstituted n (fac h F) b x -> the_solution n (symf A) b x.
Proof.
  intros (I & D) S. pose proof (ldl_product _ _ _ D) as E. destruct D as [D R].
  assert (SX : solves n (symf A) x b).
  { apply (solves_meq n _ _ _ _ E). apply usubst_solves; auto. }
  split; [exact SX|]. intros y Hy. apply (solves_unique n (symf A) y x b); auto.
  apply (nonsingular_meq n _ _ E). apply product_nonsingular; [apply unitl_nonsingular|].
  apply upper_nonsingular; [apply lowf_transp_upper|]. intros i Hi. unfold transp. rewrite lowf_in by lia. auto.
Qed.

Theorem C43_solve_vector_inplace : forall dbg F n A rhs h, (Z.of_nat n < 2 ^ 31)%Z ->
  mod_factor_of h F n A -> isvec h rhs n -> chp F <> rhs ->
  vec_inplace (the_solution n (symf A)) (mod_solve_mut_vec dbg F) h n rhs.
Proof.
  intros dbg F n A rhs h Hn HF V P. eapply vec_in_mono; [|apply mod_vec_in; auto; apply HF].
  intros b x S. apply (mod_solution h F n A b x HF S).
Qed.
Theorem C43_solve_vector : forall dbg F n A rhs h, (Z.of_nat n < 2 ^ 31)%Z ->
  mod_factor_of h F n A -> isvec h rhs n ->
  vec_outofplace (the_solution n (symf A)) (mod_solve_vec dbg F) h n rhs.
Proof.
  intros dbg F n A rhs h Hn HF V. eapply vec_out_mono; [|apply mod_vec_out; auto; apply HF].
  intros b x S. apply (mod_solution h F n A b x HF S).
Qed.
Theorem C43_solve_matrix_inplace : forall dbg F n m A B h, (Z.of_nat n < 2 ^ 31)%Z -> fits_u32 m = true ->
  mod_factor_of h F n A -> ismat h B n m -> chp F <> mp B ->
  mat_inplace (the_solution n (symf A)) (mod_solve_mut_mat dbg F) h n m B.
Proof.
  intros dbg F n m A B h Hn Hm HF V P. eapply mat_in_mono; [|apply mod_mat_in; auto; apply HF].
  intros b x S. apply (mod_solution h F n A b x HF S).
Qed.
Theorem C43_solve_matrix : forall dbg F n m A B h, (Z.of_nat n < 2 ^ 31)%Z -> fits_u32 m = true ->
  mod_factor_of h F n A -> ismat h B n m ->
  mat_outofplace (the_solution n (symf A)) (mod_solve_mat dbg F) h n m B.
Proof.
  intros dbg F n m A B h Hn Hm HF V. eapply mat_out_mono; [|apply mod_mat_out; auto; apply HF].
  intros b x S. apply (mod_solution h F n A b x HF S).
Qed.
End Modified.

(** In particular on every positive definite matrix. *)
Theorem C43_spd : forall n A (h : heap R), ismat h A n n -> fits_u32 n = true ->
  symmetric n (mget h A) -> pos_def n (mget h A) ->
  exists F h', mod_cholesky A h = Ok F h' /\ mod_factor_of R ROps h' F n (mget h A).
Proof.
  intros n A h HA Hf S P.
  destruct (C43_success R ROps R_field n A h HA Hf) as (F & h' & E & I & _).
  { apply pos_def_leading. apply (pos_def_meq n (mget h A)); auto. intros i j Hi Hj. symmetry. now apply (symf_sym n). }
  eauto.
Qed.

(** ** Examples *)
(** [[4, 2], [2, 5]] x = (8, 12) in binary64: x = (1, 2), with either storage and calling form. *)
Example C42_example :
  peek ((F <- dyn_cholesky (mkMat 0 2 2) ;; chol_solve_vec true F 1) (heap_of [[4; 2; 2; 5]; [8; 12]]%float)) (fun r => r)
    = Some [1; 2]%float /\
  peek ((F <- tri_cholesky (mkHerm 2 [4; 2; 5]%float) ;; chol_solve_mut_vec true F 0) (heap_of [[8; 12]]%float)) (fun r => r)
    = Some [1; 2]%float /\
  peek ((F <- dyn_cholesky (mkMat 0 2 2) ;; chol_solve_mat true F (mkMat 1 2 2)) (heap_of [[4; 2; 2; 5]; [8; 4; 12; 2]]%float)) mp
    = Some [1; 1; 2; 0]%float.
Proof. repeat split; vm_compute; reflexivity. Qed.
(** A factor in the sense of C42: L = [[2], [1, 2]] of [[4, 2], [2, 5]]. *)
Example C42_factor_example :
  factor_of (heap_of [[2; 77; 1; 2]%R; [8; 12]%R]) (mkChol 2 0 Square) 2
    (fun i j => match i, j with 0, 0 => 4 | 1, 1 => 5 | _, _ => 2 end)%R /\
  isvec (heap_of [[2; 77; 1; 2]%R; [8; 12]%R]) 1 2.
Proof.
  split; [|split; cbn; auto]. split; [repeat split; cbn; lia|]. split.
  - intros [|[|i]] Hi; [..|lia]; unfold fac, rd; cbn; lra.
  - intros [|[|i]] [|[|j]] Hi Hj; try lia; unfold mmmul, lowf, transp, fac, rd; cbn; ring.
Qed.

(** The indefinite matrix [[1, 2], [2, 1]], which Cholesky rejects, is factored and solved;
    [[0, 1], [1, 0]], which is non-singular, is rejected as its first leading block is 0. *)
Definition qm (a b c d : Z) := [qz a; qz b; qz c; qz d].
Example C43_example :
  let A := mkMat 0 2 2 in let h := heap_of [qm 1 2 2 1; [qz 5; qz 4]] in
  ismat h A 2 2 /\ leading_nonsingular 2 (symf (mget h A)) /\ isvec h 1 2 /\
  option_map (map this) (peek ((F <- mod_cholesky A ;; mod_solve_vec true F 1) h) (fun r => r)) = Some [1; 2]%Q /\
  option_map (map this) (peek (mod_cholesky A h) chp) = Some [1; 2; 2; (-3)]%Q /\
  (exists h', mod_cholesky A (heap_of [qm 0 1 1 0]) = Throw RuntimeError h').
Proof.
  cbv zeta. split; [repeat split; cbn; lia|]. split.
  { assert (E : forall k, k <= 2 -> meq k k
        (mmmul k (unitl (fun i j => if Nat.eqb i 1 then if Nat.eqb j 1 then qz (-3) else qz 2 else qz 1))
          (transp (lowf (fun i j => if Nat.eqb i 1 then if Nat.eqb j 1 then qz (-3) else qz 2 else qz 1))))
        (symf (mget (heap_of [qm 1 2 2 1; [qz 5; qz 4]]) (mkMat 0 2 2)))).
    { intros [|[|[|k]]] Hk [|[|i]] [|[|j]] Hi Hj; try lia; apply Qc_is_canon; vm_compute; reflexivity. }
    intros k Hk. eapply nonsingular_meq; [apply E; auto|]. apply product_nonsingular; [apply unitl_nonsingular|].
    apply upper_nonsingular; [apply lowf_transp_upper|]. intros i Hi. unfold transp. rewrite lowf_in by lia.
    destruct i as [|[|i]]; [..|lia]; intros H; apply (f_equal this) in H; vm_compute in H; discriminate. }
  split; [split; cbn; auto|]. split; [vm_compute; reflexivity|]. split; [vm_compute; reflexivity|].
  eexists. vm_compute. reflexivity.
Qed.

Print Assumptions C42_vector_inplace.
Print Assumptions C42_matrix.
Print Assumptions C42_end_to_end.
Print Assumptions C42_packed_as_square.
Print Assumptions C43_success.
Print Assumptions C43_throws.
Print Assumptions C43_solve_vector.
Print Assumptions C43_solve_matrix_inplace.
Print Assumptions C43_spd.
