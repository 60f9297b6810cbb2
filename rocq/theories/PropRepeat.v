(** * Property C53: repeated solves, and different solvers, agree *)
From Coq Require Import QArith Qcanon Reals Lra Lia Morphisms Floats.
From Verif Require Import Base Scalar BaseLemmas Spec Sums RealVec ModelVec ModelMat SpecMat ModelPacked PropPacked ModelSparse
  ModelSolvers ModelIter ModelBlas SpecBlas ModelLapack ProofTdma ProofTdmaBits PropTdma ProofChol ProofCholMath PropChol PropCholSolve
  PropIlu SpecSim SpecFrame PropLocal PropFrame SpecLapack ProofLapack PropLapack.
Local Open Scope nat_scope.

(** ** The same solver object, the same right-hand side: value-returning solvers *)

(** Run [m] k times, collecting the answers. *)
Fixpoint times {S A} (k : nat) (m : M S A) : M S (list A) :=
  match k with
  | 0 => ret []
  | Datatypes.S k => bind m (fun a => bind (times k m) (fun l => ret (a :: l)))
  end.

Section Repeat.
Context {T : Type} {Op : Ops T}.
Implicit Types h : heap T.

(** The call, followed by reading its answer. *)
Definition answer (m : M (heap T) ptr) : M (heap T) (list T) := bind m contents.
Definition answer_mat (m : M (heap T) mat) : M (heap T) (nat * nat * list T) :=
  bind m (fun A => bind (contents (mp A)) (fun l => ret (mr A, mc A, l))).

(** If the call returns the answer [a] in memory [h], then it returns [a] again in every later
    memory in which the objects of [h] are what they were; in particular any number of calls in a
    row all return [a]. *)
Definition repeats {A} (m : M (heap T) A) h : Prop :=
  forall a h1, m h = Ok a h1 ->
    (forall h2, clean h2 -> ext h h2 -> exists h3, m h2 = Ok a h3 /\ ext h h3) /\
    forall k, exists h', times k m h = Ok (repeat a k) h' /\ ext h h'.

Lemma repeats_vec (m : M (heap T) ptr) h : clean h ->
  (forall h2, respects (later h h2) (paired (later h h2)) m m) -> modifies [] fresh m -> repeats (answer m) h.
Proof.
  intros C Rs Md a h1 E. unfold answer, bind in E. destruct (m h) as [r g|e g| | | |] eqn:Em; try discriminate.
  cbn [contents] in E. injection E as Ea <-.
  assert (G : forall h2, clean h2 -> ext h h2 -> exists h3, answer m h2 = Ok a h3 /\ ext h h3 /\ clean h3).
  { intros h2 C2 X2. pose proof (C57_later T ptr ptr _ m m h h2 (Rs h2) C C2 X2) as SE. rewrite Em in SE.
    pose proof (Md h2) as K. destruct (m h2) as [r2 g2|e2 g2| | | |] eqn:Em2; try contradiction.
    destruct SE as [P RE]. exists g2. unfold answer, bind. rewrite Em2. cbn [contents].
    split; [|split; [|apply RE]].
    - unfold contents. f_equal. rewrite <- Ea. symmetry. apply (re_same _ _ _ _ _ RE). exact P.
    - destruct K as [[K1 K2 _] _], X2 as [X2 X3]. split; [lia|]. intros q Hq. rewrite K2 by (auto; lia). auto. }
  split; [intros h2 C2 X2; destruct (G h2 C2 X2) as (h3 & E & X & _); eauto|].
  intros k. assert (Ind : forall h2, clean h2 -> ext h h2 -> exists h', times k (answer m) h2 = Ok (repeat a k) h' /\ ext h h').
  { induction k as [|k IH]; intros h2 C2 X2; cbn [times repeat]; [exists h2; split; [reflexivity|exact X2]|].
    destruct (G h2 C2 X2) as (h3 & E3 & X3 & C3). destruct (IH h3 C3 X3) as (h' & E' & X').
    exists h'. unfold bind. rewrite E3, E'. split; [reflexivity|exact X']. }
  apply Ind; auto. split; auto.
Qed.
Lemma repeats_mat (m : M (heap T) mat) h : clean h ->
  (forall h2, respects (later h h2) (same_mat_shape (later h h2)) m m) -> modifies [] (fun h A => fresh h (mp A)) m ->
  repeats (answer_mat m) h.
Proof.
  intros C Rs Md a h1 E. unfold answer_mat, bind in E. destruct (m h) as [r g|e g| | | |] eqn:Em; try discriminate.
  cbn [contents ret] in E. unfold ret in E. injection E as Ea <-.
  assert (G : forall h2, clean h2 -> ext h h2 -> exists h3, answer_mat m h2 = Ok a h3 /\ ext h h3 /\ clean h3).
  { intros h2 C2 X2. pose proof (C57_later T mat mat _ m m h h2 (Rs h2) C C2 X2) as SE. rewrite Em in SE.
    pose proof (Md h2) as K. destruct (m h2) as [r2 g2|e2 g2| | | |] eqn:Em2; try contradiction.
    destruct SE as [(P & P1 & P2) RE]. exists g2. unfold answer_mat, bind. rewrite Em2. cbn [contents]. unfold ret.
    split; [|split; [|apply RE]].
    - unfold contents. f_equal. rewrite <- Ea, P1, P2. f_equal. symmetry. apply (re_same _ _ _ _ _ RE). exact P.
    - destruct K as [[K1 K2 _] _], X2 as [X2 X3]. split; [lia|]. intros q Hq. rewrite K2 by (auto; lia). auto. }
  split; [intros h2 C2 X2; destruct (G h2 C2 X2) as (h3 & E & X & _); eauto|].
  intros k. assert (Ind : forall h2, clean h2 -> ext h h2 -> exists h', times k (answer_mat m) h2 = Ok (repeat a k) h' /\ ext h h').
  { induction k as [|k IH]; intros h2 C2 X2; cbn [times repeat]; [exists h2; split; [reflexivity|exact X2]|].
    destruct (G h2 C2 X2) as (h3 & E3 & X3 & C3). destruct (IH h3 C3 X3) as (h' & E' & X').
    exists h'. unfold bind. rewrite E3, E'. split; [reflexivity|exact X']. }
  apply Ind; auto. split; auto.
Qed.

Lemma later_self h h2 p : p < next h -> paired (later h h2) p p.
Proof. intros H. left. split; auto. Qed.

Theorem C53_cholesky_vector : forall dbg F rhs h, clean h -> chp F < next h -> rhs < next h ->
  repeats (answer (chol_solve_vec dbg F rhs)) h.
Proof.
  intros. apply repeats_vec; auto; [|apply C58_chol_solve_vec].
  intros h2. apply C57_chol_solve_vec; try reflexivity; [repeat split; now apply later_self|now apply later_self].
Qed.
Theorem C53_cholesky_matrix : forall dbg F B h, clean h -> chp F < next h -> mp B < next h ->
  repeats (answer_mat (chol_solve_mat dbg F B)) h.
Proof.
  intros. apply repeats_mat; auto; [|apply C58_chol_solve_mat].
  intros h2. apply C57_chol_solve_mat; try reflexivity; repeat split; now apply later_self.
Qed.
Theorem C53_modified_vector : forall dbg F rhs h, clean h -> chp F < next h -> rhs < next h ->
  repeats (answer (mod_solve_vec dbg F rhs)) h.
Proof.
  intros. apply repeats_vec; auto; [|apply C58_mod_solve_vec].
  intros h2. apply C57_mod_solve_vec; try reflexivity; [repeat split; now apply later_self|now apply later_self].
Qed.
Theorem C53_modified_matrix : forall dbg F B h, clean h -> chp F < next h -> mp B < next h ->
  repeats (answer_mat (mod_solve_mat dbg F B)) h.
Proof.
  intros. apply repeats_mat; auto; [|apply C58_mod_solve_mat].
  intros h2. apply C57_mod_solve_mat; try reflexivity; repeat split; now apply later_self.
Qed.
Theorem C53_ilu : forall F rhs h, clean h -> mp F < next h -> rhs < next h -> repeats (answer (ilu_dyn_solve F rhs)) h.
Proof.
  intros. apply repeats_vec; auto; [|apply C58_ilu_dyn_solve].
  intros h2. apply C57_ilu_dyn_solve; [repeat split; now apply later_self|now apply later_self].
Qed.
Theorem C53_ilu_csr : forall F rhs h, clean h -> rhs < next h -> repeats (answer (ilu_csr_solve F rhs)) h.
Proof.
  intros. apply repeats_vec; auto; [|apply C58_ilu_csr_solve].
  intros h2. apply C57_ilu_csr_solve; [reflexivity|now apply later_self].
Qed.
Theorem C53_gmres : forall dbg isqrt G tol rhs h, clean h -> mp (fst G) < next h -> mp (snd G) < next h -> rhs < next h ->
  repeats (answer (gmres_dyn_solve dbg isqrt G tol rhs)) h.
Proof.
  intros. apply repeats_vec; auto; [|apply C58_gmres_dyn_solve].
  intros h2. apply C57_gmres_dyn_solve; try reflexivity; [repeat split; now apply later_self|now apply later_self].
Qed.
Theorem C53_gmres_csr : forall dbg isqrt G tol rhs h, clean h -> rhs < next h ->
  repeats (answer (gmres_csr_solve dbg isqrt G tol rhs)) h.
Proof.
  intros. apply repeats_vec; auto; [|apply C58_gmres_csr_solve].
  intros h2. apply C57_gmres_csr_solve; try reflexivity. now apply later_self.
Qed.

(** ** The tridiagonal solver writes into a vector given by the caller *)

Lemma tridiag_bits dbg (t : tri T) n b r h : 2 <= n -> fits_i32 n = true -> tri_wf T t n -> isvec h b n -> n <= len h r ->
  exists g, tridiag_solve_vec dbg t b r h = Ok r g /\ next g = next h /\ (forall q, q <> r -> mem g q = mem h q) /\
    len g r = len h r /\ (forall p, n <= p -> rd g r p = rd h r p) /\
    swept n (atf (tdl t)) (atf (td t)) (atf (tdu t)) (rd h b) (rd g r).
Proof.
  intros Hn Hf (W1 & W2 & W3) [Hb Lb] Lr. apply post_eq.
  unfold tridiag_solve_vec. apply post_noexcept. apply post_bind, post_vsize.
  apply post_bind, post_assert. { unfold tri_order. rewrite W1, Lb. apply Nat.eqb_refl. }
  apply post_bind. eapply post_mono.
  { apply tdma_bits; unfold tri_order; rewrite ?W1; auto; lia. }
  intros r' h' (-> & N & M & L & O & S). apply post_ret. split; [reflexivity|].
  unfold tri_order in *. rewrite W1 in *. do 3 (split; [auto|]). split; [intros p Hp; apply O; lia|]. specialize (S 0 ltac:(lia)).
  eapply swept_ext; [lia| | |exact S]; intros i Hi; cbv beta; f_equal; lia.
Qed.

Lemma tridiag_mat_bits dbg (t : tri T) n m B X h : 2 <= n -> fits_i32 n = true -> fits_u32 m = true -> tri_wf T t n -> ismat h B n m -> ismat h X n m ->
  exists g, tridiag_solve_mat dbg t B X h = Ok X g /\ next g = next h /\ (forall q, q <> mp X -> mem g q = mem h q) /\ ismat g X n m /\
    forall k, k < m -> swept n (atf (tdl t)) (atf (td t)) (atf (tdu t)) (fun i => mget h B i k) (fun i => mget g X i k).
Proof.
  intros Hn Hf Hm (W1 & W2 & W3) (B1 & B2 & B3 & B4) (X1 & X2 & X3 & X4). apply post_eq.
  unfold tridiag_solve_mat. apply post_noexcept.
  apply post_bind, post_assert. { unfold tri_order. rewrite W1, B2. apply Nat.eqb_refl. }
  apply post_bind, post_assert. { unfold shape_eqb. rewrite B2, B3, X2, X3, !Nat.eqb_refl. reflexivity. }
  apply post_bind. eapply post_mono.
  { apply tdma_bits; unfold tri_order; rewrite ?W1, ?B3; auto; lia. }
  intros r' h' (-> & N & M & L & O & S). apply post_ret. split; [reflexivity|].
  unfold tri_order in *. rewrite W1, B3 in *. do 2 (split; [auto|]). split; [repeat split; auto; lia|]. intros k Hk. specialize (S k Hk).
  eapply swept_ext; [lia| | |exact S]; intros i Hi; cbv beta; unfold mget; rewrite ?B3, ?X3; f_equal; lia.
Qed.

(** Column by column the matrix form stores exactly what the vector form finds for that column,
    rounding included. *)
Theorem C37_columns_bitwise : forall dbg1 dbg2 (t : tri T) n m B X h k b r h1,
  2 <= n -> fits_i32 n = true -> fits_u32 m = true -> tri_wf T t n -> ismat h B n m -> ismat h X n m -> k < m ->
  isvec h1 b n -> n <= len h1 r -> veq n (rd h1 b) (fun i => mget h B i k) ->
  exists g g1, tridiag_solve_mat dbg1 t B X h = Ok X g /\ tridiag_solve_vec dbg2 t b r h1 = Ok r g1 /\
    veq n (rd g1 r) (fun i => mget g X i k).
Proof.
  intros dbg1 dbg2 t n m B X h k b r h1 Hn Hf Hm W HB HX Hk V1 L1 E.
  destruct (tridiag_mat_bits dbg1 t n m B X h) as (g & E1 & _ & _ & _ & S1); auto.
  destruct (tridiag_bits dbg2 t n b r h1) as (g1 & E2 & _ & _ & _ & _ & S2); auto.
  exists g, g1. split; [auto|]. split; [auto|]. exact (swept_unique _ _ _ _ _ _ _ _ E S2 (S1 k Hk)).
Qed.

(** The numbers found depend on the matrix and on the right-hand side only, rounding included: not
    on what the result vector held, on other objects, on earlier calls. *)
Theorem C53_tridiag_same : forall dbg1 dbg2 (t : tri T) n b1 r1 h1 b2 r2 h2,
  2 <= n -> fits_i32 n = true -> tri_wf T t n ->
  isvec h1 b1 n -> n <= len h1 r1 -> isvec h2 b2 n -> n <= len h2 r2 ->
  veq n (rd h1 b1) (rd h2 b2) ->
  exists g1 g2, tridiag_solve_vec dbg1 t b1 r1 h1 = Ok r1 g1 /\ tridiag_solve_vec dbg2 t b2 r2 h2 = Ok r2 g2 /\
    veq n (rd g1 r1) (rd g2 r2).
Proof.
  intros dbg1 dbg2 t n b1 r1 h1 b2 r2 h2 Hn Hf W V1 L1 V2 L2 E.
  destruct (tridiag_bits dbg1 t n b1 r1 h1) as (g1 & E1 & _ & _ & _ & _ & S1); auto.
  destruct (tridiag_bits dbg2 t n b2 r2 h2) as (g2 & E2 & _ & _ & _ & _ & S2); auto.
  exists g1, g2. split; [auto|]. split; [auto|]. exact (swept_unique _ _ _ _ _ _ _ _ E S1 S2).
Qed.

(** The values stored are those of the forward and backward recurrences, operation by operation:
    what every implementation of the Thomas algorithm computes, rounding included. *)
Theorem C36_recurrence : forall dbg (t : tri T) n b r h, 2 <= n -> fits_i32 n = true -> tri_wf T t n -> isvec h b n -> n <= len h r ->
  exists g p q, tridiag_solve_vec dbg t b r h = Ok r g /\
    p 0 = div (opp (atf (tdu t) 0)) (atf (td t) 0) /\ q 0 = div (rd h b 0) (atf (td t) 0) /\
    (forall i, S i < n -> let den := add (atf (td t) (S i)) (mul (atf (tdl t) i) (p i)) in
       p (S i) = div (opp (atf (tdu t) (S i))) den /\ q (S i) = div (sub (rd h b (S i)) (mul (atf (tdl t) i) (q i))) den) /\
    rd g r (n - 1) = q (n - 1) /\
    forall i, S i < n -> rd g r i = add (mul (p i) (rd g r (S i))) (q i).
Proof.
  intros dbg t n b r h Hn Hf W V L. destruct (tridiag_bits dbg t n b r h) as (g & E & _ & _ & _ & _ & S1 & S2); auto.
  exists g, (fun i => fst (sweep (atf (tdl t)) (atf (td t)) (atf (tdu t)) (rd h b) i)),
    (fun i => snd (sweep (atf (tdl t)) (atf (td t)) (atf (tdu t)) (rd h b) i)).
  split; [exact E|]. split; [reflexivity|]. split; [reflexivity|]. split; [intros i Hi; split; reflexivity|].
  split; [exact S1|]. intros i Hi. apply S2. lia.
Qed.

(** With a result vector other than the right-hand side, any number of calls in a row leave the same
    result. *)
Theorem C53_tridiag_repeats : forall dbg (t : tri T) n b r h,
  2 <= n -> fits_i32 n = true -> tri_wf T t n -> isvec h b n -> n <= len h r -> b <> r ->
  exists h1, tridiag_solve_vec dbg t b r h = Ok r h1 /\
    forall k, exists h', times (S k) (answer (tridiag_solve_vec dbg t b r)) h = Ok (repeat (mem h1 r) (S k)) h' /\
      next h' = next h /\ mem h' r = mem h1 r /\ forall q, q <> r -> mem h' q = mem h q.
Proof.
  intros dbg t n b r h Hn Hf W V L Ne.
  destruct (tridiag_bits dbg t n b r h) as (h1 & E1 & N1 & M1 & L1 & O1 & S1); auto.
  exists h1. split; [exact E1|].
  assert (G : forall h2, next h2 = next h -> (forall q, q <> r -> mem h2 q = mem h q) -> mem h2 r = mem h1 r ->
    exists h3, tridiag_solve_vec dbg t b r h2 = Ok r h3 /\ next h3 = next h /\ (forall q, q <> r -> mem h3 q = mem h q) /\ mem h3 r = mem h1 r).
  { intros h2 N2 M2 R2. destruct V as [Vb Lb].
    destruct (tridiag_bits dbg t n b r h2) as (h3 & E3 & N3 & M3 & L3 & O3 & S3); auto.
    { split; [lia|]. unfold len. rewrite M2; auto. }
    { unfold len. rewrite R2. fold (len h1 r). lia. }
    exists h3. split; [exact E3|]. split; [congruence|]. split; [intros q Hq; rewrite M3; auto|].
    assert (LL : length (mem h3 r) = length (mem h1 r)).
    { fold (len h3 r) (len h1 r). rewrite L3. unfold len. now rewrite R2. }
    apply (nth_ext _ _ zero zero LL). intros i Hi. fold (rd h3 r i) (rd h1 r i).
    destruct (Nat.lt_ge_cases i n).
    - apply (swept_unique n _ _ _ (rd h2 b) (rd h b) _ _) with (2 := S3) (3 := S1); auto.
      intros j Hj. unfold rd. now rewrite M2.
    - rewrite O3 by auto. unfold rd. now rewrite R2. }
  assert (Ind : forall k h2, next h2 = next h -> (forall q, q <> r -> mem h2 q = mem h q) -> mem h2 r = mem h1 r ->
    exists h', times k (answer (tridiag_solve_vec dbg t b r)) h2 = Ok (repeat (mem h1 r) k) h' /\
      next h' = next h /\ mem h' r = mem h1 r /\ forall q, q <> r -> mem h' q = mem h q).
  { induction k as [|k IH]; intros h2 N2 M2 R2; cbn [times repeat]; [exists h2; split; [reflexivity|auto]|].
    destruct (G h2 N2 M2 R2) as (h3 & E3 & N3 & M3 & R3). destruct (IH h3 N3 M3 R3) as (h' & E' & Q).
    exists h'. unfold answer at 1, bind. rewrite E3. unfold contents at 1. rewrite E', R3. split; [reflexivity|exact Q]. }
  intros k. destruct (Ind k h1 N1 M1 eq_refl) as (h' & E' & Q). exists h'. cbn [times repeat].
  unfold answer at 1, bind. rewrite E1. unfold contents at 1. rewrite E'. split; [reflexivity|exact Q].
Qed.
End Repeat.

(** ** With the LAPACK backend the second solve is wrong

    ?gtsv replaces the matrix kept in the solver by its factors.  For every routine meeting the
    contract: a non-singular 3 x 3 system, and two calls with the same right-hand side. *)
Theorem C53_lapack_repeat_refuted : exists (t : tri R) (h : heap R),
  tri_wf R t 3 /\ nonsingular 3 (tmat t) /\ isvec h 0 3 /\ isvec h 1 3 /\
  forall gtsv, gtsv_contract gtsv ->
    exists t1 h1 t2 h2, tridiag_solve_vec_lapack gtsv true t 0 1 h = Ok (1, t1) h1 /\
      tridiag_solve_vec_lapack gtsv true t1 0 1 h1 = Ok (1, t2) h2 /\
      rd h1 1 1 = 0%R /\ rd h2 1 1 = 1%R.
Proof.
  pose (t := mkTri [1; 0]%R [2; 1; 1]%R [0; 0]%R). pose (h := heap_of [[2; 1; 0]%R; [0; 0; 0]%R]).
  exists t, h. assert (W : tri_wf R t 3) by (repeat split).
  assert (low : forall a b c : R, nonsingular 3 (tmat (mkTri [a; b] [2; 1; 1]%R [0; 0]%R))).
  { intros a b c x Hx. pose proof (Hx 0 ltac:(lia)) as E0. pose proof (Hx 1 ltac:(lia)) as E1. pose proof (Hx 2 ltac:(lia)) as E2.
    unfold mvmul, tmat, band in E0, E1, E2. cbn in E0, E1, E2.
    assert (X0 : x 0%nat = 0%R) by lra. rewrite X0 in *. assert (X1 : x 1%nat = 0%R) by lra. rewrite X1 in *.
    intros [|[|[|i]]] Hi; cbn; try lia; lra. }
  assert (Ns : nonsingular 3 (tmat t)) by (apply (low 1 0 0)%R).
  split; [exact W|]. split; [exact Ns|]. split; [split; [cbn; lia|reflexivity]|]. split; [split; [cbn; lia|reflexivity]|].
  intros gtsv G.
  (* the bands after the first call *)
  pose (h0 := upd h 1 (mem h 0)).
  assert (Pv : forall i, S i < 3 -> (Rabs (atf (tdl t) i) <= Rabs (tri_pivot (atf (tdl t)) (atf (td t)) (atf (tdu t)) i))%R).
  { intros [|[|i]] Hi; try lia; cbn; unfold atf; cbn.
    - rewrite !Rabs_right; lra.
    - rewrite !Rabs_right; [lra| |lra]. replace (1 - 1 * 0 / 2)%R with 1%R by field. lra. }
  pose proof (gtsv_solves gtsv G 3 1 t 1 h0 ltac:(lia) ltac:(lia) ltac:(lia) ltac:(lia) W Ns ltac:(cbn; lia) (le_n 3)) as P1.
  pose proof (gtsv_overwrites gtsv G 3 1 t 1 h0 ltac:(lia) ltac:(lia) ltac:(lia) ltac:(lia) W Ns ltac:(cbn; lia) (le_n 3) Pv) as P2.
  destruct (post_ok _ _ _ P1) as ([c [[dl d] du]] & h1 & E1 & _ & (N1 & M1 & L1) & _ & W1 & S1).
  unfold post in P2. rewrite E1 in P2. cbn [fst snd] in *. destruct P2 as (D1 & U1 & Z1).
  specialize (S1 0 ltac:(lia)).
  destruct W1 as (Wd & Wl & Wu). cbn [td tdl tdu] in *.
  destruct d as [|d0 [|d1 [|d2 [|]]]]; try discriminate. destruct dl as [|l0 [|l1 [|]]]; try discriminate.
  destruct du as [|u0 [|u1 [|]]]; try discriminate.
  assert (Ed : d0 = 2%R /\ d1 = 1%R /\ d2 = 1%R).
  { pose proof (D1 0 ltac:(lia)) as A0. pose proof (D1 1 ltac:(lia)) as A1. pose proof (D1 2 ltac:(lia)) as A2.
    unfold atf in A0, A1, A2. cbn in A0, A1, A2. repeat split; [lra| |]; [rewrite A1|rewrite A2]; field; lra. }
  assert (Eu : u0 = 0%R /\ u1 = 0%R).
  { pose proof (U1 0 ltac:(lia)) as A0. pose proof (U1 1 ltac:(lia)) as A1. unfold atf in A0, A1. cbn in A0, A1. auto. }
  assert (El : l0 = 0%R). { pose proof (Z1 0 ltac:(lia)) as A0. unfold atf in A0. cbn in A0. auto. }
  destruct Ed as (-> & -> & ->), Eu as (-> & ->). subst l0.
  pose (t1 := mkTri [0; l1]%R [2; 1; 1]%R [0; 0]%R).
  assert (F1 : tridiag_solve_vec_lapack gtsv true t 0 1 h = Ok (1, t1) h1).
  { unfold tridiag_solve_vec_lapack, noexcept, bind, vsize, assert_, vec_assign, ret.
    change (true && negb (Nat.eqb (tri_order t) (length (mem h 0)))) with false. cbv iota.
    change (upd h 1 (mem h 0)) with h0. change (c_int (tri_order t)) with (Z.of_nat 3). change 1%Z with (Z.of_nat 1).
    rewrite E1. reflexivity. }
  assert (V1 : isvec h1 0 3). { split; [rewrite N1; cbn; lia|]. unfold len. rewrite M1 by lia. reflexivity. }
  destruct (C59_tridiag_vector gtsv G true t1 3 0 1 h1) as (t2 & h2 & F2 & _ & _ & _ & _ & S2 & _); auto; try lia.
  { apply (low 0 l1 0)%R. } { rewrite N1. cbn. lia. }
  exists t1, h1, t2, h2. split; [exact F1|]. split; [exact F2|]. split.
  - pose proof (S1 0 ltac:(lia)) as A0. pose proof (S1 1 ltac:(lia)) as A1. unfold mvmul, tmat, band, at_rows in A0, A1.
    cbn in A0, A1. unfold rd in A0, A1 |- *. cbn in A0, A1. cbn [zero ROps]. lra.
  - pose proof (S2 1 ltac:(lia)) as A1. assert (B : rd h1 0 1 = 1%R) by (unfold rd; rewrite M1 by lia; reflexivity).
    rewrite B in A1. unfold mvmul, tmat, band in A1. cbn in A1. lra.
Qed.

(** ** Different solvers on the same system *)

Lemma the_solution_unique n (A : nat -> nat -> R) b x y : the_solution n A b x -> the_solution n A b y -> veq n x y.
Proof. intros [_ U] [S _] i Hi. symmetry. now apply U. Qed.

(** The call returns an n-vector holding [x]. *)
Definition yields (m : M (heap R) ptr) h n (x : nat -> R) : Prop :=
  exists r h', m h = Ok r h' /\ isvec h' r n /\ veq n (rd h' r) x.

Lemma yields_solution m h n A b x : the_solution n A b x ->
  (exists r h', m h = Ok r h' /\ isvec h' r n /\ the_solution n A b (rd h' r)) -> yields m h n x.
Proof.
  intros Sx (r & h' & E & V & S). exists r, h'. split; [auto|]. split; [auto|]. apply (the_solution_unique n A b); auto.
Qed.
Lemma the_solution_meq n (A B : nat -> nat -> R) b x : meq n n A B -> the_solution n A b x -> the_solution n B b x.
Proof.
  intros E [S U]. assert (Q : forall z, forall i, i < n -> mvmul n A z i = mvmul n B z i).
  { intros z i Hi. apply bsum_ext. intros j Hj. now rewrite E. }
  split.
  - intros i Hi. rewrite <- Q by auto. now apply S.
  - intros y Hy. apply U. intros i Hi. rewrite Q by auto. now apply Hy.
Qed.
Lemma the_solution_rhs n (A : nat -> nat -> R) b b' x : veq n b b' -> the_solution n A b x -> the_solution n A b' x.
Proof. intros E. apply the_solution_ext; auto. Qed.

(** A tridiagonal matrix with non-zero diagonal has no fill-in. *)
Lemma tri_closed (t : tri R) n : pos_def n (tmat t) -> closed_pattern n (tmat t).
Proof.
  intros P i j k Hi Hj Ki Kj A1 A2.
  assert (Z : forall i j, S i < j \/ S j < i -> tmat t i j = 0%R).
  { intros i' j' H. unfold tmat. rewrite band_trif. exact (trif_out (Op := ROps) _ _ _ i' j' H). }
  assert (i = S k). { destruct (Nat.eq_dec i (S k)); auto. exfalso. apply A1. apply Z. lia. }
  assert (j = S k). { destruct (Nat.eq_dec j (S k)); auto. exfalso. apply A2. apply Z. lia. }
  subst i j. intros D.
  assert (Q : (0 < bsum n (fun i => (if Nat.eqb i (S k) then 1 else 0) * mvmul n (tmat t) (fun i => if Nat.eqb i (S k) then 1 else 0) i))%R).
  { apply P. exists (S k). split; [auto|]. rewrite Nat.eqb_refl. lra. }
  rewrite (bsum_zero n) in Q; [cbn in Q; lra|]. intros c Hc. cbn [mul zero ROps].
  destruct (Nat.eqb_spec c (S k)) as [->|]; [|ring]. unfold mvmul. rewrite (bsum_zero n); [cbn; ring|].
  intros e He. cbn [mul zero ROps]. destruct (Nat.eqb_spec e (S k)) as [->|]; [|ring]. cbn in D. rewrite D. ring.
Qed.

(** A symmetric positive definite tridiagonal system, given as tridiagonal, packed symmetric and
    dense matrix: the tridiagonal solver, packed and dense Cholesky, modified Cholesky, incomplete
    LU (which here is complete), and the LAPACK-backed tridiagonal and Cholesky solvers all succeed
    and give the one solution [x]. *)
Theorem C53_solvers_agree : forall dbg n (t : tri R) (H : herm R) A b r (h : heap R),
  2 <= n -> (Z.of_nat n < 2 ^ 31)%Z -> tri_wf R t n -> herm_wf H n -> ismat h A n n ->
  symmetric n (tmat t) -> pos_def n (tmat t) -> meq n n (hmat H) (tmat t) -> meq n n (mget h A) (tmat t) ->
  isvec h b n -> isvec h r n ->
  exists x, the_solution n (tmat t) (rd h b) x /\
    yields (tridiag_solve_vec dbg t b r) h n x /\
    yields (bind (tri_cholesky H) (fun F => chol_solve_vec dbg F b)) h n x /\
    yields (bind (dyn_cholesky A) (fun F => chol_solve_vec dbg F b)) h n x /\
    yields (bind (mod_cholesky A) (fun F => mod_solve_vec dbg F b)) h n x /\
    yields (bind (ilu_dyn A) (fun F => ilu_dyn_solve F b)) h n x /\
    (forall gtsv, gtsv_contract gtsv -> yields (bind (tridiag_solve_vec_lapack gtsv dbg t b r) (fun q => ret (fst q))) h n x) /\
    (forall potrf potrs, potrf_contract potrf -> potrs_contract potrs ->
       yields (bind (dyn_cholesky_lapack potrf A) (fun F => chol_solve_vec_lapack potrs dbg F b)) h n x).
Proof.
  intros dbg n t H A b r h Hn Hs Wt WH HA Sy P EH EA [Vb Lb] [Vr Lr].
  assert (Hf : fits_u32 n = true) by (unfold fits_u32; apply Z.ltb_lt; lia).
  assert (Hi : fits_i32 n = true) by (unfold fits_i32; apply Z.leb_le; lia).
  assert (EH' : meq n n (tmat t) (hmat H)) by (intros i j Ii Ij; symmetry; now apply EH).
  assert (EA' : meq n n (tmat t) (mget h A)) by (intros i j Ii Ij; symmetry; now apply EA).
  assert (PH : pos_def n (hmat H)) by (now apply (pos_def_meq n (tmat t))).
  assert (PA : pos_def n (mget h A)) by (now apply (pos_def_meq n (tmat t))).
  assert (SA : symmetric n (mget h A)) by (intros i j Ii Ij; rewrite !EA by auto; now apply Sy).
  assert (LN : forall k, k <= n -> nonsingular k (mget h A)) by (now apply pos_def_leading).
  assert (later_b : forall h1, ext h h1 -> isvec h1 b n /\ veq n (rd h1 b) (rd h b)).
  { intros h1 [X1 X2]. split; [split; [lia|]; unfold len; rewrite X2 by auto; exact Lb|]. intros i _. unfold rd. now rewrite X2. }
  destruct (C36_vector R ROps R_field dbg t n b r h) as (h1 & E1 & X1 & N1 & L1 & _ & S1 & U1); auto;
    [now apply pos_def_leading|now split|lia|].
  set (x := rd h1 r). assert (Sx : the_solution n (tmat t) (rd h b) x) by (split; auto).
  exists x. split; [exact Sx|]. split.
  { exists r, h1. split; [auto|]. split; [split; lia|]. intros i _. reflexivity. }
  split.
  { destruct (C40_packed n H h WH Hf PH) as (F & g & E & FA & _ & X & _). destruct (later_b g X) as [V' B'].
    destruct (C42_vector dbg F n (hmat H) b g Hs FA V') as (q & g2 & E2 & _ & _ & V2 & S2).
    apply (yields_solution _ _ _ (tmat t) (rd h b)); auto. exists q, g2. unfold bind. rewrite E. split; [auto|]. split; [auto|].
    apply (the_solution_meq n (hmat H)); auto. now apply (the_solution_rhs n _ (rd g b)). }
  split.
  { destruct (C40_square n A h HA Hf SA PA) as (F & g & E & FA & _ & X & _). destruct (later_b g X) as [V' B'].
    destruct (C42_vector dbg F n (mget h A) b g Hs FA V') as (q & g2 & E2 & _ & _ & V2 & S2).
    apply (yields_solution _ _ _ (tmat t) (rd h b)); auto. exists q, g2. unfold bind. rewrite E. split; [auto|]. split; [auto|].
    apply (the_solution_meq n (mget h A)); auto. now apply (the_solution_rhs n _ (rd g b)). }
  assert (ES : meq n n (symf (mget h A)) (tmat t)).
  { intros i j Ii Ij. rewrite (symf_sym n _ SA i j Ii Ij). now apply EA. }
  assert (ES' : meq n n (tmat t) (symf (mget h A))) by (intros i j Ii Ij; symmetry; now apply ES).
  split.
  { destruct (C43_success R ROps R_field n A h HA Hf) as (F & g & E & FA & X & _).
    { apply pos_def_leading. now apply (pos_def_meq n (tmat t)). }
    destruct (later_b g X) as [V' B'].
    destruct (C43_solve_vector R ROps R_field dbg F n (mget h A) b g Hs FA V') as (q & g2 & E2 & _ & _ & V2 & S2).
    apply (yields_solution _ _ _ (tmat t) (rd h b)); auto. exists q, g2. unfold bind. rewrite E. split; [auto|]. split; [auto|].
    apply (the_solution_meq n (symf (mget h A))); auto. now apply (the_solution_rhs n _ (rd g b)). }
  assert (CP : closed_pattern n (mget h A)).
  { intros i j k Ii Ij Ki Kj A1 A2. rewrite EA in * by lia. apply (tri_closed t n P i j k); auto. }
  split.
  { destruct (C46_dyn_outcome (Fi := R_field) n A h HA Hf) as [[_ (F & g & E)]|[_ (g & E & _)]].
    2:{ exfalso. destruct (C46_closed_throws (Fi := R_field) n A h g HA Hf CP E) as (k & Hk & Q). apply Q, LN. lia. }
    destruct (C45_dyn_exact (Fi := R_field) n A b h F g HA Hf ltac:(now split) CP E (LN n ltac:(lia))) as (q & g2 & E2 & (_ & _ & V2 & _) & S2).
    apply (yields_solution _ _ _ (tmat t) (rd h b)); auto. exists q, g2. unfold bind. rewrite E. split; [auto|]. split; [auto|].
    now apply (the_solution_meq n (mget h A)). }
  split.
  { intros gtsv G. destruct (C59_tridiag_vector gtsv G dbg t n b r h) as (t' & g & E & _ & _ & V2 & _ & S2); auto;
      [lia|now apply (pos_def_leading n (tmat t) P n)|now split|].
    apply (yields_solution _ _ _ (tmat t) (rd h b)); auto. exists r, g. unfold bind. rewrite E. split; [auto|]. split; auto. }
  intros potrf potrs G1 G2.
  destruct (C59_cholesky potrf G1 n A h ltac:(lia) Hs HA SA PA) as (F & g & _ & _ & E & FA & Sq & X & _).
  destruct (later_b g X) as [V' B'].
  destruct (C59_solve_vector potrs G2 dbg F n (mget h A) ltac:(lia) Hs Sq b g FA V') as (q & g2 & E2 & _ & _ & V2 & S2).
  apply (yields_solution _ _ _ (tmat t) (rd h b)); auto. exists q, g2. unfold bind. rewrite E. split; [auto|]. split; [auto|].
  apply (the_solution_meq n (mget h A)); auto. now apply (the_solution_rhs n _ (rd g b)).
Qed.

(** ** Examples *)

(** Binary64: the tridiagonal solver run three times. *)
Example C53_tridiag_example :
  let t := mkTri [-1; -1]%float [2; 2; 2]%float [-1; -1]%float in
  let h := heap_of [[1; 0; 1]; [7; 7; 7]]%float in
  tri_wf _ t 3 /\ isvec h 0 3 /\ 3 <= len h 1 /\ fits_i32 3 = true /\
  exists h' a, times 3 (answer (tridiag_solve_vec true t 0 1)) h = Ok [a; a; a] h' /\ length a = 3.
Proof.
  intros t h. split; [repeat split|]. split; [split; vm_compute; [lia|reflexivity]|]. split; [vm_compute; lia|]. split; [reflexivity|].
  do 2 eexists. split; [vm_compute; reflexivity|]. reflexivity.
Qed.
(** Cholesky: factor, then solve twice. *)
Example C53_cholesky_example :
  let h := heap_of [[4; 2; 2; 3]; [8; 7]]%float in
  exists F h1 a h2, dyn_cholesky (mkMat 0 2 2) h = Ok F h1 /\ clean h1 /\ chp F < next h1 /\ 1 < next h1 /\
    times 2 (answer (chol_solve_vec true F 1)) h1 = Ok [a; a] h2 /\ length a = 2.
Proof.
  intros h. destruct (dyn_cholesky (mkMat 0 2 2) h) as [F h1|e h1| | | |] eqn:E; try (vm_compute in E; discriminate).
  exists F, h1. assert (EF : F = mkChol 2 2 Square) by (apply (f_equal (fun r => match r with Ok F _ => Some F | _ => None end)) in E; vm_compute in E; congruence).
  assert (N : next h1 = 3).
  { apply (f_equal (fun r => match r with Ok _ g => next g | _ => 0 end)) in E. symmetry. etransitivity; [|exact E]. vm_compute. reflexivity. }
  pose proof (C57_later _ _ _ _ _ _ h h (C57_dyn_cholesky _ _ (later h h) (mkMat 0 2 2) (mkMat 0 2 2)
    ltac:(repeat split; apply later_self; cbn; lia)) (clean_heap_of _ _) (clean_heap_of _ _) ltac:(split; auto)) as SE.
  rewrite E in SE. destruct SE as [_ RE]. assert (C : clean h1) by apply RE.
  assert (B : exists r h2, chol_solve_vec true F 1 h1 = Ok r h2 /\ length (mem h2 r) = 2).
  { assert (G : exists r h2, bind (dyn_cholesky (mkMat 0 2 2)) (fun F => chol_solve_vec true F 1) h = Ok r h2 /\ length (mem h2 r) = 2).
    { do 2 eexists. split; vm_compute; reflexivity. }
    destruct G as (r & h2 & G & L). unfold bind in G. rewrite E in G. eauto. }
  destruct B as (r & h2 & Es & L).
  destruct (C53_cholesky_vector true F 1 h1 C ltac:(subst F; cbn; lia) ltac:(lia) (mem h2 r) h2) as [_ Q].
  { unfold answer, bind. rewrite Es. reflexivity. }
  destruct (Q 2) as (h3 & E3 & _). exists (mem h2 r), h3. split; [reflexivity|]. split; [exact C|].
  split; [subst F; cbn; lia|]. split; [lia|]. split; [exact E3|exact L].
Qed.
(** The hypotheses of the agreement theorem: the matrix [[2 -1];[-1 2]]. *)
Example C53_agree_example :
  let t := mkTri [(-1)%R] [2; 2]%R [(-1)%R] in let H := mkHerm 2 [2; -1; 2]%R in
  let h := heap_of [[2; -1; -1; 2]%R; [1; 0]%R; [0; 0]%R] in
  tri_wf R t 2 /\ herm_wf H 2 /\ ismat h (mkMat 0 2 2) 2 2 /\ symmetric 2 (tmat t) /\ pos_def 2 (tmat t) /\
  meq 2 2 (hmat H) (tmat t) /\ meq 2 2 (mget h (mkMat 0 2 2)) (tmat t) /\ isvec h 1 2 /\ isvec h 2 2.
Proof.
  intros t H h. split; [repeat split|]. split; [repeat split|]. split; [repeat split; cbn; lia|].
  split. { intros [|[|i]] [|[|j]] Hi Hj; try lia; reflexivity. }
  split.
  { intros x (i & Hi & Nz). unfold mvmul, tmat, band. cbn.
    assert (E : (0 + x 0%nat * (0 + 2 * x 0%nat + -1 * x 1%nat) + x 1%nat * (0 + -1 * x 0%nat + 2 * x 1%nat) =
      x 0%nat * x 0%nat + x 1%nat * x 1%nat + (x 0%nat - x 1%nat) * (x 0%nat - x 1%nat))%R) by ring.
    assert (Sq : (0 < x i * x i)%R) by nra.
    destruct i as [|[|i]]; [| |lia]; nra. }
  split. { intros [|[|i]] [|[|j]] Hi Hj; try lia; reflexivity. }
  split. { intros [|[|i]] [|[|j]] Hi Hj; try lia; reflexivity. }
  split; split; cbn; auto; lia.
Qed.

Print Assumptions C53_gmres.
Print Assumptions C53_tridiag_repeats.
Print Assumptions C37_columns_bitwise.
Print Assumptions C53_lapack_repeat_refuted.
Print Assumptions C53_solvers_agree.
