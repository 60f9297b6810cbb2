(** * Property C73: Gram-Schmidt and GMRES with the BLAS backend *)
From Coq Require Import Ring FunctionalExtensionality Reals QArith Qcanon.
From Verif Require Import Base Scalar BaseLemmas Spec Sums ModelVec ModelMat ModelPacked ModelSparse ModelIter SpecMat SpecSparse ProofVec ProofVecProp ProofMat ProofMatOps
  ProofMatProp PropVec PropMat ModelBlas SpecBlas PropBlas ModelBlasVec SpecBlasVec PropBlasVec Sim SimOps ProofSparse ProofSparseCsr ProofSpmv PropSparse PropSpmv ProofIlu PropIlu.
Local Open Scope nat_scope.

(** Two computations with the same outcome from [s]; [Q] describes a normal end. *)
Definition same {S A} (m1 m2 : M S A) (s : S) (Q : A -> S -> Prop) : Prop :=
  m1 s = m2 s /\ forall a s', m2 s = Ok a s' -> Q a s'.
Lemma same_bind {S A B} (m1 m2 : M S A) (f1 f2 : A -> M S B) s (Q : A -> S -> Prop) R :
  same m1 m2 s Q -> (forall a s', Q a s' -> same (f1 a) (f2 a) s' R) -> same (bind m1 f1) (bind m2 f2) s R.
Proof.
  intros [E HQ] Hf. unfold same, bind. rewrite E. destruct (m2 s) as [a s'| | | | |]; try (split; [reflexivity|discriminate]).
  apply Hf. now apply HQ.
Qed.
Lemma same_ret {S A} (a : A) (s : S) (Q : A -> S -> Prop) : Q a s -> same (ret a) (ret a) s Q.
Proof. intros H. split; [reflexivity|]. intros ? ? E. injection E as <- <-. exact H. Qed.
Lemma same_mono {S A} (m1 m2 : M S A) s (Q R : A -> S -> Prop) : same m1 m2 s Q -> (forall a s', Q a s' -> R a s') -> same m1 m2 s R.
Proof. intros [E H] K. split; auto. Qed.
Lemma same_post {S A} (m1 m2 : M S A) s (Q : A -> S -> Prop) : m1 s = m2 s -> post m2 s Q -> same m1 m2 s Q.
Proof. intros E P. split; [exact E|]. intros a s' E'. unfold post in P. now rewrite E' in P. Qed.
Lemma same_inert {T A} (m : M (heap T) A) h : inert m -> same m m h (fun _ h' => h' = h).
Proof.
  intros I. split; [reflexivity|]. intros a s' E.
  destruct I as [[b X]|[[e X]|[X|[X|[X|X]]]]]; rewrite X in E; try discriminate. now injection E.
Qed.
Lemma same_at {S A} (l : list A) i (s : S) : same (vec_at l i) (vec_at l i) s (fun x s' => s' = s /\ nth_error l i = Some x).
Proof.
  split; [reflexivity|]. intros a s' E. unfold vec_at in E. destruct (nth_error l i); [|discriminate]. now injection E as -> ->.
Qed.
Lemma same_for {S A} (I : A -> S -> Prop) (b1 b2 : nat -> A -> M S A) lo n a s :
  I a s -> (forall i a s, lo <= i < n -> I a s -> same (b1 i a) (b2 i a) s I) -> same (for_u32 lo n b1 a) (for_u32 lo n b2 a) s I.
Proof.
  intros H0 H. apply for_u32_eq; auto.
  - intros i a1 s1 Hi H1. now apply H.
  - intros i a1 s1 a' s' Hi H1 E. now apply (proj2 (H i a1 s1 Hi H1)).
Qed.

Ltac inert_go := repeat (cbv beta zeta; first
  [ apply inert_ret | apply inert_throw | apply inert_ub | apply inert_diverge | apply inert_vec_at | apply inert_vec_set
  | apply inert_assert | apply inert_run_local | apply inert_on_copy | apply inert_noexcept
  | apply inert_bind; [|intros ?] | apply inert_for_u32; intros ? ? | apply inert_for_sz; intros ? ?
  | apply inert_loop; intros ? ? | apply inert_if
  | match goal with |- inert (match ?x with _ => _ end) => destruct x end ]).
Section C73.
Context {T : Type} {Op : Ops T} {R : IsRing T Op}.
Implicit Types (h : heap T).
Add Ring Tring73 : (ring_th (IsRing := R)).
Variable B : vblas T.
Hypothesis HB : vblas_contract B.
Variable n : nat.
Hypothesis Hpos : 0 < n.
Hypothesis Hn : int_size n.

(** Memory has grown, the objects of [h] are still there with their lengths. *)
Definition keeps h h' : Prop := next h <= next h' /\ forall q, q < next h -> len h' q = len h q.
Lemma keeps_isvec h h' p : keeps h h' -> isvec h p n -> isvec h' p n.
Proof. intros [K1 K2] [P1 P2]. split; [lia|]. now rewrite K2. Qed.
Lemma keeps_refl h : keeps h h. Proof. split; auto. Qed.
Lemma keeps_trans h1 h2 h3 : keeps h1 h2 -> keeps h2 h3 -> keeps h1 h3.
Proof. intros [A1 A2] [B1 B2]. split; [lia|]. intros q Hq. rewrite B2, A2; auto; lia. Qed.
Lemma ext_keeps h h' : ext h h' -> keeps h h'.
Proof. intros [E1 E2]. split; [exact E1|]. intros q Hq. unfold len. now rewrite E2. Qed.
Lemma keeps_all h h' q : keeps h h' -> Forall (fun p => isvec h p n) q -> Forall (fun p => isvec h' p n) q.
Proof. intros K. apply Forall_impl. intros p. now apply keeps_isvec. Qed.
Lemma Fu : fits_u32 n = true. Proof. now apply small_u32. Qed.

Lemma same_dot h x y : isvec h x n -> isvec h y n -> same (dot_d_blas B x y) (dot_d x y) h (fun _ h' => h' = h).
Proof.
  intros [_ Lx] [_ Ly]. split; [apply (proj1 (C72_dot B HB x y h ltac:(now rewrite Lx) ltac:(now rewrite Lx)))|].
  intros a s' E. rewrite dot_d_ok in E by (rewrite ?Lx, ?Ly; auto using Fu). now injection E.
Qed.
Lemma same_dotm h x y : isvec h x n -> isvec h y n -> same (dot_member_d_blas B x y) (dot_member_d x y) h (fun _ h' => h' = h).
Proof.
  intros [_ Lx] [_ Ly]. split; [apply (proj1 (proj2 (C72_dot B HB x y h ltac:(now rewrite Lx) ltac:(now rewrite Lx))))|].
  intros a s' E. unfold dot_member_d, vsize, bind, check_size in E. change (length (mem h x)) with (len h x) in E. change (length (mem h y)) with (len h y) in E.
  rewrite Lx, Ly, Nat.eqb_refl in E. unfold ret in E.
  destruct (post_ok _ _ _ (dot_core_ok x y n h Fu Hpos ltac:(lia) ltac:(lia))) as (r & h1 & E1 & -> & _). rewrite E1 in E. now injection E.
Qed.
Lemma same_norm h x : isvec h x n -> same (norm2_d_blas B x) (norm2_d x) h (fun _ h' => h' = h).
Proof.
  intros [_ Lx]. split; [apply (proj1 (C72_norm2 B HB x h ltac:(now rewrite Lx) ltac:(left; now rewrite Lx)))|].
  intros a s' E. unfold norm2_d, noexcept, vsize, bind in E. change (length (mem h x)) with (len h x) in E. rewrite Lx in E.
  destruct (post_ok _ _ _ (norm2_core_ok x n h Fu ltac:(lia))) as (r & h1 & E1 & -> & _). rewrite E1 in E. now injection E.
Qed.
Lemma same_scale h a x : isvec h x n ->
  same (op_scale_d_blas B a x) (op_scale_d a x) h (fun r h' => ext h h' /\ next h <= r /\ isvec h' r n).
Proof.
  intros [Px Lx]. apply same_post; [apply (proj1 (proj2 (C72_scale B HB a x h ltac:(now rewrite Lx))))|].
  eapply post_mono; [apply op_scale_d_ok; [exact Px|rewrite Lx; apply Fu]|]. cbv beta. intros r h' (-> & M & U & N).
  repeat split; try lia.
  - intros q Hq. apply U. cbn. lia.
  - unfold len. rewrite M, map_length. exact Lx.
Qed.
Lemma same_axpy h a x y : isvec h x n -> isvec h y n -> x <> y ->
  same (axpy_d_blas B a x y) (axpy_d a x y) h (fun r h' => next h' = next h /\ len h' y = len h y /\ forall q, q <> y -> mem h' q = mem h q).
Proof.
  intros [Px Lx] [Py Ly] Ne. apply same_post; [apply (proj1 (C72_axpy B HB a x y h Ne ltac:(now rewrite Lx)))|].
  unfold axpy_d. pstep. repeat pstep. apply post_check_size; [lia|]. pstep.
  eapply post_mono; [apply axpy_core_wrote; rewrite ?Lx; auto using Fu; lia|]. cbv beta. intros r h' (-> & W1 & W2 & W3 & _). pstep. auto.
Qed.

Lemma same_vsize x h : same (vsize x) (vsize x) h (fun k h' => h' = h /\ k = len h x).
Proof. split; [reflexivity|]. intros a s' E. now injection E as <- <-. Qed.
Lemma same_copy h x : isvec h x n -> same (vec_copy x) (vec_copy x) h (fun r h' => ext h h' /\ next h <= r /\ isvec h' r n).
Proof.
  intros [Px Lx]. split; [reflexivity|]. intros r h' E. injection E as <- <-. split; [exact (ext_halloc h (mem h x))|].
  split; [lia|]. split; [apply Nat.lt_succ_diag_r|]. exact (eq_trans (new_len h (mem h x)) Lx).
Qed.

(** ** Gram-Schmidt *)
Theorem C73_cgs : forall dbg vecs h,
  NoDup vecs -> Forall (fun p => isvec h p n) vecs -> cgs_blas B dbg vecs h = cgs dbg vecs h.
Proof.
  intros dbg vecs h ND Hv.
  enough (S : same (cgs_blas B dbg vecs) (cgs dbg vecs) h (fun _ _ => True)) by apply S.
  unfold cgs_blas, cgs. eapply same_bind; [apply same_at|]. intros v0 s [-> A0].
  eapply same_bind; [apply (same_vsize v0 h)|]. intros nn s [-> ->].
  assert (Hat : forall i p (s : heap T), nth_error vecs i = Some p -> Forall (fun q => isvec s q n) vecs -> isvec s p n).
  { intros i p s E F. rewrite Forall_forall in F. apply F. now apply nth_error_In with i. }
  eapply same_mono; [apply (same_for (fun _ s => Forall (fun p => isvec s p n) vecs)); [exact Hv|]|auto].
  intros j [] s Hj Is.
  eapply same_bind; [apply same_at|]. intros v1 s1 [-> A1].
  eapply same_bind; [apply (same_vsize v1 s)|]. intros n1 s1 [-> ->].
  eapply same_bind; [apply same_inert, inert_assert|]. intros [] s1 ->.
  eapply same_bind; [apply same_at|]. intros pj s1 [-> Aj].
  assert (Vj := Hat _ _ _ Aj Is).
  eapply same_bind; [apply (same_copy s pj Vj)|]. intros vj s1 (X1 & P1 & V1).
  eapply same_mono; [apply (same_for (fun _ s => Forall (fun p => isvec s p n) vecs /\ isvec s vj n))|intros [] s2 K; apply K].
  { split; [eapply keeps_all; [apply ext_keeps; exact X1|exact Is]|exact V1]. }
  intros k [] s2 Hk [I2 V2].
  eapply same_bind; [apply same_at|]. intros pk s3 [-> Ak]. assert (Vk := Hat _ _ _ Ak I2).
  eapply same_bind; [now apply same_dot|]. intros num s3 ->.
  eapply same_bind; [now apply same_dotm|]. intros den s3 ->.
  assert (Ne : pk <> pj).
  { intros ->. assert (k = j); [|lia]. eapply (proj1 (NoDup_nth_error vecs) ND); [|congruence]. apply nth_error_Some. congruence. }
  eapply same_bind; [apply same_axpy; [exact Vk|exact (Hat _ _ _ Aj I2)|exact Ne]|]. intros r s3 (N3 & L3 & M3).
  assert (K : keeps s2 s3).
  { split; [lia|]. intros q Hq. destruct (Nat.eq_dec q pj) as [->|Nq]; [exact L3|]. unfold len. now rewrite M3. }
  apply same_ret. split; [eapply keeps_all; eauto|eapply keeps_isvec; eauto].
Qed.

(** ** GMRES, for any matrix product and preconditioner that return new vectors *)
Section Gm.
Variables (dbg : bool) (isqrt : nat -> nat) (h0 : heap T).
Variables (nrow : M (heap T) nat) (mulv1 mulv2 lu : ptr -> M (heap T) ptr).
Definition makes (op : ptr -> M (heap T) ptr) : Prop := forall h p r h', ext h0 h -> isvec h p n -> op p h = Ok r h' ->
  ext h h' /\ next h <= r /\ isvec h' r n.
Hypothesis Hmul : forall h p, ext h0 h -> isvec h p n -> mulv1 p h = mulv2 p h.
Hypothesis Mmul : makes mulv2.
Hypothesis Mlu : makes lu.
Hypothesis Hrow : nrow h0 = Ok n h0.
Let all h q := ext h0 h /\ Forall (fun p => isvec h p n) q.

Lemma all_ext h h' q : ext h h' -> all h q -> all h' q.
Proof. intros X [E F]. split; [eapply ext_trans; eauto|]. eapply keeps_all; [apply ext_keeps; eauto|exact F]. Qed.
Lemma all_at h q i p : all h q -> nth_error q i = Some p -> isvec h p n.
Proof. intros [_ F] E. rewrite Forall_forall in F. apply F. now apply nth_error_In with i. Qed.
(** [a*x + y] on a vector that is not older than [h0] *)
Lemma same_axpy_all h a x y q : all h q -> isvec h x n -> isvec h y n -> x <> y -> next h0 <= y ->
  same (axpy_d_blas B a x y) (axpy_d a x y) h (fun r h' => all h' q /\ isvec h' y n /\ next h' = next h).
Proof.
  intros [E F] Hx Hy Ne Py. eapply same_mono; [now apply same_axpy|]. intros r h' (N1 & L1 & M1).
  assert (K : keeps h h').
  { split; [lia|]. intros p Hp. destruct (Nat.eq_dec p y) as [->|Np]; [exact L1|]. unfold len. now rewrite M1. }
  split; [split|]; [|eapply keeps_all; eauto|split; [eapply keeps_isvec; eauto|exact N1]].
  destruct E as [E1 E2]. split; [lia|]. intros p Hp. rewrite M1 by lia. auto.
Qed.

Lemma same_arnoldi q H hl h : all h q ->
  same (arnoldi_blas B dbg mulv1 lu q H hl) (arnoldi dbg mulv2 lu q H hl) h (fun a h' => all h' (fst (fst a))).
Proof.
  intros Ha. unfold arnoldi_blas, arnoldi. cbv zeta.
  eapply same_bind; [apply same_inert, inert_on_copy|]. intros H1 s ->.
  eapply same_bind; [apply same_inert; destruct (Nat.ltb 0 (length q - 1)); [apply inert_on_copy|apply inert_ret]|]. intros H2 s ->.
  eapply same_bind; [apply same_inert, inert_assert|]. intros [] s ->.
  eapply same_bind; [apply same_at|]. intros qi s [-> Ai]. assert (Vi := all_at _ _ _ _ Ha Ai).
  eapply same_bind with (Q := fun r h' => ext h h' /\ next h <= r /\ isvec h' r n).
  { split; [apply Hmul; [apply Ha|exact Vi]|]. intros r h' E. eapply Mmul; eauto. apply Ha. }
  intros rhs h1 (X1 & _ & V1). assert (Ha1 := all_ext _ _ _ X1 Ha).
  eapply same_bind with (Q := fun r h' => ext h1 h' /\ next h1 <= r /\ isvec h' r n).
  { split; [reflexivity|]. intros r h' E. eapply Mlu; eauto. apply Ha1. }
  intros v h2 (X2 & P2 & V2). assert (Ha2 := all_ext _ _ _ X2 Ha1).
  eapply same_bind; [apply (same_for (fun _ s => s = h2)); [reflexivity|]|].
  { intros j Hh s _ ->. eapply same_bind; [apply same_at|]. intros qj s [-> Aj].
    eapply same_bind; [apply same_dot; [eapply all_at; eauto|exact V2]|]. intros d s ->. apply same_inert, inert_on_copy. }
  intros H3 s ->.
  assert (Pv : next h0 <= v) by (destruct Ha1 as [[E1 _] _]; lia).
  eapply same_bind; [apply (same_for (fun _ s => all s q /\ isvec s v n)); [split; assumption|]|].
  { intros j [] s _ [As Vs].
    eapply same_bind; [apply same_inert; unfold hess_get; inert_go|]. intros a s' ->.
    eapply same_bind; [apply same_at|]. intros qj s' [-> Aj].
    eapply same_bind; [apply same_scale; eapply all_at; eauto|]. intros t s' (Xt & Pt & Vt).
    eapply same_bind; [apply (same_axpy_all s' _ t v q)|].
    - eapply all_ext; eauto.
    - exact Vt.
    - eapply keeps_isvec; [apply ext_keeps; eauto|exact Vs].
    - destruct Vs as [Vs1 _]. lia.
    - exact Pv.
    - intros r s2 (A2 & I2 & _). apply same_ret. auto. }
  intros [] s [As Vs].
  eapply same_bind; [now apply same_norm|]. intros hh s' ->.
  eapply same_bind; [apply same_scale; exact Vs|]. intros qn s' (Xq & Pq & Vq).
  apply same_ret. cbn [fst]. destruct (all_ext _ _ _ Xq As) as [E1 F1]. split; [exact E1|].
  apply Forall_app. split; [exact F1|]. constructor; [exact Vq|constructor].
Qed.

Lemma inert_givens H hl s c r b : inert (T := T) (givens_rot (T := T) dbg H hl s c r b).
Proof. unfold givens_rot, hess_col, upd_local, utri_get, hess_get. inert_go. Qed.

Lemma same_step tol g h : all h (gq g) ->
  same (gmres_step_blas B dbg mulv1 lu tol g) (gmres_step dbg mulv2 lu tol g) h (fun g' h' => all h' (gq g')).
Proof.
  intros Ha. unfold gmres_step_blas, gmres_step. destruct (gdone g); [now apply same_ret|].
  eapply same_bind; [now apply same_arnoldi|]. intros [[q H] hl] s As. cbn [fst] in As.
  eapply same_bind; [apply same_inert, inert_givens|]. intros [[[s1 c1] r1] b1] s' ->.
  eapply same_bind; [apply same_at|]. intros x s' [-> _]. now apply same_ret.
Qed.

Theorem gmres_solve_same : forall tol rhs, isvec h0 rhs n ->
  same (gmres_solve_blas B dbg isqrt nrow mulv1 lu tol rhs) (gmres_solve dbg isqrt nrow mulv2 lu tol rhs) h0 (fun _ _ => True).
Proof.
  intros tol rhs Hr. unfold gmres_solve_blas, gmres_solve.
  eapply same_bind with (Q := fun k h => k = n /\ h = h0).
  { split; [reflexivity|]. intros a s' E. rewrite Hrow in E. now injection E. }
  intros k h [-> ->].
  eapply same_bind with (Q := fun g h => all h (gq g)).
  { unfold gmres_init_blas, gmres_init.
    eapply same_bind with (Q := fun r h' => ext h0 h' /\ next h0 <= r /\ isvec h' r n).
    { split; [reflexivity|]. intros r h' E. eapply Mlu; eauto. apply ext_refl. }
    intros bp h1 (X1 & _ & V1).
    eapply same_bind; [now apply same_norm|]. intros nb s ->.
    eapply same_bind; [now apply same_scale|]. intros q0 h2 (X2 & _ & V2).
    eapply same_bind; [apply same_norm; eapply keeps_isvec; [apply ext_keeps; eauto|exact V1]|]. intros nb2 s ->.
    eapply same_bind; [apply same_inert; unfold utri_with_capacity, utri_of; inert_go|]. intros r s ->.
    eapply same_bind; [apply same_inert; unfold hess_with_capacity, hess_of; inert_go|]. intros H s ->.
    apply same_ret. split; [eapply ext_trans; eauto|]. constructor; [exact V2|constructor]. }
  intros g h Ha.
  eapply same_bind; [apply (same_for (fun g h => all h (gq g))); [exact Ha|intros; now apply same_step]|].
  intros g' h' Ha'. unfold gmres_finish_blas, gmres_finish. cbv zeta.
  eapply same_bind; [apply same_inert, inert_run_local|]. intros y s ->.
  eapply same_bind with (Q := fun x s => next h' = x /\ isvec s x n /\ ext h' s).
  { split; [reflexivity|]. intros x s E. injection E as <- <-. split; [reflexivity|].
    split; [split|]; [apply Nat.lt_succ_diag_r| |exact (ext_halloc h' (repeat zero n))].
    exact (eq_trans (new_len h' (repeat zero n)) (repeat_length zero n)). }
  intros x s (<- & Vx & Xs). assert (As := all_ext _ _ _ Xs Ha').
  assert (Px : next h0 <= next h') by (destruct Ha' as [[E1 _] _]; lia).
  eapply same_bind; [apply (same_for (fun _ s => all s (gq g') /\ isvec s (next h') n)); [split; assumption|]|].
  { intros j [] s1 _ [A1 V1].
    eapply same_bind; [apply same_at|]. intros bi s' [-> _].
    eapply same_bind; [apply same_at|]. intros qi s' [-> Ai].
    eapply same_bind; [apply same_scale; eapply all_at; eauto|]. intros t s' (Xt & Pt & Vt).
    eapply same_bind; [apply (same_axpy_all s' _ t (next h') (gq g'))|].
    - eapply all_ext; eauto.
    - exact Vt.
    - eapply keeps_isvec; [apply ext_keeps; eauto|exact V1].
    - destruct V1 as [V11 _]. lia.
    - exact Px.
    - intros r s2 (A2 & I2 & _). apply same_ret. auto. }
  intros [] s1 _. now apply same_ret.
Qed.
End Gm.

Lemma makes_post h0 op : (forall h p, ext h0 h -> isvec h p n -> post (op p) h (fun r h' => newvec h h' r n (rd h' r))) -> makes h0 op.
Proof. intros H h p r h' X V E. specialize (H h p X V). unfold post in H. rewrite E in H. destruct H as (H1 & H2 & H3 & _). auto. Qed.

(** The dense product with BLAS leaves exactly the same memory behind. *)
Lemma op_mulv_eq gemv dbg A x h : gemv_contract gemv -> ismat h A n n -> isvec h x n ->
  op_mulv_blas gemv dbg A x h = op_mulv dbg A x h.
Proof.
  intros G (A1 & A2 & A3 & A4) (X1 & X2). apply noexcept_eq. apply bind_eq; [reflexivity|]. intros nv s E. injection E as <- <-.
  apply bind_eq; [reflexivity|]. intros [] s E. assert (s = h) as -> by (unfold assert_ in E; destruct (dbg && negb _); congruence).
  apply bind_eq; [reflexivity|]. intros y s Ey. injection Ey as <- <-. change (mkHeap _ _) with (halloc h (repeat zero (mr A))).
  apply bind_eq; [|reflexivity]. rewrite A2, A3. set (h1 := halloc h (repeat zero n)).
  assert (Hl1 : forall q, q < next h -> len h1 q = len h q) by (intros; apply live_len; auto).
  assert (Ht : len h1 (next h) = n) by (unfold h1; rewrite new_len; apply repeat_length).
  unfold mv_core_blas, mv_core. destruct (Nat.eqb_spec x (next h)); [lia|].
  destruct (post_ok _ _ _ (gemv_call gemv G A x one zero (next h) n n h1 Hn Hn Hpos ltac:(rewrite Hl1; lia) A3 ltac:(rewrite Hl1; lia) ltac:(lia) ltac:(lia) ltac:(lia)))
    as ([] & h2 & E2 & W2 & V2).
  destruct (post_ok _ _ _ (mv_rows n n one (mp A) x zero (next h) (next h) h1 Fu Fu ltac:(rewrite Hl1; lia) ltac:(rewrite Hl1; lia) ltac:(lia) ltac:(lia) ltac:(lia) ltac:(lia)))
    as ([] & h3 & E3 & W3).
  rewrite (bind_run _ _ _ _ _ E2), (bind_run _ _ _ _ _ E3). unfold ret. f_equal. eapply wrote_eq; [exact W3|exact W2|].
  intros i. destruct (Nat.ltb_spec i n) as [L|L].
  - rewrite V2 by exact L. unfold mv_val, mvmul, mget. rewrite fsum_affine, A3. ring.
  - unfold rd. rewrite !nth_overflow; [reflexivity| |]; destruct W2 as (_ & _ & L2); unfold len in *; lia.
Qed.

Lemma dense_makes h0 F : ismat h0 F n n -> makes h0 (ilu_dyn_solve F).
Proof.
  intros HF. apply makes_post. intros h p X V. eapply post_mono.
  - apply (ilu_solve_ok (mat_get F) (mget h F) n p h Fu V). intros h' i j X' Hi Hj.
    destruct (ext_ismat _ _ _ _ _ X HF) as (F1 & F2 & F3 & F4).
    unfold mat_get, load. rewrite F3.
    assert (Em : mem h' (mp F) = mem h (mp F)) by (apply X'; exact F1). rewrite Em.
    rewrite (nth_error_nth' _ zero); [unfold mget, rd; rewrite F3; reflexivity|]. unfold len in F4. rewrite F4. nia.
  - cbv beta. intros x h' [N _]. exact N.
Qed.
Theorem C73_gmres_dense : forall gemv dbg isqrt G tol b h,
  gemv_contract gemv -> ismat h (fst G) n n -> ismat h (snd G) n n -> isvec h b n ->
  gmres_dyn_solve_blas B gemv dbg isqrt G tol b h = gmres_dyn_solve dbg isqrt G tol b h.
Proof.
  intros gemv dbg isqrt G tol b h HG H1 H2 Hb.
  apply (gmres_solve_same dbg isqrt h (ret (mr (fst G))) (op_mulv_blas gemv dbg (fst G)) (op_mulv dbg (fst G)) (ilu_dyn_solve (snd G))); auto.
  - intros h' p X V. apply op_mulv_eq; auto. eapply ext_ismat; eauto.
  - apply makes_post. intros h' p X V. eapply post_mono; [apply (op_mulv_ok dbg (fst G) p n n); auto using Fu; eapply ext_ismat; eauto|].
    cbv beta. intros y h2 (N1 & N2 & N3 & _). unfold newvec. auto.
  - now apply dense_makes.
  - unfold ret. destruct H1 as (_ & -> & _). reflexivity.
Qed.
Theorem C73_gmres_sparse : forall dbg isqrt (A F : csr T) a f tol b h,
  csr_wf A n -> csr_shape A tt = Ok (n, n) tt -> distinct (csr_entries A n) -> reads_as A n a -> reads_as F n f -> isvec h b n ->
  gmres_csr_solve_blas B dbg isqrt (A, F) tol b h = gmres_csr_solve dbg isqrt (A, F) tol b h.
Proof.
  intros dbg isqrt A F a f tol b h WA SA DA RA RF Hb.
  assert (Hsh : forall S (s : S), csr_shape A s = Ok (n, n) s).
  { intros S s. unfold csr_shape, bind, max_elem in *. destruct (scol A); cbn in *; [discriminate|]. injection SA as <- <-. reflexivity. }
  assert (Hne : scol A <> []) by (intros E; unfold csr_shape, bind, max_elem in SA; rewrite E in SA; discriminate).
  apply (gmres_solve_same dbg isqrt h (sh <- csr_shape A ;; ret (fst sh)) (sp_op_mul dbg A) (sp_op_mul dbg A) (ilu_csr_solve F)); auto.
  - apply makes_post. intros h' p X V. destruct (C32_operator T Op dbg n n A a p h' WA Hne (Hsh _ h') Fu DA ltac:(intros; now apply RA) V) as (y & h2 & E & N1 & N2 & N3 & _).
    unfold post. rewrite E. unfold newvec. auto.
  - apply makes_post. intros h' p X V. eapply post_mono; [apply (ilu_solve_ok (csr_get F) f n p h' Fu V); intros; now apply RF|].
    cbv beta. intros x h2 [N _]. exact N.
  - unfold bind. now rewrite Hsh.
Qed.
End C73.

(** ** What C48 promises holds for the BLAS build *)
From Verif Require Import FloatSqrt PropChol PropCholSolve PropGmres PropCgs.
Theorem C73_dense_solves : forall gemv (B : vblas R) dbg isqrt n (h1 : heap R) G a f b tol,
  gemv_contract gemv -> vblas_contract B -> isqrt_exact isqrt -> 0 < n -> int_size n ->
  dense_solver h1 G n a f -> nonsingular n a -> (forall i, i < n -> f i i <> 0%R) ->
  isvec h1 b n -> nonzero n (rd h1 b) -> (0 < tol)%R ->
  exists x h2, gmres_dyn_solve_blas B gemv dbg isqrt G tol b h1 = Ok x h2 /\ newvec h1 h2 x n (rd h2 x) /\
    gmres_solution n a (mmmul n (lfac f) (ufac f)) (rd h1 b) tol (rd h2 x).
Proof.
  intros gemv B dbg isqrt n h1 G a f b tol HG HB Hq Pn Hn HD NA Hd Hb Nz Ht.
  rewrite (C73_gmres_dense B HB n Pn Hn) by first [assumption | apply HD].
  apply C48_dense_solver; auto using small_u32.
Qed.
Theorem C73_sparse_solves : forall (B : vblas R) dbg isqrt n A a b tol (h : heap R) G,
  vblas_contract B -> isqrt_exact isqrt -> 0 < n -> int_size n ->
  csr_wf A n -> csr_shape A tt = Ok (n, n) tt -> distinct (csr_entries A n) -> reads_as A n a ->
  isvec h b n -> nonsingular n a -> nonzero n (rd h b) -> (0 < tol)%R ->
  gmres_csr_new A h = Ok G h ->
  exists f, reads_as (snd G) n f /\ ilu0 n n a f /\
  ((forall i, i < n -> f i i <> 0%R) ->
  exists x h2, gmres_csr_solve_blas B dbg isqrt G tol b h = Ok x h2 /\ newvec h h2 x n (rd h2 x) /\
    gmres_solution n a (mmmul n (lfac f) (ufac f)) (rd h b) tol (rd h2 x)).
Proof.
  intros B dbg isqrt n A a b tol h G HB Hq Pn Hn WA SA DA RA Hb NA Nz Ht E.
  destruct (C48_sparse dbg isqrt n A a b tol h G Hq Pn (small_u32 _ Hn) WA SA DA RA Hb NA Nz Ht E) as (EA & f & RF & D & K).
  exists f. split; [exact RF|]. split; [exact D|]. intros Hd. specialize (K Hd). destruct G as [A' F]. cbn [fst snd] in *. subst A'.
  rewrite (C73_gmres_sparse B HB n Pn Hn dbg isqrt A F a f); auto.
Qed.

(** The hypotheses of [C73_dense_solves] without the BLAS are those of C48_ex; here Gram-Schmidt run
    with the reference BLAS over the rationals. *)
Example C73_nonvacuous :
  let h := heap_of [[1; 1; 0]; [1; 0; 0]; [0; 0; Q2Qc 3]]%Qc : heap Qc in
  NoDup [0; 1; 2] /\ Forall (fun p => isvec h p 3) [0; 1; 2] /\
  match cgs_blas ref_vblas true [0; 1; 2] h with
  | Ok _ h' => map this (mem h' 1) = [1 # 2; -1 # 2; 0]%Q
  | _ => False
  end.
Proof.
  split; [repeat constructor; cbn; intuition lia|]. split; [repeat constructor; cbn; lia|]. vm_compute. reflexivity.
Qed.

Print Assumptions C73_cgs.
Print Assumptions C73_gmres_dense.
Print Assumptions C73_gmres_sparse.
Print Assumptions C73_dense_solves.
Print Assumptions C73_sparse_solves.
