(** * Property C75: GMRES returns a vector in every arithmetic; and what C49 comes to in binary64 *)
From Coq Require Import Lia List Floats.
From Verif Require Import Base Scalar BaseLemmas Spec Sums SpecMat ModelVec ProofVec ModelMat ProofMatOps ModelPacked ProofPacked PropPacked
  ModelSparse SpecSparse ProofSparse PropSparse ProofSparseCsr PropSpmv ModelIter ProofChol ProofIlu FloatSqrt ProofBackSub PropIlu ProofCgs ProofGmresRun.
Import ListNotations.
Local Open Scope nat_scope.

(** ** The preconditioner as a function of its argument, in any arithmetic *)
Section Any.
Context {T : Type} {Op : Ops T}.
Implicit Types h : heap T.

Fixpoint fwd_list (F : nat -> nat -> T) (b : nat -> T) (n : nat) : list T :=
  match n with 0 => [] | S k => let l := fwd_list F b k in l ++ [ssub k (b k) (fun j => mul (F k j) (nth j l zero))] end.
(** Entries n-m .. n-1. *)
Fixpoint bwd_list (n : nat) (F : nat -> nat -> T) (y : nat -> T) (m : nat) : list T :=
  match m with 0 => [] | S k => let l := bwd_list n F y k in let i := n - S k in
    div (ssub k (y i) (fun t => mul (F i (S i + t)) (nth t l zero))) (F i i) :: l end.
Definition lu_apply (n : nat) (F : nat -> nat -> T) (b : nat -> T) (i : nat) : T :=
  nth i (bwd_list n F (fun k => nth k (fwd_list F b n) zero) n) zero.

Lemma fwd_length F b n : length (fwd_list F b n) = n.
Proof. induction n as [|n IH]; cbn; [reflexivity|]. rewrite app_length, IH. cbn. lia. Qed.
Lemma bwd_length n F y m : length (bwd_list n F y m) = m.
Proof. induction m as [|m IH]; cbn; auto. Qed.
Lemma fwd_unique F b y n : (forall i, i < n -> ilu_fwd F b y i) -> forall i, i < n -> nth i (fwd_list F b n) zero = y i.
Proof.
  induction n as [|n IH]; intros H i Hi; [lia|]. cbn [fwd_list]. cbv zeta.
  assert (IH' : forall i, i < n -> nth i (fwd_list F b n) zero = y i) by (apply IH; intros; apply H; lia).
  destruct (Nat.eq_dec i n) as [->|].
  - rewrite app_nth2, fwd_length, Nat.sub_diag by (rewrite fwd_length; lia). cbn [nth]. rewrite (H n ltac:(lia)).
    apply ssub_ext. intros k Hk. now rewrite IH' by lia.
  - rewrite app_nth1 by (rewrite fwd_length; lia). apply IH'. lia.
Qed.
Lemma bwd_unique n F y x m : m <= n -> (forall i, i < n -> ilu_bwd n F y x i) ->
  forall t, t < m -> nth t (bwd_list n F y m) zero = x (n - m + t).
Proof.
  intros Hm H. induction m as [|m IH]; intros t Ht; [lia|]. cbn [bwd_list]. cbv zeta.
  assert (IH' : forall t, t < m -> nth t (bwd_list n F y m) zero = x (n - m + t)) by (apply IH; lia).
  destruct t as [|t]; cbn [nth].
  - rewrite Nat.add_0_r. rewrite (H (n - S m) ltac:(lia)). f_equal. replace (n - S (n - S m)) with m by lia.
    apply ssub_ext. intros k Hk. rewrite IH' by lia. do 2 f_equal. lia.
  - rewrite IH' by lia. f_equal. lia.
Qed.
Lemma fwd_ext F b b' n : (forall i, i < n -> b i = b' i) -> fwd_list F b n = fwd_list F b' n.
Proof. induction n as [|n IH]; intros H; cbn; [reflexivity|]. rewrite IH by auto with arith. now rewrite H by lia. Qed.
Lemma bwd_ext n F y y' m : m <= n -> (forall i, i < n -> y i = y' i) -> bwd_list n F y m = bwd_list n F y' m.
Proof. intros Hm H. induction m as [|m IH]; cbn; [reflexivity|]. rewrite IH by lia. now rewrite H by lia. Qed.
Lemma lu_apply_ext n F : mv_ext n (lu_apply n F).
Proof. intros x y H t Ht. unfold lu_apply. now rewrite (fwd_ext F x y n H). Qed.
Lemma solved_apply n F b x : ilu_solved n F b x -> forall i, i < n -> x i = lu_apply n F b i.
Proof.
  intros (y & H1 & H2) i Hi. unfold lu_apply.
  rewrite (bwd_ext n F _ y n (le_n n)) by (intros; now apply fwd_unique).
  rewrite (bwd_unique n F y x n (le_n n) H2 i Hi). f_equal. lia.
Qed.

Lemma lu_applies n h0 get F : fits_u32 n = true ->
  (forall h i j, ext h0 h -> i < n -> j < n -> get i j h = Ok (F i j) h) -> applies n h0 (ilu_solve get) (lu_apply n F).
Proof.
  intros Hf Hg h p X V. eapply post_mono; [apply (ilu_solve_ok get F n p h Hf V)|].
  - intros h1 i j X1. apply Hg. eapply ext_trans; eauto.
  - cbv beta. intros x h' ((N1 & N2 & N3 & _) & S). split; [exact N1|]. split; [exact N2|]. split; [exact N3|].
    intros i Hi. now apply solved_apply.
Qed.

(** ** The iteration *)
Section Run.
Variables (dbg : bool) (isqrt : nat -> nat) (nrow : M (heap T) nat) (mulv lu : ptr -> M (heap T) ptr).
Variables (n : nat) (h0 : heap T) (Av Pv : (nat -> T) -> nat -> T).
Hypothesis Hpos : 0 < n.
Hypothesis Hfit : fits_u32 n = true.
Hypothesis Hmul : applies n h0 mulv Av.
Hypothesis Hlu : applies n h0 lu Pv.
Hypothesis HeA : mv_ext n Av.
Hypothesis HeP : mv_ext n Pv.
Hypothesis Hsq : isqrt_exact isqrt.
Hypothesis Hrow : forall h, nrow h = Ok n h.

(** y_0 q_0 + y_1 q_1 + ..., accumulated as the code does. *)
Fixpoint accum (k : nat) (y : nat -> T) (q : nat -> nat -> T) (t : nat) : T :=
  match k with 0 => zero | S k => add (mul one (mul (y k) (q k t))) (accum k y q t) end.

Lemma finish_any k h g nb Hf Rf : k <= n -> gst n h0 Av Pv k h g nb Hf Rf ->
  post (gmres_finish n g) h (fun x h' => exists y, newvec h h' x n (accum k y (qf h g))).
Proof.
  intros Hk G. unfold gmres_finish. rewrite (st_beta _ _ _ _ _ _ _ _ _ _ G).
  replace (k + 1 - 1) with k by lia.
  set (b0 := firstn k (gbeta g)). set (hl := heap_of [b0]).
  assert (Lb0 : length b0 = k) by (unfold b0; rewrite firstn_length, (st_beta _ _ _ _ _ _ _ _ _ _ G); lia).
  destruct (st_r _ _ _ _ _ _ _ _ _ _ G) as [WU RU].
  set (f := fun i j => if Nat.leb i j then Rf i j else zero).
  assert (V0 : isvec hl 0 k) by (split; [cbn; lia|]; unfold len, hl; cbn; exact Lb0).
  destruct (post_ok _ _ _ (back_sub_bits (gr g) 0 k f hl (proj1 WU)
    ltac:(intros i j Hi Hj S s; unfold f; destruct (Nat.leb_spec i j); [now apply RU|now apply utri_get_below]) V0))
    as (r & hl' & E & _ & _ & [V1 V2] & _).
  apply post_bind, post_run_local. unfold post at 1. rewrite E. cbn [snd].
  set (y := rd hl' 0).
  set (beta := mem hl' 0 ++ skipn k (gbeta g)).
  assert (Lbeta : length beta = k + 1).
  { unfold beta. rewrite app_length, skipn_length, (st_beta _ _ _ _ _ _ _ _ _ _ G). unfold len in V2. lia. }
  assert (Ebeta : forall i, i < k -> nth i beta zero = y i).
  { intros i Hi. unfold beta, y, rd. unfold len in V2. now rewrite app_nth1 by lia. }
  apply post_bind. eapply (post_alloc (T := T)). set (h1 := halloc h _). set (x := next h).
  rewrite Lbeta. replace (k + 1 - 1) with k by lia.
  assert (X1 : ext h h1). { split; [unfold h1, halloc; cbn [next]; lia|]. intros q Hq. unfold h1. apply mem_halloc_other. lia. }
  assert (Vx : isvec h1 x n). { split; [unfold h1, halloc, x; cbn [next]; lia|]. unfold len, h1, x. rewrite mem_halloc_same. apply repeat_length. }
  apply post_bind.
  eapply (post_for_u32 (fun i _ h' => ext h h' /\ isvec h' x n /\ forall t, t < n -> rd h' x t = accum i y (qf h g) t)).
  - apply (fits_u32_le n); [exact Hfit|lia].
  - lia.
  - split; [exact X1|]. split; [exact Vx|]. intros t Ht. unfold rd, h1, x. rewrite mem_halloc_same.
    cbn. now rewrite nth_repeat.
  - intros i _ h2 [_ Hi] (X2 & V2' & R2).
    apply post_bind, (post_vec_at _ _ _ zero); [lia|].
    pose proof (st_q _ _ _ _ _ _ _ _ _ _ G) as Lq.
    apply post_bind, (post_vec_at (T := ptr) _ _ _ 0); [lia|].
    pose proof (st_vec _ _ _ _ _ _ _ _ _ _ G i ltac:(lia)) as Vi.
    pose proof (ext_isvec _ _ _ _ X2 Vi) as [Vi2 Li2].
    apply post_bind. eapply post_mono; [apply scale_rd; [exact Vi2|now rewrite Li2]|]. cbv beta.
    intros r1 h3 (-> & N3 & F3 & L3 & R3). destruct V2' as [Vx2 Lx2]. destruct X2 as [Xn Xm].
    assert (Lx3 : len h3 x = n) by (unfold len; rewrite F3 by exact Vx2; exact Lx2).
    apply post_bind. eapply post_mono; [apply axpy_rd; [rewrite L3, Li2; exact Hfit|rewrite L3, Li2; auto]|]. cbv beta.
    intros r1 h4 (-> & F4 & N4 & L4 & R4). apply post_ret.
    split. { split; [lia|]. intros q Hq. rewrite F4 by (unfold x; lia). rewrite F3 by lia. now apply Xm. }
    split. { split; [lia|]. now rewrite L4. }
    intros t Ht. rewrite R4 by lia. rewrite R3 by lia. rewrite Ebeta by lia.
    assert (rd h3 x t = rd h2 x t) as -> by (unfold rd; now rewrite F3).
    rewrite R2 by exact Ht. cbn [accum].
    assert (rd h2 (nth i (gq g) 0) t = qf h g i t) as ->.
    { unfold qf. unfold rd. rewrite Xm by apply Vi. reflexivity. }
    reflexivity.
  - intros _ h2 (X2 & V2' & R2). apply post_ret. exists y.
    split; [exact X2|]. split; [unfold x; lia|]. split; [exact V2'|exact R2].
Qed.

(** Whatever the arithmetic does, the solver returns a new vector: a combination of k <= n vectors
    of which the first is the preconditioned right-hand side times the reciprocal of its norm. *)
Lemma run_any tol rhs : isvec h0 rhs n ->
  exists x h', gmres_solve dbg isqrt nrow mulv lu tol rhs h0 = Ok x h' /\ exists k y q, 1 <= k <= n /\
    newvec h0 h' x n (accum k y q) /\
    forall t, t < n -> q 0 t = mul (div one (sqrt_ (bsum n (fun t => mul (Pv (rd h0 rhs) t) (Pv (rd h0 rhs) t))))) (Pv (rd h0 rhs) t).
Proof.
  intros Hr. apply post_ok. unfold gmres_solve. apply post_bind. unfold post at 1. rewrite Hrow.
  apply post_bind. eapply post_mono; [apply (gmres_init_ok isqrt lu n h0 Av Pv Hpos Hfit Hlu rhs h0 Hsq (ext_refl _) Hr)|].
  cbv beta zeta. intros g h1 (X1 & D1 & G1 & Q1).
  set (nb := sqrt_ _) in *.
  apply post_bind. eapply post_mono; [apply (gmres_loop_ok dbg mulv lu n h0 Av Pv Hpos Hfit Hmul Hlu HeA HeP tol n h1 g nb ltac:(lia) G1 D1)|].
  cbv beta. intros g' h2 (X2 & k & Hf & Rf & Hk & G2 & Q2 & _).
  eapply post_mono; [apply (finish_any k h2 g' nb Hf Rf ltac:(lia) G2)|]. cbv beta.
  intros x h3 (y & X3 & P3 & V3 & R3). exists k, y, (qf h2 g'). split; [exact Hk|].
  split.
  { split; [eapply ext_trans; [exact X1|]; eapply ext_trans; eauto|]. split; [destruct X1, X2; lia|]. split; [exact V3|exact R3]. }
  intros t Ht. rewrite Q2 by exact Ht. now apply Q1.
Qed.
End Run.

(** ** Dense storage *)
Lemma mat_get_ext F n h h1 i j : ismat h F n n -> ext h h1 -> i < n -> j < n -> mat_get F i j h1 = Ok (mget h F i j) h1.
Proof.
  intros (A1 & A2 & A3 & A4) [X1 X2] Hi Hj. unfold mat_get, load, mget, rd. rewrite X2 by auto.
  destruct (nth_error (mem h (mp F)) (i * mc F + j)) as [v|] eqn:E.
  - f_equal. symmetry. now apply nth_error_nth.
  - exfalso. apply nth_error_None in E. unfold len in A4. rewrite A3 in E. nia.
Qed.
Lemma fsum_ext_any n (a : T) f g : (forall k, k < n -> f k = g k) -> fsum n a f = fsum n a g.
Proof. induction n as [|n IH]; intros H; cbn; [reflexivity|]. rewrite IH, H by auto with arith. reflexivity. Qed.
Definition dense_apply n (a : nat -> nat -> T) (x : nat -> T) (i : nat) : T :=
  fsum n (mul zero zero) (fun k => mul (mul one (a i k)) (x k)).
Lemma dense_applies dbg n h0 A : fits_u32 n = true -> ismat h0 A n n -> applies n h0 (op_mulv dbg A) (dense_apply n (mget h0 A)).
Proof.
  intros Hf HA h p X V. eapply post_mono; [apply (op_mulv_ok dbg A p n n h Hf Hf)|]; [eapply ext_ismat; eauto|exact V|]. cbv beta.
  intros y h' (N1 & N2 & N3 & N4). split; [exact N1|]. split; [exact N2|]. split; [exact N3|]. intros i Hi. rewrite N4 by exact Hi.
  apply fsum_ext_any. intros k Hk. do 2 f_equal. unfold mget, rd. destruct X as [_ ->]; [reflexivity|apply HA].
Qed.

Lemma dense_any dbg isqrt n G tol b h : isqrt_exact isqrt -> 0 < n -> fits_u32 n = true -> ismat h (fst G) n n -> ismat h (snd G) n n ->
  isvec h b n ->
  exists x h', gmres_dyn_solve dbg isqrt G tol b h = Ok x h' /\ exists k y q, 1 <= k <= n /\ newvec h h' x n (accum k y q) /\
    let p := lu_apply n (mget h (snd G)) (rd h b) in
    forall t, t < n -> q 0 t = mul (div one (sqrt_ (bsum n (fun t => mul (p t) (p t))))) (p t).
Proof.
  intros Hq Hp Hf GA GF Hb. unfold gmres_dyn_solve.
  apply (run_any dbg isqrt (ret (mr (fst G))) (op_mulv dbg (fst G)) (ilu_dyn_solve (snd G)) n h (dense_apply n (mget h (fst G))) (lu_apply n (mget h (snd G)))); auto.
  - now apply dense_applies.
  - apply lu_applies; [exact Hf|]. intros h1 i j X. now apply mat_get_ext.
  - intros x y H t Ht. apply fsum_ext_any. intros k Hk. now rewrite H.
  - apply lu_apply_ext.
  - intros h1. unfold ret. destruct GA as (_ & -> & _). reflexivity.
Qed.

Lemma dense_made n A h G h1 : ismat h A n n -> fits_u32 n = true -> gmres_dyn_new A h = Ok G h1 ->
  ext h h1 /\ ismat h1 (fst G) n n /\ ismat h1 (snd G) n n /\ (forall i j, i < n -> j < n -> mget h1 (fst G) i j = mget h A i j).
Proof.
  intros HA Hf E. unfold gmres_dyn_new, bind in E.
  destruct (post_ok _ _ _ (copy_ok A n n h HA)) as (m & h' & Ec & (X1 & P1 & V1 & R1) & _). rewrite Ec in E.
  assert (HA' : ismat h' A n n) by (eapply ext_ismat; eauto).
  pose proof (ilu_dyn_outcome n A h' HA' Hf) as P. unfold postx in P.
  destruct (ilu_dyn A h') as [F h''|e h''| | | |] eqn:Ei; try discriminate. injection E as <- <-. cbn [fst snd].
  destruct P as ((X2 & _ & V2 & _) & _).
  split; [eapply ext_trans; eauto|]. split; [eapply ext_ismat; eauto|]. split; [exact V2|].
  intros i j Hi Hj. rewrite <- R1 by auto. unfold mget, rd. destruct X2 as [_ ->]; [reflexivity|apply V1].
Qed.

(** Construction: the solver, or the exception of the preconditioner; memory that existed is unchanged. *)
Lemma dense_new_any n A h : ismat h A n n -> fits_u32 n = true ->
  exists h1, ext h h1 /\ ((exists G, gmres_dyn_new A h = Ok G h1) \/ gmres_dyn_new A h = Throw RuntimeError h1).
Proof.
  intros HA Hf. unfold gmres_dyn_new, bind.
  destruct (post_ok _ _ _ (copy_ok A n n h HA)) as (m & h' & Ec & (X1 & P1 & V1 & R1) & _). rewrite Ec.
  assert (HA' : ismat h' A n n) by (eapply ext_ismat; eauto).
  pose proof (ilu_dyn_outcome n A h' HA' Hf) as P. unfold postx in P.
  destruct (ilu_dyn A h') as [F h''|e h''| | | |] eqn:Ei; try contradiction.
  - exists h''. destruct P as ((X2 & _) & _). split; [eapply ext_trans; eauto|]. left. eexists. reflexivity.
  - exists h''. destruct P as (-> & X2 & _). split; [eapply ext_trans; eauto|]. now right.
Qed.

(** ** Compressed-row storage *)
Definition row_apply (A : csr T) (x : nat -> T) (i : nat) : T := row_value T Op (csr_row A i) one x (mul zero zero).
Lemma shape_any (A : csr T) {S} (s : S) p : csr_shape A tt = Ok p tt -> csr_shape A s = Ok p s.
Proof. unfold csr_shape, bind, max_elem. destruct (scol A); cbn; [discriminate|]. intros E. injection E as <-. reflexivity. Qed.
Lemma shape_cols (A : csr T) n m : csr_shape A tt = Ok (n, m) tt -> scol A <> [] /\ forall c, In c (scol A) -> c < m.
Proof.
  intros Hsh. assert (Hne : scol A <> []) by (intros E; unfold csr_shape, bind, max_elem in Hsh; rewrite E in Hsh; discriminate).
  split; [exact Hne|]. intros c Hin. destruct (max_elem_ok (scol A) tt Hne) as (mx & Ex & _ & Mx). unfold csr_shape, bind in Hsh.
  rewrite Ex in Hsh. injection Hsh as _ <-. specialize (Mx c Hin). lia.
Qed.

Lemma row_value_ext (es : triples T) (a : T) x y s0 n : (forall e, In e es -> snd (fst e) < n) -> (forall k, k < n -> x k = y k) ->
  row_value T Op es a x s0 = row_value T Op es a y s0.
Proof.
  intros H E. unfold row_value. revert s0. induction es as [|e es IH]; intros s0; cbn; [reflexivity|].
  rewrite E by (apply H; left; reflexivity). apply IH. intros; apply H; right; auto.
Qed.
Lemma row_cols (A : csr T) n i e : csr_wf A n -> i < n -> In e (csr_row A i) -> In (snd (fst e)) (scol A).
Proof.
  intros W Hi. pose proof (ptr_le A n (i + 1) W ltac:(lia)) as Hle. destruct W as (W1 & _). unfold csr_row. rewrite in_map_iff.
  intros (k & <- & Hk). cbn. apply nth_In. apply in_seq in Hk. lia.
Qed.
Lemma row_applies dbg n h0 (A : csr T) : csr_wf A n -> csr_shape A tt = Ok (n, n) tt -> fits_u32 n = true ->
  applies n h0 (sp_op_mul dbg A) (row_apply A).
Proof.
  intros W Sh Hf h x _ [Lx Hx]. destruct (shape_cols A n n Sh) as [Hne Hc].
  pose proof (shape_any A h _ Sh) as Hsh.
  set (h1 := halloc h (repeat zero n)).
  assert (Hxy : x <> next h) by lia.
  assert (M1 : forall q, q <> next h -> mem h1 q = mem h q) by (intros; apply mem_halloc_other; auto).
  assert (L1 : len h1 (next h) = n). { unfold len, h1. rewrite mem_halloc_same. apply repeat_length. }
  assert (L2 : len h1 x = n). { unfold len. rewrite M1 by auto. exact Hx. }
  destruct (post_ok _ _ _ (sp_rows n A one x zero (next h) h1 W Hf ltac:(now rewrite L2) ltac:(lia) Hxy)) as (r & h' & E & -> & (Fr & Nx & Ly & V)).
  eapply (ok_post _ _ (next h) h').
  - unfold sp_op_mul. cbv [bind vsize assert_ noexcept]. rewrite Hsh. cbn [fst snd]. unfold len in Hx.
    rewrite Hx, !Nat.eqb_refl, andb_false_r. change (alloc (repeat zero n) h) with (Ok (next h) h1). cbv iota beta. rewrite E. reflexivity.
  - assert (Nn : next h1 = S (next h)) by reflexivity. split; [|split; [lia|split]].
    + split; [lia|]. intros q Hq. rewrite Fr by lia. apply M1. lia.
    + split; lia.
    + intros i Hi. rewrite V. destruct (Nat.ltb_spec i n); [|lia]. rewrite spmv_val_fold. unfold row_apply.
      replace (rd h1 (next h) i) with (zero (T := T)) by (unfold rd, h1; rewrite mem_halloc_same; symmetry; apply nth_repeat).
      apply (row_value_ext _ _ _ _ _ n); [intros e He; apply Hc; now apply (row_cols A n i)|].
      intros k Hk. unfold rd. now rewrite M1.
Qed.
Lemma row_apply_ext n (A : csr T) : csr_wf A n -> csr_shape A tt = Ok (n, n) tt -> mv_ext n (row_apply A).
Proof.
  intros W Sh x y H t Ht. apply (row_value_ext _ _ _ _ _ n); [|exact H].
  intros e He. destruct (shape_cols A n n Sh) as [_ Hc]. apply Hc. now apply (row_cols A n t).
Qed.

Lemma sparse_any dbg isqrt n G tol b h : isqrt_exact isqrt -> 0 < n -> fits_u32 n = true ->
  csr_wf (fst G) n -> csr_shape (fst G) tt = Ok (n, n) tt -> csr_wf (snd G) n -> isvec h b n ->
  exists x h', gmres_csr_solve dbg isqrt G tol b h = Ok x h' /\ exists k y q, 1 <= k <= n /\ newvec h h' x n (accum k y q) /\
    let p := lu_apply n (cview (snd G)) (rd h b) in
    forall t, t < n -> q 0 t = mul (div one (sqrt_ (bsum n (fun t => mul (p t) (p t))))) (p t).
Proof.
  intros Hq Hp Hf WA SA WF Hb. unfold gmres_csr_solve.
  apply (run_any dbg isqrt (sh <- csr_shape (fst G) ;; ret (fst sh)) (sp_op_mul dbg (fst G)) (ilu_csr_solve (snd G)) n h
    (row_apply (fst G)) (lu_apply n (cview (snd G)))); auto.
  - now apply row_applies.
  - apply lu_applies; [exact Hf|]. intros h1 i j _ Hi _. now apply (cview_ok (snd G) n).
  - now apply row_apply_ext.
  - apply lu_apply_ext.
  - intros h1. unfold bind. now rewrite (shape_any (fst G) h1 _ SA).
Qed.
Lemma sparse_made n A S (s : S) G s1 : eqb (T := T) zero zero = true -> csr_wf A n -> csr_shape A tt = Ok (n, n) tt -> fits_u32 n = true ->
  gmres_csr_new A s = Ok G s1 -> s1 = s /\ fst G = A /\ csr_wf (snd G) n.
Proof.
  intros Z W Sh Hf E. unfold gmres_csr_new, bind in E.
  destruct (ilu_csr_outcome n n A S s Z W Sh (le_n n) Hf) as [(F & E1 & W1 & _)|(F & E1 & _)]; rewrite E1 in E; [|discriminate].
  injection E as <- <-. auto.
Qed.
End Any.

(** ** C75 *)

(** [b] holds n entries; [x] is a new vector of n entries; nothing that existed has changed. *)
Theorem C75_dense : forall T (Op : Ops T) dbg isqrt n A b tol (h : heap T), isqrt_exact isqrt -> 0 < n -> fits_u32 n = true ->
  ismat h A n n -> isvec h b n ->
  exists h1, ext h h1 /\ ((exists G x h2, gmres_dyn_new A h = Ok G h1 /\ gmres_dyn_solve dbg isqrt G tol b h1 = Ok x h2 /\
      newvec h1 h2 x n (rd h2 x)) \/
    gmres_dyn_new A h = Throw RuntimeError h1).
Proof.
  intros T Op dbg isqrt n A b tol h Hq Hp Hf HA Hb. destruct (dense_new_any n A h HA Hf) as (h1 & X & [(G & E)|E]); exists h1; (split; [exact X|]).
  - left. destruct (dense_made n A h G h1 HA Hf E) as (_ & G1 & G2 & _).
    destruct (dense_any dbg isqrt n G tol b h1 Hq Hp Hf G1 G2 (ext_isvec _ _ _ _ X Hb)) as (x & h2 & E2 & k & y & q & _ & (N1 & N2 & N3 & _) & _).
    exists G, x, h2. split; [exact E|]. split; [exact E2|]. split; [exact N1|]. split; [exact N2|]. split; [exact N3|]. reflexivity.
  - now right.
Qed.
Theorem C75_sparse : forall T (Op : Ops T) dbg isqrt n A b tol (h : heap T), isqrt_exact isqrt -> 0 < n -> fits_u32 n = true ->
  eqb (T := T) zero zero = true -> csr_wf A n -> csr_shape A tt = Ok (n, n) tt -> isvec h b n ->
  (exists G x h2, gmres_csr_new A h = Ok G h /\ gmres_csr_solve dbg isqrt G tol b h = Ok x h2 /\ newvec h h2 x n (rd h2 x)) \/
  gmres_csr_new A h = Throw RuntimeError h.
Proof.
  intros T Op dbg isqrt n A b tol h Hq Hp Hf Z W Sh Hb.
  destruct (ilu_csr_outcome n n A (heap T) h Z W Sh (le_n n) Hf) as [(F & E1 & W1 & _)|(F & E1 & _)]; [left|right].
  - assert (E : gmres_csr_new A h = Ok (A, F) h) by (unfold gmres_csr_new, bind; now rewrite E1).
    destruct (sparse_any dbg isqrt n (A, F) tol b h Hq Hp Hf W Sh W1 Hb) as (x & h2 & E2 & k & y & q & _ & (N1 & N2 & N3 & _) & _).
    exists (A, F), x, h2. split; [exact E|]. split; [exact E2|]. split; [exact N1|]. split; [exact N2|]. split; [exact N3|]. reflexivity.
  - unfold gmres_csr_new, bind. now rewrite E1.
Qed.

(** ** C49 in binary64: a zero right-hand side always gives NaN *)
Section Nan.
Local Open Scope float_scope.

Definition zn (x : float) : Prop := match Prim2SF x with S754_zero _ | S754_nan => True | _ => False end.
Definition isnan (x : float) : Prop := Prim2SF x = S754_nan.
Lemma isnan_spec x : isnan x -> PrimFloat.is_nan x = true.
Proof. unfold isnan, PrimFloat.is_nan. intros E. rewrite FloatAxioms.eqb_spec, E. reflexivity. Qed.
Lemma zn_zero x : PrimFloat.eqb x 0 = true -> zn x.
Proof.
  rewrite FloatAxioms.eqb_spec. unfold zn. change (Prim2SF 0) with (S754_zero false). destruct (Prim2SF x) as [[]|[]| |[] m e]; cbn; try discriminate; auto.
Qed.
Lemma zn_mul_r x y : zn y -> zn (x * y).
Proof. unfold zn. rewrite FloatAxioms.mul_spec. unfold SF64mul. destruct (Prim2SF y) as [s|s| |s m e]; try tauto; intros _; destruct (Prim2SF x) as [s'|s'| |s' m' e']; cbn; auto. Qed.
Lemma zn_mul_l x y : zn x -> zn (x * y).
Proof. unfold zn. rewrite FloatAxioms.mul_spec. unfold SF64mul. destruct (Prim2SF x) as [s|s| |s m e]; try tauto; intros _; destruct (Prim2SF y) as [s'|s'| |s' m' e']; cbn; auto. Qed.
Lemma zn_add x y : zn x -> zn y -> zn (x + y).
Proof. unfold zn. rewrite FloatAxioms.add_spec. unfold SF64add. destruct (Prim2SF x) as [s|s| |s m e], (Prim2SF y) as [s'|s'| |s' m' e']; try tauto; intros _ _; cbn; auto. destruct s, s'; cbn; auto. Qed.
Lemma zn_sub x y : zn x -> zn y -> zn (x - y).
Proof. unfold zn. rewrite FloatAxioms.sub_spec. unfold SF64sub. destruct (Prim2SF x) as [s|s| |s m e], (Prim2SF y) as [s'|s'| |s' m' e']; try tauto; intros _ _; cbn; auto. destruct s, s'; cbn; auto. Qed.
Lemma zn_div x y : zn x -> zn (x / y).
Proof. unfold zn. rewrite FloatAxioms.div_spec. unfold SF64div. destruct (Prim2SF x) as [s|s| |s m e], (Prim2SF y) as [s'|s'| |s' m' e']; try tauto; intros _; cbn; auto. Qed.
Lemma zn_sqrt x : zn x -> zn (PrimFloat.sqrt x).
Proof. unfold zn. rewrite FloatAxioms.sqrt_spec. unfold SF64sqrt. destruct (Prim2SF x) as [s|s| |s m e]; try tauto; intros _; cbn; auto. Qed.
Lemma nan_inv_mul x y : zn x -> zn y -> isnan (1 / x * y).
Proof.
  unfold zn, isnan. rewrite FloatAxioms.mul_spec, FloatAxioms.div_spec. unfold SF64mul, SF64div. change (Prim2SF 1) with (S754_finite false 4503599627370496 (-52)).
  destruct (Prim2SF x) as [s|s| |s m e], (Prim2SF y) as [s'|s'| |s' m' e']; try tauto; intros _ _; cbn; auto.
Qed.
Lemma nan_mul_r x y : isnan y -> isnan (x * y).
Proof. unfold isnan. rewrite FloatAxioms.mul_spec. intros ->. unfold SF64mul. destruct (Prim2SF x); reflexivity. Qed.
Lemma nan_add_l x y : isnan x -> isnan (x + y).
Proof. unfold isnan. rewrite FloatAxioms.add_spec. intros ->. reflexivity. Qed.
Lemma nan_add_r x y : isnan y -> isnan (x + y).
Proof. unfold isnan. rewrite FloatAxioms.add_spec. intros ->. unfold SF64add. destruct (Prim2SF x); reflexivity. Qed.

Lemma zn_ssub n a f : zn a -> (forall k, (k < n)%nat -> zn (f k)) -> zn (ssub n a f).
Proof. induction n as [|n IH]; intros Ha Hf; cbn [ssub]; [exact Ha|]. apply zn_sub; auto. Qed.
Lemma zn_bsum n f : (forall k, (k < n)%nat -> zn (f k)) -> zn (bsum n f).
Proof. induction n as [|n IH]; intros Hf; cbn [bsum]; [exact I|]. apply zn_add; auto. Qed.
Lemma nth_zn l i : (forall x, In x l -> zn x) -> zn (nth i l 0).
Proof. intros H. destruct (nth_in_or_default i l 0) as [K| ->]; [now apply H|exact I]. Qed.
Lemma fwd_zn F b n : (forall i, (i < n)%nat -> zn (b i)) -> forall x, In x (fwd_list F b n) -> zn x.
Proof.
  induction n as [|n IH]; intros H x; cbn [fwd_list In]; [tauto|]. cbv zeta. rewrite in_app_iff. intros [K|[<-|[]]].
  - apply IH; auto.
  - apply zn_ssub; [apply H; lia|]. intros k _. apply zn_mul_r. apply nth_zn. apply IH. auto.
Qed.
Lemma bwd_zn n F y m : (forall i, zn (y i)) -> forall x, In x (bwd_list n F y m) -> zn x.
Proof.
  intros H. induction m as [|m IH]; intros x; cbn [bwd_list In]; [tauto|]. cbv zeta. intros [<-|K]; [|now apply IH].
  apply zn_div, zn_ssub; [apply H|]. intros k _. apply zn_mul_r. now apply nth_zn.
Qed.
Lemma lu_zn n F b : (forall i, (i < n)%nat -> zn (b i)) -> forall i, zn (lu_apply n F b i).
Proof. intros H i. apply nth_zn. apply bwd_zn. intros k. apply nth_zn. now apply fwd_zn. Qed.
Lemma accum_nan k y q t : isnan (q 0%nat t) -> (1 <= k)%nat -> isnan (accum k y q t).
Proof.
  intros H. induction k as [|k IH]; intros Hk; [lia|]. cbn [accum]. destruct k as [|k].
  - apply nan_add_l, nan_mul_r, nan_mul_r, H.
  - apply nan_add_r, IH. lia.
Qed.
Lemma start_nan n p t : (forall i, zn (p i)) ->
  isnan (mul (div one (sqrt_ (bsum n (fun t => mul (p t) (p t))))) (p t)).
Proof. intros H. apply nan_inv_mul; [|apply H]. apply zn_sqrt, zn_bsum. intros k _. apply zn_mul_r, H. Qed.
End Nan.

(** Any matrix, any preconditioner, any tolerance: dense. *)
Theorem C49_always_nan_dense : forall dbg isqrt n A b tol (h : heap float) G h1, isqrt_exact isqrt -> 0 < n -> fits_u32 n = true ->
  ismat h A n n -> isvec h b n -> (forall i, i < n -> PrimFloat.eqb (rd h b i) 0%float = true) ->
  gmres_dyn_new A h = Ok G h1 ->
  exists x h2, gmres_dyn_solve dbg isqrt G tol b h1 = Ok x h2 /\ isvec h2 x n /\ forall i, i < n -> PrimFloat.is_nan (rd h2 x i) = true.
Proof.
  intros dbg isqrt n A b tol h G h1 Hq Hp Hf HA Hb Z E.
  destruct (dense_made n A h G h1 HA Hf E) as (X & G1 & G2 & _).
  destruct (dense_any dbg isqrt n G tol b h1 Hq Hp Hf G1 G2 (ext_isvec _ _ _ _ X Hb)) as (x & h2 & E2 & k & y & q & Hk & (_ & _ & V & R) & Q).
  exists x, h2. split; [exact E2|]. split; [exact V|]. intros i Hi. apply isnan_spec. rewrite R by exact Hi.
  apply accum_nan; [|lia]. cbv zeta in Q. rewrite Q by exact Hi. apply start_nan. apply lu_zn. intros j Hj.
  apply zn_zero. rewrite <- (Z j Hj). unfold rd. destruct X as [_ ->]; [reflexivity|apply Hb].
Qed.
Theorem C49_always_nan_sparse : forall dbg isqrt n A b tol (h : heap float) G, isqrt_exact isqrt -> 0 < n -> fits_u32 n = true ->
  csr_wf A n -> csr_shape A tt = Ok (n, n) tt -> isvec h b n -> (forall i, i < n -> PrimFloat.eqb (rd h b i) 0%float = true) ->
  gmres_csr_new A h = Ok G h ->
  exists x h2, gmres_csr_solve dbg isqrt G tol b h = Ok x h2 /\ isvec h2 x n /\ forall i, i < n -> PrimFloat.is_nan (rd h2 x i) = true.
Proof.
  intros dbg isqrt n A b tol h G Hq Hp Hf W Sh Hb Z E.
  destruct (sparse_made (Op := FOps) n A _ h G h ltac:(vm_compute; reflexivity) W Sh Hf E) as (_ & EA & W2).
  destruct (sparse_any dbg isqrt n G tol b h Hq Hp Hf ltac:(now rewrite EA) ltac:(now rewrite EA) W2 Hb) as (x & h2 & E2 & k & y & q & Hk & (_ & _ & V & R) & Q).
  exists x, h2. split; [exact E2|]. split; [exact V|]. intros i Hi. apply isnan_spec. rewrite R by exact Hi.
  apply accum_nan; [|lia]. cbv zeta in Q. rewrite Q by exact Hi. apply start_nan. apply lu_zn. intros j Hj.
  apply zn_zero. exact (Z j Hj).
Qed.

(** ** Concrete cases: a singular matrix with infinite entries; a zero right-hand side *)
Definition WH : heap float := heap_of [[1; infinity; 2; 4]; [1; nan]; [0; neg_zero]]%float.
Example C75_nonvacuous : ismat WH (mkMat 0 2 2) 2 2 /\ isvec WH 1 2 /\ exists G h1 x h2,
  gmres_dyn_new (mkMat 0 2 2) WH = Ok G h1 /\ gmres_dyn_solve true Nat.sqrt G nan 1 h1 = Ok x h2 /\ length (mem h2 x) = 2.
Proof.
  split; [repeat split; cbn; lia|]. split; [repeat split; cbn; lia|]. eexists. eexists. eexists. eexists.
  split; [vm_compute; reflexivity|]. split; vm_compute; reflexivity.
Qed.
Example C49_nan_nonvacuous : ismat WH (mkMat 0 2 2) 2 2 /\ isvec WH 2 2 /\
  (forall i, i < 2 -> PrimFloat.eqb (rd WH 2 i) 0%float = true) /\ exists G h1, gmres_dyn_new (mkMat 0 2 2) WH = Ok G h1.
Proof.
  split; [repeat split; cbn; lia|]. split; [repeat split; cbn; lia|].
  split; [intros [|[|i]] Hi; [reflexivity|reflexivity|lia]|]. eexists. eexists. vm_compute. reflexivity.
Qed.

Print Assumptions C75_dense.
Print Assumptions C75_sparse.
Print Assumptions C49_always_nan_dense.
Print Assumptions C49_always_nan_sparse.
