(** * C107: stored densely or by compressed rows, a matrix gives the same results

    Products, the incomplete factorisation, solving with it, and GMRES, bit for bit; for any
    arithmetic in which zero times a finite number can be left out of a sum (SpecStorage.v,
    RoundStorage.v). *)
From Coq Require Import ZArith Lia List.
From Verif Require Import Base Scalar BaseLemmas Spec Sums ModelVec ModelMat SpecMat ModelSparse
  ProofVec ProofVecProp ProofMatOps ModelSolvers ModelIter ProofChol ProofIlu FloatSqrt PropVec PropMat PropIlu
  ProofPacked ProofSparse SpecSparse PropSparse ProofSparseCsr ProofSpmv PropSpmv ProofCgs PropCgs PropOrder
  ProofGmresRun PropGmresAny SpecUnits ProofUnits ProofGmresBits PropUnits SpecStorage.
Import ListNotations.
Local Open Scope nat_scope.

Section Storage.
Context {T : Type} (Op : Ops T) (fin run : T -> Prop) (Sk : Skips Op fin run).
Implicit Types h : heap T.

(** ** A row *)
Fixpoint asc_from (b n : nat) (es : triples T) : Prop :=
  match es with [] => b <= n | e :: r => b <= snd (fst e) /\ snd (fst e) < n /\ asc_from (S (snd (fst e))) n r end.
Definition step (al : T) (a x : nat -> T) (acc : T) (k : nat) : T := add acc (mul (mul al (a k)) (x k)).
Lemma fsum_fold n t al (a x : nat -> T) : fsum n t (fun k => mul (mul al (a k)) (x k)) = fold_left (step al a x) (seq 0 n) t.
Proof. induction n as [|n IH]; [reflexivity|]. rewrite seq_S, fold_left_app, <- IH. reflexivity. Qed.
Lemma skip_zeros al a x m : forall b t, run t -> fin al -> (forall k, b <= k < b + m -> a k = zero /\ fin (x k)) ->
  fold_left (step al a x) (seq b m) t = t.
Proof.
  induction m as [|m IH]; intros b t Rt Fa H; [reflexivity|]. cbn [seq fold_left].
  destruct (H b ltac:(lia)) as [E F]. unfold step at 2. rewrite E, (sk_skip (Skips := Sk)) by auto. apply IH; auto. intros; apply H; lia.
Qed.
Lemma row_as_dense al a x n : fin al -> (forall k, k < n -> fin (x k)) -> forall es b t, run t -> asc_from b n es ->
  (forall e, In e es -> a (snd (fst e)) = snd e) -> (forall k, b <= k < n -> ~ In k (map (fun e => snd (fst e)) es) -> a k = zero) ->
  row_value T Op es al x t = fold_left (step al a x) (seq b (n - b)) t.
Proof.
  intros Fa Fx. induction es as [|e es IH]; intros b t Rt As Hin Hout.
  - cbn. symmetry. apply skip_zeros; auto. cbn in As. intros k Hk. split; [apply Hout; [lia|auto]|apply Fx; lia].
  - destruct As as (B1 & B2 & As). set (c := snd (fst e)) in *.
    replace (n - b) with ((c - b) + S (n - S c)) by lia. rewrite seq_app, fold_left_app, (skip_zeros al a x (c - b) b t); auto.
    2:{ intros k Hk. split; [|apply Fx; lia]. apply Hout; [lia|]. cbn [map In]. fold c. intros [E|I]; [lia|].
        assert (L : forall es b0, asc_from b0 n es -> In k (map (fun e => snd (fst e)) es) -> b0 <= k).
        { clear. induction es as [|e es IH]; intros b0 A I; [destruct I|]. destruct A as (A1 & A2 & A3), I as [<-|I]; [auto|].
          specialize (IH _ A3 I). lia. }
        specialize (L es (S c) As I). lia. }
    replace (b + (c - b)) with c by lia. cbn [seq fold_left]. unfold row_value. cbn [fold_left]. fold c.
    pose proof (Hin e (or_introl eq_refl)) as He. fold c in He. unfold step at 2. rewrite He.
    apply (IH (S c)); auto.
    + apply (sk_add (Skips := Sk)); auto.
    + intros; apply Hin; now right.
    + intros k Hk N. apply Hout; [lia|]. cbn [map In]. fold c. intros [E|I]; [lia|auto].
Qed.
Lemma asc_row (A : csr T) n m i : csr_wf A n -> rows_ascending A n -> (forall c, In c (scol A) -> c < m) -> i < n ->
  asc_from 0 m (csr_row A i).
Proof.
  intros W As Hc Hi. pose proof (ptr_le A n (i + 1) W ltac:(lia)) as Hle. pose proof W as (W1 & W2 & W3 & W4 & W5).
  unfold csr_row. set (p0 := nth i (sptr A) 0) in *. set (p1 := nth (i + 1) (sptr A) 0) in *.
  assert (K : forall l p b, p0 <= p -> p + l <= p1 -> b <= m -> (forall q, p <= q < p1 -> b <= nth q (scol A) 0) ->
    asc_from b m (map (fun k => (i, nth k (scol A) 0, nth k (sval A) zero)) (seq p l))).
  { induction l as [|l IH]; intros p b Hp Hl Hb H; cbn [seq map asc_from]; [exact Hb|]. cbn [fst snd].
    assert (nth p (scol A) 0 < m) by (apply Hc, nth_In; lia).
    split; [apply H; lia|]. split; [assumption|]. apply IH; try lia. intros q Hq. apply (As i p q); auto; lia. }
  specialize (W5 i Hi). fold p0 p1 in W5. apply K; [lia|lia|lia|intros; lia].
Qed.
Lemma row_reads (A : csr T) n m a i : csr_wf A n -> rows_ascending A n -> reads_equal A n m a -> (forall c, In c (scol A) -> c < m) -> i < n ->
  (forall e, In e (csr_row A i) -> a i (snd (fst e)) = snd e) /\
  (forall k, k < m -> ~ In k (map (fun e => snd (fst e)) (csr_row A i)) -> a i k = zero).
Proof.
  intros W As R Hc Hi. pose proof (ptr_le A n (i + 1) W ltac:(lia)) as Hle. pose proof W as (W1 & W2 & W3 & W4 & W5). split.
  - intros [[i' j] v] He. apply csr_row_In in He as (-> & k & Hk & E1 & E2). cbn [fst snd].
    assert (Hj : j < m) by (rewrite <- E1; apply Hc, nth_In; lia).
    pose proof (R i j Hi Hj) as G. unfold csr_get, bind in G. rewrite (csr_find_ok A n) in G by auto.
    destruct (find _ _) as [k'|] eqn:F.
    + apply find_seq_some in F. destruct F as (Hk' & Hp & _). apply Nat.eqb_eq in Hp.
      assert (k' = k).
      { destruct (Nat.lt_total k k') as [C|[C|C]]; auto; exfalso.
        - pose proof (As i k k' Hi ltac:(lia) C ltac:(lia)). lia.
        - pose proof (As i k' k Hi ltac:(lia) C ltac:(lia)). lia. }
      subst k'. rewrite (vec_at_d _ zero) in G by lia. injection G as G. congruence.
    + pose proof (find_seq_none _ _ _ F k ltac:(lia)) as N. cbv beta in N. apply Nat.eqb_neq in N. contradiction.
  - intros k Hk N. pose proof (R i k Hi Hk) as G. unfold csr_get, bind in G. rewrite (csr_find_ok A n) in G by auto.
    destruct (find _ _) as [k'|] eqn:F.
    + exfalso. apply N. apply find_seq_some in F. destruct F as (Hk' & Hp & _). apply Nat.eqb_eq in Hp. apply in_map_iff.
      exists ((i, k), nth k' (sval A) zero). split; [reflexivity|]. apply csr_row_In. split; [reflexivity|]. exists k'. split; [lia|auto].
    + injection G as G. now symmetry.
Qed.
Lemma row_dense (A : csr T) n m a al x t i : csr_wf A n -> rows_ascending A n -> reads_equal A n m a -> (forall c, In c (scol A) -> c < m) -> i < n ->
  fin al -> (forall k, k < m -> fin (x k)) -> run t ->
  row_value T Op (csr_row A i) al x t = fsum m t (fun k => mul (mul al (a i k)) (x k)).
Proof.
  intros W As R Hc Hi Fa Fx Rt. rewrite fsum_fold. destruct (row_reads A n m a i W As R Hc Hi) as [R1 R2].
  rewrite (row_as_dense al (a i) x m Fa Fx (csr_row A i) 0 t Rt); [now rewrite Nat.sub_0_r|now apply (asc_row A n m)|exact R1|].
  intros k Hk. apply R2. lia.
Qed.

(** ** Products *)
(** alpha A x + beta y, for finite alpha and x; beta y starts the sum. *)
Theorem C107_update : forall dbg dbg' n m D (A : csr T) alpha x beta y h,
  fits_u32 n = true -> fits_u32 m = true -> ismat h D n m -> csr_wf A n -> csr_shape A tt = Ok (n, m) tt -> rows_ascending A n -> reads_equal A n m (mget h D) ->
  isvec h x m -> isvec h y n -> x <> y -> mp D <> y -> fin alpha -> (forall k, k < m -> fin (rd h x k)) -> (forall i, i < n -> run (mul beta (rd h y i))) ->
  exists h1 h2, mulv dbg alpha D x beta y h = Ok y h1 /\ sp_mul dbg' alpha A x beta y h = Ok y h2 /\ isvec h1 y n /\ isvec h2 y n /\
    forall i, i < n -> rd h1 y i = rd h2 y i.
Proof.
  intros dbg dbg' n m D A alpha x beta y h Hn Hm HD W Sh As R Hx Hy Nxy Nd Fa Fx Ry.
  destruct (shape_cols A n m Sh) as [Hne Hc].
  destruct (post_ok _ _ _ (mulv_ok dbg alpha D x beta y n m h Hn Hm HD Hx Hy Nd)) as (r & h1 & E1 & -> & (_ & V1 & R1)).
  destruct (C32_rows_partial T Op dbg' n m A alpha x beta y h W Hne (shape_any A h _ Sh) Hn (proj2 Hx) (proj2 Hy) Nxy) as (h2 & E2 & _ & N2 & L2 & R2).
  exists h1, h2. split; [exact E1|]. split; [exact E2|]. split; [exact V1|].
  split; [split; [rewrite N2; apply Hy|exact L2]|]. intros i Hi. rewrite R1, R2 by auto. symmetry. apply (row_dense A n m (mget h D)); auto.
Qed.
Lemma sp_op_mul_any dbg n m (A : csr T) x h : csr_wf A n -> csr_shape A tt = Ok (n, m) tt -> fits_u32 n = true -> isvec h x m ->
  exists y h', sp_op_mul dbg A x h = Ok y h' /\ isvec h' y n /\ forall i, i < n -> rd h' y i = row_apply A (rd h x) i.
Proof.
  intros W Sh Hf [Lx Hx]. destruct (shape_cols A n m Sh) as [Hne Hc].
  pose proof (shape_any A h _ Sh) as Hsh.
  set (h1 := halloc h (repeat zero n)).
  assert (Hxy : x <> next h) by lia.
  assert (M1 : forall q, q <> next h -> mem h1 q = mem h q) by (intros; apply mem_halloc_other; auto).
  assert (L1 : len h1 (next h) = n). { unfold len, h1. rewrite mem_halloc_same. apply repeat_length. }
  assert (L2 : len h1 x = m). { unfold len. rewrite M1 by auto. exact Hx. }
  destruct (post_ok _ _ _ (sp_rows n A one x zero (next h) h1 W Hf ltac:(now rewrite L2) ltac:(lia) Hxy)) as (r & h' & E & -> & (Fr & Nx & Ly & V)).
  exists (next h), h'. split; [|split].
  - unfold sp_op_mul. cbv [bind vsize assert_ noexcept]. rewrite Hsh. cbn [fst snd]. unfold len in Hx.
    rewrite Hx, !Nat.eqb_refl, andb_false_r. change (alloc (repeat zero n) h) with (Ok (next h) h1). cbv iota beta. rewrite E. reflexivity.
  - assert (Nn : next h1 = S (next h)) by reflexivity. split; lia.
  - intros i Hi. rewrite V. destruct (Nat.ltb_spec i n); [|lia]. rewrite spmv_val_fold. unfold row_apply.
    replace (rd h1 (next h) i) with (zero (T := T)) by (unfold rd, h1; rewrite mem_halloc_same; symmetry; apply nth_repeat).
    apply (row_value_ext _ _ _ _ _ m); [intros e He; apply Hc; now apply (row_cols A n i)|].
    intros k Hk. unfold rd. now rewrite M1.
Qed.
Theorem C107_product : forall dbg dbg' n m D (A : csr T) x h,
  fits_u32 n = true -> fits_u32 m = true -> ismat h D n m -> csr_wf A n -> csr_shape A tt = Ok (n, m) tt -> rows_ascending A n -> reads_equal A n m (mget h D) ->
  isvec h x m -> (forall k, k < m -> fin (rd h x k)) ->
  exists y h1 z h2, op_mulv dbg D x h = Ok y h1 /\ sp_op_mul dbg' A x h = Ok z h2 /\ isvec h1 y n /\ isvec h2 z n /\
    forall i, i < n -> rd h1 y i = rd h2 z i.
Proof.
  intros dbg dbg' n m D A x h Hn Hm HD W Sh As R Hx Fx.
  destruct (post_ok _ _ _ (op_mulv_ok dbg D x n m h Hn Hm HD Hx)) as (y & h1 & E1 & (_ & _ & V1 & R1)).
  destruct (sp_op_mul_any dbg' n m A x h W Sh Hn Hx) as (z & h2 & E2 & V2 & R2).
  exists y, h1, z, h2. repeat (split; [assumption|]). intros i Hi. rewrite R1, R2 by auto. symmetry.
  apply (row_dense A n m (mget h D)); auto; [apply (shape_cols A n m Sh)|apply (sk_one (Skips := Sk))|apply (sk_start (Skips := Sk))].
Qed.

(** ** Equality of bits is a relation of the kind of C92: what is computed alike from the same numbers is the same *)
Definition eqr : Z -> T -> T -> Prop := fun _ x y => x = y.
Lemma eq_units : Units Op eqr (fun _ => True).
Proof. unfold eqr. constructor; intros; subst; reflexivity. Qed.
Lemma eq_root : UnitsRoot Op eqr.
Proof. unfold eqr. constructor; intros; subst; reflexivity. Qed.
Lemma eq_zero : UnitsZero Op eqr.
Proof. unfold eqr. constructor; intros; subst; reflexivity. Qed.
Lemma eq_order : UnitsOrder Op eqr.
Proof. unfold eqr. constructor; intros; subst; reflexivity. Qed.
Local Notation z1 := (fun _ : nat => 0%Z).

Lemma cview_reads (A : csr T) n a : reads_equal A n n a -> forall i j, i < n -> j < n -> cview A i j = a i j.
Proof. intros R i j Hi Hj. unfold cview. now rewrite (R i j Hi Hj). Qed.
Lemma lu_same n f f' b b' : (forall i j, i < n -> j < n -> f i j = f' i j) -> (forall i, i < n -> b i = b' i) ->
  forall i, i < n -> lu_apply n f b i = lu_apply n f' b' i.
Proof.
  intros H Hb i Hi. refine (lu_apply_units eq_units (fun _ => I) n z1 z1 0%Z f f' b b' _ _ i Hi); [intros a c Ha Hc; now apply H|exact Hb].
Qed.

(** ** The incomplete factorisation: both throw, or the factors read the same and solve to the same bits *)
Theorem C107_ilu : forall n D (A : csr T) h,
  fits_u32 n = true -> ismat h D n n -> csr_wf A n -> csr_shape A tt = Ok (n, n) tt -> reads_equal A n n (mget h D) ->
  (exists F h1 L, ilu_dyn D h = Ok F h1 /\ ilu_csr A h = Ok L h /\ ismat h1 F n n /\ csr_wf L n /\ reads_equal L n n (mget h1 F) /\
     forall b, isvec h b n -> exists x g1 z g2, ilu_dyn_solve F b h1 = Ok x g1 /\ ilu_csr_solve L b h = Ok z g2 /\ isvec g1 x n /\ isvec g2 z n /\
       forall i, i < n -> rd g1 x i = rd g2 z i) \/
  (exists h1, ilu_dyn D h = Throw RuntimeError h1 /\ ilu_csr A h = Throw RuntimeError h).
Proof.
  intros n D A h Hf HD W Sh R. pose proof (ilu_dyn_outcome n D h HD Hf) as P. unfold postx in P.
  assert (IE : munits eqr n n (fun i j => z1 i + z1 j)%Z (mget h D) (cview A)) by (intros i j Hi Hj; symmetry; now apply (cview_reads A n)).
  destruct (ilu_csr_outcome n n A (heap T) h (sk_zero (Skips := Sk)) W Sh (le_n n) Hf) as [(L & E & WL & _ & _ & Dn)|(L & E & WL & _ & _ & Dn)];
    destruct (ilu_dyn D h) as [F h1|e h1| | | |]; try contradiction.
  - left. destruct P as ((X1 & _ & VF & _) & DnF). exists F, h1, L. split; [reflexivity|]. split; [exact E|]. split; [exact VF|]. split; [exact WL|].
    pose proof (ilu_done_units eq_units eq_zero n z1 z1 _ _ _ _ IE (fun _ _ => I) DnF Dn) as IF.
    split. { intros i j Hi Hj. rewrite (IF i j Hi Hj). now apply (cview_ok L n). }
    intros b Hb. assert (Hb1 : isvec h1 b n) by (eapply ext_isvec; eauto).
    assert (AD : applies n h1 (ilu_dyn_solve F) (lu_apply n (mget h1 F))).
    { apply lu_applies; [exact Hf|]. intros g i j X. now apply mat_get_ext. }
    assert (AS : applies n h (ilu_csr_solve L) (lu_apply n (cview L))).
    { apply lu_applies; [exact Hf|]. intros g i j _ Hi _. now apply (cview_ok L n). }
    destruct (post_ok _ _ _ (AD h1 b (ext_refl _) Hb1)) as (x & g1 & E1 & (_ & _ & V1 & R1)).
    destruct (post_ok _ _ _ (AS h b (ext_refl _) Hb)) as (z & g2 & E2 & (_ & _ & V2 & R2)).
    exists x, g1, z, g2. repeat (split; [assumption|]). intros i Hi. rewrite R1, R2 by exact Hi.
    apply lu_same; [intros; now apply IF|intros k Hk|exact Hi]. unfold rd. destruct X1 as [_ ->]; [reflexivity|apply Hb].
  - exfalso. destruct P as (_ & _ & f & S). exact (ilu_stop_units' eq_units eq_zero n z1 z1 _ _ _ _ IE (fun _ _ => I) S Dn).
  - exfalso. destruct P as (_ & S). exact (ilu_stop_units eq_units eq_zero n z1 z1 _ _ _ _ IE (fun _ _ => I) S Dn).
  - right. destruct P as (-> & _ & _). exists h1. auto.
Qed.

(** ** GMRES *)
(** A run is also a run with another operator that agrees on the vectors of its basis. *)
Lemma other_operator n Av Pv Av' Pv' tol p x nb k Q H c s R y : 0 < n ->
  (forall j t, j < k -> t < n -> pmv Av Pv (Q j) t = pmv Av' Pv' (Q j) t) ->
  gm_run n Av Pv tol p x nb k Q H c s R y -> gm_run n Av' Pv' tol p x nb k Q H c s R y.
Proof.
  intros Hn HE [G1 G2 G3 G4 G5 G6 G7 G8]. split; auto. destruct G4 as [D1 D2 D3 D4 D5 D6].
  assert (WE : forall j t, j < k -> t < n -> wvec n (pmv Av Pv) Q j t = wvec n (pmv Av' Pv') Q j t).
  { intros j t Hj Ht. unfold wvec. apply arn_res_ext; auto. }
  split; auto.
  - intros i j Hj Hi. rewrite D1 by auto. apply cdot_ext; auto.
  - intros j Hj. rewrite D2 by auto. f_equal. apply bsum_ext. intros t Ht. now rewrite WE by auto.
  - intros j t Hj Ht. rewrite D3 by auto. now rewrite WE by auto.
Qed.
Lemma accum_fin k y Q t : fin (accum k y Q t) -> forall i, i < k -> fin (Q i t).
Proof.
  induction k as [|k IH]; cbn [accum]; intros F i Hi; [lia|]. destruct (sk_fin_add (Skips := Sk) _ _ F) as [F1 F2].
  destruct (Nat.eq_dec i k) as [->|]; [|apply IH; auto; lia]. apply (sk_fin_mul (Skips := Sk)) in F1 as [_ F1]. now apply (sk_fin_mul (Skips := Sk)) in F1.
Qed.
Lemma apply_same (A : csr T) n a : csr_wf A n -> csr_shape A tt = Ok (n, n) tt -> rows_ascending A n -> reads_equal A n n a ->
  forall v, (forall t, t < n -> fin (v t)) -> forall i, i < n -> row_apply A v i = dense_apply n a v i.
Proof.
  intros W Sh As R v Fv i Hi. unfold row_apply, dense_apply.
  apply (row_dense A n n a); auto; [apply (shape_cols A n n Sh)|apply (sk_one (Skips := Sk))|apply (sk_start (Skips := Sk))].
Qed.
(** Both constructors throw, or both return and both solvers do; if one of the solutions is finite
    the other is the same. *)
Theorem C107_gmres : forall dbg dbg' isqrt isqrt' n D (A : csr T) tol b h, isqrt_exact isqrt -> isqrt_exact isqrt' -> 0 < n ->
  fits_u32 n = true -> ismat h D n n -> csr_wf A n -> csr_shape A tt = Ok (n, n) tt -> rows_ascending A n -> reads_equal A n n (mget h D) -> isvec h b n ->
  (exists G h1 G' x h2 z h3, gmres_dyn_new D h = Ok G h1 /\ gmres_csr_new A h = Ok G' h /\
     gmres_dyn_solve dbg isqrt G tol b h1 = Ok x h2 /\ gmres_csr_solve dbg' isqrt' G' tol b h = Ok z h3 /\ isvec h2 x n /\ isvec h3 z n /\
     ((forall i, i < n -> fin (rd h2 x i)) \/ (forall i, i < n -> fin (rd h3 z i)) -> forall i, i < n -> rd h2 x i = rd h3 z i)) \/
  (exists h1, gmres_dyn_new D h = Throw RuntimeError h1 /\ gmres_csr_new A h = Throw RuntimeError h).
Proof.
  intros dbg dbg' isqrt isqrt' n D A tol b h Hq Hq' Hn Hf HD W Sh As R Hb. unfold gmres_dyn_new, gmres_csr_new, bind.
  destruct (post_ok _ _ _ (copy_ok D n n h HD)) as (m & g & Ec & (X1 & P1 & V1 & R1) & _). rewrite Ec.
  assert (HB : ismat g D n n) by (eapply ext_ismat; eauto).
  assert (RB : reads_equal A n n (mget g D)).
  { intros i j Hi Hj. rewrite (R i j Hi Hj). unfold mget, rd. destruct X1 as [_ ->]; [reflexivity|apply HD]. }
  pose proof (ilu_dyn_outcome n D g HB Hf) as K. unfold postx in K.
  assert (EA : forall S1 (s1 : S1) S2 (s2 : S2) L, ilu_csr A s1 = Ok L s1 -> ilu_csr A s2 = Ok L s2).
  { intros S1 s1 S2 s2 L. unfold ilu_csr, on_copy. destruct (ilu_csr_run A); intros Q; try discriminate; congruence. }
  destruct (C107_ilu n D A g Hf HB W Sh RB) as [(F & h1 & L & EF & EL & VF & WL & RL & _)|(h1 & EF & EL)].
  2:{ right. exists h1. rewrite EF. split; [reflexivity|].
      destruct (ilu_csr_outcome n n A (heap T) h (sk_zero (Skips := Sk)) W Sh (le_n n) Hf) as [(L & E & _)|(L & E & _)]; rewrite E; [|reflexivity].
      apply (EA _ h _ g) in E. congruence. }
  left. rewrite EF in *. destruct K as ((X2 & _) & _). rewrite (EA _ g _ h L EL). unfold ret.
  assert (XX : ext h h1) by (eapply ext_trans; eauto).
  assert (VM : ismat h1 m n n) by (eapply ext_ismat; [exact X2|exact V1]).
  assert (VB : isvec h1 b n) by (eapply ext_isvec; [exact XX|exact Hb]).
  destruct (dense_run Op dbg isqrt n (m, F) tol b h1 Hq Hn Hf VM VF VB) as (x & h2 & E & (_ & _ & Vx & _) & nb & k & Q & H & cc & f & RR & y & GR).
  destruct (sparse_run Op dbg' isqrt' n (A, L) tol b h Hq' Hn Hf W Sh WL Hb) as (z & h3 & E' & (_ & _ & Vz & _) & nb' & k' & Q' & H' & cc' & f' & RR' & y' & GR').
  cbn [fst snd] in GR, GR'. exists (m, F), h1, (A, L), x, h2, z, h3. repeat (split; [first [reflexivity|assumption]|]).
  assert (Rm : reads_equal A n n (mget h1 m)).
  { intros i j Hi Hj. rewrite (RB i j Hi Hj). f_equal. replace (mget h1 m i j) with (mget g m i j) by (unfold mget, rd; destruct X2 as [_ ->]; [reflexivity|apply V1]).
    rewrite R1 by auto. unfold mget, rd. destruct X1 as [_ ->]; [reflexivity|apply HD]. }
  assert (LF : forall i j, i < n -> j < n -> cview L i j = mget h1 F i j) by (now apply cview_reads).
  assert (Eb : forall i, i < n -> rd h1 b i = rd h b i) by (intros i Hi; unfold rd; destruct XX as [_ ->]; [reflexivity|apply Hb]).
  assert (PE : forall v, (forall t, t < n -> fin (v t)) -> forall t, t < n ->
    pmv (dense_apply n (mget h1 m)) (lu_apply n (mget h1 F)) v t = pmv (row_apply A) (lu_apply n (cview L)) v t).
  { intros v Fv t Ht. unfold pmv. apply lu_same; auto; [intros; symmetry; now apply LF|]. intros i Hi. symmetry. now apply (apply_same A n). }
  assert (Hp : forall t, t < n -> lu_apply n (mget h1 F) (rd h1 b) t = lu_apply n (cview L) (rd h b) t).
  { intros t Ht. apply lu_same; auto. intros; symmetry; now apply LF. }
  intros [Fx|Fx].
  - assert (FQ : forall j t, j < k -> t < n -> fin (Q j t)).
    { intros j t Hj Ht. apply (accum_fin k y Q t); [|exact Hj]. rewrite <- (gr_x _ _ _ _ _ _ _ _ _ _ _ _ _ _ GR) by exact Ht. now apply Fx. }
    apply (other_operator n _ _ (row_apply A) (lu_apply n (cview L))) in GR; auto.
    refine (proj2 (gm_run_units eq_units eq_root eq_order (fun _ => I) n _ _ _ _ 0%Z tol tol _ _ (rd h2 x) (rd h3 z) _ _ _ _ _ _ _ _ _ _ _ _ _ _ _ _ Hn _ eq_refl _ GR GR')); auto.
    intros u u' Eu i Hi. apply (lu_same n); auto. intros j Hj. now apply (row_apply_ext n A).
  - assert (FQ : forall j t, j < k' -> t < n -> fin (Q' j t)).
    { intros j t Hj Ht. apply (accum_fin k' y' Q' t); [|exact Hj]. rewrite <- (gr_x _ _ _ _ _ _ _ _ _ _ _ _ _ _ GR') by exact Ht. now apply Fx. }
    apply (other_operator n _ _ (dense_apply n (mget h1 m)) (lu_apply n (mget h1 F))) in GR'; auto.
    2:{ intros j t Hj Ht. symmetry. apply PE; auto. }
    refine (proj2 (gm_run_units eq_units eq_root eq_order (fun _ => I) n _ _ _ _ 0%Z tol tol _ _ (rd h2 x) (rd h3 z) _ _ _ _ _ _ _ _ _ _ _ _ _ _ _ _ Hn _ eq_refl _ GR GR')); auto.
    intros u u' Eu i Hi. apply (lu_same n); auto. intros j Hj. apply fsum_ext_any. intros a Ha. now rewrite Eu.
Qed.

(** ** Matrices whose rows are in order: those converted from coordinate storage without repeated positions *)
Lemma asc_app (l1 l2 : triples T) : ascending T (l1 ++ l2) -> ascending T l1 /\ ascending T l2.
Proof.
  induction l1 as [|e l1 IH]; cbn; [auto|]. intros [H S]. destruct (IH S) as [S1 S2]. repeat split; auto.
  intros e' He. apply H. apply in_or_app. now left.
Qed.
Theorem C107_converted : forall St (C : coo T) (s : St), coo_wf C -> 0 < length (cval C) -> fits_u32 (length (cval C)) = true -> distinct (coo_entries C) ->
  exists A n, csr_of_coo C s = Ok A s /\ csr_wf A n /\ rows_ascending A n /\ csr_shape A s = coo_shape C s /\
    forall i j, i < n -> csr_get A i j s = coo_get C i j s.
Proof.
  intros St C s W Hpos Hf D. destruct (C29_convert T Op St C s W Hpos Hf) as (A & n & E & WA & Ev & Ec & Ees & _ & G).
  exists A, n. split; [exact E|]. split; [exact WA|].
  assert (DA : ascending T (csr_entries A n)) by (rewrite Ees; apply in_order_ascending; [apply W|exact D]).
  split.
  - intros i p q Hi Hp Hpq Hq. assert (RA : ascending T (csr_row A i)).
    { unfold csr_entries in DA. replace n with (i + S (n - S i)) in DA by lia. rewrite seq_app, flat_map_app in DA.
      apply asc_app in DA as [_ DA]. cbn [seq flat_map Nat.add] in DA. now apply asc_app in DA as [DA _]. }
    unfold csr_row in RA. set (p0 := nth i (sptr A) 0) in *. set (p1 := nth (i + 1) (sptr A) 0) in *.
    replace (p1 - p0) with ((p - p0) + S (p1 - S p)) in RA by lia. rewrite seq_app, map_app in RA. apply asc_app in RA as [_ RA].
    cbn [seq map] in RA. destruct RA as [RA _]. replace (p0 + (p - p0)) with p in RA by lia.
    specialize (RA ((i, nth q (scol A) 0), nth q (sval A) zero)). unfold pos_lt in RA. cbn [fst snd] in RA.
    destruct RA as [L|[_ L]]; [|lia|exact L]. apply in_map_iff. exists q. split; [reflexivity|]. apply in_seq. lia.
  - split; [|intros; now apply G]. destruct (C34_csr_shape T Op St C s W Hpos) as (A' & E' & Sh & _). congruence.
Qed.
End Storage.
