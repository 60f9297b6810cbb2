(** * Properties C77 - C78: sparse products and element-wise operations in IEEE arithmetic *)
From Coq Require Import Reals Lra Lia Permutation.
From Verif Require Import Base Scalar BaseLemmas Spec Sums RealVec ModelVec ModelMat SpecMat ModelPacked ProofPacked ModelSparse
  PropPacked ProofVec ProofVecProp ProofMatOps ProofVecSched ModelSolvers ModelIter ProofChol ProofCholSolve ProofCholMath ProofIlu
  PropVec PropMat PropChol PropCholSolve PropIlu PropRepeat ProofSparse ProofSparseCsr SpecSparse PropSparse ProofSpmv PropSpmv
  SpecRound Rounding ProofBackSub ProofRound PropRound PropRound2 SpecIeee ProofIeee PropIeee.
Local Open Scope R_scope.

Local Notation dotR := (@dotp R ROps).
Local Notation mvR := (@mvmul R ROps).
Local Notation mmR := (@mmmul R ROps).
Local Notation solvesR := (@solves R ROps).
Local Notation sumR := (@bsum R ROps).

(** ** Sums over the stored entries of a row *)
Section Stored.
Context {T : Type} {Op : Ops T} (g : T -> R).
Definition gcsr (A : csr T) : csr R := mkCsr (map g (sval A)) (sptr A) (scol A).
Definition gget (A : csr T) (i j : nat) : R := match @csr_get R ROps unit (gcsr A) i j tt with Ok v _ => v | _ => 0 end.

Lemma gcsr_wf A n : csr_wf A n -> csr_wf (gcsr A) n.
Proof. intros (W1 & W2 & W3 & W4 & W5). unfold csr_wf, gcsr. cbn [sval sptr scol]. rewrite map_length. auto. Qed.
Lemma nth_g (l : list T) k : (k < length l)%nat -> nth k (map g l) 0 = g (nth k l zero).
Proof. intros H. rewrite (nth_indep _ 0 (g zero)) by (now rewrite map_length). apply map_nth. Qed.
Lemma gcsr_row A n i : csr_wf A n -> (i < n)%nat -> @csr_row R ROps (gcsr A) i = map (fun e => (fst e, g (snd e))) (csr_row A i).
Proof.
  intros W Hi. unfold csr_row. rewrite map_map. cbn [gcsr sptr scol sval]. apply map_ext_in. intros k Hk. apply in_seq in Hk. cbn.
  f_equal. apply nth_g. pose proof (ptr_le A n (i + 1) W ltac:(lia)). destruct W as (W1 & W2 & W3 & W4 & W5). lia.
Qed.
Lemma gcsr_entries A n : csr_wf A n -> @csr_entries R ROps (gcsr A) n = map (fun e => (fst e, g (snd e))) (csr_entries A n).
Proof.
  intros W. unfold csr_entries. rewrite !flat_map_concat_map, concat_map, map_map. f_equal. apply map_ext_in. intros i Hi.
  apply in_seq in Hi. apply (gcsr_row A n); auto. lia.
Qed.
Lemma gcsr_distinct A n : csr_wf A n -> distinct (csr_entries A n) -> distinct (@csr_entries R ROps (gcsr A) n).
Proof. intros W. unfold distinct. rewrite gcsr_entries, map_map by auto. cbn. auto. Qed.
Lemma gget_ok A n i j {S} (s : S) : csr_wf A n -> (i < n)%nat -> distinct (csr_entries A n) -> @csr_get R ROps S (gcsr A) i j s = Ok (gget A i j) s.
Proof.
  intros W Hi D. unfold gget. destruct (csr_get_ok (Op := ROps) (gcsr A) n i j s (gcsr_wf A n W) Hi) as (v & E & Rv).
  destruct (csr_get_ok (Op := ROps) (gcsr A) n i j tt (gcsr_wf A n W) Hi) as (v' & E' & Rv'). rewrite E, E'. f_equal.
  rewrite <- (total_reads (R := field_is_ring R ROps R_field) _ i j v (gcsr_distinct A n W D) Rv).
  now apply (total_reads (R := field_is_ring R ROps R_field) _ i j v' (gcsr_distinct A n W D)).
Qed.
(** The matrix of element reads, value by value, when [g] sends zero to zero. *)
Lemma gget_val A n m (a : nat -> nat -> T) i j {S} (s : S) : csr_wf A n -> (i < n)%nat -> distinct (csr_entries A n) -> g zero = 0 ->
  (forall i j, (i < n)%nat -> (j < m)%nat -> csr_get A i j s = Ok (a i j) s) -> (j < m)%nat -> gget A i j = g (a i j).
Proof.
  intros W Hi D Z Ha Hj. destruct (csr_get_ok A n i j s W Hi) as (v & E & Rv). rewrite Ha in E by auto. injection E as <-.
  pose proof (gget_ok A n i j tt W Hi D) as G. destruct (csr_get_ok (Op := ROps) (gcsr A) n i j tt (gcsr_wf A n W) Hi) as (v' & E' & Rv').
  rewrite G in E'. injection E' as <-.
  rewrite <- (total_reads (R := field_is_ring R ROps R_field) _ i j _ (gcsr_distinct A n W D) Rv').
  apply (total_reads (R := field_is_ring R ROps R_field)); [now apply gcsr_distinct|]. rewrite gcsr_entries by auto.
  destruct Rv as [Rv|[Rv ->]].
  - left. apply in_map_iff. exists ((i, j), a i j). auto.
  - right. split; [|auto]. intros v Hv. apply in_map_iff in Hv as ([p w] & Ep & Hin). cbn in Ep. injection Ep as -> <-. now apply (Rv w).
Qed.
(** Every read is [g] of something stored, or zero. *)
Lemma gget_range A n i j lo hi : csr_wf A n -> (i < n)%nat -> distinct (csr_entries A n) -> lo <= 0 <= hi -> (forall v, lo <= g v <= hi) ->
  lo <= gget A i j <= hi.
Proof.
  intros W Hi D Z Hg. pose proof (gget_ok A n i j tt W Hi D) as G.
  destruct (csr_get_ok (Op := ROps) (gcsr A) n i j tt (gcsr_wf A n W) Hi) as (v' & E' & Rv'). rewrite G in E'. injection E' as <-.
  rewrite gcsr_entries in Rv' by auto. destruct Rv' as [Rv|[Rv ->]]; [|exact Z].
  apply in_map_iff in Rv as ([p w] & Ep & Hin). cbn in Ep. injection Ep as _ <-. apply Hg.
Qed.
Definition row_len (A : csr T) i : nat := length (csr_row A i).
Definition row_val (A : csr T) i t : T := nth (nth i (sptr A) 0 + t)%nat (sval A) zero.
Definition row_col (A : csr T) i t : nat := nth (nth i (sptr A) 0 + t)%nat (scol A) 0%nat.
Lemma stored_sum A n m i (xs : nat -> R) : csr_wf A n -> (i < n)%nat -> (forall c, In c (scol A) -> (c < m)%nat) -> distinct (csr_entries A n) ->
  sumR (row_len A i) (fun t => g (row_val A i t) * xs (row_col A i t)) = mvR m (gget A) xs i.
Proof.
  intros W Hi Hc D.
  pose (h := @heap_of R [map xs (seq 0 m); repeat 0 n]).
  pose proof (spmv_R h (gcsr A) n m (gget A) 1 0%nat 0 1%nat i (gcsr_wf A n W) Hi Hc (gcsr_distinct A n W D)
    (fun i' j' Hi' _ => gget_ok A n i' j' h W Hi' D)) as E.
  assert (RX : forall k, (k < m)%nat -> @rd R ROps h 0%nat k = xs k).
  { intros k Hk. unfold rd, h. cbn. rewrite (nth_indep _ 0 (xs 0%nat)) by (now rewrite map_length, seq_length).
    rewrite map_nth, seq_nth by auto. reflexivity. }
  rewrite Rmult_0_l, Rplus_0_r, Rmult_1_l in E.
  replace (mvR m (gget A) (@rd R ROps h 0%nat) i) with (mvR m (gget A) xs i) in E by (apply rsum_ext; intros k Hk; cbn [mul ROps]; now rewrite RX).
  rewrite <- E. unfold spmv_val, row_len, csr_row. rewrite map_length, seq_length. cbn [gcsr sptr scol sval].
  rewrite (fsum_bsum (O := ROps) (R := field_is_ring R ROps R_field)). cbn [mul add zero ROps]. rewrite Rmult_0_l, Rplus_0_l.
  apply rsum_ext. intros t Ht. unfold row_val, row_col.
  pose proof (ptr_le A n (i + 1) W ltac:(lia)) as PL. pose proof W as (W1 & W2 & W3 & W4 & W5).
  rewrite nth_g by lia. rewrite RX; [cbn; ring|]. apply Hc, nth_In. lia.
Qed.
End Stored.

Section Sparse.
Context {T : Type} (Op : Ops T) (val : T -> R) (fin : T -> Prop) (prd : T -> T -> T -> Prop) (u eta omega : R) (I : Ieee Op val fin prd u eta omega).
Local Notation vv := (vv val).
Local Notation vm := (vm val).
Local Notation vfin := (vfin fin).
Local Notation size := (size val).

(** Every stored value of row i, and every entry of x it is multiplied by, is finite. *)
Definition row_fin (A : csr T) (i : nat) (x : nat -> T) : Prop :=
  forall j v, In ((i, j), v) (csr_row A i) -> fin v /\ fin (x j).
Lemma row_fin_iff A i x : row_fin A i x <-> vfin (row_len A i) (row_val A i) /\ vfin (row_len A i) (fun t => x (row_col A i t)).
Proof.
  unfold row_fin, row_len, csr_row. rewrite map_length, seq_length. split.
  - intros H. split; intros t Ht; specialize (H (row_col A i t) (row_val A i t)); apply H; apply in_map_iff;
      exists (nth i (sptr A) 0%nat + t)%nat; (split; [reflexivity|apply in_seq; lia]).
  - intros [H1 H2] j v Hin. apply in_map_iff in Hin as (k & Ek & Hk). apply in_seq in Hk. injection Ek as <- <-.
    specialize (H1 (k - nth i (sptr A) 0)%nat ltac:(lia)). specialize (H2 (k - nth i (sptr A) 0)%nat ltac:(lia)).
    unfold row_val, row_col in *. replace (nth i (sptr A) 0 + (k - nth i (sptr A) 0))%nat with k in * by lia. auto.
Qed.

Section Row.
Variables (A : csr T) (n m : nat) (a : nat -> nat -> T) (x : nat -> T) (i : nat).
Hypotheses (W : csr_wf A n) (Hi : (i < n)%nat) (Hc : forall c, In c (scol A) -> (c < m)%nat) (D : distinct (csr_entries A n))
  (Ha : forall i j, (i < n)%nat -> (j < m)%nat -> csr_get A i j tt = Ok (a i j) tt).
Lemma row_dot : dotR (row_len A i) (vv (row_val A i)) (vv (fun t => x (row_col A i t))) = mvR m (vm a) (vv x) i.
Proof.
  etransitivity; [exact (stored_sum val A n m i (fun j => val (x j)) W Hi Hc D)|]. apply rsum_ext. intros k Hk. cbn [mul ROps].
  rewrite (gget_val val A n m a i k tt) by (auto; apply i_zero). reflexivity.
Qed.
Lemma row_absdot : dotR (row_len A i) (vabs (vv (row_val A i))) (vabs (vv (fun t => x (row_col A i t)))) = mvR m (mabs (vm a)) (vabs (vv x)) i.
Proof.
  etransitivity; [exact (stored_sum (fun v => Rabs (val v)) A n m i (fun j => Rabs (val (x j))) W Hi Hc D)|]. apply rsum_ext. intros k Hk. cbn [mul ROps].
  rewrite (gget_val (fun v => Rabs (val v)) A n m a i k tt); auto. destruct (i_zero (Ieee := I)) as [_ ->]. apply Rabs_R0.
Qed.
Lemma row_size : size (row_len A i) (fun t => x (row_col A i t)) <= size m x.
Proof.
  assert (E : size (row_len A i) (fun t => x (row_col A i t)) = mvR m (gget (fun _ : T => 1) A) (fun j => Rabs (val (x j))) i).
  { rewrite <- (stored_sum (fun _ : T => 1) A n m i _ W Hi Hc D). apply rsum_ext. intros. unfold vabs, PropIeee.vv. ring. }
  rewrite E. apply bsum_le. intros k Hk. cbn [mul ROps]. unfold vabs, PropIeee.vv.
  pose proof (gget_range (fun _ : T => 1) A n i k 0 1 W Hi D ltac:(lra) ltac:(intros; lra)) as [G1 G2].
  rewrite <- (Rmult_1_l (Rabs (val (x k)))) at 2. apply Rmult_le_compat_r; [apply Rabs_pos|auto].
Qed.
End Row.

(** mul(alpha, A, x, beta, y), y different from x, each row with the number of its stored entries. *)
Theorem C77_spmv : forall dbg n m (A : csr T) (a : nat -> nat -> T) alpha x beta y (h : heap T),
  csr_wf A n -> scol A <> [] -> csr_shape A h = Ok (n, m) h -> fits_u32 n = true -> distinct (csr_entries A n) ->
  (forall i j, (i < n)%nat -> (j < m)%nat -> csr_get A i j tt = Ok (a i j) tt) ->
  len h x = m -> len h y = n -> x <> y ->
  exists h', sp_mul dbg alpha A x beta y h = Ok y h' /\ unchanged_except [y] h h' /\ next h' = next h /\ len h' y = n /\
    forall i, (i < n)%nat -> let c := length (csr_row A i) in
      (fin (rd h' y i) -> fin beta /\ fin (rd h y i) /\ ((0 < c)%nat -> fin alpha) /\ row_fin A i (rd h x) /\
        Rabs (val (rd h' y i) - (val alpha * mvR m (vm a) (vv (rd h x)) i + val beta * val (rd h y i))) <=
          gamma u (c + 2) * (Rabs (val alpha) * mvR m (mabs (vm a)) (vabs (vv (rd h x))) i + Rabs (val beta * val (rd h y i)))
            + (INR c + 1 + size m (rd h x)) * eta * (1 + gamma u (c + 2))) /\
      (fin beta -> fin (rd h y i) -> fin alpha -> row_fin A i (rd h x) ->
        (forall j v, In ((i, j), v) (csr_row A i) -> Rabs (val alpha * val v) <= omega) ->
        (Rabs (val alpha) * mvR m (mabs (vm a)) (vabs (vv (rd h x))) i + Rabs (val beta * val (rd h y i))
           + (INR c + 1 + size m (rd h x)) * eta) * (1 + gamma u (c + 2)) <= omega -> fin (rd h' y i)).
Proof.
  intros dbg n m A a alpha x beta y h W Hne Hsh Hf D Ha Hx Hy Nxy.
  destruct (C32_rows_partial T Op dbg n m A alpha x beta y h W Hne Hsh Hf Hx Hy Nxy) as (h' & E & U & Nx & L & V).
  exists h'. split; auto. split; auto. split; auto. split; auto. intros i Hi c. rewrite V by auto. rewrite <- spmv_val_fold.
  assert (Hc : forall c, In c (scol A) -> (c < m)%nat).
  { intros c' Hin. destruct (max_elem_ok (scol A) h Hne) as (mx & Ex & _ & Mx); unfold csr_shape, bind in Hsh; rewrite Ex in Hsh;
      injection Hsh as _ <-; specialize (Mx c' Hin); lia. }
  assert (EV : spmv_val h A alpha x beta y i =
    fsum c (mul beta (rd h y i)) (fun k => mul (mul alpha (row_val A i k)) ((fun t => rd h x (row_col A i t)) k))).
  { unfold spmv_val, c, csr_row. now rewrite map_length, seq_length. }
  rewrite EV.
  pose proof (entry_ieee Op val fin prd u eta omega I c _ beta (rd h y i) alpha (row_val A i) (fun t => rd h x (row_col A i t)) (or_introl eq_refl)) as [E1 E2].
  pose proof (row_dot A n m a (rd h x) i W Hi Hc D Ha) as R1. pose proof (row_absdot A n m a (rd h x) i W Hi Hc D Ha) as R2.
  pose proof (row_size A n m (rd h x) i W Hi Hc D) as R3. change (row_len A i) with c in R1, R2, R3.
  rewrite R1, R2 in E1. rewrite R2 in E2. pose proof (g1_pos (I := I) (c + 2)) as G. pose proof (i_eta (Ieee := I)) as He.
  pose proof (pos_INR c) as Pc.
  assert (K : (INR c + 1 + size c (fun t => rd h x (row_col A i t))) * eta <= (INR c + 1 + size m (rd h x)) * eta).
  { apply Rmult_le_compat_r; lra. }
  split.
  - intros F. destruct (E1 F) as (F1 & F2 & F3 & F4 & F5 & B). split; auto. split; auto. split; auto.
    split; [apply row_fin_iff; auto|]. eapply Rle_trans; [exact B|]. apply Rplus_le_compat_l. apply Rmult_le_compat_r; lra.
  - intros F1 F2 F3 F4 F5 B. apply row_fin_iff in F4 as [F6 F7]. apply E2; auto.
    + intros k Hk. apply (F5 (row_col A i k)). unfold c, csr_row in *. rewrite map_length, seq_length in Hk. apply in_map_iff.
      exists (nth i (sptr A) 0%nat + k)%nat. split; [reflexivity|apply in_seq; lia].
    + eapply Rle_trans; [|exact B]. apply Rmult_le_compat_r; lra.
Qed.

(** A * x, as a new vector. *)
Theorem C77_sp_operator : forall dbg n m (A : csr T) (a : nat -> nat -> T) x (h : heap T),
  csr_wf A n -> scol A <> [] -> csr_shape A h = Ok (n, m) h -> fits_u32 n = true -> distinct (csr_entries A n) ->
  (forall i j, (i < n)%nat -> (j < m)%nat -> csr_get A i j tt = Ok (a i j) tt) -> isvec h x m ->
  exists y h', sp_op_mul dbg A x h = Ok y h' /\ newvec h h' y n (rd h' y) /\
    forall i, (i < n)%nat -> let c := length (csr_row A i) in
      (fin (rd h' y i) -> row_fin A i (rd h x) /\
        Rabs (val (rd h' y i) - mvR m (vm a) (vv (rd h x)) i) <=
          gamma u (c + 1) * mvR m (mabs (vm a)) (vabs (vv (rd h x))) i + INR c * eta * (1 + gamma u (c + 1))) /\
      (row_fin A i (rd h x) ->
        (mvR m (mabs (vm a)) (vabs (vv (rd h x))) i + INR c * eta) * (1 + gamma u (c + 1)) <= omega -> fin (rd h' y i)).
Proof.
  intros dbg n m A a x h W Hne Hsh Hf D Ha (Lx & Hx).
  assert (Hc : forall c, In c (scol A) -> (c < m)%nat).
  { intros c Hin. destruct (max_elem_ok (scol A) h Hne) as (mx & Ex & _ & Mx). unfold csr_shape, bind in Hsh. rewrite Ex in Hsh.
    injection Hsh as _ <-. specialize (Mx c Hin). lia. }
  set (h1 := halloc h (repeat zero n)).
  assert (Hxy : x <> next h) by lia.
  assert (M1 : forall q, q <> next h -> mem h1 q = mem h q) by (intros; apply mem_halloc_other; auto).
  assert (L1 : len h1 (next h) = n). { unfold len, h1. rewrite mem_halloc_same. apply repeat_length. }
  assert (L2 : len h1 x = m). { unfold len. rewrite M1 by auto. exact Hx. }
  destruct (post_ok _ _ _ (sp_rows n A one x zero (next h) h1 W Hf ltac:(now rewrite L2) ltac:(lia) Hxy)) as (r & h' & E & -> & (Fr & Nx & Ly & V)).
  exists (next h), h'. split.
  - unfold sp_op_mul. cbv [bind vsize assert_ noexcept]. rewrite Hsh. cbn [fst snd]. unfold len in Hx.
    rewrite Hx, !Nat.eqb_refl, andb_false_r. change (alloc (repeat zero n) h) with (Ok (next h) h1). cbv iota beta. rewrite E. reflexivity.
  - assert (Nn : next h1 = S (next h)) by reflexivity. split; [|].
    { split; [|split; [lia|split]].
      + split; [lia|]. intros q Hq. rewrite Fr by lia. apply M1. lia.
      + split; lia.
      + auto. }
    intros i Hi c. rewrite V. destruct (Nat.ltb_spec i n); [|lia].
    assert (EV : spmv_val h1 A one x zero (next h) i =
      fsum c (mul zero zero) (fun k => mul (mul one (row_val A i k)) ((fun t => rd h x (row_col A i t)) k))).
    { unfold spmv_val, c, csr_row. rewrite map_length, seq_length.
      assert (Z : rd h1 (next h) i = zero). { unfold rd, h1. rewrite mem_halloc_same, nth_repeat. reflexivity. }
      rewrite Z. apply fsum_ext. intros k Hk. unfold rd. now rewrite M1 by auto. }
    rewrite EV.
    pose proof (op_entry_ieee Op val fin prd u eta omega I c (row_val A i) (fun t => rd h x (row_col A i t))) as [E1 E2].
    pose proof (row_dot A n m a (rd h x) i W Hi Hc D Ha) as R1. pose proof (row_absdot A n m a (rd h x) i W Hi Hc D Ha) as R2.
    change (row_len A i) with c in R1, R2. rewrite R1, R2 in E1. rewrite R2 in E2. split.
    + intros F. destruct (E1 F) as (F1 & F2 & B). split; auto. apply row_fin_iff; auto.
    + intros F B. apply row_fin_iff in F as [F1 F2]. now apply E2.
Qed.
End Sparse.

(** ** C78: element-wise operations *)
Section Elementwise.
Context {T : Type} (Op : Ops T) (val : T -> R) (fin : T -> Prop) (prd : T -> T -> T -> Prop) (u eta omega : R) (I : Ieee Op val fin prd u eta omega).

(** Sums, differences and multiples: one rounding per entry, and an underflow for the multiples;
    negation is exact. *)
Theorem C78_operators : forall v1 v2 alpha (h : heap T),
  (v1 < next h)%nat -> (v2 < next h)%nat -> fits_u32 (len h v1) = true -> len h v1 = len h v2 ->
  vsettled prd (len h v1) (rd h v1) -> vsettled prd (len h v1) (rd h v2) ->
  (exists h', op_add_d v1 v2 h = Ok (next h) h' /\ forall i, (i < len h v1)%nat ->
     let a := rd h v1 i in let b := rd h v2 i in let r := rd h' (next h) i in
     (fin r -> fin a /\ fin b /\ Rabs (val r - (val a + val b)) <= u * Rabs (val a + val b)) /\
     (fin a -> fin b -> Rabs (val a + val b) <= omega -> fin r)) /\
  (exists h', op_sub_d v1 v2 h = Ok (next h) h' /\ forall i, (i < len h v1)%nat ->
     let a := rd h v1 i in let b := rd h v2 i in let r := rd h' (next h) i in
     (fin r -> fin a /\ fin b /\ Rabs (val r - (val a - val b)) <= u * Rabs (val a - val b)) /\
     (fin a -> fin b -> Rabs (val a - val b) <= omega -> fin r)) /\
  (exists h', op_neg_d v1 h = Ok (next h) h' /\ forall i, (i < len h v1)%nat ->
     let a := rd h v1 i in let r := rd h' (next h) i in (fin r <-> fin a) /\ val r = - val a) /\
  (exists h', op_scale_d alpha v1 h = Ok (next h) h' /\ forall i, (i < len h v1)%nat ->
     let a := rd h v1 i in let r := rd h' (next h) i in
     (fin r -> fin alpha /\ fin a /\ Rabs (val r - val alpha * val a) <= u * Rabs (val alpha * val a) + eta) /\
     (fin alpha -> fin a -> Rabs (val alpha * val a) <= omega -> fin r)).
Proof.
  intros v1 v2 alpha h H1 H2 Hf L S1 S2.
  destruct (C01_operators_dyn T Op v1 v2 alpha h H1 H2 Hf L) as ((ha & E1 & M1 & _) & (hb & E2 & M2 & _) & (hc & E3 & M3 & _) & (hd & E4 & M4 & _) & _).
  split; [|split; [|split]]; eexists; (split; [eassumption|]); intros i Hi; cbv zeta; unfold rd, len in *.
  - rewrite M2, (map2_nth _ _ _ _ zero zero) by auto. specialize (S1 i Hi). specialize (S2 i Hi). unfold rd in S1, S2. split.
    + intros F. destruct (i_add _ _ F) as (a & b & A & B & K). apply see_settled in A as [A ->]; auto. apply see_settled in B as [B ->]; auto.
    + intros A B K. apply i_add_fin; auto. intros a b Wa Wb. apply see_settled in Wa as [_ ->]; auto. apply see_settled in Wb as [_ ->]; auto.
  - rewrite M3, (map2_nth _ _ _ _ zero zero) by auto. specialize (S1 i Hi). specialize (S2 i Hi). unfold rd in S1, S2. split.
    + intros F. destruct (i_sub _ _ F) as (a & b & A & B & K). apply see_settled in A as [A ->]; auto. apply see_settled in B as [B ->]; auto.
    + intros A B K. apply i_sub_fin; auto. intros a b Wa Wb. apply see_settled in Wa as [_ ->]; auto. apply see_settled in Wb as [_ ->]; auto.
  - rewrite M1, (map_nth_in _ _ _ zero) by auto. apply i_opp.
  - rewrite M4, (map_nth_in _ _ _ zero) by auto. split; [apply i_mul|apply i_mul_fin].
Qed.

(** axpy: y := alpha x + y. *)
Theorem C78_axpy : forall alpha x y (h : heap T), fits_u32 (len h x) = true -> len h x = len h y -> vsettled prd (len h x) (rd h y) ->
  exists h', axpy_d alpha x y h = Ok y h' /\ forall i, (i < len h x)%nat ->
    let a := rd h x i in let b := rd h y i in let r := rd h' y i in
    (fin r -> fin alpha /\ fin a /\ fin b /\
      Rabs (val r - (val alpha * val a + val b)) <= gamma u 2 * (Rabs (val alpha * val a) + Rabs (val b)) + eta * (1 + gamma u 1)) /\
    (fin alpha -> fin a -> fin b -> (Rabs (val alpha * val a) + Rabs (val b) + eta) * (1 + gamma u 1) <= omega -> fin r).
Proof.
  intros alpha x y h Hf L Sy. destruct (C01_axpy_dyn T Op alpha x y h ltac:(auto) ltac:(auto)) as (h' & E & M & _).
  exists h'. split; [auto|]. intros i Hi. cbv zeta. unfold rd, len in *. rewrite M, (map2_nth _ _ _ _ zero zero) by auto.
  specialize (Sy i Hi). unfold rd in Sy. set (a := nth i (mem h x) zero). set (b := nth i (mem h y) zero). pose proof (i_range (Ieee := I)) as Hu. pose proof (i_eta (Ieee := I)) as He.
  split.
  - intros F. destruct (add_ieee _ _ F) as (wm & wb & Fm & Fb & t & Nt & Et). apply see_settled in Fb as [Fb ->]; auto.
    destruct (see_mul_ieee _ _ _ Fm) as (Fal & Fa & s & e & Ns & Be & Es).
    split; auto. split; auto. split; auto. rewrite Et, Es.
    replace (_ - _) with ((val alpha * val a * (s * t) - val alpha * val a) + (val b * t - val b) + e * t) by ring.
    eapply Rle_trans; [apply Rabs_triang|]. apply Rplus_le_compat.
    + eapply Rle_trans; [apply Rabs_triang|]. rewrite Rmult_plus_distr_l. apply Rplus_le_compat; apply (near_err Hu).
      * change 2%nat with (1 + 1)%nat. now apply (near_mul Hu).
      * apply (near_mono Hu 1); auto.
    + rewrite Rabs_mult. apply Rmult_le_compat; try apply Rabs_pos; auto. apply (near_le (I := I) _ _ Nt).
  - intros Fal Fa Fb B. pose proof (g1_pos (I := I) 1) as G. pose proof (Rabs_pos (val alpha * val a)). pose proof (Rabs_pos (val b)).
    assert (Fm : fin (mul alpha a)). { apply i_mul_fin; auto. nra. }
    apply i_add_fin; auto. intros wm wb Wm Wb. apply see_settled in Wb as [_ ->]; auto. destruct (see_mul_ieee _ _ _ Wm) as (_ & _ & s & e & Ns & Be & ->).
    eapply Rle_trans; [|exact B]. eapply Rle_trans; [apply Rabs_triang|].
    assert (Rabs (val alpha * val a * s + e) <= Rabs (val alpha * val a) * (1 + gamma u 1) + eta).
    { eapply Rle_trans; [apply Rabs_triang|]. rewrite Rabs_mult. pose proof (near_le (I := I) _ _ Ns). nra. }
    nra.
Qed.

(** v / alpha, computed as (1 / alpha) * v: the reciprocal of alpha may overflow although the
    quotients do not, see C82. *)
Theorem C78_quotient : forall v alpha (h : heap T), (v < next h)%nat -> fits_u32 (len h v) = true -> fin alpha ->
  exists h', op_div_d v alpha h = Ok (next h) h' /\ forall i, (i < len h v)%nat ->
    let a := rd h v i in let r := rd h' (next h) i in
    (fin r -> fin a /\ val alpha <> 0 /\
      Rabs (val r - val a / val alpha) <= gamma u 2 * Rabs (val a / val alpha) + eta * (1 + Rabs (val a)) * (1 + gamma u 1)) /\
    (fin a -> val alpha <> 0 -> Rabs (/ val alpha) <= omega ->
      Rabs (val a) * (Rabs (/ val alpha) * (1 + gamma u 1) + eta) <= omega -> fin r).
Proof.
  intros v alpha h Hv Hf Fal. destruct (post_ok _ _ _ (op_div_d_ok alpha v h Hv Hf)) as (r0 & h' & E & -> & Hm & Hu' & Hn).
  exists h'; split; [exact E|]. intros i Hi. cbv zeta. unfold rd, len in *. rewrite Hm, (map_nth_in _ _ _ zero) by auto.
  set (a := nth i (mem h v) zero). pose proof (i_range (Ieee := I)) as Hu. pose proof (i_eta (Ieee := I)) as He.
  destruct (i_one (Ieee := I)) as [F1 V1]. split.
  - intros F. destruct (mul_ieee _ _ F) as (Fq & Fa & t & e2 & Nt & Be2 & Et).
    destruct (div_ieee _ _ Fq Fal) as (_ & Nz & s & e & Ns & Be & Es). split; auto. split; auto. rewrite Et, Es, V1.
    replace (_ - _) with ((val a / val alpha * (s * t) - val a / val alpha) + (e * (val a) * t + e2)) by (field; auto).
    eapply Rle_trans; [apply Rabs_triang|]. apply Rplus_le_compat.
    + apply (near_err Hu). change 2%nat with (1 + 1)%nat. now apply (near_mul Hu).
    + pose proof (near_le (I := I) _ _ Nt) as Bt. pose proof (Rabs_pos (val a)). pose proof (Rabs_pos t). pose proof (Rabs_pos e).
      pose proof (g1_pos (I := I) 1) as G. eapply Rle_trans; [apply Rabs_triang|]. rewrite !Rabs_mult.
      assert (Rabs e * Rabs (val a) * Rabs t <= eta * Rabs (val a) * (1 + gamma u 1)).
      { apply Rmult_le_compat; auto. apply Rmult_le_pos; auto. apply Rmult_le_compat_r; auto. }
      nra.
  - intros Fa Nz B1 B2.
    assert (Fq : fin (div one alpha)). { apply i_div_fin; auto. rewrite V1. unfold Rdiv. now rewrite Rmult_1_l. }
    apply i_mul_fin; auto. destruct (div_ieee _ _ Fq Fal) as (_ & _ & s & e & Ns & Be & Es). rewrite Es, V1.
    eapply Rle_trans; [|exact B2]. rewrite Rabs_mult, Rmult_comm. apply Rmult_le_compat_l; [apply Rabs_pos|].
    eapply Rle_trans; [apply Rabs_triang|]. unfold Rdiv. rewrite Rmult_1_l, Rabs_mult.
    apply Rplus_le_compat; auto. apply Rmult_le_compat_l; [apply Rabs_pos|]. apply (near_le (I := I) _ _ Ns).
Qed.

Lemma diff_ieee a b c d :
  (fin (sub (mul a b) (mul c d)) -> (fin a /\ fin b /\ fin c /\ fin d) /\
    Rabs (val (sub (mul a b) (mul c d)) - (val a * val b - val c * val d)) <=
      gamma u 2 * (Rabs (val a * val b) + Rabs (val c * val d)) + 2 * eta * (1 + gamma u 1)) /\
  (fin a -> fin b -> fin c -> fin d -> (Rabs (val a * val b) + Rabs (val c * val d) + 2 * eta) * (1 + gamma u 1) <= omega ->
    fin (sub (mul a b) (mul c d))).
Proof.
  pose proof (i_range (Ieee := I)) as Hu. pose proof (i_eta (Ieee := I)) as He. pose proof (g1_pos (I := I) 1) as G.
  pose proof (Rabs_pos (val a * val b)) as P1. pose proof (Rabs_pos (val c * val d)) as P2. split.
  - intros F. destruct (sub_ieee _ _ F) as (w & w' & Fm & Fb & t & Nt & Et). destruct (see_mul_ieee _ _ _ Fm) as (Fal & Fa & s & e & Ns & Be & Es).
    destruct (see_mul_ieee _ _ _ Fb) as (Fc & Fd & r & e2 & Nr & Be2 & Er). split; auto. rewrite Et, Es, Er.
    replace (_ - _) with ((val a * val b * (s * t) - val a * val b) + - (val c * val d * (r * t) - val c * val d) + (e * t + - (e2 * t))) by ring.
    eapply Rle_trans; [apply Rabs_triang|]. apply Rplus_le_compat.
    + eapply Rle_trans; [apply Rabs_triang|]. rewrite Rabs_Ropp, Rmult_plus_distr_l. apply Rplus_le_compat; apply (near_err Hu);
        change 2%nat with (1 + 1)%nat; now apply (near_mul Hu).
    + eapply Rle_trans; [apply Rabs_triang|]. rewrite Rabs_Ropp, !Rabs_mult. pose proof (near_le (I := I) _ _ Nt) as Bt. pose proof (Rabs_pos t).
      assert (Rabs e * Rabs t <= eta * (1 + gamma u 1)) by (apply Rmult_le_compat; try apply Rabs_pos; auto).
      assert (Rabs e2 * Rabs t <= eta * (1 + gamma u 1)) by (apply Rmult_le_compat; try apply Rabs_pos; auto). lra.
  - intros Fa Fb Fc Fd B.
    assert (Fm : fin (mul a b)). { apply i_mul_fin; auto. nra. }
    assert (Fn : fin (mul c d)). { apply i_mul_fin; auto. nra. }
    apply i_sub_fin; auto. intros w w' Wm Wn. destruct (see_mul_ieee _ _ _ Wm) as (_ & _ & s & e & Ns & Be & ->). destruct (see_mul_ieee _ _ _ Wn) as (_ & _ & r & e2 & Nr & Be2 & ->).
    eapply Rle_trans; [|exact B]. unfold Rminus. eapply Rle_trans; [apply Rabs_triang|]. rewrite Rabs_Ropp.
    assert (Rabs (val a * val b * s + e) <= Rabs (val a * val b) * (1 + gamma u 1) + eta).
    { eapply Rle_trans; [apply Rabs_triang|]. rewrite Rabs_mult. pose proof (near_le (I := I) _ _ Ns). nra. }
    assert (Rabs (val c * val d * r + e2) <= Rabs (val c * val d) * (1 + gamma u 1) + eta).
    { eapply Rle_trans; [apply Rabs_triang|]. rewrite Rabs_mult. pose proof (near_le (I := I) _ _ Nr). nra. }
    nra.
Qed.

(** The cross product. *)
Theorem C78_cross : forall dbg dx dy dr x y vr (h : heap T), len h x = 3%nat -> len h y = 3%nat -> len h vr = 3%nat ->
  exists h', cross3 dbg dx dy dr x y vr h = Ok vr h' /\
    forall i j k, (i = 0 /\ j = 1 /\ k = 2 \/ i = 1 /\ j = 2 /\ k = 0 \/ i = 2 /\ j = 0 /\ k = 1)%nat ->
      let p := val (rd h x j) * val (rd h y k) in let q := val (rd h x k) * val (rd h y j) in let r := rd h' vr i in
      (fin r -> (fin (rd h x j) /\ fin (rd h y k) /\ fin (rd h x k) /\ fin (rd h y j)) /\
        Rabs (val r - (p - q)) <= gamma u 2 * (Rabs p + Rabs q) + 2 * eta * (1 + gamma u 1)) /\
      (fin (rd h x j) -> fin (rd h y k) -> fin (rd h x k) -> fin (rd h y j) ->
        (Rabs p + Rabs q + 2 * eta) * (1 + gamma u 1) <= omega -> fin r).
Proof.
  intros dbg dx dy dr x y vr h Lx Ly Lr. destruct (C08_cross3 T Op dbg dx dy dr x y vr h Lx Ly Lr) as (h' & E & M & _).
  exists h'. split; [auto|]. intros i j k H. cbv zeta.
  assert (RD : forall p, rd h' vr p = nth p (mem h' vr) zero) by reflexivity.
  destruct H as [(-> & -> & ->)|[(-> & -> & ->)|(-> & -> & ->)]]; rewrite RD, M; cbn [nth];
    match goal with |- context [sub (mul ?a ?b) (mul ?c ?d)] => destruct (diff_ieee a b c d) as [D1 D2]; rewrite ?(Rmult_comm (val d) (val c)) in *; tauto end.
Qed.
End Elementwise.

Print Assumptions C77_spmv.
Print Assumptions C77_sp_operator.
Print Assumptions C78_operators.
Print Assumptions C78_axpy.
Print Assumptions C78_quotient.
Print Assumptions C78_cross.
