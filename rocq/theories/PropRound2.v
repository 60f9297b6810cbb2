(** * Properties C68, C69: sparse products and element-wise operations in rounded arithmetic *)
From Coq Require Import Reals Lra Lia Permutation.
From Verif Require Import Base Scalar BaseLemmas Spec Sums RealVec ModelVec ModelMat SpecMat ModelSparse SpecSparse ProofSparse ProofSparseCsr
  PropSparse ProofVec ProofVecProp PropVec ProofSpmv PropSpmv SpecRound Rounding ProofRound ProofRound2 ProofRound3
  ModelPacked ProofPacked PropPacked ModelSolvers ProofChol ProofCholMath PropChol ProofCholSolve PropCholSolve PropRound.
Local Open Scope R_scope.

Local Notation mvR := (@mvmul R ROps).
Local Notation sumR := (@bsum R ROps).

Lemma nth_abs (l : list R) k : nth k (map Rabs l) 0 = Rabs (nth k l 0).
Proof. rewrite <- (map_nth Rabs). now rewrite Rabs_R0. Qed.

(** ** C68: sparse matrix times vector *)
Section Sparse.
Context (O : Ops R) (u : R) (AX : Approx O u).

Lemma row_ROps (A : csr R) i : @csr_row R O A i = @csr_row R ROps A i.
Proof. unfold csr_row. now rewrite ax_zero. Qed.
Lemma entries_ROps (A : csr R) n : @csr_entries R O A n = @csr_entries R ROps A n.
Proof. unfold csr_entries. apply flat_map_ext. intros. apply row_ROps. Qed.
Lemma get_ROps {S} (A : csr R) i j (s : S) : @csr_get R O S A i j s = @csr_get R ROps S A i j s.
Proof. unfold csr_get, bind. destruct (csr_find A i j s) as [[k|] |e| | | |]; auto. now rewrite ax_zero. Qed.

(** The same positions with the absolute values. *)
Definition acsr (A : csr R) : csr R := mkCsr (map Rabs (sval A)) (sptr A) (scol A).
Lemma acsr_wf A n : csr_wf A n -> csr_wf (acsr A) n.
Proof. intros (W1 & W2 & W3 & W4 & W5). unfold csr_wf, acsr. cbn [sval sptr scol]. rewrite map_length. auto. Qed.
Lemma acsr_get {S} A i j (s : S) v : @csr_get R ROps S A i j s = Ok v s -> @csr_get R ROps S (acsr A) i j s = Ok (Rabs v) s.
Proof.
  unfold csr_get, bind. change (csr_find (acsr A) i j s) with (csr_find A i j s).
  destruct (csr_find A i j s) as [[k|] s1|e| | | |]; try discriminate.
  - cbn [acsr sval]. unfold vec_at. rewrite nth_error_map. destruct (nth_error (sval A) k); [|discriminate].
    unfold ret. cbn. congruence.
  - unfold ret. intros E. injection E as <- <-. cbn. now rewrite Rabs_R0.
Qed.
Lemma acsr_row A i : @csr_row R ROps (acsr A) i = map (fun e => (fst e, Rabs (snd e))) (@csr_row R ROps A i).
Proof.
  unfold csr_row. rewrite map_map. cbn [acsr sptr scol sval]. apply map_ext. intros k. cbn. f_equal.
  apply nth_abs.
Qed.
Lemma acsr_entries A n : @csr_entries R ROps (acsr A) n = map (fun e => (fst e, Rabs (snd e))) (@csr_entries R ROps A n).
Proof. unfold csr_entries. rewrite flat_map_concat_map, flat_map_concat_map, concat_map, map_map. f_equal. apply map_ext. intros. apply acsr_row. Qed.
Lemma acsr_distinct A n : distinct (@csr_entries R ROps A n) -> distinct (@csr_entries R ROps (acsr A) n).
Proof. unfold distinct. rewrite acsr_entries, map_map. cbn. auto. Qed.

(** In R the accumulation of a row is the product with the matrix of element reads. *)
Lemma spmv_R (h : heap R) A n m (a : nat -> nat -> R) alpha x beta y i :
  csr_wf A n -> (i < n)%nat -> (forall c, In c (scol A) -> (c < m)%nat) -> distinct (@csr_entries R ROps A n) ->
  (forall i j, (i < n)%nat -> (j < m)%nat -> @csr_get R ROps (heap R) A i j h = Ok (a i j) h) ->
  @spmv_val R ROps h A alpha x beta y i = alpha * mvR m a (@rd R ROps h x) i + beta * @rd R ROps h y i.
Proof.
  intros W Hi Hc D Ha. rewrite (spmv_val_sum (Op := ROps) (R := field_is_ring R ROps R_field) h A n m) by auto.
  cbn [add mul ROps]. do 2 f_equal. apply (bsum_ext (O := ROps)). intros k Hk. cbn [mul ROps]. f_equal.
  destruct (csr_get_ok (Op := ROps) A n i k h W Hi) as (v & Ev & Rv). rewrite (Ha i k Hi Hk) in Ev. injection Ev as <-.
  now apply (total_reads (R := field_is_ring R ROps R_field)).
Qed.

Lemma spmv_round (h : heap R) A n m (a : nat -> nat -> R) alpha x beta y i :
  csr_wf A n -> (i < n)%nat -> (forall c, In c (scol A) -> (c < m)%nat) -> distinct (csr_entries A n) ->
  (forall i j, (i < n)%nat -> (j < m)%nat -> csr_get A i j h = Ok (a i j) h) ->
  Rabs (spmv_val h A alpha x beta y i - (alpha * mvR m a (rd h x) i + beta * rd h y i)) <=
    gamma u (length (csr_row A i) + 2) * (Rabs alpha * mvR m (mabs a) (vabs (rd h x)) i + Rabs (beta * rd h y i)).
Proof.
  intros W Hi Hc D Ha. rewrite entries_ROps in D.
  assert (Ha' : forall i j, (i < n)%nat -> (j < m)%nat -> @csr_get R ROps (heap R) A i j h = Ok (a i j) h) by (intros; rewrite <- get_ROps; auto).
  assert (ER : forall p k, rd h p k = @rd R ROps h p k) by (intros; unfold rd; now rewrite ax_zero).
  pose (ha := mkHeap (fun p => map Rabs (mem h p)) (next h)).
  assert (EA : forall p k, @rd R ROps ha p k = Rabs (rd h p k)).
  { intros p k. rewrite ER. unfold rd. cbn [mem ha]. apply nth_abs. }
  assert (Ga : forall i j, (i < n)%nat -> (j < m)%nat -> @csr_get R ROps (heap R) (acsr A) i j ha = Ok (mabs a i j) ha).
  { intros i' j' Hi' Hj'. destruct (csr_get_ok (Op := ROps) (acsr A) n i' j' ha (acsr_wf A n W) Hi') as (v & Ev & Rv).
    rewrite Ev. f_equal. pose proof (acsr_get A i' j' h _ (Ha' i' j' Hi' Hj')) as E2.
    destruct (csr_get_ok (Op := ROps) (acsr A) n i' j' h (acsr_wf A n W) Hi') as (v2 & Ev2 & Rv2). rewrite E2 in Ev2. injection Ev2 as <-.
    rewrite <- (total_reads (R := field_is_ring R ROps R_field) _ i' j' v (acsr_distinct A n D) Rv).
    now apply (total_reads (R := field_is_ring R ROps R_field) _ i' j' _ (acsr_distinct A n D)). }
  pose proof (spmv_R h A n m a alpha x beta y i W Hi Hc D Ha') as E1.
  pose proof (spmv_R ha (acsr A) n m (mabs a) (Rabs alpha) x (Rabs beta) y i (acsr_wf A n W) Hi Hc (acsr_distinct A n D) Ga) as E2.
  replace (mvR m (mabs a) (@rd R ROps ha x) i) with (mvR m (mabs a) (vabs (rd h x)) i) in E2
    by (apply (bsum_ext (O := ROps)); intros; cbn [mul ROps]; unfold vabs; now rewrite EA).
  rewrite EA, <- Rabs_mult in E2. rewrite <- E2.
  replace (alpha * mvR m a (rd h x) i + beta * rd h y i) with (@spmv_val R ROps h A alpha x beta y i).
  2:{ rewrite E1. f_equal; [f_equal; apply (bsum_ext (O := ROps)); intros; now rewrite ER|now rewrite ER]. }
  unfold spmv_val. cbn [acsr sptr scol sval]. unfold csr_row. rewrite map_length, seq_length.
  set (c := (nth (i + 1) (sptr A) 0 - nth i (sptr A) 0)%nat). set (p := nth i (sptr A) 0%nat).
  cbn [mul zero ROps]. rewrite !(fsum_bsum (O := ROps) (R := field_is_ring R ROps R_field)), EA, <- Rabs_mult, <- !ER.
  assert (NA : forall k, nth k (map Rabs (sval A)) 0 = Rabs (nth k (sval A) 0)) by (intros k; apply nth_abs).
  rewrite (rsum_ext c (fun k => Rabs alpha * nth (p + k) (map Rabs (sval A)) 0 * @rd R ROps ha x (nth (p + k) (scol A) 0%nat))
    (fun k => Rabs (alpha * nth (p + k) (sval A) 0 * rd h x (nth (p + k) (scol A) 0%nat)))) by (intros; now rewrite NA, EA, !Rabs_mult).
  rewrite (rsum_ext c (fun k => alpha * nth (p + k) (sval A) 0 * @rd R ROps h x (nth (p + k) (scol A) 0%nat))
    (fun k => alpha * nth (p + k) (sval A) 0 * rd h x (nth (p + k) (scol A) 0%nat))) by (intros; now rewrite ER).
  apply (fsum_round c (beta * rd h y i) 1); [apply mul_near| |lia].
  intros k Hk. rewrite ax_zero. destruct (mul_near (u := u) alpha (nth (p + k) (sval A) 0)) as (s & Ns & Es).
  destruct (mul_near (u := u) (mul alpha (nth (p + k) (sval A) 0)) (rd h x (nth (p + k) (scol A) 0%nat))) as (t & Nt & Et).
  exists (s * t). split; [change 2%nat with (1 + 1)%nat; now apply (near_mul u_range)|]. rewrite Et, Es. ring.
Qed.

(** mul(alpha, A, x, beta, y), y different from x: each entry is off by as many roundings as its
    row has stored entries, plus two. *)
Theorem C68_spmv : forall dbg n m (A : csr R) (a : nat -> nat -> R) alpha x beta y (h : heap R),
  csr_wf A n -> scol A <> [] -> csr_shape A h = Ok (n, m) h -> fits_u32 n = true -> distinct (csr_entries A n) ->
  (forall i j, (i < n)%nat -> (j < m)%nat -> csr_get A i j h = Ok (a i j) h) ->
  len h x = m -> len h y = n -> x <> y ->
  exists h', sp_mul dbg alpha A x beta y h = Ok y h' /\ unchanged_except [y] h h' /\ next h' = next h /\ len h' y = n /\
    forall i, (i < n)%nat -> Rabs (rd h' y i - (alpha * mvR m a (rd h x) i + beta * rd h y i)) <=
      gamma u (length (csr_row A i) + 2) * (Rabs alpha * mvR m (mabs a) (vabs (rd h x)) i + Rabs (beta * rd h y i)).
Proof.
  intros dbg n m A a alpha x beta y h W Hne Hsh Hf D Ha Hx Hy Nxy.
  destruct (C32_rows_partial R O dbg n m A alpha x beta y h W Hne Hsh Hf Hx Hy Nxy) as (h' & E & U & Nx & L & V).
  exists h'. split; auto. split; auto. split; auto. split; auto. intros i Hi. rewrite V by auto. rewrite <- spmv_val_fold.
  apply (spmv_round h A n m); auto.
  intros c Hin. destruct (max_elem_ok (scol A) h Hne) as (mx & Ex & _ & Mx); unfold csr_shape, bind in Hsh; rewrite Ex in Hsh;
    injection Hsh as _ <-; specialize (Mx c Hin); lia.
Qed.

(** A * x, as a new vector. *)
Theorem C68_operator : forall dbg n m (A : csr R) (a : nat -> nat -> R) x (h : heap R),
  csr_wf A n -> scol A <> [] -> csr_shape A h = Ok (n, m) h -> fits_u32 n = true -> distinct (csr_entries A n) ->
  (forall S (s : S) i j, (i < n)%nat -> (j < m)%nat -> csr_get A i j s = Ok (a i j) s) -> isvec h x m ->
  exists y h', sp_op_mul dbg A x h = Ok y h' /\ newvec h h' y n (rd h' y) /\
    forall i, (i < n)%nat -> Rabs (rd h' y i - mvR m a (rd h x) i) <=
      gamma u (length (csr_row A i) + 2) * mvR m (mabs a) (vabs (rd h x)) i.
Proof.
  intros dbg n m A a x h W Hne Hsh Hf D Ha (Lx & Hx).
  assert (Hc : forall c, In c (scol A) -> (c < m)%nat).
  { intros c Hin. destruct (max_elem_ok (scol A) h Hne) as (mx & Ex & _ & Mx). unfold csr_shape, bind in Hsh. rewrite Ex in Hsh.
    injection Hsh as _ <-. specialize (Mx c Hin). lia. }
  set (h1 := halloc h (repeat zero n)).
  assert (Hxy : x <> next h) by lia.
  assert (M1 : forall q, q <> next h -> mem h1 q = mem h q) by (intros; apply mem_halloc_other; auto).
  assert (L1 : len h1 (next h) = n). { unfold len, h1. rewrite mem_halloc_same. apply repeat_length. }
  assert (L2 : len h1 x = m). { unfold len. rewrite M1 by auto. exact Hx. }
  destruct (post_ok _ _ _ (sp_rows n A one x zero (next h) h1 W Hf ltac:(now rewrite L2) ltac:(lia) Hxy)) as (r & h' & E & -> & (Fr & Nx & Ly & V)).
  exists (next h), h'. split.
  - unfold sp_op_mul. cbv [bind vsize assert_ noexcept]. rewrite Hsh. cbn [fst snd]. unfold len in Hx.
    rewrite Hx, !Nat.eqb_refl, andb_false_r. change (alloc (repeat zero n) h) with (Ok (next h) h1). cbv iota beta. rewrite E. reflexivity.
  - assert (Nn : next h1 = S (next h)) by reflexivity. split; [|].
    { split; [|split; [lia|split]].
      + split; [lia|]. intros q Hq. rewrite Fr by lia. apply M1. lia.
      + split; lia.
      + auto. }
    intros i Hi. rewrite V. destruct (Nat.ltb_spec i n); [|lia].
    pose proof (spmv_round h1 A n m a one x zero (next h) i W Hi Hc D ltac:(auto)) as B.
    rewrite ax_one, ax_zero, !Rmult_0_l, Rabs_R0, !Rplus_0_r, Rmult_1_l, Rabs_R1, Rmult_1_l in B.
    assert (ER : forall k, rd h1 x k = rd h x k) by (intros; unfold rd; now rewrite M1 by auto).
    replace (mvR m a (rd h1 x) i) with (mvR m a (rd h x) i) in B by (apply (bsum_ext (O := ROps)); intros; now rewrite ER).
    replace (mvR m (mabs a) (vabs (rd h1 x)) i) with (mvR m (mabs a) (vabs (rd h x)) i) in B
      by (apply (bsum_ext (O := ROps)); intros; unfold vabs; now rewrite ER).
    rewrite ax_one, ax_zero. exact B.
Qed.
End Sparse.

(** ** C69: element-wise operations, quotients and cross products *)
Section Elementwise.
Context (O : Ops R) (u : R) (AX : Approx O u).

Lemma map2_nth {A B C} (f : A -> B -> C) l1 l2 i a b c : (i < length l1)%nat -> length l1 = length l2 ->
  nth i (map2 f l1 l2) c = f (nth i l1 a) (nth i l2 b).
Proof.
  revert l2 i; induction l1 as [|x l1 IH]; intros [|y l2] i Hi L; cbn in *; try lia. destruct i; auto. apply IH; lia.
Qed.
Lemma map_nth_in {A B} (f : A -> B) l i a b : (i < length l)%nat -> nth i (map f l) b = f (nth i l a).
Proof. revert i; induction l as [|x l IH]; intros [|i] Hi; cbn in *; try lia; auto. apply IH. lia. Qed.
Lemma gamma1_ge : u <= gamma u 1.
Proof.
  pose proof u_range as Hu. unfold gamma. cbn [pow]. rewrite Rmult_1_r.
  apply Rmult_le_reg_r with (1 - u); [lra|]. rewrite Rmult_minus_distr_r, Rinv_l by lra. nra.
Qed.

(** Sums, differences and multiples: one rounding per entry. *)
Theorem C69_operators : forall v1 v2 alpha (h : heap R),
  (v1 < next h)%nat -> (v2 < next h)%nat -> fits_u32 (len h v1) = true -> len h v1 = len h v2 ->
  (exists h', op_add_d v1 v2 h = Ok (next h) h' /\ forall i, (i < len h v1)%nat ->
     Rabs (rd h' (next h) i - (rd h v1 i + rd h v2 i)) <= u * Rabs (rd h v1 i + rd h v2 i)) /\
  (exists h', op_sub_d v1 v2 h = Ok (next h) h' /\ forall i, (i < len h v1)%nat ->
     Rabs (rd h' (next h) i - (rd h v1 i - rd h v2 i)) <= u * Rabs (rd h v1 i - rd h v2 i)) /\
  (exists h', op_neg_d v1 h = Ok (next h) h' /\ forall i, (i < len h v1)%nat -> rd h' (next h) i = - rd h v1 i) /\
  (exists h', op_scale_d alpha v1 h = Ok (next h) h' /\ forall i, (i < len h v1)%nat ->
     Rabs (rd h' (next h) i - alpha * rd h v1 i) <= u * Rabs (alpha * rd h v1 i)).
Proof.
  intros v1 v2 alpha h H1 H2 Hf L.
  destruct (C01_operators_dyn R O v1 v2 alpha h H1 H2 Hf L) as ((ha & E1 & M1 & _) & (hb & E2 & M2 & _) & (hc & E3 & M3 & _) & (hd & E4 & M4 & _) & _).
  split; [|split; [|split]]; eexists; (split; [eassumption|]); intros i Hi; unfold rd, len in *.
  - rewrite M2, (map2_nth _ _ _ _ zero zero) by auto. apply ax_add.
  - rewrite M3, (map2_nth _ _ _ _ zero zero) by auto. apply ax_sub.
  - rewrite M1, (map_nth_in _ _ _ zero) by auto. apply ax_opp.
  - rewrite M4, (map_nth_in _ _ _ zero) by auto. apply ax_mul.
Qed.

(** axpy: two roundings, the second on the sum. *)
Theorem C69_axpy : forall alpha x y (h : heap R), fits_u32 (len h x) = true -> len h x = len h y ->
  exists h', axpy_d alpha x y h = Ok y h' /\ forall i, (i < len h x)%nat ->
    Rabs (rd h' y i - (alpha * rd h x i + rd h y i)) <= gamma u 2 * (Rabs (alpha * rd h x i) + Rabs (rd h y i)).
Proof.
  intros alpha x y h Hf L. destruct (C01_axpy_dyn R O alpha x y h ltac:(auto) ltac:(auto)) as (h' & E & M & _).
  exists h'. split; [auto|]. intros i Hi. unfold rd, len in *. rewrite M, (map2_nth _ _ _ _ zero zero) by auto.
  set (a := nth i (mem h x) zero). set (b := nth i (mem h y) zero).
  destruct (mul_near (u := u) alpha a) as (s & Ns & Es). destruct (add_near (u := u) (mul alpha a) b) as (t & Nt & Et).
  rewrite Et, Es. pose proof u_range as Hu.
  replace ((alpha * a * s + b) * t - (alpha * a + b)) with ((alpha * a * (s * t) - alpha * a) + (b * t - b)) by ring.
  eapply Rle_trans; [apply Rabs_triang|]. rewrite Rmult_plus_distr_l. apply Rplus_le_compat.
  - apply (pert_close (u := u)). exists (s * t). split; auto. change 2%nat with (1 + 1)%nat. now apply (near_mul Hu).
  - apply (pert_close (u := u)). exists t. split; auto. apply (near_mono Hu 1); auto.
Qed.

(** v / alpha is computed as a multiplication by 1 / alpha: two roundings, whatever alpha. *)
Theorem C69_quotient : forall v alpha (h : heap R),
  (v < next h)%nat -> fits_u32 (len h v) = true -> alpha <> 0 ->
  exists h', op_div_d v alpha h = Ok (next h) h' /\ forall i, (i < len h v)%nat ->
    Rabs (rd h' (next h) i - rd h v i / alpha) <= gamma u 2 * Rabs (rd h v i / alpha).
Proof.
  intros v alpha h Hv Hf Ha. from_post (op_div_d_ok alpha v h Hv Hf).
  match goal with H : fresh1 _ _ _ _ _ |- _ => destruct H as (-> & Hm & Hu & Hn) end.
  eexists; split; [eassumption|]. intros i Hi. unfold rd, len in *. rewrite Hm, (map_nth_in _ _ _ zero) by auto.
  set (a := nth i (mem h v) zero). destruct (div_near (u := u) one alpha Ha) as (s & Ns & Es).
  destruct (mul_near (u := u) (div one alpha) a) as (t & Nt & Et). rewrite Et, Es, ax_one.
  apply (pert_close (u := u)). exists (s * t). split; [change 2%nat with (1 + 1)%nat; now apply (near_mul u_range)|]. field. auto.
Qed.

Lemma diff_of_products a b c d : Rabs (sub (mul a b) (mul c d) - (a * b - c * d)) <= gamma u 2 * (Rabs (a * b) + Rabs (c * d)).
Proof.
  destruct (mul_near (u := u) a b) as (s & Ns & Es). destruct (mul_near (u := u) c d) as (r & Nr & Er).
  destruct (sub_near (u := u) (mul a b) (mul c d)) as (t & Nt & Et). rewrite Et, Es, Er. pose proof u_range as Hu.
  replace ((a * b * s - c * d * r) * t - (a * b - c * d)) with ((a * b * (s * t) - a * b) + - (c * d * (r * t) - c * d)) by ring.
  eapply Rle_trans; [apply Rabs_triang|]. rewrite Rabs_Ropp, Rmult_plus_distr_l.
  apply Rplus_le_compat; apply (pert_close (u := u)); eexists; (split; [|reflexivity]); change 2%nat with (1 + 1)%nat; now apply (near_mul Hu).
Qed.

(** The cross product: two roundings relative to the products of the formula. *)
Theorem C69_cross : forall dbg dx dy dr x y vr (h : heap R), len h x = 3%nat -> len h y = 3%nat -> len h vr = 3%nat ->
  exists h', cross3 dbg dx dy dr x y vr h = Ok vr h' /\
    forall i j k, (i = 0 /\ j = 1 /\ k = 2 \/ i = 1 /\ j = 2 /\ k = 0 \/ i = 2 /\ j = 0 /\ k = 1)%nat ->
      Rabs (rd h' vr i - (rd h x j * rd h y k - rd h x k * rd h y j)) <=
        gamma u 2 * (Rabs (rd h x j * rd h y k) + Rabs (rd h x k * rd h y j)).
Proof.
  intros dbg dx dy dr x y vr h Lx Ly Lr. destruct (C08_cross3 R O dbg dx dy dr x y vr h Lx Ly Lr) as (h' & E & M & _).
  exists h'. split; [auto|]. intros i j k H.
  assert (RD : forall p, rd h' vr p = nth p (mem h' vr) zero) by reflexivity.
  destruct H as [(-> & -> & ->)|[(-> & -> & ->)|(-> & -> & ->)]]; rewrite RD, M; cbn [nth];
    match goal with |- Rabs (sub (mul ?a ?b) (mul ?c ?d) - _) <= _ => rewrite ?(Rmult_comm d c); apply diff_of_products end.
Qed.
End Elementwise.

(** ** C70: the factorisation of a sufficiently definite matrix succeeds in rounded arithmetic *)
Section Success.
Context (O : Ops R) (u : R) (AX : Approx O u).

Lemma outcome_success m (h h0 : heap R) F n (A : nat -> nat -> R) : ctor_outcome m h h0 F n A ->
  gamma u (n + 1) < 1 -> pos_def_margin u (n + 1) n (symf A) ->
  exists h', m h = Ok F h' /\ forall i, (i < n)%nat -> 0 < fac h' F i i.
Proof.
  rewrite Nat.add_1_r. intros (h' & Fr & Out) Hg HM.
  assert (NF : forall c, failed n A (fac h' F) c -> False).
  { intros c (Hc & R1 & R2 & _ & B & _). exact (breakdown n A (fac h' F) c Hg Hc R1 R2 B HM). }
  destruct Out as [[D Q]|[[D Q]|(c & Hc & D & Q)]]; [|exfalso; eauto|exfalso; eauto].
  exists h'. split; auto. intros i Hi. apply (diag_pos A). now apply D.
Qed.
Theorem C70_square : forall n A (h : heap R), ismat h A n n -> fits_u32 n = true ->
  gamma u (n + 1) < 1 -> pos_def_margin u (n + 1) n (symf (mget h A)) ->
  exists F h', dyn_cholesky A h = Ok F h' /\ isfac h' F n /\ forall i, (i < n)%nat -> 0 < fac h' F i i.
Proof.
  intros n A h HA Hf Hg HM. pose proof (dyn_outcome n A h HA Hf) as Out.
  destruct (outcome_success _ _ _ _ _ _ Out Hg HM) as (h' & E & P). exists (mkChol n (next h) Square), h'. split; auto. split; auto.
  now apply (dyn_ctor_round O u AX n A h _ h' HA Hf E).
Qed.
Theorem C70_packed : forall n H (h : heap R), herm_wf H n -> fits_u32 n = true ->
  gamma u (n + 1) < 1 -> pos_def_margin u (n + 1) n (symf (hmat H)) ->
  exists F h', tri_cholesky H h = Ok F h' /\ isfac h' F n /\ forall i, (i < n)%nat -> 0 < fac h' F i i.
Proof.
  intros n H h HA Hf Hg HM. pose proof (tri_outcome n H h HA Hf) as Out.
  destruct (outcome_success _ _ _ _ _ _ Out Hg HM) as (h' & E & P). exists (mkChol n (next h) Triangle), h'. split; auto. split; auto.
  now apply (tri_ctor_round O u AX n H h _ h' HA Hf E).
Qed.

(** Put together: construct and solve, with an error bound in terms of the diagonal of A only. *)
Theorem C70_solve : forall dbg n A (h : heap R), ismat h A n n -> (Z.of_nat n < 2 ^ 31)%Z ->
  gamma u (n + 1) < 1 -> pos_def_margin u (n + 1) n (symf (mget h A)) ->
  exists F h1, dyn_cholesky A h = Ok F h1 /\ ext h h1 /\
    forall rhs, isvec h rhs n ->
      vec_outofplace (backward u (3 * n + 1) n (fun i j => sqrt (mget h A i i) * sqrt (mget h A j j) / (1 - gamma u (n + 1))) (symf (mget h A)))
        (chol_solve_vec dbg F) h1 n rhs.
Proof.
  intros dbg n A h HA Hn Hg HM.
  assert (Hf : fits_u32 n = true) by (unfold fits_u32; apply Z.ltb_lt; lia).
  destruct (C70_square n A h HA Hf Hg HM) as (F & h1 & E & I & P). exists F, h1. split; auto.
  assert (X : ext h h1).
  { destruct (dyn_outcome n A h HA Hf) as (h' & Fr & Out). destruct (ctor_ext _ _ _ _ _ Fr eq_refl) as [X _].
    destruct Out as [[D Q]|[[D Q]|(c & Hc & D & Q)]]; rewrite Q in E; try discriminate; injection E as _ <-; exact X. }
  split; auto. intros rhs [V1 V2].
  assert (V' : isvec h1 rhs n). { split; [destruct X; lia|]. unfold len. destruct X as [_ X]. now rewrite X. }
  destruct (C64_square O u AX dbg n A h F h1 HA Hn E P) as (Q & _). eapply vec_out_mono; [|apply Q; exact V'].
  intros b x (A' & W & S). exists A'. split; auto. intros i j Hi Hj. eapply Rle_trans; [apply W; auto|].
  apply Rmult_le_compat_l; [apply (gamma_pos u_range)|]. now apply (C64_no_growth O u AX n A h F h1).
Qed.
End Success.
