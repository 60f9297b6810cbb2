(** * Property C104: signs and order survive rounding *)
From Coq Require Import ZArith Reals Lra Lia.
From Verif Require Import Base Scalar BaseLemmas Spec Sums ModelVec ProofVec ModelMat ProofMat SpecMat PropMat ModelPacked ProofPacked PropPacked
  ModelSolvers ProofTdma ProofTdmaBits PropTdma ProofChol PropChol ProofCholSolve PropCholSolve PropRepeat
  ProofVecProp PropVec RealVec SpecRound Rounding PropRound ModelIter ProofIlu PropIlu ProofBackSub PropGmresAny ModelSparse SpecSparse ProofSparse ProofSparseCsr PropSparse PropSpmv PropGmresAny SpecMono.
Local Open Scope R_scope.

Lemma quot_pos x d : 0 <= x -> 0 < d -> 0 <= x / d.
Proof. intros Hx Hd. apply Rmult_le_pos; [auto|]. left. now apply Rinv_0_lt_compat. Qed.
Lemma quot_le1 x d : x <= d -> 0 < d -> x / d <= 1.
Proof. intros Hx Hd. apply Rmult_le_reg_r with d; [auto|]. unfold Rdiv. rewrite Rmult_assoc, Rinv_l by lra. lra. Qed.
Section Mono.
Context {T : Type} {Op : Ops T} {val : T -> R} {fin : T -> Prop} {rnd : R -> R} {I : Monotone Op val fin rnd}.
Notation vfin n x := (forall i, (i < n)%nat -> fin (x i)).

Lemma rnd_0 : rnd 0 = 0.
Proof. destruct (m_zero (Monotone := I)) as [F V]. rewrite <- V. now apply m_id. Qed.
Lemma rnd_1 : rnd 1 = 1.
Proof. destruct (m_one (Monotone := I)) as [F V]. rewrite <- V. now apply m_id. Qed.
Lemma rle x y : x <= y -> rnd x <= rnd y.
Proof. apply m_le. Qed.
Lemma rpos x : 0 <= x -> 0 <= rnd x.
Proof. intros H. rewrite <- rnd_0. now apply rle. Qed.
Lemma rneg x : x <= 0 -> rnd x <= 0.
Proof. intros H. rewrite <- rnd_0. now apply rle. Qed.

Notation RO := (rops rnd).
Notation rsum := (@fsum R RO).
Notation rsub := (@ssub R RO).

(** ** Sums *)
Lemma val_fsum n a f : fin (fsum n a f) -> fin a /\ vfin n f /\ val (fsum n a f) = rsum n (val a) (fun k => val (f k)).
Proof.
  induction n as [|n IH]; cbn [fsum]; intros F; [split; [auto|]; split; [lia|auto]|].
  destruct (m_add _ _ F) as (F1 & F2 & E). destruct (IH F1) as (Fa & Ff & E1).
  split; [auto|]. split. { intros k Hk. destruct (Nat.eq_dec k n) as [->|]; [auto|apply Ff; lia]. }
  rewrite E, E1. reflexivity.
Qed.
Lemma val_ssub n a f : fin (ssub n a f) -> fin a /\ vfin n f /\ val (ssub n a f) = rsub n (val a) (fun k => val (f k)).
Proof.
  induction n as [|n IH]; cbn [ssub]; intros F; [split; [auto|]; split; [lia|auto]|].
  destruct (m_sub _ _ F) as (F1 & F2 & E). destruct (IH F1) as (Fa & Ff & E1).
  split; [auto|]. split. { intros k Hk. destruct (Nat.eq_dec k n) as [->|]; [auto|apply Ff; lia]. }
  rewrite E, E1. reflexivity.
Qed.
Lemma rsum_mono n a b (f g : nat -> R) : a <= b -> (forall k, (k < n)%nat -> f k <= g k) -> rsum n a f <= rsum n b g.
Proof.
  intros H. induction n as [|n IH]; intros K; cbn; [auto|]. apply rle.
  pose proof (K n ltac:(lia)). specialize (IH (fun k Hk => K k ltac:(lia))). lra.
Qed.
Lemma rsub_mono n a b (f g : nat -> R) : a <= b -> (forall k, (k < n)%nat -> g k <= f k) -> rsub n a f <= rsub n b g.
Proof.
  intros H. induction n as [|n IH]; intros K; cbn; [auto|]. apply rle.
  pose proof (K n ltac:(lia)). specialize (IH (fun k Hk => K k ltac:(lia))). lra.
Qed.
Lemma rsum_0 n : rsum n 0 (fun _ => 0) = 0.
Proof. induction n as [|n IH]; cbn; [auto|]. rewrite IH, Rplus_0_l. apply rnd_0. Qed.
Lemma rsub_0 n : rsub n 0 (fun _ => 0) = 0.
Proof. induction n as [|n IH]; cbn; [auto|]. rewrite IH, Rminus_0_r. apply rnd_0. Qed.
Lemma rsum_ge n a (f : nat -> R) : (forall k, (k < n)%nat -> 0 <= f k) -> rnd a = a -> a <= rsum n a f.
Proof.
  intros K E. induction n as [|n IH]; cbn; [lra|]. rewrite <- E at 1. apply rle.
  pose proof (K n ltac:(lia)). specialize (IH (fun k Hk => K k ltac:(lia))). lra.
Qed.

(** A sum of products. *)
Definition between (x y : T) : Prop := 0 <= val x <= val y.
Lemma mul_between x x' y y' : fin (mul x y) -> fin (mul x' y') -> between x x' -> between y y' -> between (mul x y) (mul x' y').
Proof.
  intros F F' [H1 H2] [H3 H4]. unfold between. destruct (m_mul _ _ F) as (_ & _ & ->), (m_mul _ _ F') as (_ & _ & ->). split.
  - apply rpos. now apply Rmult_le_pos.
  - apply rle. now apply Rmult_le_compat.
Qed.
Lemma fsum_between n a b f g : fin (fsum n a f) -> fin (fsum n b g) -> between a b ->
  (forall k, (k < n)%nat -> fin (f k) -> fin (g k) -> between (f k) (g k)) -> between (fsum n a f) (fsum n b g).
Proof.
  intros F G [A1 A2] H. unfold between. destruct (val_fsum _ _ _ F) as (_ & Ff & ->), (val_fsum _ _ _ G) as (_ & Fg & ->). split.
  - rewrite <- (rsum_0 n). apply rsum_mono; auto. intros k Hk. apply (H k Hk); auto.
  - apply rsum_mono; auto. intros k Hk. apply (H k Hk); auto.
Qed.

(** alpha A x + beta y with data that are not negative: not negative, and not smaller for larger data. *)
Theorem C104_matvec : forall dbg alpha beta A x y A' x' y' n m (h g : heap T),
  fits_u32 n = true -> fits_u32 m = true -> ismat h A n m -> isvec h x m -> isvec h y n -> mp A <> y ->
  ismat g A' n m -> isvec g x' m -> isvec g y' n -> mp A' <> y' ->
  0 <= val alpha -> 0 <= val beta -> (forall i, (i < n)%nat -> between (rd h y i) (rd g y' i)) ->
  (forall i k, (i < n)%nat -> (k < m)%nat -> between (mget h A i k) (mget g A' i k)) -> (forall k, (k < m)%nat -> between (rd h x k) (rd g x' k)) ->
  exists h' g', mulv dbg alpha A x beta y h = Ok y h' /\ mulv dbg alpha A' x' beta y' g = Ok y' g' /\
    forall i, (i < n)%nat -> fin (rd h' y i) -> fin (rd g' y' i) -> 0 <= val (rd h' y i) <= val (rd g' y' i).
Proof.
  intros dbg alpha beta A x y A' x' y' n m h g Fn Fm HA Hx Hy Ny HA' Hx' Hy' Ny' Pa Pb By BA Bx.
  destruct (C14_matvec_exact T Op dbg alpha A x beta y n m h Fn Fm HA Hx Hy Ny) as (h' & E & SV); destruct SV as (_ & _ & V).
  destruct (C14_matvec_exact T Op dbg alpha A' x' beta y' n m g Fn Fm HA' Hx' Hy' Ny') as (g' & E' & SV'); destruct SV' as (_ & _ & V').
  exists h', g'. split; [exact E|]. split; [exact E'|]. intros i Hi. rewrite V, V' by auto. intros F F'.
  apply fsum_between; auto.
  - destruct (val_fsum _ _ _ F) as (F1 & _), (val_fsum _ _ _ F') as (F1' & _). apply mul_between; auto. split; lra.
  - intros k Hk Fk Fk'. destruct (m_mul _ _ Fk) as (F1 & _), (m_mul _ _ Fk') as (F1' & _). apply mul_between; auto. apply mul_between; auto. split; lra.
Qed.
(** The same with a sparse matrix, for two matrices with the same stored positions. *)
Theorem C104_spmv : forall dbg alpha beta (A A' : csr T) x y x' y' n m (h g : heap T),
  csr_wf A n -> scol A <> nil -> csr_shape A h = Ok (n, m) h -> fits_u32 n = true -> len h x = m -> len h y = n -> x <> y ->
  csr_wf A' n -> csr_shape A' g = Ok (n, m) g -> len g x' = m -> len g y' = n -> x' <> y' -> sptr A' = sptr A -> scol A' = scol A ->
  0 <= val alpha -> 0 <= val beta -> (forall i, (i < n)%nat -> between (rd h y i) (rd g y' i)) ->
  (forall k, (k < length (sval A))%nat -> between (nth k (sval A) zero) (nth k (sval A') zero)) ->
  (forall k, (k < m)%nat -> between (rd h x k) (rd g x' k)) ->
  exists h' g', sp_mul dbg alpha A x beta y h = Ok y h' /\ sp_mul dbg alpha A' x' beta y' g = Ok y' g' /\
    forall i, (i < n)%nat -> fin (rd h' y i) -> fin (rd g' y' i) -> 0 <= val (rd h' y i) <= val (rd g' y' i).
Proof.
  intros dbg alpha beta A A' x y x' y' n m h g W Hne Hsh Hf Hx Hy Nxy W' Hsh' Hx' Hy' Nxy' Ep Ec Pa Pb By BA Bx.
  destruct (C32_rows_partial T Op dbg n m A alpha x beta y h W Hne Hsh Hf Hx Hy Nxy) as (h' & E & _ & _ & _ & V).
  destruct (C32_rows_partial T Op dbg n m A' alpha x' beta y' g W' ltac:(now rewrite Ec) Hsh' Hf Hx' Hy' Nxy') as (g' & E' & _ & _ & _ & V').
  exists h', g'. split; [exact E|]. split; [exact E'|]. intros i Hi. rewrite V, V' by auto. rewrite <- !spmv_val_fold. unfold spmv_val. rewrite Ep, Ec. intros F F'.
  assert (Hc : forall c, In c (scol A) -> (c < m)%nat).
  { intros c Hin. destruct (max_elem_ok (scol A) h Hne) as (mx & Ex & _ & Mx); unfold csr_shape, bind in Hsh; rewrite Ex in Hsh;
    injection Hsh as _ <-; specialize (Mx c Hin); lia. }
  apply fsum_between; auto.
  - destruct (val_fsum _ _ _ F) as (F1 & _), (val_fsum _ _ _ F') as (F1' & _). apply mul_between; auto. split; lra.
  - intros k Hk Fk Fk'. destruct (m_mul _ _ Fk) as (F1 & _), (m_mul _ _ Fk') as (F1' & _).
    assert (Hl : (nth i (sptr A) 0 + k < length (sval A))%nat).
    { pose proof (ptr_le A n (i + 1) W ltac:(lia)). lia. }
    apply mul_between; auto.
    + apply mul_between; auto. split; lra.
    + apply Bx, Hc, nth_In. destruct W as (-> & _). exact Hl.
Qed.
(** The inner product. *)
Theorem C104_dot : forall x y x' y' (h g : heap T), let n := len h x in
  fits_u32 n = true -> (0 < n)%nat -> n = len h y -> n = len g x' -> n = len g y' ->
  (forall k, (k < n)%nat -> between (rd h x k) (rd g x' k)) -> (forall k, (k < n)%nat -> between (rd h y k) (rd g y' k)) ->
  exists r r', dot_d x y h = Ok r h /\ dot_d x' y' g = Ok r' g /\ (fin r -> fin r' -> 0 <= val r <= val r').
Proof.
  intros x y x' y' h g n Hf Hn L1 L2 L3 Bx By.
  destruct (C05_dot_exact_order T Op x y h Hf Hn L1) as [E _]. fold n in E.
  destruct (C05_dot_exact_order T Op x' y' g ltac:(now rewrite <- L2) ltac:(now rewrite <- L2) ltac:(now rewrite <- L2)) as [E' _]. rewrite <- L2 in E'.
  do 2 eexists. split; [exact E|]. split; [exact E'|].
  assert (G : forall k, (k < n)%nat -> fin (lsum (fun i => mul (rd h x i) (rd h y i)) k) -> fin (lsum (fun i => mul (rd g x' i) (rd g y' i)) k) ->
    between (lsum (fun i => mul (rd h x i) (rd h y i)) k) (lsum (fun i => mul (rd g x' i) (rd g y' i)) k)).
  { induction k as [|k IH]; intros Hk F F'; cbn [lsum] in *; [apply mul_between; auto|].
    destruct (m_add _ _ F) as (F1 & F2 & V), (m_add _ _ F') as (F1' & F2' & V').
    destruct (IH ltac:(lia) F1 F1') as [I1 I2]. destruct (mul_between _ _ _ _ F2 F2' (Bx (S k) Hk) (By (S k) Hk)) as [M1 M2].
    unfold between. rewrite V, V'. split; [apply rpos|apply rle]; lra. }
  intros F F'. apply G; auto. lia.
Qed.
(** The norm: larger components give a norm that is not smaller; no component exceeds the norm if the root of its square is itself. *)
Theorem C104_norm2 : forall x x' (h g : heap T), let n := len h x in fits_u32 n = true -> n = len g x' ->
  (forall k, (k < n)%nat -> Rabs (val (rd h x k)) <= Rabs (val (rd g x' k))) ->
  exists r r', norm2_d x h = Ok r h /\ norm2_d x' g = Ok r' g /\ (fin r -> fin r' -> 0 <= val r <= val r').
Proof.
  intros x x' h g n Hf L B. do 2 eexists. split; [now apply norm2_d_ok|]. split; [apply norm2_d_ok; now rewrite <- L|]. fold n. rewrite <- L.
  rewrite <- !fsum_zero_bsum. intros F F'. destruct (m_sqrt _ F) as (F1 & ->), (m_sqrt _ F') as (F1' & ->).
  destruct (val_fsum _ _ _ F1) as (_ & Ff & ->), (val_fsum _ _ _ F1') as (_ & Fg & ->). split; [apply rpos, sqrt_pos|].
  apply rle, sqrt_le_1_alt, rsum_mono; [lra|]. intros k Hk. cbv beta.
  destruct (m_mul _ _ (Ff k Hk)) as (_ & _ & ->), (m_mul _ _ (Fg k Hk)) as (_ & _ & ->). apply rle. specialize (B k Hk).
  apply Rsqr_le_abs_1 in B. exact B.
Qed.
Definition root_exact (v : R) : Prop := rnd (sqrt (rnd (v * v))) = Rabs v.
Theorem C104_norm2_entry : forall x (h : heap T), let n := len h x in fits_u32 n = true ->
  exists r, norm2_d x h = Ok r h /\ (fin r -> forall k, (k < n)%nat -> root_exact (val (rd h x k)) -> Rabs (val (rd h x k)) <= val r).
Proof.
  intros x h n Hf. eexists. split; [now apply norm2_d_ok|]. fold n. rewrite <- fsum_zero_bsum. intros F k Hk E.
  destruct (m_sqrt _ F) as (F1 & ->). destruct (val_fsum _ _ _ F1) as (_ & Ff & ->). rewrite <- E. apply rle, sqrt_le_1_alt.
  clear F F1 E Hf.
  assert (G : forall j, (j <= n)%nat -> 0 <= rsum j (val zero) (fun k => val (mul (rd h x k) (rd h x k))) /\
    ((k < j)%nat -> rnd (val (rd h x k) * val (rd h x k)) <= rsum j (val zero) (fun k => val (mul (rd h x k) (rd h x k))))).
  { induction j as [|j IH]; intros Hj; cbn.
    - split; [|lia]. destruct (m_zero (Monotone := I)) as [_ ->]. lra.
    - destruct (IH ltac:(lia)) as [I1 I2]. destruct (m_mul _ _ (Ff j ltac:(lia))) as (_ & _ & Em).
      assert (P : 0 <= val (mul (rd h x j) (rd h x j))) by (rewrite Em; apply rpos, Rle_0_sqr).
      split; [apply rpos; lra|]. intros Hkj. destruct (Nat.eq_dec k j) as [->|N].
      + rewrite <- Em. rewrite <- (m_id (Monotone := I) (mul (rd h x j) (rd h x j)) (Ff j ltac:(lia))) at 1. apply rle. lra.
      + specialize (I2 ltac:(lia)). destruct (m_mul _ _ (Ff k Hk)) as (_ & _ & Ek). rewrite <- Ek.
        rewrite <- (m_id (Monotone := I) (mul (rd h x k) (rd h x k)) (Ff k Hk)). apply rle. rewrite Ek. lra. }
  now apply (G n).
Qed.

(** alpha A B + beta C. *)
Theorem C104_matmat : forall dbg alpha beta A B C A' B' C' n m o (h g : heap T),
  fits_u32 n = true -> fits_u32 m = true -> fits_u32 o = true -> ismat h A n o -> ismat h B o m -> ismat h C n m ->
  ismat g A' n o -> ismat g B' o m -> ismat g C' n m ->
  0 <= val alpha -> 0 <= val beta -> (forall i j, (i < n)%nat -> (j < m)%nat -> between (mget h C i j) (mget g C' i j)) ->
  (forall i k, (i < n)%nat -> (k < o)%nat -> between (mget h A i k) (mget g A' i k)) ->
  (forall k j, (k < o)%nat -> (j < m)%nat -> between (mget h B k j) (mget g B' k j)) ->
  exists h' g', mulm dbg alpha A B beta C h = Ok C h' /\ mulm dbg alpha A' B' beta C' g = Ok C' g' /\
    forall i j, (i < n)%nat -> (j < m)%nat -> fin (mget h' C i j) -> fin (mget g' C' i j) -> 0 <= val (mget h' C i j) <= val (mget g' C' i j).
Proof.
  intros dbg alpha beta A B C A' B' C' n m o h g Fn Fm Fo HA HB HC HA' HB' HC' Pa Pb BC BA BB.
  destruct (C15_matmat_exact T Op dbg alpha A B beta C n m o h Fn Fm Fo HA HB HC) as (h' & E & SV); destruct SV as (_ & _ & V).
  destruct (C15_matmat_exact T Op dbg alpha A' B' beta C' n m o g Fn Fm Fo HA' HB' HC') as (g' & E' & SV'); destruct SV' as (_ & _ & V').
  exists h', g'. split; [exact E|]. split; [exact E'|]. intros i j Hi Hj. rewrite V, V' by auto. intros F F'.
  apply fsum_between; auto.
  - destruct (val_fsum _ _ _ F) as (F1 & _), (val_fsum _ _ _ F') as (F1' & _).
    assert (Bb : between beta beta) by (split; lra). specialize (BC i j Hi Hj). unfold between in *.
    destruct (Nat.eqb (mp A) (mp C) || Nat.eqb (mp B) (mp C)), (Nat.eqb (mp A') (mp C') || Nat.eqb (mp B') (mp C'));
      destruct (m_mul _ _ F1) as (_ & _ & ->), (m_mul _ _ F1') as (_ & _ & ->); (split; [apply rpos, Rmult_le_pos; lra|]); apply rle.
    + apply Rmult_le_compat; lra.
    + rewrite Rmult_comm. apply Rmult_le_compat; lra.
    + rewrite Rmult_comm. apply Rmult_le_compat; lra.
    + apply Rmult_le_compat; lra.
  - intros k Hk Fk Fk'. destruct (m_mul _ _ Fk) as (F1 & _), (m_mul _ _ Fk') as (F1' & _). apply mul_between; auto. apply mul_between; auto. split; lra.
Qed.

(** ** Substitution with triangular matrices without positive entries off the diagonal *)
Definition zup n (F : nat -> nat -> R) : Prop := forall i, (i < n)%nat -> 0 < F i i /\ forall j, (i < j)%nat -> (j < n)%nat -> F i j <= 0.
Definition zlow n (F : nat -> nat -> R) : Prop := forall i j, (j < i)%nat -> (i < n)%nat -> F i j <= 0.
Lemma rmul_anti a x y : a <= 0 -> x <= y -> rnd (a * y) <= rnd (a * x).
Proof. intros. apply rle. now apply Rmult_le_compat_neg_l. Qed.
Lemma rdiv_mono d x y : 0 < d -> x <= y -> rnd (x / d) <= rnd (y / d).
Proof. intros Hd H. apply rle. unfold Rdiv. apply Rmult_le_compat_r; [|auto]. left. now apply Rinv_0_lt_compat. Qed.
Lemma rbwd_mono n F y y' x x' : zup n F -> (forall i, (i < n)%nat -> y i <= y' i) ->
  (forall i, (i < n)%nat -> @ilu_bwd R RO n F y x i) -> (forall i, (i < n)%nat -> @ilu_bwd R RO n F y' x' i) -> forall i, (i < n)%nat -> x i <= x' i.
Proof.
  intros Z Hy H H'. assert (G : forall k i, (i < n)%nat -> (n - 1 - i <= k)%nat -> x i <= x' i).
  { induction k as [k IH] using lt_wf_ind. intros i Hi Hk. rewrite (H i Hi), (H' i Hi). cbn [div mul rops]. destruct (Z i Hi) as [Zd Zo].
    apply rdiv_mono; auto. apply rsub_mono; auto. intros t Ht. cbn [mul rops]. apply rmul_anti; [apply Zo; lia|].
    apply (IH (n - 1 - (S i + t))%nat); lia. }
  intros i Hi. apply (G (n - 1 - i)%nat); auto.
Qed.
Lemma rfwd_mono n F y y' x x' : zlow n F -> (forall i, (i < n)%nat -> 0 < F i i) -> (forall i, (i < n)%nat -> y i <= y' i) ->
  (forall i, (i < n)%nat -> @fwd R RO F y x i) -> (forall i, (i < n)%nat -> @fwd R RO F y' x' i) -> forall i, (i < n)%nat -> x i <= x' i.
Proof.
  intros Z Zd Hy H H'. induction i as [i IH] using lt_wf_ind. intros Hi. rewrite (H i Hi), (H' i Hi). cbn [div mul rops].
  apply rdiv_mono; auto. apply rsub_mono; auto. intros t Ht. cbn [mul rops]. apply rmul_anti; [apply Z; lia|]. apply IH; lia.
Qed.
Lemma rlfwd_mono n F y y' x x' : zlow n F -> (forall i, (i < n)%nat -> y i <= y' i) ->
  (forall i, (i < n)%nat -> @ilu_fwd R RO F y x i) -> (forall i, (i < n)%nat -> @ilu_fwd R RO F y' x' i) -> forall i, (i < n)%nat -> x i <= x' i.
Proof.
  intros Z Hy H H'. induction i as [i IH] using lt_wf_ind. intros Hi. rewrite (H i Hi), (H' i Hi).
  apply rsub_mono; auto. intros t Ht. cbn [mul rops]. apply rmul_anti; [apply Z; lia|]. apply IH; lia.
Qed.
Lemma rzero_sub n (F : nat -> R) : rsub n 0 (fun t => @mul R RO (F t) 0) = 0.
Proof. rewrite <- (rsub_0 n) at 2. apply ssub_ext. intros k _. cbn. rewrite Rmult_0_r. apply rnd_0. Qed.
Lemma rbwd_0 n F i : @ilu_bwd R RO n F (fun _ => 0) (fun _ => 0) i.
Proof. unfold ilu_bwd. rewrite (rzero_sub (n - S i) (fun t => F i (S i + t)%nat)). cbn. unfold Rdiv. now rewrite Rmult_0_l, rnd_0. Qed.
Lemma rfwd_0 F i : @fwd R RO F (fun _ => 0) (fun _ => 0) i.
Proof. unfold fwd. rewrite (rzero_sub i (F i)). cbn. unfold Rdiv. now rewrite Rmult_0_l, rnd_0. Qed.
Lemma rlfwd_0 F i : @ilu_fwd R RO F (fun _ => 0) (fun _ => 0) i.
Proof. unfold ilu_fwd. now rewrite (rzero_sub i (F i)). Qed.

Notation vv x := (fun i : nat => val (x i)).
Notation vm A := (fun i j : nat => val (A i j)).
Lemma val_terms n a (f x : nat -> T) : fin (ssub n a (fun k => mul (f k) (x k))) ->
  fin a /\ (forall k, (k < n)%nat -> fin (f k) /\ fin (x k)) /\
  val (ssub n a (fun k => mul (f k) (x k))) = rsub n (val a) (fun k => @mul R RO (val (f k)) (val (x k))).
Proof.
  intros F. destruct (val_ssub _ _ _ F) as (Fa & Fk & E). split; [auto|].
  split. { intros k Hk. destruct (m_mul _ _ (Fk k Hk)) as (A & B & _). auto. }
  rewrite E. apply ssub_ext. intros k Hk. now destruct (m_mul _ _ (Fk k Hk)) as (_ & _ & ->).
Qed.
Lemma val_bwd n F y x : (forall i, (i < n)%nat -> fin (F i i) /\ val (F i i) <> 0) -> vfin n x -> (forall i, (i < n)%nat -> ilu_bwd n F y x i) ->
  forall i, (i < n)%nat -> fin (y i) /\ @ilu_bwd R RO n (vm F) (vv y) (vv x) i.
Proof.
  intros Hd Fx H i Hi. specialize (Fx i Hi). unfold ilu_bwd in *. rewrite (H i Hi) in Fx. destruct (Hd i Hi) as [Fd Nd].
  destruct (m_div _ _ Fx Fd Nd) as (Fs & E).
  destruct (val_terms (n - S i) (y i) (fun t => F i (S i + t)%nat) (fun t => x (S i + t)%nat) Fs) as (Fy & _ & Es). split; [auto|].
  rewrite (H i Hi), E, Es. reflexivity.
Qed.
Lemma val_fwd n F b y : (forall i, (i < n)%nat -> fin (F i i) /\ val (F i i) <> 0) -> vfin n y -> (forall i, (i < n)%nat -> fwd F b y i) ->
  forall i, (i < n)%nat -> fin (b i) /\ @fwd R RO (vm F) (vv b) (vv y) i.
Proof.
  intros Hd Fx H i Hi. specialize (Fx i Hi). unfold fwd in *. rewrite (H i Hi) in Fx. destruct (Hd i Hi) as [Fd Nd].
  destruct (m_div _ _ Fx Fd Nd) as (Fs & E). destruct (val_terms i (b i) (F i) y Fs) as (Fy & _ & Es). split; [auto|].
  rewrite (H i Hi), E, Es. reflexivity.
Qed.
Lemma val_lfwd n F b y : vfin n y -> (forall i, (i < n)%nat -> ilu_fwd F b y i) ->
  forall i, (i < n)%nat -> fin (b i) /\ @ilu_fwd R RO (vm F) (vv b) (vv y) i.
Proof.
  intros Fx H i Hi. specialize (Fx i Hi). unfold ilu_fwd in *. rewrite (H i Hi) in Fx.
  destruct (val_terms i (b i) (F i) y Fx) as (Fy & _ & Es). split; [auto|]. rewrite (H i Hi). exact Es.
Qed.

(** What is claimed of a solver: with a right-hand side that is not negative the result is not negative; a larger right-hand side does not
    give a smaller result, in any component. *)
Definition keeps_signs n (S : (nat -> T) -> (nat -> T) -> Prop) : Prop :=
  (forall b x, S b x -> vfin n x -> (forall i, (i < n)%nat -> 0 <= val (b i)) -> forall i, (i < n)%nat -> 0 <= val (x i)) /\
  (forall b x b' x', S b x -> S b' x' -> vfin n x -> vfin n x' -> (forall i, (i < n)%nat -> val (b i) <= val (b' i)) ->
    forall i, (i < n)%nat -> val (x i) <= val (x' i)).
Lemma z_nz n F : z_upper val n F -> (forall i, (i < n)%nat -> fin (F i i)) -> forall i, (i < n)%nat -> fin (F i i) /\ val (F i i) <> 0.
Proof. intros Z Fd i Hi. destruct (Z i Hi). split; [auto|lra]. Qed.
Lemma bwd_signs n F : z_upper val n F -> (forall i, (i < n)%nat -> fin (F i i)) -> keeps_signs n (fun y x => forall i, (i < n)%nat -> ilu_bwd n F y x i).
Proof.
  intros Z Fd. pose proof (z_nz n F Z Fd) as N. split.
  - intros y x H Fx P. apply (rbwd_mono n (vm F) (fun _ => 0) (vv y) (fun _ => 0) (vv x)); auto.
    + intros; apply rbwd_0.
    + intros i Hi. now apply (val_bwd n F y x N Fx H).
  - intros y x y' x' H H' Fx Fx' P. apply (rbwd_mono n (vm F) (vv y) (vv y') (vv x) (vv x')); auto; intros i Hi; now apply val_bwd.
Qed.
Lemma lu_signs n F : z_upper val n F -> z_lower val n F -> (forall i, (i < n)%nat -> fin (F i i)) -> keeps_signs n (ilu_solved n F).
Proof.
  intros Z Zl Fd. pose proof (z_nz n F Z Fd) as N. destruct (bwd_signs n F Z Fd) as [B1 B2]. split.
  - intros b x (y & L & U) Fx P. apply (B1 y x U Fx). assert (Fy : vfin n y) by (intros i Hi; now apply (val_bwd n F y x N Fx U)).
    apply (rlfwd_mono n (vm F) (fun _ => 0) (vv b) (fun _ => 0) (vv y)); auto.
    + intros; apply rlfwd_0.
    + intros i Hi. now apply (val_lfwd n F b y Fy L).
  - intros b x b' x' (y & L & U) (y' & L' & U') Fx Fx' P. apply (B2 y x y' x' U U' Fx Fx').
    assert (Fy : vfin n y) by (intros i Hi; now apply (val_bwd n F y x N Fx U)).
    assert (Fy' : vfin n y') by (intros i Hi; now apply (val_bwd n F y' x' N Fx' U')).
    apply (rlfwd_mono n (vm F) (vv b) (vv b') (vv y) (vv y')); auto; intros i Hi.
    + now apply (val_lfwd n F b y Fy L).
    + now apply (val_lfwd n F b' y' Fy' L').
Qed.
Lemma chol_signs n L : (forall i, (i < n)%nat -> fin (L i i) /\ 0 < val (L i i)) -> z_lower val n L -> keeps_signs n (substituted n L).
Proof.
  intros D Zl. assert (N : forall i, (i < n)%nat -> fin (L i i) /\ val (L i i) <> 0) by (intros i Hi; destruct (D i Hi); split; [auto|lra]).
  assert (Z : z_upper val n (fun i j => L j i)). { intros i Hi. split; [now apply D|]. intros j Hj Hn. now apply Zl. }
  assert (Dp : forall i, (i < n)%nat -> 0 < val (L i i)) by (intros i Hi; now apply D).
  destruct (bwd_signs n (fun i j => L j i) Z (fun i Hi => proj1 (N i Hi))) as [B1 B2]. split.
  - intros b x (y & LF & U) Fx P. apply (B1 y x U Fx). assert (Fy : vfin n y) by (intros i Hi; now apply (val_bwd n (fun i j => L j i) y x N Fx U)).
    apply (rfwd_mono n (vm L) (fun _ => 0) (vv b) (fun _ => 0) (vv y)); auto.
    + intros; apply rfwd_0.
    + intros i Hi. now apply (val_fwd n L b y N Fy LF).
  - intros b x b' x' (y & LF & U) (y' & LF' & U') Fx Fx' P. apply (B2 y x y' x' U U' Fx Fx').
    assert (Fy : vfin n y) by (intros i Hi; now apply (val_bwd n (fun i j => L j i) y x N Fx U)).
    assert (Fy' : vfin n y') by (intros i Hi; now apply (val_bwd n (fun i j => L j i) y' x' N Fx' U')).
    apply (rfwd_mono n (vm L) (vv b) (vv b') (vv y) (vv y')); auto; intros i Hi.
    + now apply (val_fwd n L b y N Fy LF).
    + now apply (val_fwd n L b' y' N Fy' LF').
Qed.

(** ** The signs of the factors *)
Lemma rsub_neg n a (f : nat -> R) : a <= 0 -> (forall k, (k < n)%nat -> 0 <= f k) -> rsub n a f <= 0.
Proof. intros Ha Hf. rewrite <- (rsub_0 n). apply rsub_mono; auto. Qed.
Lemma rdiv_neg d x : 0 < d -> x <= 0 -> rnd (x / d) <= 0.
Proof. intros Hd Hx. apply rneg. unfold Rdiv. pose proof (Rinv_0_lt_compat d Hd). nra. Qed.
Lemma term_pos x y : x <= 0 -> y <= 0 -> 0 <= @mul R RO x y.
Proof. intros. cbn. apply rpos. nra. Qed.
(** No positive entry off the diagonal. *)
Definition z_matrix n (A : nat -> nat -> T) : Prop := forall i j, (i < n)%nat -> (j < n)%nat -> i <> j -> val (A i j) <= 0.
Lemma chol_factor_signs n A L : (forall i j, (j < i)%nat -> (i < n)%nat -> val (A i j) <= 0) -> factored n A L ->
  (forall i, (i < n)%nat -> fin (L i i) /\ 0 < val (L i i)) -> z_lower val n L.
Proof.
  intros ZA HF D.
  assert (FL : forall i k, (k < i)%nat -> (i < n)%nat -> fin (L i k)).
  { intros i k Hk Hi. destruct (HF i Hi) as [_ [_ E]]. destruct (D i Hi) as [Fd _]. rewrite E in Fd. destruct (m_sqrt _ Fd) as (Fp & _).
    unfold pivot in Fp. destruct (val_ssub _ _ _ Fp) as (_ & Fk & _). specialize (Fk k Hk). cbv beta in Fk. rewrite m_pow2 in Fk.
    now destruct (m_mul _ _ Fk). }
  assert (G : forall i, (i < n)%nat -> forall j, (j < i)%nat -> val (L i j) <= 0).
  { induction i as [i IHi] using lt_wf_ind. intros Hi. induction j as [j IHj] using lt_wf_ind. intros Hj.
    pose proof (FL i j Hj Hi) as F. destruct (HF i Hi) as [HO _]. specialize (HO j Hj). unfold offrec in HO. rewrite HO in F. rewrite HO.
    destruct (D j ltac:(lia)) as [Fj Pj]. destruct (m_div _ _ F Fj (Rgt_not_eq _ _ Pj)) as (Fs & ->).
    destruct (val_terms j (A i j) (L i) (L j) Fs) as (_ & _ & ->). apply rdiv_neg; auto. apply rsub_neg; [now apply ZA|].
    intros k Hk. apply term_pos; [apply IHj; lia|apply IHi; lia]. }
  intros i j Hj Hi. now apply G.
Qed.
Lemma ilu_factor_signs n A F : z_matrix n A -> ilu_done n n A F -> (forall i j, (i < n)%nat -> (j < n)%nat -> fin (F i j)) ->
  (forall i, (i < n)%nat -> 0 < val (F i i)) -> z_matrix n F.
Proof.
  intros ZA HF FF D.
  assert (G : forall i, (i < n)%nat -> forall j, (j < n)%nat -> i <> j -> val (F i j) <= 0).
  { induction i as [i IHi] using lt_wf_ind. intros Hi. destruct (HF i Hi) as [HL HU].
    assert (GL : forall j, (j < i)%nat -> val (F i j) <= 0).
    { induction j as [j IHj] using lt_wf_ind. intros Hj. specialize (HL j Hj). unfold lrec in HL.
      destruct (nzb (A i j)); [destruct HL as [_ HL]|rewrite HL; apply ZA; lia].
      pose proof (FF i j Hi ltac:(lia)) as K. rewrite HL in K. rewrite HL.
      pose proof (D j ltac:(lia)) as Pj. destruct (m_div _ _ K (FF j j ltac:(lia) ltac:(lia)) (Rgt_not_eq _ _ Pj)) as (Fs & ->).
      destruct (val_terms j (A i j) (F i) (fun k => F k j) Fs) as (_ & _ & ->). apply rdiv_neg; auto. apply rsub_neg; [apply ZA; lia|].
      intros k Hk. apply term_pos; [apply IHj; lia|apply IHi; lia]. }
    intros j Hj Nij. destruct (Nat.lt_ge_cases j i) as [L|L]; [now apply GL|]. specialize (HU j L Hj). unfold urec in HU.
    destruct (nzb (A i j)); [|rewrite HU; apply ZA; lia]. pose proof (FF i j Hi Hj) as K. rewrite HU in K. rewrite HU.
    destruct (val_terms i (A i j) (F i) (fun k => F k j) K) as (_ & _ & ->). apply rsub_neg; [apply ZA; lia|].
    intros k Hk. apply term_pos; [now apply GL|apply IHi; lia]. }
  intros i j Hi Hj. now apply G.
Qed.
Lemma z_matrix_parts n F : z_matrix n F -> (forall i, (i < n)%nat -> 0 < val (F i i)) -> z_upper val n F /\ z_lower val n F.
Proof. intros Z D. split; [intros i Hi; split; [auto|]; intros; apply Z; lia|intros i j Hj Hi; apply Z; lia]. Qed.

(** ** The tridiagonal solver *)
Section Tri.
Variables (n : nat) (dl d du : nat -> T).
Hypothesis Fl : forall i, (S i < n)%nat -> fin (dl i) /\ val (dl i) <= 0.
Hypothesis Fu : forall i, (S i < n)%nat -> fin (du i) /\ val (du i) <= 0.
Hypothesis Fd : forall i, (i < n)%nat -> fin (d i).
Let left i := match i with O => 0 | S k => val (dl k) end.
Hypothesis Dom : forall i, (i < n)%nat -> 0 < left i + val (d i).
Hypothesis Sum : forall i, (S i < n)%nat -> 0 <= left i + val (d i) + val (du i).
(** The pivots. *)
Definition den (p : nat -> T) i : T := match i with O => d 0%nat | S k => add (d (S k)) (mul (dl k) (p k)) end.
Lemma sweep_p b i : fst (sweep dl d du b i) = div (opp (du i)) (den (fun k => fst (sweep dl d du b k)) i).
Proof. destruct i; reflexivity. Qed.
Lemma sweep_q b i : snd (sweep dl d du b i) =
  div (match i with O => b 0%nat | S k => sub (b (S k)) (mul (dl k) (snd (sweep dl d du b k))) end) (den (fun k => fst (sweep dl d du b k)) i).
Proof. destruct i; reflexivity. Qed.
Lemma den_ok b i : (i < n)%nat -> (forall k, (k < i)%nat -> fin (fst (sweep dl d du b k)) /\ 0 <= val (fst (sweep dl d du b k)) <= 1) ->
  let e := den (fun k => fst (sweep dl d du b k)) i in fin e /\ 0 < val e /\ ((S i < n)%nat -> - val (du i) <= val e).
Proof.
  intros Hi IH e. destruct i as [|k].
  - unfold e, den. specialize (Dom 0%nat Hi). unfold left in Dom. split; [now apply Fd|]. split; [lra|]. intros H. specialize (Sum 0%nat H). unfold left in Sum. lra.
  - destruct (IH k ltac:(lia)) as (Fp & P0 & P1). destruct (Fl k Hi) as [Fk Lk]. pose proof (Fd (S k) Hi) as Fdk.
    pose proof (Dom (S k) Hi) as Dk. unfold left in Dk.
    set (p := fst (sweep dl d du b k)) in *.
    assert (FM : fin (mul (dl k) p)).
    { apply (m_mul_fin (Monotone := I) _ _ (dl k)); auto. rewrite Rabs_mult. rewrite (Rabs_pos_eq (val p)) by lra. pose proof (Rabs_pos (val (dl k))). nra. }
    destruct (m_mul _ _ FM) as (_ & _ & VM).
    assert (M1 : val (dl k) <= val (mul (dl k) p)). { rewrite VM. rewrite <- (m_id (Monotone := I) (dl k) Fk) at 1. apply rle. nra. }
    assert (M2 : val (mul (dl k) p) <= 0). { rewrite VM. apply rneg. nra. }
    assert (FE : fin e). { unfold e, den. apply (m_add_fin (Monotone := I) _ _ (d (S k))); auto. fold p. rewrite !Rabs_pos_eq by lra. lra. }
    split; [exact FE|]. destruct (m_add _ _ FE) as (_ & _ & VE). change (val e = rnd (val (d (S k)) + val (mul (dl k) p))) in VE.
    assert (E1 : rnd (val (d (S k)) + val (dl k)) <= val e) by (rewrite VE; apply rle; lra).
    split.
    + apply Rlt_le_trans with (2 := E1). assert (0 <= rnd (val (d (S k)) + val (dl k))) by (apply rpos; lra).
      pose proof (m_add_nz (Monotone := I) (d (S k)) (dl k) Fdk Fk ltac:(lra)). lra.
    + intros H. specialize (Sum (S k) H). unfold left in Sum. destruct (Fu (S k) H) as [Fuk _]. apply Rle_trans with (2 := E1).
      destruct (m_opp (Monotone := I) (du (S k))) as [Fo Vo]. rewrite <- Vo. rewrite <- (m_id (Monotone := I) (opp (du (S k)))) by (now apply Fo).
      rewrite Vo. apply rle. lra.
Qed.
Lemma p_ok b i : (S i < n)%nat -> fin (fst (sweep dl d du b i)) /\ 0 <= val (fst (sweep dl d du b i)) <= 1.
Proof.
  induction i as [i IH] using lt_wf_ind. intros Hi. destruct (den_ok b i ltac:(lia) (fun k Hk => IH k Hk ltac:(lia))) as (Fe & Pe & Le). specialize (Le Hi).
  rewrite sweep_p. set (e := den _ i) in *. destruct (Fu i Hi) as [Fui Ui]. destruct (m_opp (Monotone := I) (du i)) as [Fo Vo].
  assert (Q0 : 0 <= val (opp (du i)) / val e) by (rewrite Vo; apply quot_pos; lra).
  assert (Q1 : val (opp (du i)) / val e <= 1) by (rewrite Vo; apply quot_le1; lra).
  assert (F : fin (div (opp (du i)) e)).
  { destruct (m_one (Monotone := I)) as [F1 V1]. apply (m_div_fin (Monotone := I) _ _ one); auto; [now apply Fo|lra|].
    rewrite V1, Rabs_R1, Rabs_pos_eq by lra. lra. }
  split; [exact F|]. destruct (m_div _ _ F Fe (Rgt_not_eq _ _ Pe)) as (_ & ->). split; [now apply rpos|]. rewrite <- rnd_1. now apply rle.
Qed.
Lemma den_pos b i : (i < n)%nat -> let e := den (fun k => fst (sweep dl d du b k)) i in fin e /\ 0 < val e.
Proof. intros Hi. destruct (den_ok b i Hi (fun k Hk => p_ok b k ltac:(lia))) as (A & B & _). auto. Qed.
Lemma den_same b b' i : den (fun k => fst (sweep dl d du b k)) i = den (fun k => fst (sweep dl d du b' k)) i /\ fst (sweep dl d du b i) = fst (sweep dl d du b' i).
Proof.
  induction i as [|i [_ IH]]; [split; reflexivity|].
  assert (E : den (fun k => fst (sweep dl d du b k)) (S i) = den (fun k => fst (sweep dl d du b' k)) (S i)) by (unfold den; now rewrite IH).
  split; [exact E|]. rewrite !sweep_p. now rewrite E.
Qed.
Lemma swept_fin b x : (0 < n)%nat -> swept n dl d du b x -> vfin n x -> forall i, (i < n)%nat -> fin (snd (sweep dl d du b i)).
Proof.
  intros Hn [H1 H2] Fx i Hi. destruct (Nat.eq_dec i (n - 1)) as [->|N]; [rewrite <- H1; apply Fx; lia|].
  specialize (Fx i Hi). rewrite H2 in Fx by lia. now destruct (m_add _ _ Fx).
Qed.
Lemma q_val b i : (i < n)%nat -> fin (snd (sweep dl d du b i)) ->
  val (snd (sweep dl d du b i)) = rnd ((match i with O => val (b 0%nat) | S k => rnd (val (b (S k)) - rnd (val (dl k) * val (snd (sweep dl d du b k)))) end)
    / val (den (fun k => fst (sweep dl d du b k)) i)).
Proof.
  intros Hi F. destruct (den_pos b i Hi) as [Fe Pe]. rewrite sweep_q in F. rewrite sweep_q. destruct (m_div _ _ F Fe (Rgt_not_eq _ _ Pe)) as (Fs & ->).
  destruct i as [|k]; [reflexivity|]. destruct (m_sub _ _ Fs) as (_ & Fm & ->). now destruct (m_mul _ _ Fm) as (_ & _ & ->).
Qed.
Lemma q_pos b : (forall i, (i < n)%nat -> fin (snd (sweep dl d du b i)) /\ 0 <= val (b i)) -> forall i, (i < n)%nat -> 0 <= val (snd (sweep dl d du b i)).
Proof.
  intros H. induction i as [|i IH]; intros Hi; rewrite q_val by (auto; now apply H); destruct (den_pos b _ Hi) as [_ Pe]; apply rpos, quot_pos; auto.
  - now apply H.
  - apply rpos. destruct (H (S i) Hi) as [_ Pb]. specialize (IH ltac:(lia)). destruct (Fl i Hi) as [_ L].
    assert (rnd (val (dl i) * val (snd (sweep dl d du b i))) <= 0) by (apply rneg; nra). lra.
Qed.
Lemma q_mono b b' : (forall i, (i < n)%nat -> fin (snd (sweep dl d du b i)) /\ fin (snd (sweep dl d du b' i)) /\ val (b i) <= val (b' i)) ->
  forall i, (i < n)%nat -> val (snd (sweep dl d du b i)) <= val (snd (sweep dl d du b' i)).
Proof.
  intros H. assert (Q : forall i, (i < n)%nat -> fin (snd (sweep dl d du b i)) /\ fin (snd (sweep dl d du b' i))) by (intros i Hi; destruct (H i Hi) as (? & ? & _); auto).
  induction i as [|i IH]; intros Hi; rewrite (q_val b _ Hi (proj1 (Q _ Hi))), (q_val b' _ Hi (proj2 (Q _ Hi)));
    rewrite (proj1 (den_same b b' _)); destruct (den_pos b' _ Hi) as [_ Pe]; apply rdiv_mono; auto.
  - now apply H.
  - apply rle. destruct (H (S i) Hi) as (_ & _ & Pb). specialize (IH ltac:(lia)). destruct (Fl i Hi) as [_ L].
    pose proof (rmul_anti _ _ _ L IH). lra.
Qed.
Lemma tri_signs : (0 < n)%nat -> keeps_signs n (swept n dl d du).
Proof.
  intros Hn. split.
  - intros b x S Fx P. pose proof (swept_fin b x Hn S Fx) as Fq. pose proof (q_pos b (fun i Hi => conj (Fq i Hi) (P i Hi))) as Q.
    destruct S as [H1 H2]. assert (G : forall k i, (i < n)%nat -> (n - 1 - i = k)%nat -> 0 <= val (x i)).
    { induction k as [|k IH]; intros i Hi Hk; [replace i with (n - 1)%nat by lia; rewrite H1; apply Q; lia|].
      pose proof (Fx i Hi) as F. rewrite H2 in F by lia. rewrite H2 by lia. destruct (m_add _ _ F) as (Fm & _ & ->). destruct (m_mul _ _ Fm) as (_ & _ & ->).
      destruct (p_ok b i ltac:(lia)) as (_ & Pp & _). specialize (IH (S i) ltac:(lia) ltac:(lia)). specialize (Q i Hi).
      assert (0 <= rnd (val (fst (sweep dl d du b i)) * val (x (S i)))) by (apply rpos; nra). apply rpos. lra. }
    intros i Hi. now apply (G _ i Hi eq_refl).
  - intros b x b' x' S S' Fx Fx' P. pose proof (swept_fin b x Hn S Fx) as Fq. pose proof (swept_fin b' x' Hn S' Fx') as Fq'.
    pose proof (q_mono b b' (fun i Hi => conj (Fq i Hi) (conj (Fq' i Hi) (P i Hi)))) as Q.
    destruct S as [H1 H2], S' as [H1' H2']. assert (G : forall k i, (i < n)%nat -> (n - 1 - i = k)%nat -> val (x i) <= val (x' i)).
    { induction k as [|k IH]; intros i Hi Hk; [replace i with (n - 1)%nat by lia; rewrite H1, H1'; apply Q; lia|].
      pose proof (Fx i Hi) as F. rewrite H2 in F by lia. rewrite H2 by lia. destruct (m_add _ _ F) as (Fm & _ & ->). destruct (m_mul _ _ Fm) as (_ & _ & ->).
      pose proof (Fx' i Hi) as F'. rewrite H2' in F' by lia. rewrite H2' by lia. destruct (m_add _ _ F') as (Fm' & _ & ->). destruct (m_mul _ _ Fm') as (_ & _ & ->).
      rewrite (proj2 (den_same b' b i)).
      destruct (p_ok b i ltac:(lia)) as (_ & Pp & _). specialize (IH (S i) ltac:(lia) ltac:(lia)). specialize (Q i Hi).
      assert (rnd (val (fst (sweep dl d du b i)) * val (x (S i))) <= rnd (val (fst (sweep dl d du b i)) * val (x' (S i)))) by (apply rle; now apply Rmult_le_compat_l).
      apply rle. lra. }
    intros i Hi. now apply (G _ i Hi eq_refl).
Qed.
End Tri.

(** ** The solvers *)
(** Two runs with right-hand sides b, b' and results x, x'. *)
Definition signs_kept n (b b' x x' : nat -> T) : Prop :=
  (vfin n x -> (forall i, (i < n)%nat -> 0 <= val (b i)) -> forall i, (i < n)%nat -> 0 <= val (x i)) /\
  (vfin n x -> vfin n x' -> (forall i, (i < n)%nat -> val (b i) <= val (b' i)) -> forall i, (i < n)%nat -> val (x i) <= val (x' i)).
Lemma kept n S b b' x x' : keeps_signs n S -> S b x -> S b' x' -> signs_kept n b b' x x'.
Proof. intros [K1 K2] H H'. split; intros; [eapply K1; eauto|eapply K2; eauto]. Qed.

Theorem C104_back_sub : forall (U : utri T) n f y y' (h g : heap T),
  utri_wf U n -> (forall i j, (i < n)%nat -> (j < n)%nat -> forall S (s : S), utri_get U i j s = Ok (f i j) s) ->
  isvec h y n -> isvec g y' n -> z_upper val n f -> (forall i, (i < n)%nat -> fin (f i i)) ->
  exists h' g', back_sub U y h = Ok tt h' /\ back_sub U y' g = Ok tt g' /\ signs_kept n (rd h y) (rd g y') (rd h' y) (rd g' y').
Proof.
  intros U n f y y' h g W RD Hy Hy' Z Fd.
  destruct (post_ok _ _ _ (back_sub_bits U y n f h (proj1 W) RD Hy)) as ([] & h' & E & _ & _ & _ & H).
  destruct (post_ok _ _ _ (back_sub_bits U y' n f g (proj1 W) RD Hy')) as ([] & g' & E' & _ & _ & _ & H').
  exists h', g'. split; [exact E|]. split; [exact E'|]. exact (kept n _ _ _ _ _ (bwd_signs n f Z Fd) H H').
Qed.

Lemma tri_parts (t : tri T) n : z_tridiagonal val fin n (tmat t) -> (0 < n)%nat -> keeps_signs n (swept n (atf (tdl t)) (atf (td t)) (atf (tdu t))).
Proof.
  intros [Z D] Hn.
  assert (Bl : forall i, tmat t (S i) i = atf (tdl t) i).
  { intros i. unfold tmat, band. destruct (Nat.eqb_spec (S i) i); [lia|]. destruct (Nat.eqb_spec i (S i + 1)); [lia|]. now rewrite Nat.add_1_r, Nat.eqb_refl. }
  assert (Bd : forall i, tmat t i i = atf (td t) i) by (intros i; unfold tmat, band; now rewrite Nat.eqb_refl).
  assert (Bu : forall i, tmat t i (S i) = atf (tdu t) i).
  { intros i. unfold tmat, band. destruct (Nat.eqb_spec i (S i)); [lia|]. now rewrite Nat.add_1_r, Nat.eqb_refl. }
  apply tri_signs; auto.
  - intros i Hi. rewrite <- Bl. destruct (Z (S i) i Hi ltac:(lia)) as [F V]. split; [auto|]. apply V. lia.
  - intros i Hi. rewrite <- Bu. destruct (Z i (S i) ltac:(lia) Hi) as [F V]. split; [auto|]. apply V. lia.
  - intros i Hi. rewrite <- Bd. now apply Z.
  - intros i Hi. destruct (D i Hi) as [D1 _]. rewrite Bd in D1. destruct i; [exact D1|]. now rewrite Bl in D1.
  - intros i Hi. destruct (D i ltac:(lia)) as [_ D2]. rewrite Bd, Bu in D2. destruct (Nat.ltb_spec (S i) n); [|lia]. destruct i; [exact D2|]. now rewrite Bl in D2.
Qed.
Theorem C104_tridiagonal : forall dbg dbg' (t : tri T) n b b' r r' (h g : heap T), (2 <= n)%nat -> fits_i32 n = true -> tri_wf T t n ->
  z_tridiagonal val fin n (tmat t) -> isvec h b n -> isvec g b' n -> (n <= len h r)%nat -> (n <= len g r')%nat ->
  exists h' g', tridiag_solve_vec dbg t b r h = Ok r h' /\ tridiag_solve_vec dbg' t b' r' g = Ok r' g' /\
    signs_kept n (rd h b) (rd g b') (rd h' r) (rd g' r').
Proof.
  intros dbg dbg' t n b b' r r' h g Hn Hf W Z Hb Hb' Lr Lr'.
  destruct (tridiag_bits dbg t n b r h Hn Hf W Hb Lr) as (h' & E & _ & _ & _ & _ & Sw).
  destruct (tridiag_bits dbg' t n b' r' g Hn Hf W Hb' Lr') as (g' & E' & _ & _ & _ & _ & Sw').
  exists h', g'. split; [exact E|]. split; [exact E'|]. exact (kept n _ _ _ _ _ (tri_parts t n Z ltac:(lia)) Sw Sw').
Qed.
Theorem C104_tridiagonal_columns : forall dbg (t : tri T) n m B X (h : heap T), (2 <= n)%nat -> fits_i32 n = true -> fits_u32 m = true -> tri_wf T t n ->
  z_tridiagonal val fin n (tmat t) -> ismat h B n m -> ismat h X n m ->
  exists h', tridiag_solve_mat dbg t B X h = Ok X h' /\ forall k k', (k < m)%nat -> (k' < m)%nat ->
    signs_kept n (fun i => mget h B i k) (fun i => mget h B i k') (fun i => mget h' X i k) (fun i => mget h' X i k').
Proof.
  intros dbg t n m B X h Hn Hf Hm W Z HB HX.
  destruct (tridiag_mat_bits dbg t n m B X h Hn Hf Hm W HB HX) as (h' & E & _ & _ & _ & Sw).
  exists h'. split; [exact E|]. intros k k' Hk Hk'. exact (kept n _ _ _ _ _ (tri_parts t n Z ltac:(lia)) (Sw k Hk) (Sw k' Hk')).
Qed.

(** Cholesky: the constructor accepts a matrix without positive entries off the diagonal, and the diagonal of the factor is finite and positive
    (it is whenever the matrix is positive definite by the margin of C87). *)
Definition good_diagonal n (L : nat -> nat -> T) : Prop := forall i, (i < n)%nat -> fin (L i i) /\ 0 < val (L i i).
Lemma ctor_mono m h h0 F n (A : nat -> nat -> T) h' : ctor_outcome m h h0 F n A -> isfac h0 F n ->
  m h = Ok F h' -> good_diagonal n (fac h' F) -> isfac h' F n /\ factored n A (fac h' F).
Proof.
  intros (h1 & Fr & Out) IF E P. destruct Out as [[D Q]|[[D Q]|(c & Hc & D & Q)]]; rewrite Q in E; try discriminate; injection E as <-.
  - split; [|exact D]. destruct IF as (I1 & I2 & I3), Fr as (N & M & L & _). repeat split; auto; [lia|]. now rewrite L.
  - destruct D as (Hn & _ & _ & D0 & B & _). destruct (P 0%nat Hn) as [Fp P0]. rewrite D0 in Fp, P0.
    destruct (m_zero (Monotone := I)) as [F0 V0]. exfalso. destruct B as [B|B]; [apply m_eqb in B|apply m_ltb in B]; auto; lra.
Qed.
Definition chol_keeps n F (h : heap T) : Prop := forall dbg dbg',
  (forall b b', isvec h b n -> isvec h b' n -> exists x x' h1 h2, chol_solve_vec dbg F b h = Ok x h1 /\ chol_solve_vec dbg' F b' h = Ok x' h2 /\
    isvec h1 x n /\ isvec h2 x' n /\ signs_kept n (rd h b) (rd h b') (rd h1 x) (rd h2 x')) /\
  (forall b b', isvec h b n -> isvec h b' n -> chp F <> b -> chp F <> b' ->
    exists h1 h2, chol_solve_mut_vec dbg F b h = Ok b h1 /\ chol_solve_mut_vec dbg' F b' h = Ok b' h2 /\
    signs_kept n (rd h b) (rd h b') (rd h1 b) (rd h2 b')) /\
  (forall m B, ismat h B n m -> fits_u32 m = true -> exists X h1, chol_solve_mat dbg F B h = Ok X h1 /\ ismat h1 X n m /\
    forall k k', (k < m)%nat -> (k' < m)%nat ->
      signs_kept n (fun i => mget h B i k) (fun i => mget h B i k') (fun i => mget h1 X i k) (fun i => mget h1 X i k')).
Lemma chol_keeps_ok n F h : (Z.of_nat n < 2 ^ 31)%Z -> isfac h F n -> good_diagonal n (fac h F) -> z_lower val n (fac h F) -> chol_keeps n F h.
Proof.
  intros Hn HF D Z. pose proof (chol_signs n _ D Z) as K. intros dbg dbg'. split; [|split].
  - intros b b' Hb Hb'. destruct (chol_vec_out n dbg F h Hn HF b Hb) as (x & h1 & E & _ & _ & V & S).
    destruct (chol_vec_out n dbg' F h Hn HF b' Hb') as (x' & h2 & E' & _ & _ & V' & S').
    exists x, x', h1, h2. repeat (split; [assumption|]). now apply (kept n (substituted n (fac h F))).
  - intros b b' Hb Hb' N N'. destruct (chol_vec_in n dbg F h Hn HF b Hb N) as (h1 & E & _ & _ & _ & S).
    destruct (chol_vec_in n dbg' F h Hn HF b' Hb' N') as (h2 & E' & _ & _ & _ & S').
    exists h1, h2. repeat (split; [assumption|]). now apply (kept n (substituted n (fac h F))).
  - intros m B HB Hm. destruct (chol_mat_out n dbg F h Hn HF B m HB Hm) as (X & h1 & E & _ & _ & V & S).
    exists X, h1. repeat (split; [assumption|]). intros k k' Hk Hk'. apply (kept n (substituted n (fac h F))); auto.
Qed.
Theorem C104_cholesky : forall n A (h : heap T) F h', ismat h A n n -> (Z.of_nat n < 2 ^ 31)%Z -> z_matrix n (mget h A) ->
  dyn_cholesky A h = Ok F h' -> good_diagonal n (fac h' F) -> z_lower val n (fac h' F) /\ chol_keeps n F h'.
Proof.
  intros n A h F h' HA Hn ZA E P. assert (Hf : fits_u32 n = true) by (unfold fits_u32; apply Z.ltb_lt; lia).
  pose proof (dyn_outcome n A h HA Hf) as Out.
  assert (EF : F = mkChol n (next h) Square).
  { destruct Out as (h1 & _ & [[_ Q]|[[_ Q]|(c & _ & _ & Q)]]); rewrite Q in E; congruence. }
  subst F. destruct (ctor_mono _ _ _ _ _ _ h' Out) as [IF D]; auto.
  { destruct HA as (_ & _ & _ & A4). repeat split.
    - unfold halloc. cbn [chp next]. lia.
    - unfold len. cbn [chp]. rewrite mem_halloc_same. exact A4. }
  assert (Z : z_lower val n (fac h' (mkChol n (next h) Square))) by (eapply chol_factor_signs; eauto; intros; apply ZA; lia).
  split; [exact Z|]. now apply chol_keeps_ok.
Qed.
Theorem C104_cholesky_packed : forall n H (h : heap T) F h', herm_wf H n -> (Z.of_nat n < 2 ^ 31)%Z -> z_matrix n (hmat H) ->
  tri_cholesky H h = Ok F h' -> good_diagonal n (fac h' F) -> z_lower val n (fac h' F) /\ chol_keeps n F h'.
Proof.
  intros n H h F h' HA Hn ZA E P. assert (Hf : fits_u32 n = true) by (unfold fits_u32; apply Z.ltb_lt; lia).
  pose proof (tri_outcome n H h HA Hf) as Out.
  assert (EF : F = mkChol n (next h) Triangle).
  { destruct Out as (h1 & _ & [[_ Q]|[[_ Q]|(c & _ & _ & Q)]]); rewrite Q in E; congruence. }
  subst F. destruct (ctor_mono _ _ _ _ _ _ h' Out) as [IF D]; auto.
  { destruct HA as (_ & A4). repeat split.
    - unfold halloc. cbn [chp next]. lia.
    - unfold len. cbn [chp]. rewrite mem_halloc_same. exact A4. }
  assert (Z : z_lower val n (fac h' (mkChol n (next h) Triangle))) by (eapply chol_factor_signs; eauto; intros; apply ZA; lia).
  split; [exact Z|]. now apply chol_keeps_ok.
Qed.

(** Incomplete LU. *)
Definition good_factor n (F : nat -> nat -> T) : Prop :=
  (forall i j, (i < n)%nat -> (j < n)%nat -> fin (F i j)) /\ forall i, (i < n)%nat -> 0 < val (F i i).
Theorem C104_ilu : forall n A (h : heap T) F h', ismat h A n n -> fits_u32 n = true -> z_matrix n (mget h A) ->
  ilu_dyn A h = Ok F h' -> good_factor n (mget h' F) ->
  z_matrix n (mget h' F) /\ forall b b', isvec h' b n -> isvec h' b' n ->
    exists x x' h1 h2, ilu_dyn_solve F b h' = Ok x h1 /\ ilu_dyn_solve F b' h' = Ok x' h2 /\
      isvec h1 x n /\ isvec h2 x' n /\ signs_kept n (rd h' b) (rd h' b') (rd h1 x) (rd h2 x').
Proof.
  intros n A h F h' HA Hf ZA E [FF D]. pose proof (ilu_dyn_outcome n A h HA Hf) as P. unfold postx in P. rewrite E in P. destruct P as [NM HD].
  pose proof (ilu_factor_signs n _ _ ZA HD FF D) as Z. split; [exact Z|]. destruct (z_matrix_parts n _ Z D) as [Zu Zl].
  assert (HF : ismat h' F n n) by apply NM. intros b b' Hb Hb'.
  destruct (post_ok _ _ _ (ilu_solve_ok (mat_get F) (mget h' F) n b h' Hf Hb ltac:(intros; now apply (mat_get_ext F n h')))) as (x & h1 & E1 & (_ & _ & V & _) & S).
  destruct (post_ok _ _ _ (ilu_solve_ok (mat_get F) (mget h' F) n b' h' Hf Hb' ltac:(intros; now apply (mat_get_ext F n h')))) as (x' & h2 & E2 & (_ & _ & V' & _) & S').
  exists x, x', h1, h2. repeat (split; [assumption|]). apply (kept n (ilu_solved n (mget h' F))); auto. apply lu_signs; auto.
Qed.
Theorem C104_ilu_sparse : forall n (A F : csr T) a f (s : unit), csr_wf A n -> csr_shape A tt = Ok (n, n) tt ->
  fits_u32 n = true -> reads_as A n a -> z_matrix n a -> ilu_csr A s = Ok F s -> reads_as F n f -> good_factor n f ->
  z_matrix n f /\ forall b b' (h g : heap T), isvec h b n -> isvec g b' n ->
    exists x x' h1 g1, ilu_csr_solve F b h = Ok x h1 /\ ilu_csr_solve F b' g = Ok x' g1 /\
      isvec h1 x n /\ isvec g1 x' n /\ signs_kept n (rd h b) (rd g b') (rd h1 x) (rd g1 x').
Proof.
  intros n A F a f s W Hs Hf RA ZA E RF [FF D].
  assert (Z0 : eqb (T := T) zero zero = true) by (destruct (m_zero (Monotone := I)) as [F0 _]; now apply m_eqb).
  destruct (ilu_csr_outcome n n A unit s Z0 W Hs ltac:(lia) Hf) as [(F' & E' & W' & _ & _ & HD)|(F' & E' & _)]; rewrite E' in E; [injection E as ->|discriminate].
  assert (EA : forall i j, (i < n)%nat -> (j < n)%nat -> cview A i j = a i j) by (intros i j Hi Hj; unfold cview; now rewrite (RA unit tt i j Hi Hj)).
  assert (EF : forall i j, (i < n)%nat -> (j < n)%nat -> cview F i j = f i j) by (intros i j Hi Hj; unfold cview; now rewrite (RF unit tt i j Hi Hj)).
  assert (Z' : z_matrix n (cview F)).
  { apply (ilu_factor_signs n (cview A)); auto; [intros i j Hi Hj N; rewrite EA by auto; now apply ZA|intros i j Hi Hj; rewrite EF by auto; now apply FF|intros i Hi; rewrite EF by auto; now apply D]. }
  assert (Z : z_matrix n f) by (intros i j Hi Hj N; rewrite <- EF by auto; now apply Z'). split; [exact Z|].
  destruct (z_matrix_parts n _ Z D) as [Zu Zl]. intros b b' h g Hb Hb'.
  destruct (post_ok _ _ _ (ilu_solve_ok (csr_get F) f n b h Hf Hb ltac:(intros; now apply RF))) as (x & h1 & E1 & (_ & _ & V & _) & S).
  destruct (post_ok _ _ _ (ilu_solve_ok (csr_get F) f n b' g Hf Hb' ltac:(intros; now apply RF))) as (x' & g1 & E2 & (_ & _ & V' & _) & S').
  exists x, x', h1, g1. repeat (split; [assumption|]). apply (kept n (ilu_solved n f)); auto. apply lu_signs; auto.
Qed.
End Mono.
