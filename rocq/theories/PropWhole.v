(** * C90: integer data are computed exactly (theorem statements)

    [is x k] reads: the element x stands for the integer k; B bounds the integers that the element
    type represents exactly (SpecWhole.v).  For binary64 [is] is [fis]: a finite number with that
    value, and B = 2^53; RoundWhole.v has the other instances.  Sums and products on the right-hand
    sides are those of Z. *)
From Coq Require Import ZArith Floats Reals Lia Permutation.
From Flocq Require Import Core BinarySingleNaN.
From Verif Require Import Base Scalar BaseLemmas Spec Sums ModelVec ModelMat SpecMat ModelPacked ProofPacked ModelSparse
  PropPacked ProofVec ProofVecProp ProofMatOps ModelSolvers ProofChol ProofCholSolve ProofIlu PropVec PropMat PropChol PropCholSolve
  ProofSparse SpecSparse PropSparse ProofSparseCsr ProofSpmv PropSpmv ProofBackSub PropRound PropRound2
  RoundIeee SpecFma RoundFma SpecWhole RoundWhole ProofWhole.
From Verif Require PropFma.
Local Open Scope Z_scope.
Local Notation zsum := (@bsum Z ZOps).
Local Notation zdot := (@dotp Z ZOps).
Local Notation zmv := (@mvmul Z ZOps).
Local Notation zmm := (@mmmul Z ZOps).
Local Notation ztr := (@transp Z).

(** ** The element types *)
(** Any binary format of more than one bit of precision; binary64; signed integers, [None] being
    an overflow; and every contraction into fused multiply-adds. *)
Theorem C90_binary : forall prec emax (Hp : Prec_gt_0 prec) (Hm : Prec_lt_emax prec emax), 1 < prec ->
  Whole (BOps prec emax Hp Hm) (2 ^ prec) (bis prec emax) /\ whole_fma (2 ^ prec) (bis prec emax) (Bfma mode_NE).
Proof. intros. split; [now apply bops_whole|now apply bfma_whole]. Qed.
Theorem C90_binary64 : Whole FOps (2 ^ 53) fis /\ whole_fma (2 ^ 53) fis fma64.
Proof. split; [exact float_whole|exact fma64_whole]. Qed.
Theorem C90_signed : forall B, 1 <= B -> Whole (IOps B) B (fun x k => x = Some k).
Proof. exact i_whole. Qed.
Theorem C90_contracted : forall rho, contraction FOps fma64 rho -> Whole (TOps FOps rho) (2 ^ 53) (is_term fis rho).
Proof. intros rho C. apply (terms_whole _ _ _ _ fma64); [exact float_whole|exact fma64_whole|exact C|reflexivity]. Qed.

Section Whole.
Context {T : Type} (Op : Ops T) (B : Z) (is : T -> Z -> Prop) (W : Whole Op B is).
Local Notation ints := (ints is).
Local Notation mints := (mints is).
Local Notation lints := (lints is).

(** ** Vectors *)
Theorem C90_dot : forall x y f g (h : heap T), let n := len h x in
  fits_u32 n = true -> (0 < n)%nat -> n = len h y -> ints n (rd h x) f -> ints n (rd h y) g -> asum n (fun k => f k * g k) <= B ->
  exists r, dot_d x y h = Ok r h /\ dot_member_d x y h = Ok r h /\ dot_s n x y h = Ok r h /\ is r (zdot n f g).
Proof.
  intros x y f g h n Hf Hn Hl Hx Hy HB. destruct (C05_dot_exact_order T Op x y h Hf Hn Hl) as [E1 E2].
  exists (lsum (fun i => mul (rd h x i) (rd h y i)) (n - 1)). split; [exact E1|]. split; [exact E2|]. split; [now apply dot_s_ok|].
  clear E1 E2 Hf Hl. fold n in Hn. destruct n as [|n]; [lia|]. replace (S n - 1)%nat with n by lia.
  apply (lsum_whole (W := W) n _ (fun k => f k * g k)); auto. apply (prod_whole (W := W)); auto.
Qed.
(** Whatever the order in which the products are added up (and with any number of zeros from the
    lanes of a reduction), the result stands for the same integer. *)
Theorem C90_dot_any_order : forall n (x y : nat -> T) f g t k,
  ints n x f -> ints n y g -> asum n (fun k => f k * g k) <= B ->
  Permutation (Sums.leaves t) (map (fun i => mul (x i) (y i)) (seq 0 n) ++ repeat zero k) -> is (reval t) (zdot n f g).
Proof.
  intros n x y f g t k Hx Hy HB P.
  assert (F1 : forall l, (forall i, In i l -> (i < n)%nat) -> Forall2 is (map (fun i => mul (x i) (y i)) l) (map (fun i => f i * g i) l)).
  { intros l. induction l as [|i l IH]; intros Hl; cbn; constructor.
    - apply (prod_whole (W := W) n); auto. apply Hl. now left.
    - apply IH. intros j Hj. apply Hl. now right. }
  assert (F0 : Forall2 is (repeat zero k) (repeat 0 k)).
  { clear - W. induction k; cbn; constructor; auto. apply (w_zero (Whole := W)). }
  pose proof (Forall2_app (F1 (seq 0 n) ltac:(intros i Hi; apply in_seq in Hi; lia)) F0) as F2.
  destruct (perm_forall2 _ _ P _ F2) as (l & P2 & F3).
  assert (E : @lsum_list Z ZOps l = zdot n f g).
  { rewrite (lsum_perm (R := Z_ring) _ _ P2), (lsum_app (R := Z_ring)), (lsum_zeros (R := Z_ring)), (lsum_bsum (R := Z_ring)).
    cbn [add zero ZOps]. unfold dotp. cbn [mul ZOps]. lia. }
  rewrite <- E. apply (reval_whole (W := W)); auto.
  assert (E2 : @lsum_list Z ZOps (map Z.abs l) = asum n (fun k => f k * g k)).
  { rewrite (lsum_perm (R := Z_ring) _ _ (Permutation_map Z.abs P2)), map_app, map_map, (lsum_app (R := Z_ring)), (lsum_bsum (R := Z_ring)).
    assert (Z0 : @lsum_list Z ZOps (map Z.abs (repeat 0 k)) = 0) by (clear; induction k as [|k IH]; cbn in *; auto).
    rewrite Z0. unfold asum. cbn [add ZOps]. lia. }
  now rewrite E2.
Qed.
(** The norm of a vector whose sum of squares is a square. *)
Theorem C90_norm2 : forall x f s (h : heap T), let n := len h x in
  fits_u32 n = true -> ints n (rd h x) f -> 0 <= s -> zdot n f f = s * s -> s * s <= B ->
  exists r, norm2_d x h = Ok r h /\ norm2_s n x h = Ok r h /\ is r s.
Proof.
  intros x f s h n Hf Hx Hs E HB. eexists. split; [now apply norm2_d_ok|]. split; [now apply norm2_s_ok|]. fold n.
  assert (EA : asum n (fun k => f k * f k) = s * s).
  { rewrite <- E. unfold asum, dotp. apply bsum_ext. intros k _. cbn [mul ZOps]. nia. }
  apply (w_sqrt (Whole := W)).
  - rewrite <- E. apply (bsum_whole (W := W) n _ (fun k => f k * f k)); [|lia]. apply (prod_whole (W := W)); auto. lia.
  - nia.
Qed.
(** Sums, differences, negation, multiples; both forms of vectors. *)
Theorem C90_operators : forall v1 v2 alpha za f g (h : heap T), let n := len h v1 in
  (v1 < next h)%nat -> (v2 < next h)%nat -> fits_u32 n = true -> n = len h v2 ->
  ints n (rd h v1) f -> ints n (rd h v2) g -> is alpha za ->
  (exists h', op_neg_d v1 h = Ok (next h) h' /\ ints n (rd h' (next h)) (fun i => - f i)) /\
  ((forall i, (i < n)%nat -> Z.abs (f i + g i) <= B) ->
    exists h', op_add_d v1 v2 h = Ok (next h) h' /\ ints n (rd h' (next h)) (fun i => f i + g i)) /\
  ((forall i, (i < n)%nat -> Z.abs (f i - g i) <= B) ->
    exists h', op_sub_d v1 v2 h = Ok (next h) h' /\ ints n (rd h' (next h)) (fun i => f i - g i)) /\
  ((forall i, (i < n)%nat -> Z.abs (za * f i) <= B) ->
    exists h', op_scale_d alpha v1 h = Ok (next h) h' /\ ints n (rd h' (next h)) (fun i => za * f i)).
Proof.
  intros v1 v2 alpha za f g h n H1 H2 Hf L I1 I2 Ia. subst n.
  destruct (C01_operators_dyn T Op v1 v2 alpha h H1 H2 Hf L) as ((h1 & E1 & M1 & _) & (h2 & E2 & M2 & _) & (h3 & E3 & M3 & _) & (h4 & E4 & M4 & _) & _).
  split; [|split; [|split]]; intros; eexists; (split; [eassumption|]); intros i Hi; specialize (I1 i Hi); specialize (I2 i Hi); unfold rd, len in *.
  - rewrite M1, (map_nth_in _ _ _ zero) by auto. now apply (w_opp (Whole := W)).
  - rewrite M2, (map2_nth _ _ _ _ zero zero) by auto. apply (w_add (Whole := W)); auto.
  - rewrite M3, (map2_nth _ _ _ _ zero zero) by auto. apply (w_sub (Whole := W)); auto.
  - rewrite M4, (map_nth_in _ _ _ zero) by auto. apply (w_mul (Whole := W)); auto.
Qed.
Theorem C90_axpy : forall alpha x y za f g (h : heap T), let n := len h x in fits_u32 n = true -> n = len h y ->
  is alpha za -> ints n (rd h x) f -> ints n (rd h y) g ->
  (forall i, (i < n)%nat -> Z.abs (za * f i) <= B /\ Z.abs (za * f i + g i) <= B) ->
  exists h', axpy_d alpha x y h = Ok y h' /\ ints n (rd h' y) (fun i => za * f i + g i).
Proof.
  intros alpha x y za f g h n Hf L Ia I1 I2 HB. subst n. destruct (C01_axpy_dyn T Op alpha x y h Hf L) as (h' & E & M & _).
  exists h'. split; auto. intros i Hi. specialize (I1 i Hi). specialize (I2 i Hi). specialize (HB i Hi). unfold rd, len in *.
  rewrite M, (map2_nth _ _ _ _ zero zero) by auto. apply (w_add (Whole := W)); auto; [|apply HB]. apply (w_mul (Whole := W)); auto. apply HB.
Qed.
Lemma diff_whole a b c d za zb zc zd : is a za -> is b zb -> is c zc -> is d zd -> Z.abs (za * zb) <= B -> Z.abs (zc * zd) <= B ->
  Z.abs (za * zb - zc * zd) <= B -> is (sub (mul a b) (mul c d)) (za * zb - zc * zd).
Proof. intros. apply (w_sub (Whole := W)); auto; apply (w_mul (Whole := W)); auto. Qed.
Theorem C90_cross3 : forall dbg dx dy dr x y vr f g (h : heap T), len h x = 3%nat -> len h y = 3%nat -> len h vr = 3%nat ->
  ints 3 (rd h x) f -> ints 3 (rd h y) g -> (forall i j, (i < 3)%nat -> (j < 3)%nat -> 2 * Z.abs (f i * g j) <= B) ->
  exists h', cross3 dbg dx dy dr x y vr h = Ok vr h' /\
    is (rd h' vr 0) (f 1%nat * g 2%nat - f 2%nat * g 1%nat) /\ is (rd h' vr 1) (f 2%nat * g 0%nat - f 0%nat * g 2%nat) /\
    is (rd h' vr 2) (f 0%nat * g 1%nat - f 1%nat * g 0%nat).
Proof.
  intros dbg dx dy dr x y vr f g h L1 L2 L3 I1 I2 HB. destruct (C08_cross3 T Op dbg dx dy dr x y vr h L1 L2 L3) as (h' & E & M & _).
  exists h'. split; auto. unfold rd at 1 2 3. rewrite M. cbn [nth].
  assert (K : forall i j, (i < 3)%nat -> (j < 3)%nat -> is (sub (mul (rd h x i) (rd h y j)) (mul (rd h y i) (rd h x j))) (f i * g j - f j * g i)).
  { intros i j Hi Hj. rewrite (Z.mul_comm (f j)). pose proof (HB i j Hi Hj). pose proof (HB j i Hj Hi) as HB'. rewrite (Z.mul_comm (f j)) in HB'.
    apply diff_whole; auto; lia. }
  repeat split; apply K; lia.
Qed.
Theorem C90_cross2 : forall dbg dx dy x y f g (h : heap T), len h x = 2%nat -> len h y = 2%nat ->
  ints 2 (rd h x) f -> ints 2 (rd h y) g -> (forall i j, (i < 2)%nat -> (j < 2)%nat -> 2 * Z.abs (f i * g j) <= B) ->
  exists r, cross2 dbg dx dy x y h = Ok r h /\ is r (f 0%nat * g 1%nat - f 1%nat * g 0%nat).
Proof.
  intros dbg dx dy x y f g h L1 L2 I1 I2 HB. eexists. split; [now apply (C08_cross2 T Op)|]. rewrite (Z.mul_comm (f 1%nat)).
  pose proof (HB 0%nat 1%nat ltac:(lia) ltac:(lia)). pose proof (HB 1%nat 0%nat ltac:(lia) ltac:(lia)) as HB'. rewrite (Z.mul_comm (f 1%nat)) in HB'.
  apply diff_whole; auto; lia.
Qed.

(** ** Matrices *)
Theorem C90_matvec : forall dbg alpha A x beta y n m za zb F f g (h : heap T),
  fits_u32 n = true -> fits_u32 m = true -> ismat h A n m -> isvec h x m -> isvec h y n -> mp A <> y ->
  is alpha za -> is beta zb -> mints n m (mget h A) F -> ints m (rd h x) f -> ints n (rd h y) g ->
  (forall i k, (i < n)%nat -> (k < m)%nat -> Z.abs (za * F i k) <= B) ->
  (forall i, (i < n)%nat -> Z.abs (zb * g i) + asum m (fun k => za * F i k * f k) <= B) ->
  exists h', mulv dbg alpha A x beta y h = Ok y h' /\ ext_but h h' y /\ isvec h' y n /\
    ints n (rd h' y) (fun i => za * zmv m F f i + zb * g i).
Proof.
  intros dbg alpha A x beta y n m za zb F f g h Hn Hm HA Hx Hy Hd Ia Ib IA If Ig B1 B2.
  destruct (C14_matvec_exact T Op dbg alpha A x beta y n m h Hn Hm HA Hx Hy Hd) as (h' & E & H1 & H2 & H3).
  exists h'. split; auto. split; auto. split; auto. intros i Hi. rewrite H3 by auto.
  apply (entry_whole (W := W) m _ beta (rd h y i) alpha (fun k => mget h A i k) (rd h x)); auto. intros k Hk. now apply IA.
Qed.
Theorem C90_matvec_operator : forall dbg A x n m F f (h : heap T),
  fits_u32 n = true -> fits_u32 m = true -> ismat h A n m -> isvec h x m -> mints n m (mget h A) F -> ints m (rd h x) f ->
  (forall i k, (i < n)%nat -> (k < m)%nat -> Z.abs (F i k) <= B) -> (forall i, (i < n)%nat -> asum m (fun k => F i k * f k) <= B) ->
  exists y h', op_mulv dbg A x h = Ok y h' /\ ext h h' /\ isvec h' y n /\ ints n (rd h' y) (zmv m F f).
Proof.
  intros dbg A x n m F f h Hn Hm HA Hx IA If B1 B2.
  destruct (post_ok _ _ _ (op_mulv_ok dbg A x n m h Hn Hm HA Hx)) as (y & h' & E & H1 & H2 & H3 & H4).
  exists y, h'. split; auto. split; auto. split; auto. intros i Hi. rewrite H4 by auto.
  apply (op_entry_whole (W := W) m (fun k => mget h A i k) (rd h x)); auto. intros k Hk. now apply IA.
Qed.
Theorem C90_matmat : forall dbg alpha A X beta C n m o za zb F G H (h : heap T),
  fits_u32 n = true -> fits_u32 m = true -> fits_u32 o = true -> ismat h A n o -> ismat h X o m -> ismat h C n m ->
  is alpha za -> is beta zb -> mints n o (mget h A) F -> mints o m (mget h X) G -> mints n m (mget h C) H ->
  (forall i k, (i < n)%nat -> (k < o)%nat -> Z.abs (za * F i k) <= B) ->
  (forall i j, (i < n)%nat -> (j < m)%nat -> Z.abs (zb * H i j) + asum o (fun k => za * F i k * G k j) <= B) ->
  exists h', mulm dbg alpha A X beta C h = Ok C h' /\ ext_but h h' (mp C) /\ ismat h' C n m /\
    mints n m (mget h' C) (fun i j => za * zmm o F G i j + zb * H i j).
Proof.
  intros dbg alpha A X beta C n m o za zb F G H h Hn Hm Ho HA HX HC Ia Ib IA IX IC B1 B2.
  destruct (C15_matmat_exact T Op dbg alpha A X beta C n m o h Hn Hm Ho HA HX HC) as (h' & E & H1 & H2 & H3).
  exists h'. split; auto. split; auto. split; auto. intros i j Hi Hj. rewrite H3 by auto.
  apply (entry_whole (W := W) o _ beta (mget h C i j) alpha (fun k => mget h A i k) (fun k => mget h X k j) zb (H i j) za (F i) (fun k => G k j)); auto.
  - destruct (_ || _); auto.
  - intros k Hk. now apply IA.
  - intros k Hk. now apply IX.
Qed.
Theorem C90_matmat_operator : forall dbg A X n m o F G (h : heap T),
  fits_u32 n = true -> fits_u32 m = true -> fits_u32 o = true -> ismat h A n o -> ismat h X o m ->
  mints n o (mget h A) F -> mints o m (mget h X) G -> (forall i k, (i < n)%nat -> (k < o)%nat -> Z.abs (F i k) <= B) ->
  (forall i j, (i < n)%nat -> (j < m)%nat -> asum o (fun k => F i k * G k j) <= B) ->
  exists C h', op_mulm dbg A X h = Ok C h' /\ ext h h' /\ ismat h' C n m /\ mints n m (mget h' C) (zmm o F G).
Proof.
  intros dbg A X n m o F G h Hn Hm Ho HA HX IA IX B1 B2.
  destruct (post_ok _ _ _ (op_mulm_ok dbg A X n m o h Hn Hm Ho HA HX)) as (C & h' & E & H1 & H2 & H3 & H4).
  exists C, h'. split; auto. split; auto. split; auto. intros i j Hi Hj. rewrite H4 by auto.
  apply (op_entry_whole (W := W) o (fun k => mget h A i k) (fun k => mget h X k j) (F i) (fun k => G k j)); auto.
  - intros k Hk. now apply IA.
  - intros k Hk. now apply IX.
Qed.
Theorem C90_matrix_operators : forall dbg alpha A X n m za F G (h : heap T),
  fits_u32 (n * m) = true -> ismat h A n m -> ismat h X n m -> is alpha za -> mints n m (mget h A) F -> mints n m (mget h X) G ->
  ((forall i j, (i < n)%nat -> (j < m)%nat -> Z.abs (F i j + G i j) <= B) ->
    exists C h', op_addm dbg A X h = Ok C h' /\ ext h h' /\ ismat h' C n m /\ mints n m (mget h' C) (fun i j => F i j + G i j)) /\
  ((forall i j, (i < n)%nat -> (j < m)%nat -> Z.abs (F i j - G i j) <= B) ->
    exists C h', op_subm dbg A X h = Ok C h' /\ ext h h' /\ ismat h' C n m /\ mints n m (mget h' C) (fun i j => F i j - G i j)) /\
  ((forall i j, (i < n)%nat -> (j < m)%nat -> Z.abs (za * F i j) <= B) ->
    exists C h', op_scalem alpha A h = Ok C h' /\ ext h h' /\ ismat h' C n m /\ mints n m (mget h' C) (fun i j => za * F i j)) /\
  ((forall i j, (i < n)%nat -> (j < m)%nat -> Z.abs (F i j) <= B) ->
    exists C h', op_negm A h = Ok C h' /\ ext h h' /\ ismat h' C n m /\ mints n m (mget h' C) (fun i j => - F i j)).
Proof.
  intros dbg alpha A X n m za F G h Hf HA HX Ia IA IX.
  destruct (C17_operators T Op dbg alpha A X n m h Hf HA HX) as ((C1 & h1 & E1 & X1 & _ & M1 & V1) & (C2 & h2 & E2 & X2 & _ & M2 & V2) &
    (C3 & h3 & E3 & X3 & _ & M3 & V3) & (C4 & h4 & E4 & X4 & _ & M4 & V4)).
  split; [|split; [|split]]; intros HB; do 2 eexists; (split; [eassumption|]); (split; [eassumption|]); (split; [eassumption|]); intros i j Hi Hj.
  - rewrite V1 by auto. apply (w_add (Whole := W)); auto.
  - rewrite V2 by auto. apply (w_sub (Whole := W)); auto.
  - rewrite V3 by auto. apply (w_mul (Whole := W)); auto.
  - rewrite V4 by auto. specialize (HB i j Hi Hj). apply (is_eq _ (- (1) * F i j)); [|lia].
    apply (w_mul (Whole := W)); auto; [apply (w_opp (Whole := W)), (w_one (Whole := W))|lia].
Qed.

(** ** Sparse matrices *)
(** Az is the same sparse matrix with integers; positions stored several times count with their
    sum ([total]). *)
Theorem C90_spmv : forall dbg n m (A : csr T) (Az : csr Z) alpha x beta y za zb f g (h : heap T),
  csr_wf A n -> scol A <> [] -> csr_shape A h = Ok (n, m) h -> fits_u32 n = true -> len h x = m -> len h y = n -> x <> y ->
  sptr Az = sptr A -> scol Az = scol A -> Forall2 is (sval A) (sval Az) ->
  is alpha za -> is beta zb -> ints m (rd h x) f -> ints n (rd h y) g ->
  (forall v, In v (sval Az) -> Z.abs (za * v) <= B) ->
  (forall i, (i < n)%nat -> Z.abs (zb * g i) +
     @lsum_list Z ZOps (map (fun e => Z.abs (za * snd e * f (snd (fst e)))) (@csr_row Z ZOps Az i)) <= B) ->
  exists h', sp_mul dbg alpha A x beta y h = Ok y h' /\ unchanged_except [y] h h' /\ next h' = next h /\ len h' y = n /\
    ints n (rd h' y) (fun i => za * zmv m (@total Z ZOps (@csr_entries Z ZOps Az n)) f i + zb * g i).
Proof.
  intros dbg n m A Az alpha x beta y za zb f g h Wf Hne Hsh Hf Hx Hy Nxy Ep Ec Ev Ia Ib If Ig B1 B2.
  destruct (C32_rows_partial T Op dbg n m A alpha x beta y h Wf Hne Hsh Hf Hx Hy Nxy) as (h' & E & U & Nx & L & V).
  exists h'. split; auto. split; auto. split; auto. split; auto. intros i Hi. rewrite V by auto. rewrite <- spmv_val_fold.
  assert (Hc : forall c, In c (scol A) -> (c < m)%nat).
  { intros c' Hin. destruct (max_elem_ok (scol A) h Hne) as (mx & Ex & _ & Mx); unfold csr_shape, bind in Hsh; rewrite Ex in Hsh;
      injection Hsh as _ <-; specialize (Mx c' Hin); lia. }
  assert (Lv : length (sval Az) = length (sval A)).
  { clear - Ev. induction Ev; cbn; congruence. }
  assert (Iv : forall k, (k < length (sval A))%nat -> is (nth k (sval A) zero) (nth k (sval Az) 0)).
  { clear - Ev. induction Ev as [|a b l l' Hab Hl IH]; intros [|k] Hk; cbn in *; try lia; auto. apply IH. lia. }
  pose proof (ptr_le A n (i + 1) Wf ltac:(lia)) as PL. pose proof Wf as (W1 & W2 & W3 & W4 & W5).
  assert (Wz : csr_wf Az n).
  { unfold csr_wf in *. rewrite Ep, Ec, Lv. exact Wf. }
  (* the integer row *)
  pose (hz := @heap_of Z [map f (seq 0 m); map g (seq 0 n)]).
  assert (RX : forall k, (k < m)%nat -> @rd Z ZOps hz 0%nat k = f k).
  { intros k Hk. unfold rd, hz. cbn [mem heap_of nth]. change (@zero Z ZOps) with 0. rewrite (nth_indep _ 0 (f 0%nat)) by (now rewrite map_length, seq_length).
    rewrite map_nth, seq_nth by auto. reflexivity. }
  assert (RY : forall k, (k < n)%nat -> @rd Z ZOps hz 1%nat k = g k).
  { intros k Hk. unfold rd, hz. cbn [mem heap_of nth]. change (@zero Z ZOps) with 0. rewrite (nth_indep _ 0 (g 0%nat)) by (now rewrite map_length, seq_length).
    rewrite map_nth, seq_nth by auto. reflexivity. }
  pose proof (spmv_val_sum (R := Z_ring) hz Az n m za 0%nat zb 1%nat i Wz Hi ltac:(now rewrite Ec)) as ES.
  rewrite RY in ES by auto.
  assert (EM : zmv m (@total Z ZOps (@csr_entries Z ZOps Az n)) (@rd Z ZOps hz 0%nat) i = zmv m (@total Z ZOps (@csr_entries Z ZOps Az n)) f i).
  { apply bsum_ext. intros k Hk. now rewrite RX. }
  rewrite EM in ES. cbn [add mul ZOps] in ES. rewrite <- ES. clear ES EM.
  specialize (B2 i Hi). unfold csr_row in B2. rewrite Ep, Ec, map_map in B2. cbn [fst snd] in B2.
  unfold spmv_val. rewrite Ep, Ec. set (a := nth i (sptr A) 0%nat) in *. set (c := (nth (i + 1) (sptr A) 0 - a)%nat) in *.
  set (Fz := fun t => za * nth (a + t) (sval Az) 0 * f (nth (a + t) (scol A) 0%nat)).
  assert (EB : @lsum_list Z ZOps (map (fun k => Z.abs (za * nth k (sval Az) 0 * f (nth k (scol A) 0%nat))) (seq a c)) = asum c Fz).
  { rewrite (seq_off a c), map_map. apply (lsum_bsum (R := Z_ring) c (fun t => Z.abs (Fz t))). }
  change (@zero Z ZOps) with 0 in B2. rewrite EB in B2.
  rewrite RY by auto. rewrite (fsum_bsum (R := Z_ring)). cbn [add ZOps].
  rewrite (bsum_ext c _ Fz).
  2:{ intros t Ht. cbn [mul ZOps]. unfold Fz. f_equal. apply RX, Hc, nth_In. lia. }
  pose proof (asum_nonneg c Fz). apply (fsum_whole (W := W)).
  - apply (w_mul (Whole := W)); auto. lia.
  - intros t Ht. unfold Fz. apply (w_mul (Whole := W)).
    + apply (w_mul (Whole := W)); auto; [apply Iv; lia|]. apply B1, nth_In. lia.
    + apply If, Hc, nth_In. lia.
    + pose proof (asum_term c Fz t Ht). unfold Fz in *. lia.
  - exact B2.
Qed.

(** ** Triangular systems and Cholesky *)
(** The right-hand side U x of an upper triangular system gives x back. *)
Theorem C90_back_sub : forall (U : utri T) n f y F x (h : heap T),
  utri_wf U n -> (forall i j, (i < n)%nat -> (j < n)%nat -> forall S (s : S), utri_get U i j s = Ok (f i j) s) ->
  isvec h y n -> (forall i j, (i < n)%nat -> (i <= j)%nat -> (j < n)%nat -> is (f i j) (F i j)) -> (forall i, (i < n)%nat -> F i i <> 0) ->
  (forall i, (i < n)%nat -> is (rd h y i) (zsum (n - i) (fun t => F i (i + t)%nat * x (i + t)%nat))) ->
  (forall i, (i < n)%nat -> asum (n - i) (fun t => F i (i + t)%nat * x (i + t)%nat) <= B) -> (forall i, (i < n)%nat -> Z.abs (x i) <= B) ->
  exists h', back_sub U y h = Ok tt h' /\ ext_but h h' y /\ isvec h' y n /\ ints n (rd h' y) x.
Proof.
  intros U n f y F x h Wf RD Hy IF Nz Ib B1 B2.
  destruct (post_ok _ _ _ (back_sub_bits U y n f h (proj1 Wf) RD Hy)) as ([] & h' & E & H1 & H2 & H3 & H4).
  exists h'. split; auto. split; auto. split; auto.
  apply (bwd_whole (W := W) n (fun i j => f j i) (fun i j => F j i)) with (Y := rd h y); auto.
  intros i j Hi Hj. apply IF; lia.
Qed.

(** A = M M^T with an integer lower triangular M, positive on the diagonal; the bound is on the
    products that make up the entries.  The code finds M. *)
Definition integer_factor (n : nat) (A : nat -> nat -> T) (M : nat -> nat -> Z) : Prop :=
  (forall i, (i < n)%nat -> 0 < M i i) /\
  (forall i j, (i < n)%nat -> (j <= i)%nat -> asum (S j) (fun k => M i k * M j k) <= B) /\
  (forall i j, (i < n)%nat -> (j <= i)%nat -> is (A i j) (zmm n (lowz M) (ztr (lowz M)) i j)).
Lemma low_mm n M i j : (i < n)%nat -> (j <= i)%nat -> zmm n (lowz M) (ztr (lowz M)) i j = zsum (S j) (fun k => M i k * M j k).
Proof.
  intros Hi Hj. unfold mmmul, transp. rewrite (bsum_split (R := Z_ring) n (S j)) by lia. cbn [add ZOps].
  assert (Z0 : zsum (n - S j) (fun i0 => mul (lowz M i (S j + i0)) (lowz M j (S j + i0))) = 0).
  { apply (bsum_zero (R := Z_ring)). intros k Hk. unfold lowz. destruct (Nat.leb_spec (S j + k) j); [lia|]. cbn [mul zero ZOps]. lia. }
  rewrite Z0, Z.add_0_r. apply bsum_ext. intros k Hk. unfold lowz. destruct (Nat.leb_spec k i); [|lia]. destruct (Nat.leb_spec k j); [|lia]. reflexivity.
Qed.
Lemma outcome_whole m (h h0 : heap T) F n (A : nat -> nat -> T) M : ctor_outcome m h h0 F n A -> integer_factor n A M ->
  exists h', frame (chp F) (lowpos (chmt F) n) h0 h' /\ m h = Ok F h' /\ lints n (fac h' F) M.
Proof.
  intros (h' & Fr & Out) (P & S & I). exists h'. split; auto.
  assert (I' : forall i j, (i < n)%nat -> (j <= i)%nat -> is (A i j) (zsum (Datatypes.S j) (fun k => M i k * M j k))) by (intros; rewrite <- (low_mm n) by auto; auto).
  pose proof (never_failed_whole (W := W) n A (fac h' F) M P S I') as NF.
  destruct Out as [[D Q]|[[D Q]|(c & Hc & D & Q)]]; [|exfalso; eauto|exfalso; eauto].
  split; auto. now apply (factored_whole (W := W) n A).
Qed.
Theorem C90_cholesky_square : forall n A M (h : heap T), ismat h A n n -> fits_u32 n = true -> integer_factor n (mget h A) M ->
  exists F h', dyn_cholesky A h = Ok F h' /\ ext h h' /\ isfac h' F n /\ lints n (fac h' F) M.
Proof.
  intros n A M h HA Hf HM. destruct (outcome_whole _ _ _ _ _ _ M (dyn_outcome n A h HA Hf) HM) as (h' & Fr & E & P).
  exists (mkChol n (next h) Square), h'. split; auto. destruct (ctor_ext _ _ _ _ _ Fr eq_refl) as [X X2]. split; auto. split; auto.
  destruct HA as (_ & _ & _ & A4). destruct Fr as (N & Mm & L & _). repeat split; auto; [cbn [chp]; lia|].
  rewrite L. unfold len. cbn [chp]. rewrite mem_halloc_same. exact A4.
Qed.
Theorem C90_cholesky_packed : forall n H M (h : heap T), herm_wf H n -> fits_u32 n = true -> integer_factor n (hmat H) M ->
  exists F h', tri_cholesky H h = Ok F h' /\ ext h h' /\ isfac h' F n /\ lints n (fac h' F) M.
Proof.
  intros n H M h HA Hf HM. destruct (outcome_whole _ _ _ _ _ _ M (tri_outcome n H h HA Hf) HM) as (h' & Fr & E & P).
  exists (mkChol n (next h) Triangle), h'. split; auto. destruct (ctor_ext _ _ _ _ _ Fr eq_refl) as [X X2]. split; auto. split; auto.
  destruct HA as (_ & A4). destruct Fr as (N & Mm & L & _). repeat split; auto; [cbn [chp]; lia|].
  rewrite L. unfold len. cbn [chp]. rewrite mem_halloc_same. exact A4.
Qed.

(** Solving with such a factor: for the right-hand side M M^T x the four calling forms give x. *)
Definition integer_solution (n : nat) (M : nat -> nat -> Z) (b r : nat -> T) : Prop :=
  forall x, let y := fun k => zsum (n - k) (fun t => M (k + t)%nat k * x (k + t)%nat) in
  (forall i, (i < n)%nat -> Z.abs (x i) <= B) ->
  (forall i, (i < n)%nat -> asum (n - i) (fun t => M (i + t)%nat i * x (i + t)%nat) <= B) ->
  (forall i, (i < n)%nat -> asum (S i) (fun k => M i k * y k) <= B) ->
  (forall i, (i < n)%nat -> is (b i) (zmv n (zmm n (lowz M) (ztr (lowz M))) x i)) -> ints n r x.
Lemma low_mv n M x i : (i < n)%nat ->
  zmv n (zmm n (lowz M) (ztr (lowz M))) x i = zsum (S i) (fun k => M i k * zsum (n - k) (fun t => M (k + t)%nat k * x (k + t)%nat)).
Proof.
  intros Hi. rewrite (mvmul_assoc (R := Z_ring)). unfold mvmul at 1.
  rewrite (bsum_split (R := Z_ring) n (S i)) by lia. cbn [add ZOps].
  assert (Z0 : zsum (n - S i) (fun k => mul (lowz M i (S i + k)%nat) (zmv n (ztr (lowz M)) x (S i + k)%nat)) = 0).
  { apply (bsum_zero (R := Z_ring)). intros k Hk. unfold lowz at 1. destruct (Nat.leb_spec (S i + k) i); [lia|]. cbn [mul zero ZOps]. lia. }
  rewrite Z0, Z.add_0_r. apply bsum_ext. intros k Hk. unfold lowz at 1. destruct (Nat.leb_spec k i); [|lia]. cbn [mul ZOps]. f_equal.
  unfold mvmul, transp. rewrite (bsum_split (R := Z_ring) n k) by lia. cbn [add ZOps].
  rewrite (bsum_zero (R := Z_ring) k).
  - cbn [zero ZOps]. rewrite Z.add_0_l. apply bsum_ext. intros t Ht. unfold lowz. destruct (Nat.leb_spec k (k + t)); [reflexivity|lia].
  - intros t Ht. unfold lowz. destruct (Nat.leb_spec k t); [lia|]. cbn [mul zero ZOps]. lia.
Qed.
Lemma substituted_whole n L M b r : lints n L M -> (forall i, (i < n)%nat -> M i i <> 0) -> substituted n L b r -> integer_solution n M b r.
Proof.
  intros HL Nz (Y & H1 & H2) x y Bx B1 B2 Ib.
  assert (By : forall i, (i < n)%nat -> Z.abs (y i) <= B).
  { intros i Hi. pose proof (zsum_le (n - i) (fun t => M (i + t)%nat i * x (i + t)%nat)) as K. specialize (B1 i Hi). unfold y. lia. }
  assert (IY : ints n Y y).
  { apply (fwd_whole (W := W) n L M HL Nz b Y y); auto. intros i Hi. unfold y. rewrite <- (low_mv n) by auto. auto. }
  apply (bwd_whole (W := W) n L M HL Nz Y r x); auto.
Qed.
Theorem C90_cholesky_solve : forall dbg F n M (h : heap T), (Z.of_nat n < 2 ^ 31)%Z -> isfac h F n ->
  lints n (fac h F) M -> (forall i, (i < n)%nat -> M i i <> 0) ->
  let Q := integer_solution n M in
  (forall rhs, isvec h rhs n -> vec_outofplace Q (chol_solve_vec dbg F) h n rhs) /\
  (forall rhs, isvec h rhs n -> chp F <> rhs -> vec_inplace Q (chol_solve_mut_vec dbg F) h n rhs) /\
  (forall m X, ismat h X n m -> fits_u32 m = true -> mat_outofplace Q (chol_solve_mat dbg F) h n m X) /\
  (forall m X, ismat h X n m -> fits_u32 m = true -> chp F <> mp X -> mat_inplace Q (chol_solve_mut_mat dbg F) h n m X).
Proof.
  intros dbg F n M h Hn HF HL Nz Q.
  assert (RR : forall b x, substituted n (fac h F) b x -> Q b x) by (intros; now apply (substituted_whole n (fac h F))).
  split; [|split; [|split]]; intros.
  - eapply vec_out_mono; [exact RR|now apply chol_vec_out].
  - eapply vec_in_mono; [exact RR|now apply chol_vec_in].
  - eapply mat_out_mono; [exact RR|now apply chol_mat_out].
  - eapply mat_in_mono; [exact RR|now apply chol_mat_in].
Qed.
End Whole.

(** All orders of addition give numbers that compare equal. *)
Theorem C90_reproducible : forall T (Op : Ops T) B is (W : Whole Op B is) n (x y : nat -> T) f g t k t' k',
  ints is n x f -> ints is n y g -> asum n (fun k => f k * g k) <= B ->
  Permutation (Sums.leaves t) (map (fun i => mul (x i) (y i)) (seq 0 n) ++ repeat zero k) ->
  Permutation (Sums.leaves t') (map (fun i => mul (x i) (y i)) (seq 0 n) ++ repeat zero k') ->
  eqb (reval t) (reval t') = true.
Proof.
  intros T Op B is W n x y f g t k t' k' Hx Hy HB P P'.
  rewrite (w_eqb (Whole := W) _ _ (zdot n f g) (zdot n f g)); [apply Z.eqb_refl| |];
    [exact (C90_dot_any_order Op B is W n x y f g t k Hx Hy HB P)|exact (C90_dot_any_order Op B is W n x y f g t' k' Hx Hy HB P')].
Qed.

(** Contracted or not, integer vectors have the same dot product. *)
Theorem C90_contracted_dot : forall rho lab x y f g (h : heap Coq.Floats.PrimFloat.float), contraction FOps fma64 rho -> let n := len h x in
  fits_u32 n = true -> (0 < n)%nat -> n = len h y -> ints fis n (rd h x) f -> ints fis n (rd h y) g -> asum n (fun k => f k * g k) <= 2 ^ 53 ->
  exists t, @dot_d _ (TOps FOps rho) x y (PropFma.numbers lab h) = Ok t (PropFma.numbers lab h) /\ fis (rho t) (zdot n f g) /\
  exists r, dot_d x y h = Ok r h /\ Coq.Floats.PrimFloat.eqb (rho t) r = true.
Proof.
  intros rho lab x y f g h C n Hf Hn Hl Hx Hy HB.
  assert (NI : forall p i k, fis (rd h p i) k -> is_term fis rho (@rd _ (TOps FOps rho) (PropFma.numbers lab h) p i) k).
  { intros p i k K. destruct (PropFma.rd_numbers FOps rho lab h p i) as (l & ->). split; [|intros a b P; inversion P].
    destruct C as [-> _]. exact K. }
  destruct (C90_dot (TOps FOps rho) (2 ^ 53) (is_term fis rho) (C90_contracted rho C) x y f g (PropFma.numbers lab h)) as (t & E & _ & _ & K);
    rewrite ?PropFma.numbers_len; auto.
  { intros i Hi. apply NI. auto. } { intros i Hi. apply NI. auto. }
  destruct (C90_dot FOps (2 ^ 53) fis float_whole x y f g h Hf Hn Hl Hx Hy HB) as (r & E' & _ & _ & K').
  rewrite PropFma.numbers_len in K. exists t. split; auto. split; [apply K|]. exists r. split; auto.
  etransitivity; [exact (w_eqb (Whole := float_whole) _ _ _ _ (proj1 K) K')|]. apply Z.eqb_refl.
Qed.

Print Assumptions C90_binary.
Print Assumptions C90_binary64.
Print Assumptions C90_signed.
Print Assumptions C90_contracted.
Print Assumptions C90_dot.
Print Assumptions C90_dot_any_order.
Print Assumptions C90_reproducible.
Print Assumptions C90_contracted_dot.
Print Assumptions C90_norm2.
Print Assumptions C90_operators.
Print Assumptions C90_axpy.
Print Assumptions C90_cross3.
Print Assumptions C90_cross2.
Print Assumptions C90_matvec.
Print Assumptions C90_matvec_operator.
Print Assumptions C90_matmat.
Print Assumptions C90_matmat_operator.
Print Assumptions C90_matrix_operators.
Print Assumptions C90_spmv.
Print Assumptions C90_back_sub.
Print Assumptions C90_cholesky_square.
Print Assumptions C90_cholesky_packed.
Print Assumptions C90_cholesky_solve.

(** ** Executions *)
Local Notation flt := Coq.Floats.PrimFloat.float.
Lemma fis_lit (n : nat) : Z.of_nat n <= 2 ^ 53 -> fis (Nat.iter n (Coq.Floats.PrimFloat.add 1%float) 0%float) (Z.of_nat n).
Proof.
  induction n as [|n IH]; intros H; [apply (w_zero (Whole := float_whole))|]. rewrite Nat2Z.inj_succ, <- Z.add_1_l.
  apply (w_add (Whole := float_whole)); [apply (w_one (Whole := float_whole))|apply IH; lia|lia].
Qed.
Lemma fis_pos x k : (if Nat.leb (Z.to_nat k) 1000 then true else false) = true -> 0 <= k -> Nat.iter (Z.to_nat k) (Coq.Floats.PrimFloat.add 1%float) 0%float = x -> fis x k.
Proof.
  intros H K <-. rewrite <- (Z2Nat.id k) at 2 by auto. apply fis_lit. destruct (Nat.leb_spec (Z.to_nat k) 1000); [|discriminate]. lia.
Qed.
Lemma fis_neg x k : (if Nat.leb (Z.to_nat k) 1000 then true else false) = true -> 0 <= k -> Nat.iter (Z.to_nat k) (Coq.Floats.PrimFloat.add 1%float) 0%float = Coq.Floats.PrimFloat.opp x ->
  Coq.Floats.PrimFloat.opp (Coq.Floats.PrimFloat.opp x) = x -> fis x (- k).
Proof. intros H K E <-. apply (w_opp (Whole := float_whole)). now apply fis_pos. Qed.
Local Ltac lit := match goal with |- fis ?x ?k =>
  let x' := eval vm_compute in x in let k' := eval vm_compute in k in let j := eval vm_compute in (- k) in change (fis x' k');
  first [apply fis_pos; [vm_compute; reflexivity|vm_compute; discriminate|vm_compute; reflexivity]
        |change (fis x' (- j)); apply fis_neg; [vm_compute; reflexivity|vm_compute; discriminate|vm_compute; reflexivity|vm_compute; reflexivity]] end.

(** Vectors (3, 4, 12), (1, -2, 2); the matrix M M^T and the right-hand side M M^T (1, -1) for
    M = [[2, 0], [3, 5]]. *)
Definition WH : heap flt := heap_of [[3; 4; 12]; [1; -2; 2]; [4; 77; 6; 34]; [-2; -28]]%float.
Definition wx (i : nat) : Z := nth i [3; 4; 12] 0.
Definition wy (i : nat) : Z := nth i [1; -2; 2] 0.
Definition wM (i j : nat) : Z := nth (i * 2 + j) [2; 0; 3; 5] 0.
Definition ws (i : nat) : Z := nth i [1; -1] 0.
Example C90_nonvacuous_vectors : ints fis 3 (rd WH 0%nat) wx /\ ints fis 3 (rd WH 1%nat) wy /\ asum 3 (fun k => wx k * wy k) <= 2 ^ 53 /\
  zdot 3 wx wx = 13 * 13 /\ len WH 0%nat = 3%nat /\ len WH 1%nat = 3%nat /\ fits_u32 3 = true.
Proof.
  split; [intros [|[|[|i]]] Hi; [lit|lit|lit|lia]|]. split; [intros [|[|[|i]]] Hi; [lit|lit|lit|lia]|].
  split; [vm_compute; discriminate|]. repeat split; vm_compute; reflexivity.
Qed.
Example C90_norm2_runs : exists r, norm2_d 0%nat WH = Ok r WH /\ norm2_s 3 0%nat WH = Ok r WH /\ fis r 13.
Proof.
  destruct C90_nonvacuous_vectors as (H1 & _ & _ & H2 & H3 & _ & H4).
  apply (C90_norm2 FOps (2 ^ 53) fis float_whole 0%nat wx 13 WH); auto; rewrite ?H3; auto; lia.
Qed.
Definition WA : mat := mkMat 2%nat 2%nat 2%nat.
Example C90_nonvacuous_cholesky : ismat WH WA 2 2 /\ integer_factor (2 ^ 53) fis 2 (mget WH WA) wM /\ isvec WH 3%nat 2.
Proof.
  split; [repeat split; vm_compute; lia|]. split; [|split; vm_compute; lia]. split; [|split].
  - intros [|[|i]] Hi; [reflexivity|reflexivity|lia].
  - intros [|[|i]] [|[|j]] Hi Hj; try lia; vm_compute; discriminate.
  - intros [|[|i]] [|[|j]] Hi Hj; try lia; lit.
Qed.
Example C90_cholesky_runs : exists F h1 r h2, dyn_cholesky WA WH = Ok F h1 /\ chol_solve_vec true F 3%nat h1 = Ok r h2 /\ ints fis 2 (rd h2 r) ws.
Proof.
  destruct C90_nonvacuous_cholesky as (H1 & H2 & [H3 H4]).
  destruct (C90_cholesky_square FOps (2 ^ 53) fis float_whole 2 WA wM WH H1 ltac:(vm_compute; reflexivity) H2) as (F & h1 & E & X & IF & L).
  assert (V : isvec h1 3%nat 2). { split; [destruct X; lia|]. unfold len. destruct X as [_ X]. now rewrite X. }
  destruct (C90_cholesky_solve FOps (2 ^ 53) fis float_whole true F 2 wM h1 ltac:(lia) IF L) as (S1 & _).
  { intros [|[|i]] Hi; [discriminate|discriminate|lia]. }
  destruct (S1 3%nat V) as (r & h2 & E2 & _ & _ & _ & Q). exists F, h1, r, h2. split; auto. split; auto.
  assert (RE : forall i, rd h1 3%nat i = rd WH 3%nat i). { intros i. unfold rd. destruct X as [_ X]. now rewrite X. }
  apply Q.
  - intros [|[|i]] Hi; [vm_compute; discriminate|vm_compute; discriminate|lia].
  - intros [|[|i]] Hi; [vm_compute; discriminate|vm_compute; discriminate|lia].
  - intros [|[|i]] Hi; [vm_compute; discriminate|vm_compute; discriminate|lia].
  - intros [|[|i]] Hi; [| |lia]; rewrite RE; lit.
Qed.
Example C90_nonvacuous_signed : exists r, @dot_d _ (IOps (2 ^ 31 - 1)) 0%nat 1%nat (heap_of [[Some 40000; Some 2]; [Some 50000; Some (-7)]]) =
    Ok r (heap_of [[Some 40000; Some 2]; [Some 50000; Some (-7)]]) /\ r = Some 1999999986.
Proof. eexists. split; vm_compute; reflexivity. Qed.

(** ** What is not exact *)
(** v / alpha multiplies by the rounded reciprocal: 49 / 49 is not 1. *)
Theorem C90_quotient_refuted : exists (h : heap flt) v alpha h', fis (rd h v 0%nat) 49 /\ fis alpha 49 /\
  op_div_d v alpha h = Ok (next h) h' /\ Coq.Floats.PrimFloat.eqb (rd h' (next h) 0%nat) 1%float = false.
Proof.
  exists (heap_of [[49]%float]), 0%nat, 49%float. eexists. split; [lit|]. split; [lit|]. split; [reflexivity|]. vm_compute. reflexivity.
Qed.
(** Past the bound the order of addition matters: 2^53 + 1 - 1 with ones added first or last. *)
Theorem C90_bound_refuted : exists (h1 h2 : heap flt) r1 r2, Permutation (mem h1 0%nat) (mem h2 0%nat) /\ mem h1 1%nat = [1; 1; 1]%float /\ mem h2 1%nat = [1; 1; 1]%float /\
  dot_d 0%nat 1%nat h1 = Ok r1 h1 /\ dot_d 0%nat 1%nat h2 = Ok r2 h2 /\ Coq.Floats.PrimFloat.eqb r1 r2 = false.
Proof.
  exists (heap_of [[0x1p53; 1; 1]; [1; 1; 1]]%float), (heap_of [[1; 1; 0x1p53]; [1; 1; 1]]%float). eexists. eexists.
  split; [apply (perm_trans (l' := [1; 0x1p53; 1]%float)); [apply perm_swap|apply perm_skip, perm_swap]|]. split; [reflexivity|]. split; [reflexivity|].
  split; [vm_compute; reflexivity|]. split; [vm_compute; reflexivity|]. vm_compute. reflexivity.
Qed.
