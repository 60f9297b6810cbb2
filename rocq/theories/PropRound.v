(** * Properties C60 - C67: the results in rounded arithmetic

    The code is run with scalar operators [O] on real numbers that each commit a relative error of
    at most [u] ([Approx O u], SpecRound.v); everything a theorem compares with is exact: [dotR],
    [mvR], [mmR], [solvesR] are the specification functions with the exact operators of R.

    [Approx] holds for IEEE arithmetic as long as nothing overflows, underflows or is a NaN;
    RoundFlocq.v gives the instance for 53-bit rounding.  [gamma u k] is at most k u / (1 - k u). *)
From Coq Require Import Reals Lra Lia Permutation.
From Verif Require Import Base Scalar BaseLemmas Spec Sums RealVec ModelVec ModelMat SpecMat ModelPacked ProofPacked ModelSparse
  PropPacked ProofVec ProofVecProp ProofMatOps ProofVecSched ModelSolvers ModelIter ProofTdma ProofTdmaBits ProofChol ProofCholSolve ProofCholMath ProofIlu
  PropVec PropMat PropTdma PropChol PropCholSolve PropIlu PropRepeat ProofSparse SpecSparse PropSparse ProofSpmv PropSpmv
  SpecRound Rounding ProofBackSub ProofRound ProofRound2.
Local Open Scope R_scope.

Local Notation dotR := (@dotp R ROps).
Local Notation mvR := (@mvmul R ROps).
Local Notation mmR := (@mmmul R ROps).
Local Notation solvesR := (@solves R ROps).
Local Notation sumR := (@bsum R ROps).
(** The lower triangle of a factor, and the triangles of an incomplete factorisation. *)
Local Notation lowR := (@lowf R ROps).
Local Notation lfacR := (@lfac R ROps).
Local Notation ufacR := (@ufac R ROps).

Lemma fsum_zero_bsum {T} {O : Ops T} n (f : nat -> T) : fsum n zero f = bsum n f.
Proof. induction n as [|n IH]; [reflexivity|]. cbn [fsum bsum]. now rewrite IH. Qed.

Section Rounded.
Context (O : Ops R) (u : R) (AX : Approx O u).

Lemma pert_mul_r k a a' b : pert (u := u) k a a' -> pert (u := u) k (a * b) (a' * b).
Proof. intros (t & N & ->). exists t. split; auto. ring. Qed.
Lemma pert_of_mul a b : pert (u := u) 1 (a * b) (mul a b).
Proof. destruct (mul_near (u := u) a b) as (t & N & E). exists t. auto. Qed.

(** ** C60: dot products *)

(** The value returned is the exact dot product of nearby vectors, and close to the exact one in
    proportion to the sum of the sizes of the products. *)
Theorem C60_dot : forall x y (h : heap R), let n := len h x in
  fits_u32 n = true -> (0 < n)%nat -> n = len h y ->
  exists r x', dot_d x y h = Ok r h /\ dot_member_d x y h = Ok r h /\
    vclose u n n (rd h x) x' /\ r = dotR n x' (rd h y) /\
    Rabs (r - dotR n (rd h x) (rd h y)) <= gamma u n * dotR n (vabs (rd h x)) (vabs (rd h y)).
Proof.
  intros x y h n Hf Hn Hl. destruct (C05_dot_exact_order R O x y h Hf Hn Hl) as [E1 E2].
  destruct (dot_back (u := u) n (rd h x) (rd h y) Hn) as (x' & P & E).
  exists (lsum (fun i => mul (rd h x i) (rd h y i)) (n - 1)), x'.
  split; [exact E1|]. split; [exact E2|]. split; [intros i Hi; apply pert_close; auto|]. split; [exact E|].
  rewrite E. unfold dotp, vabs. cbn [mul ROps].
  rewrite (rsum_ext n (fun k => Rabs (rd h x k) * Rabs (rd h y k)) (fun k => Rabs (rd h x k * rd h y k))) by (intros; now rewrite Rabs_mult).
  apply pert_sum. intros i Hi. now apply pert_mul_r, P.
Qed.

(** However the additions are grouped and ordered (a parallel or vectorised reduction over the
    products, with any number of lanes starting from zero), with the height of the tree in place
    of the length. *)
Theorem C60_any_reduction_order : forall n (x y : nat -> R) t k,
  Permutation (leaves t) (map (fun i => mul (x i) (y i)) (seq 0 n) ++ repeat zero k) ->
  Rabs (reval t - dotR n x y) <= gamma u (S (depth t)) * dotR n (vabs x) (vabs y).
Proof.
  intros n x y t k HP. unfold dotp, vabs. cbn [mul ROps].
  rewrite (rsum_ext n (fun k => Rabs (x k) * Rabs (y k)) (fun k => Rabs (x k * y k))) by (intros; now rewrite Rabs_mult).
  eapply tree_dot; eauto.
Qed.

(** ** C61: norms *)
Theorem C61_norm2 : forall x (h : heap R), let n := len h x in fits_u32 n = true ->
  exists r, norm2_d x h = Ok r h /\ norm2_s n x h = Ok r h /\ 0 <= r /\
    Rabs (r - nrm n (rd h x)) <= gamma u (n + 2) * nrm n (rd h x).
Proof.
  intros x h n Hf. eexists. split; [now apply norm2_d_ok|]. split; [now apply norm2_s_ok|].
  assert (P : pert (u := u) (n + 2) (nrm n (rd h x)) (sqrt_ (bsum n (fun i => mul (rd h x i) (rd h x i))))).
  { pose proof (norm_round (u := u) n (rd h x)) as P.
    now rewrite fsum_zero_bsum in P. }
  split.
  - destruct P as (t & Nt & E). fold n. rewrite E. apply (near_pos u_range) in Nt. apply Rmult_le_pos; [apply nrm_nonneg|lra].
  - rewrite <- (Rabs_pos_eq (nrm n (rd h x))) at 2 by apply nrm_nonneg. now apply pert_close.
Qed.

Theorem C61_any_reduction_order : forall n (x : nat -> R) t k,
  Permutation (leaves t) (map (fun i => mul (x i) (x i)) (seq 0 n) ++ repeat zero k) ->
  Rabs (sqrt_ (reval t) - nrm n x) <= gamma u (depth t + 2) * nrm n x.
Proof.
  intros n x t k HP. rewrite <- (Rabs_pos_eq (nrm n x)) at 2 by apply nrm_nonneg. apply pert_close. eapply norm_tree; eauto.
Qed.

(** ** C62: matrix products *)
Lemma affine_round m (c cy : R) (a x : nat -> R) alpha : pert (u := u) 1 cy c ->
  Rabs (fsum m c (fun k => mul (mul alpha (a k)) (x k)) - (alpha * dotR m a x + cy))
    <= gamma u (m + 2) * (Rabs alpha * dotR m (vabs a) (vabs x) + Rabs cy).
Proof.
  intros Pc.
  replace (alpha * dotR m a x + cy) with (cy + sumR m (fun k => alpha * (a k * x k))) by (rewrite rsum_scal; unfold dotp; cbn [mul ROps]; ring).
  replace (Rabs alpha * dotR m (vabs a) (vabs x) + Rabs cy) with (Rabs cy + sumR m (fun k => Rabs (alpha * (a k * x k)))).
  - apply (fsum_round m cy 1 c); auto. intros k Hk.
    destruct (mul_near (u := u) alpha (a k)) as (s & Ns & Es). destruct (mul_near (u := u) (mul alpha (a k)) (x k)) as (t & Nt & Et).
    exists (s * t). split; [change 2%nat with (1 + 1)%nat; now apply (near_mul u_range)|]. rewrite Et, Es. ring.
  - rewrite (rsum_ext m _ (fun k => Rabs alpha * (Rabs (a k) * Rabs (x k)))) by (intros; now rewrite !Rabs_mult).
    rewrite rsum_scal. unfold dotp, vabs. cbn [mul ROps]. ring.
Qed.

(** mul(alpha, A, x, beta, y); x and y may be the same vector. *)
Theorem C62_matvec : forall dbg alpha A x beta y n m (h : heap R),
  fits_u32 n = true -> fits_u32 m = true -> ismat h A n m -> isvec h x m -> isvec h y n -> mp A <> y ->
  exists h', mulv dbg alpha A x beta y h = Ok y h' /\ ext_but h h' y /\ isvec h' y n /\
    forall i, (i < n)%nat ->
      Rabs (rd h' y i - (alpha * mvR m (mget h A) (rd h x) i + beta * rd h y i))
        <= gamma u (m + 2) * (Rabs alpha * mvR m (mabs (mget h A)) (vabs (rd h x)) i + Rabs (beta * rd h y i)).
Proof.
  intros dbg alpha A x beta y n m h Hn Hm HA Hx Hy Hd.
  destruct (C14_matvec_exact R O dbg alpha A x beta y n m h Hn Hm HA Hx Hy Hd) as (h' & E & H1 & H2 & H3).
  exists h'. split; [exact E|]. split; [exact H1|]. split; [exact H2|]. intros i Hi. rewrite H3 by auto.
  apply (affine_round m _ (beta * rd h y i) (fun k => mget h A i k)). apply pert_of_mul.
Qed.

(** The operator A * x. *)
Theorem C62_matvec_operator : forall dbg A x n m (h : heap R),
  fits_u32 n = true -> fits_u32 m = true -> ismat h A n m -> isvec h x m ->
  exists y h', op_mulv dbg A x h = Ok y h' /\ ext h h' /\ isvec h' y n /\
    forall i, (i < n)%nat ->
      Rabs (rd h' y i - mvR m (mget h A) (rd h x) i) <= gamma u (m + 2) * mvR m (mabs (mget h A)) (vabs (rd h x)) i.
Proof.
  intros dbg A x n m h Hn Hm HA Hx.
  destruct (post_ok _ _ _ (op_mulv_ok dbg A x n m h Hn Hm HA Hx)) as (y & h' & E & H1 & H2 & H3 & H4).
  exists y, h'. split; [exact E|]. split; [exact H1|]. split; [exact H3|]. intros i Hi. rewrite H4 by auto.
  pose proof (affine_round m (mul zero zero) 0 (fun k => mget h A i k) (rd h x) one) as B.
  rewrite Rabs_R0, !Rplus_0_r in B. rewrite ax_one in *. rewrite Rabs_R1, !Rmult_1_l in B. apply B.
  pose proof (pert_of_mul zero zero) as Z. rewrite ax_zero, Rmult_0_l in *. exact Z.
Qed.

(** mul(alpha, A, B, beta, C); C may be the same matrix as A or B. *)
Theorem C62_matmat : forall dbg alpha A B beta C n m o (h : heap R),
  fits_u32 n = true -> fits_u32 m = true -> fits_u32 o = true -> ismat h A n o -> ismat h B o m -> ismat h C n m ->
  exists h', mulm dbg alpha A B beta C h = Ok C h' /\ ext_but h h' (mp C) /\ ismat h' C n m /\
    forall i j, (i < n)%nat -> (j < m)%nat ->
      Rabs (mget h' C i j - (alpha * mmR o (mget h A) (mget h B) i j + beta * mget h C i j))
        <= gamma u (o + 2) * (Rabs alpha * mmR o (mabs (mget h A)) (mabs (mget h B)) i j + Rabs (beta * mget h C i j)).
Proof.
  intros dbg alpha A B beta C n m o h Hn Hm Ho HA HB HC.
  destruct (C15_matmat_exact R O dbg alpha A B beta C n m o h Hn Hm Ho HA HB HC) as (h' & E & H1 & H2 & H3).
  exists h'. split; [exact E|]. split; [exact H1|]. split; [exact H2|]. intros i j Hi Hj. rewrite H3 by auto.
  apply (affine_round o _ (beta * mget h C i j) (fun k => mget h A i k) (fun k => mget h B k j)).
  destruct (_ || _); [apply pert_of_mul|rewrite Rmult_comm; apply pert_of_mul].
Qed.

(** The operator A * B. *)
Theorem C62_matmat_operator : forall dbg A B n m o (h : heap R),
  fits_u32 n = true -> fits_u32 m = true -> fits_u32 o = true -> ismat h A n o -> ismat h B o m ->
  exists C h', op_mulm dbg A B h = Ok C h' /\ ext h h' /\ ismat h' C n m /\
    forall i j, (i < n)%nat -> (j < m)%nat ->
      Rabs (mget h' C i j - mmR o (mget h A) (mget h B) i j) <= gamma u (o + 2) * mmR o (mabs (mget h A)) (mabs (mget h B)) i j.
Proof.
  intros dbg A B n m o h Hn Hm Ho HA HB.
  destruct (post_ok _ _ _ (op_mulm_ok dbg A B n m o h Hn Hm Ho HA HB)) as (C & h' & E & H1 & H2 & H3 & H4).
  exists C, h'. split; [exact E|]. split; [exact H1|]. split; [exact H3|]. intros i j Hi Hj. rewrite H4 by auto.
  pose proof (affine_round o (mul zero zero) 0 (fun k => mget h A i k) (fun k => mget h B k j) one) as B'.
  rewrite Rabs_R0, !Rplus_0_r in B'. rewrite ax_one in *. rewrite Rabs_R1, !Rmult_1_l in B'. apply B'.
  pose proof (pert_of_mul zero zero) as Z. rewrite ax_zero, Rmult_0_l in *. exact Z.
Qed.

(** ** C63: back substitution *)
Theorem C63_back_sub : forall (U : utri R) n f y (h : heap R),
  utri_wf U n -> (forall i j, (i < n)%nat -> (j < n)%nat -> forall S (s : S), utri_get U i j s = Ok (f i j) s) ->
  isvec h y n -> (forall i, (i < n)%nat -> f i i <> 0) ->
  exists h' U', back_sub U y h = Ok tt h' /\ ext_but h h' y /\ isvec h' y n /\
    mclose u n n n f U' /\ solvesR n U' (rd h' y) (rd h y).
Proof.
  intros U n f y h W RD Hy Hd.
  destruct (post_ok _ _ _ (back_sub_bits U y n f h (proj1 W) RD Hy)) as ([] & h' & E & H1 & H2 & H3 & H4).
  destruct (upper_back (u := u) n f (rd h y) (rd h' y) Hd H4) as (U1 & P & S).
  exists h', U1. split; [exact E|]. split; [exact H1|]. split; [exact H3|]. split; [|exact S].
  intros i j Hi Hj. specialize (P i j Hi Hj). apply pert_close in P. unfold upf in P. destruct (Nat.leb_spec i j) as [L|L]; [exact P|].
  assert (Z : f i j = 0). { specialize (RD i j Hi Hj unit tt). rewrite utri_get_below in RD by auto. rewrite <- (ax_zero (O := O) (u := u)). congruence. }
  now rewrite Z.
Qed.

(** ** C64: Cholesky *)
Definition LLt n (L : nat -> nat -> R) : nat -> nat -> R := mmR n (lowR L) (transp (lowR L)).
(** |L| |L^T| *)
Definition absLLt n (L : nat -> nat -> R) : nat -> nat -> R := mmR n (mabs (lowR L)) (transp (mabs (lowR L))).

Lemma ctor_round m h h0 F n (A : nat -> nat -> R) h' : ctor_outcome m h h0 F n A -> isfac h0 F n ->
  m h = Ok F h' -> (forall i, (i < n)%nat -> 0 < fac h' F i i) -> isfac h' F n /\ factored n A (fac h' F).
Proof.
  intros (h1 & Fr & Out) I E P. destruct Out as [[D Q]|[[D Q]|(c & Hc & D & Q)]]; rewrite Q in E; try discriminate; injection E as <-.
  - split; [|exact D]. destruct I as (I1 & I2 & I3), Fr as (N & M & L & _). repeat split; auto; [lia|]. now rewrite L.
  - destruct D as (Hn & _ & _ & D0 & B & _). apply bad_A in B. pose proof (P 0%nat Hn) as P0. rewrite D0 in P0. lra.
Qed.
Lemma dyn_ctor_round n A (h : heap R) F h' : ismat h A n n -> fits_u32 n = true -> dyn_cholesky A h = Ok F h' ->
  (forall i, (i < n)%nat -> 0 < fac h' F i i) -> isfac h' F n /\ factored n (mget h A) (fac h' F).
Proof.
  intros HA Hf E P. pose proof (dyn_outcome n A h HA Hf) as Out.
  assert (EF : F = mkChol n (next h) Square).
  { destruct Out as (h1 & _ & [[_ Q]|[[_ Q]|(c & _ & _ & Q)]]); rewrite Q in E; congruence. }
  subst F. eapply ctor_round; eauto. destruct HA as (_ & _ & _ & A4). repeat split.
  - unfold halloc. cbn [chp next]. lia.
  - unfold len. cbn [chp]. rewrite mem_halloc_same. exact A4.
Qed.
Lemma tri_ctor_round n H (h : heap R) F h' : herm_wf H n -> fits_u32 n = true -> tri_cholesky H h = Ok F h' ->
  (forall i, (i < n)%nat -> 0 < fac h' F i i) -> isfac h' F n /\ factored n (hmat H) (fac h' F).
Proof.
  intros HA Hf E P. pose proof (tri_outcome n H h HA Hf) as Out.
  assert (EF : F = mkChol n (next h) Triangle).
  { destruct Out as (h1 & _ & [[_ Q]|[[_ Q]|(c & _ & _ & Q)]]); rewrite Q in E; congruence. }
  subst F. eapply ctor_round; eauto. destruct HA as (_ & A4). repeat split.
  - unfold halloc. cbn [chp next]. lia.
  - unfold len. cbn [chp]. rewrite mem_halloc_same. exact A4.
Qed.

(** The computed factor satisfies A = L L^T up to (n+1) roundings of |L||L^T|, entry by entry. *)
Theorem C64_factor_square : forall n A (h : heap R) F h', ismat h A n n -> fits_u32 n = true ->
  dyn_cholesky A h = Ok F h' -> (forall i, (i < n)%nat -> 0 < mget h' (factor_mat F) i i) ->
  mwithin u (n + 1) n n (absLLt n (mget h' (factor_mat F))) (LLt n (mget h' (factor_mat F))) (symf (mget h A)).
Proof.
  intros n A h F h' HA Hf E P.
  assert (EF : F = mkChol n (next h) Square).
  { destruct (dyn_outcome n A h HA Hf) as (h1 & _ & [[_ Q]|[[_ Q]|(c & _ & _ & Q)]]); rewrite Q in E; congruence. }
  subst F. destruct (dyn_ctor_round n A h _ h' HA Hf E P) as [_ D].
  rewrite Nat.add_1_r. exact (chol_product_round n (mget h A) _ D).
Qed.
Theorem C64_factor_packed : forall n H (h : heap R) F h', herm_wf H n -> fits_u32 n = true ->
  tri_cholesky H h = Ok F h' -> (forall i, (i < n)%nat -> 0 < fac h' F i i) ->
  mwithin u (n + 1) n n (absLLt n (fac h' F)) (LLt n (fac h' F)) (hmat H).
Proof.
  intros n H h F h' HA Hf E P i j Hi Hj. destruct (tri_ctor_round n H h _ h' HA Hf E P) as [_ D].
  rewrite Nat.add_1_r. rewrite <- (symf_sym n (hmat H) (hmat_symmetric n H) i j Hi Hj). exact (chol_product_round n (hmat H) _ D i j Hi Hj).
Qed.

(** [x] solves exactly a system whose matrix differs from [A] by at most gamma k times [B]. *)
Definition backward k n (B A : nat -> nat -> R) (b x : nat -> R) : Prop :=
  exists A', mwithin u k n n B A A' /\ solvesR n A' x b.

Lemma subst_backward n L b x : (forall i, (i < n)%nat -> L i i <> 0) -> substituted n L b x ->
  backward (2 * n) n (absLLt n L) (LLt n L) b x.
Proof.
  intros Hd (Y & HY & HX).
  destruct (lower_back (u := u) n L b Y Hd HY) as (L1 & P1 & S1).
  destruct (upper_back (u := u) n (fun a b => L b a) Y x Hd HX) as (U1 & P2 & S2).
  exists (mprod n L1 U1). split; [|exact (mprod_solves n L1 U1 x Y b S1 S2)].
  replace (2 * n)%nat with (n + n)%nat by lia.
  exact (mprod_pert n n n (lof L) L1 (fun a b => lof L b a) U1 P1 P2).
Qed.

(** Solving with any factor whose diagonal has no zero: the four calling forms. *)
Theorem C64_solve : forall dbg F n (h : heap R), (Z.of_nat n < 2 ^ 31)%Z -> isfac h F n ->
  (forall i, (i < n)%nat -> fac h F i i <> 0) ->
  let Q := backward (2 * n) n (absLLt n (fac h F)) (LLt n (fac h F)) in
  (forall rhs, isvec h rhs n -> vec_outofplace Q (chol_solve_vec dbg F) h n rhs) /\
  (forall rhs, isvec h rhs n -> chp F <> rhs -> vec_inplace Q (chol_solve_mut_vec dbg F) h n rhs) /\
  (forall m X, ismat h X n m -> fits_u32 m = true -> mat_outofplace Q (chol_solve_mat dbg F) h n m X) /\
  (forall m X, ismat h X n m -> fits_u32 m = true -> chp F <> mp X -> mat_inplace Q (chol_solve_mut_mat dbg F) h n m X).
Proof.
  intros dbg F n h Hn HF Hd Q.
  assert (RR : forall b x, substituted n (fac h F) b x -> Q b x) by (intros b x; now apply subst_backward).
  split; [|split; [|split]]; intros.
  - eapply vec_out_mono; [exact RR|now apply chol_vec_out].
  - eapply vec_in_mono; [exact RR|now apply chol_vec_in].
  - eapply mat_out_mono; [exact RR|now apply chol_mat_out].
  - eapply mat_in_mono; [exact RR|now apply chol_mat_in].
Qed.

(** Factorise and solve: the result solves a nearby system. *)
Lemma solve_forms_round dbg F n A (h : heap R) : (Z.of_nat n < 2 ^ 31)%Z -> isfac h F n -> factored n A (fac h F) ->
  let Q := backward (3 * n + 1) n (absLLt n (fac h F)) (symf A) in
  (forall rhs, isvec h rhs n -> vec_outofplace Q (chol_solve_vec dbg F) h n rhs) /\
  (forall rhs, isvec h rhs n -> chp F <> rhs -> vec_inplace Q (chol_solve_mut_vec dbg F) h n rhs) /\
  (forall m X, ismat h X n m -> fits_u32 m = true -> mat_outofplace Q (chol_solve_mat dbg F) h n m X) /\
  (forall m X, ismat h X n m -> fits_u32 m = true -> chp F <> mp X -> mat_inplace Q (chol_solve_mut_mat dbg F) h n m X).
Proof.
  intros Hn HF D Q.
  assert (RR : forall b x, substituted n (fac h F) b x -> Q b x) by (intros b x; exact (chol_solve_round n A (fac h F) b x D)).
  split; [|split; [|split]]; intros.
  - eapply vec_out_mono; [exact RR|now apply chol_vec_out].
  - eapply vec_in_mono; [exact RR|now apply chol_vec_in].
  - eapply mat_out_mono; [exact RR|now apply chol_mat_out].
  - eapply mat_in_mono; [exact RR|now apply chol_mat_in].
Qed.
Theorem C64_square : forall dbg n A (h : heap R) F h1, ismat h A n n -> (Z.of_nat n < 2 ^ 31)%Z ->
  dyn_cholesky A h = Ok F h1 -> (forall i, (i < n)%nat -> 0 < fac h1 F i i) ->
  let Q := backward (3 * n + 1) n (absLLt n (fac h1 F)) (symf (mget h A)) in
  (forall rhs, isvec h1 rhs n -> vec_outofplace Q (chol_solve_vec dbg F) h1 n rhs) /\
  (forall rhs, isvec h1 rhs n -> chp F <> rhs -> vec_inplace Q (chol_solve_mut_vec dbg F) h1 n rhs) /\
  (forall m X, ismat h1 X n m -> fits_u32 m = true -> mat_outofplace Q (chol_solve_mat dbg F) h1 n m X) /\
  (forall m X, ismat h1 X n m -> fits_u32 m = true -> chp F <> mp X -> mat_inplace Q (chol_solve_mut_mat dbg F) h1 n m X).
Proof.
  intros dbg n A h F h1 HA Hn E P. destruct (dyn_ctor_round n A h F h1 HA) as [I D]; auto.
  { unfold fits_u32. apply Z.ltb_lt. lia. }
  now apply solve_forms_round.
Qed.
Theorem C64_packed : forall dbg n H (h : heap R) F h1, herm_wf H n -> (Z.of_nat n < 2 ^ 31)%Z ->
  tri_cholesky H h = Ok F h1 -> (forall i, (i < n)%nat -> 0 < fac h1 F i i) ->
  let Q := backward (3 * n + 1) n (absLLt n (fac h1 F)) (symf (hmat H)) in
  (forall rhs, isvec h1 rhs n -> vec_outofplace Q (chol_solve_vec dbg F) h1 n rhs) /\
  (forall rhs, isvec h1 rhs n -> chp F <> rhs -> vec_inplace Q (chol_solve_mut_vec dbg F) h1 n rhs) /\
  (forall m X, ismat h1 X n m -> fits_u32 m = true -> mat_outofplace Q (chol_solve_mat dbg F) h1 n m X) /\
  (forall m X, ismat h1 X n m -> fits_u32 m = true -> chp F <> mp X -> mat_inplace Q (chol_solve_mut_mat dbg F) h1 n m X).
Proof.
  intros dbg n H h F h1 HA Hn E P. destruct (tri_ctor_round n H h F h1 HA) as [I D]; auto.
  { unfold fits_u32. apply Z.ltb_lt. lia. }
  now apply solve_forms_round.
Qed.
(** |L||L^T| is no larger than the diagonal of A allows, so there is no growth. *)
Theorem C64_no_growth : forall n A (h : heap R) F h1 i j, ismat h A n n -> fits_u32 n = true ->
  dyn_cholesky A h = Ok F h1 -> (forall i, (i < n)%nat -> 0 < fac h1 F i i) -> gamma u (n + 1) < 1 ->
  (i < n)%nat -> (j < n)%nat ->
  absLLt n (fac h1 F) i j <= sqrt (mget h A i i) * sqrt (mget h A j j) / (1 - gamma u (n + 1)).
Proof.
  intros n A h F h1 i j HA Hf E P G Hi Hj. rewrite Nat.add_1_r in *.
  destruct (dyn_ctor_round n A h F h1 HA Hf E P) as [_ D]. now apply (chol_abs_bound n (mget h A) (fac h1 F)).
Qed.

(** ** C65: modified Cholesky *)
(** L D^-1, unit lower triangular. *)
Definition scaled (L : nat -> nat -> R) (i j : nat) : R := if Nat.leb j i then L i j / L j j else 0.
Definition LDLt n (L : nat -> nat -> R) := mmR n (scaled L) (transp (lowR L)).
Definition absLDLt n (L : nat -> nat -> R) := mmR n (mabs (scaled L)) (transp (mabs (lowR L))).

Lemma mod_ctor_round n A (h : heap R) F h1 : ismat h A n n -> fits_u32 n = true -> mod_cholesky A h = Ok F h1 ->
  isfac h1 F n /\ mfactored n (mget h A) (fac h1 F).
Proof.
  intros HA Hf E. destruct (mod_outcome R O n A h HA Hf) as (h' & X & N & U & [(E' & Mf & I)|(E' & _)]); rewrite E' in E; [|discriminate].
  injection E as <- <-. split; [|exact Mf]. destruct I as (I1 & I2 & I3 & I4). repeat split; auto.
Qed.
Theorem C65_factor : forall n A (h : heap R) F h1, ismat h A n n -> fits_u32 n = true -> mod_cholesky A h = Ok F h1 ->
  (forall i, (i < n)%nat -> fac h1 F i i <> 0) /\
  mwithin u (n + 1) n n (absLDLt n (fac h1 F)) (LDLt n (fac h1 F)) (symf (mget h A)).
Proof.
  intros n A h F h1 HA Hf E. destruct (mod_ctor_round n A h F h1 HA Hf E) as [_ D]. split.
  - intros i Hi. exact (mod_diag_nz n (mget h A) _ i D Hi).
  - rewrite Nat.add_1_r. exact (mod_product_within n (mget h A) _ D).
Qed.
Theorem C65_solve : forall dbg n A (h : heap R) F h1, ismat h A n n -> (Z.of_nat n < 2 ^ 31)%Z -> mod_cholesky A h = Ok F h1 ->
  let Q := backward (3 * n + 2) n (absLDLt n (fac h1 F)) (symf (mget h A)) in
  (forall rhs, isvec h1 rhs n -> vec_outofplace Q (mod_solve_vec dbg F) h1 n rhs) /\
  (forall rhs, isvec h1 rhs n -> chp F <> rhs -> vec_inplace Q (mod_solve_mut_vec dbg F) h1 n rhs) /\
  (forall m X, ismat h1 X n m -> fits_u32 m = true -> mat_outofplace Q (mod_solve_mat dbg F) h1 n m X) /\
  (forall m X, ismat h1 X n m -> fits_u32 m = true -> chp F <> mp X -> mat_inplace Q (mod_solve_mut_mat dbg F) h1 n m X).
Proof.
  intros dbg n A h F h1 HA Hn E Q. destruct (mod_ctor_round n A h F h1 HA) as [HF D]; auto.
  { unfold fits_u32. apply Z.ltb_lt. lia. }
  assert (RR : forall b x, usubstituted n (fac h1 F) b x -> Q b x) by (intros b x; exact (mod_solve_round n (mget h A) (fac h1 F) b x D)).
  split; [|split; [|split]]; intros.
  - eapply vec_out_mono; [exact RR|now apply mod_vec_out].
  - eapply vec_in_mono; [exact RR|now apply mod_vec_in].
  - eapply mat_out_mono; [exact RR|now apply mod_mat_out].
  - eapply mat_in_mono; [exact RR|now apply mod_mat_in].
Qed.

(** ** C66: incomplete LU *)
Lemma ulof_lfac F i j : ulof F i j = lfacR F i j.
Proof. unfold ulof, lfac. destruct (Nat.eqb_spec i j) as [->|]; [now rewrite Nat.ltb_irrefl|]. destruct (Nat.ltb j i); reflexivity. Qed.
Lemma lu_eq n F i j : mprod n (ulof F) (upf F) i j = mmR n (lfacR F) (ufacR F) i j.
Proof. apply rsum_ext. intros k Hk. now rewrite ulof_lfac. Qed.
Lemma lu_abs_eq n F i j : mprod n (mabs (ulof F)) (mabs (upf F)) i j = mmR n (mabs (lfacR F)) (mabs (ufacR F)) i j.
Proof. apply rsum_ext. intros k Hk. unfold mabs. now rewrite ulof_lfac. Qed.

(** On the positions of A the product of the triangles is A up to n roundings; elsewhere the
    factors hold nothing. *)
Definition ilu_rounded n (a f : nat -> nat -> R) : Prop :=
  forall i j, (i < n)%nat -> (j < n)%nat ->
    (a i j = 0 -> f i j = 0) /\
    (a i j <> 0 -> Rabs (a i j - mmR n (lfacR f) (ufacR f) i j) <= gamma u n * mmR n (mabs (lfacR f)) (mabs (ufacR f)) i j).
Lemma done_rounded n m a f : ilu_done n m a f -> (forall i j, (i < n)%nat -> (m <= j)%nat -> (j < n)%nat -> a i j = 0 /\ f i j = 0) ->
  ilu_rounded n a f.
Proof.
  intros D B i j Hi Hj. destruct (Nat.le_gt_cases m j) as [Hm|Hm].
  { destruct (B i j Hi Hm Hj) as [B1 B2]. split; intros; [auto|contradiction]. }
  split.
  - intros Z. destruct (D i Hi) as [DL DU].
    assert (NZ : nzb (a i j) = false). { pose proof (nzb_A (u := u) (a i j)) as N. destruct (nzb (a i j)); auto. exfalso. now apply N. }
    destruct (Nat.lt_ge_cases j i) as [L|L].
    + specialize (DL j L). unfold lrec in DL. rewrite NZ in DL. congruence.
    + specialize (DU j L Hm). unfold urec in DU. rewrite NZ in DU. congruence.
  - intros NZ. rewrite <- lu_eq, <- lu_abs_eq. now apply (ilu_product_round n m).
Qed.
Theorem C66_factor : forall n A h F h', ismat h A n n -> fits_u32 n = true -> ilu_dyn A h = Ok F h' ->
  newmat h h' F n n (mget h' F) /\ ilu_rounded n (mget h A) (mget h' F).
Proof.
  intros n A h F h' HA Hf E. pose proof (ilu_dyn_outcome n A h HA Hf) as P. unfold postx in P. rewrite E in P.
  destruct P as (S & D). split; [auto|]. apply (done_rounded n n); auto. intros; lia.
Qed.
Lemma cview_reads_R A n a : csr_wf A n -> reads_as A n a -> forall i j, (i < n)%nat -> (j < n)%nat -> cview A i j = a i j.
Proof. intros W RA i j Hi Hj. unfold cview. now rewrite (RA unit tt i j Hi Hj). Qed.
Theorem C66_factor_csr : forall n m A a S (s : S) F s', csr_wf A n -> csr_shape A tt = Ok (n, m) tt -> (m <= n)%nat ->
  fits_u32 n = true -> reads_as A n a -> ilu_csr A s = Ok F s' ->
  s' = s /\ csr_wf F n /\ sptr F = sptr A /\ scol F = scol A /\ exists f, reads_as F n f /\ ilu_rounded n a f.
Proof.
  intros n m A a S s F s' W Hs Hm Hf RA E.
  assert (Z : eqb (zero : R) zero = true) by now apply ax_eqb.
  destruct (ilu_csr_outcome n m A S s Z W Hs Hm Hf) as [(F' & E' & W' & E1 & E2 & D)|(F' & E' & _)]; rewrite E' in E; [|discriminate].
  injection E as -> <-. split; [auto|]. split; [auto|]. split; [auto|]. split; [auto|].
  exists (cview F). split.
  { intros S0 s0 i j Hi Hj. now apply (cview_ok F n). }
  pose proof (cview_reads_R A n a W RA) as Ea.
  assert (DR : ilu_rounded n (cview A) (cview F)).
  { apply (done_rounded n m); [exact D|]. intros i j Hi Hj _. rewrite <- !(ax_zero (O := O) (u := u)).
    split; [now apply (cview_beyond A n m unit tt)|]. apply (cview_beyond F n m unit tt); auto. unfold csr_shape, bind in *. now rewrite E1, E2. }
  intros i j Hi Hj. specialize (DR i j Hi Hj). now rewrite (Ea i j Hi Hj) in DR.
Qed.
(** The triangular solves with given factors. *)
Theorem C66_solve : forall n F rhs h, ismat h F n n -> fits_u32 n = true -> isvec h rhs n ->
  (forall i, (i < n)%nat -> mget h F i i <> 0) ->
  exists x h', ilu_dyn_solve F rhs h = Ok x h' /\ newvec h h' x n (rd h' x) /\
    backward (2 * n) n (mmR n (mabs (lfacR (mget h F))) (mabs (ufacR (mget h F)))) (mmR n (lfacR (mget h F)) (ufacR (mget h F)))
      (rd h rhs) (rd h' x).
Proof.
  intros n F rhs h (A1 & A2 & A3 & A4) Hf HV Hd.
  pose proof (ilu_solve_ok (mat_get F) (mget h F) n rhs h Hf HV) as P.
  assert (G : forall h1 i j, ext h h1 -> (i < n)%nat -> (j < n)%nat -> mat_get F i j h1 = Ok (mget h F i j) h1).
  { intros h1 i j [X1 X2] Hi Hj. unfold mat_get, load, mget, rd. rewrite X2 by auto.
    destruct (nth_error (mem h (mp F)) (i * mc F + j)) as [v|] eqn:E.
    - f_equal. symmetry. now apply nth_error_nth.
    - exfalso. apply nth_error_None in E. unfold len in A4. rewrite A3 in E. nia. }
  specialize (P G). unfold post, ilu_dyn_solve in *.
  destruct (ilu_solve (mat_get F) rhs h) as [x h'|e h'| | | |]; try contradiction.
  destruct P as [N Sv]. exists x, h'. split; [auto|]. split; [auto|].
  destruct (ilu_solve_round (u := u) n _ _ _ Hd Sv) as (M & B & Q). exists M. split; [|exact Q].
  intros i j Hi Hj. rewrite <- lu_eq, <- lu_abs_eq. now apply B.
Qed.
Theorem C66_solve_csr : forall n F f rhs h, csr_wf F n -> reads_as F n f -> fits_u32 n = true -> isvec h rhs n ->
  (forall i, (i < n)%nat -> f i i <> 0) ->
  exists x h', ilu_csr_solve F rhs h = Ok x h' /\ newvec h h' x n (rd h' x) /\
    backward (2 * n) n (mmR n (mabs (lfacR f)) (mabs (ufacR f))) (mmR n (lfacR f) (ufacR f)) (rd h rhs) (rd h' x).
Proof.
  intros n F f rhs h W RA Hf HV Hd.
  pose proof (ilu_solve_ok (csr_get F) f n rhs h Hf HV) as P.
  assert (G : forall h1 i j, ext h h1 -> (i < n)%nat -> (j < n)%nat -> csr_get F i j h1 = Ok (f i j) h1) by (intros; now apply RA).
  specialize (P G). unfold post, ilu_csr_solve in *.
  destruct (ilu_solve (csr_get F) rhs h) as [x h'|e h'| | | |]; try contradiction.
  destruct P as [N Sv]. exists x, h'. split; [auto|]. split; [auto|].
  destruct (ilu_solve_round (u := u) n _ _ _ Hd Sv) as (M & B & Q). exists M. split; [|exact Q].
  intros i j Hi Hj. rewrite <- lu_eq, <- lu_abs_eq. now apply B.
Qed.

(** ** C67: the tridiagonal solver *)
(** Diagonal dominance by rows with a margin for rounding. *)
Definition dominant_margin n (A : nat -> nat -> R) : Prop :=
  forall i, (i < n)%nat -> sumR n (fun j => if Nat.eqb j i then 0 else Rabs (A i j)) < (1 - u) ^ 2 * Rabs (A i i).
Definition tridiagonal n (A : nat -> nat -> R) : Prop :=
  forall i j, (i < n)%nat -> (j < n)%nat -> (i + 1 < j)%nat \/ (j + 1 < i)%nat -> A i j = 0.

Lemma tmat_trif (t : tri R) i j : tmat t i j = trif (atf (tdl t)) (atf (td t)) (atf (tdu t)) i j.
Proof. unfold tmat, band, trif, atf. rewrite ax_zero. reflexivity. Qed.
Lemma dominant_bands (t : tri R) n : dominant_margin n (tmat t) -> dominant (u := u) n (atf (tdl t)) (atf (td t)) (atf (tdu t)).
Proof.
  intros D i Hi. specialize (D i Hi). eapply Rle_lt_trans; [|rewrite tmat_trif in D; unfold trif in D; rewrite Nat.eqb_refl in D; exact D].
  pose (z := fun j => if Nat.eqb j i then 0 else 1).
  assert (E : sumR n (fun j => if Nat.eqb j i then 0 else Rabs (tmat t i j)) =
    sumR n (fun j => trif (fun k => Rabs (atf (tdl t) k)) (fun _ => 0) (fun k => Rabs (atf (tdu t) k)) i j * 1)).
  { apply rsum_ext. intros j Hj. rewrite tmat_trif. unfold trif. rewrite (Nat.eqb_sym i j). destruct (Nat.eqb j i); [ring|].
    destruct (Nat.eqb j (i + 1)); [ring|]. destruct (Nat.eqb i (j + 1)); [ring|]. rewrite Rabs_R0. ring. }
  right. rewrite E. destruct i as [|i].
  - rewrite (trif_row0 n _ _ _ (fun _ => 1)) by auto. cbn [Nat.eqb]. destruct n as [|[|n]]; cbn; ring.
  - rewrite (trif_row n _ _ _ (fun _ => 1)) by auto. change (Nat.eqb (S i) 0) with false. cbv iota. replace (S i - 1)%nat with i by lia.
    destruct (Nat.eqb (S (S i)) n); ring.
Qed.

(** For a dominant matrix the solver meets no zero pivot, and its result is the exact solution for
    a tridiagonal matrix each entry of which is within eleven roundings, whatever the order n. *)
Lemma dominant_near n (t : tri R) (b x : nat -> R) : dominant_margin n (tmat t) ->
  swept n (atf (tdl t)) (atf (td t)) (atf (tdu t)) b x ->
  exists A', tridiagonal n A' /\ mclose u 11 n n (tmat t) A' /\ solvesR n A' x b.
Proof.
  intros D Sw. destruct (tri_backward_dominant n _ _ _ _ _ (dominant_bands t n D) Sw) as (l' & d' & u' & H1 & H2 & H3 & H4).
  exists (trif l' d' u'). split; [|split; [|exact H4]].
  - intros i j Hi Hj Hd. unfold trif. destruct (Nat.eqb_spec i j); [lia|]. destruct (Nat.eqb_spec j (i + 1)); [lia|].
    destruct (Nat.eqb_spec i (j + 1)); [lia|reflexivity].
  - intros i j Hi Hj. rewrite tmat_trif. unfold trif. pose proof u_range as Hu.
    destruct (Nat.eqb_spec i j) as [->|N1]; [now apply H3|].
    destruct (Nat.eqb_spec j (i + 1)) as [->|N2].
    + eapply Rle_trans; [apply H2; lia|]. apply Rmult_le_compat_r; [apply Rabs_pos|]. apply (gamma_mono Hu). lia.
    + destruct (Nat.eqb_spec i (j + 1)) as [->|N3].
      * eapply Rle_trans; [apply H1; lia|]. apply Rmult_le_compat_r; [apply Rabs_pos|]. apply (gamma_mono Hu). lia.
      * rewrite Rminus_0_r, Rabs_R0. rewrite Rmult_0_r. lra.
Qed.
Theorem C67_dominant : forall dbg (t : tri R) n b rslt (h : heap R),
  (2 <= n)%nat -> fits_i32 n = true -> tri_wf R t n -> dominant_margin n (tmat t) ->
  isvec h b n -> (n <= len h rslt)%nat ->
  exists h' A', tridiag_solve_vec dbg t b rslt h = Ok rslt h' /\ tridiagonal n A' /\
    mclose u 11 n n (tmat t) A' /\ solvesR n A' (rd h' rslt) (rd h b).
Proof.
  intros dbg t n b rslt h Hn Hf W D Hb Lr.
  destruct (tridiag_bits dbg t n b rslt h Hn Hf W Hb Lr) as (h' & E & _ & _ & _ & _ & Sw).
  destruct (dominant_near n t _ _ D Sw) as (A' & K). now exists h', A'.
Qed.
(** The same for every column of a matrix of right-hand sides; the perturbed matrix may differ from
    column to column. *)
Theorem C67_dominant_columns : forall dbg (t : tri R) n m B X (h : heap R),
  (2 <= n)%nat -> fits_i32 n = true -> fits_u32 m = true -> tri_wf R t n -> dominant_margin n (tmat t) ->
  ismat h B n m -> ismat h X n m ->
  exists h', tridiag_solve_mat dbg t B X h = Ok X h' /\ forall k, (k < m)%nat ->
    exists A', tridiagonal n A' /\ mclose u 11 n n (tmat t) A' /\ solvesR n A' (fun i => mget h' X i k) (fun i => mget h B i k).
Proof.
  intros dbg t n m B X h Hn Hf Hm W D HB HX.
  destruct (tridiag_mat_bits dbg t n m B X h Hn Hf Hm W HB HX) as (h' & E & _ & _ & _ & Sw).
  exists h'. split; [exact E|]. intros k Hk. exact (dominant_near n t _ _ D (Sw k Hk)).
Qed.
End Rounded.
