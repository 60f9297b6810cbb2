(** * Properties C76 - C77: results in IEEE arithmetic, overflow and underflow included

    The code is run with the operators of an IEEE format ([Ieee], SpecIeee.v; RoundIeee.v has the
    instances for binary64 and binary32).  Nothing is assumed about the input: if the result is
    finite then everything it was computed from was finite, and it is within the given bound of the
    exact one; and it is finite unless the exact quantities come close to the largest number
    [omega].  [val] gives the real number that a finite value stands for.  The operators may
    contract products and sums (SpecIeee.v): where an input number is added or subtracted as it is
    it must be a rounded one ([settled]), which in plain IEEE arithmetic every number is. *)
From Coq Require Import Reals Lra Lia Permutation.
From Verif Require Import Base Scalar BaseLemmas Spec Sums RealVec ModelVec ModelMat SpecMat ModelPacked ProofPacked ModelSparse
  PropPacked ProofVec ProofVecProp ProofMatOps ProofVecSched ModelSolvers ModelIter ProofChol ProofCholSolve ProofCholMath ProofIlu
  PropVec PropMat PropChol PropCholSolve PropIlu PropRepeat ProofSparse SpecSparse PropSparse ProofSpmv PropSpmv
  SpecRound Rounding ProofBackSub ProofRound PropRound PropRound2 SpecIeee ProofIeee.
Local Open Scope R_scope.

Local Notation dotR := (@dotp R ROps).
Local Notation mvR := (@mvmul R ROps).
Local Notation mmR := (@mmmul R ROps).
Local Notation solvesR := (@solves R ROps).
Local Notation sumR := (@bsum R ROps).

Section Ieee.
Context {T : Type} (Op : Ops T) (val : T -> R) (fin : T -> Prop) (prd : T -> T -> T -> Prop) (u eta omega : R) (I : Ieee Op val fin prd u eta omega).

(** The real vector and the real matrix that stored ones stand for. *)
Definition vv (f : nat -> T) (i : nat) : R := val (f i).
Definition vm (f : nat -> nat -> T) (i j : nat) : R := val (f i j).
(** All entries finite. *)
Definition vfin (n : nat) (f : nat -> T) : Prop := forall i, (i < n)%nat -> fin (f i).

Lemma absdot n (x y : nat -> T) : sumR n (fun k => Rabs (val (x k) * val (y k))) = dotR n (vabs (vv x)) (vabs (vv y)).
Proof. apply rsum_ext. intros k _. unfold vabs, vv. cbn [mul ROps]. apply Rabs_mult. Qed.

(** ** C76: dot products and norms *)
Theorem C76_dot : forall x y (h : heap T), let n := len h x in
  fits_u32 n = true -> (0 < n)%nat -> n = len h y ->
  exists r, dot_d x y h = Ok r h /\ dot_member_d x y h = Ok r h /\
    (fin r -> vfin n (rd h x) /\ vfin n (rd h y) /\
      Rabs (val r - dotR n (vv (rd h x)) (vv (rd h y))) <=
        gamma u n * dotR n (vabs (vv (rd h x))) (vabs (vv (rd h y))) + INR n * eta * (1 + gamma u n)) /\
    (vfin n (rd h x) -> vfin n (rd h y) ->
      (dotR n (vabs (vv (rd h x))) (vabs (vv (rd h y))) + INR n * eta) * (1 + gamma u n) <= omega -> fin r).
Proof.
  intros x y h n Hf Hn Hl. destruct (C05_dot_exact_order T Op x y h Hf Hn Hl) as [E1 E2]. fold n in E1, E2.
  exists (lsum (fun i => mul (rd h x i) (rd h y i)) (n - 1)). split; [exact E1|]. split; [exact E2|].
  clear E1 E2 Hf. destruct n as [|n]; [lia|]. replace (S n - 1)%nat with n by lia. rewrite <- absdot. split.
  - intros F. destruct (ldot_ieee n (rd h x) (rd h y) F) as (Fk & B). split; [|split; [|exact B]]; intros i Hi; apply Fk; lia.
  - intros Fx Fy B. apply ldot_fin; auto. intros k Hk. split; [apply Fx|apply Fy]; lia.
Qed.

Theorem C76_norm2 : forall x (h : heap T), let n := len h x in fits_u32 n = true ->
  exists r, norm2_d x h = Ok r h /\ norm2_s n x h = Ok r h /\
    (fin r -> vfin n (rd h x) /\ 0 <= val r /\
      Rabs (val r - nrm n (vv (rd h x))) <=
        gamma u (n + 2) * nrm n (vv (rd h x)) + (1 + gamma u 1) * sqrt (INR n * eta * (1 + gamma u (n + 1)))) /\
    (vfin n (rd h x) -> (nrm n (vv (rd h x)) * nrm n (vv (rd h x)) + INR n * eta) * (1 + gamma u (n + 1)) <= omega -> fin r).
Proof.
  intros x h n Hf. eexists. split; [now apply norm2_d_ok|]. split; [now apply norm2_s_ok|]. fold n.
  rewrite <- fsum_zero_bsum. split.
  - intros F. exact (norm_ieee n (rd h x) F).
  - intros Fx B. apply norm_fin; auto. unfold nrm in B. rewrite sqrt_sqrt in B; [exact B|]. apply bsum_nonneg. intros; apply Rle_0_sqr.
Qed.

(** ** C77: matrix products *)
Lemma aff_abs m alpha (a x : nat -> T) :
  sumR m (fun k => Rabs (val alpha * (val (a k) * val (x k)))) = Rabs (val alpha) * dotR m (vabs (vv a)) (vabs (vv x)).
Proof.
  rewrite (rsum_ext m _ (fun k => Rabs (val alpha) * (Rabs (val (a k)) * Rabs (val (x k))))) by (intros; now rewrite !Rabs_mult).
  rewrite rsum_scal. reflexivity.
Qed.
Lemma aff_val m alpha (a x : nat -> T) : sumR m (fun k => val alpha * (val (a k) * val (x k))) = val alpha * dotR m (vv a) (vv x).
Proof. rewrite rsum_scal. reflexivity. Qed.
Definition size (m : nat) (x : nat -> T) : R := sumR m (vabs (vv x)).

(** One accumulated entry, [beta * y + alpha * a 0 * x 0 + ...]. *)
Lemma entry_ieee m c beta y alpha (a x : nat -> T) : c = mul beta y \/ c = mul y beta ->
  (fin (fsum m c (fun k => mul (mul alpha (a k)) (x k))) ->
     fin beta /\ fin y /\ ((0 < m)%nat -> fin alpha) /\ vfin m a /\ vfin m x /\
     Rabs (val (fsum m c (fun k => mul (mul alpha (a k)) (x k))) - (val alpha * dotR m (vv a) (vv x) + val beta * val y)) <=
       gamma u (m + 2) * (Rabs (val alpha) * dotR m (vabs (vv a)) (vabs (vv x)) + Rabs (val beta * val y))
         + (INR m + 1 + size m x) * eta * (1 + gamma u (m + 2))) /\
  (fin beta -> fin y -> fin alpha -> vfin m a -> vfin m x -> (forall k, (k < m)%nat -> Rabs (val alpha * val (a k)) <= omega) ->
     (Rabs (val alpha) * dotR m (vabs (vv a)) (vabs (vv x)) + Rabs (val beta * val y) + (INR m + 1 + size m x) * eta) * (1 + gamma u (m + 2)) <= omega ->
     fin (fsum m c (fun k => mul (mul alpha (a k)) (x k)))).
Proof.
  intros Hc.
  assert (FC : forall wc, seen val fin prd u eta c wc -> fin beta /\ fin y /\ Rabs (wc - val beta * val y) <= u * Rabs (val beta * val y) + eta).
  { intros wc Fc. destruct Hc as [->| ->]; destruct (see_mul _ _ _ Fc) as (F1 & F2 & B & _); split; auto; split; auto. now rewrite Rmult_comm in B. }
  split.
  - intros F. destruct (aff_ieee m c (val beta * val y) alpha a x (fun wc Wc => proj2 (proj2 (FC wc Wc))) F) as ((wc & Wc) & Fk & E).
    destruct (FC wc Wc) as (Fb & Fy & _). split; auto. split; auto.
    split; [intros Hm; now apply (Fk 0%nat)|]. split; [intros k Hk; now apply Fk|]. split; [intros k Hk; now apply Fk|].
    now rewrite aff_val, aff_abs in E.
  - intros Fb Fy Fal Fa Fx Ba B.
    assert (G : 1 <= 1 + gamma u (m + 2)) by apply g1_pos.
    assert (P1 : 0 <= Rabs (val alpha) * dotR m (vabs (vv a)) (vabs (vv x))).
    { rewrite <- aff_abs. apply rabs_sum_pos. }
    assert (P2 : 0 <= size m x) by apply rabs_sum_pos. pose proof (pos_INR m) as P3. pose proof (Rabs_pos (val beta * val y)) as P4.
    assert (P5 : 0 <= (INR m + 1 + size m x) * eta) by (apply Rmult_le_pos; [lra|apply i_eta]).
    assert (Fc : fin c). { destruct Hc as [->| ->]; apply i_mul_fin; auto; [|rewrite Rmult_comm]; nra. }
    apply (aff_fin m c (val beta * val y)); auto; [intros wc Wc; now apply FC|].
    now rewrite aff_abs.
Qed.

(** mul(alpha, A, x, beta, y); x and y may be the same vector. *)
Theorem C77_matvec : forall dbg alpha A x beta y n m (h : heap T),
  fits_u32 n = true -> fits_u32 m = true -> ismat h A n m -> isvec h x m -> isvec h y n -> mp A <> y ->
  exists h', mulv dbg alpha A x beta y h = Ok y h' /\ ext_but h h' y /\ isvec h' y n /\
    forall i, (i < n)%nat ->
      (fin (rd h' y i) -> fin beta /\ fin (rd h y i) /\ ((0 < m)%nat -> fin alpha) /\ vfin m (mget h A i) /\ vfin m (rd h x) /\
        Rabs (val (rd h' y i) - (val alpha * mvR m (vm (mget h A)) (vv (rd h x)) i + val beta * val (rd h y i)))
          <= gamma u (m + 2) * (Rabs (val alpha) * mvR m (mabs (vm (mget h A))) (vabs (vv (rd h x))) i + Rabs (val beta * val (rd h y i)))
             + (INR m + 1 + size m (rd h x)) * eta * (1 + gamma u (m + 2))) /\
      (fin beta -> fin (rd h y i) -> fin alpha -> vfin m (mget h A i) -> vfin m (rd h x) ->
        (forall k, (k < m)%nat -> Rabs (val alpha * val (mget h A i k)) <= omega) ->
        (Rabs (val alpha) * mvR m (mabs (vm (mget h A))) (vabs (vv (rd h x))) i + Rabs (val beta * val (rd h y i))
           + (INR m + 1 + size m (rd h x)) * eta) * (1 + gamma u (m + 2)) <= omega -> fin (rd h' y i)).
Proof.
  intros dbg alpha A x beta y n m h Hn Hm HA Hx Hy Hd.
  destruct (C14_matvec_exact T Op dbg alpha A x beta y n m h Hn Hm HA Hx Hy Hd) as (h' & E & H1 & H2 & H3).
  exists h'. split; [exact E|]. split; [exact H1|]. split; [exact H2|]. intros i Hi. rewrite H3 by auto.
  exact (entry_ieee m _ beta (rd h y i) alpha (fun k => mget h A i k) (rd h x) (or_introl eq_refl)).
Qed.

(** The operator A * x: the factors 1 and 0 are exact. *)
Lemma mul_one a : fin (mul one a) <-> fin a.
Proof.
  destruct (i_one (Ieee := I)) as [F1 V1]. split; [intros F; now destruct (i_mul _ _ F)|]. intros Fa.
  apply (i_mul_exact one a a F1 Fa Fa). rewrite V1. ring.
Qed.
Lemma mul_one_val a : fin a -> val (mul one a) = val a.
Proof. destruct (i_one (Ieee := I)) as [F1 V1]. intros Fa. apply (i_mul_exact one a a F1 Fa Fa). rewrite V1. ring. Qed.
Lemma mul_zero_zero : fin (mul zero zero) /\ val (mul zero zero) = 0.
Proof. destruct (i_zero (Ieee := I)) as [F0 V0]. rewrite <- V0 at 1. apply (i_mul_exact zero zero zero F0 F0 F0). rewrite V0. ring. Qed.
Lemma see_zero_zero w : seen val fin prd u eta (mul zero zero) w -> w = 0.
Proof.
  intros H. destruct (i_zero (Ieee := I)) as [F0 V0]. destruct (see_mul _ _ _ H) as (_ & _ & _ & _ & E). rewrite <- V0. apply E; auto. rewrite V0. ring.
Qed.
Lemma op_entry_ieee m (a x : nat -> T) :
  (fin (fsum m (mul zero zero) (fun k => mul (mul one (a k)) (x k))) ->
     vfin m a /\ vfin m x /\
     Rabs (val (fsum m (mul zero zero) (fun k => mul (mul one (a k)) (x k))) - dotR m (vv a) (vv x)) <=
       gamma u (m + 1) * dotR m (vabs (vv a)) (vabs (vv x)) + INR m * eta * (1 + gamma u (m + 1))) /\
  (vfin m a -> vfin m x -> (dotR m (vabs (vv a)) (vabs (vv x)) + INR m * eta) * (1 + gamma u (m + 1)) <= omega ->
     fin (fsum m (mul zero zero) (fun k => mul (mul one (a k)) (x k)))).
Proof.
  destruct mul_zero_zero as [Fz Vz]. rewrite Nat.add_1_r.
  assert (AB : vfin m a -> sumR m (fun k => Rabs (val (mul one (a k)) * val (x k))) = dotR m (vabs (vv a)) (vabs (vv x))).
  { intros Fa. rewrite <- absdot. apply rsum_ext. intros k Hk. now rewrite mul_one_val by auto. }
  split.
  - intros F. destruct (acc_see m _ (fun k => mul one (a k)) x _ (see_fin _ F)) as (wz & Wz & Fk & E). apply see_zero_zero in Wz.
    assert (Fa : vfin m a) by (intros k Hk; apply mul_one; now apply Fk). split; auto. split; [intros k Hk; now apply Fk|].
    rewrite Wz, Rabs_R0, !Rplus_0_l, AB in E by auto.
    rewrite (rsum_ext m (fun k => val (mul one (a k)) * val (x k)) (fun k => val (a k) * val (x k))) in E by (intros k Hk; now rewrite mul_one_val by auto).
    exact E.
  - intros Fa Fx B. apply (acc_fin m _ (fun k => mul one (a k)) x); auto.
    + intros k Hk. split; auto. apply mul_one; auto.
    + intros wz Wz. apply see_zero_zero in Wz. now rewrite Wz, Rabs_R0, Rplus_0_l, AB by auto.
Qed.
Theorem C77_matvec_operator : forall dbg A x n m (h : heap T),
  fits_u32 n = true -> fits_u32 m = true -> ismat h A n m -> isvec h x m ->
  exists y h', op_mulv dbg A x h = Ok y h' /\ ext h h' /\ isvec h' y n /\
    forall i, (i < n)%nat ->
      (fin (rd h' y i) -> vfin m (mget h A i) /\ vfin m (rd h x) /\
        Rabs (val (rd h' y i) - mvR m (vm (mget h A)) (vv (rd h x)) i) <=
          gamma u (m + 1) * mvR m (mabs (vm (mget h A))) (vabs (vv (rd h x))) i + INR m * eta * (1 + gamma u (m + 1))) /\
      (vfin m (mget h A i) -> vfin m (rd h x) ->
        (mvR m (mabs (vm (mget h A))) (vabs (vv (rd h x))) i + INR m * eta) * (1 + gamma u (m + 1)) <= omega -> fin (rd h' y i)).
Proof.
  intros dbg A x n m h Hn Hm HA Hx.
  destruct (post_ok _ _ _ (op_mulv_ok dbg A x n m h Hn Hm HA Hx)) as (y & h' & E & H1 & H2 & H3 & H4).
  exists y, h'. split; [exact E|]. split; [exact H1|]. split; [exact H3|]. intros i Hi. rewrite H4 by auto.
  exact (op_entry_ieee m (fun k => mget h A i k) (rd h x)).
Qed.

(** mul(alpha, A, B, beta, C); C may be the same matrix as A or B. *)
Definition col (f : nat -> nat -> T) (j i : nat) : T := f i j.
Theorem C77_matmat : forall dbg alpha A B beta C n m o (h : heap T),
  fits_u32 n = true -> fits_u32 m = true -> fits_u32 o = true -> ismat h A n o -> ismat h B o m -> ismat h C n m ->
  exists h', mulm dbg alpha A B beta C h = Ok C h' /\ ext_but h h' (mp C) /\ ismat h' C n m /\
    forall i j, (i < n)%nat -> (j < m)%nat ->
      (fin (mget h' C i j) ->
        fin beta /\ fin (mget h C i j) /\ ((0 < o)%nat -> fin alpha) /\ vfin o (mget h A i) /\ vfin o (col (mget h B) j) /\
        Rabs (val (mget h' C i j) - (val alpha * mmR o (vm (mget h A)) (vm (mget h B)) i j + val beta * val (mget h C i j)))
          <= gamma u (o + 2) * (Rabs (val alpha) * mmR o (mabs (vm (mget h A))) (mabs (vm (mget h B))) i j + Rabs (val beta * val (mget h C i j)))
             + (INR o + 1 + size o (col (mget h B) j)) * eta * (1 + gamma u (o + 2))) /\
      (fin beta -> fin (mget h C i j) -> fin alpha -> vfin o (mget h A i) -> vfin o (col (mget h B) j) ->
        (forall k, (k < o)%nat -> Rabs (val alpha * val (mget h A i k)) <= omega) ->
        (Rabs (val alpha) * mmR o (mabs (vm (mget h A))) (mabs (vm (mget h B))) i j + Rabs (val beta * val (mget h C i j))
           + (INR o + 1 + size o (col (mget h B) j)) * eta) * (1 + gamma u (o + 2)) <= omega -> fin (mget h' C i j)).
Proof.
  intros dbg alpha A B beta C n m o h Hn Hm Ho HA HB HC.
  destruct (C15_matmat_exact T Op dbg alpha A B beta C n m o h Hn Hm Ho HA HB HC) as (h' & E & H1 & H2 & H3).
  exists h'. split; [exact E|]. split; [exact H1|]. split; [exact H2|]. intros i j Hi Hj. rewrite H3 by auto.
  apply (entry_ieee o _ beta (mget h C i j) alpha (fun k => mget h A i k) (col (mget h B) j)).
  destruct (_ || _); auto.
Qed.
Theorem C77_matmat_operator : forall dbg A B n m o (h : heap T),
  fits_u32 n = true -> fits_u32 m = true -> fits_u32 o = true -> ismat h A n o -> ismat h B o m ->
  exists C h', op_mulm dbg A B h = Ok C h' /\ ext h h' /\ ismat h' C n m /\
    forall i j, (i < n)%nat -> (j < m)%nat ->
      (fin (mget h' C i j) -> vfin o (mget h A i) /\ vfin o (col (mget h B) j) /\
        Rabs (val (mget h' C i j) - mmR o (vm (mget h A)) (vm (mget h B)) i j)
          <= gamma u (o + 1) * mmR o (mabs (vm (mget h A))) (mabs (vm (mget h B))) i j + INR o * eta * (1 + gamma u (o + 1))) /\
      (vfin o (mget h A i) -> vfin o (col (mget h B) j) ->
        (mmR o (mabs (vm (mget h A))) (mabs (vm (mget h B))) i j + INR o * eta) * (1 + gamma u (o + 1)) <= omega -> fin (mget h' C i j)).
Proof.
  intros dbg A B n m o h Hn Hm Ho HA HB.
  destruct (post_ok _ _ _ (op_mulm_ok dbg A B n m o h Hn Hm Ho HA HB)) as (C & h' & E & H1 & H2 & H3 & H4).
  exists C, h'. split; [exact E|]. split; [exact H1|]. split; [exact H3|]. intros i j Hi Hj. rewrite H4 by auto.
  exact (op_entry_ieee o (fun k => mget h A i k) (col (mget h B) j)).
Qed.
End Ieee.

Print Assumptions C76_dot.
Print Assumptions C76_norm2.
Print Assumptions C77_matvec.
Print Assumptions C77_matvec_operator.
Print Assumptions C77_matmat.
Print Assumptions C77_matmat_operator.
