(** * Every contraction of IEEE arithmetic meets the IEEE laws of SpecIeee.v *)
From Coq Require Import Reals Lra.
From Verif Require Import Base Scalar Spec SpecIeee SpecFma.
Local Open Scope R_scope.

Section Fused.
Context {T : Type} {Op : Ops T} {val : T -> R} {fin : T -> Prop} {u eta omega : R} {fma : T -> T -> T -> T}
  (I : Ieee Op val fin unfused u eta omega) (F : Fused val fin u eta omega fma).

(** In plain arithmetic an operand is taken for its value. *)
Lemma plain_seen x w : seen val fin unfused u eta x w -> fin x /\ w = val x.
Proof. intros [H|(p & q & [] & _)]; auto. Qed.
Lemma plain_add x y : fin (add x y) -> fin x /\ fin y /\ Rabs (val (add x y) - (val x + val y)) <= u * Rabs (val x + val y).
Proof.
  intros H. destruct (i_add (Ieee := I) _ _ H) as (a & b & A & B & E). apply plain_seen in A as [A ->]. apply plain_seen in B as [B ->]. auto.
Qed.
Lemma plain_sub x y : fin (sub x y) -> fin x /\ fin y /\ Rabs (val (sub x y) - (val x - val y)) <= u * Rabs (val x - val y).
Proof.
  intros H. destruct (i_sub (Ieee := I) _ _ H) as (a & b & A & B & E). apply plain_seen in A as [A ->]. apply plain_seen in B as [B ->]. auto.
Qed.

(** A fused result is the rounded sum of the addend and of a number that is as good as the rounded
    product. *)
Lemma fma_like x y z : fin (fma x y z) -> exists w, prod_like val fin u eta x y w /\
  Rabs (val (fma x y z) - (w + val z)) <= u * Rabs (w + val z).
Proof.
  intros H. pose proof (i_eta (Ieee := I)) as He. pose proof (i_range (Ieee := I)) as Hu.
  set (p := val x * val y) in *. set (r := val (fma x y z)).
  assert (X : prod_like val fin u eta x y p).
  { split; [|split; auto]. fold p. replace (p - p) with 0 by ring. rewrite Rabs_R0. pose proof (Rmult_le_pos _ _ (proj1 Hu) (Rabs_pos p)). lra. }
  destruct (Rle_dec (Rabs (r - (p + val z))) (u * Rabs (p + val z))) as [E|E]; [exists p; auto|].
  destruct (f_err (Fused := F) x y z H) as [E'|E']; [fold p r in E'; contradiction|]. fold p r in E'.
  exists (r - val z). split.
  - split; [|split].
    + fold p. replace (r - val z - p) with (r - (p + val z)) by ring. pose proof (Rmult_le_pos _ _ (proj1 Hu) (Rabs_pos p)). lra.
    + fold p. intros P. pose proof (f_up (Fused := F) x y z H P). fold r in H0. lra.
    + intros t Ft Et. exfalso. apply E. exact (f_sum (Fused := F) x y z t H Ft Et).
  - replace (r - (r - val z + val z)) with 0 by ring. rewrite Rabs_R0. apply Rmult_le_pos; [apply Hu|apply Rabs_pos].
Qed.
(** The same for a subtrahend. *)
Lemma fnma_like x y z : fin (fma (opp x) y z) -> exists w, prod_like val fin u eta x y w /\
  Rabs (val (fma (opp x) y z) - (val z - w)) <= u * Rabs (val z - w).
Proof.
  intros H. pose proof (i_eta (Ieee := I)) as He. pose proof (i_range (Ieee := I)) as Hu.
  destruct (i_opp (Ieee := I) x) as [_ Vo].
  set (p := val x * val y) in *. set (r := val (fma (opp x) y z)).
  assert (Po : val (opp x) * val y = - p) by (rewrite Vo; unfold p; ring).
  assert (X : prod_like val fin u eta x y p).
  { split; [|split; auto]. fold p. replace (p - p) with 0 by ring. rewrite Rabs_R0. pose proof (Rmult_le_pos _ _ (proj1 Hu) (Rabs_pos p)). lra. }
  destruct (Rle_dec (Rabs (r - (val z - p))) (u * Rabs (val z - p))) as [E|E]; [exists p; auto|].
  destruct (f_err (Fused := F) (opp x) y z H) as [E'|E']; rewrite Po in E'; replace (- p + val z) with (val z - p) in E' by ring; [fold r in E'; contradiction|].
  fold r in E'. exists (val z - r). split.
  - split; [|split].
    + fold p. replace (val z - r - p) with (- (r - (val z - p))) by ring. rewrite Rabs_Ropp. pose proof (Rmult_le_pos _ _ (proj1 Hu) (Rabs_pos p)). lra.
    + fold p. intros P. pose proof (f_down (Fused := F) (opp x) y z H). rewrite Po in H0. fold r in H0. lra.
    + intros t Ft Et. exfalso. apply E. destruct (i_opp (Ieee := I) t) as [Fo Vt].
      pose proof (f_sum (Fused := F) (opp x) y z (opp t) H (proj2 Fo Ft)) as S. rewrite Po, Vt in S.
      replace (- p + val z) with (val z - p) in S by ring. apply S. unfold p. now rewrite Et.
  - replace (r - (val z - (val z - r))) with 0 by ring. rewrite Rabs_R0. apply Rmult_le_pos; [apply Hu|apply Rabs_pos].
Qed.

Context {rho : term T -> T} (C : contraction Op fma rho).
Local Notation tval := (fun t => val (rho t)).
Local Notation tfin := (fun t => fin (rho t)).
Local Notation tseen := (seen tval tfin product u eta).

Lemma product_factors t p q : product t p q -> fin (rho t) -> fin (rho p) /\ fin (rho q).
Proof.
  destruct C as (_ & Cm & _ & Co & _). intros H Ft. destruct H as [p q|p q].
  - rewrite Cm in Ft. destruct (i_mul (Ieee := I) _ _ Ft) as (A & B & _). auto.
  - rewrite Co in Ft. apply (proj1 (proj1 (i_opp (Ieee := I) _))) in Ft. rewrite Cm in Ft. destruct (i_mul (Ieee := I) _ _ Ft) as (A & B & _).
    split; auto. rewrite Co. now apply (proj2 (proj1 (i_opp (Ieee := I) _))).
Qed.
Lemma value_seen t : fin (rho t) -> tseen t (val (rho t)).
Proof. intros H. left. auto. Qed.
(** A number as good as the product of values is one as good as the product of terms. *)
Lemma prod_like_term p q w : prod_like val fin u eta (rho p) (rho q) w -> prod_like tval tfin u eta p q w.
Proof. intros (A & B & D). split; auto. Qed.
Lemma absorbed_seen t p q w : product t p q -> fin (rho p) -> fin (rho q) -> prod_like val fin u eta (rho p) (rho q) w -> tseen t w.
Proof. intros H Fp Fq W. right. exists p, q. repeat split; auto; apply prod_like_term in W; apply W. Qed.
Lemma exact_seen t p q : product t p q -> fin (rho p) -> fin (rho q) -> tseen t (val (rho p) * val (rho q)).
Proof.
  intros H Fp Fq. pose proof (i_eta (Ieee := I)) as He. pose proof (i_range (Ieee := I)) as Hu.
  apply (absorbed_seen t p q); auto. split; [|split; auto]. rewrite Rminus_diag_eq by reflexivity. rewrite Rabs_R0.
  pose proof (Rmult_le_pos _ _ (proj1 Hu) (Rabs_pos (val (rho p) * val (rho q)))). lra.
Qed.

Theorem contraction_ieee : Ieee (TOps Op rho) tval tfin product u eta omega.
Proof.
  destruct C as (Cn & Cm & Cd & Co & Cs & Cb & Ca & Cu).
  constructor; cbn [zero one add sub mul div opp sqrt_ pow2 abs_ eqb ltb TOps].
  - exact (i_range (Ieee := I)).
  - exact (i_eta (Ieee := I)).
  - exact (i_omega (Ieee := I)).
  - rewrite Cn. exact (i_zero (Ieee := I)).
  - rewrite Cn. exact (i_one (Ieee := I)).
  - intros x y p q H. inversion H; auto.
  - repeat split; intros; intros ? ? H; inversion H.
  - intros x y H. destruct (Ca x y) as [E|[(p & q & P & E)|(p & q & P & E)]]; rewrite E in *.
    + destruct (plain_add _ _ H) as (A & B & K). exists (val (rho x)), (val (rho y)). auto using value_seen.
    + destruct (f_args (Fused := F) _ _ _ H) as (Fp & Fq & Fy). destruct (fma_like _ _ _ H) as (w & W & K).
      exists w, (val (rho y)). split; [eapply absorbed_seen; eauto|]. auto using value_seen.
    + destruct (f_args (Fused := F) _ _ _ H) as (Fp & Fq & Fx). destruct (fma_like _ _ _ H) as (w & W & K).
      exists (val (rho x)), w. split; [auto using value_seen|]. split; [eapply absorbed_seen; eauto|]. now rewrite (Rplus_comm _ w).
  - intros x y H. destruct (Cu x y) as [E|[(p & q & P & E)|(p & q & P & E)]]; rewrite E in *.
    + destruct (plain_sub _ _ H) as (A & B & K). exists (val (rho x)), (val (rho y)). auto using value_seen.
    + destruct (f_args (Fused := F) _ _ _ H) as (Fp & Fq & Fy). destruct (fma_like _ _ _ H) as (w & W & K).
      destruct (i_opp (Ieee := I) (rho y)) as [Fo Vo]. apply Fo in Fy. rewrite Vo in K.
      exists w, (val (rho y)). split; [eapply absorbed_seen; eauto|]. split; [auto using value_seen|exact K].
    + destruct (f_args (Fused := F) _ _ _ H) as (Fp & Fq & Fx). apply (proj1 (proj1 (i_opp (Ieee := I) _))) in Fp. destruct (fnma_like _ _ _ H) as (w & W & K).
      exists (val (rho x)), w. split; [auto using value_seen|]. split; [eapply absorbed_seen; eauto|exact K].
  - intros x y. rewrite Cm. apply (i_mul (Ieee := I)).
  - intros x y. rewrite Cd. apply (i_div (Ieee := I)).
  - intros x. rewrite Cs. apply (i_sqrt (Ieee := I)).
  - reflexivity.
  - intros x. rewrite Co. apply (i_opp (Ieee := I)).
  - intros x. rewrite Cb. apply (i_abs (Ieee := I)).
  - intros x y. apply (i_eqb (Ieee := I)).
  - intros x y. apply (i_ltb (Ieee := I)).
  - intros x y Fx Fy H. destruct (Ca x y) as [E|[(p & q & P & E)|(p & q & P & E)]]; rewrite E.
    + apply (i_add_fin (Ieee := I)); auto. intros a b A B. apply plain_seen in A as [_ ->]. apply plain_seen in B as [_ ->]. apply H; auto using value_seen.
    + destruct (product_factors _ _ _ P Fx) as [Fp Fq]. apply (f_fits (Fused := F)); auto. apply H; auto using value_seen. now apply exact_seen.
    + destruct (product_factors _ _ _ P Fy) as [Fp Fq]. apply (f_fits (Fused := F)); auto. rewrite Rplus_comm. apply H; auto using value_seen. now apply exact_seen.
  - intros x y Fx Fy H. destruct (Cu x y) as [E|[(p & q & P & E)|(p & q & P & E)]]; rewrite E.
    + apply (i_sub_fin (Ieee := I)); auto. intros a b A B. apply plain_seen in A as [_ ->]. apply plain_seen in B as [_ ->]. apply H; auto using value_seen.
    + destruct (product_factors _ _ _ P Fx) as [Fp Fq]. destruct (i_opp (Ieee := I) (rho y)) as [Fo Vo].
      apply (f_fits (Fused := F)); auto; [now apply Fo|]. rewrite Vo. apply H; auto using value_seen. now apply exact_seen.
    + destruct (product_factors _ _ _ P Fy) as [Fp Fq]. destruct (i_opp (Ieee := I) (rho p)) as [Fo Vo].
      apply (f_fits (Fused := F)); auto; [now apply Fo|]. rewrite Vo. replace (- val (rho p) * val (rho q) + val (rho x)) with (val (rho x) - val (rho p) * val (rho q)) by ring.
      apply H; auto using value_seen. now apply exact_seen.
  - intros x y. rewrite Cm. apply (i_mul_fin (Ieee := I)).
  - intros x y. rewrite Cd. apply (i_div_fin (Ieee := I)).
  - intros x. rewrite Cs. apply (i_sqrt_fin (Ieee := I)).
  - intros x y. rewrite Cm. apply (i_mul_sign (Ieee := I)).
  - intros x y. rewrite Cd. apply (i_div_sign (Ieee := I)).
  - intros x y z Sx Sy Fx Fy Fz V. destruct (Ca x y) as [E|[(p & q & P & E)|(p & q & P & E)]]; [|destruct (Sx _ _ P)|destruct (Sy _ _ P)].
    rewrite E. apply (i_add_exact (Ieee := I)); auto using plain_settled.
  - intros x y z Sx Sy Fx Fy Fz V. destruct (Cu x y) as [E|[(p & q & P & E)|(p & q & P & E)]]; [|destruct (Sx _ _ P)|destruct (Sy _ _ P)].
    rewrite E. apply (i_sub_exact (Ieee := I)); auto using plain_settled.
  - intros x y z. rewrite Cm. apply (i_mul_exact (Ieee := I)).
  - intros x y z. rewrite Cd. apply (i_div_exact (Ieee := I)).
Qed.
End Fused.

(** Numbers are rounded. *)
Lemma leaf_settled {T} (t : term T) : leaf t -> settled product t.
Proof. intros (l & x & ->) p q H. inversion H. Qed.

Section Ways.
Context {T : Type} (Op : Ops T) (fma : T -> T -> T -> T).
Lemma plainly_contraction : contraction Op fma (plainly Op).
Proof. repeat split; intros; left; reflexivity. Qed.
Lemma eagerly_contraction : contraction Op fma (eagerly Op fma).
Proof.
  repeat split; intros.
  - destruct a; try (right; left; eexists; eexists; split; [constructor|reflexivity]); destruct b;
      try (left; reflexivity); right; right; eexists; eexists; (split; [constructor|reflexivity]).
  - destruct a; try (right; left; eexists; eexists; split; [constructor|reflexivity]); destruct b;
      try (left; reflexivity); right; right; eexists; eexists; (split; [constructor|reflexivity]).
Qed.
End Ways.
