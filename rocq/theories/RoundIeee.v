(** * The IEEE model is met: binary formats of Flocq, Coq's primitive binary64, binary32 *)
From Coq Require Import ZArith Floats Reals Lra Lia.
From Flocq Require Import Core Relative Plus_error Div_sqrt_error BinarySingleNaN.
From Flocq Require PrimFloat.
From Verif Require Import Base Scalar SpecIeee.
Local Open Scope R_scope.

Section Binary.
Context (prec emax : Z) (Hp : Prec_gt_0 prec) (Hm : Prec_lt_emax prec emax) (Hp1 : (1 < prec)%Z).
Notation bf := (binary_float prec emax).
Notation fexp := (SpecFloat.fexp prec emax).
Notation emin := (SpecFloat.emin prec emax).
Notation rnd := (round radix2 (FLT_exp emin prec) ZnearestE).

(** The operators of the format, rounding to nearest, ties to even. *)
Definition BOps : Ops bf := {|
  zero := B754_zero false; one := Bone;
  add := Bplus mode_NE; sub := Bminus mode_NE; mul := Bmult mode_NE; div := Bdiv mode_NE; opp := Bopp;
  sqrt_ := Bsqrt mode_NE; pow2 := fun x => Bmult mode_NE x x; abs_ := Babs; eqb := Beqb; ltb := Bltb |}.

Definition bu : R := / 2 * bpow radix2 (- prec + 1).
Definition beta_ : R := / 2 * bpow radix2 emin.
(** The largest finite number. *)
Definition bomega : R := B2R (Bmax_float : bf).

Lemma overflow_nf (z : bf) s : B2SF z = binary_overflow prec emax mode_NE s -> is_finite z = false.
Proof. destruct z; cbn; intros H; try discriminate; reflexivity. Qed.
Lemma rnd_NE x : round radix2 fexp (round_mode mode_NE) x = rnd x.
Proof. reflexivity. Qed.

Lemma rel_err x r d : r = x * (1 + d) -> Rabs d <= bu -> Rabs (r - x) <= bu * Rabs x.
Proof.
  intros -> H. replace (x * (1 + d) - x) with (d * x) by ring. rewrite Rabs_mult. apply Rmult_le_compat_r; auto. apply Rabs_pos.
Qed.
Lemma rel_abs_err x r d e : r = x * (1 + d) + e -> Rabs d <= bu -> Rabs e <= beta_ -> Rabs (r - x) <= bu * Rabs x + beta_.
Proof.
  intros -> H1 H2. replace (x * (1 + d) + e - x) with (d * x + e) by ring.
  eapply Rle_trans; [apply Rabs_triang|]. apply Rplus_le_compat; auto. rewrite Rabs_mult. apply Rmult_le_compat_r; auto. apply Rabs_pos.
Qed.
Lemma bu_pos : 0 < bu.
Proof. unfold bu. pose proof (bpow_gt_0 radix2 (- prec + 1)). lra. Qed.
Lemma bu_lt1 : bu < 1.
Proof.
  unfold bu. assert (H : bpow radix2 (- prec + 1) <= bpow radix2 0). { apply bpow_le. unfold Prec_gt_0 in Hp. lia. }
  cbn in H. lra.
Qed.
Lemma u_ro_le : u_ro radix2 prec / (1 + u_ro radix2 prec) <= bu.
Proof.
  assert (E : u_ro radix2 prec = bu) by reflexivity. rewrite E. pose proof bu_pos.
  apply Rmult_le_reg_r with (1 + bu); [lra|]. unfold Rdiv. rewrite Rmult_assoc, Rinv_l by lra. nra.
Qed.

Lemma fmt (x : bf) : generic_format radix2 (FLT_exp emin prec) (B2R x).
Proof. apply generic_format_B2R. Qed.

Lemma rnd_id (x : bf) : rnd (B2R x) = B2R x.
Proof. apply round_generic; [apply valid_rnd_N|apply fmt]. Qed.
Lemma rnd_pos x : 0 <= x -> 0 <= rnd x.
Proof. intros H. apply round_ge_generic; auto; [apply FLT_exp_valid; auto|apply valid_rnd_N|apply generic_format_0]. Qed.
Lemma plus_err (x y : R) : generic_format radix2 (FLT_exp emin prec) x -> generic_format radix2 (FLT_exp emin prec) y ->
  Rabs (rnd (x + y) - (x + y)) <= bu * Rabs (x + y).
Proof.
  intros Fx Fy. destruct (FLT_plus_error_N_ex radix2 emin prec (fun n => negb (Z.even n)) x y Fx Fy) as (d & Hd & E).
  eapply rel_err; [exact E|]. eapply Rle_trans; [exact Hd|apply u_ro_le].
Qed.
Lemma any_err (x : R) : Rabs (rnd x - x) <= bu * Rabs x + beta_.
Proof.
  destruct (error_N_FLT radix2 emin prec Hp (fun n => negb (Z.even n)) x) as (d & e & Hd & He & _ & E).
  eapply rel_abs_err; eauto.
Qed.
Lemma sqrt_err (x : R) : generic_format radix2 (FLT_exp emin prec) x -> Rabs (rnd (sqrt x) - sqrt x) <= bu * sqrt x.
Proof.
  intros Fx.
  assert (P : (emin <= 2 * (1 - prec))%Z) by (unfold SpecFloat.emin; unfold Prec_lt_emax, Prec_gt_0 in *; lia).
  destruct (sqrt_error_N_FLT_ex radix2 prec (fun n => negb (Z.even n)) Hp1 emin P x Fx) as (d & Hd & E).
  rewrite <- (Rabs_pos_eq (sqrt x)) at 3 by apply sqrt_pos. eapply rel_err; [exact E|]. eapply Rle_trans; [exact Hd|].
  assert (Eu : u_ro radix2 prec = bu) by reflexivity. rewrite Eu. pose proof bu_pos as U.
  (* 1 - 1/sqrt(1+2u) <= u *)
  assert (S : sqrt (1 + 2 * bu) <= 1 + bu).
  { rewrite <- (sqrt_square (1 + bu)) by lra. apply sqrt_le_1_alt. nra. }
  assert (S1 : 0 < sqrt (1 + 2 * bu)) by (apply sqrt_lt_R0; lra).
  assert (I : / (1 + bu) <= / sqrt (1 + 2 * bu)) by (apply Rinv_le_contravar; auto).
  unfold Rdiv. rewrite Rmult_1_l. assert (J : 1 - bu <= / (1 + bu)).
  { apply Rmult_le_reg_r with (1 + bu); [lra|]. rewrite Rinv_l by lra. nra. }
  lra.
Qed.

Lemma bomega_lt : bomega < bpow radix2 emax.
Proof. unfold bomega. pose proof (abs_B2R_lt_emax prec emax (Bmax_float : bf)) as H. apply Rle_lt_trans with (2 := H). apply Rle_abs. Qed.
Lemma bomega_val : bomega = bpow radix2 emax - bpow radix2 (emax - prec).
Proof.
  unfold bomega, Bmax_float. rewrite B2R_SF2B. cbn [SF2R cond_Zopp]. unfold F2R. cbn [Fnum Fexp].
  assert (E : Z.pos (shift_pos (Z.to_pos prec) 1 - 1) = (2 ^ prec - 1)%Z).
  { unfold Prec_gt_0 in Hp. rewrite Pos2Z.inj_sub.
    - rewrite shift_pos_correct, Z.mul_1_r, Z.pow_pos_fold, Z2Pos.id by lia. reflexivity.
    - change (Z.pos 1 < Z.pos (shift_pos (Z.to_pos prec) 1))%Z. rewrite shift_pos_correct, Z.mul_1_r, Z.pow_pos_fold, Z2Pos.id by lia.
      now apply (Zpower_gt_1 radix2). }
  rewrite E, minus_IZR. change (2 ^ prec)%Z with (radix2 ^ prec)%Z. rewrite IZR_Zpower by (unfold Prec_gt_0 in Hp; lia).
  rewrite Rmult_minus_distr_r, <- bpow_plus, Rmult_1_l. do 2 f_equal. ring.
Qed.
Lemma omega_ge1 : 1 <= bomega.
Proof.
  rewrite bomega_val. unfold Prec_lt_emax, Prec_gt_0 in *.
  assert (H1 : bpow radix2 (emax - prec) <= bpow radix2 (emax - 1)) by (apply bpow_le; lia).
  assert (H2 : bpow radix2 0 <= bpow radix2 (emax - 1)) by (apply bpow_le; lia).
  replace (bpow radix2 emax) with (2 * bpow radix2 (emax - 1)).
  - cbn in H2. lra.
  - change 2 with (bpow radix2 1). rewrite <- bpow_plus. f_equal. ring.
Qed.
Lemma below_omega x : Rabs x <= bomega -> Rabs (rnd x) < bpow radix2 emax.
Proof.
  intros H. apply Rle_lt_trans with (2 := bomega_lt). apply (abs_round_le_generic radix2 (FLT_exp emin prec) ZnearestE); auto.
  apply fmt.
Qed.

Lemma plus_fin (x y : bf) : is_finite (Bplus mode_NE x y) = true -> is_finite x = true /\ is_finite y = true.
Proof. destruct x as [|[]| |], y as [|[]| |]; cbn; intros; auto; discriminate. Qed.
Lemma minus_fin (x y : bf) : is_finite (Bminus mode_NE x y) = true -> is_finite x = true /\ is_finite y = true.
Proof. destruct x as [|[]| |], y as [|[]| |]; cbn; intros; auto; discriminate. Qed.
Lemma mult_fin (x y : bf) : is_finite (Bmult mode_NE x y) = true -> is_finite x = true /\ is_finite y = true.
Proof. destruct x as [|[]| |], y as [|[]| |]; cbn; intros; auto; discriminate. Qed.
Lemma div_fin (x y : bf) : is_finite (Bdiv mode_NE x y) = true -> is_finite y = true -> is_finite x = true /\ B2R y <> 0.
Proof.
  destruct x as [|[]| |], y as [|[]| |]; cbn; intros; try discriminate; split; auto;
    intros E; apply eq_0_F2R in E; destruct s0 || destruct s; discriminate.
Qed.

Lemma bops_ieee : Ieee BOps B2R (fun x => is_finite x = true) unfused bu beta_ bomega.
Proof.
  constructor; cbn [zero one add sub mul div opp sqrt_ pow2 abs_ eqb ltb BOps].
  - pose proof bu_pos. pose proof bu_lt1. lra.
  - unfold beta_. pose proof (bpow_ge_0 radix2 emin). lra.
  - exact omega_ge1.
  - split; reflexivity.
  - split; [apply is_finite_Bone|apply Bone_correct].
  - intros x y p q [].
  - repeat split; intros; intros ? ? [].
  - intros x y F. destruct (plus_fin x y F) as [Fx Fy]. exists (B2R x), (B2R y). split; [now left|]. split; [now left|].
    pose proof (Bplus_correct prec emax Hp Hm mode_NE x y Fx Fy) as C. rewrite rnd_NE in C.
    destruct (Rlt_bool _ _).
    + destruct C as (-> & _). apply plus_err; apply fmt.
    + destruct C as (C & _). apply overflow_nf in C. congruence.
  - intros x y F. destruct (minus_fin x y F) as [Fx Fy]. exists (B2R x), (B2R y). split; [now left|]. split; [now left|].
    pose proof (Bminus_correct prec emax Hp Hm mode_NE x y Fx Fy) as C. rewrite rnd_NE in C.
    destruct (Rlt_bool _ _).
    + destruct C as (-> & _). apply plus_err; [apply fmt|]. rewrite <- B2R_Bopp. apply fmt.
    + destruct C as (C & _). apply overflow_nf in C. congruence.
  - intros x y F. destruct (mult_fin x y F) as [Fx Fy]. split; auto. split; auto.
    pose proof (Bmult_correct prec emax Hp Hm mode_NE x y) as C. rewrite rnd_NE in C.
    destruct (Rlt_bool _ _).
    + destruct C as (-> & _). apply any_err.
    + apply overflow_nf in C. congruence.
  - intros x y F Fy. destruct (div_fin x y F Fy) as [Fx Ny]. split; auto. split; auto.
    pose proof (Bdiv_correct prec emax Hp Hm mode_NE x y Ny) as C. rewrite rnd_NE in C.
    destruct (Rlt_bool _ _).
    + destruct C as (-> & _). apply any_err.
    + apply overflow_nf in C. congruence.
  - intros x F. destruct (Bsqrt_correct prec emax Hp Hm mode_NE x) as (E & Ef & _). rewrite rnd_NE in E. rewrite Ef in F.
    split; [destruct x as [|[]| |[]]; auto; discriminate|]. split.
    + destruct x as [|[]| |[]]; try discriminate; cbn; try lra. apply F2R_ge_0. discriminate.
    + rewrite E. apply sqrt_err. apply fmt.
  - reflexivity.
  - intros x. split; [now rewrite is_finite_Bopp|apply B2R_Bopp].
  - intros x. split; [now rewrite is_finite_Babs|apply B2R_Babs].
  - intros x y Fx Fy. rewrite Beqb_correct by auto. case Req_bool_spec; intuition discriminate.
  - intros x y Fx Fy. rewrite Bltb_correct by auto. case Rlt_bool_spec; intros; intuition (try discriminate; lra).
  - intros x y Fx Fy H. specialize (H _ _ (or_introl (conj Fx eq_refl)) (or_introl (conj Fy eq_refl))). pose proof (Bplus_correct prec emax Hp Hm mode_NE x y Fx Fy) as C. rewrite rnd_NE in C.
    rewrite Rlt_bool_true in C by now apply below_omega. apply C.
  - intros x y Fx Fy H. specialize (H _ _ (or_introl (conj Fx eq_refl)) (or_introl (conj Fy eq_refl))). pose proof (Bminus_correct prec emax Hp Hm mode_NE x y Fx Fy) as C. rewrite rnd_NE in C.
    rewrite Rlt_bool_true in C by now apply below_omega. apply C.
  - intros x y Fx Fy H. pose proof (Bmult_correct prec emax Hp Hm mode_NE x y) as C. rewrite rnd_NE in C.
    rewrite Rlt_bool_true in C by now apply below_omega. destruct C as (_ & -> & _). now rewrite Fx, Fy.
  - intros x y Fx Fy Ny H. pose proof (Bdiv_correct prec emax Hp Hm mode_NE x y Ny) as C. rewrite rnd_NE in C.
    rewrite Rlt_bool_true in C by now apply below_omega. destruct C as (_ & -> & _). auto.
  - intros x Fx P. destruct (Bsqrt_correct prec emax Hp Hm mode_NE x) as (_ & -> & _).
    destruct x as [|[]| |[]]; auto; try discriminate. exfalso. cbn in P.
    apply Rle_not_lt in P. apply P. apply F2R_lt_0. reflexivity.
  - intros x y F P. pose proof (Bmult_correct prec emax Hp Hm mode_NE x y) as C. rewrite rnd_NE in C.
    destruct (Rlt_bool _ _); [|apply overflow_nf in C; congruence]. destruct C as (-> & _). now apply rnd_pos.
  - intros x y F Fy P. destruct (div_fin x y F Fy) as [Fx Ny].
    pose proof (Bdiv_correct prec emax Hp Hm mode_NE x y Ny) as C. rewrite rnd_NE in C.
    destruct (Rlt_bool _ _); [|apply overflow_nf in C; congruence]. destruct C as (-> & _). now apply rnd_pos.
  - intros x y z _ _ Fx Fy Fz E. pose proof (Bplus_correct prec emax Hp Hm mode_NE x y Fx Fy) as C. rewrite rnd_NE, E, rnd_id in C.
    rewrite Rlt_bool_true in C by apply abs_B2R_lt_emax. destruct C as (-> & -> & _). auto.
  - intros x y z _ _ Fx Fy Fz E. pose proof (Bminus_correct prec emax Hp Hm mode_NE x y Fx Fy) as C. rewrite rnd_NE, E, rnd_id in C.
    rewrite Rlt_bool_true in C by apply abs_B2R_lt_emax. destruct C as (-> & -> & _). auto.
  - intros x y z Fx Fy Fz E. pose proof (Bmult_correct prec emax Hp Hm mode_NE x y) as C. rewrite rnd_NE, E, rnd_id in C.
    rewrite Rlt_bool_true in C by apply abs_B2R_lt_emax. destruct C as (-> & -> & _). now rewrite Fx, Fy.
  - intros x y z Fx Fy Fz Ny E. pose proof (Bdiv_correct prec emax Hp Hm mode_NE x y Ny) as C. rewrite rnd_NE, E, rnd_id in C.
    rewrite Rlt_bool_true in C by apply abs_B2R_lt_emax. destruct C as (-> & -> & _). auto.
Qed.
End Binary.

(** ** binary64: the primitive floating-point numbers of Coq, with which the model is run *)
Definition fval (x : Coq.Floats.PrimFloat.float) : R := SF2R radix2 (Prim2SF x).
Definition ffin (x : Coq.Floats.PrimFloat.float) : Prop := Coq.Floats.PrimFloat.is_finite x = true.
Definition u64 : R := bpow radix2 (-53).
Definition eta64 : R := bpow radix2 (-1075).
Definition omega64 : R := bpow radix2 1024 - bpow radix2 971.

Lemma fval_B x : fval x = B2R (Flocq.IEEE754.PrimFloat.Prim2B x).
Proof. unfold fval. rewrite <- Flocq.IEEE754.PrimFloat.B2SF_Prim2B. apply SF2R_B2SF. Qed.
Lemma ffin_B x : ffin x <-> is_finite (Flocq.IEEE754.PrimFloat.Prim2B x) = true.
Proof. unfold ffin. now rewrite Flocq.IEEE754.PrimFloat.is_finite_equiv. Qed.

Lemma half_bpow e : / 2 * bpow radix2 e = bpow radix2 (e - 1).
Proof. change (/ 2) with (bpow radix2 (-1)). rewrite <- bpow_plus. f_equal. lia. Qed.

Lemma seen_B x w u eta : seen fval ffin unfused u eta x w <->
  seen B2R (fun y => is_finite y = true) unfused u eta (Flocq.IEEE754.PrimFloat.Prim2B x) w.
Proof.
  split; (intros [[F E]|(p & q & [] & _)]; left; split; [now apply ffin_B|]); rewrite E; [apply fval_B|symmetry; apply fval_B].
Qed.
Lemma float_ieee : Ieee FOps fval ffin unfused u64 eta64 omega64.
Proof.
  pose proof (bops_ieee FloatOps.prec FloatOps.emax Flocq.IEEE754.PrimFloat.Hprec Flocq.IEEE754.PrimFloat.Hmax ltac:(reflexivity)) as I.
  assert (Eu : bu FloatOps.prec = u64). { unfold bu. rewrite half_bpow. reflexivity. }
  assert (Ee : beta_ FloatOps.prec FloatOps.emax = eta64). { unfold beta_. rewrite half_bpow. reflexivity. }
  assert (Eo : bomega FloatOps.prec FloatOps.emax Flocq.IEEE754.PrimFloat.Hprec Flocq.IEEE754.PrimFloat.Hmax = omega64).
  { rewrite bomega_val. reflexivity. }
  rewrite Eu, Ee, Eo in I. clear Eu Ee Eo.
  destruct I as [I1 I2 I3 I4 I5 I6 I7 I8 I9 I10 I11 I12 I13 I14 I15 I16 I17 I18 I19 I20 I21 I22 I23 I24 I25 I26 I27 I28].
  cbn [zero one add sub mul div opp sqrt_ pow2 abs_ eqb ltb BOps] in *.
  constructor; cbn [zero one add sub mul div opp sqrt_ pow2 abs_ eqb ltb FOps]; try assumption; try reflexivity.
  - intros x y p q [].
  - repeat split; intros; intros ? ? [].
  - intros x y. rewrite !ffin_B, !fval_B, Flocq.IEEE754.PrimFloat.add_equiv. intros F. destruct (I8 _ _ F) as (a & b & A & B & K).
    exists a, b. split; [now apply seen_B|]. split; [now apply seen_B|exact K].
  - intros x y. rewrite !ffin_B, !fval_B, Flocq.IEEE754.PrimFloat.sub_equiv. intros F. destruct (I9 _ _ F) as (a & b & A & B & K).
    exists a, b. split; [now apply seen_B|]. split; [now apply seen_B|exact K].
  - intros x y. rewrite !ffin_B, !fval_B, Flocq.IEEE754.PrimFloat.mul_equiv. apply I10.
  - intros x y. rewrite !ffin_B, !fval_B, Flocq.IEEE754.PrimFloat.div_equiv. apply I11.
  - intros x. rewrite !ffin_B, !fval_B, Flocq.IEEE754.PrimFloat.sqrt_equiv. apply I12.
  - intros x. rewrite !ffin_B, !fval_B, Flocq.IEEE754.PrimFloat.opp_equiv. apply I14.
  - intros x. rewrite !ffin_B, !fval_B, Flocq.IEEE754.PrimFloat.abs_equiv. apply I15.
  - intros x y. rewrite !ffin_B, !fval_B, Flocq.IEEE754.PrimFloat.eqb_equiv. apply I16.
  - intros x y. rewrite !ffin_B, !fval_B, Flocq.IEEE754.PrimFloat.ltb_equiv. apply I17.
  - intros x y. rewrite !ffin_B, Flocq.IEEE754.PrimFloat.add_equiv. intros Fx Fy H. apply I18; auto. intros a b A B. apply H; now apply seen_B.
  - intros x y. rewrite !ffin_B, Flocq.IEEE754.PrimFloat.sub_equiv. intros Fx Fy H. apply I19; auto. intros a b A B. apply H; now apply seen_B.
  - intros x y. rewrite !ffin_B, !fval_B, Flocq.IEEE754.PrimFloat.mul_equiv. apply I20.
  - intros x y. rewrite !ffin_B, !fval_B, Flocq.IEEE754.PrimFloat.div_equiv. apply I21.
  - intros x. rewrite !ffin_B, !fval_B, Flocq.IEEE754.PrimFloat.sqrt_equiv. apply I22.
  - intros x y. rewrite !ffin_B, !fval_B, Flocq.IEEE754.PrimFloat.mul_equiv. apply I23.
  - intros x y. rewrite !ffin_B, !fval_B, Flocq.IEEE754.PrimFloat.div_equiv. apply I24.
  - intros x y z _ _. rewrite !ffin_B, !fval_B, Flocq.IEEE754.PrimFloat.add_equiv. apply I25; intros ? ? [].
  - intros x y z _ _. rewrite !ffin_B, !fval_B, Flocq.IEEE754.PrimFloat.sub_equiv. apply I26; intros ? ? [].
  - intros x y z. rewrite !ffin_B, !fval_B, Flocq.IEEE754.PrimFloat.mul_equiv. apply I27.
  - intros x y z. rewrite !ffin_B, !fval_B, Flocq.IEEE754.PrimFloat.div_equiv. apply I28.
Qed.

(** ** binary32, Flocq's *)
Lemma prec32 : Prec_gt_0 24. Proof. reflexivity. Qed.
Lemma emax32 : Prec_lt_emax 24 128. Proof. reflexivity. Qed.
Definition B32Ops : Ops (binary_float 24 128) := BOps 24 128 prec32 emax32.
Lemma b32_ieee : Ieee B32Ops B2R (fun x => is_finite x = true) unfused (bpow radix2 (-24)) (bpow radix2 (-150)) (bpow radix2 128 - bpow radix2 104).
Proof.
  pose proof (bops_ieee 24 128 prec32 emax32 ltac:(reflexivity)) as I. rewrite bomega_val in I.
  unfold bu, beta_ in I. rewrite !half_bpow in I. exact I.
Qed.
