(** * Fused multiply-add of the binary formats of Flocq and of binary64 *)
From Coq Require Import ZArith Floats Reals Lra Lia.
From Flocq Require Import Core Relative Plus_error Div_sqrt_error BinarySingleNaN.
From Flocq Require PrimFloat.
From Verif Require Import Base Scalar SpecIeee SpecFma RoundIeee.
Local Open Scope R_scope.

Section Binary.
Context (prec emax : Z) (Hp : Prec_gt_0 prec) (Hm : Prec_lt_emax prec emax).
Notation bf := (binary_float prec emax).
Notation emin := (SpecFloat.emin prec emax).
Notation rnd := (round radix2 (FLT_exp emin prec) ZnearestE).

Lemma fma_fin (x y z : bf) : is_finite (Bfma mode_NE x y z) = true -> is_finite x = true /\ is_finite y = true /\ is_finite z = true.
Proof.
  destruct x as [[]|[]| |[]], y as [[]|[]| |[]], z as [[]|[]| |[]]; intros H; try discriminate H; repeat split.
Qed.
Lemma fma_val (x y z : bf) : is_finite (Bfma mode_NE x y z) = true -> B2R (Bfma mode_NE x y z) = rnd (B2R x * B2R y + B2R z).
Proof.
  intros F. destruct (fma_fin x y z F) as (Fx & Fy & Fz). pose proof (Bfma_correct prec emax Hp Hm mode_NE x y z Fx Fy Fz) as C. cbv zeta in C.
  destruct (Rlt_bool _ _); [apply C|]. apply overflow_nf in C; auto. congruence.
Qed.
(** Either the relative error is small or the result is subnormal. *)
Lemma err_cases (x : R) : Rabs (rnd x - x) <= bu prec * Rabs x \/ Rabs (rnd x - x) <= beta_ prec emax.
Proof.
  destruct (error_N_FLT radix2 emin prec Hp (fun n => negb (Z.even n)) x) as (d & e & Hd & He & Z & E).
  apply Rmult_integral in Z. destruct Z as [-> | ->].
  - right. rewrite E. replace (x * (1 + 0) + e - x) with e by ring. exact He.
  - left. rewrite E. replace (x * (1 + d) + 0 - x) with (d * x) by ring. rewrite Rabs_mult. apply Rmult_le_compat_r; [apply Rabs_pos|exact Hd].
Qed.
Lemma bfma_fused : Fused B2R (fun x : bf => is_finite x = true) (bu prec) (beta_ prec emax) (bomega prec emax Hp Hm) (Bfma mode_NE).
Proof.
  constructor.
  - exact fma_fin.
  - intros x y z F. rewrite fma_val by auto. apply err_cases.
  - intros x y z t F Ft E. rewrite fma_val by auto. rewrite E. apply plus_err; auto; apply fmt.
  - intros x y z F P. rewrite fma_val by auto. rewrite <- (rnd_id prec emax z) at 1. apply round_le; [apply FLT_exp_valid; auto|apply valid_rnd_N|lra].
  - intros x y z F P. rewrite fma_val by auto. rewrite <- (rnd_id prec emax z) at 2. apply round_le; [apply FLT_exp_valid; auto|apply valid_rnd_N|lra].
  - intros x y z Fx Fy Fz H. pose proof (Bfma_correct prec emax Hp Hm mode_NE x y z Fx Fy Fz) as C. cbv zeta in C. rewrite rnd_NE in C by auto.
    rewrite Rlt_bool_true in C by (apply (below_omega prec emax Hp Hm); auto). apply C.
Qed.
End Binary.

(** binary64 *)
Definition fma64 (x y z : Coq.Floats.PrimFloat.float) : Coq.Floats.PrimFloat.float :=
  Flocq.IEEE754.PrimFloat.B2Prim (Bfma (prec_gt_0_ := Flocq.IEEE754.PrimFloat.Hprec) (prec_lt_emax_ := Flocq.IEEE754.PrimFloat.Hmax) mode_NE
    (Flocq.IEEE754.PrimFloat.Prim2B x) (Flocq.IEEE754.PrimFloat.Prim2B y) (Flocq.IEEE754.PrimFloat.Prim2B z)).
Lemma float_fused : Fused fval ffin u64 eta64 omega64 fma64.
Proof.
  pose proof (bfma_fused FloatOps.prec FloatOps.emax Flocq.IEEE754.PrimFloat.Hprec Flocq.IEEE754.PrimFloat.Hmax) as I.
  assert (Eu : bu FloatOps.prec = u64). { unfold bu. rewrite half_bpow. reflexivity. }
  assert (Ee : beta_ FloatOps.prec FloatOps.emax = eta64). { unfold beta_. rewrite half_bpow. reflexivity. }
  assert (Eo : bomega FloatOps.prec FloatOps.emax Flocq.IEEE754.PrimFloat.Hprec Flocq.IEEE754.PrimFloat.Hmax = omega64).
  { rewrite bomega_val. reflexivity. }
  rewrite Eu, Ee, Eo in I. clear Eu Ee Eo. destruct I as [I1 I2 I3 I4 I5 I6].
  assert (E : forall x y z, Flocq.IEEE754.PrimFloat.Prim2B (fma64 x y z) =
    Bfma (prec_gt_0_ := Flocq.IEEE754.PrimFloat.Hprec) (prec_lt_emax_ := Flocq.IEEE754.PrimFloat.Hmax) mode_NE (Flocq.IEEE754.PrimFloat.Prim2B x) (Flocq.IEEE754.PrimFloat.Prim2B y) (Flocq.IEEE754.PrimFloat.Prim2B z)).
  { intros. apply Flocq.IEEE754.PrimFloat.Prim2B_B2Prim. }
  constructor.
  - intros x y z. rewrite !ffin_B, E. apply I1.
  - intros x y z. rewrite !ffin_B, !fval_B, E. apply I2.
  - intros x y z t. rewrite !ffin_B, !fval_B, E. apply I3.
  - intros x y z. rewrite !ffin_B, !fval_B, E. apply I4.
  - intros x y z. rewrite !ffin_B, !fval_B, E. apply I5.
  - intros x y z. rewrite !ffin_B, !fval_B, E. apply I6.
Qed.
