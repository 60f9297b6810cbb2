(** * [static_cast<size_t>(std::sqrt(n))] for a size_t [n], with IEEE binary64

    Used by the size checks of the packed containers (dyn_mat.hpp:397-398, 539-540): [n] is
    converted to double, the correctly rounded square root is taken and truncated. *)
From Coq Require Import Reals Lra.
From Flocq Require Import Core.
From Verif Require Import Base.

Definition rnd64 : R -> R := round radix2 (FLT_exp (-1074) 53) ZnearestE.
Definition isqrt64 (n : nat) : nat := Z.to_nat (Zfloor (rnd64 (sqrt (rnd64 (IZR (Z.of_nat n)))))).

(** What the theorems need: exact on perfect squares that a double represents exactly. *)
Definition isqrt_exact (isqrt : nat -> nat) : Prop :=
  forall q, (Z.of_nat (q * q) <= 2 ^ 53)%Z -> isqrt (q * q) = q.

#[local] Instance prec53 : Prec_gt_0 53.
Proof. red. lia. Qed.

Lemma rnd64_int z : (0 <= z <= 2 ^ 53)%Z -> rnd64 (IZR z) = IZR z.
Proof.
  intros H. apply round_generic; [apply valid_rnd_N|].
  destruct (Z.eq_dec z (2 ^ 53)) as [->|N].
  - change (IZR (2 ^ 53)) with (IZR (Zpower radix2 53)). rewrite IZR_Zpower by lia.
    apply generic_format_bpow. unfold FLT_exp. lia.
  - apply generic_format_FLT. exists (Float radix2 z 0).
    + unfold F2R. cbn. lra.
    + cbn [Fnum]. rewrite Z.abs_eq by lia. change (Zpower radix2 53) with (2 ^ 53)%Z. lia.
    + cbn. lia.
Qed.

Lemma isqrt64_exact : isqrt_exact isqrt64.
Proof.
  intros q Hq. unfold isqrt64. rewrite rnd64_int by lia.
  replace (IZR (Z.of_nat (q * q))) with (Rsqr (IZR (Z.of_nat q))).
  2:{ unfold Rsqr. rewrite <- mult_IZR. f_equal. lia. }
  rewrite sqrt_Rsqr by (apply IZR_le; lia). rewrite rnd64_int by nia.
  rewrite Zfloor_IZR. lia.
Qed.

Lemma sqrt_sq_exact : isqrt_exact Nat.sqrt.
Proof. intros q _. apply Nat.sqrt_square. Qed.
