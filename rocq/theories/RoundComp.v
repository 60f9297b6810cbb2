(** * The arithmetic of C105 is met: exact arithmetic, the binary formats of Flocq, Coq's primitive binary64; cases *)
From Coq Require Import ZArith List Floats Reals Lra Lia.
From Flocq Require Import Core BinarySingleNaN.
From Flocq Require PrimFloat.
From Verif Require Import Base Scalar BaseLemmas Spec ModelVec ProofVec ModelMat SpecMat ModelPacked ProofPacked PropPacked ModelSolvers ProofTdma PropTdma
  ProofChol PropChol PropCholSolve ModelIter PropIlu SpecIeee RoundIeee PropIeee64 PropIeee64b SpecMono PropMono RoundMono SpecComp PropComp.
Import ListNotations.
Local Open Scope R_scope.

Lemma reals_ranged : Ranged ROps (fun x => x) (fun _ => True) (fun x => x) (fun _ => True).
Proof. constructor; auto. exact reals_mono. Qed.

Section Binary.
Context (prec emax : Z) (Hp : Prec_gt_0 prec) (Hm : Prec_lt_emax prec emax).
Notation bf := (binary_float prec emax).
Notation emin := (SpecFloat.emin prec emax).
Notation rnd := (round radix2 (FLT_exp emin prec) ZnearestE).
Lemma bops_ranged : Ranged (BOps prec emax Hp Hm) B2R (fun x => is_finite x = true) rnd (fun r => Rabs r < bpow radix2 emax).
Proof.
  constructor; cbn [zero one add sub mul div opp sqrt_ pow2 abs_ eqb ltb BOps].
  - apply bops_mono.
  - intros. lra.
  - intros. apply abs_B2R_lt_emax.
  - intros x y Fx Fy H. pose proof (Bplus_correct prec emax Hp Hm mode_NE x y Fx Fy) as C. rewrite rnd_NE in C.
    rewrite Rlt_bool_true in C by exact H. apply C.
  - intros x y Fx Fy H. pose proof (Bminus_correct prec emax Hp Hm mode_NE x y Fx Fy) as C. rewrite rnd_NE in C.
    rewrite Rlt_bool_true in C by exact H. apply C.
  - intros x y Fx Fy H. pose proof (Bmult_correct prec emax Hp Hm mode_NE x y) as C. rewrite rnd_NE in C.
    rewrite Rlt_bool_true in C by exact H. destruct C as (_ & -> & _). now rewrite Fx, Fy.
  - intros x y Fx Fy Ny H. pose proof (Bdiv_correct prec emax Hp Hm mode_NE x y Ny) as C. rewrite rnd_NE in C.
    rewrite Rlt_bool_true in C by exact H. destruct C as (_ & -> & _). auto.
  - intros x Fx P. destruct (Bsqrt_correct prec emax Hp Hm mode_NE x) as (_ & -> & _).
    destruct x as [|[]| |[]]; auto; try discriminate. exfalso. cbn in P.
    apply Rle_not_lt in P. apply P. apply F2R_lt_0. reflexivity.
Qed.
End Binary.

Lemma float_ranged : Ranged FOps fval ffin rnd64 (fun r => Rabs r < bpow radix2 1024).
Proof.
  pose proof (bops_ranged FloatOps.prec FloatOps.emax Flocq.IEEE754.PrimFloat.Hprec Flocq.IEEE754.PrimFloat.Hmax) as I.
  change (SpecFloat.emin FloatOps.prec FloatOps.emax) with (-1074)%Z in I.
  destruct I as [_ I2 I3 I4 I5 I6 I7 I8].
  cbn [zero one add sub mul div opp sqrt_ pow2 abs_ eqb ltb BOps] in *.
  constructor; cbn [zero one add sub mul div opp sqrt_ pow2 abs_ eqb ltb FOps].
  - exact float_mono.
  - exact I2.
  - intros x. rewrite ffin_B, fval_B. apply I3.
  - intros x y. rewrite !ffin_B, !fval_B, Flocq.IEEE754.PrimFloat.add_equiv. apply I4.
  - intros x y. rewrite !ffin_B, !fval_B, Flocq.IEEE754.PrimFloat.sub_equiv. apply I5.
  - intros x y. rewrite !ffin_B, !fval_B, Flocq.IEEE754.PrimFloat.mul_equiv. apply I6.
  - intros x y. rewrite !ffin_B, !fval_B, Flocq.IEEE754.PrimFloat.div_equiv. apply I7.
  - intros x. rewrite !ffin_B, !fval_B, Flocq.IEEE754.PrimFloat.sqrt_equiv. apply I8.
Qed.

(** ** Cases: the second difference, and the same with larger entries, in binary64 *)
Local Existing Instance FOps.
Definition MT' : tri PrimFloat.float := mkTri [0; -1]%float [2; 0x1.8p+1; 2]%float [-1; -0x1p-1]%float.
Definition MC' : heap PrimFloat.float := heap_of [[2; -1; 0; -1; 0x1.8p+1; -0x1p-1; 0; -0x1p-1; 2]; [0; 0x1p-4; 1]]%float.
Lemma le64 x y : ffin x -> ffin y -> ltb y x = false -> fval x <= fval y.
Proof. intros Fx Fy H. destruct (Rle_dec (fval x) (fval y)) as [L|L]; [exact L|exfalso]. assert (G : fval y < fval x) by lra. apply (m_ltb (Monotone := float_mono)) in G; auto. congruence. Qed.
Lemma le0_64 x : ffin x -> ltb 0%float x = false -> fval x <= 0.
Proof. intros F H. destruct (m_zero (Monotone := float_mono)) as [F0 Z]. cbn [zero FOps] in Z. rewrite <- Z. now apply le64. Qed.
Example C105_nonvacuous_tridiagonal : tri_wf PrimFloat.float MT' 3 /\ raised fval ffin 3 (tmat MT) (tmat MT') /\
  lowered fval ffin 3 (rd MC 1%nat) (rd MC' 1%nat).
Proof.
  split; [repeat split|]. split.
  - intros [|[|[|i]]] [|[|[|j]]] Hi Hj; try lia; (split; [vm_compute; reflexivity|]); split; try (intros; lia);
      try (apply le64; vm_compute; reflexivity); intros _; apply le0_64; vm_compute; reflexivity.
  - destruct (m_zero (Monotone := float_mono)) as [F0 Z]. cbn [zero FOps] in Z.
    intros [|[|[|i]]] Hi; try lia; (split; [vm_compute; reflexivity|]); (split; [rewrite <- Z|]); apply le64; vm_compute; reflexivity.
Qed.
Example C105_nonvacuous_cholesky : let A := mkMat 0%nat 3%nat 3%nat in ismat MC A 3 3 /\ ismat MC' A 3 3 /\
  raised fval ffin 3 (mget MC A) (mget MC' A) /\ raised_low fval ffin 3 (mget MC A) (mget MC' A).
Proof.
  intros A. split; [repeat split; cbn; auto; lia|]. split; [repeat split; cbn; auto; lia|].
  assert (R : raised fval ffin 3 (mget MC A) (mget MC' A)).
  { intros [|[|[|i]]] [|[|[|j]]] Hi Hj; try lia; (split; [vm_compute; reflexivity|]); split; try (intros; lia);
      try (apply le64; vm_compute; reflexivity); intros _; apply le0_64; vm_compute; reflexivity. }
  split; [exact R|]. intros i j Hj Hi. apply R; lia.
Qed.

Print Assumptions C105_back_sub.
Print Assumptions C105_tridiagonal.
Print Assumptions C105_tridiagonal_columns.
Print Assumptions C105_cholesky.
Print Assumptions C105_cholesky_packed.
Print Assumptions C105_ilu.
Print Assumptions C105_ilu_sparse.
Print Assumptions reals_ranged.
Print Assumptions bops_ranged.
Print Assumptions float_ranged.
