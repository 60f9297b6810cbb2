(** * Monotone arithmetic is met: exact arithmetic, the binary formats of Flocq, Coq's primitive binary64 *)
From Coq Require Import ZArith List Floats Reals Lra Lia.
From Flocq Require Import Core Plus_error BinarySingleNaN.
From Flocq Require PrimFloat.
From Verif Require Import Base Scalar BaseLemmas Spec ModelVec ProofVec ModelMat SpecMat ModelPacked ProofPacked PropPacked ModelSolvers ProofTdma PropTdma
  ProofChol PropChol PropCholSolve ModelIter PropIlu SpecIeee RoundIeee PropIeee64 PropIeee64b SpecMono PropMono.
Import ListNotations.
Local Open Scope R_scope.

Lemma reals_mono : Monotone ROps (fun x => x) (fun _ => True) (fun x => x).
Proof.
  constructor; intros; cbn [zero one add sub mul div opp sqrt_ pow2 eqb ltb ROps]; auto; try (repeat split; fail); try lra; try tauto.
  - destruct (Req_EM_T x y); intuition discriminate.
  - destruct (Rlt_dec x y); intuition discriminate.
Qed.

(** Squaring and taking the root gives the number back in radix 2, unless the square underflows. *)
Section Root.
Context (emin prec : Z) (Hp : Prec_gt_0 prec) (Hp1 : (1 < prec)%Z).
Notation format := (generic_format radix2 (FLT_exp emin prec)).
Notation rnd := (round radix2 (FLT_exp emin prec) ZnearestE).
Lemma root_exact_pos x : format x -> 0 < x -> (emin + prec <= 2 * mag radix2 x)%Z -> rnd (sqrt (rnd (x * x))) = x.
Proof.
  intros Fx Px He. set (e := (mag radix2 x - 1)%Z).
  assert (Be : bpow radix2 e <= x) by (pose proof (bpow_mag_le radix2 x ltac:(lra)) as G; now rewrite Rabs_pos_eq in G by lra).
  assert (Be1 : x < bpow radix2 (e + 1)).
  { unfold e. replace (mag radix2 x - 1 + 1)%Z with (mag radix2 x : Z) by ring. pose proof (bpow_mag_gt radix2 x) as G. now rewrite Rabs_pos_eq in G by lra. }
  assert (Em : (emin < mag radix2 x)%Z).
  { pose proof (mag_generic_gt radix2 (FLT_exp emin prec) x ltac:(lra) Fx) as G. unfold cexp, FLT_exp in G. lia. }
  assert (Q : 0 < bpow radix2 e) by apply bpow_gt_0.
  assert (Fe : format (bpow radix2 e)) by (apply generic_format_bpow; unfold FLT_exp, Prec_gt_0, e in *; lia).
  destruct (Req_dec x (bpow radix2 e)) as [E|N].
  - rewrite (round_generic radix2 (FLT_exp emin prec) ZnearestE (x * x)).
    + rewrite sqrt_square by lra. now apply round_generic; [apply valid_rnd_N|].
    + rewrite E, <- bpow_plus. apply generic_format_bpow. unfold FLT_exp, e. lia.
  - assert (U : bpow radix2 (e + 1 - prec) <= ulp radix2 (FLT_exp emin prec) x).
    { rewrite ulp_neq_0 by lra. apply bpow_le. unfold cexp, FLT_exp, e. lia. }
    pose proof (pred_ge_gt radix2 (FLT_exp emin prec) _ _ Fe Fx ltac:(lra)) as P.
    assert (EP : pred radix2 (FLT_exp emin prec) x = x - ulp radix2 (FLT_exp emin prec) x).
    { rewrite pred_eq_pos by lra. unfold pred_pos. now rewrite Req_bool_false. }
    assert (ES : succ radix2 (FLT_exp emin prec) x = x + ulp radix2 (FLT_exp emin prec) x) by (apply succ_eq_pos; lra).
    set (w := ulp radix2 (FLT_exp emin prec) x) in *. rewrite EP in P.
    assert (W : 0 < w) by (pose proof (bpow_gt_0 radix2 (e + 1 - prec)); lra).
    assert (S : Rabs (rnd (x * x) - x * x) <= w * bpow radix2 e).
    { eapply Rle_trans; [apply error_le_half_ulp; now apply FLT_exp_valid|].
      assert (H : ulp radix2 (FLT_exp emin prec) (x * x) <= bpow radix2 (2 * e + 2 - prec)).
      { rewrite ulp_neq_0 by nra. apply bpow_le. unfold cexp, FLT_exp.
        assert (M : (mag radix2 (x * x) <= 2 * e + 2)%Z).
        { apply mag_le_bpow; [nra|]. rewrite Rabs_pos_eq by nra. replace (2 * e + 2)%Z with ((e + 1) + (e + 1))%Z by ring. rewrite bpow_plus.
          apply Rmult_le_0_lt_compat; lra. }
        unfold e in *. lia. }
      replace (2 * e + 2 - prec)%Z with (1 + ((e + 1 - prec) + e))%Z in H by ring. rewrite bpow_plus, (bpow_plus _ (e + 1 - prec)) in H.
      change (bpow radix2 1) with 2 in H. assert (bpow radix2 (e + 1 - prec) * bpow radix2 e <= w * bpow radix2 e) by (apply Rmult_le_compat_r; lra). lra. }
    apply Rabs_le_inv in S. set (r := rnd (x * x)) in *.
    assert (X : w * bpow radix2 e <= w * (x - w)) by (apply Rmult_le_compat_l; lra).
    apply Rle_antisym.
    + apply round_N_le_midp; auto; [now apply FLT_exp_valid|]. rewrite ES. replace ((x + (x + w)) / 2) with (x + w / 2) by field.
      rewrite <- (sqrt_square (x + w / 2)) by lra. apply sqrt_lt_1_alt. split; [|nra].
      apply Rle_trans with (x * x - w * (x - w)); [nra|lra].
    + apply round_N_ge_midp; auto; [now apply FLT_exp_valid|]. rewrite EP. replace ((x + (x - w)) / 2) with (x - w / 2) by field.
      rewrite <- (sqrt_square (x - w / 2)) by lra. apply sqrt_lt_1_alt. split; nra.
Qed.
Lemma root_exact_flt x k : format x -> (emin + prec <= 2 * k)%Z -> bpow radix2 (k - 1) <= Rabs x -> root_exact (rnd := rnd) x.
Proof.
  intros Fx Hk B. unfold root_exact. assert (E : x * x = Rabs x * Rabs x) by (rewrite <- Rabs_mult; symmetry; apply Rabs_pos_eq, Rle_0_sqr).
  rewrite E. pose proof (bpow_gt_0 radix2 (k - 1)). apply root_exact_pos; [now apply generic_format_abs|lra|].
  rewrite mag_abs. assert ((k - 1 < mag radix2 x)%Z); [|lia]. destruct (mag radix2 x) as [m G]. cbn. assert (Nx : x <> 0) by (intros ->; rewrite Rabs_R0 in B; lra).
  apply (lt_bpow radix2). eapply Rle_lt_trans; [exact B|]. now apply G.
Qed.
Lemma root_exact_0 : root_exact (rnd := rnd) 0.
Proof. unfold root_exact. rewrite Rmult_0_l, round_0 by apply valid_rnd_N. rewrite sqrt_0, round_0 by apply valid_rnd_N. now rewrite Rabs_R0. Qed.
End Root.

Section Binary.
Context (prec emax : Z) (Hp : Prec_gt_0 prec) (Hm : Prec_lt_emax prec emax).
Notation bf := (binary_float prec emax).
Notation emin := (SpecFloat.emin prec emax).
Notation rnd := (round radix2 (FLT_exp emin prec) ZnearestE).
Lemma below_fin (z : bf) x : Rabs x <= Rabs (B2R z) -> Rabs (rnd x) < bpow radix2 emax.
Proof.
  intros H. apply Rle_lt_trans with (Rabs (B2R z)); [|apply abs_B2R_lt_emax].
  apply (abs_round_le_generic radix2 (FLT_exp emin prec) ZnearestE); auto. apply generic_format_abs, fmt; auto.
Qed.
Lemma bops_mono : Monotone (BOps prec emax Hp Hm) B2R (fun x => is_finite x = true) rnd.
Proof.
  constructor; cbn [zero one add sub mul div opp sqrt_ pow2 abs_ eqb ltb BOps].
  - intros. apply round_le; auto; [now apply FLT_exp_valid|apply valid_rnd_N].
  - intros. apply rnd_id; auto.
  - split; reflexivity.
  - split; [apply is_finite_Bone|apply Bone_correct].
  - intros x y F. destruct (plus_fin _ _ Hp Hm x y F) as [Fx Fy]. split; auto. split; auto.
    pose proof (Bplus_correct prec emax Hp Hm mode_NE x y Fx Fy) as C. rewrite rnd_NE in C.
    destruct (Rlt_bool _ _); [apply C|]. destruct C as (C & _). apply overflow_nf in C. congruence.
  - intros x y F. destruct (minus_fin _ _ Hp Hm x y F) as [Fx Fy]. split; auto. split; auto.
    pose proof (Bminus_correct prec emax Hp Hm mode_NE x y Fx Fy) as C. rewrite rnd_NE in C.
    destruct (Rlt_bool _ _); [apply C|]. destruct C as (C & _). apply overflow_nf in C. congruence.
  - intros x y F. destruct (mult_fin _ _ Hp Hm x y F) as [Fx Fy]. split; auto. split; auto.
    pose proof (Bmult_correct prec emax Hp Hm mode_NE x y) as C. rewrite rnd_NE in C.
    destruct (Rlt_bool _ _); [apply C|]. apply overflow_nf in C. congruence.
  - intros x y F Fy Ny. destruct (div_fin _ _ Hp Hm x y F Fy) as [Fx _]. split; auto.
    pose proof (Bdiv_correct prec emax Hp Hm mode_NE x y Ny) as C. rewrite rnd_NE in C.
    destruct (Rlt_bool _ _); [apply C|]. apply overflow_nf in C. congruence.
  - intros x F. destruct (Bsqrt_correct prec emax Hp Hm mode_NE x) as (E & Ef & _). rewrite rnd_NE in E. rewrite Ef in F.
    split; [destruct x as [|[]| |[]]; auto; discriminate|exact E].
  - reflexivity.
  - intros x. split; [now rewrite is_finite_Bopp|apply B2R_Bopp].
  - intros x y Fx Fy. rewrite Beqb_correct by auto. case Req_bool_spec; intuition discriminate.
  - intros x y Fx Fy. rewrite Bltb_correct by auto. case Rlt_bool_spec; intros; intuition (try discriminate; lra).
  - intros x y z Fx Fy Fz H. pose proof (Bplus_correct prec emax Hp Hm mode_NE x y Fx Fy) as C. rewrite rnd_NE in C.
    rewrite Rlt_bool_true in C by now apply (below_fin z). apply C.
  - intros x y z Fx Fy Fz H. pose proof (Bmult_correct prec emax Hp Hm mode_NE x y) as C. rewrite rnd_NE in C.
    rewrite Rlt_bool_true in C by now apply (below_fin z). destruct C as (_ & -> & _). now rewrite Fx, Fy.
  - intros x y z Fx Fy Ny Fz H. pose proof (Bdiv_correct prec emax Hp Hm mode_NE x y Ny) as C. rewrite rnd_NE in C.
    rewrite Rlt_bool_true in C by now apply (below_fin z). destruct C as (_ & -> & _). auto.
  - intros x y Fx Fy. apply round_plus_neq_0; auto; try apply fmt; auto; try typeclasses eauto.
Qed.
End Binary.

(** ** binary64 *)
Notation rnd64 := (round radix2 (FLT_exp (-1074) 53) ZnearestE).
Lemma float_mono : Monotone FOps fval ffin rnd64.
Proof.
  pose proof (bops_mono FloatOps.prec FloatOps.emax Flocq.IEEE754.PrimFloat.Hprec Flocq.IEEE754.PrimFloat.Hmax) as I.
  change (SpecFloat.emin FloatOps.prec FloatOps.emax) with (-1074)%Z in I. change FloatOps.prec with 53%Z in I at 4.
  destruct I as [I1 I2 I3 I4 I5 I6 I7 I8 I9 I10 I11 I12 I13 I14 I15 I16 I17].
  cbn [zero one add sub mul div opp sqrt_ pow2 abs_ eqb ltb BOps] in *.
  constructor; cbn [zero one add sub mul div opp sqrt_ pow2 abs_ eqb ltb FOps]; try assumption; try reflexivity; try exact (i_zero (Ieee := float_ieee)); try exact (i_one (Ieee := float_ieee)).
  - intros x. rewrite ffin_B, !fval_B. apply I2.
  - intros x y. rewrite !ffin_B, !fval_B, Flocq.IEEE754.PrimFloat.add_equiv. apply I5.
  - intros x y. rewrite !ffin_B, !fval_B, Flocq.IEEE754.PrimFloat.sub_equiv. apply I6.
  - intros x y. rewrite !ffin_B, !fval_B, Flocq.IEEE754.PrimFloat.mul_equiv. apply I7.
  - intros x y. rewrite !ffin_B, !fval_B, Flocq.IEEE754.PrimFloat.div_equiv. apply I8.
  - intros x. rewrite !ffin_B, !fval_B, Flocq.IEEE754.PrimFloat.sqrt_equiv. apply I9.
  - intros x. rewrite !ffin_B, !fval_B, Flocq.IEEE754.PrimFloat.opp_equiv. apply I11.
  - intros x y. rewrite !ffin_B, !fval_B, Flocq.IEEE754.PrimFloat.eqb_equiv. apply I12.
  - intros x y. rewrite !ffin_B, !fval_B, Flocq.IEEE754.PrimFloat.ltb_equiv. apply I13.
  - intros x y z. rewrite !ffin_B, !fval_B, Flocq.IEEE754.PrimFloat.add_equiv. apply I14.
  - intros x y z. rewrite !ffin_B, !fval_B, Flocq.IEEE754.PrimFloat.mul_equiv. apply I15.
  - intros x y z. rewrite !ffin_B, !fval_B, Flocq.IEEE754.PrimFloat.div_equiv. apply I16.
  - intros x y. rewrite !ffin_B, !fval_B. apply I17.
Qed.
Lemma float_root x : ffin x -> fval x = 0 \/ bpow radix2 (-511) <= Rabs (fval x) -> root_exact (rnd := rnd64) (fval x).
Proof.
  intros F [->|B]; [apply root_exact_0|]. apply (root_exact_flt (-1074) 53 ltac:(reflexivity) ltac:(lia) _ (-510)); [|lia|exact B].
  rewrite fval_B. apply (fmt 53 1024).
Qed.

(** The norm of a vector of binary64 numbers is not smaller than its entries, except that an entry below 2^-511 may be lost. *)
Theorem C104_norm2_binary64 : forall x (h : heap PrimFloat.float), let n := len h x in fits_u32 n = true ->
  exists r, norm2_d x h = Ok r h /\ (ffin r -> forall k, (k < n)%nat -> ffin (rd h x k) -> bpow radix2 (-511) <= Rabs (fval (rd h x k)) ->
    Rabs (fval (rd h x k)) <= fval r).
Proof.
  intros x h n Hf. destruct (C104_norm2_entry (I := float_mono) x h Hf) as (r & E & H). exists r. split; [exact E|].
  intros F k Hk Fk B. apply H; auto. apply float_root; auto.
Qed.
(** The bound on the entry is needed: the norm of the vector (2^-600) is zero. *)
Theorem C104_norm2_small_refuted : exists x (h : heap PrimFloat.float) r, norm2_d x h = Ok r h /\ ffin r /\ fval r = 0 /\
  len h x = 1%nat /\ ffin (rd h x 0) /\ 0 < fval (rd h x 0).
Proof.
  exists 0%nat, (heap_of [[0x1p-600]])%float, 0%float. split; [vm_compute; reflexivity|]. split; [reflexivity|].
  destruct (m_zero (Monotone := float_mono)) as [_ Z]. split; [exact Z|]. split; [reflexivity|]. split; [reflexivity|].
  rewrite <- Z. apply (m_ltb (Monotone := float_mono)); vm_compute; reflexivity.
Qed.

(** ** Cases: the second difference in binary64 *)
Local Existing Instance FOps.
Lemma m_sign (x : PrimFloat.float) : ffin x -> (ltb x 0%float = true -> fval x < 0) /\ (ltb 0%float x = true -> 0 < fval x).
Proof. intros F. destruct (m_zero (Monotone := float_mono)) as [F0 Z]. split; intros H; apply (m_ltb (Monotone := float_mono)) in H; auto; cbn [zero FOps] in Z; lra. Qed.
Definition MT : tri PrimFloat.float := mkTri [-1; -1]%float [2; 2; 2]%float [-1; -1]%float.
Definition MH : heap PrimFloat.float := heap_of [[0; 0x1.999999999999ap-4; 1]; [0; 0; 0]; [1; 0x1.999999999999ap-4; 3]; [0; 0; 0]]%float.
Lemma f64_2 : fval 2%float = 2.
Proof. rewrite (fval_pos 2%float 4503599627370496 (-51)) by reflexivity. replace (IZR 4503599627370496) with (bpow radix2 52) by reflexivity. rewrite <- bpow_plus. reflexivity. Qed.
Example C104_nonvacuous_tridiagonal : tri_wf PrimFloat.float MT 3 /\ z_tridiagonal fval ffin 3 (tmat MT) /\ isvec MH 0%nat 3 /\ isvec MH 2%nat 3 /\
  (exists h', tridiag_solve_vec true MT 0%nat 1%nat MH = Ok 1%nat h' /\ all_fin (mem h' 1%nat) = true) /\
  (exists h', tridiag_solve_vec true MT 2%nat 3%nat MH = Ok 3%nat h' /\ all_fin (mem h' 3%nat) = true).
Proof.
  destruct v64 as (V1 & Vm1 & _ & _ & V0). pose proof f64_2 as V2.
  split; [repeat split|]. split; [split|split; [split; cbn; auto; lia|split; [split; cbn; auto; lia|split; eexists; split; vm_compute; reflexivity]]].
  - intros [|[|[|i]]] [|[|[|j]]] Hi Hj; try lia; (split; [vm_compute; reflexivity|]); intros N; try lia;
      match goal with |- context [tmat MT ?a ?b] => let v := eval vm_compute in (tmat MT a b) in change (tmat MT a b) with v end; lra.
  - intros [|[|[|i]]] Hi; try lia; cbn [Nat.ltb Nat.leb];
      repeat match goal with |- context [tmat MT ?a ?b] => let v := eval vm_compute in (tmat MT a b) in change (tmat MT a b) with v end;
      rewrite ?V1, ?Vm1, ?V2, ?V0; cbv zeta; lra.
Qed.
Definition MC : heap PrimFloat.float := heap_of [[2; -1; 0; -1; 2; -1; 0; -1; 2]; [0; 0x1.999999999999ap-4; 1]]%float.
Example C104_nonvacuous_cholesky : let A := mkMat 0%nat 3%nat 3%nat in ismat MC A 3 3 /\ z_matrix (val := fval) 3 (mget MC A) /\
  exists F h', dyn_cholesky A MC = Ok F h' /\ good_diagonal (val := fval) (fin := ffin) 3 (fac h' F).
Proof.
  intros A. split; [repeat split; cbn; auto; lia|]. split.
  - assert (V0 : fval 0%float = 0) by apply v64. assert (V1 : fval (-1)%float = -1) by apply v64.
    intros [|[|[|i]]] [|[|[|j]]] Hi Hj N; try lia; match goal with |- fval ?e <= 0 => let v := eval vm_compute in e in change e with v end; lra.
  - eexists. eexists. split; [vm_compute; reflexivity|].
    intros [|[|[|i]]] Hi; try lia; (split; [vm_compute; reflexivity|]); apply m_sign; vm_compute; reflexivity.
Qed.
Example C104_nonvacuous_ilu : let A := mkMat 0%nat 3%nat 3%nat in exists F h', ilu_dyn A MC = Ok F h' /\ good_factor (val := fval) (fin := ffin) 3 (mget h' F).
Proof.
  intros A. eexists. eexists. split; [vm_compute; reflexivity|]. split.
  - intros [|[|[|i]]] [|[|[|j]]] Hi Hj; try lia; vm_compute; reflexivity.
  - intros [|[|[|i]]] Hi; try lia; apply m_sign; vm_compute; reflexivity.
Qed.

Print Assumptions C104_matvec.
Print Assumptions C104_spmv.
Print Assumptions C104_dot.
Print Assumptions C104_norm2.
Print Assumptions C104_norm2_entry.
Print Assumptions C104_norm2_binary64.
Print Assumptions C104_norm2_small_refuted.
Print Assumptions C104_matmat.
Print Assumptions C104_back_sub.
Print Assumptions C104_tridiagonal.
Print Assumptions C104_tridiagonal_columns.
Print Assumptions C104_cholesky.
Print Assumptions C104_cholesky_packed.
Print Assumptions C104_ilu.
Print Assumptions C104_ilu_sparse.
Print Assumptions reals_mono.
Print Assumptions bops_mono.
Print Assumptions float_mono.
