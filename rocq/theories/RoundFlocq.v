(** * The rounding model is met: exact arithmetic (u = 0) and 53-bit rounding to nearest even *)
From Coq Require Import ZArith Reals Lra Lia.
From Flocq Require Import Core Relative.
From Verif Require Import Base Scalar BaseLemmas Spec RealVec SpecRound Rounding ModelVec ModelMat SpecMat ModelPacked ProofPacked PropPacked PropTdma
  ModelSolvers ProofChol ProofCholMath PropChol PropCholSolve ModelIter ProofIlu PropIlu ModelSparse SpecSparse PropRound PropRound2.
Local Open Scope R_scope.

(** Exact real arithmetic. *)
Lemma exact_approx : Approx ROps 0.
Proof.
  constructor; intros; cbn; try rewrite Rminus_eq_0; try rewrite Rabs_R0; try lra.
  - destruct (Req_EM_T x y); split; auto; discriminate.
  - destruct (Rlt_dec x y); split; auto; discriminate.
Qed.

(** The operations of IEEE binary64 with an unbounded exponent: the exact result rounded to 53
    bits, to nearest, ties to even. *)
Definition rnd53 (x : R) : R := round radix2 (FLX_exp 53) ZnearestE x.
Definition u53 : R := bpow radix2 (-53).
Definition FlxOps : Ops R := {|
  zero := 0; one := 1;
  add := fun x y => rnd53 (x + y); sub := fun x y => rnd53 (x - y); mul := fun x y => rnd53 (x * y); div := fun x y => rnd53 (x / y);
  opp := Ropp; sqrt_ := fun x => rnd53 (sqrt x); pow2 := fun x => rnd53 (x * x); abs_ := Rabs;
  eqb := fun x y => if Req_EM_T x y then true else false; ltb := fun x y => if Rlt_dec x y then true else false |}.
Lemma rnd53_error x : Rabs (rnd53 x - x) <= u53 * Rabs x.
Proof.
  pose proof (relative_error_N_FLX radix2 53 ltac:(lia) (fun n => negb (Z.even n)) x) as H.
  replace (/ 2 * bpow radix2 (- (53) + 1)) with u53 in H; [exact H|].
  unfold u53. change (/ 2) with (bpow radix2 (-1)). rewrite <- bpow_plus. reflexivity.
Qed.
Lemma flx_approx : Approx FlxOps u53.
Proof.
  constructor; intros; cbn [zero one add sub mul div opp sqrt_ pow2 abs_ eqb ltb FlxOps]; try apply rnd53_error; try reflexivity.
  - unfold u53. split; [apply bpow_ge_0|]. change 1 with (bpow radix2 0). now apply bpow_lt.
  - pose proof (rnd53_error (sqrt x)) as E. rewrite (Rabs_pos_eq (sqrt x)) in E by apply sqrt_pos. exact E.
  - pose proof (rnd53_error (x * x)) as E. rewrite (Rabs_pos_eq (x * x)) in E by apply Rle_0_sqr. exact E.
  - destruct (Req_EM_T x y); split; auto; discriminate.
  - destruct (Rlt_dec x y); split; auto; discriminate.
Qed.
Lemma u53_small : u53 <= / 1000.
Proof. unfold u53. cbn. lra. Qed.
Lemma gamma3_small : gamma u53 3 <= / 100.
Proof.
  pose proof u53_small as H. pose proof (bpow_ge_0 radix2 (-53)) as P. fold u53 in P.
  eapply Rle_trans; [apply gamma_classic; [|cbn; lra]|].
  { split; [auto|lra]. }
  cbn. apply Rmult_le_reg_r with (1 - (1 + 1 + 1) * u53); [lra|]. unfold Rdiv. rewrite Rmult_assoc, Rinv_l by lra. lra.
Qed.

(** ** The hypotheses of C60 - C70 are met, with the 53-bit operators *)
Definition hx : heap R := heap_of [[4; 2; 2; 3]; [1; 2]; [5; 6]; [0; 0]].
Definition mx : mat := mkMat 0%nat 2%nat 2%nat.

Lemma gamma3_lt : gamma u53 3 < 1.
Proof. pose proof gamma3_small. lra. Qed.
Lemma hx_mat : ismat hx mx 2%nat 2%nat.
Proof. repeat split; cbn; lia. Qed.
Lemma hx_vec p : (0 < p < 4)%nat -> isvec hx p 2%nat.
Proof. intros H. destruct p as [|[|[|[|p]]]]; try lia; (split; [cbn; lia|reflexivity]). Qed.

Example C60_nonvacuous : exists r, @dot_d R FlxOps 1%nat 2%nat hx = Ok r hx /\
  Rabs (r - (1 * 5 + 2 * 6)) <= gamma u53 2 * (Rabs 1 * Rabs 5 + Rabs 2 * Rabs 6).
Proof.
  destruct (C60_dot FlxOps u53 flx_approx 1%nat 2%nat hx eq_refl) as (r & x' & E & _ & _ & _ & B); [unfold len; cbn; lia|reflexivity|].
  exists r. split; [exact E|]. unfold dotp, vabs, len, rd in B. cbn in B. rewrite !Rplus_0_l in B. exact B.
Qed.
Example C61_nonvacuous : exists r, @norm2_d R FlxOps 2%nat hx = Ok r hx /\ Rabs (r - sqrt (5 * 5 + 6 * 6)) <= gamma u53 4 * sqrt (5 * 5 + 6 * 6).
Proof.
  destruct (C61_norm2 FlxOps u53 flx_approx 2%nat hx eq_refl) as (r & E & _ & _ & B).
  exists r. split; [exact E|]. unfold nrm, dotp, len, rd in B. cbn in B. rewrite !Rplus_0_l in B. exact B.
Qed.
Example C62_nonvacuous : exists y h', @op_mulv R FlxOps true mx 1%nat hx = Ok y h' /\ isvec h' y 2%nat.
Proof.
  destruct (C62_matvec_operator FlxOps u53 flx_approx true mx 1%nat 2%nat 2%nat hx eq_refl eq_refl hx_mat) as (y & h' & E & _ & V & _).
  { apply hx_vec. lia. }
  eauto.
Qed.
Lemma margin_ex : pos_def_margin u53 3%nat 2%nat (symf (@mget R FlxOps hx mx)).
Proof.
  intros x (i & Hi & Ni). pose proof gamma3_small as G. pose proof (gamma_pos (u := u53) (u_range (Approx := flx_approx)) 3%nat) as G0.
  assert (K : 0 <= gamma u53 3 / (1 - gamma u53 3) <= / 99).
  { split; [apply Rmult_le_pos; [auto|left; apply Rinv_0_lt_compat; lra]|].
    apply Rmult_le_reg_r with (1 - gamma u53 3); [lra|]. unfold Rdiv. rewrite Rmult_assoc, Rinv_l by lra. lra. }
  set (k := gamma u53 3 / (1 - gamma u53 3)) in *. unfold mvmul, symf, mget, rd. cbn.
  rewrite !(Rabs_pos_eq 4), !(Rabs_pos_eq 3) by lra.
  set (a := x 0%nat). set (b := x 1%nat).
  assert (Z : 0 < a * a + b * b).
  { assert (a <> 0 \/ b <> 0) by (unfold a, b; destruct i as [|[|i]]; [now left|now right|lia]). nra. }
  assert (Q : 0 <= (a + b) * (a + b)) by apply Rle_0_sqr. pose proof (Rle_0_sqr a) as Qa. pose proof (Rle_0_sqr b) as Qb. unfold Rsqr in *.
  assert (K2 : k * (0 + 4 * (a * a) + 3 * (b * b)) <= / 99 * (4 * (a * a) + 3 * (b * b))).
  { rewrite Rplus_0_l. apply Rmult_le_compat_r; lra. }
  replace ((1 + 1) * k * (0 + 4 * (a * a) + 3 * (b * b))) with (2 * (k * (0 + 4 * (a * a) + 3 * (b * b)))) by ring.
  nra.
Qed.
(** C70 and, with the factor it gives, C64. *)
Example C70_nonvacuous : exists F h', @dyn_cholesky R FlxOps mx hx = Ok F h' /\ forall i, (i < 2)%nat -> 0 < @fac R FlxOps h' F i i.
Proof.
  destruct (C70_square FlxOps u53 flx_approx 2%nat mx hx hx_mat eq_refl gamma3_lt margin_ex) as (F & h' & E & _ & P). eauto.
Qed.
Example C64_nonvacuous : exists F h' r h'', @dyn_cholesky R FlxOps mx hx = Ok F h' /\ @chol_solve_vec R FlxOps true F 1%nat h' = Ok r h''.
Proof.
  destruct (C70_solve FlxOps u53 flx_approx true 2%nat mx hx hx_mat ltac:(lia) gamma3_lt margin_ex) as (F & h' & E & _ & S).
  destruct (S 1%nat (hx_vec 1%nat ltac:(lia))) as (r & h'' & E2 & _). eauto 6.
Qed.
(** C66: the matrix above has an incomplete factorisation. *)
Example C66_nonvacuous : exists F h', @ilu_dyn R FlxOps mx hx = Ok F h' /\ @mget R FlxOps h' F 0%nat 0%nat = 4.
Proof.
  pose proof (ilu_dyn_outcome (Op := FlxOps) 2%nat mx hx hx_mat eq_refl) as P. unfold postx in P.
  assert (N4 : @nzb R FlxOps 4 = true) by (unfold nzb; cbn; destruct (Req_EM_T 4 0); [lra|reflexivity]).
  assert (R0 : forall f, @ilurow R FlxOps 2%nat (@mget R FlxOps hx mx) f 0%nat -> f 0%nat 0%nat = 4).
  { intros f [_ U]. specialize (U 0%nat ltac:(lia) ltac:(lia)). unfold urec in U. change (@mget R FlxOps hx mx 0%nat 0%nat) with 4 in U. rewrite N4 in U. exact U. }
  destruct (ilu_dyn mx hx) as [F h'|e h'| | | |]; try contradiction.
  - exists F, h'. split; auto. apply R0. destruct P as [_ D]. apply D. lia.
  - exfalso. destruct P as (_ & _ & f & i & j & H1 & H2 & Row & _ & _ & Z). assert (j = 0 /\ i = 1)%nat as [-> ->] by lia.
    specialize (Row 0%nat ltac:(lia)). apply R0 in Row. rewrite Row in Z. congruence.
Qed.
(** C67: a dominant tridiagonal matrix. *)
Definition tx : tri R := mkTri [1; 1] [4; 4; 4] [1; 2].
Example C67_nonvacuous : exists h', @tridiag_solve_vec R FlxOps true tx 0%nat 1%nat (heap_of [[1; 2; 3]; [0; 0; 0]]) = Ok 1%nat h'.
Proof.
  destruct (C67_dominant FlxOps u53 flx_approx true tx 3%nat 0%nat 1%nat (heap_of [[1; 2; 3]; [0; 0; 0]])) as (h' & A' & E & _).
  - lia.
  - reflexivity.
  - repeat split.
  - intros i Hi. pose proof u53_small as U. pose proof (u_range (Approx := flx_approx)) as U0.
    assert (M : (1 - / 1000) ^ 2 <= (1 - u53) ^ 2) by (apply pow_incr; lra).
    destruct i as [|[|[|i]]]; [| | |lia]; unfold tmat, band; cbn; rewrite ?Rabs_Ropp, ?Rabs_R0, ?Rabs_R1, ?(Rabs_pos_eq 4), ?(Rabs_pos_eq 2) by lra; cbn in M; lra.
  - split; [cbn; lia|reflexivity].
  - unfold len. cbn. lia.
  - eauto.
Qed.

(** C65: the modified factorisation of the matrix above. *)
Lemma flx_between x lo hi : 0 <= lo -> lo <= x <= hi -> 999 / 1000 * lo <= rnd53 x <= 1001 / 1000 * hi.
Proof.
  intros H0 [H1 H2]. pose proof (rnd53_error x) as E. pose proof u53_small as U. rewrite (Rabs_pos_eq x) in E by lra.
  assert (u53 * x <= / 1000 * x) by (apply Rmult_le_compat_r; lra).
  unfold Rabs in E. destruct (Rcase_abs (rnd53 x - x)) in E; lra.
Qed.
Example C65_nonvacuous : exists F h', @mod_cholesky R FlxOps mx hx = Ok F h'.
Proof.
  destruct (mod_outcome R FlxOps 2%nat mx hx hx_mat eq_refl) as (h' & _ & _ & _ & [(E & _)|(_ & c & Hc & Rw & Cl & Z)]); [eauto|exfalso].
  assert (Z' : @mget R FlxOps h' (mkMat (next hx) 2%nat 2%nat) c c = 0) by (now apply (ax_eqb (Approx := flx_approx))). clear Z.
  set (L := @mget R FlxOps h' (mkMat (next hx) 2%nat 2%nat)) in *.
  assert (R00 : forall i, @mrec R FlxOps (@mget R FlxOps hx mx) L i 0%nat -> L i 0%nat = @mget R FlxOps hx mx i 0%nat) by (intros i H; exact H).
  assert (c = 0 \/ c = 1)%nat as [-> | ->] by lia.
  - specialize (Cl 0%nat ltac:(lia)). apply R00 in Cl. rewrite Cl in Z'. unfold mget, rd in Z'. cbn in Z'. lra.
  - pose proof (R00 _ (Cl 0%nat ltac:(lia))) as L10. specialize (Cl 1%nat ltac:(lia)).
    assert (L00 : L 0%nat 0%nat = 4). { apply R00. apply (Rw 0%nat); lia. }
    change (@mget R FlxOps hx mx 1%nat 0%nat) with 2 in L10.
    unfold mrec in Cl. cbn [ssub] in Cl. rewrite L10, L00 in Cl. change (@mget R FlxOps hx mx 1%nat 1%nat) with 3 in Cl.
    cbn [sub mul div FlxOps] in Cl. rewrite Z' in Cl.
    pose proof (flx_between (2 * 2) 4 4 ltac:(lra) ltac:(lra)) as B1.
    assert (B2 : 9 / 10 <= rnd53 (rnd53 (2 * 2) / 4) <= 12 / 10).
    { pose proof (flx_between (rnd53 (2 * 2) / 4) (999 / 1000) (1001 / 1000) ltac:(lra) ltac:(lra)). lra. }
    match type of Cl with _ = rnd53 (3 - ?p) => assert (B3 : 18 / 10 <= 3 - p <= 22 / 10) by lra;
      pose proof (flx_between (3 - p) (18 / 10) (22 / 10) ltac:(lra) B3); lra end.
Qed.

(** C68: [[2, 0], [1, 3]] times a vector. *)
Definition cx : csr R := mkCsr [2; 1; 3] [0%nat; 1%nat; 3%nat] [0%nat; 0%nat; 1%nat].
Example C68_nonvacuous : exists y h', @sp_op_mul R FlxOps true cx 1%nat hx = Ok y h' /\
  Rabs (@rd R FlxOps h' y 1 - (1 * 1 + 3 * 2)) <= gamma u53 4 * (Rabs 1 * Rabs 1 + Rabs 3 * Rabs 2).
Proof.
  assert (W : csr_wf cx 2).
  { repeat split. intros i Hi. destruct i as [|[|i]]; cbn; lia. }
  pose (a := fun i j : nat => match i, j with 0%nat, 0%nat => 2 | 1%nat, 0%nat => 1 | 1%nat, 1%nat => 3 | _, _ => 0 end).
  destruct (C68_operator FlxOps u53 flx_approx true 2%nat 2%nat cx a 1%nat hx W) as (y & h' & E & _ & B).
  - discriminate.
  - reflexivity.
  - reflexivity.
  - unfold distinct, csr_entries, csr_row. cbn. repeat (constructor; [cbn; intuition congruence|]). constructor.
  - intros S s i j Hi Hj. destruct i as [|[|i]], j as [|[|j]]; try lia; reflexivity.
  - apply hx_vec. lia.
  - exists y, h'. split; [exact E|]. specialize (B 1%nat ltac:(lia)). unfold mvmul, mabs, vabs, rd in B. cbn in B.
    rewrite !Rplus_0_l in B. exact B.
Qed.
(** C69: 5/3 and 6/3 up to two roundings. *)
Example C69_nonvacuous : exists h', @op_div_d R FlxOps 2%nat 3 hx = Ok 4%nat h' /\
  Rabs (@rd R FlxOps h' 4%nat 0%nat - 5 / 3) <= gamma u53 2 * Rabs (5 / 3).
Proof.
  destruct (C69_quotient FlxOps u53 flx_approx 2%nat 3 hx) as (h' & E & B); [cbn; lia|reflexivity|lra|].
  exists h'. split; [exact E|]. exact (B 0%nat ltac:(unfold len; cbn; lia)).
Qed.
(** C63: a 2 x 2 upper triangular system. *)
Example C63_nonvacuous : exists h', @back_sub R FlxOps (mkUtri 2%nat [2; 1; 4]) 1%nat hx = Ok tt h'.
Proof.
  pose (f := fun i j : nat => match i, j with 0%nat, 0%nat => 2 | 0%nat, 1%nat => 1 | 1%nat, 1%nat => 4 | _, _ => 0 end).
  destruct (C63_back_sub FlxOps u53 flx_approx (mkUtri 2%nat [2; 1; 4]) 2%nat f 1%nat hx) as (h' & U' & E & _).
  - repeat split.
  - intros i j Hi Hj S s. destruct i as [|[|i]], j as [|[|j]]; try lia; reflexivity.
  - apply hx_vec. lia.
  - intros i Hi. destruct i as [|[|i]]; cbn; try lra; lia.
  - eauto.
Qed.

Print Assumptions flx_approx.
Print Assumptions C60_dot.
Print Assumptions C60_any_reduction_order.
Print Assumptions C61_norm2.
Print Assumptions C62_matvec.
Print Assumptions C62_matmat.
Print Assumptions C63_back_sub.
Print Assumptions C64_square.
Print Assumptions C64_packed.
Print Assumptions C65_solve.
Print Assumptions C66_factor.
Print Assumptions C66_factor_csr.
Print Assumptions C66_solve.
Print Assumptions C67_dominant.
Print Assumptions C67_dominant_columns.
Print Assumptions C68_spmv.
Print Assumptions C69_quotient.
Print Assumptions C70_solve.
