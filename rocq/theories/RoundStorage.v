(** * C107 for the element types: any ring, every binary IEEE format, the primitive binary64 *)
From Coq Require Import ZArith Floats Reals Lra Lia List Bool.
From Flocq Require Import Core BinarySingleNaN Plus_error.
From Flocq Require PrimFloat.
From Verif Require Import Base Scalar BaseLemmas Spec ModelVec ModelMat SpecMat ModelSparse SpecSparse
  ProofMatOps ModelSolvers ModelIter FloatSqrt PropSpmv PropGmresAny RoundIeee RoundSigns SpecStorage PropStorage.
Import ListNotations.

Theorem C107_ring : forall T (Op : Ops T), IsRing T Op -> eqb (T := T) zero zero = true -> Skips Op (fun _ => True) (fun _ => True).
Proof.
  intros T Op Rg Z. constructor; auto. intros t a x _ _ _. destruct (ring_th (IsRing := Rg)) as [A0 A1 A2 M1 M2 M3 DR SD NR].
  assert (Z0 : forall y : T, mul zero y = zero).
  { intros y. assert (E : add (mul zero y) (mul zero y) = mul zero y) by now rewrite <- DR, A0.
    rewrite <- (A0 (mul zero y)). rewrite <- (NR (mul zero y)) at 1. rewrite <- A2, (A1 (opp _) _), A2, E. apply NR. }
  rewrite (M2 a zero), Z0, Z0, A1. apply A0.
Qed.

Section Binary.
Context (prec emax : Z) (Hp : Prec_gt_0 prec) (Hm : Prec_lt_emax prec emax).
Notation bf := (binary_float prec emax).
Notation fexp := (SpecFloat.fexp prec emax).
Notation BO := (BOps prec emax Hp Hm).
Local Open Scope R_scope.

Lemma plus_pos_zero (x y : bf) : x <> B754_zero true -> Bplus mode_NE x y <> B754_zero true.
Proof.
  intros Nx E. destruct (is_finite x) eqn:Fx; [|destruct x as [[]|[]| |], y as [[]|[]| |]; try discriminate; cbn in E; congruence].
  destruct (is_finite y) eqn:Fy; [|destruct x as [[]|[]| |], y as [[]|[]| |]; try discriminate; cbn in E; congruence].
  pose proof (Bplus_correct prec emax Hp Hm mode_NE x y Fx Fy) as C. rewrite E in C.
  destruct (Rlt_bool _ _).
  - destruct C as (C1 & _ & C3). cbn [B2R Bsign] in C1, C3.
    destruct (Req_dec (B2R x + B2R y) 0) as [Z|N].
    + rewrite Rcompare_Eq in C3 by exact Z. symmetry in C3. apply andb_true_iff in C3 as [S1 S2].
      destruct x as [[]| | |[] mx ex Bx]; try discriminate; [congruence|].
      assert (B2R (B754_finite true mx ex Bx) < 0) by (cbn; apply F2R_lt_0; reflexivity).
      assert (B2R y <= 0).
      { destruct y as [[]| | |[] my ey By]; try discriminate; cbn; try lra. apply F2R_le_0. cbn. lia. }
      lra.
    + symmetry in C1. revert C1. apply round_plus_neq_0; auto; try apply generic_format_B2R; try typeclasses eauto.
  - destruct C as [C _]. discriminate.
Qed.

(** Everything but the negative zero can be a running sum. *)
Theorem C107_ieee : Skips BO (fun x => is_finite x = true) (fun x => x <> B754_zero true).
Proof.
  constructor; cbn [zero one add sub mul div opp sqrt_ pow2 abs_ eqb ltb BOps].
  - apply is_finite_Bone.
  - discriminate.
  - intros t s. apply plus_pos_zero.
  - intros t a x Nt Fa Fx. destruct t as [[]|[]| |]; [congruence| | | | |]; destruct a as [[]| | |[]]; try discriminate; destruct x as [[]| | |[]]; try discriminate; reflexivity.
  - reflexivity.
  - exact (plus_fin prec emax Hp Hm).
  - exact (mult_fin prec emax Hp Hm).
Qed.
End Binary.

Theorem C107_binary32 : Skips B32Ops (fun x => is_finite x = true) (fun x => x <> B754_zero true).
Proof. exact (C107_ieee 24 128 prec32 emax32). Qed.
Theorem C107_binary64 : Skips FOps ffin (fun x => x <> Coq.Floats.PrimFloat.neg_zero).
Proof.
  pose proof (C107_ieee FloatOps.prec FloatOps.emax Flocq.IEEE754.PrimFloat.Hprec Flocq.IEEE754.PrimFloat.Hmax) as S. fold B64Ops in S.
  assert (A : forall x y, P2B (add (Ops := FOps) x y) = add (Ops := B64Ops) (P2B x) (P2B y)) by apply Flocq.IEEE754.PrimFloat.add_equiv.
  assert (Mu : forall x y, P2B (mul (Ops := FOps) x y) = mul (Ops := B64Ops) (P2B x) (P2B y)) by apply Flocq.IEEE754.PrimFloat.mul_equiv.
  assert (Ze : P2B (zero (Ops := FOps)) = zero (Ops := B64Ops)) by exact p2b_zero.
  assert (On : P2B (one (Ops := FOps)) = one (Ops := B64Ops)) by exact p2b_one.
  assert (Nz : forall x, x <> Coq.Floats.PrimFloat.neg_zero <-> P2B x <> B754_zero true).
  { intros x. assert (E : P2B Coq.Floats.PrimFloat.neg_zero = B754_zero true).
    { apply B2SF_inj. rewrite Flocq.IEEE754.PrimFloat.B2SF_Prim2B. reflexivity. }
    rewrite <- E. split; intros N C; apply N; [now apply Flocq.IEEE754.PrimFloat.Prim2B_inj|now rewrite C]. }
  destruct S as [S1 S2 S3 S4 S5 S6 S7]. constructor.
  - rewrite ffin_B, On. exact S1.
  - rewrite Nz, Mu, Ze. exact S2.
  - intros t s. rewrite !Nz, A. apply S3.
  - intros t a x. rewrite Nz, !ffin_B. intros N Fa Fx. apply Flocq.IEEE754.PrimFloat.Prim2B_inj. rewrite A, !Mu, Ze. now apply S4.
  - reflexivity.
  - intros x y. rewrite !ffin_B, A. apply S6.
  - intros x y. rewrite !ffin_B, Mu. apply S7.
Qed.

(** ** Cases *)
(** A 2 x 3 matrix of integers. *)
Definition ex107D : mat := mkMat 0 2 3.
Definition ex107h : heap Z := heap_of [[2; 0; 1; 0; 3; 0]%Z; [5; 7; 11]%Z; [1; 1]%Z].
Definition ex107A : csr Z := mkCsr [2; 1; 3]%Z [0; 2; 3] [0; 2; 1].
Lemma lt3 (P : nat -> Prop) : P 0 -> P 1 -> P 2 -> forall i, i < 3 -> P i.
Proof. intros P0 P1 P2 [|[|[|i]]] H; auto. lia. Qed.
Example C107_nonvacuous : ismat ex107h ex107D 2 3 /\ csr_wf ex107A 2 /\ csr_shape ex107A tt = Ok (2, 3) tt /\ rows_ascending ex107A 2 /\
  reads_equal ex107A 2 3 (mget ex107h ex107D) /\ isvec ex107h 1 3 /\ isvec ex107h 2 2.
Proof.
  repeat split; try reflexivity; try (cbn; lia).
  - intros [|[|i]] H; cbn; lia.
  - intros [|[|i]] p q Hi; cbn; intros; [|lia|lia]. assert (p = 0) as -> by lia. assert (q = 1) as -> by lia. cbn. lia.
  - intros [|[|i]] j Hi Hj; [| |lia]; revert j Hj; apply lt3; reflexivity.
Qed.
Example C107_nonvacuous_update : exists h1 h2, mulv true 4%Z ex107D 1 3%Z 2 ex107h = Ok 2 h1 /\ sp_mul true 4%Z ex107A 1 3%Z 2 ex107h = Ok 2 h2 /\
  isvec h1 2 2 /\ isvec h2 2 2 /\ forall i, i < 2 -> rd h1 2 i = rd h2 2 i.
Proof.
  destruct C107_nonvacuous as (H1 & H2 & H3 & H4 & H5 & H6 & H7).
  apply (C107_update ZOps _ _ (C107_ring Z ZOps Z_ring eq_refl) true true 2 3); auto; discriminate.
Qed.

(** A tridiagonal matrix of binary64 numbers, for the factorisation and GMRES. *)
Local Open Scope float_scope.
Definition ex107Df : mat := mkMat 0%nat 3%nat 3%nat.
Definition ex107hf : heap Coq.Floats.PrimFloat.float := heap_of [[4; -1; 0; -1; 4; -1; 0; -1; 4]; [1; 2; 3]].
Definition ex107Af : csr Coq.Floats.PrimFloat.float := mkCsr [4; -1; -1; 4; -1; -1; 4] [0; 2; 5; 7]%nat [0; 1; 0; 1; 2; 1; 2]%nat.
Local Close Scope float_scope.
Example C107_nonvacuous_binary64 : ismat ex107hf ex107Df 3 3 /\ csr_wf ex107Af 3 /\ csr_shape ex107Af tt = Ok (3, 3) tt /\ rows_ascending ex107Af 3 /\
  reads_equal ex107Af 3 3 (mget ex107hf ex107Df) /\ isvec ex107hf 1 3.
Proof.
  repeat split; try reflexivity; try (cbn; lia).
  - apply lt3; cbn; lia.
  - intros i p q Hi. revert p q. revert i Hi. refine (lt3 _ _ _ _); cbn; intros p q H1 H2 H3.
    + assert (p = 0) as -> by lia. assert (q = 1) as -> by lia. cbn. lia.
    + assert (p = 2 /\ (q = 3 \/ q = 4) \/ p = 3 /\ q = 4) as [[-> [-> | ->]]|[-> ->]] by lia; cbn; lia.
    + assert (p = 5) as -> by lia. assert (q = 6) as -> by lia. cbn. lia.
  - intros i j Hi. revert i Hi j. refine (lt3 _ _ _ _); refine (lt3 _ _ _ _); vm_compute; reflexivity.
Qed.
Example C107_nonvacuous_ilu : match ilu_csr ex107Af tt with Ok _ _ => True | _ => False end.
Proof. vm_compute. exact I. Qed.

(** An infinite element of the vector: the dense product multiplies it by the zero, the sparse one does not. *)
Definition ex107hi : heap Coq.Floats.PrimFloat.float := heap_of [[1; 0; 0; 1]%float; [1; infinity]%float].
Definition ex107Ai : csr Coq.Floats.PrimFloat.float := mkCsr [1; 1]%float [0; 1; 2] [0; 1].
Theorem C107_infinite_refuted : exists D (A : csr Coq.Floats.PrimFloat.float) x h y h1 z h2,
  ismat h D 2 2 /\ csr_wf A 2 /\ csr_shape A tt = Ok (2, 2) tt /\ rows_ascending A 2 /\ reads_equal A 2 2 (mget h D) /\ isvec h x 2 /\
  op_mulv true D x h = Ok y h1 /\ sp_op_mul true A x h = Ok z h2 /\ Coq.Floats.PrimFloat.is_nan (rd h1 y 0) = true /\ rd h2 z 0 = one (Ops := FOps).
Proof.
  assert (H1 : ismat ex107hi (mkMat 0 2 2) 2 2) by (repeat split; try reflexivity; cbn; lia).
  assert (H2 : isvec ex107hi 1 2) by (split; [cbn; lia|reflexivity]).
  assert (W : csr_wf ex107Ai 2) by (repeat split; try reflexivity; intros [|[|i]] H; cbn; lia).
  destruct (post_ok _ _ _ (op_mulv_ok true (mkMat 0 2 2) 1 2 2 ex107hi eq_refl eq_refl H1 H2)) as (y & h1 & E1 & (_ & _ & V1 & R1)).
  destruct (sp_op_mul_any FOps true 2 2 ex107Ai 1 ex107hi W eq_refl eq_refl H2) as (z & h2 & E2 & V2 & R2).
  exists (mkMat 0 2 2), ex107Ai, 1, ex107hi, y, h1, z, h2. split; [exact H1|]. split; [exact W|]. split; [reflexivity|].
  split. { intros [|[|i]] p q Hi; cbn; intros; lia. }
  split. { intros [|[|i]] [|[|j]] Hi Hj; try lia; reflexivity. }
  split; [exact H2|]. split; [exact E1|]. split; [exact E2|]. rewrite R1, R2 by lia. split; vm_compute; reflexivity.
Qed.

Print Assumptions C107_update.
Print Assumptions C107_product.
Print Assumptions C107_ilu.
Print Assumptions C107_gmres.
Print Assumptions C107_converted.
Print Assumptions C107_binary64.
Print Assumptions C107_infinite_refuted.
