(** * Property C82, and the cases that show C76 - C81 are not vacuous: the code in binary64 *)
From Coq Require Import ZArith List Floats Reals Lra Lia.
From Flocq Require Import Core.Zaux Core.Raux Core.Defs Core.Float_prop IEEE754.BinarySingleNaN.
From Verif Require Import Base Scalar BaseLemmas Spec Sums RealVec ModelVec ModelMat SpecMat ModelPacked ProofPacked ModelSparse
  PropPacked ProofVec ModelSolvers ModelIter ProofTdma PropTdma PropChol PropIlu SpecSparse PropSparse
  SpecRound Rounding SpecIeee RoundIeee ProofIeee ProofIeee2 PropIeee PropIeee2 PropIeee3.
Import ListNotations.
Local Open Scope R_scope.
Local Existing Instance FOps.
Local Notation flt := Coq.Floats.PrimFloat.float.
Local Notation val := fval.
Local Notation fin := ffin.

(** The value of a literal. *)
Lemma fval_pos x m e : Coq.Floats.FloatOps.Prim2SF x = S754_finite false m e -> fval x = IZR (Zpos m) * bpow radix2 e.
Proof. intros E. unfold fval. rewrite E. reflexivity. Qed.

(** ** Runs that meet the hypotheses of C76 - C81 *)
Definition EH : heap flt := heap_of [[0x1.999999999999ap-4; 3; -7]; [2; 0x1.3333333333333p-2; 0x1p-1000]; [4; 0; 0; 1; 0x1.999999999999ap-4; 0; 0x1.3333333333333p-2; 2; 10000000000]; [5; 6; 7]]%float.
Definition all_fin (l : list flt) : bool := forallb Coq.Floats.PrimFloat.is_finite l.

Example C76_nonvacuous : fits_u32 (len EH 0%nat) = true /\ (0 < len EH 0%nat)%nat /\ len EH 0%nat = len EH 1%nat /\
  (exists r, dot_d 0%nat 1%nat EH = Ok r EH /\ fin r) /\ exists r, norm2_d 0%nat EH = Ok r EH /\ fin r.
Proof. repeat split; try (vm_compute; lia); eexists; split; vm_compute; reflexivity. Qed.

Definition EM : mat := mkMat 2%nat 3%nat 3%nat.
Definition EC : csr flt := mkCsr [4; 1; 0x1.999999999999ap-4; 0x1.3333333333333p-2; 2; 10000000000]%float [0; 1; 3; 6]%nat [0; 0; 1; 0; 1; 2]%nat.
Example C77_nonvacuous : ismat EH EM 3 3 /\ isvec EH 0%nat 3 /\ isvec EH 3%nat 3 /\
  exists h', mulv true 2%float EM 0%nat 0.5%float 3%nat EH = Ok 3%nat h' /\ all_fin (mem h' 3%nat) = true.
Proof. repeat split; try (cbn; lia). eexists. split; vm_compute; reflexivity. Qed.
Example C77_sparse_nonvacuous : csr_wf EC 3 /\ csr_shape EC EH = Ok (3%nat, 3%nat) EH /\ distinct (csr_entries EC 3) /\
  exists h', sp_mul true 2%float EC 0%nat 0.5%float 3%nat EH = Ok 3%nat h' /\ all_fin (mem h' 3%nat) = true.
Proof.
  split; [repeat split; cbn; auto; intros [|[|[|i]]] Hi; cbn; lia|]. split; [reflexivity|]. split.
  - unfold distinct. cbn. repeat constructor; cbn; intuition congruence.
  - eexists. split; vm_compute; reflexivity.
Qed.
Example C78_nonvacuous : exists h', op_div_d 0%nat 3%float EH = Ok 4%nat h' /\ all_fin (mem h' 4%nat) = true.
Proof. eexists. split; vm_compute; reflexivity. Qed.

Definition EU : utri flt := mkUtri 3 [4; 0x1.999999999999ap-4; 2; 3; 0x1.6666666666666p-1; 0x1p-30]%float.
Example C79_nonvacuous : utri_wf EU 3 /\ isvec EH 0%nat 3 /\
  (forall i j, (i < 3)%nat -> (j < 3)%nat -> exists v, forall S (s : S), utri_get EU i j s = Ok v s /\ fin v) /\
  exists h', back_sub EU 0%nat EH = Ok tt h' /\ all_fin (mem h' 0%nat) = true.
Proof.
  split; [split; reflexivity|]. split; [split; cbn; auto; lia|]. split.
  - intros [|[|[|i]]] [|[|[|j]]] Hi Hj; try lia; eexists; split; reflexivity.
  - eexists. split; vm_compute; reflexivity.
Qed.

Definition ES : heap flt := heap_of [[4; 9; 2; 1; 3; 77; 0x1.999999999999ap-3; 0x1.3333333333333p-2; 11]; [1; 2; 0x1.3333333333333p-2]]%float.
Lemma good_64 n (L : nat -> nat -> flt) :
  (forall i, (i < n)%nat -> Coq.Floats.PrimFloat.is_finite (L i i) = true /\ Coq.Floats.PrimFloat.ltb 0 (L i i) = true) -> good_diag fval ffin n L.
Proof.
  intros H i Hi. destruct (H i Hi) as [H1 H2]. split; [exact H1|]. destruct (i_zero (Ieee := float_ieee)) as [F0 V0].
  rewrite <- V0. now apply (i_ltb (Ieee := float_ieee)).
Qed.
Example C80_nonvacuous : ismat ES (mkMat 0%nat 3%nat 3%nat) 3 3 /\ isvec ES 1%nat 3 /\
  exists F h1 r h2, dyn_cholesky (mkMat 0%nat 3%nat 3%nat) ES = Ok F h1 /\ good_diag fval ffin 3 (fac h1 F) /\
    chol_solve_vec true F 1%nat h1 = Ok r h2 /\ all_fin (mem h2 r) = true.
Proof.
  split; [repeat split; cbn; lia|]. split; [repeat split; cbn; lia|].
  eexists. eexists. eexists. eexists. split; [vm_compute; reflexivity|]. split.
  - apply good_64. intros [|[|[|i]]] Hi; try lia; split; vm_compute; reflexivity.
  - split; vm_compute; reflexivity.
Qed.

Example C81_nonvacuous : ismat ES (mkMat 0%nat 3%nat 3%nat) 3 3 /\ isvec ES 1%nat 3 /\
  exists F h1 x h2, ilu_dyn (mkMat 0%nat 3%nat 3%nat) ES = Ok F h1 /\ all_fin (mem h1 (mp F)) = true /\
    ilu_dyn_solve F 1%nat h1 = Ok x h2 /\ all_fin (mem h2 x) = true.
Proof.
  split; [repeat split; cbn; lia|]. split; [repeat split; cbn; lia|].
  eexists. eexists. eexists. eexists. split; [vm_compute; reflexivity|]. split; [vm_compute; reflexivity|]. split; vm_compute; reflexivity.
Qed.

(** ** C82: results that fail although the exact ones are representable *)
Definition w600 : flt := 0x1p600%float.
Definition wm600 : flt := 0x1p-600%float.
Definition wmin : flt := 0x1p-1074%float.
Lemma w600_val : fval w600 = bpow radix2 600.
Proof. rewrite (fval_pos w600 (2 ^ 52)%positive 548) by (vm_compute; reflexivity). change (IZR (Z.pos (2 ^ 52))) with (bpow radix2 52). rewrite <- bpow_plus. reflexivity. Qed.
Lemma wm600_val : fval wm600 = bpow radix2 (-600).
Proof. rewrite (fval_pos wm600 (2 ^ 52)%positive (-652)) by (vm_compute; reflexivity). change (IZR (Z.pos (2 ^ 52))) with (bpow radix2 52). rewrite <- bpow_plus. reflexivity. Qed.
Lemma wmin_val : fval wmin = bpow radix2 (-1074).
Proof. rewrite (fval_pos wmin 1%positive (-1074)) by (vm_compute; reflexivity). ring. Qed.
Lemma nrm1 x : 0 <= x -> nrm 1 (fun _ => x) = x.
Proof. intros H. unfold nrm, dotp. cbn. replace (0 + x * x) with (x * x) by ring. now apply sqrt_square. Qed.

(** norm2 squares the entries: it overflows from about 2^512 on, and gives zero below about 2^-538. *)
Theorem C82_norm_refuted :
  (exists (x : ptr) (h : heap flt) r, len h x = 1%nat /\ vfin fin 1 (rd h x) /\ norm2_d x h = Ok r h /\
    nrm 1 (vv fval (rd h x)) = bpow radix2 600 /\ ~ fin r) /\
  (exists (x : ptr) (h : heap flt) r, len h x = 1%nat /\ vfin fin 1 (rd h x) /\ norm2_d x h = Ok r h /\
    nrm 1 (vv fval (rd h x)) = bpow radix2 (-600) /\ fval r = 0).
Proof.
  split.
  - exists 0%nat, (heap_of [[w600]]). eexists. split; [reflexivity|]. split; [intros [|i] Hi; [reflexivity|lia]|].
    split; [vm_compute; reflexivity|]. split; [|discriminate].
    transitivity (nrm 1 (fun _ => fval w600)); [reflexivity|]. rewrite w600_val. apply nrm1, bpow_ge_0.
  - exists 0%nat, (heap_of [[wm600]]). eexists. split; [reflexivity|]. split; [intros [|i] Hi; [reflexivity|lia]|].
    split; [vm_compute; reflexivity|]. split; [|reflexivity].
    transitivity (nrm 1 (fun _ => fval wm600)); [reflexivity|]. rewrite wm600_val. apply nrm1, bpow_ge_0.
Qed.

(** v / alpha multiplies by 1 / alpha, which overflows for a subnormal alpha. *)
Theorem C82_quotient_refuted : exists (v : ptr) (alpha : flt) (h h' : heap flt),
  len h v = 1%nat /\ vfin fin 1 (rd h v) /\ fin alpha /\ op_div_d v alpha h = Ok (next h) h' /\
  fval (rd h v 0%nat) / fval alpha = 1 /\ ~ fin (rd h' (next h) 0%nat).
Proof.
  exists 0%nat, wmin, (heap_of [[wmin]]). eexists. split; [reflexivity|]. split; [intros [|i] Hi; [reflexivity|lia]|]. split; [reflexivity|].
  split; [vm_compute; reflexivity|]. split; [|vm_compute; discriminate].
  transitivity (fval wmin / fval wmin); [reflexivity|]. rewrite wmin_val. field. apply Rgt_not_eq, bpow_gt_0.
Qed.

(** GMRES on the identity matrix and a right-hand side whose norm is computed as zero. *)
Theorem C82_gmres_refuted : exists (h : heap flt) A b G h1 x h2,
  ismat h A 2 2 /\ isvec h b 2 /\ vfin fin 2 (rd h b) /\ (forall i j, (i < 2)%nat -> (j < 2)%nat -> mget h A i j = if Nat.eqb i j then one else zero) /\
  fval (rd h b 0%nat) = bpow radix2 (-600) /\ fval (rd h b 1%nat) = bpow radix2 (-600) /\
  gmres_dyn_new A h = Ok G h1 /\ gmres_dyn_solve false Nat.sqrt G 0x1p-20%float b h1 = Ok x h2 /\
  forall i, (i < 2)%nat -> Coq.Floats.PrimFloat.is_nan (rd h2 x i) = true.
Proof.
  exists (heap_of [[1; 0; 0; 1]%float; [wm600; wm600]]), (mkMat 0%nat 2%nat 2%nat), 1%nat. eexists. eexists. eexists. eexists.
  split; [repeat split; cbn; lia|]. split; [repeat split; cbn; lia|]. split; [intros [|[|i]] Hi; try lia; reflexivity|].
  split; [intros [|[|i]] [|[|j]] Hi Hj; try lia; reflexivity|].
  split; [exact wm600_val|]. split; [exact wm600_val|]. split; [vm_compute; reflexivity|]. split; [vm_compute; reflexivity|].
  intros [|[|i]] Hi; try lia; vm_compute; reflexivity.
Qed.

(** The tridiagonal solver: a pivot that overflows makes the quotients by it zero, and the result is
    finite but solves no system near the given one. *)
Theorem C82_tridiagonal_refuted : exists (t : tri flt) b rslt (h h' : heap flt),
  tri_wf flt t 2 /\ isvec h b 2 /\ isvec h rslt 2 /\ vfin fin 2 (rd h b) /\
  (forall i j, (i < 2)%nat -> (j < 2)%nat -> fin (tmat t i j)) /\
  tridiag_solve_vec false t b rslt h = Ok rslt h' /\ vfin fin 2 (rd h' rslt) /\
  forall A', (forall i j, (i < 2)%nat -> (j < 2)%nat -> Rabs (A' i j - fval (tmat t i j)) <= / 2 * Rabs (fval (tmat t i j))) ->
    ~ solves (O := ROps) 2 A' (vv fval (rd h' rslt)) (vv fval (rd h b)).
Proof.
  exists (mkTri [w600] [1; 1]%float [w600]), 0%nat, 1%nat, (heap_of [[1; 1]%float; [0; 0]%float]). eexists.
  split; [repeat split|]. split; [repeat split; cbn; lia|]. split; [repeat split; cbn; lia|].
  split; [intros [|[|i]] Hi; try lia; reflexivity|]. split; [intros [|[|i]] [|[|j]] Hi Hj; try lia; reflexivity|].
  split; [vm_compute; reflexivity|]. split; [intros [|[|i]] Hi; try lia; reflexivity|].
  intros A' HA S. specialize (S 1%nat ltac:(lia)). specialize (HA 1%nat 0%nat ltac:(lia) ltac:(lia)).
  assert (V1 : fval 1%float = 1) by apply (i_one (Ieee := float_ieee)).
  assert (V0 : fval 0%float = 0) by apply (i_zero (Ieee := float_ieee)).
  change (0 + A' 1%nat 0%nat * fval 1%float + A' 1%nat 1%nat * fval 0%float = fval 1%float) in S.
  change (tmat {| tdl := [w600]; td := [1%float; 1%float]; tdu := [w600] |} 1%nat 0%nat) with w600 in HA.
  rewrite w600_val in HA. rewrite V1, V0 in S. pose proof (bpow_ge_0 radix2 600) as P. rewrite (Rabs_pos_eq (bpow radix2 600)) in HA by auto.
  assert (B : 4 <= bpow radix2 600) by (change 4 with (bpow radix2 2); now apply bpow_le).
  apply abs_between in HA. lra.
Qed.

(** The Cholesky constructor tests its pivots for "zero or negative", which a NaN is not: a finite
    matrix that is not positive definite is accepted with a factor that is not a number. *)
Theorem C82_cholesky_refuted : exists (h : heap flt) A F h', ismat h A 3 3 /\
  (forall i j, (i < 3)%nat -> (j < 3)%nat -> fin (mget h A i j)) /\ symmetric 3 (mget h A) /\ ~ pos_def 3 (vm fval (mget h A)) /\
  dyn_cholesky A h = Ok F h' /\ Coq.Floats.PrimFloat.is_nan (fac h' F 2%nat 2%nat) = true.
Proof.
  exists (heap_of [[0x1p-1000; 0; w600; 0; 1; 1; w600; 1; 1]%float]), (mkMat 0%nat 3%nat 3%nat). eexists. eexists.
  split; [repeat split; cbn; lia|]. split; [intros [|[|[|i]]] [|[|[|j]]] Hi Hj; try lia; reflexivity|].
  split; [intros [|[|[|i]]] [|[|[|j]]] Hi Hj; try lia; reflexivity|]. split; [|split; vm_compute; reflexivity].
  intros P. specialize (P (fun i => match i with 0%nat => 1 | 2%nat => -1 | _ => 0 end)).
  assert (N0 : exists i, (i < 3)%nat /\ match i with 0%nat => 1 | 2%nat => -1 | _ => 0 end <> 0) by (exists 0%nat; split; [lia|lra]).
  specialize (P N0). unfold mvmul in P. cbn [bsum add mul zero ROps] in P. cbv [vm] in P.
  match type of P with context [mget ?h ?A] =>
    change (mget h A 0%nat 0%nat) with 0x1p-1000%float in P; change (mget h A 0%nat 1%nat) with 0%float in P; change (mget h A 0%nat 2%nat) with w600 in P;
    change (mget h A 1%nat 0%nat) with 0%float in P; change (mget h A 1%nat 1%nat) with 1%float in P; change (mget h A 1%nat 2%nat) with 1%float in P;
    change (mget h A 2%nat 0%nat) with w600 in P; change (mget h A 2%nat 1%nat) with 1%float in P; change (mget h A 2%nat 2%nat) with 1%float in P
  end.
  assert (V1 : fval 1%float = 1) by apply (i_one (Ieee := float_ieee)).
  assert (V0 : fval 0%float = 0) by apply (i_zero (Ieee := float_ieee)).
  assert (VS : fval 0x1p-1000%float < 1).
  { rewrite <- V1. apply (i_ltb (Ieee := float_ieee)); vm_compute; reflexivity. }
  assert (B : 4 <= bpow radix2 600) by (change 4 with (bpow radix2 2); now apply bpow_le).
  rewrite V1, V0, w600_val in P. lra.
Qed.

Print Assumptions C82_norm_refuted.
Print Assumptions C82_quotient_refuted.
Print Assumptions C82_gmres_refuted.
Print Assumptions C82_tridiagonal_refuted.
Print Assumptions C82_cholesky_refuted.
