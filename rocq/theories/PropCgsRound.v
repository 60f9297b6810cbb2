(** * Property C99: Gram-Schmidt orthogonalisation in rounded arithmetic *)
From Coq Require Import ZArith Floats Reals Lra Lia List.
From Flocq Require Import Core Binary.
From Verif Require Import Base Scalar BaseLemmas Spec Sums RealVec SpecMat ModelVec ModelIter ProofCgs PropCgs SpecRound Rounding ProofRound ProofRound2 ProofGmresMath
  ProofAccuracy ProofCgsRound SpecIeee RoundIeee.
Import ListNotations.
Local Open Scope R_scope.
Local Notation dotR := (@dotp R ROps).
Local Notation sumR := (@bsum R ROps).

Section Rounded.
Context (O : Ops R) (u : R) (AX : Approx O u).

(** What rounding does to the steps of the algorithm, for given vectors [V] and results [W]: as long as no
    result has vanished, V_k is the sum of W_k and multiples r_l of the earlier results up to k roundings, and
    the multiples are those of the projections up to 2n+1 roundings. *)
Definition rounded_steps n m (V W : nat -> nat -> R) : Prop :=
  forall k, (k < m)%nat -> (forall l, (l < k)%nat -> nonzero n (W l)) -> exists r : nat -> R,
    (forall l, (l < k)%nat -> Rabs (r l - dotR n (W l) (V k) / dotR n (W l) (W l)) <= gamma u (2 * n + 1) * (dotR n (vabs (W l)) (vabs (V k)) / dotR n (W l) (W l))) /\
    (forall i, (i < n)%nat -> Rabs (V k i - (W k i + sumR k (fun l => r l * W l i))) <= gamma u k * (Rabs (W k i) + sumR k (fun l => Rabs (r l) * Rabs (W l i)))).

Theorem C99_steps : forall dbg vecs n (h : heap R), vecs <> [] -> NoDup vecs ->
  fits_u32 (length vecs) = true -> fits_u32 n = true -> (0 < n)%nat ->
  (forall q, In q vecs -> (q < next h)%nat /\ len h q = n) ->
  exists h', cgs dbg vecs h = Ok tt h' /\
    (forall q, (q < next h)%nat -> ~ In q vecs -> mem h' q = mem h q) /\
    mem h' (nth 0 vecs 0%nat) = mem h (nth 0 vecs 0%nat) /\
    rounded_steps n (length vecs) (fun k => rd h (nth k vecs 0%nat)) (fun k => rd h' (nth k vecs 0%nat)).
Proof.
  intros dbg vecs n h Hne Hnd Hfm Hfn Hn Hlive.
  destruct (post_ok _ _ _ (cgs_ok dbg vecs n h Hne Hnd Hfm Hfn Hn Hlive)) as ([] & h' & E & Hfr & _ & _ & H0 & HR).
  exists h'. split; [exact E|]. split; [exact Hfr|]. split; [exact H0|].
  intros k Hk Nz. exists (fun l => gcoef (O := O) n (rd h' (nth l vecs 0%nat)) (rd h (nth k vecs 0%nat))). split.
  - intros l Hl. apply (gcoef_ok (u := u)); auto.
  - intros i Hi. pose proof (gacc_resid (u := u) n Hn (fun l => rd h' (nth l vecs 0%nat)) (rd h (nth k vecs 0%nat)) k i) as G.
    assert (HRk : rd h' (nth k vecs 0%nat) i = gacc n (fun l => rd h' (nth l vecs 0%nat)) (rd h (nth k vecs 0%nat)) k i) by exact (HR k i Hk Hi).
    rewrite <- HRk in G.
    replace (rd h (nth k vecs 0%nat) i - (rd h' (nth k vecs 0%nat) i + sumR k (fun l => gcoef (O := O) n (rd h' (nth l vecs 0%nat)) (rd h (nth k vecs 0%nat)) * rd h' (nth l vecs 0%nat) i)))
      with (rd h (nth k vecs 0%nat) i - rd h' (nth k vecs 0%nat) i - sumR k (fun l => gcoef (O := O) n (rd h' (nth l vecs 0%nat)) (rd h (nth k vecs 0%nat)) * rd h' (nth l vecs 0%nat) i)) by ring.
    exact G.
Qed.

(** the constants, for [m] vectors of length [n] *)
Definition g1 n : R := gamma u (2 * n + 1).
Definition g2 m : R := gamma u m.

Lemma steps_choice n m V W : rounded_steps n m V W -> exists r : nat -> nat -> R, forall k, (k < m)%nat -> (forall l, (l < k)%nat -> nonzero n (W l)) ->
  step_ok n V W r (g1 n) (g2 m) k.
Proof.
  intros H.
  destruct (fin_choice m (fun k rk => (forall l, (l < k)%nat -> nonzero n (W l)) ->
    (forall l, (l < k)%nat -> Rabs (rk l - dotR n (W l) (V k) / dotR n (W l) (W l)) <= gamma u (2 * n + 1) * (dotR n (vabs (W l)) (vabs (V k)) / dotR n (W l) (W l))) /\
    (forall i, (i < n)%nat -> Rabs (V k i - (W k i + sumR k (fun l => rk l * W l i))) <= gamma u k * (Rabs (W k i) + sumR k (fun l => Rabs (rk l) * Rabs (W l i))))) (fun _ => 0)) as (r & Hr).
  { intros k Hk. destruct (Classical_Prop.classic (forall l, (l < k)%nat -> nonzero n (W l))) as [Nz|Nz].
    - destruct (H k Hk Nz) as (rk & Q). exists rk. auto.
    - exists (fun _ => 0). intros C. contradiction. }
  exists r. intros k Hk Nz. destruct (Hr k Hk Nz) as [Q1 Q2]. split; [exact Q1|].
  intros i Hi. specialize (Q2 i Hi). replace (V k i - W k i - sumR k (fun l => r k l * W l i)) with (V k i - (W k i + sumR k (fun l => r k l * W l i))) by ring.
  eapply Rle_trans; [exact Q2|]. apply Rmult_le_compat_r; [|apply (gamma_mono u_range); lia].
  apply Rplus_le_le_0_compat; [apply Rabs_pos|]. apply bsum_nonneg. intros l _. apply Rmult_le_pos; apply Rabs_pos.
Qed.

(** If no vector is reduced to less than 1/K of its length, the results are orthogonal up to
    skew k = O(u) (with skew (k+1) <= (k+1) K s (K m (1 + g1))^k: skew_closed). *)
Theorem C99_orthogonal : forall n m K V W, 1 <= K -> rounded_steps n m V W ->
  (forall k, (k < m)%nat -> nonzero n (V k) /\ nrm n (V k) <= K * nrm n (W k)) ->
  forall a b, (a < b)%nat -> (b < m)%nat -> Rabs (dotR n (W a) (W b)) <= skew m (g1 n) (g2 m) K b * (nrm n (W a) * nrm n (W b)).
Proof.
  intros n m K V W HK HS HV a b Hab Hb. destruct (steps_choice n m V W HS) as (r & Hr).
  assert (Pw : forall k, (k < m)%nat -> 0 < nrm n (W k)).
  { intros k Hk. destruct (HV k Hk) as [Nz L]. apply nonzero_nrm in Nz. pose proof (nrm_nonneg n (W k)). nra. }
  apply (orthogonal n m V W r (g1 n) (g2 m) K); auto.
  - apply (gamma_pos u_range).
  - apply (gamma_pos u_range).
  - intros k Hk. apply Hr; [exact Hk|]. intros l Hl. apply nrm_nonzero, Pw. lia.
  - intros k Hk. now apply HV.
Qed.

(** If the given vectors are independent by a margin sigma that exceeds the rounding errors, none is reduced that
    far: the algorithm does not break down, the results are orthogonal up to rounding, and each is V_k minus a
    combination of the earlier vectors, up to rounding. *)
Theorem C99_independent : forall n m sigma V W, 0 < sigma -> spread n m sigma V -> rounded_steps n m V W ->
  (1 + g1 n) * INR m * (g2 m + drift (g1 n) (g2 m) sigma m m) <= sigma / 2 ->
  (forall k, (k < m)%nat -> nonzero n (W k)) /\
  (forall a b, (a < b)%nat -> (b < m)%nat ->
    Rabs (dotR n (W a) (W b)) <= skew m (g1 n) (g2 m) (2 * (1 + g2 m) / sigma) b * (nrm n (W a) * nrm n (W b))) /\
  (forall k, (k < m)%nat -> exists y, inspan n k V y /\
    nrm n (fun i => W k i - (V k i - y i)) <= drift (g1 n) (g2 m) sigma m (S k) * nrm n (W k)).
Proof.
  intros n m sigma V W Hs Sp HS Small. destruct (steps_choice n m V W HS) as (r & Hr).
  assert (G1 : 0 <= g1 n) by apply (gamma_pos u_range). assert (G2 : 0 <= g2 m) by apply (gamma_pos u_range).
  pose proof (no_breakdown n m V W r (g1 n) (g2 m) sigma G1 G2 Hs Sp Small Hr) as N. split; [|split].
  - intros k Hk. now apply N.
  - intros a b Hab Hb. apply (C99_orthogonal n m _ V W); auto.
    + apply (K_ge n m V (g2 m) sigma); auto. lia.
    + intros k Hk. split; [now apply Sp|now apply N].
  - intros k Hk. now apply N.
Qed.

Theorem C99_cgs : forall dbg vecs n sigma (h : heap R), vecs <> [] -> NoDup vecs ->
  fits_u32 (length vecs) = true -> fits_u32 n = true -> (0 < n)%nat ->
  (forall q, In q vecs -> (q < next h)%nat /\ len h q = n) -> let m := length vecs in let V k := rd h (nth k vecs 0%nat) in
  0 < sigma -> spread n m sigma V -> (1 + g1 n) * INR m * (g2 m + drift (g1 n) (g2 m) sigma m m) <= sigma / 2 ->
  exists h', cgs dbg vecs h = Ok tt h' /\ let W k := rd h' (nth k vecs 0%nat) in
    (forall k, (k < m)%nat -> nonzero n (W k)) /\
    (forall a b, (a < b)%nat -> (b < m)%nat ->
      Rabs (dotR n (W a) (W b)) <= skew m (g1 n) (g2 m) (2 * (1 + g2 m) / sigma) b * (nrm n (W a) * nrm n (W b))) /\
    (forall k, (k < m)%nat -> exists y, inspan n k V y /\
      nrm n (fun i => W k i - (V k i - y i)) <= drift (g1 n) (g2 m) sigma m (S k) * nrm n (W k)).
Proof.
  intros dbg vecs n sigma h Hne Hnd Hfm Hfn Hn Hlive m V Hs Sp Small.
  destruct (C99_steps dbg vecs n h Hne Hnd Hfm Hfn Hn Hlive) as (h' & E & _ & _ & R). exists h'. split; [exact E|].
  apply C99_independent; auto.
Qed.
End Rounded.

(** ** The limit: binary64, three independent vectors of which two results include an angle of 60 degrees *)
Definition lau : list (list PrimFloat.float) := [[1; 0x1p-27; 0; 0]; [1; 0; 0x1p-27; 0]; [1; 0; 0; 0x1p-27]]%float.
Definition LAU : heap PrimFloat.float := heap_of lau.
Theorem C99_lauchli : exists (h h' : heap PrimFloat.float) vecs, let v k i := fval (rd h (nth k vecs 0%nat) i) in let w k i := fval (rd h' (nth k vecs 0%nat) i) in
  length vecs = 3%nat /\ NoDup vecs /\ (forall q, In q vecs -> (q < next h)%nat /\ len h q = 4%nat) /\
  independent 4 3 v /\ cgs true vecs h = Ok tt h' /\
  0 < dotR 4 (w 1%nat) (w 1%nat) /\ dotR 4 (w 2%nat) (w 2%nat) = dotR 4 (w 1%nat) (w 1%nat) /\ dotR 4 (w 1%nat) (w 2%nat) = dotR 4 (w 1%nat) (w 1%nat) / 2.
Proof.
  assert (E : match cgs true [0%nat; 1%nat; 2%nat] LAU with Ok _ h' => (mem h' 1%nat, mem h' 2%nat) | _ => ([], []) end
    = ([0; -0x1p-27; 0x1p-27; 0], [0; -0x1p-27; 0; 0x1p-27])%float) by (vm_compute; reflexivity).
  destruct (cgs true [0%nat; 1%nat; 2%nat] LAU) as [[] h'|e h'| | | |] eqn:C; try discriminate E.
  injection E as E1 E2. exists LAU, h', [0%nat; 1%nat; 2%nat]. cbv zeta.
  split; [reflexivity|]. split; [repeat constructor; cbn; intuition discriminate|].
  split. { intros q [<-|[<-|[<-|[]]]]; (split; [cbn; lia|reflexivity]). }
  destruct (i_zero (Ieee := float_ieee)) as [F0 V0]. destruct (i_one (Ieee := float_ieee)) as [F1 V1].
  cbn [zero one FOps] in *.
  assert (Pe : 0 < fval 0x1p-27%float).
  { rewrite <- V0. apply (i_ltb (Ieee := float_ieee)); [exact F0|vm_compute; reflexivity|vm_compute; reflexivity]. }
  assert (Me : fval (-0x1p-27)%float = - fval 0x1p-27%float).
  { change (-0x1p-27)%float with (PrimFloat.opp 0x1p-27%float). apply (i_opp (Ieee := float_ieee)). }
  set (e := fval 0x1p-27%float) in *.
  split; [|split; [exact C|]].
  - intros c H. pose proof (H 1%nat ltac:(lia)) as H1. pose proof (H 2%nat ltac:(lia)) as H2. pose proof (H 3%nat ltac:(lia)) as H3.
    unfold comb in H1, H2, H3. cbn [bsum add zero ROps nth] in H1, H2, H3. unfold rd in H1, H2, H3. cbn [mem LAU heap_of lau nth] in H1, H2, H3.
    cbn -[fval] in H1, H2, H3. fold e in H1, H2, H3. rewrite V0 in H1, H2, H3.
    intros [|[|[|k]]] Hk; try lia; nra.
  - unfold dotp, rd. cbn [bsum add mul zero ROps nth]. rewrite E1, E2. cbn -[fval]. fold e. rewrite V0, Me. fold e. repeat split; nra.
Qed.

(** ** The hypotheses are met *)
Definition cgv (k i : nat) : R := match k, i with 0%nat, 0%nat => 1 | 1%nat, 0%nat => 1 | 1%nat, 1%nat => 1 | _, _ => 0 end.
Definition CGH : heap R := heap_of [[1; 0]; [1; 1]].
Example C99_nonvacuous : forall u, 0 <= u <= / 1000000 ->
  (forall k i, (k < 2)%nat -> (i < 2)%nat -> rd CGH k i = cgv k i) /\ spread 2 2 (/ 2) cgv /\
  (1 + g1 u 2) * INR 2 * (g2 u 2 + drift (g1 u 2) (g2 u 2) (/ 2) 2 2) <= / 2 / 2.
Proof.
  intros u Hu. split; [|split].
  - intros [|[|k]] [|[|i]] Hk Hi; try lia; reflexivity.
  - intros [|[|k]] Hk; try lia.
    + split; [exists 0%nat; split; [lia|cbn; lra]|]. intros y [c Hc].
      rewrite (nrm_ext 2 (fun i => cgv 0 i - y i) (cgv 0%nat)); [pose proof (nrm_nonneg 2 (cgv 0%nat)); lra|].
      intros i Hi. rewrite (Hc i Hi). unfold comb. cbn. ring.
    + split; [exists 0%nat; split; [lia|cbn; lra]|]. intros y [c Hc].
      rewrite <- (Rabs_pos_eq (/ 2)), <- nrm_scal by lra. unfold nrm. apply sqrt_le_1_alt. unfold dotp.
      cbn [bsum add mul zero ROps]. rewrite !Hc by lia. unfold comb. cbn [bsum add mul zero ROps cgv].
      pose proof (Rle_0_sqr (1 - c 0%nat)). unfold Rsqr in *. nra.
  - unfold g1, g2. assert (Hc : 0 <= u < 1) by lra.
    assert (A : 0 <= gamma u (2 * 2 + 1) <= / 100000).
    { split; [now apply gamma_pos|]. eapply Rle_trans; [apply gamma_classic; auto; cbn; lra|]. cbn [Nat.mul Nat.add]. change (INR 5) with (1 + 1 + 1 + 1 + 1).
      apply Rmult_le_reg_r with (1 - (1 + 1 + 1 + 1 + 1) * u); [lra|]. unfold Rdiv. rewrite Rmult_assoc, Rinv_l by lra. nra. }
    assert (B : 0 <= gamma u 2 <= / 100000).
    { split; [now apply gamma_pos|]. eapply Rle_trans; [apply (gamma_mono Hc 2 5); lia|]. apply A. }
    generalize dependent (gamma u (2 * 2 + 1)). generalize dependent (gamma u 2). intros b Hb a Ha. cbn [drift INR].
    replace (2 * (1 + b) / / 2) with (4 * (1 + b)) by field.
    set (p := (1 + a) * (1 + 1)). assert (Hp : 0 <= p <= 3) by (unfold p; lra).
    assert (Q1 : 0 <= p * (b + 0) <= 3 * / 100000) by nra.
    assert (Q2 : 0 <= b + 4 * (1 + b) * (p * (b + 0)) <= 20 * / 100000) by nra.
    set (d1 := b + 4 * (1 + b) * (p * (b + 0))) in *. assert (Q3 : 0 <= p * (b + d1) <= 63 * / 100000) by nra.
    assert (Q4 : 0 <= b + 4 * (1 + b) * (p * (b + d1)) <= 400 * / 100000) by nra.
    set (d2 := b + 4 * (1 + b) * (p * (b + d1))) in *. nra.
Qed.

Print Assumptions C99_steps.
Print Assumptions C99_orthogonal.
Print Assumptions C99_independent.
Print Assumptions C99_cgs.
Print Assumptions C99_lauchli.
