(** * Properties C39-C43: Cholesky and modified Cholesky factorisation *)
From Coq Require Import QArith Qcanon Reals Lra Lia Field Floats.
From Verif Require Import Base Scalar BaseLemmas Spec Sums RealVec ModelVec ModelMat SpecMat ModelPacked ProofPacked
  PropPacked ProofVecSched ModelSolvers ProofTdma ProofChol ProofCholSolve ProofCholMath PropTdma.
Local Open Scope nat_scope.

Section Vocabulary.
Context {T : Type} {Op : Ops T}.
(** What H(i,j) reads in a Hermitian matrix of order n (C25: [herm_get]). *)
Definition hmat (H : herm T) (i j : nat) : T := nth (low_off i j) (ev H) zero.
Definition herm_wf (H : herm T) n : Prop := en H = n /\ length (ev H) = tri_len n.
Definition symmetric n (A : nat -> nat -> T) : Prop := forall i j, i < n -> j < n -> A i j = A j i.

(** Entry (i,j), j <= i, of the factor held by a factorisation object. *)
Definition fac (h : heap T) (F : chol) (i j : nat) : T := rd h (chp F) (index (chmt F) (chn F) i j).
(** An object that holds an n x n factor. *)
Definition isfac (h : heap T) (F : chol) n : Prop :=
  chn F = n /\ chp F < next h /\ len h (chp F) = storage (chmt F) n.

(** [fac] is what the public accessors return. *)
Lemma fac_square h F i j : chmt F = Square -> fac h F i j = mget h (factor_mat F) i j.
Proof. intros E. unfold fac, mget, factor_mat. rewrite E. reflexivity. Qed.
Lemma fac_packed h F n i j : chmt F = Triangle -> isfac h F n -> j <= i -> i < n ->
  exists L, lower_mat F h = Ok L h /\ forall S (s : S), ltri_get L i j s = Ok (fac h F i j) s.
Proof.
  intros E (F1 & F2 & F3) Hj Hi. exists (mkLtri (chn F) (mem h (chp F))). split; [reflexivity|]. intros S s.
  unfold ltri_get. cbn [lv]. rewrite vec_at_eq.
  - unfold fac, rd. rewrite index_low by auto. now rewrite E.
  - rewrite E in F3. cbn [storage] in F3. fold (len h (chp F)). rewrite F3. apply low_off_lt; lia.
Qed.

Lemma symf_sym n A : symmetric n A -> meq n n (symf A) A.
Proof. intros H i j Hi Hj. unfold symf. destruct (Nat.leb j i); auto. Qed.
Lemma hmat_symmetric n H : symmetric n (hmat H).
Proof. intros i j _ _. unfold hmat. now rewrite low_off_sym. Qed.
End Vocabulary.

Lemma solves_meq {T} {Op : Ops T} n A B x b : meq n n A B -> solves n A x b -> solves n B x b.
Proof. intros H S i Hi. rewrite <- (S i Hi). unfold mvmul. apply bsum_ext. intros j Hj. now rewrite H. Qed.
Lemma nonsingular_meq {T} {Op : Ops T} n A B : meq n n A B -> nonsingular n A -> nonsingular n B.
Proof.
  intros H N x Hx. apply N. intros i Hi. rewrite <- (Hx i Hi). unfold mvmul. apply bsum_ext. intros j Hj. now rewrite H.
Qed.
Lemma pos_def_meq n A B : meq n n A B -> pos_def n A -> pos_def n B.
Proof.
  intros H P x Hx. specialize (P x Hx). erewrite bsum_ext; [exact P|]. intros i Hi. cbv beta. f_equal.
  unfold mvmul. apply bsum_ext. intros j Hj. now rewrite H.
Qed.

Lemma to_int32_zero i : (0 <= i < 2 ^ 32)%Z -> to_int32 i = 0%Z -> i = 0%Z.
Proof. intros H. unfold to_int32. rewrite Z.mod_small by lia. destruct (Z.ltb_spec i (2 ^ 31)); lia. Qed.

(** ** One description of both constructors *)
Section Ctor.
Context {T : Type} {Op : Ops T}.
Implicit Types h : heap T.

(** The result of running the constructor on lower triangle [A]: either all pivots were good, or
    the first bad pivot is number c > 0 and it throws, or pivot 0 is bad and it returns. *)
Definition ctor_outcome (m : M (heap T) chol) (h : heap T) (h0 : heap T) (F : chol) n (A : nat -> nat -> T) : Prop :=
  exists h', frame (chp F) (lowpos (chmt F) n) h0 h' /\
  ((factored n A (fac h' F) /\ m h = Ok F h') \/
   (failed n A (fac h' F) 0 /\ m h = Ok F h') \/
   (exists c, 0 < c /\ failed n A (fac h' F) c /\ m h = Throw RuntimeError h')).

Lemma kernel_outcome mt n l h0 : fits_u32 n = true -> len h0 l = storage mt n ->
  ctor_outcome (fun h => bind (cholesky_decomposition mt n l)
      (fun c => if Z.eqb c 0 then ret (mkChol n l mt) else throw RuntimeError) h) h0 h0 (mkChol n l mt) n
      (lo mt n l h0).
Proof.
  intros Hf Hl. destruct (post_ok _ _ _ (chol_kernel mt n l h0 Hf Hl)) as (c & h' & E & Fr & R).
  exists h'. split; [exact Fr|]. unfold bind. rewrite E.
  destruct R as [[-> R]|(i & -> & R)].
  - left. split; [exact R|reflexivity].
  - right. destruct (Nat.eq_dec i 0) as [->|Ne].
    + left. split; [exact R|reflexivity].
    + right. exists i. split; [lia|]. split; [exact R|].
      destruct (Z.eqb_spec (to_int32 (Z.of_nat i)) 0) as [Z|]; [|reflexivity].
      apply to_int32_zero in Z; [lia|]. destruct R as (Hc & _). unfold fits_u32 in Hf. apply Z.ltb_lt in Hf. lia.
Qed.

Lemma dyn_outcome n A h : ismat h A n n -> fits_u32 n = true ->
  ctor_outcome (dyn_cholesky A) h (halloc h (mem h (mp A))) (mkChol n (next h) Square) n (mget h A).
Proof.
  intros (A1 & A2 & A3 & A4) Hf. pose (h0 := halloc h (mem h (mp A))).
  assert (L0 : len h0 (next h) = storage Square n) by (unfold len, h0; rewrite mem_halloc_same; exact A4).
  pose proof (kernel_outcome Square n (next h) h0 Hf L0) as H.
  assert (E : lo Square n (next h) h0 = mget h A).
  { unfold lo, mget, rd, h0. rewrite mem_halloc_same, A3. reflexivity. }
  rewrite E in H. unfold dyn_cholesky. rewrite A2. exact H.
Qed.
Lemma ctor_ext (h h' : heap T) l P b : frame (next h) P (halloc h b) h' -> l = next h -> ext h h' /\ next h <= l < next h'.
Proof.
  intros (N & M & _) ->. unfold halloc in N. cbn [next] in N. split; [|lia]. split; [lia|].
  intros q Hq. rewrite M by lia. apply mem_halloc_other. lia.
Qed.

Lemma lowf_factored n (A A' L : nat -> nat -> T) :
  (forall i j, j <= i -> i < n -> A i j = A' i j) -> factored n A L -> factored n A' L.
Proof. intros H R i Hi. apply (factored_ext n A); auto. Qed.

Lemma tri_outcome n H h : herm_wf H n -> fits_u32 n = true ->
  ctor_outcome (tri_cholesky H) h (halloc h (ev H)) (mkChol n (next h) Triangle) n (hmat H).
Proof.
  intros (H1 & H2) Hf.
  assert (L0 : len (halloc h (ev H)) (next h) = storage Triangle n).
  { unfold len. rewrite mem_halloc_same. exact H2. }
  destruct (kernel_outcome Triangle n (next h) (halloc h (ev H)) Hf L0) as (h' & Fr & R).
  exists h'. split; [exact Fr|].
  assert (E : forall i j, j <= i -> i < n -> lo Triangle n (next h) (halloc h (ev H)) i j = hmat H i j).
  { intros i j Hj Hi. unfold lo, rd, hmat. rewrite mem_halloc_same. rewrite index_low by auto. reflexivity. }
  unfold tri_cholesky. rewrite H1.
  destruct R as [[R O]|[[R O]|(c & Hc & R & O)]].
  - left. split; [apply (lowf_factored n _ _ _ E R)|exact O].
  - right; left. split; [apply (failed_ext n _ _ _ _ E R)|exact O].
  - right; right. exists c. split; [auto|]. split; [apply (failed_ext n _ _ _ _ E R)|exact O].
Qed.
End Ctor.

(** ** C39 *)

(** Shared content of the two storage forms: h0 is the memory in which the storage holds A. *)
Lemma ctor_factor m h h0 F n (A : nat -> nat -> R) h' : ctor_outcome m h h0 F n A -> n = chn F ->
  m h = Ok F h' -> (forall i, i < n -> (0 < fac h' F i i)%R) ->
  frame (chp F) (lowpos (chmt F) n) h0 h' /\
  meq n n (mmmul n (lowf (fac h' F)) (transp (lowf (fac h' F)))) (symf A).
Proof.
  intros (h1 & Fr & R) En E P. destruct R as [[R O]|[[R O]|(c & Hc & R & O)]]; rewrite O in E; try discriminate;
    injection E as <-.
  - split; [exact Fr|]. now apply factored_product.
  - destruct R as (Hn & _ & _ & D & B & _). apply bad_R in B. pose proof (P 0 Hn). rewrite D in H. lra.
Qed.

Theorem C39_square : forall n A (h : heap R) F h', ismat h A n n -> fits_u32 n = true ->
  dyn_cholesky A h = Ok F h' -> (forall i, i < n -> (0 < mget h' (factor_mat F) i i)%R) ->
  let L := lowf (mget h' (factor_mat F)) in
  lower_tri n L /\ meq n n (mmmul n L (transp L)) (symf (mget h A)) /\
  (symmetric n (mget h A) -> meq n n (mmmul n L (transp L)) (mget h A)) /\
  (forall i j, i < j -> j < n -> mget h' (factor_mat F) i j = mget h A i j) /\ ext h h' /\ next h <= chp F < next h'.
Proof.
  intros n A h F h' HA Hf E P. cbv zeta. pose proof (dyn_outcome n A h HA Hf) as O.
  assert (EF : F = mkChol n (next h) Square).
  { destruct O as (h1 & _ & [[_ O]|[[_ O]|(c & _ & _ & O)]]); rewrite O in E; congruence. }
  subst F. destruct (ctor_factor _ _ _ _ _ _ _ O eq_refl E) as [Fr Pr].
  { intros i Hi. apply P; auto. }
  split; [apply lowf_lower|]. split; [exact Pr|]. split.
  { intros S i j Hi Hj. etransitivity; [exact (Pr i j Hi Hj)|]. now apply (symf_sym n). }
  destruct HA as (A1 & A2 & A3 & A4). split; [|apply (ctor_ext h h' _ _ _ Fr eq_refl)]. destruct Fr as (N & M & L & U).
  intros i j Hij Hj. unfold mget. cbn [factor_mat mp mc chn chp]. rewrite A3.
  transitivity (rd (halloc h (mem h (mp A))) (next h) (i * n + j)); [|unfold rd; now rewrite mem_halloc_same]. apply U.
  intros (i' & j' & H1 & H2 & H3). cbn [chmt index] in H3.
  rewrite (Nat.add_comm (i * n)), (Nat.add_comm (i' * n)) in H3. apply pos_inj in H3; lia.
Qed.

Theorem C39_packed : forall n (H : herm R) (h : heap R) F h', herm_wf H n -> fits_u32 n = true ->
  tri_cholesky H h = Ok F h' -> (forall i, i < n -> (0 < fac h' F i i)%R) ->
  chmt F = Triangle /\ isfac h' F n /\
  lower_tri n (lowf (fac h' F)) /\ meq n n (mmmul n (lowf (fac h' F)) (transp (lowf (fac h' F)))) (hmat H) /\
  ext h h'.
Proof.
  intros n H h F h' HW Hf E P. pose proof (tri_outcome n H h HW Hf) as O.
  assert (EF : F = mkChol n (next h) Triangle).
  { destruct O as (h1 & _ & [[_ O]|[[_ O]|(c & _ & _ & O)]]); rewrite O in E; congruence. }
  subst F. destruct (ctor_factor _ _ _ _ _ _ _ O eq_refl E P) as [Fr Pr].
  split; [reflexivity|]. destruct Fr as (N & M & L & U). cbn [chp chmt] in *. split.
  { split; [reflexivity|]. cbn [chp chmt]. rewrite N. split; [unfold halloc; cbn [next]; lia|]. rewrite L. unfold len.
    rewrite mem_halloc_same. apply HW. }
  split; [apply lowf_lower|]. split.
  { intros i j Hi Hj. etransitivity; [exact (Pr i j Hi Hj)|]. apply (symf_sym n); auto. apply hmat_symmetric. }
  split; [rewrite N; unfold halloc; cbn [next]; lia|]. intros q Hq. rewrite M by lia. apply mem_halloc_other. lia.
Qed.

(** Only the lower triangle is read, and the storage form does not matter: whenever two
    constructions see the same lower triangle they have the same outcome and equal factors.
    Every scalar type, rounding included. *)
Definition same_outcome {T} {Op : Ops T} n (r1 r2 : res (heap T) chol) : Prop :=
  match r1, r2 with
  | Ok F1 h1, Ok F2 h2 => forall i j, j <= i -> i < n -> fac h1 F1 i j = fac h2 F2 i j
  | Throw e1 _, Throw e2 _ => e1 = e2
  | _, _ => False
  end.

Lemma outcomes_agree T (Op : Ops T) n m1 m2 h1 h2 h01 h02 F1 F2 (A1 A2 : nat -> nat -> T) :
  (forall i j, j <= i -> i < n -> A1 i j = A2 i j) ->
  ctor_outcome m1 h1 h01 F1 n A1 -> ctor_outcome m2 h2 h02 F2 n A2 -> same_outcome n (m1 h1) (m2 h2).
Proof.
  intros EA (g1 & _ & R1) (g2 & _ & R2).
  assert (EA' : forall i j, j <= i -> i < n -> A2 i j = A1 i j) by (intros; symmetry; auto).
  assert (FF : forall L1 L2, factored n A1 L1 -> factored n A2 L2 -> forall i j, j <= i -> i < n -> L1 i j = L2 i j).
  { intros L1 L2 H1 H2. apply (rows_unique A1); auto. intros i Hi. apply (factored_ext n A2); auto. }
  assert (FN : forall L1 L2 c, factored n A1 L1 -> failed n A2 L2 c -> False).
  { intros L1 L2 c H1 H2. eapply (factored_not_failed n A1 L1 L2 c).
    - intros i Hi. apply H1. destruct H2 as (Hc & _). lia.
    - apply (failed_ext n A2); auto. }
  assert (NF : forall L1 L2 c, failed n A1 L1 c -> factored n A2 L2 -> False).
  { intros L1 L2 c H1 H2. eapply (factored_not_failed n A2 L2 L1 c).
    - intros i Hi. apply H2. destruct H1 as (Hc & _). lia.
    - apply (failed_ext n A1); auto. }
  assert (NN : forall L1 L2 c1 c2, failed n A1 L1 c1 -> failed n A2 L2 c2 -> c1 = c2).
  { intros L1 L2 c1 c2 H1 H2. destruct (Nat.lt_trichotomy c1 c2) as [Lt|[Eq|Gt]]; auto; exfalso.
    - eapply (factored_not_failed n A2 L2 L1 c1); [|apply (failed_ext n A1); eauto].
      intros i Hi. destruct H2 as (_ & R & _). apply R. lia.
    - eapply (factored_not_failed n A1 L1 L2 c2); [|apply (failed_ext n A2); eauto].
      intros i Hi. destruct H1 as (_ & R & _). apply R. lia. }
  assert (N0 : forall L1 L2, failed n A1 L1 0 -> failed n A2 L2 0 -> forall i j, j <= i -> i < n -> L1 i j = L2 i j).
  { intros L1 L2 (Hc & _ & _ & D1 & _ & U1) (_ & _ & _ & D2 & _ & U2) i j Hj Hi.
    destruct (Nat.eq_dec i 0) as [->|].
    - replace j with 0 by lia. rewrite D1, D2. unfold pivot. cbn [ssub]. auto.
    - rewrite U1, U2 by lia. auto. }
  destruct R1 as [[R1 O1]|[[R1 O1]|(c1 & Hc1 & R1 & O1)]], R2 as [[R2 O2]|[[R2 O2]|(c2 & Hc2 & R2 & O2)]];
    rewrite O1, O2; cbn [same_outcome]; auto; try (exfalso; eauto; fail).
  - pose proof (NN _ _ _ _ R1 R2). lia.
  - pose proof (NN _ _ _ _ R1 R2). lia.
Qed.

Theorem C39_lower_only : forall T (Op : Ops T) n A1 A2 (h1 h2 : heap T),
  ismat h1 A1 n n -> ismat h2 A2 n n -> fits_u32 n = true ->
  (forall i j, j <= i -> i < n -> mget h1 A1 i j = mget h2 A2 i j) ->
  same_outcome n (dyn_cholesky A1 h1) (dyn_cholesky A2 h2).
Proof.
  intros T Op n A1 A2 h1 h2 W1 W2 Hf E.
  apply (outcomes_agree T Op n _ _ _ _ _ _ _ _ _ _ E (dyn_outcome n A1 h1 W1 Hf) (dyn_outcome n A2 h2 W2 Hf)).
Qed.
Theorem C39_packed_as_square : forall T (Op : Ops T) n H A (h1 h2 : heap T),
  herm_wf H n -> ismat h2 A n n -> fits_u32 n = true ->
  (forall i j, j <= i -> i < n -> hmat H i j = mget h2 A i j) ->
  same_outcome n (tri_cholesky H h1) (dyn_cholesky A h2).
Proof.
  intros T Op n H A h1 h2 W1 W2 Hf E.
  apply (outcomes_agree T Op n _ _ _ _ _ _ _ _ _ _ E (tri_outcome n H h1 W1 Hf) (dyn_outcome n A h2 W2 Hf)).
Qed.

(** ** C40, C41 *)

(** A usable factor of A: lower triangle with positive diagonal and L L^T = A. *)
Definition factor_of (h : heap R) (F : chol) n (A : nat -> nat -> R) : Prop :=
  isfac h F n /\ (forall i, i < n -> (0 < fac h F i i)%R) /\
  meq n n (mmmul n (lowf (fac h F)) (transp (lowf (fac h F)))) A.

Lemma ctor_spd m h h0 F n (A : nat -> nat -> R) : ctor_outcome m h h0 F n A ->
  isfac h0 F n -> pos_def n (symf A) ->
  exists h', m h = Ok F h' /\ frame (chp F) (lowpos (chmt F) n) h0 h' /\ factor_of h' F n (symf A).
Proof.
  intros (h1 & Fr & R) (I1 & I2 & I3) P.
  assert (NF : forall c, ~ failed n A (fac h1 F) c) by (intros c Hc; apply (failed_not_pos_def _ _ _ _ Hc P)).
  destruct R as [[R O]|[[R O]|(c & Hc & R & O)]]; [|exfalso; eapply NF; eauto|exfalso; eapply NF; eauto].
  exists h1. split; [exact O|]. split; [exact Fr|]. split.
  { destruct Fr as (N & M & L & U). split; [auto|]. split; [lia|]. congruence. }
  split; [|now apply factored_product]. intros i Hi. apply (rowrec_pos A). apply R. exact Hi.
Qed.

Theorem C40_square : forall n A (h : heap R), ismat h A n n -> fits_u32 n = true ->
  symmetric n (mget h A) -> pos_def n (mget h A) ->
  exists F h', dyn_cholesky A h = Ok F h' /\ factor_of h' F n (mget h A) /\ chmt F = Square /\
    ext h h' /\ next h <= chp F < next h'.
Proof.
  intros n A h HA Hf S P. pose proof (dyn_outcome n A h HA Hf) as O.
  destruct HA as (A1 & A2 & A3 & A4).
  destruct (ctor_spd _ _ _ _ _ _ O) as (h' & E & Fr & I & D & Pr).
  { split; [reflexivity|]. cbn [chp chmt]. split; [unfold halloc; cbn [next]; lia|]. unfold len. rewrite mem_halloc_same. exact A4. }
  { apply (pos_def_meq n (mget h A)); auto. intros i j Hi Hj. symmetry. now apply (symf_sym n). }
  exists (mkChol n (next h) Square), h'. split; [exact E|].
  split; [|split; [reflexivity|apply (ctor_ext h h' _ _ _ Fr eq_refl)]].
  split; [exact I|]. split; [exact D|]. intros i j Hi Hj. etransitivity; [exact (Pr i j Hi Hj)|]. now apply (symf_sym n).
Qed.
Theorem C40_packed : forall n (H : herm R) (h : heap R), herm_wf H n -> fits_u32 n = true -> pos_def n (hmat H) ->
  exists F h', tri_cholesky H h = Ok F h' /\ factor_of h' F n (hmat H) /\ chmt F = Triangle /\ ext h h' /\ next h <= chp F.
Proof.
  intros n H h HW Hf P. pose proof (tri_outcome n H h HW Hf) as O.
  assert (SE : meq n n (symf (hmat H)) (hmat H)) by (apply symf_sym, hmat_symmetric).
  destruct (ctor_spd _ _ _ _ _ _ O) as (h' & E & (N & M & L & U) & I & D & Pr).
  { destruct HW as [W1 W2]. split; [reflexivity|]. cbn [chp chmt]. split; [unfold halloc; cbn [next]; lia|]. unfold len, halloc.
    cbn [mem]. rewrite Nat.eqb_refl. exact W2. }
  { apply (pos_def_meq n (hmat H)); auto. intros i j Hi Hj. symmetry. now apply SE. }
  exists (mkChol n (next h) Triangle), h'. split; [exact E|]. cbn [chp chmt] in *. split.
  { split; [exact I|]. split; [exact D|]. intros i j Hi Hj. etransitivity; [exact (Pr i j Hi Hj)|]. now apply SE. }
  split; [auto|]. split; [|lia]. split; [rewrite N; unfold halloc; cbn [next]; lia|]. intros q Hq. rewrite M by lia. apply mem_halloc_other. lia.
Qed.

(** Rejection works from the second pivot on. *)
Lemma ctor_not_pd m h h0 F n (A : nat -> nat -> R) : ctor_outcome m h h0 F n A -> ~ pos_def n (symf A) ->
  ((0 < A 0%nat 0%nat)%R -> exists h', m h = Throw RuntimeError h' /\ frame (chp F) (lowpos (chmt F) n) h0 h') /\
  ((A 0%nat 0%nat <= 0)%R -> 0 < n -> exists h', m h = Ok F h' /\ (forall i j, j <= i -> i < n -> fac h' F i j = A i j)).
Proof.
  intros (h1 & Fr & R) NP. destruct R as [[R O]|[[R O]|(c & Hc & R & O)]].
  - exfalso. apply NP. now apply (factored_pos_def n A (fac h1 F)).
  - destruct R as (Hn & _ & _ & D & B & U). apply bad_R in B. unfold pivot in *. cbn [ssub] in *. split.
    + intros P. lra.
    + intros _ _. exists h1. split; [exact O|]. intros i j Hj Hi. destruct (Nat.eq_dec i 0) as [->|]; [|apply U; lia].
      replace j with 0 by lia. exact D.
  - split; [eauto|]. intros B _. exfalso. destruct R as (Hn & R & _). destruct (R 0 Hc) as [_ [G _]].
    apply G. apply bad_R. exact B.
Qed.

Theorem C41_rejects_partial : forall n A (h : heap R), ismat h A n n -> fits_u32 n = true ->
  symmetric n (mget h A) -> ~ pos_def n (mget h A) -> (0 < mget h A 0%nat 0%nat)%R ->
  exists h', dyn_cholesky A h = Throw RuntimeError h' /\ ext h h'.
Proof.
  intros n A h HA Hf S NP P.
  assert (NP' : ~ pos_def n (symf (mget h A))).
  { intros Q. apply NP. apply (pos_def_meq n (symf (mget h A))); auto. now apply symf_sym. }
  destruct (proj1 (ctor_not_pd _ _ _ _ _ _ (dyn_outcome n A h HA Hf) NP') P) as (h' & E & Fr).
  exists h'; split; [exact E|apply (ctor_ext h h' _ _ _ Fr eq_refl)].
Qed.
Theorem C41_rejects_packed_partial : forall n (H : herm R) (h : heap R), herm_wf H n -> fits_u32 n = true ->
  ~ pos_def n (hmat H) -> (0 < hmat H 0%nat 0%nat)%R ->
  exists h', tri_cholesky H h = Throw RuntimeError h' /\ ext h h'.
Proof.
  intros n H h HW Hf NP P.
  assert (NP' : ~ pos_def n (symf (hmat H))).
  { intros Q. apply NP. apply (pos_def_meq n (symf (hmat H))); auto. apply symf_sym, hmat_symmetric. }
  destruct (proj1 (ctor_not_pd _ _ _ _ _ _ (tri_outcome n H h HW Hf) NP') P) as (h' & E & Fr).
  exists h'; split; [exact E|apply (ctor_ext h h' _ _ _ Fr eq_refl)].
Qed.

Lemma nonpos_not_pd n (A : nat -> nat -> R) : 0 < n -> (A 0%nat 0%nat <= 0)%R -> ~ pos_def n A.
Proof.
  intros Hn Ha P. pose (e := fun i : nat => if Nat.eqb i 0 then 1%R else 0%R).
  assert (Q : (0 < bsum n (fun i => e i * mvmul n A e i))%R).
  { apply P. exists 0. split; auto. cbn. lra. }
  rewrite (bsum_single n _ 0 Hn) in Q.
  - unfold mvmul in Q. rewrite (bsum_single n _ 0 Hn) in Q; [cbn in Q; lra|].
    intros [|i] _ Hi; [lia|]. cbn. ring.
  - intros [|i] _ Hi; [lia|]. cbn. ring.
Qed.

(** Every matrix whose first diagonal entry is zero or negative is accepted, with the storage
    unchanged: the failure code of pivot 0 is 0, which the constructor takes for success. *)
Theorem C41_accepts_refuted : forall n A (h : heap R), ismat h A n n -> fits_u32 n = true -> 0 < n ->
  (mget h A 0%nat 0%nat <= 0)%R ->
  ~ pos_def n (symf (mget h A)) /\
  exists F h', dyn_cholesky A h = Ok F h' /\ forall i j, j <= i -> i < n -> mget h' (factor_mat F) i j = mget h A i j.
Proof.
  intros n A h HA Hf Hn Ha.
  assert (NP : ~ pos_def n (symf (mget h A))) by (apply nonpos_not_pd; auto).
  split; [exact NP|].
  destruct (ctor_not_pd _ _ _ _ _ _ (dyn_outcome n A h HA Hf) NP) as [_ Q].
  destruct (Q Ha Hn) as (h' & E & U). exists (mkChol n (next h) Square), h'. split; [exact E|]. exact U.
Qed.
Theorem C41_accepts_packed_refuted : forall n (H : herm R) (h : heap R), herm_wf H n -> fits_u32 n = true -> 0 < n ->
  (hmat H 0%nat 0%nat <= 0)%R ->
  ~ pos_def n (hmat H) /\
  exists F h', tri_cholesky H h = Ok F h' /\ forall i j, j <= i -> i < n -> fac h' F i j = hmat H i j.
Proof.
  intros n H h HW Hf Hn Ha.
  split; [apply nonpos_not_pd; auto|].
  destruct (ctor_not_pd _ _ _ _ _ _ (tri_outcome n H h HW Hf)) as [_ Q].
  { apply nonpos_not_pd; auto. }
  destruct (Q Ha Hn) as (h' & E & U). eauto.
Qed.

(** ** Examples *)
Lemma pos_def_two a b c : (0 < a)%R -> (0 < a * c - b * b)%R ->
  pos_def 2 (fun i j => match i, j with 0, 0 => a | 1, 1 => c | _, _ => b end).
Proof.
  intros Ha Hd x (k & Hk & Hx). unfold mvmul. cbn [bsum]. cbn.
  assert (Q : (0 < a * (0 + x 0%nat * (0 + a * x 0%nat + b * x 1%nat) + x 1%nat * (0 + b * x 0%nat + c * x 1%nat)))%R).
  { replace (a * _)%R with ((a * x 0%nat + b * x 1%nat) * (a * x 0%nat + b * x 1%nat) + (a * c - b * b) * (x 1%nat * x 1%nat))%R by ring.
    destruct (Req_dec (x 1%nat) 0) as [E|E].
    - rewrite E. destruct k as [|[|k]]; [|contradiction|lia].
      assert (0 < (a * x 0%nat) * (a * x 0%nat))%R; [|lra]. apply Rsqr_pos_lt. apply Rmult_integral_contrapositive. split; [lra|exact Hx].
    - pose proof (Rle_0_sqr (a * x 0%nat + b * x 1%nat)). unfold Rsqr in *.
      assert (0 < (a * c - b * b) * (x 1%nat * x 1%nat))%R; [|lra]. apply Rmult_lt_0_compat; auto. now apply Rsqr_pos_lt. }
  apply (Rmult_lt_reg_l a); [exact Ha|]. rewrite Rmult_0_r. exact Q.
Qed.

(** [[4, 2], [2, 5]]: square (with a wrong upper entry, which is never read) and packed; over R
    the hypotheses of C39/C40 hold, and in binary64 the factor is [[2], [1, 2]]. *)
Example C40_example :
  let A := mkMat 0 2 2 in let h := heap_of [[4; 2; 2; 5]%R] in
  ismat h A 2 2 /\ symmetric 2 (mget h A) /\ pos_def 2 (mget h A) /\
  herm_wf (mkHerm 2 [4; 2; 5]%R) 2 /\ pos_def 2 (hmat (mkHerm 2 [4; 2; 5]%R)) /\
  peek (dyn_cholesky A (heap_of [[4; 77; 2; 5]%float])) chp = Some [2; 77; 1; 2]%float /\
  peek (tri_cholesky (mkHerm 2 [4; 2; 5]%float) (heap_of [])) chp = Some [2; 1; 2]%float.
Proof.
  cbv zeta. split; [repeat split; cbn; lia|].
  split. { intros [|[|i]] [|[|j]] Hi Hj; try lia; reflexivity. }
  split. { eapply pos_def_meq; [|apply (pos_def_two 4 2 5); lra]. intros [|[|i]] [|[|j]] Hi Hj; try lia; reflexivity. }
  split; [split; reflexivity|].
  split. { eapply pos_def_meq; [|apply (pos_def_two 4 2 5); lra]. intros [|[|i]] [|[|j]] Hi Hj; try lia; reflexivity. }
  split; vm_compute; reflexivity.
Qed.
(** [[1, 2], [2, 1]] is indefinite with a positive first entry: rejected.  [[0, 1], [1, 0]] and
    [[-1]] are not positive definite either, yet accepted. *)
Example C41_example :
  let A := mkMat 0 2 2 in let h := heap_of [[1; 2; 2; 1]%R] in
  ismat h A 2 2 /\ symmetric 2 (mget h A) /\ ~ pos_def 2 (mget h A) /\ (0 < mget h A 0%nat 0%nat)%R /\
  (exists h', dyn_cholesky A (heap_of [[1; 2; 2; 1]%float]) = Throw RuntimeError h') /\
  peek (dyn_cholesky A (heap_of [[0; 1; 1; 0]%float])) chp = Some [0; 1; 1; 0]%float /\
  peek (tri_cholesky (mkHerm 1 [-1]%float) (heap_of [])) chp = Some [-1]%float.
Proof.
  cbv zeta. split; [repeat split; cbn; lia|].
  split. { intros [|[|i]] [|[|j]] Hi Hj; try lia; reflexivity. }
  split. { intros P. specialize (P (fun i => match i with 0 => 1 | _ => -1 end)%R).
    assert (E : exists i, i < 2 /\ (match i with 0%nat => 1 | _ => -1 end)%R <> 0%R) by (exists 0; split; [lia|lra]).
    specialize (P E). unfold mvmul, mget, rd in P. cbn [bsum] in P. cbn in P. lra. }
  split; [unfold mget, rd; cbn; lra|]. split; [eexists; vm_compute; reflexivity|]. split; vm_compute; reflexivity.
Qed.

Print Assumptions C39_square.
Print Assumptions C39_packed.
Print Assumptions C39_lower_only.
Print Assumptions C39_packed_as_square.
Print Assumptions C40_square.
Print Assumptions C40_packed.
Print Assumptions C41_rejects_partial.
Print Assumptions C41_accepts_refuted.
