(** * Property C102: factors and orthogonal bases are the canonical ones *)
From Coq Require Import Reals Lra Lia QArith Qcanon Floats Field.
From Verif Require Import Base Scalar BaseLemmas Spec Sums RealVec ModelVec ModelMat SpecMat ProofVec
  ModelPacked ProofPacked PropPacked ModelSparse SpecSparse PropSparse ModelSolvers ProofTdma ProofChol ProofCholMath PropChol
  ProofCholSolve PropCholSolve PropLapack ModelIter ProofCgs PropCgs ProofIlu PropIlu SpecFrame PropFrame PropTdma PropParts.
Local Open Scope R_scope.

(** ** Gram-Schmidt *)
Definition orthogonal n m (W : nat -> nat -> R) : Prop :=
  forall a b, (a < m)%nat -> (b < m)%nat -> a <> b -> dotp n (W a) (W b) = 0.
(** The vectors differ from the given ones by combinations of earlier given ones. *)
Definition unit_triangular n m (V W : nat -> nat -> R) : Prop :=
  forall k, (k < m)%nat -> inspan n k V (fun i => W k i - V k i).

Lemma bsum_0 m (f : nat -> R) : (forall k, (k < m)%nat -> f k = 0) -> bsum m f = 0.
Proof. intros H. induction m as [|m IH]; [reflexivity|]. cbn [bsum]. rewrite IH, H by (auto with arith). cbn. ring. Qed.
Lemma inspan_mono n k m V x : (k <= m)%nat -> inspan n k V x -> inspan n m V x.
Proof.
  intros H. induction H as [|m Hm IH]; auto. intros Hx. apply inspan_S. exists 0, x. split; [auto|]. intros. ring.
Qed.
Lemma comb_dot_zero n m c W : orthogonal n m W -> forall k, (k < m)%nat ->
  dotp n (W k) (comb m c W) = c k * dotp n (W k) (W k).
Proof.
  intros Ho k Hk. rewrite dotp_comb. refine (bsum_single m (fun l => (c l * dotp n (W k) (W l))%R) k Hk _).
  intros l Hl Hne. cbn. rewrite (Ho k l) by auto. ring.
Qed.
Lemma orthogonal_le n k m W : (k <= m)%nat -> orthogonal n m W -> orthogonal n k W.
Proof. intros H Ho a b Ha Hb. apply Ho; lia. Qed.
(** A vector of the span that is orthogonal to a generating orthogonal family is zero. *)
Lemma span_orthogonal n m W x : orthogonal n m W -> inspan n m W x -> (forall k, (k < m)%nat -> dotp n (W k) x = 0) ->
  forall i, (i < n)%nat -> x i = 0.
Proof.
  intros Ho [c Hc] Z i Hi. apply (dotp_self_zero n x); auto.
  rewrite (dotp_ext_r n x x (comb m c W)) by exact Hc. rewrite dotp_comb.
  apply bsum_0. intros k Hk. rewrite dotp_comm, Z by auto. cbn. ring.
Qed.
Lemma orthogonal_independent n m W : orthogonal n m W -> (forall k, (k < m)%nat -> nonzero n (W k)) -> independent n m W.
Proof.
  intros Ho Hz c Hc k Hk. pose proof (comb_dot_zero n m c W Ho k Hk) as E.
  rewrite (dotp_ext_r n (W k) _ (fun _ => 0)) in E by exact Hc.
  assert (Z : dotp n (W k) (fun _ => 0) = 0) by (apply bsum_0; intros; cbn; ring).
  rewrite Z in E. pose proof (nonzero_dotp n (W k) (Hz k Hk)) as N.
  symmetry in E. apply Rmult_integral in E. tauto.
Qed.

Lemma gs_unique n m V W W' : independent n m V -> gram_schmidt n m V W -> orthogonal n m W' -> unit_triangular n m V W' ->
  forall k i, (k < m)%nat -> (i < n)%nat -> W' k i = W k i.
Proof.
  intros Hind Hgs Ho Ht k. induction k as [k IH] using lt_wf_ind. intros i Hk Hi.
  destruct (gs_math n m V W Hind Hgs k ltac:(lia)) as (O1 & _ & S1).
  destruct (gs_math n m V W Hind Hgs (S k) ltac:(lia)) as (O2 & _ & _).
  enough (Z : forall i, (i < n)%nat -> (fun i => W' k i - W k i) i = 0) by (specialize (Z i Hi); cbv beta in Z; lra).
  apply (span_orthogonal n k W); [exact O1| |].
  - apply (inspan_ext n k W (fun i => (W' k i - V k i) + (V k i - W k i))); [intros; ring|].
    apply comb_add; [apply S1, Ht; auto|]. exists (fun l => proj_coef n (W l) (V k)). intros t Htn.
    rewrite (Hgs k t Hk Htn) at 1. ring.
  - intros l Hl. rewrite dotp_sub. rewrite (O2 l k) by lia.
    rewrite (dotp_comm n (W l)), (dotp_ext_r n (W' k) (W l) (W' l)) by (intros; symmetry; apply IH; lia).
    rewrite (Ho k l) by lia. ring.
Qed.

(** The result is the only orthogonal family that differs from the given one by earlier vectors. *)
Theorem C102_cgs : forall dbg vecs n (h : heap R) W, vecs <> [] -> NoDup vecs ->
  fits_u32 (length vecs) = true -> fits_u32 n = true ->
  (forall q, In q vecs -> (q < next h)%nat /\ len h q = n) ->
  let V k := rd h (nth k vecs 0%nat) in
  independent n (length vecs) V -> orthogonal n (length vecs) W -> unit_triangular n (length vecs) V W ->
  exists h', cgs dbg vecs h = Ok tt h' /\
    forall k i, (k < length vecs)%nat -> (i < n)%nat -> rd h' (nth k vecs 0%nat) i = W k i.
Proof.
  intros dbg vecs n h W N D F1 F2 HV V Ind Ho Ht.
  destruct (C50_cgs dbg vecs n h N D F1 F2 HV Ind) as (h' & E & _ & _ & _ & _ & _ & _ & R).
  exists h'. split; [exact E|]. intros k i Hk Hi. symmetry.
  apply (gs_unique n (length vecs) V (fun k => rd h' (nth k vecs 0%nat)) W); auto.
Qed.
(** Orthogonal vectors are left as they are. *)
Theorem C102_cgs_fixed : forall dbg vecs n (h : heap R), vecs <> [] -> NoDup vecs ->
  fits_u32 (length vecs) = true -> fits_u32 n = true ->
  (forall q, In q vecs -> (q < next h)%nat /\ len h q = n) ->
  let V k := rd h (nth k vecs 0%nat) in
  orthogonal n (length vecs) V -> (forall k, (k < length vecs)%nat -> nonzero n (V k)) ->
  exists h', cgs dbg vecs h = Ok tt h' /\
    forall k i, (k < length vecs)%nat -> (i < n)%nat -> rd h' (nth k vecs 0%nat) i = V k i.
Proof.
  intros dbg vecs n h N D F1 F2 HV V Ho Hz. apply (C102_cgs dbg vecs n h V); auto.
  - now apply orthogonal_independent.
  - intros k Hk. exists (fun _ => 0). intros i Hi. unfold comb. rewrite bsum_0; [cbv beta; unfold Rminus; apply Rplus_opp_r|]. intros t _. cbn. ring.
Qed.
(** Orthogonalising a second time changes nothing. *)
Theorem C102_cgs_twice : forall dbg dbg' vecs n (h : heap R), vecs <> [] -> NoDup vecs ->
  fits_u32 (length vecs) = true -> fits_u32 n = true ->
  (forall q, In q vecs -> (q < next h)%nat /\ len h q = n) ->
  independent n (length vecs) (fun k => rd h (nth k vecs 0%nat)) ->
  exists h1 h2, cgs dbg vecs h = Ok tt h1 /\ cgs dbg' vecs h1 = Ok tt h2 /\
    forall k i, (k < length vecs)%nat -> (i < n)%nat -> rd h2 (nth k vecs 0%nat) i = rd h1 (nth k vecs 0%nat) i.
Proof.
  intros dbg dbg' vecs n h N D F1 F2 HV Ind.
  destruct (C50_cgs dbg vecs n h N D F1 F2 HV Ind) as (h1 & E & _ & L & Ho & Hz & _).
  assert (HV1 : forall q, In q vecs -> (q < next h1)%nat /\ len h1 q = n).
  { intros q Hq. split; [|auto]. pose proof (C58_cgs R ROps dbg vecs h) as K. rewrite E in K. destruct K as [[K _] _]. destruct (HV q Hq). lia. }
  destruct (C102_cgs_fixed dbg' vecs n h1 N D F1 F2 HV1 Ho Hz) as (h2 & E2 & R). exists h1, h2. auto.
Qed.
(** Adding combinations of earlier vectors to the given ones does not change the result. *)
Theorem C102_cgs_triangular : forall dbg1 dbg2 vs ws n (h g : heap R), length ws = length vs -> vs <> [] -> NoDup vs -> NoDup ws ->
  fits_u32 (length vs) = true -> fits_u32 n = true ->
  (forall q, In q vs -> (q < next h)%nat /\ len h q = n) -> (forall q, In q ws -> (q < next g)%nat /\ len g q = n) ->
  let V k := rd h (nth k vs 0%nat) in let U k := rd g (nth k ws 0%nat) in
  independent n (length vs) V -> independent n (length vs) U -> unit_triangular n (length vs) U V ->
  exists h' g', cgs dbg1 vs h = Ok tt h' /\ cgs dbg2 ws g = Ok tt g' /\
    forall k i, (k < length vs)%nat -> (i < n)%nat -> rd g' (nth k ws 0%nat) i = rd h' (nth k vs 0%nat) i.
Proof.
  intros dbg1 dbg2 vs ws n h g El N D1 D2 F1 F2 HV HU V U Iv Iu Ht.
  destruct (C50_cgs dbg1 vs n h N D1 F1 F2 HV Iv) as (h' & E & _ & _ & Ho & _ & Sp & _ & R). fold V in Sp, R.
  set (W := fun k => rd h' (nth k vs 0%nat)) in *.
  assert (N' : ws <> []) by (intros ->; destruct vs; [congruence|discriminate]).
  destruct (C102_cgs dbg2 ws n g W N' D2) as (g' & E2 & R2); rewrite ?El; auto.
  - (* spans of V lie in spans of U *)
    assert (SV : forall k x, (k <= length vs)%nat -> inspan n k V x -> inspan n k U x).
    { induction k as [|k IH]; intros x Hk Hx; [exact Hx|]. apply inspan_S in Hx. destruct Hx as (a & y & Hy & Ex).
      apply inspan_S. exists a, (fun i => y i + a * (V k i - U k i)). split.
      - apply comb_add; [apply IH; auto; lia|]. apply comb_scal. apply Ht. lia.
      - intros i Hi. rewrite Ex by exact Hi. ring. }
    intros k Hk. apply (inspan_ext n k U (fun i => (W k i - V k i) + (V k i - U k i))); [intros; unfold U; cbv beta; ring|].
    apply comb_add; [|apply Ht; auto]. apply SV; [lia|]. apply Sp; [lia|].
    set (cf := fun l => dotp n (W l) (V k) / dotp n (W l) (W l)).
    apply (inspan_ext n k W (fun i => -1 * comb k cf W i)).
    + intros i Hi. cbv beta. assert (Q : W k i = V k i - comb k cf W i) by exact (R k i Hk Hi). rewrite Q. ring.
    + apply comb_scal. exists cf. auto.
  - exists h', g'. split; [exact E|]. split; [exact E2|]. intros k i Hk Hi. apply R2; [|auto]. now rewrite El.
Qed.

(** ** Cholesky: whenever A = L L^T with a positive diagonal, that L is what is stored *)
Lemma llt_pos_def n (L A : nat -> nat -> R) : (forall i, (i < n)%nat -> 0 < L i i) -> meq n n (mmmul n (lowf L) (transp (lowf L))) A -> pos_def n A.
Proof.
  intros P E x (i & Hi & Nz).
  assert (Q : bsum n (fun i => x i * mvmul n A x i) = dotp n (mvmul n (transp (lowf L)) x) (mvmul n (transp (lowf L)) x)).
  { rewrite <- quad_LLt. apply bsum_ext. intros k Hk. f_equal. apply mvmul_ext; auto. intros j Hj. symmetry. now apply E. }
  rewrite Q. destruct (dotp_self_nonneg n (mvmul n (transp (lowf L)) x)) as [|Z]; auto.
  exfalso. apply Nz.
  assert (N : nonsingular n (transp (lowf L))).
  { apply upper_nonsingular; [apply lowf_transp_upper|]. intros k Hk. unfold transp. rewrite lowf_in by lia.
    pose proof (P k Hk). cbn. lra. }
  apply N; auto. apply (dotp_self_zero n). auto.
Qed.
Lemma llt_symmetric n (L A : nat -> nat -> R) : meq n n (mmmul n (lowf L) (transp (lowf L))) A -> symmetric n A.
Proof.
  intros E i j Hi Hj. rewrite <- (E i j), <- (E j i) by auto. unfold mmmul, transp. apply bsum_ext. intros; cbn; ring.
Qed.
Theorem C102_cholesky : forall n A L (h : heap R), ismat h A n n -> fits_u32 n = true ->
  (forall i, (i < n)%nat -> 0 < L i i) -> meq n n (mmmul n (lowf L) (transp (lowf L))) (mget h A) ->
  exists F h', dyn_cholesky A h = Ok F h' /\ forall i j, (i < n)%nat -> (j <= i)%nat -> mget h' (factor_mat F) i j = L i j.
Proof.
  intros n A L h HA Hf P E. pose proof (llt_pos_def n L _ P E) as PD. pose proof (llt_symmetric n L _ E) as SY.
  destruct (C40_square n A h HA Hf SY PD) as (F & h' & O & (I & P' & E') & Sq & _).
  exists F, h'. split; [exact O|]. intros i j Hi Hj. rewrite <- fac_square by exact Sq.
  exact (chol_unique n (fac h' F) L (mget h A) P' P E' E i j Hi Hj).
Qed.
Theorem C102_cholesky_packed : forall n (A : herm R) L (h : heap R), herm_wf A n -> fits_u32 n = true ->
  (forall i, (i < n)%nat -> 0 < L i i) -> meq n n (mmmul n (lowf L) (transp (lowf L))) (hmat A) ->
  exists F h', tri_cholesky A h = Ok F h' /\ forall i j, (i < n)%nat -> (j <= i)%nat -> fac h' F i j = L i j.
Proof.
  intros n A L h HA Hf P E. pose proof (llt_pos_def n L _ P E) as PD.
  destruct (C40_packed n A h HA Hf PD) as (F & h' & O & (I & P' & E') & Sq & _).
  exists F, h'. split; [exact O|]. intros i j Hi Hj.
  exact (chol_unique n (fac h' F) L (hmat A) P' P E' E i j Hi Hj).
Qed.

Section AnyField.
Context (T : Type) (Op : Ops T) (Fi : IsField T Op).
Add Field TfieldC : (field_th (IsField := Fi)).
Local Open Scope sc_scope.
Implicit Types h : heap T.

(** ** Modified Cholesky: the only factorisation A = L D^-1 L^T with D the (non-zero) diagonal of L *)
Theorem C102_modified : forall n A L h, ismat h A n n -> fits_u32 n = true ->
  (forall k, (k < n)%nat -> L k k <> zero) ->
  (forall i j, (j <= i)%nat -> (i < n)%nat -> mget h A i j = bsum (S j) (fun k => L i k * L j k / L k k)) ->
  exists F h', mod_cholesky A h = Ok F h' /\ forall i j, (j <= i)%nat -> (i < n)%nat -> fac h' F i j = L i j.
Proof.
  intros n A L h HA Hf D E.
  assert (R : forall i j, (j <= i)%nat -> (i < n)%nat -> mrec (mget h A) L i j).
  { intros i j Hj Hi. unfold mrec. rewrite ssub_bsum, (E i j) by auto. cbn [bsum]. field. apply D. lia. }
  assert (Rw : forall i, (i < n)%nat -> mrow (mget h A) L i).
  { intros i Hi. split; [intros j Hj; apply R; auto|]. destruct (eqb (L i i) zero) eqn:Z; [|reflexivity].
    apply eqb_ok in Z. destruct (D i Hi Z). }
  destruct (mod_outcome T Op n A h HA Hf) as (h' & _ & _ & _ & [(O & M & _)|(O & c & Hc & M1 & M2 & M3)]).
  - eexists; exists h'. split; [exact O|]. intros i j Hj Hi.
    refine (mrec_unique T Op (mget h A) (mget h A) L (mget h' (mkMat (next h) n n)) n _ R _ i j Hj Hi); [auto|].
    intros i' j' Hj' Hi'. now apply M.
  - exfalso. refine (mfactored_not_failed T Op (mget h A) (mget h A) L _ c _ _ M1 M2 M3); [auto|].
    intros i Hi. apply Rw. lia.
Qed.

(** ** ILU(0): the only pair of factors with the pattern of A whose product agrees with A on it *)
Lemma ilu0_done n a f : ilu0 n n a f -> ilu_done n n a f.
Proof.
  intros H i Hi. split.
  - intros j Hj. destruct (H i j Hi ltac:(lia)) as [Z N]. unfold lrec. destruct (nzb (a i j)) eqn:E.
    + apply nzb_true in E. destruct (N E) as [P Q]. specialize (Q Hj). rewrite lu_low in P by lia.
      split; [now apply nzb_true|]. rewrite ssub_bsum, <- P. unfold fillin. rewrite Nat.min_r by lia. field. exact Q.
    + apply nzb_false in E. rewrite E. auto.
  - intros j Hij Hj. destruct (H i j Hi Hj) as [Z N]. unfold urec. destruct (nzb (a i j)) eqn:E.
    + apply nzb_true in E. destruct (N E) as [P _]. rewrite lu_up in P by lia.
      rewrite ssub_bsum, <- P. unfold fillin. rewrite Nat.min_l by lia. ring.
    + apply nzb_false in E. rewrite E. auto.
Qed.
Theorem C102_ilu : forall n A f h, ismat h A n n -> fits_u32 n = true -> ilu0 n n (mget h A) f ->
  exists F h', ilu_dyn A h = Ok F h' /\ forall i j, (i < n)%nat -> (j < n)%nat -> mget h' F i j = f i j.
Proof.
  intros n A f h HA Hf H. apply ilu0_done in H. pose proof (ilu_dyn_outcome n A h HA Hf) as O. unfold postx in O.
  destruct (ilu_dyn A h) as [F h'|e h'| | | |]; try contradiction.
  - destruct O as [_ D]. exists F, h'. split; [reflexivity|]. apply (ilu_done_unique n n (mget h A) (mget h A)); auto.
  - destruct O as (_ & _ & g & St). destruct (ilu_stop_excludes T Op n (mget h A) f g H St).
Qed.
Theorem C102_ilu_sparse : forall n (A : csr T) f St (s : St), csr_wf A n -> csr_shape A tt = Ok (n, n) tt -> fits_u32 n = true ->
  ilu0 n n (cview A) f ->
  exists F, ilu_csr A s = Ok F s /\ forall i j, (i < n)%nat -> (j < n)%nat -> cview F i j = f i j.
Proof.
  intros n A f St s W Sh Hf H. apply ilu0_done in H.
  assert (Z : eqb (zero : T) zero = true) by now apply eqb_ok.
  destruct (ilu_csr_outcome n n A St s Z W Sh (le_n n) Hf) as [(F & O & _ & _ & _ & D)|(F & O & _ & _ & _ & D)].
  - exists F. split; [exact O|]. apply (ilu_done_unique n n (cview A) (cview A)); auto.
  - destruct (ilu_stop_excludes T Op n (cview A) f (cview F) H D).
Qed.
End AnyField.

(** ** The hypotheses can be met *)
Example C102_nonvacuous :
  let h := heap_of [[4; 2; 2; 5]%R] in let A := mkMat 0%nat 2 2 in
  let L := fun i j : nat => match i, j with O, O => 2 | S O, O => 1 | S O, S O => 2 | _, _ => 0 end in
  ismat h A 2 2 /\ (forall i, (i < 2)%nat -> 0 < L i i) /\ meq 2 2 (mmmul 2 (lowf L) (transp (lowf L))) (mget h A) /\
  exists F h', dyn_cholesky A h = Ok F h' /\ mget h' (factor_mat F) 1%nat 0%nat = 1.
Proof.
  intros h A L. assert (I : ismat h A 2 2) by (repeat split; vm_compute; lia).
  assert (P : forall i, (i < 2)%nat -> 0 < L i i) by (intros [|[|i]] Hi; cbn; try lra; lia).
  assert (E : meq 2 2 (mmmul 2 (lowf L) (transp (lowf L))) (mget h A)).
  { intros [|[|i]] [|[|j]] Hi Hj; try lia; unfold mmmul, lowf, transp, mget, rd; cbn; ring. }
  split; [exact I|]. split; [exact P|]. split; [exact E|].
  destruct (C102_cholesky 2 A L h I eq_refl P E) as (F & h' & O & V). exists F, h'. split; [exact O|]. apply V; lia.
Qed.
Example C102_nonvacuous_cgs : let h := heap_of [[1; 1]; [1; -1]] in
  orthogonal 2 (length [0; 1]%nat) (fun k => rd h (nth k [0; 1]%nat 0%nat)) /\
  (forall k, (k < length [0; 1]%nat)%nat -> nonzero 2 (rd h (nth k [0; 1]%nat 0%nat))) /\
  exists h', cgs true [0; 1]%nat h = Ok tt h' /\ rd h' 1%nat 1%nat = -1.
Proof.
  intros h.
  assert (Ho : orthogonal 2 (length [0; 1]%nat) (fun k => rd h (nth k [0; 1]%nat 0%nat))).
  { intros [|[|a]] [|[|b]] Ha Hb N; cbn in Ha, Hb; try lia; unfold dotp, rd, h; cbn; ring. }
  assert (Hz : forall k, (k < length [0; 1]%nat)%nat -> nonzero 2 (rd h (nth k [0; 1]%nat 0%nat))).
  { intros [|[|k]] Hk; cbn in Hk; try lia; exists 0%nat; unfold rd, h; cbn; split; try lia; lra. }
  split; [exact Ho|]. split; [exact Hz|].
  destruct (C102_cgs_fixed true [0; 1]%nat 2 h) as (h' & E & V); auto.
  - discriminate.
  - repeat constructor; cbn; intuition discriminate.
  - intros q [<-|[<-|[]]]; cbn; auto with arith.
  - exists h'. split; [exact E|]. exact (V 1%nat 1%nat ltac:(cbn; lia) ltac:(lia)).
Qed.
(** The second vector with three times the first one added: the same result. *)
Example C102_run : map (fun v => match cgs true [0; 1; 2]%nat (heap_of v) with
  | Ok _ h => map (fun q => map this (mem h q)) [0; 1; 2]%nat | _ => [] end)
  [[[1; 1; 0]; [1; 0; 0]; [0; 0; Q2Qc 3]]%Qc; [[1; 1; 0]; [Q2Qc 4; Q2Qc 3; 0]; [1; 0; Q2Qc 3]]%Qc] =
  [[[1; 1; 0]; [1 # 2; - (1 # 2); 0]; [0; 0; 3]]; [[1; 1; 0]; [1 # 2; - (1 # 2); 0]; [0; 0; 3]]]%Q.
Proof. vm_compute. reflexivity. Qed.
(** Order 3 with a position outside the pattern: (2,1) and (1,2) vanish, fill-in is dropped there. *)
Example C102_nonvacuous_ilu : ismat Q3 A3 3 3 /\ mget Q3 A3 1 2 = 0%Qc /\ exists f, ilu0 3 3 (mget Q3 A3) f.
Proof.
  destruct C44_ex as (I & _ & F & h' & E & _). split; [exact I|]. split; [vm_compute; reflexivity|].
  destruct (C44_dyn 3 A3 Q3 F h' I eq_refl E) as (_ & H). eexists. exact H.
Qed.

Print Assumptions C102_cgs.
Print Assumptions C102_cgs_fixed.
Print Assumptions C102_cgs_twice.
Print Assumptions C102_cgs_triangular.
Print Assumptions C102_cholesky.
Print Assumptions C102_cholesky_packed.
Print Assumptions C102_modified.
Print Assumptions C102_ilu.
Print Assumptions C102_ilu_sparse.
