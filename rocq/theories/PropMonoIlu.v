(** * Property C104, tridiagonal matrices in the ILU preconditioner: accepted without a margin *)
From Coq Require Import ZArith Reals Lra Lia.
From Verif Require Import Base Scalar BaseLemmas Spec Sums ModelVec ProofVec ModelMat ProofMat SpecMat PropMat ModelPacked ProofPacked PropPacked
  ModelSolvers ProofTdma ProofTdmaBits PropTdma ProofChol PropChol ProofCholSolve PropCholSolve PropRepeat
  ProofVecProp PropVec RealVec SpecRound Rounding PropRound ModelIter ProofIlu PropIlu ProofBackSub PropGmresAny ModelSparse SpecSparse
  SpecMono PropMono SpecComp PropComp.
Local Open Scope R_scope.

(** A tridiagonal matrix without positive entries off the diagonal whose column sums are not negative,
    and positive without the entry below the diagonal. *)
Definition z_tridiagonal_columns {T} (val : T -> R) (fin : T -> Prop) n (A : nat -> nat -> T) : Prop :=
  z_tridiagonal val fin n (fun i j => A j i) /\
  forall i j, (i < n)%nat -> (j < n)%nat -> (S i < j)%nat \/ (S j < i)%nat -> val (A i j) = 0.

Section MonoIlu.
Context {T : Type} {Op : Ops T} {val : T -> R} {fin : T -> Prop} {rnd : R -> R} {range : R -> Prop} {RI : Ranged Op val fin rnd range}.
Let I : Monotone Op val fin rnd := r_mono (Ranged := RI).
#[local] Existing Instance I.

Lemma zero_term x y : fin x -> fin y -> val x = 0 \/ val y = 0 -> fin (mul x y) /\ val (mul x y) = 0.
Proof.
  intros Fx Fy H. destruct (zero_fin (RI := RI)) as [F0 V0].
  assert (E : val x * val y = 0) by (destruct H as [-> | ->]; ring).
  assert (R0 : rnd 0 = 0) by (rewrite <- V0; now apply (m_id (Monotone := I))).
  assert (F : fin (mul x y)). { apply (r_mul (Ranged := RI)); auto. rewrite E, R0, <- V0. now apply (r_fin (Ranged := RI)). }
  split; [exact F|]. destruct (m_mul (Monotone := I) _ _ F) as (_ & _ & ->). now rewrite E.
Qed.
Lemma zero_terms n a f : fin a -> (forall k, (k < n)%nat -> fin (f k) /\ val (f k) = 0) -> fin (ssub n a f) /\ val (ssub n a f) = val a.
Proof.
  induction n as [|n IH]; intros Fa Hf; [now split|]. cbn [ssub]. destruct IH as [F V]; auto. destruct (Hf n ltac:(lia)) as [Fn Vn].
  assert (E : rnd (val (ssub n a f) - val (f n)) = val a) by (rewrite V, Vn, Rminus_0_r; now apply (m_id (Monotone := I))).
  assert (K : fin (sub (ssub n a f) (f n))) by (apply (r_sub (Ranged := RI)); auto; rewrite E; now apply (r_fin (Ranged := RI))).
  split; [exact K|]. destruct (m_sub (Monotone := I) _ _ K) as (_ & _ & ->). exact E.
Qed.

Section Rows.
Variables (n : nat) (A F : nat -> nat -> T).
Hypothesis ZA : z_tridiagonal_columns val fin n A.
Definition tri_row i : Prop :=
  (forall j, (j < n)%nat -> fin (F i j)) /\
  (forall j, (j < n)%nat -> (S i < j)%nat \/ (S j < i)%nat -> val (F i j) = 0) /\
  ((S i < n)%nat -> val (F i (S i)) = val (A i (S i))) /\
  (forall k, i = S k -> -1 <= val (F i k) <= 0) /\
  0 < val (F i i) /\ ((S i < n)%nat -> - val (A (S i) i) <= val (F i i)).

Lemma fin_A i j : (i < n)%nat -> (j < n)%nat -> fin (A i j).
Proof. intros Hi Hj. destruct ZA as [[Z _] _]. now apply (Z j i). Qed.
Lemma neg_A i j : (i < n)%nat -> (j < n)%nat -> i <> j -> val (A i j) <= 0.
Proof. intros Hi Hj N. destruct ZA as [[Z _] _]. apply (Z j i); auto. Qed.
Lemma col_A i : (i < n)%nat -> let up := match i with O => 0 | S k => val (A k i) end in
  0 < up + val (A i i) /\ ((S i < n)%nat -> 0 <= up + val (A i i) + val (A (S i) i)) /\ up <= 0.
Proof.
  intros Hi. destruct ZA as [[_ Z] _]. specialize (Z i Hi). cbv zeta in *. destruct Z as [Z1 Z2]. repeat split.
  - exact Z1.
  - intros Hs. apply Nat.ltb_lt in Hs. rewrite Hs in Z2. exact Z2.
  - destruct i; [lra|]. apply neg_A; lia.
Qed.
Lemma off_band i j : (i < n)%nat -> (j < n)%nat -> (S i < j)%nat \/ (S j < i)%nat -> nzb (A i j) = false.
Proof.
  intros Hi Hj B. destruct ZA as [_ Z]. specialize (Z i j Hi Hj B). destruct (nzb (A i j)) eqn:E; [|reflexivity].
  apply (nzb_val (RI := RI) (A i j) (fin_A i j Hi Hj)) in E. contradiction.
Qed.

Lemma tri_rows i : (i < n)%nat -> (forall i', (i' <= i)%nat -> ilurow n A F i') -> tri_row i.
Proof.
  induction i as [i IH] using lt_wf_ind. intros Hi HR.
  assert (PR : forall k, (k < i)%nat -> tri_row k) by (intros k Hk; apply IH; [exact Hk|lia|]; intros i' Hi'; apply HR; lia).
  destruct (HR i (le_n i)) as [HL HU].
  destruct (zero_fin (RI := RI)) as [F0 V0]. destruct (m_one (Monotone := I)) as [F1 V1].
  destruct (proj1 (m_opp (Monotone := I) one)) as [_ Fm]. specialize (Fm F1). pose proof (proj2 (m_opp (Monotone := I) one)) as Vm. rewrite V1 in Vm.
  (* off the band *)
  assert (B : forall j, (j < n)%nat -> (S i < j)%nat \/ (S j < i)%nat -> F i j = A i j).
  { intros j Hj Hb. pose proof (off_band i j Hi Hj Hb) as Z. destruct (Nat.lt_ge_cases j i) as [L|L].
    - specialize (HL j L). unfold lrec in HL. now rewrite Z in HL.
    - specialize (HU j L Hj). unfold urec in HU. now rewrite Z in HU. }
  assert (BV : forall j, (j < n)%nat -> (S i < j)%nat \/ (S j < i)%nat -> fin (F i j) /\ val (F i j) = 0).
  { intros j Hj Hb. rewrite (B j Hj Hb). split; [now apply fin_A|]. destruct ZA as [_ Z]. now apply Z. }
  (* left of the diagonal *)
  assert (Lf : forall k, i = S k -> fin (F i k) /\ -1 <= val (F i k) <= 0).
  { intros k ->. specialize (HL k ltac:(lia)). unfold lrec in HL. pose proof (neg_A (S k) k Hi ltac:(lia) ltac:(lia)) as Na.
    pose proof (fin_A (S k) k Hi ltac:(lia)) as Fa. destruct (PR k ltac:(lia)) as (Fk & _ & _ & _ & Pk & Dk). specialize (Dk Hi).
    destruct (nzb (A (S k) k)) eqn:E.
    - destruct HL as [_ ->].
      destruct (zero_terms k (A (S k) k) (fun q => mul (F (S k) q) (F q k)) Fa) as [Fs Vs].
      { intros q Hq. destruct (BV q ltac:(lia) ltac:(lia)) as [G1 G2]. apply zero_term; auto. apply (PR q ltac:(lia)). lia. }
      assert (Q : -1 <= val (A (S k) k) / val (F k k) <= 0).
      { assert (0 < / val (F k k)) by now apply Rinv_0_lt_compat. assert (val (F k k) * / val (F k k) = 1) by (apply Rinv_r; lra). unfold Rdiv. split; nra. }
      assert (Q' : -1 <= rnd (val (A (S k) k) / val (F k k)) <= 0).
      { split; [|now apply rneg]. pose proof (m_id (Monotone := I) _ Fm) as Em. rewrite Vm in Em. apply Rle_trans with (rnd (- (1))); [lra|]. now apply rle. }
      assert (Fd : fin (div (ssub k (A (S k) k) (fun q => mul (F (S k) q) (F q k))) (F k k))).
      { apply (r_div (Ranged := RI)); auto; [apply Fk; lia|lra|]. rewrite Vs. apply (squeeze (RI := RI) (opp one) zero); auto. rewrite Vm, V0. exact Q'. }
      split; [exact Fd|]. destruct (m_div (Monotone := I) _ _ Fd (Fk k ltac:(lia)) (Rgt_not_eq _ _ Pk)) as (_ & ->). now rewrite Vs.
    - rewrite HL. split; [exact Fa|]. rewrite (nzb_false (RI := RI) _ Fa E). lra. }
  (* right of the diagonal *)
  assert (Rt : (S i < n)%nat -> fin (F i (S i)) /\ val (F i (S i)) = val (A i (S i))).
  { intros Hs. specialize (HU (S i) ltac:(lia) Hs). unfold urec in HU. pose proof (fin_A i (S i) Hi Hs) as Fa.
    destruct (nzb (A i (S i))); rewrite HU; [|now split]. apply zero_terms; [exact Fa|]. intros q Hq.
    destruct (PR q Hq) as (Fq & Bq & _). apply zero_term; [|apply Fq; lia|right; apply Bq; lia].
    destruct (Nat.eq_dec (S q) i) as [<-|Ne]; [now apply Lf|apply BV; lia]. }
  (* the pivot *)
  pose proof (col_A i Hi) as (C1 & C2 & C3). pose proof (fin_A i i Hi Hi) as Fa.
  assert (Pv : fin (F i i) /\ 0 < val (F i i) /\ ((S i < n)%nat -> - val (A (S i) i) <= val (F i i))).
  { specialize (HU i (le_n i) Hi). unfold urec in HU.
    assert (E : nzb (A i i) = true) by (apply (nzb_val (RI := RI)); [exact Fa|lra]). rewrite E in HU. rewrite HU.
    destruct i as [|k]; [cbn [ssub]; split; [exact Fa|]; split; [lra|]; intros Hs; specialize (C2 Hs); lra|].
    cbn [ssub]. destruct (PR k ltac:(lia)) as (Fk & _ & Rk & _). specialize (Rk Hi). destruct (Lf k eq_refl) as [Fl Bl].
    destruct (zero_terms k (A (S k) (S k)) (fun q => mul (F (S k) q) (F q (S k))) Fa) as [Fs Vs].
    { intros q Hq. destruct (BV q ltac:(lia) ltac:(lia)) as [G1 G2]. apply zero_term; auto. apply (PR q ltac:(lia)). lia. }
    pose proof (fin_A k (S k) ltac:(lia) Hi) as Fu. pose proof (neg_A k (S k) ltac:(lia) Hi ltac:(lia)) as Nu.
    destruct (proj1 (m_opp (Monotone := I) (A k (S k)))) as [_ Fo]. specialize (Fo Fu). pose proof (proj2 (m_opp (Monotone := I) (A k (S k)))) as Vo.
    assert (Q : 0 <= rnd (val (F (S k) k) * val (F k (S k))) <= - val (A k (S k))).
    { rewrite Rk. split; [apply rpos; nra|]. rewrite <- Vo. rewrite <- (m_id (Monotone := I) _ Fo). apply rle. rewrite Vo. nra. }
    assert (Fp : fin (mul (F (S k) k) (F k (S k)))).
    { assert (Fku : fin (F k (S k))) by (apply Fk; lia). apply (r_mul (Ranged := RI)); auto. apply (squeeze (RI := RI) zero (opp (A k (S k)))); auto. rewrite V0, Vo. exact Q. }
    destruct (m_mul (Monotone := I) _ _ Fp) as (_ & _ & Vp). rewrite <- Vp in Q.
    set (p := mul (F (S k) k) (F k (S k))) in *.
    assert (Lo : rnd (val (A (S k) (S k)) + val (A k (S k))) <= rnd (val (A (S k) (S k)) - val p)) by (apply rle; lra).
    assert (L0 : 0 < rnd (val (A (S k) (S k)) + val (A k (S k)))).
    { assert (0 <= rnd (val (A (S k) (S k)) + val (A k (S k)))) by (apply rpos; lra).
      assert (rnd (val (A (S k) (S k)) + val (A k (S k))) <> 0) by (apply (m_add_nz (Monotone := I)); auto; lra). lra. }
    assert (Up : rnd (val (A (S k) (S k)) - val p) <= val (A (S k) (S k))).
    { rewrite <- (m_id (Monotone := I) _ Fa) at 2. apply rle. lra. }
    assert (Fd : fin (sub (ssub k (A (S k) (S k)) (fun q => mul (F (S k) q) (F q (S k)))) p)).
    { apply (r_sub (Ranged := RI)); auto. rewrite Vs. apply (squeeze (RI := RI) zero (A (S k) (S k))); auto. rewrite V0. lra. }
    split; [exact Fd|]. destruct (m_sub (Monotone := I) _ _ Fd) as (_ & _ & ->). rewrite Vs. split; [lra|].
    intros Hs. specialize (C2 Hs). pose proof (fin_A (S (S k)) (S k) Hs Hi) as Fb.
    destruct (proj1 (m_opp (Monotone := I) (A (S (S k)) (S k)))) as [_ Fo']. specialize (Fo' Fb). pose proof (proj2 (m_opp (Monotone := I) (A (S (S k)) (S k)))) as Vo'.
    rewrite <- Vo'. rewrite <- (m_id (Monotone := I) _ Fo'). apply Rle_trans with (2 := Lo). apply rle. rewrite Vo'. lra. }
  destruct Pv as (Fd & Pd & Dd). repeat split; auto.
  - intros j Hj. destruct (Nat.eq_dec j i) as [->|N1]; [exact Fd|]. destruct (Nat.eq_dec j (S i)) as [->|N2]; [now apply Rt|].
    destruct (Nat.eq_dec (S j) i) as [E|N3]; [now apply Lf|]. apply BV; lia.
  - intros j Hj Hb. now apply BV.
  - intros Hs. now apply Rt.
  - now apply Lf.
  - now apply Lf.
Qed.
Lemma tri_done : ilu_done n n A F -> good_factor (val := val) (fin := fin) n F.
Proof. intros D. split; [intros i j Hi Hj|intros i Hi]; (destruct (tri_rows i Hi) as (P1 & _ & _ & _ & P2 & _); [intros; apply D; lia|auto]). Qed.
Lemma tri_goes_on : ~ ilu_stop n n A F.
Proof.
  intros (i & j & Hj & Hi & HR & _ & _ & E). destruct (tri_rows j ltac:(lia)) as (P1 & _ & _ & _ & P2 & _); [intros; apply HR; lia|].
  assert (nzb (F j j) = true) by (apply (nzb_val (RI := RI)); [apply P1; lia|lra]). congruence.
Qed.
End Rows.

(** The constructor accepts the matrix, its factors are finite with a positive diagonal, and C104_ilu applies. *)
Theorem C104_ilu_tridiagonal : forall n A (h : heap T), ismat h A n n -> fits_u32 n = true -> z_tridiagonal_columns val fin n (mget h A) ->
  exists F h', ilu_dyn A h = Ok F h' /\ good_factor (val := val) (fin := fin) n (mget h' F) /\
  z_matrix (val := val) n (mget h' F) /\ forall b b', isvec h' b n -> isvec h' b' n ->
    exists x x' h1 h2, ilu_dyn_solve F b h' = Ok x h1 /\ ilu_dyn_solve F b' h' = Ok x' h2 /\
      isvec h1 x n /\ isvec h2 x' n /\ signs_kept (val := val) (fin := fin) n (rd h' b) (rd h' b') (rd h1 x) (rd h2 x').
Proof.
  intros n A h HA Hf ZA. pose proof (ilu_dyn_outcome n A h HA Hf) as P. unfold postx in P.
  destruct (ilu_dyn A h) as [F h'|e h'| | | |] eqn:E; try contradiction.
  2:{ destruct P as (_ & _ & f & S). exfalso. exact (tri_goes_on n _ f ZA S). }
  destruct P as [NM HD]. pose proof (tri_done n _ _ ZA HD) as G. exists F, h'. split; [reflexivity|]. split; [exact G|].
  apply (C104_ilu (I := I) n A h F h'); auto. intros i j Hi Hj N. now apply (neg_A n _ ZA).
Qed.
Theorem C104_ilu_sparse_tridiagonal : forall n (A : csr T) a (s : unit), csr_wf A n -> csr_shape A tt = Ok (n, n) tt ->
  fits_u32 n = true -> reads_as A n a -> z_tridiagonal_columns val fin n a ->
  exists F f, ilu_csr A s = Ok F s /\ reads_as F n f /\ good_factor (val := val) (fin := fin) n f /\ z_matrix (val := val) n f /\
  forall b b' (h g : heap T), isvec h b n -> isvec g b' n ->
    exists x x' h1 g1, ilu_csr_solve F b h = Ok x h1 /\ ilu_csr_solve F b' g = Ok x' g1 /\
      isvec h1 x n /\ isvec g1 x' n /\ signs_kept (val := val) (fin := fin) n (rd h b) (rd g b') (rd h1 x) (rd g1 x').
Proof.
  intros n A a s W Hs Hf RA ZA.
  assert (Z0 : eqb (T := T) zero zero = true) by (destruct (m_zero (Monotone := I)) as [F0 _]; now apply (m_eqb (Monotone := I))).
  pose proof (cview_is A n a RA) as EA.
  assert (ZA' : z_tridiagonal_columns val fin n (cview A)).
  { destruct ZA as [[Z1 Z2] Z3]. split; [split|].
    - intros i j Hi Hj. rewrite EA by auto. now apply Z1.
    - intros i Hi. specialize (Z2 i Hi). cbv zeta in *. rewrite EA by auto. destruct (S i <? n)%nat eqn:E.
      + apply Nat.ltb_lt in E. rewrite EA by auto. destruct i; [exact Z2|]. rewrite EA by lia. exact Z2.
      + destruct i; [exact Z2|]. rewrite EA by lia. exact Z2.
    - intros i j Hi Hj. rewrite EA by auto. now apply Z3. }
  destruct (ilu_csr_outcome n n A unit s Z0 W Hs ltac:(lia) Hf) as [(F & E & W' & P1 & P2 & HD)|(F & _ & _ & _ & _ & HS)].
  2:{ exfalso. exact (tri_goes_on n _ _ ZA' HS). }
  pose proof (tri_done n _ _ ZA' HD) as G.
  assert (RF : reads_as F n (cview F)).
  { intros S0 s0 i j Hi Hj. now apply (cview_ok F n). }
  exists F, (cview F). split; [exact E|]. split; [exact RF|]. split; [exact G|].
  apply (C104_ilu_sparse (I := I) n A F a (cview F) s); auto. intros i j Hi Hj N. now apply (neg_A n _ ZA).
Qed.
End MonoIlu.
