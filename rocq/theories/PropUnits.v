(** * C92: the units of the data do not matter (theorem statements)

    Two runs of the same operation on the same data in different units, [s k x x'] saying that x'
    is the quantity x in the other units (SpecUnits.v).  Every entry of a vector or matrix may have
    its own unit: [p i], [r i + c j].  The run in the other units ends in the same way and its
    results are the same quantities.  [den y]: y may be a divisor; in all instances of C92_... below
    this is True. *)
From Coq Require Import ZArith Floats Reals Lra Lia List.
From Flocq Require Import Core BinarySingleNaN.
From Verif Require Import Base Scalar BaseLemmas Spec Sums ModelVec ModelMat SpecMat ModelPacked ProofPacked ModelSparse
  PropPacked ProofVec ProofVecProp ProofMatOps ModelSolvers ModelIter ProofChol ProofCholSolve ProofIlu PropVec PropMat PropChol PropCholSolve PropIlu
  ProofSparse SpecSparse PropSparse ProofSparseCsr ProofSpmv PropSpmv ProofBackSub ProofTdma ProofTdmaBits PropRepeat ProofCgs PropCgs
  PropRound2 FloatSqrt ProofGmresRun PropGmresAny SpecParam PropParam RoundFlocq RoundIeee SpecUnits ProofUnits ProofGmresBits RoundUnits.
Import ListNotations.
Local Open Scope Z_scope.

Section Units.
Context {T : Type} (Op : Ops T) (s : Z -> T -> T -> Prop) (den : T -> Prop) (U : Units Op s den).
Local Notation vunits := (vunits s).
Local Notation munits := (munits s).
Local Notation lunits := (lunits s).
Implicit Types h : heap T.

(** ** Vectors *)
Theorem C92_dot : forall n x y x' y' p q g h h', fits_u32 n = true -> (0 < n)%nat ->
  len h x = n -> len h y = n -> len h' x' = n -> len h' y' = n ->
  vunits n p (rd h x) (rd h' x') -> vunits n q (rd h y) (rd h' y') -> (forall i, (i < n)%nat -> p i + q i = g) ->
  exists v v', dot_d x y h = Ok v h /\ dot_d x' y' h' = Ok v' h' /\ s g v v'.
Proof.
  intros n x y x' y' p q g h h' Hf Hn L1 L2 L3 L4 Hx Hy E.
  do 2 eexists. split; [apply (proj1 (C05_dot_exact_order T Op x y h ltac:(now rewrite L1) ltac:(now rewrite L1) ltac:(congruence)))|].
  split; [apply (proj1 (C05_dot_exact_order T Op x' y' h' ltac:(now rewrite L3) ltac:(now rewrite L3) ltac:(congruence)))|].
  rewrite L1, L3. now apply (cdot_units U n p q g).
Qed.
Theorem C92_operators : forall n v w v' w' p g alpha alpha' h h', (v < next h)%nat -> (w < next h)%nat -> (v' < next h')%nat -> (w' < next h')%nat ->
  fits_u32 n = true -> len h v = n -> len h w = n -> len h' v' = n -> len h' w' = n ->
  vunits n p (rd h v) (rd h' v') -> vunits n p (rd h w) (rd h' w') -> s g alpha alpha' ->
  (exists h1 h1', op_neg_d v h = Ok (next h) h1 /\ op_neg_d v' h' = Ok (next h') h1' /\ vunits n p (rd h1 (next h)) (rd h1' (next h'))) /\
  (exists h1 h1', op_add_d v w h = Ok (next h) h1 /\ op_add_d v' w' h' = Ok (next h') h1' /\ vunits n p (rd h1 (next h)) (rd h1' (next h'))) /\
  (exists h1 h1', op_sub_d v w h = Ok (next h) h1 /\ op_sub_d v' w' h' = Ok (next h') h1' /\ vunits n p (rd h1 (next h)) (rd h1' (next h'))) /\
  (exists h1 h1', op_scale_d alpha v h = Ok (next h) h1 /\ op_scale_d alpha' v' h' = Ok (next h') h1' /\
    vunits n (fun i => g + p i) (rd h1 (next h)) (rd h1' (next h'))).
Proof.
  intros n v w v' w' p g alpha alpha' h h' B1 B2 B3 B4 Hf L1 L2 L3 L4 I1 I2 Ia.
  destruct (C01_operators_dyn T Op v w alpha h B1 B2 ltac:(now rewrite L1) ltac:(congruence)) as ((h1 & E1 & M1 & _) & (h2 & E2 & M2 & _) & (h3 & E3 & M3 & _) & (h4 & E4 & M4 & _) & _).
  destruct (C01_operators_dyn T Op v' w' alpha' h' B3 B4 ltac:(now rewrite L3) ltac:(congruence)) as ((g1 & F1 & N1 & _) & (g2 & F2 & N2 & _) & (g3 & F3 & N3 & _) & (g4 & F4 & N4 & _) & _).
  split; [|split; [|split]]; do 2 eexists; (split; [eassumption|]); (split; [eassumption|]); intros i Hi; specialize (I1 i Hi); specialize (I2 i Hi); unfold rd, len in *.
  - rewrite M1, N1, !(map_nth_in _ _ _ zero) by lia. now apply (s_opp U).
  - rewrite M2, N2, !(map2_nth _ _ _ _ zero zero) by lia. now apply (s_add U).
  - rewrite M3, N3, !(map2_nth _ _ _ _ zero zero) by lia. now apply (s_sub U).
  - rewrite M4, N4, !(map_nth_in _ _ _ zero) by lia. eapply (s_mul U); eauto.
Qed.
(** v / alpha is v times the reciprocal of alpha. *)
Theorem C92_div : forall n v v' p g alpha alpha' h h', (v < next h)%nat -> (v' < next h')%nat ->
  fits_u32 n = true -> len h v = n -> len h' v' = n -> vunits n p (rd h v) (rd h' v') -> s g alpha alpha' -> den alpha ->
  exists h1 h1', op_div_d v alpha h = Ok (next h) h1 /\ op_div_d v' alpha' h' = Ok (next h') h1' /\
    vunits n (fun i => p i - g) (rd h1 (next h)) (rd h1' (next h')).
Proof.
  intros n v v' p g alpha alpha' h h' B1 B3 Hf L1 L3 I1 Ia D.
  destruct (post_ok _ _ _ (op_div_d_ok alpha v h B1 ltac:(now rewrite L1))) as (r0 & h1 & E1 & -> & M1 & _).
  destruct (post_ok _ _ _ (op_div_d_ok alpha' v' h' B3 ltac:(now rewrite L3))) as (r1 & g1 & F1 & -> & N1 & _).
  do 2 eexists; (split; [eassumption|]); (split; [eassumption|]); intros i Hi; specialize (I1 i Hi); unfold rd, len in *.
  rewrite M1, N1, !(map_nth_in _ _ _ zero) by lia.
  eapply (s_mul U); [eapply (s_div U); [apply (s_one U)|exact Ia|exact D|reflexivity]|exact I1|lia].
Qed.
Theorem C92_axpy : forall n x y x' y' p g alpha alpha' h h', fits_u32 n = true -> len h x = n -> len h y = n -> len h' x' = n -> len h' y' = n ->
  s g alpha alpha' -> vunits n p (rd h x) (rd h' x') -> vunits n (fun i => g + p i) (rd h y) (rd h' y') ->
  exists h1 h1', axpy_d alpha x y h = Ok y h1 /\ axpy_d alpha' x' y' h' = Ok y' h1' /\ vunits n (fun i => g + p i) (rd h1 y) (rd h1' y').
Proof.
  intros n x y x' y' p g alpha alpha' h h' Hf L1 L2 L3 L4 Ia I1 I2.
  destruct (C01_axpy_dyn T Op alpha x y h ltac:(now rewrite L1) ltac:(congruence)) as (h1 & E1 & M1 & _).
  destruct (C01_axpy_dyn T Op alpha' x' y' h' ltac:(now rewrite L3) ltac:(congruence)) as (g1 & F1 & N1 & _).
  do 2 eexists; (split; [eassumption|]); (split; [eassumption|]); intros i Hi; specialize (I1 i Hi); specialize (I2 i Hi); unfold rd, len in *.
  rewrite M1, N1, !(map2_nth _ _ _ _ zero zero) by lia. apply (s_add U); [|exact I2]. eapply (s_mul U); eauto.
Qed.
Theorem C92_cross3 : forall dbg dbg' dx dy dr dx' dy' dr' x y vr x' y' vr' p q g h h',
  len h x = 3%nat -> len h y = 3%nat -> len h vr = 3%nat -> len h' x' = 3%nat -> len h' y' = 3%nat -> len h' vr' = 3%nat ->
  vunits 3 p (rd h x) (rd h' x') -> vunits 3 q (rd h y) (rd h' y') -> (forall i, (i < 3)%nat -> p i = q i + g) ->
  exists h1 h1', cross3 dbg dx dy dr x y vr h = Ok vr h1 /\ cross3 dbg' dx' dy' dr' x' y' vr' h' = Ok vr' h1' /\
    vunits 3 (fun i => q 0%nat + q 1%nat + q 2%nat + g - q i) (rd h1 vr) (rd h1' vr').
Proof.
  intros dbg dbg' dx dy dr dx' dy' dr' x y vr x' y' vr' p q g h h' L1 L2 L3 L4 L5 L6 Hx Hy E.
  destruct (C08_cross3 T Op dbg dx dy dr x y vr h L1 L2 L3) as (h1 & E1 & M1 & _).
  destruct (C08_cross3 T Op dbg' dx' dy' dr' x' y' vr' h' L4 L5 L6) as (g1 & F1 & N1 & _).
  exists h1, g1. split; [exact E1|]. split; [exact F1|].
  assert (K : forall i j, (i < 3)%nat -> (j < 3)%nat -> s (q i + q j + g)
     (sub (mul (rd h x i) (rd h y j)) (mul (rd h y i) (rd h x j))) (sub (mul (rd h' x' i) (rd h' y' j)) (mul (rd h' y' i) (rd h' x' j)))).
  { intros i j Hi Hj. pose proof (E i Hi). pose proof (E j Hj).
    apply (s_sub U); eapply (s_mul U); [now apply Hx|now apply Hy|lia|now apply Hy|now apply Hx|lia]. }
  intros i Hi. unfold rd at 1 2. rewrite M1, N1.
  destruct i as [|[|[|i]]]; [| | |lia]; cbn [nth]; (eapply s_at; [apply K; lia|]); lia.
Qed.

(** ** Matrices *)
(** Row i of the result has unit g + r i + t if column k of A has c k and entry k of x t - c k. *)
Theorem C92_matvec : forall dbg dbg' alpha alpha' A A' x x' beta beta' y y' n m g gb r c t u h h',
  fits_u32 n = true -> fits_u32 m = true -> ismat h A n m -> isvec h x m -> isvec h y n -> mp A <> y ->
  ismat h' A' n m -> isvec h' x' m -> isvec h' y' n -> mp A' <> y' -> s g alpha alpha' -> s gb beta beta' ->
  munits n m (fun i j => r i + c j) (mget h A) (mget h' A') -> vunits m (fun j => t - c j) (rd h x) (rd h' x') ->
  vunits n u (rd h y) (rd h' y') -> (forall i, (i < n)%nat -> gb + u i = g + r i + t) ->
  exists h1 h1', mulv dbg alpha A x beta y h = Ok y h1 /\ mulv dbg' alpha' A' x' beta' y' h' = Ok y' h1' /\
    vunits n (fun i => g + r i + t) (rd h1 y) (rd h1' y').
Proof.
  intros dbg dbg' alpha alpha' A A' x x' beta beta' y y' n m g gb r c t u h h' Hn Hm HA Hx Hy Hd HA' Hx' Hy' Hd' Ia Ib IA Ix Iy E.
  destruct (C14_matvec_exact T Op dbg alpha A x beta y n m h Hn Hm HA Hx Hy Hd) as (h1 & E1 & _ & _ & V1).
  destruct (C14_matvec_exact T Op dbg' alpha' A' x' beta' y' n m h' Hn Hm HA' Hx' Hy' Hd') as (g1 & F1 & _ & _ & W1).
  exists h1, g1. split; [exact E1|]. split; [exact F1|]. intros i Hi. rewrite V1, W1 by auto. apply (fsum_units U).
  - eapply (s_mul U); [exact Ib|now apply Iy|now apply E].
  - intros k Hk. eapply (s_mul U); [eapply (s_mul U); [exact Ia|now apply IA|reflexivity]|now apply Ix|lia].
Qed.
Theorem C92_matvec_operator : forall dbg dbg' A A' x x' n m r c t h h',
  fits_u32 n = true -> fits_u32 m = true -> ismat h A n m -> isvec h x m -> ismat h' A' n m -> isvec h' x' m ->
  munits n m (fun i j => r i + c j) (mget h A) (mget h' A') -> vunits m (fun j => t - c j) (rd h x) (rd h' x') ->
  exists y h1 y' h1', op_mulv dbg A x h = Ok y h1 /\ op_mulv dbg' A' x' h' = Ok y' h1' /\ vunits n (fun i => r i + t) (rd h1 y) (rd h1' y').
Proof.
  intros dbg dbg' A A' x x' n m r c t h h' Hn Hm HA Hx HA' Hx' IA Ix.
  destruct (post_ok _ _ _ (op_mulv_ok dbg A x n m h Hn Hm HA Hx)) as (y & h1 & E1 & _ & _ & _ & V1).
  destruct (post_ok _ _ _ (op_mulv_ok dbg' A' x' n m h' Hn Hm HA' Hx')) as (y' & g1 & F1 & _ & _ & _ & W1).
  exists y, h1, y', g1. split; [exact E1|]. split; [exact F1|]. intros i Hi. rewrite V1, W1 by auto. apply (fsum_units U).
  - eapply (s_mul U (r i) t); [apply (s_zero U)|apply (s_zero U)|reflexivity].
  - intros k Hk. eapply (s_mul U); [eapply (s_mul U); [apply (s_one U)|now apply IA|reflexivity]|now apply Ix|lia].
Qed.
Theorem C92_matmat : forall dbg dbg' alpha alpha' A A' B B' beta beta' C C' n m o g gb r c d u h h',
  fits_u32 n = true -> fits_u32 m = true -> fits_u32 o = true -> ismat h A n o -> ismat h B o m -> ismat h C n m ->
  ismat h' A' n o -> ismat h' B' o m -> ismat h' C' n m -> s g alpha alpha' -> s gb beta beta' ->
  munits n o (fun i k => r i + c k) (mget h A) (mget h' A') -> munits o m (fun k j => d j - c k) (mget h B) (mget h' B') ->
  munits n m u (mget h C) (mget h' C') -> (forall i j, (i < n)%nat -> (j < m)%nat -> gb + u i j = g + r i + d j) ->
  (mp A = mp C \/ mp B = mp C <-> mp A' = mp C' \/ mp B' = mp C') ->
  exists h1 h1', mulm dbg alpha A B beta C h = Ok C h1 /\ mulm dbg' alpha' A' B' beta' C' h' = Ok C' h1' /\
    munits n m (fun i j => g + r i + d j) (mget h1 C) (mget h1' C').
Proof.
  intros dbg dbg' alpha alpha' A A' B B' beta beta' C C' n m o g gb r c d u h h' Hn Hm Ho HA HB HC HA' HB' HC' Ia Ib IA IB IC E AL.
  destruct (C15_matmat_exact T Op dbg alpha A B beta C n m o h Hn Hm Ho HA HB HC) as (h1 & E1 & _ & _ & V1).
  destruct (C15_matmat_exact T Op dbg' alpha' A' B' beta' C' n m o h' Hn Hm Ho HA' HB' HC') as (g1 & F1 & _ & _ & W1).
  exists h1, g1. split; [exact E1|]. split; [exact F1|]. intros i j Hi Hj. rewrite V1, W1 by auto. apply (fsum_units U).
  - specialize (E i j Hi Hj).
    assert (EB : (Nat.eqb (mp A') (mp C') || Nat.eqb (mp B') (mp C') = Nat.eqb (mp A) (mp C) || Nat.eqb (mp B) (mp C))%bool).
    { destruct (Nat.eqb_spec (mp A) (mp C)), (Nat.eqb_spec (mp B) (mp C)), (Nat.eqb_spec (mp A') (mp C')), (Nat.eqb_spec (mp B') (mp C')); cbn; tauto. }
    rewrite EB. destruct (_ || _)%bool; eapply (s_mul U); [exact Ib|now apply IC|lia|now apply IC|exact Ib|lia].
  - intros k Hk. eapply (s_mul U); [eapply (s_mul U); [exact Ia|now apply IA|reflexivity]|now apply IB|lia].
Qed.
Theorem C92_matmat_operator : forall dbg dbg' A A' B B' n m o r c d h h',
  fits_u32 n = true -> fits_u32 m = true -> fits_u32 o = true -> ismat h A n o -> ismat h B o m -> ismat h' A' n o -> ismat h' B' o m ->
  munits n o (fun i k => r i + c k) (mget h A) (mget h' A') -> munits o m (fun k j => d j - c k) (mget h B) (mget h' B') ->
  exists C h1 C' h1', op_mulm dbg A B h = Ok C h1 /\ op_mulm dbg' A' B' h' = Ok C' h1' /\
    munits n m (fun i j => r i + d j) (mget h1 C) (mget h1' C').
Proof.
  intros dbg dbg' A A' B B' n m o r c d h h' Hn Hm Ho HA HB HA' HB' IA IB.
  destruct (post_ok _ _ _ (op_mulm_ok dbg A B n m o h Hn Hm Ho HA HB)) as (C & h1 & E1 & _ & _ & _ & V1).
  destruct (post_ok _ _ _ (op_mulm_ok dbg' A' B' n m o h' Hn Hm Ho HA' HB')) as (C' & g1 & F1 & _ & _ & _ & W1).
  exists C, h1, C', g1. split; [exact E1|]. split; [exact F1|]. intros i j Hi Hj. rewrite V1, W1 by auto. apply (fsum_units U).
  - eapply (s_mul U (r i) (d j)); [apply (s_zero U)|apply (s_zero U)|reflexivity].
  - intros k Hk. eapply (s_mul U); [eapply (s_mul U); [apply (s_one U)|now apply IA|reflexivity]|now apply IB|lia].
Qed.
Theorem C92_matrix_operators : forall dbg dbg' alpha alpha' A A' B B' n m p g h h', fits_u32 (n * m) = true ->
  ismat h A n m -> ismat h B n m -> ismat h' A' n m -> ismat h' B' n m ->
  munits n m p (mget h A) (mget h' A') -> munits n m p (mget h B) (mget h' B') -> s g alpha alpha' ->
  (exists C h1 C' h1', op_addm dbg A B h = Ok C h1 /\ op_addm dbg' A' B' h' = Ok C' h1' /\ munits n m p (mget h1 C) (mget h1' C')) /\
  (exists C h1 C' h1', op_subm dbg A B h = Ok C h1 /\ op_subm dbg' A' B' h' = Ok C' h1' /\ munits n m p (mget h1 C) (mget h1' C')) /\
  (exists C h1 C' h1', op_scalem alpha A h = Ok C h1 /\ op_scalem alpha' A' h' = Ok C' h1' /\
    munits n m (fun i j => g + p i j) (mget h1 C) (mget h1' C')) /\
  (exists C h1 C' h1', op_negm A h = Ok C h1 /\ op_negm A' h' = Ok C' h1' /\ munits n m p (mget h1 C) (mget h1' C')).
Proof.
  intros dbg dbg' alpha alpha' A A' B B' n m p g h h' Hf HA HB HA' HB' IA IB Ia.
  destruct (C17_operators T Op dbg alpha A B n m h Hf HA HB) as ((C1 & h1 & E1 & _ & _ & _ & V1) & (C2 & h2 & E2 & _ & _ & _ & V2) & (C3 & h3 & E3 & _ & _ & _ & V3) & (C4 & h4 & E4 & _ & _ & _ & V4)).
  destruct (C17_operators T Op dbg' alpha' A' B' n m h' Hf HA' HB') as ((D1 & g1 & F1 & _ & _ & _ & W1) & (D2 & g2 & F2 & _ & _ & _ & W2) & (D3 & g3 & F3 & _ & _ & _ & W3) & (D4 & g4 & F4 & _ & _ & _ & W4)).
  split; [|split; [|split]]; do 4 eexists; (split; [eassumption|]); (split; [eassumption|]); intros i j Hi Hj.
  - rewrite V1, W1 by auto. apply (s_add U); auto.
  - rewrite V2, W2 by auto. apply (s_sub U); auto.
  - rewrite V3, W3 by auto. eapply (s_mul U); [exact Ia|now apply IA|reflexivity].
  - rewrite V4, W4 by auto. eapply (s_mul U); [apply (s_opp U), (s_one U)|now apply IA|reflexivity].
Qed.

(** ** Compressed rows: the same pattern, stored value k of row i in the unit r i + c (column of k) *)
Definition sunits n (r c : nat -> Z) (A A' : csr T) : Prop := sptr A' = sptr A /\ scol A' = scol A /\ length (sval A') = length (sval A) /\
  forall i k, (i < n)%nat -> (nth i (sptr A) 0 <= k < nth (i + 1) (sptr A) 0)%nat ->
    s (r i + c (nth k (scol A) 0%nat)) (nth k (sval A) zero) (nth k (sval A') zero).
Lemma sunits_wf n r c A A' : sunits n r c A A' -> csr_wf A n -> csr_wf A' n.
Proof. intros (E1 & E2 & E3 & _). unfold csr_wf. now rewrite E1, E2, E3. Qed.
Lemma sunits_shape n r c A A' p : sunits n r c A A' -> csr_shape A tt = Ok p tt -> csr_shape A' tt = Ok p tt.
Proof. intros (E1 & E2 & E3 & _). unfold csr_shape, bind. rewrite E1, E2. destruct (max_elem (scol A) tt); auto. Qed.
Lemma cview_units n r c A A' : csr_wf A n -> sunits n r c A A' -> munits n n (fun i j => r i + c j) (cview A) (cview A').
Proof.
  intros W S i j Hi Hj. pose proof (sunits_wf n r c A A' S W) as W'. destruct S as (E1 & E2 & E3 & V).
  pose proof (cview_ok A n unit tt i j W Hi) as C. pose proof (cview_ok A' n unit tt i j W' Hi) as C'.
  unfold csr_get, bind in C, C'. rewrite (csr_find_ok A n) in C by auto. rewrite (csr_find_ok A' n) in C' by auto. rewrite E1, E2 in C'.
  pose proof (ptr_le A n (i + 1) W ltac:(lia)) as Hle.
  destruct (find _ _) as [k|] eqn:Ef.
  - apply find_some in Ef. destruct Ef as [Hk Ek]. apply in_seq in Hk. apply Nat.eqb_eq in Ek.
    destruct W as (W1 & W2 & W3 & W4 & W5). specialize (W5 i Hi).
    rewrite (vec_at_d _ zero) in C by lia. rewrite (vec_at_d _ zero) in C' by lia.
    injection C as <-. injection C' as <-. specialize (V i k Hi ltac:(lia)). now rewrite Ek in V.
  - injection C as <-. injection C' as <-. apply (s_zero U).
Qed.
Lemma row_units n m r c t g A A' alpha alpha' x x' a a' i : csr_wf A n -> sunits n r c A A' -> (forall q, In q (scol A) -> (q < m)%nat) ->
  (i < n)%nat -> s g alpha alpha' -> vunits m (fun j => t - c j) x x' -> s (g + r i + t) a a' ->
  s (g + r i + t) (row_value T Op (csr_row A i) alpha x a) (row_value T Op (csr_row A' i) alpha' x' a').
Proof.
  intros W (E1 & E2 & E3 & V) Hc Hi Ia Ix Is. unfold row_value, csr_row. rewrite E1, E2.
  pose proof (ptr_le A n (i + 1) W ltac:(lia)) as Hle. destruct W as (W1 & W2 & W3 & W4 & W5). specialize (W5 i Hi).
  assert (K : forall l a a', (forall k, In k l -> (nth i (sptr A) 0 <= k < nth (i + 1) (sptr A) 0)%nat) -> s (g + r i + t) a a' ->
    s (g + r i + t) (fold_left (fun acc e => add acc (mul (mul alpha (snd e)) (x (snd (fst e))))) (map (fun k => ((i, nth k (scol A) 0%nat), nth k (sval A) zero)) l) a)
      (fold_left (fun acc e => add acc (mul (mul alpha' (snd e)) (x' (snd (fst e))))) (map (fun k => ((i, nth k (scol A) 0%nat), nth k (sval A') zero)) l) a')).
  { induction l as [|k l IH]; intros b b' Hl Hb; cbn [map fold_left fst snd]; [exact Hb|].
    apply IH; [intros; apply Hl; now right|]. specialize (Hl k (or_introl eq_refl)). apply (s_add U); [exact Hb|].
    eapply (s_mul U); [eapply (s_mul U); [exact Ia|exact (V i k Hi Hl)|reflexivity]|apply Ix, Hc, nth_In; lia|lia]. }
  apply K; [|exact Is]. intros k Hk. apply in_seq in Hk. lia.
Qed.
Theorem C92_spmv : forall dbg dbg' n m A A' alpha alpha' x x' beta beta' y y' g gb r c t u h h',
  csr_wf A n -> csr_shape A tt = Ok (n, m) tt -> fits_u32 n = true -> sunits n r c A A' ->
  len h x = m -> len h y = n -> x <> y -> len h' x' = m -> len h' y' = n -> x' <> y' ->
  s g alpha alpha' -> s gb beta beta' -> vunits m (fun j => t - c j) (rd h x) (rd h' x') ->
  vunits n u (rd h y) (rd h' y') -> (forall i, (i < n)%nat -> gb + u i = g + r i + t) ->
  exists h1 h1', sp_mul dbg alpha A x beta y h = Ok y h1 /\ sp_mul dbg' alpha' A' x' beta' y' h' = Ok y' h1' /\
    vunits n (fun i => g + r i + t) (rd h1 y) (rd h1' y').
Proof.
  intros dbg dbg' n m A A' alpha alpha' x x' beta beta' y y' g gb r c t u h h' W Sh Hf SU Lx Ly Nxy Lx' Ly' Nxy' Ia Ib Ix Iy E.
  pose proof (sunits_wf n r c A A' SU W) as W'. pose proof (sunits_shape n r c A A' _ SU Sh) as Sh'.
  destruct (shape_cols A n m Sh) as [Hne Hc]. destruct (shape_cols A' n m Sh') as [Hne' Hc'].
  destruct (C32_rows_partial T Op dbg n m A alpha x beta y h W Hne (shape_any A h _ Sh) Hf Lx Ly Nxy) as (h1 & E1 & _ & _ & _ & V1).
  destruct (C32_rows_partial T Op dbg' n m A' alpha' x' beta' y' h' W' Hne' (shape_any A' h' _ Sh') Hf Lx' Ly' Nxy') as (g1 & F1 & _ & _ & _ & W1).
  exists h1, g1. split; [exact E1|]. split; [exact F1|]. intros i Hi. rewrite V1, W1 by auto.
  eapply (row_units n m r c t g); eauto. eapply (s_mul U); [exact Ib|now apply Iy|now apply E].
Qed.

(** ** Triangular and tridiagonal systems *)
Theorem C92_back_sub : forall (R R' : utri T) n f f' y y' r c t h h',
  un R = n -> (forall i j, (i < n)%nat -> (j < n)%nat -> forall S (s : S), utri_get R i j s = Ok (f i j) s) -> isvec h y n ->
  un R' = n -> (forall i j, (i < n)%nat -> (j < n)%nat -> forall S (s : S), utri_get R' i j s = Ok (f' i j) s) -> isvec h' y' n ->
  (forall i j, (i <= j)%nat -> (j < n)%nat -> s (r i + c j) (f i j) (f' i j)) -> vunits n (fun i => r i + t) (rd h y) (rd h' y') ->
  (forall i, (i < n)%nat -> den (f i i)) ->
  exists h1 h1', back_sub R y h = Ok tt h1 /\ back_sub R' y' h' = Ok tt h1' /\ vunits n (fun i => t - c i) (rd h1 y) (rd h1' y').
Proof.
  intros R R' n f f' y y' r c t h h' N1 G1 Hy N2 G2 Hy' If Iy D.
  destruct (post_ok _ _ _ (back_sub_bits R y n f h N1 G1 Hy)) as ([] & h1 & E & _ & _ & _ & B).
  destruct (post_ok _ _ _ (back_sub_bits R' y' n f' h' N2 G2 Hy')) as ([] & h1' & E' & _ & _ & _ & B').
  exists h1, h1'. split; [exact E|]. split; [exact E'|]. now apply (ilu_bwd_units U n r c t f f' (rd h y) (rd h' y')).
Qed.
(** The diagonals; no divisor of the elimination is excluded by [den]. *)
Definition tunits n (r c : nat -> Z) (t t' : tri T) : Prop :=
  vunits n (fun i => r i + c i) (atf (td t)) (atf (td t')) /\ vunits (n - 1) (fun i => r (S i) + c i) (atf (tdl t)) (atf (tdl t')) /\
  vunits (n - 1) (fun i => r i + c (S i)) (atf (tdu t)) (atf (tdu t')).
Definition tdivisors n (t : tri T) (b : nat -> T) : Prop :=
  den (atf (td t) 0%nat) /\
  forall i, (S i < n)%nat -> den (add (atf (td t) (S i)) (mul (atf (tdl t) i) (fst (sweep (atf (tdl t)) (atf (td t)) (atf (tdu t)) b i)))).
Theorem C92_tridiagonal : forall dbg dbg' t t' n b b' x x' r c g h h', (2 <= n)%nat -> fits_i32 n = true -> tri_wf T t n -> tri_wf T t' n ->
  isvec h b n -> (n <= len h x)%nat -> isvec h' b' n -> (n <= len h' x')%nat -> tunits n r c t t' ->
  vunits n (fun i => r i + g) (rd h b) (rd h' b') -> tdivisors n t (rd h b) ->
  exists h1 h1', tridiag_solve_vec dbg t b x h = Ok x h1 /\ tridiag_solve_vec dbg' t' b' x' h' = Ok x' h1' /\
    vunits n (fun i => g - c i) (rd h1 x) (rd h1' x').
Proof.
  intros dbg dbg' t t' n b b' x x' r c g h h' Hn Hf W W' Hb Lx Hb' Lx' (Id & Il & Iu) Ib D.
  destruct (tridiag_bits dbg t n b x h Hn Hf W Hb Lx) as (h1 & E & _ & _ & _ & _ & S1).
  destruct (tridiag_bits dbg' t' n b' x' h' Hn Hf W' Hb' Lx') as (h1' & E' & _ & _ & _ & _ & S1').
  exists h1, h1'. split; [exact E|]. split; [exact E'|]. eapply (swept_units U n r c g); eauto. lia.
Qed.
Theorem C92_tridiagonal_matrix : forall dbg dbg' t t' n m B B' X X' r c g h h', (2 <= n)%nat -> fits_i32 n = true -> fits_u32 m = true ->
  tri_wf T t n -> tri_wf T t' n -> ismat h B n m -> ismat h X n m -> ismat h' B' n m -> ismat h' X' n m -> tunits n r c t t' ->
  munits n m (fun i k => r i + g k) (mget h B) (mget h' B') -> (forall k, (k < m)%nat -> tdivisors n t (fun i => mget h B i k)) ->
  exists h1 h1', tridiag_solve_mat dbg t B X h = Ok X h1 /\ tridiag_solve_mat dbg' t' B' X' h' = Ok X' h1' /\
    munits n m (fun i k => g k - c i) (mget h1 X) (mget h1' X').
Proof.
  intros dbg dbg' t t' n m B B' X X' r c g h h' Hn Hf Hm W W' HB HX HB' HX' (Id & Il & Iu) Ib D.
  destruct (tridiag_mat_bits dbg t n m B X h Hn Hf Hm W HB HX) as (h1 & E & _ & _ & _ & S1).
  destruct (tridiag_mat_bits dbg' t' n m B' X' h' Hn Hf Hm W' HB' HX') as (h1' & E' & _ & _ & _ & S1').
  exists h1, h1'. split; [exact E|]. split; [exact E'|]. intros i k Hi Hk.
  refine (swept_units U n r c (g k) _ _ _ _ _ _ _ _ (fun i => mget h1 X i k) (fun i => mget h1' X' i k) ltac:(lia) Id Il Iu _ (D k Hk) (S1 k Hk) (S1' k Hk) i Hi).
  intros j Hj. now apply Ib.
Qed.

(** ** Orthogonalisation: vector k in the unit p k *)
Theorem C92_cgs : forall dbg dbg' vs vs' n p h h', vs <> [] -> NoDup vs -> vs' <> [] -> NoDup vs' -> length vs' = length vs ->
  fits_u32 (length vs) = true -> fits_u32 n = true -> (0 < n)%nat ->
  (forall q, In q vs -> (q < next h)%nat /\ len h q = n) -> (forall q, In q vs' -> (q < next h')%nat /\ len h' q = n) ->
  (forall k, (k < length vs)%nat -> vunits n (fun _ => p k) (rd h (nth k vs 0%nat)) (rd h' (nth k vs' 0%nat))) ->
  exists h1 h1', cgs dbg vs h = Ok tt h1 /\ cgs dbg' vs' h' = Ok tt h1' /\
    ((forall k, (k < length vs)%nat -> den (cdot n (rd h1 (nth k vs 0%nat)) (rd h1 (nth k vs 0%nat)))) ->
    forall k, (k < length vs)%nat -> vunits n (fun _ => p k) (rd h1 (nth k vs 0%nat)) (rd h1' (nth k vs' 0%nat))).
Proof.
  intros dbg dbg' vs vs' n p h h' Ne Nd Ne' Nd' El Hf Hn Hp L L' I.
  destruct (C50_recurrence dbg vs n h Ne Nd Hf Hn Hp L) as (h1 & E & _ & _ & R).
  destruct (C50_recurrence dbg' vs' n h' Ne' Nd' ltac:(now rewrite El) Hn Hp L') as (h1' & E' & _ & _ & R').
  exists h1, h1'. split; [exact E|]. split; [exact E'|]. intros D.
  induction k as [k IH] using lt_wf_ind. intros Hk i Hi. rewrite (R k i Hk Hi), (R' k i ltac:(lia) Hi).
  apply (gacc_units U n p); auto.
  - intros a Ha. apply IH; lia.
  - intros a Ha. apply D. lia.
Qed.

(** ** Solving with factors that are given in both units *)
(** b i in the unit r i + t; the result in t - q i. *)
Definition solves (r q : nat -> Z) n (f f' : ptr -> M (heap T) ptr) h h' : Prop := forall b b' t, isvec h b n -> isvec h' b' n ->
  vunits n (fun i => r i + t) (rd h b) (rd h' b') ->
  exists x h1 x' h1', f b h = Ok x h1 /\ f' b' h' = Ok x' h1' /\ isvec h1 x n /\ isvec h1' x' n /\
    vunits n (fun i => t - q i) (rd h1 x) (rd h1' x').
Definition solves_mat (r q : nat -> Z) n (f f' : mat -> M (heap T) mat) h h' : Prop := forall m B B' t, fits_u32 m = true ->
  ismat h B n m -> ismat h' B' n m -> munits n m (fun i k => r i + t k) (mget h B) (mget h' B') ->
  exists X h1 X' h1', f B h = Ok X h1 /\ f' B' h' = Ok X' h1' /\ ismat h1 X n m /\ ismat h1' X' n m /\
    munits n m (fun i k => t k - q i) (mget h1 X) (mget h1' X').
(** In place: b does not hold the factor. *)
Definition solves_in (r q : nat -> Z) n (p p' : ptr) (f f' : ptr -> M (heap T) ptr) h h' : Prop := forall b b' t, isvec h b n -> isvec h' b' n ->
  p <> b -> p' <> b' -> vunits n (fun i => r i + t) (rd h b) (rd h' b') ->
  exists h1 h1', f b h = Ok b h1 /\ f' b' h' = Ok b' h1' /\ isvec h1 b n /\ isvec h1' b' n /\
    vunits n (fun i => t - q i) (rd h1 b) (rd h1' b').
Definition solves_mat_in (r q : nat -> Z) n (p p' : ptr) (f f' : mat -> M (heap T) mat) h h' : Prop := forall m B B' t, fits_u32 m = true ->
  ismat h B n m -> ismat h' B' n m -> p <> mp B -> p' <> mp B' -> munits n m (fun i k => r i + t k) (mget h B) (mget h' B') ->
  exists h1 h1', f B h = Ok B h1 /\ f' B' h' = Ok B' h1' /\ ismat h1 B n m /\ ismat h1' B' n m /\
    munits n m (fun i k => t k - q i) (mget h1 B) (mget h1' B').
Section Forms.
Variables (r q : nat -> Z) (n : nat) (R R' : (nat -> T) -> (nat -> T) -> Prop).
Hypothesis RU : forall t b b' x x', vunits n (fun i => r i + t) b b' -> R b x -> R' b' x' -> vunits n (fun i => t - q i) x x'.
Lemma form_vec f f' h h' : (forall b, isvec h b n -> vec_outofplace R f h n b) -> (forall b, isvec h' b n -> vec_outofplace R' f' h' n b) ->
  solves r q n f f' h h'.
Proof.
  intros F F' b b' t Hb Hb' I. destruct (F b Hb) as (x & h1 & E & _ & _ & V & S). destruct (F' b' Hb') as (x' & h1' & E' & _ & _ & V' & S').
  exists x, h1, x', h1'. do 4 (split; [assumption|]). eapply RU; eauto.
Qed.
Lemma form_mat f f' h h' : (forall B m, ismat h B n m -> fits_u32 m = true -> mat_outofplace R f h n m B) ->
  (forall B m, ismat h' B n m -> fits_u32 m = true -> mat_outofplace R' f' h' n m B) -> solves_mat r q n f f' h h'.
Proof.
  intros F F' m B B' t Hm HB HB' I. destruct (F B m HB Hm) as (X & h1 & E & _ & _ & V & S). destruct (F' B' m HB' Hm) as (X' & h1' & E' & _ & _ & V' & S').
  exists X, h1, X', h1'. do 4 (split; [assumption|]). intros i k Hi Hk.
  refine (RU (t k) _ _ _ _ _ (S k Hk) (S' k Hk) i Hi). intros j Hj. now apply I.
Qed.
Lemma form_vec_in p p' f f' h h' : (forall b, isvec h b n -> p <> b -> vec_inplace R f h n b) ->
  (forall b, isvec h' b n -> p' <> b -> vec_inplace R' f' h' n b) -> solves_in r q n p p' f f' h h'.
Proof.
  intros F F' b b' t Hb Hb' Np Np' I. destruct (F b Hb Np) as (h1 & E & _ & _ & V & S). destruct (F' b' Hb' Np') as (h1' & E' & _ & _ & V' & S').
  exists h1, h1'. do 4 (split; [assumption|]). eapply RU; eauto.
Qed.
Lemma form_mat_in p p' f f' h h' : (forall B m, ismat h B n m -> fits_u32 m = true -> p <> mp B -> mat_inplace R f h n m B) ->
  (forall B m, ismat h' B n m -> fits_u32 m = true -> p' <> mp B -> mat_inplace R' f' h' n m B) -> solves_mat_in r q n p p' f f' h h'.
Proof.
  intros F F' m B B' t Hm HB HB' Np Np' I. destruct (F B m HB Hm Np) as (h1 & E & _ & _ & V & S). destruct (F' B' m HB' Hm Np') as (h1' & E' & _ & _ & V' & S').
  exists h1, h1'. do 4 (split; [assumption|]). intros i k Hi Hk.
  refine (RU (t k) _ _ _ _ _ (S k Hk) (S' k Hk) i Hi). intros j Hj. now apply I.
Qed.
End Forms.
Theorem C92_cholesky_solve : forall dbg dbg' F F' n r h h', (Z.of_nat n < 2 ^ 31)%Z -> isfac h F n -> isfac h' F' n ->
  lunits n (fun i _ => r i) (fac h F) (fac h' F') -> (forall i, (i < n)%nat -> den (fac h F i i)) ->
  solves r r n (chol_solve_vec dbg F) (chol_solve_vec dbg' F') h h' /\
  solves_in r r n (chp F) (chp F') (chol_solve_mut_vec dbg F) (chol_solve_mut_vec dbg' F') h h' /\
  solves_mat r r n (chol_solve_mat dbg F) (chol_solve_mat dbg' F') h h' /\
  solves_mat_in r r n (chp F) (chp F') (chol_solve_mut_mat dbg F) (chol_solve_mut_mat dbg' F') h h'.
Proof.
  intros dbg dbg' F F' n r h h' Hn HF HF' I D.
  assert (RU : forall t b b' x x', vunits n (fun i => r i + t) b b' -> substituted n (fac h F) b x -> substituted n (fac h' F') b' x' ->
     vunits n (fun i => t - r i) x x') by (intros t b b' x x' Ib S S'; now apply (subst_units U n r t (fac h F) (fac h' F') b b')).
  split; [|split; [|split]].
  - apply (form_vec r r n _ _ RU); intros; now apply chol_vec_out.
  - apply (form_vec_in r r n _ _ RU); intros; now apply chol_vec_in.
  - apply (form_mat r r n _ _ RU); intros; now apply chol_mat_out.
  - apply (form_mat_in r r n _ _ RU); intros; now apply chol_mat_in.
Qed.
Theorem C92_modified_solve : forall dbg dbg' F F' n r h h', (Z.of_nat n < 2 ^ 31)%Z -> isfac h F n -> isfac h' F' n ->
  lunits n (fun i j => r i + r j) (fac h F) (fac h' F') -> (forall i, (i < n)%nat -> den (fac h F i i)) ->
  solves r r n (mod_solve_vec dbg F) (mod_solve_vec dbg' F') h h' /\
  solves_in r r n (chp F) (chp F') (mod_solve_mut_vec dbg F) (mod_solve_mut_vec dbg' F') h h' /\
  solves_mat r r n (mod_solve_mat dbg F) (mod_solve_mat dbg' F') h h' /\
  solves_mat_in r r n (chp F) (chp F') (mod_solve_mut_mat dbg F) (mod_solve_mut_mat dbg' F') h h'.
Proof.
  intros dbg dbg' F F' n r h h' Hn HF HF' I D.
  assert (RU : forall t b b' x x', vunits n (fun i => r i + t) b b' -> usubstituted n (fac h F) b x -> usubstituted n (fac h' F') b' x' ->
     vunits n (fun i => t - r i) x x') by (intros t b b' x x' Ib S S'; now apply (usubst_units U n r t (fac h F) (fac h' F') b b')).
  split; [|split; [|split]].
  - apply (form_vec r r n _ _ RU); intros; now apply mod_vec_out.
  - apply (form_vec_in r r n _ _ RU); intros; now apply mod_vec_in.
  - apply (form_mat r r n _ _ RU); intros; now apply mod_mat_out.
  - apply (form_mat_in r r n _ _ RU); intros; now apply mod_mat_in.
Qed.
Theorem C92_ilu_solve : forall F F' n r c h h', fits_u32 n = true -> ismat h F n n -> ismat h' F' n n ->
  munits n n (lu_unit r c) (mget h F) (mget h' F') -> (forall i, (i < n)%nat -> den (mget h F i i)) ->
  solves r c n (ilu_dyn_solve F) (ilu_dyn_solve F') h h'.
Proof.
  intros F F' n r c h h' Hf HF HF' I D b b' t Hb Hb' Ib.
  destruct (post_ok _ _ _ (ilu_solve_ok (mat_get F) (mget h F) n b h Hf Hb ltac:(intros; now apply (mat_get_ext F n h)))) as (x & h1 & E & (_ & _ & V & _) & S).
  destruct (post_ok _ _ _ (ilu_solve_ok (mat_get F') (mget h' F') n b' h' Hf Hb' ltac:(intros; now apply (mat_get_ext F' n h')))) as (x' & h1' & E' & (_ & _ & V' & _) & S').
  exists x, h1, x', h1'. do 4 (split; [assumption|]). now apply (ilu_solved_units U n r c t (mget h F) (mget h' F') (rd h b) (rd h' b')).
Qed.
Theorem C92_ilu_solve_csr : forall F F' n r c h h', fits_u32 n = true -> csr_wf F n -> csr_wf F' n ->
  munits n n (lu_unit r c) (cview F) (cview F') -> (forall i, (i < n)%nat -> den (cview F i i)) ->
  solves r c n (ilu_csr_solve F) (ilu_csr_solve F') h h'.
Proof.
  intros F F' n r c h h' Hf HF HF' I D b b' t Hb Hb' Ib.
  destruct (post_ok _ _ _ (ilu_solve_ok (csr_get F) (cview F) n b h Hf Hb ltac:(intros; now apply (cview_ok F n)))) as (x & h1 & E & (_ & _ & V & _) & S).
  destruct (post_ok _ _ _ (ilu_solve_ok (csr_get F') (cview F') n b' h' Hf Hb' ltac:(intros; now apply (cview_ok F' n)))) as (x' & h1' & E' & (_ & _ & V' & _) & S').
  exists x, h1, x', h1'. do 4 (split; [assumption|]). now apply (ilu_solved_units U n r c t (cview F) (cview F') (rd h b) (rd h' b')).
Qed.

(** ** Factorisations *)
(** Two runs that return: the same factor. *)
Theorem C92_modified_returned : forall n A A' r h h' F F' h1 h1', ismat h A n n -> ismat h' A' n n -> fits_u32 n = true ->
  (forall y, eqb y zero = false -> den y) -> lunits n (fun i j => r i + r j) (mget h A) (mget h' A') ->
  mod_cholesky A h = Ok F h1 -> mod_cholesky A' h' = Ok F' h1' -> lunits n (fun i j => r i + r j) (fac h1 F) (fac h1' F').
Proof.
  intros n A A' r h h' F F' h1 h1' HA HA' Hf D I E E'.
  destruct (mod_outcome T Op n A h HA Hf) as (g & _ & _ & _ & [(Q & M & V)|(Q & _)]); [|congruence].
  destruct (mod_outcome T Op n A' h' HA' Hf) as (g' & _ & _ & _ & [(Q' & M' & V')|(Q' & _)]); [|congruence].
  rewrite E in Q. rewrite E' in Q'. injection Q as -> ->. injection Q' as -> ->. exact (mfact_units U n r _ _ _ _ I D M M').
Qed.
(** The zeros of A and A' are in the same places. *)
Theorem C92_ilu_returned : forall n A A' r c h h' F F' h1 h1', ismat h A n n -> ismat h' A' n n -> fits_u32 n = true ->
  (forall y, eqb y zero = false -> den y) -> munits n n (fun i j => r i + c j) (mget h A) (mget h' A') ->
  (forall i j, (i < n)%nat -> (j < n)%nat -> eqb (mget h' A' i j) zero = eqb (mget h A i j) zero) ->
  (forall i j, (i < n)%nat -> (j < n)%nat -> eqb (mget h A i j) zero = true -> forall k, s k (mget h A i j) (mget h' A' i j)) ->
  ilu_dyn A h = Ok F h1 -> ilu_dyn A' h' = Ok F' h1' -> munits n n (lu_unit r c) (mget h1 F) (mget h1' F').
Proof.
  intros n A A' r c h h' F F' h1 h1' HA HA' Hf D I Z1 Z2 E E'.
  pose proof (ilu_dyn_outcome n A h HA Hf) as P. pose proof (ilu_dyn_outcome n A' h' HA' Hf) as P'. unfold postx in P, P'. rewrite E in P. rewrite E' in P'.
  destruct P as (_ & P), P' as (_ & P'). refine (ilu_done_pat U n r c _ _ _ _ I _ D P P'). split.
  - intros i j Hi Hj. unfold nzb. now rewrite Z1.
  - intros i j Hi Hj N. apply Z2; auto. unfold nzb in N. now destruct (eqb (mget h A i j) zero).
Qed.

(** Where being zero does not depend on the unit. *)
Section Zero.
Context (UZ : UnitsZero Op s) (D : forall y, eqb y zero = false -> den y).
(** The root-free factorisation: both return or both throw. *)
Theorem C92_modified : forall n A A' r h h', ismat h A n n -> ismat h' A' n n -> fits_u32 n = true ->
  lunits n (fun i j => r i + r j) (mget h A) (mget h' A') ->
  (exists F h1 F' h1', mod_cholesky A h = Ok F h1 /\ mod_cholesky A' h' = Ok F' h1' /\ isfac h1 F n /\ isfac h1' F' n /\
     lunits n (fun i j => r i + r j) (fac h1 F) (fac h1' F')) \/
  (exists h1 h1', mod_cholesky A h = Throw RuntimeError h1 /\ mod_cholesky A' h' = Throw RuntimeError h1').
Proof.
  intros n A A' r h h' HA HA' Hf I.
  destruct (mod_outcome T Op n A h HA Hf) as (h1 & X & N & _ & [(E & M & V)|(E & c & M)]);
    destruct (mod_outcome T Op n A' h' HA' Hf) as (h1' & X' & N' & _ & [(E' & M' & V')|(E' & c' & M')]).
  - left. do 4 eexists. split; [exact E|]. split; [exact E'|].
    split; [destruct V as (V1 & V2 & V3 & V4); repeat split; auto|]. split; [destruct V' as (V1 & V2 & V3 & V4); repeat split; auto|].
    exact (mfact_units U n r _ _ _ _ I D M M').
  - exfalso. exact (mfact_fail_units U UZ n r _ _ _ _ _ I D M M').
  - exfalso. exact (mfail_fact_units U UZ n r _ _ _ _ _ I D M M').
  - right. eauto.
Qed.
(** Incomplete LU: both return or both throw. *)
Theorem C92_ilu : forall n A A' r c h h', ismat h A n n -> ismat h' A' n n -> fits_u32 n = true ->
  munits n n (fun i j => r i + c j) (mget h A) (mget h' A') ->
  (exists F h1 F' h1', ilu_dyn A h = Ok F h1 /\ ilu_dyn A' h' = Ok F' h1' /\ ismat h1 F n n /\ ismat h1' F' n n /\
     munits n n (lu_unit r c) (mget h1 F) (mget h1' F')) \/
  (exists h1 h1', ilu_dyn A h = Throw RuntimeError h1 /\ ilu_dyn A' h' = Throw RuntimeError h1').
Proof.
  intros n A A' r c h h' HA HA' Hf I. pose proof (ilu_dyn_outcome n A h HA Hf) as P. pose proof (ilu_dyn_outcome n A' h' HA' Hf) as P'.
  unfold postx in P, P'.
  destruct (ilu_dyn A h) as [F h1|e h1| | | |]; try contradiction; destruct (ilu_dyn A' h') as [F' h1'|e' h1'| | | |]; try contradiction.
  - left. do 4 eexists. split; [reflexivity|]. split; [reflexivity|]. destruct P as ((_ & _ & V & _) & Dn), P' as ((_ & _ & V' & _) & Dn').
    split; [exact V|]. split; [exact V'|]. exact (ilu_done_units U UZ n r c _ _ _ _ I D Dn Dn').
  - exfalso. destruct P as (_ & Dn), P' as (_ & _ & f & St). exact (ilu_stop_units U UZ n r c _ _ _ _ I D Dn St).
  - exfalso. destruct P as (_ & _ & f & St), P' as (_ & Dn). exact (ilu_stop_units' U UZ n r c _ _ _ _ I D St Dn).
  - right. destruct P as (-> & _), P' as (-> & _). eauto.
Qed.
Theorem C92_ilu_csr : forall n (A A' : csr T) r c S (st : S), eqb (T := T) zero zero = true -> csr_wf A n -> csr_shape A tt = Ok (n, n) tt ->
  fits_u32 n = true -> sunits n r c A A' ->
  (exists F F', ilu_csr A st = Ok F st /\ ilu_csr A' st = Ok F' st /\ csr_wf F n /\ csr_wf F' n /\ munits n n (lu_unit r c) (cview F) (cview F')) \/
  (ilu_csr A st = Throw RuntimeError st /\ ilu_csr A' st = Throw RuntimeError st).
Proof.
  intros n A A' r c S st Z W Sh Hf SU.
  pose proof (sunits_wf n r c A A' SU W) as W'. pose proof (sunits_shape n r c A A' _ SU Sh) as Sh'.
  pose proof (cview_units n r c A A' W SU) as I.
  destruct (ilu_csr_outcome n n A S st Z W Sh (le_n n) Hf) as [(F & E & WF & _ & _ & Dn)|(F & E & WF & _ & _ & Dn)];
    destruct (ilu_csr_outcome n n A' S st Z W' Sh' (le_n n) Hf) as [(F' & E' & WF' & _ & _ & Dn')|(F' & E' & WF' & _ & _ & Dn')].
  - left. exists F, F'. do 4 (split; [assumption|]). exact (ilu_done_units U UZ n r c _ _ _ _ I D Dn Dn').
  - exfalso. exact (ilu_stop_units U UZ n r c _ _ _ _ I D Dn Dn').
  - exfalso. exact (ilu_stop_units' U UZ n r c _ _ _ _ I D Dn Dn').
  - right. auto.
Qed.
End Zero.

(** ** With roots *)
Section Root.
Context (UR : UnitsRoot Op s).
Theorem C92_norm2 : forall n x x' g h h', fits_u32 n = true -> len h x = n -> len h' x' = n -> vunits n (fun _ => g) (rd h x) (rd h' x') ->
  exists v v', norm2_d x h = Ok v h /\ norm2_d x' h' = Ok v' h' /\ s g v v'.
Proof.
  intros n x x' g h h' Hf L1 L2 I. do 2 eexists. split; [apply norm2_d_ok; now rewrite L1|]. split; [apply norm2_d_ok; now rewrite L2|].
  apply (s_sqrt UR (2 * g)); [|reflexivity]. rewrite L1, L2. apply (bsum_units U). intros i Hi.
  eapply (s_mul U); [now apply I|now apply I|lia].
Qed.
(** Two constructors that both return, the first diagonal entries being positive, return the same
    factor.  (A first pivot that is not positive goes unreported: C38.) *)
Lemma outcome_units m m' h h' h0 h0' F F' n A A' r h1 h1' : ctor_outcome m h h0 F n A -> ctor_outcome m' h' h0' F' n A' ->
  m h = Ok F h1 -> m' h' = Ok F' h1' -> ~ bad (A 0%nat 0%nat) -> ~ bad (A' 0%nat 0%nat) ->
  (forall i, (i < n)%nat -> den (fac h1 F i i)) ->
  lunits n (fun i j => r i + r j) A A' -> lunits n (fun i _ => r i) (fac h1 F) (fac h1' F').
Proof.
  intros (g & _ & Out) (g' & _ & Out') E E' B B' D I.
  assert (G : factored n A (fac h1 F)).
  { destruct Out as [[Q1 Q2]|[[(_ & _ & _ & _ & Q1 & _) Q2]|(c & _ & _ & Q2)]]; [|contradiction|congruence]. rewrite E in Q2. injection Q2 as ->. exact Q1. }
  assert (G' : factored n A' (fac h1' F')).
  { destruct Out' as [[Q1 Q2]|[[(_ & _ & _ & _ & Q1 & _) Q2]|(c & _ & _ & Q2)]]; [|contradiction|congruence]. rewrite E' in Q2. injection Q2 as ->. exact Q1. }
  exact (fact_units U UR n r _ _ _ _ I D G G').
Qed.
Theorem C92_cholesky_square_returned : forall n A A' r h h' F F' h1 h1', ismat h A n n -> ismat h' A' n n -> fits_u32 n = true ->
  lunits n (fun i j => r i + r j) (mget h A) (mget h' A') -> ~ bad (mget h A 0 0) -> ~ bad (mget h' A' 0 0) ->
  dyn_cholesky A h = Ok F h1 -> dyn_cholesky A' h' = Ok F' h1' -> (forall i, (i < n)%nat -> den (fac h1 F i i)) ->
  lunits n (fun i _ => r i) (fac h1 F) (fac h1' F').
Proof.
  intros n A A' r h h' F F' h1 h1' HA HA' Hf I B B' E E' D.
  pose proof (dyn_outcome n A h HA Hf) as O. pose proof (dyn_outcome n A' h' HA' Hf) as O'.
  assert (EF : F = mkChol n (next h) Square) by (destruct O as (g & _ & [[_ Q]|[[_ Q]|(c & _ & _ & Q)]]); congruence).
  assert (EF' : F' = mkChol n (next h') Square) by (destruct O' as (g & _ & [[_ Q]|[[_ Q]|(c & _ & _ & Q)]]); congruence).
  subst. eapply outcome_units; eauto.
Qed.
Theorem C92_cholesky_packed_returned : forall n A A' r h h' F F' h1 h1', herm_wf A n -> herm_wf A' n -> fits_u32 n = true ->
  lunits n (fun i j => r i + r j) (hmat A) (hmat A') -> ~ bad (hmat A 0 0) -> ~ bad (hmat A' 0 0) ->
  tri_cholesky A h = Ok F h1 -> tri_cholesky A' h' = Ok F' h1' -> (forall i, (i < n)%nat -> den (fac h1 F i i)) ->
  lunits n (fun i _ => r i) (fac h1 F) (fac h1' F').
Proof.
  intros n A A' r h h' F F' h1 h1' HA HA' Hf I B B' E E' D.
  pose proof (tri_outcome n A h HA Hf) as O. pose proof (tri_outcome n A' h' HA' Hf) as O'.
  assert (EF : F = mkChol n (next h) Triangle) by (destruct O as (g & _ & [[_ Q]|[[_ Q]|(c & _ & _ & Q)]]); congruence).
  assert (EF' : F' = mkChol n (next h') Triangle) by (destruct O' as (g & _ & [[_ Q]|[[_ Q]|(c & _ & _ & Q)]]); congruence).
  subst. eapply outcome_units; eauto.
Qed.

Section Tests.
Context (UZ : UnitsZero Op s) (UO : UnitsOrder Op s) (AD : forall y, den y).
(** Both find the factor, both return without one, or both throw. *)
Definition outcomes n (A A' : nat -> nat -> T) r (o o' : res (heap T) chol) : Prop :=
  (exists F h1 F' h1', o = Ok F h1 /\ o' = Ok F' h1' /\ isfac h1 F n /\ isfac h1' F' n /\
     ~ bad (A 0%nat 0%nat) /\ ~ bad (A' 0%nat 0%nat) /\ lunits n (fun i _ => r i) (fac h1 F) (fac h1' F')) \/
  (exists F h1 F' h1', o = Ok F h1 /\ o' = Ok F' h1' /\ (0 < n)%nat /\ bad (A 0%nat 0%nat) /\ bad (A' 0%nat 0%nat)) \/
  (exists h1 h1', o = Throw RuntimeError h1 /\ o' = Throw RuntimeError h1').
Lemma outcomes_units m m' h h' h0 h0' F F' n A A' r : (0 < n)%nat -> ctor_outcome m h h0 F n A -> ctor_outcome m' h' h0' F' n A' ->
  (forall g, frame (chp F) (lowpos (chmt F) n) h0 g -> isfac g F n) -> (forall g, frame (chp F') (lowpos (chmt F') n) h0' g -> isfac g F' n) ->
  lunits n (fun i j => r i + r j) A A' -> outcomes n A A' r (m h) (m' h').
Proof.
  intros Hn (g & Fr & Out) (g' & Fr' & Out') IF IF' I. specialize (IF g Fr). specialize (IF' g' Fr').
  assert (AD' : forall k f, (forall i, (i < k)%nat -> den (f i))) by auto.
  assert (P0 : forall (A L : nat -> nat -> T), factored n A L -> ~ bad (A 0%nat 0%nat)) by (intros A0 L0 Fc; apply (Fc 0%nat Hn)).
  destruct Out as [[Q1 Q2]|[[Q1 Q2]|(c & Hc & Q1 & Q2)]]; destruct Out' as [[Q1' Q2']|[[Q1' Q2']|(c' & Hc' & Q1' & Q2')]]; rewrite Q2, Q2'.
  - left. exists F, g, F', g'. do 4 (split; [auto|]). split; [eauto|]. split; [eauto|]. exact (fact_units U UR n r _ _ _ _ I (fun i _ => AD _) Q1 Q1').
  - exfalso. exact (fact_fail_units U UR UZ UO n r _ _ _ _ _ I (fun i _ => AD _) Q1 Q1').
  - exfalso. exact (fact_fail_units U UR UZ UO n r _ _ _ _ _ I (fun i _ => AD _) Q1 Q1').
  - exfalso. exact (fail_fact_units U UR UZ UO n r _ _ _ _ _ I (fun i _ => AD _) Q1 Q1').
  - right. left. exists F, g, F', g'. do 3 (split; [auto|]). split; [apply Q1|apply Q1'].
  - exfalso. pose proof (fail_units U UR UZ UO n r _ _ _ _ _ _ I (fun i _ => AD _) Q1 Q1'). lia.
  - exfalso. exact (fail_fact_units U UR UZ UO n r _ _ _ _ _ I (fun i _ => AD _) Q1 Q1').
  - exfalso. pose proof (fail_units U UR UZ UO n r _ _ _ _ _ _ I (fun i _ => AD _) Q1 Q1'). lia.
  - right. right. eauto.
Qed.
Theorem C92_cholesky_square : forall n A A' r h h', (0 < n)%nat -> ismat h A n n -> ismat h' A' n n -> fits_u32 n = true ->
  lunits n (fun i j => r i + r j) (mget h A) (mget h' A') ->
  outcomes n (mget h A) (mget h' A') r (dyn_cholesky A h) (dyn_cholesky A' h').
Proof.
  intros n A A' r h h' Hn HA HA' Hf I.
  apply (outcomes_units _ _ _ _ _ _ _ _ _ _ _ _ Hn (dyn_outcome n A h HA Hf) (dyn_outcome n A' h' HA' Hf)); [| |exact I].
  - intros g Fr. destruct (ctor_ext _ _ _ _ _ Fr eq_refl) as [X X2]. destruct HA as (_ & _ & _ & A4). destruct Fr as (N & Mm & L & _).
    repeat split; auto; [cbn [chp]; lia|]. rewrite L. unfold len. cbn [chp]. rewrite mem_halloc_same. exact A4.
  - intros g Fr. destruct (ctor_ext _ _ _ _ _ Fr eq_refl) as [X X2]. destruct HA' as (_ & _ & _ & A4). destruct Fr as (N & Mm & L & _).
    repeat split; auto; [cbn [chp]; lia|]. rewrite L. unfold len. cbn [chp]. rewrite mem_halloc_same. exact A4.
Qed.
Theorem C92_cholesky_packed : forall n A A' r h h', (0 < n)%nat -> herm_wf A n -> herm_wf A' n -> fits_u32 n = true ->
  lunits n (fun i j => r i + r j) (hmat A) (hmat A') -> outcomes n (hmat A) (hmat A') r (tri_cholesky A h) (tri_cholesky A' h').
Proof.
  intros n A A' r h h' Hn HA HA' Hf I.
  apply (outcomes_units _ _ _ _ _ _ _ _ _ _ _ _ Hn (tri_outcome n A h HA Hf) (tri_outcome n A' h' HA' Hf)); [| |exact I].
  - intros g Fr. destruct (ctor_ext _ _ _ _ _ Fr eq_refl) as [X X2]. destruct HA as (_ & A4). destruct Fr as (N & Mm & L & _).
    repeat split; auto; [cbn [chp]; lia|]. rewrite L. unfold len. cbn [chp]. rewrite mem_halloc_same. exact A4.
  - intros g Fr. destruct (ctor_ext _ _ _ _ _ Fr eq_refl) as [X X2]. destruct HA' as (_ & A4). destruct Fr as (N & Mm & L & _).
    repeat split; auto; [cbn [chp]; lia|]. rewrite L. unfold len. cbn [chp]. rewrite mem_halloc_same. exact A4.
Qed.

(** GMRES: every row in its own unit r i; the unknowns in one unit t - c, that of the tolerance.
    Both constructors throw, or both return and the solvers make the same number of steps and return
    the same vector. *)
Lemma dense_run dbg isqrt n G tol b h : isqrt_exact isqrt -> (0 < n)%nat -> fits_u32 n = true -> ismat h (fst G) n n -> ismat h (snd G) n n -> isvec h b n ->
  exists x h1, gmres_dyn_solve dbg isqrt G tol b h = Ok x h1 /\ newvec h h1 x n (rd h1 x) /\
    exists nb k Q H c f R y, gm_run n (dense_apply n (mget h (fst G))) (lu_apply n (mget h (snd G))) tol (lu_apply n (mget h (snd G)) (rd h b)) (rd h1 x) nb k Q H c f R y.
Proof.
  intros Hq Hp Hf GA GF Hb. unfold gmres_dyn_solve.
  apply (run_bits dbg isqrt (ret (mr (fst G))) (op_mulv dbg (fst G)) (ilu_dyn_solve (snd G)) n h (dense_apply n (mget h (fst G))) (lu_apply n (mget h (snd G)))); auto.
  - now apply dense_applies.
  - apply lu_applies; [exact Hf|]. intros h1 i j X. now apply mat_get_ext.
  - intros x y H t Ht. apply fsum_ext_any. intros k Hk. now rewrite H.
  - apply lu_apply_ext.
  - intros h1. unfold ret. destruct GA as (_ & -> & _). reflexivity.
Qed.
Lemma sparse_run dbg isqrt n G tol b h : isqrt_exact isqrt -> (0 < n)%nat -> fits_u32 n = true ->
  csr_wf (fst G) n -> csr_shape (fst G) tt = Ok (n, n) tt -> csr_wf (snd G) n -> isvec h b n ->
  exists x h1, gmres_csr_solve dbg isqrt G tol b h = Ok x h1 /\ newvec h h1 x n (rd h1 x) /\
    exists nb k Q H c f R y, gm_run n (row_apply (fst G)) (lu_apply n (cview (snd G))) tol (lu_apply n (cview (snd G)) (rd h b)) (rd h1 x) nb k Q H c f R y.
Proof.
  intros Hq Hp Hf WA SA WF Hb. unfold gmres_csr_solve.
  apply (run_bits dbg isqrt (sh <- csr_shape (fst G) ;; ret (fst sh)) (sp_op_mul dbg (fst G)) (ilu_csr_solve (snd G)) n h
    (row_apply (fst G)) (lu_apply n (cview (snd G)))); auto.
  - now apply row_applies.
  - apply lu_applies; [exact Hf|]. intros h1 i j _ Hi _. now apply (cview_ok (snd G) n).
  - now apply row_apply_ext.
  - apply lu_apply_ext.
  - intros h1. unfold bind. now rewrite (shape_any (fst G) h1 _ SA).
Qed.
Theorem C92_gmres : forall dbg dbg' isqrt isqrt' n A A' b b' tol tol' r c t h h', isqrt_exact isqrt -> isqrt_exact isqrt' ->
  (0 < n)%nat -> fits_u32 n = true -> ismat h A n n -> ismat h' A' n n -> isvec h b n -> isvec h' b' n ->
  munits n n (fun i _ => r i + c) (mget h A) (mget h' A') -> vunits n (fun i => r i + t) (rd h b) (rd h' b') -> s (t - c) tol tol' ->
  (exists G h1 x h2 G' h1' x' h2', gmres_dyn_new A h = Ok G h1 /\ gmres_dyn_solve dbg isqrt G tol b h1 = Ok x h2 /\
     gmres_dyn_new A' h' = Ok G' h1' /\ gmres_dyn_solve dbg' isqrt' G' tol' b' h1' = Ok x' h2' /\
     vunits n (fun _ => t - c) (rd h2 x) (rd h2' x')) \/
  (exists h1 h1', gmres_dyn_new A h = Throw RuntimeError h1 /\ gmres_dyn_new A' h' = Throw RuntimeError h1').
Proof.
  intros dbg dbg' isqrt isqrt' n A A' b b' tol tol' r c t h h' Hq Hq' Hn Hf HA HA' Hb Hb' IA Ib It.
  unfold gmres_dyn_new, bind.
  destruct (post_ok _ _ _ (copy_ok A n n h HA)) as (m & g & Ec & (X1 & P1 & V1 & R1) & _). rewrite Ec.
  destruct (post_ok _ _ _ (copy_ok A' n n h' HA')) as (m' & g' & Ec' & (X1' & P1' & V1' & R1') & _). rewrite Ec'.
  assert (HB : ismat g A n n) by (eapply ext_ismat; eauto). assert (HB' : ismat g' A' n n) by (eapply ext_ismat; eauto).
  assert (IB : munits n n (fun i _ => r i + c) (mget g A) (mget g' A')).
  { intros i j Hi Hj. replace (mget g A i j) with (mget h A i j) by (unfold mget, rd; destruct X1 as [_ ->]; [reflexivity|apply HA]).
    replace (mget g' A' i j) with (mget h' A' i j) by (unfold mget, rd; destruct X1' as [_ ->]; [reflexivity|apply HA']). now apply IA. }
  pose proof (ilu_dyn_outcome n A g HB Hf) as K. pose proof (ilu_dyn_outcome n A' g' HB' Hf) as K'.
  destruct (C92_ilu UZ (fun y _ => AD y) n A A' r (fun _ => c) g g' HB HB' Hf IB) as [(F & h1 & F' & h1' & EF & EF' & VF & VF' & IF)|(h1 & h1' & EF & EF')].
  2:{ right. exists h1, h1'. rewrite EF, EF'. auto. }
  left. unfold postx in K, K'. rewrite EF in *. rewrite EF' in *. destruct K as ((X2 & _) & _), K' as ((X2' & _) & _). unfold ret.
  assert (XX : ext h h1) by (eapply ext_trans; eauto). assert (XX' : ext h' h1') by (eapply ext_trans; eauto).
  assert (VM : ismat h1 m n n) by (eapply ext_ismat; [exact X2|exact V1]). assert (VM' : ismat h1' m' n n) by (eapply ext_ismat; [exact X2'|exact V1']).
  assert (VB : isvec h1 b n) by (eapply ext_isvec; [exact XX|exact Hb]). assert (VB' : isvec h1' b' n) by (eapply ext_isvec; [exact XX'|exact Hb']).
  destruct (dense_run dbg isqrt n (m, F) tol b h1 Hq Hn Hf VM VF VB) as (x & h2 & E & _ & nb & k & Q & H & cc & f & R & y & GR).
  destruct (dense_run dbg' isqrt' n (m', F') tol' b' h1' Hq' Hn Hf VM' VF' VB') as (x' & h2' & E' & _ & nb' & k' & Q' & H' & cc' & f' & R' & y' & GR').
  cbn [fst snd] in GR, GR'. exists (m, F), h1, x, h2, (m', F'), h1', x', h2'.
  split; [reflexivity|]. split; [exact E|]. split; [reflexivity|]. split; [exact E'|].
  assert (Em : munits n n (fun i _ => r i + c) (mget h1 m) (mget h1' m')).
  { intros i j Hi Hj. replace (mget h1 m i j) with (mget g m i j) by (unfold mget, rd; destruct X2 as [_ ->]; [reflexivity|apply V1]).
    replace (mget h1' m' i j) with (mget g' m' i j) by (unfold mget, rd; destruct X2' as [_ ->]; [reflexivity|apply V1']).
    rewrite R1, R1' by auto. now apply IA. }
  assert (Eb : vunits n (fun i => r i + t) (rd h1 b) (rd h1' b')).
  { intros i Hi. replace (rd h1 b i) with (rd h b i) by (unfold rd; destruct XX as [_ ->]; [reflexivity|apply Hb]).
    replace (rd h1' b' i) with (rd h' b' i) by (unfold rd; destruct XX' as [_ ->]; [reflexivity|apply Hb']). now apply Ib. }
  refine (proj2 (gm_run_units U UR UO AD n _ _ _ _ (t - c) tol tol' _ _ (rd h2 x) (rd h2' x') _ _ _ _ _ _ _ _ _ _ _ _ _ _ _ _ Hn _ It _ GR GR')).
  - intros v v' Iv i Hi. unfold pmv.
    apply (s_at (c - c) 0); [|lia]. apply (lu_apply_units U AD n r (fun _ => c) c); auto.
    intros j Hj. apply (dense_apply_units U n r (fun _ => c) c); auto. intros a Ha. eapply s_at; [now apply Iv|lia].
  - intros i Hi. apply (lu_apply_units U AD n r (fun _ => c) t); auto.
Qed.
Theorem C92_gmres_csr : forall dbg dbg' isqrt isqrt' n (A A' : csr T) b b' tol tol' r c t h h', isqrt_exact isqrt -> isqrt_exact isqrt' ->
  eqb (T := T) zero zero = true -> (0 < n)%nat -> fits_u32 n = true -> csr_wf A n -> csr_shape A tt = Ok (n, n) tt -> isvec h b n -> isvec h' b' n ->
  sunits n r (fun _ => c) A A' -> vunits n (fun i => r i + t) (rd h b) (rd h' b') -> s (t - c) tol tol' ->
  (exists G x h2 G' x' h2', gmres_csr_new A h = Ok G h /\ gmres_csr_solve dbg isqrt G tol b h = Ok x h2 /\
     gmres_csr_new A' h' = Ok G' h' /\ gmres_csr_solve dbg' isqrt' G' tol' b' h' = Ok x' h2' /\
     vunits n (fun _ => t - c) (rd h2 x) (rd h2' x')) \/
  (gmres_csr_new A h = Throw RuntimeError h /\ gmres_csr_new A' h' = Throw RuntimeError h').
Proof.
  intros dbg dbg' isqrt isqrt' n A A' b b' tol tol' r c t h h' Hq Hq' Z Hn Hf W Sh Hb Hb' SU Ib It.
  pose proof (sunits_wf n r _ A A' SU W) as W'. pose proof (sunits_shape n r _ A A' _ SU Sh) as Sh'.
  destruct (shape_cols A n n Sh) as [_ Hc].
  pose proof (cview_units n r _ A A' W SU) as I. unfold gmres_csr_new, bind.
  destruct (ilu_csr_outcome n n A (heap T) h Z W Sh (le_n n) Hf) as [(F & E & WF & _ & _ & Dn)|(F & E & WF & _ & _ & Dn)];
    destruct (ilu_csr_outcome n n A' (heap T) h' Z W' Sh' (le_n n) Hf) as [(F' & E' & WF' & _ & _ & Dn')|(F' & E' & WF' & _ & _ & Dn')]; rewrite E, E'.
  - left. pose proof (ilu_done_units U UZ n r _ _ _ _ _ I (fun y _ => AD y) Dn Dn') as IF. unfold ret.
    destruct (sparse_run dbg isqrt n (A, F) tol b h Hq Hn Hf W Sh WF Hb) as (x & h2 & Ex & _ & nb & k & Q & H & cc & f & R & y & GR).
    destruct (sparse_run dbg' isqrt' n (A', F') tol' b' h' Hq' Hn Hf W' Sh' WF' Hb') as (x' & h2' & Ex' & _ & nb' & k' & Q' & H' & cc' & f' & R' & y' & GR').
    cbn [fst snd] in GR, GR'. exists (A, F), x, h2, (A', F'), x', h2'.
    split; [reflexivity|]. split; [exact Ex|]. split; [reflexivity|]. split; [exact Ex'|].
    refine (proj2 (gm_run_units U UR UO AD n _ _ _ _ (t - c) tol tol' _ _ (rd h2 x) (rd h2' x') _ _ _ _ _ _ _ _ _ _ _ _ _ _ _ _ Hn _ It _ GR GR')).
    + intros v v' Iv i Hi. unfold pmv.
      apply (s_at (c - c) 0); [|lia]. apply (lu_apply_units U AD n r (fun _ => c) c); auto.
      intros j Hj. unfold row_apply. apply (s_at (0 + r j + c)); [|lia]. apply (row_units n n r (fun _ => c) c 0); auto; [apply (s_one U)| |].
      * intros a Ha. eapply s_at; [now apply Iv|lia].
      * eapply (s_mul U 0 (r j + c)); [apply (s_zero U)|apply (s_zero U)|lia].
    + intros i Hi. apply (lu_apply_units U AD n r (fun _ => c) t); auto.
  - exfalso. exact (ilu_stop_units U UZ n r _ _ _ _ _ I (fun y _ => AD y) Dn Dn').
  - exfalso. exact (ilu_stop_units' U UZ n r _ _ _ _ _ I (fun y _ => AD y) Dn Dn').
  - right. auto.
Qed.
End Tests.
End Root.
End Units.

(** ** Element types with units *)
(** Real numbers, any ratio of units. *)
Theorem C92_real : forall c, (0 < c)%R ->
  Units ROps (in_units (powerRZ c)) (fun _ => True) /\ UnitsRoot ROps (in_units (powerRZ c)) /\
  UnitsZero ROps (in_units (powerRZ c)) /\ UnitsOrder ROps (in_units (powerRZ c)).
Proof. exact real_units. Qed.
(** Rounding to [prec] digits in any radix and direction, exponents unbounded: powers of the radix. *)
Theorem C92_digits : forall (beta : radix) prec rnd, (0 < prec)%Z -> Valid_rnd rnd -> let O := RndOps (round beta (FLX_exp prec) rnd) in
  Units O (in_units (bpow beta)) (fun _ => True) /\ UnitsRoot O (in_units (bpow beta)) /\
  UnitsZero O (in_units (bpow beta)) /\ UnitsOrder O (in_units (bpow beta)).
Proof. intros beta prec rnd Hp V. exact (digits_units beta prec Hp rnd V). Qed.
(** binary64 with a flag for overflow and underflow: powers of two, where no flag is set.  The flags
    do not influence the numbers. *)
Theorem C92_binary64 : preserves FlagOps FOps fst /\ Units FlagOps flag_units (fun _ => True) /\ UnitsRoot FlagOps flag_units.
Proof. exact (conj flag_preserves flagged_units). Qed.

(** For instance, for binary64 memories h and h': *)
Local Notation flt := Coq.Floats.PrimFloat.float.
#[local] Existing Instance FlagOps.
Definition flagged (h : heap flt) : heap (flt * bool) := map_heap (fun x => (x, false)) h.
Definition scaled (k : Z) (x y : flt) : Prop := ffin x /\ ffin y /\ fval y = (bpow radix2 k * fval x)%R.
Lemma unflag h : map_heap fst (flagged h) = h.
Proof.
  destruct h as [m n]. unfold map_heap, flagged. cbn. f_equal. apply FunctionalExtensionality.functional_extensionality. intros p.
  rewrite map_map. apply map_id.
Qed.
Lemma rd_unflag (g : heap (flt * bool)) p i : rd (map_heap fst g) p i = fst (rd g p i).
Proof. unfold rd. cbn [mem map_heap]. exact (map_nth fst (mem g p) (@zero _ FlagOps) i). Qed.
Lemma rd_flagged h p i : rd (flagged h) p i = (rd h p i, false).
Proof. unfold rd. cbn [mem flagged map_heap]. exact (map_nth (fun x : flt => (x, false)) (mem h p) (@zero _ FOps) i). Qed.
Lemma flagged_vunits n p x x' h h' : vunits scaled n p (rd h x) (rd h' x') -> vunits flag_units n p (rd (flagged h) x) (rd (flagged h') x').
Proof. intros H i Hi. rewrite !rd_flagged. intros _ _. now apply H. Qed.
Lemma len_flagged h p : len (flagged h) p = len h p.
Proof. unfold len. cbn [mem flagged map_heap]. apply map_length. Qed.
Lemma flagged_ismat h A n m : ismat h A n m -> ismat (flagged h) A n m.
Proof. intros (A1 & A2 & A3 & A4). repeat split; auto. now rewrite len_flagged. Qed.
Lemma flagged_isvec h b n : isvec h b n -> isvec (flagged h) b n.
Proof. intros (A1 & A2). split; auto. now rewrite len_flagged. Qed.

(** If no flag is set, the results in binary64 are the same number in the two units. *)
Theorem C92_dot_binary64 : forall n x y x' y' p q g h h' v v' w w', fits_u32 n = true -> (0 < n)%nat ->
  len h x = n -> len h y = n -> len h' x' = n -> len h' y' = n ->
  vunits scaled n p (rd h x) (rd h' x') -> vunits scaled n q (rd h y) (rd h' y') -> (forall i, (i < n)%nat -> p i + q i = g) ->
  dot_d x y (flagged h) = Ok (v, false) w -> dot_d x' y' (flagged h') = Ok (v', false) w' ->
  dot_d x y h = Ok v h /\ dot_d x' y' h' = Ok v' h' /\ scaled g v v'.
Proof.
  intros n x y x' y' p q g h h' v v' w w' Hf Hn L1 L2 L3 L4 Ix Iy E Ev Ev'.
  destruct (C92_dot FlagOps flag_units _ (proj1 flagged_units) n x y x' y' p q g (flagged h) (flagged h') Hf Hn) as (r & r' & D & D' & I);
    rewrite ?len_flagged; auto using flagged_vunits.
  rewrite D in Ev. injection Ev as -> _. rewrite D' in Ev'. injection Ev' as -> _.
  pose proof (C89_map_dot _ _ FlagOps FOps fst flag_preserves x y (flagged h)) as M. rewrite D, unflag in M. cbn in M. rewrite unflag in M.
  pose proof (C89_map_dot _ _ FlagOps FOps fst flag_preserves x' y' (flagged h')) as M'. rewrite D', unflag in M'. cbn in M'. rewrite unflag in M'.
  split; [exact M|]. split; [exact M'|]. exact (I eq_refl eq_refl).
Qed.
(** A symmetric positive definite system in binary64, A i j in the unit r i + r j and b i in r i + t:
    factorise and solve.  If neither result carries a flag, the solutions differ by exact powers of two. *)
Theorem C92_cholesky_binary64 : forall dbg dbg' n A A' b b' r t h h' F F' h1 h1' x x' h2 h2', (0 < n)%nat -> (Z.of_nat n < 2 ^ 31)%Z ->
  ismat h A n n -> ismat h' A' n n -> isvec h b n -> isvec h' b' n ->
  lunits scaled n (fun i j => r i + r j) (mget h A) (mget h' A') -> vunits scaled n (fun i => r i + t) (rd h b) (rd h' b') ->
  eqb (mget h A 0 0) zero = false /\ ltb (mget h A 0 0) zero = false -> eqb (mget h' A' 0 0) zero = false /\ ltb (mget h' A' 0 0) zero = false ->
  dyn_cholesky A (flagged h) = Ok F h1 -> chol_solve_vec dbg F b h1 = Ok x h2 ->
  dyn_cholesky A' (flagged h') = Ok F' h1' -> chol_solve_vec dbg' F' b' h1' = Ok x' h2' ->
  (forall i, (i < n)%nat -> snd (rd h2 x i) = false) -> (forall i, (i < n)%nat -> snd (rd h2' x' i) = false) ->
  let un := map_heap fst in
  dyn_cholesky A h = Ok F (un h1) /\ chol_solve_vec dbg F b (un h1) = Ok x (un h2) /\
  dyn_cholesky A' h' = Ok F' (un h1') /\ chol_solve_vec dbg' F' b' (un h1') = Ok x' (un h2') /\
  vunits scaled n (fun i => t - r i) (rd (un h2) x) (rd (un h2') x').
Proof.
  intros dbg dbg' n A A' b b' r t h h' F F' h1 h1' x x' h2 h2' Hn Hn31 HA HA' Hb Hb' IA Ib P P' E1 E2 E1' E2' Fl Fl' un.
  assert (Hf : fits_u32 n = true) by (unfold fits_u32; apply Z.ltb_lt; lia).
  pose proof (proj1 flagged_units) as U. pose proof (proj2 flagged_units) as UR.
  assert (MF : forall g B i j, mget (flagged g) B i j = (mget g B i j, false)) by (intros; apply rd_flagged).
  assert (IA2 : lunits flag_units n (fun i j => r i + r j) (mget (flagged h) A) (mget (flagged h') A')).
  { intros i j Hi Hj. rewrite !MF. intros _ _. now apply IA. }
  assert (L : lunits flag_units n (fun i _ => r i) (fac h1 F) (fac h1' F')).
  { apply (C92_cholesky_square_returned FlagOps flag_units _ U UR n A A' r (flagged h) (flagged h') F F' h1 h1'); auto using flagged_ismat.
    - rewrite MF. destruct P as [B1 B2]. intros [B|B]; [change (eqb (mget h A 0 0) zero = true) in B|change (ltb (mget h A 0 0) zero = true) in B]; congruence.
    - rewrite MF. destruct P' as [B1 B2]. intros [B|B]; [change (eqb (mget h' A' 0 0) zero = true) in B|change (ltb (mget h' A' 0 0) zero = true) in B]; congruence. }
  assert (FF : forall g B Fc g1, ismat g B n n -> @dyn_cholesky _ FlagOps B g = Ok Fc g1 -> ext g g1 /\ isfac g1 Fc n).
  { intros g B Fc g1 HB EQ. destruct (dyn_outcome n B g HB Hf) as (g2 & Fr & Out).
    assert (EE : Fc = mkChol n (next g) Square /\ g1 = g2) by (destruct Out as [[_ Q]|[[_ Q]|(c & _ & _ & Q)]]; rewrite EQ in Q; [injection Q; auto|injection Q; auto|discriminate]).
    destruct EE as [-> ->]. destruct (ctor_ext _ _ _ _ _ Fr eq_refl) as [X X2]. split; [exact X|]. destruct HB as (_ & _ & _ & A4). destruct Fr as (N & Mm & Ln & _).
    repeat split; auto; [cbn [chp]; lia|]. rewrite Ln. unfold len. cbn [chp]. rewrite mem_halloc_same. exact A4. }
  destruct (FF _ _ _ _ (flagged_ismat h A n n HA) E1) as [X IF]. destruct (FF _ _ _ _ (flagged_ismat h' A' n n HA') E1') as [X' IF'].
  destruct (C92_cholesky_solve FlagOps flag_units _ U dbg dbg' F F' n r h1 h1' Hn31 IF IF' L (fun _ _ => I)) as (SV & _).
  assert (VB : isvec h1 b n) by (eapply ext_isvec; [exact X|now apply flagged_isvec]).
  assert (VB' : isvec h1' b' n) by (eapply ext_isvec; [exact X'|now apply flagged_isvec]).
  destruct (SV b b' t VB VB') as (y & k & y' & k' & Q & Q' & _ & _ & Iy).
  { intros i Hi. replace (rd h1 b i) with (rd (flagged h) b i) by (unfold rd; destruct X as [_ X]; rewrite X; [reflexivity|apply Hb]).
    replace (rd h1' b' i) with (rd (flagged h') b' i) by (unfold rd; destruct X' as [_ X']; rewrite X'; [reflexivity|apply Hb']).
    rewrite !rd_flagged. intros _ _. now apply Ib. }
  rewrite E2 in Q. injection Q as <- <-. rewrite E2' in Q'. injection Q' as <- <-.
  pose proof (fun B g => C89_map_cholesky _ _ FlagOps FOps fst flag_preserves B (flagged g)) as M. setoid_rewrite unflag in M.
  pose proof (fun d Fc c g => C89_map _ _ fst _ _ (fun p => p) _ _ (C89_chol_solve_vec _ _ FlagOps FOps _ (preserves_like _ _ _ _ _ flag_preserves) d Fc c) g) as N.
  split; [rewrite M, E1; reflexivity|]. split; [unfold un; rewrite N, E2; reflexivity|].
  split; [rewrite M, E1'; reflexivity|]. split; [unfold un; rewrite N, E2'; reflexivity|].
  intros i Hi. unfold un. rewrite !rd_unflag. apply Iy; auto.
Qed.

(** ** The hypotheses are met; what happens without them *)
(** A test for [scaled]. *)
Definition scaledb (k : Z) (x y : flt) : bool :=
  andb (andb (finb x) (finb y)) match Prim2SF x, Prim2SF y with
  | S754_zero _, S754_zero _ => true
  | S754_finite s1 m1 e1, S754_finite s2 m2 e2 => andb (Bool.eqb s1 s2) (andb (Pos.eqb m1 m2) (Z.eqb e2 (e1 + k)))
  | _, _ => false end.
Lemma scaledb_ok k x y : scaledb k x y = true -> scaled k x y.
Proof.
  unfold scaledb, scaled, ffin, fval. intros H. apply andb_prop in H. destruct H as [H H2]. apply andb_prop in H. destruct H as [F1 F2].
  split; [exact F1|]. split; [exact F2|]. destruct (Prim2SF x) as [s1| | |s1 m1 e1], (Prim2SF y) as [s2| | |s2 m2 e2]; try discriminate.
  - cbn. lra.
  - apply andb_prop in H2. destruct H2 as [H1 H2]. apply andb_prop in H2. destruct H2 as [H2 H3].
    apply Bool.eqb_prop in H1. apply Pos.eqb_eq in H2. apply Z.eqb_eq in H3. subst. cbn [SF2R]. unfold F2R. cbn [Fnum Fexp]. rewrite bpow_plus. ring.
Qed.
Definition forall_lt n (f : nat -> bool) : bool := forallb f (seq 0 n).
Lemma forall_lt_ok n f : forall_lt n f = true -> forall i, (i < n)%nat -> f i = true.
Proof. unfold forall_lt. rewrite forallb_forall. intros H i Hi. apply H, in_seq. lia. Qed.
Definition UH : heap flt := heap_of [[4; 1; 2; 1; 5; 3; 2; 3; 6]%float; [1; 2; 7]%float].
(** Rows and columns in the units 1, -3 and 40. *)
Definition UH' : heap flt := heap_of [[0x1p4; 0x1p-2; 0x1p42; 0x1p-2; 0x1.4p-4; 0x1.8p38; 0x1p42; 0x1.8p38; 0x1.8p82]%float;
  [0x1p1; 0x1p-2; 0x1.cp42]%float].
Definition ur (i : nat) : Z := match i with 0%nat => 1 | 1%nat => -3 | _ => 40 end.
Definition UA : mat := mkMat 0%nat 3%nat 3%nat.
Definition run_check (h h' : heap flt) : bool :=
  match dyn_cholesky UA (flagged h) with Ok F h1 => match chol_solve_vec true F 1%nat h1 with Ok x h2 =>
  match dyn_cholesky UA (flagged h') with Ok F' h1' => match chol_solve_vec true F' 1%nat h1' with Ok x' h2' =>
    forall_lt 3 (fun i => andb (andb (negb (snd (rd h2 x i))) (negb (snd (rd h2' x' i)))) (scaledb (0 - ur i) (fst (rd h2 x i)) (fst (rd h2' x' i))))
  | _ => false end | _ => false end | _ => false end | _ => false end.
Example C92_nonvacuous : ismat UH UA 3 3 /\ ismat UH' UA 3 3 /\ isvec UH 1%nat 3 /\ isvec UH' 1%nat 3 /\
  lunits scaled 3 (fun i j => ur i + ur j) (mget UH UA) (mget UH' UA) /\ vunits scaled 3 (fun i => ur i + 0) (rd UH 1%nat) (rd UH' 1%nat) /\
  (eqb (mget UH UA 0 0) zero = false /\ ltb (mget UH UA 0 0) zero = false) /\ (eqb (mget UH' UA 0 0) zero = false /\ ltb (mget UH' UA 0 0) zero = false) /\
  exists F h1 x h2 F' h1' x' h2', dyn_cholesky UA (flagged UH) = Ok F h1 /\ chol_solve_vec true F 1%nat h1 = Ok x h2 /\
    dyn_cholesky UA (flagged UH') = Ok F' h1' /\ chol_solve_vec true F' 1%nat h1' = Ok x' h2' /\
    (forall i, (i < 3)%nat -> snd (rd h2 x i) = false) /\ (forall i, (i < 3)%nat -> snd (rd h2' x' i) = false) /\
    (* computed, not deduced *) vunits scaled 3 (fun i => 0 - ur i) (fun i => fst (rd h2 x i)) (fun i => fst (rd h2' x' i)).
Proof.
  split; [repeat split; cbn; lia|]. split; [repeat split; cbn; lia|]. split; [repeat split; cbn; lia|]. split; [repeat split; cbn; lia|].
  split. { intros i j Hi Hj. apply scaledb_ok. assert (K : forall_lt 3 (fun i => forall_lt 3 (fun j => scaledb (ur i + ur j) (mget UH UA i j) (mget UH' UA i j))) = true) by (vm_compute; reflexivity).
    pose proof (forall_lt_ok _ _ K i Hi) as K1. exact (forall_lt_ok _ _ K1 j ltac:(lia)). }
  split. { intros i Hi. apply scaledb_ok. assert (K : forall_lt 3 (fun i => scaledb (ur i + 0) (rd UH 1%nat i) (rd UH' 1%nat i)) = true) by (vm_compute; reflexivity).
    exact (forall_lt_ok _ _ K i Hi). }
  split; [split; vm_compute; reflexivity|]. split; [split; vm_compute; reflexivity|].
  assert (K : run_check UH UH' = true) by (vm_compute; reflexivity). unfold run_check in K.
  destruct (dyn_cholesky UA (flagged UH)) as [F h1| | | | |]; [|discriminate K..].
  destruct (chol_solve_vec true F 1%nat h1) as [x h2| | | | |] eqn:E2; [|discriminate K..].
  destruct (dyn_cholesky UA (flagged UH')) as [F' h1'| | | | |]; [|discriminate K..].
  destruct (chol_solve_vec true F' 1%nat h1') as [x' h2'| | | | |] eqn:E2'; [|discriminate K..].
  exists F, h1, x, h2, F', h1', x', h2'. do 4 (split; [auto|]). pose proof (forall_lt_ok _ _ K) as K1. clear K. cbv beta in K1.
  split; [|split]; intros i Hi; specialize (K1 i Hi); apply andb_prop in K1; destruct K1 as [K1 K3]; apply andb_prop in K1; destruct K1 as [K1 K2].
  - now destruct (snd (rd h2 x i)).
  - now destruct (snd (rd h2' x' i)).
  - now apply scaledb_ok.
Qed.

(** In R, feet and metres: the second row of the matrix is measured in another unit. *)
Example C92_nonvacuous_real : let h := heap_of [[2; 1; 1; 3]; [1; 2]]%R in let h' := heap_of [[2; 1; 3; 9]; [1; 6]]%R in let A := mkMat 0%nat 2%nat 2%nat in
  let r := fun i => Z.of_nat i in
  ismat h A 2 2 /\ ismat h' A 2 2 /\ isvec h 1%nat 2 /\ isvec h' 1%nat 2 /\ munits (in_units (powerRZ 3)) 2 2 (fun i _ => r i + 0) (mget h A) (mget h' A) /\
  vunits (in_units (powerRZ 3)) 2 (fun i => r i + 0) (rd h 1%nat) (rd h' 1%nat) /\ in_units (powerRZ 3) (0 - 0) (1 / 10) (1 / 10).
Proof.
  cbv zeta. do 4 (split; [repeat split; cbn; lia|]). unfold in_units. split; [|split].
  - intros [|[|i]] [|[|j]] Hi Hj; try lia; unfold mget, rd; simpl; lra.
  - intros [|[|i]] Hi; try lia; unfold mget, rd; simpl; lra.
  - simpl. lra.
Qed.
(** With underflow: x and y in units 2^600 times larger. *)
Theorem C92_underflow_refuted : exists h h' v v', vunits scaled 1 (fun _ => -600) (rd h 0%nat) (rd h' 0%nat) /\ vunits scaled 1 (fun _ => -600) (rd h 1%nat) (rd h' 1%nat) /\
  dot_d 0%nat 1%nat h = Ok v h /\ dot_d 0%nat 1%nat h' = Ok v' h' /\ ~ scaled (-1200) v v' /\ v = 1%float /\ v' = 0%float.
Proof.
  exists (heap_of [[1]; [1]]%float), (heap_of [[0x1p-600]; [0x1p-600]]%float), 1%float, 0%float.
  split; [intros [|i] Hi; [apply scaledb_ok; vm_compute; reflexivity|lia]|]. split; [intros [|i] Hi; [apply scaledb_ok; vm_compute; reflexivity|lia]|].
  split; [vm_compute; reflexivity|]. split; [vm_compute; reflexivity|]. split; [|auto].
  intros (_ & _ & E). unfold fval in E. vm_compute Prim2SF in E. cbn [SF2R cond_Zopp] in E. unfold F2R in E. cbn [Fnum Fexp] in E.
  pose proof (bpow_gt_0 radix2 (-1200)). pose proof (bpow_gt_0 radix2 (-52)). assert (0 < IZR 4503599627370496)%R by lra.
  apply Rlt_not_eq in E; [exact E|]. apply Rmult_lt_0_compat; [assumption|]. apply Rmult_lt_0_compat; assumption.
Qed.
Lemma fval_at x m e : Prim2SF x = S754_finite false m e -> 0 <= e + 60 -> fval x = (IZR (Z.pos m * 2 ^ (e + 60)) * bpow radix2 (-60))%R.
Proof.
  intros E He. unfold fval. rewrite E. cbn [SF2R cond_Zopp]. unfold F2R. cbn [Fnum Fexp].
  rewrite mult_IZR. change 2 with (radix_val radix2) at 1. rewrite IZR_Zpower by exact He. rewrite Rmult_assoc, <- bpow_plus. do 2 f_equal. lia.
Qed.
(** A ratio of 3 instead of a power of two: 2^53 + 1 is rounded down, 3 * 2^53 + 3 up. *)
Theorem C92_three_refuted : exists h h' v v', (forall i, (i < 2)%nat -> fval (rd h' 0%nat i) = 3 * fval (rd h 0%nat i))%R /\ rd h' 1%nat = rd h 1%nat /\
  dot_d 0%nat 1%nat h = Ok v h /\ dot_d 0%nat 1%nat h' = Ok v' h' /\ (fval v' <> 3 * fval v)%R.
Proof.
  exists (heap_of [[1; 0x1p53]; [1; 1]]%float), (heap_of [[3; 0x1.8p54]; [1; 1]]%float), 0x1p53%float, 0x1.8000000000001p54%float.
  assert (K3 : forall x y m e m' e', Prim2SF x = S754_finite false m e -> Prim2SF y = S754_finite false m' e' -> 0 <= e + 60 -> 0 <= e' + 60 ->
    (fval y = 3 * fval x)%R <-> Z.pos m' * 2 ^ (e' + 60) = 3 * (Z.pos m * 2 ^ (e + 60))).
  { intros x y m e m' e' E E' H H'. rewrite (fval_at x m e E H), (fval_at y m' e' E' H'). rewrite <- Rmult_assoc, <- mult_IZR.
    pose proof (bpow_gt_0 radix2 (-60)). split; intros Q; [|now rewrite Q]. apply eq_IZR. apply Rmult_eq_reg_r with (2 := Rgt_not_eq _ _ H0). exact Q. }
  split; [|split; [reflexivity|split; [vm_compute; reflexivity|split; [vm_compute; reflexivity|]]]].
  - intros [|[|i]] Hi; [| |lia]; unfold rd; cbn [mem heap_of nth]; eapply K3; try (vm_compute; reflexivity); vm_compute; discriminate.
  - intros Q. eapply K3 in Q; cycle 1; [vm_compute; reflexivity|vm_compute; reflexivity|vm_compute; discriminate|vm_compute; discriminate|]. vm_compute in Q. discriminate Q.
Qed.

Print Assumptions C92_gmres.
Print Assumptions C92_gmres_csr.
Print Assumptions C92_cholesky_square.
Print Assumptions C92_ilu_csr.
Print Assumptions C92_cgs.
Print Assumptions C92_tridiagonal_matrix.
Print Assumptions C92_real.
Print Assumptions C92_digits.
Print Assumptions C92_binary64.
Print Assumptions C92_cholesky_binary64.
Print Assumptions C92_dot_binary64.
Print Assumptions C92_three_refuted.
