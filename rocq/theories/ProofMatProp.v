(** * More facts about dense matrices used by PropMat.v *)
From Coq Require Import Ring Field.
From Verif Require Import Base Scalar BaseLemmas Spec Sums ModelVec ModelMat SpecMat ProofVec ProofMat ProofMatOps.
Local Open Scope nat_scope.

(** The value last written to (i,j) by a list of writes, if any. *)
Fixpoint last_write {T} (ws : list (nat * nat * T)) (i j : nat) : option T :=
  match ws with
  | [] => None
  | (i', j', x) :: ws' =>
      match last_write ws' i j with
      | Some y => Some y
      | None => if Nat.eqb i i' && Nat.eqb j j' then Some x else None
      end
  end.

(** Performing the writes in order through [mat_put]. *)
Fixpoint put_all {T} {O : Ops T} (A : mat) (ws : list (nat * nat * T)) : M (heap T) unit :=
  match ws with
  | [] => ret tt
  | (i, j, x) :: ws' => mat_put A i j x ;; put_all A ws'
  end.

Section Any.
Context {T : Type} {O : Ops T}.
Implicit Types (h : heap T) (p q d : ptr) (A B C : mat).

Lemma get_ok A i j n m h :
  ismat h A n m -> i < n -> j < m -> mat_get A i j h = Ok (mget h A i j) h.
Proof.
  intros (H1 & H2 & H3 & H4) Hi Hj. unfold mat_get, load, mget, rd.
  rewrite (nth_error_nth' _ zero); auto. unfold len in H4. rewrite H4, H3. now apply idx_lt.
Qed.

Lemma put_ok A i j x n m h :
  ismat h A n m -> i < n -> j < m ->
  post (mat_put A i j x) h (fun _ h' =>
    setmat h h' A n m (fun i' j' => if Nat.eqb i' i && Nat.eqb j' j then x else mget h A i' j') /\ next h' = next h).
Proof.
  intros (H1 & H2 & H3 & H4) Hi Hj. unfold mat_put. pose proof (idx_lt n m i j Hi Hj) as Hij. rewrite H3.
  pstep; [lia|]. split; [|reflexivity]. split; [|split].
  - split; auto. intros q Hq Hne. now apply mem_hset_other.
  - repeat split; auto. now rewrite len_hset.
  - intros i' j' Hi' Hj'. unfold mget. rewrite H3, rd_hset by lia. rewrite Nat.eqb_refl; cbn [andb].
    destruct (Nat.eqb_spec (i' * m + j') (i * m + j)) as [E|E].
    + destruct (idx_inj m i' j' i j Hj' Hj E) as [-> ->]. now rewrite !Nat.eqb_refl.
    + destruct (Nat.eqb_spec i' i), (Nat.eqb_spec j' j); cbn [andb]; auto. subst. congruence.
Qed.

Lemma put_all_ok A n m ws : forall h,
  ismat h A n m -> (forall i j x, In (i, j, x) ws -> i < n /\ j < m) ->
  post (put_all A ws) h (fun _ h' =>
    setmat h h' A n m (fun i j => match last_write ws i j with Some x => x | None => mget h A i j end) /\
    next h' = next h).
Proof.
  induction ws as [|[[i j] x] ws IH]; intros h HA Hw; cbn [put_all last_write].
  - pstep. repeat split; try apply HA; auto.
  - pstep. destruct (Hw i j x) as [Hi Hj]; [left; auto|].
    eapply post_mono; [apply (put_ok A i j x n m h HA Hi Hj)|].
    cbv beta. intros _ h1 ((E1 & HA1 & V1) & N1).
    eapply post_mono; [apply IH; [exact HA1|intros; eapply Hw; right; eauto]|].
    cbv beta. intros _ h2 ((E2 & HA2 & V2) & N2). split; [|congruence]. split; [|split]; auto.
    + destruct E1 as [L1 F1], E2 as [L2 F2]. split; [lia|]. intros q Hq Hne. rewrite F2, F1; auto; lia.
    + intros i' j' Hi' Hj'. rewrite V2 by auto. destruct (last_write ws i' j'); auto. rewrite V1 by auto.
      destruct (Nat.eqb i' i && Nat.eqb j' j); auto.
Qed.

(** Composition of calls that create objects. *)
Lemma newmat_trans h h1 h2 B C n m n' m' f g :
  newmat h h1 B n' m' g -> newmat h1 h2 C n m f -> newmat h h2 C n m f.
Proof.
  intros (E & N & HB & V) (E' & N' & HC & V'). split; [eapply ext_trans; eauto|]. split; [destruct E; lia|]. auto.
Qed.
Lemma newmat_transv h h1 h2 v C n m n' f g :
  newvec h h1 v n' g -> newmat h1 h2 C n m f -> newmat h h2 C n m f.
Proof.
  intros (E & N & HB & V) (E' & N' & HC & V'). split; [eapply ext_trans; eauto|]. split; [destruct E; lia|]. auto.
Qed.
Lemma newvec_transm h h1 h2 B v n n' m' f g :
  newmat h h1 B n' m' g -> newvec h1 h2 v n f -> newvec h h2 v n f.
Proof.
  intros (E & N & HB & V) (E' & N' & HC & V'). split; [eapply ext_trans; eauto|]. split; [destruct E; lia|]. auto.
Qed.
Lemma newvec_trans h h1 h2 u v n n' f g :
  newvec h h1 u n' g -> newvec h1 h2 v n f -> newvec h h2 v n f.
Proof.
  intros (E & N & HB & V) (E' & N' & HC & V'). split; [eapply ext_trans; eauto|]. split; [destruct E; lia|]. auto.
Qed.
Lemma newvec_ext h h' v n f g :
  (forall i, i < n -> f i = g i) -> newvec h h' v n f -> newvec h h' v n g.
Proof. intros E (H1 & H2 & H3 & H4). repeat split; try apply H1; try apply H3; auto. intros i Hi. rewrite H4; auto. Qed.
Lemma same_mat_intro (m1 m2 : M (heap T) mat) h n m f g :
  post m1 h (fun C h' => newmat h h' C n m f) -> post m2 h (fun C h' => newmat h h' C n m g) ->
  (forall i j, i < n -> j < m -> f i j = g i j) -> same_mat m1 m2 h n m.
Proof.
  intros P1 P2 E. apply post_ok in P1, P2.
  destruct P1 as (C1 & h1 & R1 & X1 & N1 & M1 & V1), P2 as (C2 & h2 & R2 & X2 & N2 & M2 & V2).
  exists C1, h1, C2, h2. split; [auto|]. split; [auto|]. split; [auto|]. split; [auto|]. split; [auto|].
  split; [auto|]. intros i j Hi Hj. rewrite V1, V2, E; auto.
Qed.
Lemma same_vec_intro (m1 m2 : M (heap T) ptr) h n f g :
  post m1 h (fun v h' => newvec h h' v n f) -> post m2 h (fun v h' => newvec h h' v n g) ->
  (forall i, i < n -> f i = g i) -> same_vec m1 m2 h n.
Proof.
  intros P1 P2 E. apply post_ok in P1, P2.
  destruct P1 as (C1 & h1 & R1 & X1 & N1 & M1 & V1), P2 as (C2 & h2 & R2 & X2 & N2 & M2 & V2).
  exists C1, h1, C2, h2. split; [auto|]. split; [auto|]. split; [auto|]. split; [auto|]. split; [auto|].
  split; [auto|]. intros i Hi. rewrite V1, V2, E; auto.
Qed.
End Any.

Section RingFacts.
Context {T : Type} {O : Ops T} {R : IsRing T O}.
Add Ring Tring3 : (ring_th (IsRing := R)).
Implicit Types (h : heap T) (A B C : mat).
Local Open Scope sc_scope.

Lemma fsum_affine m (a : T) c (f g : nat -> T) :
  fsum m a (fun k => c * f k * g k) = c * bsum m (fun k => f k * g k) + a.
Proof.
  rewrite fsum_bsum. rewrite <- bsum_scal_l.
  rewrite (bsum_ext m (fun k => c * f k * g k) (fun k => c * (f k * g k))) by (intros; ring). ring.
Qed.

Lemma ring_plus_mul0 (a b : T) : a + zero * b = a.
Proof. ring. Qed.

Lemma op_mulm_ring dbg A B n m o h :
  fits_u32 n = true -> fits_u32 m = true -> fits_u32 o = true ->
  ismat h A n o -> ismat h B o m ->
  post (op_mulm dbg A B) h (fun C h' => newmat h h' C n m (mmmul o (mget h A) (mget h B))).
Proof.
  intros. eapply post_mono; [apply (op_mulm_ok dbg A B n m o); auto|]. cbv beta. intros C h' H'.
  eapply newmat_ext; [|exact H']. intros i j Hi Hj. cbv beta. rewrite fsum_affine. unfold mmmul. ring.
Qed.

Lemma op_mulv_ring dbg A x n m h :
  fits_u32 n = true -> fits_u32 m = true -> ismat h A n m -> isvec h x m ->
  post (op_mulv dbg A x) h (fun y h' => newvec h h' y n (mvmul m (mget h A) (rd h x))).
Proof.
  intros. eapply post_mono; [apply (op_mulv_ok dbg A x n m); auto|]. cbv beta. intros y h' H'.
  eapply newvec_ext; [|exact H']. intros i Hi. cbv beta. rewrite fsum_affine. unfold mvmul. ring.
Qed.

Lemma op_negm_ring A n m h :
  fits_u32 (n * m) = true -> ismat h A n m ->
  post (op_negm A) h (fun C h' => newmat h h' C n m (fun i j => - mget h A i j)).
Proof.
  intros. eapply post_mono; [apply (op_negm_ok A n m); auto|]. cbv beta. intros C h' H'.
  eapply newmat_ext; [|exact H']. intros i j Hi Hj. cbv beta. ring.
Qed.

End RingFacts.

Section Invert.
Context {T : Type} {O : Ops T} {F : IsField T O}.
Add Field Tfield3 : (field_th (IsField := F)).
Implicit Types (h : heap T) (A B C : mat).
Local Open Scope sc_scope.

Lemma post_put A i j x n m h (Q : unit -> heap T -> Prop) :
  ismat h A n m -> (i < n)%nat -> (j < m)%nat ->
  (forall h', setmat h h' A n m (fun i' j' => if Nat.eqb i' i && Nat.eqb j' j then x else mget h A i' j') ->
     next h' = next h -> Q tt h') -> post (mat_put A i j x) h Q.
Proof.
  intros HA Hi Hj HQ. eapply post_mono; [apply (put_ok A i j x n m h HA Hi Hj)|].
  cbv beta. intros [] h' [H1 H2]. auto.
Qed.
Lemma post_get A i j n m h (Q : T -> heap T -> Prop) :
  ismat h A n m -> (i < n)%nat -> (j < m)%nat -> Q (mget h A i j) h -> post (mat_get A i j) h Q.
Proof. intros HA Hi Hj HQ. unfold post. now rewrite (get_ok A i j n m h HA Hi Hj). Qed.

Lemma post_copy A n m h (Q : mat -> heap T -> Prop) :
  ismat h A n m -> (forall C h', newmat h h' C n m (mget h A) -> mem h' (mp C) = mem h (mp A) -> Q C h') ->
  post (mat_copy A) h Q.
Proof.
  intros HA HQ. eapply post_mono; [apply (copy_ok A n m h HA)|]. cbv beta. intros C h' [H1 H2]. auto.
Qed.

(** The four entries after inversion. *)
Definition inv_entry (a b c d : T) (i j : nat) : T :=
  (one / (a * d - b * c)) *
  (match i, j with 0%nat, 0%nat => d | 0%nat, _ => - b | _, 0%nat => - c | _, _ => a end).

Lemma inv_entry_ok (f g : nat -> nat -> T) :
  f 0%nat 0%nat * f 1%nat 1%nat - f 0%nat 1%nat * f 1%nat 0%nat <> zero ->
  (forall i j, (i < 2)%nat -> (j < 2)%nat ->
     g i j = inv_entry (f 0%nat 0%nat) (f 0%nat 1%nat) (f 1%nat 0%nat) (f 1%nat 1%nat) i j) ->
  meq 2 2 (mmmul 2 f g) Id /\ meq 2 2 (mmmul 2 g f) Id.
Proof.
  intros Hd Hg. split; intros i j Hi Hj; unfold mmmul; cbn [bsum]; rewrite !Hg by lia;
    unfold inv_entry, Id;
    destruct i as [|[|]], j as [|[|]]; try lia; cbn [Nat.eqb]; field; auto.
Qed.

Lemma setmat_step h h1 h2 B f :
  ext_but h h1 (mp B) -> setmat h1 h2 B 2 2 f -> ext_but h h2 (mp B).
Proof. intros [L1 F1] ([L2 F2] & _). split; [lia|]. intros q Hq Hne. rewrite F2, F1; auto; lia. Qed.

Lemma invert2_ok A B h :
  ismat h A 2 2 -> ismat h B 2 2 ->
  mget h A 0 0 * mget h A 1 1 - mget h A 0 1 * mget h A 1 0 <> zero ->
  post (invert2 A B) h (fun C h' =>
    ext_but h h' (mp B) /\ (next h <= mp C)%nat /\ ismat h' C 2 2 /\ ismat h' B 2 2 /\
    mem h' (mp C) = mem h' (mp B) /\
    meq 2 2 (mmmul 2 (mget h A) (mget h' B)) Id /\ meq 2 2 (mmmul 2 (mget h' B) (mget h A)) Id).
Proof.
  intros HA HB Hd. unfold invert2. pstep.
  assert (G : post
    (if negb (Nat.eqb (mp A) (mp B)) then
     m00 <- mat_get A 0 0 ;; m11 <- mat_get A 1 1 ;; m01 <- mat_get A 0 1 ;; m10 <- mat_get A 1 0 ;;
     let denom := m00 * m11 - m01 * m10 in
     x <- mat_get A 1 1 ;; mat_put B 0 0 x ;;
     x <- mat_get A 0 0 ;; mat_put B 1 1 x ;;
     x <- mat_get A 0 1 ;; mat_put B 0 1 (- x) ;;
     x <- mat_get A 1 0 ;; mat_put B 1 0 (- x) ;;
     scalem (one / denom) B
   else
     m00 <- mat_get A 0 0 ;; m11 <- mat_get A 1 1 ;; m01 <- mat_get A 0 1 ;; m10 <- mat_get A 1 0 ;;
     let denom := m00 * m11 - m01 * m10 in
     x <- mat_get B 0 0 ;; y <- mat_get B 1 1 ;; mat_put B 0 0 y ;; mat_put B 1 1 x ;;
     x <- mat_get B 0 1 ;; mat_put B 0 1 (x * (- one)) ;;
     x <- mat_get B 1 0 ;; mat_put B 1 0 (x * (- one)) ;;
     scalem (one / denom) B) h
    (fun _ h' => ext_but h h' (mp B) /\ ismat h' B 2 2 /\ (forall i j, (i < 2)%nat -> (j < 2)%nat ->
       mget h' B i j = inv_entry (mget h A 0 0) (mget h A 0 1) (mget h A 1 0) (mget h A 1 1) i j))).
  { destruct (Nat.eqb_spec (mp A) (mp B)) as [E|Ne]; cbn [negb].
    - (* aliased *)
      assert (EAB : forall h0 i j, mget h0 A i j = mget h0 B i j).
      { intros. unfold mget. destruct HA as (_ & _ & -> & _), HB as (_ & _ & -> & _). now rewrite E. }
      rewrite !EAB in *.
      do 4 (pstep; apply (post_get A _ _ 2 2); auto). cbv zeta. rewrite !EAB.
      pstep; apply (post_get B _ _ 2 2); auto. pstep; apply (post_get B _ _ 2 2); auto.
      pstep; apply (post_put B _ _ _ 2 2); auto. intros h1 (E1 & HB1 & V1) _.
      pstep; apply (post_put B _ _ _ 2 2); auto. intros h2 (E2 & HB2 & V2) _.
      pstep; apply (post_get B _ _ 2 2); auto.
      pstep; apply (post_put B _ _ _ 2 2); auto. intros h3 (E3 & HB3 & V3) _.
      pstep; apply (post_get B _ _ 2 2); auto.
      pstep; apply (post_put B _ _ _ 2 2); auto. intros h4 (E4 & HB4 & V4) _.
      eapply post_mono; [apply (scalem_ok _ B 2 2); auto|]. cbv beta. intros r h5 (-> & E5 & HB5 & V5).
      split; [|split; [auto|]].
      + destruct E1, E2, E3, E4, E5. split; [lia|]. intros q Hq Hne.
        repeat match goal with H : forall q, _ -> q <> _ -> mem _ q = _ |- _ => rewrite H by (auto; lia); clear H end. auto.
      + intros i j Hi Hj. unfold inv_entry. rewrite V5 by auto.
        destruct i as [|[|]], j as [|[|]]; try lia; rewrite ?V4, ?V3, ?V2, ?V1 by auto; cbn [Nat.eqb andb];
          rewrite ?V4, ?V3, ?V2, ?V1 by auto; cbn [Nat.eqb andb];
          try reflexivity; f_equal; rewrite ?V2, ?V1 by auto; cbn [Nat.eqb andb]; ring.
    - (* distinct *)
      do 4 (pstep; apply (post_get A _ _ 2 2); auto). cbv zeta.
      pstep; apply (post_get A _ _ 2 2); auto.
      pstep; apply (post_put B _ _ _ 2 2); auto. intros h1 (E1 & HB1 & V1) _.
      assert (G1 : ismat h1 A 2 2 /\ forall i j, mget h1 A i j = mget h A i j).
      { destruct E1 as [L1 F1], HA as (P1 & P2 & P3 & P4). unfold ismat, mget, rd, len in *. rewrite F1 by auto.
        repeat split; auto; lia. }
      destruct G1 as [HA1 R1]. pstep; apply (post_get A _ _ 2 2); auto. rewrite R1.
      pstep; apply (post_put B _ _ _ 2 2); auto. intros h2 (E2 & HB2 & V2) _.
      assert (G2 : ismat h2 A 2 2 /\ forall i j, mget h2 A i j = mget h1 A i j).
      { destruct E2 as [L1 F1], HA1 as (P1 & P2 & P3 & P4). unfold ismat, mget, rd, len in *. rewrite F1 by auto.
        repeat split; auto; lia. }
      destruct G2 as [HA2 R2]. pstep; apply (post_get A _ _ 2 2); auto. rewrite R2, R1.
      pstep; apply (post_put B _ _ _ 2 2); auto. intros h3 (E3 & HB3 & V3) _.
      assert (G3 : ismat h3 A 2 2 /\ forall i j, mget h3 A i j = mget h2 A i j).
      { destruct E3 as [L1 F1], HA2 as (P1 & P2 & P3 & P4). unfold ismat, mget, rd, len in *. rewrite F1 by auto.
        repeat split; auto; lia. }
      destruct G3 as [HA3 R3]. pstep; apply (post_get A _ _ 2 2); auto. rewrite R3, R2, R1.
      pstep; apply (post_put B _ _ _ 2 2); auto. intros h4 (E4 & HB4 & V4) _.
      eapply post_mono; [apply (scalem_ok _ B 2 2); auto|]. cbv beta. intros r h5 (-> & E5 & HB5 & V5).
      split; [|split; [auto|]].
      + destruct E1, E2, E3, E4, E5. split; [lia|]. intros q Hq Hne.
        repeat match goal with H : forall q, _ -> q <> _ -> mem _ q = _ |- _ => rewrite H by (auto; lia); clear H end. auto.
      + intros i j Hi Hj. unfold inv_entry. rewrite V5 by auto.
        destruct i as [|[|]], j as [|[|]]; try lia; rewrite ?V4, ?V3, ?V2, ?V1 by auto; cbn [Nat.eqb andb];
          reflexivity. }
  eapply post_mono; [exact G|]. clear G. cbv beta. intros _ h' (E & HB' & V).
  apply (post_copy B 2 2); auto. intros C h2 (E2 & N2 & HC & V2) Em.
  destruct E as [L1 F1], E2 as [L2 F2]. pose proof HB' as (P1 & P2 & P3 & P4).
  assert (R : forall i j, mget h2 B i j = mget h' B i j) by (intros; unfold mget, rd; now rewrite F2).
  split; [split; [lia|intros q Hq Hne; rewrite F2, F1; auto; lia]|].
  split; [lia|]. split; [auto|]. split; [repeat split; auto; [lia|unfold len in *; now rewrite F2]|].
  split; [rewrite (F2 (mp B)); auto|].
  apply inv_entry_ok; auto. intros i j Hi Hj. rewrite R. auto.
Qed.

Lemma inverted2_ok A h :
  ismat h A 2 2 ->
  mget h A 0 0 * mget h A 1 1 - mget h A 0 1 * mget h A 1 0 <> zero ->
  post (inverted2 A) h (fun C h' =>
    ext h h' /\ (next h <= mp C)%nat /\ ismat h' C 2 2 /\
    meq 2 2 (mmmul 2 (mget h A) (mget h' C)) Id /\ meq 2 2 (mmmul 2 (mget h' C) (mget h A)) Id).
Proof.
  intros HA Hd. unfold inverted2. pstep. eapply post_mono; [apply (uninit_ok 2 2)|]. cbv beta.
  intros B h1 (E1 & N1 & HB & _). pstep.
  assert (R : forall i j, mget h1 A i j = mget h A i j) by (intros; eapply ext_mget; eauto).
  eapply post_mono; [apply (invert2_ok A B h1); eauto using ext_ismat; rewrite !R; auto|]. cbv beta.
  intros C h2 ([L2 F2] & N2 & HC & HB2 & Em & I1 & I2). pstep. destruct E1 as [L1 F1].
  assert (RB : forall i j, mget h2 B i j = mget h2 C i j).
  { intros. unfold mget, rd. destruct HC as (_ & _ & -> & _), HB2 as (_ & _ & -> & _). now rewrite Em. }
  split; [split; [lia|intros q Hq; rewrite F2, F1; auto; lia]|]. split; [lia|]. split; [auto|].
  split; intros i j Hi Hj.
  - rewrite <- (I1 i j Hi Hj). apply bsum_ext. intros k _. now rewrite R, RB.
  - rewrite <- (I2 i j Hi Hj). apply bsum_ext. intros k _. now rewrite R, RB.
Qed.
End Invert.

Lemma mmmul_ext {T} {O : Ops T} o (A A' B B' : nat -> nat -> T) i j :
  (forall k, k < o -> A i k = A' i k) -> (forall k, k < o -> B k j = B' k j) ->
  mmmul o A B i j = mmmul o A' B' i j.
Proof. intros HA HB. unfold mmmul. apply bsum_ext. intros k Hk. now rewrite HA, HB. Qed.
