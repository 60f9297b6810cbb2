(** * Changes of units through the recurrences of the algorithms *)
From Coq Require Import ZArith Lia List.
From Verif Require Import Base Scalar BaseLemmas Spec Sums SpecMat ModelVec ProofVec ProofMatOps ProofChol ProofCholSolve ProofIlu
  ProofTdmaBits ProofCgs ProofGmresRun SpecUnits.
Import ListNotations.
Local Open Scope Z_scope.

Section U.
Context {T : Type} {Op : Ops T} {s : Z -> T -> T -> Prop} {den : T -> Prop} (U : Units Op s den).

Lemma s_at j k x x' : s j x x' -> j = k -> s k x x'.
Proof. now intros H <-. Qed.
Lemma s_add k x y x' y' : s k x x' -> s k y y' -> s k (add x y) (add x' y').
Proof. apply (un_add (Units := U)). Qed.
Lemma s_sub k x y x' y' : s k x x' -> s k y y' -> s k (sub x y) (sub x' y').
Proof. apply (un_sub (Units := U)). Qed.
Lemma s_mul j k g x y x' y' : s j x x' -> s k y y' -> j + k = g -> s g (mul x y) (mul x' y').
Proof. intros H1 H2 <-. now apply (un_mul (Units := U)). Qed.
Lemma s_div j k g x y x' y' : s j x x' -> s k y y' -> den y -> j - k = g -> s g (div x y) (div x' y').
Proof. intros H1 H2 D <-. now apply (un_div (Units := U)). Qed.
Lemma s_opp k x x' : s k x x' -> s k (opp x) (opp x').
Proof. apply (un_opp (Units := U)). Qed.
Lemma s_zero k : s k zero zero.
Proof. apply (un_zero (Units := U)). Qed.
Lemma s_one : s 0 one one.
Proof. apply (un_one (Units := U)). Qed.
Lemma s_pow2 j k x x' : s j x x' -> 2 * j = k -> s k (pow2 x) (pow2 x').
Proof. intros H <-. now apply (un_pow2 (Units := U)). Qed.

(** ** Sums *)
Lemma lsum_units g f f' n : (forall i, (i <= n)%nat -> s g (f i) (f' i)) -> s g (lsum f n) (lsum f' n).
Proof. induction n as [|n IH]; intros H; cbn; [apply H; lia|]. apply s_add; [apply IH; intros; apply H; lia|apply H; lia]. Qed.
Lemma bsum_units g f f' n : (forall i, (i < n)%nat -> s g (f i) (f' i)) -> s g (bsum n f) (bsum n f').
Proof. induction n as [|n IH]; intros H; cbn; [apply s_zero|]. apply s_add; [apply IH; intros; apply H; lia|apply H; lia]. Qed.
Lemma fsum_units g a a' f f' n : s g a a' -> (forall i, (i < n)%nat -> s g (f i) (f' i)) -> s g (fsum n a f) (fsum n a' f').
Proof. intros Ha. induction n as [|n IH]; intros H; cbn; [exact Ha|]. apply s_add; [apply IH; intros; apply H; lia|apply H; lia]. Qed.
Lemma ssub_units g a a' f f' n : s g a a' -> (forall i, (i < n)%nat -> s g (f i) (f' i)) -> s g (ssub n a f) (ssub n a' f').
Proof. intros Ha. induction n as [|n IH]; intros H; cbn; [exact Ha|]. apply s_sub; [apply IH; intros; apply H; lia|apply H; lia]. Qed.
Lemma cdot_units n p q g x x' y y' : (0 < n)%nat -> vunits s n p x x' -> vunits s n q y y' ->
  (forall i, (i < n)%nat -> p i + q i = g) -> s g (cdot n x y) (cdot n x' y').
Proof. intros Hn Hx Hy E. apply lsum_units. intros i Hi. eapply s_mul; [apply Hx; lia|apply Hy; lia|apply E; lia]. Qed.

(** ** Substitution *)
(** L y = b, divided by the diagonal. *)
Lemma fwd_units n r t (L L' : nat -> nat -> T) b b' Y Y' :
  lunits s n (fun i _ => r i) L L' -> vunits s n (fun i => r i + t) b b' -> (forall i, (i < n)%nat -> den (L i i)) ->
  (forall i, (i < n)%nat -> fwd L b Y i) -> (forall i, (i < n)%nat -> fwd L' b' Y' i) -> vunits s n (fun _ => t) Y Y'.
Proof.
  intros HL Hb D H H' i. induction i as [i IH] using lt_wf_ind. intros Hi. rewrite (H i Hi), (H' i Hi).
  eapply s_div; [apply ssub_units; [apply (Hb i Hi)|]|apply (HL i i Hi); lia|now apply D|].
  - intros j Hj. eapply s_mul; [apply (HL i j Hi); lia|apply IH; lia|lia].
  - lia.
Qed.
(** The transposed system. *)
Lemma bwd_units n r t (L L' : nat -> nat -> T) Y Y' X X' :
  lunits s n (fun i _ => r i) L L' -> vunits s n (fun _ => t) Y Y' -> (forall i, (i < n)%nat -> den (L i i)) ->
  (forall i, (i < n)%nat -> bwd n L Y X i) -> (forall i, (i < n)%nat -> bwd n L' Y' X' i) -> vunits s n (fun i => t - r i) X X'.
Proof.
  intros HL Hb D H H'. cut (forall m i, (i < n)%nat -> (n - S i < m)%nat -> s (t - r i) (X i) (X' i)).
  { intros C i Hi. apply (C n); lia. }
  induction m as [|m IH]; intros i Hi Hm; [lia|]. rewrite (H i Hi), (H' i Hi).
  eapply s_div; [apply ssub_units; [apply (Hb i Hi)|]|apply (HL i i Hi); lia|now apply D|].
  - intros j Hj. eapply s_mul; [apply (HL (S i + j)%nat i); lia|apply IH; lia|lia].
  - lia.
Qed.
Lemma subst_units n r t (L L' : nat -> nat -> T) b b' X X' :
  lunits s n (fun i _ => r i) L L' -> vunits s n (fun i => r i + t) b b' -> (forall i, (i < n)%nat -> den (L i i)) ->
  substituted n L b X -> substituted n L' b' X' -> vunits s n (fun i => t - r i) X X'.
Proof. intros HL Hb D (Y & H1 & H2) (Y' & H1' & H2'). eapply bwd_units; eauto. eapply fwd_units; eauto. Qed.
(** The root-free form. *)
Lemma usubst_units n r t (L L' : nat -> nat -> T) b b' X X' :
  lunits s n (fun i j => r i + r j) L L' -> vunits s n (fun i => r i + t) b b' -> (forall i, (i < n)%nat -> den (L i i)) ->
  usubstituted n L b X -> usubstituted n L' b' X' -> vunits s n (fun i => t - r i) X X'.
Proof.
  intros HL Hb D (Y & H1 & H2) (Y' & H1' & H2').
  assert (HY : vunits s n (fun i => r i + t) Y Y').
  { intros i. induction i as [i IH] using lt_wf_ind. intros Hi. rewrite (H1 i Hi), (H1' i Hi).
    apply ssub_units; [now apply Hb|]. intros j Hj.
    eapply s_mul; [eapply s_div; [apply (HL i j Hi); lia|apply (HL j j); lia|apply D; lia|reflexivity]|apply IH; lia|lia]. }
  cut (forall m i, (i < n)%nat -> (n - S i < m)%nat -> s (t - r i) (X i) (X' i)).
  { intros C i Hi. apply (C n); lia. }
  induction m as [|m IH]; intros i Hi Hm; [lia|]. rewrite (H2 i Hi), (H2' i Hi).
  eapply s_div; [apply ssub_units; [apply (HY i Hi)|]|apply (HL i i Hi); lia|now apply D|].
  - intros j Hj. eapply s_mul; [apply (HL (S i + j)%nat i); lia|apply IH; lia|lia].
  - lia.
Qed.
(** The two triangles of an incomplete LU decomposition in one matrix. *)
Definition lu_unit (r c : nat -> Z) (i j : nat) : Z := if Nat.ltb j i then r i - r j else r i + c j.
Lemma ilu_bwd_units n r c t (F F' : nat -> nat -> T) y y' x x' :
  (forall i j, (i <= j)%nat -> (j < n)%nat -> s (r i + c j) (F i j) (F' i j)) -> vunits s n (fun i => r i + t) y y' ->
  (forall i, (i < n)%nat -> den (F i i)) ->
  (forall i, (i < n)%nat -> ilu_bwd n F y x i) -> (forall i, (i < n)%nat -> ilu_bwd n F' y' x' i) -> vunits s n (fun i => t - c i) x x'.
Proof.
  intros HF Hy D H H'. cut (forall m i, (i < n)%nat -> (n - S i < m)%nat -> s (t - c i) (x i) (x' i)).
  { intros C i Hi. apply (C n); lia. }
  induction m as [|m IH]; intros i Hi Hm; [lia|]. rewrite (H i Hi), (H' i Hi).
  eapply s_div; [apply ssub_units; [apply (Hy i Hi)|]|apply (HF i i); lia|now apply D|].
  - intros j Hj. eapply s_mul; [apply (HF i (S i + j)%nat); lia|apply IH; lia|lia].
  - lia.
Qed.
Lemma ilu_fwd_units n r c t (F F' : nat -> nat -> T) b b' y y' :
  munits s n n (lu_unit r c) F F' -> vunits s n (fun i => r i + t) b b' ->
  (forall i, (i < n)%nat -> ilu_fwd F b y i) -> (forall i, (i < n)%nat -> ilu_fwd F' b' y' i) -> vunits s n (fun i => r i + t) y y'.
Proof.
  intros HF Hb H H' i. induction i as [i IH] using lt_wf_ind. intros Hi. rewrite (H i Hi), (H' i Hi).
  apply ssub_units; [now apply Hb|]. intros j Hj. eapply s_mul; [apply (HF i j); lia|apply IH; lia|].
  unfold lu_unit. destruct (Nat.ltb_spec j i); lia.
Qed.
Lemma ilu_upper n r c (F F' : nat -> nat -> T) : munits s n n (lu_unit r c) F F' ->
  forall i j, (i <= j)%nat -> (j < n)%nat -> s (r i + c j) (F i j) (F' i j).
Proof. intros HF i j Hi Hj. eapply s_at; [apply HF; lia|]. unfold lu_unit. destruct (Nat.ltb_spec j i); lia. Qed.
Lemma ilu_solved_units n r c t (F F' : nat -> nat -> T) b b' x x' :
  munits s n n (lu_unit r c) F F' -> vunits s n (fun i => r i + t) b b' -> (forall i, (i < n)%nat -> den (F i i)) ->
  ilu_solved n F b x -> ilu_solved n F' b' x' -> vunits s n (fun i => t - c i) x x'.
Proof.
  intros HF Hb D (y & H1 & H2) (y' & H1' & H2'). apply (ilu_bwd_units n r c t F F' y y'); auto; [now apply ilu_upper|].
  apply (ilu_fwd_units n r c t F F' b b'); auto.
Qed.

(** ** Tridiagonal systems *)
Lemma swept_units n r c t dl d du dl' d' du' b b' x x' : (0 < n)%nat ->
  vunits s n (fun i => r i + c i) d d' -> vunits s (n - 1) (fun i => r (S i) + c i) dl dl' ->
  vunits s (n - 1) (fun i => r i + c (S i)) du du' -> vunits s n (fun i => r i + t) b b' ->
  (den (d 0%nat) /\ forall i, (S i < n)%nat -> den (add (d (S i)) (mul (dl i) (fst (sweep dl d du b i))))) ->
  swept n dl d du b x -> swept n dl' d' du' b' x' -> vunits s n (fun i => t - c i) x x'.
Proof.
  intros Hn Hd Hl Hu Hb [D0 D] [E1 E2] [E1' E2'].
  assert (P : forall i, (i < n)%nat ->
    ((i < n - 1)%nat -> s (c (S i) - c i) (fst (sweep dl d du b i)) (fst (sweep dl' d' du' b' i))) /\
    s (t - c i) (snd (sweep dl d du b i)) (snd (sweep dl' d' du' b' i))).
  { induction i as [|i IH]; intros Hi; cbn [sweep fst snd].
    - split; [intros Hi1|].
      + eapply s_div; [apply s_opp; apply (Hu 0%nat); lia|now apply Hd|exact D0|lia].
      + eapply s_div; [now apply Hb|now apply Hd|exact D0|lia].
    - destruct (IH ltac:(lia)) as [IH1 IH2]. specialize (IH1 ltac:(lia)).
      assert (HD : s (r (S i) + c (S i)) (add (d (S i)) (mul (dl i) (fst (sweep dl d du b i)))) (add (d' (S i)) (mul (dl' i) (fst (sweep dl' d' du' b' i))))).
      { apply s_add; [now apply Hd|]. eapply s_mul; [apply (Hl i); lia|exact IH1|lia]. }
      split; [intros Hi1|].
      + eapply s_div; [apply s_opp; apply (Hu (S i)); lia|exact HD|now apply D|lia].
      + eapply s_div; [apply s_sub; [now apply Hb|eapply s_mul; [apply (Hl i); lia|exact IH2|lia]]|exact HD|now apply D|lia]. }
  cut (forall m i, (i < n)%nat -> (n - S i < m)%nat -> s (t - c i) (x i) (x' i)).
  { intros C i Hi. apply (C n); lia. }
  induction m as [|m IH]; intros i Hi Hm; [lia|]. destruct (P i Hi) as [P1 P2].
  destruct (Nat.eq_dec i (n - 1)) as [->|].
  - now rewrite E1, E1'.
  - rewrite E2, E2' by lia. apply s_add; [|exact P2]. eapply s_mul; [apply P1; lia|apply IH; lia|lia].
Qed.

(** ** Orthogonalisation *)
Lemma gacc_units n (p : nat -> Z) g w w' v v' k i : (0 < n)%nat -> (i < n)%nat ->
  (forall a, (a < k)%nat -> vunits s n (fun _ => p a) (w a) (w' a)) -> vunits s n (fun _ => g) v v' ->
  (forall a, (a < k)%nat -> den (cdot n (w a) (w a))) -> s g (gacc n w v k i) (gacc n w' v' k i).
Proof.
  intros Hn Hi Hw Hv D. induction k as [|k IH]; cbn [gacc]; [now apply Hv|].
  apply s_add; [|apply IH; intros; [apply Hw|apply D]; lia].
  eapply s_mul; [|apply (Hw k); lia|].
  - eapply s_div; [apply s_opp; eapply (cdot_units n (fun _ => p k) (fun _ => g)); eauto|eapply (cdot_units n (fun _ => p k) (fun _ => p k)); eauto|now apply D; lia|reflexivity].
  - lia.
Qed.

(** ** Root-free Cholesky *)
Lemma mrec_units n r (A A' L L' : nat -> nat -> T) k : (k <= n)%nat -> lunits s n (fun i j => r i + r j) A A' ->
  (forall i, (i < k)%nat -> den (L i i)) ->
  (forall i j, (i < k)%nat -> (j <= i)%nat -> mrec A L i j) -> (forall i j, (i < k)%nat -> (j <= i)%nat -> mrec A' L' i j) ->
  lunits s k (fun i j => r i + r j) L L'.
Proof.
  intros Hk HA D H H'. intros i. induction i as [i IHi] using lt_wf_ind. intros j Hi.
  induction j as [j IHj] using lt_wf_ind. intros Hj. rewrite (H i j Hi Hj), (H' i j Hi Hj).
  apply ssub_units; [apply HA; lia|]. intros a Ha. eapply s_div; [eapply s_mul; [apply IHj; lia| |reflexivity]| |apply D; lia|].
  - destruct (Nat.eq_dec j i) as [->|]; [apply IHj; lia|apply IHi; lia].
  - apply (IHi a); lia.
  - lia.
Qed.

(** ** Incomplete LU *)
(** The zeros of two matrices are in the same places; they are the same in all units. *)
Definition same_zeros n (A A' : nat -> nat -> T) : Prop :=
  (forall i j, (i < n)%nat -> (j < n)%nat -> nzb (A' i j) = nzb (A i j)) /\
  (forall i j, (i < n)%nat -> (j < n)%nat -> nzb (A i j) = false -> forall k, s k (A i j) (A' i j)).
(** Incomplete LU: row i, given the rows above it. *)
Lemma lrec_units n r c (A A' F F' : nat -> nat -> T) i : (i < n)%nat -> munits s n n (fun i j => r i + c j) A A' -> same_zeros n A A' ->
  (forall y, eqb y zero = false -> den y) ->
  (forall k j, (k < i)%nat -> (j < n)%nat -> s (lu_unit r c k j) (F k j) (F' k j)) ->
  forall m, (m <= i)%nat -> (forall j, (j < m)%nat -> lrec A F i j) -> (forall j, (j < m)%nat -> lrec A' F' i j) ->
  forall j, (j < m)%nat -> s (r i - r j) (F i j) (F' i j).
Proof.
  intros Hi HA [HP HZ] D Hup m Hm H H' j. induction j as [j IH] using lt_wf_ind. intros Hj.
  pose proof (H j Hj) as HL. pose proof (H' j Hj) as HL'. unfold lrec in *. pose proof (HA i j Hi ltac:(lia)) as Ha.
  rewrite (HP i j Hi ltac:(lia)) in HL'. destruct (nzb (A i j)) eqn:N.
  - destruct HL as [P ->], HL' as [P' ->]. eapply s_div; [apply ssub_units; [exact Ha|]| | |].
    + intros k Hk. eapply s_mul; [apply IH; lia|apply Hup; lia|]. unfold lu_unit. destruct (Nat.ltb_spec j k); lia.
    + apply (Hup j j); lia.
    + apply D. unfold nzb in P. now destruct (eqb (F j j) zero).
    + unfold lu_unit. rewrite Nat.ltb_irrefl. lia.
  - rewrite HL, HL'. apply HZ; auto. lia.
Qed.
Lemma ilu_rows_pat n r c (A A' F F' : nat -> nat -> T) m : (m <= n)%nat -> munits s n n (fun i j => r i + c j) A A' -> same_zeros n A A' ->
  (forall y, eqb y zero = false -> den y) ->
  (forall i, (i < m)%nat -> ilurow n A F i) -> (forall i, (i < m)%nat -> ilurow n A' F' i) -> munits s m n (lu_unit r c) F F'.
Proof.
  intros Hm HA SZ D H H' i. pose proof (proj1 SZ) as HP. induction i as [i IH] using lt_wf_ind. intros j Hi Hj.
  destruct (H i Hi) as [HL HU]. destruct (H' i Hi) as [HL' HU'].
  assert (L : forall j, (j < i)%nat -> s (r i - r j) (F i j) (F' i j)).
  { apply (lrec_units n r c A A' F F' i); auto; [lia|]. intros k j' Hk Hj'. apply IH; lia. }
  unfold lu_unit. destruct (Nat.ltb_spec j i) as [Hlt|Hge]; [now apply L|].
  specialize (HU j Hge Hj). specialize (HU' j Hge Hj). unfold urec in *. pose proof (HA i j ltac:(lia) Hj) as Ha.
  rewrite (HP i j ltac:(lia) Hj) in HU'. destruct (nzb (A i j)) eqn:N.
  - rewrite HU, HU'. apply ssub_units; [exact Ha|]. intros k Hk. eapply s_mul; [apply L; lia|apply IH; lia|].
    unfold lu_unit. destruct (Nat.ltb_spec j k); lia.
  - rewrite HU, HU'. exact Ha.
Qed.
Lemma ilu_done_pat n r c (A A' F F' : nat -> nat -> T) : munits s n n (fun i j => r i + c j) A A' -> same_zeros n A A' ->
  (forall y, eqb y zero = false -> den y) -> ilu_done n n A F -> ilu_done n n A' F' -> munits s n n (lu_unit r c) F F'.
Proof. intros HA SZ D H H'. apply (ilu_rows_pat n r c A A'); auto. Qed.

(** ** With tests for zero *)
Section Zero.
Context (UZ : UnitsZero Op s).
Lemma nzb_units k x x' : s k x x' -> nzb x' = nzb x.
Proof. intros H. unfold nzb. now rewrite (un_eqb (UnitsZero := UZ) k x x' H). Qed.

Lemma mfact_units n r (A A' L L' : nat -> nat -> T) : lunits s n (fun i j => r i + r j) A A' ->
  (forall y, eqb y zero = false -> den y) -> mfactored n A L -> mfactored n A' L' -> lunits s n (fun i j => r i + r j) L L'.
Proof.
  intros HA D H H'. apply (mrec_units n r A A'); auto.
  - intros i Hi. apply D. now apply H.
  - intros i j Hi. now apply H.
  - intros i j Hi. now apply H'.
Qed.
Lemma mfact_fail_units n r (A A' L L' : nat -> nat -> T) k : lunits s n (fun i j => r i + r j) A A' ->
  (forall y, eqb y zero = false -> den y) -> mfactored n A L -> mfailed n A' L' k -> False.
Proof.
  intros HA D H (Hk & H1 & H2 & H3).
  assert (HL : lunits s (S k) (fun i j => r i + r j) L L').
  { apply (mrec_units n r A A'); [lia|exact HA| | |].
    - intros i Hi. apply D. apply H. lia.
    - intros i j Hi. apply H. lia.
    - intros i j Hi Hj. destruct (Nat.eq_dec i k) as [->|]; [now apply H2|apply H1; lia]. }
  pose proof (un_eqb (UnitsZero := UZ) _ _ _ (HL k k ltac:(lia) ltac:(lia))) as E. destruct (H k Hk) as [_ N]. congruence.
Qed.
Lemma mfail_fact_units n r (A A' L L' : nat -> nat -> T) k : lunits s n (fun i j => r i + r j) A A' ->
  (forall y, eqb y zero = false -> den y) -> mfailed n A L k -> mfactored n A' L' -> False.
Proof.
  intros HA D (Hk & H1 & H2 & H3) H'.
  assert (HL : lunits s k (fun i j => r i + r j) L L').
  { apply (mrec_units n r A A'); [lia|exact HA| | |].
    - intros i Hi. apply D. now apply H1.
    - intros i j Hi. now apply H1.
    - intros i j Hi. apply H'. lia. }
  assert (HK : forall j, (j <= k)%nat -> s (r k + r j) (L k j) (L' k j)).
  { intros j. induction j as [j IH] using lt_wf_ind. intros Hj. rewrite (H2 j Hj), (proj1 (H' k Hk) j Hj).
    apply ssub_units; [apply HA; lia|]. intros a Ha. eapply s_div; [eapply s_mul; [apply IH; lia| |reflexivity]| | |].
    - destruct (Nat.eq_dec j k) as [->|]; [apply IH; lia|apply HL; lia].
    - apply (HL a); lia.
    - apply D. apply H1. lia.
    - lia. }
  pose proof (un_eqb (UnitsZero := UZ) _ _ _ (HK k (le_n k))) as E. destruct (H' k Hk) as [_ N]. congruence.
Qed.

(** The zeros of the matrix are in the same places and have any unit. *)
Lemma zeros_units n (q : nat -> nat -> Z) (A A' : nat -> nat -> T) : munits s n n q A A' -> same_zeros n A A'.
Proof.
  intros H. split; [intros i j Hi Hj; eapply nzb_units; eauto|]. intros i j Hi Hj N k.
  eapply (un_any (UnitsZero := UZ)); [now apply H|]. unfold nzb in N. now destruct (eqb (A i j) zero).
Qed.
Lemma ilu_rows_units n r c (A A' F F' : nat -> nat -> T) m : (m <= n)%nat -> munits s n n (fun i j => r i + c j) A A' ->
  (forall y, eqb y zero = false -> den y) ->
  (forall i, (i < m)%nat -> ilurow n A F i) -> (forall i, (i < m)%nat -> ilurow n A' F' i) -> munits s m n (lu_unit r c) F F'.
Proof. intros Hm HA. apply ilu_rows_pat; auto. eapply zeros_units; eauto. Qed.
Lemma ilu_done_units n r c (A A' F F' : nat -> nat -> T) : munits s n n (fun i j => r i + c j) A A' ->
  (forall y, eqb y zero = false -> den y) -> ilu_done n n A F -> ilu_done n n A' F' -> munits s n n (lu_unit r c) F F'.
Proof. intros HA D H H'. apply (ilu_rows_units n r c A A'); auto. Qed.
(** The decomposition stops in both units or in none. *)
Lemma ilu_stop_units n r c (A A' F F' : nat -> nat -> T) : munits s n n (fun i j => r i + c j) A A' ->
  (forall y, eqb y zero = false -> den y) -> ilu_done n n A F -> ilu_stop n n A' F' -> False.
Proof.
  intros HA D H (i & j & Hj & Hi & R & L & N & P).
  assert (HF : munits s i n (lu_unit r c) F F') by (apply (ilu_rows_units n r c A A'); auto; [lia|intros k Hk; apply H; lia]).
  destruct (H i Hi) as [HL _]. specialize (HL j Hj). unfold lrec in HL.
  rewrite (nzb_units _ _ _ (HA i j Hi ltac:(lia))) in N. rewrite N in HL. destruct HL as [HL _].
  rewrite (nzb_units _ _ _ (HF j j ltac:(lia) ltac:(lia))) in P. congruence.
Qed.
Lemma ilu_stop_units' n r c (A A' F F' : nat -> nat -> T) : munits s n n (fun i j => r i + c j) A A' ->
  (forall y, eqb y zero = false -> den y) -> ilu_stop n n A F -> ilu_done n n A' F' -> False.
Proof.
  intros HA D (i & j & Hj & Hi & R & L & N & P) H'.
  assert (HF : munits s i n (lu_unit r c) F F') by (apply (ilu_rows_units n r c A A'); auto; [lia|intros k Hk; apply H'; lia]).
  destruct (H' i Hi) as [HL _]. specialize (HL j Hj). unfold lrec in HL.
  rewrite (nzb_units _ _ _ (HA i j Hi ltac:(lia))) in HL. rewrite N in HL. destruct HL as [HL _].
  rewrite (nzb_units _ _ _ (HF j j ltac:(lia) ltac:(lia))) in HL. congruence.
Qed.
End Zero.

(** ** With roots: Cholesky *)
Section Root.
Context (UR : UnitsRoot Op s).
Lemma s_sqrt j k x x' : s j x x' -> j = 2 * k -> s k (sqrt_ x) (sqrt_ x').
Proof. intros H ->. now apply (un_sqrt (UnitsRoot := UR)). Qed.
Lemma s_abs k x x' : s k x x' -> s k (abs_ x) (abs_ x').
Proof. apply (un_abs (UnitsRoot := UR)). Qed.

(** A row, given the rows above it. *)
Lemma offrec_units n r (A A' L L' : nat -> nat -> T) i : (i < n)%nat -> lunits s n (fun i j => r i + r j) A A' ->
  (forall j, (j < i)%nat -> den (L j j)) -> (forall k j, (k < i)%nat -> (j <= k)%nat -> s (r k) (L k j) (L' k j)) ->
  (forall j, (j < i)%nat -> offrec A L i j) -> (forall j, (j < i)%nat -> offrec A' L' i j) ->
  forall j, (j < i)%nat -> s (r i) (L i j) (L' i j).
Proof.
  intros Hi HA D Hup H H' j. induction j as [j IH] using lt_wf_ind. intros Hj. rewrite (H j Hj), (H' j Hj).
  eapply s_div; [apply ssub_units; [apply HA; lia|]|apply (Hup j j); lia|now apply D|lia].
  intros k Hk. eapply s_mul; [apply IH; lia|apply Hup; lia|reflexivity].
Qed.
Lemma pivot_units n r (A A' L L' : nat -> nat -> T) i : (i < n)%nat -> lunits s n (fun i j => r i + r j) A A' ->
  (forall j, (j < i)%nat -> s (r i) (L i j) (L' i j)) -> s (2 * r i) (pivot A L i) (pivot A' L' i).
Proof.
  intros Hi HA H. apply ssub_units; [eapply s_at; [apply HA; lia|lia]|]. intros k Hk. eapply s_pow2; [now apply H|reflexivity].
Qed.
Lemma rows_units n r (A A' L L' : nat -> nat -> T) m : (m <= n)%nat -> lunits s n (fun i j => r i + r j) A A' ->
  (forall i, (i < m)%nat -> den (L i i)) -> (forall i, (i < m)%nat -> rowrec A L i) -> (forall i, (i < m)%nat -> rowrec A' L' i) ->
  lunits s m (fun i _ => r i) L L'.
Proof.
  intros Hm HA D H H' i. induction i as [i IH] using lt_wf_ind. intros j Hi Hj.
  destruct (H i Hi) as [Ho [_ Hd]]. destruct (H' i Hi) as [Ho' [_ Hd']].
  assert (L0 : forall j, (j < i)%nat -> s (r i) (L i j) (L' i j)).
  { apply (offrec_units n r A A'); auto; [lia|intros; apply D; lia|]. intros k j' Hk Hj'. apply IH; lia. }
  destruct (Nat.eq_dec j i) as [->|]; [|apply L0; lia]. rewrite Hd, Hd'. eapply s_sqrt; [|reflexivity].
  apply (pivot_units n r A A'); auto. lia.
Qed.
Lemma fact_units n r (A A' L L' : nat -> nat -> T) : lunits s n (fun i j => r i + r j) A A' -> (forall i, (i < n)%nat -> den (L i i)) ->
  factored n A L -> factored n A' L' -> lunits s n (fun i _ => r i) L L'.
Proof. intros HA D H H'. apply (rows_units n r A A'); auto. Qed.

Section Tests.
Context (UZ : UnitsZero Op s) (UO : UnitsOrder Op s).
Lemma bad_units k x x' : s k x x' -> bad x' <-> bad x.
Proof.
  intros H. unfold bad. rewrite (un_eqb (UnitsZero := UZ) k x x' H), (un_ltb (UnitsOrder := UO) k x zero x' zero H (s_zero k)). tauto.
Qed.
(** Both fail at the same column, or none. *)
Lemma pivots_units n r (A A' L L' : nat -> nat -> T) m : (m < n)%nat -> lunits s n (fun i j => r i + r j) A A' ->
  (forall i, (i < m)%nat -> den (L i i)) -> (forall i, (i < m)%nat -> rowrec A L i) -> (forall i, (i < m)%nat -> rowrec A' L' i) ->
  (forall j, (j < m)%nat -> offrec A L m j) -> (forall j, (j < m)%nat -> offrec A' L' m j) ->
  bad (pivot A' L' m) <-> bad (pivot A L m).
Proof.
  intros Hm HA D H H' Ho Ho'. apply (bad_units (2 * r m)). apply (pivot_units n r A A'); auto.
  apply (offrec_units n r A A'); auto. intros k j Hk Hj. apply (rows_units n r A A' L L' m); auto. lia.
Qed.
Lemma fact_fail_units n r (A A' L L' : nat -> nat -> T) k : lunits s n (fun i j => r i + r j) A A' ->
  (forall i, (i < n)%nat -> den (L i i)) -> factored n A L -> failed n A' L' k -> False.
Proof.
  intros HA D H (Hk & H1 & H2 & _ & B & _). destruct (H k Hk) as [Ho [N _]]. apply N.
  apply (pivots_units n r A A' L L' k Hk HA); auto; intros; [apply D|apply H]; lia.
Qed.
Lemma fail_fact_units n r (A A' L L' : nat -> nat -> T) k : lunits s n (fun i j => r i + r j) A A' ->
  (forall i, (i < k)%nat -> den (L i i)) -> failed n A L k -> factored n A' L' -> False.
Proof.
  intros HA D (Hk & H1 & H2 & _ & B & _) H'. destruct (H' k Hk) as [Ho [N _]]. apply N.
  apply (pivots_units n r A A' L L' k Hk HA); auto; intros; apply H'; lia.
Qed.
Lemma fail_units n r (A A' L L' : nat -> nat -> T) k k' : lunits s n (fun i j => r i + r j) A A' ->
  (forall i, (i < k)%nat -> den (L i i)) -> failed n A L k -> failed n A' L' k' -> k = k'.
Proof.
  intros HA D (Hk & H1 & H2 & _ & B & _) (Hk' & H1' & H2' & _ & B' & _).
  destruct (Nat.lt_total k k') as [C|[C|C]]; [exfalso| exact C|exfalso].
  - destruct (H1' k C) as [Ho [N _]]. apply N. apply (pivots_units n r A A' L L' k Hk HA); auto; intros; apply H1'; lia.
  - destruct (H1 k' C) as [Ho [N _]]. apply N. apply (pivots_units n r A A' L L' k' Hk' HA); auto; intros; [apply D|apply H1]; lia.
Qed.
End Tests.
End Root.
End U.
