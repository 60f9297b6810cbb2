(** * Routines meeting the LAPACK contracts (so that the contracts are not empty) *)
From Coq Require Import Reals Lra Lia.
From Verif Require Import Base Scalar BaseLemmas Spec Sums RealVec ModelVec ModelMat SpecMat ModelPacked PropPacked ModelSolvers
  ModelBlas SpecBlas ModelLapack ProofTdma PropTdma ProofChol ProofCholSolve ProofCholMath PropChol PropCholSolve PropBlas SpecLapack.
Local Open Scope R_scope.

(** ** ?gtsv: Gaussian elimination with partial pivoting *)
Section Gtsv.
Variables l d u : nat -> R.

(** The rows i .. i+k; the current row has the entries a, b and right-hand side y; the result is the
    solution from component i on, 0 beyond. *)
Fixpoint gt (rhs : nat -> R) (k i : nat) (a b y : R) : nat -> R :=
  match k with
  | O => fun j => if Nat.eqb j i then y / a else 0
  | S k' =>
    if Rlt_dec (Rabs a) (Rabs (l i)) then
      let f := a / l i in
      let X := gt rhs k' (S i) (b - f * d (S i)) (- (f * u (S i))) (y - f * rhs (S i)) in
      fun j => if Nat.eqb j i then (rhs (S i) - d (S i) * X (S i) - u (S i) * X (S (S i))) / l i else X j
    else
      let f := l i / a in
      let X := gt rhs k' (S i) (d (S i) - f * b) (u (S i)) (rhs (S i) - f * y) in
      fun j => if Nat.eqb j i then (y - b * X (S i)) / a else X j
  end.

(** The three diagonals left behind. *)
Fixpoint gtb (k i : nat) (a b : R) : list (R * R * R) :=
  match k with
  | O => [(a, b, 0)]
  | S k' =>
    if Rlt_dec (Rabs a) (Rabs (l i)) then
      let f := a / l i in (l i, d (S i), u (S i)) :: gtb k' (S i) (b - f * d (S i)) (- (f * u (S i)))
    else
      let f := l i / a in (a, b, 0) :: gtb k' (S i) (d (S i) - f * b) (u (S i))
  end.

Lemma gt_support rhs k : forall i a b y j, (i + k < j)%nat -> gt rhs k i a b y j = 0.
Proof.
  induction k as [|k IH]; intros i a b y j Hj; cbn [gt].
  - destruct (Nat.eqb_spec j i); [lia|reflexivity].
  - destruct (Rlt_dec _ _); cbv zeta; (destruct (Nat.eqb_spec j i); [lia|]); apply IH; lia.
Qed.

Definition okrows rhs i k a b y (x : nat -> R) : Prop :=
  a * x i + b * x (S i) = y /\
  forall j, (i <= j < i + k)%nat -> l j * x j + d (S j) * x (S j) + u (S j) * x (S (S j)) = rhs (S j).
Definition nons i k a b : Prop := forall x, (forall j, (i + k < j)%nat -> x j = 0) ->
  okrows (fun _ => 0) i k a b 0 x -> forall j, (i <= j <= i + k)%nat -> x j = 0.

Lemma gt_ok rhs k : forall i a b y, nons i k a b -> okrows rhs i k a b y (gt rhs k i a b y).
Proof.
  induction k as [|k IH]; intros i a b y N; cbn [gt].
  - assert (a <> 0).
    { intros ->. assert (E : 1 = 0); [|lra].
      change 1 with ((fun j => if Nat.eqb j i then 1 else 0) i) at 1 || idtac.
      specialize (N (fun j => if Nat.eqb j i then 1 else 0)). cbv beta in N.
      assert (Z : (if Nat.eqb i i then 1 else 0) = 0).
      { apply (N ltac:(intros j Hj; destruct (Nat.eqb_spec j i); [lia|reflexivity])); [|lia].
        split; [|intros; lia]. rewrite Nat.eqb_refl. destruct (Nat.eqb_spec (S i) i); [lia|]. lra. }
      rewrite Nat.eqb_refl in Z. exact Z. }
    split; [|intros; lia]. rewrite Nat.eqb_refl. destruct (Nat.eqb_spec (S i) i); [lia|]. field. auto.
  - destruct (Rlt_dec _ _) as [Lt|Ge]; cbv zeta.
    + set (f := a / l i).
      assert (L0 : l i <> 0) by (intros Z; rewrite Z, Rabs_R0 in Lt; pose proof (Rabs_pos a); lra).
      set (X := gt rhs k (S i) _ _ _).
      assert (OX : okrows rhs (S i) k (b - f * d (S i)) (- (f * u (S i))) (y - f * rhs (S i)) X).
      { apply IH. intros x Hx [O1 O2].
        pose (x' := fun j => if Nat.eqb j i then (- (d (S i) * x (S i) + u (S i) * x (S (S i)))) / l i else x j).
        assert (P : forall j, (i <= j <= i + S k)%nat -> x' j = 0).
        { apply N.
          - intros j Hj. unfold x'. destruct (Nat.eqb_spec j i); [lia|]. apply Hx. lia.
          - assert (X1 : forall j, (i < j)%nat -> x' j = x j) by (intros j Hj; unfold x'; destruct (Nat.eqb_spec j i); [lia|auto]).
            assert (X0 : x' i = (- (d (S i) * x (S i) + u (S i) * x (S (S i)))) / l i) by (unfold x'; now rewrite Nat.eqb_refl).
            split.
            + rewrite X0, X1 by lia. unfold f in O1. apply (Rmult_eq_reg_l (l i)); [|auto].
              transitivity (l i * ((b - a / l i * d (S i)) * x (S i) + - (a / l i * u (S i)) * x (S (S i)))); [field; auto|].
              rewrite O1. ring.
            + intros j Hj. destruct (Nat.eq_dec j i) as [->|].
              * rewrite X0, !X1 by lia. field. auto.
              * rewrite !X1 by lia. apply O2. lia. }
        intros j Hj. specialize (P j ltac:(lia)). unfold x' in P. destruct (Nat.eqb_spec j i); [lia|exact P]. }
      destruct OX as [O1 O2]. split.
      * rewrite Nat.eqb_refl. destruct (Nat.eqb_spec (S i) i); [lia|].
        transitivity ((a / l i) * rhs (S i) + ((b - f * d (S i)) * X (S i) + - (f * u (S i)) * X (S (S i)))).
        { unfold f. field. auto. }
        rewrite O1. unfold f. ring.
      * intros j Hj. destruct (Nat.eqb_spec (S j) i); [lia|]. destruct (Nat.eqb_spec (S (S j)) i); [lia|].
        destruct (Nat.eqb_spec j i) as [->|]; [field; auto|]. apply O2. lia.
    + set (f := l i / a).
      assert (A0 : a <> 0).
      { intros Z. assert (LZ : l i = 0).
        { destruct (Req_dec (l i) 0) as [|D]; auto. exfalso. apply Ge. rewrite Z, Rabs_R0. now apply Rabs_pos_lt. }
        pose (x := fun j => if Nat.eqb j i then 1 else 0).
        assert (P : x i = 0).
        { apply N; [| |lia].
          - intros j Hj. unfold x. destruct (Nat.eqb_spec j i); [lia|auto].
          - assert (X1 : forall j, (i < j)%nat -> x j = 0) by (intros j Hj; unfold x; destruct (Nat.eqb_spec j i); [lia|auto]).
            split; [rewrite (X1 (S i)), Z by lia; ring|]. intros j Hj. rewrite (X1 (S j)), (X1 (S (S j))) by lia.
            destruct (Nat.eq_dec j i) as [->|]; [rewrite LZ; ring|]. rewrite (X1 j) by lia. ring. }
        unfold x in P. rewrite Nat.eqb_refl in P. lra. }
      set (X := gt rhs k (S i) _ _ _).
      assert (OX : okrows rhs (S i) k (d (S i) - f * b) (u (S i)) (rhs (S i) - f * y) X).
      { apply IH. intros x Hx [O1 O2].
        pose (x' := fun j => if Nat.eqb j i then (- (b * x (S i))) / a else x j).
        assert (P : forall j, (i <= j <= i + S k)%nat -> x' j = 0).
        { apply N.
          - intros j Hj. unfold x'. destruct (Nat.eqb_spec j i); [lia|]. apply Hx. lia.
          - assert (X1 : forall j, (i < j)%nat -> x' j = x j) by (intros j Hj; unfold x'; destruct (Nat.eqb_spec j i); [lia|auto]).
            assert (X0 : x' i = (- (b * x (S i))) / a) by (unfold x'; now rewrite Nat.eqb_refl).
            split.
            + rewrite X0, X1 by lia. field. auto.
            + intros j Hj. destruct (Nat.eq_dec j i) as [->|].
              * rewrite X0, !X1 by lia. rewrite <- O1. unfold f. field. auto.
              * rewrite !X1 by lia. apply O2. lia. }
        intros j Hj. specialize (P j ltac:(lia)). unfold x' in P. destruct (Nat.eqb_spec j i); [lia|exact P]. }
      destruct OX as [O1 O2]. split.
      * rewrite Nat.eqb_refl. destruct (Nat.eqb_spec (S i) i); [lia|]. field. auto.
      * intros j Hj. destruct (Nat.eqb_spec (S j) i); [lia|]. destruct (Nat.eqb_spec (S (S j)) i); [lia|].
        destruct (Nat.eqb_spec j i) as [->|]; [|apply O2; lia].
        transitivity (f * y + ((d (S i) - f * b) * X (S i) + u (S i) * X (S (S i)))); [unfold f; field; auto|].
        rewrite O1. ring.
Qed.

(** Against the tridiagonal matrix. *)
Lemma trif_row_R n i x : (i < n)%nat -> (forall j, (n <= j)%nat -> x j = 0) ->
  mvmul n (trif l d u) x i = left_term l i x + d i * x i + u i * x (S i).
Proof.
  intros Hi Hx. rewrite (trif_row (F := R_field)) by auto. cbn [add mul zero ROps].
  destruct (Nat.ltb_spec (S i) n); [reflexivity|]. rewrite (Hx (S i)) by lia. cbn. ring.
Qed.
Lemma okrows_solves rhs k x : (forall j, (k < j)%nat -> x j = 0) ->
  okrows rhs 0 k (d 0%nat) (u 0%nat) (rhs 0%nat) x <-> solves (S k) (trif l d u) x rhs.
Proof.
  intros Hx. assert (Hx' : forall j, (S k <= j)%nat -> x j = 0) by (intros; apply Hx; lia). split.
  - intros [O1 O2] [|i] Hi; rewrite trif_row_R by auto; cbn [left_term].
    + cbn [zero ROps]. rewrite <- O1. ring.
    + rewrite <- O2 by lia. reflexivity.
  - intros H. split.
    + generalize (H 0%nat ltac:(lia)). rewrite trif_row_R by (auto; lia). cbn [left_term zero ROps]. intros <-. ring.
    + intros j Hj. generalize (H (S j) ltac:(lia)). rewrite trif_row_R by (auto; lia). intros <-. reflexivity.
Qed.
Lemma trif_nons k : nonsingular (S k) (trif l d u) -> nons 0 k (d 0%nat) (u 0%nat).
Proof.
  intros N x Hx O j Hj. apply N; [|lia]. apply (okrows_solves (fun _ => 0)) in O; [|auto].
  intros i Hi. apply O. auto.
Qed.

Lemma gtb_length k : forall i a b, length (gtb k i a b) = S k.
Proof. induction k; intros; cbn [gtb]; [reflexivity|]. destruct (Rlt_dec _ _); cbn [length]; now rewrite IHk. Qed.
Lemma gtb_pivots k : forall i b, b = u i ->
  (forall j, (i <= j < i + k)%nat -> Rabs (l j) <= Rabs (tri_pivot l d u j)) ->
  gtb k i (tri_pivot l d u i) b = map (fun j => (tri_pivot l d u j, u j, 0)) (seq i (S k)).
Proof.
  induction k as [|k IH]; intros i b -> H; cbn [gtb]; [reflexivity|].
  destruct (Rlt_dec _ _) as [Lt|_]. { specialize (H i ltac:(lia)). lra. }
  cbv zeta. change (seq i (S (S k))) with (i :: seq (S i) (S k)). rewrite map_cons. f_equal.
  assert (E : d (S i) - l i / tri_pivot l d u i * u i = tri_pivot l d u (S i)).
  { cbn [tri_pivot]. cbn [add mul sub div ROps]. unfold Rdiv. ring. }
  rewrite E. apply IH; auto. intros j Hj. apply H. lia.
Qed.
End Gtsv.

Local Open Scope nat_scope.
Definition ref_gtsv : gtsv_routine (T := R) := fun n m dl d du b ldb h =>
  let n := Z.to_nat n in let m := Z.to_nat m in
  let bs := gtb (atf dl) (atf d) (atf du) (n - 1) 0 (atf d 0) (atf du 0) in
  let X := fun k => let rhs := fun i => at_rows h b m i k in
                    gt (atf dl) (atf d) (atf du) rhs (n - 1) 0 (atf d 0) (atf du 0) (rhs 0) in
  Ok (0%Z, (firstn (n - 1) (map snd bs), map (fun x => fst (fst x)) bs, firstn (n - 1) (map (fun x => snd (fst x)) bs)))
     (upd h b (map (fun p => if Nat.ltb p (n * m) then X (p mod m) (p / m) else rd h b p) (seq 0 (len h b)))).

Lemma nth_firstn_lt {X} (l : list X) m i d : i < m -> nth i (firstn m l) d = nth i l d.
Proof. revert m i. induction l; intros [|m] [|i] H; try lia; cbn; auto. apply IHl. lia. Qed.

Theorem ref_gtsv_contract : gtsv_contract ref_gtsv.
Proof.
  split.
  - intros n m t b h Hn _ Hm _ (W1 & W2 & W3) Ns Hb Lb. unfold ref_gtsv, post. rewrite !Nat2Z.id. cbv zeta.
    set (bs := gtb _ _ _ _ _ _ _). pose (X := fun k => gt (atf (tdl t)) (atf (td t)) (atf (tdu t)) (fun i => at_rows h b m i k) (n - 1) 0 (atf (td t) 0) (atf (tdu t) 0) (at_rows h b m 0 k)).
    assert (Ls : length bs = n) by (unfold bs; rewrite gtb_length; lia).
    pose (g := fun p => if Nat.ltb p (n * m) then X (p mod m) (p / m) else rd h b p). fold g.
    pose proof (upd_wrote_only h b g) as (U1 & U2 & U3).
    split; [reflexivity|]. split; [split; auto|]. split.
    { intros p Hp. destruct (Nat.lt_ge_cases p (len h b)) as [L|L].
      - rewrite rd_upd_map by lia. unfold g. destruct (Nat.ltb_spec p (n * m)); [lia|reflexivity].
      - rewrite (rd_beyond h) by auto. apply rd_beyond. etransitivity; [|exact L]. apply Nat.eq_le_incl. exact U3. }
    split. { cbn [fst snd]. split; [|split]; cbn [tdl td tdu]; rewrite ?firstn_length, !map_length; lia. }
    intros k Hk.
    assert (Ex : forall i, i < n -> at_rows (upd h b (map g (seq 0 (len h b)))) b m i k = X k i).
    { intros i Hi. unfold at_rows. rewrite rd_upd_map by nia. unfold g.
      destruct (Nat.ltb_spec (i * m + k) (n * m)); [|nia].
      replace ((i * m + k) / m) with i by (rewrite Nat.div_add_l by lia; rewrite Nat.div_small by lia; lia).
      replace ((i * m + k) mod m) with k by (rewrite Nat.add_comm, Nat.mod_add by lia; symmetry; apply Nat.mod_small; lia).
      reflexivity. }
    assert (E : forall i j, tmat t i j = trif (atf (tdl t)) (atf (td t)) (atf (tdu t)) i j) by (intros; apply band_trif).
    assert (SX : solves n (trif (atf (tdl t)) (atf (td t)) (atf (tdu t))) (X k) (fun i => at_rows h b m i k)).
    { replace n with (S (n - 1)) by lia. apply okrows_solves.
      - intros j Hj. apply gt_support. lia.
      - apply gt_ok. apply trif_nons. replace (S (n - 1)) with n by lia.
        intros x Hx. apply Ns. intros i Hi. rewrite <- (Hx i Hi). unfold mvmul. apply bsum_ext. intros j Hj. now rewrite E. }
    intros i Hi. rewrite <- (SX i Hi). unfold mvmul. apply bsum_ext. intros j Hj. rewrite E, Ex by auto. reflexivity.
  - intros n m t b h Hn _ Hm _ (W1 & W2 & W3) Ns Hb Lb Pv. unfold ref_gtsv, post. rewrite !Nat2Z.id. cbv zeta. cbn [fst snd].
    assert (E : gtb (atf (tdl t)) (atf (td t)) (atf (tdu t)) (n - 1) 0 (atf (td t) 0) (atf (tdu t) 0) =
      map (fun j => (tri_pivot (atf (tdl t)) (atf (td t)) (atf (tdu t)) j, atf (tdu t) j, 0%R)) (seq 0 n)).
    { replace n with (S (n - 1)) at 2 by lia. apply (gtb_pivots (atf (tdl t)) (atf (td t)) (atf (tdu t)) (n - 1) 0); auto. intros j Hj. apply Pv. lia. }
    rewrite E, !map_map. cbn [fst snd].
    assert (N : forall (f : nat -> R) i, i < n -> nth i (map f (seq 0 n)) 0%R = f i).
    { intros f i Hi. rewrite (nth_indep _ _ (f 0)) by (rewrite map_length, seq_length; lia).
      rewrite map_nth, seq_nth by auto. reflexivity. }
    assert (N' : forall (f : nat -> R) i, S i < n -> nth i (firstn (n - 1) (map f (seq 0 n))) 0%R = f i).
    { intros f i Hi. rewrite nth_firstn_lt by lia. apply N. lia. }
    split; [intros i Hi; apply N; auto|]. split; [intros i Hi; apply N'; auto|].
    intros i Hi. unfold atf. apply (N' (fun _ => 0%R)). lia.
Qed.

(** ** ?potrf and ?potrs: the routines built into lalib, with a check of the first pivot *)
Definition ref_potrf : potrf_routine (T := R) := fun n l lda =>
  a <- (fun h => Ok (rd h l 0) h) ;;
  if Rlt_dec 0 a then cholesky_decomposition Square (Z.to_nat n) l else ret 1%Z.
Definition ref_potrs : potrs_routine (T := R) := fun n m l lda b ldb =>
  cholesky_linear Square (Z.to_nat n) (Z.to_nat m) l b b ;; ret 0%Z.

Theorem ref_potrf_contract : potrf_contract ref_potrf.
Proof.
  split.
  - intros n l h Hn Hb Hl Ll P. unfold ref_potrf. rewrite Nat2Z.id.
    apply post_bind. unfold post at 1.
    assert (A0 : (0 < at_rows h l n 0 0)%R).
    { assert (Q := P (fun i => if Nat.eqb i 0 then 1%R else 0%R)). cbv beta in Q.
      assert (E : bsum n (fun i => ((if Nat.eqb i 0 then 1 else 0) * mvmul n (symf (at_rows h l n)) (fun j => if Nat.eqb j 0 then 1 else 0) i)%R) = at_rows h l n 0 0).
      { replace n with (S (n - 1)) at 1 by lia. rewrite bsum_first. rewrite bsum_zero.
        2:{ intros k Hk. cbn. ring. }
        cbn [Nat.eqb]. unfold mvmul. replace n with (S (n - 1)) at 1 by lia. rewrite bsum_first. rewrite bsum_zero.
        2:{ intros k Hk. cbn. ring. }
        cbn [Nat.eqb symf Nat.leb add mul one zero ROps]. unfold symf. cbn [Nat.leb]. ring. }
      rewrite E in Q. apply Q. exists 0. split; [lia|]. cbn. lra. }
    destruct (Rlt_dec 0 (rd h l 0)) as [_|N]; [|exfalso; apply N; exact A0].
    eapply post_mono; [apply (chol_kernel Square n l h); [unfold fits_u32; apply Z.ltb_lt; lia|exact Ll]|].
    intros c h' [(N & M & L & U) R]. destruct R as [[-> R]|(i & _ & R)].
    + split; [reflexivity|]. split; [split; auto|]. split.
      * intros i j Hi Hj Hij. unfold at_rows. apply U. intros (i' & j' & H1 & H2 & H3). cbn [index] in H3.
        rewrite (Nat.add_comm (i * n)), (Nat.add_comm (i' * n)) in H3. apply pos_inj in H3; lia.
      * split; [intros i Hi; apply (rowrec_pos (lo Square n l h)); apply R; exact Hi|].
        apply (factored_product n _ _ R).
    + exfalso. apply (failed_not_pos_def _ _ _ _ R). exact P.
  - intros n l h Hn Hb Hl Ll P. unfold ref_potrf. rewrite Nat2Z.id.
    apply post_bind. unfold post at 1. destruct (Rlt_dec 0 (rd h l 0)) as [A0|_].
    2:{ apply post_ret. split; [discriminate|]. repeat split. }
    eapply post_mono; [apply (chol_kernel Square n l h); [unfold fits_u32; apply Z.ltb_lt; lia|exact Ll]|].
    intros c h' [(N & M & L & U) R]. split; [|split; auto].
    destruct R as [[-> R]|(i & -> & R)]; [exfalso; apply P; apply (factored_pos_def _ _ _ R)|].
    destruct R as (Hi & _ & _ & D & B & _). destruct (Nat.eq_dec i 0) as [->|Ne].
    + apply bad_R in B. unfold pivot in B. cbn [ssub] in B. unfold lo in B. cbn in B. lra.
    + rewrite to_int32_small by lia. lia.
Qed.
Theorem ref_potrs_contract : potrs_contract ref_potrs.
Proof.
  split. intros n m l b h Hn Bn Hm Bm Ne Hl Hb Ll Lb D. unfold ref_potrs. rewrite !Nat2Z.id.
  apply post_bind. eapply post_mono.
  { apply (cholesky_linear_ok Square n m l b b); auto; [unfold fits_u32; apply Z.ltb_lt; lia|lia|lia]. }
  intros r h' (-> & (N & M & L & U) & S). apply post_ret. split; [reflexivity|]. split; [split; auto|].
  intros k Hk.
  assert (C : forall g i, colof m g b k i = at_rows g b m i k) by (intros; unfold colof, at_rows; f_equal; lia).
  pose proof (subst_solves (F := R_field) n _ _ _ D (S k Hk)) as Q. intros i Hi. rewrite <- C, <- (Q i Hi).
  unfold mvmul. apply bsum_ext. intros j Hj. now rewrite C.
Qed.
