(** * SpCooMat::operator+= *)
From Coq Require Import Permutation Ring.
From Verif Require Import Base Scalar BaseLemmas Spec Sums ModelVec ModelSparse SpecSparse ProofPacked ProofSparse.
Local Open Scope nat_scope.

(** ** upper_bound *)
Lemma leading_spec i l : leading i l <= length l /\ (forall k, k < leading i l -> nth k l 0 <= i) /\
  (leading i l < length l -> i < nth (leading i l) l 0).
Proof.
  induction l as [|x l (H1 & H2 & H3)]; cbn [leading].
  - repeat split; cbn; intros; lia.
  - destruct (Nat.leb_spec x i) as [Hx|Hx]; cbn [length].
    + split; [lia|]. split.
      * intros [|k] Hk; cbn [nth]; auto. apply H2. lia.
      * intros. cbn [nth]. apply H3. lia.
    + split; [lia|]. split; [intros; lia|]. auto.
Qed.

Lemma nth_firstn_skipn {X} (l : list X) lo m k d : k < m -> nth k (firstn m (skipn lo l)) d = nth (lo + k) l d.
Proof.
  revert l; induction lo as [|lo IH]; intros l Hk.
  - cbn [skipn Nat.add]. revert l k Hk; induction m as [|m IHm]; intros l k Hk; [lia|].
    destruct l as [|x l]; [destruct k; reflexivity|]. destruct k as [|k]; [reflexivity|]. cbn. apply IHm. lia.
  - destruct l as [|x l].
    + rewrite skipn_nil, firstn_nil. destruct k; reflexivity.
    + cbn. now apply IH.
Qed.

Lemma ub_spec l lo hi i : lo <= hi -> hi <= length l ->
  lo <= upper_bound l lo hi i <= hi /\
  (forall k, lo <= k < upper_bound l lo hi i -> nth k l 0 <= i) /\
  (upper_bound l lo hi i < hi -> i < nth (upper_bound l lo hi i) l 0).
Proof.
  intros H1 H2. unfold upper_bound. set (seg := firstn (hi - lo) (skipn lo l)).
  assert (Hlen : length seg = hi - lo) by (unfold seg; rewrite firstn_length, skipn_length; lia).
  destruct (leading_spec i seg) as (L1 & L2 & L3). rewrite Hlen in *. split; [lia|]. split.
  - intros k Hk. replace k with (lo + (k - lo)) by lia. rewrite <- (nth_firstn_skipn l lo (hi - lo)) by lia.
    apply L2. lia.
  - intros Hu. rewrite <- (nth_firstn_skipn l lo (hi - lo)) by lia. apply L3. lia.
Qed.

(** The position separating the rows below [i] from the others. *)
Definition row_start (l : list nat) (n i p : nat) : Prop :=
  p <= n /\ forall k, k < n -> (k < p <-> nth k l 0 < i).

Lemma row_start_fun l n i p q : row_start l n i p -> row_start l n i q -> p = q.
Proof.
  intros [H1 H2] [H3 H4]. destruct (Nat.lt_trichotomy p q) as [L|[L|L]]; auto.
  - pose proof (H2 p ltac:(lia)). pose proof (H4 p ltac:(lia)). lia.
  - pose proof (H2 q ltac:(lia)). pose proof (H4 q ltac:(lia)). lia.
Qed.

Lemma ub_row_start l n i p :
  n <= length l -> (forall a b, a < b -> b < n -> nth a l 0 <= nth b l 0) ->
  row_start l n i p -> row_start l n (S i) (upper_bound l p n i).
Proof.
  intros Hn Hs [Hp Hk]. destruct (ub_spec l p n i Hp Hn) as (H1 & H2 & H3). split; [lia|].
  intros k Hkn. split.
  - intros Hku. destruct (Nat.lt_ge_cases k p); [apply Hk in H; lia|]. specialize (H2 k ltac:(lia)). lia.
  - intros Hle. destruct (Nat.lt_ge_cases k (upper_bound l p n i)) as [|Hge]; auto.
    specialize (H3 ltac:(lia)). destruct (Nat.eq_dec k (upper_bound l p n i)) as [->|]; [lia|].
    assert (nth (upper_bound l p n i) l 0 <= nth k l 0) by (apply Hs; lia). lia.
Qed.

Lemma upper_bound_prefix l1 l2 lo hi i : hi <= length l1 -> upper_bound (l1 ++ l2) lo hi i = upper_bound l1 lo hi i.
Proof.
  intros H. unfold upper_bound. f_equal. f_equal.
  destruct (Nat.le_gt_cases lo hi).
  - rewrite skipn_app, firstn_app, skipn_length.
    replace (hi - lo - (length l1 - lo)) with 0 by lia. cbn. now rewrite app_nil_r.
  - replace (hi - lo) with 0 by lia. reflexivity.
Qed.

Lemma skipn_set_nth {X} n k (x : X) l : k < n -> skipn n (set_nth k x l) = skipn n l.
Proof.
  revert k l; induction n as [|n IH]; intros k l Hk; [lia|].
  destruct l as [|y l]; [destruct k; reflexivity|]. destruct k as [|k]; [reflexivity|]. cbn. apply IH. lia.
Qed.

Lemma max_elem_fold l x : forall y, In y (x :: l) -> y <= fold_left Nat.max l x.
Proof.
  revert x; induction l as [|z l IH]; intros x y [<-|Hy]; cbn [fold_left].
  - auto.
  - destruct Hy.
  - etransitivity; [|apply IH; left; reflexivity]. lia.
  - destruct Hy as [<-|Hy]; [etransitivity; [|apply IH; left; reflexivity]; lia|]. apply IH. right; auto.
Qed.

Section AddProof.
Context {T : Type} {Op : Ops T}.
Context (A B : coo T) (rhs : option (coo T)).
Notation nA := (length (cval A)).
Notation nB := (length (cval B)).
Hypothesis HAr : length (crow A) = nA.
Hypothesis HAc : length (ccol A) = nA.
Hypothesis HBr : length (crow B) = nB.
Hypothesis HBc : length (ccol B) = nB.
Notation rA := (fun k => nth k (crow A) 0).
Notation cA := (fun k => nth k (ccol A) 0).
Notation vA := (fun k => nth k (cval A) zero).
Notation rB := (fun k => nth k (crow B) 0).
Notation cB := (fun k => nth k (ccol B) 0).
Notation vB := (fun k => nth k (cval B) zero).
Hypothesis HAs : forall a b, a < b -> b < nA -> pos_lt (rA a, cA a) (rA b, cA b).
Hypothesis HBs : forall a b, a < b -> b < nB -> pos_lt (rB a, cB a) (rB b, cB b).

Lemma HAinj a b : a < nA -> b < nA -> rA a = rA b -> cA a = cA b -> a = b.
Proof.
  intros Ha Hb Hr Hc. destruct (Nat.lt_trichotomy a b) as [L|[L|L]]; auto.
  - specialize (HAs a b L Hb). unfold pos_lt in HAs; cbn in *. lia.
  - specialize (HAs b a L Ha). unfold pos_lt in HAs; cbn in *. lia.
Qed.

(** Handling one entry of the right-hand side. *)
Definition hit (t : nat) : option nat := find (at_pos A (rB t) (cB t)) (seq 0 nA).
Definition step1 (t : nat) (C : coo T) : coo T :=
  match hit t with
  | Some k => mkCoo (set_nth k (add (nth k (cval C) zero) (vB t)) (cval C)) (crow C) (ccol C)
  | None => mkCoo (cval C ++ [vB t]) (crow C ++ [rB t]) (ccol C ++ [cB t])
  end.
Fixpoint St (r : nat) : coo T := match r with 0 => A | S t => step1 t (St t) end.

Lemma hit_some t k : hit t = Some k <-> k < nA /\ rA k = rB t /\ cA k = cB t.
Proof.
  split.
  - intros H. destruct (find_seq_some _ _ _ _ H) as (H1 & H2 & _). apply at_pos_true in H2. split; [lia|tauto].
  - intros (H1 & H2 & H3). apply find_seq_first; [lia|now apply at_pos_true|].
    intros k' Hk'. apply at_pos_false. intros [E1 E2].
    assert (k' = k) by (apply HAinj; try lia; congruence). lia.
Qed.
Lemma hit_none t : hit t = None <-> forall k, k < nA -> ~ (rA k = rB t /\ cA k = cB t).
Proof.
  split.
  - intros H k Hk [E1 E2]. assert (hit t = Some k) by (apply hit_some; auto). congruence.
  - intros H. destruct (hit t) as [k|] eqn:E; auto. apply hit_some in E. exfalso. apply (H k); tauto.
Qed.

(** The lists only grow at the end; the original positions never change. *)
Lemma St_shape r : exists (xv : list T) xr xc, length (cval (St r)) = nA + length xv /\
  crow (St r) = crow A ++ xr /\ ccol (St r) = ccol A ++ xc /\ length xr = length xv /\ length xc = length xv.
Proof.
  induction r as [|r (xv & xr & xc & H1 & H2 & H3 & H4 & H5)].
  - exists [], [], []. cbn. rewrite !app_nil_r. auto.
  - cbn [St]. unfold step1. destruct (hit r) as [k|].
    + exists xv, xr, xc. cbn [cval crow ccol]. rewrite set_nth_length. auto.
    + exists (xv ++ [vB r]), (xr ++ [rB r]), (xc ++ [cB r]). cbn [cval crow ccol].
      rewrite H2, H3, !app_length, <- !app_assoc, H1, H4, H5. cbn. repeat split; lia.
Qed.
Lemma St_len r : nA <= length (cval (St r)) /\ length (crow (St r)) = length (cval (St r)) /\
  length (ccol (St r)) = length (cval (St r)).
Proof.
  destruct (St_shape r) as (xv & xr & xc & H1 & H2 & H3 & H4 & H5). rewrite H2, H3, !app_length. lia.
Qed.
Lemma St_row r k : k < nA -> nth k (crow (St r)) 0 = rA k.
Proof. intros. destruct (St_shape r) as (xv & xr & xc & H1 & -> & _). now rewrite app_nth1 by lia. Qed.
Lemma St_col r k : k < nA -> nth k (ccol (St r)) 0 = cA k.
Proof. intros. destruct (St_shape r) as (xv & xr & xc & H1 & _ & -> & _). now rewrite app_nth1 by lia. Qed.

(** What the right-hand side looks like while the loop is at entry [r]. *)
Hypothesis Hview : forall r, r < nB ->
  (r < length (ccol (rhs_of rhs (St r))) /\ nth r (ccol (rhs_of rhs (St r))) 0 = cB r) /\
  (r < length (cval (rhs_of rhs (St r))) /\ nth r (cval (rhs_of rhs (St r))) zero = vB r).

(** ** The inner loop over a row with stored entries on the left *)
Lemma add_row_ok i ca ce re : ca <= ce -> ce < nA -> re < nB ->
  (forall k, k < nA -> (rA k = i <-> ca <= k <= ce)) ->
  forall fuel cursor r, (ce - cursor) + (re - r) < fuel ->
  ca <= cursor <= ce -> r <= re -> (forall t, r <= t <= re -> rB t = i) ->
  (forall k, ca <= k < cursor -> cA k < cB r) ->
  add_row rhs fuel i (Z.of_nat ce) (Z.of_nat re) cursor r (St r) = Ok tt (St (re + 1)).
Proof.
  intros Hca Hce Hre Hseg fuel. induction fuel as [|f IH]; intros cursor r Hfu Hcur Hr HrB Hlt; [lia|].
  cbn [add_row]. destruct (Z.leb_spec (Z.of_nat r) (Z.of_nat re)); [|lia].
  destruct (St_len r) as (L1 & L2 & L3). destruct (Hview r ltac:(lia)) as [[V1 V2] [V3 V4]].
  unfold bind at 1, get_coo. unfold bind at 1. rewrite (vec_at_d _ 0) by lia.
  unfold bind at 1. rewrite (vec_at_d _ 0) by lia. rewrite V2, St_col by lia.
  assert (Hri : rB r = i) by (apply HrB; lia).
  assert (Hcol : forall k, cursor < k <= ce -> cA cursor < cA k).
  { intros k Hk. pose proof (HAs cursor k ltac:(lia) ltac:(lia)) as P. unfold pos_lt in P; cbn in P.
    pose proof (proj2 (Hseg cursor ltac:(lia)) ltac:(lia)). pose proof (proj2 (Hseg k ltac:(lia)) ltac:(lia)). lia. }
  assert (HcolB : r < re -> cB r < cB (r + 1)).
  { intros Hlt'. pose proof (HBs r (r + 1) ltac:(lia) ltac:(lia)) as P. unfold pos_lt in P; cbn in P.
    pose proof (HrB (r + 1) ltac:(lia)). lia. }
  assert (Push : hit r = None ->
    coo_push (vB r) i (cB r) (St r) = Ok tt (St (r + 1))).
  { intros Hn. unfold coo_push, upd_coo. replace (r + 1) with (S r) by lia. cbn [St]. unfold step1. rewrite Hn.
    now rewrite Hri. }
  assert (Next : (Z.of_nat r =? Z.of_nat re)%Z = Nat.eqb r re) by (destruct (Nat.eqb_spec r re); [apply Z.eqb_eq|apply Z.eqb_neq]; lia).
  assert (Next2 : (Z.of_nat r <? Z.of_nat re)%Z = Nat.ltb r re) by (destruct (Nat.ltb_spec r re); [apply Z.ltb_lt|apply Z.ltb_ge]; lia).
  assert (Next3 : (Z.of_nat cursor <? Z.of_nat ce)%Z = Nat.ltb cursor ce) by (destruct (Nat.ltb_spec cursor ce); [apply Z.ltb_lt|apply Z.ltb_ge]; lia).
  rewrite Next, Next2, Next3.
  destruct (Nat.eqb_spec (cA cursor) (cB r)) as [Heq|Hne].
  - (* same column: add *)
    assert (Hh : hit r = Some cursor).
    { apply hit_some. split; [lia|]. split; auto. rewrite Hri. apply Hseg; lia. }
    unfold bind at 1. rewrite (vec_at_d _ zero) by lia. unfold bind at 1. rewrite (vec_at_d _ zero) by lia.
    rewrite V4. unfold bind at 1. rewrite vec_set_d by lia. unfold bind at 1, upd_coo.
    assert (HS : mkCoo (set_nth cursor (add (nth cursor (cval (St r)) zero) (vB r)) (cval (St r))) (crow (St r)) (ccol (St r)) = St (r + 1)).
    { replace (r + 1) with (S r) by lia. cbn [St]. unfold step1. now rewrite Hh. }
    rewrite HS. destruct (Nat.eqb_spec r re) as [->|Hrr]; [reflexivity|].
    destruct (Nat.ltb_spec r re); [|lia]. apply IH; try lia.
    + destruct (Nat.ltb_spec cursor ce); lia.
    + destruct (Nat.ltb_spec cursor ce); lia.
    + intros; apply HrB; lia.
    + specialize (HcolB ltac:(lia)). intros k Hk.
      assert (ca <= k <= cursor) by (destruct (Nat.ltb_spec cursor ce); lia).
      destruct (Nat.eq_dec k cursor) as [->|]; [lia|]. specialize (Hlt k ltac:(lia)). lia.
  - destruct (Nat.ltb_spec (cA cursor) (cB r)) as [Hl|Hg].
    + destruct (Nat.ltb_spec cursor ce) as [Hc|Hc].
      * apply IH; try lia.
        -- intros; apply HrB; lia.
        -- intros k Hk. destruct (Nat.eq_dec k cursor) as [->|]; [lia|]. apply Hlt. lia.
      * unfold bind at 1. rewrite (vec_at_d _ zero) by lia. rewrite V4. unfold bind at 1. rewrite Push.
        2:{ apply hit_none. intros k Hk [E1 E2]. rewrite Hri in E1. apply Hseg in E1; auto.
            destruct (Nat.eq_dec k cursor) as [->|]; [lia|]. specialize (Hlt k ltac:(lia)). lia. }
        destruct (Nat.eqb_spec r re) as [->|Hrr]; [reflexivity|]. apply IH; try lia.
        -- intros; apply HrB; lia.
        -- specialize (HcolB ltac:(lia)). intros k Hk. specialize (Hlt k Hk). lia.
    + unfold bind at 1. rewrite (vec_at_d _ zero) by lia. rewrite V4. unfold bind at 1. rewrite Push.
      2:{ apply hit_none. intros k Hk [E1 E2]. rewrite Hri in E1. apply Hseg in E1; auto.
          destruct (Nat.lt_trichotomy k cursor) as [L|[->|L]]; [specialize (Hlt k ltac:(lia)); lia|lia|].
          specialize (Hcol k ltac:(lia)). lia. }
      destruct (Nat.eqb_spec r re) as [->|Hrr]; [reflexivity|].
      destruct (Nat.ltb_spec r re); [|lia]. apply IH; try lia.
      * intros; apply HrB; lia.
      * specialize (HcolB ltac:(lia)). intros k Hk. specialize (Hlt k Hk). lia.
Qed.

(** ** The inner loop over a row without stored entries on the left: the column compared with is
    that of the next stored entry (of a later row). *)
Lemma add_row_empty i cursor re : cursor < nA -> re < nB -> (forall k, k < nA -> rA k <> i) ->
  forall fuel r, re - r < fuel -> r <= re -> (forall t, r <= t <= re -> rB t = i /\ cB t <> cA cursor) ->
  add_row rhs fuel i (Z.of_nat cursor - 1) (Z.of_nat re) cursor r (St r) = Ok tt (St (re + 1)).
Proof.
  intros Hcur Hre Hno fuel. induction fuel as [|f IH]; intros r Hfu Hr HrB; [lia|].
  cbn [add_row]. destruct (Z.leb_spec (Z.of_nat r) (Z.of_nat re)); [|lia].
  destruct (St_len r) as (L1 & L2 & L3). destruct (Hview r ltac:(lia)) as [[V1 V2] [V3 V4]].
  unfold bind at 1, get_coo. unfold bind at 1. rewrite (vec_at_d _ 0) by lia.
  unfold bind at 1. rewrite (vec_at_d _ 0) by lia. rewrite V2, St_col by lia.
  destruct (HrB r ltac:(lia)) as [Hri Hrc].
  destruct (Nat.eqb_spec (cA cursor) (cB r)) as [Heq|Hne]; [congruence|].
  assert (Push : coo_push (vB r) i (cB r) (St r) = Ok tt (St (r + 1))).
  { unfold coo_push, upd_coo. replace (r + 1) with (S r) by lia. cbn [St]. unfold step1.
    replace (hit r) with (@None nat); [now rewrite Hri|]. symmetry. apply hit_none. intros k Hk [E1 _].
    apply (Hno k Hk). congruence. }
  destruct (Z.ltb_spec (Z.of_nat cursor) (Z.of_nat cursor - 1)); [lia|].
  assert (G : (rv <- vec_at (cval (rhs_of rhs (St r))) r ;; coo_push rv i (cB r) ;;
     (if (Z.of_nat r =? Z.of_nat re)%Z then ret tt
      else add_row rhs f i (Z.of_nat cursor - 1) (Z.of_nat re) cursor (r + 1))) (St r) = Ok tt (St (re + 1))).
  { unfold bind at 1. rewrite (vec_at_d _ zero) by lia. rewrite V4. unfold bind at 1. rewrite Push.
    destruct (Z.eqb_spec (Z.of_nat r) (Z.of_nat re)).
    - assert (r = re) by lia. now subst.
    - apply IH; try lia. intros; apply HrB; lia. }
  destruct (Nat.ltb (cA cursor) (cB r)); [exact G|].
  assert (E : (if (Z.of_nat r <? Z.of_nat re)%Z then r + 1 else r) = if (Z.of_nat r =? Z.of_nat re)%Z then r else r + 1).
  { destruct (Z.ltb_spec (Z.of_nat r) (Z.of_nat re)), (Z.eqb_spec (Z.of_nat r) (Z.of_nat re)); auto; lia. }
  rewrite E. destruct (Z.of_nat r =? Z.of_nat re)%Z; exact G.
Qed.

(** Rows of the left-hand side for which the comparison never goes wrong: the row has an entry,
    or the next stored entry exists and its column is not one of the columns added. *)
Definition good_row (i : nat) : Prop :=
  (exists k, k < nA /\ rA k = i) \/
  exists k, k < nA /\ (forall k', k' < k -> rA k' < i) /\ i < rA k /\
    forall t, t < nB -> rB t = i -> cB t <> cA k.

Hypothesis Hrows : forall t, t < nB -> good_row (rB t).
Hypothesis Hview_rows : forall r, exists x, crow (rhs_of rhs (St r)) = crow B ++ x.

Lemma rows_A_sorted a b : a < b -> b < nA -> rA a <= rA b.
Proof. intros. pose proof (HAs a b) as P. unfold pos_lt in P; cbn in P. lia. Qed.
Lemma rows_B_sorted a b : a < b -> b < nB -> rB a <= rB b.
Proof. intros. pose proof (HBs a b) as P. unfold pos_lt in P; cbn in P. lia. Qed.

Lemma add_rows_step i it : row_start (crow A) nA i (fst it) -> row_start (crow B) nB i (snd it) ->
  post (A0 <- get_coo ;;
    let row_end := upper_bound (crow A0) (fst it) nA i in
    let rrow_end := upper_bound (crow (rhs_of rhs A0)) (snd it) nB i in
    add_row rhs (nA + nB + 1) i (Z.of_nat row_end - 1) (Z.of_nat rrow_end - 1) (fst it) (snd it) ;;
    ret (row_end, rrow_end)) (St (snd it))
   (fun it' C => row_start (crow A) nA (S i) (fst it') /\ row_start (crow B) nB (S i) (snd it') /\ C = St (snd it')).
Proof.
  intros HA HB. destruct it as [p q]. cbn [fst snd] in *.
  pose proof (ub_row_start (crow A) nA i p ltac:(lia) rows_A_sorted HA) as HA'.
  pose proof (ub_row_start (crow B) nB i q ltac:(lia) rows_B_sorted HB) as HB'.
  pstep. unfold get_coo, post at 1. destruct (St_shape q) as (xv & xr & xc & _ & Er & _).
  destruct (Hview_rows q) as (x & Ex). cbv zeta. rewrite Er, Ex, !upper_bound_prefix by lia.
  set (p' := upper_bound (crow A) p nA i) in *. set (q' := upper_bound (crow B) q nB i) in *.
  pose proof (ub_spec (crow A) p nA i ltac:(apply HA) ltac:(lia)) as (P1 & _). fold p' in P1.
  pose proof (ub_spec (crow B) q nB i ltac:(apply HB) ltac:(lia)) as (Q1 & _). fold q' in Q1.
  assert (Hrow : add_row rhs (nA + nB + 1) i (Z.of_nat p' - 1) (Z.of_nat q' - 1) p q (St q) = Ok tt (St q')).
  { destruct (Nat.eq_dec q q') as [E|E].
    - replace (nA + nB + 1) with (S (nA + nB)) by lia. cbn [add_row].
      destruct (Z.leb_spec (Z.of_nat q) (Z.of_nat q' - 1)); [lia|]. now rewrite <- E.
    - assert (HBi : forall t, q <= t <= q' - 1 -> rB t = i).
      { intros t Ht. destruct HB as [_ HB], HB' as [_ HB']. specialize (HB t ltac:(lia)). specialize (HB' t ltac:(lia)). cbv beta in *. lia. }
      replace (Z.of_nat q' - 1)%Z with (Z.of_nat (q' - 1)) by lia.
      replace (St q') with (St (q' - 1 + 1)) by (f_equal; lia).
      destruct HA as [_ HA], HA' as [_ HA'].
      destruct (Nat.eq_dec p p') as [Ep|Ep].
      + (* no entry in this row *)
        assert (Hno : forall k, k < nA -> rA k <> i).
        { intros k Hk Hi. specialize (HA k Hk). specialize (HA' k Hk). cbv beta in *. lia. }
        destruct (Hrows q ltac:(lia)) as [(k & Hk & Hki)|(k & Hk & Hlt & Hgt & Hcols)].
        { rewrite (HBi q ltac:(lia)) in Hki. destruct (Hno k Hk Hki). }
        cbv beta in *. pose proof (HBi q ltac:(lia)) as Hq. rewrite Hq in Hlt, Hgt, Hcols.
        assert (k = p) as ->.
        { specialize (HA k Hk) as Ha. destruct (Nat.lt_trichotomy k p) as [L|[L|L]]; auto; [cbv beta in *; lia|].
          specialize (Hlt p L). specialize (HA p ltac:(lia)). cbv beta in *. lia. }
        rewrite <- Ep. apply add_row_empty; try lia; auto. intros t Ht. split; [apply HBi; lia|].
        apply Hcols; [lia|apply HBi; lia].
      + replace (Z.of_nat p' - 1)%Z with (Z.of_nat (p' - 1)) by lia.
        apply (add_row_ok i p (p' - 1) (q' - 1)); try lia.
        * intros k Hk. specialize (HA k Hk). specialize (HA' k Hk). cbv beta in *. lia.
        * exact HBi. }
  pstep. unfold post. rewrite Hrow. cbn [ret]. auto.
Qed.

(** ** The whole operator *)
Lemma add_assign_ok srt : sort_contract srt -> 0 < nB ->
  (match rhs with Some B' => B' = B | None => A = B end) ->
  fits_u32 (nA + nB) = true -> (forall t, t < nB -> fits_u32 (rB t + 1) = true) ->
  exists A', coo_add_assign rhs srt A = Ok tt A' /\ coo_wf A' /\ Permutation (coo_entries A') (coo_entries (St nB)).
Proof.
  intros HS Hpos Hrhs Hfit Hfr.
  assert (HrA : rhs_of rhs A = B) by (destruct rhs; auto).
  unfold coo_add_assign. unfold bind at 1, get_coo at 1. rewrite HrA.
  assert (exists x xs, crow B = x :: xs) as (x & xs & Ex) by (destruct (crow B); [cbn in *; lia|eauto]).
  assert (exists y ys, ccol B = y :: ys) as (y & ys & Ey) by (destruct (ccol B); [cbn in *; lia|eauto]).
  set (m := fold_left Nat.max xs x).
  assert (Hmin : exists t, t < nB /\ rB t = m).
  { assert (In m (crow B)) as Hm.
    { rewrite Ex. unfold m. clear. revert x; induction xs as [|z xs IH]; intros x; cbn [fold_left]; [left; auto|].
      destruct (IH (Nat.max x z)) as [E|E]; [|right; right; auto]. rewrite <- E.
      destruct (Nat.max_spec x z) as [[_ ->]|[_ ->]]; [right; left|left]; auto. }
    destruct (In_nth _ _ 0 Hm) as (t & Ht & Et). exists t. split; [lia|auto]. }
  unfold bind at 1. assert (Hsh : exists c, coo_shape B A = Ok (m + 1, c + 1) A).
  { eexists. unfold coo_shape, bind, max_elem. rewrite Ex, Ey. reflexivity. }
  destruct Hsh as (c & ->). cbn [fst].
  assert (HL : post (for_u32 0 (m + 1)
     (fun i it => A0 <- get_coo ;;
        let row_end := upper_bound (crow A0) (fst it) (length (crow A)) i in
        let rrow_end := upper_bound (crow (rhs_of rhs A0)) (snd it) (length (crow B)) i in
        add_row rhs (length (crow A) + length (crow B) + 1) i (Z.of_nat row_end - 1) (Z.of_nat rrow_end - 1) (fst it) (snd it) ;;
        ret (row_end, rrow_end)) (0, 0)) A (fun _ C => C = St nB)).
  { apply (post_for_u32 (fun i it C => row_start (crow A) nA i (fst it) /\ row_start (crow B) nB i (snd it) /\ C = St (snd it))).
    - destruct Hmin as (t & Ht & <-). auto.
    - lia.
    - cbn [fst snd St]. split; [split; [lia|intros; lia]|]. split; [split; [lia|intros; lia]|reflexivity].
    - intros i it C Hi (H1 & H2 & ->). rewrite HAr, HBr. apply add_rows_step; auto.
    - intros it C (H1 & H2 & ->). f_equal. destruct H2 as [H2 H3].
      destruct (Nat.eq_dec (snd it) nB) as [|Hne]; auto. specialize (H3 (snd it) ltac:(lia)).
      assert (nth (snd it) (crow B) 0 <= m).
      { unfold m. apply max_elem_fold. rewrite <- Ex. apply nth_In. lia. }
      lia. }
  unfold post in HL. unfold bind at 1. destruct (for_u32 _ _ _ _ _) as [it C| | | | |]; try contradiction. subst C.
  unfold bind at 1, get_coo.
  destruct (St_len nB) as (L1 & L2 & L3).
  assert (Lt : length (cval (St nB)) <= nA + nB).
  { clear. assert (forall r, length (cval (St r)) <= nA + r) as G; [|apply G].
    induction r as [|r IH]; cbn [St]; [lia|]. unfold step1. destruct (hit r); cbn [cval];
      rewrite ?set_nth_length, ?app_length; cbn; lia. }
  destruct (coo_sort_ok srt (St nB) (St nB) HS L2 L3 (fits_u32_le _ _ Hfit Lt)) as (A' & E & W & P).
  unfold bind. rewrite E. exists A'. auto.
Qed.

(** ** What the result holds *)
Lemma St_val r k : r <= nB -> k < nA -> nth k (cval (St r)) zero =
  match find (fun t => Nat.eqb (rB t) (rA k) && Nat.eqb (cB t) (cA k)) (seq 0 r) with
  | Some t => add (vA k) (vB t) | None => vA k end.
Proof.
  intros Hr Hk. induction r as [|r IH]; [reflexivity|]. specialize (IH ltac:(lia)).
  rewrite seq_S. cbn [St Nat.add].
  assert (Hfa : forall (p : nat -> bool) l t, find p (l ++ [t]) = match find p l with Some z => Some z | None => if p t then Some t else None end).
  { intros p l t. induction l as [|z l IHl]; cbn; auto. destruct (p z); auto. }
  rewrite Hfa. unfold step1. destruct (hit r) as [k'|] eqn:Hh; cbn [cval].
  - apply hit_some in Hh. destruct Hh as (Hk' & E1 & E2).
    destruct (St_len r) as (L1 & _). rewrite nth_set_nth by lia. destruct (Nat.eqb_spec k k') as [->|Hne].
    + rewrite IH. destruct (find _ (seq 0 r)) as [t|] eqn:Ef.
      * exfalso. apply find_seq_some in Ef. destruct Ef as (Ht & Hp & _). apply andb_prop in Hp.
        rewrite !Nat.eqb_eq in Hp. pose proof (HBs t r ltac:(lia) ltac:(lia)) as P. unfold pos_lt in P. cbn in P. lia.
      * rewrite E1, E2, !Nat.eqb_refl. reflexivity.
    + rewrite IH. destruct (find _ (seq 0 r)); auto.
      destruct (Nat.eqb_spec (rB r) (rA k)), (Nat.eqb_spec (cB r) (cA k)); cbn [andb]; auto.
      exfalso. apply Hne. apply HAinj; auto; congruence.
  - rewrite app_nth1 by (destruct (St_len r); lia). rewrite IH. destruct (find _ (seq 0 r)); auto.
    destruct (Nat.eqb_spec (rB r) (rA k)), (Nat.eqb_spec (cB r) (cA k)); cbn [andb]; auto.
    exfalso. apply (proj1 (hit_none r) Hh k Hk). auto.
Qed.

(** The appended part: the entries of B whose position is not in A, in order. *)
Definition misses (r : nat) : list nat := filter (fun t => match hit t with None => true | _ => false end) (seq 0 r).
Lemma St_tail r : skipn nA (cval (St r)) = map vB (misses r) /\ skipn nA (crow (St r)) = map rB (misses r) /\
  skipn nA (ccol (St r)) = map cB (misses r).
Proof.
  induction r as [|r (I1 & I2 & I3)].
  - cbn. split; [apply skipn_all|]. split; [rewrite <- HAr; apply skipn_all|rewrite <- HAc; apply skipn_all].
  - unfold misses in *. rewrite seq_S, filter_app, !map_app. cbn [St filter Nat.add]. unfold step1.
    destruct (St_len r) as (L1 & L2 & L3).
    destruct (hit r) as [k|] eqn:Hh; cbn [cval crow ccol map].
    + rewrite !app_nil_r. split; auto. apply hit_some in Hh as [Hk _].
      rewrite <- I1. now apply skipn_set_nth.
    + rewrite !skipn_app, I1, I2, I3. replace (nA - length (cval (St r))) with 0 by lia.
      replace (nA - length (crow (St r))) with 0 by lia. replace (nA - length (ccol (St r))) with 0 by lia. auto.
Qed.

Lemma misses_In r t : In t (misses r) <-> t < r /\ hit t = None.
Proof.
  unfold misses. rewrite filter_In, in_seq. destruct (hit t); split; intros [H1 H2]; split; auto; try lia; discriminate.
Qed.

Lemma nth_tail {X} (l : list X) n k d : n <= k -> nth k l d = nth (k - n) (skipn n l) d.
Proof.
  intros H. replace k with (n + (k - n)) at 1 by lia. generalize (k - n); intro m. clear H.
  revert l; induction n as [|n IH]; intros l; [reflexivity|]. destruct l as [|x l]; cbn; [destruct m; reflexivity|apply IH].
Qed.

Lemma St_In i j x : In ((i, j), x) (coo_entries (St nB)) <->
  (exists k, k < nA /\ rA k = i /\ cA k = j /\ nth k (cval (St nB)) zero = x) \/
  (exists t, t < nB /\ hit t = None /\ rB t = i /\ cB t = j /\ vB t = x).
Proof.
  destruct (St_len nB) as (L1 & L2 & L3). destruct (St_tail nB) as (T1 & T2 & T3).
  assert (Lm : length (cval (St nB)) = nA + length (misses nB)).
  { apply (f_equal (@length T)) in T1. rewrite skipn_length, map_length in T1. lia. }
  assert (Hnth : forall X (f : nat -> X) d m, m < length (misses nB) -> nth m (map f (misses nB)) d = f (nth m (misses nB) 0)).
  { intros X f d m Hm. rewrite (nth_indep _ d (f 0)) by (now rewrite map_length). apply map_nth. }
  unfold coo_entries. rewrite zip3_In by auto. split.
  - intros (k & Hk & E1 & E2 & E3). destruct (Nat.lt_ge_cases k nA) as [L|L].
    + left. exists k. rewrite St_row in E1 by auto. rewrite St_col in E2 by auto. auto.
    + right. rewrite (nth_tail _ nA) in E1 by auto. rewrite (nth_tail _ nA) in E2 by auto. rewrite (nth_tail _ nA) in E3 by auto.
      rewrite T1, Hnth in E3 by lia. rewrite T2, Hnth in E1 by lia. rewrite T3, Hnth in E2 by lia.
      set (t := nth (k - nA) (misses nB) 0) in *.
      assert (In t (misses nB)) as Ht by (apply nth_In; lia). apply misses_In in Ht. exists t. tauto.
  - intros [(k & Hk & E1 & E2 & E3)|(t & Ht & Hh & E1 & E2 & E3)].
    + exists k. rewrite St_row, St_col by auto. split; [lia|auto].
    + assert (In t (misses nB)) as Hin by (apply misses_In; auto).
      destruct (In_nth _ _ 0 Hin) as (m & Hm & Em). exists (nA + m). split; [lia|].
      rewrite !(nth_tail _ nA (nA + m)) by lia. replace (nA + m - nA) with m by lia.
      rewrite T1, T2, T3, !Hnth, Em by lia. auto.
Qed.

Lemma St_sum : sum_entries (coo_entries A) (coo_entries B) (coo_entries (St nB)).
Proof.
  intros i j x. rewrite St_In. unfold coo_entries.
  assert (Hfind : forall k, k < nA ->
    match find (fun t => Nat.eqb (rB t) (rA k) && Nat.eqb (cB t) (cA k)) (seq 0 nB) with
    | Some t => t < nB /\ rB t = rA k /\ cB t = cA k
    | None => forall t, t < nB -> ~ (rB t = rA k /\ cB t = cA k) end).
  { intros k Hk. destruct (find _ _) as [t|] eqn:E.
    - apply find_seq_some in E. destruct E as (H1 & H2 & _). apply andb_prop in H2. rewrite !Nat.eqb_eq in H2.
      split; [lia|auto].
    - intros t Ht [E1 E2]. pose proof (find_seq_none _ _ _ E t ltac:(lia)) as H. cbv beta in H.
      rewrite E1, E2, !Nat.eqb_refl in H. discriminate. }
  split.
  - intros [(k & Hk & E1 & E2 & E3)|(t & Ht & Hh & E1 & E2 & E3)].
    + rewrite St_val in E3 by auto. specialize (Hfind k Hk). destruct (find _ _) as [t|].
      * left. exists (vA k), (vB t). split; [apply zip3_In; auto; exists k; auto|]. split; auto.
        apply zip3_In; auto. exists t. destruct Hfind as (F1 & F2 & F3). split; auto. split; [congruence|]. split; [congruence|auto].
      * right; left. split; [apply zip3_In; auto; exists k; auto|]. intros b Hb. apply zip3_In in Hb; auto.
        destruct Hb as (t & Ht & F1 & F2 & _). apply (Hfind t Ht). split; congruence.
    + right; right. split; [apply zip3_In; auto; exists t; auto|]. intros a Ha. apply zip3_In in Ha; auto.
      destruct Ha as (k & Hk & F1 & F2 & _). apply (proj1 (hit_none t) Hh k Hk). split; congruence.
  - intros [(a & b & Ha & Hb & ->)|[[Ha Hb]|[Hb Ha]]].
    + apply zip3_In in Ha; auto. apply zip3_In in Hb; auto. destruct Ha as (k & Hk & E1 & E2 & <-), Hb as (t & Ht & F1 & F2 & <-).
      left. exists k. split; auto. split; auto. split; auto. rewrite St_val by auto. specialize (Hfind k Hk).
      destruct (find _ _) as [t'|].
      * destruct Hfind as (G1 & G2 & G3). do 2 f_equal.
        destruct (Nat.lt_trichotomy t t') as [L|[L|L]]; auto; exfalso;
          [pose proof (HBs t t' L G1) as P|pose proof (HBs t' t L Ht) as P]; unfold pos_lt in P; cbn in P; lia.
      * exfalso. apply (Hfind t Ht). split; congruence.
    + apply zip3_In in Ha; auto. destruct Ha as (k & Hk & E1 & E2 & <-). left. exists k. split; auto. split; auto. split; auto.
      rewrite St_val by auto. specialize (Hfind k Hk). destruct (find _ _) as [t'|]; auto.
      destruct Hfind as (G1 & G2 & G3). exfalso. apply (Hb (vB t')). apply zip3_In; auto. exists t'. split; auto. split; [congruence|]. split; [congruence|auto].
    + apply zip3_In in Hb; auto. destruct Hb as (t & Ht & E1 & E2 & <-). right. exists t. split; auto. split; auto.
      apply hit_none. intros k Hk [F1 F2]. apply (Ha (vA k)). apply zip3_In; auto. exists k. split; auto. split; [congruence|]. split; [congruence|auto].
Qed.

Lemma St_distinct : distinct (coo_entries (St nB)).
Proof.
  destruct (St_len nB) as (L1 & L2 & L3). destruct (St_tail nB) as (T1 & T2 & T3).
  unfold distinct, coo_entries. rewrite zip3_map_fst by auto.
  rewrite <- (firstn_skipn nA (crow (St nB))), <- (firstn_skipn nA (ccol (St nB))).
  assert (Hfirst : firstn nA (crow (St nB)) = crow A /\ firstn nA (ccol (St nB)) = ccol A).
  { destruct (St_shape nB) as (xv & xr & xc & _ & -> & -> & _). split.
    - rewrite <- HAr at 1. now rewrite firstn_app, firstn_all, Nat.sub_diag, app_nil_r.
    - rewrite <- HAc at 1. now rewrite firstn_app, firstn_all, Nat.sub_diag, app_nil_r. }
  destruct Hfirst as [-> ->]. rewrite T2, T3.
  assert (Hcomb : forall (l1 l2 l3 l4 : list nat), length l1 = length l2 -> combine (l1 ++ l3) (l2 ++ l4) = combine l1 l2 ++ combine l3 l4).
  { induction l1 as [|a l1 IH]; intros [|b l2] l3 l4 E; cbn in *; try lia; auto. f_equal. apply IH. lia. }
  rewrite Hcomb by lia.
  assert (Ec : combine (map rB (misses nB)) (map cB (misses nB)) = map (fun t => (rB t, cB t)) (misses nB)).
  { clear. induction (misses nB) as [|t l IH]; cbn; auto. now rewrite IH. }
  rewrite Ec.
  assert (NA : NoDup (combine (crow A) (ccol A))).
  { rewrite <- (zip3_map_fst _ _ (cval A)) by auto. apply zip3_distinct; auto. intros a b Ha Hb. now apply HAinj. }
  clear T1 T2 T3 Ec.
  assert (NBm : NoDup (map (fun t => (rB t, cB t)) (misses nB))).
  { assert (NoDup (misses nB)) as ND by (unfold misses; apply NoDup_filter, seq_NoDup).
    assert (Hall : forall t, In t (misses nB) -> t < nB) by (intros t Ht; apply misses_In in Ht; tauto).
    induction (misses nB) as [|t l IH]; cbn [map]; constructor.
    - intros Hin. apply in_map_iff in Hin. destruct Hin as (t' & E & Hin). apply NoDup_cons_iff in ND as [ND _].
      apply ND. replace t with t'; auto. inversion E. pose proof (Hall t (or_introl eq_refl)). pose proof (Hall t' (or_intror Hin)).
      destruct (Nat.lt_trichotomy t t') as [L|[L|L]]; auto; exfalso;
        [pose proof (HBs t t' L ltac:(auto)) as P|pose proof (HBs t' t L ltac:(auto)) as P]; unfold pos_lt in P; cbn in P; lia.
    - apply IH; [now apply NoDup_cons_iff in ND|]. intros; apply Hall; right; auto. }
  assert (Dis : forall p, In p (combine (crow A) (ccol A)) -> ~ In p (map (fun t => (rB t, cB t)) (misses nB))).
  { intros p Hp Hq. apply in_map_iff in Hq. destruct Hq as (t & <- & Ht). apply misses_In in Ht as [Ht Hh].
    destruct (In_nth _ _ (0, 0) Hp) as (k & Hk & E). rewrite combine_length in Hk. rewrite combine_nth in E by lia.
    inversion E. apply (proj1 (hit_none t) Hh k); [lia|]. auto. }
  revert NA Dis. generalize (combine (crow A) (ccol A)). intros l NA Dis. clear -NA NBm Dis.
  induction l as [|p l IH]; cbn; auto. apply NoDup_cons_iff in NA as [N1 N2]. constructor.
  - intros H. apply in_app_or in H. destruct H; auto. apply (Dis p); auto. left; auto.
  - apply IH; auto. intros q Hq. apply Dis. right; auto.
Qed.
End AddProof.
