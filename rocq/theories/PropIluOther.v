(** * C108: the ILU preconditioner of every matrix type of the library

    Coordinate storage gives the dense factors bit for bit.  The types that store a band or a
    triangle throw as soon as the matrix has a position outside it; symmetric storage is accepted
    and factorised wrongly. *)
From Coq Require Import ZArith QArith Qcanon Lia List.
From Verif Require Import Base Scalar BaseLemmas Spec Sums ModelVec ModelMat SpecMat ModelSparse ModelPacked
  ProofVec ProofVecProp ProofMatOps ModelSolvers ModelIter ProofChol ProofIlu PropVec PropMat PropIlu
  ProofPacked PropPacked ProofSparse SpecSparse PropSparse ProofGmresRun PropGmresAny SpecParam ProofParam SpecUnits ProofUnits PropUnits PropStorage PropTdma
  ModelIluOther ProofIluOther.
Import ListNotations.
Local Open Scope nat_scope.

(** ** Coordinate storage *)
Section Coo.
Context {T : Type} {Op : Ops T}.
Implicit Types (h : heap T) (A : coo T).

(** As many row and column indices as values, and few enough for the 32-bit search loop. *)
Definition coo_wf A : Prop := length (crow A) = length (cval A) /\ length (ccol A) = length (cval A) /\ fits_u32 (length (cval A)) = true.
Definition coo_reads A n (a : nat -> nat -> T) : Prop := forall S (s : S) i j, i < n -> j < n -> coo_get A i j s = Ok (a i j) s.
Definition coo_view A (i j : nat) : T :=
  match find (at_pos A i j) (seq 0 (length (cval A))) with Some k => nth k (cval A) zero | None => zero end.
Definition coo_same A (F : coo T) : Prop := crow F = crow A /\ ccol F = ccol A /\ length (cval F) = length (cval A).

Lemma coo_view_ok A S (s : S) i j : coo_wf A -> coo_get A i j s = Ok (coo_view A i j) s.
Proof. intros (W1 & W2 & W3). now apply coo_get_val. Qed.
Lemma coo_view_reads A n a : coo_wf A -> coo_reads A n a -> forall i j, i < n -> j < n -> coo_view A i j = a i j.
Proof. intros W R i j Hi Hj. pose proof (R unit tt i j Hi Hj) as E. rewrite (coo_view_ok A) in E by auto. congruence. Qed.
Lemma coo_same_wf A (F : coo T) : coo_wf A -> coo_same A F -> coo_wf F.
Proof. intros (W1 & W2 & W3) (E1 & E2 & E3). unfold coo_wf. rewrite E1, E2, E3. auto. Qed.

Lemma ilu_coo_outcome n m A S (s : S) : eqb zero zero = true -> coo_wf A -> coo_shape A tt = Ok (n, m) tt -> m <= n -> fits_u32 n = true ->
  (exists F, ilu_coo A s = Ok F s /\ coo_same A F /\ ilu_done n m (coo_view A) (coo_view F)) \/
  (exists F, ilu_coo A s = Throw RuntimeError s /\ coo_same A F /\ ilu_stop n m (coo_view A) (coo_view F)).
Proof.
  intros Z W Sh Hm Hf.
  assert (P : postx ilu_coo_run A (fun _ B => coo_same A B /\ ilu_done n m (coo_view A) (coo_view B))
     (fun e B => e = RuntimeError /\ coo_same A B /\ ilu_stop n m (coo_view A) (coo_view B))).
  { apply (ilu_new_ok (fun A => coo_shape A A) (fun i j A => coo_get A i j A) coo_set n m (coo_same A) coo_view Hm); auto.
    - intros B (E1 & E2 & _). unfold coo_shape, bind in *. rewrite E1, E2. destruct (crow A), (ccol A); try discriminate.
      cbn [max_elem] in *. unfold ret in *. congruence.
    - intros B i j G _ _. apply coo_view_ok. now apply (coo_same_wf A).
    - intros B i j x G Hi Hj Nz. pose proof (coo_same_wf A B W G) as WB. destruct G as (E1 & E2 & E3). pose proof WB as (W1 & W2 & W3).
      unfold coo_set. unfold bind at 1. rewrite coo_find_ok by auto. unfold coo_view in Nz.
      destruct (find (at_pos B i j) (seq 0 (length (cval B)))) as [k|] eqn:Ek.
      2:{ unfold nzb in Nz. rewrite Z in Nz. discriminate. }
      pose proof (find_seq_some _ _ _ _ Ek) as (Hk & Pk & _). unfold bind. rewrite vec_set_d by lia.
      eexists. split; [reflexivity|]. split; [unfold coo_same; cbn; rewrite set_nth_length; auto|].
      assert (AP : forall i j (l : list T), at_pos (mkCoo l (crow B) (ccol B)) i j = at_pos B i j) by reflexivity.
      unfold coo_view. cbn [cval]. rewrite set_nth_length. split.
      + rewrite AP, Ek. rewrite nth_set_nth by lia. now rewrite Nat.eqb_refl.
      + intros i' j' _ _ Ne. rewrite AP. destruct (find (at_pos B i' j') _) as [k'|] eqn:Ek'; [|reflexivity].
        pose proof (find_seq_some _ _ _ _ Ek') as (Hk' & Pk' & _). apply nth_set_nth_other. intros ->.
        apply at_pos_true in Pk, Pk'. apply Ne. f_equal; lia.
    - repeat split. }
  unfold postx in P. unfold ilu_coo, on_copy. destruct (ilu_coo_run A) as [u B|e B| | | |]; try contradiction.
  - left. destruct P as [G D]. exists B. auto.
  - right. destruct P as (-> & G & D). exists B. auto.
Qed.

(** Both constructors throw, or the factors read the same and solve to the same bits.  The places
    of the entries do not change. *)
Theorem C108_coo : forall n D A h, eqb (T := T) zero zero = true ->
  fits_u32 n = true -> ismat h D n n -> coo_wf A -> coo_shape A tt = Ok (n, n) tt -> coo_reads A n (mget h D) ->
  (exists F h1 L, ilu_dyn D h = Ok F h1 /\ ilu_coo A h = Ok L h /\ ismat h1 F n n /\ coo_wf L /\ crow L = crow A /\ ccol L = ccol A /\
     coo_reads L n (mget h1 F) /\
     forall b, isvec h b n -> exists x g1 z g2, ilu_dyn_solve F b h1 = Ok x g1 /\ ilu_coo_solve L b h = Ok z g2 /\ isvec g1 x n /\ isvec g2 z n /\
       forall i, i < n -> rd g1 x i = rd g2 z i) \/
  (exists h1, ilu_dyn D h = Throw RuntimeError h1 /\ ilu_coo A h = Throw RuntimeError h).
Proof.
  intros n D A h Z Hf HD W Sh R. pose proof (ilu_dyn_outcome n D h HD Hf) as P. unfold postx in P.
  assert (IE : forall i j, i < n -> j < n -> mget h D i j = coo_view A i j) by (intros i j Hi Hj; symmetry; now apply (coo_view_reads A n)).
  assert (IU : munits (eqr (T := T)) n n (fun i j => (fun _ => 0%Z) i + (fun _ => 0%Z) j)%Z (mget h D) (coo_view A)) by exact IE.
  destruct (ilu_coo_outcome n n A (heap T) h Z W Sh (le_n n) Hf) as [(L & E & G & Dn)|(L & E & G & Dn)];
    destruct (ilu_dyn D h) as [F h1|e h1| | | |]; try contradiction.
  - left. destruct P as ((X1 & _ & VF & _) & DnF). exists F, h1, L. split; [reflexivity|]. split; [exact E|]. split; [exact VF|].
    pose proof (coo_same_wf A L W G) as WL. split; [exact WL|]. destruct G as (G1 & G2 & _). split; [exact G1|]. split; [exact G2|].
    pose proof (ilu_done_unique n n _ _ _ _ IE (le_n n) DnF Dn) as IF.
    split. { intros S s i j Hi Hj. rewrite (IF i j Hi Hj). now apply coo_view_ok. }
    intros b Hb. assert (Hb1 : isvec h1 b n) by (eapply ext_isvec; eauto).
    assert (AD : applies n h1 (ilu_dyn_solve F) (lu_apply n (mget h1 F))).
    { apply lu_applies; [exact Hf|]. intros g i j X. now apply mat_get_ext. }
    assert (AS : applies n h (ilu_coo_solve L) (lu_apply n (coo_view L))).
    { apply lu_applies; [exact Hf|]. intros g i j _ Hi _. now apply coo_view_ok. }
    destruct (post_ok _ _ _ (AD h1 b (ext_refl _) Hb1)) as (x & g1 & E1 & (_ & _ & V1 & R1)).
    destruct (post_ok _ _ _ (AS h b (ext_refl _) Hb)) as (z & g2 & E2 & (_ & _ & V2 & R2)).
    exists x, g1, z, g2. repeat (split; [assumption|]). intros i Hi. rewrite R1, R2 by exact Hi.
    apply lu_same; [intros; now apply IF|intros k Hk|exact Hi]. unfold rd. destruct X1 as [_ ->]; [reflexivity|apply Hb].
  - exfalso. destruct P as (_ & _ & f & S). exact (ilu_stop_units' (eq_units Op) (eq_zero Op) n _ _ _ _ _ _ IU (fun _ _ => I) S Dn).
  - exfalso. destruct P as (_ & S). exact (ilu_stop_units (eq_units Op) (eq_zero Op) n _ _ _ _ _ _ IU (fun _ _ => I) S Dn).
  - right. destruct P as (-> & _ & _). exists h1. auto.
Qed.

(** A matrix without entries has no shape: the constructor dereferences the end of an empty range. *)
Theorem C108_coo_empty : forall A S (s : S), crow A = [] -> ilu_coo A s = UB.
Proof. intros A S s E. unfold ilu_coo, on_copy, ilu_coo_run, ilu_new, ilu_decomp, bind, coo_shape, bind. now rewrite E. Qed.
End Coo.

(** ** Types that store a part of the positions *)
Section Part.
Context {T : Type} {Op : Ops T}.

Lemma ranged n : fits_u32 n = true -> (Z.of_nat n < 2 ^ 64)%Z.
Proof. unfold fits_u32. intros H. apply Z.ltb_lt in H. lia. Qed.

Definition tri_ok (i j : nat) : bool := Nat.leb i (j + 1) && Nat.leb j (i + 1).
Lemma tri_refuses e n (t : tri T) : fits_u32 n = true -> tri_wf T t n ->
  postx (ilu_tri_run e) t (fun _ t' => tri_wf T t' n /\ forall i j, i < n -> j < n -> tri_ok i j = true)
    (bad n tri_ok e (fun t' => tri_wf T t' n)).
Proof.
  intros Hf W. apply ilu_new_refuses; auto.
  - intros c (E & _). unfold tri_order. now rewrite E.
  - intros c i j (W1 & W2 & W3) Hi Hj. unfold tri_ok, tri_get_mut. rewrite (tri_where_spec n) by auto using ranged.
    destruct (Nat.leb_spec i (j + 1)), (Nat.leb_spec j (i + 1)), (Nat.eqb_spec i j), (Nat.eqb_spec j (i + 1)), (Nat.eqb_spec i (j + 1)); cbn [andb];
      try lia; try reflexivity; rewrite (vec_at_d _ zero) by lia; eauto.
  - intros c i j x (W1 & W2 & W3) Hi Hj O. unfold tri_ok in O. apply andb_prop in O as [O1 O2]. apply Nat.leb_le in O1, O2.
    unfold tri_set. rewrite (tri_where_spec n) by auto using ranged. unfold bind, tri_wf.
    destruct (Nat.eqb_spec i j), (Nat.eqb_spec j (i + 1)), (Nat.eqb_spec i (j + 1)); try lia; rewrite vec_set_d by lia; (eexists; split; [reflexivity|]);
      cbn [td tdl tdu]; rewrite ?set_nth_length; auto.
Qed.
(** Of order three or more: throws, whatever the entries are. *)
Theorem C108_tridiagonal : forall e n (t : tri T) S (s : S), fits_u32 n = true -> tri_wf T t n -> 3 <= n -> ilu_tri e t s = Throw e s.
Proof.
  intros e n t S s Hf W Hn. pose proof (tri_refuses e n t Hf W) as P. unfold postx in P. unfold ilu_tri, on_copy.
  destruct (ilu_tri_run e t) as [u t'|x t'| | | |]; try contradiction.
  - destruct P as [_ P]. specialize (P 0 2 ltac:(lia) ltac:(lia)). discriminate.
  - destruct P as (_ & [[-> _]|(_ & i & j & Hj & Hi & _ & H)]); [reflexivity|]. specialize (H 0 2 ltac:(lia) ltac:(lia)). discriminate.
Qed.

Definition hess_ok (i j : nat) : bool := Nat.leb i (j + 1).
Lemma hess_refuses n (H : hess T) : fits_u32 n = true -> hess_wf H n ->
  postx ilu_hess_run H (fun _ H' => hess_wf H' n /\ forall i j, i < n -> j < n -> hess_ok i j = true)
    (bad n hess_ok InvalidArgument (fun H' => hess_wf H' n)).
Proof.
  intros Hf W. apply ilu_new_refuses; auto.
  - intros c (E & _). now rewrite E.
  - intros c i j (W1 & W2) Hi Hj. unfold hess_ok, hess_get_mut. destruct (Nat.leb_spec i (j + 1)); [|reflexivity].
    rewrite (vec_at_d _ zero) by (rewrite W2; now apply hess_off_lt). eauto.
  - intros c i j x (W1 & W2) Hi Hj O. unfold hess_ok in O. unfold hess_set. rewrite O. apply Nat.leb_le in O. unfold bind.
    rewrite vec_set_d by (rewrite W2; now apply hess_off_lt). eexists. split; [reflexivity|]. split; cbn [hn hv]; [auto|]. now rewrite set_nth_length.
Qed.
Theorem C108_hessenberg : forall n (H : hess T) S (s : S), fits_u32 n = true -> hess_wf H n -> 3 <= n ->
  ilu_hess H s = Throw InvalidArgument s \/ ilu_hess H s = Throw RuntimeError s.
Proof.
  intros n H S s Hf W Hn. pose proof (hess_refuses n H Hf W) as P. unfold postx in P. unfold ilu_hess, on_copy.
  destruct (ilu_hess_run H) as [u t'|x t'| | | |]; try contradiction.
  - destruct P as [_ P]. specialize (P 2 0 ltac:(lia) ltac:(lia)). discriminate.
  - destruct P as (_ & [[-> _]|(-> & _)]); auto.
Qed.

Definition utri_ok (i j : nat) : bool := Nat.leb i j.
Lemma utri_refuses n (U : utri T) : fits_u32 n = true -> utri_wf U n ->
  postx ilu_utri_run U (fun _ U' => utri_wf U' n /\ forall i j, i < n -> j < n -> utri_ok i j = true)
    (bad n utri_ok InvalidArgument (fun U' => utri_wf U' n)).
Proof.
  intros Hf W. apply ilu_new_refuses; auto.
  - intros c (E & _). now rewrite E.
  - intros c i j (W1 & W2) Hi Hj. unfold utri_ok, utri_get_mut. destruct (Nat.leb_spec i j); [|reflexivity].
    rewrite (vec_at_d _ zero) by (rewrite W2; now apply utri_off_lt). eauto.
  - intros c i j x (W1 & W2) Hi Hj O. unfold utri_ok in O. unfold utri_set. rewrite O. apply Nat.leb_le in O. unfold bind.
    rewrite vec_set_d by (rewrite W2; now apply utri_off_lt). eexists. split; [reflexivity|]. split; cbn [un uv]; [auto|]. now rewrite set_nth_length.
Qed.
Theorem C108_upper : forall n (U : utri T) S (s : S), fits_u32 n = true -> utri_wf U n -> 2 <= n -> ilu_utri U s = Throw InvalidArgument s.
Proof.
  intros n U S s Hf W Hn. pose proof (utri_refuses n U Hf W) as P. unfold postx in P. unfold ilu_utri, on_copy.
  destruct (ilu_utri_run U) as [u t'|x t'| | | |]; try contradiction.
  - destruct P as [_ P]. specialize (P 1 0 ltac:(lia) ltac:(lia)). discriminate.
  - destruct P as (_ & [[-> _]|(_ & i & j & Hj & Hi & H & _)]); [reflexivity|]. specialize (H 0 ltac:(lia)). unfold utri_ok in H. apply Nat.leb_le in H. lia.
Qed.

(** A factorisation of the elements [a] held by another class, against that of a dense matrix with
    the same elements. *)
Lemma against_dense n D h (a f : nat -> nat -> T) (get : nat -> nat -> M (heap T) T) : fits_u32 n = true -> ismat h D n n ->
  (forall i j, i < n -> j < n -> mget h D i j = a i j) -> (forall g i j, i < n -> j < n -> get i j g = Ok (f i j) g) -> ilu_done n n a f ->
  exists F h1, ilu_dyn D h = Ok F h1 /\ ismat h1 F n n /\ (forall i j, i < n -> j < n -> mget h1 F i j = f i j) /\
    forall b, isvec h b n -> exists x g1 z g2, ilu_dyn_solve F b h1 = Ok x g1 /\ ilu_solve get b h = Ok z g2 /\ isvec g1 x n /\ isvec g2 z n /\
      forall i, i < n -> rd g1 x i = rd g2 z i.
Proof.
  intros Hf HD E Hg Dn. pose proof (ilu_dyn_outcome n D h HD Hf) as P. unfold postx in P.
  destruct (ilu_dyn D h) as [F h1|e h1| | | |]; try contradiction.
  2:{ exfalso. destruct P as (_ & _ & f' & St).
      exact (ilu_stop_units' (eq_units Op) (eq_zero Op) n (fun _ => 0%Z) (fun _ => 0%Z) _ _ _ _ E (fun _ _ => I) St Dn). }
  destruct P as ((X1 & _ & VF & _) & DnF). exists F, h1. split; [reflexivity|]. split; [exact VF|].
  pose proof (ilu_done_unique n n _ _ _ _ E (le_n n) DnF Dn) as IF. split; [exact IF|].
  intros b Hb. assert (Hb1 : isvec h1 b n) by (eapply ext_isvec; eauto).
  assert (AD : applies n h1 (ilu_dyn_solve F) (lu_apply n (mget h1 F))).
  { apply lu_applies; [exact Hf|]. intros g i j X. now apply mat_get_ext. }
  assert (AS : applies n h (ilu_solve get) (lu_apply n f)) by (apply lu_applies; auto).
  destruct (post_ok _ _ _ (AD h1 b (ext_refl _) Hb1)) as (x & g1 & E1 & (_ & _ & V1 & R1)).
  destruct (post_ok _ _ _ (AS h b (ext_refl _) Hb)) as (z & g2 & E2 & (_ & _ & V2 & R2)).
  exists x, g1, z, g2. repeat (split; [assumption|]). intros i Hi. rewrite R1, R2 by exact Hi.
  apply lu_same; [exact IF|intros k Hk|exact Hi]. unfold rd. destruct X1 as [_ ->]; [reflexivity|apply Hb].
Qed.
Lemma against_dense_stop n D h (a f : nat -> nat -> T) : fits_u32 n = true -> ismat h D n n ->
  (forall i j, i < n -> j < n -> mget h D i j = a i j) -> ilu_stop n n a f -> exists h1, ilu_dyn D h = Throw RuntimeError h1.
Proof.
  intros Hf HD E St. pose proof (ilu_dyn_outcome n D h HD Hf) as P. unfold postx in P.
  destruct (ilu_dyn D h) as [F h1|e h1| | | |]; try contradiction.
  - exfalso. destruct P as (_ & DnF).
    assert (E' : forall i j, i < n -> j < n -> a i j = mget h D i j) by (intros; symmetry; auto).
    exact (ilu_stop_units' (eq_units Op) (eq_zero Op) n (fun _ => 0%Z) (fun _ => 0%Z) _ _ _ _ E' (fun _ _ => I) St DnF).
  - destruct P as (-> & _). eauto.
Qed.

(** A tridiagonal matrix of order two or less is factorised like the dense one. *)
Theorem C108_tridiagonal_small : forall e n (t : tri T) D h, tri_wf T t n -> n <= 2 -> ismat h D n n ->
  (forall i j, i < n -> j < n -> mget h D i j = band T Op (tdl t) (td t) (tdu t) i j) ->
  (exists F h1 f, ilu_dyn D h = Ok F h1 /\ ilu_tri e t h = Ok f h /\ ismat h1 F n n /\ tri_wf T f n /\
     (forall i j, i < n -> j < n -> mget h1 F i j = band T Op (tdl f) (td f) (tdu f) i j) /\
     forall b, isvec h b n -> exists x g1 z g2, ilu_dyn_solve F b h1 = Ok x g1 /\ ilu_tri_solve f b h = Ok z g2 /\ isvec g1 x n /\ isvec g2 z n /\
       forall i, i < n -> rd g1 x i = rd g2 z i) \/
  (exists h1, ilu_dyn D h = Throw RuntimeError h1 /\ ilu_tri e t h = Throw RuntimeError h).
Proof.
  intros e n t D0 h W Hn HD E0. assert (Hf : fits_u32 n = true) by (unfold fits_u32; apply Z.ltb_lt; lia).
  assert (IB : forall i j, i < n -> j < n -> in_band i j) by (unfold in_band; lia).
  pose proof (ilu_new_ok (fun t => Ok (tri_order t, tri_order t) t) (tri_get_mut e) (tri_set e) n n (fun t => tri_wf T t n)
    (fun t => band T Op (tdl t) (td t) (tdu t)) (le_n n)) as K.
  assert (P : postx (ilu_tri_run e) t (fun _ f => tri_wf T f n /\ ilu_done n n (band T Op (tdl t) (td t) (tdu t)) (band T Op (tdl f) (td f) (tdu f)))
    (fun x f => x = RuntimeError /\ tri_wf T f n /\ ilu_stop n n (band T Op (tdl t) (td t) (tdu t)) (band T Op (tdl f) (td f) (tdu f)))).
  { apply K; auto.
    - intros c (E & _). unfold tri_order. now rewrite E.
    - intros c i j G Hi Hj. apply (proj2 (C20_read T Op c n i j G (ranged n Hf) Hi Hj (IB i j Hi Hj))).
    - intros c i j x (W1 & W2 & W3) Hi Hj _. unfold tri_set. rewrite (tri_where_spec n) by auto using ranged. unfold bind, tri_wf.
      destruct (Nat.eqb_spec i j), (Nat.eqb_spec j (i + 1)), (Nat.eqb_spec i (j + 1)); try lia; rewrite vec_set_d by lia; (eexists; split; [reflexivity|]);
      cbn [td tdl tdu]; rewrite ?set_nth_length; (split; [auto|]); unfold band; split.
      all: try (intros i' j' Hi' Hj' Ne).
      all: repeat match goal with |- context[Nat.eqb ?x ?y] => destruct (Nat.eqb_spec x y); try lia end.
      all: try reflexivity.
      all: try (rewrite nth_set_nth by lia; match goal with |- context[Nat.eqb ?x ?y] => destruct (Nat.eqb_spec x y); try lia; reflexivity end).
      all: try (rewrite nth_set_nth_other; [reflexivity|intros ->; apply Ne; f_equal; lia]). }
  unfold postx in P. unfold ilu_tri, on_copy. destruct (ilu_tri_run e t) as [u f|x f| | | |]; try contradiction.
  - left. destruct P as [G D].
    destruct (against_dense n D0 h _ _ (tri_get f) Hf HD E0 (fun g i j Hi Hj => proj1 (C20_read T Op f n i j G (ranged n Hf) Hi Hj (IB i j Hi Hj)) (heap T) g) D) as (F & h1 & K1 & K2 & K3 & K4).
    exists F, h1, f. auto 8.
  - right. destruct P as (-> & _ & St). destruct (against_dense_stop n D0 h _ _ Hf HD E0 St) as (h1 & K1). eauto.
Qed.

(** The same for a Hessenberg matrix of order two or less and an upper triangular one of order one. *)
Definition hess_at (H : hess T) (i j : nat) : T := nth (hess_off i j) (hv H) zero.
Theorem C108_hessenberg_small : forall n (H : hess T) D h, hess_wf H n -> n <= 2 -> ismat h D n n ->
  (forall i j, i < n -> j < n -> mget h D i j = hess_at H i j) ->
  (exists F h1 f, ilu_dyn D h = Ok F h1 /\ ilu_hess H h = Ok f h /\ ismat h1 F n n /\ hess_wf f n /\
     (forall i j, i < n -> j < n -> mget h1 F i j = hess_at f i j) /\
     forall b, isvec h b n -> exists x g1 z g2, ilu_dyn_solve F b h1 = Ok x g1 /\ ilu_hess_solve f b h = Ok z g2 /\ isvec g1 x n /\ isvec g2 z n /\
       forall i, i < n -> rd g1 x i = rd g2 z i) \/
  (exists h1, ilu_dyn D h = Throw RuntimeError h1 /\ ilu_hess H h = Throw RuntimeError h).
Proof.
  intros n H D0 h W Hn HD E0. assert (Hf : fits_u32 n = true) by (unfold fits_u32; apply Z.ltb_lt; lia).
  assert (IB : forall i j, i < n -> j < n -> i <= j + 1) by lia.
  assert (P : postx ilu_hess_run H (fun _ f => hess_wf f n /\ ilu_done n n (hess_at H) (hess_at f))
    (fun x f => x = RuntimeError /\ hess_wf f n /\ ilu_stop n n (hess_at H) (hess_at f))).
  { apply (ilu_new_ok (fun H => Ok (hn H, hn H) H) hess_get_mut hess_set n n (fun H => hess_wf H n) hess_at (le_n n)); auto.
    - intros c (E & _). now rewrite E.
    - intros c i j (W1 & W2) Hi Hj. unfold hess_get_mut. rewrite (proj2 (Nat.leb_le _ _) (IB i j Hi Hj)).
      apply vec_at_d. rewrite W2. apply hess_off_lt; auto.
    - intros c i j x (W1 & W2) Hi Hj _. unfold hess_set. rewrite (proj2 (Nat.leb_le _ _) (IB i j Hi Hj)). unfold bind.
      assert (L : hess_off i j < length (hv c)) by (rewrite W2; apply hess_off_lt; auto).
      rewrite vec_set_d by exact L. eexists. split; [reflexivity|]. split; [split; cbn [hn hv]; [auto|now rewrite set_nth_length]|].
      unfold hess_at. cbn [hv]. split; [rewrite nth_set_nth by exact L; now rewrite Nat.eqb_refl|].
      intros i' j' Hi' Hj' Ne. apply nth_set_nth_other. intros E. apply hess_off_inj in E; [|auto|auto]. apply Ne. f_equal; lia. }
  unfold postx in P. unfold ilu_hess, on_copy. destruct (ilu_hess_run H) as [u f|x f| | | |]; try contradiction.
  - left. destruct P as [G D].
    assert (Hg : forall (g : heap T) i j, i < n -> j < n -> hess_get f i j g = Ok (hess_at f i j) g).
    { intros g i j Hi Hj. unfold hess_get. rewrite (proj2 (Nat.leb_le _ _) (IB i j Hi Hj)).
      destruct G as (_ & W2). apply vec_at_d. rewrite W2. apply hess_off_lt; auto. }
    destruct (against_dense n D0 h _ _ (hess_get f) Hf HD E0 Hg D) as (F & h1 & K1 & K2 & K3 & K4). exists F, h1, f. auto 8.
  - right. destruct P as (-> & _ & St). destruct (against_dense_stop n D0 h _ _ Hf HD E0 St) as (h1 & K1). eauto.
Qed.
Definition utri_at (U : utri T) (i j : nat) : T := nth (utri_off i j) (uv U) zero.
Theorem C108_upper_small : forall n (U : utri T) S (s : S), utri_wf U n -> n <= 1 ->
  exists F, ilu_utri U s = Ok F s /\ utri_wf F n /\ (forall i j, i < n -> j < n -> utri_at F i j = utri_at U i j) /\
     forall h b, isvec h b n -> exists x h1, ilu_utri_solve F b h = Ok x h1 /\ newvec h h1 x n (rd h1 x) /\
       forall i, i < n -> rd h1 x i = div (rd h b i) (utri_at F i i).
Proof.
  intros n U S s W Hn. assert (Hf : fits_u32 n = true) by (unfold fits_u32; apply Z.ltb_lt; lia).
  assert (IB : forall i j, i < n -> j < n -> i <= j) by lia.
  assert (P : postx ilu_utri_run U (fun _ f => utri_wf f n /\ ilu_done n n (utri_at U) (utri_at f))
    (fun x f => x = RuntimeError /\ utri_wf f n /\ ilu_stop n n (utri_at U) (utri_at f))).
  { apply (ilu_new_ok (fun U => Ok (un U, un U) U) utri_get_mut utri_set n n (fun U => utri_wf U n) utri_at (le_n n)); auto.
    - intros c (E & _). now rewrite E.
    - intros c i j (W1 & W2) Hi Hj. unfold utri_get_mut. rewrite (proj2 (Nat.leb_le _ _) (IB i j Hi Hj)).
      apply vec_at_d. rewrite W2. apply utri_off_lt; auto.
    - intros c i j x (W1 & W2) Hi Hj _. unfold utri_set. rewrite (proj2 (Nat.leb_le _ _) (IB i j Hi Hj)). unfold bind.
      assert (L : utri_off i j < length (uv c)) by (rewrite W2; apply utri_off_lt; auto).
      rewrite vec_set_d by exact L. eexists. split; [reflexivity|]. split; [split; cbn [un uv]; [auto|now rewrite set_nth_length]|].
      unfold utri_at. cbn [uv]. split; [rewrite nth_set_nth by exact L; now rewrite Nat.eqb_refl|].
      intros i' j' Hi' Hj' Ne. exfalso. apply Ne. f_equal; lia. }
  unfold postx in P. unfold ilu_utri, on_copy. destruct (ilu_utri_run U) as [u f|x f| | | |]; try contradiction.
  - exists f. destruct P as [G D]. split; [reflexivity|]. split; [exact G|]. split.
    { intros i j Hi Hj. assert (i = 0) by lia. assert (j = 0) by lia. subst. destruct (D 0 Hi) as [_ U0]. specialize (U0 0 (le_n 0) Hj).
      unfold urec in U0. destruct (nzb _); exact U0. }
    intros h b Hb.
    assert (K : post (ilu_utri_solve f b) h (fun x h1 => newvec h h1 x n (rd h1 x) /\ ilu_solved n (utri_at f) (rd h b) (rd h1 x))).
    { apply ilu_solve_ok; auto. intros g i j _ Hi Hj. unfold utri_get. rewrite (proj2 (Nat.leb_le _ _) (IB i j Hi Hj)).
      destruct G as (_ & W2). apply vec_at_d. rewrite W2. apply utri_off_lt; auto. }
    destruct (post_ok _ _ _ K) as (x & h1 & E & N & y & Y & X). exists x, h1. split; [exact E|]. split; [exact N|].
    intros i Hi. assert (i = 0) by lia. subst. rewrite (X 0 Hi). replace (n - 1) with 0 by lia. cbn [ssub]. now rewrite (Y 0 Hi).
  - exfalso. destruct P as (_ & _ & i & j & Hj & Hi & _). lia.
Qed.

(** A lower triangular object is treated as the symmetric one with the same elements, at every order. *)
Definition low_sym (L : ltri T) (H : herm T) : Prop := ln L = en H /\ lv L = ev H.
Lemma like_same : Like Op Op eq.
Proof. constructor; intros; subst; reflexivity. Qed.
Theorem C108_lower_as_symmetric : forall n (l : list T) S (s : S),
  match ilu_herm (mkHerm n l) s, ilu_ltri (mkLtri n l) s with
  | Ok F s1, Ok G s2 => s1 = s /\ s2 = s /\ ln G = en F /\ lv G = ev F
  | Throw e s1, Throw e' s2 => e = e' /\ s1 = s /\ s2 = s
  | Terminate, Terminate | AssertFail, AssertFail | UB, UB | Diverge, Diverge => True
  | _, _ => False
  end /\
  forall b h, ilu_ltri_solve (mkLtri n l) b h = ilu_herm_solve (mkHerm n l) b h.
Proof.
  intros n l S s. split; [|reflexivity].
  assert (K : alike low_sym eq ilu_ltri_run ilu_herm_run).
  { apply (al_ilu_new eq (L := like_same)).
    - intros L H (E1 & E2). cbn. rewrite E1. repeat split; auto.
    - intros i j L H (E1 & E2). unfold ltri_get, herm_get, vec_at. rewrite E2. destruct (nth_error _ _); cbn; auto. repeat split; auto.
    - intros i j x y -> L H (E1 & E2). unfold ltri_set, herm_set, bind, vec_set. rewrite E2, E1. destruct (Nat.ltb _ _); cbn; auto. repeat split; auto. }
  specialize (K (mkLtri n l) (mkHerm n l) (conj eq_refl eq_refl)). unfold ilu_ltri, ilu_herm, on_copy.
  destruct (ilu_ltri_run (mkLtri n l)), (ilu_herm_run (mkHerm n l)); cbn in K; try contradiction; auto.
  - destruct K as (_ & E1 & E2). auto.
  - destruct K as (-> & _). auto.
Qed.

(** A diagonal matrix held in symmetric storage is factorised as the dense one, at every order. *)
Definition herm_at (H : herm T) (i j : nat) : T := nth (low_off i j) (ev H) zero.
Definition herm_wf (H : herm T) n : Prop := en H = n /\ length (ev H) = tri_len n.
Definition herm_diag (H : herm T) n : Prop := forall i j, i < n -> j < n -> i <> j -> nzb (herm_at H i j) = false.
Theorem C108_symmetric_diagonal : forall n (H : herm T) D h, fits_u32 n = true -> herm_wf H n -> herm_diag H n -> ismat h D n n ->
  (forall i j, i < n -> j < n -> mget h D i j = herm_at H i j) ->
  (exists F h1 f, ilu_dyn D h = Ok F h1 /\ ilu_herm H h = Ok f h /\ ismat h1 F n n /\ herm_wf f n /\
     (forall i j, i < n -> j < n -> mget h1 F i j = herm_at f i j) /\
     forall b, isvec h b n -> exists x g1 z g2, ilu_dyn_solve F b h1 = Ok x g1 /\ ilu_herm_solve f b h = Ok z g2 /\ isvec g1 x n /\ isvec g2 z n /\
       forall i, i < n -> rd g1 x i = rd g2 z i).
Proof.
  intros n H D0 h Hf W Dg HD E0.
  assert (P : postx ilu_herm_run H (fun _ f => (herm_wf f n /\ herm_diag f n) /\ ilu_done n n (herm_at H) (herm_at f))
    (fun x f => x = RuntimeError /\ (herm_wf f n /\ herm_diag f n) /\ ilu_stop n n (herm_at H) (herm_at f))).
  { apply (ilu_new_ok (fun H => Ok (en H, en H) H) (fun i j H => herm_get H i j H) herm_set n n (fun H => herm_wf H n /\ herm_diag H n) herm_at (le_n n)); auto.
    - intros c ((E & _) & _). now rewrite E.
    - intros c i j ((W1 & W2) & _) Hi Hj. apply vec_at_d. rewrite W2. now apply low_off_lt.
    - intros c i j x ((W1 & W2) & G) Hi Hj Nz. destruct (Nat.eq_dec i j) as [->|Ne]; [|rewrite G in Nz by auto; discriminate].
      assert (L : low_off j j < length (ev c)) by (rewrite W2; now apply low_off_lt).
      unfold herm_set, bind. rewrite vec_set_d by exact L. eexists. split; [reflexivity|].
      assert (OT : forall i' j', (i', j') <> (j, j) -> herm_at (mkHerm (en c) (set_nth (low_off j j) x (ev c))) i' j' = herm_at c i' j').
      { intros i' j' Ne. apply nth_set_nth_other. intros E. apply Ne. apply low_off_inj in E as [[-> ->]|[-> ->]]; reflexivity. }
      split; [split; [split; cbn [en ev]; [auto|now rewrite set_nth_length]|]|].
      { intros i' j' Hi' Hj' Ne. rewrite OT by (intros [=]; lia). now apply G. }
      split; [|intros i' j' _ _; apply OT]. unfold herm_at. cbn [ev]. rewrite nth_set_nth by exact L. now rewrite Nat.eqb_refl. }
  unfold postx in P. unfold ilu_herm, on_copy. destruct (ilu_herm_run H) as [u f|x f| | | |]; try contradiction.
  - destruct P as [[G _] D].
    assert (Hg : forall (g : heap T) i j, i < n -> j < n -> herm_get f i j g = Ok (herm_at f i j) g).
    { intros g i j Hi Hj. destruct G as (_ & W2). apply vec_at_d. rewrite W2. now apply low_off_lt. }
    destruct (against_dense n D0 h _ _ (herm_get f) Hf HD E0 Hg D) as (F & h1 & K1 & K2 & K3 & K4). exists F, h1, f. auto 8.
  - exfalso. destruct P as (_ & _ & i & j & Hj & Hi & _ & _ & N & _). rewrite (Dg i j) in N by lia. discriminate.
Qed.

Lemma post_u32_end {S A} n (f : nat -> A -> M S A) a (s : S) (Q : A -> S -> Prop) : fits_u32 n = true -> Q a s -> post (for_u32 n n f a) s Q.
Proof. intros Hf H. unfold for_u32, for_sz. rewrite Hf, Nat.sub_diag. exact H. Qed.
Lemma post_u32_step {S A} lo n (f : nat -> A -> M S A) a (s : S) (Q : A -> S -> Prop) : fits_u32 n = true -> lo < n ->
  post (f lo a) s (fun a' s' => post (for_u32 (Datatypes.S lo) n f a') s' Q) -> post (for_u32 lo n f a) s Q.
Proof.
  intros Hf Hl H. unfold for_u32, for_sz in *. rewrite Hf in *. replace (n - lo) with (Datatypes.S (n - Datatypes.S lo)) by lia.
  cbn [seq loop]. now apply post_bind.
Qed.
Lemma post_get {S A} (m : M S A) (s : S) v (Q : A -> S -> Prop) : m s = Ok v s -> Q v s -> post m s Q.
Proof. intros E H. unfold post. now rewrite E. Qed.
Lemma post_set {S} (m : M S unit) (s s' : S) (Q : unit -> S -> Prop) : m s = Ok tt s' -> Q tt s' -> post m s Q.
Proof. intros E H. unfold post. now rewrite E. Qed.

(** Two by two, any storage that keeps one number p b for the positions (0, 1) and (1, 0). *)
Section Two.
Context {C : Type} (shape : M C (nat * nat)) (get : nat -> nat -> M C T) (set : nat -> nat -> T -> M C unit) (mk : T -> T -> T -> C).
Hypothesis SH : forall a b d, shape (mk a b d) = Ok (2, 2) (mk a b d).
Hypothesis G00 : forall a b d, get 0 0 (mk a b d) = Ok a (mk a b d).
Hypothesis G01 : forall a b d, get 0 1 (mk a b d) = Ok b (mk a b d).
Hypothesis G10 : forall a b d, get 1 0 (mk a b d) = Ok b (mk a b d).
Hypothesis G11 : forall a b d, get 1 1 (mk a b d) = Ok d (mk a b d).
Hypothesis S00 : forall a b d x, set 0 0 x (mk a b d) = Ok tt (mk x b d).
Hypothesis S01 : forall a b d x, set 0 1 x (mk a b d) = Ok tt (mk a x d).
Hypothesis S10 : forall a b d x, set 1 0 x (mk a b d) = Ok tt (mk a x d).
Hypothesis S11 : forall a b d x, set 1 1 x (mk a b d) = Ok tt (mk a b x).
Lemma two_by_two a b d : eqb a zero = false -> eqb b zero = false -> eqb d zero = false ->
  ilu_new shape get set (mk a b d) = Ok tt (mk a (div b a) (sub d (mul (div b a) (div b a)))).
Proof.
  intros Ha Hb Hd.
  assert (P : post (ilu_new shape get set) (mk a b d) (fun _ c => c = mk a (div b a) (sub d (mul (div b a) (div b a))))).
  { assert (F0 : fits_u32 0 = true) by reflexivity. assert (F1 : fits_u32 1 = true) by reflexivity. assert (F2 : fits_u32 2 = true) by reflexivity.
    assert (GG : forall i j a b d (Q : T -> C -> Prop), i < 2 -> j < 2 -> Q (if Nat.eqb i j then if Nat.eqb i 0 then a else d else b) (mk a b d) -> post (get i j) (mk a b d) Q).
    { intros i j a0 b0 d0 Q Hi Hj H. destruct i as [|[|i]], j as [|[|j]]; try lia; cbn [Nat.eqb] in H; eapply post_get; eauto. }
    unfold ilu_new, ilu_decomp, ilu_sum. apply post_bind. apply post_bind. eapply post_get; [apply SH|]. cbn [fst].
    (* row 0 *)
    apply post_u32_step; [exact F2|lia|]. cbn [negb]. apply post_bind. apply post_u32_end; [exact F0|]. cbn [negb].
    apply post_bind. eapply post_get; [apply SH|]. cbn [snd]. apply post_bind.
    apply post_u32_step; [exact F2|lia|]. apply post_bind, GG; [lia|lia|]. cbn [Nat.eqb]. rewrite Ha. cbn [negb].
    apply post_bind, GG; [lia|lia|]. cbn [Nat.eqb]. apply post_bind. apply post_u32_end; [exact F0|]. eapply post_set; [apply S00|].
    apply post_u32_step; [exact F2|lia|]. apply post_bind, GG; [lia|lia|]. cbn [Nat.eqb]. rewrite Hb. cbn [negb].
    apply post_bind, GG; [lia|lia|]. cbn [Nat.eqb]. apply post_bind. apply post_u32_end; [exact F0|]. eapply post_set; [apply S01|].
    apply post_u32_end; [exact F2|]. apply post_ret.
    (* row 1 *)
    apply post_u32_step; [exact F2|lia|]. cbn [negb]. apply post_bind. apply post_u32_step; [exact F1|lia|]. cbn [negb].
    apply post_bind, GG; [lia|lia|]. cbn [Nat.eqb]. rewrite Hb. cbn [negb]. apply post_bind, GG; [lia|lia|]. cbn [Nat.eqb]. rewrite Ha.
    apply post_bind, GG; [lia|lia|]. cbn [Nat.eqb]. apply post_bind. apply post_u32_end; [exact F0|].
    apply post_bind, GG; [lia|lia|]. cbn [Nat.eqb]. apply post_bind. eapply post_set; [apply S10|]. apply post_ret.
    apply post_u32_end; [exact F1|]. cbn [negb]. apply post_bind. eapply post_get; [apply SH|]. cbn [snd]. apply post_bind.
    apply post_u32_step; [exact F2|lia|]. apply post_bind, GG; [lia|lia|]. cbn [Nat.eqb]. rewrite Hd. cbn [negb].
    apply post_bind, GG; [lia|lia|]. cbn [Nat.eqb]. apply post_bind. apply post_u32_step; [exact F1|lia|].
    apply post_bind, GG; [lia|lia|]. cbn [Nat.eqb]. apply post_bind, GG; [lia|lia|]. cbn [Nat.eqb]. apply post_ret.
    apply post_u32_end; [exact F1|]. eapply post_set; [apply S11|].
    apply post_u32_end; [exact F2|]. apply post_ret. apply post_u32_end; [exact F2|]. apply post_ret. reflexivity. }
  destruct (post_ok _ _ _ P) as ([] & c & E & ->). exact E.
Qed.
End Two.

(** Symmetric and lower triangular storage keep one number for (i, j) and (j, i), so storing the
    multiplier b/a at (1, 0) also overwrites the entry (0, 1) of the upper factor, which is then
    used in its place. *)
Theorem C108_symmetric : forall (a b d : T) S (s : S), eqb a zero = false -> eqb b zero = false -> eqb d zero = false ->
  ilu_herm (mkHerm 2 [a; b; d]) s = Ok (mkHerm 2 [a; div b a; sub d (mul (div b a) (div b a))]) s /\
  ilu_ltri (mkLtri 2 [a; b; d]) s = Ok (mkLtri 2 [a; div b a; sub d (mul (div b a) (div b a))]) s.
Proof.
  intros a b d S s Ha Hb Hd. split.
  - unfold ilu_herm, on_copy, ilu_herm_run.
    now rewrite (two_by_two (fun H => Ok (en H, en H) H) (fun i j H => herm_get H i j H) herm_set (fun a b d => mkHerm 2 [a; b; d])) by (reflexivity || assumption).
  - unfold ilu_ltri, on_copy, ilu_ltri_run.
    now rewrite (two_by_two (fun L => Ok (ln L, ln L) L) (fun i j L => ltri_get L i j L) ltri_set (fun a b d => mkLtri 2 [a; b; d])) by (reflexivity || assumption).
Qed.
End Part.

(** ** Accepted, but what it solves is another system

    The ILU factors of a full 2x2 matrix are its LU factors, so the preconditioner of the same
    matrix stored densely solves the system exactly (C45); stored symmetrically it does not. *)
Definition sym2 : herm Qc := mkHerm 2 (map qz [2; 1; 2]%Z).
Definition sym2_at (i j : nat) : Qc := nth (low_off i j) (ev sym2) (qz 0).
Lemma sym2_regular : nonsingular 2 sym2_at.
Proof.
  intros x H. pose proof (H 0 ltac:(lia)) as H0. pose proof (H 1 ltac:(lia)) as H1.
  change (0 + qz 2 * x 0%nat + qz 1 * x 1%nat = 0)%Qc in H0. change (0 + qz 1 * x 0%nat + qz 2 * x 1%nat = 0)%Qc in H1.
  assert (E0 : x 0 = 0%Qc).
  { transitivity (Q2Qc (1 # 3) * (qz 2 * (0 + qz 2 * x 0%nat + qz 1 * x 1%nat) - (0 + qz 1 * x 0%nat + qz 2 * x 1%nat)))%Qc; [|rewrite H0, H1; ring].
    transitivity (Q2Qc (1 # 3) * (qz 2 * qz 2 - qz 1) * x 0%nat + Q2Qc (1 # 3) * (qz 2 * qz 1 - qz 2) * x 1%nat)%Qc; [|ring].
    replace (Q2Qc (1 # 3) * (qz 2 * qz 2 - qz 1))%Qc with 1%Qc by (apply Qc_is_canon; vm_compute; reflexivity).
    replace (Q2Qc (1 # 3) * (qz 2 * qz 1 - qz 2))%Qc with 0%Qc by (apply Qc_is_canon; vm_compute; reflexivity). ring. }
  assert (E1 : x 1 = 0%Qc).
  { rewrite E0 in H0. transitivity (0 + qz 2 * 0 + qz 1 * x 1%nat)%Qc; [|exact H0].
    replace (qz 1) with 1%Qc by (apply Qc_is_canon; vm_compute; reflexivity). ring. }
  intros [|[|i]] Hi; auto; lia.
Qed.
Theorem C108_symmetric_refuted : exists F b x (h h1 : heap Qc),
  isvec h b 2 /\ (forall i j, i < 2 -> j < 2 -> herm_get sym2 i j tt = Ok (sym2_at i j) tt) /\
  nonsingular 2 sym2_at /\ ilu_herm sym2 h = Ok F h /\ ilu_herm_solve F b h = Ok x h1 /\ isvec h1 x 2 /\
  ~ (forall i, i < 2 -> mvmul 2 sym2_at (rd h1 x) i = rd h b i).
Proof.
  eexists. exists 0. eexists. exists (heap_of [map qz [3; 3]%Z]). eexists.
  split; [split; [cbn; lia|reflexivity]|].
  split. { intros [|[|i]] [|[|j]] Hi Hj; try lia; reflexivity. }
  split; [apply sym2_regular|]. split; [vm_compute; reflexivity|]. split; [vm_compute; reflexivity|].
  split; [split; [vm_compute; lia|reflexivity]|].
  intros H. specialize (H 0 ltac:(lia)). apply (f_equal this) in H. vm_compute in H. discriminate.
Qed.

(** ** Cases *)
Definition ex108A : coo Qc := mkCoo (map qz [2; 1; 1; 2; 1; 1; 2]%Z) [0; 0; 1; 1; 1; 2; 2] [0; 1; 0; 1; 2; 1; 2].
Example C108_nonvacuous_coo : eqb (T := Qc) zero zero = true /\ ismat T3 A3 3 3 /\ coo_wf ex108A /\ coo_shape ex108A tt = Ok (3, 3) tt /\
  coo_reads ex108A 3 (mget T3 A3) /\ isvec T3 1 3 /\
  exists L x h2, ilu_coo ex108A T3 = Ok L T3 /\ map this (cval L) = [2; 1; 1 # 2; 3 # 2; 1; 2 # 3; 4 # 3]%Q /\
    ilu_coo_solve L 1 T3 = Ok x h2 /\ map this (mem h2 x) = [1; 1; 1]%Q.
Proof.
  split; [reflexivity|]. split; [repeat split; vm_compute; lia|]. split; [repeat split|]. split; [reflexivity|]. split.
  { intros S s [|[|[|i]]] j Hi Hj; try lia; (destruct j as [|[|[|j]]]; [..|lia]; reflexivity). }
  split; [split; [vm_compute; lia|reflexivity]|].
  eexists. eexists. eexists. split; [vm_compute; reflexivity|]. split; [vm_compute; reflexivity|].
  split; [vm_compute; reflexivity|vm_compute; reflexivity].
Qed.
(** The same tridiagonal matrix, which ILU factorises exactly when it is stored densely, as a
    tridiagonal object; the identity as a Hessenberg and as an upper triangular object. *)
Example C108_nonvacuous_part :
  (tri_wf Qc (mkTri (map qz [1; 1]%Z) (map qz [2; 2; 2]%Z) (map qz [1; 1]%Z)) 3 /\
   ilu_tri InvalidArgument (mkTri (map qz [1; 1]%Z) (map qz [2; 2; 2]%Z) (map qz [1; 1]%Z)) tt = Throw InvalidArgument tt) /\
  (hess_wf (mkHess 3 (map qz [1; 0; 0; 1; 0; 0; 0; 1]%Z)) 3 /\
   ilu_hess (mkHess 3 (map qz [1; 0; 0; 1; 0; 0; 0; 1]%Z)) tt = Throw InvalidArgument tt) /\
  (utri_wf (mkUtri 2 (map qz [1; 0; 1]%Z)) 2 /\ ilu_utri (mkUtri 2 (map qz [1; 0; 1]%Z)) tt = Throw InvalidArgument tt) /\
  (exists f, ilu_tri OutOfRange (mkTri (map qz [1]%Z) (map qz [2; 2]%Z) (map qz [1]%Z)) tt = Ok f tt /\ map this (td f) = [2; 3 # 2]%Q).
Proof.
  split; [split; [repeat split|vm_compute; reflexivity]|]. split; [split; [repeat split|vm_compute; reflexivity]|].
  split; [split; [repeat split|vm_compute; reflexivity]|]. eexists. split; vm_compute; reflexivity.
Qed.
(** Order two, against the dense matrix. *)
Example C108_nonvacuous_small : exists D (h : heap Qc), ismat h D 2 2 /\ isvec h 1 2 /\
  (forall i j, i < 2 -> j < 2 -> mget h D i j = hess_at (mkHess 2 (map qz [2; 1; 1; 2]%Z)) i j) /\
  hess_wf (mkHess 2 (map qz [2; 1; 1; 2]%Z)) 2 /\
  (forall i j, i < 2 -> j < 2 -> mget h D i j = band Qc QcOps (map qz [1]%Z) (map qz [2; 2]%Z) (map qz [1]%Z) i j) /\
  utri_wf (mkUtri 1 (map qz [5]%Z)) 1.
Proof.
  exists (mkMat 0 2 2), (heap_of [map qz [2; 1; 1; 2]%Z; map qz [3; 3]%Z]).
  split; [repeat split; vm_compute; lia|]. split; [split; [vm_compute; lia|reflexivity]|].
  split; [intros [|[|i]] [|[|j]] Hi Hj; try lia; reflexivity|]. split; [repeat split|].
  split; [intros [|[|i]] [|[|j]] Hi Hj; try lia; reflexivity|repeat split].
Qed.
Example C108_nonvacuous_diagonal : exists D (h : heap Qc), ismat h D 2 2 /\ isvec h 1 2 /\
  herm_wf (mkHerm 2 (map qz [2; 0; 5]%Z)) 2 /\ herm_diag (mkHerm 2 (map qz [2; 0; 5]%Z)) 2 /\
  (forall i j, i < 2 -> j < 2 -> mget h D i j = herm_at (mkHerm 2 (map qz [2; 0; 5]%Z)) i j).
Proof.
  exists (mkMat 0 2 2), (heap_of [map qz [2; 0; 0; 5]%Z; map qz [3; 3]%Z]).
  split; [repeat split; vm_compute; lia|]. split; [split; [vm_compute; lia|reflexivity]|]. split; [repeat split|].
  split; intros [|[|i]] [|[|j]] Hi Hj; try lia; reflexivity.
Qed.
(** Both exceptions occur for Hessenberg matrices: here the first pivot is zero. *)
Example C108_hessenberg_pivot : ilu_hess (mkHess 3 (map qz [0; 1; 0; 1; 0; 0; 0; 1]%Z)) tt = Throw RuntimeError tt.
Proof. vm_compute. reflexivity. Qed.

Print Assumptions C108_coo.
Print Assumptions C108_coo_empty.
Print Assumptions C108_tridiagonal.
Print Assumptions C108_tridiagonal_small.
Print Assumptions C108_hessenberg.
Print Assumptions C108_upper.
Print Assumptions C108_hessenberg_small.
Print Assumptions C108_upper_small.
Print Assumptions C108_lower_as_symmetric.
Print Assumptions C108_symmetric_diagonal.
Print Assumptions C108_symmetric.
Print Assumptions C108_symmetric_refuted.
