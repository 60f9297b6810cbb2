(** * Property C103: the order in which the entries of a sparse matrix are listed does not matter *)
From Coq Require Import Permutation Lia ZArith.
From Verif Require Import Base Scalar BaseLemmas Spec Sums ModelVec ProofVec ModelMat SpecMat
  ModelSparse SpecSparse ProofPacked ProofSparse ProofSparseAdd ProofSparseCsr PropSparse ModelIter.
Local Open Scope nat_scope.

Section Order.
Context (T : Type) (Op : Ops T).
Implicit Types (A B C : coo T) (es : triples T).

(** Lists of triples in strict row-major order. *)
Fixpoint ascending es : Prop :=
  match es with [] => True | e :: r => (forall e', In e' r -> pos_lt (fst e) (fst e')) /\ ascending r end.
Lemma pos_lt_asym p q : pos_lt p q -> pos_lt q p -> False.
Proof. unfold pos_lt. lia. Qed.
Lemma ascending_unique es es' : ascending es -> ascending es' -> (forall e, In e es <-> In e es') -> es = es'.
Proof.
  revert es'. induction es as [|e r IH]; intros [|e' r'] S S' H.
  - reflexivity.
  - destruct (proj2 (H e') (or_introl eq_refl)).
  - destruct (proj1 (H e) (or_introl eq_refl)).
  - destruct S as [S1 S2], S' as [S1' S2'].
    assert (E : e = e').
    { destruct (proj1 (H e) (or_introl eq_refl)) as [E|I]; [auto|].
      destruct (proj2 (H e') (or_introl eq_refl)) as [E|I']; [auto|].
      destruct (pos_lt_asym (fst e) (fst e')); auto. }
    subst e'. f_equal. apply IH; auto. intros x. split; intros Hx.
    + destruct (proj1 (H x) (or_intror Hx)) as [E|I]; [|auto]. subst x. destruct (pos_lt_asym (fst e) (fst e)); auto.
    + destruct (proj2 (H x) (or_intror Hx)) as [E|I]; [|auto]. subst x. destruct (pos_lt_asym (fst e) (fst e)); auto.
Qed.
Lemma in_order_ascending es : in_order pos_le (map fst es) -> distinct es -> ascending es.
Proof.
  unfold distinct. induction es as [|e r IH]; intros O D; [exact I|]. cbn [map] in *. apply NoDup_cons_iff in D. destruct D as [D1 D2].
  split.
  - intros e' He. destruct (In_nth (map fst r) (fst e') (0, 0) (in_map fst _ _ He)) as (k & Hk & Ek).
    pose proof (O 0 (S k) ltac:(lia) ltac:(cbn; lia)) as L. cbn [nth] in L. rewrite Ek in L.
    destruct (fst e) as [i j] eqn:E1, (fst e') as [i' j'] eqn:E2. unfold pos_le, pos_lt in *. cbn [fst snd] in *.
    destruct L as [L|[L1 L2]]; [auto|]. right. split; auto. destruct (Nat.eq_dec j j') as [->|]; [|lia].
    exfalso. apply D1. rewrite L1, <- E2. now apply in_map.
  - apply IH; auto. intros a b Hab Hb. apply (O (S a) (S b)); cbn; lia.
Qed.
Lemma zip3_inj (r c r' c' : list nat) (v v' : list T) : length r = length v -> length c = length v ->
  length r' = length v' -> length c' = length v' -> zip3 r c v = zip3 r' c' v' -> r = r' /\ c = c' /\ v = v'.
Proof.
  revert r c r' c' v'. induction v as [|x v IH]; intros [|a r] [|b c] [|a' r'] [|b' c'] [|x' v'] L1 L2 L3 L4 E;
    try discriminate; auto. cbn in E. injection E as -> -> -> E.
  destruct (IH r c r' c' v') as (-> & -> & ->); auto.
Qed.

(** A well-formed matrix without repeated positions is determined by the set of its entries. *)
Theorem C103_contents : forall A B, coo_wf A -> coo_wf B -> distinct (coo_entries A) -> distinct (coo_entries B) ->
  (forall e, In e (coo_entries A) <-> In e (coo_entries B)) -> A = B.
Proof.
  intros A B (A1 & A2 & A3) (B1 & B2 & B3) DA DB H.
  assert (E : coo_entries A = coo_entries B) by (apply ascending_unique; auto using in_order_ascending).
  destruct A as [v r c], B as [v' r' c']. cbn [cval crow ccol] in *.
  destruct (zip3_inj r c r' c' v v') as (-> & -> & ->); auto.
Qed.

(** Construction from the same entries in another order, with another sort routine: the same matrix. *)
Theorem C103_order : forall St1 St2 srt1 srt2 (val1 val2 : list T) rows1 cols1 rows2 cols2 (s1 : St1) (s2 : St2),
  sort_contract srt1 -> sort_contract srt2 ->
  length rows1 = length val1 -> length cols1 = length val1 -> fits_u32 (length val1) = true ->
  length rows2 = length val2 -> length cols2 = length val2 ->
  distinct (zip3 rows1 cols1 val1) -> Permutation (zip3 rows1 cols1 val1) (zip3 rows2 cols2 val2) ->
  exists A, coo_of srt1 val1 rows1 cols1 s1 = Ok A s1 /\ coo_of srt2 val2 rows2 cols2 s2 = Ok A s2.
Proof.
  intros St1 St2 srt1 srt2 val1 val2 rows1 cols1 rows2 cols2 s1 s2 C1 C2 L1 L2 F1 L3 L4 D P.
  assert (EL : length val2 = length val1).
  { rewrite <- (zip3_length rows1 cols1 val1), <- (zip3_length rows2 cols2 val2) by auto. symmetry. now apply Permutation_length. }
  destruct (C27_construct T Op St1 srt1 val1 rows1 cols1 s1 C1 L1 L2 F1) as (A & OA & WA & PA).
  destruct (C27_construct T Op St2 srt2 val2 rows2 cols2 s2 C2 L3 L4 ltac:(now rewrite EL)) as (B & OB & WB & PB).
  assert (Dp : forall es es', Permutation es es' -> distinct es -> distinct es').
  { intros es es' Q. unfold distinct. apply Permutation_NoDup. now apply Permutation_map. }
  assert (A = B) as <-.
  { apply C103_contents; auto.
    - now apply (Dp (zip3 rows1 cols1 val1)), D; apply Permutation_sym.
    - apply (Dp (zip3 rows2 cols2 val2)); [now apply Permutation_sym|]. now apply (Dp (zip3 rows1 cols1 val1)).
    - intros e. rewrite (Permutation_in' eq_refl PA), (Permutation_in' eq_refl PB).
      now rewrite (Permutation_in' eq_refl P). }
  eauto.
Qed.

(** A + B and B + A are the same matrix whenever the elements commute. *)
Lemma sum_entries_comm es1 es2 es es' : (forall x y : T, add x y = add y x) ->
  sum_entries es1 es2 es -> sum_entries es2 es1 es' -> forall e, In e es <-> In e es'.
Proof.
  intros Com H H' [[i j] x]. rewrite (H i j x), (H' i j x). split; intros [(a & b & Ia & Ib & ->)|[K|K]]; auto.
  - left. exists b, a. auto.
  - left. exists b, a. auto.
Qed.
Theorem C103_plus_commutes : forall srt srt' A B St (s : St), (forall x y : T, add x y = add y x) ->
  sort_contract srt -> sort_contract srt' -> coo_wf A -> coo_wf B -> distinct (coo_entries A) -> distinct (coo_entries B) ->
  0 < length (cval A) -> 0 < length (cval B) -> addable T A B -> addable T B A ->
  fits_u32 (length (cval A) + length (cval B)) = true -> rows_fit T A -> rows_fit T B ->
  exists C, coo_plus srt A B s = Ok C s /\ coo_plus srt' B A s = Ok C s.
Proof.
  intros srt srt' A B St s Com S1 S2 WA WB DA DB LA LB AB BA F RA RB.
  destruct (C31_add_partial T Op srt A B) as (C & _ & WC & DC & EC & PC); auto.
  destruct (C31_add_partial T Op srt' B A) as (C' & _ & WC' & DC' & EC' & PC'); auto; [now rewrite Nat.add_comm|].
  assert (C = C') as <- by (apply C103_contents; auto; now apply (sum_entries_comm (coo_entries A) (coo_entries B))).
  exists C. auto.
Qed.

(** Whatever is computed from a matrix afterwards is the same, to the last bit: conversion, reads, products, factors. *)
Theorem C103_everything : forall St srt1 srt2 (val1 val2 : list T) rows1 cols1 rows2 cols2 (s : St) X (f : coo T -> M St X),
  sort_contract srt1 -> sort_contract srt2 ->
  length rows1 = length val1 -> length cols1 = length val1 -> fits_u32 (length val1) = true ->
  length rows2 = length val2 -> length cols2 = length val2 ->
  distinct (zip3 rows1 cols1 val1) -> Permutation (zip3 rows1 cols1 val1) (zip3 rows2 cols2 val2) ->
  bind (coo_of srt1 val1 rows1 cols1) f s = bind (coo_of srt2 val2 rows2 cols2) f s.
Proof.
  intros St srt1 srt2 val1 val2 rows1 cols1 rows2 cols2 s X f C1 C2 L1 L2 F1 L3 L4 D P. unfold bind.
  destruct (C103_order St St srt1 srt2 val1 val2 rows1 cols1 rows2 cols2 s s) as (A & -> & ->); auto.
Qed.
End Order.

(** With repeated positions the order does matter: the matrix reads one value or the other. *)
Theorem C103_repeated_refuted : exists (A B : coo Z) (v w : list Z) (r c : list nat),
  Permutation (zip3 r c v) (zip3 r c w) /\
  coo_of isort v r c tt = Ok A tt /\ coo_of isort w r c tt = Ok B tt /\
  coo_get A 0 0 tt = Ok 1%Z tt /\ coo_get B 0 0 tt = Ok 2%Z tt.
Proof.
  do 2 eexists. exists [1; 2]%Z, [2; 1]%Z, [0; 0], [0; 0]. split; [apply perm_swap|].
  split; [vm_compute; reflexivity|]. split; [vm_compute; reflexivity|]. split; vm_compute; reflexivity.
Qed.
Example C103_nonvacuous :
  distinct (zip3 [1; 0; 1] [1; 2; 0] [7; 8; 9]%Z) /\
  Permutation (zip3 [1; 0; 1] [1; 2; 0] [7; 8; 9]%Z) (zip3 [1; 1; 0] [0; 1; 2] [9; 7; 8]%Z) /\
  coo_of isort [7; 8; 9]%Z [1; 0; 1] [1; 2; 0] tt = Ok (mkCoo [8; 9; 7]%Z [0; 1; 1] [2; 0; 1]) tt /\
  coo_of isort [9; 7; 8]%Z [1; 1; 0] [0; 1; 2] tt = Ok (mkCoo [8; 9; 7]%Z [0; 1; 1] [2; 0; 1]) tt.
Proof.
  split; [repeat constructor; cbn; intuition congruence|].
  split. { cbn. apply Permutation_sym. apply (Permutation_cons_app [_; _] []). reflexivity. }
  split; vm_compute; reflexivity.
Qed.
(** Two matrices of two rows that overlap in one position, added both ways round. *)
Example C103_nonvacuous_plus : let A := mkCoo [1; 2; 3]%Z [0; 0; 1] [0; 1; 1] in let B := mkCoo [10; 20]%Z [0; 1] [1; 0] in
  exists C, coo_plus isort A B tt = Ok C tt /\ coo_plus isort B A tt = Ok C tt /\ coo_get C 0 1 tt = Ok 12%Z tt.
Proof.
  intros A B.
  destruct (C103_plus_commutes Z ZOps isort isort A B unit tt) as (C & E1 & E2); auto using isort_contract with arith.
  - exact Z.add_comm.
  - unfold coo_wf. split; [reflexivity|]. split; [reflexivity|]. cbn. intros [|[|[|a]]] [|[|[|b]]] Hab Hb; cbn in *; unfold pos_le; cbn; lia.
  - unfold coo_wf. split; [reflexivity|]. split; [reflexivity|]. cbn. intros [|[|[|a]]] [|[|[|b]]] Hab Hb; cbn in *; unfold pos_le; cbn; lia.
  - repeat constructor; cbn; intuition congruence.
  - repeat constructor; cbn; intuition congruence.
  - cbn. lia.
  - intros i j b I. left. cbn in I. destruct I as [E|[E|[]]]; injection E as <- <- <-; cbn; eauto 6.
  - intros i j b I. left. cbn in I. destruct I as [E|[E|[E|[]]]]; injection E as <- <- <-; cbn; eauto 6.
  - intros i j b I. cbn in I. destruct I as [E|[E|[E|[]]]]; injection E as <- <- <-; reflexivity.
  - intros i j b I. cbn in I. destruct I as [E|[E|[]]]; injection E as <- <- <-; reflexivity.
  - exists C. split; [exact E1|]. split; [exact E2|]. vm_compute in E1. injection E1 as <-. vm_compute. reflexivity.
Qed.
Print Assumptions C103_contents.
Print Assumptions C103_order.
Print Assumptions C103_plus_commutes.
Print Assumptions C103_everything.
Print Assumptions C103_repeated_refuted.
