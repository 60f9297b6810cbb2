(** * Property C74: ILU(0) and GMRES on strictly diagonally dominant matrices *)
From Coq Require Import Lia Reals Lra List.
From Verif Require Import Base Scalar BaseLemmas Spec Sums SpecMat RealVec ModelVec ModelMat ProofMatOps ModelSparse SpecSparse ProofSparse PropSpmv ModelIter
  ProofIlu FloatSqrt PropChol PropCholSolve PropIlu PropCgs PropTdma ProofGmresMath PropGmres.
Import ListNotations.
Local Open Scope R_scope.

(** Strict dominance with respect to positive weights [d] ("generalised diagonal dominance": H-matrices;
    [d = 1] is strict diagonal dominance). *)
Definition weighted_dominant n (d : nat -> R) (a : nat -> nat -> R) : Prop :=
  (forall j, (j < n)%nat -> 0 < d j) /\
  forall i, (i < n)%nat -> bsum n (fun j => if Nat.eqb j i then 0 else Rabs (a i j) * d j) < Rabs (a i i) * d i.
Definition gen_dominant n (a : nat -> nat -> R) : Prop := exists d, weighted_dominant n d a.
Lemma strictly_gen n a : strictly_dominant n a -> gen_dominant n a.
Proof.
  intros H. exists (fun _ => 1). split; [intros; lra|]. intros i Hi. rewrite Rmult_1_r.
  eapply Rle_lt_trans; [|apply (H i Hi)]. right. apply bsum_ext. intros j _. destruct (Nat.eqb j i); lra.
Qed.
Lemma gen_nonsingular n a : gen_dominant n a -> nonsingular n a.
Proof.
  intros (d & P & H) x Hx.
  assert (S : strictly_dominant n (fun i j => a i j * d j)).
  { intros i Hi. rewrite Rabs_mult, (Rabs_pos_eq (d i)) by (specialize (P i Hi); lra).
    eapply Rle_lt_trans; [|apply (H i Hi)]. right. apply bsum_ext. intros j Hj. destruct (Nat.eqb j i); [reflexivity|].
    rewrite Rabs_mult, (Rabs_pos_eq (d j)); [reflexivity|]. specialize (P j Hj). lra. }
  pose proof (dominant_nonsingular n _ S (fun j => x j / d j)) as K.
  assert (K0 : forall i, (i < n)%nat -> x i / d i = 0).
  { apply K. intros i Hi. rewrite <- (Hx i Hi). unfold mvmul. apply bsum_ext. intros j Hj. cbn [mul ROps]. field.
    specialize (P j Hj). lra. }
  intros i Hi. specialize (P i Hi). specialize (K0 i Hi). cbn [zero ROps]. replace (x i) with (x i / d i * d i) by (field; lra). rewrite K0. ring.
Qed.

Section Dom.
Variables (n : nat) (d : nat -> R) (a f : nat -> nat -> R).
Hypothesis Pd : forall j, (j < n)%nat -> 0 < d j.

(** The rows of the upper factor are dominated by their diagonal. *)
Definition udom i : Prop := bsum n (fun j => if Nat.ltb i j then Rabs (f i j) * d j else 0) < Rabs (f i i) * d i.

(** Row [i] after the eliminations with rows 0..t-1. *)
Let w i t j := if Req_EM_T (a i j) 0 then 0 else a i j - bsum t (fun q => f i q * f q j).
Let off i t j := if orb (Nat.ltb j t) (Nat.eqb j i) then 0 else Rabs (w i t j) * d j.

Lemma dominant_row k i : (i < k)%nat -> (k <= n)%nat -> ilu0 n k a f -> weighted_dominant n d a ->
  (forall q, (q < i)%nat -> udom q) -> udom i.
Proof.
  intros Hi Hk D [_ SD] Hq.
  assert (Hn : (i < n)%nat) by lia.
  assert (Wl : forall j, (j < i)%nat -> w i j j = f i j * f j j).
  { intros j Hj. unfold w. destruct (D i j Hi ltac:(lia)) as [Z N]. destruct (Req_EM_T (a i j) 0) as [E|E].
    - rewrite (Z E). cbn [zero ROps]. ring.
    - destruct (N E) as [V _]. rewrite lu_low in V by lia. rewrite <- V. unfold fillin. rewrite Nat.min_r by lia. cbn [add mul ROps]. ring. }
  assert (Wu : forall j, (i <= j)%nat -> (j < n)%nat -> w i i j = f i j).
  { intros j Hj Hj'. unfold w. destruct (D i j Hi ltac:(lia)) as [Z N]. destruct (Req_EM_T (a i j) 0) as [E|E].
    - now rewrite (Z E).
    - destruct (N E) as [V _]. rewrite lu_up in V by lia. rewrite <- V. unfold fillin. rewrite Nat.min_l by lia. cbn [add mul ROps]. ring. }
  assert (Nd : a i i <> 0).
  { intros E. pose proof (SD i Hn) as H. rewrite E, Rabs_R0, Rmult_0_l in H.
    assert (0 <= bsum n (fun j => if Nat.eqb j i then 0 else Rabs (a i j) * d j)); [|lra].
    apply bsum_nonneg. intros j Hj. destruct (Nat.eqb j i); [lra|]. apply Rmult_le_pos; [apply Rabs_pos|]. specialize (Pd j Hj). lra. }
  assert (Gap : forall t, (t <= i)%nat -> bsum n (off i t) < Rabs (w i t i) * d i).
  { induction t as [|t IH]; intros Ht.
    - assert (E : forall j, w i 0%nat j = a i j).
      { intros j. unfold w. destruct (Req_EM_T (a i j) 0) as [->|_]; [reflexivity|]. cbn [bsum zero ROps]. ring. }
      rewrite E. eapply Rle_lt_trans; [|apply (SD i Hn)]. right. apply bsum_ext. intros j Hj. unfold off. rewrite E. reflexivity.
    - specialize (IH ltac:(lia)). pose proof (Hq t ltac:(lia)) as U. unfold udom in U. pose proof (Wl t ltac:(lia)) as Et.
      set (l := Rabs (f i t)). assert (Pl : 0 <= l) by apply Rabs_pos.
      assert (Lw : Rabs (w i t t) = l * Rabs (f t t)) by (rewrite Et; apply Rabs_mult).
      set (sel := fun j => if Nat.eqb j t then Rabs (w i t t) * d t else 0).
      set (fi := fun j => if Nat.eqb j i then Rabs (f t i) * d i else 0).
      assert (S1 : bsum n sel = Rabs (w i t t) * d t).
      { rewrite (bsum_single n sel t); [unfold sel; now rewrite Nat.eqb_refl|lia|]. intros j _ Nj. unfold sel. destruct (Nat.eqb_spec j t); [contradiction|reflexivity]. }
      assert (S2 : bsum n fi = Rabs (f t i) * d i).
      { rewrite (bsum_single n fi i); [unfold fi; now rewrite Nat.eqb_refl|lia|]. intros j _ Nj. unfold fi. destruct (Nat.eqb_spec j i); [contradiction|reflexivity]. }
      assert (St : forall j, (j < n)%nat -> a i j <> 0 -> w i (S t) j = w i t j - f i t * f t j).
      { intros j Hj Na. unfold w. destruct (Req_EM_T (a i j) 0); [contradiction|]. rewrite rs_S. ring. }
      assert (Bd : bsum n (off i (S t)) <= bsum n (fun j => (off i t j - sel j) + l * ((if Nat.ltb t j then Rabs (f t j) * d j else 0) - fi j))).
      { apply bsum_le. intros j Hj. unfold off, sel, fi. pose proof (Pd j Hj) as Pj.
        destruct (Nat.eqb_spec j i) as [->|Nji].
        - rewrite !Bool.orb_true_r. destruct (Nat.eqb_spec i t); [lia|]. destruct (Nat.ltb_spec t i); [|lia]. lra.
        - rewrite !Bool.orb_false_r. destruct (Nat.ltb_spec j (S t)) as [L1|L1].
          + destruct (Nat.ltb_spec t j); [lia|]. destruct (Nat.eqb_spec j t) as [->|Nt].
            * destruct (Nat.ltb_spec t t); [lia|]. lra.
            * destruct (Nat.ltb_spec j t); [|lia]. lra.
          + destruct (Nat.ltb_spec j t); [lia|]. destruct (Nat.eqb_spec j t); [lia|]. destruct (Nat.ltb_spec t j); [|lia].
            destruct (Req_EM_T (a i j) 0) as [Z|Na].
            * unfold w at 1. destruct (Req_EM_T (a i j) 0); [|contradiction]. rewrite Rabs_R0.
              pose proof (Rabs_pos (w i t j)). pose proof (Rabs_pos (f t j)). assert (0 <= Rabs (w i t j) * d j) by nra. assert (0 <= l * (Rabs (f t j) * d j)) by (apply Rmult_le_pos; nra). lra.
            * rewrite (St j Hj Na). assert (Tr : Rabs (w i t j - f i t * f t j) <= Rabs (w i t j) + l * Rabs (f t j)).
              { unfold Rminus. eapply Rle_trans; [apply Rabs_triang|]. rewrite Rabs_Ropp, Rabs_mult. fold l. lra. }
              apply (Rmult_le_compat_r (d j)) in Tr; lra. }
      rewrite rs_add, rs_sub, rs_scal, rs_sub, S1, S2 in Bd.
      rewrite (St i Hn Nd).
      assert (Lo : Rabs (w i t i) - l * Rabs (f t i) <= Rabs (w i t i - f i t * f t i)).
      { unfold l. rewrite <- Rabs_mult. eapply Rle_trans; [|apply Rabs_triang_inv]. lra. }
      rewrite Lw in Bd. change (fun j => off i t j) with (off i t) in Bd.
      apply (Rmult_le_compat_r (d i)) in Lo; [|specialize (Pd i Hn); lra].
      apply Rlt_le in U. apply (Rmult_le_compat_l l) in U; [|exact Pl]. lra. }
  specialize (Gap i (le_n i)). unfold udom. rewrite (Wu i) in Gap by lia.
  eapply Rle_lt_trans; [|exact Gap]. apply bsum_le. intros j Hj. unfold off. destruct (Nat.ltb_spec i j) as [L|L].
  - destruct (Nat.ltb_spec j i); [lia|]. destruct (Nat.eqb_spec j i); [lia|]. cbn [orb]. rewrite Wu by lia. lra.
  - destruct (orb _ _); [lra|]. apply Rmult_le_pos; [apply Rabs_pos|]. specialize (Pd j Hj). lra.
Qed.

Lemma dominant_rows k : (k <= n)%nat -> ilu0 n k a f -> weighted_dominant n d a -> forall i, (i < k)%nat -> udom i.
Proof.
  intros Hk D SD i. induction i as [i IH] using lt_wf_ind. intros Hi. apply (dominant_row k); auto. intros q Hq. apply IH; lia.
Qed.
Lemma udom_pivot i : (i < n)%nat -> udom i -> f i i <> 0.
Proof.
  unfold udom. intros Hi H E. rewrite E, Rabs_R0, Rmult_0_l in H.
  assert (0 <= bsum n (fun j => if Nat.ltb i j then Rabs (f i j) * d j else 0)); [|lra].
  apply bsum_nonneg. intros j Hj. destruct (Nat.ltb i j); [|lra]. apply Rmult_le_pos; [apply Rabs_pos|]. specialize (Pd j Hj). lra.
Qed.
End Dom.

(** The property of the factors: in each row of U the diagonal exceeds the sum of the others, with
    the same weights. *)
Definition u_dominant n d (f : nat -> nat -> R) : Prop :=
  forall i, (i < n)%nat -> bsum n (fun j => if Nat.ltb i j then Rabs (f i j) * d j else 0) < Rabs (f i i) * d i.

Lemma dominant_no_zero_pivot n a : gen_dominant n a -> ~ ilu_zero_pivot n a.
Proof.
  intros (d & SD) (f & i & j & Hj & Hi & D & _ & P).
  apply (udom_pivot n d f (proj1 SD) j); [lia| |exact P]. apply (dominant_rows n d a f (proj1 SD) i); auto. lia.
Qed.

(** ILU(0) of a dominant matrix is always accepted, whatever its pattern. *)
Theorem C74_ilu_dense : forall n d A (h : heap R), ismat h A n n -> fits_u32 n = true -> weighted_dominant n d (mget h A) ->
  exists F h', ilu_dyn A h = Ok F h' /\ newmat h h' F n n (mget h' F) /\ ilu0 n n (mget h A) (mget h' F) /\ u_dominant n d (mget h' F).
Proof.
  intros n d A h HA Hf SD. destruct (C46_dyn_outcome n A h HA Hf) as [[_ (F & h' & E)]|[Z _]].
  - destruct (C44_dyn n A h F h' HA Hf E) as (N & D). exists F, h'. split; [exact E|]. split; [exact N|]. split; [exact D|].
    intros i Hi. apply (dominant_rows n d (mget h A) (mget h' F) (proj1 SD) n); auto.
  - exfalso. apply (dominant_no_zero_pivot n (mget h A)); [now exists d|exact Z].
Qed.
Theorem C74_ilu_sparse : forall n d A a S (s : S), csr_wf A n -> csr_shape A tt = Ok (n, n) tt -> fits_u32 n = true -> reads_as A n a ->
  weighted_dominant n d a ->
  exists F f, ilu_csr A s = Ok F s /\ csr_wf F n /\ sptr F = sptr A /\ scol F = scol A /\ reads_as F n f /\ ilu0 n n a f /\ u_dominant n d f.
Proof.
  intros n d A a S s W Sh Hf RA SD. destruct (C46_csr_outcome n n A a S s W Sh (le_n n) Hf RA) as [[_ (F & E)]|[Z _]].
  - destruct (C44_csr n n A a S s F s W Sh (le_n n) Hf RA E) as (_ & W' & E1 & E2 & f & RF & D). exists F, f. repeat (split; [assumption|]).
    intros i Hi. apply (dominant_rows n d a f (proj1 SD) n); auto.
  - exfalso. apply (dominant_no_zero_pivot n a); [now exists d|exact Z].
Qed.

(** Hence GMRES on such a matrix: construction succeeds, and so does solving, for every non-zero
    right-hand side and positive tolerance. *)
Theorem C74_gmres_dense : forall dbg isqrt n A b tol (h : heap R), isqrt_exact isqrt -> (0 < n)%nat -> fits_u32 n = true ->
  ismat h A n n -> isvec h b n -> gen_dominant n (mget h A) -> nonzero n (rd h b) -> 0 < tol ->
  exists G h1 x h2, gmres_dyn_new A h = Ok G h1 /\ gmres_dyn_solve dbg isqrt G tol b h1 = Ok x h2 /\ newvec h1 h2 x n (rd h2 x) /\
    gmres_solution n (mget h A) (mmmul n (lfac (mget h1 (snd G))) (ufac (mget h1 (snd G)))) (rd h b) tol (rd h2 x).
Proof.
  intros dbg isqrt n A b tol h Hq Hp Hf HA Hb [d SD] Nz Ht.
  assert (exists G h1, gmres_dyn_new A h = Ok G h1) as (G & h1 & E).
  { unfold gmres_dyn_new, bind.
    destruct (post_ok _ _ _ (copy_ok A n n h HA)) as (m & h' & Ec & (X1 & _) & _). rewrite Ec.
    assert (HA' : ismat h' A n n) by (eapply ext_ismat; eauto).
    assert (SD' : weighted_dominant n d (mget h' A)).
    { assert (EA : mget h' A = mget h A) by (unfold mget, rd; destruct X1 as [_ ->]; [reflexivity|apply HA]). now rewrite EA. }
    destruct (C74_ilu_dense n d A h' HA' Hf SD') as (F & h2 & E2 & _). rewrite E2. eexists. eexists. reflexivity. }
  destruct (dense_new n A h G h1 HA Hf E) as (_ & D & _).
  destruct (C48_dense dbg isqrt n A b tol h G h1 Hq Hp Hf HA Hb (gen_nonsingular n _ (ex_intro _ d SD)) Nz Ht E) as (_ & x & h2 & E2 & V & Sl).
  { intros i Hi. apply (udom_pivot n d _ (proj1 SD)); [exact Hi|]. apply (dominant_rows n d (mget h A) _ (proj1 SD) n); auto. }
  exists G, h1, x, h2. auto.
Qed.
Theorem C74_gmres_sparse : forall dbg isqrt n A a b tol (h : heap R), isqrt_exact isqrt -> (0 < n)%nat -> fits_u32 n = true ->
  csr_wf A n -> csr_shape A tt = Ok (n, n) tt -> distinct (csr_entries A n) -> reads_as A n a ->
  isvec h b n -> gen_dominant n a -> nonzero n (rd h b) -> 0 < tol ->
  exists G f x h2, gmres_csr_new A h = Ok G h /\ reads_as (snd G) n f /\
    gmres_csr_solve dbg isqrt G tol b h = Ok x h2 /\ newvec h h2 x n (rd h2 x) /\
    gmres_solution n a (mmmul n (lfac f) (ufac f)) (rd h b) tol (rd h2 x).
Proof.
  intros dbg isqrt n A a b tol h Hq Hp Hf W Sh Di RA Hb [d SD] Nz Ht.
  destruct (C74_ilu_sparse n d A a (heap R) h W Sh Hf RA SD) as (F & f0 & E & _).
  assert (E1 : gmres_csr_new A h = Ok (A, F) h) by (unfold gmres_csr_new, bind; now rewrite E).
  destruct (C48_sparse dbg isqrt n A a b tol h (A, F) Hq Hp Hf W Sh Di RA Hb (gen_nonsingular n a (ex_intro _ d SD)) Nz Ht E1) as (_ & f & RF & D & K).
  destruct K as (x & h2 & E2 & V & Sl).
  { intros i Hi. apply (udom_pivot n d _ (proj1 SD)); [exact Hi|]. apply (dominant_rows n d a f (proj1 SD) n); auto. }
  exists (A, F), f, x, h2. auto.
Qed.

(** A dominant matrix whose fill-in is dropped: the pattern is not closed, so none of the earlier
    theorems applies to it. *)
Definition DH : heap R := heap_of [[4; 1; 1;  1; 4; 0;  1; 0; 4]; [1; 2; 3]].
Example C74_nonvacuous : let A := mkMat 0%nat 3%nat 3%nat in
  ismat DH A 3 3 /\ isvec DH 1%nat 3%nat /\ strictly_dominant 3 (mget DH A) /\ nonzero 3 (rd DH 1%nat) /\ ~ closed_pattern 3 (mget DH A).
Proof.
  intros A. split; [repeat split; cbn; lia|]. split; [repeat split; cbn; lia|]. split.
  { intros [|[|[|i]]] Hi; try lia; cbn; unfold mget, rd; cbn; rewrite ?Rabs_R0; repeat (rewrite Rabs_pos_eq by lra); lra. }
  split. { exists 0%nat. split; [lia|]. unfold rd. cbn. lra. }
  intros C. apply (C 1%nat 2%nat 0%nat); try lia; unfold mget, rd; cbn; lra.
Qed.

(** The matrices of the one-dimensional Laplacian, of every order: not strictly dominant, but dominant
    with the weights (i+1)(n-i). *)
Definition laplace (i j : nat) : R := if Nat.eqb i j then 2 else if Nat.eqb i (S j) then -1 else if Nat.eqb (S i) j then -1 else 0.
Lemma laplace_dominant n : gen_dominant n laplace.
Proof.
  exists (fun j => (INR j + 1) * (INR n - INR j)). split.
  - intros j Hj. pose proof (pos_INR j). apply lt_INR in Hj. nra.
  - intros i Hi. pose proof (lt_INR i n Hi) as Li.
    set (t := fun k j => if Nat.eqb j k then 1 * ((INR j + 1) * (INR n - INR j)) else 0).
    assert (T0 : forall k, (k < n)%nat -> bsum n (t k) = (INR k + 1) * (INR n - INR k)).
    { intros k Hk. rewrite (bsum_single n (t k) k Hk); [unfold t; rewrite Nat.eqb_refl; ring|]. intros j _ Nj. unfold t. destruct (Nat.eqb_spec j k); [contradiction|reflexivity]. }
    assert (T1 : bsum n (t (S i)) <= (INR i + 2) * (INR n - INR i - 1)).
    { destruct (Nat.lt_ge_cases (S i) n) as [L|L].
      - rewrite T0, S_INR by auto. right. ring.
      - rewrite bsum_zero; [cbn [zero ROps]|intros j Hj; unfold t; destruct (Nat.eqb_spec j (S i)); [lia|reflexivity]].
        pose proof (pos_INR i). assert (INR i + 1 <= INR n) by (rewrite <- S_INR; apply le_INR; lia). nra. }
    unfold laplace at 2. rewrite Nat.eqb_refl, (Rabs_pos_eq 2) by lra.
    destruct i as [|i].
    + eapply Rle_lt_trans with (bsum n (t 1%nat)).
      * apply bsum_le. intros j Hj. unfold t, laplace. destruct j as [|[|j]]; cbn [Nat.eqb]; rewrite ?Rabs_Ropp, ?Rabs_R1, ?Rabs_R0;
          try (unfold Rabs; destruct (Rcase_abs _)); lra.
      * cbn [INR] in *. lra.
    + assert (T2 := T0 i ltac:(lia)).
      eapply Rle_lt_trans with (bsum n (fun j => t i j + t (S (S i)) j)).
      * apply bsum_le. intros j Hj. unfold t, laplace.
        destruct (Nat.eqb_spec j (S i)) as [->|N0].
        { destruct (Nat.eqb_spec (S i) i); [lia|]. destruct (Nat.eqb_spec (S i) (S (S i))); [lia|]. lra. }
        destruct (Nat.eqb_spec (S i) j); [lia|].
        destruct (Nat.eqb_spec (S i) (S j)) as [E|E].
        { replace j with i by lia. rewrite Nat.eqb_refl. destruct (Nat.eqb_spec i (S (S i))); [lia|]. unfold Rabs. destruct (Rcase_abs _); lra. }
        destruct (Nat.eqb_spec (S (S i)) j) as [E2|E2].
        { subst j. rewrite Nat.eqb_refl. destruct (Nat.eqb_spec (S (S i)) i); [lia|]. unfold Rabs. destruct (Rcase_abs _); lra. }
        destruct (Nat.eqb_spec j i); [lia|]. destruct (Nat.eqb_spec j (S (S i))); [lia|]. rewrite Rabs_R0. lra.
      * rewrite rs_add, T2. rewrite S_INR in *. change (fun j => t (S (S i)) j) with (t (S (S i))). lra.
Qed.

Print Assumptions C74_ilu_dense.
Print Assumptions C74_ilu_sparse.
Print Assumptions C74_gmres_dense.
Print Assumptions C74_gmres_sparse.
