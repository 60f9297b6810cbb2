(** * Property C105: the comparison theorem for matrices without positive entries off the diagonal, in rounded arithmetic *)
From Coq Require Import ZArith Reals Lra Lia.
From Verif Require Import Base Scalar BaseLemmas Spec Sums ModelVec ProofVec ModelMat ProofMat SpecMat PropMat ModelPacked ProofPacked PropPacked
  ModelSolvers ProofTdma ProofTdmaBits PropTdma ProofChol PropChol ProofCholSolve PropCholSolve PropRepeat
  ProofVecProp PropVec RealVec SpecRound Rounding PropRound ModelIter ProofIlu PropIlu ProofBackSub PropGmresAny ModelSparse SpecSparse
  SpecMono PropMono SpecComp.
Local Open Scope R_scope.

Section Comp.
Context {T : Type} {Op : Ops T} {val : T -> R} {fin : T -> Prop} {rnd : R -> R} {range : R -> Prop} {RI : Ranged Op val fin rnd range}.
Let I : Monotone Op val fin rnd := r_mono (Ranged := RI).
#[local] Existing Instance I.
Notation vfin n x := (forall i, (i < n)%nat -> fin (x i)).

Lemma down x r : fin x -> Rabs r <= Rabs (val x) -> range r.
Proof. intros F H. apply (r_down (Ranged := RI) (val x)); auto. now apply (r_fin (Ranged := RI)). Qed.
Lemma squeeze x y r : fin x -> fin y -> val x <= r <= val y -> range r.
Proof.
  intros Fx Fy H. destruct (Rle_dec 0 r) as [P|P]; [apply (down y); auto|apply (down x); auto].
  - rewrite !Rabs_pos_eq by lra. lra.
  - rewrite !Rabs_left1 by lra. lra.
Qed.
Lemma zero_fin : fin zero /\ val zero = 0.
Proof. apply (m_zero (Monotone := I)). Qed.

Lemma quot_neg_le x x' d d' : x <= x' -> x' <= 0 -> 0 < d -> d <= d' -> x / d <= x' / d' /\ x' / d' <= 0.
Proof.
  intros Hx H0 Hd Hdd. assert (0 < / d') by (apply Rinv_0_lt_compat; lra). assert (/ d' <= / d) by (apply Rinv_le_contravar; lra).
  unfold Rdiv. split; [|nra]. apply Rle_trans with (x * / d'); [|nra]. assert (x <= 0) by lra. nra.
Qed.
Lemma quot_pos_le x x' d d' : 0 <= x' -> x' <= x -> 0 < d -> d <= d' -> 0 <= x' / d' /\ x' / d' <= x / d.
Proof.
  intros H0 Hx Hd Hdd. assert (0 < / d') by (apply Rinv_0_lt_compat; lra). assert (/ d' <= / d) by (apply Rinv_le_contravar; lra).
  unfold Rdiv. split; [nra|]. apply Rmult_le_compat; lra.
Qed.
(** A quotient, a product, a difference of the second computation against the first. *)
Lemma div_neg x d x' d' : fin (div x d) -> fin d -> fin x' -> fin d' -> val x <= val x' -> val x' <= 0 -> 0 < val d -> val d <= val d' ->
  fin (div x' d') /\ val (div x d) <= val (div x' d') <= 0.
Proof.
  intros F Fd Fx' Fd' Hx H0 Hd Hdd. destruct (m_div (Monotone := I) _ _ F Fd (Rgt_not_eq _ _ Hd)) as (Fx & E).
  destruct (quot_neg_le _ _ _ _ Hx H0 Hd Hdd) as [Q1 Q2].
  assert (B : val (div x d) <= rnd (val x' / val d') <= 0) by (rewrite E; split; [now apply rle|now apply rneg]).
  assert (N : val d' <> 0) by lra. destruct zero_fin as [F0 V0].
  assert (F' : fin (div x' d')) by (apply (r_div (Ranged := RI)); auto; apply (squeeze (div x d) zero); auto; rewrite V0; exact B).
  split; [exact F'|]. destruct (m_div (Monotone := I) _ _ F' Fd' N) as (_ & ->). exact B.
Qed.
Lemma div_pos x d x' d' : fin (div x d) -> fin d -> fin x' -> fin d' -> 0 <= val x' -> val x' <= val x -> 0 < val d -> val d <= val d' ->
  fin (div x' d') /\ 0 <= val (div x' d') <= val (div x d).
Proof.
  intros F Fd Fx' Fd' H0 Hx Hd Hdd. destruct (m_div (Monotone := I) _ _ F Fd (Rgt_not_eq _ _ Hd)) as (Fx & E).
  destruct (quot_pos_le _ _ _ _ H0 Hx Hd Hdd) as [Q1 Q2].
  assert (B : 0 <= rnd (val x' / val d') <= val (div x d)) by (rewrite E; split; [now apply rpos|now apply rle]).
  assert (N : val d' <> 0) by lra. destruct zero_fin as [F0 V0].
  assert (F' : fin (div x' d')) by (apply (r_div (Ranged := RI)); auto; apply (squeeze zero (div x d)); auto; rewrite V0; exact B).
  split; [exact F'|]. destruct (m_div (Monotone := I) _ _ F' Fd' N) as (_ & ->). exact B.
Qed.
Lemma mul_nn x y x' y' : fin (mul x y) -> fin x' -> fin y' -> val x <= val x' -> val x' <= 0 -> val y <= val y' -> val y' <= 0 ->
  fin (mul x' y') /\ 0 <= val (mul x' y') <= val (mul x y).
Proof.
  intros F Fx' Fy' Hx Nx Hy Ny. destruct (m_mul (Monotone := I) _ _ F) as (Fx & Fy & E).
  assert (B : 0 <= rnd (val x' * val y') <= val (mul x y)).
  { rewrite E. split; [apply rpos; nra|apply rle]. apply Rle_trans with (val x' * val y); [apply Rmult_le_compat_neg_l; lra|].
    rewrite !(Rmult_comm _ (val y)). apply Rmult_le_compat_neg_l; lra. }
  destruct zero_fin as [F0 V0].
  assert (F' : fin (mul x' y')) by (apply (r_mul (Ranged := RI)); auto; apply (squeeze zero (mul x y)); auto; rewrite V0; exact B).
  split; [exact F'|]. destruct (m_mul (Monotone := I) _ _ F') as (_ & _ & ->). exact B.
Qed.
Lemma mul_np x y x' y' : fin (mul x y) -> fin x' -> fin y' -> val x <= val x' -> val x' <= 0 -> 0 <= val y' -> val y' <= val y ->
  fin (mul x' y') /\ val (mul x y) <= val (mul x' y') <= 0.
Proof.
  intros F Fx' Fy' Hx Nx Hy Ny. destruct (m_mul (Monotone := I) _ _ F) as (Fx & Fy & E).
  assert (B : val (mul x y) <= rnd (val x' * val y') <= 0).
  { rewrite E. split; [apply rle|apply rneg; nra]. apply Rle_trans with (val x * val y'); [apply Rmult_le_compat_neg_l; lra|].
    apply Rmult_le_compat_r; lra. }
  destruct zero_fin as [F0 V0].
  assert (F' : fin (mul x' y')) by (apply (r_mul (Ranged := RI)); auto; apply (squeeze (mul x y) zero); auto; rewrite V0; exact B).
  split; [exact F'|]. destruct (m_mul (Monotone := I) _ _ F') as (_ & _ & ->). exact B.
Qed.
Lemma mul_pp x y x' y' : fin (mul x y) -> fin x' -> fin y' -> 0 <= val x' <= val x -> 0 <= val y' <= val y ->
  fin (mul x' y') /\ 0 <= val (mul x' y') <= val (mul x y).
Proof.
  intros F Fx' Fy' Hx Hy. destruct (m_mul (Monotone := I) _ _ F) as (Fx & Fy & E).
  assert (B : 0 <= rnd (val x' * val y') <= val (mul x y)).
  { rewrite E. split; [apply rpos; nra|apply rle]. apply Rmult_le_compat; lra. }
  destruct zero_fin as [F0 V0].
  assert (F' : fin (mul x' y')) by (apply (r_mul (Ranged := RI)); auto; apply (squeeze zero (mul x y)); auto; rewrite V0; exact B).
  split; [exact F'|]. destruct (m_mul (Monotone := I) _ _ F') as (_ & _ & ->). exact B.
Qed.
(** Terms that are subtracted shrink: the difference grows, but not above what one starts with. *)
Lemma ssub_up n a a' f f' : fin (ssub n a f) -> fin a' -> val a <= val a' ->
  (forall k, (k < n)%nat -> fin (f k) -> fin (f' k) /\ 0 <= val (f' k) <= val (f k)) ->
  fin (ssub n a' f') /\ val (ssub n a f) <= val (ssub n a' f') <= val a'.
Proof.
  intros F Fa' Ha. induction n as [|n IH]; cbn [ssub] in *; intros Hf; [split; [auto|lra]|].
  destruct (m_sub (Monotone := I) _ _ F) as (F1 & F2 & E). destruct (IH F1 (fun k Hk => Hf k (Nat.lt_lt_succ_r _ _ Hk))) as (F1' & B).
  destruct (Hf n (Nat.lt_succ_diag_r n) F2) as (F2' & B2).
  assert (Q : val (sub (ssub n a f) (f n)) <= rnd (val (ssub n a' f') - val (f' n)) <= val a').
  { rewrite E. split; [apply rle; lra|]. rewrite <- (m_id (Monotone := I) a' Fa'). apply rle. lra. }
  assert (F' : fin (sub (ssub n a' f') (f' n))) by (apply (r_sub (Ranged := RI)); auto; apply (squeeze (sub (ssub n a f) (f n)) a'); auto).
  split; [exact F'|]. destruct (m_sub (Monotone := I) _ _ F') as (_ & _ & ->). exact Q.
Qed.
(** Negative terms shrink and the number one starts with does: the difference shrinks. *)
Lemma ssub_down n a a' f f' : fin (ssub n a f) -> fin a' -> 0 <= val a' <= val a ->
  (forall k, (k < n)%nat -> fin (f k) -> fin (f' k) /\ val (f k) <= val (f' k) <= 0) ->
  fin (ssub n a' f') /\ 0 <= val (ssub n a' f') <= val (ssub n a f).
Proof.
  intros F Fa' Ha. induction n as [|n IH]; cbn [ssub] in *; intros Hf; [split; [auto|lra]|].
  destruct (m_sub (Monotone := I) _ _ F) as (F1 & F2 & E). destruct (IH F1 (fun k Hk => Hf k (Nat.lt_lt_succ_r _ _ Hk))) as (F1' & B).
  destruct (Hf n (Nat.lt_succ_diag_r n) F2) as (F2' & B2).
  assert (Q : 0 <= rnd (val (ssub n a' f') - val (f' n)) <= val (sub (ssub n a f) (f n))) by (rewrite E; split; [apply rpos; lra|apply rle; lra]).
  destruct zero_fin as [F0 V0].
  assert (F' : fin (sub (ssub n a' f') (f' n))) by (apply (r_sub (Ranged := RI)); auto; apply (squeeze zero (sub (ssub n a f) (f n))); auto; rewrite V0; exact Q).
  split; [exact F'|]. destruct (m_sub (Monotone := I) _ _ F') as (_ & _ & ->). exact Q.
Qed.

(** ** Substitution *)
(** Two triangular factors: the second has larger entries. *)
Definition up_raised n (F F' : nat -> nat -> T) : Prop := forall i, (i < n)%nat -> fin (F i i) /\ fin (F' i i) /\ 0 < val (F i i) <= val (F' i i) /\
  forall j, (i < j)%nat -> (j < n)%nat -> fin (F' i j) /\ val (F i j) <= val (F' i j) <= 0.
Definition low_raised n (F F' : nat -> nat -> T) : Prop := forall i j, (j < i)%nat -> (i < n)%nat -> fin (F' i j) /\ val (F i j) <= val (F' i j) <= 0.
Notation low := (lowered val fin).
(** What is claimed of two solvers S (with the first matrix) and S' (with the second). *)
Definition compares n (S S' : (nat -> T) -> (nat -> T) -> Prop) : Prop := forall b x b' x', S b x -> S' b' x' -> vfin n x -> low n b b' -> low n x x'.

Lemma bwd_comp n F F' : up_raised n F F' ->
  compares n (fun y x => forall i, (i < n)%nat -> ilu_bwd n F y x i) (fun y x => forall i, (i < n)%nat -> ilu_bwd n F' y x i).
Proof.
  intros Z y x y' x' H H' Fx Hy. assert (G : forall k i, (i < n)%nat -> (n - 1 - i <= k)%nat -> fin (x' i) /\ 0 <= val (x' i) <= val (x i)).
  { induction k as [k IH] using lt_wf_ind. intros i Hi Hk. pose proof (Fx i Hi) as Fi. unfold ilu_bwd in H, H'. rewrite (H i Hi) in Fi. rewrite (H i Hi), (H' i Hi).
    destruct (Z i Hi) as (Fd & Fd' & [Pd Ld] & Zo). destruct (m_div (Monotone := I) _ _ Fi Fd (Rgt_not_eq _ _ Pd)) as (Fs & _).
    destruct (Hy i Hi) as [Fy By].
    edestruct (ssub_down (n - S i) (y i) (y' i)) as (Fs' & B); [exact Fs|exact Fy|exact By| |apply div_pos; [exact Fi|exact Fd|exact Fs'|exact Fd'|apply B|apply B|exact Pd|exact Ld]].
    intros t Ht Ft. destruct (Zo (S i + t)%nat ltac:(lia) ltac:(lia)) as [Fu Bu].
    destruct (IH (n - 1 - (S i + t))%nat ltac:(lia) (S i + t)%nat ltac:(lia) ltac:(lia)) as [Ftx Bx].
    apply mul_np; auto; lra. }
  intros i Hi. apply (G (n - 1 - i)%nat); auto.
Qed.
Lemma fwd_comp n F F' : low_raised n F F' -> (forall i, (i < n)%nat -> fin (F i i) /\ fin (F' i i) /\ 0 < val (F i i) <= val (F' i i)) ->
  compares n (fun y x => forall i, (i < n)%nat -> fwd F y x i) (fun y x => forall i, (i < n)%nat -> fwd F' y x i).
Proof.
  intros Z D y x y' x' H H' Fx Hy. unfold lowered. induction i as [i IH] using lt_wf_ind. intros Hi. pose proof (Fx i Hi) as Fi. unfold fwd in H, H'. rewrite (H i Hi) in Fi. rewrite (H i Hi), (H' i Hi).
  destruct (D i Hi) as (Fd & Fd' & [Pd Ld]). destruct (m_div (Monotone := I) _ _ Fi Fd (Rgt_not_eq _ _ Pd)) as (Fs & _).
  destruct (Hy i Hi) as [Fy By].
  edestruct (ssub_down i (y i) (y' i)) as (Fs' & B); [exact Fs|exact Fy|exact By| |apply div_pos; [exact Fi|exact Fd|exact Fs'|exact Fd'|apply B|apply B|exact Pd|exact Ld]].
  intros t Ht Ft. destruct (Z i t Ht Hi) as [Fu Bu]. destruct (IH t Ht ltac:(lia)) as [Ftx Bx]. apply mul_np; auto; lra.
Qed.
Lemma lfwd_comp n F F' : low_raised n F F' -> compares n (fun y x => forall i, (i < n)%nat -> ilu_fwd F y x i) (fun y x => forall i, (i < n)%nat -> ilu_fwd F' y x i).
Proof.
  intros Z y x y' x' H H' Fx Hy. unfold lowered. induction i as [i IH] using lt_wf_ind. intros Hi. pose proof (Fx i Hi) as Fi. unfold ilu_fwd in H, H'. rewrite (H i Hi) in Fi. rewrite (H i Hi), (H' i Hi).
  destruct (Hy i Hi) as [Fy By]. apply (ssub_down i (y i) (y' i)); [exact Fi|exact Fy|exact By|].
  intros t Ht Ft. destruct (Z i t Ht Hi) as [Fu Bu]. destruct (IH t Ht ltac:(lia)) as [Ftx Bx]. apply mul_np; auto; lra.
Qed.
Lemma up_nz n F F' : up_raised n F F' -> forall i, (i < n)%nat -> fin (F i i) /\ val (F i i) <> 0.
Proof. intros Z i Hi. destruct (Z i Hi) as (A & _ & [P _] & _). split; [auto|lra]. Qed.
Lemma lu_comp n F F' : up_raised n F F' -> low_raised n F F' -> compares n (ilu_solved n F) (ilu_solved n F').
Proof.
  intros Z Zl b x b' x' (y & L & U) (y' & L' & U') Fx Hb. apply (bwd_comp n F F' Z y x y' x' U U' Fx).
  apply (lfwd_comp n F F' Zl b y b' y' L L'); auto. intros i Hi. now apply (val_bwd n F y x (up_nz n F F' Z) Fx U).
Qed.
Lemma chol_comp n L L' : low_raised n L L' -> (forall i, (i < n)%nat -> fin (L i i) /\ fin (L' i i) /\ 0 < val (L i i) <= val (L' i i)) ->
  compares n (substituted n L) (substituted n L').
Proof.
  intros Zl D b x b' x' (y & LF & U) (y' & LF' & U') Fx Hb.
  assert (Z : up_raised n (fun i j => L j i) (fun i j => L' j i)).
  { intros i Hi. destruct (D i Hi) as (A & B & C). repeat (split; [assumption|]). intros j Hj Hn. now apply Zl. }
  apply (bwd_comp n _ _ Z y x y' x' U U' Fx). apply (fwd_comp n L L' Zl D b y b' y' LF LF'); auto.
  intros i Hi. now apply (val_bwd n (fun i j => L j i) y x (up_nz n _ _ Z) Fx U).
Qed.

(** ** The factors *)
(** Cholesky, row by row. *)
Definition row_comp (L L' : nat -> nat -> T) i : Prop :=
  (forall j, (j < i)%nat -> fin (L' i j) /\ val (L i j) <= val (L' i j) <= 0) /\ fin (L' i i) /\ 0 < val (L i i) <= val (L' i i).
Lemma chol_row n A A' L L' i : raised_low val fin n A A' -> factored n A L -> good_diagonal (val := val) (fin := fin) n L ->
  (i < n)%nat -> (forall k, (k < i)%nat -> row_comp L L' k) -> (forall j, (j < i)%nat -> offrec A' L' i j) ->
  (forall j, (j < i)%nat -> fin (L' i j) /\ val (L i j) <= val (L' i j) <= 0) /\ fin (pivot A' L' i) /\ 0 < val (pivot A L i) <= val (pivot A' L' i).
Proof.
  intros RA HF D Hi IH HO. destruct (HF i Hi) as [HL [_ HD]]. destruct (D i Hi) as [Fd Pd]. rewrite HD in Fd, Pd.
  destruct (m_sqrt (Monotone := I) _ Fd) as (Fp & Vp). pose proof Fp as Fp0. unfold pivot in Fp0. destruct (val_ssub (I := I) _ _ _ Fp0) as (Fa & Fk & _).
  assert (FL : forall k, (k < i)%nat -> fin (L i k)).
  { intros k Hk. specialize (Fk k Hk). cbv beta in Fk. rewrite (m_pow2 (Monotone := I)) in Fk. now destruct (m_mul (Monotone := I) _ _ Fk). }
  assert (G : forall j, (j < i)%nat -> fin (L' i j) /\ val (L i j) <= val (L' i j) <= 0).
  { induction j as [j IHj] using lt_wf_ind. intros Hj. pose proof (FL j Hj) as F. specialize (HL j Hj). specialize (HO j Hj). unfold offrec in HL, HO. rewrite HL in F.
    rewrite HL, HO. destruct (D j ltac:(lia)) as [Fj Pj]. destruct (m_div (Monotone := I) _ _ F Fj (Rgt_not_eq _ _ Pj)) as (Fs & _).
    destruct (IH j Hj) as (RO & Fj' & Bj). destruct (RA i j ltac:(lia) Hi) as (Fa' & La & Na). specialize (Na ltac:(lia)).
    edestruct (ssub_up j (A i j) (A' i j)) as (Fs' & B); [exact Fs|exact Fa'|exact La| |apply div_neg; [exact F|exact Fj|exact Fs'|exact Fj'|apply B| |exact Pj|apply Bj]; apply Rle_trans with (2 := Na); apply B].
    intros k Hk Ft. destruct (IHj k Hk ltac:(lia)) as [F1 B1]. destruct (RO k Hk) as [F2 B2]. apply mul_nn; auto; lra. }
  split; [exact G|]. destruct (RA i i ltac:(lia) Hi) as (Fa' & La & _).
  destruct (ssub_up i (A i i) (A' i i) (fun k => pow2 (L i k)) (fun k => pow2 (L' i k)) Fp Fa' La) as (Fs' & B).
  { intros k Hk Ft. rewrite !(m_pow2 (Monotone := I)) in *. destruct (G k Hk) as [F1 B1]. apply mul_nn; auto; lra. }
  split; [exact Fs'|]. split; [|apply B]. destruct (Rlt_dec 0 (val (pivot A L i))) as [P|P]; [exact P|exfalso].
  rewrite Vp, sqrt_neg_0, (rnd_0 (I := I)) in Pd by lra. lra.
Qed.
Lemma not_bad x : fin x -> 0 < val x -> ~ bad x.
Proof. intros F P. destruct zero_fin as [F0 V0]. intros [B|B]; [apply (m_eqb (Monotone := I)) in B|apply (m_ltb (Monotone := I)) in B]; auto; lra. Qed.
Lemma chol_row_done n A A' L L' i : raised_low val fin n A A' -> factored n A L -> good_diagonal (val := val) (fin := fin) n L ->
  (i < n)%nat -> (forall k, (k < i)%nat -> row_comp L L' k) -> rowrec A' L' i -> row_comp L L' i.
Proof.
  intros RA HF D Hi IH [HO [_ HD]]. destruct (chol_row n A A' L L' i RA HF D Hi IH HO) as (G & Fp & B). split; [exact G|].
  destruct (HF i Hi) as [_ [_ E]]. destruct (D i Hi) as [Fd Pd]. rewrite E in Fd. rewrite E in Pd. rewrite HD, E.
  assert (F' : fin (sqrt_ (pivot A' L' i))) by (apply (r_sqrt (Ranged := RI)); auto; lra). split; [exact F'|]. split; [exact Pd|].
  destruct (m_sqrt (Monotone := I) _ F') as (_ & ->), (m_sqrt (Monotone := I) _ Fd) as (_ & ->). apply rle, sqrt_le_1_alt. apply B.
Qed.
Lemma chol_rows n A A' L L' c : raised_low val fin n A A' -> factored n A L -> good_diagonal (val := val) (fin := fin) n L ->
  (c <= n)%nat -> (forall i, (i < c)%nat -> rowrec A' L' i) -> forall i, (i < c)%nat -> row_comp L L' i.
Proof.
  intros RA HF D Hc HR. induction i as [i IH] using lt_wf_ind. intros Hi. apply (chol_row_done n A A' L L' i); auto; [lia|]. intros k Hk. apply IH; lia.
Qed.
Lemma chol_never_fails n A A' L L' c : raised_low val fin n A A' -> factored n A L -> good_diagonal (val := val) (fin := fin) n L -> ~ failed n A' L' c.
Proof.
  intros RA HF D (Hc & HR & HO & _ & B & _). destruct (chol_row n A A' L L' c RA HF D Hc) as (_ & Fp & P); auto.
  - apply (chol_rows n A A' L L' c); auto. lia.
  - apply (not_bad _ Fp) in B; auto. lra.
Qed.
Lemma rows_parts n L L' : (forall i, (i < n)%nat -> row_comp L L' i) -> good_diagonal (val := val) (fin := fin) n L ->
  low_raised n L L' /\ forall i, (i < n)%nat -> fin (L i i) /\ fin (L' i i) /\ 0 < val (L i i) <= val (L' i i).
Proof. intros H D. split; [intros i j Hj Hi; now apply H|]. intros i Hi. split; [now apply D|]. destruct (H i Hi) as (_ & A & B). auto. Qed.

(** Incomplete LU, row by row. *)
Definition ilu_comp n (F F' : nat -> nat -> T) i : Prop :=
  (forall j, (j < n)%nat -> i <> j -> fin (F' i j) /\ val (F i j) <= val (F' i j) <= 0) /\ fin (F' i i) /\ 0 < val (F i i) <= val (F' i i).
Lemma nzb_val x : fin x -> (nzb x = true <-> val x <> 0).
Proof.
  intros F. destruct zero_fin as [F0 V0]. unfold nzb. pose proof (m_eqb (Monotone := I) x zero F F0) as E. rewrite V0 in E.
  destruct (eqb x zero); cbn; intuition congruence.
Qed.
Lemma nzb_false x : fin x -> nzb x = false -> val x = 0.
Proof. intros F E. destruct (Req_EM_T (val x) 0) as [Q|Q]; [exact Q|]. apply (nzb_val x F) in Q. congruence. Qed.
Lemma ilu_row n A A' F F' i : (forall i j, (i < n)%nat -> (j < n)%nat -> fin (A i j)) -> raised val fin n A A' -> ilu_done n n A F ->
  good_factor (val := val) (fin := fin) n F -> z_matrix (val := val) n F ->
  (i < n)%nat -> (forall k, (k < i)%nat -> ilu_comp n F F' k) -> ilurow n A' F' i -> ilu_comp n F F' i.
Proof.
  intros FA RA HF [FF D] ZF Hi IH [HL' HU']. destruct (HF i Hi) as [HL HU].
  assert (NZ : forall j, (j < n)%nat -> i <> j -> nzb (A' i j) = true -> nzb (A i j) = true).
  { intros j Hj Nij H. destruct (RA i j Hi Hj) as (Fa & La & Na). specialize (Na Nij). apply nzb_val in H; auto. apply nzb_val; auto. lra. }
  assert (ZE : forall j, (j < n)%nat -> i <> j -> nzb (A' i j) = false -> F' i j = A' i j -> fin (F' i j) /\ val (F i j) <= val (F' i j) <= 0).
  { intros j Hj Nij H E. destruct (RA i j Hi Hj) as (Fa & _). rewrite E. split; [exact Fa|]. rewrite (nzb_false _ Fa H). pose proof (ZF i j Hi Hj Nij). lra. }
  assert (GL : forall j, (j < i)%nat -> fin (F' i j) /\ val (F i j) <= val (F' i j) <= 0).
  { induction j as [j IHj] using lt_wf_ind. intros Hj. specialize (HL j Hj). specialize (HL' j Hj). unfold lrec in HL, HL'.
    destruct (nzb (A' i j)) eqn:N'; [|apply ZE; auto; lia]. rewrite (NZ j) in HL by (auto; lia). destruct HL as [_ HL], HL' as [_ HL'].
    pose proof (FF i j Hi ltac:(lia)) as K. rewrite HL in K. rewrite HL, HL'. pose proof (D j ltac:(lia)) as Pj. pose proof (FF j j ltac:(lia) ltac:(lia)) as Fj.
    destruct (m_div (Monotone := I) _ _ K Fj (Rgt_not_eq _ _ Pj)) as (Fs & _). destruct (IH j Hj) as (RO & Fj' & Bj).
    destruct (RA i j Hi ltac:(lia)) as (Fa' & La & Na). specialize (Na ltac:(lia)).
    edestruct (ssub_up j (A i j) (A' i j)) as (Fs' & B); [exact Fs|exact Fa'|exact La| |apply div_neg; [exact K|exact Fj|exact Fs'|exact Fj'|apply B| |exact Pj|apply Bj]; apply Rle_trans with (2 := Na); apply B].
    intros k Hk Ft. destruct (IHj k Hk ltac:(lia)) as [F1 B1]. destruct (IH k ltac:(lia)) as (RK & _). destruct (RK j ltac:(lia) ltac:(lia)) as [F2 B2]. apply mul_nn; auto; lra. }
  assert (GU : forall j, (i <= j)%nat -> (j < n)%nat -> nzb (A i j) = true -> nzb (A' i j) = true ->
    fin (F' i j) /\ val (F i j) <= val (F' i j) <= val (A' i j)).
  { intros j Hj Hn N N'. specialize (HU j Hj Hn). specialize (HU' j Hj Hn). unfold urec in HU, HU'. rewrite N in HU. rewrite N' in HU'.
    pose proof (FF i j Hi Hn) as K. rewrite HU in K. rewrite HU, HU'. destruct (RA i j Hi Hn) as (Fa' & La & _).
    apply ssub_up; auto. intros k Hk Ft. destruct (GL k Hk) as [F1 B1]. destruct (IH k Hk) as (RK & _). destruct (RK j Hn ltac:(lia)) as [F2 B2]. apply mul_nn; auto; lra. }
  split.
  - intros j Hj Nij. destruct (Nat.lt_ge_cases j i) as [L|L]; [now apply GL|]. destruct (nzb (A' i j)) eqn:N'.
    + destruct (GU j L Hj (NZ j Hj Nij N') N') as [G1 G2]. destruct (RA i j Hi Hj) as (_ & _ & Na). specialize (Na Nij). split; [exact G1|lra].
    + specialize (HU' j L Hj). unfold urec in HU'. rewrite N' in HU'. now apply ZE.
  - pose proof (D i Hi) as Di. destruct (RA i i Hi Hi) as (Fa' & La & _).
    assert (P : 0 < val (A i i) /\ nzb (A i i) = true).
    { pose proof (HU i ltac:(lia) Hi) as U. unfold urec in U. destruct (nzb (A i i)) eqn:N.
      - split; [|reflexivity]. pose proof (FF i i Hi Hi) as K. rewrite U in K, Di.
        destruct (ssub_up i (A i i) (A i i) (fun k => mul (F i k) (F k i)) (fun k => mul (F i k) (F k i)) K (FA i i Hi Hi) ltac:(lra)) as (_ & B); [|lra].
        intros k Hk Ft. split; [exact Ft|]. split; [|lra]. destruct (m_mul (Monotone := I) _ _ Ft) as (_ & _ & ->). apply rpos.
        pose proof (ZF i k Hi ltac:(lia) ltac:(lia)). pose proof (ZF k i ltac:(lia) Hi ltac:(lia)). nra.
      - rewrite U in Di. rewrite (nzb_false _ (FA i i Hi Hi) N) in Di. lra. }
    destruct (GU i ltac:(lia) Hi (proj2 P)) as [G1 G2]; [apply nzb_val; auto; lra|]. split; [exact G1|lra].
Qed.
Lemma ilu_rows n A A' F F' c : (forall i j, (i < n)%nat -> (j < n)%nat -> fin (A i j)) -> raised val fin n A A' -> ilu_done n n A F ->
  good_factor (val := val) (fin := fin) n F -> (c <= n)%nat -> (forall i, (i < c)%nat -> ilurow n A' F' i) -> forall i, (i < c)%nat -> ilu_comp n F F' i.
Proof.
  intros FA RA HF GF Hc HR.
  assert (ZF : z_matrix (val := val) n F).
  { destruct GF as [FF D]. apply (ilu_factor_signs (I := I) n A F); auto. intros i j Hi Hj N. destruct (RA i j Hi Hj) as (_ & L & Q). specialize (Q N). lra. }
  induction i as [i IH] using lt_wf_ind. intros Hi. apply (ilu_row n A A' F F' i); auto; [lia|]. intros k Hk. apply IH; lia.
Qed.
Lemma ilu_never_stops n A A' F F' : (forall i j, (i < n)%nat -> (j < n)%nat -> fin (A i j)) -> raised val fin n A A' -> ilu_done n n A F ->
  good_factor (val := val) (fin := fin) n F -> ~ ilu_stop n n A' F'.
Proof.
  intros FA RA HF GF (i & j & Hj & Hi & HR & _ & _ & N). destruct (ilu_rows n A A' F F' i FA RA HF GF ltac:(lia) HR j Hj) as (_ & Fj & B).
  apply nzb_false in N; auto. lra.
Qed.
Lemma ilu_parts n F F' : (forall i, (i < n)%nat -> ilu_comp n F F' i) -> good_factor (val := val) (fin := fin) n F -> up_raised n F F' /\ low_raised n F F'.
Proof.
  intros H [FF D]. split.
  - intros i Hi. destruct (H i Hi) as (A & B & C). split; [now apply FF|]. split; [exact B|]. split; [exact C|]. intros j Hj Hn. apply A; lia.
  - intros i j Hj Hi. destruct (H i Hi) as (A & _). apply A; lia.
Qed.

(** ** The tridiagonal solver *)
Section Tri.
Variables (n : nat) (dl d du dl' d' du' : nat -> T).
Notation left dl i := (match i with O => 0 | S k => val (dl k) end).
Hypothesis Fl : forall i, (S i < n)%nat -> fin (dl i) /\ val (dl i) <= 0.
Hypothesis Fu : forall i, (S i < n)%nat -> fin (du i) /\ val (du i) <= 0.
Hypothesis Fd : forall i, (i < n)%nat -> fin (d i).
Hypothesis Dom : forall i, (i < n)%nat -> 0 < left dl i + val (d i).
Hypothesis Sum : forall i, (S i < n)%nat -> 0 <= left dl i + val (d i) + val (du i).
Hypothesis Fl' : forall i, (S i < n)%nat -> fin (dl' i) /\ val (dl i) <= val (dl' i) <= 0.
Hypothesis Fu' : forall i, (S i < n)%nat -> fin (du' i) /\ val (du i) <= val (du' i) <= 0.
Hypothesis Fd' : forall i, (i < n)%nat -> fin (d' i) /\ val (d i) <= val (d' i).
Lemma tl' : forall i, (S i < n)%nat -> fin (dl' i) /\ val (dl' i) <= 0.
Proof. intros i Hi. destruct (Fl' i Hi) as [A B]. split; [auto|apply B]. Qed.
Lemma tu' : forall i, (S i < n)%nat -> fin (du' i) /\ val (du' i) <= 0.
Proof. intros i Hi. destruct (Fu' i Hi) as [A B]. split; [auto|apply B]. Qed.
Lemma td' : forall i, (i < n)%nat -> fin (d' i).
Proof. intros i Hi. now apply Fd'. Qed.
Lemma tdom' : forall i, (i < n)%nat -> 0 < left dl' i + val (d' i).
Proof. intros i Hi. specialize (Dom i Hi). destruct (Fd' i Hi) as [_ L]. destruct i as [|k]; [lra|]. destruct (Fl' k Hi) as [_ Q]. lra. Qed.
Lemma tsum' : forall i, (S i < n)%nat -> 0 <= left dl' i + val (d' i) + val (du' i).
Proof.
  intros i Hi. specialize (Sum i Hi). destruct (Fd' i ltac:(lia)) as [_ L]. destruct (Fu' i Hi) as [_ U]. destruct i as [|k]; [lra|].
  destruct (Fl' k ltac:(lia)) as [_ Q]. lra.
Qed.
Notation P b i := (fst (sweep dl d du b i)).
Notation P' b i := (fst (sweep dl' d' du' b i)).
Notation Q b i := (snd (sweep dl d du b i)).
Notation Q' b i := (snd (sweep dl' d' du' b i)).
Notation E b i := (den dl d (fun k => P b k) i).
Notation E' b i := (den dl' d' (fun k => P' b k) i).
Lemma e_ok b i : (i < n)%nat -> fin (E b i) /\ 0 < val (E b i).
Proof. intros Hi. apply (den_pos (I := I) n dl d du Fl Fu Fd Dom Sum b i Hi). Qed.
Lemma e_ok' b i : (i < n)%nat -> fin (E' b i) /\ 0 < val (E' b i).
Proof. intros Hi. apply (den_pos (I := I) n dl' d' du' tl' tu' td' tdom' tsum' b i Hi). Qed.
Lemma p_ok1 b i : (S i < n)%nat -> fin (P b i) /\ 0 <= val (P b i) <= 1.
Proof. apply (p_ok (I := I) n dl d du Fl Fu Fd Dom Sum b i). Qed.
Lemma p_ok' b i : (S i < n)%nat -> fin (P' b i) /\ 0 <= val (P' b i) <= 1.
Proof. apply (p_ok (I := I) n dl' d' du' tl' tu' td' tdom' tsum' b i). Qed.
Lemma ep_comp b b' i : (i < n)%nat -> val (E b i) <= val (E' b' i) /\ ((S i < n)%nat -> val (P' b' i) <= val (P b i)).
Proof.
  induction i as [|i IH]; intros Hi.
  - assert (B : val (E b 0) <= val (E' b' 0)) by (cbn; now apply Fd'). split; [exact B|]. intros H. rewrite !sweep_p.
    destruct (p_ok1 b 0 H) as [F _]. rewrite sweep_p in F. destruct (Fu 0%nat H) as [F1 U]. destruct (Fu' 0%nat H) as [F1' U'].
    destruct (m_opp (Monotone := I) (du 0%nat)) as [Fo Vo], (m_opp (Monotone := I) (du' 0%nat)) as [Fo' Vo'].
    destruct (e_ok b 0 Hi) as [Fe Pe]. destruct (e_ok' b' 0 Hi) as [Fe' Pe'].
    apply div_pos; auto; [now apply Fo'|rewrite Vo'; lra|rewrite Vo, Vo'; lra].
  - destruct (IH ltac:(lia)) as [_ IP]. specialize (IP Hi). destruct (e_ok b (S i) Hi) as [Fe Pe]. destruct (e_ok' b' (S i) Hi) as [Fe' Pe'].
    assert (B : val (E b (S i)) <= val (E' b' (S i))).
    { cbn [den] in *. destruct (m_add (Monotone := I) _ _ Fe) as (_ & Fm & ->), (m_add (Monotone := I) _ _ Fe') as (_ & Fm' & ->). apply rle.
      destruct (p_ok' b' i Hi) as [Fp' Bp']. destruct (Fl' i Hi) as [Fl1 Bl1]. destruct (Fd' (S i) Hi) as [_ Ld].
      destruct (mul_np (dl i) (P b i) (dl' i) (P' b' i) Fm Fl1 Fp') as (_ & M); lra. }
    split; [exact B|]. intros H. rewrite !sweep_p.
    destruct (p_ok1 b (S i) H) as [F _]. rewrite sweep_p in F. destruct (Fu (S i) H) as [F1 U]. destruct (Fu' (S i) H) as [F1' U'].
    destruct (m_opp (Monotone := I) (du (S i))) as [Fo Vo], (m_opp (Monotone := I) (du' (S i))) as [Fo' Vo'].
    apply div_pos; auto; [now apply Fo'|rewrite Vo'; lra|rewrite Vo, Vo'; lra].
Qed.
Lemma q_comp b b' : (forall i, (i < n)%nat -> fin (Q b i)) -> low n b b' -> forall i, (i < n)%nat -> fin (Q' b' i) /\ 0 <= val (Q' b' i) <= val (Q b i).
Proof.
  intros FQ Hb. induction i as [|i IH]; intros Hi; pose proof (FQ _ Hi) as F; rewrite sweep_q in F; rewrite (sweep_q dl' d' du' b'), (sweep_q dl d du b);
    destruct (e_ok b _ Hi) as [Fe Pe]; destruct (e_ok' b' _ Hi) as [Fe' Pe']; destruct (ep_comp b b' _ Hi) as [Le _]; destruct (Hb _ Hi) as [Fb Bb].
  - apply div_pos; auto; apply Bb.
  - destruct (m_div (Monotone := I) _ _ F Fe (Rgt_not_eq _ _ Pe)) as (Fs & _). destruct (IH ltac:(lia)) as [Fq Bq]. destruct (Fl' i Hi) as [Fl1 Bl1].
    destruct (m_sub (Monotone := I) _ _ Fs) as (_ & Fm & Vs). destruct (mul_np (dl i) (Q b i) (dl' i) (Q' b' i) Fm Fl1 Fq) as (Fm' & M); try lra.
    assert (B : 0 <= rnd (val (b' (S i)) - val (mul (dl' i) (Q' b' i))) <= val (sub (b (S i)) (mul (dl i) (Q b i)))) by (rewrite Vs; split; [apply rpos; lra|apply rle; lra]).
    destruct zero_fin as [F0 V0].
    assert (Fs' : fin (sub (b' (S i)) (mul (dl' i) (Q' b' i)))).
    { apply (r_sub (Ranged := RI)); auto. apply (squeeze zero (sub (b (S i)) (mul (dl i) (Q b i)))); auto. rewrite V0. exact B. }
    destruct (m_sub (Monotone := I) _ _ Fs') as (_ & _ & Vs'). rewrite <- Vs' in B. exact (div_pos _ _ _ _ F Fe Fs' Fe' (proj1 B) (proj2 B) Pe Le).
Qed.
Lemma tri_comp : (0 < n)%nat -> compares n (swept n dl d du) (swept n dl' d' du').
Proof.
  intros Hn b x b' x' S S' Fx Hb. pose proof (swept_fin (I := I) n dl d du b x Hn S Fx) as Fq. pose proof (q_comp b b' Fq Hb) as BQ.
  destruct S as [H1 H2], S' as [H1' H2']. assert (G : forall k i, (i < n)%nat -> (n - 1 - i = k)%nat -> fin (x' i) /\ 0 <= val (x' i) <= val (x i)).
  { induction k as [|k IH]; intros i Hi Hk; [replace i with (n - 1)%nat by lia; rewrite H1, H1'; apply BQ; lia|].
    pose proof (Fx i Hi) as F. rewrite H2 in F by lia. rewrite H2, H2' by lia. destruct (m_add (Monotone := I) _ _ F) as (Fm & _ & VA).
    destruct (IH (S i) ltac:(lia) ltac:(lia)) as [Fx1 Bx1]. destruct (p_ok' b' i ltac:(lia)) as [Fp' Bp']. destruct (ep_comp b b' i Hi) as [_ Lp].
    specialize (Lp ltac:(lia)). destruct (BQ i Hi) as [FQ' BQ'].
    destruct (mul_pp (P b i) (x (S i)) (P' b' i) (x' (S i)) Fm Fp' Fx1) as (Fm' & M); [lra|lra|].
    assert (B : 0 <= rnd (val (mul (P' b' i) (x' (S i))) + val (Q' b' i)) <= val (add (mul (P b i) (x (S i))) (Q b i))) by (rewrite VA; split; [apply rpos; lra|apply rle; lra]).
    destruct zero_fin as [F0 V0].
    assert (Fs' : fin (add (mul (P' b' i) (x' (S i))) (Q' b' i))).
    { apply (r_add (Ranged := RI)); auto. apply (squeeze zero (add (mul (P b i) (x (S i))) (Q b i))); auto. rewrite V0. exact B. }
    split; [exact Fs'|]. destruct (m_add (Monotone := I) _ _ Fs') as (_ & _ & ->). exact B. }
  intros i Hi. now apply (G _ i Hi eq_refl).
Qed.
End Tri.

(** ** The solvers *)
(** back_sub with U and with U', whose entries are not smaller; 0 <= b' <= b.  If the first result is finite, so is the second, and
    0 <= x' <= x. *)
Theorem C105_back_sub : forall (U U' : utri T) n f f' y y' (h g : heap T),
  utri_wf U n -> (forall i j, (i < n)%nat -> (j < n)%nat -> forall S (s : S), utri_get U i j s = Ok (f i j) s) ->
  utri_wf U' n -> (forall i j, (i < n)%nat -> (j < n)%nat -> forall S (s : S), utri_get U' i j s = Ok (f' i j) s) ->
  isvec h y n -> isvec g y' n -> (forall i, (i < n)%nat -> fin (f i i) /\ 0 < val (f i i)) -> raised val fin n f f' -> lowered val fin n (rd h y) (rd g y') ->
  exists h' g', back_sub U y h = Ok tt h' /\ back_sub U' y' g = Ok tt g' /\ (vfin n (rd h' y) -> lowered val fin n (rd h' y) (rd g' y')).
Proof.
  intros U U' n f f' y y' h g W RD W' RD' Hy Hy' D RA Hb.
  destruct (post_ok _ _ _ (back_sub_bits U y n f h (proj1 W) RD Hy)) as ([] & h' & E & _ & _ & _ & H).
  destruct (post_ok _ _ _ (back_sub_bits U' y' n f' g (proj1 W') RD' Hy')) as ([] & g' & E' & _ & _ & _ & H').
  exists h', g'. split; [exact E|]. split; [exact E'|]. intros Fx.
  assert (Z : up_raised n f f').
  { intros i Hi. destruct (D i Hi) as [Fd Pd]. destruct (RA i i Hi Hi) as (Fd' & Ld & _). split; [exact Fd|]. split; [exact Fd'|]. split; [lra|].
    intros j Hj Hn. destruct (RA i j Hi Hn) as (Fo & Lo & No). split; [exact Fo|]. split; [exact Lo|]. apply No. lia. }
  exact (bwd_comp n f f' Z _ _ _ _ H H' Fx Hb).
Qed.

Lemma tri_parts2 (t t' : tri T) n : z_tridiagonal val fin n (tmat t) -> raised val fin n (tmat t) (tmat t') -> (0 < n)%nat ->
  compares n (swept n (atf (tdl t)) (atf (td t)) (atf (tdu t))) (swept n (atf (tdl t')) (atf (td t')) (atf (tdu t'))).
Proof.
  intros [Z D] RA Hn.
  assert (Bl : forall (t : tri T) i, tmat t (S i) i = atf (tdl t) i).
  { intros t0 i. unfold tmat, band. destruct (Nat.eqb_spec (S i) i); [lia|]. destruct (Nat.eqb_spec i (S i + 1)); [lia|]. now rewrite Nat.add_1_r, Nat.eqb_refl. }
  assert (Bd : forall (t : tri T) i, tmat t i i = atf (td t) i) by (intros t0 i; unfold tmat, band; now rewrite Nat.eqb_refl).
  assert (Bu : forall (t : tri T) i, tmat t i (S i) = atf (tdu t) i).
  { intros t0 i. unfold tmat, band. destruct (Nat.eqb_spec i (S i)); [lia|]. now rewrite Nat.add_1_r, Nat.eqb_refl. }
  apply tri_comp; auto.
  - intros i Hi. rewrite <- Bl. destruct (Z (S i) i Hi ltac:(lia)) as [F V]. split; [auto|]. apply V. lia.
  - intros i Hi. rewrite <- Bu. destruct (Z i (S i) ltac:(lia) Hi) as [F V]. split; [auto|]. apply V. lia.
  - intros i Hi. rewrite <- Bd. now apply Z.
  - intros i Hi. destruct (D i Hi) as [D1 _]. rewrite Bd in D1. destruct i; [exact D1|]. now rewrite Bl in D1.
  - intros i Hi. destruct (D i ltac:(lia)) as [_ D2]. rewrite Bd, Bu in D2. destruct (Nat.ltb_spec (S i) n); [|lia]. destruct i; [exact D2|]. now rewrite Bl in D2.
  - intros i Hi. rewrite <- !Bl. destruct (RA (S i) i Hi ltac:(lia)) as (F & L & N). split; [auto|]. split; [auto|]. apply N. lia.
  - intros i Hi. rewrite <- !Bu. destruct (RA i (S i) ltac:(lia) Hi) as (F & L & N). split; [auto|]. split; [auto|]. apply N. lia.
  - intros i Hi. rewrite <- !Bd. destruct (RA i i Hi Hi) as (F & L & _). auto.
Qed.
Theorem C105_tridiagonal : forall dbg dbg' (t t' : tri T) n b b' r r' (h g : heap T), (2 <= n)%nat -> fits_i32 n = true -> tri_wf T t n -> tri_wf T t' n ->
  z_tridiagonal val fin n (tmat t) -> raised val fin n (tmat t) (tmat t') ->
  isvec h b n -> isvec g b' n -> (n <= len h r)%nat -> (n <= len g r')%nat -> lowered val fin n (rd h b) (rd g b') ->
  exists h' g', tridiag_solve_vec dbg t b r h = Ok r h' /\ tridiag_solve_vec dbg' t' b' r' g = Ok r' g' /\
    (vfin n (rd h' r) -> lowered val fin n (rd h' r) (rd g' r')).
Proof.
  intros dbg dbg' t t' n b b' r r' h g Hn Hf W W' Z RA Hb Hb' Lr Lr' Hl.
  destruct (tridiag_bits dbg t n b r h Hn Hf W Hb Lr) as (h' & E & _ & _ & _ & _ & Sw).
  destruct (tridiag_bits dbg' t' n b' r' g Hn Hf W' Hb' Lr') as (g' & E' & _ & _ & _ & _ & Sw').
  exists h', g'. split; [exact E|]. split; [exact E'|]. intros Fx. exact (tri_parts2 t t' n Z RA ltac:(lia) _ _ _ _ Sw Sw' Fx Hl).
Qed.

(** Many right-hand sides at once, column by column. *)
Theorem C105_tridiagonal_columns : forall dbg dbg' (t t' : tri T) n m m' B B' X X' (h g : heap T), (2 <= n)%nat -> fits_i32 n = true ->
  fits_u32 m = true -> fits_u32 m' = true -> tri_wf T t n -> tri_wf T t' n -> z_tridiagonal val fin n (tmat t) -> raised val fin n (tmat t) (tmat t') ->
  ismat h B n m -> ismat h X n m -> ismat g B' n m' -> ismat g X' n m' ->
  exists (h' g' : heap T), tridiag_solve_mat dbg t B X h = Ok X h' /\ tridiag_solve_mat dbg' t' B' X' g = Ok X' g' /\
    forall k k', (k < m)%nat -> (k' < m')%nat -> lowered val fin n (fun i => mget h B i k) (fun i => mget g B' i k') ->
      vfin n (fun i => mget h' X i k) -> lowered val fin n (fun i => mget h' X i k) (fun i => mget g' X' i k').
Proof.
  intros dbg dbg' t t' n m m' B B' X X' h g Hn Hf Hm Hm' W W' Z RA HB HX HB' HX'.
  destruct (tridiag_mat_bits dbg t n m B X h Hn Hf Hm W HB HX) as (h' & E & _ & _ & _ & Sw).
  destruct (tridiag_mat_bits dbg' t' n m' B' X' g Hn Hf Hm' W' HB' HX') as (g' & E' & _ & _ & _ & Sw').
  exists h', g'. split; [exact E|]. split; [exact E'|]. intros k k' Hk Hk' Hl Fx.
  exact (tri_parts2 t t' n Z RA ltac:(lia) _ _ _ _ (Sw k Hk) (Sw' k' Hk') Fx Hl).
Qed.

(** Cholesky.  A is factored with a finite positive diagonal; the entries of A' are not smaller, and not positive off the diagonal.  Then A' is accepted
    too, the entries of its factor are not smaller, and solutions with right-hand sides 0 <= b' <= b are 0 <= x' <= x. *)
Definition factors_compare n (L L' : nat -> nat -> T) : Prop :=
  good_diagonal (val := val) (fin := fin) n L' /\ forall i j, (j <= i)%nat -> (i < n)%nat -> fin (L' i j) /\ val (L i j) <= val (L' i j) /\ (i <> j -> val (L' i j) <= 0).
Definition chol_compares n F (h : heap T) F' (g : heap T) : Prop := forall dbg dbg' b b', isvec h b n -> isvec g b' n -> lowered val fin n (rd h b) (rd g b') ->
  exists x x' h1 g1, chol_solve_vec dbg F b h = Ok x h1 /\ chol_solve_vec dbg' F' b' g = Ok x' g1 /\ isvec h1 x n /\ isvec g1 x' n /\
    (vfin n (rd h1 x) -> lowered val fin n (rd h1 x) (rd g1 x')).
Lemma ctor_comp m h h0 F n A A' L : ctor_outcome m h h0 F n A' -> isfac h0 F n -> raised_low val fin n A A' -> factored n A L ->
  good_diagonal (val := val) (fin := fin) n L ->
  exists g', m h = Ok F g' /\ isfac g' F n /\ factors_compare n L (fac g' F) /\ forall i, (i < n)%nat -> row_comp L (fac g' F) i.
Proof.
  intros (h1 & Fr & Out) IF RA HF D. destruct Out as [[FL Q]|[[FL Q]|(c & Hc & FL & Q)]]; [|exfalso; eapply chol_never_fails; eauto|exfalso; eapply chol_never_fails; eauto].
  pose proof (chol_rows n A A' L (fac h1 F) n RA HF D ltac:(lia) FL) as R. exists h1. split; [exact Q|]. split.
  { destruct IF as (I1 & I2 & I3), Fr as (N & M & LL & _). repeat split; auto; [lia|]. now rewrite LL. }
  split; [|exact R]. split.
  - intros i Hi. destruct (R i Hi) as (_ & A1 & A2). split; [exact A1|lra].
  - intros i j Hj Hi. destruct (R i Hi) as (A0 & A1 & A2). destruct (Nat.eq_dec j i) as [->|N]; [split; [exact A1|]; split; [lra|congruence]|].
    destruct (A0 j ltac:(lia)) as [B1 B2]. split; [exact B1|]. split; [lra|]. intros; lra.
Qed.
Lemma chol_compares_ok n F h F' g : (Z.of_nat n < 2 ^ 31)%Z -> isfac h F n -> isfac g F' n -> good_diagonal (val := val) (fin := fin) n (fac h F) ->
  (forall i, (i < n)%nat -> row_comp (fac h F) (fac g F') i) -> chol_compares n F h F' g.
Proof.
  intros Hn HF HF' D R dbg dbg' b b' Hb Hb' Hl. destruct (rows_parts n _ _ R D) as [R1 R2].
  destruct (chol_vec_out n dbg F h Hn HF b Hb) as (x & h1 & E & _ & _ & V & S).
  destruct (chol_vec_out n dbg' F' g Hn HF' b' Hb') as (x' & g1 & E' & _ & _ & V' & S').
  exists x, x', h1, g1. repeat (split; [assumption|]). intros Fx. exact (chol_comp n _ _ R1 R2 _ _ _ _ S S' Fx Hl).
Qed.
Lemma isfac_square n A (h : heap T) : ismat h A n n -> isfac (halloc h (mem h (mp A))) (mkChol n (next h) Square) n.
Proof.
  intros (_ & _ & _ & A4). repeat split.
  - unfold halloc. cbn [chp next]. lia.
  - unfold len. cbn [chp]. rewrite mem_halloc_same. exact A4.
Qed.
Theorem C105_cholesky : forall n A A' (h g : heap T) F h', ismat h A n n -> ismat g A' n n -> (Z.of_nat n < 2 ^ 31)%Z ->
  dyn_cholesky A h = Ok F h' -> good_diagonal (val := val) (fin := fin) n (fac h' F) -> raised_low val fin n (mget h A) (mget g A') ->
  exists F' g', dyn_cholesky A' g = Ok F' g' /\ factors_compare n (fac h' F) (fac g' F') /\ chol_compares n F h' F' g'.
Proof.
  intros n A A' h g F h' HA HA' Hn E D RA. assert (Hf : fits_u32 n = true) by (unfold fits_u32; apply Z.ltb_lt; lia).
  pose proof (dyn_outcome n A h HA Hf) as Out.
  assert (EF : F = mkChol n (next h) Square).
  { destruct Out as (h1 & _ & [[_ Q]|[[_ Q]|(c & _ & _ & Q)]]); rewrite Q in E; congruence. }
  subst F. destruct (ctor_mono (I := I) _ _ _ _ _ _ h' Out (isfac_square n A h HA) E D) as [IF FA].
  destruct (ctor_comp _ _ _ _ _ (mget h A) (mget g A') _ (dyn_outcome n A' g HA' Hf) (isfac_square n A' g HA') RA FA D) as (g' & E' & IF' & C & R).
  eexists. exists g'. split; [exact E'|]. split; [exact C|]. now apply chol_compares_ok.
Qed.
Lemma isfac_packed n (H : herm T) (h : heap T) : herm_wf H n -> isfac (halloc h (ev H)) (mkChol n (next h) Triangle) n.
Proof.
  intros (_ & A4). repeat split.
  - unfold halloc. cbn [chp next]. lia.
  - unfold len. cbn [chp]. rewrite mem_halloc_same. exact A4.
Qed.
Theorem C105_cholesky_packed : forall n A A' (h g : heap T) F h', herm_wf A n -> herm_wf A' n -> (Z.of_nat n < 2 ^ 31)%Z ->
  tri_cholesky A h = Ok F h' -> good_diagonal (val := val) (fin := fin) n (fac h' F) -> raised_low val fin n (hmat A) (hmat A') ->
  exists F' g', tri_cholesky A' g = Ok F' g' /\ factors_compare n (fac h' F) (fac g' F') /\ chol_compares n F h' F' g'.
Proof.
  intros n A A' h g F h' HA HA' Hn E D RA. assert (Hf : fits_u32 n = true) by (unfold fits_u32; apply Z.ltb_lt; lia).
  pose proof (tri_outcome n A h HA Hf) as Out.
  assert (EF : F = mkChol n (next h) Triangle).
  { destruct Out as (h1 & _ & [[_ Q]|[[_ Q]|(c & _ & _ & Q)]]); rewrite Q in E; congruence. }
  subst F. destruct (ctor_mono (I := I) _ _ _ _ _ _ h' Out (isfac_packed n A h HA) E D) as [IF FA].
  destruct (ctor_comp _ _ _ _ _ (hmat A) (hmat A') _ (tri_outcome n A' g HA' Hf) (isfac_packed n A' g HA') RA FA D) as (g' & E' & IF' & C & R).
  eexists. exists g'. split; [exact E'|]. split; [exact C|]. now apply chol_compares_ok.
Qed.

(** Incomplete LU: the same, with the whole matrix. *)
Definition ilu_compare n (F F' : nat -> nat -> T) : Prop := good_factor (val := val) (fin := fin) n F' /\ raised val fin n F F'.
Lemma ilu_compare_ok n F F' : (forall i, (i < n)%nat -> ilu_comp n F F' i) -> ilu_compare n F F'.
Proof.
  intros R. assert (RF : raised val fin n F F').
  { intros i j Hi Hj. destruct (R i Hi) as (A & B & C). destruct (Nat.eq_dec i j) as [<-|N]; [split; [auto|]; split; [lra|congruence]|].
    destruct (A j Hj N) as [A1 A2]. split; [auto|]. split; [lra|]. intros; lra. }
  split; [|exact RF]. split; [intros i j Hi Hj; now apply RF|]. intros i Hi. destruct (R i Hi) as (_ & _ & C). lra.
Qed.
Theorem C105_ilu : forall n A A' (h g : heap T) F h', ismat h A n n -> ismat g A' n n -> fits_u32 n = true ->
  (forall i j, (i < n)%nat -> (j < n)%nat -> fin (mget h A i j)) -> ilu_dyn A h = Ok F h' -> good_factor (val := val) (fin := fin) n (mget h' F) ->
  raised val fin n (mget h A) (mget g A') ->
  exists F' g', ilu_dyn A' g = Ok F' g' /\ ilu_compare n (mget h' F) (mget g' F') /\
    forall b b', isvec h' b n -> isvec g' b' n -> lowered val fin n (rd h' b) (rd g' b') ->
    exists x x' h1 g1, ilu_dyn_solve F b h' = Ok x h1 /\ ilu_dyn_solve F' b' g' = Ok x' g1 /\ isvec h1 x n /\ isvec g1 x' n /\
      (vfin n (rd h1 x) -> lowered val fin n (rd h1 x) (rd g1 x')).
Proof.
  intros n A A' h g F h' HA HA' Hf FA E GF RA. pose proof (ilu_dyn_outcome n A h HA Hf) as P. unfold postx in P. rewrite E in P. destruct P as [NM HD].
  pose proof (ilu_dyn_outcome n A' g HA' Hf) as P'. unfold postx in P'.
  destruct (ilu_dyn A' g) as [F' g'|e g'| | | |] eqn:E'; try contradiction; [|destruct P' as (_ & _ & f & St); exfalso; eapply ilu_never_stops; eauto].
  destruct P' as [NM' HD']. exists F', g'. split; [reflexivity|].
  pose proof (ilu_rows n _ _ _ _ n FA RA HD GF ltac:(lia) HD') as R. split; [now apply ilu_compare_ok|]. destruct (ilu_parts n _ _ R GF) as [Zu Zl].
  assert (HF : ismat h' F n n) by apply NM. assert (HF' : ismat g' F' n n) by apply NM'. intros b b' Hb Hb' Hl.
  destruct (post_ok _ _ _ (ilu_solve_ok (mat_get F) (mget h' F) n b h' Hf Hb ltac:(intros; now apply (mat_get_ext F n h')))) as (x & h1 & E1 & (_ & _ & V & _) & S).
  destruct (post_ok _ _ _ (ilu_solve_ok (mat_get F') (mget g' F') n b' g' Hf Hb' ltac:(intros; now apply (mat_get_ext F' n g')))) as (x' & h2 & E2 & (_ & _ & V' & _) & S').
  exists x, x', h1, h2. repeat (split; [assumption|]). intros Fx. exact (lu_comp n _ _ Zu Zl _ _ _ _ S S' Fx Hl).
Qed.
Lemma cview_is (A : csr T) n a : reads_as A n a -> forall i j, (i < n)%nat -> (j < n)%nat -> cview A i j = a i j.
Proof. intros RA i j Hi Hj. unfold cview. now rewrite (RA unit tt i j Hi Hj). Qed.
Theorem C105_ilu_sparse : forall n (A A' F : csr T) a a' f (s : unit), csr_wf A n -> csr_shape A tt = Ok (n, n) tt -> csr_wf A' n -> csr_shape A' tt = Ok (n, n) tt ->
  fits_u32 n = true -> reads_as A n a -> reads_as A' n a' -> (forall i j, (i < n)%nat -> (j < n)%nat -> fin (a i j)) ->
  ilu_csr A s = Ok F s -> reads_as F n f -> good_factor (val := val) (fin := fin) n f -> raised val fin n a a' ->
  exists F' f', ilu_csr A' s = Ok F' s /\ reads_as F' n f' /\ ilu_compare n f f' /\
    forall b b' (h g : heap T), isvec h b n -> isvec g b' n -> lowered val fin n (rd h b) (rd g b') ->
    exists x x' h1 g1, ilu_csr_solve F b h = Ok x h1 /\ ilu_csr_solve F' b' g = Ok x' g1 /\ isvec h1 x n /\ isvec g1 x' n /\
      (vfin n (rd h1 x) -> lowered val fin n (rd h1 x) (rd g1 x')).
Proof.
  intros n A A' F a a' f s W Hs W' Hs' Hf RA RA' FA E RF GF RAA.
  assert (Z0 : eqb (T := T) zero zero = true) by (destruct zero_fin as [F0 _]; now apply (m_eqb (Monotone := I))).
  destruct (ilu_csr_outcome n n A unit s Z0 W Hs ltac:(lia) Hf) as [(F1 & E1 & W1 & _ & _ & HD)|(F1 & E1 & _)]; rewrite E1 in E; [injection E as ->|discriminate].
  pose proof (cview_is A n a RA) as EA. pose proof (cview_is A' n a' RA') as EA'. pose proof (cview_is F n f RF) as EF.
  assert (FA1 : forall i j, (i < n)%nat -> (j < n)%nat -> fin (cview A i j)) by (intros i j Hi Hj; rewrite EA by auto; now apply FA).
  assert (RA1 : raised val fin n (cview A) (cview A')) by (intros i j Hi Hj; rewrite EA, EA' by auto; now apply RAA).
  assert (GF1 : good_factor (val := val) (fin := fin) n (cview F)).
  { destruct GF as [G1 G2]. split; [intros i j Hi Hj|intros i Hi]; rewrite EF by auto; auto. }
  destruct (ilu_csr_outcome n n A' unit s Z0 W' Hs' ltac:(lia) Hf) as [(F' & E' & W1' & _ & _ & HD')|(F' & E' & _ & _ & _ & St)];
    [|exfalso; exact (ilu_never_stops n _ _ _ _ FA1 RA1 HD GF1 St)].
  pose proof (ilu_rows n _ _ _ _ n FA1 RA1 HD GF1 ltac:(lia) HD') as R.
  assert (RF' : reads_as F' n (cview F')) by (intros S0 s0 i j Hi Hj; now apply (cview_ok F' n)).
  assert (R' : forall i, (i < n)%nat -> ilu_comp n f (cview F') i).
  { intros i Hi. destruct (R i Hi) as (A1 & A2 & A3). split; [intros j Hj N; rewrite <- EF by auto; auto|]. rewrite <- EF by auto. auto. }
  exists F', (cview F'). split; [exact E'|]. split; [exact RF'|]. split; [now apply ilu_compare_ok|].
  destruct (ilu_parts n _ _ R' GF) as [Zu Zl]. intros b b' h g Hb Hb' Hl.
  destruct (post_ok _ _ _ (ilu_solve_ok (csr_get F) f n b h Hf Hb ltac:(intros; now apply RF))) as (x & h1 & Ex & (_ & _ & V & _) & S).
  destruct (post_ok _ _ _ (ilu_solve_ok (csr_get F') (cview F') n b' g Hf Hb' ltac:(intros; now apply RF'))) as (x' & g1 & Ex' & (_ & _ & V' & _) & S').
  exists x, x', h1, g1. repeat (split; [assumption|]). intros Fx. exact (lu_comp n _ _ Zu Zl _ _ _ _ S S' Fx Hl).
Qed.
End Comp.
