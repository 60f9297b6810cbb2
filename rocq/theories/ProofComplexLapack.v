(** * Routines that meet the contracts assumed of LAPACK's complex Cholesky *)
From Coq Require Import Reals Lra Lia.
From Verif Require Import Base Scalar BaseLemmas Spec Sums RealVec ModelVec ModelMat SpecMat ModelPacked PropPacked ModelSolvers ModelBlas SpecBlas
  ModelLapack ProofChol ProofCholMath PropChol PropCholSolve ModelComplex SpecComplex ProofComplex.
Local Open Scope nat_scope.
Add Field Cfield2 : (field_th (IsField := C_field)).

Lemma upd_map_wrote (h : heap C) b g : wrote_only h (upd h b (map g (seq 0 (len h b)))) b.
Proof.
  split; [reflexivity|]. split.
  - intros q Hq. cbn. destruct (Nat.eqb_spec q b); [congruence|reflexivity].
  - unfold len at 1. cbn. rewrite Nat.eqb_refl, map_length, seq_length. reflexivity.
Qed.
Lemma rd_upd_rows (h : heap C) b (f : nat -> nat -> C) n m i j : len h b = n * m -> i < n -> j < m ->
  atc (upd h b (map (fun p => f (p / m) (p mod m)) (seq 0 (len h b)))) b m i j = f i j.
Proof.
  intros L Hi Hj. unfold atc, rd. cbn. rewrite Nat.eqb_refl.
  assert (H : i * m + j < len h b) by nia.
  rewrite (nth_indep _ _ (f (0 / m) (0 mod m))) by (rewrite map_length, seq_length; exact H).
  rewrite (map_nth (fun p => f (p / m) (p mod m))), seq_nth by exact H. cbn [Nat.add].
  replace ((i * m + j) / m) with i by (rewrite Nat.div_add_l by lia; rewrite Nat.div_small by lia; lia).
  replace ((i * m + j) mod m) with j by (rewrite Nat.add_comm, Nat.mod_add by lia; symmetry; apply Nat.mod_small; lia).
  reflexivity.
Qed.

(** ** The factorisation *)
Fixpoint all_pos (A : nat -> nat -> C) (n : nat) : bool :=
  match n with O => true | S n => all_pos A n && if Rlt_dec 0 (piv A n) then true else false end.
Lemma all_pos_ok A n : all_pos A n = true <-> forall i, i < n -> (0 < piv A i)%R.
Proof.
  induction n as [|n IH]; cbn [all_pos]; [split; [intros; lia|reflexivity]|].
  rewrite andb_true_iff, IH. destruct (Rlt_dec 0 (piv A n)) as [P|P]; split.
  - intros [H _] i Hi. destruct (Nat.eq_dec i n) as [->|]; [exact P|apply H; lia].
  - intros H. split; auto.
  - intros [_ H]. discriminate.
  - intros H. exfalso. apply P, H. lia.
Qed.
Definition ref_cpotrf : potrf_routine (T := C) := fun n l lda h =>
  let n := Z.to_nat n in let A := atc h l n in
  if all_pos A n then Ok 0%Z (upd h l (map (fun p => (fun i j => if Nat.leb j i then L A i j else A i j) (p / n) (p mod n)) (seq 0 (len h l))))
  else Ok 1%Z h.
Lemma lowf_eq n (M M' : nat -> nat -> C) : (forall i j, i < n -> j < n -> j <= i -> M i j = M' i j) ->
  meq n n (mmmul n (lowf M) (ctransp (lowf M))) (mmmul n (lowf M') (ctransp (lowf M'))).
Proof.
  intros E i j Hi Hj. apply bsum_ext. intros k Hk. unfold ctransp, lowf.
  destruct (Nat.leb_spec k i), (Nat.leb_spec k j); rewrite ?E by lia; reflexivity.
Qed.
Theorem ref_cpotrf_contract : cpotrf_contract ref_cpotrf.
Proof.
  split.
  - intros n l h Hn Hb Hl Ll P. unfold ref_cpotrf, post. rewrite Nat2Z.id. cbv zeta.
    pose proof (hpos_pivots _ _ P) as PP. rewrite (proj2 (all_pos_ok _ _) PP).
    set (A := atc h l n) in *.
    assert (E : forall i j, i < n -> j < n -> atc (upd h l (map (fun p => (fun i j => if Nat.leb j i then L A i j else A i j) (p / n) (p mod n)) (seq 0 (len h l)))) l n i j = if Nat.leb j i then L A i j else A i j).
    { intros i j Hi Hj. apply (rd_upd_rows h l (fun i j => if Nat.leb j i then L A i j else A i j) n n); auto. }
    split; [reflexivity|]. split; [apply upd_map_wrote|].
    split. { intros i j Hi Hj Hij. rewrite E by auto. destruct (Nat.leb_spec j i); [lia|reflexivity]. }
    split. { intros i Hi. rewrite E by auto. rewrite Nat.leb_refl, L_diag. cbn [re im fst snd]. split; [|reflexivity]. apply R_sqrt.sqrt_lt_R0. auto. }
    intros i j Hi Hj. rewrite <- (factor_product A n PP i j Hi Hj). apply lowf_eq; auto.
    intros i' j' Hi' Hj' Hle. rewrite E by auto. destruct (Nat.leb_spec j' i'); [reflexivity|lia].
  - intros n l h Hn Hb Hl Ll P. unfold ref_cpotrf, post. rewrite Nat2Z.id. cbv zeta.
    destruct (all_pos (atc h l n) n) eqn:Q.
    + exfalso. apply P. rewrite all_pos_ok in Q. apply (factored_hpos n _ (L (atc h l n))).
      * intros i Hi. apply L_diag_nz. auto.
      * apply factor_product. auto.
    + split; [discriminate|]. repeat split.
Qed.

(** ** The solution *)
Fixpoint usol n (U : nat -> nat -> C) (b : nat -> C) : nat -> C :=
  match n with
  | O => b
  | S n => let xn := div (b n) (U n n) in let x := usol n U (fun i => sub (b i) (mul (U i n) xn)) in
    fun i => if Nat.ltb i n then x i else xn
  end.
Lemma usol_ok n U : upper_tri n U -> diag_nz n U -> forall b, solves n U (usol n U b) b.
Proof.
  induction n as [|n IH]; intros HU HD b; [intros i Hi; lia|].
  assert (Hx := IH ltac:(intros i j H1 H2; apply HU; lia) ltac:(intros i H1; apply HD; lia) (fun i => sub (b i) (mul (U i n) (div (b n) (U n n))))).
  intros i Hi. unfold mvmul. cbn [bsum usol]. cbv zeta.
  set (x := usol n U _) in *.
  rewrite (bsum_ext n _ (fun k => mul (U i k) (x k))).
  2:{ intros k Hk. destruct (Nat.ltb_spec k n); [auto|lia]. }
  destruct (Nat.ltb_spec n n); [lia|]. destruct (Nat.eq_dec i n) as [->|].
  - rewrite bsum_zero by (intros k Hk; rewrite (HU n k) by lia; ring). field. apply HD. lia.
  - pose proof (Hx i ltac:(lia)) as E. unfold mvmul in E. rewrite E. ring.
Qed.
Fixpoint lsol n (M : nat -> nat -> C) (b : nat -> C) : nat -> C :=
  match n with
  | O => b
  | S n => let x := lsol n M b in
    fun i => if Nat.ltb i n then x i else div (sub (b n) (bsum n (fun k => mul (M n k) (x k)))) (M n n)
  end.
Lemma lsol_ok n M b : lower_tri n M -> diag_nz n M -> solves n M (lsol n M b) b.
Proof.
  induction n as [|n IH]; intros HU HD; [intros i Hi; lia|].
  assert (Hx := IH ltac:(intros i j H1 H2; apply HU; lia) ltac:(intros i H1; apply HD; lia)).
  intros i Hi. unfold mvmul. cbn [bsum lsol]. cbv zeta. set (x := lsol n M b) in *.
  rewrite (bsum_ext n _ (fun k => mul (M i k) (x k))).
  2:{ intros k Hk. destruct (Nat.ltb_spec k n); [auto|lia]. }
  destruct (Nat.ltb_spec n n); [lia|]. destruct (Nat.eq_dec i n) as [->|].
  - field. apply HD. lia.
  - pose proof (Hx i ltac:(lia)) as E. unfold mvmul in E. rewrite E. rewrite (HU i n) by lia. ring.
Qed.
Definition ref_cpotrs : potrs_routine (T := C) := fun n m l lda b ldb h =>
  let n := Z.to_nat n in let m := Z.to_nat m in let M := lowf (atc h l n) in
  Ok 0%Z (upd h b (map (fun p => (fun i k => usol n (ctransp M) (lsol n M (fun i => atc h b m i k)) i) (p / m) (p mod m)) (seq 0 (len h b)))).
Theorem ref_cpotrs_contract : cpotrs_contract ref_cpotrs.
Proof.
  split. intros n m l b h Hn Bn Hm Bm Ne Hl Hb Ll Lb D. unfold ref_cpotrs, post. rewrite !Nat2Z.id. cbv zeta.
  set (M := atc h l n) in *.
  split; [reflexivity|]. split; [apply upd_map_wrote|]. intros k Hk.
  set (X := fun i k => usol n (ctransp (lowf M)) (lsol n (lowf M) (fun i => atc h b m i k)) i).
  assert (E : forall i, i < n -> atc (upd h b (map (fun p => X (p / m) (p mod m)) (seq 0 (len h b)))) b m i k = X i k).
  { intros i Hi. apply (rd_upd_rows h b X n m); auto. }
  assert (S1 : solves n (lowf M) (lsol n (lowf M) (fun i => atc h b m i k)) (fun i => atc h b m i k)).
  { apply lsol_ok; [apply lowf_lower|]. intros i Hi. rewrite lowf_in by lia. auto. }
  assert (S2 : solves n (ctransp (lowf M)) (fun i => X i k) (lsol n (lowf M) (fun i => atc h b m i k))).
  { apply usol_ok; [apply ctransp_upper|]. intros i Hi. unfold ctransp. rewrite lowf_in by lia. apply conj_nz. auto. }
  intros i Hi. transitivity (mvmul n (mmmul n (lowf M) (ctransp (lowf M))) (fun i => X i k) i).
  - apply bsum_ext. intros j Hj. now rewrite <- E.
  - rewrite mvmul_assoc. rewrite <- (S1 i Hi). apply bsum_ext. intros j Hj. f_equal. now apply S2.
Qed.
