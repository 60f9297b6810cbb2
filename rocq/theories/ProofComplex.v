(** * Complex arithmetic, and the Cholesky factorisation of Hermitian matrices *)
From Coq Require Import Reals Lra Lia.
From Verif Require Import Base Scalar BaseLemmas Spec Sums RealVec ModelVec ModelMat SpecMat ModelPacked PropPacked ModelSolvers ModelBlas SpecBlas
  ModelLapack ProofChol ProofCholMath PropChol PropCholSolve ModelComplex SpecComplex.
Local Open Scope R_scope.

Lemma C_ext (x y : C) : re x = re y -> im x = im y -> x = y.
Proof. destruct x, y; unfold re, im; cbn; intros; subst; reflexivity. Qed.
Lemma csq_pos (z : C) : 0 <= csq z.
Proof. unfold csq. pose proof (Rle_0_sqr (re z)). pose proof (Rle_0_sqr (im z)). unfold Rsqr in *. lra. Qed.
Lemma csq_zero (z : C) : csq z = 0 -> z = zero.
Proof.
  unfold csq. intros H. pose proof (Rle_0_sqr (re z)). pose proof (Rle_0_sqr (im z)). unfold Rsqr in *.
  apply C_ext; [change (re zero) with 0|change (im zero) with 0]; apply Rsqr_0_uniq; unfold Rsqr; lra.
Qed.
Lemma csq_nz (z : C) : z <> zero -> csq z <> 0.
Proof. intros H E. apply H. now apply csq_zero. Qed.

#[global] Instance C_field : IsField C COps.
Proof.
  constructor.
  - constructor.
    + constructor; intros; apply C_ext; cbn; ring.
    + intros H. apply (f_equal fst) in H. cbn in H. lra.
    + intros. apply C_ext; unfold div, mul, COps, cdiv, cmul, re, im, one, Rdiv; cbn; ring.
    + intros p H. pose proof (csq_nz p H) as D. unfold csq in D.
      apply C_ext; cbn; unfold csq; field; exact D.
  - intros x y. cbn. unfold ceqb. destruct (Req_EM_T (re x) (re y)), (Req_EM_T (im x) (im y)); split; intros H;
      try discriminate; auto; try (now apply C_ext); subst; congruence.
  - reflexivity.
Qed.
Add Field Cfield : (field_th (IsField := C_field)).

Lemma conj_mul x y : conj (mul x y) = mul (conj x) (conj y).
Proof. apply C_ext; cbn; ring. Qed.
Lemma conj_add x y : conj (add x y) = add (conj x) (conj y).
Proof. apply C_ext; cbn; ring. Qed.
Lemma conj_conj x : conj (conj x) = x.
Proof. apply C_ext; cbn; ring. Qed.
Lemma conj_zero : conj zero = zero.
Proof. apply C_ext; cbn; ring. Qed.
Lemma conj_nz x : x <> zero -> conj x <> zero.
Proof. intros H E. apply H. rewrite <- (conj_conj x), E. apply conj_zero. Qed.
Lemma conj_bsum n f : conj (bsum n f) = bsum n (fun i => conj (f i)).
Proof. induction n as [|n IH]; cbn [bsum]; [apply conj_zero|]. now rewrite conj_add, IH. Qed.
Lemma re_bsum n f : re (bsum n f) = bsum n (fun i => re (f i)).
Proof. induction n as [|n IH]; cbn [bsum]; [reflexivity|]. rewrite <- IH. reflexivity. Qed.
Lemma im_bsum n f : im (bsum n f) = bsum n (fun i => im (f i)).
Proof. induction n as [|n IH]; cbn [bsum]; [reflexivity|]. rewrite <- IH. reflexivity. Qed.
Lemma rsum_zero n (f : nat -> R) : (forall k, (k < n)%nat -> f k = 0) -> bsum n f = 0.
Proof. induction n as [|n IH]; intros H; cbn [bsum]; [reflexivity|]. rewrite IH, H by auto. cbn. ring. Qed.
Lemma mul_conj x : mul (conj x) x = (csq x, 0).
Proof. apply C_ext; cbn; unfold csq; ring. Qed.
Lemma conj_real x : im x = 0 -> conj x = x.
Proof. intros H. apply C_ext; cbn; rewrite ?H; ring. Qed.

(** The principal square root is a square root. *)
Lemma csqrt_sq (z : C) : mul (csqrt z) (csqrt z) = z.
Proof.
  destruct z as [a b]. set (m := R_sqrt.sqrt (csq (a, b))).
  assert (Hm : m * m = a * a + b * b) by (apply (R_sqrt.sqrt_sqrt (csq (a, b))), csq_pos).
  assert (Pm : 0 <= m) by apply R_sqrt.sqrt_pos.
  assert (A1 : 0 <= (m + a) / 2) by nra. assert (A2 : 0 <= (m - a) / 2) by nra.
  assert (P : R_sqrt.sqrt ((m + a) / 2) * R_sqrt.sqrt ((m - a) / 2) = Rabs b / 2).
  { rewrite <- R_sqrt.sqrt_mult by auto. replace ((m + a) / 2 * ((m - a) / 2)) with ((Rabs b / 2) * (Rabs b / 2)).
    - apply R_sqrt.sqrt_square. pose proof (Rabs_pos b). lra.
    - assert (Rabs b * Rabs b = b * b) by (rewrite <- Rabs_mult; apply Rabs_right; nra). nra. }
  pose proof (R_sqrt.sqrt_sqrt _ A1) as S1. pose proof (R_sqrt.sqrt_sqrt _ A2) as S2.
  set (p := R_sqrt.sqrt ((m + a) / 2)) in *. set (q := R_sqrt.sqrt ((m - a) / 2)) in *.
  unfold csqrt. fold m. cbn [re im fst snd]. fold p q.
  destruct (Rlt_dec b 0) as [N|N]; unfold Rabs in P; destruct (Rcase_abs b); try lra; apply C_ext; cbn; nra.
Qed.
Lemma csqrt_re z : 0 <= re (csqrt z).
Proof. apply R_sqrt.sqrt_pos. Qed.
Lemma csqrt_real r : 0 <= r -> csqrt (r, 0) = (R_sqrt.sqrt r, 0).
Proof.
  intros H. unfold csqrt, csq. cbn [re im fst snd].
  replace (r * r + 0 * 0) with (r * r) by ring. rewrite R_sqrt.sqrt_square by auto.
  replace ((r + r) / 2) with r by field. replace ((r - r) / 2) with 0 by field. rewrite R_sqrt.sqrt_0, Rmult_0_r. reflexivity.
Qed.

(** ** The factor: row i, entry j *)
Section Factor.
Variable A : nat -> nat -> C.
(** entries 0..j-1 of row i, given the rows above *)
Fixpoint rowto (L : nat -> nat -> C) (i : nat) (j : nat) : nat -> C :=
  match j with
  | O => fun _ => zero
  | S j => let f := rowto L i j in
    fun k => if Nat.eqb k j then div (sub (A i j) (bsum j (fun k => mul (f k) (conj (L j k))))) (L j j) else f k
  end.
Definition pivc (f : nat -> C) i : R := re (A i i) - bsum i (fun k => csq (f k)).
(** rows 0..i-1 *)
Fixpoint rows (i : nat) : nat -> nat -> C :=
  match i with
  | O => fun _ _ => zero
  | S i => let L := rows i in let f := rowto L i i in
    fun p q => if Nat.eqb p i then if Nat.eqb q i then (R_sqrt.sqrt (pivc f i), 0) else f q else L p q
  end.
Definition L p q : C := rows (S p) p q.

Lemma rows_stable i p q : (p < i)%nat -> rows i p q = L p q.
Proof.
  unfold L. induction i as [|i IH]; [lia|]. intros H. destruct (Nat.eq_dec p i) as [->|]; [reflexivity|].
  change (rows (S i) p q) with (if Nat.eqb p i then if Nat.eqb q i then (R_sqrt.sqrt (pivc (rowto (rows i) i i) i), 0) else rowto (rows i) i i q else rows i p q).
  destruct (Nat.eqb_spec p i); [lia|]. apply IH. lia.
Qed.
Lemma rowto_stable M i j k : (k < j)%nat -> rowto M i j k = rowto M i (S k) k.
Proof.
  induction j as [|j IH]; [lia|]. intros H. destruct (Nat.eq_dec k j) as [->|]; [reflexivity|].
  cbn [rowto]. cbv zeta. destruct (Nat.eqb_spec k j); [lia|]. rewrite IH by lia. reflexivity.
Qed.
Lemma L_off i j : (j < i)%nat ->
  L i j = div (sub (A i j) (bsum j (fun k => mul (L i k) (conj (L j k))))) (L j j).
Proof.
  intros H.
  assert (E : forall k, (k < i)%nat -> L i k = rowto (rows i) i i k).
  { intros k Hk. unfold L. cbn [rows]. cbv zeta. rewrite Nat.eqb_refl. destruct (Nat.eqb_spec k i); [lia|reflexivity]. }
  rewrite E by auto. rewrite rowto_stable by auto. cbn [rowto]. cbv zeta. rewrite Nat.eqb_refl.
  rewrite rows_stable by auto. f_equal. f_equal. apply bsum_ext. intros k Hk.
  rewrite E by lia. rewrite (rowto_stable _ i i k), (rowto_stable _ i j k) by lia. now rewrite rows_stable by auto.
Qed.
Definition piv i : R := re (A i i) - bsum i (fun k => csq (L i k)).
Lemma L_diag i : L i i = (R_sqrt.sqrt (piv i), 0).
Proof.
  unfold L at 1. cbn [rows]. cbv zeta. rewrite Nat.eqb_refl. unfold pivc, piv. do 3 f_equal.
  apply bsum_ext. intros k Hk. unfold L. cbn [rows]. cbv zeta. rewrite Nat.eqb_refl.
  destruct (Nat.eqb_spec k i); [lia|reflexivity].
Qed.
Lemma L_diag_nz i : 0 < piv i -> L i i <> zero.
Proof. intros H E. rewrite L_diag in E. apply (f_equal fst) in E. cbn in E. pose proof (R_sqrt.sqrt_lt_R0 _ H). lra. Qed.

(** The product of a lower triangular matrix with its conjugate transpose, entry by entry. *)
Lemma hprod n M i j : (i < n)%nat -> (j <= i)%nat ->
  mmmul n (lowf M) (ctransp (lowf M)) i j = add (bsum j (fun k => mul (M i k) (conj (M j k)))) (mul (M i j) (conj (M j j))).
Proof.
  intros Hi Hj. unfold mmmul, ctransp.
  rewrite (bsum_trunc n (S j)) by (try lia; intros k Hk; rewrite (lowf_out M j) by lia; rewrite conj_zero; ring).
  cbn [bsum]. rewrite !lowf_in by lia. f_equal. apply bsum_ext. intros k Hk. now rewrite !lowf_in by lia.
Qed.
Lemma hprod_herm n M i j : mmmul n M (ctransp M) i j = conj (mmmul n M (ctransp M) j i).
Proof.
  unfold mmmul, ctransp. rewrite conj_bsum. apply bsum_ext. intros k Hk. rewrite conj_mul, conj_conj. ring.
Qed.

(** With another last diagonal entry m: the leading block is M M* plus what is missing in the last
    place. *)
Lemma leading_product c (m : C) : (forall i, (i < c)%nat -> 0 < piv i) -> im m = 0 ->
  let M := fun i j => if Nat.eqb i c && Nat.eqb j c then m else L i j in
  forall i j, (i < S c)%nat -> (j < S c)%nat ->
    hermf A i j = add (mmmul (S c) (lowf M) (ctransp (lowf M)) i j)
                      (if Nat.eqb i c && Nat.eqb j c then (piv c - re m * re m, 0) else zero).
Proof.
  intros P Im M.
  assert (EM : forall i j, (j < c)%nat -> M i j = L i j).
  { intros i j H. unfold M. destruct (Nat.eqb_spec j c); [lia|]. now rewrite andb_false_r. }
  assert (G : forall i j, (j <= i)%nat -> (i <= c)%nat ->
    hermf A i j = add (mmmul (S c) (lowf M) (ctransp (lowf M)) i j)
                      (if Nat.eqb i c && Nat.eqb j c then (piv c - re m * re m, 0) else zero)).
  { intros i j Hj Hi. rewrite hprod by lia.
    rewrite (bsum_ext j _ (fun k => mul (L i k) (conj (L j k)))) by (intros; now rewrite !EM by lia).
    unfold hermf. destruct (Nat.ltb_spec j i) as [Lt|Ge].
    - destruct (Nat.eqb_spec j c); [lia|]. rewrite andb_false_r. rewrite !EM by lia.
      rewrite (L_off i j Lt). rewrite (conj_real (L j j)) by (rewrite L_diag; reflexivity).
      field. apply L_diag_nz, P. lia.
    - assert (j = i) by lia. subst j. rewrite Nat.eqb_refl.
      assert (Q : bsum i (fun k => mul (L i k) (conj (L i k))) = (bsum i (fun k => csq (L i k)), 0)).
      { apply C_ext; [rewrite re_bsum; apply bsum_ext; intros; cbn; unfold csq; ring|].
        rewrite im_bsum. cbn [im snd]. apply rsum_zero. intros. cbn. ring. }
      rewrite Q. destruct (Nat.eqb_spec i c) as [->|Ne]; cbn [andb].
      + assert (Mc : M c c = m) by (unfold M; now rewrite Nat.eqb_refl). rewrite Mc.
        unfold piv. apply C_ext; cbn; rewrite Im; ring.
      + rewrite EM by lia. rewrite L_diag. pose proof (R_sqrt.sqrt_sqrt (piv i) ltac:(pose proof (P i ltac:(lia)); lra)) as S1.
        apply C_ext; cbn; [|ring]. rewrite Ropp_0, Rmult_0_r, Rminus_0_r, S1. unfold piv. cbn. ring. }
  intros i j Hi Hj. destruct (Nat.le_gt_cases j i) as [H|H]; [apply G; lia|].
  assert (E : hermf A i j = conj (hermf A j i)).
  { unfold hermf. destruct (Nat.ltb_spec j i); [lia|]. destruct (Nat.eqb_spec j i); [lia|]. destruct (Nat.ltb_spec i j); [reflexivity|lia]. }
  rewrite E, (G j i) by lia. rewrite conj_add. rewrite (hprod_herm (S c) (lowf M) i j). f_equal.
  rewrite (andb_comm (Nat.eqb j c)). destruct (_ && _); [apply C_ext; cbn; ring|apply conj_zero].
Qed.
Lemma factor_product n : (forall i, (i < n)%nat -> 0 < piv i) -> meq n n (mmmul n (lowf L) (ctransp (lowf L))) (hermf A).
Proof.
  intros P i j Hi Hj. destruct n as [|c]; [lia|].
  rewrite (leading_product c (L c c)); [|intros; apply P; lia|rewrite L_diag; reflexivity|auto|auto].
  assert (Z : (if Nat.eqb i c && Nat.eqb j c then ((piv c - re (L c c) * re (L c c), 0) : C) else zero) = zero).
  { destruct (_ && _); [|reflexivity]. rewrite L_diag. cbn [re fst]. rewrite R_sqrt.sqrt_sqrt by (pose proof (P c ltac:(lia)); lra).
    apply C_ext; cbn; ring. }
  rewrite Z. clear Z.
  assert (E : forall p q, (if Nat.eqb p c && Nat.eqb q c then L c c else L p q) = L p q).
  { intros p q. destruct (Nat.eqb_spec p c), (Nat.eqb_spec q c); subst; reflexivity. }
  transitivity (add (mmmul (S c) (lowf L) (ctransp (lowf L)) i j) zero); [ring|]. f_equal.
  apply bsum_ext. intros k Hk. unfold ctransp, lowf. rewrite !E. reflexivity.
Qed.
End Factor.

(** x* (M M* ) x = |M* x|^2 *)
Lemma hform_prod n M x : hform n (mmmul n M (ctransp M)) x = (bsum n (fun k => csq (mvmul n (ctransp M) x k)), 0).
Proof.
  unfold hform.
  transitivity (bsum n (fun k => mul (conj (mvmul n (ctransp M) x k)) (mvmul n (ctransp M) x k))).
  - transitivity (bsum n (fun i => bsum n (fun k => mul (mul (conj (x i)) (M i k)) (mvmul n (ctransp M) x k)))).
    + apply bsum_ext. intros i Hi. rewrite mvmul_assoc. unfold mvmul at 1.
      rewrite <- (bsum_scal_l (R := field_is_ring C COps C_field)). apply bsum_ext. intros k Hk. ring.
    + rewrite (bsum_swap (R := field_is_ring C COps C_field)). apply bsum_ext. intros k Hk. rewrite (bsum_scal_r (R := field_is_ring C COps C_field)). f_equal.
      unfold mvmul. rewrite conj_bsum. apply bsum_ext. intros i Hi. rewrite conj_mul. unfold ctransp. rewrite conj_conj. ring.
  - apply C_ext.
    + rewrite re_bsum. apply bsum_ext. intros. rewrite mul_conj. reflexivity.
    + rewrite im_bsum. apply rsum_zero. intros. rewrite mul_conj. reflexivity.
Qed.
Lemma bsum_csq_zero n f : bsum n (fun k => csq (f k)) = 0 -> forall k, (k < n)%nat -> f k = zero.
Proof.
  induction n as [|n IH]; intros H k Hk; [lia|]. cbn [bsum] in H.
  assert (0 <= bsum n (fun k => csq (f k))) by (apply bsum_nonneg; intros; apply csq_pos).
  pose proof (csq_pos (f n)). cbn in *.
  destruct (Nat.eq_dec k n) as [->|]; [apply csq_zero; lra|]. apply IH; [lra|lia].
Qed.
Lemma ctransp_upper n M : upper_tri n (ctransp (lowf M)).
Proof. intros i j Hi Hj H. unfold ctransp. rewrite lowf_out by lia. apply conj_zero. Qed.
Lemma cfactor_nonsingular n M : (forall i, (i < n)%nat -> M i i <> zero) ->
  nonsingular n (mmmul n (lowf M) (ctransp (lowf M))).
Proof.
  intros D. apply product_nonsingular.
  - apply lower_nonsingular; [apply lowf_lower|]. intros i Hi. rewrite lowf_in by lia. auto.
  - apply upper_nonsingular; [apply ctransp_upper|]. intros i Hi. unfold ctransp. rewrite lowf_in by lia. apply conj_nz. auto.
Qed.
Lemma hform_meq n A B x : meq n n A B -> hform n A x = hform n B x.
Proof. intros E. apply bsum_ext. intros i Hi. f_equal. apply bsum_ext. intros j Hj. now rewrite E. Qed.
Lemma factored_hpos n A M : (forall i, (i < n)%nat -> M i i <> zero) ->
  meq n n (mmmul n (lowf M) (ctransp (lowf M))) A -> hpos_def n A.
Proof.
  intros D E x (i & Hi & Nz). rewrite <- (hform_meq n _ _ x E), hform_prod. cbn [re fst].
  assert (N : 0 <= bsum n (fun k => csq (mvmul n (ctransp (lowf M)) x k))) by (apply bsum_nonneg; intros; apply csq_pos).
  destruct N as [|Z]; auto. exfalso. apply Nz.
  assert (NS : nonsingular n (ctransp (lowf M))).
  { apply upper_nonsingular; [apply ctransp_upper|]. intros k Hk. unfold ctransp. rewrite lowf_in by lia. apply conj_nz. auto. }
  apply NS; auto. apply bsum_csq_zero. auto.
Qed.

(** A positive definite matrix has positive pivots. *)
Lemma hpos_pivots A n : hpos_def n (hermf A) -> forall c, (c < n)%nat -> 0 < piv A c.
Proof.
  intros HP c. induction c as [c IH] using lt_wf_ind. intros Hc.
  destruct (Rlt_or_le 0 (piv A c)) as [|B]; auto. exfalso.
  pose (M := fun i j => if Nat.eqb i c && Nat.eqb j c then zero else L A i j).
  assert (P : forall i, (i < c)%nat -> 0 < piv A i) by (intros; apply IH; lia).
  pose proof (leading_product A c zero P eq_refl) as HA. fold M in HA. cbv zeta in HA.
  assert (Z0 : M c c = zero) by (unfold M; now rewrite Nat.eqb_refl).
  destruct (upper_null c (ctransp (lowf M))) as (x & X1 & X2).
  { apply ctransp_upper. }
  { intros i Hi. unfold ctransp. rewrite lowf_in by lia. apply conj_nz. unfold M. destruct (Nat.eqb_spec i c); [lia|]. cbn [andb]. apply L_diag_nz. auto. }
  { unfold ctransp. rewrite lowf_in, Z0 by lia. apply conj_zero. }
  pose (y := fun j => if Nat.ltb j (S c) then x j else zero).
  assert (Yin : forall j, (j < S c)%nat -> y j = x j) by (intros j Hj; unfold y; destruct (Nat.ltb_spec j (S c)); [auto|lia]).
  assert (Yout : forall j, (S c <= j)%nat -> y j = zero) by (intros j Hj; unfold y; destruct (Nat.ltb_spec j (S c)); [lia|auto]).
  pose (pv := (piv A c, 0) : C).
  assert (Epv : ((piv A c - re zero * re zero, 0) : C) = pv) by (apply C_ext; cbn; ring).
  assert (HV : forall i, (i < S c)%nat -> mvmul n (hermf A) y i = if Nat.eqb i c then pv else zero).
  { intros i Hi. unfold mvmul. rewrite (bsum_trunc n (S c)); [|lia|intros k Hk; rewrite Yout by lia; ring].
    transitivity (add (mvmul (S c) (mmmul (S c) (lowf M) (ctransp (lowf M))) x i) (bsum (S c) (fun k => mul (if Nat.eqb i c && Nat.eqb k c then pv else zero) (x k)))).
    - unfold mvmul. rewrite <- (bsum_add (R := field_is_ring C COps C_field)). apply bsum_ext. intros k Hk. rewrite Yin, (HA i k) by lia.
      rewrite Epv. ring.
    - rewrite mvmul_assoc. unfold mvmul at 1. rewrite bsum_zero by (intros k Hk; rewrite X2 by auto; ring).
      rewrite (bsum_single (S c) _ c ltac:(lia)).
      + rewrite Nat.eqb_refl, andb_true_r, X1. destruct (Nat.eqb i c); ring.
      + intros k Hk Ne. destruct (Nat.eqb_spec k c); [lia|]. rewrite andb_false_r. ring. }
  assert (Q : hform n (hermf A) y = pv).
  { unfold hform. rewrite (bsum_single n _ c Hc).
    - rewrite HV by lia. rewrite Nat.eqb_refl, Yin, X1 by lia. apply C_ext; unfold pv; cbn; ring.
    - intros k Hk Ne. destruct (Nat.lt_ge_cases k (S c)) as [Lt|Ge].
      + rewrite HV by auto. destruct (Nat.eqb_spec k c); [lia|]. ring.
      + rewrite Yout by lia. rewrite conj_zero. ring. }
  specialize (HP y). rewrite Q in HP. unfold pv in HP. cbn [re fst] in HP.
  assert (0 < piv A c); [|lra]. apply HP. exists c. split; [auto|]. rewrite Yin, X1 by lia.
  intros K. apply (f_equal fst) in K. cbn in K. lra.
Qed.
