(** * Integers up to 2^prec are exact in the binary formats, fused or not *)
From Coq Require Import ZArith Floats Reals Lra Lia.
From Flocq Require Import Core BinarySingleNaN.
From Flocq Require PrimFloat.
From Verif Require Import Base Scalar Spec SpecIeee RoundIeee SpecFma RoundFma SpecWhole.
Local Open Scope Z_scope.

Section Binary.
Context (prec emax : Z) (Hp : Prec_gt_0 prec) (Hm : Prec_lt_emax prec emax) (Hp1 : (1 < prec)%Z).
Notation bf := (binary_float prec emax).
Notation emin := (SpecFloat.emin prec emax).
Notation rnd := (round radix2 (FLT_exp emin prec) ZnearestE).

Definition bis (x : bf) (k : Z) : Prop := is_finite x = true /\ B2R x = IZR k.

Lemma int_format k : Z.abs k <= 2 ^ prec -> generic_format radix2 (FLT_exp emin prec) (IZR k).
Proof.
  intros H. destruct (Z.eq_dec (Z.abs k) (2 ^ prec)) as [E|N].
  - assert (G : generic_format radix2 (FLT_exp emin prec) (bpow radix2 prec)).
    { apply generic_format_bpow. unfold FLT_exp, SpecFloat.emin. unfold Prec_gt_0, Prec_lt_emax in *. lia. }
    assert (Eb : IZR (2 ^ prec) = bpow radix2 prec).
    { change (2 ^ prec) with (radix2 ^ prec). apply IZR_Zpower. unfold Prec_gt_0 in Hp. lia. }
    destruct (Z.abs_eq_or_opp k) as [A|A]; rewrite E in A.
    + rewrite <- A, Eb. exact G.
    + replace k with (- 2 ^ prec) by lia. rewrite opp_IZR, Eb. now apply generic_format_opp.
  - apply generic_format_FLT. exists (Float radix2 k 0).
    + unfold F2R. cbn [Fnum Fexp bpow]. now rewrite Rmult_1_r.
    + cbn [Fnum]. change (radix2 : Z) with 2. lia.
    + cbn [Fexp]. unfold SpecFloat.emin. unfold Prec_gt_0, Prec_lt_emax in *. lia.
Qed.
Lemma int_rnd k : Z.abs k <= 2 ^ prec -> rnd (IZR k) = IZR k.
Proof. intros H. apply round_generic; [apply valid_rnd_N|now apply int_format]. Qed.
Lemma int_small k : Z.abs k <= 2 ^ prec -> Rlt_bool (Rabs (IZR k)) (bpow radix2 emax) = true.
Proof.
  intros H. apply Rlt_bool_true. rewrite <- abs_IZR. apply Rle_lt_trans with (IZR (2 ^ prec)); [now apply IZR_le|].
  change (2 ^ prec) with (radix2 ^ prec). rewrite IZR_Zpower by (unfold Prec_gt_0 in Hp; lia). apply bpow_lt. exact Hm.
Qed.
Lemma IZR_eqb a b : Req_bool (IZR a) (IZR b) = Z.eqb a b.
Proof. case Req_bool_spec; destruct (Z.eqb_spec a b); intros H; auto; subst; try contradiction. now apply eq_IZR in H. Qed.
Lemma IZR_ltb a b : Rlt_bool (IZR a) (IZR b) = Z.ltb a b.
Proof.
  case Rlt_bool_spec; destruct (Z.ltb_spec a b); intros H'; auto.
  - apply lt_IZR in H'. lia.
  - apply le_IZR in H'. lia.
Qed.

Lemma bops_whole : Whole (BOps prec emax Hp Hm) (2 ^ prec) bis.
Proof.
  assert (B1 : 1 <= 2 ^ prec) by (unfold Prec_gt_0 in Hp; apply (Z.pow_le_mono_r 2 0); lia).
  constructor; cbn [zero one add sub mul div opp sqrt_ pow2 abs_ eqb ltb BOps]; unfold bis; auto.
  - intros x a b [_ E1] [_ E2]. apply eq_IZR. congruence.
  - split; [apply is_finite_Bone|apply Bone_correct].
  - intros x y a b [Fx Ex] [Fy Ey] H. pose proof (Bplus_correct prec emax Hp Hm mode_NE x y Fx Fy) as C.
    rewrite rnd_NE, Ex, Ey, <- plus_IZR, int_rnd, int_small in C by auto. destruct C as (-> & -> & _). auto.
  - intros x y a b [Fx Ex] [Fy Ey] H. pose proof (Bminus_correct prec emax Hp Hm mode_NE x y Fx Fy) as C.
    rewrite rnd_NE, Ex, Ey, <- minus_IZR, int_rnd, int_small in C by auto. destruct C as (-> & -> & _). auto.
  - intros x y a b [Fx Ex] [Fy Ey] H. pose proof (Bmult_correct prec emax Hp Hm mode_NE x y) as C.
    rewrite rnd_NE, Ex, Ey, <- mult_IZR, int_rnd, int_small in C by auto. destruct C as (-> & -> & _). now rewrite Fx, Fy.
  - intros x y a b [Fx Ex] [Fy Ey] Nb H. assert (Ny : B2R y <> 0%R). { rewrite Ey. now apply not_0_IZR. }
    pose proof (Bdiv_correct prec emax Hp Hm mode_NE x y Ny) as C.
    assert (Q : (B2R x / B2R y)%R = IZR a). { rewrite Ex, Ey, mult_IZR. field. now apply not_0_IZR. }
    rewrite rnd_NE, Q, int_rnd, int_small in C by auto. destruct C as (-> & -> & _). auto.
  - intros x a [Fx Ex]. split; [now rewrite is_finite_Bopp|]. now rewrite B2R_Bopp, Ex, opp_IZR.
  - intros x a [Fx Ex] H. destruct (Bsqrt_correct prec emax Hp Hm mode_NE x) as (E & F & _). rewrite rnd_NE in E.
    assert (Q : sqrt (B2R x) = IZR a). { rewrite Ex, mult_IZR. apply sqrt_square. now apply IZR_le. }
    rewrite Q, int_rnd in E by lia. split; auto. rewrite F.
    assert (P : (0 <= B2R x)%R). { rewrite Ex. apply IZR_le. nia. }
    destruct x as [|[]| |[]]; auto; try discriminate. exfalso. cbn in P. apply Rle_not_lt in P. apply P. now apply F2R_lt_0.
  - intros x a [Fx Ex] H. pose proof (Bmult_correct prec emax Hp Hm mode_NE x x) as C.
    rewrite rnd_NE, Ex, <- mult_IZR, int_rnd, int_small in C by nia. destruct C as (-> & -> & _). now rewrite Fx.
  - intros x a [Fx Ex]. split; [now rewrite is_finite_Babs|]. now rewrite B2R_Babs, Ex, abs_IZR.
  - intros x y a b [Fx Ex] [Fy Ey]. rewrite Beqb_correct, Ex, Ey by auto. apply IZR_eqb.
  - intros x y a b [Fx Ex] [Fy Ey]. rewrite Bltb_correct, Ex, Ey by auto. apply IZR_ltb.
Qed.
Lemma bfma_whole : whole_fma (2 ^ prec) bis (Bfma mode_NE).
Proof.
  intros x y z a b c [Fx Ex] [Fy Ey] [Fz Ez] H. pose proof (Bfma_correct prec emax Hp Hm mode_NE x y z Fx Fy Fz) as C. cbv zeta in C.
  rewrite rnd_NE, Ex, Ey, Ez, <- mult_IZR, <- plus_IZR, int_rnd, int_small in C by auto. destruct C as (? & ? & _). split; auto.
Qed.
End Binary.

(** binary64 *)
Definition fis (x : Coq.Floats.PrimFloat.float) (k : Z) : Prop := ffin x /\ fval x = IZR k.
Lemma fis_B x k : fis x k <-> bis FloatOps.prec FloatOps.emax (Flocq.IEEE754.PrimFloat.Prim2B x) k.
Proof. unfold fis, bis. now rewrite ffin_B, fval_B. Qed.
Lemma float_whole : Whole FOps (2 ^ 53) fis.
Proof.
  pose proof (bops_whole FloatOps.prec FloatOps.emax Flocq.IEEE754.PrimFloat.Hprec Flocq.IEEE754.PrimFloat.Hmax ltac:(reflexivity)) as I.
  change (2 ^ FloatOps.prec) with (2 ^ 53) in I.
  destruct I as [I1 I2 I3 I4 I5 I6 I7 I8 I9 I10 I11 I12 I13 I14].
  cbn [zero one add sub mul div opp sqrt_ pow2 abs_ eqb ltb BOps] in *.
  constructor; cbn [zero one add sub mul div opp sqrt_ pow2 abs_ eqb ltb FOps]; try exact I1; try (apply fis_B; first [exact I3|exact I4]).
  - intros x a b. rewrite !fis_B. apply I2.
  - intros x y a b. rewrite !fis_B, Flocq.IEEE754.PrimFloat.add_equiv. apply I5.
  - intros x y a b. rewrite !fis_B, Flocq.IEEE754.PrimFloat.sub_equiv. apply I6.
  - intros x y a b. rewrite !fis_B, Flocq.IEEE754.PrimFloat.mul_equiv. apply I7.
  - intros x y a b. rewrite !fis_B, Flocq.IEEE754.PrimFloat.div_equiv. apply I8.
  - intros x a. rewrite !fis_B, Flocq.IEEE754.PrimFloat.opp_equiv. apply I9.
  - intros x a. rewrite !fis_B, Flocq.IEEE754.PrimFloat.sqrt_equiv. apply I10.
  - intros x a. rewrite !fis_B, Flocq.IEEE754.PrimFloat.mul_equiv. apply I11.
  - intros x a. rewrite !fis_B, Flocq.IEEE754.PrimFloat.abs_equiv. apply I12.
  - intros x y a b. rewrite !fis_B, Flocq.IEEE754.PrimFloat.eqb_equiv. apply I13.
  - intros x y a b. rewrite !fis_B, Flocq.IEEE754.PrimFloat.ltb_equiv. apply I14.
Qed.
Lemma fma64_whole : whole_fma (2 ^ 53) fis fma64.
Proof.
  intros x y z a b c. rewrite !fis_B. unfold fma64. rewrite Flocq.IEEE754.PrimFloat.Prim2B_B2Prim.
  apply (bfma_whole FloatOps.prec FloatOps.emax Flocq.IEEE754.PrimFloat.Hprec Flocq.IEEE754.PrimFloat.Hmax ltac:(reflexivity)).
Qed.

(** The integers themselves, with any bound. *)
Lemma z_whole B : 1 <= B -> Whole ZOps B eq.
Proof.
  intros H. constructor; cbn [zero one add sub mul div opp sqrt_ pow2 abs_ eqb ltb ZOps]; intros; subst; auto.
  - now apply Z.quot_mul.
  - apply Z.sqrt_square. lia.
Qed.

(** A signed integer type with the values from - B to B; [None]: an overflow has happened. *)
Definition chk (B : Z) (k : Z) : option Z := if Z.leb (Z.abs k) B then Some k else None.
Definition lift2 {A B C} (f : A -> B -> option C) (x : option A) (y : option B) : option C :=
  match x, y with Some a, Some b => f a b | _, _ => None end.
Definition IOps (B : Z) : Ops (option Z) := mkOps _ (Some 0) (Some 1)
  (lift2 (fun a b => chk B (a + b))) (lift2 (fun a b => chk B (a - b))) (lift2 (fun a b => chk B (a * b)))
  (lift2 (fun a b => if Z.eqb b 0 then None else chk B (Z.quot a b)))
  (option_map Z.opp) (option_map Z.sqrt) (fun x => lift2 (fun a b => chk B (a * b)) x x) (option_map Z.abs)
  (fun x y => match x, y with Some a, Some b => Z.eqb a b | _, _ => false end)
  (fun x y => match x, y with Some a, Some b => Z.ltb a b | _, _ => false end).
Lemma chk_in B k : Z.abs k <= B -> chk B k = Some k.
Proof. intros H. unfold chk. destruct (Z.leb_spec (Z.abs k) B); auto. lia. Qed.
Lemma i_whole B : 1 <= B -> Whole (IOps B) B (fun x k => x = Some k).
Proof.
  intros H. constructor; cbn [zero one add sub mul div opp sqrt_ pow2 abs_ eqb ltb IOps]; intros; subst; cbn [lift2 option_map]; auto using chk_in.
  - congruence.
  - destruct (Z.eqb_spec b 0); [contradiction|]. rewrite Z.quot_mul by auto. now apply chk_in.
  - rewrite Z.sqrt_square; auto. lia.
  - apply chk_in. nia.
Qed.

(** Every contraction of such a type is such a type. *)
Lemma terms_whole T (Op : Ops T) B is fma rho : Whole Op B is -> whole_fma B is fma -> contraction Op fma rho ->
  (forall x, pow2 x = mul x x) -> Whole (TOps Op rho) B (is_term is rho).
Proof.
  intros W WF (C1 & C2 & C3 & C4 & C5 & C6 & C7 & C8) P2.
  constructor; cbn [zero one add sub mul div opp sqrt_ pow2 abs_ eqb ltb TOps]; unfold is_term.
  - apply (w_range (Whole := W)).
  - intros x a b [H1 _] [H2 _]. now apply (w_only (Whole := W) (rho x)).
  - rewrite C1. split; [apply w_zero|intros p q H; inversion H].
  - rewrite C1. split; [apply w_one|intros p q H; inversion H].
  - intros x y a b [Hx Px] [Hy Py] H. split; [|intros p q H'; inversion H'].
    destruct (C7 x y) as [-> |[(p & q & Pr & ->)|(p & q & Pr & ->)]].
    + now apply w_add.
    + destruct (Px p q Pr) as (c & d & Hc & Hd & ->). now apply WF.
    + destruct (Py p q Pr) as (c & d & Hc & Hd & ->). rewrite Z.add_comm in *. now apply WF.
  - intros x y a b [Hx Px] [Hy Py] H. split; [|intros p q H'; inversion H'].
    destruct (C8 x y) as [-> |[(p & q & Pr & ->)|(p & q & Pr & ->)]].
    + now apply w_sub.
    + destruct (Px p q Pr) as (c & d & Hc & Hd & ->). rewrite <- Z.add_opp_r in *. apply WF; auto. now apply w_opp.
    + destruct (Py p q Pr) as (c & d & Hc & Hd & ->).
      replace (a - c * d) with (- c * d + a) in * by ring. apply WF; auto. now apply w_opp.
  - intros x y a b [Hx Px] [Hy Py] H. split.
    + rewrite C2. now apply w_mul.
    + intros p q Pr. inversion Pr; subst. eauto.
  - intros x y a b [Hx Px] [Hy Py] Nb H. split; [|intros p q H'; inversion H']. rewrite C3. now apply (w_div _ _ a b).
  - intros x a [Hx Px]. split.
    + rewrite C4. now apply w_opp.
    + intros p q Pr. inversion Pr; subst. destruct (Px p0 q (product_mul p0 q)) as (c & d & Hc & Hd & ->).
      exists (- c), d. rewrite C4. split; [now apply w_opp|]. split; auto. ring.
  - intros x a [Hx Px] H. split; [|intros p q H'; inversion H']. rewrite C5. now apply w_sqrt.
  - intros x a [Hx Px] H. split.
    + rewrite C2, <- P2. now apply w_pow2.
    + intros p q Pr. inversion Pr; subst. eauto.
  - intros x a [Hx Px]. split; [|intros p q H'; inversion H']. rewrite C6. now apply w_abs.
  - intros x y a b [Hx _] [Hy _]. now apply w_eqb.
  - intros x y a b [Hx _] [Hy _]. now apply w_ltb.
Qed.
