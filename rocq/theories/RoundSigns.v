(** * Changes of sign in IEEE arithmetic

    Rounding to nearest is symmetric about zero, so negating the data negates the results, exactly:
    overflows become overflows of the other sign, NaNs stay NaNs.  Only the sign of a zero result
    is not preserved ((-1) + 1 and 1 + (-1) are both +0), which matters in no later operation but a
    division by that zero. *)
From Coq Require Import ZArith Floats Reals Lra Lia Bool.
From Flocq Require Import Core BinarySingleNaN.
From Flocq Require PrimFloat.
From Verif Require Import Base Scalar Spec SpecUnits SpecSigns RoundIeee.
Local Open Scope R_scope.

Section Binary.
Context (prec emax : Z) (Hp : Prec_gt_0 prec) (Hm : Prec_lt_emax prec emax).
Notation bf := (binary_float prec emax).
Notation fexp := (SpecFloat.fexp prec emax).
Notation BO := (BOps prec emax Hp Hm).

(** Forget the sign of a zero. *)
Definition cz (x : bf) : bf := match x with B754_zero _ => B754_zero false | _ => x end.
Definition bnz (x : bf) : Prop := match x with B754_zero _ => False | _ => True end.

Lemma cz_cz x : cz (cz x) = cz x.
Proof. now destruct x. Qed.
Lemma cz_finite (x y : bf) : is_finite x = true -> is_finite y = true -> B2R x = B2R y -> cz x = cz y.
Proof.
  intros Fx Fy E. assert (Z : forall z : bf, is_finite z = true -> B2R z = 0 -> exists s, z = B754_zero s).
  { intros [s|s| |s m e Hb]; cbn; intros F K; try discriminate; eauto. exfalso. apply eq_0_F2R in K. destruct s; discriminate. }
  destruct (Req_dec (B2R x) 0) as [N|N].
  - destruct (Z x Fx N) as [a ->]. destruct (Z y Fy ltac:(congruence)) as [b ->]. reflexivity.
  - f_equal. apply B2R_inj; auto.
    + destruct x; try discriminate; auto; now elim N.
    + destruct y; try discriminate; auto; elim N; now rewrite E.
Qed.
Lemma sf_inf (z w : bf) s t : B2SF z = binary_overflow prec emax mode_NE s -> B2SF w = binary_overflow prec emax mode_NE t -> s = t -> z = w.
Proof. intros H K <-. apply B2SF_inj. congruence. Qed.

Lemma opp_cz x : cz (Bopp (cz x)) = cz (Bopp x).
Proof. now destruct x. Qed.
Lemma plus_cz x y : cz (Bplus mode_NE (cz x) (cz y)) = cz (Bplus mode_NE x y).
Proof. destruct x as [[]|[]| |], y as [[]|[]| |]; reflexivity. Qed.
Lemma minus_cz x y : cz (Bminus mode_NE (cz x) (cz y)) = cz (Bminus mode_NE x y).
Proof. destruct x as [[]|[]| |], y as [[]|[]| |]; reflexivity. Qed.
Lemma mult_cz x y : cz (Bmult mode_NE (cz x) (cz y)) = cz (Bmult mode_NE x y).
Proof. destruct x as [[]|[]| |], y as [[]|[]| |]; reflexivity. Qed.
Lemma div_cz x y : bnz y -> cz (Bdiv mode_NE (cz x) (cz y)) = cz (Bdiv mode_NE x y).
Proof. destruct x as [[]|[]| |], y as [[]|[]| |]; intros []; reflexivity. Qed.
Lemma sqrt_cz (x : bf) : cz (Bsqrt mode_NE (cz x)) = cz (Bsqrt mode_NE x).
Proof. destruct x as [[]|[]| |]; reflexivity. Qed.

Lemma plus_opp x y : cz (Bplus mode_NE (Bopp x) (Bopp y)) = cz (Bopp (Bplus mode_NE x y)).
Proof.
  destruct (is_finite x) eqn:Fx; [|destruct x as [[]|[]| |], y as [[]|[]| |]; try discriminate; reflexivity].
  destruct (is_finite y) eqn:Fy; [|destruct x as [[]|[]| |], y as [[]|[]| |]; try discriminate; reflexivity].
  pose proof (Bplus_correct prec emax Hp Hm mode_NE x y Fx Fy) as C.
  assert (Fx' : is_finite (Bopp x) = true) by now rewrite is_finite_Bopp.
  assert (Fy' : is_finite (Bopp y) = true) by now rewrite is_finite_Bopp.
  pose proof (Bplus_correct prec emax Hp Hm mode_NE (Bopp x) (Bopp y) Fx' Fy') as C'.
  rewrite !B2R_Bopp in C'. replace (- B2R x + - B2R y) with (- (B2R x + B2R y)) in C' by ring.
  cbn [round_mode] in *. rewrite round_NE_opp, Rabs_Ropp in C'.
  destruct (Rlt_bool _ _).
  - destruct C as (C1 & C2 & _), C' as (C1' & C2' & _). apply cz_finite; auto; [now rewrite is_finite_Bopp|].
    now rewrite B2R_Bopp, C1, C1'.
  - destruct C as [C1 C2], C' as [C1' C2']. f_equal. 
    assert (Nx : is_nan x = false) by (destruct x; auto; discriminate).
    rewrite (Bsign_Bopp _ _ x Nx) in C1'.
    apply B2SF_inj. rewrite C1'. destruct (Bplus mode_NE x y) as [a|a| |a m e Hb]; cbn in C1 |- *; try discriminate. now injection C1 as ->.
Qed.
Lemma minus_opp x y : cz (Bminus mode_NE (Bopp x) (Bopp y)) = cz (Bopp (Bminus mode_NE x y)).
Proof.
  destruct (is_finite x) eqn:Fx; [|destruct x as [[]|[]| |], y as [[]|[]| |]; try discriminate; reflexivity].
  destruct (is_finite y) eqn:Fy; [|destruct x as [[]|[]| |], y as [[]|[]| |]; try discriminate; reflexivity].
  pose proof (Bminus_correct prec emax Hp Hm mode_NE x y Fx Fy) as C.
  assert (Fx' : is_finite (Bopp x) = true) by now rewrite is_finite_Bopp.
  assert (Fy' : is_finite (Bopp y) = true) by now rewrite is_finite_Bopp.
  pose proof (Bminus_correct prec emax Hp Hm mode_NE (Bopp x) (Bopp y) Fx' Fy') as C'.
  rewrite !B2R_Bopp in C'. replace (- B2R x - - B2R y) with (- (B2R x - B2R y)) in C' by ring.
  cbn [round_mode] in *. rewrite round_NE_opp, Rabs_Ropp in C'.
  destruct (Rlt_bool _ _).
  - destruct C as (C1 & C2 & _), C' as (C1' & C2' & _). apply cz_finite; auto; [now rewrite is_finite_Bopp|].
    now rewrite B2R_Bopp, C1, C1'.
  - destruct C as [C1 C2], C' as [C1' C2']. f_equal.
    assert (Nx : is_nan x = false) by (destruct x; auto; discriminate).
    rewrite (Bsign_Bopp _ _ x Nx) in C1'.
    apply B2SF_inj. rewrite C1'. destruct (Bminus mode_NE x y) as [a|a| |a m e Hb]; cbn in C1 |- *; try discriminate. now injection C1 as ->.
Qed.
Lemma opp_inf (z : bf) s : B2SF z = binary_overflow prec emax mode_NE s -> B2SF (Bopp z) = binary_overflow prec emax mode_NE (negb s).
Proof. destruct z as [a|a| |a m e Hb]; cbn; intros K; try discriminate. now injection K as ->. Qed.
Lemma mult_opp_l x y : cz (Bmult mode_NE (Bopp x) y) = cz (Bopp (Bmult mode_NE x y)).
Proof.
  destruct (is_finite x) eqn:Fx; [|destruct x as [[]|[]| |], y as [[]|[]| |[]]; try discriminate; reflexivity].
  destruct (is_finite y) eqn:Fy; [|destruct x as [[]|[]| |[]], y as [[]|[]| |]; try discriminate; reflexivity].
  pose proof (Bmult_correct prec emax Hp Hm mode_NE x y) as C.
  pose proof (Bmult_correct prec emax Hp Hm mode_NE (Bopp x) y) as C'.
  rewrite !B2R_Bopp in C'. replace (- B2R x * B2R y) with (- (B2R x * B2R y)) in C' by ring.
  cbn [round_mode] in *. rewrite round_NE_opp, Rabs_Ropp, is_finite_Bopp, Fx, Fy in C'. rewrite Fx, Fy in C.
  destruct (Rlt_bool _ _).
  - destruct C as (C1 & C2 & _), C' as (C1' & C2' & _). apply cz_finite; auto; [now rewrite is_finite_Bopp|].
    now rewrite B2R_Bopp, C1, C1'.
  - f_equal. rewrite Bsign_Bopp in C' by (destruct x; auto; discriminate). eapply sf_inf; [exact C'|apply opp_inf; exact C|].
    now destruct (Bsign x), (Bsign y).
Qed.
Lemma mult_comm_cz x y : Bmult mode_NE x y = Bmult mode_NE y x.
Proof.
  destruct (is_finite x) eqn:Fx; [|destruct x as [[]|[]| |], y as [[]|[]| |[]]; try discriminate; reflexivity].
  destruct (is_finite y) eqn:Fy; [|destruct x as [[]|[]| |[]], y as [[]|[]| |]; try discriminate; reflexivity].
  pose proof (Bmult_correct prec emax Hp Hm mode_NE x y) as C.
  pose proof (Bmult_correct prec emax Hp Hm mode_NE y x) as C'.
  rewrite (Rmult_comm (B2R y)) in C'. rewrite Fx, Fy in *. cbn [andb] in *.
  destruct (Rlt_bool _ _).
  - destruct C as (C1 & C2 & C3), C' as (C1' & C2' & C3'). apply B2R_Bsign_inj; auto; [congruence|].
    rewrite C3, C3'; [apply xorb_comm| |]; [destruct (Bmult mode_NE y x)|destruct (Bmult mode_NE x y)]; auto; discriminate.
  - eapply sf_inf; eauto. apply xorb_comm.
Qed.
Lemma mult_opp_r x y : cz (Bmult mode_NE x (Bopp y)) = cz (Bopp (Bmult mode_NE x y)).
Proof. rewrite mult_comm_cz, mult_opp_l. now rewrite (mult_comm_cz y x). Qed.
Lemma nz_B2R s m e H : B2R (B754_finite s m e H : bf) <> 0.
Proof. intros E. apply eq_0_F2R in E. destruct s; discriminate. Qed.
Lemma div_opp_l x y : cz (Bdiv mode_NE (Bopp x) y) = cz (Bopp (Bdiv mode_NE x y)).
Proof.
  destruct (is_finite x) eqn:Fx; [|destruct x as [[]|[]| |], y as [[]|[]| |[]]; try discriminate; reflexivity].
  destruct y as [t|t| |t m e Hb]; [destruct x as [[]|[]| |[]], t; try discriminate; reflexivity|destruct x as [[]|[]| |[]], t; try discriminate; reflexivity|
    destruct x as [[]|[]| |[]]; try discriminate; reflexivity|].
  set (y := B754_finite t m e Hb : bf) in *. assert (N : B2R y <> 0) by apply nz_B2R.
  pose proof (Bdiv_correct prec emax Hp Hm mode_NE x y N) as C.
  pose proof (Bdiv_correct prec emax Hp Hm mode_NE (Bopp x) y N) as C'.
  rewrite !B2R_Bopp in C'. replace (- B2R x / B2R y) with (- (B2R x / B2R y)) in C' by (field; auto).
  cbn [round_mode] in *. rewrite round_NE_opp, Rabs_Ropp, is_finite_Bopp, Fx in C'. rewrite Fx in C.
  destruct (Rlt_bool _ _).
  - destruct C as (C1 & C2 & _), C' as (C1' & C2' & _). apply cz_finite; auto; [now rewrite is_finite_Bopp|].
    now rewrite B2R_Bopp, C1, C1'.
  - f_equal. rewrite Bsign_Bopp in C' by (destruct x; auto; discriminate). eapply sf_inf; [exact C'|apply opp_inf; exact C|].
    now destruct (Bsign x), (Bsign y).
Qed.
Lemma div_opp_r x y : cz (Bdiv mode_NE x (Bopp y)) = cz (Bopp (Bdiv mode_NE x y)).
Proof.
  destruct y as [t|t| |t m e Hb]; [destruct x as [[]|[]| |[]], t; reflexivity|destruct x as [[]|[]| |[]], t; reflexivity|
    destruct x as [[]|[]| |[]]; reflexivity|].
  destruct (is_finite x) eqn:Fx; [|destruct x as [[]|[]| |], t; try discriminate; reflexivity].
  set (y := B754_finite t m e Hb : bf) in *. assert (N : B2R y <> 0) by apply nz_B2R.
  assert (N' : B2R (Bopp y) <> 0) by (rewrite B2R_Bopp; lra).
  pose proof (Bdiv_correct prec emax Hp Hm mode_NE x y N) as C.
  pose proof (Bdiv_correct prec emax Hp Hm mode_NE x (Bopp y) N') as C'.
  rewrite !B2R_Bopp in C'. replace (B2R x / - B2R y) with (- (B2R x / B2R y)) in C' by (field; auto).
  cbn [round_mode] in *. rewrite round_NE_opp, Rabs_Ropp, Fx in C'. rewrite Fx in C.
  destruct (Rlt_bool _ _).
  - destruct C as (C1 & C2 & _), C' as (C1' & C2' & _). apply cz_finite; auto; [now rewrite is_finite_Bopp|].
    now rewrite B2R_Bopp, C1, C1'.
  - f_equal. rewrite Bsign_Bopp in C' by reflexivity. eapply sf_inf; [exact C'|apply opp_inf; exact C|].
    now destruct (Bsign x), (Bsign y).
Qed.

Lemma eqb0 (x : bf) : Beqb x (B754_zero false) = true <-> exists s, x = B754_zero s.
Proof. destruct x as [s|[]| |[]]; cbn; split; try discriminate; eauto; now intros [? [=]]. Qed.
Lemma nz_iff (x : bf) : Beqb x (B754_zero false) = false <-> bnz x.
Proof. destruct x as [s|[]| |[]]; cbn; split; try discriminate; auto; tauto. Qed.
Lemma same_cz (x y : bf) : same BO x y <-> cz x = cz y.
Proof.
  unfold same. cbn [eqb zero BOps]. split.
  - intros [->|[H K]]; [reflexivity|]. apply eqb0 in H as [a ->]. apply eqb0 in K as [b ->]. reflexivity.
  - intros E. destruct x as [a|a| |a m e H], y as [b|b| |b m' e' H']; cbn in E; try discriminate; auto.
Qed.
Definition sw (k : Z) (x : bf) : bf := if Z.even k then x else Bopp x.
Lemma sgn_cz k (x y : bf) : sgn BO k x y <-> cz (sw k x) = cz y.
Proof. unfold sgn, sw. cbn [opp BOps]. destruct (Z.even k); apply same_cz. Qed.
Lemma plus_sw k x y : cz (Bplus mode_NE (sw k x) (sw k y)) = cz (sw k (Bplus mode_NE x y)).
Proof. unfold sw. destruct (Z.even k); [reflexivity|apply plus_opp]. Qed.
Lemma minus_sw k x y : cz (Bminus mode_NE (sw k x) (sw k y)) = cz (sw k (Bminus mode_NE x y)).
Proof. unfold sw. destruct (Z.even k); [reflexivity|apply minus_opp]. Qed.
Lemma mult_sw j k x y : cz (Bmult mode_NE (sw j x) (sw k y)) = cz (sw (j + k) (Bmult mode_NE x y)).
Proof.
  unfold sw. rewrite Z.even_add. destruct (Z.even j), (Z.even k); cbn [Bool.eqb]; [reflexivity|apply mult_opp_r|apply mult_opp_l|].
  rewrite mult_opp_l, <- opp_cz, mult_opp_r, opp_cz, Bopp_involutive. reflexivity.
Qed.
Lemma div_sw j k x y : cz (Bdiv mode_NE (sw j x) (sw k y)) = cz (sw (j - k) (Bdiv mode_NE x y)).
Proof.
  unfold sw. rewrite Z.even_sub. destruct (Z.even j), (Z.even k); cbn [Bool.eqb]; [reflexivity|apply div_opp_r|apply div_opp_l|].
  rewrite div_opp_l, <- opp_cz, div_opp_r, opp_cz, Bopp_involutive. reflexivity.
Qed.
Lemma sw_nz k (x : bf) : bnz (sw k x) <-> bnz x.
Proof. unfold sw. destruct (Z.even k); [tauto|]. now destruct x. Qed.
Lemma cz_nz (x y : bf) : cz x = cz y -> bnz x -> bnz y.
Proof. destruct x, y; cbn; intros; try discriminate; auto. Qed.
Lemma mult_square x y : cz x = cz y -> Bmult mode_NE x x = Bmult mode_NE y y.
Proof.
  destruct x as [[]|a| |a m e H], y as [[]|b| |b m' e' H']; intros E; try discriminate E; try reflexivity;
    unfold cz in E; now rewrite E.
Qed.
Lemma square_opp x : Bmult mode_NE (Bopp x) (Bopp x) = Bmult mode_NE x x.
Proof.
  destruct (is_finite x) eqn:Fx; [|destruct x as [[]|[]| |]; try discriminate; reflexivity].
  pose proof (Bmult_correct prec emax Hp Hm mode_NE x x) as C.
  pose proof (Bmult_correct prec emax Hp Hm mode_NE (Bopp x) (Bopp x)) as C'.
  rewrite !B2R_Bopp in C'. replace (- B2R x * - B2R x) with (B2R x * B2R x) in C' by ring.
  rewrite is_finite_Bopp, Fx in C'. rewrite Fx in C. cbn [andb] in *. rewrite !xorb_nilpotent in *.
  destruct (Rlt_bool _ _).
  - destruct C as (C1 & C2 & C3), C' as (C1' & C2' & C3'). apply B2R_Bsign_inj; auto; [congruence|].
    rewrite C3, C3'; auto; [destruct (Bmult mode_NE (Bopp x) (Bopp x))|destruct (Bmult mode_NE x x)]; auto; discriminate.
  - eapply sf_inf; eauto.
Qed.
Lemma sqrt_nz (x : bf) : bnz x -> Bltb x (B754_zero false) = false -> bnz (Bsqrt mode_NE x).
Proof.
  intros N L. destruct x as [s|s| |s m e Hb]; try contradiction; [destruct s; [discriminate|exact I]|exact I|].
  destruct s; [discriminate|]. set (x := B754_finite false m e Hb : bf) in *.
  destruct (Bsqrt_correct prec emax Hp Hm mode_NE x) as (E & F & _).
  assert (P : 0 < B2R x). { unfold x. cbn. apply F2R_gt_0. reflexivity. }
  assert (K : 0 < B2R (Bsqrt mode_NE x)).
  { rewrite E. cbn [round_mode]. assert (F1 : generic_format radix2 fexp 1).
    { rewrite <- (Bone_correct prec emax Hp Hm). apply generic_format_B2R. }
    destruct (Rle_dec 1 (B2R x)) as [H1|H1].
    - apply Rlt_le_trans with 1; [lra|]. apply round_ge_generic; [apply fexp_correct; auto|apply valid_rnd_N|exact F1|].
      rewrite <- sqrt_1. now apply sqrt_le_1_alt.
    - apply Rlt_le_trans with (B2R x); [exact P|]. apply round_ge_generic; [apply fexp_correct; auto|apply valid_rnd_N|apply generic_format_B2R|].
      rewrite <- (sqrt_square (B2R x)) at 1 by lra. apply sqrt_le_1_alt. nra. }
  destruct (Bsqrt mode_NE x); cbn in K |- *; auto. lra.
Qed.

Lemma b_signs : Signs BO (fun x => is_finite x = true).
Proof.
  constructor; cbn [zero one add sub mul div opp sqrt_ pow2 abs_ eqb ltb BOps].
  - constructor; intros *; rewrite ?sgn_cz; cbn [zero one add sub mul div opp sqrt_ pow2 abs_ eqb ltb BOps].
    + unfold sw. now destruct (Z.even k).
    + reflexivity.
    + intros E1 E2. rewrite <- plus_sw, <- plus_cz, E1, E2, plus_cz. reflexivity.
    + intros E1 E2. rewrite <- minus_sw, <- minus_cz, E1, E2, minus_cz. reflexivity.
    + intros E. rewrite <- (opp_cz x'), <- E, opp_cz. unfold sw. now destruct (Z.even k).
    + intros E1 E2. rewrite <- mult_sw, <- mult_cz, E1, E2, mult_cz. reflexivity.
    + intros E1 E2 N. apply nz_iff in N. rewrite <- div_sw, <- div_cz by now apply sw_nz. rewrite E1, E2, div_cz; [reflexivity|].
      apply (cz_nz _ _ E2). now apply sw_nz.
    + intros E. rewrite <- (mult_square _ _ E). replace (2 * k)%Z with (k + k)%Z by ring. now rewrite <- mult_sw.
  - constructor; intros *; rewrite ?sgn_cz; cbn [zero one add sub mul div opp sqrt_ pow2 abs_ eqb ltb BOps].
    + intros E. assert (H : bnz x <-> bnz x').
      { split; intros N; [apply (cz_nz _ _ E); now apply sw_nz|apply (sw_nz k), (cz_nz _ _ (eq_sym E)), N]. }
      rewrite <- !nz_iff in H. destruct (Beqb x' _), (Beqb x _); intuition congruence.
    + intros E Z. apply eqb0 in Z as [a ->]. unfold sw in *. destruct (Z.even j), (Z.even k); cbn in *; auto.
  - intros x x'. rewrite !same_cz. intros E. now rewrite <- sqrt_cz, E, sqrt_cz.
  - intros k x x'. rewrite sgn_cz, same_cz. intros E. assert (A : forall y : bf, cz (Babs (cz y)) = cz (Babs y)) by now intros [].
    rewrite <- (A x'), <- E, A. unfold sw. destruct (Z.even k); [reflexivity|]. now destruct x as [[]|[]| |[]].
  - intros x y x' y'. rewrite !same_cz. intros E1 E2. assert (L : forall a b : bf, Bltb (cz a) (cz b) = Bltb a b) by (intros [[]|[]| |[]] [[]|[]| |[]]; reflexivity).
    now rewrite <- L, <- E1, <- E2, L.
  - intros k x x'. rewrite sgn_cz. intros E. apply mult_square in E. cut (Bmult mode_NE x' x' = Bmult mode_NE x x); [auto|].
    rewrite <- E. unfold sw. destruct (Z.even k); [reflexivity|apply square_opp].
  - intros k x x' y. rewrite !sgn_cz. intros E.
    assert (D : forall a : bf, cz (Bdiv mode_NE (cz a) y) = cz (Bdiv mode_NE a y)) by (intros [[]|[]| |]; destruct y as [[]|[]| |[]]; reflexivity).
    rewrite <- (D x'), <- E, D. pose proof (div_sw k 0 x y) as Q. unfold sw at 2 in Q. cbn [Z.even] in Q. rewrite Z.sub_0_r in Q. now symmetry.
  - intros x N L. apply nz_iff. apply nz_iff in N. now apply sqrt_nz.
  - exact (plus_fin prec emax Hp Hm).
  - exact (mult_fin prec emax Hp Hm).
  - intros x y F. apply nz_iff. destruct y as [s| | |]; cbn; auto. destruct x as [|[]| |]; discriminate.
Qed.
End Binary.

(** ** binary32 and the primitive binary64 *)
Lemma b32_signs : Signs B32Ops (fun x => is_finite x = true).
Proof. exact (b_signs 24 128 prec32 emax32). Qed.

Notation P2B := Flocq.IEEE754.PrimFloat.Prim2B.
Definition B64Ops := BOps FloatOps.prec FloatOps.emax Flocq.IEEE754.PrimFloat.Hprec Flocq.IEEE754.PrimFloat.Hmax.
Lemma p2b_zero : P2B Coq.Floats.PrimFloat.zero = B754_zero false.
Proof. apply B2SF_inj. rewrite Flocq.IEEE754.PrimFloat.B2SF_Prim2B. reflexivity. Qed.
Lemma p2b_one : P2B Coq.Floats.PrimFloat.one = one (Ops := B64Ops).
Proof. rewrite Flocq.IEEE754.PrimFloat.one_equiv. apply Flocq.IEEE754.PrimFloat.Prim2B_B2Prim. Qed.
Lemma p2b_eqb0 x : eqb (Ops := FOps) x (zero (Ops := FOps)) = eqb (Ops := B64Ops) (P2B x) (zero (Ops := B64Ops)).
Proof. cbn [eqb zero FOps B64Ops BOps]. rewrite Flocq.IEEE754.PrimFloat.eqb_equiv. reflexivity. Qed.
Lemma same_p2b x y : same FOps x y <-> same B64Ops (P2B x) (P2B y).
Proof.
  unfold same. rewrite !p2b_eqb0. split; intros [H|H]; auto; left; [now rewrite H|now apply Flocq.IEEE754.PrimFloat.Prim2B_inj].
Qed.
Lemma sgn_p2b k x y : sgn FOps k x y <-> sgn B64Ops k (P2B x) (P2B y).
Proof.
  unfold sgn. destruct (Z.even k); rewrite same_p2b; [reflexivity|]. cbn [opp FOps B64Ops BOps]. now rewrite Flocq.IEEE754.PrimFloat.opp_equiv.
Qed.
Lemma float_signs : Signs FOps ffin.
Proof.
  pose proof (b_signs FloatOps.prec FloatOps.emax Flocq.IEEE754.PrimFloat.Hprec Flocq.IEEE754.PrimFloat.Hmax) as S. fold B64Ops in S.
  assert (A : forall x y, P2B (add (Ops := FOps) x y) = add (Ops := B64Ops) (P2B x) (P2B y)) by apply Flocq.IEEE754.PrimFloat.add_equiv.
  assert (B : forall x y, P2B (sub (Ops := FOps) x y) = sub (Ops := B64Ops) (P2B x) (P2B y)) by apply Flocq.IEEE754.PrimFloat.sub_equiv.
  assert (Mu : forall x y, P2B (mul (Ops := FOps) x y) = mul (Ops := B64Ops) (P2B x) (P2B y)) by apply Flocq.IEEE754.PrimFloat.mul_equiv.
  assert (Di : forall x y, P2B (div (Ops := FOps) x y) = div (Ops := B64Ops) (P2B x) (P2B y)) by apply Flocq.IEEE754.PrimFloat.div_equiv.
  assert (Ne : forall x, P2B (opp (Ops := FOps) x) = opp (Ops := B64Ops) (P2B x)) by apply Flocq.IEEE754.PrimFloat.opp_equiv.
  assert (Sq : forall x, P2B (sqrt_ (Ops := FOps) x) = sqrt_ (Ops := B64Ops) (P2B x)) by apply Flocq.IEEE754.PrimFloat.sqrt_equiv.
  assert (Ab : forall x, P2B (abs_ (Ops := FOps) x) = abs_ (Ops := B64Ops) (P2B x)) by apply Flocq.IEEE754.PrimFloat.abs_equiv.
  assert (Pw : forall x, P2B (pow2 (Ops := FOps) x) = pow2 (Ops := B64Ops) (P2B x)) by (intros x; apply Flocq.IEEE754.PrimFloat.mul_equiv).
  assert (Lt : forall x y, ltb (Ops := FOps) x y = ltb (Ops := B64Ops) (P2B x) (P2B y)) by apply Flocq.IEEE754.PrimFloat.ltb_equiv.
  assert (Ze : P2B (zero (Ops := FOps)) = zero (Ops := B64Ops)) by exact p2b_zero.
  assert (On : P2B (one (Ops := FOps)) = one (Ops := B64Ops)) by exact p2b_one.
  destruct S as [SU SZ S3 S4 S5 S6 S7 S8 S9 S10 S11]. destruct SU as [U1 U2 U3 U4 U5 U6 U7 U8]. destruct SZ as [Z1 Z2].
  constructor.
  - constructor; intros *; rewrite ?sgn_p2b, ?A, ?B, ?Mu, ?Di, ?Ne, ?Pw, ?Ze, ?On; auto.
    unfold nonzero in *. rewrite p2b_eqb0. apply U7.
  - constructor; intros *; rewrite ?sgn_p2b, ?p2b_eqb0; eauto.
  - intros x x'. rewrite !same_p2b, !Sq. auto.
  - intros k x x'. rewrite !same_p2b, sgn_p2b, !Ab. eauto.
  - intros x y x' y'. rewrite !same_p2b, !Lt. auto.
  - intros k x x'. rewrite sgn_p2b. intros H. destruct (S6 k _ _ H) as [E1 E2].
    split; apply Flocq.IEEE754.PrimFloat.Prim2B_inj; [rewrite !Mu|rewrite !Pw]; assumption.
  - intros k x x' y. rewrite !sgn_p2b, !Di. auto.
  - intros x. rewrite !p2b_eqb0, Lt, Ze, Sq. auto.
  - intros x y. rewrite !ffin_B, A. apply S9.
  - intros x y. rewrite !ffin_B, Mu. apply S10.
  - intros x y. rewrite !ffin_B, Di, p2b_eqb0. apply S11.
Qed.
