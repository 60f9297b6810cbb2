(** * Arithmetics in which a change of units is exact *)
From Coq Require Import ZArith Floats Reals Lra Lia.
From Flocq Require Import Core BinarySingleNaN Plus_error.
From Flocq Require IEEE754.PrimFloat.
From Verif Require Import Base Scalar SpecUnits SpecParam FloatSqrt RoundFlocq RoundIeee PropParam.
Local Open Scope R_scope.

(** ** Real numbers with every operation followed by [rnd] *)
Section Rounded.
Variable rnd : R -> R.
Definition RndOps : Ops R := {|
  zero := 0; one := 1;
  add := fun x y => rnd (x + y); sub := fun x y => rnd (x - y); mul := fun x y => rnd (x * y); div := fun x y => rnd (x / y);
  opp := Ropp; sqrt_ := fun x => rnd (sqrt x); pow2 := fun x => rnd (x * x); abs_ := Rabs;
  eqb := fun x y => if Req_EM_T x y then true else false; ltb := fun x y => if Rlt_dec x y then true else false |}.

(** [p k] is the k-th power of the ratio of the units. *)
Variable p : Z -> R.
Hypothesis p0 : p 0 = 1.
Hypothesis p_add : forall j k, p (j + k) = p j * p k.
Hypothesis p_pos : forall k, 0 < p k.
Hypothesis p_rnd : forall k x, rnd (p k * x) = p k * rnd x.
Definition in_units (k : Z) (x y : R) : Prop := y = p k * x.

Lemma p_sub j k : p (j - k) = p j / p k.
Proof. pose proof (p_add (j - k) k) as E. replace (j - k + k)%Z with j in E by lia. rewrite E. field. pose proof (p_pos k). lra. Qed.
Lemma div_scaled a b x y : 0 < a -> 0 < b -> a * x / (b * y) = a / b * (x / y).
Proof.
  intros Ha Hb. destruct (Req_dec y 0) as [->|Hy].
  - rewrite Rmult_0_r. unfold Rdiv. rewrite Rinv_0. ring.
  - field. lra.
Qed.
Lemma sqrt_scaled a x : 0 < a -> sqrt (a * a * x) = a * sqrt x.
Proof.
  intros Ha. destruct (Rle_dec 0 x) as [Hx|Hx].
  - rewrite sqrt_mult by nra. rewrite sqrt_square by lra. reflexivity.
  - rewrite (sqrt_neg x) by lra. rewrite sqrt_neg by nra. ring.
Qed.
Lemma rounded_units : Units RndOps in_units (fun _ => True) /\ UnitsRoot RndOps in_units /\ UnitsZero RndOps in_units /\ UnitsOrder RndOps in_units.
Proof.
  assert (EQ : forall k x, (if Req_EM_T (p k * x) 0 then true else false) = (if Req_EM_T x 0 then true else false)).
  { intros k x. pose proof (p_pos k). destruct (Req_EM_T (p k * x) 0), (Req_EM_T x 0); auto; exfalso; nra. }
  split; [|split; [|split]]; constructor; unfold in_units; cbn [zero one add sub mul div opp sqrt_ pow2 abs_ eqb ltb RndOps].
  - intros. ring.
  - rewrite p0. ring.
  - intros k x y x' y' -> ->. rewrite <- p_rnd. f_equal. ring.
  - intros k x y x' y' -> ->. rewrite <- p_rnd. f_equal. ring.
  - intros k x x' ->. ring.
  - intros j k x y x' y' -> ->. rewrite <- p_rnd, p_add. f_equal. ring.
  - intros j k x y x' y' -> -> _. rewrite <- p_rnd, p_sub. f_equal. now apply div_scaled.
  - intros k x x' ->. rewrite <- p_rnd. replace (2 * k)%Z with (k + k)%Z by lia. rewrite p_add. f_equal. ring.
  - intros k x x' ->. rewrite <- p_rnd. replace (2 * k)%Z with (k + k)%Z by lia. rewrite p_add. f_equal. now apply sqrt_scaled.
  - intros k x x' ->. rewrite Rabs_mult, (Rabs_pos_eq (p k)); [reflexivity|]. pose proof (p_pos k). lra.
  - intros k x x' ->. apply EQ.
  - intros j k x x' ->. destruct (Req_EM_T x 0) as [->|]; [|discriminate]. intros _. ring.
  - intros k x y x' y' -> ->. pose proof (p_pos k). destruct (Rlt_dec (p k * x) (p k * y)), (Rlt_dec x y); auto; exfalso; nra.
Qed.
End Rounded.

(** ** R, any ratio *)
Lemma powerRZ_pos c k : 0 < c -> 0 < powerRZ c k.
Proof. apply powerRZ_lt. Qed.
Lemma real_units c : 0 < c -> Units ROps (in_units (powerRZ c)) (fun _ => True) /\ UnitsRoot ROps (in_units (powerRZ c)) /\
  UnitsZero ROps (in_units (powerRZ c)) /\ UnitsOrder ROps (in_units (powerRZ c)).
Proof.
  intros Hc. apply (rounded_units (fun x => x) (powerRZ c)).
  - reflexivity.
  - intros j k. apply powerRZ_add. lra.
  - intros k. now apply powerRZ_pos.
  - reflexivity.
Qed.

(** ** Rounding to a given number of digits, the exponents being unbounded: powers of the radix *)
Lemma round_scaled (beta : radix) prec (Hp : (0 < prec)%Z) rnd (V : Valid_rnd rnd) k x :
  round beta (FLX_exp prec) rnd (bpow beta k * x) = bpow beta k * round beta (FLX_exp prec) rnd x.
Proof.
  destruct (Req_dec x 0) as [->|Hx]; [rewrite Rmult_0_r, round_0 by auto; ring|].
  unfold round, F2R, scaled_mantissa, cexp. cbn [Fnum Fexp]. rewrite (Rmult_comm (bpow beta k) x), mag_mult_bpow by exact Hx.
  unfold FLX_exp. replace (mag beta x + k - prec)%Z with ((mag beta x - prec) + k)%Z by lia.
  rewrite Rmult_assoc, <- bpow_plus. replace (k + - (mag beta x - prec + k))%Z with (- (mag beta x - prec))%Z by lia.
  rewrite bpow_plus. ring.
Qed.
Lemma rnd53_scaled k x : rnd53 (bpow radix2 k * x) = bpow radix2 k * rnd53 x.
Proof. apply round_scaled; [lia|apply valid_rnd_N]. Qed.
Lemma flx_units : Units FlxOps (in_units (bpow radix2)) (fun _ => True) /\ UnitsRoot FlxOps (in_units (bpow radix2)) /\
  UnitsZero FlxOps (in_units (bpow radix2)) /\ UnitsOrder FlxOps (in_units (bpow radix2)).
Proof.
  apply (rounded_units rnd53 (bpow radix2)).
  - reflexivity.
  - intros. apply bpow_plus.
  - intros. apply bpow_gt_0.
  - exact rnd53_scaled.
Qed.
(** The same for every radix, precision and rounding direction. *)
Lemma digits_units (beta : radix) prec (Hp : (0 < prec)%Z) rnd (V : Valid_rnd rnd) :
  Units (RndOps (round beta (FLX_exp prec) rnd)) (in_units (bpow beta)) (fun _ => True) /\
  UnitsRoot (RndOps (round beta (FLX_exp prec) rnd)) (in_units (bpow beta)) /\
  UnitsZero (RndOps (round beta (FLX_exp prec) rnd)) (in_units (bpow beta)) /\
  UnitsOrder (RndOps (round beta (FLX_exp prec) rnd)) (in_units (bpow beta)).
Proof.
  apply (rounded_units _ (bpow beta)).
  - reflexivity.
  - intros. apply bpow_plus.
  - intros. apply bpow_gt_0.
  - intros. now apply round_scaled.
Qed.

(** ** binary64 with a sticky flag for overflow and underflow *)
Local Notation float := Coq.Floats.PrimFloat.float.
Local Notation P2B := Flocq.IEEE754.PrimFloat.Prim2B.
Definition finb (x : float) : bool := Coq.Floats.PrimFloat.is_finite x.
(** Finite and not below 2^-1021. *)
Definition wellb (x : float) : bool := andb (finb x) (Coq.Floats.PrimFloat.leb 0x1p-1021%float (Coq.Floats.PrimFloat.abs x)).
Definition zerob (x : float) : bool := Coq.Floats.PrimFloat.eqb x 0%float.
Definition up1 (f : float -> float) (ok : float -> float -> bool) (a : float * bool) : float * bool :=
  let r := f (fst a) in (r, orb (snd a) (negb (ok (fst a) r))).
Definition up2 (f : float -> float -> float) (ok : float -> float -> float -> bool) (a b : float * bool) : float * bool :=
  let r := f (fst a) (fst b) in (r, orb (orb (snd a) (snd b)) (negb (ok (fst a) (fst b) r))).
(** The flag of a result is set if that of an operand is, if the result is not finite, or if it is
    the small or zero product or quotient of numbers other than zero. *)
Definition FlagOps : Ops (float * bool) := {|
  zero := (zero, false); one := (one, false);
  add := up2 add (fun _ _ r => finb r); sub := up2 sub (fun _ _ r => finb r);
  mul := up2 mul (fun x y r => orb (wellb r) (andb (finb r) (orb (zerob x) (zerob y))));
  div := up2 div (fun x y r => orb (wellb r) (andb (finb r) (zerob x)));
  opp := up1 opp (fun _ _ => true); sqrt_ := up1 sqrt_ (fun _ r => finb r);
  pow2 := up1 pow2 (fun x r => orb (wellb r) (andb (finb r) (zerob x)));
  abs_ := up1 abs_ (fun _ _ => true);
  eqb := fun a b => eqb (fst a) (fst b); ltb := fun a b => ltb (fst a) (fst b) |}.
Lemma flag_preserves : preserves FlagOps FOps fst.
Proof. repeat split. Qed.
(** Values without flags are finite and scaled exactly. *)
Definition flag_units (k : Z) (a b : float * bool) : Prop :=
  snd a = false -> snd b = false -> ffin (fst a) /\ ffin (fst b) /\ fval (fst b) = bpow radix2 k * fval (fst a).

Local Notation fmt64 := (generic_format radix2 (FLT_exp (-1074) 53)).
Lemma fval_fmt x : fmt64 (fval x).
Proof. rewrite fval_B. apply (generic_format_B2R FloatOps.prec FloatOps.emax). Qed.
Lemma rnd_B x : round radix2 (SpecFloat.fexp FloatOps.prec FloatOps.emax) (round_mode mode_NE) x = rnd64 x.
Proof. reflexivity. Qed.
Lemma P2B_nf (z : binary_float FloatOps.prec FloatOps.emax) s : B2SF z = binary_overflow FloatOps.prec FloatOps.emax mode_NE s -> is_finite z = false.
Proof. apply overflow_nf. Qed.

Lemma f_add x y : ffin (Coq.Floats.PrimFloat.add x y) -> ffin x -> ffin y -> fval (Coq.Floats.PrimFloat.add x y) = rnd64 (fval x + fval y).
Proof.
  rewrite !ffin_B, !fval_B, Flocq.IEEE754.PrimFloat.add_equiv. intros F Fx Fy.
  pose proof (Bplus_correct _ _ Flocq.IEEE754.PrimFloat.Hprec Flocq.IEEE754.PrimFloat.Hmax mode_NE (P2B x) (P2B y) Fx Fy) as C.
  rewrite rnd_B in C. destruct (Rlt_bool _ _); [now destruct C as (-> & _)|]. destruct C as (C & _). apply P2B_nf in C. congruence.
Qed.
Lemma f_sub x y : ffin (Coq.Floats.PrimFloat.sub x y) -> ffin x -> ffin y -> fval (Coq.Floats.PrimFloat.sub x y) = rnd64 (fval x - fval y).
Proof.
  rewrite !ffin_B, !fval_B, Flocq.IEEE754.PrimFloat.sub_equiv. intros F Fx Fy.
  pose proof (Bminus_correct _ _ Flocq.IEEE754.PrimFloat.Hprec Flocq.IEEE754.PrimFloat.Hmax mode_NE (P2B x) (P2B y) Fx Fy) as C.
  rewrite rnd_B in C. destruct (Rlt_bool _ _); [now destruct C as (-> & _)|]. destruct C as (C & _). apply P2B_nf in C. congruence.
Qed.
Lemma f_mul x y : ffin (Coq.Floats.PrimFloat.mul x y) -> fval (Coq.Floats.PrimFloat.mul x y) = rnd64 (fval x * fval y).
Proof.
  rewrite !ffin_B, !fval_B, Flocq.IEEE754.PrimFloat.mul_equiv. intros F.
  pose proof (Bmult_correct _ _ Flocq.IEEE754.PrimFloat.Hprec Flocq.IEEE754.PrimFloat.Hmax mode_NE (P2B x) (P2B y)) as C.
  rewrite rnd_B in C. destruct (Rlt_bool _ _); [now destruct C as (-> & _)|]. apply P2B_nf in C. congruence.
Qed.
Lemma f_div x y : ffin (Coq.Floats.PrimFloat.div x y) -> ffin y -> fval y <> 0 /\ fval (Coq.Floats.PrimFloat.div x y) = rnd64 (fval x / fval y).
Proof.
  rewrite !ffin_B, !fval_B, Flocq.IEEE754.PrimFloat.div_equiv. intros F Fy.
  destruct (div_fin _ _ _ _ _ _ F Fy) as [_ Ny]. split; [exact Ny|].
  pose proof (Bdiv_correct _ _ Flocq.IEEE754.PrimFloat.Hprec Flocq.IEEE754.PrimFloat.Hmax mode_NE (P2B x) (P2B y) Ny) as C.
  rewrite rnd_B in C. destruct (Rlt_bool _ _); [now destruct C as (-> & _)|]. apply P2B_nf in C. congruence.
Qed.
Lemma f_sqrt x : ffin (Coq.Floats.PrimFloat.sqrt x) -> ffin x -> 0 <= fval x /\ fval (Coq.Floats.PrimFloat.sqrt x) = rnd64 (sqrt (fval x)).
Proof.
  rewrite !ffin_B, !fval_B, Flocq.IEEE754.PrimFloat.sqrt_equiv. intros F Fx.
  destruct (Bsqrt_correct _ _ Flocq.IEEE754.PrimFloat.Hprec Flocq.IEEE754.PrimFloat.Hmax mode_NE (P2B x)) as (E & G & _). rewrite rnd_B in E.
  split; [|exact E]. rewrite G in F. destruct (P2B x) as [|[]| |[]]; try discriminate; cbn; try lra. apply F2R_ge_0. cbn. lia.
Qed.
Lemma fval_opp x : fval (Coq.Floats.PrimFloat.opp x) = - fval x.
Proof. rewrite !fval_B, Flocq.IEEE754.PrimFloat.opp_equiv. apply B2R_Bopp. Qed.
Lemma ffin_opp x : ffin (Coq.Floats.PrimFloat.opp x) <-> ffin x.
Proof. rewrite !ffin_B, Flocq.IEEE754.PrimFloat.opp_equiv, is_finite_Bopp. tauto. Qed.
Lemma fval_abs x : fval (Coq.Floats.PrimFloat.abs x) = Rabs (fval x).
Proof. rewrite !fval_B, Flocq.IEEE754.PrimFloat.abs_equiv. apply B2R_Babs. Qed.
Lemma ffin_abs x : ffin (Coq.Floats.PrimFloat.abs x) <-> ffin x.
Proof. rewrite !ffin_B, Flocq.IEEE754.PrimFloat.abs_equiv, is_finite_Babs. tauto. Qed.
Lemma zerob_val x : zerob x = true -> fval x = 0.
Proof.
  unfold zerob. rewrite Flocq.IEEE754.PrimFloat.eqb_equiv, fval_B. change (P2B 0%float) with (B754_zero false : binary_float FloatOps.prec FloatOps.emax).
  destruct (P2B x) as [|[]| |[]]; cbn; try discriminate; auto.
Qed.
Lemma min_val : fval 0x1p-1021%float = bpow radix2 (-1021).
Proof.
  unfold fval. replace (Prim2SF 0x1p-1021%float) with (S754_finite false 4503599627370496 (-1073)) by (vm_compute; reflexivity).
  cbn [SF2R cond_Zopp]. change (Z.pos 4503599627370496) with (2 ^ 52)%Z. unfold F2R. cbn [Fnum Fexp].
  change (2 ^ 52)%Z with (radix2 ^ 52)%Z. rewrite IZR_Zpower, <- bpow_plus by lia. reflexivity.
Qed.
Lemma wellb_val x : wellb x = true -> ffin x /\ bpow radix2 (-1021) <= Rabs (fval x).
Proof.
  unfold wellb. intros H. apply andb_prop in H as [F L]. split; [exact F|].
  rewrite <- min_val, <- fval_abs, !fval_B. rewrite Flocq.IEEE754.PrimFloat.leb_equiv in L.
  rewrite Bleb_correct in L.
  - revert L. case Rle_bool_spec; [auto|discriminate].
  - reflexivity.
  - apply ffin_B. now apply ffin_abs.
Qed.
(** Where the range of exponents does not matter. *)
Lemma rnd64_53 z : bpow radix2 (-1022) <= Rabs z -> rnd64 z = rnd53 z.
Proof. intros H. unfold rnd64, rnd53. apply round_FLT_FLX. exact H. Qed.
Lemma rnd64_well z : bpow radix2 (-1021) <= Rabs (rnd64 z) -> rnd64 z = rnd53 z.
Proof.
  intros H. apply rnd64_53. destruct (Rle_lt_dec (bpow radix2 (-1022)) (Rabs z)) as [C|C]; [exact C|exfalso].
  assert (K : Rabs (rnd64 z) <= bpow radix2 (-1022)).
  { apply abs_round_le_generic; [apply FLT_exp_valid; reflexivity|apply valid_rnd_N| |lra]. apply generic_format_bpow. vm_compute. discriminate. }
  assert (bpow radix2 (-1022) < bpow radix2 (-1021)) by (apply bpow_lt; lia). lra.
Qed.
Lemma rnd64_sum x y : fmt64 x -> fmt64 y -> rnd64 (x + y) = rnd53 (x + y).
Proof.
  intros Fx Fy. destruct (Rle_lt_dec (bpow radix2 (-1022)) (Rabs (x + y))) as [C|C]; [now apply rnd64_53|].
  assert (F : fmt64 (x + y)).
  { apply FLT_format_plus_small; auto; [reflexivity|]. apply Rle_trans with (bpow radix2 (-1022)); [lra|]. apply bpow_le. lia. }
  unfold rnd64, rnd53. rewrite round_generic; auto; [|apply valid_rnd_N]. symmetry. apply round_generic; [apply valid_rnd_N|].
  eapply generic_format_FLX_FLT. exact F.
Qed.
Lemma rnd64_sqrt x : fmt64 x -> 0 <= x -> rnd64 (sqrt x) = rnd53 (sqrt x).
Proof.
  intros F Hx. destruct (Req_dec x 0) as [->|N].
  - rewrite sqrt_0. unfold rnd64, rnd53. rewrite !round_0; auto; apply valid_rnd_N.
  - apply rnd64_53. rewrite Rabs_pos_eq by apply sqrt_pos.
    assert (M : bpow radix2 (-1074) <= x).
    { apply (generic_format_ge_bpow radix2 (FLT_exp (-1074) 53)); [|lra|exact F]. intros e. unfold FLT_exp. lia. }
    apply Rle_trans with (sqrt (bpow radix2 (-1074))); [|now apply sqrt_le_1_alt].
    replace (bpow radix2 (-1074)) with (bpow radix2 (-537) * bpow radix2 (-537)) by (rewrite <- bpow_plus; reflexivity).
    rewrite sqrt_square by apply bpow_ge_0. apply bpow_le. lia.
Qed.

(** Scaled operands give scaled results. *)
Lemma scale_add k x y : fmt64 x -> fmt64 y -> fmt64 (bpow radix2 k * x) -> fmt64 (bpow radix2 k * y) ->
  rnd64 (bpow radix2 k * x + bpow radix2 k * y) = bpow radix2 k * rnd64 (x + y).
Proof.
  intros. rewrite !rnd64_sum by auto. rewrite <- rnd53_scaled. f_equal. ring.
Qed.
Lemma fmt_opp x : fmt64 x -> fmt64 (- x).
Proof. apply generic_format_opp. Qed.
Lemma or_false a b : orb a b = false -> a = false /\ b = false.
Proof. destruct a, b; auto. Qed.

(** The flag of a product or quotient. *)
Lemma wf_cases r x0 : negb (orb (wellb r) (andb (finb r) x0)) = false -> ffin r /\ (bpow radix2 (-1021) <= Rabs (fval r) \/ x0 = true).
Proof.
  intros H. apply Bool.negb_false_iff, Bool.orb_true_iff in H as [H|H].
  - destruct (wellb_val r H) as [F B]. auto.
  - apply andb_prop in H as [F Z]. auto.
Qed.
Lemma rnd64_0 : rnd64 0 = 0.
Proof. unfold rnd64. apply round_0. apply valid_rnd_N. Qed.
Lemma pow_pos k : 0 < bpow radix2 k.
Proof. apply bpow_gt_0. Qed.
(** Both results were formed without underflow or are exact zeros. *)
Lemma scale_rnd k z z' r r' : r = rnd64 z -> r' = rnd64 z' -> z' = bpow radix2 k * z ->
  (bpow radix2 (-1021) <= Rabs r \/ z = 0) -> (bpow radix2 (-1021) <= Rabs r' \/ z' = 0) -> r' = bpow radix2 k * r.
Proof.
  intros -> -> E [H|H] [H'|H'].
  - rewrite (rnd64_well z H), (rnd64_well z' H'), E. apply rnd53_scaled.
  - assert (z = 0) as -> by (rewrite H' in E; pose proof (pow_pos k); nra). rewrite H', rnd64_0. ring.
  - rewrite E, H, Rmult_0_r, rnd64_0. ring.
  - rewrite H, H', rnd64_0. ring.
Qed.

Lemma flagged_units : Units FlagOps flag_units (fun _ => True) /\ UnitsRoot FlagOps flag_units.
Proof.
  assert (V0 : ffin 0%float /\ fval 0%float = 0) by (split; [reflexivity|unfold fval; cbn; reflexivity]).
  assert (V1 : ffin 1%float /\ fval 1%float = 1).
  { split; [reflexivity|]. rewrite fval_B. change 1%float with Coq.Floats.PrimFloat.one. rewrite Flocq.IEEE754.PrimFloat.one_equiv, Flocq.IEEE754.PrimFloat.Prim2B_B2Prim. apply Bone_correct. }
  assert (MUL : forall j k x y x' y', ffin x -> ffin x' -> fval x' = bpow radix2 j * fval x -> ffin y -> ffin y' -> fval y' = bpow radix2 k * fval y ->
    negb (orb (wellb (Coq.Floats.PrimFloat.mul x y)) (andb (finb (Coq.Floats.PrimFloat.mul x y)) (orb (zerob x) (zerob y)))) = false ->
    negb (orb (wellb (Coq.Floats.PrimFloat.mul x' y')) (andb (finb (Coq.Floats.PrimFloat.mul x' y')) (orb (zerob x') (zerob y')))) = false ->
    ffin (Coq.Floats.PrimFloat.mul x y) /\ ffin (Coq.Floats.PrimFloat.mul x' y') /\
    fval (Coq.Floats.PrimFloat.mul x' y') = bpow radix2 (j + k) * fval (Coq.Floats.PrimFloat.mul x y)).
  { intros j k x y x' y' _ _ Ex _ _ Ey H H'. apply wf_cases in H as [F H]. apply wf_cases in H' as [F' H'].
    split; [exact F|]. split; [exact F'|].
    assert (Z : forall a b, orb (zerob a) (zerob b) = true -> fval a * fval b = 0).
    { intros a b O. apply Bool.orb_true_iff in O as [O|O]; apply zerob_val in O; rewrite O; ring. }
    eapply scale_rnd; [now apply f_mul|now apply f_mul| | |].
    - rewrite Ex, Ey, bpow_plus. ring.
    - destruct H; auto.
    - destruct H'; auto. }
  split; constructor; unfold flag_units; cbn [zero one add sub mul div opp sqrt_ pow2 abs_ FlagOps FOps up1 up2 fst snd].
  - intros k _ _. destruct V0 as [F E]. split; [exact F|]. split; [exact F|]. change (fval 0) with (fval 0%float). rewrite E. ring.
  - intros _ _. destruct V1 as [F E]. split; [exact F|]. split; [exact F|]. rewrite E. cbn [bpow]. ring.
  - intros k [x a] [y b] [x' a'] [y' b'] Hx Hy. unfold up2; cbn [fst snd] in *. intros H H'.
    apply or_false in H as [H F]. apply or_false in H as [Ha Hb]. apply or_false in H' as [H' F']. apply or_false in H' as [Ha' Hb'].
    apply Bool.negb_false_iff in F, F'. destruct (Hx Ha Ha') as (X1 & X2 & X3). destruct (Hy Hb Hb') as (Y1 & Y2 & Y3).
    split; [exact F|]. split; [exact F'|]. rewrite !f_add by auto. rewrite X3, Y3. apply scale_add; rewrite <- ?X3, <- ?Y3; apply fval_fmt.
  - intros k [x a] [y b] [x' a'] [y' b'] Hx Hy. unfold up2; cbn [fst snd] in *. intros H H'.
    apply or_false in H as [H F]. apply or_false in H as [Ha Hb]. apply or_false in H' as [H' F']. apply or_false in H' as [Ha' Hb'].
    apply Bool.negb_false_iff in F, F'. destruct (Hx Ha Ha') as (X1 & X2 & X3). destruct (Hy Hb Hb') as (Y1 & Y2 & Y3).
    split; [exact F|]. split; [exact F'|]. rewrite !f_sub by auto. rewrite X3, Y3. unfold Rminus. rewrite Ropp_mult_distr_r.
    apply scale_add; [apply fval_fmt|apply fmt_opp, fval_fmt|rewrite <- X3; apply fval_fmt|].
    rewrite <- Ropp_mult_distr_r, <- Y3. apply fmt_opp, fval_fmt.
  - intros k [x a] [x' a'] Hx. unfold up1; cbn [fst snd] in *. rewrite !Bool.orb_false_r. intros H H'. destruct (Hx H H') as (X1 & X2 & X3).
    rewrite !ffin_opp, !fval_opp. split; [exact X1|]. split; [exact X2|]. rewrite X3. ring.
  - intros j k [x a] [y b] [x' a'] [y' b'] Hx Hy. unfold up2; cbn [fst snd] in *. intros H H'.
    apply or_false in H as [H F]. apply or_false in H as [Ha Hb]. apply or_false in H' as [H' F']. apply or_false in H' as [Ha' Hb'].
    destruct (Hx Ha Ha') as (X1 & X2 & X3). destruct (Hy Hb Hb') as (Y1 & Y2 & Y3). apply MUL; auto.
  - intros j k [x a] [y b] [x' a'] [y' b'] Hx Hy _. unfold up2; cbn [fst snd] in *. intros H H'.
    apply or_false in H as [H F]. apply or_false in H as [Ha Hb]. apply or_false in H' as [H' F']. apply or_false in H' as [Ha' Hb'].
    destruct (Hx Ha Ha') as (X1 & X2 & X3). destruct (Hy Hb Hb') as (Y1 & Y2 & Y3).
    apply wf_cases in F as [F C]. apply wf_cases in F' as [F' C']. split; [exact F|]. split; [exact F'|].
    destruct (f_div x y F Y1) as [Ny E]. destruct (f_div x' y' F' Y2) as [Ny' E'].
    assert (Z : forall a b, zerob a = true -> fval a / fval b = 0) by (intros a0 b0 O; apply zerob_val in O; rewrite O; unfold Rdiv; ring).
    eapply scale_rnd; [exact E|exact E'| | |].
    + rewrite X3, Y3. replace (bpow radix2 (j - k)) with (bpow radix2 j / bpow radix2 k).
      * apply div_scaled; apply pow_pos.
      * unfold Zminus. rewrite bpow_plus, bpow_opp. reflexivity.
    + destruct C; auto.
    + destruct C'; auto.
  - intros k [x a] [x' a'] Hx. unfold up1; cbn [fst snd] in *. intros H H'.
    apply or_false in H as [Ha F]. apply or_false in H' as [Ha' F']. destruct (Hx Ha Ha') as (X1 & X2 & X3).
    replace (2 * k)%Z with (k + k)%Z by lia. apply MUL; auto; now rewrite Bool.orb_diag.
  - intros k [x a] [x' a'] Hx. unfold up1; cbn [fst snd] in *. intros H H'.
    apply or_false in H as [Ha F]. apply or_false in H' as [Ha' F']. destruct (Hx Ha Ha') as (X1 & X2 & X3).
    apply Bool.negb_false_iff in F, F'. split; [exact F|]. split; [exact F'|].
    destruct (f_sqrt x F X1) as [P E]. destruct (f_sqrt x' F' X2) as [P' E']. rewrite E, E'.
    rewrite !rnd64_sqrt by (auto; apply fval_fmt). rewrite X3, <- rnd53_scaled. f_equal.
    replace (2 * k)%Z with (k + k)%Z by lia. rewrite bpow_plus. apply sqrt_scaled. apply pow_pos.
  - intros k [x a] [x' a'] Hx. unfold up1; cbn [fst snd] in *. rewrite !Bool.orb_false_r. intros H H'. destruct (Hx H H') as (X1 & X2 & X3).
    rewrite !ffin_abs, !fval_abs. split; [exact X1|]. split; [exact X2|]. rewrite X3, Rabs_mult, (Rabs_pos_eq (bpow radix2 k)); [reflexivity|].
    apply bpow_ge_0.
Qed.
