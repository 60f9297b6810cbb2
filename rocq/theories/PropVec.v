(** * Properties C01-C10: vectors *)
From Coq Require Import Reals Lra Ring Field Permutation Floats QArith Qcanon.
From Verif Require Import Base Scalar BaseLemmas Spec Sums RealVec Schedules ModelVec ProofVec
  ProofVecSched ProofVecProp.
Local Open Scope nat_scope.

Ltac from_post L :=
  let P := fresh in pose proof L as P; apply post_ok in P;
  let r := fresh "r" in let h' := fresh "h'" in let E := fresh "E" in let H := fresh "H" in
  destruct P as (r & h' & E & H); cbv beta in *.
Ltac done1 :=
  match goal with
  | H : _ = _ /\ _ |- _ =>
      let H1 := fresh in let H2 := fresh in destruct H as [-> (H1 & H2 & _)];
      eexists; split; [eassumption|]; split; [exact H1|exact H2]
  end.
Ltac donef :=
  match goal with
  | H : fresh1 _ _ _ _ _ |- _ =>
      let H1 := fresh in let H2 := fresh in destruct H as (-> & H1 & H2 & _);
      eexists; split; [eassumption|]; split; [exact H1|exact H2]
  | H : fresh2 _ _ _ _ _ _ |- _ =>
      let H1 := fresh in let H2 := fresh in destruct H as (-> & H1 & H2 & _);
      eexists; split; [eassumption|]; split; [exact H1|exact H2]
  end.

(** A concrete heap used to show that the hypotheses can be met: three vectors of length 3. *)
Definition ex_heap : heap Z := heap_of [[1; 2; 3]%Z; [10; 20; 30]%Z; [7; 7; 7]%Z].

(** ** C01: element-wise operations, any scalar type, any aliasing (the pointers are arbitrary,
    so equal ones are included) *)

Theorem C01_neg_dyn : forall T (O : Ops T) v vr (h : heap T),
  fits_u32 (len h v) = true -> len h v = len h vr ->
  exists h', neg_d v vr h = Ok vr h' /\ mem h' vr = map opp (mem h v) /\ unchanged_except [vr] h h'.
Proof. intros. from_post (neg_d_ok v vr h ltac:(auto) ltac:(auto)). done1. Qed.

Theorem C01_neg_static : forall T (O : Ops T) N v vr (h : heap T),
  fits_u32 N = true -> len h v = N -> len h vr = N ->
  exists h', neg_s N v vr h = Ok vr h' /\ mem h' vr = map opp (mem h v) /\ unchanged_except [vr] h h'.
Proof. intros. from_post (neg_s_ok N v vr h ltac:(auto) ltac:(auto) ltac:(auto)). done1. Qed.

Theorem C01_add_dyn : forall T (O : Ops T) v1 v2 vr (h : heap T),
  fits_u32 (len h v1) = true -> len h v1 = len h v2 -> len h vr = len h v1 ->
  exists h', add_d v1 v2 vr h = Ok vr h' /\ mem h' vr = map2 add (mem h v1) (mem h v2) /\
             unchanged_except [vr] h h'.
Proof. intros. from_post (add_d_ok v1 v2 vr h ltac:(auto) ltac:(auto) ltac:(auto)). done1. Qed.

Theorem C01_sub_dyn : forall T (O : Ops T) v1 v2 vr (h : heap T),
  fits_u32 (len h v1) = true -> len h v1 = len h v2 -> len h vr = len h v1 ->
  exists h', sub_d v1 v2 vr h = Ok vr h' /\ mem h' vr = map2 sub (mem h v1) (mem h v2) /\
             unchanged_except [vr] h h'.
Proof. intros. from_post (sub_d_ok v1 v2 vr h ltac:(auto) ltac:(auto) ltac:(auto)). done1. Qed.

Theorem C01_add_static : forall T (O : Ops T) N v1 v2 vr (h : heap T),
  fits_u32 N = true -> len h v1 = N -> len h v2 = N -> len h vr = N ->
  exists h', add_s N v1 v2 vr h = Ok vr h' /\ mem h' vr = map2 add (mem h v1) (mem h v2) /\
             unchanged_except [vr] h h'.
Proof. intros. from_post (add_s_ok N v1 v2 vr h ltac:(auto) ltac:(auto) ltac:(auto) ltac:(auto)). done1. Qed.

Theorem C01_sub_static : forall T (O : Ops T) N v1 v2 vr (h : heap T),
  fits_u32 N = true -> len h v1 = N -> len h v2 = N -> len h vr = N ->
  exists h', sub_s N v1 v2 vr h = Ok vr h' /\ mem h' vr = map2 sub (mem h v1) (mem h v2) /\
             unchanged_except [vr] h h'.
Proof. intros. from_post (sub_s_ok N v1 v2 vr h ltac:(auto) ltac:(auto) ltac:(auto) ltac:(auto)). done1. Qed.

(** Mixed static / dynamic overloads. *)
Theorem C01_mixed : forall T (O : Ops T) N v1 v2 vr (h : heap T),
  fits_u32 N = true -> len h v1 = N -> len h v2 = N -> len h vr = N ->
  (exists h', add_sd N v1 v2 vr h = Ok vr h' /\ mem h' vr = map2 add (mem h v1) (mem h v2) /\
              unchanged_except [vr] h h') /\
  (exists h', add_ds N v1 v2 vr h = Ok vr h' /\ mem h' vr = map2 add (mem h v1) (mem h v2) /\
              unchanged_except [vr] h h') /\
  (exists h', sub_ds N v1 v2 vr h = Ok vr h' /\ mem h' vr = map2 sub (mem h v1) (mem h v2) /\
              unchanged_except [vr] h h').
Proof.
  intros. split; [|split].
  - from_post (add_sd_ok N v1 v2 vr h ltac:(auto) ltac:(auto) ltac:(auto) ltac:(auto)). done1.
  - from_post (add_ds_ok N v1 v2 vr h ltac:(auto) ltac:(auto) ltac:(auto) ltac:(auto)). done1.
  - from_post (sub_ds_ok N v1 v2 vr h ltac:(auto) ltac:(auto) ltac:(auto) ltac:(auto)). done1.
Qed.

Theorem C01_axpy_dyn : forall T (O : Ops T) alpha x y (h : heap T),
  fits_u32 (len h x) = true -> len h x = len h y ->
  exists h', axpy_d alpha x y h = Ok y h' /\
    mem h' y = map2 (fun a b => add (mul alpha a) b) (mem h x) (mem h y) /\ unchanged_except [y] h h'.
Proof. intros. from_post (axpy_d_ok alpha x y h ltac:(auto) ltac:(auto)). done1. Qed.

Theorem C01_axpy_static : forall T (O : Ops T) N alpha x y (h : heap T),
  fits_u32 N = true -> len h x = N -> len h y = N ->
  exists h', axpy_s N alpha x y h = Ok y h' /\
    mem h' y = map2 (fun a b => add (mul alpha a) b) (mem h x) (mem h y) /\ unchanged_except [y] h h'.
Proof. intros. from_post (axpy_s_ok N alpha x y h ltac:(auto) ltac:(auto) ltac:(auto)). done1. Qed.

Theorem C01_scale_dyn : forall T (O : Ops T) alpha x (h : heap T),
  fits_u32 (len h x) = true ->
  exists h', scale_d alpha x h = Ok x h' /\ mem h' x = map (mul alpha) (mem h x) /\
             unchanged_except [x] h h'.
Proof. intros. from_post (scale_d_ok alpha x h ltac:(auto)). done1. Qed.

Theorem C01_scale_static : forall T (O : Ops T) N alpha x (h : heap T),
  fits_u32 N = true -> len h x = N ->
  exists h', scale_s N alpha x h = Ok x h' /\ mem h' x = map (mul alpha) (mem h x) /\
             unchanged_except [x] h h'.
Proof. intros. from_post (scale_s_ok N alpha x h ltac:(auto) ltac:(auto)). done1. Qed.

(** Operators: a fresh object, everything alive before is untouched. *)
Theorem C01_operators_dyn : forall T (O : Ops T) v1 v2 alpha (h : heap T),
  v1 < next h -> v2 < next h -> fits_u32 (len h v1) = true -> len h v1 = len h v2 ->
  (exists h', op_neg_d v1 h = Ok (next h) h' /\ mem h' (next h) = map opp (mem h v1) /\
              unchanged_except [next h] h h') /\
  (exists h', op_add_d v1 v2 h = Ok (next h) h' /\ mem h' (next h) = map2 add (mem h v1) (mem h v2) /\
              unchanged_except [next h] h h') /\
  (exists h', op_sub_d v1 v2 h = Ok (next h) h' /\ mem h' (next h) = map2 sub (mem h v1) (mem h v2) /\
              unchanged_except [next h] h h') /\
  (exists h', op_scale_d alpha v1 h = Ok (next h) h' /\ mem h' (next h) = map (mul alpha) (mem h v1) /\
              unchanged_except [next h] h h') /\
  (exists h', scaled_d alpha v1 h = Ok (next h) h' /\ mem h' (next h) = map (mul alpha) (mem h v1) /\
              unchanged_except [next h] h h').
Proof.
  intros. repeat split.
  - from_post (op_neg_d_ok v1 h ltac:(auto) ltac:(auto)). donef.
  - from_post (op_add_d_ok v1 v2 h ltac:(auto) ltac:(auto) ltac:(auto) ltac:(auto)). donef.
  - from_post (op_sub_d_ok v1 v2 h ltac:(auto) ltac:(auto) ltac:(auto) ltac:(auto)). donef.
  - from_post (op_scale_d_ok alpha v1 h ltac:(auto) ltac:(auto)). donef.
  - from_post (scaled_d_ok alpha v1 h ltac:(auto) ltac:(auto)). donef.
Qed.

Theorem C01_operators_static : forall T (O : Ops T) N v1 v2 alpha (h : heap T),
  v1 < next h -> v2 < next h -> fits_u32 N = true -> len h v1 = N -> len h v2 = N ->
  (exists h', op_neg_s N v1 h = Ok (next h) h' /\ mem h' (next h) = map opp (mem h v1) /\
              unchanged_except [next h] h h') /\
  (exists h', op_add_s N v1 v2 h = Ok (next h) h' /\ mem h' (next h) = map2 add (mem h v1) (mem h v2) /\
              unchanged_except [next h] h h') /\
  (exists h', op_sub_s N v1 v2 h = Ok (next h) h' /\ mem h' (next h) = map2 sub (mem h v1) (mem h v2) /\
              unchanged_except [next h] h h') /\
  (exists h', op_scale_s N alpha v1 h = Ok (next h) h' /\ mem h' (next h) = map (mul alpha) (mem h v1) /\
              unchanged_except [next h] h h') /\
  (exists h', scaled_s N alpha v1 h = Ok (next h) h' /\ mem h' (next h) = map (mul alpha) (mem h v1) /\
              unchanged_except [next h] h h').
Proof.
  intros. repeat split.
  - from_post (op_neg_s_ok N v1 h ltac:(auto) ltac:(auto) ltac:(auto)). donef.
  - from_post (op_add_s_ok N v1 v2 h ltac:(auto) ltac:(auto) ltac:(auto) ltac:(auto) ltac:(auto)). donef.
  - from_post (op_sub_s_ok N v1 v2 h ltac:(auto) ltac:(auto) ltac:(auto) ltac:(auto) ltac:(auto)). donef.
  - from_post (op_scale_s_ok N alpha v1 h ltac:(auto) ltac:(auto) ltac:(auto)). donef.
  - from_post (scaled_s_ok N alpha v1 h ltac:(auto) ltac:(auto) ltac:(auto)). donef.
Qed.

(** Non-vacuity: the hypotheses hold for [ex_heap], in place ([vr = v1 = v2 = 0]) too. *)
Example C01_nonvacuous :
  fits_u32 (len ex_heap 0) = true /\ len ex_heap 0 = len ex_heap 1 /\ len ex_heap 2 = len ex_heap 0 /\
  (exists h', add_d 0 0 0 ex_heap = Ok 0 h' /\ mem h' 0 = [2; 4; 6]%Z /\ mem h' 1 = [10; 20; 30]%Z).
Proof. repeat split. eexists; repeat split; vm_compute; reflexivity. Qed.

(** ** C02: every schedule of the iterations *)

Theorem C02_add : forall T (O : Ops T) v1 v2 vr n (h : heap T),
  fits_u32 n = true -> n <= len h v1 -> n <= len h v2 -> n <= len h vr ->
  exists h', add_core v1 v2 vr n h = Ok vr h' /\ all_schedules_agree n (add_acts v1 v2 vr) h h'.
Proof. intros. apply add_schedules; auto. Qed.

Theorem C02_sub : forall T (O : Ops T) v1 v2 vr n (h : heap T),
  fits_u32 n = true -> n <= len h v1 -> n <= len h v2 -> n <= len h vr ->
  exists h', sub_core v1 v2 vr n h = Ok vr h' /\ all_schedules_agree n (sub_acts v1 v2 vr) h h'.
Proof. intros. apply sub_schedules; auto. Qed.

Theorem C02_neg : forall T (O : Ops T) v vr n (h : heap T),
  fits_u32 n = true -> n <= len h v -> n <= len h vr ->
  exists h', neg_core_simd v vr n h = Ok vr h' /\ all_schedules_agree n (neg_acts v vr) h h'.
Proof. intros. apply neg_schedules; auto. Qed.

Theorem C02_axpy : forall T (O : Ops T) alpha x y n (h : heap T),
  fits_u32 n = true -> n <= len h x -> n <= len h y ->
  exists h', axpy_core alpha x y n h = Ok y h' /\ all_schedules_agree n (axpy_acts alpha x y) h h'.
Proof. intros. apply axpy_schedules; auto. Qed.

Theorem C02_scal : forall T (O : Ops T) alpha x n (h : heap T),
  fits_u32 n = true -> n <= len h x ->
  exists h', scal_core alpha x n h = Ok x h' /\ all_schedules_agree n (scal_acts alpha x) h h'.
Proof. intros. apply scal_schedules; auto. Qed.

(** Non-vacuity: there is a schedule in which the two iterations of an in-place addition overlap
    (both load before either stores), and it ends with the sequential result. *)
Example C02_nonvacuous :
  exists pool h', steps 2 6 (start (add_acts (T := Z) 0 1 0) (heap_of [[1; 2]%Z; [10; 20]%Z]))
                        (Running h' pool) /\ complete 2 pool /\ mem h' 0 = [11; 22]%Z.
Proof.
  do 2 eexists. split.
  - eapply StS. eapply StS. eapply StS. eapply StS. eapply StS. eapply StS. apply St0.
    + eapply (SLoad 2 _ _ 1); [lia|reflexivity|vm_compute; lia].
    + eapply (SLoad 2 _ _ 0); [lia|reflexivity|vm_compute; lia].
    + eapply (SLoad 2 _ _ 0); [lia|reflexivity|vm_compute; lia].
    + eapply (SLoad 2 _ _ 1); [lia|reflexivity|vm_compute; lia].
    + eapply (SStore 2 _ _ 1); [lia|reflexivity|vm_compute; lia].
    + eapply (SStore 2 _ _ 0); [lia|reflexivity|vm_compute; lia].
  - split.
    + intros k Hk. destruct k as [|[|k]]; [reflexivity|reflexivity|lia].
    + reflexivity.
Qed.

(** ** C03: size mismatches are reported and nothing is modified *)

Theorem C03_mismatch : forall T (O : Ops T) v1 v2 vr (h : heap T),
  len h v1 <> len h v2 ->
  add_d v1 v2 vr h = Throw (SizeMismatched (len h v1) (len h v2)) h /\
  sub_d v1 v2 vr h = Throw (SizeMismatched (len h v1) (len h v2)) h /\
  dot_member_d v1 v2 h = Throw (SizeMismatched (len h v1) (len h v2)) h.
Proof.
  intros. repeat split; [apply add_d_mismatch|apply sub_d_mismatch|apply dot_member_d_mismatch]; auto.
Qed.

Theorem C03_operators : forall T (O : Ops T) v1 v2 (h : heap T),
  v1 < next h -> v2 < next h -> len h v1 <> len h v2 ->
  (exists h', op_add_d v1 v2 h = Throw (SizeMismatched (len h v1) (len h v2)) h' /\
              forall q, q < next h -> mem h' q = mem h q) /\
  (exists h', op_sub_d v1 v2 h = Throw (SizeMismatched (len h v1) (len h v2)) h' /\
              forall q, q < next h -> mem h' q = mem h q).
Proof. intros. split; [apply op_add_d_mismatch|apply op_sub_d_mismatch]; auto. Qed.

Theorem C03_mixed : forall T (O : Ops T) N v1 v2 vr (h : heap T),
  (N <> len h v2 -> add_sd N v1 v2 vr h = Throw (SizeMismatched N (len h v2)) h) /\
  (len h v1 <> N -> add_ds N v1 v2 vr h = Throw (SizeMismatched (len h v1) N) h /\
                    sub_ds N v1 v2 vr h = Throw (SizeMismatched (len h v1) N) h /\
                    dot_member_ds N v1 v2 h = Throw (SizeMismatched (len h v1) N) h).
Proof.
  intros. repeat split; intros;
    [apply add_sd_mismatch|apply add_ds_mismatch|apply sub_ds_mismatch|apply dot_member_ds_mismatch]; auto.
Qed.

(** "Exactly when": with equal lengths nothing is thrown (C01/C05 say what happens instead;
    here for every destination, also too short ones). *)
Theorem C03_exactly : forall T (O : Ops T) v1 v2 vr (h : heap T) e h',
  fits_u32 (len h v1) = true ->
  add_d v1 v2 vr h = Throw e h' \/ sub_d v1 v2 vr h = Throw e h' \/
  dot_member_d v1 v2 h = Throw e h' ->
  len h v1 <> len h v2 /\ e = SizeMismatched (len h v1) (len h v2) /\ h' = h.
Proof.
  intros T O v1 v2 vr h e h' Hf H.
  destruct (Nat.eq_dec (len h v1) (len h v2)) as [E|E].
  - exfalso. destruct (Nat.lt_ge_cases (len h vr) (len h v1)) as [Hs|Hs].
    + destruct H as [H|[H|H]].
      * rewrite add_d_short in H by auto. discriminate.
      * rewrite sub_d_short in H by auto. discriminate.
      * destruct (Nat.eq_dec (len h v1) 0) as [E0|E0]; [lia|].
        rewrite dot_member_d_ok in H by (auto; lia). discriminate.
    + destruct H as [H|[H|H]].
      * pose proof (add_d_long v1 v2 vr h Hf E Hs) as P. unfold post in P. now rewrite H in P.
      * pose proof (sub_d_long v1 v2 vr h Hf E Hs) as P. unfold post in P. now rewrite H in P.
      * destruct (Nat.eq_dec (len h v1) 0) as [E0|E0].
        -- destruct (dot_empty_ub v1 v2 h ltac:(auto) ltac:(lia)) as (_ & Hd & _). congruence.
        -- rewrite dot_member_d_ok in H by (auto; lia). discriminate.
  - destruct (C03_mismatch T O v1 v2 vr h E) as (H1 & H2 & H3).
    destruct H as [H|[H|H]]; rewrite ?H1, ?H2, ?H3 in H; inversion H; subst; auto.
Qed.

Example C03_nonvacuous : exists h : heap Z, len h 0 <> len h 1 /\ 0 < next h /\ 1 < next h.
Proof. exists (heap_of [[1]%Z; [1; 2]%Z]). vm_compute. repeat split; lia. Qed.

(** ** C04: refuted — the exception cannot be caught, the program is terminated *)

Theorem C04_mismatch_terminates : forall T (O : Ops T) alpha v vr (h : heap T),
  len h v <> len h vr ->
  neg_d v vr h = Terminate /\ axpy_d alpha v vr h = Terminate /\ dot_d v vr h = Terminate.
Proof.
  intros. repeat split; [apply neg_d_mismatch|apply axpy_d_mismatch|apply dot_d_mismatch]; auto.
Qed.

Theorem C04_refuted :
  exists (h : heap Z) v vr, len h v <> len h vr /\
    (forall e h', neg_d v vr h <> Throw e h') /\
    (forall e h', axpy_d 1%Z v vr h <> Throw e h') /\
    (forall e h', dot_d v vr h <> Throw e h').
Proof.
  exists (heap_of [[1]%Z; [1; 2]%Z]), 0, 1. split; [vm_compute; lia|].
  assert (H : len (heap_of [[1]%Z; [1; 2]%Z]) 0 <> len (heap_of [[1]%Z; [1; 2]%Z]) 1) by (vm_compute; lia).
  destruct (C04_mismatch_terminates Z ZOps 1%Z 0 1 _ H) as (H1 & H2 & H3).
  repeat split; intros; congruence.
Qed.

(** ** C05: dot *)

(** Any scalar type: the exact expression, evaluated from the left. *)
Theorem C05_dot_exact_order : forall T (O : Ops T) x y (h : heap T),
  fits_u32 (len h x) = true -> 0 < len h x -> len h x = len h y ->
  dot_d x y h = Ok (lsum (fun i => mul (rd h x i) (rd h y i)) (len h x - 1)) h /\
  dot_member_d x y h = Ok (lsum (fun i => mul (rd h x i) (rd h y i)) (len h x - 1)) h.
Proof. intros. split; [apply dot_d_ok|apply dot_member_d_ok]; auto. Qed.

Theorem C05_dot : forall T (O : Ops T) (R : IsRing T O) x y (h : heap T),
  fits_u32 (len h x) = true -> 0 < len h x -> len h x = len h y ->
  dot_d x y h = Ok (dotp (len h x) (vec_of (mem h x)) (vec_of (mem h y))) h /\
  dot_member_d x y h = Ok (dotp (len h x) (vec_of (mem h x)) (vec_of (mem h y))) h.
Proof.
  intros. destruct (C05_dot_exact_order T O x y h) as (H3 & H4); auto.
  rewrite lsum_is_bsum in H3, H4 by auto. auto.
Qed.

Theorem C05_dot_static : forall T (O : Ops T) (R : IsRing T O) N x y (h : heap T),
  fits_u32 N = true -> 0 < N -> len h x = N -> len h y = N ->
  dot_s N x y h = Ok (dotp N (vec_of (mem h x)) (vec_of (mem h y))) h /\
  dot_member_ds N x y h = Ok (dotp N (vec_of (mem h x)) (vec_of (mem h y))) h /\
  dot_sd N x y h = Ok (dotp N (vec_of (mem h x)) (vec_of (mem h y))) h.
Proof.
  intros. assert (E : dot_s N x y h = Ok (dotp N (vec_of (mem h x)) (vec_of (mem h y))) h).
  { rewrite dot_s_ok, lsum_is_bsum by auto. reflexivity. }
  split; [exact E|]. split; [|exact E].
  rewrite dot_member_ds_ok, lsum_is_bsum by auto. reflexivity.
Qed.

(** Any evaluation tree over the products (plus the zeros lanes start from), in any order. *)
Theorem C05_any_reduction_order : forall T (O : Ops T) (R : IsRing T O) x y (h : heap T) t k,
  fits_u32 (len h x) = true -> 0 < len h x -> len h x = len h y ->
  Permutation (leaves t)
    (map (fun i => mul (vec_of (mem h x) i) (vec_of (mem h y) i)) (seq 0 (len h x)) ++ repeat zero k) ->
  dot_d x y h = Ok (reval t) h.
Proof.
  intros. rewrite (reduction_dot (len h x) (vec_of (mem h x)) (vec_of (mem h y)) k t) by auto.
  apply C05_dot; auto.
Qed.

Theorem C05_symmetric : forall T (O : Ops T) (R : IsRing T O) x y (h : heap T),
  fits_u32 (len h x) = true -> 0 < len h x -> len h x = len h y ->
  dot_d x y h = dot_d y x h.
Proof.
  intros T O R x y h Hf Hp Hl. destruct (C05_dot T O R x y h Hf Hp Hl) as [-> _].
  destruct (C05_dot T O R y x h ltac:(rewrite <- Hl; auto) ltac:(rewrite <- Hl; auto) ltac:(auto)) as [-> _]. rewrite Hl.
  f_equal. apply dotp_comm.
Qed.

(** If z was computed as alpha*x + y then dot z w = alpha * dot x w + dot y w. *)
Theorem C05_bilinear : forall T (O : Ops T) (R : IsRing T O) alpha x y z w (h : heap T),
  fits_u32 (len h x) = true -> 0 < len h x -> len h x = len h y -> len h x = len h w ->
  mem h z = map2 (fun a b => add (mul alpha a) b) (mem h x) (mem h y) ->
  exists a b, dot_d x w h = Ok a h /\ dot_d y w h = Ok b h /\
              dot_d z w h = Ok (add (mul alpha a) b) h.
Proof.
  intros T O R alpha x y z w h Hf Hp Hy Hw Hz.
  assert (Lz : len h z = len h x) by (unfold len in *; rewrite Hz, map2_length; auto).
  do 2 eexists. split; [apply C05_dot; auto|]. split; [apply C05_dot; auto; try (rewrite <- Hy; auto)|].
  destruct (C05_dot T O R z w h ltac:(rewrite Lz; auto) ltac:(rewrite Lz; auto) ltac:(rewrite Lz; auto)) as [-> _].
  rewrite Lz, <- Hy. f_equal. unfold dotp. rewrite <- bsum_scal_l, <- bsum_add.
  apply bsum_ext. intros i Hi. rewrite Hz.
  rewrite vec_of_map2 by (unfold len in *; auto).
  set (X := vec_of (mem h x) i). set (Y := vec_of (mem h y) i). set (W := vec_of (mem h w) i).
  rewrite (Rdistr_l (ring_th (IsRing := R))), (Rmul_assoc (ring_th (IsRing := R))). reflexivity.
Qed.

Theorem C05_positive : forall x (h : heap R),
  fits_u32 (len h x) = true -> 0 < len h x ->
  exists a, dot_d x x h = Ok a h /\ (0 <= a)%R.
Proof.
  intros. eexists. split; [apply C05_dot; auto; apply field_is_ring, R_field|]. apply dotp_self_nonneg.
Qed.

Example C05_nonvacuous : dot_d 0 1 ex_heap = Ok 140%Z ex_heap.
Proof. reflexivity. Qed.
Example C05_order_nonvacuous :
  let t := (Node (Node (Leaf 60) (Leaf 0)) (Node (Leaf 90) (Node (Leaf 0) (Leaf (-10)))))%Z in
  Permutation (leaves t) ([-10; 60; 90] ++ repeat 0 2)%Z /\ reval (O := ZOps) t = 140%Z.
Proof.
  split; [|reflexivity]. apply Permutation_sym. cbn.
  apply Permutation_cons_app with (l1 := [60; 0; 90; 0]%Z) (l2 := []). cbn.
  apply perm_skip. apply Permutation_cons_app with (l1 := [0]%Z) (l2 := [0]%Z). reflexivity.
Qed.

(** ** C06: refuted — dot of two empty vectors reads out of bounds *)
Theorem C06_dot_empty_is_ub : forall T (O : Ops T) x y (h : heap T),
  len h x = 0 -> len h y = 0 ->
  dot_d x y h = UB /\ dot_member_d x y h = UB /\ dot_s 0 x y h = UB /\
  dot_sd 0 x y h = UB /\ dot_member_ds 0 x y h = UB.
Proof. intros. apply dot_empty_ub; auto. Qed.

Theorem C06_refuted : exists (h : heap Z) x y,
  len h x = 0 /\ len h y = 0 /\ dot_member_d x y h <> Ok 0%Z h.
Proof. exists (heap_of []), 0, 1. repeat split. discriminate. Qed.

(** ** C07: norm2 over the reals *)
Theorem C07_norm2 : forall x (h : heap R),
  fits_u32 (len h x) = true ->
  exists r, norm2_d x h = Ok r h /\ (0 <= r)%R /\
    (r * r)%R = dotp (len h x) (vec_of (mem h x)) (vec_of (mem h x)) /\
    (len h x = 0 -> r = 0%R) /\
    (r = 0%R <-> forall i, i < len h x -> nth i (mem h x) 0%R = 0%R).
Proof.
  intros x h Hf. exists (nrm (len h x) (vec_of (mem h x))). split; [apply norm2_d_R; auto|].
  split; [apply nrm_nonneg|]. split; [apply nrm_sqr|]. split; [|apply nrm_zero_iff].
  intros E. apply nrm_zero_iff. intros; lia.
Qed.

Theorem C07_norm2_static : forall N x (h : heap R),
  fits_u32 N = true -> len h x = N -> norm2_s N x h = norm2_d x h.
Proof.
  intros N x h Hf Hl. rewrite norm2_s_ok by auto. rewrite norm2_d_ok by (rewrite Hl; auto).
  now rewrite Hl.
Qed.

Theorem C07_any_reduction_order : forall x (h : heap R) t k,
  fits_u32 (len h x) = true ->
  Permutation (leaves t)
    (map (fun i => mul (vec_of (mem h x) i) (vec_of (mem h x) i)) (seq 0 (len h x)) ++ repeat zero k) ->
  norm2_d x h = Ok (R_sqrt.sqrt (reval t)) h.
Proof.
  intros x h t k Hf HP. rewrite (reduction_dot _ (vec_of (mem h x)) (vec_of (mem h x)) k t HP).
  apply norm2_d_R; auto.
Qed.

(** Laws between the values returned by the API, on one heap. *)
Theorem C07_laws : forall x y z w alpha (h : heap R),
  fits_u32 (len h x) = true -> 0 < len h x -> len h x = len h y ->
  mem h z = map (mul alpha) (mem h x) -> mem h w = map2 add (mem h x) (mem h y) ->
  exists nx ny nz nw d,
    norm2_d x h = Ok nx h /\ norm2_d y h = Ok ny h /\ norm2_d z h = Ok nz h /\ norm2_d w h = Ok nw h /\
    dot_d x y h = Ok d h /\
    nz = (Rabs alpha * nx)%R /\ (Rabs d <= nx * ny)%R /\ (nw <= nx + ny)%R.
Proof.
  intros x y z w alpha h Hf Hp Hy Hz Hw.
  assert (Lz : len h z = len h x) by (unfold len; now rewrite Hz, map_length).
  assert (Lw : len h w = len h x) by (unfold len in *; now rewrite Hw, map2_length).
  exists (nrm (len h x) (vec_of (mem h x))), (nrm (len h x) (vec_of (mem h y))),
    (nrm (len h x) (vec_of (mem h z))), (nrm (len h x) (vec_of (mem h w))),
    (dotp (len h x) (vec_of (mem h x)) (vec_of (mem h y))).
  split; [apply norm2_d_R; auto|]. split; [rewrite Hy; apply norm2_d_R; rewrite <- Hy; auto|].
  split; [rewrite <- Lz; apply norm2_d_R; rewrite Lz; auto|].
  split; [rewrite <- Lw; apply norm2_d_R; rewrite Lw; auto|].
  split; [apply C05_dot; auto; apply field_is_ring, R_field|].
  split; [|split].
  - rewrite <- nrm_scal. apply nrm_ext. intros i Hi. rewrite Hz. unfold vec_of.
    exact (nth_map' (mul alpha) (mem h x) i zero zero Hi).
  - apply cauchy_schwarz.
  - eapply Rle_trans; [|apply nrm_triangle]. right. apply nrm_ext. intros i Hi. rewrite Hw.
    exact (vec_of_map2 add (mem h x) (mem h y) i Hi Hy).
Qed.

Example C07_nonvacuous : exists h : heap R, fits_u32 (len h 0) = true /\ 0 < len h 0 /\
  len h 0 = len h 1 /\ mem h 2 = map (mul 2%R) (mem h 0) /\ mem h 3 = map2 add (mem h 0) (mem h 1) /\
  norm2_d 0 h = Ok 5%R h.
Proof.
  exists (heap_of [[3; 4]; [1; 0]; [2 * 3; 2 * 4]; [3 + 1; 4 + 0]])%R.
  split; [reflexivity|]. split; [unfold len; cbn; lia|]. split; [reflexivity|]. split; [reflexivity|].
  split; [reflexivity|]. rewrite norm2_d_R by reflexivity. unfold nrm, dotp, vec_of, len. cbn. f_equal.
  replace (0 + 3 * 3 + 4 * 4)%R with (5 * 5)%R by ring. apply sqrt_square. lra.
Qed.

(** ** C08: cross products *)
Theorem C08_cross3 : forall T (O : Ops T) dbg dx dy dr x y vr (h : heap T),
  len h x = 3 -> len h y = 3 -> len h vr = 3 ->
  exists h', cross3 dbg dx dy dr x y vr h = Ok vr h' /\
    mem h' vr = [ sub (mul (rd h x 1) (rd h y 2)) (mul (rd h y 1) (rd h x 2));
                  sub (mul (rd h x 2) (rd h y 0)) (mul (rd h y 2) (rd h x 0));
                  sub (mul (rd h x 0) (rd h y 1)) (mul (rd h y 0) (rd h x 1)) ] /\
    unchanged_except [vr] h h'.
Proof. intros. from_post (cross3_ok dbg dx dy dr x y vr h ltac:(auto) ltac:(auto) ltac:(auto)). done1. Qed.

Theorem C08_cross3_fresh : forall T (O : Ops T) dbg dx dy x y (h : heap T),
  x < next h -> y < next h -> len h x = 3 -> len h y = 3 ->
  exists h', cross3_new dbg dx dy x y h = Ok (next h) h' /\
    mem h' (next h) = [ sub (mul (rd h x 1) (rd h y 2)) (mul (rd h y 1) (rd h x 2));
                  sub (mul (rd h x 2) (rd h y 0)) (mul (rd h y 2) (rd h x 0));
                  sub (mul (rd h x 0) (rd h y 1)) (mul (rd h y 0) (rd h x 1)) ] /\
    unchanged_except [next h] h h'.
Proof. intros. from_post (cross3_new_ok dbg dx dy x y h ltac:(auto) ltac:(auto) ltac:(auto) ltac:(auto)). done1. Qed.

Theorem C08_cross3_acc : forall T (O : Ops T) dbg dx dy dr x y vr (h : heap T),
  len h x = 3 -> len h y = 3 -> len h vr = 3 ->
  exists h', cross3_acc dbg dx dy dr x y vr h = Ok vr h' /\
    mem h' vr = [ add (sub (mul (rd h x 1) (rd h y 2)) (mul (rd h y 1) (rd h x 2))) (rd h vr 0);
                  add (sub (mul (rd h x 2) (rd h y 0)) (mul (rd h y 2) (rd h x 0))) (rd h vr 1);
                  add (sub (mul (rd h x 0) (rd h y 1)) (mul (rd h y 0) (rd h x 1))) (rd h vr 2) ] /\
    unchanged_except [vr] h h'.
Proof. intros. from_post (cross3_acc_ok dbg dx dy dr x y vr h ltac:(auto) ltac:(auto) ltac:(auto)). done1. Qed.

Theorem C08_cross2 : forall T (O : Ops T) dbg dx dy x y (h : heap T),
  len h x = 2 -> len h y = 2 ->
  cross2 dbg dx dy x y h = Ok (sub (mul (rd h x 0) (rd h y 1)) (mul (rd h y 0) (rd h x 1))) h.
Proof.
  intros. from_post (cross2_ok dbg dx dy x y h ltac:(auto) ltac:(auto)).
  match goal with H : _ /\ _ |- _ => destruct H as [-> ->] end. assumption.
Qed.

Section CrossAlgebra.
Context {T : Type} {O : Ops T} {R : IsRing T O}.
Add Ring Trc : (ring_th (IsRing := R)).

(** The result is orthogonal to both operands (also when it overwrites one of them: the
    operands are the contents before the call), antisymmetric, and zero for equal operands. *)
Theorem C08_cross_algebra : forall dbg dx dy dr x y vr (h h' : heap T),
  len h x = 3 -> len h y = 3 -> len h vr = 3 ->
  cross3 dbg dx dy dr x y vr h = Ok vr h' ->
  dotp 3 (vec_of (mem h' vr)) (vec_of (mem h x)) = zero /\
  dotp 3 (vec_of (mem h' vr)) (vec_of (mem h y)) = zero /\
  (mem h x = mem h y -> mem h' vr = [zero; zero; zero]) /\
  (forall vs h'', len h vs = 3 -> cross3 dbg dy dx dr y x vs h = Ok vs h'' ->
     mem h'' vs = map opp (mem h' vr)).
Proof.
  intros dbg dx dy dr x y vr h h' Hx Hy Hr E.
  destruct (C08_cross3 T O dbg dx dy dr x y vr h Hx Hy Hr) as (h1 & E1 & Hm & Hu).
  rewrite E in E1. inversion E1; subst h1. rewrite Hm.
  split; [|split; [|split]].
  - unfold dotp, vec_of, rd. cbn. ring.
  - unfold dotp, vec_of, rd. cbn. ring.
  - intros Hxy. unfold rd. rewrite Hxy. repeat f_equal; ring.
  - intros vs h'' Hs E2.
    destruct (C08_cross3 T O dbg dy dx dr y x vs h Hy Hx Hs) as (h2 & E3 & Hm2 & _).
    rewrite E2 in E3. inversion E3; subst h2. rewrite Hm2. cbn [map]. repeat f_equal; ring.
Qed.
End CrossAlgebra.

Example C08_nonvacuous : exists h', cross3 true true true true 0 1 0 ex_heap = Ok 0 h' /\
   mem h' 0 = [0; 0; 0]%Z.
Proof. eexists. split; vm_compute; reflexivity. Qed.
Example C08_nonvacuous' :
  exists h', cross3 true true true true 0 1 0 (heap_of [[1; 0; 2]; [0; 1; 5]]%Z) = Ok 0 h' /\
   mem h' 0 = [-2; -5; 1]%Z.
Proof. eexists. split; vm_compute; reflexivity. Qed.

(** ** C09: destination size of add/sub.  Refuted as stated; the partial statement gives the
    exact outcome for every triple of lengths. *)
Theorem C09_add_outcome_partial : forall T (O : Ops T) v1 v2 vr (h : heap T),
  fits_u32 (len h v1) = true ->
  (len h v1 <> len h v2 -> add_d v1 v2 vr h = Throw (SizeMismatched (len h v1) (len h v2)) h) /\
  (len h v1 = len h v2 -> len h v1 <= len h vr ->
     exists h', add_d v1 v2 vr h = Ok vr h' /\
       mem h' vr = map2 add (mem h v1) (mem h v2) ++ skipn (len h v1) (mem h vr) /\
       unchanged_except [vr] h h') /\
  (len h v1 = len h v2 -> len h vr < len h v1 -> add_d v1 v2 vr h = UB).
Proof.
  intros. split; [apply add_d_mismatch|]. split.
  - intros. from_post (add_d_long v1 v2 vr h ltac:(auto) ltac:(auto) ltac:(auto)).
    match goal with H : _ /\ prefix_did _ _ _ _ _ _ |- _ => destruct H as [-> (Hm & Hu)] end.
    eexists; eauto.
  - intros. apply add_d_short; auto.
Qed.

Theorem C09_sub_outcome_partial : forall T (O : Ops T) v1 v2 vr (h : heap T),
  fits_u32 (len h v1) = true ->
  (len h v1 <> len h v2 -> sub_d v1 v2 vr h = Throw (SizeMismatched (len h v1) (len h v2)) h) /\
  (len h v1 = len h v2 -> len h v1 <= len h vr ->
     exists h', sub_d v1 v2 vr h = Ok vr h' /\
       mem h' vr = map2 sub (mem h v1) (mem h v2) ++ skipn (len h v1) (mem h vr) /\
       unchanged_except [vr] h h') /\
  (len h v1 = len h v2 -> len h vr < len h v1 -> sub_d v1 v2 vr h = UB).
Proof.
  intros. split; [apply sub_d_mismatch|]. split.
  - intros. from_post (sub_d_long v1 v2 vr h ltac:(auto) ltac:(auto) ltac:(auto)).
    match goal with H : _ /\ prefix_did _ _ _ _ _ _ |- _ => destruct H as [-> (Hm & Hu)] end.
    eexists; eauto.
  - intros. apply sub_d_short; auto.
Qed.

Theorem C09_refuted :
  (exists (h : heap Z) v1 v2 vr, len h v1 = len h v2 /\ add_d v1 v2 vr h = UB) /\
  (exists (h h' : heap Z) v1 v2 vr, len h vr <> len h v1 /\ add_d v1 v2 vr h = Ok vr h').
Proof.
  split.
  - exists (heap_of [[1; 2]%Z; [3; 4]%Z; [0]%Z]), 0, 1, 2. split; vm_compute; reflexivity.
  - eexists (heap_of [[1]%Z; [3]%Z; [0; 0]%Z]), _, 0, 1, 2. split; [vm_compute; lia|vm_compute; reflexivity].
Qed.

(** ** C10: vector / scalar.  Exact in every field; not bit-for-bit in binary64. *)
Theorem C10_div_field : forall T (O : Ops T) (F : IsField T O) v alpha (h : heap T),
  v < next h -> fits_u32 (len h v) = true -> alpha <> zero ->
  exists h', op_div_d v alpha h = Ok (next h) h' /\
    mem h' (next h) = map (fun a => div a alpha) (mem h v) /\ unchanged_except [next h] h h'.
Proof.
  intros T O F v alpha h Hv Hf Ha. from_post (op_div_d_ok alpha v h Hv Hf).
  match goal with H : fresh1 _ _ _ _ _ |- _ => destruct H as (-> & Hm & Hu & Hn) end.
  eexists; split; [eassumption|]. split; [|exact Hu]. rewrite Hm. apply map_ext. intros a.
  rewrite (Fdiv_def (field_th (IsField := F)) a alpha).
  apply (Rmul_comm (F_R (field_th (IsField := F)))).
Qed.

Theorem C10_div_field_static : forall T (O : Ops T) (F : IsField T O) N v alpha (h : heap T),
  v < next h -> fits_u32 N = true -> len h v = N -> alpha <> zero ->
  exists h', op_div_s N v alpha h = Ok (next h) h' /\
    mem h' (next h) = map (fun a => div a alpha) (mem h v) /\ unchanged_except [next h] h h'.
Proof.
  intros T O F N v alpha h Hv Hf Hl Ha. from_post (op_div_s_ok N alpha v h Hv Hf Hl).
  match goal with H : fresh1 _ _ _ _ _ |- _ => destruct H as (-> & Hm & Hu & Hn) end.
  eexists; split; [eassumption|]. split; [|exact Hu]. rewrite Hm. apply map_ext. intros a.
  rewrite (Fdiv_def (field_th (IsField := F)) a alpha).
  apply (Rmul_comm (F_R (field_th (IsField := F)))).
Qed.

Example C10_nonvacuous :
  exists h', op_div_d 0 (Q2Qc 4) (heap_of [[Q2Qc 2; Q2Qc 3]]) = Ok 1 h' /\
             map this (mem h' 1) = [1 # 2; 3 # 4]%Q.
Proof. eexists. split; [vm_compute; reflexivity|]. vm_compute. reflexivity. Qed.

(** In binary64: 49/49 is 1 but the code gives 0.99999999999999989; and 2^-1073 / 2^-1073 is 1
    but the code gives infinity. *)
Theorem C10_binary64_refuted :
  (exists (h h' : heap float) v alpha, op_div_d v alpha h = Ok (next h) h' /\
     mem h' (next h) <> map (fun a => div a alpha) (mem h v) /\ alpha = 49%float) /\
  (exists (h h' : heap float) v alpha, op_div_d v alpha h = Ok (next h) h' /\
     map (fun a => PrimFloat.eqb (div a alpha) 1%float) (mem h v) = [true] /\
     map (fun a => PrimFloat.eqb a infinity) (mem h' (next h)) = [true]).
Proof.
  split.
  - eexists (heap_of [[49%float]]), _, 0, 49%float. split; [vm_compute; reflexivity|].
    split; [|reflexivity].
    intro H. apply (f_equal (map (fun a => PrimFloat.eqb a 1%float))) in H.
    vm_compute in H. discriminate.
  - eexists (heap_of [[0x1p-1073%float]]), _, 0, (0x1p-1073%float). split; [vm_compute; reflexivity|].
    split; vm_compute; reflexivity.
Qed.

Print Assumptions C01_add_dyn.
Print Assumptions C01_operators_dyn.
Print Assumptions C02_add.
Print Assumptions C03_exactly.
Print Assumptions C04_refuted.
Print Assumptions C05_any_reduction_order.
Print Assumptions C05_positive.
Print Assumptions C07_laws.
Print Assumptions C08_cross_algebra.
Print Assumptions C09_add_outcome_partial.
Print Assumptions C10_div_field.
Print Assumptions C10_binary64_refuted.
