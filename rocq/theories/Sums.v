(** * Algebra of finite sums, matrices and vectors as index functions *)
From Coq Require Import Ring Field Permutation.
From Verif Require Import Base Scalar BaseLemmas Spec.
Local Open Scope sc_scope.

Section AnyOps.
Context {T : Type} {O : Ops T}.

Lemma bsum_ext n (f g : nat -> T) : (forall i, i < n -> f i = g i) -> bsum n f = bsum n g.
Proof.
  induction n as [|n IH]; intros H; cbn; auto. rewrite IH, H by (intros; auto with arith). reflexivity.
Qed.
End AnyOps.

Section FsumAny.
Context {T : Type} {O : Ops T}.
Lemma fsum_ext n a (f g : nat -> T) : (forall i, i < n -> f i = g i) -> fsum n a f = fsum n a g.
Proof. induction n as [|n IH]; intros H; cbn; auto. rewrite IH, H by auto; auto. Qed.
End FsumAny.

Section Ring.
Context {T : Type} {O : Ops T} {R : IsRing T O}.
Add Ring Tring : (ring_th (IsRing := R)).
Implicit Types (f g : nat -> T) (x y z : vfun (T := T)) (A B C : mfun (T := T)).

Lemma bsum_zero n f : (forall i, i < n -> f i = zero) -> bsum n f = zero.
Proof. induction n as [|n IH]; intros H; cbn; auto. rewrite IH, H by auto with arith. ring. Qed.

Lemma fsum_bsum n a f : fsum n a f = a + bsum n f.
Proof. induction n as [|n IH]; cbn; [ring|rewrite IH; ring]. Qed.

Lemma bsum_add n f g : bsum n (fun i => f i + g i) = bsum n f + bsum n g.
Proof. induction n as [|n IH]; cbn; [ring|rewrite IH; ring]. Qed.

Lemma bsum_sub n f g : bsum n (fun i => f i - g i) = bsum n f - bsum n g.
Proof. induction n as [|n IH]; cbn; [ring|rewrite IH; ring]. Qed.

Lemma bsum_opp n f : bsum n (fun i => - f i) = - bsum n f.
Proof. induction n as [|n IH]; cbn; [ring|rewrite IH; ring]. Qed.

Lemma bsum_scal_l n c f : bsum n (fun i => c * f i) = c * bsum n f.
Proof. induction n as [|n IH]; cbn; [ring|rewrite IH; ring]. Qed.

Lemma bsum_scal_r n c f : bsum n (fun i => f i * c) = bsum n f * c.
Proof. induction n as [|n IH]; cbn; [ring|rewrite IH; ring]. Qed.

Lemma bsum_swap n m (f : nat -> nat -> T) :
  bsum n (fun i => bsum m (fun j => f i j)) = bsum m (fun j => bsum n (fun i => f i j)).
Proof.
  induction n as [|n IH]; cbn.
  - symmetry. apply bsum_zero. auto.
  - rewrite IH. now rewrite bsum_add.
Qed.

Lemma bsum_single n f k : k < n -> (forall i, i < n -> i <> k -> f i = zero) -> bsum n f = f k.
Proof.
  induction n as [|n IH]; intros Hk H; [lia|]. cbn.
  destruct (Nat.eq_dec k n) as [->|Hn].
  - rewrite bsum_zero by (intros; apply H; lia). ring.
  - rewrite IH, (H n) by (intros; try apply H; lia). ring.
Qed.

Lemma bsum_split n k f : k <= n -> bsum n f = bsum k f + bsum (n - k) (fun i => f (k + i)%nat).
Proof.
  induction n as [|n IH]; intros Hk.
  - replace k with 0 by lia. cbn. ring.
  - destruct (Nat.eq_dec k (S n)) as [->|Hn].
    + rewrite Nat.sub_diag. cbn. ring.
    + replace (S n - k)%nat with (S (n - k)) by lia. cbn. rewrite IH by lia.
      replace (k + (n - k))%nat with n by lia. ring.
Qed.

Lemma bsum_first n f : bsum (S n) f = f 0 + bsum n (fun i => f (S i)).
Proof.
  rewrite (bsum_split (S n) 1) by lia. cbn [bsum]. replace (S n - 1)%nat with n by lia. cbn. ring.
Qed.

(** Sum up to [n] of a function vanishing from [k] on. *)
Lemma bsum_trunc n k f : k <= n -> (forall i, k <= i < n -> f i = zero) -> bsum n f = bsum k f.
Proof.
  intros Hk H. rewrite (bsum_split n k) by auto.
  rewrite (bsum_zero (n - k)) by (intros; apply H; lia). ring.
Qed.

Lemma bsum_rev n f : bsum n f = bsum n (fun i => f (n - 1 - i)%nat).
Proof.
  revert f; induction n as [|n IH]; intros f; [reflexivity|].
  rewrite bsum_first. cbn [bsum]. rewrite IH.
  replace (S n - 1 - n)%nat with 0 by lia.
  rewrite (bsum_ext n (fun i => f (S (n - 1 - i))) (fun i => f (S n - 1 - i)%nat))
    by (intros; f_equal; lia).
  ring.
Qed.

(** List sums *)
Fixpoint lsum_list (l : list T) : T :=
  match l with [] => zero | x :: l' => x + lsum_list l' end.

Lemma lsum_app l1 l2 : lsum_list (l1 ++ l2) = lsum_list l1 + lsum_list l2.
Proof. induction l1 as [|a l1 IH]; cbn; [ring|rewrite IH; ring]. Qed.

Lemma lsum_perm l1 l2 : Permutation l1 l2 -> lsum_list l1 = lsum_list l2.
Proof.
  induction 1; cbn; auto; [now rewrite IHPermutation|ring|congruence].
Qed.

Lemma lsum_bsum n f : lsum_list (map f (seq 0 n)) = bsum n f.
Proof.
  induction n as [|n IH]; [reflexivity|].
  rewrite seq_S, map_app, lsum_app, IH. cbn. ring.
Qed.

(** Products *)
Lemma mvmul_ext m A B x y i :
  (forall k, k < m -> A i k = B i k) -> (forall k, k < m -> x k = y k) ->
  mvmul m A x i = mvmul m B y i.
Proof. intros HA Hx. apply bsum_ext. intros k Hk. now rewrite HA, Hx. Qed.

Lemma mvmul_add m A x y i : mvmul m A (fun k => x k + y k) i = mvmul m A x i + mvmul m A y i.
Proof. unfold mvmul. rewrite <- bsum_add. apply bsum_ext. intros. ring. Qed.

Lemma mvmul_sub m A x y i : mvmul m A (fun k => x k - y k) i = mvmul m A x i - mvmul m A y i.
Proof. unfold mvmul. rewrite <- bsum_sub. apply bsum_ext. intros. ring. Qed.

Lemma mvmul_scal m A c x i : mvmul m A (fun k => c * x k) i = c * mvmul m A x i.
Proof. unfold mvmul. rewrite <- bsum_scal_l. apply bsum_ext. intros. ring. Qed.

Lemma mvmul_assoc n m A B x i :
  mvmul m (mmmul n A B) x i = mvmul n A (mvmul m B x) i.
Proof.
  unfold mvmul, mmmul.
  rewrite (bsum_ext m _ (fun k => bsum n (fun l => A i l * B l k * x k)))
    by (intros; now rewrite <- bsum_scal_r).
  rewrite bsum_swap. apply bsum_ext. intros l _.
  rewrite <- bsum_scal_l. apply bsum_ext. intros. ring.
Qed.

Lemma mmmul_assoc n m A B C i j :
  mmmul m (mmmul n A B) C i j = mmmul n A (mmmul m B C) i j.
Proof. exact (mvmul_assoc n m A B (fun k => C k j) i). Qed.

Lemma mvmul_Id n x i : i < n -> mvmul n Id x i = x i.
Proof.
  intros Hi. unfold mvmul, Id. rewrite (bsum_single n _ i Hi).
  - rewrite Nat.eqb_refl. ring.
  - intros k _ Hk. destruct (Nat.eqb_spec i k); [congruence|ring].
Qed.

Lemma mmmul_Id_l n A i j : i < n -> mmmul n Id A i j = A i j.
Proof. intros Hi. exact (mvmul_Id n (fun k => A k j) i Hi). Qed.

Lemma mmmul_Id_r n A i j : j < n -> mmmul n A Id i j = A i j.
Proof.
  intros Hi. unfold mmmul, Id. rewrite (bsum_single n _ j Hi).
  - rewrite Nat.eqb_refl. ring.
  - intros k _ Hk. destruct (Nat.eqb_spec k j); [congruence|ring].
Qed.

Lemma mmmul_add_r n A B C i j :
  mmmul n A (fun i j => B i j + C i j) i j = mmmul n A B i j + mmmul n A C i j.
Proof. unfold mmmul. rewrite <- bsum_add. apply bsum_ext. intros. ring. Qed.

Lemma mmmul_add_l n A B C i j :
  mmmul n (fun i j => A i j + B i j) C i j = mmmul n A C i j + mmmul n B C i j.
Proof. unfold mmmul. rewrite <- bsum_add. apply bsum_ext. intros. ring. Qed.

Lemma mmmul_scal_l n c A B i j : mmmul n (fun i j => c * A i j) B i j = c * mmmul n A B i j.
Proof. unfold mmmul. rewrite <- bsum_scal_l. apply bsum_ext. intros. ring. Qed.

Lemma dotp_comm n x y : dotp n x y = dotp n y x.
Proof. apply bsum_ext. intros. ring. Qed.

Lemma dotp_add_l n x y z : dotp n (fun i => x i + y i) z = dotp n x z + dotp n y z.
Proof. unfold dotp. rewrite <- bsum_add. apply bsum_ext. intros; ring. Qed.

Lemma dotp_scal_l n c x y : dotp n (fun i => c * x i) y = c * dotp n x y.
Proof. unfold dotp. rewrite <- bsum_scal_l. apply bsum_ext. intros; ring. Qed.

Lemma dotp_ext n x x' y y' : veq n x x' -> veq n y y' -> dotp n x y = dotp n x' y'.
Proof. intros Hx Hy. apply bsum_ext. intros. now rewrite Hx, Hy. Qed.

(** Reductions: an addition tree whose leaves are given values.  Any way a compiler or a
    thread team evaluates a [reduction(+:r)] loop is such a tree over the terms, the initial
    value and one zero per lane. *)
Inductive rtree : Type := Leaf (x : T) | Node (l r : rtree).
Fixpoint reval (t : rtree) : T :=
  match t with Leaf x => x | Node l r => reval l + reval r end.
Fixpoint leaves (t : rtree) : list T :=
  match t with Leaf x => [x] | Node l r => leaves l ++ leaves r end.

Lemma reval_leaves t : reval t = lsum_list (leaves t).
Proof. induction t as [x|l IHl r IHr]; cbn; [ring|]. rewrite lsum_app. congruence. Qed.

Lemma lsum_zeros k : lsum_list (repeat zero k) = zero.
Proof. induction k as [|k IH]; cbn; [reflexivity|]. rewrite IH. ring. Qed.

Lemma reduction_any_order t (terms : list T) k :
  Permutation (leaves t) (terms ++ repeat zero k) -> reval t = lsum_list terms.
Proof.
  intros H. rewrite reval_leaves, (lsum_perm _ _ H), lsum_app, lsum_zeros. ring.
Qed.

(** Solving is unique for nonsingular matrices. *)
Lemma sub_zero_eq (a b : T) : a - b = zero -> a = b.
Proof. intros H. replace a with (a - b + b) by ring. rewrite H. ring. Qed.

Lemma solves_unique n A x y b :
  nonsingular n A -> solves n A x b -> solves n A y b -> veq n x y.
Proof.
  intros HA Hx Hy i Hi. apply sub_zero_eq.
  apply (HA (fun k => x k - y k)); auto.
  intros j Hj. rewrite mvmul_sub, Hx, Hy by auto. ring.
Qed.

(** A one-sided inverse on the left makes a matrix nonsingular. *)
Lemma left_inverse_nonsingular n A B :
  (forall i j, i < n -> j < n -> mmmul n B A i j = Id i j) -> nonsingular n A.
Proof.
  intros H x Hx i Hi.
  rewrite <- (mvmul_Id n x i Hi).
  rewrite <- (mvmul_ext n (mmmul n B A) Id x x i) by (auto; intros; apply H; auto).
  rewrite mvmul_assoc. unfold mvmul at 1. apply bsum_zero. intros k Hk. rewrite Hx by auto. ring.
Qed.

(** Upper / lower triangular matrices with nonzero diagonal (no zero divisors needed when the
    diagonal is cancellable). *)
End Ring.

Section Field.
Context {T : Type} {O : Ops T} {F : IsField T O}.
Add Field Tfield : (field_th (IsField := F)).
Implicit Types (f g : nat -> T) (x y : vfun (T := T)) (A B : mfun (T := T)).

Lemma mul_integral (a b : T) : a * b = zero -> a <> zero -> b = zero.
Proof. intros H Ha. replace b with (div one a * (a * b)) by (field; auto). rewrite H. ring. Qed.

Lemma mul_cancel (a b c : T) : a <> zero -> a * b = a * c -> b = c.
Proof. intros Ha H. replace b with ((a * b) / a) by (field; auto). rewrite H. field; auto. Qed.

Lemma mul_nonzero (a b : T) : a <> zero -> b <> zero -> a * b <> zero.
Proof. intros Ha Hb H. apply Hb. eapply mul_integral; eauto. Qed.

Definition lower_tri n A : Prop := forall i j, i < n -> j < n -> i < j -> A i j = zero.
Definition upper_tri n A : Prop := forall i j, i < n -> j < n -> j < i -> A i j = zero.
Definition diag_nz n A : Prop := forall i, i < n -> A i i <> zero.

Lemma lower_nonsingular n A : lower_tri n A -> diag_nz n A -> nonsingular n A.
Proof.
  intros HL HD x Hx. 
  assert (H : forall k, k <= n -> forall i, i < k -> x i = zero).
  { induction k as [|k IH]; intros Hk i Hi; [lia|].
    destruct (Nat.eq_dec i k) as [->|]; [|apply IH; lia].
    specialize (Hx k Hk). unfold mvmul in Hx.
    rewrite (bsum_single n _ k) in Hx.
    - eapply mul_integral; eauto.
    - lia.
    - intros j Hj Hjk. destruct (Nat.lt_ge_cases j k).
      + rewrite (IH ltac:(lia) j) by auto. ring.
      + rewrite HL by lia. ring. }
  intros i Hi. apply (H n); lia.
Qed.

Lemma upper_nonsingular n A : upper_tri n A -> diag_nz n A -> nonsingular n A.
Proof.
  intros HL HD x Hx. 
  assert (H : forall k, k <= n -> forall i, n - k <= i -> i < n -> x i = zero).
  { induction k as [|k IH]; intros Hk i Hi Hin; [lia|].
    destruct (Nat.eq_dec i (n - S k)) as [->|]; [|apply IH; lia].
    set (r := (n - S k)%nat) in *. specialize (Hx r ltac:(lia)). unfold mvmul in Hx.
    rewrite (bsum_single n _ r) in Hx.
    - apply (mul_integral (A r r)); [exact Hx|]. apply HD; lia.
    - lia.
    - intros j Hj Hjr. destruct (Nat.lt_ge_cases j r).
      + rewrite HL by lia. ring.
      + rewrite (IH ltac:(lia) j) by (subst r; lia). ring. }
  intros i Hi. apply (H n); lia.
Qed.

Lemma product_nonsingular n A B : nonsingular n A -> nonsingular n B -> nonsingular n (mmmul n A B).
Proof.
  intros HA HB x Hx. apply HB. apply HA. intros i Hi. rewrite <- mvmul_assoc. auto.
Qed.
End Field.
