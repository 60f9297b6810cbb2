(** * Every modelled function runs alike on corresponding element types (proofs) *)
From Verif Require Import Base Scalar BaseLemmas ModelVec ModelMat ModelPacked ModelSparse ModelSolvers ModelIter SpecParam.
Local Open Scope nat_scope.

Section Param.
Context {T1 T2 : Type} {O1 : Ops T1} {O2 : Ops T2} (R : T1 -> T2 -> Prop) {L : Like O1 O2 R}.

(** ** Lists *)
Lemma f2_app l1 l2 k1 k2 : Forall2 R l1 l2 -> Forall2 R k1 k2 -> Forall2 R (l1 ++ k1) (l2 ++ k2).
Proof. apply Forall2_app. Qed.
Lemma f2_cons x y l1 l2 : R x y -> Forall2 R l1 l2 -> Forall2 R (x :: l1) (y :: l2).
Proof. now constructor. Qed.
Lemma f2_nil : Forall2 R [] [].
Proof. constructor. Qed.
Lemma f2_repeat x y n : R x y -> Forall2 R (repeat x n) (repeat y n).
Proof. intros H. induction n; cbn; constructor; auto. Qed.
Lemma f2_firstn n : forall l1 l2, Forall2 R l1 l2 -> Forall2 R (firstn n l1) (firstn n l2).
Proof. induction n as [|n IH]; intros l1 l2 H; destruct H; cbn; constructor; auto. Qed.
Lemma f2_skipn n : forall l1 l2, Forall2 R l1 l2 -> Forall2 R (skipn n l1) (skipn n l2).
Proof. induction n as [|n IH]; intros l1 l2 H; destruct H; cbn; auto. Qed.
Lemma f2_if (c : bool) l1 l2 k1 k2 : Forall2 R l1 l2 -> Forall2 R k1 k2 -> Forall2 R (if c then l1 else k1) (if c then l2 else k2).
Proof. now destruct c. Qed.
Lemma f2_len l1 l2 : Forall2 R l1 l2 -> length l1 = length l2.
Proof. intros H. induction H; cbn; auto. Qed.
Lemma f2_set_nth l1 l2 x y : Forall2 R l1 l2 -> R x y -> forall i, Forall2 R (set_nth i x l1) (set_nth i y l2).
Proof. intros H Hx. induction H; intros [|i]; cbn; constructor; auto. Qed.
Lemma f2_nth_error l1 l2 : Forall2 R l1 l2 -> forall i,
  match nth_error l1 i, nth_error l2 i with Some x, Some y => R x y | None, None => True | _, _ => False end.
Proof. intros H. induction H; intros [|i]; cbn; auto. apply IHForall2. Qed.

(** ** Programs *)
Section Programs.
Context {S1 S2 : Type} (SR : S1 -> S2 -> Prop).
Lemma al_bind {A1 A2 B1 B2} (U : A1 -> A2 -> Prop) (V : B1 -> B2 -> Prop) m1 m2 k1 k2 :
  alike SR U m1 m2 -> (forall a b, U a b -> alike SR V (k1 a) (k2 b)) -> alike SR V (bind m1 k1) (bind m2 k2).
Proof.
  intros H K s1 s2 Hs. specialize (H s1 s2 Hs). unfold bind, like_res in *.
  destruct (m1 s1), (m2 s2); try contradiction; auto. destruct H as [H1 H2]. apply (K _ _ H1 _ _ H2).
Qed.
Lemma al_ret {A1 A2} (V : A1 -> A2 -> Prop) a b : V a b -> alike SR V (ret a) (ret b).
Proof. intros H s1 s2 Hs. split; auto. Qed.
Lemma al_throw {A1 A2} (V : A1 -> A2 -> Prop) e : alike SR V (throw e) (throw e).
Proof. intros s1 s2 Hs. split; auto. Qed.
Lemma al_ub {A1 A2} (V : A1 -> A2 -> Prop) : alike SR V ub ub.
Proof. intros s1 s2 Hs. exact Coq.Init.Logic.I. Qed.
Lemma al_diverge {A1 A2} (V : A1 -> A2 -> Prop) : alike SR V diverge diverge.
Proof. intros s1 s2 Hs. exact Coq.Init.Logic.I. Qed.
Lemma al_noexcept {A1 A2} (V : A1 -> A2 -> Prop) m1 m2 : alike SR V m1 m2 -> alike SR V (noexcept m1) (noexcept m2).
Proof. intros H s1 s2 Hs. specialize (H s1 s2 Hs). unfold noexcept, like_res in *. destruct (m1 s1), (m2 s2); auto. Qed.
Lemma al_assert dbg c : alike SR eq (assert_ dbg c) (assert_ dbg c).
Proof. intros s1 s2 Hs. unfold assert_. destruct (dbg && negb c)%bool; cbn; auto. Qed.
Lemma al_if {A1 A2} (V : A1 -> A2 -> Prop) (c : bool) m1 m2 k1 k2 :
  alike SR V m1 m2 -> alike SR V k1 k2 -> alike SR V (if c then m1 else k1) (if c then m2 else k2).
Proof. now destruct c. Qed.
Lemma al_loop {A1 A2} (V : A1 -> A2 -> Prop) l : forall b1 b2 a1 a2, V a1 a2 ->
  (forall i a a', V a a' -> alike SR V (b1 i a) (b2 i a')) -> alike SR V (loop l b1 a1) (loop l b2 a2).
Proof.
  induction l as [|i l IH]; intros b1 b2 a1 a2 Ha Hb; cbn [loop]; [now apply al_ret|].
  eapply al_bind; [now apply Hb|]. intros a b H. now apply IH.
Qed.
Lemma al_for_sz {A1 A2} (V : A1 -> A2 -> Prop) lo n b1 b2 a1 a2 : V a1 a2 ->
  (forall i a a', V a a' -> alike SR V (b1 i a) (b2 i a')) -> alike SR V (for_sz lo n b1 a1) (for_sz lo n b2 a2).
Proof. intros. now apply al_loop. Qed.
Lemma al_for_u32 {A1 A2} (V : A1 -> A2 -> Prop) lo n b1 b2 a1 a2 : V a1 a2 ->
  (forall i a a', V a a' -> alike SR V (b1 i a) (b2 i a')) -> alike SR V (for_u32 lo n b1 a1) (for_u32 lo n b2 a2).
Proof. intros. apply al_if; [now apply al_loop|apply al_diverge]. Qed.
Lemma al_down_i32 {A1 A2} (V : A1 -> A2 -> Prop) n b1 b2 a1 a2 : V a1 a2 ->
  (forall i a a', V a a' -> alike SR V (b1 i a) (b2 i a')) -> alike SR V (down_i32 n b1 a1) (down_i32 n b2 a2).
Proof. intros. now apply al_loop. Qed.
Lemma al_down_sz {A1 A2} (V : A1 -> A2 -> Prop) n b1 b2 a1 a2 : V a1 a2 ->
  (forall i a a', V a a' -> alike SR V (b1 i a) (b2 i a')) -> alike SR V (down_sz n b1 a1) (down_sz n b2 a2).
Proof. intros. now apply al_loop. Qed.
Lemma al_vec_at l1 l2 i : Forall2 R l1 l2 -> alike SR R (vec_at l1 i) (vec_at l2 i).
Proof.
  intros H. unfold vec_at. pose proof (f2_nth_error _ _ H i) as K.
  destruct (nth_error l1 i), (nth_error l2 i); try contradiction; [now apply al_ret|apply al_ub].
Qed.
Lemma al_vec_at_eq {A} (l : list A) i : alike SR eq (vec_at l i) (vec_at l i).
Proof. unfold vec_at. destruct (nth_error l i); [now apply al_ret|apply al_ub]. Qed.
Lemma al_vec_set l1 l2 i x y : Forall2 R l1 l2 -> R x y -> alike SR (Forall2 R) (vec_set l1 i x) (vec_set l2 i y).
Proof.
  intros H Hx. unfold vec_set. rewrite (f2_len _ _ H). apply al_if; [|apply al_ub]. apply al_ret. now apply f2_set_nth.
Qed.
Lemma al_vec_set_eq {A} (l : list A) i x : alike SR eq (vec_set l i x) (vec_set l i x).
Proof. unfold vec_set. apply al_if; [now apply al_ret|apply al_ub]. Qed.
Lemma al_run_local {A1 A2} (V : A1 -> A2 -> Prop) h1 h2 (m1 : M (heap T1) A1) (m2 : M (heap T2) A2) :
  like_heap R h1 h2 -> alike (like_heap R) V m1 m2 -> alike SR (like_pair V (like_heap R)) (run_local h1 m1) (run_local h2 m2).
Proof.
  intros Hh H s1 s2 Hs. specialize (H h1 h2 Hh). unfold run_local, like_res in *. destruct (m1 h1), (m2 h2); try contradiction; auto.
  destruct H. auto.
Qed.
Lemma al_on_copy {C1 C2 A1 A2} (W : C1 -> C2 -> Prop) (V : A1 -> A2 -> Prop) c1 c2 (m1 : M C1 A1) (m2 : M C2 A2) :
  W c1 c2 -> alike W V m1 m2 -> alike SR W (on_copy c1 m1) (on_copy c2 m2).
Proof.
  intros Hh H s1 s2 Hs. specialize (H c1 c2 Hh). unfold on_copy, like_res in *. destruct (m1 c1), (m2 c2); try contradiction; auto;
  destruct H; auto.
Qed.
End Programs.

Lemma like_heap_of bs1 bs2 : Forall2 (Forall2 R) bs1 bs2 -> like_heap R (heap_of bs1) (heap_of bs2).
Proof.
  intros H. split; cbn; [induction H; cbn; auto|]. induction H; intros [|p]; cbn; auto.
Qed.
Lemma like_heap_of1 l1 l2 : Forall2 R l1 l2 -> like_heap R (heap_of [l1]) (heap_of [l2]).
Proof. intros. apply like_heap_of. auto. Qed.
Lemma like_mem h1 h2 p : like_heap R h1 h2 -> Forall2 R (mem h1 p) (mem h2 p).
Proof. intros [_ H]. auto. Qed.
Lemma al_load p i : alike (like_heap R) R (load p i) (load p i).
Proof.
  intros h1 h2 H. unfold load. pose proof (f2_nth_error _ _ (like_mem _ _ p H) i) as K.
  destruct (nth_error (mem h1 p) i), (nth_error (mem h2 p) i); try contradiction; cbn; auto.
Qed.
Lemma like_upd h1 h2 p b1 b2 : like_heap R h1 h2 -> Forall2 R b1 b2 -> like_heap R (upd h1 p b1) (upd h2 p b2).
Proof. intros [H1 H2] Hb. split; cbn; auto. intros q. destruct (Nat.eqb q p); auto. Qed.
Lemma al_store p i x y : R x y -> alike (like_heap R) eq (store p i x) (store p i y).
Proof.
  intros Hx h1 h2 H. unfold store. rewrite (f2_len _ _ (like_mem _ _ p H)). destruct (Nat.ltb i _); cbn; auto.
  split; auto. apply like_upd; auto. apply f2_set_nth; auto. now apply like_mem.
Qed.
Lemma al_vsize p : alike (like_heap R) eq (vsize p) (vsize p).
Proof. intros h1 h2 H. unfold vsize. rewrite (f2_len _ _ (like_mem _ _ p H)). split; auto. Qed.
Lemma al_contents p : alike (like_heap R) (Forall2 R) (contents p) (contents p).
Proof. intros h1 h2 H. split; auto. now apply like_mem. Qed.
Lemma al_alloc b1 b2 : Forall2 R b1 b2 -> alike (like_heap R) eq (alloc b1) (alloc b2).
Proof.
  intros Hb h1 h2 [H1 H2]. unfold alloc. rewrite H1. cbn. split; auto. split; cbn; auto. intros q. destruct (Nat.eqb q _); auto.
Qed.
Lemma al_copy_n n p q : alike (like_heap R) eq (copy_n n p q) (copy_n n p q).
Proof.
  unfold copy_n. apply al_for_sz; auto. intros i a a' _. eapply al_bind; [apply al_load|]. intros x y H. now apply al_store.
Qed.
Lemma al_gather {S1 S2} (SR : S1 -> S2 -> Prop) l1 l2 ids : Forall2 R l1 l2 -> alike SR (Forall2 R) (gather l1 ids) (gather l2 ids).
Proof.
  intros H. induction ids as [|k ids IH]; cbn [gather]; [apply al_ret, f2_nil|].
  eapply al_bind; [now apply al_vec_at|]. intros x y Hx. eapply al_bind; [apply IH|]. intros r1 r2 Hr. apply al_ret. now constructor.
Qed.
Lemma al_gather_eq {S1 S2 A} (SR : S1 -> S2 -> Prop) (l : list A) ids : alike SR eq (gather l ids) (gather l ids).
Proof.
  induction ids as [|k ids IH]; cbn [gather]; [now apply al_ret|].
  eapply al_bind; [apply al_vec_at_eq|]. intros x y ->. eapply al_bind; [apply IH|]. intros r1 r2 ->. now apply al_ret.
Qed.

Lemma al_upd_coo f1 f2 : (forall a b, like_coo R a b -> like_coo R (f1 a) (f2 b)) -> alike (like_coo R) eq (upd_coo f1) (upd_coo f2).
Proof. intros H s1 s2 Hs. split; auto. Qed.
(** ** Automation *)
Create HintDb pardb.
Create HintDb parrel.
#[local] Hint Resolve f2_if f2_app f2_cons f2_nil f2_repeat f2_firstn f2_skipn f2_set_nth like_heap_of1 like_mem like_upd : parrel.
Lemma r_zero : R zero zero. Proof. apply l_zero. Qed.
Lemma r_one : R one one. Proof. apply l_one. Qed.
Lemma r_add a b c d : R a b -> R c d -> R (add a c) (add b d). Proof. apply l_add. Qed.
Lemma r_sub a b c d : R a b -> R c d -> R (sub a c) (sub b d). Proof. apply l_sub. Qed.
Lemma r_mul a b c d : R a b -> R c d -> R (mul a c) (mul b d). Proof. apply l_mul. Qed.
Lemma r_div a b c d : R a b -> R c d -> R (div a c) (div b d). Proof. apply l_div. Qed.
Lemma r_opp a b : R a b -> R (opp a) (opp b). Proof. apply l_opp. Qed.
Lemma r_sqrt a b : R a b -> R (sqrt_ a) (sqrt_ b). Proof. apply l_sqrt. Qed.
Lemma r_pow2 a b : R a b -> R (pow2 a) (pow2 b). Proof. apply l_pow2. Qed.
Lemma r_abs a b : R a b -> R (abs_ a) (abs_ b). Proof. apply l_abs. Qed.
#[local] Hint Resolve r_zero r_one r_add r_sub r_mul r_div r_opp r_sqrt r_pow2 r_abs : parrel.

Ltac rel_of ty :=
  lazymatch ty with
  | T1 => constr:(R)
  | list ?X => let r := rel_of X in lazymatch r with @eq _ => constr:(@eq ty) | _ => constr:(Forall2 r) end
  | prod ?X ?Y => let r := rel_of X in let s := rel_of Y in
      lazymatch r with
      | @eq _ => lazymatch s with @eq _ => constr:(@eq ty) | _ => constr:(like_pair r s) end
      | _ => constr:(like_pair r s) end
  | heap T1 => constr:(like_heap R) | tri T1 => constr:(like_tri R) | hess T1 => constr:(like_hess R) | utri T1 => constr:(like_utri R)
  | ltri T1 => constr:(like_ltri R) | herm T1 => constr:(like_herm R) | coo T1 => constr:(like_coo R) | csr T1 => constr:(like_csr R)
  | gstate => constr:(like_gstate R)
  | _ => constr:(@eq ty)
  end.

Ltac par_unf := unfold like_pair, like_tri, like_hess, like_utri, like_ltri, like_herm, like_coo, like_csr, like_gstate in *.
Ltac par_cbn := unfold tri_order, coo_nnz, csr_nnz in *; cbn [fst snd tdl td tdu hn hv un uv ln lv en ev cval crow ccol sval sptr scol gq ghess gh gs gc gr gbeta gdone] in *.
Ltac par_prep := repeat match goal with
  | H : like_pair _ _ ?a ?b |- _ => destruct a, b; destruct H as [? ?]; par_cbn
  | H : like_tri _ ?a ?b |- _ => destruct a, b; destruct H as (? & ? & ?); par_cbn
  | H : like_hess _ ?a ?b |- _ => destruct a, b; destruct H as (? & ?); par_cbn
  | H : like_utri _ ?a ?b |- _ => destruct a, b; destruct H as (? & ?); par_cbn
  | H : like_ltri _ ?a ?b |- _ => destruct a, b; destruct H as (? & ?); par_cbn
  | H : like_herm _ ?a ?b |- _ => destruct a, b; destruct H as (? & ?); par_cbn
  | H : like_coo _ ?a ?b |- _ => destruct a, b; destruct H as (? & ? & ?); par_cbn
  | H : like_csr _ ?a ?b |- _ => destruct a, b; destruct H as (? & ? & ?); par_cbn
  | H : like_gstate _ ?a ?b |- _ => destruct a, b; destruct H as (? & ? & ? & ? & ? & ? & ? & ?); par_cbn
  | H : ?a = ?b |- _ => first [subst a | subst b]
  end.
Ltac par_len1 := repeat match goal with
  | H : Forall2 R ?a ?b |- context [length ?a] => rewrite (f2_len _ _ H)
  end.
Ltac par_len := repeat (rewrite !app_length || rewrite !repeat_length); repeat match goal with
  | H : Forall2 R ?a ?b |- context [length ?a] => rewrite (f2_len _ _ H)
  end.
Ltac par_sc := solve [unfold reciprocal; repeat first [eassumption | simple apply r_add | simple apply r_sub | simple apply r_mul | simple apply r_div | simple apply r_opp
  | simple apply r_sqrt | simple apply r_pow2 | simple apply r_abs | simple apply r_one | simple apply r_zero]].
#[local] Hint Extern 1 (R _ _) => par_sc : parrel.
#[local] Hint Extern 1 (ltb _ _ = ltb _ _) => apply l_ltb; par_sc : parrel.
Ltac par_rel := par_cbn; first
  [ reflexivity | par_sc | eassumption | solve [eauto 8 with parrel]
  | solve [par_unf; par_cbn; repeat split; first [eassumption | reflexivity | solve [eauto 8 with parrel] | solve [par_len; auto]]]
  | solve [par_len; auto] ].
Ltac par_rec := solve [par_unf; par_cbn; repeat split; first [eassumption | reflexivity | par_sc | solve [eauto 8 with parrel] | solve [par_len; auto]]].
#[local] Hint Extern 2 (like_tri _ _ _) => par_rec : parrel.
#[local] Hint Extern 2 (like_hess _ _ _) => par_rec : parrel.
#[local] Hint Extern 2 (like_utri _ _ _) => par_rec : parrel.
#[local] Hint Extern 2 (like_ltri _ _ _) => par_rec : parrel.
#[local] Hint Extern 2 (like_herm _ _ _) => par_rec : parrel.
#[local] Hint Extern 2 (like_coo _ _ _) => par_rec : parrel.
#[local] Hint Extern 2 (like_csr _ _ _) => par_rec : parrel.
#[local] Hint Extern 2 (like_gstate _ _ _) => par_rec : parrel.
#[local] Hint Extern 2 (like_pair _ _ _ _) => par_rec : parrel.
Ltac par_cond := par_cbn; repeat first [reflexivity | apply l_eqb; par_rel | apply l_ltb; par_rel | progress par_len | apply f_equal2 | apply f_equal].

Ltac par_go := cbv beta iota zeta; par_prep; par_cbn; cbv beta iota zeta; par_len1; lazymatch goal with
  | |- alike _ _ (@bind _ ?A _ ?m _) (bind _ _) => let U := rel_of A in eapply (al_bind _ U); [par_go | intros ? ? ?; par_go]
  | |- alike _ _ (ret _) (ret _) => apply al_ret; par_rel
  | |- alike _ _ (throw _) (throw _) => apply al_throw
  | |- alike _ _ ub ub => apply al_ub
  | |- alike _ _ diverge diverge => apply al_diverge
  | |- alike _ _ (noexcept _) (noexcept _) => apply al_noexcept; par_go
  | |- alike _ _ (load _ _) (load _ _) => apply al_load
  | |- alike _ _ (vsize _) (vsize _) => apply al_vsize
  | |- alike _ _ (contents _) (contents _) => apply al_contents
  | |- alike _ _ (store _ _ _) (store _ _ _) => apply al_store; par_rel
  | |- alike _ _ (alloc _) (alloc _) => apply al_alloc; par_rel
  | |- alike _ _ (assert_ _ ?c) (assert_ _ ?c') => replace c with c' by (symmetry; par_cond); apply al_assert
  | |- alike _ _ (copy_n ?n _ _) (copy_n ?n' _ _) => replace n with n' by (symmetry; par_cond); apply al_copy_n
  | |- alike _ _ (vec_at _ _) (vec_at _ _) => par_len; first [apply al_vec_at_eq | apply al_vec_at; par_rel]
  | |- alike _ _ (vec_set _ _ _) (vec_set _ _ _) => par_len; first [apply al_vec_set_eq | apply al_vec_set; par_rel]
  | |- alike _ _ (upd_coo _) (upd_coo _) => apply al_upd_coo; intros ? ? ?; par_prep; par_cbn; par_rel
  | |- alike _ _ (gather _ _) (gather _ _) => par_len; first [apply al_gather_eq | apply al_gather; par_rel]
  | |- alike _ ?V (for_u32 _ ?n _ _) (for_u32 _ ?n' _ _) => replace n with n' by (symmetry; par_cond); apply al_for_u32; [par_rel|intros ? ? ? ?; par_go]
  | |- alike _ ?V (for_sz _ ?n _ _) (for_sz _ ?n' _ _) => replace n with n' by (symmetry; par_cond); apply al_for_sz; [par_rel|intros ? ? ? ?; par_go]
  | |- alike _ ?V (loop ?l _ _) (loop ?l' _ _) => replace l with l' by (symmetry; par_cond); apply al_loop; [par_rel|intros ? ? ? ?; par_go]
  | |- alike _ ?V (down_i32 ?n _ _) (down_i32 ?n' _ _) => replace n with n' by (symmetry; par_cond); apply al_down_i32; [par_rel|intros ? ? ? ?; par_go]
  | |- alike _ ?V (down_sz ?n _ _) (down_sz ?n' _ _) => replace n with n' by (symmetry; par_cond); apply al_down_sz; [par_rel|intros ? ? ? ?; par_go]
  | |- alike _ _ (run_local _ _) (run_local _ _) => apply al_run_local; [par_rel|par_go]
  | |- alike _ _ (@on_copy _ _ ?A _ _) (on_copy _ _) => let U := rel_of A in eapply (al_on_copy _ _ U); [par_rel|par_go]
  | |- alike _ _ (if ?c then _ else _) (if ?c' then _ else _) => replace c with c' by (symmetry; par_cond); apply al_if; par_go
  | |- alike _ _ (fun _ => _) (fun _ => _) => let H := fresh in intros ? ? H; par_go
  | |- alike _ _ (match ?x with _ => _ end) (match ?x with _ => _ end) => destruct x; par_go
  | |- like_res _ _ (Ok _ _) (Ok _ _) => split; par_rel
  | |- like_res _ _ (Throw _ _) (Throw _ _) => split; par_rel
  | |- like_res _ _ (if ?c then _ else _) (if ?c' then _ else _) => replace c with c' by (symmetry; par_cond); destruct c'; par_go
  | |- like_res _ _ (match ?x with _ => _ end) (match ?x with _ => _ end) => destruct x; par_go
  | |- like_res ?SR ?V (?m1 ?s1) (?m2 ?s2) => cut (alike SR V m1 m2); [let K := fresh in intros K; apply K; par_rel | par_go]
  | |- alike _ _ _ _ => par_len; first [solve [eauto 5 with pardb parrel nocore] | solve [eauto 5 with pardb; par_rel]]
  end.

(** ** ModelVec *)
Lemma al_neg_core_simd : forall (v : ptr) (vr : ptr) (size : nat),
  alike (like_heap R) eq (neg_core_simd v vr size) (neg_core_simd v vr size).
Proof. intros. unfold neg_core_simd. par_go. Qed.
#[local] Hint Resolve al_neg_core_simd : pardb.
Lemma al_add_core_simd : forall (v1 : ptr) (v2 : ptr) (vr : ptr) (size : nat),
  alike (like_heap R) eq (add_core_simd v1 v2 vr size) (add_core_simd v1 v2 vr size).
Proof. intros. unfold add_core_simd. par_go. Qed.
#[local] Hint Resolve al_add_core_simd : pardb.
Lemma al_add_core_parallel : forall (v1 : ptr) (v2 : ptr) (vr : ptr) (size : nat),
  alike (like_heap R) eq (add_core_parallel v1 v2 vr size) (add_core_parallel v1 v2 vr size).
Proof. intros. unfold add_core_parallel. par_go. Qed.
#[local] Hint Resolve al_add_core_parallel : pardb.
Lemma al_add_core : forall (v1 : ptr) (v2 : ptr) (vr : ptr) (size : nat),
  alike (like_heap R) eq (add_core v1 v2 vr size) (add_core v1 v2 vr size).
Proof. intros. unfold add_core. par_go. Qed.
#[local] Hint Resolve al_add_core : pardb.
Lemma al_sub_core_simd : forall (v1 : ptr) (v2 : ptr) (vr : ptr) (size : nat),
  alike (like_heap R) eq (sub_core_simd v1 v2 vr size) (sub_core_simd v1 v2 vr size).
Proof. intros. unfold sub_core_simd. par_go. Qed.
#[local] Hint Resolve al_sub_core_simd : pardb.
Lemma al_sub_core_parallel : forall (v1 : ptr) (v2 : ptr) (vr : ptr) (size : nat),
  alike (like_heap R) eq (sub_core_parallel v1 v2 vr size) (sub_core_parallel v1 v2 vr size).
Proof. intros. unfold sub_core_parallel. par_go. Qed.
#[local] Hint Resolve al_sub_core_parallel : pardb.
Lemma al_sub_core : forall (v1 : ptr) (v2 : ptr) (vr : ptr) (size : nat),
  alike (like_heap R) eq (sub_core v1 v2 vr size) (sub_core v1 v2 vr size).
Proof. intros. unfold sub_core. par_go. Qed.
#[local] Hint Resolve al_sub_core : pardb.
Lemma al_axpy_core : forall (alpha1 : T1) (alpha2 : T2) (vx : ptr) (vy : ptr) (size : nat),
  R alpha1 alpha2 -> alike (like_heap R) eq (axpy_core alpha1 vx vy size) (axpy_core alpha2 vx vy size).
Proof. intros. unfold axpy_core. par_go. Qed.
#[local] Hint Resolve al_axpy_core : pardb.
Lemma al_dot_core : forall (v1 : ptr) (v2 : ptr) (size : nat),
  alike (like_heap R) R (dot_core v1 v2 size) (dot_core v1 v2 size).
Proof. intros. unfold dot_core. par_go. Qed.
#[local] Hint Resolve al_dot_core : pardb.
Lemma al_cross2_core : forall (v1 : ptr) (v2 : ptr),
  alike (like_heap R) R (cross2_core v1 v2) (cross2_core v1 v2).
Proof. intros. unfold cross2_core. par_go. Qed.
#[local] Hint Resolve al_cross2_core : pardb.
Lemma al_cross3_core : forall (v1 : ptr) (v2 : ptr) (vr : ptr),
  alike (like_heap R) eq (cross3_core v1 v2 vr) (cross3_core v1 v2 vr).
Proof. intros. unfold cross3_core. par_go. Qed.
#[local] Hint Resolve al_cross3_core : pardb.
Lemma al_cross3_acc_core : forall (v1 : ptr) (v2 : ptr) (vr : ptr),
  alike (like_heap R) eq (cross3_acc_core v1 v2 vr) (cross3_acc_core v1 v2 vr).
Proof. intros. unfold cross3_acc_core. par_go. Qed.
#[local] Hint Resolve al_cross3_acc_core : pardb.
Lemma al_scal_core : forall (alpha1 : T1) (alpha2 : T2) (v1 : ptr) (size : nat),
  R alpha1 alpha2 -> alike (like_heap R) eq (scal_core alpha1 v1 size) (scal_core alpha2 v1 size).
Proof. intros. unfold scal_core. par_go. Qed.
#[local] Hint Resolve al_scal_core : pardb.
Lemma al_norm2_core : forall (v1 : ptr) (size : nat),
  alike (like_heap R) R (norm2_core v1 size) (norm2_core v1 size).
Proof. intros. unfold norm2_core. par_go. Qed.
#[local] Hint Resolve al_norm2_core : pardb.
Lemma al_check_size : forall (n1 : nat) (n2 : nat),
  alike (like_heap R) eq (check_size n1 n2) (check_size n1 n2).
Proof. intros. unfold check_size. par_go. Qed.
#[local] Hint Resolve al_check_size : pardb.
Lemma al_neg_s : forall (N : nat) (v : ptr) (vr : ptr),
  alike (like_heap R) eq (neg_s N v vr) (neg_s N v vr).
Proof. intros. unfold neg_s. par_go. Qed.
#[local] Hint Resolve al_neg_s : pardb.
Lemma al_neg_d : forall (v : ptr) (vr : ptr),
  alike (like_heap R) eq (neg_d v vr) (neg_d v vr).
Proof. intros. unfold neg_d. par_go. Qed.
#[local] Hint Resolve al_neg_d : pardb.
Lemma al_op_neg_s : forall (N : nat) (v : ptr),
  alike (like_heap R) eq (op_neg_s N v) (op_neg_s N v).
Proof. intros. unfold op_neg_s. par_go. Qed.
#[local] Hint Resolve al_op_neg_s : pardb.
Lemma al_op_neg_d : forall (v : ptr),
  alike (like_heap R) eq (op_neg_d v) (op_neg_d v).
Proof. intros. unfold op_neg_d. par_go. Qed.
#[local] Hint Resolve al_op_neg_d : pardb.
Lemma al_add_s : forall (N : nat) (v1 : ptr) (v2 : ptr) (vr : ptr),
  alike (like_heap R) eq (add_s N v1 v2 vr) (add_s N v1 v2 vr).
Proof. intros. unfold add_s. par_go. Qed.
#[local] Hint Resolve al_add_s : pardb.
Lemma al_add_sd : forall (N : nat) (v1 : ptr) (v2 : ptr) (vr : ptr),
  alike (like_heap R) eq (add_sd N v1 v2 vr) (add_sd N v1 v2 vr).
Proof. intros. unfold add_sd. par_go. Qed.
#[local] Hint Resolve al_add_sd : pardb.
Lemma al_add_ds : forall (N : nat) (v1 : ptr) (v2 : ptr) (vr : ptr),
  alike (like_heap R) eq (add_ds N v1 v2 vr) (add_ds N v1 v2 vr).
Proof. intros. unfold add_ds. par_go. Qed.
#[local] Hint Resolve al_add_ds : pardb.
Lemma al_add_d : forall (v1 : ptr) (v2 : ptr) (vr : ptr),
  alike (like_heap R) eq (add_d v1 v2 vr) (add_d v1 v2 vr).
Proof. intros. unfold add_d. par_go. Qed.
#[local] Hint Resolve al_add_d : pardb.
Lemma al_op_add_s : forall (N : nat) (v1 : ptr) (v2 : ptr),
  alike (like_heap R) eq (op_add_s N v1 v2) (op_add_s N v1 v2).
Proof. intros. unfold op_add_s. par_go. Qed.
#[local] Hint Resolve al_op_add_s : pardb.
Lemma al_op_add_d : forall (v1 : ptr) (v2 : ptr),
  alike (like_heap R) eq (op_add_d v1 v2) (op_add_d v1 v2).
Proof. intros. unfold op_add_d. par_go. Qed.
#[local] Hint Resolve al_op_add_d : pardb.
Lemma al_sub_s : forall (N : nat) (v1 : ptr) (v2 : ptr) (vr : ptr),
  alike (like_heap R) eq (sub_s N v1 v2 vr) (sub_s N v1 v2 vr).
Proof. intros. unfold sub_s. par_go. Qed.
#[local] Hint Resolve al_sub_s : pardb.
Lemma al_sub_ds : forall (N : nat) (v1 : ptr) (v2 : ptr) (vr : ptr),
  alike (like_heap R) eq (sub_ds N v1 v2 vr) (sub_ds N v1 v2 vr).
Proof. intros. unfold sub_ds. par_go. Qed.
#[local] Hint Resolve al_sub_ds : pardb.
Lemma al_sub_d : forall (v1 : ptr) (v2 : ptr) (vr : ptr),
  alike (like_heap R) eq (sub_d v1 v2 vr) (sub_d v1 v2 vr).
Proof. intros. unfold sub_d. par_go. Qed.
#[local] Hint Resolve al_sub_d : pardb.
Lemma al_op_sub_s : forall (N : nat) (v1 : ptr) (v2 : ptr),
  alike (like_heap R) eq (op_sub_s N v1 v2) (op_sub_s N v1 v2).
Proof. intros. unfold op_sub_s. par_go. Qed.
#[local] Hint Resolve al_op_sub_s : pardb.
Lemma al_op_sub_d : forall (v1 : ptr) (v2 : ptr),
  alike (like_heap R) eq (op_sub_d v1 v2) (op_sub_d v1 v2).
Proof. intros. unfold op_sub_d. par_go. Qed.
#[local] Hint Resolve al_op_sub_d : pardb.
Lemma al_axpy_s : forall (N : nat) (alpha1 : T1) (alpha2 : T2) (x : ptr) (y : ptr),
  R alpha1 alpha2 -> alike (like_heap R) eq (axpy_s N alpha1 x y) (axpy_s N alpha2 x y).
Proof. intros. unfold axpy_s. par_go. Qed.
#[local] Hint Resolve al_axpy_s : pardb.
Lemma al_axpy_d : forall (alpha1 : T1) (alpha2 : T2) (x : ptr) (y : ptr),
  R alpha1 alpha2 -> alike (like_heap R) eq (axpy_d alpha1 x y) (axpy_d alpha2 x y).
Proof. intros. unfold axpy_d. par_go. Qed.
#[local] Hint Resolve al_axpy_d : pardb.
Lemma al_scale_s : forall (N : nat) (alpha1 : T1) (alpha2 : T2) (x : ptr),
  R alpha1 alpha2 -> alike (like_heap R) eq (scale_s N alpha1 x) (scale_s N alpha2 x).
Proof. intros. unfold scale_s. par_go. Qed.
#[local] Hint Resolve al_scale_s : pardb.
Lemma al_scale_d : forall (alpha1 : T1) (alpha2 : T2) (x : ptr),
  R alpha1 alpha2 -> alike (like_heap R) eq (scale_d alpha1 x) (scale_d alpha2 x).
Proof. intros. unfold scale_d. par_go. Qed.
#[local] Hint Resolve al_scale_d : pardb.
Lemma al_op_scale_s : forall (N : nat) (alpha1 : T1) (alpha2 : T2) (x : ptr),
  R alpha1 alpha2 -> alike (like_heap R) eq (op_scale_s N alpha1 x) (op_scale_s N alpha2 x).
Proof. intros. unfold op_scale_s. par_go. Qed.
#[local] Hint Resolve al_op_scale_s : pardb.
Lemma al_op_scale_d : forall (alpha1 : T1) (alpha2 : T2) (x : ptr),
  R alpha1 alpha2 -> alike (like_heap R) eq (op_scale_d alpha1 x) (op_scale_d alpha2 x).
Proof. intros. unfold op_scale_d. par_go. Qed.
#[local] Hint Resolve al_op_scale_d : pardb.
Lemma al_scaled_s : forall (N : nat) (alpha1 : T1) (alpha2 : T2) (x : ptr),
  R alpha1 alpha2 -> alike (like_heap R) eq (scaled_s N alpha1 x) (scaled_s N alpha2 x).
Proof. intros. unfold scaled_s. par_go. Qed.
#[local] Hint Resolve al_scaled_s : pardb.
Lemma al_scaled_d : forall (alpha1 : T1) (alpha2 : T2) (x : ptr),
  R alpha1 alpha2 -> alike (like_heap R) eq (scaled_d alpha1 x) (scaled_d alpha2 x).
Proof. intros. unfold scaled_d. par_go. Qed.
#[local] Hint Resolve al_scaled_d : pardb.
Lemma al_op_div_s : forall (N : nat) (x : ptr) (alpha1 : T1) (alpha2 : T2),
  R alpha1 alpha2 -> alike (like_heap R) eq (op_div_s N x alpha1) (op_div_s N x alpha2).
Proof. intros. unfold op_div_s. par_go. Qed.
#[local] Hint Resolve al_op_div_s : pardb.
Lemma al_op_div_d : forall (x : ptr) (alpha1 : T1) (alpha2 : T2),
  R alpha1 alpha2 -> alike (like_heap R) eq (op_div_d x alpha1) (op_div_d x alpha2).
Proof. intros. unfold op_div_d. par_go. Qed.
#[local] Hint Resolve al_op_div_d : pardb.
Lemma al_dot_s : forall (N : nat) (x : ptr) (y : ptr),
  alike (like_heap R) R (dot_s N x y) (dot_s N x y).
Proof. intros. unfold dot_s. par_go. Qed.
#[local] Hint Resolve al_dot_s : pardb.
Lemma al_dot_sd : forall (N : nat) (x : ptr) (y : ptr),
  alike (like_heap R) R (dot_sd N x y) (dot_sd N x y).
Proof. intros. unfold dot_sd. par_go. Qed.
#[local] Hint Resolve al_dot_sd : pardb.
Lemma al_dot_d : forall (x : ptr) (y : ptr),
  alike (like_heap R) R (dot_d x y) (dot_d x y).
Proof. intros. unfold dot_d. par_go. Qed.
#[local] Hint Resolve al_dot_d : pardb.
Lemma al_dot_member_d : forall (x : ptr) (y : ptr),
  alike (like_heap R) R (dot_member_d x y) (dot_member_d x y).
Proof. intros. unfold dot_member_d. par_go. Qed.
#[local] Hint Resolve al_dot_member_d : pardb.
Lemma al_dot_member_ds : forall (N : nat) (x : ptr) (y : ptr),
  alike (like_heap R) R (dot_member_ds N x y) (dot_member_ds N x y).
Proof. intros. unfold dot_member_ds. par_go. Qed.
#[local] Hint Resolve al_dot_member_ds : pardb.
Lemma al_norm2_d : forall (x : ptr),
  alike (like_heap R) R (norm2_d x) (norm2_d x).
Proof. intros. unfold norm2_d. par_go. Qed.
#[local] Hint Resolve al_norm2_d : pardb.
Lemma al_norm2_s : forall (N : nat) (x : ptr),
  alike (like_heap R) R (norm2_s N x) (norm2_s N x).
Proof. intros. unfold norm2_s. par_go. Qed.
#[local] Hint Resolve al_norm2_s : pardb.
Lemma al_cross2 : forall (dbg : bool) (dx : bool) (dy : bool) (x : ptr) (y : ptr),
  alike (like_heap R) R (cross2 dbg dx dy x y) (cross2 dbg dx dy x y).
Proof. intros. unfold cross2. par_go. Qed.
#[local] Hint Resolve al_cross2 : pardb.
Lemma al_cross3 : forall (dbg : bool) (dx : bool) (dy : bool) (dr : bool) (x : ptr) (y : ptr) (vr : ptr),
  alike (like_heap R) eq (cross3 dbg dx dy dr x y vr) (cross3 dbg dx dy dr x y vr).
Proof. intros. unfold cross3. par_go. Qed.
#[local] Hint Resolve al_cross3 : pardb.
Lemma al_cross3_new : forall (dbg : bool) (dx : bool) (dy : bool) (x : ptr) (y : ptr),
  alike (like_heap R) eq (cross3_new dbg dx dy x y) (cross3_new dbg dx dy x y).
Proof. intros. unfold cross3_new. par_go. Qed.
#[local] Hint Resolve al_cross3_new : pardb.
Lemma al_cross3_acc : forall (dbg : bool) (dx : bool) (dy : bool) (dr : bool) (x : ptr) (y : ptr) (vr : ptr),
  alike (like_heap R) eq (cross3_acc dbg dx dy dr x y vr) (cross3_acc dbg dx dy dr x y vr).
Proof. intros. unfold cross3_acc. par_go. Qed.
#[local] Hint Resolve al_cross3_acc : pardb.
Lemma al_dynvec_uninit : forall (n : nat),
  alike (like_heap R) eq (dynvec_uninit n) (dynvec_uninit n).
Proof. intros. unfold dynvec_uninit. par_go. Qed.
#[local] Hint Resolve al_dynvec_uninit : pardb.
Lemma al_dynvec_filled : forall (count : nat) (value1 : T1) (value2 : T2),
  R value1 value2 -> alike (like_heap R) eq (dynvec_filled count value1) (dynvec_filled count value2).
Proof. intros. unfold dynvec_filled. par_go. Qed.
#[local] Hint Resolve al_dynvec_filled : pardb.
Lemma al_dynvec_of : forall (l1 : list T1) (l2 : list T2),
  Forall2 R l1 l2 -> alike (like_heap R) eq (dynvec_of l1) (dynvec_of l2).
Proof. intros. unfold dynvec_of. par_go. Qed.
#[local] Hint Resolve al_dynvec_of : pardb.
Lemma al_vec_copy : forall (v : ptr),
  alike (like_heap R) eq (vec_copy v) (vec_copy v).
Proof. intros. unfold vec_copy. par_go. Qed.
#[local] Hint Resolve al_vec_copy : pardb.
Lemma al_vec_assign : forall (dst : ptr) (src : ptr),
  alike (like_heap R) eq (vec_assign dst src) (vec_assign dst src).
Proof. intros. unfold vec_assign. par_go. Qed.
#[local] Hint Resolve al_vec_assign : pardb.
Lemma al_dynvec_move : forall (src : ptr),
  alike (like_heap R) eq (dynvec_move src) (dynvec_move src).
Proof. intros. unfold dynvec_move. par_go. Qed.
#[local] Hint Resolve al_dynvec_move : pardb.
Lemma al_dynvec_move_assign : forall (left1 : list T1) (left2 : list T2) (dst : ptr) (src : ptr),
  Forall2 R left1 left2 -> alike (like_heap R) eq (dynvec_move_assign left1 dst src) (dynvec_move_assign left2 dst src).
Proof. intros. unfold dynvec_move_assign. par_go. Qed.
#[local] Hint Resolve al_dynvec_move_assign : pardb.
Lemma al_sizedvec_of : forall (N : nat) (l1 : list T1) (l2 : list T2),
  Forall2 R l1 l2 -> alike (like_heap R) eq (sizedvec_of N l1) (sizedvec_of N l2).
Proof. intros. unfold sizedvec_of. par_go. Qed.
#[local] Hint Resolve al_sizedvec_of : pardb.
Lemma al_sizedvec_uninit : forall (N : nat),
  alike (like_heap R) eq (sizedvec_uninit N) (sizedvec_uninit N).
Proof. intros. unfold sizedvec_uninit. par_go. Qed.
#[local] Hint Resolve al_sizedvec_uninit : pardb.
Lemma al_sizedvec_filled : forall (N : nat) (value1 : T1) (value2 : T2),
  R value1 value2 -> alike (like_heap R) eq (sizedvec_filled N value1) (sizedvec_filled N value2).
Proof. intros. unfold sizedvec_filled. par_go. Qed.
#[local] Hint Resolve al_sizedvec_filled : pardb.
Lemma al_vec_get : forall (v : ptr) (i : nat),
  alike (like_heap R) R (vec_get v i) (vec_get v i).
Proof. intros. unfold vec_get. par_go. Qed.
#[local] Hint Resolve al_vec_get : pardb.
Lemma al_vec_put : forall (v : ptr) (i : nat) (x1 : T1) (x2 : T2),
  R x1 x2 -> alike (like_heap R) eq (vec_put v i x1) (vec_put v i x2).
Proof. intros. unfold vec_put. par_go. Qed.
#[local] Hint Resolve al_vec_put : pardb.

(** ** ModelMat *)
Lemma al_dynmat_of : forall (n : nat) (m : nat) (arr1 : list T1) (arr2 : list T2),
  Forall2 R arr1 arr2 -> alike (like_heap R) eq (dynmat_of n m arr1) (dynmat_of n m arr2).
Proof. intros. unfold dynmat_of. par_go. Qed.
#[local] Hint Resolve al_dynmat_of : pardb.
Lemma al_sizedmat_of : forall (N : nat) (M' : nat) (arr1 : list T1) (arr2 : list T2),
  Forall2 R arr1 arr2 -> alike (like_heap R) eq (sizedmat_of N M' arr1) (sizedmat_of N M' arr2).
Proof. intros. unfold sizedmat_of. par_go. Qed.
#[local] Hint Resolve al_sizedmat_of : pardb.
Lemma al_mat_uninit : forall (n : nat) (m : nat),
  alike (like_heap R) eq (mat_uninit n m) (mat_uninit n m).
Proof. intros. unfold mat_uninit. par_go. Qed.
#[local] Hint Resolve al_mat_uninit : pardb.
Lemma al_mat_get : forall (A : mat) (i : nat) (j : nat),
  alike (like_heap R) R (mat_get A i j) (mat_get A i j).
Proof. intros. unfold mat_get. par_go. Qed.
#[local] Hint Resolve al_mat_get : pardb.
Lemma al_mat_put : forall (A : mat) (i : nat) (j : nat) (x1 : T1) (x2 : T2),
  R x1 x2 -> alike (like_heap R) eq (mat_put A i j x1) (mat_put A i j x2).
Proof. intros. unfold mat_put. par_go. Qed.
#[local] Hint Resolve al_mat_put : pardb.
Lemma al_mat_at : forall (A : mat) (i : nat) (j : nat),
  alike (like_heap R) R (mat_at A i j) (mat_at A i j).
Proof. intros. unfold mat_at. par_go. Qed.
#[local] Hint Resolve al_mat_at : pardb.
Lemma al_mat_mut_at : forall (A : mat) (i : nat) (j : nat) (x1 : T1) (x2 : T2),
  R x1 x2 -> alike (like_heap R) eq (mat_mut_at A i j x1) (mat_mut_at A i j x2).
Proof. intros. unfold mat_mut_at. par_go. Qed.
#[local] Hint Resolve al_mat_mut_at : pardb.
Lemma al_mat_filled : forall (value1 : T1) (value2 : T2) (n : nat) (m : nat),
  R value1 value2 -> alike (like_heap R) eq (mat_filled value1 n m) (mat_filled value2 n m).
Proof. intros. unfold mat_filled. par_go. Qed.
#[local] Hint Resolve al_mat_filled : pardb.
Lemma al_mat_diag_list : forall (value1 : list T1) (value2 : list T2),
  Forall2 R value1 value2 -> alike (like_heap R) eq (mat_diag_list value1) (mat_diag_list value2).
Proof. intros. unfold mat_diag_list. par_go. Qed.
#[local] Hint Resolve al_mat_diag_list : pardb.
Lemma al_mat_diag : forall (value1 : T1) (value2 : T2) (n : nat),
  R value1 value2 -> alike (like_heap R) eq (mat_diag value1 n) (mat_diag value2 n).
Proof. intros. unfold mat_diag. par_go. Qed.
#[local] Hint Resolve al_mat_diag : pardb.
Lemma al_mat_identity : forall (n : nat),
  alike (like_heap R) eq (mat_identity n) (mat_identity n).
Proof. intros. unfold mat_identity. par_go. Qed.
#[local] Hint Resolve al_mat_identity : pardb.
Lemma al_mat_copy : forall (A : mat),
  alike (like_heap R) eq (mat_copy A) (mat_copy A).
Proof. intros. unfold mat_copy. par_go. Qed.
#[local] Hint Resolve al_mat_copy : pardb.
Lemma al_mat_assign : forall (dst : mat) (src : mat),
  alike (like_heap R) eq (mat_assign dst src) (mat_assign dst src).
Proof. intros. unfold mat_assign. par_go. Qed.
#[local] Hint Resolve al_mat_assign : pardb.
Lemma al_mv_core : forall (n : nat) (m : nat) (alpha1 : T1) (alpha2 : T2) (a : ptr) (x : ptr) (beta1 : T1) (beta2 : T2) (y : ptr),
  R alpha1 alpha2 -> R beta1 beta2 -> alike (like_heap R) eq (mv_core n m alpha1 a x beta1 y) (mv_core n m alpha2 a x beta2 y).
Proof. intros. unfold mv_core. par_go. Qed.
#[local] Hint Resolve al_mv_core : pardb.
Lemma al_mulv : forall (dbg : bool) (alpha1 : T1) (alpha2 : T2) (A : mat) (v : ptr) (beta1 : T1) (beta2 : T2) (vr : ptr),
  R alpha1 alpha2 -> R beta1 beta2 -> alike (like_heap R) eq (mulv dbg alpha1 A v beta1 vr) (mulv dbg alpha2 A v beta2 vr).
Proof. intros. unfold mulv. par_go. Qed.
#[local] Hint Resolve al_mulv : pardb.
Lemma al_op_mulv : forall (dbg : bool) (A : mat) (v : ptr),
  alike (like_heap R) eq (op_mulv dbg A v) (op_mulv dbg A v).
Proof. intros. unfold op_mulv. par_go. Qed.
#[local] Hint Resolve al_op_mulv : pardb.
Lemma al_mm_core : forall (n : nat) (m : nat) (o : nat) (alpha1 : T1) (alpha2 : T2) (a : ptr) (b : ptr) (beta1 : T1) (beta2 : T2) (c : ptr),
  R alpha1 alpha2 -> R beta1 beta2 -> alike (like_heap R) eq (mm_core n m o alpha1 a b beta1 c) (mm_core n m o alpha2 a b beta2 c).
Proof. intros. unfold mm_core. par_go. Qed.
#[local] Hint Resolve al_mm_core : pardb.
Lemma al_mulm : forall (dbg : bool) (alpha1 : T1) (alpha2 : T2) (A : mat) (B : mat) (beta1 : T1) (beta2 : T2) (C : mat),
  R alpha1 alpha2 -> R beta1 beta2 -> alike (like_heap R) eq (mulm dbg alpha1 A B beta1 C) (mulm dbg alpha2 A B beta2 C).
Proof. intros. unfold mulm. par_go. Qed.
#[local] Hint Resolve al_mulm : pardb.
Lemma al_op_mulm : forall (dbg : bool) (A : mat) (B : mat),
  alike (like_heap R) eq (op_mulm dbg A B) (op_mulm dbg A B).
Proof. intros. unfold op_mulm. par_go. Qed.
#[local] Hint Resolve al_op_mulm : pardb.
Lemma al_addm : forall (dbg : bool) (A : mat) (B : mat) (C : mat),
  alike (like_heap R) eq (addm dbg A B C) (addm dbg A B C).
Proof. intros. unfold addm. par_go. Qed.
#[local] Hint Resolve al_addm : pardb.
Lemma al_op_addm : forall (dbg : bool) (A : mat) (B : mat),
  alike (like_heap R) eq (op_addm dbg A B) (op_addm dbg A B).
Proof. intros. unfold op_addm. par_go. Qed.
#[local] Hint Resolve al_op_addm : pardb.
Lemma al_subm : forall (dbg : bool) (A : mat) (B : mat) (C : mat),
  alike (like_heap R) eq (subm dbg A B C) (subm dbg A B C).
Proof. intros. unfold subm. par_go. Qed.
#[local] Hint Resolve al_subm : pardb.
Lemma al_op_subm : forall (dbg : bool) (A : mat) (B : mat),
  alike (like_heap R) eq (op_subm dbg A B) (op_subm dbg A B).
Proof. intros. unfold op_subm. par_go. Qed.
#[local] Hint Resolve al_op_subm : pardb.
Lemma al_scalem : forall (alpha1 : T1) (alpha2 : T2) (A : mat),
  R alpha1 alpha2 -> alike (like_heap R) eq (scalem alpha1 A) (scalem alpha2 A).
Proof. intros. unfold scalem. par_go. Qed.
#[local] Hint Resolve al_scalem : pardb.
Lemma al_op_scalem : forall (alpha1 : T1) (alpha2 : T2) (A : mat),
  R alpha1 alpha2 -> alike (like_heap R) eq (op_scalem alpha1 A) (op_scalem alpha2 A).
Proof. intros. unfold op_scalem. par_go. Qed.
#[local] Hint Resolve al_op_scalem : pardb.
Lemma al_op_negm : forall (A : mat),
  alike (like_heap R) eq (op_negm A) (op_negm A).
Proof. intros. unfold op_negm. par_go. Qed.
#[local] Hint Resolve al_op_negm : pardb.
Lemma al_invert2 : forall (A : mat) (B : mat),
  alike (like_heap R) eq (invert2 A B) (invert2 A B).
Proof. intros. unfold invert2. par_go. Qed.
#[local] Hint Resolve al_invert2 : pardb.
Lemma al_invert2_inplace : forall (A : mat),
  alike (like_heap R) eq (invert2_inplace A) (invert2_inplace A).
Proof. intros. unfold invert2_inplace. par_go. Qed.
#[local] Hint Resolve al_invert2_inplace : pardb.
Lemma al_inverted2 : forall (A : mat),
  alike (like_heap R) eq (inverted2 A) (inverted2 A).
Proof. intros. unfold inverted2. par_go. Qed.
#[local] Hint Resolve al_inverted2 : pardb.

(** ** ModelPacked *)
Lemma al_tri_get : forall S1 S2 (SR : S1 -> S2 -> Prop) (t1 : tri T1) (t2 : tri T2) (i : nat) (j : nat),
  like_tri R t1 t2 -> alike SR R (tri_get t1 i j) (tri_get t2 i j).
Proof. intros. unfold tri_get. par_go. Qed.
#[local] Hint Resolve al_tri_get : pardb.
Lemma al_tri_get_mut : forall (e : exn) (i : nat) (j : nat),
  alike (like_tri R) R (tri_get_mut e i j) (tri_get_mut e i j).
Proof. intros. unfold tri_get_mut. par_go. Qed.
#[local] Hint Resolve al_tri_get_mut : pardb.
Lemma al_tri_set : forall (e : exn) (i : nat) (j : nat) (x1 : T1) (x2 : T2),
  R x1 x2 -> alike (like_tri R) eq (tri_set e i j x1) (tri_set e i j x2).
Proof. intros. unfold tri_set. par_go. Qed.
#[local] Hint Resolve al_tri_set : pardb.
Lemma al_hess_calc_size : forall S1 S2 (SR : S1 -> S2 -> Prop) (isqrt : nat -> nat) (n : nat),
  alike SR eq (hess_calc_size isqrt n) (hess_calc_size isqrt n).
Proof. intros. unfold hess_calc_size. par_go. Qed.
#[local] Hint Resolve al_hess_calc_size : pardb.
Lemma al_hess_of : forall S1 S2 (SR : S1 -> S2 -> Prop) (isqrt : nat -> nat) (l1 : list T1) (l2 : list T2),
  Forall2 R l1 l2 -> alike SR (like_hess R) (hess_of isqrt l1) (hess_of isqrt l2).
Proof. intros. unfold hess_of. par_go. Qed.
#[local] Hint Resolve al_hess_of : pardb.
Lemma al_hess_with_capacity : forall S1 S2 (SR : S1 -> S2 -> Prop) (isqrt : nat -> nat),
  alike SR (like_hess R) (hess_with_capacity isqrt) (hess_with_capacity isqrt).
Proof. intros. unfold hess_with_capacity. par_go. Qed.
#[local] Hint Resolve al_hess_with_capacity : pardb.
Lemma al_hess_get : forall S1 S2 (SR : S1 -> S2 -> Prop) (H1 : hess T1) (H2 : hess T2) (i : nat) (j : nat),
  like_hess R H1 H2 -> alike SR R (hess_get H1 i j) (hess_get H2 i j).
Proof. intros. unfold hess_get. par_go. Qed.
#[local] Hint Resolve al_hess_get : pardb.
Lemma al_hess_set : forall (i : nat) (j : nat) (x1 : T1) (x2 : T2),
  R x1 x2 -> alike (like_hess R) eq (hess_set i j x1) (hess_set i j x2).
Proof. intros. unfold hess_set. par_go. Qed.
#[local] Hint Resolve al_hess_set : pardb.
Lemma al_hess_extend_zero : alike (like_hess R) eq hess_extend_zero hess_extend_zero.
Proof. intros. unfold hess_extend_zero. par_go. Qed.
#[local] Hint Resolve al_hess_extend_zero : pardb.
Lemma al_hess_extend : forall (new_elems1 : list T1) (new_elems2 : list T2),
  Forall2 R new_elems1 new_elems2 -> alike (like_hess R) eq (hess_extend new_elems1) (hess_extend new_elems2).
Proof. intros. unfold hess_extend. par_go. Qed.
#[local] Hint Resolve al_hess_extend : pardb.
Lemma al_hess_col : forall S1 S2 (SR : S1 -> S2 -> Prop) (H1 : hess T1) (H2 : hess T2) (j : nat),
  like_hess R H1 H2 -> alike SR (Forall2 R) (hess_col H1 j) (hess_col H2 j).
Proof. intros. unfold hess_col. par_go. Qed.
#[local] Hint Resolve al_hess_col : pardb.
Lemma al_utri_calc_size : forall S1 S2 (SR : S1 -> S2 -> Prop) (isqrt : nat -> nat) (n : nat),
  alike SR eq (utri_calc_size isqrt n) (utri_calc_size isqrt n).
Proof. intros. unfold utri_calc_size. par_go. Qed.
#[local] Hint Resolve al_utri_calc_size : pardb.
Lemma al_utri_of : forall S1 S2 (SR : S1 -> S2 -> Prop) (isqrt : nat -> nat) (l1 : list T1) (l2 : list T2),
  Forall2 R l1 l2 -> alike SR (like_utri R) (utri_of isqrt l1) (utri_of isqrt l2).
Proof. intros. unfold utri_of. par_go. Qed.
#[local] Hint Resolve al_utri_of : pardb.
Lemma al_utri_with_capacity : forall S1 S2 (SR : S1 -> S2 -> Prop) (isqrt : nat -> nat),
  alike SR (like_utri R) (utri_with_capacity isqrt) (utri_with_capacity isqrt).
Proof. intros. unfold utri_with_capacity. par_go. Qed.
#[local] Hint Resolve al_utri_with_capacity : pardb.
Lemma al_utri_get : forall S1 S2 (SR : S1 -> S2 -> Prop) (U1 : utri T1) (U2 : utri T2) (i : nat) (j : nat),
  like_utri R U1 U2 -> alike SR R (utri_get U1 i j) (utri_get U2 i j).
Proof. intros. unfold utri_get. par_go. Qed.
#[local] Hint Resolve al_utri_get : pardb.
Lemma al_utri_set : forall (i : nat) (j : nat) (x1 : T1) (x2 : T2),
  R x1 x2 -> alike (like_utri R) eq (utri_set i j x1) (utri_set i j x2).
Proof. intros. unfold utri_set. par_go. Qed.
#[local] Hint Resolve al_utri_set : pardb.
Lemma al_utri_extend_zero : alike (like_utri R) eq utri_extend_zero utri_extend_zero.
Proof. intros. unfold utri_extend_zero. par_go. Qed.
#[local] Hint Resolve al_utri_extend_zero : pardb.
Lemma al_utri_extend : forall (new_elems1 : list T1) (new_elems2 : list T2),
  Forall2 R new_elems1 new_elems2 -> alike (like_utri R) eq (utri_extend new_elems1) (utri_extend new_elems2).
Proof. intros. unfold utri_extend. par_go. Qed.
#[local] Hint Resolve al_utri_extend : pardb.
Lemma al_back_sub : forall (U1 : utri T1) (U2 : utri T2) (y : ptr),
  like_utri R U1 U2 -> alike (like_heap R) eq (back_sub U1 y) (back_sub U2 y).
Proof. intros. unfold back_sub. par_go. Qed.
#[local] Hint Resolve al_back_sub : pardb.
Lemma al_ltri_get : forall S1 S2 (SR : S1 -> S2 -> Prop) (L1 : ltri T1) (L2 : ltri T2) (i : nat) (j : nat),
  like_ltri R L1 L2 -> alike SR R (ltri_get L1 i j) (ltri_get L2 i j).
Proof. intros. unfold ltri_get. par_go. Qed.
#[local] Hint Resolve al_ltri_get : pardb.
Lemma al_ltri_set : forall (i : nat) (j : nat) (x1 : T1) (x2 : T2),
  R x1 x2 -> alike (like_ltri R) eq (ltri_set i j x1) (ltri_set i j x2).
Proof. intros. unfold ltri_set. par_go. Qed.
#[local] Hint Resolve al_ltri_set : pardb.
Lemma al_herm_get : forall S1 S2 (SR : S1 -> S2 -> Prop) (H1 : herm T1) (H2 : herm T2) (i : nat) (j : nat),
  like_herm R H1 H2 -> alike SR R (herm_get H1 i j) (herm_get H2 i j).
Proof. intros. unfold herm_get. par_go. Qed.
#[local] Hint Resolve al_herm_get : pardb.
Lemma al_herm_set : forall (i : nat) (j : nat) (x1 : T1) (x2 : T2),
  R x1 x2 -> alike (like_herm R) eq (herm_set i j x1) (herm_set i j x2).
Proof. intros. unfold herm_set. par_go. Qed.
#[local] Hint Resolve al_herm_set : pardb.
Lemma al_herm_into_lower : alike (like_herm R) (like_ltri R) herm_into_lower herm_into_lower.
Proof. intros. unfold herm_into_lower. par_go. Qed.
#[local] Hint Resolve al_herm_into_lower : pardb.

(** ** ModelSparse *)
Lemma al_coo_sort : forall S1 S2 (SR : S1 -> S2 -> Prop) (srt : sorter) (A1 : coo T1) (A2 : coo T2),
  like_coo R A1 A2 -> alike SR (like_coo R) (coo_sort srt A1) (coo_sort srt A2).
Proof. intros. unfold coo_sort. par_go. Qed.
#[local] Hint Resolve al_coo_sort : pardb.
Lemma al_coo_of : forall S1 S2 (SR : S1 -> S2 -> Prop) (srt : sorter) (val1 : list T1) (val2 : list T2) (rows : list nat) (cols : list nat),
  Forall2 R val1 val2 -> alike SR (like_coo R) (coo_of srt val1 rows cols) (coo_of srt val2 rows cols).
Proof. intros. unfold coo_of. par_go. Qed.
#[local] Hint Resolve al_coo_of : pardb.
Lemma al_coo_unit : forall S1 S2 (SR : S1 -> S2 -> Prop) (srt : sorter) (n : nat),
  alike SR (like_coo R) (coo_unit srt n) (coo_unit srt n).
Proof. intros. unfold coo_unit. par_go. Qed.
#[local] Hint Resolve al_coo_unit : pardb.
Lemma al_max_elem : forall S1 S2 (SR : S1 -> S2 -> Prop) (l : list nat),
  alike SR eq (max_elem l) (max_elem l).
Proof. intros. unfold max_elem. par_go. Qed.
#[local] Hint Resolve al_max_elem : pardb.
Lemma al_coo_shape : forall S1 S2 (SR : S1 -> S2 -> Prop) (A1 : coo T1) (A2 : coo T2),
  like_coo R A1 A2 -> alike SR eq (coo_shape A1) (coo_shape A2).
Proof. intros. unfold coo_shape. par_go. Qed.
#[local] Hint Resolve al_coo_shape : pardb.
Lemma al_coo_scan : forall S1 S2 (SR : S1 -> S2 -> Prop) (A1 : coo T1) (A2 : coo T2) (i : nat) (j : nat) (idx : list nat),
  like_coo R A1 A2 -> alike SR eq (coo_scan A1 i j idx) (coo_scan A2 i j idx).
Proof. intros. unfold coo_scan. par_go. Qed.
#[local] Hint Resolve al_coo_scan : pardb.
Lemma al_coo_find : forall S1 S2 (SR : S1 -> S2 -> Prop) (A1 : coo T1) (A2 : coo T2) (i : nat) (j : nat),
  like_coo R A1 A2 -> alike SR eq (coo_find A1 i j) (coo_find A2 i j).
Proof. intros. unfold coo_find. par_go. Qed.
#[local] Hint Resolve al_coo_find : pardb.
Lemma al_coo_get : forall S1 S2 (SR : S1 -> S2 -> Prop) (A1 : coo T1) (A2 : coo T2) (i : nat) (j : nat),
  like_coo R A1 A2 -> alike SR R (coo_get A1 i j) (coo_get A2 i j).
Proof. intros. unfold coo_get. par_go. Qed.
#[local] Hint Resolve al_coo_get : pardb.
Lemma al_coo_get_mut : forall (i : nat) (j : nat),
  alike (like_coo R) R (coo_get_mut i j) (coo_get_mut i j).
Proof. intros. unfold coo_get_mut. par_go. Qed.
#[local] Hint Resolve al_coo_get_mut : pardb.
Lemma al_coo_set : forall (i : nat) (j : nat) (x1 : T1) (x2 : T2),
  R x1 x2 -> alike (like_coo R) eq (coo_set i j x1) (coo_set i j x2).
Proof. intros. unfold coo_set. par_go. Qed.
#[local] Hint Resolve al_coo_set : pardb.
Lemma al_coo_assign : forall (A1 : coo T1) (A2 : coo T2),
  like_coo R A1 A2 -> alike (like_coo R) eq (coo_assign A1) (coo_assign A2).
Proof. intros. unfold coo_assign. par_go. Qed.
#[local] Hint Resolve al_coo_assign : pardb.
Lemma al_get_coo : alike (like_coo R) (like_coo R) get_coo get_coo.
Proof. intros. unfold get_coo. par_go. Qed.
#[local] Hint Resolve al_get_coo : pardb.
Lemma al_coo_push : forall (v1 : T1) (v2 : T2) (i : nat) (c : nat),
  R v1 v2 -> alike (like_coo R) eq (coo_push v1 i c) (coo_push v2 i c).
Proof. intros. unfold coo_push. par_go. Qed.
#[local] Hint Resolve al_coo_push : pardb.
Definition like_rhs (r1 : option (coo T1)) (r2 : option (coo T2)) : Prop :=
  match r1, r2 with Some a, Some b => like_coo R a b | None, None => True | _, _ => False end.
Lemma al_add_row r1 r2 i cend rend : like_rhs r1 r2 -> forall fuel cursor rcursor,
  alike (like_coo R) eq (add_row r1 fuel i cend rend cursor rcursor) (add_row r2 fuel i cend rend cursor rcursor).
Proof.
  intros Hr. induction fuel as [|f IH]; intros cursor rcursor; cbn [add_row]; [apply al_diverge|].
  destruct r1 as [B1|], r2 as [B2|]; try contradiction; cbn [like_rhs rhs_of] in *; par_go.
Qed.
#[local] Hint Resolve al_add_row : pardb.
Lemma al_coo_add_assign r1 r2 srt : like_rhs r1 r2 -> alike (like_coo R) eq (coo_add_assign r1 srt) (coo_add_assign r2 srt).
Proof.
  intros Hr. pose proof (fun i cend rend => al_add_row r1 r2 i cend rend Hr) as K. unfold coo_add_assign.
  destruct r1 as [B1|], r2 as [B2|]; try contradiction; cbn [like_rhs rhs_of] in *; par_go.
Qed.
Lemma al_coo_add_assign_other B1 B2 srt : like_coo R B1 B2 -> alike (like_coo R) eq (coo_add_assign (Some B1) srt) (coo_add_assign (Some B2) srt).
Proof. intros. now apply al_coo_add_assign. Qed.
#[local] Hint Resolve al_coo_add_assign_other : pardb.
Lemma al_crs_loop {S1 S2} (SR : S1 -> S2 -> Prop) fuel : forall rows it i ptrs,
  alike SR eq (crs_loop fuel rows it i ptrs) (crs_loop fuel rows it i ptrs).
Proof. induction fuel as [|f IH]; intros rows it i ptrs; cbn [crs_loop]; par_go. Qed.
#[local] Hint Resolve al_crs_loop : pardb.
Lemma al_convert_coo_crs : forall S1 S2 (SR : S1 -> S2 -> Prop) (rows : list nat),
  alike SR eq (convert_coo_crs rows) (convert_coo_crs rows).
Proof. intros. unfold convert_coo_crs. par_go. Qed.
#[local] Hint Resolve al_convert_coo_crs : pardb.
Lemma al_csr_of_coo : forall S1 S2 (SR : S1 -> S2 -> Prop) (A1 : coo T1) (A2 : coo T2),
  like_coo R A1 A2 -> alike SR (like_csr R) (csr_of_coo A1) (csr_of_coo A2).
Proof. intros. unfold csr_of_coo. par_go. Qed.
#[local] Hint Resolve al_csr_of_coo : pardb.
Lemma al_csr_of : forall S1 S2 (SR : S1 -> S2 -> Prop) (val1 : list T1) (val2 : list T2) (ptrs : list nat) (cols : list nat),
  Forall2 R val1 val2 -> alike SR (like_csr R) (csr_of val1 ptrs cols) (csr_of val2 ptrs cols).
Proof. intros. unfold csr_of. par_go. Qed.
#[local] Hint Resolve al_csr_of : pardb.
Lemma al_csr_unit : forall S1 S2 (SR : S1 -> S2 -> Prop) (n : nat),
  alike SR (like_csr R) (csr_unit n) (csr_unit n).
Proof. intros. unfold csr_unit. par_go. Qed.
#[local] Hint Resolve al_csr_unit : pardb.
Lemma al_csr_shape : forall S1 S2 (SR : S1 -> S2 -> Prop) (A1 : csr T1) (A2 : csr T2),
  like_csr R A1 A2 -> alike SR eq (csr_shape A1) (csr_shape A2).
Proof. intros. unfold csr_shape. par_go. Qed.
#[local] Hint Resolve al_csr_shape : pardb.
Lemma al_csr_find : forall S1 S2 (SR : S1 -> S2 -> Prop) (A1 : csr T1) (A2 : csr T2) (i : nat) (j : nat),
  like_csr R A1 A2 -> alike SR eq (csr_find A1 i j) (csr_find A2 i j).
Proof. intros. unfold csr_find. par_go. Qed.
#[local] Hint Resolve al_csr_find : pardb.
Lemma al_csr_get : forall S1 S2 (SR : S1 -> S2 -> Prop) (A1 : csr T1) (A2 : csr T2) (i : nat) (j : nat),
  like_csr R A1 A2 -> alike SR R (csr_get A1 i j) (csr_get A2 i j).
Proof. intros. unfold csr_get. par_go. Qed.
#[local] Hint Resolve al_csr_get : pardb.
Lemma al_csr_get_mut : forall (i : nat) (j : nat),
  alike (like_csr R) R (csr_get_mut i j) (csr_get_mut i j).
Proof. intros. unfold csr_get_mut. par_go. Qed.
#[local] Hint Resolve al_csr_get_mut : pardb.
Lemma al_csr_set : forall (i : nat) (j : nat) (x1 : T1) (x2 : T2),
  R x1 x2 -> alike (like_csr R) eq (csr_set i j x1) (csr_set i j x2).
Proof. intros. unfold csr_set. par_go. Qed.
#[local] Hint Resolve al_csr_set : pardb.
Lemma al_csr_assign : forall (A1 : csr T1) (A2 : csr T2),
  like_csr R A1 A2 -> alike (like_csr R) eq (csr_assign A1) (csr_assign A2).
Proof. intros. unfold csr_assign. par_go. Qed.
#[local] Hint Resolve al_csr_assign : pardb.
Lemma al_scal_vals : forall S1 S2 (SR : S1 -> S2 -> Prop) (alpha1 : T1) (alpha2 : T2) (l1 : list T1) (l2 : list T2),
  R alpha1 alpha2 -> Forall2 R l1 l2 -> alike SR (Forall2 R) (scal_vals alpha1 l1) (scal_vals alpha2 l2).
Proof. intros. unfold scal_vals. par_go. Qed.
#[local] Hint Resolve al_scal_vals : pardb.
Lemma al_coo_scale : forall (alpha1 : T1) (alpha2 : T2),
  R alpha1 alpha2 -> alike (like_coo R) eq (coo_scale alpha1) (coo_scale alpha2).
Proof. intros. unfold coo_scale. par_go. Qed.
#[local] Hint Resolve al_coo_scale : pardb.
Lemma al_csr_scale : forall (alpha1 : T1) (alpha2 : T2),
  R alpha1 alpha2 -> alike (like_csr R) eq (csr_scale alpha1) (csr_scale alpha2).
Proof. intros. unfold csr_scale. par_go. Qed.
#[local] Hint Resolve al_csr_scale : pardb.
Lemma al_coo_op_scale : forall S1 S2 (SR : S1 -> S2 -> Prop) (alpha1 : T1) (alpha2 : T2) (A1 : coo T1) (A2 : coo T2),
  R alpha1 alpha2 -> like_coo R A1 A2 -> alike SR (like_coo R) (coo_op_scale alpha1 A1) (coo_op_scale alpha2 A2).
Proof. intros. unfold coo_op_scale. par_go. Qed.
#[local] Hint Resolve al_coo_op_scale : pardb.
Lemma al_csr_op_scale : forall S1 S2 (SR : S1 -> S2 -> Prop) (alpha1 : T1) (alpha2 : T2) (A1 : csr T1) (A2 : csr T2),
  R alpha1 alpha2 -> like_csr R A1 A2 -> alike SR (like_csr R) (csr_op_scale alpha1 A1) (csr_op_scale alpha2 A2).
Proof. intros. unfold csr_op_scale. par_go. Qed.
#[local] Hint Resolve al_csr_op_scale : pardb.
Lemma al_coo_neg : forall S1 S2 (SR : S1 -> S2 -> Prop) (A1 : coo T1) (A2 : coo T2),
  like_coo R A1 A2 -> alike SR (like_coo R) (coo_neg A1) (coo_neg A2).
Proof. intros. unfold coo_neg. par_go. Qed.
#[local] Hint Resolve al_coo_neg : pardb.
Lemma al_csr_neg : forall S1 S2 (SR : S1 -> S2 -> Prop) (A1 : csr T1) (A2 : csr T2),
  like_csr R A1 A2 -> alike SR (like_csr R) (csr_neg A1) (csr_neg A2).
Proof. intros. unfold csr_neg. par_go. Qed.
#[local] Hint Resolve al_csr_neg : pardb.
Lemma al_coo_plus : forall S1 S2 (SR : S1 -> S2 -> Prop) (srt : sorter) (m11 : coo T1) (m12 : coo T2) (m21 : coo T1) (m22 : coo T2),
  like_coo R m11 m12 -> like_coo R m21 m22 -> alike SR (like_coo R) (coo_plus srt m11 m21) (coo_plus srt m12 m22).
Proof. intros. unfold coo_plus. par_go. Qed.
#[local] Hint Resolve al_coo_plus : pardb.
Lemma al_coo_minus : forall S1 S2 (SR : S1 -> S2 -> Prop) (srt : sorter) (m11 : coo T1) (m12 : coo T2) (m21 : coo T1) (m22 : coo T2),
  like_coo R m11 m12 -> like_coo R m21 m22 -> alike SR (like_coo R) (coo_minus srt m11 m21) (coo_minus srt m12 m22).
Proof. intros. unfold coo_minus. par_go. Qed.
#[local] Hint Resolve al_coo_minus : pardb.
Lemma al_sp_mul_core : forall (n : nat) (cols : list nat) (rptr : list nat) (alpha1 : T1) (alpha2 : T2) (vals1 : list T1) (vals2 : list T2) (x : ptr) (beta1 : T1) (beta2 : T2) (y : ptr),
  R alpha1 alpha2 -> Forall2 R vals1 vals2 -> R beta1 beta2 -> alike (like_heap R) eq (sp_mul_core n cols rptr alpha1 vals1 x beta1 y) (sp_mul_core n cols rptr alpha2 vals2 x beta2 y).
Proof. intros. unfold sp_mul_core. par_go. Qed.
#[local] Hint Resolve al_sp_mul_core : pardb.
Lemma al_sp_mul : forall (dbg : bool) (alpha1 : T1) (alpha2 : T2) (A1 : csr T1) (A2 : csr T2) (v : ptr) (beta1 : T1) (beta2 : T2) (vr : ptr),
  R alpha1 alpha2 -> like_csr R A1 A2 -> R beta1 beta2 -> alike (like_heap R) eq (sp_mul dbg alpha1 A1 v beta1 vr) (sp_mul dbg alpha2 A2 v beta2 vr).
Proof. intros. unfold sp_mul. par_go. Qed.
#[local] Hint Resolve al_sp_mul : pardb.
Lemma al_sp_op_mul : forall (dbg : bool) (A1 : csr T1) (A2 : csr T2) (v : ptr),
  like_csr R A1 A2 -> alike (like_heap R) eq (sp_op_mul dbg A1 v) (sp_op_mul dbg A2 v).
Proof. intros. unfold sp_op_mul. par_go. Qed.
#[local] Hint Resolve al_sp_op_mul : pardb.

(** ** ModelSolvers *)
Lemma al_tdma_col : forall (n : nat) (nrow : nat) (dl1 : list T1) (dl2 : list T2) (d1 : list T1) (d2 : list T2) (du1 : list T1) (du2 : list T2) (b : ptr) (x : ptr) (k : nat),
  Forall2 R dl1 dl2 -> Forall2 R d1 d2 -> Forall2 R du1 du2 -> alike (like_heap R) eq (tdma_col n nrow dl1 d1 du1 b x k) (tdma_col n nrow dl2 d2 du2 b x k).
Proof. intros. unfold tdma_col. par_go. Qed.
#[local] Hint Resolve al_tdma_col : pardb.
Lemma al_tdma : forall (n : nat) (nrow : nat) (dl1 : list T1) (dl2 : list T2) (d1 : list T1) (d2 : list T2) (du1 : list T1) (du2 : list T2) (b : ptr) (x : ptr),
  Forall2 R dl1 dl2 -> Forall2 R d1 d2 -> Forall2 R du1 du2 -> alike (like_heap R) eq (tdma n nrow dl1 d1 du1 b x) (tdma n nrow dl2 d2 du2 b x).
Proof. intros. unfold tdma. par_go. Qed.
#[local] Hint Resolve al_tdma : pardb.
Lemma al_tridiag_solve_vec : forall (dbg : bool) (t1 : tri T1) (t2 : tri T2) (b : ptr) (rslt : ptr),
  like_tri R t1 t2 -> alike (like_heap R) eq (tridiag_solve_vec dbg t1 b rslt) (tridiag_solve_vec dbg t2 b rslt).
Proof. intros. unfold tridiag_solve_vec. par_go. Qed.
#[local] Hint Resolve al_tridiag_solve_vec : pardb.
Lemma al_tridiag_solve_mat : forall (dbg : bool) (t1 : tri T1) (t2 : tri T2) (b : mat) (rslt : mat),
  like_tri R t1 t2 -> alike (like_heap R) eq (tridiag_solve_mat dbg t1 b rslt) (tridiag_solve_mat dbg t2 b rslt).
Proof. intros. unfold tridiag_solve_mat. par_go. Qed.
#[local] Hint Resolve al_tridiag_solve_mat : pardb.
Lemma al_cholesky_decomposition : forall (mt : memtype) (n : nat) (l : ptr),
  alike (like_heap R) eq (cholesky_decomposition mt n l) (cholesky_decomposition mt n l).
Proof. intros. unfold cholesky_decomposition. par_go. Qed.
#[local] Hint Resolve al_cholesky_decomposition : pardb.
Lemma al_cholesky_linear : forall (mt : memtype) (n : nat) (nrow : nat) (l : ptr) (rhs : ptr) (rslt : ptr),
  alike (like_heap R) eq (cholesky_linear mt n nrow l rhs rslt) (cholesky_linear mt n nrow l rhs rslt).
Proof. intros. unfold cholesky_linear. par_go. Qed.
#[local] Hint Resolve al_cholesky_linear : pardb.
Lemma al_mod_cholesky_decomposition : forall (mt : memtype) (n : nat) (l : ptr),
  alike (like_heap R) eq (mod_cholesky_decomposition mt n l) (mod_cholesky_decomposition mt n l).
Proof. intros. unfold mod_cholesky_decomposition. par_go. Qed.
#[local] Hint Resolve al_mod_cholesky_decomposition : pardb.
Lemma al_mod_cholesky_linear : forall (mt : memtype) (n : nat) (nrhs : nat) (l : ptr) (rhs : ptr) (rslt : ptr),
  alike (like_heap R) eq (mod_cholesky_linear mt n nrhs l rhs rslt) (mod_cholesky_linear mt n nrhs l rhs rslt).
Proof. intros. unfold mod_cholesky_linear. par_go. Qed.
#[local] Hint Resolve al_mod_cholesky_linear : pardb.
Lemma al_tri_cholesky : forall (H1 : herm T1) (H2 : herm T2),
  like_herm R H1 H2 -> alike (like_heap R) eq (tri_cholesky H1) (tri_cholesky H2).
Proof. intros. unfold tri_cholesky. par_go. Qed.
#[local] Hint Resolve al_tri_cholesky : pardb.
Lemma al_dyn_cholesky : forall (A : mat),
  alike (like_heap R) eq (dyn_cholesky A) (dyn_cholesky A).
Proof. intros. unfold dyn_cholesky. par_go. Qed.
#[local] Hint Resolve al_dyn_cholesky : pardb.
Lemma al_mod_cholesky : forall (A : mat),
  alike (like_heap R) eq (mod_cholesky A) (mod_cholesky A).
Proof. intros. unfold mod_cholesky. par_go. Qed.
#[local] Hint Resolve al_mod_cholesky : pardb.
Lemma al_lower_mat : forall (F : chol),
  alike (like_heap R) (like_ltri R) (lower_mat F) (lower_mat F).
Proof. intros. unfold lower_mat. par_go. Qed.
#[local] Hint Resolve al_lower_mat : pardb.
Lemma al_chol_solve_mut_vec : forall (dbg : bool) (F : chol) (rhs : ptr),
  alike (like_heap R) eq (chol_solve_mut_vec dbg F rhs) (chol_solve_mut_vec dbg F rhs).
Proof. intros. unfold chol_solve_mut_vec. par_go. Qed.
#[local] Hint Resolve al_chol_solve_mut_vec : pardb.
Lemma al_chol_solve_vec : forall (dbg : bool) (F : chol) (rhs : ptr),
  alike (like_heap R) eq (chol_solve_vec dbg F rhs) (chol_solve_vec dbg F rhs).
Proof. intros. unfold chol_solve_vec. par_go. Qed.
#[local] Hint Resolve al_chol_solve_vec : pardb.
Lemma al_chol_solve_mut_mat : forall (dbg : bool) (F : chol) (rhs : mat),
  alike (like_heap R) eq (chol_solve_mut_mat dbg F rhs) (chol_solve_mut_mat dbg F rhs).
Proof. intros. unfold chol_solve_mut_mat. par_go. Qed.
#[local] Hint Resolve al_chol_solve_mut_mat : pardb.
Lemma al_chol_solve_mat : forall (dbg : bool) (F : chol) (rhs : mat),
  alike (like_heap R) eq (chol_solve_mat dbg F rhs) (chol_solve_mat dbg F rhs).
Proof. intros. unfold chol_solve_mat. par_go. Qed.
#[local] Hint Resolve al_chol_solve_mat : pardb.
Lemma al_mod_solve_mut_vec : forall (dbg : bool) (F : chol) (rhs : ptr),
  alike (like_heap R) eq (mod_solve_mut_vec dbg F rhs) (mod_solve_mut_vec dbg F rhs).
Proof. intros. unfold mod_solve_mut_vec. par_go. Qed.
#[local] Hint Resolve al_mod_solve_mut_vec : pardb.
Lemma al_mod_solve_vec : forall (dbg : bool) (F : chol) (rhs : ptr),
  alike (like_heap R) eq (mod_solve_vec dbg F rhs) (mod_solve_vec dbg F rhs).
Proof. intros. unfold mod_solve_vec. par_go. Qed.
#[local] Hint Resolve al_mod_solve_vec : pardb.
Lemma al_mod_solve_mut_mat : forall (dbg : bool) (F : chol) (rhs : mat),
  alike (like_heap R) eq (mod_solve_mut_mat dbg F rhs) (mod_solve_mut_mat dbg F rhs).
Proof. intros. unfold mod_solve_mut_mat. par_go. Qed.
#[local] Hint Resolve al_mod_solve_mut_mat : pardb.
Lemma al_mod_solve_mat : forall (dbg : bool) (F : chol) (rhs : mat),
  alike (like_heap R) eq (mod_solve_mat dbg F rhs) (mod_solve_mat dbg F rhs).
Proof. intros. unfold mod_solve_mat. par_go. Qed.
#[local] Hint Resolve al_mod_solve_mat : pardb.

(** ** ModelIter *)
Lemma al_cgs : forall (dbg : bool) (vecs : list ptr),
  alike (like_heap R) eq (cgs dbg vecs) (cgs dbg vecs).
Proof. intros. unfold cgs. par_go. Qed.
#[local] Hint Resolve al_cgs : pardb.
Section IluParam.
Context {C1 C2 : Type} (CR : C1 -> C2 -> Prop) (shape1 : M C1 (nat * nat)) (shape2 : M C2 (nat * nat))
  (get1 : nat -> nat -> M C1 T1) (get2 : nat -> nat -> M C2 T2) (set1 : nat -> nat -> T1 -> M C1 unit) (set2 : nat -> nat -> T2 -> M C2 unit).
Hypothesis Hs : alike CR eq shape1 shape2.
Hypothesis Hg : forall i j, alike CR R (get1 i j) (get2 i j).
Hypothesis Ht : forall i j x y, R x y -> alike CR eq (set1 i j x) (set2 i j y).
Lemma al_ilu_sum i j p s1 s2 : R s1 s2 -> alike CR R (ilu_sum get1 i j p s1) (ilu_sum get2 i j p s2).
Proof. intros. unfold ilu_sum. par_go. Qed.
#[local] Hint Resolve al_ilu_sum : pardb.
Lemma al_ilu_decomp : alike CR eq (ilu_decomp shape1 get1 set1) (ilu_decomp shape2 get2 set2).
Proof. unfold ilu_decomp. par_go. Qed.
#[local] Hint Resolve al_ilu_decomp : pardb.
Lemma al_ilu_new : alike CR eq (ilu_new shape1 get1 set1) (ilu_new shape2 get2 set2).
Proof. unfold ilu_new. par_go. Qed.
End IluParam.
Lemma al_ilu_solve (get1 : nat -> nat -> M (heap T1) T1) (get2 : nat -> nat -> M (heap T2) T2) rhs :
  (forall i j, alike (like_heap R) R (get1 i j) (get2 i j)) -> alike (like_heap R) eq (ilu_solve get1 rhs) (ilu_solve get2 rhs).
Proof. intros Hg. unfold ilu_solve. par_go. Qed.
Lemma al_ilu_dyn : forall A : mat, alike (like_heap R) eq (ilu_dyn A) (ilu_dyn A).
Proof.
  intros A. unfold ilu_dyn. eapply (al_bind _ eq); [apply al_mat_copy|]. intros F F' <-. eapply (al_bind _ eq); [|intros; now apply al_ret].
  apply al_ilu_new; intros; par_go.
Qed.
#[local] Hint Resolve al_ilu_dyn : pardb.
Lemma al_ilu_dyn_solve : forall (F : mat) (rhs : ptr), alike (like_heap R) eq (ilu_dyn_solve F rhs) (ilu_dyn_solve F rhs).
Proof. intros. apply al_ilu_solve. intros. par_go. Qed.
#[local] Hint Resolve al_ilu_dyn_solve : pardb.
Lemma al_ilu_csr_run : alike (like_csr R) eq ilu_csr_run ilu_csr_run.
Proof.
  unfold ilu_csr_run. apply al_ilu_new; intros; try (now apply al_csr_set); intros A B H; [now apply al_csr_shape|now apply al_csr_get].
Qed.
#[local] Hint Resolve al_ilu_csr_run : pardb.
Lemma al_ilu_csr : forall S1 S2 (SR : S1 -> S2 -> Prop) (A1 : csr T1) (A2 : csr T2),
  like_csr R A1 A2 -> alike SR (like_csr R) (ilu_csr A1) (ilu_csr A2).
Proof. intros. unfold ilu_csr. par_go. Qed.
#[local] Hint Resolve al_ilu_csr : pardb.
Lemma al_ilu_csr_solve : forall (F1 : csr T1) (F2 : csr T2) (rhs : ptr),
  like_csr R F1 F2 -> alike (like_heap R) eq (ilu_csr_solve F1 rhs) (ilu_csr_solve F2 rhs).
Proof. intros. apply al_ilu_solve. intros. now apply al_csr_get. Qed.
#[local] Hint Resolve al_ilu_csr_solve : pardb.
Section GmresParam.
Context (dbg : bool) (isqrt : nat -> nat) (nrow1 : M (heap T1) nat) (nrow2 : M (heap T2) nat)
  (mulv1 lu1 : ptr -> M (heap T1) ptr) (mulv2 lu2 : ptr -> M (heap T2) ptr).
Hypothesis Hn : alike (like_heap R) eq nrow1 nrow2.
Hypothesis Hm : forall p, alike (like_heap R) eq (mulv1 p) (mulv2 p).
Hypothesis Hl : forall p, alike (like_heap R) eq (lu1 p) (lu2 p).
Lemma al_arnoldi q H1 H2 h1 h2 : like_hess R H1 H2 -> R h1 h2 ->
  alike (like_heap R) (like_pair (like_pair eq (like_hess R)) R) (arnoldi dbg mulv1 lu1 q H1 h1) (arnoldi dbg mulv2 lu2 q H2 h2).
Proof. intros. unfold arnoldi, upd_local. par_go. Qed.
Lemma al_givens_rot {S1 S2} (SR : S1 -> S2 -> Prop) H1 H2 h1 h2 s1 s2 c1 c2 r1 r2 b1 b2 :
  like_hess R H1 H2 -> R h1 h2 -> Forall2 R s1 s2 -> Forall2 R c1 c2 -> like_utri R r1 r2 -> Forall2 R b1 b2 ->
  alike SR (like_pair (like_pair (like_pair (Forall2 R) (Forall2 R)) (like_utri R)) (Forall2 R))
    (givens_rot dbg H1 h1 s1 c1 r1 b1) (givens_rot dbg H2 h2 s2 c2 r2 b2).
Proof. intros. unfold givens_rot, upd_local. par_go. Qed.
#[local] Hint Resolve al_arnoldi al_givens_rot : pardb.
Lemma al_gmres_step tol1 tol2 g1 g2 : R tol1 tol2 -> like_gstate R g1 g2 ->
  alike (like_heap R) (like_gstate R) (gmres_step dbg mulv1 lu1 tol1 g1) (gmres_step dbg mulv2 lu2 tol2 g2).
Proof. intros. unfold gmres_step. par_go. Qed.
Lemma al_gmres_init rhs : alike (like_heap R) (like_gstate R) (gmres_init isqrt lu1 rhs) (gmres_init isqrt lu2 rhs).
Proof. intros. unfold gmres_init. par_go. Qed.
Lemma al_gmres_finish n g1 g2 : like_gstate R g1 g2 -> alike (like_heap R) eq (gmres_finish n g1) (gmres_finish n g2).
Proof.
  intros H. unfold gmres_finish. par_prep. cbv beta iota zeta. par_len1.
  eapply al_bind; [apply (al_run_local _ eq); [par_rel|par_go]|]. intros [u1 k1] [u2 k2] [_ K]. cbn [snd] in *.
  pose proof (like_mem _ _ 0 K) as K0. match goal with |- context [mem k1 0 ++ ?x] => match goal with |- context [mem k2 0 ++ ?y] =>
    assert (K1 : Forall2 R (mem k1 0 ++ x) (mem k2 0 ++ y)) by par_rel; revert K1; generalize (mem k1 0 ++ x) (mem k2 0 ++ y) end end.
  clear K K0 k1 k2. intros m1 m2 K0. par_go.
Qed.
#[local] Hint Resolve al_gmres_step al_gmres_init al_gmres_finish : pardb.
Lemma al_gmres_solve tol1 tol2 rhs : R tol1 tol2 ->
  alike (like_heap R) eq (gmres_solve dbg isqrt nrow1 mulv1 lu1 tol1 rhs) (gmres_solve dbg isqrt nrow2 mulv2 lu2 tol2 rhs).
Proof. intros. unfold gmres_solve. par_go. Qed.
End GmresParam.
Lemma al_gmres_dyn_new : forall (A : mat),
  alike (like_heap R) eq (gmres_dyn_new A) (gmres_dyn_new A).
Proof. intros. unfold gmres_dyn_new. par_go. Qed.
#[local] Hint Resolve al_gmres_dyn_new : pardb.
Lemma al_gmres_dyn_solve : forall (dbg : bool) (isqrt : nat -> nat) (G : mat * mat) (tol1 : T1) (tol2 : T2) (rhs : ptr),
  R tol1 tol2 -> alike (like_heap R) eq (gmres_dyn_solve dbg isqrt G tol1 rhs) (gmres_dyn_solve dbg isqrt G tol2 rhs).
Proof. intros. apply al_gmres_solve; auto; [now apply al_ret|intros; par_go|intros; par_go]. Qed.
Lemma al_gmres_csr_new : forall S1 S2 (SR : S1 -> S2 -> Prop) (A1 : csr T1) (A2 : csr T2),
  like_csr R A1 A2 -> alike SR (like_pair (like_csr R) (like_csr R)) (gmres_csr_new A1) (gmres_csr_new A2).
Proof. intros. unfold gmres_csr_new. par_go. Qed.
#[local] Hint Resolve al_gmres_csr_new : pardb.
Lemma al_gmres_csr_solve : forall (dbg : bool) (isqrt : nat -> nat) (G1 : csr T1 * csr T1) (G2 : csr T2 * csr T2) (tol1 : T1) (tol2 : T2) (rhs : ptr),
  like_pair (like_csr R) (like_csr R) G1 G2 -> R tol1 tol2 ->
  alike (like_heap R) eq (gmres_csr_solve dbg isqrt G1 tol1 rhs) (gmres_csr_solve dbg isqrt G2 tol2 rhs).
Proof.
  intros dbg isqrt G1 G2 tol1 tol2 rhs [H1 H2] Ht. apply al_gmres_solve; auto; intros.
  - eapply (al_bind _ eq); [now apply al_csr_shape|]. intros ? ? <-. now apply al_ret.
  - now apply al_sp_op_mul.
  - now apply al_ilu_csr_solve.
Qed.
End Param.
