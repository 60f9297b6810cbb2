(** * C88: contraction into fused multiply-adds keeps the rounding guarantees (theorem statements)

    The functions are run on the expressions of SpecFma.v; [rho] evaluates an expression the way a
    compiler that contracts products and sums might.  [numbers lab h] is the memory h with its
    numbers as (labelled) leaves. *)
From Coq Require Import Floats Reals Lra Lia FunctionalExtensionality.
From Verif Require Import Base Scalar BaseLemmas Spec RealVec ModelVec ModelMat ModelPacked ModelSolvers SpecMat
  SpecRound Rounding ProofCholMath ProofRound ProofRound2 ProofChol ProofCholSolve ProofTdma SpecIeee ProofIeee ProofIeee2 ProofIeee3 ProofIeee4 RoundIeee SpecFma RoundFma
  ProofFma PropMat PropPacked ProofPacked PropTdma PropChol PropCholSolve PropRound2 PropIeee PropIeee2 PropIeee3 PropIeee4 PropIeee5 PropIeee6.
Local Open Scope R_scope.

(** ** The laws that C76-C84 and C87 rest on hold for every contraction, in every binary format *)
Theorem C88_laws : forall T (Op : Ops T) val fin u eta omega fma,
  Ieee Op val fin unfused u eta omega -> Fused val fin u eta omega fma -> forall rho, contraction Op fma rho ->
  Ieee (TOps Op rho) (fun t => val (rho t)) (fun t => fin (rho t)) product u eta omega.
Proof. intros. now apply (contraction_ieee (fma := fma)). Qed.
Theorem C88_binary64 : forall rho, contraction FOps fma64 rho ->
  Ieee (TOps FOps rho) (fun t => fval (rho t)) (fun t => ffin (rho t)) product u64 eta64 omega64.
Proof. exact (C88_laws _ _ _ _ _ _ _ _ float_ieee float_fused). Qed.

(** ** What that means for numbers as input *)
Section Runs.
Context {T : Type} (Op : Ops T).
Fixpoint leaves (lab : nat -> nat) (l : list T) : list (term T) :=
  match l with [] => [] | x :: l' => Num (lab 0%nat) x :: leaves (fun i => lab (S i)) l' end.
Definition numbers (lab : nat -> nat -> nat) (h : heap T) : heap (term T) :=
  mkHeap (fun p => leaves (lab p) (mem h p)) (next h).
Lemma leaves_length l : forall lab, length (leaves lab l) = length l.
Proof. induction l as [|x l IH]; intros lab; cbn; auto. Qed.
Lemma leaves_nth l : forall lab i d, exists k, nth i (leaves lab l) (Num 0 d) = Num k (nth i l d).
Proof. induction l as [|x l IH]; intros lab [|i] d; cbn; eauto. Qed.
Lemma numbers_len lab h p : len (numbers lab h) p = len h p.
Proof. unfold len, numbers. cbn [mem]. apply leaves_length. Qed.
End Runs.

Section Fused.
Context {T : Type} (Op : Ops T) (val : T -> R) (fin : T -> Prop) (u eta omega : R) (fma : T -> T -> T -> T)
  (I : Ieee Op val fin unfused u eta omega) (F : Fused val fin u eta omega fma) (rho : term T -> T) (C : contraction Op fma rho).
Existing Instance TOps.
Local Notation TO := (TOps Op rho).
Local Notation tval := (fun t => val (rho t)).
Local Notation tfin := (fun t => fin (rho t)).
Let J : Ieee TO tval tfin product u eta omega := contraction_ieee I F C.
Variables (lab : nat -> nat -> nat) (h : heap T).
Local Notation H := (numbers lab h).

Lemma rd_numbers p i : exists k, @rd (term T) TO H p i = Num k (rd h p i).
Proof. unfold rd, numbers. cbn [mem]. apply leaves_nth. Qed.
Lemma rho_rd p i : rho (@rd (term T) TO H p i) = rd h p i.
Proof. destruct (rd_numbers p i) as (k & ->). apply C. Qed.
Lemma rd_settled p i : settled product (@rd (term T) TO H p i).
Proof. destruct (rd_numbers p i) as (k & ->). apply leaf_settled. repeat eexists. Qed.
Lemma vv_rd p : vv tval (@rd (term T) TO H p) = vv val (rd h p).
Proof. extensionality i. unfold vv. now rewrite rho_rd. Qed.
Lemma vm_mget A : vm tval (@mget (term T) TO H A) = vm val (mget h A).
Proof. extensionality i. extensionality j. unfold vm, mget. now rewrite rho_rd. Qed.
Lemma vfin_rd p n : vfin tfin n (@rd (term T) TO H p) <-> vfin fin n (rd h p).
Proof. unfold vfin. split; intros K i Hi; specialize (K i Hi); now rewrite rho_rd in *. Qed.
Lemma ismat_numbers A n m : ismat h A n m -> ismat H A n m.
Proof. intros (A1 & A2 & A3 & A4). repeat split; auto. now rewrite numbers_len. Qed.
Lemma isvec_numbers p n : isvec h p n -> isvec H p n.
Proof. intros (A1 & A2). split; auto. now rewrite numbers_len. Qed.
Lemma msettled_mget A n m : msettled product n m (@mget (term T) TO H A).
Proof. intros i j _ _. apply rd_settled. Qed.

(** The dot product of two dynamic vectors. *)
Theorem C88_dot : forall x y, let n := len h x in
  fits_u32 n = true -> (0 < n)%nat -> n = len h y ->
  exists r, @dot_d _ TO x y H = Ok r H /\
    (fin (rho r) -> vfin fin n (rd h x) /\ vfin fin n (rd h y) /\
      Rabs (val (rho r) - @dotp R ROps n (vv val (rd h x)) (vv val (rd h y))) <=
        gamma u n * @dotp R ROps n (vabs (vv val (rd h x))) (vabs (vv val (rd h y))) + INR n * eta * (1 + gamma u n)) /\
    (vfin fin n (rd h x) -> vfin fin n (rd h y) ->
      (@dotp R ROps n (vabs (vv val (rd h x))) (vabs (vv val (rd h y))) + INR n * eta) * (1 + gamma u n) <= omega -> fin (rho r)).
Proof.
  intros x y n Hf Hn Hl. pose proof (C76_dot TO tval tfin product u eta omega J x y H) as K. cbv zeta in K.
  rewrite !numbers_len in K. destruct (K Hf Hn Hl) as (r & E & _ & K1 & K2). rewrite !vv_rd, !vfin_rd in *. exists r. auto.
Qed.

Theorem C88_norm2 : forall x, let n := len h x in fits_u32 n = true ->
  exists r, @norm2_d _ TO x H = Ok r H /\
    (fin (rho r) -> vfin fin n (rd h x) /\ 0 <= val (rho r) /\
      Rabs (val (rho r) - nrm n (vv val (rd h x))) <=
        gamma u (n + 2) * nrm n (vv val (rd h x)) + (1 + gamma u 1) * sqrt (INR n * eta * (1 + gamma u (n + 1)))) /\
    (vfin fin n (rd h x) -> (nrm n (vv val (rd h x)) * nrm n (vv val (rd h x)) + INR n * eta) * (1 + gamma u (n + 1)) <= omega -> fin (rho r)).
Proof.
  intros x n Hf. pose proof (C76_norm2 TO tval tfin product u eta omega J x H) as K. cbv zeta in K.
  rewrite numbers_len in K. destruct (K Hf) as (r & E & _ & K1 & K2). rewrite !vv_rd, !vfin_rd in *. exists r. auto.
Qed.
Theorem C88_axpy : forall l alpha x y, fits_u32 (len h x) = true -> len h x = len h y ->
  exists h', @axpy_d _ TO (Num l alpha) x y H = Ok y h' /\ forall i, (i < len h x)%nat ->
    let a := rd h x i in let b := rd h y i in let r := rho (@rd _ TO h' y i) in
    (fin r -> fin alpha /\ fin a /\ fin b /\
      Rabs (val r - (val alpha * val a + val b)) <= gamma u 2 * (Rabs (val alpha * val a) + Rabs (val b)) + eta * (1 + gamma u 1)) /\
    (fin alpha -> fin a -> fin b -> (Rabs (val alpha * val a) + Rabs (val b) + eta) * (1 + gamma u 1) <= omega -> fin r).
Proof.
  intros l alpha x y Hf Hl. pose proof (C78_axpy TO tval tfin product u eta omega J (Num l alpha) x y H) as K.
  rewrite !numbers_len in K. destruct (K Hf Hl) as (h' & E & K'); [intros i _; apply rd_settled|]. exists h'. split; [exact E|].
  intros i Hi. specialize (K' i Hi). cbv zeta in *. rewrite !rho_rd in K'. pose proof (proj1 C) as Cn. rewrite Cn in K'. exact K'.
Qed.
(** The product of a matrix and a vector. *)
Theorem C88_matvec : forall dbg A x n m,
  fits_u32 n = true -> fits_u32 m = true -> ismat h A n m -> isvec h x m ->
  exists y h', @op_mulv _ TO dbg A x H = Ok y h' /\ isvec h' y n /\
    forall i, (i < n)%nat -> let r := rho (@rd _ TO h' y i) in
      (fin r -> vfin fin m (mget h A i) /\ vfin fin m (rd h x) /\
        Rabs (val r - @mvmul R ROps m (vm val (mget h A)) (vv val (rd h x)) i) <=
          gamma u (m + 1) * @mvmul R ROps m (mabs (vm val (mget h A))) (vabs (vv val (rd h x))) i + INR m * eta * (1 + gamma u (m + 1))) /\
      (vfin fin m (mget h A i) -> vfin fin m (rd h x) ->
        (@mvmul R ROps m (mabs (vm val (mget h A))) (vabs (vv val (rd h x))) i + INR m * eta) * (1 + gamma u (m + 1)) <= omega -> fin r).
Proof.
  intros dbg A x n m Hn Hm HA Hx.
  destruct (C77_matvec_operator TO tval tfin product u eta omega J dbg A x n m H Hn Hm (ismat_numbers _ _ _ HA) (isvec_numbers _ _ Hx)) as (y & h' & E & _ & V & K).
  exists y, h'. split; [exact E|]. split; [exact V|]. intros i Hi. specialize (K i Hi). cbv zeta. rewrite vm_mget, vv_rd, vfin_rd in K.
  destruct K as [K1 K2]. split.
  - intros Fr. destruct (K1 Fr) as (Q1 & Q2 & Q3). split; [|auto]. intros k Hk. specialize (Q1 k Hk). unfold mget in *. now rewrite rho_rd in Q1.
  - intros Q1. apply K2. intros k Hk. specialize (Q1 k Hk). unfold mget in *. now rewrite rho_rd.
Qed.
(** Cholesky: the factorisation of a sufficiently definite matrix succeeds, and solving with it is
    backward stable.  The predicates are those of C80 and C87, about the values. *)
Theorem C88_cholesky : forall theta amax n A, ismat h A n n -> fits_u32 n = true ->
  definite_ieee val fin u eta omega theta amax n (mget h A) ->
  exists F' h', @dyn_cholesky _ TO A H = Ok F' h' /\ ext H h' /\ isfac h' F' n /\
    chol_success val fin u eta n (mget h A) (fun i j => rho (@fac _ TO h' F' i j)).
Proof.
  intros theta amax n A HA Hf D.
  assert (E1 : forall i j, rho (@mget _ TO H A i j) = mget h A i j) by (intros; unfold mget; apply rho_rd).
  assert (D' : definite_ieee tval tfin u eta omega theta amax n (@mget _ TO H A)).
  { unfold definite_ieee in *. cbv zeta in *. rewrite vm_mget. destruct D as (D1 & D2 & D3 & D4 & D5). split; auto. split; auto. split; auto. split; auto.
    intros i j Hi Hj. rewrite E1. now apply D4. }
  destruct (C87_square TO tval tfin product u eta omega J theta amax n A H (ismat_numbers _ _ _ HA) Hf (msettled_mget A n n) D') as (F' & h' & E & X & IF & S).
  exists F', h'. split; [exact E|]. split; [exact X|]. split; [exact IF|]. unfold chol_success, chol_factored in *.
  destruct S as (S1 & [S2 S3] & S4). rewrite vm_mget in S3, S4. split; [exact S1|]. split; [split|].
  - intros i j Hi Hj. specialize (S2 i j Hi Hj). now rewrite E1 in S2.
  - exact S3.
  - exact S4.
Qed.
Theorem C88_cholesky_solve : forall dbg n A rhs F' h1, ismat h A n n -> isvec h rhs n -> (Z.of_nat n < 2 ^ 31)%Z ->
  @dyn_cholesky _ TO A H = Ok F' h1 -> let L := fun i j => rho (@fac _ TO h1 F' i j) in good_diag val fin n L ->
  exists x h2, @chol_solve_vec _ TO dbg F' rhs h1 = Ok x h2 /\ isvec h2 x n /\
    chol_solved val fin unfused u eta (3 * n + 1) n (chol_round val n L) L (symf (vm val (mget h A))) (rd h rhs) (fun i => rho (@rd _ TO h2 x i)).
Proof.
  intros dbg n A rhs F' h1 HA Hr Hn E L GD. assert (Hf : fits_u32 n = true) by (unfold fits_u32; apply Z.ltb_lt; lia).
  pose proof (@dyn_outcome _ TO n A H (ismat_numbers _ _ _ HA) Hf) as Out.
  assert (X : ext H h1).
  { destruct Out as (h' & Fr & Out). destruct (ctor_ext _ _ _ _ _ Fr eq_refl) as [X _].
    destruct Out as [[_ Q]|[[_ Q]|(c & _ & _ & Q)]]; rewrite Q in E; try discriminate; injection E as _ <-; exact X. }
  pose proof (isvec_numbers _ _ Hr) as Hr'. destruct Hr as [V1 V2].
  assert (M : mem h1 rhs = mem H rhs) by (apply X; exact V1).
  assert (Hr1 : isvec h1 rhs n). { destruct Hr' as [W1 W2]. split; [destruct X; lia|]. unfold len in *. now rewrite M. }
  assert (R1 : @rd _ TO h1 rhs = @rd _ TO H rhs) by (extensionality i; unfold rd; now rewrite M).
  destruct (C80_square TO tval tfin product u eta omega J dbg n A H F' h1 (ismat_numbers _ _ _ HA) Hn (msettled_mget A n n) E GD) as (Q & _).
  destruct (Q rhs Hr1) as (x & h2 & Ex & _ & _ & Vx & K). exists x, h2. split; [exact Ex|]. split; [exact Vx|].
  intros _ Fx. rewrite R1 in K. destruct (K (fun i _ => rd_settled rhs i) Fx) as (Fb & A' & e & W & B & S).
  rewrite vfin_rd in Fb. rewrite vm_mget in W. split; [exact Fb|]. exists A', e. split; [exact W|]. split; [exact B|].
  rewrite vv_rd in S. exact S.
Qed.
(** The tridiagonal solver. *)
Definition tri_leaves (l : nat -> nat) (t : tri T) : tri (term T) := mkTri (leaves l (tdl t)) (leaves l (td t)) (leaves l (tdu t)).
Lemma rho_atf l (c : list T) i : rho (@atf _ TO (leaves l c) i) = atf c i.
Proof. unfold atf. cbn [zero TOps]. destruct (leaves_nth c l i zero) as (k & ->). pose proof (proj1 C) as Cn. apply Cn. Qed.
Lemma rho_tmat l t i j : rho (@tmat _ TO (tri_leaves l t) i j) = tmat t i j.
Proof.
  unfold tmat, band. cbn [tdl td tdu tri_leaves]. destruct (Nat.eqb i j); [apply rho_atf|]. destruct (Nat.eqb j (i + 1)); [apply rho_atf|].
  destruct (Nat.eqb i (j + 1)); [apply rho_atf|]. pose proof (proj1 C) as Cn. apply Cn.
Qed.
Theorem C88_tridiagonal : forall dbg l (t : tri T) n b rslt,
  (2 <= n)%nat -> fits_i32 n = true -> tri_wf T t n -> dominant_ieee val fin u eta omega n (tmat t) -> isvec h b n -> (n <= len h rslt)%nat ->
  exists h', @tridiag_solve_vec _ TO dbg (tri_leaves l t) b rslt H = Ok rslt h' /\
    let x := fun i => rho (@rd _ TO h' rslt i) in
    (vfin fin n x -> vfin fin n (rd h b) /\ tri_solution u eta n (vm val (tmat t)) (vv val (rd h b)) (vv val x)) /\
    (forall M, vfin fin n (rd h b) -> tri_bound u eta omega n (vm val (tmat t)) (vv val (rd h b)) M ->
      vfin fin n x /\ forall i, (i < n)%nat -> Rabs (val (x i)) <= (1 + u) ^ (2 * n) * (M + INR n * eta)).
Proof.
  intros dbg l t n b rslt Hn Hf W D Hb Lr.
  assert (VT : vm tval (@tmat _ TO (tri_leaves l t)) = vm val (tmat t)).
  { extensionality i. extensionality j. unfold vm. now rewrite rho_tmat. }
  assert (D' : dominant_ieee tval tfin u eta omega n (@tmat _ TO (tri_leaves l t))).
  { destruct D as [D1 D2]. split; [intros i j Hi Hj; rewrite rho_tmat; now apply D1|]. intros i Hi. rewrite VT. now apply D2. }
  assert (W' : tri_wf (term T) (tri_leaves l t) n).
  { destruct W as (W1 & W2 & W3). unfold tri_wf, tri_leaves. cbn [tdl td tdu]. rewrite !leaves_length. auto. }
  destruct (C83_vector TO tval tfin product u eta omega J dbg (tri_leaves l t) n b rslt H Hn Hf W' D' (isvec_numbers _ _ Hb)) as (h' & E & K1 & K2).
  { now rewrite numbers_len. }
  { intros i _. unfold atf, tri_leaves. cbn [td zero TOps]. destruct (leaves_nth (td t) l i zero) as (k & ->). apply leaf_settled. repeat eexists. }
  { intros i _. apply rd_settled. }
  exists h'. split; [exact E|]. cbv zeta. rewrite VT, vv_rd in *. split; [intros Fx; destruct (K1 Fx) as [K3 K4]; rewrite vfin_rd in K3; auto|].
  intros M Fb HM. rewrite <- vfin_rd in Fb. exact (K2 M Fb HM).
Qed.
End Fused.

(** ** The two extreme ways *)
Theorem C88_ways : forall T (Op : Ops T) fma, contraction Op fma (plainly Op) /\ contraction Op fma (eagerly Op fma).
Proof. intros. split; [apply plainly_contraction|apply eagerly_contraction]. Qed.

Print Assumptions C88_laws.
Print Assumptions C88_binary64.
Print Assumptions C88_dot.
Print Assumptions C88_norm2.
Print Assumptions C88_axpy.
Print Assumptions C88_matvec.
Print Assumptions C88_cholesky.
Print Assumptions C88_cholesky_solve.
Print Assumptions C88_tridiagonal.

(** ** Executions in binary64 *)
Local Notation flt := Coq.Floats.PrimFloat.float.
Definition XH : heap flt := heap_of [[0x1.999999999999ap-4; 0x1.3333333333333p-2; 0x1.6666666666666p-1]; [3; -1; 0x1p-60]]%float.
Definition XN : heap (term flt) := numbers (fun _ _ => 0%nat) XH.
Definition Xplain : Ops (term flt) := TOps FOps (plainly FOps).
Definition Xeager : Ops (term flt) := TOps FOps (eagerly FOps fma64).
(** A dot product that meets the hypotheses of C88_dot and on which the two ways differ. *)
Example C88_nonvacuous : (fits_u32 (len XH 0%nat) = true /\ (0 < len XH 0%nat)%nat /\ len XH 0%nat = len XH 1%nat) /\
  exists r, @dot_d _ Xplain 0%nat 1%nat XN = Ok r XN /\ @dot_d _ Xeager 0%nat 1%nat XN = Ok r XN /\
    Coq.Floats.PrimFloat.is_finite (eagerly FOps fma64 r) = true /\ Coq.Floats.PrimFloat.eqb (eagerly FOps fma64 r) (plainly FOps r) = false.
Proof.
  split; [split; [vm_compute; reflexivity|]; split; [vm_compute; lia|reflexivity]|]. eexists. split; [reflexivity|]. split; [reflexivity|]. split; vm_compute; reflexivity.
Qed.

(** A definite matrix (its hypotheses are C87's, see C87_nonvacuous) is factorised and a system
    solved, absorbing all products. *)
Example C88_cholesky_runs :
  match @dyn_cholesky _ Xeager (mkMat 0%nat 2%nat 2%nat) (numbers (fun _ _ => 0%nat) ED) with
  | Ok F h1 =>
      match @chol_solve_vec _ Xeager true F 1%nat h1 with
      | Ok r h2 => (Nat.eqb (len h2 r) 2 && List.forallb (fun t => Coq.Floats.PrimFloat.is_finite (eagerly FOps fma64 t)) (mem h2 r))%bool
      | _ => false
      end
  | _ => false
  end = true.
Proof. vm_compute. reflexivity. Qed.

(** ** What contraction does break *)
(** The cross product of a vector with itself: zero without contraction, not zero with it. *)
Theorem C88_cross_self_refuted : exists rho (h : heap flt) v r h', contraction FOps fma64 rho /\
  @cross3_new _ (TOps FOps rho) true true true v v (numbers (fun _ _ => 0%nat) h) = Ok r h' /\
  (exists r0 h0, @cross3_new _ FOps true true true v v h = Ok r0 h0 /\ forall i, (i < 3)%nat -> rd h0 r0 i = 0%float) /\
  exists i, (i < 3)%nat /\ Coq.Floats.PrimFloat.eqb (rho (@rd _ (TOps FOps rho) h' r i)) 0%float = false.
Proof.
  exists (eagerly FOps fma64), XH, 0%nat. eexists. eexists. split; [apply eagerly_contraction|]. split; [reflexivity|]. split.
  - eexists. eexists. split; [reflexivity|]. intros [|[|[|i]]] Hi; [| | |lia]; vm_compute; reflexivity.
  - exists 0%nat. split; [lia|]. vm_compute. reflexivity.
Qed.
(** Scale a vector, then add another: the sum is not the rounded sum of the vectors stored, which
    C78 would give for rounded operands. *)
Theorem C88_chain_refuted : exists rho (h : heap flt) l alpha x y s h1 r h2, contraction FOps fma64 rho /\
  @op_scale_d _ (TOps FOps rho) (Num l alpha) x (numbers (fun _ _ => 0%nat) h) = Ok s h1 /\
  @op_add_d _ (TOps FOps rho) s y h1 = Ok r h2 /\
  Coq.Floats.PrimFloat.eqb (rho (@rd _ (TOps FOps rho) h2 r 0%nat))
    (Coq.Floats.PrimFloat.add (rho (@rd _ (TOps FOps rho) h1 s 0%nat)) (rho (@rd _ (TOps FOps rho) h1 y 0%nat))) = false.
Proof.
  exists (eagerly FOps fma64), XH, 0%nat, 0x1.999999999999ap-4%float, 0%nat, 0%nat. eexists. eexists. eexists. eexists.
  split; [apply eagerly_contraction|]. split; [reflexivity|]. split; [reflexivity|]. vm_compute. reflexivity.
Qed.
Print Assumptions C88_ways.
Print Assumptions C88_cross_self_refuted.
Print Assumptions C88_chain_refuted.
