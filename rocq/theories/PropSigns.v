(** * C96: changing signs of the data (theorem statements)

    Two runs of the same operation, the data of the second having other signs: [sgn k x x'] says
    that x' is x (k even) or -x (k odd), bit for bit, only the sign of a zero being left open
    (SpecSigns.v).  The theorems of C92 that need no root hold with [sgn] for [s]; here are the
    others, and the most used of C92 again.  Nothing is assumed about overflow or NaNs.  The
    arithmetic is any that is symmetric about zero: all binary IEEE formats are. *)
From Coq Require Import ZArith Floats Reals Lra Lia List.
From Flocq Require Import Core BinarySingleNaN.
From Verif Require Import Base Scalar BaseLemmas Spec Sums ModelVec ModelMat SpecMat ModelPacked ProofPacked ModelSparse
  PropPacked ProofVec ProofVecProp ProofMatOps ModelSolvers ModelIter ProofChol ProofCholSolve ProofIlu PropVec PropMat PropChol PropCholSolve PropIlu
  ProofSparse SpecSparse PropSparse ProofSparseCsr ProofSpmv PropSpmv ProofBackSub ProofTdma ProofTdmaBits PropRepeat ProofCgs PropCgs
  PropRound2 FloatSqrt ProofGmresRun PropGmresAny RoundIeee SpecUnits ProofUnits ProofGmresBits PropUnits SpecSigns RoundSigns ProofSigns.
Import ListNotations.
Local Open Scope Z_scope.

Section Signs.
Context {T : Type} (Op : Ops T) (fin : T -> Prop) (Sg : Signs Op fin).
Local Notation s := (sgn Op).
Local Notation vsigns := (vunits s).
Local Notation msigns := (munits s).
Local Notation lsigns := (lunits s).
Local Notation UU := (sg_units (Signs := Sg)).
Local Notation UZ := (sg_zero (Signs := Sg)).
Implicit Types h : heap T.

(** The relation in which the theorems of C92 hold. *)
Theorem C96_units : Units Op s (nonzero Op) /\ UnitsZero Op s.
Proof. split; [exact UU|exact UZ]. Qed.

(** ** Vectors and products *)
Theorem C96_dot : forall n x y x' y' p q g h h', fits_u32 n = true -> (0 < n)%nat ->
  len h x = n -> len h y = n -> len h' x' = n -> len h' y' = n ->
  vsigns n p (rd h x) (rd h' x') -> vsigns n q (rd h y) (rd h' y') -> (forall i, (i < n)%nat -> p i + q i = g) ->
  exists v v', dot_d x y h = Ok v h /\ dot_d x' y' h' = Ok v' h' /\ s g v v'.
Proof. exact (C92_dot Op s _ UU). Qed.
(** The norm is the same, to the bit. *)
Theorem C96_norm2 : forall n x x' p h h', fits_u32 n = true -> len h x = n -> len h' x' = n -> vsigns n p (rd h x) (rd h' x') ->
  exists v, norm2_d x h = Ok v h /\ norm2_d x' h' = Ok v h'.
Proof.
  intros n x x' p h h' Hf L1 L2 I. eexists. split; [apply norm2_d_ok; now rewrite L1|]. rewrite norm2_d_ok by now rewrite L2.
  do 2 f_equal. rewrite L1, L2. exact (ssquares Sg p n _ _ I).
Qed.
Theorem C96_matvec_operator : forall dbg dbg' A A' x x' n m r c t h h',
  fits_u32 n = true -> fits_u32 m = true -> ismat h A n m -> isvec h x m -> ismat h' A' n m -> isvec h' x' m ->
  msigns n m (fun i j => r i + c j) (mget h A) (mget h' A') -> vsigns m (fun j => t - c j) (rd h x) (rd h' x') ->
  exists y h1 y' h1', op_mulv dbg A x h = Ok y h1 /\ op_mulv dbg' A' x' h' = Ok y' h1' /\ vsigns n (fun i => r i + t) (rd h1 y) (rd h1' y').
Proof. exact (C92_matvec_operator Op s _ UU). Qed.

(** ** Cholesky: the signs of rows and of the same columns changed *)
(** Both find the factor, both return without one (C38), or both throw. *)
Definition soutcomes n (A A' : nat -> nat -> T) r (o o' : res (heap T) chol) : Prop :=
  (exists F h1 F' h1', o = Ok F h1 /\ o' = Ok F' h1' /\ isfac h1 F n /\ isfac h1' F' n /\
     ~ bad (A 0%nat 0%nat) /\ ~ bad (A' 0%nat 0%nat) /\ lsigns n (fun i j => r i + r j) (fac h1 F) (fac h1' F') /\
     (forall i, (i < n)%nat -> nonzero Op (fac h1 F i i))) \/
  (exists F h1 F' h1', o = Ok F h1 /\ o' = Ok F' h1' /\ (0 < n)%nat /\ bad (A 0%nat 0%nat) /\ bad (A' 0%nat 0%nat)) \/
  (exists h1 h1', o = Throw RuntimeError h1 /\ o' = Throw RuntimeError h1').
Lemma soutcomes_ok m m' h h' h0 h0' F F' n A A' r : (0 < n)%nat -> ctor_outcome m h h0 F n A -> ctor_outcome m' h' h0' F' n A' ->
  (forall g, frame (chp F) (lowpos (chmt F) n) h0 g -> isfac g F n) -> (forall g, frame (chp F') (lowpos (chmt F') n) h0' g -> isfac g F' n) ->
  lsigns n (fun i j => r i + r j) A A' -> soutcomes n A A' r (m h) (m' h').
Proof.
  intros Hn (g & Fr & Out) (g' & Fr' & Out') IF IF' I. specialize (IF g Fr). specialize (IF' g' Fr').
  assert (P0 : forall (A L : nat -> nat -> T), factored n A L -> ~ bad (A 0%nat 0%nat)) by (intros A0 L0 Fc; apply (Fc 0%nat Hn)).
  destruct Out as [[Q1 Q2]|[[Q1 Q2]|(c & Hc & Q1 & Q2)]]; destruct Out' as [[Q1' Q2']|[[Q1' Q2']|(c' & Hc' & Q1' & Q2')]]; rewrite Q2, Q2'.
  - left. exists F, g, F', g'. do 4 (split; [auto|]). split; [eauto|]. split; [eauto|]. split; [|exact (sdiag Sg _ _ n Q1)].
    exact (srows Sg n r _ _ _ _ n (le_n n) I Q1 Q1').
  - exfalso. exact (sfact_fail Sg n r _ _ _ _ _ I Q1 Q1').
  - exfalso. exact (sfact_fail Sg n r _ _ _ _ _ I Q1 Q1').
  - exfalso. exact (sfail_fact Sg n r _ _ _ _ _ I Q1 Q1').
  - right. left. exists F, g, F', g'. do 3 (split; [auto|]). split; [apply Q1|apply Q1'].
  - exfalso. pose proof (sfail Sg n r _ _ _ _ _ _ I Q1 Q1'). lia.
  - exfalso. exact (sfail_fact Sg n r _ _ _ _ _ I Q1 Q1').
  - exfalso. pose proof (sfail Sg n r _ _ _ _ _ _ I Q1 Q1'). lia.
  - right. right. eauto.
Qed.
Theorem C96_cholesky_square : forall n A A' r h h', (0 < n)%nat -> ismat h A n n -> ismat h' A' n n -> fits_u32 n = true ->
  lsigns n (fun i j => r i + r j) (mget h A) (mget h' A') ->
  soutcomes n (mget h A) (mget h' A') r (dyn_cholesky A h) (dyn_cholesky A' h').
Proof.
  intros n A A' r h h' Hn HA HA' Hf I.
  apply (soutcomes_ok _ _ _ _ _ _ _ _ _ _ _ _ Hn (dyn_outcome n A h HA Hf) (dyn_outcome n A' h' HA' Hf)); [| |exact I].
  - intros g Fr. destruct (ctor_ext _ _ _ _ _ Fr eq_refl) as [X X2]. destruct HA as (_ & _ & _ & A4). destruct Fr as (N & Mm & L & _).
    repeat split; auto; [cbn [chp]; lia|]. rewrite L. unfold len. cbn [chp]. rewrite mem_halloc_same. exact A4.
  - intros g Fr. destruct (ctor_ext _ _ _ _ _ Fr eq_refl) as [X X2]. destruct HA' as (_ & _ & _ & A4). destruct Fr as (N & Mm & L & _).
    repeat split; auto; [cbn [chp]; lia|]. rewrite L. unfold len. cbn [chp]. rewrite mem_halloc_same. exact A4.
Qed.
Theorem C96_cholesky_packed : forall n A A' r h h', (0 < n)%nat -> herm_wf A n -> herm_wf A' n -> fits_u32 n = true ->
  lsigns n (fun i j => r i + r j) (hmat A) (hmat A') -> soutcomes n (hmat A) (hmat A') r (tri_cholesky A h) (tri_cholesky A' h').
Proof.
  intros n A A' r h h' Hn HA HA' Hf I.
  apply (soutcomes_ok _ _ _ _ _ _ _ _ _ _ _ _ Hn (tri_outcome n A h HA Hf) (tri_outcome n A' h' HA' Hf)); [| |exact I].
  - intros g Fr. destruct (ctor_ext _ _ _ _ _ Fr eq_refl) as [X X2]. destruct HA as (_ & A4). destruct Fr as (N & Mm & L & _).
    repeat split; auto; [cbn [chp]; lia|]. rewrite L. unfold len. cbn [chp]. rewrite mem_halloc_same. exact A4.
  - intros g Fr. destruct (ctor_ext _ _ _ _ _ Fr eq_refl) as [X X2]. destruct HA' as (_ & A4). destruct Fr as (N & Mm & L & _).
    repeat split; auto; [cbn [chp]; lia|]. rewrite L. unfold len. cbn [chp]. rewrite mem_halloc_same. exact A4.
Qed.
(** Right-hand sides with the signs r i + t give solutions with the signs t - r i; all four calls. *)
Theorem C96_cholesky_solve : forall dbg dbg' F F' n r h h', (Z.of_nat n < 2 ^ 31)%Z -> isfac h F n -> isfac h' F' n ->
  lsigns n (fun i j => r i + r j) (fac h F) (fac h' F') -> (forall i, (i < n)%nat -> nonzero Op (fac h F i i)) ->
  solves Op s r r n (chol_solve_vec dbg F) (chol_solve_vec dbg' F') h h' /\
  solves_in Op s r r n (chp F) (chp F') (chol_solve_mut_vec dbg F) (chol_solve_mut_vec dbg' F') h h' /\
  solves_mat Op s r r n (chol_solve_mat dbg F) (chol_solve_mat dbg' F') h h' /\
  solves_mat_in Op s r r n (chp F) (chp F') (chol_solve_mut_mat dbg F) (chol_solve_mut_mat dbg' F') h h'.
Proof.
  intros dbg dbg' F F' n r h h' Hn HF HF' I D.
  assert (RU : forall t b b' x x', vsigns n (fun i => r i + t) b b' -> substituted n (fac h F) b x -> substituted n (fac h' F') b' x' ->
     vsigns n (fun i => t - r i) x x') by (intros t b b' x x' Ib S S'; now apply (ssubst Sg n r t (fac h F) (fac h' F') b b')).
  split; [|split; [|split]].
  - apply (form_vec Op s r r n _ _ RU); intros; now apply chol_vec_out.
  - apply (form_vec_in Op s r r n _ _ RU); intros; now apply chol_vec_in.
  - apply (form_mat Op s r r n _ _ RU); intros; now apply chol_mat_out.
  - apply (form_mat_in Op s r r n _ _ RU); intros; now apply chol_mat_in.
Qed.
(** The root-free factorisation, of matrices that need not be definite. *)
Theorem C96_modified : forall n A A' r h h', ismat h A n n -> ismat h' A' n n -> fits_u32 n = true ->
  lsigns n (fun i j => r i + r j) (mget h A) (mget h' A') ->
  (exists F h1 F' h1', mod_cholesky A h = Ok F h1 /\ mod_cholesky A' h' = Ok F' h1' /\ isfac h1 F n /\ isfac h1' F' n /\
     lsigns n (fun i j => r i + r j) (fac h1 F) (fac h1' F')) \/
  (exists h1 h1', mod_cholesky A h = Throw RuntimeError h1 /\ mod_cholesky A' h' = Throw RuntimeError h1').
Proof. exact (C92_modified Op s _ UU UZ (fun y H => H)). Qed.

(** ** Incomplete LU: the signs of rows (r) and columns (c) changed independently *)
Theorem C96_ilu : forall n A A' r c h h', ismat h A n n -> ismat h' A' n n -> fits_u32 n = true ->
  msigns n n (fun i j => r i + c j) (mget h A) (mget h' A') ->
  (exists F h1 F' h1', ilu_dyn A h = Ok F h1 /\ ilu_dyn A' h' = Ok F' h1' /\ ismat h1 F n n /\ ismat h1' F' n n /\
     msigns n n (lu_unit r c) (mget h1 F) (mget h1' F')) \/
  (exists h1 h1', ilu_dyn A h = Throw RuntimeError h1 /\ ilu_dyn A' h' = Throw RuntimeError h1').
Proof. exact (C92_ilu Op s _ UU UZ (fun y H => H)). Qed.
Theorem C96_ilu_solve : forall F F' n r c h h', fits_u32 n = true -> ismat h F n n -> ismat h' F' n n ->
  msigns n n (lu_unit r c) (mget h F) (mget h' F') -> (forall i, (i < n)%nat -> nonzero Op (mget h F i i)) ->
  solves Op s r c n (ilu_dyn_solve F) (ilu_dyn_solve F') h h'.
Proof. exact (C92_ilu_solve Op s _ UU). Qed.
Theorem C96_ilu_csr : forall n (A A' : csr T) r c S (st : S), eqb (T := T) zero zero = true -> csr_wf A n -> csr_shape A tt = Ok (n, n) tt ->
  fits_u32 n = true -> sunits Op s n r c A A' ->
  (exists F F', ilu_csr A st = Ok F st /\ ilu_csr A' st = Ok F' st /\ csr_wf F n /\ csr_wf F' n /\ msigns n n (lu_unit r c) (cview F) (cview F')) \/
  (ilu_csr A st = Throw RuntimeError st /\ ilu_csr A' st = Throw RuntimeError st).
Proof. exact (C92_ilu_csr Op s _ UU UZ (fun y H => H)). Qed.

(** Solving with it: a finite result. *)
Theorem C96_ilu_solve_finite : forall F F' n r c t b b' h h', fits_u32 n = true -> ismat h F n n -> ismat h' F' n n ->
  msigns n n (lu_unit r c) (mget h F) (mget h' F') -> isvec h b n -> isvec h' b' n -> vsigns n (fun i => r i + t) (rd h b) (rd h' b') ->
  exists x h1 x' h1', ilu_dyn_solve F b h = Ok x h1 /\ ilu_dyn_solve F' b' h' = Ok x' h1' /\
    ((forall i, (i < n)%nat -> fin (rd h1 x i)) -> vsigns n (fun i => t - c i) (rd h1 x) (rd h1' x')).
Proof.
  intros F F' n r c t b b' h h' Hf HF HF' I Hb Hb' Ib.
  destruct (post_ok _ _ _ (ilu_solve_ok (mat_get F) (mget h F) n b h Hf Hb ltac:(intros; now apply (mat_get_ext F n h)))) as (x & h1 & E & (_ & _ & V & _) & S).
  destruct (post_ok _ _ _ (ilu_solve_ok (mat_get F') (mget h' F') n b' h' Hf Hb' ltac:(intros; now apply (mat_get_ext F' n h')))) as (x' & h1' & E' & (_ & _ & V' & _) & S').
  exists x, h1, x', h1'. do 2 (split; [assumption|]). intros Fx.
  apply (ilu_solved_units UU n r c t (mget h F) (mget h' F') (rd h b) (rd h' b')); auto.
  intros i Hi. specialize (Fx i Hi). destruct S as (y & _ & S). rewrite (S i Hi) in Fx. now apply (sg_fin_div (Signs := Sg)) in Fx.
Qed.

(** ** Tridiagonal systems with a finite result *)
Theorem C96_tridiagonal : forall dbg dbg' t t' n b b' x x' r c g h h', (2 <= n)%nat -> fits_i32 n = true -> tri_wf T t n -> tri_wf T t' n ->
  isvec h b n -> (n <= len h x)%nat -> isvec h' b' n -> (n <= len h' x')%nat -> tunits Op s n r c t t' ->
  vsigns n (fun i => r i + g) (rd h b) (rd h' b') ->
  exists h1 h1', tridiag_solve_vec dbg t b x h = Ok x h1 /\ tridiag_solve_vec dbg' t' b' x' h' = Ok x' h1' /\
    ((forall i, (i < n)%nat -> fin (rd h1 x i)) -> vsigns n (fun i => g - c i) (rd h1 x) (rd h1' x')).
Proof.
  intros dbg dbg' t t' n b b' x x' r c g h h' Hn Hf W W' Hb Lx Hb' Lx' (Id & Il & Iu) Ib.
  destruct (tridiag_bits dbg t n b x h Hn Hf W Hb Lx) as (h1 & E & _ & _ & _ & _ & S1).
  destruct (tridiag_bits dbg' t' n b' x' h' Hn Hf W' Hb' Lx') as (h1' & E' & _ & _ & _ & _ & S1').
  exists h1, h1'. split; [exact E|]. split; [exact E'|]. intros Fx.
  assert (Ff : forall i, (i < n)%nat -> fin (snd (sweep (atf (tdl t)) (atf (td t)) (atf (tdu t)) (rd h b) i))).
  { intros i Hi. specialize (Fx i Hi). destruct S1 as [L1 L2]. destruct (Nat.eq_dec i (n - 1)) as [->|].
    - now rewrite L1 in Fx.
    - rewrite L2 in Fx by lia. now apply (sg_fin_add (Signs := Sg)) in Fx. }
  eapply (swept_units UU n r c g); eauto; [lia|]. split.
  - specialize (Ff 0%nat ltac:(lia)). cbn [sweep snd] in Ff. now apply (sg_fin_div (Signs := Sg)) in Ff.
  - intros i Hi. specialize (Ff (S i) Hi). cbn [sweep snd] in Ff. now apply (sg_fin_div (Signs := Sg)) in Ff.
Qed.

(** ** GMRES: the signs of rows and columns changed *)
(** Both constructors throw, or both return and so do the solvers; if the first result is finite,
    the second has the signs t - c i. *)
Theorem C96_gmres : forall dbg dbg' isqrt isqrt' n A A' b b' tol tol' r c t h h', isqrt_exact isqrt -> isqrt_exact isqrt' ->
  (0 < n)%nat -> fits_u32 n = true -> ismat h A n n -> ismat h' A' n n -> isvec h b n -> isvec h' b' n ->
  msigns n n (fun i j => r i + c j) (mget h A) (mget h' A') -> vsigns n (fun i => r i + t) (rd h b) (rd h' b') -> same Op tol tol' ->
  (exists G h1 x h2 G' h1' x' h2', gmres_dyn_new A h = Ok G h1 /\ gmres_dyn_solve dbg isqrt G tol b h1 = Ok x h2 /\
     gmres_dyn_new A' h' = Ok G' h1' /\ gmres_dyn_solve dbg' isqrt' G' tol' b' h1' = Ok x' h2' /\
     ((forall i, (i < n)%nat -> fin (rd h2 x i)) -> vsigns n (fun i => t - c i) (rd h2 x) (rd h2' x'))) \/
  (exists h1 h1', gmres_dyn_new A h = Throw RuntimeError h1 /\ gmres_dyn_new A' h' = Throw RuntimeError h1').
Proof.
  intros dbg dbg' isqrt isqrt' n A A' b b' tol tol' r c t h h' Hq Hq' Hn Hf HA HA' Hb Hb' IA Ib It.
  unfold gmres_dyn_new, bind.
  destruct (post_ok _ _ _ (copy_ok A n n h HA)) as (m & g & Ec & (X1 & P1 & V1 & R1) & _). rewrite Ec.
  destruct (post_ok _ _ _ (copy_ok A' n n h' HA')) as (m' & g' & Ec' & (X1' & P1' & V1' & R1') & _). rewrite Ec'.
  assert (HB : ismat g A n n) by (eapply ext_ismat; eauto). assert (HB' : ismat g' A' n n) by (eapply ext_ismat; eauto).
  assert (IB : msigns n n (fun i j => r i + c j) (mget g A) (mget g' A')).
  { intros i j Hi Hj. replace (mget g A i j) with (mget h A i j) by (unfold mget, rd; destruct X1 as [_ ->]; [reflexivity|apply HA]).
    replace (mget g' A' i j) with (mget h' A' i j) by (unfold mget, rd; destruct X1' as [_ ->]; [reflexivity|apply HA']). now apply IA. }
  pose proof (ilu_dyn_outcome n A g HB Hf) as K. pose proof (ilu_dyn_outcome n A' g' HB' Hf) as K'.
  destruct (C96_ilu n A A' r c g g' HB HB' Hf IB) as [(F & h1 & F' & h1' & EF & EF' & VF & VF' & IF)|(h1 & h1' & EF & EF')].
  2:{ right. exists h1, h1'. rewrite EF, EF'. auto. }
  left. unfold postx in K, K'. rewrite EF in *. rewrite EF' in *. destruct K as ((X2 & _) & _), K' as ((X2' & _) & _). unfold ret.
  assert (XX : ext h h1) by (eapply ext_trans; eauto). assert (XX' : ext h' h1') by (eapply ext_trans; eauto).
  assert (VM : ismat h1 m n n) by (eapply ext_ismat; [exact X2|exact V1]). assert (VM' : ismat h1' m' n n) by (eapply ext_ismat; [exact X2'|exact V1']).
  assert (VB : isvec h1 b n) by (eapply ext_isvec; [exact XX|exact Hb]). assert (VB' : isvec h1' b' n) by (eapply ext_isvec; [exact XX'|exact Hb']).
  destruct (dense_run Op dbg isqrt n (m, F) tol b h1 Hq Hn Hf VM VF VB) as (x & h2 & E & _ & nb & k & Q & H & cc & f & R & y & GR).
  destruct (dense_run Op dbg' isqrt' n (m', F') tol' b' h1' Hq' Hn Hf VM' VF' VB') as (x' & h2' & E' & _ & nb' & k' & Q' & H' & cc' & f' & R' & y' & GR').
  cbn [fst snd] in GR, GR'. exists (m, F), h1, x, h2, (m', F'), h1', x', h2'.
  split; [reflexivity|]. split; [exact E|]. split; [reflexivity|]. split; [exact E'|]. intros Fx.
  assert (Em : msigns n n (fun i j => r i + c j) (mget h1 m) (mget h1' m')).
  { intros i j Hi Hj. replace (mget h1 m i j) with (mget g m i j) by (unfold mget, rd; destruct X2 as [_ ->]; [reflexivity|apply V1]).
    replace (mget h1' m' i j) with (mget g' m' i j) by (unfold mget, rd; destruct X2' as [_ ->]; [reflexivity|apply V1']).
    rewrite R1, R1' by auto. now apply IA. }
  assert (Eb : vsigns n (fun i => r i + t) (rd h1 b) (rd h1' b')).
  { intros i Hi. replace (rd h1 b i) with (rd h b i) by (unfold rd; destruct XX as [_ ->]; [reflexivity|apply Hb]).
    replace (rd h1' b' i) with (rd h' b' i) by (unfold rd; destruct XX' as [_ ->]; [reflexivity|apply Hb']). now apply Ib. }
  destruct (fin_run Sg _ _ _ _ _ _ _ _ _ _ _ _ _ _ Hn GR Fx) as [Fp _]. pose proof (fin_lu Sg n _ _ Fp) as D.
  refine (proj2 (sgm_run Sg (fun i => t - c i) n _ _ _ _ tol tol' _ _ (rd h2 x) (rd h2' x') _ _ _ _ _ _ _ _ _ _ _ _ _ _ _ _ Hn _ It _ GR GR' Fx)).
  - intros v v' Iv. unfold pmv. apply (lu_apply_den UU n r c t); auto.
    intros j Hj. apply (dense_apply_units UU n r c t); auto.
  - apply (lu_apply_den UU n r c t); auto.
Qed.
Theorem C96_gmres_csr : forall dbg dbg' isqrt isqrt' n (A A' : csr T) b b' tol tol' r c t h h', isqrt_exact isqrt -> isqrt_exact isqrt' ->
  eqb (T := T) zero zero = true -> (0 < n)%nat -> fits_u32 n = true -> csr_wf A n -> csr_shape A tt = Ok (n, n) tt -> isvec h b n -> isvec h' b' n ->
  sunits Op s n r c A A' -> vsigns n (fun i => r i + t) (rd h b) (rd h' b') -> same Op tol tol' ->
  (exists G x h2 G' x' h2', gmres_csr_new A h = Ok G h /\ gmres_csr_solve dbg isqrt G tol b h = Ok x h2 /\
     gmres_csr_new A' h' = Ok G' h' /\ gmres_csr_solve dbg' isqrt' G' tol' b' h' = Ok x' h2' /\
     ((forall i, (i < n)%nat -> fin (rd h2 x i)) -> vsigns n (fun i => t - c i) (rd h2 x) (rd h2' x'))) \/
  (gmres_csr_new A h = Throw RuntimeError h /\ gmres_csr_new A' h' = Throw RuntimeError h').
Proof.
  intros dbg dbg' isqrt isqrt' n A A' b b' tol tol' r c t h h' Hq Hq' Z Hn Hf W Sh Hb Hb' SU Ib It.
  pose proof (sunits_wf Op s n r _ A A' SU W) as W'. pose proof (sunits_shape Op s n r _ A A' _ SU Sh) as Sh'.
  destruct (shape_cols A n n Sh) as [_ Hc].
  pose proof (cview_units Op s _ UU n r _ A A' W SU) as I. unfold gmres_csr_new, bind.
  destruct (ilu_csr_outcome n n A (heap T) h Z W Sh (le_n n) Hf) as [(F & E & WF & _ & _ & Dn)|(F & E & WF & _ & _ & Dn)];
    destruct (ilu_csr_outcome n n A' (heap T) h' Z W' Sh' (le_n n) Hf) as [(F' & E' & WF' & _ & _ & Dn')|(F' & E' & WF' & _ & _ & Dn')]; rewrite E, E'.
  - left. pose proof (ilu_done_units UU UZ n r _ _ _ _ _ I (fun y H => H) Dn Dn') as IF. unfold ret.
    destruct (sparse_run Op dbg isqrt n (A, F) tol b h Hq Hn Hf W Sh WF Hb) as (x & h2 & Ex & _ & nb & k & Q & H & cc & f & R & y & GR).
    destruct (sparse_run Op dbg' isqrt' n (A', F') tol' b' h' Hq' Hn Hf W' Sh' WF' Hb') as (x' & h2' & Ex' & _ & nb' & k' & Q' & H' & cc' & f' & R' & y' & GR').
    cbn [fst snd] in GR, GR'. exists (A, F), x, h2, (A', F'), x', h2'.
    split; [reflexivity|]. split; [exact Ex|]. split; [reflexivity|]. split; [exact Ex'|]. intros Fx.
    destruct (fin_run Sg _ _ _ _ _ _ _ _ _ _ _ _ _ _ Hn GR Fx) as [Fp _]. pose proof (fin_lu Sg n _ _ Fp) as D.
    refine (proj2 (sgm_run Sg (fun i => t - c i) n _ _ _ _ tol tol' _ _ (rd h2 x) (rd h2' x') _ _ _ _ _ _ _ _ _ _ _ _ _ _ _ _ Hn _ It _ GR GR' Fx)).
    + intros v v' Iv. unfold pmv. apply (lu_apply_den UU n r c t); auto.
      intros j Hj. unfold row_apply. apply (s_at (0 + r j + t)); [|lia]. apply (row_units Op s _ UU n n r c t 0); auto; [apply (s_one UU)|].
      eapply (s_mul UU 0 (r j + t)); [apply (s_zero UU)|apply (s_zero UU)|lia].
    + apply (lu_apply_den UU n r c t); auto.
  - exfalso. exact (ilu_stop_units UU UZ n r _ _ _ _ _ I (fun y H => H) Dn Dn').
  - exfalso. exact (ilu_stop_units' UU UZ n r _ _ _ _ _ I (fun y H => H) Dn Dn').
  - right. auto.
Qed.

(** ** In short *)
(** The same matrix with -b for b: the solution is negated. *)
Theorem C96_negated_rhs : forall dbg n A b b' h F h1, (0 < n)%nat -> (Z.of_nat n < 2 ^ 31)%Z -> ismat h A n n -> isvec h b n -> isvec h b' n ->
  (forall i, (i < n)%nat -> rd h b' i = opp (rd h b i)) -> dyn_cholesky A h = Ok F h1 -> ~ bad (mget h A 0 0) ->
  exists x h2 x' h2', chol_solve_vec dbg F b h1 = Ok x h2 /\ chol_solve_vec dbg F b' h1 = Ok x' h2' /\
    forall i, (i < n)%nat -> same Op (opp (rd h2 x i)) (rd h2' x' i).
Proof.
  intros dbg n A b b' h F h1 Hn Hn31 HA Hb Hb' E EF B.
  assert (Hf : fits_u32 n = true) by (unfold fits_u32; apply Z.ltb_lt; lia).
  assert (I : lsigns n (fun i j => 0 + 0) (mget h A) (mget h A)) by (intros i j _ _; apply (of_same), same_refl).
  destruct (C96_cholesky_square n A A (fun _ => 0) h h Hn HA HA Hf I) as [(F1 & g1 & F2 & g2 & Q1 & Q2 & V1 & V2 & _ & _ & L & D)|[(F1 & g1 & F2 & g2 & Q1 & _ & _ & Bd & _)|(g1 & g2 & Q1 & _)]].
  2:{ contradiction. }
  2:{ congruence. }
  rewrite EF in Q1. injection Q1 as <- <-. rewrite EF in Q2. injection Q2 as <- <-.
  assert (X : ext h h1).
  { destruct (dyn_outcome n A h HA Hf) as (g & Fr & Out). destruct (ctor_ext _ _ _ _ _ Fr eq_refl) as [X _].
    replace h1 with g; [exact X|]. destruct Out as [[_ Q]|[[_ Q]|(c & _ & _ & Q)]]; rewrite EF in Q; [injection Q; auto|injection Q; auto|discriminate]. }
  destruct (C96_cholesky_solve dbg dbg F F n (fun _ => 0) h1 h1 Hn31 V1 V1 L D) as (SV & _).
  destruct (SV b b' 1 (ext_isvec _ _ _ _ X Hb) (ext_isvec _ _ _ _ X Hb')) as (x & h2 & x' & h2' & R & R' & _ & _ & Ix).
  { intros i Hi. replace (rd h1 b i) with (rd h b i) by (unfold rd; destruct X as [_ X]; rewrite X; [reflexivity|apply Hb]).
    replace (rd h1 b' i) with (rd h b' i) by (unfold rd; destruct X as [_ X]; rewrite X; [reflexivity|apply Hb']).
    rewrite E by exact Hi. apply (same_refl (Op := Op)). }
  exists x, h2, x', h2'. split; [exact R|]. split; [exact R'|]. intros i Hi. exact (Ix i Hi).
Qed.
(** -A for A and the same b: GMRES negates its solution. *)
Theorem C96_gmres_negated : forall dbg isqrt n A A' b tol h h', isqrt_exact isqrt -> (0 < n)%nat -> fits_u32 n = true ->
  ismat h A n n -> ismat h' A' n n -> isvec h b n -> isvec h' b n ->
  (forall i j, (i < n)%nat -> (j < n)%nat -> mget h' A' i j = opp (mget h A i j)) -> (forall i, (i < n)%nat -> rd h' b i = rd h b i) ->
  (exists G h1 x h2 G' h1' x' h2', gmres_dyn_new A h = Ok G h1 /\ gmres_dyn_solve dbg isqrt G tol b h1 = Ok x h2 /\
     gmres_dyn_new A' h' = Ok G' h1' /\ gmres_dyn_solve dbg isqrt G' tol b h1' = Ok x' h2' /\
     ((forall i, (i < n)%nat -> fin (rd h2 x i)) -> forall i, (i < n)%nat -> same Op (opp (rd h2 x i)) (rd h2' x' i))) \/
  (exists h1 h1', gmres_dyn_new A h = Throw RuntimeError h1 /\ gmres_dyn_new A' h' = Throw RuntimeError h1').
Proof.
  intros dbg isqrt n A A' b tol h h' Hq Hn Hf HA HA' Hb Hb' EA Eb.
  destruct (C96_gmres dbg dbg isqrt isqrt n A A' b b tol tol (fun _ => 0) (fun _ => 1) 0 h h' Hq Hq Hn Hf HA HA' Hb Hb') as [(G & h1 & x & h2 & G' & h1' & x' & h2' & Q1 & Q2 & Q3 & Q4 & K)|K].
  - intros i j Hi Hj. rewrite EA by auto. apply (same_refl (Op := Op)).
  - intros i Hi. rewrite Eb by auto. apply (same_refl (Op := Op)).
  - apply same_refl.
  - left. exists G, h1, x, h2, G', h1', x', h2'. do 4 (split; [assumption|]). intros F i Hi. exact (K F i Hi).
  - right. exact K.
Qed.
End Signs.

(** ** The arithmetics *)
(** Every binary format of IEEE 754 with rounding to nearest, ties to even; binary32; binary64. *)
Theorem C96_formats : forall prec emax (Hp : Prec_gt_0 prec) (Hm : Prec_lt_emax prec emax), Signs (BOps prec emax Hp Hm) (fun x => is_finite x = true).
Proof. exact b_signs. Qed.
Theorem C96_binary32 : Signs B32Ops (fun x => is_finite x = true).
Proof. exact b32_signs. Qed.
Theorem C96_binary64 : Signs FOps ffin.
Proof. exact float_signs. Qed.

(** ** The hypotheses are met; what happens without them *)
Notation sflt := Coq.Floats.PrimFloat.float.
Definition sfb (a b : spec_float) : bool :=
  match a, b with
  | S754_zero u, S754_zero v | S754_infinity u, S754_infinity v => Bool.eqb u v
  | S754_nan, S754_nan => true
  | S754_finite u m e, S754_finite v m' e' => andb (Bool.eqb u v) (andb (Pos.eqb m m') (Z.eqb e e'))
  | _, _ => false end.
Lemma sfb_ok a b : sfb a b = true -> a = b.
Proof.
  destruct a as [u|u| |u m e], b as [v|v| |v m' e']; cbn; intros H; try discriminate; auto.
  - apply Bool.eqb_prop in H. now subst.
  - apply Bool.eqb_prop in H. now subst.
  - apply andb_prop in H. destruct H as [H1 H]. apply andb_prop in H. destruct H as [H2 H3].
    apply Bool.eqb_prop in H1. apply Pos.eqb_eq in H2. apply Z.eqb_eq in H3. now subst.
Qed.
Definition sgnb (k : Z) (x y : sflt) : bool := sfb (Prim2SF (if Z.even k then x else opp (Ops := FOps) x)) (Prim2SF y).
Lemma sgnb_ok k x y : sgnb k x y = true -> sgn FOps k x y.
Proof. unfold sgnb, sgn. destruct (Z.even k); intros H; left; now apply Prim2SF_inj, sfb_ok. Qed.
Definition SH : heap sflt := heap_of [[4; 1; 2; 1; 5; 3; 2; 3; 6]%float; [1; 2; 7]%float].
(** The second row and column negated, and the right-hand side. *)
Definition SH' : heap sflt := heap_of [[4; -1; 2; -1; 5; -3; 2; -3; 6]%float; [-1; 2; -7]%float].
Definition sr (i : nat) : Z := match i with 1%nat => 1 | _ => 0 end.
Definition SA : mat := mkMat 0%nat 3%nat 3%nat.
Definition all_lt n (f : nat -> bool) : bool := forallb f (seq 0 n).
Lemma all_lt_ok n f : all_lt n f = true -> forall i, (i < n)%nat -> f i = true.
Proof. unfold all_lt. rewrite forallb_forall. intros H i Hi. apply H, in_seq. lia. Qed.
Definition chol_check (h h' : heap sflt) : bool :=
  match dyn_cholesky SA h with Ok F h1 => match chol_solve_vec true F 1%nat h1 with Ok x h2 =>
  match dyn_cholesky SA h' with Ok F' h1' => match chol_solve_vec true F' 1%nat h1' with Ok x' h2' =>
    all_lt 3 (fun i => sgnb (1 - sr i) (rd h2 x i) (rd h2' x' i))
  | _ => false end | _ => false end | _ => false end | _ => false end.
Example C96_nonvacuous : ismat SH SA 3 3 /\ ismat SH' SA 3 3 /\ isvec SH 1%nat 3 /\ isvec SH' 1%nat 3 /\
  lunits (sgn FOps) 3 (fun i j => sr i + sr j) (mget SH SA) (mget SH' SA) /\ vunits (sgn FOps) 3 (fun i => sr i + 1) (rd SH 1%nat) (rd SH' 1%nat) /\
  munits (sgn FOps) 3 3 (fun i j => sr i + sr j) (mget SH SA) (mget SH' SA) /\
  (* computed, not deduced *) chol_check SH SH' = true.
Proof.
  do 4 (split; [repeat split; cbn; lia|]).
  assert (M : munits (sgn FOps) 3 3 (fun i j => sr i + sr j) (mget SH SA) (mget SH' SA)).
  { assert (K : all_lt 3 (fun i => all_lt 3 (fun j => sgnb (sr i + sr j) (mget SH SA i j) (mget SH' SA i j))) = true) by (vm_compute; reflexivity).
    intros i j Hi Hj. apply sgnb_ok. exact (all_lt_ok 3 _ (all_lt_ok 3 _ K i Hi) j Hj). }
  split; [intros i j Hi Hj; apply M; lia|]. split; [|split; [exact M|vm_compute; reflexivity]].
  assert (K : all_lt 3 (fun i => sgnb (sr i + 1) (rd SH 1%nat i) (rd SH' 1%nat i)) = true) by (vm_compute; reflexivity).
  intros i Hi. apply sgnb_ok. exact (all_lt_ok 3 _ K i Hi).
Qed.
(** GMRES on the same data: the result is finite. *)
Definition gm_check (h h' : heap sflt) : bool :=
  match gmres_dyn_new SA h with Ok G h1 => match gmres_dyn_solve true Nat.sqrt G 0x1p-40%float 1%nat h1 with Ok x h2 =>
  match gmres_dyn_new SA h' with Ok G' h1' => match gmres_dyn_solve true Nat.sqrt G' 0x1p-40%float 1%nat h1' with Ok x' h2' =>
    all_lt 3 (fun i => andb (Coq.Floats.PrimFloat.is_finite (rd h2 x i)) (sgnb (1 - sr i) (rd h2 x i) (rd h2' x' i)))
  | _ => false end | _ => false end | _ => false end | _ => false end.
Example C96_nonvacuous_gmres : gm_check SH SH' = true.
Proof. vm_compute. reflexivity. Qed.

(** A singular matrix: the last pivot of the incomplete LU is 1 - 1 in the one run, (-1) - (-1) in the
    other, +0 in both; the last division is 1 / 0 in the one and -1 / 0 in the other. *)
Definition ZH : heap sflt := heap_of [[1; 1; 1; 1]%float; [1; 2]%float].
Definition ZH' : heap sflt := heap_of [[1; 1; -1; -1]%float; [1; -2]%float].
Definition ZA : mat := mkMat 0%nat 2%nat 2%nat.
Definition zlast (h : heap sflt) : option sflt :=
  match ilu_dyn ZA h with Ok F h1 => match ilu_dyn_solve F 1%nat h1 with Ok x h2 => Some (rd h2 x 1%nat) | _ => None end | _ => None end.
Theorem C96_singular_refuted : ismat ZH ZA 2 2 /\ ismat ZH' ZA 2 2 /\ isvec ZH 1%nat 2 /\ isvec ZH' 1%nat 2 /\
  munits (sgn FOps) 2 2 (fun i j => sr i + 0) (mget ZH ZA) (mget ZH' ZA) /\ vunits (sgn FOps) 2 (fun i => sr i + 0) (rd ZH 1%nat) (rd ZH' 1%nat) /\
  exists x x', zlast ZH = Some x /\ zlast ZH' = Some x' /\ ~ sgn FOps (0 - 0) x x' /\ x = infinity /\ x' = neg_infinity.
Proof.
  do 4 (split; [repeat split; cbn; lia|]).
  assert (K : all_lt 2 (fun i => all_lt 2 (fun j => sgnb (sr i + 0) (mget ZH ZA i j) (mget ZH' ZA i j))) = true) by (vm_compute; reflexivity).
  assert (K' : all_lt 2 (fun i => sgnb (sr i + 0) (rd ZH 1%nat i) (rd ZH' 1%nat i)) = true) by (vm_compute; reflexivity).
  split; [intros i j Hi Hj; apply sgnb_ok; exact (all_lt_ok 2 _ (all_lt_ok 2 _ K i Hi) j Hj)|].
  split; [intros i Hi; apply sgnb_ok; exact (all_lt_ok 2 _ K' i Hi)|].
  exists infinity, neg_infinity. split; [vm_compute; reflexivity|]. split; [vm_compute; reflexivity|]. split; [|auto].
  intros [H|[H _]].
  - assert (Q : Coq.Floats.PrimFloat.ltb infinity 0%float = Coq.Floats.PrimFloat.ltb neg_infinity 0%float) by now rewrite H. vm_compute in Q. discriminate Q.
  - vm_compute in H. discriminate H.
Qed.

Print Assumptions C96_gmres.
Print Assumptions C96_gmres_csr.
Print Assumptions C96_cholesky_square.
Print Assumptions C96_negated_rhs.
Print Assumptions C96_formats.
Print Assumptions C96_binary64.
Print Assumptions C96_tridiagonal.
Print Assumptions C96_singular_refuted.
