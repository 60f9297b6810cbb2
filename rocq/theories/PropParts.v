(** * Property C101: parts of a result depend only on the parts of the data that determine them *)
From Coq Require Import QArith Qcanon Lia Floats.
From Verif Require Import Base Scalar BaseLemmas Spec Sums ModelVec ModelMat SpecMat ProofVec ProofMat PropMat
  ModelPacked ProofPacked PropPacked ModelSparse SpecSparse ProofSparse ProofSparseCsr PropSparse PropSpmv
  ModelSolvers ProofChol ProofCholMath PropChol ProofCholSolve PropCholSolve ModelIter ProofCgs PropCgs ProofIlu PropIlu
  ProofBackSub.
Local Open Scope nat_scope.

Section Parts.
Context (T : Type) (Op : Ops T).
Implicit Types h g : heap T.

(** ** Gram-Schmidt: the first vectors do not depend on the later ones *)
Theorem C101_cgs : forall dbg1 dbg2 (vs ws : list ptr) n m h g,
  0 < m -> m <= length vs -> m <= length ws -> NoDup vs -> NoDup ws ->
  fits_u32 (length vs) = true -> fits_u32 (length ws) = true -> fits_u32 n = true -> 0 < n ->
  (forall q, In q vs -> q < next h /\ len h q = n) -> (forall q, In q ws -> q < next g /\ len g q = n) ->
  (forall k i, k < m -> i < n -> rd h (nth k vs 0) i = rd g (nth k ws 0) i) ->
  exists h' g', cgs dbg1 vs h = Ok tt h' /\ cgs dbg2 ws g = Ok tt g' /\
    forall k i, k < m -> i < n -> rd h' (nth k vs 0) i = rd g' (nth k ws 0) i.
Proof.
  intros dbg1 dbg2 vs ws n m h g Hm Hv Hw D1 D2 F1 F2 Fn Hn V1 V2 E.
  assert (N1 : vs <> []) by (intros ->; cbn in Hv; lia). assert (N2 : ws <> []) by (intros ->; cbn in Hw; lia).
  destruct (C50_recurrence dbg1 vs n h N1 D1 F1 Fn Hn V1) as (h' & O1 & _ & _ & R1).
  destruct (C50_recurrence dbg2 ws n g N2 D2 F2 Fn Hn V2) as (g' & O2 & _ & _ & R2).
  exists h', g'. split; [exact O1|]. split; [exact O2|].
  change ptr with nat in *. intros k. induction k as [k IH] using lt_wf_ind. intros i Hk Hi.
  rewrite (R1 k i), (R2 k i) by lia. apply gacc_ext; auto.
  - intros l t Hl Ht. apply IH; lia.
Qed.

(** ** Factorisations: the leading block of the factor is the factor of the leading block *)
Lemma failed0_entries n A L : failed n A L 0 -> forall i j, j <= i -> i < n -> L i j = A i j.
Proof.
  intros (Hn & _ & _ & D & _ & U) i j Hj Hi. destruct (Nat.eq_dec i 0) as [->|Ni]; [|apply U; lia].
  replace j with 0 by lia. exact D.
Qed.
Lemma ctor_leading m h h0 F n A m' g g0 G k B :
  k <= n -> (forall i j, j <= i -> i < k -> B i j = A i j) ->
  ctor_outcome m h h0 F n A -> ctor_outcome m' g g0 G k B ->
  (forall F1 h1, m h = Ok F1 h1 -> exists g1, F1 = F /\ m' g = Ok G g1 /\
     forall i j, j <= i -> i < k -> fac g1 G i j = fac h1 F i j) /\
  (forall e g1, m' g = Throw e g1 -> exists h1, m h = Throw e h1).
Proof.
  intros Hk E (h' & _ & OA) (g' & _ & OB).
  assert (E' : forall i j, j <= i -> i < k -> A i j = B i j) by (intros; symmetry; auto).
  assert (Fac : factored n A (fac h' F) -> forall i, i < k -> rowrec B (fac h' F) i).
  { intros R i Hi. apply (factored_ext k A); auto. apply R. lia. }
  assert (Fail : forall c, c < k -> failed n A (fac h' F) c -> failed k B (fac h' F) c).
  { intros c Hc (_ & R & O & D & Bd & U). apply (failed_ext k A); auto.
    split; [lia|]. split; [auto|]. split; [auto|]. split; [auto|]. split; [auto|]. intros. apply U; lia. }
  destruct OB as [[RB OB]|[[RB OB]|(c & Hc & RB & OB)]].
  - split; [|intros e g1 X; rewrite OB in X; discriminate]. intros F1 h1 X.
    destruct OA as [[RA OA]|[[RA OA]|(c & Hc & RA & OA)]]; rewrite OA in X; try discriminate; injection X as <- <-;
      exists g'; (split; [reflexivity|]); (split; [exact OB|]); intros i j Hj Hi.
    + apply (rows_unique B _ _ k); auto.
    + exfalso. apply (factored_not_failed k B (fac g' G) (fac h' F) 0); [intros t Ht; apply RB; lia|apply Fail; [lia|auto]].
  - pose proof RB as (Hk0 & _). split; [|intros e g1 X; rewrite OB in X; discriminate]. intros F1 h1 X.
    destruct OA as [[RA OA]|[[RA OA]|(c & Hc & RA & OA)]]; rewrite OA in X; try discriminate; injection X as <- <-;
      exists g'; (split; [reflexivity|]); (split; [exact OB|]); intros i j Hj Hi.
    + exfalso. apply (factored_not_failed k B (fac h' F) (fac g' G) 0); auto. intros t Ht. apply Fac; auto. lia.
    + rewrite (failed0_entries _ _ _ RB i j), (failed0_entries _ _ _ RA i j) by lia. auto.
  - pose proof RB as (Hck & RR & _). split.
    + intros F1 h1 X. rewrite OB.
      destruct OA as [[RA OA]|[[RA OA]|(c' & Hc' & RA & OA)]]; rewrite OA in X; try discriminate; exfalso.
      * apply (factored_not_failed k B (fac h' F) (fac g' G) c); auto. intros t Ht. apply Fac; auto. lia.
      * apply (factored_not_failed k B (fac g' G) (fac h' F) 0); [intros t Ht; apply RR; lia|apply Fail; [lia|auto]].
    + intros e g1 X. rewrite OB in X. injection X as <- <-.
      destruct OA as [[RA OA]|[[RA OA]|(c' & Hc' & RA & OA)]].
      * exfalso. apply (factored_not_failed k B (fac h' F) (fac g' G) c); auto. intros t Ht. apply Fac; auto. lia.
      * exfalso. apply (factored_not_failed k B (fac g' G) (fac h' F) 0); [intros t Ht; apply RR; lia|apply Fail; [lia|auto]].
      * eauto.
Qed.

(** B holds the leading block of A (of its lower triangle, which is all that is read). *)
Theorem C101_cholesky : forall n k A B h g, ismat h A n n -> ismat g B k k -> fits_u32 n = true -> k <= n ->
  (forall i j, j <= i -> i < k -> mget g B i j = mget h A i j) ->
  (forall F h', dyn_cholesky A h = Ok F h' -> exists G g', dyn_cholesky B g = Ok G g' /\ isfac g' G k /\
     forall i j, j <= i -> i < k -> fac g' G i j = fac h' F i j) /\
  (forall e g', dyn_cholesky B g = Throw e g' -> exists h', dyn_cholesky A h = Throw e h').
Proof.
  intros n k A B h g HA HB Hf Hk E.
  assert (Hf' : fits_u32 k = true) by (unfold fits_u32 in *; apply Z.ltb_lt in Hf; apply Z.ltb_lt; lia).
  pose proof (dyn_outcome n A h HA Hf) as OA. pose proof (dyn_outcome k B g HB Hf') as OB.
  destruct (ctor_leading _ _ _ _ _ _ _ _ _ _ _ _ Hk E OA OB) as [P Q]. split; [|exact Q].
  intros F h' X. destruct (P F h' X) as (g' & -> & Y & Z). eexists; exists g'. split; [exact Y|]. split; [|exact Z].
  destruct OB as (g1 & (N & M & L & U) & O).
  assert (EO : dyn_cholesky B g = Ok (mkChol k (next g) Square) g1 -> g1 = g') by (rewrite Y; intros I; now injection I).
  assert (g1 = g') as <-.
  { destruct O as [[_ O]|[[_ O]|(c & _ & _ & O)]]; auto. rewrite Y in O. discriminate. }
  split; [reflexivity|]. cbn [chp chmt storage]. unfold halloc in N. cbn [next] in N. split; [lia|].
  unfold len. cbn [chp] in L. unfold len in L. rewrite L. rewrite mem_halloc_same. apply HB.
Qed.
Theorem C101_cholesky_packed : forall n k (A B : herm T) h g, herm_wf A n -> herm_wf B k -> fits_u32 n = true -> k <= n ->
  (forall i j, j <= i -> i < k -> hmat B i j = hmat A i j) ->
  (forall F h', tri_cholesky A h = Ok F h' -> exists G g', tri_cholesky B g = Ok G g' /\
     forall i j, j <= i -> i < k -> fac g' G i j = fac h' F i j) /\
  (forall e g', tri_cholesky B g = Throw e g' -> exists h', tri_cholesky A h = Throw e h').
Proof.
  intros n k A B h g HA HB Hf Hk E.
  assert (Hf' : fits_u32 k = true) by (unfold fits_u32 in *; apply Z.ltb_lt in Hf; apply Z.ltb_lt; lia).
  pose proof (tri_outcome n A h HA Hf) as OA. pose proof (tri_outcome k B g HB Hf') as OB.
  destruct (ctor_leading _ _ _ _ _ _ _ _ _ _ _ _ Hk E OA OB) as [P Q]. split; [|exact Q].
  intros F h' X. destruct (P F h' X) as (g' & -> & Y & Z). eauto.
Qed.

Lemma mrec_unique (A B L M : nat -> nat -> T) k :
  (forall i j, j <= i -> i < k -> B i j = A i j) ->
  (forall i j, j <= i -> i < k -> mrec A L i j) -> (forall i j, j <= i -> i < k -> mrec B M i j) ->
  forall i j, j <= i -> i < k -> M i j = L i j.
Proof.
  intros E HL HM i. induction i as [i IHi] using lt_wf_ind.
  intros j. induction j as [j IHj] using lt_wf_ind. intros Hj Hi.
  specialize (HL i j Hj Hi). specialize (HM i j Hj Hi). unfold mrec in HL, HM. rewrite HL, HM, E by auto.
  apply ssub_ext. intros t Ht.
  assert (Ej : M j t = L j t) by (destruct (Nat.eq_dec j i) as [->|Nj]; [apply IHj|apply IHi]; lia).
  rewrite (IHj t), Ej, (IHi t) by lia. reflexivity.
Qed.
Lemma mrec_rows (A L : nat -> nat -> T) c : (forall i, i < c -> mrow A L i) -> (forall j, j <= c -> mrec A L c j) ->
  forall i j, j <= i -> i < S c -> mrec A L i j.
Proof.
  intros R D i j Hj Hi. destruct (Nat.eq_dec i c) as [->|Ni]; [auto|]. apply R; lia.
Qed.
Lemma mfactored_not_failed (A B L M : nat -> nat -> T) c :
  (forall i j, j <= i -> i <= c -> B i j = A i j) ->
  (forall i, i <= c -> mrow A L i) -> (forall i, i < c -> mrow B M i) -> (forall j, j <= c -> mrec B M c j) ->
  eqb (M c c) zero = true -> False.
Proof.
  intros E HL R D Z. rewrite (mrec_unique A B L M (S c)) in Z; try lia.
  - destruct (HL c (le_n c)) as [_ N]. congruence.
  - intros. apply E; lia.
  - intros i j Hj Hi. apply HL; lia.
  - now apply mrec_rows.
Qed.

Theorem C101_modified : forall n k A B h g, ismat h A n n -> ismat g B k k -> fits_u32 n = true -> k <= n ->
  (forall i j, j <= i -> i < k -> mget g B i j = mget h A i j) ->
  (forall F h', mod_cholesky A h = Ok F h' -> exists G g', mod_cholesky B g = Ok G g' /\
     forall i j, j <= i -> i < k -> fac g' G i j = fac h' F i j) /\
  (forall e g', mod_cholesky B g = Throw e g' -> exists h', mod_cholesky A h = Throw e h').
Proof.
  intros n k A B h g HA HB Hf Hk E.
  assert (Hf' : fits_u32 k = true) by (unfold fits_u32 in *; apply Z.ltb_lt in Hf; apply Z.ltb_lt; lia).
  destruct (mod_outcome T Op n A h HA Hf) as (h1 & _ & _ & _ & OA).
  destruct (mod_outcome T Op k B g HB Hf') as (g1 & _ & _ & _ & OB).
  destruct OB as [(OB & RB & _)|(OB & c & RB)].
  - split; [|intros e g' X; rewrite OB in X; discriminate]. intros F h' X.
    destruct OA as [(OA & RA & _)|(OA & c & RA)]; rewrite OA in X; [|discriminate]. injection X as <- <-.
    eexists; exists g1. split; [exact OB|]. intros i j Hj Hi.
    refine (mrec_unique (mget h A) (mget g B) (mget h1 (mkMat (next h) n n)) (mget g1 (mkMat (next g) k k)) k E _ _ i j Hj Hi).
    + intros i' j' Hj' Hi'. apply RA; lia.
    + intros i' j' Hj' Hi'. apply RB; lia.
  - destruct RB as (Hc & R & D & Z).
    assert (N : ~ mfactored n (mget h A) (mget h1 (mkMat (next h) n n))).
    { intros RA. refine (mfactored_not_failed (mget h A) (mget g B) (mget h1 (mkMat (next h) n n)) _ c _ _ R D Z).
      - intros. apply E; lia.
      - intros i Hi. apply RA. lia. }
    destruct OA as [(OA & RA & _)|(OA & _)]; [contradiction|]. split.
    + intros F h' X. rewrite OA in X. discriminate.
    + intros e g' X. rewrite OB in X. injection X as <- <-. eauto.
Qed.

Lemma ilurow_leading k n (A B F : nat -> nat -> T) i : k <= n -> i < k ->
  (forall i j, i < k -> j < k -> B i j = A i j) -> ilurow n A F i -> ilurow k B F i.
Proof.
  intros Hk Hi E [L U]. split.
  - intros j Hj. generalize (L j Hj). unfold lrec. now rewrite E by lia.
  - intros j Hij Hj. generalize (U j Hij ltac:(lia)). unfold urec. now rewrite E by lia.
Qed.
Lemma ilu_done_leading k n A B F : k <= n -> (forall i j, i < k -> j < k -> B i j = A i j) ->
  ilu_done n n A F -> ilu_done k k B F.
Proof. intros Hk E D i Hi. apply (ilurow_leading k n A); auto. apply D. lia. Qed.
(** Whether a run can stop does not depend on which array of factors describes it. *)
Lemma ilu_stop_excludes k (B F G : nat -> nat -> T) : ilu_done k k B F -> ilu_stop k k B G -> False.
Proof.
  intros D (i & j & Hj & Hi & R & L & H1 & H2).
  assert (E : forall i' j', i' < i -> j' < k -> F i' j' = G i' j').
  { intros i' j' Hi' Hj'. apply (ilurow_unique k i B B F G); auto; try lia; intros; [apply D|apply R]; lia. }
  destruct (D i Hi) as [Lf _]. specialize (Lf j Hj). unfold lrec in Lf. rewrite H1 in Lf. destruct Lf as [Lf _].
  rewrite (E j j) in Lf by lia. congruence.
Qed.

Theorem C101_ilu : forall n k A B h g, ismat h A n n -> ismat g B k k -> fits_u32 n = true -> k <= n ->
  (forall i j, i < k -> j < k -> mget g B i j = mget h A i j) ->
  (forall F h', ilu_dyn A h = Ok F h' -> exists G g', ilu_dyn B g = Ok G g' /\
     forall i j, i < k -> j < k -> mget g' G i j = mget h' F i j) /\
  (forall e g', ilu_dyn B g = Throw e g' -> exists h', ilu_dyn A h = Throw e h').
Proof.
  intros n k A B h g HA HB Hf Hk E.
  assert (Hf' : fits_u32 k = true) by (unfold fits_u32 in *; apply Z.ltb_lt in Hf; apply Z.ltb_lt; lia).
  pose proof (ilu_dyn_outcome n A h HA Hf) as OA. pose proof (ilu_dyn_outcome k B g HB Hf') as OB.
  unfold postx in OA, OB.
  destruct (ilu_dyn B g) as [G g'|e g'| | | |]; try contradiction.
  - split; [|intros e g1 X; discriminate]. intros F h' X. rewrite X in OA. destruct OA as [_ DA], OB as [_ DB].
    exists G, g'. split; [reflexivity|]. apply (ilu_done_unique k k (mget g B) (mget g B)); auto.
    now apply (ilu_done_leading k n (mget h A)).
  - destruct OB as (-> & _ & f & SB).
    assert (N : forall F, ilu_done n n (mget h A) F -> False).
    { intros F D. apply (ilu_stop_excludes k (mget g B) F f); auto. now apply (ilu_done_leading k n (mget h A)). }
    destruct (ilu_dyn A h) as [F h'|e h'| | | |]; try contradiction.
    + exfalso. destruct OA as [_ DA]. eauto.
    + destruct OA as (-> & _). split; [intros; discriminate|]. intros e g1 X. injection X as <- <-. eauto.
Qed.
Theorem C101_ilu_sparse : forall n k (A B : csr T) S S' (s : S) (s' : S'), eqb zero zero = true ->
  csr_wf A n -> csr_shape A tt = Ok (n, n) tt -> csr_wf B k -> csr_shape B tt = Ok (k, k) tt -> fits_u32 n = true -> k <= n ->
  (forall i j, i < k -> j < k -> cview B i j = cview A i j) ->
  (forall F, ilu_csr A s = Ok F s -> exists G, ilu_csr B s' = Ok G s' /\
     forall i j, i < k -> j < k -> cview G i j = cview F i j) /\
  (ilu_csr B s' = Throw RuntimeError s' -> ilu_csr A s = Throw RuntimeError s).
Proof.
  intros n k A B S S' s s' Z WA SA WB SB Hf Hk E.
  assert (Hf' : fits_u32 k = true) by (unfold fits_u32 in *; apply Z.ltb_lt in Hf; apply Z.ltb_lt; lia).
  pose proof (ilu_csr_outcome n n A S s Z WA SA (le_n n) Hf) as OA.
  pose proof (ilu_csr_outcome k k B S' s' Z WB SB (le_n k) Hf') as OB.
  destruct OB as [(G & OB & _ & _ & _ & DB)|(G & OB & _ & _ & _ & DB)]; rewrite OB;
    destruct OA as [(F & OA & _ & _ & _ & DA)|(F & OA & _ & _ & _ & DA)]; rewrite OA; split; intros; try discriminate; auto.
  - injection H as <-. exists G. split; [reflexivity|]. apply (ilu_done_unique k k (cview B) (cview B)); auto.
    now apply (ilu_done_leading k n (cview A)).
  - exfalso. apply (ilu_stop_excludes k (cview B) (cview F) (cview G)); auto. now apply (ilu_done_leading k n (cview A)).
  - exfalso. apply (ilu_stop_excludes k (cview B) (cview F) (cview G)); auto. now apply (ilu_done_leading k n (cview A)).
Qed.

(** ** Back substitution: the last unknowns depend on the last equations only *)
Theorem C101_back_sub : forall (U V : utri T) n k f e y z h g, utri_wf U n -> utri_wf V k -> k <= n ->
  (forall i j, i < n -> j < n -> forall S (s : S), utri_get U i j s = Ok (f i j) s) ->
  (forall i j, i < k -> j < k -> forall S (s : S), utri_get V i j s = Ok (e i j) s) ->
  isvec h y n -> isvec g z k ->
  (forall i j, i <= j -> j < k -> e i j = f (n - k + i) (n - k + j)) ->
  (forall i, i < k -> rd g z i = rd h y (n - k + i)) ->
  exists h' g', back_sub U y h = Ok tt h' /\ back_sub V z g = Ok tt g' /\
    forall i, i < k -> rd g' z i = rd h' y (n - k + i).
Proof.
  intros U V n k f e y z h g WU WV Hk GU GV Vy Vz E Eb.
  destruct (post_ok _ _ _ (back_sub_bits U y n f h (proj1 WU) GU Vy)) as ([] & h' & O1 & _ & _ & _ & B1).
  destruct (post_ok _ _ _ (back_sub_bits V z k e g (proj1 WV) GV Vz)) as ([] & g' & O2 & _ & _ & _ & B2).
  exists h', g'. split; [exact O1|]. split; [exact O2|].
  assert (P : forall t i, i < k -> k - i <= t -> rd g' z i = rd h' y (n - k + i)).
  { induction t as [|t IH]; intros i Hi Ht; [lia|].
    rewrite (B2 i Hi), (B1 (n - k + i) ltac:(lia)), Eb, E by lia. f_equal.
    replace (n - S (n - k + i)) with (k - S i) by lia. apply ssub_ext. intros l Hl.
    rewrite E, IH by lia. f_equal; f_equal; lia. }
  intros i Hi. apply (P k); lia.
Qed.

(** ** Products: entry i depends on row i only; column j of a matrix product on column j only *)
Lemma fsum_same m (a b : T) (p q : nat -> T) : a = b -> (forall k, k < m -> p k = q k) -> fsum m a p = fsum m b q.
Proof. intros -> H. now apply fsum_ext. Qed.

Theorem C101_matvec : forall dbg1 dbg2 alpha beta A B x y v w n k m i j h g,
  fits_u32 n = true -> fits_u32 k = true -> fits_u32 m = true ->
  ismat h A n m -> isvec h x m -> isvec h y n -> mp A <> y ->
  ismat g B k m -> isvec g v m -> isvec g w k -> mp B <> w -> i < n -> j < k ->
  (forall t, t < m -> mget h A i t = mget g B j t /\ rd h x t = rd g v t) -> rd h y i = rd g w j ->
  exists h' g', mulv dbg1 alpha A x beta y h = Ok y h' /\ mulv dbg2 alpha B v beta w g = Ok w g' /\ rd h' y i = rd g' w j.
Proof.
  intros dbg1 dbg2 alpha beta A B x y v w n k m i j h g Hn Hk Hm A1 A2 A3 A4 B1 B2 B3 B4 Hi Hj E Ey.
  destruct (C14_matvec_exact T Op dbg1 alpha A x beta y n m h) as (h' & O1 & _ & _ & R1); auto.
  destruct (C14_matvec_exact T Op dbg2 alpha B v beta w k m g) as (g' & O2 & _ & _ & R2); auto.
  exists h', g'. split; [exact O1|]. split; [exact O2|]. rewrite R1, R2 by auto. apply fsum_same; [now rewrite Ey|].
  intros t Ht. destruct (E t Ht) as [-> ->]. reflexivity.
Qed.
Theorem C101_matmat : forall dbg1 dbg2 alpha beta A B C a b c n m o i j h g,
  (forall x y : T, mul x y = mul y x) ->
  fits_u32 n = true -> fits_u32 m = true -> fits_u32 o = true ->
  ismat h A n o -> ismat h B o m -> ismat h C n m ->
  ismat g a n o -> isvec g b o -> isvec g c n -> mp a <> c -> i < n -> j < m ->
  (forall t, t < o -> mget h A i t = mget g a i t /\ mget h B t j = rd g b t) -> mget h C i j = rd g c i ->
  exists h' g', mulm dbg1 alpha A B beta C h = Ok C h' /\ mulv dbg2 alpha a b beta c g = Ok c g' /\ mget h' C i j = rd g' c i.
Proof.
  intros dbg1 dbg2 alpha beta A B C a b c n m o i j h g Com Hn Hm Ho A1 A2 A3 B1 B2 B3 B4 Hi Hj E Ey.
  destruct (C15_matmat_exact T Op dbg1 alpha A B beta C n m o h) as (h' & O1 & _ & _ & R1); auto.
  destruct (C14_matvec_exact T Op dbg2 alpha a b beta c n o g) as (g' & O2 & _ & _ & R2); auto.
  exists h', g'. split; [exact O1|]. split; [exact O2|]. rewrite R1, R2 by auto. apply fsum_same.
  - rewrite <- Ey. destruct (_ || _); [reflexivity|apply Com].
  - intros t Ht. destruct (E t Ht) as [-> ->]. reflexivity.
Qed.
Theorem C101_spmv : forall dbg1 dbg2 n k m l (A B : csr T) alpha beta x y v w i j h g,
  csr_wf A n -> scol A <> [] -> csr_shape A h = Ok (n, m) h -> fits_u32 n = true -> len h x = m -> len h y = n -> x <> y ->
  csr_wf B k -> scol B <> [] -> csr_shape B g = Ok (k, l) g -> fits_u32 k = true -> len g v = l -> len g w = k -> v <> w ->
  i < n -> j < k ->
  map (fun e => (snd (fst e), snd e)) (csr_row A i) = map (fun e => (snd (fst e), snd e)) (csr_row B j) ->
  (forall e, In e (csr_row A i) -> rd h x (snd (fst e)) = rd g v (snd (fst e))) -> rd h y i = rd g w j ->
  exists h' g', sp_mul dbg1 alpha A x beta y h = Ok y h' /\ sp_mul dbg2 alpha B v beta w g = Ok w g' /\ rd h' y i = rd g' w j.
Proof.
  intros dbg1 dbg2 n k m l A B alpha beta x y v w i j h g A1 A2 A3 A4 A5 A6 A7 B1 B2 B3 B4 B5 B6 B7 Hi Hj Er Ex Ey.
  destruct (C32_rows_partial T Op dbg1 n m A alpha x beta y h) as (h' & O1 & _ & _ & _ & R1); auto.
  destruct (C32_rows_partial T Op dbg2 k l B alpha v beta w g) as (g' & O2 & _ & _ & _ & R2); auto.
  exists h', g'. split; [exact O1|]. split; [exact O2|]. rewrite R1, R2, Ey by auto. unfold row_value.
  generalize (mul beta (rd g w j)). revert Er Ex. generalize (csr_row A i), (csr_row B j). clear.
  intros p. induction p as [|[[r c] t] p IH]; intros [|[[r' c'] t'] q] Er Ex s; try discriminate; [reflexivity|].
  cbn in Er. injection Er as -> -> Er. cbn [fold_left fst snd]. pose proof (Ex (r, c', t') (or_introl eq_refl)) as X.
  cbn [fst snd] in X. rewrite X. apply IH; auto. intros e He. apply Ex. now right.
Qed.

(** ** Solving for several right-hand sides is solving for each of them *)
Theorem C101_cholesky_columns : forall dbg1 dbg2 F n m B b j h g, (Z.of_nat n < 2 ^ 31)%Z -> fits_u32 m = true ->
  isfac h F n -> ismat h B n m -> isfac g F n -> isvec g b n -> j < m ->
  (forall i k, k <= i -> i < n -> fac h F i k = fac g F i k) -> veq n (rd g b) (fun i => mget h B i j) ->
  exists X h' x g', chol_solve_mat dbg1 F B h = Ok X h' /\ chol_solve_vec dbg2 F b g = Ok x g' /\
    ismat h' X n m /\ isvec g' x n /\ veq n (rd g' x) (fun i => mget h' X i j).
Proof.
  intros dbg1 dbg2 F n m B b j h g Hn Hm I1 VB I2 Vb Hj E Eb.
  destruct (chol_mat_out n dbg1 F h Hn I1 B m VB Hm) as (X & h' & O1 & _ & _ & W1 & S1).
  destruct (chol_vec_out n dbg2 F g Hn I2 b Vb) as (x & g' & O2 & _ & _ & W2 & S2).
  exists X, h', x, g'. do 4 (split; [assumption|]).
  apply (substituted_unique n (fac g F) (fac h F) (fun i => mget h B i j)); auto.
  - intros. symmetry. auto.
  - apply (subst_ext n _ (rd g b) _ (rd g' x)); auto.
Qed.
Lemma usubstituted_unique n (L M : nat -> nat -> T) b X Y : (forall i j, j <= i -> i < n -> L i j = M i j) ->
  usubstituted n L b X -> usubstituted n M b Y -> veq n X Y.
Proof.
  intros HL (P & P1 & P2) (Q & Q1 & Q2).
  assert (E : forall i, i < n -> P i = Q i).
  { intros i. induction i as [i IH] using lt_wf_ind. intros Hi. rewrite (P1 i Hi), (Q1 i Hi). apply ssub_ext.
    intros k Hk. rewrite !HL, IH by lia. reflexivity. }
  assert (EX : forall k i, i < n -> n - i <= k -> X i = Y i).
  { induction k as [|k IH]; intros i Hi Hk; [lia|]. rewrite (P2 i Hi), (Q2 i Hi), HL, E by lia. f_equal.
    apply ssub_ext. intros t Ht. rewrite HL by lia. f_equal. apply IH; lia. }
  intros i Hi. apply (EX n); lia.
Qed.
Theorem C101_modified_columns : forall dbg1 dbg2 F n m B b j h g, (Z.of_nat n < 2 ^ 31)%Z -> fits_u32 m = true ->
  isfac h F n -> ismat h B n m -> isfac g F n -> isvec g b n -> j < m ->
  (forall i k, k <= i -> i < n -> fac h F i k = fac g F i k) -> veq n (rd g b) (fun i => mget h B i j) ->
  exists X h' x g', mod_solve_mat dbg1 F B h = Ok X h' /\ mod_solve_vec dbg2 F b g = Ok x g' /\
    ismat h' X n m /\ isvec g' x n /\ veq n (rd g' x) (fun i => mget h' X i j).
Proof.
  intros dbg1 dbg2 F n m B b j h g Hn Hm I1 VB I2 Vb Hj E Eb.
  destruct (mod_mat_out n dbg1 F h Hn I1 B m VB Hm) as (X & h' & O1 & _ & _ & W1 & S1).
  destruct (mod_vec_out n dbg2 F g Hn I2 b Vb) as (x & g' & O2 & _ & _ & W2 & S2).
  exists X, h', x, g'. do 4 (split; [assumption|]).
  apply (usubstituted_unique n (fac g F) (fac h F) (fun i => mget h B i j)); auto.
  - intros. symmetry. auto.
  - apply (usubst_ext n _ (rd g b) _ (rd g' x)); auto.
Qed.
End Parts.

(** ** The hypotheses can be met: a matrix of order 3 and its leading block of order 2, the third row being such
    that only the larger matrix is rejected in the second case; and the other functions on small data. *)
Example C101_nonvacuous :
  let A := mkMat 0 3 3 in let B := mkMat 0 2 2 in
  let h := heap_of [[4; 2; 2; 2; 5; 3; 2; 3; 6]%float] in let g := heap_of [[4; 2; 2; 5]%float] in
  ismat h A 3 3 /\ ismat g B 2 2 /\ (forall i j, i < 2 -> j < 2 -> mget g B i j = mget h A i j) /\
  peek (dyn_cholesky A h) chp = Some [2; 2; 2; 1; 2; 3; 1; 1; 2]%float /\
  peek (dyn_cholesky B g) chp = Some [2; 2; 1; 2]%float /\
  (exists h', dyn_cholesky A (heap_of [[4; 2; 2; 2; 5; 3; 2; 3; 1]%float]) = Throw RuntimeError h').
Proof.
  cbv zeta. split; [repeat split; vm_compute; lia|]. split; [repeat split; vm_compute; lia|].
  split. { intros [|[|i]] [|[|j]] Hi Hj; try lia; reflexivity. }
  split; [vm_compute; reflexivity|]. split; [vm_compute; reflexivity|]. eexists. vm_compute. reflexivity.
Qed.
Example C101_nonvacuous_cgs :
  let run l v := match cgs true l (heap_of v) with Ok _ h => Some (map (fun q => map this (mem h q)) [0; 1]%nat) | _ => None end in
  run [0; 1]%nat [[1; 1; 0]; [1; 0; 0]]%Qc = Some [[1; 1; 0]; [1 # 2; - (1 # 2); 0]]%Q /\
  run [0; 1; 2]%nat [[1; 1; 0]; [1; 0; 0]; [0; 0; Q2Qc 3]]%Qc = Some [[1; 1; 0]; [1 # 2; - (1 # 2); 0]]%Q.
Proof. split; vm_compute; reflexivity. Qed.
Example C101_nonvacuous_back_sub :
  let run U b := match back_sub U 0 (heap_of [map Q2Qc b]) with Ok _ h' => map this (mem h' 0) | _ => [] end in
  run (mkUtri 1 (map Q2Qc [4]%Q)) [8]%Q = [2]%Q /\ run (mkUtri 2 (map Q2Qc [2; 1; 4]%Q)) [4; 8]%Q = [1; 2]%Q.
Proof. split; vm_compute; reflexivity. Qed.

Print Assumptions C101_cgs.
Print Assumptions C101_cholesky.
Print Assumptions C101_cholesky_packed.
Print Assumptions C101_modified.
Print Assumptions C101_ilu.
Print Assumptions C101_ilu_sparse.
Print Assumptions C101_back_sub.
Print Assumptions C101_matvec.
Print Assumptions C101_matmat.
Print Assumptions C101_spmv.
Print Assumptions C101_cholesky_columns.
Print Assumptions C101_modified_columns.
