(** * Property C85: iterating over vectors and matrices *)
From Verif Require Import Base Scalar BaseLemmas Spec SpecMat ModelVec ModelMat ModelRange.
Local Open Scope nat_scope.

Section Loops.
Context {T : Type}.

(** A body that leaves the length of [v] alone on every normal return. *)
Definition keeps_len {A} (v : ptr) (body : iter -> A -> M (heap T) A) : Prop :=
  forall it a h b h', body it a h = Ok b h' -> len h' v = len h v.

Lemma range_while_loop {A} v (body : iter -> A -> M (heap T) A) : keeps_len v body ->
  forall k o a h, len h v = o + k ->
  range_while (S k) (mkIter v o) (mkIter v (o + k)) body a h =
  loop (seq o k) (fun i a => body (mkIter v i) a) a h.
Proof.
  intros K. induction k as [|k IH]; intros o a h L.
  - cbn [range_while seq loop]. unfold bind, ieq. cbn [ib io]. rewrite Nat.eqb_refl, Nat.add_0_r.
    unfold ret. now rewrite Nat.eqb_refl.
  - cbn [seq loop]. cbn [range_while]. unfold bind at 1, ieq. cbn [ib io]. rewrite Nat.eqb_refl. unfold ret at 1.
    destruct (Nat.eqb_spec o (o + S k)); [lia|]. unfold bind.
    destruct (body (mkIter v o) a h) as [b h1| | | | |] eqn:E; auto.
    pose proof (K _ _ _ _ _ E) as L1. unfold inext, iadd, vsize, bind. cbn [ib io].
    change (length (mem h1 v)) with (len h1 v). rewrite L1, L.
    replace (Nat.leb (o + 1) (o + S k)) with true by (symmetry; apply Nat.leb_le; lia). unfold ret.
    specialize (IH (S o) b h1). rewrite <- IH by (rewrite L1, L; lia).
    replace (o + 1) with (S o) by lia. replace (o + S k) with (S o + k) by lia. reflexivity.
Qed.

Lemma range_for_loop {A} v (body : iter -> A -> M (heap T) A) a h : keeps_len v body ->
  range_for v body a h = loop (seq 0 (len h v)) (fun i a => body (mkIter v i) a) a h.
Proof.
  intros K. unfold range_for, vbegin, vend, vsize, bind, ret.
  exact (range_while_loop v body K (len h v) 0 a h eq_refl).
Qed.
End Loops.

(** The range-for loop runs the body once for each element, in index order, and stops; this is an
    equality of outcomes, so also for bodies that throw or are undefined. *)
Theorem C85_loop : forall T A v (body : iter -> A -> M (heap T) A) a (h : heap T),
  (forall it a h b h', body it a h = Ok b h' -> length (mem h' v) = length (mem h v)) ->
  range_for v body a h = loop (seq 0 (length (mem h v))) (fun i a => body (mkIter v i) a) a h.
Proof. intros T A v body a h K. now apply range_for_loop. Qed.

Lemma loop_read {T A} (v : ptr) (f : A -> T -> A) (h : heap T) : forall l pre a, mem h v = pre ++ l ->
  loop (seq (length pre) (length l)) (fun i a => bind (iread (mkIter v i)) (fun x => ret (f a x))) a h =
  Ok (fold_left f l a) h.
Proof.
  induction l as [|x l IH]; intros pre a E; [reflexivity|].
  cbn [length seq loop fold_left]. unfold bind at 1, bind at 1, iread, load. cbn [ib io].
  rewrite E, nth_error_app2, Nat.sub_diag by lia. cbn [nth_error]. unfold ret at 1.
  specialize (IH (pre ++ [x]) (f a x)). rewrite app_length in IH. cbn [length] in IH.
  rewrite Nat.add_comm in IH. apply IH. rewrite E, <- app_assoc. reflexivity.
Qed.

(** Reading loops (sums, maxima, printing, std::accumulate, std::copy to a std::vector ...): the
    elements in order, each once, for every length (beyond 2^32 too), memory unchanged. *)
Theorem C85_read : forall T A v (f : A -> T -> A) a (h : heap T),
  range_for v (fun it a => bind (iread it) (fun x => ret (f a x))) a h = Ok (fold_left f (mem h v) a) h.
Proof.
  intros. rewrite range_for_loop.
  - exact (loop_read v f h (mem h v) [] a eq_refl).
  - intros it b g c g' E. unfold bind, iread, load in E. destruct (nth_error (mem g (ib it)) (io it)); inversion E; auto.
Qed.

Lemma loop_update {T} {O : Ops T} (v : ptr) (g : T -> T) : forall l pre (h : heap T), mem h v = pre ++ l ->
  exists h', loop (seq (length pre) (length l))
      (fun i _ => bind (iread (mkIter v i)) (fun x => iwrite (mkIter v i) (g x))) tt h = Ok tt h' /\
    mem h' v = pre ++ map g l /\ next h' = next h /\ unchanged_except [v] h h'.
Proof.
  induction l as [|x l IH]; intros pre h E.
  - exists h. split; [reflexivity|]. split; [exact E|]. split; [reflexivity|]. intros q _; reflexivity.
  - assert (R0 : bind (iread (mkIter v (length pre))) (fun y => iwrite (mkIter v (length pre)) (g y)) h = Ok tt (hset h v (length pre) (g x))).
    { unfold bind, iread, iwrite, load, store. cbn [ib io].
      assert (E0 : nth_error (mem h v) (length pre) = Some x) by (rewrite E, nth_error_app2, Nat.sub_diag by lia; reflexivity).
      rewrite E0. replace (Nat.ltb _ _) with true; [reflexivity|]. symmetry. apply Nat.ltb_lt, nth_error_Some. congruence. }
    cbn [length seq loop map]. unfold bind at 1. rewrite R0.
    set (h1 := hset h v (length pre) (g x)).
    assert (E1 : mem h1 v = (pre ++ [g x]) ++ l).
    { unfold h1. rewrite mem_hset_same, E. clear. induction pre; cbn; [reflexivity|]. now rewrite IHpre. }
    destruct (IH (pre ++ [g x]) h1 E1) as (h' & R & M' & N' & U').
    rewrite app_length in R. cbn [length] in R. rewrite Nat.add_comm in R.
    exists h'. split; [exact R|]. split; [now rewrite M', <- app_assoc|]. split; [exact N'|].
    intros q Hq. rewrite U' by exact Hq. apply mem_hset_other. intros ->. apply Hq. now left.
Qed.

(** [for (auto& x : v) x = g(x);] applies [g] to every element and changes nothing else. *)
Theorem C85_update : forall T (O : Ops T) v (g : T -> T) (h : heap T),
  exists h', range_for v (fun it _ => bind (iread it) (fun x => iwrite it (g x))) tt h = Ok tt h' /\
    mem h' v = map g (mem h v) /\ next h' = next h /\ unchanged_except [v] h h'.
Proof.
  intros. rewrite range_for_loop.
  - exact (loop_update v g (mem h v) [] h eq_refl).
  - intros it b g0 c g' E. unfold bind, iread, iwrite, load, store in E.
    destruct (nth_error (mem g0 (ib it)) (io it)); [|discriminate].
    destruct (Nat.ltb _ _); inversion E. apply len_hset.
Qed.

Lemma loop_copy {T} (v w : ptr) : v <> w -> forall (l pre pw rest : list T) (h : heap T),
  mem h v = pre ++ l -> mem h w = pw ++ rest -> length pw = length pre -> length l <= length rest ->
  exists h', loop (seq (length pre) (length l))
      (fun i d => bind (iread (mkIter v i)) (fun x => bind (iwrite d x) (fun _ => inext d))) (mkIter w (length pw)) h =
      Ok (mkIter w (length pw + length l)) h' /\
    mem h' w = pw ++ l ++ skipn (length l) rest /\ next h' = next h /\ unchanged_except [w] h h'.
Proof.
  intros D. induction l as [|x l IH]; intros pre pw rest h E F LP LR.
  - exists h. cbn. rewrite Nat.add_0_r. split; [reflexivity|]. split; [exact F|]. split; [reflexivity|]. intros q _; reflexivity.
  - destruct rest as [|y rest]; [cbn in LR; lia|].
    assert (R0 : bind (iread (mkIter v (length pre))) (fun z => bind (iwrite (mkIter w (length pw)) z) (fun _ => inext (mkIter w (length pw)))) h =
                 Ok (mkIter w (S (length pw))) (hset h w (length pw) x)).
    { unfold inext, iadd, bind, iread, iwrite, load, store, vsize, ret. cbn [ib io].
      assert (E0 : nth_error (mem h v) (length pre) = Some x) by (rewrite E, nth_error_app2, Nat.sub_diag by lia; reflexivity).
      rewrite E0. assert (LW : length pw < length (mem h w)) by (rewrite F, app_length; cbn; lia).
      rewrite (proj2 (Nat.ltb_lt _ _) LW). cbn [upd mem]. rewrite Nat.eqb_refl, set_nth_length.
      replace (Nat.leb _ _) with true by (symmetry; apply Nat.leb_le; lia). rewrite Nat.add_1_r. reflexivity. }
    cbn [length seq loop]. unfold bind at 1. rewrite R0.
    set (h1 := hset h w (length pw) x).
    assert (E1 : mem h1 v = (pre ++ [x]) ++ l) by (unfold h1; rewrite mem_hset_other, E, <- app_assoc by auto; reflexivity).
    assert (F1 : mem h1 w = (pw ++ [x]) ++ rest).
    { unfold h1. rewrite mem_hset_same, F. clear. induction pw as [|z pw IHpw]; cbn; [reflexivity|]. now rewrite IHpw. }
    destruct (IH (pre ++ [x]) (pw ++ [x]) rest h1 E1 F1) as (h' & R & M' & N' & U').
    { rewrite !app_length. cbn. lia. } { cbn in LR; lia. }
    rewrite !app_length in R. cbn [length] in R. rewrite (Nat.add_comm (length pre) 1), (Nat.add_comm (length pw) 1) in R.
    exists h'. split; [rewrite Nat.add_succ_r; exact R|]. split; [rewrite M', <- app_assoc; reflexivity|]. split; [exact N'|].
    intros q Hq. rewrite U' by exact Hq. apply mem_hset_other. intros ->. apply Hq. now left.
Qed.

(** [std::copy(v.begin(), v.end(), w.begin())] between two different vectors, [w] at least as long:
    the first elements of [w] become those of [v], the others and everything else stay. *)
Theorem C85_copy : forall T v w (h : heap T), v <> w -> length (mem h v) <= length (mem h w) ->
  exists h', copy_range v w h = Ok tt h' /\
    mem h' w = mem h v ++ skipn (length (mem h v)) (mem h w) /\ next h' = next h /\ unchanged_except [w] h h'.
Proof.
  intros T v w h D L. unfold copy_range, vbegin, bind at 1, ret at 1, bind at 1.
  rewrite range_for_loop.
  - destruct (loop_copy v w D (mem h v) [] [] (mem h w) h eq_refl eq_refl eq_refl L) as (h' & R & M' & N' & U).
    unfold len. cbn [length Nat.add app] in R, M'. exists h'. rewrite R. auto.
  - intros it b g c g' E. unfold inext, iadd, bind, iread, iwrite, load, store, vsize, ret in E.
    destruct (nth_error (mem g (ib it)) (io it)); [|discriminate].
    destruct (Nat.ltb _ _); [|discriminate]. destruct (Nat.leb _ _); inversion E. apply len_hset.
Qed.

(** Random access: [*(begin + i)] is [v[i]] (undefined exactly when that is), writing through it is
    writing [v[i]], [end - begin] is the size, and the two are equal exactly for the empty vector. *)
Theorem C85_access : forall T v i x (h : heap T),
  bind (vbegin v) (fun b => bind (iadd b i) iread) h = vec_get v i h /\
  bind (vbegin v) (fun b => bind (iadd b i) (fun it => iwrite it x)) h = vec_put v i x h /\
  bind (vbegin v) (fun b => bind (vend v) (fun e => idist b e)) h = Ok (Z.of_nat (length (mem h v))) h /\
  (bind (vbegin v) (fun b => bind (vend v) (fun e => ieq b e)) h = Ok true h <-> mem h v = []) /\
  bind (vend v) iread h = UB /\ bind (vend v) (fun e => iwrite e x) h = UB /\ bind (vend v) inext h = UB.
Proof.
  intros T v i x h. unfold inext. unfold vbegin, vend, iadd, iread, iwrite, idist, ieq, vsize, bind, ret, vec_get, vec_put, load, store.
  cbn [ib io]. split; [|split; [|split; [|split; [|split; [|split]]]]].
  - destruct (Nat.leb_spec (0 + i) (length (mem h v))); [reflexivity|].
    assert (E : nth_error (mem h v) i = None) by (apply nth_error_None; lia). now rewrite E.
  - destruct (Nat.leb_spec (0 + i) (length (mem h v))); [reflexivity|].
    destruct (Nat.ltb_spec i (length (mem h v))); [lia|reflexivity].
  - rewrite Nat.eqb_refl. now rewrite Z.sub_0_r.
  - rewrite Nat.eqb_refl. destruct (mem h v); cbn; split; intros E; inversion E; auto.
  - rewrite (proj2 (nth_error_None _ _)) by lia. reflexivity.
  - destruct (Nat.ltb_spec (length (mem h v)) (length (mem h v))); [lia|reflexivity].
  - destruct (Nat.leb_spec (length (mem h v) + 1) (length (mem h v))); [lia|reflexivity].
Qed.

(** Matrices: the k-th element in iteration order is element (k / m, k mod m) of an n x m matrix,
    and there are n * m of them. *)
Theorem C85_matrix_access : forall T (O : Ops T) A n m k (h : heap T), ismat h A n m -> k < n * m ->
  bind (mbegin A) (fun b => bind (iadd b k) iread) h = mat_get A (k / m) (k mod m) h /\
  bind (mbegin A) (fun b => bind (mend A) (fun e => idist b e)) h = Ok (Z.of_nat (n * m)) h.
Proof.
  intros T O A n m k h (_ & _ & C & L) Hk. unfold mat_get. rewrite C.
  assert (m <> 0) by (intros ->; lia).
  replace (k / m * m + k mod m) with k by (rewrite (Nat.div_mod k m) at 1 by auto; lia).
  destruct (C85_access T (mp A) k (nth 0 (mem h (mp A)) zero) h) as (G & _ & D & _).
  split; [exact G|]. transitivity (Ok (Z.of_nat (length (mem h (mp A)))) h); [exact D|].
  unfold len in L. now rewrite L.
Qed.

Lemma row_major {T} {O : Ops T} {A} (f : A -> T -> A) (m : nat) : forall n (l : list T) a, length l = n * m ->
  fold_left f l a = fold_left (fun a i => fold_left (fun a j => f a (nth (i * m + j) l zero)) (seq 0 m) a) (seq 0 n) a.
Proof.
  induction n as [|n IH]; intros l a L.
  - destruct l; [reflexivity|discriminate].
  - rewrite seq_S, fold_left_app. cbn [fold_left Nat.add].
    rewrite <- (firstn_skipn (n * m) l) at 1. rewrite fold_left_app.
    assert (LF : length (firstn (n * m) l) = n * m) by (rewrite firstn_length; lia).
    rewrite (IH (firstn (n * m) l) a LF).
    assert (X : forall c (k : nat), k <= n -> fold_left (fun a i => fold_left (fun a j => f a (nth (i * m + j) (firstn (n * m) l) zero)) (seq 0 m) a) (seq 0 k) c =
                fold_left (fun a i => fold_left (fun a j => f a (nth (i * m + j) l zero)) (seq 0 m) a) (seq 0 k) c).
    { intros c k. induction k as [|k IHk]; intros Hk; [reflexivity|].
      rewrite seq_S, !fold_left_app, IHk by lia. cbn [fold_left Nat.add].
      generalize (fold_left (fun a0 i => fold_left (fun a1 j => f a1 (nth (i * m + j) l zero)) (seq 0 m) a0) (seq 0 k) c).
      assert (Y : forall j0 w d, j0 + w <= m -> fold_left (fun a0 j => f a0 (nth (k * m + j) (firstn (n * m) l) zero)) (seq j0 w) d =
        fold_left (fun a0 j => f a0 (nth (k * m + j) l zero)) (seq j0 w) d).
      { intros j0 w; revert j0; induction w as [|w IHw]; intros j0 d Hw; [reflexivity|]. cbn [seq fold_left].
        rewrite IHw by lia. f_equal. f_equal. rewrite <- (firstn_skipn (n * m) l) at 2. rewrite app_nth1; auto. rewrite LF. nia. }
      intros d. apply Y. lia. }
    rewrite (X a n) by lia.
    generalize (fold_left (fun a0 i => fold_left (fun a1 j => f a1 (nth (i * m + j) l zero)) (seq 0 m) a0) (seq 0 n) a). intros d.
    assert (LS : length (skipn (n * m) l) = m) by (rewrite skipn_length; lia).
    assert (Z : forall (s : list T) o d, (forall j, j < length s -> nth (n * m + (o + j)) l zero = nth j s zero) ->
      fold_left f s d = fold_left (fun a0 j => f a0 (nth (n * m + j) l zero)) (seq o (length s)) d).
    { clear. induction s as [|x s IHs]; intros o d H; [reflexivity|]. cbn [length seq fold_left].
      rewrite <- (IHs (S o)).
      - f_equal. f_equal. specialize (H 0). rewrite Nat.add_0_r in H. rewrite H by (cbn; lia). reflexivity.
      - intros j Hj. specialize (H (S j)). cbn [length nth] in H. rewrite <- H by lia. f_equal. lia. }
    rewrite (Z (skipn (n * m) l) 0 d).
    + now rewrite LS.
    + intros j Hj. cbn [Nat.add]. rewrite <- (firstn_skipn (n * m) l) at 1. rewrite app_nth2 by lia. f_equal. lia.
Qed.

(** A loop over a matrix visits row 0 from left to right, then row 1, ... *)
Theorem C85_matrix_read : forall T (O : Ops T) B A n m (f : B -> T -> B) a (h : heap T), ismat h A n m ->
  range_for_mat A (fun it a => bind (iread it) (fun x => ret (f a x))) a h =
  Ok (fold_left (fun a i => fold_left (fun a j => f a (mget h A i j)) (seq 0 m) a) (seq 0 n) a) h.
Proof.
  intros T O B A n m f a h (_ & _ & C & L). change (range_for_mat A) with (@range_for T B (mp A)). rewrite C85_read.
  rewrite (row_major f m n (mem h (mp A)) a L). unfold mget. rewrite C. reflexivity.
Qed.

Theorem C85_matrix_update : forall T (O : Ops T) A n m (g : T -> T) (h : heap T), ismat h A n m ->
  exists h', range_for_mat A (fun it _ => bind (iread it) (fun x => iwrite it (g x))) tt h = Ok tt h' /\
    setmat h h' A n m (fun i j => g (mget h A i j)).
Proof.
  intros T O A n m g h (N & R & C & L). change (range_for_mat A) with (@range_for T unit (mp A)).
  destruct (C85_update T O (mp A) g h) as (h' & E & M' & N' & U). exists h'. split; [exact E|].
  assert (L' : len h' (mp A) = n * m) by (unfold len; rewrite M', map_length; exact L).
  split; [|split].
  - split; [lia|]. intros q _ Hq. apply U. intros [HH|[]]. now apply Hq.
  - repeat split; auto. lia.
  - intros i j Hi Hj. unfold mget, rd. rewrite M', C.
    assert (i * m + j < length (mem h (mp A))) by (unfold len in L; rewrite L; nia).
    rewrite nth_indep with (d' := g zero) by (rewrite map_length; lia). apply map_nth.
Qed.

(** Non-vacuity: a sum over a vector, squaring in place, printing a 2 x 3 matrix in order. *)
Example C85_nonvacuous :
  range_for 0 (fun it a => bind (iread it) (fun x => ret (a - x)%Z)) 100%Z (heap_of [[1; 2; 4]%Z]) =
    Ok 93%Z (heap_of [[1; 2; 4]%Z]) /\
  peek (bind (range_for 0 (fun it _ => bind (iread it) (fun x => iwrite it (x * x)%Z)) tt) (fun _ => ret 0)
     (heap_of [[3; 5; 7]%Z; [1; 1; 1]%Z])) (fun p => p) = Some [9; 25; 49]%Z /\
  peek (bind (copy_range 0 1) (fun _ => ret 1) (heap_of [[3; 5]%Z; [1; 2; 4]%Z])) (fun p => p) = Some [3; 5; 4]%Z /\
  ismat (heap_of [[1; 2; 3; 4; 5; 6]%Z]) (mkMat 0 2 3) 2 3 /\
  range_for_mat (mkMat 0 2 3) (fun it a => bind (iread it) (fun x => ret (a ++ [x]))) [] (heap_of [[1; 2; 3; 4; 5; 6]%Z]) =
    Ok [1; 2; 3; 4; 5; 6]%Z (heap_of [[1; 2; 3; 4; 5; 6]%Z]).
Proof. repeat split; try reflexivity. cbn. lia. Qed.

Print Assumptions C85_loop.
Print Assumptions C85_read.
Print Assumptions C85_update.
Print Assumptions C85_copy.
Print Assumptions C85_access.
Print Assumptions C85_matrix_read.
Print Assumptions C85_matrix_update.
