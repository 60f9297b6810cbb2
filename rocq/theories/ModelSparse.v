(** * Model: sparse matrices

    /repo/include/lalib/mat/sp_mat.hpp (SpCooMat, SpMat), the sparse parts of
    ops/mat_vec_ops.hpp, ops/mat_vec_ops_core.hpp, ops/mat_ops.hpp and ops/sp_mat_ops.hpp.
    The two classes own std::vector members and are modelled as records of lists; the constant
    member [_zero] (sp_mat.hpp:134, 265) is [zero]; [reserve] has no observable effect (it is in
    ModelDefault.v; the appends of operator+= stay within the reserved capacity, so no iterator is
    invalidated). *)
From Verif Require Import Base Scalar ModelVec.
Local Open Scope nat_scope.

Section ModelSparse.
Context {T : Type} {Op : Ops T}.

Record coo := mkCoo { cval : list T; crow : list nat; ccol : list nat }.
Record csr := mkCsr { sval : list T; sptr : list nat; scol : list nat }.

(** [std::ranges::sort(ids, less)]: an unstable sort.  The implementation is a parameter; the
    theorems assume only [sort_contract]. *)
Definition sorter := (nat -> nat -> bool) -> list nat -> list nat.

(** The comparison of sp_mat.hpp:431-436. *)
Definition pos_less (rows cols : list nat) (i j : nat) : bool :=
  if Nat.eqb (nth i rows 0) (nth j rows 0) then Nat.ltb (nth i cols 0) (nth j cols 0)
  else Nat.ltb (nth i rows 0) (nth j rows 0).

(** The permuting loop of sp_mat.hpp:441-445, one vector at a time: [new[i] = old[ids[i]]]. *)
Fixpoint gather {S A} (l : list A) (ids : list nat) : M S (list A) :=
  match ids with
  | [] => ret []
  | k :: ids' => x <- vec_at l k ;; r <- gather l ids' ;; ret (x :: r)
  end.

(** sp_mat.hpp:426-450.  The comparison reads [_row_ids] and [_col_ids] at ids below
    [_val.size()], which the class keeps equal to their sizes. *)
Definition coo_sort {S} (srt : sorter) (A : coo) : M S coo :=
  let n := length (cval A) in
  let ids := srt (pos_less (crow A) (ccol A)) (seq 0 n) in
  if fits_u32 n then
    v <- gather (cval A) ids ;; r <- gather (crow A) ids ;; c <- gather (ccol A) ids ;;
    ret (mkCoo v r c)
  else diverge.

(** sp_mat.hpp:274-292 *)
Definition coo_of {S} (srt : sorter) (val : list T) (rows cols : list nat) : M S coo :=
  if negb (Nat.eqb (length val) (length rows)) || negb (Nat.eqb (length val) (length cols))
  then throw RuntimeError
  else coo_sort srt (mkCoo val rows cols).

(** sp_mat.hpp:294-306 *)
Definition coo_unit {S} (srt : sorter) (n : nat) : M S coo :=
  ids <- for_u32 0 n (fun i l => vec_set l i i) (repeat 0 n) ;;
  coo_of srt (repeat one n) ids ids.

(** [*std::ranges::max_element(l)]: dereferences the end iterator of an empty range. *)
Definition max_elem {S} (l : list nat) : M S nat :=
  match l with
  | [] => ub
  | x :: l' => ret (fold_left Nat.max l' x)
  end.

(** sp_mat.hpp:309-315 *)
Definition coo_shape {S} (A : coo) : M S (nat * nat) :=
  r <- max_elem (crow A) ;; c <- max_elem (ccol A) ;; ret (r + 1, c + 1).

(** sp_mat.hpp:317-320 *)
Definition coo_nnz (A : coo) : nat := length (cval A).

(** The search loop of sp_mat.hpp:323-327 and 338-342 over the given indices. *)
Definition coo_scan {S} (A : coo) (i j : nat) (idx : list nat) : M S (option nat) :=
  loop idx (fun cnt found =>
    match found with
    | Some k => ret (Some k)
    | None =>
      r <- vec_at (crow A) cnt ;;
      if Nat.eqb r i then
        c <- vec_at (ccol A) cnt ;;
        if Nat.eqb c j then ret (Some cnt) else ret None
      else ret None
    end) None.

(** [std::views::iota(0u, size)] counts in [unsigned int]: when nothing is found among the first
    2^32 positions of a longer matrix the loop starts over. *)
Definition coo_find {S} (A : coo) (i j : nat) : M S (option nat) :=
  let n := length (cval A) in
  if fits_u32 n then coo_scan A i j (seq 0 n)
  else
    f <- coo_scan A i j (seq 0 (Z.to_nat (2 ^ 32))) ;;
    match f with Some k => ret (Some k) | None => diverge end.

(** sp_mat.hpp:322-335, operator() and at, followed by a read through the reference *)
Definition coo_get {S} (A : coo) (i j : nat) : M S T :=
  f <- coo_find A i j ;;
  match f with Some k => vec_at (cval A) k | None => ret zero end.

(** sp_mat.hpp:337-345, mut_at, read through the reference *)
Definition coo_get_mut (i j : nat) : M coo T := fun A =>
  (f <- coo_find A i j ;;
   match f with Some k => vec_at (cval A) k | None => throw OutOfRange end) A.

(** sp_mat.hpp:337-345, mut_at, assigned through the reference *)
Definition coo_set (i j : nat) (x : T) : M coo unit := fun A =>
  (f <- coo_find A i j ;;
   match f with
   | Some k => l <- vec_set (cval A) k x ;; (fun _ => Ok tt (mkCoo l (crow A) (ccol A)))
   | None => throw OutOfRange
   end) A.

(** sp_mat.hpp:347-363: copy and move assignment (the moved-from matrix is not modelled) *)
Definition coo_assign (A : coo) : M coo unit := fun _ => Ok tt (mkCoo (cval A) (crow A) (ccol A)).

(** ** operator+= (sp_mat.hpp:365-423) *)

Definition leading (i : nat) : list nat -> nat :=
  fix go l := match l with [] => 0 | x :: l' => if Nat.leb x i then S (go l') else 0 end.

(** [std::upper_bound(l+lo, l+hi, i, less)] as an index: the first position whose element is
    greater than [i].  The standard requires the range to be partitioned with respect to [i], as
    the sorted row lists are; then the binary search finds this position. *)
Definition upper_bound (l : list nat) (lo hi i : nat) : nat :=
  lo + leading i (firstn (hi - lo) (skipn lo l)).

Definition upd_coo : (coo -> coo) -> M coo unit := fun f A => Ok tt (f A).
Definition get_coo : M coo coo := fun A => Ok A A.

(** [emplace_back] on the three vectors (sp_mat.hpp:397-399, 406-408) *)
Definition coo_push (v : T) (i c : nat) : M coo unit :=
  upd_coo (fun A => mkCoo (cval A ++ [v]) (crow A ++ [i]) (ccol A ++ [c])).

Section AddAssign.
(** The right-hand side: another matrix, or the matrix itself ([A += A]), in which case every
    access to [mat] sees the current contents of [*this]. *)
Context (rhs : option coo).
Definition rhs_of (A : coo) : coo := match rhs with Some B => B | None => A end.

(** The [while] loop (sp_mat.hpp:384-415).  [cursor_end] and [rcursor_end] are signed and may be
    -1.  [fuel] bounds the number of iterations; running out of it is reported as divergence. *)
Fixpoint add_row (fuel : nat) (i : nat) (cend rend : Z) (cursor rcursor : nat) : M coo unit :=
  match fuel with
  | 0 => diverge
  | S f =>
    if (Z.of_nat rcursor <=? rend)%Z then
      A <- get_coo ;;
      c <- vec_at (ccol A) cursor ;;
      rc <- vec_at (ccol (rhs_of A)) rcursor ;;
      if Nat.eqb c rc then
        v <- vec_at (cval A) cursor ;;
        rv <- vec_at (cval (rhs_of A)) rcursor ;;
        l <- vec_set (cval A) cursor (add v rv) ;;
        upd_coo (fun A => mkCoo l (crow A) (ccol A)) ;;
        if (Z.of_nat rcursor =? rend)%Z then ret tt
        else add_row f i cend rend
               (if (Z.of_nat cursor <? cend)%Z then cursor + 1 else cursor)
               (if (Z.of_nat rcursor <? rend)%Z then rcursor + 1 else rcursor)
      else if Nat.ltb c rc then
        if (Z.of_nat cursor <? cend)%Z then add_row f i cend rend (cursor + 1) rcursor
        else
          rv <- vec_at (cval (rhs_of A)) rcursor ;;
          coo_push rv i rc ;;
          if (Z.of_nat rcursor =? rend)%Z then ret tt
          else add_row f i cend rend cursor (rcursor + 1)
      else
        rv <- vec_at (cval (rhs_of A)) rcursor ;;
        coo_push rv i rc ;;
        if (Z.of_nat rcursor =? rend)%Z then ret tt
        else add_row f i cend rend cursor
               (if (Z.of_nat rcursor <? rend)%Z then rcursor + 1 else rcursor)
    else ret tt
  end.

(** sp_mat.hpp:365-423.  [mat.shape()] is evaluated once: its value does not change during the
    loop (in [A += A] the appended rows are rows of A).  The [while] loop moves a cursor or
    leaves in every iteration, so the fuel given here suffices (proved in ProofSparse.v for the
    runs that reach the end). *)
Definition coo_add_assign (srt : sorter) : M coo unit :=
  A0 <- get_coo ;;
  let nrow_ids := length (crow A0) in
  let nrrow_ids := length (crow (rhs_of A0)) in
  sh <- coo_shape (rhs_of A0) ;;
  for_u32 0 (fst sh) (fun i it =>
    A <- get_coo ;;
    let row_end := upper_bound (crow A) (fst it) nrow_ids i in
    let rrow_end := upper_bound (crow (rhs_of A)) (snd it) nrrow_ids i in
    add_row (nrow_ids + nrrow_ids + 1) i (Z.of_nat row_end - 1) (Z.of_nat rrow_end - 1)
            (fst it) (snd it) ;;
    ret (row_end, rrow_end)) (0, 0) ;;
  A <- get_coo ;;
  A' <- coo_sort srt A ;;
  upd_coo (fun _ => A').
End AddAssign.

(** Runs a mutator on a local copy. *)
Definition on_copy {S C A} (c : C) (m : M C A) : M S C := fun s =>
  match m c with
  | Ok _ c' => Ok c' s
  | Throw e _ => Throw e s
  | Terminate => Terminate
  | AssertFail => AssertFail
  | UB => UB
  | Diverge => Diverge
  end.

(** ** CSR *)

(** The loop of sp_mat.hpp:466-470: [fuel] bounds the number of rows; the loop ends when [it]
    reaches the end, i.e. after the last row id (which the caller gives as fuel). *)
Fixpoint crs_loop {S} (fuel : nat) (rows : list nat) (it i : nat) (ptrs : list nat)
  : M S (list nat) :=
  if Nat.ltb it (length rows) then
    match fuel with
    | 0 => diverge
    | S f =>
      let it' := upper_bound rows it (length rows) i in
      crs_loop f rows it' (i + 1) (ptrs ++ [it'])
    end
  else ret ptrs.

(** sp_mat.hpp:456-471 *)
Definition convert_coo_crs {S} (rows : list nat) : M S (list nat) :=
  crs_loop (fold_left Nat.max rows 0 + 1) rows 0 0 [0].

(** sp_mat.hpp:473-485: both constructors ([std::move] of a const reference copies). *)
Definition csr_of_coo {S} (A : coo) : M S csr :=
  noexcept (p <- convert_coo_crs (crow A) ;; ret (mkCsr (cval A) p (ccol A))).

(** sp_mat.hpp:487-503 *)
Definition csr_of {S} (val : list T) (ptrs cols : list nat) : M S csr :=
  if negb (Nat.eqb (length val) (length cols)) then throw RuntimeError
  else ret (mkCsr val ptrs cols).

(** sp_mat.hpp:505-518 *)
Definition csr_unit {S} (n : nat) : M S csr :=
  pc <- for_u32 0 n (fun i pc => p <- vec_set (fst pc) i i ;; c <- vec_set (snd pc) i i ;; ret (p, c))
          (repeat 0 (n + 1), repeat 0 n) ;;
  p <- vec_set (fst pc) n n ;;
  csr_of (repeat one n) p (snd pc).

(** sp_mat.hpp:521-527.  [_row_ptr.size() - 1] of a default-constructed matrix wraps to 2^64-1,
    but then [max_element] of the empty [_col_ids] is dereferenced in any case. *)
Definition csr_shape {S} (A : csr) : M S (nat * nat) :=
  c <- max_elem (scol A) ;; ret (length (sptr A) - 1, c + 1).

(** sp_mat.hpp:529-532 *)
Definition csr_nnz (A : csr) : nat := length (sval A).

(** The search loop of sp_mat.hpp:535-539 and 550-554.  [iota(a, b)] requires a <= b. *)
Definition csr_find {S} (A : csr) (i j : nat) : M S (option nat) :=
  a <- vec_at (sptr A) i ;;
  b <- vec_at (sptr A) (i + 1) ;;
  if Nat.ltb b a then ub
  else
    loop (seq a (b - a)) (fun cnt found =>
      match found with
      | Some k => ret (Some k)
      | None => c <- vec_at (scol A) cnt ;; if Nat.eqb c j then ret (Some cnt) else ret None
      end) None.

(** sp_mat.hpp:534-547, operator() and at, read through the reference *)
Definition csr_get {S} (A : csr) (i j : nat) : M S T :=
  f <- csr_find A i j ;;
  match f with Some k => vec_at (sval A) k | None => ret zero end.

(** sp_mat.hpp:549-557, mut_at, read / assigned through the reference *)
Definition csr_get_mut (i j : nat) : M csr T := fun A =>
  (f <- csr_find A i j ;;
   match f with Some k => vec_at (sval A) k | None => throw OutOfRange end) A.
Definition csr_set (i j : nat) (x : T) : M csr unit := fun A =>
  (f <- csr_find A i j ;;
   match f with
   | Some k => l <- vec_set (sval A) k x ;; (fun _ => Ok tt (mkCsr l (sptr A) (scol A)))
   | None => throw OutOfRange
   end) A.

(** sp_mat.hpp:559-575 *)
Definition csr_assign (A : csr) : M csr unit := fun _ => Ok tt (mkCsr (sval A) (sptr A) (scol A)).

(** ** Scaling and negation (mat_ops.hpp:31-41, 58-70, 93-107): [scal_core] on the value array *)

Definition scal_vals {S} (alpha : T) (l : list T) : M S (list T) :=
  r <- run_local (heap_of [l]) (scal_core alpha 0 (length l)) ;; ret (mem (snd r) 0).

(** mat_ops.hpp:31-35 *)
Definition coo_scale (alpha : T) : M coo unit := fun A =>
  noexcept (l <- scal_vals alpha (cval A) ;; (fun _ => Ok tt (mkCoo l (crow A) (ccol A)))) A.
(** mat_ops.hpp:37-41 *)
Definition csr_scale (alpha : T) : M csr unit := fun A =>
  noexcept (l <- scal_vals alpha (sval A) ;; (fun _ => Ok tt (mkCsr l (sptr A) (scol A)))) A.
(** mat_ops.hpp:58-70 *)
Definition coo_op_scale {S} (alpha : T) (A : coo) : M S coo := noexcept (on_copy A (coo_scale alpha)).
Definition csr_op_scale {S} (alpha : T) (A : csr) : M S csr := noexcept (on_copy A (csr_scale alpha)).
(** mat_ops.hpp:93-107 *)
Definition coo_neg {S} (A : coo) : M S coo := noexcept (on_copy A (coo_scale (opp one))).
Definition csr_neg {S} (A : csr) : M S csr := noexcept (on_copy A (csr_scale (opp one))).

(** ** Sums (sp_mat_ops.hpp:9-21) *)

Definition coo_plus {S} (srt : sorter) (m1 m2 : coo) : M S coo :=
  noexcept (on_copy m1 (coo_add_assign (Some m2) srt)).
Definition coo_minus {S} (srt : sorter) (m1 m2 : coo) : M S coo :=
  noexcept (n <- coo_neg m2 ;; on_copy m1 (coo_add_assign (Some n) srt)).

(** ** Matrix-vector product *)

Local Open Scope sc_scope.

(** mat_vec_ops_core.hpp:54-64 *)
Definition sp_mul_core (n : nat) (cols rptr : list nat) (alpha : T) (vals : list T) (x : ptr)
  (beta : T) (y : ptr) : M (heap T) ptr :=
  noexcept (
    for_u32 0 n (fun i _ =>
      y0 <- load y i ;; store y i (beta * y0) ;;
      a <- vec_at rptr i ;; b <- vec_at rptr (i + 1)%nat ;;
      for_sz a b (fun k _ =>
        v <- vec_at vals k ;; c <- vec_at cols k ;; xk <- load x c ;;
        yi <- load y i ;; store y i (yi + alpha * v * xk)) tt) tt ;;
    ret y).

(** mat_vec_ops.hpp:49-56 *)
Definition sp_mul (dbg : bool) (alpha : T) (A : csr) (v : ptr) (beta : T) (vr : ptr)
  : M (heap T) ptr :=
  noexcept (
    sh <- csr_shape A ;;
    nv <- vsize v ;; assert_ dbg (Nat.eqb (snd sh) nv) ;;
    nr <- vsize vr ;; assert_ dbg (Nat.eqb (fst sh) nr) ;;
    sp_mul_core (fst sh) (scol A) (sptr A) alpha (sval A) v beta vr ;;
    ret vr).

(** mat_vec_ops.hpp:92-99; [DynVec::uninit(n)] value-initialises (dyn_vec.hpp:105-109) *)
Definition sp_op_mul (dbg : bool) (A : csr) (v : ptr) : M (heap T) ptr :=
  noexcept (
    sh <- csr_shape A ;;
    nv <- vsize v ;; assert_ dbg (Nat.eqb (snd sh) nv) ;;
    vr <- alloc (repeat zero (fst sh)) ;;
    sp_mul_core (fst sh) (scol A) (sptr A) one (sval A) v zero vr ;;
    ret vr).

End ModelSparse.

Arguments coo T : clear implicits.
Arguments csr T : clear implicits.
