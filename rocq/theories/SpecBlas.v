(** * What is assumed of CBLAS

    Taken from the reference documentation of ?gemv and ?gemm, in exact arithmetic (commutative
    rings; how the library rounds is not specified by BLAS).  Nothing is assumed where the
    documentation is silent: an empty inner dimension of gemv, overlapping operands. *)
From Verif Require Import Base Scalar BaseLemmas Spec SpecMat ModelBlas.
Local Open Scope nat_scope.

Section SpecBlas.
Context {T : Type} {Op : Ops T}.

(** An illegal argument: the error handler xerbla stops the program or returns to the caller
    with nothing changed. *)
Definition rejected (m : M (heap T) unit) (h : heap T) : Prop := m h = Terminate \/ m h = Ok tt h.

(** Only the buffer [y] was written; its length is kept. *)
Definition wrote_only (h h' : heap T) (y : ptr) : Prop :=
  next h' = next h /\ (forall q, q <> y -> mem h' q = mem h q) /\ len h' y = len h y.

Record gemv_contract (gemv : gemv_routine (T := T)) : Prop := {
  (** y := alpha*A*x + beta*y, A in row-major order with row stride lda *)
  gemv_computes : forall n m alpha a lda x beta y h,
    0 < n -> 0 < m -> m <= lda -> x <> y -> a <> y ->
    (n - 1) * lda + m <= len h a -> m <= len h x -> n <= len h y ->
    post (gemv (Z.of_nat n) (Z.of_nat m) alpha a (Z.of_nat lda) x beta y) h (fun _ h' =>
      wrote_only h h' y /\
      (forall i, i < n -> rd h' y i =
         add (mul alpha (bsum m (fun k => mul (rd h a (i * lda + k)) (rd h x k)))) (mul beta (rd h y i))) /\
      forall i, n <= i -> rd h' y i = rd h y i);
  (** no rows: nothing to do *)
  gemv_no_rows : forall m alpha a lda x beta y h,
    m <= lda -> 0 < lda -> gemv 0%Z (Z.of_nat m) alpha a (Z.of_nat lda) x beta y h = Ok tt h;
  gemv_rejects : forall n m alpha a lda x beta y h,
    (n < 0 \/ m < 0 \/ lda < Z.max 1 m)%Z -> rejected (gemv n m alpha a lda x beta y) h }.

Record gemm_contract (gemm : gemm_routine (T := T)) : Prop := {
  (** C := alpha*A*B + beta*C, row strides lda, ldb, ldc *)
  gemm_computes : forall n m k alpha a lda b ldb beta c ldc h,
    0 < n -> 0 < m -> 0 < k -> k <= lda -> m <= ldb -> m <= ldc -> a <> c -> b <> c ->
    (n - 1) * lda + k <= len h a -> (k - 1) * ldb + m <= len h b -> (n - 1) * ldc + m <= len h c ->
    post (gemm (Z.of_nat n) (Z.of_nat m) (Z.of_nat k) alpha a (Z.of_nat lda) b (Z.of_nat ldb) beta c (Z.of_nat ldc)) h
      (fun _ h' =>
      wrote_only h h' c /\
      (forall i j, i < n -> j < m -> rd h' c (i * ldc + j) =
         add (mul alpha (bsum k (fun t => mul (rd h a (i * lda + t)) (rd h b (t * ldb + j)))))
             (mul beta (rd h c (i * ldc + j)))) /\
      forall p, (forall i j, i < n -> j < m -> p <> i * ldc + j) -> rd h' c p = rd h c p);
  (** the result array is too short: the routine writes past its end *)
  gemm_overrun : forall n m k alpha a lda b ldb beta c ldc h,
    0 < n -> 0 < m -> 0 < k -> k <= lda -> m <= ldb -> m <= ldc -> a <> c -> b <> c ->
    len h c < (n - 1) * ldc + m ->
    gemm (Z.of_nat n) (Z.of_nat m) (Z.of_nat k) alpha a (Z.of_nat lda) b (Z.of_nat ldb) beta c (Z.of_nat ldc) h = UB;
  gemm_rejects : forall n m k alpha a lda b ldb beta c ldc h,
    (n < 0 \/ m < 0 \/ k < 0 \/ lda < Z.max 1 k \/ ldb < Z.max 1 m \/ ldc < Z.max 1 m)%Z ->
    rejected (gemm n m k alpha a lda b ldb beta c ldc) h }.

(** ** A library that meets the contract (so that the contract is not empty). *)

Definition ref_gemv : gemv_routine := fun n m alpha a lda x beta y h =>
  if ((n <? 0) || (m <? 0) || (lda <? Z.max 1 m))%Z then Ok tt h
  else
    let n := Z.to_nat n in let m := Z.to_nat m in let lda := Z.to_nat lda in
    if Nat.eqb n 0 then Ok tt h else
    Ok tt (upd h y (map (fun i => if Nat.ltb i n then
      add (mul alpha (bsum m (fun k => mul (rd h a (i * lda + k)) (rd h x k)))) (mul beta (rd h y i))
      else rd h y i) (seq 0 (len h y)))).

Definition ref_gemm : gemm_routine := fun n m k alpha a lda b ldb beta c ldc h =>
  if ((n <? 0) || (m <? 0) || (k <? 0) || (lda <? Z.max 1 k) || (ldb <? Z.max 1 m) || (ldc <? Z.max 1 m))%Z then Ok tt h
  else
    let n := Z.to_nat n in let m := Z.to_nat m in let k := Z.to_nat k in
    let lda := Z.to_nat lda in let ldb := Z.to_nat ldb in let ldc := Z.to_nat ldc in
    if Nat.ltb (len h c) ((n - 1) * ldc + m) then UB else
    Ok tt (upd h c (map (fun p =>
      let i := p / ldc in let j := p mod ldc in
      if Nat.ltb i n && Nat.ltb j m then
      add (mul alpha (bsum k (fun t => mul (rd h a (i * lda + t)) (rd h b (t * ldb + j)))))
             (mul beta (rd h c p))
      else rd h c p) (seq 0 (len h c)))).
End SpecBlas.
