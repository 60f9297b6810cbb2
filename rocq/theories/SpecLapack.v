(** * What is assumed of LAPACK

    Taken from the documentation of ?gtsv, ?potrf ('L') and ?potrs ('L') for the calls the library
    makes (row-major, leading dimensions n and nrhs), in exact real arithmetic: how the library
    rounds is not specified.  Nothing is assumed of sizes beyond 32 bits, of empty systems, of
    what ?gtsv leaves behind for a singular matrix. *)
From Coq Require Import Reals.
From Verif Require Import Base Scalar BaseLemmas Spec Sums RealVec ModelVec ModelMat SpecMat ModelPacked PropPacked ModelSolvers
  ModelBlas SpecBlas ModelLapack ProofTdma PropTdma ProofChol ProofCholMath PropChol.
Local Open Scope nat_scope.

(** The n x n matrix stored at [l] and the n x m matrix stored at [b], row by row. *)
Definition at_rows (h : heap R) (l : ptr) m i j : R := rd h l (i * m + j).

Record gtsv_contract (gtsv : gtsv_routine (T := R)) : Prop := {
  (** a non-singular system: every column of [b] is replaced by the solution *)
  gtsv_solves : forall n m (t : tri R) b (h : heap R),
    0 < n -> (Z.of_nat n < 2 ^ 31)%Z -> 0 < m -> (Z.of_nat m < 2 ^ 31)%Z -> tri_wf R t n -> nonsingular n (tmat t) ->
    b < next h -> n * m <= len h b ->
    post (gtsv (Z.of_nat n) (Z.of_nat m) (tdl t) (td t) (tdu t) b (Z.of_nat m)) h (fun r h' =>
      fst r = 0%Z /\ wrote_only h h' b /\ (forall p, n * m <= p -> rd h' b p = rd h b p) /\
      tri_wf R (mkTri (fst (fst (snd r))) (snd (fst (snd r))) (snd (snd r))) n /\
      forall k, k < m -> solves n (tmat t) (fun i => at_rows h' b m i k) (fun i => at_rows h b m i k));
  (** the bands are overwritten by the factors: if no row exchange happens, d by the pivots, dl by
      the second super-diagonal of the upper factor, which is zero; du is kept *)
  gtsv_overwrites : forall n m (t : tri R) b (h : heap R),
    0 < n -> (Z.of_nat n < 2 ^ 31)%Z -> 0 < m -> (Z.of_nat m < 2 ^ 31)%Z -> tri_wf R t n -> nonsingular n (tmat t) ->
    b < next h -> n * m <= len h b ->
    (forall i, S i < n -> (Rabs (atf (tdl t) i) <= Rabs (tri_pivot (atf (tdl t)) (atf (td t)) (atf (tdu t)) i))%R) ->
    post (gtsv (Z.of_nat n) (Z.of_nat m) (tdl t) (td t) (tdu t) b (Z.of_nat m)) h (fun r _ =>
      (forall i, i < n -> atf (snd (fst (snd r))) i = tri_pivot (atf (tdl t)) (atf (td t)) (atf (tdu t)) i) /\
      (forall i, S i < n -> atf (snd (snd r)) i = atf (tdu t) i) /\
      (forall i, S (S i) < n -> atf (fst (fst (snd r))) i = 0%R)) }.

Record potrf_contract (potrf : potrf_routine (T := R)) : Prop := {
  (** positive definite: the lower triangle is replaced by the Cholesky factor *)
  potrf_factors : forall n l (h : heap R), 0 < n -> (Z.of_nat n < 2 ^ 31)%Z -> l < next h -> len h l = n * n ->
    pos_def n (symf (at_rows h l n)) ->
    post (potrf (Z.of_nat n) l (Z.of_nat n)) h (fun c h' =>
      c = 0%Z /\ wrote_only h h' l /\
      (forall i j, i < n -> j < n -> i < j -> at_rows h' l n i j = at_rows h l n i j) /\
      (forall i, i < n -> (0 < at_rows h' l n i i)%R) /\
      meq n n (mmmul n (lowf (at_rows h' l n)) (transp (lowf (at_rows h' l n)))) (symf (at_rows h l n)));
  (** not positive definite: reported by the return code *)
  potrf_reports : forall n l (h : heap R), 0 < n -> (Z.of_nat n < 2 ^ 31)%Z -> l < next h -> len h l = n * n ->
    ~ pos_def n (symf (at_rows h l n)) ->
    post (potrf (Z.of_nat n) l (Z.of_nat n)) h (fun c h' => c <> 0%Z /\ wrote_only h h' l) }.

Record potrs_contract (potrs : potrs_routine (T := R)) : Prop := {
  (** every column of [b] is replaced by the solution of L (L^T x) = b *)
  potrs_solves : forall n m l b (h : heap R), 0 < n -> (Z.of_nat n < 2 ^ 31)%Z -> 0 < m -> (Z.of_nat m < 2 ^ 31)%Z ->
    l <> b -> l < next h -> b < next h -> len h l = n * n -> len h b = n * m ->
    (forall i, i < n -> at_rows h l n i i <> 0%R) ->
    post (potrs (Z.of_nat n) (Z.of_nat m) l (Z.of_nat n) b (Z.of_nat m)) h (fun c h' =>
      c = 0%Z /\ wrote_only h h' b /\
      forall k, k < m ->
        solves n (mmmul n (lowf (at_rows h l n)) (transp (lowf (at_rows h l n))))
          (fun i => at_rows h' b m i k) (fun i => at_rows h b m i k)) }.
