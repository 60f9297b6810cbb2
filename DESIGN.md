# Formal model of lalib in Rocq (Coq 8.16.1)

`properties.jsonl` states the properties in terms of the library's API.
`rocq/theories` holds a model of the code (read as text from /repo, never built or run)
and machine-checked proofs.  `MANIFEST.json` maps every property to theorem names.
`seeded/LOG.jsonl` records the deliberately wrong variants of the model that were tried.

Files: `Base`, `Scalar` (semantic ground), `Model*` (the code, nothing else), `Spec*` (vocabulary of
the statements, contracts of external routines), `Proof*`, `Sums`, `RealVec`, `Rounding`, `Sim*`,
`Frame*` (lemmas), `Prop*` (the property theorems, each with an `Example` meeting its hypotheses and
`Print Assumptions`), `RoundFlocq`, `RoundIeee` (53-bit arithmetic, binary64 and binary32 meet the rounding models).

## 1. How the code is modelled

* **Scalars.**  The library is a set of C++ templates over a scalar type `T`.  The model is
  polymorphic over a record `Ops T` of the operators the code uses (`+ - * /`, unary minus,
  `sqrt`, `pow(x,2)`, `abs`, comparisons, literals 0 and 1).  Statements about *which* scalar
  expression ends up *where* (element-wise kernels, storage, schedules, aliasing, summation order,
  recurrences of the factorisations) are proved for **any** `Ops T`, i.e. bit-exact for IEEE numbers
  too.  Algebraic statements are proved for any commutative ring or field, statements about order
  and square roots for the reals `R` (exact arithmetic).  C60-C70 are about rounded arithmetic in the
  standard model (each operation exact up to a relative error u, no overflow or underflow), C76-C84 and C87 about
  IEEE arithmetic with overflow, underflow, infinities and NaN.
  Witnesses of floating-point failures use Coq's primitive binary64 floats.
* **Memory.**  A heap maps buffer ids to lists of scalars; a vector/matrix object is a handle on
  a buffer, so two arguments alias exactly when their handles carry the same id.  Partially
  overlapping objects cannot be built with this API.  Every load/store is bounds-checked; out of
  bounds is the distinct outcome `UB`.  Allocation never fails.
* **Outcomes.**  `Ok`, `Throw e` (with the heap at that point), `Terminate` (an exception leaving
  a `noexcept` function), `AssertFail` (only when the model's `dbg` flag says asserts are
  compiled in), `UB`, `Diverge`.  A theorem that a call returns therefore also says that it neither
  reads nor writes out of bounds, throws, aborts or hangs.
* **Loops.**  `for (auto i = 0u; i < n; ++i)` has a 32-bit counter: for n >= 2^32 the model says
  `Diverge`; that this is what the wrapping counter does is itself a theorem (Counters.v).
  `int32_t i = n - 1` downward loops are modelled with the conversion to int32.
* **Parallel loops.**  Modelled twice: sequentially (for reuse in other functions) and as a
  machine whose steps are the individual loads and stores of the iterations, interleaved
  arbitrarily (Schedules.v).  Reductions: any grouping and order (C05, C07, C60, C61).
* **Division by zero.**  In `R` and in an abstract field `x/0` is *some* value.  Theorems using the
  value of a quotient have, or derive, that the divisor is not zero.  GMRES over R divides by the norm
  of the residual and by Givens radii; with b <> 0 and nonsingular A these are shown nonzero, except
  after convergence, where the value is not used.  For b = 0 see C49 (binary64 NaN).

## 2. Which parts of the code are modelled

| file | modelled | not modelled |
|---|---|---|
| err/error.hpp | exception kinds and the two sizes carried | message text |
| vec/dyn_vec.hpp, vec/sized_vec.hpp | construction, copy, move, assignment, element access, size, iterators (ModelRange), dot, norm2 | raw `data()` handed out to users, iterator invalidation |
| ops/vec_ops_core.hpp | neg, add, sub, axpy, dot, cross, scal, norm2 kernels (built-in and, in ModelBlas, the cblas calls), simd/parallel schedules, the `omp target` kernels of addition and subtraction (ModelAccel) | `__neg_core_parallel`, `__axpy_core_parallel`, `__axpy_core_accelerator` (never called); generic `dot_core<T>` (ill-formed: returns a pointer as T) |
| ops/vec_ops.hpp | all wrappers and operators that can be instantiated | `sub(SizedVec, DynVec)` (ill-formed), `cross(DynVec, SizedVec<3>)` returning by value (539-545, ill-formed: converts a DynVec to SizedVec), two-argument `cross(DynVec, DynVec)` (491-498 and 560-567 differ in the return type only, so every call is ambiguous and does not compile; 491-498 is modelled as intended) |
| ops/ops_traits.hpp | `Zero`, `One`, `reciprocal` | complex specialisations (ill-formed for `Zero`/`One`) |
| mat/dyn_mat.hpp | DynMat, DynTriDiagMat, DynHessenbergMat, DynUpperTriMat, DynLowerTriMat, DynHermiteMat: constructors, accessors, extend, get_col, back_sub | `Hessenberg`/`UpperTri` copy assignment (deleted) |
| mat/sized_mat.hpp | SizedMat, SizedTriDiagMat, SizedLowerTriMat, SizedHermiteMat: constructors, accessors, iterators, into_lower_mat | - |
| mat/sp_mat.hpp | SpCooMat, SpMat (CSR): constructors, accessors, conversion, shape, nnz, +=, unit | `SpMat::operator+=` (declared, never defined) |
| ops/mat_ops.hpp, ops/mat_vec_ops*.hpp, ops/mat_mat_ops*.hpp, ops/sp_mat_ops.hpp, mat.hpp | entry-wise operations, products (built-in and cblas), 2x2 inverse | products on one mixed overload whose assert does not compile in debug (`c.shape().frist`, mat_mat_ops.hpp:145): modelled as intended |
| ops/orthogonal.hpp | cgs | - |
| solver/internal/tdma.hpp, solver/tri_diag.hpp, solver/lapack/gtsv.hpp | all | complex instances of gtsv (cannot be reached: TriDiag requires `std::floating_point`) |
| solver/internal/cholesky_decomposition.hpp, solver/cholesky_factorization.hpp, solver/lapack/potr.hpp | all (built-in and LAPACKE calls) | - |
| solver/ilu.hpp, solver/gmres.hpp | all; Ilu for every matrix class (ModelIter, ModelIluOther), Gmres for DynMat and SpMat, the classes with a product returning DynVec | - |
| type_traits.hpp, vec.hpp | - | concepts and aliases only |
| test, benchmark, cmake | - | not library code |

Instantiations: `operator*` of matrices (matrix-vector, matrix-matrix, sparse), unary minus of matrices
and GMRES pass the literals 1.0, 0.0, -1.0 where the scalar type is deduced, and the Cholesky kernels
take `double*`; these functions compile only for T = double.  The model states them for any T, of which double is an
instance; the other functions (`mul` with explicit alpha and beta, vector operations, ILU, tridiagonal solver)
also compile for float.  Sizes are natural numbers: products like n*m are not reduced modulo 2^64 (no such object fits in memory).

Complex scalars are the instance of ModelComplex.v, in exact arithmetic (C94, C95; the header of that file lists
the functions that can be instantiated).  Fused multiply-add
contraction by the compiler is modelled by running the functions on expressions (SpecFma.v, C88);
`-ffast-math`, excess precision and floating-point exception flags are not modelled.  Object lifetimes (use after destruction) are modelled only where the library itself returns
a dangling reference (C20).

## 3. Property by property

Status, theorem names and remarks are in `MANIFEST.json`; "false" below means that the statement, as a
user would expect it from the API, does not hold for this code: a `_refuted` theorem gives a witness and
the theorems with suffix `_partial` (or the others listed) say exactly what does hold.

| id | title | status | modelled | how proved | remarks |
|---|---|---|---|---|---|
| C01 | Element-wise vector kernels compute exactly the element-wise result, in place or not | proved | `core::neg/add/sub/axpy/scal` loops and all vector wrappers and operators (ModelVec) | loop invariant "first i elements done, rest untouched" over any `Ops`, with no hypothesis that buffers differ | Any Ops instance (bit-exact), lengths below 2^32, arbitrary (possibly equal) pointers. |
| C02 | Vector and matrix kernels give the same result under every thread/SIMD schedule | proved | every iteration split into its loads and stores; machine interleaving them arbitrarily (Schedules, ProofVecSched, ProofMatSched) | invariant over all reachable machine states | All interleavings of individual loads/stores of the element-wise kernels and of the rows of the dense matrix-vector kernel; the reduction loops are C05/C07, the sparse kernel is C55, the matrix-matrix kernel has no parallel loop. |
| C03 | A size mismatch is reported as SizeMismatched and changes nothing | proved | `__check_size` and the throwing wrappers | case analysis; `Throw` carries the heap, which is shown equal to the initial one |  |
| C04 | neg, axpy and the free dot function report a length mismatch by exception | partial | the `noexcept` wrappers, exception -> `Terminate` | all mismatching sizes terminate (proved); the claim refuted by witness | False as stated: these overloads are noexcept, every mismatch calls std::terminate. The actual behaviour is proved for all inputs. |
| C05 | dot is the inner product, whatever the reduction order | proved | `core::dot` and wrappers | exact summation order for any `Ops`; any reduction tree/permutation in a ring; bilinearity by induction |  |
| C06 | dot of two empty vectors is zero | partial | `dot` reading element 0 first | every overload on empty input is `UB` | False as stated: every dot overload reads element 0 of an empty buffer (undefined behaviour). |
| C07 | norm2 is the Euclidean norm | proved | `core::norm2`, std::sqrt = `sqrt` of Reals | norm laws by Cauchy-Schwarz, proved from scratch in RealVec | Exact real arithmetic. |
| C08 | cross products: formula, orthogonality, in-place use | proved | cross kernels, 2-d and 3-d | direct computation, any ring, all aliasings |  |
| C09 | add/sub never touch memory outside the destination vector | partial | `add`/`sub` with the unchecked destination | outcome (ok or `UB`) for every triple of lengths; refutation | False as stated: the destination size is never checked. Exact outcome proved for every triple of lengths. |
| C10 | Dividing a vector by a scalar divides every entry | partial | `operator/` = scale by reciprocal | field; binary64 witness | Exact in every field; refuted for binary64 (the code multiplies by the reciprocal). |
| C11 | Dense matrix element access reads and writes exactly one element | proved | row-major `offset = i*m+j`, accessors | Euclidean division; sequences of writes by induction |  |
| C12 | Constructors accept exactly the data whose length fits the shape | partial | constructors of dense vectors and matrices | case analysis; dynamic constructor refuted | False for the dynamic matrix: its constructors accept any length. Static part proved as stated; what the dynamic constructor really gives is proved for every length. |
| C13 | filled / uninit / diag / identity build the matrices and vectors they name | proved | filled/uninit/diag/identity | list lemmas |  |
| C14 | Matrix-vector product computes alpha*A*x + beta*y, including y = A*y in place | proved | `core::mul` matrix-vector kernel with alias temporary, wrappers, `operator*` | nested loop invariant, exact order for any `Ops`, ring form | Order-exact for any scalar type; alpha*A*x+beta*y in every commutative ring. |
| C15 | Matrix-matrix product computes alpha*A*B + beta*C, including in-place use | proved | `core::mul` matrix-matrix kernel with alias temporaries, wrappers, `operator*` | triple loop invariant, exact order for any `Ops`, ring form | Order-exact for any scalar type; algebraic form in every commutative ring; all aliasings. |
| C16 | The matrix product is associative, distributive and compatible with the vector product | proved | operators on top of C14/C15 | finite sum algebra |  |
| C17 | Matrix add/sub/scale/negate are entry-wise and alias-safe | proved | entry-wise matrix kernels and operators | reduction to the vector kernels |  |
| C18 | With the BLAS backend, products have the same meaning as without it | partial | the calls to cblas gemv/gemm with their lda/ldb/ldc (ModelBlas) | for every routine meeting SpecBlas; refuted where wrong | False as stated. cblas_?gemv / cblas_?gemm are taken as any routines meeting a written contract (SpecBlas.v; a reference routine meeting it is given). Proved for every such routine: agreement for non-aliased gemv, for in-place gemv only with beta = 0, for gemm with square result; gemm is called with ldc = n, so a wide result is rejected (nothing stored) and a tall one is written outside its buffer. |
| C19 | 2x2 inversion returns the two-sided inverse | proved | `inverse` of 2x2 | `field` | Every field. |
| C20 | Tridiagonal matrix reads give the band and zero outside it | partial | tridiagonal accessors, with the `j-1` wrap at 0; a reference to a dead temporary is `UB` | case analysis | False for reads of a const matrix outside the band: a reference to a destroyed temporary is returned, every such read is undefined. All other clauses proved. |
| C21 | Packed Hessenberg matrices behave as n x n matrices with zero below the sub-diagonal | proved | packed Hessenberg accessor and size check incl. double sqrt on the length | triangular-number arithmetic; double sqrt exact below 2^53 (FloatSqrt, Flocq) | Sizes with 8n+17 <= 2^53 (beyond that the size check goes through an inexact double). |
| C22 | Growing a Hessenberg matrix keeps the old columns | proved | Hessenberg `extend_*` | list lemmas on packed columns | The meaning of the n+2 given entries depends on how the matrix was built; both cases are stated. |
| C23 | Packed upper triangular matrices behave as n x n upper triangular matrices | proved | packed upper triangular accessor, size check, extend | as C21/C22 | A rejected length calls std::terminate because the constructor is noexcept. |
| C24 | back_sub solves the upper triangular system | proved | `back_sub` | downward loop invariant, any field | Every field. |
| C25 | Lower triangular matrices read as zero above the diagonal | partial | packed lower triangular accessor | actual reads proved; refuted | False as stated: positions above the diagonal are mirrored. Actual behaviour proved for all inputs. |
| C26 | Hermite (real symmetric) matrices are symmetric under reads and writes | proved | Hermite accessor and conversion | packed index symmetry |  |
| C27 | COO construction keeps exactly the given entries, in row-major order | proved | COO constructor; sort = any routine meeting `sort_contract` | permutation and sortedness | For every sort routine satisfying the contract of std::ranges::sort (permutation without inversions, for every weak order). A position given several times reads one of its values. Fewer than 2^32 entries; with more the constructor does not return (C27_too_many). |
| C28 | COO/CSR element writes touch exactly the addressed stored element | proved | COO/CSR element access | lookup over sorted index lists | CSR: rows below the row count (beyond it the row pointer array is read out of range). |
| C29 | COO to CSR conversion preserves every element | proved | COO -> CSR constructor loop | loop invariant over row pointers, duplicates allowed | Any non-empty COO matrix, duplicates included. |
| C30 | Sparse unit matrices are the identity | proved | sparse `unit` | list induction |  |
| C31 | COO += adds element-wise | partial | COO `+=` merge loop with its iterators | loop invariant under `addable`; refuted otherwise | False as stated: when A has no entry in a row of B, the merge compares with the first entry of the next row of A (wrong position) or reads past the end. Proved for every pair of matrices outside that case (addable), and for A += A without restriction. |
| C32 | Sparse matrix-vector product agrees with element reads | partial | CSR row kernel and wrappers | row-by-row sums | Proved when y is not x and no position is stored twice (general form with duplicates summed); false in place and with duplicates, with witnesses. |
| C33 | Sparse scaling and negation are entry-wise | proved | sparse scale/neg | map lemmas |  |
| C34 | Shape and nnz of sparse matrices | partial | `shape`, `nnz` | case analysis | Proved for every non-empty matrix; false for the empty one, where shape() dereferences an end iterator. |
| C35 | Copies are independent values | proved | copy constructors/assignments | heap freshness | Any scalar type; copies own fresh storage, so later writes through either object leave the other unchanged. |
| C36 | The tridiagonal solver solves the system | proved | `tdma` vector solve (`tri_diag.hpp`) | LU recurrences; leading minors; dominance and definiteness imply the hypothesis | Any field; the hypothesis is that every leading block is non-singular, shown equivalent to non-zero pivots; strict diagonal dominance and positive definiteness imply it. Orders up to 2^31. In place and out of place are both covered (no hypothesis that rslt and b differ). |
| C37 | The tridiagonal solver handles several right-hand sides column by column | proved | `tdma` on matrices | column-wise reduction to C36; bitwise by the swept relation | C37_columns_bitwise: bit for bit in any arithmetic. |
| C38 | The tridiagonal solver handles order-1 systems | partial | `tdma` at n = 1 | `UB` by computation on every input | False as stated: every order-1 solve is undefined behaviour (reads du[0] and dl[-1] of empty bands). |
| C39 | A successful Cholesky factorisation is a factorisation | proved | Cholesky kernels over packed and square index functions | nested loop invariant; L L^T = A | Over R, success with positive diagonal; lower-only and packed = square hold bit for bit for every scalar type. |
| C40 | Cholesky succeeds on every positive definite matrix | proved | same + constructor | definiteness of Schur complements, by induction | Exact real arithmetic. |
| C41 | Cholesky rejects every matrix that is not positive definite | partial | constructor return-code test | characterisation; refuted at pivot 0 | False as stated: a failure at pivot 0 is reported with code 0, which the constructor takes for success, so every matrix with A(0,0) <= 0 is accepted with its entries unchanged. Proved whenever A(0,0) > 0. |
| C42 | Solving with the Cholesky factor solves the original system | proved | triangular solves, four overloads | forward/backward loop invariants | Orders below 2^31 (the backward sweep counts in int32). |
| C43 | The modified Cholesky factorisation factors and solves without square roots | proved | modified Cholesky (L D L^T) factor and solves | same; success iff leading blocks nonsingular | Any field; success is characterised exactly by all leading blocks being non-singular. |
| C44 | ILU(0) reproduces the matrix on its sparsity pattern | proved | ILU(0), dense and CSR constructors | IKJ elimination invariant; bit-exact recurrences, then (LU)_ij = a_ij on the pattern | Any field, dense and compressed-row matrices, every order below 2^32; the recurrences hold bit for bit for every scalar type (ilu_dyn_outcome, ilu_csr_outcome). |
| C45 | Applying the ILU(0) preconditioner solves L U x = b | proved | ILU(0) application | forward/backward loop invariants | Any field; every pivot nonzero (for an exact factorisation: A nonsingular). The exact case covers every pattern closed under elimination, e.g. full and tridiagonal. |
| C46 | ILU(0) construction throws exactly on singular matrices | partial | ILU(0) singularity test | exact throw condition; refuted both ways | False as stated in both directions: [[0,1],[1,0]] is rejected, [[1,1],[1,1]] is accepted. Proved: the exact condition under which it throws; for matrices without zero entries that is exactly a singular proper leading block; an accepted matrix (no fill-in dropped) is nonsingular iff no pivot is zero. |
| C47 | GMRES: the reported stopping residual is the true preconditioned residual | proved | GMRES: Arnoldi, Givens, back substitution, update | Arnoldi and Givens invariants; least-squares optimality over R | Over R, for nonsingular A, nonzero pivots of the ILU(0) factor, b <> 0 and tol > 0: after every step the magnitude of the last element of beta is the least preconditioned residual norm over the Krylov space of that dimension (attained), and the returned x satisfies \|\|P(b - A x)\|\| < tol and is that minimiser. Dense and compressed-row storage. |
| C48 | GMRES reaches the tolerance within n iterations | proved | GMRES main loop | Krylov dimension argument; happy breakdown | Over R: with nonsingular A and nonsingular preconditioner the solver returns, within n iterations, an x meeting the test (an iterate of a Krylov space of dimension at most n); no hypothesis on the preconditioner is needed when ILU(0) drops no fill-in. |
| C49 | GMRES returns zero for a zero right-hand side | partial | GMRES with b = 0 | binary64: the set {+0,-0,NaN} is closed under the preconditioner, and 1/z times z is NaN (FloatAxioms) | False as stated: with b = 0 the code divides by the norm of the zero vector. Proved: in binary64, for every accepted matrix, order and tolerance, every entry of the result is NaN (C49_always_nan_*). |
| C50 | Gram-Schmidt orthogonalises in place and keeps every prefix span | proved | classical Gram-Schmidt `cgs` | orthogonality and spans by induction | Exact real arithmetic for orthogonality and spans; the recurrence itself holds bit for bit for every scalar type. Also proved: the empty list is undefined behaviour, and a second vector of another size asserts (debug) or terminates (release). |
| C51 | Every operation terminates for every size that fits in memory | partial | all loops with a 32-bit counter | modular arithmetic: the wrapping counter terminates iff the bound fits | False as stated: loops count in u32 and never reach a bound of 2^32 or more. Proved: termination whenever all sizes are below 2^32, and non-termination at and beyond it. |
| C52 | Triangular solvers visit all rows for every size | partial | int32 downward loops | conversion arithmetic | False as stated: the int32 backward loops visit no row for 2^31 < n <= 2^32. Proved: rows n-1..0 are visited exactly when n <= 2^31. |
| C53 | Solutions are unique, so repeated solves agree | partial | all solvers, both backends | bit-exact repetition; refuted for gtsv, which overwrites the bands | False as stated: with the LAPACK backend the tridiagonal solver overwrites the matrix it keeps, and a second solve gives another answer for every routine meeting the contract (witness of order 3). Proved: all other solvers repeat bit for bit, any number of times and whatever else happened in between; on symmetric positive definite tridiagonal systems seven solvers agree. |
| C54 | The column view of a Hessenberg matrix shows exactly that column | proved | `get_col` view of Hessenberg | packed index |  |
| C55 | The sparse matrix-vector row loop gives the same result under every thread/SIMD schedule | partial | CSR row loop split into loads and stores | schedule machine; refuted in place | Proved when the vectors are distinct; with y = x two iterations race on y. |
| C56 | Vectors hold the elements they are given and element access is exact | proved | vector construction, access, moves | any element type | Any element type; allocation is assumed to succeed. |
| C57 | No hidden state: a call's outcome depends only on its arguments | proved | every modelled operation | simulation relation between two heaps that agree on the arguments (Sim, SimOps) | One theorem per operation, for every scalar type, both with and without assertions. Argument memories must not hold data outside live objects (clean). |
| C58 | Nothing but the destination of an operation changes, and results are new objects | proved | every modelled operation | frame logic: each operation only writes its destination (Frame, FrameOps) | One theorem per operation, for every scalar type and every memory, without preconditions (calls that end in undefined behaviour, an abort or non-termination have no final state). Assignment, which may change sizes, is stated separately. |
| C59 | The LAPACK build solves the same systems and rejects what is not positive definite | proved | LAPACK-backed solvers (ModelLapack) | for every routine meeting SpecLapack | LAPACKE_?gtsv, ?potrf, ?potrs are any routines meeting the contracts of SpecLapack.v (exact real arithmetic); ProofLapack.v gives routines meeting them. C59_builds_differ_refuted shows that the built-in constructor accepts a matrix the LAPACK build rejects. |
| C60 | Inner products are accurate in rounded arithmetic, in every summation order | proved | as C05 | induction over the summation tree | Any u < 1. In the standard model of rounded arithmetic (Approx O u, SpecRound.v: each operation is exact up to relative error u; no overflow or underflow), met by 53-bit round-to-nearest with unbounded exponent (flx_approx) and by exact arithmetic. |
| C61 | Norms are accurate to high relative accuracy in rounded arithmetic | proved | as C07 | same, plus the square root | Any u < 1. In the standard model of rounded arithmetic (Approx O u, SpecRound.v: each operation is exact up to relative error u; no overflow or underflow), met by 53-bit round-to-nearest with unbounded exponent (flx_approx) and by exact arithmetic. |
| C62 | Matrix products are accurate entry by entry in rounded arithmetic | proved | as C14, C15 | bit-exact formula + C60 | Built-in kernels. In the standard model of rounded arithmetic (Approx O u, SpecRound.v: each operation is exact up to relative error u; no overflow or underflow), met by 53-bit round-to-nearest with unbounded exponent (flx_approx) and by exact arithmetic. |
| C63 | Back substitution is backward stable | proved | as C24 | perturbation of each row, collected into a matrix | n below the counter limits. In the standard model of rounded arithmetic (Approx O u, SpecRound.v: each operation is exact up to relative error u; no overflow or underflow), met by 53-bit round-to-nearest with unbounded exponent (flx_approx) and by exact arithmetic. |
| C64 | Cholesky factorisation and solve are backward stable, without growth | proved | as C39, C42 | row formulae; Cauchy-Schwarz for the growth bound | Positive diagonal is a hypothesis because the constructor also returns on a non-positive first pivot (see C40). In the standard model of rounded arithmetic (Approx O u, SpecRound.v: each operation is exact up to relative error u; no overflow or underflow), met by 53-bit round-to-nearest with unbounded exponent (flx_approx) and by exact arithmetic. |
| C65 | The modified Cholesky factorisation and solve are backward stable relative to their factors | proved | as C43 | as C64 | Backward error relative to the computed factors; no bound on their growth exists for indefinite matrices. In the standard model of rounded arithmetic (Approx O u, SpecRound.v: each operation is exact up to relative error u; no overflow or underflow), met by 53-bit round-to-nearest with unbounded exponent (flx_approx) and by exact arithmetic. |
| C66 | ILU(0) reproduces the matrix on its pattern up to rounding, and its solves are backward stable | proved | as C44, C45 | bit-exact recurrences + C60 | Solve needs non-zero diagonal of the factor. In the standard model of rounded arithmetic (Approx O u, SpecRound.v: each operation is exact up to relative error u; no overflow or underflow), met by 53-bit round-to-nearest with unbounded exponent (flx_approx) and by exact arithmetic. |
| C67 | The tridiagonal solver on a diagonally dominant matrix is stable whatever the order | proved | as C36 | pivots bounded below by dominance | Built-in solver, vector and matrix right-hand sides. In the standard model of rounded arithmetic (Approx O u, SpecRound.v: each operation is exact up to relative error u; no overflow or underflow), met by 53-bit round-to-nearest with unbounded exponent (flx_approx) and by exact arithmetic. |
| C68 | Sparse matrix-vector products are accurate row by row in rounded arithmetic | proved | as C32 | bit-exact formula + C60 | No position stored twice, x and y different. In the standard model of rounded arithmetic (Approx O u, SpecRound.v: each operation is exact up to relative error u; no overflow or underflow), met by 53-bit round-to-nearest with unbounded exponent (flx_approx) and by exact arithmetic. |
| C69 | Element-wise operations, quotients and cross products commit one or two roundings | proved | as C01, C08, C10 | one or two roundings per entry | Dynamic vectors. In the standard model of rounded arithmetic (Approx O u, SpecRound.v: each operation is exact up to relative error u; no overflow or underflow), met by 53-bit round-to-nearest with unbounded exponent (flx_approx) and by exact arithmetic. |
| C70 | Cholesky factorisation of a sufficiently definite matrix always succeeds in rounded arithmetic | proved | as C39 | Demmel: a breakdown at column k contradicts the margin, by induction on k | The margin is that of Demmel / Higham, Theorem 10.7, with gamma(n+1). In the standard model of rounded arithmetic (Approx O u, SpecRound.v: each operation is exact up to relative error u; no overflow or underflow), met by 53-bit round-to-nearest with unbounded exponent (flx_approx) and by exact arithmetic. |
| C71 | Compressed-row matrices can only be built from consistent arrays, and read what was put in | partial | `SpMat` constructor from three arrays | first match in the row; refuted on unchecked row pointers | False as stated: only the lengths of the value and column arrays are compared, row pointers are not looked at (C71_accepts_refuted). Proved: construction throws exactly when those two lengths differ; for consistent row pointers elements and shape read as stated. |
| C72 | Vector operations mean the same with and without BLAS | partial | BLAS variants of the level-1 kernels and every wrapper (ModelBlasVec) | equality of outcome and memory for every routine meeting SpecBlasVec; refuted at 2^31 elements | False for 2^31 elements or more: the count wraps to a negative int and the operation silently does nothing (C72_too_long, C72_any_length_refuted), and for the dot product of empty vectors (C72_dot_empty). Proved equal, outcome and memory, for all other lengths; axpy for x other than y, since BLAS forbids overlap. |
| C73 | Gram-Schmidt and GMRES mean the same with and without BLAS | proved | `cgs`, GMRES over the BLAS kernels (ModelBlasVec) | step-by-step equality of the two runs (relation `same`), then C48 | For any CBLAS meeting gemv_contract and vblas_contract (SpecBlas.v, SpecBlasVec.v), in any commutative ring; the consequences over the reals use C48. |
| C74 | Incomplete factorisation and GMRES never fail on generalised diagonally dominant matrices | proved | `Ilu`, `Gmres` as in C44-C48 | row elimination keeps weighted dominance (induction over the row), so no pivot vanishes; then C46, C48 | Exact arithmetic. laplace_dominant: the one-dimensional Laplacian of every order is such a matrix although it is not strictly dominant. |
| C75 | GMRES always returns a vector, whatever the arithmetic does | proved | `Gmres` dense and compressed rows, any `Ops` | the run lemmas of C47/C48 hold for any arithmetic; the preconditioner as an explicit function (PropGmresAny) | No algebraic law is used, so the statement covers binary64. For compressed rows 0 == 0 must hold (it does in binary64) and the largest stored column is n-1. |
| C76 | Dot products and norms in IEEE arithmetic: a finite result is accurate, and it is finite unless it is too large | proved | as C05, C07, over an arithmetic meeting `Ieee` | induction over the sum: error terms of relative size u, absolute eta; finiteness by bounding every partial sum | Sequential summation order of the built-in kernels. Any arithmetic meeting Ieee (SpecIeee.v); float_ieee and b32_ieee prove it for binary64 and binary32. Example in binary64 beside (PropIeee64.v). |
| C77 | Matrix products in IEEE arithmetic: finite entries are accurate, entries are finite unless too large | proved | as C14, C15, C32 | bit-exact formulae, then C76 | Dynamic matrices; compressed rows without repeated positions, x and y different. Any arithmetic meeting Ieee (SpecIeee.v); float_ieee and b32_ieee prove it for binary64 and binary32. Example in binary64 beside (PropIeee64.v). |
| C78 | Element-wise operations in IEEE arithmetic commit one or two roundings and lose no NaN | proved | as C01, C08, C10 | one or two roundings per entry | Dynamic vectors. Any arithmetic meeting Ieee (SpecIeee.v); float_ieee and b32_ieee prove it for binary64 and binary32. Example in binary64 beside (PropIeee64.v). |
| C79 | Back substitution in IEEE arithmetic: a finite result is a backward stable solution | proved | as C24 | perturbed rows plus a residual of underflow errors | An infinite diagonal entry gives a quotient zero, hence the hypothesis that the diagonal is finite. Any arithmetic meeting Ieee (SpecIeee.v); float_ieee and b32_ieee prove it for binary64 and binary32. Example in binary64 beside (PropIeee64.v). |
| C80 | Cholesky in IEEE arithmetic: finite results are backward stable | proved | as C39, C42 | finiteness of the diagonal spreads to the whole factor; rows as in C64 with residuals | The constructor may return a factor with NaN or a non-positive first pivot (C41, C82), hence the hypothesis on the diagonal. Any arithmetic meeting Ieee (SpecIeee.v); float_ieee and b32_ieee prove it for binary64 and binary32. Example in binary64 beside (PropIeee64.v). |
| C81 | ILU(0) in IEEE arithmetic: finite results are backward stable | proved | as C44, C45 | as C80 | Any arithmetic meeting Ieee (SpecIeee.v); float_ieee and b32_ieee prove it for binary64 and binary32. Example in binary64 beside (PropIeee64.v). |
| C82 | Finite data whose exact answer is an ordinary number give that answer | partial | primitive binary64 floats | witnesses by `vm_compute`, their exact values by Flocq | False as stated: norm2 of (2^600) is infinite and of (2^-600) zero; v/alpha overflows for subnormal alpha; GMRES on the identity and a tiny right-hand side returns NaN; the tridiagonal solver returns finite garbage after an infinite pivot; Cholesky accepts a NaN pivot. What holds is C76-C81. |
| C83 | The tridiagonal solver in IEEE arithmetic: dominant systems give finite, backward stable results | proved | as C36 | pivots bounded below by the margin, quotients by one, then rows with residuals | Any arithmetic meeting Ieee (SpecIeee.v); float_ieee and b32_ieee prove it for binary64 and binary32. Example in binary64 beside (PropIeee64.v). |
| C84 | The square-root-free Cholesky factorisation in IEEE arithmetic: finite results are backward stable | proved | as C43 | as C80; the quotients of the multipliers add one rounding and one underflow | Any arithmetic meeting Ieee (SpecIeee.v); float_ieee and b32_ieee prove it for binary64 and binary32. Example in binary64 beside (PropIeee64.v). |
| C85 | Iterating over a vector or matrix visits every element once, in order | proved | ModelRange: iterators as buffer and offset, range-for as a fuelled while loop | the loop equals the indexed loop (induction over the remaining elements), then induction over the contents | Iterator invalidation by assigning to a vector inside the loop is excluded by the hypothesis that the body keeps the length. |
| C86 | Building with LALIB_USE_ACCELERATOR does not change the results of + and - | partial | ModelAccel: addition and subtraction with LALIB_USE_ACCELERATOR, host and device memory, `omp target` without map | step-by-step agreement for shared memory and small sizes; witnesses otherwise | False as stated: the kernels have no map clause, so on a device with its own memory operands of 16 or more elements are undefined unless mapped by the program, operators always are (their result is new), and with everything mapped the host sees no result. It holds for devices that share the host memory and below 16 elements. |
| C87 | In IEEE arithmetic the Cholesky factorisation of a sufficiently definite matrix succeeds | proved | as C80 | a row that reproduces the matrix up to rounding is shorter than the diagonal entry (quadratic form argument on the leading block); this bounds every partial sum and quotient, hence finiteness, and forces the pivot to be positive; induction over rows | Any arithmetic meeting Ieee (SpecIeee.v); float_ieee and b32_ieee prove it for binary64 and binary32. Example in binary64 beside (PropIeee64.v). |
| C88 | Contraction into fused multiply-adds keeps the rounding guarantees | proved | the functions run on expressions (SpecFma: terms, contraction, Fused); fused multiply-add of any Flocq format and of binary64 (RoundFma) | every contraction meets the class `Ieee` (a product absorbed by a sum costs at most what rounding it would); then C76, C77, C78, C80, C83, C87; witnesses for the identities that fail | C88_laws makes all of C76-C81, C83, C84 and C87 apply to every contraction; their hypotheses that inputs are settled hold for leaves and, without contraction, always (plain_settled). The library is run on expressions, rho evaluates them (SpecFma.v says what is not covered). |
| C89 | The library treats every element type the same way | proved | every function of ModelVec, ModelMat, ModelPacked, ModelSparse, ModelSolvers, ModelIter; SpecParam: related element types, memories and outcomes | logical relation: one lemma per function (ProofParam), loops by induction, then the graph of a map and pairs (T * W) as relations | The model functions are polymorphic in the scalar operations, as the templates are, so this is what uniformity of the templates gives; the explicit specialisations of the code (BLAS kernels) are not included. |
| C90 | Integer data are computed exactly, in any order of summation | proved | the functions of C05, C06, C01, C08, C14, C15, C17, C32, C37, C40, C42 for an element type that holds the integers up to B exactly (SpecWhole); instances: Flocq formats, binary64, signed integers with overflow, contracted expressions (RoundWhole) | induction over the partial sums, each bounded by the sum of absolute values (ProofWhole); Cholesky and substitution: the recurrences have the integer factor as their only solution | The results stand for the integer (+0 and -0 both stand for 0). C90_bound_refuted: past the bound the order of summation matters. |
| C91 | Calls that do not write to each other's arguments may be made in any order | proved | every modelled operation on objects in memory | from C57 (outcome determined by the arguments) and C58 (only the destination changes): each call behaves as it would alone, so the memory left by a batch is described without reference to the order | The general theorems plus, per operation, the proof that it is such a call with the objects given and those written to. Calls are made one after the other: interleaving of the steps of two calls is not modelled. |
| C92 | The units of the data do not matter | proved | the functions named in the statement, without BLAS; SpecUnits: data related by units, classes of laws; RoundUnits: R, rounding to a fixed number of digits in any base, binary64 with a flag that records overflow and underflow | the laws say that operators keep units (rounding commutes with powers of the base); per function an induction over its loop (ProofUnits); GMRES: the run is described by recurrences (ProofGmresRun) in which every quantity has a unit and every test compares equal units; the flags do not change the numbers (C89) | Generic theorems over the class Units, instances C92_real, C92_digits and C92_binary64 (C92_dot_binary64 and C92_cholesky_binary64 spell out what the last one gives). The _refuted theorems are the counterexamples the statement mentions. |
| C93 | Computed solutions have small residuals, and errors bounded by the conditioning of the system | proved | the solvers of C79 - C84 and C87; SpecAccuracy: what a small residual and error mean | backward stability bounds the residual; the error is the inverse applied to the residual, or bounded through the row of its largest entry (dominance) or Cauchy-Schwarz (definiteness); C93_nonvacuous: a binary64 system solved within 2^-47 | Any arithmetic meeting Ieee (SpecIeee.v); float_ieee and b32_ieee prove it for binary64 and binary32. Example in binary64 beside (PropIeee64.v). C88_laws makes it hold for every contraction. |
| C94 | Vectors and matrices of complex numbers follow complex arithmetic, and LAPACK Cholesky solves Hermitian systems | proved | ModelComplex: std::complex as an element type of the same model functions; ModelLapack; SpecComplex: Hermitian, positive definite, the contracts of the complex LAPACK routines | the field laws by components, then the generic theorems of C01, C14, C15, C17; the LAPACK theorems from the contracts; that the contracts can be met by an explicit Cholesky factorisation whose pivots are positive for a positive definite matrix | Exact complex arithmetic. The LAPACK theorems hold for every routine that meets cpotrf_contract/cpotrs_contract (SpecComplex.v); ProofComplexLapack.v gives routines that do. |
| C95 | For complex elements norm2 is the Euclidean norm and a Hermite matrix is Hermitian | partial | the same functions; Euclidean norm and Hermitian as in SpecComplex | the principal root squared; the real part of the sum of squares against the sum of squared moduli; witnesses | False as stated: conjugation is missing. norm2 of (1, i) is 0 and a Hermite matrix with an element i is not Hermitian. Proved: norm2 is a root of the sum of squares, and the Euclidean norm exactly for vectors of real numbers; a Hermite matrix is symmetric, and Hermitian exactly when its elements are real. |
| C96 | Changing signs of the data changes signs of the results and nothing else | proved | the functions named in the statement, without BLAS; SpecSigns: data that differ in signs, the laws of an arithmetic symmetric about zero; RoundSigns: all binary formats of Flocq and the primitive binary64 | the laws from round_NE_opp and the specification of the operators of Flocq, case by case for zeros, infinities and NaNs; the inductions of C92 with the parity of the units; pivots and norms are sums of squares and therefore equal; a finite result is traced back to nonzero divisors (ProofSigns) | For any arithmetic with the laws Signs (SpecSigns.v); every binary IEEE format has them, rounding to nearest even, each operation rounded (no contraction). C96_units gives the other theorems of C92 that need no root. C96_singular_refuted: the limit named in the statement. |
| C97 | GMRES takes no more steps than the quality of the preconditioner requires | proved | the same functions as C47/C48; shrinks, rows_differ: the quality of the preconditioner, stated with systems M z = A v | the minimality of C48 against explicit members of the Krylov space: Richardson iterates with residual (I - w PA)^k Pb; for r rows, r + 1 differences of Krylov vectors lie in an r-dimensional space and are dependent (Gram-Schmidt), so that a polynomial in PA annihilates Pb | Exact arithmetic. A step is one dimension of the Krylov space the result is taken from (reached_in); the _stops theorems say the same about the loop: its stopping test has succeeded. |
| C98 | ILU and GMRES accept every matrix that is dominant by a margin, also in rounded arithmetic | proved | the same functions as C46, run with rounded operators (Approx) | row by row: the weighted sum of a row in elimination, reading the entries as they stand, loses at most two roundings per column against the diagonal (ProofIluRound.v: row_step, row_gap, row_sizes), so that the diagonal keeps its dominance and no pivot vanishes; within_trans adds the errors of factor and solve; the forward bound takes the row where the weighted error is largest | C98_margin_needed: a dominant matrix of binary64 numbers that the constructor rejects. In the standard model of rounded arithmetic (Approx O u, SpecRound.v: each operation is exact up to relative error u; no overflow or underflow), met by 53-bit round-to-nearest with unbounded exponent (flx_approx) and by exact arithmetic. |
| C99 | Gram-Schmidt in rounded arithmetic: orthogonal as far as the vectors are independent | proved | cgs as in C50, run with rounded operators (Approx) | the recurrence of C50 for any operators; backward form of one step (gacc_back) and of a coefficient (gcoef_ok); induction over the vectors for the cosines (orthogonal) and for the distance to the span (no_breakdown) | C99_lauchli: the limit named in the statement, run in binary64. In the standard model of rounded arithmetic (Approx O u, SpecRound.v: each operation is exact up to relative error u; no overflow or underflow), met by 53-bit round-to-nearest with unbounded exponent (flx_approx) and by exact arithmetic. |
| C100 | In rounded arithmetic the estimate by which GMRES stops bounds the preconditioned residual | proved | Gmres::solve as in C47, run with rounded operators (Approx) | the run record of C92 for any operators (gm_run); forward error of the rotations applied to a column (rho_err, tau_err) and of the subdiagonal they remove (below); a rounded rotation loses at most 6 roundings of a vector (rotations_keep), so the residual of the small system is bounded by the estimate (zres_norm); Arnoldi as a backward statement about each v_j (lost_norm); the two together (dres_norm) give rhs_norm and, where a rotation is undefined, stuck_dependent | The second outcome is part of the statement: it is not excluded for ill-conditioned systems of more than one equation. In the standard model of rounded arithmetic (Approx O u, SpecRound.v: each operation is exact up to relative error u; no overflow or underflow), met by 53-bit round-to-nearest with unbounded exponent (flx_approx) and by exact arithmetic. |
| C101 | Parts of a result depend only on the parts of the data that determine them | proved | the functions named in the statement, without BLAS | the recurrences of C39, C42, C43, C46, C50, C24, C14, C15, C32 for any operators; the entries of the block satisfy the same recurrence, which has one solution; a failed pivot of the block is one of the matrix | Bit-exact, any element type; C101_matmat compares with the matrix-vector product and needs a commutative multiplication. |
| C102 | Factors and orthogonal bases are the canonical ones | proved | the same functions | the given factors satisfy the recurrence (the root of a square is the positive one), which has one solution; the failing outcome contradicts it; for cgs: two orthogonal families with the same spans are equal by induction | Exact arithmetic: real numbers where a root or an order is involved, any field otherwise. |
| C103 | The order in which the entries of a sparse matrix are listed does not matter | proved | CooMat construction and addition | the contract of std::sort gives a permutation in order; a strictly ascending list is determined by its elements; then the arrays from the triples | C103_repeated_refuted is the limit named in brackets at the end of the statement. C103_plus_commutes has the premises under which the addition does not read out of bounds (C31). |
| C104 | Signs and order survive rounding: nonnegative data give nonnegative results, larger data no smaller ones | proved | the functions named in the statement, without BLAS; SpecMono: an arithmetic whose operators round by a monotone function; RoundMono: exact numbers, all binary formats of Flocq, the primitive binary64 | the bit-exact recurrences of C14, C15, C05, C32, C24, C38, C39, C46 with the invariant that partial sums, multipliers and unknowns keep their sign and order; a quotient of the tridiagonal sweep stays in [-1, 0] because the pivot is not smaller than what the row sum leaves; the root of a rounded square by the half-ulp bounds on both sides (root_exact_pos); tridiagonal ILU: induction over the rows, multipliers in [-1, 0], pivots not smaller than the magnitude of the entry below (tri_rows) | For every arithmetic with the laws Monotone (SpecMono.v): exact numbers, every binary IEEE format, rounding to nearest even, each operation rounded (no contraction); underflow is included. Only finite results are compared. C104_norm2_small_refuted: the limit named in the statement. |
| C105 | Matrices with larger entries have smaller solutions, and are accepted whenever the original is, in rounded arithmetic | proved | the same solvers as C104; SpecComp: an operation is finite if its rounded result is in a range closed under smaller magnitudes; RoundComp: exact numbers, all binary formats of Flocq, the primitive binary64 | the two recurrences run side by side: every partial sum, quotient and unknown of the second lies between zero (or the entry it starts from) and that of the first, so it is finite and ordered (ssub_up, ssub_down, div_neg, mul_nn and so on); a pivot of the second is not smaller, so it cannot be the one a constructor stops at | For every arithmetic with the laws Ranged (SpecComp.v): exact numbers and every binary IEEE format, rounding to nearest even, each operation rounded (no contraction); underflow and overflow are included. |
| C106 | A default-constructed object is an empty one | partial | the four public default constructors and reserve (ModelDefault.v); an uninitialised size is a missing value whose use is undefined | evaluation of the model functions on the empty object for every argument; for += the rows before the first entry of the right-hand side are passed by induction | False as stated. DynVec: holds. SpCooMat: nnz, reads, mut_at, scaling, assignment hold; shape() and any sum with the empty matrix on either side are undefined. SpMat: only nnz, scaling and assignment are defined. DynUpperTriMat: holds for T x{}; for T x; the size is an uninitialised size_t and every use of it is undefined. |
| C107 | Stored dense or sparse, a matrix gives the same results to the last bit | proved | the dense and sparse products, the two instantiations of Ilu and of Gmres; SpecStorage: an arithmetic in which a term zero times finite can be left out of a sum; RoundStorage: any ring, all binary formats of Flocq, the primitive binary64 | a dense row is a fold over all columns, a sparse row over the stored ones; the columns between two stored ones are skipped (row_as_dense), a running sum never being a negative zero (plus_pos_zero, from Bplus_correct and round_plus_neq_0); equality of bits is a relation of the kind of C92, so the factorisations agree by the lemmas of C92; a GMRES run whose basis vectors are finite is also a run of the other operator (other_operator), and two runs of one operator are the same | For every arithmetic with the laws Skips (SpecStorage.v): any ring, every binary IEEE format rounding to nearest even, each operation rounded (no contraction, no BLAS). C107_infinite_refuted: with an infinite element in x the dense product is NaN where the sparse one is finite, so the finiteness named in the statement is needed. |
| C108 | The ILU preconditioner does not depend on the class that holds the matrix | partial | the other instantiations of Ilu (ModelIluOther.v): reads of a non-const matrix choose the non-const operator(), which throws outside the stored part | coordinate storage: the general lemma of C44-C46 with the first entry found as view, then uniqueness of the factors and of the solve; partial storage: an invariant over the loops for any matrix type that refuses some positions (ilu_new_refuses): the constructor returns only if every position of the square can be read; symmetric storage: the run on a 2x2 matrix with arbitrary entries | False as stated. SpCooMat (and SpMat, C107): holds, bit-exact, for matrices with entries; without entries shape() is undefined (C108_coo_empty). Tri-diagonal classes: hold up to order 2 (C108_tridiagonal_small, against the dense matrix); from order 3 the constructor always throws std::invalid_argument (std::out_of_range for the sized class), whatever the elements. HessenbergMat from order 3 and DynUpperTriMat from order 2: always throw; below that they hold (C108_hessenberg_small, C108_upper_small). Lower triangular classes behave as the Hermitian ones with the same elements at every order (C108_lower_as_symmetric). There a diagonal matrix is factorised as the dense one (C108_symmetric_diagonal), but the two mirrored positions share storage and the factors of a full matrix of order 2 are wrong (C108_symmetric, any element type); C108_symmetric_refuted: the solution is wrong. Not stated: the factors of non-diagonal symmetric storage beyond order 2. |

## 4. Axioms, theorem by theorem

Output of `Print Assumptions` for all 1089 theorems named in the manifest (script run on the compiled files):

* **Closed under the global context** (830 theorems):
  every theorem of the manifest not named below.
* **`FunctionalExtensionality.functional_extensionality_dep`** (12 theorems):
  C72_axpy, C72_scale, C72_matrix_scale, C72_sparse_scale, C73_cgs, C73_gmres_dense, C73_gmres_sparse, C89_map, C89_map_dot, C89_map_matvec, C89_map_cholesky, C89_map_gmres.
* **`ClassicalDedekindReals.sig_forall_dec`, `FunctionalExtensionality.functional_extensionality_dep`** (1 theorems):
  C95_hermite_refuted.
* **`ClassicalDedekindReals.sig_forall_dec`, `ClassicalDedekindReals.sig_not_dec`, `FunctionalExtensionality.functional_extensionality_dep`** (179 theorems):
  C05_positive, C07_norm2, C07_norm2_static, C07_any_reduction_order, C07_laws, C36_dominant, C36_pos_def, C39_square, C39_packed, C40_square, C40_packed, C41_rejects_partial, C41_rejects_packed_partial, C41_accepts_refuted, C41_accepts_packed_refuted, C42_vector_inplace, C42_vector, C42_matrix_inplace, C42_matrix, C42_end_to_end, C43_spd, C50_cgs, C53_solvers_agree, C53_lapack_repeat_refuted, C59_tridiag_vector, C59_tridiag_matrix, C59_cholesky, C59_cholesky_rejects, C59_solve_vector_inplace, C59_solve_vector, C59_solve_matrix_inplace, C59_solve_matrix, C59_builds_differ_refuted, C60_dot, C60_any_reduction_order, C61_norm2, C61_any_reduction_order, C62_matvec, C62_matvec_operator, C62_matmat, C62_matmat_operator, C63_back_sub, C64_factor_square, C64_factor_packed, C64_solve, C64_square, C64_packed, C64_no_growth, C64_no_growth_packed, C65_factor, C65_solve, C66_factor, C66_factor_csr, C66_solve, C66_solve_csr, C67_dominant, C67_dominant_columns, C68_spmv, C68_operator, C69_operators, C69_axpy, C69_quotient, C69_cross, C70_square, C70_packed, C70_solve, C70_solve_square, C70_solve_packed, C74_ilu_dense, C74_ilu_sparse, laplace_dominant, C76_dot, C76_norm2, C77_matvec, C77_matvec_operator, C77_matmat, C77_matmat_operator, C77_spmv, C77_sp_operator, C78_operators, C78_axpy, C78_quotient, C78_cross, C79_back_sub, C80_factor_square, C80_factor_packed, C80_solve, C80_square, C80_packed, C81_factor, C81_factor_csr, C81_solve, C81_solve_csr, C83_vector, C83_columns, C84_factor, C84_solve, C87_square, C87_packed, C87_solve, C88_laws, C88_dot, C88_norm2, C88_axpy, C88_matvec, C88_cholesky, C88_cholesky_solve, C88_tridiagonal, C92_real, C93_back_sub, C93_tridiagonal, C93_tridiagonal_columns, C93_cholesky_square, C93_cholesky_packed, C93_definite, C93_modified, C93_ilu, C93_ilu_csr, C94_field, C94_vectors, C94_matvec, C94_matmat, C94_matrices, C94_cholesky, C94_cholesky_rejects, C94_solve_vector_inplace, C94_solve_vector, C94_solve_matrix_inplace, C94_solve_matrix, C95_norm2, C95_norm2_real, C95_norm2_refuted, C95_hermite, C97_definite, C98_dense, C98_csr, C98_gmres_dense, C98_gmres_sparse, C98_direct_dense, C98_direct_csr, C98_forward, C98_laplace, C99_steps, C100_dense, C100_sparse, C100_dominant, C100_residual, C100_first, C100_one, C102_cgs, C102_cgs_fixed, C102_cgs_twice, C102_cgs_triangular, C102_cholesky, C102_cholesky_packed, C104_matvec, C104_spmv, C104_dot, C104_norm2, C104_norm2_entry, C104_matmat, C104_back_sub, C104_tridiagonal, C104_tridiagonal_columns, C104_cholesky, C104_cholesky_packed, C104_ilu, C104_ilu_sparse, reals_mono, C104_ilu_tridiagonal, C104_ilu_sparse_tridiagonal, C105_back_sub, C105_tridiagonal, C105_tridiagonal_columns, C105_cholesky, C105_cholesky_packed, C105_ilu, C105_ilu_sparse, reals_ranged.
* **`ClassicalDedekindReals.sig_forall_dec`, `ClassicalDedekindReals.sig_not_dec`, `Classical_Prop.classic`, `FunctionalExtensionality.functional_extensionality_dep`** (30 theorems):
  C21_isqrt64, C47_dense_estimate, C47_sparse_estimate, C48_dense_solver, C48_dense, C48_sparse, C48_dense_closed, C73_dense_solves, C73_sparse_solves, C74_gmres_dense, C74_gmres_sparse, b32_ieee, bfma_fused, C90_binary, C92_digits, C96_formats, C96_binary32, C97_dense, C97_sparse, C97_dense_closed, C97_sparse_closed, C97_dense_stops, C97_sparse_stops, C99_orthogonal, C99_independent, C99_cgs, bops_mono, bops_ranged, C107_ieee, C107_binary32.
* **`PrimFloat.abs`, `PrimFloat.add`, `PrimFloat.div`, `PrimFloat.eqb`, `PrimFloat.float`, `PrimFloat.ltb`, `PrimFloat.mul`, `PrimFloat.opp`, `PrimFloat.sqrt`, `PrimFloat.sub`** (6 theorems):
  C10_binary64_refuted, C46_accepts_float, C49_refuted, C49_sparse_refuted, C90_bound_refuted, C107_infinite_refuted.
* **`ClassicalDedekindReals.sig_forall_dec`, `FunctionalExtensionality.functional_extensionality_dep`, `PrimFloat.abs`, `PrimFloat.add`, `PrimFloat.div`, `PrimFloat.eqb`, `PrimFloat.float`, `PrimFloat.frshiftexp`, `PrimFloat.ltb`, `PrimFloat.mul`, `PrimFloat.normfr_mantissa`, `PrimFloat.opp`, `PrimFloat.sqrt`, `PrimFloat.sub`, `PrimInt63.eqb`, `PrimInt63.int`, `PrimInt63.land`, `PrimInt63.lsr`** (4 theorems):
  C82_quotient_refuted, C82_gmres_refuted, C92_underflow_refuted, C92_three_refuted.
* **`ClassicalDedekindReals.sig_forall_dec`, `ClassicalDedekindReals.sig_not_dec`, `FunctionalExtensionality.functional_extensionality_dep`, `PrimFloat.abs`, `PrimFloat.add`, `PrimFloat.div`, `PrimFloat.eqb`, `PrimFloat.float`, `PrimFloat.frshiftexp`, `PrimFloat.ltb`, `PrimFloat.mul`, `PrimFloat.normfr_mantissa`, `PrimFloat.opp`, `PrimFloat.sqrt`, `PrimFloat.sub`, `PrimInt63.eqb`, `PrimInt63.int`, `PrimInt63.land`, `PrimInt63.lsr`** (1 theorems):
  C82_norm_refuted.
* **`FloatAxioms.add_spec`, `FloatAxioms.div_spec`, `FloatAxioms.eqb_spec`, `FloatAxioms.mul_spec`, `FloatAxioms.sqrt_spec`, `FloatAxioms.sub_spec`, `PrimFloat.abs`, `PrimFloat.add`, `PrimFloat.div`, `PrimFloat.eqb`, `PrimFloat.float`, `PrimFloat.frshiftexp`, `PrimFloat.ltb`, `PrimFloat.mul`, `PrimFloat.normfr_mantissa`, `PrimFloat.opp`, `PrimFloat.sqrt`, `PrimFloat.sub`, `PrimInt63.eqb`, `PrimInt63.int`, `PrimInt63.land`, `PrimInt63.lsr`** (2 theorems):
  C49_always_nan_dense, C49_always_nan_sparse.
* **`FloatAxioms.SF2Prim_Prim2SF`, `PrimFloat.abs`, `PrimFloat.add`, `PrimFloat.div`, `PrimFloat.eqb`, `PrimFloat.float`, `PrimFloat.frshiftexp`, `PrimFloat.ldshiftexp`, `PrimFloat.ltb`, `PrimFloat.mul`, `PrimFloat.normfr_mantissa`, `PrimFloat.of_uint63`, `PrimFloat.opp`, `PrimFloat.sqrt`, `PrimFloat.sub`, `PrimInt63.eqb`, `PrimInt63.int`, `PrimInt63.land`, `PrimInt63.lor`, `PrimInt63.lsl`, `PrimInt63.lsr`, `PrimInt63.sub`** (1 theorems):
  C96_singular_refuted.
* **`ClassicalDedekindReals.sig_forall_dec`, `ClassicalDedekindReals.sig_not_dec`, `Classical_Prop.classic`, `FloatAxioms.Prim2SF_valid`, `FunctionalExtensionality.functional_extensionality_dep`, `PrimFloat.abs`, `PrimFloat.add`, `PrimFloat.div`, `PrimFloat.eqb`, `PrimFloat.float`, `PrimFloat.frshiftexp`, `PrimFloat.ldshiftexp`, `PrimFloat.ltb`, `PrimFloat.mul`, `PrimFloat.normfr_mantissa`, `PrimFloat.of_uint63`, `PrimFloat.opp`, `PrimFloat.sqrt`, `PrimFloat.sub`, `PrimInt63.eqb`, `PrimInt63.int`, `PrimInt63.land`, `PrimInt63.lor`, `PrimInt63.lsl`, `PrimInt63.lsr`, `PrimInt63.sub`** (2 theorems):
  C88_cross_self_refuted, C88_chain_refuted.
* **`ClassicalDedekindReals.sig_forall_dec`, `ClassicalDedekindReals.sig_not_dec`, `Classical_Prop.classic`, `FloatAxioms.Prim2SF_SF2Prim`, `FloatAxioms.Prim2SF_valid`, `FloatAxioms.SF2Prim_Prim2SF`, `FloatAxioms.abs_spec`, `FloatAxioms.eqb_spec`, `FunctionalExtensionality.functional_extensionality_dep`, `PrimFloat.abs`, `PrimFloat.div`, `PrimFloat.eqb`, `PrimFloat.float`, `PrimFloat.frshiftexp`, `PrimFloat.ldshiftexp`, `PrimFloat.ltb`, `PrimFloat.normfr_mantissa`, `PrimFloat.of_uint63`, `PrimFloat.opp`, `PrimInt63.eqb`, `PrimInt63.int`, `PrimInt63.land`, `PrimInt63.lor`, `PrimInt63.lsl`, `PrimInt63.lsr`, `PrimInt63.sub`** (1 theorems):
  float_fused.
* **`ClassicalDedekindReals.sig_forall_dec`, `ClassicalDedekindReals.sig_not_dec`, `Classical_Prop.classic`, `FloatAxioms.Prim2SF_SF2Prim`, `FloatAxioms.Prim2SF_valid`, `FloatAxioms.SF2Prim_Prim2SF`, `FloatAxioms.abs_spec`, `FloatAxioms.add_spec`, `FloatAxioms.eqb_spec`, `FloatAxioms.mul_spec`, `FunctionalExtensionality.functional_extensionality_dep`, `PrimFloat.abs`, `PrimFloat.add`, `PrimFloat.div`, `PrimFloat.eqb`, `PrimFloat.float`, `PrimFloat.frshiftexp`, `PrimFloat.ldshiftexp`, `PrimFloat.ltb`, `PrimFloat.mul`, `PrimFloat.normfr_mantissa`, `PrimFloat.of_uint63`, `PrimFloat.opp`, `PrimFloat.sqrt`, `PrimFloat.sub`, `PrimInt63.eqb`, `PrimInt63.int`, `PrimInt63.land`, `PrimInt63.lor`, `PrimInt63.lsl`, `PrimInt63.lsr`, `PrimInt63.sub`** (1 theorems):
  C107_binary64.
* **`ClassicalDedekindReals.sig_forall_dec`, `ClassicalDedekindReals.sig_not_dec`, `Classical_Prop.classic`, `FloatAxioms.Prim2SF_SF2Prim`, `FloatAxioms.Prim2SF_valid`, `FloatAxioms.SF2Prim_Prim2SF`, `FloatAxioms.abs_spec`, `FloatAxioms.add_spec`, `FloatAxioms.div_spec`, `FloatAxioms.eqb_spec`, `FloatAxioms.ltb_spec`, `FloatAxioms.mul_spec`, `FloatAxioms.opp_spec`, `FloatAxioms.sqrt_spec`, `FloatAxioms.sub_spec`, `FunctionalExtensionality.functional_extensionality_dep`, `PrimFloat.abs`, `PrimFloat.add`, `PrimFloat.div`, `PrimFloat.eqb`, `PrimFloat.float`, `PrimFloat.frshiftexp`, `PrimFloat.ldshiftexp`, `PrimFloat.ltb`, `PrimFloat.mul`, `PrimFloat.normfr_mantissa`, `PrimFloat.of_uint63`, `PrimFloat.opp`, `PrimFloat.sqrt`, `PrimFloat.sub`, `PrimInt63.eqb`, `PrimInt63.int`, `PrimInt63.land`, `PrimInt63.lor`, `PrimInt63.lsl`, `PrimInt63.lsr`, `PrimInt63.sub`** (16 theorems):
  float_ieee, C82_tridiagonal_refuted, C82_cholesky_refuted, C88_binary64, C90_binary64, C90_contracted, C90_contracted_dot, C90_quotient_refuted, C96_binary64, C98_margin_needed, C99_lauchli, C104_norm2_binary64, C104_norm2_small_refuted, float_mono, C104_second_difference, float_ranged.
* **`ClassicalDedekindReals.sig_forall_dec`, `ClassicalDedekindReals.sig_not_dec`, `Classical_Prop.classic`, `FloatAxioms.Prim2SF_SF2Prim`, `FloatAxioms.Prim2SF_valid`, `FloatAxioms.SF2Prim_Prim2SF`, `FloatAxioms.abs_spec`, `FloatAxioms.add_spec`, `FloatAxioms.div_spec`, `FloatAxioms.eqb_spec`, `FloatAxioms.leb_spec`, `FloatAxioms.mul_spec`, `FloatAxioms.opp_spec`, `FloatAxioms.sqrt_spec`, `FloatAxioms.sub_spec`, `FunctionalExtensionality.functional_extensionality_dep`, `PrimFloat.abs`, `PrimFloat.add`, `PrimFloat.div`, `PrimFloat.eqb`, `PrimFloat.float`, `PrimFloat.frshiftexp`, `PrimFloat.ldshiftexp`, `PrimFloat.leb`, `PrimFloat.ltb`, `PrimFloat.mul`, `PrimFloat.normfr_mantissa`, `PrimFloat.of_uint63`, `PrimFloat.opp`, `PrimFloat.sqrt`, `PrimFloat.sub`, `PrimInt63.eqb`, `PrimInt63.int`, `PrimInt63.land`, `PrimInt63.lor`, `PrimInt63.lsl`, `PrimInt63.lsr`, `PrimInt63.sub`** (3 theorems):
  C92_binary64, C92_dot_binary64, C92_cholesky_binary64.

All of these are axioms of the Coq standard library (Coq.Reals, Coq.Logic, and the primitive
operations of Coq.Floats, which `Print Assumptions` lists because they are kernel primitives).

## 5. Trusted base

1. Coq 8.16.1's kernel, including its VM (`vm_compute`) and primitive floats (used for the binary64
   witnesses only).
2. The axioms of section 4.  No axioms of our own, no kernel check switched off.
3. The faithfulness of the `Model*` files to the C++ text; every definition cites file and lines and
   says where it simplifies.
4. Contracts of code outside the repository, hypotheses of the theorems that use them, each met by a
   reference routine given here (so that no theorem is vacuous):
   * `std::ranges::sort`: returns a permutation without inversions, for every strict weak order
     (`sort_contract`, SpecSparse.v); nothing is assumed about the order of equivalent elements.
   * CBLAS (SpecBlas.v, SpecBlasVec.v): axpy, scal, dot, nrm2, gemv, gemm, in exact arithmetic; illegal arguments make
     the error handler stop the program or return with nothing changed.
   * LAPACKE ?gtsv, ?potrf, ?potrs (SpecLapack.v): solve / factor when the documented preconditions hold.
   * `std::sqrt` on the integral argument of the packed size check: IEEE binary64 square root, modelled
     as such (FloatSqrt.v proves that it is exact for the sizes that occur); elsewhere the field `sqrt_`.
5. The rounding model of C60-C70: `Approx O u` (SpecRound.v).  `flx_approx` shows that round-to-nearest
   with 53 bits and unbounded exponent range meets it with u = 2^-53; binary64 behaves the same as long
   as nothing overflows or underflows.  C76-C84 and C87 need no such proviso: `float_ieee` (RoundIeee.v) proves
   that Coq's binary64 operations, infinities and NaN included, meet `Ieee` (SpecIeee.v); that the
   compiled C++ uses these operations, possibly contracted (C88: the laws are weak enough to hold for
   every contraction), without excess precision or re-ordering, is trusted.  The hypotheses `settled`
   of C78-C84 and C87 say that an input is a rounded number rather than a product still to be absorbed;
   without contraction they always hold (`plain_settled`).

## 6. Findings

Behaviour of the code that contradicts what its API suggests; each is a theorem (see the ids).

* `neg`, `axpy` and free `dot` on dynamic vectors of different length terminate the program: they throw
  inside `noexcept` (C04).  `dot` of empty vectors reads out of bounds (C06).
* `add`/`sub` do not check the destination's length (C09); `SizedVec::dot(DynVec)` checks nothing;
  `v / a` multiplies by the rounded reciprocal (C10).
* The dynamic matrix constructor accepts data of any length (C12).  Reading a const tridiagonal matrix
  outside its band returns a dangling reference (C20).  Lower triangular matrices mirror their entries
  above the diagonal (C25).  A wrong length for DynUpperTriMat terminates (C23).
* COO `+=` adds at wrong positions or reads past the end when the left side has an empty row (C31);
  `shape()` of an empty sparse matrix is undefined (C34); the CSR product is wrong in place (C32, C55).
* With the BLAS backend the matrix-matrix product uses the wrong leading dimension for C (wrong unless
  square) and the in-place matrix-vector product loses beta*y (C18); vector kernels silently do nothing
  for 2^31 elements or more (C72).
* The tridiagonal solver is undefined for order 1 (C38); with LAPACK its second use gives another answer
  (C53).  The result vector's length is never checked (C36_short_result).
* The Cholesky constructor takes a failure at the first pivot for success (C41), the LAPACK build does
  not (C59).  The ILU(0) singularity test is wrong in both directions (C46).  GMRES with b = 0 gives NaN (C49).
* Loops with 32-bit counters never end from 2^32 elements on (C51); entry-wise operations on a
  65536 x 65536 matrix hang; int32 backward sweeps are skipped for 2^31 < n <= 2^32 (C52).
* In binary64 (C82): `norm2` squares its entries, so that it overflows to infinity or underflows to zero for
  ordinary vectors; `v / a` is infinite for a subnormal `a`; GMRES returns NaN for a tiny right-hand side; the
  tridiagonal solver returns finite but wrong numbers when a pivot overflows; the Cholesky constructor lets
  NaN pivots pass, so a matrix that is not positive definite is accepted.
* With LALIB_USE_ACCELERATOR, `+` and `-` of 16 or more elements are undefined on every device with its
  own memory (C86): the `omp target` kernels have no `map` clause.
* For complex elements `norm2` omits the moduli (the norm of (1, i) is 0) and Hermite matrices are symmetric, not
  Hermitian (C95).
* `cgs` checks only the second vector's size and is undefined on an empty list (C50).
* Compile-time only, not expressible in the model: `SpMat::operator+=` is not defined; literals `1.0`
  and `-1.0` restrict several templates to double; `c.shape().frist`; complex `Zero`/`One` do not compile; `cross` of two dynamic vectors is ambiguous;
  SizedMat names its iterator type `std::array<T, N>::iterator` although it stores `std::array<T, N*M>`
  (the same pointer type in libstdc++).

What cannot be expressed: running time, cache behaviour, memory consumption, exception message text, and
agreement with a particular BLAS/LAPACK implementation beyond the contracts.
