{"id": "C01", "title": "Element-wise vector kernels compute exactly the element-wise result, in place or not", "statement": "neg/add/sub/axpy/scale/scaled/unary -/binary +,-/scalar *: entry i of the destination holds exactly the scalar expression of entry i of the operands as they were before the call (vr[i] = v1[i] op v2[i], y[i] = alpha*x[i]+y[i], ...), also when the destination is the same object as one or both operands; operands that are not the destination, and every other object, keep their contents; the operator forms leave both operands untouched and return a fresh vector.", "quantifier": "every scalar type (any meaning of the arithmetic operators, so including IEEE rounding, infinities and NaN), every length below 2^32, every content, every aliasing pattern of the two/three vector arguments", "why_tests_cant": "unit tests use a handful of fixed vectors, distinct objects and benign values; aliasing patterns x contents x lengths is infinite", "anchors": ["include/lalib/ops/vec_ops_core.hpp: __neg_core_simd, add_core, sub_core, axpy_core, scal_core", "include/lalib/ops/vec_ops.hpp: neg, add, sub, axpy, scale, scaled, operator+, operator-, operator*"]}
{"id": "C02", "title": "Vector and matrix kernels give the same result under every thread/SIMD schedule", "statement": "The loops marked `omp simd` / `omp parallel for simd` in the element-wise kernels have no data race and produce the sequential result for every interleaving of the loads and stores of their iterations, also in place; the row loop of the dense matrix-vector kernel likewise.", "quantifier": "every assignment of iterations to threads/lanes and every interleaving of the individual loads and stores, every length, every aliasing pattern the API admits", "why_tests_cant": "a test run exercises one schedule; races show up only under particular interleavings", "anchors": ["include/lalib/ops/vec_ops_core.hpp: __neg_core_parallel, __add_core_parallel, __sub_core_parallel, __axpy_core_parallel, __scal_core_simd", "include/lalib/ops/mat_vec_ops_core.hpp: __mul_core_simd", "include/lalib/ops/mat_mat_ops_core.hpp: __mul_core_simd"]}
{"id": "C03", "title": "A size mismatch is reported as SizeMismatched and changes nothing", "statement": "add/sub on dynamic vectors (and the mixed static/dynamic overloads), binary + and -, and the dynamic vector's dot member report vec_error::SizeMismatched exactly when the two operand lengths differ, and in that case no vector has been modified.", "quantifier": "every pair of lengths and contents", "why_tests_cant": "only finitely many length pairs can be tried; 'exactly when' and 'nothing modified' are universally quantified", "anchors": ["include/lalib/ops/vec_ops.hpp: __check_size, add, sub, operator+, operator-", "include/lalib/vec/dyn_vec.hpp: DynVec::dot, __check_size"]}
{"id": "C04", "title": "neg, axpy and the free dot function report a length mismatch by exception", "statement": "A length mismatch given to neg, axpy or dot on dynamic vectors surfaces as a catchable vec_error::SizeMismatched exception.", "quantifier": "every pair of lengths", "why_tests_cant": "a test that provokes the failure would abort the test process instead of failing an assertion; the claim ranges over all mismatching pairs", "anchors": ["include/lalib/ops/vec_ops.hpp: neg (noexcept), axpy (noexcept), dot (noexcept), __check_size"]}
{"id": "C05", "title": "dot is the inner product, whatever the reduction order", "statement": "For nonempty vectors of equal length dot(x,y) is the sum of the products of corresponding entries; any split of the loop into SIMD lanes or threads and any order of combining the partial sums gives the same value when addition is associative and commutative; consequently dot is symmetric, bilinear and dot(x,x) >= 0.", "quantifier": "every nonempty vector pair, every lane partition and combination order, every commutative ring / the real numbers", "why_tests_cant": "reduction orders and vectors are infinitely many; laws such as bilinearity are universally quantified", "anchors": ["include/lalib/ops/vec_ops_core.hpp: __dot_core_simd, dot_core", "include/lalib/vec/dyn_vec.hpp: dot", "include/lalib/vec/sized_vec.hpp: dot", "include/lalib/ops/vec_ops.hpp: dot"]}
{"id": "C06", "title": "dot of two empty vectors is zero", "statement": "dot on two vectors of length 0 returns 0.", "quantifier": "every (both empty) argument pair, in every build", "why_tests_cant": "reading one element past an empty buffer usually goes unnoticed in a test run", "anchors": ["include/lalib/ops/vec_ops_core.hpp: __dot_core_simd (r = v1[0]*v2[0])"]}
{"id": "C07", "title": "norm2 is the Euclidean norm", "statement": "In exact arithmetic norm2(v) is nonnegative, its square is dot(v,v) (0 for the empty vector), it is 0 iff every entry is 0, scaling by alpha multiplies it by |alpha|, |dot(x,y)| <= norm2(x)*norm2(y) and the triangle inequality holds.", "quantifier": "every real vector of every length, every reduction order", "why_tests_cant": "norm axioms are universally quantified over real vectors", "anchors": ["include/lalib/ops/vec_ops_core.hpp: __norm2_core_simd, norm2_core", "include/lalib/vec/dyn_vec.hpp: norm2", "include/lalib/vec/sized_vec.hpp: norm2"]}
{"id": "C08", "title": "cross products: formula, orthogonality, in-place use", "statement": "cross on 3-vectors stores the right-handed cross product of the operands' contents before the call, for every aliasing of result and operands; the result is orthogonal to both operands, antisymmetric and zero for equal operands; cross on 2-vectors is the determinant; cross_acc adds the cross product to the destination's previous contents.", "quantifier": "every commutative ring, every content, every aliasing pattern", "why_tests_cant": "orthogonality and aliasing are universally quantified; tests fix a few literals", "anchors": ["include/lalib/ops/vec_ops_core.hpp: cross2_core, cross3_core, cross3_acc_core", "include/lalib/ops/vec_ops.hpp: cross, cross_acc"]}
{"id": "C09", "title": "add/sub never touch memory outside the destination vector", "statement": "add and sub on dynamic vectors are memory safe: if the call returns normally, every access was inside its vector; a destination whose size does not match is reported.", "quantifier": "every triple of lengths", "why_tests_cant": "a one-past-the-end write is usually silent in a test run", "anchors": ["include/lalib/ops/vec_ops.hpp: add, sub (vr's size is not checked)"]}
{"id": "C10", "title": "Dividing a vector by a scalar divides every entry", "statement": "v / alpha has entry i equal to v[i] / alpha for nonzero alpha: exactly in every field, and bit-for-bit in floating point.", "quantifier": "every field element / every binary64 value, every length", "why_tests_cant": "the rounding difference shows up only for particular operand pairs", "anchors": ["include/lalib/ops/vec_ops.hpp: operator/", "include/lalib/ops/ops_traits.hpp: reciprocal"]}
{"id": "C11", "title": "Dense matrix element access reads and writes exactly one element", "statement": "For a matrix of n rows and m columns (dynamic and static), (i,j) with i<n, j<m denotes an element stored inside the buffer; distinct in-range pairs denote distinct elements; after A(i,j)=x, reading (i,j) gives x and reading every other element gives what it was before; row-major construction from a flat array makes A(i,j) = data[i*m+j]; at/mut_at/operator() agree.", "quantifier": "every shape, every in-range index pair, every content, every sequence of writes", "why_tests_cant": "tests check a few positions of 2x2/3x3 matrices", "anchors": ["include/lalib/mat/dyn_mat.hpp: DynMat::operator(), at, mut_at", "include/lalib/mat/sized_mat.hpp: SizedMat::operator()"]}
{"id": "C12", "title": "Constructors accept exactly the data whose length fits the shape", "statement": "The statically sized vector and matrix constructors from std::vector/initializer list throw exactly when the length is not N (resp. N*M) and otherwise reproduce the data; the dynamic matrix constructor from a flat container either rejects data of length other than n*m or yields a matrix all of whose in-range reads are in bounds.", "quantifier": "every shape and every data length", "why_tests_cant": "mismatching lengths are infinitely many; the unchecked case is silent out-of-bounds access", "anchors": ["include/lalib/vec/sized_vec.hpp: SizedVec ctors", "include/lalib/mat/sized_mat.hpp: SizedMat ctors", "include/lalib/mat/dyn_mat.hpp: DynMat ctors"]}
{"id": "C13", "title": "filled / uninit / diag / identity build the matrices and vectors they name", "statement": "filled(v) has every entry v; diag(ds) has ds on the diagonal and zero elsewhere; identity has one on the diagonal and zero elsewhere; diag of a scalar list of length n is n x n; multiplying by identity returns the operand.", "quantifier": "every size, every scalar ring", "why_tests_cant": "sizes and contents are infinitely many", "anchors": ["include/lalib/mat/dyn_mat.hpp: filled, diag, identity", "include/lalib/mat/sized_mat.hpp: filled, diag, identity", "include/lalib/vec/dyn_vec.hpp: filled, uninit"]}
{"id": "C14", "title": "Matrix-vector product computes alpha*A*x + beta*y, including y = A*y in place", "statement": "mul(alpha, A, x, beta, y) stores alpha * sum_k A(i,k)*x[k] + beta*y[i] in y[i] for every row i, with x, y as they were before the call, also when x and y are the same vector (square A); A and x are otherwise unchanged; A*x as operator returns a fresh vector.", "quantifier": "every shape (n, m < 2^32), every content, every alpha/beta, aliased and not; any scalar type for the order-exact statement", "why_tests_cant": "shapes x contents x aliasing is infinite", "anchors": ["include/lalib/ops/mat_vec_ops_core.hpp: __mul_core_simd, mul_core", "include/lalib/ops/mat_vec_ops.hpp: mul, operator*"]}
{"id": "C15", "title": "Matrix-matrix product computes alpha*A*B + beta*C, including in-place use", "statement": "mul(alpha, A, B, beta, C) stores alpha * sum_k A(i,k)*B(k,j) + beta*C(i,j) in every C(i,j), operands as before the call, also when C is the same matrix as A and/or B (square case); operands other than C are unchanged.", "quantifier": "every shape, every content, every alpha/beta, every aliasing pattern", "why_tests_cant": "shapes x contents x aliasing is infinite", "anchors": ["include/lalib/ops/mat_mat_ops_core.hpp: __mul_core_simd, mul_core", "include/lalib/ops/mat_mat_ops.hpp: mul, operator*"]}
{"id": "C16", "title": "The matrix product is associative, distributive and compatible with the vector product", "statement": "(A*B)*C = A*(B*C), (A*B)*x = A*(B*x), A*(B+C) = A*B+A*C, I*A = A = A*I, (alpha*A)*B = alpha*(A*B) for matrices and vectors built and multiplied through the API, in exact arithmetic.", "quantifier": "every conforming shape, every commutative ring", "why_tests_cant": "algebraic identities over all matrices", "anchors": ["include/lalib/ops/mat_mat_ops.hpp: operator*, operator+", "include/lalib/ops/mat_vec_ops.hpp: operator*", "include/lalib/ops/mat_ops.hpp: operator*"]}
{"id": "C17", "title": "Matrix add/sub/scale/negate are entry-wise and alias-safe", "statement": "add/sub/scale/neg of dense matrices compute the entry-wise result from the operands' contents before the call under every aliasing; they form a module over the scalars in exact arithmetic; shape violations are caught by the asserts in assert-enabled builds.", "quantifier": "every shape, every content, every aliasing pattern", "why_tests_cant": "as for vectors", "anchors": ["include/lalib/ops/mat_mat_ops.hpp: add, sub, operator+, operator-", "include/lalib/ops/mat_ops.hpp: scale, operator*, operator-"]}
{"id": "C18", "title": "With the BLAS backend, products have the same meaning as without it", "statement": "For float/double with LALIB_BLAS_BACKEND, mul(alpha,A,B,beta,C) and mul(alpha,A,x,beta,y) store the same matrix/vector (in exact arithmetic) as the built-in kernels, for every shape and aliasing.", "quantifier": "every conforming shape, every alpha/beta, every aliasing", "why_tests_cant": "tests only run square matrices with beta = 0 in place", "anchors": ["include/lalib/ops/mat_mat_ops_core.hpp: mul_core<float>, mul_core<double>", "include/lalib/ops/mat_vec_ops_core.hpp: mul_core<float>, mul_core<double>"]}
{"id": "C19", "title": "2x2 inversion returns the two-sided inverse", "statement": "invert on a 2x2 matrix with nonzero determinant stores the matrix B with A*B = B*A = I, also when source and destination are the same object; the source is unchanged otherwise.", "quantifier": "every field, every 2x2 matrix of nonzero determinant, aliased or not", "why_tests_cant": "all field elements", "anchors": ["include/lalib/mat.hpp: invert"]}
{"id": "C20", "title": "Tridiagonal matrix reads give the band and zero outside it", "statement": "For a tridiagonal matrix of order n, reading (i,j) gives dl[j] on the sub-diagonal, d[i] on the diagonal, du[i] on the super-diagonal and a zero outside the band, for a const matrix as well; writing outside the band is refused with an exception; writes inside the band affect exactly one element.", "quantifier": "every order, every in-range (i,j), including i or j = 0 where j-1 wraps around", "why_tests_cant": "dangling references often read back the right value by luck", "anchors": ["include/lalib/mat/dyn_mat.hpp: DynTriDiagMat::operator()", "include/lalib/mat/sized_mat.hpp: SizedTriDiagMat::operator()"]}
{"id": "C21", "title": "Packed Hessenberg matrices behave as n x n matrices with zero below the sub-diagonal", "statement": "For a Hessenberg matrix of order n: the packed offset of (i,j), i<=j+1, is in bounds and injective; reads below the sub-diagonal give zero; writes there are refused; the data-size check accepts exactly the lengths (n^2+3n-2)/2 and recovers n.", "quantifier": "every order n, every in-range index pair, every data length", "why_tests_cant": "triangular-number arithmetic over all n; size recovery through floating-point sqrt", "anchors": ["include/lalib/mat/dyn_mat.hpp: HessenbergMat::operator(), _calc_size"]}
{"id": "C22", "title": "Growing a Hessenberg matrix keeps the old columns", "statement": "After extending a Hessenberg matrix of order n by a column (with zeros or with given entries), it has order n+1, every old element reads as before, and the new column reads as given.", "quantifier": "every history of extensions starting from an empty matrix, every content", "why_tests_cant": "histories are unbounded; the first extension is a special case", "anchors": ["include/lalib/mat/dyn_mat.hpp: HessenbergMat::extend_with_zero, extend_with, get_col"]}
{"id": "C23", "title": "Packed upper triangular matrices behave as n x n upper triangular matrices", "statement": "For an upper triangular matrix of order n: packed offsets are in bounds and injective, reads below the diagonal give zero, writes there are refused, size check accepts exactly triangular numbers n(n+1)/2 and recovers n; extending by a column keeps old elements and adds the given/zero column.", "quantifier": "every order, index pair, data length, history of extensions", "why_tests_cant": "as for Hessenberg", "anchors": ["include/lalib/mat/dyn_mat.hpp: DynUpperTriMat::operator(), _calc_size, extend_with_zero, extend_with"]}
{"id": "C24", "title": "back_sub solves the upper triangular system", "statement": "back_sub(b) on an upper triangular matrix U with nonzero diagonal overwrites b with the unique x such that U x = b (as seen through element reads of U); a right-hand side of the wrong size is refused with an exception and left unchanged; U is unchanged.", "quantifier": "every order, every field, every U with nonzero diagonal, every b", "why_tests_cant": "all systems of all sizes", "anchors": ["include/lalib/mat/dyn_mat.hpp: DynUpperTriMat::back_sub"]}
{"id": "C25", "title": "Lower triangular matrices read as zero above the diagonal", "statement": "Reading (i,j) with i<j from a lower triangular matrix gives zero, writing (i,j) with i<j does not change any element with i>=j.", "quantifier": "every order, every in-range index pair", "why_tests_cant": "the unit tests read only the lower part", "anchors": ["include/lalib/mat/dyn_mat.hpp: DynLowerTriMat::operator()", "include/lalib/mat/sized_mat.hpp: SizedLowerTriMat::operator()"]}
{"id": "C26", "title": "Hermite (real symmetric) matrices are symmetric under reads and writes", "statement": "For a packed symmetric matrix of order n: (i,j) and (j,i) denote the same element for in-range i,j, other pairs denote different elements, all offsets are in bounds, and conversion to a lower triangular matrix keeps the lower part.", "quantifier": "every order, every in-range index pair, every write sequence", "why_tests_cant": "as above", "anchors": ["include/lalib/mat/dyn_mat.hpp: DynHermiteMat::operator(), into_lower_mat", "include/lalib/mat/sized_mat.hpp: SizedHermiteMat::operator()"]}
{"id": "C27", "title": "COO construction keeps exactly the given entries, in row-major order", "statement": "Building a COO matrix from value/row/column arrays throws exactly when lengths differ; otherwise the stored triples are a permutation of the given ones, ordered by (row, column), and reading (i,j) returns the given value when (i,j) occurs exactly once and zero when it does not occur.", "quantifier": "every list of triples in any order, every sort implementation", "why_tests_cant": "permutations and sort implementations are unbounded", "anchors": ["include/lalib/mat/sp_mat.hpp: SpCooMat ctors, _sort, operator()"]}
{"id": "C28", "title": "COO/CSR element writes touch exactly the addressed stored element", "statement": "mut_at(i,j)=x on a COO or CSR matrix changes the read of (i,j) to x and of nothing else when (i,j) is stored, and throws out_of_range leaving the matrix unchanged when it is not stored.", "quantifier": "every matrix without duplicate positions, every index pair", "why_tests_cant": "all patterns", "anchors": ["include/lalib/mat/sp_mat.hpp: SpCooMat::mut_at, operator(), SpMat::mut_at, operator()"]}
{"id": "C29", "title": "COO to CSR conversion preserves every element", "statement": "The CSR matrix built from a COO matrix has monotone row pointers starting at 0 and ending at nnz, the same values and columns, and reading any in-range (i,j) gives the same value as from the COO matrix.", "quantifier": "every nonempty COO matrix, every in-range index pair", "why_tests_cant": "all patterns including empty rows", "anchors": ["include/lalib/mat/sp_mat.hpp: SpMat::_convert_coo_crs, SpMat(const SpCooMat&), SpMat(SpCooMat&&)"]}
{"id": "C30", "title": "Sparse unit matrices are the identity", "statement": "SpCooMat::unit(n) and SpMat::unit(n) read one on the diagonal and zero elsewhere, have shape (n,n) and n stored entries; multiplying a vector by SpMat::unit(n) returns it.", "quantifier": "every n >= 1", "why_tests_cant": "all n", "anchors": ["include/lalib/mat/sp_mat.hpp: SpCooMat::unit, SpMat::unit"]}
{"id": "C31", "title": "COO += adds element-wise", "statement": "After A += B every in-range (i,j) of A reads A(i,j)+B(i,j) as they were before, B is unchanged, and A remains sorted without duplicate positions.", "quantifier": "every pair of COO matrices without duplicate positions, any patterns (disjoint, overlapping, empty rows, different shapes)", "why_tests_cant": "merge patterns are unbounded; the failure needs a row that is empty on the left", "anchors": ["include/lalib/mat/sp_mat.hpp: SpCooMat::operator+=", "include/lalib/ops/sp_mat_ops.hpp: operator+"]}
{"id": "C32", "title": "Sparse matrix-vector product agrees with element reads", "statement": "mul(alpha, A, x, beta, y) on a CSR matrix stores alpha*sum_k A(i,k)*x[k] + beta*y[i], with A(i,k) the matrix's own element reads and x, y as before the call, including y = x.", "quantifier": "every CSR matrix, every x, y, alpha, beta, aliased or not", "why_tests_cant": "all patterns and aliasing", "anchors": ["include/lalib/ops/mat_vec_ops_core.hpp: _sp_mul_core", "include/lalib/ops/mat_vec_ops.hpp: mul, operator*", "include/lalib/mat/sp_mat.hpp: SpMat::operator()"]}
{"id": "C33", "title": "Sparse scaling and negation are entry-wise", "statement": "Scaling/negating a sparse matrix multiplies every element read by alpha / negates it and keeps the pattern.", "quantifier": "every sparse matrix, every alpha", "why_tests_cant": "all patterns", "anchors": ["include/lalib/ops/mat_ops.hpp: scale, operator*, operator-"]}
{"id": "C34", "title": "Shape and nnz of sparse matrices", "statement": "shape() of a COO matrix is the smallest shape containing every stored position and nnz() the number of stored entries; a CSR matrix converted from a COO matrix has the same shape and nnz; shape() of an empty matrix is (0,0).", "quantifier": "every sparse matrix", "why_tests_cant": "all patterns; the empty case is undefined behaviour that a test may not notice", "anchors": ["include/lalib/mat/sp_mat.hpp: SpCooMat::shape, nnz, SpMat::shape, nnz"]}
{"id": "C35", "title": "Copies are independent values", "statement": "Copy construction and copy assignment of vectors, dense, packed and sparse matrices yield an object that reads equal to the source, and later writes to either one are not visible through the other; self-assignment keeps the contents.", "quantifier": "every content, every subsequent sequence of writes to either object", "why_tests_cant": "histories are unbounded", "anchors": ["include/lalib/vec/dyn_vec.hpp: DynVec copy ctor/assign", "include/lalib/mat/dyn_mat.hpp: copy ctors/assigns", "include/lalib/mat/sp_mat.hpp: operator="]}
{"id": "C36", "title": "The tridiagonal solver solves the system", "statement": "solve_linear on a tridiagonal system of order n >= 2 returns x with T x = b whenever the elimination meets no zero pivot (in particular for every strictly diagonally dominant T over the reals), in place or not; the matrix and (out of place) right-hand side are unchanged.", "quantifier": "every order >= 2, every field, every T with nonzero pivots, every b, aliased or not", "why_tests_cant": "all systems of all sizes", "anchors": ["include/lalib/solver/internal/tdma.hpp: tdma", "include/lalib/solver/tri_diag.hpp: TriDiag::solve_linear"]}
{"id": "C37", "title": "The tridiagonal solver handles several right-hand sides column by column", "statement": "solve_linear with a matrix right-hand side stores in every column the solution for that column, in place or not.", "quantifier": "every number of columns, every order >= 2", "why_tests_cant": "all shapes", "anchors": ["include/lalib/solver/internal/tdma.hpp: tdma", "include/lalib/solver/tri_diag.hpp: TriDiag::solve_linear"]}
{"id": "C38", "title": "The tridiagonal solver handles order-1 systems", "statement": "solve_linear on the 1x1 system d*x = b returns b/d.", "quantifier": "every d != 0 and b", "why_tests_cant": "out-of-bounds reads of empty bands may go unnoticed", "anchors": ["include/lalib/solver/internal/tdma.hpp: tdma"]}
{"id": "C39", "title": "A successful Cholesky factorisation is a factorisation", "statement": "If factorisation of a symmetric real matrix A reports success through element-wise positive pivots, the stored factor L is lower triangular with positive diagonal and L*L^T = A; only the lower triangle of A is read, and the strict upper triangle of the storage is untouched.", "quantifier": "every order, every real symmetric matrix, packed and square storage", "why_tests_cant": "all matrices of all sizes", "anchors": ["include/lalib/solver/internal/cholesky_decomposition.hpp: cholesky_decomposition", "include/lalib/solver/cholesky_factorization.hpp: DynTriCholeskyFactorization, DynCholeskyFactorization"]}
{"id": "C40", "title": "Cholesky succeeds on every positive definite matrix", "statement": "For every symmetric positive definite real matrix the factorisation completes without throwing.", "quantifier": "every order, every SPD matrix (in exact arithmetic)", "why_tests_cant": "all SPD matrices", "anchors": ["include/lalib/solver/internal/cholesky_decomposition.hpp: cholesky_decomposition", "include/lalib/solver/cholesky_factorization.hpp"]}
{"id": "C41", "title": "Cholesky rejects every matrix that is not positive definite", "statement": "If the matrix is not positive definite, constructing the factorisation throws.", "quantifier": "every order, every symmetric matrix that is not positive definite", "why_tests_cant": "the accepted bad matrices are those failing at the very first pivot, which no test tries", "anchors": ["include/lalib/solver/internal/cholesky_decomposition.hpp: cholesky_decomposition (return i)", "include/lalib/solver/cholesky_factorization.hpp: constructors"]}
{"id": "C42", "title": "Solving with the Cholesky factor solves the original system", "statement": "After successful factorisation of A, solve_linear(b) returns the unique x with A x = b, for vector and matrix right-hand sides, in place or not, identically for packed and square storage.", "quantifier": "every order, every SPD matrix, every right-hand side, every number of columns", "why_tests_cant": "all systems", "anchors": ["include/lalib/solver/internal/cholesky_decomposition.hpp: cholesky_linear", "include/lalib/solver/cholesky_factorization.hpp: solve_linear"]}
{"id": "C43", "title": "The modified Cholesky factorisation factors and solves without square roots", "statement": "If no pivot is zero the modified factorisation gives L with A(i,j) = sum_{k<=j} L(i,k) L(j,k)/L(k,k) (an L D L^T factorisation) and solve_linear returns x with A x = b; if a zero pivot occurs it throws; it succeeds on every SPD matrix and on symmetric indefinite matrices with nonzero leading minors.", "quantifier": "every order, every field, every symmetric matrix", "why_tests_cant": "all matrices", "anchors": ["include/lalib/solver/internal/cholesky_decomposition.hpp: mod_cholesky_decomposition, mod_cholesky_linear", "include/lalib/solver/cholesky_factorization.hpp: DynModCholeskyFactorization"]}
{"id": "C44", "title": "ILU(0) reproduces the matrix on its sparsity pattern", "statement": "If ILU(0) construction succeeds, the factors have the pattern of A, L has unit diagonal, and (L*U)(i,j) = A(i,j) for every position (i,j) where A is nonzero (stored).", "quantifier": "every order, every sparse matrix with stored nonzero diagonal pivots, every field", "why_tests_cant": "all patterns", "anchors": ["include/lalib/solver/ilu.hpp: Ilu, _decomp_lu_inplace"]}
{"id": "C45", "title": "Applying the ILU(0) preconditioner solves L U x = b", "statement": "solve(b) of a constructed ILU(0) preconditioner whose pivots U(i,i) are nonzero returns x with L*U*x = b; when the pattern is full (or no fill-in is dropped) it solves A x = b exactly.", "quantifier": "every order, every field, every b", "why_tests_cant": "all systems", "anchors": ["include/lalib/solver/ilu.hpp: Ilu::solve"]}
{"id": "C46", "title": "ILU(0) construction throws exactly on singular matrices", "statement": "Constructing the ILU preconditioner throws 'Matrix is singular.' if and only if the matrix is singular.", "quantifier": "every square sparse matrix", "why_tests_cant": "needs particular zero pivots", "anchors": ["include/lalib/solver/ilu.hpp: Ilu ctor, _decomp_lu_inplace"]}
{"id": "C47", "title": "GMRES: the reported stopping residual is the true preconditioned residual", "statement": "At every step the recurrence's residual estimate equals the Euclidean norm of the preconditioned residual of the least-squares iterate; so if solve returns normally before the iteration limit then ||P(b - A x)|| < tol, in exact arithmetic.", "quantifier": "every n, every real A, b, every (linear) preconditioner P, every tol > 0", "why_tests_cant": "iterates of all systems", "anchors": ["include/lalib/solver/gmres.hpp: Gmres::solve, _arnoldi, _givens_rot", "include/lalib/ops/orthogonal.hpp: cgs"]}
{"id": "C48", "title": "GMRES reaches the tolerance within n iterations", "statement": "For a nonsingular system of order n and tol > 0, GMRES in exact arithmetic meets the stopping test after at most n iterations.", "quantifier": "every n, every nonsingular real system, every tol > 0", "why_tests_cant": "all systems", "anchors": ["include/lalib/solver/gmres.hpp: Gmres::solve"]}
{"id": "C49", "title": "GMRES returns zero for a zero right-hand side", "statement": "solve with b = 0 returns x = 0 (or any solution), not NaN.", "quantifier": "every A with b = 0", "why_tests_cant": "a test can show one instance; the claim is for every matrix", "anchors": ["include/lalib/solver/gmres.hpp: Gmres::solve (division by the residual norm)"]}
{"id": "C50", "title": "Gram-Schmidt orthogonalises in place and keeps every prefix span", "statement": "Called on a list of linearly independent vectors, orth::cgs leaves pairwise orthogonal, nonzero vectors; for every k the first k of them span what the first k given ones spanned; the first vector is unchanged and each other one is the given vector minus its projections on the vectors before it.", "quantifier": "every linearly independent list in R^n, every n and length below 2^32", "why_tests_cant": "all bases, all dimensions", "anchors": ["include/lalib/ops/orthogonal.hpp: cgs"]}
{"id": "C51", "title": "Every operation terminates for every size that fits in memory", "statement": "Vector and matrix operations terminate for every container size below 2^64.", "quantifier": "every size", "why_tests_cant": "sizes at and above 2^32 cannot be tested in reasonable time", "anchors": ["include/lalib/ops/vec_ops_core.hpp: auto i = 0u loops", "include/lalib/ops/mat_vec_ops_core.hpp", "include/lalib/solver/internal/tdma.hpp: int32_t loop"]}
{"id": "C52", "title": "Triangular solvers visit all rows for every size", "statement": "The backward sweeps of the tridiagonal and Cholesky solvers visit rows n-1 .. 0 for every n.", "quantifier": "every n below 2^64", "why_tests_cant": "needs n > 2^31", "anchors": ["include/lalib/solver/internal/tdma.hpp: tdma", "include/lalib/solver/internal/cholesky_decomposition.hpp: cholesky_linear, mod_cholesky_linear"]}
{"id": "C53", "title": "Solutions are unique, so repeated solves agree", "statement": "Solving twice with the same solver object and the same right-hand side gives the same answer, and any two solvers applicable to the same nonsingular system give the same answer in exact arithmetic.", "quantifier": "every system, every number of repetitions", "why_tests_cant": "histories are unbounded; the LAPACK path overwrites the stored matrix", "anchors": ["include/lalib/solver/tri_diag.hpp: TriDiag::solve_linear", "include/lalib/solver/lapack/gtsv.hpp", "include/lalib/solver/cholesky_factorization.hpp"]}
{"id": "C54", "title": "The column view of a Hessenberg matrix shows exactly that column", "statement": "get_col(j) on a Hessenberg matrix of order n returns the stored rows 0 .. min(j+1,n-1) of column j, in order and without reading outside the storage, and entry i of the view equals the element read at (i,j).", "quantifier": "every order n and column j<n, any element type", "why_tests_cant": "the end of the last column is clipped by a size comparison; needs every n and j", "anchors": ["include/lalib/mat/dyn_mat.hpp: HessenbergMat::get_col"]}
{"id": "C55", "title": "The sparse matrix-vector row loop gives the same result under every thread/SIMD schedule", "statement": "The `omp simd` row loop of the CSR matrix-vector product has no data race and produces the sequential result for every interleaving of the loads and stores of its iterations, also when the result vector is the operand.", "quantifier": "every CSR matrix, every schedule, every aliasing of x and y", "why_tests_cant": "a test run exercises one schedule", "anchors": ["include/lalib/ops/mat_vec_ops_core.hpp: _sp_mul_core", "include/lalib/ops/mat_vec_ops.hpp: mul(SpMat)"]}
{"id": "C56", "title": "Vectors hold the elements they are given and element access is exact", "statement": "A vector built from a list, filled, or of a given size holds exactly those elements (uninit: value-initialised ones) and building it changes no other object; v[i] with i < size reads element i; v[i] = x changes that element only; after any sequence of in-range writes every element reads as the last value written to it; access at i >= size is undefined; a move-constructed or move-assigned dynamic vector holds the source's elements.", "quantifier": "every list of elements, every size, every index, every sequence of writes to any number of vectors, any element type", "why_tests_cant": "histories of writes are unbounded", "anchors": ["include/lalib/vec/dyn_vec.hpp: DynVec ctors, uninit, filled, operator[]", "include/lalib/vec/sized_vec.hpp: SizedVec ctors, uninit, filled, operator[]"]}
{"id": "C57", "title": "No hidden state: a call's outcome depends only on its arguments", "statement": "Every operation, run in two memories whose argument objects hold equal elements and coincide in the same way, ends in the same way (same exception, same abort), returns equal results, leaves equal elements in corresponding objects, and changes no object that is not an argument. In particular repeating a call later, after arbitrary other work that leaves the arguments unchanged, gives the same result bit for bit.", "quantifier": "every operation on vectors, dense matrices, tridiagonal/Cholesky/ILU/GMRES solvers and Gram-Schmidt, every memory, every aliasing of arguments, any element type", "why_tests_cant": "the surrounding program state is unbounded; unit tests start from a fresh process", "anchors": ["include/lalib/ops/vec_ops.hpp", "include/lalib/ops/mat_vec_ops.hpp", "include/lalib/ops/mat_mat_ops.hpp", "include/lalib/ops/mat_ops.hpp", "include/lalib/solver/tri_diag.hpp", "include/lalib/solver/cholesky_factorization.hpp", "include/lalib/solver/ilu.hpp", "include/lalib/solver/gmres.hpp", "include/lalib/ops/orthogonal.hpp"]}
{"id": "C58", "title": "Nothing but the destination of an operation changes, and results are new objects", "statement": "Whatever its arguments, when an operation returns or throws, no object that existed before the call holds other elements or has another size than before, except the one passed as its destination (whose size is kept too). Operators and solvers that return a new vector, matrix, factorisation or preconditioner return an object that did not exist before; a factorisation or preconditioner built from a dense matrix leaves that matrix unchanged, also when it throws.", "quantifier": "every operation on vectors, dense matrices, tridiagonal/Cholesky/ILU/GMRES solvers and Gram-Schmidt, every memory and every argument (no precondition), any element type", "why_tests_cant": "the other live objects of the program are unbounded in number; the state after an exception is rarely inspected", "anchors": ["include/lalib/ops/vec_ops.hpp", "include/lalib/ops/mat_vec_ops.hpp", "include/lalib/ops/mat_mat_ops.hpp", "include/lalib/ops/mat_ops.hpp", "include/lalib/mat/dyn_mat.hpp: DynMat (copy constructor, no move constructor)", "include/lalib/solver/tri_diag.hpp", "include/lalib/solver/cholesky_factorization.hpp", "include/lalib/solver/ilu.hpp", "include/lalib/solver/gmres.hpp", "include/lalib/ops/orthogonal.hpp"]}
{"id": "C59", "title": "The LAPACK build solves the same systems and rejects what is not positive definite", "statement": "Compiled with LALIB_LAPACK_BACKEND (and a LAPACK meeting its documentation): the tridiagonal solver returns the solution of every non-singular tridiagonal system of order >= 1, whatever the pivots and whatever the result vector's previous size, also in place and for several right-hand sides; the dense Cholesky constructor stores the same factor as the built-in one on every symmetric positive definite matrix and throws on every matrix that is not positive definite; the four solve forms return the solution.", "quantifier": "every order below 2^31, every matrix over the reals, every right-hand side, every routine meeting the documented contract", "why_tests_cant": "the linked library is outside the tests; all systems of all sizes", "anchors": ["include/lalib/solver/tri_diag.hpp: TriDiag::solve_linear", "include/lalib/solver/cholesky_factorization.hpp: DynCholeskyFactorization", "include/lalib/solver/lapack/gtsv.hpp", "include/lalib/solver/lapack/potr.hpp"]}
{"id": "C60", "title": "Inner products are accurate in rounded arithmetic, in every summation order", "statement": "The code computes with operators that each return the exact real result up to a relative error u (IEEE arithmetic without overflow and underflow); gamma k = (1-u)^-k - 1 <= k u/(1-k u). For vectors of length n >= 1 the inner product returned is the exact inner product of y with a vector x' that differs from x in each entry by at most gamma n relative, so its error is at most gamma n times sum |x_i||y_i|. Under the OpenMP reduction, whatever tree the partial sums are added in and however many zero partial sums there are, the error is at most gamma(depth+1) times the same sum.", "quantifier": "every pair of vectors of equal length, every u < 1, every reduction tree", "why_tests_cant": "rounding errors of every input and every summation order; a test compares a few values with a tolerance", "anchors": ["include/lalib/ops/vec_ops.hpp: dot", "include/lalib/vec/dyn_vec.hpp: DynVec::dot"]}
{"id": "C61", "title": "Norms are accurate to high relative accuracy in rounded arithmetic", "statement": "The code computes with operators that each return the exact real result up to a relative error u (IEEE arithmetic without overflow and underflow); gamma k = (1-u)^-k - 1 <= k u/(1-k u). norm2 of a vector of length n returns a non-negative number whose relative error is at most gamma(n+2), and at most gamma(depth+2) when the squares are summed along any reduction tree of that depth.", "quantifier": "every vector, every u < 1, every reduction tree", "why_tests_cant": "rounding errors of every input and every summation order", "anchors": ["include/lalib/vec/dyn_vec.hpp: norm2", "include/lalib/vec/sized_vec.hpp: norm2"]}
{"id": "C62", "title": "Matrix products are accurate entry by entry in rounded arithmetic", "statement": "The code computes with operators that each return the exact real result up to a relative error u (IEEE arithmetic without overflow and underflow); gamma k = (1-u)^-k - 1 <= k u/(1-k u). Every entry of alpha A x + beta y, of A x, of alpha A B + beta C and of A B differs from its exact value by at most gamma(m+2) times |alpha| |A||x| + |beta||y| (|A||B| for matrices), with m the inner dimension; also in place.", "quantifier": "every shape, all entries, alpha, beta, every u < 1", "why_tests_cant": "rounding errors of every input", "anchors": ["include/lalib/ops/mat_vec_ops.hpp: mul", "include/lalib/ops/mat_mat_ops.hpp: mul"]}
{"id": "C63", "title": "Back substitution is backward stable", "statement": "The code computes with operators that each return the exact real result up to a relative error u (IEEE arithmetic without overflow and underflow); gamma k = (1-u)^-k - 1 <= k u/(1-k u). Back substitution with an upper triangular matrix U whose diagonal has no zero returns the exact solution of a system (U')x = y in which every entry of U' is within gamma n relative of the entry of U.", "quantifier": "every order, every upper triangular matrix and right-hand side, every u < 1", "why_tests_cant": "rounding errors of every input, every conditioning", "anchors": ["include/lalib/mat/dyn_mat.hpp: DynUpperTriMat::back_sub"]}
{"id": "C64", "title": "Cholesky factorisation and solve are backward stable, without growth", "statement": "The code computes with operators that each return the exact real result up to a relative error u (IEEE arithmetic without overflow and underflow); gamma k = (1-u)^-k - 1 <= k u/(1-k u). When the Cholesky constructor (square or packed) returns with positive diagonal, L L^T is within gamma(n+1)|L||L^T| of A entry by entry; each of the four solve forms returns x with A'x = b exactly, |A'-A| <= gamma(3n+1)|L||L^T|, and (|L||L^T|)_ij <= sqrt(a_ii a_jj)/(1-gamma(n+1)). With any factor whose diagonal has no zero the solve itself costs gamma(2n).", "quantifier": "every order, every symmetric matrix, every right-hand side, vector or matrix, in place or not, every u < 1", "why_tests_cant": "rounding errors of every input, every conditioning", "anchors": ["include/lalib/solver/cholesky_factorization.hpp", "include/lalib/solver/internal/cholesky_decomposition.hpp"]}
{"id": "C65", "title": "The modified Cholesky factorisation and solve are backward stable relative to their factors", "statement": "The code computes with operators that each return the exact real result up to a relative error u (IEEE arithmetic without overflow and underflow); gamma k = (1-u)^-k - 1 <= k u/(1-k u). When the modified constructor returns, the diagonal of its factor has no zero and (L D^-1) L^T is within gamma(n+1)|L D^-1||L^T| of A; each of the four solve forms returns x with A'x = b exactly and |A'-A| <= gamma(3n+2)|L D^-1||L^T|.", "quantifier": "every order, every symmetric matrix (also indefinite), every right-hand side, every u < 1", "why_tests_cant": "rounding errors of every input", "anchors": ["include/lalib/solver/cholesky_factorization.hpp: DynModCholeskyFactorization", "include/lalib/solver/internal/cholesky_decomposition.hpp"]}
{"id": "C66", "title": "ILU(0) reproduces the matrix on its pattern up to rounding, and its solves are backward stable", "statement": "The code computes with operators that each return the exact real result up to a relative error u (IEEE arithmetic without overflow and underflow); gamma k = (1-u)^-k - 1 <= k u/(1-k u). When the constructor returns, the factors hold nothing outside the positions of the non-zero entries of A, and at those positions |A - L U| <= gamma n |L||U|; applying the preconditioner returns the exact solution for a matrix within gamma(2n)|L||U| of L U. Dense and compressed-row storage.", "quantifier": "every order, every matrix, every right-hand side, every u < 1", "why_tests_cant": "rounding errors and sparsity patterns of every input", "anchors": ["include/lalib/solver/ilu.hpp"]}
{"id": "C67", "title": "The tridiagonal solver on a diagonally dominant matrix is stable whatever the order", "statement": "The code computes with operators that each return the exact real result up to a relative error u (IEEE arithmetic without overflow and underflow); gamma k = (1-u)^-k - 1 <= k u/(1-k u). If each row satisfies sum_{j<>i}|a_ij| < (1-u)^2 |a_ii|, no pivot is zero and the result is the exact solution for a tridiagonal matrix each entry of which is within gamma 11 relative of the given one, independently of n.", "quantifier": "every order 2 <= n <= 2^31, every such matrix and right-hand side, every u < 1", "why_tests_cant": "rounding errors accumulate over unbounded n", "anchors": ["include/lalib/solver/tri_diag.hpp: TriDiag::solve_linear", "include/lalib/solver/internal/tdma.hpp"]}
{"id": "C68", "title": "Sparse matrix-vector products are accurate row by row in rounded arithmetic", "statement": "The code computes with operators that each return the exact real result up to a relative error u (IEEE arithmetic without overflow and underflow); gamma k = (1-u)^-k - 1 <= k u/(1-k u). Entry i of alpha A x + beta y (y not x) and of A x, with A in compressed-row form and no position stored twice, differs from the exact value by at most gamma(k_i+2) times |alpha||A||x| + |beta||y|, where k_i is the number of stored entries of row i only.", "quantifier": "every compressed-row matrix, every vectors and scalars, every u < 1", "why_tests_cant": "rounding errors and patterns of every input", "anchors": ["include/lalib/ops/mat_vec_ops.hpp: mul(SpMat)", "include/lalib/ops/mat_vec_ops_core.hpp: _sp_mul_core"]}
{"id": "C69", "title": "Element-wise operations, quotients and cross products commit one or two roundings", "statement": "The code computes with operators that each return the exact real result up to a relative error u (IEEE arithmetic without overflow and underflow); gamma k = (1-u)^-k - 1 <= k u/(1-k u). v+w, v-w, alpha v: one rounding per entry; -v exact; axpy: gamma 2 (|alpha x_i|+|y_i|); v/alpha, although computed as (1/alpha) v, is within gamma 2 relative of the quotient; the entries of a cross product are within gamma 2 of the sum of the magnitudes of their two products.", "quantifier": "every vector, every scalar, every u < 1", "why_tests_cant": "rounding errors of every input", "anchors": ["include/lalib/ops/vec_ops.hpp", "include/lalib/ops/vec_ops.hpp: cross"]}
{"id": "C70", "title": "Cholesky factorisation of a sufficiently definite matrix always succeeds in rounded arithmetic", "statement": "The code computes with operators that each return the exact real result up to a relative error u (IEEE arithmetic without overflow and underflow); gamma k = (1-u)^-k - 1 <= k u/(1-k u). If gamma(n+1) < 1 and x^T A x > n gamma(n+1)/(1-gamma(n+1)) sum a_ii x_i^2 for every x <> 0, the constructor (square or packed) returns without throwing, with positive diagonal, and solving then returns x with A'x = b exactly and |a'_ij - a_ij| <= gamma(3n+1) sqrt(a_ii a_jj)/(1-gamma(n+1)). With u = 0 the hypothesis is positive definiteness.", "quantifier": "every order, every such symmetric matrix, every right-hand side, every u < 1", "why_tests_cant": "whether rounding makes a pivot non-positive depends on every input and every order", "anchors": ["include/lalib/solver/cholesky_factorization.hpp", "include/lalib/solver/internal/cholesky_decomposition.hpp"]}
{"id": "C71", "title": "Compressed-row matrices can only be built from consistent arrays, and read what was put in", "statement": "Building a sparse matrix from value, row-pointer and column arrays throws when the arrays cannot describe a matrix, and otherwise element (i,j) reads as the first value of row i whose column is j (zero if there is none), and the shape is the number of rows and the largest column plus one.", "quantifier": "every three arrays", "why_tests_cant": "every combination of arrays, including inconsistent ones", "anchors": ["include/lalib/mat/sp_mat.hpp: SpMat", "include/lalib/mat/sp_mat.hpp: operator(), shape"]}
{"id": "C72", "title": "Vector operations mean the same with and without BLAS", "statement": "For every operand length the library accepts, axpy, scaling, quotients, dot product, Euclidean norm and matrix scaling built on a CBLAS have the same outcome, result and effect on memory as the built-in kernels.", "quantifier": "every vector and scalar over any commutative ring, every CBLAS that meets the reference documentation", "why_tests_cant": "the library behind the calls and vectors of 2^31 elements cannot be enumerated", "anchors": ["include/lalib/ops/vec_ops_core.hpp: axpy_core, dot_core, scal_core, norm2_core", "include/lalib/ops/vec_ops.hpp", "include/lalib/vec/dyn_vec.hpp: dot, norm2", "include/lalib/ops/mat_ops.hpp"]}
{"id": "C73", "title": "Gram-Schmidt and GMRES mean the same with and without BLAS", "statement": "For every order n with 0 < n < 2^31, orthogonalisation and GMRES (dense and sparse) built on a CBLAS have the same outcome, result and effect on memory as with the built-in kernels; hence GMRES with BLAS returns a vector whose preconditioned residual is below the tolerance.", "quantifier": "every set of distinct vectors, every matrix, right-hand side and tolerance, every CBLAS that meets the reference documentation", "why_tests_cant": "hundreds of calls per solve into a library that can be exchanged", "anchors": ["include/lalib/ops/orthogonal.hpp", "include/lalib/solver/gmres.hpp", "include/lalib/ops/vec_ops_core.hpp"]}
{"id": "C74", "title": "Incomplete factorisation and GMRES never fail on generalised diagonally dominant matrices", "statement": "If positive weights d exist with sum_{j<>i} |a_ij| d_j < |a_ii| d_i in every row (d = 1: strict diagonal dominance), ILU(0) is accepted, dense or sparse, with no zero pivot, and its upper factor is dominant with the same weights; GMRES then accepts the matrix and for every nonzero right-hand side and positive tolerance returns a vector whose preconditioned residual is below it.", "quantifier": "every order, every such matrix, every pattern, every nonzero right-hand side, every positive tolerance (over the reals)", "why_tests_cant": "infinitely many matrices and patterns; no test shows that a pivot can never vanish", "anchors": ["include/lalib/solver/ilu.hpp", "include/lalib/solver/gmres.hpp"]}
{"id": "C75", "title": "GMRES always returns a vector, whatever the arithmetic does", "statement": "For every square matrix, right-hand side of matching length and tolerance, in any arithmetic (binary64 with infinities, NaN and overflow included), constructing the solver either throws runtime_error or succeeds, and then solving ends after at most n steps, returns a new vector of n entries, throws nothing, touches no memory outside its own and leaves the matrix and the right-hand side unchanged.", "quantifier": "every arithmetic, every order, matrix (dense or compressed rows), right-hand side and tolerance", "why_tests_cant": "overflow, NaN and exact breakdown in every order of events cannot be enumerated", "anchors": ["include/lalib/solver/gmres.hpp: Gmres::solve, arnoldi, givens_rot", "include/lalib/solver/ilu.hpp"]}
{"id": "C76", "title": "Dot products and norms in IEEE arithmetic: a finite result is accurate, and it is finite unless it is too large", "statement": "In an IEEE format (unit roundoff u, smallest-number error eta, largest number omega; binary64 and binary32 with all infinities, NaN and subnormals), for every input: if the returned dot product is finite, every entry of both vectors was finite and the error is at most gamma(n) |x|.|y| plus n eta(1+gamma n); the norm likewise within gamma(n+2) relative plus (1+gamma 1) sqrt(n eta (1+gamma(n+1))). Conversely finite vectors with (|x|.|y| + n eta)(1+gamma n) <= omega (for the norm |x|^2 in place of |x|.|y|) give a finite result.", "quantifier": "every vectors of finite, infinite or NaN entries, every length below 2^32, every IEEE format", "why_tests_cant": "overflow and underflow depend on every input; NaN may be lost on the way", "anchors": ["include/lalib/vec/dyn_vec.hpp: dot, norm2", "include/lalib/ops/vec_ops_core.hpp: dot_core, norm2_core"]}
{"id": "C77", "title": "Matrix products in IEEE arithmetic: finite entries are accurate, entries are finite unless too large", "statement": "In an IEEE format (unit roundoff u, smallest-number error eta, largest number omega; binary64 and binary32 with all infinities, NaN and subnormals), for every input: every entry of alpha A x + beta y, A x, alpha A B + beta C, A B (also in place) and of the compressed-row products that is finite comes from finite operands only and is within gamma(m+2) of |alpha||A||x| + |beta||y| plus a multiple of eta; entries are finite whenever that bound stays below omega. beta = 0 does not overwrite: an infinite or NaN y makes the result non-finite.", "quantifier": "every shape, every entries including infinities and NaN, every IEEE format", "why_tests_cant": "overflow, underflow and NaN of every input", "anchors": ["include/lalib/ops/mat_vec_ops.hpp: mul", "include/lalib/ops/mat_mat_ops.hpp: mul", "include/lalib/ops/mat_vec_ops_core.hpp: _sp_mul_core"]}
{"id": "C78", "title": "Element-wise operations in IEEE arithmetic commit one or two roundings and lose no NaN", "statement": "In an IEEE format (unit roundoff u, smallest-number error eta, largest number omega; binary64 and binary32 with all infinities, NaN and subnormals), for every input: v+w, v-w: one rounding per entry, no underflow error; -v exact; alpha v: one rounding and eta; axpy, v/alpha (finite alpha) and the cross product: gamma 2 and a multiple of eta; each finite result comes from finite operands only, and each result is finite when the exact one is clearly below omega (for v/alpha: when also 1/alpha is).", "quantifier": "every vector and scalar including infinities and NaN, every IEEE format", "why_tests_cant": "overflow, underflow and NaN of every input", "anchors": ["include/lalib/ops/vec_ops.hpp", "include/lalib/ops/vec_ops.hpp: cross"]}
{"id": "C79", "title": "Back substitution in IEEE arithmetic: a finite result is a backward stable solution", "statement": "In an IEEE format (unit roundoff u, smallest-number error eta, largest number omega; binary64 and binary32 with all infinities, NaN and subnormals), for every input: if the diagonal of U is finite and the returned vector is finite, then U and the right-hand side were finite, no diagonal entry is zero, and the result solves exactly a system with every entry of U within gamma n relative and right-hand side entry i within (n+|u_ii|) eta (1+gamma n).", "quantifier": "every order, every U and right-hand side including infinities and NaN, every IEEE format", "why_tests_cant": "overflow, underflow, division by zero of every input", "anchors": ["include/lalib/mat/dyn_mat.hpp: DynUpperTriMat::back_sub"]}
{"id": "C80", "title": "Cholesky in IEEE arithmetic: finite results are backward stable", "statement": "In an IEEE format (unit roundoff u, smallest-number error eta, largest number omega; binary64 and binary32 with all infinities, NaN and subnormals), for every input: if the constructor (square or packed) returns and the diagonal of the factor is finite and positive, then the matrix read and the whole factor are finite and L L^T is within gamma(n+1)|L||L^T| plus (n+l) eta(1+gamma(n+1)) of A; any solve (vector or matrix, in place or not) whose result is finite solves A'x = b+e exactly with |A'-A| <= gamma(3n+1)|L||L^T| plus underflow terms, and |e| a multiple of eta given explicitly. With any factor of finite diagonal the solve itself costs gamma(2n).", "quantifier": "every order, every matrix and right-hand side including infinities and NaN, every IEEE format", "why_tests_cant": "overflow, underflow, NaN of every input", "anchors": ["include/lalib/solver/cholesky_factorization.hpp", "include/lalib/solver/internal/cholesky_decomposition.hpp"]}
{"id": "C81", "title": "ILU(0) in IEEE arithmetic: finite results are backward stable", "statement": "In an IEEE format (unit roundoff u, smallest-number error eta, largest number omega; binary64 and binary32 with all infinities, NaN and subnormals), for every input: if the factors are finite they keep the zeros of A in place, A is finite elsewhere and |A - L U| <= gamma n |L||U| plus (n+|u_jj|) eta (1+gamma n) at the positions of nonzeros; applying the preconditioner with finite diagonal, a finite result comes from finite factors and right-hand side, no zero pivot, and solves a system within gamma(2n)|L||U| of L U with a right-hand side off by an explicit multiple of eta. Dense and compressed rows.", "quantifier": "every order, every matrix and right-hand side including infinities and NaN, every IEEE format", "why_tests_cant": "overflow, underflow, NaN of every input", "anchors": ["include/lalib/solver/ilu.hpp"]}
{"id": "C82", "title": "Finite data whose exact answer is an ordinary number give that answer", "statement": "In binary64, norms, quotients, linear solves and factorisations of finite data whose exact results are representable return finite results near them, and data that cannot be factorised are reported.", "quantifier": "every finite vector, matrix and right-hand side", "why_tests_cant": "intermediate overflow or underflow strikes inputs no test tries", "anchors": ["include/lalib/vec/dyn_vec.hpp: norm2", "include/lalib/ops/vec_ops.hpp: operator/", "include/lalib/solver/gmres.hpp", "include/lalib/solver/internal/tdma.hpp", "include/lalib/solver/internal/cholesky_decomposition.hpp"]}
{"id": "C83", "title": "The tridiagonal solver in IEEE arithmetic: dominant systems give finite, backward stable results", "statement": "In an IEEE format (unit roundoff u, smallest-number error eta, largest number omega; binary64 and binary32 with all infinities, NaN and subnormals), for every input: if the tridiagonal matrix is finite, every row is dominated by its diagonal entry with a margin of a few roundings and twice the diagonal does not overflow, then a finite result of the solve (vector or matrix right-hand side) solves exactly a tridiagonal system with every entry within gamma 11 relative plus (2|a_ii|+1) eta (1+gamma 11), right-hand side entry i off by at most (5|a_ii|+3) eta (1+gamma 11); and the result is finite whenever the right-hand side is finite and divided by the margins stays, with room for growth by (1+u)^(2n), below omega.", "quantifier": "every order, every such matrix, every right-hand side including infinities and NaN, every IEEE format", "why_tests_cant": "overflow and underflow of the pivots, quotients and results of every system", "anchors": ["include/lalib/solver/internal/tdma.hpp"]}
{"id": "C84", "title": "The square-root-free Cholesky factorisation in IEEE arithmetic: finite results are backward stable", "statement": "In an IEEE format (unit roundoff u, smallest-number error eta, largest number omega; binary64 and binary32 with all infinities, NaN and subnormals), for every input: if the constructor returns and the pivots are finite, then they are not zero, the lower triangle of the matrix and the whole factor are finite and L D^-1 L^T is within gamma(n+1)|L D^-1||L^T| plus sum_k (1+1/|d_k|) eta (1+gamma(n+1)) of A (read symmetrically), definite or not; any solve (vector or matrix, in place or not) whose result is finite had a finite right-hand side and solves A'x = b+e exactly with |A'-A| <= gamma(3n+2)|L D^-1||L^T| plus underflow terms, |e| an explicit multiple of eta.", "quantifier": "every order, every matrix and right-hand side including infinities and NaN, every IEEE format", "why_tests_cant": "overflow, underflow, NaN of every input", "anchors": ["include/lalib/solver/cholesky_factorization.hpp", "include/lalib/solver/internal/cholesky_decomposition.hpp"]}
{"id": "C85", "title": "Iterating over a vector or matrix visits every element once, in order", "statement": "A range-for over a vector runs its body once per element in index order and stops, whatever the length and whatever the body does to other objects; a reading loop leaves memory unchanged and folds over the elements; x = g(x) through the loop variable changes exactly the elements, each to its image; std::copy between begin/end of two vectors copies the elements and leaves the rest; *(begin+i) is v[i], end-begin is the size, begin equals end only for empty vectors, and using the end iterator is undefined. A matrix is visited row by row from left to right: element number k of an n x m matrix is (k / m, k mod m).", "quantifier": "every length and shape, every loop body that keeps the length, every element type, every memory", "why_tests_cant": "order, count and stopping for every length, bodies with effects", "anchors": ["include/lalib/vec/dyn_vec.hpp: DynVec::begin, end", "include/lalib/vec/sized_vec.hpp: SizedVec::begin, end", "include/lalib/mat/dyn_mat.hpp: DynMat::begin, end", "include/lalib/mat/sized_mat.hpp: SizedMat::begin, end"]}
{"id": "C86", "title": "Building with LALIB_USE_ACCELERATOR does not change the results of + and -", "statement": "With the accelerator option, addition and subtraction of vectors and matrices have the same outcome as without it, on every device.", "quantifier": "every device (shared or own memory, anything mapped), every vector and matrix, every length", "why_tests_cant": "tests run on one machine, usually without a device", "anchors": ["include/lalib/ops/vec_ops_core.hpp: add_core, sub_core", "cmake/backend.cmake", "include/lalib/ops/vec_ops.hpp", "include/lalib/ops/mat_mat_ops.hpp"]}
{"id": "C87", "title": "In IEEE arithmetic the Cholesky factorisation of a sufficiently definite matrix succeeds", "statement": "In an IEEE format (unit roundoff u, smallest-number error eta, largest number omega; binary64 and binary32 with all infinities, NaN and subnormals), for every input: if the lower triangle is finite, x^T A x exceeds n (g+theta)/(1-g) times what the diagonal alone gives (g = (1-u)^-(n+1) - 1, theta any allowance for underflow), the entries stay a factor of about three below overflow and the diagonal is large enough against the underflow threshold, then the constructor returns a factor: it does not throw, every entry is finite, the diagonal is positive, L L^T is A up to rounding and underflow, |L||L|^T is at most twice sqrt(a_ii a_jj); and a finite result of a solve solves a nearby system, with a bound in terms of the diagonal of A alone.", "quantifier": "every size n, every such matrix, square or packed, every IEEE format", "why_tests_cant": "no test covers every matrix; that no intermediate result overflows or turns NaN concerns every partial sum", "anchors": ["include/lalib/solver/cholesky_factorization.hpp", "include/lalib/solver/internal/cholesky_decomposition.hpp"]}
{"id": "C88", "title": "Contraction into fused multiply-adds keeps the rounding guarantees", "statement": "A compiler may compute any a*b+c or a*b-c of the library with a single rounding, in some places and not in others. Whatever it chooses, on numbers as input: dot products, norms, axpy, matrix-vector products, the Cholesky factorisation and its solves and the tridiagonal solver keep the error bounds, the finiteness guarantees and (Cholesky) the guarantee of success stated for uncontracted IEEE arithmetic. Identities that hold bit for bit without contraction may fail with it: v x v need not be zero, and the sum of a scaled vector and another need not be the rounded sum of the stored vectors.", "quantifier": "every choice of products to absorb, every input including infinities and NaN, every size, every binary IEEE format", "why_tests_cant": "a test sees the code of one compiler with one set of flags", "anchors": ["include/lalib/ops/vec_ops_core.hpp: dot_core, norm2_core, axpy_core", "include/lalib/ops/mat_vec_ops.hpp: mul", "include/lalib/solver/internal/cholesky_decomposition.hpp", "include/lalib/solver/internal/tdma.hpp", "include/lalib/ops/vec_ops.hpp: cross"]}
{"id": "C89", "title": "The library treats every element type the same way", "statement": "Take two element types related so that zero and one correspond, every operator (+, -, *, /, unary -, sqrt, pow, abs) keeps the correspondence and == and < give the same answers. Then every operation, called on corresponding arguments, ends the same way on both types: the same result shape, exception, abort, undefined behaviour or non-termination, with corresponding elements in the same places. So a map that preserves the operators and comparisons may be applied before or after any call; and numbers that carry something along (operation counters, names, error estimates) give exactly the values of plain numbers.", "quantifier": "every pair of element types and every such relation, every memory, every argument, for each operation without BLAS", "why_tests_cant": "quantifies over element types, including ones that users define", "anchors": ["include/lalib/vec/", "include/lalib/mat/", "include/lalib/ops/", "include/lalib/solver/"]}
{"id": "C90", "title": "Integer data are computed exactly, in any order of summation", "statement": "If the entries are integers and the absolute values of the products that make up each result entry sum to at most 2^53 (binary64; 2^24 for binary32; the largest value of a signed integer type), then dot products, sums, differences, negation, multiples, axpy, cross products, matrix-vector and matrix-matrix products with alpha and beta and as operators, matrix sums and multiples and sparse products return exactly the integer result; a norm is exact when the sum of squares is a square. This holds for every order in which a reduction adds, and with or without fused multiply-adds, so all builds agree. Back substitution returns x for the right-hand side U x; the Cholesky constructor finds M, without throwing, for a matrix M M^T with an integer lower triangular M that is positive on the diagonal, and solving M M^T x gives x. For signed integers the same bound excludes overflow. v / alpha is not covered: it multiplies by the reciprocal, and 49 / 49 is not 1.", "quantifier": "every size, all such integers, every order of summation, every contraction, every binary format with more than one bit of precision", "why_tests_cant": "concerns every partial sum of every evaluation order and every element format; tests compare a few integers on one build", "anchors": ["include/lalib/ops/vec_ops_core.hpp: dot_core, norm2_core, axpy_core", "include/lalib/ops/vec_ops.hpp", "include/lalib/ops/mat_vec_ops.hpp: mul", "include/lalib/ops/mat_mat_ops.hpp: mul", "include/lalib/ops/sp_mat_ops.hpp: mul", "include/lalib/solver/cholesky_factorization.hpp", "include/lalib/mat/dyn_mat.hpp: DynUpperTriMat::back_sub"]}
{"id": "C91", "title": "Calls that do not write to each other's arguments may be made in any order", "statement": "If neither of two calls writes to an object the other one is given, then making them in the one order or the other gives the same results and leaves the same elements in every object, those that existed before and those the calls created. A call made after any number of calls it does not conflict with ends exactly as it would have ended before them (same result, exception or abort). A batch of calls, no two in conflict and each returning on its own, returns in every order, with each destination holding what its call alone puts there and everything else unchanged. Reading the same operand in several calls is no conflict; two calls that write to the same vector do not commute in general.", "quantifier": "every pair and every batch of the operations on vectors, dense matrices, the solvers and Gram-Schmidt, every memory, every permutation, any element type", "why_tests_cant": "quantifies over all pairs of operations, all batches and all permutations; hidden shared state would show only for particular pairs", "anchors": ["include/lalib/ops/vec_ops.hpp", "include/lalib/ops/mat_vec_ops.hpp", "include/lalib/ops/mat_mat_ops.hpp", "include/lalib/ops/mat_ops.hpp", "include/lalib/solver/tri_diag.hpp", "include/lalib/solver/cholesky_factorization.hpp", "include/lalib/solver/ilu.hpp", "include/lalib/solver/gmres.hpp", "include/lalib/ops/orthogonal.hpp"]}
{"id": "C92", "title": "The units of the data do not matter", "statement": "Let the data of a call be given in other units: every vector entry i multiplied by c^p(i), every matrix entry (i,j) by c^(r(i)+c(j)) and so on, only quantities of the same unit being added. Then the call ends in the same way and its results are the same quantities in the other units. This holds for dot products, norms, the vector and matrix operators, axpy, cross, matrix-vector, matrix-matrix and sparse products, back substitution, the tridiagonal solver (rows and columns rescaled), Gram-Schmidt, both Cholesky factorisations (A becomes DAD: the same matrices are accepted), ILU (rows and columns rescaled independently), every form of solving with them, and GMRES (equations rescaled individually, the unknowns by a common unit, the tolerance being in the unit of the unknowns). It holds for real numbers with any c > 0; with a fixed number of digits, for c a power of the base, in every digit; and in binary64, for powers of two, in every bit for calls that return in both units without an overflow or underflow. With underflow, or with c = 3, results differ by rounding errors.", "quantifier": "every size, every choice of units, every memory, real numbers and every precision, base and rounding mode", "why_tests_cant": "an absolute threshold in a pivot or stopping test works for the data of a test and fails for the same data in other units; quantifies over all scalings", "anchors": ["include/lalib/ops/vec_ops_core.hpp", "include/lalib/ops/vec_ops.hpp", "include/lalib/ops/mat_vec_ops.hpp", "include/lalib/ops/mat_mat_ops.hpp", "include/lalib/ops/mat_ops.hpp", "include/lalib/ops/sp_mat_ops.hpp", "include/lalib/ops/orthogonal.hpp", "include/lalib/mat/dyn_mat.hpp: DynUpperTriMat::back_sub", "include/lalib/solver/tri_diag.hpp", "include/lalib/solver/internal/tdma.hpp", "include/lalib/solver/cholesky_factorization.hpp", "include/lalib/solver/ilu.hpp", "include/lalib/solver/gmres.hpp"]}
{"id": "C93", "title": "Computed solutions have small residuals, and errors bounded by the conditioning of the system", "statement": "In an IEEE format (unit roundoff u, smallest-number error eta, largest number omega; binary64 and binary32 with all infinities, NaN and subnormals), for every input: a finite result xh of back substitution, the tridiagonal solver (dominant matrices), a solve with either Cholesky factorisation (vector or matrix, in place or not) or with ILU factors leaves in every row a residual of at most W|xh| + E, W and E explicit: a number of roundings proportional to the order times |R|, |A|, |L||L^T|, |L D^-1||L^T| or |L||U|, and underflow terms. The error xh - x is therefore at most |B| (W|xh| + E) for any left inverse B of A, max-norm slack over mu for rows dominated by mu, and the 2-norm of the slack over lambda if v^T A v >= lambda v^T v; and, if W is small against the inverse, (kappa max|x| + eps)/(1-kappa) in terms of the exact solution (likewise by dominance and definiteness). For sufficiently definite matrices W is bounded by the diagonal of A.", "quantifier": "every order, every matrix and right-hand side for which the result is finite, every left inverse, margin and lower bound, every IEEE format, any contraction into fused multiply-adds", "why_tests_cant": "tests compare a few solutions with a tolerance; the bound must hold for every system in terms of its conditioning", "anchors": ["include/lalib/mat/dyn_mat.hpp: DynUpperTriMat::back_sub", "include/lalib/solver/internal/tdma.hpp", "include/lalib/solver/cholesky_factorization.hpp", "include/lalib/solver/internal/cholesky_decomposition.hpp", "include/lalib/solver/ilu.hpp"]}
{"id": "C94", "title": "Vectors and matrices of complex numbers follow complex arithmetic, and LAPACK Cholesky solves Hermitian systems", "statement": "With std::complex elements (DynVecZ, DynMatZ, VecC, ...) the sum, difference, negative and multiple of vectors and matrices, axpy, and the products alpha*A*x + beta*y and alpha*A*B + beta*C are those of complex arithmetic, by real and imaginary parts, and touch only their destination. With the LAPACK backend DynCholeskyFactorization of a Hermitian positive definite matrix succeeds, every form of solve_linear returns the one solution of the original system, and a matrix whose lower triangle does not give a positive definite Hermitian matrix is rejected by an exception.", "quantifier": "all sizes, all complex vectors, matrices and scalars; all Hermitian positive definite matrices (and all others, for the rejection); all right-hand sides, vectors or matrices, in place or not", "why_tests_cant": "every test of the repository uses double; a test of complex elements would show single products, not that the real formulas carry over for all of them", "anchors": ["include/lalib/vec.hpp: DynVecC, DynVecZ", "include/lalib/mat.hpp: DynMatC, DynMatZ", "include/lalib/ops/vec_ops_core.hpp: axpy_core<std::complex<T>>", "include/lalib/solver/lapack/potr.hpp: potrf<std::complex<T>>, potrs<std::complex<T>>", "include/lalib/solver/cholesky_factorization.hpp: DynCholeskyFactorization"]}
{"id": "C95", "title": "For complex elements norm2 is the Euclidean norm and a Hermite matrix is Hermitian", "statement": "norm2() of a vector of complex numbers is its Euclidean norm, so it is zero only for the zero vector; reading a Hermite matrix of complex numbers at (j,i) gives the conjugate of what is read at (i,j).", "quantifier": "all complex vectors; all complex Hermite matrices and index pairs", "why_tests_cant": "for real elements both hold, and only real elements are tested", "anchors": ["include/lalib/vec/dyn_vec.hpp: norm2", "include/lalib/ops/vec_ops_core.hpp: norm2_core", "include/lalib/mat/dyn_mat.hpp: DynHermiteMat", "include/lalib/mat/sized_mat.hpp: SizedHermiteMat"]}
{"id": "C96", "title": "Changing signs of the data changes signs of the results and nothing else", "statement": "In IEEE arithmetic: negating entries of the data in such a way that every sum keeps its terms up to a common sign negates results and changes no other bit (the sign of a zero apart). So -b for b negates the solution of every solver; negating equation i and unknown j leaves the other unknowns as they were and negates unknown j; a matrix with the signs d(i)d(j) is factorised or rejected like the original and the factor has the same signs; norms are equal to the bit; GMRES makes the same number of steps. Infinities and NaNs included. A solution that is finite has been computed without a division by zero; where a divisor is zero (a singular matrix) the claim does not hold.", "quantifier": "every size, every choice of signs, every memory, all data including infinities and NaNs, every binary format, GMRES, Cholesky (both storages), root-free Cholesky, incomplete LU (dense and sparse), the tridiagonal solver, dot products, norms, products", "why_tests_cant": "concerns all data and all choices of signs, exactly; a fabs or a comparison in the wrong place shows for some signs only", "anchors": ["include/lalib/ops/vec_ops_core.hpp", "include/lalib/ops/mat_vec_ops.hpp", "include/lalib/solver/internal/cholesky_decomposition.hpp", "include/lalib/solver/cholesky_factorization.hpp", "include/lalib/solver/ilu.hpp", "include/lalib/solver/gmres.hpp", "include/lalib/solver/internal/tdma.hpp"]}
{"id": "C97", "title": "GMRES takes no more steps than the quality of the preconditioner requires", "statement": "Let M = LU be the incomplete factors of A. (1) If some multiple of M^-1 A brings every vector closer to zero by a factor rho (for instance the norm of I - M^-1 A is at most rho, or M^-1 A has a symmetric part of at least c and a norm of at most C, rho^2 = 1 - c^2/C^2), then the result reached after k steps has a preconditioned residual of at most rho^k times the initial one, and the solver stops at the first m with rho^m |M^-1 b| < tol, or earlier. (2) If fill-in is dropped in r rows only, it stops after at most r + 1 steps. (3) If none is dropped, the result is the exact solution of the system. The result is in every case the best of its step, and no earlier step would have met the tolerance. Exact arithmetic.", "quantifier": "every order, every nonsingular matrix whose incomplete factorisation exists, every right-hand side and positive tolerance, every rho, every set of rows, dense and sparse", "why_tests_cant": "a test shows the number of steps or the accuracy of one system; a mistake in the preconditioner, the basis or the stopping test costs steps without making the result wrong", "anchors": ["include/lalib/solver/gmres.hpp: Gmres::solve, _arnoldi, _givens_rot", "include/lalib/solver/ilu.hpp: Ilu"]}
{"id": "C98", "title": "ILU and GMRES accept every matrix that is dominant by a margin, also in rounded arithmetic", "statement": "Let every operation have a relative error of at most u, and let A be row dominant with some positive weights d by the margin (1-u)^(2n): the weighted sum of the off-diagonal |a_ij| d_j is below (1-u)^(2n) |a_ii| d_i. Then the ILU constructor, dense or sparse, whatever the pattern, does not throw; no diagonal element of U is zero, each row of U is dominated by its diagonal, and the weighted row sums of |L||U| are at most 2(n+1)/(1-u)^n times |a_ii| d_i. GMRES is constructed and its solve returns a vector. If the pattern is closed under elimination (nothing is dropped), solve of the preconditioner is a stable direct solver: the result solves a system whose matrix differs from A in each weighted row sum by at most eps |a_ii| d_i, eps = ((1-u)^(-3n) - 1) 2(n+1)/(1-u)^n, so that its error in the weighted maximum norm is at most eps/(1-theta) times the result, theta the dominance ratio. The matrices of the one-dimensional Laplacian are covered for n(n+1)^2 u < 2. Without the margin the claim is false: a dominant matrix is rejected in binary64.", "quantifier": "every order, every matrix with such weights, every pattern, every right-hand side, every arithmetic with relative errors of at most u (no underflow or overflow)", "why_tests_cant": "whether a rounded pivot vanishes cannot be seen from tests: it concerns all matrices and all roundings, and the matrices that fail are rare", "anchors": ["include/lalib/solver/ilu.hpp: Ilu", "include/lalib/solver/gmres.hpp: Gmres"]}
{"id": "C99", "title": "Gram-Schmidt in rounded arithmetic: orthogonal as far as the vectors are independent", "statement": "Let every operation have a relative error of at most u. As long as no result has vanished, each given vector is the result of its step plus multiples of the earlier results, up to k roundings entry by entry, and the multiples are the projection coefficients up to 2n+1 roundings. If no vector is reduced to less than 1/K of its length, the cosines between the results are at most a number skew = O(u) that depends on u, n, m and K only. If the given vectors are independent by a margin sigma (each keeps at least the fraction sigma of its length against the span of the earlier ones) and sigma exceeds an explicit O(u), no result vanishes, the results are orthogonal in this sense, and each is the given vector minus a combination of the earlier ones up to an explicit O(u). Without the margin the results need not be orthogonal: in binary64 the vectors (1,e,0,0), (1,0,e,0), (1,0,0,e) with e = 2^-27 give two results at an angle of 60 degrees.", "quantifier": "every number and length of vectors, every family with the margin, every arithmetic with relative errors of at most u (no underflow or overflow)", "why_tests_cant": "tests check the orthogonality of a few well-conditioned vectors with a tolerance; how it depends on conditioning concerns all families", "anchors": ["include/lalib/ops/orthogonal.hpp: cgs"]}
{"id": "C100", "title": "In rounded arithmetic the estimate by which GMRES stops bounds the preconditioned residual", "statement": "Let every operation have a relative error of at most u, let no diagonal element of U be zero, b not zero and tol positive. Then solve, dense or sparse, returns a vector x and there are a number of steps k <= n, vectors q_j of nearly unit length, coefficients y_j and an estimate est with: x is the sum of the y_j q_j, up to k+2 roundings; v_j is M^-1 A q_j and p is M^-1 b in the backward sense (each solves exactly a system with LU changed by 2n roundings of |L||U|); |est| < tol, unless k = n; |est| is not larger than |p|, up to n+4k+2 roundings; and the norm of p - sum y_j v_j is at most sqrt(k+1) |est| up to n+4k+4 roundings, plus a multiple 2(k+1)^3 of 5n+10k+20 roundings of |p| + sum |y_j||v_j|. Nothing is assumed about the orthogonality of the computed basis. The residual b - A x is LU times that vector, up to 2n roundings of |L||U|(|p| + sum |y_j||v_j|) and w+k+2 roundings of |A| sum |y_j||q_j|, entry by entry. The only other outcome is that at some step the new v_m is a combination of the earlier v_j up to the same number of roundings, that is, M^-1 A is singular to working precision on the computed basis; at the first step this needs |A q_0| to vanish up to rounding, and for one equation it cannot happen. Matrices dominant by the margin of C98 are constructed and solved with one of these outcomes.", "quantifier": "every order, every matrix and factors without a zero pivot, every nonzero right-hand side, every positive tolerance, every arithmetic with relative errors of at most u (no underflow or overflow), dense and sparse (no position stored twice)", "why_tests_cant": "tests compare the solution of a few well-conditioned systems with a tolerance; whether the stopping estimate can be trusted when the basis has lost its orthogonality concerns all matrices and all roundings", "anchors": ["include/lalib/solver/gmres.hpp: Gmres::solve, _arnoldi, _givens_rot", "include/lalib/solver/ilu.hpp: Ilu::solve"]}
{"id": "C101", "title": "Parts of a result depend only on the parts of the data that determine them", "statement": "To the last bit, in any arithmetic: the leading block of a Cholesky factor (square or packed), of a root-free Cholesky factor and of incomplete LU factors (dense or sparse) is the factor of the leading block of the matrix, whatever the other rows and columns hold, and if the leading block is rejected by an exception so is the matrix; the first m vectors orthogonalised do not depend on the later ones; the last unknowns of back substitution depend on the trailing block only; an entry of a matrix-vector product depends on its row of the matrix only (NaN in another row does no harm); a column of a matrix-matrix product, and of a solve with many right-hand sides, is what the column alone gives.", "quantifier": "every order and block size, every matrix, right-hand side and memory, every element type", "why_tests_cant": "a stray index or a value used too early changes bits in a part of the result that a test compares with a tolerance, and a test cannot vary the rest of the data in all ways", "anchors": ["include/lalib/solver/internal/cholesky_decomposition.hpp", "include/lalib/solver/cholesky_factorization.hpp", "include/lalib/solver/ilu.hpp: Ilu", "include/lalib/ops/orthogonal.hpp: cgs", "include/lalib/mat/dyn_mat.hpp: DynUpperTriMat::back_sub", "include/lalib/ops/mat_vec_ops.hpp", "include/lalib/ops/mat_mat_ops.hpp", "include/lalib/ops/sp_mat_ops.hpp"]}
{"id": "C102", "title": "Factors and orthogonal bases are the canonical ones", "statement": "In exact arithmetic: if A = L L^T with L lower triangular and positive on the diagonal, the Cholesky constructors (square or packed) store that very L; if A = L D L^T with L unit lower triangular and D without zeros, the root-free one stores those factors (elements of any field); if L unit lower and U upper triangular have together the pattern of A and agree with A on the pattern, and no diagonal element of U is zero, these are the factors the ILU constructor stores, dense or sparse. The vectors cgs returns are the only orthogonal ones that differ from the given ones by combinations of earlier ones: orthogonal vectors come back unchanged, a second call changes nothing, and adding combinations of earlier vectors to the given ones does not change the result.", "quantifier": "every order, every factor or family of vectors as described, every memory", "why_tests_cant": "a factorisation test multiplies the computed factors; that a matrix built from given factors always returns those factors concerns all factors", "anchors": ["include/lalib/solver/internal/cholesky_decomposition.hpp", "include/lalib/solver/cholesky_factorization.hpp", "include/lalib/solver/ilu.hpp: Ilu", "include/lalib/ops/orthogonal.hpp: cgs"]}
{"id": "C103", "title": "The order in which the entries of a sparse matrix are listed does not matter", "statement": "If no position is listed twice, constructing a SpCooMat from the same entries in any order, with any sort routine that sorts, gives the same object, so conversion, reads, products, factors and GMRES give the same bits. A SpCooMat without repeated positions is determined by the set of its entries; A + B and B + A are the same object if the sum of two elements does not depend on their order. (With a position listed twice the order decides which value is read.)", "quantifier": "every list of entries without repeated positions, every permutation of it, every sort routine, every element type, every later use", "why_tests_cant": "a test lists the entries in one order; a construction that forgets to move one of the three arrays, or relies on a stable sort, shows for some orders only", "anchors": ["include/lalib/mat/sp_mat.hpp: SpCooMat", "include/lalib/ops/sp_mat_ops.hpp"]}
{"id": "C104", "title": "Signs and order survive rounding: nonnegative data give nonnegative results, larger data no smaller ones", "statement": "In IEEE arithmetic (each operation rounded, underflow included), as far as results are finite. With alpha, beta and all entries nonnegative, alpha A x + beta y, dense or sparse, alpha A B + beta C and the inner product are nonnegative, and replacing entries by larger ones makes no entry of the result smaller. norm2 does not shrink when entries grow in magnitude, and is not smaller than the magnitude of any entry (in binary64, of entries of at least 2^-511; below that the norm can be 0). For matrices without positive entries off the diagonal the discrete maximum principle holds to the last bit: with a nonnegative right-hand side the computed solution is nonnegative and a larger right-hand side gives no smaller solution. This holds for back substitution with positive diagonal, for the tridiagonal solver (one or many right-hand sides) if row sums are not negative and positive without the entry right of the diagonal (the one-dimensional Laplacian included, no margin), for the Cholesky solvers, square or packed, whenever the computed factor has a finite positive diagonal, and for the ILU preconditioner, dense or sparse, whenever the computed factors are finite with a positive diagonal, which is always so for a tridiagonal matrix whose column sums are not negative and positive without the entry below the diagonal (again no margin); the computed factors have no positive entries off the diagonal either.", "quantifier": "every order, every matrix of the kinds named, every pair of right-hand sides or operands, every binary format rounding to nearest", "why_tests_cant": "concentrations, densities or probabilities that come out as -1e-17 appear for rare data and roundings only; a tolerance in a test hides them", "anchors": ["include/lalib/ops/mat_vec_ops.hpp", "include/lalib/ops/mat_mat_ops.hpp", "include/lalib/ops/sp_mat_ops.hpp", "include/lalib/vec/dyn_vec.hpp: dot, norm2", "include/lalib/solver/tri_diag.hpp: TriDiag::solve_linear", "include/lalib/solver/cholesky_factorization.hpp", "include/lalib/solver/ilu.hpp: Ilu", "include/lalib/mat/dyn_mat.hpp: DynUpperTriMat::back_sub"]}
{"id": "C105", "title": "Matrices with larger entries have smaller solutions, and are accepted whenever the original is, in rounded arithmetic", "statement": "In IEEE arithmetic, underflow and overflow included, for matrices without positive entries off the diagonal. Let A' be obtained from A by making entries larger (diagonal entries more positive, the others less negative or zero), and let 0 <= b' <= b. If the Cholesky constructor (square or packed) factors A with a finite positive diagonal, or the ILU constructor (dense or sparse, whatever the patterns) factors A with finite factors and a positive diagonal, then the constructor accepts A' too, the factors of A' are finite, and each of their entries is not smaller than that of the factors of A. If the computed solution x of the system with A and b is finite, so is the computed solution x' with A' and b', and 0 <= x' <= x in every component, to the last bit. The same holds for back substitution with positive diagonals and for the tridiagonal solver with the row sums of C104. So a computed solution bounds those of all such problems with larger matrices and smaller data.", "quantifier": "every order, every pair of such matrices and of right-hand sides, every memory, every binary format rounding to nearest", "why_tests_cant": "the ordering of two computed solutions concerns the rounding errors of both runs; a test with a tolerance cannot see that it is never violated, nor that no accepted matrix has a rejected neighbour", "anchors": ["include/lalib/solver/tri_diag.hpp: TriDiag::solve_linear", "include/lalib/solver/cholesky_factorization.hpp", "include/lalib/solver/ilu.hpp: Ilu", "include/lalib/mat/dyn_mat.hpp: DynUpperTriMat::back_sub"]}
{"id": "C106", "title": "A default-constructed object is an empty one", "statement": "A default-constructed DynVec, SpCooMat, SpMat or DynUpperTriMat is an empty object: its size, nnz() or shape() is zero, a read returns zero or is out of bounds as for any matrix of that shape, it can be the start of an accumulation (operator+=, extend_with) and it takes any value by assignment; reserve changes nothing.", "quantifier": "every element type, every position, every matrix added to or assigned to the object, both ways of default construction (T x; and T x{})", "why_tests_cant": "tests build their objects from data; an uninitialised size happens to be zero in a fresh process", "anchors": ["include/lalib/vec/dyn_vec.hpp: DynVec", "include/lalib/mat/sp_mat.hpp: SpCooMat, SpMat, reserve", "include/lalib/mat/dyn_mat.hpp: DynUpperTriMat"]}
{"id": "C107", "title": "Stored dense or sparse, a matrix gives the same results to the last bit", "statement": "Let a DynMat and an SpMat have the same shape and read the same element at every position, the columns of each row of the SpMat being listed in increasing order (as conversion from an SpCooMat without repeated positions gives). Then A * x, for x without infinities or NaNs, is the same vector to the last bit, and so is alpha A x + beta y for finite alpha and x if no element of beta y is a negative zero. The ILU constructors for the two types both throw or both succeed, their factors read the same at every position, and solving with them gives the same bits for every right-hand side. The Gmres constructors both throw or both succeed, and if either of the two solutions has only finite elements the other is the same to the last bit, after the same number of steps.", "quantifier": "every shape, every pattern, every pair of such matrices, every vector, tolerance and right-hand side, every arithmetic in which zero times a finite number added to a running sum changes nothing: any ring, every binary IEEE format", "why_tests_cant": "tests compare each storage with expected values within a tolerance; that skipped zeros, their signs and the order of summation never change a bit of an iterative solution is a statement about all patterns and all data", "anchors": ["include/lalib/mat/sp_mat.hpp: SpMat", "include/lalib/mat/dyn_mat.hpp: DynMat", "include/lalib/ops/mat_vec_ops.hpp: mul, operator*", "include/lalib/ops/sp_mat_ops.hpp", "include/lalib/solver/ilu.hpp: Ilu", "include/lalib/solver/gmres.hpp: Gmres"]}
{"id": "C108", "title": "The ILU preconditioner does not depend on the class that holds the matrix", "statement": "Ilu<T, M> compiles for every matrix class of the library. For each of them the constructor throws or succeeds as it does for a DynMat with the same elements, the factors read the same, and solve gives the same vector to the last bit.", "quantifier": "every matrix class (DynMat, SizedMat, SpMat, SpCooMat, tri-diagonal, Hessenberg, upper and lower triangular, Hermitian), every order, every matrix, every right-hand side, every element type", "why_tests_cant": "the tests instantiate two classes with one matrix each; which overload of operator() a template picks, and whether two positions share storage, matters only for the classes and orders not tried", "anchors": ["include/lalib/solver/ilu.hpp: Ilu, internal::_decomp_lu_inplace", "include/lalib/mat/sp_mat.hpp: SpCooMat", "include/lalib/mat/dyn_mat.hpp: DynTriDiagMat, HessenbergMat, DynUpperTriMat, DynLowerTriMat, DynHermiteMat", "include/lalib/mat/sized_mat.hpp: SizedTriDiagMat, SizedLowerTriMat, SizedHermiteMat"]}
