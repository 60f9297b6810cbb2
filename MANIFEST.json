{
 "claims": [
  {
   "property": "C01",
   "status": "proved",
   "theorems": [
    "C01_neg_dyn",
    "C01_neg_static",
    "C01_add_dyn",
    "C01_sub_dyn",
    "C01_add_static",
    "C01_sub_static",
    "C01_mixed",
    "C01_axpy_dyn",
    "C01_axpy_static",
    "C01_scale_dyn",
    "C01_scale_static",
    "C01_operators_dyn",
    "C01_operators_static"
   ],
   "note": "Any Ops instance (bit-exact), lengths below 2^32, arbitrary (possibly equal) pointers."
  },
  {
   "property": "C02",
   "status": "proved",
   "theorems": [
    "C02_add",
    "C02_sub",
    "C02_neg",
    "C02_axpy",
    "C02_scal",
    "C02_matvec_distinct",
    "C02_matvec_inplace"
   ],
   "note": "All interleavings of individual loads/stores of the element-wise kernels and of the rows of the dense matrix-vector kernel; the reduction loops are C05/C07, the sparse kernel is C55, the matrix-matrix kernel has no parallel loop."
  },
  {
   "property": "C03",
   "status": "proved",
   "theorems": [
    "C03_mismatch",
    "C03_operators",
    "C03_mixed",
    "C03_exactly"
   ],
   "note": ""
  },
  {
   "property": "C04",
   "status": "partial",
   "theorems": [
    "C04_mismatch_terminates",
    "C04_refuted"
   ],
   "note": "False as stated: these overloads are noexcept, every mismatch calls std::terminate. The actual behaviour is proved for all inputs."
  },
  {
   "property": "C05",
   "status": "proved",
   "theorems": [
    "C05_dot_exact_order",
    "C05_dot",
    "C05_dot_static",
    "C05_any_reduction_order",
    "C05_symmetric",
    "C05_bilinear",
    "C05_positive"
   ],
   "note": ""
  },
  {
   "property": "C06",
   "status": "partial",
   "theorems": [
    "C06_dot_empty_is_ub",
    "C06_refuted"
   ],
   "note": "False as stated: every dot overload reads element 0 of an empty buffer (undefined behaviour)."
  },
  {
   "property": "C07",
   "status": "proved",
   "theorems": [
    "C07_norm2",
    "C07_norm2_static",
    "C07_any_reduction_order",
    "C07_laws"
   ],
   "note": "Exact real arithmetic."
  },
  {
   "property": "C08",
   "status": "proved",
   "theorems": [
    "C08_cross3",
    "C08_cross3_fresh",
    "C08_cross3_acc",
    "C08_cross2",
    "C08_cross_algebra"
   ],
   "note": ""
  },
  {
   "property": "C09",
   "status": "partial",
   "theorems": [
    "C09_add_outcome_partial",
    "C09_sub_outcome_partial",
    "C09_refuted"
   ],
   "note": "False as stated: the destination size is never checked. Exact outcome proved for every triple of lengths."
  },
  {
   "property": "C10",
   "status": "partial",
   "theorems": [
    "C10_div_field",
    "C10_div_field_static",
    "C10_binary64_refuted"
   ],
   "note": "Exact in every field; refuted for binary64 (the code multiplies by the reciprocal)."
  },
  {
   "property": "C100",
   "status": "proved",
   "theorems": [
    "C100_dense",
    "C100_sparse",
    "C100_dominant",
    "C100_residual",
    "C100_first",
    "C100_one"
   ],
   "note": "The second outcome is part of the statement: it is not excluded for ill-conditioned systems of more than one equation. In the standard model of rounded arithmetic (Approx O u, SpecRound.v: each operation is exact up to relative error u; no overflow or underflow), met by 53-bit round-to-nearest with unbounded exponent (flx_approx) and by exact arithmetic."
  },
  {
   "property": "C101",
   "status": "proved",
   "theorems": [
    "C101_cgs",
    "C101_cholesky",
    "C101_cholesky_packed",
    "C101_modified",
    "C101_ilu",
    "C101_ilu_sparse",
    "C101_back_sub",
    "C101_matvec",
    "C101_matmat",
    "C101_spmv",
    "C101_cholesky_columns",
    "C101_modified_columns"
   ],
   "note": "Bit-exact, any element type; C101_matmat compares with the matrix-vector product and needs a commutative multiplication."
  },
  {
   "property": "C102",
   "status": "proved",
   "theorems": [
    "C102_cgs",
    "C102_cgs_fixed",
    "C102_cgs_twice",
    "C102_cgs_triangular",
    "C102_cholesky",
    "C102_cholesky_packed",
    "C102_modified",
    "C102_ilu",
    "C102_ilu_sparse"
   ],
   "note": "Exact arithmetic: real numbers where a root or an order is involved, any field otherwise."
  },
  {
   "property": "C103",
   "status": "proved",
   "theorems": [
    "C103_contents",
    "C103_order",
    "C103_everything",
    "C103_plus_commutes",
    "C103_repeated_refuted"
   ],
   "note": "C103_repeated_refuted is the limit named in brackets at the end of the statement. C103_plus_commutes has the premises under which the addition does not read out of bounds (C31)."
  },
  {
   "property": "C104",
   "status": "proved",
   "theorems": [
    "C104_matvec",
    "C104_spmv",
    "C104_dot",
    "C104_norm2",
    "C104_norm2_entry",
    "C104_norm2_binary64",
    "C104_norm2_small_refuted",
    "C104_matmat",
    "C104_back_sub",
    "C104_tridiagonal",
    "C104_tridiagonal_columns",
    "C104_cholesky",
    "C104_cholesky_packed",
    "C104_ilu",
    "C104_ilu_sparse",
    "reals_mono",
    "bops_mono",
    "float_mono",
    "C104_ilu_tridiagonal",
    "C104_ilu_sparse_tridiagonal",
    "C104_second_difference"
   ],
   "note": "For every arithmetic with the laws Monotone (SpecMono.v): exact numbers, every binary IEEE format, rounding to nearest even, each operation rounded (no contraction); underflow is included. Only finite results are compared. C104_norm2_small_refuted: the limit named in the statement."
  },
  {
   "property": "C105",
   "status": "proved",
   "theorems": [
    "C105_back_sub",
    "C105_tridiagonal",
    "C105_tridiagonal_columns",
    "C105_cholesky",
    "C105_cholesky_packed",
    "C105_ilu",
    "C105_ilu_sparse",
    "reals_ranged",
    "bops_ranged",
    "float_ranged"
   ],
   "note": "For every arithmetic with the laws Ranged (SpecComp.v): exact numbers and every binary IEEE format, rounding to nearest even, each operation rounded (no contraction); underflow and overflow are included."
  },
  {
   "property": "C106",
   "status": "partial",
   "theorems": [
    "C106_vector",
    "C106_coo",
    "C106_coo_shape_ub",
    "C106_coo_accumulate_ub",
    "C106_coo_add_default_ub",
    "C106_csr",
    "C106_csr_ub",
    "C106_converted",
    "C106_utri_value",
    "C106_utri_default_ub",
    "C106_utri_agrees",
    "C106_refuted"
   ],
   "note": "False as stated. DynVec: holds. SpCooMat: nnz, reads, mut_at, scaling, assignment hold; shape() and any sum with the empty matrix on either side are undefined. SpMat: only nnz, scaling and assignment are defined. DynUpperTriMat: holds for T x{}; for T x; the size is an uninitialised size_t and every use of it is undefined."
  },
  {
   "property": "C107",
   "status": "proved",
   "theorems": [
    "C107_update",
    "C107_product",
    "C107_ilu",
    "C107_gmres",
    "C107_converted",
    "C107_ring",
    "C107_ieee",
    "C107_binary32",
    "C107_binary64",
    "C107_infinite_refuted"
   ],
   "note": "For every arithmetic with the laws Skips (SpecStorage.v): any ring, every binary IEEE format rounding to nearest even, each operation rounded (no contraction, no BLAS). C107_infinite_refuted: with an infinite element in x the dense product is NaN where the sparse one is finite, so the finiteness named in the statement is needed."
  },
  {
   "property": "C108",
   "status": "partial",
   "theorems": [
    "C108_coo",
    "C108_coo_empty",
    "C108_tridiagonal",
    "C108_tridiagonal_small",
    "C108_hessenberg",
    "C108_hessenberg_small",
    "C108_upper",
    "C108_upper_small",
    "C108_lower_as_symmetric",
    "C108_symmetric_diagonal",
    "C108_symmetric",
    "C108_symmetric_refuted"
   ],
   "note": "False as stated. SpCooMat (and SpMat, C107): holds, bit-exact, for matrices with entries; without entries shape() is undefined (C108_coo_empty). Tri-diagonal classes: hold up to order 2 (C108_tridiagonal_small, against the dense matrix); from order 3 the constructor always throws std::invalid_argument (std::out_of_range for the sized class), whatever the elements. HessenbergMat from order 3 and DynUpperTriMat from order 2: always throw; below that they hold (C108_hessenberg_small, C108_upper_small). Lower triangular classes behave as the Hermitian ones with the same elements at every order (C108_lower_as_symmetric). There a diagonal matrix is factorised as the dense one (C108_symmetric_diagonal), but the two mirrored positions share storage and the factors of a full matrix of order 2 are wrong (C108_symmetric, any element type); C108_symmetric_refuted: the solution is wrong. Not stated: the factors of non-diagonal symmetric storage beyond order 2."
  },
  {
   "property": "C11",
   "status": "proved",
   "theorems": [
    "C11_offset_in_bounds",
    "C11_read_write",
    "C11_write_sequence",
    "C11_construct_dyn",
    "C11_construct_static"
   ],
   "note": ""
  },
  {
   "property": "C12",
   "status": "partial",
   "theorems": [
    "C12_sizedmat",
    "C12_sizedvec",
    "C12_dynmat_actual_partial",
    "C12_dynmat_refuted"
   ],
   "note": "False for the dynamic matrix: its constructors accept any length. Static part proved as stated; what the dynamic constructor really gives is proved for every length."
  },
  {
   "property": "C13",
   "status": "proved",
   "theorems": [
    "C13_filled",
    "C13_uninit_is_zero",
    "C13_diag_list",
    "C13_diag",
    "C13_identity",
    "C13_vec_filled",
    "C13_identity_times_vector",
    "C16_identity"
   ],
   "note": ""
  },
  {
   "property": "C14",
   "status": "proved",
   "theorems": [
    "C14_matvec_exact",
    "C14_matvec",
    "C14_matvec_inplace",
    "C14_matvec_operator",
    "C14_assert"
   ],
   "note": "Order-exact for any scalar type; alpha*A*x+beta*y in every commutative ring."
  },
  {
   "property": "C15",
   "status": "proved",
   "theorems": [
    "C15_matmat_exact",
    "C15_matmat",
    "C15_operator",
    "C15_assert"
   ],
   "note": "Order-exact for any scalar type; algebraic form in every commutative ring; all aliasings."
  },
  {
   "property": "C16",
   "status": "proved",
   "theorems": [
    "C16_assoc",
    "C16_vector",
    "C16_distrib",
    "C16_identity",
    "C16_scalar"
   ],
   "note": ""
  },
  {
   "property": "C17",
   "status": "proved",
   "theorems": [
    "C17_add",
    "C17_sub",
    "C17_scale",
    "C17_operators",
    "C17_neg_ring",
    "C17_add_comm",
    "C17_add_assoc",
    "C17_sub_is_add_neg",
    "C17_scale_add",
    "C17_scale_sum",
    "C17_scale_scale",
    "C17_assert"
   ],
   "note": ""
  },
  {
   "property": "C18",
   "status": "partial",
   "theorems": [
    "C18_matvec",
    "C18_matvec_inplace",
    "C18_matvec_inplace_beta0",
    "C18_matvec_operator",
    "C18_matmat_square",
    "C18_matmat_wide",
    "C18_matmat_tall",
    "C18_matmat_operator",
    "C18_matvec_refuted",
    "C18_matmat_refuted"
   ],
   "note": "False as stated. cblas_?gemv / cblas_?gemm are taken as any routines meeting a written contract (SpecBlas.v; a reference routine meeting it is given). Proved for every such routine: agreement for non-aliased gemv, for in-place gemv only with beta = 0, for gemm with square result; gemm is called with ldc = n, so a wide result is rejected (nothing stored) and a tall one is written outside its buffer."
  },
  {
   "property": "C19",
   "status": "proved",
   "theorems": [
    "C19_invert",
    "C19_invert_inplace",
    "C19_inverted"
   ],
   "note": "Every field."
  },
  {
   "property": "C20",
   "status": "partial",
   "theorems": [
    "C20_read",
    "C20_write",
    "C20_write_outside",
    "C20_const_read_outside_partial",
    "C20_unchecked_lengths",
    "C20_refuted"
   ],
   "note": "False for reads of a const matrix outside the band: a reference to a destroyed temporary is returned, every such read is undefined. All other clauses proved."
  },
  {
   "property": "C21",
   "status": "proved",
   "theorems": [
    "C21_offsets",
    "C21_layout",
    "C21_read",
    "C21_write",
    "C21_size_check",
    "C21_isqrt64"
   ],
   "note": "Sizes with 8n+17 <= 2^53 (beyond that the size check goes through an inexact double)."
  },
  {
   "property": "C22",
   "status": "proved",
   "theorems": [
    "C22_extend_zero",
    "C22_extend",
    "C22_extend_from_empty",
    "C22_bad_length",
    "C22_columns"
   ],
   "note": "The meaning of the n+2 given entries depends on how the matrix was built; both cases are stated."
  },
  {
   "property": "C23",
   "status": "proved",
   "theorems": [
    "C23_offsets",
    "C23_layout",
    "C23_read",
    "C23_write",
    "C23_size_check",
    "C23_extend",
    "C23_extend_zero"
   ],
   "note": "A rejected length calls std::terminate because the constructor is noexcept."
  },
  {
   "property": "C24",
   "status": "proved",
   "theorems": [
    "C24_back_sub",
    "C24_wrong_size"
   ],
   "note": "Every field."
  },
  {
   "property": "C25",
   "status": "partial",
   "theorems": [
    "C25_actual_partial",
    "C25_lower_part",
    "C25_refuted"
   ],
   "note": "False as stated: positions above the diagonal are mirrored. Actual behaviour proved for all inputs."
  },
  {
   "property": "C26",
   "status": "proved",
   "theorems": [
    "C26_symmetric",
    "C26_write",
    "C26_layout",
    "C26_into_lower"
   ],
   "note": ""
  },
  {
   "property": "C27",
   "status": "proved",
   "theorems": [
    "C27_throws",
    "C27_construct",
    "C27_read",
    "C27_too_many",
    "C27_read_too_many"
   ],
   "note": "For every sort routine satisfying the contract of std::ranges::sort (permutation without inversions, for every weak order). A position given several times reads one of its values. Fewer than 2^32 entries; with more the constructor does not return (C27_too_many)."
  },
  {
   "property": "C28",
   "status": "proved",
   "theorems": [
    "C28_coo_stored",
    "C28_coo_not_stored",
    "C28_csr_stored",
    "C28_csr_not_stored"
   ],
   "note": "CSR: rows below the row count (beyond it the row pointer array is read out of range)."
  },
  {
   "property": "C29",
   "status": "proved",
   "theorems": [
    "C29_convert"
   ],
   "note": "Any non-empty COO matrix, duplicates included."
  },
  {
   "property": "C30",
   "status": "proved",
   "theorems": [
    "C30_coo_unit",
    "C30_csr_unit",
    "C30_unit_times_vector"
   ],
   "note": ""
  },
  {
   "property": "C31",
   "status": "partial",
   "theorems": [
    "C31_add_partial",
    "C31_reads_partial",
    "C31_add_self",
    "C31_empty_lhs_ub",
    "C31_empty_rhs_ub",
    "C31_wrong_position_refuted",
    "C31_undefined_refuted"
   ],
   "note": "False as stated: when A has no entry in a row of B, the merge compares with the first entry of the next row of A (wrong position) or reads past the end. Proved for every pair of matrices outside that case (addable), and for A += A without restriction."
  },
  {
   "property": "C32",
   "status": "partial",
   "theorems": [
    "C32_rows_partial",
    "C32_matches_reads_partial",
    "C32_duplicates_sum",
    "C32_operator",
    "C32_assert",
    "C32_inplace_refuted",
    "C32_duplicates_refuted"
   ],
   "note": "Proved when y is not x and no position is stored twice (general form with duplicates summed); false in place and with duplicates, with witnesses."
  },
  {
   "property": "C33",
   "status": "proved",
   "theorems": [
    "C33_coo_scale",
    "C33_csr_scale",
    "C33_coo_reads",
    "C33_csr_reads"
   ],
   "note": ""
  },
  {
   "property": "C34",
   "status": "partial",
   "theorems": [
    "C34_coo_shape",
    "C34_csr_shape",
    "C34_empty_shape_ub",
    "C34_empty_csr_shape_ub",
    "C34_empty_shape_refuted"
   ],
   "note": "Proved for every non-empty matrix; false for the empty one, where shape() dereferences an end iterator."
  },
  {
   "property": "C35",
   "status": "proved",
   "theorems": [
    "C35_vector_copy",
    "C35_vector_assign",
    "C35_matrix_copy",
    "C35_matrix_assign",
    "C35_coo_assign",
    "C35_csr_assign",
    "C35_by_value"
   ],
   "note": "Any scalar type; copies own fresh storage, so later writes through either object leave the other unchanged."
  },
  {
   "property": "C36",
   "status": "proved",
   "theorems": [
    "C36_vector",
    "C36_tri_pivots",
    "C36_dominant",
    "C36_pos_def",
    "C36_short_result",
    "C36_recurrence"
   ],
   "note": "Any field; the hypothesis is that every leading block is non-singular, shown equivalent to non-zero pivots; strict diagonal dominance and positive definiteness imply it. Orders up to 2^31. In place and out of place are both covered (no hypothesis that rslt and b differ)."
  },
  {
   "property": "C37",
   "status": "proved",
   "theorems": [
    "C37_columns",
    "C37_columns_bitwise"
   ],
   "note": "C37_columns_bitwise: bit for bit in any arithmetic."
  },
  {
   "property": "C38",
   "status": "partial",
   "theorems": [
    "C38_order_one_refuted",
    "C38_order_one_mat"
   ],
   "note": "False as stated: every order-1 solve is undefined behaviour (reads du[0] and dl[-1] of empty bands)."
  },
  {
   "property": "C39",
   "status": "proved",
   "theorems": [
    "C39_square",
    "C39_packed",
    "C39_lower_only",
    "C39_packed_as_square"
   ],
   "note": "Over R, success with positive diagonal; lower-only and packed = square hold bit for bit for every scalar type."
  },
  {
   "property": "C40",
   "status": "proved",
   "theorems": [
    "C40_square",
    "C40_packed"
   ],
   "note": "Exact real arithmetic."
  },
  {
   "property": "C41",
   "status": "partial",
   "theorems": [
    "C41_rejects_partial",
    "C41_rejects_packed_partial",
    "C41_accepts_refuted",
    "C41_accepts_packed_refuted"
   ],
   "note": "False as stated: a failure at pivot 0 is reported with code 0, which the constructor takes for success, so every matrix with A(0,0) <= 0 is accepted with its entries unchanged. Proved whenever A(0,0) > 0."
  },
  {
   "property": "C42",
   "status": "proved",
   "theorems": [
    "C42_vector_inplace",
    "C42_vector",
    "C42_matrix_inplace",
    "C42_matrix",
    "C42_end_to_end",
    "C42_packed_as_square",
    "C42_packed_as_square_inplace",
    "C42_packed_as_square_matrix",
    "C42_packed_as_square_matrix_inplace"
   ],
   "note": "Orders below 2^31 (the backward sweep counts in int32)."
  },
  {
   "property": "C43",
   "status": "proved",
   "theorems": [
    "C43_success",
    "C43_throws",
    "C43_solve_vector_inplace",
    "C43_solve_vector",
    "C43_solve_matrix_inplace",
    "C43_solve_matrix",
    "C43_spd"
   ],
   "note": "Any field; success is characterised exactly by all leading blocks being non-singular."
  },
  {
   "property": "C44",
   "status": "proved",
   "theorems": [
    "C44_dyn",
    "C44_csr"
   ],
   "note": "Any field, dense and compressed-row matrices, every order below 2^32; the recurrences hold bit for bit for every scalar type (ilu_dyn_outcome, ilu_csr_outcome)."
  },
  {
   "property": "C45",
   "status": "proved",
   "theorems": [
    "C45_dyn",
    "C45_csr",
    "C45_dyn_exact",
    "C45_csr_exact"
   ],
   "note": "Any field; every pivot nonzero (for an exact factorisation: A nonsingular). The exact case covers every pattern closed under elimination, e.g. full and tridiagonal."
  },
  {
   "property": "C46",
   "status": "partial",
   "theorems": [
    "C46_rejects_refuted",
    "C46_accepts_refuted",
    "C46_accepts_float",
    "C46_dyn_outcome",
    "C46_csr_outcome",
    "C46_full_pattern",
    "C46_closed_throws",
    "C46_accepted"
   ],
   "note": "False as stated in both directions: [[0,1],[1,0]] is rejected, [[1,1],[1,1]] is accepted. Proved: the exact condition under which it throws; for matrices without zero entries that is exactly a singular proper leading block; an accepted matrix (no fill-in dropped) is nonsingular iff no pivot is zero."
  },
  {
   "property": "C47",
   "status": "proved",
   "theorems": [
    "C47_dense_estimate",
    "C47_sparse_estimate",
    "C48_dense_solver",
    "C48_dense",
    "C48_sparse"
   ],
   "note": "Over R, for nonsingular A, nonzero pivots of the ILU(0) factor, b <> 0 and tol > 0: after every step the magnitude of the last element of beta is the least preconditioned residual norm over the Krylov space of that dimension (attained), and the returned x satisfies ||P(b - A x)|| < tol and is that minimiser. Dense and compressed-row storage."
  },
  {
   "property": "C48",
   "status": "proved",
   "theorems": [
    "C48_dense_solver",
    "C48_dense",
    "C48_dense_closed",
    "C48_sparse"
   ],
   "note": "Over R: with nonsingular A and nonsingular preconditioner the solver returns, within n iterations, an x meeting the test (an iterate of a Krylov space of dimension at most n); no hypothesis on the preconditioner is needed when ILU(0) drops no fill-in."
  },
  {
   "property": "C49",
   "status": "partial",
   "theorems": [
    "C49_refuted",
    "C49_sparse_refuted",
    "C49_always_nan_dense",
    "C49_always_nan_sparse"
   ],
   "note": "False as stated: with b = 0 the code divides by the norm of the zero vector. Proved: in binary64, for every accepted matrix, order and tolerance, every entry of the result is NaN (C49_always_nan_*)."
  },
  {
   "property": "C50",
   "status": "proved",
   "theorems": [
    "C50_cgs",
    "C50_recurrence",
    "C50_empty",
    "C50_mismatch"
   ],
   "note": "Exact real arithmetic for orthogonality and spans; the recurrence itself holds bit for bit for every scalar type. Also proved: the empty list is undefined behaviour, and a second vector of another size asserts (debug) or terminates (release)."
  },
  {
   "property": "C51",
   "status": "partial",
   "theorems": [
    "C51_vectors_partial",
    "C51_matrices_partial",
    "C51_solvers_partial",
    "C51_diverges",
    "C51_loop_refuted"
   ],
   "note": "False as stated: loops count in u32 and never reach a bound of 2^32 or more. Proved: termination whenever all sizes are below 2^32, and non-termination at and beyond it."
  },
  {
   "property": "C52",
   "status": "partial",
   "theorems": [
    "C52_rows_partial",
    "C52_rows_refuted",
    "C52_skipped"
   ],
   "note": "False as stated: the int32 backward loops visit no row for 2^31 < n <= 2^32. Proved: rows n-1..0 are visited exactly when n <= 2^31."
  },
  {
   "property": "C53",
   "status": "partial",
   "theorems": [
    "C53_cholesky_vector",
    "C53_cholesky_matrix",
    "C53_modified_vector",
    "C53_modified_matrix",
    "C53_ilu",
    "C53_ilu_csr",
    "C53_gmres",
    "C53_gmres_csr",
    "C53_tridiag_same",
    "C53_tridiag_repeats",
    "C53_solvers_agree",
    "C53_lapack_repeat_refuted"
   ],
   "note": "False as stated: with the LAPACK backend the tridiagonal solver overwrites the matrix it keeps, and a second solve gives another answer for every routine meeting the contract (witness of order 3). Proved: all other solvers repeat bit for bit, any number of times and whatever else happened in between; on symmetric positive definite tridiagonal systems seven solvers agree."
  },
  {
   "property": "C54",
   "status": "proved",
   "theorems": [
    "C54_get_col"
   ],
   "note": ""
  },
  {
   "property": "C55",
   "status": "partial",
   "theorems": [
    "C55_spmv_distinct",
    "C55_spmv_inplace_refuted"
   ],
   "note": "Proved when the vectors are distinct; with y = x two iterations race on y."
  },
  {
   "property": "C56",
   "status": "proved",
   "theorems": [
    "C56_construct",
    "C56_read",
    "C56_write",
    "C56_history",
    "C56_move",
    "C56_move_assign"
   ],
   "note": "Any element type; allocation is assumed to succeed."
  },
  {
   "property": "C57",
   "status": "proved",
   "theorems": [
    "C57_neg_s",
    "C57_neg_d",
    "C57_op_neg_s",
    "C57_op_neg_d",
    "C57_add_s",
    "C57_add_sd",
    "C57_add_ds",
    "C57_add_d",
    "C57_op_add_s",
    "C57_op_add_d",
    "C57_sub_s",
    "C57_sub_ds",
    "C57_sub_d",
    "C57_op_sub_s",
    "C57_op_sub_d",
    "C57_axpy_s",
    "C57_axpy_d",
    "C57_scale_s",
    "C57_scale_d",
    "C57_op_scale_s",
    "C57_op_scale_d",
    "C57_scaled_s",
    "C57_scaled_d",
    "C57_op_div_s",
    "C57_op_div_d",
    "C57_dot_s",
    "C57_dot_sd",
    "C57_dot_d",
    "C57_dot_member_d",
    "C57_dot_member_ds",
    "C57_norm2_d",
    "C57_norm2_s",
    "C57_cross2",
    "C57_cross3",
    "C57_cross3_new",
    "C57_cross3_acc",
    "C57_dynvec_uninit",
    "C57_dynvec_filled",
    "C57_dynvec_of",
    "C57_vec_copy",
    "C57_vec_assign",
    "C57_sizedvec_of",
    "C57_sizedvec_uninit",
    "C57_sizedvec_filled",
    "C57_vec_get",
    "C57_vec_put",
    "C57_dynmat_of",
    "C57_sizedmat_of",
    "C57_mat_uninit",
    "C57_mat_get",
    "C57_mat_put",
    "C57_mat_at",
    "C57_mat_mut_at",
    "C57_mat_filled",
    "C57_mat_diag_list",
    "C57_mat_diag",
    "C57_mat_identity",
    "C57_mat_copy",
    "C57_mat_assign",
    "C57_mulv",
    "C57_op_mulv",
    "C57_mulm",
    "C57_op_mulm",
    "C57_addm",
    "C57_op_addm",
    "C57_subm",
    "C57_op_subm",
    "C57_scalem",
    "C57_op_scalem",
    "C57_op_negm",
    "C57_invert2",
    "C57_invert2_inplace",
    "C57_inverted2",
    "C57_back_sub",
    "C57_sp_mul",
    "C57_sp_op_mul",
    "C57_tridiag_solve_vec",
    "C57_tridiag_solve_mat",
    "C57_tri_cholesky",
    "C57_dyn_cholesky",
    "C57_mod_cholesky",
    "C57_lower_mat",
    "C57_chol_solve_mut_vec",
    "C57_chol_solve_vec",
    "C57_chol_solve_mut_mat",
    "C57_chol_solve_mat",
    "C57_mod_solve_mut_vec",
    "C57_mod_solve_vec",
    "C57_mod_solve_mut_mat",
    "C57_mod_solve_mat",
    "C57_cgs",
    "C57_ilu_dyn",
    "C57_ilu_dyn_solve",
    "C57_ilu_csr_solve",
    "C57_gmres_dyn_new",
    "C57_gmres_dyn_solve",
    "C57_gmres_csr_solve",
    "C57_later"
   ],
   "note": "One theorem per operation, for every scalar type, both with and without assertions. Argument memories must not hold data outside live objects (clean)."
  },
  {
   "property": "C58",
   "status": "proved",
   "theorems": [
    "C58_neg_s",
    "C58_neg_d",
    "C58_op_neg_s",
    "C58_op_neg_d",
    "C58_add_s",
    "C58_add_sd",
    "C58_add_ds",
    "C58_add_d",
    "C58_op_add_s",
    "C58_op_add_d",
    "C58_sub_s",
    "C58_sub_ds",
    "C58_sub_d",
    "C58_op_sub_s",
    "C58_op_sub_d",
    "C58_axpy_s",
    "C58_axpy_d",
    "C58_scale_s",
    "C58_scale_d",
    "C58_op_scale_s",
    "C58_op_scale_d",
    "C58_scaled_s",
    "C58_scaled_d",
    "C58_op_div_s",
    "C58_op_div_d",
    "C58_dot_s",
    "C58_dot_sd",
    "C58_dot_d",
    "C58_dot_member_d",
    "C58_dot_member_ds",
    "C58_norm2_d",
    "C58_norm2_s",
    "C58_cross2",
    "C58_cross3",
    "C58_cross3_new",
    "C58_cross3_acc",
    "C58_dynvec_uninit",
    "C58_dynvec_filled",
    "C58_dynvec_of",
    "C58_vec_copy",
    "C58_sizedvec_of",
    "C58_sizedvec_uninit",
    "C58_sizedvec_filled",
    "C58_vec_get",
    "C58_vec_put",
    "C58_dynmat_of",
    "C58_sizedmat_of",
    "C58_mat_uninit",
    "C58_mat_get",
    "C58_mat_put",
    "C58_mat_at",
    "C58_mat_mut_at",
    "C58_mat_filled",
    "C58_mat_diag_list",
    "C58_mat_diag",
    "C58_mat_identity",
    "C58_mat_copy",
    "C58_mulv",
    "C58_op_mulv",
    "C58_mulm",
    "C58_op_mulm",
    "C58_addm",
    "C58_op_addm",
    "C58_subm",
    "C58_op_subm",
    "C58_scalem",
    "C58_op_scalem",
    "C58_op_negm",
    "C58_invert2",
    "C58_invert2_inplace",
    "C58_inverted2",
    "C58_back_sub",
    "C58_sp_mul",
    "C58_sp_op_mul",
    "C58_tridiag_solve_vec",
    "C58_tridiag_solve_mat",
    "C58_tri_cholesky",
    "C58_dyn_cholesky",
    "C58_mod_cholesky",
    "C58_lower_mat",
    "C58_chol_solve_mut_vec",
    "C58_chol_solve_vec",
    "C58_chol_solve_mut_mat",
    "C58_chol_solve_mat",
    "C58_mod_solve_mut_vec",
    "C58_mod_solve_vec",
    "C58_mod_solve_mut_mat",
    "C58_mod_solve_mat",
    "C58_ilu_dyn",
    "C58_ilu_dyn_solve",
    "C58_ilu_csr_solve",
    "C58_gmres_dyn_new",
    "C58_gmres_dyn_solve",
    "C58_gmres_csr_solve",
    "C58_cgs",
    "C58_vec_assign",
    "C58_mat_assign",
    "C58_const",
    "C58_factor_keeps"
   ],
   "note": "One theorem per operation, for every scalar type and every memory, without preconditions (calls that end in undefined behaviour, an abort or non-termination have no final state). Assignment, which may change sizes, is stated separately."
  },
  {
   "property": "C59",
   "status": "proved",
   "theorems": [
    "C59_tridiag_vector",
    "C59_tridiag_matrix",
    "C59_cholesky",
    "C59_cholesky_rejects",
    "C59_solve_vector_inplace",
    "C59_solve_vector",
    "C59_solve_matrix_inplace",
    "C59_solve_matrix",
    "C59_builds_differ_refuted"
   ],
   "note": "LAPACKE_?gtsv, ?potrf, ?potrs are any routines meeting the contracts of SpecLapack.v (exact real arithmetic); ProofLapack.v gives routines meeting them. C59_builds_differ_refuted shows that the built-in constructor accepts a matrix the LAPACK build rejects."
  },
  {
   "property": "C60",
   "status": "proved",
   "theorems": [
    "C60_dot",
    "C60_any_reduction_order"
   ],
   "note": "Any u < 1. In the standard model of rounded arithmetic (Approx O u, SpecRound.v: each operation is exact up to relative error u; no overflow or underflow), met by 53-bit round-to-nearest with unbounded exponent (flx_approx) and by exact arithmetic."
  },
  {
   "property": "C61",
   "status": "proved",
   "theorems": [
    "C61_norm2",
    "C61_any_reduction_order"
   ],
   "note": "Any u < 1. In the standard model of rounded arithmetic (Approx O u, SpecRound.v: each operation is exact up to relative error u; no overflow or underflow), met by 53-bit round-to-nearest with unbounded exponent (flx_approx) and by exact arithmetic."
  },
  {
   "property": "C62",
   "status": "proved",
   "theorems": [
    "C62_matvec",
    "C62_matvec_operator",
    "C62_matmat",
    "C62_matmat_operator"
   ],
   "note": "Built-in kernels. In the standard model of rounded arithmetic (Approx O u, SpecRound.v: each operation is exact up to relative error u; no overflow or underflow), met by 53-bit round-to-nearest with unbounded exponent (flx_approx) and by exact arithmetic."
  },
  {
   "property": "C63",
   "status": "proved",
   "theorems": [
    "C63_back_sub"
   ],
   "note": "n below the counter limits. In the standard model of rounded arithmetic (Approx O u, SpecRound.v: each operation is exact up to relative error u; no overflow or underflow), met by 53-bit round-to-nearest with unbounded exponent (flx_approx) and by exact arithmetic."
  },
  {
   "property": "C64",
   "status": "proved",
   "theorems": [
    "C64_factor_square",
    "C64_factor_packed",
    "C64_solve",
    "C64_square",
    "C64_packed",
    "C64_no_growth",
    "C64_no_growth_packed"
   ],
   "note": "Positive diagonal is a hypothesis because the constructor also returns on a non-positive first pivot (see C40). In the standard model of rounded arithmetic (Approx O u, SpecRound.v: each operation is exact up to relative error u; no overflow or underflow), met by 53-bit round-to-nearest with unbounded exponent (flx_approx) and by exact arithmetic."
  },
  {
   "property": "C65",
   "status": "proved",
   "theorems": [
    "C65_factor",
    "C65_solve"
   ],
   "note": "Backward error relative to the computed factors; no bound on their growth exists for indefinite matrices. In the standard model of rounded arithmetic (Approx O u, SpecRound.v: each operation is exact up to relative error u; no overflow or underflow), met by 53-bit round-to-nearest with unbounded exponent (flx_approx) and by exact arithmetic."
  },
  {
   "property": "C66",
   "status": "proved",
   "theorems": [
    "C66_factor",
    "C66_factor_csr",
    "C66_solve",
    "C66_solve_csr"
   ],
   "note": "Solve needs non-zero diagonal of the factor. In the standard model of rounded arithmetic (Approx O u, SpecRound.v: each operation is exact up to relative error u; no overflow or underflow), met by 53-bit round-to-nearest with unbounded exponent (flx_approx) and by exact arithmetic."
  },
  {
   "property": "C67",
   "status": "proved",
   "theorems": [
    "C67_dominant",
    "C67_dominant_columns"
   ],
   "note": "Built-in solver, vector and matrix right-hand sides. In the standard model of rounded arithmetic (Approx O u, SpecRound.v: each operation is exact up to relative error u; no overflow or underflow), met by 53-bit round-to-nearest with unbounded exponent (flx_approx) and by exact arithmetic."
  },
  {
   "property": "C68",
   "status": "proved",
   "theorems": [
    "C68_spmv",
    "C68_operator"
   ],
   "note": "No position stored twice, x and y different. In the standard model of rounded arithmetic (Approx O u, SpecRound.v: each operation is exact up to relative error u; no overflow or underflow), met by 53-bit round-to-nearest with unbounded exponent (flx_approx) and by exact arithmetic."
  },
  {
   "property": "C69",
   "status": "proved",
   "theorems": [
    "C69_operators",
    "C69_axpy",
    "C69_quotient",
    "C69_cross"
   ],
   "note": "Dynamic vectors. In the standard model of rounded arithmetic (Approx O u, SpecRound.v: each operation is exact up to relative error u; no overflow or underflow), met by 53-bit round-to-nearest with unbounded exponent (flx_approx) and by exact arithmetic."
  },
  {
   "property": "C70",
   "status": "proved",
   "theorems": [
    "C70_square",
    "C70_packed",
    "C70_solve",
    "C70_solve_square",
    "C70_solve_packed"
   ],
   "note": "The margin is that of Demmel / Higham, Theorem 10.7, with gamma(n+1). In the standard model of rounded arithmetic (Approx O u, SpecRound.v: each operation is exact up to relative error u; no overflow or underflow), met by 53-bit round-to-nearest with unbounded exponent (flx_approx) and by exact arithmetic."
  },
  {
   "property": "C71",
   "status": "partial",
   "theorems": [
    "C71_throws",
    "C71_reads",
    "C71_shape",
    "C71_accepts_refuted"
   ],
   "note": "False as stated: only the lengths of the value and column arrays are compared, row pointers are not looked at (C71_accepts_refuted). Proved: construction throws exactly when those two lengths differ; for consistent row pointers elements and shape read as stated."
  },
  {
   "property": "C72",
   "status": "partial",
   "theorems": [
    "C72_axpy",
    "C72_scale",
    "C72_dot",
    "C72_norm2",
    "C72_matrix_scale",
    "C72_sparse_scale",
    "C72_dot_empty",
    "C72_too_long",
    "C72_any_length_refuted",
    "ref_vblas_meets_contract"
   ],
   "note": "False for 2^31 elements or more: the count wraps to a negative int and the operation silently does nothing (C72_too_long, C72_any_length_refuted), and for the dot product of empty vectors (C72_dot_empty). Proved equal, outcome and memory, for all other lengths; axpy for x other than y, since BLAS forbids overlap."
  },
  {
   "property": "C73",
   "status": "proved",
   "theorems": [
    "C73_cgs",
    "C73_gmres_dense",
    "C73_gmres_sparse",
    "C73_dense_solves",
    "C73_sparse_solves"
   ],
   "note": "For any CBLAS meeting gemv_contract and vblas_contract (SpecBlas.v, SpecBlasVec.v), in any commutative ring; the consequences over the reals use C48."
  },
  {
   "property": "C74",
   "status": "proved",
   "theorems": [
    "C74_ilu_dense",
    "C74_ilu_sparse",
    "C74_gmres_dense",
    "C74_gmres_sparse",
    "laplace_dominant"
   ],
   "note": "Exact arithmetic. laplace_dominant: the one-dimensional Laplacian of every order is such a matrix although it is not strictly dominant."
  },
  {
   "property": "C75",
   "status": "proved",
   "theorems": [
    "C75_dense",
    "C75_sparse"
   ],
   "note": "No algebraic law is used, so the statement covers binary64. For compressed rows 0 == 0 must hold (it does in binary64) and the largest stored column is n-1."
  },
  {
   "property": "C76",
   "status": "proved",
   "theorems": [
    "C76_dot",
    "C76_norm2",
    "float_ieee",
    "b32_ieee"
   ],
   "note": "Sequential summation order of the built-in kernels. Any arithmetic meeting Ieee (SpecIeee.v); float_ieee and b32_ieee prove it for binary64 and binary32. Example in binary64 beside (PropIeee64.v)."
  },
  {
   "property": "C77",
   "status": "proved",
   "theorems": [
    "C77_matvec",
    "C77_matvec_operator",
    "C77_matmat",
    "C77_matmat_operator",
    "C77_spmv",
    "C77_sp_operator"
   ],
   "note": "Dynamic matrices; compressed rows without repeated positions, x and y different. Any arithmetic meeting Ieee (SpecIeee.v); float_ieee and b32_ieee prove it for binary64 and binary32. Example in binary64 beside (PropIeee64.v)."
  },
  {
   "property": "C78",
   "status": "proved",
   "theorems": [
    "C78_operators",
    "C78_axpy",
    "C78_quotient",
    "C78_cross"
   ],
   "note": "Dynamic vectors. Any arithmetic meeting Ieee (SpecIeee.v); float_ieee and b32_ieee prove it for binary64 and binary32. Example in binary64 beside (PropIeee64.v)."
  },
  {
   "property": "C79",
   "status": "proved",
   "theorems": [
    "C79_back_sub"
   ],
   "note": "An infinite diagonal entry gives a quotient zero, hence the hypothesis that the diagonal is finite. Any arithmetic meeting Ieee (SpecIeee.v); float_ieee and b32_ieee prove it for binary64 and binary32. Example in binary64 beside (PropIeee64.v)."
  },
  {
   "property": "C80",
   "status": "proved",
   "theorems": [
    "C80_factor_square",
    "C80_factor_packed",
    "C80_solve",
    "C80_square",
    "C80_packed"
   ],
   "note": "The constructor may return a factor with NaN or a non-positive first pivot (C41, C82), hence the hypothesis on the diagonal. Any arithmetic meeting Ieee (SpecIeee.v); float_ieee and b32_ieee prove it for binary64 and binary32. Example in binary64 beside (PropIeee64.v)."
  },
  {
   "property": "C81",
   "status": "proved",
   "theorems": [
    "C81_factor",
    "C81_factor_csr",
    "C81_solve",
    "C81_solve_csr"
   ],
   "note": "Any arithmetic meeting Ieee (SpecIeee.v); float_ieee and b32_ieee prove it for binary64 and binary32. Example in binary64 beside (PropIeee64.v)."
  },
  {
   "property": "C82",
   "status": "partial",
   "theorems": [
    "C82_norm_refuted",
    "C82_quotient_refuted",
    "C82_gmres_refuted",
    "C82_tridiagonal_refuted",
    "C82_cholesky_refuted"
   ],
   "note": "False as stated: norm2 of (2^600) is infinite and of (2^-600) zero; v/alpha overflows for subnormal alpha; GMRES on the identity and a tiny right-hand side returns NaN; the tridiagonal solver returns finite garbage after an infinite pivot; Cholesky accepts a NaN pivot. What holds is C76-C81."
  },
  {
   "property": "C83",
   "status": "proved",
   "theorems": [
    "C83_vector",
    "C83_columns"
   ],
   "note": "Any arithmetic meeting Ieee (SpecIeee.v); float_ieee and b32_ieee prove it for binary64 and binary32. Example in binary64 beside (PropIeee64.v)."
  },
  {
   "property": "C84",
   "status": "proved",
   "theorems": [
    "C84_factor",
    "C84_solve"
   ],
   "note": "Any arithmetic meeting Ieee (SpecIeee.v); float_ieee and b32_ieee prove it for binary64 and binary32. Example in binary64 beside (PropIeee64.v)."
  },
  {
   "property": "C85",
   "status": "proved",
   "theorems": [
    "C85_loop",
    "C85_read",
    "C85_update",
    "C85_copy",
    "C85_access",
    "C85_matrix_access",
    "C85_matrix_read",
    "C85_matrix_update"
   ],
   "note": "Iterator invalidation by assigning to a vector inside the loop is excluded by the hypothesis that the body keeps the length."
  },
  {
   "property": "C86",
   "status": "partial",
   "theorems": [
    "C86_vectors_partial",
    "C86_matrices_partial",
    "C86_schedules",
    "C86_unmapped",
    "C86_operators_undefined",
    "C86_matrix_operators_undefined",
    "C86_mapped_host_unchanged",
    "C86_refuted",
    "C86_mapped_refuted"
   ],
   "note": "False as stated: the kernels have no map clause, so on a device with its own memory operands of 16 or more elements are undefined unless mapped by the program, operators always are (their result is new), and with everything mapped the host sees no result. It holds for devices that share the host memory and below 16 elements."
  },
  {
   "property": "C87",
   "status": "proved",
   "theorems": [
    "C87_square",
    "C87_packed",
    "C87_solve"
   ],
   "note": "Any arithmetic meeting Ieee (SpecIeee.v); float_ieee and b32_ieee prove it for binary64 and binary32. Example in binary64 beside (PropIeee64.v)."
  },
  {
   "property": "C88",
   "status": "proved",
   "theorems": [
    "C88_laws",
    "C88_binary64",
    "C88_dot",
    "C88_norm2",
    "C88_axpy",
    "C88_matvec",
    "C88_cholesky",
    "C88_cholesky_solve",
    "C88_tridiagonal",
    "C88_ways",
    "C88_cross_self_refuted",
    "C88_chain_refuted",
    "float_fused",
    "bfma_fused"
   ],
   "note": "C88_laws makes all of C76-C81, C83, C84 and C87 apply to every contraction; their hypotheses that inputs are settled hold for leaves and, without contraction, always (plain_settled). The library is run on expressions, rho evaluates them (SpecFma.v says what is not covered)."
  },
  {
   "property": "C89",
   "status": "proved",
   "theorems": [
    "C89_neg_s",
    "C89_neg_d",
    "C89_op_neg_s",
    "C89_op_neg_d",
    "C89_add_s",
    "C89_add_sd",
    "C89_add_ds",
    "C89_add_d",
    "C89_op_add_s",
    "C89_op_add_d",
    "C89_sub_s",
    "C89_sub_ds",
    "C89_sub_d",
    "C89_op_sub_s",
    "C89_op_sub_d",
    "C89_axpy_s",
    "C89_axpy_d",
    "C89_scale_s",
    "C89_scale_d",
    "C89_op_scale_s",
    "C89_op_scale_d",
    "C89_scaled_s",
    "C89_scaled_d",
    "C89_op_div_s",
    "C89_op_div_d",
    "C89_dot_s",
    "C89_dot_sd",
    "C89_dot_d",
    "C89_dot_member_d",
    "C89_dot_member_ds",
    "C89_norm2_d",
    "C89_norm2_s",
    "C89_cross2",
    "C89_cross3",
    "C89_cross3_new",
    "C89_cross3_acc",
    "C89_dynvec_uninit",
    "C89_dynvec_filled",
    "C89_dynvec_of",
    "C89_vec_copy",
    "C89_vec_assign",
    "C89_dynvec_move",
    "C89_dynvec_move_assign",
    "C89_sizedvec_of",
    "C89_sizedvec_uninit",
    "C89_sizedvec_filled",
    "C89_vec_get",
    "C89_vec_put",
    "C89_dynmat_of",
    "C89_sizedmat_of",
    "C89_mat_uninit",
    "C89_mat_get",
    "C89_mat_put",
    "C89_mat_at",
    "C89_mat_mut_at",
    "C89_mat_filled",
    "C89_mat_diag_list",
    "C89_mat_diag",
    "C89_mat_identity",
    "C89_mat_copy",
    "C89_mat_assign",
    "C89_mulv",
    "C89_op_mulv",
    "C89_mulm",
    "C89_op_mulm",
    "C89_addm",
    "C89_op_addm",
    "C89_subm",
    "C89_op_subm",
    "C89_scalem",
    "C89_op_scalem",
    "C89_op_negm",
    "C89_invert2",
    "C89_invert2_inplace",
    "C89_inverted2",
    "C89_tri_get",
    "C89_tri_get_mut",
    "C89_tri_set",
    "C89_hess_of",
    "C89_hess_with_capacity",
    "C89_hess_get",
    "C89_hess_set",
    "C89_hess_extend_zero",
    "C89_hess_extend",
    "C89_hess_col",
    "C89_utri_of",
    "C89_utri_with_capacity",
    "C89_utri_get",
    "C89_utri_set",
    "C89_utri_extend_zero",
    "C89_utri_extend",
    "C89_back_sub",
    "C89_ltri_get",
    "C89_ltri_set",
    "C89_herm_get",
    "C89_herm_set",
    "C89_herm_into_lower",
    "C89_coo_of",
    "C89_coo_unit",
    "C89_coo_shape",
    "C89_coo_get",
    "C89_coo_get_mut",
    "C89_coo_set",
    "C89_coo_assign",
    "C89_csr_of_coo",
    "C89_csr_of",
    "C89_csr_unit",
    "C89_csr_shape",
    "C89_csr_get",
    "C89_csr_get_mut",
    "C89_csr_set",
    "C89_csr_assign",
    "C89_coo_scale",
    "C89_csr_scale",
    "C89_coo_op_scale",
    "C89_csr_op_scale",
    "C89_coo_neg",
    "C89_csr_neg",
    "C89_coo_plus",
    "C89_coo_minus",
    "C89_sp_mul",
    "C89_sp_op_mul",
    "C89_tridiag_solve_vec",
    "C89_tridiag_solve_mat",
    "C89_tri_cholesky",
    "C89_dyn_cholesky",
    "C89_mod_cholesky",
    "C89_lower_mat",
    "C89_chol_solve_mut_vec",
    "C89_chol_solve_vec",
    "C89_chol_solve_mut_mat",
    "C89_chol_solve_mat",
    "C89_mod_solve_mut_vec",
    "C89_mod_solve_vec",
    "C89_mod_solve_mut_mat",
    "C89_mod_solve_mat",
    "C89_cgs",
    "C89_ilu_dyn",
    "C89_ilu_dyn_solve",
    "C89_ilu_csr",
    "C89_ilu_csr_solve",
    "C89_gmres_dyn_new",
    "C89_gmres_dyn_solve",
    "C89_gmres_csr_new",
    "C89_gmres_csr_solve",
    "C89_coo_add_assign",
    "C89_coo_add_self",
    "C89_map",
    "C89_map_dot",
    "C89_map_matvec",
    "C89_map_cholesky",
    "C89_map_gmres",
    "C89_carry",
    "C89_plain_terms"
   ],
   "note": "The model functions are polymorphic in the scalar operations, as the templates are, so this is what uniformity of the templates gives; the explicit specialisations of the code (BLAS kernels) are not included."
  },
  {
   "property": "C90",
   "status": "proved",
   "theorems": [
    "C90_binary",
    "C90_binary64",
    "C90_signed",
    "C90_contracted",
    "C90_dot",
    "C90_dot_any_order",
    "C90_reproducible",
    "C90_contracted_dot",
    "C90_norm2",
    "C90_operators",
    "C90_axpy",
    "C90_cross3",
    "C90_cross2",
    "C90_matvec",
    "C90_matvec_operator",
    "C90_matmat",
    "C90_matmat_operator",
    "C90_matrix_operators",
    "C90_spmv",
    "C90_back_sub",
    "C90_cholesky_square",
    "C90_cholesky_packed",
    "C90_cholesky_solve",
    "C90_quotient_refuted",
    "C90_bound_refuted"
   ],
   "note": "The results stand for the integer (+0 and -0 both stand for 0). C90_bound_refuted: past the bound the order of summation matters."
  },
  {
   "property": "C91",
   "status": "proved",
   "theorems": [
    "C91_two",
    "C91_as_alone",
    "C91_any_order",
    "C91_neg_s",
    "C91_neg_d",
    "C91_op_neg_s",
    "C91_op_neg_d",
    "C91_add_s",
    "C91_add_sd",
    "C91_add_ds",
    "C91_add_d",
    "C91_op_add_s",
    "C91_op_add_d",
    "C91_sub_s",
    "C91_sub_ds",
    "C91_sub_d",
    "C91_op_sub_s",
    "C91_op_sub_d",
    "C91_axpy_s",
    "C91_axpy_d",
    "C91_scale_s",
    "C91_scale_d",
    "C91_op_scale_s",
    "C91_op_scale_d",
    "C91_scaled_s",
    "C91_scaled_d",
    "C91_op_div_s",
    "C91_op_div_d",
    "C91_dot_s",
    "C91_dot_sd",
    "C91_dot_d",
    "C91_dot_member_d",
    "C91_dot_member_ds",
    "C91_norm2_d",
    "C91_norm2_s",
    "C91_cross2",
    "C91_cross3",
    "C91_cross3_new",
    "C91_cross3_acc",
    "C91_dynvec_uninit",
    "C91_dynvec_filled",
    "C91_dynvec_of",
    "C91_vec_copy",
    "C91_sizedvec_of",
    "C91_sizedvec_uninit",
    "C91_sizedvec_filled",
    "C91_vec_get",
    "C91_vec_put",
    "C91_dynmat_of",
    "C91_sizedmat_of",
    "C91_mat_uninit",
    "C91_mat_get",
    "C91_mat_put",
    "C91_mat_at",
    "C91_mat_mut_at",
    "C91_mat_filled",
    "C91_mat_diag_list",
    "C91_mat_diag",
    "C91_mat_identity",
    "C91_mat_copy",
    "C91_mulv",
    "C91_op_mulv",
    "C91_mulm",
    "C91_op_mulm",
    "C91_addm",
    "C91_op_addm",
    "C91_subm",
    "C91_op_subm",
    "C91_scalem",
    "C91_op_scalem",
    "C91_op_negm",
    "C91_invert2",
    "C91_invert2_inplace",
    "C91_inverted2",
    "C91_back_sub",
    "C91_sp_mul",
    "C91_sp_op_mul",
    "C91_tridiag_solve_vec",
    "C91_tridiag_solve_mat",
    "C91_tri_cholesky",
    "C91_dyn_cholesky",
    "C91_mod_cholesky",
    "C91_lower_mat",
    "C91_chol_solve_mut_vec",
    "C91_chol_solve_vec",
    "C91_chol_solve_mut_mat",
    "C91_chol_solve_mat",
    "C91_mod_solve_mut_vec",
    "C91_mod_solve_vec",
    "C91_mod_solve_mut_mat",
    "C91_mod_solve_mat",
    "C91_ilu_dyn",
    "C91_ilu_dyn_solve",
    "C91_ilu_csr_solve",
    "C91_gmres_dyn_new",
    "C91_gmres_dyn_solve",
    "C91_gmres_csr_solve",
    "C91_cgs",
    "C91_vec_assign",
    "C91_mat_assign"
   ],
   "note": "The general theorems plus, per operation, the proof that it is such a call with the objects given and those written to. Calls are made one after the other: interleaving of the steps of two calls is not modelled."
  },
  {
   "property": "C92",
   "status": "proved",
   "theorems": [
    "C92_dot",
    "C92_operators",
    "C92_div",
    "C92_axpy",
    "C92_cross3",
    "C92_matvec",
    "C92_matvec_operator",
    "C92_matmat",
    "C92_matmat_operator",
    "C92_matrix_operators",
    "C92_spmv",
    "C92_back_sub",
    "C92_tridiagonal",
    "C92_tridiagonal_matrix",
    "C92_cgs",
    "C92_cholesky_solve",
    "C92_modified_solve",
    "C92_ilu_solve",
    "C92_ilu_solve_csr",
    "C92_modified_returned",
    "C92_ilu_returned",
    "C92_modified",
    "C92_ilu",
    "C92_ilu_csr",
    "C92_norm2",
    "C92_cholesky_square_returned",
    "C92_cholesky_packed_returned",
    "C92_cholesky_square",
    "C92_cholesky_packed",
    "C92_gmres",
    "C92_gmres_csr",
    "C92_real",
    "C92_digits",
    "C92_binary64",
    "C92_dot_binary64",
    "C92_cholesky_binary64",
    "C92_underflow_refuted",
    "C92_three_refuted"
   ],
   "note": "Generic theorems over the class Units, instances C92_real, C92_digits and C92_binary64 (C92_dot_binary64 and C92_cholesky_binary64 spell out what the last one gives). The _refuted theorems are the counterexamples the statement mentions."
  },
  {
   "property": "C93",
   "status": "proved",
   "theorems": [
    "C93_back_sub",
    "C93_tridiagonal",
    "C93_tridiagonal_columns",
    "C93_cholesky_square",
    "C93_cholesky_packed",
    "C93_definite",
    "C93_modified",
    "C93_ilu",
    "C93_ilu_csr"
   ],
   "note": "Any arithmetic meeting Ieee (SpecIeee.v); float_ieee and b32_ieee prove it for binary64 and binary32. Example in binary64 beside (PropIeee64.v). C88_laws makes it hold for every contraction."
  },
  {
   "property": "C94",
   "status": "proved",
   "theorems": [
    "C94_field",
    "C94_vectors",
    "C94_matvec",
    "C94_matmat",
    "C94_matrices",
    "C94_cholesky",
    "C94_cholesky_rejects",
    "C94_solve_vector_inplace",
    "C94_solve_vector",
    "C94_solve_matrix_inplace",
    "C94_solve_matrix"
   ],
   "note": "Exact complex arithmetic. The LAPACK theorems hold for every routine that meets cpotrf_contract/cpotrs_contract (SpecComplex.v); ProofComplexLapack.v gives routines that do."
  },
  {
   "property": "C95",
   "status": "partial",
   "theorems": [
    "C95_norm2",
    "C95_norm2_real",
    "C95_norm2_refuted",
    "C95_hermite",
    "C95_hermite_refuted"
   ],
   "note": "False as stated: conjugation is missing. norm2 of (1, i) is 0 and a Hermite matrix with an element i is not Hermitian. Proved: norm2 is a root of the sum of squares, and the Euclidean norm exactly for vectors of real numbers; a Hermite matrix is symmetric, and Hermitian exactly when its elements are real."
  },
  {
   "property": "C96",
   "status": "proved",
   "theorems": [
    "C96_units",
    "C96_dot",
    "C96_norm2",
    "C96_matvec_operator",
    "C96_cholesky_square",
    "C96_cholesky_packed",
    "C96_cholesky_solve",
    "C96_modified",
    "C96_ilu",
    "C96_ilu_solve",
    "C96_ilu_solve_finite",
    "C96_ilu_csr",
    "C96_tridiagonal",
    "C96_gmres",
    "C96_gmres_csr",
    "C96_negated_rhs",
    "C96_gmres_negated",
    "C96_formats",
    "C96_binary32",
    "C96_binary64",
    "C96_singular_refuted"
   ],
   "note": "For any arithmetic with the laws Signs (SpecSigns.v); every binary IEEE format has them, rounding to nearest even, each operation rounded (no contraction). C96_units gives the other theorems of C92 that need no root. C96_singular_refuted: the limit named in the statement."
  },
  {
   "property": "C97",
   "status": "proved",
   "theorems": [
    "C97_dense",
    "C97_sparse",
    "C97_definite",
    "C97_dense_closed",
    "C97_sparse_closed",
    "C97_dense_stops",
    "C97_sparse_stops"
   ],
   "note": "Exact arithmetic. A step is one dimension of the Krylov space the result is taken from (reached_in); the _stops theorems say the same about the loop: its stopping test has succeeded."
  },
  {
   "property": "C98",
   "status": "proved",
   "theorems": [
    "C98_dense",
    "C98_csr",
    "C98_gmres_dense",
    "C98_gmres_sparse",
    "C98_direct_dense",
    "C98_direct_csr",
    "C98_forward",
    "C98_laplace",
    "C98_margin_needed"
   ],
   "note": "C98_margin_needed: a dominant matrix of binary64 numbers that the constructor rejects. In the standard model of rounded arithmetic (Approx O u, SpecRound.v: each operation is exact up to relative error u; no overflow or underflow), met by 53-bit round-to-nearest with unbounded exponent (flx_approx) and by exact arithmetic."
  },
  {
   "property": "C99",
   "status": "proved",
   "theorems": [
    "C99_steps",
    "C99_orthogonal",
    "C99_independent",
    "C99_cgs",
    "C99_lauchli"
   ],
   "note": "C99_lauchli: the limit named in the statement, run in binary64. In the standard model of rounded arithmetic (Approx O u, SpecRound.v: each operation is exact up to relative error u; no overflow or underflow), met by 53-bit round-to-nearest with unbounded exponent (flx_approx) and by exact arithmetic."
  }
 ]
}