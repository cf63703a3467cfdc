{
 "claims": [
  {
   "property": "C01",
   "status": "proved",
   "theorems": [
    "C01_random_array_is_rademacher"
   ],
   "note": "serial filling (num_threads=0), the mode used by the sampling loop"
  },
  {
   "property": "C02",
   "status": "proved",
   "theorems": [
    "C02_seed_fixes_stream"
   ],
   "note": ""
  },
  {
   "property": "C03",
   "status": "proved",
   "theorems": [
    "C03_jump_is_2_128_steps",
    "C03_long_jump_is_2_192_steps",
    "C03_thread_stream"
   ],
   "note": ""
  },
  {
   "property": "C04",
   "status": "proved",
   "theorems": [
    "C04_never_all_zero",
    "C04_init_is_state"
   ],
   "note": ""
  },
  {
   "property": "C05",
   "status": "proved",
   "theorems": [
    "C05_full_period",
    "C05_streams_do_not_overlap"
   ],
   "note": ""
  },
  {
   "property": "C06",
   "status": "partial",
   "theorems": [
    "C06_distinct_seeds_partial",
    "C06_distinct_seeds_refuted"
   ],
   "note": "full statement refuted by C06_distinct_seeds_refuted (seeds 1 and 2^32+1 collide); holds for seeds below 2^32"
  },
  {
   "property": "C07",
   "status": "proved",
   "theorems": [
    "C07_dense_matvec",
    "C07_dense_matvec_plus",
    "C07_dense_transposed_matvec",
    "C07_dense_transposed_matvec_plus"
   ],
   "note": "exact arithmetic over any commutative ring, USE_CBLAS=0, unbounded indices"
  },
  {
   "property": "C08",
   "status": "proved",
   "theorems": [
    "C08_csr",
    "C08_csr_transposed",
    "C08_csc",
    "C08_csc_transposed"
   ],
   "note": ""
  },
  {
   "property": "C09",
   "status": "proved",
   "theorems": [
    "C09_format_does_not_matter",
    "C09_transpose_is_adjoint"
   ],
   "note": ""
  },
  {
   "property": "C10",
   "status": "proved",
   "theorems": [
    "C10_inner_product",
    "C10_copy_and_subtract",
    "C10_euclidean_norm",
    "C10_normalize_in_place",
    "C10_normalize_and_copy"
   ],
   "note": ""
  },
  {
   "property": "C11",
   "status": "proved",
   "theorems": [
    "C11_band_matrix"
   ],
   "note": ""
  },
  {
   "property": "C12",
   "status": "proved",
   "theorems": [
    "C12_affine_products",
    "C12_affine_never_fails"
   ],
   "note": "an explicitly given B must not be the zero matrix, see C13"
  },
  {
   "property": "C13",
   "status": "partial",
   "theorems": [
    "C13_identity_test",
    "C13_replaced_only_zero_partial",
    "C13_identity_never_recognised",
    "C13_identity_refuted"
   ],
   "note": "full statement refuted by C13_identity_refuted (a sparse B storing one off-diagonal zero is treated as identity); it holds for every B other than the zero matrix, C13_replaced_only_zero_partial"
  },
  {
   "property": "C17",
   "status": "proved",
   "theorems": [
    "C17_lanczos_basis",
    "C17_setting_irrelevant"
   ],
   "note": "exact arithmetic over any real closed field; A symmetric in any storage"
  },
  {
   "property": "C20",
   "status": "partial",
   "theorems": [
    "C20_golub_kahn_partial",
    "C20_gram_sample_partial",
    "C20_gram_affine_sample_partial",
    "C20_singular_refuted"
   ],
   "note": "full statement refuted by C20_singular_refuted (a start vector with A v = 0 leads to division by zero); proved for every injective A"
  },
  {
   "property": "C21",
   "status": "partial",
   "theorems": [
    "C21_uses_last_vectors",
    "C21_orthogonal_partial",
    "C21_orthogonal_refuted"
   ],
   "note": "index selection proved in full; orthogonality refuted by C21_orthogonal_refuted for a vector equal to one of the buffer, proved when no component has length within 2 eps of 1"
  },
  {
   "property": "C22",
   "status": "partial",
   "theorems": [
    "C22_orthogonalize_vectors_partial",
    "C22_zero_first_vector_refuted",
    "C22_too_many_vectors_abort"
   ],
   "note": "full statement refuted by C22_zero_first_vector_refuted (a zero first vector is kept); proved when the first vector is not almost zero"
  },
  {
   "property": "C53",
   "status": "proved",
   "theorems": [
    "C53_lanczos_in_bounds"
   ],
   "note": "any total operator, linear or not; tolerance positive, start vector non-zero"
  },
  {
   "property": "C14",
   "status": "proved",
   "theorems": [
    "C14_many_parameters",
    "C18_affine_sample_exact"
   ],
   "note": "exact arithmetic; eigh_tridiagonal by contract (met, see Spectral.v); an explicitly given B must not be the zero matrix, see C13; symmetric A + t B"
  },
  {
   "property": "C15",
   "status": "partial",
   "theorems": [
    "C15_gram_shift_refuted",
    "C20_gram_affine_sample_partial"
   ],
   "note": "full statement refuted by C15_gram_shift_refuted; a call for a single t is proved right"
  },
  {
   "property": "C18",
   "status": "proved",
   "theorems": [
    "C18_sample_exact",
    "C18_affine_sample_exact"
   ],
   "note": "exact arithmetic; LAPACK by contract, and the contract is proved satisfiable"
  },
  {
   "property": "C19",
   "status": "proved",
   "theorems": [
    "C19_rademacher",
    "C19_average_of_samples"
   ],
   "note": ""
  },
  {
   "property": "C23",
   "status": "proved",
   "theorems": [
    "C23_bookkeeping",
    "C23_progress",
    "C23_completes",
    "C23_terminates",
    "C23_ends"
   ],
   "note": "Transition system with one step per shared access; every interleaving, thread count and chunk size."
  },
  {
   "property": "C24",
   "status": "partial",
   "theorems": [
    "C24_only_computed_partial",
    "C24_race_refuted"
   ],
   "note": "Full statement refuted by C24_race_refuted (two threads, eigenvalue relation known, two inquiries: a never-written NaN entry is averaged); holds for one inquiry, operators without eigenvalue relation, or one thread."
  },
  {
   "property": "C25",
   "status": "partial",
   "theorems": [
    "C25_own_parameter_partial",
    "C25_shared_operator_refuted"
   ],
   "note": "Full statement refuted by C25_shared_operator_refuted (the parameters of the shared operator are overwritten by another thread); holds for one thread, one inquiry, or a known eigenvalue relation."
  },
  {
   "property": "C26",
   "status": "proved",
   "theorems": [
    "C26_stops_after_convergence"
   ],
   "note": "For single-inquiry runs and operators without eigenvalue relation, as stated."
  },
  {
   "property": "C27",
   "status": "proved",
   "theorems": [
    "C27_convergence_test",
    "C27_converged_every_schedule",
    "C27_confidence_one"
   ],
   "note": ""
  },
  {
   "property": "C28",
   "status": "partial",
   "theorems": [
    "C28_relative_tolerance_partial",
    "C28_negative_mean_refuted"
   ],
   "note": "Full statement refuted by C28_negative_mean_refuted; holds for non-negative means."
  },
  {
   "property": "C29",
   "status": "proved",
   "theorems": [
    "C29_mean_of_inliers",
    "C29_order_irrelevant",
    "C29_one_sample",
    "C29_all_inquiries"
   ],
   "note": ""
  },
  {
   "property": "C30",
   "status": "partial",
   "theorems": [
    "C30_some_sample_stays_partial",
    "C30_all_discarded_refuted"
   ],
   "note": "Full statement refuted by C30_all_discarded_refuted for significance levels whose quantile is below one standard deviation; holds for quantile at least 1 (the bound is sharp)."
  },
  {
   "property": "C31",
   "status": "partial",
   "theorems": [
    "C31_num_inquiries",
    "C31_reads_partial",
    "C31_strided_refuted",
    "C31_backwards_refuted"
   ],
   "note": "number of inquiries proved in full; that each inquiry reads the given parameters is refuted for numpy views with a stride (C31_strided_refuted, C31_backwards_refuted) and proved for scalars, lists and contiguous arrays"
  },
  {
   "property": "C32",
   "status": "partial",
   "theorems": [
    "C32_accepted_iff_partial",
    "C32_nan_refuted",
    "C32_complex_exponent_refuted"
   ],
   "note": "full statement refuted by C32_nan_refuted (not-a-number passes the range tests); without not-a-number exactly the well-formed arguments are accepted"
  },
  {
   "property": "C33",
   "status": "partial",
   "theorems": [
    "C33_lost_memory",
    "C33_released_partial",
    "C33_lost_refuted"
   ],
   "note": "full statement refuted by C33_lost_refuted for every call with more than one inquiry; the exact amount is C33_lost_memory; nothing is lost with one inquiry"
  },
  {
   "property": "C34",
   "status": "partial",
   "theorems": [
    "C34_trace_of_power",
    "C34_gram_partial",
    "C34_gram_zero_partial",
    "C34_float_exponent",
    "C34_wide_refuted",
    "C34_duplicates_refuted"
   ],
   "note": "full statement refuted by C34_wide_refuted (gram, wide matrix, exponent 0) and C34_duplicates_refuted (sparse input with repeated entries, gram, exponent 1); proved for every other case with natural exponents"
  },
  {
   "property": "C35",
   "status": "partial",
   "theorems": [
    "C35_noninteger_rejected_partial",
    "C35_negative_refuted"
   ],
   "note": "full statement refuted by C35_negative_refuted; non-integer exponents are proved to be rejected"
  },
  {
   "property": "C36",
   "status": "partial",
   "theorems": [
    "C36_logdet",
    "C36_gram_tall",
    "C36_gram_square_partial",
    "C36_sparse_scipy",
    "C36_gram_square_refuted"
   ],
   "note": "full statement refuted by C36_gram_square_refuted (gram with a dense square A that is not symmetric); proved for positive-definite A, for tall A, and for sparse A without cholmod"
  },
  {
   "property": "C37",
   "status": "partial",
   "theorems": [
    "C37_traceinv",
    "C37_gram_partial",
    "C37_no_inverse",
    "C37_routes_agree",
    "C37_gram_zero_refuted"
   ],
   "note": "statement for A proved in full; with gram refuted only for p=0, B omitted and a matrix that is not square (C37_gram_zero_refuted)"
  },
  {
   "property": "C38",
   "status": "partial",
   "theorems": [
    "C38_samples_partial",
    "C38_unbiased_partial",
    "C38_negative_refuted",
    "C38_gram_B_refuted",
    "C38_gram_C_refuted"
   ],
   "note": "full statement refuted for p < -1 (every call fails), gram with p=-1 and B given, gram with p=1, C given and B omitted; proved in every other case for square invertible A"
  },
  {
   "property": "C40",
   "status": "partial",
   "theorems": [
    "C40_symmetric",
    "C40_gram_partial",
    "C40_trace_matrix",
    "C40_agrees_with_exact",
    "C40_traceinv_matrix",
    "C40_agrees_with_cholesky",
    "C40_gram_matrix",
    "C40_gram_matrixinv",
    "C40_wide_trace",
    "C40_trexp_series",
    "C40_general",
    "C40_general_matrix",
    "C40_logdet",
    "C40_logdet_gram_partial",
    "C40_logdet_agrees_with_cholesky",
    "C40_logdet_tall",
    "C40_sparse_trace",
    "C40_wide_trexp_refuted",
    "C40_wide_eigencount_refuted",
    "C40_wide_zero_refuted",
    "C40_density_integer_refuted",
    "C40_sparse_refuted",
    "C40_logdet_gram_refuted",
    "C40_logdet_wide_refuted"
   ],
   "note": "exact arithmetic, eigenvalue routines by contract (met, eig_ref_ok). Full statement refuted for wide matrices with gram, for gram logdet with negative determinant, for integer density means and for sparse matrices with the default fraction; proved for symmetric, general (integer p), square and tall gram matrices and given eigenvalues"
  },
  {
   "property": "C39",
   "status": "partial",
   "theorems": [
    "C39_power_mean",
    "C39_formula",
    "C39_exact",
    "C39_multiple",
    "C39_homogeneous",
    "C39_bounds",
    "C39_gram_partial",
    "C39_tall_refuted",
    "C39_tall_zero_refuted",
    "C39_sign_refuted"
   ],
   "note": "proved for symmetric positive-definite matrices and every deterministic method that accepts p; with gram refuted for matrices with more rows than columns (C39_tall_refuted: the number of rows replaces the size of A^T A); without absolute values the result can be negative (C39_sign_refuted)"
  },
  {
   "property": "C57",
   "status": "proved",
   "theorems": [
    "C57_continuous"
   ],
   "note": "exact arithmetic, symmetric positive-definite matrices, eigenvalue method"
  },
  {
   "property": "C41",
   "status": "proved",
   "theorems": [
    "C41_inverse",
    "C41_logarithm",
    "C41_indicator",
    "C41_exponential",
    "C41_homographic",
    "C41_identity_power",
    "C41_gaussian",
    "C41_smoothstep"
   ],
   "note": "exact real arithmetic"
  },
  {
   "property": "C52",
   "status": "proved",
   "theorems": [
    "C52_odd",
    "C52_ends_and_zero",
    "C52_newton_fixed",
    "C52_exact_guess",
    "C52_newton_quadratic",
    "C52_result_below"
   ],
   "note": "exact real arithmetic; C52_newton_quadratic and C52_result_below say more than the property"
  },
  {
   "property": "C42",
   "status": "partial",
   "theorems": [
    "C42_matrix",
    "C42_gram_matrix",
    "C42_trace",
    "C42_trace_method",
    "C42_traceinv",
    "C42_traceinv_gram_partial",
    "C42_large",
    "C42_large_refuted",
    "C42_large_sign_refuted",
    "C42_opposite_refuted",
    "C42_logdet_partial",
    "C42_logdet_negative_refuted",
    "C42_schatten"
   ],
   "note": "exact arithmetic. Trace and plain trace of inverse proved for every size. Gramian trace of inverse proved for size < 200 and a <> -b; from size 200 the error is given exactly (C42_large) and is non-zero for b <> 0, with the wrong sign possible (C42_large_sign_refuted); a = -b divides by zero. Log-determinant proved for a > 0, refuted for negative a"
  },
  {
   "property": "C43",
   "status": "partial",
   "theorems": [
    "C43_points",
    "C43_range",
    "C43_distinct",
    "C43_complete",
    "C43_single_refuted"
   ],
   "note": "proved for every dimension and every size of at least 2; with size 1 every coordinate is not a number (C43_single_refuted)"
  },
  {
   "property": "C44",
   "status": "partial",
   "theorems": [
    "C44_enough",
    "C44_progress",
    "C44_terminates",
    "C44_completes",
    "C44_fails_only_when_full",
    "C44_generates",
    "C44_correct_partial",
    "C44_overflow_bound_partial",
    "C44_overflow_refuted",
    "C44_asymmetric_refuted"
   ],
   "note": "full statement refuted: the unlocked test against max_nnz lets a run write outside the arrays (C44_overflow_refuted) and return a matrix that is not symmetric (C44_asymmetric_refuted). Proved for every schedule when the arrays can hold all entries above the threshold; at most 2T-1 entries are written outside by T threads"
  },
  {
   "property": "C45",
   "status": "proved",
   "theorems": [
    "C45_loop",
    "C45_inside",
    "C45_progress",
    "C45_completes",
    "C45_terminates",
    "C45_kernel",
    "C45_entries",
    "C45_symmetric",
    "C45_diagonal",
    "C45_range",
    "C45_decreasing"
   ],
   "note": "For at most 46340 points (hypothesis fits); the 32-bit index is the subject of C56"
  },
  {
   "property": "C46",
   "status": "partial",
   "theorems": [
    "C46_usable_partial",
    "C46_default_partial",
    "C46_bound_partial",
    "C46_rational_quadratic",
    "C46_abort_refuted",
    "C46_rejected_refuted",
    "C46_rational_quadratic_refuted",
    "C46_parameter_ignored_refuted"
   ],
   "note": "full statement refuted: two of the four accepted names abort the process (C46_abort_refuted), and the rational quadratic kernel exceeds one with its default parameter (C46_rational_quadratic_refuted). Usable names are exactly matern and exponential, and their correlations are in (0, 1] (Matern: for the parameters with a closed form)"
  },
  {
   "property": "C55",
   "status": "partial",
   "theorems": [
    "C55_copy",
    "C55_copy_scaled",
    "C55_subtract_scaled",
    "C55_inner_product",
    "C55_norm",
    "C55_normalize_in_place",
    "C55_normalize_and_copy",
    "C55_matvec_partial",
    "C55_matvec_other_build",
    "C55_matvec_refuted",
    "C55_long_double_refuted"
   ],
   "note": "full statement refuted by C55_matvec_refuted: no row-major matrix that is not square is handled by the CBLAS build. Proved for vector operations, square and column-major matrices"
  },
  {
   "property": "C56",
   "status": "partial",
   "theorems": [
    "C56_position",
    "C56_matvec_partial",
    "C56_transposed_partial",
    "C56_matvec_refuted",
    "C45_index_refuted"
   ],
   "note": "full statement refuted by C56_matvec_refuted: every size above the limit of the index type has wrong products (2^31 entries by default); right up to the limit"
  },
  {
   "property": "C47",
   "status": "partial",
   "theorems": [
    "C47_ext",
    "C47_mbf",
    "C47_imbf",
    "C47_rpf",
    "C47_crf",
    "C47_spl",
    "C47_rbf",
    "C47_imbf_nine_refuted",
    "C47_crf_negative_scale_refuted",
    "C47_rbf_decreasing_refuted",
    "C47_spl_unsorted_refuted"
   ],
   "note": "exact arithmetic; numpy and scipy routines by contract. Full statement refuted: crf with a negative scale (C47_crf_negative_scale_refuted) and rbf with decreasing points (C47_rbf_decreasing_refuted) do not pass through the data. Holds for all other kinds, for crf with a positive scale and rbf with increasing points; rpf at t=0 whenever the value is finite"
  },
  {
   "property": "C48",
   "status": "proved",
   "theorems": [
    "C48_exact_for_two"
   ],
   "note": "exact arithmetic, method exact"
  },
  {
   "property": "C49",
   "status": "proved",
   "theorems": [
    "C49_orthonormal"
   ],
   "note": "improper integral on (0,1] with weight 1/t, for all pairs among the nine tabulated functions of both bases"
  },
  {
   "property": "C58",
   "status": "proved",
   "theorems": [
    "C58_imbf",
    "C58_crf",
    "C58_rbf",
    "C47_spl_builds"
   ],
   "note": "exact arithmetic; the 9-point limit of the ortho basis is one less than documented, see C47_imbf_nine_refuted"
  },
  {
   "property": "C50",
   "status": "proved",
   "theorems": [
    "C50_hold",
    "C50_no_hold",
    "C50_reset",
    "C50_reset_as_new",
    "C50_count",
    "C50_hold_any",
    "C50_repeated_toc_refuted"
   ],
   "note": "integer clock ticks. C50_hold_any and C50_count say what is measured for any calls; C50_repeated_toc_refuted: the documented meaning of several tocs after one tic fails with the default hold=True"
  },
  {
   "property": "C51",
   "status": "proved",
   "theorems": [
    "C51_same_amount",
    "C51_no_unit",
    "C51_documented_units_refuted"
   ],
   "note": "with float64 rounding (Flocq): exact up to 2^53 bytes, to a relative 2^-53 above. C51_no_unit: from 2^91 bytes no unit is assigned. The documented spellings KB, MB, ... are never returned"
  },
  {
   "property": "C59",
   "status": "partial",
   "theorems": [
    "C59_read_peak",
    "C59_read_partial",
    "C59_read_refuted"
   ],
   "note": "full statement refuted by C59_read_refuted: on Linux the peak size is read, so released memory is still reported; holds when the sizes at start and now are the largest so far"
  },
  {
   "property": "C16",
   "status": "partial",
   "theorems": [
    "C16_cpu",
    "C16_right_answer_partial",
    "C16_gpu_only",
    "C16_stale_refuted",
    "C16_interrupted_refuted"
   ],
   "note": "full statement refuted by C16_stale_refuted: after a GPU request and then a CPU request (which stores its own number of devices), a GPU request for another number gets the stale operator. Holds for CPU requests always, and for GPU requests when CPU requests in between repeat the number of devices"
  },
  {
   "property": "C54",
   "status": "partial",
   "theorems": [
    "C54_filled",
    "C54_completes",
    "C54_in_turn",
    "C54_one_thread",
    "C54_reproducible_refuted",
    "C54_repeated_draw_refuted"
   ],
   "note": "full statement refuted for several threads by C54_reproducible_refuted (thread_id is shared, so the same seed can give different arrays) and C54_repeated_draw_refuted (two threads consume the same draw). That every position gets +1 or -1 holds in every schedule; with one thread, or with threads that do not interleave, the draws are the intended ones"
  },
  {
   "property": "C60",
   "status": "partial",
   "theorems": [
    "C60_products_partial",
    "C60_same_partial",
    "C60_csr_partial",
    "C60_vectors",
    "C60_norms",
    "C60_affine_partial",
    "C60_dense_transposed_refuted",
    "C60_affine_dense_refuted",
    "C60_sparse_transposed_refuted",
    "C60_csc_refuted"
   ],
   "note": "full statement refuted by C60_dense_transposed_refuted (the transposed product of a dense matrix overwrites the vector it should add to), C60_affine_dense_refuted (so A + t B with dense B loses A), C60_sparse_transposed_refuted and C60_csc_refuted (rectangular sparse matrices). Everything else holds: dense of any shape, square sparse, CSR of any shape without transpose, vector operations. cuBLAS and cuSPARSE by their documented results"
  },
  {
   "property": "C61",
   "status": "partial",
   "theorems": [
    "C61_lanczos_partial",
    "C61_golub_kahn_partial",
    "C61_affine_lanczos_partial",
    "C61_gram_schmidt_refuted"
   ],
   "note": "full statement refuted by C61_gram_schmidt_refuted: the two Gram-Schmidt processes test different things, so a vector opposite to a basis vector is kept on the CPU and removed on the GPU when n eps > 2 (n > 2^24 in single precision). For n eps <= 1 the iterations agree, for matrices in all storages and for affine functions (Lanczos)"
  },
  {
   "property": "C62",
   "status": "partial",
   "theorems": [
    "C62_square_partial",
    "C62_tall_refuted",
    "C62_wide_refuted"
   ],
   "note": "full statement refuted: for every matrix with more rows than columns the second vector contains uninitialised memory and the returned numbers change with it (C62_tall_refuted); for every matrix with more columns than rows and the default orthogonalize=0 each call writes or reads outside its buffers (C62_wide_refuted). Holds for square matrices with trivial kernel"
  },
  {
   "property": "C63",
   "status": "partial",
   "theorems": [
    "C63_stopping_point",
    "C63_run_partial",
    "C63_returns",
    "C63_returns_refuted",
    "C63_no_outlier_level",
    "C63_error_partial",
    "C63_error_refuted",
    "C63_negative_refuted",
    "C63_positive",
    "C63_used_refuted",
    "C63_raises"
   ],
   "note": "full statement refuted by C63_returns_refuted (ZeroDivisionError for every outlier quantile below one and two different estimates), C63_error_refuted, C63_negative_refuted and C63_used_refuted; C63_run_partial gives the report of every call in which some estimate is kept, which C63_returns shows for every outlier quantile of at least one; C63_stopping_point shows that the stopping point exists and is unique; C63_error_partial bounds the reported error of a converged run without outliers; exact finite arithmetic with the IEEE special values"
  },
  {
   "property": "C64",
   "status": "partial",
   "theorems": [
    "C64_square",
    "C64_rectangular_refuted",
    "C64_wrong_refuted"
   ],
   "note": "full statement refuted for every matrix that is not square by C64_rectangular_refuted (no value unless p=0 without B) and C64_wrong_refuted (then the number of rows in place of the number of columns); C64_square shows that for square matrices the samples are those of C38"
  },
  {
   "property": "C65",
   "status": "partial",
   "theorems": [
    "C65_bound",
    "C65_bound_negative",
    "C65_upper_bound",
    "C65_trace_value",
    "C65_trace_upper_partial",
    "C65_trace_lower",
    "C65_logdet_value",
    "C65_logdet_lower",
    "C65_tracep_conversions",
    "C65_logdet_conversions",
    "C65_eig_dense",
    "C65_norm_met",
    "C65_trace_upper_refuted",
    "C65_sparse_upper_refuted",
    "C65_eig_sparse_refuted",
    "C65_number_refuted"
   ],
   "note": "the bounds are proved for every p (C65_bound, C65_bound_negative, C65_upper_bound, C65_trace_lower, C65_logdet_lower; C65_trace_upper_partial for p < 0 and p >= 1); refuted: the upper bound of the trace for 0 < p < 1 (C65_trace_upper_refuted), upper_bound with a sparse matrix (C65_sparse_upper_refuted), kind='eig' with a sparse matrix (C65_eig_sparse_refuted), a number as ti (C65_number_refuted)"
  },
  {
   "property": "C66",
   "status": "partial",
   "theorems": [
    "C66_orthonormal_partial",
    "C66_plain",
    "C66_returns_partial",
    "C66_wide_refuted",
    "C66_ends",
    "C66_reproducible_partial",
    "C66_seed_abort_refuted",
    "C66_exact",
    "C66_seed_zero_refuted",
    "C66_reproducible_refuted"
   ],
   "note": "C66_orthonormal_partial: orthonormal, or the process is terminated; C66_returns_partial: it returns if no drawn vector is within eps sqrt n of a combination of the preceding ones; C66_exact: exact with n vectors; C66_reproducible_partial: one thread and seed >= 0. Full statement refuted by C66_seed_abort_refuted, C66_seed_zero_refuted, C66_wide_refuted and C66_reproducible_refuted. Arithmetic is exact"
  },
  {
   "property": "C67",
   "status": "partial",
   "theorems": [
    "C67_matrix_run",
    "C67_affine_run",
    "C67_gram_affine_run_partial",
    "C67_alone",
    "C67_matrix_range",
    "C67_affine_range",
    "C67_scalar",
    "C67_reproducible_matrix",
    "C67_reproducible_affine"
   ],
   "note": "proved for matrices and for symmetric affine matrix functions; C67_gram_affine_run_partial: with gram and an affine matrix function only where the eigenvalues are not shifted (the shift with gram is wrong, C15_gram_shift_refuted). Arithmetic is exact; LAPACK by contract"
  },
  {
   "property": "C68",
   "status": "partial",
   "theorems": [
    "C68_samples_partial",
    "C68_one_thread",
    "C68_shapes",
    "C68_plot_partial",
    "C68_last_point",
    "C68_plot_error_refuted",
    "C68_plot_order_refuted"
   ],
   "note": "samples and statistics proved for every schedule outside the case refuted in C24; the plot is right on one thread (C68_one_thread) and has the right last mean if the samples used are the first ones (C68_plot_partial); the full statement about the plot is refuted: the processing order is applied twice (C68_plot_order_refuted), and its error uses the population deviation, so it is below the reported error (C68_plot_error_refuted)"
  },
  {
   "property": "C69",
   "status": "partial",
   "theorems": [
    "C69_matrix_mean",
    "C69_affine_mean",
    "C69_same_function",
    "C69_slq_agrees_partial",
    "C69_trace_methods",
    "C69_traceinv_methods",
    "C69_logdet_methods",
    "C69_arguments",
    "C69_arguments_back",
    "C69_accepted",
    "C69_methods",
    "C69_array_refuted",
    "C69_density_list_refuted",
    "C69_degree_refuted"
   ],
   "note": "missing: logdet with negative eigenvalues or determinant (refuted in C40), gram with a singular matrix; agreement for a degree below the size is refuted by C69_degree_refuted; numpy arrays as interval or coeff are documented but rejected (C69_array_refuted); a list of mu passes the checks but only the eigenvalue method can use it (C69_density_list_refuted)"
  },
  {
   "property": "C70",
   "status": "partial",
   "theorems": [
    "C70_current_partial",
    "C70_snapshot",
    "C70_accepted",
    "C70_untouched",
    "C70_affine_partial",
    "C70_strided_refuted",
    "C70_replaced_refuted",
    "C70_shared_refuted",
    "C70_stale_refuted",
    "C70_index_refuted"
   ],
   "note": "full statement refuted: sparse arrays that are not contiguous are read as if they were (C70_strided_refuted), inserting an entry after the first computation leaves dangling pointers (C70_replaced_refuted), sorting the indices of A in place corrupts a matrix sharing them (C70_shared_refuted), other formats and non-native index arrays do not follow changes (C70_stale_refuted, C70_index_refuted); holds under consecutive, in_place and separate_or_ordered; B must not be zero (C13)"
  },
  {
   "property": "C71",
   "status": "partial",
   "theorems": [
    "C71_dense",
    "C71_dense_transposed",
    "C71_csr",
    "C71_csc_transposed",
    "C71_csc",
    "C71_csr_transposed",
    "C71_vectors",
    "C71_inner_product",
    "C71_norm",
    "C71_unit_length",
    "C71_integers",
    "C71_ieee",
    "C71_ieee_integers",
    "C71_single_dense",
    "C71_single_csr",
    "C71_single_inner_product",
    "C71_single_norm",
    "C71_single_unit_length",
    "C71_csc_drift",
    "C71_csc_refuted",
    "C71_norm_underflow_refuted",
    "C71_norm_long_double_refuted"
   ],
   "note": "full statement refuted: for compressed columns (and transposed compressed rows) the sums are accumulated in the data type and the relative error is not bounded (C71_csc_refuted); squares that underflow make a norm zero (C71_norm_underflow_refuted); where sqrt is that of doubles, norms of float128 vectors are not accurate to float128 (C71_norm_long_double_refuted). Holds for dense matrices, compressed rows, transposed compressed columns and vectors, with explicit bounds for the others. Overflow is not modelled."
  },
  {
   "property": "C72",
   "status": "partial",
   "theorems": [
    "C72_slq_partial",
    "C72_hutchinson_partial",
    "C72_outlier_refuted",
    "C72_scalar_refuted",
    "C72_exponent_refuted",
    "C72_pos_refuted",
    "C72_solver_tol_refuted",
    "C72_hutchinson_outlier_refuted"
   ],
   "note": "full statement refuted: the outlier significance level carries a percent sign without being multiplied by 100 (C72_outlier_refuted, C72_hutchinson_outlier_refuted); printing raises after the whole computation for a scalar parameter of an affine matrix function (C72_scalar_refuted), for an infinite exponent or one that is not a number (C72_exponent_refuted), for assume_matrix='pos' (C72_pos_refuted) and solver_tol=None (C72_solver_tol_refuted). In all other cases C72_slq_partial and C72_hutchinson_partial give the full statement except for the outlier level. The decimal digits of the formats are not modelled."
  },
  {
   "property": "C73",
   "status": "partial",
   "theorems": [
    "C73_accepted_iff_partial",
    "C73_exponent_refuted",
    "C73_columns_refuted",
    "C73_nan_refuted",
    "C73_negative_threads_refuted"
   ],
   "note": "full statement refuted: any scalar is accepted as exponent (C73_exponent_refuted: the exception is built but not raised), B may have any number of columns if A is not square (C73_columns_refuted), not-a-number is accepted (C73_nan_refuted), and the stochastic Lanczos quadrature replaces a negative number of threads before checking it (C73_negative_threads_refuted). C73_accepted_iff_partial shows that these are the only differences for matrices with two dimensions."
  },
  {
   "property": "C74",
   "status": "proved",
   "theorems": [
    "C74_matrix",
    "C74_affine",
    "C74_range",
    "C74_scalar",
    "C74_no_common_draw"
   ],
   "note": "One inquiry; several inquiries on several threads are refuted by C24_race_refuted and C25_shared_operator_refuted. Memory is sequentially consistent and each access of a shared variable is one step."
  },
  {
   "property": "C75",
   "status": "partial",
   "theorems": [
    "C75_tolerance_partial",
    "C75_tolerance_gram_partial",
    "C75_bias_partial",
    "C75_sym_partial",
    "C75_no_solver",
    "C75_dense",
    "C75_info_ignored",
    "C75_unnoticed_refuted",
    "C75_pos_refuted"
   ],
   "note": "Full statement refuted: a solver that does not converge goes unnoticed (C75_unnoticed_refuted, C75_info_ignored), and a dense positive definite matrix that is not symmetric with assume_matrix='pos' gives the samples of another matrix (C75_pos_refuted). Proved when every solver call of the sample reports success; for 'sym' under the stopping rule of minres; p < -1 and two gram cases as in C38."
  },
  {
   "property": "C76",
   "status": "proved",
   "theorems": [
    "C76_variance",
    "C76_spread",
    "C76_spread_sym",
    "C76_exact_iff",
    "C76_mean_of_draws",
    "C76_few_far_draws",
    "C76_slq",
    "C76_hutchinson",
    "C76_no_spread"
   ],
   "note": "Exact arithmetic. The vectors of signs range over all choices with equal weight; that a pseudorandom generator picks among them evenly is not claimed."
  },
  {
   "property": "C77",
   "status": "partial",
   "theorems": [
    "C77_eigh_status",
    "C77_svd_status",
    "C77_contracts",
    "C77_sample",
    "C77_long_double",
    "C77_long_double_of_doubles",
    "C77_long_double_svd",
    "C77_long_double_refuted",
    "C77_status_ignored",
    "C77_unnoticed_refuted",
    "C77_work_refuted",
    "C77_int_sizes"
   ],
   "note": "Full statement refuted: the status is never looked at (C77_status_ignored, C77_unnoticed_refuted; the assertion is of a string), float128 input is cast to double for the decomposition (C77_long_double_refuted), and for k = 1 the work array is shorter than documented (C77_work_refuted; harmless with the reference LAPACK). Proved for float32 and float64 when LAPACK reports success, for float128 with the entries cast to double, and sizes fit the type int exactly for k up to 26754."
  },
  {
   "property": "C78",
   "status": "partial",
   "theorems": [
    "C78_slq_partial",
    "C78_cpu_devices_refuted",
    "C78_hutchinson",
    "C78_data_types"
   ],
   "note": "Full statement refuted: with gpu=False the dictionary has the num_gpu_devices the caller gave although no device took part (C78_cpu_devices_refuted). Proved for all other entries, and for the devices when gpu=True or num_gpu_devices=0. Of the dictionary, the size, density and number of non-zeros of the matrix, the version, the seed and the arrays of samples are not part of this property (see C27, C69)."
  },
  {
   "property": "C79",
   "status": "partial",
   "theorems": [
    "C79_version_txt",
    "C79_version_json",
    "C79_version_header",
    "C79_blank_refuted",
    "C79_found",
    "C79_complete",
    "C79_complete_path",
    "C79_none",
    "C79_no_libraries",
    "C79_no_headers_refuted",
    "C79_no_path_refuted",
    "C79_info",
    "C79_info_none",
    "C79_info_refuted",
    "C79_processor",
    "C79_colon_refuted"
   ],
   "note": "Full statement refuted in five corners: a blank at the end of version.txt raises ValueError (C79_blank_refuted); a home without include directory gives an empty dictionary where one without libraries raises an error, and the search does not go on (C79_no_headers_refuted); without PATH in the environment the call raises KeyError (C79_no_path_refuted); imate.info raises TypeError if the version has two numbers (C79_info_refuted); a colon in the name of the processor cuts the name (C79_colon_refuted). The rest is proved for POSIX systems; Windows paths and macOS are not modelled."
  },
  {
   "property": "C80",
   "status": "partial",
   "theorems": [
    "C80_right",
    "C80_calls",
    "C80_missing_refuted",
    "C80_pending_refuted",
    "C80_missing_windows",
    "C80_windows_refuted",
    "C80_mac_refuted"
   ],
   "note": "Full statement refuted: a missing function does not raise on Linux and macOS but runs into undefined behaviour, since dlerror is called twice and the second result is NULL (C80_missing_refuted); so does an earlier error of the thread if success does not forget it (C80_pending_refuted); the library names are wrong on Windows and macOS (C80_windows_refuted, C80_mac_refuted). Proved on Linux: C80_right without conditions, C80_calls if the libraries that are there have all functions. Reads and writes of a pointer are taken as single steps."
  },
  {
   "property": "C81",
   "status": "partial",
   "theorems": [
    "C81_distinct_partial",
    "C81_resolution_refuted",
    "C81_apart_refuted",
    "C81_failed_refuted",
    "C81_double_nearest"
   ],
   "note": "Full statement refuted: the time is computed in doubles, so that calls in the same interval of 256 nanoseconds start from the same state (C81_resolution_refuted); calls 2^40 nanoseconds apart can, since the upper half of the seed is combined with the lower half by or (C81_apart_refuted); a clock that cannot be read gives uninitialised memory (C81_failed_refuted). Proved for calls more than 256 nanoseconds and less than 2^40 - 256 nanoseconds (18 minutes) apart. The clocks of Windows and of systems without clock_gettime are not modelled."
  },
  {
   "property": "C82",
   "status": "partial",
   "theorems": [
    "C82_released",
    "C82_devices",
    "C82_affine_devices_refuted",
    "C82_no_device",
    "C82_too_many_refuted",
    "C82_limit_refuted",
    "C82_memory_refuted",
    "C82_kept_refuted"
   ],
   "note": "Full statement refuted: A + t B uses all devices of the machine whatever number is requested (C82_affine_devices_refuted); too large a number ends the process instead of raising (C82_too_many_refuted); with a limit of the number of threads below the number of devices the destructor reads pointers that were never written (C82_limit_refuted); a failed allocation leaves a pointer to released memory (C82_memory_refuted); an operator kept from a call with fewer devices lacks those of the others (C82_kept_refuted). Proved: without such a limit and failure, no use of a missing resource and all released (C82_released), a matrix uses exactly the n devices (C82_devices), no device raises (C82_no_device). The code of one thread in the parallel regions of constructors and destructors is taken as a single step."
  },
  {
   "property": "C83",
   "status": "partial",
   "theorems": [
    "C83_room",
    "C83_threads_refuted",
    "C83_basis_refuted",
    "C83_degree_refuted",
    "C83_short",
    "C83_kept"
   ],
   "note": "Full statement refuted: the random vectors of all threads together are counted by an int in every build, so rows times threads must stay below 2^31 (C83_threads_refuted); rows times kept vectors must stay below the range of the index type of the build (C83_basis_refuted, 2^31 by default); a high degree overflows the size of the work space of LAPACK (C83_degree_refuted). C83_room proves that these three conditions are exactly what is needed, for all inputs; C83_short that with a fixed number of vectors to orthogonalize against the room does not depend on the degree. Signed overflow is taken to wrap around."
  },
  {
   "property": "C84",
   "status": "partial",
   "theorems": [
    "C84_constant",
    "C84_function",
    "C84_raises",
    "C84_shape_refuted",
    "C84_type_refuted",
    "C84_none_refuted"
   ],
   "note": "Full statement refuted: lengths and strides are never looked at (C84_shape_refuted; a strided vector gives the product with other numbers, example C84_stride_refuted, and a short one is read past its end, example C84_length_refuted); a vector of another precision than the matrix dereferences NULL (C84_type_refuted); A + t B without a parameter dereferences NULL or released memory (C84_none_refuted). C84_raises gives exactly the calls that raise. Proved for contiguous vectors of the right type and length in different blocks of memory, after any history (C84_constant, C84_function)."
  },
  {
   "property": "C86",
   "status": "proved",
   "theorems": [
    "C86_sample",
    "C86_affine",
    "C86_logdet",
    "C86_monotone",
    "C86_code_function",
    "C86_one_step_biased"
   ],
   "note": "In exact real arithmetic; the contracts of LAPACK are hypotheses, met by eigh_contract_met and svd_contract_met. Affine matrix functions without gram. C86_one_step_biased shows that the allowance for the degree is needed."
  },
  {
   "property": "C85",
   "status": "proved",
   "theorems": [
    "C85_function",
    "C85_inverse",
    "C85_inverse_affine",
    "C85_traceinv",
    "C85_trace",
    "C85_monotone",
    "C85_code_function",
    "C85_one_step_biased"
   ],
   "note": "In exact arithmetic (real closed fields), for the inverse and for any function with a close polynomial. C85_trace asks that an early stop leaves no remainder; C85_traceinv does not. C85_one_step_biased shows that the allowance for the degree is needed. Affine matrix functions without gram; the contracts of LAPACK are hypotheses, met by eigh_contract_met and svd_contract_met."
  },
  {
   "property": "C87",
   "status": "partial",
   "theorems": [
    "C87_gpu_name",
    "C87_driver",
    "C87_number",
    "C87_gpus",
    "C87_absent",
    "C87_silent",
    "C87_total",
    "C87_restrict",
    "C87_driver_two_refuted",
    "C87_slices_refuted",
    "C87_failed_refuted"
   ],
   "note": "Holds for the name, and for version and number when the report has one version line and the list only lines of GPUs. Full statement refuted by C87_driver_two_refuted (two versions are returned as one text), C87_slices_refuted (lines for slices of a GPU are counted as GPUs) and C87_failed_refuted (a list that fails after a check that passed is counted). ASCII output; decoding errors are not modelled."
  },
  {
   "property": "C88",
   "status": "proved",
   "theorems": [
    "C88_sample",
    "C88_affine",
    "C88_trexp",
    "C88_degree",
    "C88_code_function",
    "C88_one_step_biased"
   ],
   "note": "In exact real arithmetic, for exponent p=1; the contracts of LAPACK are hypotheses, met by eigh_contract_met and svd_contract_met. Affine matrix functions without gram. C88_one_step_biased shows that the allowance for the degree is needed."
  },
  {
   "property": "C89",
   "status": "proved",
   "theorems": [
    "C89_sample",
    "C89_affine",
    "C89_trlinfrac",
    "C89_linear",
    "C89_target",
    "C89_monotone",
    "C89_code_function",
    "C89_one_step_biased"
   ],
   "note": "In exact real arithmetic, for exponent p=1; the contracts of LAPACK are hypotheses, met by eigh_contract_met and svd_contract_met. Affine matrix functions without gram. C89_target: c N + d I is invertible and the trace is the sum over the eigenvalues. C89_one_step_biased shows that the allowance for the degree is needed."
  },
  {
   "property": "C90",
   "status": "partial",
   "theorems": [
    "C90_ball",
    "C90_raises",
    "C90_kept",
    "C90_grid",
    "C90_room",
    "C90_retries",
    "C90_returns",
    "C90_line_room",
    "C90_line",
    "C90_allowance_refuted"
   ],
   "note": "Full statement refuted by C90_allowance_refuted: the allowance of the first arrays shrinks with the dimension, and in 18 dimensions there is less room than the estimated number of entries, so a second attempt is needed (C90_retries bounds the attempts). All else holds; exact arithmetic, sequentially consistent memory."
  },
  {
   "property": "C92",
   "status": "partial",
   "theorems": [
    "C92_accuracy",
    "C92_not_negative",
    "C92_zero",
    "C92_positive",
    "C92_set_back_refuted",
    "C92_failed"
   ],
   "note": "Full statement refuted by C92_set_back_refuted: the clock of the day is read, and if it is set back by two microseconds or more during the call the reported time is negative. All else holds, and C92_not_negative holds if the clock is not set back. Unix branch; no fused multiplication."
  },
  {
   "property": "C93",
   "status": "partial",
   "theorems": [
    "C93_released",
    "C93_repeated",
    "C93_properties",
    "C93_no_device",
    "C93_reported",
    "C93_error_refuted",
    "C93_first_error_refuted"
   ],
   "note": "Full statement refuted by C93_error_refuted and C93_first_error_refuted: errors of cudaGetDeviceProperties are ignored, so a device then has the numbers of the device before, and the first device indeterminate ones. Holds if the library tells the properties of all devices; the statements on memory hold in any case."
  },
  {
   "property": "C94",
   "status": "partial",
   "theorems": [
    "C94_safe",
    "C94_narrow_refuted"
   ],
   "note": "Full statement refuted by C94_narrow_refuted: for double the sizes of the type and of a pointer to it are swapped in the allocations, so on platforms with pointers smaller than a double NaN is written behind every row. C94_safe holds for float and long double on every platform and for double where both sizes are equal (64 bit)."
  },
  {
   "property": "C91",
   "status": "partial",
   "theorems": [
    "C91_toeplitz",
    "C91_toeplitz_raises",
    "C91_documented",
    "C91_built_partial",
    "C91_density",
    "C91_abort",
    "C91_flag_refuted",
    "C91_scale_refuted",
    "C91_density_refuted"
   ],
   "note": "Full statement holds for toeplitz. For correlation_matrix it is refuted: flags that are not boolean are taken by their truth value (C91_flag_refuted: sparse='False' gives a sparse matrix), scale=nan is accepted (C91_scale_refuted), a complex density is accepted for dense matrices (C91_density_refuted), and the accepted names square_exponential and rational_quadratic abort the process (C91_abort). C91_documented holds for the kernels matern and exponential; C91_built_partial shows that nothing but the flags, scales that are NaN or infinite and the density of dense matrices gets through."
  },
  {
   "property": "C95",
   "status": "proved",
   "theorems": [
    "C95_derivatives",
    "C95_curvature",
    "C95_smooth",
    "C95_scale"
   ],
   "note": "Real arithmetic; the integral is an arbitrary functional and the minimiser any that never gives a point worse than its start. C47_crf needs a positive scale, which C95_scale provides."
  }
 ]
}