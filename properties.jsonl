{"id": "C01", "title": "Random test vectors are Rademacher, for every length", "statement": "Filling an array of any length (multiple of 64 or not) from one generator writes every position exactly once with +1.0 or -1.0, never anything else and nothing outside the array; position i is +1 exactly when bit (i mod 64) of the (i div 64)-th 64-bit draw is set, and exactly (length div 64)+1 draws are consumed.", "quantifier": "all array lengths, all generator states, all positions", "why_tests_cant": "The interesting lengths (remainders 0..63, huge sizes) and generator states are unbounded; a unit test samples a few.", "anchors": ["imate/_random_generator/random_array_generator.cpp: generate_random_array"]}
{"id": "C02", "title": "A non-negative seed fixes the whole random stream", "statement": "With a non-negative seed the sequence of numbers a thread draws depends only on the seed, the thread number and the number of earlier draws of that thread: neither the clock nor what other threads draw, in any interleaving, can change it. With a negative seed the clock is used.", "quantifier": "all seeds, clocks, thread counts and interleavings of draws", "why_tests_cant": "Interleavings of draws by threads and clock values are unbounded.", "anchors": ["imate/_random_generator/split_mix_64.cpp: SplitMix64", "imate/_random_generator/random_number_generator.cpp: initialize, next"]}
{"id": "C03", "title": "Thread t reads the seed stream advanced by (t+1)*2^128 draws", "statement": "The generator handed to thread t is exactly the seed generator after (t+1)*2^128 calls of next(); the long jump advances exactly 2^192 calls.", "quantifier": "all 2^256 generator states, all thread numbers", "why_tests_cant": "The claim is about 2^128 iterations of the generator; it cannot be run.", "anchors": ["imate/_random_generator/xoshiro_256_star_star.cpp: next, jump, long_jump", "imate/_random_generator/random_number_generator.cpp: initialize"]}
{"id": "C04", "title": "The generator never degenerates to the all-zero state", "statement": "For every 64-bit seed (and every clock value) the state built by the constructor is not all zero, and no sequence of next/jump/long_jump calls ever makes it all zero.", "quantifier": "all seeds, all call histories", "why_tests_cant": "2^64 seeds and unbounded histories.", "anchors": ["imate/_random_generator/split_mix_64.cpp: next", "imate/_random_generator/xoshiro_256_star_star.cpp: xoshiro_256_star_star, next, jump"]}
{"id": "C05", "title": "Random streams of different threads do not overlap", "statement": "For one seed, and fewer than 2^127 threads each drawing at most 2^128 numbers, no two (thread, draw number) pairs ever have the same generator state; the period of the generator is 2^256-1 from every non-zero state.", "quantifier": "all seeds, all pairs of threads, all pairs of draw positions", "why_tests_cant": "A statement about a period of 2^256-1.", "anchors": ["imate/_random_generator/xoshiro_256_star_star.cpp: next, jump", "imate/_random_generator/random_number_generator.cpp: initialize"]}
{"id": "C06", "title": "Different seeds give different generators", "statement": "Two different non-negative seeds produce different generator states.", "quantifier": "all pairs of 63-bit seeds", "why_tests_cant": "Quadratically many pairs of 64-bit values.", "anchors": ["imate/_random_generator/split_mix_64.cpp: SplitMix64", "imate/_random_generator/xoshiro_256_star_star.cpp: xoshiro_256_star_star"]}
{"id": "C07", "title": "Dense matrix-vector kernels compute A.x", "statement": "For every matrix shape, storage order and contents, the dense kernels (dot, transposed dot, and their accumulate-with-scale forms) write exactly the mathematical product (c = A b, c = A^T b, c += alpha A b, c += alpha A^T b), in exact arithmetic, reading and writing only inside the given arrays.", "quantifier": "all shapes (including sizes not divisible by the unrolling factor), contents, scales", "why_tests_cant": "Unbounded shapes; the unrolled remainder loop is only exercised at particular sizes.", "anchors": ["imate/_c_basic_algebra/c_matrix_operations.cpp: dense_matvec, dense_matvec_plus, dense_transposed_matvec, dense_transposed_matvec_plus"]}
{"id": "C08", "title": "CSR and CSC kernels compute A.x", "statement": "For every well-formed CSR/CSC triple (including empty rows, unsorted and duplicate entries, which add up), the sparse kernels write exactly the product with the matrix the triple denotes, in exact arithmetic, with all accesses inside the arrays.", "quantifier": "all well-formed sparse structures, vectors and scales", "why_tests_cant": "Unbounded sparsity patterns.", "anchors": ["imate/_c_basic_algebra/c_matrix_operations.cpp: csr_matvec, csr_matvec_plus, csr_transposed_matvec, csr_transposed_matvec_plus, csc_matvec, csc_matvec_plus, csc_transposed_matvec, csc_transposed_matvec_plus"]}
{"id": "C09", "title": "Storage format does not matter, and transpose is the adjoint", "statement": "The same matrix stored dense row-major, dense column-major, CSR or CSC gives the same dot and transpose_dot results; <A x, y> = <x, A^T y> holds between dot and transpose_dot of each format.", "quantifier": "all matrices, all vectors, all pairs of formats", "why_tests_cant": "Cross-format equality over unbounded inputs.", "anchors": ["imate/_c_linear_operator/c_dense_matrix.cpp: dot, transpose_dot", "imate/_c_linear_operator/c_csr_matrix.cpp: dot, transpose_dot", "imate/_c_linear_operator/c_csc_matrix.cpp: dot, transpose_dot"]}
{"id": "C10", "title": "Vector primitives are exact", "statement": "inner_product, euclidean_norm, copy, copy_scaled, subtract_scaled and the two normalisations equal their mathematical definitions for every vector length (unrolled loop and remainder); normalising a non-zero vector returns its norm and leaves a vector of norm 1.", "quantifier": "all vector lengths and contents", "why_tests_cant": "The remainder handling depends on length mod 5; unbounded lengths.", "anchors": ["imate/_c_basic_algebra/c_vector_operations.cpp: copy_vector, copy_scaled_vector, subtract_scaled_vector, inner_product, euclidean_norm, normalize_vector_in_place, normalize_vector_and_copy"]}
{"id": "C11", "title": "create_band_matrix lays the Lanczos coefficients in the right band", "statement": "The dense matrix built from diagonal and off-diagonal arrays has exactly these bands: diagonal d, superdiagonal s, and (only in tridiagonal mode) the same subdiagonal; no write falls outside the matrix, for every non-zero size.", "quantifier": "all sizes and arrays", "why_tests_cant": "Unbounded size.", "anchors": ["imate/_c_basic_algebra/c_matrix_operations.cpp: create_band_matrix"]}
{"id": "C12", "title": "AffineMatrixFunction computes (A + t B) v for the latest t", "statement": "After any sequence of parameter settings, dot(v) returns A v + t B v and transpose_dot(v) returns A^T v + t B^T v for the parameter most recently set, with B the identity when it is omitted, whatever the storage format.", "quantifier": "all matrices A, B, parameter histories and vectors", "why_tests_cant": "Histories and matrices are unbounded.", "anchors": ["imate/_c_linear_operator/c_dense_affine_matrix_function.cpp: dot, transpose_dot", "imate/_c_linear_operator/c_csr_affine_matrix_function.cpp: dot, transpose_dot", "imate/_c_linear_operator/c_csc_affine_matrix_function.cpp: dot, transpose_dot", "imate/_c_linear_operator/c_affine_matrix_function.cpp: _add_scaled_vector"]}
{"id": "C13", "title": "B is treated as the identity exactly when it is the identity", "statement": "An explicitly given B is replaced by the identity only if B is the identity matrix, so that AffineMatrixFunction(A, B) always represents t -> A + t B.", "quantifier": "all sparse and dense matrices B", "why_tests_cant": "All matrices.", "anchors": ["imate/_c_linear_operator/c_csr_matrix.cpp: is_identity_matrix", "imate/_c_linear_operator/c_csc_matrix.cpp: is_identity_matrix", "imate/_c_linear_operator/c_dense_matrix.cpp: is_identity_matrix"]}
{"id": "C14", "title": "Shifting Ritz values equals re-running Lanczos at the new parameter", "statement": "For A + t I the quadrature nodes and weights derived from the first parameter (nodes shifted by t_j - t_0, same weights) are the ones Lanczos would produce at t_j with the same starting vector, so results for many t from one call agree with one call per t (exact arithmetic).", "quantifier": "all symmetric A, parameters, starting vectors, degrees and reorthogonalisation settings", "why_tests_cant": "Equality of two iterative processes for all inputs.", "anchors": ["imate/_c_linear_operator/c_affine_matrix_function.cpp: get_eigenvalue", "imate/_c_trace_estimator/c_trace_estimator.cpp: _c_stochastic_lanczos_quadrature", "imate/_c_trace_estimator/c_lanczos_tridiagonalization.cpp: c_lanczos_tridiagonalization"]}
{"id": "C15", "title": "Multi-parameter results are also right in gram mode", "statement": "With gram=True and B omitted, the result for each parameter t_j is the estimate for (A + t_j I)^T (A + t_j I).", "quantifier": "all A, all parameter lists", "why_tests_cant": "All matrices and parameters.", "anchors": ["imate/_c_linear_operator/c_affine_matrix_function.cpp: get_eigenvalue", "imate/_c_trace_estimator/c_trace_estimator.cpp: _c_stochastic_lanczos_quadrature"]}
{"id": "C16", "title": "LinearOperator hands out an operator for the requested device configuration", "statement": "After any history of initialize(gpu, num_gpu_devices) calls and operator requests, the operator returned by the latest request is of the requested kind and, for the GPU, was built for the requested number of devices (0 meaning all).", "quantifier": "all call histories", "why_tests_cant": "Caching bugs need particular call histories.", "anchors": ["imate/linear_operator/matrix.py: initialize", "imate/linear_operator/affine_matrix_function.py: initialize", "imate/linear_operator/linear_operator.py: get_linear_operator"]}
{"id": "C17", "title": "Lanczos produces an orthonormal basis and the projected matrix", "statement": "In exact arithmetic, for symmetric A and any non-zero starting vector, the vectors the iteration visits are orthonormal and the returned alpha, beta are the diagonal and off-diagonal of V^T A V, for every reorthogonalisation setting (the circular buffer never loses a vector that is still needed), and reorthogonalisation never changes the result.", "quantifier": "all symmetric matrices, start vectors, degrees, orthogonalize settings", "why_tests_cant": "Induction over iterations; buffer wrap-around depends on degree and setting.", "anchors": ["imate/_c_trace_estimator/c_lanczos_tridiagonalization.cpp: c_lanczos_tridiagonalization"]}
{"id": "C18", "title": "A stochastic Lanczos quadrature sample is exact for polynomials", "statement": "In exact arithmetic the quadrature sample equals n * v^T f(A) v / v^T v for every polynomial f of degree at most 2k-1, where k is the number of iterations performed (k = m unless the residual dropped below the tolerance), and for every function f when the residual vanished.", "quantifier": "all symmetric A, start vectors, degrees m, polynomials f and, after a vanishing residual, all functions f", "why_tests_cant": "Quantifies over all polynomials and matrices.", "anchors": ["imate/_c_trace_estimator/c_trace_estimator.cpp: _c_stochastic_lanczos_quadrature", "imate/_c_trace_estimator/c_lanczos_tridiagonalization.cpp: c_lanczos_tridiagonalization"]}
{"id": "C19", "title": "The estimator is unbiased over Rademacher vectors", "statement": "Averaged over all 2^n sign vectors, v^T M v equals trace(M); hence the average of the quadrature samples equals the requested trace for every matrix function that the quadrature integrates exactly.", "quantifier": "all matrices M and sizes n", "why_tests_cant": "Sum over 2^n vectors for every n.", "anchors": ["imate/_random_generator/random_array_generator.cpp: generate_random_array", "imate/_c_trace_estimator/c_trace_estimator.cpp: _c_stochastic_lanczos_quadrature"]}
{"id": "C20", "title": "Golub-Kahn bidiagonalisation reproduces the Gram matrix", "statement": "In exact arithmetic, for any A and non-zero starting vector, the left and right vectors are orthonormal, A V = U B with B upper bidiagonal (alpha, beta), so B^T B = V^T A^T A V, for every reorthogonalisation setting, and the gram-mode sample is exact for polynomials of degree at most 2m-1 in A^T A.", "quantifier": "all matrices, start vectors, degrees and settings", "why_tests_cant": "Induction over iterations for all inputs.", "anchors": ["imate/_c_trace_estimator/c_golub_kahn_bidiagonalization.cpp: c_golub_kahn_bidiagonalization"]}
{"id": "C21", "title": "Gram-Schmidt against the circular buffer uses exactly the last vectors", "statement": "gram_schmidt_process orthogonalises against exactly the requested number of most recent vectors of the circular buffer (all of them for a negative count), wrapping around correctly and never indexing outside the buffer; when those are orthonormal the result is orthogonal to each of them.", "quantifier": "all buffer sizes, fill positions, counts and vector contents", "why_tests_cant": "Wrap-around combinations are unbounded.", "anchors": ["imate/_c_trace_estimator/c_orthogonalization.cpp: gram_schmidt_process"]}
{"id": "C22", "title": "orthogonalize_vectors yields mutually orthogonal columns", "statement": "After orthogonalize_vectors on k vectors of size n, every vector is non-zero and orthogonal to each of the preceding vectors it is processed against (all preceding ones when k <= n+1, the last n otherwise); if it cannot achieve this the routine aborts rather than returning.", "quantifier": "all vector sets, all sequences of replacement random vectors", "why_tests_cant": "Depends on arbitrary replacement randomness.", "anchors": ["imate/_c_trace_estimator/c_orthogonalization.cpp: orthogonalize_vectors"]}
{"id": "C23", "title": "Sample bookkeeping is consistent in every schedule", "statement": "For every number of threads and every interleaving of the parallel sampling loop, the recorded processed sample indices are valid, pairwise distinct, at most max_num_samples many, at least min_num_samples many, and each result uses between min_num_samples and the number processed.", "quantifier": "all thread counts, all interleavings, all sample values", "why_tests_cant": "Schedules cannot be enumerated by tests.", "anchors": ["imate/_c_trace_estimator/c_trace_estimator.cpp: c_trace_estimator", "imate/_c_trace_estimator/convergence_tools.cpp: check_convergence"]}
{"id": "C24", "title": "Only samples that were actually computed enter the result", "statement": "In every interleaving, every (sample, inquiry) entry that the reported mean of an inquiry uses was written by the sampling loop before it was used; an unwritten (NaN) entry never contributes.", "quantifier": "all thread counts, inquiries, interleavings", "why_tests_cant": "A race between convergence flags and sampling.", "anchors": ["imate/_c_trace_estimator/c_trace_estimator.cpp: c_trace_estimator, _c_stochastic_lanczos_quadrature", "imate/_c_trace_estimator/convergence_tools.cpp: check_convergence"]}
{"id": "C25", "title": "Each sample is computed with the parameter it belongs to", "statement": "When several parameters are requested, the sample stored for inquiry j is computed with parameter t_j throughout, whatever the number of threads and the interleaving.", "quantifier": "all thread counts, inquiries, interleavings", "why_tests_cant": "A data race on the shared operator.", "anchors": ["imate/_c_linear_operator/c_linear_operator.cpp: set_parameters", "imate/_c_trace_estimator/c_trace_estimator.cpp: _c_stochastic_lanczos_quadrature"]}
{"id": "C26", "title": "Sampling stops after convergence", "statement": "Once the convergence test has succeeded for all inquiries no thread starts a new sample; at most num_threads - 1 samples that were already running are still added, and a converged flag is never withdrawn (single-inquiry runs and operators without eigenvalue relation).", "quantifier": "all schedules", "why_tests_cant": "Schedules cannot be enumerated by tests.", "anchors": ["imate/_c_trace_estimator/c_trace_estimator.cpp: c_trace_estimator"]}
{"id": "C27", "title": "converged means the documented error criterion holds", "statement": "An inquiry is reported converged only if at least min_num_samples samples were used and z * std / sqrt(k) over the samples used is below the tolerance max(atol, rtol * mean); below min_num_samples nothing is converged and the error is infinite; with one sample nothing is converged.", "quantifier": "all sample matrices, processing orders, tolerances", "why_tests_cant": "All real sample values and orders.", "anchors": ["imate/_c_trace_estimator/convergence_tools.cpp: check_convergence"]}
{"id": "C28", "title": "The relative tolerance is relative to the magnitude of the result", "statement": "If the samples of an inquiry scatter by less than rtol times the magnitude of their mean, the inquiry converges, whatever the sign of the result.", "quantifier": "all sample sets", "why_tests_cant": "All real samples, either sign.", "anchors": ["imate/_c_trace_estimator/convergence_tools.cpp: check_convergence", "imate/traceinv/_convergence_tools.py: check_convergence"]}
{"id": "C29", "title": "The reported value is the mean of the non-outlying samples, in any order", "statement": "trace and error equal mean and z*std/sqrt(k) of the samples within the outlier interval; they lie between the extreme samples, num_outliers counts exactly the removed ones, and none depends on the order in which the samples were processed.", "quantifier": "all sample sets, all permutations", "why_tests_cant": "All permutations and real samples.", "anchors": ["imate/_c_trace_estimator/convergence_tools.cpp: average_estimates"]}
{"id": "C30", "title": "Outlier removal never discards every sample", "statement": "Whatever the samples, outlier removal leaves at least one sample, so the reported mean is defined.", "quantifier": "all sample sets and significance levels accepted by the API", "why_tests_cant": "All real samples and levels.", "anchors": ["imate/_c_trace_estimator/convergence_tools.cpp: average_estimates", "imate/_trace_estimator/trace_estimator_utilities.py: check_arguments"]}
{"id": "C31", "title": "The number of inquiries is derived from the parameters", "statement": "For an operator with k parameters and a parameter array of size s: k=0 gives 1 inquiry; s<k or k not dividing s is rejected with ValueError; otherwise s/k inquiries are made and inquiry j reads parameters j*k .. j*k+k-1, all inside the array.", "quantifier": "all k and s", "why_tests_cant": "All sizes.", "anchors": ["imate/_trace_estimator/trace_estimator_utilities.py: find_num_inquiries", "imate/_c_trace_estimator/c_trace_estimator.cpp: _c_stochastic_lanczos_quadrature"]}
{"id": "C32", "title": "Accepted sampling arguments make the run well defined", "statement": "check_arguments accepts only argument combinations with 1 <= min_num_samples <= max_num_samples, 0 <= confidence_level <= 1, 0 <= outlier level <= 1 - confidence_level, non-negative tolerances, lanczos_degree >= 1, orthogonalize <= lanczos_degree, and rejects every other combination of integers/reals with ValueError or TypeError.", "quantifier": "all argument tuples", "why_tests_cant": "The product of all argument values.", "anchors": ["imate/_trace_estimator/trace_estimator_utilities.py: check_arguments"]}
{"id": "C33", "title": "All memory allocated by a sample is released", "statement": "Every array allocated while computing a sample has been freed when the sample is finished.", "quantifier": "all inquiries counts, operators, convergence states", "why_tests_cant": "Leak accounting for every parameter combination.", "anchors": ["imate/_c_trace_estimator/c_trace_estimator.cpp: _c_stochastic_lanczos_quadrature"]}
{"id": "C34", "title": "The exact trace method returns trace(A^p) / trace((A^T A)^p)", "statement": "For every square A (or any A with gram=True) and every natural p the exact method returns trace(A^p), respectively trace((A^T A)^p).", "quantifier": "all matrices over a commutative ring, all p", "why_tests_cant": "All matrices and exponents.", "anchors": ["imate/trace/_exact_method.py: exact_method"]}
{"id": "C35", "title": "Negative or non-integer exponents are rejected by the exact trace method", "statement": "trace(A, p=p, method=exact) raises for p<0 or non-integer p instead of returning a number.", "quantifier": "all p", "why_tests_cant": "All exponents.", "anchors": ["imate/trace/_exact_method.py: check_arguments"]}
{"id": "C36", "title": "Cholesky log-determinant is log det(A^p)", "statement": "For every symmetric positive-definite A with Cholesky factor L, the Cholesky method returns p * log det A; with gram=True it returns p * log det(A^T A), both for square A and for tall A.", "quantifier": "all positive-definite matrices, all p", "why_tests_cant": "All matrices.", "anchors": ["imate/logdet/_cholesky_method.py: cholesky_method"]}
{"id": "C37", "title": "Cholesky traceinv is trace(A^-p B), by either route", "statement": "For every symmetric positive-definite A, symmetric positive-definite or omitted B, and integer p, the direct route (inverse of the factor) and the column-by-column route both return trace(A^{-p} B), also when the sparse factor is permuted.", "quantifier": "all matrices, permutations, p", "why_tests_cant": "All matrices and permutations.", "anchors": ["imate/traceinv/_cholesky_method.py: cholesky_method, _compute_traceinv_invert_cholesky_directly, _compute_traceinv_invert_cholesky_indirectly"]}
{"id": "C38", "title": "Hutchinson samples are n e^T Op e with Op the documented operator", "statement": "For every p, gram flag and optional B, C, the sample computed by the Hutchinson method for a unit vector e equals n * e^T Op e for an operator with trace(Op) = trace(B X^{-p} C X^{-p}), X = A or A^T A.", "quantifier": "all matrices, p, flags and B, C", "why_tests_cant": "All combinations and matrices.", "anchors": ["imate/traceinv/_hutchinson_method.pyx: _operator_dot, _stochastic_trace_estimator_double"]}
{"id": "C39", "title": "The Schatten (anti-)norm composes log-determinant, trace and traceinv correctly", "statement": "schatten(A, p) is det(A)^{1/n} for p=0, (trace(A^p)/n)^{1/p} for p>0 and (trace(A^{-|p|})/n)^{1/p} for p<0; for a multiple c I with c>0 it is c for every p, and it is homogeneous.", "quantifier": "all spectra, all p", "why_tests_cant": "All matrices and exponents.", "anchors": ["imate/schatten/schatten.py: schatten"]}
{"id": "C40", "title": "Eigenvalue methods evaluate the matrix function on the whole spectrum", "statement": "Given the eigenvalues (singular values with gram) the eigenvalue methods return sum_i f(lambda_i^p) for trace, traceinv, logdet, trexp, trlinfrac, eigencount and density, and agree with the exact/Cholesky methods.", "quantifier": "all spectra, all p", "why_tests_cant": "All spectra.", "anchors": ["imate/trace/_eigenvalue_method.py: eigenvalue_method", "imate/traceinv/_eigenvalue_method.py: eigenvalue_method", "imate/logdet/_eigenvalue_method.py: eigenvalue_method", "imate/trexp/_eigenvalue_method.py: eigenvalue_method", "imate/trlinfrac/_eigenvalue_method.py: eigenvalue_method", "imate/eigencount/_eigenvalue_method.py: eigenvalue_method", "imate/density/_eigenvalue_method.py: eigenvalue_method"]}
{"id": "C41", "title": "Matrix functions are the documented scalar functions", "statement": "The built-in matrix functions satisfy their defining laws: Inverse(x)*x = 1, Logarithm(xy)=Logarithm(x)+Logarithm(y), Indicator is 1 exactly on the closed interval, Gaussian is the normal density with mean mu and deviation sigma, SmoothStep rises from 0 to 1, Homographic is (ax+b)/(cx+d), Exponential(x+y) multiplies.", "quantifier": "all real arguments and parameters", "why_tests_cant": "All reals.", "anchors": ["imate/functions/exponential.cpp", "imate/functions/gaussian.cpp", "imate/functions/homographic.cpp", "imate/functions/identity.cpp", "imate/functions/indicator.cpp", "imate/functions/inverse.cpp", "imate/functions/logarithm.cpp", "imate/functions/power.cpp", "imate/functions/smoothstep.cpp"]}
{"id": "C42", "title": "Toeplitz closed forms match the generated matrix", "statement": "toeplitz_trace, toeplitz_traceinv and toeplitz_logdet equal trace, trace of inverse and log-determinant of the matrix generated by toeplitz with the same arguments, plain and gram, for every size.", "quantifier": "all a, b, sizes", "why_tests_cant": "All sizes and reals.", "anchors": ["imate/sample_matrices/toeplitz.py: toeplitz, toeplitz_trace, toeplitz_traceinv, toeplitz_logdet"]}
{"id": "C43", "title": "Grid points enumerate the whole grid once", "statement": "generate_points with grid=True returns size^dimension pairwise distinct points, point k having coordinates equal to the base-size digits of k divided by size-1, all in [0,1].", "quantifier": "all sizes and dimensions", "why_tests_cant": "Unbounded sizes and dimensions.", "anchors": ["imate/sample_matrices/_generate_points.pyx: _generate_grid_points"]}
{"id": "C44", "title": "The sparse correlation matrix is symmetric and fits its buffer", "statement": "For every number of threads and interleaving, sparse_correlation_matrix never writes outside its preallocated arrays and returns a symmetric matrix containing exactly the entries above the threshold.", "quantifier": "all point sets, thresholds, buffer sizes, interleavings", "why_tests_cant": "Buffer boundary and schedules.", "anchors": ["imate/sample_matrices/_sparse_correlation_matrix.pyx: _generate_matrix, sparse_correlation_matrix"]}
{"id": "C45", "title": "The dense correlation matrix is symmetric with unit diagonal", "statement": "Every entry of the dense correlation matrix is written exactly by the kernel of the distance of the two points; the matrix is symmetric, has ones on the diagonal, and entries are in (0,1] decreasing with distance, for the exponential, square-exponential and Matern 3/2, 5/2 kernels, in every schedule.", "quantifier": "all sets of at most 46340 points (larger ones are the subject of C56), all numbers of threads and schedules", "why_tests_cant": "Schedules and reals.", "anchors": ["imate/sample_matrices/_dense_correlation_matrix.pyx: _generate_matrix", "imate/sample_matrices/_kernels.pyx: _matern_kernel"]}
{"id": "C46", "title": "Every kernel name accepted by correlation_matrix is usable", "statement": "If correlation_matrix accepts a kernel name, the matrix is generated (no abort), and correlations never exceed one.", "quantifier": "all strings, all distances", "why_tests_cant": "All strings.", "anchors": ["imate/sample_matrices/correlation_matrix.py: _check_arguments", "imate/sample_matrices/_kernels.pyx: get_kernel, _rational_quadratic_kernel"]}
{"id": "C47", "title": "Interpolants pass through the data", "statement": "Every interpolation method that fits coefficients (mbf, imbf in its bases, rpf, crf, and the spline/rbf wrappers) reproduces the exact function at each interpolation point and at t=0 whenever the linear system it sets up is solved.", "quantifier": "all interpolation points and data values", "why_tests_cant": "All data sets.", "anchors": ["imate/interpolator/_monomial_basis_functions_method.py: interpolate", "imate/interpolator/_inverse_monomial_basis_functions_method.py: initialize_interpolator, interpolate", "imate/interpolator/_rational_polynomial_functions_method.py: fit_rational_poly", "imate/interpolator/_chebyshev_rational_functions_method.py: linear_system, interpolate", "imate/interpolator/_spline_method.py: initialize_interpolator, interpolate"]}
{"id": "C48", "title": "The monomial interpolant is exact for p = 2", "statement": "For p=2 and symmetric A, B the mbf interpolant equals the exact Schatten norm of A + t B for every t, not only at the interpolation points.", "quantifier": "all symmetric matrices, all t", "why_tests_cant": "All matrices and t.", "anchors": ["imate/interpolator/_monomial_basis_functions_method.py: initialize_interpolator, interpolate"]}
{"id": "C49", "title": "The orthogonal inverse-monomial basis is orthonormal", "statement": "The tabulated coefficients make the basis functions orthonormal on (0,1] for the documented inner product.", "quantifier": "all pairs of basis functions, as functions of t", "why_tests_cant": "An integral identity.", "anchors": ["imate/interpolator/_inverse_monomial_basis_functions_method.py: orthogonal_basis_function_coefficients, basis_functions"]}
{"id": "C50", "title": "Timer accumulates exactly the timed intervals", "statement": "For every alternating tic/toc history the wall and process times are the sum of the tic-toc intervals (hold) or the last one (no hold), and count is the number of intervals; reset clears them.", "quantifier": "all histories of tic, toc, reset and clock values", "why_tests_cant": "Histories.", "anchors": ["imate/device/_timer.py: Timer"]}
{"id": "C51", "title": "Human-readable memory is the same amount", "statement": "The human-readable value times 1024^k for the reported unit equals the byte count, with value at most 1024, and above 1 for units above bytes; every byte count a process can have gets a unit.", "quantifier": "all byte counts", "why_tests_cant": "All integers.", "anchors": ["imate/device/_memory.py: _human_readable_memory"]}
{"id": "C52", "title": "The inverse error function is odd and inverts erf at its fixed points", "statement": "erf_inv(-x) = -erf_inv(x) on [-1,1], +-1 map to +-infinity, 0 maps to 0; and a Newton step leaves the result unchanged exactly when erf(r)=x, so if the initial guess is exact so is the result.", "quantifier": "all x in [-1,1]", "why_tests_cant": "All reals.", "anchors": ["imate/_c_trace_estimator/special_functions.cpp: erf_inv, sign"]}
{"id": "C53", "title": "Lanczos never returns more steps than requested and never reads past its arrays", "statement": "The number of steps returned is between 1 and the requested degree; every index used into the circular vector buffer, alpha and beta is inside its allocation, for every degree >= 1 and every reorthogonalisation setting.", "quantifier": "all degrees, sizes, orthogonalize settings, operators", "why_tests_cant": "Index arithmetic for every combination.", "anchors": ["imate/_c_trace_estimator/c_lanczos_tridiagonalization.cpp: c_lanczos_tridiagonalization", "imate/_c_trace_estimator/c_golub_kahn_bidiagonalization.cpp: c_golub_kahn_bidiagonalization"]}
{"id": "C57", "title": "The Schatten norm is continuous at p = 0", "statement": "For a symmetric positive-definite matrix schatten(A, p) tends to schatten(A, 0) as p tends to 0 from either side, although the three cases p<0, p=0, p>0 are computed by three different functions (traceinv, logdet, trace).", "quantifier": "all symmetric positive-definite matrices, all p near 0", "why_tests_cant": "A limit over all exponents.", "anchors": ["imate/schatten/schatten.py: schatten"]}
{"id": "C56", "title": "Matrices of any size that fits in memory are addressed correctly", "statement": "The entry (i, j) of a dense matrix with n columns, stored by rows, is read and written at position i*n+j, for every n for which the matrix fits in memory.", "quantifier": "all sizes, all entries", "why_tests_cant": "A test would need matrices with more than 2^31 entries (16 GB).", "anchors": ["imate/sample_matrices/_dense_correlation_matrix.pyx: _generate_matrix", "imate/_c_basic_algebra/c_matrix_operations.cpp: dense_matvec"]}
{"id": "C55", "title": "Both builds compute the same vectors and products", "statement": "A build of the package that uses CBLAS for dense operations returns the same results (in exact arithmetic) as the default build: vector copies, scalings, inner products, norms, normalisations, and products of dense matrices of any shape and storage order with vectors.", "quantifier": "all vectors, all matrices of any shape and storage order, float and double", "why_tests_cant": "Only square matrices or the default build are tested; the build option multiplies the configurations.", "anchors": ["imate/_c_basic_algebra/c_vector_operations.cpp", "imate/_c_basic_algebra/c_matrix_operations.cpp: dense_matvec", "imate/_c_basic_algebra/cblas_interface.cpp"]}
{"id": "C58", "title": "An interpolator can be built for all distinct positive points", "statement": "For every list of distinct positive interpolation points within the documented number of basis functions, the linear system set up by the imbf and crf interpolators is not singular, so that the object can be constructed; the spl and rbf interpolators can be constructed for every increasing list.", "quantifier": "all matrices with a computable function, all lists of distinct positive points, all basis and function types", "why_tests_cant": "The determinant of a matrix of unbounded size has to be non-zero for all points.", "anchors": ["imate/interpolator/_inverse_monomial_basis_functions_method.py: initialize_interpolator", "imate/interpolator/_chebyshev_rational_functions_method.py: linear_system", "imate/interpolator/_radial_basis_functions_method.py: initialize_interpolator", "imate/interpolator/_spline_method.py: initialize_interpolator"]}
{"id": "C59", "title": "Memory.read returns the memory acquired since start", "statement": "Memory.read() after Memory.start() returns the resident memory of the process now minus its resident memory at the time of start, whatever the process allocated and released before, in between and after.", "quantifier": "all histories of the resident size of the process", "why_tests_cant": "Tests see a growing process only; the histories in which memory was released before or after start are never exercised.", "anchors": ["imate/device/_memory.py: Memory.start, Memory.read, _get_resident_memory_in_bytes"]}
{"id": "C54", "title": "Random arrays filled by several threads are Rademacher and fixed by the seed", "statement": "Filling an array with any number of threads writes +1 or -1 to every position and nothing outside it; the result is determined by the seed and the number of threads, and no random draw is used for two chunks of the array.", "quantifier": "all array sizes, numbers of threads, generator states, splits of the range and interleavings of the threads' steps", "why_tests_cant": "The schedules of the threads are unbounded and a test sees only the few its machine produces.", "anchors": ["imate/_random_generator/random_array_generator.cpp: generate_random_array", "imate/_random_generator/xoshiro_256_star_star.cpp: next", "imate/_random_generator/py_random_array_generator.pyx: py_generate_random_array", "imate/_linear_algebra/random_vectors.pyx: generate_random_column_vectors"]}
{"id": "C60", "title": "Products computed on GPU devices equal those computed on the CPU", "statement": "With gpu=True the products of a matrix (dense, CSR or CSC, of any shape) and of an affine matrix function A + t B with a vector, their transposed versions and the versions that add to a vector give the same vector, in exact arithmetic, as on the CPU, on each of the devices.", "quantifier": "all matrices of any shape and storage, all vectors, all parameters, all numbers of devices", "why_tests_cant": "GPU results are compared for a few square symmetric matrices only, and only on machines with a GPU.", "anchors": ["imate/_cu_basic_algebra/cu_matrix_operations.cu", "imate/_cu_basic_algebra/cu_vector_operations.cu", "imate/_cu_linear_operator/cu_csr_matrix.cu", "imate/_cu_linear_operator/cu_csc_matrix.cu", "imate/_cu_linear_operator/cu_dense_matrix.cu", "imate/_cu_linear_operator/cu_dense_affine_matrix_function.cu", "imate/_cu_linear_operator/cu_affine_matrix_function.cu"]}
{"id": "C61", "title": "The Lanczos quadrature gives the same result on a GPU as on the CPU", "statement": "With gpu=True the tridiagonalization and the bidiagonalization of a matrix or of A + t B from a given random vector return the same coefficients, in exact arithmetic, as with gpu=False, on each device and for every degree, tolerance and kind of reorthogonalization.", "quantifier": "all matrices, vectors, degrees, tolerances, orthogonalize options, devices, contents of uninitialised buffers", "why_tests_cant": "The two implementations are separate code; tests compare estimates of a few matrices up to statistical error, on machines with a GPU only.", "anchors": ["imate/_cu_trace_estimator/cu_orthogonalization.cu: gram_schmidt_process", "imate/_cu_trace_estimator/cu_lanczos_tridiagonalization.cu", "imate/_cu_trace_estimator/cu_golub_kahn_bidiagonalization.cu", "imate/_c_trace_estimator/c_orthogonalization.cpp: gram_schmidt_process"]}
{"id": "C62", "title": "Gramians of rectangular matrices", "statement": "With gram=True, which is documented for matrices that are not square, every call of the stochastic Lanczos quadrature iteration stays inside its buffers and returns numbers that depend only on the matrix, the random vector and the options.", "quantifier": "every shape, matrix in every storage, starting vector, Lanczos degree, orthogonalization option, tolerance and every contents of freshly allocated memory", "why_tests_cant": "a test on one machine sees one contents of the fresh memory, often zeros, and an access outside a buffer often goes unnoticed", "anchors": ["imate/_c_trace_estimator/c_golub_kahn_bidiagonalization.cpp:c_golub_kahn_bidiagonalization", "imate/_c_trace_estimator/c_trace_estimator.cpp:_c_stochastic_lanczos_quadrature", "imate/_trace_estimator/trace_estimator_utilities.py:get_operator", "imate/logdet/logdet.py:logdet"]}
{"id": "C63", "title": "A run of the Hutchinson method stops at the first moment allowed and reports what it did", "statement": "A call of traceinv(method='hutchinson') computes estimates one after the other until the first number of them, at least min_num_samples, whose confidence half-width is below max(error_atol, error_rtol*mean), or until max_num_samples (both lowered to the number of columns). info reports exactly these estimates, in order, with nan in the unused places, says converged exactly when the criterion held, and the returned value is the mean of the estimates that are not outliers with the half-width of their confidence interval as absolute_error. (Full statement refuted in several ways: every estimate may be rejected as an outlier and the call raises ZeroDivisionError; a converged run may report an error above the tolerance because the criterion and the report use different standard deviations; a negative trace never converges under a relative tolerance; num_samples_used does not leave out the outliers as documented.)", "quantifier": "every sequence of finite estimates, every quantile, tolerance, minimum and maximum number of samples and number of columns, and every estimator that raises", "why_tests_cant": "The stopping point depends on the whole sequence of random estimates; tests see a few seeds, default outlier levels and positive traces only.", "anchors": ["imate/traceinv/_hutchinson_method.pyx: hutchinson_method, _hutchinson_method_double, _hutchinson_method_float", "imate/traceinv/_convergence_tools.py: check_convergence, average_estimates"]}
{"id": "C64", "title": "The Hutchinson method on the Gramian of a rectangular matrix", "statement": "With gram=True, for which traceinv(method='hutchinson') documents that the matrix can be non-square, every call returns a sample of the trace of B (A^T A)^(-p) (and of its version with C), for each matrix, exponent and vector. (Refuted: for every non-square matrix every call raises, except for p=0 without B, which returns the number of rows instead of the number of columns.)", "quantifier": "every shape, matrix, exponent, random vector, and matrices B and C of the size of the Gramian", "why_tests_cant": "tests use square matrices; the failure concerns every rectangular shape and every exponent", "anchors": ["imate/traceinv/_hutchinson_method.pyx: _hutchinson_method_double, _stochastic_trace_estimator_double, _operator_dot", "imate/_linear_algebra/linear_solver.py: linear_solver"]}
{"id": "C65", "title": "The bounds of the interpolated functions hold", "statement": "For symmetric positive-definite A and B (or B the identity) and t >= 0, InterpolateSchatten.bound(t) is a lower bound of the Schatten norm of A + t B if p < 1 and an upper bound if p >= 1, equal at t = 0, and the other way round for t <= 0 as long as A + t B stays positive definite; upper_bound(t) (p = -1) is an upper bound; InterpolateTrace.upper_bound and lower_bound are an upper and a lower bound of trace((A + t B)^p), and InterpolateLogdet.lower_bound is a lower bound of logdet(A + t B). kind='eig' returns the exact value at every t. (Refuted in part: InterpolateTrace.upper_bound is a lower bound for 0 < p < 1; upper_bound raises for every sparse matrix; kind='eig' returns too small a value for every sparse positive-definite matrix and t > 0; a single number ti, which the documentation allows, raises.)", "quantifier": "all positive-definite matrices of every size, all exponents p, all t", "why_tests_cant": "needs every matrix, exponent and t; tests compare plots or a few values", "anchors": ["imate/interpolator/_interpolant_base.py: bound, upper_bound, __init__", "imate/interpolator/interpolate_schatten.py: bound, upper_bound", "imate/interpolator/interpolate_trace.py: upper_bound, lower_bound, eval", "imate/interpolator/interpolate_logdet.py: lower_bound, eval", "imate/interpolator/_eigenvalues_method.py: initialize_interpolator, interpolate"]}
{"id": "C66", "title": "The Hutchinson method draws orthonormal vectors, or sign vectors, and is exact with n of them", "statement": "With orthogonalize=True the test vectors of method='hutchinson' are orthonormal, with orthogonalize=False they are vectors of entries +-1/sqrt(n); if n vectors are used for an n x n matrix and no sample is discarded as an outlier, the returned value is the exact one; a call with a seed always draws the same vectors, and every call returns. (Refuted in part: with a seed and one thread the process is terminated as soon as a drawn vector is a combination of the preceding ones, since its replacement is always the same vector; so for every 2 x 2 matrix with seed=0; a matrix with more columns than rows terminates the process; with two threads the same seed may draw different vectors.)", "quantifier": "all matrices and sizes, seeds, numbers of threads and thread interleavings", "why_tests_cant": "the drawn vectors depend on the interleaving of the threads, and the failures need a rare dependence of random vectors", "anchors": ["imate/_linear_algebra/random_vectors.pyx: generate_random_column_vectors", "imate/_linear_algebra/orthogonalization.pyx: orthogonalize_vectors", "imate/traceinv/_hutchinson_method.pyx: traceinv", "imate/_random_generator/py_random_array_generator.pyx"]}
{"id": "C67", "title": "A run of the stochastic Lanczos quadrature on one thread: samples, stopping, statistics, reproducibility", "statement": "With num_threads=1 a call with method='slq' returns for every seed: sample i of parameter t_j is the quadrature sample for the i-th sign vector of the stream of the seed; each parameter uses the first number of samples at which the documented criterion holds (or max_num_samples), and where B is the identity all use the first number at which it holds for all; the arrays in info are the statistics of these samples. The result for one parameter among many is that of a call for it alone (B not the identity). If the eigenvalues lie in [a,b] and f takes values in [lo,hi] there, the result lies in [n lo, n hi]; for a multiple of the identity it is exact, with error zero, after max(min_num_samples, 2) samples. With seed >= 0 the result does not depend on the clock, on fresh memory, on the eigenvectors LAPACK chooses, or on what was computed with the operator before.", "quantifier": "all symmetric matrices (invertible ones with gram), affine matrix functions and parameter lists, functions, sizes, degrees, sample bounds, tolerances, seeds, clocks, memory contents and histories of the operator", "why_tests_cant": "the claims range over all seeds, inputs and uninitialised memory; a test sees one", "anchors": ["imate/_c_trace_estimator/c_trace_estimator.cpp: c_trace_estimator", "imate/_trace_estimator/trace_estimator.pyx: trace_estimator", "imate/_c_trace_estimator/convergence_tools.cpp", "imate/_cu_trace_estimator/cu_trace_estimator.cu: cu_trace_estimator"]}
{"id": "C68", "title": "The samples returned are in processing order, the reported statistics can be recomputed from them, and the convergence plot shows them", "statement": "After a call with method='slq', however the threads interleaved: row i of column j of info['convergence']['samples'] is the sample of parameter t_j processed i-th, for as many as parameter t_j used, and NaN below; the trace, the absolute error and the number of outliers of t_j are the statistics of the numbers in that column. A scalar parameter gives scalars: the entries of the first inquiry; the relative error is the absolute error over |trace| plus the unit roundoff. With plot=True the plot shows the samples in the order processed, their running mean without outliers and its error, ending at the result returned.", "quantifier": "all schedules of all numbers of threads, sample values, convergence tests, parameter lists, sizes, quantiles", "why_tests_cant": "the order in which threads finish is not under the control of a test; the plot goes wrong only for particular orders", "anchors": ["imate/_c_trace_estimator/py_c_trace_estimator.pyx: pyc_trace_estimator", "imate/_trace_estimator/trace_estimator.pyx: trace_estimator", "imate/_trace_estimator/trace_estimator_plot_utilities.py: remove_outliers, compute_cumulative_mean_and_error, plot_convergence_estimate, plot_convergence"]}
{"id": "C69", "title": "All methods of a function estimate the same quantity", "statement": "For trace, traceinv, logdet, trexp, trlinfrac, eigencount and density, every real exponent p and every symmetric matrix (with gram=True: every square matrix with trivial null space) for which f(x^p) is defined at all eigenvalues x: with lanczos_degree at least the matrix size and lanczos_tol below some positive bound, the mean over all sign vectors of the samples of method='slq' is exactly the value method='eigenvalue' returns, and so are the values (or, for Hutchinson, the mean) of the exact, Cholesky and Hutchinson methods for integer p. Each accepted call asks both methods for the same function; each documented method name selects its method and other names raise.", "quantifier": "all matrices, sizes, storages, exponents, coefficients, intervals, degrees, tolerances and LAPACK results meeting their contracts; all Python arguments and method names", "why_tests_cant": "a test compares random estimates with a tolerance, for a few matrices and exponents", "anchors": ["imate/trace/_slq_method.pyx: slq_method, check_arguments", "imate/traceinv/_slq_method.pyx: slq_method", "imate/logdet/_slq_method.pyx: slq_method", "imate/trexp/_slq_method.pyx: slq_method", "imate/trlinfrac/_slq_method.pyx: slq_method, check_arguments", "imate/eigencount/_slq_method.pyx: slq_method, check_arguments", "imate/density/_slq_method.pyx: slq_method, check_arguments", "imate/trace/trace.py: trace", "imate/traceinv/traceinv.py: traceinv", "imate/logdet/logdet.py: logdet"]}
{"id": "C70", "title": "A linear operator is the matrix it was given", "statement": "A linear operator Matrix(A) of a numpy array or a scipy matrix in CSR or CSC format multiplies vectors, at any time, by the matrix that A shows at that time, however A was changed in place before; in another sparse format it multiplies by the matrix that A showed at the first computation. Computing leaves the value of A, and of every matrix that shares no array with A, as it was. AffineMatrixFunction(A, B) is t -> A + t B. Every argument is either accepted or refused with a definite exception, raised by the constructor or by the first computation.", "quantifier": "all matrices, sizes, data types, layouts, strides, index types, sorted or not, writeable or not; all histories of computations and changes of the arrays", "why_tests_cant": "a test builds an operator from a few freshly made contiguous matrices and uses it at once", "anchors": ["imate/linear_operator/matrix.py: Matrix", "imate/linear_operator/linear_operator.py: get_linear_operator, set_data_type_name", "imate/linear_operator/affine_matrix_function.py: AffineMatrixFunction", "imate/_c_linear_operator/py_c_matrix.pyx: pycMatrix", "imate/_c_linear_operator/py_c_affine_matrix_function.pyx: pycAffineMatrixFunction"]}
{"id": "C71", "title": "Rounding errors do not grow with the size", "statement": "With floating-point arithmetic, the products of a matrix with a vector, inner products, norms and normalized vectors differ from the exact ones by a few units in the last place of the data type (relative to the sum of the absolute values of the terms) and by the underflow, for every size: sums are accumulated in long double, so that float32 results do not degrade for large matrices, whatever the storage format. Integers small enough to be held by the data type are multiplied without any error.", "quantifier": "all matrices and vectors, all sizes, layouts and formats, all data types; all rounding functions with a relative error bound, among them all IEEE formats", "why_tests_cant": "tests compare with a tolerance on small matrices; how the error grows with the size, and that it stays bounded, is a statement about all sizes", "anchors": ["imate/_c_basic_algebra/c_matrix_operations.cpp: cMatrixOperations", "imate/_c_basic_algebra/c_vector_operations.cpp: cVectorOperations", "imate/_definitions/types.h: LongIndexType"]}
{"id": "C72", "title": "verbose=True prints what is returned and changes nothing else", "statement": "With verbose=True a call of the stochastic Lanczos quadrature or of the Hutchinson method that works without it also works, returns the same value and the same dictionary, and prints the numbers in that dictionary: one line for each inquiry with its parameter, estimate, errors, numbers of samples and outliers and convergence, and below it the settings, with errors, tolerances and levels that carry a percent sign multiplied by 100.", "quantifier": "all accepted arguments, all operators with any number of parameters, all forms of parameters, all results of the computation", "why_tests_cant": "a summary is printed for humans and not compared in tests; an exception raised while printing loses a finished computation, and depends on the combination of argument types", "anchors": ["imate/_trace_estimator/trace_estimator_utilities.py: print_summary", "imate/_trace_estimator/trace_estimator.pyx: trace_estimator", "imate/traceinv/_hutchinson_method_utilities.pyx: print_summary", "imate/traceinv/_hutchinson_method.pyx: hutchinson_method"]}
{"id": "C73", "title": "Exactly the documented arguments are accepted by the Hutchinson method", "statement": "The Hutchinson method accepts a call if and only if its arguments are as documented: matrices of one kind with fitting shapes, C only together with B, an integer exponent, a known assume_matrix, at least one sample and no more minimum than maximum, tolerances that are not negative, levels in [0, 1] with a sum of at most 1, boolean flags, an integer or missing seed and a number of threads that is not negative; a missing tolerance is zero. The number of threads is checked in the same way by the stochastic Lanczos quadrature.", "quantifier": "all values of all arguments, of any Python type", "why_tests_cant": "the values and types of nineteen arguments cannot be enumerated by tests", "anchors": ["imate/traceinv/_hutchinson_method_utilities.pyx: check_arguments", "imate/traceinv/_hutchinson_method.pyx: hutchinson_method", "imate/_trace_estimator/trace_estimator.pyx: trace_estimator"]}
{"id": "C74", "title": "A run on many threads is a run of the same method, whatever the schedule", "statement": "A call with one inquiry (a matrix, or an affine matrix function with one parameter) on any number of threads never uses memory that is not there or not initialised, makes a bounded number of steps and always can go on to the end. At the end there is an order of the samples such that each is the quadrature sample of the vector of signs its thread drew at its turn, no random number is used for two samples, the number of samples used is the first at which the documented criterion holds for the samples in that order (or the maximum), fewer samples than threads were computed in vain, and the returned trace, error, outliers, flags and arrays are the statistics of the samples used. What depends on the samples only through bounds on them is the same for all schedules: the result lies between n times the extreme values of the function, and is exact for multiples of the identity.", "quantifier": "all numbers of threads, all interleavings of the steps of the threads, all seeds, all matrices and settings", "why_tests_cant": "which interleavings occur is not under the control of a test, and results on several threads differ from run to run", "anchors": ["imate/_c_trace_estimator/c_trace_estimator.cpp: cTraceEstimator::c_trace_estimator, _c_stochastic_lanczos_quadrature", "imate/_random_generator/random_number_generator.cpp: RandomNumberGenerator::initialize", "imate/_c_trace_estimator/convergence_tools.cpp: ConvergenceTools::check_convergence, average_estimates"]}
{"id": "C75", "title": "The solver tolerance bounds the error of a Hutchinson sample", "statement": "For an invertible sparse matrix whose smallest singular value is at least lam, a call of traceinv with method hutchinson and solver_tol = tol yields samples that differ from those of an operator with the documented trace by at most n |e|^2 |B| |C| ((1 + tol)^k - 1) / lam^k (lam^2 in place of lam if gram is true), where k is the number of systems solved for one sample, and the mean of the samples over all sign vectors differs from the documented trace by at most as much. For a dense matrix that is as assume_matrix says, the samples are exact, and the tolerance has no effect.", "quantifier": "all square matrices, B, C, exponents, tolerances, test vectors and solvers that meet their contract", "why_tests_cant": "the accuracy of an iterative solver depends on the matrix and right hand side; a solver that fails is rare and leaves no trace in the result", "anchors": ["imate/_linear_algebra/linear_solver.py: linear_solver", "imate/traceinv/_hutchinson_method.pyx: _operator_dot, _stochastic_trace_estimator_float, _stochastic_trace_estimator_double"]}
{"id": "C76", "title": "The mean of the samples concentrates at the trace", "statement": "Take the samples of slq for a symmetric matrix A and a polynomial function p within the exactness of the quadrature, or of the Hutchinson method, at vectors of signs. With F = p(A), or the power of A or A^T A that is asked for, the squared distance of one sample from tr(F) has the mean spread(F), the sum of F_ij (F_ij + F_ji) over i <> j; the squared distance of the mean of K samples has the mean spread(F) / K; and among all choices of K vectors of signs at most the share spread(F) / (K e^2) gives a mean that is e or more away. One sample is exact for every vector of signs if F is diagonal.", "quantifier": "all matrices, sizes, powers or polynomials, numbers of samples K, distances e and vectors of signs", "why_tests_cant": "a test sees a few draws of the random vectors; the statement ranges over all of them", "anchors": ["imate/_c_trace_estimator/c_trace_estimator.cpp: c_trace_estimator, _c_stochastic_lanczos_quadrature", "imate/traceinv/_hutchinson_method.pyx: _stochastic_trace_estimator_float, _stochastic_trace_estimator_double", "imate/_random_generator/random_array_generator.cpp: generate_random_array"]}
{"id": "C77", "title": "LAPACK is called with enough room, at the precision of the data type, and its failures surface", "statement": "Each sample of slq takes its nodes and weights from a decomposition of the k x k matrix of the iteration by LAPACK: the arrays passed have the documented lengths, the decomposition is one of that matrix in the data type of the input (float32, float64 or float128), and if LAPACK reports that it failed, the call does not go on as if it had succeeded.", "quantifier": "all numbers of steps k, matrices, data types and LAPACK routines that meet their documentation", "why_tests_cant": "the number of steps k depends on the data, failures of LAPACK are rare, and a number that is no double gives an error in the 17th digit", "anchors": ["imate/_c_trace_estimator/diagonalization.cpp: Diagonalization::eigh_tridiagonal, Diagonalization::svd_bidiagonal", "imate/_c_trace_estimator/lapack_api.cpp: lapack_xstev, lapack_xbdsdc", "imate/_c_trace_estimator/c_trace_estimator.cpp: _c_stochastic_lanczos_quadrature"]}
{"id": "C78", "title": "The dictionary tells how the estimate was computed", "statement": "The dictionary returned with an estimate has the settings of the call with the defaults filled in (missing tolerances, number of threads, data type, number of batches of parameters, GPU devices that took part), and for each batch the estimate, its absolute and relative error, the numbers of samples and outliers and whether it converged, as the run left them; the Hutchinson method runs with the numbers of samples cut down to the number of columns, reports those, accepts exactly single and double precision, and returns the dictionary exactly with return_info=True.", "quantifier": "all accepted arguments, data types, operators, forms of parameters, machines and results of the computation", "why_tests_cant": "the combinations of defaults, GPU settings and forms of parameters cannot be enumerated by tests, and most run without a GPU", "anchors": ["imate/_trace_estimator/trace_estimator.pyx: trace_estimator", "imate/traceinv/_hutchinson_method.pyx: hutchinson_method"]}
{"id": "C79", "title": "CUDA and the processor are found where they are", "statement": "imate.device.locate_cuda returns the home given by the first of CUDA_HOME, CUDA_ROOT and CUDA_PATH that leads to a compiler nvcc, otherwise the home of the first nvcc in the search path, with its include and library directories and the version that version.txt, version.json or the header cuda.h states; without CUDA it returns an empty dictionary. imate.info reports that version in the form major.minor.patch, and the processor by the name the system gives to it.", "quantifier": "all file systems, environments, contents of the version files and processor descriptions", "why_tests_cant": "the layouts of CUDA installations and the texts in the files of each release cannot be enumerated, and the tests run on machines without CUDA", "anchors": ["imate/device/_cuda.py: locate_cuda, _find_in_path, _get_cuda_version", "imate/device/_info.py: info", "imate/device/_device.py: get_processor_name"]}
{"id": "C80", "title": "GPU calls reach the right functions of CUDA, whatever the threads do", "statement": "If the CUDA libraries are loaded at run time, each call that imate makes to a function of CUDA reaches the function of that name in the library it belongs to, whatever calls were made before and however the threads that serve the devices interleave; if the library is missing, or does not have the function, the call raises an error.", "quantifier": "all histories of calls by any number of threads, all interleavings, all contents of the libraries, all earlier errors", "why_tests_cant": "the pointers are loaded by the first thread that needs one, so that a wrong result depends on the interleaving; machines with an old or incomplete CUDA are not part of the tests", "anchors": ["imate/_cuda_dynamic_loading/dynamic_loading.h: load_symbol, get_library_handle_unix, get_library_handle_windows", "imate/_cuda_dynamic_loading/cudart_symbols.cpp: cudartSymbols", "imate/_cuda_dynamic_loading/cublas_symbols.cpp: cublasSymbols", "imate/_cuda_dynamic_loading/cusparse_symbols.cpp: cusparseSymbols"]}
{"id": "C81", "title": "Calls without a seed use different random numbers", "statement": "Two calls without a seed (or with a negative one) made at different times start from different states of the random number generator, so that repeating a call gives a fresh estimate; the documentation promises this for calls about a nanosecond apart.", "quantifier": "all pairs of times (in nanoseconds, from 2006 to 2043), all negative seeds, all contents of uninitialised memory", "why_tests_cant": "a test can repeat a call a few times only; collisions depend on the low bits of the clock", "anchors": ["imate/_random_generator/highres_time_stamp.cpp: get_highres_time_stamp", "imate/_random_generator/split_mix_64.cpp: SplitMix64", "imate/_random_generator/xoshiro_256_star_star.cpp: Xoshiro256StarStar"]}
{"id": "C82", "title": "With gpu=True the requested devices are used, and what is taken on them is given back", "statement": "With gpu=True and num_gpu_devices=n, exactly the first n devices are used (all if n is 0); each of them has its own copy of the matrix and its own handles of cuBLAS and cuSPARSE, and every product and vector operation of a sample uses those of the device it runs on while they exist; when the operator is deleted all of them are released, once, and nothing else is; a request that cannot be met (no device, more devices than there are, no memory) raises an exception.", "quantifier": "all kinds of operators, numbers of devices, orders of the threads in each parallel region, interleavings of the samples of the threads, numbers of calls, sizes of the buffers", "why_tests_cant": "which thread initialises or releases what, and which products interleave, depends on the schedule; machines with several GPU devices are not part of the tests", "anchors": ["imate/_cu_linear_operator/cu_linear_operator.cu: cuLinearOperator, initialize_cublas_handle, initialize_cusparse_handle", "imate/_cu_linear_operator/cu_dense_matrix.cu: cuDenseMatrix, copy_host_to_device", "imate/_cu_linear_operator/cu_csr_matrix.cu: cuCSRMatrix, allocate_buffer", "imate/_cu_linear_operator/cu_csc_matrix.cu: cuCSCMatrix", "imate/_cu_linear_operator/cu_dense_affine_matrix_function.cu", "imate/_cu_linear_operator/cu_affine_matrix_function.cu", "imate/_cu_trace_estimator/cu_trace_estimator.cu", "imate/_cu_linear_operator/py_cu_linear_operator.pyx"]}
{"id": "C83", "title": "The work arrays of a run have room for all vectors of it", "statement": "Whatever the size of a matrix that can be created, the number of threads, lanczos_degree and orthogonalize, the arrays that a run of the stochastic Lanczos quadrature works on have room for everything that is stored in them: the random vector of each thread, the Lanczos vectors that are kept and the work space of LAPACK; and no two vectors share a place.", "quantifier": "all sizes of matrices, numbers of threads or devices, degrees, numbers of vectors to orthogonalize against, index types of the build, with and without gram, on CPU and GPU", "why_tests_cant": "failures begin at sizes of 2^31 numbers, 16 GB in double precision, far beyond unit tests, and depend on the number of cores of the machine", "anchors": ["imate/_c_trace_estimator/c_trace_estimator.cpp: c_trace_estimator, _c_stochastic_lanczos_quadrature", "imate/_c_trace_estimator/c_lanczos_tridiagonalization.cpp", "imate/_c_trace_estimator/c_golub_kahn_bidiagonalization.cpp", "imate/_c_trace_estimator/diagonalization.cpp", "imate/_cu_trace_estimator/cu_trace_estimator.cu", "imate/_definitions/types.h"]}
{"id": "C84", "title": "The products that operator objects offer write A v, or (A + t B) v with the t set last", "statement": "dot(vector, product) and transpose_dot(vector, product) of an operator object write the product of the matrix (or of its transpose) with the vector into product and change nothing else, at any point of any sequence of calls; for A + t B the t is the one given last to set_parameters. Arrays of the wrong type, shape or length, and missing parameters, raise an exception.", "quantifier": "all matrices in the supported storage formats, types, vectors as views of memory, and sequences of set_parameters, dot and transpose_dot, also with exceptions in between", "why_tests_cant": "the effect of a product depends on the history of the object, which keeps a pointer to memory that is released after every call, and on strides and lengths of views that tests do not vary", "anchors": ["imate/_c_linear_operator/py_c_linear_operator.pyx: pycLinearOperator.set_parameters, dot, transpose_dot", "imate/_c_linear_operator/c_linear_operator.cpp: set_parameters"]}
{"id": "C86", "title": "lanczos_degree and lanczos_tol bound the error of logdet with method='slq'", "statement": "For N = A symmetric positive definite (or N = A^T A with gram) with eigenvalues in [lo, hi], every quadrature sample of the log-determinant with exponent c is off by at most |c| n max((hi+lo)/(lo (2 lanczos_degree - 1)) ((hi-lo)/(hi+lo))^(2 lanczos_degree), remainder/lo), where the remainder is below lanczos_tol sqrt(n) (times the norm of A with gram), for all parameters t of A + t B at once. So the mean of K samples at random sign vectors is further than e plus this from c log(det N) for at most the share spread/(K e^2) of all choices; the bound decreases as lanczos_degree grows and lanczos_tol shrinks.", "quantifier": "all sizes, real matrices in all storages, vectors, degrees, tolerances, exponents, parameters and numbers of samples", "why_tests_cant": "the error depends on spectrum, start vector, degree and tolerance together; samples that agree among themselves can all be wrong (with one step all samples for diag(1, 3) are log 4 instead of log 3), so convergence of the mean says nothing", "anchors": ["imate/_c_trace_estimator/c_trace_estimator.cpp: cTraceEstimator::_c_stochastic_lanczos_quadrature", "imate/_c_trace_estimator/c_lanczos_tridiagonalization.cpp: c_lanczos_tridiagonalization", "imate/_c_trace_estimator/c_golub_kahn_bidiagonalization.cpp: c_golub_kahn_bidiagonalization", "imate/logdet/_slq_method.pyx: slq_method"]}
{"id": "C85", "title": "lanczos_degree and lanczos_tol bound the error of a quadrature sample, and with it that of traceinv", "statement": "With method='slq', a sample after k + 1 steps differs from n v^T g(N) v / v^T v (N = A, or A^T A with gram) by at most 2 n delta for every polynomial of degree below 2 (k + 1) that is within delta of g on an interval holding the eigenvalues; fewer than lanczos_degree steps are done only if the remainder is below lanczos_tol sqrt(n) (times the norm of A with gram). For the inverse with eigenvalues in [lo, hi], lo > 0, every sample is off by at most n max(2/lo ((hi-lo)/(hi+lo))^(2 lanczos_degree), remainder/lo^2), for all parameters t of A + t B at once; so the mean of K samples at random sign vectors is further than e plus this from tr(N^-1) for at most the share spread/(K e^2) of all choices, and the bound decreases as lanczos_degree grows and lanczos_tol shrinks.", "quantifier": "all real closed fields, sizes, matrices in all storages, vectors, functions, polynomials, intervals, degrees, tolerances, parameters and numbers of samples", "why_tests_cant": "the error depends on all of spectrum, start vector, degree and tolerance together; a test sees one matrix, and with samples that agree among themselves a wrong mean looks converged (with one step all samples for diag(1, 3) are equal and wrong)", "anchors": ["imate/_c_trace_estimator/c_trace_estimator.cpp: cTraceEstimator::_c_stochastic_lanczos_quadrature", "imate/_c_trace_estimator/c_lanczos_tridiagonalization.cpp: c_lanczos_tridiagonalization", "imate/_c_trace_estimator/c_golub_kahn_bidiagonalization.cpp: c_golub_kahn_bidiagonalization", "imate/traceinv/_slq_method.pyx: slq_method"]}
{"id": "C87", "title": "imate.device reports the GPUs that nvidia-smi reports", "statement": "get_gpu_name returns the name in the first 'Product Name' entry of the report of nvidia-smi, get_nvidia_driver_version the version in the 'Driver Version' entry, get_num_gpu_devices the number of GPUs in the list; all say 'not found' or 0 when nvidia-smi is missing or fails, names are never empty and carry no blanks, and no output makes a query raise. restrict_to_single_processor sets exactly its five variables.", "quantifier": "all reports of any number of lines and GPUs, all ends of the two runs of nvidia-smi", "why_tests_cant": "the answer depends on the text of a tool and on a pipe that loses its exit status; a test machine has one report", "anchors": ["imate/device/_device.py: get_gpu_name", "imate/device/_device.py: get_num_gpu_devices", "imate/device/_device.py: get_nvidia_driver_version", "imate/device/_device.py: restrict_to_single_processor"]}
{"id": "C88", "title": "lanczos_degree and lanczos_tol bound the error of trexp with method='slq'", "statement": "For N = A symmetric (or N = A^T A with gram) with eigenvalues in [lo, hi], of either sign, every quadrature sample of the trace of exp(c N) is off by at most n times the largest value of exp(c y) on [lo, hi] times max(2 X^(2 lanczos_degree)/(2 lanczos_degree)!, |c| remainder), X = |c| (hi - lo)/2, where the remainder is below lanczos_tol sqrt(n) (times the norm of A with gram), for all parameters t of A + t B at once. So the mean of K samples at random sign vectors is further than e plus this from the sum of exp(c eigenvalue) for at most the share spread/(K e^2) of all choices; and the first part vanishes as lanczos_degree grows.", "quantifier": "all sizes, real matrices in all storages, vectors, degrees, tolerances, coefficients, parameters and numbers of samples", "why_tests_cant": "the error depends on spectrum, start vector, degree and tolerance together; samples that agree among themselves can all be wrong (with one step all samples for diag(1, 3) are 2 exp 2, below exp 1 + exp 3)", "anchors": ["imate/_c_trace_estimator/c_trace_estimator.cpp: cTraceEstimator::_c_stochastic_lanczos_quadrature", "imate/_c_trace_estimator/c_lanczos_tridiagonalization.cpp: c_lanczos_tridiagonalization", "imate/_c_trace_estimator/c_golub_kahn_bidiagonalization.cpp: c_golub_kahn_bidiagonalization", "imate/functions/exponential.cpp: Exponential::function", "imate/trexp/_slq_method.pyx: slq_method"]}
{"id": "C89", "title": "lanczos_degree and lanczos_tol bound the error of the linear fractional trace with method='slq'", "statement": "For N = A symmetric (or N = A^T A with gram) with eigenvalues in [lo, hi] and c, d whose pole -d/c lies outside, at distance delta from [lo, hi] on either side, every quadrature sample of the trace of (a N + b I)(c N + d I)^-1 is off by at most n |bc - ad|/c^2 times max((2/delta) ((hi-lo)/(hi-lo+2 delta))^(2 lanczos_degree), remainder/delta^2), where the remainder is below lanczos_tol sqrt(n) (times the norm of A with gram), for all parameters t of A + t B at once. So the mean of K samples at random sign vectors is further than e plus this from the sum of (a x + b)/(c x + d) over the eigenvalues x for at most the share spread/(K e^2) of all choices. With c = 0 the samples are exact for every degree. A larger degree and a smaller tolerance never make the bound larger.", "quantifier": "all sizes, real matrices in all storages, vectors, degrees, tolerances, coefficients with the pole outside, parameters and numbers of samples", "why_tests_cant": "the error depends on the distance of the pole from the spectrum, the start vector, degree and tolerance together; samples that agree among themselves can all be wrong (with one step all samples of the trace of M (M+I)^-1 for M = diag(1, 3) are 4/3, above 5/4)", "anchors": ["imate/_c_trace_estimator/c_trace_estimator.cpp: cTraceEstimator::_c_stochastic_lanczos_quadrature", "imate/_c_trace_estimator/c_lanczos_tridiagonalization.cpp: c_lanczos_tridiagonalization", "imate/_c_trace_estimator/c_golub_kahn_bidiagonalization.cpp: c_golub_kahn_bidiagonalization", "imate/functions/homographic.cpp: Homographic::function", "imate/trlinfrac/_slq_method.pyx: slq_method"]}
{"id": "C90", "title": "correlation_matrix(sparse=True) keeps the pairs of near points that the density stands for, and returns", "statement": "With sparse=True, N points in d dimensions and density below 1: ValueError is raised exactly if density N < 1 (and never a division by zero); otherwise exactly the pairs of points nearer than R/(N^(1/d) - 1) are kept, R being the radius of the d-dimensional ball with volume density N (R steps of the grid with grid=True), for every kernel with a closed form and every scale, so that the pattern depends on points and density only. The arrays allocated first have room for the estimated number of entries; the call returns after finitely many attempts. With dimension=1 and grid=True the first attempt succeeds in every schedule without writing outside its arrays, and points with fewer than density N / 2 steps between them are correlated, all others are not.", "quantifier": "all sizes, dimensions, densities, scales, points, kernels with a closed form, schedules and numbers of threads", "why_tests_cant": "radius and threshold are real functions of dimension, size and density, the number of entries kept and the room for them depend on all of these, and attempts run in parallel", "anchors": ["imate/sample_matrices/_sparse_correlation_matrix.pyx: _ball_radius, _estimate_kernel_threshold, _estimate_max_nnz, sparse_correlation_matrix", "imate/sample_matrices/_generate_points.pyx: generate_points", "imate/sample_matrices/correlation_matrix.py: correlation_matrix"]}
{"id": "C92", "title": "The reported wall time of the algorithm is right to a microsecond and not negative", "statement": "info['time']['alg_wall_time'] of the SLQ method differs from the time between the readings of the clock at start and end by at most one microsecond plus the precision of a float (2^-23 of the time); it is not negative, is zero for equal readings, and positive from two microseconds on; it is NaN if and only if a reading fails.", "quantifier": "all pairs of readings of the clock up to the year 2106, rounding included", "why_tests_cant": "seconds since 1970 and fractions are added in double and the difference is rounded to float: the error depends on the date; tests see one date and a clock that is not set back", "anchors": ["imate/_utilities/timer.cpp: Timer::start, Timer::stop, Timer::elapsed, Timer::get_wall_time", "imate/_c_trace_estimator/c_trace_estimator.cpp: c_trace_estimator"]}
{"id": "C93", "title": "The GPU properties in the returned info are those the CUDA library tells, and querying them leaks nothing", "statement": "With gpu=True: RuntimeError is raised exactly if the CUDA library finds no device (or fails to count them); otherwise info['device'] has the number of multiprocessors and of threads per multiprocessor of the first device (0 for an emulated one) and the number of devices used, all devices for num_gpu_devices=0. The numbers kept for each device are those of this device. Whatever the library answers, any number of queries stays inside its arrays, releases no array twice and leaves no array allocated.", "quantifier": "all numbers of devices, properties, answers and errors of the CUDA library, states of the heap and numbers of queries", "why_tests_cant": "needs machines with any number of GPUs and failing libraries; leaks and double releases show in histories of queries only", "anchors": ["imate/_cuda_utilities/device_properties.cu: DeviceProperties", "imate/_cuda_utilities/query_device.cu: query_device", "imate/_cuda_utilities/py_query_device.pyx: py_query_device", "imate/_cu_linear_operator/py_cu_linear_operator.pyx: pycuLinearOperator", "imate/_trace_estimator/trace_estimator.pyx: trace_estimator"]}
{"id": "C94", "title": "The arrays that collect the samples are large enough and are released", "statement": "For every data type, number of samples and number of inquiries, on the CPU and the GPU: no access to a sample that exists is outside the allocated memory, whatever is stored and in which order; a sample holds what was stored for it last, NaN if nothing was; and at the end every array has been released exactly once. On every platform.", "quantifier": "all sizes of pointers and floating types, numbers of samples and inquiries, sequences of stores and states of the heap", "why_tests_cant": "overflows by a few bytes depend on sizes of types and need not show, and leaks do not change results", "anchors": ["imate/_c_trace_estimator/py_c_trace_estimator.pyx: _pyc_trace_estimator_float, _pyc_trace_estimator_double, _pyc_trace_estimator_long_double", "imate/_cu_trace_estimator/py_cu_trace_estimator.pyx: _pycu_trace_estimator_float, _pycu_trace_estimator_double"]}
{"id": "C91", "title": "toeplitz and correlation_matrix build matrices for documented arguments only, and exactly the ones asked for", "statement": "toeplitz builds a matrix exactly if a and b are integers or floats, size is a positive integer, gram is boolean, format is None, 'csr' or 'csc' and dtype is a known floating type, with exactly these entries and this size; all else raises. correlation_matrix builds, for documented arguments, the matrix for exactly the given number of points, dimension, scale, parameter of the kernel and density; ValueError is raised only if a sparse matrix would have less than one entry in a row. For all other arguments an exception is raised.", "quantifier": "all values of all arguments: None, booleans, Python and numpy numbers, NaN and infinities, complex numbers, strings, other scalars and objects", "why_tests_cant": "each argument can be a value of any type, and several exceptions are built but not raised, so that acceptance depends on what later steps do with the value", "anchors": ["imate/sample_matrices/toeplitz.py: toeplitz, _check_arguments", "imate/sample_matrices/correlation_matrix.py: correlation_matrix, _check_arguments", "imate/sample_matrices/_dense_correlation_matrix.pyx: dense_correlation_matrix", "imate/sample_matrices/_sparse_correlation_matrix.pyx: sparse_correlation_matrix", "imate/sample_matrices/_kernels.pyx: get_kernel"]}
{"id": "C95", "title": "The scale that kind='crf' finds is positive and does not have more curvature than scale 1", "statement": "If scale=None, the interpolator for kind='crf' has a scale of at least 1e-5, and the integral of f''^2 / (1 + f'^2)^(5/2) over [-1, 1], where f is the interpolant with this scale, is at most the one for scale 1.", "quantifier": "all matrices and interpolation points (through the coefficients of the interpolant), all points x of the interval, all minimisers that do not give a worse point than their start", "why_tests_cant": "the integrand is computed from formulas for derivatives of polynomials of every degree, with special cases at both ends of the interval; a wrong one gives another, still interpolating, result", "anchors": ["imate/interpolator/_chebyshev_rational_functions_method.py: curvature_integral, initialize_interpolator, interpolate"]}
