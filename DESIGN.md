# Formal model of imate: design

The subject is `ameli/imate` (sources in `/repo`, pinned). Nothing of it is
built or run here; the model is obtained by reading. Every definition in a
`*Model.v` file carries a comment with the file and lines it models and any
simplification made.

## Conventions

* **Arithmetic.** Integer, index and bit-level code is modelled exactly
  (`N`/`Z` with explicit `mod 2^64` where the code wraps). Floating-point code
  is modelled in *exact* arithmetic over a commutative ring, a field, a real
  closed field (mathcomp `rcfType`) or Coq's real numbers `R`; NaN and infinity
  are modelled as explicit extra values where control flow depends on them.
  Rounding is modelled for the matrix and vector kernels only (`RoundModel.v`,
  C71), where every operation is followed by a rounding function.
* **Memory.** Kernels that index raw pointers are written in an option monad
  where an out-of-range access yields `None`; a theorem `... = Some r` then
  says both "no access outside the arrays" and "the result is r".
* **Exceptions** are values (`inl`/`None` results naming the error).
* **Threads.** Parallel loops are small-step transition systems; a theorem
  quantifies over all reachable states, i.e. over all schedules. Memory is
  sequentially consistent.
* **External code** (LAPACK, SciPy, NumPy, libm) appears as a section variable
  with the stated contract as a hypothesis of the theorem; nothing is an axiom.
* **Theorems** sit in `Prop*.v` files, which contain nothing but statements,
  `exact`, non-vacuity examples and `Print Assumptions`. Names start with the
  property id. `_partial` marks a theorem that covers only part of a property,
  `_refuted` a theorem exhibiting a counterexample to the property as stated
  (the code violates it).

## Plan per property

| id | model | proof |
|----|-------|-------|
| C01 | generator + array filler, bit by bit | induction over chunks; option-memory |
| C02 | per-thread generator table, draw interleavings | invariant over histories |
| C03 | xoshiro next/jump on 4x64 bits | GF(2)-linearity; 256x256 matrix squared 128 times by the kernel |
| C04 | SplitMix mixing is a bijection of 64-bit words; next is invertible | algebra of xor-shift and odd multiplication mod 2^64 |
| C05 | as C03 | order argument: T^(2^256-1)=1 and T^(N/q)-1 invertible for each prime q, Pocklington primality |
| C06 | seeding | injectivity below 2^32; counterexample above |
| C07-C10 | kernels in option memory over any commutative ring | loop invariants against `\sum` specifications |
| C11 | band matrix writer | loop invariant |
| C12-C13 | operator classes, identity detection | composition of C07/C08; witness for the bug |
| C14-C15 | Lanczos recursion, shift of Ritz values | induction: same vectors, shifted alpha; witness in gram mode |
| C16 | initialize/get_linear_operator state machine | invariant over histories; witness |
| C17, C53 | Lanczos with circular buffer in option memory | refinement to an unbuffered recursion, then induction for orthonormality |
| C18 | quadrature sample | Krylov/Gauss argument e1^T T^k e1 = v^T A^k v, k <= 2m-1 |
| C19 | sum over all sign vectors | big-operator algebra |
| C20 | Golub-Kahn with circular buffer | as C17 |
| C21-C22 | Gram-Schmidt routines | loop invariants |
| C23-C26 | parallel sampling loop as transition system | invariants over all schedules; explicit racy schedules as witnesses |
| C27-C30 | check_convergence, average_estimates | real analysis on finite sums |
| C31-C32 | argument checks as decision functions | case analysis |
| C33 | allocation ledger of one sample | counting; witness of the leak |
| C34-C35 | exact method on mathcomp matrices | matrix algebra; witness |
| C36-C37 | Cholesky methods with factor given by contract | determinant/trace algebra |
| C38 | Hutchinson operator application | matrix algebra; witnesses |
| C39 | schatten on spectra over R | real powers |
| C40 | eigenvalue methods | spectra / diagonalisable matrices |
| C41 | scalar functions over R | real analysis |
| C42 | toeplitz matrices of every size | explicit inverse, geometric sums |
| C43 | grid odometer | base-n digits invariant |
| C44-C46 | correlation matrices | transition system; kernel properties; witnesses |
| C47-C49 | interpolants | linear systems, integrals |
| C50-C51 | timer, memory units | histories / termination |
| C54 | parallel filling of the random arrays: transition system with the shared thread id | invariant over all interleavings; refutation by a run |
| C55 | the CBLAS build of the vector and matrix kernels | refinement to the sums; refutation for row-major matrices that are not square |
| C56 | index arithmetic of dense products in 32-bit words | arithmetic modulo 2^32 |
| C57 | schatten as p tends to 0 | limits of power means |
| C58 | the linear systems of the interpolators | Rolle's theorem (generalised polynomials), Chebyshev polynomials, strictly increasing centres |
| C59 | Memory.start and read over histories of resident sizes | the peak as a maximum; refutation when memory is released |
| C52 | erf_inv over R with erf as parameter | algebra |
| C60 | the GPU kernels over documented cuBLAS/cuSPARSE results; copies to the devices; matrices and affine functions | both sides equal the matrix product; refutations for dense transposed sums and rectangular sparse matrices |
| C61 | cu_orthogonalization, cu_lanczos, cu_golub_kahn with the vector operations of the device | step-by-step equality under the invariant that buffer vectors have norm 1; refutation of Gram-Schmidt for n eps > 2 |
| C62 | Golub-Kahn iteration run with the number of rows as vector length, as the trace estimator does, and the true products | first pass computed symbolically, later passes keep the first coefficients; refutation for every tall and every wide matrix |
| C63 | HutchRunModel.v: the loop, the stopping test and the averaging of the Hutchinson method with numpy's mean, std and max and Python's exceptions; HutchRunSpec.v: the criterion and the kept estimates | loop invariant on the three arrays up to the stopping point, then the averaging reduced to filters and sums; the refutations are families of runs |
| C64 | HutchRectModel.v: one sample of the Hutchinson method with the shapes of the arrays; an operation whose shapes do not fit raises | shape analysis of each branch of the exponent; refinement to HutchModel.v for square matrices |
| C65 | BoundModel.v: bound and upper_bound of the base class, the conversions of InterpolateTrace and InterpolateLogdet, kind='eig' | BoundMath.v proves the triangle inequality of the Schatten norms and its reverse for the anti-norms, for every real p, from tangents of x^p and doubly stochastic weights; refutations by strict monotonicity of power means and a 2x2 matrix |
| C66 | HutchVecModel.v: generation of the test vectors of the Hutchinson method: parallel fill, orthogonalization with replacement, normalization | HutchVecProofs.v follows the span of the columns through the passes of the orthogonalization loop; exactness from E^T E = 1 and C38, C63; refutations by a replacement that is always the same vector, computed for seed 0 |
| C67 | SlqRunModel.v: the loop over samples of c_trace_estimator on one thread, with generator, samples, convergence test, averaging | SlqRunProofs.v: an invariant describing the state after k samples, closed form of the report; SlqRunValues.v: samples are unique values (C14, C18, C20), Ritz values stay in the numerical range |
| C68 | ReportModel.v: copying the samples out, the returned dictionary, the statistics of the convergence plot | ReportProofs.v: loop invariants for the copy, closed form of the plotted points; every schedule via C23, C24, C29; a schedule on two threads refutes the plot |
| C69 | AgreeModel.v: argument checks, function objects and method choice of the seven public functions | SlqMeanProofs.v: with degree >= n and a small tolerance the Lanczos remainder vanishes, so each sample is the quadratic form of f(A); mean over sign vectors by C19; equality with the eigenvalue, exact, Cholesky and Hutchinson methods by C34, C36, C37, C38, C40 |
| C70 | WrapModel.v: blocks of memory, numpy views, scipy matrices, pycMatrix and pycAffineMatrixFunction as holders of pointers, lazy creation, in-place sorting, histories of changes | WrapProofs.v: sorting keeps the matrix; the C++ object stays tied to the arrays (or to private copies) along any history; products by C06/C12 |
| C71 | RoundModel.v: the kernels of c_matrix_operations.cpp and c_vector_operations.cpp with a rounding after every operation (to DataType, to long double in the accumulators, to the type of sqrt); IeeeModel.v: Flocq's formats | RoundProofs.v: a calculus of relative errors, induction over the loops; refuted for compressed columns by a family of matrices of every size |
| C72 | SummaryModel.v: both print_summary functions as functions from the dictionary to the printed numbers, with Python's formats and their exceptions, and the two drivers around the computation | PropSummary.v: forms of accepted arguments, then cell by cell against SummarySpec.v; refutations for every call of the kind |
| C73 | SummaryModel.v: check_arguments of the Hutchinson method | PropSummary.v: equivalence with the documented arguments (SummarySpec.v), by inversion of the chain of checks; refutations |
| C74 | ParRunModel.v: the threads of c_trace_estimator.cpp as a transition system with one step for each access of shared memory, over the sample function of SlqRunModel.v | ParRunProofs.v: an invariant over the log of the threads in the order of processing, a measure for termination, progress, a second invariant for the samples computed in vain; PropParRun.v: the values of C18/C20, bounds, disjoint draws by C05 |
| C75 | SolverModel.v: linear_solver.py and the Hutchinson sample with the solvers of scipy as routines with contracts, and a record of the calls made | PropSolver.v: a relation between a computed and an exact vector that is kept by products and inexact solves; the number of solves gives the power of 1 + tol; counterexamples with explicit routines |
| C76 | the sample models of C19 (SlqModel.v) and C38 (HutchModel.v); VarianceSpec.v: means over all vectors of signs and over all choices of K of them | PropVariance.v: fourth moments of signs by flipping one sign, sums over functions from 'I_K as products, Chebyshev by counting |
| C77 | DiagModel.v: diagonalization.cpp and lapack_api.cpp for the three data types over a record of LAPACK routines; DiagSpec.v: what LAPACK documents about lengths, status and results | PropDiag.v: the contracts assumed by the quadrature (C18, C20) follow from the documentation of LAPACK; cast loops by invariant; counterexamples with explicit routines |
| C78 | SummaryModel.v (the drivers around the computation); DictSpec.v: what the entries should be | PropDict.v: by cases on the checks, the defaults and the shape of the parameters |
| C79 | LocateModel.v (the search, the reading of the version, the name of the processor, on texts of characters); LocateSpec.v: the place and the version meant | PropLocate.v: by induction on texts, on the list of variables and on the search path |
| C80 | LoadModel.v (the 37 functions, their pointers, dlopen, dlsym and dlerror; threads with any schedule); LoadSpec.v: the files and exported names of CUDA, what each call should do | PropLoad.v: invariant of the pointers and of each thread, kept by the steps of all threads; measure for termination |
| C81 | StampModel.v (the clock, doubles by rounding to the nearest); the generator of RngModel.v; the times are in PropStamp.v | PropStamp.v: distance of the stamp from the time; the last 40 bits of the stamp can be read from the state of the generator |
| C82 | HandleModel.v (handles, arrays, descriptors and buffers of each device; constructors, products, samples and destructors); HandleSpec.v: the steps of the threads, interleaved in any way | PropHandle.v: what each object owns, kept as a permutation of the resources that exist |
| C83 | WorkModel.v (sizes of the arrays of a run and positions in them, in the index types of the build); WorkSpec.v: when an array serves its purpose | PropWork.v: equivalence, with the first vector past the range of the index as the witness of failure |
| C84 | ProductModel.v (operator objects, numpy views, the pointer to the parameters); ProductSpec.v: elements of views, what may change | PropProduct.v: invariant of the object over histories, on top of the products of C12 |
| C86 | SlqModel.v (no new model); LogSpec.v: the bound; AccuracySpec.v | LogMath.v, LogProofs.v, PropLog.v: the log of N is the integral of resolvents (N + s)^-1, whose quadrature errors are those of C85; mean value theorem instead of integrals |
| C85 | SlqModel.v (no new model); AccuracySpec.v: range of a matrix, closeness to a polynomial, the bound, concentration up to a bias | AccuracyProofs.v, PropAccuracy.v: Gauss quadrature exact for polynomials + Ritz values in the range; the remainder of the last step for the inverse; geometric series for the polynomial; C76 for the means |
| C87 | QueryModel.v: runs of nvidia-smi, the filters of the shell, the queries; QuerySpec.v: reports and entries | PropQuery.v: induction on lines; letters in either case |
| C88 | SlqModel.v, FunModel.v (no new model); ExpSpec.v: the bound; AccuracySpec.v | ExpMath.v: partial sums of the exponential series and linear functionals; ExpProofs.v: powers of N after an early stop, by induction; PropExp.v |
| C89 | SlqModel.v, FunModel.v (no new model); LinfracSpec.v: the distance of the pole and the bound; AccuracySpec.v | LinfracProofs.v: resolvents with the pole on either side, by reflection of N; PropLinfrac.v: a linear fraction is a constant plus a multiple of a resolvent |
| C90 | DensityModel.v; SparseCorrModel.v, CorrKernelModel.v, GridModel.v; DensitySpec.v: the volume of balls by recurrence | PropBall.v: the computed factorials, radius, threshold, sizes of the arrays; PropDensity.v: counting of near pairs, retries; C44, C45, C43 |
| C92 | WallTimeModel.v: timer and conversion to float; IeeeModel.v | PropWallTime.v: error bounds and monotonicity of rounding (Flocq) |
| C93 | GpuQueryModel.v: struct, query and dictionary; HeapModel.v | PropGpuQuery.v: loop invariants, ownership of blocks (PropHeap.v) |
| C94 | SampleBufModel.v: allocation in bytes, stores, release; HeapModel.v | PropSampleBuf.v: loop invariants, ownership of blocks (PropHeap.v) |
| C91 | SampleArgsModel.v: argument checks and conversions of both functions; SampleArgsSpec.v: the documented arguments | PropSampleArgs.v: case analysis over all kinds of values |
| C95 | CurvModel.v: derivatives of Chebyshev polynomials, integrand, search | PropCurv.v: induction over the degree, derivatives from the standard library |

## Trusted base

A theorem here is trusted on the following grounds.

* **The kernel** of Coq 8.16.1 (re-checked by `coqchk`). No kernel check is
  switched off; there are no axioms, parameters, `Admitted` proofs, module types
  or functors of our own, and no plugins beyond those of the installed
  libraries.
* **Axioms of the standard library**, which enter through `Reals` and through
  the real numbers as a mathcomp field (RealField.v). These are the only ones
  that `Print Assumptions` reports:
  `ClassicalDedekindReals.sig_forall_dec`, `ClassicalDedekindReals.sig_not_dec`,
  `FunctionalExtensionality.functional_extensionality_dep`,
  `Classical_Prop.classic` and
  `ClassicalEpsilon.constructive_indefinite_description`.
* **The definitions** in the `*Model.v` files as a reading of the source. Each
  cites its lines. The simplifications are listed next.
* **The statements**: the specifications in the `*Spec.v` files and at the head
  of the `Prop*.v` files.

External routines (LAPACK, cuBLAS, cuSPARSE, scipy, numpy, cholmod, the C
library) are never axioms. They are arguments of the model, with their
documented results as hypotheses of the theorems, and each such contract is
shown to be met by at least one implementation, or the routine is modelled by
its documented result.

### What is modelled, and where the model simplifies

* `RngModel`: SplitMix64, Xoshiro256**, jumps, the per-thread generators and the
  filling of arrays, bit-exactly. The clock is an arbitrary function.
* `FillModel`: filling by several threads. One step is one statement; memory is
  sequentially consistent; any contiguous static split; the 64 writes of a chunk
  are one step.
* `KernelModel`, `CblasModel`, `IndexModel`: vector operations, dense, CSR and
  CSC products, both builds, exact arithmetic (`IndexModel`: integer values with
  wrapping indices, loop unrolling left out; `CblasModel`: reference CBLAS).
* `OperatorModel`: matrices and affine functions with their parameters.
* `LanczosModel`, `OrthoModel`, `SlqModel`: Lanczos, Golub-Kahn, Gram-Schmidt and
  one quadrature sample. Exact arithmetic; a division by zero gives `None`. The
  eigenvalue and singular value routines are contracts, met by reference
  implementations.
* `PropRectGram`: Golub-Kahn as called by the estimator on rectangular matrices.
* `HeapModel`: allocation and release, without contents.
* `ParModel`: the parallel loop. Memory is sequentially consistent, the dynamic
  schedule is over-approximated, the convergence test is a function of the
  stored samples, the error array is left out.
* `ConvModel`, `HutchRunModel`: convergence test and averaging. Exact finite
  arithmetic with the IEEE special values; times left out.
* `ArgsModel`: argument checks of the estimator over classes of Python values.
* `TraceModel` (formats COO, CSR, CSC, BSR), `CholModel` (library routine
  contracts), `EigenModel` (contracts met by a reference; the complex path only
  for integer p), `SchattenModel` (deterministic methods), `HutchModel`,
  `HutchRectModel`, `HutchVecModel` (exact solver): the methods of the user-level
  functions in exact arithmetic.
* `FunModel`: the matrix functions, one definition for the three precisions,
  exact C library functions.
* `ToeplitzModel`, `GridModel`, `SparseCorrModel`, `DenseCorrModel` (32-bit
  wrap), `CorrKernelModel` (Bessel branch abstract): sample matrices. Threads are
  interleaved with sequential consistency; printing and plotting are left out.
* `SampleArgsModel`: argument checks of `toeplitz` and `correlation_matrix` and the
  conversions that follow; numpy booleans and complex types other than complex128
  are left out, integers do not overflow.
* `InterpModel`, `BoundModel`: interpolators in exact arithmetic; scipy routines
  as contracts. `CurvModel`: the search for the crf scale, integral and minimiser
  abstract.
* `DeviceModel`: timer (integer ticks) and memory report, Linux
  branch only.
* `SlqRunModel`, `ParRunModel`: a whole run of the estimator, on one thread and
  on many, with memory, generators, stopping and averages. One inquiry for many
  threads; one step for each access of shared memory; times left out.
* `DiagModel`: the calls of LAPACK in the quadrature for the three data types,
  with the lengths of the arrays. LAPACK as documented.
* `SolverModel`: the linear solver and the Hutchinson samples with it. Solvers of
  scipy as contracts; one right hand side.
* `RoundModel`, `IeeeModel`: the vector and matrix kernels with rounding after
  every operation, overflow left out (`IeeeModel`: the binary formats).
* `WrapModel`: the Python and C++ classes around the matrices, with their data
  types and lazy initialisation.
* `ReportModel`, `SummaryModel`: the dictionaries of results, the printed
  summaries and the arguments of the Hutchinson method.
* `AgreeModel`: the choice of a method by the public functions, their argument
  checks and the methods together.
* `LocateModel`: the search for CUDA and the name of the processor, on texts as
  sequences of ASCII characters and POSIX paths; the file system, the
  environment, os.path.abspath and the JSON parser are parameters, regular
  expressions are modelled for the two patterns used; Windows and macOS are not
  modelled.
* `LoadModel`: loading of the CUDA libraries at run time by threads with any
  schedule; reads and writes of a pointer are single steps; what the functions
  of CUDA do is not modelled there.
* `StampModel`: the time stamp for a missing seed where clock_gettime is used;
  natural numbers as doubles by rounding to the nearest, ties to even.
* `HandleModel`: the handles, arrays, descriptors and buffers that operators hold
  on the GPU devices, and their use by the samples; which resource is used, not
  what is computed with it; the code of one thread in the parallel regions of
  constructors and destructors as a single step;
* `WorkModel`: sizes and positions in the work arrays of a run, signed overflow as
  wrap-around, memory without limit;
* `ProductModel`: the products of operator objects for vectors in different blocks
  of memory, in exact arithmetic;
* `QueryModel`: the GPU queries of `device/_device.py` and `restrict_to_single_processor`. How the runs of nvidia-smi end and what they print is a parameter; grep, cut and wc are functions on lines of ASCII characters.
* `DensityModel`: the estimates of the radius, the threshold and the size of the
  arrays of `_sparse_correlation_matrix.pyx`, in exact arithmetic; random points
  (`grid=False`) are arbitrary points.
* `WallTimeModel`: the C++ timer in double and float, unix branch, product and sum
  rounded separately.
* `GpuQueryModel`: query of the GPU properties; the CUDA library answers anything.
* `SampleBufModel`: the sample arrays of the wrappers in bytes; malloc does not fail.
* `CacheModel`: operators reduced to kind and number of devices.
* `GpuModel`, `GpuLanczosModel`: device code over the documented results of
  cuBLAS and cuSPARSE, one thread per device, workspace buffers left out.

Not modelled: rounding of floating-point arithmetic (except where a statement
says otherwise), weak memory, plotting, printing
other than the two summaries, the CUDA libraries themselves (only how they are
loaded and called), the build system, and the Python and Cython code
not cited in any model.

### Print Assumptions for each theorem

The lists below are the output of `Print Assumptions` for every theorem named in
MANIFEST.json, grouped by equal output.

* **Closed under the global context** (no axioms) — 396 theorems: C01_random_array_is_rademacher, C02_seed_fixes_stream, C03_jump_is_2_128_steps, C03_long_jump_is_2_192_steps, C03_thread_stream, C04_never_all_zero, C04_init_is_state, C05_full_period, C05_streams_do_not_overlap, C06_distinct_seeds_partial, C06_distinct_seeds_refuted, C07_dense_matvec, C07_dense_matvec_plus, C07_dense_transposed_matvec, C07_dense_transposed_matvec_plus, C08_csr, C08_csr_transposed, C08_csc, C08_csc_transposed, C09_format_does_not_matter, C09_transpose_is_adjoint, C10_inner_product, C10_copy_and_subtract, C10_euclidean_norm, C10_normalize_in_place, C10_normalize_and_copy, C11_band_matrix, C12_affine_products, C12_affine_never_fails, C13_identity_test, C13_replaced_only_zero_partial, C13_identity_never_recognised, C13_identity_refuted, C17_lanczos_basis, C17_setting_irrelevant, C20_golub_kahn_partial, C20_gram_sample_partial, C20_gram_affine_sample_partial, C20_singular_refuted, C21_uses_last_vectors, C21_orthogonal_partial, C21_orthogonal_refuted, C22_orthogonalize_vectors_partial, C22_zero_first_vector_refuted, C22_too_many_vectors_abort, C53_lanczos_in_bounds, C14_many_parameters, C18_affine_sample_exact, C15_gram_shift_refuted, C18_sample_exact, C19_rademacher, C19_average_of_samples, C23_bookkeeping, C23_progress, C23_completes, C23_terminates, C23_ends, C24_only_computed_partial, C24_race_refuted, C25_own_parameter_partial, C25_shared_operator_refuted, C26_stops_after_convergence, C27_convergence_test, C27_converged_every_schedule, C27_confidence_one, C28_relative_tolerance_partial, C28_negative_mean_refuted, C29_mean_of_inliers, C29_order_irrelevant, C29_one_sample, C29_all_inquiries, C30_some_sample_stays_partial, C30_all_discarded_refuted, C31_num_inquiries, C31_reads_partial, C31_strided_refuted, C31_backwards_refuted, C32_accepted_iff_partial, C32_nan_refuted, C32_complex_exponent_refuted, C33_lost_memory, C33_released_partial, C33_lost_refuted, C34_trace_of_power, C34_gram_partial, C34_gram_zero_partial, C34_float_exponent, C34_wide_refuted, C34_duplicates_refuted, C35_noninteger_rejected_partial, C35_negative_refuted, C37_traceinv, C37_gram_partial, C37_no_inverse, C37_routes_agree, C37_gram_zero_refuted, C38_samples_partial, C38_unbiased_partial, C38_negative_refuted, C38_gram_B_refuted, C38_gram_C_refuted, C42_matrix, C42_gram_matrix, C42_trace, C42_trace_method, C42_traceinv, C42_traceinv_gram_partial, C42_large, C42_large_refuted, C42_large_sign_refuted, C42_opposite_refuted, C43_points, C43_range, C43_distinct, C43_complete, C43_single_refuted, C44_enough, C44_progress, C44_terminates, C44_completes, C44_fails_only_when_full, C44_generates, C44_correct_partial, C44_overflow_bound_partial, C44_overflow_refuted, C44_asymmetric_refuted, C45_loop, C45_inside, C45_progress, C45_completes, C45_terminates, C55_copy, C55_copy_scaled, C55_subtract_scaled, C55_inner_product, C55_norm, C55_normalize_in_place, C55_normalize_and_copy, C55_matvec_partial, C55_matvec_other_build, C55_matvec_refuted, C55_long_double_refuted, C56_position, C56_matvec_partial, C56_transposed_partial, C56_matvec_refuted, C45_index_refuted, C50_hold, C50_no_hold, C50_reset, C50_reset_as_new, C50_count, C50_hold_any, C50_repeated_toc_refuted, C59_read_peak, C59_read_partial, C59_read_refuted, C16_cpu, C16_right_answer_partial, C16_gpu_only, C16_stale_refuted, C16_interrupted_refuted, C54_filled, C54_completes, C54_in_turn, C54_one_thread, C54_reproducible_refuted, C54_repeated_draw_refuted, C60_products_partial, C60_same_partial, C60_csr_partial, C60_vectors, C60_norms, C60_affine_partial, C60_dense_transposed_refuted, C60_affine_dense_refuted, C60_sparse_transposed_refuted, C60_csc_refuted, C61_lanczos_partial, C61_golub_kahn_partial, C61_affine_lanczos_partial, C61_gram_schmidt_refuted, C62_square_partial, C62_tall_refuted, C62_wide_refuted, C63_stopping_point, C63_run_partial, C63_returns, C63_returns_refuted, C63_no_outlier_level, C63_error_partial, C63_error_refuted, C63_negative_refuted, C63_positive, C63_used_refuted, C63_raises, C64_square, C64_rectangular_refuted, C64_wrong_refuted, C66_orthonormal_partial, C66_plain, C66_returns_partial, C66_wide_refuted, C66_ends, C66_reproducible_partial, C66_seed_abort_refuted, C66_exact, C66_seed_zero_refuted, C66_reproducible_refuted, C67_matrix_run, C67_affine_run, C67_gram_affine_run_partial, C67_alone, C67_matrix_range, C67_affine_range, C67_scalar, C67_reproducible_matrix, C67_reproducible_affine, C68_samples_partial, C68_one_thread, C68_shapes, C68_plot_partial, C68_last_point, C68_plot_error_refuted, C68_plot_order_refuted, C69_matrix_mean, C69_affine_mean, C69_methods, C69_degree_refuted, C70_current_partial, C70_snapshot, C70_accepted, C70_untouched, C70_affine_partial, C70_strided_refuted, C70_replaced_refuted, C70_shared_refuted, C70_stale_refuted, C70_index_refuted, C71_dense, C71_dense_transposed, C71_csr, C71_csc_transposed, C71_csc, C71_csr_transposed, C71_vectors, C71_inner_product, C71_norm, C71_unit_length, C71_integers, C72_slq_partial, C72_hutchinson_partial, C72_outlier_refuted, C72_scalar_refuted, C72_exponent_refuted, C72_pos_refuted, C72_solver_tol_refuted, C72_hutchinson_outlier_refuted, C73_accepted_iff_partial, C73_exponent_refuted, C73_columns_refuted, C73_nan_refuted, C73_negative_threads_refuted, C74_matrix, C74_affine, C74_range, C74_scalar, C74_no_common_draw, C75_tolerance_partial, C75_tolerance_gram_partial, C75_bias_partial, C75_sym_partial, C75_no_solver, C75_dense, C75_info_ignored, C75_unnoticed_refuted, C75_pos_refuted, C76_variance, C76_spread, C76_spread_sym, C76_exact_iff, C76_mean_of_draws, C76_few_far_draws, C76_slq, C76_hutchinson, C76_no_spread, C77_eigh_status, C77_svd_status, C77_contracts, C77_sample, C77_long_double, C77_long_double_of_doubles, C77_long_double_svd, C77_long_double_refuted, C77_status_ignored, C77_unnoticed_refuted, C77_work_refuted, C77_int_sizes, C78_slq_partial, C78_cpu_devices_refuted, C78_hutchinson, C78_data_types, C79_version_txt, C79_version_json, C79_version_header, C79_blank_refuted, C79_found, C79_complete, C79_complete_path, C79_none, C79_no_libraries, C79_no_headers_refuted, C79_no_path_refuted, C79_info, C79_info_none, C79_info_refuted, C79_processor, C79_colon_refuted, C80_right, C80_calls, C80_missing_refuted, C80_pending_refuted, C80_missing_windows, C80_windows_refuted, C80_mac_refuted, C81_distinct_partial, C81_resolution_refuted, C81_apart_refuted, C81_failed_refuted, C81_double_nearest, C82_released, C82_devices, C82_affine_devices_refuted, C82_no_device, C82_too_many_refuted, C82_limit_refuted, C82_memory_refuted, C82_kept_refuted, C83_room, C83_threads_refuted, C83_basis_refuted, C83_degree_refuted, C83_short, C83_kept, C84_constant, C84_function, C84_raises, C84_shape_refuted, C84_type_refuted, C84_none_refuted, C86_monotone, C85_function, C85_inverse, C85_inverse_affine, C85_traceinv, C85_trace, C85_monotone, C85_one_step_biased, C87_gpu_name, C87_driver, C87_number, C87_gpus, C87_absent, C87_silent, C87_total, C87_restrict, C87_driver_two_refuted, C87_slices_refuted, C87_failed_refuted, C89_sample, C89_affine, C89_trlinfrac, C89_linear, C89_target, C89_monotone, C89_one_step_biased, C90_retries, C90_returns, C93_released, C93_repeated, C93_properties, C93_no_device, C93_reported, C93_error_refuted, C93_first_error_refuted, C94_safe, C94_narrow_refuted, C91_toeplitz, C91_toeplitz_raises, C91_documented, C91_built_partial, C91_density, C91_abort, C91_flag_refuted, C91_scale_refuted, C91_density_refuted.

* **Axioms: `ClassicalDedekindReals.sig_forall_dec`, `FunctionalExtensionality.functional_extensionality_dep`** — 10 theorems: C41_inverse, C41_indicator, C41_homographic, C41_identity_power, C46_usable_partial, C46_default_partial, C46_abort_refuted, C46_rejected_refuted, C95_derivatives, C95_smooth.

* **Axioms: `ClassicalDedekindReals.sig_forall_dec`, `ClassicalDedekindReals.sig_not_dec`, `FunctionalExtensionality.functional_extensionality_dep`** — 2 theorems: C41_gaussian, C52_newton_fixed.

* **Axioms: `ClassicalDedekindReals.sig_forall_dec`, `ClassicalDedekindReals.sig_not_dec`, `Classical_Prop.classic`, `FunctionalExtensionality.functional_extensionality_dep`** — 35 theorems: C41_logarithm, C41_exponential, C41_smoothstep, C52_odd, C52_ends_and_zero, C52_exact_guess, C52_newton_quadratic, C52_result_below, C45_kernel, C45_entries, C45_symmetric, C45_diagonal, C45_range, C45_decreasing, C46_bound_partial, C46_rational_quadratic, C46_rational_quadratic_refuted, C46_parameter_ignored_refuted, C51_same_amount, C51_no_unit, C51_documented_units_refuted, C90_ball, C90_raises, C90_kept, C90_grid, C90_room, C90_allowance_refuted, C92_accuracy, C92_not_negative, C92_zero, C92_positive, C92_set_back_refuted, C92_failed, C95_curvature, C95_scale.

* **Axioms: `ClassicalDedekindReals.sig_forall_dec`, `ClassicalEpsilon.constructive_indefinite_description`, `Classical_Prop.classic`, `FunctionalExtensionality.functional_extensionality_dep`** — 13 theorems: C47_ext, C47_rpf, C47_crf, C47_spl, C47_crf_negative_scale_refuted, C47_spl_unsorted_refuted, C58_crf, C47_spl_builds, C69_arguments, C69_arguments_back, C69_accepted, C69_array_refuted, C69_density_list_refuted.

* **Axioms: `ClassicalDedekindReals.sig_forall_dec`, `ClassicalDedekindReals.sig_not_dec`, `ClassicalEpsilon.constructive_indefinite_description`, `Classical_Prop.classic`, `FunctionalExtensionality.functional_extensionality_dep`** — 99 theorems: C36_logdet, C36_gram_tall, C36_gram_square_partial, C36_sparse_scipy, C36_gram_square_refuted, C40_symmetric, C40_gram_partial, C40_trace_matrix, C40_agrees_with_exact, C40_traceinv_matrix, C40_agrees_with_cholesky, C40_gram_matrix, C40_gram_matrixinv, C40_wide_trace, C40_trexp_series, C40_general, C40_general_matrix, C40_logdet, C40_logdet_gram_partial, C40_logdet_agrees_with_cholesky, C40_logdet_tall, C40_sparse_trace, C40_wide_trexp_refuted, C40_wide_eigencount_refuted, C40_wide_zero_refuted, C40_density_integer_refuted, C40_sparse_refuted, C40_logdet_gram_refuted, C40_logdet_wide_refuted, C39_power_mean, C39_formula, C39_exact, C39_multiple, C39_homogeneous, C39_bounds, C39_gram_partial, C39_tall_refuted, C39_tall_zero_refuted, C39_sign_refuted, C57_continuous, C42_logdet_partial, C42_logdet_negative_refuted, C42_schatten, C47_mbf, C47_imbf, C47_rbf, C47_imbf_nine_refuted, C47_rbf_decreasing_refuted, C48_exact_for_two, C49_orthonormal, C58_imbf, C58_rbf, C65_bound, C65_bound_negative, C65_upper_bound, C65_trace_value, C65_trace_upper_partial, C65_trace_lower, C65_logdet_value, C65_logdet_lower, C65_tracep_conversions, C65_logdet_conversions, C65_eig_dense, C65_norm_met, C65_trace_upper_refuted, C65_sparse_upper_refuted, C65_eig_sparse_refuted, C65_number_refuted, C69_same_function, C69_slq_agrees_partial, C69_trace_methods, C69_traceinv_methods, C69_logdet_methods, C71_ieee, C71_ieee_integers, C71_single_dense, C71_single_csr, C71_single_inner_product, C71_single_norm, C71_single_unit_length, C71_csc_drift, C71_csc_refuted, C71_norm_underflow_refuted, C71_norm_long_double_refuted, C86_sample, C86_affine, C86_logdet, C86_code_function, C86_one_step_biased, C85_code_function, C88_sample, C88_affine, C88_trexp, C88_degree, C88_code_function, C88_one_step_biased, C89_code_function, C90_line_room, C90_line.
