{
 "C03": {
  "note": "The dense overloads satisfy the property. The DiagonalMatrix overload asserts against size() = n*n, so an index in [n, n*n) is written out of bounds (C03_set_subset_diagonal_refuted).",
  "status": "proved"
 },
 "C07": {
  "note": "KFoldGrouper(0) on a non empty dataset is an integer division by zero (C07_kfold_zero).",
  "status": "proved"
 },
 "C10": {
  "note": "Cross validating an empty dataset dereferences end() of an empty set (C10_cv_empty_refuted).",
  "status": "proved"
 },
 "C12": {
  "note": "Thread pool contract (every enqueued task is run once by some worker, futures rethrow) is modelled as a transition system over all schedules; C12_exception_waits_refuted: with a throwing task the caller leaves before the other tasks are done.",
  "status": "proved"
 },
 "C13": {
  "note": "C13_asymmetric_refuted: with an asymmetric function the threaded matrix differs from the serial one.",
  "status": "proved"
 },
 "C14": {
  "note": "C14_no_blocks_refuted: zero blocks is undefined behaviour. The square root is over the exact reals.",
  "status": "proved"
 },
 "C15": {
  "note": "C15_full_range_refuted: the full 64 bit range overflows. Termination is relative to the draws of the random engine.",
  "status": "proved"
 },
 "C17": {
  "note": "With repeated features every matching pair is emitted, so the output can exceed both inputs (C17_align_duplicates_refuted).",
  "status": "proved"
 },
 "C18": {
  "note": "Dataset metadata is dropped by subset and concatenate (C18_metadata_refuted).",
  "status": "proved"
 },
 "C19": {
  "note": "std::sort is any function returning a sorted permutation; costs are integers",
  "status": "proved"
 },
 "C20": {
  "note": "C20_self_loop_refuted, C20_disconnected_refuted: self loops and disconnected graphs.",
  "status": "proved"
 },
 "C21": {
  "note": "User callbacks are arbitrary functions that return; termination is relative to the draws.",
  "status": "proved"
 },
 "C22": {
  "note": "C22_best_ignored_refuted: == ignores the selected candidate; C22_reflexivity_refuted: NaN scores.",
  "status": "proved"
 },
 "C24": {
  "note": "C24_nan_refuted: NaN passes through force_bounds.",
  "status": "proved"
 },
 "C25": {
  "note": "C25_shared_name_refuted, C25_gp_shared_name_refuted: a name owned by two parts makes set_param unobservable.",
  "status": "proved"
 },
 "C26": {
  "note": "Holds for non-empty datasets whose names and values contain no commas or newlines. Refuted otherwise: an empty dataset writes nothing, text is not quoted, and list columns shift.",
  "status": "proved"
 },
 "C27": {
  "note": "Holds under the printed-number contract (values that print and parse back). Refuted for parameter names equal to the reserved columns; values are rounded to the printed digits.",
  "status": "proved"
 },
 "C28": {
  "note": "Every log probability function and random stream. Findings: fewer than two walkers or splits is undefined behaviour, the initial state needs three finite walkers although the message says two, and replacing non-finite walkers may never end.",
  "status": "proved"
 },
 "C29": {
  "note": "Reals and extended reals instead of doubles.",
  "status": "proved"
 },
 "C30": {
  "note": "Every objective, including NaN and infinite values. C30_single_query_refuted: with one query in each direction the queries are five ranges away on the wrong side.",
  "status": "proved"
 },
 "C31": {
  "note": "Forward differences over the reals. Refuted near the upper bound: parameters are clamped before the objective is evaluated, so the step down branch is dead, the entry is 0 at the upper bound for every objective and underestimated within a step of it.",
  "status": "proved"
 },
 "C32": {
  "note": "zstd, gzip and base64 are oracles with lossless round trip contracts; the square root is over the reals. Entries above the diagonal are whatever the destination held.",
  "status": "proved"
 },
 "C33": {
  "note": "Same oracles. A pool of one thread is loaded as no pool.",
  "status": "proved"
 },
 "C34": {
  "note": "The property is false of the code: C34_sparse characterises what is loaded (the transpose of the first half of the stored entries, or a failed assertion) and C34_round_trip_refuted, C34_not_square_refuted give witnesses.",
  "status": "proved"
 },
 "C35": {
  "note": "Exact arithmetic over any field; hypotheses are invertibility, or just positive definiteness of prior covariance + target noise (C35_positive_definite). The LDLT factorization enters as its contract: solve(b) = A^-1 b, inverse_diagonal = diag(A^-1) (the factor-level model is C45).",
  "status": "proved"
 },
 "C36": {
  "note": "Conditional law for every group and complement; also shown equal to refitting on the remaining data and predicting measurements of the held out features, plus the held out noise. C36_gp_marginals_refuted: the specialised marginals differ from refit-and-predict by that noise, so generic and specialised cross validation disagree on variances.",
  "status": "proved"
 },
 "C37": {
  "note": "Single and arbitrary sequences of updates. C37_measurement_noise_refuted: with covariance terms that apply to measurements only, update() and refitting differ, because the update does not wrap new features as measurements.",
  "status": "proved"
 },
 "C38": {
  "note": "Proved for every fit reachable by fit / fit_from_prediction / update in any order.",
  "status": "proved"
 },
 "C39": {
  "note": "Subset theorem covers every reachable fit, repeated and reordered features.",
  "status": "proved"
 },
 "C40": {
  "note": "Loewner order statements over any ordered field.",
  "status": "proved"
 },
 "C41": {
  "note": "Interpolation, affine dependence on targets, mean function equivariance, invariance under reordering the data, and the no-data case.",
  "status": "proved"
 },
 "C42": {
  "note": "Including equality with GP regression and the relation to leave-one-group-out.",
  "status": "proved"
 },
 "C43": {
  "note": "For any inner representation that solves A, so nested BlockSymmetric are covered; also ExplainedCovariance and DirectInverse.",
  "status": "proved"
 },
 "C44": {
  "note": "Serial and threaded (every schedule of the pool machine) solve/sqrt_solve. Findings: product of non-square blocks reads a chunk with b.rows() rows (UB, C44_product_not_square_refuted); operator- compares only element counts (C44_difference_shape_refuted). rcond is not modelled.",
  "status": "proved"
 },
 "C45": {
  "note": "Eigen's LDLT storage is modelled (matrixL, vectorD, transpositions, triangular solves by contract); all results in exact real arithmetic. factors f A is Eigen's contract A = P^T L D L^T P. Solve drops rows with |D| below Eigen's tolerance, so C45_solve requires |D| above it.",
  "status": "proved"
 },
 "C46": {
  "note": "Exact real arithmetic, any inducing points (after the strategy ran), any grouping, any LDLT/QR that satisfies the stated contracts (shown satisfiable by plain_ldlt, plain_qr). Zero mean function; C48 has the general one. The log likelihood needs the pivots above Eigen's solve tolerance. The inducing point strategies are not modelled.",
  "status": "proved"
 },
 "C47": {
  "note": "Any history of updates, any order and grouping of the observations whose groups do not straddle batches. The rank deficient branch of update is modelled but does not occur under the QR contract.",
  "status": "proved"
 },
 "C48": {
  "note": "Settled: C48_prediction gives what is computed for every mean function; the claim itself is false (C48_mean_function_refuted): compute_internal_components copies y before removing the mean. rebase_inducing_points counts the mean function twice (C48_rebase, C48_rebase_refuted).",
  "status": "proved"
 },
 "C49": {
  "note": "Settled: the setter assigns its argument to itself, so it does nothing (C49_set_inducing_point_strategy, _refuted). set_grouper_function works.",
  "status": "proved"
 },
 "C50": {
  "note": "Proved for every expression tree of leaves, +, *, measurement_only and scaling terms, every list of plain features (objects, measurements, linear combinations of objects or variants, measurements of those) and every list of variants: the matrix of call results is positive semi-definite, if both factors of each product are defined for the same classes. Finding (C50_product_refuted): a factor undefined for a class pair counts as 1 and then products of psd functions need not be psd. Scaling functions need both arguments measured or both not (see C55_scaling_refuted).",
  "status": "proved"
 },
 "C51": {
  "note": "Exact real arithmetic with infinities and NaN. C51_value characterises every finite argument of the four functions. C51_psd_scalar, C51_psd_euclidean (any dimension) and C51_psd_radial cover all four shapes with no bound on the number of points; the proofs derive positive definiteness of exp(-r), exp(-r^2) and the Matern functions from Cauchy matrices and Schoenberg's argument. C51_angular_refuted: with the angular distance the clamping at 1 - 1e-16 gives matrices that are not positive semidefinite (Exponential is the only shape programs can use with it, the others are rejected by static_asserts); C94 proves what does hold for angles. C51_zero_vector_refuted: a zero vector aborts under the angular distance. C51_infinite_distance_refuted: an infinite distance gives NaN for the Matern functions but 0 for the others.",
  "status": "proved"
 },
 "C52": {
  "note": "C52_reproduces: the returned length scale is the unique positive one with the requested process noise, and process_noise_equivalent returns exactly that noise. C52_process_noise covers the four functions; C52_invalid all finite arguments with no solution. The Matern derivation is C67.",
  "status": "proved"
 },
 "C53": {
  "note": "C53_bounds holds for arbitrary functions, including ones returning NaN or infinities, for a start within the bounds; C53_start_refuted shows that a start outside is returned unchanged when it already satisfies the tolerance. C53_iteration is the complete behaviour for finite functions; C53_line and C53_convex are consequences.",
  "status": "proved"
 },
 "C54": {
  "note": "Call results are the double sum over the expansions, definedness characterised for class features and variants; matrix products give M K N^T and M mu, out of range columns are undefined behaviour (None). Findings: C54_constant_refuted (Constant ignores the coefficients of Measurement<LinearCombination<X>> and sums with it drop the other term), C54_mean_product_refuted.",
  "status": "proved"
 },
 "C55": {
  "note": "Full characterisation of calls on objects and measurements. Findings: C55_scaling_refuted (mixed measurement/object calls apply only one scaling factor), C55_combination_noise_refuted (noise of measured linear combinations dropped), C55_double_measurement_refuted.",
  "status": "proved"
 },
 "C56": {
  "note": "Recursions over the exact reals; the negative orders raise an assertion (Abort) as in the code. C56_derivative is about the derivative of the polynomial function, there is no derivative in the code.",
  "status": "proved"
 },
 "C57": {
  "note": "Densities over exact extended reals. Proved: the uniform density is right everywhere (C57_uniform), the improper priors are 0 on their support, differences of gaussian log densities are right, bounds contain the support except for the positive and positive gaussian priors. The rest of the claim is false of the code: the gaussian normalisation multiplies log(2 pi) by log(sigma^2) (C57_gaussian_refuted), the positive gaussian prior only adds ln 2 to it and does not cut at 0, the log normal prior has half the variance it should, the log scale uniform prior is the plain uniform density, and the positive prior's bounds leave out (0, epsilon).",
  "status": "proved"
 },
 "C58": {
  "note": "Exact reals, Eigen's LDLT under ldlt_contract with pivots above the tolerance of its solve. C58_singular(_refuted): with a singular covariance of size other than 1 the negative log likelihood is -inf whatever the deviation, with size 1 it is NaN (C58_degenerate).",
  "status": "proved"
 },
 "C59": {
  "note": "Settled negatively: C59_exactly_when characterises when the value is the entropy (one dimension or unit determinant), C59_entropy_refuted and C59_additive_refuted give witnesses; C59_ordering is what remains true.",
  "status": "proved"
 },
 "C60": {
  "note": "Settled. Draws: M M^T is P P A (P P)^T, because transpositionsP() is applied where its transpose is needed; right exactly when P P commutes with A, refuted for diag(2,1,3). Energy score: value and non negativity for weights in [0,1] (and none); refuted for larger weights, since the first norm uses sqrt(w) and the second w. Variogram score: value, non negativity; it is half the documented sum over all i, j. Moments and CRPS are the integrals they stand for, given the contract of std::erf, which ErfExample.v shows to be met. Standard deviations of differences strictly between 0 and 1e-16 are excluded for the madogram.",
  "status": "proved"
 },
 "C61": {
  "note": "uniform_ks_test equals the supremum over t in [0,1] of the distance between the empirical distribution function and t (the specification is a least upper bound), does not depend on the order of the samples, lies in [1/(2n), 1], and is 0 for no samples. For samples outside [0,1] the value can exceed 1 (C61_outside_refuted).",
  "status": "proved"
 },
 "C62": {
  "note": "Moments of sums, differences and scalings entry by entry; marginals and subsets commute with every operation; algebraic laws; positive semidefiniteness is preserved; matrix times joint gives M mu and M C M^T through the LDLT square root (the recorded LDLT contract), matrix times marginal gives its diagonal; approximate comparison is reflexive, symmetric, monotone in epsilon, exact at 0 and purely relative (nothing but zero is close to zero); concatenation writes every entry in order and aborts for inconsistent sizes. Findings: with repeated indices subset does not commute with adding marginal noise (C62_subset_duplicates_refuted); transforming an indefinite covariance does not give M C M^T (C62_transform_indefinite_refuted).",
  "status": "proved"
 },
 "C63": {
  "note": "Keys that differ are rejected by block_accumulate (assertion), block_subtract and block_diag_solve (assertion or out_of_range). Finding: empty vertical_stack and block_sum read the first element (C63_empty_refuted). block_product cannot be called without naming its unused template parameter; its body is modelled.",
  "status": "proved"
 },
 "C64": {
  "note": "Metric axioms in exact arithmetic. C64_angular characterises angular_distance including both clamps; C64_angular_zero_refuted (NaN for a zero vector) and C64_angular_triangle_refuted (triangle inequality fails by the clamp) are findings. C64_distance_matrix characterises the table for every metric.",
  "status": "proved"
 },
 "C65": {
  "note": "nlopt is an oracle whose contract is to return a point within its bounds. The mean of no metrics is NaN.",
  "status": "proved"
 },
 "C66": {
  "note": "Archives are streams of named values read in order. C66_ldlt_l1_norm_refuted: the l1 norm of a factorization is not saved. C66_ldlt_equal_refuted: comparing an initialized with an uninitialized factorization fails an assertion.",
  "status": "proved"
 },
 "C67": {
  "note": "Settled: false as stated. C67_matern is the complete behaviour (outcome, bounds, Newton iteration with exact derivative, out of reach requests); C67_small_requests: requests up to 1/10000 of the prior are reproduced with relative error 2e-12, 50 steps being enough; C67_reproduces_refuted: for both functions, every distance and every prior there is a request for which the solver cycles and returns a length scale 10000 times too long.",
  "status": "proved"
 },
 "C68": {
  "note": "C68_value gives the value for every dataset; C68_ignores_noise and C68_noise_refuted show that it is not the likelihood of noisy targets, whose covariance is K + diag(noise) in fit.",
  "status": "proved"
 },
 "C69": {
  "note": "Exact real arithmetic. The likelihood theorems use the LDLT contract of DESIGN.md.",
  "status": "proved"
 },
 "C70": {
  "note": "C70_noise_counted_twice_refuted: GP cross validated predictions are the law of the noisy measurements (C36), and the likelihood metric adds the noise of the targets again. C70_rmse / C70_rmse_refuted: LeaveOneOutRMSE averages the root mean square errors of single points, which is the mean absolute error, at most the root mean square error (C70_rmse_bound).",
  "status": "proved"
 },
 "C71": {
  "note": "Settled with two refutations. The function returns the squared distance, so the triangle inequality holds for its square root (C71_triangle) and fails for the value (C71_triangle_refuted). The clamp threshold is relative to the smallest positive eigenvalue, so a negative definite matrix has square root zero instead of NaN (C71_negative_definite_refuted). Exact arithmetic; the eigen solver is any function whose result decomposes the two matrices it is called on.",
  "status": "proved"
 },
 "C72": {
  "note": "C72_accuracy covers every degree of freedom below twenty and every argument from 2 epsilon on. The truncated continued fraction is a quotient of two polynomials (FractionPoly.v); the denominator is shown positive on the whole quadrant by signs of coefficients after substitution (PosPoly.v, FractionBound.v), and the determinant of the two solutions of the recurrence gives the error; above the cut the complement is bounded (GammaTail.v). The 3e-5 is not sharp: the true error is about 3e-7, where the code rounds to 1. Refuted: negative or NaN degrees of freedom still give 0 below epsilon and 1 at infinity (C72_invalid_dof_refuted); incomplete_gamma(a, infinity) is NaN instead of 1 for a < 10 (C72_infinite_refuted); for a small fraction of a degree of freedom the code gives 0 where the true value is above 0.7 (C72_near_zero_refuted). Contracts: std::tgamma and std::lgamma are exact on positive arguments (GammaExample.v shows a function that meets the contract), Eigen::LLT returns a lower triangular L with L L^T = A.",
  "status": "proved"
 },
 "C73": {
  "note": "Exact arithmetic. Refuted: the decorrelation promised by the comments (n points have n - 1 gaps), and distinctness of the points for sums, products and constant features; zero inducing points abort in linspace (to_double of size_t underflow) and a zero length scale in safe_cast_to_size_t. Not modelled: representations of different feature types (variants).",
  "status": "proved"
 },
 "C74": {
  "note": "C++ types are numbers; a static type is one of them or a list of alternatives. What does not compile is None. Finding: variants with the same alternatives in a different order cannot be concatenated, and extraction drops the metadata of a dataset (like C18_metadata_refuted).",
  "status": "proved"
 },
 "C75": {
  "note": "The Householder QR solver is a contract: it solves the normal equations (C75_solver_exists: satisfiable for every matrix over every real field). C75_no_data_refuted: a fit to no data reads features[0] of an empty vector. Exact arithmetic.",
  "status": "proved"
 },
 "C76": {
  "note": "Whether the methods of a particular model agree is a hypothesis (consistent); it holds trivially for one method and is proved of the null model, and of Gaussian processes by C36.",
  "status": "proved"
 },
 "C77": {
  "note": "C77_noisy_temporary_refuted: model.fit(d).predict_with_measurement_noise(x) keeps references to the destroyed temporary, because unlike predict it has no overload for temporaries. C77_snapshot_refuted: update_in_place changes the answers of predictions made before it.",
  "status": "proved"
 },
 "C78": {
  "note": "Composes C42 (conditional law) and C21 (RANSAC). Metrics are arbitrary functions of the distributions; C78_callbacks shows the callback hypotheses can be met for every data set. The functions returned by the strategy capture the metric objects by reference, so they must not outlive the strategy (not modelled).",
  "status": "proved"
 },
 "C79": {
  "note": "C79_repeated_refuted: two equal features leave the matrix singular in spite of the nugget, against the comment in nugget.hpp. C79_nan_refuted: a feature not equal to itself gets no noise. Exact arithmetic.",
  "status": "proved"
 },
 "C80": {
  "note": "Exact arithmetic; the eigen decomposition (SelfAdjointEigenSolver) enters as a contract: orthonormal eigenvectors. C80_zero_threshold_refuted: with a threshold of zero a singular matrix gives a result that is not finite.",
  "status": "proved"
 },
 "C81": {
  "note": "Settled. Findings: loading a complex array overflows the heap (the buffer is allocated for real entries), pattern-only and unpacked matrices are not restored, saving an uncomputed factorization dereferences a null pointer, the cached R is not restored.",
  "status": "proved"
 },
 "C82": {
  "note": "Settled. Finding: the line of a sum or product shows the name of a default constructed one, which differs from get_name when a part has a name that depends on its state.",
  "status": "proved"
 },
 "C83": {
  "note": "Settled. Finding: neither count nor the number of features is checked, so asking for more directions than the matrix has is undefined behaviour.",
  "status": "proved"
 },
 "C84": {
  "note": "Settled. Findings: get_R and sqrt_solve of a matrix with fewer rows than columns fail an assertion; the threshold of matrices below 300 rows or columns is absolute, so a well conditioned small matrix of small scale has all columns below it and is treated as having rank 0.",
  "status": "proved"
 },
 "C85": {
  "note": "Settled.",
  "status": "proved"
 },
 "C86": {
  "note": "Settled. Round trips of strings and elements, behaviour on arbitrary input, memory safety. Finding: maybe_decompress into a string throws std::length_error when the frame header claims more than max_size bytes instead of returning false. zstd is a contract.",
  "status": "proved"
 },
 "C87": {
  "note": "Settled over exact arithmetic. Findings: random_sparse_matrix of zero rows or columns is undefined (empty integer range); with fill > 1 it never returns. Contracts: QR gives an orthogonal Q, LLT gives a square root, engines stay in range.",
  "status": "proved"
 },
 "C88": {
  "note": "Any model, metrics and grouping, composed with the loop of C21. Finding C88_default_failures_refuted: the free function and the model disagree on how many candidate sets may be turned down when this is not said. Callbacks that throw (metrics, the sub model) are outside the model; serialization of the fit is C66.",
  "status": "proved"
 },
 "C89": {
  "note": "Complements C05 and C06. first_group of nothing is undefined (C89_first_group_empty_refuted). Exact arithmetic for sum and mean of doubles.",
  "status": "proved"
 },
 "C90": {
  "note": "FloatModel uses Flocq's binary64 with round to nearest even and a single NaN. exp, pow(x,2) and acos are quantified over functions meeting the contracts of FloatCovSpec (a correctly rounded exp is shown to meet them); Eigen's sums are any order and bracketing. Findings: infinite features are at distance NaN from themselves; different vectors at distance zero by underflow; norm overflow; radial distance of a vector to itself NaN; angular distance of (1,1) to itself is positive; zero vectors have NaN angles that stop the program; Matern covariances larger than the variance by rounding; Matern covariances NaN when the polynomial factor overflows. Fused multiply-add and extended precision are not modelled. Positive definiteness of rounded matrices is not claimed.",
  "status": "proved"
 },
 "C91": {
  "note": "Proved over any ordered field for every dataset, positive definite covariance and set of groups. Findings: for a metric that reads variances scores(metric, dataset, groups) differs from scores(metric, folds), as only the first adds the noise of held out targets; a group listing an observation twice is accepted by the shortcut and asserted against by folds.",
  "status": "proved"
 },
 "C92": {
  "note": "Proved for up to ten variables; for any number the start is some permutation of the values. Findings: with more than ten variables the start is permuted (the names \"10\" and \"2\" are in lexicographic order); an Eigen objective without variables is undefined behaviour.",
  "status": "proved"
 },
 "C93": {
  "note": "C93_move connects the sampler's model to Metropolis's rule on the line through the partner; the invariance theorems are about that rule with the model's own stretch, by exchanging each stretch with its inverse (substitution in both integrals). C93_one_parameter: with one parameter the line is the whole space, so the target density itself is invariant. Not formalised: for n > 1 the step from all lines through the partner to R^n (polar coordinates), coordinates in which walker and partner coincide (there the code moves by 1e-6 instead, a null event for continuous densities), and the quality of the random engine.",
  "status": "proved"
 },
 "C94": {
  "note": "C94_exponential: any number of directions whose pairwise angles the clamping of AngularDistance leaves alone. C94_exponential_nearly: all nonzero directions, with the size of the diagonal that makes up for the clamping. C94_rejected_combinations: for the directions 0, 90, 180, 270 degrees the three shapes guarded by a static_assert have a negative quadratic form, so the static_asserts are necessary, and by C94_exponential the missing one is not. The static_asserts themselves are compile time and not modelled.",
  "status": "proved"
 },
 "C95": {
  "note": "Partial: C95_accuracy_partial reduces the error to that of the best polynomial of degree 99 for the density on the window, plus 1e-10 for the tails; the error of that polynomial is missing, and with it the upper bound 1 (numerically the result exceeds 1 by 4e-13 at a = 500).",
  "status": "partial"
 },
 "C96": {
  "note": "The joint distribution of observations and values has finitely many outcomes, so that expectations are sums; exact arithmetic.",
  "status": "proved"
 },
 "C97": {
  "note": "Positive variances and exact arithmetic; a covariance function that is positive semidefinite on the features themselves. Variances of zero with repeated features give a singular matrix and are excluded.",
  "status": "proved"
 },
 "C98": {
  "note": "Explicit bounds for the mean and the variance, and that they vanish with the nugget. The inducing points must include the observed features and the covariance function must not treat measurements specially (both are hypotheses); mean function 0 as in C46, since a mean function is not removed (C48_mean_function_refuted).",
  "status": "proved"
 },
 "C99": {
  "note": "C99_dense and C99_sparse say what is learned; C99_invertible that nothing changes for invertible matrices that keep the noise independent; C99_dependent_refuted (covariances of the noise are dropped) and C99_identity_refuted (1 * dataset loses measurement_only noise) are findings.",
  "status": "proved"
 },
 "C100": {
  "note": "C100_columns for every document, C100_exact and C100_row for features with proper names; C100_empty_refuted, C100_dot_refuted and C100_reserved_refuted are findings. cereal and rapidxml are external: the tree is the input.",
  "status": "proved"
 },
 "C101": {
  "note": "C101_read_back, C101_injective, C101_priors, C101_details; C101_details_empty_refuted is a finding. Number formatting is a parameter of the model.",
  "status": "proved"
 },
 "C102": {
  "note": "Over the reals, with factorizations that satisfy the recorded contracts of LDLT and QR; positive inducing nugget and positive noise plus measurement nugget. The claim that the approximation is never more certain than the exact process is refuted with two observations of one feature in different groups.",
  "status": "proved"
 },
 "C103": {
  "note": "C103_two_parts and C103_log_likelihood are about negative_log_likelihood and log_likelihood with every pivot above Eigen's tolerance; C103_batches is about the log density that they compute (C58, C68), for any number of updates. Exact real arithmetic.",
  "status": "proved"
 },
 "C104": {
  "note": "C104_group and C104_batches need a mean function that is 0 and batches of one group; C104_mean_function_refuted and C104_groups_refuted show that both are needed. C104_order holds for any grouping under which the same observations are together. Exact real arithmetic, factorizations by contract (SparseGpSpec.v).",
  "status": "proved"
 },
 "C105": {
  "note": "C105_shift, C105_laws and C105_update hold for every fit and any updates. C105_at_inducing gives what the prediction moves by at the inducing points; C105_at_inducing_refuted shows that it is the shift only if that is zero; C105_from_prediction covers fits made from a prediction, where it is. C105_equal and C105_equivalence compare fits with the same number of inducing points (otherwise the features differ). Exact real arithmetic, factorizations by contract (SparseGpSpec.v).",
  "status": "proved"
 },
 "C106": {
  "note": "C106_solve covers all four representations by induction over the nesting of BlockSymmetric; C106_predict and C106_update follow for all fits. C106_fit_agrees and C106_update_agrees connect the fits compared here with those of GpModel.v. C106_distributions_refuted, C106_not_computed_refuted and C106_division_refuted are the cases where operator== aborts, by assertions of Eigen. Entries are reals, so NaN, which is not equal to itself, is not covered; sizes may differ and are compared.",
  "status": "proved"
 }
}