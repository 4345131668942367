# Claims that are false of the code

Generated by tools/findings.py. Each theorem exhibits a case of the faithful model in which the claim fails.

## C03 set_subset writes the selected entries and nothing else

* `C03_set_subset_diagonal_refuted` (IndexingProps.v): ... but its assertion does not protect against indices out of range.

## C10 cross validated means line up with the data

* `C10_cv_empty_refuted` (FoldsProps.v): finding: cross validating an empty dataset dereferences the end of an empty set instead of returning an empty prediction

## C100 The columns of a feature in CSV output

* `C100_dot_refuted` (XmlProps.v): finding: fields called a.b and b in a share a column; the first one is lost
* `C100_empty_refuted` (XmlProps.v): finding: a field that holds an empty string has no column, so that features with the same fields have different columns
* `C100_reserved_refuted` (XmlProps.v): finding: a field of a feature that is called target is overwritten by the target of the dataset

## C101 Printed parameters can be read

* `C101_details_empty_refuted` (PrettyProps.v): finding: printing the details of a model without parameters dereferences the end of the store

## C102 What observations do to a sparse Gaussian process

* `C102_overconfident_refuted` (SparseBoundsProps.v): finding: a sparse Gaussian process can be more certain than the exact one it approximates. Two observations of one feature in different groups: what the inducing point does not explain of them is taken to be independent, so that it averages out

## C104 The log likelihood of a sparse Gaussian process is built up group by group

* `C104_groups_refuted` (SparseChainProps.v): finding: nor is it for a batch of more than one group: predictions use the exact covariance of observations in different groups, log_likelihood the approximate one
* `C104_mean_function_refuted` (SparseChainProps.v): finding: with a mean function the likelihood is not that of the predictions. Predictions add the mean function, but log_likelihood leaves it out (C48)

## C105 Shifting the mean of a sparse Gaussian process, and comparing two

* `C105_at_inducing_refuted` (ShiftProps.v): finding: it is never the whole shift, unless that is zero: train_covariance includes the inducing nugget, predictions do not

## C106 Fits that compare equal behave the same

* `C106_distributions_refuted` (EqualProps.v): finding: distributions of different sizes are not found to differ: comparing them aborts
* `C106_division_refuted` (EqualProps.v): finding: not so for updated fits whose observations were divided otherwise into what was fit and what was added later: when the features are the same, comparing them aborts on the sizes of the blocks
* `C106_not_computed_refuted` (EqualProps.v): finding: a factorization that has not been computed equals another such, but comparing it with one that has been aborts, although operator== means to find that they differ

## C12 threaded apply equals serial apply for every schedule

* `C12_exception_waits_refuted` (AsyncProps.v): What does not hold: when a task throws, the call may be over while other tasks are still queued or running (they refer to the caller's variables).

## C13 threaded covariance matrices equal the serial ones

* `C13_asymmetric_refuted` (CovMatrixProps.v): for other functions they differ

## C14 partition_triangular tiles the columns

* `C14_no_blocks_refuted` (CovMatrixProps.v): no blocks: back() of an empty vector

## C15 sampling without replacement is really without replacement

* `C15_full_range_refuted` (RandomProps.v): Without the assertion (NDEBUG) the guard is gone; and the full 64 bit range wraps to no choices at all, so that even one value cannot be drawn.

## C17 align_datasets pairs equal features

* `C17_align_duplicates_refuted` (DatasetProps.v): finding: with repeated features the output can have more rows than either input, so "aligned datasets are subsets of the inputs" is false

## C18 concatenate_datasets keeps order and content

* `C18_metadata_refuted` (DatasetProps.v): finding: dataset metadata never survives subset or concatenation

## C20 Prim returns a maximum spanning tree of a connected graph

* `C20_disconnected_refuted` (MstProps.v): On a disconnected graph "maximum spanning tree" covers one component only.
* `C20_self_loop_refuted` (MstProps.v): With a self loop as the most expensive edge, the result is not a spanning tree: the self loop is taken and a vertex is left out.

## C22 RANSAC outputs compare equal only if their best iterations agree

* `C22_best_ignored_refuted` (RansacProps.v): outputs with different best iterations compare equal
* `C22_reflexivity_refuted` (RansacProps.v): an output with a NaN metric differs from itself

## C24 forcing bounds yields valid parameters

* `C24_nan_refuted` (ParamsProps.v): NaN passes through ensure_value_within_bounds

## C25 setting a parameter of a composed function is observable

* `C25_gp_shared_name_refuted` (ParamsProps.v): likewise between the parameters of a GP and those of its covariance
* `C25_shared_name_refuted` (ParamsProps.v): With a name owned by both sides: get_params reports the right side's value, set_param changes only the left side's, so the call is not observable.

## C26 CSV output is rectangular

* `C26_empty_dataset_refuted` (CsvProps.v): an empty dataset has no columns: on a new stream the header sets failbit so that everything written later is lost, on a used one it overwrites the last character
* `C26_list_columns_refuted` (CsvProps.v): writing several datasets uses the columns of the first only: other values are dropped
* `C26_unquoted_refuted` (CsvProps.v): values are not quoted: one holding a comma shifts the rest of its line

## C27 sampler state written as CSV is read back

* `C27_reserved_name_refuted` (CsvProps.v): a parameter called like one of the sampler's columns is overwritten by it: files of different histories are the same

## C28 ensemble sampler keeps consistent states

* `C28_initial_state_diverges_refuted` (SamplersProps.v): replacing the others need not end
* `C28_step_too_few_refuted` (SamplersProps.v): the precondition nobody checks: no walkers, one walker, one split, no split
* `C28_two_finite_refuted` (SamplersProps.v): "at least two" finite walkers are said to be needed, but two are rejected

## C30 greedy_tune returns the best parameters it evaluated

* `C30_single_query_refuted` (TuningProps.v): one query in each direction: the exponent -5 is used as the ratio, so they are on the wrong sides, five ranges away

## C31 finite difference gradients respect bounds

* `C31_near_upper_refuted` (TuningProps.v): within a step of the upper bound the slope is underestimated
* `C31_stuck_at_upper_refuted` (TuningProps.v): at the upper bound the code means to step down, but set_tunable_params_values clamps by default, so the store is not moved and the entry is 0 for every objective: a minimiser is told it is at a minimum

## C34 sparse matrix serialization round trips

* `C34_not_square_refuted` (CerealProps.v): a wide matrix can not be loaded at all
* `C34_round_trip_refuted` (CerealProps.v): hence a matrix with one entry loads as zero, for every encoding

## C36 leave-one-group-out formulas equal refitting

* `C36_gp_marginals_refuted` (GpProps.v): the variances are not: they include the noise of the held out targets

## C37 updating a GP equals fitting all the data

* `C37_measurement_noise_refuted` (GpProps.v): the hypothesis is needed: with a covariance term for measurements only, updating and refitting give different predictions, since _update_impl does not wrap the new features as measurements

## C44 BlockDiagonal operations equal dense operations

* `C44_difference_shape_refuted` (BlockDiagProps.v): operator- compares the number of entries of the blocks, not their shapes
* `C44_product_not_square_refuted` (BlockDiagProps.v): With blocks that are not square, operator* takes a chunk of rhs with as many rows as the block instead of as many as it has columns: the sizes of the product do not match, although rhs passed the assertion and the dense product exists.

## C48 sparse GP with a mean function predicts the mean plus the correction

* `C48_mean_function_refuted` (SparseGpProps.v): a mean function: the prediction is not the posterior
* `C48_rebase_refuted` (SparseGpProps.v): rebasing on new inducing points changes the prediction there

## C49 sparse GP setters take effect

* `C49_set_inducing_point_strategy_refuted` (SparseGpProps.v): finding: after setting a strategy, the model still uses the one it had

## C50 sums, products and scalings of covariance functions stay positive semidefinite

* `C50_product_refuted` (CallerProps.v): finding: a factor that is not defined for a pair of classes counts as 1, so products of positive semi-definite functions that are defined for different classes are not positive semi-definite

## C51 stationary covariance functions are symmetric, bounded and positive semidefinite

* `C51_angular_refuted` (RadialPsdProps.v): finding: with the angular distance, whose small angles are clamped to 0, the matrix of three directions is not positive semi-definite; Exponential is the shape programs can use, the other three are rejected by static_asserts (C94)
* `C51_infinite_distance_refuted` (RadialProps.v): an infinite distance: 0 for the exponentials but NaN for the Matern functions
* `C51_zero_vector_refuted` (RadialProps.v): the angular distance of a zero vector is NaN: an assertion fails

## C53 newton_solve never leaves its bounds

* `C53_start_refuted` (RadialProps.v): the start is not moved into the bounds when no step is needed or possible

## C54 linear combinations act bilinearly on covariances

* `C54_constant_refuted` (CallerProps.v): finding: Constant has a _call_impl for every type. For Measurement<LinearCombination<X>> it ignores the coefficients and a sum with it drops the other term.
* `C54_mean_product_refuted` (CallerProps.v): finding: the mean of Measurement<LinearCombination<X>> under a product of mean functions

## C55 Measurement features only see measurement noise

* `C55_combination_noise_refuted` (CallerProps.v): finding: the noise of a measurement of a linear combination is left out
* `C55_double_measurement_refuted` (CallerProps.v): finding: for a measurement of a measurement a sum of a kernel and measurement noise keeps only the noise
* `C55_scaling_refuted` (CallerProps.v): finding: between a measurement and an object a scaling term only applies the factor of the object

## C57 prior log densities are the log of a density

* `C57_gaussian_refuted` (PriorProps.v): ... but not the log densities: the normalisation multiplies log(2 pi) and log(sigma^2) instead of adding them. It is right for one sigma only; for sigma = 1 it is always wrong.
* `C57_log_normal_refuted` (PriorProps.v): the log-normal prior squares the deviation without halving it; 0 and negative numbers give NaN
* `C57_log_scale_uniform_refuted` (PriorProps.v): the log-scale uniform prior has the density of the uniform prior, not of the log-uniform distribution
* `C57_positive_bounds_refuted` (PriorProps.v): small positive values are not excluded by log_pdf but they are outside of the bounds
* `C57_positive_gaussian_refuted` (PriorProps.v): the prior named positive Gaussian does not exclude negative numbers, its log density is that of the Gaussian prior plus log 2 everywhere; the bounds ignore mu
* `C57_uniform_equality_refuted` (PriorProps.v): uniform priors are equal if their bounds print alike: with the default precision of streams, bounds that agree to six significant digits do

## C58 likelihoods factor over independent data

* `C58_singular_refuted` (LikelihoodProps.v): a deviation that N(0, 0) rules out is infinitely likely

## C59 differential entropy is the Gaussian entropy

* `C59_additive_refuted` (LikelihoodProps.v): finding: the entropy of two independent variables is not the sum of their entropies
* `C59_entropy_refuted` (LikelihoodProps.v): the entropy of N(mu, 2 I) in two dimensions is not the value computed, and independent variables do not add up

## C60 multivariate scores are non negative and consistent

* `C60_draw_refuted` (ScoreProps.v): transpositionsP() is applied where its transpose is needed: no M with M M^T = A describes these draws
* `C60_energy_weights_refuted` (ScoreProps.v): finding: the energy score of a weighted prediction can be negative, and then an assertion fails
* `C60_variogram_half_refuted` (VariogramProps.v): finding: the variogram score is half the documented sum over all pairs

## C61 Kolmogorov-Smirnov statistic is the sup distance

* `C61_outside_refuted` (KsProps.v): samples outside [0, 1] are not compared to the uniform distribution function: the result may exceed 1

## C62 distribution arithmetic

* `C62_subset_duplicates_refuted` (DistributionProps.v): an index taken twice does not commute with added marginal noise: the copies share their noise before, not after
* `C62_transform_indefinite_refuted` (DistributionProps.v): a covariance that is not positive semidefinite is changed without notice

## C63 block bookkeeping helpers

* `C63_empty_refuted` (BlockDiagProps.v): nothing to stack or to sum: the first element is read all the same

## C64 distance metrics are symmetric and non negative

* `C64_angular_triangle_refuted` (DistanceProps.v): finding: the clamp of small angles breaks the triangle inequality
* `C64_angular_zero_refuted` (DistanceProps.v): the angle of the zero vector with itself is NaN, not 0

## C66 serializable library types round trip

* `C66_ldlt_equal_refuted` (CerealProps.v): and comparing with one that is not initialized fails an assertion instead of being false
* `C66_ldlt_l1_norm_refuted` (CerealProps.v): but their l1 norm is lost: reading it is reading an uninitialized member

## C67 derived Matern length scales reproduce the requested process noise

* `C67_reproduces_refuted` (MaternProps.v): finding: not every request is reproduced. For both Matern functions, every reference distance and every prior there is a request between half of the prior and the prior, met by a length scale of less than 10 reference distances, for which the result is more than 100000 reference distances and its noise is less than a thousandth of what was requested: the iteration jumps to the middle of the allowed ratios, is halved 20 times, jumps back over the solution into the flat part and starts again, until 50 steps are done.

## C68 the log likelihood of a Gaussian process

* `C68_noise_refuted` (LikelihoodProps.v): so with noisy targets it is not the likelihood of the data, which has covariance K + diag(noise)

## C70 leave one out metrics of models

* `C70_noise_counted_twice_refuted` (ModelMetricsProps.v): two independent data points with unit noise: the score uses the variance 3 in place of 2
* `C70_rmse_refuted` (ModelMetricsProps.v): finding: the leave one out root mean square error is not the root mean square of the leave one out errors

## C71 Wasserstein distance of Gaussian distributions

* `C71_negative_definite_refuted` (WassersteinProps.v): The full claim is that a matrix which has no real square root is reported as NaN. FALSE: the threshold is relative to the smallest positive eigenvalue, which is infinite when there is none, so a negative definite matrix of any size is taken for rounding error and its square root is zero
* `C71_triangle_refuted` (WassersteinProps.v): The full claim is that wasserstein_2 is the 2-Wasserstein distance, a metric. FALSE: it is the square of it, and the point masses at 0, 1 and 2 violate the triangle inequality

## C72 The chi-squared distribution function is a probability and approximates the regularised incomplete gamma function

* `C72_infinite_refuted` (ChiSquaredProps.v): incomplete_gamma at infinity is 1 in the limit, but the code gives NaN for a < 10 and a positive number from there
* `C72_invalid_dof_refuted` (ChiSquaredProps.v): the checks come in the wrong order: negative or NaN degrees of freedom still give 0 or 1
* `C72_near_zero_refuted` (ChiSquaredProps.v): finding: for a small fraction of a degree of freedom most of the mass is below epsilon, and the code answers 0 there

## C73 Inducing points span the data, are evenly spaced and close enough

* `C73_duplicates_refuted` (InducingProps.v): the inducing points of a sum of two representations are never distinct: both contain the least and the greatest feature. Nor are those of one representation when all the features are equal
* `C73_spacing_refuted` (InducingProps.v): the comments promise neighbouring points that decorrelate by at most one percent (squared exponential) and five percent (exponential), that is with spacing at most length_scale / 10 and length_scale / 20: n points only have n - 1 gaps

## C75 Least squares and linear regression

* `C75_no_data_refuted` (LeastSquaresProps.v): Without data the code reads the first feature of an empty vector.

## C77 What a prediction refers to

* `C77_noisy_temporary_refuted` (PredictionProps.v): model.fit(...).predict_with_measurement_noise(features) cannot be kept: it refers to the temporary FitModel, so after the expression every evaluation of it is undefined.
* `C77_snapshot_refuted` (PredictionProps.v): A prediction of a named FitModel is not a snapshot: an update in place changes the answers of predictions made before it.

## C79 Noise, nugget, constant and polynomial covariance functions

* `C79_nan_refuted` (LeafCovProps.v): and a feature that is not equal to itself gets no nugget
* `C79_repeated_refuted` (LeafCovProps.v): Not so with repeated features: the same feature twice gives a singular matrix, in spite of the nugget.

## C80 Truncated solve of a positive semi-definite system

* `C80_zero_threshold_refuted` (TruncatedSolveProps.v): a threshold of zero with a singular matrix: the result is not finite

## C81 Archives of sparse matrices and factorizations restore what is observable

* `C81_R_refuted` (SuiteSparseProps.v): hence, for every encoding, solving, saving, loading and solving again uses another factor: R is 5 before and 0 after
* `C81_complex_refuted` (SuiteSparseProps.v): complex entries: saved without complaint, and loading writes past the end of the array allocated for them
* `C81_default_refuted` (SuiteSparseProps.v): one that has not been computed can not be saved
* `C81_pattern_refuted` (SuiteSparseProps.v): a pattern, without values: saved, but not loaded
* `C81_unpacked_refuted` (SuiteSparseProps.v): columns that are not packed without row counts: saved, but not loaded

## C82 A call trace describes the evaluation of a covariance function

* `C82_name_refuted` (CallTraceProps.v): but a composition is named after default constructed parts

## C83 Printing eigen directions reports the right eigenpairs

* `C83_count_refuted` (PrintEigenProps.v): asking for more directions than there are reads out of bounds
* `C83_features_refuted` (PrintEigenProps.v): as do features that are too few

## C84 Factors, solves and pivot thresholds of QR factorizations

* `C84_threshold_scale_refuted` (SpqrProps.v): that of a small matrix does not: any small matrix has multiples all of whose columns are below the threshold
* `C84_wide_refuted` (SpqrProps.v): with fewer rows than columns there is no such factor

## C86 Compressed data decompresses to itself and corrupted data is never mistaken for it

* `C86_maybe_throws_refuted` (CompressProps.v): finding: maybe_decompress into a string is documented to return false if decompression fails; it throws when the input claims more bytes than a string can hold

## C87 Random covariance matrices, normal samples and sparse matrices have the advertised shape

* `C87_sparse_empty_refuted` (RandomMatrixProps.v): finding: a matrix without rows or columns has nothing to draw, but the empty ranges [0, -1] of the distributions are undefined

## C88 RANSAC of any model with a generic strategy fits exactly the consensus

* `C88_default_failures_refuted` (RansacGenericProps.v): finding: the two ways to run RANSAC without saying how many candidate sets may be turned down do not agree: the free function allows as many as there are iterations, the model stops at the first one. With the same callbacks, groups, sizes and random numbers one succeeds and the other has no fit.

## C89 Grouping, pairing and collapsing

* `C89_first_group_empty_refuted` (GroupByProps.v): finding: the first group of an empty vector is undefined behaviour, not an assertion

## C90 Distances and radial covariances computed in double precision

* `C90_angular_nan_refuted` (FloatCovProps.v): finding: the angular distance of a zero vector, and of a finite vector whose squares overflow, is NaN; a covariance function then stops the program.
* `C90_angular_self_refuted` (FloatCovProps.v): finding: the special cases around 1 do not make the angle of a vector with itself zero. For (1, 1) the rounded quotient is 1 - 2^-52, which is below 1 - 1e-16, so that the distance is acos of it, about 2e-8.
* `C90_euclidean_infinite_refuted` (FloatCovProps.v): finding: an infinite feature is at distance NaN from itself, and the covariance functions then stop the program instead of returning the variance.
* `C90_matern_bounded_refuted` (FloatCovProps.v): finding: even with a correctly rounded exp the Matern covariances of two different features can be larger than the variance, so that the computed 2 by 2 covariance matrix has a negative determinant.
* `C90_matern_nan_refuted` (FloatCovProps.v): finding: when the polynomial factor overflows a Matern covariance is infinity times zero, NaN, instead of zero: with a length scale of 2^-600 for a distance of one for the five halves, and for three halves when sqrt(3) d / l overflows.
* `C90_radial_distance_refuted` (FloatCovProps.v): finding: a finite vector whose squares overflow is at radial distance NaN from itself.
* `C90_vector_distinct_refuted` (FloatCovProps.v): finding: two different vectors can be at distance zero, because the squares of their differences underflow; a covariance function cannot tell them apart. Doubles do not have this problem (C90_euclidean).
* `C90_vector_overflow_refuted` (FloatCovProps.v): finding: the norm of a finite vector overflows although its length is an ordinary double: 2^600 is at an infinite distance from 0 when it is a vector, at distance 2^600 when it is a number.

## C91 Cross validating a Gaussian process equals refitting it without each group

* `C91_duplicate_refuted` (CvGpProps.v): finding: a group that lists an observation twice stops at an assertion when the model is refit, but a Gaussian process returns means for it, from a singular block
* `C91_scores_agree_refuted` (CvGpProps.v): finding: scores(metric, dataset, groups) and scores(metric, folds) of the same Gaussian process, data and groups differ for a metric that reads variances: the first adds the noise of the held out targets to the predicted variance, the second does not

## C92 Tuning a function of a vector starts where asked and a tuned model has the tuned parameters

* `C92_eigen_empty_refuted` (VectorTuneProps.v): finding: tune with an objective of an Eigen vector and no variables takes the address of the first element of an empty std::vector
* `C92_start_refuted` (VectorTuneProps.v): finding: with more than ten variables GenericTuner does not start at the given values: they are named "0", "1", ..., and kept in the order of the names, in which "10" comes before "2", so the third variable starts at the eleventh value

## C99 A matrix times a dataset

* `C99_dependent_refuted` (ProductDatasetProps.v): finding: without the condition on the noise the prediction changes although the matrix is invertible: the products of independent noise are correlated and the product of a matrix and a dataset keeps only their variances
* `C99_identity_refuted` (ProductDatasetProps.v): finding: multiplying a dataset with the identity matrix loses the noise that a measurement_only covariance adds: the features become linear combinations, and of these the Measurement mark is taken off
