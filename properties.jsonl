{"id": "C01", "title": "subset selects exactly the requested elements", "statement": "subset(v, indices) returns a container with exactly indices.size() elements whose i-th element is v[indices[i]], repeated indices included; the call stops at an assertion (debug) as soon as some index is not smaller than v.size(), and no index outside the container is ever turned into a value. subset_rows, subset_cols and the two-sided matrix subset do the same for rows and columns.", "quantifier": "every vector, every matrix, every list of indices (duplicated, unsorted, empty, out of range)", "why_tests_cant": "tests use short ascending index lists; the claim is about all positions of all lists and about every bad index", "anchors": ["include/albatross/src/indexing/subset.hpp:subset,subset_rows,subset_cols"]}
{"id": "C02", "title": "indices and their complement split the range", "statement": "indices_complement(indices, n) is the strictly increasing list of exactly those i in [0,n) that do not occur in indices; together the two lists cover [0,n) and share nothing. Unsorted, duplicated or too large entries of indices do not change this.", "quantifier": "every n and every index list", "why_tests_cant": "a missed boundary index only shows for particular lists; cross validation silently leaks training data if it fails", "anchors": ["include/albatross/src/indexing/subset.hpp:indices_complement,vector_set_difference"]}
{"id": "C03", "title": "set_subset writes the selected entries and nothing else", "statement": "After set_subset(from, indices, &to): reading an index not in indices gives the old value, reading indices[i] gives from[i] for the last i carrying that index, the length is unchanged, and for duplicate free indices subset(to, indices) equals from; subset followed by set_subset into the same container is the identity.", "quantifier": "every container, index list and value list of matching size", "why_tests_cant": "frame conditions range over all untouched positions", "anchors": ["include/albatross/src/indexing/subset.hpp:set_subset"]}
{"id": "C04", "title": "symmetric_subset is the principal submatrix", "statement": "symmetric_subset(M, indices)(i,j) = M(indices[i], indices[j]); it equals subset of rows then columns, keeps symmetry, and asserts that M is square.", "quantifier": "every square matrix and index list", "why_tests_cant": "needs every pair of positions", "anchors": ["include/albatross/src/indexing/subset.hpp:symmetric_subset", "include/albatross/src/core/distribution.hpp:JointDistribution::subset"]}
{"id": "C05", "title": "group_by partitions the data", "statement": "For any data and any grouping function, group_by(...).indexers() holds each position of the data in exactly one group, the group of position i is keyed by the grouper's value at element i, positions within a group are in increasing order, no group is empty and the keys are exactly the values taken by the grouper.", "quantifier": "every data vector and every grouping function", "why_tests_cant": "a lost or doubled element depends on the multiset of keys; tests try a handful of groupers", "anchors": ["include/albatross/src/indexing/group_by.hpp:GroupByBase,IndexerBuilder::build"]}
{"id": "C06", "title": "splitting by group and combining loses nothing", "statement": "group_by(xs,f).groups() holds for each key the elements of xs with that key in original order, and combine() of the groups concatenates them in key order, so it is a permutation of xs; indices of the groups put every element back to its place.", "quantifier": "every data vector and grouping function", "why_tests_cant": "permutation claims range over all inputs", "anchors": ["include/albatross/src/indexing/group_by.hpp:GroupByBase::groups,combine"]}
{"id": "C07", "title": "leave-one-out and k-fold groups have the advertised shape", "statement": "LeaveOneOutGrouper gives n singleton groups {i}; KFoldGrouper(k), k>0, gives min(k,n) groups, group j being exactly the indices i with i mod k = j in increasing order, and group sizes differ by at most one.", "quantifier": "every dataset size n and fold count k", "why_tests_cant": "n and k are unbounded", "anchors": ["include/albatross/src/indexing/group_by.hpp:LeaveOneOutGrouper,KFoldGrouper"]}
{"id": "C08", "title": "filter keeps exactly the elements satisfying the predicate", "statement": "filter on vectors keeps the order and multiplicity of exactly the elements satisfying the predicate; on maps and grouped objects it keeps exactly the entries (key and value unchanged) that satisfy it; filtering a dataset filters features and targets consistently.", "quantifier": "every container and predicate", "why_tests_cant": "universal over predicates", "anchors": ["include/albatross/src/indexing/filter.hpp:filter,filter_map"]}
{"id": "C09", "title": "cross validation folds never leak test data into training data", "statement": "For each fold made by folds_from_group_indexer / folds_from_grouper from a dataset, the test set consists of exactly the rows of that group, the train set of exactly all other rows in order, no row is in both, and the test sets of all folds together hold every row exactly once.", "quantifier": "every dataset and every grouper", "why_tests_cant": "leakage depends on the index combination, a run of a model does not reveal it", "anchors": ["include/albatross/src/evaluation/folds.hpp:create_fold,folds_from_group_indexer", "include/albatross/src/indexing/subset.hpp:indices_complement"]}
{"id": "C10", "title": "cross validated means line up with the data", "statement": "model.cross_validate().predict(dataset, grouper).mean()[i] (and the marginal variance) is the value predicted for feature i by the model fitted on all the rows outside i's group, for every i, whatever the fitting and predicting functions compute.", "quantifier": "every dataset, grouper, model (fit and predict functions)", "why_tests_cant": "an off-by-one in reassembly hides behind noisy values", "anchors": ["include/albatross/src/evaluation/cross_validation_utils.hpp:concatenate_mean_predictions,concatenate_marginal_predictions", "include/albatross/src/evaluation/cross_validation.hpp"]}
{"id": "C11", "title": "map utilities are the set operations they claim", "statement": "map_join has the union of keys with the right map winning; map_union, map_intersect, map_difference, map_symmetric_difference, map_subset, map_keys, map_values return exactly the keys of the corresponding set operation with the values of the documented side, still in key order.", "quantifier": "every pair of maps and every key", "why_tests_cant": "merge walks two sorted sequences; errors sit in interleaving patterns", "anchors": ["include/albatross/src/utils/map_utils.hpp"]}
{"id": "C12", "title": "threaded apply equals serial apply for every schedule", "statement": "apply(xs, f, pool) and apply_map(m, f, pool) return, for every number of threads and every order in which the workers pick up and finish tasks, the same container as the serial version: output i is f(xs[i]), with every key present; f runs exactly once per element.", "quantifier": "every input, thread count and interleaving of the pool", "why_tests_cant": "interleavings cannot be enumerated by tests", "anchors": ["include/albatross/src/utils/async_utils.hpp:apply,apply_map"]}
{"id": "C13", "title": "threaded covariance matrices equal the serial ones", "statement": "compute_covariance_matrix with a thread pool writes every entry exactly once and gives the serial matrix for every thread count and schedule: always for cross covariances, and for symmetric callers for the single argument form.", "quantifier": "every caller function, feature lists, thread count and task order", "why_tests_cant": "races and uncovered blocks appear only for some size/thread combinations", "anchors": ["include/albatross/src/covariance_functions/callers.hpp:compute_covariance_matrix", "include/albatross/src/indexing/block.hpp:partition_triangular"]}
{"id": "C14", "title": "partition_triangular tiles the columns", "statement": "partition_triangular(size, k), k>0, returns k consecutive ranges [start,end) that start at 0, end at size and leave no gap or overlap.", "quantifier": "every size and block count (exact arithmetic)", "why_tests_cant": "square roots of j/k for all j,k", "anchors": ["include/albatross/src/indexing/block.hpp:partition_triangular"]}
{"id": "C15", "title": "sampling without replacement is really without replacement", "statement": "randint_without_replacement(n, low, high, gen), when it returns, returns exactly n distinct integers all in [low, high] in increasing order, for every random stream; random_without_replacement returns n elements at distinct positions.", "quantifier": "every n, range and every random number stream", "why_tests_cant": "depends on the whole random stream", "anchors": ["include/albatross/src/utils/random_utils.hpp:randint_without_replacement,random_without_replacement"]}
{"id": "C16", "title": "deduplicate keeps one observation per feature", "statement": "deduplicate(dataset) has pairwise distinct features, the same set of features as the input, and for each feature the target of its last occurrence, in order of these occurrences.", "quantifier": "every dataset", "why_tests_cant": "duplicates can sit anywhere", "anchors": ["include/albatross/src/core/dataset.hpp:deduplicate"]}
{"id": "C17", "title": "align_datasets pairs equal features", "statement": "After align_datasets(&x,&y) both datasets have equal feature sequences; when features are unique inside each dataset they contain exactly the common features with their own targets. With repeated features a row is emitted for every matching pair, so rows can be multiplied.", "quantifier": "every pair of datasets", "why_tests_cant": "depends on the multiplicity pattern", "anchors": ["include/albatross/src/core/dataset.hpp:align_datasets"]}
{"id": "C18", "title": "concatenate_datasets keeps order and content", "statement": "concatenate_datasets(x,y) has the features, means and variances of x followed by those of y; subsetting it by the first x.size() positions gives back x's rows; metadata is not carried over.", "quantifier": "every pair of datasets", "why_tests_cant": "universal over sizes", "anchors": ["include/albatross/src/core/dataset.hpp:concatenate_datasets", "include/albatross/src/core/concatenate.hpp", "include/albatross/src/core/distribution.hpp:concatenate_marginals"]}
{"id": "C19", "title": "Kruskal returns a minimum spanning forest", "statement": "minimum_spanning_forest(graph) returns edges of the graph that contain no cycle, connect exactly the vertices connected in the graph, and have the least total cost among all such edge sets; maximum_spanning_forest has the greatest total cost. Edges compare by cost, then first vertex, then second vertex. The result does not depend on the order of the edges in the graph or on how the sort orders equivalent edges, and lists its edges cheapest (or dearest) first.", "quantifier": "every finite weighted graph (self loops, parallel edges, ties, disconnected)", "why_tests_cant": "optimality quantifies over all spanning forests", "anchors": ["include/albatross/src/graph/minimum_spanning_tree.hpp:KruskalAlgoRunner,minimum_spanning_forest,maximum_spanning_forest"]}
{"id": "C20", "title": "Prim returns a maximum spanning tree of a connected graph", "statement": "maximum_spanning_tree(graph) on a connected graph without self loops returns a spanning tree of the largest total cost, and minimum_spanning_tree one of the least cost; with a self loop of the largest cost the result is not spanning. The result does not depend on the order of the edges in the graph or on which of several equivalent edges the priority queue returns first.", "quantifier": "every finite weighted connected graph", "why_tests_cant": "optimality quantifies over all spanning trees", "anchors": ["include/albatross/src/graph/minimum_spanning_tree.hpp:maximum_spanning_tree,minimum_spanning_tree"]}
{"id": "C21", "title": "RANSAC's answer is a consensus that was really observed", "statement": "When ransac reports success, the best iteration is one of those it ran, its inliers satisfy the inlier threshold under the model fitted to its candidates, candidates, inliers and outliers partition the groups, the consensus has at least the minimum size, and no earlier or later successful iteration had a strictly better consensus metric; every failure has its own return code and never more than the allowed number of iterations are run.", "quantifier": "every fitter, metric, threshold configuration and random stream", "why_tests_cant": "the search is random; all streams and all callbacks must be covered", "anchors": ["include/albatross/src/models/ransac.hpp:ransac"]}
{"id": "C22", "title": "RANSAC outputs compare equal only if their best iterations agree", "statement": "operator== on RansacOutput should distinguish outputs with different best iterations.", "quantifier": "every pair of outputs", "why_tests_cant": "equality must be checked for all pairs", "anchors": ["include/albatross/src/models/ransac.hpp:RansacOutput"]}
{"id": "C23", "title": "tunable parameters round trip", "statement": "get_tunable_parameters lists exactly the non fixed parameters, in key order with their bounds; set_tunable_params_values(params, values) changes exactly these values in that order, leaves fixed parameters and all priors untouched, and reading them back gives the written values.", "quantifier": "every parameter store and value vector", "why_tests_cant": "positional bookkeeping errors appear only with particular mixes of fixed parameters", "anchors": ["include/albatross/src/core/parameters.hpp:get_tunable_parameters,set_tunable_params_values"]}
{"id": "C24", "title": "forcing bounds yields valid parameters", "statement": "set_tunable_params_values with force_bounds makes every tunable value lie inside its prior's bounds, moves a value by no more than needed (values inside the bounds are unchanged), so the outcome is valid whenever the bounds are ordered; without force_bounds invalid values are kept and detected by params_are_valid.", "quantifier": "every store and value vector (including infinite bounds)", "why_tests_cant": "boundary behaviour over all reals", "anchors": ["include/albatross/src/core/parameters.hpp:ensure_value_within_bounds,params_are_valid"]}
{"id": "C25", "title": "setting a parameter of a composed function is observable", "statement": "For sums and products of covariance (or mean) functions get_params() reports the union of both sides, set_param(name, p) changes the reported value of that name and of no other name, and all sides that own the name see it; setting an unknown name asserts.", "quantifier": "every pair of parameter stores, name and value", "why_tests_cant": "name clashes between sides are combinations tests do not try", "anchors": ["include/albatross/src/covariance_functions/covariance_function.hpp:SumOfCovarianceFunctions,ProductOfCovarianceFunctions", "include/albatross/src/core/parameter_handling_mixin.hpp:set_param_if_exists_in_any", "include/albatross/src/models/gp.hpp:set_param"]}
{"id": "C26", "title": "CSV output is rectangular", "statement": "write_to_csv writes one header line and one line per dataset element, every line having exactly as many comma separated fields as the header provided no value holds a comma or newline; missing columns are written as empty fields.", "quantifier": "every list of column names and every row", "why_tests_cant": "rectangularity for all row contents", "anchors": ["include/albatross/src/utils/csv_utils.hpp:write_row,write_header,write_to_csv"]}
{"id": "C27", "title": "sampler state written as CSV is read back", "statement": "initial_params_from_csv applied to a file produced by the CSV writing callback returns the parameter values of the last iteration only, one entry per walker, in walker order.", "quantifier": "every history of sampler iterations", "why_tests_cant": "histories are unbounded", "anchors": ["include/albatross/src/samplers/callbacks.hpp:CsvWritingCallback", "include/albatross/src/samplers/initialization.hpp:initial_params_from_csv"]}
{"id": "C28", "title": "ensemble sampler keeps consistent states", "statement": "ensemble_sampler returns max_iterations+1 states, each with as many walkers as the initial state; every walker's stored log probability is finite and is the log probability function applied to its parameters; a rejected walker keeps its parameters; accepted is true exactly if the proposal replaced the walker.", "quantifier": "every log probability function, every random stream, every number of iterations", "why_tests_cant": "needs induction over all histories", "anchors": ["include/albatross/src/samplers/ensemble.hpp:stretch_move_step,ensemble_sampler", "include/albatross/src/samplers/initialization.hpp:ensure_finite_initial_state"]}
{"id": "C29", "title": "stretch moves use a partner from the complementary split", "statement": "Within a stretch move step a walker's proposal lies on the line through itself and a walker of another split; the partner is never the walker itself, and at the time of the move the partner's state is not being modified in the same split.", "quantifier": "every ensemble size >= 2 and random stream", "why_tests_cant": "depends on the split arithmetic for all sizes", "anchors": ["include/albatross/src/samplers/ensemble.hpp:split_indices,stretch_move_step,random_complement"]}
{"id": "C30", "title": "greedy_tune returns the best parameters it evaluated", "statement": "greedy_tune returns parameters whose objective value is no larger than that of every parameter set it evaluated, in particular no worse than the (bounds-clamped) initial ones when at least one tunable parameter and iteration exist; all parameter sets evaluated are within bounds and only tunable values differ from the input; NaN objectives are never selected.", "quantifier": "every objective function, parameter store, query count and iteration count", "why_tests_cant": "all objective functions", "anchors": ["include/albatross/src/tune/greedy_tuner.hpp:greedy_tune,get_queries"]}
{"id": "C31", "title": "finite difference gradients respect bounds", "statement": "compute_gradient on a ParameterStore evaluates the objective only at the given point with one tunable parameter moved; if stepping up leaves the bounds it steps down with the matching sign; the result at an active bound never points a minimiser out of the feasible box; for affine objectives the interior result is the exact slope.", "quantifier": "every objective and parameter store (exact arithmetic)", "why_tests_cant": "all objectives", "anchors": ["include/albatross/src/tune/finite_difference.hpp:compute_gradient"]}
{"id": "C32", "title": "triangular matrix serialization round trips", "statement": "load_lower_triangle(save_lower_triangle(M)) restores the size and every entry on and below the diagonal for each square matrix; sizes that are not triangular numbers are rejected.", "quantifier": "every matrix size and content", "why_tests_cant": "size recovery through a square root for every n", "anchors": ["include/albatross/src/cereal/eigen.hpp:save_lower_triangle,load_lower_triangle"]}
{"id": "C33", "title": "dense matrix and variant serialization round trips", "statement": "Loading what save wrote for an Eigen matrix gives the same shape and entries (also for empty matrices); loading a saved variant gives the same alternative and value, an out of range alternative index is rejected.", "quantifier": "every matrix and variant (compression assumed lossless)", "why_tests_cant": "all shapes and alternatives", "anchors": ["include/albatross/src/cereal/eigen.hpp:save,load", "include/albatross/src/cereal/variant.hpp:save,load", "include/albatross/src/cereal/ThreadPool.hpp"]}
{"id": "C34", "title": "sparse matrix serialization round trips", "statement": "Loading what save wrote for an Eigen::SparseMatrix should give the same matrix.", "quantifier": "every sparse matrix", "why_tests_cant": "needs all sparsity patterns; the existing code stores half of the triplet bytes and swaps rows with columns", "anchors": ["include/albatross/src/cereal/eigen.hpp:save,load (SparseMatrix)"]}
{"id": "C35", "title": "leave-one-out formulas equal refitting", "statement": "leave_one_out_conditional(prior, truth) gives for each i the mean and the variance (including measurement noise) of observation i conditional on all other observations, i.e. what fitting a Gaussian process without observation i and predicting it would give.", "quantifier": "every positive definite prior covariance plus noise, size, targets (exact arithmetic)", "why_tests_cant": "matrix identity for all sizes", "anchors": ["include/albatross/src/evaluation/cross_validation_utils.hpp:leave_one_out_conditional,leave_one_out_conditional_variance"]}
{"id": "C36", "title": "leave-one-group-out formulas equal refitting", "statement": "held_out_predictions / leave_one_group_out_conditional and GP cross validation give, for each group, the mean of refitting without the group and the covariance of refitting plus the group's measurement noise; mean, marginal and joint versions agree.", "quantifier": "every covariance, target vector and grouping (exact arithmetic)", "why_tests_cant": "block matrix identity for all partitions", "anchors": ["include/albatross/src/evaluation/cross_validation_utils.hpp:held_out_prediction,held_out_predictions", "include/albatross/src/models/gp.hpp:gp_cross_validated_predictions"]}
{"id": "C37", "title": "updating a GP equals fitting all the data", "statement": "fit(d1).update(d2) makes the same mean, marginal and joint predictions as fitting the concatenated data, for all d1, d2, prediction features.", "quantifier": "every pair of datasets and feature set (exact arithmetic, invertible covariance)", "why_tests_cant": "matrix identity for all sizes", "anchors": ["include/albatross/src/models/gp.hpp:_update_impl", "include/albatross/src/linalg/block_symmetric.hpp:BlockSymmetric::solve,build_block_symmetric"]}
{"id": "C38", "title": "fit_from_prediction reproduces the prediction", "statement": "A GP fit built by fit_from_prediction(features, prediction) predicts at these features exactly the mean and covariance of the given joint distribution.", "quantifier": "every prediction distribution and invertible prior covariance", "why_tests_cant": "matrix identity for all sizes", "anchors": ["include/albatross/src/models/gp.hpp:gp_fit_from_prediction,fit_from_prediction", "include/albatross/src/covariance_functions/representations.hpp:ExplainedCovariance"]}
{"id": "C39", "title": "mean, marginal and joint predictions agree", "statement": "For GP (and sparse GP) predictions the joint's mean equals mean(), the joint's diagonal equals the marginal variances, predict() never depends on which other features are predicted together.", "quantifier": "every fit and feature list", "why_tests_cant": "all features subsets", "anchors": ["include/albatross/src/models/gp.hpp:gp_mean_prediction,gp_marginal_prediction,gp_joint_prediction", "include/albatross/src/core/prediction.hpp"]}
{"id": "C40", "title": "observing data never increases GP variance", "statement": "The posterior covariance of a GP is positive semidefinite and its marginal variances never exceed the prior ones, for every training set.", "quantifier": "every positive definite joint prior, noise", "why_tests_cant": "inequality over all PSD matrices", "anchors": ["include/albatross/src/models/gp.hpp:gp_joint_prediction,gp_marginal_prediction"]}
{"id": "C41", "title": "GP regression interpolates and is linear in targets", "statement": "With zero measurement noise and invertible covariance a GP predicts the training targets exactly with zero variance at the training features; predictions are affine in the targets and equivariant to adding the mean function.", "quantifier": "every dataset", "why_tests_cant": "all sizes", "anchors": ["include/albatross/src/models/gp.hpp:_fit_impl,_predict_impl", "include/albatross/src/covariance_functions/mean_function.hpp:add_to,remove_from"]}
{"id": "C42", "title": "conditional gaussian equals gaussian process regression", "statement": "ConditionalGaussian fit on indices and predicting others gives the conditional distribution of the joint prior, identical to a GP with that covariance.", "quantifier": "every joint prior and index sets", "why_tests_cant": "all index sets", "anchors": ["include/albatross/src/models/conditional_gaussian.hpp"]}
{"id": "C43", "title": "BlockSymmetric solves the dense system", "statement": "BlockSymmetric(A, B, C).solve(rhs) is the solution x of [[A,B],[B^T,C]] x = rhs whenever A and the Schur complement are invertible, for vectors and matrices; rows() and cols() are the total size.", "quantifier": "all block sizes and right hand sides", "why_tests_cant": "matrix identity", "anchors": ["include/albatross/src/linalg/block_symmetric.hpp"]}
{"id": "C44", "title": "BlockDiagonal operations equal dense operations", "statement": "For square blocks, BlockDiagonal's product, difference, diagonal, toDense and its LDLT's solve, sqrt_solve and log_determinant agree with the dense block diagonal matrix, serial and threaded.", "quantifier": "all lists of blocks and right hand sides", "why_tests_cant": "all block structures", "anchors": ["include/albatross/src/linalg/block_diagonal.hpp"]}
{"id": "C45", "title": "LDLT square roots are square roots", "statement": "sqrt_product, sqrt_solve, sqrt_transpose, sqrt_transpose_solve, inverse_diagonal, inverse_blocks and log_determinant of SerializableLDLT are consistent with the decomposed matrix A: S S^T = A, sqrt_solve(b)^T sqrt_solve(c) = b^T A^-1 c, etc.", "quantifier": "every decomposition A = P^T L D L^T P with positive D", "why_tests_cant": "matrix identities", "anchors": ["include/albatross/src/eigen/serializable_ldlt.hpp"]}
{"id": "C46", "title": "sparse GP predictions follow the FITC equations", "statement": "SparseGaussianProcess fit and predictions equal the FITC/PITC posterior computed densely from K_uu, K_uf, the block diagonal conditional covariance and noise, for mean, marginal and joint predictions.", "quantifier": "every inducing set, data, grouping (zero mean, exact arithmetic)", "why_tests_cant": "matrix identities through a QR factorisation", "anchors": ["include/albatross/src/models/sparse_gp.hpp:_fit_impl,_predict_impl,compute_internal_components"]}
{"id": "C47", "title": "updating a sparse GP equals one batch fit", "statement": "update of a sparse GP with new data yields the same information vector and predictions as fitting all data at once with the same inducing points, in any order of the groups.", "quantifier": "every split of the data", "why_tests_cant": "all histories of updates", "anchors": ["include/albatross/src/models/sparse_gp.hpp:_update_impl"]}
{"id": "C48", "title": "sparse GP with a mean function predicts the mean plus the correction", "statement": "A sparse GP with mean function m should predict m(x) plus the sparse GP prediction of the residuals y - m.", "quantifier": "every mean function and dataset", "why_tests_cant": "non zero mean functions only appear in few tests", "anchors": ["include/albatross/src/models/sparse_gp.hpp:compute_internal_components", "include/albatross/src/models/sparse_gp.hpp:fit_from_prediction"]}
{"id": "C49", "title": "sparse GP setters take effect", "statement": "set_inducing_point_strategy(s) should make later fits use s.", "quantifier": "every strategy", "why_tests_cant": "a setter assigning to its own argument is invisible unless strategies differ", "anchors": ["include/albatross/src/models/sparse_gp.hpp:set_inducing_point_strategy"]}
{"id": "C50", "title": "sums, products and scalings of covariance functions stay positive semidefinite", "statement": "Every covariance function built from positive semidefinite ones by +, *, scaling functions, linear combinations of features, measurement wrapping gives positive semidefinite symmetric matrices for every feature list.", "quantifier": "every expression tree, feature list", "why_tests_cant": "PSD is a statement over all vectors and all feature lists", "anchors": ["include/albatross/src/covariance_functions/covariance_function.hpp:SumOfCovarianceFunctions,ProductOfCovarianceFunctions", "include/albatross/src/covariance_functions/scaling_function.hpp", "include/albatross/src/covariance_functions/callers.hpp:LinearCombinationCaller"]}
{"id": "C51", "title": "stationary covariance functions are symmetric, bounded and positive semidefinite", "statement": "SquaredExponential, Exponential, Matern32 and Matern52 give symmetric positive semidefinite covariance matrices with diagonal sigma^2 and entries in [0, sigma^2], strictly decreasing in the distance, for scalars and for vectors of any dimension with the Euclidean distance, for the radial distance, and, for Exponential (the others are rejected at compile time), for the angular distance.", "quantifier": "every finite list of features (any dimension, repetitions allowed), length scale and sigma; exact real arithmetic with the IEEE special values", "why_tests_cant": "PSD for all finite sets", "anchors": ["include/albatross/src/covariance_functions/radial.hpp", "include/albatross/src/covariance_functions/distance_metrics.hpp"]}
{"id": "C52", "title": "derived length scales reproduce the requested process noise", "statement": "With the length scale returned by derive_length_scale(reference_distance, prior_sigma, std_dev_increase) the conditional standard deviation after reference_distance equals std_dev_increase for squared exponential and exponential covariances; invalid arguments fall back.", "quantifier": "every valid argument triple (exact real arithmetic)", "why_tests_cant": "all reals", "anchors": ["include/albatross/src/covariance_functions/radial.hpp:derive_squared_exponential_length_scale,derive_exponential_length_scale"]}
{"id": "C53", "title": "newton_solve never leaves its bounds", "statement": "newton_solve returns a value in [lower, upper] for every function, gradient and starting value, evaluates them at 50 points at most, and is the safeguarded Newton iteration that stops at the first value within the tolerance.", "quantifier": "every function and start", "why_tests_cant": "all functions", "anchors": ["include/albatross/src/covariance_functions/radial.hpp:newton_solve"]}
{"id": "C54", "title": "linear combinations act bilinearly on covariances", "statement": "The covariance of two linear combinations is the double sum of coefficient products times feature covariances; products of a matrix with a list of (combined) features give the covariance M K M^T; the mean is M m.", "quantifier": "every matrix, features list and covariance function", "why_tests_cant": "all sizes", "anchors": ["include/albatross/src/core/linear_combination.hpp", "include/albatross/src/covariance_functions/callers.hpp:LinearCombinationCaller"]}
{"id": "C55", "title": "Measurement features only see measurement noise", "statement": "A MeasurementOnly covariance contributes only when both arguments are Measurement<X>, is zero otherwise; other covariance functions treat Measurement<X> like X.", "quantifier": "every covariance expression and features", "why_tests_cant": "dispatch over all type combinations", "anchors": ["include/albatross/src/covariance_functions/measurement.hpp", "include/albatross/src/covariance_functions/callers.hpp:MeasurementForwarder"]}
{"id": "C56", "title": "Chebyshev polynomials satisfy their defining identities", "statement": "For every order n the two Chebyshev recursions give cos(n t) and sin((n+1) t)/sin t at cos t, have parity (-1)^n, are bounded by 1 and n+1 on [-1,1], satisfy T_n' = n U_(n-1), and every column of the basis matrices built from them is the polynomial of that order; a negative order is rejected.", "quantifier": "every order and argument", "why_tests_cant": "all orders", "anchors": ["include/albatross/src/polynomial/chebyshev.hpp"]}
{"id": "C57", "title": "prior log densities are the log of a density", "statement": "For the uniform, Gaussian, positive Gaussian and log-normal priors log_pdf(x) should be the logarithm of the named density, and bounds should contain its support.", "quantifier": "every prior parameter and x", "why_tests_cant": "all reals; only differences of log densities are usually tested", "anchors": ["include/albatross/src/core/priors.hpp"]}
{"id": "C58", "title": "likelihoods factor over independent data", "statement": "The negative log likelihood of a multivariate normal with diagonal covariance equals the sum of the univariate ones, equals the dense LDLT computation, and log_pdf is the log of pdf.", "quantifier": "every deviation vector and variances", "why_tests_cant": "all sizes", "anchors": ["include/albatross/src/evaluation/likelihood.hpp", "include/albatross/src/stats/gaussian.hpp"]}
{"id": "C59", "title": "differential entropy is the Gaussian entropy", "statement": "differential_entropy(cov) should be (k (1+log 2 pi) + log det cov)/2, hence additive over independent blocks. (It is not: the log determinant is multiplied by k as well, so it is right exactly when k = 1 or det cov = 1; it still orders covariances of equal size correctly.)", "quantifier": "every covariance", "why_tests_cant": "only 1x1 or unit determinants hide the misplaced factor", "anchors": ["include/albatross/src/evaluation/differential_entropy.hpp"]}
{"id": "C60", "title": "multivariate scores are non negative and consistent", "statement": "variogram_score and energy_score are >= 0; weights rescale dimensions consistently; the draws behind the energy score have the covariance of the prediction; the variogram score is the documented weighted sum; crps_normal is the integral of the squared difference of distribution functions, is least at the mean and grows with the distance from it.", "quantifier": "every prediction and truth", "why_tests_cant": "all covariances incl. those whose pivoting permutes", "anchors": ["include/albatross/src/evaluation/prediction_metrics.hpp:score", "include/albatross/src/evaluation/prediction_metrics.hpp:score::detail", "include/albatross/src/evaluation/prediction_metrics.hpp:crps_normal"]}
{"id": "C61", "title": "Kolmogorov-Smirnov statistic is the sup distance", "statement": "uniform_ks_test(samples) equals the supremum over t of |empirical cdf - t| for samples in [0,1], whatever their order; it lies between 1/(2n) and 1 and is 0 for no samples.", "quantifier": "every sample list", "why_tests_cant": "supremum over the reals, and every order of every sample list", "anchors": ["include/albatross/src/stats/ks_test.hpp"]}
{"id": "C62", "title": "distribution arithmetic", "statement": "Adding or subtracting independent distributions adds or subtracts the means and adds the (co)variances; scaling by c multiplies the variance by c^2; subset and marginal commute with each; matrix * joint gives M mu and M C M^T; results stay positive semidefinite; approximate comparison is reflexive, symmetric and monotone; concatenation lists every element in order.", "quantifier": "all sizes, all distributions", "why_tests_cant": "all sizes and all real entries", "anchors": ["include/albatross/src/core/distribution.hpp", "include/albatross/src/core/transformed_distribution.hpp"]}
{"id": "C63", "title": "block bookkeeping helpers", "statement": "block_accumulate, block_inner_product, block_diag_solve, block_subtract and vertical_stack agree with the dense products; key mismatch is rejected.", "quantifier": "all block maps", "why_tests_cant": "all shapes", "anchors": ["include/albatross/src/linalg/block_utils.hpp", "include/albatross/src/utils/eigen_utils.hpp:vertical_stack"]}
{"id": "C64", "title": "distance metrics are symmetric and non negative", "statement": "euclidean, radial and angular distances are symmetric, non negative and zero for identical arguments; distance_matrix is their table.", "quantifier": "all points", "why_tests_cant": "all reals", "anchors": ["include/albatross/src/covariance_functions/distance_metrics.hpp"]}
{"id": "C65", "title": "tuners only evaluate valid parameters and return what the optimizer found", "statement": "For vectors within the bounds handed to the optimizer, the tuning objective is evaluated at a valid parameter store with those values, NaN is reported as +infinity, and the tuned store holds the optimizer's values, is valid and differs in nothing else; a dimension mismatch aborts; the mean aggregator of several metrics is their mean.", "quantifier": "all parameter stores, objectives and optimizers returning points within their bounds", "why_tests_cant": "all objectives and optimizers", "anchors": ["include/albatross/src/tune/tune.hpp"]}
{"id": "C66", "title": "serializable library types round trip", "statement": "Saving and loading parameter stores, Gaussian process models, fits (dense and sparse), fitted models, factorizations, distributions, datasets, block symmetric factors, linear combinations and RANSAC output restores what was saved; models with unknown parameters are rejected.", "quantifier": "all values, contents of the destination and following archive contents", "why_tests_cant": "every nesting and every value", "anchors": ["include/albatross/src/cereal/gp.hpp", "include/albatross/src/cereal/model.hpp", "include/albatross/src/cereal/fit_model.hpp", "include/albatross/src/cereal/serializable_ldlt.hpp", "include/albatross/src/cereal/distribution.hpp", "include/albatross/src/cereal/dataset.hpp", "include/albatross/src/cereal/ransac.hpp", "include/albatross/src/cereal/priors.hpp"]}
{"id": "C67", "title": "derived Matern length scales reproduce the requested process noise", "statement": "derive_matern_32_length_scale and derive_matern_52_length_scale return, for a reference distance and 0 < std_dev_increase < prior_sigma, a length scale whose process noise after the reference distance has the requested log to within 1e-12; the nearest allowed length scale if the request is out of reach.", "quantifier": "every reference distance, prior sigma and increase; exact real arithmetic", "why_tests_cant": "all reals; depends on the convergence of an iteration", "anchors": ["include/albatross/src/covariance_functions/radial.hpp:derive_matern_32_length_scale,derive_matern_52_length_scale,detail::derive_length_scale"]}
{"id": "C68", "title": "the log likelihood of a Gaussian process", "statement": "log_likelihood(dataset) of a Gaussian process is the log density of the targets' mean under the model's prior of the measurements plus the log density of the parameters. It should use the same covariance as fit, K + diag(target noise); it does not look at the target noise at all.", "quantifier": "every dataset, covariance function, mean function and parameter prior", "why_tests_cant": "a test with noise free targets, or one that only compares parameters of one dataset, does not show the missing noise", "anchors": ["include/albatross/src/models/gp.hpp:log_likelihood", "include/albatross/src/evaluation/likelihood.hpp"]}
{"id": "C69", "title": "root mean square error, standard deviation and likelihood of predictions", "statement": "RootMeanSquareError is the root of the mean squared error: a metric between prediction and truth (nonnegative, zero exactly when equal, symmetric, triangle inequality), between the average error and the largest one, independent of the order of the data. StandardDeviation is the sample standard deviation of the errors (NaN for none, 0 for one), invariant under offsets and zero exactly for constant errors, and RMSE^2 = bias^2 + (n-1)/n sd^2. NegativeLogLikelihood is minus the log density of the truth under the prediction widened by the noise of the truth; joint and marginal forms agree for uncorrelated predictions. Sizes that differ are an assertion.", "quantifier": "all sizes, predictions, truths", "why_tests_cant": "all real vectors of all sizes", "anchors": ["include/albatross/src/evaluation/prediction_metrics.hpp root_mean_square_error", "include/albatross/src/evaluation/prediction_metrics.hpp standard_deviation", "include/albatross/src/evaluation/prediction_metrics.hpp negative_log_likelihood"]}
{"id": "C70", "title": "leave one out metrics of models", "statement": "LeaveOneOutLikelihood and LeaveOneGroupOutLikelihood are minus the sum of the log densities of the held out targets under their held out predictions, widened by the noise of the targets, minus the log density of the parameters. For a Gaussian process this should be the pseudo likelihood sum log p(y_g | y_others) - it is for targets without noise only, because the held out predictions include the noise already. LeaveOneOutRMSE should be the root mean square of the leave one out errors; it is their mean absolute value.", "quantifier": "all models, datasets, groupings", "why_tests_cant": "all datasets and all models", "anchors": ["include/albatross/src/evaluation/model_metrics.hpp", "include/albatross/src/models/gp.hpp gp_cross_validated_predictions"]}
{"id": "C71", "title": "Wasserstein distance of Gaussian distributions", "statement": "wasserstein_2(a, b) of two Gaussian distributions with positive semidefinite covariances is the least expected squared difference over all joint distributions with marginals a and b; it is symmetric, non-negative and zero only for equal distributions, and its square root satisfies the triangle inequality. The matrix square root it uses is the unique positive semidefinite root, treats small negative eigenvalues as zero and turns large ones into NaN.", "quantifier": "every size, every pair or triple of distributions with positive semidefinite covariances, every eigen solver that returns an orthonormal decomposition of the matrices it is given", "why_tests_cant": "optimality is a statement about all couplings of two distributions, and the metric laws quantify over all triples of matrices; a test sees finitely many.", "anchors": ["include/albatross/src/evaluation/prediction_metrics.hpp:wasserstein_2", "include/albatross/src/evaluation/prediction_metrics.hpp:principal_sqrt"]}
{"id": "C72", "title": "The chi-squared distribution function is a probability and approximates the regularised incomplete gamma function", "statement": "chi_squared_cdf returns NaN for NaN or negative arguments, 0 near 0, 1 at infinity and 1 for zero degrees of freedom. Below twenty degrees of freedom, fractions included, the result is between 0 and 1, never below the true distribution function and above it by at most 3e-5 for every argument from 2 epsilon on; up to slightly above the mean it is within 1e-11. The 50 point rule integrates every polynomial of degree 99. The form that takes a vector depends only on the Mahalanobis distance and is invariant under changes of coordinates; the prediction metric widens the covariance by the noise of the truth.", "quantifier": "all real, infinite and NaN arguments, all degrees of freedom below twenty, all polynomials of degree at most 99, all integration intervals, all vectors and positive definite covariances of any size", "why_tests_cant": "A statement about a continuum of arguments and about every polynomial, with an error bound against an integral that has no closed form.", "anchors": ["include/albatross/src/stats/chi_squared.hpp: chi_squared_cdf", "include/albatross/src/stats/incomplete_gamma.hpp: incomplete_gamma, details::incomplete_gamma_continuous_fraction", "include/albatross/src/stats/gauss_legendre.hpp: gauss_legendre_50_points, gauss_legendre_50_weights", "include/albatross/src/evaluation/prediction_metrics.hpp: chi_squared_cdf, ChiSquaredCdf"]}
{"id": "C73", "title": "Inducing points span the data, are evenly spaced and close enough", "statement": "linspace(a, b, n) with 2 <= n <= 2^53 + 1 returns n equally spaced values, the first a and the last b; n = 1 returns a alone; n = 0 fails an assertion. UniformlySpacedInducingPoints covers exactly the interval from the least to the greatest feature; without features it is undefined. state_space_representation of SquaredExponential (Exponential) with a positive length scale has max(3, ceil(10 range / length_scale)) (20 for Exponential) such points, so every feature has correlation at least exp(-9/1600) (exp(-3/80)) with some inducing point and neighbours at least exp(-9/400) (exp(-3/40)); a negative or infinite length scale gives 3 points; a zero or NaN one fails an assertion. The points of sums and products are those of the left followed by those of the right, hence duplicated at both ends; the promised one and five percent decorrelation of neighbours does not hold.", "quantifier": "all finite end points, counts, feature vectors and length scales", "why_tests_cant": "tests compare a few grids; coverage must hold for every feature vector and every length scale a tuner tries", "anchors": ["include/albatross/src/utils/vector_utils.hpp linspace safe_cast_to_size_t", "include/albatross/src/models/sparse_gp.hpp UniformlySpacedInducingPoints StateSpaceInducingPointStrategy", "include/albatross/src/covariance_functions/radial.hpp _ssr_impl", "include/albatross/src/covariance_functions/covariance_function.hpp SumOfCovarianceFunctions::_ssr_impl"]}
{"id": "C74", "title": "Concatenation and extraction of features of different types keep order, types and values", "statement": "concatenate of two vectors gives the values of the left and then of the right, each with the type it had; the result type holds the types of both sides, each once, and stays a plain type only if both are that type; two different variants cannot be concatenated. to_variant_vector keeps order, types and values. extract_from_variants returns exactly the values of the requested type in order, with their own targets for a dataset, and every value is extracted by exactly one type; concatenating two types and extracting one gives it back.", "quantifier": "all feature types and variants, all vectors and datasets", "why_tests_cant": "tests try three or four combinations of types; the conversions must be lossless for every combination and every vector", "anchors": ["include/albatross/src/core/concatenate.hpp concatenate internal::concatenation_type", "include/albatross/src/utils/variant_utils.hpp to_variant_vector extract_from_variants", "include/albatross/src/details/traits.hpp is_in_variant is_sub_variant", "include/albatross/src/core/dataset.hpp concatenate_datasets"]}
{"id": "C75", "title": "Least squares and linear regression", "statement": "Fitting a least squares model to any number of observations returns coefficients with the least sum of squared residuals of all coefficients, whatever the rank of the features; data on a linear function are reproduced by the predictions, and the function is recovered when the data determine it; the regression line goes through the average point and has the covariance over variance slope; unequal or NaN target variances abandon the fit; a feature of the wrong size aborts.", "quantifier": "every number of observations, every feature dimension, all real features and targets, every solver of the normal equations", "why_tests_cant": "Optimality compares against every coefficient vector and must hold for every data set including rank deficient ones.", "anchors": ["models/least_squares.hpp:LeastSquares", "models/least_squares.hpp:LinearRegression", "models/least_squares.hpp:all_same_value"]}
{"id": "C76", "title": "Mean, marginal and joint predictions agree", "statement": "mean(), marginal() and joint() of a prediction exist exactly when the model has a suitable prediction method, use the most direct method, agree with one another when the methods of the model do, and are empty for no features without asking the model; the null model predicts independent zero means with variance 1e4.", "quantifier": "every combination of prediction methods a model can have, every fit, every list of features", "why_tests_cant": "There are eight combinations of methods and infinitely many models; a test exercises one model.", "anchors": ["core/prediction.hpp:MeanPredictor", "core/prediction.hpp:MarginalPredictor", "core/prediction.hpp:Prediction", "models/null_model.hpp:NullModel"]}
{"id": "C77", "title": "What a prediction refers to", "statement": "A prediction made from a temporary fit answers from that fit after any later history; a prediction of a named fit answers from it as long as it is left alone; update leaves the original fit unchanged and updates in place compose; predictions are evaluated when asked.", "quantifier": "every history of constructing, predicting, updating, assigning, moving and destroying fits", "why_tests_cant": "A dangling or stale reference only shows under particular histories, and often still returns plausible numbers.", "anchors": ["core/fit_model.hpp:FitModel", "core/prediction.hpp:Prediction", "core/declarations.hpp:PredictionReference"]}
{"id": "C78", "title": "RANSAC with a Gaussian process chooses the largest consensus", "statement": "The functions the Gaussian process strategy hands to RANSAC never fail on groups of the data set; a group is judged by its law given the observations of the candidates; the default strategy turns no candidate down and its chosen consensus has at least as many observations as that of any other iteration that reached consensus; a group outside the candidates is kept exactly when its metric is within the threshold; a NaN chi squared probability rejects a candidate.", "quantifier": "every prior, truth, grouping, metric, threshold, random engine and number of iterations", "why_tests_cant": "RANSAC is randomised, so a test sees a handful of draws; the claim ranges over all draws and all data.", "anchors": ["models/ransac_gp.hpp:get_gp_ransac_functions", "models/ransac_gp.hpp:GaussianProcessRansacStrategy", "models/conditional_gaussian.hpp:ConditionalGaussian"]}
{"id": "C79", "title": "Noise, nugget, constant and polynomial covariance functions", "statement": "The covariance matrices of the noise, nugget, constant and polynomial covariance functions are positive semi-definite for all features; a nugget makes the covariance of distinct features positive definite; the polynomial covariance is the sum of sigma_i^2 x^i y^i of rank at most order plus one, and a Gaussian process with it and a linear mean predicts a polynomial of that degree.", "quantifier": "every number of features, all feature values, all parameters, every polynomial order, every data set", "why_tests_cant": "Positive definiteness is a statement about every vector and every finite set of features.", "anchors": ["covariance_functions/noise.hpp:IndependentNoise", "covariance_functions/nugget.hpp:Nugget", "covariance_functions/polynomials.hpp:Polynomial", "covariance_functions/polynomials.hpp:Constant", "covariance_functions/polynomials.hpp:LinearMean"]}
{"id": "C80", "title": "Truncated solve of a positive semi-definite system", "statement": "The truncated solve returns, in the basis of eigenvectors, the right hand side divided by the eigenvalue in the directions whose eigenvalue is at least the threshold and zero in the others: it solves the system exactly when no eigenvalue is below the threshold, recovers every solution without truncated components, is the unique least squares solution within the directions kept, and applies a positive semi-definite operator even to an indefinite matrix.", "quantifier": "every symmetric matrix given by an orthonormal eigen decomposition, every right hand side with any number of columns, every positive threshold", "why_tests_cant": "Optimality compares with every other vector; exactness is claimed for every matrix.", "anchors": ["utils/eigen_utils.hpp:truncated_psd_solve"]}
{"id": "C81", "title": "Archives of sparse matrices and factorizations restore what is observable", "statement": "Saving a real CHOLMOD sparse or dense matrix to an archive and loading it into an object restores its dimensions, structure and values, and the loader never writes outside what it allocated; saving a computed sparse QR factorization and loading it gives an object whose solves and whose R and permutation agree with the saved one. Complex matrices, pattern-only matrices, unpacked matrices, never computed factorizations and the cached R are the exceptions, each shown by a witness.", "quantifier": "every well formed sparse and dense CHOLMOD object, every factorization and every archive prefix and suffix", "why_tests_cant": "the field-by-field format has lengths derived from type tags; tests only save a few real packed matrices", "anchors": ["include/albatross/src/cereal/suitesparse.hpp:save", "include/albatross/src/cereal/suitesparse.hpp:load", "include/albatross/src/cereal/serializable_spqr.hpp:SerializableSPQR::save", "include/albatross/src/cereal/serializable_spqr.hpp:SerializableSPQR::load", "include/albatross/src/eigen/serializable_spqr.hpp:SerializableSPQR"]}
{"id": "C82", "title": "A call trace describes the evaluation of a covariance function", "statement": "The trace of a covariance function called with two features never fails an assertion and has one line per call in the expression, each before the calls that it makes, indented by its depth, marked with the operator of its parent, with its name and its value (UNDEFINED where it is not defined for these features). Two expressions with the same trace are the same, provided names do not begin with a blank, and printing aligns all functions in one column.", "quantifier": "every expression of sums, products and other covariance functions, every value and name", "why_tests_cant": "the nesting is unbounded and the indentation is edited in place level by level; tests only check that every expression of a short list prints", "anchors": ["include/albatross/src/covariance_functions/call_trace.hpp:CallTrace::get_trace", "include/albatross/src/covariance_functions/call_trace.hpp:append_child_call_trace", "include/albatross/src/covariance_functions/call_trace.hpp:print_call_trace"]}
{"id": "C83", "title": "Printing eigen directions reports the right eigenpairs", "statement": "print_small_eigen_directions (print_large_eigen_directions) writes the extreme eigenvalues and then, for the count smallest (largest) eigenvalues in order, the eigenvalue with exactly those coefficients of its own eigenvector that exceed the threshold in absolute value, each with the feature at its place, the largest first. Asking for more directions than the matrix has, or giving fewer features, reads out of bounds.", "quantifier": "every set of eigenpairs, features, threshold and count, any correct eigen solver and any correct unstable sort", "why_tests_cant": "ties, signs and arbitrary dimensions; tests only check that something is printed", "anchors": ["include/albatross/src/linalg/print_eigen_directions.hpp:print_small_eigen_directions", "include/albatross/src/linalg/print_eigen_directions.hpp:print_large_eigen_directions"]}
{"id": "C84", "title": "Factors, solves and pivot thresholds of QR factorizations", "statement": "From any QR factorization with at least as many stored rows as columns, get_R and get_P return the triangular factor and the permutation whatever is stored below the diagonal; sqrt_solve is finite exactly when the columns are independent, and inner products of its results are inner products with the inverse of A^T A. The pivot threshold of a large matrix is the documented multiple of its largest column norm and scales with it; that of a small one is an absolute constant. A created sparse factorization is computed with the ordering, threads and threshold that were asked for.", "quantifier": "every matrix, factorization of it, right hand side, coefficient, minimum size and thread pool", "why_tests_cant": "arbitrary dimensions and values; equality of inner products with an inverse is only tested on random matrices up to rounding", "anchors": ["include/albatross/src/linalg/spqr_utils.hpp:get_R", "include/albatross/src/linalg/spqr_utils.hpp:get_P", "include/albatross/src/linalg/spqr_utils.hpp:sqrt_solve", "include/albatross/src/linalg/spqr_utils.hpp:SPQR_pivot_threshold", "include/albatross/src/linalg/spqr_utils.hpp:SPQR_create", "include/albatross/src/linalg/qr_utils.hpp:sqrt_solve"]}
{"id": "C85", "title": "The tracking callback ends with the most likely state", "statement": "After any run of the ensemble sampler with the maximum likelihood tracking callback, the callback holds the log probability and the parameters of the first state that attains the largest log probability of all states of all iterations; states with a probability of zero or a NaN are never recorded, fixed parameters are untouched, and the log probabilities written are strictly increasing and end with the recorded one.", "quantifier": "every parameter store, every sequence of ensembles of states with as many values as tunable parameters, including NaN and infinite log probabilities", "why_tests_cant": "histories are unbounded and NaN or tied probabilities are rare in tests", "anchors": ["include/albatross/src/samplers/callbacks.hpp:MaximumLikelihoodTrackingCallback"]}
{"id": "C86", "title": "Compressed data decompresses to itself and corrupted data is never mistaken for it", "statement": "For every string and every array of elements, decompressing what compress returned gives the same bytes; asking for another number of elements fails an assertion (decompress) or returns false without writing (maybe_decompress). For every input whatsoever, decompression writes only the requested elements and reports success exactly when zstd decodes that many bytes; maybe_decompress is documented to report failure by returning false.", "quantifier": "all strings, element types, counts, compression levels, destination contents and (corrupted) inputs, and every zstd library that satisfies its contract", "why_tests_cant": "A test tries a few strings; corrupted inputs and wrong counts are unbounded.", "anchors": ["include/albatross/src/utils/compress.hpp:compress", "include/albatross/src/utils/compress.hpp:decompress", "include/albatross/src/utils/compress.hpp:maybe_decompress"]}
{"id": "C87", "title": "Random covariance matrices, normal samples and sparse matrices have the advertised shape", "statement": "random_covariance_matrix is symmetric with the drawn eigenvalues, positive (semi)definite when they are positive (not negative); random_multivariate_normal is the mean plus a square root of the covariance times standard normal values, hence has the requested mean and covariance, and asserts on mismatched sizes; random_sparse_matrix has exactly floor(rows*cols*fill) entries at distinct positions with values in the given range, returns whenever fill <= 1, and is defined for every size.", "quantifier": "all sizes, engine states, engines whose values are in range, eigenvalue distributions, means and positive definite covariances, fills and bounds", "why_tests_cant": "Tests look at a few seeds; the claims are about every stream of random numbers and every size.", "anchors": ["include/albatross/src/utils/random_utils.hpp:random_covariance_matrix", "include/albatross/src/utils/random_utils.hpp:random_multivariate_normal", "include/albatross/src/utils/random_utils.hpp:random_sparse_matrix"]}
{"id": "C88", "title": "RANSAC of any model with a generic strategy fits exactly the consensus", "statement": "Calling model.ransac(strategy, config).fit(dataset) with a generic strategy (any prediction metric, any model metric, any grouping) never fails when candidate sampling terminates. On success the fitted model is the sub model fitted to the observations of the groups of the best iteration's consensus, each group once; a group that was not a candidate is in it exactly when the inlier metric of the prediction of its features by the model fitted to the candidates' observations, against its targets, is within the threshold; and no iteration with enough consensus has a smaller consensus metric. Predictions are those of that model; without a consensus predicting asserts. The number of allowed failed candidates has no effect with such a strategy.", "quantifier": "every data set, grouping, model, metric, configuration and in range random engine", "why_tests_cant": "Tests run one seeded data set with a Gaussian process and look at the outliers found; the claim is about all models, groupings, metrics and random draws.", "anchors": ["include/albatross/src/models/ransac.hpp:get_generic_ransac_functions", "include/albatross/src/models/ransac.hpp:GenericRansacStrategy", "include/albatross/src/models/ransac.hpp:Ransac::_fit_impl", "include/albatross/src/models/ransac.hpp:Ransac::_predict_impl"]}
{"id": "C89", "title": "Grouping, pairing and collapsing", "statement": "The groups of a data set hold exactly the observations with the same key in their order, and combining them gives a permutation of the observations. Grouping a vector with another vector of the same size keeps elements at the same positions together in every group; grouping it with a map needs exactly the keys of the groups (another number of keys is an assertion, another key throws) and attaches to each group the entry of its key. first_group is the group of the smallest key. Filtering keeps whole groups. The counts add up to the number of elements, the mean of a map of numbers times their number is the sum and lies between the smallest and the largest, all and any mean what they say.", "quantifier": "every vector, data set, grouping function, second vector or map, predicate", "why_tests_cant": "Tests group a handful of literals; that no element is lost, duplicated or paired with a stranger is a claim about all vectors and keys.", "anchors": ["include/albatross/src/indexing/group_by.hpp:GroupByBase::with", "include/albatross/src/indexing/group_by.hpp:GroupByBase::first_group", "include/albatross/src/indexing/group_by.hpp:Grouped::mean", "include/albatross/src/indexing/group_by.hpp:combine"]}
{"id": "C90", "title": "Distances and radial covariances computed in double precision", "statement": "The Euclidean distance of two doubles, and of two vectors whatever the order in which the squares are added, is bit for bit the same with the arguments swapped. For finite doubles it is never NaN or negative, it is zero only for equal numbers and otherwise accurate to a relative 2^-53 unless it overflows. The squared exponential and exponential covariances of finite features are finite, symmetric, between 0 and the variance sigma*sigma, and exactly the variance for a feature and itself. The angular distance uses acos only strictly inside (-1,1) or on NaN.", "quantifier": "every pair of doubles or vectors of doubles, every order of summation, every exp, pow and acos meeting their contracts, every finite length scale and sigma", "why_tests_cant": "Rounding, underflow, overflow and NaN occur on sets of doubles too sparse for tests to hit; a test checks a few values with a tolerance", "anchors": ["include/albatross/src/covariance_functions/distance_metrics.hpp:EuclideanDistance, radial_distance, angular_distance", "include/albatross/src/covariance_functions/radial.hpp:squared_exponential_covariance, exponential_covariance, matern_32_covariance, matern_52_covariance"]}
{"id": "C91", "title": "Cross validating a Gaussian process equals refitting it without each group", "statement": "For a Gaussian process, cross_validate().predict(dataset, groups) takes a shortcut through one inverse. For every dataset, every mean and covariance function and every set of groups, its means are those of fitting the model again to the observations outside each group and predicting the group, its marginals and joints are those of predicting measurements with the noise of the held out targets, mean() puts them in the order of the data, and scores of a metric of means are the same whether a dataset with groups or folds are given.", "quantifier": "every dataset of any size, mean and covariance function, metric and set of groups, overlapping or not covering the data", "why_tests_cant": "the shortcut computes no refit, so equality is algebra over every covariance; tests compare a few models on ten points with tolerances", "anchors": ["include/albatross/src/evaluation/cross_validation.hpp: CrossValidation::predict, scores, means, marginals, joints", "include/albatross/src/models/gp.hpp: cross_validated_predictions", "include/albatross/src/evaluation/cross_validation_utils.hpp: concatenate_mean_predictions, cross_validated_scores"]}
{"id": "C92", "title": "Tuning a function of a vector starts where asked and a tuned model has the tuned parameters", "statement": "GenericTuner(values).tune(objective) starts the optimizer at the given values, evaluates the objective at exactly the vectors the optimizer asks for, turns NaN into infinity and returns the optimizer's result; an objective of an Eigen vector gives the same. get_tuner(model, metric, datasets).tune() evaluates the aggregate of the metric of the model with exactly the parameters the optimizer asks for, and its result can be given back to the model.", "quantifier": "every number of variables, start, objective, optimizer, model, metric and list of datasets", "why_tests_cant": "tests tune two or three variables; the order of more than ten names and the behaviour on NaN need reasoning about all of them", "anchors": ["include/albatross/src/tune/tune.hpp: GenericTuner, uninformative_params, run_optimizer, ModelTuner, get_tuner"]}
{"id": "C93", "title": "The stretch move leaves the target distribution invariant", "statement": "Take a walker of the affine invariant ensemble sampler, any partner, and the line through the two. If the position of the walker on that line is distributed as the target distribution is on that line (density exp(log_prob) times |r|^(n-1), r the coordinate seen from the partner and n the number of parameters), then after one stretch move, averaged over its two uniform draws, every bounded continuous function of the position has the same expectation as before: exactly when the distribution has bounded support, in the limit otherwise, and with an explicit bound on any finite interval. A proposal is accepted with probability min(1, z^(n-1) f(new)/f(old)).", "quantifier": "every log probability with a continuous density along the line, every number of parameters, every partner and direction with no coordinate shared, every stretch parameter a > 1, every bounded continuous test function", "why_tests_cant": "invariance is a statement about averages over a continuum of draws and states; runs of the sampler can only check it statistically, and a wrong exponent or a wrong stretch distribution still gives plausible samples", "anchors": ["include/albatross/src/samplers/ensemble.hpp:stretch_move_step", "include/albatross/src/samplers/ensemble.hpp:assert_valid_states"]}
{"id": "C94", "title": "the exponential covariance of angles is valid and the smooth ones are rightly rejected", "statement": "Exponential<AngularDistance> gives positive semidefinite covariance matrices with diagonal sigma^2 for directions whose angles are 0, a half turn, or farther than about 1.5e-8 from both; for all directions the matrix plus n sigma^2 3e-8/length_scale on the diagonal is positive semidefinite; SquaredExponential, Matern32 and Matern52 of the angle, which the library rejects at compile time, are not positive semidefinite for some directions.", "quantifier": "every number of nonzero vectors of any common dimension, length scale and sigma; exact real arithmetic", "why_tests_cant": "positive semidefiniteness for every finite set of directions", "anchors": ["include/albatross/src/covariance_functions/radial.hpp: Exponential, SquaredExponential, Matern32, Matern52", "include/albatross/src/covariance_functions/distance_metrics.hpp: AngularDistance", "doc/src/temperature-example.rst"]}
{"id": "C95", "title": "The chi-squared distribution function from twenty degrees of freedom on", "statement": "From twenty degrees of freedom on chi_squared_cdf is positive, constant far in the tail, and approximates the regularised incomplete gamma function: the window the quadrature rule integrates over misses at most 1e-10 of the mass, and the rule itself is as accurate as the best polynomial of degree 99 for the density on that window.", "quantifier": "all degrees of freedom from twenty on, all arguments", "why_tests_cant": "The degrees of freedom and the argument are unbounded and real, and the reference value is an integral without closed form.", "anchors": ["include/albatross/src/stats/chi_squared.hpp: chi_squared_cdf", "include/albatross/src/stats/incomplete_gamma.hpp: incomplete_gamma, details::incomplete_gamma_quadrature, details::incomplete_gamma_quadrature_bounds"]}
{"id": "C96", "title": "Gaussian process predictions are the best affine predictions and their covariance is that of their errors", "statement": "If observations and unknown values have the means and covariances that a Gaussian process model takes them to have, then the covariance that predict(...).joint() reports is exactly the covariance of the error of the predicted mean, whose average is zero; no affine function of the observations has smaller squared errors for any combination of the values, and only the predicted mean reaches them.", "quantifier": "every covariance and mean function, number of observations and predictions, observation variances and joint distribution with finitely many outcomes whose covariance of the observations is invertible; exact real arithmetic", "why_tests_cant": "it compares with every other predictor and averages over every outcome", "anchors": ["include/albatross/src/models/gp.hpp: GaussianProcessBase::_fit_impl, _predict_impl, gp_joint_prediction, gp_marginal_prediction, gp_mean_prediction"]}
{"id": "C97", "title": "Repeated observations count through their precision weighted mean", "statement": "Fitting a Gaussian process to any number of observations of the same features gives the same predictions as one observation per feature, its precision weighted mean with the inverse of the total precision as its variance; data sets of any sizes and orders with the same precisions and weighted sums give the same predictions.", "quantifier": "every covariance function that is positive semidefinite on the distinct features, every mean function, assignment of observations to features, positive variances and prediction features; exact real arithmetic", "why_tests_cant": "any number of observations of any number of features in any order", "anchors": ["include/albatross/src/models/gp.hpp: GaussianProcessBase::_fit_impl, _predict_impl"]}
{"id": "C98", "title": "A sparse Gaussian process with the observed features among its inducing points approaches the exact one", "statement": "If every observed feature is an inducing point, the mean and the variance predicted by a sparse Gaussian process differ from those of the exact one (with the measurement nugget added to the variances) by at most an explicit bound that goes to 0 with the nugget added to the inducing points, for every grouping of the observations; so every accuracy is reached with a small enough nugget.", "quantifier": "every positive semidefinite covariance function that does not distinguish measurements, zero mean function, every partition of the observations into groups, inducing points that include the observed features, observations, positive nuggets and prediction features; exact real arithmetic, any factorizations that satisfy their contracts", "why_tests_cant": "a test compares one data set at one nugget; the bound is for all of them and gives the rate at which the difference vanishes", "anchors": ["include/albatross/src/models/sparse_gp.hpp: SparseGaussianProcessRegression::_fit_impl", "include/albatross/src/models/sparse_gp.hpp: SparseGaussianProcessRegression::_predict_impl", "include/albatross/src/models/gp.hpp: GaussianProcessBase::_predict_impl"]}
{"id": "C99", "title": "A matrix times a dataset", "statement": "Multiplying a dataset of objects of one class (or linear combinations of them) with a dense or sparse matrix M succeeds when the target variances are not negative, and a Gaussian process fitted to the product predicts the conditional distribution of the function given M times the targets, with the covariance M K M^T of the products and the variances of M times independent noise. With an invertible M that leaves the noise independent the predictions are those of the process fitted to the dataset itself. The agreement fails when M correlates the noise, and even the identity matrix changes predictions when a part of the covariance is measurement_only.", "quantifier": "every covariance function without measurement_only parts, every mean function without products, every matrix, dataset, noise and features to predict", "why_tests_cant": "The identities are between inverses of matrices of every size for every kernel and matrix; tests compare single products of small matrices and do not fit models to them.", "anchors": ["include/albatross/src/core/dataset.hpp: operator*", "include/albatross/src/core/linear_combination.hpp", "include/albatross/src/models/gp.hpp: _fit_impl"]}
{"id": "C100", "title": "The columns of a feature in CSV output", "statement": "The map of column to value made from the XML that a feature is serialized to has, for every document, exactly the columns named by the way to an element with a value (the names joined with dots, without that of the feature) and in each the last value written to it. When no name has a dot and elements next to each other have different names, every element with a value has its own column and nothing else is in the map, and the row of the dataset keeps it unless the column is called like one of the target or prediction columns. Fields that are empty strings have no column; a field called target is overwritten.", "quantifier": "every XML tree of any depth and width, all names and values", "why_tests_cant": "nesting depth and the collisions between joined names are unbounded; tests serialize a few structs", "anchors": ["include/albatross/src/utils/csv_utils.hpp: flatten_xml_serialization, to_map"]}
{"id": "C101", "title": "Printed parameters can be read", "statement": "pretty_params prints one entry for each parameter in the order of the names, from which names and printed values are read back, so that different parameters are printed differently; pretty_priors prints one line for each; pretty_param_details aligns the values after the longest name and marks those within the bounds of their prior. Printing the details of a store without parameters is undefined behavior.", "quantifier": "every parameter store with names without quotes and line breaks, every format of numbers", "why_tests_cant": "the number and lengths of names are unbounded; there are no tests of the printed text", "anchors": ["include/albatross/src/core/parameters.hpp: pretty_params, pretty_priors, pretty_param_details"]}
{"id": "C102", "title": "What observations do to a sparse Gaussian process", "statement": "After any fit and updates, a joint prediction of the sparse Gaussian process is at most as uncertain as the prior and at least as uncertain as what the inducing points do not explain; further updates never increase the uncertainty; the uncertainty does not depend on the observed values and the mean is affine in them; the order of the observations and their division into batches do not matter; without data the prior is predicted. It can be more certain than the exact Gaussian process.", "quantifier": "all covariance functions, inducing points, groupings, histories of a fit and any number of updates, orders, targets and predicted features", "why_tests_cant": "The bounds are inequalities between matrices for every covariance function, history and set of predicted features; tests compare some predictions within a tolerance.", "anchors": ["include/albatross/src/models/sparse_gp.hpp:_fit_impl", "include/albatross/src/models/sparse_gp.hpp:_update_impl", "include/albatross/src/models/sparse_gp.hpp:_predict_impl"]}
{"id": "C103", "title": "The likelihood of data is built up batch by batch", "statement": "The negative log likelihood of two sets of noisy observations under a Gaussian process prior is that of the first set plus that of the second set under the prediction of a fit to the first; over any number of batches, each predicted by what was learned from those before it and then learned from by an update, the predictive log densities add up to the log density of all the data. log_likelihood, which ignores the noise, satisfies this with fits that ignore the noise.", "quantifier": "all symmetric covariance functions, mean functions, features, targets, noise variances and sequences of batches with a positive definite covariance", "why_tests_cant": "An identity between determinants and quadratic forms of matrices of every size and of every division into batches; tests compare one evaluation with a reference number.", "anchors": ["include/albatross/src/models/gp.hpp:log_likelihood", "include/albatross/src/models/gp.hpp:_predict_impl", "include/albatross/src/models/gp.hpp:_update_impl", "include/albatross/src/evaluation/likelihood.hpp:negative_log_likelihood"]}
{"id": "C104", "title": "The log likelihood of a sparse Gaussian process is built up group by group", "statement": "log_likelihood of a sparse Gaussian process for observations followed by another group is that of the observations plus the log density of the group's targets under the prediction of its measurements by a model fit (and updated) to the observations; over any number of groups, each predicted by what was learned from those before it and then learned from by an update, the predictive log densities add up. Neither the order of the observations nor that of the groups matters. (With a mean function, or for batches of several groups, the predictions do not add up to the likelihood.)", "quantifier": "all positive semi-definite covariance functions, inducing points, positive inducing nuggets, observations with their groups, histories of fits and updates and sequences of further groups, with pivots above Eigen's tolerance", "why_tests_cant": "An identity between determinants and quadratic forms computed by two QR based algorithms, for matrices of every size and every sequence of updates; tests compare one likelihood with that of the dense model.", "anchors": ["include/albatross/src/models/sparse_gp.hpp:log_likelihood", "include/albatross/src/models/sparse_gp.hpp:_update_impl", "include/albatross/src/models/sparse_gp.hpp:_predict_impl", "include/albatross/src/models/sparse_gp.hpp:compute_internal_components"]}
{"id": "C105", "title": "Shifting the mean of a sparse Gaussian process, and comparing two", "statement": "shift_mean of a fit of a sparse Gaussian process moves the mean of every later prediction by the shift spread from the inducing points by the covariance function, K_zu (K_uu + nugget)^-1 shift, and changes no covariance. A shift of zero changes nothing, two shifts are one by their sum, and a shift can be made before or after an update if the new targets are shifted likewise; a shift of another size aborts. Fits that compare equal predict the same whatever is predicted, and still compare equal after the same update; comparison is an equivalence. (At the inducing points themselves the predictions of a fit do not move by the shift asked for, because of the inducing nugget; those of a fit made from a prediction do.)", "quantifier": "all positive semi-definite covariance functions, mean functions, inducing points, positive inducing nuggets, histories of fits and updates, shifts, predicted features and later updates, with pivots above Eigen's tolerance; all pairs of fits", "why_tests_cant": "The effect of a shift on every later prediction and update, for every covariance function and history; no test shifts the mean of a sparse model after an update.", "anchors": ["include/albatross/src/models/sparse_gp.hpp:shift_mean", "include/albatross/src/models/sparse_gp.hpp:operator==", "include/albatross/src/eigen/serializable_ldlt.hpp:operator==", "include/albatross/src/models/sparse_gp.hpp:_update_impl"]}
{"id": "C106", "title": "Fits that compare equal behave the same", "statement": "Two covariance representations (SerializableLDLT, ExplainedCovariance, DirectInverse, BlockSymmetric of any of these) that compare equal have the same number of rows and solve every right hand side alike. Two fits of a Gaussian process that compare equal predict the same joint, marginal and mean at all features, whatever the covariance and mean functions, and still compare equal after the same update. A fit compares equal to itself, and different to one with other features or another number of them. Distributions of the same size are compared by mean and covariance; comparing datasets never aborts and compares features, targets and metadata. (Comparing distributions of different sizes, factorizations of which one was not computed, or updated fits of the same features divided otherwise, aborts instead of finding them different.)", "quantifier": "all covariance representations nested to any depth, fits with any number of features, predicted features, updates and feature types whose equality is correct; all pairs of distributions", "why_tests_cant": "Equality is used in tests to conclude that serialized and copied models behave the same; that it implies the same behavior at all features and after all updates is not something finitely many comparisons show.", "anchors": ["include/albatross/src/models/gp.hpp:operator==", "include/albatross/src/covariance_functions/representations.hpp:operator==", "include/albatross/src/linalg/block_symmetric.hpp:operator==", "include/albatross/src/eigen/serializable_ldlt.hpp:operator==", "include/albatross/src/core/distribution.hpp:operator==", "include/albatross/src/core/dataset.hpp:operator=="]}
