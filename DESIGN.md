# Formal model of swift-nav/albatross

This directory holds a Rocq (Coq 8.16.1) model of parts of the C++ header
library in `/repo` and proofs of the properties listed in `properties.jsonl`.
`MANIFEST.json` maps every property to its theorems.

## Layout

* `rocq/theories/*Model.v`: the model. Only definitions, each with a comment
  citing the file and lines of `/repo/include/albatross/src` it models.
* `rocq/theories/*Spec.v`: the vocabulary of the theorem statements, written
  without the helpers of the model.
* `rocq/theories/*Proofs*.v` and the mathematics files (`RealStruct`, `Schur`,
  `Psd*`, `Radial*`, `Gamma*`, ...): lemmas about the model.
* `rocq/theories/*Props.v`: the property theorems, each closed by
  `exact lemma`, with `Print Assumptions` beneath it and an `Example` beside it
  showing that its hypotheses are met by a concrete case.
* `FINDINGS.md` (generated by `tools/findings.py`): every `_refuted` theorem
  with the claim it refutes. `ASSUMPTIONS.md` (generated by
  `tools/assumptions.py`): what `Print Assumptions` lists for every theorem.
* `seeded/LOG.jsonl`: wrong programs tried against the theorems.

## Modelling conventions

* `ALBATROSS_ASSERT` failures, C++ exceptions and undefined behaviour are
  separate outcomes (`Base.v`: `Ok`, `Abort`, `Throw`, `UB`). Theorems about
  values say which outcome occurs; they never use a default value.
  A debug build (assertions active) is modelled unless said otherwise.
* Container sizes and indices are `nat`; overflow of `size_t` is not modelled.
* `std::map` is a strictly sorted association list over a totally ordered key.
* `double` is modelled in one of three ways, stated at each definition:
  (1) where only comparison and negation matter (graph costs, metrics), by `Z`
  in units of 2^-1074, which represents every finite double exactly, with NaN
  and infinities as separate constructors when they matter;
  (2) where algebra matters (linear algebra, GP formulas), by an arbitrary
  (ordered) field, i.e. exact arithmetic: rounding is not modelled;
  (3) where exp, log, sqrt or trigonometry matter, by Coq's real numbers.
* External code (random generators, fit/predict functions of user models,
  LDLT/QR kernels of Eigen, compression, the thread pool's scheduler) is a
  universally quantified argument together with its documented contract.

## Plan per property

| Property | Modelled | Proof |
|---|---|---|
| C01 C03 C04 | subset.hpp over lists, outcomes for bad index | induction on index list |
| C02 | sort + set_difference merge | merge characterised on sorted lists |
| C05 C06 C07 | IndexerBuilder, groupers, combine over sorted maps | invariant of the insertion fold |
| C08 | filter.hpp | induction |
| C09 C10 | folds.hpp, cross_validation_utils.hpp with arbitrary fit and predict | from C02, C03, C05 |
| C11 | map_utils.hpp merges | two-list merge induction |
| C12 C13 | task pool as a nondeterministic transition system | invariant over all schedules |
| C14 | partition_triangular over reals (rounding of double not modelled) | monotone square roots |
| C15 | rejection loop over an arbitrary stream, both branches | invariant on the set |
| C16 C17 C18 | dataset.hpp | induction; duplicate rows shown by a refutation |
| C19 C20 | Kruskal with component map, Prim with priority queue | exchange argument; sorted lists of the same edges agree up to identity, so the order of the edges is irrelevant |
| C21 C22 | ransac loop with arbitrary callbacks and stream | loop invariant; equality refuted |
| C23 C24 C25 | parameters.hpp, mixin, composed functions | induction over the store |
| C26 C27 | csv_utils.hpp on character lists, sampler callback and reader | induction |
| C28 C29 | ensemble.hpp over arbitrary stream and log probability | invariant over iterations |
| C30 C31 | greedy_tuner.hpp, finite_difference.hpp | loop invariant; exact reals |
| C32 C33 C34 | cereal/eigen.hpp, variant.hpp over an abstract archive | round trips; sparse refuted |
| C35 C36 | held out formulas over a field with mathcomp matrices | block inverse |
| C37 C43 | BlockSymmetric and GP update | Schur complement |
| C38 | ExplainedCovariance | algebra |
| C39 C40 C41 C42 | GP predictions | algebra, completion of squares |
| C44 C45 C63 | block diagonal, LDLT square roots, block utils | algebra |
| C46 C47 C48 C49 | sparse GP via any QR with R^T R = B^T B | algebra; C48, C49 refuted |
| C50 C51 | covariance expression trees over reals | Schur product theorem; power series; min kernel |
| C52 C53 | radial.hpp over reals | algebra of exp and log |
| C54 C55 | callers.hpp | bilinear sums; case analysis |
| C56 | chebyshev.hpp | induction with trig identities |
| C57 C58 C59 C60 C61 | priors, likelihood, entropy, scores, KS over reals | algebra; refutations |
| C62 C64 | distribution arithmetic, distances | algebra |
| C65 | tune.hpp with the optimizer as an oracle | invariant of the evaluations |
| C66 | archives of library types as streams of named values | round trip combinators |
| C67 | derive_length_scale over the reals | monotonicity and derivative of the log noise; quadratic convergence for small requests; a cycle refutes the rest |
| C68 C69 C70 | likelihood of a GP, prediction metrics, model metrics | algebra, over C35, C36, C58 |
| C71 | wasserstein_2, principal_sqrt with an eigen solver contract | spectral theorem, trace inequality; refutations |
| C72 | chi_squared.hpp, incomplete_gamma.hpp, gauss_legendre.hpp over the reals | Gauss-Legendre exactness; the continued fraction as a quotient of polynomials whose positivity is certified box by box, determinant of the recurrence for the error, bounds of the complement |
| C73 | inducing point strategies, linspace, state space representations | induction; floor and ceiling |
| C74 | concatenate.hpp, variant_utils.hpp, traits over numbered types | induction |
| C75 | least_squares.hpp with a normal equations contract | completion of squares |
| C76 C77 | prediction.hpp, fit_model.hpp, null_model.hpp; object lifetimes as a small heap | case analysis over overloads and histories |
| C78 | ransac_gp.hpp, conditional_gaussian.hpp | composition of C21 and C42 |
| C79 | noise.hpp, nugget.hpp, polynomials.hpp | sums of squares |
| C80 | truncated_psd_solve with an eigen solver contract | spectral sums |
| C81 | suitesparse.hpp and serializable_spqr.hpp over a byte heap | round trips; refutations |
| C82 | call_trace.hpp over expression trees | structural induction |
| C83 | print_eigen_directions.hpp with a sorting contract | permutations and sortedness |
| C84 | spqr_utils.hpp, qr_utils.hpp with a factorization contract | triangular substitution, norms |
| C85 | callbacks.hpp tracker | invariant over the callback history |
| C86 | compress.hpp with a zstd contract | round trips, outcomes of every stream |
| C87 | random_utils.hpp matrices with orthogonal Q and LLT contracts | loop invariant; congruence of quadratic forms |
| C88 | the generic RANSAC strategy over any model, metrics and groups | composition with C21 |
| C89 | group_by.hpp: data sets, with, first_group, sum, mean, all, any | loop lemma over sorted maps |
| C90 | distances and radial covariances in IEEE 754 double precision (Flocq) | rounding lemmas of Flocq: exactness of subtraction near zero, monotonicity; witnesses computed |
| C91 | cross validation of a GP from the dataset and the groups: the shortcut of `cross_validated_predictions`, means, marginals, joints, mean() and scores | the block inverse of C07 for each group, lifted through index_apply, create_fold and concatenation; counterexamples computed over the rationals |
| C92 | GenericTuner on vectors (names are decimal numbers in a std::map) and ModelTuner on handlers; the optimizer is an argument | position of a key in a sorted map by counting smaller keys; C23 and C25 for the parameters |
| C93 | The stretch move on the line through the partner as Metropolis's rule (`InvarianceSpec.next`), shown to be what `stretch_walker` of SamplersModel does; the change to polar coordinates for more than one parameter is not expressed | the expectation after the move minus the one before is the average over the draw of two integrals of min(w(r), w(z r)); the substitutions s = z r and p -> the draw with the inverse stretch map one to the other up to the weight near the ends of the interval.; continuity of integrals depending on a parameter, substitution and step functions from Coquelicot |
| C94 | `angular_distance` (DistanceModel) under `radial_call` (RadialModel); vocabulary in AngularSpec; the static_asserts are compile time and not modelled | asin has a power series with nonnegative coefficients (ArcsinSeries), so asin of a Gram matrix of cosines is positive semidefinite, and exp(-acos/ell) by the exponential series; clamped angles by a perturbation bound; the alternating vector on four directions for the rejected shapes |
| C95 | incomplete_gamma_quadrature with the same model as C72 | tail bounds of the window, exactness of the rule; the best polynomial for the density is a hypothesis, so partial |
| C96 | `fit` and `predict_joint` of GpModel; random observations and values with finitely many outcomes (OptimalSpec) | the error of any affine prediction is expanded, completing the square leaves (B - W) A (B - W)^T plus a square |
| C97 | the same; precisions and weighted sums of each feature (OptimalSpec) | the selection matrix is pushed through the inverse, so that only H^T N^-1 H and H^T N^-1 y matter; 1 + J K is injective |
| C98 | sparse_fit_impl and sparse_predict_joint (SparseGpModel), fit and predict_joint (GpModel) | what the inducing points leave unexplained is nu - nu^2 (K + nu)^-1, hence at most nu on the diagonal; Cauchy-Schwarz bounds the other entries; perturbation of both posterior formulas |
| C99 | `operator*(matrix, dataset)` for dense and sparse matrices (ProductDatasetModel) on top of `dense_times`, `sparse_times` (CallerModel), the transformation of a marginal distribution (DistributionModel), `fit` and `predict_joint` (GpModel); vocabulary in ProductDatasetSpec | bilinearity of the covariance of linear combinations gives M K M^T; M^T (M A M^T)^-1 M = A^-1 for invertible M; two small witnesses for the refutations |
| C100 | `flatten_xml_serialization` and `to_map` on the tree rapidxml returns (XmlModel); the serialization by cereal and the parser are external; vocabulary in XmlSpec | induction over trees: assigning the entries of a child's map after renaming the keys injectively has the same last values as assigning its leaves; joined names without dots are split again |
| C101 | `pretty_params`, `pretty_priors`, `pretty_param_details` as character lists (PrettyModel); formatting of numbers is a parameter; a reader in PrettySpec | lines are split at line breaks, prefix and terminator lemmas; invariant of max_element |
| C102 | predictions after any history of the sparse Gaussian process (SparseGpModel, history of SparseGpSpec) | closed form of what a history stores (C46, C47), inverse reverses the matrix order; reordering by a bijection; counterexample with two features |
| C103 | `negative_log_likelihood`, `log_likelihood` (LikelihoodModel), fit, update and predictions (GpModel); sums of predictive densities in ChainSpec | Schur complement: determinant and quadratic form of a block matrix; induction over the batches |
| C104 | `log_likelihood`, fit, update and predictions of the sparse model (SparseGpModel); sums of predictive densities in SparseChainSpec | the covariance of joined groups is a block matrix whose Schur complement is the predicted covariance; induction over the groups |
| C105 | `shift_mean`, `operator==` of a fit of the sparse model and of SerializableLDLT (ShiftModel), fit, update and predictions (SparseGpModel) | a shifted fit stores the same information matrix and a moved information vector; predictions and updates read only the lower triangle of the factorization |
| C106 | `operator==` of GP fits, covariance representations, SerializableLDLT and distributions (EqualModel), with sizes that may differ; fit and update with what the representation stores | solve reads only what is compared; induction over nested BlockSymmetric; heterogeneous equality of solvers |

The table is the plan; what each theorem covers, and what it leaves out, is in
the note of the property in `MANIFEST.json`.

## Trusted base

* The kernel of Coq 8.16.1, its `vm_compute`, and the checker `coqchk`.
* The axioms that `Print Assumptions` lists, all of the standard library:
  `ClassicalDedekindReals.sig_forall_dec`, `ClassicalDedekindReals.sig_not_dec`
  (Coq's real numbers), `FunctionalExtensionality.functional_extensionality_dep`,
  `Classical_Prop.classic`, `Epsilon.epsilon_statement` (through the structure
  of the reals). `ASSUMPTIONS.md` lists them theorem by theorem. mathcomp,
  Coquelicot and Flocq are used as libraries and bring in no axiom of their own. The
  development declares no axiom, parameter, module type or functor.
* That the definitions of the `*Model.v` files describe the cited lines. This
  is a reading of the source: nothing was compiled or run.
* The contracts of the code outside the repository, listed next. Each is a
  hypothesis or a quantified argument of the theorems which need it, and the
  `_meets` examples show it satisfiable.

### Contracts of external code

| External code | Contract used |
|---|---|
| Eigen LDLT | `A = P^T L D L^T P`, L unit lower triangular, P a permutation given by transpositions; its solve drops pivots below its tolerance |
| Eigen LLT | `A = L L^T`, lower triangular, positive diagonal |
| Eigen HouseholderQR | Q is orthogonal |
| Eigen colPivHouseholderQr | the solution satisfies the normal equations; `R^T R = P^T A^T A P` |
| SuiteSparse SPQR | `A P = Q R` with orthonormal Q; columns below the pivot threshold are dropped |
| Eigen SelfAdjointEigenSolver | orthonormal eigenvectors, the eigenvalues on the diagonal, in increasing order |
| std::sort, std::set, std::map | sorted permutation for a strict weak order; strictly sorted keys |
| exp, log, sqrt, tgamma, erf, cos, sin | the functions on the reals |
| exp, pow(x, 2), acos in double precision (C90) | exp: 1 at zero, in [0,1] for arguments that are not positive, 0 below -1100; pow: not negative, 0 at 0; acos: finite, not negative on [-1,1], positive below 1, NaN for NaN. The Matern finding uses a correctly rounded exp |
| Eigen sum, dot, norm in double precision (C90) | the entries added in some order and bracketing |
| zstd, gzip, base64 | decompress (compress x) = x, decode (encode x) = x; zstd reports an error or the number of bytes, and refuses a buffer that is too small |
| cereal archives | a value is read back under the name and in the order in which it was written |
| cholmod | allocation returns fresh memory of the requested number of entries or null |
| nlopt | evaluates and returns points within its bounds |
| std::async, thread pool | every task runs once, in any interleaving; get() waits and rethrows |
| random engines | any stream of draws |
| callbacks of the user (fit, predict, metrics, groupers, covariance functions) | any function; termination assumed |

### What is modelled

Paths are relative to `/repo/include/albatross/src`; the models are files
`rocq/theories/<name>Model.v`.

| Source | Model |
|---|---|
| indexing/{subset, filter, unique, group_by, apply}.hpp, indexing/block.hpp | Indexing, GroupBy, Folds, Partition |
| core/dataset.hpp, core/concatenate.hpp, utils/variant_utils.hpp, details/traits.hpp | Dataset, Variant |
| core/distribution.hpp, core/transformed_distribution.hpp | Distribution |
| core/prediction.hpp, core/fit_model.hpp, models/null_model.hpp | Prediction |
| core/parameters.hpp, parameter handling mixin and macros | Params, Pretty |
| core/priors.hpp | Prior |
| core/linear_combination.hpp, covariance_functions/{callers, measurement, scaling_function, mean_function, covariance_function}.hpp | Caller, CovMatrix |
| covariance_functions/{radial, distance_metrics, polynomials, noise, nugget, call_trace}.hpp | Radial, Distance, LeafCov, CallTrace, FloatCov |
| covariance_functions/representations.hpp, models/{gp, conditional_gaussian}.hpp, linalg/block_symmetric.hpp | Gp, Equal |
| models/sparse_gp.hpp | SparseGp, Inducing, Shift |
| models/{least_squares, ransac, ransac_gp}.hpp | LeastSquares, Ransac, RansacGeneric, RansacGp |
| evaluation/{cross_validation, cross_validation_utils, folds}.hpp | Folds |
| evaluation/{likelihood, differential_entropy, prediction_metrics, model_metrics}.hpp | Likelihood, Metrics, Score, Wasserstein, ChiSquaredVector, ModelMetrics |
| stats/*.hpp | ChiSquared, Gaussian, Ks |
| eigen/serializable_ldlt.hpp, linalg/{block_diagonal, block_utils}.hpp | Ldlt, BlockLdlt, BlockDiag |
| eigen/serializable_spqr.hpp, cereal/{suitesparse, serializable_spqr}.hpp | SuiteSparse |
| linalg/{qr_utils, spqr_utils, print_eigen_directions}.hpp | Spqr, PrintEigen |
| utils/{async_utils, map_utils, random_utils, csv_utils, eigen_utils, vector_utils}.hpp, details/{error_handling, typecast}.hpp | Async, MapUtils, Random, RandomMatrix, RandomGaussian, Csv, Xml, BlockDiag, TruncatedSolve, Inducing |
| graph/minimum_spanning_tree.hpp | Mst |
| samplers/*.hpp | Samplers, Csv, Tracker |
| tune/*.hpp | Tuning |
| polynomial/chebyshev.hpp | Chebyshev |
| cereal/*.hpp (others), utils/compress.hpp | Cereal, BaseArchive, Compress |

### What is not modelled

* Rounding of floating point arithmetic, except where `double` is represented
  exactly (see the conventions) and in C90, where distances and radial
  covariance functions are computed in binary64 with round to nearest even and
  one NaN (no fused multiply-add, no extended precision). Overflow of `size_t`
  and memory exhaustion.
* The bodies of the external code of the contract table.
* Overload resolution and template errors, except where stated (C50, C54, C55
  model which calls exist; C74 models which types compile).
* core/declarations.hpp, core/keys.hpp, details/method_inspection_macros.hpp and
  details/unused.hpp (declarations only), cereal/evaluation.hpp (empty bodies),
  ModelBase::operator==, the layout of printed text other than CSV files,
  parameter and call trace listings.
* Timing, and the memory model of threads beyond tasks which write disjoint
  results.

### What is partial

* C95: the error of the best polynomial approximation of the density, for
  twenty degrees of freedom or more.

## Findings

`FINDINGS.md` lists the claims that are false of the code, each with a
machine-checked witness. Observations made while reading that are not theorems:

* `operator<<` of JointDistribution prints to `std::cout` instead of its stream.
* CrossValidation `Prediction::get` of a map and of a grouped joint distribution
  have swapped bodies.
* `randint_without_replacement` recurses without end in a release build when
  more draws than choices are requested.
* `block_product` has a template parameter that cannot be deduced.
* `CVPrediction::get` for a map and for a `Grouped` of joint distributions
  have each other's bodies, so neither instantiates.
* `ModelBase::operator==` calls the non-const `get_name` on a const object.
* The lambdas returned by the RANSAC strategy of a GP capture the metric by
  reference, so they must not outlive the strategy.
