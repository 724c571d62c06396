# OpenKalman in Rocq (Coq 8.16.1): design

Source: `/repo` (ogdenc/OpenKalman at the pinned commit), read as text, never built here.
Properties: `properties.jsonl`. Status per property: `MANIFEST.json`. Mutation log: `seeded/LOG.jsonl`.

## 1. Shape of the development

Four "worlds", each using the number system that the property is about.

| world | library | modelled code | axioms |
|---|---|---|---|
| A  real numbers | Coq `Reals` | pattern descriptors (to/from stat space, wrap), scalar math functions | stdlib Reals axioms only |
| B  matrices over an arbitrary real (closed) field | MathComp `matrix`, `ssrnum` | Kalman filter, transforms, sample points, Monte Carlo, covariance arithmetic | none |
| C  discrete | `nat`/`Z`/`list` | mdspan layouts and accessors, collections, pattern comparison and hashing, slices/concatenation, covariance cache state machine | none |
| D  IEEE floats | `Coq.Floats.SpecFloat` (computable Z model of binary64/binary32) | float witnesses for refutations | none |

File naming: `XxxModel.v` holds only definitions (each with a citation of the file and lines it
models and the simplifications made), `XxxSpec.v` the independent specification, `XxxProofs.v` the
lemmas, `XxxProperties.v` only `Theorem ... exact ... Print Assumptions` and `Example`s of non-vacuity.

Convention: when a property is false of the code as written, the theorem `..._refuted` exhibits a
witness, and the largest true fragment is proved next to it; the manifest says "partial".

## 2. Plan per property

| id | modelled | method |
|---|---|---|
| C01-C03, C06 | `wrap`, `to_stat_space` of all descriptors and collections over R; the sign of zero (signbit) is an extra boolean input of the model, since R has one zero | case analysis of fmod; trigonometric periodicity; induction over the collection |
| C04, C05, C10, C11 | `from_stat_space`, atan2/acos/hypot as their mathematical functions (justified by C21, C24) | uniqueness of the angle on [Min,Max) |
| C07, C08, C12, C13 | collection traversal with running offsets | induction over the descriptor list |
| C09, C18 | `fmod` with the out_of_range outcome as `None` | real arithmetic |
| C14, C15, C17 | `compare_three_way` loop with dimension banks | token-list specification, prefix order; induction |
| C16 | hash codes, binary32 arithmetic | SpecFloat witnesses (refuted) |
| C19-C25 | values/math algorithms over R | induction over iterations; real analysis |
| C26, C27, C85, C86 | Angle::wrap, Angle and Spherical from_stat_space, sqrt, hypot in any IEEE binary format (Flocq `binary_float`) | rounding and grid lemmas over the reals; `vm_compute` witnesses for the false parts |
| C28-C32 | two-representation cache with synchronization direction; every operation a transition | refinement to a plain matrix by induction over op lists; refutations by two-step histories |
| C33-C37 | `KalmanFilter::update_step`, `predict`, `update` over realFieldType matrices; `solve`, `LQ` as oracles constrained by hypotheses, existence proved | block-matrix algebra, completion of squares, induction over histories |
| C38-C41 | LinearTransform(Base), TransformBase, IdentityTransform, RLS | big-operator algebra, induction |
| C42-C45 | Unscented, CubaturePoints, SphericalSimplex, ScaledSigmaPointsBase, SamplePointsTransform | block sums; induction over input list |
| C46, C47 | MonteCarloSum monoid | induction over reduction trees |
| C48, C49 | LinearizedTransform second order, FiniteDifferenceLinearization | trace algebra; polynomial identities |
| C78, C79 | GaussianDistribution operator()(), log_likelihood | moments of an affine image; completing the square |
| C80-C82 | exp, expm1, hyperbolic functions and pow over R | power series, Halley's method, real analysis; refutations for int overflow, pow(0,0.) and negative bases |
| C20, C83, C84 | complex functions as pairs of reals | field identities over Coquelicot's C; specification by the complex exponential |
| C50-C52 | GaussianDistribution arithmetic, log-likelihood, covariance arithmetic | matrix algebra; Reals for logs |
| C53 | cholesky_factor and cholesky_square with their shortcuts; LLT and LDLT as oracles | matrix algebra; refutations by small matrices |
| C54, C55, C58 | contract, sum, scalar_product/quotient, reduce, average, trace, determinant, LQ, QR, solve: every compile-time branch, on objects with a stored kind and fixed or dynamic dimensions | comparison with component-wise definitions by case analysis over branches, big operators, triangular systems |
| C56, C57, C87 | concatenate, split, slice, tile, n_ary_operation, chipwise_operation as functions on indices | induction over blocks and arguments |
| C88 | rank_update_triangular and rank_update_hermitian on objects with their static information; Eigen's rank-one update as a contract | induction over the columns of the update, quadratic forms, case analysis of the branches |
| C89 | the claims of the Eigen traits (constant, constant diagonal, triangle, Hermitian, square, sizes) computed over a syntax of Eigen expressions; a semantics of components | induction over expressions: each trait is sound if those of the operands are; one refutation per exclusion |
| C90 | objects with extents, patterns and components; the loops that fill the store of an adapter, writing through an iterator; reading through layout_left | induction over indices: the store holds the columns in order; refutations for overflow, run-time sizes and rank |
| C91 | a memory of buffers; adapters with a buffer and a pointer, copied member by member | invariants over histories against value semantics; refutations |
| C92 | variables that are means; every operation of Mean.hpp wraps its result column by column | induction over histories: range invariant; agreement with the unwrapped history up to whole turns |
| C93 | weighted means of wrapped columns in statistical space, unwrapped deviations | angle addition formulas; uniqueness of representatives in a half-open range; refutation across the limits |
| C95-C97 | exp, expm1, sin, cos and their series loops and range reductions in any IEEE binary format | error of each rounded term and sum against the exact power series; absorption of small terms bounds the number of rounds; multiplicative errors for repeated squaring; `vm_compute` witnesses for the false parts |
| C94 | x + K (wrapped measurement - y), wrapped | the same lemmas; refutation across the limits |
| C98 | Case 4 covariance objects (views that hold their own converted matrix), their default copies, Case 2 views of them and Case 4 views of those; names for objects so that dangling references are undefined behaviour | simulation between the program state and a specification state in which an owner and its views are one value; concrete histories for the refutations |
| C99, C100 | types of patterns (descriptors with constant or run-time dimension, `Any`, tuples, collections of run-time size), the concept compares_with as a function on them, and compare_pattern_collections with its compile-time branches | the run-time comparison of PatCmpModel.v is the reference; induction over the walk through both types, with the banked dimensions as invariant; concrete types for the refutations |
| C101, C102, C103 | strip_1D_tail, largest_pattern, smallest_pattern, the common dimension of a collection and its comparison with a dimension (functions and concepts), uniform patterns and their component, all with their compile-time branches | the specification speaks of the list of dimensions or of descriptors at each place; induction over the collection; concrete collections for the refutations |
| C104, C105 | the adapters of the new interface (constant, diagonal, diagonal_of, triangular, hermitian, transpose, conjugate, pattern) with what their traits claim (constant, diagonal constant, triangle, hermitian, square), and make_constant, diagonal_of, to_diagonal, conjugate, transpose, conjugate_transpose, to_triangular, to_hermitian, attach_patterns with their compile-time shortcuts | objects denote sizes and components; structural induction over adapters for the claims; each function by cases on the argument; concrete objects for the refutations |
| C106, C107, C108 | copy_from (generic path) from any view, which may read the destination's own buffer; Eigen's comma initializer and the ones for means, diagonal matrices and covariances over one or more statements, with assertions on or off, and fill_components; set_triangle on dense, generic, triangular, Hermitian and diagonal objects; outcomes are done, stopped by an assertion, or undefined | an invariant over the nested loops; induction over the list of blocks and over the list of values; structural induction over adapters; concrete calls for the refutations |
| C109, C110 | expressions of Eigen's tensor module with any number of indices: constants, diagonal and Hermitian matrices, component-wise operations, contractions over any list of index pairs, with Eigen's meaning of a contraction as a sum over all contracted indices; the traits' claims with a separate outcome for a read outside an array; stored tensors as an array with dimensions and an order of storage | structural induction with an invariant that joins both claims (an expression called constant and diagonal is zero); the offset is a bijection between indices in range and the array, by induction over the dimensions; concrete expressions for the refutations |
| C111 | log_impl (Halley's iteration with the library's own exp), the scaling by powers of two and log's case analysis over Flocq's binary floats; loops carry a bound on their rounds, and running out of it is an outcome of its own | the step 2(x - exp y)/(x + exp y) lies between 0 and ln x - y (mean value theorem); rounding errors of one round bounded by 17 units; iterates are strictly monotone until the loop stops, and two floats differ by at least the least positive number, so it stops; the error of the scaling grows with the square of the exponent; concrete computation for the refutation |
| C112 | the six functions over Flocq's binary floats, calling the models of exp (C95), log (C111) and sqrt (C86) | error propagation through the closed formulas: reciprocal, quotient, root and logarithm of an approximation; the hypotheses bound the argument so that no intermediate result overflows; concrete computation for the refutations |
| C113 | repeated squaring as structural recursion on the binary exponent, and pow's case analysis for both kinds of exponent, over Flocq's binary floats, calling the models of exp and log | n - 1 roundings for n factors: products of factors 1 + u, by induction on the exponent; for exponents of floating type, error propagation through log, product and exp; concrete computation for the refutations |
| C114 | near for real, complex, int and unsigned arguments, and the three-way comparison built on it, over Flocq's binary floats of any format and over Z with overflow as undefined behaviour or modulo 2^32 | monotonicity of rounding for completeness; relative error of one subtraction for soundness, of five operations for complex numbers; numbers from 4 on as multiples of 4 epsilon; concrete computation for the refutations |
| C115 | log1p's case analysis and Taylor's series over Flocq's binary floats, calling the models of log's scaling and iteration | away from zero log1p(x) runs as log does for the rounded 1 + x, whose relative error moves the logarithm by little more than one unit; the series follows the general error bound for terms with rounded ratios, and tiny arguments come back unchanged |
| C59-C64 | layouts and accessors as index functions | nat arithmetic (nia/lia), induction |
| C65-C67 | collection views, comparison | list induction |
| C68 | PatModel over the reals | trigonometric identities, induction over collections |
| C69-C70 | covariance arithmetic, concatenate and split as block matrices | matrix algebra |
| C71-C72 | chains of transforms, identity and RLS transforms | matrix algebra, induction over the chain |
| C73-C75 | sample-point transforms for arbitrary functions, filters over histories | weighted sums, induction over histories |
| C76 | equality of layout mappings | case analysis, refutation |
| C77 | transposed pattern collections, by every access path | list induction, refutation |

Nothing is planned as "not applicable"; what cannot be carried (rounding error bounds in general,
compile-time concept satisfaction, memory lifetime) is named in section 4.

## 3. Trusted base

* Coq 8.16.1 kernel (and `vm_compute`).
* `Print Assumptions` output: section 6, one entry per theorem.  World A theorems rest on the
  axioms of the standard library's `Reals` (`ClassicalDedekindReals.sig_forall_dec`,
  `sig_not_dec`, `FunctionalExtensionality.functional_extensionality_dep`); theorems that use the
  reals as a MathComp field (`RealField.v`) add the standard library's
  `ClassicalEpsilon.constructive_indefinite_description` and `Classical_Prop.classic`; everything
  else is closed.  No axiom of another library and none of our own is used.
* The reading of the C++ source documented in the comment over each definition.
* Contracts of external algorithms.  Eigen's LLT, QR, rank update and linear solver, as the
  library calls them, are record fields (`LibModel.v`: `lib`) and appear in theorem statements as
  an explicit hypothesis `lib_ok L` (LLT returns the lower-triangular factor with positive
  diagonal of a positive definite matrix and fails otherwise; LQ returns a lower-triangular L with
  L L^T = A A^T; rank update returns a factor of the updated matrix when that has one; solve
  inverts an invertible matrix).  `lrank_strict` (SigmaModel) and `solver_ok` (KalmanSpec) are the
  two additional contracts.  Instances meeting each contract are constructed, so none is vacuous.

## 4. Not modelled

* Template machinery (which overload is selected) except where it selects between modelled branches.
* Rounding, except in world D; worlds A and B are exact arithmetic.
* Complex scalars in world B (conjugate transpose is modelled as transpose).
* Eigen internals, see section 3, except where the library's own use of them is the subject (C53).
* Object lifetime, aliasing by reference except where C32 and C91 model it; moved-from objects.
* Covariance views of views ("case 4": a view of a cached nested matrix that is itself a view).
* The upper-triangular mirror images of the lower-triangular code in the Kalman and sigma-point
  models (square roots are lower triangular there).
* `KalmanFilter` with a single transform: its `operator()` (l.114-124) names members that do not
  exist and does not compile.  `tuple_slice`, used by the sample-point transform, is not defined
  anywhere in the repository; the intended slice is modelled.
* Angular means in the sample-point transforms: in `SigmaModel.v` the patterns are Euclidean; `MeanModel.v` has the
  angular means and deviations without the decompositions.
* Overflow of `std::size_t` in layouts.

## 5. What each model file covers

| file | code |
|---|---|
| `PatModel.v` | patterns/descriptors (Dimensions, Distance, Angle, Inclination, Polar, Spherical) and patterns/functions: to_stat_space, from_stat_space, wrap, get/set_wrapped_component |
| `LibModel.v`, `MatBase.v` | external algorithms as used by eigen-library-interface.hpp |
| `CovModel.v`, `SqrtModel.v`, `ViewModel.v` | linear-algebra covariance classes: cached nested matrix, synchronisation, square roots, views |
| `View4Model.v` | CovarianceBase4 views of Case 1 owners, copies and moves of them, CovarianceBase2 views of CovarianceBase4 views, and CovarianceBase4 views of those, with lifetimes. Not modelled: Case 4 made from Case 3 or Case 4 (pure aliases), const views, rvalue conversions |
| `GaussModel.v`, `KalmanModel.v` | GaussianDistribution, covariance arithmetic, LinearTransform, TransformBase, KalmanFilter, IdentityTransform, RecursiveLeastSquaresTransform |
| `SigmaModel.v`, `SimplexModel.v` | Unscented, CubaturePoints, SphericalSimplex, ScaledSigmaPointsBase, SamplePointsTransform |
| `StlModel.v`, `StlStatic.v` | interfaces/stl layouts and accessors, the view adapters, make_constant, packed triangles; is_always_unique, is_always_exhaustive, is_always_strided of each layout |
| `MeanModel.v` | adapters/Mean.hpp (constructors, assignments, arithmetic), typed-matrix-arithmetic.hpp on means, SamplePointsTransform.hpp l.127-160 and KalmanFilter.hpp l.40-78 with angular patterns |
| `StatModel.v` | to_stat_space_adapter.hpp, from_stat_space_adapter.hpp, functions/to_stat_space.hpp, from_stat_space.hpp, wrap_angles.hpp (default branch), range_of.hpp, access.hpp on them; copies of the adapters |
| `MonteModel.v`, `MonteAngleModel.v` | transforms/MonteCarloTransform.hpp: the sum record, zero, one, the binary operation and the reduction as an arbitrary binary tree over a permutation of the draws and the initial value. Draws are inputs; the shared random engine, and with it the data race of drawing from one engine under `par_unseq`, is not modelled. The input's coefficients are Euclidean |
| `LinzModel.v` | transformations/FiniteDifferenceLinearization.hpp: jac_term, h_j, h_term (with the argument changed in place and the visiting order as a parameter), jacobian, hessian; transforms/LinearizedTransform.hpp: second_order_term, add_correction; transforms/details/LinearTransformBase.hpp: sum_noise_terms, transform. Euclidean coefficients (no wrapping of differences), exact arithmetic; all noise terms of one dimension; orders one and two. Not modelled: a transformation that throws in mid-evaluation (it leaves the caller's argument changed). |
| `LogLikModel.v` | distributions/GaussianDistribution.hpp: log_likelihood, entropy, operator()() (the standard normal numbers are an argument); linear-algebra/adapters/details/CovarianceImpl.hpp: determinant (current nested matrix). Real numbers; None when the determinant is not positive. |
| `MathModel.v` | values/math: fmod, sqrt, abs, hypot, pow, exp, expm1, sin, cos, tan, sinh, cosh, tanh, asin, acos, atan, log, log1p, asinh, acosh, atanh and internal/{exp_utils, periodic_utils, asin_utils, math_utils, log_utils}.hpp, for real arguments: the code run in constant evaluation. Exact real arithmetic; a loop that runs until two successive values agree returns the limit of its values; integer ranges, undefined conversions, exceptions, not-a-number and infinities are kept; signed zeros and infinite arguments for atan2 only. |
| `CMathModel.v` | the complex branches of values/math: sqrt, exp, expm1, log, log1p, sinh, cosh, tanh, sin, cos, tan, asin, acos, atan, atan2, asinh, acosh, atanh, hypot, pow. Exact arithmetic; a complex result with a component that is not a finite number is one outcome; infinite and NaN arguments not modelled. |
| `RealField.v` | makes the standard library's real numbers an instance of MathComp's real closed fields (no model; a library file) |
| `CollModel.v` | collections views (concat, slice, replicate, generate, iota, repeat, reverse, from_tuple, from_range, transpose of patterns), tuple_flatten, lexicographical_compare_three_way, compare_indices |
| `PatCmpModel.v` | patterns compare_three_way, compare, compare_pattern_collections and the descriptors' hash codes |
| `PatStaticModel.v` | patterns/concepts compares_with, collection_compares_with; values size_compares_with; compare_pattern_collections with compile-time branches; not unbounded collections |
| `PatUseModel.v` | patterns: strip_1D_tail, largest_pattern, smallest_pattern, get_common_pattern_collection_dimension, compare_collection_patterns_with_dimension, collection_patterns_have_same_dimension, get_uniform_pattern_component, is_uniform_pattern_component_of, uniform_pattern, common_descriptor_type; not collections without a size |
| `AdaptModel.v` | linear-algebra/adapters: constant_adapter, to_diagonal_adapter, diagonal_of_adapter, triangular_adapter, hermitian_adapter, transpose_adapter, conjugate_adapter, pattern_adapter with their traits; functions make_constant, make_constant_diagonal, diagonal_of, to_diagonal, conjugate, transpose, conjugate_transpose, to_triangular, to_hermitian, attach_patterns; not value categories, and not library-specific overloads |
| `TensModel.v` | linear-algebra/interfaces/eigen-tensor: traits of TensorCwiseNullaryOp, TensorCwiseUnaryOp, TensorCwiseBinaryOp, TensorContractionOp; get_component, set_component, make_ix_array of the library interface for Tensor. Not modelled: fixed sizes as part of a type, triangle types, TensorMap, TensorRef, TensorReductionOp and the remaining functions of the interface |
| `WriteModel.v` | functions/copy_from.hpp (not library-specific copies), Eigen::CommaInitializer, interfaces/eigen/details/eigen-comma-initializers.hpp (the conversion to a covariance is a parameter), operator<< of EigenAdapterBase.hpp, functions/fill_components.hpp with may_hold_components.hpp, functions/internal/set_triangle.hpp with the Eigen overloads |
| `FloatModel.v` | fmod, sqrt, signbit, copysign, hypot (two arguments), Angle/Polar wrap_phi_mod and wrap_phi, Angle from_stat_space after atan2, Spherical from_stat_space, in IEEE binary formats with round to nearest even; limits in a second, wider format. No fused operations, no excess precision; atan2 and acos are not modelled in floating point; for exp, expm1, sin and cos see `FserModel.v` (acos is a parameter with a contract) |
| `FserModel.v` | values/math exp, expm1, sin, cos for real arguments of the returned type, with exp_impl, integral_exp, sin_cos_impl and scale_periodic_function, in the formats of `FloatModel.v`. int has 32 bits and intmax_t 64. e_v and pi_v are parameters within half a unit in the last place of e and pi. The branches that call a constexpr standard library function are not modelled |
| `FlogModel.v` | values/math/log.hpp and internal/log_utils.hpp for real arguments of the returned type, in the formats of `FloatModel.v` with at least 24 bits of precision. ln2_v is a parameter within one unit in the last place of ln 2. Complex arguments and the branch that calls a constexpr standard library function are not modelled |
| `FhypModel.v` | values/math/sinh.hpp, cosh.hpp, tanh.hpp, asinh.hpp, acosh.hpp and atanh.hpp for real arguments of the returned type, in the formats of `FlogModel.v`. Complex arguments and the branch that calls a constexpr standard library function are not modelled |
| `FpowModel.v` | values/math/pow.hpp for real arguments of the returned type and exponents of type int or of the type of the base, in the formats of `FlogModel.v`. Complex arguments, other integral types and the branch that calls a constexpr standard library function are not modelled |
| `NearModel.v` | values/functions/internal/near.hpp for arguments and tolerance of one floating type (real or complex), of type int and of type unsigned int, and compare_three_way_near of values/concepts/fixed_value_compares_with.hpp. Fixed values, arguments of different types and the parameter comp are not modelled |
| `Flog1pModel.v` | values/math/log1p.hpp for real arguments of the returned type, in the formats of `FlogModel.v`. Complex arguments, overflow of the counter of the series and the branch that calls a constexpr standard library function are not modelled |
| `ShortModel.v` | the compile-time branches of contract, reduce, average_reduce, trace, determinant, sum, scalar_product, scalar_quotient, LQ/QR_decomposition and solve. An object is its stored kind (constant, constant diagonal, diagonal, triangular, hermitian, dense), its dimensions and which of them are fixed; the library's product, determinant and reduction are their mathematical definitions, its LQ decomposition and solver are oracles with contracts (instances exist: `lq_library_exists`, `solve_library_exists`). Not modelled: index descriptors other than plain dimensions, tensors of rank above two, complex components. |
| `LdltModel.v` | cholesky_factor (its shortcuts and Eigen's LLT with the LDLT fallback) and cholesky_square, on the objects of `ShortModel.v`. LLT and LDLT are oracles with contracts (instances exist: `decompositions_exist`). The call of a member `conjugate_transpose()`, which Eigen does not have, is read as `adjoint()`. Not modelled: rounding, the constant nested matrix inside a hermitian adapter (same formula as the constant branch). |
| `TileModel.v` | set_slice, get_slice, set_chip, get_chip, tile, concatenate and split on arrays of any rank (dimensions and a function from index lists to components; a component never written is distinct). The recursion of tile has a fuel argument, so divergence is an outcome. At this commit concatenate does not compile for triangular arguments (triangle_type_of_v with several arguments); the evident reading is modelled, and the branch for diagonal arguments (diagonal_of with several arguments) is left out. Not modelled: patterns (only dimensions), vector-space types of the result. |
| `NaryModel.v` | n_ary_operation with given dimensions, with the dimensions of the arguments, and with one or several operations without arguments; unary_operation_in_place; chipwise_operation. Operations have a state (so the order and number of calls is visible) except the several operations without arguments; patterns are plain dimensions; operations either take the indices or do not. Nested loops are the sequence of their innermost bodies. A library's own n-ary operation is a flag: without arguments it evaluates lazily, with arguments that branch does not compile. randomize, which is built on n_ary_operation, is not modelled here. |
| `RankModel.v` | rank_update_triangular, rank_update_hermitian and the column loop of the Eigen interface, on the objects of `ShortModel.v`, real scalars. Eigen's rank-one update of a factor, LQ, LLT and LDLT are parameters with contracts (`RankSpec.v`, `ShortSpec.v`, `LdltSpec.v`); `the_rank` is an instance. Not modelled: whether the argument is changed in place, complex scalars (the 1x1 branch tests the wrong trait there), typed matrices and covariances. |
| `XprModel.v` (syntax and meaning of Eigen expressions: `XprEigen.v`) | linear-algebra/interfaces/eigen/traits/*.hpp and functors/{unary,binary,nullary,redux,functor_composition}.hpp, with the concepts constant_object, constant_diagonal_object, triangular_matrix, diagonal_matrix, hermitian_matrix, square_shaped, zero, vector and linear-algebra/enumerations.hpp. Exact complex scalars. At this commit the traits do not compile against the core: constant_value {x} is read as the constant of x or none, a triangle trait given as a predicate and as a value as the same thing, and the extra `>` in Diagonal.hpp is ignored. Not modelled: infinities (inverse and rsqrt of 0), shift functors, pow and lpnorm functors, PermutationMatrix, IndexedView, Homogeneous, Solve, Inverse (no claims) |

## 6. Print Assumptions, theorem by theorem

Generated from the build.

* `PatProperties.v`
  - `ClassicalDedekindReals.sig_forall_dec`, `ClassicalDedekindReals.sig_not_dec`, `FunctionalExtensionality.functional_extensionality_dep`: `wrap_in_range`, `wrap_idempotent`, `wrap_preserves_point`, `to_stat_encodes_position`, `to_stat_on_manifold`, `to_stat_total`
  - `ClassicalDedekindReals.sig_forall_dec`, `FunctionalExtensionality.functional_extensionality_dep`: `wrap_fixes_range`, `wrap_angle_outcomes`, `wrap_inclination_outcomes`, `wrap_polar_outcomes`, `wrap_spherical_returns`
  - `ClassicalDedekindReals.sig_forall_dec`, `ClassicalDedekindReals.sig_not_dec`, `Classical_Prop.classic`, `FunctionalExtensionality.functional_extensionality_dep`: `from_to_is_wrap`, `to_from_normalises`, `to_from_identity_on_manifold`, `wrap_is_canonical`, `collections_componentwise`, `concatenated_patterns`, `from_stat_dynamic_cxx23_refuted`, `euclidean_transparent`, `angle_from_stat_upper_limit_refuted`, `angle_from_stat_range_partial`, `angle_from_stat_closed_range_partial`, `from_stat_in_range`, `spherical_from_stat_canonical`, `any_transparent`, `conversion_lengths`, `from_stat_total`
  - closed under the global context (no axioms): `dimensions_additive`
* `CovProperties.v`
  - closed under the global context (no axioms): `covariance_history`, `covariance_self_adjoint_form`, `covariance_negative_scalar_refuted`, `covariance_assignment_refuted`, `covariance_assignment_partial`, `covariance_rank_update`, `covariance_rank_update_self_adjoint`, `square_root_history`, `square_root_triangular_form`, `square_root_negative_scalar_refuted`, `view_coherence_partial`, `view_coherence_refuted`
* `KalmanProperties.v`
  - closed under the global context (no axioms): `kalman_gain_normal_equations`, `kalman_update_step`, `kalman_update_step_total`, `kalman_update_optimal`, `kalman_history_sound`, `kalman_history_dense`, `kalman_history_cholesky`, `kalman_branches_agree`, `kalman_perfect_measurement_refuted`, `kalman_cycle`, `kalman_information_form`, `kalman_order_independent`, `kalman_stacked`, `linear_transform_moments`, `linear_transform_moments_dense`, `consecutive_transforms`, `consecutive_transforms_product`, `consecutive_cross_covariance_refuted`, `consecutive_cross_covariance_partial`, `identity_transform_moments`, `rls_transform_moments`, `identity_transforms_refuted`, `identity_transforms_partial`, `recursive_least_squares`, `covariance_sum`, `covariance_difference`, `covariance_scalar_product`, `covariance_scalar_quotient`, `covariance_scale`, `gaussian_arithmetic`, `gaussian_add_laws`, `gaussian_subtraction_partial`, `gaussian_difference_refuted`, `concatenate_split`, `split_marginals_partial`, `split_marginals_refuted`, `square_root_times_scalar_refuted`
* `SigmaProperties.v`
  - closed under the global context (no axioms): `unscented_points_moments`, `cubature_points_moments`, `unscented_transform_moments`, `cubature_transform_moments`, `unscented_transform_returns`, `unscented_affine_exact`, `unscented_affine_returns`, `cubature_affine_exact`, `sample_points_agree_with_linear`, `unscented_covariance_psd`, `cubature_covariance_psd`, `unscented_chain`, `cubature_chain`, `unscented_filter_is_kalman`, `cubature_filter_is_kalman`, `sample_point_filter_returns`, `unscented_singular_refuted`, `sample_point_chain_cross_refuted`, `unscented_negative_variance_refuted`
* `SimplexProperties.v`
  - closed under the global context (no axioms): `simplex_points_refuted`
* `StlProperties.v`
  - closed under the global context (no axioms): `layout_span_partial`, `identity_span_refuted`, `wide_triangle_span_refuted`, `unique_claim_partial`, `exhaustive_claim_partial`, `strided_claim_partial`, `to_diagonal_unique_refuted`, `to_diagonal_exhaustive_refuted`, `triangle_strided_refuted`, `triangle_exhaustive_refuted`, `diagonal_of_stride_refuted`, `view_read_partial`, `to_diagonal_read_partial`, `diagonal_of_read_partial`, `diagonal_of_to_diagonal_partial`, `transpose_read_partial`, `transpose_twice_partial`, `triangular_read_partial`, `hermitian_read_partial`, `hermitian_symmetric_partial`, `hermitian_of_constant_diagonal_refuted`, `nested_triangle_refuted`, `packed_triangle_square`, `packed_triangle_wide_large`, `packed_triangle_tall_refuted`, `offset_law_partial`, `offset_law_zeros_partial`, `offset_law_refuted`, `mapping_equality_refuted`, `mapping_equality_partial`
* `StlStaticProperties.v`
  - closed under the global context (no axioms): `always_unique_claims`, `always_exhaustive_claims`, `always_strided_claims`, `always_unique_sound`, `always_exhaustive_refuted`, `always_strided_refuted`, `always_exhaustive_transpose_refuted`
* `CollProperties.v`
  - closed under the global context (no axioms): `collection_views`, `complementary_slices`, `slice_of_concat`, `nested_views`, `flatten_leaves`, `lex_compare_spec`, `lex_compare_order`, `lex_compare_views`, `compare_indices_spec`, `transposed_patterns_partial`, `transposed_index_refuted`
* `PatCmpProperties.v`
  - closed under the global context (no axioms): `pattern_equivalence_partial`, `pattern_equivalence_reflexive`, `pattern_equivalence_symmetric`, `pattern_equivalence_transitive_partial`, `pattern_transitivity_refuted`, `pattern_any_consolidation_refuted`, `pattern_empty_refuted`, `pattern_unbounded_reflexive_refuted`, `pattern_order_partial`, `pattern_order_swap`, `pattern_order_transitive_partial`, `pattern_order_descriptor_refuted`, `pattern_order_unbounded_refuted`, `pattern_order_two_unbounded_refuted`, `distinct_descriptors_refuted`, `dimension_hash_refuted`, `distinct_dimensions`, `distinct_inclinations_partial`, `distance_not_inclination_partial`, `pattern_collections_spec`, `trailing_one_dimensional`, `trailing_one_dimensional_refuted`, `collections_equivalence_reflexive`, `collections_equivalence_symmetric`, `collections_equivalence_transitive_partial`
* `PatStaticProperties.v`
  - closed under the global context (no axioms): `guaranteed_comparison_partial`, `permitted_comparison_partial`, `permitted_strict_comparison_partial`, `constant_comparison`, `guaranteed_equivalence_refuted`, `compile_time_symmetry_refuted`, `permitted_less_refuted`, `guaranteed_descriptor_refuted`, `guaranteed_zero_refuted`, `size_comparison`, `compare_collections_partial`, `compare_collections_refuted`
* `PatUseProperties.v`
  - closed under the global context (no axioms): `strip_1D_tail_correct`, `largest_pattern_correct`, `smallest_pattern_correct`, `common_dimension_partial`, `compare_with_dimension_partial`, `dimension_concepts_partial`, `dimension_refuted`, `uniform_component_found_partial`, `uniform_component_none_partial`, `is_uniform_component_partial`, `uniform_concept_partial`, `uniform_refuted`
* `MonteProperties.v`
  - closed under the global context (no axioms): `montecarlo_any_schedule`, `montecarlo_schedule_independent`, `montecarlo_single_draw`, `montecarlo_angular_mean_partial`
  - `ClassicalDedekindReals.sig_forall_dec`, `ClassicalDedekindReals.sig_not_dec`, `ClassicalEpsilon.constructive_indefinite_description`, `Classical_Prop.classic`, `FunctionalExtensionality.functional_extensionality_dep`: `montecarlo_angular_covariance_refuted`
* `LinzProperties.v`
  - closed under the global context (no axioms): `finite_difference_jacobian_exact`, `finite_difference_jacobian_even`, `finite_difference_hessian_exact`, `finite_difference_hessian_symmetric`, `finite_difference_argument_restored`, `finite_difference_order_independent`, `finite_difference_zero_delta`, `linearized_second_order`, `second_order_correction_psd`, `linearized_first_order`, `linearized_exact_mean`, `linearized_exact_moments`, `linearized_interaction_refuted`
* `LogLikProperties.v`
  - `ClassicalDedekindReals.sig_forall_dec`, `ClassicalDedekindReals.sig_not_dec`, `ClassicalEpsilon.constructive_indefinite_description`, `Classical_Prop.classic`, `FunctionalExtensionality.functional_extensionality_dep`: `log_likelihood_density`, `log_likelihood_permutation`, `log_likelihood_cat`, `log_likelihood_singular`, `entropy_is_mean_log_density`, `log_likelihood_maximum`, `draws_have_moments`
* `MathProperties.v`
  - `ClassicalDedekindReals.sig_forall_dec`, `FunctionalExtensionality.functional_extensionality_dep`: `fmod_remainder`, `fmod_out_of_range`, `pow_integer`, `pow_zero`, `pow_lowest_refuted`
  - `ClassicalDedekindReals.sig_forall_dec`, `ClassicalDedekindReals.sig_not_dec`, `FunctionalExtensionality.functional_extensionality_dep`: `sqrt_iterates`, `sqrt_correct`, `hypot_norm`, `hypot_scales`, `exp_integer`, `range_reduction`, `range_reduction_limit_refuted`, `sin_cos_tan`, `atan2_origin`, `exponentials`, `exp_defined_refuted`
  - `ClassicalDedekindReals.sig_forall_dec`, `ClassicalDedekindReals.sig_not_dec`, `Classical_Prop.classic`, `FunctionalExtensionality.functional_extensionality_dep`: `inverse_trig`, `atan2_angle`, `atan2_infinities`, `log_scaling`, `log_exact`, `inverse_hyperbolic`, `pow_real`, `pow_agree_refuted`
* `CMathProperties.v`
  - `ClassicalDedekindReals.sig_forall_dec`, `ClassicalDedekindReals.sig_not_dec`, `FunctionalExtensionality.functional_extensionality_dep`: `complex_sqrt`, `complex_exponentials`, `complex_trigonometric`, `complex_pow_integer`, `complex_hypot`
  - `ClassicalDedekindReals.sig_forall_dec`, `ClassicalDedekindReals.sig_not_dec`, `Classical_Prop.classic`, `FunctionalExtensionality.functional_extensionality_dep`: `complex_logarithm`, `complex_inverses`, `complex_pow`, `complex_atan2_tangent_partial`, `complex_atan2_quadrant_refuted`
* `FloatProperties.v`
  - `ClassicalDedekindReals.sig_forall_dec`, `ClassicalDedekindReals.sig_not_dec`, `Classical_Prop.classic`, `FunctionalExtensionality.functional_extensionality_dep`: `wrap_symmetric_partial`, `wrap_positive_partial`, `wrap_half_open_refuted`, `from_stat_symmetric`, `from_stat_positive_partial`, `sqrt_accuracy`, `sqrt_returns`, `sqrt_faithful`, `hypot_accuracy`, `spherical_returns`, `hypot_at_least`, `spherical_finite_partial`, `wrap_degrees`, `wrap_positive_degrees`, `wrap_positive_degrees_refuted`, `wrap_large_refuted`, `wrap_throws_refuted`, `from_stat_positive_refuted`, `from_stat_degrees`, `sqrt_denormal_refuted`, `sqrt_of_square_refuted`, `spherical_finite_refuted`
* `ShortProperties.v`
  - closed under the global context (no axioms): `contract_partial`, `contract_refuted`, `scalar_product_partial`, `scalar_quotient_partial`, `scalar_product_refuted`, `reduce_partial`, `reduce_plus_partial`, `reduce_plus_refuted`, `reduce_times_rows_partial`, `reduce_times_columns_partial`, `reduce_times_refuted`, `reduce_all_plus`, `reduce_all_times_partial`, `reduce_all_other`, `average_reduce_partial`, `average_all_correct`, `average_reduce_refuted`, `reduce_order_partial`, `trace_partial`, `trace_refuted`, `determinant_partial`, `determinant_refuted`, `sum_partial`, `LQ_partial`, `QR_partial`, `lq_library_exists`, `LQ_refuted`, `QR_refuted`, `solve_partial`, `solve_constant_partial`, `solve_library_exists`, `solve_singular_diagonal_refuted`, `solve_shape_refuted`, `solve_unique_refuted`
* `LdltProperties.v`
  - closed under the global context (no axioms): `decompositions_exist`, `cholesky_shortcut_partial`, `cholesky_definite_partial`, `cholesky_singular_partial`, `cholesky_indefinite_partial`, `cholesky_singular_refuted`, `cholesky_upper_refuted`, `cholesky_indefinite_refuted`, `cholesky_negative_refuted`, `cholesky_failure_refuted`
* `TileProperties.v`
  - closed under the global context (no axioms): `set_slice_writes`, `set_slice_loops`, `set_slice_range_unchecked`, `set_slice_get_slice`, `get_slice_exactly_when`, `get_slice_rows_refuted`, `get_slice_columns_refuted`, `get_chip_column`, `get_chip_row_refuted`, `get_slice_leading_refuted`, `set_chip_row`, `set_chip_column`, `tile_regular_partial`, `tile_incomplete_refuted`, `tile_single_ignores_dimensions`, `tile_empty_block_refuted`, `tile_terminates_refuted`, `concatenate_along_partial`, `concatenate_first_of_three_refuted`, `concatenate_new_index_refuted`, `concatenate_near_constants_refuted`, `concatenate_diagonal_blocks`, `concatenate_hermitian_refuted`, `split_slices_partial`, `split_too_large`, `split_concatenate_diagonal_partial`, `split_concatenate_columns_partial`, `concatenate_split_column_partial`, `split_concatenate_rows_refuted`
* `NaryProperties.v`
  - closed under the global context (no axioms): `n_ary_each_once_partial`, `n_ary_values_partial`, `n_ary_mismatch_reported`, `n_ary_indices_single_refuted`, `n_ary_library_refuted`, `n_ary_constants_once`, `n_ary_auto_values_partial`, `n_ary_auto_dynamic_checked`, `n_ary_auto_fixed_refuted`, `n_ary_auto_order_refuted`, `unary_in_place_each_once`, `unary_in_place_result_refuted`, `nullary_each_operation_partial`, `nullary_element_order_refuted`, `chipwise_values_partial`, `chipwise_columns`, `chipwise_rows_refuted`, `chipwise_replication_refuted`, `nullary_chipwise_values_partial`
* `RankProperties.v`
  - closed under the global context (no axioms): `rank_one_exists`, `rank_update_triangular_partial`, `rank_update_succeeds_partial`, `rank_update_undone`, `rank_update_hermitian_value`, `rank_update_mismatch_partial`, `rank_update_zero_refuted`, `rank_update_mismatch_refuted`
* `XprProperties.v`
  - `ClassicalDedekindReals.sig_forall_dec`, `ClassicalDedekindReals.sig_not_dec`, `Classical_Prop.classic`, `FunctionalExtensionality.functional_extensionality_dep`: `expression_constant_partial`, `expression_constant_diagonal_partial`, `expression_triangle_partial`, `expression_hermitian_partial`, `ordinary_expression_claims`, `expression_sizes`, `zero_operand_refuted`, `constant_product_diagonal_refuted`, `number_comparison_refuted`, `logical_or_refuted`, `replicate_triangle_refuted`, `replicate_hermitian_refuted`, `reverse_diagonal_refuted`, `product_identity_refuted`, `unit_triangle_refuted`, `complex_hermitian_refuted`, `reduction_function_refuted`, `reduction_single_refuted`, `reshape_hermitian_refuted`
  - closed under the global context (no axioms): `triangle_operations`, `triangle_match`
* `StatProperties.v`
  - `ClassicalDedekindReals.sig_forall_dec`, `ClassicalDedekindReals.sig_not_dec`, `Classical_Prop.classic`, `FunctionalExtensionality.functional_extensionality_dep`: `to_stat_space_columns`, `from_stat_space_columns`, `to_stat_space_returns_partial`, `from_stat_space_returns_partial`, `wrap_angles_columns_partial`, `to_stat_space_single_refuted`, `to_stat_space_dynamic_refuted`, `from_stat_space_dynamic_refuted`
  - `ClassicalDedekindReals.sig_forall_dec`, `ClassicalDedekindReals.sig_not_dec`, `FunctionalExtensionality.functional_extensionality_dep`: `to_stat_space_rank_refuted`
  - closed under the global context (no axioms): `views_without_copies_partial`, `copies_without_changes_partial`, `copy_outlives_refuted`, `move_outlives_refuted`, `write_to_copy_refuted`, `assignment_refuted`
* `MeanProperties.v`
  - `ClassicalDedekindReals.sig_forall_dec`, `ClassicalDedekindReals.sig_not_dec`, `Classical_Prop.classic`, `FunctionalExtensionality.functional_extensionality_dep`: `wrapping_returns`, `means_stay_in_range_partial`, `means_stay_in_range_refuted`, `when_wrapped_partial`, `when_wrapped_halves_refuted`, `when_wrapped_distances_refuted`, `sample_mean_direction`, `sample_mean_rotates`, `sample_mean_balanced`, `sample_turns_do_not_matter`, `sample_covariance_rotates_partial`, `sample_covariance_rotates_refuted`, `updated_mean_in_range`, `measurement_turns_do_not_matter`, `update_rotates_partial`, `update_rotates_refuted`
* `FserProperties.v`
  - `ClassicalDedekindReals.sig_forall_dec`, `ClassicalDedekindReals.sig_not_dec`, `Classical_Prop.classic`, `FunctionalExtensionality.functional_extensionality_dep`: `exp_accurate_partial`, `exp_special`, `expm1_accurate_partial`, `sin_accurate_partial`, `cos_accurate_partial`, `sin_cos_special`, `exp_double`, `sin_cos_double`, `exp_underflow_refuted`, `exp_large_refuted`, `expm1_sign_refuted`, `cos_range_refuted`, `sin_large_refuted`, `sin_overflow_refuted`, `sin_turns_refuted`
* `View4Properties.v`
  - closed under the global context (no axioms): `views_of_self_adjoint_partial`, `views_of_triangular_partial`, `view_copy_refuted`, `view_of_view_refuted`, `view_of_view_after_read`, `view_sign_refuted`
* `AdaptProperties.v`
  - closed under the global context (no axioms): `adapter_claims_partial`, `make_constant_gives`, `make_constant_diagonal_gives`, `diagonal_of_gives`, `to_diagonal_gives`, `to_diagonal_square_gives`, `conjugate_gives`, `transpose_gives_partial`, `conjugate_transpose_gives_partial`, `to_triangular_gives`, `to_hermitian_gives`, `attach_patterns_gives`, `transpose_of_later_index_claims_refuted`, `transpose_of_later_index_refuted`, `conjugate_constant_refuted`, `square_in_one_index_refuted`, `attached_size_refuted`
* `WriteProperties.v`
  - closed under the global context (no axioms): `copy_from_partial`, `copy_from_elsewhere_partial`, `copy_transpose_in_place_refuted`, `copy_larger_source_refuted`, `copy_smaller_source_refuted`, `matrix_from_list`, `mean_from_list_partial`, `diagonal_from_list_partial`, `matrix_from_values`, `fill_components_partial`, `fill_components_too_few`, `mean_in_two_statements_refuted`, `diagonal_in_two_statements_refuted`, `diagonal_of_run_time_size_refuted`, `fill_components_count_refuted`, `set_triangle_partial`, `set_triangle_dense`, `generic_set_triangle_refuted`, `generic_lower_corner_refuted`, `generic_tall_refuted`, `hermitian_other_triangle_refuted`
* `TensProperties.v`
  - `ClassicalDedekindReals.sig_forall_dec`, `ClassicalDedekindReals.sig_not_dec`, `Classical_Prop.classic`, `FunctionalExtensionality.functional_extensionality_dep`: `tensor_constant_partial`, `tensor_diagonal_partial`, `tensor_hermitian_partial`, `contraction_of_constants`, `contraction_of_constants_exact`, `square_matrix_product`, `matrix_product_constant_refuted`, `matrix_vector_product_refuted`, `outer_product_refuted`, `two_pairs_refuted`, `zero_minus_refuted`, `product_of_constants_refuted`, `imaginary_multiple_refuted`
  - closed under the global context (no axioms): `component_read_back`, `component_place`, `component_places_are_all`, `component_index_count`, `component_out_of_range_refuted`
* `FlogProperties.v`
  - `ClassicalDedekindReals.sig_forall_dec`, `ClassicalDedekindReals.sig_not_dec`, `Classical_Prop.classic`, `FunctionalExtensionality.functional_extensionality_dep`: `log_accurate_partial`, `log_special`, `log_double`, `log_relative_refuted`
* `FhypProperties.v`
  - `ClassicalDedekindReals.sig_forall_dec`, `ClassicalDedekindReals.sig_not_dec`, `Classical_Prop.classic`, `FunctionalExtensionality.functional_extensionality_dep`: `cosh_accurate_partial`, `sinh_accurate_partial`, `tanh_accurate_partial`, `atanh_accurate_partial`, `asinh_accurate_partial`, `acosh_accurate_partial`, `acosh_from_two`, `hyperbolic_special`, `hyperbolic_double`, `tanh_large_refuted`, `cosh_symmetry_refuted`, `sinh_small_refuted`, `atanh_small_refuted`, `asinh_negative_refuted`, `asinh_large_refuted`
* `FpowProperties.v`
  - `ClassicalDedekindReals.sig_forall_dec`, `ClassicalDedekindReals.sig_not_dec`, `Classical_Prop.classic`, `FunctionalExtensionality.functional_extensionality_dep`: `pow_int_accurate_partial`, `pow_real_accurate_partial`, `pow_int_special`, `pow_underflow_refuted`, `pow_negative_base_refuted`, `pow_zero_refuted`, `pow_nan_refuted`, `pow_large_refuted`
  - closed under the global context (no axioms): `pow_least_exponent_refuted`, `pow_minus_zero_refuted`
* `NearProperties.v`
  - `ClassicalDedekindReals.sig_forall_dec`, `ClassicalDedekindReals.sig_not_dec`, `Classical_Prop.classic`, `FunctionalExtensionality.functional_extensionality_dep`: `near_err_partial`, `near_eps_partial`, `near_symmetric`, `near_reflexive`, `near_monotone`, `near_special`, `near_complex_parts`, `near_complex_reflexive`, `compare_near_partial`, `compare_near_special`, `near_complex_partial`, `near_large_refuted`, `near_small_refuted`, `near_exact_refuted`, `near_neighbours_refuted`, `near_complex_underflow_refuted`, `near_complex_overflow_refuted`, `near_complex_negative_refuted`
  - closed under the global context (no axioms): `near_int_partial`, `near_int_undefined`, `near_int_overflow_refuted`, `near_unsigned_exact`, `near_unsigned_refuted`, `near_infinity_refuted`
* `Flog1pProperties.v`
  - `ClassicalDedekindReals.sig_forall_dec`, `ClassicalDedekindReals.sig_not_dec`, `Classical_Prop.classic`, `FunctionalExtensionality.functional_extensionality_dep`: `log1p_accurate_partial`, `log1p_near_zero`, `log1p_special`, `log1p_double`, `log1p_double_near_zero`
