{"id": "C01", "title": "wrap lands in the declared range", "statement": "patterns::wrap of any coordinate under any descriptor (angle, inclination, distance, polar, spherical, Euclidean dimension, or any collection of them) returns, whenever it does not throw, a coordinate of the same length whose angular components lie in [Min,Max), inclinations in [0,Down] and distances in [0,inf).", "quantifier": "every descriptor with every legal limit, every collection length, every real coordinate vector", "why_tests_cant": "the domain is a continuum of limits and coordinates and every pattern nesting; tests sample a few angles", "anchors": ["OpenKalman/patterns/descriptors/Angle.hpp: wrap_phi_mod, wrap", "OpenKalman/patterns/descriptors/Inclination.hpp: wrap", "OpenKalman/patterns/descriptors/Distance.hpp: wrap", "OpenKalman/patterns/descriptors/Polar.hpp: wrap", "OpenKalman/patterns/descriptors/Spherical.hpp: wrap", "OpenKalman/patterns/functions/wrap.hpp: wrap"]}
{"id": "C02", "title": "wrap is idempotent", "statement": "Applying patterns::wrap to an already wrapped coordinate never throws and returns it unchanged.", "quantifier": "every descriptor, every collection, every real coordinate vector on which wrap returns", "why_tests_cant": "needs all limits, all coordinates, all component orders", "anchors": ["OpenKalman/patterns/descriptors/Angle.hpp: wrap", "OpenKalman/patterns/descriptors/Polar.hpp: wrap", "OpenKalman/patterns/descriptors/Spherical.hpp: wrap", "OpenKalman/patterns/functions/wrap.hpp: wrap"]}
{"id": "C03", "title": "wrap preserves the represented point", "statement": "patterns::wrap never moves the point a coordinate denotes: to_stat_space of the wrapped coordinate equals to_stat_space of the original coordinate (distance sign flips, half-period shifts, period shifts and pole crossings all cancel).", "quantifier": "every descriptor, every collection, every real coordinate vector incl. negative distances and signed zeros", "why_tests_cant": "sign/half-turn/pole-crossing combinations times a continuum of values", "anchors": ["OpenKalman/patterns/descriptors/Polar.hpp: wrap,to_stat_space", "OpenKalman/patterns/descriptors/Spherical.hpp: wrap,to_stat_space", "OpenKalman/patterns/functions/wrap.hpp: wrap", "OpenKalman/patterns/functions/to_stat_space.hpp: to_stat_space"]}
{"id": "C04", "title": "from_stat_space inverts to_stat_space up to wrapping", "statement": "from_stat_space(to_stat_space(v)) equals wrap(v) for every coordinate v (so that the statistical-space detour used for averaging angles returns the canonical coordinate), except for the longitude at a spherical pole, which is not observable.", "quantifier": "every descriptor, collection and real coordinate vector for which wrap returns", "why_tests_cant": "continuum of coordinates; boundary cases at Min, Max, poles and zero distance", "anchors": ["OpenKalman/patterns/descriptors/Angle.hpp: from_stat_space", "OpenKalman/patterns/descriptors/Inclination.hpp: from_stat_space", "OpenKalman/patterns/descriptors/Polar.hpp: from_stat_space", "OpenKalman/patterns/descriptors/Spherical.hpp: from_stat_space", "OpenKalman/patterns/functions/from_stat_space.hpp: from_stat_space"]}
{"id": "C05", "title": "to_stat_space inverts from_stat_space on the manifold", "statement": "For every statistical-space point of unit direction (and non-negative distance), to_stat_space(from_stat_space(p)) = p; for a non-unit direction it yields the normalised direction.", "quantifier": "every descriptor, collection and every real stat-space vector with non-zero direction", "why_tests_cant": "continuum of points; non-unit directions arise from averages of sigma points", "anchors": ["OpenKalman/patterns/descriptors/Angle.hpp: from_stat_space", "OpenKalman/patterns/descriptors/Spherical.hpp: from_stat_space", "OpenKalman/patterns/functions/from_stat_space.hpp"]}
{"id": "C06", "title": "wrap is a canonical form", "statement": "Two coordinates have the same wrapped value exactly when they denote the same point (the same statistical-space vector), apart from the longitude at a spherical pole.", "quantifier": "all pairs of coordinate vectors for which wrap returns", "why_tests_cant": "a claim about all pairs of reals", "anchors": ["OpenKalman/patterns/descriptors/Angle.hpp: wrap", "OpenKalman/patterns/descriptors/Inclination.hpp: wrap", "OpenKalman/patterns/descriptors/Polar.hpp: wrap", "OpenKalman/patterns/functions/wrap.hpp"]}
{"id": "C07", "title": "collections act component-wise", "statement": "For any collection of descriptors, to_stat_space, from_stat_space and wrap act on each descriptor's own slice independently: the result is the concatenation of the per-descriptor results and no descriptor ever reads another's components; a concatenated pattern acts as the concatenation.", "quantifier": "every collection of descriptors (any length and nesting order) and every data vector", "why_tests_cant": "unbounded number of descriptors and slice offsets", "anchors": ["OpenKalman/patterns/functions/to_stat_space.hpp: to_stat_space", "OpenKalman/patterns/functions/from_stat_space.hpp: from_stat_space", "OpenKalman/patterns/functions/wrap.hpp: wrap"]}
{"id": "C08", "title": "Euclidean patterns are transparent", "statement": "If get_is_euclidean(pattern) is true then get_stat_dimension = get_dimension and to_stat_space, from_stat_space and wrap all return the data unchanged (so the Euclidean fast path used throughout the library is sound).", "quantifier": "every pattern (descriptor or collection) reported Euclidean, every data vector", "why_tests_cant": "all pattern compositions", "anchors": ["OpenKalman/patterns/functions/get_is_euclidean.hpp", "OpenKalman/patterns/functions/get_stat_dimension.hpp", "OpenKalman/patterns/functions/to_stat_space.hpp", "OpenKalman/patterns/functions/wrap.hpp", "OpenKalman/patterns/descriptors/Dimensions.hpp"]}
{"id": "C09", "title": "wrap throws only for astronomically large quotients", "statement": "wrap of an angle already in [Min,Max) (inclination in [0,Down]) returns it unchanged; otherwise it returns exactly when the quotient (phi-Min)/period lies in [-2^63, 2^63) (for an inclination: |theta|/(2 Down) < 2^63), throws std::out_of_range exactly when the quotient is beyond +-2^63, and the one remaining quotient, exactly 2^63, is undefined behaviour (float-to-integer overflow); polar and spherical coordinates likewise.", "quantifier": "every limit and every real input", "why_tests_cant": "threshold behaviour over a continuum; tests never reach 1e19 turns", "anchors": ["OpenKalman/values/math/fmod.hpp: fmod", "OpenKalman/patterns/descriptors/Angle.hpp: wrap_phi_mod", "OpenKalman/patterns/descriptors/Inclination.hpp: wrap"]}
{"id": "C10", "title": "Angle results never equal the excluded upper limit", "statement": "from_stat_space for an Angle<Min,Max> always returns a value in the half-open interval [Min,Max) whatever the scalar type.", "quantifier": "every stat-space point (x,y), every legal Min, Max and scalar type", "why_tests_cant": "single boundary point of a continuum", "anchors": ["OpenKalman/patterns/descriptors/Angle.hpp: from_stat_space", "OpenKalman/patterns/descriptors/Polar.hpp: from_stat_space"]}
{"id": "C11", "title": "Spherical from_stat_space canonicalises any stat vector", "statement": "from_stat_space for a Spherical descriptor returns an azimuth in [Min,Max) and an inclination in [0,Down] for every stat vector including the zero direction and the poles, and re-encoding gives the normalised direction.", "quantifier": "every (d,x,y,z), every limit, every component order", "why_tests_cant": "four-dimensional continuum with singular set", "anchors": ["OpenKalman/patterns/descriptors/Spherical.hpp: from_stat_space"]}
{"id": "C12", "title": "Type-erased descriptors behave as the wrapped one", "statement": "Wrapping a descriptor in patterns::Any changes none of dimension, stat dimension, Euclidean flag, hash, to_stat_space, from_stat_space, wrap, comparison result, nor the behaviour of any collection containing it.", "quantifier": "every descriptor, every nesting of Any, every data vector", "why_tests_cant": "all descriptors times all uses", "anchors": ["OpenKalman/patterns/descriptors/Any.hpp: Any"]}
{"id": "C13", "title": "dimension bookkeeping is additive", "statement": "get_dimension and get_stat_dimension of a collection are the sums over its members, get_is_euclidean is the conjunction, and each of the three conversion functions maps a vector of its declared input length to one of its declared output length.", "quantifier": "every collection and data vector", "why_tests_cant": "unbounded collections", "anchors": ["OpenKalman/patterns/functions/get_dimension.hpp", "OpenKalman/patterns/functions/get_stat_dimension.hpp", "OpenKalman/patterns/functions/get_is_euclidean.hpp"]}
{"id": "C14", "title": "pattern equivalence is an equivalence relation and consolidates dimensions", "statement": "patterns::compare(a,b)==equivalent is reflexive, symmetric and transitive on collections, and holds exactly when the two collections have the same sequence of non-Euclidean hash codes with the same number of Euclidean dimensions between them (e.g. {Dim 2, Dim 3} ~ {Dim 5} ~ {Dim 1,Dim 4,Dim 0}).", "quantifier": "all pairs/triples of descriptor collections", "why_tests_cant": "unbounded collections; the algorithm banks partially consumed dimensions", "anchors": ["OpenKalman/patterns/functions/compare_three_way.hpp: compare_three_way"]}
{"id": "C15", "title": "pattern ordering is the strict-prefix order", "statement": "compare_three_way(a,b) is less exactly when a's consolidated pattern is a proper prefix of b's, greater exactly in the mirrored case, and unordered otherwise; swapping the arguments reverses the answer and less is transitive.", "quantifier": "all pairs of descriptor collections", "why_tests_cant": "unbounded collections", "anchors": ["OpenKalman/patterns/functions/compare_three_way.hpp: compare_three_way"]}
{"id": "C16", "title": "distinct descriptors never compare equivalent", "statement": "Two descriptors that denote different spaces (e.g. angles with different limits) never compare equivalent, so an operation between incompatible patterns is always rejected.", "quantifier": "all pairs of descriptors with all limits", "why_tests_cant": "hash-based comparison: collisions are a number-theoretic question over all limits", "anchors": ["OpenKalman/patterns/descriptors/Angle.hpp: hash_code", "OpenKalman/patterns/descriptors/Inclination.hpp: hash_code", "OpenKalman/patterns/functions/compare_three_way.hpp"]}
{"id": "C17", "title": "pattern collections compare up to trailing 1-D indices", "statement": "compare_pattern_collections treats missing trailing patterns as Dimensions<1>: appending 1-D Euclidean patterns to either side never changes the result, and equality is an equivalence relation.", "quantifier": "all pairs of pattern collections of any order", "why_tests_cant": "unbounded tensor order", "anchors": ["OpenKalman/patterns/functions/compare_pattern_collections.hpp"]}
{"id": "C18", "title": "fmod is the C remainder", "statement": "values::fmod(x,y), when it returns, is x - n*y for the integer n obtained by truncation; |result|<|y|, it has the sign of x, is 0 for x=0 and is unchanged under adding it again.", "quantifier": "all real x and y<>0", "why_tests_cant": "continuum", "anchors": ["OpenKalman/values/math/fmod.hpp: fmod"]}
{"id": "C19", "title": "Newton square root converges to the square root from above", "statement": "Each iterate of values::sqrt's loop after the first is at least sqrt(x), the iterates never increase, the error is at most halved each step, and a fixed point of the iteration is exactly sqrt(x).", "quantifier": "every positive real x and every iteration count", "why_tests_cant": "unbounded iteration count and inputs", "anchors": ["OpenKalman/values/math/sqrt.hpp: sqrt"]}
{"id": "C20", "title": "complex sqrt squares back", "statement": "values::sqrt of a complex number z returns w with w*w = z, non-negative real part and imaginary part with the sign of im z.", "quantifier": "all complex numbers", "why_tests_cant": "continuum", "anchors": ["OpenKalman/values/math/sqrt.hpp: sqrt"]}
{"id": "C21", "title": "hypot is the Euclidean norm for any number of arguments", "statement": "values::hypot(a1..an) = sqrt(sum ai^2) for any argument count, scaling never changes the result, and every argument's magnitude is bounded by it.", "quantifier": "any number of real arguments", "why_tests_cant": "unbounded arity", "anchors": ["OpenKalman/values/math/hypot.hpp: hypot"]}
{"id": "C22", "title": "integer powers are exact", "statement": "values::pow(x,n) with integer n by repeated squaring equals x*...*x (n factors) (1/x^|n| for negative n), and the integer part of exp is e^n.", "quantifier": "all real x, all integers n representable with their negation", "why_tests_cant": "unbounded exponent", "anchors": ["OpenKalman/values/math/pow.hpp: pow_integral", "OpenKalman/values/math/internal/exp_utils.hpp: integral_exp"]}
{"id": "C23", "title": "range reduction of periodic functions is sound", "statement": "sin/cos range reduction returns an argument within one period which has the same sine and cosine as the input.", "quantifier": "all real inputs for which the quotient is representable", "why_tests_cant": "continuum", "anchors": ["OpenKalman/values/math/internal/periodic_utils.hpp: scale_periodic_function"]}
{"id": "C24", "title": "inverse trigonometric reductions are exact", "statement": "asin, acos, atan and atan2 argument reductions compute, over the reals, exactly the mathematical function on their whole domain (all octants/quadrants and signed zeros for atan2).", "quantifier": "all real arguments", "why_tests_cant": "continuum of arguments and all branches", "anchors": ["OpenKalman/values/math/internal/asin_utils.hpp", "OpenKalman/values/math/internal/atan_utils.hpp", "OpenKalman/values/math/atan2.hpp", "OpenKalman/values/math/acos.hpp"]}
{"id": "C25", "title": "logarithm scaling is exact and terminates", "statement": "The argument scaling used by values::log brings every positive real into [1/16,16], terminates, and the accumulated correction makes log exact.", "quantifier": "all positive reals", "why_tests_cant": "unbounded magnitude", "anchors": ["OpenKalman/values/math/internal/log_utils.hpp"]}
{"id": "C26", "title": "wrapped angles stay in range in floating point", "statement": "In IEEE double arithmetic, wrap for Angle<Min,Max> returns a value in [Min,Max).", "quantifier": "all finite doubles", "why_tests_cant": "2^64 inputs", "anchors": ["OpenKalman/patterns/descriptors/Angle.hpp: wrap_phi_mod"]}
{"id": "C27", "title": "spherical from_stat_space never yields NaN for finite points", "statement": "In IEEE double arithmetic, from_stat_space for a Spherical descriptor returns finite numbers for every finite stat vector.", "quantifier": "all finite double vectors", "why_tests_cant": "2^192 inputs", "anchors": ["OpenKalman/patterns/descriptors/Spherical.hpp: from_stat_space", "OpenKalman/values/math/sqrt.hpp", "OpenKalman/values/math/hypot.hpp", "OpenKalman/values/math/acos.hpp"]}
{"id": "C28", "title": "Cholesky-form covariance always reads as its last value", "statement": "A Covariance that stores a triangular factor and lazily caches the self-adjoint matrix (or vice versa) behaves, through any history of constructions, element writes, +=, -=, *=, /=, scale, inverse_scale, rank updates and reads, exactly like a plain matrix value: every read (element, self-adjoint matrix, triangular factor up to its square, determinant) reflects all earlier updates and no read changes the value.", "quantifier": "every finite sequence of operations from every constructor", "why_tests_cant": "histories are unbounded and the bug class (stale cache) needs particular interleavings", "anchors": ["OpenKalman/linear-algebra/adapters/Covariance.hpp: Covariance", "OpenKalman/linear-algebra/adapters/details/CovarianceBase3Impl.hpp", "OpenKalman/linear-algebra/adapters/details/CovarianceBase3-1.hpp", "OpenKalman/linear-algebra/adapters/details/CovarianceImpl.hpp"]}
{"id": "C29", "title": "Assigning one covariance to another copies its value", "statement": "After a = b, a reads as b did before the assignment, and b is unchanged, whatever the histories of a and b.", "quantifier": "every pair of histories of the two covariances", "why_tests_cant": "depends on the hidden synchronization direction of both operands", "anchors": ["OpenKalman/linear-algebra/adapters/details/CovarianceBase3Impl.hpp: operator=", "OpenKalman/linear-algebra/adapters/details/CovarianceBase3-1.hpp"]}
{"id": "C30", "title": "rank_update adds alpha u u^T in every dimension", "statement": "Covariance::rank_update(u,alpha) changes the covariance P to P + alpha u u^T for every dimension including one, and every internal representation.", "quantifier": "every dimension, every u, alpha >= 0 and history", "why_tests_cant": "special one-dimensional branch combined with a hidden state", "anchors": ["OpenKalman/linear-algebra/adapters/Covariance.hpp: rank_update"]}
{"id": "C31", "title": "SquareRootCovariance behaves as its triangular factor", "statement": "A SquareRootCovariance (either storage form) behaves through any history of constructions, +=, -=, scalar *= and /=, triangular *= and reads exactly like a plain triangular-matrix value.", "quantifier": "every finite sequence of operations", "why_tests_cant": "unbounded histories over hidden cache state", "anchors": ["OpenKalman/linear-algebra/adapters/SquareRootCovariance.hpp: SquareRootCovariance"]}
{"id": "C32", "title": "A covariance view and its owner stay coherent", "statement": "The Covariance view returned by square_root()/square() on an lvalue shares state with its owner: after any interleaving of updates through the owner and through the view, both read the same value.", "quantifier": "every interleaving of operations through owner and view", "why_tests_cant": "schedule of two aliases", "anchors": ["OpenKalman/linear-algebra/adapters/details/CovarianceBase2.hpp", "OpenKalman/linear-algebra/adapters/details/CovarianceBase4.hpp", "OpenKalman/linear-algebra/adapters/SquareRootCovariance.hpp: square"]}
{"id": "C33", "title": "Kalman gain solves the normal equations", "statement": "The update step uses a gain K with K P_yy = P_xy, so the posterior mean is mu_x + P_xy P_yy^{-1}(z - mu_y), and the posterior covariance is P_xx - P_xy P_yy^{-1} P_yx.", "quantifier": "every state and measurement dimension, every invertible P_yy", "why_tests_cant": "all dimensions and values", "anchors": ["OpenKalman/filters/KalmanFilter.hpp: update_step"]}
{"id": "C34", "title": "Kalman update is optimal", "statement": "Among all affine estimators mu_x + G(z - mu_y) the update step's gain minimises the error covariance in the positive semidefinite order; the posterior covariance never exceeds the prior.", "quantifier": "every gain matrix G, all dimensions", "why_tests_cant": "quantifies over all alternative estimators", "anchors": ["OpenKalman/filters/KalmanFilter.hpp: update_step"]}
{"id": "C35", "title": "Covariances stay symmetric positive semidefinite over any filter history", "statement": "Starting from a PSD prior, every sequence of predict and update steps through linear transforms with PSD noise keeps the state covariance symmetric PSD, in both the Cholesky and dense branches.", "quantifier": "every finite sequence of predict/update steps, all dimensions", "why_tests_cant": "unbounded histories", "anchors": ["OpenKalman/filters/KalmanFilter.hpp", "OpenKalman/transforms/details/LinearTransformBase.hpp"]}
{"id": "C36", "title": "Cholesky and dense filter branches agree", "statement": "The square-root (LQ-based) branch of the Kalman filter and of the linear transform yields the same mean and covariance as the dense branch.", "quantifier": "every step of every history, all dimensions", "why_tests_cant": "two code paths over all matrices", "anchors": ["OpenKalman/filters/KalmanFilter.hpp: update_step", "OpenKalman/transforms/details/LinearTransformBase.hpp: sum_noise_terms"]}
{"id": "C37", "title": "Kalman update equals the information-form (Bayes) update", "statement": "For an invertible prior and measurement noise, the posterior precision is P^{-1} + H^T R^{-1} H and the posterior mean is the corresponding information-weighted mean; consequently two independent measurements give the same posterior in either order or stacked into one.", "quantifier": "all dimensions, H, PD P and R, all measurement values", "why_tests_cant": "all matrices", "anchors": ["OpenKalman/filters/KalmanFilter.hpp", "OpenKalman/transforms/LinearTransform.hpp"]}
{"id": "C38", "title": "Linear transform propagates moments exactly", "statement": "LinearTransform maps (mu, P) and any number of noise terms (mu_i, Q_i) to mean A mu + sum B_i mu_i, covariance A P A^T + sum B_i Q_i B_i^T and cross-covariance P A^T.", "quantifier": "all dimensions, any number of noise terms", "why_tests_cant": "unbounded arity and sizes", "anchors": ["OpenKalman/transforms/details/LinearTransformBase.hpp", "OpenKalman/transforms/LinearTransform.hpp"]}
{"id": "C39", "title": "Consecutive transforms compose", "statement": "Applying a transform to several consecutive transformations equals applying them one after another; for linear ones it equals the product transformation.", "quantifier": "any number of consecutive transformations", "why_tests_cant": "unbounded list", "anchors": ["OpenKalman/transforms/details/TransformBase.hpp"]}
{"id": "C40", "title": "Identity transform and linear identity agree", "statement": "IdentityTransform and LinearTransform with an IdentityTransformation give the same result for a state with additive noise (P + Q).", "quantifier": "all states and noise terms", "why_tests_cant": "two API routes over all matrices", "anchors": ["OpenKalman/transforms/IdentityTransform.hpp", "OpenKalman/transformations/IdentityTransformation.hpp"]}
{"id": "C41", "title": "RLS transform implements exponentially forgetting least squares", "statement": "Repeated RecursiveLeastSquares prediction with forgetting factor lambda and Kalman update equals the batch exponentially weighted least-squares information matrix.", "quantifier": "any number of steps, all dimensions, lambda in (0,1]", "why_tests_cant": "unbounded history", "anchors": ["OpenKalman/transforms/RecursiveLeastSquaresTransform.hpp"]}
{"id": "C42", "title": "Sigma-point weights and moments are exact", "statement": "Unscented and cubature sample points: mean weights sum to one, the weighted sample mean is zero and the weighted sample covariance is exactly the input covariance, block-diagonal across any number of independent inputs.", "quantifier": "all dimensions, all alpha/beta/kappa, any number of noise inputs", "why_tests_cant": "unbounded dimension and arity", "anchors": ["OpenKalman/transforms/sample-points/Unscented.hpp", "OpenKalman/transforms/sample-points/CubaturePoints.hpp", "OpenKalman/transforms/details/ScaledSigmaPointsBase.hpp"]}
{"id": "C43", "title": "Sample-point transforms are exact for affine functions", "statement": "For an affine transformation the sample-point transform (unscented, cubature) yields exactly A mu + b, A P A^T + noise and cross covariance P A^T, agreeing with LinearTransform.", "quantifier": "all affine maps, all dimensions, all parameters", "why_tests_cant": "all matrices", "anchors": ["OpenKalman/transforms/SamplePointsTransform.hpp", "OpenKalman/transforms/sample-points/Unscented.hpp", "OpenKalman/transforms/sample-points/CubaturePoints.hpp"]}
{"id": "C44", "title": "Spherical simplex points are usable in every dimension", "statement": "The spherical-simplex sample points have finite coordinates, zero weighted mean and the input covariance for every dimension >= 1.", "quantifier": "every dimension", "why_tests_cant": "unbounded dimension; integer truncation in the coefficients", "anchors": ["OpenKalman/transforms/sample-points/SphericalSimplex.hpp"]}
{"id": "C45", "title": "Negative centre weight branch is equivalent", "statement": "The Cholesky branch of the scaled sigma-point covariance with a negative first weight (LQ of the tail followed by a downdate) equals the direct weighted sum.", "quantifier": "all dimensions, all weights", "why_tests_cant": "all matrices", "anchors": ["OpenKalman/transforms/details/ScaledSigmaPointsBase.hpp: covariance"]}
{"id": "C46", "title": "Monte Carlo reduction is schedule independent", "statement": "For Euclidean outputs the parallel reduction in the Monte Carlo transform returns the sample mean and the unbiased sample covariance whatever bracketing and order std::reduce chooses.", "quantifier": "every sample, every binary reduction tree and permutation", "why_tests_cant": "nondeterministic schedules", "anchors": ["OpenKalman/transforms/MonteCarloTransform.hpp: MonteCarloBinaryOp"]}
{"id": "C47", "title": "Monte Carlo reduction is schedule independent for angular outputs", "statement": "For outputs with angular components the parallel Monte Carlo reduction also returns a result independent of the schedule.", "quantifier": "every sample and every reduction tree", "why_tests_cant": "nondeterministic schedules", "anchors": ["OpenKalman/transforms/MonteCarloTransform.hpp: MonteCarloBinaryOp"]}
{"id": "C48", "title": "Linearized transform second-order correction", "statement": "The second-order term added to the mean is 1/2 tr(P H_i) and to the covariance 1/2 tr(P H_i P H_j), exact for quadratic functions' mean, and the covariance correction is symmetric PSD.", "quantifier": "all dimensions, Hessians and covariances", "why_tests_cant": "all matrices", "anchors": ["OpenKalman/transforms/LinearizedTransform.hpp"]}
{"id": "C49", "title": "Finite differences are exact on quadratics", "statement": "FiniteDifferenceLinearization's Jacobian is exact for every polynomial of degree <= 2 and its Hessian is exact for quadratics and always symmetric for any function.", "quantifier": "all functions/quadratics, all step sizes, all points", "why_tests_cant": "continuum of functions", "anchors": ["OpenKalman/transformations/FiniteDifferenceLinearization.hpp"]}
{"id": "C50", "title": "Gaussian arithmetic obeys the moment rules", "statement": "GaussianDistribution +, -, scalar *, /, and matrix * act as sums/affine images of independent variables; + is commutative and associative with the zero distribution as unit, A*(B*D) = (A*B)*D.", "quantifier": "all dimensions and distributions", "why_tests_cant": "all matrices", "anchors": ["OpenKalman/distributions/GaussianDistribution.hpp"]}
{"id": "C51", "title": "Gaussian log-likelihood is consistent", "statement": "log_likelihood of a data set is the sum of the logs of the Gaussian density at each datum, invariant under reordering, and entropy in bits is the mean negative log2 density.", "quantifier": "all dimensions, any number of data", "why_tests_cant": "unbounded data", "anchors": ["OpenKalman/distributions/GaussianDistribution.hpp: log_likelihood, entropy"]}
{"id": "C52", "title": "Covariance arithmetic in square-root form equals dense arithmetic", "statement": "+, -, scalar * and /, and scale on covariances stored as Cholesky factors represent exactly the dense result; division by zero throws, a PSD result stays PSD.", "quantifier": "all dimensions, factors and scalars", "why_tests_cant": "all matrices", "anchors": ["OpenKalman/linear-algebra/adapters/details/covariance-arithmetic.hpp"]}
{"id": "C53", "title": "Cholesky factor of any PSD matrix squares back", "statement": "cholesky_square(cholesky_factor(P)) = P for every symmetric positive semidefinite P, including singular ones, and indefinite input is rejected.", "quantifier": "all dimensions, all PSD matrices", "why_tests_cant": "singular matrices take a separate fallback path", "anchors": ["OpenKalman/linear-algebra/functions/cholesky_factor.hpp", "OpenKalman/linear-algebra/interfaces/eigen/eigen-library-interface.hpp: cholesky_factor"]}
{"id": "C54", "title": "constant and diagonal shortcuts equal the general algorithm", "statement": "The compile-time shortcuts for constant, zero, identity and diagonal arguments in contract, trace, determinant, sum, reduce, average_reduce, LQ/QR and solve return what the general algorithm returns.", "quantifier": "all dimensions and constants", "why_tests_cant": "unbounded dimensions", "anchors": ["OpenKalman/linear-algebra/functions/contract.hpp", "OpenKalman/linear-algebra/functions/trace.hpp", "OpenKalman/linear-algebra/functions/determinant.hpp", "OpenKalman/linear-algebra/functions/reduce.hpp", "OpenKalman/linear-algebra/functions/average_reduce.hpp", "OpenKalman/linear-algebra/functions/LQ_decomposition.hpp", "OpenKalman/linear-algebra/functions/solve.hpp"]}
{"id": "C55", "title": "solve returns a solution", "statement": "When solve(A,B) returns X for a solvable system, A X = B and X has A's column dimension as row dimension.", "quantifier": "all shapes and values", "why_tests_cant": "all shapes", "anchors": ["OpenKalman/linear-algebra/functions/solve.hpp"]}
{"id": "C56", "title": "concatenate, split and slice round-trip", "statement": "Splitting a concatenation at the operand sizes returns the operands, concatenating a split returns the original, set_slice then get_slice returns what was written and leaves other components alone, and tile tiles without loss.", "quantifier": "all matrices, any number of blocks and sizes", "why_tests_cant": "unbounded blocks", "anchors": ["OpenKalman/linear-algebra/functions/concatenate.hpp", "OpenKalman/linear-algebra/functions/split.hpp", "OpenKalman/linear-algebra/functions/tile.hpp", "OpenKalman/linear-algebra/functions/get_slice.hpp", "OpenKalman/linear-algebra/functions/set_slice.hpp"]}
{"id": "C57", "title": "n_ary_operation broadcasts size-one indices", "statement": "n_ary_operation applies the operation at every index of the result, reading each argument at that index with size-one dimensions broadcast, and visits every component exactly once.", "quantifier": "all shapes, any number of arguments", "why_tests_cant": "unbounded arity and shapes", "anchors": ["OpenKalman/linear-algebra/functions/n_ary_operation.hpp"]}
{"id": "C58", "title": "reductions are independent of evaluation order", "statement": "reduce over a set of indices equals reducing one index at a time in any order for an associative-commutative operation, and average_reduce equals the sum divided by the number of reduced elements.", "quantifier": "all shapes, all index subsets", "why_tests_cant": "unbounded shapes", "anchors": ["OpenKalman/linear-algebra/functions/reduce.hpp", "OpenKalman/linear-algebra/functions/average_reduce.hpp"]}
{"id": "C59", "title": "layout mappings stay inside the required span", "statement": "Every mdspan layout of the library (to_diagonal, diagonal_of, triangle partition, packed triangle, constant, transpose) maps each in-range index tuple below required_span_size.", "quantifier": "all extents and all index tuples", "why_tests_cant": "unbounded extents", "anchors": ["OpenKalman/linear-algebra/interfaces/stl/layout_to_diagonal.hpp", "OpenKalman/linear-algebra/interfaces/stl/layout_diagonal_of.hpp", "OpenKalman/linear-algebra/interfaces/stl/layout_triangle_partition.hpp", "OpenKalman/linear-algebra/interfaces/stl/layout_constant.hpp", "OpenKalman/linear-algebra/interfaces/stl/transpose_mdspan_policies.hpp", "OpenKalman/linear-algebra/interfaces/stl/packed_triangle_mdspan_policies.hpp"]}
{"id": "C60", "title": "layout uniqueness, exhaustiveness and stride claims are true", "statement": "is_unique, is_exhaustive, is_strided and stride reported by each layout mapping are consistent with the mapping, and what is_always_unique, is_always_exhaustive and is_always_strided promise for a type holds of every object of the type.", "quantifier": "all extents and all index pairs", "why_tests_cant": "unbounded extents", "anchors": ["OpenKalman/linear-algebra/interfaces/stl/layout_to_diagonal.hpp", "OpenKalman/linear-algebra/interfaces/stl/layout_diagonal_of.hpp", "OpenKalman/linear-algebra/interfaces/stl/layout_triangle_partition.hpp", "OpenKalman/linear-algebra/interfaces/stl/packed_triangle_mdspan_policies.hpp"]}
{"id": "C61", "title": "diagonal and transpose views read the right element", "statement": "to_diagonal(v)(i,j) is v(i) on the diagonal and zero elsewhere; diagonal_of(A)(i)=A(i,i); diagonal_of(to_diagonal(v)) = v; transpose(A)(i,j)=A(j,i) and transposing twice is the identity.", "quantifier": "all extents, element values, indices", "why_tests_cant": "unbounded extents", "anchors": ["OpenKalman/linear-algebra/interfaces/stl/layout_to_diagonal.hpp", "OpenKalman/linear-algebra/interfaces/stl/to_diagonal_accessor.hpp", "OpenKalman/linear-algebra/interfaces/stl/layout_diagonal_of.hpp", "OpenKalman/linear-algebra/interfaces/stl/transpose_mdspan_policies.hpp"]}
{"id": "C62", "title": "triangular and hermitian views read the right element", "statement": "A triangular view reads the stored triangle and zero elsewhere; a hermitian view reads A(i,j) from the stored triangle and its conjugate mirrored, so A(i,j)=conj(A(j,i)).", "quantifier": "all extents and indices", "why_tests_cant": "unbounded extents", "anchors": ["OpenKalman/linear-algebra/interfaces/stl/layout_triangle_partition.hpp", "OpenKalman/linear-algebra/interfaces/stl/triangular_accessor.hpp", "OpenKalman/linear-algebra/interfaces/stl/hermitian_accessor.hpp"]}
{"id": "C63", "title": "packed triangle storage is a bijection", "statement": "The packed-triangle layout maps the stored triangle one-to-one onto 0..required_span_size-1.", "quantifier": "all extents, both triangles", "why_tests_cant": "unbounded extents", "anchors": ["OpenKalman/linear-algebra/interfaces/stl/packed_triangle_mdspan_policies.hpp"]}
{"id": "C64", "title": "accessor offset obeys the mdspan law", "statement": "For the library's mdspan accessors, access(offset(p,i),j) equals access(p,i+j).", "quantifier": "all pointers, offsets and indices", "why_tests_cant": "unbounded", "anchors": ["OpenKalman/linear-algebra/interfaces/stl/to_diagonal_accessor.hpp", "OpenKalman/linear-algebra/interfaces/stl/hermitian_accessor.hpp", "OpenKalman/linear-algebra/interfaces/stl/triangular_accessor.hpp"]}
{"id": "C65", "title": "collection views obey list laws", "statement": "concat, slice, replicate, iota, generate, repeat, reverse views have the sizes and elements of the corresponding list operations, for tuple-like and range access alike, and their compositions obey list laws (slice of concat, concat of complementary slices, replicate of replicate).", "quantifier": "all collections, offsets, extents, factors", "why_tests_cant": "unbounded lengths", "anchors": ["OpenKalman/collections/views/concat.hpp", "OpenKalman/collections/views/slice.hpp", "OpenKalman/collections/views/replicate.hpp", "OpenKalman/collections/views/iota.hpp", "OpenKalman/collections/functions/internal/tuple_reverse.hpp"]}
{"id": "C66", "title": "lexicographical comparison is the list order", "statement": "lexicographical_compare_three_way is the lexicographic order of the two sequences: antisymmetric, transitive, equal exactly on equal sequences.", "quantifier": "all pairs of collections", "why_tests_cant": "unbounded lengths", "anchors": ["OpenKalman/collections/functions/lexicographical_compare_three_way.hpp"]}
{"id": "C67", "title": "compare_indices is sound", "statement": "compare_indices(a,b) holds exactly when every paired index satisfies the comparison.", "quantifier": "all index collections", "why_tests_cant": "unbounded lengths", "anchors": ["OpenKalman/collections/functions/compare_indices.hpp"]}
{"id": "C68", "title": "to_stat_space encodes the position", "statement": "to_stat_space of a coordinate is the Cartesian description of the position that coordinate denotes: distance times unit direction equals the (signed) distance times the direction given by the angles, angles become (cos, sin) of the angle in radians, and the result always lies on the unit-direction manifold; it is defined for every coordinate vector of the right length.", "quantifier": "every descriptor, collection and real coordinate vector", "why_tests_cant": "continuum of coordinates with sign flips and six component orders", "anchors": ["OpenKalman/patterns/descriptors/Angle.hpp: to_stat_space", "OpenKalman/patterns/descriptors/Polar.hpp: to_stat_space", "OpenKalman/patterns/descriptors/Spherical.hpp: to_stat_space", "OpenKalman/patterns/functions/to_stat_space.hpp"]}
{"id": "C69", "title": "Square-root covariance times a scalar", "statement": "Multiplying a SquareRootCovariance by a scalar gives the scaled square root: reading the result gives the scalar times the triangular matrix read from the operand.", "quantifier": "every square-root covariance and scalar", "why_tests_cant": "continuum of values and storage forms", "anchors": ["OpenKalman/linear-algebra/adapters/details/covariance-arithmetic.hpp: operator*, operator/, scale"]}
{"id": "C70", "title": "Concatenating and splitting distributions", "statement": "Concatenating independent distributions gives the joint distribution with block-diagonal covariance, splitting it gives the operands back, and splitting any joint distribution gives its marginal distributions.", "quantifier": "all dimensions and distributions, both storage forms", "why_tests_cant": "all matrices", "anchors": ["OpenKalman/distributions/GaussianDistribution.hpp: concatenate, split", "OpenKalman/linear-algebra/adapters/details/covariance-overloads.hpp: concatenate, split_diagonal"]}
{"id": "C71", "title": "Cross-covariance of consecutive transforms", "statement": "transform_with_cross_covariance over several consecutive transforms returns the cross-covariance of the final output with the original input, as a filter update needs.", "quantifier": "any number of consecutive transforms, all dimensions", "why_tests_cant": "chains of transforms of any length", "anchors": ["OpenKalman/transforms/details/TransformBase.hpp: transform_with_cross_covariance"]}
{"id": "C72", "title": "Identity and recursive-least-squares transforms propagate moments", "statement": "IdentityTransform returns the sum of the state and the noise terms with the state's covariance as cross-covariance; RecursiveLeastSquaresTransform does the same after dividing the state covariance by the forgetting factor.", "quantifier": "all dimensions, any number of noise terms, both storage forms", "why_tests_cant": "unbounded noise terms", "anchors": ["OpenKalman/transforms/IdentityTransform.hpp", "OpenKalman/transforms/RecursiveLeastSquaresTransform.hpp"]}
{"id": "C73", "title": "Unscented covariance is positive semidefinite", "statement": "The covariance returned by the unscented transform is positive semidefinite for every nonlinear function, including when the centre weight is negative, whenever beta >= alpha^2; the cubature covariance always is.", "quantifier": "every function, dimension, noise, storage form, alpha, beta, kappa", "why_tests_cant": "continuum of functions; the centre weight is negative by default", "anchors": ["OpenKalman/transforms/details/ScaledSigmaPointsBase.hpp: covariance", "OpenKalman/transforms/SamplePointsTransform.hpp", "OpenKalman/transforms/sample-points/CubaturePoints.hpp"]}
{"id": "C74", "title": "Consecutive sample-point transforms", "statement": "Several consecutive sample-point transforms return the same distribution as a single transform of the composite function, drawing all noise terms at once.", "quantifier": "any number of functions of any dimensions and noise terms", "why_tests_cant": "unbounded chains", "anchors": ["OpenKalman/transforms/SamplePointsTransform.hpp: transform_impl"]}
{"id": "C75", "title": "Sample-point filters on affine models are the Kalman filter", "statement": "A filter using unscented or cubature points on affine process and measurement functions returns exactly the moments of the Kalman filter, for every history.", "quantifier": "every history of predictions and updates, all dimensions", "why_tests_cant": "unbounded histories", "anchors": ["OpenKalman/transforms/SamplePointsTransform.hpp", "OpenKalman/filters/KalmanFilter.hpp"]}
{"id": "C76", "title": "equal layout mappings are interchangeable", "statement": "When two layout mappings of the library compare equal with ==, they map equal index tuples to equal offsets.", "quantifier": "all extents and nested layouts", "why_tests_cant": "unbounded extents and nestings", "anchors": ["OpenKalman/linear-algebra/interfaces/stl/layout_to_diagonal.hpp: operator==", "OpenKalman/linear-algebra/interfaces/stl/layout_diagonal_of.hpp: operator==", "OpenKalman/linear-algebra/interfaces/stl/layout_triangle_partition.hpp: operator=="]}
{"id": "C77", "title": "a transposed pattern collection reads the same by every access", "statement": "views::transpose<a,b> of a pattern collection swaps the patterns of two indices; iteration, subscripts, get with a fixed index and get_pattern with a run-time index all read the same swapped pattern.", "quantifier": "all pattern collections, all index pairs and all positions", "why_tests_cant": "unbounded collections and positions", "anchors": ["OpenKalman/patterns/views/transpose.hpp: iterator::operator[]", "OpenKalman/collections/functions/get_element.hpp", "OpenKalman/patterns/functions/get_pattern.hpp"]}
{"id": "C78", "title": "Random draws have the moments of the distribution", "statement": "A draw from a GaussianDistribution, as a function of the standard normal numbers it consumes, has exactly the distribution's mean and covariance, whichever way the covariance is stored.", "quantifier": "all dimensions, means, covariances and storage forms; all sources of standardised numbers", "why_tests_cant": "continuum of distributions", "anchors": ["OpenKalman/distributions/GaussianDistribution.hpp: operator()"]}
{"id": "C79", "title": "The sample mean maximises the log-likelihood", "statement": "For a fixed covariance, no mean gives a data set a greater log_likelihood than its sample mean.", "quantifier": "all data sets, covariances and candidate means", "why_tests_cant": "continuum of candidates", "anchors": ["OpenKalman/distributions/GaussianDistribution.hpp: log_likelihood"]}
{"id": "C80", "title": "Exponential, hyperbolic and inverse hyperbolic functions are exact", "statement": "exp, expm1, sinh, cosh, tanh, asinh, acosh, atanh computed by the library's own code are, over the reals, exactly the mathematical functions on the part of their domain where no integer conversion overflows, and not-a-number outside their domain.", "quantifier": "all real arguments", "why_tests_cant": "continuum of arguments", "anchors": ["OpenKalman/values/math/exp.hpp", "OpenKalman/values/math/expm1.hpp", "OpenKalman/values/math/sinh.hpp", "OpenKalman/values/math/cosh.hpp", "OpenKalman/values/math/tanh.hpp", "OpenKalman/values/math/asinh.hpp", "OpenKalman/values/math/acosh.hpp", "OpenKalman/values/math/atanh.hpp", "OpenKalman/values/math/internal/exp_utils.hpp"]}
{"id": "C81", "title": "exp is defined for every finite argument", "statement": "exp returns a number or an infinity, without undefined behaviour, for every finite argument.", "quantifier": "all finite arguments", "why_tests_cant": "unbounded range of arguments", "anchors": ["OpenKalman/values/math/exp.hpp", "OpenKalman/values/math/internal/exp_utils.hpp"]}
{"id": "C82", "title": "pow with real and integral exponents agree", "statement": "pow of a positive base with a floating-point exponent is the real power, and whenever a floating-point exponent is an integer the result equals pow with that integral exponent.", "quantifier": "all bases and exponents", "why_tests_cant": "continuum of arguments", "anchors": ["OpenKalman/values/math/pow.hpp"]}
{"id": "C83", "title": "Complex functions agree with the complex exponential", "statement": "exp, expm1, log, log1p, sinh, cosh, tanh, sin, cos, tan, asin, acos, atan, asinh, acosh, atanh and pow of complex arguments computed by the library's own code satisfy, over exact arithmetic, their defining equations in terms of the complex exponential; log has imaginary part between -pi and pi.", "quantifier": "all complex arguments away from poles and integer overflow", "why_tests_cant": "continuum of arguments", "anchors": ["OpenKalman/values/math/exp.hpp", "OpenKalman/values/math/log.hpp", "OpenKalman/values/math/log1p.hpp", "OpenKalman/values/math/expm1.hpp", "OpenKalman/values/math/sin.hpp", "OpenKalman/values/math/cos.hpp", "OpenKalman/values/math/tan.hpp", "OpenKalman/values/math/asin.hpp", "OpenKalman/values/math/acos.hpp", "OpenKalman/values/math/sinh.hpp", "OpenKalman/values/math/cosh.hpp", "OpenKalman/values/math/tanh.hpp", "OpenKalman/values/math/asinh.hpp", "OpenKalman/values/math/acosh.hpp", "OpenKalman/values/math/atanh.hpp", "OpenKalman/values/math/pow.hpp", "OpenKalman/values/math/internal/atan_utils.hpp"]}
{"id": "C84", "title": "Complex atan2 extends real atan2", "statement": "atan2 of complex arguments that happen to be real returns the angle that real atan2 returns, and in general an angle with the tangent y/x.", "quantifier": "all pairs of arguments", "why_tests_cant": "continuum of arguments, four quadrants", "anchors": ["OpenKalman/values/math/atan2.hpp", "OpenKalman/values/math/internal/atan_utils.hpp"]}
{"id": "C85", "title": "Angles from statistical space stay in range in floating point", "statement": "In IEEE arithmetic of any format, from_stat_space of an Angle returns a finite angle in [Min,Max) that is a whole number of turns away from the scaled arc tangent.", "quantifier": "all formats, limits and arc tangents", "why_tests_cant": "2^64 inputs per format", "anchors": ["OpenKalman/patterns/descriptors/Angle.hpp: from_stat_space, wrap_phi"]}
{"id": "C86", "title": "sqrt and hypot are accurate in floating point", "statement": "In IEEE arithmetic the library's own sqrt ends for every argument, and of every positive finite argument returns the root if it is a floating-point number or else one of the two numbers around it. hypot ends for every pair of arguments, is within a few units in the last place of the true value, never returns less than the absolute value of an argument, and does not overflow before the true value nears the range.", "quantifier": "all formats and all arguments", "why_tests_cant": "2^64 inputs per format; the number of rounds is unbounded", "anchors": ["OpenKalman/values/math/sqrt.hpp", "OpenKalman/values/math/hypot.hpp"]}
{"id": "C87", "title": "chipwise_operation applies its operation to every chip", "statement": "chipwise_operation takes the chips at each place along the named indices from all arguments, applies the operation to them, and the result holds exactly those chips; smaller arguments are repeated; without arguments each chip is the operation's value for its place.", "quantifier": "all shapes, index lists, operations and numbers of arguments", "why_tests_cant": "unbounded arity, rank and shapes", "anchors": ["OpenKalman/linear-algebra/functions/chipwise_operation.hpp: chipwise_operation"]}
{"id": "C88", "title": "Rank updates add alpha times the square of the update", "statement": "rank_update_triangular returns a triangular factor of A A^T + alpha U U^T (A^T A + alpha U U^T for an upper triangular A), of the shape of A, and rank_update_hermitian returns A + alpha U U^T; a downdate whose result is not positive definite is reported, one whose result is positive definite succeeds, and operands with different numbers of rows are reported.", "quantifier": "all dimensions, kinds of matrices, update columns and scale factors", "why_tests_cant": "continuum of matrices, unbounded dimensions and columns", "anchors": ["OpenKalman/linear-algebra/functions/rank_update_triangular.hpp", "OpenKalman/linear-algebra/functions/rank_update_hermitian.hpp", "OpenKalman/linear-algebra/interfaces/eigen/eigen-library-interface.hpp: rank_update_triangular, rank_update_hermitian"]}
{"id": "C89", "title": "What the library says about an Eigen expression is true of its components", "statement": "For every Eigen expression, the library's static claims hold of its components: a constant shared by all components, a constant diagonal of a diagonal matrix, a triangular shape, Hermitian symmetry, being square, and the sizes.", "quantifier": "all expressions of any depth built from Eigen's component-wise functors, transposes, replications, reversals, selections, products, diagonals, triangular and self-adjoint views, blocks, reshapings and partial reductions, of any sizes, fixed or not, real or complex", "why_tests_cant": "unbounded nesting of expressions and continuum of values", "anchors": ["OpenKalman/linear-algebra/interfaces/eigen/traits/CwiseBinaryOp.hpp", "OpenKalman/linear-algebra/interfaces/eigen/traits/CwiseUnaryOp.hpp", "OpenKalman/linear-algebra/interfaces/eigen/traits/Product.hpp", "OpenKalman/linear-algebra/interfaces/eigen/traits/Replicate.hpp", "OpenKalman/linear-algebra/interfaces/eigen/traits/Reverse.hpp", "OpenKalman/linear-algebra/interfaces/eigen/traits/Select.hpp", "OpenKalman/linear-algebra/interfaces/eigen/traits/Diagonal.hpp", "OpenKalman/linear-algebra/interfaces/eigen/traits/SelfAdjointView.hpp", "OpenKalman/linear-algebra/interfaces/eigen/traits/TriangularView.hpp", "OpenKalman/linear-algebra/interfaces/eigen/traits/Reshaped.hpp", "OpenKalman/linear-algebra/interfaces/eigen/traits/PartialReduxExpr.hpp", "OpenKalman/linear-algebra/interfaces/eigen/traits/functors/unary.hpp", "OpenKalman/linear-algebra/interfaces/eigen/traits/functors/binary.hpp", "OpenKalman/linear-algebra/interfaces/eigen/traits/functors/redux.hpp", "OpenKalman/linear-algebra/enumerations.hpp: operator*, operator+", "OpenKalman/linear-algebra/concepts/constant_object.hpp", "OpenKalman/linear-algebra/concepts/triangular_matrix.hpp", "OpenKalman/linear-algebra/concepts/hermitian_matrix.hpp"]}
{"id": "C90", "title": "Statistical-space views act column by column", "statement": "to_stat_space of a matrix or tensor with patterns returns an object whose every column holds the statistical-space coordinates of that column, from_stat_space one whose every column holds the coordinates, and wrap_angles one whose every column is wrapped; each returns for every object whose patterns match its dimensions.", "quantifier": "all ranks, sizes (fixed or known only at run time), patterns and components", "why_tests_cant": "unbounded ranks and sizes, continuum of components", "anchors": ["OpenKalman/linear-algebra/adapters/to_stat_space_adapter.hpp: fill_store, store_init, access", "OpenKalman/linear-algebra/adapters/from_stat_space_adapter.hpp", "OpenKalman/linear-algebra/functions/to_stat_space.hpp", "OpenKalman/linear-algebra/functions/from_stat_space.hpp", "OpenKalman/linear-algebra/functions/wrap_angles.hpp"]}
{"id": "C91", "title": "Statistical-space views are values", "statement": "A statistical-space view that is copied, moved, assigned, written to or destroyed behaves as a value: a copy keeps the components it was made with, whatever later happens to the original, and changing one changes no other.", "quantifier": "every history of constructions, copies, moves, assignments, writes and destructions", "why_tests_cant": "unbounded histories of object lifetimes", "anchors": ["OpenKalman/linear-algebra/adapters/to_stat_space_adapter.hpp: store, mds", "OpenKalman/linear-algebra/adapters/from_stat_space_adapter.hpp: store, mds"]}
{"id": "C92", "title": "Means stay in their primary range, whenever they are wrapped", "statement": "After any history of constructions, assignments, additions, subtractions and scalings of means, every mean lies in the primary range of its pattern, and it does not matter whether values are wrapped after each operation or once at the end.", "quantifier": "all patterns, sizes, component values and operation histories of any length", "why_tests_cant": "unbounded histories and continuum of values", "anchors": ["OpenKalman/linear-algebra/adapters/Mean.hpp: constructors, operator=, operator+=, operator-=, operator*=, operator/=", "OpenKalman/linear-algebra/adapters/details/typed-matrix-arithmetic.hpp", "OpenKalman/linear-algebra/functions/wrap_angles.hpp"]}
{"id": "C93", "title": "Sample-point transforms treat angles as directions", "statement": "For angular outputs, the mean of transformed sample points points along the weighted sum of directions; rotating all outputs rotates the mean and keeps the covariance; whole turns of outputs change nothing.", "quantifier": "all limits, weights, numbers of sample points and values", "why_tests_cant": "continuum of angles and unbounded numbers of points", "anchors": ["OpenKalman/transforms/SamplePointsTransform.hpp: transform, y_mean, y_deviations", "OpenKalman/transforms/details/ScaledSigmaPointsBase.hpp: weighted_means, covariance", "OpenKalman/transforms/sample-points/CubaturePoints.hpp"]}
{"id": "C94", "title": "The measurement update treats angles as directions", "statement": "With angular states and measurements, the updated mean is in range, whole turns of the measurement do not matter, and rotating state, predicted measurement and measurement rotates the updated mean.", "quantifier": "all limits, gains, states and measurements", "why_tests_cant": "continuum of angles", "anchors": ["OpenKalman/filters/KalmanFilter.hpp: update_step, operator()", "OpenKalman/linear-algebra/adapters/Mean.hpp"]}
{"id": "C95", "title": "exp is accurate in floating point", "statement": "In IEEE arithmetic the library's own exp ends for every argument, its result is positive, and its relative error is at most a few hundred units in the last place plus a few units per unit of the argument; not-a-number, infinities and zero give the values of the standard.", "quantifier": "all binary formats and all arguments of each", "why_tests_cant": "2^64 arguments per format", "anchors": ["OpenKalman/values/math/exp.hpp", "OpenKalman/values/math/internal/exp_utils.hpp: exp_impl, integral_exp"]}
{"id": "C96", "title": "expm1 is accurate in floating point", "statement": "In IEEE arithmetic the library's own expm1 ends for every argument and returns exp(x) - 1 with a small relative error, in particular near zero, with the sign of the argument.", "quantifier": "all binary formats and all arguments of each", "why_tests_cant": "2^64 arguments per format", "anchors": ["OpenKalman/values/math/expm1.hpp", "OpenKalman/values/math/internal/exp_utils.hpp: exp_impl, integral_exp"]}
{"id": "C97", "title": "sin and cos are accurate in floating point", "statement": "In IEEE arithmetic the library's own sin and cos end for every finite argument without undefined behaviour, with an absolute error of a few units in the last place of 1 plus a few units in the last place of the argument; the results lie in [-1, 1]; near zero the relative error of sin is small; infinities give not-a-number.", "quantifier": "all binary formats and all arguments of each", "why_tests_cant": "2^64 arguments per format", "anchors": ["OpenKalman/values/math/sin.hpp", "OpenKalman/values/math/cos.hpp", "OpenKalman/values/math/internal/periodic_utils.hpp: sin_cos_impl, scale_periodic_function"]}
{"id": "C98", "title": "Copies of views and views of views show the owner's current value", "statement": "A square-root view of a covariance (or square view of a square-root covariance), a copy of such a view, and a view taken from a view all show the current value of the object they come from, and updates through any of them reach it, whatever else is updated, copied or destroyed in between as long as the owner exists.", "quantifier": "all histories of owners, views, copies, views of views, updates through any of them and destructions", "why_tests_cant": "histories of aliases and lifetimes", "anchors": ["OpenKalman/linear-algebra/adapters/details/CovarianceBase4.hpp", "OpenKalman/linear-algebra/adapters/details/CovarianceBase2.hpp", "OpenKalman/linear-algebra/adapters/Covariance.hpp: square_root", "OpenKalman/linear-algebra/adapters/SquareRootCovariance.hpp: square"]}
{"id": "C99", "title": "A comparison the compiler guarantees or forbids is decided so at run time", "statement": "When the library decides at compile time that two types of patterns (or two sizes) always compare in a given way, every pair of patterns of these types does so at run time; when it decides that they cannot, no pair does. The answer does not depend on which pattern is named first, up to exchanging the comparison.", "quantifier": "all types of patterns, all patterns of these types and all standard comparisons", "why_tests_cant": "unboundedly many types and values", "anchors": ["OpenKalman/patterns/concepts/compares_with.hpp: compares_with", "OpenKalman/values/concepts/size_compares_with.hpp: size_compares_with", "OpenKalman/patterns/functions/compare_three_way.hpp: compare_three_way"]}
{"id": "C100", "title": "Collections of patterns compare place by place", "statement": "Comparing two collections of patterns gives true exactly when the patterns at every place compare so, where a missing place stands for one plain axis, whether the collections are tuples or have a run-time size, and however much is known at compile time.", "quantifier": "all types of collections and all collections of patterns of these types", "why_tests_cant": "unboundedly many types, lengths and patterns", "anchors": ["OpenKalman/patterns/functions/compare_pattern_collections.hpp: compare_pattern_collections", "OpenKalman/patterns/concepts/collection_compares_with.hpp: collection_compares_with"]}
{"id": "C101", "title": "Stripping, largest and smallest of a collection of patterns", "statement": "strip_1D_tail removes exactly the longest tail of patterns that are equivalent to one plain axis; largest_pattern and smallest_pattern return the first pattern with the largest, or smallest, dimension. This holds whether patterns are known at compile time or not.", "quantifier": "all tuples, arrays and run-time collections of patterns, of any length and any mixture of fixed and run-time dimensions", "why_tests_cant": "unbounded lengths and nesting of types", "anchors": ["OpenKalman/patterns/functions/internal/strip_1D_tail.hpp: strip_1D_tail", "OpenKalman/patterns/functions/internal/largest_pattern.hpp: largest_pattern", "OpenKalman/patterns/functions/internal/smallest_pattern.hpp: smallest_pattern"]}
{"id": "C102", "title": "The common dimension of a collection of patterns", "statement": "get_common_pattern_collection_dimension returns a dimension exactly when all patterns looked at have it, and compare_collection_patterns_with_dimension compares exactly the dimension of each of them; what the two concepts say at compile time is what happens at run time. Places beyond the end count as one axis.", "quantifier": "all collections, numbers of places, dimensions and comparison functions", "why_tests_cant": "unbounded lengths; all mixtures of fixed and run-time dimensions", "anchors": ["OpenKalman/patterns/functions/get_common_pattern_collection_dimension.hpp", "OpenKalman/patterns/functions/compare_collection_patterns_with_dimension.hpp", "OpenKalman/patterns/concepts/collection_patterns_compare_with_dimension.hpp", "OpenKalman/patterns/concepts/collection_patterns_have_same_dimension.hpp"]}
{"id": "C103", "title": "Uniform patterns and their component", "statement": "A pattern is uniform if it consists of copies of one one-dimensional descriptor. get_uniform_pattern_component returns this descriptor exactly for the uniform patterns, is_uniform_pattern_component_of recognises it and no other, and the concept uniform_pattern says at compile time only what holds for every value.", "quantifier": "all descriptors, tuples and run-time collections of any length", "why_tests_cant": "unbounded lengths and mixtures of static and type-erased descriptors", "anchors": ["OpenKalman/patterns/functions/get_uniform_pattern_component.hpp", "OpenKalman/patterns/functions/is_uniform_pattern_component_of.hpp", "OpenKalman/patterns/concepts/uniform_pattern.hpp", "OpenKalman/patterns/traits/common_descriptor_type.hpp", "OpenKalman/patterns/traits/uniform_pattern_type.hpp"]}
{"id": "C104", "title": "What the library says about its own adapters is true of their components", "statement": "For every object built from the library's adapters, the concepts and traits speak the truth about its components: a constant object has one value everywhere, a constant diagonal object that value on the diagonal and zero elsewhere, a triangular, diagonal, Hermitian, zero, real, square, one-dimensional or vector object is one, and the constant value reported is the value found.", "quantifier": "all objects of any nesting depth built by the diagonal, triangular, Hermitian, transpose, conjugate and pattern adapters over dense and constant objects of any rank and any sizes, fixed or not", "why_tests_cant": "unbounded nesting and continuum of values", "anchors": ["OpenKalman/linear-algebra/adapters/to_diagonal_adapter.hpp: object_traits", "OpenKalman/linear-algebra/adapters/diagonal_of_adapter.hpp: object_traits", "OpenKalman/linear-algebra/adapters/triangular_adapter.hpp: object_traits", "OpenKalman/linear-algebra/adapters/hermitian_adapter.hpp: object_traits", "OpenKalman/linear-algebra/adapters/transpose_adapter.hpp: object_traits", "OpenKalman/linear-algebra/adapters/conjugate_adapter.hpp: object_traits", "OpenKalman/linear-algebra/adapters/pattern_adapter.hpp: object_traits", "OpenKalman/linear-algebra/concepts/constant_object.hpp", "OpenKalman/linear-algebra/concepts/hermitian_matrix.hpp", "OpenKalman/linear-algebra/traits/triangle_type_of.hpp"]}
{"id": "C105", "title": "Shortcuts of transpose, conjugate and their kin return the right components", "statement": "transpose, conjugate, conjugate_transpose, diagonal_of, to_diagonal, to_triangular, to_hermitian, attach_patterns, make_constant and make_constant_diagonal return an object with the sizes and the components their names promise, whichever compile-time shortcut they take for constant, diagonal, Hermitian or real arguments.", "quantifier": "all objects as in the previous property, all index pairs, patterns and constants", "why_tests_cant": "unbounded nesting and continuum of values", "anchors": ["OpenKalman/linear-algebra/functions/transpose.hpp", "OpenKalman/linear-algebra/functions/conjugate.hpp", "OpenKalman/linear-algebra/functions/conjugate_transpose.hpp", "OpenKalman/linear-algebra/functions/diagonal_of.hpp", "OpenKalman/linear-algebra/functions/to_diagonal.hpp", "OpenKalman/linear-algebra/functions/to_triangular.hpp", "OpenKalman/linear-algebra/functions/to_hermitian.hpp", "OpenKalman/linear-algebra/functions/attach_patterns.hpp", "OpenKalman/linear-algebra/functions/make_constant.hpp", "OpenKalman/linear-algebra/functions/make_constant_diagonal.hpp"]}
{"id": "C106", "title": "copy_from makes the destination equal to the source", "statement": "After copy_from(dest, source) every component of dest is what the component of source was before the call, and nothing else in memory has changed, also when source is a view of dest; sources of another size are refused.", "quantifier": "all destinations with a one-to-one layout, all views as sources including views of the destination, all sizes and ranks", "why_tests_cant": "unbounded sizes and all ways in which source and destination share memory", "anchors": ["OpenKalman/linear-algebra/functions/copy_from.hpp: copy_from", "OpenKalman/linear-algebra/concepts/copyable_from.hpp"]}
{"id": "C107", "title": "A list of values fills a matrix in order", "statement": "Filling a matrix, mean, diagonal matrix or covariance from a comma-separated list of values and blocks, or with fill_components, puts every value in its place, row by row or column by column as asked, wraps angles of a mean, and may be continued in a later statement; a list of the wrong length is refused.", "quantifier": "all sizes, all lists of values and blocks, all divisions of the list into statements, with assertions enabled or not", "why_tests_cant": "unbounded lists; lifetimes of temporaries across statements", "anchors": ["OpenKalman/linear-algebra/functions/fill_components.hpp: fill_components", "OpenKalman/linear-algebra/functions/internal/may_hold_components.hpp", "OpenKalman/linear-algebra/interfaces/eigen/details/eigen-comma-initializers.hpp", "OpenKalman/linear-algebra/interfaces/eigen/details/EigenAdapterBase.hpp: operator<<", "OpenKalman/linear-algebra/interfaces/eigen/eigen-library-interface.hpp: fill_components"]}
{"id": "C108", "title": "Setting a triangle changes that triangle and nothing else", "statement": "After the upper or lower triangle or the diagonal of an object is set from another matrix, its components there are those of the other matrix (through a Hermitian adapter also their mirror images) and all other components are unchanged.", "quantifier": "all sizes and shapes, all nestings of triangular and Hermitian adapters over dense, generic and diagonal objects, all matrices set", "why_tests_cant": "unbounded sizes and nesting", "anchors": ["OpenKalman/linear-algebra/functions/internal/set_triangle.hpp: set_triangle", "OpenKalman/linear-algebra/interfaces/eigen/eigen-library-interface.hpp: set_triangle"]}
{"id": "C109", "title": "What the library says about a tensor expression is true of its components", "statement": "For every Eigen tensor expression of any number of indices, an expression called constant has that constant in every component, one called constant diagonal has that constant where all indices are equal and zero elsewhere, one called Hermitian equals its conjugate transpose, and finding these values reads no array out of bounds.", "quantifier": "all expressions of any depth made of tensors, constants, diagonal and Hermitian matrices, component-wise operations and contractions over any pairs of indices, of any dimensions", "why_tests_cant": "unbounded depth, rank and sizes; continuum of values", "anchors": ["OpenKalman/linear-algebra/interfaces/eigen-tensor/traits/TensorContractionOp.hpp", "OpenKalman/linear-algebra/interfaces/eigen-tensor/traits/TensorCwiseBinaryOp.hpp", "OpenKalman/linear-algebra/interfaces/eigen-tensor/traits/TensorCwiseUnaryOp.hpp", "OpenKalman/linear-algebra/interfaces/eigen-tensor/traits/TensorCwiseNullaryOp.hpp"]}
{"id": "C110", "title": "Tensor components are read and written at the indices given", "statement": "get_component and set_component on an Eigen tensor of any number of indices and either storage order reach the component with the indices given and no other: a value set is read back and the other components keep theirs; a wrong number of indices, or an index out of range, is refused.", "quantifier": "all numbers of indices, dimensions, storage orders, indices and values", "why_tests_cant": "unbounded ranks and sizes", "anchors": ["OpenKalman/linear-algebra/interfaces/eigen-tensor/eigen-tensor-library-interface.hpp: get_component, set_component, make_ix_array", "OpenKalman/linear-algebra/interfaces/eigen-tensor/traits/Tensor.hpp"]}
{"id": "C111", "title": "log is accurate in floating point", "statement": "The constexpr log ends for every argument; for every positive finite number it returns a finite number close to the logarithm, log 1 is zero, log 0 is minus infinity, log of infinity is infinity, and negative numbers and NaN give NaN.", "quantifier": "every IEEE binary format from single precision on and every number in it, subnormal numbers included", "why_tests_cant": "about 2^64 doubles; the number of rounds of Halley's iteration depends on rounding, and a loop that oscillates for one argument is not found by sampling", "anchors": ["OpenKalman/values/math/log.hpp", "OpenKalman/values/math/internal/log_utils.hpp: log_impl, log_scaling_gt, log_scaling_lt"]}
{"id": "C112", "title": "The hyperbolic functions and their inverses are accurate in floating point", "statement": "The constexpr sinh, cosh, tanh, asinh, acosh and atanh end for every argument and return a number close to the function's value, with IEEE special values at zero, one, infinity and NaN; sinh, tanh, asinh and atanh are odd and cosh is even.", "quantifier": "every IEEE binary format from single precision on and every number in it", "why_tests_cant": "about 2^64 doubles for each function; overflow of an intermediate result shows only in some ranges", "anchors": ["OpenKalman/values/math/sinh.hpp", "OpenKalman/values/math/cosh.hpp", "OpenKalman/values/math/tanh.hpp", "OpenKalman/values/math/asinh.hpp", "OpenKalman/values/math/acosh.hpp", "OpenKalman/values/math/atanh.hpp"]}
{"id": "C113", "title": "pow is accurate in floating point", "statement": "The constexpr pow with an integral exponent returns the power up to about one rounding error for each factor, pow of a positive number with an exponent of floating type returns the real power up to a small relative error, and both treat zero, one, infinity and NaN as IEEE 754 does and agree where the exponent is an integer.", "quantifier": "every IEEE binary format from single precision on, every base and exponent in it, every int as an exponent", "why_tests_cant": "2^128 pairs of doubles; overflow of an intermediate result shows only in some ranges", "anchors": ["OpenKalman/values/math/pow.hpp: pow, pow_integral"]}
{"id": "C114", "title": "Comparison up to a tolerance accepts what is within the tolerance and nothing else", "statement": "near(x, y, err) is true when x and y differ by at most err and false when they differ by more, and near(x, y) when they agree up to rounding; the order of the arguments does not matter, every number is near itself, a larger tolerance accepts more, NaN is near nothing; for complex numbers the distance is compared with the absolute value of the tolerance.", "quantifier": "every IEEE binary format, all pairs of numbers and tolerances in it, real and complex; all ints and unsigned ints", "why_tests_cant": "2^192 triples of doubles; overflow, underflow and wrap-around show only in some ranges", "anchors": ["OpenKalman/values/functions/internal/near.hpp: near"]}
{"id": "C115", "title": "log1p is accurate in floating point", "statement": "The constexpr log1p ends for every argument; for every finite number above -1 it returns a finite number close to log(1 + x), log1p of a zero is that zero, log1p(-1) is minus infinity, log1p of infinity is infinity, and numbers below -1 and NaN give NaN.", "quantifier": "every IEEE binary format from single precision on and every number in it", "why_tests_cant": "about 2^64 doubles; the number of rounds of the series and of Halley's iteration depends on rounding", "anchors": ["OpenKalman/values/math/log1p.hpp: log1p, log1p_impl", "OpenKalman/values/math/internal/log_utils.hpp: log_impl, log_scaling_gt, log_scaling_lt"]}
