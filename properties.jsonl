{"id": "C01", "title": "complex data -> real data -> complex data is the identity", "statement": "arraytocomplex(arraytoreal(a)) has the same shape, dtype kind and entries as a, for 1-D complex arrays and for 2-D complex arrays with at least one row; arrays of any other rank raise AttributeError, and real arrays pass through arraytoreal unchanged.", "quantifier": "every complex array, every length / number of rows / number of features, every entry value", "why_tests_cant": "tests compare one random 200x17 array and only its shape; the law must hold for every shape and content", "anchors": ["robuststats/models/mappings.py:arraytoreal", "robuststats/models/mappings.py:arraytocomplex"]}
{"id": "C02", "title": "real data -> complex data -> real data is the identity on even feature counts and odd counts are rejected", "statement": "arraytoreal(arraytocomplex(r)) = r for every real array whose feature count is even; a real array with an odd number of features is not the image of any complex array and must be rejected with an error rather than silently reinterpreted.", "quantifier": "every real array, every feature count", "why_tests_cant": "the parity/broadcasting corner cases form an infinite family of shapes", "anchors": ["robuststats/models/mappings.py:arraytocomplex", "robuststats/models/mappings.py:arraytoreal"]}
{"id": "C03", "title": "covariance real/complex mapping round trip", "statement": "covariancetocomplex(covariancetoreal(S)) = S for every complex square matrix S; conversely covariancetoreal(covariancetocomplex(M)) = M exactly for the real matrices of block form [[P,-Q],[Q,P]]; already-real (resp. already-complex) inputs are returned unchanged; non-square complex inputs and odd-size or non-square real inputs raise AttributeError.", "quantifier": "every matrix of every size", "why_tests_cant": "tests use one 17x17 random matrix", "anchors": ["robuststats/models/mappings.py:covariancetoreal", "robuststats/models/mappings.py:covariancetocomplex", "robuststats/models/mappings.py:iscovariance"]}
{"id": "C04", "title": "the real covariance is a faithful representation of the complex one", "statement": "For z = arraytoreal(x), R = covariancetoreal(S): R is symmetric iff S is Hermitian; z^T R z = 1/2 Re(x^H S x); R is positive (semi)definite iff S is; the mapping is additive and commutes with real scaling; det R = 2^(-2p)|det S|^2; and when S is invertible so is R, with z^T R^-1 z = 2 Re(x^H S^-1 x).", "quantifier": "every dimension p, every complex matrix S and vector x", "why_tests_cant": "algebraic identities over all matrices of all dimensions", "anchors": ["robuststats/models/mappings.py:covariancetoreal", "robuststats/models/mappings.py:arraytoreal"]}
{"id": "C05", "title": "stacked covariance conversions are element-wise", "statement": "covariancestoreal / covariancestocomplex on an (n,p,p) stack return the stack whose i-th matrix is covariancetoreal / covariancetocomplex of the i-th matrix, in order, and round-trip to the identity; inputs of other ranks raise AttributeError.", "quantifier": "every stack size and matrix size", "why_tests_cant": "unbounded stack sizes", "anchors": ["robuststats/models/mappings.py:covariancestoreal", "robuststats/models/mappings.py:covariancestocomplex"]}
{"id": "C06", "title": "covariance round trip in binary64 arithmetic", "statement": "In IEEE binary64 the halving/doubling performed by covariancetocomplex(covariancetoreal(S)) reproduces every finite entry of S exactly.", "quantifier": "every finite binary64 number", "why_tests_cant": "2^64 inputs; random tests never draw subnormal numbers", "anchors": ["robuststats/models/mappings.py:covariancetoreal", "robuststats/models/mappings.py:covariancetocomplex"]}
{"id": "C07", "title": "Hermitian / symmetric checks decide what they claim", "statement": "check_Hermitian(a) (check_Symmetric(a)) returns True for every exactly Hermitian (symmetric) matrix, returns True only if every entry is within atol + rtol*|mirror entry| of the conjugate (plain) mirror entry, and never returns True for a non-square array.", "quantifier": "every array and every nonnegative tolerance pair", "why_tests_cant": "quantifies over all matrices and tolerances", "anchors": ["robuststats/models/mappings.py:check_Hermitian", "robuststats/models/mappings.py:check_Symmetric"]}
{"id": "C08", "title": "complex normal log-density", "statement": "complex_multivariate_normal.logpdf(x, mean, cov) with complex Hermitian positive definite cov equals the circular complex Gaussian log-density -p*log(pi) - log det cov - (x-mean)^H cov^-1 (x-mean).", "quantifier": "every dimension, data point, mean and Hermitian positive definite covariance", "why_tests_cant": "an identity between two densities at every point of an unbounded domain", "anchors": ["robuststats/models/probability.py:complex_multivariate_normal_gen.logpdf", "robuststats/models/probability.py:complex_multivariate_normal_frozen.logpdf", "robuststats/models/probability.py:_check_parameters_array_complex_normal"]}
{"id": "C09", "title": "complex Student-t log-density", "statement": "complex_multivariate_t(loc, shape, df).logpdf(x) with complex Hermitian positive definite shape equals the complex Student-t log-density with q = (x-loc)^H shape^-1 (x-loc): lgamma(df/2+p) - lgamma(df/2) - p*log(pi*df/2) - log det shape - (df/2+p)*log(1+2q/df); the un-frozen call complex_multivariate_t.logpdf(x, loc, shape, df) gives the same value.", "quantifier": "every dimension, point, location, shape matrix and df > 0", "why_tests_cant": "identity over an unbounded domain; frozen and un-frozen paths are different code", "anchors": ["robuststats/models/probability.py:complex_multivariate_t_frozen.logpdf", "robuststats/models/probability.py:complex_multivariate_t_gen"]}
{"id": "C10", "title": "complex samples have the requested covariance and are circular", "statement": "If real samples have mean 0 and second-moment matrix covariancetoreal(S), then the arraytocomplex'd samples have E[x x^H] = S and pseudo-covariance E[x x^T] = 0.", "quantifier": "every S Hermitian, every finite weighted sample (discrete law)", "why_tests_cant": "a statement about all laws, not about one seed", "anchors": ["robuststats/models/probability.py:complex_multivariate_normal_gen.rvs", "robuststats/models/probability.py:complex_multivariate_t_gen.rvs"]}
{"id": "C11", "title": "real/complex parameters, data and model dimensions stay consistent", "statement": "For every combination of real/complex (or missing) mean, covariance and data of matching feature count, data handed to the underlying real distribution has the same dimension as the parameters handed to it, and no imaginary part is dropped silently except for complex data with real parameters.", "quantifier": "every combination of kinds and every dimension", "why_tests_cant": "the combination table times all dimensions", "anchors": ["robuststats/models/probability.py:_check_parameters_complex_normal", "robuststats/models/probability.py:_check_parameters_array_complex_normal", "robuststats/models/probability.py:complex_multivariate_normal_frozen"]}
{"id": "C12", "title": "shape of complex random variates", "statement": "rvs(size=n) of a complex p-dimensional model returns n complex samples with p features ((p,) when n = 1), for every size accepted by the real model.", "quantifier": "every p and every size argument", "why_tests_cant": "sizes are unbounded and include tuples and zero", "anchors": ["robuststats/models/probability.py:complex_multivariate_normal_gen.rvs", "robuststats/models/probability.py:complex_multivariate_normal_frozen.rvs", "robuststats/models/probability.py:complex_multivariate_t_gen.rvs"]}
{"id": "C13", "title": "complex empirical covariance", "statement": "complex_empirical_covariance(X) is Hermitian positive semidefinite, equals 1/N sum (x_i-m)(x_i-m)^H (m = 0 when assume_centered), is invariant to adding a constant to every sample when not assume_centered, and satisfies cov(X A^T) = A cov(X) A^H.", "quantifier": "every N >= 1, p, X and every linear map A", "why_tests_cant": "algebraic laws over all data sets", "anchors": ["robuststats/estimation/base.py:complex_empirical_covariance", "robuststats/estimation/base.py:ComplexEmpiricalCovariance.fit"]}
{"id": "C14", "title": "a complex covariance estimator stores exactly the covariance it computed", "statement": "After a successful fit (or set) of a complex covariance estimator, covariance_ has the shape and values of the computed covariance matrix whatever its dtype, and the transform result is that covariance_.", "quantifier": "every matrix, real or complex dtype", "why_tests_cant": "all matrices and dtypes", "anchors": ["robuststats/estimation/base.py:ComplexEmpiricalCovariance._set_covariance", "robuststats/estimation/base.py:RealEmpiricalCovariance.transform"]}
{"id": "C15", "title": "complex estimators keep one feature per input column", "statement": "Fitting a complex covariance estimator on an (N,p) data set, real-valued or complex-valued, uses p features.", "quantifier": "every N, p and dtype", "why_tests_cant": "all shapes and dtypes", "anchors": ["robuststats/estimation/base.py:ComplexEmpiricalCovariance._validate_data"]}
{"id": "C16", "title": "error_norm separates covariance matrices", "statement": "error_norm of a complex estimator is a nonnegative real and is zero only if the compared covariance equals the estimated one.", "quantifier": "every pair of matrices, every norm/scaling/squared flag", "why_tests_cant": "all matrix pairs", "anchors": ["robuststats/estimation/base.py:ComplexEmpiricalCovariance.error_norm"]}
{"id": "C17", "title": "CovariancesEstimation gives the same result for any n_jobs and trial i depends only on X[i]", "statement": "transform(X) has one covariance per trial, entry i equal to what a fresh fit of the estimator on X[i] yields, independently of n_jobs, of the other trials and of what the estimator was fitted on before.", "quantifier": "every number of trials, every data set, every n_jobs, every estimator whose fit result does not depend on earlier fits", "why_tests_cant": "all histories of the shared estimator object and all schedules of the workers", "anchors": ["robuststats/estimation/base.py:CovariancesEstimation.transform", "robuststats/estimation/base.py:_fit_transform_covariance_copy"]}
{"id": "C18", "title": "an estimator can be re-fitted any number of times", "statement": "Calling fit again on an estimator that has been fitted succeeds whenever the first call with the same data would have succeeded on a new estimator, and gives the same estimate.", "quantifier": "every estimator class / method option and every sequence of fit calls", "why_tests_cant": "all call histories", "anchors": ["robuststats/estimation/covariance.py:TylerShapeMatrix.fit", "robuststats/estimation/covariance.py:ComplexTylerShapeMatrix.fit", "robuststats/estimation/covariance.py:HuberMEstimator.fit", "robuststats/estimation/covariance.py:CenteredStudentMLE.fit"]}
{"id": "C19", "title": "CovariancesEstimation returns the estimates unrounded", "statement": "The matrices returned by transform are the estimates themselves whatever the numeric dtype of the input trials.", "quantifier": "every input dtype", "why_tests_cant": "dtype conversions over all values", "anchors": ["robuststats/estimation/base.py:CovariancesEstimation.transform"]}
{"id": "C20", "title": "feature array append concatenates", "statement": "After any sequence of appends of arrays of the declared item shapes and dtype (single items or batches, the same number of items for each component) to an empty feature array, each append is accepted, len is the total number of items and export/indexing return exactly the appended items in order, for each component, also across internal buffer growth.", "quantifier": "every sequence of appends of every length", "why_tests_cant": "growth happens after more than 1000 items; histories are unbounded", "anchors": ["robuststats/estimation/base.py:_FeatureArray.append", "robuststats/estimation/base.py:_FeatureArray.export", "robuststats/estimation/base.py:_FeatureArray.__len__"]}
{"id": "C21", "title": "feature array indexing is list indexing", "statement": "fa[i] for an integer -len <= i < len is a one-item feature array holding item i, fa[i] outside that range raises IndexError, fa[a:b] holds the items of the slice; the original is unchanged.", "quantifier": "every content, every integer index and slice", "why_tests_cant": "all indices and contents", "anchors": ["robuststats/estimation/base.py:_FeatureArray.__getitem__"]}
{"id": "C22", "title": "a failed append changes nothing", "statement": "If append raises, the feature array subsequently behaves as if the call had not been made.", "quantifier": "every state and every rejected argument", "why_tests_cant": "all states x all invalid inputs", "anchors": ["robuststats/estimation/base.py:_FeatureArray.append"]}
{"id": "C23", "title": "all components of a feature array have len(fa) items", "statement": "After any successful append every component of the feature array holds exactly len(fa) items, as fa.shape reports.", "quantifier": "every history of successful appends", "why_tests_cant": "all histories", "anchors": ["robuststats/estimation/base.py:_FeatureArray.append", "robuststats/estimation/base.py:_FeatureArray.shape"]}
{"id": "C24", "title": "feature arrays never write into and never share the caller's arrays", "statement": "No append modifies an array owned by the caller, and modifying an appended array afterwards does not change the feature array.", "quantifier": "every history interleaving appends and caller writes", "why_tests_cant": "aliasing across all histories", "anchors": ["robuststats/estimation/base.py:_FeatureArray.append"]}
{"id": "C25", "title": "vectorize returns one row per item", "statement": "fa.vectorize() has len(fa) rows; row i is the concatenation over components of item i's flattened entries (upper triangle only, row-major, when all items of a square-matrix component are symmetric/Hermitian or skew), and determines item i.", "quantifier": "every feature array reachable by appends", "why_tests_cant": "all histories, in particular those that trigger preallocation", "anchors": ["robuststats/estimation/base.py:_FeatureArray.vectorize"]}
{"id": "C26", "title": "exported data is a stable snapshot", "statement": "The value of an export taken at any time is not changed by later appends to the feature array.", "quantifier": "every history", "why_tests_cant": "all interleavings of exports and appends", "anchors": ["robuststats/estimation/base.py:_FeatureArray.export", "robuststats/estimation/base.py:_FeatureArray.append"]}
{"id": "C27", "title": "FeaturesEstimation keeps trial order", "statement": "transform(X) for a non-empty list of trials returns a feature array with one item per trial, item i being the features estimated on trial i.", "quantifier": "every number of trials (beyond the preallocation size) and every n_jobs", "why_tests_cant": "unbounded number of trials", "anchors": ["robuststats/estimation/base.py:FeaturesEstimation.transform", "robuststats/estimation/base.py:_feature_estimation"]}
{"id": "C28", "title": "shape normalisation", "statement": "For normalisation 'trace', 'determinant', 'element' the returned shape matrix has trace p, determinant 1, first entry 1 respectively; 'None' and unknown names return the matrix unscaled; normalising twice is the same as once, and rescaling the input by c > 0 does not change the normalised output.", "quantifier": "every Hermitian positive definite matrix of every size", "why_tests_cant": "all matrices and sizes", "anchors": ["robuststats/estimation/covariance.py:get_normalisation_function", "robuststats/estimation/covariance.py:tyler_shape_matrix_fixedpoint", "robuststats/estimation/covariance.py:complex_tyler_shape_matrix_fixedpoint"]}
{"id": "C29", "title": "stopping contract of the fixed-point estimators", "statement": "Each fixed-point estimator performs at most iter_max iterations and terminates; the reported iteration count is the number of updates applied to the initial point; the reported error is the relative Frobenius change of the last update; if fewer than iter_max iterations were done the reported error is at most tol.", "quantifier": "every data set, tol, iter_max, initial point, including numerical breakdown (NaN)", "why_tests_cant": "all loop lengths and all breakdown points", "anchors": ["robuststats/estimation/covariance.py:huber_m_estimator_fixed_point", "robuststats/estimation/covariance.py:student_t_mle_fixed_point", "robuststats/estimation/covariance.py:tyler_shape_matrix_fixedpoint", "robuststats/estimation/covariance.py:complex_tyler_shape_matrix_fixedpoint"]}
{"id": "C30", "title": "fixed-point estimates are covariance matrices", "statement": "Every iterate, hence the returned estimate, of the Tyler, Student-t and Huber fixed-point estimators is symmetric/Hermitian positive semidefinite, and positive definite as soon as the samples span the space and no sample is zero.", "quantifier": "every data set, every iteration count", "why_tests_cant": "induction over iterations, all data", "anchors": ["robuststats/estimation/covariance.py:tyler_shape_matrix_fixedpoint", "robuststats/estimation/covariance.py:student_t_mle_fixed_point", "robuststats/estimation/covariance.py:huber_m_estimator_fixed_point", "robuststats/estimation/covariance.py:complex_tyler_shape_matrix_fixedpoint", "robuststats/estimation/covariance.py:complex_student_t_mle_fixed_point", "robuststats/estimation/covariance.py:complex_huber_m_estimator_fixed_point"]}
{"id": "C31", "title": "Tyler's estimate ignores sample norms", "statement": "Multiplying each sample by its own non-zero scalar does not change the result of the Tyler fixed-point estimators started from the same initial point (estimate, error and iteration count), provided at least one iteration is done.", "quantifier": "every data set and every choice of non-zero scale per sample", "why_tests_cant": "infinitely many rescalings", "anchors": ["robuststats/estimation/covariance.py:tyler_shape_matrix_fixedpoint", "robuststats/estimation/covariance.py:complex_tyler_shape_matrix_fixedpoint"]}
{"id": "C32", "title": "affine equivariance of the M-estimators", "statement": "One update (hence any number of updates) of the Tyler, Student-t and Huber estimators commutes with invertible linear maps: data X A^T and initial point A S A^H give A T(X,S) A^H.", "quantifier": "every invertible A, data set, starting point, iteration count", "why_tests_cant": "all linear maps", "anchors": ["robuststats/estimation/covariance.py:tyler_shape_matrix_fixedpoint", "robuststats/estimation/covariance.py:student_t_mle_fixed_point", "robuststats/estimation/covariance.py:huber_m_estimator_fixed_point", "robuststats/estimation/covariance.py:complex_tyler_shape_matrix_fixedpoint", "robuststats/estimation/covariance.py:complex_student_t_mle_fixed_point", "robuststats/estimation/covariance.py:complex_huber_m_estimator_fixed_point"]}
{"id": "C33", "title": "sample order is irrelevant", "statement": "Permuting the samples does not change the output (estimate, error, iteration count) of any fixed-point estimator nor of the empirical covariance.", "quantifier": "every permutation of every data set", "why_tests_cant": "n! orderings of unbounded data sets", "anchors": ["robuststats/estimation/covariance.py:tyler_shape_matrix_fixedpoint", "robuststats/estimation/covariance.py:student_t_mle_fixed_point", "robuststats/estimation/covariance.py:huber_m_estimator_fixed_point", "robuststats/estimation/base.py:complex_empirical_covariance"]}
{"id": "C34", "title": "the scale of Tyler's initial point is irrelevant after normalisation", "statement": "Starting the Tyler fixed-point estimator from c*S0 (c > 0) instead of S0 multiplies every iterate by c, leaves error and iteration count unchanged, and gives the same result when a normalisation other than 'None' is requested.", "quantifier": "every c > 0, data set, starting point", "why_tests_cant": "all scales and iteration counts", "anchors": ["robuststats/estimation/covariance.py:tyler_shape_matrix_fixedpoint", "robuststats/estimation/covariance.py:complex_tyler_shape_matrix_fixedpoint"]}
{"id": "C35", "title": "Tyler's fixed point solves Tyler's equation and each update decreases Tyler's cost", "statement": "If the Tyler fixed-point estimator stops with error 0 the estimate S satisfies S = p/N sum x_i x_i^H/(x_i^H S^-1 x_i); and each update never increases the Tyler cost function exposed by the package on the same data.", "quantifier": "every data set without zero samples, every positive definite iterate", "why_tests_cant": "an inequality at every iterate for all data", "anchors": ["robuststats/estimation/covariance.py:tyler_shape_matrix_fixedpoint", "robuststats/models/cost.py:Tyler_cost_real", "robuststats/models/cost.py:Tyler_cost_complex"]}
{"id": "C36", "title": "the Student-t MLE estimators maximise the Student-t likelihood", "statement": "A fixed point of CenteredStudentMLE (ComplexCenteredStudentMLE) with parameter df is a stationary point of the log-likelihood that its own score method evaluates, multivariate_t (complex_multivariate_t) with the same df.", "quantifier": "every data set and df > 0", "why_tests_cant": "a statement about derivatives at all fixed points", "anchors": ["robuststats/estimation/covariance.py:student_t_mle_fixed_point", "robuststats/estimation/covariance.py:complex_student_t_mle_fixed_point", "robuststats/estimation/covariance.py:CenteredStudentMLE.score", "robuststats/estimation/covariance.py:ComplexCenteredStudentMLE.score"]}
{"id": "C37", "title": "the Huber estimators solve Huber's estimating equation", "statement": "A fixed point of the Huber estimators satisfies S = 1/N sum u(x_i^H S^-1 x_i) x_i x_i^H with u(t) = min(1, lambda/t)/beta, i.e. samples far from the centre are down-weighted.", "quantifier": "every data set, every quantile q", "why_tests_cant": "all data sets", "anchors": ["robuststats/estimation/covariance.py:huber_m_estimator_fixed_point", "robuststats/estimation/covariance.py:complex_huber_m_estimator_fixed_point", "robuststats/estimation/covariance.py:_huber_m_estimator_function"]}
{"id": "C38", "title": "bounded influence", "statement": "One update of the robust estimators from S adds at most a bounded multiple of S per sample however large that sample is: the contribution of a sample is at most (df/2+p)/N * S for Student-t (real), (df+p)/N * S (complex), p/N * S for Tyler, and max(1,...)-bounded for Huber.", "quantifier": "every sample value, unbounded", "why_tests_cant": "unbounded outliers", "anchors": ["robuststats/estimation/covariance.py:student_t_mle_fixed_point", "robuststats/estimation/covariance.py:tyler_shape_matrix_fixedpoint", "robuststats/estimation/covariance.py:huber_m_estimator_fixed_point"]}
{"id": "C39", "title": "real and complex estimators agree on real data", "statement": "On real-valued data the complex version of an estimator run with the same parameters and initial point gives the same sequence of estimates as the real version.", "quantifier": "every real data set", "why_tests_cant": "all data sets and iteration counts", "anchors": ["robuststats/estimation/covariance.py:tyler_shape_matrix_fixedpoint", "robuststats/estimation/covariance.py:complex_tyler_shape_matrix_fixedpoint", "robuststats/estimation/covariance.py:student_t_mle_fixed_point", "robuststats/estimation/covariance.py:complex_student_t_mle_fixed_point"]}
{"id": "C40", "title": "Tyler cost function laws", "statement": "Tyler_cost_real/complex(X,Q) equals p*sum log(x_i^H Q^-1 x_i) + n*log det Q, is unchanged when Q is multiplied by c > 0, changes by the constant 2p*sum log|c_i| when samples are rescaled and by 2n*log|det A| under X -> X A^T, Q -> A Q A^H; incompatible shapes raise AttributeError.", "quantifier": "every data set without zero samples and every positive definite Q", "why_tests_cant": "identities over all inputs", "anchors": ["robuststats/models/cost.py:Tyler_cost_real", "robuststats/models/cost.py:Tyler_cost_complex"]}
{"id": "C41", "title": "fit is all-or-nothing and self-consistent", "statement": "After a successful fit of a Tyler/Student/Huber estimator, covariance_, err_ and iteration_ all come from that fit; if fit raises, all three keep the values of the previous fit.", "quantifier": "every sequence of successful and failing fits", "why_tests_cant": "all histories including failures at every point", "anchors": ["robuststats/estimation/covariance.py:HuberMEstimator.fit", "robuststats/estimation/covariance.py:CenteredStudentMLE.fit", "robuststats/estimation/covariance.py:TylerShapeMatrix.fit", "robuststats/estimation/base.py:ComplexEmpiricalCovariance._set_covariance"]}
{"id": "C42", "title": "estimation options can be changed after construction", "statement": "Setting an option (tol, iter_max, normalisation, method) on a Tyler estimator instance, or on a deep copy of it, determines the next fit of that instance and of no other instance.", "quantifier": "every sequence of option changes, copies and fits", "why_tests_cant": "all histories over several instances", "anchors": ["robuststats/estimation/covariance.py:TylerShapeMatrix.set_method", "robuststats/estimation/covariance.py:ComplexTylerShapeMatrix.set_method"]}
{"id": "C43", "title": "score is available exactly after fit", "statement": "Student-t estimators' score returns None (and logs) before any successful fit and the log-likelihood after any successful fit.", "quantifier": "every call history", "why_tests_cant": "all histories and iteration limits", "anchors": ["robuststats/estimation/covariance.py:CenteredStudentMLE.score", "robuststats/estimation/covariance.py:ComplexCenteredStudentMLE.score"]}
{"id": "C44", "title": "online estimator: covariance is always the image of the estimate and stays on the manifold", "statement": "At any time after initialisation covariance_ is the covariance of the current estimate; on the Hermitian positive definite manifold, with a gradient returning Hermitian matrices, every estimate produced by update/fit from a Hermitian positive definite start is Hermitian positive definite, whatever the learning rate and the data.", "quantifier": "every sequence of update and fit calls, every learning rate, every data stream", "why_tests_cant": "invariants over all histories", "anchors": ["robuststats/online/estimation.py:StochasticGradientCovarianceEstimator.update", "robuststats/online/estimation.py:StochasticGradientCovarianceEstimator.fit", "robuststats/models/manifolds.py:HermitianPositiveDefinite.retr"]}
{"id": "C45", "title": "online estimator: learning-rate schedule", "statement": "fit(X, init) with the 'inverse iteration' schedule uses step lrate/k for the k-th sample of X, so the result of fit depends only on X, init and the constructor arguments.", "quantifier": "every data stream and every call history", "why_tests_cant": "all call histories", "anchors": ["robuststats/online/estimation.py:StochasticGradientCovarianceEstimator.fit", "robuststats/online/estimation.py:StochasticGradientCovarianceEstimator._current_lr"]}
{"id": "C46", "title": "online estimator: missing initial point is reported, not fatal", "statement": "update before initialisation, and fit without an initial point, log an error and return the estimator unchanged.", "quantifier": "every state", "why_tests_cant": "all states", "anchors": ["robuststats/online/estimation.py:StochasticGradientCovarianceEstimator.update", "robuststats/online/estimation.py:StochasticGradientCovarianceEstimator.fit"]}
{"id": "C47", "title": "strictly positive vectors manifold", "statement": "exp and retr from a strictly positive point stay strictly positive for every tangent vector; log inverts exp; dist is a metric equal to the norm of log; transp is an isometry; egrad2rgrad represents the Euclidean differential in the manifold's inner product.", "quantifier": "every dimension, point and tangent vector (each of the k columns)", "why_tests_cant": "all points and directions", "anchors": ["robuststats/models/manifolds.py:StrictlyPositiveVectors"]}
{"id": "C48", "title": "HPD retraction stays on the manifold", "statement": "HermitianPositiveDefinite.retr(x,u) is Hermitian positive definite for every Hermitian positive definite x and every Hermitian u of any size, retr(x,0) = x and its first order term is u.", "quantifier": "every x, u, n", "why_tests_cant": "all tangent vectors of any length", "anchors": ["robuststats/models/manifolds.py:HermitianPositiveDefinite.retr"]}
{"id": "C49", "title": "HPD exponential and logarithm are mutually inverse", "statement": "For Hermitian positive definite x, y and Hermitian u: exp(x,u) is Hermitian positive definite, exp(x, log(x,y)) = y and log(x, exp(x,u)) = u, independently of the eigenvectors chosen by the eigensolver.", "quantifier": "every size, all points and tangent vectors, every valid eigendecomposition", "why_tests_cant": "all inputs and all eigensolver choices", "anchors": ["robuststats/models/manifolds.py:HermitianPositiveDefinite.exp", "robuststats/models/manifolds.py:HermitianPositiveDefinite.log"]}
{"id": "C50", "title": "HPD metric", "statement": "inner(x,.,.) is real, symmetric, bilinear over the reals, positive definite on Hermitian matrices and invariant under congruence; norm(x,u)^2 = inner(x,u,u); egrad2rgrad represents the Euclidean gradient; proj is the identity on Hermitian matrices, idempotent and real-linear.", "quantifier": "every size, point and tangent vectors", "why_tests_cant": "all inputs", "anchors": ["robuststats/models/manifolds.py:HermitianPositiveDefinite.inner", "robuststats/models/manifolds.py:HermitianPositiveDefinite.norm", "robuststats/models/manifolds.py:HermitianPositiveDefinite.egrad2rgrad", "robuststats/models/manifolds.py:HermitianPositiveDefinite.proj"]}
{"id": "C51", "title": "HPD parallel transport is an isometry", "statement": "transp(x1,x2,.) maps Hermitian matrices to Hermitian matrices and preserves inner products: inner(x2, transp u, transp v) = inner(x1,u,v).", "quantifier": "every pair of points, all tangent vectors", "why_tests_cant": "all inputs", "anchors": ["robuststats/models/manifolds.py:HermitianPositiveDefinite.transp"]}
{"id": "C52", "title": "special HPD manifold", "statement": "rand, exp and retr of the unit-determinant manifold return Hermitian positive definite matrices with determinant 1; proj(x,u) is Hermitian with tr(x^-1 proj) = 0, idempotent; log between two points is tangent.", "quantifier": "every size, point and direction", "why_tests_cant": "all inputs", "anchors": ["robuststats/models/manifolds.py:SpecialHermitianPositiveDefinite"]}
{"id": "C53", "title": "weighted product manifold", "statement": "With weights w_k > 0, inner is the w-weighted sum of the factors' inner products, egrad2rgrad is the gradient for that inner product, randvec returns a unit-norm tangent vector.", "quantifier": "every list of factors and positive weights", "why_tests_cant": "all products, weights and points", "anchors": ["robuststats/models/manifolds.py:WeightedProduct"]}
{"id": "C54", "title": "Kronecker elliptical manifold metric", "statement": "The Fisher inner product is positive definite on non-zero tangent vectors for every df > 0 and egrad2rgrad is the gradient for that inner product; reported manifold dimensions are the true real dimensions.", "quantifier": "every a, b, df > 0, point and tangent vector", "why_tests_cant": "all inputs", "anchors": ["robuststats/models/manifolds.py:KroneckerHermitianPositiveElliptical", "robuststats/models/manifolds.py:HermitianPositiveDefinite.__init__", "robuststats/estimation/structured.py:KroneckerStudent.__init__"]}
{"id": "C55", "title": "HPD distance", "statement": "dist(x,y) is nonnegative, zero iff x = y, symmetric, equal to norm(x, log(x,y)), and invariant under congruence and inversion.", "quantifier": "every pair of points", "why_tests_cant": "all inputs", "anchors": ["robuststats/models/manifolds.py:HermitianPositiveDefinite.dist"]}
{"id": "C56", "title": "Kronecker MM estimation contract", "statement": "estimation_cov_kronecker_MM performs at most iter_max iterations, returns Hermitian positive definite factors of sizes a and b, the final error and the iteration count; when a*b is not the number of features nothing is estimated and the estimator's fit reports the problem.", "quantifier": "every data set, sizes, tolerances", "why_tests_cant": "all loop lengths", "anchors": ["robuststats/estimation/structured.py:estimation_cov_kronecker_MM", "robuststats/estimation/structured.py:KroneckerEllipticalMM.fit"]}
{"id": "C57", "title": "Kronecker MM models kron(A,B)", "statement": "The quadratic form minimised by the MM updates is x^H (A kron B)^-1 x, so the reported covariance kron(A,B) is the one fitted to the data.", "quantifier": "every a, b, factors and data", "why_tests_cant": "all inputs, in particular non-real factors", "anchors": ["robuststats/estimation/structured.py:estimation_cov_kronecker_MM", "robuststats/estimation/structured.py:KroneckerEllipticalMM.fit"]}
{"id": "C58", "title": "Kronecker Student gradient matches its cost", "statement": "The Euclidean gradient supplied to the optimiser is (a positive multiple of) the gradient of the supplied negative log-likelihood, including when a location is given.", "quantifier": "every data set, location and factors", "why_tests_cant": "all inputs", "anchors": ["robuststats/estimation/structured.py:_generate_egrad_function_kronecker_student", "robuststats/estimation/structured.py:_generate_cost_function_kronecker_student"]}
{"id": "C59", "title": "vec / unvec and the Kronecker product", "statement": "unvec(vec(M)) = M for square M, vec(unvec(v)) = v when len(v) is a perfect square and an AssertionError otherwise; vec stacks columns and vec(A X B) = kron(B^T, A) vec(X).", "quantifier": "every size", "why_tests_cant": "all sizes", "anchors": ["robuststats/utils/linalg.py:vec", "robuststats/utils/linalg.py:unvec"]}
{"id": "C60", "title": "vech / unvech round trip", "statement": "unvech(vech(M)) = M for every symmetric real or Hermitian complex matrix, vech(unvech(v)) = v for every vector of triangular length; other lengths are rejected.", "quantifier": "every size and dtype", "why_tests_cant": "all sizes and entries", "anchors": ["robuststats/utils/linalg.py:vech", "robuststats/utils/linalg.py:unvech"]}
{"id": "C61", "title": "matrix functions of covariance matrices", "statement": "sqrtm(C)^2 = C, invsqrtm(C) C invsqrtm(C) = I, expm(logm(C)) = C, powm(C,a) powm(C,b) = powm(C,a+b), powm(C,1) = C, logm(expm(H)) = H, all results Hermitian and independent of the eigenvectors returned by the eigensolver.", "quantifier": "every size, every Hermitian (positive definite) matrix, every valid eigendecomposition", "why_tests_cant": "all matrices and eigensolver choices", "anchors": ["robuststats/utils/linalg.py:_matrix_operator", "robuststats/utils/linalg.py:sqrtm", "robuststats/utils/linalg.py:invsqrtm", "robuststats/utils/linalg.py:logm", "robuststats/utils/linalg.py:expm", "robuststats/utils/linalg.py:powm"]}
{"id": "C62", "title": "Toeplitz covariance", "statement": "ToeplitzMatrix(rho,p) is Hermitian with unit diagonal and entries rho^(i-j) below the diagonal, and positive semidefinite.", "quantifier": "every rho and p", "why_tests_cant": "all sizes and coefficients", "anchors": ["robuststats/utils/linalg.py:ToeplitzMatrix"]}
{"id": "C63", "title": "temporary seeding restores the generator", "statement": "with temp_seed(s): body leaves the global random generator exactly in its previous state whether body returns or raises, also when nested, and everything drawn in body depends only on s.", "quantifier": "every body (any sequence of draws, nested blocks, exceptions), every seed and prior state", "why_tests_cant": "all programs and exception points", "anchors": ["robuststats/utils/montecarlo.py:temp_seed"]}
{"id": "C64", "title": "synthetic covariance generators and samplers", "statement": "generate_covariance / generate_complex_covariance return symmetric/Hermitian positive (semi)definite matrices, of unit determinant when asked (and non-singular); the samplers transform standard samples with second-moment matrix G into samples with second-moment matrix sqrt(C) G sqrt(C)^H, hence C when G = I, scaled by the textures.", "quantifier": "every size, every outcome of the random draws", "why_tests_cant": "all random outcomes", "anchors": ["robuststats/utils/generation_data.py:generate_covariance", "robuststats/utils/generation_data.py:generate_complex_covariance", "robuststats/utils/generation_data.py:sample_normal_distribution", "robuststats/utils/generation_data.py:sample_complex_compound_distribution"]}
{"id": "C65", "title": "argument checking helpers", "statement": "check_positive, check_type and check_value return without effect exactly on accepted values and raise ValueError/TypeError/ValueError exactly otherwise.", "quantifier": "every value and accepted set", "why_tests_cant": "all values", "anchors": ["robuststats/utils/checking.py:check_positive", "robuststats/utils/checking.py:check_type", "robuststats/utils/checking.py:check_value"]}
{"id": "C66", "title": "NumPy integers index a feature array like Python integers", "statement": "fa[np.int64(i)] is the same one-item feature array as fa[i] for every valid i.", "quantifier": "every feature array and index", "why_tests_cant": "all index types and histories", "anchors": ["robuststats/estimation/base.py:_FeatureArray.__getitem__"]}
{"id": "C67", "title": "append rejects items of the wrong shape", "statement": "append raises, without effect, when an item's shape differs from the component's declared shape.", "quantifier": "every declared shape and every item", "why_tests_cant": "all shapes, in particular those that broadcast", "anchors": ["robuststats/estimation/base.py:_FeatureArray.append"]}
{"id": "C68", "title": "entropy of the complex normal law", "statement": "complex_multivariate_normal.entropy(mean, cov) and the entropy of the frozen law equal p*log(pi) + p + log det cov for a complex Hermitian positive definite cov.", "quantifier": "every dimension, mean and Hermitian positive definite covariance", "why_tests_cant": "identity over all covariance matrices; two code paths", "anchors": ["robuststats/models/probability.py:complex_multivariate_normal_gen.entropy", "robuststats/models/probability.py:complex_multivariate_normal_frozen"]}
{"id": "C69", "title": "random tangent vectors have unit norm", "statement": "randvec of StrictlyPositiveVectors, HermitianPositiveDefinite and SpecialHermitianPositiveDefinite returns a tangent vector at x (Hermitian; with tr(x^-1 u) = 0 for the special manifold) of Riemannian norm 1 (per column for vectors), whenever the projected draw is not zero.", "quantifier": "every size, point and outcome of the random draws", "why_tests_cant": "all random outcomes and points", "anchors": ["robuststats/models/manifolds.py:StrictlyPositiveVectors.randvec", "robuststats/models/manifolds.py:HermitianPositiveDefinite.randvec", "robuststats/models/manifolds.py:SpecialHermitianPositiveDefinite.randvec"]}
{"id": "C70", "title": "exp follows geodesics and ehess2rhess is the second derivative along them", "statement": "The curve t -> exp(x, t*u) has velocity u at t = 0 and satisfies the geodesic equation c'' = c' c^-1 c' at every t; inner(x, ehess2rhess(x, egrad, ehess, u), u) equals <ehess, u> + <egrad, c''(0)>, the second derivative of the cost along that curve.", "quantifier": "every point, Hermitian direction, gradient and Hessian, every t", "why_tests_cant": "differential identities over all points and directions", "anchors": ["robuststats/models/manifolds.py:StrictlyPositiveVectors.exp", "robuststats/models/manifolds.py:StrictlyPositiveVectors.ehess2rhess", "robuststats/models/manifolds.py:HermitianPositiveDefinite.exp", "robuststats/models/manifolds.py:HermitianPositiveDefinite.ehess2rhess"]}
{"id": "C71", "title": "score of a fitted Tyler estimator", "statement": "After a successful fit, score(X_test, model='Gaussian') of a Tyler estimator returns the Gaussian log-likelihood of X_test under the estimated covariance.", "quantifier": "every history of constructions, option changes, copies and fits; every test set", "why_tests_cant": "all histories of the object", "anchors": ["robuststats/estimation/covariance.py:TylerShapeMatrix.score", "robuststats/estimation/covariance.py:ComplexTylerShapeMatrix.score"]}
{"id": "C72", "title": "Kronecker MM passes never increase Tyler's cost", "statement": "Each pass of estimation_cov_kronecker_MM (update of A, then of B) does not increase Tyler's cost, log det S + (p/n) sum log x^H S^-1 x, of the structured covariance it fits, S = kron(A.T, B); the cost strictly decreases unless neither factor changes; so the covariance fitted at the end of any run has a cost at most that of the identity it starts from.", "quantifier": "every data set without zero samples, sizes a and b, positive definite factors, number of passes", "why_tests_cant": "an inequality about every state of the iteration", "anchors": ["robuststats/estimation/structured.py:estimation_cov_kronecker_MM"]}
{"id": "C73", "title": "score of the Kronecker estimators", "statement": "score(X_test) of a fitted KroneckerStudent or KroneckerEllipticalMM returns the log-likelihood of X_test with covariance_ as covariance.", "quantifier": "every fitted object, test set, outcome of the optimiser", "why_tests_cant": "all objects and data", "anchors": ["robuststats/estimation/structured.py:KroneckerStudent.score", "robuststats/estimation/structured.py:KroneckerEllipticalMM.score"]}
{"id": "C74", "title": "fit of KroneckerStudent stores what the optimiser found", "statement": "After a successful fit on complex data, A_ and B_ are the factors the optimiser returned for this data set, covariance_ (and transform) is kron(A_, B_) and location_ the empirical mean, or zero when assume_centered; when the optimiser raises, fit raises the same exception and A_, B_, covariance_ are unchanged.", "quantifier": "every complex data set, previous state of the object, optimiser", "why_tests_cant": "all optimisers and states", "anchors": ["robuststats/estimation/structured.py:KroneckerStudent.fit"]}
{"id": "C75", "title": "random orthonormal frames", "statement": "generate_stiefel(p, k) and generate_complex_stiefel(p, k) return, for p > 1, the first min(k, p) columns of the drawn orthogonal/unitary matrix, which are orthonormal; for p <= 1 they and both covariance generators raise ValueError.", "quantifier": "every p, k and outcome of the draws", "why_tests_cant": "all sizes and random outcomes", "anchors": ["robuststats/utils/generation_data.py:generate_stiefel", "robuststats/utils/generation_data.py:generate_complex_stiefel"]}
{"id": "C76", "title": "textures have mean one and the requested variance", "statement": "The law of generate_textures_gamma_dist(N, nu) has mean 1 and variance 1/nu, that of generate_textures_lognormal_dist(N, variance) mean 1 and the variance asked for.", "quantifier": "every positive parameter", "why_tests_cant": "a statement about the law of the textures, not about one sample", "anchors": ["robuststats/utils/generation_data.py:generate_textures_gamma_dist", "robuststats/utils/generation_data.py:generate_textures_lognormal_dist"]}
{"id": "C77", "title": "Tyler's fixed points are the minimisers of its cost and are unique up to scale", "statement": "A positive definite matrix satisfies Tyler's equation exactly when it minimises the package's Tyler cost; when there is one, it is the only one up to a positive factor exactly when the samples do not split into two complementary subspaces; then any two runs of tyler_shape_matrix_fixedpoint (resp. complex) that end with error 0 return the same matrix, whatever init, tol and iter_max.", "quantifier": "every spanning data set without zero samples, positive definite initial points, options, correct eigensolvers", "why_tests_cant": "global optimality and uniqueness among all positive definite matrices", "anchors": ["robuststats/estimation/covariance.py:tyler_shape_matrix_fixedpoint", "robuststats/estimation/covariance.py:complex_tyler_shape_matrix_fixedpoint", "robuststats/models/cost.py:Tyler_cost_real", "robuststats/models/cost.py:Tyler_cost_complex"]}
{"id": "C78", "title": "Student's fixed point iterations converge linearly to the only solution", "statement": "The Student-t estimating equation has at most one positive definite solution; from any positive definite starting point the iterates of student_t_mle_fixed_point (resp. complex) converge to it linearly, the distance after k iterations being at most M * (Q/(a+Q))^k, Q the largest Mahalanobis distance of a sample at the solution and a = df/2 (df for complex data).", "quantifier": "every df > 0, data set, starting point, number of iterations", "why_tests_cant": "a rate of convergence over all starting points and iteration counts", "anchors": ["robuststats/estimation/covariance.py:student_t_mle_fixed_point", "robuststats/estimation/covariance.py:complex_student_t_mle_fixed_point"]}
{"id": "C79", "title": "Tyler's and Student's iterations always stop on the tolerance", "statement": "When a solution exists and tol > 0, every run stops within n iterations as soon as cost(init) - cost(solution) < n * N * (sqrt(1+tol)-1)^2, and the error it reports is then at most tol provided n <= iter_max.", "quantifier": "every data set, starting point, tolerance and iter_max", "why_tests_cant": "termination bound over all inputs", "anchors": ["robuststats/estimation/covariance.py:tyler_shape_matrix_fixedpoint", "robuststats/estimation/covariance.py:student_t_mle_fixed_point", "robuststats/estimation/covariance.py:complex_tyler_shape_matrix_fixedpoint", "robuststats/estimation/covariance.py:complex_student_t_mle_fixed_point"]}
{"id": "C80", "title": "the Hermitian part is the nearest Hermitian matrix", "statement": "hermitian(A) and multiherm(A) return the same matrix: the only Hermitian matrix nearest to A in Frobenius norm, A itself exactly when A is Hermitian; its quadratic form is the real part of that of A; multihconj is the entrywise conjugate of the transpose.", "quantifier": "every square matrix, real or complex", "why_tests_cant": "a minimum over all Hermitian matrices", "anchors": ["robuststats/utils/linalg.py:hermitian", "robuststats/utils/linalg.py:multiherm", "robuststats/utils/linalg.py:multihconj"]}
{"id": "C81", "title": "shape and dtype of a feature array", "statement": "After any history of appends, exports and (for one component) rejected appends, shape is 0 when no item was appended and otherwise one tuple (len, *item shape) per component, dtype the empty tuple or the agreed dtypes, and nb_manifolds the number of declared shapes.", "quantifier": "every history", "why_tests_cant": "all histories of the object", "anchors": ["robuststats/estimation/base.py:_FeatureArray.shape", "robuststats/estimation/base.py:_FeatureArray.dtype", "robuststats/estimation/base.py:_FeatureArray.nb_manifolds"]}
{"id": "C82", "title": "Huber's constants make the estimators consistent at the Gaussian model", "statement": "With the constants lbda and beta the Huber estimators compute from q, the weight function u satisfies E[u(t) t] = p for t the squared norm of a standard normal vector of dimension p (real, resp. complex circular).", "quantifier": "every dimension p and quantile 0 < q < 1", "why_tests_cant": "an expectation under a continuous law, for all p and q", "anchors": ["robuststats/estimation/covariance.py:huber_m_estimator_fixed_point", "robuststats/estimation/covariance.py:complex_huber_m_estimator_fixed_point", "robuststats/estimation/covariance.py:_huber_m_estimator_function"]}
{"id": "C83", "title": "Tyler's estimate by natural gradient is Tyler's estimate", "statement": "With an optimiser that finds the minimum of the cost it is given, tyler_shape_matrix_naturalgradient returns the normalised solution of Tyler's equation (what the fixed-point function returns), minus the cost of the samples divided by their norms, and None; complex_tyler_shape_matrix_naturalgradient returns the normalised solution of the complex equation.", "quantifier": "every exact optimiser, samples spanning the space, scaling normalisation and initial point", "why_tests_cant": "a statement about the minimiser over all positive definite matrices", "anchors": ["robuststats/estimation/covariance.py:tyler_shape_matrix_naturalgradient", "robuststats/estimation/covariance.py:_generate_realTyler_cost_function", "robuststats/estimation/covariance.py:complex_tyler_shape_matrix_naturalgradient"]}
{"id": "C84", "title": "the fixed-point iterations converge to a solution", "statement": "As soon as Tyler's equation has a solution, the estimates returned by the Tyler fixed-point functions from any positive definite start converge, with any normalisation, to one solution as the number of iterations grows or the tolerance decreases; when the samples do not split, to the normalised solution, and any relative accuracy is reached with some tolerance (and every smaller one) and large enough iter_max. The same for the Student functions.", "quantifier": "every data set without null samples and with a solution, every start, normalisation and accuracy", "why_tests_cant": "convergence: a statement on all accuracies and all numbers of iterations", "anchors": ["robuststats/estimation/covariance.py:tyler_shape_matrix_fixedpoint", "robuststats/estimation/covariance.py:student_t_mle_fixed_point", "robuststats/estimation/covariance.py:complex_tyler_shape_matrix_fixedpoint", "robuststats/estimation/covariance.py:complex_student_t_mle_fixed_point"]}
{"id": "C85", "title": "when Tyler's estimate exists and that it is computed", "statement": "For samples other than 0, Tyler's equation has a solution unique up to a positive factor exactly when every proper non-zero subspace V contains a proportion of samples less than dim V / p; then the fixed-point functions return, from any start and with any scaling normalisation, the normalised solution to any accuracy for small enough tol and large enough iter_max. More than p samples in general position are enough; p samples or less never are (p >= 2).", "quantifier": "every data set, start, normalisation and accuracy; real and complex", "why_tests_cant": "existence of a solution over all data sets", "anchors": ["robuststats/estimation/covariance.py:tyler_shape_matrix_fixedpoint", "robuststats/estimation/covariance.py:complex_tyler_shape_matrix_fixedpoint"]}
{"id": "C86", "title": "when Student's estimate exists and that it is computed", "statement": "For samples other than 0, Student's equation with parameter a (df/2 real, df complex) has a solution exactly when every proper subspace V contains a proportion of samples less than (a + dim V)/(a + p); then the fixed-point functions return it to any accuracy for small enough tol and large enough iter_max. p samples in general position are enough; the condition follows from that of Tyler's estimate.", "quantifier": "every data set, df > 0, start and accuracy; real and complex", "why_tests_cant": "existence of a solution over all data sets", "anchors": ["robuststats/estimation/covariance.py:student_t_mle_fixed_point", "robuststats/estimation/covariance.py:complex_student_t_mle_fixed_point"]}
{"id": "C87", "title": "the Hermitian distances are metrics and exp follows shortest paths", "statement": "The distances of HermitianPositiveDefinite, SpecialHermitianPositiveDefinite and of weighted products of Hermitian manifolds satisfy the triangle inequality. dist(exp(x, s u), exp(x, t u)) = |t - s| norm(x, u), in particular dist(x, exp(x, u)) = norm(x, u); a path of any number of steps from x to exp(x, u) is at least norm(x, u) long, and the path that follows exp(x, t u) is exactly that long.", "quantifier": "all stacks of positive definite matrices of any size, tangent vectors, times and finite paths; real and complex", "why_tests_cant": "an inequality between eigenvalues of products over all triples of matrices", "anchors": ["robuststats/models/manifolds.py:HermitianPositiveDefinite.dist", "robuststats/models/manifolds.py:HermitianPositiveDefinite.exp", "robuststats/models/manifolds.py:HermitianPositiveDefinite.norm", "robuststats/models/manifolds.py:SpecialHermitianPositiveDefinite.exp", "robuststats/models/manifolds.py:WeightedProduct.dist"]}
{"id": "C88", "title": "the iterations of the Huber functions converge", "statement": "The equation that the Huber functions iterate (weights beta max(1, q/lambda), as coded) has exactly one positive definite solution for samples other than 0 that span the space, the minimiser of sum rho(x^H S^-1 x) + N ln det S; for small enough tol and large enough iter_max the functions stop on the tolerance and return that solution to any accuracy.", "quantifier": "every data set, level q, start and accuracy; real and complex", "why_tests_cant": "existence of a solution and convergence of the iterates are statements about all data sets and infinite sequences", "anchors": ["robuststats/estimation/covariance.py:huber_m_estimator_fixed_point", "robuststats/estimation/covariance.py:complex_huber_m_estimator_fixed_point", "robuststats/estimation/covariance.py:_huber_m_estimator_function"]}
{"id": "C89", "title": "the only places where the Kronecker MM algorithm can stop are global minimisers", "statement": "A pass of estimation_cov_kronecker_MM leaves the pair (A, B) unchanged if and only if (A^T, B) minimises Tyler's cost of kron(P, Q) over all pairs of positive definite P, Q (the cost is not convex: this needs its convexity along geodesics).", "quantifier": "every data set without null samples, factor sizes, pair of positive definite matrices; real and complex", "why_tests_cant": "a statement on the global minimum over all pairs of matrices", "anchors": ["robuststats/estimation/structured.py:estimation_cov_kronecker_MM"]}
{"id": "C90", "title": "when the Kronecker structured Tyler's estimate exists", "statement": "For samples other than 0, the cost has a minimiser (P, Q), unique up to one positive factor each, if and only if the samples are stable: for any bases of the two spaces and weights on their vectors of sum 0, not all 0, the samples have coordinates on products of basis vectors with a negative total weight. The condition for Tyler's estimate without structure is enough; fewer samples than the dimension a b can be enough.", "quantifier": "every data set, factor sizes; real and complex", "why_tests_cant": "existence of a minimum over all data sets", "anchors": ["robuststats/estimation/structured.py:estimation_cov_kronecker_MM"]}
{"id": "C91", "title": "the Kronecker MM algorithm converges", "statement": "For stable samples the pairs that estimation_cov_kronecker_MM returns converge to a minimiser of the cost as the number of iterations grows or tol decreases, and for every tol > 0 it stops on the tolerance within a number of passes that does not depend on iter_max.", "quantifier": "every stable data set, factor sizes, accuracy; real and complex", "why_tests_cant": "convergence: a statement on all accuracies and all numbers of iterations", "anchors": ["robuststats/estimation/structured.py:estimation_cov_kronecker_MM"]}
{"id": "C92", "title": "complex normal cumulative distribution function", "statement": "complex_multivariate_normal.cdf(x, mean, cov) is the probability that the circular complex normal vector is at most x in every real and imaginary part (the integral of the density of C08), one value per sample; logcdf is its logarithm; the frozen law gives the same values.", "quantifier": "every mean, positive definite covariance, dimension, number n >= 1 of samples, exact integrator", "why_tests_cant": "needs the integral for every covariance; tests compare a few values", "anchors": ["robuststats/models/probability.py:complex_multivariate_normal_gen.cdf", "robuststats/models/probability.py:complex_multivariate_normal_gen.logcdf", "robuststats/models/probability.py:complex_multivariate_normal_frozen.cdf"]}
{"id": "C93", "title": "matprint prints aligned columns", "statement": "For every format accepted by format(), matprint prints one line per row, in which the text of each entry is padded with blanks to the length of the longest text of its column, so that all lines have the same length.", "quantifier": "every matrix size, texts and format specification", "why_tests_cant": "all format strings and all texts", "anchors": ["robuststats/utils/verbose.py:matprint"]}
{"id": "C94", "title": "progress messages go to the chosen logger", "statement": "Every call of logging_tqdm.display made after some progress adds exactly one record, the message given or else the progress bar, to the logger given or else to the module's; calls made before any progress add none.", "quantifier": "every sequence of calls", "why_tests_cant": "all histories", "anchors": ["robuststats/utils/verbose.py:logging_tqdm.display", "robuststats/utils/verbose.py:logging_tqdm.logger"]}
{"id": "C95", "title": "covariance and scale estimators return what was stored", "statement": "After any history of calls, get_scale and transform of a RealCovarianceScale return the last covariance and scales that were accepted, refused values leave the object unchanged, and any vector of scales, one per sample, can be stored.", "quantifier": "every history of calls", "why_tests_cant": "all histories", "anchors": ["robuststats/estimation/base.py:RealCovarianceScale._set_scale", "robuststats/estimation/base.py:RealCovarianceScale.get_scale", "robuststats/estimation/base.py:RealCovarianceScale.transform", "robuststats/estimation/base.py:RealCovarianceScale.fit"]}
{"id": "C96", "title": "KroneckerStudent stops at maximum likelihood estimates", "statement": "The points where the gradient used by KroneckerStudent vanishes on its manifold are the maximum likelihood estimates of a Student distribution with df degrees of freedom and covariance kron(A, B).", "quantifier": "every data set, sizes, df and pair of positive definite matrices", "why_tests_cant": "global optimality over all pairs of matrices", "anchors": ["robuststats/estimation/structured.py:KroneckerStudent.fit", "robuststats/estimation/structured.py:_generate_egrad_function_kronecker_student", "robuststats/estimation/structured.py:_generate_cost_function_kronecker_student", "robuststats/models/manifolds.py:KroneckerHermitianPositiveElliptical"]}
{"id": "C97", "title": "how many arbitrary samples Tyler's estimate resists to", "statement": "Tyler's equation keeps a solution, unique up to a factor, with a bounded condition number whatever non-zero values m of the samples take, exactly when adding m samples to a proper subspace V leaves it with a proportion of the samples less than dim V / p; for samples in general position, exactly when p (m + 1) < N.", "quantifier": "every data set without null samples, number m and values of the replaced samples; real and complex", "why_tests_cant": "a bound over all values of the replaced samples", "anchors": ["robuststats/estimation/covariance.py:tyler_shape_matrix_fixedpoint", "robuststats/estimation/covariance.py:complex_tyler_shape_matrix_fixedpoint"]}
{"id": "C98", "title": "the results of the Tyler functions are robust", "statement": "For a data set that resists to m arbitrary samples the condition number of the matrix returned by tyler_shape_matrix_fixedpoint (resp. complex) is bounded, whatever values m samples take and whatever tol, iter_max and normalisation.", "quantifier": "every data set, values of the replaced samples, options; real and complex", "why_tests_cant": "a bound over all values of the replaced samples", "anchors": ["robuststats/estimation/covariance.py:tyler_shape_matrix_fixedpoint", "robuststats/estimation/covariance.py:complex_tyler_shape_matrix_fixedpoint"]}
{"id": "C99", "title": "how many arbitrary samples the Student estimate resists to", "statement": "Student's equation with df degrees of freedom (a = df/2 for real data, df for complex data) keeps a solution, with eigenvalues between two positive bounds, whatever non-zero values m of the samples take, exactly when (a + p) m < N and adding m samples to a proper subspace V (including 0) leaves it with a proportion of the samples less than (a + dim V) / (a + p); for samples in general position, exactly when (a + p) m < N, (a + p) m < N a and (a + p)(p - 1 + m) < N (a + p - 1).", "quantifier": "every data set without null samples, degrees of freedom, number m and values of the replaced samples; real and complex", "why_tests_cant": "bounds over all values of the replaced samples", "anchors": ["robuststats/estimation/covariance.py:student_t_mle_fixed_point", "robuststats/estimation/covariance.py:complex_student_t_mle_fixed_point"]}
{"id": "C100", "title": "the results of the Student functions are robust", "statement": "For a data set that resists to m arbitrary samples the eigenvalues of the matrix returned by student_t_mle_fixed_point (resp. complex) stay between two positive bounds, whatever values m samples take and whatever tol and iter_max.", "quantifier": "every data set, degrees of freedom, values of the replaced samples, options; real and complex", "why_tests_cant": "bounds over all values of the replaced samples", "anchors": ["robuststats/estimation/covariance.py:student_t_mle_fixed_point", "robuststats/estimation/covariance.py:complex_student_t_mle_fixed_point"]}
{"id": "C101", "title": "the distance of a Student result to the estimate is known from the result", "statement": "Let (sigma, delta, k) be a result of student_t_mle_fixed_point (a = df/2; resp. complex, a = df) with delta < 1, l at most the least eigenvalue of sigma, Q at least the Mahalanobis distances of the samples to sigma, n = delta |sigma| / (1 - delta) < l, e = n / (l - n) and e Q < a. Then Student's equation has a solution T and |T - sigma| <= e (a + Q) / (a - e Q) |sigma|, which tends to 0 with delta.", "quantifier": "every data set of full rank with nonzero samples, starting point, options and result; real and complex", "why_tests_cant": "the estimate itself is never computed; the bound is on a distance to an unknown matrix", "anchors": ["robuststats/estimation/covariance.py:student_t_mle_fixed_point", "robuststats/estimation/covariance.py:complex_student_t_mle_fixed_point"]}
{"id": "C102", "title": "the Student estimate depends continuously on the data", "statement": "If Student's equation has a solution S for samples X (nonzero), it has exactly one for every Y close enough to X, and that one is as close to S as wished; the results of student_t_mle_fixed_point (resp. complex) on Y from a given starting matrix are as close to S as wished after a number of updates that does not depend on Y.", "quantifier": "every data set, degrees of freedom, perturbation; real and complex", "why_tests_cant": "limit over all small perturbations of the data, and over all numbers of updates", "anchors": ["robuststats/estimation/covariance.py:student_t_mle_fixed_point", "robuststats/estimation/covariance.py:complex_student_t_mle_fixed_point"]}
{"id": "C103", "title": "the gradient that Tyler's natural gradient estimator follows", "statement": "The cost given to pymanopt by tyler_shape_matrix_naturalgradient has a derivative along every symmetric direction at every positive definite Q (also the complex cost, along Hermitian directions); if autograd.grad computes it, the Riemannian gradient that pymanopt forms from egrad is N times Q minus one update of tyler_shape_matrix_fixedpoint: following it with step 1/N is the fixed-point iteration. It is zero exactly at the solutions of Tyler's equation and elsewhere its opposite is a descent direction; an optimiser that stops where it vanishes makes the estimator return a normalised solution, the same matrix as the fixed-point function.", "quantifier": "every data set with nonzero samples, positive definite matrix, direction, autograd that computes derivatives, optimiser that stops at zeros of the gradient", "why_tests_cant": "derivatives at every point and direction; holds for whatever optimiser is used", "anchors": ["robuststats/estimation/covariance.py:_generate_Tyler_egrad", "robuststats/estimation/covariance.py:tyler_shape_matrix_naturalgradient", "robuststats/models/cost.py:Tyler_cost_real"]}
{"id": "C104", "title": "Tyler's and Student's costs are convex along the geodesics of the manifolds", "statement": "Along t -> exp(x, t u) of HermitianPositiveDefinite, and of SpecialHermitianPositiveDefinite, Tyler_cost_real and Tyler_cost_complex are convex functions of t, and the scores of the Student estimators concave ones; the cost at exp(x, t log(x, y)) is at most (1-t) cost(x) + t cost(y). kron(exp(A, U), exp(B, V)) = exp(kron(A, B), kron(U, B) + kron(A, V)): Tyler's cost of kron(A, B) and the cost that KroneckerStudent gives to pymanopt are convex along geodesics of the two factors. Local minima of these costs (in the manifold's distance) are global.", "quantifier": "every data set with nonzero samples, points, tangent vectors, degrees of freedom and location; real and complex", "why_tests_cant": "inequality along every geodesic; local minima cannot be enumerated", "anchors": ["robuststats/models/manifolds.py:HermitianPositiveDefinite.exp", "robuststats/models/manifolds.py:SpecialHermitianPositiveDefinite.exp", "robuststats/models/cost.py:Tyler_cost_complex", "robuststats/estimation/structured.py:_generate_cost_function_kronecker_student"]}
{"id": "C105", "title": "Tyler's estimate depends continuously on the samples", "statement": "When no proper subspace contains its share of the samples or more (the condition of C85), the same holds for all data within some distance, Tyler's equation keeps one solution up to a factor, and its normalised solution tends to that of the original data. The estimates returned by tyler_shape_matrix_fixedpoint and complex_tyler_shape_matrix_fixedpoint on perturbed data, from a given or the default starting point and with any normalisation, are within any accuracy of the normalised limit for the original data once enough iterations are made, and how many does not depend on the perturbation.", "quantifier": "every data set satisfying the condition, perturbation, initial matrix, normalisation, tolerance; real and complex", "why_tests_cant": "limit over all perturbations and unbounded iteration", "anchors": ["robuststats/estimation/covariance.py:tyler_shape_matrix_fixedpoint", "robuststats/estimation/covariance.py:complex_tyler_shape_matrix_fixedpoint", "robuststats/estimation/covariance.py:TylerShapeMatrix.fit"]}
{"id": "C106", "title": "transp is the parallel transport along geodesics", "statement": "Along the geodesic t -> exp(x, t u) of HermitianPositiveDefinite, the field transp(x, exp(x, t u), v) starts from v and has a zero covariant derivative V' - (c' c^-1 V + V c^-1 c')/2, and it is the only field that does. It carries the velocity of the geodesic, transp(x, y, log(x, y)) = -log(y, x), and transp(y, x, transp(x, y, v)) = v. On SpecialHermitianPositiveDefinite, between tangent vectors, transp is the same map. On StrictlyPositiveVectors the covariant derivative V' - c' c^-1 V (entrywise) is zero and the same holds.", "quantifier": "every positive definite x and y, Hermitian direction, vector, time; real and complex; every k", "why_tests_cant": "derivatives along all curves, uniqueness over all fields", "anchors": ["robuststats/models/manifolds.py:HermitianPositiveDefinite.transp", "robuststats/models/manifolds.py:SpecialHermitianPositiveDefinite.transp", "robuststats/models/manifolds.py:StrictlyPositiveVectors.transp"]}
{"id": "C107", "title": "retr follows exp to the second order", "statement": "dist(retr(x, u), exp(x, u)) <= norm(x, u)^3 / 3 on HermitianPositiveDefinite, on SpecialHermitianPositiveDefinite and, column by column, on StrictlyPositiveVectors: the retraction used by the optimisers agrees with the exponential map up to an error of the third order, uniformly over the manifold.", "quantifier": "every point and tangent vector, of any norm; real and complex; every k", "why_tests_cant": "inequality over all points and vectors", "anchors": ["robuststats/models/manifolds.py:HermitianPositiveDefinite.retr", "robuststats/models/manifolds.py:SpecialHermitianPositiveDefinite.retr", "robuststats/models/manifolds.py:StrictlyPositiveVectors.retr"]}
{"id": "C108", "title": "Tyler's fixed point converges linearly and its error is proportional to the tolerance", "statement": "When the samples do not split and Tyler's equation has a solution, there is r < 1, depending on the samples only, such that from any starting point (or the default one) the estimate returned by tyler_shape_matrix_fixedpoint after k iterations, with any normalisation, is at relative distance at most C r^k of the (normalised) solution; it is also at distance at most C times the change reported with it; a run with tolerance tol makes at most a + b ln(1/tol) iterations, b depending on the samples only, and with that many iterations allowed the result is within C tol of the solution. The same holds for the complex function.", "quantifier": "all samples, starting points, tolerances, normalisations, numbers of iterations; real and complex", "why_tests_cant": "asymptotic rate over all starting points and tolerances", "anchors": ["robuststats/estimation/covariance.py:tyler_shape_matrix_fixedpoint", "robuststats/estimation/covariance.py:complex_tyler_shape_matrix_fixedpoint"]}
{"id": "C109", "title": "the estimates of Tyler and Student move at most proportionally to a perturbation of the samples", "statement": "When Tyler's equation has one solution up to a factor for the samples X, there is C such that for all samples Y near X the normalised solutions differ from those for X by at most C times the distance of Y to X (relative Frobenius distance). From a given starting matrix or the default one, the estimates returned by tyler_shape_matrix_fixedpoint for Y after enough updates, how many not depending on Y, differ from the normalised solution for X by at most C times the sum of the distance of Y to X and of the change reported with the estimate. The same holds for student_t_mle_fixed_point without normalisation, and for the complex functions.", "quantifier": "all samples near given samples, starting points, tolerances, normalisations, numbers of iterations; real and complex", "why_tests_cant": "a modulus of continuity over all perturbations of the samples", "anchors": ["robuststats/estimation/covariance.py:tyler_shape_matrix_fixedpoint", "robuststats/estimation/covariance.py:complex_tyler_shape_matrix_fixedpoint", "robuststats/estimation/covariance.py:student_t_mle_fixed_point", "robuststats/estimation/covariance.py:complex_student_t_mle_fixed_point"]}
{"id": "C110", "title": "sizes and Hermitian parts are exact in binary64", "statement": "In IEEE binary64 arithmetic, unvec finds the size k of the matrix from a vector of k*k entries and rejects all other lengths (below 2^63), and unvech finds the number k of rows from k(k+1)/2 entries and rejects all other lengths (below 2^60): no rounding error of the square root or of the conversion of the length reaches the result. hermitian and multiherm return a matrix with finite entries that is exactly Hermitian (symmetric for real arrays), equal to the input when it is Hermitian, as long as the entries are below 2^1023; the bound is needed. unvech gives back exactly the Hermitian matrix whose upper triangle it is given.", "quantifier": "all lengths and all arrays of finite binary64 numbers below 2^1023", "why_tests_cant": "every binary64 value and every length; rounding", "anchors": ["robuststats/utils/linalg.py:unvec", "robuststats/utils/linalg.py:unvech", "robuststats/utils/linalg.py:hermitian", "robuststats/utils/linalg.py:multiherm"]}
{"id": "C111", "title": "data conversions are exact in binary64", "statement": "In IEEE binary64 arithmetic complex data converted by arraytoreal and back by arraytocomplex is unchanged, and so is real data converted the other way.", "quantifier": "all binary64 values, infinities included", "why_tests_cant": "every binary64 value", "anchors": ["robuststats/models/mappings.py:arraytoreal", "robuststats/models/mappings.py:arraytocomplex"]}
{"id": "C112", "title": "normalised shape matrices have a unit element and stay Hermitian in binary64", "statement": "In IEEE binary64 arithmetic a shape matrix normalised with 'element' has a first element equal to one, for the real and complex functions, and dividing by a normalisation keeps an exactly Hermitian matrix exactly Hermitian.", "quantifier": "all matrices of finite binary64 numbers with a first element that is neither zero nor subnormal", "why_tests_cant": "every binary64 value; rounding", "anchors": ["robuststats/estimation/covariance.py:get_normalisation_function", "robuststats/estimation/covariance.py:tyler_shape_matrix_fixedpoint", "robuststats/estimation/covariance.py:complex_tyler_shape_matrix_fixedpoint"]}
{"id": "C113", "title": "printing a feature array shows its items", "statement": "str() and repr() of a feature array show exactly its items, so that feature arrays holding the same items print the same.", "quantifier": "all feature arrays after any history of appends and exports", "why_tests_cant": "all histories", "anchors": ["robuststats/estimation/base.py:_FeatureArray.__str__", "robuststats/estimation/base.py:_FeatureArray.__repr__"]}
{"id": "C114", "title": "the Kronecker MM estimates follow the samples", "statement": "The results of estimation_cov_kronecker_MM (factors, errors, number of iterations) do not depend on the order of the samples nor on their norms and phases. When the unstacked samples are multiplied by unitary matrices on both sides, the factors are moved by these matrices, after the same number of iterations, so that the covariance A^T (x) B they model is congruent to the first one (the stored kron(A, B) moves with the conjugate of one of the matrices). When the samples are multiplied by any invertible matrices on both sides, the limits of the results are moved by them up to a factor for each matrix, and they exist for the new samples if they exist for the old ones.", "quantifier": "all samples, factors of all sizes, all tolerances and numbers of iterations; all invertible changes of coordinates", "why_tests_cant": "relates all pairs of runs of an iterative algorithm", "anchors": ["robuststats/estimation/structured.py:estimation_cov_kronecker_MM", "robuststats/estimation/structured.py:KroneckerEllipticalMM"]}
{"id": "C115", "title": "the estimates have the symmetries of the samples", "statement": "A linear map that permutes the samples leaves the results of the fixed-point functions unchanged (A s A^H = s), for every tolerance and bound on the iterations, when it leaves the initial point unchanged or when there is none; for Tyler's functions it is enough that it permutes the directions of the samples. In particular the results are diagonal when the set of samples does not change with the signs of the coordinates, and they are exactly multiples of A A^H when the samples are A z with a set of z that does not change with signs and exchanges of coordinates; A A^H solves Tyler's equation, all solutions of Student's and Huber's equations are multiples of it, and Tyler's functions compute it from any initial point when the samples are not reducible.", "quantifier": "all samples, sizes, tolerances, numbers of iterations and symmetries", "why_tests_cant": "quantifies over all symmetric sets of samples and all numbers of iterations; exact equalities", "anchors": ["robuststats/estimation/covariance.py:tyler_shape_matrix_fixedpoint", "robuststats/estimation/covariance.py:student_t_mle_fixed_point", "robuststats/estimation/covariance.py:huber_m_estimator_fixed_point", "robuststats/estimation/covariance.py:complex_tyler_shape_matrix_fixedpoint", "robuststats/estimation/covariance.py:complex_student_t_mle_fixed_point", "robuststats/estimation/covariance.py:complex_huber_m_estimator_fixed_point"]}
{"id": "C116", "title": "an update of the online estimator decreases the cost of the sample", "statement": "When the function rgrad given to the online estimator returns the Riemannian gradient of a cost, an update with a small step decreases the cost of the sample it is given.", "quantifier": "all states, samples, steps and costs", "why_tests_cant": "quantifies over all states and samples; tests look at one final estimate", "anchors": ["robuststats/online/estimation.py:StochasticGradientCovarianceEstimator.update", "robuststats/online/estimation.py:StochasticGradientCovarianceEstimator.fit"]}
{"id": "C117", "title": "samples can be given to the online estimator at once, in blocks, or one by one", "statement": "Fitting the rows of two arrays one above the other leaves the same state as fitting the first array and then the second from the estimate reached; so does setting the initial point and calling update on the samples one by one.", "quantifier": "all states, data, initial points, schedules, gradients and manifolds, calls that raise included", "why_tests_cant": "quantifies over all splits of the data and all gradients", "anchors": ["robuststats/online/estimation.py:StochasticGradientCovarianceEstimator.fit", "robuststats/online/estimation.py:StochasticGradientCovarianceEstimator.update"]}
{"id": "C118", "title": "the online estimator is equivariant", "statement": "With gradients that transform with the data, any history of calls on the data A x from the points A e A^H gives the estimates A e A^H; conjugate data give conjugate estimates. In particular for the gradients of elliptical costs, with which real data and real initial points give real estimates.", "quantifier": "all histories, data, sizes, invertible matrices, steps, gradients and weights", "why_tests_cant": "quantifies over all histories and invertible matrices", "anchors": ["robuststats/online/estimation.py:StochasticGradientCovarianceEstimator.fit", "robuststats/online/estimation.py:StochasticGradientCovarianceEstimator.update", "robuststats/models/manifolds.py:HermitianPositiveDefinite.retr"]}
{"id": "C119", "title": "Student's estimates go from Tyler's estimate to the empirical covariance", "statement": "With many degrees of freedom Student's equation has a solution as soon as the samples span the space, at relative distance at most (2N + p)/a of the empirical covariance for a >= 2N (a is df/2 for the real function, df for the complex one); so are the results of the functions from the default initial point, for every tolerance and bound on the iterations. When the degrees of freedom tend to 0 and Tyler's estimate exists, the solutions tend to the solution T of Tyler's equation for which the mean of 1/(x^H T^-1 x) is 1/p, normalised matrices included, and so do the results of the functions.", "quantifier": "all samples, sizes, degrees of freedom, initial points and tolerances", "why_tests_cant": "limits in a real parameter, over all samples", "anchors": ["robuststats/estimation/covariance.py:student_t_mle_fixed_point", "robuststats/estimation/covariance.py:complex_student_t_mle_fixed_point", "robuststats/estimation/covariance.py:tyler_shape_matrix_fixedpoint"]}
{"id": "C120", "title": "The operations of the Hermitian manifolds commute with the isometries", "statement": "On HermitianPositiveDefinite the maps x -> g x g^H (g invertible), x -> x^-1 and x -> conj(x), with their derivatives, commute with exp, log and transp, and egrad2rgrad and ehess2rhess send the Euclidean derivatives of f composed with the map to the images of the Riemannian ones of f. retr commutes with the congruences and the conjugation (it does not with the inversion). Any two points are exchanged by a congruence; the symmetry y -> x y^-1 x fixes x, is an involution, keeps dist and reverses exp. On SpecialHermitianPositiveDefinite the same holds for exp, log, transp, retr and egrad2rgrad with congruences such that |det g| = 1, and for the inversion except retr.", "quantifier": "all points, tangent vectors, Euclidean derivatives, sizes, stacks and congruences, real or complex", "why_tests_cant": "equalities of matrix functions for every isometry", "anchors": ["robuststats/models/manifolds.py:HermitianPositiveDefinite.exp", "robuststats/models/manifolds.py:HermitianPositiveDefinite.log", "robuststats/models/manifolds.py:HermitianPositiveDefinite.transp", "robuststats/models/manifolds.py:HermitianPositiveDefinite.retr", "robuststats/models/manifolds.py:HermitianPositiveDefinite.egrad2rgrad", "robuststats/models/manifolds.py:HermitianPositiveDefinite.ehess2rhess", "robuststats/models/manifolds.py:SpecialHermitianPositiveDefinite.exp", "robuststats/models/manifolds.py:SpecialHermitianPositiveDefinite.transp"]}
{"id": "C121", "title": "Contaminated samples: the estimates of Tyler and Student move at most proportionally to the contamination", "statement": "Let the means over the samples X and Y, possibly of different numbers, of every function with values in [0,1] differ by at most e (total variation distance; replacing k of N samples gives k/N, adding k gives k/(N+k), repeating all samples m times gives 0). Student: if S solves the equation for X, x^H S^-1 x <= Q for its samples and h = e (a+p) satisfies h (a+Q) < a, the equation for Y has exactly one solution T, and T and S are within a factor 1 + h (a+Q) / (a - h (a+Q)) of each other, whatever the size of the new samples. Tyler: under the condition of the equation for X there are e0 > 0 and C such that for e <= e0 the condition holds for Y and the normalised solutions differ by at most C e in relative Frobenius norm. The results of the functions on Y satisfy the same bounds up to an arbitrary error, for a small tolerance and enough iterations.", "quantifier": "all samples, contaminations, numbers of samples, dimensions, degrees of freedom, normalisations and starting points, real and complex", "why_tests_cant": "a bound over every contamination of a given amount, including unbounded ones", "anchors": ["robuststats/estimation/covariance.py:tyler_shape_matrix_fixedpoint", "robuststats/estimation/covariance.py:complex_tyler_shape_matrix_fixedpoint", "robuststats/estimation/covariance.py:student_t_mle_fixed_point", "robuststats/estimation/covariance.py:complex_student_t_mle_fixed_point"]}
{"id": "C122", "title": "the Huber functions resist to arbitrary samples", "statement": "For a data set whose samples still span the space when any m of them are left out, the eigenvalues of the matrix returned by huber_m_estimator_fixed_point (resp. complex) stay between two positive bounds, whatever values m samples take.", "quantifier": "all data sets, levels q, starting points, tolerances, iteration limits and values of the replaced samples; real and complex", "why_tests_cant": "a bound over every value of the replaced samples, including unbounded ones", "anchors": ["robuststats/estimation/covariance.py:huber_m_estimator_fixed_point", "robuststats/estimation/covariance.py:complex_huber_m_estimator_fixed_point", "robuststats/estimation/covariance.py:_huber_m_estimator_function"]}
{"id": "C123", "title": "the Huber estimate depends continuously on the samples", "statement": "For non-zero samples spanning the space, all data sets close enough to X have exactly one solution of the equation iterated by huber_m_estimator_fixed_point (resp. complex), as close as wished to the solution for X; when the samples of X at a distance below lambda of its solution span the space, the results of the function on all these data sets are as close as wished to that solution after a number of updates that is the same for all of them, from a given starting matrix or from the default one.", "quantifier": "all data sets, perturbations of all their entries, levels q, starting points, tolerances and iteration limits; real and complex", "why_tests_cant": "continuity of the solution of a matrix equation whose weight is not smooth, uniformly over all small perturbations; floating-point tests see finitely many of them", "anchors": ["robuststats/estimation/covariance.py:huber_m_estimator_fixed_point", "robuststats/estimation/covariance.py:complex_huber_m_estimator_fixed_point", "robuststats/estimation/covariance.py:_huber_m_estimator_function"]}
{"id": "C124", "title": "the estimates of Student and Tyler are differentiable functions of the samples", "statement": "For non-zero samples, at the solution S of Student's equation (resp. of Tyler's equation with the trace fixed, under the condition of C105), the linearised equation has exactly one solution D for every displacement U of the samples, D is linear in U, and the solution for the samples X + U is S + D up to an error that is negligible before the norm of U; the same holds for the results of student_t_mle_fixed_point, complex_student_t_mle_fixed_point and, normalised by the trace, tyler_shape_matrix_fixedpoint and complex_tyler_shape_matrix_fixedpoint, once enough updates are made and the last relative change is negligible before the norm of U.", "quantifier": "all data sets, displacements of all their entries, degrees of freedom > 0, starting points, tolerances and iteration limits; real and complex", "why_tests_cant": "differentiability of the solution of a matrix equation, with an error of smaller order uniformly over all small displacements; tests see finitely many displacements and cannot distinguish orders", "anchors": ["robuststats/estimation/covariance.py:student_t_mle_fixed_point", "robuststats/estimation/covariance.py:complex_student_t_mle_fixed_point", "robuststats/estimation/covariance.py:tyler_shape_matrix_fixedpoint", "robuststats/estimation/covariance.py:complex_tyler_shape_matrix_fixedpoint"]}
{"id": "C125", "title": "the estimates only depend on the empirical distribution of the samples", "statement": "When every sample makes up the same fraction of two non-empty data sets of possibly different sizes (for instance a data set and the same data set repeated, in any order), the fixed-point functions of Huber, Student and Tyler (real and complex), complex_empirical_covariance and estimation_cov_kronecker_MM return exactly the same value on both, including the error and the number of iterations, and Tyler's costs are in the proportion of the numbers of samples.", "quantifier": "all pairs of data sets of any two sizes with the same frequencies, all eigenvalue solvers, starting points, tolerances and iteration limits", "why_tests_cant": "an equality of whole runs over all pairs of data sets of arbitrary, different sizes; tests can only try some", "anchors": ["robuststats/estimation/covariance.py:tyler_shape_matrix_fixedpoint", "robuststats/estimation/covariance.py:student_t_mle_fixed_point", "robuststats/estimation/covariance.py:huber_m_estimator_fixed_point", "robuststats/estimation/covariance.py:complex_tyler_shape_matrix_fixedpoint", "robuststats/estimation/base.py:complex_empirical_covariance", "robuststats/estimation/structured.py:estimation_cov_kronecker_MM", "robuststats/models/cost.py:Tyler_cost_real"]}
{"id": "C126", "title": "the Kronecker structured estimate depends continuously on the samples", "statement": "When the samples are stable (the condition under which the Kronecker structured Tyler's estimate exists and is unique up to a factor for each matrix), all data sets close enough to them are stable too, and the two matrices that minimise Tyler's cost for them (those that estimation_cov_kronecker_MM approaches, C91) are as close as wanted to those of the original samples, for a suitable choice of the factors.", "quantifier": "all sizes, all real or complex stable samples, all precisions, all perturbed samples in a ball around them", "why_tests_cant": "continuity of an estimate defined by a non-convex minimisation over an infinite set, at every stable data set and for all perturbations", "anchors": ["robuststats/estimation/structured.py:estimation_cov_kronecker_MM"]}
{"id": "C127", "title": "the results of estimation_cov_kronecker_MM depend continuously on the samples, whatever the number of iterations", "statement": "Around stable samples X, for every precision there is one ball of samples Y in which: the results for X and for Y after the same number of iterations, whatever this number, agree up to the precision; after a number k0 of iterations that is the same for all Y, and when the function stops because of a tolerance below one that is the same for all Y, its result agrees up to the precision with the limit of the algorithm for X; with the precision as tolerance it stops after a number of iterations that is the same for all Y.", "quantifier": "all sizes, all real or complex stable samples, all precisions, tolerances and iter_max, all perturbed samples in a ball around them", "why_tests_cant": "uniformity over an unbounded number of iterations and over all perturbations", "anchors": ["robuststats/estimation/structured.py:estimation_cov_kronecker_MM"]}
{"id": "C128", "title": "the Kronecker structured estimate and Tyler's estimate of the same samples", "statement": "When the samples satisfy the condition under which Tyler's estimate T exists and is unique up to a factor, estimation_cov_kronecker_MM converges to factors whose cost is at least that of T; the structured covariance is proportional to T if and only if their costs agree, if and only if T is a Kronecker product of positive definite matrices. With a = 1 the structure is no constraint and kron(A, B) tends to a multiple of T; with b = 1 it is no constraint either, and kron(A, B) tends to a multiple of the transpose (the conjugate) of T.", "quantifier": "all sizes, all real or complex samples satisfying the condition, all tolerances and iter_max", "why_tests_cant": "relates the limits of two iterative algorithms over all data sets", "anchors": ["robuststats/estimation/structured.py:estimation_cov_kronecker_MM", "robuststats/estimation/covariance.py:complex_tyler_shape_matrix_fixedpoint"]}
{"id": "C129", "title": "Student's estimate depends continuously on the degrees of freedom", "statement": "If Student's equation has a solution S for df, then it has exactly one for all degrees of freedom close to df, at a distance of S bounded explicitly by the ratio of the two numbers and by the largest Mahalanobis distance of a sample to S; the functions called with degrees of freedom close to df compute, with a small tolerance and enough iterations, a matrix as close as wanted to S.", "quantifier": "all sizes, all real or complex samples different from 0 for which the equation has a solution, all df > 0, all starting points", "why_tests_cant": "continuity of an implicitly defined matrix in a real parameter, and limits of iterations", "anchors": ["robuststats/estimation/covariance.py:student_t_mle_fixed_point", "robuststats/estimation/covariance.py:complex_student_t_mle_fixed_point"]}
{"id": "C130", "title": "the Kronecker structured estimates have the symmetries of the samples", "statement": "If multiplying the rows and the columns of the unstacked samples by unitary matrices gives the same samples up to their order and a number for each of them, then every result of estimation_cov_kronecker_MM is unchanged by these matrices, for all tolerances and iter_max. Hence A and B are diagonal when the samples are unchanged by the change of sign of any row or column, and multiples of the identity when they are unchanged by exchanges of rows and of columns too; and when such samples are multiplied by P (x) Q for unknown invertible matrices P and Q, the results converge to multiples of the transpose of P P^H and of Q Q^H.", "quantifier": "all sizes, all real or complex samples with these symmetries (for the limits: stable ones), all tolerances and iter_max, all invertible P and Q", "why_tests_cant": "symmetry of the results of an iterative algorithm over all symmetric data sets, and recovery of a continuous parameter in the limit", "anchors": ["robuststats/estimation/structured.py:estimation_cov_kronecker_MM"]}
{"id": "C131", "title": "Huber's estimate depends continuously on its parameter q", "statement": "If the equation that the Huber fixed point functions iterate has a solution S for the threshold lbda and the factor beta, then it has exactly one for all lbda and beta close to these, as close as wanted to S. Since lbda and beta are continuous functions of q, the solution is a continuous function of q in (0, 1); and, when the samples whose distance to S does not exceed lbda span the space, the functions called with q close enough to the given one compute, after enough iterations, a matrix as close as wanted to S.", "quantifier": "all sizes, all real or complex samples different from 0 for which the equation has a solution, all 0 < q < 1, all positive definite starting points", "why_tests_cant": "continuity of an implicitly defined matrix in a real parameter, through quantiles of a distribution, and limits of iterations", "anchors": ["robuststats/estimation/covariance.py:huber_m_estimator_fixed_point", "robuststats/estimation/covariance.py:complex_huber_m_estimator_fixed_point"]}
{"id": "C132", "title": "the Huber functions compute the sample covariance matrix for q near 1", "statement": "As q tends to 1, lbda tends to infinity and beta to 1. For every number N of samples there is a q0 < 1 such that for all q between q0 and 1, whatever the N samples (spanning the space), the starting point and the tolerance, the Huber functions return exactly beta times the sample covariance matrix from the second iteration on and stop after at most three iterations; the relative error with respect to the sample covariance matrix is as small as wanted.", "quantifier": "all sizes, all real or complex samples spanning the space, all q near 1, all positive definite starting points, all tolerances and iter_max", "why_tests_cant": "uniform in the samples and asymptotic in q, with tails of a distribution", "anchors": ["robuststats/estimation/covariance.py:huber_m_estimator_fixed_point", "robuststats/estimation/covariance.py:complex_huber_m_estimator_fixed_point"]}
{"id": "C133", "title": "Huber's factor beta does not exceed 1", "statement": "The factor beta that the Huber functions compute from q, the expectation of min(t, 2 lbda) divided by that of t for t the squared norm of a Gaussian sample, is at most 1 for all q; hence, for q near 1, the matrix they return does not exceed the sample covariance matrix.", "quantifier": "all dimensions, all 0 < q < 1; all real or complex samples spanning the space, all positive definite starting points, all tolerances and iter_max", "why_tests_cant": "an inequality between tails of distributions for all q and all dimensions, and its consequence for all samples", "anchors": ["robuststats/estimation/covariance.py:huber_m_estimator_fixed_point", "robuststats/estimation/covariance.py:complex_huber_m_estimator_fixed_point"]}
