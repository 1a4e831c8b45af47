# Formal model of robuststats in Rocq: design

Properties are listed in `properties.jsonl` (C01, C02, ...). This file says what is
modelled, how each property is proved, and what is trusted. `MANIFEST.json` maps
properties to theorem names.

## File layout (`rocq/theories`)

Naming: `Model_*.v` definitions only, one comment per definition citing file and lines in /repo;
`Spec_*.v` what the properties mean, written without the model's helpers (small vocabularies are also
stated at the head of the `Props` file that uses them); `Proofs_*.v`, `*Num.v` lemmas; `Props_*.v` theorems,
examples showing that the hypotheses are met, `Print Assumptions`.

| files | /repo | properties |
|---|---|---|
| `RealsMC`, `RealTac`, `RealTac2`, `Star`, `StarInst`, `FunCalc`, `RealRep`, `Compact` | none (mathematics) | |
| `NpArray`, `Proofs_numpy`, `Model_mappings`, `Proofs_mappings`, `Props_mappings` | models/mappings.py | C01-C05, C07 |
| `Model_float`, `Props_float` | models/mappings.py in binary64 | C06 |
| `Model_scipy`, `Model_probability`, `Model_scores`, `Proofs_probability`, `Props_probability` | models/probability.py, score methods | C08-C12, C68 |
| `Model_featurearray`, `Spec_featurearray`, `Proofs_featurearray`, `Proofs_fa2`, `Props_featurearray`, `Model_featest`, `Props_featest`, `Props_featest2` | estimation/base.py (feature arrays), utils/checking.py | C20-C27, C65-C67 |
| `Model_sklearn`, `Model_objects`, `Proofs_objects`, `Props_objects`, `Props_covest` | estimation/base.py, covariance.py (classes) | C14-C19, C41-C43, C71 |
| `Model_covariance`, `Model_estimators`, `Spec_covariance`, `Proofs_mest`, `Proofs_loop`, `Proofs_covariance`, `Proofs_estimators`, `Props_covariance` | estimation/covariance.py (functions) | C28-C34, C38 |
| `Proofs_cost`, `Props_cost`, `RobustNum`, `Props_robust`, `Props_robust2` | models/cost.py, covariance.py | C13, C35-C40 |
| `Proofs_major`, `Props_metric` | manifolds.py: Hermitian distances and geodesics | C87 |
| `Spec_hubiter`, `HuberNum2`, `Proofs_hubiter`, `Proofs_hubiter2`, `Props_hubiter` | covariance.py: iterations of the Huber functions | C88 |
| `Spec_kron`, `Proofs_kron`, `Proofs_kron1` to `Proofs_kron9`, `Props_kron` | structured.py: existence, uniqueness and convergence for Kronecker structured covariances | C89-C91 |
| `Proofs_kst`, `Props_kst` | structured.py: the stationary points of KroneckerStudent | C96 |
| `Spec_breakdown`, `Proofs_breakdown`, `Proofs_breakdown2`, `Props_breakdown` | covariance.py: resistance of the Tyler functions to arbitrary samples | C97, C98 |
| `Proofs_breakdown3`, `Proofs_breakdown4`, `Props_breakdown2` | covariance.py: resistance of the Student functions to arbitrary samples | C99, C100 |
| `Proofs_stable`, `Proofs_stable2`, `Props_stable` | covariance.py: distance of a Student result to the estimate, continuity in the data | C101, C102 |
| `Spec_fixedpoint`, `Proofs_unique`, `Proofs_unique2`, `Props_unique`, `Proofs_converge`, `Props_converge`, `Spec_exist`, `Proofs_exist`, `Proofs_exist2`, `Props_exist` | covariance.py: Tyler, Student | C77-C79, C84-C86 |
| `Spec_chi2`, `HuberNum`, `Props_huber` | covariance.py: Huber's constants | C82 |
| `Model_natgrad`, `Props_natgrad` | covariance.py: natural gradient | C83 |
| `TylNum`, `Model_egrad`, `Proofs_egrad`, `Props_egrad` | covariance.py: the gradient of Tyler's cost given to pymanopt | C103 |
| `Model_manifolds`, `Proofs_hpd`, `Props_spv`, `Props_hpd`, `Props_shpd`, `Props_product`, `Props_dim`, `GeoNum`, `Props_geodesic` | models/manifolds.py | C47-C55, C69, C70 |
| `Spec_convex`, `GConvNum`, `Proofs_gconvex`, `Props_gconvex` | models/manifolds.py, models/cost.py, estimation/structured.py: convexity of the costs along geodesics | C104 |
| `Proofs_tycont`, `Props_tycont` | estimation/covariance.py: Tyler's estimate as a function of the samples | C105 |
| `TranspNum`, `Props_transport` | models/manifolds.py: transp | C106 |
| `RetrNum`, `Props_retr` | models/manifolds.py: retr against exp | C107 |
| `Proofs_tyrate`, `Props_tyrate` | estimation/covariance.py: rate of Tyler's iterations | C108 |
| `Proofs_tylip`, `Props_tylip` | estimation/covariance.py: Lipschitz dependence of Tyler's and Student's estimates on the samples | C109 |
| `Model_float2`, `Props_float2`, `Props_float3` | utils/linalg.py, models/mappings.py and the normalisations of estimation/covariance.py in binary64 (Flocq); NumPy's complex product and quotient | C110, C111, C112 |
| `Model_fastr`, `Props_fastr` | estimation/base.py:37-41, printing of feature arrays; the text Python makes of a value is a parameter | C113 |
| `Props_kroninv` | equivariance of the Kronecker MM algorithm | C114 |
| `Props_symm` | symmetries of the fixed-point estimates | C115 |
| `AscNum`, `Props_ascent` | direction of the updates of the online estimator | C116 |
| `Props_stream`, `Props_oequiv` | blocks of samples, single samples; equivariance of the online estimator | C117, C118 |
| `Spec_df`, `Proofs_df`, `Props_df` | Student's estimates for many and few degrees of freedom | C119 |
| `Props_isom` | the manifold operations under congruence, inversion and conjugation | C120 |
| `Spec_tv`, `Proofs_tv`, `Proofs_tv2`, `Props_tv` | the estimates when the empirical distribution of the samples moves by e in total variation | C121 |
| `Spec_hubrob`, `Proofs_hubrob`, `Props_hubrob` | the results of the Huber functions when some samples are arbitrary | C122 |
| `Proofs_hubcont`, `Props_hubcont` | the solution and the results of the Huber functions when all samples move a little | C123 |
| `Spec_deriv`, `Proofs_deriv`, `Proofs_deriv2`, `Props_deriv` | the linearised estimating equation; the solutions and results of the functions of Student and Tyler to first order in the samples | C124 |
| `Spec_freq`, `Props_freq` | data sets of different sizes with the same empirical distribution | C125 |
| `Proofs_kcont`, `Proofs_kcont2`, `Props_kcont` | the Kronecker structured estimate when the samples move | C126 |
| `Proofs_kcont3`, `Proofs_kcont4`, `Props_kcont2` | the passes of the Kronecker structured algorithm when the samples move | C127 |
| `Props_kty` | the Kronecker structured estimate against Tyler's estimate | C128 |
| `Props_dfc` | Student's estimate as a function of the degrees of freedom | C129 |
| `Props_ksymm` | symmetries of the Kronecker structured estimate | C130 |
| `HuberNum3`, `Props_hubq` | Huber's estimate as a function of q | C131 |
| `HuberNum4`, `Props_hubtop` | the Huber functions for q near 1 | C132 |
| `HuberNum5`, `Props_hubbeta` | Huber's factor beta compared with 1 | C133 |
| `Model_online`, `Props_online` | online/estimation.py | C44-C46 |
| `Model_structured`, `Proofs_structured`, `Props_structured`, `Props_structured2`, `KronNum`, `Props_kstudent*` | estimation/structured.py | C56-C58, C72-C74 |
| `Model_linalg`, `Proofs_linalg`, `Props_linalg`, `Model_vecnum`, `VecNum`, `Model_vec`, `Proofs_vec`, `Props_vec`, `Props_helpers` | utils/linalg.py | C59-C62, C80, C81 |
| `Spec_generation`, `Model_generation`, `Proofs_generation`, `Props_generation` | utils/generation_data.py | C64, C75, C76 |
| `Model_utils`, `Props_utils` | utils/montecarlo.py, utils/checking.py | C63, C65 |
| `Model_cdf`, `Props_cdf` | models/probability.py: cumulative distribution functions | C92 |
| `Model_verbose`, `Props_verbose` | utils/verbose.py | C93, C94 |
| `Model_scale`, `Props_scale` | estimation/base.py: RealCovarianceScale | C95 |
| `Props_more` | theorems added after testing against wrong programs | C13, C27, C42, C47, C48, C53, C54 |

## Modelling decisions

* **Numbers.** Floating point values are idealised as exact reals `R` (Coq standard library)
  and complex numbers as `R[i]` (mathcomp real-closed). The one property that is
  about rounding (C06) is stated in Flocq's binary64.  Where the code's behaviour on
  NaN matters (loop exits, C29) the error is a value of an arbitrary type with an
  arbitrary comparison.
* **Arrays.** Where dtype, rank, shape or broadcasting matter, a value is a NumPy array
  `arr` = (dtype kind, shape, index function) and functions return `Ok v | Err exn`.
  Where only the mathematics matter the functions are modelled over mathcomp
  matrices `'M[R]_(m,n)`, `'M[R[i]]_(m,n)`.
* **Eigendecompositions** (`eigh`) are oracles: theorems quantify over every
  function that returns, for each Hermitian matrix, a unitary matrix and real eigenvalues
  that reconstruct it. Existence of such a function is proved (spectral theorem), so the
  hypothesis is satisfiable.
* **Division by zero.** In the matrix models an entry divided by zero is 0 (mathcomp convention)
  where NumPy gives inf/nan; theorems that could be affected have hypotheses excluding
  it (positive definite iterates, non-zero samples). The error value of the fixed-point loops
  is a type with `inf` and `nan`, so that the loop exits are faithful (C29).
* **Real and complex variants** are modelled separately (`Model_covariance`), each as the code
  is written; the proofs are shared through star fields.
* **chi2.ppf, chi2.cdf** are arbitrary functions, and Huber theorems assume lambda, beta > 0; only C82
  is about their values: there they are the quantile and distribution function of `Spec_chi2.v`
  (integrals of the density, Coquelicot).
* **Optimisers.** pymanopt's solvers are oracles given the cost and the initial point. C83 says what the
  natural gradient estimators return if the optimiser returns a minimiser, and what no optimiser can repair. C103 only asks that it
  stops where the Riemannian gradient vanishes; `autograd.grad` is an oracle that returns a matrix giving the derivatives,
  when there is one, and pymanopt's `SymmetricPositiveDefinite.egrad2rgrad` is transcribed.
* **Limits** (C84-C86) are written with explicit tolerances (`forall eps, exists K, ...`), on the sequence of
  iterates of the fixed-point functions; compactness is proved in `Compact.v` from the Bolzano-Weierstrass theorem of Reals.
* **Laws of random variables** (C10, C75, C76) are linear functionals on a space of functions of the
  outcome (`Spec_generation.v`): Lebesgue integrals and sample averages are instances.
* **External code** (scipy densities, sklearn `EmpiricalCovariance`, `check_array`, pymanopt
  solvers, joblib) is modelled by what its documentation promises or left as a
  quantified argument; each use says so in a comment.
* **Exceptions** are values. Object state is a record; methods are functions
  state -> outcome * state, so that what survives an exception is visible.
* **Randomness** is a quantified argument (the draw), or an abstract generator state (C63).
* A property that is false of the code is kept with its full statement; the
  theorem `..._refuted` gives a witness and the largest true part is proved beside it.

## Per-property plan

| id | model | proof |
|---|---|---|
| C01 C02 C03 C05 | NumPy layer, `Model_mappings` | pointwise index arithmetic; odd feature counts: exact classification, silent broadcast is a refutation |
| C04 | mathcomp matrices, block matrices | block algebra, similarity by a fixed unitary for the determinant |
| C06 | Flocq binary64 multiplication | exact scaling by 2 when the exponent allows it; subnormal witness refutes the unrestricted claim |
| C07 | `allclose` with broadcasting on the NumPy layer | unfolding, broadcasting witness for non-square |
| C08 C09 | `Model_probability`: real density formula of scipy as assumed documentation, composed with the mappings | C04 determinant and quadratic form |
| C10 | finite weighted samples | C04 algebra |
| C11 C12 | NumPy layer (kinds and shapes) | case analysis, witnesses |
| C13 | matrices over `R[i]` | sums of rank-one matrices |
| C14 C15 C16 C19 | NumPy layer, estimator state | case analysis, witnesses |
| C17 C18 C27 | estimator objects as state machines (`fit : state -> data -> outcome * state`) | induction over trials / histories |
| C20-C26 | `_FeatureArray` on a heap of buffers with views (aliasing visible) | invariants over append histories |
| C28 | normalisation functions | trace/determinant algebra |
| C29 | the `while` loop with its short-circuit condition, arbitrary error type | well-founded recursion on iter_max - iteration |
| C30-C35, C38, C39 | one generic weighted-covariance update over a field with involution, instances per estimator | induction over iterations, Hermitian form algebra; descent from log u <= u-1 |
| C36 C37 | scalar instance of the update and of the likelihood | witness |
| C40 | cost functions | logarithm algebra, determinant of products |
| C41-C43 | estimator classes as state machines | induction over histories, witnesses |
| C44-C46 | `Model_online` | invariants over histories, witnesses |
| C47-C55 | `Model_manifolds` over `R` and `R[i]` with an `eigh` oracle | functional calculus independent of the decomposition |
| C56-C58 | `Model_structured`, Kronecker product of mathcomp real-closed | invariants; mixed-product rule; witnesses |
| C59-C62 | `Model_linalg` | index arithmetic, functional calculus, AR(1) Cholesky factor for Toeplitz |
| C63 | generator state and context manager as a state-exception monad, user code is an arbitrary function | case analysis |
| C64 | `Model_generation` | congruence of PSD matrices |
| C65 | outcome of the check functions | case analysis |
| C66 C67 | feature arrays: index types, shape checks of append | case analysis, witnesses |
| C68 | entropy formulas of scipy composed with the mappings | C04 determinant |
| C69 | random tangent vectors of `Model_manifolds` | norm of a scaled vector |
| C70 | geodesics and Riemannian Hessians | second derivative of t -> f(exp(t u)), Coquelicot |
| C71 | score of the Tyler estimators | invariant over histories (`location_` is never set) |
| C72 C73 C74 | `Model_structured`: MM map, scores, fit methods | homogeneity, descent, state machines |
| C75 C76 | `Model_generation` with laws as linear functionals | algebra of expectations |
| C77 C78 C79 | solutions of the estimating equations | strict geodesic convexity, contraction, descent per update |
| C80 C81 | `multiherm`; what feature arrays report | orthogonality; case analysis |
| C82 | Huber's constants | moments of the chi-squared law, integration by parts |
| C83 | natural gradient estimators | optimality conditions |
| C84 | convergence of the fixed-point iterations | cluster points of bounded sequences, strict decrease of the cost |
| C85 C86 | existence of the estimates | coercivity from subspace counts (layers of eigenvalues); converse by projection |
| C87 | triangle inequality of the Hermitian distance | eigenvalues of S W S (Horn's inequality by compression of determinants), Abel summation, then Minkowski over the stack |
| C88 | the equation of the Huber functions and their iterations | rho convex in ln q gives uniqueness; coercivity relative to the sample covariance matrix and compactness give a minimiser, which is stationary; the update decreases in S, so convergence is by contraction of order intervals when the samples below the threshold span, and fails on tight frames |
| C89-C91 | minimisers of Tyler's cost over kron(P, Q) and the MM iterations | convexity of the cost along the geodesics of each pair (log-sum-exp in a basis that diagonalises both pairs), strict or coercive in a direction exactly when the samples are stable; the passes decrease the cost, stay in a compact set up to scale, and their cluster points are fixed |
| C96 | stationary points of the Kronecker Student cost | the equations of a stationary point, in a basis that diagonalises both pairs, and Jensen's inequality for the logarithm (with the mass df/(df+q) at 1); conversely the derivative of the cost along the gradient is zero at a minimiser |
| C97, C98 | arbitrary samples in Tyler's estimate | the lower bound of the cost of C85 holds uniformly in the replaced samples once they are scaled to norm 1, which changes the cost by a constant; solutions and iterates have a cost at most that of the start. The other way: move as many samples as allowed into the subspace. Default start: an iteration multiplies a quadratic form by at most p and the Mahalanobis distance of a sample by at most N/p |
| C99, C100 | arbitrary samples in the Student estimate | as for Tyler's, but both ends of the spectrum are bounded: layers of the eigenvectors with small and large eigenvalues. The other way: m tiny samples shrink the solution, m huge collinear samples inflate it, m samples moved into V contradict the existence. Default start: the Mahalanobis distance of any sample after k iterations is bounded by a number depending on N, p, a and k only |
| C101, C102 | error and continuity of the Student estimate | an update contracts closeness in the Loewner order by Q/(a+Q) where Q bounds the Mahalanobis distances to the reference matrix; a matrix almost fixed by the update has therefore a solution nearby (Cauchy-type argument and compactness). C101: the last change bounds the residual. C102: at S the update is continuous in the data (continuity of entries, sums, products, inverses), so that S is almost fixed for nearby data. |
| C103 | gradient of Tyler's cost | derivatives of the Mahalanobis distances and of the logarithm of the determinant along a line (already used for C58); the gradient is determined by its traces against symmetric matrices. |
| C104 | geodesic convexity | a geodesic is t -> G diag(e^(tw)) G^H; a Mahalanobis distance along it is a sum of exponentials with nonnegative coefficients, whose logarithm is convex (Hoelder), and the logarithm of the determinant is affine. |
| C105 | continuity of Tyler's estimate | the rank of a set of samples does not decrease near X, so the condition of C85 holds near X; the coercivity bound holds with the same constants, so the solutions near X stay in a compact set, on which the cost is uniformly continuous in the samples; a matrix of almost minimal cost is near the only solution; an iterate near a solution stays near it. |
| C106 | parallel transport | in a basis G with x = G G^H and u = G diag(w) G^H, exp(x, t u) = G diag(e^(t w)) G^H and the principal root of transp is G diag(e^(t w / 2)) G^-1, so entry (j, k) of the transported vector is multiplied by e^(t (w_j + w_k) / 2), the solution of a linear equation. |
| C107 | retractions | in the basis of C106 retr(x, u) = G diag(1 + w + w^2/2) G^H, so the distance is the norm of ln(1 + w_j + w_j^2/2) - w_j, bounded by w_j^3 / 3; on determinant one, the normalisation removes the mean of these numbers. |
| C108 | linear rate | after whitening the solution is 1; from S = c (1 + H), H of trace zero, the update is c (1 + L(H) - D) with 0 <= D, tr D <= 2 norm(H)^2, and norm(L(H))^2 <= (p/N) sum (y^H H y)^2 <= (1 - g) norm(H)^2, g > 0 by compactness since equality forces every sample to be an eigenvector of H. |
| C109 | Lipschitz dependence | near a solution the distance of a matrix to the solutions is at most a multiple of the change an update makes to it (C108 for Tyler, C101 for Student); the update is a Lipschitz function of the samples uniformly for the matrices near the solution; the solution for Y is fixed by the update for Y, hence almost fixed by that for X. |
| C110 | sizes, Hermitian parts in binary64 | the square root of the rounded square of k < 2^32 is closer to k than half a unit in the last place; rounding to nearest even commutes with the opposite. |
| C111, C112 | conversions, normalisation in binary64 | products by zero are exact on finite numbers; relative error of the reciprocal. |
| C113 | printing of feature arrays | invariant of C20; computation for the refutation. |
| C114 | Kronecker MM equivariance | the geometric mean of A and M is the only positive semidefinite solution of G A^-1 G = M, hence equivariant; simulation of the two loops; for the limits, the minimisers of C90 are moved and unique. |
| C115 | symmetries | one update commutes with the symmetries; a matrix that signs and exchanges of coordinates leave unchanged is scalar; uniqueness of the solutions (C77, C78, C88). |
| C116 | direction of the online updates | the retraction along the gradient is a rank one change of the estimate: closed form of the cost after an update; inequalities on the logarithm. |
| C117, C118 | blocks, equivariance of the online estimator | setting again the same estimate changes nothing; states related by the change of data, for all calls. |
| C119 | degrees of freedom | many: q_i <= 2N at the solution, so that the weights are almost 1/N; few: the solutions almost minimise Tyler's cost (Jensen), and almost minimisers are near the solution (C105); the equation fixes the mean of 1/(a+q). |
| C120 | isometries | exp is F exp(F^-1 u F^-H) F^H for every factor F of x, so that the factor g F serves at g x g^H; log by inverting exp; transport in a basis where both points are diagonal. |
| C121 | contamination | x x^H / (a + x^H V^-1 x) <= V makes every quadratic form of an update the mean of a function with values in [0,1], so an update moves by at most e (a+p) V in the Loewner order; Student: the matrices within a factor 1+tau of S are then stable and the update contracts there; Tyler: the solution for Y has almost minimal cost for X, is close to S by coercivity, and its residual for X is at most e p. |
| C122 | resistance of Huber | every update is at least beta times the sample covariance matrix, which one sample makes as large as wanted; the finitely many sets of kept samples give a common lower bound. |
| C123 | continuity of Huber | the cost of C88 at the solution of the moved samples exceeds the minimum by little; its strict excess on the boundary of a small neighbourhood keeps the solution inside; the iterates are continuous in the samples and approach the solution at a rate of C88. |
| C124 | differentiability | the residual bound behind C109 makes the linearised equation injective; difference quotients of solutions along X + tU are bounded by C109 and their limits (compactness) solve it; the error is of smaller order by contradiction with the same compactness. |
| C125 | empirical distribution | copies of the two lists of samples are permutations of each other, hence all means over the samples agree; every update is a function of such means. |
| C126 | continuity, Kronecker structure | bases, weights and samples that tend to a limit share the choice of coordinates given by the stability of the limit: stability is open and the cost is coercive uniformly near the samples; pairs of almost minimal cost are near the minimiser (compactness). |
| C127 | continuity of the passes | the geometric mean is monotone in the Loewner order, hence each pass is continuous in the samples and in the state; the cost and both log-determinants decrease along the passes, and the decrease of the cost that is left after k0 passes is small for all samples near X, so that neither the direction (C126) nor the determinants can move. |
| C128 | structured and unstructured estimates | both minimise the same cost, over all matrices or over Kronecker products; uniqueness (C77, C90) does the rest. |
| C129 | continuity in df | the weights for two numbers of degrees of freedom differ by at most the ratio of these numbers; the a posteriori bound of C101 turns this residual into a distance. |
| C130 | symmetries of the structured estimate | C114 with the samples moved to themselves; unitary matrices keep the trace, so the factors left free by uniqueness (C90) are 1. |
| C131 | continuity in q | quantiles and probabilities are continuous since the density is positive; changing lbda and beta changes the minimised cost little, and its excess controls the distance to the minimum. |
| C132 | q near 1 | Markov's bound for the tail makes x (1 - q) tend to 0, so beta tends to 1; then lbda beta exceeds N and C88_bounds applies. |
| C133 | beta and 1 | the tail bound of C132 for the complex function; for the real one a lower bound of the tails by the density shows that x (1 - q) / p exceeds the tail with p+1 degrees of freedom for large x. |
| C92 | cdf is the integral of the complex density | the integrator and the integral are oracles; the real parameters handed to SciPy give the density of C08 |
| C93 | matprint | parser of Python's format specifications; induction on decimal numbers |
| C94, C95 | progress log, scale objects | induction on the history |

## Trusted base

* Coq 8.16.1 kernel.
* Axioms (all from the standard library): those of `Reals`
  (`ClassicalDedekindReals.sig_forall_dec`, `sig_not_dec`),
  `functional_extensionality_dep`, `Epsilon.epsilon_statement` (choice structure on `R`),
  `ClassicalEpsilon.constructive_indefinite_description` (the model of SciPy's covariance check decides positive definiteness),
  and `Classical_Prop.classic` where Reals lemmas use it. `Print Assumptions` follows each theorem.
* The reading of the Python source into the `Model_*` definitions.

## Not modelled

Plotting, examples and log messages, the third-party numerical kernels themselves
(LAPACK, autograd, pymanopt solvers), and floating-point rounding outside C06 and C110-C112.
Also left out, as they carry no behaviour of their own: the choice between numpy and autograd.numpy
(`utils/backend.py`), the unused `_generate_complexTyler_cost_function` (`covariance.py:878-884`), the `__call__`
methods that only build frozen distributions (`probability.py:133-140`, `346-354`) and `typicaldist`
(`manifolds.py:50-52`, `382-384`).
