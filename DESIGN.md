# Formal model of pysatl-criterion in Rocq (Coq 8.16.1)

## 1. Method

The Python package in `/repo/src/pysatl_criterion` is read as text and transcribed, function by
function, into Gallina.  Every definition in a `*Model.v` file carries a comment with the file and
lines it models and the simplifications made.  Specifications live in `*Spec.v` files and use only
textbook notions (counting, maxima, graphs, probability on a finite space, integrals).  Proofs are in
`*Proofs.v` and `*Claims.v`, and the `Props_*.v` files contain nothing but the property theorems, each
closed by a reference to its proof and followed by `Print Assumptions`.  A concrete `Example` shows for the theorems that
carry hypotheses that some non-trivial case meets them.

Naming: `..._refuted` = the property, read literally, is false of the code, and the theorem proves this
with a witness; `..._partial` = part of the property only.

### Numbers

* `R` (Coq's classical reals) is used for all statistics, p-values, critical values and likelihoods:
  the model is the *exact arithmetic* reading of the numpy code.  Rounding is not modelled, except
  * in the storage codec, where the float64 -> float32 rounding is the subject (Flocq `binary64/32`),
  * in the floating point properties of the multiple testing corrections (Flocq `binary64`),
  * in the Monte-Carlo p-values and critical values of C115 (`MCFloatModel.v`).
* numpy's non-finite results (`nan`, `inf` from `0/0`, `x/0`, `log 0`) are modelled by explicit guards:
  the model returns `NonFinite`/`Raise` where a denominator vanishes, instead of inheriting Coq's
  total division.
* scipy's distribution functions are modelled concretely where they are elementary (uniform,
  exponential, exponentiated Weibull, normal, beta with integer parameters) and otherwise as an arbitrary function with the properties of a
  distribution function stated as hypotheses in the theorem.

### Exceptions

`result A = Ok a | Raise exn` where `exn` names the Python exception class.

## 2. Trusted base

* Coq's kernel (checked again by `coqchk`), and the axioms of the standard library's classical reals
  that `Print Assumptions` lists below the theorems (`ClassicalDedekindReals.sig_forall_dec`,
  `ClassicalDedekindReals.sig_not_dec`, `FunctionalExtensionality.functional_extensionality_dep`,
  and `Classical_Prop.classic` through Coquelicot/Flocq).  No axiom is added by this development.
* The faithfulness of the transcription (the code is not executed here).
* Library behaviour taken from documentation: `sorted`/`np.sort` return the ascending permutation
  (`sorted` is stable), `scipy.stats.ecdf`, `np.quantile` (linear method), `np.histogram`,
  SQLAlchemy `merge` = upsert by primary key, `scalar_one_or_none` raises on two rows, zstd is lossless,
  `struct` packs little endian, `json.loads(json.dumps(x)) = x` for lists of finite floats.

## 3. Not modelled

Random number generation of scipy (resolvers see an arbitrary stream of samples; the samplers of C78
map a uniform number to a value),
numerical optimisers and quadrature (`minimize_scalar`, `root_scalar`, `integrate.quad`, `*.fit`),
kernel density estimation, SQLite itself (a table is a finite set of rows; C110 adds the write lock and the order of statements of several sessions), logging and printing,
network transport, Python object identity except where the property is about in-place mutation.

## 4. Plan per property

| id | what is modelled | how it is proved |
|----|------------------|------------------|
| C01 C10 C11 | the five `adjust` functions and `test`, on lists of reals, with Python's stable sort, index arrays and in-place updates | list induction; correspondence with rank-free characterisations |
| C02 C03 C05 C08 | finite probability space (weighted outcomes), random p-value vectors, super-uniformity, FWER and FDR as expectations | union bound; product inequality for independent nulls; Benjamini-Yekutieli argument (summation by parts); counterexample joint law for `Holm` |
| C04 C06 | step-down specifications as maxima over smaller ranks | refuted by a two-element witness; what the code computes instead (Hochberg step-up, single-step Sidak) is proved |
| C07 | minimum over larger ranks | invariants of the backward loop |
| C09 | harmonic sum versus log branch | real analysis bound on `H_n - ln n`; refuted for the large branch |
| C12 | Flocq binary64 multiplication/min; `1-(1-p)**m` | rounding monotonicity; refuted for Sidak |
| C13 C14 C16 | scipy `ecdf` as counting | counting lemmas |
| C15 | exchangeability = uniform choice of the observed index in a fixed multiset | counting; refuted with ties; bound for distinct values |
| C17 C18 C19 | `np.quantile` (linear) on the list of distinct sorted values | interpolation lemmas; refuted with ties |
| C20 - C24 C27 | critical areas, factories, decision methods, `GoodnessOfFitTest.test` | case analysis; monotonicity of counting and interpolation; disagreement witnesses |
| C25 C26 | resolvers over an arbitrary sample stream / the storage model | induction on the count; refuted |
| C28 - C34 | SQL table as list of rows keyed by primary key; operations as state transformers with failures | refinement to a finite map, induction over histories |
| C35 - C37 | byte-level header, float32/64 little-endian payload, zstd as an arbitrary lossless pair | round-trip lemmas; refuted for full precision |
| C38 - C41 | loader over two storages with failing insert | case analysis and list induction; refuted claims with witnesses |
| C42 C44 C45 | tables transcribed from the class definitions | computation over the finite table |
| C43 C46 C79 | validators, `_convert_to_code` on the `str` of numbers | real order; joined texts split uniquely at underscores |
| C75 C76 C77 | `get_available_generator`, `get_available_criteria` over any iteration order of the class set; the class table is printed by `tools/registry_table.py` from the syntax tree of the source | lookup lemmas over permutations; computation over the table; refuted for single families |
| C78 | `generate_*` as location-scale transform of a standard quantile function | {X <= x} = {u <= F x} for the documented distribution function; refuted for Weibull scale, truncation bounds, inverse Gaussian mean, Rice distance |
| C81 C82 | exponent.py, class by class; value and final state of the caller's sample | Cauchy-Schwarz, Jensen, Lorenz ordering, induction over sorted gaps |
| C80 | `MinToshiyukiStatistic` | termwise bounds |
| C60 C83 | normal.py, class by class (`NormModel.v`; the Brys-Hubert-Struyf statistic is in `BhsModel.v`); scipy's normal law is constructed in `NormalLaw.v` (Gaussian integral, distribution function, quantiles) | weights with zero sum and antisymmetric weights; standardisation; binomial tails for the beta cdf of Glen-Leemis-Barr |
| C47 - C53 | EDF statistics on sorted samples | suprema, telescoping integrals (Coquelicot), convexity |
| C54 | all modelled statistics | uniqueness of sorting / permutation of sums; refuted for the RSB statistic |
| C55 - C58 | adjacency construction, DFS, sliding-window clique, greedy independence | graph theory on lists |
| C62 C84 (C63 C65 for normal.py) | same model; small notions of fitted normal law and affine image in `NormRangeSpec.v` | Cauchy-Schwarz with equality case, Chebyshev's sum inequality, Pearson's inequality, optimality of the median; finiteness from positive denominators |
| C59 - C61 C66 C67 | formulae of the statistic classes | algebra of sums, Cauchy-Schwarz |
| C63 C64 C65 | control flow of the failing statistics, in-place sorts, alternatives | refuted by witnesses |
| C68 C85 (C47 C48 C54 C61 C63 C64 C66 C67 for log_normal.py) | log_normal.py, class by class (`LognormModel.v`); `scipy.integrate.quad` is read as the Riemann integral | reduction to the normal statistics of the logarithms; shift and reflection of the empirical cumulant function; integrability of the piecewise integrand; `ln x <= 2 (sqrt x - 1)` |
| C86 C87 C88 (C47 C48 C50 C54 C61 C63 C64 C65 C67 for student.py) | student.py, class by class (`StudentModel.v`); the t distribution function and quantiles are parameters constrained by `student_law`, with the Cauchy distribution as witness | symmetry of the distribution function; reversal of sorted samples; mirrored histograms |
| C47 C48 C50 C53 C54 C61 - C67 C80 for gamma.py | gamma.py, class by class (`GammaModel.v`); the gamma distribution function and quantiles are parameters constrained by `gamma_law`, with the exponential distribution as witness | change of unit; positivity of spacings as strict order; Cauchy-Schwarz and Chebyshev for the probability plot |
| C47 C48 C50 C53 C54 C61 C63 - C65 C67 C87 C88 for beta.py | beta.py, class by class (`BetaModel.v`); the beta distribution function, digamma and log-beta functions are parameters constrained by `beta_law`, with the uniform distribution as witness | mirror image of the sample; strict order of bin edges; geometric-arithmetic mean inequality; the grid of the mode search avoids 1/2 |
| C89 - C92 C97, and C47 C48 C53 C54 C61 - C65 C80 for weibull.py | weibull.py, class by class (`WeibullModel.v`); the bounded minimiser, the gamma function and `gumbel_l.fit` are parameters | logarithms turn x -> c x^b into an affine map; monotone approximations of expected order statistics for every n; score identities; exact value of the SPP maximum |
| C100 - C102 | same model as C84; published definitions (L-moments over subsamples, probability-plot slopes, Hermite polynomials, Royston's weights) in `NormFormSpec.v` | counting subsamples by their order statistics; least squares with Cauchy-Schwarz; Gibbs inequality for the minima; positive definite kernel expansion for Epps-Pulley; increasing transformations with sign analysis |
| C105, and further theorems of C42 C68 C85 C95 C96 C100 in `DetailClaims.v` | same models; published definitions (correlation, plotting positions, transformations of skewness and kurtosis, biweight midvariance) in `NormMoreSpec.v` and `DetailSpec.v` | antisymmetric weights turn linear combinations into correlations; limit of a rational function for the outlier; numerical bounds on logarithms |
| C106 C107 | same model as C89; published definitions (David-Johnson scores from the derivatives of the quantile function, Pearson's cells, scale estimates, Vasicek's estimate, survivor-function integral) in `WeibullFormSpec.v` | derivatives of iterated logarithms; antisymmetric weights; an integral over the steps of the empirical distribution function; completing the square in a quadratic form |
| C108 C109 | same models as C47-C50, C86-C96; published functionals (integrals of the squared distance to the diagonal, suprema, gaps, cell counts) and the table class -> functional in `EdfFormSpec.v` | the Anderson-Darling integral by a primitive with logarithms at the ends of the steps; Watson from the integral of the signed distance; a quantile edge is an edge of the unit interval after the transform |
| C103 C104 | same model as C81; published definitions (shares of pairs and triples, Lorenz curve, normalised spacings, likelihoods and scores) in `ExpFormSpec.v` | counting identities for nested loops; inequality of arithmetic and geometric mean with equality case; derivatives and an integral with Coquelicot |
| C98 C99 | the medcouple search of the Brys-Hubert-Struyf statistic, array by array (`BhsModel.v`); the unbounded inner loop gets a number of rounds, `None` means still running | a state that one round maps to itself; invariants of the row bounds; medians of half-filled arrays |
| C93 | the chi-square classes of five families, with any power parameter | strict Bernoulli inequality; cumulated cell counts are the numbers of observations below the edges |
| C94 - C96, and C47 C48 C50 C53 C54 C61 C63 - C65 C67 C87 for uniform.py | uniform.py, class by class (`UniformModel.v`), with bin rules, bandwidth, Zhang type, Legendre recurrence and Kaplan-Meier weights | affine change of interval; Bonnet recursion and Legendre's differential equation give orthonormality for every degree; triangular change of basis turns scores into moments; strict Gibbs inequality; product-limit form of the Kaplan-Meier loop |
| C110 | one client record per call (pending models, last lookup, uncommitted table), the committed table and the write lock (`ConcModel.v`); a schedule interleaves statements and crashes | invariant with a serial history that is extended at commits and at lookups that find the model stored; entries of failed calls change nothing and are dropped |
| C111 | the five corrections with every operation rounded to nearest-even in binary64 (`MTFloatModel.v`, Flocq's FLT format); `pow` and the harmonic factor are parameters | a product with an integer below 2^53 never underflows to a wrong value, so its relative error is at most 2^-53; minima and comparisons are exact; a rounded value below a representable threshold has its exact value below it |
| C112 | the Kullback-Leibler tests of `LognormModel.v`; divergences, tilts, Gaussian means and the influence of one observation are defined independently in `LogKLSpec.v` | Gaussian integrals of (a+bz+cz²)e^{kz} by an explicit primitive; the variance lies between r⁶/6 and e^{2r²}r⁶/6 by three integrations; the expansion at 0 from the third derivative of the cumulant function of the sample |
| C113 | the beta law as an improper integral over (0,1) (`BetaLawSpec.v`), compared with the reference values of `BetaModel.v` | one integration by parts of x^a(1-x)^b gives existence of the constant for all parameters (stepping down from a continuous density) and the recursion of the raw moments; the same with a factor ln x gives the mean logarithm for integer b, and for real b because it decreases in b and has the recursion of digamma; the mode by ln u < u - 1 |
| C114 | the published mean and covariance of the medcouples (`BhsDistSpec.v`), compared with `bhs_value` and `bhs` of `BhsModel.v` | the literal matrix times the covariance matrix is the identity up to 1e-15; diagonal dominance bounds the quadratic form from below; the inverse is never formed, the distance is defined by a solution of the linear system |
| C115 | `MCFloatModel.v`: the calculators of `DecModel.v` with every operation rounded to binary64 (Flocq), numpy's two-sided interpolation | half-ulp bounds on [0,1]; fractions with different values are 1/(nb) apart, more than all rounding errors; doubling is exact; half of a rounded difference never exceeds the difference, so interpolation stays between its ends |
| C116 | `DistFnModel.v`: `moment`, `central_moment`, `pdf_norm`, the Weibull log-functions, Tukey's sampler (for C78) on top of `SamplerModel.v` | binomial expansion over the sample; chain rule and the fundamental theorem for the density; refuted for the default centre |
| C117 | `DecModel.v` (unchanged) with an exchangeable law of the observed and simulated statistics (`SizeSpec.v`) | counting the positions at which the test would reject, from above and below; refuted with the swap law and with a law of ties |
| C118 | `DecModel.v` with pairwise independent draws (`ConvSpec.v`) | Chebyshev's inequality for an abstract expectation; counting for the critical values; refuted for laws with ties on product laws built by recursion (`Conv2Spec.v`) |
| C119 | `ks_stat` of `EdfModel.v` and `gof_test` of `DecModel.v` (`PowerSpec.v`) | grid argument for the uniform deviation of the empirical distribution function, Chebyshev at the grid points |
| C120 | `DecModel.v` p-values fed into `MTModel.v` (`McMtSpec.v`) | the size bounds of C117 in the union bound, and in the step-up arguments of the error-rate proofs (`McMt2Claims.v`, `McMt3Claims.v`); refuted at the threshold with cyclic shifts of a law of ties |
| C121 | `cvm_stat`, `kuiper_stat` of `EdfModel.v` and `gof_test` of `DecModel.v` (`PowerSpec.v`) | two-sided comparison of the statistics with the Kolmogorov-Smirnov distance on every sample, then C119 |
| C122 | `p_scan`, `q_scan`, `mc_iteration` of `BhsModel.v` (`BhsScanSpec.v`) | staircase invariant of the two scans; monotonicity of the kernel |
| C123 | `normality_statistics`, `exponentiality_statistics`, `weibull_statistics`, `lognormal_statistics` run through `gof_test` (`CompSpec.v`) | C59/C60/C68/C89 invariance carried through the decision, then the size bounds of C117 for exchangeable samples |
| C124 | `AltModel.v`: `get_alternative`, the branches of the KS statistic, the order of steps in a test | case analysis; the two-sided branch for unknown values |
| C125 | `watson_stat` of `EdfModel.v` and `gof_test` of `DecModel.v` (`PowerSpec.v`) | the deviations, read cyclically, fall by at most 1/n per step, so a large one occupies a whole segment of indices; then C119 |
| C126 | `ks_uniform`, `cvm_uniform`, `kuiper_uniform`, `watson_uniform` of `EdfModel.v` and `gof_test` | equality with the generic statistics inside the interval, then C119 and C121; the validation raises outside |
| C69 | every function of function_for_maximum_likelihood.py (`MleModel.v`); scipy's fits and root finders are parameters | optimality inequalities (`ln x <= x-1`, Gibbs); exact-fit hypotheses for the fitted families with witnesses in `MleExamples.v` |
| C70 | dispatcher over the alphabetical function list, with the functions imported from scipy | loop invariant; refuted |
