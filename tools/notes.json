{
 "C01": {
  "note": "Exact real arithmetic; binary64 in C12."
 },
 "C02": {
  "note": "Any positive normalised linear functional as expectation (covers every probability space); sharper bound with the fraction of true nulls."
 },
 "C04": {
  "note": "REFUTED: Holm.adjust takes running minima from the largest p-value down, which is Hochberg's step-up procedure; p=[0.01,0.011] gives [0.011,0.011] where Holm gives [0.02,...]. Proved instead: it equals Hochberg's adjusted values for every list, never exceeds Holm's."
 },
 "C05": {
  "note": "REFUTED: a joint law of two true nulls has family-wise error 0.12 at threshold 0.1. Proved instead: for every joint law the error is at most threshold times the harmonic number of the number of true nulls."
 },
 "C06": {
  "note": "REFUTED: SidakHolm.adjust is the single-step Sidak correction (p=[0.1,0.5]). Proved instead: equal to Sidak on every list, never below the step-down value, error control under independence."
 },
 "C09": {
  "note": "REFUTED for m=10001: the factor ln m + 0.5772... is below the harmonic number, so the correction is too small. Proved: exact up to 10000; beyond that the shortfall is at most 1e-4 and the FDR bound degrades by at most 25 ppm."
 },
 "C12": {
  "note": "Bonferroni half proved for all m; the Sidak half is REFUTED: p=2^-60 is adjusted to 0 for every m."
 },
 "C15": {
  "note": "REFUTED: the p-value counts strictly greater values only, so an exchangeable pair is rejected with probability 1/2 at level 0.05, and tied values always. Proved: for distinct values the rejection probability is at most alpha + (1-alpha)/(n+1); left-tailed likewise even with ties."
 },
 "C16": {
  "note": "REFUTED: ties with the observed statistic are not counted (limit [1], statistic 1 gives 0). Proved: it counts strictly greater values; the property holds when the statistic is not among the simulated values."
 },
 "C18": {
  "note": "The library's exception class for an empty array is taken from numpy's documentation."
 },
 "C19": {
  "note": "REFUTED with repeated simulated values (quantile of the distinct values is taken; 9 of 10 values lie beyond a 25% critical value). Proved for distinct values, exact tail count within one."
 },
 "C22": {
  "note": "REFUTED in both directions. Proved: for distinct simulated values the two methods agree unless the p-value is within 2/n of the level."
 },
 "C26": {
  "note": "REFUTED: the resolver queries with Monte-Carlo count 1, so a distribution simulated with any other count is not found; C26_found_iff_count_one proves what holds."
 },
 "C27": {
  "note": "REFUTED: the default KS statistic is paired with a two-tailed decision, so very small distances are rejected. C27_better_fit_rejected_refuted exhibits a resolver, a level and two samples; C27_best_fits_are_rejected shows that every sample closer to the hypothesis than all simulated ones is rejected."
 },
 "C28": {
  "note": "Histories of inserts, deletes and bulk inserts with arbitrary failures; rows scanned in any order; `last_write` is the independent specification. Values are read back through the results column (col), see C35/C36."
 },
 "C31": {
  "note": "REFUTED: two experiments with the same code, parameters, size and count make get_data raise MultipleResultsFound; C31_succeeds_iff_exactly_one and C31_none_iff_no_row give the exact behaviour."
 },
 "C35": {
  "note": "REFUTED: the column stores float32, so 16777217.0 comes back as 16777216.0; the 64 bit mode is proved to be the identity."
 },
 "C36": {
  "note": "zstd is an arbitrary lossless pair of functions; float formats from Flocq at the bit level."
 },
 "C38": {
  "note": "REFUTED: load checks the remote storage twice and never inserts; C38_load_never_writes proves it for all inputs."
 },
 "C39": {
  "note": "Proved for requests without repeated codes and a connected remote storage; C39_no_remote_refuted and C39_duplicate_codes_refuted show where the accounting fails."
 },
 "C40": {
  "note": "REFUTED: a failed local insert is swallowed and still counted, and rows accepted by the size tolerance are not served by the exact-size lookup; C40_cached_when_exact_and_inserted proves the rest."
 },
 "C42": {
  "note": "All 195 concrete classes (36 of them generated at import for the log-normal family) are pairwise compared. Only SbWeibullGofStatistic and SBWeibullGofStatistic share a code."
 },
 "C44": {
  "note": "Refuted by the inverse Gaussian mean: default 0, validator > 0. All other defaults are proved valid."
 },
 "C45": {
  "note": "Lookup is proved for every iteration order of the class set. Without parameters, the call raises TypeError for Cauchy, Laplace, logistic, Student and Tukey, whose constructors have no defaults."
 },
 "C46": {
  "note": "Parameter texts range over everything str() can print for an int or float."
 },
 "C52": {
  "note": "REFUTED: the uniform Watson statistic equals U^2/n + 1/4 for every sample (C52_uniform_watson_value), which is neither U^2 nor U^2/n."
 },
 "C54": {
  "note": "Proved for the statistics of the empirical distribution function, the uniform statistics, the graph statistics (independence on lists; on arrays it raises), all exponentiality statistics and all normality statistics (the tables of classes, with Brys-Hubert-Struyf apart, are proved complete against the registry). Also for every Student, gamma, log-normal and beta class. Weibull: every class except RSB, which is REFUTED (it pairs the unsorted observations with the plotting positions)."
 },
 "C55": {
  "note": "Edges, degrees, handshake identity and the three thresholds are proved; empty samples are refused with ValueError."
 },
 "C56": {
  "note": "DFS proved against the inductive definition of connectedness; in one dimension it equals one plus the number of gaps reaching the threshold."
 },
 "C57": {
  "note": "REFUTED: an off-by-one at the upper end ([0,1] gives 2, constant samples give 0, reflection changes the value). The exact value max(clique number, 1 + size of the top window) and the bound omega <= statistic <= omega + 1 are proved."
 },
 "C58": {
  "note": "Proved for Python lists. REFUTED for numpy arrays: `if not rvs` raises ValueError for two or more observations."
 },
 "C59": {
  "note": "Proved for the 20 composite exponentiality statistics. REFUTED for the two Hegazy-Green statistics (compared with standard exponential quantiles without estimating the unit) and for the graph statistics."
 },
 "C60": {
  "note": "Proved for the 36 composite normality statistics modelled (all but Brys-Hubert-Struyf, for which it is proved away from rounding errors of the median), with any non-zero factor for those that treat both tails alike. Graph statistics: free of the origin, but REFUTED for the unit (threshold divided by the variance)."
 },
 "C61": {
  "note": "Proved for the uniform statistics and the exponential Cramer-von Mises statistic. REFUTED for the exponential and the normal KS statistics, whose parameters are ignored.  Sherman and Quesenberry-Miller are not standardised: they scale with b-a and (b-a)^2. Proved for every Student class except Lilliefors (which has no location and scale) and for every gamma class. The beta Lilliefors class estimates nothing and equals the two-sided Kolmogorov-Smirnov class. Weibull: x -> x^c with k -> k/c changes no statistic based on the distribution function. Uniform: proved for every class except Sherman and Quesenberry-Miller."
 },
 "C64": {
  "note": "REFUTED: clique and independence number, seven exponentiality statistics and Hosking 3 and 4 sort the caller's sample in place; theorems characterise exactly when it is unchanged."
 },
 "C66": {
  "note": "Greenwood, Quesenberry-Miller and Moran bounds proved. Sherman in [0,1] is refuted when the support is longer than 1 (C66_sherman_exceeds_one_refuted); the exact range [0,(b-a)n/(n+1)] is proved."
 },
 "C71": {
  "note": "REFUTED: parameters are compared as JSON text, [1] and [1.0] differ."
 },
 "C72": {
  "note": "REFUTED: the query carries no parameters; the row with most replications of any hypothesis is returned."
 },
 "C73": {
  "note": "REFUTED: sample_size_error is never used by get_data_for_cv (C73_tolerance_has_no_effect)."
 },
 "C74": {
  "note": "REFUTED: every code other than float32 is read as float64."
 },
 "C75": {
  "note": "Refuted for the log-normal generator, whose constructor names (s, mu) differ from the descriptor names (mean, var); the values are dropped silently."
 },
 "C76": {
  "note": "Refuted for the exponential (0.5 instead of 1) and Gompertz (0 instead of 1, outside the documented range) generators."
 },
 "C77": {
  "note": "Complete once the statistics package is imported, but nothing imports it, so the list is empty in a fresh interpreter. The code SB occurs twice for Weibull."
 },
 "C78": {
  "note": "Proved for exponential, uniform, Cauchy, Gumbel, Laplace, logistic, Gompertz, normal, log-normal, gamma and the contaminated normals. Refuted for the Weibull scale, the truncation bounds, the inverse Gaussian mean and the Rice distance. Beta, chi-square, Student and Tukey pass their parameters to scipy unchanged and are not restated."
 },
 "C79": {
  "note": "Refuted for the distance of the Rice distribution, which has no validator."
 },
 "C63": {
  "note": "Exponentiality: every class returns a finite number on three or more different positive values. Normality: every class except five is finite on ten or more different values; for four of the five the exact condition is proved, and Desgagne-Lafaye is REFUTED when an observation equals the sample mean. Gamma (two or more different positive observations) and Student (any observation): always finite. Beta: always finite on two or more different observations inside (0,1). Weibull: finite on three or more different positive observations, except three classes that are REFUTED because they fail on every sample (Anderson-Darling: TypeError; Laplace transform 2 and 3: ValueError). Uniform: finite on two or more different observations inside the interval; REFUTED for equal observations with the automatic rules of the chi-square (OverflowError) and Bickel-Rosenblatt classes."
 },
 "C65": {
  "note": "REFUTED: Hegazy-Green 1 and 2 and Kimber-Michael are distances that vanish exactly for the perfect fit, but declare a left-tailed alternative; C65_perfect_fit_rejected shows the consequence for the decision. Hosking 1-4 and Lilliefors are distances but declare a two-sided alternative; SWRG is largest for the best fit but declares a right-tailed one. The gamma probability-plot statistic is zero for the perfect fit but declares LEFT; Student's Zhang Zc decreases when the largest observation moves outwards but declares RIGHT. The beta entropy statistic is 0 on every constant sample under the uniform hypothesis and positive on an evenly spread one, but declares RIGHT; the beta Lilliefors class is a distance but declares TWO_TAILED. The Weibull Lilliefors class is a distance but declares TWO_TAILED, and the SPP distance declares LEFT. The uniform Stein statistic declares RIGHT but is least for samples concentrated at the middle; the uniform Lilliefors class is a distance but declares TWO_TAILED."
 },
 "C83": {
  "note": "Proved for 32 statistics and with the exact behaviour of Kolmogorov-Smirnov, Zhang Q and Q*. REFUTED for the skewness statistic on samples of zero skewness: zero is replaced by one, so a perfectly symmetric sample gets a positive value. Cabana-Cabana 1 and 2 are directed."
 },
 "C62": {
  "note": "Normality: W-type statistics and probability-plot correlations, with the exact condition for the value 1. Gamma: one minus the probability-plot correlation, in [0,1], zero exactly for an increasing affine image of the quantiles. Weibull: RSB in [0,n], Tiku-Singh in [0,2], MSF and REJG in [0,1]."
 },
 "C85": {
  "note": "REFUTED for the supremum test: at every level other than 0.05 and 0.01 the formula gives a negative critical value. REFUTED for the integral test at 0.05 with at most three observations. For four observations the 0.01 limit of the supremum test lies below the 0.05 limit; from six on the order is right."
 },
 "C68": {
  "note": "All derived classes; consequences: x -> c x^b and x -> 1/x do not change them, s and scale do not matter. The explicit KS, CvM and Quesenberry-Miller classes do not report infinity for non-positive data (not claimed)."
 },
 "C86": {
  "note": "hypothesis() of the exponential, gamma, beta, uniform, log-normal and Weibull families is proved to determine the parameters. REFUTED for Student: location and scale are not reported although the statistics depend on them."
 },
 "C87": {
  "note": "Proved for every Student statistic except Zhang Zc (chi-square when no observation lies on a bin edge). REFUTED for Zhang Zc, whose last reference odds are clipped on one side only. Beta: proved for every class except Ratio and Mode (chi-square off the bin edges); Mode under a unique maximiser of the density estimate on its grid; REFUTED for Ratio, which looks at one end only. Uniform: proved for every class (chi-square off the bin edges)."
 },
 "C88": {
  "note": "Zhang, moment-based and skewness-kurtosis proved. REFUTED for the beta mode statistic, which stays at least sqrt(n)*0.49/199 for every symmetric hypothesis because 1/2 is not on its grid, and for the beta entropy statistic, which ignores samples of fewer than four observations."
 },
 "C69": {
  "note": "Maximality proved for the 12 closed forms on samples inside the support, value 0 outside, inf for constant Laplace/Pareto samples. Families fitted by scipy: maximal whenever the fit is (hypothesis attains, satisfiable by the examples). REFUTED: Weibull (the shape equation is not the likelihood equation), chi-square (free scale), Wigner (bounded search), repeated values reported as 0 although unbounded, all-zero Poisson and all-one geometric samples raise, Rayleigh with a zero raises, discrete uniform accepts non-integers, float counts raise."
 },
 "C70": {
  "note": "REFUTED: no call returns, since the module contains likelihood_function_binomial, minimize_scalar and root_scalar; find_result refuses every array of several values; the import needs the directory on the path. The selection loop itself is proved right. The theorems say that the call never returns a value; which exception it raises is in the model (bad_call) but is not stated by a theorem."
 },
 "C89": {
  "note": "Proved for ST1, ST2, RSB, Tiku-Singh, LOS, MSF and REJG. REFUTED for Sb and SB (for every sample some change of scale changes the value) and for OK (every change of scale changes the value): the rounded weights leave 0.00002012 n log c."
 },
 "C90": {
  "note": "The scale is the best one for the returned shape. REFUTED for the shape: the sign of 1/t is wrong, the minimised function is 2/t minus the score and never zero; for two observations it decreases, so an exact minimiser returns the bound 50."
 },
 "C91": {
  "note": "REFUTED: the plotting positions ascend while the fitted values descend; the value depends on the extreme observations only and is larger than the distance of the property whenever two observations differ."
 },
 "C92": {
  "note": "Proved for all but Kullback-Leibler (for the Laplace transform the sum in the base class); REFUTED for Kullback-Leibler by a sample of 40 observations with a negative value."
 },
 "C93": {
  "note": "Proved for every power parameter, and for the uniform, gamma (three classes), Student and beta classes. REFUTED for Weibull: relative frequencies (total 1) are compared with cell probabilities of total E < 1, so the value is at least (1-E)^2/E > 0 on every sample."
 },
 "C94": {
  "note": "Proved."
 },
 "C95": {
  "note": "Kernel mean, range [-1/4,1/2], product-limit weights and order proved. REFUTED as a distance: samples concentrated at one end get exactly the mean value 0, and samples concentrated at the middle the least possible value. REFUTED for a Python list of zeros (value doubled) and when only the largest observation is censored (twice the statistic of the others)."
 },
 "C96": {
  "note": "Proved for Zhang A and Bickel-Rosenblatt. REFUTED for Zhang C, where 1/5, 1/2, 4/5 is below the evenly spaced sample, and Zhang K, which vanishes on samples concentrated at the middle."
 },
 "C97": {
  "note": "Proved."
 },
 "C98": {
  "note": "REFUTED: for every sample of at least five observations (clear of the median by a few rounding errors) whose upper quarter is farther from the median than the lower one, for every symmetric one, and for every sample of five to sixteen different observations, the inner weighted-median loop repeats one state for ever. Proved: a call has at most one result and raises no exception."
 },
 "C99": {
  "note": "Range proved for a call that may iterate. REFUTED for the statistic: the calls share the iteration limit, so that after a first call without iterations the second medcouple is -2; and every sample of four observations gets the same value."
 },
 "C100": {
  "note": "Proved for every statistic listed. REFUTED for the second Cabana-Cabana statistic: the last summand is added twice, which changes the value for the sample -1, -1, 1, 1; its actual form is proved as _partial. The transformations of skewness (D'Agostino) and kurtosis (Anscombe-Glynn) are included. Coin's scores are pinned to Royston's AS 177 (C100_coin_score); the null constants are taken as the code has them."
 },
 "C101": {
  "note": "Lower bounds and the exact condition for equality; for the Zhang-Wu and Glen-Leemis-Barr statistics the condition is on the probabilities under the fitted normal law, which depend on the sample through mean and standard deviation, so that the bound need not be attained."
 },
 "C102": {
  "note": "Skewness proved increasing away from zero skewness. REFUTED at zero: a symmetric sample is treated like one with transformed skewness 1, so it exceeds some samples of positive skewness. Kurtosis proved increasing from the expected kurtosis upwards; REFUTED overall: below a negative denominator the cube root changes sign, so the flattest samples get a larger value than very heavy-tailed ones."
 },
 "C103": {
  "note": "Proved for every class of the module except WE. REFUTED for WE: the class uses the population variance where the published formula has the sample variance, so it returns (n-1)/n of the statistic (1/27 instead of 1/18 for 1, 2, 3); its actual form is proved as _partial. Gamma and digamma are parameters; Moran's score property assumes that digamma(1) is the derivative of log Gamma at 1. Gnedenko's form is stated for r below the sample size."
 },
 "C104": {
  "note": "Proved."
 },
 "C105": {
  "note": "Proved for every statistic listed except Martinez-Iglewicz. REFUTED there: the sums of the biweight midvariance are not restricted to observations less than nine median absolute deviations from the median, so that a gross outlier brings the statistic down to 25/(n(n-1)) instead of making it large; the actual form and the agreement without far observations are proved as _partial."
 },
 "C106": {
  "note": "Equalities for sixteen formulas. Refuted parts: the chi-square class returns Pearson's statistic divided by the sample size, and RSB does not sort the sample, so it equals the published statistic only for ascending samples. REJG is the fourth power of the correlation, the square of a squared correlation. Liao-Shimokawa equals the published value up to a factor that comes from the constant 1e-10 in its denominators. scipy's gamma function is a parameter."
 },
 "C107": {
  "note": "Refuted. Mahdi-Doostparast integrates the squared difference of the survivor function of the sample and the hypothesised distribution function, so a perfect fit of ten or more observations is rated worse than equal observations. Cabana-Quiroz takes the transform of the raw observations; given Gamma(1.1) < 1 its value is at least n (1 - Gamma(1.1))^2 / 1.59 for every positive sample."
 },
 "C108": {
  "note": "Holds for the classes named in EdfFormSpec.v. The distribution functions of scipy are arguments with the laws gamma_law, beta_law and student_law; the uniform, Weibull, normal and log-normal ones are defined."
 },
 "C109": {
  "note": "Refuted: the class returns Watson's statistic divided by n plus 1/4 (C109_watson_uniform), which differs already for one observation."
 },
 "C110": {
  "note": "Everything but the last clause is proved (C110_serial_order, C110_inserts_serializable, C110_store_alone, C110_delete_alone, C110_delete_removes_what_it_read). The last clause is refuted: a lookup that finds the model stored already sends no statement, takes no lock and is not repeated, so another bulk insert can run between two models of the first (C110_bulk_isolation_refuted). The session and lock behaviour of SQLAlchemy and sqlite3 is taken from their documentation; the column codec is assumed idempotent."
 },
 "C111": {
  "note": "All clauses but the last are proved (C111_float_range_and_order, C111_float_never_below_raw, C111_relative_error, C111_by_error, C111_float_rejections_are_rejections, C111_float_fwer_at_most_exact). Decisions agree unless the exact adjusted value lies within the stated error of the threshold (C111_decisions_agree_away_from_threshold); with five p-values a rejection is lost in rounding (C111_decisions_equal_refuted). The power function is a parameter with the stated range and monotonicity; the harmonic factor is a parameter, and the plain left-to-right sum is proved to satisfy the assumptions (C111_plain_factor_ok, C111_plain_factor_error)."
 },
 "C112": {
  "note": "D, the divisor and the supremum statistic are as stated (C112_asymmetry, C112_variance, C112_variance_bounds, C112_supremum); the integral statistic is as stated outside [-1/300,1/300], where the program adds some nonnegative number (C112_integral). The continuation at 0 is wrong: D behaves like c r^3/6 and the squared quotient tends to c^2/6 (C112_expansion), the program uses sqrt(6) c r^3/6 (C112_small_power_refuted) and c^2/36 (C112_integrand_at_zero_refuted), and for |r| below about 0.0029 it divides by 1e-8 instead of the standard deviation (C112_divisor_refuted). c is minus the third central moment of the logarithms."
 },
 "C113": {
  "note": "Proved for all parameters. The law is the improper integral of the density; of digamma only the recursion psi(x+1) = psi(x) + 1/x and monotonicity are used (a function with both exists, C113_nonvacuous_digamma), and betaln is taken to be the logarithm of the constant. The kernel estimate and Vasicek's estimate are spelled out in BetaLawSpec.v."
 },
 "C114": {
  "note": "Proved. The matrix is the inverse of [[1.24581,.322918,-.322918],[.322918,2.62068,-.0123455],[-.322918,-.0123455,2.62068]] to a relative error of 1e-13 in the distance. That these are the asymptotic covariances of the medcouples of a normal sample is taken from the paper. Which medcouples are computed is the subject of C98 and C99."
 },
 "C115": {
  "note": "Everything but the case of ties is proved (C115_range, C115_monotone, C115_zero, C115_error, C115_decisions_differ_at_ties_only, C115_rejections_are_rejections, C115_critical_value_between, _rank, _extremes); left-tailed tests always decide as with exact numbers (C115_left_decisions_equal). Refuted at ties: 1 - 0.95 exceeds 0.05 in double precision, so a right-tailed p-value of exactly 5% never rejects at 0.05 (C115_right_tie_refuted), and a two-sided one rejects in the lower tail only (C115_two_sided_tails_refuted)."
 },
 "C116": {
  "note": "scipy.stats.moment takes the sample mean when center is None, so the documented raw moment (sample.py:16-18, 31-32) is a central moment: order 1 always gives 0 (C116_raw_moment_refuted). Everything else is proved; the normal distribution function is any function whose derivative is the standard density."
 },
 "C117": {
  "note": "For distinct values the size is the level up to 4/(n+1), in either tail and for both methods. The level itself is not kept: when (n-1)*level is an integer i and level < 1/2 the right-tailed critical-value test has size (i+1)/(n+1) > level (C117_level_exceeded, C117_level_kept_refuted). With tied values (integer-valued statistics, such as the graph statistics) the size can be n/(n+1) at every level, for critical values because the quantile is taken among the distinct simulated values (C117_discrete_refuted), for p-values because only values strictly above the observed one count (C117_p_value_ties_refuted)."
 },
 "C118": {
  "note": "Pairwise independence suffices. For critical values the probability of ties among the simulated values is added (the quantile is taken among distinct values, see C19 and C117). REFUTED without that term: at every level there are laws with finitely many values for which a value with an exact p-value near 1 is rejected with a probability tending to 1 (C118_ties_refuted)."
 },
 "C119": {
  "note": "Proved for the two-sided and the right-sided statistic. With alternative LEFT the statistic is sup (F - EDF) but small values are rejected, so the power against laws that are larger in this direction tends to 0 instead of 1 (C119_left_alternative_refuted). The simulated samples may come from any law within eta of the hypothesised one; eta = 0 is the exact generator."
 },
 "C120": {
  "note": "The excess is real: n+1 true hypotheses with n simulations each can lead to a false rejection with certainty at every positive threshold (C120_few_simulations_refuted refutes control at the threshold itself), because a Monte-Carlo p-value is 0 with probability up to 1/(n+1)."
 },
 "C121": {
  "note": "The constants are not sharp; the distances of the simulated law (eta) and of the alternative (gap) must satisfy the stated inequality."
 },
 "C122": {
  "note": "About completed iterations only; that the inner weighted median usually does not return is C98. Tolerance eps0*(eps0+|trial|) as in the code."
 },
 "C123": {
  "note": "Proved for the statistics that C60, C59, C89 and C68 show to be free of the parameters. REFUTED for the Hegazy-Green statistic, which compares with standard exponential quantiles whatever the unit: no observed sample is rejected once its unit is small enough. The samples must have different values of the statistic (no ties); those of the Weibull and log-normal tests must be positive, and the logarithms of those of the log-normal tests must not all be equal."
 },
 "C124": {
  "note": "The constructor does not check its argument: a string such as 'left' is accepted, treated as two-sided by execute_statistic, and reported by get_alternative only when the test asks for the alternative, after the resolver has simulated the limit distribution. Resolvers are arbitrary functions that report how many samples they evaluated."
 },
 "C125": {
  "note": "The inequalities and consistency are proved for watson_stat, the form used by beta.py and student.py. The gamma statistic takes the same decisions on non-empty samples. The uniform class computes U^2/n + 1/4 instead (C52_uniform_watson_refuted); the same power bound is proved for it when all values lie in [a, b], since the class raises ValueError otherwise. Alternative LEFT is excluded, as in C119."
 },
 "C126": {
  "note": "A value outside [a, b] is the strongest evidence against uniformity, yet the test reports an exception instead of a rejection; the theorems state what the code does. Consistency of the Watson class is C125_uniform_consistent. Alternative LEFT is excluded, as in C119."
 }
}