{"id": "C01", "title": "Bonferroni adjusted p-values", "statement": "BonferroniMultipleTesting.adjust returns, for every list of p-values in [0,1], a list of the same length whose entry at each position is min(1, m*p) for the p-value at that position (m = number of hypotheses); every adjusted value lies between the raw p-value and 1.", "quantifier": "every finite list of p-values in [0,1]", "why_tests_cant": "lists of any length and any real values; a test only samples a few lists", "anchors": ["src/pysatl_criterion/hypothesis_testing/multiple_testing/fwer.py:BonferroniMultipleTesting.adjust"]}
{"id": "C02", "title": "Bonferroni controls the family-wise error rate", "statement": "If every true null hypothesis has a super-uniform p-value, then whatever the joint dependence of the p-values, the probability that BonferroniMultipleTesting.test rejects at least one true null is at most the threshold.", "quantifier": "every finite probability space, every random vector of p-values, every set of true nulls, every threshold", "why_tests_cant": "quantifies over all joint distributions", "anchors": ["src/pysatl_criterion/hypothesis_testing/multiple_testing/fwer.py:BonferroniMultipleTesting", "src/pysatl_criterion/hypothesis_testing/multiple_testing/abstract_multiple_testing.py:AbstractMultipleTesting.test"]}
{"id": "C03", "title": "Sidak correction and its error control", "statement": "SidakMultipleTesting.adjust returns 1-(1-p)^m at each position, lies in [p,1], and for mutually independent super-uniform null p-values the probability of rejecting at least one true null is at most the threshold.", "quantifier": "every list of p-values; every probability space with independent null p-values", "why_tests_cant": "quantifies over all joint distributions with independence", "anchors": ["src/pysatl_criterion/hypothesis_testing/multiple_testing/fwer.py:SidakMultipleTesting.adjust"]}
{"id": "C04", "title": "Holm is the Holm-Bonferroni step-down procedure", "statement": "Holm.adjust returns the Holm step-down adjusted p-values: for the k-th smallest p-value the maximum over j<=k of min(1,(m-j+1)*p_(j)).", "quantifier": "every list of p-values in [0,1]", "why_tests_cant": "the defect only shows for particular spacings of the p-values; must hold for every list", "anchors": ["src/pysatl_criterion/hypothesis_testing/multiple_testing/fwer.py:Holm.adjust"]}
{"id": "C05", "title": "Holm controls the family-wise error rate under arbitrary dependence", "statement": "If every true null hypothesis has a super-uniform p-value, the probability that Holm.test rejects at least one true null is at most the threshold, for every joint distribution.", "quantifier": "every finite probability space and random p-value vector", "why_tests_cant": "quantifies over all joint distributions", "anchors": ["src/pysatl_criterion/hypothesis_testing/multiple_testing/fwer.py:Holm"]}
{"id": "C06", "title": "SidakHolm is the step-down Sidak procedure", "statement": "SidakHolm.adjust returns the Holm-Sidak step-down adjusted p-values: for the k-th smallest p-value the maximum over j<=k of 1-(1-p_(j))^(m-j+1).", "quantifier": "every list of p-values in [0,1]", "why_tests_cant": "must hold for every list", "anchors": ["src/pysatl_criterion/hypothesis_testing/multiple_testing/fwer.py:SidakHolm.adjust"]}
{"id": "C07", "title": "Benjamini-Yekutieli step-up adjusted p-values", "statement": "BenjaminiYekutieli.adjust returns, for each hypothesis with rank k, min over j>=k of min(1, p_(j)*m*c/j) with c the harmonic number of m (m<=10000), in the original order; every value lies in [p,1].", "quantifier": "every list of p-values in [0,1] of length at most 10000", "why_tests_cant": "all lists, all ties, all orders", "anchors": ["src/pysatl_criterion/hypothesis_testing/multiple_testing/fdr.py:BenjaminiYekutieli.adjust"]}
{"id": "C08", "title": "Benjamini-Yekutieli controls the false discovery rate", "statement": "For every joint distribution of p-values whose true nulls are super-uniform, the expected proportion of true nulls among the rejections of BenjaminiYekutieli.test is at most threshold*m0/m (m0 = number of true nulls, m<=10000).", "quantifier": "every finite probability space, p-value vector, null set, threshold", "why_tests_cant": "quantifies over all joint distributions", "anchors": ["src/pysatl_criterion/hypothesis_testing/multiple_testing/fdr.py:BenjaminiYekutieli.adjust"]}
{"id": "C09", "title": "Benjamini-Yekutieli uses the harmonic factor for every number of hypotheses", "statement": "The correction factor applied by BenjaminiYekutieli.adjust is the harmonic number 1+1/2+...+1/m (documented step 1) for every m.", "quantifier": "every number of hypotheses m", "why_tests_cant": "the large-m branch (m>10000) uses a logarithmic approximation which no unit test compares with the sum", "anchors": ["src/pysatl_criterion/hypothesis_testing/multiple_testing/fdr.py:BenjaminiYekutieli.adjust"]}
{"id": "C10", "title": "Adjusted p-values follow their hypothesis and preserve order", "statement": "For each of the five corrections: the output has the input length, permuting the hypotheses permutes the adjusted values and decisions in the same way, and a smaller raw p-value never gets a larger adjusted value.", "quantifier": "every list of p-values in [0,1], every permutation, every correction", "why_tests_cant": "all permutations and ties", "anchors": ["src/pysatl_criterion/hypothesis_testing/multiple_testing/fwer.py", "src/pysatl_criterion/hypothesis_testing/multiple_testing/fdr.py"]}
{"id": "C11", "title": "Validation and decision rule of test", "statement": "For each correction, test raises ValueError exactly when some p-value is outside [0,1]; otherwise it returns (adjusted<threshold per hypothesis, adjusted). Raising the threshold never turns a rejection into a non-rejection.", "quantifier": "every list of reals, every threshold, every correction", "why_tests_cant": "all lists and thresholds", "anchors": ["src/pysatl_criterion/hypothesis_testing/multiple_testing/abstract_multiple_testing.py:AbstractMultipleTesting"]}
{"id": "C12", "title": "Floating point corrections never fall below the raw p-value", "statement": "Computed in IEEE binary64, the Bonferroni and Sidak adjusted p-value is never smaller than the raw p-value and never larger than 1.", "quantifier": "every list of binary64 p-values in [0,1]", "why_tests_cant": "rounding effects appear only at extreme magnitudes", "anchors": ["src/pysatl_criterion/hypothesis_testing/multiple_testing/fwer.py:BonferroniMultipleTesting.adjust", "src/pysatl_criterion/hypothesis_testing/multiple_testing/fwer.py:SidakMultipleTesting.adjust"]}
{"id": "C13", "title": "Monte-Carlo p-values are the tail fractions", "statement": "For a non-empty simulated distribution, the left p-value is the fraction of simulated values <= the statistic, the right p-value one minus it, the two-sided one twice the smaller of both; each lies in [0,1]; the left one is non-decreasing and the right one non-increasing in the statistic.", "quantifier": "every non-empty list of simulated values, every statistic value", "why_tests_cant": "all lists with ties", "anchors": ["src/pysatl_criterion/hypothesis_testing/p_value/calculator/p_value_calculator.py"]}
{"id": "C14", "title": "p-values and critical values ignore simulation order", "statement": "The order in which limit distribution values are listed never changes a p-value, a critical value or a decision.", "quantifier": "every list, every permutation of it", "why_tests_cant": "all permutations", "anchors": ["src/pysatl_criterion/hypothesis_testing/p_value/calculator/p_value_calculator.py", "src/pysatl_criterion/hypothesis_testing/critical_values/calculator/critical_value_calculator.py"]}
{"id": "C15", "title": "Monte-Carlo right-tailed p-value is a valid p-value", "statement": "If the observed statistic and the n simulated ones are exchangeable, the probability that the right-tailed test based on the p-value (reject iff p<=alpha) rejects is at most alpha.", "quantifier": "every multiset of n+1 exchangeable statistic values, every alpha", "why_tests_cant": "quantifies over all exchangeable laws, including discrete statistics with ties", "anchors": ["src/pysatl_criterion/hypothesis_testing/p_value/calculator/p_value_calculator.py:RightPValueCalculator", "src/pysatl_criterion/hypothesis_testing/goodness_of_fit_test/goodness_of_fit_test.py:PValueDecisionMethod"]}
{"id": "C16", "title": "Upper-tail p-value counts values at least as extreme", "statement": "The right-tailed p-value is the fraction of simulated values greater than or equal to the observed statistic.", "quantifier": "every list of simulated values", "why_tests_cant": "ties between observed and simulated values", "anchors": ["src/pysatl_criterion/hypothesis_testing/p_value/calculator/p_value_calculator.py:RightPValueCalculator"]}
{"id": "C17", "title": "Critical values lie in the simulated range and are monotone in the level", "statement": "Every critical value lies between the smallest and largest simulated value; left critical values grow with the level, right ones shrink, and for two-sided tests the lower never exceeds the upper for levels in [0,1].", "quantifier": "every non-empty list of simulated values, every level in [0,1]", "why_tests_cant": "all lists and levels", "anchors": ["src/pysatl_criterion/hypothesis_testing/critical_values/calculator/critical_value_calculator.py"]}
{"id": "C18", "title": "Critical value calculators reject bad input", "statement": "A level outside [0,1] (outside [0,2] for the two-sided calculator) or an empty limit distribution raises an error instead of producing a number.", "quantifier": "every level and list", "why_tests_cant": "all levels", "anchors": ["src/pysatl_criterion/hypothesis_testing/critical_values/calculator/critical_value_calculator.py"]}
{"id": "C19", "title": "Critical values are quantiles of the simulated distribution", "statement": "The critical value of level alpha is the (linearly interpolated) quantile of the list of simulated values, so at most a fraction alpha (plus one sample of discretisation) of the simulated values lies strictly beyond it.", "quantifier": "every list of simulated values, every level", "why_tests_cant": "depends on multiplicities of tied values (discrete statistics)", "anchors": ["src/pysatl_criterion/hypothesis_testing/critical_values/calculator/critical_value_calculator.py"]}
{"id": "C20", "title": "Critical-value decision", "statement": "The critical-value method rejects a left-tailed test iff the statistic is below the critical value, a right-tailed one iff above, a two-sided one iff outside the closed interval between the two critical values.", "quantifier": "every statistic value, critical value, alternative", "why_tests_cant": "all reals", "anchors": ["src/pysatl_criterion/hypothesis_testing/critical_values/critical_area/critical_areas.py", "src/pysatl_criterion/hypothesis_testing/goodness_of_fit_test/goodness_of_fit_test.py:CriticalValueDecisionMethod.decide"]}
{"id": "C21", "title": "Decisions are monotone in the significance level", "statement": "If a test (same data, same limit distribution) rejects at level alpha it rejects at every larger level, with the p-value method and with the critical-value method.", "quantifier": "every limit distribution, statistic value, pair of levels, alternative", "why_tests_cant": "all pairs of levels", "anchors": ["src/pysatl_criterion/hypothesis_testing/goodness_of_fit_test/goodness_of_fit_test.py"]}
{"id": "C22", "title": "The two decision methods agree", "statement": "For the same limit distribution, statistic and level, PValueDecisionMethod and CriticalValueDecisionMethod give the same decision.", "quantifier": "every limit distribution, statistic, level, alternative", "why_tests_cant": "boundary positions between order statistics", "anchors": ["src/pysatl_criterion/hypothesis_testing/goodness_of_fit_test/goodness_of_fit_test.py:PValueDecisionMethod", "src/pysatl_criterion/hypothesis_testing/goodness_of_fit_test/goodness_of_fit_test.py:CriticalValueDecisionMethod"]}
{"id": "C23", "title": "Decisions point in the direction of the alternative", "statement": "For right-tailed tests a larger statistic is rejected whenever a smaller one is; left-tailed tests are the mirror image; two-sided acceptance regions are intervals (both methods).", "quantifier": "every limit distribution, level and pair of statistic values", "why_tests_cant": "all pairs of statistics", "anchors": ["src/pysatl_criterion/hypothesis_testing/goodness_of_fit_test/goodness_of_fit_test.py", "src/pysatl_criterion/hypothesis_testing/p_value/calculator/p_value_calculator.py"]}
{"id": "C24", "title": "Test results are consistent", "statement": "GoodnessOfFitTest.test returns a result whose statistic is the value of the statistic on the data, whose level is the one given, and exactly one of p_value and critical_value is set according to the decision method; rejected follows from it. A missing limit distribution raises ValueError.", "quantifier": "every statistic, data set, level, resolver outcome", "why_tests_cant": "all statistics and resolver outcomes", "anchors": ["src/pysatl_criterion/hypothesis_testing/goodness_of_fit_test/goodness_of_fit_test.py:GoodnessOfFitTest.test"]}
{"id": "C25", "title": "Monte-Carlo resolver", "statement": "MonteCarloLimitDistributionResolver refuses a non-positive simulation count (constructor) or sample size (resolve), and otherwise returns exactly the configured number of statistic values, each computed from one generated sample of the requested size.", "quantifier": "every count, size, generator stream and statistic", "why_tests_cant": "all generator streams", "anchors": ["src/pysatl_criterion/hypothesis_testing/limit_distribution/base.py"]}
{"id": "C26", "title": "Stored limit distributions are found", "statement": "If a limit distribution for the statistic code, parameters and sample size is stored, StorageLimitDistributionResolver.resolve returns its values.", "quantifier": "every storage content and query", "why_tests_cant": "depends on the monte_carlo_count stored with the row", "anchors": ["src/pysatl_criterion/hypothesis_testing/limit_distribution/base.py:StorageLimitDistributionResolver"]}
{"id": "C27", "title": "Default Kolmogorov-Smirnov test never rejects a better fit", "statement": "With the default KS statistic and test, if a data set with some KS distance is accepted, so is any data set with a smaller KS distance.", "quantifier": "every limit distribution, level, pair of KS values", "why_tests_cant": "all pairs", "anchors": ["src/pysatl_criterion/statistics/goodness_of_fit/common.py:KSStatistic.alternative", "src/pysatl_criterion/hypothesis_testing/goodness_of_fit_test/goodness_of_fit_test.py"]}
{"id": "C28", "title": "Storage reads return the last write", "statement": "After any history of insert and delete operations, looking up a criterion/parameters/size/count combination written by a single experiment returns exactly the last model inserted for it, or nothing if it was deleted or never inserted.", "quantifier": "every finite history of storage operations", "why_tests_cant": "all histories", "anchors": ["src/pysatl_criterion/persistence/sqlalchemy/datastorage.py"]}
{"id": "C29", "title": "Inserting is an upsert", "statement": "Inserting a model whose key (experiment, code, parameters, size, count) already exists replaces the stored row; the table never holds two rows with one key; other rows are unaffected; inserting twice equals inserting once.", "quantifier": "every reachable table, every model", "why_tests_cant": "all histories", "anchors": ["src/pysatl_criterion/persistence/sqlalchemy/datastorage.py:insert_data"]}
{"id": "C30", "title": "Deleting", "statement": "delete_data removes exactly the row that get_data would return and nothing else; deleting a missing row changes nothing.", "quantifier": "every reachable table, every query", "why_tests_cant": "all histories", "anchors": ["src/pysatl_criterion/persistence/sqlalchemy/datastorage.py:delete_data"]}
{"id": "C31", "title": "Lookups succeed whatever experiments wrote the data", "statement": "get_data returns a stored distribution whenever at least one row matches the query.", "quantifier": "every reachable table and query", "why_tests_cant": "two experiments with the same criterion, parameters, size and count", "anchors": ["src/pysatl_criterion/persistence/sqlalchemy/datastorage.py:get_data"]}
{"id": "C32", "title": "Best cached distribution for critical values", "statement": "get_data_for_cv returns a row with the requested code and sample size whose Monte-Carlo count is maximal among such rows, and None iff there is none.", "quantifier": "every table, code and size", "why_tests_cant": "all tables", "anchors": ["src/pysatl_criterion/persistence/sqlalchemy/datastorage.py:get_data_for_cv"]}
{"id": "C33", "title": "Bulk read", "statement": "get_bulk_data returns at most one row per requested code, only rows with requested codes and sizes inside the window, each with the maximal Monte-Carlo count among the candidates, and covers every requested code having a candidate.", "quantifier": "every table, code list and window", "why_tests_cant": "all tables", "anchors": ["src/pysatl_criterion/persistence/sqlalchemy/datastorage.py:get_bulk_data"]}
{"id": "C34", "title": "Bulk insert is all-or-nothing and equals sequential inserts", "statement": "insert_bulk_data either leaves the table unchanged (failure) or produces exactly the table obtained by inserting the models one after another.", "quantifier": "every table, list of models, failure point", "why_tests_cant": "crash points inside the transaction", "anchors": ["src/pysatl_criterion/persistence/sqlalchemy/datastorage.py:insert_bulk_data"]}
{"id": "C35", "title": "Stored statistics survive the database round trip", "statement": "A list of float values written through the compressed column is read back unchanged.", "quantifier": "every list of binary64 values", "why_tests_cant": "rounding to float32 only shows for values that are not float32-representable", "anchors": ["src/pysatl_criterion/persistence/sqlalchemy/alchemy_decorator.py", "src/pysatl_criterion/persistence/sqlalchemy/models/limit_distribution_orm.py"]}
{"id": "C36", "title": "Compressed column codec", "statement": "Decoding an encoded list gives the values rounded to the chosen width in order and with the same length; a second round trip is exact; a value that is already representable is unchanged.", "quantifier": "every list of finite floats shorter than 2^32, both widths", "why_tests_cant": "all lists, lengths and bit patterns", "anchors": ["src/pysatl_criterion/persistence/sqlalchemy/alchemy_decorator.py"]}
{"id": "C37", "title": "Corrupt blobs are refused", "statement": "A blob shorter than the header, with an unknown version, or whose payload is shorter than the announced length raises an error rather than returning numbers.", "quantifier": "every byte string", "why_tests_cant": "all byte strings", "anchors": ["src/pysatl_criterion/persistence/sqlalchemy/alchemy_decorator.py"]}
{"id": "C38", "title": "Loading a critical value fills the local cache", "statement": "When load reports success, the local storage can serve the query afterwards.", "quantifier": "every local and remote storage content and query", "why_tests_cant": "depends on both storages", "anchors": ["src/pysatl_criterion/hypothesis_testing/critical_values/loader/remote_loader.py:load"]}
{"id": "C39", "title": "Bulk load accounting", "statement": "In the result of load_bulk, requested = already cached + newly cached + not found, the not-found list contains exactly the requested codes available neither locally nor remotely.", "quantifier": "every local and remote content, list of codes without duplicates", "why_tests_cant": "all contents", "anchors": ["src/pysatl_criterion/hypothesis_testing/critical_values/loader/remote_loader.py:load_bulk"]}
{"id": "C40", "title": "Newly cached rows are really cached", "statement": "Every code counted as newly cached by load_bulk is served by the local storage afterwards.", "quantifier": "every local/remote content and insertion outcome", "why_tests_cant": "insertion failures are swallowed", "anchors": ["src/pysatl_criterion/hypothesis_testing/critical_values/loader/remote_loader.py:load_bulk"]}
{"id": "C41", "title": "Bulk load never damages the cache", "statement": "load_bulk never removes a code from the local cache and repeats without remote traffic when everything is cached.", "quantifier": "every local/remote content", "why_tests_cant": "all histories of loads", "anchors": ["src/pysatl_criterion/hypothesis_testing/critical_values/loader/remote_loader.py:load_bulk"]}
{"id": "C42", "title": "Statistic codes identify the statistic", "statement": "Two different concrete goodness-of-fit statistics never return the same code.", "quantifier": "every pair of concrete statistic classes", "why_tests_cant": "finite but large set of pairs; no test enumerates it", "anchors": ["src/pysatl_criterion/statistics/goodness_of_fit"]}
{"id": "C43", "title": "Parameter validators", "statement": "PositiveNumberValidator accepts exactly numbers >0, NonNegativeNumberValidator exactly >=0, ProbabilityValidator exactly [0,1].", "quantifier": "every real number", "why_tests_cant": "all reals", "anchors": ["src/pysatl_criterion/distribution/validator.py"]}
{"id": "C44", "title": "Default parameters are valid", "statement": "Every default value of every distribution descriptor passes its own validator.", "quantifier": "every distribution and parameter", "why_tests_cant": "finite enumeration not covered by tests", "anchors": ["src/pysatl_criterion/distribution/distributions.py"]}
{"id": "C45", "title": "Every distribution has exactly one descriptor and a generator", "statement": "For each DistributionType the lookup utilities return the descriptor and generator of that type, never of another.", "quantifier": "every DistributionType", "why_tests_cant": "enumeration over the class hierarchy", "anchors": ["src/pysatl_criterion/utils"]}
{"id": "C46", "title": "Generator codes identify generators", "statement": "Two generators of the same class with different (textual) parameters have different codes, and generators of different distributions have different codes.", "quantifier": "every pair of generators", "why_tests_cant": "all parameter pairs", "anchors": ["src/pysatl_criterion/generator/model.py", "src/pysatl_criterion/generator/generators.py"]}
{"id": "C47", "title": "Kolmogorov-Smirnov statistic is the sup distance", "statement": "The two-sided KS statistic equals the supremum over all reals of |F_n(x)-F(x)| for every continuous hypothesised distribution function; the one-sided ones are the one-sided suprema.", "quantifier": "every non-empty sample (ties included), every continuous cdf", "why_tests_cant": "a supremum over all reals and all samples", "anchors": ["src/pysatl_criterion/statistics/goodness_of_fit/common.py:KSStatistic"]}
{"id": "C48", "title": "Range of EDF statistics", "statement": "KS lies in [1/(2n),1], Cramer-von Mises in [1/(12n), n/3], Kuiper in [1/n, 1], Watson is at least 1/(12n), for every sample.", "quantifier": "every non-empty sample, every cdf", "why_tests_cant": "all samples", "anchors": ["src/pysatl_criterion/statistics/goodness_of_fit/common.py"]}
{"id": "C49", "title": "Cramer-von Mises statistic is the integrated squared distance", "statement": "The CvM statistic equals n times the integral over [0,1] of (G_n(u)-u)^2 where G_n is the empirical cdf of the transformed sample.", "quantifier": "every sorted sample of probabilities", "why_tests_cant": "integral identity over all samples", "anchors": ["src/pysatl_criterion/statistics/goodness_of_fit/common.py:CrammerVonMisesStatistic"]}
{"id": "C50", "title": "Anderson-Darling statistic is non-negative", "statement": "A^2 >= 0 for every sample with cdf values strictly inside (0,1).", "quantifier": "every sample", "why_tests_cant": "analytic inequality over all samples", "anchors": ["src/pysatl_criterion/statistics/goodness_of_fit/common.py:ADStatistic"]}
{"id": "C51", "title": "Watson and Kuiper do not depend on the origin of the circle", "statement": "Rotating the probability-transformed sample on the circle changes neither the Watson nor the Kuiper statistic (gamma, beta, student).", "quantifier": "every sample in [0,1) and rotation", "why_tests_cant": "all rotations", "anchors": ["src/pysatl_criterion/statistics/goodness_of_fit/gamma.py:WatsonGammaGofStatistic", "src/pysatl_criterion/statistics/goodness_of_fit/gamma.py:KuiperGammaGofStatistic"]}
{"id": "C52", "title": "Uniform Watson statistic", "statement": "WatsonUniformGofStatistic returns Watson's U^2 (CvM minus n*(mean-1/2)^2) up to its documented normalisation.", "quantifier": "every sample in [a,b]", "why_tests_cant": "all samples", "anchors": ["src/pysatl_criterion/statistics/goodness_of_fit/uniform.py:WatsonUniformGofStatistic"]}
{"id": "C53", "title": "Power-divergence statistics measure a discrepancy", "statement": "Pearson, G-test, modified likelihood and Cressie-Read statistics are non-negative when observed and expected totals agree, and zero when observed equals expected.", "quantifier": "every pair of count vectors", "why_tests_cant": "analytic inequality over all vectors", "anchors": ["src/pysatl_criterion/statistics/goodness_of_fit/common.py:Chi2Statistic"]}
{"id": "C54", "title": "Statistics depend on the sample only through its values, not its order", "statement": "Permuting the sample never changes the value of a goodness-of-fit statistic.", "quantifier": "every statistic modelled, every sample, every permutation", "why_tests_cant": "all permutations", "anchors": ["src/pysatl_criterion/statistics/goodness_of_fit"]}
{"id": "C55", "title": "Graph statistics: edges and degrees", "statement": "Number of edges, maximal and average degree equal those of the proximity graph joining observations closer than the threshold (handshake identity included).", "quantifier": "every sample", "why_tests_cant": "all samples", "anchors": ["src/pysatl_criterion/statistics/goodness_of_fit/graph_goodness_of_fit.py"]}
{"id": "C56", "title": "Graph statistics: connected components", "statement": "The connected components statistic equals the number of connected components of the proximity graph.", "quantifier": "every sample", "why_tests_cant": "all graphs", "anchors": ["src/pysatl_criterion/statistics/goodness_of_fit/graph_goodness_of_fit.py:GraphConnectedComponentsTestStatistic"]}
{"id": "C57", "title": "Graph statistics: clique number", "statement": "The clique statistic equals the size of the largest set of observations that are pairwise closer than the threshold.", "quantifier": "every sample", "why_tests_cant": "all subsets of all samples", "anchors": ["src/pysatl_criterion/statistics/goodness_of_fit/graph_goodness_of_fit.py:GraphCliqueNumberTestStatistic"]}
{"id": "C58", "title": "Graph statistics: independence number", "statement": "The independence statistic equals the size of the largest set of observations no two of which are closer than the threshold.", "quantifier": "every sample", "why_tests_cant": "all subsets of all samples", "anchors": ["src/pysatl_criterion/statistics/goodness_of_fit/graph_goodness_of_fit.py:GraphIndependenceNumberTestStatistic"]}
{"id": "C59", "title": "Exponentiality statistics are scale free", "statement": "Multiplying every observation by the same positive constant does not change the composite exponentiality statistics.", "quantifier": "every sample and positive factor", "why_tests_cant": "all samples and factors", "anchors": ["src/pysatl_criterion/statistics/goodness_of_fit/exponent.py"]}
{"id": "C60", "title": "Normality statistics are location-scale free", "statement": "Replacing every observation x by a+b*x with b>0 does not change the composite normality statistics.", "quantifier": "every sample, every a, b>0", "why_tests_cant": "all samples and transformations", "anchors": ["src/pysatl_criterion/statistics/goodness_of_fit/normal.py"]}
{"id": "C61", "title": "Hypothesised parameters are used", "statement": "Simple-hypothesis KS statistics use the parameters given to the constructor: testing a transformed sample against transformed parameters gives the same value.", "quantifier": "every sample and parameters", "why_tests_cant": "all parameter values", "anchors": ["src/pysatl_criterion/statistics/goodness_of_fit/normal.py:KolmogorovSmirnovNormalityGofStatistic", "src/pysatl_criterion/statistics/goodness_of_fit/exponent.py:KolmogorovSmirnovExponentialityGofStatistic"]}
{"id": "C62", "title": "Correlation-type statistics are bounded", "statement": "Shapiro-Francia, Shapiro-Wilk type and probability-plot correlation statistics lie in their natural ranges (W in [0,1], correlations in [-1,1]).", "quantifier": "every non-constant sample", "why_tests_cant": "Cauchy-Schwarz over all samples", "anchors": ["src/pysatl_criterion/statistics/goodness_of_fit/normal.py", "src/pysatl_criterion/statistics/goodness_of_fit/gamma.py:ProbabilityPlotCorrelationGammaGofStatistic"]}
{"id": "C63", "title": "Every listed statistic can be executed", "statement": "Each statistic offered for a distribution returns a number on every valid sample (large enough, distinct positive values).", "quantifier": "every statistic, every valid sample", "why_tests_cant": "some statistics fail on every input", "anchors": ["src/pysatl_criterion/statistics/goodness_of_fit/weibull.py"]}
{"id": "C64", "title": "Executing a statistic does not modify the data", "statement": "execute_statistic leaves the caller's sample unchanged.", "quantifier": "every statistic, every sample", "why_tests_cant": "aliasing; depends on the order of the caller's data", "anchors": ["src/pysatl_criterion/statistics/goodness_of_fit/normal.py", "src/pysatl_criterion/statistics/goodness_of_fit/exponent.py", "src/pysatl_criterion/statistics/goodness_of_fit/graph_goodness_of_fit.py"]}
{"id": "C65", "title": "Large-value alternatives match the statistic", "statement": "A statistic whose value is zero for a perfect fit and grows with misfit declares a right-tailed alternative.", "quantifier": "every statistic", "why_tests_cant": "semantic; needs an inequality over all samples", "anchors": ["src/pysatl_criterion/statistics/goodness_of_fit/gamma.py:ProbabilityPlotCorrelationGammaGofStatistic"]}
{"id": "C66", "title": "Spacing statistics", "statement": "Greenwood lies in [1/(n+1),1], Sherman in [0,1], Quesenberry-Miller is at least the Greenwood value, Moran is bounded below, for every sample in the support.", "quantifier": "every sample in the support", "why_tests_cant": "all samples", "anchors": ["src/pysatl_criterion/statistics/goodness_of_fit/uniform.py", "src/pysatl_criterion/statistics/goodness_of_fit/gamma.py"]}
{"id": "C67", "title": "Samples outside the support are refused", "statement": "Uniform and Beta statistics raise ValueError exactly when some observation lies outside the support; constructors raise exactly on invalid parameters.", "quantifier": "every sample and parameters", "why_tests_cant": "all samples", "anchors": ["src/pysatl_criterion/statistics/goodness_of_fit/uniform.py", "src/pysatl_criterion/statistics/goodness_of_fit/beta.py"]}
{"id": "C68", "title": "Log-normal statistics are normal statistics of the log data", "statement": "The derived log-normal statistics equal the normality statistic of the standardised logarithms, and report infinity for non-positive data.", "quantifier": "every sample, every s>0, scale>0", "why_tests_cant": "all samples", "anchors": ["src/pysatl_criterion/statistics/goodness_of_fit/log_normal.py"]}
{"id": "C69", "title": "Closed-form maximum-likelihood estimators maximise the likelihood", "statement": "For the families with closed-form estimates (normal, exponential, uniform, Laplace, Poisson, Bernoulli, geometric, Pareto, Rayleigh ...) the returned likelihood is the maximum over all parameters.", "quantifier": "every sample and every parameter value", "why_tests_cant": "optimality over all parameters", "anchors": ["src/pysatl_criterion/estimation/maximum_likelihood/function_for_maximum_likelihood.py"]}
{"id": "C70", "title": "Choosing the best family", "statement": "find_max_probability_function returns the family with the largest likelihood.", "quantifier": "every data set", "why_tests_cant": "depends on signature of every function in the module", "anchors": ["src/pysatl_criterion/estimation/maximum_likelihood/maximum_likelihood.py"]}
{"id": "C71", "title": "Lookups do not depend on how a parameter is spelled", "statement": "A limit distribution stored for a hypothesis is found when the numerically same hypothesis parameters are asked for, whether they are written as integers or as floats.", "quantifier": "every stored distribution and query with numerically equal parameters", "why_tests_cant": "two spellings of one number are a corner no enumeration of stored data reaches", "anchors": ["src/pysatl_criterion/persistence/sqlalchemy/datastorage.py:get_data", "src/pysatl_criterion/persistence/sqlalchemy/models/limit_distribution_orm.py"]}
{"id": "C72", "title": "Critical value lookups respect the hypothesis", "statement": "The distribution returned for a critical value query was simulated under the hypothesis parameters of the statistic being tested.", "quantifier": "every table holding distributions of one criterion for several hypotheses", "why_tests_cant": "depends on which rows coexist in the table", "anchors": ["src/pysatl_criterion/persistence/sqlalchemy/datastorage.py:get_data_for_cv"]}
{"id": "C73", "title": "Sample size tolerance is honoured", "statement": "A critical value query with tolerance e finds a stored distribution whose sample size differs by at most e from the requested one.", "quantifier": "every table, size and tolerance", "why_tests_cant": "every size in a window", "anchors": ["src/pysatl_criterion/persistence/sqlalchemy/datastorage.py:get_data_for_cv", "src/pysatl_criterion/persistence/models/limit_distribution.py:CriticalValueQuery"]}
{"id": "C74", "title": "Unknown element types are refused", "statement": "A stored blob whose element type code is neither float32 nor float64 is refused.", "quantifier": "every blob", "why_tests_cant": "256 codes and any payload", "anchors": ["src/pysatl_criterion/persistence/sqlalchemy/alchemy_decorator.py:process_result_value"]}
{"id": "C75", "title": "Descriptor parameter names reach the generator", "statement": "Passing values under the parameter names of the distribution descriptor to get_available_generator yields a generator whose parameters() are these values.", "quantifier": "every distribution, value assignment and class iteration order", "why_tests_cant": "constructors swallow unknown keywords silently, so nothing fails", "anchors": ["src/pysatl_criterion/utils/generator.py:get_available_generator", "src/pysatl_criterion/distribution/distributions.py", "src/pysatl_criterion/generator/generators.py"]}
{"id": "C76", "title": "Generator defaults are the documented defaults", "statement": "A generator built without parameters has the default parameter values of the distribution descriptor.", "quantifier": "every distribution with generator defaults", "why_tests_cant": "two tables maintained by hand", "anchors": ["src/pysatl_criterion/generator/generators.py", "src/pysatl_criterion/distribution/distributions.py"]}
{"id": "C77", "title": "The list of available criteria is complete and without repetition", "statement": "get_available_criteria returns the short code of every concrete statistic of the distribution exactly once.", "quantifier": "every distribution, import state and class iteration order", "why_tests_cant": "tests import the statistics package themselves", "anchors": ["src/pysatl_criterion/utils/statistic.py:get_available_criteria"]}
{"id": "C78", "title": "Samples follow the documented law", "statement": "The value produced by generate_* from a uniform random number has the distribution function of the documented family with the parameters in their documented roles (rate, scale, variance, bounds).", "quantifier": "every parameter vector in range and every point", "why_tests_cant": "a law is a statement about all thresholds; tests look at sample sizes", "anchors": ["src/pysatl_criterion/core/distributions", "src/pysatl_criterion/distribution/distributions.py"]}
{"id": "C79", "title": "Validators enforce the documented ranges", "statement": "For every descriptor parameter whose description states a range, the validator accepts exactly that range.", "quantifier": "every parameter and real value", "why_tests_cant": "all reals", "anchors": ["src/pysatl_criterion/distribution/distributions.py"]}
{"id": "C80", "title": "Min-Toshiyuki statistic is finite exactly inside the support and bounded by the Kolmogorov distance", "statement": "The statistic is finite iff all cdf values lie strictly between 0 and 1; it is then at least 1/sqrt(n) and at most sqrt(n) times the two-sided Kolmogorov distance times the largest weight; it does not depend on the order of the sample.", "quantifier": "every sample and distribution function", "why_tests_cant": "a bound over all samples", "anchors": ["src/pysatl_criterion/statistics/goodness_of_fit/common.py:MinToshiyukiStatistic"]}
{"id": "C81", "title": "Exponentiality statistics stay in their theoretical ranges", "statement": "On every sample of at least three different positive values the statistics are finite and lie in the range of the published statistic (Gini, Hollander-Proshan, Kimber-Michael in [0,1]; Deshpande in [1/2,1]; Pietra below 1-1/n; Shapiro-Wilk in [1/(n-1)^2,1]; Lorenz curve below the diagonal; Moran, Cox-Oakes, Epstein, We, Wong-Wong, Kochar, Epps-Pulley bounds).", "quantifier": "every positive sample and every admissible keyword argument", "why_tests_cant": "inequalities over all samples", "anchors": ["src/pysatl_criterion/statistics/goodness_of_fit/exponent.py"]}
{"id": "C82", "title": "Exponentiality statistics equal their textbook form", "statement": "The Gini statistic computed from sorted gaps is half the relative mean difference; normalised spacings add up to the sample total; the Deshpande statistic is the fraction of ordered pairs with x_i > b x_k.", "quantifier": "every sample", "why_tests_cant": "algebraic identity over all samples", "anchors": ["src/pysatl_criterion/statistics/goodness_of_fit/exponent.py:GiniExponentialityGofStatistic", "src/pysatl_criterion/statistics/goodness_of_fit/exponent.py:DeshpandeExponentialityGofStatistic"]}
{"id": "C83", "title": "Normality statistics treat both tails alike", "statement": "Mirroring the sample (x to -x) does not change a normality statistic, except for directed statistics: the skewness statistic changes its sign, the one-sided Kolmogorov-Smirnov statistics and the Zhang Q and Q* statistics change places.", "quantifier": "every statistic of normal.py, every sample", "why_tests_cant": "a symmetry over all samples", "anchors": ["src/pysatl_criterion/statistics/goodness_of_fit/normal.py"]}
{"id": "C84", "title": "Normality statistics stay in their natural ranges", "statement": "Quadratic-form and distance statistics are never negative; Gel-Miao-Gastwirth is at least sqrt(2/pi); Bonett-Seier, Chen-Shapiro and D'Agostino's D stay inside bounds that depend on the sample size only; sample kurtosis is at least one plus squared skewness; the sample median minimises the mean absolute deviation.", "quantifier": "every sample on which the statistic is a finite number", "why_tests_cant": "inequalities over all samples", "anchors": ["src/pysatl_criterion/statistics/goodness_of_fit/normal.py"]}
{"id": "C85", "title": "Critical values of the Kullback-Leibler tests of lognormality", "statement": "calculate_critical_value accepts exactly the levels between 0.001 and 0.1, and at every accepted level the critical value of the (non-negative) statistic is positive, so that not every sample is rejected.", "quantifier": "every sample size and level", "why_tests_cant": "approximation formulae in two continuous variables", "anchors": ["src/pysatl_criterion/statistics/goodness_of_fit/log_normal.py:KLSupremumLogNormalGoFStatistic.calculate_critical_value"]}
{"id": "C86", "title": "hypothesis() identifies the tested hypothesis", "statement": "Two statistic objects of the same class with equal hypothesis() (and equal settings that are not parameters of the distribution, such as the number of bins) return equal values on every sample, i.e. hypothesis() reports every parameter the statistic depends on.", "quantifier": "every admissible parameter combination and sample", "why_tests_cant": "all parameter pairs", "anchors": ["src/pysatl_criterion/statistics/goodness_of_fit/student.py:AbstractStudentGofStatistic.hypothesis", "src/pysatl_criterion/statistics/goodness_of_fit/gamma.py", "src/pysatl_criterion/statistics/goodness_of_fit/beta.py"]}
{"id": "C87", "title": "Mirror symmetry of symmetric hypotheses", "statement": "Testing the mirrored sample against the mirrored hypothesis gives the same value: x -> -x for Student's t (one-sided alternatives exchanged), x -> 1-x with alpha and beta exchanged for the beta distribution, x -> a+b-x for the uniform distribution on [a,b].", "quantifier": "every sample and admissible parameters", "why_tests_cant": "identity over all samples and parameters", "anchors": ["src/pysatl_criterion/statistics/goodness_of_fit/student.py", "src/pysatl_criterion/statistics/goodness_of_fit/beta.py", "src/pysatl_criterion/statistics/goodness_of_fit/uniform.py"]}
{"id": "C88", "title": "Zhang, moment, ratio, entropy and mode statistics are distances", "statement": "The Zhang statistics of Student's t and the moment-based, skewness-kurtosis, ratio, entropy and mode statistics of the beta distribution are never negative and vanish only when the compared sample and hypothesis characteristics agree.", "quantifier": "every sample on which the statistic is a finite number", "why_tests_cant": "inequalities over all samples", "anchors": ["src/pysatl_criterion/statistics/goodness_of_fit/student.py", "src/pysatl_criterion/statistics/goodness_of_fit/beta.py"]}
{"id": "C89", "title": "Tests of the Weibull family do not depend on scale and shape", "statement": "The statistics for the composite Weibull hypothesis (ST1, ST2, RSB, TikuSingh, LOS, MSF, REJG, Sb, SB, OK) do not change when every observation x is replaced by c*x^b with c, b > 0.", "quantifier": "every positive sample, every c, b > 0", "why_tests_cant": "identity over all samples and transformations; the failure is a drift in the fifth digit", "anchors": ["src/pysatl_criterion/statistics/goodness_of_fit/weibull.py:SBWeibullGofStatistic", "src/pysatl_criterion/statistics/goodness_of_fit/weibull.py:OKWeibullGofStatistic", "src/pysatl_criterion/statistics/goodness_of_fit/weibull.py:ST1WeibullGofStatistic"]}
{"id": "C90", "title": "MLEst returns maximum likelihood estimates", "statement": "The shape and scale returned by MLEst maximise the Weibull likelihood of the sample.", "quantifier": "every positive sample, an exact bounded minimiser", "why_tests_cant": "needs the score equation; the numbers look plausible", "anchors": ["src/pysatl_criterion/statistics/goodness_of_fit/weibull.py:WPPWeibullGofStatistic.MLEst"]}
{"id": "C91", "title": "Stabilised probability plot pairs order statistics with their plotting positions", "statement": "The SPP statistic is the largest distance between the arcsine scores of the i-th plotting position and of the fitted distribution function at the i-th smallest observation.", "quantifier": "every positive sample", "why_tests_cant": "the value is a plausible distance in every case", "anchors": ["src/pysatl_criterion/statistics/goodness_of_fit/weibull.py:SPPWeibullGofStatistic"]}
{"id": "C92", "title": "Weibull discrepancy statistics are not negative", "statement": "Chi-square, Sb, SB, ST1, ST2, SPP, Mahdi-Doostparast, Liao-Shimokawa, Kullback-Leibler, Laplace transform and Cabana-Quiroz values are never negative.", "quantifier": "every positive sample with two different values", "why_tests_cant": "inequalities over all samples", "anchors": ["src/pysatl_criterion/statistics/goodness_of_fit/weibull.py:KullbackLeiblerWeibullGofStatistic", "src/pysatl_criterion/statistics/goodness_of_fit/weibull.py:MahdiDoostparastWeibullGofStatistic", "src/pysatl_criterion/statistics/goodness_of_fit/weibull.py:CabanaQuirozWeibullGofStatistic"]}
{"id": "C93", "title": "Chi-square type statistics vanish exactly for expected cell shares", "statement": "A chi-square, likelihood-ratio or Cressie-Read statistic is zero exactly when every cell holds its expected share of the observations.", "quantifier": "every sample, every number of cells, every power parameter", "why_tests_cant": "equivalence over all samples; strict convexity", "anchors": ["src/pysatl_criterion/statistics/goodness_of_fit/uniform.py:Chi2PearsonUniformGofStatistic", "src/pysatl_criterion/statistics/goodness_of_fit/gamma.py:AbstractBinnedGammaGofStatistic", "src/pysatl_criterion/statistics/goodness_of_fit/student.py:ChiSquareStudentGofStatistic", "src/pysatl_criterion/statistics/goodness_of_fit/beta.py:Chi2PearsonBetaGofStatistic", "src/pysatl_criterion/statistics/goodness_of_fit/weibull.py:Chi2PearsonWeibullGofStatistic"]}
{"id": "C94", "title": "Neyman's smooth statistic compares the first k moments", "statement": "The value is the sum of squared scores of the first k orthonormal polynomials of the uniform distribution; it is never negative and zero exactly when the first k moments of the standardised sample are 1/(j+1).", "quantifier": "every k and every sample in the interval", "why_tests_cant": "orthonormality of all polynomials and an equivalence over all samples", "anchors": ["src/pysatl_criterion/statistics/goodness_of_fit/uniform.py:NeymanSmoothTestUniformGofStatistic"]}
{"id": "C95", "title": "Stein statistics for uniformity", "statement": "The kernel has mean zero under the uniform distribution, so that the statistic measures the distance from uniformity; with nothing censored the censored statistic equals the uncensored one; its weights come from the product-limit estimator; the order of the observations is irrelevant.", "quantifier": "every sample in the interval and every censoring pattern", "why_tests_cant": "integral identity and all samples", "anchors": ["src/pysatl_criterion/statistics/goodness_of_fit/uniform.py:SteinUniformGofStatistic", "src/pysatl_criterion/statistics/goodness_of_fit/uniform.py:CensoredSteinUniformGofStatistic"]}
{"id": "C96", "title": "Zhang and Bickel-Rosenblatt statistics are smallest for the best fit", "statement": "Zhang's statistics A, C and K are smallest exactly at the evenly spaced sample; the Bickel-Rosenblatt statistic is never negative and zero exactly when the density estimate is 1 on its grid.", "quantifier": "every sample inside the interval", "why_tests_cant": "global minimum over all samples", "anchors": ["src/pysatl_criterion/statistics/goodness_of_fit/uniform.py:ZhangTestsUniformGofStatistic", "src/pysatl_criterion/statistics/goodness_of_fit/uniform.py:BickelRosenblattUniformGofStatistic"]}
{"id": "C97", "title": "Weibull statistics compare the documented characteristics", "statement": "ST1 and ST2 are the scaled squared deviations of the skewness and kurtosis of -ln x from those of the Gumbel distribution; the Laplace transform sum vanishes exactly when the empirical transform is the gamma function on its grid; Kullback-Leibler depends on the scale through the mean and the mean logarithm only; the plotting positions are i/(n+1) or symmetric about 1/2; the cells of a constant sample are symmetric about it.", "quantifier": "every positive sample", "why_tests_cant": "equalities and equivalences over all samples", "anchors": ["src/pysatl_criterion/statistics/goodness_of_fit/weibull.py:ST1WeibullGofStatistic", "src/pysatl_criterion/statistics/goodness_of_fit/weibull.py:ST2WeibullGofStatistic", "src/pysatl_criterion/statistics/goodness_of_fit/weibull.py:LaplaceTransformWeibullGofStatistic", "src/pysatl_criterion/statistics/goodness_of_fit/weibull.py:KullbackLeiblerWeibullGofStatistic", "src/pysatl_criterion/statistics/goodness_of_fit/weibull.py:REJGWeibullGofStatistic"]}
{"id": "C98", "title": "The Brys-Hubert-Struyf statistic returns", "statement": "execute_statistic of the Brys-Hubert-Struyf normality statistic ends for every sample, with a number for more than three observations.", "quantifier": "every finite sample of reals", "why_tests_cant": "termination of an unbounded while loop over all samples; a test that runs into the loop hangs instead of failing", "anchors": ["src/pysatl_criterion/statistics/goodness_of_fit/normal.py:BHSNormalityGofStatistic.stat16", "src/pysatl_criterion/statistics/goodness_of_fit/normal.py:BHSNormalityGofStatistic.mc_c_d", "src/pysatl_criterion/statistics/goodness_of_fit/normal.py:BHSNormalityGofStatistic.whi_med_i"]}
{"id": "C99", "title": "The medcouples of the Brys-Hubert-Struyf statistic are measures of skewness", "statement": "The three medcouples are computed independently of one another, lie between -1 and 1 and tell samples of different skewness apart.", "quantifier": "every finite sample of reals", "why_tests_cant": "the range holds over all samples and all numbers of iterations; the dependence goes through a list shared by three calls", "anchors": ["src/pysatl_criterion/statistics/goodness_of_fit/normal.py:BHSNormalityGofStatistic.stat16", "src/pysatl_criterion/statistics/goodness_of_fit/normal.py:BHSNormalityGofStatistic.mc_c_d", "src/pysatl_criterion/statistics/goodness_of_fit/normal.py:BHSNormalityGofStatistic.h_kern"]}
{"id": "C100", "title": "Normality statistics equal their published definitions", "statement": "The values returned by the Hosking, Zhang Q, Chen-Shapiro, Coin, D'Agostino, Jarque-Bera, robust Jarque-Bera, Gel-Miao-Gastwirth, Bonett-Seier, Bontemps-Meddahi, Cabana-Cabana, Shapiro-Wilk and Epps-Pulley statistics equal the published definitions: L-moments as averages over subsamples, slopes of the probability plot, least-squares cubic coefficient, mean distance of two observations, sample moments, Hermite polynomials, Royston's weights, double sum over pairs.", "quantifier": "every finite sample of reals on which the statistic returns a number", "why_tests_cant": "an algebraic identity over samples of every size; the code uses rewritten formulas (rank weights, recursions, tabulated coefficients) whose errors show only for some sizes or shapes", "anchors": ["src/pysatl_criterion/statistics/goodness_of_fit/normal.py:Hosking1NormalityGofStatistic", "src/pysatl_criterion/statistics/goodness_of_fit/normal.py:ZhangQNormalityGofStatistic", "src/pysatl_criterion/statistics/goodness_of_fit/normal.py:CoinNormalityGofStatistic", "src/pysatl_criterion/statistics/goodness_of_fit/normal.py:CabanaCabana2NormalityGofStatistic", "src/pysatl_criterion/statistics/goodness_of_fit/normal.py:ShapiroWilkNormalityGofStatistic", "src/pysatl_criterion/statistics/goodness_of_fit/normal.py:EppsPulleyNormalityGofStatistic"]}
{"id": "C101", "title": "Normality distances are smallest exactly at the best fit", "statement": "The Zhang-Wu, Glen-Leemis-Barr, Desgagne-Lafaye de Micheaux, Jarque-Bera, Hosking, Bontemps-Meddahi and Epps-Pulley statistics have a lower bound depending only on the sample size, and attain it exactly when the fitted probabilities, moments or L-moments equal the expected ones.", "quantifier": "every finite sample of reals on which the statistic returns a number", "why_tests_cant": "a minimum over all samples with a characterisation of equality", "anchors": ["src/pysatl_criterion/statistics/goodness_of_fit/normal.py:ZhangWuCNormalityGofStatistic", "src/pysatl_criterion/statistics/goodness_of_fit/normal.py:ZhangWuANormalityGofStatistic", "src/pysatl_criterion/statistics/goodness_of_fit/normal.py:GlenLeemisBarrNormalityGofStatistic", "src/pysatl_criterion/statistics/goodness_of_fit/normal.py:DesgagneLafayeNormalityGofStatistic", "src/pysatl_criterion/statistics/goodness_of_fit/normal.py:JBNormalityGofStatistic", "src/pysatl_criterion/statistics/goodness_of_fit/normal.py:EppsPulleyNormalityGofStatistic"]}
{"id": "C102", "title": "Skewness and kurtosis tests increase with the sample skewness and kurtosis", "statement": "For two samples of the same size, the one with the larger sample skewness has the larger skewness statistic, and the one with the larger sample kurtosis the larger kurtosis statistic.", "quantifier": "every two samples of the same size on which the statistics return numbers", "why_tests_cant": "monotonicity over pairs of samples; the transformations have special cases at a single value and a change of sign inside a cube root", "anchors": ["src/pysatl_criterion/statistics/goodness_of_fit/normal.py:SkewNormalityGofStatistic", "src/pysatl_criterion/statistics/goodness_of_fit/normal.py:KurtosisNormalityGofStatistic"]}
{"id": "C103", "title": "Exponentiality statistics equal their published definitions", "statement": "The value of every exponentiality class equals the published definition: shares of pairs and triples (Ahsanullah, Deshpande, Hollander-Proshan, Rossberg), functionals of the Lorenz curve (Lorenz, Gini, Pietra), ratios of mean normalised spacings (Gnedenko, Harris), likelihood ratio of the spacings (Epstein), score functions at shape 1 (Cox-Oakes, Moran), distances from the fitted law (Frozini, Kimber-Michael, Hegazy-Green), Laplace transform (Epps-Pulley), power mean (Atkinson), distance of mean and minimum (Shapiro-Wilk), ratio of extremes (Wong-Wong), centred scores (Kochar), squared deviations over the squared total (WE).", "quantifier": "every positive sample on which the class returns a number, every keyword argument", "why_tests_cant": "identities between a loop and a combinatorial, extremal or differential definition over all samples", "anchors": ["src/pysatl_criterion/statistics/goodness_of_fit/exponent.py"]}
{"id": "C104", "title": "Extreme values of exponentiality statistics characterise the sample", "statement": "Gini, Pietra and WE vanish, Wong-Wong, Moran and Epps-Pulley reach their bound exactly on samples of equal values; Epstein vanishes exactly for equal normalised spacings, Frozini exactly when the fitted law passes through the plotting positions, Atkinson exactly when the power mean is that of the exponential law; Shapiro-Wilk is 1 exactly when all values but one smaller one are equal.", "quantifier": "every positive sample on which the class returns a number", "why_tests_cant": "equality cases of inequalities over all samples", "anchors": ["src/pysatl_criterion/statistics/goodness_of_fit/exponent.py"]}
{"id": "C105", "title": "The remaining normality statistics equal their published definitions", "statement": "Filliben, Looney-Gulledge, Ryan-Joiner, Shapiro-Francia and Rahman-Govindarajulu return the (squared) correlation of the order statistics with the published scores, D'Agostino-Pearson and Doornik-Hansen the sum of squares of the published transformations of skewness and kurtosis, Spiegelhalter the power mean of range and mean deviation, Martinez-Iglewicz the ratio of the variance to the biweight midvariance, which grows without bound when one observation moves away.", "quantifier": "every sample on which the class returns a number", "why_tests_cant": "equality of two formulas for samples of every size; behaviour of outliers at any distance", "anchors": ["src/pysatl_criterion/statistics/goodness_of_fit/normal.py"]}
{"id": "C106", "title": "The Weibull statistics equal their published definitions", "statement": "Tiku-Singh, Mann-Scheuer-Fertig and Lockhart-O'Reilly-Stephens are the published functions of normalised spacings with David-Johnson scores; Sb and OK compare D'Agostino's and Downton's scale estimates with the dispersion of the logarithms; REJG and RSB are functions of the correlation with extreme-value plotting positions; the chi-square class is Pearson's statistic; the Kullback-Leibler class uses Vasicek's entropy estimate; Cabana-Quiroz is the quadratic form with the inverse covariance matrix.", "quantifier": "every sample on which the class returns a number", "why_tests_cant": "equality of two formulas for samples of every size and all parameters", "anchors": ["src/pysatl_criterion/statistics/goodness_of_fit/weibull.py"]}
{"id": "C107", "title": "The Mahdi-Doostparast and Cabana-Quiroz statistics are small for samples of the hypothesised law", "statement": "A sample placed at the quantiles of the hypothesised Weibull law gets a smaller value than a sample of equal observations, and no fixed critical value is exceeded by every large positive sample.", "quantifier": "every sample size from ten on, all parameters; every critical value", "why_tests_cant": "asymptotic and for all sample sizes", "anchors": ["src/pysatl_criterion/statistics/goodness_of_fit/weibull.py:1081-1095", "src/pysatl_criterion/statistics/goodness_of_fit/weibull.py:1436-1456"]}
{"id": "C108", "title": "Statistics of transformed samples equal their published definitions", "statement": "Whenever a class of the table in EdfFormSpec.v returns a number it is the published functional of the sample transformed by the hypothesised distribution function: the Cramer-von Mises, Anderson-Darling and Watson integrals over the unit interval, Kuiper's sum of one-sided suprema, the spacing statistics of Greenwood, Moran, Sherman and Quesenberry-Miller, Min-Toshiyuki, Zhang's Z_A, the Cressie-Read divergence of cell counts and the probability plot correlation.", "quantifier": "all parameters and all nonempty samples, for the gamma, beta, Student, uniform, Weibull, log-normal and normal classes", "why_tests_cant": "an identity with an integral or a supremum over all reals for every sample; tests compare a few stored values", "anchors": ["src/pysatl_criterion/statistics/goodness_of_fit/common.py:27-196", "src/pysatl_criterion/statistics/goodness_of_fit/gamma.py:110-794", "src/pysatl_criterion/statistics/goodness_of_fit/beta.py:140-434", "src/pysatl_criterion/statistics/goodness_of_fit/student.py:100-528", "src/pysatl_criterion/statistics/goodness_of_fit/uniform.py:100-467", "src/pysatl_criterion/statistics/goodness_of_fit/uniform.py:898-972", "src/pysatl_criterion/statistics/goodness_of_fit/normal.py:130-137", "src/pysatl_criterion/statistics/goodness_of_fit/log_normal.py:141-208"]}
{"id": "C109", "title": "The Watson statistic of the uniform class is Watson's statistic", "statement": "The value of the uniform Watson class is n times the integral of the squared centred distance between the empirical distribution function of the standardised sample and the diagonal, as in the Watson classes of the other families.", "quantifier": "all intervals and all nonempty samples", "why_tests_cant": "an identity with an integral for every sample", "anchors": ["src/pysatl_criterion/statistics/goodness_of_fit/uniform.py:339-357"]}
{"id": "C110", "title": "Concurrent calls to the storage act in some serial order", "statement": "When several processes insert, bulk-insert or delete in one SQLite file at the same time, in any interleaving of their statements and with crashes at any point, the committed table is the one obtained by applying the effects of the calls that report success one after another, in an order that respects real time; calls that fail or die leave no trace and no lock, concurrent single inserts are serializable, and a bulk insert is applied as one unit.", "quantifier": "all reachable tables, all families of calls, all schedules of statements and crashes", "why_tests_cant": "the number of interleavings grows exponentially and a test run sees the few that the scheduler happens to produce", "anchors": ["src/pysatl_criterion/persistence/sqlalchemy/datastorage.py:60-72", "src/pysatl_criterion/persistence/sqlalchemy/datastorage.py:125-154"]}
{"id": "C111", "title": "Multiple-testing corrections keep their meaning in double precision", "statement": "Carried out in IEEE-754 double precision, every correction keeps its values in [0,1] and keeps the order of the hypotheses; Bonferroni, Holm and Benjamini-Yekutieli never lower a p-value and stay within a few units in the last place of the exact values; rounding never turns a non-rejection of Bonferroni or Holm into a rejection, so the family-wise error rate of the running program is at most that of the exact procedure; and the decisions are those of the exact procedure.", "quantifier": "all lists of fewer than 2^53 double-precision p-values (Benjamini-Yekutieli error bound: at most 10000, none subnormal), all thresholds", "why_tests_cant": "a test compares a few lists up to a tolerance, which hides rounding, while a decision can hinge on the last bit", "anchors": ["src/pysatl_criterion/hypothesis_testing/multiple_testing/fwer.py:20-23", "src/pysatl_criterion/hypothesis_testing/multiple_testing/fwer.py:53-56", "src/pysatl_criterion/hypothesis_testing/multiple_testing/fwer.py:90-124", "src/pysatl_criterion/hypothesis_testing/multiple_testing/fdr.py:27-52", "src/pysatl_criterion/hypothesis_testing/multiple_testing/abstract_multiple_testing.py:28-31"]}
{"id": "C112", "title": "Kullback-Leibler tests of lognormality standardise the divergence asymmetry correctly", "statement": "For the sample scaled to unit standard deviation of the logarithms, D(r) is the Kullback-Leibler divergence of the sample from its tilt by the power r minus the divergence in the other direction; the square of its divisor sigma(r) is the variance of the influence of one observation on that difference under the standard lognormal law, where the difference is 0 and the mean influence is 0; the supremum statistic is sqrt(n) times the largest |D/sigma| over 1000 equally spaced powers in [-5,5] and the integral statistic is n times the integral of (D/sigma)^2 over [-5,5]; for small powers D and the integrand are continued by their limits.", "quantifier": "all positive samples that are not constant, all powers", "why_tests_cant": "a test compares the statistics of a few samples with recorded numbers; it cannot tell whether the divisor is the asymptotic standard deviation or whether the special cases near 0 are limits", "anchors": ["src/pysatl_criterion/statistics/goodness_of_fit/log_normal.py:243-305", "src/pysatl_criterion/statistics/goodness_of_fit/log_normal.py:371-437"]}
{"id": "C113", "title": "Beta statistics compare samples with characteristics of the beta law", "statement": "The mean, variance, skewness, excess kurtosis, geometric mean, entropy and mode that the moment-based, skewness-kurtosis, ratio, entropy and mode statistics compare a sample with are those of the beta law with density proportional to x^(a-1)(1-x)^(b-1); the sample side of the mode statistic is the best of 200 grid points under a Gaussian kernel estimate with Scott's bandwidth, and that of the entropy statistic is Vasicek's estimate.", "quantifier": "all parameters, all samples on which the statistics are finite", "why_tests_cant": "a test compares closed formulas with other closed formulas at a few parameters; here they are compared with integrals of the density at all parameters", "anchors": ["src/pysatl_criterion/statistics/goodness_of_fit/beta.py:478-498", "src/pysatl_criterion/statistics/goodness_of_fit/beta.py:542-574", "src/pysatl_criterion/statistics/goodness_of_fit/beta.py:619-645", "src/pysatl_criterion/statistics/goodness_of_fit/beta.py:689-721", "src/pysatl_criterion/statistics/goodness_of_fit/beta.py:774-790"]}
{"id": "C114", "title": "The Brys-Hubert-Struyf statistic is a Mahalanobis distance of medcouples", "statement": "A returned value is the number of observations times the squared Mahalanobis distance of the medcouples of the sample and its two halves from their values for the normal law (0 and, away from the centre, 0.198828), under the published covariance matrix: the twelve literals of the program agree with the inverse of that matrix. The value is not negative, vanishes for no other medcouples, and does not depend on which tail is which.", "quantifier": "all triples of medcouples, all numbers of observations, all samples for which the statistic returns a number", "why_tests_cant": "a wrong digit in the inverse matrix changes the values by an amount a test against recorded values of the same program cannot show, and positive definiteness concerns all triples", "anchors": ["src/pysatl_criterion/statistics/goodness_of_fit/normal.py:1986-2018"]}
{"id": "C115", "title": "Monte-Carlo decisions keep their meaning in double precision", "statement": "Computed p-values lie in [0,1], are monotone in the statistic, vanish exactly when the exact ones do and are at most 2^-52 off; critical values lie between neighbouring simulated values. A test at a level given as a fraction decides as with exact numbers; in particular a p-value equal to the level rejects, in either tail.", "quantifier": "all simulations of fewer than 2^53 values, all statistics, all levels a/b with n*b at most 2^50", "why_tests_cant": "rounding errors show only at particular counts and levels", "anchors": ["src/pysatl_criterion/hypothesis_testing/p_value/calculator/p_value_calculator.py:25-73", "src/pysatl_criterion/hypothesis_testing/critical_values/calculator/critical_value_calculator.py:28-77", "src/pysatl_criterion/hypothesis_testing/goodness_of_fit_test/goodness_of_fit_test.py:46-112"]}
{"id": "C116", "title": "Helpers of core/distributions agree with each other", "statement": "The moment functions return the moments they name: raw moments without a centre, moments about the centre if one is given, central moments relative to the sample mean; the normal density is the derivative of the normal distribution function with the same parameters; the log-functions of the exponentiated Weibull law are the logarithms of its distribution function and of the complement.", "quantifier": "all non-empty samples, all orders, all centres, all parameters in the documented ranges", "why_tests_cant": "the meaning of a default argument of a library is only visible on samples with non-zero mean, and the relation between density and distribution function concerns all points", "anchors": ["src/pysatl_criterion/core/distributions/sample.py:5-48", "src/pysatl_criterion/core/distributions/norm.py:47-115", "src/pysatl_criterion/core/distributions/weibull.py:40-120"]}
{"id": "C117", "title": "Monte-Carlo tests keep their level", "statement": "If the observed statistic and the n simulated ones are exchangeable, a test at level a rejects with probability at most a; the probability differs from a by O(1/n).", "quantifier": "all exchangeable laws of n+1 statistics, all n >= 1, all levels in [0,1], all alternatives, both decision methods", "why_tests_cant": "the size is a probability over all data sets and all simulations; estimating it takes many runs and shows nothing about other laws", "anchors": ["src/pysatl_criterion/hypothesis_testing/critical_values/calculator/critical_value_calculator.py:28-77", "src/pysatl_criterion/hypothesis_testing/p_value/calculator/p_value_calculator.py:25-73", "src/pysatl_criterion/hypothesis_testing/goodness_of_fit_test/goodness_of_fit_test.py:46-147"]}
{"id": "C118", "title": "Monte-Carlo decisions converge to those of the exact test", "statement": "With n pairwise independent simulated values the computed p-value is within eps of the exact one except with a probability of order 1/(n eps^2), and the test decides as the exact test would, for both decision methods.", "quantifier": "all laws of the simulated values, all alternatives, all observed values, all levels at a distance eps from the exact p-value, all n", "why_tests_cant": "convergence concerns all numbers of simulations and all laws; a test sees single runs", "anchors": ["src/pysatl_criterion/hypothesis_testing/critical_values/calculator/critical_value_calculator.py:28-77", "src/pysatl_criterion/hypothesis_testing/p_value/calculator/p_value_calculator.py:25-73", "src/pysatl_criterion/hypothesis_testing/goodness_of_fit_test/goodness_of_fit_test.py:46-147"]}
{"id": "C119", "title": "The Kolmogorov-Smirnov test is consistent", "statement": "For samples of the hypothesised law the statistic tends to 0 in probability; for samples of a law that differs by gap somewhere it stays above gap - eps; so a test with simulated statistics rejects every other law with a probability tending to 1.", "quantifier": "all continuous hypothesised laws, all sampled laws, all levels, both decision methods, any fixed number of simulations", "why_tests_cant": "power against all alternatives as the sample size grows is a limit statement about probabilities", "anchors": ["src/pysatl_criterion/statistics/goodness_of_fit/common.py:16-87", "src/pysatl_criterion/hypothesis_testing/critical_values/calculator/critical_value_calculator.py:28-77", "src/pysatl_criterion/hypothesis_testing/p_value/calculator/p_value_calculator.py:25-73", "src/pysatl_criterion/hypothesis_testing/goodness_of_fit_test/goodness_of_fit_test.py:46-147"]}
{"id": "C120", "title": "Corrections of Monte-Carlo p-values control the family-wise error", "statement": "If m tests compute their p-values from n simulated statistics each, the Bonferroni correction of these p-values keeps the family-wise error within 2m/(n+1) of the threshold; Holm.test and the Benjamini-Yekutieli correction exceed their bounds by at most 2/(n+1) for every true hypothesis, and so do both Sidak corrections for independent tests.", "quantifier": "all joint laws of the tests, all numbers of tests and simulations, all alternatives, all thresholds in [0,1]", "why_tests_cant": "the error rate is a probability over all joint laws of the statistics", "anchors": ["src/pysatl_criterion/hypothesis_testing/p_value/calculator/p_value_calculator.py:25-73", "src/pysatl_criterion/hypothesis_testing/multiple_testing/fwer.py:8-33"]}
{"id": "C121", "title": "The Cramer-von Mises and Kuiper tests are consistent", "statement": "The Cramer-von Mises statistic of n values lies between n D^2 (D - 1/n)/8 and n D^2 + 1/(12 n) and the Kuiper statistic between D and 2 D, where D is the Kolmogorov-Smirnov distance; so tests with simulated statistics reject every law other than the hypothesised one with a probability tending to 1.", "quantifier": "all continuous hypothesised laws, all samples and sampled laws, all levels, both decision methods, any fixed number of simulations", "why_tests_cant": "power against all alternatives as the sample size grows is a limit statement about probabilities", "anchors": ["src/pysatl_criterion/statistics/goodness_of_fit/common.py:129-145", "src/pysatl_criterion/statistics/goodness_of_fit/gamma.py:340-395", "src/pysatl_criterion/hypothesis_testing/goodness_of_fit_test/goodness_of_fit_test.py:46-147"]}
{"id": "C122", "title": "An iteration of the medcouple search counts its table correctly", "statement": "On a table of kernel values that falls in both directions (as that of a sorted sample does) the two staircase scans of an iteration count exactly the table entries above and not below the trial value, the bounds are narrowed accordingly, and a value the search stops at has fewer than knew entries above it and at least knew not below it, up to the tolerance of the code.", "quantifier": "all samples, table sizes, trial values and states of the search", "why_tests_cant": "needs all tables and all states of the search; the public method does not return for most samples (C98)", "anchors": ["src/pysatl_criterion/statistics/goodness_of_fit/normal.py:2134-2233"]}
{"id": "C123", "title": "Composite tests do not depend on the unknown parameters", "statement": "A test of normality (exponentiality; Weibull; log-normality) with simulated critical values decides in the same way whatever location and unit (unit; unit and exponent) the observed and the simulated samples have; so it keeps its level up to 4/(n+1) for every law of the family although only one law is simulated.", "quantifier": "every composite statistic of the four modules, all samples, parameters, levels, alternatives, both decision methods, all exchangeable laws of the samples", "why_tests_cant": "all parameters of the hypothesised family and all joint laws of the samples", "anchors": ["src/pysatl_criterion/statistics/goodness_of_fit/normal.py", "src/pysatl_criterion/statistics/goodness_of_fit/exponent.py", "src/pysatl_criterion/statistics/goodness_of_fit/weibull.py", "src/pysatl_criterion/statistics/goodness_of_fit/log_normal.py", "src/pysatl_criterion/hypothesis_testing/goodness_of_fit_test/goodness_of_fit_test.py:46-147"]}
{"id": "C124", "title": "The side of a Kolmogorov-Smirnov test is that of its statistic", "statement": "A Kolmogorov-Smirnov statistic built with a member of AlternativeType computes the deviation on that side and is tested on the same side; with any other value it computes the two-sided deviation, and every test with it ends in ValueError after all simulations have been run.", "quantifier": "every alternative_type, distribution function, sample, level, decision method and resolver", "why_tests_cant": "all arguments, samples and resolvers", "anchors": ["src/pysatl_criterion/statistics/alternative.py:46-76", "src/pysatl_criterion/statistics/goodness_of_fit/common.py:17-71", "src/pysatl_criterion/hypothesis_testing/goodness_of_fit_test/goodness_of_fit_test.py:46-147"]}
{"id": "C125", "title": "Consistency of the Watson test", "statement": "For every sample of n values n(V-1/n)^3/128 <= U^2 <= W^2, where V is Kuiper's, U^2 Watson's and W^2 the Cramer-von Mises statistic; hence the test with Watson's statistic and simulated critical values rejects, with probability tending to 1 as the sample grows, every law at a positive distance from the hypothesised one, uniformly in the law, the level and the decision method.", "quantifier": "every sample, continuous distribution function, law of the observations at distance gap, law of the generator within gap^2/64 of the hypothesised one, level, number of simulations, both decision methods", "why_tests_cant": "a limit statement over all sample sizes and all laws at a given distance", "anchors": ["src/pysatl_criterion/statistics/goodness_of_fit/beta.py:369-377", "src/pysatl_criterion/statistics/goodness_of_fit/student.py:298-308", "src/pysatl_criterion/statistics/goodness_of_fit/gamma.py:333-337", "src/pysatl_criterion/statistics/goodness_of_fit/uniform.py:352-357", "src/pysatl_criterion/hypothesis_testing/goodness_of_fit_test/goodness_of_fit_test.py:46-147"]}
{"id": "C126", "title": "Uniform tests on samples inside and outside the interval", "statement": "For values in [a, b] the Kolmogorov-Smirnov, Cramer-von Mises and Kuiper classes of the uniform module compute the statistics of the uniform distribution function, and their tests are consistent; a test on a sample with a value outside [a, b] ends in ValueError at every level, so its power against a law outside the interval is 0.", "quantifier": "every interval, sample, law of the observations, level, number of simulations, both decision methods", "why_tests_cant": "all samples and laws; a limit statement", "anchors": ["src/pysatl_criterion/statistics/goodness_of_fit/uniform.py:55-68", "src/pysatl_criterion/statistics/goodness_of_fit/uniform.py:104-115", "src/pysatl_criterion/statistics/goodness_of_fit/uniform.py:187-198", "src/pysatl_criterion/statistics/goodness_of_fit/uniform.py:352-357", "src/pysatl_criterion/statistics/goodness_of_fit/uniform.py:394-417", "src/pysatl_criterion/hypothesis_testing/goodness_of_fit_test/goodness_of_fit_test.py:46-147"]}
