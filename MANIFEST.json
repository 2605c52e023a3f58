{
 "claims": [
  {
   "property": "C01",
   "status": "proved",
   "theorems": [
    "C01_bonferroni_adjust"
   ],
   "note": "Exact real arithmetic; binary64 in C12."
  },
  {
   "property": "C02",
   "status": "proved",
   "theorems": [
    "C02_bonferroni_fwer",
    "C02_bonferroni_fwer_null_fraction"
   ],
   "note": "Any positive normalised linear functional as expectation (covers every probability space); sharper bound with the fraction of true nulls."
  },
  {
   "property": "C03",
   "status": "proved",
   "theorems": [
    "C03_sidak_adjust",
    "C03_sidak_fwer_independent"
   ],
   "note": ""
  },
  {
   "property": "C04",
   "status": "partial",
   "theorems": [
    "C04_holm_step_down_refuted",
    "C04_holm_is_hochberg_step_up",
    "C04_holm_never_above_step_down",
    "C04_holm_range"
   ],
   "note": "REFUTED: Holm.adjust takes running minima from the largest p-value down, which is Hochberg's step-up procedure; p=[0.01,0.011] gives [0.011,0.011] where Holm gives [0.02,...]. Proved instead: it equals Hochberg's adjusted values for every list, never exceeds Holm's."
  },
  {
   "property": "C05",
   "status": "partial",
   "theorems": [
    "C05_holm_fwer_refuted",
    "C05_holm_fwer_harmonic_bound"
   ],
   "note": "REFUTED: a joint law of two true nulls has family-wise error 0.12 at threshold 0.1. Proved instead: for every joint law the error is at most threshold times the harmonic number of the number of true nulls."
  },
  {
   "property": "C06",
   "status": "partial",
   "theorems": [
    "C06_sidak_holm_step_down_refuted",
    "C06_sidak_holm_is_single_step",
    "C06_sidak_holm_conservative",
    "C06_sidak_holm_fwer_independent"
   ],
   "note": "REFUTED: SidakHolm.adjust is the single-step Sidak correction (p=[0.1,0.5]). Proved instead: equal to Sidak on every list, never below the step-down value, error control under independence."
  },
  {
   "property": "C07",
   "status": "proved",
   "theorems": [
    "C07_by_adjust"
   ],
   "note": ""
  },
  {
   "property": "C08",
   "status": "proved",
   "theorems": [
    "C08_by_fdr"
   ],
   "note": ""
  },
  {
   "property": "C09",
   "status": "partial",
   "theorems": [
    "C09_by_harmonic_factor_refuted",
    "C09_by_harmonic_factor_up_to_10000",
    "C09_by_factor_close",
    "C09_by_fdr_large"
   ],
   "note": "REFUTED for m=10001: the factor ln m + 0.5772... is below the harmonic number, so the correction is too small. Proved: exact up to 10000; beyond that the shortfall is at most 1e-4 and the FDR bound degrades by at most 25 ppm."
  },
  {
   "property": "C10",
   "status": "proved",
   "theorems": [
    "C10_adjust_equivariant",
    "C10_adjust_order_preserving",
    "C10_adjust_total"
   ],
   "note": ""
  },
  {
   "property": "C11",
   "status": "proved",
   "theorems": [
    "C11_test_raises_iff_invalid",
    "C11_test_error_is_value_error",
    "C11_test_decision_rule",
    "C11_test_threshold_monotone"
   ],
   "note": ""
  },
  {
   "property": "C12",
   "status": "partial",
   "theorems": [
    "C12_bonferroni_float_never_below_raw",
    "C12_sidak_float_at_most_one",
    "C12_sidak_float_never_below_raw_refuted"
   ],
   "note": "Bonferroni half proved for all m; the Sidak half is REFUTED: p=2^-60 is adjusted to 0 for every m."
  },
  {
   "property": "C13",
   "status": "proved",
   "theorems": [
    "C13_p_values_are_tail_fractions",
    "C13_p_values_in_unit_interval",
    "C13_p_values_monotone"
   ],
   "note": ""
  },
  {
   "property": "C14",
   "status": "proved",
   "theorems": [
    "C14_order_irrelevant",
    "C14_decisions_ignore_order"
   ],
   "note": ""
  },
  {
   "property": "C15",
   "status": "partial",
   "theorems": [
    "C15_right_p_value_valid_refuted",
    "C15_ties_always_rejected",
    "C15_right_p_value_nearly_valid",
    "C15_left_p_value_nearly_valid"
   ],
   "note": "REFUTED: the p-value counts strictly greater values only, so an exchangeable pair is rejected with probability 1/2 at level 0.05, and tied values always. Proved: for distinct values the rejection probability is at most alpha + (1-alpha)/(n+1); left-tailed likewise even with ties."
  },
  {
   "property": "C16",
   "status": "partial",
   "theorems": [
    "C16_right_p_value_counts_ties_refuted",
    "C16_right_p_value_counts_strictly_greater",
    "C16_right_p_value_without_ties"
   ],
   "note": "REFUTED: ties with the observed statistic are not counted (limit [1], statistic 1 gives 0). Proved: it counts strictly greater values; the property holds when the statistic is not among the simulated values."
  },
  {
   "property": "C17",
   "status": "proved",
   "theorems": [
    "C17_one_sided_in_range",
    "C17_two_sided_in_range",
    "C17_monotone_in_level"
   ],
   "note": ""
  },
  {
   "property": "C18",
   "status": "proved",
   "theorems": [
    "C18_bad_level_or_empty_raises"
   ],
   "note": "The library's exception class for an empty array is taken from numpy's documentation."
  },
  {
   "property": "C19",
   "status": "partial",
   "theorems": [
    "C19_tail_fraction_refuted",
    "C19_not_the_quantile_of_the_list_refuted",
    "C19_quantile_of_distinct_values",
    "C19_tail_count_of_distinct_values"
   ],
   "note": "REFUTED with repeated simulated values (quantile of the distinct values is taken; 9 of 10 values lie beyond a 25% critical value). Proved for distinct values, exact tail count within one."
  },
  {
   "property": "C20",
   "status": "proved",
   "theorems": [
    "C20_critical_value_decision",
    "C20_critical_value_shape"
   ],
   "note": ""
  },
  {
   "property": "C21",
   "status": "proved",
   "theorems": [
    "C21_level_monotone"
   ],
   "note": ""
  },
  {
   "property": "C22",
   "status": "partial",
   "theorems": [
    "C22_methods_agree_refuted",
    "C22_methods_agree_other_direction_refuted",
    "C22_methods_agree_away_from_level"
   ],
   "note": "REFUTED in both directions. Proved: for distinct simulated values the two methods agree unless the p-value is within 2/n of the level."
  },
  {
   "property": "C23",
   "status": "proved",
   "theorems": [
    "C23_right_tailed_direction",
    "C23_left_tailed_direction",
    "C23_two_sided_acceptance_interval"
   ],
   "note": ""
  },
  {
   "property": "C24",
   "status": "proved",
   "theorems": [
    "C24_p_value_result",
    "C24_critical_value_result",
    "C24_missing_limit_distribution",
    "C24_exactly_one_field"
   ],
   "note": ""
  },
  {
   "property": "C25",
   "status": "proved",
   "theorems": [
    "C25_constructor_and_size_checks",
    "C25_monte_carlo_values",
    "C25_monte_carlo_total"
   ],
   "note": ""
  },
  {
   "property": "C26",
   "status": "partial",
   "theorems": [
    "C26_stored_distribution_not_found_refuted",
    "C26_found_iff_count_one"
   ],
   "note": "REFUTED: the resolver queries with Monte-Carlo count 1, so a distribution simulated with any other count is not found; C26_found_iff_count_one proves what holds."
  },
  {
   "property": "C27",
   "status": "partial",
   "theorems": [
    "C27_best_fits_are_rejected",
    "C27_better_fit_rejected_refuted"
   ],
   "note": "REFUTED: the default KS statistic is paired with a two-tailed decision, so very small distances are rejected. C27_better_fit_rejected_refuted exhibits a resolver, a level and two samples; C27_best_fits_are_rejected shows that every sample closer to the hypothesis than all simulated ones is rejected."
  },
  {
   "property": "C28",
   "status": "proved",
   "theorems": [
    "C28_reads_return_last_write",
    "C28_last_write_exists",
    "C28_last_write_unique"
   ],
   "note": "Histories of inserts, deletes and bulk inserts with arbitrary failures; rows scanned in any order; `last_write` is the independent specification. Values are read back through the results column (col), see C35/C36."
  },
  {
   "property": "C29",
   "status": "proved",
   "theorems": [
    "C29_unique_keys",
    "C29_insert_is_upsert",
    "C29_insert_failure_keeps_table",
    "C29_insert_idempotent",
    "C29_last_insert_wins",
    "C29_row_count"
   ],
   "note": ""
  },
  {
   "property": "C30",
   "status": "proved",
   "theorems": [
    "C30_delete_removes_the_row",
    "C30_otherwise_unchanged"
   ],
   "note": ""
  },
  {
   "property": "C31",
   "status": "partial",
   "theorems": [
    "C31_two_experiments_refuted",
    "C31_succeeds_iff_exactly_one",
    "C31_none_iff_no_row"
   ],
   "note": "REFUTED: two experiments with the same code, parameters, size and count make get_data raise MultipleResultsFound; C31_succeeds_iff_exactly_one and C31_none_iff_no_row give the exact behaviour."
  },
  {
   "property": "C32",
   "status": "proved",
   "theorems": [
    "C32_best_for_critical_values",
    "C32_none"
   ],
   "note": ""
  },
  {
   "property": "C33",
   "status": "proved",
   "theorems": [
    "C33_bulk_read"
   ],
   "note": ""
  },
  {
   "property": "C34",
   "status": "proved",
   "theorems": [
    "C34_bulk_insert_atomic"
   ],
   "note": ""
  },
  {
   "property": "C35",
   "status": "partial",
   "theorems": [
    "C35_values_change_refuted",
    "C35_identity_with_float64"
   ],
   "note": "REFUTED: the column stores float32, so 16777217.0 comes back as 16777216.0; the 64 bit mode is proved to be the identity."
  },
  {
   "property": "C36",
   "status": "proved",
   "theorems": [
    "C36_roundtrip_rounds",
    "C36_second_roundtrip_exact",
    "C36_representable_exact",
    "C36_too_long"
   ],
   "note": "zstd is an arbitrary lossless pair of functions; float formats from Flocq at the bit level."
  },
  {
   "property": "C37",
   "status": "proved",
   "theorems": [
    "C37_corrupt_blobs_refused",
    "C37_decoded_length"
   ],
   "note": ""
  },
  {
   "property": "C38",
   "status": "partial",
   "theorems": [
    "C38_load_does_not_cache_refuted",
    "C38_load_never_writes",
    "C38_load_reports_remote_presence"
   ],
   "note": "REFUTED: load checks the remote storage twice and never inserts; C38_load_never_writes proves it for all inputs."
  },
  {
   "property": "C39",
   "status": "partial",
   "theorems": [
    "C39_bulk_load_accounting",
    "C39_no_remote_refuted",
    "C39_duplicate_codes_refuted"
   ],
   "note": "Proved for requests without repeated codes and a connected remote storage; C39_no_remote_refuted and C39_duplicate_codes_refuted show where the accounting fails."
  },
  {
   "property": "C40",
   "status": "partial",
   "theorems": [
    "C40_failed_insert_counted_refuted",
    "C40_tolerance_row_not_served_refuted",
    "C40_cached_when_exact_and_inserted"
   ],
   "note": "REFUTED: a failed local insert is swallowed and still counted, and rows accepted by the size tolerance are not served by the exact-size lookup; C40_cached_when_exact_and_inserted proves the rest."
  },
  {
   "property": "C41",
   "status": "proved",
   "theorems": [
    "C41_cache_keeps_codes",
    "C41_no_remote_traffic_when_cached",
    "C41_remote_traffic"
   ],
   "note": ""
  },
  {
   "property": "C42",
   "status": "partial",
   "theorems": [
    "C42_graph_codes",
    "C42_codes_distinct_partial",
    "C42_names_distinct",
    "C42_sb_codes_refuted",
    "C42_code_determines_family"
   ],
   "note": "All 195 concrete classes (36 of them generated at import for the log-normal family) are pairwise compared. Only SbWeibullGofStatistic and SBWeibullGofStatistic share a code."
  },
  {
   "property": "C43",
   "status": "proved",
   "theorems": [
    "C43_validators_exact"
   ],
   "note": ""
  },
  {
   "property": "C44",
   "status": "partial",
   "theorems": [
    "C44_defaults_valid_partial",
    "C44_inverse_gaussian_refuted"
   ],
   "note": "Refuted by the inverse Gaussian mean: default 0, validator > 0. All other defaults are proved valid."
  },
  {
   "property": "C45",
   "status": "partial",
   "theorems": [
    "C45_descriptor",
    "C45_descriptor_unique",
    "C45_generator",
    "C45_never_another",
    "C45_without_parameters",
    "C45_without_parameters_refuted"
   ],
   "note": "Lookup is proved for every iteration order of the class set. Without parameters, the call raises TypeError for Cauchy, Laplace, logistic, Student and Tukey, whose constructors have no defaults."
  },
  {
   "property": "C46",
   "status": "proved",
   "theorems": [
    "C46_codes_injective"
   ],
   "note": "Parameter texts range over everything str() can print for an int or float."
  },
  {
   "property": "C47",
   "status": "proved",
   "theorems": [
    "C47_beta",
    "C47_ks_is_sup_distance",
    "C47_ks_value_unique",
    "C47_empty_sample_raises",
    "C47_continuity_needed",
    "C47_gamma",
    "C47_gamma_lilliefors",
    "C47_lognormal",
    "C47_normality",
    "C47_student",
    "C47_uniform",
    "C47_weibull"
   ],
   "note": ""
  },
  {
   "property": "C48",
   "status": "proved",
   "theorems": [
    "C48_beta",
    "C48_ranges",
    "C48_one_sided_ranges",
    "C48_lower_bounds_attained",
    "C48_gamma",
    "C48_lognormal",
    "C48_normality",
    "C48_student",
    "C48_uniform",
    "C48_weibull"
   ],
   "note": ""
  },
  {
   "property": "C49",
   "status": "proved",
   "theorems": [
    "C49_cvm_is_integrated_squared_distance",
    "C49_cvm_integral_over_data"
   ],
   "note": ""
  },
  {
   "property": "C50",
   "status": "proved",
   "theorems": [
    "C50_beta",
    "C50_ad_nonnegative",
    "C50_sharp_lower_bound",
    "C50_finite_iff_inside",
    "C50_gamma",
    "C50_normality",
    "C50_student",
    "C50_uniform"
   ],
   "note": ""
  },
  {
   "property": "C51",
   "status": "proved",
   "theorems": [
    "C51_watson_kuiper_rotation",
    "C51_ks_is_not_invariant"
   ],
   "note": ""
  },
  {
   "property": "C52",
   "status": "partial",
   "theorems": [
    "C52_uniform_watson_refuted",
    "C52_uniform_watson_value"
   ],
   "note": "REFUTED: the uniform Watson statistic equals U^2/n + 1/4 for every sample (C52_uniform_watson_value), which is neither U^2 nor U^2/n."
  },
  {
   "property": "C53",
   "status": "proved",
   "theorems": [
    "C53_beta",
    "C53_nonnegative",
    "C53_zero_when_equal",
    "C53_pearson_zero_only_when_equal",
    "C53_value_exists",
    "C53_totals_needed",
    "C53_binned_statistics_nonnegative",
    "C53_uniform_chi2_nonnegative",
    "C53_histogram_counts",
    "C53_gamma",
    "C53_uniform",
    "C53_uniform_bins",
    "C53_uniform_auto_bins",
    "C53_weibull"
   ],
   "note": ""
  },
  {
   "property": "C54",
   "status": "partial",
   "theorems": [
    "C54_beta_complete",
    "C54_beta",
    "C54_bhs",
    "C54_order_irrelevant_cdf_based",
    "C54_order_irrelevant_uniform",
    "C54_order_irrelevant_binned",
    "C54_exponentiality",
    "C54_exponentiality_complete",
    "C54_gamma_complete",
    "C54_gamma",
    "C54_graph_permutation",
    "C54_gamma_graph_permutation",
    "C54_lognormal",
    "C54_normality",
    "C54_normality_complete",
    "C54_student_complete",
    "C54_student",
    "C54_uniform_complete",
    "C54_uniform",
    "C54_weibull_complete",
    "C54_weibull",
    "C54_rsb_weibull_refuted"
   ],
   "note": "Proved for the statistics of the empirical distribution function, the uniform statistics, the graph statistics (independence on lists; on arrays it raises), all exponentiality statistics and all normality statistics (the tables of classes, with Brys-Hubert-Struyf apart, are proved complete against the registry). Also for every Student, gamma, log-normal and beta class. Weibull: every class except RSB, which is REFUTED (it pairs the unsorted observations with the plotting positions)."
  },
  {
   "property": "C55",
   "status": "proved",
   "theorems": [
    "C55_threshold",
    "C55_edges",
    "C55_max_degree",
    "C55_average_degree",
    "C55_defined"
   ],
   "note": "Edges, degrees, handshake identity and the three thresholds are proved; empty samples are refused with ValueError."
  },
  {
   "property": "C56",
   "status": "proved",
   "theorems": [
    "C56_components",
    "C56_components_are_gaps"
   ],
   "note": "DFS proved against the inductive definition of connectedness; in one dimension it equals one plus the number of gaps reaching the threshold."
  },
  {
   "property": "C57",
   "status": "partial",
   "theorems": [
    "C57_clique_refuted",
    "C57_clique_value",
    "C57_clique_when_not_on_top_partial",
    "C57_constant_sample_refuted",
    "C57_clique_reflection_refuted"
   ],
   "note": "REFUTED: an off-by-one at the upper end ([0,1] gives 2, constant samples give 0, reflection changes the value). The exact value max(clique number, 1 + size of the top window) and the bound omega <= statistic <= omega + 1 are proved."
  },
  {
   "property": "C58",
   "status": "partial",
   "theorems": [
    "C58_independence_number",
    "C58_arrays_refuted"
   ],
   "note": "Proved for Python lists. REFUTED for numpy arrays: `if not rvs` raises ValueError for two or more observations."
  },
  {
   "property": "C59",
   "status": "partial",
   "theorems": [
    "C59_exponentiality_scale_free",
    "C59_hegazy_green_refuted",
    "C59_hegazy_green_after_normalisation",
    "C59_graph_exponentiality_scale_refuted"
   ],
   "note": "Proved for the 20 composite exponentiality statistics. REFUTED for the two Hegazy-Green statistics (compared with standard exponential quantiles without estimating the unit) and for the graph statistics."
  },
  {
   "property": "C60",
   "status": "partial",
   "theorems": [
    "C60_bhs_partial",
    "C60_plain_graph_affine",
    "C60_graph_normality_location",
    "C60_graph_normality_scale_refuted",
    "C60_normality",
    "C60_normality_any_factor"
   ],
   "note": "Proved for the 36 composite normality statistics modelled (all but Brys-Hubert-Struyf, for which it is proved away from rounding errors of the median), with any non-zero factor for those that treat both tails alike. Graph statistics: free of the origin, but REFUTED for the unit (threshold divided by the variance)."
  },
  {
   "property": "C61",
   "status": "partial",
   "theorems": [
    "C61_beta_lilliefors",
    "C61_uniform_statistics_use_parameters",
    "C61_uniform_watson_kuiper_greenwood_use_parameters",
    "C61_uniform_sherman_qm_scale",
    "C61_exponential_ks_ignores_rate",
    "C61_exponential_ks_refuted",
    "C61_exponential_cvm_uses_rate",
    "C61_gamma",
    "C61_gamma_lilliefors",
    "C61_gamma_ppcc",
    "C61_lognormal",
    "C61_normal_ks_ignores_parameters",
    "C61_normal_ks_refuted",
    "C61_student",
    "C61_student_lilliefors",
    "C61_uniform_table",
    "C61_uniform_lilliefors",
    "C61_weibull"
   ],
   "note": "Proved for the uniform statistics and the exponential Cramer-von Mises statistic. REFUTED for the exponential and the normal KS statistics, whose parameters are ignored.  Sherman and Quesenberry-Miller are not standardised: they scale with b-a and (b-a)^2. Proved for every Student class except Lilliefors (which has no location and scale) and for every gamma class. The beta Lilliefors class estimates nothing and equals the two-sided Kolmogorov-Smirnov class. Weibull: x -> x^c with k -> k/c changes no statistic based on the distribution function. Uniform: proved for every class except Sherman and Quesenberry-Miller."
  },
  {
   "property": "C62",
   "status": "proved",
   "theorems": [
    "C62_gamma_ppcc",
    "C62_w_statistics",
    "C62_ryan_joiner",
    "C62_one_iff_straight_line",
    "C62_scores_reach_one",
    "C62_weibull"
   ],
   "note": "Normality: W-type statistics and probability-plot correlations, with the exact condition for the value 1. Gamma: one minus the probability-plot correlation, in [0,1], zero exactly for an increasing affine image of the quantiles. Weibull: RSB in [0,n], Tiku-Singh in [0,2], MSF and REJG in [0,1]."
  },
  {
   "property": "C63",
   "status": "partial",
   "theorems": [
    "C63_beta",
    "C63_exponentiality",
    "C63_exponentiality_small_or_tied",
    "C63_gamma",
    "C63_lognormal",
    "C63_normality",
    "C63_normality_conditions",
    "C63_desgagne_lafaye_refuted",
    "C63_normality_small",
    "C63_student",
    "C63_uniform",
    "C63_uniform_auto_refuted",
    "C63_weibull",
    "C63_weibull_broken_refuted",
    "C63_weibull_los_short"
   ],
   "note": "Exponentiality: every class returns a finite number on three or more different positive values. Normality: every class except five is finite on ten or more different values; for four of the five the exact condition is proved, and Desgagne-Lafaye is REFUTED when an observation equals the sample mean. Gamma (two or more different positive observations) and Student (any observation): always finite. Beta: always finite on two or more different observations inside (0,1). Weibull: finite on three or more different positive observations, except three classes that are REFUTED because they fail on every sample (Anderson-Darling: TypeError; Laplace transform 2 and 3: ValueError). Uniform: finite on two or more different observations inside the interval; REFUTED for equal observations with the automatic rules of the chi-square (OverflowError) and Bickel-Rosenblatt classes."
  },
  {
   "property": "C64",
   "status": "partial",
   "theorems": [
    "C64_beta",
    "C64_exponentiality_reads_only",
    "C64_exponentiality_sorts",
    "C64_exponentiality_refuted",
    "C64_gamma",
    "C64_graph_sorts_in_place_refuted",
    "C64_lognormal",
    "C64_normality_reads_only",
    "C64_normality_sorts",
    "C64_normality_refuted",
    "C64_student",
    "C64_uniform",
    "C64_weibull"
   ],
   "note": "REFUTED: clique and independence number, seven exponentiality statistics and Hosking 3 and 4 sort the caller's sample in place; theorems characterise exactly when it is unchanged."
  },
  {
   "property": "C65",
   "status": "partial",
   "theorems": [
    "C65_beta_entropy_refuted",
    "C65_beta_lilliefors_refuted",
    "C65_hegazy_green_refuted",
    "C65_perfect_fit_rejected",
    "C65_kimber_michael_refuted",
    "C65_gamma_ppcc_refuted",
    "C65_hosking_refuted",
    "C65_best_fit_rejected_two_tailed",
    "C65_lilliefors_refuted",
    "C65_swrg_refuted",
    "C65_student_zhang_zc_refuted",
    "C65_uniform_lilliefors_refuted",
    "C65_uniform_stein_refuted",
    "C65_weibull_lilliefors_refuted",
    "C65_weibull_spp_refuted"
   ],
   "note": "REFUTED: Hegazy-Green 1 and 2 and Kimber-Michael are distances that vanish exactly for the perfect fit, but declare a left-tailed alternative; C65_perfect_fit_rejected shows the consequence for the decision. Hosking 1-4 and Lilliefors are distances but declare a two-sided alternative; SWRG is largest for the best fit but declares a right-tailed one. The gamma probability-plot statistic is zero for the perfect fit but declares LEFT; Student's Zhang Zc decreases when the largest observation moves outwards but declares RIGHT. The beta entropy statistic is 0 on every constant sample under the uniform hypothesis and positive on an evenly spread one, but declares RIGHT; the beta Lilliefors class is a distance but declares TWO_TAILED. The Weibull Lilliefors class is a distance but declares TWO_TAILED, and the SPP distance declares LEFT. The uniform Stein statistic declares RIGHT but is least for samples concentrated at the middle; the uniform Lilliefors class is a distance but declares TWO_TAILED."
  },
  {
   "property": "C66",
   "status": "partial",
   "theorems": [
    "C66_greenwood_range",
    "C66_greenwood_never_raises",
    "C66_uniform_spacing_ranges",
    "C66_sherman_exceeds_one_refuted",
    "C66_moran_lower_bound",
    "C66_moran_raises_iff",
    "C66_gamma",
    "C66_lognormal_quesenberry_miller"
   ],
   "note": "Greenwood, Quesenberry-Miller and Moran bounds proved. Sherman in [0,1] is refuted when the support is longer than 1 (C66_sherman_exceeds_one_refuted); the exact range [0,(b-a)n/(n+1)] is proved."
  },
  {
   "property": "C67",
   "status": "proved",
   "theorems": [
    "C67_beta_constructor",
    "C67_beta_refuses_outside",
    "C67_uniform_refuses_exactly_outside",
    "C67_uniform_statistics_raise_outside",
    "C67_uniform_constructor",
    "C67_gamma_constructor",
    "C67_gamma_refusals",
    "C67_lognormal_constructor",
    "C67_lognormal_constructor_raises",
    "C67_student_constructor",
    "C67_uniform_table_refuses_outside",
    "C67_uniform_zhang_constructor"
   ],
   "note": ""
  },
  {
   "property": "C68",
   "status": "proved",
   "theorems": [
    "C68_sound",
    "C68_derivation_rule",
    "C68_derived_statistics",
    "C68_complete",
    "C68_explicit_statistics",
    "C68_unit_and_exponent_free",
    "C68_parameters_irrelevant",
    "C68_reciprocal",
    "C68_ryan_joiner"
   ],
   "note": "All derived classes; consequences: x -> c x^b and x -> 1/x do not change them, s and scale do not matter. The explicit KS, CvM and Quesenberry-Miller classes do not report infinity for non-positive data (not claimed)."
  },
  {
   "property": "C69",
   "status": "partial",
   "theorems": [
    "C69_uniform",
    "C69_normal",
    "C69_lognormal",
    "C69_exponential",
    "C69_pareto",
    "C69_laplace",
    "C69_rayleigh",
    "C69_discrete_uniform",
    "C69_bernoulli",
    "C69_binomial",
    "C69_poisson",
    "C69_geometric",
    "C69_outside_support",
    "C69_unbounded_likelihood",
    "C69_repeated_value_refuted",
    "C69_boundary_samples_refuted",
    "C69_lists_refused",
    "C69_float_counts_refuted",
    "C69_gamma",
    "C69_beta",
    "C69_cauchy",
    "C69_student",
    "C69_fisher",
    "C69_wigner",
    "C69_wigner_refuted",
    "C69_chi_squared_refuted",
    "C69_weibull_scale_partial",
    "C69_weibull_refuted"
   ],
   "note": "Maximality proved for the 12 closed forms on samples inside the support, value 0 outside, inf for constant Laplace/Pareto samples. Families fitted by scipy: maximal whenever the fit is (hypothesis attains, satisfiable by the examples). REFUTED: Weibull (the shape equation is not the likelihood equation), chi-square (free scale), Wigner (bounded search), repeated values reported as 0 although unbounded, all-zero Poisson and all-one geometric samples raise, Rayleigh with a zero raises, discrete uniform accepts non-integers, float counts raise."
  },
  {
   "property": "C70",
   "status": "partial",
   "theorems": [
    "C70_selection_loop",
    "C70_find_max_refuted",
    "C70_find_result_refuted",
    "C70_several_values_refuted",
    "C70_import_refuted"
   ],
   "note": "REFUTED: no call returns, since the module contains likelihood_function_binomial, minimize_scalar and root_scalar; find_result refuses every array of several values; the import needs the directory on the path. The selection loop itself is proved right. The theorems say that the call never returns a value; which exception it raises is in the model (bad_call) but is not stated by a theorem."
  },
  {
   "property": "C71",
   "status": "partial",
   "theorems": [
    "C71_int_and_float_parameters_differ_refuted"
   ],
   "note": "REFUTED: parameters are compared as JSON text, [1] and [1.0] differ."
  },
  {
   "property": "C72",
   "status": "partial",
   "theorems": [
    "C72_parameters_ignored_refuted"
   ],
   "note": "REFUTED: the query carries no parameters; the row with most replications of any hypothesis is returned."
  },
  {
   "property": "C73",
   "status": "partial",
   "theorems": [
    "C73_size_tolerance_ignored_refuted",
    "C73_tolerance_has_no_effect"
   ],
   "note": "REFUTED: sample_size_error is never used by get_data_for_cv (C73_tolerance_has_no_effect)."
  },
  {
   "property": "C74",
   "status": "partial",
   "theorems": [
    "C74_unknown_dtype_accepted_refuted"
   ],
   "note": "REFUTED: every code other than float32 is read as float64."
  },
  {
   "property": "C75",
   "status": "partial",
   "theorems": [
    "C75_parameters_reach_generator_partial",
    "C75_lognormal_refuted"
   ],
   "note": "Refuted for the log-normal generator, whose constructor names (s, mu) differ from the descriptor names (mean, var); the values are dropped silently."
  },
  {
   "property": "C76",
   "status": "partial",
   "theorems": [
    "C76_defaults_agree_partial",
    "C76_exponential_refuted",
    "C76_gompertz_refuted"
   ],
   "note": "Refuted for the exponential (0.5 instead of 1) and Gompertz (0 instead of 1, outside the documented range) generators."
  },
  {
   "property": "C77",
   "status": "partial",
   "theorems": [
    "C77_complete",
    "C77_no_repetition_partial",
    "C77_weibull_repeats_refuted",
    "C77_not_imported_refuted"
   ],
   "note": "Complete once the statistics package is imported, but nothing imports it, so the list is empty in a fresh interpreter. The code SB occurs twice for Weibull."
  },
  {
   "property": "C78",
   "status": "partial",
   "theorems": [
    "C78_tukey_symmetric",
    "C78_tukey_bounded",
    "C78_tukey_unbounded",
    "C78_tukey_special",
    "C78_unscaled",
    "C78_exponential",
    "C78_exponential_cdf",
    "C78_uniform",
    "C78_cauchy_gumbel_laplace_logistic",
    "C78_gompertz",
    "C78_normal",
    "C78_lognormal",
    "C78_gamma",
    "C78_contaminated_normal",
    "C78_weibull_exponentiated",
    "C78_weibull_unit_scale",
    "C78_weibull_scale_refuted",
    "C78_truncnorm_bounds",
    "C78_truncnorm_refuted",
    "C78_inverse_gaussian_mean_refuted",
    "C78_rice_centre",
    "C78_rice_distance_refuted",
    "C78_law_is_determined"
   ],
   "note": "Proved for exponential, uniform, Cauchy, Gumbel, Laplace, logistic, Gompertz, normal, log-normal, gamma and the contaminated normals. Refuted for the Weibull scale, the truncation bounds, the inverse Gaussian mean and the Rice distance. Beta, chi-square, Student and Tukey pass their parameters to scipy unchanged and are not restated."
  },
  {
   "property": "C79",
   "status": "partial",
   "theorems": [
    "C79_documented_ranges_partial",
    "C79_rice_refuted"
   ],
   "note": "Refuted for the distance of the Rice distribution, which has no validator."
  },
  {
   "property": "C80",
   "status": "proved",
   "theorems": [
    "C80_finite_exactly_inside",
    "C80_range",
    "C80_order_irrelevant",
    "C80_gamma",
    "C80_weibull"
   ],
   "note": ""
  },
  {
   "property": "C81",
   "status": "proved",
   "theorems": [
    "C81_exponentiality_ranges",
    "C81_shapiro_wilk_upper_attained"
   ],
   "note": ""
  },
  {
   "property": "C82",
   "status": "proved",
   "theorems": [
    "C82_gini_is_relative_mean_difference",
    "C82_spacings_sum_to_total",
    "C82_deshpande_is_fraction"
   ],
   "note": ""
  },
  {
   "property": "C83",
   "status": "partial",
   "theorems": [
    "C83_normality_reflection",
    "C83_kolmogorov_smirnov_reflection",
    "C83_zhang_q_reflection",
    "C83_skewness_reflection",
    "C83_skewness_refuted"
   ],
   "note": "Proved for 32 statistics and with the exact behaviour of Kolmogorov-Smirnov, Zhang Q and Q*. REFUTED for the skewness statistic on samples of zero skewness: zero is replaced by one, so a perfectly symmetric sample gets a positive value. Cabana-Cabana 1 and 2 are directed."
  },
  {
   "property": "C84",
   "status": "proved",
   "theorems": [
    "C84_nonnegative",
    "C84_ranges",
    "C84_kurtosis_above_skewness",
    "C84_median_minimises"
   ],
   "note": ""
  },
  {
   "property": "C85",
   "status": "partial",
   "theorems": [
    "C85_supremum_levels_ordered_partial",
    "C85_supremum_levels_ordered_refuted",
    "C85_integral_tabulated",
    "C85_integral_always_rejects_refuted",
    "C85_levels",
    "C85_nonnegative",
    "C85_supremum_tabulated",
    "C85_supremum_always_rejects_refuted"
   ],
   "note": "REFUTED for the supremum test: at every level other than 0.05 and 0.01 the formula gives a negative critical value. REFUTED for the integral test at 0.05 with at most three observations. For four observations the 0.01 limit of the supremum test lies below the 0.05 limit; from six on the order is right."
  },
  {
   "property": "C86",
   "status": "partial",
   "theorems": [
    "C86_parameters_reported",
    "C86_parameter_names_distinct",
    "C86_parameter_keywords",
    "C86_student_hypothesis_refuted"
   ],
   "note": "hypothesis() of the exponential, gamma, beta, uniform, log-normal and Weibull families is proved to determine the parameters. REFUTED for Student: location and scale are not reported although the statistics depend on them."
  },
  {
   "property": "C87",
   "status": "partial",
   "theorems": [
    "C87_beta_mirror",
    "C87_beta_mode",
    "C87_beta_ratio_refuted",
    "C87_student_mirror",
    "C87_student_zhang_zc_refuted",
    "C87_uniform_mirror"
   ],
   "note": "Proved for every Student statistic except Zhang Zc (chi-square when no observation lies on a bin edge). REFUTED for Zhang Zc, whose last reference odds are clipped on one side only. Beta: proved for every class except Ratio and Mode (chi-square off the bin edges); Mode under a unique maximiser of the density estimate on its grid; REFUTED for Ratio, which looks at one end only. Uniform: proved for every class (chi-square off the bin edges)."
  },
  {
   "property": "C88",
   "status": "partial",
   "theorems": [
    "C88_beta_moments",
    "C88_beta_skewness_kurtosis",
    "C88_beta_ratio",
    "C88_beta_mode_refuted",
    "C88_beta_mode",
    "C88_beta_entropy_small_refuted",
    "C88_student_zhang"
   ],
   "note": "Zhang, moment-based and skewness-kurtosis proved. REFUTED for the beta mode statistic, which stays at least sqrt(n)*0.49/199 for every symmetric hypothesis because 1/2 is not on its grid, and for the beta entropy statistic, which ignores samples of fewer than four observations."
  },
  {
   "property": "C89",
   "status": "partial",
   "theorems": [
    "C89_weibull_invariant",
    "C89_sb_weibull_refuted",
    "C89_ok_weibull_refuted"
   ],
   "note": "Proved for ST1, ST2, RSB, Tiku-Singh, LOS, MSF and REJG. REFUTED for Sb and SB (for every sample some change of scale changes the value) and for OK (every change of scale changes the value): the rounded weights leave 0.00002012 n log c."
  },
  {
   "property": "C90",
   "status": "partial",
   "theorems": [
    "C90_mlest_scale",
    "C90_mlest_objective_refuted",
    "C90_mlest_shape_refuted"
   ],
   "note": "The scale is the best one for the returned shape. REFUTED for the shape: the sign of 1/t is wrong, the minimised function is 2/t minus the score and never zero; for two observations it decreases, so an exact minimiser returns the bound 50."
  },
  {
   "property": "C91",
   "status": "partial",
   "theorems": [
    "C91_spp_value",
    "C91_spp_pairing_refuted"
   ],
   "note": "REFUTED: the plotting positions ascend while the fitted values descend; the value depends on the extreme observations only and is larger than the distance of the property whenever two observations differ."
  },
  {
   "property": "C92",
   "status": "partial",
   "theorems": [
    "C92_weibull_nonnegative",
    "C92_cabana_quiroz_zero",
    "C92_laplace_nonnegative",
    "C92_kullback_leibler_refuted"
   ],
   "note": "Proved for all but Kullback-Leibler (for the Laplace transform the sum in the base class); REFUTED for Kullback-Leibler by a sample of 40 observations with a negative value."
  },
  {
   "property": "C93",
   "status": "partial",
   "theorems": [
    "C93_power_divergence",
    "C93_uniform",
    "C93_gamma",
    "C93_student",
    "C93_beta",
    "C93_weibull_refuted"
   ],
   "note": "Proved for every power parameter, and for the uniform, gamma (three classes), Student and beta classes. REFUTED for Weibull: relative frequencies (total 1) are compared with cell probabilities of total E < 1, so the value is at least (1-E)^2/E > 0 on every sample."
  },
  {
   "property": "C94",
   "status": "proved",
   "theorems": [
    "C94_components",
    "C94_moments"
   ],
   "note": "Proved."
  },
  {
   "property": "C95",
   "status": "partial",
   "theorems": [
    "C95_too_few_indicators",
    "C95_stein_value",
    "C95_stein_kernel_mean",
    "C95_stein_discrepancy_refuted",
    "C95_nothing_censored",
    "C95_list_of_zeros_refuted",
    "C95_kaplan_meier",
    "C95_order",
    "C95_largest_censored_refuted"
   ],
   "note": "Kernel mean, range [-1/4,1/2], product-limit weights and order proved. REFUTED as a distance: samples concentrated at one end get exactly the mean value 0, and samples concentrated at the middle the least possible value. REFUTED for a Python list of zeros (value doubled) and when only the largest observation is censored (twice the statistic of the others)."
  },
  {
   "property": "C96",
   "status": "partial",
   "theorems": [
    "C96_rule_of_thumb",
    "C96_zhang_a",
    "C96_zhang_c_refuted",
    "C96_zhang_k_refuted",
    "C96_bickel_rosenblatt"
   ],
   "note": "Proved for Zhang A and Bickel-Rosenblatt. REFUTED for Zhang C, where 1/5, 1/2, 4/5 is below the evenly spaced sample, and Zhang K, which vanishes on samples concentrated at the middle."
  },
  {
   "property": "C97",
   "status": "proved",
   "theorems": [
    "C97_smooth_values",
    "C97_laplace_zero",
    "C97_kullback_leibler_scale",
    "C97_plotting_positions",
    "C97_constant_cells"
   ],
   "note": "Proved."
  },
  {
   "property": "C98",
   "status": "partial",
   "theorems": [
    "C98_result",
    "C98_small",
    "C98_returns_refuted",
    "C98_symmetric_refuted",
    "C98_different_refuted"
   ],
   "note": "REFUTED: for every sample of at least five observations (clear of the median by a few rounding errors) whose upper quarter is farther from the median than the lower one, for every symmetric one, and for every sample of five to sixteen different observations, the inner weighted-median loop repeats one state for ever. Proved: a call has at most one result and raises no exception."
  },
  {
   "property": "C99",
   "status": "partial",
   "theorems": [
    "C99_medcouple_range",
    "C99_shared_iterations_refuted",
    "C99_four_refuted"
   ],
   "note": "Range proved for a call that may iterate. REFUTED for the statistic: the calls share the iteration limit, so that after a first call without iterations the second medcouple is -2; and every sample of four observations gets the same value."
  },
  {
   "property": "C100",
   "status": "partial",
   "theorems": [
    "C100_skewness_transformation",
    "C100_kurtosis_transformation",
    "C100_coin_score",
    "C100_l_moments",
    "C100_second_l_moment",
    "C100_zhang_q",
    "C100_zhang_q_straight",
    "C100_chen_shapiro",
    "C100_coin_correction",
    "C100_coin",
    "C100_dagostino",
    "C100_jarque_bera",
    "C100_robust_moments",
    "C100_median_exists",
    "C100_bonett_seier",
    "C100_hermite",
    "C100_cabana_skewness",
    "C100_cabana_kurtosis_partial",
    "C100_cabana_kurtosis_refuted",
    "C100_shapiro_wilk",
    "C100_epps_pulley"
   ],
   "note": "Proved for every statistic listed. REFUTED for the second Cabana-Cabana statistic: the last summand is added twice, which changes the value for the sample -1, -1, 1, 1; its actual form is proved as _partial. The transformations of skewness (D'Agostino) and kurtosis (Anscombe-Glynn) are included. Coin's scores are pinned to Royston's AS 177 (C100_coin_score); the null constants are taken as the code has them."
  },
  {
   "property": "C101",
   "status": "proved",
   "theorems": [
    "C101_zhang_wu_c",
    "C101_zhang_wu_a",
    "C101_glen_leemis_barr",
    "C101_desgagne_lafaye",
    "C101_epps_pulley",
    "C101_jarque_bera",
    "C101_hosking",
    "C101_hermite"
   ],
   "note": "Lower bounds and the exact condition for equality; for the Zhang-Wu and Glen-Leemis-Barr statistics the condition is on the probabilities under the fitted normal law, which depend on the sample through mean and standard deviation, so that the bound need not be attained."
  },
  {
   "property": "C102",
   "status": "partial",
   "theorems": [
    "C102_skewness_increasing",
    "C102_skewness_sign",
    "C102_skewness_zero_refuted",
    "C102_kurtosis_increasing_partial",
    "C102_kurtosis_refuted"
   ],
   "note": "Skewness proved increasing away from zero skewness. REFUTED at zero: a symmetric sample is treated like one with transformed skewness 1, so it exceeds some samples of positive skewness. Kurtosis proved increasing from the expected kurtosis upwards; REFUTED overall: below a negative denominator the cube root changes sign, so the flattest samples get a larger value than very heavy-tailed ones."
  },
  {
   "property": "C103",
   "status": "partial",
   "theorems": [
    "C103_counting",
    "C103_lorenz_curve",
    "C103_spacings",
    "C103_scores",
    "C103_distances",
    "C103_moments",
    "C103_kochar",
    "C103_we_partial",
    "C103_we_refuted"
   ],
   "note": "Proved for every class of the module except WE. REFUTED for WE: the class uses the population variance where the published formula has the sample variance, so it returns (n-1)/n of the statistic (1/27 instead of 1/18 for 1, 2, 3); its actual form is proved as _partial. Gamma and digamma are parameters; Moran's score property assumes that digamma(1) is the derivative of log Gamma at 1. Gnedenko's form is stated for r below the sample size."
  },
  {
   "property": "C104",
   "status": "proved",
   "theorems": [
    "C104_equal_values",
    "C104_perfect_fit",
    "C104_shapiro_wilk"
   ],
   "note": "Proved."
  },
  {
   "property": "C105",
   "status": "partial",
   "theorems": [
    "C105_correlations",
    "C105_squared_correlations",
    "C105_dagostino_pearson",
    "C105_doornik_hansen",
    "C105_spiegelhalter",
    "C105_martinez_iglewicz_partial",
    "C105_martinez_iglewicz_refuted",
    "C105_gross_outlier",
    "C105_gross_outlier_refuted"
   ],
   "note": "Proved for every statistic listed except Martinez-Iglewicz. REFUTED there: the sums of the biweight midvariance are not restricted to observations less than nine median absolute deviations from the median, so that a gross outlier brings the statistic down to 25/(n(n-1)) instead of making it large; the actual form and the agreement without far observations are proved as _partial."
  },
  {
   "property": "C106",
   "status": "partial",
   "theorems": [
    "C106_spacing_scores",
    "C106_spacings",
    "C106_scale_estimates",
    "C106_evans_johnson_green",
    "C106_smith_bain_partial",
    "C106_smith_bain_refuted",
    "C106_pearson_partial",
    "C106_pearson_refuted",
    "C106_kullback_leibler",
    "C106_liao_shimokawa",
    "C106_cabana_quiroz",
    "C106_laplace_sums"
   ],
   "note": "Equalities for sixteen formulas. Refuted parts: the chi-square class returns Pearson's statistic divided by the sample size, and RSB does not sort the sample, so it equals the published statistic only for ascending samples. REJG is the fourth power of the correlation, the square of a squared correlation. Liao-Shimokawa equals the published value up to a factor that comes from the constant 1e-10 in its denominators. scipy's gamma function is a parameter."
  },
  {
   "property": "C107",
   "status": "partial",
   "theorems": [
    "C107_mahdi_doostparast",
    "C107_mahdi_doostparast_refuted",
    "C107_cabana_quiroz_refuted"
   ],
   "note": "Refuted. Mahdi-Doostparast integrates the squared difference of the survivor function of the sample and the hypothesised distribution function, so a perfect fit of ten or more observations is rated worse than equal observations. Cabana-Quiroz takes the transform of the raw observations; given Gamma(1.1) < 1 its value is at least n (1 - Gamma(1.1))^2 / 1.59 for every positive sample."
  },
  {
   "property": "C108",
   "status": "proved",
   "theorems": [
    "C108_gamma",
    "C108_student",
    "C108_beta",
    "C108_uniform",
    "C108_zhang_uniform",
    "C108_weibull",
    "C108_lognormal",
    "C108_normal"
   ],
   "note": "Holds for the classes named in EdfFormSpec.v. The distribution functions of scipy are arguments with the laws gamma_law, beta_law and student_law; the uniform, Weibull, normal and log-normal ones are defined."
  },
  {
   "property": "C109",
   "status": "partial",
   "theorems": [
    "C109_watson_uniform",
    "C109_watson_uniform_refuted"
   ],
   "note": "Refuted: the class returns Watson's statistic divided by n plus 1/4 (C109_watson_uniform), which differs already for one observation."
  },
  {
   "property": "C110",
   "status": "partial",
   "theorems": [
    "C110_serial_order",
    "C110_inserts_serializable",
    "C110_store_alone",
    "C110_delete_alone",
    "C110_delete_removes_what_it_read",
    "C110_bulk_isolation_refuted"
   ],
   "note": "Everything but the last clause is proved (C110_serial_order, C110_inserts_serializable, C110_store_alone, C110_delete_alone, C110_delete_removes_what_it_read). The last clause is refuted: a lookup that finds the model stored already sends no statement, takes no lock and is not repeated, so another bulk insert can run between two models of the first (C110_bulk_isolation_refuted). The session and lock behaviour of SQLAlchemy and sqlite3 is taken from their documentation; the column codec is assumed idempotent."
  },
  {
   "property": "C111",
   "status": "partial",
   "theorems": [
    "C111_float_range_and_order",
    "C111_float_never_below_raw",
    "C111_plain_factor_ok",
    "C111_plain_factor_error",
    "C111_relative_error",
    "C111_by_error",
    "C111_decisions_agree_away_from_threshold",
    "C111_float_rejections_are_rejections",
    "C111_float_fwer_at_most_exact",
    "C111_bonferroni_float_fwer",
    "C111_decisions_equal_refuted"
   ],
   "note": "All clauses but the last are proved (C111_float_range_and_order, C111_float_never_below_raw, C111_relative_error, C111_by_error, C111_float_rejections_are_rejections, C111_float_fwer_at_most_exact). Decisions agree unless the exact adjusted value lies within the stated error of the threshold (C111_decisions_agree_away_from_threshold); with five p-values a rejection is lost in rounding (C111_decisions_equal_refuted). The power function is a parameter with the stated range and monotonicity; the harmonic factor is a parameter, and the plain left-to-right sum is proved to satisfy the assumptions (C111_plain_factor_ok, C111_plain_factor_error)."
  },
  {
   "property": "C112",
   "status": "partial",
   "theorems": [
    "C112_asymmetry",
    "C112_variance",
    "C112_variance_bounds",
    "C112_supremum",
    "C112_integral",
    "C112_expansion",
    "C112_small_power_refuted",
    "C112_integrand_at_zero_refuted",
    "C112_divisor_refuted"
   ],
   "note": "D, the divisor and the supremum statistic are as stated (C112_asymmetry, C112_variance, C112_variance_bounds, C112_supremum); the integral statistic is as stated outside [-1/300,1/300], where the program adds some nonnegative number (C112_integral). The continuation at 0 is wrong: D behaves like c r^3/6 and the squared quotient tends to c^2/6 (C112_expansion), the program uses sqrt(6) c r^3/6 (C112_small_power_refuted) and c^2/36 (C112_integrand_at_zero_refuted), and for |r| below about 0.0029 it divides by 1e-8 instead of the standard deviation (C112_divisor_refuted). c is minus the third central moment of the logarithms."
  },
  {
   "property": "C113",
   "status": "proved",
   "theorems": [
    "C113_law_exists",
    "C113_moments",
    "C113_skewness_kurtosis",
    "C113_ratio",
    "C113_entropy",
    "C113_mode"
   ],
   "note": "Proved for all parameters. The law is the improper integral of the density; of digamma only the recursion psi(x+1) = psi(x) + 1/x and monotonicity are used (a function with both exists, C113_nonvacuous_digamma), and betaln is taken to be the logarithm of the constant. The kernel estimate and Vasicek's estimate are spelled out in BetaLawSpec.v."
  },
  {
   "property": "C114",
   "status": "proved",
   "theorems": [
    "C114_distance",
    "C114_distance_exists",
    "C114_bounds",
    "C114_tails_exchanged",
    "C114_statistic"
   ],
   "note": "Proved. The matrix is the inverse of [[1.24581,.322918,-.322918],[.322918,2.62068,-.0123455],[-.322918,-.0123455,2.62068]] to a relative error of 1e-13 in the distance. That these are the asymptotic covariances of the medcouples of a normal sample is taken from the paper. Which medcouples are computed is the subject of C98 and C99."
  },
  {
   "property": "C115",
   "status": "partial",
   "theorems": [
    "C115_range",
    "C115_zero",
    "C115_monotone",
    "C115_error",
    "C115_decisions_differ_at_ties_only",
    "C115_rejections_are_rejections",
    "C115_left_decisions_equal",
    "C115_right_tie_refuted",
    "C115_two_sided_tails_refuted",
    "C115_critical_value_between",
    "C115_critical_value_rank",
    "C115_critical_value_extremes",
    "C115_critical_value_error"
   ],
   "note": "Everything but the case of ties is proved (C115_range, C115_monotone, C115_zero, C115_error, C115_decisions_differ_at_ties_only, C115_rejections_are_rejections, C115_critical_value_between, _rank, _extremes); left-tailed tests always decide as with exact numbers (C115_left_decisions_equal). Refuted at ties: 1 - 0.95 exceeds 0.05 in double precision, so a right-tailed p-value of exactly 5% never rejects at 0.05 (C115_right_tie_refuted), and a two-sided one rejects in the lower tail only (C115_two_sided_tails_refuted)."
  },
  {
   "property": "C116",
   "status": "partial",
   "theorems": [
    "C116_moments",
    "C116_raw_moment_is_central",
    "C116_raw_moment_refuted",
    "C116_central_from_raw",
    "C116_central_location_scale",
    "C116_central_symmetric",
    "C116_central_even",
    "C116_kurtosis",
    "C116_empty",
    "C116_normal_density",
    "C116_normal_area",
    "C116_normal_shape",
    "C116_weibull_logs",
    "C116_weibull_closed_form",
    "C116_weibull_outside"
   ],
   "note": "scipy.stats.moment takes the sample mean when center is None, so the documented raw moment (sample.py:16-18, 31-32) is a central moment: order 1 always gives 0 (C116_raw_moment_refuted). Everything else is proved; the normal distribution function is any function whose derivative is the standard density."
  },
  {
   "property": "C117",
   "status": "partial",
   "theorems": [
    "C117_critical_value_size",
    "C117_critical_value_two_sided_size",
    "C117_p_value_size",
    "C117_level_exceeded",
    "C117_level_kept_refuted",
    "C117_discrete_refuted",
    "C117_p_value_ties_refuted"
   ],
   "note": "For distinct values the size is the level up to 4/(n+1), in either tail and for both methods. The level itself is not kept: when (n-1)*level is an integer i and level < 1/2 the right-tailed critical-value test has size (i+1)/(n+1) > level (C117_level_exceeded, C117_level_kept_refuted). With tied values (integer-valued statistics, such as the graph statistics) the size can be n/(n+1) at every level, for critical values because the quantile is taken among the distinct simulated values (C117_discrete_refuted), for p-values because only values strictly above the observed one count (C117_p_value_ties_refuted)."
  },
  {
   "property": "C118",
   "status": "partial",
   "theorems": [
    "C118_p_value_converges",
    "C118_p_value_decision",
    "C118_critical_value_decision",
    "C118_consistent",
    "C118_many_values_rejected",
    "C118_ties_refuted"
   ],
   "note": "Pairwise independence suffices. For critical values the probability of ties among the simulated values is added (the quantile is taken among distinct values, see C19 and C117). REFUTED without that term: at every level there are laws with finitely many values for which a value with an exact p-value near 1 is rejected with a probability tending to 1 (C118_ties_refuted)."
  },
  {
   "property": "C119",
   "status": "partial",
   "theorems": [
    "C119_ks_null",
    "C119_ks_alternative",
    "C119_power",
    "C119_left_alternative_refuted",
    "C119_consistent"
   ],
   "note": "Proved for the two-sided and the right-sided statistic. With alternative LEFT the statistic is sup (F - EDF) but small values are rejected, so the power against laws that are larger in this direction tends to 0 instead of 1 (C119_left_alternative_refuted). The simulated samples may come from any law within eta of the hypothesised one; eta = 0 is the exact generator."
  },
  {
   "property": "C120",
   "status": "partial",
   "theorems": [
    "C120_bonferroni_fwer",
    "C120_enough_simulations",
    "C120_few_simulations_refuted",
    "C120_holm_fwer",
    "C120_by_fdr",
    "C120_sidak_fwer"
   ],
   "note": "The excess is real: n+1 true hypotheses with n simulations each can lead to a false rejection with certainty at every positive threshold (C120_few_simulations_refuted refutes control at the threshold itself), because a Monte-Carlo p-value is 0 with probability up to 1/(n+1)."
  },
  {
   "property": "C121",
   "status": "proved",
   "theorems": [
    "C121_cvm_and_ks",
    "C121_kuiper_and_ks",
    "C121_cvm_power",
    "C121_kuiper_power",
    "C121_cvm_consistent",
    "C121_kuiper_consistent"
   ],
   "note": "The constants are not sharp; the distances of the simulated law (eta) and of the alternative (gap) must satisfy the stated inequality."
  },
  {
   "property": "C122",
   "status": "proved",
   "theorems": [
    "C122_iteration",
    "C122_found",
    "C122_table"
   ],
   "note": "About completed iterations only; that the inner weighted median usually does not return is C98. Tolerance eps0*(eps0+|trial|) as in the code."
  },
  {
   "property": "C123",
   "status": "partial",
   "theorems": [
    "C123_normality_decision",
    "C123_exponentiality_decision",
    "C123_normality_size",
    "C123_exponentiality_size",
    "C123_hegazy_green_refuted",
    "C123_weibull_decision",
    "C123_weibull_size",
    "C123_lognormal_decision",
    "C123_lognormal_size"
   ],
   "note": "Proved for the statistics that C60, C59, C89 and C68 show to be free of the parameters. REFUTED for the Hegazy-Green statistic, which compares with standard exponential quantiles whatever the unit: no observed sample is rejected once its unit is small enough. The samples must have different values of the statistic (no ties); those of the Weibull and log-normal tests must be positive, and the logarithms of those of the log-normal tests must not all be equal."
  },
  {
   "property": "C124",
   "status": "proved",
   "theorems": [
    "C124_get_alternative",
    "C124_same_side",
    "C124_other_value",
    "C124_late_error"
   ],
   "note": "The constructor does not check its argument: a string such as 'left' is accepted, treated as two-sided by execute_statistic, and reported by get_alternative only when the test asks for the alternative, after the resolver has simulated the limit distribution. Resolvers are arbitrary functions that report how many samples they evaluated."
  },
  {
   "property": "C125",
   "status": "proved",
   "theorems": [
    "C125_watson_and_kuiper",
    "C125_watson_power",
    "C125_watson_consistent",
    "C125_gamma_same_decisions",
    "C125_gamma_consistent",
    "C125_uniform_power",
    "C125_uniform_consistent"
   ],
   "note": "The inequalities and consistency are proved for watson_stat, the form used by beta.py and student.py. The gamma statistic takes the same decisions on non-empty samples. The uniform class computes U^2/n + 1/4 instead (C52_uniform_watson_refuted); the same power bound is proved for it when all values lie in [a, b], since the class raises ValueError otherwise. Alternative LEFT is excluded, as in C119."
  },
  {
   "property": "C126",
   "status": "proved",
   "theorems": [
    "C126_values_inside",
    "C126_outside_raises",
    "C126_power_outside",
    "C126_uniform_consistent",
    "C126_ks_consistent"
   ],
   "note": "A value outside [a, b] is the strongest evidence against uniformity, yet the test reports an exception instead of a rejection; the theorems state what the code does. Consistency of the Watson class is C125_uniform_consistent. Alternative LEFT is excluded, as in C119."
  }
 ]
}