(** Properties C27, C47, C48, C50-C54, C61, C66 and C67 for statistics of the empirical distribution function. *)
From Verif Require Import Base DecModel DecSpec DecProofs EdfModel EdfSpec EdfProofs EdfRotProofs EdfPowerProofs EdfClaims.
From Coq Require Import Lra Lia.

(** ** distribution functions used in the examples *)
(** *** C47 *)
Theorem C47_ks_is_sup_distance : forall F rvs, continuous_cdf F -> rvs <> [] ->
  (exists d, ks_stat F TWO_TAILED rvs = Ok d /\ supremum (fun x => Rabs (edf rvs x - F x)) d) /\
  (exists d, ks_stat F RIGHT rvs = Ok d /\ supremum (fun x => edf rvs x - F x) d) /\
  (exists d, ks_stat F LEFT rvs = Ok d /\ supremum (fun x => F x - edf rvs x) d).
Proof. exact C47_ks_is_sup_distance_holds. Qed.
Print Assumptions C47_ks_is_sup_distance.
(** the supremum is unique, so the value is determined by the distance, whatever the order or ties *)
Theorem C47_ks_value_unique : forall F rvs d, continuous_cdf F -> rvs <> [] ->
  supremum (fun x => Rabs (edf rvs x - F x)) d -> ks_stat F TWO_TAILED rvs = Ok d.
Proof. exact C47_ks_value_unique_holds. Qed.
Print Assumptions C47_ks_value_unique.
Theorem C47_empty_sample_raises : forall F alt, ks_stat F alt [] = Raise ValueError.
Proof. exact C47_empty_sample_raises_holds. Qed.
Print Assumptions C47_empty_sample_raises.
Example C47_nonvacuous : continuous_cdf (uniform_cdf 0 2) /\ [1; 0.5; 1] <> [].
Proof. exact C47_nonvacuous_holds. Qed.
(** continuity is needed: with a jump the left limit exceeds the reported value *)
Theorem C47_continuity_needed : exists F rvs d,
  (forall x y, x <= y -> F x <= F y) /\ (forall x, 0 <= F x <= 1) /\ rvs <> [] /\
  ks_stat F TWO_TAILED rvs = Ok d /\ ~ supremum (fun x => Rabs (edf rvs x - F x)) d.
Proof. exact C47_continuity_needed_holds. Qed.
Print Assumptions C47_continuity_needed.

(** *** C48 *)
Theorem C48_ranges : forall F rvs, (forall x y, x <= y -> F x <= F y) -> (forall x, 0 <= F x <= 1) -> rvs <> [] ->
  let n := INR (length rvs) in
  (exists d, ks_stat F TWO_TAILED rvs = Ok d /\ 1 / (2 * n) <= d <= 1) /\
  (exists w, cvm_stat F rvs = Ok w /\ 1 / (12 * n) <= w <= n / 3) /\
  (exists v, kuiper_stat F rvs = Ok v /\ 1 / n <= v <= 1) /\
  (exists u, watson_stat F rvs = Ok u /\ 1 / (12 * n) <= u <= n / 3) /\
  watson_gamma_stat F rvs = watson_stat F rvs.
Proof. exact C48_ranges_holds. Qed.
Print Assumptions C48_ranges.
Theorem C48_one_sided_ranges : forall F rvs, (forall x, 0 <= F x <= 1) -> rvs <> [] ->
  (exists d, ks_stat F RIGHT rvs = Ok d /\ 0 <= d <= 1) /\ (exists d, ks_stat F LEFT rvs = Ok d /\ 0 <= d <= 1).
Proof. exact C48_one_sided_ranges_holds. Qed.
Print Assumptions C48_one_sided_ranges.
(** the lower bounds are attained at the mid-ranks *)
Theorem C48_lower_bounds_attained : forall n, (0 < n)%nat ->
  let v := map (fun i => (2 * INR (S i) - 1) / (2 * INR n)) (seq 0 n) in
  ks_stat (fun x => x) TWO_TAILED v = Ok (1 / (2 * INR n)) /\
  cvm_stat (fun x => x) v = Ok (1 / (12 * INR n)) /\ kuiper_stat (fun x => x) v = Ok (1 / INR n) /\
  watson_stat (fun x => x) v = Ok (1 / (12 * INR n)).
Proof. exact C48_lower_bounds_attained_holds. Qed.
Print Assumptions C48_lower_bounds_attained.
Example C48_nonvacuous : (forall x y, x <= y -> uniform_cdf 0 1 x <= uniform_cdf 0 1 y) /\ (forall x, 0 <= uniform_cdf 0 1 x <= 1).
Proof. exact C48_nonvacuous_holds. Qed.

(** *** C50 *)
Theorem C50_ad_nonnegative : forall F rvs, rvs <> [] -> (forall x, In x rvs -> 0 < F x < 1) ->
  exists a, ad_stat F rvs = Fin a /\ 0 <= a.
Proof. exact C50_ad_nonnegative_holds. Qed.
Print Assumptions C50_ad_nonnegative.
(** best possible lower bound for each sample size *)
Theorem C50_sharp_lower_bound : forall n, (0 < n)%nat -> exists m,
  0 <= m /\
  (forall F rvs a, length rvs = n -> ad_stat F rvs = Fin a -> m <= a) /\
  (exists v, length v = n /\ ad_stat (fun x => x) v = Fin m).
Proof. exact C50_sharp_lower_bound_holds. Qed.
Print Assumptions C50_sharp_lower_bound.
(** an observation where the hypothesised cdf is 0 or 1 makes the statistic infinite *)
Theorem C50_finite_iff_inside : forall F rvs,
  ad_stat F rvs = NonFinite <-> exists x, In x rvs /\ (F x <= 0 \/ 1 <= F x).
Proof. exact C50_finite_iff_inside_holds. Qed.
Print Assumptions C50_finite_iff_inside.
Example C50_nonvacuous : forall x, In x [0.5; 1; 0.25] -> 0 < uniform_cdf 0 2 x < 1.
Proof. exact C50_nonvacuous_holds. Qed.

(** *** C51 *)
Theorem C51_watson_kuiper_rotation : forall F x y t, (forall a b, a <= b -> F a <= F b) -> x <> [] -> 0 <= t < 1 ->
  (forall v, In v x -> 0 <= F v < 1) -> Permutation (map F y) (map (fun v => rotate t (F v)) x) ->
  watson_stat F y = watson_stat F x /\ watson_gamma_stat F y = watson_gamma_stat F x /\
  kuiper_stat F y = kuiper_stat F x.
Proof. exact C51_watson_kuiper_rotation_holds. Qed.
Print Assumptions C51_watson_kuiper_rotation.
(** rotating by 1/2 moves 0.1, 0.7, 0.4 to 0.6, 0.2, 0.9 *)
Example C51_nonvacuous :
  (forall v, In v [0.1; 0.7; 0.4] -> 0 <= v < 1) /\ map (rotate (1/2)) [0.1; 0.7; 0.4] = [0.6; 0.2; 0.9].
Proof. exact C51_nonvacuous_holds. Qed.
(** KS and CvM are not invariant (so the theorem distinguishes them) *)
Theorem C51_ks_is_not_invariant : exists x t,
  (forall v, In v x -> 0 <= v < 1) /\ 0 <= t < 1 /\
  ks_stat (fun v => v) TWO_TAILED (map (rotate t) x) <> ks_stat (fun v => v) TWO_TAILED x.
Proof. exact C51_ks_is_not_invariant_holds. Qed.
Print Assumptions C51_ks_is_not_invariant.

(** *** C52 *)
(** the uniform variant omits the "- 1/2" of Watson's correction and divides by n *)
Theorem C52_uniform_watson_refuted : exists rvs u code, rvs <> [] /\ (forall x, In x rvs -> 0 <= x <= 1) /\
  watson_stat (uniform_cdf 0 1) rvs = Ok u /\ watson_uniform 0 1 rvs = Ok code /\ code <> u /\ code <> u / INR (length rvs).
Proof. exact C52_uniform_watson_refuted_holds. Qed.
Print Assumptions C52_uniform_watson_refuted.
(** exactly what is computed: U^2/n + 1/4, an increasing function of U^2 for each n *)
Theorem C52_uniform_watson_value : forall a b rvs, a < b -> rvs <> [] -> (forall x, In x rvs -> a <= x <= b) ->
  exists u, watson_stat (uniform_cdf a b) rvs = Ok u /\
            watson_uniform a b rvs = Ok (u / INR (length rvs) + 1 / 4).
Proof. exact C52_uniform_watson_value_holds. Qed.
Print Assumptions C52_uniform_watson_value.

(** *** C53 *)
Theorem C53_nonnegative : forall lambda_ f_obs f_exp s, length f_obs = length f_exp ->
  (forall o, In o f_obs -> 0 <= o) -> (forall e, In e f_exp -> 0 < e) -> Rsum f_obs = Rsum f_exp ->
  power_divergence lambda_ f_obs f_exp = Fin s -> 0 <= s.
Proof. exact C53_nonnegative_holds. Qed.
Print Assumptions C53_nonnegative.
Theorem C53_zero_when_equal : forall lambda_ f, (forall e, In e f -> 0 < e) -> power_divergence lambda_ f f = Fin 0.
Proof. exact C53_zero_when_equal_holds. Qed.
Print Assumptions C53_zero_when_equal.
Theorem C53_pearson_zero_only_when_equal : forall f_obs f_exp, length f_obs = length f_exp ->
  (forall e, In e f_exp -> 0 < e) -> power_divergence 1 f_obs f_exp = Fin 0 -> f_obs = f_exp.
Proof. exact C53_pearson_zero_only_when_equal_holds. Qed.
Print Assumptions C53_pearson_zero_only_when_equal.
Theorem C53_value_exists : forall lambda_ f_obs f_exp, (forall e, In e f_exp -> 0 < e) ->
  0 <= lambda_ \/ (forall o, In o f_obs -> o <> 0) -> exists s, power_divergence lambda_ f_obs f_exp = Fin s.
Proof. exact C53_value_exists_holds. Qed.
Print Assumptions C53_value_exists.
(** without equal totals the likelihood ratio can be negative *)
Theorem C53_totals_needed : exists f_obs f_exp s, length f_obs = length f_exp /\ (forall o, In o f_obs -> 0 <= o) /\
  (forall e, In e f_exp -> 0 < e) /\ power_divergence 0 f_obs f_exp = Fin s /\ s < 0.
Proof. exact C53_totals_needed_holds. Qed.
Print Assumptions C53_totals_needed.
(** the binned statistics of the library always compare counts with equal totals *)
Theorem C53_binned_statistics_nonnegative : forall ppf lambda_ bins rvs s, (2 <= bins)%nat ->
  binned_stat ppf lambda_ bins rvs = Ok (Fin s) -> 0 <= s.
Proof. exact C53_binned_statistics_nonnegative_holds. Qed.
Print Assumptions C53_binned_statistics_nonnegative.
Theorem C53_uniform_chi2_nonnegative : forall a b lambda_ bins rvs s, (2 <= bins)%nat -> rvs <> [] ->
  chi2_uniform a b lambda_ bins rvs = Ok (Fin s) -> 0 <= s.
Proof. exact C53_uniform_chi2_nonnegative_holds. Qed.
Print Assumptions C53_uniform_chi2_nonnegative.
(** what the histogram counts: bin i holds the observations in [edge_{i-1}, edge_i) *)
Theorem C53_histogram_counts : forall inner s i, StronglySorted Rle inner -> (i <= length inner)%nat ->
  nth i (histogram inner s) 0%nat =
  length (filter (fun x => (match i with O => true | S j => Rleb (nth j inner 0) x end) &&
                           (if (i <? length inner)%nat then Rltb x (nth i inner 0) else true)) s).
Proof. exact C53_histogram_counts_holds. Qed.
Print Assumptions C53_histogram_counts.
Example C53_nonvacuous : Rsum [3; 0; 1] = Rsum [1; 2; 1] /\ power_divergence 1 [3; 0; 1] [1; 2; 1] = Fin 6.
Proof. exact C53_nonvacuous_holds. Qed.

(** *** C54 *)
Theorem C54_order_irrelevant_cdf_based : forall F alt rvs1 rvs2, Permutation rvs1 rvs2 ->
  ks_stat F alt rvs1 = ks_stat F alt rvs2 /\ ad_stat F rvs1 = ad_stat F rvs2 /\ cvm_stat F rvs1 = cvm_stat F rvs2 /\
  watson_stat F rvs1 = watson_stat F rvs2 /\ watson_gamma_stat F rvs1 = watson_gamma_stat F rvs2 /\
  kuiper_stat F rvs1 = kuiper_stat F rvs2 /\ mt_stat F rvs1 = mt_stat F rvs2 /\
  greenwood_stat F rvs1 = greenwood_stat F rvs2 /\ moran_stat F rvs1 = moran_stat F rvs2 /\
  qm_lognormal_stat F rvs1 = qm_lognormal_stat F rvs2.
Proof. exact C54_order_irrelevant_cdf_based_holds. Qed.
Print Assumptions C54_order_irrelevant_cdf_based.
Theorem C54_order_irrelevant_uniform : forall a b alt lambda_ bins rvs1 rvs2, Permutation rvs1 rvs2 ->
  ks_uniform a b alt rvs1 = ks_uniform a b alt rvs2 /\ ad_uniform a b rvs1 = ad_uniform a b rvs2 /\
  cvm_uniform a b rvs1 = cvm_uniform a b rvs2 /\ chi2_uniform a b lambda_ bins rvs1 = chi2_uniform a b lambda_ bins rvs2 /\
  watson_uniform a b rvs1 = watson_uniform a b rvs2 /\ kuiper_uniform a b rvs1 = kuiper_uniform a b rvs2 /\
  greenwood_uniform a b rvs1 = greenwood_uniform a b rvs2 /\ sherman_uniform a b rvs1 = sherman_uniform a b rvs2 /\
  qm_uniform a b rvs1 = qm_uniform a b rvs2.
Proof. exact C54_order_irrelevant_uniform_holds. Qed.
Print Assumptions C54_order_irrelevant_uniform.
Theorem C54_order_irrelevant_binned : forall ppf lambda_ bins rvs1 rvs2, Permutation rvs1 rvs2 ->
  binned_stat ppf lambda_ bins rvs1 = binned_stat ppf lambda_ bins rvs2.
Proof. exact C54_order_irrelevant_binned_holds. Qed.
Print Assumptions C54_order_irrelevant_binned.
Example C54_nonvacuous : Permutation [3; 1; 2] [1; 2; 3].
Proof. exact C54_nonvacuous_holds. Qed.

(** *** C61 (uniform): location and scale of the hypothesis are used *)
Theorem C61_uniform_statistics_use_parameters : forall a b alt rvs, a < b ->
  let data := map (fun x => a + (b - a) * x) rvs in
  ks_uniform a b alt data = ks_uniform 0 1 alt rvs /\ ad_uniform a b data = ad_uniform 0 1 rvs /\
  cvm_uniform a b data = cvm_uniform 0 1 rvs.
Proof. exact C61_uniform_statistics_use_parameters_holds. Qed.
Print Assumptions C61_uniform_statistics_use_parameters.
(** the same holds for Watson, Kuiper and Greenwood *)
Theorem C61_uniform_watson_kuiper_greenwood_use_parameters : forall a b rvs, a < b ->
  let data := map (fun x => a + (b - a) * x) rvs in
  watson_uniform a b data = watson_uniform 0 1 rvs /\ kuiper_uniform a b data = kuiper_uniform 0 1 rvs /\
  greenwood_uniform a b data = greenwood_uniform 0 1 rvs.
Proof. exact C61_uniform_watson_kuiper_greenwood_use_parameters_holds. Qed.
Print Assumptions C61_uniform_watson_kuiper_greenwood_use_parameters.
(** Sherman and Quesenberry-Miller are not standardised: they scale with b - a *)
Theorem C61_uniform_sherman_qm_scale : forall a b rvs v w, a < b ->
  let data := map (fun x => a + (b - a) * x) rvs in
  sherman_uniform 0 1 rvs = Ok v -> qm_uniform 0 1 rvs = Ok w ->
  sherman_uniform a b data = Ok ((b - a) * v) /\ qm_uniform a b data = Ok ((b - a) ^ 2 * w).
Proof. exact C61_uniform_sherman_qm_scale_holds. Qed.
Print Assumptions C61_uniform_sherman_qm_scale.
Example C61_nonvacuous : map (fun x => 2 + (5 - 2) * x) [0; 1/3; 1] = [2; 3; 5].
Proof. exact C61_nonvacuous_holds. Qed.

(** *** C66 *)
Theorem C66_greenwood_range : forall F rvs v, (forall x y, x <= y -> F x <= F y) -> (forall x, 0 <= F x <= 1) ->
  greenwood_stat F rvs = Ok v -> 1 / (INR (length rvs) + 1) <= v <= 1.
Proof. exact C66_greenwood_range_holds. Qed.
Print Assumptions C66_greenwood_range.
Theorem C66_greenwood_never_raises : forall F rvs, (forall x y, x <= y -> F x <= F y) -> (forall x, 0 <= F x <= 1) ->
  exists v, greenwood_stat F rvs = Ok v.
Proof. exact C66_greenwood_never_raises_holds. Qed.
Print Assumptions C66_greenwood_never_raises.
Theorem C66_uniform_spacing_ranges : forall a b rvs, a < b -> (forall x, In x rvs -> a <= x <= b) ->
  let n := INR (length rvs) in
  (exists g, greenwood_uniform a b rvs = Ok g /\ 1 / (n + 1) <= g <= 1) /\
  (exists s, sherman_uniform a b rvs = Ok s /\ 0 <= s <= (b - a) * (n / (n + 1))) /\
  (exists q, qm_uniform a b rvs = Ok q /\ (b - a) ^ 2 / (n + 1) <= q <= (b - a) ^ 2).
Proof. exact C66_uniform_spacing_ranges_holds. Qed.
Print Assumptions C66_uniform_spacing_ranges.
(** in particular Sherman lies in [0,1] only when b - a <= 1 + 1/n *)
Theorem C66_sherman_exceeds_one_refuted : exists a b rvs s, a < b /\ (forall x, In x rvs -> a <= x <= b) /\
  sherman_uniform a b rvs = Ok s /\ 1 < s.
Proof. exact C66_sherman_exceeds_one_refuted_holds. Qed.
Print Assumptions C66_sherman_exceeds_one_refuted.
Theorem C66_moran_lower_bound : forall F rvs v, moran_stat F rvs = Ok v ->
  let n := INR (length rvs) in 0 < (n + 1) * ln ((n + 1) / n) <= v.
Proof. exact C66_moran_lower_bound_holds. Qed.
Print Assumptions C66_moran_lower_bound.
(** Moran raises exactly when two transformed observations coincide or one is at an end of the support *)
Theorem C66_moran_raises_iff : forall F rvs, rvs <> [] ->
  (moran_stat F rvs = Raise ValueError <-> exists d, In d (spacings 0 (map F (rsort rvs)) 1) /\ d <= 0) /\
  ((exists v, moran_stat F rvs = Ok v) \/ moran_stat F rvs = Raise ValueError).
Proof. exact C66_moran_raises_iff_holds. Qed.
Print Assumptions C66_moran_raises_iff.
Example C66_nonvacuous : exists v, moran_stat (fun x => x) [1/2] = Ok v.
Proof. exact C66_nonvacuous_holds. Qed.

(** *** C67 (uniform) *)
Theorem C67_uniform_refuses_exactly_outside : forall a b rvs,
  ((exists x, In x rvs /\ ~ (a <= x <= b)) <-> uniform_validate a b rvs = Raise ValueError) /\
  ((forall x, In x rvs -> a <= x <= b) <-> uniform_validate a b rvs = Ok rvs).
Proof. exact C67_uniform_refuses_exactly_outside_holds. Qed.
Print Assumptions C67_uniform_refuses_exactly_outside.
(** every uniform statistic goes through that check *)
Theorem C67_uniform_statistics_raise_outside : forall a b alt lambda_ bins rvs x, In x rvs -> ~ (a <= x <= b) ->
  ks_uniform a b alt rvs = Raise ValueError /\ ad_uniform a b rvs = Raise ValueError /\
  cvm_uniform a b rvs = Raise ValueError /\ chi2_uniform a b lambda_ bins rvs = Raise ValueError /\
  watson_uniform a b rvs = Raise ValueError /\ kuiper_uniform a b rvs = Raise ValueError /\
  greenwood_uniform a b rvs = Raise ValueError /\ sherman_uniform a b rvs = Raise ValueError /\
  qm_uniform a b rvs = Raise ValueError.
Proof. exact C67_uniform_statistics_raise_outside_holds. Qed.
Print Assumptions C67_uniform_statistics_raise_outside.
Theorem C67_uniform_constructor : forall a b,
  (uniform_ctor a b = Raise ValueError <-> b <= a) /\ (uniform_ctor a b = Ok (a, b) <-> a < b).
Proof. exact C67_uniform_constructor_holds. Qed.
Print Assumptions C67_uniform_constructor.
Example C67_nonvacuous : ~ (0 <= 3/2 <= 1).
Proof. exact C67_nonvacuous_holds. Qed.

(** *** C27 *)
(** a sample fitting better than every simulated one is always rejected by the two-tailed rule *)
Theorem C27_best_fits_are_rejected : forall (r : resolver) rvs limit level v, 0 <= level ->
  st_execute ks01 rvs = Ok v -> r ks01 (length rvs) = Ok (Some limit) -> limit <> [] -> (forall y, In y limit -> v < y) ->
  exists res, gof_test (PValueMethod r) ks01 rvs level = Ok res /\ tr_rejected res = true.
Proof. exact C27_best_fits_are_rejected_holds. Qed.
Print Assumptions C27_best_fits_are_rejected.
Theorem C27_better_fit_rejected_refuted : exists (r : resolver) level good bad dg db rg rb,
  st_execute ks01 good = Ok dg /\ st_execute ks01 bad = Ok db /\ dg < db /\
  gof_test (PValueMethod r) ks01 good level = Ok rg /\ gof_test (PValueMethod r) ks01 bad level = Ok rb /\
  tr_rejected rb = false /\ tr_rejected rg = true.
Proof. exact C27_better_fit_rejected_refuted_holds. Qed.
Print Assumptions C27_better_fit_rejected_refuted.
