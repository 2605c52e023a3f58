(** Properties C47, C48, C50, C62, C63, C65 and C84 for the normality statistics. *)
From Coq Require Import String.
From Verif Require Import Base DecModel DecSpec EdfModel EdfSpec GraphModel RegistryModel NormalLaw ExpModel ExpSpec NormModel NormSpec NormRangeSpec DecProofs EdfProofs EdfRotProofs ExpProofs ExpRangeProofs NormProofs NormSymProofs NormAffProofs NormReflProofs NormRangeProofs NormFiniteProofs NormBoundProofs EdfClaims ExpClaims NormClaims NormRangeClaims.
From Coq Require Import Lra Lia.
Local Open Scope string_scope.
Local Open Scope R_scope.

(** *** C47, C48, C50 *)
(** Kolmogorov-Smirnov measures the distance to the standard normal law, Lilliefors the distance to the normal
    law with the sample mean and standard deviation *)
Theorem C47_normality : forall l, (2 <= length l)%nat -> NoDup l ->
  (forall m s, exists d, ks_norm m s TWO_TAILED l = Ok (Some (Fin d)) /\ supremum (fun x => Rabs (edf l x - norm_cdf x)) d) /\
  (exists d, lillie_norm l = Ok (Some (Fin d)) /\ supremum (fun x => Rabs (edf l x - fitted_normal l x)) d).
Proof. exact C47_normality_holds. Qed.
Print Assumptions C47_normality.
Theorem C48_normality : forall l, (2 <= length l)%nat -> NoDup l ->
  (exists d, lillie_norm l = Ok (Some (Fin d)) /\ 1 / (2 * len l) <= d <= 1) /\
  (exists w, cvm_norm l = Ok (Some (Fin w)) /\ 1 / (12 * len l) <= w <= len l / 3).
Proof. exact C48_normality_holds. Qed.
Print Assumptions C48_normality.
Theorem C50_normality : forall l, (2 <= length l)%nat -> NoDup l ->
  exists a, ad_norm l = Ok (Some (Fin a)) /\ ad_stat (fitted_normal l) l = Fin a /\ 0 <= a.
Proof. exact C50_normality_holds. Qed.
Print Assumptions C50_normality.

(** *** C62 *)
Theorem C62_w_statistics : forall A name f l v, In (name, f) (normality_statistics A) -> In name w_statistics ->
  nvalue (f l) = Ok (Some (Fin v)) -> 0 <= v <= 1.
Proof. exact C62_w_statistics_holds. Qed.
Print Assumptions C62_w_statistics.
Theorem C62_ryan_joiner : forall weighted alpha l v, rj_norm weighted alpha l = Ok (Some (Fin v)) ->
  -1 <= v <= 1 /\ (weighted = false -> 0 <= alpha < 1 -> 0 <= v).
Proof. exact C62_ryan_joiner_holds. Qed.
Print Assumptions C62_ryan_joiner.
(** the largest value 1 is reached exactly by samples lying on a straight line in the probability plot *)
Theorem C62_one_iff_straight_line : forall l v,
  (sf_norm l = Ok (Some (Fin v)) -> (v = 1 <-> increasing_affine_image (rsort l) (scores 0.375 (length l)))) /\
  (filli_norm l = Ok (Some (Fin v)) -> (v = 1 <-> increasing_affine_image (rsort l) (map norm_ppf (filli_medians (length l))))) /\
  (forall alpha, rj_norm false alpha l = Ok (Some (Fin v)) -> (v = 1 <-> increasing_affine_image (rsort l) (scores alpha (length l)))) /\
  (swrg l = Ok (Some (Fin v)) -> (v = 1 <-> affine_image (rsort l) (wrg_star (length l)))) /\
  (sw_norm l = Ok (Some (Fin v)) -> exists w, sw_coefficients (length l) = Ok (Some w) /\ (v = 1 <-> affine_image (rsort l) w)).
Proof. exact C62_one_iff_straight_line_holds. Qed.
Print Assumptions C62_one_iff_straight_line.
(** not vacuous: normal scores themselves reach 1 *)
Theorem C62_scores_reach_one : forall n, (2 <= n)%nat ->
  sf_norm (scores 0.375 n) = Ok (Some (Fin 1)) /\ lg_norm (scores (3 / 8) n) = Ok (Some (Fin 1)).
Proof. exact C62_scores_reach_one_holds. Qed.
Print Assumptions C62_scores_reach_one.

(** *** C63 *)
Theorem C63_normality : forall A name f l, 0 <= n_alpha A < 1 -> In (name, f) (normality_statistics A) ->
  ~ In name conditional_normal -> (10 <= length l)%nat -> NoDup l -> exists v, nvalue (f l) = Ok (Some (Fin v)).
Proof. exact C63_normality_holds. Qed.
Print Assumptions C63_normality.
(** the other statistics: the exact conditions *)
Theorem C63_normality_conditions : forall l, (8 <= length l)%nat -> NoDup l ->
  ((exists v, kurtosis_norm l = Ok (Some (Fin v))) <-> ku_denom (len l) (kurt l) <> 0) /\
  ((exists v, dap_norm l = Ok (Some (Fin v))) <-> ku_denom (len l) (kurt l) <> 0) /\
  ((exists v, sw_norm l = Ok (Some (Fin v))) <-> exists a, sw_coefficients (length l) = Ok (Some a)) /\
  ((exists v, dldm l = Ok (Some (Fin v))) <-> ~ In (mean l) l).
Proof. exact C63_normality_conditions_holds. Qed.
Print Assumptions C63_normality_conditions.
(** the Desgagne-Lafaye statistic is not a number when an observation equals the sample mean *)
Theorem C63_desgagne_lafaye_refuted : exists l, (10 <= length l)%nat /\ NoDup l /\ dldm l = Ok (Some NonFinite).
Proof. exact C63_desgagne_lafaye_refuted_holds. Qed.
Print Assumptions C63_desgagne_lafaye_refuted.
(** samples of up to three values: no value at all; between four and seven values some raise *)
Theorem C63_normality_small : forall A name f l, In (name, f) (normality_statistics A) ->
  (In name silent_normal -> (length l <= 3)%nat -> nvalue (f l) = Ok None) /\
  (In name ["ZhangQNormalityGofStatistic"; "ZhangQStarNormalityGofStatistic"] -> (4 <= length l < 8)%nat -> nvalue (f l) = Raise IndexError) /\
  (name = "SkewNormalityGofStatistic" -> (length l < 8)%nat -> nvalue (f l) = Raise ValueError) /\
  (name = "KurtosisNormalityGofStatistic" -> (length l < 5)%nat -> nvalue (f l) = Raise ValueError) /\
  (name = "DoornikHansenNormalityGofStatistic" -> (length l < 8)%nat -> nvalue (f l) = Raise ValueError \/ nvalue (f l) = Raise ZeroDivisionError) /\
  (name = "ShapiroWilkNormalityGofStatistic" -> (length l < 3)%nat -> nvalue (f l) = Raise IndexError \/ nvalue (f l) = Raise TypeError).
Proof. exact C63_normality_small_holds. Qed.
Print Assumptions C63_normality_small.

(** *** C65 *)
(** the Hosking statistics are positive definite quadratic forms in the deviations of the sample L-skewness and
    L-kurtosis from their values for a normal law; they declare a two-sided alternative, so a value close to
    zero, a good fit, is rejected as well *)
Theorem C65_hosking_refuted :
  (forall A name f l v, In (name, f) (normality_statistics A) ->
     In name ["Hosking1NormalityGofStatistic"; "Hosking2NormalityGofStatistic"; "Hosking3NormalityGofStatistic"; "Hosking4NormalityGofStatistic"] ->
     nvalue (f l) = Ok (Some (Fin v)) -> 0 <= v) /\
  (forall t l, (1 <= t <= 3)%nat -> NoDup l -> (2 * t + 4 <= length l)%nat ->
     exists v mu v3 v4, hosking_trimmed t l = Ok (Some (Fin v)) /\ hosking_constants t (length l) = (mu, v3, v4) /\
       let tau r := tl_moment t r (rsort l) / tl_moment t 2 (rsort l) in
       v = tau 3%nat ^ 2 / v3 + (tau 4%nat - mu) ^ 2 / v4 /\ (v = 0 <-> tau 3%nat = 0 /\ tau 4%nat = mu)) /\
  declares "Hosking1NormalityGofStatistic" TWO_TAILED /\ declares "Hosking2NormalityGofStatistic" TWO_TAILED /\
  declares "Hosking3NormalityGofStatistic" TWO_TAILED /\ declares "Hosking4NormalityGofStatistic" TWO_TAILED.
Proof. exact C65_hosking_refuted_holds. Qed.
Print Assumptions C65_hosking_refuted.
(** consequence: a value below all simulated values, the best fit of all, is rejected at every level *)
Theorem C65_best_fit_rejected_two_tailed : forall st (res : resolver) n limit level x, st_alternative st = TWO_TAILED ->
  res st n = Ok (Some limit) -> limit <> [] -> (forall v, In v limit -> x < v) -> 0 <= level ->
  exists r, p_value_decide res st x level n = Ok r /\ tr_p_value r = Some 0 /\ tr_rejected r = true.
Proof. exact C65_best_fit_rejected_two_tailed_holds. Qed.
Print Assumptions C65_best_fit_rejected_two_tailed.
(** Lilliefors is a distance (see C47_normality) and declares a two-sided alternative *)
Theorem C65_lilliefors_refuted : declares "LillieforsNormalityGofStatistic" TWO_TAILED /\
  forall l, (2 <= length l)%nat -> NoDup l ->
    exists d, lillie_norm l = Ok (Some (Fin d)) /\ supremum (fun x => Rabs (edf l x - fitted_normal l x)) d.
Proof. exact C65_lilliefors_refuted_holds. Qed.
Print Assumptions C65_lilliefors_refuted.
(** the Wilk-Shapiro statistic with Rahman-Govindarajulu weights is largest for the best fit, like the Shapiro-Wilk and
    Shapiro-Francia statistics, but large values are rejected *)
Theorem C65_swrg_refuted : declares "SWRGNormalityGofStatistic" RIGHT /\
  declares "ShapiroWilkNormalityGofStatistic" LEFT /\ declares "SFNormalityGofStatistic" LEFT /\
  forall l v, swrg l = Ok (Some (Fin v)) -> v <= 1 /\ (v = 1 <-> affine_image (rsort l) (wrg_star (length l))).
Proof. exact C65_swrg_refuted_holds. Qed.
Print Assumptions C65_swrg_refuted.

(** *** C84 *)
Theorem C84_nonnegative : forall A name f l v, In (name, f) (normality_statistics A) -> In name nonnegative_normal ->
  nvalue (f l) = Ok (Some (Fin v)) -> 0 <= v.
Proof. exact C84_nonnegative_holds. Qed.
Print Assumptions C84_nonnegative.
(** the ratio of the standard deviation to the mean absolute deviation, D'Agostino's D, the spacings statistic *)
Theorem C84_ranges : forall l v,
  (gmg l = Ok (Some (Fin v)) -> sqrt (2 / PI) <= v) /\
  (bs l = Ok (Some (Fin v)) -> - (3 * sqrt (len l + 2) / 3.54) <= v) /\
  (cs l = Ok (Some (Fin v)) -> v <= sqrt (len l)) /\
  (dagostino l = Ok (Some (Fin v)) ->
     - (0.28209479 * sqrt (len l) / 0.02998598) <= v <= sqrt (len l) * (sqrt ((1 - / len l ^ 2) / 12) - 0.28209479) / 0.02998598).
Proof. exact C84_ranges_holds. Qed.
Print Assumptions C84_ranges.
(** Pearson's inequality: the sample kurtosis exceeds one plus the squared sample skewness, so the transformation of
    Doornik and Hansen never takes the cube root of a negative number *)
Theorem C84_kurtosis_above_skewness : forall l, (2 <= length l)%nat -> NoDup l -> 1 + skewness l ^ 2 <= kurt l.
Proof. exact C84_kurtosis_above_skewness_holds. Qed.
Print Assumptions C84_kurtosis_above_skewness.
(** the median minimises the mean absolute deviation used by the robust statistics *)
Theorem C84_median_minimises : forall l c, mean_abs_dev (median l) l <= mean_abs_dev c l.
Proof. exact C84_median_minimises_holds. Qed.
Print Assumptions C84_median_minimises.
Example C84_nonvacuous : exists l, (10 <= length l)%nat /\ NoDup l /\
  exists v w, gmg l = Ok (Some (Fin v)) /\ dagostino l = Ok (Some (Fin w)).
Proof. exact C84_nonvacuous_holds. Qed.
