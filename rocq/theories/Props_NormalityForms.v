(** C100 - C102: form of the normality statistics. *)
From Coquelicot Require Derive.
From Verif Require Import Base Analysis DecModel EdfModel EdfSpec GraphModel RegistryModel NormalLaw ExpModel ExpSpec NormModel NormRangeSpec NormFormSpec EdfProofs ExpProofs NormProofs NormSymProofs NormAffProofs NormReflProofs NormRangeProofs NormFiniteProofs NormBoundProofs NormFormProofs NormDistProofs NormDist2Proofs NormClaims NormTestProofs NormEppsProofs NormFormClaims.
From Coq Require Import Lra Lia.
Local Open Scope R_scope.

Theorem C100_l_moments : forall l v,
  (hosking1 l = Ok (Some (Fin v)) -> let '(mu, v3, v4) := null_moments 0 (length l) in v = l_moment_test mu v3 v4 0 l) /\
  (hosking2 l = Ok (Some (Fin v)) -> if (length l <=? 3)%nat then v = 0 else let '(mu, v3, v4) := null_moments 1 (length l) in v = l_moment_test mu v3 v4 1 l) /\
  (hosking3 l = Ok (Some (Fin v)) -> let '(mu, v3, v4) := null_moments 2 (length l) in v = l_moment_test mu v3 v4 2 l) /\
  (hosking4 l = Ok (Some (Fin v)) -> let '(mu, v3, v4) := null_moments 3 (length l) in v = l_moment_test mu v3 v4 3 l).
Proof. exact C100_l_moments_holds. Qed.
Print Assumptions C100_l_moments.
(** the L-moment of order two is half the mean distance of two observations *)
Theorem C100_second_l_moment : forall l, (2 <= length l)%nat -> l_moment 0 2 l = pair_sum l / (len l * (len l - 1)).
Proof. exact C100_second_l_moment_holds. Qed.
Print Assumptions C100_second_l_moment.
Theorem C100_zhang_q : forall l v,
  (zq l = Ok (Some (Fin v)) -> v = ln (slopes_from_first l / slopes_over_four l)) /\
  (zqs l = Ok (Some (Fin v)) -> v = ln (slopes_from_first (map Ropp l) / slopes_over_four (map Ropp l))).
Proof. exact C100_zhang_q_holds. Qed.
Print Assumptions C100_zhang_q.
(** a sample on a straight line in the probability plot has Q = 0 *)
Theorem C100_zhang_q_straight : forall l, straight l -> (8 <= length l)%nat -> zq l = Ok (Some (Fin 0)).
Proof. exact C100_zhang_q_straight_holds. Qed.
Print Assumptions C100_zhang_q_straight.
(** Chen-Shapiro compares the average slope between neighbours with the standard deviation *)
Theorem C100_chen_shapiro : forall l v, cs l = Ok (Some (Fin v)) -> v = sqrt (len l) * (1 - slopes_of_neighbours l / sample_sd l).
Proof. exact C100_chen_shapiro_holds. Qed.
Print Assumptions C100_chen_shapiro.
(** the corrections of the order statistics used by Coin's statistic *)
Theorem C100_coin_correction : forall rank n, (1 <= n)%nat -> (rank * n <> 4)%nat ->
  ((1 <= rank <= 7)%nat -> (n <= royston_limit rank)%nat -> forall c1 c2 c3, nth (rank - 1) royston_corrections (0, 0, 0) = (c1, c2, c3) ->
   10 ^ 6 * coin_correct rank n = c1 + c2 / INR n ^ 2 + c3 / INR n ^ 4) /\
  ((rank < 1)%nat \/ (7 < rank)%nat \/ (royston_limit rank < n)%nat -> coin_correct rank n = 0).
Proof. exact C100_coin_correction_holds. Qed.
Print Assumptions C100_coin_correction.
(** Coin's statistic is the squared cubic coefficient of the least-squares polynomial through the probability plot *)
Theorem C100_coin : forall l v, coin l = Ok (Some (Fin v)) -> exists b1 b3, v = b3 ^ 2 /\
  best_cubic (coin_a (length l)) (rsort (standardised l)) b1 b3 /\
  forall c1 c3, best_cubic (coin_a (length l)) (rsort (standardised l)) c1 c3 -> c3 = b3.
Proof. exact C100_coin_holds. Qed.
Print Assumptions C100_coin.
(** D'Agostino's statistic is the mean distance of two observations over the standard deviation *)
Theorem C100_dagostino : forall l v, dagostino l = Ok (Some (Fin v)) ->
  v = sqrt (len l) * (pair_sum l / (2 * len l ^ 2 * sqrt (central 2 l)) - 0.28209479) / 0.02998598.
Proof. exact C100_dagostino_holds. Qed.
Print Assumptions C100_dagostino.
(** the moment statistics *)
Theorem C100_jarque_bera : forall l v, jb_norm l = Ok (Some (Fin v)) -> v = len l / 6 * (sample_skewness l ^ 2 + (sample_kurtosis l - 3) ^ 2 / 4).
Proof. exact C100_jarque_bera_holds. Qed.
Print Assumptions C100_jarque_bera.
Theorem C100_robust_moments : forall l m v, is_median m l -> let j := sqrt (PI / 2) * mean (map (fun x => Rabs (x - m)) l) in
  (rjb l = Ok (Some (Fin v)) -> v = len l / 6 * (central 3 l / j ^ 3) ^ 2 + len l / 64 * (central 4 l / j ^ 4 - 3) ^ 2) /\
  (gmg l = Ok (Some (Fin v)) -> v = sqrt (central 2 l) / j).
Proof. exact C100_robust_moments_holds. Qed.
Print Assumptions C100_robust_moments.
Theorem C100_median_exists : forall l, is_median (median l) l.
Proof. exact C100_median_exists_holds. Qed.
Print Assumptions C100_median_exists.
Theorem C100_bonett_seier : forall l v, bs l = Ok (Some (Fin v)) ->
  v = sqrt (len l + 2) * (13.29 * ln (sqrt (central 2 l) / mean (map (fun x => Rabs (x - mean l)) l)) - 3) / 3.54.
Proof. exact C100_bonett_seier_holds. Qed.
Print Assumptions C100_bonett_seier.
(** the statistics in Hermite polynomials *)
Theorem C100_hermite : forall l v,
  (bm1 l = Ok (Some (Fin v)) -> v = hermite_mean 3 l ^ 2 + hermite_mean 4 l ^ 2) /\
  (bm2 l = Ok (Some (Fin v)) -> v = hermite_mean 3 l ^ 2 + hermite_mean 4 l ^ 2 + hermite_mean 5 l ^ 2 + hermite_mean 6 l ^ 2).
Proof. exact C100_hermite_holds. Qed.
Print Assumptions C100_hermite.
Theorem C100_cabana_skewness : forall l v, cc1 l = Ok (Some (Fin v)) -> largest_deviation v (smooth_skewness l) (standardised l).
Proof. exact C100_cabana_skewness_holds. Qed.
Print Assumptions C100_cabana_skewness.
(** the second statistic adds its last summand twice *)
Theorem C100_cabana_kurtosis_partial : forall l v, cc2 l = Ok (Some (Fin v)) ->
  largest_deviation v (fun z => smooth_kurtosis l z - norm_pdf z * ((sqrt (5 / 4) * hermite 3 z + hermite 5 z) * hermite_mean 8 l)) (standardised l).
Proof. exact C100_cabana_kurtosis_partial_holds. Qed.
Print Assumptions C100_cabana_kurtosis_partial.
Theorem C100_cabana_kurtosis_refuted : exists l v, cc2 l = Ok (Some (Fin v)) /\ ~ largest_deviation v (smooth_kurtosis l) (standardised l).
Proof. exact C100_cabana_kurtosis_refuted_holds. Qed.
Print Assumptions C100_cabana_kurtosis_refuted.
(** Shapiro-Wilk is the squared correlation of the ordered sample with Royston's weights *)
Theorem C100_shapiro_wilk : forall l v, sw_norm l = Ok (Some (Fin v)) -> exists a, royston_weights (length l) a /\
  v = Rsum (map (fun p => fst p * snd p) (combine a (rsort l))) ^ 2 / Rsum (map (fun x => (x - mean l) ^ 2) l).
Proof. exact C100_shapiro_wilk_holds. Qed.
Print Assumptions C100_shapiro_wilk.
(** Epps-Pulley is a sum over all pairs of standardised observations *)
Theorem C100_epps_pulley : forall l v, ep_norm l = Ok (Some (Fin v)) ->
  let z := map (fun x => (x - mean l) / sqrt (central 2 l)) l in
  v = Rsum (map (fun y => Rsum (map (fun x => exp (- ((y - x) ^ 2 / 2))) z)) z) / len l - sqrt 2 * Rsum (map (fun y => exp (- (y ^ 2 / 4))) z) + len l / sqrt 3.
Proof. exact C100_epps_pulley_holds. Qed.
Print Assumptions C100_epps_pulley.
(** ** C101 *)
Theorem C101_zhang_wu_c : forall l v, zwc l = Ok (Some (Fin v)) -> 0 <= v /\
  (v = 0 <-> forall i, (i < length l)%nat -> fitted_normal l (nth i (rsort l) 0) = (INR (S i) - 3 / 4) / (len l - 1 / 2)).
Proof. exact C101_zhang_wu_c_holds. Qed.
Print Assumptions C101_zhang_wu_c.
Theorem C101_zhang_wu_a : forall l v, zwa l = Ok (Some (Fin v)) -> zwa_floor (length l) <= v /\
  (v = zwa_floor (length l) <-> forall i, (i < length l)%nat -> fitted_normal l (nth i (rsort l) 0) = (INR (S i) - 1 / 2) / len l).
Proof. exact C101_zhang_wu_a_holds. Qed.
Print Assumptions C101_zhang_wu_a.
Theorem C101_glen_leemis_barr : forall l v, glb l = Ok (Some (Fin v)) -> len l * (2 * ln 2 - 1) <= v /\
  (v = len l * (2 * ln 2 - 1) <-> forall i, (i < length l)%nat -> at_least (S i) (length l) (fitted_normal l (nth i (rsort l) 0)) = 1 / 2).
Proof. exact C101_glen_leemis_barr_holds. Qed.
Print Assumptions C101_glen_leemis_barr.
Theorem C101_desgagne_lafaye : forall l v, dldm l = Ok (Some (Fin v)) -> let z := map (fun x => (x - mean l) / sqrt (central 2 l)) l in 0 <= v /\
  (v = 0 <-> mean (map (fun y => y ^ 2 * ln (Rabs y)) z) / 2 = 0.18240929 /\ mean (map (fun y => ln (1 + Rabs y)) z) = 0.5348223 /\
             mean (map (fun y => ln (ln (2.71828182846 + Rabs y))) z) = 0.20981558).
Proof. exact C101_desgagne_lafaye_holds. Qed.
Print Assumptions C101_desgagne_lafaye.
Theorem C101_epps_pulley : forall l v, ep_norm l = Ok (Some (Fin v)) -> 0 < v.
Proof. exact C101_epps_pulley_holds. Qed.
Print Assumptions C101_epps_pulley.
Theorem C101_jarque_bera : forall l v, jb_norm l = Ok (Some (Fin v)) -> 0 <= v /\ (v = 0 <-> sample_skewness l = 0 /\ sample_kurtosis l = 3).
Proof. exact C101_jarque_bera_holds. Qed.
Print Assumptions C101_jarque_bera.
Theorem C101_hosking : forall l v t, (6 <= length l)%nat ->
  nth t [hosking1 l; hosking2 l; hosking3 l; hosking4 l] (Raise ValueError) = Ok (Some (Fin v)) -> 0 <= v /\
  (v = 0 <-> l_moment t 3 l = 0 /\ l_moment t 4 l = fst (fst (null_moments t (length l))) * l_moment t 2 l).
Proof. exact C101_hosking_holds. Qed.
Print Assumptions C101_hosking.
Theorem C101_hermite : forall l v,
  (bm1 l = Ok (Some (Fin v)) -> 0 <= v /\ (v = 0 <-> forall k, (3 <= k <= 4)%nat -> hermite_mean k l = 0)) /\
  (bm2 l = Ok (Some (Fin v)) -> 0 <= v /\ (v = 0 <-> forall k, (3 <= k <= 6)%nat -> hermite_mean k l = 0)).
Proof. exact C101_hermite_holds. Qed.
Print Assumptions C101_hermite.
Theorem C102_skewness_increasing : forall l l' v v', length l = length l' -> skew_norm l = Ok (Some (Fin v)) -> skew_norm l' = Ok (Some (Fin v')) ->
  sample_skewness l <> 0 -> sample_skewness l' <> 0 -> (sample_skewness l < sample_skewness l' <-> v < v').
Proof. exact C102_skewness_increasing_holds. Qed.
Print Assumptions C102_skewness_increasing.
Theorem C102_skewness_sign : forall l v, skew_norm l = Ok (Some (Fin v)) -> (0 < v <-> 0 <= sample_skewness l) /\ (v < 0 <-> sample_skewness l < 0).
Proof. exact C102_skewness_sign_holds. Qed.
Print Assumptions C102_skewness_sign.
Theorem C102_skewness_zero_refuted : exists l l' v v', length l = length l' /\ skew_norm l = Ok (Some (Fin v)) /\ skew_norm l' = Ok (Some (Fin v')) /\
  sample_skewness l < sample_skewness l' /\ v' < v.
Proof. exact C102_skewness_zero_refuted_holds. Qed.
Print Assumptions C102_skewness_zero_refuted.
(** with the sign of the denominator 1 + (b2 - E) sqrt (2 / (a - 4)) / sd of Anscombe and Glynn *)
Theorem C102_kurtosis_increasing_partial : forall l l' v v', length l = length l' -> kurtosis_norm l = Ok (Some (Fin v)) -> kurtosis_norm l' = Ok (Some (Fin v')) ->
  3 * (len l - 1) / (len l + 1) <= sample_kurtosis l -> sample_kurtosis l < sample_kurtosis l' -> v < v'.
Proof. exact C102_kurtosis_increasing_partial_holds. Qed.
Print Assumptions C102_kurtosis_increasing_partial.
Theorem C102_kurtosis_refuted : exists l l' v v', length l = length l' /\ kurtosis_norm l = Ok (Some (Fin v)) /\ kurtosis_norm l' = Ok (Some (Fin v')) /\
  sample_kurtosis l = 1 /\ sample_kurtosis l' = 50 /\ v' < v.
Proof. exact C102_kurtosis_refuted_holds. Qed.
Print Assumptions C102_kurtosis_refuted.
Example C100_nonvacuous : (forall f, In f [hosking1; hosking2; hosking3; hosking4; zq; zqs; cs; dagostino; jb_norm; rjb; gmg; bs; bm1; bm2; cc1; cc2; ep_norm] ->
    exists v, f eleven = Ok (Some (Fin v))) /\
  (exists l, (8 <= length l)%nat /\ straight l).
Proof. exact C100_nonvacuous_holds. Qed.
Example C101_nonvacuous : jb_norm [-1; 0; 0; 0; 0; 1] = Ok (Some (Fin 0)) /\ exists v w, zwc eleven = Ok (Some (Fin v)) /\ zwa eleven = Ok (Some (Fin w)).
Proof. exact C101_nonvacuous_holds. Qed.
Example C102_nonvacuous : exists v w, skew_norm [2; -1; -1; 3; -3; 0; 0; 0] = Ok (Some (Fin v)) /\ skew_norm [2; -1; -1; 4; -4; 0; 0; 0] = Ok (Some (Fin w)) /\
  0 < sample_skewness [2; -1; -1; 3; -3; 0; 0; 0] /\ 0 < sample_skewness [2; -1; -1; 4; -4; 0; 0; 0].
Proof. exact C102_nonvacuous_holds. Qed.
