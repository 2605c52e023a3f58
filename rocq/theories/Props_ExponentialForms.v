(** C103 and C104: the form of the exponentiality statistics and their extreme values *)
From Coq Require Import String.
From Coquelicot Require Coquelicot.
From Verif Require Import Base Analysis DecModel EdfModel GraphModel ExpModel ExpSpec ExpFormSpec EdfProofs ExpProofs ExpRangeProofs ExpFormProofs ExpForm2Proofs ExpForm3Proofs ExpClaims ExpFormClaims.
From Coq Require Import Lra Lia.
Local Open Scope string_scope.
Local Open Scope R_scope.

Theorem C103_counting : forall A l v,
  (returns A "AhsanullahExponentialityGofStatistic" l v ->
     v = share (fun p => Rltb (Rabs (fst (snd p) - snd (snd p))) (fst p)) (list_prod l (list_prod l l))
         - share (fun p => Rltb (2 * Rmin (fst (snd p)) (snd (snd p))) (fst p)) (list_prod l (list_prod l l))) /\
  (returns A "DeshpandeExponentialityGofStatistic" l v ->
     v = (share (fun p => Rltb (a_b_dsp A * snd p) (fst p)) (twos l) + share (fun p => Rltb (a_b_dsp A * fst p) (snd p)) (twos l)) / 2) /\
  (positive l -> returns A "HollanderProshanExponentialityGofStatistic" l v ->
     v = / 3 * share (fun p => Rltb (fst p + fst (snd p) + snd (snd p)) (2 * largest (fst p) (fst (snd p)) (snd (snd p)))) (threes l)) /\
  (returns A "RossbergExponentialityGofStatistic" l v ->
     v = mean (map (fun x => share (fun p => Rltb (middle (fst p) (fst (snd p)) (snd (snd p)) - least (fst p) (fst (snd p)) (snd (snd p))) x) (threes l)
                             - share (fun p => Rltb (Rmin (fst p) (snd p)) x) (twos l)) l)).
Proof. exact C103_counting_holds. Qed.
Print Assumptions C103_counting.
(** the Lorenz curve: the Lorenz statistic is its value at the fraction p, Gini's the average and Pietra's the largest distance
    from the diagonal *)
Theorem C103_lorenz_curve : forall A l v, positive l ->
  (0 <= a_p_lz A -> returns A "LorenzExponentialityGofStatistic" l v -> exists k, INR k <= len l * a_p_lz A < INR k + 1 /\ v = lorenz l k) /\
  ((2 <= length l)%nat -> returns A "GiniExponentialityGofStatistic" l v ->
     v = 2 / (len l - 1) * Rsum (map (fun k => INR k / len l - lorenz l k) (seq 0 (S (length l))))) /\
  (returns A "PietraExponentialityGofStatistic" l v -> maximum v (fun w => exists k, (k <= length l)%nat /\ w = INR k / len l - lorenz l k)).
Proof. exact C103_lorenz_curve_holds. Qed.
Print Assumptions C103_lorenz_curve.
(** normalised spacings: Gnedenko and Harris divide the mean of some spacings by the mean of the others, Epstein compares the
    likelihood of an own mean for each spacing with that of a common mean *)
Theorem C103_spacings : forall A l v, positive l ->
  (returns A "GnedenkoExponentialityGofStatistic" l v -> exists k, match a_r_gd A with Some k' => k = k' | None => nearest k (INR (length l) / 2) end /\
     ((k < length l)%nat -> v = mean (firstn k (spacings l)) / mean (skipn k (spacings l)))) /\
  (returns A "HarrisExponentialityGofStatistic" l v -> exists k, match a_r_hm A with Some k' => k = k' | None => nearest k (INR (length l) / 4) end /\ (1 <= k)%nat /\ (2 * k < length l)%nat /\
     v = mean (firstn k (spacings l) ++ skipn (length l - k) (spacings l)) / mean (firstn (length l - 2 * k) (skipn k (spacings l)))) /\
  (returns A "EpsteinExponentialityGofStatistic" l v -> exists a b, maximum a (separate (spacings l)) /\ maximum b (common (spacings l)) /\
     v = 2 * (a - b) / (1 + (len l + 1) / (6 * len l))).
Proof. exact C103_spacings_holds. Qed.
Print Assumptions C103_spacings.
(** scores: Cox and Oakes' statistic is the derivative at shape 1 of the Weibull likelihood, Moran's of the gamma likelihood *)
Theorem C103_scores : forall A l v, positive l ->
  (returns A "CoxOakesExponentialityGofStatistic" l v -> derivable_pt_lim (fun k => Rsum (map (weibull_log k) (relative l))) 1 v) /\
  (returns A "MoranExponentialityGofStatistic" l v ->
     v = - a_digamma1 A + Rsum (map ln l) / len l - ln (mean l) /\
     (derivable_pt_lim (fun a => ln (a_Gamma A a)) 1 (a_digamma1 A) -> derivable_pt_lim (fun a => mean (map (gamma_log (a_Gamma A) a) (relative l))) 1 v)).
Proof. exact C103_scores_holds. Qed.
Print Assumptions C103_scores.
Theorem C103_distances : forall A l v, positive l ->
  (returns A "FroziniExponentialityGofStatistic" l v ->
     v = / sqrt (len l) * Rsum (map (fun i => Rabs (fitted_exponential l (S i) - (INR i + 1 / 2) / len l)) (seq 0 (length l)))) /\
  (returns A "KimberMichaelExponentialityGofStatistic" l v ->
     maximum v (fun w => exists i, (i < length l)%nat /\ w = Rabs (stabilised ((INR i + 1 / 2) / len l) - stabilised (fitted_exponential l (S i))))) /\
  (returns A "HegazyGreen1ExponentialityGofStatistic" l v ->
     v = / len l * Rsum (map (fun i => Rabs (order l (S i) - - ln (1 - INR (S i) / (len l + 1)))) (seq 0 (length l)))) /\
  (returns A "HegazyGreen2ExponentialityGofStatistic" l v ->
     v = / len l * Rsum (map (fun i => (order l (S i) - - ln (1 - INR (S i) / (len l + 1))) ^ 2) (seq 0 (length l)))).
Proof. exact C103_distances_holds. Qed.
Print Assumptions C103_distances.
(** moments and linear functions: Epps-Pulley compares the empirical Laplace transform at 1 with 1/2, Atkinson the power mean with
    that of the exponential law, Shapiro-Wilk the distance of mean and minimum with the spread, Wong-Wong takes the largest ratio *)
Theorem C103_moments : forall A l v, positive l ->
  (returns A "EppsPulleyExponentialityGofStatistic" l v -> v = sqrt (48 * len l) * (mean (map (fun y => exp (- y)) (relative l)) - 1 / 2)) /\
  (0 < a_Gamma A (1 + a_p_atk A) -> returns A "AtkinsonExponentialityGofStatistic" l v ->
     v = sqrt (len l) * Rabs (power_mean (a_p_atk A) l / mean l - Rpower (a_Gamma A (1 + a_p_atk A)) (1 / a_p_atk A))) /\
  (forall m, smallest_in m l -> returns A "ShapiroWilkExponentialityGofStatistic" l v ->
     v = len l * (mean l - m) ^ 2 / ((len l - 1) * Rsum (map (fun x => (x - mean l) ^ 2) l))) /\
  (returns A "WongWongExponentialityGofStatistic" l v -> maximum v (fun w => exists x y, In x l /\ In y l /\ w = x / y)).
Proof. exact C103_moments_holds. Qed.
Print Assumptions C103_moments.
(** Kochar's statistic weighs the order statistics with scores that are uncorrelated with the exponential quantiles *)
Theorem C103_kochar : (forall A l v, returns A "KocharExponentialityGofStatistic" l v ->
    v = sqrt (108 * len l / 17) * Rsum (map (fun i => kochar_score (INR (S i) / (len l + 1)) * order l (S i)) (seq 0 (length l))) / Rsum l) /\
  (forall e, 0 < e -> exists d, 0 < d /\ forall t, 0 < t < 1 -> 1 - d < t -> Rabs (@Coquelicot.RInt.RInt Coquelicot.Hierarchy.R_CompleteNormedModule (fun u => kochar_score u * - ln (1 - u)) 0 t) < e).
Proof. exact C103_kochar_holds. Qed.
Print Assumptions C103_kochar.
(** the published WE statistic is the sum of squared deviations over the square of the sum; the class divides the sum of squares
    by the sample size once more and returns (n-1)/n of it *)
Theorem C103_we_partial : forall A l v, positive l -> returns A "WeExponentialityGofStatistic" l v ->
  v = (len l - 1) / len l * (Rsum (map (fun x => (x - mean l) ^ 2) l) / Rsum l ^ 2).
Proof. exact C103_we_partial_holds. Qed.
Print Assumptions C103_we_partial.
Theorem C103_we_refuted : forall A, exists l v, positive l /\ returns A "WeExponentialityGofStatistic" l v /\ v <> Rsum (map (fun x => (x - mean l) ^ 2) l) / Rsum l ^ 2.
Proof. exact C103_we_refuted_holds. Qed.
Print Assumptions C103_we_refuted.
(** with the default arguments every class returns a number on three different positive values *)
Example C103_nonvacuous : forall Gamma digamma1 lam alt name, lam <> 0 -> In name (map fst (exponentiality_statistics (default_exp_args Gamma digamma1 lam alt))) ->
  exists l v, positive l /\ length l = 3%nat /\ returns (default_exp_args Gamma digamma1 lam alt) name l v.
Proof. exact C103_nonvacuous_holds. Qed.
(** *** C104 *)
(** the measures of inequality vanish exactly on samples of equal values *)
Theorem C104_equal_values : forall A l v, positive l ->
  ((2 <= length l)%nat -> returns A "GiniExponentialityGofStatistic" l v -> (v = 0 <-> constant l)) /\
  (returns A "PietraExponentialityGofStatistic" l v -> (v = 0 <-> constant l)) /\
  ((2 <= length l)%nat -> returns A "WeExponentialityGofStatistic" l v -> (v = 0 <-> constant l)) /\
  (returns A "WongWongExponentialityGofStatistic" l v -> 1 <= v /\ (v = 1 <-> constant l)) /\
  (returns A "MoranExponentialityGofStatistic" l v -> v <= - a_digamma1 A /\ (v = - a_digamma1 A <-> constant l)) /\
  (returns A "EppsPulleyExponentialityGofStatistic" l v ->
     sqrt (48 * len l) * (exp (- 1) - 1 / 2) <= v /\ (v = sqrt (48 * len l) * (exp (- 1) - 1 / 2) <-> constant l)).
Proof. exact C104_equal_values_holds. Qed.
Print Assumptions C104_equal_values.
(** the distances vanish exactly at a perfect fit *)
Theorem C104_perfect_fit : forall A l v, positive l ->
  (returns A "EpsteinExponentialityGofStatistic" l v -> 0 <= v /\ (v = 0 <-> constant (spacings l))) /\
  (returns A "FroziniExponentialityGofStatistic" l v -> 0 <= v /\ (v = 0 <-> forall i, (i < length l)%nat -> fitted_exponential l (S i) = (INR i + 1 / 2) / len l)) /\
  (0 < a_Gamma A (1 + a_p_atk A) -> returns A "AtkinsonExponentialityGofStatistic" l v ->
     0 <= v /\ (v = 0 <-> power_mean (a_p_atk A) l / mean l = Rpower (a_Gamma A (1 + a_p_atk A)) (1 / a_p_atk A))).
Proof. exact C104_perfect_fit_holds. Qed.
Print Assumptions C104_perfect_fit.
(** the Shapiro-Wilk statistic is 1 exactly when all values except one smaller value are equal *)
Theorem C104_shapiro_wilk : forall A l v, returns A "ShapiroWilkExponentialityGofStatistic" l v ->
  v <= 1 /\ (v = 1 <-> exists m x, Permutation l (m :: repeat x (length l - 1)) /\ m < x).
Proof. exact C104_shapiro_wilk_holds. Qed.
Print Assumptions C104_shapiro_wilk.
(** the extreme values occur *)
Example C104_nonvacuous : forall A, (exists v, returns A "GiniExponentialityGofStatistic" [2; 2; 2] v /\ constant [2; 2; 2]) /\
  (exists v, returns A "EpsteinExponentialityGofStatistic" [1 / 2; 3 / 2] v /\ constant (spacings [1 / 2; 3 / 2])) /\
  (exists v, returns A "ShapiroWilkExponentialityGofStatistic" [2; 1; 2] v /\ Permutation [2; 1; 2] (1 :: repeat 2 2)).
Proof. exact C104_nonvacuous_holds. Qed.
