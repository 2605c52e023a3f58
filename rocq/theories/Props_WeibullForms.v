(** Form of the Weibull statistics (C106, C107) *)
From Coq Require Import String.
From Coquelicot Require Import Coquelicot.
From Verif Require Import Base DecModel EdfModel GraphModel RegistryModel ExpModel NormModel WeibullModel WeibullSpec NormFormSpec NormMoreSpec ExpSpec WeibullFormSpec EdfProofs NormBoundProofs NormFiniteProofs ChisqClaims WeibullProofs WeibullRangeProofs WeibullMoreProofs WeibullClaims WeibullFormProofs WeibullFormClaims.
From Coq Require Import Lra Lia.
Local Open Scope string_scope.
Local Open Scope R_scope.

(** the scores of the normalised spacings are David and Johnson's approximation, with the derivatives of the quantile function *)
Theorem C106_spacing_scores : forall n i, (1 <= i <= n)%nat -> nth (i - 1) (gofns n) 0 = david_johnson extreme_quantile n i.
Proof. exact C106_spacing_scores_holds. Qed.
Print Assumptions C106_spacing_scores.
(** Tiku and Singh (1981), Mann, Scheuer and Fertig (1973), Lockhart, O'Reilly and Stephens (1986) *)
Theorem C106_spacings : forall S l v, let n := List.length l in
  (weibull_returns S "TikuSinghWeibullGofStatistic" l v ->
     v = 2 * Rsum (map (fun i => INR (n - 1 - i) * spacing l i) (seq 1 (n - 2))) / (INR (n - 2) * spacing_sum l 1 (n - 1))) /\
  (weibull_returns S "MSFWeibullGofStatistic" l v -> v = spacing_sum l (n / 2 + 1) (n - 1) / spacing_sum l 1 (n - 1)) /\
  ((3 <= n)%nat -> weibull_returns S "LOSWeibullGofStatistic" l v -> let z i := spacing_sum l 1 i / spacing_sum l 1 (n - 1) in
     v = - INR (n - 2) - / INR (n - 2) * Rsum (map (fun i => (2 * INR i - 1) * (ln (z i) + ln (1 - z (n - 1 - i)%nat))) (seq 1 (n - 2)))).
Proof. exact C106_spacings_holds. Qed.
Print Assumptions C106_spacings.
(** the squared scale estimate relative to the sum of squares, and the ratio of two scale estimates *)
Theorem C106_scale_estimates : forall S l v,
  (forall name, In name ["SbWeibullGofStatistic"; "SBWeibullGofStatistic"] -> weibull_returns S name l v ->
     v = len l * dagostino_scale l ^ 2 / square_sum (map ln l)) /\
  ((2 <= List.length l)%nat -> weibull_returns S "OKWeibullGofStatistic" l v ->
     v = (dagostino_scale l / downton_scale l - 1 - 0.13 / sqrt (len l) + 1.18 / len l) / (0.49 / sqrt (len l) - 0.36 / len l)).
Proof. exact C106_scale_estimates_holds. Qed.
Print Assumptions C106_scale_estimates.
(** REJG is the fourth power of the correlation, whatever the fitted shape *)
Theorem C106_evans_johnson_green : forall S l v, proper S -> all_positive l -> l <> [] ->
  weibull_returns S "REJGWeibullGofStatistic" l v -> v = evans_johnson_green l ^ 2.
Proof. exact C106_evans_johnson_green_holds. Qed.
Print Assumptions C106_evans_johnson_green.
(** RSB is the published statistic of a sample that comes in ascending order *)
Theorem C106_smith_bain_partial : forall S l v, all_positive l -> sortedR l -> weibull_returns S "RSBWeibullGofStatistic" l v -> v = smith_bain l.
Proof. exact C106_smith_bain_partial_holds. Qed.
Print Assumptions C106_smith_bain_partial.
Theorem C106_smith_bain_refuted : forall S, exists l v, all_positive l /\ weibull_returns S "RSBWeibullGofStatistic" l v /\ v <> smith_bain l.
Proof. exact C106_smith_bain_refuted_holds. Qed.
Print Assumptions C106_smith_bain_refuted.
(** the chi-square class works on relative frequencies: it returns Pearson's statistic divided by the sample size *)
Theorem C106_pearson_partial : forall S l lo hi v, In lo l -> In hi l -> lo < hi -> (forall x, In x l -> lo <= x <= hi) ->
  weibull_returns S "Chi2PearsonWeibullGofStatistic" l v -> len l * v = pearson (law S) lo hi (Nat.sqrt_up (List.length l)) l.
Proof. exact C106_pearson_partial_holds. Qed.
Print Assumptions C106_pearson_partial.
Theorem C106_pearson_refuted : forall S l lo hi v, proper S -> all_positive l -> In lo l -> In hi l -> lo < hi -> (forall x, In x l -> lo <= x <= hi) ->
  weibull_returns S "Chi2PearsonWeibullGofStatistic" l v -> v < pearson (law S) lo hi (Nat.sqrt_up (List.length l)) l.
Proof. exact C106_pearson_refuted_holds. Qed.
Print Assumptions C106_pearson_refuted.
(** Vasicek's entropy estimate of the logarithms with window n / 2 *)
Theorem C106_kullback_leibler : forall S l v, weibull_returns S "KullbackLeiblerWeibullGofStatistic" l v ->
  v = - vasicek l (List.length l / 2) - mean (map ln l) + mean l.
Proof. exact C106_kullback_leibler_holds. Qed.
Print Assumptions C106_kullback_leibler.
(** the Liao-Shimokawa statistic up to the constant 1e-10 that is added in the denominators *)
Theorem C106_liao_shimokawa : forall S l v top, (forall x, In x l -> 0 < law S x <= top) -> top < 1 ->
  weibull_returns S "LiaoShimokawaWeibullGofStatistic" l v ->
  let published := liao_shimokawa (at_order (law S) l) (List.length l) in v <= published <= v * sqrt (1 + 1 / 10 ^ 10 / (1 - top)).
Proof. exact C106_liao_shimokawa_holds. Qed.
Print Assumptions C106_liao_shimokawa.
(** the Cabana-Quiroz statistic is the quadratic form of the two differences with the inverse of the matrix (1.59 0.91; 0.91 0.53) *)
Theorem C106_cabana_quiroz : forall S l v, weibull_returns S "CabanaQuirozWeibullGofStatistic" l v ->
  let d1 := transform l (- (1 / 10)) - gamma_of S (11 / 10) in let d2 := transform l (1 / 50) - gamma_of S (49 / 50) in
  exists a b, 1.59 * a + 0.91 * b = d1 /\ 0.91 * a + 0.53 * b = d2 /\ v = len l * (a * d1 + b * d2).
Proof. exact C106_cabana_quiroz_holds. Qed.
Print Assumptions C106_cabana_quiroz.
(** the sums of the Laplace transform classes *)
Theorem C106_laplace_sums : forall Gam a l v, l <> [] -> let term t := exp (a * t - exp (a * t)) * (Gam (1 - t) - transform l t) ^ 2 in
  (lt_execute Gam 100 a "LT2_WEIBULL" l = Ok (Some (Fin v)) -> v = len l * Rsum (map (fun i => term (- (INR i / 100))) (seq 1 100))) /\
  (lt_execute Gam 100 a "LT3_WEIBULL" l = Ok (Some (Fin v)) -> v = len l * Rsum (map (fun i => term (- 2.5 + 2.99 * (INR i / 99))) (seq 0 100))).
Proof. exact C106_laplace_sums_holds. Qed.
Print Assumptions C106_laplace_sums.
(** the Mahdi-Doostparast value is n times the integral of (1 - F_n(x) - F(x))^2 / F(x), so that the distribution function
    is compared with the survivor function of the sample *)
Theorem C107_mahdi_doostparast : forall S l v, proper S -> all_positive l -> l <> [] ->
  weibull_returns S "MahdiDoostparastWeibullGofStatistic" l v -> v = survivor_distance (at_order (law S) l) (List.length l).
Proof. exact C107_mahdi_doostparast_holds. Qed.
Print Assumptions C107_mahdi_doostparast.
Theorem C107_mahdi_doostparast_refuted : forall S n, proper S -> (10 <= n)%nat -> declares "MahdiDoostparastWeibullGofStatistic" RIGHT /\
  exists l v w, List.length l = n /\ all_positive l /\ (forall i, (1 <= i <= n)%nat -> at_order (law S) l i = INR i / (INR n + 1)) /\
    weibull_returns S "MahdiDoostparastWeibullGofStatistic" l v /\ weibull_returns S "MahdiDoostparastWeibullGofStatistic" (repeat 1 n) w /\ w < v.
Proof. exact C107_mahdi_doostparast_refuted_holds. Qed.
Print Assumptions C107_mahdi_doostparast_refuted.
(** Cabana and Quiroz compare the transform of log observations with the gamma function; the class takes the transform of the observations
    themselves.  The value grows with the sample size for every positive sample, and exceeds every critical value from some size on *)
Theorem C107_cabana_quiroz_refuted : forall S c, gamma_of S (11 / 10) < 1 -> declares "CabanaQuirozWeibullGofStatistic" RIGHT /\
  (forall l v, all_positive l -> weibull_returns S "CabanaQuirozWeibullGofStatistic" l v -> len l * (1 - gamma_of S (11 / 10)) ^ 2 / 1.59 <= v) /\
  exists N, forall l v, all_positive l -> (N <= List.length l)%nat -> weibull_returns S "CabanaQuirozWeibullGofStatistic" l v -> c < v.
Proof. exact C107_cabana_quiroz_refuted_holds. Qed.
Print Assumptions C107_cabana_quiroz_refuted.
(** not vacuous: on three different positive observations all of these statistics are finite *)
Example C106_nonvacuous : forall S, proper S -> forall name, In name ["TikuSinghWeibullGofStatistic"; "MSFWeibullGofStatistic"; "LOSWeibullGofStatistic"; "SbWeibullGofStatistic"; "SBWeibullGofStatistic";
    "OKWeibullGofStatistic"; "REJGWeibullGofStatistic"; "RSBWeibullGofStatistic"; "Chi2PearsonWeibullGofStatistic"; "KullbackLeiblerWeibullGofStatistic"; "LiaoShimokawaWeibullGofStatistic"; "CabanaQuirozWeibullGofStatistic";
    "MahdiDoostparastWeibullGofStatistic"] -> exists v, weibull_returns S name [1; 2; 3] v.
Proof. exact C106_nonvacuous_holds. Qed.
Example C107_nonvacuous : proper (Setting (fun _ lo _ => lo) (fun _ => 1 / 2) (fun _ => Raise ValueError) (WeibullArgs 1 5 TWO_TAILED)) /\
  gamma_of (Setting (fun _ lo _ => lo) (fun _ => 1 / 2) (fun _ => Raise ValueError) (WeibullArgs 1 5 TWO_TAILED)) (11 / 10) < 1.
Proof. exact C107_nonvacuous_holds. Qed.
