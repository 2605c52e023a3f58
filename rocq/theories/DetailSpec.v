(** Published definitions used in the statements of DetailClaims.v. *)
From Verif Require Import Base.
Local Open Scope R_scope.

(** D'Agostino (1970): the skewness of a normal sample of size n is transformed to a standard normal variable by the
    Johnson S_U curve with these parameters *)
Definition dagostino_beta2 (n : R) : R :=
  3 * (n ^ 2 + 27 * n - 70) * (n + 1) * (n + 3) / ((n - 2) * (n + 5) * (n + 7) * (n + 9)).
Definition dagostino_w2 (n : R) : R := sqrt (2 * (dagostino_beta2 n - 1)) - 1.
(** the value for the standardised skewness y *)
Definition dagostino (n y : R) : R :=
  1 / sqrt (ln (sqrt (dagostino_w2 n))) * arcsinh (y / sqrt (2 / (dagostino_w2 n - 1))).
(** the skewness divided by its standard deviation under normality *)
Definition skewness_score (n skewness : R) : R := skewness / sqrt (6 * (n - 2) / ((n + 1) * (n + 3))).

(** Anscombe and Glynn (1983): the same for the kurtosis; mean, variance and skewness of the kurtosis, and the degrees
    of freedom of the chi-squared law with the same skewness *)
Definition kurtosis_score (n kurtosis : R) : R :=
  (kurtosis - 3 * (n - 1) / (n + 1)) / sqrt (24 * n * (n - 2) * (n - 3) / ((n + 1) ^ 2 * (n + 3) * (n + 5))).
Definition kurtosis_skewness (n : R) : R :=
  6 * (n ^ 2 - 5 * n + 2) / ((n + 7) * (n + 9)) * sqrt (6 * (n + 3) * (n + 5) / (n * (n - 2) * (n - 3))).
Definition anscombe_freedom (n : R) : R :=
  6 + 8 / kurtosis_skewness n * (2 / kurtosis_skewness n + sqrt (1 + 4 / kurtosis_skewness n ^ 2)).
