(** Published definitions of the remaining normality statistics. *)
From Verif Require Import Base NormalLaw NormFormSpec DetailSpec.
Local Open Scope R_scope.

(** Pearson's correlation coefficient *)
Definition square_sum (l : list R) : R := Rsum (map (fun x => (x - mean l) ^ 2) l).
Definition correlation (x y : list R) : R :=
  Rsum (map (fun p => (fst p - mean x) * (snd p - mean y)) (combine x y)) / sqrt (square_sum x * square_sum y).
(** Filliben (1975): the medians of the uniform order statistics 1, ..., n *)
Definition filliben_median (n i : nat) : R :=
  if (i =? n)%nat then Rpower (1 / 2) (1 / INR n)
  else if (i =? 1)%nat then 1 - Rpower (1 / 2) (1 / INR n)
  else (INR i - 0.3175) / (INR n + 0.365).
(** plotting positions with parameter alpha; observations of the same value share the average of their positions *)
Definition position (alpha : R) (n i : nat) : R := (INR i - alpha) / (INR n + 1 - 2 * alpha).
Definition shared_position (alpha : R) (l : list R) (v : R) : R :=
  mean (map (position alpha (length l)) (filter (fun i => Reqb (nth (i - 1) (rsort l) 0) v) (seq 1 (length l)))).
(** Rahman and Govindarajulu (1997): second differences of m phi(m) at the quantiles m of i / (n + 1) *)
Definition rg_quantile (n i : nat) : R := norm_ppf (INR i / INR (n + 1)).
Definition rg_product (n i : nat) : R :=
  if ((1 <=? i) && (i <=? n))%nat then rg_quantile n i * norm_pdf (rg_quantile n i) else 0.
Definition rg_weight (n i : nat) : R :=
  - INR (n + 1) * INR (n + 2) * norm_pdf (rg_quantile n i) * (rg_product n (i - 1) - 2 * rg_product n i + rg_product n (i + 1)).

(** Doornik and Hansen (1994): the transformation of the kurtosis given the skewness *)
Definition hansen_delta (n : R) : R := (n - 3) * (n + 1) * (n ^ 2 + 15 * n - 4).
Definition hansen_alpha (n b1 : R) : R :=
  (n - 2) * (n + 5) * (n + 7) * (n ^ 2 + 27 * n - 70) / (6 * hansen_delta n)
  + b1 * ((n - 7) * (n + 5) * (n + 7) * (n ^ 2 + 2 * n - 5) / (6 * hansen_delta n)).
Definition hansen_chi (n b1 b2 : R) : R :=
  (b2 - 1 - b1) * (2 * ((n + 5) * (n + 7) * (n ^ 3 + 37 * n ^ 2 + 11 * n - 313) / (12 * hansen_delta n))).

(** Spiegelhalter (1977) *)
Definition spiegelhalter_scale (n : nat) (factorial : R) : R := Rpower factorial (1 / (INR n - 1)) / (2 * INR n).
Definition stirling (n : nat) : R := sqrt (2 * PI * INR n) * Rpower (INR n / exp 1) (INR n).

(** Martinez and Iglewicz (1981): the variance around the median, relative to the biweight midvariance, in which
    only observations less than nine median absolute deviations away from the median take part *)
Definition middle (l : list R) : R :=
  (nth ((length l - 1) / 2) (rsort l) 0 + nth (length l / 2) (rsort l) 0) / 2.
Definition nine_mad (l : list R) : R := 9 * middle (map (fun x => Rabs (x - middle l)) l).
Definition biweight_ratio (n m a : R) (all inside : list R) : R :=
  Rsum (map (fun x => (x - m) ^ 2) all) / (n - 1)
  * Rsum (map (fun x => (1 - ((x - m) / a) ^ 2) * (1 - 5 * ((x - m) / a) ^ 2)) inside) ^ 2
  / (n * Rsum (map (fun x => (x - m) ^ 2 * (1 - ((x - m) / a) ^ 2) ^ 4) inside)).
Definition martinez_iglewicz (l : list R) : R :=
  biweight_ratio (len l) (middle l) (nine_mad l) l (filter (fun x => Rltb (Rabs ((x - middle l) / nine_mad l)) 1) l).
