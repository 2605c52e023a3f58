(** C105: the form of the remaining normality statistics. *)
From Coq Require Import String.
From Verif Require Import Base DecModel EdfModel GraphModel RegistryModel NormalLaw ExpModel NormModel NormRangeSpec NormFormSpec DetailSpec NormMoreSpec EdfProofs EdfRotProofs NormProofs NormFiniteProofs NormClaims NormRangeClaims NormMoreProofs NormMoreClaims.
From Coq Require Import Lra Lia.
Local Open Scope string_scope.
Local Open Scope R_scope.

(** correlations of the order statistics with normal quantiles *)
Theorem C105_correlations : forall l v, let n := List.length l in let x := rsort l in
  (filli_norm l = Ok (Some (Fin v)) -> v = correlation x (map (fun i => norm_ppf (filliben_median n i)) (seq 1 n))) /\
  (lg_norm l = Ok (Some (Fin v)) -> v = correlation x (map (blom n) (seq 0 n))) /\
  (forall alpha, rj_norm false alpha l = Ok (Some (Fin v)) -> v = correlation x (map (fun i => norm_ppf (position alpha n i)) (seq 1 n))) /\
  (forall alpha, rj_norm true alpha l = Ok (Some (Fin v)) -> v = correlation x (map (fun z => norm_ppf (shared_position alpha l z)) x)).
Proof. exact C105_correlations_holds. Qed.
Print Assumptions C105_correlations.
(** squared correlations *)
Theorem C105_squared_correlations : forall l v, let n := List.length l in let x := rsort l in
  (sf_norm l = Ok (Some (Fin v)) -> v = correlation x (map (blom n) (seq 0 n)) ^ 2) /\
  (swrg l = Ok (Some (Fin v)) -> v = correlation x (map (rg_weight n) (seq 1 n)) ^ 2).
Proof. exact C105_squared_correlations_holds. Qed.
Print Assumptions C105_squared_correlations.
(** sums of squares of a transformed skewness and a transformed kurtosis *)
Theorem C105_dagostino_pearson : forall l v, dap_norm l = Ok (Some (Fin v)) ->
  exists s k, skew_norm l = Ok (Some (Fin s)) /\ kurtosis_norm l = Ok (Some (Fin k)) /\ v = s ^ 2 + k ^ 2.
Proof. exact C105_dagostino_pearson_holds. Qed.
Print Assumptions C105_dagostino_pearson.
Theorem C105_doornik_hansen : forall l v, dh l = Ok (Some (Fin v)) -> let n := len l in let b1 := sample_skewness l in
  let alpha := hansen_alpha n (b1 ^ 2) in
  exists c, 0 <= c /\ c ^ 3 = hansen_chi n (b1 ^ 2) (sample_kurtosis l) / (2 * alpha) /\
    v = dagostino n (skewness_score n b1) ^ 2 + ((c - 1 + 1 / (9 * alpha)) * sqrt (9 * alpha)) ^ 2.
Proof. exact C105_doornik_hansen_holds. Qed.
Print Assumptions C105_doornik_hansen.
(** range and mean deviation, combined by their powers; from 150 observations on, n! is replaced by Stirling's formula *)
Theorem C105_spiegelhalter : forall l hi lo v, sh l = Ok (Some (Fin v)) -> In hi l -> In lo l -> (forall x, In x l -> lo <= x <= hi) ->
  let n := List.length l in let s := sample_sd l in
  let c := spiegelhalter_scale n (if (n <? 150)%nat then INR (fact n) else stirling n) in
  let u := (hi - lo) / s in let g := Rsum (map (fun x => Rabs (x - mean l)) l) / (s * sqrt (INR n * (INR n - 1))) in
  v = Rpower (/ (c * u) ^ (n - 1) + / g ^ (n - 1)) (1 / (INR n - 1)).
Proof. exact C105_spiegelhalter_holds. Qed.
Print Assumptions C105_spiegelhalter.
(** the Martinez-Iglewicz statistic, without the restriction of the sums to the observations near the median: it is the
    published one if no observation is nine or more median absolute deviations away from the median *)
Theorem C105_martinez_iglewicz_partial : forall l v, mi l = Ok (Some (Fin v)) ->
  v = biweight_ratio (len l) (middle l) (nine_mad l) l l /\
  ((forall x, In x l -> Rabs (x - middle l) < nine_mad l) -> v = martinez_iglewicz l).
Proof. exact C105_martinez_iglewicz_partial_holds. Qed.
Print Assumptions C105_martinez_iglewicz_partial.
Theorem C105_martinez_iglewicz_refuted : exists l v, mi l = Ok (Some (Fin v)) /\ v < 2 /\ 2000 < martinez_iglewicz l.
Proof. exact C105_martinez_iglewicz_refuted_holds. Qed.
Print Assumptions C105_martinez_iglewicz_refuted.
(** moving one observation away, however far, does not increase the statistic beyond any limit: it tends to
    25 / (n (n - 1)), which lies below 1 for six and more observations.  The declared alternative is RIGHT, so with any
    larger critical value the hypothesis is accepted for every gross outlier *)
Theorem C105_gross_outlier : forall l eps, (3 <= List.length l)%nat -> NoDup l -> 0 < eps ->
  exists K, forall x, K < x -> exists v, mi (x :: l) = Ok (Some (Fin v)) /\
    Rabs (v - 25 / (INR (List.length l + 1) * INR (List.length l))) < eps.
Proof. exact C105_gross_outlier_holds. Qed.
Print Assumptions C105_gross_outlier.
Theorem C105_gross_outlier_refuted : forall l c, (3 <= List.length l)%nat -> NoDup l ->
  25 / (INR (List.length l + 1) * INR (List.length l)) < c ->
  (forall c0, In c0 stat_classes -> sc_name c0 = "MartinezIglewiczNormalityGofStatistic" -> sc_alt c0 = Fixed RIGHT) /\
  exists K, forall x, K < x -> exists v, mi (x :: l) = Ok (Some (Fin v)) /\ v < c.
Proof. exact C105_gross_outlier_refuted_holds. Qed.
Print Assumptions C105_gross_outlier_refuted.
(** not vacuous: on ten different values all of these statistics are finite, except possibly D'Agostino-Pearson *)
Example C105_nonvacuous : forall l, (10 <= List.length l)%nat -> NoDup l ->
  forall f, In f [filli_norm; lg_norm; rj_norm false 0.5; sf_norm; swrg; dh; sh; mi] -> exists v, f l = Ok (Some (Fin v)).
Proof. exact C105_nonvacuous_holds. Qed.
