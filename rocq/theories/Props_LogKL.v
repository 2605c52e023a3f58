(** The Kullback-Leibler tests of lognormality *)
From Coquelicot Require Import Coquelicot.
From Verif Require Import Base EdfModel GraphModel NormalLaw ExpModel NormModel LognormModel LognormSpec LogKLSpec EdfProofs ExpProofs ExpRangeProofs NormProofs LognormProofs LognormIntProofs LogKLProofs NormFiniteProofs LogKL2Proofs LogKLClaims.
From Coq Require Import Lra Lia.


(** the function D of the code is the difference of the two divergences between the sample and its tilt *)
Theorem C112_asymmetry : forall y r, all_positive y -> y <> [] -> / 10 ^ 8 <= Rabs r -> kl_d y r = asymmetry y r.
Proof. exact C112_asymmetry_holds. Qed.
Print Assumptions C112_asymmetry.
(** for standard lognormal Y the moments are the ones below and the asymmetry is 0; one observation e^z added with weight t
    changes it by infl z * t, whose mean is 0 and whose variance is the squared divisor of the code *)
Theorem C112_variance : forall r,
  normal_mean (fun z => exp (r * z)) (moment_m r) /\ normal_mean (fun z => z) 0 /\ normal_mean (fun z => exp (r * z) * z) (moment_k r) /\
  asymmetry_of_moments r (moment_m r) 0 (moment_k r) = 0 /\
  exists infl, (forall z, is_derive (contaminated r z) 0 (infl z)) /\ normal_mean infl 0 /\
    normal_mean (fun z => infl z ^ 2) (limit_variance r) /\ (1 / 300 <= Rabs r -> kl_sigma r = sqrt (limit_variance r)).
Proof. exact C112_variance_holds. Qed.
Print Assumptions C112_variance.
(** the variance is positive, of order r^6/6 *)
Theorem C112_variance_bounds : forall r, r ^ 6 / 6 <= limit_variance r <= exp (2 * r ^ 2) * (r ^ 6 / 6).
Proof. exact C112_variance_bounds_holds. Qed.
Print Assumptions C112_variance_bounds.
(** the supremum statistic uses all 1000 powers, none of the special cases of the code applies *)
Theorem C112_supremum : forall l, all_positive l -> log_sd l <> 0 ->
  kl_sup l = Ok (Some (Fin (sqrt (len l) * Rmaxl 0 (map (fun r => Rabs (standardised_asymmetry (scaled_sample l) r)) powers)))).
Proof. exact C112_supremum_holds. Qed.
Print Assumptions C112_supremum.
(** so does the integral statistic outside the interval from -1/300 to 1/300 *)
Theorem C112_integral : forall l, all_positive l -> log_sd l <> 0 ->
  let f r := standardised_asymmetry (scaled_sample l) r ^ 2 in
  exists rest, 0 <= rest /\ kl_int l = Ok (Some (Fin (len l * (RInt f (-5) (- (1 / 300)) + rest + RInt f (1 / 300) 5)))).
Proof. exact C112_integral_holds. Qed.
Print Assumptions C112_integral.
(** near 0 the asymmetry is c r^3 / 6, where c is minus the third central moment of the logarithms, and the square of the
    standardised asymmetry tends to c^2 / 6 *)
Theorem C112_expansion : forall y, all_positive y -> y <> [] -> let c := - third_central (map ln y) in
  is_lim (fun r => asymmetry y r / r ^ 3) 0 (c / 6) /\ is_lim (fun r => standardised_asymmetry y r ^ 2) 0 (c ^ 2 / 6).
Proof. exact C112_expansion_holds. Qed.
Print Assumptions C112_expansion.
(** the code uses the coefficient sqrt 6 c / 6 instead of c / 6 ... *)
Theorem C112_small_power_refuted : forall y r, all_positive y -> y <> [] -> 0 < Rabs r < / 10 ^ 8 -> let c := - third_central (map ln y) in
  kl_d y r = sqrt 6 * (c / 6) * r ^ 3 /\ (c <> 0 -> kl_d y r / r ^ 3 <> c / 6).
Proof. exact C112_small_power_refuted_holds. Qed.
Print Assumptions C112_small_power_refuted.
(** ... and continues the integrand at 0 by c^2 / 36 instead of c^2 / 6 ... *)
Theorem C112_integrand_at_zero_refuted : forall y, all_positive y -> y <> [] -> let c := - third_central (map ln y) in
  kl_integrand y 0 = c ^ 2 / 36 /\ (c <> 0 -> kl_integrand y 0 <> c ^ 2 / 6).
Proof. exact C112_integrand_at_zero_refuted_holds. Qed.
Print Assumptions C112_integrand_at_zero_refuted.
(** ... and replaces the standard deviation by 1e-8 where it is smaller, which happens far above the bound 1e-8 for the power *)
Theorem C112_divisor_refuted : kl_sigma (1 / 1000) = / 10 ^ 8 /\ 20 * sqrt (limit_variance (1 / 1000)) < / 10 ^ 8.
Proof. exact C112_divisor_refuted_holds. Qed.
Print Assumptions C112_divisor_refuted.
(** non-vacuity: a sample whose logarithms are skewed *)
Example C112_nonvacuous : all_positive [1; 1; exp 1] /\ log_sd [1; 1; exp 1] <> 0 /\ third_central (map ln [1; 1; exp 1]) <> 0.
Proof. exact C112_nonvacuous_holds. Qed.
