(** Property C116: the helpers of core/distributions agree with each other; Tukey's law for C78. *)
From Coquelicot Require Import Coquelicot.
From Verif Require Import Base SamplerModel SamplerSpec SamplerClaims DistFnModel DistFnSpec DistFnClaims.
From Coq Require Import Lra Lia.


(** [central_moment] is the moment about the sample mean; [moment] with a given centre is the moment about
    it, so centre 0 gives the raw moment *)
Theorem C116_moments : forall l k c, l <> [] ->
  central_moment l k = Fin (moment_about (raw_moment l 1) l k) /\
  moment l k (Some c) = Fin (moment_about c l k) /\ moment l k (Some 0) = Fin (raw_moment l k).
Proof. exact C116_moments_holds. Qed.
Print Assumptions C116_moments.
(** the documented raw moment (no centre given) is a central moment for every sample and order, so it is
    wrong as soon as the mean is not zero: order 1 always gives 0 *)
Theorem C116_raw_moment_is_central : forall l k, moment l k None = central_moment l k.
Proof. exact C116_raw_moment_is_central_holds. Qed.
Print Assumptions C116_raw_moment_is_central.
Theorem C116_raw_moment_refuted : (forall l, l <> [] -> moment l 1 None = Fin 0) /\
  exists l, l <> [] /\ moment l 1 None <> Fin (raw_moment l 1).
Proof. exact C116_raw_moment_refuted_holds. Qed.
Print Assumptions C116_raw_moment_refuted.
Theorem C116_central_from_raw : forall l k, l <> [] ->
  central_moment l 0 = Fin 1 /\ central_moment l 1 = Fin 0 /\
  central_moment l 2 = Fin (raw_moment l 2 - raw_moment l 1 ^ 2) /\
  central_moment l k = Fin (sum_f_R0 (fun i => Binomial.C k i * raw_moment l i * (- raw_moment l 1) ^ (k - i)) k).
Proof. exact C116_central_from_raw_holds. Qed.
Print Assumptions C116_central_from_raw.
(** shift, scale, reflection: a central moment ignores shifts, is multiplied by s^k, and vanishes for odd
    orders on symmetric samples *)
Theorem C116_central_location_scale : forall l k a s, l <> [] -> forall v, central_moment l k = Fin v ->
  central_moment (map (fun x => a + s * x) l) k = Fin (s ^ k * v).
Proof. exact C116_central_location_scale_holds. Qed.
Print Assumptions C116_central_location_scale.
Theorem C116_central_symmetric : forall l k c, l <> [] -> symmetric_about c l ->
  raw_moment l 1 = c /\ central_moment l (2 * k + 1) = Fin 0.
Proof. exact C116_central_symmetric_holds. Qed.
Print Assumptions C116_central_symmetric.
(** even orders are not negative, and the fourth moment is at least the squared second: kurtosis is at least 1 *)
Theorem C116_central_even : forall l k v, l <> [] -> central_moment l (2 * k) = Fin v ->
  0 <= v /\ ((0 < k)%nat -> (v = 0 <-> forall x y, In x l -> In y l -> x = y)).
Proof. exact C116_central_even_holds. Qed.
Print Assumptions C116_central_even.
Theorem C116_kurtosis : forall l v2 v4, l <> [] -> central_moment l 2 = Fin v2 -> central_moment l 4 = Fin v4 ->
  v2 ^ 2 <= v4.
Proof. exact C116_kurtosis_holds. Qed.
Print Assumptions C116_kurtosis.
(** an empty sample has no moments *)
Theorem C116_empty : forall k c, moment [] k c = NonFinite /\ central_moment [] k = NonFinite.
Proof. exact C116_empty_holds. Qed.
Print Assumptions C116_empty.
(** the density of the normal law is the derivative of its distribution function *)
Theorem C116_normal_density : forall Phi mean var x, standard_normal Phi -> 0 < var ->
  is_derive (cdf_norm Phi mean var) x (pdf_norm mean var x).
Proof. exact C116_normal_density_holds. Qed.
Print Assumptions C116_normal_density.
Theorem C116_normal_area : forall Phi mean var a b, standard_normal Phi -> 0 < var ->
  is_RInt (pdf_norm mean var) a b (cdf_norm Phi mean var b - cdf_norm Phi mean var a).
Proof. exact C116_normal_area_holds. Qed.
Print Assumptions C116_normal_area.
Theorem C116_normal_shape : forall mean var x y, 0 < var ->
  pdf_norm mean var x = exp (- (x - mean) ^ 2 / (2 * var)) / sqrt (2 * PI * var) /\
  0 < pdf_norm mean var x /\ pdf_norm mean var (2 * mean - x) = pdf_norm mean var x /\
  (Rabs (x - mean) < Rabs (y - mean) -> pdf_norm mean var y < pdf_norm mean var x).
Proof. exact C116_normal_shape_holds. Qed.
Print Assumptions C116_normal_shape.
Example C116_nonvacuous_normal : exists Phi, standard_normal Phi /\ Phi 0 = 1 / 2.
Proof. exact C116_nonvacuous_normal_holds. Qed.
Theorem C116_weibull_logs : forall a k x, 0 < a -> 0 < x ->
  exists c s, generate_weibull_logcdf a k x = Fin c /\ generate_weibull_logsf a k x = Fin s /\
    exp c = generate_weibull_cdf a k x /\ exp s = 1 - generate_weibull_cdf a k x /\ c < 0 /\ s < 0 /\ exp c + exp s = 1.
Proof. exact C116_weibull_logs_holds. Qed.
Print Assumptions C116_weibull_logs.
(** explicit values: the logarithm of the distribution function is a ln(1 - exp(-x^k)); for a = 1 that of
    the survival function is -x^k *)
Theorem C116_weibull_closed_form : forall a k x, 0 < a -> 0 < x ->
  generate_weibull_logcdf a k x = Fin (a * ln (1 - exp (- Rpower x k))) /\
  generate_weibull_logsf 1 k x = Fin (- Rpower x k).
Proof. exact C116_weibull_closed_form_holds. Qed.
Print Assumptions C116_weibull_closed_form.
Theorem C116_weibull_outside : forall a k x, x <= 0 ->
  generate_weibull_logcdf a k x = NonFinite /\ generate_weibull_logsf a k x = Fin 0.
Proof. exact C116_weibull_outside_holds. Qed.
Print Assumptions C116_weibull_outside.
Theorem C78_tukey_symmetric : forall lam u, 0 < u < 1 -> generate_tukey lam (1 - u) = - generate_tukey lam u.
Proof. exact C78_tukey_symmetric_holds. Qed.
Print Assumptions C78_tukey_symmetric.
Theorem C78_tukey_bounded : forall lam, 0 < lam -> within_range (generate_tukey lam) (1 / lam).
Proof. exact C78_tukey_bounded_holds. Qed.
Print Assumptions C78_tukey_bounded.
Theorem C78_tukey_unbounded : forall lam, lam <= 0 -> unbounded_above (generate_tukey lam).
Proof. exact C78_tukey_unbounded_holds. Qed.
Print Assumptions C78_tukey_unbounded.
Theorem C78_tukey_special : follows (generate_tukey 0) (logistic_law 0 1) /\
  follows (generate_tukey 1) (uniform_law (-1) 1) /\ follows (generate_tukey 2) (uniform_law (- (1 / 2)) (1 / 2)).
Proof. exact C78_tukey_special_holds. Qed.
Print Assumptions C78_tukey_special.
(** beta, chi-square and Student samplers pass their parameters on unchanged *)
Theorem C78_unscaled : forall qb qc qt a b df F G H, follows (qb a b) F -> follows (qc df) G -> follows (qt df) H ->
  follows (generate_beta qb a b) F /\ follows (generate_chi2 qc df) G /\ follows (generate_t qt df) H.
Proof. exact C78_unscaled_holds. Qed.
Print Assumptions C78_unscaled.
Example C116_nonvacuous : central_moment [1; 2; 6] 2 = Fin (14 / 3) /\ central_moment [1; 2; 6] 3 = Fin 6 /\
  moment [1; 2; 6] 2 (Some 0) = Fin (41 / 3) /\ symmetric_about 2 [1; 2; 3] /\
  generate_weibull_logsf 1 2 1 = Fin (-1).
Proof. exact C116_nonvacuous_holds. Qed.
