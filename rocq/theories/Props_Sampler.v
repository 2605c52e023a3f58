(** Property C78: samples follow the documented law. *)
From Verif Require Import Base SamplerModel SamplerSpec SamplerClaims.
From Coquelicot Require Import Coquelicot.
From Coq Require Import Lra Lia.

(** *** C78 *)
Theorem C78_exponential : forall lam, 0 < lam -> follows (generate_expon lam) (exponential_law lam).
Proof. exact C78_exponential_holds. Qed.
Print Assumptions C78_exponential.
Theorem C78_exponential_cdf : forall lam x, 0 < lam -> cdf_expon lam x = exponential_law lam x.
Proof. exact C78_exponential_cdf_holds. Qed.
Print Assumptions C78_exponential_cdf.
Theorem C78_uniform : forall a b, a < b -> follows (generate_uniform a b) (uniform_law a b).
Proof. exact C78_uniform_holds. Qed.
Print Assumptions C78_uniform.
Theorem C78_cauchy_gumbel_laplace_logistic : forall l s, 0 < s ->
  follows (generate_cauchy l s) (cauchy_law l s) /\ follows (generate_gumbel l s) (gumbel_law l s) /\
  follows (generate_laplace l s) (laplace_law l s) /\ follows (generate_logistic l s) (logistic_law l s).
Proof. exact C78_cauchy_gumbel_laplace_logistic_holds. Qed.
Print Assumptions C78_cauchy_gumbel_laplace_logistic.
Theorem C78_gompertz : forall eta b, 0 < eta -> 0 < b -> follows (generate_gompertz eta b) (gompertz_law eta b).
Proof. exact C78_gompertz_holds. Qed.
Print Assumptions C78_gompertz.
(** normal and log-normal, from any representation of a standard normal variate *)
Theorem C78_normal : forall q Phi mean var, follows q Phi -> 0 < var ->
  follows (generate_norm q mean var) (normal_law Phi mean var) /\
  forall x, cdf_norm Phi mean var x = normal_law Phi mean var x.
Proof. exact C78_normal_holds. Qed.
Print Assumptions C78_normal.
Theorem C78_lognormal : forall q Phi mu s, follows q Phi -> 0 < s ->
  follows (generate_lognorm q mu s) (lognormal_law Phi mu s).
Proof. exact C78_lognormal_holds. Qed.
Print Assumptions C78_lognormal.
(** beta is a rate *)
Theorem C78_gamma : forall qg G alfa beta, follows (qg alfa) (G alfa) -> 0 < beta ->
  follows (generate_gamma qg alfa beta) (gamma_law (G alfa) beta).
Proof. exact C78_gamma_holds. Qed.
Print Assumptions C78_gamma.
(** contaminated normal samples: averaging the conditional law over the selecting number gives the mixture *)
Theorem C78_contaminated_normal : forall q Phi p a b, follows q Phi -> 0 <= p <= 1 -> 0 < b ->
  (exists law : R -> R -> R, (forall v, follows (lo_con_norm_item q p a v) (law v)) /\
     forall x, is_RInt (fun v => law v x) 0 1 (p * normal_law Phi a 1 x + (1 - p) * normal_law Phi 0 1 x)) /\
  (exists law : R -> R -> R, (forall v, follows (mix_con_norm_item q p a b v) (law v)) /\
     forall x, is_RInt (fun v => law v x) 0 1 (p * normal_law Phi a (b ^ 2) x + (1 - p) * normal_law Phi 0 1 x)) /\
  (exists law : R -> R -> R, (forall v, follows (scale_con_norm_item q p b v) (law v)) /\
     forall x, is_RInt (fun v => law v x) 0 1 (p * normal_law Phi 0 (b ^ 2) x + (1 - p) * normal_law Phi 0 1 x)).
Proof. exact C78_contaminated_normal_holds. Qed.
Print Assumptions C78_contaminated_normal.
(** Weibull: the sampler and the cdf of the module agree with each other ... *)
Theorem C78_weibull_exponentiated : forall a k, 0 < a -> 0 < k -> follows (generate_weibull a k) (generate_weibull_cdf a k).
Proof. exact C78_weibull_exponentiated_holds. Qed.
Print Assumptions C78_weibull_exponentiated.
(** ... and are the Weibull law when a = 1 ... *)
Theorem C78_weibull_unit_scale : forall k, 0 < k -> follows (generate_weibull 1 k) (weibull_law 1 k).
Proof. exact C78_weibull_unit_scale_holds. Qed.
Print Assumptions C78_weibull_unit_scale.
(** ... but the parameter documented as scale does not scale the sample *)
Theorem C78_weibull_scale_refuted : ~ follows (generate_weibull 2 1) (weibull_law 2 1).
Proof. exact C78_weibull_scale_refuted_holds. Qed.
Print Assumptions C78_weibull_scale_refuted.
(** truncated normal: the bounds apply to the standardised variable *)
Theorem C78_truncnorm_bounds : forall q Phi mean var a b u, follows q Phi -> normal_like Phi -> 0 < var -> a < b -> 0 < u < 1 ->
  mean + sqrt var * a < generate_truncnorm q Phi mean var a b u <= mean + sqrt var * b.
Proof. exact C78_truncnorm_bounds_holds. Qed.
Print Assumptions C78_truncnorm_bounds.
Theorem C78_truncnorm_refuted : exists mean var a b, 0 < var /\ a < b /\
  forall q Phi, follows q Phi -> normal_like Phi -> forall u, 0 < u < 1 -> ~ (a <= generate_truncnorm q Phi mean var a b u <= b).
Proof. exact C78_truncnorm_refuted_holds. Qed.
Print Assumptions C78_truncnorm_refuted.
(** inverse Gaussian: the parameter documented as mean is multiplied by the other one *)
Theorem C78_inverse_gaussian_mean_refuted : forall q mu lam, 0 < mu -> 0 < lam -> lam <> 1 ->
  is_RInt_gen (q mu) (at_right 0) (at_left 1) mu ->
  is_RInt_gen (generate_invgauss q mu lam) (at_right 0) (at_left 1) (mu * lam) /\ mu * lam <> mu.
Proof. exact C78_inverse_gaussian_mean_refuted_holds. Qed.
Print Assumptions C78_inverse_gaussian_mean_refuted.
(** Rice: the sample is the distance of (sigma nu/sqrt 2 + sigma z1, sigma nu/sqrt 2 + sigma z2) from the origin,
    so the centre is at distance sigma nu, not nu *)
Theorem C78_rice_centre : forall nu sigma z1 z2, 0 < sigma ->
  generate_rice nu sigma z1 z2 = sqrt ((sigma * nu / sqrt 2 + sigma * z1) ^ 2 + (sigma * nu / sqrt 2 + sigma * z2) ^ 2).
Proof. exact C78_rice_centre_holds. Qed.
Print Assumptions C78_rice_centre.
Theorem C78_rice_distance_refuted : exists nu sigma, 0 <= nu /\ 0 < sigma /\ generate_rice nu sigma 0 0 <> nu.
Proof. exact C78_rice_distance_refuted_holds. Qed.
Print Assumptions C78_rice_distance_refuted.
(** a law is determined: two distribution functions followed by the same sampler coincide *)
Theorem C78_law_is_determined : forall Q F G, follows Q F -> follows Q G ->
  (forall x, 0 <= F x <= 1) -> (forall x, 0 <= G x <= 1) -> forall x, F x = G x.
Proof. exact C78_law_is_determined_holds. Qed.
Print Assumptions C78_law_is_determined.
(** the hypotheses on the normal distribution hold, for instance, of the logistic distribution function *)
Example C78_nonvacuous : follows q_logistic (logistic_law 0 1) /\ normal_like (logistic_law 0 1) /\
  generate_uniform 2 6 (1 / 4) = 3.
Proof. exact C78_nonvacuous_holds. Qed.
