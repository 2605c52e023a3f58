(** Properties C47, C48, C54, C61, C63, C64, C66, C67, C68 and C85 for the log-normal statistics. *)
From Coq Require Import String.
From Coquelicot Require Import Coquelicot.
From Verif Require Import Base DecModel EdfModel EdfSpec GraphModel RegistryModel NormalLaw ExpModel ExpSpec NormModel NormSpec NormRangeSpec LognormModel LognormSpec DecProofs EdfProofs EdfRotProofs ExpProofs ExpRangeProofs NormProofs NormSymProofs NormAffProofs NormReflProofs NormRangeProofs NormFiniteProofs NormBoundProofs LognormProofs LognormIntProofs EdfClaims ExpClaims NormClaims NormRangeClaims LognormClaims.
From Coq Require Import Lra Lia.
Local Open Scope string_scope.
Local Open Scope R_scope.

(** *** C68 *)
(** every class of normal.py (except the fully specified Kolmogorov-Smirnov and Cramer-von Mises ones and the
    Brys-Hubert-Struyf one) has a log-normal counterpart with the value of the standardised logarithms, and the value
    infinity if some observation is not positive *)
Theorem C68_derived_statistics : forall s scale alt name f, 0 < scale ->
  In (name, f) (normality_statistics norm_defaults) -> ~ In name simple_normal ->
  exists name' g, log_named name name' /\ In (name', g) (lognormal_statistics s scale alt) /\
    forall l, (all_positive l -> nvalue (g l) = nvalue (f (standardised_logs s scale l))) /\
              ((exists x, In x l /\ x <= 0) -> nvalue (g l) = Ok (Some NonFinite)).
Proof. exact C68_derived_statistics_holds. Qed.
Print Assumptions C68_derived_statistics.
(** the table contains every log-normal class of the registry *)
Theorem C68_complete : forall s scale alt c, In c stat_classes -> sc_dist c = LOG_NORMAL ->
  In (sc_name c) (map fst (lognormal_statistics s scale alt)).
Proof. exact C68_complete_holds. Qed.
Print Assumptions C68_complete.
(** the explicit Kolmogorov-Smirnov and Cramer-von Mises classes agree with the normal ones on positive data *)
Theorem C68_explicit_statistics : forall s scale l, 0 < s -> 0 < scale -> all_positive l ->
  (forall alt, ks_lognorm s scale alt l = ks_norm 0 1 alt (standardised_logs s scale l)) /\
  cvm_lognorm s scale l = cvm_norm (standardised_logs s scale l).
Proof. exact C68_explicit_statistics_holds. Qed.
Print Assumptions C68_explicit_statistics.
(** a log-normal sample stays log-normal under x -> c * x ^ b: the tests of lognormality do not notice *)
Theorem C68_unit_and_exponent_free : forall s scale alt name g c b l, 0 < s -> 0 < scale -> 0 < c -> 0 < b -> all_positive l ->
  In (name, g) (lognormal_statistics s scale alt) -> ~ In name simple_lognormal -> kl_sigma_hat l <> 0 ->
  nvalue (g (power_change c b l)) = nvalue (g l).
Proof. exact C68_unit_and_exponent_free_holds. Qed.
Print Assumptions C68_unit_and_exponent_free.
(** so the parameters of the hypothesis do not matter *)
Theorem C68_parameters_irrelevant : forall s scale s' scale' alt name g l, 0 < s -> 0 < scale -> 0 < s' -> 0 < scale' -> all_positive l ->
  In (name, g) (lognormal_statistics s scale alt) -> ~ In name simple_lognormal ->
  exists g', In (name, g') (lognormal_statistics s' scale' alt) /\ nvalue (g' l) = nvalue (g l).
Proof. exact C68_parameters_irrelevant_holds. Qed.
Print Assumptions C68_parameters_irrelevant.
(** reciprocals of log-normal observations are log-normal *)
Theorem C68_reciprocal : forall s scale alt name g l, 0 < s -> 0 < scale -> all_positive l ->
  In (name, g) (lognormal_statistics s scale alt) -> ~ In name simple_lognormal -> ~ In name directed_lognormal -> kl_sigma_hat l <> 0 ->
  nvalue (g (map Rinv l)) = nvalue (g l).
Proof. exact C68_reciprocal_holds. Qed.
Print Assumptions C68_reciprocal.
(** *** C47, C48, C66 *)
Theorem C47_lognormal : forall s scale l, 0 < s -> 0 < scale -> l <> [] ->
  exists d, ks_lognorm s scale TWO_TAILED l = Ok (Some (Fin d)) /\ supremum (fun x => Rabs (edf l x - lognorm_cdf s scale x)) d.
Proof. exact C47_lognormal_holds. Qed.
Print Assumptions C47_lognormal.
Theorem C48_lognormal : forall s scale l, 0 < s -> 0 < scale -> l <> [] ->
  (exists d, ks_lognorm s scale TWO_TAILED l = Ok (Some (Fin d)) /\ 1 / (2 * len l) <= d <= 1) /\
  (exists w, cvm_lognorm s scale l = Ok (Some (Fin w)) /\ 1 / (12 * len l) <= w <= len l / 3).
Proof. exact C48_lognormal_holds. Qed.
Print Assumptions C48_lognormal.
Theorem C66_lognormal_quesenberry_miller : forall s scale l,
  exists q, qm_lognorm s scale l = Ok (Some (Fin q)) /\ 1 / (len l + 1) <= q <= 1.
Proof. exact C66_lognormal_quesenberry_miller_holds. Qed.
Print Assumptions C66_lognormal_quesenberry_miller.
(** *** C54 and C64 *)
Theorem C54_lognormal : forall s scale alt name g l l', In (name, g) (lognormal_statistics s scale alt) ->
  Permutation l l' -> nvalue (g l) = nvalue (g l').
Proof. exact C54_lognormal_holds. Qed.
Print Assumptions C54_lognormal.
(** even the classes derived from the ones that sort the caller's array leave it alone *)
Theorem C64_lognormal : forall s scale alt name g l, In (name, g) (lognormal_statistics s scale alt) -> nsample_after (g l) = l.
Proof. exact C64_lognormal_holds. Qed.
Print Assumptions C64_lognormal.
(** *** C61 *)
Theorem C61_lognormal : forall s scale c b l, 0 < s -> 0 < scale -> 0 < c -> 0 < b ->
  all_positive l -> let s' := b * s in let scale' := c * Rpower scale b in let l' := power_change c b l in
  (forall alt, ks_lognorm s' scale' alt l' = ks_lognorm s scale alt l) /\ cvm_lognorm s' scale' l' = cvm_lognorm s scale l /\
  qm_lognorm s' scale' l' = qm_lognorm s scale l.
Proof. exact C61_lognormal_holds. Qed.
Print Assumptions C61_lognormal.
(** *** C63 *)
Theorem C63_lognormal : forall s scale alt name g l, 0 < s -> 0 < scale -> In (name, g) (lognormal_statistics s scale alt) ->
  ~ In name conditional_lognormal -> (10 <= length l)%nat -> NoDup l -> all_positive l -> exists v, nvalue (g l) = Ok (Some (Fin v)).
Proof. exact C63_lognormal_holds. Qed.
Print Assumptions C63_lognormal.
(** *** C67 *)
Theorem C67_lognormal_constructor : forall s scale, (exists p, lognormal_ctor s scale = Ok p) <-> 0 < s /\ 0 < scale.
Proof. exact C67_lognormal_constructor_holds. Qed.
Print Assumptions C67_lognormal_constructor.
Theorem C67_lognormal_constructor_raises : forall s scale, lognormal_ctor s scale = Raise ValueError <-> s <= 0 \/ scale <= 0.
Proof. exact C67_lognormal_constructor_raises_holds. Qed.
Print Assumptions C67_lognormal_constructor_raises.
(** *** C85 *)
Theorem C85_levels : forall n alpha,
  (kl_sup_critical n alpha = Raise ValueError <-> alpha < 0.001 \/ 0.1 < alpha) /\
  (kl_int_critical n alpha = Raise ValueError <-> alpha < 0.001 \/ 0.1 < alpha).
Proof. exact C85_levels_holds. Qed.
Print Assumptions C85_levels.
(** both statistics are non-negative *)
Theorem C85_nonnegative : forall l v, kl_sup l = Ok (Some (Fin v)) \/ kl_int l = Ok (Some (Fin v)) -> 0 <= v.
Proof. exact C85_nonnegative_holds. Qed.
Print Assumptions C85_nonnegative.
(** the tabulated levels 0.05 and 0.01 of the supremum test have positive critical values *)
Theorem C85_supremum_tabulated : forall n, (2 <= n -> exists c, kl_sup_critical n 0.05 = Ok c /\ 0 < c) /\
  (3 <= n -> exists c, kl_sup_critical n 0.01 = Ok c /\ 0 < c).
Proof. exact C85_supremum_tabulated_holds. Qed.
Print Assumptions C85_supremum_tabulated.
(** for every other level the critical value of the supremum test is negative, so every sample is rejected *)
Theorem C85_supremum_always_rejects_refuted : forall n alpha, 1 <= n -> 0.001 <= alpha <= 0.1 -> alpha <> 0.05 -> alpha <> 0.01 ->
  exists c, kl_sup_critical n alpha = Ok c /\ forall l v, kl_sup l = Ok (Some (Fin v)) -> c < v.
Proof. exact C85_supremum_always_rejects_refuted_holds. Qed.
Print Assumptions C85_supremum_always_rejects_refuted.
(** not vacuous: two different positive observations have a finite value *)
Example C85_nonvacuous : exists v w, kl_sup [1; exp 1] = Ok (Some (Fin v)) /\ kl_int [1; exp 1] = Ok (Some (Fin w)).
Proof. exact C85_nonvacuous_holds. Qed.
(** not vacuous: a sample whose standardised logarithms are 0, 1, 2 *)
Example C68_nonvacuous : all_positive [3; 3 * exp 2; 3 * exp 4] /\ standardised_logs 2 3 [3; 3 * exp 2; 3 * exp 4] = [0; 1; 2].
Proof. exact C68_nonvacuous_holds. Qed.
