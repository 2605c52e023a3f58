(** Further details of C42, C68, C85, C95, C96 and C100: constants, name rules and refusals. *)
From Coq Require Import String.
From Verif Require Import Base Analysis DecModel EdfModel GraphModel RegistryModel NormalLaw ExpModel NormModel NormRangeSpec NormFormSpec LognormModel LognormSpec UniformModel UniformSpec DetailSpec EdfProofs ExpProofs NormProofs NormRangeProofs NormFiniteProofs NormBoundProofs NormFormProofs NormDist2Proofs NormClaims NormTestProofs UniformProofs LognormProofs LognormClaims DetailClaims.
From Coq Require Import Lra Lia.
Local Open Scope string_scope.
Local Open Scope R_scope.

(** ** C42 *)
(** the code of a graph class: the code of its family after the word GRAPH *)
Theorem C42_graph_codes : forall c, In c stat_classes -> (exists s, sc_name c = "Graph" ++ s) ->
  exists family, In (sc_dist c, family) [(NORMAL, "NORMALITY"); (EXPONENTIAL, "EXPONENTIALITY"); (GAMMA, "GAMMA")] /\
    sc_code c = sc_short c ++ "_GRAPH_" ++ family ++ "_GOODNESS_OF_FIT".
Proof. exact C42_graph_codes_holds. Qed.
Print Assumptions C42_graph_codes.
(** ** C68 *)
(** every entry of the table is a log-normal class, and the rule which classes of normal.py are derived is the one
    of the registry: no class with an explicit implementation, no abstract class and no graph class *)
Theorem C68_sound : forall s scale alt name g, In (name, g) (lognormal_statistics s scale alt) ->
  exists c, In c stat_classes /\ sc_name c = name /\ sc_dist c = LOG_NORMAL.
Proof. exact C68_sound_holds. Qed.
Print Assumptions C68_sound.
Theorem C68_derivation_rule : forall c, In c stat_classes -> sc_dist c = NORMAL ->
  (derivable_name (sc_name c) = true <-> ~ (exists s, sc_name c = "Graph" ++ s) /\
    ~ In (sc_name c) ["KolmogorovSmirnovNormalityGofStatistic"; "CramerVonMiseNormalityGofStatistic"; "QuesenberryMillerNormalityGofStatistic"; "BHSNormalityGofStatistic"]).
Proof. exact C68_derivation_rule_holds. Qed.
Print Assumptions C68_derivation_rule.
(** the supremum test is stricter at the level 0.01 than at 0.05 for six and more observations... *)
Theorem C85_supremum_levels_ordered_partial : forall n c5 c1, 6 <= n ->
  kl_sup_critical n 0.05 = Ok c5 -> kl_sup_critical n 0.01 = Ok c1 -> c5 < c1.
Proof. exact C85_supremum_levels_ordered_partial_holds. Qed.
Print Assumptions C85_supremum_levels_ordered_partial.
(** ... but not for four: samples are rejected at 0.01 which are accepted at 0.05 *)
Theorem C85_supremum_levels_ordered_refuted : exists c5 c1, kl_sup_critical 4 0.05 = Ok c5 /\ kl_sup_critical 4 0.01 = Ok c1 /\ c1 < c5.
Proof. exact C85_supremum_levels_ordered_refuted_holds. Qed.
Print Assumptions C85_supremum_levels_ordered_refuted.
Theorem C85_integral_tabulated : forall n, 4 <= n -> n <= exp 19 -> exists c, kl_int_critical n 0.05 = Ok c /\ 0 < c.
Proof. exact C85_integral_tabulated_holds. Qed.
Print Assumptions C85_integral_tabulated.
Theorem C85_integral_always_rejects_refuted : forall n, 1 <= n <= 3 ->
  exists c, kl_int_critical n 0.05 = Ok c /\ forall l v, kl_int l = Ok (Some (Fin v)) -> c < v.
Proof. exact C85_integral_always_rejects_refuted_holds. Qed.
Print Assumptions C85_integral_always_rejects_refuted.
(** ** C95 *)
(** too few censoring indicators are refused, unless they are an array of zeros *)
Theorem C95_too_few_indicators : forall a b d l, within a b l -> (List.length d < List.length l)%nat ->
  censored_stein a b (IndexList d) l = Raise IndexError /\
  (In true d -> censored_stein a b (IndexArray d) l = Raise IndexError) /\
  (~ In true d -> censored_stein a b (IndexArray d) l = stein_uniform a b l).
Proof. exact C95_too_few_indicators_holds. Qed.
Print Assumptions C95_too_few_indicators.
(** ** C96 *)
(** without a bandwidth, the rule of thumb 1.06 sd n^(-1/5) for the standardised sample is used *)
Theorem C96_rule_of_thumb : forall a b l, l <> [] -> let z := map (fun x => (x - a) / (b - a)) l in
  br_uniform a b AutoBandwidth l = br_uniform a b (GivenBandwidth (1.06 * sqrt (Rsum (map (fun x => (x - mean z) ^ 2) z) / len z) / Rpower (len z) (1 / 5))) l.
Proof. exact C96_rule_of_thumb_holds. Qed.
Print Assumptions C96_rule_of_thumb.
(** a skewness of exactly zero is treated as if the standardised skewness were one *)
Theorem C100_skewness_transformation : forall l v, skew_norm l = Ok (Some (Fin v)) ->
  (sample_skewness l <> 0 -> v = dagostino (len l) (skewness_score (len l) (sample_skewness l))) /\
  (sample_skewness l = 0 -> v = dagostino (len l) 1).
Proof. exact C100_skewness_transformation_holds. Qed.
Print Assumptions C100_skewness_transformation.
(** the real cube root c of (1 - 2/A) / (1 + x sqrt(2/(A-4))) is compared with its approximate mean 1 - 2/(9A) *)
Theorem C100_kurtosis_transformation : forall l v, kurtosis_norm l = Ok (Some (Fin v)) ->
  let A := anscombe_freedom (len l) in
  exists c, c ^ 3 = (1 - 2 / A) / (1 + kurtosis_score (len l) (sample_kurtosis l) * sqrt (2 / (A - 4))) /\
    v = (1 - 2 / (9 * A) - c) / sqrt (2 / (9 * A)).
Proof. exact C100_kurtosis_transformation_holds. Qed.
Print Assumptions C100_kurtosis_transformation.
