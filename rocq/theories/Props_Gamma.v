(** Properties C47, C48, C50, C53, C54, C61-C67 and C80 for the gamma statistics. *)
From Coq Require Import String.
From Verif Require Import Base DecModel EdfModel EdfSpec GraphModel RegistryModel NormalLaw ExpModel ExpSpec NormModel NormSpec GammaModel GammaSpec EdfProofs EdfRotProofs ExpRangeProofs EdfPowerProofs NormProofs NormSymProofs NormReflProofs NormRangeProofs NormFiniteProofs NormBoundProofs EdfClaims EdfMtClaims GraphConnProofs GraphClaims ExpClaims GammaProofs LognormClaims GammaClaims.
From Coq Require Import Lra Lia.
Local Open Scope string_scope.
Local Open Scope R_scope.

(** the table contains every gamma class of the registry *)
Theorem C54_gamma_complete : forall G Q A c, In c stat_classes -> sc_dist c = GAMMA ->
  In (sc_name c) (map fst (gamma_statistics G Q A)).
Proof. exact C54_gamma_complete_holds. Qed.
Print Assumptions C54_gamma_complete.
(** *** C47 *)
(** the Kolmogorov-Smirnov class measures the distance to the hypothesised distribution with shape alpha and rate beta *)
Theorem C47_gamma : forall G Q A l, gamma_law G Q -> 0 < ga_alpha A -> 0 < ga_beta A -> ga_alt A = TWO_TAILED -> l <> [] ->
  exists f d, In ("KolmogorovSmirnovGammaGofStatistic", f) (gamma_statistics G Q A) /\
     nvalue (f l) = Ok (Some (Fin d)) /\ supremum (fun x => Rabs (edf l x - G (ga_alpha A) (ga_beta A * x))) d.
Proof. exact C47_gamma_holds. Qed.
Print Assumptions C47_gamma.
(** the Lilliefors class measures the distance to the gamma distribution with the mean and variance of the sample *)
Theorem C47_gamma_lilliefors : forall G Q A l, gamma_law G Q -> (2 <= length l)%nat -> 0 < mean l -> (exists x y, In x l /\ In y l /\ x <> y) ->
  exists f d shape scale, In ("LillieforsGammaGofStatistic", f) (gamma_statistics G Q A) /\ 0 < shape /\ 0 < scale /\
     shape * scale = mean l /\ shape * scale ^ 2 = Rsum (map (fun x => (x - mean l) ^ 2) l) / (INR (length l) - 1) /\
     nvalue (f l) = Ok (Some (Fin d)) /\ supremum (fun x => Rabs (edf l x - G shape (x / scale))) d.
Proof. exact C47_gamma_lilliefors_holds. Qed.
Print Assumptions C47_gamma_lilliefors.
(** *** C48, C50, C53, C66, C80 *)
Theorem C48_gamma : forall G Q A name f l v, gamma_law G Q -> 0 < ga_alpha A -> 0 < ga_beta A -> ga_alt A = TWO_TAILED -> l <> [] ->
  In (name, f) (gamma_statistics G Q A) -> nvalue (f l) = Ok (Some (Fin v)) ->
  (name = "KolmogorovSmirnovGammaGofStatistic" -> 1 / (2 * len l) <= v <= 1) /\
  (In name ["CramerVonMisesGammaGofStatistic"; "WatsonGammaGofStatistic"] -> 1 / (12 * len l) <= v <= len l / 3) /\
  (name = "KuiperGammaGofStatistic" -> 1 / len l <= v <= 1).
Proof. exact C48_gamma_holds. Qed.
Print Assumptions C48_gamma.
(** Anderson-Darling and Min-Toshiyuki are infinite exactly when an observation is outside the support *)
Theorem C50_gamma : forall G Q A l f, gamma_law G Q -> 0 < ga_alpha A -> 0 < ga_beta A -> l <> [] ->
  In ("AndersonDarlingGammaGofStatistic", f) (gamma_statistics G Q A) ->
  ((forall x, In x l -> 0 < x) -> exists v, nvalue (f l) = Ok (Some (Fin v)) /\ 0 <= v) /\
  (nvalue (f l) = Ok (Some NonFinite) <-> exists x, In x l /\ x <= 0).
Proof. exact C50_gamma_holds. Qed.
Print Assumptions C50_gamma.
Theorem C80_gamma : forall G Q A l f g v d, gamma_law G Q -> 0 < ga_alpha A -> 0 < ga_beta A -> ga_alt A = TWO_TAILED ->
  In ("MinToshiyukiGammaGofStatistic", f) (gamma_statistics G Q A) -> In ("KolmogorovSmirnovGammaGofStatistic", g) (gamma_statistics G Q A) ->
  (nvalue (f l) = Ok (Some NonFinite) <-> l = [] \/ exists x, In x l /\ x <= 0) /\
  (nvalue (f l) = Ok (Some (Fin v)) -> nvalue (g l) = Ok (Some (Fin d)) -> / sqrt (len l) <= v /\
     forall w, (forall x, In x l -> sqrt (1 / (G (ga_alpha A) (ga_beta A * x) * (1 - G (ga_alpha A) (ga_beta A * x)))) <= w) -> v <= sqrt (len l) * d * w).
Proof. exact C80_gamma_holds. Qed.
Print Assumptions C80_gamma.
Theorem C53_gamma : forall G Q A name f l v, (2 <= ga_bins A)%nat -> In (name, f) (gamma_statistics G Q A) ->
  In name ["Chi2PearsonGammaGofStatistic"; "LikelihoodRatioGammaGofStatistic"; "CressieReadGammaGofStatistic"] ->
  nvalue (f l) = Ok (Some (Fin v)) -> 0 <= v.
Proof. exact C53_gamma_holds. Qed.
Print Assumptions C53_gamma.
(** Greenwood lies in [1/(n+1), 1]; Moran is positive *)
Theorem C66_gamma : forall G Q A name f l v, gamma_law G Q -> 0 < ga_alpha A -> 0 < ga_beta A ->
  In (name, f) (gamma_statistics G Q A) -> nvalue (f l) = Ok (Some (Fin v)) ->
  (name = "GreenwoodGammaGofStatistic" -> 1 / (len l + 1) <= v <= 1) /\
  (name = "MoranGammaGofStatistic" -> 0 < (len l + 1) * ln ((len l + 1) / len l) <= v).
Proof. exact C66_gamma_holds. Qed.
Print Assumptions C66_gamma.
(** *** C54, C64 *)
Theorem C54_gamma : forall G Q A name f l l', In (name, f) (gamma_statistics G Q A) -> Permutation l l' -> nvalue (f l) = nvalue (f l').
Proof. exact C54_gamma_holds. Qed.
Print Assumptions C54_gamma.
Theorem C64_gamma : forall G Q A name f l, In (name, f) (gamma_statistics G Q A) -> nsample_after (f l) = l.
Proof. exact C64_gamma_holds. Qed.
Print Assumptions C64_gamma.
(** *** C61 *)
(** the rate is used: a sample in another unit tested against the hypothesis in that unit *)
Theorem C61_gamma : forall G Q alpha beta alt bins power c name f l, gamma_law G Q -> 0 < alpha -> 0 < beta -> 0 < c ->
  In (name, f) (gamma_statistics G Q (GammaArgs alpha beta alt bins power)) ->
  exists g, In (name, g) (gamma_statistics G Q (GammaArgs alpha (beta / c) alt bins power)) /\ nvalue (g (rescale c l)) = nvalue (f l).
Proof. exact C61_gamma_holds. Qed.
Print Assumptions C61_gamma.
(** the Lilliefors class estimates both parameters: the parameters of the object and the unit of the data do not matter *)
Theorem C61_gamma_lilliefors : forall G Q A A' c l f g, 0 < c ->
  In ("LillieforsGammaGofStatistic", f) (gamma_statistics G Q A) -> In ("LillieforsGammaGofStatistic", g) (gamma_statistics G Q A') ->
  nvalue (g (rescale c l)) = nvalue (f l).
Proof. exact C61_gamma_lilliefors_holds. Qed.
Print Assumptions C61_gamma_lilliefors.
(** the probability plot correlation depends on the shape only *)
Theorem C61_gamma_ppcc : forall G Q A A' a b l f g, gamma_law G Q -> 0 < ga_alpha A -> 0 < ga_beta A -> 0 < ga_beta A' ->
  ga_alpha A' = ga_alpha A -> 0 < b -> In ("ProbabilityPlotCorrelationGammaGofStatistic", f) (gamma_statistics G Q A) ->
  In ("ProbabilityPlotCorrelationGammaGofStatistic", g) (gamma_statistics G Q A') -> nvalue (g (map (fun x => a + b * x) l)) = nvalue (f l).
Proof. exact C61_gamma_ppcc_holds. Qed.
Print Assumptions C61_gamma_ppcc.
(** *** C62, C65: the probability plot correlation *)
(** the statistic lies in [0,1]; it is 0 exactly for a sample that is an increasing affine image of the quantiles *)
Theorem C62_gamma_ppcc : forall G Q A l f v, gamma_law G Q -> 0 < ga_alpha A -> 0 < ga_beta A ->
  In ("ProbabilityPlotCorrelationGammaGofStatistic", f) (gamma_statistics G Q A) -> nvalue (f l) = Ok (Some (Fin v)) ->
  0 <= v <= 1 /\ (v = 0 <-> exists a b, 0 < b /\ Permutation l (map (fun q => a + b * q) (blom_quantiles (Q (ga_alpha A)) (length l)))).
Proof. exact C62_gamma_ppcc_holds. Qed.
Print Assumptions C62_gamma_ppcc.
(** the best fit has the smallest value, but the class declares that small values are evidence against the hypothesis *)
Theorem C65_gamma_ppcc_refuted : declares "ProbabilityPlotCorrelationGammaGofStatistic" LEFT /\
  forall G Q A n f, gamma_law G Q -> 0 < ga_alpha A -> 0 < ga_beta A -> (2 <= n)%nat ->
  In ("ProbabilityPlotCorrelationGammaGofStatistic", f) (gamma_statistics G Q A) ->
  nvalue (f (blom_quantiles (Q (ga_alpha A)) n)) = Ok (Some (Fin 0)) /\
  forall l v, nvalue (f l) = Ok (Some (Fin v)) -> 0 <= v.
Proof. exact C65_gamma_ppcc_refuted_holds. Qed.
Print Assumptions C65_gamma_ppcc_refuted.
(** *** C63 *)
(** every class returns a finite number on two or more different positive observations *)
Theorem C63_gamma : forall G Q A name f l, gamma_law G Q -> 0 < ga_alpha A -> 0 < ga_beta A -> (2 <= ga_bins A)%nat -> 0 <= ga_power A ->
  In (name, f) (gamma_statistics G Q A) -> NoDup l -> (2 <= length l)%nat -> (forall x, In x l -> 0 < x) ->
  exists v, nvalue (f l) = Ok (Some (Fin v)).
Proof. exact C63_gamma_holds. Qed.
Print Assumptions C63_gamma.
(** *** C67 *)
Theorem C67_gamma_constructor : forall alpha beta bins,
  ((exists p, gamma_ctor alpha beta = Ok p) <-> 0 < alpha /\ 0 < beta) /\
  (gamma_ctor alpha beta = Raise ValueError <-> alpha <= 0 \/ beta <= 0) /\
  (gamma_binned_ctor bins alpha beta = Raise ValueError <-> (bins < 2)%nat \/ alpha <= 0 \/ beta <= 0) /\
  (forall p, gamma_binned_ctor bins alpha beta = Ok p \/ gamma_ctor alpha beta = Ok p -> p = (alpha, beta)).
Proof. exact C67_gamma_constructor_holds. Qed.
Print Assumptions C67_gamma_constructor.
(** which samples are refused *)
Theorem C67_gamma_refusals : forall G Q A name f l, gamma_law G Q -> 0 < ga_alpha A -> 0 < ga_beta A ->
  In (name, f) (gamma_statistics G Q A) ->
  (name = "MoranGammaGofStatistic" -> (nvalue (f l) = Raise ValueError <-> l = [] \/ (exists x, In x l /\ x <= 0) \/ ~ NoDup l)) /\
  (name = "LillieforsGammaGofStatistic" -> (nvalue (f l) = Raise ValueError <->
     l = [] \/ mean l <= 0 \/ ((2 <= length l)%nat /\ forall x y, In x l -> In y l -> x = y))) /\
  (name = "ProbabilityPlotCorrelationGammaGofStatistic" -> (nvalue (f l) = Raise ValueError <-> forall x y, In x l -> In y l -> x = y)) /\
  (In name ["Chi2PearsonGammaGofStatistic"; "LikelihoodRatioGammaGofStatistic"; "CressieReadGammaGofStatistic"; "KolmogorovSmirnovGammaGofStatistic";
     "KuiperGammaGofStatistic"; "WatsonGammaGofStatistic"] -> (nvalue (f l) = Raise ValueError <-> l = [])).
Proof. exact C67_gamma_refusals_holds. Qed.
Print Assumptions C67_gamma_refusals.
(** not vacuous: the exponential distribution, that is shape 1 *)
Example C61_nonvacuous_gamma : gamma_law (fun _ => exponential_cdf) (fun _ => exponential_ppf) /\ exponential_cdf (ln 2) = 1 / 2.
Proof. exact C61_nonvacuous_gamma_holds. Qed.
