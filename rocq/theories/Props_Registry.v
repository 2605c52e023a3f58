(** Properties of the registries: C42-C46, C75-C77, C79. *)
From Coq Require Import String Ascii.
From Verif Require Import Base DecModel RegistryModel RegistrySpec RegistryProofs RegistryClaims.
Local Open Scope string_scope.

(** ** C42: statistic codes *)
Theorem C42_codes_distinct_partial : forall c1 c2, In c1 stat_classes -> In c2 stat_classes ->
  sc_code c1 = sc_code c2 ->
  sc_name c1 = sc_name c2 \/ sc_code c1 = "SB_WEIBULL_GOODNESS_OF_FIT".
Proof. exact C42_codes_distinct_partial_holds. Qed.
Print Assumptions C42_codes_distinct_partial.
(** class names are distinct, so a name stands for a class *)
Theorem C42_names_distinct : NoDup (map sc_name stat_classes).
Proof. exact C42_names_distinct_holds. Qed.
Print Assumptions C42_names_distinct.
Theorem C42_sb_codes_refuted : exists c1 c2, In c1 stat_classes /\ In c2 stat_classes /\
  sc_name c1 <> sc_name c2 /\ sc_code c1 = sc_code c2.
Proof. exact C42_sb_codes_refuted_holds. Qed.
Print Assumptions C42_sb_codes_refuted.
(** equal codes belong to the same family *)
Theorem C42_code_determines_family : forall c1 c2, In c1 stat_classes -> In c2 stat_classes ->
  sc_code c1 = sc_code c2 -> sc_dist c1 = sc_dist c2.
Proof. exact C42_code_determines_family_holds. Qed.
Print Assumptions C42_code_determines_family.
Example C42_nonvacuous : List.length stat_classes = 195%nat /\
  In (StatClass "AndersonDarlingLogNormalGofStatistic" LOG_NORMAL "AD" "AD_LOGNORMAL_GOODNESS_OF_FIT" (Fixed RIGHT)) stat_classes.
Proof. exact C42_nonvacuous_holds. Qed.

(** ** C43: validators *)
Theorem C43_validators_exact : forall v x, validate v x = true <-> in_range v x.
Proof. exact C43_validators_exact_holds. Qed.
Print Assumptions C43_validators_exact.
Example C43_nonvacuous : validate PositiveNumber 0 = false /\ validate NonNegativeNumber 0 = true /\
  validate Probability 1 = true /\ validate Probability 1.5 = false.
Proof. exact C43_nonvacuous_holds. Qed.

(** ** C44: defaults pass their validators *)
Theorem C44_defaults_valid_partial : forall d p, In d descriptors -> In p (d_params d) ->
  (d_type d, p_name p) <> (INV_GAUSS, "mu") -> accepts p (p_default p) = true.
Proof. exact C44_defaults_valid_partial_holds. Qed.
Print Assumptions C44_defaults_valid_partial.
Theorem C44_inverse_gaussian_refuted : exists d p, In d descriptors /\ In p (d_params d) /\
  d_type d = INV_GAUSS /\ p_name p = "mu" /\ accepts p (p_default p) = false.
Proof. exact C44_inverse_gaussian_refuted_holds. Qed.
Print Assumptions C44_inverse_gaussian_refuted.
Example C44_nonvacuous : In (Desc NORMAL [free "mean" 0; pos "var" 1]) descriptors.
Proof. exact C44_nonvacuous_holds. Qed.

(** ** C45: lookups return the class of the requested type, whatever the iteration order *)
Theorem C45_descriptor : forall order t, Permutation descriptors order ->
  exists d, get_descriptor order t = Ok d /\ In d descriptors /\ d_type d = t.
Proof. exact C45_descriptor_holds. Qed.
Print Assumptions C45_descriptor.
Theorem C45_descriptor_unique : forall d1 d2, In d1 descriptors -> In d2 descriptors -> d_type d1 = d_type d2 -> d1 = d2.
Proof. exact C45_descriptor_unique_holds. Qed.
Print Assumptions C45_descriptor_unique.
(** with a value for every constructor parameter the generator of the type is built and holds exactly these values *)
Theorem C45_generator : forall order t params g, Permutation generator_classes order -> is_dict params ->
  In g generator_classes -> g_type g = t ->
  (forall name, In name (map fst (g_sig g)) -> In name (map fst params)) ->
  exists i, get_available_generator order t (Some params) = Ok i /\ i_type i = t /\
    map fst (i_params i) = map fst (g_sig g) /\ incl (i_params i) params.
Proof. exact C45_generator_holds. Qed.
Print Assumptions C45_generator.
(** any result at all is of the requested type *)
Theorem C45_never_another : forall order t params i,
  get_available_generator order t params = Ok i -> i_type i = t.
Proof. exact C45_never_another_holds. Qed.
Print Assumptions C45_never_another.
(** without parameters (None or {}) the call succeeds exactly for the families whose constructor has defaults *)
Theorem C45_without_parameters : forall order t, Permutation generator_classes order ->
  if in_dec type_dec t [CAUCHY; LAPLACE; LOGISTIC; STUDENT; TUKEY]
  then get_available_generator order t None = Raise TypeError
  else exists i, get_available_generator order t None = Ok i /\ i_type i = t.
Proof. exact C45_without_parameters_holds. Qed.
Print Assumptions C45_without_parameters.
Theorem C45_without_parameters_refuted : exists t, needs_parameters t /\
  forall order, Permutation generator_classes order -> get_available_generator order t None = Raise TypeError.
Proof. exact C45_without_parameters_refuted_holds. Qed.
Print Assumptions C45_without_parameters_refuted.
Example C45_nonvacuous : get_available_generator (rev generator_classes) WEIBULL (Some [("k", 3); ("a", 2)])
  = Ok (Instance WEIBULL [("a", 2); ("k", 3)]).
Proof. exact C45_nonvacuous_holds. Qed.

(** ** C46: generator codes *)
Theorem C46_codes_injective : forall t1 t2 texts1 texts2, Forall numeric texts1 -> Forall numeric texts2 ->
  generator_code t1 texts1 = generator_code t2 texts2 -> t1 = t2 /\ texts1 = texts2.
Proof. exact C46_codes_injective_holds. Qed.
Print Assumptions C46_codes_injective.
Example C46_nonvacuous : generator_code CHI_2 ["2"] = "DistributionType.CHI_2_2" /\ numeric "-1.5e+17" /\ numeric "inf".
Proof. exact C46_nonvacuous_holds. Qed.

(** ** C75: parameters named as in the descriptor reach the generator *)
Theorem C75_parameters_reach_generator_partial : forall order d value, Permutation generator_classes order ->
  In d descriptors -> d_type d <> LOG_NORMAL ->
  exists i, get_available_generator order (d_type d) (Some (assignment d value)) = Ok i /\
    same_dict (i_params i) (assignment d value).
Proof. exact C75_parameters_reach_generator_partial_holds. Qed.
Print Assumptions C75_parameters_reach_generator_partial.
(** the log-normal generator drops the values given under the descriptor's names *)
Theorem C75_lognormal_refuted : forall order d value, Permutation generator_classes order ->
  In d descriptors -> d_type d = LOG_NORMAL ->
  get_available_generator order LOG_NORMAL (Some (assignment d value)) = Ok (Instance LOG_NORMAL [("s", 1); ("mu", 0)]).
Proof. exact C75_lognormal_refuted_holds. Qed.
Print Assumptions C75_lognormal_refuted.
Example C75_nonvacuous : get_available_generator generator_classes NORMAL (Some [("mean", 3); ("var", 4)])
  = Ok (Instance NORMAL [("mean", 3); ("var", 4)]).
Proof. exact C75_nonvacuous_holds. Qed.

(** ** C76: the generator built without parameters has the descriptor's defaults *)
Theorem C76_defaults_agree_partial : forall order d i, Permutation generator_classes order -> In d descriptors ->
  ~ In (d_type d) [EXPONENTIAL; GOMPERTZ; LOG_NORMAL] ->
  get_available_generator order (d_type d) None = Ok i -> same_dict (i_params i) (default_assignment d).
Proof. exact C76_defaults_agree_partial_holds. Qed.
Print Assumptions C76_defaults_agree_partial.
Theorem C76_exponential_refuted : forall order, Permutation generator_classes order ->
  get_available_generator order EXPONENTIAL None = Ok (Instance EXPONENTIAL [("lam", 0.5)]) /\
  exists d, In d descriptors /\ d_type d = EXPONENTIAL /\ default_assignment d = [("lam", 1)].
Proof. exact C76_exponential_refuted_holds. Qed.
Print Assumptions C76_exponential_refuted.
(** the default of the Gompertz generator is outside the range its own descriptor prescribes *)
Theorem C76_gompertz_refuted : forall order, Permutation generator_classes order ->
  get_available_generator order GOMPERTZ None = Ok (Instance GOMPERTZ [("eta", 0); ("b", 1)]) /\
  exists d p, In d descriptors /\ d_type d = GOMPERTZ /\ In p (d_params d) /\ p_name p = "eta" /\
    p_default p = 1 /\ accepts p 0 = false.
Proof. exact C76_gompertz_refuted_holds. Qed.
Print Assumptions C76_gompertz_refuted.
Example C76_nonvacuous : get_available_generator generator_classes WEIBULL None = Ok (Instance WEIBULL [("a", 1); ("k", 5)]).
Proof. exact C76_nonvacuous_holds. Qed.

(** ** C77: the list of available criteria *)
(** when every statistic module is loaded, the list holds exactly the short codes of the family *)
Theorem C77_complete : forall order t s, Permutation stat_classes order ->
  (In s (get_available_criteria order t) <-> exists c, In c stat_classes /\ sc_dist c = t /\ sc_short c = s).
Proof. exact C77_complete_holds. Qed.
Print Assumptions C77_complete.
Theorem C77_no_repetition_partial : forall order t, Permutation stat_classes order -> t <> WEIBULL ->
  NoDup (get_available_criteria order t).
Proof. exact C77_no_repetition_partial_holds. Qed.
Print Assumptions C77_no_repetition_partial.
Theorem C77_weibull_repeats_refuted : forall order, Permutation stat_classes order ->
  ~ NoDup (get_available_criteria order WEIBULL).
Proof. exact C77_weibull_repeats_refuted_holds. Qed.
Print Assumptions C77_weibull_repeats_refuted.
(** importing the function does not load any statistic: the list is empty for every distribution *)
Theorem C77_not_imported_refuted : (forall t, get_available_criteria [] t = []) /\
  forall t, In t [NORMAL; EXPONENTIAL; WEIBULL; UNIFORM; GAMMA; BETA; STUDENT; LOG_NORMAL] -> ~ listed [] t.
Proof. exact C77_not_imported_refuted_holds. Qed.
Print Assumptions C77_not_imported_refuted.
Example C77_nonvacuous : List.length (get_available_criteria stat_classes LOG_NORMAL) = 41%nat /\
  get_available_criteria stat_classes CAUCHY = [].
Proof. exact C77_nonvacuous_holds. Qed.

(** ** C79: the validator of a parameter accepts exactly the documented range *)
Theorem C79_documented_ranges_partial : forall d p v, In d descriptors -> In p (d_params d) ->
  p_documented p = Some v -> (d_type d, p_name p) <> (RICE, "nu") ->
  forall x, accepts p x = true <-> in_range v x.
Proof. exact C79_documented_ranges_partial_holds. Qed.
Print Assumptions C79_documented_ranges_partial.
Theorem C79_rice_refuted : exists d p, In d descriptors /\ In p (d_params d) /\ d_type d = RICE /\ p_name p = "nu" /\
  p_documented p = Some NonNegativeNumber /\ forall x, accepts p x = true.
Proof. exact C79_rice_refuted_holds. Qed.
Print Assumptions C79_rice_refuted.
Example C79_nonvacuous : In (Desc GOMPERTZ [pos "eta" 1; pos "b" 1]) descriptors.
Proof. exact C79_nonvacuous_holds. Qed.
