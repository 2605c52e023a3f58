(** Tests of composite hypotheses *)
From Coq Require Import String.
From Verif Require Import Base DecModel EdfModel GraphModel RegistryModel NormalLaw ExpModel ExpSpec ExpClaims NormModel NormSpec NormClaims ProbSpec ProbProofs DecSpec DecProofs SizeSpec SizeClaims ConvSpec PowerSpec PowerClaims ExpProofs ExpRangeProofs CompSpec CompClaims.
From Coq Require Import Lra Lia.
Local Open Scope list_scope.
Local Open Scope R_scope.

(** the decision of a composite normality test is the same for every origin and unit of the observed and of the simulated samples *)
Theorem C123_normality_decision : forall A name f alt meth level a b params simulated observed,
  In (name, f) (normality_statistics A) -> ~ In name simple_normal -> 0 < b -> length params = length simulated -> (forall p, In p params -> 0 < snd p) ->
  let st := statistic_with alt (fun l => nvalue (f l)) in
  run_rejects meth st level (map (fun q => affine (fst (fst q)) (snd (fst q)) (snd q)) (combine params simulated)) (affine a b observed) = run_rejects meth st level simulated observed.
Proof. exact C123_normality_decision_holds. Qed.
Print Assumptions C123_normality_decision.
(** the same for the unit in exponentiality tests *)
Theorem C123_exponentiality_decision : forall A name f alt meth level c units simulated observed,
  In (name, f) (exponentiality_statistics A) -> ~ In name unit_dependent -> 0 < a_p_atk A -> 0 < c -> length units = length simulated -> (forall u, In u units -> 0 < u) ->
  let st := statistic_with alt (fun l => let! v := value (f l) in Ok (Some v)) in
  run_rejects meth st level (map (fun q => rescaled (fst q) (snd q)) (combine units simulated)) (rescaled c observed) = run_rejects meth st level simulated observed.
Proof. exact C123_exponentiality_decision_holds. Qed.
Print Assumptions C123_exponentiality_decision.
(** so the size of the test is near its level for every law of the family: the observed sample is a + b * (a sample of the simulated law) *)
Theorem C123_normality_size : forall (Om : Type) (E : (Om -> R) -> R) n S A name f alt meth level a b,
  In (name, f) (normality_statistics A) -> ~ In name simple_normal -> 0 < b -> meth = PValueMethod \/ meth = CriticalValueMethod ->
  is_expectation E -> exchangeable_samples E (Datatypes.S n) S -> (0 < n)%nat -> 0 <= level <= 1 ->
  let st := statistic_with alt (fun l => nvalue (f l)) in (forall w, different_values st (S w)) ->
  Rabs (Pr E (fun w => run_rejects meth st level (tl (S w)) (affine a b (hd [] (S w)))) - level) <= 4 / INR (Datatypes.S n).
Proof. exact C123_normality_size_holds. Qed.
Print Assumptions C123_normality_size.
Theorem C123_exponentiality_size : forall (Om : Type) (E : (Om -> R) -> R) n S A name f alt meth level c,
  In (name, f) (exponentiality_statistics A) -> ~ In name unit_dependent -> 0 < a_p_atk A -> 0 < c -> meth = PValueMethod \/ meth = CriticalValueMethod ->
  is_expectation E -> exchangeable_samples E (Datatypes.S n) S -> (0 < n)%nat -> 0 <= level <= 1 ->
  let st := statistic_with alt (fun l => let! v := value (f l) in Ok (Some v)) in (forall w, different_values st (S w)) ->
  Rabs (Pr E (fun w => run_rejects meth st level (tl (S w)) (rescaled c (hd [] (S w)))) - level) <= 4 / INR (Datatypes.S n).
Proof. exact C123_exponentiality_size_holds. Qed.
Print Assumptions C123_exponentiality_size.
(** the Hegazy-Green statistic keeps the unit: whatever was simulated, a test at a level below 1 rejects no observed sample once its unit is small enough *)
Theorem C123_hegazy_green_refuted : declares "HegazyGreen1ExponentialityGofStatistic" LEFT /\
  forall meth simulated observed level, meth = PValueMethod \/ meth = CriticalValueMethod -> simulated <> [] -> observed <> [] -> positive observed -> 0 <= level < 1 ->
  exists c0, forall c, c0 <= c ->
    run_rejects meth (statistic_with LEFT (fun l => let! v := value (reads hg1 l) in Ok (Some v))) level simulated (rescaled c observed) = false.
Proof. exact C123_hegazy_green_refuted_holds. Qed.
Print Assumptions C123_hegazy_green_refuted.
(** the hypotheses can be met: two exchanged samples whose Pietra statistics are 1/4 and 1/6 *)
Example C123_nonvacuous_samples : is_expectation (finite_expectation two_law) /\ exchangeable_samples (finite_expectation two_law) 2 two_samples /\
  forall w, different_values (statistic_with TWO_TAILED (fun l => let! v := value (reads pt l) in Ok (Some v))) (two_samples w).
Proof. exact C123_nonvacuous_samples_holds. Qed.
