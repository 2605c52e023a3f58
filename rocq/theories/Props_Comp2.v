(** Property C123 for the Weibull and log-normal statistics *)
From Coq Require Import String.
From Verif Require Import Base DecModel EdfModel GraphModel RegistryModel NormalLaw ExpModel ExpSpec NormModel LognormModel LognormSpec LognormClaims WeibullModel WeibullSpec WeibullClaims ProbSpec ProbProofs DecSpec DecProofs SizeSpec SizeClaims ConvSpec PowerSpec CompSpec CompClaims Comp2Claims.
From Coq Require Import Lra Lia.
Local Open Scope list_scope.
Local Open Scope R_scope.

(** Weibull: any scale c and shape b of the observed and of the simulated samples, x -> c x^b *)
Theorem C123_weibull_decision : forall minimise Gam gumbel_fit A name f alt meth level c b params simulated observed,
  in_bounds minimise -> In name composite_weibull -> In (name, f) (weibull_statistics minimise Gam gumbel_fit A) -> 0 < c -> 0 < b ->
  all_positive observed -> (forall s, In s simulated -> all_positive s) -> length params = length simulated -> (forall p, In p params -> 0 < fst p /\ 0 < snd p) ->
  let st := statistic_with alt (fun l => nvalue (f l)) in
  run_rejects meth st level (map (fun q => powered (fst (fst q)) (snd (fst q)) (snd q)) (combine params simulated)) (powered c b observed) = run_rejects meth st level simulated observed.
Proof. exact C123_weibull_decision_holds. Qed.
Print Assumptions C123_weibull_decision.
Theorem C123_weibull_size : forall (Om : Type) (E : (Om -> R) -> R) n S minimise Gam gumbel_fit A name f alt meth level c b,
  in_bounds minimise -> In name composite_weibull -> In (name, f) (weibull_statistics minimise Gam gumbel_fit A) -> 0 < c -> 0 < b -> meth = PValueMethod \/ meth = CriticalValueMethod ->
  is_expectation E -> exchangeable_samples E (Datatypes.S n) S -> (0 < n)%nat -> 0 <= level <= 1 -> (forall w s, In s (S w) -> all_positive s) ->
  let st := statistic_with alt (fun l => nvalue (f l)) in (forall w, different_values st (S w)) ->
  Rabs (Pr E (fun w => run_rejects meth st level (tl (S w)) (powered c b (hd [] (S w)))) - level) <= 4 / INR (Datatypes.S n).
Proof. exact C123_weibull_size_holds. Qed.
Print Assumptions C123_weibull_size.
(** log-normal: the same for samples whose logarithms are not all alike *)
Theorem C123_lognormal_decision : forall s scale alt name f alt' meth level c b params simulated observed,
  0 < s -> 0 < scale -> In (name, f) (lognormal_statistics s scale alt) -> ~ In name simple_lognormal -> 0 < c -> 0 < b ->
  (forall l, l = observed \/ In l simulated -> all_positive l /\ kl_sigma_hat l <> 0) -> length params = length simulated -> (forall p, In p params -> 0 < fst p /\ 0 < snd p) ->
  let st := statistic_with alt' (fun l => nvalue (f l)) in
  run_rejects meth st level (map (fun q => power_change (fst (fst q)) (snd (fst q)) (snd q)) (combine params simulated)) (power_change c b observed) = run_rejects meth st level simulated observed.
Proof. exact C123_lognormal_decision_holds. Qed.
Print Assumptions C123_lognormal_decision.
Theorem C123_lognormal_size : forall (Om : Type) (E : (Om -> R) -> R) n S s scale alt name f alt' meth level c b,
  0 < s -> 0 < scale -> In (name, f) (lognormal_statistics s scale alt) -> ~ In name simple_lognormal -> 0 < c -> 0 < b -> meth = PValueMethod \/ meth = CriticalValueMethod ->
  is_expectation E -> exchangeable_samples E (Datatypes.S n) S -> (0 < n)%nat -> 0 <= level <= 1 -> (forall w l, In l (S w) -> all_positive l /\ kl_sigma_hat l <> 0) ->
  let st := statistic_with alt' (fun l => nvalue (f l)) in (forall w, different_values st (S w)) ->
  Rabs (Pr E (fun w => run_rejects meth st level (tl (S w)) (power_change c b (hd [] (S w)))) - level) <= 4 / INR (Datatypes.S n).
Proof. exact C123_lognormal_size_holds. Qed.
Print Assumptions C123_lognormal_size.
(** the conditions on the samples can be met, and the change of parameters is a real one *)
Example C123_nonvacuous_positive : (forall w l, In l (two_samples w) -> all_positive l /\ kl_sigma_hat l <> 0) /\ exchangeable_samples (finite_expectation two_law) 2 two_samples /\ powered 2 3 [1; 2] = [2; 16] /\ In "ST1WeibullGofStatistic"%string composite_weibull.
Proof. exact C123_nonvacuous_positive_holds. Qed.
