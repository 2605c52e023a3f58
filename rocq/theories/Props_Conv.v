(** Property C118: Monte-Carlo decisions converge to those of the exact test *)
From Verif Require Import Base ProbSpec ProbProofs DecModel DecSpec DecProofs DecMoreProofs SizeSpec SizeClaims ConvSpec ConvClaims.
From Coq Require Import Lra Lia.


(** p-values: the computed one is within eps of the exact one, up to a probability of order 1/n *)
Theorem C118_p_value_converges : forall (Om : Type) (E : (Om -> R) -> R) n S F alt v eps,
  is_expectation E -> independent_draws E n S F -> (0 < n)%nat -> 0 < eps ->
  Pr E (fun w => Rleb eps (Rabs (p_value_of alt (draws n S w) v - exact_p_value F alt v))) <=
  match alt with TWO_TAILED => 1 | _ => 1 / 4 end / (INR n * eps ^ 2).
Proof. exact C118_p_value_converges_holds. Qed.
Print Assumptions C118_p_value_converges.
(** decisions by p-values: rejecting is unlikely if the exact p-value exceeds the level, accepting if it is below *)
Theorem C118_p_value_decision : forall (Om : Type) (E : (Om -> R) -> R) n S F st v level eps k,
  is_expectation E -> independent_draws E n S F -> (0 < n)%nat -> 0 < eps ->
  (level + eps <= exact_p_value F (st_alternative st) v -> Pr E (fun w => test_rejects PValueMethod st level k (draws n S w) v) <= 1 / (INR n * eps ^ 2)) /\
  (exact_p_value F (st_alternative st) v <= level - eps -> Pr E (fun w => negb (test_rejects PValueMethod st level k (draws n S w) v)) <= 1 / (INR n * eps ^ 2)).
Proof. exact C118_p_value_decision_holds. Qed.
Print Assumptions C118_p_value_decision.
(** decisions by critical values, up to the probability of ties *)
Theorem C118_critical_value_decision : forall (Om : Type) (E : (Om -> R) -> R) n S F st v level eps k,
  is_expectation E -> independent_draws E n S F -> 0 < eps -> 4 <= INR n * eps -> 0 <= level <= 1 ->
  (level + eps <= exact_p_value F (st_alternative st) v ->
     Pr E (fun w => test_rejects CriticalValueMethod st level k (draws n S w) v) <= 4 / (INR n * eps ^ 2) + Pr E (fun w => has_ties (draws n S w))) /\
  (exact_p_value F (st_alternative st) v <= level - eps ->
     Pr E (fun w => negb (test_rejects CriticalValueMethod st level k (draws n S w) v)) <= 4 / (INR n * eps ^ 2) + Pr E (fun w => has_ties (draws n S w))).
Proof. exact C118_critical_value_decision_holds. Qed.
Print Assumptions C118_critical_value_decision.
(** one number of simulated values suffices for all laws, statistics and levels that stay eps away from the exact p-value:
    the decision is the one with the exact p-value, up to the probability delta *)
Theorem C118_consistent : forall eps delta, 0 < eps -> 0 < delta -> exists N, forall n, (N <= n)%nat ->
  forall (Om : Type) (E : (Om -> R) -> R) S F st v level k,
  is_expectation E -> independent_draws E n S F -> 0 <= level <= 1 -> eps <= Rabs (exact_p_value F (st_alternative st) v - level) ->
  let wrong m w := xorb (test_rejects m st level k (draws n S w) v) (Rleb (exact_p_value F (st_alternative st) v) level) in
  Pr E (wrong PValueMethod) <= delta /\
  Pr E (wrong CriticalValueMethod) <= delta + Pr E (fun w => has_ties (draws n S w)).
Proof. exact C118_consistent_holds. Qed.
Print Assumptions C118_consistent.
Example C118_nonvacuous_coins : is_expectation (finite_expectation coins) /\ independent_draws (finite_expectation coins) 2 coin coin_law /\
  exact_p_value coin_law RIGHT 0 = 1 / 2.
Proof. exact C118_nonvacuous_coins_holds. Qed.
