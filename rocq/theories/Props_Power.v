(** Property C119: the Kolmogorov-Smirnov test is consistent *)
From Verif Require Import Base ProbSpec ProbProofs DecModel DecSpec DecProofs DecMoreProofs EdfModel EdfSpec EdfClaims SizeSpec SizeClaims ConvSpec ConvClaims PowerSpec PowerClaims.
From Coq Require Import Lra Lia.


(** samples of a law within eta of the hypothesised one: the statistic is below eta + eps, up to a probability of order 1/n *)
Theorem C119_ks_null : forall (Om : Type) (E : (Om -> R) -> R) n S F H alt eta eps,
  is_expectation E -> independent_draws E n S H -> (0 < n)%nat -> full_cdf F -> laws_within eta H F -> 0 < eps ->
  Pr E (fun w => Rleb (eta + eps) (outcome (ks_stat F alt (draws n S w)))) <= 4 / (INR n * eps ^ 3).
Proof. exact C119_ks_null_holds. Qed.
Print Assumptions C119_ks_null.
(** samples of a law that differs by gap somewhere: the statistic exceeds gap - eps *)
Theorem C119_ks_alternative : forall (Om : Type) (E : (Om -> R) -> R) n S F H alt gap eps,
  is_expectation E -> independent_draws E n S H -> (0 < n)%nat -> continuous_cdf F -> laws_apart gap alt H F -> 0 < eps ->
  Pr E (fun w => Rleb (outcome (ks_stat F alt (draws n S w))) (gap - eps)) <= 1 / (4 * INR n * eps ^ 2).
Proof. exact C119_ks_alternative_holds. Qed.
Print Assumptions C119_ks_alternative.
(** The test accepts a sample of a law at distance gap only with a probability of order m/n, whatever the level: simulated samples of a law
    within eta of the hypothesised one, m simulations, two-sided or right-sided statistic, either decision method. *)
Theorem C119_power : forall (Om : Type) (E : (Om -> R) -> R) n m X Y F H0 H alt eta gap eps level meth,
  is_expectation E -> (0 < n)%nat -> (0 < m)%nat -> full_cdf F -> meth = PValueMethod \/ meth = CriticalValueMethod -> alt <> LEFT -> 0 <= level <= 1 ->
  independent_draws E n X H -> laws_apart gap alt H F -> (forall i, (i < m)%nat -> independent_draws E n (Y i) H0) -> laws_within eta H0 F ->
  0 < eps -> 2 * eps <= gap - eta ->
  Pr E (fun w => negb (ks_test_rejects meth F alt level (simulated_samples m n Y w) (draws n X w))) <= 1 / (4 * INR n * eps ^ 2) + INR m * (4 / (INR n * eps ^ 3)).
Proof. exact C119_power_holds. Qed.
Print Assumptions C119_power.
(** With the alternative LEFT the statistic is the largest excess of F over the empirical distribution function, but the test rejects small
    values: the more the law departs from F in this direction, the less likely it rejects. *)
Theorem C119_left_alternative_refuted : forall (Om : Type) (E : (Om -> R) -> R) n m X Y F H0 H eta gap eps level meth,
  is_expectation E -> (0 < n)%nat -> (0 < m)%nat -> full_cdf F -> meth = PValueMethod \/ meth = CriticalValueMethod -> 0 <= level < 1 ->
  independent_draws E n X H -> laws_apart gap LEFT H F -> (forall i, (i < m)%nat -> independent_draws E n (Y i) H0) -> laws_within eta H0 F ->
  0 < eps -> 2 * eps <= gap - eta ->
  Pr E (fun w => ks_test_rejects meth F LEFT level (simulated_samples m n Y w) (draws n X w)) <= 1 / (4 * INR n * eps ^ 2) + INR m * (4 / (INR n * eps ^ 3)).
Proof. exact C119_left_alternative_refuted_holds. Qed.
Print Assumptions C119_left_alternative_refuted.
(** in terms of the sample size alone *)
Theorem C119_consistent : forall m gap eta delta, (0 < m)%nat -> eta < gap -> 0 < delta -> exists N, forall n, (N <= n)%nat ->
  forall (Om : Type) (E : (Om -> R) -> R) X Y F H0 H alt level meth,
  is_expectation E -> full_cdf F -> meth = PValueMethod \/ meth = CriticalValueMethod -> alt <> LEFT -> 0 <= level <= 1 ->
  independent_draws E n X H -> laws_apart gap alt H F -> (forall i, (i < m)%nat -> independent_draws E n (Y i) H0) -> laws_within eta H0 F ->
  1 - delta <= Pr E (fun w => ks_test_rejects meth F alt level (simulated_samples m n Y w) (draws n X w)).
Proof. exact C119_consistent_holds. Qed.
Print Assumptions C119_consistent.
(** the hypotheses can be met: the uniform law on [0,1], simulated samples of two fair coins, an observed sample that is constant *)
Example C119_nonvacuous : is_expectation (finite_expectation coins) /\ full_cdf (uniform_cdf 0 1) /\
  independent_draws (finite_expectation coins) 2 five five_law /\ laws_apart 1 TWO_TAILED five_law (uniform_cdf 0 1) /\ laws_apart 1 LEFT five_law (uniform_cdf 0 1) /\
  independent_draws (finite_expectation coins) 2 coin coin_law /\ laws_within (1 / 2) coin_law (uniform_cdf 0 1).
Proof. exact C119_nonvacuous_holds. Qed.
