(** Property C125, continued: the Watson statistics of the gamma and uniform modules *)
From Verif Require Import Base ProbSpec ProbProofs DecModel DecSpec DecProofs DecMoreProofs EdfModel EdfSpec EdfProofs EdfClaims SizeSpec SizeClaims ConvSpec ConvClaims Conv2Spec Conv2Claims PowerSpec PowerClaims Power2Claims Power3Claims Power4Claims Power5Claims.
From Coq Require Import Lra Lia.


(** the gamma statistic is the same function of non-empty samples, so its test takes the same decisions *)
Theorem C125_gamma_same_decisions : forall F meth alt level simulated observed, continuous_cdf F -> meth = PValueMethod \/ meth = CriticalValueMethod ->
  (forall s, In s simulated -> s <> []) -> observed <> [] ->
  run_rejects meth {| st_alternative := alt; st_execute := watson_gamma_stat F |} level simulated observed =
  run_rejects meth {| st_alternative := alt; st_execute := watson_stat F |} level simulated observed.
Proof. exact C125_gamma_same_decisions_holds. Qed.
Print Assumptions C125_gamma_same_decisions.
(** the test with the gamma statistic is consistent *)
Theorem C125_gamma_consistent : forall m gap eta delta, (0 < m)%nat -> 0 < gap <= 1 -> 0 <= eta <= gap ^ 2 / 64 -> 0 < delta -> exists N, forall n, (N <= n)%nat ->
  forall (Om : Type) (E : (Om -> R) -> R) X Y F H0 H alt level meth,
  is_expectation E -> full_cdf F -> meth = PValueMethod \/ meth = CriticalValueMethod -> alt <> LEFT -> 0 <= level <= 1 ->
  independent_draws E n X H -> laws_apart gap TWO_TAILED H F -> (forall i, (i < m)%nat -> independent_draws E n (Y i) H0) -> laws_within eta H0 F ->
  1 - delta <= Pr E (fun w => run_rejects meth {| st_alternative := alt; st_execute := watson_gamma_stat F |} level (simulated_samples m n Y w) (draws n X w)).
Proof. exact C125_gamma_consistent_holds. Qed.
Print Assumptions C125_gamma_consistent.
(** the uniform statistic U^2/n + 1/4 differs from U^2, but the power bound is the same: all samples of a run have the same size *)
Theorem C125_uniform_power : forall (Om : Type) (E : (Om -> R) -> R) n m X Y a b H0 H alt eta gap eps level meth,
  is_expectation E -> (0 < n)%nat -> (0 < m)%nat -> a < b -> meth = PValueMethod \/ meth = CriticalValueMethod -> alt <> LEFT -> 0 <= level <= 1 ->
  (forall i w, a <= X i w <= b) -> (forall i j w, a <= Y i j w <= b) ->
  independent_draws E n X H -> laws_apart gap TWO_TAILED H (uniform_cdf a b) -> (forall i, (i < m)%nat -> independent_draws E n (Y i) H0) -> laws_within eta H0 (uniform_cdf a b) ->
  0 < eps -> / INR n <= gap - eps -> (eta + eps) ^ 2 + / INR n <= (gap - eps - / INR n) ^ 3 / 128 ->
  Pr E (fun w => negb (run_rejects meth {| st_alternative := alt; st_execute := watson_uniform a b |} level (simulated_samples m n Y w) (draws n X w))) <=
  1 / (4 * INR n * eps ^ 2) + INR m * (4 / (INR n * eps ^ 3)).
Proof. exact C125_uniform_power_holds. Qed.
Print Assumptions C125_uniform_power.
(** the test with the uniform statistic is consistent *)
Theorem C125_uniform_consistent : forall m gap eta delta, (0 < m)%nat -> 0 < gap <= 1 -> 0 <= eta <= gap ^ 2 / 64 -> 0 < delta -> exists N, forall n, (N <= n)%nat ->
  forall (Om : Type) (E : (Om -> R) -> R) X Y a b H0 H alt level meth,
  is_expectation E -> a < b -> meth = PValueMethod \/ meth = CriticalValueMethod -> alt <> LEFT -> 0 <= level <= 1 ->
  (forall i w, a <= X i w <= b) -> (forall i j w, a <= Y i j w <= b) ->
  independent_draws E n X H -> laws_apart gap TWO_TAILED H (uniform_cdf a b) -> (forall i, (i < m)%nat -> independent_draws E n (Y i) H0) -> laws_within eta H0 (uniform_cdf a b) ->
  1 - delta <= Pr E (fun w => run_rejects meth {| st_alternative := alt; st_execute := watson_uniform a b |} level (simulated_samples m n Y w) (draws n X w)).
Proof. exact C125_uniform_consistent_holds. Qed.
Print Assumptions C125_uniform_consistent.
(** the hypotheses can be met for all n, m and K: constant draws at the end of the interval, simulated samples within 1/K of the uniform law *)
Example C125_nonvacuous_every_n : forall n m K, (0 < K)%nat -> exists (E : (list nat -> R) -> R) X Y H0 H,
  is_expectation E /\ (forall i w, 0 <= X i w <= 1) /\ (forall i j w, 0 <= Y i j w <= 1) /\ independent_draws E n X H /\ laws_apart 1 TWO_TAILED H (uniform_cdf 0 1) /\
  (forall i, (i < m)%nat -> independent_draws E n (Y i) H0) /\ laws_within (/ INR K) H0 (uniform_cdf 0 1).
Proof. exact C125_nonvacuous_every_n_holds. Qed.
