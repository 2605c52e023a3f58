(** Property C125: consistency of the Watson test *)
From Verif Require Import Base ProbSpec ProbProofs DecModel DecSpec DecProofs DecMoreProofs EdfModel EdfSpec EdfProofs EdfClaims SizeSpec SizeClaims ConvSpec ConvClaims PowerSpec PowerClaims Power2Claims Power4Claims.
From Coq Require Import Lra Lia.


(** n (V - 1/n)^3 / 128 <= U^2 <= W^2 for every sample of n values: V the Kuiper, U^2 the Watson, W^2 the Cramer-von Mises statistic *)
Theorem C125_watson_and_kuiper : forall F l, continuous_cdf F -> l <> [] -> exists v w u, kuiper_stat F l = Ok v /\ cvm_stat F l = Ok w /\ watson_stat F l = Ok u /\
  len l * (v - / len l) ^ 3 / 128 <= u <= w.
Proof. exact C125_watson_and_kuiper_holds. Qed.
Print Assumptions C125_watson_and_kuiper.
(** the Watson test *)
Theorem C125_watson_power : forall (Om : Type) (E : (Om -> R) -> R) n m X Y F H0 H alt eta gap eps level meth,
  is_expectation E -> (0 < n)%nat -> (0 < m)%nat -> full_cdf F -> meth = PValueMethod \/ meth = CriticalValueMethod -> alt <> LEFT -> 0 <= level <= 1 ->
  independent_draws E n X H -> laws_apart gap TWO_TAILED H F -> (forall i, (i < m)%nat -> independent_draws E n (Y i) H0) -> laws_within eta H0 F ->
  0 < eps -> / INR n <= gap - eps -> (eta + eps) ^ 2 + / INR n <= (gap - eps - / INR n) ^ 3 / 128 ->
  Pr E (fun w => negb (run_rejects meth {| st_alternative := alt; st_execute := watson_stat F |} level (simulated_samples m n Y w) (draws n X w))) <=
  1 / (4 * INR n * eps ^ 2) + INR m * (4 / (INR n * eps ^ 3)).
Proof. exact C125_watson_power_holds. Qed.
Print Assumptions C125_watson_power.
(** the probability that it rejects a law at distance gap tends to 1 *)
Theorem C125_watson_consistent : forall m gap eta delta, (0 < m)%nat -> 0 < gap <= 1 -> 0 <= eta <= gap ^ 2 / 64 -> 0 < delta -> exists N, forall n, (N <= n)%nat ->
  forall (Om : Type) (E : (Om -> R) -> R) X Y F H0 H alt level meth,
  is_expectation E -> full_cdf F -> meth = PValueMethod \/ meth = CriticalValueMethod -> alt <> LEFT -> 0 <= level <= 1 ->
  independent_draws E n X H -> laws_apart gap TWO_TAILED H F -> (forall i, (i < m)%nat -> independent_draws E n (Y i) H0) -> laws_within eta H0 F ->
  1 - delta <= Pr E (fun w => run_rejects meth {| st_alternative := alt; st_execute := watson_stat F |} level (simulated_samples m n Y w) (draws n X w)).
Proof. exact C125_watson_consistent_holds. Qed.
Print Assumptions C125_watson_consistent.
(** the conditions on the distances can be met *)
Example C125_nonvacuous_distances : / INR 1000 <= 1 - 1 / 100 /\ (0 + 1 / 100) ^ 2 + / INR 1000 <= (1 - 1 / 100 - / INR 1000) ^ 3 / 128.
Proof. exact C125_nonvacuous_distances_holds. Qed.
