(** Consistency of the Cramer-von Mises and Kuiper tests *)
From Verif Require Import Base ProbSpec ProbProofs DecModel DecSpec DecProofs DecMoreProofs EdfModel EdfSpec EdfProofs EdfClaims SizeSpec SizeClaims ConvSpec ConvClaims PowerSpec PowerClaims Power2Claims.
From Coq Require Import Lra Lia.


(** n D^2 (D - 1/n) / 8 <= W^2 <= n D^2 + 1/(12 n) for every sample of n values, D the Kolmogorov-Smirnov distance, W^2 the Cramer-von Mises statistic *)
Theorem C121_cvm_and_ks : forall F l, continuous_cdf F -> l <> [] -> exists d w, ks_stat F TWO_TAILED l = Ok d /\ cvm_stat F l = Ok w /\
  (len l * d - 1) * d ^ 2 / 8 <= w <= 1 / (12 * len l) + len l * d ^ 2.
Proof. exact C121_cvm_and_ks_holds. Qed.
Print Assumptions C121_cvm_and_ks.
(** the Kuiper statistic lies between one and two Kolmogorov-Smirnov distances *)
Theorem C121_kuiper_and_ks : forall F l, continuous_cdf F -> l <> [] -> exists d v, ks_stat F TWO_TAILED l = Ok d /\ kuiper_stat F l = Ok v /\ d <= v <= 2 * d.
Proof. exact C121_kuiper_and_ks_holds. Qed.
Print Assumptions C121_kuiper_and_ks.
(** the Cramer-von Mises test *)
Theorem C121_cvm_power : forall (Om : Type) (E : (Om -> R) -> R) n m X Y F H0 H alt eta gap eps level meth,
  is_expectation E -> (0 < n)%nat -> (0 < m)%nat -> full_cdf F -> meth = PValueMethod \/ meth = CriticalValueMethod -> alt <> LEFT -> 0 <= level <= 1 ->
  independent_draws E n X H -> laws_apart gap TWO_TAILED H F -> (forall i, (i < m)%nat -> independent_draws E n (Y i) H0) -> laws_within eta H0 F ->
  0 < eps -> eps < gap <= 1 -> (eta + eps) ^ 2 + 1 / INR n <= (gap - eps) ^ 3 / 8 ->
  Pr E (fun w => negb (run_rejects meth {| st_alternative := alt; st_execute := cvm_stat F |} level (simulated_samples m n Y w) (draws n X w))) <=
  1 / (4 * INR n * eps ^ 2) + INR m * (4 / (INR n * eps ^ 3)).
Proof. exact C121_cvm_power_holds. Qed.
Print Assumptions C121_cvm_power.
(** the Kuiper test *)
Theorem C121_kuiper_power : forall (Om : Type) (E : (Om -> R) -> R) n m X Y F H0 H alt eta gap eps level meth,
  is_expectation E -> (0 < n)%nat -> (0 < m)%nat -> full_cdf F -> meth = PValueMethod \/ meth = CriticalValueMethod -> alt <> LEFT -> 0 <= level <= 1 ->
  independent_draws E n X H -> laws_apart gap TWO_TAILED H F -> (forall i, (i < m)%nat -> independent_draws E n (Y i) H0) -> laws_within eta H0 F ->
  0 < eps -> 3 * eps <= gap - 2 * eta ->
  Pr E (fun w => negb (run_rejects meth {| st_alternative := alt; st_execute := kuiper_stat F |} level (simulated_samples m n Y w) (draws n X w))) <=
  1 / (4 * INR n * eps ^ 2) + INR m * (4 / (INR n * eps ^ 3)).
Proof. exact C121_kuiper_power_holds. Qed.
Print Assumptions C121_kuiper_power.
(** the conditions on the distances can be met *)
Example C121_nonvacuous_distances : (0 + 1 / 10) ^ 2 + 1 / INR 1000 <= (1 - 1 / 10) ^ 3 / 8 /\ 1 / 10 < 1 <= 1 /\ 3 * (1 / 10) <= 1 - 2 * 0.
Proof. exact C121_nonvacuous_distances_holds. Qed.
(** the probability that the Cramer-von Mises test rejects a law at distance gap tends to 1 *)
Theorem C121_cvm_consistent : forall m gap eta delta, (0 < m)%nat -> 0 < gap <= 1 -> 0 <= eta <= gap ^ 2 / 16 -> 0 < delta -> exists N, forall n, (N <= n)%nat ->
  forall (Om : Type) (E : (Om -> R) -> R) X Y F H0 H alt level meth,
  is_expectation E -> full_cdf F -> meth = PValueMethod \/ meth = CriticalValueMethod -> alt <> LEFT -> 0 <= level <= 1 ->
  independent_draws E n X H -> laws_apart gap TWO_TAILED H F -> (forall i, (i < m)%nat -> independent_draws E n (Y i) H0) -> laws_within eta H0 F ->
  1 - delta <= Pr E (fun w => run_rejects meth {| st_alternative := alt; st_execute := cvm_stat F |} level (simulated_samples m n Y w) (draws n X w)).
Proof. exact C121_cvm_consistent_holds. Qed.
Print Assumptions C121_cvm_consistent.
(** the same for the Kuiper test *)
Theorem C121_kuiper_consistent : forall m gap eta delta, (0 < m)%nat -> 2 * eta < gap -> 0 < delta -> exists N, forall n, (N <= n)%nat ->
  forall (Om : Type) (E : (Om -> R) -> R) X Y F H0 H alt level meth,
  is_expectation E -> full_cdf F -> meth = PValueMethod \/ meth = CriticalValueMethod -> alt <> LEFT -> 0 <= level <= 1 ->
  independent_draws E n X H -> laws_apart gap TWO_TAILED H F -> (forall i, (i < m)%nat -> independent_draws E n (Y i) H0) -> laws_within eta H0 F ->
  1 - delta <= Pr E (fun w => run_rejects meth {| st_alternative := alt; st_execute := kuiper_stat F |} level (simulated_samples m n Y w) (draws n X w)).
Proof. exact C121_kuiper_consistent_holds. Qed.
Print Assumptions C121_kuiper_consistent.
