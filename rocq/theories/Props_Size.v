(** Property C117: Monte-Carlo tests keep their level *)
From Verif Require Import Base ProbSpec ProbProofs DecModel DecSpec DecProofs DecMoreProofs SizeSpec SizeClaims.
From Coq Require Import Lra Lia.


Theorem C117_critical_value_size : forall (Om : Type) (E : (Om -> R) -> R) n Z st level k,
  is_expectation E -> exchangeable E (S n) Z -> (0 < n)%nat -> (forall w, NoDup (Z w)) -> 0 <= level <= 1 -> one_sided st ->
  level - 2 * level / INR (S n) <= size_of_test E Z CriticalValueMethod st level k <= level + 2 * (1 - level) / INR (S n).
Proof. exact C117_critical_value_size_holds. Qed.
Print Assumptions C117_critical_value_size.
(** two-sided tests by critical values *)
Theorem C117_critical_value_two_sided_size : forall (Om : Type) (E : (Om -> R) -> R) n Z st level k,
  is_expectation E -> exchangeable E (S n) Z -> (0 < n)%nat -> (forall w, NoDup (Z w)) -> 0 <= level <= 1 -> tests st TWO_TAILED ->
  level - 2 * level / INR (S n) <= size_of_test E Z CriticalValueMethod st level k <= level + (4 - 2 * level) / INR (S n).
Proof. exact C117_critical_value_two_sided_size_holds. Qed.
Print Assumptions C117_critical_value_two_sided_size.
(** tests by p-values: the size differs from the level by at most 1/(n+1), two-sided by at most 2/(n+1) *)
Theorem C117_p_value_size : forall (Om : Type) (E : (Om -> R) -> R) n Z st level k,
  is_expectation E -> exchangeable E (S n) Z -> (0 < n)%nat -> (forall w, NoDup (Z w)) -> 0 <= level <= 1 ->
  (one_sided st -> level - level / INR (S n) <= size_of_test E Z PValueMethod st level k <= level + (1 - level) / INR (S n)) /\
  (tests st TWO_TAILED -> level - level / INR (S n) <= size_of_test E Z PValueMethod st level k <= level + (2 - level) / INR (S n)).
Proof. exact C117_p_value_size_holds. Qed.
Print Assumptions C117_p_value_size.
Theorem C117_level_exceeded : forall (Om : Type) (E : (Om -> R) -> R) n Z st level k i,
  is_expectation E -> exchangeable E (S n) Z -> (0 < n)%nat -> (forall w, NoDup (Z w)) -> tests st RIGHT ->
  0 <= level -> INR (n - 1) * level = INR i -> 2 * level < 1 ->
  size_of_test E Z CriticalValueMethod st level k = INR (S i) / INR (S n) /\ level < size_of_test E Z CriticalValueMethod st level k.
Proof. exact C117_level_exceeded_holds. Qed.
Print Assumptions C117_level_exceeded.
(** one simulated value: the hypothesis is rejected at level 5% with probability 1/2 *)
Theorem C117_level_kept_refuted : exists (E : (bool -> R) -> R) (Z : bool -> list R), is_expectation E /\ exchangeable E 2 Z /\ (forall w, NoDup (Z w)) /\
  forall st k, tests st RIGHT -> size_of_test E Z CriticalValueMethod st (1 / 20) k = 1 / 2.
Proof. exact C117_level_kept_refuted_holds. Qed.
Print Assumptions C117_level_kept_refuted.
(** Every simulated run yields the value 1 except one, which yields 0: the right-tailed test then has size n/(n+1) at
    every level, because the critical value is a quantile of the DISTINCT values. *)
Theorem C117_discrete_refuted : forall n, (2 <= n)%nat -> exists (E : (nat -> R) -> R) (Z : nat -> list R),
  is_expectation E /\ exchangeable E (S n) Z /\
  forall st level k, tests st RIGHT -> 0 < level <= 1 -> size_of_test E Z CriticalValueMethod st level k = INR n / INR (S n).
Proof. exact C117_discrete_refuted_holds. Qed.
Print Assumptions C117_discrete_refuted.
(** The same law defeats the p-value method: the right-tailed p-value counts only values strictly above the observed one,
    so ties at the top give the p-value 0. *)
Theorem C117_p_value_ties_refuted : forall n, (0 < n)%nat -> exists (E : (nat -> R) -> R) (Z : nat -> list R),
  is_expectation E /\ exchangeable E (S n) Z /\
  forall st level k, tests st RIGHT -> 0 <= level < 1 -> size_of_test E Z PValueMethod st level k = INR n / INR (S n).
Proof. exact C117_p_value_ties_refuted_holds. Qed.
Print Assumptions C117_p_value_ties_refuted.
Example C117_nonvacuous_exchangeable : is_expectation (finite_expectation swap_law) /\ exchangeable (finite_expectation swap_law) 2 swap_vec /\
  (forall w, NoDup (swap_vec w)) /\ one_sided (plain RIGHT) /\ tests (plain RIGHT) RIGHT /\ tests (plain TWO_TAILED) TWO_TAILED.
Proof. exact C117_nonvacuous_exchangeable_holds. Qed.
