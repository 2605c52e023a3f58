(** Property C120: corrections of Monte-Carlo p-values *)
From Verif Require Import Base MTModel MTSpec MTProofs ProbSpec ProbProofs MTErrorSpec MTErrorProofs DecModel DecSpec DecProofs DecMoreProofs SizeSpec SizeClaims ConvSpec ConvClaims McMtSpec McMtClaims.
From Coq Require Import Lra Lia.


(** Bonferroni: the excess over the threshold is at most 2/(n+1) for every true hypothesis *)
Theorem C120_bonferroni_fwer : forall (Om : Type) (E : (Om -> R) -> R) n m alt Z nulls t,
  is_expectation E -> (0 < n)%nat -> (0 < m)%nat -> 0 <= t <= 1 -> (forall i w, (i < m)%nat -> length (Z i w) = S n) ->
  (forall i, (i < m)%nat -> nulls i = true -> exchangeable E (S n) (Z i) /\ forall w, NoDup (Z i w)) ->
  FWER E Bonferroni m nulls (mc_p_values m alt Z) t <= INR (null_count m nulls) * (t / INR m + 2 / INR (S n)).
Proof. exact C120_bonferroni_fwer_holds. Qed.
Print Assumptions C120_bonferroni_fwer.
(** n >= 2 m / delta simulations keep the error within delta of the threshold *)
Theorem C120_enough_simulations : forall (Om : Type) (E : (Om -> R) -> R) n m alt Z nulls t delta,
  is_expectation E -> (0 < n)%nat -> (0 < m)%nat -> 0 <= t <= 1 -> 0 < delta -> 2 * INR m <= delta * INR n -> (forall i w, (i < m)%nat -> length (Z i w) = S n) ->
  (forall i, (i < m)%nat -> nulls i = true -> exchangeable E (S n) (Z i) /\ forall w, NoDup (Z i w)) ->
  FWER E Bonferroni m nulls (mc_p_values m alt Z) t <= t + delta.
Proof. exact C120_enough_simulations_holds. Qed.
Print Assumptions C120_enough_simulations.
(** With as few simulations as hypotheses the correction is void: for every n there is a law under which n+1 true hypotheses, tested in the
    left tail with n simulations each, lead to a false rejection with certainty, at every positive threshold. *)
Theorem C120_few_simulations_refuted : forall n, (0 < n)%nat -> exists (E : (nat -> R) -> R) (Z : nat -> nat -> list R),
  is_expectation E /\ (forall i, exchangeable E (S n) (Z i)) /\
  forall t, 0 < t <= 1 -> FWER E Bonferroni (S n) (fun _ => true) (mc_p_values (S n) (fun _ => LEFT) Z) t = 1.
Proof. exact C120_few_simulations_refuted_holds. Qed.
Print Assumptions C120_few_simulations_refuted.
Example C120_nonvacuous : is_expectation (finite_expectation swap_law) /\ (forall i : nat, (i < 3)%nat -> exchangeable (finite_expectation swap_law) 2 swap_vec /\ (forall w, NoDup (swap_vec w))) /\
  null_count 3 (fun _ => true) = 3%nat.
Proof. exact C120_nonvacuous_holds. Qed.
