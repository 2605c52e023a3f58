(** Property C118 for laws with finitely many values *)
From Verif Require Import Base ProbSpec ProbProofs DecModel DecSpec DecProofs DecMoreProofs SizeSpec SizeClaims ConvSpec ConvClaims Conv2Spec Conv2Claims.
From Coq Require Import Lra Lia.
Local Open Scope R_scope.

(** independent draws of every finite law exist in every number *)
Example C118_nonvacuous_repeated : forall (A : Type) (law : list (R * A)) (v : A -> R) d n, weights law ->
  is_expectation (repeated law n) /\ independent_draws (repeated law n) n (fun i w => v (nth i w d)) (law_cdf law v).
Proof. exact C118_nonvacuous_repeated_holds. Qed.
(** simulated values 0, 1, ..., m, each with probability at least q: the value m - 1 is rejected almost always once m * level > 1,
    however probable m is *)
Theorem C118_many_values_rejected : forall (Om : Type) (E : (Om -> R) -> R) n S F m q st level k,
  is_expectation E -> independent_draws E n S F -> (0 < n)%nat -> (0 < m)%nat -> 0 < level <= 1 -> 1 < INR m * level -> 0 < q ->
  (forall i w, (i < n)%nat -> exists j, (j <= m)%nat /\ S i w = INR j) -> q <= F 0 -> (forall j, (j < m)%nat -> q <= F (INR (j + 1)) - F (INR j)) -> tests st RIGHT ->
  1 - INR (m + 1) / (INR n * q ^ 2) <= Pr E (fun w => test_rejects CriticalValueMethod st level k (draws n S w) (INR (m - 1))).
Proof. exact C118_many_values_rejected_holds. Qed.
Print Assumptions C118_many_values_rejected.
(** With ties the critical values do not converge to the exact decision: at every level there is a law and a value whose exact p-value
    is as near to 1 as one likes, and yet the value is rejected with a probability that tends to 1. *)
Theorem C118_ties_refuted : forall level eps delta, 0 < level <= 1 -> 0 < eps -> 0 < delta ->
  exists F v, 1 - eps <= exact_p_value F RIGHT v /\ exists N, forall n, (N <= n)%nat ->
  exists (E : (list nat -> R) -> R) S, is_expectation E /\ independent_draws E n S F /\
  forall st k, tests st RIGHT -> 1 - delta <= Pr E (fun w => test_rejects CriticalValueMethod st level k (draws n S w) v).
Proof. exact C118_ties_refuted_holds. Qed.
Print Assumptions C118_ties_refuted.
