(** The hypotheses of C119 and C121 for every number of draws *)
From Verif Require Import Base ProbSpec ProbProofs DecModel DecSpec DecProofs EdfModel EdfSpec SizeSpec ConvSpec Conv2Spec Conv2Claims PowerSpec PowerClaims Power3Claims.
From Coq Require Import Lra Lia.
Local Open Scope R_scope.

(** for all n, m and K: n draws of the law at 5, and m simulated samples of n draws of a law within 1/K of the hypothesised one *)
Example C119_nonvacuous_every_n : forall n m K, (0 < K)%nat -> exists (E : (list nat -> R) -> R) X Y H0 H,
  is_expectation E /\ full_cdf (uniform_cdf 0 1) /\ independent_draws E n X H /\ laws_apart 1 TWO_TAILED H (uniform_cdf 0 1) /\
  (forall i, (i < m)%nat -> independent_draws E n (Y i) H0) /\ laws_within (/ INR K) H0 (uniform_cdf 0 1).
Proof. exact C119_nonvacuous_every_n_holds. Qed.
