(** Step-up corrections of Monte-Carlo p-values *)
From Verif Require Import Base MTModel MTSpec MTProofs ProbSpec ProbProofs MTErrorSpec MTErrorProofs DecModel DecSpec DecProofs DecMoreProofs SizeSpec SizeClaims ConvSpec ConvClaims McMtSpec McMtClaims McMt2Claims.
From Coq Require Import Lra Lia.


(** Holm.test (a step-up rule in this code): threshold times the harmonic number of the true hypotheses, plus 2/(n+1) for each of them *)
Theorem C120_holm_fwer : forall (Om : Type) (E : (Om -> R) -> R) n m alt Z nulls t,
  is_expectation E -> (0 < n)%nat -> 0 <= t -> (forall i w, (i < m)%nat -> length (Z i w) = S n) ->
  (forall i, (i < m)%nat -> nulls i = true -> exchangeable E (S n) (Z i) /\ forall w, NoDup (Z i w)) ->
  FWER E Holm m nulls (mc_p_values m alt Z) t <= t * harmonic (null_count m nulls) + INR (null_count m nulls) * (2 / INR (S n)).
Proof. exact C120_holm_fwer_holds. Qed.
Print Assumptions C120_holm_fwer.
(** Benjamini-Yekutieli: the false discovery rate exceeds the threshold by at most 2/(n+1) for every true hypothesis *)
Theorem C120_by_fdr : forall (Om : Type) (E : (Om -> R) -> R) n m alt Z nulls t,
  is_expectation E -> (0 < n)%nat -> (0 < m)%nat -> (N.of_nat m <= 10000)%N -> 0 <= t <= 1 -> (forall i w, (i < m)%nat -> length (Z i w) = S n) ->
  (forall i, (i < m)%nat -> nulls i = true -> exchangeable E (S n) (Z i) /\ forall w, NoDup (Z i w)) ->
  FDR E BenjaminiYekutieli m nulls (mc_p_values m alt Z) t <= t * (INR (null_count m nulls) / INR m) + INR (null_count m nulls) * (2 / INR (S n)).
Proof. exact C120_by_fdr_holds. Qed.
Print Assumptions C120_by_fdr.
