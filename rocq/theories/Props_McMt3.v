(** Property C120 for the Sidak corrections *)
From Verif Require Import Base MTModel MTSpec MTProofs ProbSpec ProbProofs MTErrorSpec MTErrorProofs DecModel DecSpec DecProofs DecMoreProofs SizeSpec SizeClaims ConvSpec ConvClaims McMtSpec McMtClaims McMt2Claims McMt3Claims.
From Coq Require Import Lra Lia.


(** both Sidak corrections, for independent tests *)
Theorem C120_sidak_fwer : forall (Om : Type) (E : (Om -> R) -> R) n m alt Z nulls mt t,
  is_expectation E -> (0 < n)%nat -> 0 <= t -> mt = Sidak \/ mt = SidakHolm -> (forall i w, (i < m)%nat -> length (Z i w) = S n) ->
  (forall i, (i < m)%nat -> nulls i = true -> exchangeable E (S n) (Z i) /\ forall w, NoDup (Z i w)) ->
  independent_nulls E m nulls (fun i w => nth i (mc_p_values m alt Z w) 0) ->
  FWER E mt m nulls (mc_p_values m alt Z) t <= t + INR (null_count m nulls) * (2 / INR (S n)).
Proof. exact C120_sidak_fwer_holds. Qed.
Print Assumptions C120_sidak_fwer.
(** the hypotheses can be met *)
Example C120_nonvacuous_independent : independent_nulls (finite_expectation swap_law) 1 (fun _ => true) (fun i w => nth i (mc_p_values 1 (fun _ => LEFT) (fun _ => swap_vec) w) 0) /\
  exchangeable (finite_expectation swap_law) 2 swap_vec /\ (forall w, NoDup (swap_vec w)).
Proof. exact C120_nonvacuous_independent_holds. Qed.
