(** Property C80: the Min-Toshiyuki statistic. *)
From Verif Require Import Base DecModel EdfModel EdfSpec EdfProofs EdfMtClaims.
From Coq Require Import Lra Lia.

(** *** C80 *)
Theorem C80_finite_exactly_inside : forall F rvs,
  mt_stat F rvs <> NonFinite <-> rvs <> [] /\ forall x, In x rvs -> 0 < F x < 1.
Proof. exact C80_finite_exactly_inside_holds. Qed.
Print Assumptions C80_finite_exactly_inside.
(** the value lies between 1/sqrt n and sqrt n times the Kolmogorov distance times the largest weight *)
Theorem C80_range : forall F rvs v d w, mt_stat F rvs = Fin v -> ks_stat F TWO_TAILED rvs = Ok d ->
  (forall x, In x rvs -> sqrt (1 / (F x * (1 - F x))) <= w) ->
  / sqrt (INR (length rvs)) <= v <= sqrt (INR (length rvs)) * d * w.
Proof. exact C80_range_holds. Qed.
Print Assumptions C80_range.
Theorem C80_order_irrelevant : forall F rvs1 rvs2, Permutation rvs1 rvs2 -> mt_stat F rvs1 = mt_stat F rvs2.
Proof. exact C80_order_irrelevant_holds. Qed.
Print Assumptions C80_order_irrelevant.
(** both bounds are attained *)
Example C80_nonvacuous : mt_stat (fun x => x) [1/2] = Fin 1 /\ ks_stat (fun x => x) TWO_TAILED [1/2] = Ok (1/2) /\
  sqrt (1 / (1/2 * (1 - 1/2))) = 2.
Proof. exact C80_nonvacuous_holds. Qed.
