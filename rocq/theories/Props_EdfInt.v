(** Property C49: the Cramer-von Mises statistic as an integral. *)
From Verif Require Import Base DecModel EdfModel EdfSpec EdfProofs EdfRotProofs EdfIntProofs EdfIntClaims.
From Coquelicot Require Import Coquelicot.
From Coq Require Import Lra Lia.

(** *** C49 *)
Theorem C49_cvm_is_integrated_squared_distance : forall v, v <> [] -> (forall x, In x v -> 0 <= x <= 1) ->
  exists w, cvm_stat (fun t => t) v = Ok w /\ w = INR (length v) * RInt (fun t => (edf v t - t) ^ 2) 0 1 /\
  ex_RInt (fun t => (edf v t - t) ^ 2) 0 1.
Proof. exact C49_cvm_is_integrated_squared_distance_holds. Qed.
Print Assumptions C49_cvm_is_integrated_squared_distance.
(** in the scale of the data, for a distribution with continuous density f *)
Theorem C49_cvm_integral_over_data : forall F f rvs,
  (forall x, is_derive F x (f x)) -> (forall x, continuous f x) -> is_lim F m_infty 0 -> is_lim F p_infty 1 ->
  rvs <> [] ->
  exists w, cvm_stat F rvs = Ok w /\
    is_RInt_gen (fun x => (edf rvs x - F x) ^ 2 * f x) (Rbar_locally m_infty) (Rbar_locally p_infty) (w / INR (length rvs)).
Proof. exact C49_cvm_integral_over_data_holds. Qed.
Print Assumptions C49_cvm_integral_over_data.
Example C49_nonvacuous : [1/2; 0; 1] <> [] /\ (forall x, In x [1/2; 0; 1] -> 0 <= x <= 1).
Proof. exact C49_nonvacuous_holds. Qed.

(** the logistic distribution function meets the hypotheses of the second theorem *)
Example C49_nonvacuous_data :
  let F x := / (1 + exp (- x)) in let f x := exp (- x) / (1 + exp (- x)) ^ 2 in
  (forall x, is_derive F x (f x)) /\ (forall x, continuous f x) /\ is_lim F m_infty 0 /\ is_lim F p_infty 1.
Proof. exact C49_nonvacuous_data_holds. Qed.
