(** Property C124: the alternative of a Kolmogorov-Smirnov statistic *)
From Verif Require Import Base DecModel EdfModel EdfProofs AltModel AltClaims.
From Coq Require Import Lra Lia.
Local Open Scope R_scope.

(** the three members are kept apart, everything else is refused *)
Theorem C124_get_alternative : (forall a, exists c, get_alternative (Member a) = Ok c /\ type_of c = a) /\ get_alternative OtherValue = Raise ValueError /\
  (forall arg c, get_alternative arg = Ok c -> arg = Member (type_of c)).
Proof. exact C124_get_alternative_holds. Qed.
Print Assumptions C124_get_alternative.
(** with a member the statistic and the test take the same side *)
Theorem C124_same_side : forall meth res F a rvs level v limit k, let o := new_ks F (Member a) in
  ks_stat F a rvs = Ok v -> res (ks_value o) (length rvs) = Ok (limit, k) ->
  run_test meth res o rvs level = Ok (gof_test (meth (fun _ _ => Ok limit)) {| st_alternative := a; st_execute := ks_stat F a |} rvs level, S k).
Proof. exact C124_same_side_holds. Qed.
Print Assumptions C124_same_side.
(** any other value: the statistic has the two-sided value on every sample, and every test fails after all its simulations *)
Theorem C124_other_value : forall F rvs, ks_value (new_ks F OtherValue) rvs = ks_stat F TWO_TAILED rvs.
Proof. exact C124_other_value_holds. Qed.
Print Assumptions C124_other_value.
Theorem C124_late_error : forall meth res F rvs level limit k, rvs <> [] -> let o := new_ks F OtherValue in
  res (ks_value o) (length rvs) = Ok (limit, k) -> run_test meth res o rvs level = Ok (Raise ValueError, S k).
Proof. exact C124_late_error_holds. Qed.
Print Assumptions C124_late_error.
Example C124_nonvacuous : run_test PValueMethod (fun _ _ => Ok (Some [1; 2; 3], 3%nat)) (new_ks (fun x => x) OtherValue) [1 / 2] (1 / 20) = Ok (Raise ValueError, 4%nat).
Proof. exact C124_nonvacuous_holds. Qed.
