(** C111: multiple-testing corrections in double precision. *)
From Flocq Require Import Core.
From Verif Require Import Base MTModel MTSpec MTProofs MTMoreProofs MTFloat MTFloatModel ProbSpec ProbProofs MTErrorSpec MTErrorProofs MTFloatSpec MTFloatProofs MTFloatClaims.
From Coq Require Import Lra Lia.


(** all five procedures: values in [0,1], order of the hypotheses kept *)
Theorem C111_float_range_and_order : forall pow factor mt p a,
  pow_ok pow -> factor_ok factor -> float_pvalues p -> (Z.of_nat (length p) < 2 ^ 53)%Z ->
  adjust_float pow factor mt p = Ok a -> pointwise (fun x v => 0 <= v <= 1) p a /\ order_kept p a.
Proof. exact C111_float_range_and_order_holds. Qed.
Print Assumptions C111_float_range_and_order.
(** three of them never fall below the raw value *)
Theorem C111_float_never_below_raw : forall pow factor mt p a,
  In mt [Bonferroni; Holm; BenjaminiYekutieli] -> factor_ok factor -> float_pvalues p -> (Z.of_nat (length p) < 2 ^ 53)%Z ->
  adjust_float pow factor mt p = Ok a -> pointwise (fun x v => x <= v <= 1) p a.
Proof. exact C111_float_never_below_raw_holds. Qed.
Print Assumptions C111_float_never_below_raw.
(** the harmonic factor summed from left to right satisfies the assumption *)
Theorem C111_plain_factor_ok : factor_ok factor_plain.
Proof. exact C111_plain_factor_ok_holds. Qed.
Print Assumptions C111_plain_factor_ok.
Theorem C111_plain_factor_error : forall n, (1 <= n)%nat -> (Z.of_nat n <= 10000)%Z ->
  within (2 * INR n * ulp_half) (by_factor n) (factor_plain n).
Proof. exact C111_plain_factor_error_holds. Qed.
Print Assumptions C111_plain_factor_error.
(** errors *)
Theorem C111_relative_error : forall pow factor mt p a b d,
  In mt [Bonferroni; Holm; BenjaminiYekutieli] -> factor_ok factor -> float_pvalues p -> (Z.of_nat (length p) < 2 ^ 53)%Z ->
  (mt = BenjaminiYekutieli -> normal_or_zero p /\ 0 <= d <= 1 / 2 /\ within d (by_factor (length p)) (factor (length p))) ->
  adjust mt p = Ok a -> adjust_float pow factor mt p = Ok b ->
  forall i, (i < length p)%nat -> within (method_error mt d) (nth i a 0) (nth i b 0).
Proof. exact C111_relative_error_holds. Qed.
Print Assumptions C111_relative_error.
(** Benjamini-Yekutieli as computed, up to 10000 hypotheses *)
Theorem C111_by_error : forall pow p a b,
  float_pvalues p -> normal_or_zero p -> (Z.of_nat (length p) <= 10000)%Z ->
  adjust BenjaminiYekutieli p = Ok a -> adjust_float pow factor_plain BenjaminiYekutieli p = Ok b ->
  forall i, (i < length p)%nat -> within ((2 * INR (length p) + 7) * ulp_half) (nth i a 0) (nth i b 0).
Proof. exact C111_by_error_holds. Qed.
Print Assumptions C111_by_error.
Theorem C111_decisions_agree_away_from_threshold : forall pow factor mt p a d threshold,
  In mt [Bonferroni; Holm; BenjaminiYekutieli] -> factor_ok factor -> float_pvalues p -> (Z.of_nat (length p) < 2 ^ 53)%Z ->
  (mt = BenjaminiYekutieli -> normal_or_zero p /\ 0 <= d <= 1 / 2 /\ within d (by_factor (length p)) (factor (length p))) ->
  adjust mt p = Ok a ->
  forall i, (i < length p)%nat ->
  threshold <= (1 - method_error mt d) * nth i a 0 \/ (1 + method_error mt d) * nth i a 0 < threshold ->
  rejected_at (float_decisions pow factor mt p threshold) i = rejected_at (decisions mt p threshold) i.
Proof. exact C111_decisions_agree_away_from_threshold_holds. Qed.
Print Assumptions C111_decisions_agree_away_from_threshold.
(** rounding never creates a rejection *)
Theorem C111_float_rejections_are_rejections : forall pow factor mt p threshold i,
  In mt [Bonferroni; Holm] -> float_pvalues p -> (Z.of_nat (length p) < 2 ^ 53)%Z -> is_b64 threshold ->
  rejected_at (float_decisions pow factor mt p threshold) i = true -> rejected_at (decisions mt p threshold) i = true.
Proof. exact C111_float_rejections_are_rejections_holds. Qed.
Print Assumptions C111_float_rejections_are_rejections.
(** so the error rate of the program as it runs is at most that of the exact procedure *)
Theorem C111_float_fwer_at_most_exact : forall (Om : Type) (E : (Om -> R) -> R) pow factor mt m nulls X threshold,
  is_expectation E -> In mt [Bonferroni; Holm] -> (forall w, length (X w) = m /\ float_pvalues (X w)) -> (Z.of_nat m < 2 ^ 53)%Z ->
  is_b64 threshold ->
  float_FWER pow factor E mt m nulls X threshold <= FWER E mt m nulls X threshold.
Proof. exact C111_float_fwer_at_most_exact_holds. Qed.
Print Assumptions C111_float_fwer_at_most_exact.
Theorem C111_bonferroni_float_fwer : forall (Om : Type) (E : (Om -> R) -> R) pow factor m nulls X threshold,
  is_expectation E -> valid_null_pvalues E m nulls X -> (forall w, float_pvalues (X w)) -> (Z.of_nat m < 2 ^ 53)%Z ->
  is_b64 threshold -> 0 <= threshold ->
  float_FWER pow factor E Bonferroni m nulls X threshold <= threshold.
Proof. exact C111_bonferroni_float_fwer_holds. Qed.
Print Assumptions C111_bonferroni_float_fwer.
(** a rejection can be lost in rounding *)
Theorem C111_decisions_equal_refuted : exists p threshold, float_pvalues p /\ length p = 5%nat /\ is_b64 threshold /\ 0 < threshold < 1 /\
  forall pow factor, rejected_at (decisions Bonferroni p threshold) 0 = true /\ rejected_at (float_decisions pow factor Bonferroni p threshold) 0 = false.
Proof. exact C111_decisions_equal_refuted_holds. Qed.
Print Assumptions C111_decisions_equal_refuted.
(** non-vacuity: on [1/4; 1/2] the products are exact *)
Example C111_nonvacuous_values : forall pow factor,
  float_pvalues [1 / 4; 1 / 2] /\ adjust_float pow factor Bonferroni [1 / 4; 1 / 2] = Ok [1 / 2; 1].
Proof. exact C111_nonvacuous_values_holds. Qed.
(** non-vacuity: the exact power satisfies the assumption on the power function *)
Example C111_nonvacuous_pow : pow_ok (fun x k => x ^ k).
Proof. exact C111_nonvacuous_pow_holds. Qed.
