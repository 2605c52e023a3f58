(** Property C126: the tests with the statistics of the uniform module *)
From Verif Require Import Base ProbSpec ProbProofs DecModel DecSpec DecProofs DecMoreProofs EdfModel EdfSpec EdfProofs EdfClaims SizeSpec SizeClaims ConvSpec ConvClaims Conv2Spec Conv2Claims PowerSpec PowerClaims Power2Claims Power3Claims Power4Claims Power5Claims Power6Claims.
From Coq Require Import Lra Lia.


(** inside the interval the classes compute the statistics of the uniform distribution function *)
Theorem C126_values_inside : forall a b l, a < b -> (forall x, In x l -> a <= x <= b) ->
  (forall alt, ks_uniform a b alt l = ks_stat (uniform_cdf a b) alt l) /\ cvm_uniform a b l = cvm_stat (uniform_cdf a b) l /\ kuiper_uniform a b l = kuiper_stat (uniform_cdf a b) l.
Proof. exact C126_values_inside_holds. Qed.
Print Assumptions C126_values_inside.
(** with an observation outside the interval every such test ends in ValueError, at every level: it never rejects *)
Theorem C126_outside_raises : forall a b l x alt alt' meth level limits, In x l -> x < a \/ b < x ->
  (forall f, In f [ks_uniform a b alt; cvm_uniform a b; kuiper_uniform a b; watson_uniform a b] ->
   gof_test (meth limits) {| st_alternative := alt'; st_execute := f |} l level = Raise ValueError /\
   forall simulated, run_rejects meth {| st_alternative := alt'; st_execute := f |} level simulated l = false).
Proof. exact C126_outside_raises_holds. Qed.
Print Assumptions C126_outside_raises.
(** so against a law with all its mass outside, at distance 1 from the uniform law, the power is 0 for every number of draws *)
Theorem C126_power_outside : forall (Om : Type) (E : (Om -> R) -> R) n m X Y a b alt alt' level meth, is_expectation E -> (0 < n)%nat -> (forall w, X 0%nat w < a \/ b < X 0%nat w) ->
  forall f, In f [ks_uniform a b alt; cvm_uniform a b; kuiper_uniform a b; watson_uniform a b] ->
  Pr E (fun w => run_rejects meth {| st_alternative := alt'; st_execute := f |} level (simulated_samples m n Y w) (draws n X w)) = 0.
Proof. exact C126_power_outside_holds. Qed.
Print Assumptions C126_power_outside.
(** for values inside the interval the tests are consistent *)
Theorem C126_uniform_consistent : forall m gap eta delta, (0 < m)%nat -> 0 < gap <= 1 -> 0 <= eta <= gap ^ 2 / 16 -> 0 < delta -> exists N, forall n, (N <= n)%nat ->
  forall (Om : Type) (E : (Om -> R) -> R) X Y a b H0 H alt level meth,
  is_expectation E -> a < b -> meth = PValueMethod \/ meth = CriticalValueMethod -> alt <> LEFT -> 0 <= level <= 1 ->
  (forall i w, a <= X i w <= b) -> (forall i j w, a <= Y i j w <= b) ->
  independent_draws E n X H -> laws_apart gap TWO_TAILED H (uniform_cdf a b) -> (forall i, (i < m)%nat -> independent_draws E n (Y i) H0) -> laws_within eta H0 (uniform_cdf a b) ->
  forall f, In f [cvm_uniform a b; kuiper_uniform a b] ->
  1 - delta <= Pr E (fun w => run_rejects meth {| st_alternative := alt; st_execute := f |} level (simulated_samples m n Y w) (draws n X w)).
Proof. exact C126_uniform_consistent_holds. Qed.
Print Assumptions C126_uniform_consistent.
(** and the Kolmogorov-Smirnov test *)
Theorem C126_ks_consistent : forall m gap eta delta, (0 < m)%nat -> eta < gap -> 0 < delta -> exists N, forall n, (N <= n)%nat ->
  forall (Om : Type) (E : (Om -> R) -> R) X Y a b H0 H alt level meth,
  is_expectation E -> a < b -> meth = PValueMethod \/ meth = CriticalValueMethod -> alt <> LEFT -> 0 <= level <= 1 ->
  (forall i w, a <= X i w <= b) -> (forall i j w, a <= Y i j w <= b) ->
  independent_draws E n X H -> laws_apart gap alt H (uniform_cdf a b) -> (forall i, (i < m)%nat -> independent_draws E n (Y i) H0) -> laws_within eta H0 (uniform_cdf a b) ->
  1 - delta <= Pr E (fun w => run_rejects meth {| st_alternative := alt; st_execute := ks_uniform a b alt |} level (simulated_samples m n Y w) (draws n X w)).
Proof. exact C126_ks_consistent_holds. Qed.
Print Assumptions C126_ks_consistent.
(** both cases occur *)
Example C126_nonvacuous : (forall x, In x [2; 3] -> 2 <= x <= 5) /\ In 6 [3; 6] /\ (6 < 2 \/ 5 < 6).
Proof. exact C126_nonvacuous_holds. Qed.
(** the law of the constant 5 is at distance 1 from the uniform law on [0,1] *)
Example C126_nonvacuous_outside : laws_apart 1 TWO_TAILED five_law (uniform_cdf 0 1) /\ forall w : bool * bool, five 0 w < 0 \/ 1 < five 0 w.
Proof. exact C126_nonvacuous_outside_holds. Qed.
