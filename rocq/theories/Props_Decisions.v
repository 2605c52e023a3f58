(** Properties C13-C25 and C27: p-values, critical values, decisions, Monte-Carlo resolver. *)
From Verif Require Import Base ProbSpec ProbProofs DecModel DecSpec DecProofs DecMoreProofs DecisionsClaims.
From Coq Require Import ZArith.

(** proves that a literal list is sorted *)
(** *** C13 *)
Theorem C13_p_values_are_tail_fractions : forall limit x, limit <> [] ->
  p_value_of LEFT limit x = fraction (fun y => Rleb y x) limit /\
  p_value_of RIGHT limit x = 1 - fraction (fun y => Rleb y x) limit /\
  p_value_of TWO_TAILED limit x
    = 2 * Rmin (fraction (fun y => Rleb y x) limit) (1 - fraction (fun y => Rleb y x) limit).
Proof. exact C13_p_values_are_tail_fractions_holds. Qed.
Print Assumptions C13_p_values_are_tail_fractions.
Theorem C13_p_values_in_unit_interval : forall alt limit x, limit <> [] -> 0 <= p_value_of alt limit x <= 1.
Proof. exact C13_p_values_in_unit_interval_holds. Qed.
Print Assumptions C13_p_values_in_unit_interval.
Theorem C13_p_values_monotone : forall limit x y, limit <> [] -> x <= y ->
  p_value_of LEFT limit x <= p_value_of LEFT limit y /\
  p_value_of RIGHT limit y <= p_value_of RIGHT limit x.
Proof. exact C13_p_values_monotone_holds. Qed.
Print Assumptions C13_p_values_monotone.
(** two of four simulated values are at most 5/2 *)
Example C13_example : p_value_of LEFT [3; 1; 4; 1] (5/2) = 1/2 /\ p_value_of TWO_TAILED [3; 1; 4; 1] (5/2) = 1.
Proof. exact C13_example_holds. Qed.

(** *** C14 *)
Theorem C14_order_irrelevant : forall limit1 limit2, Permutation limit1 limit2 ->
  (forall alt x, p_value_of alt limit1 x = p_value_of alt limit2 x) /\
  (forall alt level, critical_value_of alt limit1 level = critical_value_of alt limit2 level).
Proof. exact C14_order_irrelevant_holds. Qed.
Print Assumptions C14_order_irrelevant.
Theorem C14_decisions_ignore_order : forall r1 r2 st v level n limit1 limit2,
  Permutation limit1 limit2 -> r1 st n = Ok (Some limit1) -> r2 st n = Ok (Some limit2) ->
  decide (PValueMethod r1) st v level n = decide (PValueMethod r2) st v level n /\
  decide (CriticalValueMethod r1) st v level n = decide (CriticalValueMethod r2) st v level n.
Proof. exact C14_decisions_ignore_order_holds. Qed.
Print Assumptions C14_decisions_ignore_order.
Example C14_nonvacuous : Permutation [3; 1; 4] [4; 3; 1].
Proof. exact C14_nonvacuous_holds. Qed.

(** *** C15: the observed value comes first, the simulated ones follow *)
Theorem C15_right_p_value_valid_refuted :
  exists (E : (bool -> R) -> R) (Z : bool -> list R),
    is_expectation E /\ exchangeable E 2 Z /\ (forall w, NoDup (Z w)) /\
    Pr E (fun w => Rleb (p_value_of RIGHT (tl (Z w)) (hd 0 (Z w))) (1/20)) = 1/2.
Proof. exact C15_right_p_value_valid_refuted_holds. Qed.
Print Assumptions C15_right_p_value_valid_refuted.
(** tied values: rejected with certainty at level 0 *)
Theorem C15_ties_always_rejected : forall (x : R) n,
  Rleb (p_value_of RIGHT (repeat x (S n)) x) 0 = true.
Proof. exact C15_ties_always_rejected_holds. Qed.
Print Assumptions C15_ties_always_rejected.
(** what holds: the excess over alpha is at most (1-alpha)/(n+1) if the values are distinct *)
Theorem C15_right_p_value_nearly_valid : forall (Om : Type) (E : (Om -> R) -> R) n Z level,
  is_expectation E -> exchangeable E (S n) Z -> (0 < n)%nat -> (forall w, NoDup (Z w)) -> 0 <= level ->
  Pr E (fun w => Rleb (p_value_of RIGHT (tl (Z w)) (hd 0 (Z w))) level) <= level + (1 - level) / INR (S n).
Proof. exact C15_right_p_value_nearly_valid_holds. Qed.
Print Assumptions C15_right_p_value_nearly_valid.
(** the left-tailed test obeys the same bound, with or without ties *)
Theorem C15_left_p_value_nearly_valid : forall (Om : Type) (E : (Om -> R) -> R) n Z level,
  is_expectation E -> exchangeable E (S n) Z -> (0 < n)%nat -> 0 <= level ->
  Pr E (fun w => Rleb (p_value_of LEFT (tl (Z w)) (hd 0 (Z w))) level) <= level + (1 - level) / INR (S n).
Proof. exact C15_left_p_value_nearly_valid_holds. Qed.
Print Assumptions C15_left_p_value_nearly_valid.

(** *** C16 *)
Theorem C16_right_p_value_counts_ties_refuted :
  exists limit x, limit <> [] /\ p_value_of RIGHT limit x <> fraction (fun y => Rleb x y) limit.
Proof. exact C16_right_p_value_counts_ties_refuted_holds. Qed.
Print Assumptions C16_right_p_value_counts_ties_refuted.
(** what it counts: strictly greater values; so the property holds iff no simulated value is tied *)
Theorem C16_right_p_value_counts_strictly_greater : forall limit x, limit <> [] ->
  p_value_of RIGHT limit x = fraction (fun y => Rltb x y) limit.
Proof. exact C16_right_p_value_counts_strictly_greater_holds. Qed.
Print Assumptions C16_right_p_value_counts_strictly_greater.
Theorem C16_right_p_value_without_ties : forall limit x, limit <> [] -> ~ In x limit ->
  p_value_of RIGHT limit x = fraction (fun y => Rleb x y) limit.
Proof. exact C16_right_p_value_without_ties_holds. Qed.
Print Assumptions C16_right_p_value_without_ties.

(** *** C17 *)
Theorem C17_one_sided_in_range : forall limit level, limit <> [] -> 0 <= level <= 1 ->
  exists cl cr, critical_value_of LEFT limit level = Ok (CV1 cl) /\
    critical_value_of RIGHT limit level = Ok (CV1 cr) /\
    (exists lo hi, In lo limit /\ In hi limit /\ lo <= cl <= hi) /\
    (exists lo hi, In lo limit /\ In hi limit /\ lo <= cr <= hi).
Proof. exact C17_one_sided_in_range_holds. Qed.
Print Assumptions C17_one_sided_in_range.
Theorem C17_two_sided_in_range : forall limit level, limit <> [] -> 0 <= level <= 1 ->
  exists cl cr, critical_value_of TWO_TAILED limit level = Ok (CV2 cl cr) /\ cl <= cr /\
    (exists lo hi, In lo limit /\ In hi limit /\ lo <= cl /\ cr <= hi).
Proof. exact C17_two_sided_in_range_holds. Qed.
Print Assumptions C17_two_sided_in_range.
Theorem C17_monotone_in_level : forall limit l1 l2 c1 c2 d1 d2, limit <> [] -> 0 <= l1 <= l2 -> l2 <= 1 ->
  critical_value_of LEFT limit l1 = Ok (CV1 c1) -> critical_value_of LEFT limit l2 = Ok (CV1 c2) ->
  critical_value_of RIGHT limit l1 = Ok (CV1 d1) -> critical_value_of RIGHT limit l2 = Ok (CV1 d2) ->
  c1 <= c2 /\ d2 <= d1.
Proof. exact C17_monotone_in_level_holds. Qed.
Print Assumptions C17_monotone_in_level.
Example C17_example : critical_value_of RIGHT [0; 1] (1/10) = Ok (CV1 (9/10)).
Proof. exact C17_example_holds. Qed.

(** *** C18 *)
Theorem C18_bad_level_or_empty_raises : forall limit level,
  ((exists e, critical_value_of LEFT limit level = Raise e) <-> limit = [] \/ ~ (0 <= level <= 1)) /\
  ((exists e, critical_value_of RIGHT limit level = Raise e) <-> limit = [] \/ ~ (0 <= level <= 1)) /\
  ((exists e, critical_value_of TWO_TAILED limit level = Raise e) <-> limit = [] \/ ~ (0 <= level <= 2)).
Proof. exact C18_bad_level_or_empty_raises_holds. Qed.
Print Assumptions C18_bad_level_or_empty_raises.

(** *** C19 *)
Theorem C19_tail_fraction_refuted : exists limit level c, 0 <= level <= 1 /\
  critical_value_of RIGHT limit level = Ok (CV1 c) /\
  level * INR (length limit) + 1 < INR (count (fun y => Rltb c y) limit).
Proof. exact C19_tail_fraction_refuted_holds. Qed.
Print Assumptions C19_tail_fraction_refuted.
Theorem C19_not_the_quantile_of_the_list_refuted : exists limit level c, 0 <= level <= 1 /\
  critical_value_of RIGHT limit level = Ok (CV1 c) /\ np_quantile (rsort limit) (1 - level) <> Ok c.
Proof. exact C19_not_the_quantile_of_the_list_refuted_holds. Qed.
Print Assumptions C19_not_the_quantile_of_the_list_refuted.
(** what holds: without repeated simulated values both halves of the property are true *)
Theorem C19_quantile_of_distinct_values : forall limit level, NoDup limit ->
  critical_value_of LEFT limit level = (let! c := np_quantile (rsort limit) level in Ok (CV1 c)) /\
  critical_value_of RIGHT limit level = (let! c := np_quantile (rsort limit) (1 - level) in Ok (CV1 c)).
Proof. exact C19_quantile_of_distinct_values_holds. Qed.
Print Assumptions C19_quantile_of_distinct_values.
Theorem C19_tail_count_of_distinct_values : forall limit level cl cr, NoDup limit -> limit <> [] ->
  0 <= level <= 1 ->
  critical_value_of LEFT limit level = Ok (CV1 cl) -> critical_value_of RIGHT limit level = Ok (CV1 cr) ->
  let m := INR (length limit - 1) * level in
  m <= INR (count (fun y => Rltb y cl) limit) < m + 1 /\
  m <= INR (count (fun y => Rltb cr y) limit) < m + 1.
Proof. exact C19_tail_count_of_distinct_values_holds. Qed.
Print Assumptions C19_tail_count_of_distinct_values.
Example C19_nonvacuous : NoDup [0; 1; 2] /\ [0; 1; 2] <> [].
Proof. exact C19_nonvacuous_holds. Qed.

(** *** C20 *)
Theorem C20_critical_value_decision : forall r st v level n limit, r st n = Ok (Some limit) ->
  forall cv, critical_value_of (st_alternative st) limit level = Ok cv ->
  (rejects (CriticalValueMethod r) st v level n <->
   match st_alternative st, cv with
   | LEFT, CV1 c => v < c
   | RIGHT, CV1 c => c < v
   | TWO_TAILED, CV2 l u => ~ (l <= v <= u)
   | _, _ => False
   end).
Proof. exact C20_critical_value_decision_holds. Qed.
Print Assumptions C20_critical_value_decision.
(** the shape of the critical value always fits the alternative, so no case above is impossible *)
Theorem C20_critical_value_shape : forall alt limit level cv, critical_value_of alt limit level = Ok cv ->
  match alt, cv with TWO_TAILED, CV2 _ _ | LEFT, CV1 _ | RIGHT, CV1 _ => True | _, _ => False end.
Proof. exact C20_critical_value_shape_holds. Qed.
Print Assumptions C20_critical_value_shape.
Example C20_nonvacuous : rejects (CriticalValueMethod (fixed_limit [0; 1])) (plain RIGHT) (95/100) (1/10) 5.
Proof. exact C20_nonvacuous_holds. Qed.

(** *** C21 *)
Theorem C21_level_monotone : forall m st v n limit l1 l2,
  resolves_to m st n limit -> limit <> [] -> 0 <= l1 <= l2 -> l2 <= 1 ->
  rejects m st v l1 n -> rejects m st v l2 n.
Proof. exact C21_level_monotone_holds. Qed.
Print Assumptions C21_level_monotone.
Example C21_nonvacuous : rejects (CriticalValueMethod (fixed_limit [0; 1])) (plain RIGHT) (95/100) (1/10) 5
  /\ rejects (PValueMethod (fixed_limit [0])) (plain RIGHT) 0 (1/20) 5.
Proof. exact C21_nonvacuous_holds. Qed.

(** *** C22 *)
Theorem C22_methods_agree_refuted : exists st limit v level n, 0 < level < 1 /\
  rejects (CriticalValueMethod (fixed_limit limit)) st v level n /\
  accepts (PValueMethod (fixed_limit limit)) st v level n.
Proof. exact C22_methods_agree_refuted_holds. Qed.
Print Assumptions C22_methods_agree_refuted.
Theorem C22_methods_agree_other_direction_refuted : exists st limit v level n, 0 < level < 1 /\
  accepts (CriticalValueMethod (fixed_limit limit)) st v level n /\
  rejects (PValueMethod (fixed_limit limit)) st v level n.
Proof. exact C22_methods_agree_other_direction_refuted_holds. Qed.
Print Assumptions C22_methods_agree_other_direction_refuted.
(** what holds: for distinct simulated values the methods agree unless the p-value is within
    2/n of the level *)
Theorem C22_methods_agree_away_from_level : forall st limit v level n r p,
  NoDup limit -> limit <> [] -> 0 <= level <= 1 -> r st n = Ok (Some limit) ->
  p = p_value_of (st_alternative st) limit v ->
  (p < level - level / INR (length limit) ->
     rejects (PValueMethod r) st v level n /\ rejects (CriticalValueMethod r) st v level n) /\
  (level + 2 / INR (length limit) <= p -> level < p ->
     accepts (PValueMethod r) st v level n /\ accepts (CriticalValueMethod r) st v level n).
Proof. exact C22_methods_agree_away_from_level_holds. Qed.
Print Assumptions C22_methods_agree_away_from_level.

(** *** C23 *)
Theorem C23_right_tailed_direction : forall m st v1 v2 n limit level,
  resolves_to m st n limit -> limit <> [] -> 0 <= level <= 1 -> st_alternative st = RIGHT -> v1 <= v2 ->
  rejects m st v1 level n -> rejects m st v2 level n.
Proof. exact C23_right_tailed_direction_holds. Qed.
Print Assumptions C23_right_tailed_direction.
Theorem C23_left_tailed_direction : forall m st v1 v2 n limit level,
  resolves_to m st n limit -> limit <> [] -> 0 <= level <= 1 -> st_alternative st = LEFT -> v1 <= v2 ->
  rejects m st v2 level n -> rejects m st v1 level n.
Proof. exact C23_left_tailed_direction_holds. Qed.
Print Assumptions C23_left_tailed_direction.
Theorem C23_two_sided_acceptance_interval : forall m st v1 v2 v3 n limit level,
  resolves_to m st n limit -> limit <> [] -> 0 <= level <= 1 -> st_alternative st = TWO_TAILED ->
  v1 <= v2 <= v3 -> accepts m st v1 level n -> accepts m st v3 level n -> accepts m st v2 level n.
Proof. exact C23_two_sided_acceptance_interval_holds. Qed.
Print Assumptions C23_two_sided_acceptance_interval.
Example C23_nonvacuous : accepts (PValueMethod (fixed_limit [0; 1])) (plain TWO_TAILED) (1/2) (1/10) 3.
Proof. exact C23_nonvacuous_holds. Qed.

(** *** C24 *)
Theorem C24_p_value_result : forall r st rvs level v limit,
  st_execute st rvs = Ok v -> r st (length rvs) = Ok (Some limit) ->
  exists res, gof_test (PValueMethod r) st rvs level = Ok res /\
    tr_statistic res = v /\ tr_level res = level /\ tr_critical_value res = None /\
    exists p, tr_p_value res = Some p /\ p = p_value_of (st_alternative st) limit v /\
      (tr_rejected res = true <-> p <= level).
Proof. exact C24_p_value_result_holds. Qed.
Print Assumptions C24_p_value_result.
Theorem C24_critical_value_result : forall r st rvs level v limit cv,
  st_execute st rvs = Ok v -> r st (length rvs) = Ok (Some limit) ->
  critical_value_of (st_alternative st) limit level = Ok cv ->
  exists res, gof_test (CriticalValueMethod r) st rvs level = Ok res /\
    tr_statistic res = v /\ tr_level res = level /\ tr_p_value res = None /\
    tr_critical_value res = Some cv /\
    area_contains (st_alternative st) cv v = Ok (negb (tr_rejected res)).
Proof. exact C24_critical_value_result_holds. Qed.
Print Assumptions C24_critical_value_result.
Theorem C24_missing_limit_distribution : forall r st rvs level v,
  st_execute st rvs = Ok v -> r st (length rvs) = Ok None ->
  gof_test (PValueMethod r) st rvs level = Raise ValueError /\
  gof_test (CriticalValueMethod r) st rvs level = Raise ValueError.
Proof. exact C24_missing_limit_distribution_holds. Qed.
Print Assumptions C24_missing_limit_distribution.
(** exactly one of the two fields is set in every successful result *)
Theorem C24_exactly_one_field : forall m st rvs level res, gof_test m st rvs level = Ok res ->
  st_execute st rvs = Ok (tr_statistic res) /\ tr_level res = level /\
  (tr_p_value res = None <-> tr_critical_value res <> None).
Proof. exact C24_exactly_one_field_holds. Qed.
Print Assumptions C24_exactly_one_field.
Example C24_nonvacuous : st_execute (plain RIGHT) [1; 2; 3] = Ok 2.
Proof. exact C24_nonvacuous_holds. Qed.

(** *** C25 *)
Theorem C25_constructor_and_size_checks : forall (S : Type) (gen : generator S) count st size s,
  (monte_carlo_ctor count = Raise ValueError <-> (count <= 0)%Z) /\
  ((size <= 0)%Z -> monte_carlo_resolve gen count st size s = Raise ValueError).
Proof. exact C25_constructor_and_size_checks_holds. Qed.
Print Assumptions C25_constructor_and_size_checks.
Theorem C25_monte_carlo_values : forall (S : Type) (gen : generator S) count st size s vs s',
  (0 < count)%Z -> (0 < size)%Z -> monte_carlo_resolve gen count st size s = Ok (vs, s') ->
  Z.of_nat (length vs) = count /\
  (* the i-th value is the statistic of the i-th sample drawn, each draw of the requested size *)
  forall i, (i < length vs)%nat ->
    st_execute st (fst (gen (Z.to_nat size) (gen_state gen (Z.to_nat size) i s))) = Ok (nth i vs 0).
Proof. exact C25_monte_carlo_values_holds. Qed.
Print Assumptions C25_monte_carlo_values.
Theorem C25_monte_carlo_total : forall (S : Type) (gen : generator S) count st size s,
  (0 < size)%Z -> (forall x, exists v, st_execute st x = Ok v) ->
  exists r, monte_carlo_resolve gen count st size s = Ok r.
Proof. exact C25_monte_carlo_total_holds. Qed.
Print Assumptions C25_monte_carlo_total.
Example C25_nonvacuous :
  let gen : generator nat := fun n k => (repeat (INR k) n, Datatypes.S k) in
  exists v, monte_carlo_resolve gen 2 (plain RIGHT) 1 0%nat = Ok (v, 2%nat) /\ v = [0; 1].
Proof. exact C25_nonvacuous_holds. Qed.
