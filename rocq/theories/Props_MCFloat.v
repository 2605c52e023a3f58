(** Monte-Carlo decisions in double precision (C115). *)
From Flocq Require Import Core.
From Verif Require Import Base DecModel DecSpec DecProofs MTFloat MTFloatModel MTFloatSpec MTFloatProofs MTFloatClaims MCFloatModel MCFloatSpec MCFloatProofs MCFloat2Proofs MCFloatClaims.
From Coq Require Import Lra Lia.


(** *** C115 *)
(** p-values in double precision lie in [0,1] *)
Theorem C115_range : forall alt limit v, simulated limit -> 0 <= p_float_of alt limit v <= 1.
Proof. exact C115_range_holds. Qed.
Print Assumptions C115_range.
(** they vanish exactly when the exact ones do *)
Theorem C115_zero : forall alt limit v, simulated limit -> (p_float_of alt limit v = 0 <-> p_value_of alt limit v = 0).
Proof. exact C115_zero_holds. Qed.
Print Assumptions C115_zero.
(** they are monotone in the value of the statistic *)
Theorem C115_monotone : forall limit v w, simulated limit -> v <= w ->
  p_float_of LEFT limit v <= p_float_of LEFT limit w /\ p_float_of RIGHT limit w <= p_float_of RIGHT limit v.
Proof. exact C115_monotone_holds. Qed.
Print Assumptions C115_monotone.
(** they are at most 2^-54 (left), 2^-53 (right) and 2^-52 (two-sided) off *)
Theorem C115_error : forall alt limit v, simulated limit -> Rabs (p_float_of alt limit v - p_value_of alt limit v) <= p_value_error alt.
Proof. exact C115_error_holds. Qed.
Print Assumptions C115_error.
(** at a level given as a fraction a/b the test by p-values decides as with exact numbers, unless the exact p-value is
    equal to the level *)
Theorem C115_decisions_differ_at_ties_only : forall alt limit v a b, simulated limit -> (1 <= b)%nat -> (a <= b)%nat ->
  (Z.of_nat (length limit * b) <= 2 ^ 50)%Z -> p_value_of alt limit v <> INR a / INR b ->
  p_float_rejects alt limit v (read_level a b) = Rleb (p_value_of alt limit v) (INR a / INR b).
Proof. exact C115_decisions_differ_at_ties_only_holds. Qed.
Print Assumptions C115_decisions_differ_at_ties_only.
(** hence a rejection in double precision is a rejection with exact numbers *)
Theorem C115_rejections_are_rejections : forall alt limit v a b, simulated limit -> (1 <= b)%nat -> (a <= b)%nat ->
  (Z.of_nat (length limit * b) <= 2 ^ 50)%Z -> p_float_rejects alt limit v (read_level a b) = true -> p_value_of alt limit v <= INR a / INR b.
Proof. exact C115_rejections_are_rejections_holds. Qed.
Print Assumptions C115_rejections_are_rejections.
(** left-tailed tests reject at ties as well, so they decide as with exact numbers always *)
Theorem C115_left_decisions_equal : forall limit v a b, simulated limit -> (1 <= b)%nat -> (a <= b)%nat ->
  (Z.of_nat (length limit * b) <= 2 ^ 50)%Z ->
  p_float_rejects LEFT limit v (read_level a b) = Rleb (p_value_of LEFT limit v) (INR a / INR b).
Proof. exact C115_left_decisions_equal_holds. Qed.
Print Assumptions C115_left_decisions_equal.
(** right-tailed tests do not: if exactly one simulated value in twenty is greater than the statistic, the exact p-value
    is 0.05, but the computed one is greater than the level 0.05 *)
Theorem C115_right_tie_refuted : forall limit v, simulated limit -> share_at_most limit v 19 20 ->
  p_value_of RIGHT limit v = 1 / 20 /\ p_float_rejects RIGHT limit v (read_level 1 20) = false.
Proof. exact C115_right_tie_refuted_holds. Qed.
Print Assumptions C115_right_tie_refuted.
(** two-sided tests treat the tails differently: with one simulated value in forty below the statistic the hypothesis is
    rejected at the level 0.05, with one in forty above it is not *)
Theorem C115_two_sided_tails_refuted : forall limit v, simulated limit ->
  (share_at_most limit v 39 40 -> p_value_of TWO_TAILED limit v = 1 / 20 /\ p_float_rejects TWO_TAILED limit v (read_level 1 20) = false) /\
  (share_at_most limit v 1 40 -> p_value_of TWO_TAILED limit v = 1 / 20 /\ p_float_rejects TWO_TAILED limit v (read_level 1 20) = true).
Proof. exact C115_two_sided_tails_refuted_holds. Qed.
Print Assumptions C115_two_sided_tails_refuted.
(** critical values lie between two neighbouring simulated values *)
Theorem C115_critical_value_between : forall limit level, simulated limit -> (forall x, In x limit -> is_b64 x) -> is_b64 level -> 0 <= level <= 1 ->
  let bracketed c := exists lo hi, neighbours limit lo hi /\ lo <= c <= hi in
  (forall alt, alt <> TWO_TAILED -> exists c, critical_value_float_of alt limit level = Ok (CV1 c) /\ bracketed c) /\
  exists l r, critical_value_float_of TWO_TAILED limit level = Ok (CV2 l r) /\ bracketed l /\ bracketed r.
Proof. exact C115_critical_value_between_holds. Qed.
Print Assumptions C115_critical_value_between.
(** for different simulated values in increasing order, the left critical value at level q lies between those of the
    ranks next to (n-1)q, up to the rounding of this product *)
Theorem C115_critical_value_rank : forall limit level c, simulated limit -> NoDup limit -> (forall x, In x limit -> is_b64 x) -> is_b64 level -> 0 <= level <= 1 ->
  critical_value_float_of LEFT limit level = Ok (CV1 c) -> let h := INR (length limit - 1) * level in
  exists k, (1 - ulp_half) * h - 1 < INR k <= (1 + ulp_half) * h /\ nth k (rsort limit) 0 <= c <= nth (Nat.min (k + 1) (length limit - 1)) (rsort limit) 0.
Proof. exact C115_critical_value_rank_holds. Qed.
Print Assumptions C115_critical_value_rank.
(** a statistic beyond all simulated values is rejected by right-tailed critical values, one below all of them is not *)
Theorem C115_critical_value_extremes : forall limit level v, simulated limit -> (forall x, In x limit -> is_b64 x) -> is_b64 level -> 0 <= level <= 1 ->
  ((forall x, In x limit -> x < v) -> critical_float_rejects RIGHT limit v level = Ok true) /\
  ((forall x, In x limit -> v <= x) -> critical_float_rejects RIGHT limit v level = Ok false).
Proof. exact C115_critical_value_extremes_holds. Qed.
Print Assumptions C115_critical_value_extremes.
(** twenty simulated values 1, ..., 20 and the statistic 19 *)
Example C115_nonvacuous : let limit := map INR (seq 1 20) in simulated limit /\ share_at_most limit 19 19 20 /\ (forall x, In x limit -> is_b64 x) /\
  p_float_of LEFT [1; 2] 1 = 1 / 2 /\ critical_value_float_of RIGHT [1; 2] 0 = Ok (CV1 2).
Proof. exact C115_nonvacuous_holds. Qed.
