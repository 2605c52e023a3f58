(** Properties C54, C59, C61, C63, C64, C65, C81 and C82 for the exponentiality statistics. *)
From Coq Require Import String.
From Verif Require Import Base DecModel EdfModel GraphModel RegistryModel ExpModel ExpSpec DecSpec DecProofs EdfProofs ExpProofs ExpRangeProofs ExpClaims.
From Coq Require Import Lra Lia.
Local Open Scope string_scope.
Local Open Scope R_scope.

(** *** C54 *)
Theorem C54_exponentiality : forall A name f rvs rvs', In (name, f) (exponentiality_statistics A) ->
  Permutation rvs rvs' -> value (f rvs) = value (f rvs').
Proof. exact C54_exponentiality_holds. Qed.
Print Assumptions C54_exponentiality.
(** the table lists every class of the module that is not a graph statistic, under the names of the registry *)
Theorem C54_exponentiality_complete : forall A,
  incl (map sc_name exponent_classes)
    (map fst (exponentiality_statistics A) ++ [
      "GraphEdgesNumberExponentialityGofStatistic"; "GraphMaxDegreeExponentialityGofStatistic";
      "GraphAverageDegreeExponentialityGofStatistic"; "GraphConnectedComponentsExponentialityGofStatistic";
      "GraphCliqueNumberExponentialityGofStatistic"; "GraphIndependenceNumberExponentialityGofStatistic"]).
Proof. exact C54_exponentiality_complete_holds. Qed.
Print Assumptions C54_exponentiality_complete.

(** *** C59 *)
Theorem C59_exponentiality_scale_free : forall A name f c rvs, In (name, f) (exponentiality_statistics A) ->
  ~ In name unit_dependent -> 0 < a_p_atk A -> 0 < c -> value (f (rescaled c rvs)) = value (f rvs).
Proof. exact C59_exponentiality_scale_free_holds. Qed.
Print Assumptions C59_exponentiality_scale_free.
(** the Hegazy-Green statistics compare the data with standard exponential quantiles, whatever the unit *)
Theorem C59_hegazy_green_refuted : exists c rvs, 0 < c /\ positive rvs /\
  value (reads hg1 (rescaled c rvs)) <> value (reads hg1 rvs) /\
  value (sorts hg2_sorted (rescaled c rvs)) <> value (sorts hg2_sorted rvs).
Proof. exact C59_hegazy_green_refuted_holds. Qed.
Print Assumptions C59_hegazy_green_refuted.
(** with an estimated unit they would be scale free: dividing by the mean first *)
Theorem C59_hegazy_green_after_normalisation : forall c rvs, 0 < c ->
  hg1 (map (fun x => x / mean (rescaled c rvs)) (rescaled c rvs)) = hg1 (map (fun x => x / mean rvs) rvs) /\
  hg2_sorted (rsort (map (fun x => x / mean (rescaled c rvs)) (rescaled c rvs))) = hg2_sorted (rsort (map (fun x => x / mean rvs) rvs)).
Proof. exact C59_hegazy_green_after_normalisation_holds. Qed.
Print Assumptions C59_hegazy_green_after_normalisation.

(** *** C61 *)
Theorem C61_exponential_ks_ignores_rate : forall lam lam' alt rvs, ks_exp lam alt rvs = ks_exp lam' alt rvs.
Proof. exact C61_exponential_ks_ignores_rate_holds. Qed.
Print Assumptions C61_exponential_ks_ignores_rate.
Theorem C61_exponential_ks_refuted : exists lam rvs, 0 < lam /\ positive rvs /\
  ks_exp lam TWO_TAILED rvs <> ks_exp 1 TWO_TAILED (rescaled lam rvs).
Proof. exact C61_exponential_ks_refuted_holds. Qed.
Print Assumptions C61_exponential_ks_refuted.
Theorem C61_exponential_cvm_uses_rate : forall lam rvs, 0 < lam ->
  cvm_exp lam rvs = cvm_exp 1 (rescaled lam rvs).
Proof. exact C61_exponential_cvm_uses_rate_holds. Qed.
Print Assumptions C61_exponential_cvm_uses_rate.

(** *** C63 *)
(** every class returns a finite number on samples of at least three different positive values *)
Theorem C63_exponentiality : forall Gamma digamma1 lam alt name f rvs, lam <> 0 ->
  In (name, f) (exponentiality_statistics (default_exp_args Gamma digamma1 lam alt)) ->
  (3 <= length rvs)%nat -> NoDup rvs -> positive rvs -> exists v, value (f rvs) = Ok (Fin v).
Proof. exact C63_exponentiality_holds. Qed.
Print Assumptions C63_exponentiality.
(** the hypotheses are needed: two values give no Hollander-Proshan, Rossberg and Harris statistic, a tie no
    finite Epstein statistic, a constant sample no finite Shapiro-Wilk statistic *)
Theorem C63_exponentiality_small_or_tied : forall x y, 0 < x -> 0 < y ->
  hp [x; y] = Raise ZeroDivisionError /\ rs [x; y] = Raise ValueError /\ hm None [x; y] = Ok NonFinite /\
  eps_sorted (rsort [x; x; y]) = Ok NonFinite /\ sw_sorted (rsort [x; x; x]) = Ok NonFinite.
Proof. exact C63_exponentiality_small_or_tied_holds. Qed.
Print Assumptions C63_exponentiality_small_or_tied.

(** *** C64 *)
Theorem C64_exponentiality_reads_only : forall A name f rvs, In (name, f) (exponentiality_statistics A) ->
  ~ In name sorting_classes -> sample_after (f rvs) = rvs.
Proof. exact C64_exponentiality_reads_only_holds. Qed.
Print Assumptions C64_exponentiality_reads_only.
Theorem C64_exponentiality_sorts : forall A name f rvs, In (name, f) (exponentiality_statistics A) ->
  In name sorting_classes -> (sample_after (f rvs) = rvs <-> sortedR rvs).
Proof. exact C64_exponentiality_sorts_holds. Qed.
Print Assumptions C64_exponentiality_sorts.
Theorem C64_exponentiality_refuted : forall A, exists name f rvs, In (name, f) (exponentiality_statistics A) /\
  positive rvs /\ sample_after (f rvs) <> rvs.
Proof. exact C64_exponentiality_refuted_holds. Qed.
Print Assumptions C64_exponentiality_refuted.

(** *** C65 *)
(** Hegazy-Green: zero exactly for the perfect fit, equal to the (squared) displacement when the perfect
    fit is displaced, and yet small values are rejected *)
Theorem C65_hegazy_green_refuted :
  (forall n, exponential_quantiles n (exp_scores n)) /\
  (forall rvs, rvs <> [] -> exists v w, hg1 rvs = Ok (Fin v) /\ value (sorts hg2_sorted rvs) = Ok (Fin w) /\ 0 <= v /\ 0 <= w /\
     (v = 0 <-> rsort rvs = exp_scores (length rvs)) /\ (w = 0 <-> rsort rvs = exp_scores (length rvs))) /\
  (forall n t, (1 <= n)%nat -> hg1 (map (Rplus t) (exp_scores n)) = Ok (Fin (Rabs t)) /\
     value (sorts hg2_sorted (map (Rplus t) (exp_scores n))) = Ok (Fin (t ^ 2))) /\
  declares "HegazyGreen1ExponentialityGofStatistic" LEFT /\ declares "HegazyGreen2ExponentialityGofStatistic" LEFT.
Proof. exact C65_hegazy_green_refuted_holds. Qed.
Print Assumptions C65_hegazy_green_refuted.
(** consequence for the test: when every simulated value exceeds 0, the perfect fit has left p-value 0 and the
    p-value decision rejects it at every level *)
Theorem C65_perfect_fit_rejected : forall st (res : resolver) n limit level, st_alternative st = LEFT ->
  res st n = Ok (Some limit) -> limit <> [] -> (forall v, In v limit -> 0 < v) -> 0 <= level ->
  exists r, p_value_decide res st 0 level n = Ok r /\ tr_p_value r = Some 0 /\ tr_rejected r = true.
Proof. exact C65_perfect_fit_rejected_holds. Qed.
Print Assumptions C65_perfect_fit_rejected.
(** Kimber-Michael: the largest distance of two stabilised probability plots, zero exactly when the plots
    coincide; small values are rejected *)
Theorem C65_kimber_michael_refuted :
  (forall rvs v, rvs <> [] -> positive rvs -> value (sorts km_sorted rvs) = Ok (Fin v) ->
     0 <= v <= 1 /\
     (v = 0 <-> forall i, (i < length rvs)%nat ->
        1 - exp (- (nth i (rsort rvs) 0 / mean rvs)) = (INR (S i) - 0.5) / len rvs)) /\
  declares "KimberMichaelExponentialityGofStatistic" LEFT.
Proof. exact C65_kimber_michael_refuted_holds. Qed.
Print Assumptions C65_kimber_michael_refuted.

(** *** C81 *)
Theorem C81_exponentiality_ranges : forall rvs, (3 <= length rvs)%nat -> NoDup rvs -> positive rvs ->
  (exists v, value (reads ep rvs) = Ok (Fin v) /\ sqrt (48 * len rvs) * (exp (-1) - 1 / 2) <= v < sqrt (48 * len rvs) / 2) /\
  (exists v, value (reads ahs rvs) = Ok (Fin v) /\ -1 <= v <= 1) /\
  (exists v, value (reads co rvs) = Ok (Fin v) /\ v <= len rvs) /\
  (forall b, b < 1 -> exists v, value (reads (dsp b) rvs) = Ok (Fin v) /\ 1 / 2 <= v <= 1) /\
  (exists v, value (sorts eps_sorted rvs) = Ok (Fin v) /\ 0 <= v) /\
  (exists v, value (sorts fz_sorted rvs) = Ok (Fin v) /\ 0 <= v <= sqrt (len rvs)) /\
  (exists v, value (reads gini rvs) = Ok (Fin v) /\ 0 <= v <= 1) /\
  (forall r, (1 <= r < length rvs)%nat -> exists v, value (reads (gd (Some r)) rvs) = Ok (Fin v) /\ 0 < v) /\
  (forall r, (1 <= r)%nat -> (2 * r < length rvs)%nat -> exists v, value (reads (hm (Some r)) rvs) = Ok (Fin v) /\ 0 < v) /\
  (exists v, value (reads hp rvs) = Ok (Fin v) /\ 0 <= v <= 1) /\
  (exists v, value (sorts km_sorted rvs) = Ok (Fin v) /\ 0 <= v <= 1) /\
  (exists v, value (sorts kc_sorted rvs) = Ok (Fin v) /\ Rabs v <= sqrt (108 * len rvs / 17)) /\
  (forall p, 0 <= p <= 1 -> exists v, value (sorts (lz_sorted p) rvs) = Ok (Fin v) /\ 0 <= v <= p) /\
  (forall g, exists v, value (reads (mn g) rvs) = Ok (Fin v) /\ v <= - g) /\
  (exists v, value (reads pt rvs) = Ok (Fin v) /\ 0 <= v <= 1 - 1 / len rvs) /\
  (exists v, value (sorts sw_sorted rvs) = Ok (Fin v) /\ 1 / (len rvs - 1) ^ 2 <= v <= 1) /\
  (exists v, value (reads rs rvs) = Ok (Fin v) /\ -1 <= v <= 1) /\
  (exists v, value (reads we rvs) = Ok (Fin v) /\ 0 <= v <= (1 - 1 / len rvs) ^ 2) /\
  (exists v, value (reads ww rvs) = Ok (Fin v) /\ 1 <= v).
Proof. exact C81_exponentiality_ranges_holds. Qed.
Print Assumptions C81_exponentiality_ranges.
(** the bounds are attained: Pietra, We and the lower Shapiro-Wilk bound by one dominating observation in the
    limit; exactly here: Shapiro-Wilk reaches its upper bound *)
Theorem C81_shapiro_wilk_upper_attained : forall a b n, a < b -> (2 <= n)%nat ->
  value (sorts sw_sorted (a :: repeat b (n - 1))) = Ok (Fin 1).
Proof. exact C81_shapiro_wilk_upper_attained_holds. Qed.
Print Assumptions C81_shapiro_wilk_upper_attained.
Example C81_nonvacuous : (3 <= length [1; 2; 3])%nat /\ NoDup [1; 2; 3] /\ positive [1; 2; 3] /\
  value (reads gini [1; 2; 3]) = Ok (Fin (1 / 3)).
Proof. exact C81_nonvacuous_holds. Qed.

(** *** C82 *)
(** the Gini statistic, computed from the gaps of the sorted sample, is half the relative mean difference *)
Theorem C82_gini_is_relative_mean_difference : forall rvs, (2 <= length rvs)%nat -> Rsum rvs <> 0 ->
  value (reads gini rvs) = Ok (Fin (mean_difference rvs / (2 * mean rvs))).
Proof. exact C82_gini_is_relative_mean_difference_holds. Qed.
Print Assumptions C82_gini_is_relative_mean_difference.
(** the normalised spacings behind the Epstein, Gnedenko and Harris statistics sum to the total of the sample *)
Theorem C82_spacings_sum_to_total : forall rvs, Rsum (norm_spacings 0 (rsort rvs)) = Rsum rvs.
Proof. exact C82_spacings_sum_to_total_holds. Qed.
Print Assumptions C82_spacings_sum_to_total.
(** the Deshpande statistic is the fraction of ordered pairs (i, k), i <> k, with x_i > b x_k *)
Theorem C82_deshpande_is_fraction : forall b rvs, (2 <= length rvs)%nat -> b < 1 -> positive rvs ->
  value (reads (dsp b) rvs) = Ok (Fin
    ((Rsum (map (fun x => INR (count (fun y => Rltb (b * y) x) rvs)) rvs) - len rvs) / (len rvs * (len rvs - 1)))).
Proof. exact C82_deshpande_is_fraction_holds. Qed.
Print Assumptions C82_deshpande_is_fraction.
