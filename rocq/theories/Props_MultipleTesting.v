(** Properties C01-C12: multiple-testing corrections. *)
From Verif Require Import Base MTModel MTSpec MTProofs ProbSpec ProbProofs MTErrorSpec MTErrorProofs
  MTMoreProofs MTFactor MTFloat.
From Coq Require Import NArith.

(** *** C01 *)
Theorem C01_bonferroni_adjust : forall p, pvalues p ->
  exists a, adjust Bonferroni p = Ok a /\
    pointwise (fun x v => v = Rmin 1 (INR (length p) * x)) p a /\
    pointwise (fun x v => x <= v <= 1) p a.
Proof. exact bonferroni_value. Qed.
Print Assumptions C01_bonferroni_adjust.

Example ex_pvalues : pvalues [1/100; 3/10; 1].
Proof. pv. Qed.
Example C01_nonvacuous : adjust Bonferroni [1/100; 3/10; 1/2] = Ok [3/100; 9/10; 1].
Proof.
  simpl. unfold bonferroni_adjust. rewrite validate_ok by pv. cbn -[INR].
  replace (INR 3) with 3 by (simpl; lra). rewrite 2!Rmin_left, Rmin_right by lra.
  list_eq.
Qed.

(** *** C02: family-wise error of Bonferroni, any joint law *)
Theorem C02_bonferroni_fwer : forall (Om : Type) (E : (Om -> R) -> R) m nulls X threshold,
  is_expectation E -> valid_null_pvalues E m nulls X -> 0 <= threshold ->
  FWER E Bonferroni m nulls X threshold <= threshold.
Proof. intros; apply bonferroni_fwer; assumption. Qed.
Print Assumptions C02_bonferroni_fwer.
Theorem C02_bonferroni_fwer_null_fraction : forall (Om : Type) (E : (Om -> R) -> R) m nulls X threshold,
  is_expectation E -> (0 < m)%nat -> valid_null_pvalues E m nulls X -> 0 <= threshold <= 1 ->
  FWER E Bonferroni m nulls X threshold <= threshold * INR (null_count m nulls) / INR m.
Proof. intros; apply bonferroni_fwer_sharp; assumption. Qed.
Print Assumptions C02_bonferroni_fwer_null_fraction.
(** the hypotheses are met by a correlated law with mass on small p-values *)
Example C02_nonvacuous :
  is_expectation (finite_expectation bad_law) /\
  valid_null_pvalues (finite_expectation bad_law) 2 (fun _ => true) bad_vector.
Proof. split; [exact bad_law_expectation|exact bad_law_valid]. Qed.

(** *** C03: Sidak *)
Theorem C03_sidak_adjust : forall p, pvalues p ->
  exists a, adjust Sidak p = Ok a /\
    pointwise (fun x v => v = 1 - (1 - x) ^ length p) p a /\
    pointwise (fun x v => x <= v <= 1) p a.
Proof. exact sidak_value. Qed.
Print Assumptions C03_sidak_adjust.
Theorem C03_sidak_fwer_independent : forall (Om : Type) (E : (Om -> R) -> R) m nulls X threshold,
  is_expectation E -> valid_null_pvalues E m nulls X ->
  independent_nulls E m nulls (fun i w => nth i (X w) 0) -> 0 <= threshold ->
  FWER E Sidak m nulls X threshold <= threshold.
Proof. intros; eapply sidak_fwer; eauto. Qed.
Print Assumptions C03_sidak_fwer_independent.
(** two independent p-values, each 1/10 with probability 1/10 and 1 otherwise *)
Definition indep_vector (w : bool * bool) : list R :=
  [if fst w then 1/10 else 1; if snd w then 1/10 else 1].
Definition indep_law : list (R * (bool * bool)) :=
  [(1/100, (true, true)); (9/100, (true, false)); (9/100, (false, true)); (81/100, (false, false))].
Example C03_nonvacuous :
  is_expectation (finite_expectation indep_law) /\
  valid_null_pvalues (finite_expectation indep_law) 2 (fun _ => true) indep_vector /\
  independent_nulls (finite_expectation indep_law) 2 (fun _ => true) (fun i w => nth i (indep_vector w) 0).
Proof.
  split; [|split].
  - apply finite_is_expectation. split.
    + intros p Hp. simpl in Hp. repeat (destruct Hp as [<-|Hp]; [simpl; lra|]). destruct Hp.
    + simpl; lra.
  - split.
    + intros [[] []]; split; try reflexivity; pv.
    + intros i Hi _ t Ht. unfold Pr, finite_expectation. simpl.
      assert (i = 0 \/ i = 1)%nat as [-> | ->] by lia; simpl; unfold ind; rcase; lra.
  - intros t. unfold Pr, finite_expectation. simpl. unfold ind. rcase; simpl; lra.
Qed.

(** *** C04: Holm is not step-down; it computes Hochberg's step-up values *)
Theorem C04_holm_step_down_refuted :
  exists p a v, pvalues p /\ adjust Holm p = Ok a /\
    holm_adjusted p (nth 0 p 0) v /\ nth 0 a 0 < v.
Proof. exact holm_not_step_down. Qed.
Print Assumptions C04_holm_step_down_refuted.
Theorem C04_holm_is_hochberg_step_up : forall p, pvalues p ->
  exists a, adjust Holm p = Ok a /\ pointwise (hochberg_adjusted p) p a.
Proof. exact holm_is_hochberg. Qed.
Print Assumptions C04_holm_is_hochberg_step_up.
Theorem C04_holm_never_above_step_down : forall p a i v,
  pvalues p -> adjust Holm p = Ok a -> (i < length p)%nat ->
  holm_adjusted p (nth i p 0) v -> nth i a 0 <= v.
Proof. exact holm_below_step_down. Qed.
Print Assumptions C04_holm_never_above_step_down.
Theorem C04_holm_range : forall p, pvalues p ->
  exists a, adjust Holm p = Ok a /\ pointwise (fun x v => x <= v <= 1) p a.
Proof. exact holm_range. Qed.
Print Assumptions C04_holm_range.
Example C04_nonvacuous : adjust Holm [1/100; 11/1000] = Ok [11/1000; 11/1000]
  /\ holm_adjusted [1/100; 11/1000] (1/100) (2/100).
Proof.
  split.
  - change (adjust Holm) with holm_adjust. rewrite holm_adjust_2 by lra.
    rewrite Rmin_right by lra. reflexivity.
  - replace (2/100) with (2 * (1/100)) by lra. apply holm_spec_2; lra.
Qed.

(** *** C05: Holm.test does not control the family-wise error under dependence *)
Theorem C05_holm_fwer_refuted :
  exists (Om : Type) (E : (Om -> R) -> R) m nulls X threshold,
    is_expectation E /\ valid_null_pvalues E m nulls X /\ 0 <= threshold <= 1 /\
    threshold < FWER E Holm m nulls X threshold.
Proof.
  exists (bool * bool)%type, (finite_expectation bad_law), 2%nat, (fun _ => true), bad_vector, (1/10).
  split; [exact bad_law_expectation|]. split; [exact bad_law_valid|]. split; [lra|].
  rewrite bad_law_fwer. lra.
Qed.
Print Assumptions C05_holm_fwer_refuted.
(** what does hold for every joint law *)
Theorem C05_holm_fwer_harmonic_bound : forall (Om : Type) (E : (Om -> R) -> R) m nulls X threshold,
  is_expectation E -> valid_null_pvalues E m nulls X -> 0 <= threshold ->
  FWER E Holm m nulls X threshold <= threshold * harmonic (null_count m nulls).
Proof. intros; apply holm_fwer_harmonic; assumption. Qed.
Print Assumptions C05_holm_fwer_harmonic_bound.

(** *** C06: SidakHolm is single-step Sidak *)
Theorem C06_sidak_holm_step_down_refuted :
  exists p a v, pvalues p /\ adjust SidakHolm p = Ok a /\
    holm_sidak_adjusted p (nth 1 p 0) v /\ v < nth 1 a 0.
Proof. exact sidak_holm_not_step_down. Qed.
Print Assumptions C06_sidak_holm_step_down_refuted.
Theorem C06_sidak_holm_is_single_step : forall p, pvalues p -> adjust SidakHolm p = adjust Sidak p.
Proof. exact sidak_holm_is_sidak. Qed.
Print Assumptions C06_sidak_holm_is_single_step.
Theorem C06_sidak_holm_conservative : forall p a i v, pvalues p -> adjust SidakHolm p = Ok a ->
  (i < length p)%nat -> holm_sidak_adjusted p (nth i p 0) v -> v <= nth i a 0.
Proof. exact sidak_holm_above_step_down. Qed.
Print Assumptions C06_sidak_holm_conservative.
Theorem C06_sidak_holm_fwer_independent : forall (Om : Type) (E : (Om -> R) -> R) m nulls X threshold,
  is_expectation E -> valid_null_pvalues E m nulls X ->
  independent_nulls E m nulls (fun i w => nth i (X w) 0) -> 0 <= threshold ->
  FWER E SidakHolm m nulls X threshold <= threshold.
Proof. intros; eapply sidak_fwer; eauto. Qed.
Print Assumptions C06_sidak_holm_fwer_independent.

(** *** C07 *)
Theorem C07_by_adjust : forall p, pvalues p -> (N.of_nat (length p) <= 10000)%N ->
  exists a, adjust BenjaminiYekutieli p = Ok a /\
    pointwise (by_adjusted (harmonic (length p)) p) p a /\
    pointwise (fun x v => x <= v <= 1) p a.
Proof. exact by_matches_spec. Qed.
Print Assumptions C07_by_adjust.
Example C07_nonvacuous : pvalues [1/10; 1/100; 1/2] /\ (N.of_nat (length [1/10; 1/100; 1/2]) <= 10000)%N.
Proof. split; [pv|]. intro H; discriminate H. Qed.

(** *** C08 *)
Theorem C08_by_fdr : forall (Om : Type) (E : (Om -> R) -> R) m nulls X threshold,
  is_expectation E -> (0 < m)%nat -> (N.of_nat m <= 10000)%N ->
  valid_null_pvalues E m nulls X -> 0 <= threshold <= 1 ->
  FDR E BenjaminiYekutieli m nulls X threshold <= threshold * (INR (null_count m nulls) / INR m).
Proof. intros; apply by_fdr; assumption. Qed.
Print Assumptions C08_by_fdr.

(** *** C09 *)
Theorem C09_by_harmonic_factor_refuted : exists m, by_factor m < harmonic m.
Proof. exists big_m. exact by_factor_below_harmonic. Qed.
Print Assumptions C09_by_harmonic_factor_refuted.
Theorem C09_by_harmonic_factor_up_to_10000 : forall m, (N.of_nat m <= 10000)%N -> by_factor m = harmonic m.
Proof. exact by_factor_harmonic. Qed.
Print Assumptions C09_by_harmonic_factor_up_to_10000.
Theorem C09_by_factor_close : forall m, (10000 < N.of_nat m)%N -> harmonic m <= by_factor m + / 10000.
Proof. exact harmonic_le_by_factor. Qed.
Print Assumptions C09_by_factor_close.
(** beyond 10000 hypotheses the guarantee degrades by at most 25 parts per million *)
Theorem C09_by_fdr_large : forall (Om : Type) (E : (Om -> R) -> R) m nulls X threshold,
  is_expectation E -> (10000 < N.of_nat m)%N ->
  valid_null_pvalues E m nulls X -> 0 <= threshold <= 1 ->
  FDR E BenjaminiYekutieli m nulls X threshold
    <= threshold * (INR (null_count m nulls) / INR m) * (1 + 25 / 1000000).
Proof.
  intros Om E m nulls X t HE Hm HX Ht.
  pose proof (by_factor_large_ge m Hm) as H4. pose proof (harmonic_le_by_factor m Hm) as Hh.
  eapply Rle_trans; [apply by_fdr_general; auto; [lia|lra]|].
  apply Rmult_le_compat_l.
  - apply Rmult_le_pos; [lra|]. apply Rmult_le_pos; [apply pos_INR|].
    left; apply Rinv_0_lt_compat, INR_pos; lia.
  - apply (Rmult_le_reg_r (by_factor m)); [lra|]. unfold Rdiv at 1.
    rewrite Rmult_assoc, Rinv_l by lra. lra.
Qed.
Print Assumptions C09_by_fdr_large.

(** *** C10 *)
Theorem C10_adjust_equivariant : forall mt p sigma a,
  pvalues p -> Permutation sigma (seq 0 (length p)) -> adjust mt p = Ok a ->
  adjust mt (permute 0 sigma p) = Ok (permute 0 sigma a).
Proof. exact adjust_equivariant. Qed.
Print Assumptions C10_adjust_equivariant.
Theorem C10_adjust_order_preserving : forall mt p a, pvalues p -> adjust mt p = Ok a ->
  length a = length p /\
  forall i j, (i < length p)%nat -> (j < length p)%nat -> nth i p 0 <= nth j p 0 -> nth i a 0 <= nth j a 0.
Proof.
  intros mt p a Hp Ha. split.
  - destruct (adjust_ok mt p Hp) as (a' & E & Hl). congruence.
  - intros i j Hi Hj H. eapply adjust_mono; eauto.
Qed.
Print Assumptions C10_adjust_order_preserving.
Theorem C10_adjust_total : forall mt p, pvalues p -> exists a, adjust mt p = Ok a.
Proof. intros mt p Hp. destruct (adjust_ok mt p Hp) as (a & E & _). eauto. Qed.
Print Assumptions C10_adjust_total.
Example C10_nonvacuous : Permutation [2%nat; 0%nat; 1%nat] (seq 0 (length [1/10; 1/100; 1/2]))
  /\ permute 0 [2%nat; 0%nat; 1%nat] [1/10; 1/100; 1/2] = [1/2; 1/10; 1/100].
Proof.
  split; [|reflexivity]. simpl. apply Permutation_sym.
  change [2; 0; 1]%nat with ([2] ++ [0; 1])%nat. apply (Permutation_app_comm [0; 1]%nat [2%nat]).
Qed.

(** *** C11 *)
Theorem C11_test_raises_iff_invalid : forall mt p threshold,
  (exists e, mt_test mt p threshold = Raise e) <-> (exists x, In x p /\ ~ (0 <= x <= 1)).
Proof. exact mt_test_raises_iff. Qed.
Print Assumptions C11_test_raises_iff_invalid.
Theorem C11_test_error_is_value_error : forall mt p threshold e,
  mt_test mt p threshold = Raise e -> e = ValueError.
Proof. exact mt_test_error_kind. Qed.
Print Assumptions C11_test_error_is_value_error.
Theorem C11_test_decision_rule : forall mt p threshold, pvalues p ->
  exists rejected a, mt_test mt p threshold = Ok (rejected, a) /\ adjust mt p = Ok a /\
    length rejected = length p /\
    forall i, (i < length p)%nat -> (nth i rejected false = true <-> nth i a 0 < threshold).
Proof.
  intros mt p t Hp. destruct (mt_test_ok mt p t Hp) as (a & Ha & Hl & E).
  exists (map (fun x => Rltb x t) a), a. repeat split; auto.
  - rewrite map_length; exact Hl.
  - intros H1. pose proof (decisions_at mt p t a Hp Ha i) as D. unfold decisions in D.
    rewrite E in D. apply D, H1.
  - intros H1. pose proof (decisions_at mt p t a Hp Ha i) as D. unfold decisions in D.
    rewrite E in D. apply D. auto.
Qed.
Print Assumptions C11_test_decision_rule.
Theorem C11_test_threshold_monotone : forall mt p t1 t2 r1 r2 a1 a2 i,
  t1 <= t2 -> mt_test mt p t1 = Ok (r1, a1) -> mt_test mt p t2 = Ok (r2, a2) ->
  nth i r1 false = true -> nth i r2 false = true /\ a1 = a2.
Proof.
  intros mt p t1 t2 r1 r2 a1 a2 i Ht E1 E2 H.
  assert (Hp : pvalues p).
  { apply p_values_valid_iff. destruct (p_values_valid p) eqn:V; auto.
    unfold mt_test, validate_p_values in E1. rewrite V in E1. discriminate. }
  destruct (mt_test_ok mt p t1 Hp) as (a & Ha & Hl & F1).
  destruct (mt_test_ok mt p t2 Hp) as (a' & Ha' & Hl' & F2).
  assert (a' = a) by congruence; subst a'.
  rewrite F1 in E1; rewrite F2 in E2. injection E1 as <- <-. injection E2 as <- <-.
  split; [|reflexivity].
  destruct (le_lt_dec (length a) i) as [Hi|Hi].
  { rewrite nth_overflow in H by (rewrite map_length; lia). discriminate. }
  rewrite (nth_indep _ false (Rltb 0 t1)) in H by (rewrite map_length; lia).
  rewrite (nth_indep _ false (Rltb 0 t2)) by (rewrite map_length; lia).
  rewrite (map_nth (fun x => Rltb x t1)) in H. rewrite (map_nth (fun x => Rltb x t2)).
  apply Rltb_true in H. apply Rltb_true. lra.
Qed.
Print Assumptions C11_test_threshold_monotone.
Example C11_nonvacuous : mt_test Bonferroni [1/100; 2] (1/20) = Raise ValueError
  /\ exists a, mt_test Bonferroni [1/100; 1/2] (1/20) = Ok ([true; false], a).
Proof.
  split.
  - unfold mt_test, validate_p_values, p_values_valid. simpl. rcase; reflexivity.
  - unfold mt_test. rewrite validate_ok by pv. simpl. unfold bonferroni_adjust.
    rewrite validate_ok by pv. simpl. eexists. apply f_equal, f_equal2; [|reflexivity]. apply f_equal2; [|apply f_equal2; [|reflexivity]].
    + apply Rltb_true. rewrite Rmin_left; lra.
    + apply Rltb_false. rewrite Rmin_right; lra.
Qed.

(** *** C12: binary64 *)
Theorem C12_bonferroni_float_never_below_raw : forall p m,
  is_b64 p -> 0 <= p <= 1 -> (1 <= m)%nat -> p <= bonferroni_float p m <= 1.
Proof. exact bonferroni_float_range. Qed.
Print Assumptions C12_bonferroni_float_never_below_raw.
Theorem C12_sidak_float_at_most_one : forall pow p m,
  (forall x k, 0 <= x <= 1 -> 0 <= pow x k) -> 0 <= p <= 1 -> sidak_float pow p m <= 1.
Proof. exact sidak_float_le1. Qed.
Print Assumptions C12_sidak_float_at_most_one.
(** for every libm whose pow(1.0, m) is 1.0 and every m *)
Theorem C12_sidak_float_never_below_raw_refuted : forall pow m, (forall k, pow 1 k = 1) ->
  exists p, is_b64 p /\ 0 < p <= 1 /\ sidak_float pow p m = 0 /\ sidak_float pow p m < p.
Proof.
  intros pow m H. exists tiny. split; [exact tiny_b64|]. split.
  - split; [apply Flocq.Core.Raux.bpow_gt_0|]. unfold tiny. simpl. lra.
  - exact (sidak_float_underflow pow m H).
Qed.
Print Assumptions C12_sidak_float_never_below_raw_refuted.
Example C12_nonvacuous : is_b64 tiny /\ 0 <= tiny <= 1.
Proof. split; [exact tiny_b64|]. unfold tiny; simpl; lra. Qed.
