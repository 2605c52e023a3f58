(** Proofs about Monte-Carlo decisions in binary64. *)
From Verif Require Import Base DecModel DecSpec DecProofs MTFloat MTFloatModel MTFloatSpec MTFloatProofs MTFloatClaims MCFloatModel MCFloatSpec.
From Flocq Require Import Core.
From Coq Require Import Sorted Permutation Lra Lia.
Local Existing Instance b64_valid.

Lemma b64_half : is_b64 (1 / 2).
Proof. replace (1 / 2) with (IZR 1 * bpow radix2 (-1)) by (simpl; lra). apply b64_dyadic; lia. Qed.
Lemma fl_unit x : Rabs x <= 1 -> Rabs (fl x - x) <= ulp_half / 2.
Proof.
  intros H. pose proof ulp_half_pos as U. destruct (Req_dec x 0) as [->|N0]; [rewrite fl_0, Rminus_0_r, Rabs_R0; lra|].
  destruct (Req_dec (Rabs x) 1) as [E|N1].
  - assert (B : is_b64 x). { unfold Rabs in E. destruct (Rcase_abs x). replace x with (- (1)) by lra. apply generic_format_opp, b64_one. rewrite E. apply b64_one. }
    rewrite fl_id by exact B. unfold Rminus. rewrite Rplus_opp_r, Rabs_R0. lra.
  - pose proof (error_le_half_ulp radix2 b64 (fun z => negb (Z.even z)) x) as E. fold (fl x) in E. eapply Rle_trans; [exact E|].
    enough (ulp radix2 b64 x <= ulp_half) by lra. rewrite ulp_neq_0 by exact N0. unfold ulp_half. apply bpow_le. unfold cexp.
    assert (M : (mag radix2 x <= 0)%Z) by (apply mag_le_bpow; [exact N0|simpl; lra]). unfold b64, FLT_exp. lia.
Qed.
Lemma b64_double y : is_b64 y -> is_b64 (2 * y).
Proof.
  intros H. unfold is_b64, b64 in *. apply FLT_format_generic in H; [|reflexivity]. destruct H as [[m e] -> Hm He]. simpl in Hm, He.
  apply generic_format_FLT. exists (Float radix2 m (e + 1)); [|exact Hm|simpl; lia].
  unfold F2R. cbn [Fnum Fexp]. rewrite bpow_plus. change (bpow radix2 1) with 2. ring.
Qed.

Section Simulation.
Variables (limit : list R) (n : nat).
Hypothesis Sim : simulated limit.
Hypothesis Len : n = length limit.
Lemma n_pos : (1 <= n)%nat.
Proof. destruct Sim as [H _]. rewrite Len. destruct limit; [contradiction|simpl; lia]. Qed.
Lemma n_R : 0 < INR n.
Proof. apply lt_0_INR, n_pos. Qed.
Definition le_count (x : R) : nat := count (fun y => Rleb y x) limit.
Lemma le_count_n x : (le_count x <= n)%nat.
Proof. rewrite Len. apply count_le_length. Qed.
Lemma evaluate_float x : ecdf_evaluate_float limit x = fl (INR (le_count x) / INR n).
Proof.
  pose proof (le_count_n x) as LE. destruct Sim as [_ Big].
  unfold ecdf_evaluate_float, ecdf_quantiles, ecdf_probabilities_float.
  set (r := runs (rsort limit)).
  assert (Hr : StronglySorted Rlt (map fst r)) by (apply runs_strict, rsort_sorted).
  set (g := fun c : nat => fl (of_int c / of_int (length limit))).
  assert (Hg : g 0%nat = 0). { unfold g, of_int. change (INR 0) with 0. rewrite fl_0. unfold Rdiv. rewrite Rmult_0_l. apply fl_0. }
  assert (E : nth (searchsorted_right (map fst r) x) (0 :: map g (cumsum_from 0 (map snd r))) 0
    = g (nth (searchsorted_right (map fst r) x) (0%nat :: cumsum_from 0 (map snd r)) 0%nat)).
  { rewrite <- (map_nth g). cbn [map]. rewrite Hg. reflexivity. }
  rewrite E. rewrite nth_cumsum by exact Hr. unfold r. rewrite runs_expand. unfold g.
  rewrite (count_perm _ _ _ (rsort_perm limit)). fold (le_count x). rewrite !of_int_exact by lia. rewrite Len. reflexivity.
Qed.
Lemma evaluate_exact x : ecdf_evaluate limit x = INR (le_count x) / INR n.
Proof. rewrite ecdf_is_fraction, Len. reflexivity. Qed.
Lemma ratio_range x : 0 <= INR (le_count x) / INR n <= 1.
Proof. rewrite <- evaluate_exact. apply ecdf_range, Sim. Qed.
Lemma evaluate_range x : 0 <= ecdf_evaluate_float limit x <= 1.
Proof. rewrite evaluate_float. pose proof (ratio_range x). split; [apply fl_nonneg; lra|apply fl_le; [apply b64_one|lra]]. Qed.
Lemma evaluate_mono x y : x <= y -> ecdf_evaluate_float limit x <= ecdf_evaluate_float limit y.
Proof. intros H. rewrite !evaluate_float. apply fl_mono. rewrite <- !evaluate_exact. apply ecdf_mono; [apply Sim|exact H]. Qed.
Lemma complement_range c : 0 <= c <= 1 -> 0 <= fl (1 - c) <= 1.
Proof. intros H. split; [apply fl_nonneg; lra|apply fl_le; [apply b64_one|lra]]. Qed.
Lemma evaluate_b64 x : is_b64 (ecdf_evaluate_float limit x).
Proof. rewrite evaluate_float. apply fl_b64. Qed.
Lemma two_sided_exact x : two_sided_p_float limit x = 2 * Rmin (ecdf_evaluate_float limit x) (fl (1 - ecdf_evaluate_float limit x)).
Proof. unfold two_sided_p_float. apply fl_id, b64_double. unfold Rmin. destruct (Rle_dec _ _); [apply evaluate_b64|apply fl_b64]. Qed.
(** one half separates: a number and the complement cannot both exceed it *)
Lemma min_complement c : 0 <= c <= 1 -> Rmin c (fl (1 - c)) <= 1 / 2.
Proof.
  intros H. destruct (Rle_or_lt c (1 / 2)) as [L|L]; [eapply Rle_trans; [apply Rmin_l|exact L]|].
  eapply Rle_trans; [apply Rmin_r|]. apply fl_le; [apply b64_half|lra].
Qed.
Lemma p_float_range alt x : 0 <= p_float_of alt limit x <= 1.
Proof.
  pose proof (evaluate_range x) as E. pose proof (complement_range _ E) as C. destruct alt; cbn [p_float_of].
  - exact C.
  - exact E.
  - rewrite two_sided_exact. pose proof (min_complement _ E). unfold Rmin in *. destruct (Rle_dec _ _); lra.
Qed.
Lemma evaluate_error x : Rabs (ecdf_evaluate_float limit x - ecdf_evaluate limit x) <= ulp_half / 2.
Proof. rewrite evaluate_float, evaluate_exact. apply fl_unit. pose proof (ratio_range x). rewrite Rabs_pos_eq; lra. Qed.
Lemma complement_error x : Rabs (fl (1 - ecdf_evaluate_float limit x) - (1 - ecdf_evaluate limit x)) <= ulp_half.
Proof.
  pose proof (evaluate_error x) as E. pose proof (evaluate_range x) as G. pose proof (fl_unit (1 - ecdf_evaluate_float limit x)) as C.
  rewrite Rabs_pos_eq in C by lra. specialize (C ltac:(lra)). apply Rabs_le_inv in E, C. apply Rabs_le. lra.
Qed.
Lemma p_float_error alt x : Rabs (p_float_of alt limit x - p_value_of alt limit x) <= p_value_error alt.
Proof.
  pose proof (evaluate_error x) as E. pose proof (complement_error x) as C. pose proof ulp_half_pos as U. destruct alt; cbn [p_float_of p_value_of p_value_error].
  - exact C.
  - exact E.
  - rewrite two_sided_exact. unfold two_sided_p_value. apply Rabs_le_inv in E, C. apply Rabs_le. unfold Rmin. destruct (Rle_dec _ _), (Rle_dec _ _); lra.
Qed.
(** exact p-values are multiples of 1/n *)
Lemma p_value_multiple alt x : exists j, p_value_of alt limit x = INR j / INR n.
Proof.
  pose proof n_R as N. pose proof (le_count_n x) as LE. set (k := le_count x) in *.
  assert (C : 1 - INR k / INR n = INR (n - k) / INR n) by (rewrite minus_INR by exact LE; field; lra).
  destruct alt; cbn [p_value_of]; unfold right_p_value, left_p_value, two_sided_p_value; rewrite evaluate_exact; fold k; rewrite ?C.
  - now exists (n - k)%nat.
  - now exists k.
  - unfold Rmin. destruct (Rle_dec _ _); [exists (2 * k)%nat|exists (2 * (n - k))%nat]; rewrite mult_INR; simpl (INR 2); field; lra.
Qed.
Lemma evaluate_zero x : ecdf_evaluate_float limit x = 0 <-> ecdf_evaluate limit x = 0.
Proof.
  rewrite evaluate_float, evaluate_exact. split; [|intros ->; apply fl_0]. intros E. pose proof n_R as N. destruct (le_count x) as [|k] eqn:K; [simpl; unfold Rdiv; lra|].
  exfalso. destruct Sim as [_ Big]. rewrite <- Len in Big. assert (B : bpow radix2 (-53) <= INR (S k) / INR n).
  { apply (Rmult_le_reg_r (INR n)); [exact N|]. unfold Rdiv. rewrite Rmult_assoc, Rinv_l, Rmult_1_r by lra.
    apply (Rle_trans _ 1); [|apply INR_ge1; lia]. apply (Rmult_le_reg_l (bpow radix2 53)); [apply bpow_gt_0|]. rewrite <- Rmult_assoc, <- bpow_plus. simpl (bpow radix2 (53 + -53)).
    rewrite Rmult_1_l, Rmult_1_r, INR_IZR_INZ. change (bpow radix2 53) with (IZR (2 ^ 53)). apply IZR_le. lia. }
  assert (F : bpow radix2 (-53) <= fl (INR (S k) / INR n)) by (apply fl_ge; [apply generic_format_bpow; unfold b64, FLT_exp; lia|exact B]).
  pose proof (bpow_gt_0 radix2 (-53)). lra.
Qed.
Lemma complement_zero x : fl (1 - ecdf_evaluate_float limit x) = 0 <-> 1 - ecdf_evaluate limit x = 0.
Proof.
  pose proof n_R as N. pose proof (le_count_n x) as LE. destruct Sim as [_ Big]. rewrite <- Len in Big. rewrite evaluate_float, evaluate_exact. split.
  - intros E. destruct (Nat.eq_dec (le_count x) n) as [->|Ne]; [field; lra|]. exfalso. set (k := le_count x) in *.
    assert (B : INR k / INR n <= 1 - ulp_half).
    { apply (Rmult_le_reg_r (INR n)); [exact N|]. unfold Rdiv. rewrite Rmult_assoc, Rinv_l, Rmult_1_r by lra.
      assert (INR k <= INR n - 1). { replace 1 with (INR 1) by reflexivity. rewrite <- minus_INR by lia. apply le_INR. lia. }
      assert (ulp_half * INR n <= 1); [|lra]. unfold ulp_half. apply (Rmult_le_reg_l (bpow radix2 53)); [apply bpow_gt_0|]. rewrite <- Rmult_assoc, <- bpow_plus. simpl (bpow radix2 (53 + -53)).
      rewrite Rmult_1_l, Rmult_1_r, INR_IZR_INZ. change (bpow radix2 53) with (IZR (2 ^ 53)). apply IZR_le. lia. }
    assert (F : fl (INR k / INR n) <= 1 - ulp_half).
    { apply fl_le; [|exact B]. replace (1 - ulp_half) with (IZR (2 ^ 53 - 1) * bpow radix2 (-53)) by (unfold ulp_half; simpl; lra). apply b64_dyadic; lia. }
    assert (G : ulp_half <= fl (1 - fl (INR k / INR n))) by (apply fl_ge; [apply generic_format_bpow; unfold b64, FLT_exp; lia|lra]).
    pose proof ulp_half_pos. lra.
  - intros E. replace (INR (le_count x) / INR n) with 1 by lra. rewrite (fl_id 1) by apply b64_one. rewrite Rminus_eq_0. apply fl_0.
Qed.
Lemma p_float_zero alt x : p_float_of alt limit x = 0 <-> p_value_of alt limit x = 0.
Proof.
  pose proof (evaluate_zero x) as A. pose proof (complement_zero x) as B. pose proof (evaluate_range x) as E. pose proof (complement_range _ E) as C. pose proof (ecdf_range limit x (proj1 Sim)) as G.
  destruct alt; cbn [p_float_of p_value_of].
  - exact B.
  - exact A.
  - rewrite two_sided_exact. unfold two_sided_p_value.
    assert (Z : forall u v, 0 <= u -> 0 <= v -> (2 * Rmin u v = 0 <-> u = 0 \/ v = 0)).
    { intros u v U V. unfold Rmin. destruct (Rle_dec u v); split; [left; lra|intros [|]; lra|right; lra|intros [|]; lra]. }
    rewrite !Z by lra. tauto.
Qed.
End Simulation.
