(** Proofs of the theorems in Props_MCFloat.v. *)
From Coq Require Import Sorted Permutation Lra Lia.
From Flocq Require Import Core.
From Verif Require Import Base DecModel DecSpec DecProofs MTFloat MTFloatModel MTFloatSpec MTFloatProofs MTFloatClaims MCFloatModel MCFloatSpec MCFloatProofs MCFloat2Proofs.

(** *** C115 *)
(** p-values in double precision lie in [0,1] *)
Lemma C115_range_holds : forall alt limit v, simulated limit -> 0 <= p_float_of alt limit v <= 1.
Proof. intros alt limit v S. exact (p_float_range limit (length limit) S eq_refl alt v). Qed.
(** they vanish exactly when the exact ones do *)
Lemma C115_zero_holds : forall alt limit v, simulated limit -> (p_float_of alt limit v = 0 <-> p_value_of alt limit v = 0).
Proof. intros alt limit v S. exact (p_float_zero limit (length limit) S eq_refl alt v). Qed.
(** they are monotone in the value of the statistic *)
Lemma C115_monotone_holds : forall limit v w, simulated limit -> v <= w ->
  p_float_of LEFT limit v <= p_float_of LEFT limit w /\ p_float_of RIGHT limit w <= p_float_of RIGHT limit v.
Proof.
  intros limit v w S H. pose proof (evaluate_mono limit (length limit) S eq_refl v w H) as M. split; [exact M|].
  cbn [p_float_of]. unfold right_p_float. apply fl_mono. lra.
Qed.
(** they are at most 2^-54 (left), 2^-53 (right) and 2^-52 (two-sided) off *)
Lemma C115_error_holds : forall alt limit v, simulated limit -> Rabs (p_float_of alt limit v - p_value_of alt limit v) <= p_value_error alt.
Proof. intros alt limit v S. exact (p_float_error limit (length limit) S eq_refl alt v). Qed.

Lemma level_error a b : (1 <= b)%nat -> (a <= b)%nat -> Rabs (read_level a b - INR a / INR b) <= ulp_half / 2.
Proof.
  intros Hb Ha. apply fl_unit. assert (0 < INR b) by (apply lt_0_INR; lia). pose proof (pos_INR a). apply le_INR in Ha.
  rewrite Rabs_pos_eq; [|apply Rmult_le_pos; [lra|left; now apply Rinv_0_lt_compat]].
  apply (Rmult_le_reg_r (INR b)); [lra|]. unfold Rdiv. rewrite Rmult_assoc, Rinv_l; lra.
Qed.
Lemma fractions_apart j n a b : (1 <= n)%nat -> (1 <= b)%nat -> (Z.of_nat (n * b) <= 2 ^ 50)%Z -> INR j / INR n <> INR a / INR b ->
  8 * ulp_half <= Rabs (INR j / INR n - INR a / INR b).
Proof.
  intros Hn Hb Big Ne. assert (N : 0 < INR n) by (apply lt_0_INR; lia). assert (B : 0 < INR b) by (apply lt_0_INR; lia). assert (NB : 0 < INR n * INR b) by nra.
  set (z := (Z.of_nat j * Z.of_nat b - Z.of_nat a * Z.of_nat n)%Z).
  assert (E : INR j / INR n - INR a / INR b = IZR z / (INR n * INR b)).
  { unfold z. rewrite minus_IZR, !mult_IZR, <- !INR_IZR_INZ. field. lra. }
  assert (Z0 : z <> 0%Z). { intros Z. rewrite Z in E. unfold Rdiv in E at 3. rewrite Rmult_0_l in E. apply Ne. lra. }
  rewrite E. unfold Rdiv. rewrite Rabs_mult, (Rabs_pos_eq (/ _)) by (left; now apply Rinv_0_lt_compat).
  apply (Rmult_le_reg_r (INR n * INR b)); [exact NB|]. rewrite (Rmult_assoc (Rabs _)), Rinv_l, Rmult_1_r by lra.
  apply (Rle_trans _ 1).
  - replace (8 * ulp_half) with (bpow radix2 (-50)) by (unfold ulp_half; simpl; lra).
    apply (Rmult_le_reg_l (bpow radix2 50)); [apply bpow_gt_0|]. rewrite <- Rmult_assoc, <- bpow_plus. simpl (bpow radix2 (50 + -50)).
    rewrite Rmult_1_l, Rmult_1_r, <- mult_INR, INR_IZR_INZ. change (bpow radix2 50) with (IZR (2 ^ 50)). now apply IZR_le.
  - rewrite <- abs_IZR. apply IZR_le. lia.
Qed.
(** at a level given as a fraction a/b the test by p-values decides as with exact numbers, unless the exact p-value is
    equal to the level *)
Lemma C115_decisions_differ_at_ties_only_holds : forall alt limit v a b, simulated limit -> (1 <= b)%nat -> (a <= b)%nat ->
  (Z.of_nat (length limit * b) <= 2 ^ 50)%Z -> p_value_of alt limit v <> INR a / INR b ->
  p_float_rejects alt limit v (read_level a b) = Rleb (p_value_of alt limit v) (INR a / INR b).
Proof.
  intros alt limit v a b S Hb Ha Big Ne. pose proof (C115_error_holds alt limit v S) as E. pose proof (level_error a b Hb Ha) as L.
  destruct (p_value_multiple limit (length limit) S eq_refl alt v) as [j J]. pose proof (n_pos limit (length limit) S eq_refl) as N.
  pose proof (fractions_apart j (length limit) a b N Hb Big) as A. rewrite <- J in A. specialize (A Ne). pose proof ulp_half_pos as U.
  assert (W : p_value_error alt <= 2 * ulp_half) by (destruct alt; simpl; lra).
  unfold p_float_rejects. apply Rabs_le_inv in E, L. destruct (Rleb_spec (p_value_of alt limit v) (INR a / INR b)) as [C|C].
  - apply Rleb_true. rewrite Rabs_left1 in A by lra. lra.
  - apply Rleb_false. rewrite Rabs_pos_eq in A by lra. lra.
Qed.
(** hence a rejection in double precision is a rejection with exact numbers *)
Lemma C115_rejections_are_rejections_holds : forall alt limit v a b, simulated limit -> (1 <= b)%nat -> (a <= b)%nat ->
  (Z.of_nat (length limit * b) <= 2 ^ 50)%Z -> p_float_rejects alt limit v (read_level a b) = true -> p_value_of alt limit v <= INR a / INR b.
Proof.
  intros alt limit v a b S Hb Ha Big H. destruct (Req_dec (p_value_of alt limit v) (INR a / INR b)) as [E|E]; [lra|].
  rewrite (C115_decisions_differ_at_ties_only_holds alt limit v a b) in H by trivial. now apply Rleb_true in H.
Qed.
(** left-tailed tests reject at ties as well, so they decide as with exact numbers always *)
Lemma C115_left_decisions_equal_holds : forall limit v a b, simulated limit -> (1 <= b)%nat -> (a <= b)%nat ->
  (Z.of_nat (length limit * b) <= 2 ^ 50)%Z ->
  p_float_rejects LEFT limit v (read_level a b) = Rleb (p_value_of LEFT limit v) (INR a / INR b).
Proof.
  intros limit v a b S Hb Ha Big. destruct (Req_dec (p_value_of LEFT limit v) (INR a / INR b)) as [E|E]; [|now apply C115_decisions_differ_at_ties_only_holds].
  rewrite E. unfold p_float_rejects. rewrite (proj2 (Rleb_true (INR a / INR b) (INR a / INR b))) by lra. apply Rleb_true. cbn [p_float_of p_value_of] in *. unfold left_p_float, left_p_value in *.
  rewrite (evaluate_float limit (length limit) S eq_refl). rewrite (evaluate_exact limit (length limit) eq_refl) in E. rewrite E. unfold read_level. lra.
Qed.

Lemma fl_19_20 : fl (19 / 20) = IZR 8556839292003942 * bpow radix2 (-53).
Proof.
  assert (Hm : mag_val radix2 _ (mag radix2 (19 / 20)) = 0%Z) by (apply mag_unique; rewrite Rabs_pos_eq by lra; simpl; lra).
  unfold fl, round, F2R, scaled_mantissa, cexp. rewrite Hm. change (b64 0) with (-53)%Z. cbn [Fexp Fnum].
  assert (Hn : ZnearestE (19 / 20 * bpow radix2 (- -53)) = 8556839292003942%Z) by (apply Znearest_imp; simpl; rewrite Rabs_pos_eq; lra).
  now rewrite Hn.
Qed.
Lemma fl_39_40 : fl (39 / 40) = IZR 8782019273372467 * bpow radix2 (-53).
Proof.
  assert (Hm : mag_val radix2 _ (mag radix2 (39 / 40)) = 0%Z) by (apply mag_unique; rewrite Rabs_pos_eq by lra; simpl; lra).
  unfold fl, round, F2R, scaled_mantissa, cexp. rewrite Hm. change (b64 0) with (-53)%Z. cbn [Fexp Fnum].
  assert (Hn : ZnearestE (39 / 40 * bpow radix2 (- -53)) = 8782019273372467%Z) by (apply Znearest_imp; simpl; rewrite Rabs_pos_eq; lra).
  now rewrite Hn.
Qed.
Lemma fl_1_20 : fl (1 / 20) = IZR 7205759403792794 * bpow radix2 (-57).
Proof.
  assert (Hm : mag_val radix2 _ (mag radix2 (1 / 20)) = (-4)%Z) by (apply mag_unique; rewrite Rabs_pos_eq by lra; simpl; lra).
  unfold fl, round, F2R, scaled_mantissa, cexp. rewrite Hm. change (b64 (-4)) with (-57)%Z. cbn [Fexp Fnum].
  assert (Hn : ZnearestE (1 / 20 * bpow radix2 (- -57)) = 7205759403792794%Z) by (apply Znearest_imp; simpl; rewrite Rabs_left1; lra).
  now rewrite Hn.
Qed.
Lemma fl_1_40 : fl (1 / 40) = IZR 7205759403792794 * bpow radix2 (-58).
Proof.
  assert (Hm : mag_val radix2 _ (mag radix2 (1 / 40)) = (-5)%Z) by (apply mag_unique; rewrite Rabs_pos_eq by lra; simpl; lra).
  unfold fl, round, F2R, scaled_mantissa, cexp. rewrite Hm. change (b64 (-5)) with (-58)%Z. cbn [Fexp Fnum].
  assert (Hn : ZnearestE (1 / 40 * bpow radix2 (- -58)) = 7205759403792794%Z) by (apply Znearest_imp; simpl; rewrite Rabs_left1; lra).
  now rewrite Hn.
Qed.
Lemma read_20 : read_level 1 20 = IZR 7205759403792794 * bpow radix2 (-57).
Proof. unfold read_level. rewrite <- fl_1_20. f_equal. simpl. lra. Qed.
Lemma share_ratio limit v j k : simulated limit -> (1 <= k)%nat -> share_at_most limit v j k -> ecdf_evaluate limit v = INR j / INR k /\ ecdf_evaluate_float limit v = fl (INR j / INR k).
Proof.
  intros S K H. rewrite (evaluate_float limit (length limit) S eq_refl), (evaluate_exact limit (length limit) eq_refl).
  assert (E : INR (le_count limit v) / INR (length limit) = INR j / INR k); [|now rewrite E].
  pose proof (n_R limit (length limit) S eq_refl) as N. assert (0 < INR k) by (apply lt_0_INR; lia).
  unfold share_at_most in H. fold (le_count limit v) in H. apply (f_equal INR) in H. rewrite !mult_INR in H.
  apply (Rmult_eq_reg_r (INR (length limit) * INR k)); [|nra]. field_simplify; [|lra|lra]. lra.
Qed.
(** right-tailed tests do not: if exactly one simulated value in twenty is greater than the statistic, the exact p-value
    is 0.05, but the computed one is greater than the level 0.05 *)
Lemma C115_right_tie_refuted_holds : forall limit v, simulated limit -> share_at_most limit v 19 20 ->
  p_value_of RIGHT limit v = 1 / 20 /\ p_float_rejects RIGHT limit v (read_level 1 20) = false.
Proof.
  intros limit v S H. destruct (share_ratio limit v 19 20 S ltac:(lia) H) as [E F]. replace (INR 19 / INR 20) with (19 / 20) in E, F by (simpl; lra).
  cbn [p_value_of]. unfold right_p_value. rewrite E. split; [lra|]. unfold p_float_rejects. apply Rleb_false. cbn [p_float_of]. unfold right_p_float. rewrite F, fl_19_20, read_20.
  replace (1 - IZR 8556839292003942 * bpow radix2 (-53)) with (IZR 450359962737050 * bpow radix2 (-53)) by (simpl; lra).
  rewrite fl_id by (apply b64_dyadic; lia). simpl. lra.
Qed.
(** two-sided tests treat the tails differently: with one simulated value in forty below the statistic the hypothesis is
    rejected at the level 0.05, with one in forty above it is not *)
Lemma C115_two_sided_tails_refuted_holds : forall limit v, simulated limit ->
  (share_at_most limit v 39 40 -> p_value_of TWO_TAILED limit v = 1 / 20 /\ p_float_rejects TWO_TAILED limit v (read_level 1 20) = false) /\
  (share_at_most limit v 1 40 -> p_value_of TWO_TAILED limit v = 1 / 20 /\ p_float_rejects TWO_TAILED limit v (read_level 1 20) = true).
Proof.
  intros limit v S. split; intros H; (destruct (share_ratio limit v _ 40 S ltac:(lia) H) as [E F]); cbn [p_value_of]; unfold two_sided_p_value, p_float_rejects; cbn [p_float_of]; rewrite (two_sided_exact limit (length limit) S eq_refl), E, F.
  - replace (INR 39 / INR 40) with (39 / 40) by (simpl; lra). split; [rewrite Rmin_right; lra|]. apply Rleb_false. rewrite fl_39_40, read_20.
    replace (1 - IZR 8782019273372467 * bpow radix2 (-53)) with (IZR 225179981368525 * bpow radix2 (-53)) by (simpl; lra).
    rewrite fl_id by (apply b64_dyadic; lia). rewrite Rmin_right; simpl; lra.
  - replace (INR 1 / INR 40) with (1 / 40) by (simpl; lra). split; [rewrite Rmin_left; lra|]. apply Rleb_true. rewrite fl_1_40, read_20.
    assert (G : 1 / 2 <= fl (1 - IZR 7205759403792794 * bpow radix2 (-58))) by (apply fl_ge; [apply b64_half|simpl; lra]).
    rewrite Rmin_left by (eapply Rle_trans; [|exact G]; simpl; lra). simpl. lra.
Qed.
(** critical values lie between two neighbouring simulated values *)
Lemma C115_critical_value_between_holds : forall limit level, simulated limit -> (forall x, In x limit -> is_b64 x) -> is_b64 level -> 0 <= level <= 1 ->
  let bracketed c := exists lo hi, neighbours limit lo hi /\ lo <= c <= hi in
  (forall alt, alt <> TWO_TAILED -> exists c, critical_value_float_of alt limit level = Ok (CV1 c) /\ bracketed c) /\
  exists l r, critical_value_float_of TWO_TAILED limit level = Ok (CV2 l r) /\ bracketed l /\ bracketed r.
Proof.
  intros limit level S B Bl L bracketed.
  assert (K : forall q, is_b64 q -> 0 <= q <= 1 -> exists c, np_quantile_float (ecdf_quantiles limit) q = Ok c /\ bracketed c).
  { intros q Bq Q. destruct (quantile_float limit q S B Bq Q) as (c & _ & E & _). exists c. split; [exact E|]. now apply (quantile_float_between limit q c S B Bq Q). }
  assert (C : 0 <= fl (1 - level) <= 1) by (split; [apply fl_nonneg; lra|apply fl_le; [apply b64_one|lra]]).
  assert (H : 0 <= fl (level / 2) <= 1) by (split; [apply fl_nonneg; lra|apply fl_le; [apply b64_one|lra]]).
  assert (H' : 0 <= fl (1 - fl (level / 2)) <= 1) by (split; [apply fl_nonneg; lra|apply fl_le; [apply b64_one|lra]]).
  split.
  - intros [| |] N; [|destruct (K level Bl L) as (c & E & G); exists c; cbn; rewrite E; auto|contradiction].
    destruct (K _ (fl_b64 _) C) as (c & E & G). exists c. cbn. rewrite E. auto.
  - destruct (K _ (fl_b64 _) H) as (l & El & Gl). destruct (K _ (fl_b64 _) H') as (r & Er & Gr). exists l, r. cbn. rewrite El, Er. auto.
Qed.
(** for different simulated values in increasing order, the left critical value at level q lies between those of the
    ranks next to (n-1)q, up to the rounding of this product *)
Lemma C115_critical_value_rank_holds : forall limit level c, simulated limit -> NoDup limit -> (forall x, In x limit -> is_b64 x) -> is_b64 level -> 0 <= level <= 1 ->
  critical_value_float_of LEFT limit level = Ok (CV1 c) -> let h := INR (length limit - 1) * level in
  exists k, (1 - ulp_half) * h - 1 < INR k <= (1 + ulp_half) * h /\ nth k (rsort limit) 0 <= c <= nth (Nat.min (k + 1) (length limit - 1)) (rsort limit) 0.
Proof.
  intros limit level c S ND B Bl L E h. destruct (quantile_float limit level S B Bl L) as (c' & k & E' & K). cbn in E. rewrite E' in E. injection E as ->.
  rewrite (quantiles_NoDup limit ND) in K. cbv zeta in K. rewrite rsort_length in K. destruct K as (K & W & C). exists k. split; [exact W|].
  destruct C as [[-> ->]|[K1 C]]; [rewrite Nat.min_r by lia; lra|rewrite Nat.min_l by lia; exact C].
Qed.
(** a statistic beyond all simulated values is rejected by right-tailed critical values, one below all of them is not *)
Lemma C115_critical_value_extremes_holds : forall limit level v, simulated limit -> (forall x, In x limit -> is_b64 x) -> is_b64 level -> 0 <= level <= 1 ->
  ((forall x, In x limit -> x < v) -> critical_float_rejects RIGHT limit v level = Ok true) /\
  ((forall x, In x limit -> v <= x) -> critical_float_rejects RIGHT limit v level = Ok false).
Proof.
  intros limit level v S B Bl L. destruct (C115_critical_value_between_holds limit level S B Bl L) as [K _]. destruct (K RIGHT ltac:(discriminate)) as (c & E & lo & hi & (I1 & I2 & _) & C).
  unfold critical_float_rejects. rewrite E. cbn. split; intros H; do 2 f_equal.
  - rewrite (proj2 (Rleb_false _ _)); [reflexivity|]. specialize (H hi I2). lra.
  - rewrite (proj2 (Rleb_true _ _)); [reflexivity|]. specialize (H lo I1). lra.
Qed.
(** twenty simulated values 1, ..., 20 and the statistic 19 *)
Lemma C115_nonvacuous_holds : let limit := map INR (seq 1 20) in simulated limit /\ share_at_most limit 19 19 20 /\ (forall x, In x limit -> is_b64 x) /\
  p_float_of LEFT [1; 2] 1 = 1 / 2 /\ critical_value_float_of RIGHT [1; 2] 0 = Ok (CV1 2).
Proof.
  intros limit. split; [split; [discriminate|reflexivity]|]. split.
  { unfold share_at_most. replace (count (fun y => Rleb y 19) limit) with 19%nat; [reflexivity|].
    unfold limit. change (seq 1 20) with (seq 1 19 ++ [20%nat]). rewrite map_app, count_app. simpl (map INR [20%nat]).
    symmetry. rewrite (count_all _ (map INR (seq 1 19))).
    - rewrite map_length, seq_length. unfold count. simpl. rewrite (proj2 (Rleb_false _ _)) by lra. reflexivity.
    - intros x Hx. apply in_map_iff in Hx as (i & <- & Hi). apply in_seq in Hi. apply Rleb_true. replace 19 with (INR 19) by (simpl; lra). apply le_INR. lia. }
  split. { intros x Hx. apply in_map_iff in Hx as (i & <- & Hi). apply in_seq in Hi. apply b64_int. lia. }
  assert (S2 : simulated [1; 2]) by (split; [discriminate|reflexivity]).
  split.
  - cbn [p_float_of]. unfold left_p_float. rewrite (evaluate_float [1; 2] 2 S2 eq_refl). unfold le_count, count. simpl filter || idtac. simpl.
    rewrite (proj2 (Rleb_true 1 1)), (proj2 (Rleb_false 2 1)) by lra. simpl. replace (1 / (1 + 1)) with (1 / 2) by lra. apply fl_id, b64_half.
  - cbn [critical_value_float_of]. rewrite Rminus_0_r, (fl_id 1) by apply b64_one.
    assert (Q : ecdf_quantiles [1; 2] = [1; 2]).
    { rewrite quantiles_NoDup; [|repeat constructor; simpl; lra]. apply rsort_id. repeat constructor; simpl; lra. }
    rewrite Q. unfold np_quantile_float. rewrite (proj2 (Rleb_true 0 1)), (proj2 (Rleb_true 1 1)) by lra. cbn [andb negb length Nat.sub].
    rewrite (of_int_exact 1) by (simpl; lia). replace (INR 1 * 1) with 1 by (simpl; ring). rewrite (fl_id 1) by apply b64_one. rewrite (proj2 (Rleb_true (INR 1) 1)) by (simpl; lra). reflexivity.
Qed.
