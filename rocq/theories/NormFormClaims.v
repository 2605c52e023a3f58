(** C100 - C102: the form of the normality statistics. *)
From Verif Require Import Base Analysis DecModel EdfModel EdfSpec GraphModel RegistryModel NormalLaw ExpModel ExpSpec NormModel NormRangeSpec NormFormSpec EdfProofs ExpProofs NormProofs NormSymProofs NormAffProofs NormReflProofs NormRangeProofs NormFiniteProofs NormBoundProofs NormFormProofs NormDistProofs NormDist2Proofs NormClaims NormTestProofs NormEppsProofs.
From Coquelicot Require Derive.
From Coq Require Import Lra Lia.
Local Open Scope R_scope.

(** ** C100 *)
(** the Hosking statistics are the tests of L-skewness and (trimmed) L-kurtosis *)
Lemma trimmed_form t l v : (1 <= t <= 3)%nat -> hosking_trimmed t l = Ok (Some (Fin v)) -> (4 + 2 * t <= length l)%nat /\ l_moment t 2 l <> 0 /\
  let '(mu, v3, v4) := null_moments t (length l) in v = l_moment_test mu v3 v4 t l.
Proof.
  intros T. unfold hosking_trimmed. cbv zeta. rewrite by_size_null by lia. destruct (null_moments t (length l)) as [[mu v3] v4]. intros H. apply num_inv in H as [B ->].
  apply andb_true_iff in B as [B1 B2]. apply Nat.leb_le in B1. rewrite !tl_moment_is_l_moment in * by lia. split; [lia|]. split; [|reflexivity].
  destruct (Reqb_spec (l_moment t 2 l) 0); [discriminate|trivial].
Qed.
Lemma hosking1_form l v : hosking1 l = Ok (Some (Fin v)) -> (4 <= length l)%nat /\ l_moment 0 2 l <> 0 /\
  let '(mu, v3, v4) := null_moments 0 (length l) in v = l_moment_test mu v3 v4 0 l.
Proof.
  unfold hosking1. intros H. apply gt3_inv in H as [Hn H]. pose proof (pwm_l_moments l ltac:(lia)) as P. destruct (pwm (rsort l)) as [[[b0 b1] b2] b3]. destruct P as (P2 & P3 & P4).
  rewrite by_size_null in H by lia. destruct (null_moments 0 (length l)) as [[mu v3] v4]. cbv zeta in H. rewrite P2, P3, P4 in H. apply num_inv in H as [B ->].
  split; [lia|]. split; [|reflexivity]. destruct (Reqb_spec (l_moment 0 2 l) 0); [discriminate|trivial].
Qed.
Lemma C100_l_moments_holds : forall l v,
  (hosking1 l = Ok (Some (Fin v)) -> let '(mu, v3, v4) := null_moments 0 (length l) in v = l_moment_test mu v3 v4 0 l) /\
  (hosking2 l = Ok (Some (Fin v)) -> if (length l <=? 3)%nat then v = 0 else let '(mu, v3, v4) := null_moments 1 (length l) in v = l_moment_test mu v3 v4 1 l) /\
  (hosking3 l = Ok (Some (Fin v)) -> let '(mu, v3, v4) := null_moments 2 (length l) in v = l_moment_test mu v3 v4 2 l) /\
  (hosking4 l = Ok (Some (Fin v)) -> let '(mu, v3, v4) := null_moments 3 (length l) in v = l_moment_test mu v3 v4 3 l).
Proof.
  intros l v. split; [|split; [|split]].
  - intros H. now apply hosking1_form in H as (_ & _ & H).
  - unfold hosking2. destruct (Nat.ltb_spec 3 (length l)) as [H|H]; destruct (Nat.leb_spec (length l) 3); try lia; intros E.
    + now apply trimmed_form in E as (_ & _ & E); [|lia].
    + now apply num_inv in E as [_ ->].
  - unfold hosking3. intros H. apply gt3_inv in H as [_ H]. now apply trimmed_form in H as (_ & _ & H); [|lia].
  - unfold hosking4. intros H. apply gt3_inv in H as [_ H]. now apply trimmed_form in H as (_ & _ & H); [|lia].
Qed.
(** the L-moment of order two is half the mean distance of two observations *)
Lemma C100_second_l_moment_holds : forall l, (2 <= length l)%nat -> l_moment 0 2 l = pair_sum l / (len l * (len l - 1)).
Proof. exact second_l_moment. Qed.
(** Zhang's Q compares two averages of slopes of the normal probability plot, Q* those of the reflected sample *)
Lemma log_ratio_inv a b v : log_ratio a b = Ok (Some (Fin v)) -> v = ln (a / b).
Proof. unfold log_ratio. intros H. now apply num_inv in H as [_ ->]. Qed.
Lemma dot_neg_rev a x : length a = length x -> - dot a (rev x) = dot a (map Ropp (rev x)).
Proof. intros L. rewrite <- (rev_length x) in L. revert L. generalize (rev x). clear x. unfold dot. induction a as [|u a IH]; intros [|y x] L; try discriminate; cbn [combine map Rsum fst snd]; [ring|]. rewrite <- IH by (simpl in L; lia). ring. Qed.
Lemma rsort_opp_rev l : rsort (map Ropp l) = map Ropp (rev (rsort l)).
Proof. rewrite map_rev. exact (rsort_neg l). Qed.
Lemma zq_a_length n : (1 <= n)%nat -> length (zq_a n) = n.
Proof. intros H. unfold zq_a. cbn [length]. rewrite map_length, seq_length. lia. Qed.
Lemma zq_b_length n : length (zq_b n) = n.
Proof. unfold zq_b. now rewrite map_length, seq_length. Qed.
Lemma C100_zhang_q_holds : forall l v,
  (zq l = Ok (Some (Fin v)) -> v = ln (slopes_from_first l / slopes_over_four l)) /\
  (zqs l = Ok (Some (Fin v)) -> v = ln (slopes_from_first (map Ropp l) / slopes_over_four (map Ropp l))).
Proof.
  intros l v. split.
  - unfold zq. cbv zeta. intros H. apply gt3_inv in H as [_ H]. destruct (Nat.ltb_spec (length l) 8); [discriminate|]. apply log_ratio_inv in H. rewrite zq_a_slopes, zq_b_slopes in H by lia. exact H.
  - unfold zqs. cbv zeta. intros H. apply gt3_inv in H as [_ H]. destruct (Nat.ltb_spec (length l) 8); [discriminate|]. apply log_ratio_inv in H.
    rewrite !dot_neg_rev in H by (rewrite ?zq_a_length, ?zq_b_length, rsort_length by lia; reflexivity). rewrite <- rsort_opp_rev in H. rewrite <- (map_length Ropp l) in H.
    rewrite zq_a_slopes, zq_b_slopes in H by (rewrite map_length; lia). exact H.
Qed.
(** a sample on a straight line in the probability plot has Q = 0 *)
Lemma C100_zhang_q_straight_holds : forall l, straight l -> (8 <= length l)%nat -> zq l = Ok (Some (Fin 0)).
Proof.
  intros l H L. destruct (straight_slopes l H ltac:(lia)) as (b & Hb & E1 & E2 & _). unfold zq. cbv zeta. unfold gt3. destruct (Nat.ltb_spec 3 (length l)); [|lia].
  destruct (Nat.ltb_spec (length l) 8); [lia|]. rewrite zq_a_slopes, zq_b_slopes, E1, E2 by lia. unfold log_ratio. replace (b / b) with 1 by (field; lra).
  destruct (Reqb_spec b 0); [lra|]. destruct (Rltb_spec 0 1); [|lra]. cbn [andb negb num]. unfold num. now rewrite ln_1.
Qed.
(** Chen-Shapiro compares the average slope between neighbours with the standard deviation *)
Lemma C100_chen_shapiro_holds : forall l v, cs l = Ok (Some (Fin v)) -> v = sqrt (len l) * (1 - slopes_of_neighbours l / sample_sd l).
Proof.
  intros l v. unfold cs. cbv zeta. intros H. apply gt3_inv in H as [Hn H]. apply num_inv in H as [V ->]. pose proof (sd1_pos l V ltac:(lia)) as S. pose proof (len_ge l 4 Hn) as N. simpl in N.
  rewrite cs_slopes by lia. change (sample_sd l) with (sd1 l). f_equal. f_equal. field. lra.
Qed.
(** the corrections of the order statistics used by Coin's statistic *)
Lemma C100_coin_correction_holds : forall rank n, (1 <= n)%nat -> (rank * n <> 4)%nat ->
  ((1 <= rank <= 7)%nat -> (n <= royston_limit rank)%nat -> forall c1 c2 c3, nth (rank - 1) royston_corrections (0, 0, 0) = (c1, c2, c3) ->
   10 ^ 6 * coin_correct rank n = c1 + c2 / INR n ^ 2 + c3 / INR n ^ 4) /\
  ((rank < 1)%nat \/ (7 < rank)%nat \/ (royston_limit rank < n)%nat -> coin_correct rank n = 0).
Proof.
  intros rank n Hn H4. assert (N0 : INR n <> 0) by (apply not_0_INR; lia). unfold coin_correct. destruct (Nat.eqb_spec (rank * n) 4) as [|_]; [contradiction|]. split.
  - intros Hr Hl c1 c2 c3 E. unfold royston_limit in Hl.
    destruct (Nat.ltb_spec rank 1); [lia|]. destruct (Nat.ltb_spec 7 rank); [lia|]. cbn [orb].
    destruct (Nat.eqb_spec rank 4) as [R4|R4].
    + destruct (Nat.ltb_spec 40 n); [lia|]. cbn [negb andb]. subst rank. cbn in E. injection E as <- <- <-. cbn [nth Nat.sub]. cbv zeta. field. exact N0.
    + destruct (Nat.ltb_spec 20 n); [lia|]. cbn [negb andb]. cbv zeta.
      do 8 (destruct rank as [|rank]; [try lia; cbn in E; injection E as <- <- <-; cbn [nth Nat.sub]; field; exact N0|]). lia.
  - intros H. unfold royston_limit in H. destruct (Nat.ltb_spec rank 1); [reflexivity|]. destruct (Nat.ltb_spec 7 rank); [reflexivity|]. cbn [orb].
    destruct (Nat.eqb_spec rank 4).
    + destruct (Nat.ltb_spec 40 n); [reflexivity|lia].
    + destruct (Nat.ltb_spec 20 n); [reflexivity|lia].
Qed.
(** Coin's statistic is the squared cubic coefficient of the least-squares polynomial through the probability plot *)
Lemma C100_coin_holds : forall l v, coin l = Ok (Some (Fin v)) -> exists b1 b3, v = b3 ^ 2 /\
  best_cubic (coin_a (length l)) (rsort (standardised l)) b1 b3 /\
  forall c1 c3, best_cubic (coin_a (length l)) (rsort (standardised l)) c1 c3 -> c3 = b3.
Proof.
  intros l v. unfold coin. cbv zeta. intros H. apply gt3_inv in H as [Hn H]. apply num_inv in H as [B ->]. assert (N : l <> []) by (intros ->; simpl in Hn; lia).
  rewrite (sd_moments_sd1 l N) in *. rewrite standardised_zscores. set (a := coin_a (length l)) in *. set (z := rsort (zscores (sd1 l) l)).
  assert (L : length a = length z) by (unfold a, z, coin_a, zscores; now rewrite rsort_length, !map_length, seq_length).
  apply andb_true_iff in B as [_ B]. match type of B with negb (Reqb ?t 0) = true => destruct (Reqb_spec t 0) as [|D]; [discriminate|] end.
  assert (P : 0 < Rsum (map (fun x => x ^ 2) a) * Rsum (map (fun x => x ^ 6) a) - Rsum (map (fun x => x ^ 4) a) ^ 2).
  { pose proof (cauchy_46 a) as C. match goal with |- 0 < ?t => destruct (Req_dec t 0) as [E|]; [|lra] end. exfalso. apply D. lra. }
  pose proof (coin_best a z L P) as Best. cbv zeta in Best. assert (M1 : map (fun x => x ^ 1) a = a) by (rewrite <- (map_id a) at 2; apply map_ext; intros; ring). rewrite M1.
  eexists. eexists. split; [reflexivity|]. split; [exact Best|]. intros c1 c3 Hc. now apply (best_cubic_unique a z c1 c3 _ _ L P Hc Best).
Qed.
(** D'Agostino's statistic is the mean distance of two observations over the standard deviation *)
Lemma C100_dagostino_holds : forall l v, dagostino l = Ok (Some (Fin v)) ->
  v = sqrt (len l) * (pair_sum l / (2 * len l ^ 2 * sqrt (central 2 l)) - 0.28209479) / 0.02998598.
Proof.
  intros l v. unfold dagostino. intros H. apply gt3_inv in H as [Hn H]. apply num_inv in H as [V ->]. assert (N : l <> []) by (intros ->; simpl in Hn; lia). pose proof (len_pos l N) as L.
  apply varying_iff in V. unfold dagostino_d. cbv zeta. rewrite rank_sum. rewrite (Rsum_perm (rsort l) l) by apply rsort_perm. rewrite (Rsum_map_perm (fun v => v ^ 2) (rsort l) l) by apply rsort_perm.
  fold (mean l). rewrite sumsq_ssq by trivial. rewrite central2_ssq. assert (P : 0 < sqrt (ssq l / len l)) by (apply sqrt_lt_R0; now apply Rdiv_lt_0_compat).
  replace (pair_sum l / 2 / (len l ^ 2 * sqrt (ssq l / len l))) with (pair_sum l / (2 * len l ^ 2 * sqrt (ssq l / len l))) by (field; lra). reflexivity.
Qed.
(** the moment statistics *)
Lemma C100_jarque_bera_holds : forall l v, jb_norm l = Ok (Some (Fin v)) -> v = len l / 6 * (sample_skewness l ^ 2 + (sample_kurtosis l - 3) ^ 2 / 4).
Proof. exact jb_form. Qed.
Lemma C100_robust_moments_holds : forall l m v, is_median m l -> let j := sqrt (PI / 2) * mean (map (fun x => Rabs (x - m)) l) in
  (rjb l = Ok (Some (Fin v)) -> v = len l / 6 * (central 3 l / j ^ 3) ^ 2 + len l / 64 * (central 4 l / j ^ 4 - 3) ^ 2) /\
  (gmg l = Ok (Some (Fin v)) -> v = sqrt (central 2 l) / j).
Proof.
  intros l m v M j. split.
  - unfold rjb. cbv zeta. rewrite (mad_median m l M). intros H. now apply num_inv in H as [_ ->].
  - unfold gmg. cbv zeta. rewrite (mad_median m l M). intros H. apply gt3_inv in H as [_ H]. now apply num_inv in H as [_ ->].
Qed.
Lemma C100_median_exists_holds : forall l, is_median (median l) l.
Proof. intros l c. apply median_minimises. Qed.
Lemma C100_bonett_seier_holds : forall l v, bs l = Ok (Some (Fin v)) ->
  v = sqrt (len l + 2) * (13.29 * ln (sqrt (central 2 l) / mean (map (fun x => Rabs (x - mean l)) l)) - 3) / 3.54.
Proof.
  intros l v. unfold bs. cbv zeta. intros H. apply gt3_inv in H as [Hn H]. destruct (varying l) eqn:V; [|discriminate]. apply num_inv in H as [_ ->]. apply varying_iff in V.
  assert (N : l <> []) by (intros ->; simpl in Hn; lia). pose proof (len_pos l N) as L. assert (P : 0 < np_var l) by (rewrite np_var_ssq; now apply Rdiv_lt_0_compat).
  rewrite Analysis.ln_quot; [reflexivity|now apply sqrt_lt_R0|]. exact (mad_pos 1 Rlt_0_1 l N V (mean l)).
Qed.
(** the statistics in Hermite polynomials *)
Lemma C100_hermite_holds : forall l v,
  (bm1 l = Ok (Some (Fin v)) -> v = hermite_mean 3 l ^ 2 + hermite_mean 4 l ^ 2) /\
  (bm2 l = Ok (Some (Fin v)) -> v = hermite_mean 3 l ^ 2 + hermite_mean 4 l ^ 2 + hermite_mean 5 l ^ 2 + hermite_mean 6 l ^ 2).
Proof.
  intros l v. split; [unfold bm1|unfold bm2]; cbv zeta; intros H; apply gt3_inv in H as [Hn H]; apply num_inv in H as [_ ->].
  - assert (N : l <> []) by (intros ->; simpl in Hn; lia). pose proof (len_pos l N) as L. rewrite sd_moments_sd1 by trivial.
    rewrite (hermite_mean_sq 3 h3), (hermite_mean_sq 4 h4) by (try apply hermite_3; try apply hermite_4; lia). field. lra.
  - assert (N : l <> []) by (intros ->; simpl in Hn; lia). pose proof (len_pos l N) as L.
    rewrite (hermite_mean_sq 3 h3), (hermite_mean_sq 4 h4), (hermite_mean_sq 5 h5), (hermite_mean_sq 6 h6) by (try apply hermite_3; try apply hermite_4; try apply hermite_5; try apply hermite_6; lia). field. lra.
Qed.
Lemma sqrt_24 x y : 0 < x -> 0 < y -> sqrt (x * y) = sqrt x * sqrt y. Proof. intros. apply sqrt_mult; lra. Qed.
Lemma C100_cabana_skewness_holds : forall l v, cc1 l = Ok (Some (Fin v)) -> largest_deviation v (smooth_skewness l) (standardised l).
Proof.
  intros l v. unfold cc1. cbv zeta. intros H. apply gt3_inv in H as [Hn H]. apply num_inv in H as [_ ->]. rewrite standardised_zscores. apply largest_Rmaxl.
  - intros E. apply (f_equal (@length R)) in E. unfold zscores in E. rewrite map_length in E. simpl in E. lia.
  - intros v. f_equal. unfold smooth_skewness. cbn [seq map Rsum]. simpl Nat.sub. simpl Nat.add.
    rewrite hermite_0, hermite_1, hermite_2, hermite_3, hermite_4.
    rewrite (hermite_mean_is 3 h3 l hermite_3), (hermite_mean_is 4 h4 l hermite_4), (hermite_mean_is 5 h5 l hermite_5), (hermite_mean_is 6 h6 l hermite_6), (hermite_mean_is 7 h7 l hermite_7), (hermite_mean_is 8 h8 l hermite_8).
    set (M3 := hermite_mean 3 l). set (M4 := hermite_mean 4 l). set (M5 := hermite_mean 5 l). set (M6 := hermite_mean 6 l). set (M7 := hermite_mean 7 l). set (M8 := hermite_mean 8 l).
    replace (INR 1) with 1 by reflexivity. replace (INR 2) with 2 by (simpl; ring). replace (INR 3) with 3 by (simpl; ring). replace (INR 4) with (2 * 2) by (simpl; ring). replace (INR 5) with 5 by (simpl; ring).
    rewrite sqrt_1, sqrt_square by lra. unfold h2, h3, h4. replace (sqrt 6) with (sqrt 2 * sqrt 3) by (rewrite <- sqrt_24 by lra; f_equal; ring).
    replace (sqrt 30) with (sqrt 2 * sqrt 3 * sqrt 5) by (rewrite <- !sqrt_24 by lra; f_equal; ring).
    assert (0 < sqrt 2) by (apply sqrt_lt_R0; lra). assert (0 < sqrt 3) by (apply sqrt_lt_R0; lra). assert (0 < sqrt 5) by (apply sqrt_lt_R0; lra). field. lra.
Qed.
(** the second statistic adds its last summand twice *)
Lemma C100_cabana_kurtosis_partial_holds : forall l v, cc2 l = Ok (Some (Fin v)) ->
  largest_deviation v (fun z => smooth_kurtosis l z - norm_pdf z * ((sqrt (5 / 4) * hermite 3 z + hermite 5 z) * hermite_mean 8 l)) (standardised l).
Proof.
  intros l v. unfold cc2. cbv zeta. intros H. apply gt3_inv in H as [Hn H]. apply num_inv in H as [V ->]. rewrite standardised_zscores. assert (N : l <> []) by (intros ->; simpl in Hn; lia). pose proof (len_pos l N) as L.
  assert (S : sqrt (len l * np_var l / (len l - 1)) = sd1 l) by (unfold sd1; f_equal; rewrite np_var_ssq; f_equal; field; lra). rewrite S. apply largest_Rmaxl.
  - intros E. apply (f_equal (@length R)) in E. unfold zscores in E. rewrite map_length in E. simpl in E. lia.
  - intros v. f_equal. unfold smooth_kurtosis. cbn [seq map Rsum]. simpl Nat.sub. simpl Nat.add.
    rewrite hermite_0, hermite_1, hermite_2, hermite_3, hermite_4, hermite_5.
    rewrite (hermite_mean_is 3 h3 l hermite_3), (hermite_mean_is 4 h4 l hermite_4), (hermite_mean_is 5 h5 l hermite_5), (hermite_mean_is 6 h6 l hermite_6), (hermite_mean_is 7 h7 l hermite_7), (hermite_mean_is 8 h8 l hermite_8).
    set (M3 := hermite_mean 3 l). set (M4 := hermite_mean 4 l). set (M5 := hermite_mean 5 l). set (M6 := hermite_mean 6 l). set (M7 := hermite_mean 7 l). set (M8 := hermite_mean 8 l).
    replace (INR 1) with 1 by reflexivity. replace (INR 2) with 2 by (simpl; ring). replace (INR 3) with 3 by (simpl; ring). replace (INR 4) with 4 by (simpl; ring). replace (INR 5) with 5 by (simpl; ring).
    replace (2 / 1) with 2 by lra. ring.
Qed.
(** so that it differs from the published one, for example for the sample -1, -1, 1, 1 *)
Lemma cdf_above_tangent v : 0 < v -> 1 / 2 <= norm_cdf v - v * norm_pdf v.
Proof.
  intros V. destruct (Derive.MVT_gen norm_cdf 0 v norm_pdf) as (c & [C1 C2] & E).
  - intros x _. apply norm_cdf_derive.
  - intros x _. apply norm_cdf_continuity.
  - rewrite Rmin_left in C1 by lra. rewrite Rmax_right in C2 by lra. rewrite norm_cdf_0 in E. assert (P : norm_pdf v <= norm_pdf c).
    { unfold norm_pdf. apply Rmult_le_compat_r; [left; apply Rinv_0_lt_compat, sqrt_lt_R0; pose proof PI_RGT_0; lra|]. unfold gauss. assert (Q : - (v ^ 2 / 2) <= - (c ^ 2 / 2)) by nra. destruct Q as [Q| ->]; [left; now apply exp_increasing|right; reflexivity]. }
    nra.
Qed.
Lemma largest_of_two v f a b l : (forall x, In x l <-> x = a \/ x = b) -> largest_deviation v f l -> v = Rmax (Rabs (f a)) (Rabs (f b)).
Proof.
  intros I [(x & Hx & E) M]. apply Rle_antisym.
  - apply I in Hx as [->| ->]; rewrite E; [apply Rmax_l|apply Rmax_r].
  - apply Rmax_lub; apply M, I; auto.
Qed.
Lemma C100_cabana_kurtosis_refuted_holds : exists l v, cc2 l = Ok (Some (Fin v)) /\ ~ largest_deviation v (smooth_kurtosis l) (standardised l).
Proof.
  set (l := [-1; -1; 1; 1]). assert (Ml : mean l = 0) by (unfold mean, len, l; cbn [Rsum length]; lra). assert (N4 : len l = 4) by (unfold len, l; rewrite INR_IZR_INZ; reflexivity).
  assert (SS : ssq l = 4) by (unfold ssq; rewrite Ml; unfold l; cbn [map Rsum]; lra). assert (V : varying l = true) by (apply varying_iff; rewrite SS; lra).
  assert (exists v, cc2 l = Ok (Some (Fin v))) as (v & E) by (unfold cc2, gt3, num; cbv zeta; cbn [length l Nat.ltb Nat.leb]; rewrite V; eexists; reflexivity).
  exists l, v. split; [exact E|]. intros D. apply C100_cabana_kurtosis_partial_holds in E.
  set (w := sqrt 3 / 2). assert (W2 : w ^ 2 = 3 / 4) by (unfold w; replace ((sqrt 3 / 2) ^ 2) with (sqrt 3 * sqrt 3 / 4) by field; rewrite sqrt_sqrt by lra; reflexivity).
  assert (W : 0 < w) by (unfold w; apply Rdiv_lt_0_compat; [apply sqrt_lt_R0|]; lra).
  assert (Z : standardised l = [- w; - w; w; w]).
  { rewrite standardised_zscores. unfold zscores, sd1. rewrite Ml, SS, N4. replace (4 / (4 - 1)) with ((/ w) ^ 2) by (rewrite pow_inv, W2; field). rewrite sqrt_pow2 by (left; now apply Rinv_0_lt_compat).
    unfold l. cbn [map]. repeat (f_equal; try (field; lra)). }
  assert (I : forall x, In x (standardised l) <-> x = w \/ x = - w) by (intros x; rewrite Z; cbn [In]; split; intuition).
  assert (HM : forall k h, (forall z, hermite k z = h z) -> hermite_mean k l = h w + h (- w)).
  { intros k h H. unfold hermite_mean. rewrite Z, N4. cbn [map Rsum]. rewrite !H. replace 4 with (2 * 2) by ring. rewrite sqrt_square by lra. field. }
  apply (largest_of_two v _ w (- w)) in D; [|exact I]. apply (largest_of_two v _ w (- w)) in E; [|exact I].
  assert (W3 : w ^ 3 = 3 / 4 * w) by (rewrite <- W2; ring). assert (W4 : w ^ 4 = 9 / 16) by (replace (w ^ 4) with (w ^ 2 * w ^ 2) by ring; rewrite W2; field).
  assert (W5 : w ^ 5 = 9 / 16 * w) by (rewrite <- W4; ring). assert (W6 : w ^ 6 = 27 / 64) by (replace (w ^ 6) with (w ^ 4 * w ^ 2) by ring; rewrite W2, W4; field).
  assert (W8 : w ^ 8 = 81 / 256) by (replace (w ^ 8) with (w ^ 4 * w ^ 4) by ring; rewrite W4; field).
  assert (O3 : forall z, h3 (- z) = - h3 z) by (intros; unfold h3; field; apply Rgt_not_eq, sqrt_lt_R0; lra). assert (O5 : forall z, h5 (- z) = - h5 z) by (intros; unfold h5; field; apply Rgt_not_eq, sqrt_lt_R0; lra).
  assert (O7 : forall z, h7 (- z) = - h7 z) by (intros; unfold h7; field; apply Rgt_not_eq, sqrt_lt_R0; lra). assert (O4 : forall z, h4 (- z) = h4 z) by (intros; unfold h4; f_equal; ring).
  assert (O6 : forall z, h6 (- z) = h6 z) by (intros; unfold h6; f_equal; ring). assert (O8 : forall z, h8 (- z) = h8 z) by (intros; unfold h8; f_equal; ring).
  assert (M4 : h4 w < 0). { unfold h4. rewrite W2, W4. assert (0 < sqrt 6) by (apply sqrt_lt_R0; lra). replace ((9 / 16 - 6 * (3 / 4) + 3) / (2 * sqrt 6)) with (- (15 / 32 / sqrt 6)) by (field; lra). assert (0 < 15 / 32 / sqrt 6) by (apply Rdiv_lt_0_compat; lra). lra. }
  assert (M6 : 0 < h6 w). { unfold h6. rewrite W2, W4, W6. assert (0 < sqrt 5) by (apply sqrt_lt_R0; lra). apply Rdiv_lt_0_compat; lra. }
  assert (M8 : h8 w < 0). { unfold h8. rewrite W2, W4, W6, W8. assert (0 < sqrt 70) by (apply sqrt_lt_R0; lra). assert (0 < 26463 / 256 / (24 * sqrt 70)) by (apply Rdiv_lt_0_compat; lra).
    replace ((81 / 256 - 28 * (27 / 64) + 210 * (9 / 16) - 420 * (3 / 4) + 105) / (24 * sqrt 70)) with (- (26463 / 256 / (24 * sqrt 70))) by (field; lra). lra. }
  assert (B2 : 0 < sqrt (3 / 2) * w + h3 w).
  { unfold h3. rewrite W3. assert (S6 : 0 < sqrt 6) by (apply sqrt_lt_R0; lra). assert (S : sqrt (3 / 2) = sqrt 6 / 2). { replace (3 / 2) with (6 * (/ 2 * / 2)) by lra. rewrite sqrt_mult, sqrt_square by lra. reflexivity. }
    rewrite S. assert (Q : sqrt 6 * sqrt 6 = 6) by (apply sqrt_sqrt; lra). replace (sqrt 6 / 2 * w + (3 / 4 * w - 3 * w) / sqrt 6) with (w * (sqrt 6 * sqrt 6 / 2 - 9 / 4) / sqrt 6) by (field; lra). rewrite Q. apply Rdiv_lt_0_compat; nra. }
  assert (B4 : sqrt (5 / 4) * h3 w + h5 w < 0).
  { unfold h3, h5. rewrite W3, W5. assert (S6 : 0 < sqrt 6) by (apply sqrt_lt_R0; lra). assert (S5 : 0 < sqrt 5) by (apply sqrt_lt_R0; lra). assert (S : sqrt (5 / 4) = sqrt 5 / 2). { replace (5 / 4) with (5 * (/ 2 * / 2)) by lra. rewrite sqrt_mult, sqrt_square by lra. reflexivity. }
    rewrite S. replace 30 with (6 * 5) by ring. rewrite sqrt_mult by lra. assert (Q : sqrt 5 * sqrt 5 = 5) by (apply sqrt_sqrt; lra).
    replace (sqrt 5 / 2 * ((3 / 4 * w - 3 * w) / sqrt 6) + (9 / 16 * w - 10 * (3 / 4 * w) + 15 * w) / (2 * (sqrt 6 * sqrt 5))) with (- (w * (9 / 4 * (sqrt 5 * sqrt 5) - 129 / 16) / (2 * (sqrt 6 * sqrt 5)))) by (field; lra).
    rewrite Q. assert (0 < w * (9 / 4 * 5 - 129 / 16) / (2 * (sqrt 6 * sqrt 5))) by (apply Rdiv_lt_0_compat; [lra|]; nra). lra. }
  assert (P : 0 < norm_pdf w) by apply norm_pdf_pos. pose proof (cdf_above_tangent w W) as T. unfold smooth_kurtosis in D, E. cbn [seq map Rsum] in D, E. simpl Nat.sub in D, E. simpl Nat.add in D, E.
  rewrite !hermite_0, !hermite_1, !hermite_2, !hermite_3, !hermite_4, !hermite_5 in D, E.
  rewrite (HM 3%nat h3 hermite_3), (HM 4%nat h4 hermite_4), (HM 5%nat h5 hermite_5), (HM 6%nat h6 hermite_6), (HM 7%nat h7 hermite_7), (HM 8%nat h8 hermite_8) in D.
  rewrite (HM 3%nat h3 hermite_3), (HM 4%nat h4 hermite_4), (HM 5%nat h5 hermite_5), (HM 6%nat h6 hermite_6), (HM 7%nat h7 hermite_7), (HM 8%nat h8 hermite_8) in E.
  rewrite ?O3, ?O4, ?O5, ?O6, ?O7, ?O8, ?norm_pdf_even, ?norm_cdf_sym in D, E.
  replace (INR 2) with 2 in D, E by (simpl; ring). replace (INR 3) with 3 in D, E by (simpl; ring). replace (INR 4) with 4 in D, E by (simpl; ring). replace (INR 5) with 5 in D, E by (simpl; ring).
  set (x := (norm_cdf w - w * norm_pdf w) * (2 * h4 w) - norm_pdf w * ((sqrt (3 / 2) * w + h3 w) * (2 * h6 w) + (sqrt (5 / 4) * h3 w + h5 w) * (2 * h8 w))).
  set (d := norm_pdf w * ((sqrt (5 / 4) * h3 w + h5 w) * (2 * h8 w))).
  match type of D with _ = Rmax (Rabs ?s) (Rabs ?t) => replace s with x in D by (unfold x; ring); replace t with (2 * h4 w - x) in D by (unfold x; ring) end.
  match type of E with _ = Rmax (Rabs ?s) (Rabs ?t) => replace s with (x - d) in E by (unfold x, d; ring); replace t with (2 * h4 w - (x - d)) in E by (unfold x, d; ring) end.
  assert (Pd : 0 < d) by (unfold d; apply Rmult_lt_0_compat; nra).
  assert (Px : x <= h4 w - d).
  { unfold x. fold d. assert (0 < norm_pdf w * ((sqrt (3 / 2) * w + h3 w) * (2 * h6 w))) by (apply Rmult_lt_0_compat; nra). replace (norm_pdf w * ((sqrt (3 / 2) * w + h3 w) * (2 * h6 w) + (sqrt (5 / 4) * h3 w + h5 w) * (2 * h8 w))) with (norm_pdf w * ((sqrt (3 / 2) * w + h3 w) * (2 * h6 w)) + d) by (unfold d; ring).
    assert ((norm_cdf w - w * norm_pdf w) * (2 * h4 w) <= h4 w) by nra. lra. }
  clearbody x d. rewrite D in E. clear D. revert E. unfold Rmax, Rabs. repeat (destruct (Rcase_abs _) || destruct (Rle_dec _ _)); lra.
Qed.
(** Shapiro-Wilk is the squared correlation of the ordered sample with Royston's weights *)
Lemma C100_shapiro_wilk_holds : forall l v, sw_norm l = Ok (Some (Fin v)) -> exists a, royston_weights (length l) a /\
  v = Rsum (map (fun p => fst p * snd p) (combine a (rsort l))) ^ 2 / Rsum (map (fun x => (x - mean l) ^ 2) l).
Proof.
  intros l v. unfold sw_norm. intros E. destruct (le_lt_dec 3 (length l)) as [h|h].
  - destruct (sw_coefficients (length l)) as [[a|]|] eqn:Ec; try discriminate. cbn [bind] in E. apply num_inv in E as [_ ->]. exists a. split; [now apply sw_royston|reflexivity].
  - destruct (length l) as [|[|[|]]]; try lia; discriminate.
Qed.
(** Epps-Pulley is a sum over all pairs of standardised observations *)
Lemma C100_epps_pulley_holds : forall l v, ep_norm l = Ok (Some (Fin v)) ->
  let z := map (fun x => (x - mean l) / sqrt (central 2 l)) l in
  v = Rsum (map (fun y => Rsum (map (fun x => exp (- ((y - x) ^ 2 / 2))) z)) z) / len l - sqrt 2 * Rsum (map (fun y => exp (- (y ^ 2 / 4))) z) + len l / sqrt 3.
Proof.
  intros l v H z. apply ep_norm_value in H as [_ ->]. unfold ep_value. assert (LZ : len (zscores (sqrt (np_var l)) l) = len l) by (unfold zscores, len; now rewrite map_length). rewrite LZ. reflexivity.
Qed.

(** ** C101 *)
Lemma C101_zhang_wu_c_holds : forall l v, zwc l = Ok (Some (Fin v)) -> 0 <= v /\
  (v = 0 <-> forall i, (i < length l)%nat -> fitted_normal l (nth i (rsort l) 0) = (INR (S i) - 3 / 4) / (len l - 1 / 2)).
Proof.
  intros l v H. split; [|now apply zwc_zero]. revert H. unfold zwc. cbv zeta. intros H. apply gt3_inv in H as [_ H]. apply num_inv in H as [_ ->].
  apply Rsum_nonneg. intros x Hx. unfold imap in Hx. apply imap_from_in in Hx as (i & p & _ & ->). apply pow2_ge_0.
Qed.
Lemma C101_zhang_wu_a_holds : forall l v, zwa l = Ok (Some (Fin v)) -> zwa_floor (length l) <= v /\
  (v = zwa_floor (length l) <-> forall i, (i < length l)%nat -> fitted_normal l (nth i (rsort l) 0) = (INR (S i) - 1 / 2) / len l).
Proof. exact zwa_min. Qed.
Lemma C101_glen_leemis_barr_holds : forall l v, glb l = Ok (Some (Fin v)) -> len l * (2 * ln 2 - 1) <= v /\
  (v = len l * (2 * ln 2 - 1) <-> forall i, (i < length l)%nat -> at_least (S i) (length l) (fitted_normal l (nth i (rsort l) 0)) = 1 / 2).
Proof. exact glb_min. Qed.
Lemma C101_desgagne_lafaye_holds : forall l v, dldm l = Ok (Some (Fin v)) -> let z := map (fun x => (x - mean l) / sqrt (central 2 l)) l in 0 <= v /\
  (v = 0 <-> mean (map (fun y => y ^ 2 * ln (Rabs y)) z) / 2 = 0.18240929 /\ mean (map (fun y => ln (1 + Rabs y)) z) = 0.5348223 /\
             mean (map (fun y => ln (ln (2.71828182846 + Rabs y))) z) = 0.20981558).
Proof.
  intros l v. unfold dldm. cbv zeta. intros H. apply gt3_inv in H as [Hn H]. apply num_inv in H as [_ ->]. assert (N : l <> []) by (intros ->; simpl in Hn; lia). pose proof (len_pos l N) as L.
  rewrite sumsq_ssq by trivial. rewrite <- central2_ssq. change (zscores (sqrt (central 2 l)) l) with (map (fun x => (x - mean l) / sqrt (central 2 l)) l). set (z := map (fun x => (x - mean l) / sqrt (central 2 l)) l).
  assert (LZ : forall f : R -> R, Rsum (map f z) / len l = mean (map f z)) by (intros f; unfold mean, len, z; now rewrite !map_length).
  replace (0.5 * Rsum (map (fun v => v ^ 2 * ln (Rabs v)) z) / len l) with (0.5 * (Rsum (map (fun v => v ^ 2 * ln (Rabs v)) z) / len l)) by (field; lra). rewrite !LZ.
  set (a := mean (map (fun v => v ^ 2 * ln (Rabs v)) z)). set (b := mean (map (fun v => ln (1 + Rabs v)) z)). set (c := mean (map (fun v => ln (ln (2.71828182846 + Rabs v))) z)).
  destruct (dldm_quadratic (len l) (0.18240929 - 0.5 * a) (0.5348223 - b) (0.20981558 - c) L) as [A B]. split; [exact A|]. rewrite B. clearbody a b c. split; intros (E1 & E2 & E3); repeat split; lra.
Qed.
Lemma C101_epps_pulley_holds : forall l v, ep_norm l = Ok (Some (Fin v)) -> 0 < v.
Proof. exact ep_positive. Qed.
Lemma C101_jarque_bera_holds : forall l v, jb_norm l = Ok (Some (Fin v)) -> 0 <= v /\ (v = 0 <-> sample_skewness l = 0 /\ sample_kurtosis l = 3).
Proof.
  intros l v H. assert (N : l <> []) by (intros ->; discriminate). pose proof (len_pos l N) as L. apply jb_form in H as ->. set (s := sample_skewness l). set (k := sample_kurtosis l).
  pose proof (pow2_ge_0 s). pose proof (pow2_ge_0 (k - 3)). split; [apply Rmult_le_pos; lra|]. split.
  - intros E. apply Rmult_integral in E as [|E]; [lra|]. split; nra.
  - intros [-> ->]. field.
Qed.
Lemma l_test_zero mu v3 v4 t l : 0 < v3 -> 0 < v4 -> l_moment t 2 l <> 0 -> 0 <= l_moment_test mu v3 v4 t l /\
  (l_moment_test mu v3 v4 t l = 0 <-> l_moment t 3 l = 0 /\ l_moment t 4 l = mu * l_moment t 2 l).
Proof.
  intros P3 P4 N. unfold l_moment_test. set (a := l_moment t 3 l). set (b := l_moment t 2 l) in *. set (c := l_moment t 4 l).
  assert (Q : forall x w, 0 < w -> 0 <= x ^ 2 / w) by (intros x w W; apply Rmult_le_pos; [apply pow2_ge_0|left; now apply Rinv_0_lt_compat]).
  pose proof (Q (a / b) v3 P3) as Q1. pose proof (Q (c / b - mu) v4 P4) as Q2. split; [lra|].
  assert (Z : forall x w, 0 < w -> x ^ 2 / w = 0 -> x = 0) by (intros x w W E; apply Rmult_integral in E as [E|E]; [nra|]; exfalso; revert E; apply Rinv_neq_0_compat; lra).
  split.
  - intros E. assert (E1 : a / b = 0) by (apply (Z _ v3); lra). assert (E2 : c / b - mu = 0) by (apply (Z _ v4); lra). split.
    + replace a with (a / b * b) by (field; trivial). rewrite E1. ring.
    + replace c with (c / b * b) by (field; trivial). replace (c / b) with mu by lra. ring.
  - intros [-> ->]. field. repeat split; try trivial; lra.
Qed.
Lemma null_pos t n : let '(mu, v3, v4) := null_moments t n in 0 < v3 /\ 0 < v4.
Proof. unfold null_moments. destruct t as [|[|[|t]]]; destruct (n <=? 25)%nat; [| destruct (n <=? 50)%nat | | destruct (n <=? 50)%nat | | destruct (n <=? 50)%nat | | destruct (n <=? 50)%nat]; lra. Qed.
Lemma C101_hosking_holds : forall l v t, (6 <= length l)%nat ->
  nth t [hosking1 l; hosking2 l; hosking3 l; hosking4 l] (Raise ValueError) = Ok (Some (Fin v)) -> 0 <= v /\
  (v = 0 <-> l_moment t 3 l = 0 /\ l_moment t 4 l = fst (fst (null_moments t (length l))) * l_moment t 2 l).
Proof.
  intros l v t L H. assert (K : l_moment t 2 l <> 0 /\ let '(mu, v3, v4) := null_moments t (length l) in v = l_moment_test mu v3 v4 t l).
  { destruct t as [|[|[|[|t]]]]; cbn [nth] in H; [| | | |destruct t; discriminate].
    - now apply hosking1_form in H.
    - unfold hosking2 in H. destruct (Nat.ltb_spec 3 (length l)); [|lia]. now apply trimmed_form in H; [|lia].
    - apply gt3_inv in H as [_ H]. now apply trimmed_form in H; [|lia].
    - apply gt3_inv in H as [_ H]. now apply trimmed_form in H; [|lia]. }
  destruct K as [K1 K2]. pose proof (null_pos t (length l)) as P. destruct (null_moments t (length l)) as [[mu v3] v4]. destruct P as [P3 P4]. rewrite K2. cbn [fst]. now apply l_test_zero.
Qed.
Lemma C101_hermite_holds : forall l v,
  (bm1 l = Ok (Some (Fin v)) -> 0 <= v /\ (v = 0 <-> forall k, (3 <= k <= 4)%nat -> hermite_mean k l = 0)) /\
  (bm2 l = Ok (Some (Fin v)) -> 0 <= v /\ (v = 0 <-> forall k, (3 <= k <= 6)%nat -> hermite_mean k l = 0)).
Proof.
  intros l v. destruct (C100_hermite_holds l v) as [A B]. split; intros H; [specialize (A H)|specialize (B H)].
  - subst v. pose proof (pow2_ge_0 (hermite_mean 3 l)). pose proof (pow2_ge_0 (hermite_mean 4 l)). split; [lra|]. split.
    + intros E k Hk. assert (k = 3 \/ k = 4)%nat as [->| ->] by lia; nra.
    + intros Z. rewrite !Z by lia. ring.
  - subst v. pose proof (pow2_ge_0 (hermite_mean 3 l)). pose proof (pow2_ge_0 (hermite_mean 4 l)). pose proof (pow2_ge_0 (hermite_mean 5 l)). pose proof (pow2_ge_0 (hermite_mean 6 l)). split; [lra|]. split.
    + intros E k Hk. assert (k = 3 \/ k = 4 \/ k = 5 \/ k = 6)%nat as [->|[->|[->| ->]]] by lia; nra.
    + intros Z. rewrite !Z by lia. ring.
Qed.

(** ** C102 *)
Lemma skew_sample l v : skew_norm l = Ok (Some (Fin v)) -> skewness l = sample_skewness l.
Proof. intros H. apply skew_inv in H as (H8 & V & _). apply skewness_sample; [intros ->; simpl in H8; lia|now apply varying_iff]. Qed.
Lemma C102_skewness_increasing_holds : forall l l' v v', length l = length l' -> skew_norm l = Ok (Some (Fin v)) -> skew_norm l' = Ok (Some (Fin v')) ->
  sample_skewness l <> 0 -> sample_skewness l' <> 0 -> (sample_skewness l < sample_skewness l' <-> v < v').
Proof. intros l l' v v' L E E' Z Z'. rewrite <- (skew_sample l v E), <- (skew_sample l' v' E') in *. now apply skew_increasing. Qed.
Lemma C102_skewness_sign_holds : forall l v, skew_norm l = Ok (Some (Fin v)) -> (0 < v <-> 0 <= sample_skewness l) /\ (v < 0 <-> sample_skewness l < 0).
Proof. intros l v H. rewrite <- (skew_sample l v H). now apply skew_sign. Qed.
Lemma skew_value l : (8 <= length l)%nat -> varying l = true -> skew_norm l = Ok (Some (Fin (sk_z (len l) (if Reqb (sk_y (len l) (skewness l)) 0 then 1 else sk_y (len l) (skewness l))))).
Proof.
  intros L V. unfold skew_norm, skew_test. rewrite rsort_length. destruct (Nat.ltb_spec (length l) 8); [lia|]. cbn [some_num bind]. unfold len. rewrite rsort_length.
  rewrite (skewness_rsort l), (varying_perm (rsort l) l (rsort_perm l)), V. reflexivity.
Qed.
Lemma central2_pos l : 0 < moment 2 l -> 0 < ssq l.
Proof. change (moment 2 l) with (central 2 l). rewrite central2_ssq. assert (P : 0 <= ssq l) by (apply Rsum_nonneg; intros x Hx; apply in_map_iff in Hx as (y & <- & _); apply pow2_ge_0). destruct P as [P|E]; [trivial|]. rewrite <- E. unfold Rdiv. rewrite Rmult_0_l. lra. Qed.
Lemma C102_skewness_zero_refuted_holds : exists l l' v v', length l = length l' /\ skew_norm l = Ok (Some (Fin v)) /\ skew_norm l' = Ok (Some (Fin v')) /\
  sample_skewness l < sample_skewness l' /\ v' < v.
Proof.
  set (l := [-3; -3; -3; -3; 3; 3; 3; 3]). set (l' := [2; -1; -1; 3; -3; 0; 0; 0]).
  assert (Ml : mean l = 0) by (unfold mean, len, l; cbn [Rsum length]; lra). assert (Ml' : mean l' = 0) by (unfold mean, len, l'; cbn [Rsum length]; lra).
  assert (L8 : forall x : list R, length x = 8%nat -> len x = 8) by (intros x E; unfold len; rewrite E, INR_IZR_INZ; reflexivity).
  assert (A2 : moment 2 l = 9) by (unfold moment; rewrite Ml; unfold mean, len, l; cbn [map Rsum length]; simpl; lra). assert (A3 : moment 3 l = 0) by (unfold moment; rewrite Ml; unfold mean, len, l; cbn [map Rsum length]; simpl; lra).
  assert (B2 : moment 2 l' = 3) by (unfold moment; rewrite Ml'; unfold mean, len, l'; cbn [map Rsum length]; simpl; lra). assert (B3 : moment 3 l' = 3 / 4) by (unfold moment; rewrite Ml'; unfold mean, len, l'; cbn [map Rsum length]; simpl; lra).
  assert (VA : varying l = true) by (apply varying_iff; apply (central2_pos l); rewrite A2; lra). assert (VB : varying l' = true) by (apply varying_iff; apply (central2_pos l'); rewrite B2; lra).
  pose proof (skew_value l ltac:(simpl; lia) VA) as EA. pose proof (skew_value l' ltac:(simpl; lia) VB) as EB. rewrite (L8 l eq_refl) in EA. rewrite (L8 l' eq_refl) in EB.
  assert (SA : skewness l = 0) by (unfold skewness; rewrite A3; unfold Rdiv; ring).
  assert (S3 : 1.7 <= sqrt 3) by (apply sqrt_ge; lra). assert (SB : 0 < skewness l' <= 0.2).
  { unfold skewness. rewrite B2, B3. assert (C : 4 <= sqrt 3 ^ 3). { apply Rle_trans with (1.7 ^ 3); [lra|]. apply pow_incr. lra. } split; [apply Rdiv_lt_0_compat; lra|].
    apply Rle_trans with (3 / 4 * / 4); [apply Rmult_le_compat_l; [lra|]; apply Rinv_le_contravar; lra|lra]. }
  assert (Y : 0 < sk_y 8 (skewness l') < 1).
  { assert (K : 0 < sqrt ((8 + 1) * (8 + 3) / (6 * (8 - 2))) <= 2) by (split; [apply sqrt_lt_R0; lra|apply sqrt_le'; lra]). unfold sk_y. split; [apply Rmult_lt_0_compat; lra|]. nra. }
  assert (Y0 : sk_y 8 (skewness l) = 0) by (rewrite SA; unfold sk_y; ring). rewrite Y0 in EA. destruct (Reqb_spec 0 0) in EA; [|lra]. destruct (Reqb_spec (sk_y 8 (skewness l')) 0) in EB; [lra|].
  exists l, l'. eexists. eexists. split; [reflexivity|]. split; [exact EA|]. split; [exact EB|]. split.
  - rewrite <- (skew_sample l _ EA), <- (skew_sample l' _ EB). lra.
  - apply sk_z_incr; lra.
Qed.
(** from the expected sample kurtosis 3 (n - 1) / (n + 1) upwards *)
Lemma C102_kurtosis_increasing_partial_holds : forall l l' v v', length l = length l' -> kurtosis_norm l = Ok (Some (Fin v)) -> kurtosis_norm l' = Ok (Some (Fin v')) ->
  3 * (len l - 1) / (len l + 1) <= sample_kurtosis l -> sample_kurtosis l < sample_kurtosis l' -> v < v'.
Proof.
  intros l l' v v' L E E' M K. apply kurtosis_inv in E as E2. destruct E2 as (H5 & _). pose proof (len5 l H5) as N. apply (kurtosis_increasing l l'); trivial. left.
  unfold ku_denom. pose proof (ku_var_pos _ N) as V. assert (V0 : 0 < sqrt (ku_var (len l))) by (now apply sqrt_lt_R0). pose proof (sqrt_pos (2 / (ku_a (len l) - 4))).
  assert (0 <= (kurt l - ku_e (len l)) / sqrt (ku_var (len l)) * sqrt (2 / (ku_a (len l) - 4))); [|lra]. apply Rmult_le_pos; trivial. apply Rmult_le_pos; [|left; now apply Rinv_0_lt_compat]. unfold ku_e. change (sample_kurtosis l) with (kurt l) in M. lra.
Qed.
Lemma C102_kurtosis_refuted_holds : exists l l' v v', length l = length l' /\ kurtosis_norm l = Ok (Some (Fin v)) /\ kurtosis_norm l' = Ok (Some (Fin v')) /\
  sample_kurtosis l = 1 /\ sample_kurtosis l' = 50 /\ v' < v.
Proof.
  destruct kurtosis_wrong_way as (v & v' & A & B & C). exists light_tails, heavy_tails, v, v'. split; [unfold light_tails, heavy_tails; cbn [length]; now rewrite app_length, !repeat_length|].
  repeat split; trivial; [exact light_kurt|exact heavy_kurt].
Qed.

(** ** non-vacuity *)
Definition eleven : list R := map INR (seq 1 11).
Lemma eleven_nodup : NoDup eleven.
Proof. apply FinFun.Injective_map_NoDup; [intros i j; apply INR_eq|apply seq_NoDup]. Qed.
Lemma C100_nonvacuous_holds : (forall f, In f [hosking1; hosking2; hosking3; hosking4; zq; zqs; cs; dagostino; jb_norm; rjb; gmg; bs; bm1; bm2; cc1; cc2; ep_norm] ->
    exists v, f eleven = Ok (Some (Fin v))) /\
  (exists l, (8 <= length l)%nat /\ straight l).
Proof.
  pose proof eleven_nodup as D. assert (L : length eleven = 11%nat) by reflexivity. split.
  - assert (V : varying eleven = true) by (apply nodup_varying; trivial; lia). intros f I.
    repeat (destruct I as [<-|I]); [..|contradiction].
    + apply (hosking1_fin eleven D). lia.
    + unfold hosking2. rewrite L. apply (hosking_trimmed_fin 1 eleven D); lia.
    + unfold hosking3. apply gt3_fin; [lia|]. apply (hosking_trimmed_fin 2 eleven D); lia.
    + unfold hosking4. apply gt3_fin; [lia|]. apply (hosking_trimmed_fin 3 eleven D); lia.
    + apply (zq_fin eleven D). lia.
    + apply (zqs_fin eleven D). lia.
    + apply (varying_fin eleven _ D). lia.
    + apply (varying_fin eleven _ D). lia.
    + unfold jb_norm, eleven. cbn [seq map]. apply num_fin. exact V.
    + apply (rjb_fin eleven D). lia.
    + apply (gmg_fin eleven D). lia.
    + unfold bs. cbv zeta. apply gt3_fin; [lia|]. rewrite V. now apply num_fin.
    + apply (varying_fin eleven _ D). lia.
    + apply (varying_fin eleven _ D). lia.
    + apply (varying_fin eleven _ D). lia.
    + apply (varying_fin eleven _ D). lia.
    + unfold ep_norm. rewrite match_ne by discriminate. now apply num_fin.
  - exists (map (fun i => 0 + 1 * blom 8 i) (seq 0 8)). split; [rewrite map_length, seq_length; lia|]. exists 0, 1. split; [lra|]. rewrite map_length, seq_length. apply rsort_id.
    assert (B : forall m k, (k + m <= 8)%nat -> sortedR (map (fun i => 0 + 1 * blom 8 i) (seq k m))).
    { induction m as [|m IH]; intros k H; [constructor|]. cbn [seq map]. constructor; [apply IH; lia|]. apply Forall_forall. intros x Hx. apply in_map_iff in Hx as (j & <- & Hj). apply in_seq in Hj. pose proof (blom_lt 8 k j ltac:(lia)). lra. }
    apply B. lia.
Qed.
Lemma C101_nonvacuous_holds : jb_norm [-1; 0; 0; 0; 0; 1] = Ok (Some (Fin 0)) /\ exists v w, zwc eleven = Ok (Some (Fin v)) /\ zwa eleven = Ok (Some (Fin w)).
Proof.
  split.
  - set (l := [-1; 0; 0; 0; 0; 1]). assert (Ml : mean l = 0) by (unfold mean, len, l; cbn [Rsum length]; lra).
    assert (A2 : moment 2 l = / 3) by (unfold moment; rewrite Ml; unfold mean, len, l; cbn [map Rsum length]; simpl; lra).
    assert (V : varying l = true) by (apply varying_iff; apply (central2_pos l); rewrite A2; lra).
    assert (exists v, jb_norm l = Ok (Some (Fin v))) as [v E] by (unfold jb_norm, num; rewrite V; unfold l; eexists; reflexivity). rewrite E. do 3 f_equal. apply (C101_jarque_bera_holds l v E). split.
    + unfold sample_skewness. replace (central 3 l) with 0; [unfold Rdiv; ring|]. unfold central. rewrite Ml. unfold mean, len, l. cbn [map Rsum length]. simpl. lra.
    + unfold sample_kurtosis. change (central 2 l) with (moment 2 l). rewrite A2. replace (central 4 l) with (/ 3); [field|]. unfold central. rewrite Ml. unfold mean, len, l. cbn [map Rsum length]. simpl. lra.
  - assert (A : forall f, (forall l, exists b, f l = gt3 l (num (varying l) b)) -> exists v, f eleven = Ok (Some (Fin v))).
    { intros f F. destruct (F eleven) as [b ->]. apply (varying_fin eleven b eleven_nodup). unfold eleven. rewrite map_length, seq_length. lia. }
    destruct (A zwc) as [v Ev]; [intros l; eexists; reflexivity|]. destruct (A zwa) as [w Ew]; [intros l; eexists; reflexivity|]. now exists v, w.
Qed.
Lemma C102_nonvacuous_holds : exists v w, skew_norm [2; -1; -1; 3; -3; 0; 0; 0] = Ok (Some (Fin v)) /\ skew_norm [2; -1; -1; 4; -4; 0; 0; 0] = Ok (Some (Fin w)) /\
  0 < sample_skewness [2; -1; -1; 3; -3; 0; 0; 0] /\ 0 < sample_skewness [2; -1; -1; 4; -4; 0; 0; 0].
Proof.
  set (l := [2; -1; -1; 3; -3; 0; 0; 0]). set (l' := [2; -1; -1; 4; -4; 0; 0; 0]).
  assert (Ml : mean l = 0) by (unfold mean, len, l; cbn [Rsum length]; lra). assert (Ml' : mean l' = 0) by (unfold mean, len, l'; cbn [Rsum length]; lra).
  assert (A2 : moment 2 l = 3) by (unfold moment; rewrite Ml; unfold mean, len, l; cbn [map Rsum length]; simpl; lra). assert (A3 : central 3 l = 3 / 4) by (unfold central; rewrite Ml; unfold mean, len, l; cbn [map Rsum length]; simpl; lra).
  assert (B2 : moment 2 l' = 19 / 4) by (unfold moment; rewrite Ml'; unfold mean, len, l'; cbn [map Rsum length]; simpl; lra). assert (B3 : central 3 l' = 3 / 4) by (unfold central; rewrite Ml'; unfold mean, len, l'; cbn [map Rsum length]; simpl; lra).
  assert (VA : varying l = true) by (apply varying_iff; apply (central2_pos l); rewrite A2; lra). assert (VB : varying l' = true) by (apply varying_iff; apply (central2_pos l'); rewrite B2; lra).
  eexists. eexists. split; [apply skew_value; [simpl; lia|exact VA]|]. split; [apply skew_value; [simpl; lia|exact VB]|].
  unfold sample_skewness. rewrite A3, B3. split; (apply Rdiv_lt_0_compat; [lra|unfold Rpower; apply exp_pos]).
Qed.
