(** Properties C47, C48, C50, C62, C63, C65 and C84 for the normality statistics. *)
From Coq Require Import String.
From Verif Require Import Base DecModel DecSpec EdfModel EdfSpec GraphModel RegistryModel NormalLaw ExpModel ExpSpec NormModel NormSpec NormRangeSpec DecProofs EdfProofs EdfRotProofs ExpProofs ExpRangeProofs NormProofs NormSymProofs NormAffProofs NormReflProofs NormRangeProofs NormFiniteProofs NormBoundProofs EdfClaims ExpClaims NormClaims.
From Coq Require Import Lra Lia.
Local Open Scope string_scope.
Local Open Scope R_scope.

(** *** C47, C48, C50 *)
(** Kolmogorov-Smirnov measures the distance to the standard normal law, Lilliefors the distance to the normal
    law with the sample mean and standard deviation *)
Lemma C47_normality_holds : forall l, (2 <= length l)%nat -> NoDup l ->
  (forall m s, exists d, ks_norm m s TWO_TAILED l = Ok (Some (Fin d)) /\ supremum (fun x => Rabs (edf l x - norm_cdf x)) d) /\
  (exists d, lillie_norm l = Ok (Some (Fin d)) /\ supremum (fun x => Rabs (edf l x - fitted_normal l x)) d).
Proof.
  intros l Hn Hd. assert (Hne : l <> []) by (apply (ne_of_len l 0); lia). pose proof (nodup_ssq l Hd Hn) as S. split.
  - intros m s. destruct (proj1 (C47_ks_is_sup_distance_holds norm_cdf l norm_cdf_cdf Hne)) as (d & E & Q). exists d. split; trivial.
    unfold ks_norm. change (map norm_cdf (rsort l)) with (cdf_vals norm_cdf l). unfold ks_stat in E. rewrite E. reflexivity.
  - destruct (proj1 (C47_ks_is_sup_distance_holds (fitted_cdf l) l (fitted_cdf_cdf l Hn S) Hne)) as (d & E & Q). exists d. split; [|exact Q].
    rewrite lillie_ks by trivial. rewrite E. reflexivity.
Qed.
Lemma C48_normality_holds : forall l, (2 <= length l)%nat -> NoDup l ->
  (exists d, lillie_norm l = Ok (Some (Fin d)) /\ 1 / (2 * len l) <= d <= 1) /\
  (exists w, cvm_norm l = Ok (Some (Fin w)) /\ 1 / (12 * len l) <= w <= len l / 3).
Proof.
  intros l Hn Hd. assert (Hne : l <> []) by (apply (ne_of_len l 0); lia). pose proof (nodup_ssq l Hd Hn) as S.
  destruct (fitted_cdf_cdf l Hn S) as (F1 & F2 & _). destruct norm_cdf_cdf as (G1 & G2 & _). split.
  - destruct (C48_ranges_holds (fitted_cdf l) l F1 F2 Hne) as ((d & E & Q) & _). exists d. split; [|exact Q]. rewrite lillie_ks by trivial. now rewrite E.
  - destruct (C48_ranges_holds norm_cdf l G1 G2 Hne) as (_ & (w & E & Q) & _). exists w. split; [|exact Q].
    unfold cvm_norm. change (map norm_cdf (rsort l)) with (cdf_vals norm_cdf l). unfold cvm_stat in E. now rewrite E.
Qed.
Lemma C50_normality_holds : forall l, (2 <= length l)%nat -> NoDup l ->
  exists a, ad_norm l = Ok (Some (Fin a)) /\ ad_stat (fitted_normal l) l = Fin a /\ 0 <= a.
Proof.
  intros l Hn Hd. assert (Hne : l <> []) by (apply (ne_of_len l 0); lia). pose proof (nodup_ssq l Hd Hn) as S.
  destruct (C50_ad_nonnegative_holds (fitted_cdf l) l Hne) as (a & E & Q). intros x _. apply norm_cdf_bounds.
  exists a. split; [|split; trivial]. rewrite ad_norm_ad by trivial. now rewrite E.
Qed.

(** *** C62 *)
Lemma C62_w_statistics_holds : forall A name f l v, In (name, f) (normality_statistics A) -> In name w_statistics ->
  nvalue (f l) = Ok (Some (Fin v)) -> 0 <= v <= 1.
Proof.
  intros A name f l v H N. unfold normality_statistics in H. neach H; try (exfalso; simpl in N; now repeat (destruct N as [N|N]; [discriminate|])).
  - apply sw_range.
  - apply filli_range.
  - apply rj_unweighted_range. lra.
  - apply sf_range.
  - apply swrg_range.
Qed.
Lemma C62_ryan_joiner_holds : forall weighted alpha l v, rj_norm weighted alpha l = Ok (Some (Fin v)) ->
  -1 <= v <= 1 /\ (weighted = false -> 0 <= alpha < 1 -> 0 <= v).
Proof.
  intros w al l v E. split. now apply rj_range in E. intros -> Ha. now apply rj_unweighted_range in E.
Qed.
(** the largest value 1 is reached exactly by samples lying on a straight line in the probability plot *)
Lemma C62_one_iff_straight_line_holds : forall l v,
  (sf_norm l = Ok (Some (Fin v)) -> (v = 1 <-> increasing_affine_image (rsort l) (scores 0.375 (length l)))) /\
  (filli_norm l = Ok (Some (Fin v)) -> (v = 1 <-> increasing_affine_image (rsort l) (map norm_ppf (filli_medians (length l))))) /\
  (forall alpha, rj_norm false alpha l = Ok (Some (Fin v)) -> (v = 1 <-> increasing_affine_image (rsort l) (scores alpha (length l)))) /\
  (swrg l = Ok (Some (Fin v)) -> (v = 1 <-> affine_image (rsort l) (wrg_star (length l)))) /\
  (sw_norm l = Ok (Some (Fin v)) -> exists w, sw_coefficients (length l) = Ok (Some w) /\ (v = 1 <-> affine_image (rsort l) w)).
Proof.
  intros l v. split; [|split; [|split; [|split]]]. apply sf_one. apply filli_one. intros al. apply rj_one. apply swrg_one. apply sw_one.
Qed.
(** not vacuous: normal scores themselves reach 1 *)
Lemma C62_scores_reach_one_holds : forall n, (2 <= n)%nat ->
  sf_norm (scores 0.375 n) = Ok (Some (Fin 1)) /\ lg_norm (scores (3 / 8) n) = Ok (Some (Fin 1)).
Proof.
  intros n Hn. assert (A : forall al, 0 <= al < 1 -> NoDup (scores al n) /\ rsort (scores al n) = scores al n).
  { intros al Ha. split. apply (NoDup_nth (scores al n) 0). intros i j Hi Hj E. rewrite scores_length in Hi, Hj. destruct (lt_eq_lt_dec i j) as [[h|h]|h]; trivial.
    pose proof (scores_lt al n i j Ha ltac:(lia)). lra. pose proof (scores_lt al n j i Ha ltac:(lia)). lra.
    apply rsort_id. now apply scores_sorted. }
  assert (I : forall x, increasing_affine_image x x). { intros x. exists 0, 1. split; [lra|]. symmetry. transitivity (map (fun v : R => v) x); [|apply map_id]. apply map_ext. intros; ring. }
  split.
  - destruct (A 0.375 ltac:(lra)) as [Hd Hs]. destruct (sf_fin (scores 0.375 n) Hd ltac:(now rewrite scores_length)) as [v E]. rewrite E. do 3 f_equal. apply (sf_one _ _ E).
    rewrite Hs, scores_length. apply I.
  - destruct (A (3 / 8) ltac:(lra)) as [Hd Hs]. destruct (rj_fin false (3 / 8) (scores (3 / 8) n) ltac:(lra) Hd ltac:(now rewrite scores_length)) as [v E]. unfold lg_norm. rewrite E. do 3 f_equal. apply (rj_one _ _ _ E).
    rewrite Hs, scores_length. apply I.
Qed.

(** *** C63 *)
Lemma C63_normality_holds : forall A name f l, 0 <= n_alpha A < 1 -> In (name, f) (normality_statistics A) ->
  ~ In name conditional_normal -> (10 <= length l)%nat -> NoDup l -> exists v, nvalue (f l) = Ok (Some (Fin v)).
Proof.
  intros A name f l Ha H N Hn Hd. assert (Hne : l <> []) by (apply (ne_of_len l 0); lia). assert (Hm : map norm_cdf (rsort l) <> []) by (now apply (ne_of_len _ 0); rewrite map_length, rsort_length; lia).
  assert (S : varying l = true) by (apply nodup_varying; trivial; lia).
  change (fin (nvalue (f l))). unfold normality_statistics in H. neach H; try (exfalso; apply N; simpl; tauto).
  - now apply ks_fin.
  - apply ad_norm_fin; trivial; lia.
  - now apply cvm_fin.
  - apply lillie_fin; trivial; lia.
  - unfold jb_norm. rewrite match_ne by trivial. now apply num_fin.
  - apply skew_fin; trivial; lia.
  - apply filli_fin; trivial; lia.
  - apply rj_fin; trivial; try lia; lra.
  - apply rj_fin; trivial; lia.
  - apply sf_fin; trivial; lia.
  - unfold ep_norm. rewrite match_ne by trivial. now apply num_fin.
  - unfold hosking2. rewrite (proj2 (Nat.ltb_lt 3 _)) by lia. apply hosking_trimmed_fin; trivial; lia.
  - apply hosking1_fin; trivial; lia.
  - apply gt3_fin; [lia|]. apply hosking_trimmed_fin; trivial; lia.
  - apply gt3_fin; [lia|]. apply hosking_trimmed_fin; trivial; lia.
  - apply varying_fin; trivial; lia.
  - apply varying_fin; trivial; lia.
  - apply varying_fin; trivial; lia.
  - apply dh_fin; trivial; lia.
  - apply rjb_fin; trivial; lia.
  - apply varying_fin; trivial; lia.
  - apply varying_fin; trivial; lia.
  - apply gt3_fin; [lia|]. rewrite S. now apply num_fin.
  - apply mi_fin; trivial; lia.
  - apply varying_fin; trivial; lia.
  - apply varying_fin; trivial; lia.
  - apply varying_fin; trivial; lia.
  - apply zq_fin; trivial; lia.
  - apply varying_fin; trivial; lia.
  - apply zqs_fin; trivial; lia.
  - apply swrg_fin; trivial; lia.
  - apply gmg_fin; trivial; lia.
  - apply varying_fin; trivial; lia.
Qed.
(** the other statistics: the exact conditions *)
Lemma C63_normality_conditions_holds : forall l, (8 <= length l)%nat -> NoDup l ->
  ((exists v, kurtosis_norm l = Ok (Some (Fin v))) <-> ku_denom (len l) (kurt l) <> 0) /\
  ((exists v, dap_norm l = Ok (Some (Fin v))) <-> ku_denom (len l) (kurt l) <> 0) /\
  ((exists v, sw_norm l = Ok (Some (Fin v))) <-> exists a, sw_coefficients (length l) = Ok (Some a)) /\
  ((exists v, dldm l = Ok (Some (Fin v))) <-> ~ In (mean l) l).
Proof.
  intros l Hn Hd. split; [|split; [|split]]. apply kurtosis_fin; trivial; lia. apply dap_fin; trivial; lia. apply sw_fin; trivial; lia. apply dldm_fin; trivial; lia.
Qed.
(** the Desgagne-Lafaye statistic is not a number when an observation equals the sample mean *)
Lemma C63_desgagne_lafaye_refuted_holds : exists l, (10 <= length l)%nat /\ NoDup l /\ dldm l = Ok (Some NonFinite).
Proof.
  set (l := map INR (seq 1 11)). exists l. assert (Hd : NoDup l). { apply FinFun.Injective_map_NoDup. intros i j. apply INR_eq. apply seq_NoDup. }
  split; [unfold l; rewrite map_length, seq_length; lia|]. split; trivial.
  pose proof (dldm_fin l Hd ltac:(unfold l; rewrite map_length, seq_length; lia)) as Q.
  assert (I : In (mean l) l). { replace (mean l) with (INR 6). unfold l. apply in_map. apply in_seq. lia. unfold mean, l, len. simpl. field. }
  assert (N : ~ fin (dldm l)) by tauto. revert N. unfold dldm. cbv zeta. unfold gt3. replace (3 <? length l)%nat with true by reflexivity. unfold num.
  destruct (varying l && _); [|reflexivity]. intros N. exfalso. apply N. eexists. reflexivity.
Qed.
(** samples of up to three values: no value at all; between four and seven values some raise *)
Lemma C63_normality_small_holds : forall A name f l, In (name, f) (normality_statistics A) ->
  (In name silent_normal -> (length l <= 3)%nat -> nvalue (f l) = Ok None) /\
  (In name ["ZhangQNormalityGofStatistic"; "ZhangQStarNormalityGofStatistic"] -> (4 <= length l < 8)%nat -> nvalue (f l) = Raise IndexError) /\
  (name = "SkewNormalityGofStatistic" -> (length l < 8)%nat -> nvalue (f l) = Raise ValueError) /\
  (name = "KurtosisNormalityGofStatistic" -> (length l < 5)%nat -> nvalue (f l) = Raise ValueError) /\
  (name = "DoornikHansenNormalityGofStatistic" -> (length l < 8)%nat -> nvalue (f l) = Raise ValueError \/ nvalue (f l) = Raise ZeroDivisionError) /\
  (name = "ShapiroWilkNormalityGofStatistic" -> (length l < 3)%nat -> nvalue (f l) = Raise IndexError \/ nvalue (f l) = Raise TypeError).
Proof.
  intros A name f l H.
  assert (G : forall o, (length l <= 3)%nat -> gt3 l o = Ok None) by (intros o h; unfold gt3; now rewrite (proj2 (Nat.ltb_ge _ _) h)).
  unfold normality_statistics in H. neach H; (split; [intros N h; try (now apply G); exfalso; simpl in N; now repeat (destruct N as [N|N]; [discriminate|]) | ]);
    (split; [intros N h; try (exfalso; simpl in N; now repeat (destruct N as [N|N]; [discriminate|])) | split; [intros N h; try discriminate N | split; [intros N h; try discriminate N | split; intros N h; try discriminate N]]]).
  - destruct (length l) as [|[|[|k]]] eqn:E; try lia; unfold sw_norm; rewrite E; auto.
  - unfold skew_norm, skew_test. rewrite rsort_length. now rewrite (proj2 (Nat.ltb_lt _ _) h).
  - unfold kurtosis_norm, kurtosis_test. rewrite rsort_length. now rewrite (proj2 (Nat.ltb_lt _ _) h).
  - unfold dh. cbv zeta. rewrite (proj2 (Nat.ltb_lt _ _) h). destruct (_ || _); auto.
  - unfold zq, gt3. cbv zeta. rewrite (proj2 (Nat.ltb_lt 3 _)), (proj2 (Nat.ltb_lt _ 8)) by lia. reflexivity.
  - unfold zqs, gt3. cbv zeta. rewrite (proj2 (Nat.ltb_lt 3 _)), (proj2 (Nat.ltb_lt _ 8)) by lia. reflexivity.
Qed.

(** *** C65 *)
(** the Hosking statistics are positive definite quadratic forms in the deviations of the sample L-skewness and
    L-kurtosis from their values for a normal law; they declare a two-sided alternative, so a value close to
    zero, a good fit, is rejected as well *)
Lemma C65_hosking_refuted_holds :
  (forall A name f l v, In (name, f) (normality_statistics A) ->
     In name ["Hosking1NormalityGofStatistic"; "Hosking2NormalityGofStatistic"; "Hosking3NormalityGofStatistic"; "Hosking4NormalityGofStatistic"] ->
     nvalue (f l) = Ok (Some (Fin v)) -> 0 <= v) /\
  (forall t l, (1 <= t <= 3)%nat -> NoDup l -> (2 * t + 4 <= length l)%nat ->
     exists v mu v3 v4, hosking_trimmed t l = Ok (Some (Fin v)) /\ hosking_constants t (length l) = (mu, v3, v4) /\
       let tau r := tl_moment t r (rsort l) / tl_moment t 2 (rsort l) in
       v = tau 3%nat ^ 2 / v3 + (tau 4%nat - mu) ^ 2 / v4 /\ (v = 0 <-> tau 3%nat = 0 /\ tau 4%nat = mu)) /\
  declares "Hosking1NormalityGofStatistic" TWO_TAILED /\ declares "Hosking2NormalityGofStatistic" TWO_TAILED /\
  declares "Hosking3NormalityGofStatistic" TWO_TAILED /\ declares "Hosking4NormalityGofStatistic" TWO_TAILED.
Proof.
  split; [|split; [|repeat split; apply declared; vm_compute; reflexivity]].
  - intros A name f l v H N. unfold normality_statistics in H. neach H; try (exfalso; simpl in N; now repeat (destruct N as [N|N]; [discriminate|])).
    apply hosking2_nonneg. apply hosking1_nonneg. apply hosking3_nonneg. apply hosking4_nonneg.
  - intros t l Ht Hd Hn. destruct (hosking_trimmed_fin t l Hd ltac:(lia) Hn) as [v E]. destruct (hosking_constants t (length l)) as [[mu v3] v4] eqn:Ec.
    exists v, mu, v3, v4. split; trivial. split; trivial. cbv zeta. unfold hosking_trimmed in E. cbv zeta in E. rewrite Ec in E. apply num_inv in E as [_ ->].
    apply hosking_constants_pos in Ec as [H3 H4]. split; [reflexivity|]. now apply hosking_value_zero.
Qed.
(** consequence: a value below all simulated values, the best fit of all, is rejected at every level *)
Lemma C65_best_fit_rejected_two_tailed_holds : forall st (res : resolver) n limit level x, st_alternative st = TWO_TAILED ->
  res st n = Ok (Some limit) -> limit <> [] -> (forall v, In v limit -> x < v) -> 0 <= level ->
  exists r, p_value_decide res st x level n = Ok r /\ tr_p_value r = Some 0 /\ tr_rejected r = true.
Proof.
  intros st res n limit level x Ha Hr Hn Hp Hl. unfold p_value_decide. rewrite Hr. cbn [bind]. rewrite Ha. cbn [p_value_of]. unfold two_sided_p_value.
  assert (E : ecdf_evaluate limit x = 0).
  { rewrite ecdf_is_fraction. unfold fraction. rewrite count_zero; [simpl; unfold Rdiv; ring|].
    intros v Hv. apply Hp in Hv. destruct (Rleb_spec v x); [lra|reflexivity]. }
  rewrite E. replace (2 * Rmin 0 (1 - 0)) with 0 by (rewrite Rmin_left by lra; ring). eexists. split; [reflexivity|]. split; [reflexivity|]. now apply Rleb_true.
Qed.
(** Lilliefors is a distance (see C47_normality_holds) and declares a two-sided alternative *)
Lemma C65_lilliefors_refuted_holds : declares "LillieforsNormalityGofStatistic" TWO_TAILED /\
  forall l, (2 <= length l)%nat -> NoDup l ->
    exists d, lillie_norm l = Ok (Some (Fin d)) /\ supremum (fun x => Rabs (edf l x - fitted_normal l x)) d.
Proof.
  split. apply declared; vm_compute; reflexivity. intros l Hn Hd. exact (proj2 (C47_normality_holds l Hn Hd)).
Qed.
(** the Wilk-Shapiro statistic with Rahman-Govindarajulu weights is largest for the best fit, like the Shapiro-Wilk and
    Shapiro-Francia statistics, but large values are rejected *)
Lemma C65_swrg_refuted_holds : declares "SWRGNormalityGofStatistic" RIGHT /\
  declares "ShapiroWilkNormalityGofStatistic" LEFT /\ declares "SFNormalityGofStatistic" LEFT /\
  forall l v, swrg l = Ok (Some (Fin v)) -> v <= 1 /\ (v = 1 <-> affine_image (rsort l) (wrg_star (length l))).
Proof.
  repeat (split; [apply declared; vm_compute; reflexivity|]). intros l v E. split. now apply swrg_range in E. now apply swrg_one.
Qed.

(** *** C84 *)
Lemma C84_nonnegative_holds : forall A name f l v, In (name, f) (normality_statistics A) -> In name nonnegative_normal ->
  nvalue (f l) = Ok (Some (Fin v)) -> 0 <= v.
Proof.
  intros A name f l v H N. unfold normality_statistics in H. neach H; try (exfalso; simpl in N; now repeat (destruct N as [N|N]; [discriminate|])).
  - apply jb_nonneg.
  - apply dap_nonneg.
  - apply hosking2_nonneg.
  - apply hosking1_nonneg.
  - apply hosking3_nonneg.
  - apply hosking4_nonneg.
  - apply zwc_nonneg.
  - apply dh_nonneg.
  - apply rjb_nonneg.
  - apply bm1_nonneg.
  - apply bm2_nonneg.
  - apply mi_nonneg.
  - apply cc1_nonneg.
  - apply cc2_nonneg.
  - apply coin_nonneg.
Qed.
(** the ratio of the standard deviation to the mean absolute deviation, D'Agostino's D, the spacings statistic *)
Lemma C84_ranges_holds : forall l v,
  (gmg l = Ok (Some (Fin v)) -> sqrt (2 / PI) <= v) /\
  (bs l = Ok (Some (Fin v)) -> - (3 * sqrt (len l + 2) / 3.54) <= v) /\
  (cs l = Ok (Some (Fin v)) -> v <= sqrt (len l)) /\
  (dagostino l = Ok (Some (Fin v)) ->
     - (0.28209479 * sqrt (len l) / 0.02998598) <= v <= sqrt (len l) * (sqrt ((1 - / len l ^ 2) / 12) - 0.28209479) / 0.02998598).
Proof.
  intros l v. split; [|split; [|split]]. apply gmg_lower. apply bs_lower. apply cs_upper.
  unfold dagostino. intros E. apply gt3_inv in E as [Hn E]. apply num_inv in E as [V ->]. apply varying_true in V.
  pose proof (dagostino_d_range l ltac:(lia) V) as [D1 D2]. pose proof (sqrt_pos (len l)) as P. set (q := sqrt ((1 - / len l ^ 2) / 12)) in *.
  pose proof (Rmult_le_compat_l _ _ _ P D1). pose proof (Rmult_le_compat_l _ _ _ P D2). lra.
Qed.
(** Pearson's inequality: the sample kurtosis exceeds one plus the squared sample skewness, so the transformation of
    Doornik and Hansen never takes the cube root of a negative number *)
Lemma C84_kurtosis_above_skewness_holds : forall l, (2 <= length l)%nat -> NoDup l -> 1 + skewness l ^ 2 <= kurt l.
Proof. intros l Hn Hd. apply kurt_skew. apply (ne_of_len l 0); lia. now apply nodup_ssq. Qed.
(** the median minimises the mean absolute deviation used by the robust statistics *)
Lemma C84_median_minimises_holds : forall l c, mean_abs_dev (median l) l <= mean_abs_dev c l.
Proof. exact mean_abs_dev_median. Qed.
Lemma C84_nonvacuous_holds : exists l, (10 <= length l)%nat /\ NoDup l /\
  exists v w, gmg l = Ok (Some (Fin v)) /\ dagostino l = Ok (Some (Fin w)).
Proof.
  set (l := map INR (seq 1 11)). exists l. assert (Hd : NoDup l). { apply FinFun.Injective_map_NoDup. intros i j. apply INR_eq. apply seq_NoDup. }
  assert (Hl : length l = 11%nat) by (unfold l; now rewrite map_length, seq_length). split; [lia|]. split; trivial.
  destruct (gmg_fin l Hd ltac:(lia)) as [v Ev]. exists v. unfold dagostino. destruct (varying_fin l (sqrt (len l) * (dagostino_d l - 0.28209479) / 0.02998598) Hd ltac:(lia)) as [w Ew]. exists w. auto.
Qed.
