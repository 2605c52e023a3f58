(** Properties C54, C60, C61, C64 and C83 for the normality statistics. *)
From Coq Require Import String.
From Verif Require Import Base DecModel EdfModel GraphModel RegistryModel NormalLaw ExpModel ExpSpec NormModel NormSpec EdfProofs ExpProofs ExpRangeProofs NormProofs NormSymProofs NormAffProofs NormReflProofs.
From Coq Require Import Lra Lia.
Local Open Scope string_scope.
Local Open Scope R_scope.

Ltac neach H :=
  repeat (destruct H as [H|H]; [injection H as <- <-; cbn [nvalue nsample_after nreads nsorts]|]); [..|destruct H].

(** *** C54 *)
Lemma C54_normality_holds : forall A name f rvs rvs', In (name, f) (normality_statistics A) ->
  Permutation rvs rvs' -> nvalue (f rvs) = nvalue (f rvs').
Proof.
  intros A name f rvs rvs' H P. unfold normality_statistics in H. neach H.
  - now apply ks_norm_perm.
  - now apply ad_norm_perm.
  - now apply sw_norm_perm.
  - now apply cvm_norm_perm.
  - now apply lillie_norm_perm.
  - now apply jb_norm_perm.
  - now apply skew_norm_perm.
  - now apply kurtosis_norm_perm.
  - now apply dap_norm_perm.
  - now apply filli_norm_perm.
  - now apply rj_norm_perm.
  - now apply rj_norm_perm.
  - now apply sf_norm_perm.
  - now apply ep_norm_perm.
  - now apply hosking2_perm.
  - now apply hosking1_perm.
  - now apply hosking3_perm.
  - now apply hosking4_perm.
  - now apply zwc_perm.
  - now apply zwa_perm.
  - now apply glb_perm.
  - now apply dh_perm.
  - now apply rjb_perm.
  - now apply bm1_perm.
  - now apply bm2_perm.
  - now apply bs_perm.
  - now apply mi_perm.
  - now apply cc1_perm.
  - now apply cc2_perm.
  - now apply cs_perm.
  - now apply zq_perm.
  - now apply coin_perm.
  - now apply dagostino_perm.
  - now apply zqs_perm.
  - now apply swrg_perm.
  - now apply gmg_perm.
  - now apply sh_perm.
  - now apply dldm_perm.
Qed.
(** the table lists every class of the module that is not a graph statistic, except one, under the names of the
    registry *)
Lemma C54_normality_complete_holds : forall A,
  incl (map sc_name normal_classes)
    (map fst (normality_statistics A) ++ ["BHSNormalityGofStatistic";
      "GraphEdgesNumberNormalityGofStatistic"; "GraphMaxDegreeNormalityGofStatistic";
      "GraphAverageDegreeNormalityGofStatistic"; "GraphConnectedComponentsNormalityGofStatistic";
      "GraphCliqueNumberNormalityGofStatistic"; "GraphIndependenceNumberNormalityGofStatistic"]).
Proof.
  intros A. assert (E : forall x l, existsb (String.eqb x) l = true -> In x l).
  { intros x l H. apply existsb_exists in H. destruct H as (y & Hy & E). apply String.eqb_eq in E. now subst. }
  intros x Hx. apply E. revert x Hx. rewrite <- forallb_forall. vm_compute. reflexivity.
Qed.

(** *** C60 *)
Lemma C60_normality_holds : forall A name f a b rvs, In (name, f) (normality_statistics A) -> ~ In name simple_normal ->
  0 < b -> nvalue (f (map (fun x => a + b * x) rvs)) = nvalue (f rvs).
Proof.
  intros A name f a b rvs H Hs Hb. fold (aff a b rvs). unfold normality_statistics in H.
  neach H; try (exfalso; apply Hs; simpl; tauto).
  - now apply ad_norm_aff.
  - now apply sw_norm_aff.
  - now apply lillie_norm_aff.
  - now apply jb_norm_aff.
  - now apply skew_norm_aff.
  - now apply kurtosis_norm_aff.
  - now apply dap_norm_aff.
  - now apply filli_norm_aff.
  - now apply rj_norm_aff.
  - now apply rj_norm_aff.
  - now apply sf_norm_aff.
  - now apply ep_norm_aff.
  - now apply hosking2_aff.
  - now apply hosking1_aff.
  - now apply hosking3_aff.
  - now apply hosking4_aff.
  - now apply zwc_aff.
  - now apply zwa_aff.
  - now apply glb_aff.
  - now apply dh_aff.
  - now apply rjb_aff.
  - now apply bm1_aff.
  - now apply bm2_aff.
  - now apply bs_aff.
  - now apply mi_aff.
  - now apply cc1_aff.
  - now apply cc2_aff.
  - now apply cs_aff.
  - now apply zq_aff.
  - now apply coin_aff.
  - now apply dagostino_aff.
  - now apply zqs_aff.
  - now apply swrg_aff.
  - now apply gmg_aff.
  - now apply sh_aff.
  - now apply dldm_aff.
Qed.

(** *** C83 *)
Lemma C83_normality_reflection_holds : forall A name f rvs, In (name, f) (normality_statistics A) ->
  ~ In name directed_normal -> 0 <= n_alpha A < 1 -> nvalue (f (map Ropp rvs)) = nvalue (f rvs).
Proof.
  intros A name f rvs H Hs Ha. fold (neg rvs). unfold normality_statistics in H.
  neach H; try (exfalso; apply Hs; simpl; tauto).
  - now apply ad_norm_neg.
  - now apply sw_norm_neg.
  - now apply cvm_norm_neg.
  - now apply lillie_norm_neg.
  - now apply jb_norm_neg.
  - now apply kurtosis_norm_neg.
  - now apply dap_norm_neg.
  - now apply filli_norm_neg.
  - apply rj_norm_neg. lra.
  - now apply rj_norm_neg.
  - now apply sf_norm_neg.
  - now apply ep_norm_neg.
  - now apply hosking2_neg.
  - now apply hosking1_neg.
  - now apply hosking3_neg.
  - now apply hosking4_neg.
  - now apply zwc_neg.
  - now apply zwa_neg.
  - now apply glb_neg.
  - now apply dh_neg.
  - now apply rjb_neg.
  - now apply bm1_neg.
  - now apply bm2_neg.
  - now apply bs_neg.
  - now apply mi_neg.
  - now apply cs_neg.
  - now apply coin_neg.
  - now apply dagostino_neg.
  - now apply swrg_neg.
  - now apply gmg_neg.
  - now apply sh_neg.
  - now apply dldm_neg.
Qed.
(** the one-sided Kolmogorov-Smirnov statistics and the two Zhang Q statistics change places *)
Lemma C83_kolmogorov_smirnov_reflection_holds : forall mean_ var_ alt rvs,
  ks_norm mean_ var_ alt (map Ropp rvs) = ks_norm mean_ var_ (opposite alt) rvs.
Proof. intros. apply ks_norm_neg. Qed.
Lemma C83_zhang_q_reflection_holds : forall rvs, zq (map Ropp rvs) = zqs rvs /\ zqs (map Ropp rvs) = zq rvs.
Proof. intros. split. apply zq_neg. apply zqs_neg. Qed.
(** the skewness statistic changes its sign, unless the skewness is zero *)
Lemma C83_skewness_reflection_holds : forall rvs v, (8 <= length rvs)%nat -> Rsum (map (fun x => (x - mean rvs) ^ 3) rvs) <> 0 ->
  skew_norm rvs = Ok (Some (Fin v)) -> skew_norm (map Ropp rvs) = Ok (Some (Fin (- v))).
Proof.
  intros rvs v H8 H3 E. fold (neg rvs). rewrite skew_norm_neg; trivial. now rewrite E.
  assert (Hn : rvs <> []) by (intros ->; simpl in H8; lia).
  unfold skew_norm, skew_test in E. rewrite rsort_length in E. destruct (Nat.ltb_spec (length rvs) 8); [lia|].
  rewrite (varying_perm (rsort rvs) rvs) in E by apply rsort_perm. destruct (varying rvs) eqn:V; [|discriminate]. apply varying_true in V.
  unfold skewness. assert (moment 3 rvs <> 0).
  { unfold moment, mean at 1. rewrite len_map. unfold Rdiv. apply Rmult_integral_contrapositive_currified; trivial. apply Rinv_neq_0_compat. apply Rgt_not_eq, len_pos; trivial. }
  assert (0 < sqrt (moment 2 rvs)). { apply sqrt_lt_R0. rewrite moment2_ssq. apply Rdiv_lt_0_compat; trivial. now apply len_pos. }
  unfold Rdiv. apply Rmult_integral_contrapositive_currified; trivial. apply Rinv_neq_0_compat, pow_nonzero. lra.
Qed.
(** a zero skewness is reported as the skewness of an asymmetric sample: the value is positive for every
    sample that equals its mirror image *)
Lemma sk_w2_gt1 n : 8 <= n -> 1 < sk_w2 n.
Proof.
  intros H. unfold sk_w2. assert (2 < sqrt (2 * (sk_beta2 n - 1))); [|lra].
  replace 2 with (sqrt (2 * 2)) at 1 by (apply sqrt_square; lra). apply sqrt_lt_1_alt. split; [lra|].
  assert (G : forall X D, 0 < D -> 3 * D < X -> 3 < X / D).
  { intros X D HD HX. apply Rmult_lt_reg_r with D; trivial. unfold Rdiv. rewrite Rmult_assoc, Rinv_l; lra. }
  assert (3 < sk_beta2 n); [|lra]. unfold sk_beta2. apply G. { repeat apply Rmult_lt_0_compat; lra. }
  replace n with (8 + (n - 8)) by ring. assert (0 <= n - 8) by lra. generalize dependent (n - 8). clear. intros m Hm.
  assert (0 <= m ^ 2) by (apply pow_le; trivial). assert (0 <= m ^ 3) by (apply pow_le; trivial). assert (0 <= m ^ 4) by (apply pow_le; trivial). lra.
Qed.
Lemma C83_skewness_refuted_holds : forall rvs, (8 <= length rvs)%nat -> (exists x y, In x rvs /\ In y rvs /\ x <> y) ->
  Permutation (map Ropp rvs) rvs -> exists v, 0 < v /\ skew_norm rvs = Ok (Some (Fin v)) /\ skew_norm (map Ropp rvs) = Ok (Some (Fin v)).
Proof.
  intros rvs H8 (x & y & Hx & Hy & Hxy) P. assert (Hn : rvs <> []) by (intros ->; easy).
  assert (S0 : skewness rvs = 0). { pose proof (skewness_perm _ _ P) as E. fold (neg rvs) in E. rewrite neg_skewness in E. lra. }
  assert (V : varying rvs = true).
  { apply varying_pos. destruct (ssq_nonneg rvs) as [|E]; trivial. exfalso. symmetry in E. unfold ssq in E.
    assert (Z : forall z, In z rvs -> z = mean rvs).
    { intros z Hz. apply (Rsum_zero _) with (x := (z - mean rvs) ^ 2) in E. nra.
      intros w Hw. apply in_map_iff in Hw as (q & <- & _). apply pow2_ge_0. apply in_map_iff. now exists z. }
    apply Hxy. now rewrite (Z x Hx), (Z y Hy). }
  assert (L : 8 <= len rvs). { unfold len. replace 8 with (INR 8) by (simpl; lra). now apply le_INR. }
  exists (sk_z (len rvs) 1). split; [|split].
  - unfold sk_z. pose proof (sk_w2_gt1 _ L). apply Rmult_lt_0_compat.
    + unfold sk_delta. apply Rdiv_lt_0_compat; [lra|]. apply sqrt_lt_R0. assert (0 < ln (sk_w2 (len rvs))) by (rewrite <- ln_1; apply ln_increasing; lra). lra.
    + rewrite <- ln_1. apply ln_increasing; [lra|]. assert (0 < 1 / sk_alpha (len rvs)).
      { apply Rdiv_lt_0_compat; [lra|]. unfold sk_alpha. apply sqrt_lt_R0. apply Rdiv_lt_0_compat; lra. }
      assert (1 <= sqrt ((1 / sk_alpha (len rvs)) ^ 2 + 1)); [|lra]. rewrite <- sqrt_1 at 1. apply sqrt_le_1_alt. pose proof (pow2_ge_0 (1 / sk_alpha (len rvs))). lra.
  - unfold skew_norm, skew_test. rewrite rsort_length, len_rsort, (varying_perm (rsort rvs) rvs), V, (skewness_perm (rsort rvs) rvs), S0 by apply rsort_perm.
    destruct (Nat.ltb_spec (length rvs) 8); [lia|]. unfold sk_y. rewrite Rmult_0_l. now destruct (Reqb_spec 0 0).
  - rewrite (skew_norm_perm _ _ P). unfold skew_norm, skew_test. rewrite rsort_length, len_rsort, (varying_perm (rsort rvs) rvs), V, (skewness_perm (rsort rvs) rvs), S0 by apply rsort_perm.
    destruct (Nat.ltb_spec (length rvs) 8); [lia|]. unfold sk_y. rewrite Rmult_0_l. now destruct (Reqb_spec 0 0).
Qed.
Lemma C83_nonvacuous_holds : let rvs := [-4; -3; -2; -1; 1; 2; 3; 4] in
  (8 <= length rvs)%nat /\ (exists x y, In x rvs /\ In y rvs /\ x <> y) /\ Permutation (map Ropp rvs) rvs.
Proof.
  cbv zeta. split; [simpl; lia|]. split. exists 1, 2. repeat split; [simpl; tauto | simpl; tauto | lra].
  transitivity (rev [-4; -3; -2; -1; 1; 2; 3; 4]). 2: symmetry; apply Permutation_rev.
  simpl. repeat apply perm_skip. replace (- -4) with 4 by lra. replace (- -3) with 3 by lra. replace (- -2) with 2 by lra. replace (- -1) with 1 by lra. apply Permutation_refl.
Qed.
(** with the reflection, the origin and the unit may be changed by any non-zero factor *)
Lemma C60_normality_any_factor_holds : forall A name f a b rvs, In (name, f) (normality_statistics A) -> ~ In name simple_normal ->
  ~ In name directed_normal -> 0 <= n_alpha A < 1 -> b <> 0 -> nvalue (f (map (fun x => a + b * x) rvs)) = nvalue (f rvs).
Proof.
  intros A name f a b rvs H H1 H2 Ha Hb. destruct (Rtotal_order b 0) as [h|[h|h]]; [|lra|now apply (C60_normality_holds A name)].
  transitivity (nvalue (f (map (fun x => a + - b * x) (map Ropp rvs)))).
  - rewrite map_map. f_equal. f_equal. apply map_ext. intros. ring.
  - rewrite (C60_normality_holds A name) by (trivial; lra). now apply (C83_normality_reflection_holds A name).
Qed.

(** *** C61 *)
Lemma C61_normal_ks_ignores_parameters_holds : forall m v m' v' alt rvs, ks_norm m v alt rvs = ks_norm m' v' alt rvs.
Proof. reflexivity. Qed.
(** a sample from N(m, v) tested against N(m, v) should give the value of the standardised sample against N(0, 1) *)
Lemma C61_normal_ks_refuted_holds : exists m v rvs, 0 < v /\
  ks_norm m v TWO_TAILED rvs <> ks_norm 0 1 TWO_TAILED (map (fun x => (x - m) / sqrt v) rvs).
Proof.
  exists 1, 1, [1]. split; [lra|]. rewrite sqrt_1. unfold ks_norm. cbn [map rsort rinsert]. replace ((1 - 1) / 1) with 0 by field.
  rewrite norm_cdf_0. unfold ks_do_execute, d_minus, d_plus, imap, len. cbn [imap_from length np_max bind Rmaxl lift].
  assert (B : 1 / 2 < norm_cdf 1) by (rewrite <- norm_cdf_0; apply norm_cdf_increasing; lra).
  intros E. injection E as E. simpl INR in E. revert E.
  destruct (Rltb_spec (norm_cdf 1 - 0 / 1) (1 / 1 - norm_cdf 1)), (Rltb_spec (1 / 2 - 0 / 1) (1 / 1 - 1 / 2)); lra.
Qed.

(** *** C64 *)
Lemma C64_normality_reads_only_holds : forall A name f rvs, In (name, f) (normality_statistics A) ->
  ~ In name sorting_normal -> nsample_after (f rvs) = rvs.
Proof.
  intros A name f rvs H Hs. unfold normality_statistics in H. neach H; trivial; exfalso; apply Hs; simpl; tauto.
Qed.
Lemma C64_normality_sorts_holds : forall A name f rvs, In (name, f) (normality_statistics A) ->
  In name sorting_normal -> (nsample_after (f rvs) = rvs <-> (length rvs <= 3)%nat \/ sortedR rvs).
Proof.
  intros A name f rvs H Hs. assert (G : nsample_after (f rvs) = (if (3 <? length rvs)%nat then rsort rvs else rvs)).
  { unfold normality_statistics in H. neach H; trivial; exfalso; simpl in Hs; repeat destruct Hs as [Hs|Hs]; discriminate || easy. }
  rewrite G. clear G H Hs. destruct (Nat.ltb_spec 3 (length rvs)).
  - split. intros <-. right. apply rsort_sorted. intros [h|h]. lia. now apply rsort_id.
  - split; trivial. intros _. left. lia.
Qed.
Lemma C64_normality_refuted_holds : forall A, exists name f rvs, In (name, f) (normality_statistics A) /\ nsample_after (f rvs) <> rvs.
Proof.
  intros A. exists "Hosking3NormalityGofStatistic", (nsorts hosking3), [2; 1; 3; 4]. split.
  - unfold normality_statistics. do 16 right. now left.
  - intros E. cbn [nsample_after nsorts length Nat.ltb Nat.leb] in E. pose proof (rsort_sorted [2; 1; 3; 4]) as S. rewrite E in S.
    apply sorted_cons_inv in S as [_ S]. specialize (S 1). lapply S; [lra | simpl; tauto].
Qed.
