(** Normality statistics: permutations and affine changes of the unit. *)
From Verif Require Import Base DecModel EdfModel GraphModel NormalLaw ExpModel NormModel EdfProofs ExpProofs ExpRangeProofs.
From Coq Require Import Lra Lia.

Definition aff (a b : R) (l : list R) : list R := map (fun x => a + b * x) l.
Lemma aff_length a b l : length (aff a b l) = length l. Proof. apply map_length. Qed.
Lemma aff_len a b l : len (aff a b l) = len l. Proof. unfold len. now rewrite aff_length. Qed.
Lemma aff_sum a b l : Rsum (aff a b l) = len l * a + b * Rsum l.
Proof.
  unfold aff. rewrite (Rsum_map_plus (fun _ => a) (fun x => b * x)), Rsum_map_const.
  f_equal. rewrite Rsum_map_scal. now rewrite map_id.
Qed.
Lemma aff_mean a b l : l <> [] -> mean (aff a b l) = a + b * mean l.
Proof.
  intros H. unfold mean. rewrite aff_sum, aff_len. pose proof (len_pos l H). field. lra.
Qed.
Lemma aff_map {A} (f : R -> A) a b l : map f (aff a b l) = map (fun x => f (a + b * x)) l.
Proof. unfold aff. now rewrite map_map. Qed.
Lemma aff_rsort a b l : 0 < b -> rsort (aff a b l) = aff a b (rsort l).
Proof. intros H. unfold aff. apply rsort_map_mono. intros x y h. nra. Qed.
Lemma aff_nil a b l : aff a b l = [] <-> l = [].
Proof. unfold aff. split; intros H. now destruct l. now subst. Qed.
Lemma mean_nil : mean [] = 0. Proof. unfold mean, Rsum. simpl. unfold Rdiv. ring. Qed.
Lemma aff_dev {A} (f : R -> A) a b l : map (fun x => f (x - mean (aff a b l))) (aff a b l) = map (fun x => f (b * (x - mean l))) l.
Proof.
  destruct l as [|y l]; [reflexivity|]. rewrite aff_mean by discriminate.
  rewrite aff_map. apply map_ext. intros x. f_equal. ring.
Qed.
Lemma ssq_aff a b l : ssq (aff a b l) = b ^ 2 * ssq l.
Proof.
  unfold ssq. rewrite (aff_dev (fun d => d ^ 2)). rewrite <- Rsum_map_scal. f_equal. apply map_ext. intros x. ring.
Qed.
Lemma ssq_nonneg l : 0 <= ssq l.
Proof. apply Rsum_nonneg. intros x H. apply in_map_iff in H as (y & <- & _). apply pow2_ge_0. Qed.
Lemma varying_aff a b l : b <> 0 -> varying (aff a b l) = varying l.
Proof. intros H. unfold varying. rewrite ssq_aff, Reqb_scale; trivial. now apply pow_nonzero. Qed.
Lemma sqrt_sq_scale b x : 0 <= b -> sqrt (b ^ 2 * x) = b * sqrt x.
Proof. intros H. rewrite sqrt_mult_alt by apply pow2_ge_0. now rewrite sqrt_pow2. Qed.
Lemma sd1_aff a b l : 0 < b -> sd1 (aff a b l) = b * sd1 l.
Proof.
  intros H. unfold sd1. rewrite ssq_aff, aff_len. rewrite <- sqrt_sq_scale by lra. f_equal. unfold Rdiv. ring.
Qed.
Lemma zscores_aff a b s l : 0 < b -> zscores (b * s) (aff a b l) = zscores s l.
Proof.
  intros H. unfold zscores. rewrite (aff_dev (fun d => d / (b * s))). apply map_ext. intros x. apply div_scale. lra.
Qed.
Lemma moment_aff a b k l : moment k (aff a b l) = b ^ k * moment k l.
Proof.
  unfold moment. rewrite (aff_dev (fun d => d ^ k)). generalize (mean l); intros m. unfold mean. rewrite !len_map.
  rewrite (map_ext _ (fun x => b ^ k * (x - m) ^ k)) by (intros; now rewrite Rpow_mult_distr).
  rewrite Rsum_map_scal. unfold Rdiv. ring.
Qed.
Lemma np_var_ssq l : np_var l = ssq l / len l.
Proof. unfold np_var, mean at 1, ssq. now rewrite len_map. Qed.
Lemma moment2_ssq l : moment 2 l = ssq l / len l.
Proof. apply np_var_ssq. Qed.
Lemma np_var_aff a b l : np_var (aff a b l) = b ^ 2 * np_var l.
Proof. rewrite !np_var_ssq, ssq_aff, aff_len. unfold Rdiv. ring. Qed.
Lemma skewness_aff a b l : 0 < b -> skewness (aff a b l) = skewness l.
Proof.
  intros H. unfold skewness. rewrite !moment_aff, sqrt_sq_scale by lra. rewrite Rpow_mult_distr.
  apply div_scale. apply pow_nonzero. lra.
Qed.
Lemma kurt_aff a b l : 0 < b -> kurt (aff a b l) = kurt l.
Proof.
  intros H. unfold kurt. rewrite !moment_aff. replace ((b ^ 2 * moment 2 l) ^ 2) with (b ^ 4 * moment 2 l ^ 2) by ring.
  apply div_scale. apply pow_nonzero. lra.
Qed.
Lemma nth_aff a b l i : (i < length l)%nat -> nth i (aff a b l) 0 = a + b * nth i l 0.
Proof.
  intros H. unfold aff. rewrite (nth_indep _ 0 (a + b * 0)) by (now rewrite map_length).
  now rewrite (map_nth (fun x => a + b * x)).
Qed.
Lemma half_lt (n : nat) : (0 < n -> n / 2 < n)%nat. Proof. intros. apply Nat.div_lt; lia. Qed.
Lemma median_aff a b l : 0 < b -> l <> [] -> median (aff a b l) = a + b * median l.
Proof.
  intros H Hl. unfold median. rewrite aff_length, aff_rsort by trivial.
  assert (0 < length l)%nat by (destruct l; simpl; [easy | lia]).
  pose proof (half_lt (length l) H0).
  destruct (Nat.even (length l)); rewrite !nth_aff by (rewrite rsort_length; lia); field.
Qed.
Lemma diff_aff a b l : diff (aff a b l) = map (Rmult b) (diff l).
Proof.
  induction l as [|x l IH]; [reflexivity|]. destruct l as [|y l]; [reflexivity|].
  change (diff (aff a b (x :: y :: l))) with ((a + b * y) - (a + b * x) :: diff (aff a b (y :: l))).
  rewrite IH. change (diff (x :: y :: l)) with (y - x :: diff (y :: l)). simpl. f_equal. ring.
Qed.
Lemma Rmaxl_aff a b l : 0 < b -> l <> [] -> Rmaxl 0 (aff a b l) = a + b * Rmaxl 0 l.
Proof.
  intros H Hl. apply Rmaxl_unique.
  - apply in_map_iff. exists (Rmaxl 0 l). split; trivial. now apply Rmaxl_in.
  - intros y Hy. apply in_map_iff in Hy as (x & <- & Hx). pose proof (Rmaxl_ge 0 l x Hx). nra.
Qed.
Lemma Rminl_aff a b l : 0 < b -> l <> [] -> Rminl 0 (aff a b l) = a + b * Rminl 0 l.
Proof.
  intros H Hl. apply Rminl_unique.
  - apply in_map_iff. exists (Rminl 0 l). split; trivial. now apply Rminl_in.
  - intros y Hy. apply in_map_iff in Hy as (x & <- & Hx). pose proof (Rminl_le 0 l x Hx). nra.
Qed.
Lemma mean_abs_dev_aff a b c l : 0 < b -> mean_abs_dev (a + b * c) (aff a b l) = b * mean_abs_dev c l.
Proof.
  intros H. unfold mean_abs_dev. rewrite aff_map. unfold mean. rewrite !len_map.
  rewrite (map_ext _ (fun x => b * Rabs (x - c))).
  2: { intros x. replace (a + b * x - (a + b * c)) with (b * (x - c)) by ring. rewrite Rabs_mult, (Rabs_right b); lra. }
  rewrite Rsum_map_scal. unfold Rdiv. ring.
Qed.
(** linear forms with coefficients of sum zero do not see the shift *)
Lemma dot_aff w a b l : length w = length l -> dot w (aff a b l) = a * Rsum w + b * dot w l.
Proof.
  unfold dot, aff. revert w. induction l as [|x l IH]; intros [|c w] H; try discriminate; cbn [combine map fst snd].
  - cbn [Rsum]. ring.
  - cbn [Rsum]. unfold dot in IH. injection H as H. rewrite IH by trivial. ring.
Qed.

(** ** order of the sample *)
Lemma ssq_perm l l' : Permutation l l' -> ssq l = ssq l'.
Proof. intros H. unfold ssq. rewrite (mean_perm' _ _ H). now apply Rsum_map_perm. Qed.
Lemma moment_perm k l l' : Permutation l l' -> moment k l = moment k l'.
Proof. intros H. unfold moment. rewrite (mean_perm' _ _ H). apply mean_perm'. now apply Permutation_map. Qed.
Lemma zscores_perm s l l' : Permutation l l' -> Permutation (zscores s l) (zscores s l').
Proof. intros H. unfold zscores. rewrite (mean_perm' _ _ H). now apply Permutation_map. Qed.
Lemma median_perm l l' : Permutation l l' -> median l = median l'.
Proof. intros H. unfold median. now rewrite (Permutation_length H), (rsort_perm_eq _ _ H). Qed.
Lemma mean_abs_dev_perm c l l' : Permutation l l' -> mean_abs_dev c l = mean_abs_dev c l'.
Proof. intros H. unfold mean_abs_dev. apply mean_perm'. now apply Permutation_map. Qed.
Lemma match_perm {A} (l l' : list R) (x y x' y' : A) : Permutation l l' -> x = x' -> y = y' ->
  match l with [] => x | _ :: _ => y end = match l' with [] => x' | _ :: _ => y' end.
Proof.
  intros H -> ->. pose proof (Permutation_length H). destruct l, l'; try discriminate; reflexivity.
Qed.
Section Perm.
Variables l l' : list R.
Hypothesis P : Permutation l l'.
Let Plen := Permutation_length P.
Let Pl := Permutation_len l l' P.
Let Pm := mean_perm' l l' P.
Let Ps := ssq_perm l l' P.
Let Pr := rsort_perm_eq l l' P.
Lemma varying_perm : varying l = varying l'. Proof. unfold varying. now rewrite Ps. Qed.
Lemma sd1_perm : sd1 l = sd1 l'. Proof. unfold sd1. now rewrite Ps, Pl. Qed.
Lemma np_var_perm : np_var l = np_var l'. Proof. now apply np_var_perm'. Qed.
Lemma gt3_perm o o' : o = o' -> gt3 l o = gt3 l' o'.
Proof. intros ->. unfold gt3. now rewrite Plen. Qed.
Lemma skewness_perm : skewness l = skewness l'.
Proof. unfold skewness. now rewrite !(moment_perm _ _ _ P). Qed.
Lemma kurt_perm : kurt l = kurt l'.
Proof. unfold kurt. now rewrite !(moment_perm _ _ _ P). Qed.
Lemma phiz_perm : phiz l = phiz l'.
Proof. unfold phiz. rewrite sd1_perm. apply rsort_perm_eq, Permutation_map. now apply zscores_perm. Qed.
Lemma sd_moments_perm : sd_moments l = sd_moments l'.
Proof. unfold sd_moments. now rewrite Pl, Pm, (Rsum_map_perm _ _ _ P). Qed.
Lemma ks_norm_perm m v alt : ks_norm m v alt l = ks_norm m v alt l'.
Proof. unfold ks_norm. now rewrite Pr. Qed.
Lemma ad_norm_perm : ad_norm l = ad_norm l'.
Proof. unfold ad_norm. apply match_perm; trivial. now rewrite varying_perm, sd1_perm, Pr. Qed.
Lemma sw_norm_perm : sw_norm l = sw_norm l'.
Proof. unfold sw_norm. now rewrite varying_perm, Plen, Pr, Ps. Qed.
Lemma cvm_norm_perm : cvm_norm l = cvm_norm l'.
Proof. unfold cvm_norm. now rewrite Pr. Qed.
Lemma lillie_norm_perm : lillie_norm l = lillie_norm l'.
Proof.
  unfold lillie_norm. apply match_perm; trivial. rewrite varying_perm, sd1_perm.
  now rewrite (rsort_perm_eq _ _ (zscores_perm (sd1 l') _ _ P)).
Qed.
Lemma jb_norm_perm : jb_norm l = jb_norm l'.
Proof.
  unfold jb_norm. apply match_perm; trivial. rewrite varying_perm, Pl, Pm.
  assert (Q : Permutation (map (fun x => x - mean l') l) (map (fun x => x - mean l') l')) by now apply Permutation_map.
  cbv zeta. unfold skewness, kurt. now rewrite !(moment_perm _ _ _ Q).
Qed.
Lemma skew_norm_perm : skew_norm l = skew_norm l'.
Proof. unfold skew_norm. now rewrite Pr. Qed.
Lemma kurtosis_norm_perm : kurtosis_norm l = kurtosis_norm l'.
Proof. unfold kurtosis_norm. now rewrite Pr. Qed.
Lemma dap_norm_perm : dap_norm l = dap_norm l'.
Proof. unfold dap_norm. now rewrite Pr. Qed.
Lemma filli_norm_perm : filli_norm l = filli_norm l'.
Proof. unfold filli_norm. apply match_perm; trivial. now rewrite Pr, Plen. Qed.
Lemma rj_norm_perm w a : rj_norm w a l = rj_norm w a l'.
Proof. unfold rj_norm. now rewrite Pr, Plen. Qed.
Lemma sf_norm_perm : sf_norm l = sf_norm l'.
Proof. unfold sf_norm. now rewrite varying_perm, Pr, Plen, Ps. Qed.
Lemma ep_norm_perm : ep_norm l = ep_norm l'.
Proof. unfold ep_norm. apply match_perm; trivial. now rewrite varying_perm, np_var_perm, Pr, Pl, Pm. Qed.
Lemma hosking_trimmed_perm t : hosking_trimmed t l = hosking_trimmed t l'.
Proof. unfold hosking_trimmed. now rewrite Plen, Pr. Qed.
Lemma hosking2_perm : hosking2 l = hosking2 l'.
Proof. unfold hosking2. now rewrite Plen, hosking_trimmed_perm. Qed.
Lemma hosking3_perm : hosking3 l = hosking3 l'.
Proof. apply gt3_perm, hosking_trimmed_perm. Qed.
Lemma hosking4_perm : hosking4 l = hosking4 l'.
Proof. apply gt3_perm, hosking_trimmed_perm. Qed.
Lemma hosking1_perm : hosking1 l = hosking1 l'.
Proof. apply gt3_perm. now rewrite Plen, Pr. Qed.
Lemma zwc_perm : zwc l = zwc l'.
Proof. apply gt3_perm. now rewrite varying_perm, phiz_perm, Pl. Qed.
Lemma zwa_perm : zwa l = zwa l'.
Proof. apply gt3_perm. now rewrite varying_perm, phiz_perm, Pl. Qed.
Lemma glb_perm : glb l = glb l'.
Proof. apply gt3_perm. now rewrite varying_perm, phiz_perm, Plen. Qed.
Lemma dh_perm : dh l = dh l'.
Proof. unfold dh. now rewrite varying_perm, skewness_perm, kurt_perm, Plen. Qed.
Lemma rjb_perm : rjb l = rjb l'.
Proof.
  unfold rjb. now rewrite (nonempty_perm _ _ P), (median_perm _ _ P), (mean_abs_dev_perm _ _ _ P), !(moment_perm _ _ _ P), Pl.
Qed.
Lemma bm1_perm : bm1 l = bm1 l'.
Proof.
  apply gt3_perm. rewrite varying_perm, sd_moments_perm, Pl.
  now rewrite !(Rsum_map_perm _ _ _ (zscores_perm (sd_moments l') _ _ P)).
Qed.
Lemma bm2_perm : bm2 l = bm2 l'.
Proof.
  apply gt3_perm. rewrite varying_perm, sd1_perm, Pl.
  now rewrite !(Rsum_map_perm _ _ _ (zscores_perm (sd1 l') _ _ P)).
Qed.
Lemma bs_perm : bs l = bs l'.
Proof. apply gt3_perm. now rewrite varying_perm, np_var_perm, (mean_abs_dev_perm _ _ _ P), Pm, Pl. Qed.
Lemma mi_perm : mi l = mi l'.
Proof.
  unfold mi. cbv zeta. apply gt3_perm. rewrite (median_perm _ _ P), Pl.
  assert (Q : Permutation (map (fun x => x - median l') l) (map (fun x => x - median l') l')) by now apply Permutation_map.
  rewrite (median_perm _ _ (Permutation_map Rabs Q)). now rewrite !(Rsum_map_perm _ _ _ Q).
Qed.
Lemma cc1_perm : cc1 l = cc1 l'.
Proof.
  unfold cc1. cbv zeta. apply gt3_perm. rewrite varying_perm, sd1_perm, Pl.
  pose proof (zscores_perm (sd1 l') _ _ P) as Q.
  rewrite !(Rsum_map_perm _ _ _ Q). f_equal. apply Rmaxl_perm. now apply Permutation_map.
Qed.
Lemma cc2_perm : cc2 l = cc2 l'.
Proof.
  unfold cc2. cbv zeta. apply gt3_perm. rewrite varying_perm, np_var_perm, Pl.
  pose proof (zscores_perm (sqrt (len l' * np_var l' / (len l' - 1))) _ _ P) as Q.
  rewrite !(Rsum_map_perm _ _ _ Q). f_equal. apply Rmaxl_perm. now apply Permutation_map.
Qed.
Lemma cs_perm : cs l = cs l'.
Proof. apply gt3_perm. now rewrite varying_perm, Pr, sd1_perm, Pl, Plen. Qed.
Lemma zq_perm : zq l = zq l'.
Proof. apply gt3_perm. now rewrite Pr, Plen. Qed.
Lemma zqs_perm : zqs l = zqs l'.
Proof. apply gt3_perm. now rewrite Pr, Plen. Qed.
Lemma coin_perm : coin l = coin l'.
Proof.
  apply gt3_perm. rewrite varying_perm, sd_moments_perm, Plen.
  now rewrite (rsort_perm_eq _ _ (zscores_perm (sd_moments l') _ _ P)).
Qed.
Lemma dagostino_perm : dagostino l = dagostino l'.
Proof. apply gt3_perm. unfold dagostino_d. now rewrite varying_perm, Pr, Pl. Qed.
Lemma swrg_perm : swrg l = swrg l'.
Proof. apply gt3_perm. now rewrite varying_perm, Pr, Plen, Ps. Qed.
Lemma gmg_perm : gmg l = gmg l'.
Proof. apply gt3_perm. now rewrite (median_perm _ _ P), (mean_abs_dev_perm _ _ _ P), np_var_perm. Qed.
Lemma sh_perm : sh l = sh l'.
Proof.
  apply gt3_perm. rewrite varying_perm, sd1_perm, Plen, Pm, (Rmaxl_perm _ _ _ P), (Rminl_perm _ _ _ P).
  now rewrite (Rsum_map_perm _ _ _ P).
Qed.
Lemma dldm_perm : dldm l = dldm l'.
Proof.
  unfold dldm. cbv zeta. apply gt3_perm. rewrite varying_perm, Pl, Pm, (Rsum_map_perm _ _ _ P).
  pose proof (zscores_perm (sqrt (Rsum (map (fun x => x ^ 2) l') / len l' - mean l' ^ 2)) _ _ P) as Q.
  now rewrite (forallb_perm _ _ _ Q), !(Rsum_map_perm _ _ _ Q).
Qed.
End Perm.
