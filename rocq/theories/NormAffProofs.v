(** Normality statistics do not depend on the unit and the origin of the scale. *)
From Verif Require Import Base DecModel EdfModel GraphModel NormalLaw ExpModel NormModel EdfProofs ExpProofs ExpRangeProofs NormProofs NormSymProofs.
From Coq Require Import Lra Lia.

Lemma num_ext b1 b2 v1 v2 : b1 = b2 -> (b1 = true -> v1 = v2) -> num b1 v1 = num b2 v2.
Proof. intros <- H. unfold num. destruct b1; trivial. now rewrite H. Qed.
Lemma gt3_ext l l' o o' : length l = length l' -> ((3 < length l)%nat -> o = o') -> gt3 l o = gt3 l' o'.
Proof. intros E H. unfold gt3. rewrite <- E. destruct (Nat.ltb_spec 3 (length l)); trivial. now apply H. Qed.
Lemma gt3_ne (l : list R) : (3 < length l)%nat -> l <> [].
Proof. intros H ->. simpl in H. lia. Qed.
Lemma match_aff {A} a b (l : list R) (x y : A) : match aff a b l with [] => x | _ :: _ => y end = match l with [] => x | _ :: _ => y end.
Proof. now destruct l. Qed.
Lemma varying_true l : varying l = true -> 0 < ssq l.
Proof.
  unfold varying. intros H. pose proof (ssq_nonneg l). destruct (Reqb_spec (ssq l) 0); [discriminate | lra].
Qed.
Lemma varying_pos l : 0 < ssq l -> varying l = true.
Proof. intros H. unfold varying. now rewrite Reqb_pos. Qed.
(** the variance by the moments formula *)
Lemma sumsq_ssq l : l <> [] -> Rsum (map (fun x => x ^ 2) l) / len l - mean l ^ 2 = ssq l / len l.
Proof.
  intros H. pose proof (len_pos l H) as L. unfold ssq.
  rewrite (Rsum_map_ext (fun x => (x - mean l) ^ 2) (fun x => x ^ 2 - 2 * mean l * x + mean l ^ 2)) by (intros; ring).
  rewrite (Rsum_map_plus (fun x => x ^ 2 - 2 * mean l * x) (fun _ => mean l ^ 2)), (Rsum_map_minus (fun x => x ^ 2) (fun x => 2 * mean l * x)), Rsum_map_const, (Rsum_map_scal (2 * mean l) (fun x => x)), map_id.
  fold (len l). unfold mean. field. lra.
Qed.
Lemma sd_moments_sd1 l : l <> [] -> sd_moments l = sd1 l.
Proof.
  intros H. pose proof (len_pos l H). unfold sd_moments, sd1. rewrite sumsq_ssq by trivial. f_equal. f_equal. field. lra.
Qed.

Section Affine.
Variables a b : R.
Hypothesis Hb : 0 < b.
Let Hb0 : b <> 0 := Rgt_not_eq b 0 Hb.
Notation af := (aff a b).
Lemma cb : 0 < b -> b <> 0. Proof. lra. Qed.
Lemma sd_moments_aff l : l <> [] -> sd_moments (af l) = b * sd_moments l.
Proof. intros H. rewrite !sd_moments_sd1, sd1_aff; trivial. now rewrite aff_nil. Qed.
Lemma phiz_aff l : phiz (af l) = phiz l.
Proof. unfold phiz. now rewrite sd1_aff, zscores_aff. Qed.
Lemma ad_norm_aff l : ad_norm (af l) = ad_norm l.
Proof.
  unfold ad_norm. rewrite match_aff, (varying_aff a b l Hb0), sd1_aff, aff_rsort, zscores_aff by trivial. reflexivity.
Qed.
Lemma sw_norm_aff l : sw_norm (af l) = sw_norm l.
Proof.
  unfold sw_norm. rewrite aff_length, (varying_aff a b l Hb0), ssq_aff, aff_rsort by trivial.
  destruct (le_lt_dec 3 (length l)) as [h | h].
  - destruct (sw_coefficients_cases (length l) h) as [E | (w & E & Hw & As)]; rewrite E; [reflexivity|]. cbn [bind].
    apply num_ext; trivial. intros V. apply varying_true in V.
    rewrite dot_aff by (now rewrite rsort_length). rewrite (antisym_sum w As).
    replace ((a * 0 + b * dot w (rsort l)) ^ 2) with (b ^ 2 * dot w (rsort l) ^ 2) by ring. apply div_scale. now apply pow_nonzero.
  - destruct (length l) as [|[|[|]]]; try lia; reflexivity.
Qed.
Lemma lillie_norm_aff l : lillie_norm (af l) = lillie_norm l.
Proof. unfold lillie_norm. now rewrite match_aff, (varying_aff a b l Hb0), sd1_aff, zscores_aff. Qed.
Lemma centred_aff l : map (fun x => x - mean (af l)) (af l) = aff 0 b (map (fun x => x - mean l) l).
Proof. rewrite (aff_dev (fun d => d)). rewrite aff_map || idtac. unfold aff. rewrite map_map. apply map_ext. intros. ring. Qed.
Lemma jb_norm_aff l : jb_norm (af l) = jb_norm l.
Proof.
  unfold jb_norm. cbv zeta. rewrite match_aff, centred_aff, (varying_aff a b l Hb0), aff_len, skewness_aff, kurt_aff by trivial.
  reflexivity.
Qed.
Lemma skew_test_aff l : skew_test (af l) = skew_test l.
Proof. unfold skew_test. now rewrite aff_length, aff_len, (varying_aff a b l Hb0), skewness_aff. Qed.
Lemma kurtosis_test_aff l : kurtosis_test (af l) = kurtosis_test l.
Proof. unfold kurtosis_test. now rewrite aff_length, aff_len, (varying_aff a b l Hb0), kurt_aff. Qed.
Lemma skew_norm_aff l : skew_norm (af l) = skew_norm l.
Proof. unfold skew_norm. now rewrite aff_rsort, skew_test_aff. Qed.
Lemma kurtosis_norm_aff l : kurtosis_norm (af l) = kurtosis_norm l.
Proof. unfold kurtosis_norm. now rewrite aff_rsort, kurtosis_test_aff. Qed.
Lemma dap_norm_aff l : dap_norm (af l) = dap_norm l.
Proof. unfold dap_norm. now rewrite aff_rsort, skew_test_aff, kurtosis_test_aff by trivial. Qed.
Lemma pearson_sum_aff x y m : length x = length y ->
  Rsum (map (fun p => (fst p - mean (af x)) * (snd p - m)) (combine (af x) y)) = b * Rsum (map (fun p => (fst p - mean x) * (snd p - m)) (combine x y)).
Proof.
  intros L. destruct x as [|x0 x1] eqn:E; [simpl; ring|]. rewrite <- E in *. rewrite aff_mean by (subst; discriminate).
  generalize (mean x); intros mx. clear E x0 x1. revert y L. induction x as [|x0 x IH]; intros [|y0 y] L; try discriminate.
  - simpl; ring.
  - cbn [aff map combine Rsum fst snd]. injection L as L. fold (aff a b x). rewrite IH by trivial. ring.
Qed.
Lemma pearsonr_aff_l x y : length x = length y -> pearsonr (af x) y = pearsonr x y.
Proof.
  intros L. unfold pearsonr. rewrite aff_length, (varying_aff a b x Hb0), pearson_sum_aff, ssq_aff, sqrt_sq_scale by (trivial; lra).
  destruct (length x <? 2)%nat; trivial. apply num_ext; trivial. intros _. rewrite Rmult_assoc. apply div_scale. lra.
Qed.
Lemma pearsonr_comm x y : length x = length y -> pearsonr x y = pearsonr y x.
Proof.
  intros L. unfold pearsonr. rewrite <- L. destruct (length x <? 2)%nat; trivial. apply num_ext. apply andb_comm.
  intros _. f_equal; [|ring]. revert y L. generalize (mean x) as mx.
  intros mx y. generalize (mean y) as my. intros my. revert y.
  induction x as [|x0 x IH]; intros [|y0 y] L; try discriminate; trivial. cbn [map combine Rsum fst snd]. injection L as L. rewrite (IH y L). ring.
Qed.
Lemma pearsonr_aff_r x y : length x = length y -> pearsonr x (af y) = pearsonr x y.
Proof.
  intros L. rewrite pearsonr_comm by (now rewrite aff_length). rewrite pearsonr_aff_l by easy. now apply pearsonr_comm.
Qed.
Lemma filli_norm_aff l : filli_norm (af l) = filli_norm l.
Proof.
  unfold filli_norm. rewrite match_aff, aff_length, aff_rsort, pearsonr_aff_l; trivial.
  rewrite rsort_length, map_length. unfold filli_medians. now rewrite map_length, seq_length.
Qed.
Lemma filter_combine_aff v x (u : list R) : map snd (filter (fun p => Reqb (fst p) (a + b * v)) (combine (af x) u))
  = map snd (filter (fun p => Reqb (fst p) v) (combine x u)).
Proof.
  revert u. induction x as [|x0 x IH]; intros [|u0 u]; trivial. cbn [aff map combine filter fst]. fold (aff a b x).
  replace (Reqb (a + b * x0) (a + b * v)) with (Reqb x0 v).
  - destruct (Reqb x0 v); cbn [map]; now rewrite IH.
  - destruct (Reqb_spec x0 v), (Reqb_spec (a + b * x0) (a + b * v)); trivial; exfalso; [subst; lra | nra].
Qed.
Lemma tie_averaged_aff x u : tie_averaged (af x) u = tie_averaged x u.
Proof. unfold tie_averaged. rewrite aff_map. apply map_ext. intros v. now rewrite filter_combine_aff. Qed.
Lemma tie_averaged_length x u : length (tie_averaged x u) = length x.
Proof. apply map_length. Qed.
Lemma rj_norm_aff w al l : rj_norm w al (af l) = rj_norm w al l.
Proof.
  unfold rj_norm. cbv zeta. rewrite aff_length, aff_rsort, tie_averaged_aff by trivial. apply pearsonr_aff_r.
  rewrite map_length, rsort_length. destruct w. now rewrite tie_averaged_length, rsort_length. apply plotting_length.
Qed.
Lemma sf_norm_aff l : sf_norm (af l) = sf_norm l.
Proof.
  unfold sf_norm. cbv zeta. rewrite aff_length, (varying_aff a b l Hb0), ssq_aff, aff_rsort by trivial.
  apply num_ext; trivial. intros _. rewrite dot_aff by (now rewrite map_length, scores_length, rsort_length).
  rewrite antisym_sum by (apply antisym_opp, scores_antisym; lra).
  match goal with |- (_ + b * ?d) ^ 2 / _ = _ => replace ((a * 0 + b * d) ^ 2) with (b ^ 2 * d ^ 2) by ring end.
  rewrite Rmult_assoc. apply div_scale. now apply pow_nonzero.
Qed.
Lemma ep_norm_aff l : ep_norm (af l) = ep_norm l.
Proof.
  unfold ep_norm. cbv zeta. rewrite match_aff, (varying_aff a b l Hb0), aff_len, np_var_aff, aff_rsort by trivial.
  destruct l as [|x0 l0] eqn:E; [reflexivity|]. rewrite <- E in *. assert (Hl : l <> []) by (subst; discriminate).
  apply num_ext; trivial. intros _. rewrite aff_mean by trivial. unfold aff. rewrite sum_pairs_map, map_map. f_equal; [f_equal; f_equal|].
  - apply sum_pairs_ext. intros x y. f_equal. f_equal.
    replace ((a + b * x - (a + b * y)) ^ 2) with (b ^ 2 * (x - y) ^ 2) by ring.
    replace (2 * (b ^ 2 * np_var l)) with (b ^ 2 * (2 * np_var l)) by ring. apply div_scale. now apply pow_nonzero.
  - f_equal. apply Rsum_map_ext. intros x _. f_equal. f_equal.
    replace ((a + b * x - (a + b * mean l)) ^ 2) with (b ^ 2 * (x - mean l) ^ 2) by ring.
    replace (4 * (b ^ 2 * np_var l)) with (b ^ 2 * (4 * np_var l)) by ring. apply div_scale. now apply pow_nonzero.
Qed.
Lemma hosking_value_scale mu v3 v4 l2 l3 l4 : hosking_value mu v3 v4 (b * l2) (b * l3) (b * l4) = hosking_value mu v3 v4 l2 l3 l4.
Proof. unfold hosking_value. now rewrite !div_scale by lra. Qed.
Lemma hosking_trimmed_aff t l : (1 <= t)%nat -> hosking_trimmed t (af l) = hosking_trimmed t l.
Proof.
  intros Ht. unfold hosking_trimmed. cbv zeta. rewrite aff_length, aff_rsort by trivial.
  destruct (hosking_constants t (length l)) as [[mu v3] v4].
  rewrite !tl_moment_aff by lia. rewrite Reqb_scale by trivial. now rewrite hosking_value_scale.
Qed.
Lemma hosking2_aff l : hosking2 (af l) = hosking2 l.
Proof. unfold hosking2. now rewrite aff_length, hosking_trimmed_aff by lia. Qed.
Lemma hosking3_aff l : hosking3 (af l) = hosking3 l.
Proof. unfold hosking3, gt3. now rewrite aff_length, hosking_trimmed_aff by lia. Qed.
Lemma hosking4_aff l : hosking4 (af l) = hosking4 l.
Proof. unfold hosking4, gt3. now rewrite aff_length, hosking_trimmed_aff by lia. Qed.
Lemma imap_aff_sum f l : Rsum (imap (fun i v => f i * v) (af l)) = a * Rsum (map f (seq 0 (length l))) + b * Rsum (imap (fun i v => f i * v) l).
Proof.
  unfold aff. rewrite imap_map. rewrite (imap_ext _ (fun i x => a * f i + b * (f i * x))) by (intros; ring).
  now rewrite Rsum_imap_plus, !Rsum_imap_scal, (Rsum_imap_idx f).
Qed.
Lemma sum_i n : Rsum (map INR (seq 0 n)) = INR n * (INR n - 1) / 2.
Proof. induction n as [|n IH]; [simpl; lra|]. rewrite seq_S, map_app, Rsum_app, IH. cbn [map Rsum]. rewrite S_INR. simpl plus. field. Qed.
Lemma sum_i2 n : Rsum (map (fun i => INR i * (INR i - 1)) (seq 0 n)) = INR n * (INR n - 1) * (INR n - 2) / 3.
Proof. induction n as [|n IH]; [simpl; lra|]. rewrite seq_S, map_app, Rsum_app, IH. cbn [map Rsum]. rewrite S_INR. simpl plus. field. Qed.
Lemma sum_i3 n : Rsum (map (fun i => INR i * (INR i - 1) * (INR i - 2)) (seq 0 n)) = INR n * (INR n - 1) * (INR n - 2) * (INR n - 3) / 4.
Proof. induction n as [|n IH]; [simpl; lra|]. rewrite seq_S, map_app, Rsum_app, IH. cbn [map Rsum]. rewrite S_INR. simpl plus. field. Qed.
Lemma len_ge4 (l : list R) : (3 < length l)%nat -> 4 <= len l.
Proof. intros H. unfold len. replace 4 with (INR 4) by (simpl; lra). apply le_INR. lia. Qed.
Lemma pwm_aff l : (3 < length l)%nat -> pwm (af l) =
  let '(b0, b1, b2, b3) := pwm l in (a + b * b0, a / 2 + b * b1, a / 3 + b * b2, a / 4 + b * b3).
Proof.
  intros H. apply len_ge4 in H. unfold pwm. cbv zeta. rewrite aff_len, aff_sum.
  rewrite (imap_aff_sum INR), (imap_aff_sum (fun i => INR i * (INR i - 1))), (imap_aff_sum (fun i => INR i * (INR i - 1) * (INR i - 2))).
  rewrite sum_i, sum_i2, sum_i3. fold (len l). f_equal; [f_equal; [f_equal|]|]; field; lra.
Qed.
Lemma hosking1_aff l : hosking1 (af l) = hosking1 l.
Proof.
  unfold hosking1. apply gt3_ext. apply aff_length. rewrite aff_length. intros H. rewrite aff_rsort by trivial.
  rewrite pwm_aff by (now rewrite rsort_length). destruct (pwm (rsort l)) as [[[b0 b1] b2] b3]. cbv zeta.
  destruct (hosking_constants 0 (length l)) as [[mu v3] v4].
  replace (2 * (a / 2 + b * b1) - (a + b * b0)) with (b * (2 * b1 - b0)) by field.
  replace (6 * (a / 3 + b * b2) - 6 * (a / 2 + b * b1) + (a + b * b0)) with (b * (6 * b2 - 6 * b1 + b0)) by field.
  replace (20 * (a / 4 + b * b3) - 30 * (a / 3 + b * b2) + 12 * (a / 2 + b * b1) - (a + b * b0)) with (b * (20 * b3 - 30 * b2 + 12 * b1 - b0)) by field.
  now rewrite Reqb_scale, hosking_value_scale.
Qed.
Lemma zwc_aff l : zwc (af l) = zwc l.
Proof. unfold zwc, gt3. cbv zeta. now rewrite aff_length, aff_len, (varying_aff a b l Hb0), phiz_aff. Qed.
Lemma zwa_aff l : zwa (af l) = zwa l.
Proof. unfold zwa, gt3. cbv zeta. now rewrite aff_length, aff_len, (varying_aff a b l Hb0), phiz_aff. Qed.
Lemma glb_aff l : glb (af l) = glb l.
Proof. unfold glb, gt3. cbv zeta. now rewrite aff_length, (varying_aff a b l Hb0), phiz_aff. Qed.
Lemma dh_aff l : dh (af l) = dh l.
Proof. unfold dh. cbv zeta. now rewrite aff_length, (varying_aff a b l Hb0), skewness_aff, kurt_aff. Qed.
Lemma jn_aff l : l <> [] -> sqrt (PI / 2) * mean_abs_dev (median (af l)) (af l) = b * (sqrt (PI / 2) * mean_abs_dev (median l) l).
Proof. intros H. rewrite median_aff, mean_abs_dev_aff by trivial. ring. Qed.
Lemma nonempty_aff l : nonempty (af l) = nonempty l.
Proof. unfold nonempty. now rewrite aff_length. Qed.
Lemma rjb_aff l : rjb (af l) = rjb l.
Proof.
  unfold rjb. cbv zeta. rewrite nonempty_aff, aff_len.
  destruct l as [|x l0] eqn:E; [reflexivity|]. rewrite <- E in *. assert (Hl : l <> []) by (subst; discriminate).
  rewrite jn_aff by trivial. rewrite Reqb_scale by trivial. apply num_ext; trivial. intros _.
  rewrite !moment_aff, !Rpow_mult_distr, !div_scale; trivial; now apply pow_nonzero.
Qed.
Lemma bm1_aff l : bm1 (af l) = bm1 l.
Proof.
  unfold bm1. cbv zeta. apply gt3_ext. apply aff_length. rewrite aff_length. intros H.
  now rewrite (varying_aff a b l Hb0), aff_len, sd_moments_aff, zscores_aff by (trivial; now apply gt3_ne).
Qed.
Lemma bm2_aff l : bm2 (af l) = bm2 l.
Proof. unfold bm2, gt3. cbv zeta. now rewrite aff_length, (varying_aff a b l Hb0), aff_len, sd1_aff, zscores_aff. Qed.
Lemma mad_pos l : l <> [] -> 0 < ssq l -> forall c, 0 < mean_abs_dev c l.
Proof.
  intros Hl H c. pose proof (len_pos l Hl). unfold mean_abs_dev, mean. rewrite len_map. apply Rdiv_lt_0_compat; trivial.
  assert (N : 0 <= Rsum (map (fun x => Rabs (x - c)) l)) by (apply Rsum_map_nonneg; intros; apply Rabs_pos).
  destruct N as [|E]; trivial. exfalso. symmetry in E.
  assert (Z : forall x, In x l -> x = c).
  { intros x Hx. apply Rsum_zero with (x := Rabs (x - c)) in E. destruct (Req_dec x c); trivial. exfalso.
    assert (x - c <> 0) by lra. now apply Rabs_no_R0 in H2.
    intros y Hy. apply in_map_iff in Hy as (z & <- & _). apply Rabs_pos.
    apply in_map_iff. now exists x. }
  assert (mean l = c).
  { unfold mean. rewrite <- (map_id l) at 1. rewrite (Rsum_map_ext _ (fun _ => c)) by trivial. rewrite Rsum_map_const. fold (len l). field. lra. }
  unfold ssq in H. rewrite (Rsum_map_ext _ (fun _ => 0)), Rsum_map_const in H. lra.
  intros x Hx. rewrite (Z x Hx), H1. ring.
Qed.
Lemma bs_aff l : bs (af l) = bs l.
Proof.
  unfold bs. cbv zeta. apply gt3_ext. apply aff_length. rewrite aff_length. intros H. apply gt3_ne in H.
  rewrite (varying_aff a b l Hb0), aff_len, np_var_aff, sqrt_sq_scale, aff_mean, mean_abs_dev_aff by (trivial; lra).
  destruct (varying l) eqn:V; trivial. apply varying_true in V. apply num_ext; trivial. intros _.
  assert (0 < sqrt (np_var l)). { apply sqrt_lt_R0. rewrite np_var_ssq. apply Rdiv_lt_0_compat; trivial. now apply len_pos. }
  pose proof (mad_pos l H V (mean l)). rewrite !ln_mult by trivial. f_equal. f_equal. ring.
Qed.
Lemma mi_aff l : mi (af l) = mi l.
Proof.
  unfold mi. cbv zeta. apply gt3_ext. apply aff_length. rewrite aff_length. intros H. apply gt3_ne in H.
  rewrite aff_len, median_aff by trivial.
  set (d := map (fun x => x - median l) l).
  assert (E : map (fun x => x - (a + b * median l)) (af l) = aff 0 b d).
  { unfold aff, d. rewrite !map_map. apply map_ext. intros; ring. }
  rewrite E. assert (E2 : map Rabs (aff 0 b d) = aff 0 b (map Rabs d)).
  { unfold aff. rewrite !map_map. apply map_ext. intros x. rewrite !Rplus_0_l, Rabs_mult, (Rabs_right b); lra. }
  rewrite E2, median_aff; trivial. 2: { unfold d. now destruct l. }
  set (m := median (map Rabs d)).
  replace (9 * (0 + b * m)) with (b * (9 * m)) by ring. rewrite Reqb_scale by trivial. rewrite !aff_map.
  assert (Q : forall x, (0 + b * x) / (b * (9 * m)) = x / (9 * m)) by (intros; rewrite Rplus_0_l; apply div_scale; lra).
  rewrite (Rsum_map_ext (fun x => (0 + b * x) ^ 2 * _) (fun x => b ^ 2 * (x ^ 2 * (1 - (x / (9 * m)) ^ 2) ^ 4))) by (intros; rewrite Q; ring).
  rewrite (Rsum_map_ext (fun x => (1 - _ ^ 2) * _) (fun x => (1 - (x / (9 * m)) ^ 2) * (1 - 5 * (x / (9 * m)) ^ 2))) by (intros; rewrite Q; ring).
  rewrite (Rsum_map_ext (fun x => (0 + b * x) ^ 2) (fun x => b ^ 2 * x ^ 2)) by (intros; ring).
  rewrite !Rsum_map_scal. rewrite (Reqb_scale (b ^ 2)) by (now apply pow_nonzero).
  set (t1 := Rsum (map (fun x => x ^ 2 * (1 - (x / (9 * m)) ^ 2) ^ 4) d)). set (t2 := Rsum (map (fun x => (1 - (x / (9 * m)) ^ 2) * (1 - 5 * (x / (9 * m)) ^ 2)) d)).
  set (t3 := Rsum (map (fun x => x ^ 2) d)).
  apply num_ext; trivial. intros Ht. destruct (Reqb t2 0); trivial.
  replace (b ^ 2 * t3 / (len l - 1)) with (b ^ 2 * (t3 / (len l - 1))) by (unfold Rdiv; ring).
  replace (len l * (b ^ 2 * t1) / t2 ^ 2) with (b ^ 2 * (len l * t1 / t2 ^ 2)) by (unfold Rdiv; ring).
  apply div_scale. now apply pow_nonzero.
Qed.
Lemma cc1_aff l : cc1 (af l) = cc1 l.
Proof. unfold cc1, gt3. cbv zeta. now rewrite aff_length, (varying_aff a b l Hb0), aff_len, sd1_aff, zscores_aff. Qed.
Lemma cc2_aff l : cc2 (af l) = cc2 l.
Proof.
  unfold cc2, gt3. cbv zeta. rewrite aff_length, (varying_aff a b l Hb0), aff_len, np_var_aff.
  replace (len l * (b ^ 2 * np_var l) / (len l - 1)) with (b ^ 2 * (len l * np_var l / (len l - 1))) by (unfold Rdiv; ring).
  now rewrite sqrt_sq_scale, zscores_aff by (trivial; lra).
Qed.
Lemma ratio_sum_scale x y : Rsum (map (fun p => fst p / snd p) (combine (map (Rmult b) x) y)) = b * Rsum (map (fun p => fst p / snd p) (combine x y)).
Proof.
  revert y. induction x as [|x0 x IH]; intros [|y0 y]; cbn [map combine Rsum fst snd]; try ring. rewrite IH. unfold Rdiv. ring.
Qed.
Lemma cs_aff l : cs (af l) = cs l.
Proof.
  unfold cs. cbv zeta. apply gt3_ext. apply aff_length. intros _.
  rewrite aff_length, (varying_aff a b l Hb0), aff_len, sd1_aff, aff_rsort, diff_aff, ratio_sum_scale by trivial.
  apply num_ext; trivial. intros _. f_equal. f_equal.
  replace ((len l - 1) * (b * sd1 l)) with (b * ((len l - 1) * sd1 l)) by ring. apply div_scale. lra.
Qed.
Lemma log_ratio_scale q1 q2 : log_ratio (b * q1) (b * q2) = log_ratio q1 q2.
Proof. unfold log_ratio. now rewrite Reqb_scale, !div_scale by trivial. Qed.
Lemma zq_aff l : zq (af l) = zq l.
Proof.
  unfold zq. cbv zeta. apply gt3_ext. apply aff_length. intros _. rewrite aff_length, aff_rsort by trivial.
  destruct (Nat.ltb_spec (length l) 8); trivial.
  rewrite !dot_aff by (rewrite rsort_length; (apply zq_a_length || apply zq_b_length); lia).
  rewrite zq_a_sum, (antisym_sum _ (zq_b_antisym _ H)). rewrite !Rmult_0_r, !Rplus_0_l. apply log_ratio_scale.
Qed.
Lemma aff_rev l : rev (af l) = af (rev l).
Proof. unfold aff. now rewrite map_rev. Qed.
Lemma zqs_aff l : zqs (af l) = zqs l.
Proof.
  unfold zqs. cbv zeta. apply gt3_ext. apply aff_length. intros _. rewrite aff_length, aff_rsort, aff_rev by trivial.
  destruct (Nat.ltb_spec (length l) 8); trivial.
  rewrite !dot_aff by (rewrite rev_length, rsort_length; (apply zq_a_length || apply zq_b_length); lia).
  rewrite zq_a_sum, (antisym_sum _ (zq_b_antisym _ H)). rewrite !Rmult_0_r, !Rplus_0_l.
  try rewrite !Ropp_mult_distr_r. apply log_ratio_scale.
Qed.
Lemma coin_aff l : coin (af l) = coin l.
Proof.
  unfold coin. cbv zeta. apply gt3_ext. apply aff_length. rewrite aff_length. intros H. apply gt3_ne in H.
  now rewrite (varying_aff a b l Hb0), sd_moments_aff, zscores_aff.
Qed.
Lemma dagostino_d_aff l : (3 < length l)%nat -> dagostino_d (af l) = dagostino_d l.
Proof.
  intros H. pose proof (len_ge4 _ H) as L. apply gt3_ne in H. unfold dagostino_d. cbv zeta. rewrite aff_rsort, aff_len by trivial.
  assert (Hr : rsort l <> []) by now apply rsort_ne.
  pose proof (sumsq_ssq (rsort l) Hr) as E1. pose proof (sumsq_ssq (af (rsort l))) as E2. rewrite aff_nil in E2. specialize (E2 Hr).
  unfold mean in E1, E2. rewrite aff_len in E2. rewrite len_rsort in E1, E2. rewrite E1, E2, ssq_aff.
  rewrite (imap_aff_sum (fun i => INR (S i) - 0.5 * (len l + 1))).
  assert (Z : Rsum (map (fun i => INR (S i) - 0.5 * (len l + 1)) (seq 0 (length (rsort l)))) = 0).
  { rewrite rsort_length. rewrite (Rsum_map_ext _ (fun i => INR i + (1 - 0.5 * (len l + 1)))) by (intros; rewrite S_INR; ring).
    rewrite (Rsum_map_plus INR (fun _ => 1 - 0.5 * (len l + 1))), sum_i, Rsum_map_const, seq_length. unfold len. replace 0.5 with (1 / 2) by lra. field. }
  rewrite Z. rewrite Rmult_0_r, Rplus_0_l.
  replace (b ^ 2 * ssq (rsort l) / len l) with (b ^ 2 * (ssq (rsort l) / len l)) by (unfold Rdiv; ring).
  rewrite sqrt_sq_scale by lra.
  match goal with |- _ / (_ * (b * ?s)) = _ => replace (len l ^ 2 * (b * s)) with (b * (len l ^ 2 * s)) by ring end.
  apply div_scale. lra.
Qed.
Lemma dagostino_aff l : dagostino (af l) = dagostino l.
Proof.
  unfold dagostino. apply gt3_ext. apply aff_length. rewrite aff_length. intros H.
  now rewrite (varying_aff a b l Hb0), aff_len, dagostino_d_aff.
Qed.
Lemma swrg_aff l : swrg (af l) = swrg l.
Proof.
  unfold swrg. cbv zeta. apply gt3_ext. apply aff_length. intros _.
  rewrite aff_length, (varying_aff a b l Hb0), ssq_aff, aff_rsort by trivial. apply num_ext; trivial. intros _.
  rewrite dot_aff by (now rewrite map_length, wrg_star_length, rsort_length).
  rewrite antisym_sum. 2: { apply antisym_map. intros; unfold Rdiv; ring. apply wrg_star_antisym. }
  match goal with |- (_ + b * ?d) ^ 2 / _ = _ => replace ((a * 0 + b * d) ^ 2) with (b ^ 2 * d ^ 2) by ring end.
  apply div_scale. now apply pow_nonzero.
Qed.
Lemma gmg_aff l : gmg (af l) = gmg l.
Proof.
  unfold gmg. cbv zeta. apply gt3_ext. apply aff_length. rewrite aff_length. intros H. apply gt3_ne in H.
  rewrite jn_aff by trivial. rewrite Reqb_scale by trivial. apply num_ext; trivial. intros _.
  rewrite np_var_aff, sqrt_sq_scale by lra. apply div_scale. lra.
Qed.
Lemma sh_aff l : sh (af l) = sh l.
Proof.
  unfold sh. cbv zeta. apply gt3_ext. apply aff_length. rewrite aff_length. intros H. apply gt3_ne in H.
  rewrite (varying_aff a b l Hb0), sd1_aff, Rmaxl_aff, Rminl_aff by trivial.
  rewrite (aff_dev Rabs). rewrite (Rsum_map_ext _ (fun x => b * Rabs (x - mean l))).
  2: { intros x _. rewrite Rabs_mult, (Rabs_right b); lra. }
  rewrite Rsum_map_scal.
  replace (a + b * Rmaxl 0 l - (a + b * Rminl 0 l)) with (b * (Rmaxl 0 l - Rminl 0 l)) by ring.
  rewrite !Rmult_assoc, !div_scale by trivial. reflexivity.
Qed.
Lemma dldm_aff l : dldm (af l) = dldm l.
Proof.
  unfold dldm. cbv zeta. apply gt3_ext. apply aff_length. rewrite aff_length. intros H. apply gt3_ne in H.
  rewrite (varying_aff a b l Hb0).
  pose proof (sumsq_ssq (af l)) as E2. rewrite aff_nil in E2. rewrite (E2 H), (sumsq_ssq l H), ssq_aff, aff_len.
  replace (b ^ 2 * ssq l / len l) with (b ^ 2 * (ssq l / len l)) by (unfold Rdiv; ring).
  now rewrite sqrt_sq_scale, zscores_aff by (trivial; lra).
Qed.
End Affine.
