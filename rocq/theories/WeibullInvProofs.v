(** The Weibull statistics after x -> c x^b, and the normalised spacings. *)
From Coq Require Import String.
From Verif Require Import Base DecModel EdfModel EdfSpec GraphModel RegistryModel ExpModel NormModel WeibullModel WeibullSpec Analysis EdfProofs EdfRotProofs EdfPowerProofs NormProofs NormRangeProofs NormFiniteProofs NormAffProofs NormSymProofs NormReflProofs ExpProofs GammaProofs WeibullProofs WeibullScoreProofs.
From Coq Require Import Lra Lia Psatz.
Local Open Scope R_scope.

Section Powered.
Variables (c b : R).
Hypotheses (Hc : 0 < c) (Hb : 0 < b).
Lemma logs_powered l : rsort (map ln (powered c b l)) = aff (ln c) b (rsort (map ln l)).
Proof. rewrite ln_powered by trivial. now apply aff_rsort. Qed.
Lemma all_pos_powered l : all_pos (powered c b l) = true.
Proof. apply all_pos_iff. now apply powered_positive. Qed.
Lemma neg_logs_powered l : neg_logs (powered c b l) = aff (- ln c) b (neg_logs l).
Proof.
  unfold neg_logs. rewrite logs_powered. replace (map Ropp (aff (ln c) b (rsort (map ln l)))) with (aff (- ln c) b (map Ropp (rsort (map ln l)))).
  - now apply aff_rsort.
  - unfold aff. rewrite !map_map. apply map_ext. intros x. ring.
Qed.
Lemma std_moment_aff k a x : 0 < ssq x -> std_moment k (aff a b x) = std_moment k x.
Proof.
  intros V. unfold std_moment. rewrite aff_len, ssq_aff.
  rewrite (aff_dev (fun d => (d / sqrt (b ^ 2 * ssq x / len x)) ^ k)). f_equal. apply Rsum_map_ext. intros v _. f_equal.
  replace (b ^ 2 * ssq x / len x) with (b ^ 2 * (ssq x / len x)) by (unfold Rdiv; ring). rewrite sqrt_sq_scale by lra. apply div_scale. lra.
Qed.
Lemma st1_powered l : all_positive l -> st1_weibull (powered c b l) = st1_weibull l.
Proof.
  intros P. unfold st1_weibull. destruct l as [|x0 l0]; [reflexivity|]. set (l := x0 :: l0) in *. cbv zeta.
  change (powered c b l) with (c * Rpower x0 b :: powered c b l0). cbv iota. change (c * Rpower x0 b :: powered c b l0) with (powered c b l).
  rewrite neg_logs_powered, powered_len, all_pos_powered, (proj2 (all_pos_iff l) P), varying_aff by lra. apply num_ext; trivial.
  intros V. apply varying_true in V. now rewrite std_moment_aff.
Qed.
Lemma st2_powered l : all_positive l -> st2_weibull (powered c b l) = st2_weibull l.
Proof.
  intros P. unfold st2_weibull. destruct l as [|x0 l0]; [reflexivity|]. set (l := x0 :: l0) in *. cbv zeta.
  change (powered c b l) with (c * Rpower x0 b :: powered c b l0). cbv iota. change (c * Rpower x0 b :: powered c b l0) with (powered c b l).
  rewrite neg_logs_powered, powered_len, all_pos_powered, (proj2 (all_pos_iff l) P), varying_aff by lra. apply num_ext; trivial.
  intros V. apply varying_true in V. now rewrite !std_moment_aff.
Qed.
Lemma dev_aff a x : dev (aff a b x) = map (fun v => b * v) (dev x).
Proof. unfold dev. rewrite (aff_dev (fun d => d)). now rewrite map_map. Qed.
Lemma rsb_powered l : all_positive l -> rsb_weibull (powered c b l) = rsb_weibull l.
Proof.
  intros P. unfold rsb_weibull. destruct l as [|x0 l0]; [reflexivity|]. set (l := x0 :: l0) in *. cbv zeta.
  change (powered c b l) with (c * Rpower x0 b :: powered c b l0). cbv iota. change (c * Rpower x0 b :: powered c b l0) with (powered c b l).
  rewrite ln_powered, powered_len, powered_length, all_pos_powered, (proj2 (all_pos_iff l) P), varying_aff by (trivial; lra). apply num_ext; trivial.
  intros V. do 2 f_equal. rewrite !pearson_dot by (unfold rsb_scores; rewrite ?aff_length, !map_length, seq_length; reflexivity).
  rewrite dev_aff, dot_scal_l, ssq_aff. f_equal. rewrite Rpow_mult_distr. apply div_scale. now apply pow_nonzero, Rgt_not_eq.
Qed.
Lemma combine_scal_l (f : R -> R -> R) x y : (forall u v, f (b * u) v = b * f u v) ->
  map (fun p => f (fst p) (snd p)) (combine (map (Rmult b) x) y) = map (Rmult b) (map (fun p => f (fst p) (snd p)) (combine x y)).
Proof. intros H. revert y. induction x as [|u x IH]; intros [|v y]; cbn [map combine fst snd]; trivial. now rewrite IH, H. Qed.
Lemma ns_ratios_powered l : ns_ratios (powered c b l) = map (Rmult b) (ns_ratios l).
Proof.
  unfold ns_ratios. rewrite logs_powered, diff_aff, powered_length. apply (combine_scal_l (fun u v => u / v)). intros u v. unfold Rdiv. ring.
Qed.
Lemma ns_ok_powered l : all_positive l -> ns_ok (powered c b l) = ns_ok l.
Proof. intros P. unfold ns_ok. now rewrite all_pos_powered, (proj2 (all_pos_iff l) P), powered_length. Qed.
Lemma Rsum_scal x : Rsum (map (Rmult b) x) = b * Rsum x.
Proof. rewrite (Rsum_map_scal b (fun v => v)). now rewrite map_id. Qed.
Lemma firstn_map' {A B} (f : A -> B) k x : firstn k (map f x) = map f (firstn k x).
Proof. revert k. induction x as [|u x IH]; intros [|k]; cbn; trivial. now rewrite IH. Qed.
Lemma skipn_map' {A B} (f : A -> B) k x : skipn k (map f x) = map f (skipn k x).
Proof. revert k. induction x as [|u x IH]; intros [|k]; cbn; trivial. Qed.
Lemma ts_powered l : all_positive l -> ts_weibull (powered c b l) = ts_weibull l.
Proof.
  intros P. unfold ts_weibull. cbv zeta. rewrite powered_length, ns_ok_powered, ns_ratios_powered, firstn_map', Rsum_scal by trivial.
  replace ((INR (length l) - 2) * (b * Rsum (ns_ratios l))) with (b * ((INR (length l) - 2) * Rsum (ns_ratios l))) by ring.
  rewrite Reqb_scale by lra. apply num_ext; trivial. intros _.
  rewrite imap_dot, map_length. match goal with |- 2 * dot ?w ?y / _ = _ => replace (dot w y) with (b * dot w (firstn (length l - 2) (ns_ratios l))) end.
  - rewrite imap_dot. replace (2 * (b * dot (map (fun i => INR (length l) - 1 - INR (S i)) (seq 0 (length (firstn (length l - 2) (ns_ratios l))))) (firstn (length l - 2) (ns_ratios l))))
      with (b * (2 * dot (map (fun i => INR (length l) - 1 - INR (S i)) (seq 0 (length (firstn (length l - 2) (ns_ratios l))))) (firstn (length l - 2) (ns_ratios l)))) by ring.
    apply div_scale. lra.
  - rewrite (dot_comm _ (map (Rmult b) _)). rewrite (dot_scal_l b). f_equal. apply dot_comm.
Qed.
Lemma los_z_powered l : los_z (powered c b l) = los_z l.
Proof.
  unfold los_z. cbv zeta. rewrite powered_length, ns_ratios_powered, Rsum_scal. apply map_ext. intros i. rewrite firstn_map', Rsum_scal. apply div_scale. lra.
Qed.
Lemma los_powered l : all_positive l -> los_weibull (powered c b l) = los_weibull l.
Proof.
  intros P. unfold los_weibull. cbv zeta. rewrite powered_length, ns_ok_powered, los_z_powered, ns_ratios_powered, Rsum_scal, Reqb_scale by (trivial; lra). reflexivity.
Qed.
Lemma msf_powered l : all_positive l -> msf_weibull (powered c b l) = msf_weibull l.
Proof.
  intros P. unfold msf_weibull. cbv zeta. rewrite powered_length, ns_ok_powered, ns_ratios_powered, skipn_map', !Rsum_scal, Reqb_scale by (trivial; lra).
  apply num_ext; trivial. intros _. apply div_scale. lra.
Qed.
(** the weights of Wi add up to n and those of Wn to 0.4228 n: the numerator of SB and OK moves with the scale *)
Lemma wpp_wi_sum n : Rsum (wpp_wi n) = INR n.
Proof. unfold wpp_wi. rewrite Rsum_app. cbn [Rsum]. ring. Qed.
Lemma wpp_wn_sum n : Rsum (wpp_wn n) = 0.4228 * INR n.
Proof. unfold wpp_wn. rewrite Rsum_app. cbn [Rsum]. lra. Qed.
Lemma wpp_length n : (0 < n)%nat -> length (wpp_wi n) = n /\ length (wpp_wn n) = n.
Proof. intros H. unfold wpp_wi, wpp_wn, wpp_w. rewrite !app_length, !map_length, seq_length. simpl. lia. Qed.
Lemma wpp_b_aff a y : y <> [] -> wpp_b (aff a b y) = b * wpp_b y + a * len y * (2012 / 100000000).
Proof.
  intros H. unfold wpp_b. rewrite aff_length. destruct (wpp_length (length y)) as [L1 L2]; [destruct y; [easy|simpl; lia]|].
  rewrite !dot_aff, wpp_wi_sum, wpp_wn_sum by trivial. unfold len. lra.
Qed.
Lemma ok_sig_aff a y : ok_sig (aff a b y) = b * ok_sig y.
Proof.
  unfold ok_sig. rewrite aff_len, aff_length, dot_aff by (now rewrite map_length, seq_length).
  assert (Z : Rsum (map (fun i => 2 * INR (S i) - 1 - len y) (seq 0 (length y))) = 0).
  { assert (K : forall n m, Rsum (map (fun i => 2 * INR (S i) - 1 - m) (seq 0 n)) = INR n * (INR n - m)).
    { induction n as [|n IH]; intros m; [simpl; lra|]. rewrite seq_S, map_app, Rsum_app, IH. cbn [map Rsum]. rewrite Nat.add_0_l, S_INR. ring. }
    rewrite K. unfold len. ring. }
  rewrite Z. unfold Rdiv. ring.
Qed.
End Powered.

(** *** the normalised spacings *)
Lemma strict_seq (f : nat -> R) n : forall k, (forall i j, (k <= i)%nat -> (i < j < k + n)%nat -> f i < f j) -> StronglySorted Rlt (map f (seq k n)).
Proof.
  induction n as [|n IH]; intros k H; [constructor|]. cbn [seq map]. constructor; [apply IH; intros i j Hi Hj; apply H; lia|].
  apply Forall_forall. intros y Hy. apply in_map_iff in Hy as (j & <- & Hj). apply in_seq in Hj. apply H; lia.
Qed.
Lemma gofns_strict n : StronglySorted Rlt (gofns n).
Proof. apply strict_seq. intros i j _ H. apply gofns_increasing; lia. Qed.
Lemma gofns_diff n d : In d (diff (gofns n)) -> 0 < d.
Proof. apply diff_pos, gofns_strict. Qed.
Lemma ns_ok_iff l : ns_ok l = true <-> all_positive l.
Proof.
  unfold ns_ok. rewrite andb_true_iff, all_pos_iff. split; [tauto|]. intros H. split; trivial. apply forallb_forall. intros d Hd.
  apply negb_true_iff, Reqb_false. pose proof (gofns_diff _ d Hd). lra.
Qed.
Lemma combine_pos (x y : list R) (Q : R -> Prop) : (forall u v, In u x -> In v y -> Q (u / v)) ->
  forall r, In r (map (fun p => fst p / snd p) (combine x y)) -> Q r.
Proof.
  intros H r Hr. apply in_map_iff in Hr as ([u v] & <- & Hp). cbn. apply H; [eapply in_combine_l, Hp|eapply in_combine_r, Hp].
Qed.
Lemma ns_ratios_nonneg l r : In r (ns_ratios l) -> 0 <= r.
Proof.
  unfold ns_ratios. apply (combine_pos _ _ (fun r => 0 <= r)). intros u v Hu Hv. apply gofns_diff in Hv.
  pose proof (EdfPowerProofs.diff_nonneg _ (rsort_sorted (map ln l)) u Hu). apply Rmult_le_pos; trivial. apply Rlt_le. now apply Rinv_0_lt_compat.
Qed.
Lemma ns_ratios_pos l r : all_positive l -> NoDup l -> In r (ns_ratios l) -> 0 < r.
Proof.
  intros P D. unfold ns_ratios. apply (combine_pos _ _ (fun r => 0 < r)). intros u v Hu Hv. apply gofns_diff in Hv. apply Rdiv_lt_0_compat; trivial.
  refine (proj2 (diff_pos _) _ u Hu). apply strict_sorted_iff. split; [apply rsort_sorted|].
  eapply Permutation_NoDup; [symmetry; apply rsort_perm|]. now apply nodup_ln.
Qed.
Lemma ns_ratios_length l : length (ns_ratios l) = (length l - 1)%nat.
Proof. unfold ns_ratios, gofns. rewrite map_length, combine_length, !NormReflProofs.diff_length, rsort_length, !map_length, seq_length. lia. Qed.
