(** Normality statistics under the reflection x -> -x. *)
From Verif Require Import Base DecModel EdfModel GraphModel NormalLaw ExpModel NormModel EdfProofs ExpProofs ExpRangeProofs NormProofs NormSymProofs NormAffProofs.
From Coq Require Import Lra Lia.

Definition neg (l : list R) : list R := map Ropp l.
Definition flip (u : list R) : list R := rev (map (fun p => 1 - p) u).
Lemma neg_aff l : neg l = aff 0 (-1) l.
Proof. unfold neg, aff. apply map_ext. intros. ring. Qed.
Lemma neg_length l : length (neg l) = length l. Proof. apply map_length. Qed.
Lemma neg_len l : len (neg l) = len l. Proof. unfold len. now rewrite neg_length. Qed.
Lemma neg_ne l : l <> [] -> neg l <> []. Proof. now destruct l. Qed.
Lemma neg_mean l : mean (neg l) = - mean l.
Proof. unfold mean, neg. rewrite Rsum_opp, len_map. unfold Rdiv. ring. Qed.
Lemma neg_ssq l : ssq (neg l) = ssq l. Proof. rewrite neg_aff, ssq_aff. ring. Qed.
Lemma neg_varying l : varying (neg l) = varying l. Proof. unfold varying. now rewrite neg_ssq. Qed.
Lemma neg_sd1 l : sd1 (neg l) = sd1 l. Proof. unfold sd1. now rewrite neg_ssq, neg_len. Qed.
Lemma neg_var l : np_var (neg l) = np_var l. Proof. now rewrite !np_var_ssq, neg_ssq, neg_len. Qed.
Lemma neg_moment k l : moment k (neg l) = (-1) ^ k * moment k l. Proof. now rewrite neg_aff, moment_aff. Qed.
Lemma neg_moment2 l : moment 2 (neg l) = moment 2 l. Proof. rewrite neg_moment. ring. Qed.
Lemma neg_skewness l : skewness (neg l) = - skewness l.
Proof. unfold skewness. rewrite neg_moment2, neg_moment. unfold Rdiv. ring. Qed.
Lemma neg_kurt l : kurt (neg l) = kurt l.
Proof. unfold kurt. rewrite neg_moment2, neg_moment. unfold Rdiv. ring. Qed.
Lemma neg_zscores s l : zscores s (neg l) = neg (zscores s l).
Proof. unfold zscores. rewrite neg_mean. unfold neg. rewrite !map_map. apply map_ext. intros. unfold Rdiv. ring. Qed.
Lemma neg_sumsq l : Rsum (map (fun x => x ^ 2) (neg l)) = Rsum (map (fun x => x ^ 2) l).
Proof. unfold neg. rewrite map_map. apply Rsum_map_ext. intros. ring. Qed.
Lemma neg_sd_moments l : sd_moments (neg l) = sd_moments l.
Proof. unfold sd_moments. rewrite neg_sumsq, neg_len, neg_mean. replace ((- mean l) ^ 2) with (mean l ^ 2) by ring. reflexivity. Qed.

Lemma sorted_rev_anti f l : (forall x y, x <= y -> f y <= f x) -> sortedR l -> sortedR (rev (map f l)).
Proof.
  intros Hf H. induction H as [|x l Hs IH Hx]; [constructor|]. simpl. apply sorted_snoc. split; trivial.
  intros y Hy. apply in_rev in Hy. rewrite ?rev_involutive in Hy. apply in_map_iff in Hy as (z & <- & Hz).
  apply Hf. rewrite Forall_forall in Hx. now apply Hx.
Qed.
Lemma rsort_anti f l : (forall x y, x <= y -> f y <= f x) -> rsort (map f l) = rev (map f (rsort l)).
Proof.
  intros Hf. rewrite <- (rsort_id (rev (map f (rsort l)))) by (apply sorted_rev_anti; trivial; apply rsort_sorted).
  apply rsort_perm_eq. rewrite <- Permutation_rev. apply Permutation_map. symmetry. apply rsort_perm.
Qed.
Lemma rsort_neg l : rsort (neg l) = rev (neg (rsort l)).
Proof. apply rsort_anti. intros; lra. Qed.
Lemma rsort_flip u : rsort (flip u) = flip (rsort u).
Proof.
  unfold flip. rewrite (rsort_perm_eq _ (map (fun p => 1 - p) u)) by (symmetry; apply Permutation_rev).
  apply rsort_anti. intros; lra.
Qed.
Lemma flip_length u : length (flip u) = length u. Proof. unfold flip. now rewrite rev_length, map_length. Qed.
Lemma flip_len u : len (flip u) = len u. Proof. unfold len. now rewrite flip_length. Qed.
Lemma cdf_neg l : rev (map norm_cdf (neg l)) = flip (map norm_cdf l).
Proof. unfold neg, flip. rewrite !map_map. f_equal. apply map_ext. intros. apply norm_cdf_sym. Qed.
Lemma cdf_rsort_neg l : map norm_cdf (rsort (neg l)) = flip (map norm_cdf (rsort l)).
Proof. rewrite rsort_neg, map_rev. apply cdf_neg. Qed.
Lemma imap_rev {B} (f : nat -> R -> B) l : imap f (rev l) = rev (imap (fun i v => f (length l - 1 - i)%nat v) l).
Proof.
  rewrite (imap_seq f (rev l) 0), (imap_seq _ l 0). rewrite (rev_seq_map (fun i => f (length l - 1 - i)%nat (nth i l 0))), rev_length.
  apply map_ext_in. intros i Hi. apply in_seq in Hi. rewrite rev_nth by lia.
  replace (length l - 1 - (length l - 1 - i))%nat with i by lia. f_equal. f_equal. lia.
Qed.
Lemma imap_ext_in {B} (f g : nat -> R -> B) l : (forall i v, (i < length l)%nat -> f i v = g i v) -> imap f l = imap g l.
Proof.
  intros H. rewrite (imap_seq f l 0), (imap_seq g l 0). apply map_ext_in. intros i Hi. apply in_seq in Hi. apply H. lia.
Qed.
Lemma imap_flip {B} (f g : nat -> R -> B) u : (forall i v, (i < length u)%nat -> f (length u - 1 - i)%nat (1 - v) = g i v) ->
  imap f (flip u) = rev (imap g u).
Proof.
  intros H. unfold flip. rewrite imap_rev. f_equal. rewrite map_length, imap_map. apply imap_ext_in. intros i v Hi. now rewrite H.
Qed.
Lemma INR_rev n i : (i < n)%nat -> INR (n - 1 - i) = INR n - 1 - INR i.
Proof. intros H. rewrite !minus_INR by lia. simpl. ring. Qed.
Lemma d_plus_flip u : d_plus (flip u) = rev (d_minus u).
Proof.
  unfold d_plus, d_minus. apply imap_flip. intros i v Hi. rewrite flip_len, S_INR, INR_rev by trivial. fold (len u).
  assert (0 < len u) by (apply INR_pos; lia). field. lra.
Qed.
Lemma d_minus_flip u : d_minus (flip u) = rev (d_plus u).
Proof.
  unfold d_plus, d_minus. apply imap_flip. intros i v Hi. rewrite flip_len, S_INR, INR_rev by trivial. fold (len u).
  assert (0 < len u) by (apply INR_pos; lia). field. lra.
Qed.
Lemma np_max_rev l : np_max (rev l) = np_max l.
Proof.
  destruct l as [|x l0] eqn:E; trivial. rewrite <- E. rewrite !np_max_ok. f_equal. apply Rmaxl_perm. symmetry. apply Permutation_rev.
  now subst. subst. intros C. apply (f_equal (@rev R)) in C. now rewrite rev_involutive in C.
Qed.
Definition swap (alt : alternative) : alternative := match alt with LEFT => RIGHT | RIGHT => LEFT | TWO_TAILED => TWO_TAILED end.
Lemma ks_flip alt u : ks_do_execute alt (flip u) = ks_do_execute (swap alt) u.
Proof.
  destruct u as [|x u0] eqn:E; [now destruct alt|]. rewrite <- E. assert (Hu : u <> []) by (now subst).
  unfold ks_do_execute. rewrite d_plus_flip, d_minus_flip, !np_max_rev.
  rewrite (np_max_ok (d_plus u)), (np_max_ok (d_minus u)) by (apply d_plus_ne || apply d_minus_ne; trivial).
  destruct alt; trivial. cbn [bind swap]. f_equal. destruct (Rltb_spec (Rmaxl 0 (d_plus u)) (Rmaxl 0 (d_minus u))), (Rltb_spec (Rmaxl 0 (d_minus u)) (Rmaxl 0 (d_plus u))); lra.
Qed.
Lemma cvm_flip u : cvm_do_execute (flip u) = cvm_do_execute u.
Proof.
  unfold cvm_do_execute. rewrite flip_len. replace (match flip u with [] => _ | _ => _ end) with
    (match u with [] => Raise ZeroDivisionError | _ => Ok (1 / (12 * len u) + Rsum (imap (fun i x => ((2 * INR (S i) - 1) / (2 * len u) - x) ^ 2) (flip u))) end).
  - rewrite (imap_flip _ (fun i x => ((2 * INR (S i) - 1) / (2 * len u) - x) ^ 2)), Rsum_rev; trivial.
    intros i v Hi. rewrite !S_INR, INR_rev by trivial. fold (len u). assert (0 < len u) by (apply INR_pos; lia). field. lra.
  - pose proof (flip_length u). destruct u, (flip _); try discriminate; trivial.
Qed.
Lemma ad_flip u : ad_of_cdf (flip u) = ad_of_cdf u.
Proof.
  unfold ad_of_cdf.
  replace (forallb (fun x => Rltb 0 x && Rltb x 1) (flip u)) with (forallb (fun x => Rltb 0 x && Rltb x 1) u).
  - destruct (forallb _ u); trivial. f_equal. unfold ad_do_execute, flip.
    rewrite !map_rev, !map_map, rev_involutive.
    rewrite (map_ext (fun x => ln (1 - (1 - x))) ln) by (intros; f_equal; ring).
    replace (len (rev (map (fun x => ln (1 - x)) u))) with (len (map ln u)) by (unfold len; now rewrite rev_length, !map_length).
    f_equal. generalize (map ln u) as a. intros a. generalize (rev (map (fun x => ln (1 - x)) u)) as b. intros b. generalize (len a). intros n.
    unfold imap. generalize 0%nat. revert b. induction a as [|x a IH]; intros [|y b] k; trivial.
    cbn [combine imap_from fst snd Rsum]. rewrite (IH b). ring.
  - unfold flip. assert (P : forall q (l : list R), forallb q (rev l) = forallb q l).
    { intros q l. apply forallb_perm. symmetry. apply Permutation_rev. }
    rewrite P. induction u as [|x u IH]; trivial. cbn [map forallb]. rewrite <- IH. f_equal.
    destruct (Rltb_spec 0 x), (Rltb_spec x 1), (Rltb_spec 0 (1 - x)), (Rltb_spec (1 - x) 1); trivial; lra.
Qed.
Lemma dot_app a a' b b' : length a = length b -> dot (a ++ a') (b ++ b') = dot a b + dot a' b'.
Proof.
  unfold dot. revert b. induction a as [|x a IH]; intros [|y b] L; try discriminate; cbn [app combine map Rsum fst snd]. ring.
  injection L as L. rewrite IH by trivial. ring.
Qed.
Lemma dot_rev w : forall l, length w = length l -> dot (rev w) (rev l) = dot w l.
Proof.
  induction w as [|x w IH]; intros [|y l] L; try discriminate; trivial. injection L as L. cbn [rev].
  rewrite dot_app by (now rewrite !rev_length). rewrite IH by trivial. unfold dot. cbn [combine map Rsum fst snd]. ring.
Qed.
Lemma dot_neg_r w l : dot w (neg l) = - dot w l.
Proof. unfold dot, neg. revert l. induction w as [|x w IH]; intros [|y l]; cbn [combine map Rsum fst snd]; try ring. rewrite IH. ring. Qed.
Lemma dot_neg_l w l : dot (neg w) l = - dot w l.
Proof. now rewrite dot_comm, dot_neg_r, dot_comm. Qed.
Lemma dot_anti w l : antisym w -> length w = length l -> dot w (rsort (neg l)) = dot w (rsort l).
Proof.
  intros A L. rewrite rsort_neg. rewrite <- dot_rev by (now rewrite rev_length, neg_length, rsort_length).
  rewrite rev_involutive, A, dot_neg_r. fold (neg w). rewrite dot_neg_l. ring.
Qed.
Lemma neg_match {A} (l : list R) (x y : A) : match neg l with [] => x | _ :: _ => y end = match l with [] => x | _ :: _ => y end.
Proof. now destruct l. Qed.
Lemma phiz_neg l : phiz (neg l) = flip (phiz l).
Proof.
  unfold phiz. rewrite neg_sd1, neg_zscores, <- rsort_flip. apply rsort_perm_eq. rewrite <- cdf_neg. apply Permutation_rev.
Qed.
Lemma phiz_length l : length (phiz l) = length l.
Proof. unfold phiz, zscores. now rewrite rsort_length, !map_length. Qed.

Section Stats.
Variable l : list R.
Lemma ks_norm_neg m v alt : ks_norm m v alt (neg l) = ks_norm m v (swap alt) l.
Proof. unfold ks_norm. now rewrite cdf_rsort_neg, ks_flip. Qed.
Lemma cvm_norm_neg : cvm_norm (neg l) = cvm_norm l.
Proof. unfold cvm_norm. now rewrite cdf_rsort_neg, cvm_flip. Qed.
Lemma zscores_rev s x : zscores s (rev x) = rev (zscores s x).
Proof. unfold zscores. rewrite map_rev. unfold mean, len. now rewrite Rsum_rev, rev_length. Qed.
Lemma ad_norm_neg : ad_norm (neg l) = ad_norm l.
Proof.
  unfold ad_norm. rewrite neg_match, neg_varying, neg_sd1, rsort_neg, zscores_rev, neg_zscores, map_rev, cdf_neg, ad_flip. reflexivity.
Qed.
Lemma sw_norm_neg : sw_norm (neg l) = sw_norm l.
Proof.
  unfold sw_norm. rewrite neg_length, neg_varying, neg_ssq.
  destruct (le_lt_dec 3 (length l)) as [h | h].
  - destruct (sw_coefficients_cases (length l) h) as [E | (w & E & Hw & As)]; rewrite E; trivial. cbn [bind].
    now rewrite dot_anti.
  - destruct (length l) as [|[|[|]]]; try lia; reflexivity.
Qed.
Lemma lillie_norm_neg : lillie_norm (neg l) = lillie_norm l.
Proof. unfold lillie_norm. now rewrite neg_match, neg_varying, neg_sd1, neg_zscores, cdf_rsort_neg, ks_flip. Qed.
Lemma centred_neg : map (fun x => x - mean (neg l)) (neg l) = neg (map (fun x => x - mean l) l).
Proof. rewrite neg_mean. unfold neg. rewrite !map_map. apply map_ext. intros. ring. Qed.
Lemma jb_norm_neg : jb_norm (neg l) = jb_norm l.
Proof.
  unfold jb_norm. cbv zeta. rewrite neg_match, centred_neg, neg_varying, neg_len, neg_skewness, neg_kurt.
  set (d := map _ l). replace ((- skewness d) ^ 2) with (skewness d ^ 2) by ring. reflexivity.
Qed.
Lemma sorted_neg_skew x : skewness (rev x) = skewness x.
Proof. apply skewness_perm. symmetry. apply Permutation_rev. Qed.
Lemma asinh_odd t : ln (- t + sqrt ((- t) ^ 2 + 1)) = - ln (t + sqrt (t ^ 2 + 1)).
Proof.
  replace ((- t) ^ 2) with (t ^ 2) by ring. set (s := sqrt (t ^ 2 + 1)).
  assert (S2 : s * s = t ^ 2 + 1) by (apply sqrt_sqrt; pose proof (pow2_ge_0 t); lra).
  assert (Sp : 0 < s). { apply sqrt_lt_R0. pose proof (pow2_ge_0 t); lra. }
  assert (0 < t + s) by nra. rewrite <- ln_Rinv by trivial. f_equal. apply Rmult_eq_reg_l with (t + s); [|lra].
  rewrite Rinv_r by lra. nra.
Qed.
Lemma sk_z_odd n y : sk_z n (- y) = - sk_z n y.
Proof.
  unfold sk_z. cbv zeta. replace (- y / sk_alpha n) with (- (y / sk_alpha n)) by (unfold Rdiv; ring). rewrite asinh_odd. ring.
Qed.
Lemma sk_y_odd n b : sk_y n (- b) = - sk_y n b. Proof. unfold sk_y. ring. Qed.
Definition opp_val (v : npval) : npval := match v with Fin x => Fin (- x) | NonFinite => NonFinite end.
Lemma skew_test_rev x : skew_test (rev x) = skew_test x.
Proof.
  unfold skew_test. rewrite rev_length, (varying_perm (rev x) x), sorted_neg_skew by (symmetry; apply Permutation_rev).
  unfold len. now rewrite rev_length.
Qed.
Lemma kurtosis_test_rev x : kurtosis_test (rev x) = kurtosis_test x.
Proof.
  unfold kurtosis_test. rewrite rev_length, (varying_perm (rev x) x), (kurt_perm (rev x) x) by (symmetry; apply Permutation_rev).
  unfold len. now rewrite rev_length.
Qed.
Lemma skew_test_neg x : skewness x <> 0 -> (8 <= length x)%nat -> skew_test (neg x) = (let! v := skew_test x in Ok (opp_val v)).
Proof.
  intros H0 H8. unfold skew_test. rewrite neg_length, neg_len, neg_varying, neg_skewness, sk_y_odd.
  assert (L : 8 <= len x). { unfold len. replace 8 with (INR 8) by (simpl; lra). now apply le_INR. }
  destruct (Nat.ltb_spec (length x) 8); [lia|]. cbn [bind]. destruct (varying x); trivial. cbn [opp_val].
  assert (sk_y (len x) (skewness x) <> 0).
  { unfold sk_y. apply Rmult_integral_contrapositive_currified; trivial. apply Rgt_not_eq, sqrt_lt_R0, Rdiv_lt_0_compat; nra. }
  destruct (Reqb_spec (- sk_y (len x) (skewness x)) 0), (Reqb_spec (sk_y (len x) (skewness x)) 0); try lra. now rewrite sk_z_odd.
Qed.
Lemma skew_test_neg0 x : skewness x = 0 -> skew_test (neg x) = skew_test x.
Proof. intros H. unfold skew_test. rewrite neg_length, neg_len, neg_varying, neg_skewness, H. now rewrite Ropp_0. Qed.
Lemma kurtosis_test_neg x : kurtosis_test (neg x) = kurtosis_test x.
Proof. unfold kurtosis_test. now rewrite neg_length, neg_len, neg_varying, neg_kurt. Qed.
Lemma kurtosis_norm_neg : kurtosis_norm (neg l) = kurtosis_norm l.
Proof. unfold kurtosis_norm. now rewrite rsort_neg, kurtosis_test_rev, kurtosis_test_neg. Qed.
Lemma skewness_rsort : skewness (rsort l) = skewness l.
Proof. apply skewness_perm, rsort_perm. Qed.
Lemma skew_norm_neg : skewness l <> 0 -> (8 <= length l)%nat ->
  skew_norm (neg l) = (let! v := skew_norm l in Ok (option_map opp_val v)).
Proof.
  intros H0 H8. unfold skew_norm. rewrite rsort_neg, skew_test_rev, skew_test_neg by (now rewrite ?rsort_length, ?skewness_rsort).
  now destruct (skew_test (rsort l)).
Qed.
Lemma skew_norm_neg0 : skewness l = 0 -> skew_norm (neg l) = skew_norm l.
Proof. intros H. unfold skew_norm. now rewrite rsort_neg, skew_test_rev, skew_test_neg0 by (now rewrite skewness_rsort). Qed.
Lemma dap_norm_neg : dap_norm (neg l) = dap_norm l.
Proof.
  unfold dap_norm. rewrite rsort_neg, skew_test_rev, kurtosis_test_rev, kurtosis_test_neg.
  destruct (Nat.ltb_spec (length l) 8) as [h|h].
  - unfold skew_test. rewrite neg_length, rsort_length. now destruct (Nat.ltb_spec (length l) 8); [|lia].
  - destruct (Req_dec (skewness (rsort l)) 0) as [E|E]; [now rewrite skew_test_neg0|].
    rewrite skew_test_neg by (now rewrite ?rsort_length). destruct (skew_test (rsort l)) as [[s|]|]; trivial. cbn [bind opp_val].
    destruct (kurtosis_test (rsort l)) as [[k|]|]; trivial. cbn [bind]. now rewrite Rmult_opp_opp.
Qed.

(** probability plot correlations *)
Lemma combine_rev {A B} (x : list A) : forall y : list B, length x = length y -> combine (rev x) (rev y) = rev (combine x y).
Proof.
  assert (C : forall (a a' : list A) (b b' : list B), length a = length b -> combine (a ++ a') (b ++ b') = combine a b ++ combine a' b').
  { induction a as [|u a IH]; intros a' [|v b] b' L; try discriminate; trivial. simpl. f_equal. apply IH. now injection L. }
  induction x as [|u x IH]; intros [|v y] L; try discriminate; trivial. injection L as L. simpl.
  rewrite C by (now rewrite !rev_length). now rewrite IH.
Qed.
Lemma pearsonr_rev x y : length x = length y -> pearsonr (rev x) (rev y) = pearsonr x y.
Proof.
  intros L. unfold pearsonr. rewrite rev_length, (varying_perm (rev x) x), (varying_perm (rev y) y), (ssq_perm (rev x) x), (ssq_perm (rev y) y) by (symmetry; apply Permutation_rev).
  replace (mean (rev x)) with (mean x) by (unfold mean, len; now rewrite Rsum_rev, rev_length).
  replace (mean (rev y)) with (mean y) by (unfold mean, len; now rewrite Rsum_rev, rev_length).
  rewrite combine_rev, map_rev, Rsum_rev by trivial. reflexivity.
Qed.
Lemma pearsonr_neg x y : length x = length y -> pearsonr (neg x) (neg y) = pearsonr x y.
Proof.
  intros L. unfold pearsonr. rewrite neg_length, !neg_varying, !neg_ssq, !neg_mean. destruct (length x <? 2)%nat; trivial.
  apply num_ext; trivial. intros _. f_equal. revert y L. generalize (mean x). intros mx y. generalize (mean y). intros my. revert y.
  induction x as [|u x IH]; intros [|v y] L; try discriminate; trivial. injection L as L. unfold neg in *. cbn [map combine Rsum fst snd].
  rewrite (IH y L). ring.
Qed.
Lemma pearsonr_anti x y : antisym y -> length x = length y -> pearsonr (rsort (neg x)) y = pearsonr (rsort x) y.
Proof.
  intros A L. rewrite rsort_neg. assert (E : y = rev (neg y)) by (unfold neg; rewrite <- A; now rewrite rev_involutive). rewrite E at 1.
  rewrite pearsonr_rev, pearsonr_neg; trivial; now rewrite ?neg_length, rsort_length.
Qed.
Lemma filli_medians_01 n p : In p (filli_medians n) -> 0 < p < 1.
Proof.
  unfold filli_medians. intros H. apply in_map_iff in H as (i & <- & Hi). apply in_seq in Hi.
  assert (Hn : 1 <= INR n) by (apply INR_ge1; lia).
  assert (P : 0 < Rpower 0.5 (1 / INR n) < 1).
  { split; [apply exp_pos|]. unfold Rpower. rewrite <- exp_0 at 2. apply exp_increasing.
    assert (ln 0.5 < 0) by (rewrite <- ln_1; apply ln_increasing; lra). assert (0 < 1 / INR n) by (apply Rdiv_lt_0_compat; lra). nra. }
  assert (INR (S i) <= INR n) by (apply le_INR; lia). pose proof (INR_ge1 (S i) ltac:(lia)).
  destruct (Nat.eqb i (n - 1)); [trivial|]. destruct (Nat.eqb i 0); [lra|].
  split. apply Rdiv_lt_0_compat; lra. apply Rmult_lt_reg_r with (INR n + 0.365); [lra|]. unfold Rdiv. rewrite Rmult_assoc, Rinv_l; lra.
Qed.
Lemma filli_antisym n : antisym (map norm_ppf (filli_medians n)).
Proof.
  pose proof (filli_medians_01 n) as H01.
  unfold filli_medians in *. rewrite map_map in *. set (f := fun i => if Nat.eqb i (n - 1) then _ else _) in *.
  apply antisym_seq. intros i Hi. assert (F : f (n - 1 - i)%nat = 1 - f i).
  { unfold f. assert (1 <= INR n) by (apply INR_ge1; lia).
    destruct (Nat.eqb_spec (n - 1 - i) (n - 1)), (Nat.eqb_spec i (n - 1)), (Nat.eqb_spec i 0), (Nat.eqb_spec (n - 1 - i) 0); try lia; try lra.
    - subst. assert (n = 1)%nat by lia. subst. simpl. replace (1 / 1) with 1 by lra. rewrite Rpower_1 by lra. lra.
    - rewrite !S_INR, INR_rev by lia. assert (X : / (INR n + 0.365) * (INR n + 0.365) = 1) by (apply Rinv_l; lra).
      unfold Rdiv. lra. }
  change (norm_ppf (f (n - 1 - i)%nat) = - norm_ppf (f i)). rewrite F. apply norm_ppf_sym. apply H01. apply in_map_iff. exists i. split; trivial. apply in_seq. lia.
Qed.
Lemma filli_norm_neg : filli_norm (neg l) = filli_norm l.
Proof.
  unfold filli_norm. rewrite neg_match, neg_length, pearsonr_anti; trivial. apply filli_antisym.
  unfold filli_medians. now rewrite !map_length, seq_length.
Qed.
Lemma plotting_flip al n : 0 <= al < 1 -> flip (plotting al n) = plotting al n.
Proof.
  intros Ha. unfold flip, plotting. rewrite map_map. rewrite (rev_seq_map (fun i => 1 - pos al n i)).
  apply map_ext_in. intros i Hi. apply in_seq in Hi. rewrite pos_sym by (trivial; lia). unfold pos. ring.
Qed.
Lemma filter_rev {A} (q : A -> bool) x : filter q (rev x) = rev (filter q x).
Proof.
  induction x as [|u x IH]; trivial. simpl. rewrite filter_app, IH. simpl. destruct (q u); simpl; trivial. now rewrite app_nil_r.
Qed.
Lemma mean_rev x : mean (rev x) = mean x.
Proof. unfold mean, len. now rewrite Rsum_rev, rev_length. Qed.
Lemma mean_flip u : u <> [] -> mean (flip u) = 1 - mean u.
Proof.
  intros H. pose proof (len_pos u H). unfold flip. rewrite mean_rev. unfold mean. rewrite len_map, (Rsum_map_minus (fun _ => 1) (fun p => p)), map_id, Rsum_map_const.
  fold (len u). field. lra.
Qed.
Lemma tie_averaged_flip x u : length x = length u -> tie_averaged (rev (neg x)) (flip u) = flip (tie_averaged x u).
Proof.
  intros L. unfold tie_averaged. unfold flip at 2. rewrite map_rev. f_equal. rewrite (map_map _ (fun p => 1 - p)). etransitivity; [apply (map_map Ropp)|].
  apply map_ext_in. intros v Hv.
  unfold flip. rewrite combine_rev by (now rewrite neg_length, map_length). rewrite filter_rev, map_rev, mean_rev.
  set (sel := map snd (filter (fun p => Reqb (fst p) v) (combine x u))).
  assert (E : map snd (filter (fun p => Reqb (fst p) (- v)) (combine (neg x) (map (fun p => 1 - p) u))) = map (fun p => 1 - p) sel).
  { unfold sel. clear sel Hv. revert u L. induction x as [|a x IH]; intros [|b u] L; try discriminate; trivial. injection L as L. unfold neg in *.
    cbn [map combine filter fst]. replace (Reqb (- a) (- v)) with (Reqb a v) by (destruct (Reqb_spec a v), (Reqb_spec (-a) (-v)); trivial; lra).
    destruct (Reqb a v); cbn [map snd]; now rewrite IH. }
  rewrite E. rewrite <- mean_rev. fold (flip sel). apply mean_flip. unfold sel.
  clear E sel. revert u L. induction x as [|a x IH]; intros [|b u] L; try discriminate. destruct Hv. injection L as L. cbn [combine filter fst].
  destruct (Reqb_spec a v); [discriminate|]. apply IH; trivial. now destruct Hv.
Qed.
Lemma mean_01 u : u <> [] -> (forall p, In p u -> 0 < p < 1) -> 0 < mean u < 1.
Proof.
  intros H H01. pose proof (len_pos u H) as L. unfold mean. split.
  - apply Rdiv_lt_0_compat; trivial. apply Rsum_pos; [now destruct u | intros z Hz; now apply H01].
  - apply Rmult_lt_reg_r with (len u); trivial. unfold Rdiv. rewrite Rmult_assoc, Rinv_l, Rmult_1_l, Rmult_1_r by lra.
    assert (0 < Rsum (map (fun p => 1 - p) u)).
    { apply Rsum_pos. now destruct u. intros y Hy. apply in_map_iff in Hy as (p & <- & Hp). apply H01 in Hp. lra. }
    rewrite (Rsum_map_minus (fun _ => 1) (fun p => p)), map_id, Rsum_map_const in H0. fold (len u) in H0. lra.
Qed.
Lemma tie_averaged_01 x u p : length x = length u -> (forall p, In p u -> 0 < p < 1) -> In p (tie_averaged x u) -> 0 < p < 1.
Proof.
  intros L H01 H. unfold tie_averaged in H. apply in_map_iff in H as (v & <- & Hv). apply mean_01.
  - clear H01. revert u L. induction x as [|a x IH]; intros [|b u] L; try discriminate. destruct Hv. injection L as L. cbn [combine filter fst].
    destruct (Reqb_spec a v); [discriminate|]. apply IH; trivial. now destruct Hv.
  - intros q Hq. apply H01. apply in_map_iff in Hq as ([y z] & <- & Hq). apply filter_In in Hq as [Hq _]. now apply in_combine_r in Hq.
Qed.
Lemma ppf_flip u : (forall p, In p u -> 0 < p < 1) -> map norm_ppf (flip u) = rev (neg (map norm_ppf u)).
Proof.
  intros H. unfold flip, neg. rewrite map_rev, !map_map. f_equal. apply map_ext_in. intros p Hp. now apply norm_ppf_sym, H.
Qed.
Lemma plotting_01 al n p : 0 <= al < 1 -> In p (plotting al n) -> 0 < p < 1.
Proof. intros Ha H. unfold plotting in H. apply in_map_iff in H as (i & <- & Hi). apply in_seq in Hi. apply pos_bounds; trivial. lia. Qed.
Lemma rj_norm_neg w al : 0 <= al < 1 -> rj_norm w al (neg l) = rj_norm w al l.
Proof.
  intros Ha. unfold rj_norm. cbv zeta. rewrite neg_length, rsort_neg.
  assert (L : length (rsort l) = length (plotting al (length l))) by (now rewrite rsort_length, plotting_length).
  set (u := plotting al (length l)) in *.
  assert (U : flip u = u) by (now apply plotting_flip).
  replace (if w then tie_averaged (rev (neg (rsort l))) u else u) with (flip (if w then tie_averaged (rsort l) u else u)).
  2: { destruct w; trivial. rewrite <- tie_averaged_flip by trivial. now rewrite U. }
  rewrite ppf_flip. rewrite pearsonr_rev, pearsonr_neg; trivial.
  1,2: rewrite ?neg_length, map_length; destruct w; now rewrite ?tie_averaged_length.
  intros p Hp. destruct w. apply (tie_averaged_01 (rsort l) u); trivial. intros q. now apply plotting_01. revert Hp. now apply plotting_01.
Qed.
Lemma sf_norm_neg : sf_norm (neg l) = sf_norm l.
Proof.
  unfold sf_norm. cbv zeta. rewrite neg_length, neg_varying, neg_ssq, dot_anti; trivial.
  apply antisym_opp, scores_antisym; lra. now rewrite map_length, scores_length.
Qed.
Lemma sum_pairs_neg f x : (forall a b, f (- a) (- b) = f a b) -> (forall a b, f a b = f b a) -> sum_pairs f (rsort (neg x)) = sum_pairs f (rsort x).
Proof.
  intros H S. rewrite rsort_neg. rewrite (sum_pairs_perm f (rev (neg (rsort x))) (neg (rsort x))); trivial. 2: symmetry; apply Permutation_rev.
  unfold neg. rewrite sum_pairs_map. apply sum_pairs_ext. intros. apply H.
Qed.
Lemma ep_norm_neg : ep_norm (neg l) = ep_norm l.
Proof.
  unfold ep_norm. cbv zeta. rewrite neg_match, neg_varying, neg_len, neg_var, sum_pairs_neg.
  - rewrite (Rsum_map_perm _ (rsort (neg l)) (neg (rsort l))) by (rewrite rsort_neg; symmetry; apply Permutation_rev).
    rewrite neg_mean. unfold neg. rewrite map_map. 
    rewrite (Rsum_map_ext (fun x => exp (- ((- x - - mean l) ^ 2 / (4 * np_var l)))) (fun x => exp (- ((x - mean l) ^ 2 / (4 * np_var l))))); trivial.
    intros. f_equal. f_equal. f_equal. ring.
  - intros. f_equal. f_equal. f_equal. ring.
  - intros. f_equal. f_equal. f_equal. ring.
Qed.
Lemma hosking_value_neg mu v3 v4 l2 l3 l4 : hosking_value mu v3 v4 l2 (- l3) l4 = hosking_value mu v3 v4 l2 l3 l4.
Proof. unfold hosking_value. unfold Rdiv. ring. Qed.
Lemma tlw_rev t r n : (2 <= r <= 4)%nat -> rev (tlw t r n) = map (fun x => (-1) ^ (r - 1) * x) (tlw t r n).
Proof.
  intros Hr. unfold tlw. rewrite <- seq_shift, !map_map, rev_seq_map. apply map_ext_in. intros i Hi. apply in_seq in Hi.
  rewrite <- pstarmod_sym by lia. f_equal. lia.
Qed.
Lemma dot_scal_l c w x : dot (map (fun v => c * v) w) x = c * dot w x.
Proof. unfold dot. revert x. induction w as [|a w IH]; intros [|y x]; cbn [map combine Rsum fst snd]; try ring. rewrite IH. ring. Qed.
Lemma tl_moment_neg t r : (1 <= t)%nat -> (2 <= r <= 4)%nat -> tl_moment t r (rsort (neg l)) = (-1) ^ r * tl_moment t r (rsort l).
Proof.
  intros Ht Hr. rewrite !tl_moment_dot by trivial. rewrite !rsort_length, neg_length.
  rewrite rsort_neg. rewrite <- dot_rev by (now rewrite tlw_length, rev_length, neg_length, rsort_length).
  rewrite rev_involutive, dot_neg_r, tlw_rev, dot_scal_l by trivial.
  replace ((-1) ^ r) with (- (-1) ^ (r - 1)). unfold Rdiv. ring.
  replace r with (S (r - 1)) at 2 by lia. simpl. ring.
Qed.
Lemma hosking_trimmed_neg t : (1 <= t)%nat -> hosking_trimmed t (neg l) = hosking_trimmed t l.
Proof.
  intros Ht. unfold hosking_trimmed. cbv zeta. rewrite neg_length. destruct (hosking_constants t (length l)) as [[mu v3] v4].
  rewrite !tl_moment_neg by lia. replace ((-1) ^ 2) with 1 by ring. replace ((-1) ^ 3) with (-1) by ring. replace ((-1) ^ 4) with 1 by ring.
  rewrite !Rmult_1_l. replace (-1 * tl_moment t 3 (rsort l)) with (- tl_moment t 3 (rsort l)) by ring. now rewrite hosking_value_neg.
Qed.
Lemma hosking2_neg : hosking2 (neg l) = hosking2 l.
Proof. unfold hosking2. now rewrite neg_length, hosking_trimmed_neg by lia. Qed.
Lemma hosking3_neg : hosking3 (neg l) = hosking3 l.
Proof. unfold hosking3, gt3. now rewrite neg_length, hosking_trimmed_neg by lia. Qed.
Lemma hosking4_neg : hosking4 (neg l) = hosking4 l.
Proof. unfold hosking4, gt3. now rewrite neg_length, hosking_trimmed_neg by lia. Qed.
Lemma imap_revneg_sum f x : Rsum (imap (fun i v => f (INR i) * v) (rev (neg x))) = - Rsum (imap (fun i v => f (len x - 1 - INR i) * v) x).
Proof.
  rewrite imap_rev, Rsum_rev. unfold neg at 2. rewrite imap_map, neg_length.
  rewrite (imap_ext_in _ (fun i v => (-1) * (f (len x - 1 - INR i) * v))). rewrite Rsum_imap_scal. ring.
  intros i v Hi. rewrite INR_rev by trivial. fold (len x). ring.
Qed.
Lemma pwm_neg x : (3 < length x)%nat -> pwm (rev (neg x)) =
  let '(b0, b1, b2, b3) := pwm x in (- b0, - (b0 - b1), - (b0 - 2 * b1 + b2), - (b0 - 3 * b1 + 3 * b2 - b3)).
Proof.
  intros H. apply len_ge4 in H. unfold pwm. cbv zeta.
  replace (len (rev (neg x))) with (len x) by (unfold len; now rewrite rev_length, neg_length).
  rewrite (imap_revneg_sum (fun t => t)), (imap_revneg_sum (fun t => t * (t - 1))), (imap_revneg_sum (fun t => t * (t - 1) * (t - 2))).
  rewrite Rsum_rev. unfold neg. rewrite Rsum_opp. set (n := len x) in *.
  set (s1 := Rsum (imap (fun i v => INR i * v) x)). set (s2 := Rsum (imap (fun i v => INR i * (INR i - 1) * v) x)).
  set (s3 := Rsum (imap (fun i v => INR i * (INR i - 1) * (INR i - 2) * v) x)).
  assert (E1 : Rsum (imap (fun i v => (n - 1 - INR i) * v) x) = (n - 1) * Rsum x - s1).
  { unfold s1. rewrite <- (map_id x) at 2. rewrite <- (Rsum_imap_val (fun v => v) x), <- Rsum_imap_scal, <- Rsum_imap_minus. apply Rsum_imap_ext. intros; ring. }
  assert (E2 : Rsum (imap (fun i v => (n - 1 - INR i) * (n - 1 - INR i - 1) * v) x) = (n - 1) * (n - 2) * Rsum x - 2 * (n - 2) * s1 + s2).
  { unfold s1, s2. rewrite <- (map_id x) at 2. rewrite <- (Rsum_imap_val (fun v => v) x), <- !Rsum_imap_scal, <- Rsum_imap_minus, <- Rsum_imap_plus.
    apply Rsum_imap_ext. intros; ring. }
  assert (E3 : Rsum (imap (fun i v => (n - 1 - INR i) * (n - 1 - INR i - 1) * (n - 1 - INR i - 2) * v) x)
    = (n - 1) * (n - 2) * (n - 3) * Rsum x - 3 * (n - 2) * (n - 3) * s1 + 3 * (n - 3) * s2 - s3).
  { unfold s1, s2, s3. rewrite <- (map_id x) at 2. rewrite <- (Rsum_imap_val (fun v => v) x), <- !Rsum_imap_scal, <- Rsum_imap_minus, <- Rsum_imap_plus, <- Rsum_imap_minus.
    apply Rsum_imap_ext. intros; ring. }
  rewrite E1, E2, E3. f_equal; [f_equal; [f_equal|]|]; field; lra.
Qed.
Lemma hosking1_neg : hosking1 (neg l) = hosking1 l.
Proof.
  unfold hosking1. apply gt3_ext. apply neg_length. rewrite neg_length. intros H. rewrite rsort_neg, pwm_neg by (now rewrite rsort_length).
  destruct (pwm (rsort l)) as [[[b0 b1] b2] b3]. destruct (hosking_constants 0 (length l)) as [[mu v3] v4]. cbv zeta.
  replace (2 * - (b0 - b1) - - b0) with (2 * b1 - b0) by ring.
  replace (6 * - (b0 - 2 * b1 + b2) - 6 * - (b0 - b1) + - b0) with (- (6 * b2 - 6 * b1 + b0)) by ring.
  replace (20 * - (b0 - 3 * b1 + 3 * b2 - b3) - 30 * - (b0 - 2 * b1 + b2) + 12 * - (b0 - b1) - - b0) with (20 * b3 - 30 * b2 + 12 * b1 - b0) by ring.
  now rewrite hosking_value_neg.
Qed.
Lemma phiz_01 p : In p (phiz l) -> 0 < p < 1.
Proof. unfold phiz. intros H. rewrite rsort_in in H. apply in_map_iff in H as (z & <- & _). apply norm_cdf_bounds. Qed.
Lemma imap_flip_sum f g u : (forall i v, (i < length u)%nat -> In v u -> f (length u - 1 - i)%nat (1 - v) = g i v) -> Rsum (imap f (flip u)) = Rsum (imap g u).
Proof.
  intros H. unfold flip. rewrite imap_rev, Rsum_rev, map_length, imap_map. f_equal.
  rewrite !(imap_seq _ u 0). apply map_ext_in. intros i Hi. apply in_seq in Hi. apply H. lia. apply nth_In. lia.
Qed.
Lemma zwa_neg : zwa (neg l) = zwa l.
Proof.
  unfold zwa. cbv zeta. apply gt3_ext. apply neg_length. intros _. rewrite neg_varying, neg_len, phiz_neg.
  rewrite (imap_flip_sum _ (fun i p => ln p / (len l - INR (S i) + 0.5) + ln (1 - p) / (INR (S i) - 0.5))); trivial.
  intros i v Hi _. rewrite phiz_length in *. rewrite !S_INR, INR_rev by trivial. fold (len l). replace (1 - (1 - v)) with v by ring.
  replace (len l - (len l - 1 - INR i + 1) + 0.5) with (INR i + 1 - 0.5) by lra. replace (len l - 1 - INR i + 1 - 0.5) with (len l - (INR i + 1) + 0.5) by lra. ring.
Qed.
Lemma zwc_neg : zwc (neg l) = zwc l.
Proof.
  unfold zwc. cbv zeta. apply gt3_ext. apply neg_length. intros _. rewrite neg_varying, neg_len, phiz_neg.
  rewrite (imap_flip_sum _ (fun i p => ln ((1 / p - 1) / ((len l - 0.5) / (INR (S i) - 0.75) - 1)) ^ 2)); trivial.
  intros i v Hi Hv. apply phiz_01 in Hv. rewrite phiz_length in *. rewrite !S_INR, INR_rev by trivial. fold (len l).
  assert (Hl : INR i + 1 <= len l) by (unfold len; rewrite <- S_INR; apply le_INR; lia). pose proof (pos_INR i).
  replace 0.5 with (1 / 2) by lra. replace 0.75 with (3 / 4) by lra. set (i' := INR i) in *. set (n := len l) in *.
  assert (A1 : (1 / (1 - v) - 1) = v / (1 - v)) by (field; lra). assert (A2 : 1 / v - 1 = (1 - v) / v) by (field; lra).
  assert (B1 : (n - 1 / 2) / (n - 1 - i' + 1 - 3 / 4) - 1 = (i' + 1 / 4) / (n - i' - 3 / 4)) by (field; lra).
  assert (B2 : (n - 1 / 2) / (i' + 1 - 3 / 4) - 1 = (n - i' - 3 / 4) / (i' + 1 / 4)) by (field; lra).
  rewrite A1, A2, B1, B2.
  assert (Q : v / (1 - v) / ((i' + 1 / 4) / (n - i' - 3 / 4)) = / ((1 - v) / v / ((n - i' - 3 / 4) / (i' + 1 / 4)))) by (field; lra).
  rewrite Q, ln_Rinv. ring. repeat (apply Rdiv_lt_0_compat); lra.
Qed.
Lemma binomial p q n : Rsum (map (fun k => INR (choose n k) * p ^ k * q ^ (n - k)) (seq 0 (S n))) = (p + q) ^ n.
Proof.
  induction n as [|n IH]. simpl. ring.
  change (seq 0 (S (S n))) with (0%nat :: seq 1 (S n)). cbn [map Rsum]. rewrite choose_0. rewrite <- seq_shift, map_map.
  rewrite (Rsum_map_ext _ (fun k => p * (INR (choose n k) * p ^ k * q ^ (n - k)) + INR (choose n (S k)) * p ^ (S k) * q ^ (n - k))).
  2: { intros k _. rewrite choose_SS, plus_INR. simpl. ring. }
  rewrite (Rsum_map_plus (fun k => p * _)), Rsum_map_scal, IH.
  assert (E : INR 1 * p ^ 0 * q ^ (S n - 0) + Rsum (map (fun k => INR (choose n (S k)) * p ^ S k * q ^ (n - k)) (seq 0 (S n))) = q * (p + q) ^ n).
  { rewrite <- IH. rewrite seq_S at 1. rewrite map_app, Rsum_app. simpl plus. cbn [map Rsum]. rewrite choose_gt by lia.
    change (seq 0 (S n)) with (0%nat :: seq 1 n). rewrite <- seq_shift. cbn [map Rsum]. rewrite map_map, choose_0, Rmult_plus_distr_l, <- Rsum_map_scal.
    rewrite (Rsum_map_ext (fun k => q * _) (fun k => INR (choose n (S k)) * p ^ S k * q ^ (n - k))).
    simpl. rewrite ?Nat.sub_0_r. ring. intros k Hk. apply in_seq in Hk. replace (n - k)%nat with (S (n - S k)) by lia. simpl. ring. }
  rewrite <- Rplus_assoc, (Rplus_comm (INR 1 * _ * _)), Rplus_assoc, E. simpl. ring.
Qed.
Lemma choose_sym n k : (k <= n)%nat -> choose n (n - k) = choose n k.
Proof.
  revert k. induction n as [|n IH]; intros [|k] H; trivial; try lia.
  - rewrite Nat.sub_0_r, choose_diag. reflexivity.
  - rewrite choose_SS. destruct (Nat.eq_dec k n) as [->|E]. rewrite Nat.sub_diag, choose_0, choose_diag, choose_gt by lia. reflexivity.
    replace (S n - S k)%nat with (S (n - S k)) by lia. rewrite choose_SS, IH by lia. replace (S (n - S k)) with (n - k)%nat by lia. rewrite IH by lia. lia.
Qed.
Lemma beta_cdf_flip n i p : (1 <= i <= n)%nat -> beta_cdf n i (1 - p) = 1 - beta_cdf n (S n - i) p.
Proof.
  intros Hi. pose proof (binomial p (1 - p) n) as B. replace (p + (1 - p)) with 1 in B by ring. rewrite pow1 in B.
  replace (S n) with (S n - i + i)%nat in B at 1 by lia. rewrite seq_app, map_app, Rsum_app, Nat.add_0_l in B.
  unfold beta_cdf at 2. replace (S n - (S n - i))%nat with i by lia.
  match type of B with ?u + ?v = 1 => assert (G : beta_cdf n i (1 - p) = u); [|lra] end.
  unfold beta_cdf. rewrite <- Rsum_rev. rewrite <- seq_middle, rev_seq_map. f_equal. apply map_ext_in. intros k Hk. apply in_seq in Hk.
  replace (S n - i - 1 - k + i)%nat with (n - k)%nat by lia. rewrite choose_sym by lia. replace (n - (n - k))%nat with k by lia. replace (1 - (1 - p)) with p by ring. ring.
Qed.
Lemma glb_neg : glb (neg l) = glb l.
Proof.
  unfold glb. cbv zeta. apply gt3_ext. apply neg_length. intros _. rewrite neg_varying, neg_length, phiz_neg.
  set (n := length l). set (b := imap (fun i p => beta_cdf n (S i) p) (phiz l)).
  assert (E : imap (fun i p => beta_cdf n (S i) p) (flip (phiz l)) = flip b).
  { rewrite (imap_flip _ (fun i p => 1 - beta_cdf n (S i) p)). unfold flip, b. now rewrite map_imap.
    intros i v Hi. rewrite phiz_length in *. fold n in Hi |- *. rewrite beta_cdf_flip by lia. f_equal. f_equal. lia. }
  rewrite E, rsort_flip.
  assert (Lb : length (rsort b) = n) by (unfold b; now rewrite rsort_length, imap_length, phiz_length).
  rewrite (imap_flip_sum _ (fun i p => (2 * INR n + 1 - 2 * INR (S i)) * ln p + (2 * INR (S i) - 1) * ln (1 - p))); trivial.
  intros i v Hi _. rewrite Lb in *. rewrite !S_INR, INR_rev by trivial. replace (1 - (1 - v)) with v by ring. ring.
Qed.
Lemma dh_neg : dh (neg l) = dh l.
Proof.
  unfold dh. cbv zeta. rewrite neg_length, neg_varying, neg_skewness, neg_kurt.
  assert (Q : forall n s k, dh_q n (- s) k = dh_q n s k) by (intros; unfold dh_q; replace ((- s) ^ 2) with (s ^ 2) by ring; reflexivity).
  assert (A : forall n s, dh_alpha n (- s) = dh_alpha n s) by (intros; unfold dh_alpha; replace ((- s) ^ 2) with (s ^ 2) by ring; reflexivity).
  rewrite Q, A. unfold dh_z2. rewrite Q, A, sk_y_odd, sk_z_odd. set (s := sk_z _ _). replace ((- s) ^ 2) with (s ^ 2) by ring. reflexivity.
Qed.
Lemma neg_nonempty : nonempty (neg l) = nonempty l. Proof. unfold nonempty. now rewrite neg_length. Qed.
Lemma neg_median x : x <> [] -> median (neg x) = - median x.
Proof.
  intros H. unfold median. cbv zeta. rewrite rsort_neg, neg_length.
  assert (0 < length x)%nat by (destruct x; [easy | simpl; lia]).
  assert (N : forall i, (i < length x)%nat -> nth i (rev (neg (rsort x))) 0 = - nth (length x - 1 - i) (rsort x) 0).
  { intros i Hi. rewrite rev_nth by (now rewrite neg_length, rsort_length). rewrite neg_length, rsort_length. unfold neg.
    rewrite <- (Ropp_0) at 1. rewrite map_nth. f_equal. f_equal. lia. }
  pose proof (Nat.div_mod (length x) 2 ltac:(lia)) as D. pose proof (half_lt (length x) ltac:(lia)).
  destruct (Nat.even (length x)) eqn:Ev.
  - assert (M : (length x mod 2 = 0)%nat). { apply Nat.even_spec in Ev as [m ->]. rewrite Nat.mul_comm. apply Nat.mod_mul. lia. }
    rewrite !N by lia. replace (length x - 1 - length x / 2)%nat with (length x / 2 - 1)%nat by lia.
    replace (length x - 1 - (length x / 2 - 1))%nat with (length x / 2)%nat by lia. unfold Rdiv. ring.
  - assert (M : (length x mod 2 = 1)%nat).
    { rewrite <- Nat.negb_odd in Ev. apply Bool.negb_false_iff, Nat.odd_spec in Ev as [m E]. rewrite E, Nat.add_comm, Nat.mul_comm, Nat.mod_add; [reflexivity|lia]. }
    rewrite N by lia. f_equal. f_equal. lia.
Qed.
Lemma neg_mad c x : mean_abs_dev (- c) (neg x) = mean_abs_dev c x.
Proof.
  unfold mean_abs_dev. f_equal. unfold neg. rewrite map_map. apply map_ext. intros v. rewrite <- Rabs_Ropp. f_equal. ring.
Qed.
Lemma neg_jn : l <> [] -> mean_abs_dev (median (neg l)) (neg l) = mean_abs_dev (median l) l.
Proof. intros H. now rewrite neg_median, neg_mad. Qed.
Lemma rjb_neg : rjb (neg l) = rjb l.
Proof.
  unfold rjb. cbv zeta. rewrite neg_nonempty, neg_len. destruct l as [|x l0] eqn:E; [reflexivity|]. rewrite <- E. rewrite neg_jn by (now subst).
  apply num_ext; trivial. intros _. rewrite !neg_moment. unfold Rdiv. ring.
Qed.
Lemma sum_map_neg_odd h z : (forall x, h (- x) = - h x) -> Rsum (map h (neg z)) = - Rsum (map h z).
Proof. intros H. unfold neg. rewrite map_map, <- Rsum_map_opp. apply Rsum_map_ext. auto. Qed.
Lemma sum_map_neg_even h z : (forall x, h (- x) = h x) -> Rsum (map h (neg z)) = Rsum (map h z).
Proof. intros H. unfold neg. rewrite map_map. apply Rsum_map_ext. auto. Qed.
Lemma h3_odd x : h3 (- x) = - h3 x. Proof. unfold h3, Rdiv. ring. Qed.
Lemma h4_even x : h4 (- x) = h4 x. Proof. unfold h4, Rdiv. ring. Qed.
Lemma h5_odd x : h5 (- x) = - h5 x. Proof. unfold h5, Rdiv. ring. Qed.
Lemma h6_even x : h6 (- x) = h6 x. Proof. unfold h6, Rdiv. ring. Qed.
Lemma bm1_neg : bm1 (neg l) = bm1 l.
Proof.
  unfold bm1. cbv zeta. apply gt3_ext. apply neg_length. intros _. rewrite neg_varying, neg_sd_moments, neg_zscores, neg_len.
  rewrite (sum_map_neg_odd h3 _ h3_odd), (sum_map_neg_even h4 _ h4_even). apply num_ext; trivial. intros _. unfold Rdiv. ring.
Qed.
Lemma bm2_neg : bm2 (neg l) = bm2 l.
Proof.
  unfold bm2. cbv zeta. apply gt3_ext. apply neg_length. intros _. rewrite neg_varying, neg_sd1, neg_zscores, neg_len.
  rewrite (sum_map_neg_odd h3 _ h3_odd), (sum_map_neg_even h4 _ h4_even), (sum_map_neg_odd h5 _ h5_odd), (sum_map_neg_even h6 _ h6_even).
  apply num_ext; trivial. intros _. unfold Rdiv. ring.
Qed.
Lemma bs_neg : bs (neg l) = bs l.
Proof. unfold bs, gt3. cbv zeta. now rewrite neg_length, neg_varying, neg_len, neg_var, neg_mean, neg_mad. Qed.
Lemma mi_neg : mi (neg l) = mi l.
Proof.
  unfold mi. cbv zeta. apply gt3_ext. apply neg_length. rewrite neg_length. intros H. apply gt3_ne in H. rewrite neg_median, neg_len by trivial.
  set (d := map (fun x => x - median l) l).
  assert (E : map (fun x => x - - median l) (neg l) = neg d) by (unfold neg, d; rewrite !map_map; apply map_ext; intros; ring).
  rewrite E. assert (E2 : map Rabs (neg d) = map Rabs d) by (unfold neg; rewrite map_map; apply map_ext; intros; apply Rabs_Ropp).
  rewrite E2. set (q := 9 * median (map Rabs d)).
  assert (Q : forall x, (- x / q) ^ 2 = (x / q) ^ 2) by (intros; unfold Rdiv; ring).
  rewrite (sum_map_neg_even (fun x => x ^ 2 * (1 - (x / q) ^ 2) ^ 4)) by (intros; rewrite Q; ring).
  rewrite (sum_map_neg_even (fun x => (1 - (x / q) ^ 2) * (1 - 5 * (x / q) ^ 2))) by (intros; rewrite Q; ring).
  rewrite (sum_map_neg_even (fun x => x ^ 2)) by (intros; ring). reflexivity.
Qed.
Lemma diff_snoc x y z : diff (x ++ [y; z]) = diff (x ++ [y]) ++ [z - y].
Proof.
  induction x as [|a x IH]; trivial. destruct x as [|b x]; trivial. cbn [app diff] in *. now rewrite IH.
Qed.
Lemma diff_rev x : diff (rev x) = rev (neg (diff x)).
Proof.
  induction x as [|a x IH]; trivial. destruct x as [|b x]; trivial. cbn [rev]. rewrite <- app_assoc. cbn [app]. rewrite diff_snoc.
  change (rev x ++ [b]) with (rev (b :: x)). rewrite IH. unfold neg. cbn [diff map rev]. f_equal. f_equal. ring.
Qed.
Lemma diff_neg x : diff (neg x) = neg (diff x).
Proof. rewrite neg_aff, diff_aff. unfold neg. apply map_ext. intros; ring. Qed.
Lemma neg_neg x : neg (neg x) = x.
Proof. unfold neg. rewrite map_map. rewrite (map_ext _ (fun v => v)) by (intros; ring). apply map_id. Qed.
Lemma diff_length x : length (diff x) = (length x - 1)%nat.
Proof. induction x as [|a x IH]; trivial. destruct x as [|b x]; trivial. cbn [diff length] in *. rewrite IH. lia. Qed.
Lemma diff_anti w : antisym w -> rev (diff w) = diff w.
Proof.
  intros A. assert (E : w = rev (neg w)) by (unfold neg; rewrite <- A; now rewrite rev_involutive). rewrite E at 2. rewrite diff_rev, diff_neg, neg_neg. reflexivity.
Qed.
Lemma cs_neg : cs (neg l) = cs l.
Proof.
  unfold cs. cbv zeta. apply gt3_ext. apply neg_length. intros _. rewrite neg_varying, neg_length, neg_len, neg_sd1, rsort_neg, diff_rev, diff_neg, neg_neg.
  rewrite <- (diff_anti (scores 0.375 (length l))) by (apply scores_antisym; lra).
  rewrite combine_rev, map_rev, Rsum_rev. rewrite (diff_anti (scores 0.375 (length l))) by (apply scores_antisym; lra). reflexivity.
  now rewrite !diff_length, rsort_length, scores_length.
Qed.
Lemma zq_neg : zq (neg l) = zqs l.
Proof.
  unfold zq, zqs. cbv zeta. apply gt3_ext. apply neg_length. intros _. rewrite neg_length, rsort_neg.
  replace (rev (neg (rsort l))) with (neg (rev (rsort l))) by (unfold neg; now rewrite map_rev). now rewrite !dot_neg_r.
Qed.
Lemma coin_antisym n : antisym (coin_a n).
Proof.
  unfold coin_a. apply antisym_seq. intros i Hi. pose proof (Nat.div_mod n 2 ltac:(lia)) as D. pose proof (Nat.mod_upper_bound n 2 ltac:(lia)).
  pose proof (Nat.bit0_mod n) as B. rewrite Nat.bit0_odd in B.
  destruct (Nat.odd n) eqn:O; cbn [andb]; [change (1 = n mod 2)%nat in B | change (0 = n mod 2)%nat in B].
  - destruct (Nat.ltb_spec (n - 1 - i) (n / 2)), (Nat.ltb_spec i (n / 2)), (Nat.eqb_spec (n - 1 - i) (n / 2)), (Nat.eqb_spec i (n / 2)); try lia; try lra.
    + replace (n - i - 1)%nat with (n - 1 - i)%nat by lia. reflexivity.
    + replace (n - (n - 1 - i) - 1)%nat with i by lia. ring.
  - destruct (Nat.ltb_spec (n - 1 - i) (n / 2)), (Nat.ltb_spec i (n / 2)); try lia.
    + replace (n - i - 1)%nat with (n - 1 - i)%nat by lia. reflexivity.
    + replace (n - (n - 1 - i) - 1)%nat with i by lia. ring.
Qed.
Lemma coin_a_length n : length (coin_a n) = n. Proof. unfold coin_a. now rewrite map_length, seq_length. Qed.
Lemma coin_neg : coin (neg l) = coin l.
Proof.
  unfold coin. cbv zeta. apply gt3_ext. apply neg_length. intros _. rewrite neg_varying, neg_length, neg_sd_moments, neg_zscores.
  rewrite !dot_anti; trivial. apply antisym_map. intros; ring. apply coin_antisym.
  2: apply antisym_map; [intros; ring | apply coin_antisym].
  all: unfold zscores; now rewrite !map_length, coin_a_length.
Qed.
Lemma dagostino_d_neg : dagostino_d (neg l) = dagostino_d l.
Proof.
  unfold dagostino_d. cbv zeta. rewrite neg_len.
  rewrite (Rsum_map_perm (fun v => v ^ 2) (rsort (neg l)) (neg (rsort l))) by (rewrite rsort_neg; symmetry; apply Permutation_rev).
  rewrite neg_sumsq. rewrite (Rsum_perm (rsort (neg l)) (neg (rsort l))) by (rewrite rsort_neg; symmetry; apply Permutation_rev).
  unfold neg at 2. rewrite Rsum_opp. rewrite rsort_neg.
  rewrite (imap_ext (fun i v => (INR (S i) - 0.5 * (len l + 1)) * v) (fun i v => (fun t => t + 1 - 0.5 * (len l + 1)) (INR i) * v)) by (intros; rewrite S_INR; ring).
  rewrite (imap_revneg_sum (fun t => t + 1 - 0.5 * (len l + 1))), len_rsort.
  rewrite (imap_ext _ (fun i v => (-1) * ((INR (S i) - 0.5 * (len l + 1)) * v))).
  2: { intros. rewrite S_INR. replace 0.5 with (1 / 2) by lra. field. }
  rewrite Rsum_imap_scal. f_equal; [ring|]. f_equal. f_equal. unfold Rdiv. ring.
Qed.
Lemma dagostino_neg : dagostino (neg l) = dagostino l.
Proof. unfold dagostino, gt3. now rewrite neg_length, neg_varying, neg_len, dagostino_d_neg. Qed.
Lemma swrg_neg : swrg (neg l) = swrg l.
Proof.
  unfold swrg. cbv zeta. apply gt3_ext. apply neg_length. intros _. rewrite neg_length, neg_varying, neg_ssq, dot_anti; trivial.
  apply antisym_map. intros; unfold Rdiv; ring. apply wrg_star_antisym. now rewrite map_length, wrg_star_length.
Qed.
Lemma gmg_neg : gmg (neg l) = gmg l.
Proof.
  unfold gmg. cbv zeta. apply gt3_ext. apply neg_length. rewrite neg_length. intros H. apply gt3_ne in H. now rewrite neg_jn, neg_var.
Qed.
Lemma Rmaxl_neg x : x <> [] -> Rmaxl 0 (neg x) = - Rminl 0 x.
Proof.
  intros H. apply Rmaxl_unique. apply in_map, Rminl_in; trivial. intros y Hy. apply in_map_iff in Hy as (z & <- & Hz). apply Ropp_le_contravar, Rminl_le; trivial.
Qed.
Lemma Rminl_neg x : x <> [] -> Rminl 0 (neg x) = - Rmaxl 0 x.
Proof.
  intros H. apply Rminl_unique. apply in_map, Rmaxl_in; trivial. intros y Hy. apply in_map_iff in Hy as (z & <- & Hz). apply Ropp_le_contravar, Rmaxl_ge; trivial.
Qed.
Lemma sh_neg : sh (neg l) = sh l.
Proof.
  unfold sh. cbv zeta. apply gt3_ext. apply neg_length. rewrite neg_length. intros H. apply gt3_ne in H.
  rewrite neg_varying, neg_sd1, neg_mean, Rmaxl_neg, Rminl_neg by trivial.
  replace (- Rminl 0 l - - Rmaxl 0 l) with (Rmaxl 0 l - Rminl 0 l) by ring.
  unfold neg. rewrite map_map. rewrite (map_ext (fun x => Rabs (- x - - mean l)) (fun x => Rabs (x - mean l))). reflexivity.
  intros x. rewrite <- Rabs_Ropp. f_equal. ring.
Qed.
Lemma dldm_neg : dldm (neg l) = dldm l.
Proof.
  unfold dldm. cbv zeta. apply gt3_ext. apply neg_length. intros _. rewrite neg_varying, neg_len, neg_sumsq, neg_mean.
  replace ((- mean l) ^ 2) with (mean l ^ 2) by ring. rewrite neg_zscores. set (z := zscores _ l).
  rewrite (sum_map_neg_even (fun v => v ^ 2 * ln (Rabs v))) by (intros; rewrite Rabs_Ropp; ring).
  rewrite (sum_map_neg_even (fun v => ln (1 + Rabs v))) by (intros; now rewrite Rabs_Ropp).
  rewrite (sum_map_neg_even (fun v => ln (ln (2.71828182846 + Rabs v)))) by (intros; now rewrite Rabs_Ropp).
  replace (forallb (fun v => negb (Reqb v 0)) (neg z)) with (forallb (fun v => negb (Reqb v 0)) z); trivial.
  unfold neg. clear. induction z as [|x z IH]; trivial. cbn [map forallb]. rewrite IH. f_equal. f_equal.
  destruct (Reqb_spec x 0), (Reqb_spec (- x) 0); trivial; lra.
Qed.
End Stats.
Lemma zqs_neg l : zqs (neg l) = zq l.
Proof. rewrite <- zq_neg. now rewrite neg_neg. Qed.
