(** Sorting powers, positive scale estimates and counterexamples for the Weibull statistics. *)
From Coq Require Import String.
From Verif Require Import Base DecModel EdfModel EdfSpec GraphModel RegistryModel ExpModel NormModel WeibullModel WeibullSpec SamplerSpec Analysis EdfProofs EdfRotProofs EdfPowerProofs NormProofs NormRangeProofs NormFiniteProofs NormAffProofs NormBoundProofs NormSymProofs NormReflProofs ExpProofs WeibullProofs WeibullInvProofs WeibullFitProofs WeibullRangeProofs.
From Coq Require Import Lra Lia Psatz.
Local Open Scope R_scope.

(** *** sorting after x -> x^c *)
Lemma sorted_powered c l : 0 < c -> all_positive l -> sortedR l -> sortedR (map (fun x => Rpower x c) l).
Proof.
  intros Hc P. induction 1 as [|x l Hs IH Hf]; [constructor|]. cbn [map]. constructor; [apply IH; intros y Hy; apply P; now right|].
  rewrite Forall_forall in *. intros y Hy. apply in_map_iff in Hy as (z & <- & Hz). apply Rle_Rpower_l; [lra|]. split; [apply P; now left|now apply Hf].
Qed.
Lemma rsort_powered c l : 0 < c -> all_positive l -> rsort (map (fun x => Rpower x c) l) = map (fun x => Rpower x c) (rsort l).
Proof.
  intros Hc H. rewrite <- (rsort_id (map (fun x => Rpower x c) (rsort l))) by (apply sorted_powered; [trivial|now apply all_positive_rsort|apply rsort_sorted]).
  apply rsort_perm_eq, Permutation_map. symmetry. apply rsort_perm.
Qed.
Lemma cdf_vals_powered a k c l : 0 < c -> all_positive l ->
  map (weibull_cdf a (k / c)) (rsort (map (fun x => Rpower x c) l)) = map (weibull_cdf a k) (rsort l).
Proof.
  intros Hc P. rewrite rsort_powered by trivial. rewrite map_map. apply map_ext_in. intros x Hx. apply weibull_power; trivial. now apply (all_positive_rsort l P).
Qed.
(** *** the Ozturk-Korukoglu scale estimate *)
Lemma ok_sig_pos y : NoDup y -> (3 <= length y)%nat -> 0 < ok_sig (rsort y).
Proof.
  intros Hd Hn. unfold ok_sig, len. rewrite rsort_length. assert (L1 : 3 <= INR (length y)) by (apply (le_INR 3) in Hn; simpl in Hn; lra).
  assert (0 < ln 2) by (rewrite <- ln_1; apply ln_increasing; lra).
  apply Rdiv_lt_0_compat; [|apply Rmult_lt_0_compat; lra]. set (w := map _ (seq 0 (length y))).
  assert (Ew : forall i, (i < length y)%nat -> nth i w 0 = 2 * INR i + 1 - INR (length y)) by (intros i Hi; unfold w; rewrite nth_map_seq, S_INR by trivial; ring).
  pose proof (Nat.div_mod (length y) 2 ltac:(lia)). pose proof (Nat.mod_upper_bound (length y) 2 ltac:(lia)).
  apply (sign_weights_pos w y (S (length y / 2))); trivial.
  - unfold w. now rewrite map_length, seq_length.
  - apply antisym_sum. apply antisym_seq. intros i Hi. rewrite !S_INR, INR_rev by trivial. ring.
  - intros i Hi Q. rewrite Ew by trivial. apply le_INR in Q. rewrite plus_INR, mult_INR in Q. simpl (INR 2) in Q. simpl (INR 1) in Q. lra.
  - intros i Hi Q. rewrite Ew by trivial. apply le_INR in Q. rewrite plus_INR, mult_INR in Q. simpl (INR 2) in Q. simpl (INR 1) in Q. lra.
  - lia.
  - rewrite Ew by lia. assert (Q : (length y + 1 <= 2 * S (length y / 2))%nat) by lia. apply le_INR in Q. rewrite plus_INR, mult_INR in Q. simpl (INR 2) in Q. simpl (INR 1) in Q. lra.
Qed.
(** *** plotting positions *)
Lemma double_log_strict p q : 0 < p -> p < q -> q < 1 -> ln (- ln (1 - p)) < ln (- ln (1 - q)).
Proof.
  intros Hp H Hq. assert (ln (1 - q) < ln (1 - p)) by (apply ln_increasing; lra). assert (ln (1 - p) < 0) by (rewrite <- ln_1; apply ln_increasing; lra). apply ln_increasing; lra.
Qed.
Lemma rsb_scores_strict n i j : (i < j < n)%nat -> nth i (rsb_scores n) 0 < nth j (rsb_scores n) 0.
Proof.
  intros [H1 H2]. unfold rsb_scores. rewrite !nth_map_seq by lia. rewrite !S_INR. apply lt_INR in H1. apply le_INR in H2. rewrite S_INR in H2. pose proof (pos_INR i).
  set (n' := INR n) in *. apply double_log_strict.
  - apply Rdiv_lt_0_compat; lra.
  - apply Rmult_lt_compat_r; [apply Rinv_0_lt_compat|]; lra.
  - apply (Rmult_lt_reg_r (n' + 1)); [lra|]. unfold Rdiv. rewrite Rmult_assoc, Rinv_l; lra.
Qed.
Lemma rejg_scores_strict n i j : (i < j < n)%nat -> nth i (rejg_scores n 1) 0 < nth j (rejg_scores n 1) 0.
Proof.
  intros [H1 H2]. unfold rejg_scores. rewrite !nth_map_seq by lia. rewrite !S_INR. apply lt_INR in H1. apply le_INR in H2. rewrite S_INR in H2. pose proof (pos_INR i).
  set (n' := INR n) in *. unfold Rdiv at 1 3. rewrite Rinv_1, !Rmult_1_r. apply double_log_strict.
  - apply Rdiv_lt_0_compat; lra.
  - apply Rmult_lt_compat_r; [apply Rinv_0_lt_compat|]; lra.
  - apply (Rmult_lt_reg_r (n' + 0.365)); [lra|]. unfold Rdiv. rewrite Rmult_assoc, Rinv_l; lra.
Qed.
Lemma scores_varying (m : list R) : (2 <= length m)%nat -> (forall i j, (i < j < length m)%nat -> nth i m 0 < nth j m 0) -> varying m = true.
Proof.
  intros Hn H. apply varying_pos. apply (two_values m (nth 0 m 0) (nth 1 m 0)); [apply nth_In; lia|apply nth_In; lia|]. specialize (H 0%nat 1%nat ltac:(lia)). lra.
Qed.
(** *** Kullback-Leibler windows *)
Lemma kl_windows l : all_positive l -> NoDup l -> (2 <= length l)%nat ->
  forallb (fun i => Rltb 0 (kl_window (map ln (rsort l)) i)) (seq 0 (length l)) = true.
Proof.
  intros P D Hn. apply forallb_forall. intros i Hi. apply in_seq in Hi. unfold kl_window. rewrite <- ln_sorted by trivial. rewrite rsort_length, map_length.
  assert (DN : NoDup (map ln l)) by now apply nodup_ln. pose proof (Nat.div_mod (length l) 2 ltac:(lia)). pose proof (Nat.mod_upper_bound (length l) 2 ltac:(lia)).
  set (h := (length l / 2)%nat) in *. pose proof (nodup_nth_lt (map ln l) (i - h) (Nat.min (length l - 1) (i + h)) DN) as K. rewrite map_length in K.
  destruct (Rltb_spec 0 (nth (Nat.min (length l - 1) (i + h)) (rsort (map ln l)) 0 - nth (i - h) (rsort (map ln l)) 0)); trivial. specialize (K ltac:(lia)). lra.
Qed.
(** *** the sample on which the Kullback-Leibler statistic is negative *)
Definition kl_witness : list R := exp (-19) :: repeat 1 38 ++ [exp 2].
Lemma kl_witness_logs : map ln (rsort kl_witness) = -19 :: repeat 0 38 ++ [2].
Proof.
  assert (P : all_positive kl_witness).
  { intros x [<-|H]; [apply exp_pos|]. apply in_app_or in H as [H|[<-|[]]]; [apply repeat_spec in H; lra|apply exp_pos]. }
  rewrite <- ln_sorted by trivial. unfold kl_witness. cbn [map]. rewrite ln_exp, map_app. cbn [map repeat app]. rewrite ln_1, ln_exp. apply rsort_id.
  repeat (constructor; [|repeat (constructor; [lra|]); constructor]). constructor.
Qed.
Lemma ln_of_pow (a : R) (j k : nat) : 1 < a -> 3 ^ k <= a ^ j -> INR k <= INR j * ln a.
Proof.
  intros Ha H. assert (3 ^ k = 3 ^ k) by trivial. rewrite <- ln_pow by lra. rewrite <- (ln_exp (INR k)). apply ln_le; [apply exp_pos|].
  apply Rle_trans with (2 := H). clear H H0. induction k as [|k IH]; [simpl; rewrite exp_0; lra|]. rewrite S_INR, exp_plus. cbn [pow].
  pose proof exp_le_3. pose proof (exp_pos 1). pose proof (exp_pos (INR k)). nra.
Qed.
Lemma kl_negative : exists v, kl_weibull kl_witness = Ok (Some (Fin v)) /\ v < 0.
Proof.
  unfold kl_weibull. rewrite kl_witness_logs. change (length kl_witness) with 40%nat. change (40 =? 1)%nat with false. cbv iota zeta.
  set (s := -19 :: repeat 0 38 ++ [2]).
  assert (A : all_pos kl_witness = true).
  { apply all_pos_iff. intros x [<-|H]; [apply exp_pos|]. apply in_app_or in H as [H|[<-|[]]]; [apply repeat_spec in H; lra|apply exp_pos]. }
  assert (K : map (kl_window s) (seq 0 40) = repeat 19 19 ++ [21; 21] ++ repeat 2 19).
  { cbv [kl_window s seq map nth length Nat.min Nat.sub Nat.add Nat.div Nat.divmod fst snd repeat app]. repeat (f_equal; [lra|]). f_equal; lra. }
  rewrite A. replace (forallb (fun i => Rltb 0 (kl_window s i)) (seq 0 40)) with true.
  - cbn [andb Nat.ltb Nat.leb num]. eexists. split; [reflexivity|].
    replace (map (fun i => ln (INR 40 / (2 * INR (40 / 2)) * kl_window s i)) (seq 0 40)) with (map ln (map (kl_window s) (seq 0 40))).
    + rewrite K. rewrite !map_app. unfold mean, s, len. cbn [repeat app map length Rsum fold_right].
      replace (exp 0) with 1 by (symmetry; apply exp_0). replace (INR 40) with 40 by (simpl; lra).
      assert (B1 : exp (-19) < 1) by (rewrite <- exp_0; apply exp_increasing; lra).
      assert (B2 : exp 2 <= 9). { replace 2 with (1 + 1) by ring. rewrite exp_plus. pose proof exp_le_3. pose proof (exp_pos 1). nra. }
      pose proof (ln_of_pow 19 3 8 ltac:(lra) ltac:(lra)) as L19. pose proof (ln_of_pow 21 3 8 ltac:(lra) ltac:(lra)) as L21. pose proof (ln_of_pow 2 8 5 ltac:(lra) ltac:(lra)) as L2.
      simpl INR in L19, L21, L2. lra.
    + rewrite map_map. apply map_ext. intros i. f_equal. change (40 / 2)%nat with 20%nat. simpl INR. lra.
  - symmetry. apply forallb_forall. intros i Hi. assert (Q : In (kl_window s i) (map (kl_window s) (seq 0 40))) by now apply in_map. rewrite K in Q.
    destruct (Rltb_spec 0 (kl_window s i)) as [|N]; trivial. exfalso. apply in_app_or in Q as [Q|Q]; [apply repeat_spec in Q; lra|]. destruct Q as [Q|[Q|Q]]; [lra|lra|]. apply repeat_spec in Q. lra.
Qed.
(** *** the RSB statistic depends on the order *)
Lemma rsb_three x y z : all_positive [x; y; z] -> x <> y ->
  rsb_weibull [x; y; z] = Ok (Some (Fin (3 * (1 - dot (dev (map ln [x; y; z])) (dev (rsb_scores 3)) ^ 2 / ssq (map ln [x; y; z]) / ssq (rsb_scores 3))))).
Proof.
  intros P N. unfold rsb_weibull. cbv zeta. rewrite pearson_dot by reflexivity.
  assert (V1 : varying (map ln [x; y; z]) = true).
  { apply varying_pos. apply (two_values _ (ln x) (ln y)); [now left|right; now left|]. intros E. apply N, ln_inv; trivial; apply P; [now left|right; now left]. }
  assert (V2 : varying (rsb_scores 3) = true) by (apply scores_varying; [simpl; lia|intros i j H; apply rsb_scores_strict; exact H]).
  change (length [x; y; z]) with 3%nat. rewrite (proj2 (all_pos_iff _) P), V1, V2. cbn [andb num]. replace (len [x; y; z]) with 3 by (unfold len; simpl; ring). reflexivity.
Qed.
Lemma rsb_order : rsb_weibull [1; exp 1; exp 2] <> rsb_weibull [exp 1; 1; exp 2].
Proof.
  pose proof (exp_pos 1) as E1. pose proof (exp_pos 2) as E2. assert (N : 1 < exp 1) by (rewrite <- exp_0 at 1; apply exp_increasing; lra).
  rewrite !rsb_three by (try lra; intros u [<-|[<-|[<-|[]]]]; lra).
  cbn [map]. rewrite ln_1, !ln_exp. intros E. injection E as E.
  pose proof (rsb_scores_strict 3 0 1 ltac:(lia)) as S1. pose proof (rsb_scores_strict 3 1 2 ltac:(lia)) as S2.
  assert (Q : exists a b c, rsb_scores 3 = [a; b; c]) by (unfold rsb_scores; cbn [seq map]; eauto). destruct Q as (a & b & c & Q). rewrite Q in *. cbn [nth] in S1, S2.
  assert (V : 0 < ssq [a; b; c]) by (apply (two_values _ a b); [now left|right; now left|lra]). set (q := ssq [a; b; c]) in *.
  assert (Y1 : ssq [0; 1; 2] = 2) by (unfold ssq, mean, len; simpl; field). assert (Y2 : ssq [1; 0; 2] = 2) by (unfold ssq, mean, len; simpl; field). rewrite Y1, Y2 in E.
  assert (D1 : dot (dev [0; 1; 2]) (dev [a; b; c]) = c - a) by (unfold dot, dev, mean, len; simpl; field).
  assert (D2 : dot (dev [1; 0; 2]) (dev [a; b; c]) = c - b) by (unfold dot, dev, mean, len; simpl; field). rewrite D1, D2 in E.
  assert (Z : (c - a) ^ 2 = (c - b) ^ 2). { apply (Rmult_eq_reg_r (/ 2 * / q)); [unfold Rdiv in E; lra|]. apply Rgt_not_eq, Rmult_lt_0_compat; [lra|now apply Rinv_0_lt_compat]. }
  nra.
Qed.
(** *** the drift of the weights of SB and OK under a change of scale *)
Lemma scaled_powered c l : all_positive l -> map (fun x => c * x) l = powered c 1 l.
Proof. intros P. unfold powered. apply map_ext_in. intros x Hx. rewrite Rpower_1; trivial. now apply P. Qed.
Lemma wpp_b_scaled c l : 0 < c -> l <> [] -> all_positive l -> wpp_b (rsort (map ln (map (fun x => c * x) l))) = wpp_b (rsort (map ln l)) + ln c * len l * (2012 / 100000000).
Proof.
  intros Hc Hne P. rewrite scaled_powered, logs_powered by (trivial; lra). rewrite wpp_b_aff by now apply rsort_ne, map_ne. unfold len. rewrite rsort_length, map_length. ring.
Qed.
Lemma scaled_positive c l : 0 < c -> all_positive l -> all_positive (map (fun x => c * x) l).
Proof. intros Hc P x Hx. apply in_map_iff in Hx as (y & <- & Hy). apply Rmult_lt_0_compat; auto. Qed.
Lemma scaled_logs c l : 0 < c -> all_positive l -> rsort (map ln (map (fun x => c * x) l)) = aff (ln c) 1 (rsort (map ln l)).
Proof. intros Hc P. rewrite scaled_powered, logs_powered by (trivial; lra). reflexivity. Qed.
Lemma scaled_len c (l : list R) : len (map (fun x => c * x) l) = len l.
Proof. unfold len. now rewrite map_length. Qed.
Definition drift : R := 2012 / 100000000.
Lemma sb_scaled c l : 0 < c -> l <> [] -> all_positive l -> varying (rsort (map ln l)) = true ->
  sb_weibull (map (fun x => c * x) l) = Ok (Some (Fin ((wpp_b (rsort (map ln l)) + ln c * len l * drift) ^ 2 / (len l * ssq (rsort (map ln l)))))).
Proof.
  intros Hc Hne P V. unfold sb_weibull. cbv zeta. rewrite wpp_b_scaled by trivial. rewrite (proj2 (all_pos_iff _) (scaled_positive c l Hc P)).
  rewrite scaled_logs by trivial. rewrite varying_aff, ssq_aff, scaled_len, V by lra. cbn [andb num]. pose proof (len_pos l Hne) as HL. apply varying_true in V.
  fold drift. set (q := ssq _) in *. set (b := wpp_b _ + _). replace (len l * (b / len l) ^ 2 / (1 ^ 2 * q)) with (b ^ 2 / (len l * q)) by (field; split; lra). reflexivity.
Qed.
Lemma sb_drift l : l <> [] -> all_positive l -> varying (rsort (map ln l)) = true -> exists c, 1 < c /\ sb_weibull (map (fun x => c * x) l) <> sb_weibull l.
Proof.
  intros Hne P V. assert (I : sb_weibull l = sb_weibull (map (fun x => 1 * x) l)) by (f_equal; rewrite <- (map_id l) at 1; apply map_ext; intros; ring). rewrite I, (sb_scaled 1) by (trivial; lra).
  set (b := wpp_b _). set (q := ssq _). pose proof (len_pos l Hne) as HL. apply varying_true in V. fold q in V.
  assert (G : forall a, 0 < a -> b + a * len l * drift <> - b -> sb_weibull (map (fun x => exp a * x) l) <> Ok (Some (Fin ((b + ln 1 * len l * drift) ^ 2 / (len l * q))))).
  { intros a Ha N E. rewrite sb_scaled in E by (trivial; try apply exp_pos; now apply varying_pos). fold b q in E. injection E as E. rewrite ln_exp, ln_1 in E.
    apply Rmult_eq_reg_r in E; [|apply Rinv_neq_0_compat; apply Rgt_not_eq; now apply Rmult_lt_0_compat].
    assert (D : 0 < a * len l * drift) by (unfold drift; apply Rmult_lt_0_compat; [now apply Rmult_lt_0_compat|lra]). set (d := a * len l * drift) in *.
    assert (Z : d * (d + 2 * b) = 0) by (simpl in E; lra).
    apply Rmult_integral in Z as [Z|Z]; lra. }
  assert (D : 0 < len l * drift) by (unfold drift; lra).
  destruct (Req_dec (b + 1 * len l * drift) (- b)) as [E|E].
  - exists (exp 2). split; [rewrite <- exp_0; apply exp_increasing; lra|]. apply G; [lra|]. lra.
  - exists (exp 1). split; [pose proof (exp_ineq1 1 ltac:(lra)); lra|]. apply G; trivial. lra.
Qed.
Lemma ok_scale_pos n : 1 <= n -> 0 < 0.49 / sqrt n - 0.36 / n.
Proof.
  intros H. assert (S : 1 <= sqrt n) by (rewrite <- sqrt_1; apply sqrt_le_1_alt; lra). assert (E : n = sqrt n * sqrt n) by (rewrite sqrt_sqrt; lra).
  replace (0.49 / sqrt n - 0.36 / n) with ((0.49 * sqrt n - 0.36) / n); [apply Rdiv_lt_0_compat; lra|].
  set (r := sqrt n) in *. replace (0.36 / n) with (0.36 * / n) by reflexivity. replace (0.49 / r) with (0.49 * r / n); [unfold Rdiv; ring|]. rewrite E. field. lra.
Qed.
Lemma ok_scaled c l v w : 0 < c -> all_positive l -> ok_weibull l = Ok (Some (Fin v)) -> ok_weibull (map (fun x => c * x) l) = Ok (Some (Fin w)) ->
  w - v = ln c * len l * drift / ok_sig (rsort (map ln l)) / (0.49 / sqrt (len l) - 0.36 / len l).
Proof.
  intros Hc P Hv Hw. destruct (list_eq_dec Req_EM_T l []) as [->|Hne].
  - exfalso. unfold ok_weibull in Hv. apply num_inv in Hv as [V _]. apply andb_true_iff in V as [_ V]. apply negb_true_iff in V. unfold ok_sig, dot in V. simpl in V.
    apply Reqb_false in V. apply V. unfold Rdiv. ring.
  - unfold ok_weibull in *. cbv zeta in *. rewrite wpp_b_scaled in Hw by trivial. rewrite scaled_logs in Hw by trivial. rewrite ok_sig_aff, scaled_len in Hw. apply num_inv in Hv as [V ->]. apply num_inv in Hw as [_ ->].
    apply andb_true_iff in V as [_ V]. apply negb_true_iff, Reqb_false in V. fold drift. set (s := ok_sig _) in *. set (b := wpp_b _). unfold len.
    assert (H1 : 1 <= INR (length l)) by (destruct l; [congruence|]; cbn [length]; rewrite S_INR; pose proof (pos_INR (length l)); lra).
    pose proof (ok_scale_pos _ H1). set (e := 0.49 / sqrt (INR (length l)) - 0.36 / INR (length l)) in *. unfold Rdiv. rewrite Rmult_1_l. ring.
Qed.
(** *** the fitted law *)
Lemma law_fitted eta t x : 0 < eta -> 0 < x -> weibull_law eta t x = fitted t (- ln eta) x.
Proof. intros He Hx. rewrite fitted_law, Ropp_involutive, exp_ln; trivial. Qed.
Lemma law_range eta t x : 0 < eta -> 0 < x -> 0 <= weibull_law eta t x <= 1.
Proof. intros. rewrite law_fitted by trivial. apply fitted_range. Qed.
Lemma law_strict eta t x y : 0 < eta -> 0 < t -> 0 < x -> x < y -> weibull_law eta t x < weibull_law eta t y.
Proof. intros. rewrite !law_fitted by (trivial; lra). now apply fitted_strict. Qed.
Lemma score_witness : shape_score [1; exp 1] 50 < 0.
Proof.
  unfold shape_score. cbn [map Rsum fold_right length]. unfold Rpower. rewrite ln_1, ln_exp. replace (50 * 0) with 0 by ring. replace (50 * 1) with 50 by ring. rewrite exp_0. simpl (INR 2).
  assert (E : 51 <= exp 50) by (pose proof (exp_ineq1_le 50); lra). set (z := exp 50) in *. assert (9 / 10 <= (1 * 0 + (z * 1 + 0)) / (1 + (z + 0))); [|lra].
  apply (Rmult_le_reg_r (1 + (z + 0))); [lra|]. unfold Rdiv. rewrite (Rmult_assoc _ (/ (1 + (z + 0)))), Rinv_l; lra.
Qed.
Lemma spp_nonneg minimise l v : spp_weibull minimise l = Ok (Some (Fin v)) -> 0 <= v.
Proof.
  unfold spp_weibull. destruct (mlest minimise l) as [e|]; [|discriminate]. cbn [bind]. destruct (combine (spp_r (length l)) (spp_s (es_y e))) as [|p z]; [discriminate|]. cbn [map np_max lift bind]. intros E. injection E as <-.
  apply Rle_trans with (1 := Rabs_pos (fst p - snd p)). destruct (map _ z); [lra|apply Rmax_l].
Qed.
Lemma first_min l : l <> [] -> nth 0 (rsort l) 0 = Rminl 0 l.
Proof.
  intros H. assert (L : (0 < length (rsort l))%nat) by (rewrite rsort_length; destruct l; [easy|simpl; lia]). apply Rle_antisym.
  - pose proof (Rminl_in 0 l H) as I. apply rsort_in in I. apply (In_nth _ _ 0) in I as (i & Hi & <-). apply sorted_nth_le; [apply rsort_sorted|lia].
  - apply Rminl_le. apply rsort_in. now apply nth_In.
Qed.
Lemma last_max l : l <> [] -> nth (length l - 1) (rsort l) 0 = Rmaxl 0 l.
Proof.
  intros H. assert (L : (0 < length (rsort l))%nat) by (rewrite rsort_length; destruct l; [easy|simpl; lia]). pose proof (rsort_length l) as RL. apply Rle_antisym.
  - apply Rmaxl_ge. apply rsort_in. apply nth_In. lia.
  - pose proof (Rmaxl_in 0 l H) as I. apply rsort_in in I. apply (In_nth _ _ 0) in I as (i & Hi & <-). apply sorted_nth_le; [apply rsort_sorted|lia].
Qed.
