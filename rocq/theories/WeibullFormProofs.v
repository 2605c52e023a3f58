(** The Weibull statistics in their published form. *)
From Coq Require Import String.
From Coquelicot Require Import Coquelicot.
From Verif Require Import Base DecModel EdfModel GraphModel RegistryModel ExpModel NormModel WeibullModel WeibullSpec WeibullFormSpec Analysis EdfProofs EdfRotProofs NormFormSpec NormMoreSpec ChisqSpec ChisqProofs NormProofs NormRangeProofs NormFiniteProofs NormBoundProofs NormDistProofs NormMoreProofs WeibullProofs WeibullInvProofs WeibullFitProofs WeibullRangeProofs WeibullMoreProofs.
From Coq Require Import Lra Lia Psatz.
Local Open Scope R_scope.

(** *** the scores of the normalised spacings *)
Definition q1 (p : R) : R := -1 / ((1 - p) * ln (1 - p)).
Definition q2 (p : R) : R := q1 p / (1 - p) - q1 p * q1 p.
Definition q3 (p : R) : R := q2 p / (1 - p) + q1 p / ((1 - p) * (1 - p)) - 2 * (q1 p * q2 p).
Definition q4 (p : R) : R :=
  q3 p / (1 - p) + 2 * q2 p / ((1 - p) * (1 - p)) + (2 * q1 p / ((1 - p) * (1 - p) * (1 - p)) - 2 * (q2 p * q2 p + q1 p * q3 p)).
Lemma log_neg p : 0 < p < 1 -> ln (1 - p) < 0.
Proof. intros H. rewrite <- ln_1. apply ln_increasing; lra. Qed.
Lemma q0_derive p : 0 < p < 1 -> is_derive extreme_quantile p (q1 p).
Proof. intros H. pose proof (log_neg p H). unfold extreme_quantile, q1. auto_derive; replace (1 + - p) with (1 - p) by ring; [repeat split; lra|]. field. lra. Qed.
Lemma q1_derive p : 0 < p < 1 -> is_derive q1 p (q2 p).
Proof. intros H. pose proof (log_neg p H). unfold q2, q1. auto_derive; replace (1 + - p) with (1 - p) by ring; [repeat split; try lra; apply Rmult_integral_contrapositive; lra|]. field. lra. Qed.
Lemma q2_derive p : 0 < p < 1 -> is_derive q2 p (q3 p).
Proof.
  intros H. pose proof (q1_derive p H) as D1. assert (E : Derive q1 p = q2 p) by now apply is_derive_unique. unfold q3. unfold q2 at 1.
  auto_derive; [repeat split; try lra; eexists; exact D1|]. change (Derive (fun x => q1 x) p) with (Derive q1 p). rewrite E. field. lra.
Qed.
Lemma q3_derive p : 0 < p < 1 -> is_derive q3 p (q4 p).
Proof.
  intros H. pose proof (q1_derive p H) as D1. pose proof (q2_derive p H) as D2. assert (E : Derive q1 p = q2 p) by now apply is_derive_unique. assert (E2 : Derive q2 p = q3 p) by now apply is_derive_unique.
  unfold q4. unfold q3 at 1. auto_derive.
  - repeat split; try lra; try (eexists; eassumption). apply Rmult_integral_contrapositive; lra.
  - change (Derive (fun x => q1 x) p) with (Derive q1 p). change (Derive (fun x => q2 x) p) with (Derive q2 p). rewrite E, E2. field. lra.
Qed.
Lemma near_inside p : 0 < p < 1 -> locally p (fun x => 0 < x < 1).
Proof. intros H. apply (locally_interval _ p 0 1); simpl; try lra. intros y Hy1 Hy2. simpl in *. lra. Qed.
Lemma Derive_n_1 p : 0 < p < 1 -> Derive_n extreme_quantile 1 p = q1 p.
Proof. intros H. simpl. apply is_derive_unique. now apply q0_derive. Qed.
Lemma Derive_n_2 p : 0 < p < 1 -> Derive_n extreme_quantile 2 p = q2 p.
Proof.
  intros H. change (Derive (Derive_n extreme_quantile 1) p = q2 p). rewrite (Derive_ext_loc _ q1); [now apply is_derive_unique, q1_derive|].
  eapply filter_imp; [|apply (near_inside p H)]. intros y Hy. now apply Derive_n_1.
Qed.
Lemma Derive_n_3 p : 0 < p < 1 -> Derive_n extreme_quantile 3 p = q3 p.
Proof.
  intros H. change (Derive (Derive_n extreme_quantile 2) p = q3 p). rewrite (Derive_ext_loc _ q2); [now apply is_derive_unique, q2_derive|].
  eapply filter_imp; [|apply (near_inside p H)]. intros y Hy. now apply Derive_n_2.
Qed.
Lemma Derive_n_4 p : 0 < p < 1 -> Derive_n extreme_quantile 4 p = q4 p.
Proof.
  intros H. change (Derive (Derive_n extreme_quantile 3) p = q4 p). rewrite (Derive_ext_loc _ q3); [now apply is_derive_unique, q3_derive|].
  eapply filter_imp; [|apply (near_inside p H)]. intros y Hy. now apply Derive_n_3.
Qed.
Lemma position_inside n i : (i < n)%nat -> 0 < INR (S i) / (INR n + 1) < 1.
Proof.
  intros Hi. pose proof (pos_INR n). assert (0 < INR (S i)) by (apply lt_0_INR; lia). assert (INR (S i) < INR n + 1) by (rewrite <- S_INR; apply lt_INR; lia).
  split; [apply Rdiv_lt_0_compat; lra|]. apply (Rmult_lt_reg_r (INR n + 1)); [lra|]. unfold Rdiv. rewrite Rmult_assoc, Rinv_l; lra.
Qed.
Lemma gofns_dj n i : (i < n)%nat -> gofns_at n i = david_johnson extreme_quantile n (S i).
Proof.
  intros Hi. pose proof (position_inside n i Hi) as P. unfold david_johnson. cbv zeta. rewrite Derive_n_2, Derive_n_3, Derive_n_4 by exact P.
  unfold gofns_at. set (p := INR (S i) / (INR n + 1)) in *. cbv zeta. fold (q1 p). fold (q2 p). fold (q3 p). fold (q4 p).
  unfold extreme_quantile. pose proof (pos_INR n). field. lra.
Qed.
Lemma ns_spacing l i : all_positive l -> (S i < length l)%nat -> nth i (ns_ratios l) 0 = spacing l (S i).
Proof.
  intros P Hi. unfold ns_ratios, spacing, log_order. assert (L1 : length (diff (rsort (map ln l))) = (length l - 1)%nat) by now rewrite NormReflProofs.diff_length, rsort_length, map_length.
  assert (L2 : length (diff (gofns (length l))) = (length l - 1)%nat) by (unfold gofns; now rewrite NormReflProofs.diff_length, map_length, seq_length).
  rewrite (nth_indep _ 0 ((fun p => fst p / snd p) (0, 0))) by (rewrite map_length, combine_length, L1, L2; lia). rewrite (map_nth (fun p => fst p / snd p)), combine_nth by congruence. cbn [fst snd].
  rewrite !GraphLineProofs.diff_nth_gap by (unfold gofns; rewrite ?rsort_length, ?map_length, ?seq_length; lia). rewrite (ln_sorted l P).
  unfold gofns. rewrite !GraphProofs.nth_map_seq by lia. rewrite !gofns_dj by lia.
  replace (S i + 1)%nat with (S (S i)) by lia. replace (S (S i) - 1)%nat with (S i) by lia. replace (S i - 1)%nat with i by lia.
  f_equal. f_equal.
  - rewrite (nth_indep _ 0 (ln 0)) by (rewrite map_length, rsort_length; lia). now rewrite map_nth.
  - rewrite (nth_indep _ 0 (ln 0)) by (rewrite map_length, rsort_length; lia). now rewrite map_nth.
Qed.
Lemma ns_list l : all_positive l -> ns_ratios l = map (spacing l) (seq 1 (length l - 1)).
Proof.
  intros P. apply (nth_ext _ _ 0 0); [now rewrite ns_ratios_length, map_length, seq_length|]. intros i Hi. rewrite ns_ratios_length in Hi.
  rewrite ns_spacing by (trivial; lia). rewrite map_seq_shift. now rewrite GraphProofs.nth_map_seq by lia.
Qed.
Lemma firstn_map_seq {A} (f : nat -> A) k n a : (k <= n)%nat -> firstn k (map f (seq a n)) = map f (seq a k).
Proof. intros H. rewrite firstn_map. f_equal. replace n with (k + (n - k))%nat by lia. rewrite seq_app, firstn_app, seq_length, firstn_all2 by (rewrite seq_length; lia). replace (k - k)%nat with 0%nat by lia. cbn. apply app_nil_r. Qed.
Lemma skipn_map_seq {A} (f : nat -> A) k n a : (k <= n)%nat -> skipn k (map f (seq a n)) = map f (seq (a + k) (n - k)).
Proof. intros H. rewrite skipn_map. f_equal. replace n with (k + (n - k))%nat at 1 by lia. rewrite seq_app, skipn_app, seq_length, skipn_all2 by (rewrite seq_length; lia). replace (k - k)%nat with 0%nat by lia. reflexivity. Qed.
Lemma spacing_total l : all_positive l -> l <> [] -> Rsum (ns_ratios l) = spacing_sum l 1 (length l - 1).
Proof. intros P Hne. unfold spacing_sum. rewrite (ns_list l P). do 3 f_equal; lia. Qed.
Lemma ts_form l v : ts_weibull l = Ok (Some (Fin v)) -> (3 <= length l)%nat /\
  v = 2 * Rsum (map (fun i => INR (length l - 1 - i) * spacing l i) (seq 1 (length l - 2))) / (INR (length l - 2) * spacing_sum l 1 (length l - 1)).
Proof.
  intros E. unfold ts_weibull in E. cbv zeta in E. apply num_inv in E as [N ->]. apply andb_true_iff in N as [N _]. apply andb_true_iff in N as [N M].
  apply ns_ok_iff in N. apply Nat.ltb_lt in M. split; [exact M|]. rewrite spacing_total by (trivial; intros ->; simpl in M; lia).
  rewrite minus_INR by lia. cbn [INR]. replace (INR (length l) - (1 + 1)) with (INR (length l) - 2) by ring. f_equal. f_equal.
  rewrite (imap_seq _ _ 0), (ns_list l N), firstn_map_seq, map_length, seq_length by lia. rewrite (map_seq_shift (fun i => INR (length l - 1 - i) * spacing l i)). apply Rsum_map_ext.
  intros i Hi. apply in_seq in Hi. rewrite map_seq_shift, GraphProofs.nth_map_seq by lia. rewrite !minus_INR by lia. cbn [INR]. f_equal. 
Qed.
Lemma msf_form l v : msf_weibull l = Ok (Some (Fin v)) ->
  v = spacing_sum l (length l / 2 + 1) (length l - 1) / spacing_sum l 1 (length l - 1).
Proof.
  intros E. unfold msf_weibull in E. cbv zeta in E. apply num_inv in E as [N ->]. apply andb_true_iff in N as [N Z]. apply ns_ok_iff in N.
  assert (Hne : l <> []). { intros ->. apply negb_true_iff, Reqb_false in Z. now apply Z. }
  rewrite spacing_total by trivial. f_equal. unfold spacing_sum. rewrite (ns_list l N).
  assert (Hn : (0 < length l)%nat) by (destruct l; [easy|simpl; lia]).
  assert (Hd : (length l / 2 <= length l - 1)%nat) by (pose proof (Nat.div_lt (length l) 2 ltac:(lia) ltac:(lia)); lia).
  rewrite skipn_map_seq by exact Hd. do 3 f_equal; lia.
Qed.
(** *** LOS *)
Lemma ad_of_cdf_form u v n : length u = n -> (0 < n)%nat -> ad_of_cdf u = Fin v ->
  (forall i, (i < n)%nat -> 0 < nth i u 0 < 1) /\
  v = - INR n - / INR n * Rsum (map (fun i => (2 * INR i - 1) * (ln (nth (i - 1) u 0) + ln (1 - nth (n - i) u 0))) (seq 1 n)).
Proof.
  intros L Hn E. unfold ad_of_cdf in E. destruct (forallb _ u) eqn:K; [|discriminate]. injection E as <-. assert (PN : 0 < INR n) by now apply lt_0_INR. split.
  - intros i Hi. rewrite forallb_forall in K. specialize (K (nth i u 0) ltac:(apply nth_In; now rewrite L)). apply andb_true_iff in K as [K1 K2]. apply Rltb_true in K1, K2. lra.
  - unfold ad_do_execute. cbv zeta. unfold len. rewrite map_length, L. f_equal. rewrite <- Rsum_map_scal. f_equal.
    rewrite (imap_seq _ _ (0, 0)), combine_length, rev_length, !map_length, L, Nat.min_id, (map_seq_shift (fun i => / INR n * _)). apply map_ext_in. intros i Hi. apply in_seq in Hi.
    rewrite combine_nth by (rewrite rev_length, !map_length; reflexivity). cbn [fst snd]. rewrite rev_nth by (rewrite map_length; lia). rewrite map_length, L.
    rewrite (nth_indep (map ln u) 0 (ln 0)) by (rewrite map_length; lia). rewrite map_nth.
    rewrite (nth_indep (map (fun x => ln (1 - x)) u) 0 ((fun x => ln (1 - x)) 0)) by (rewrite map_length; lia). rewrite (map_nth (fun x => ln (1 - x))).
    replace (S i - 1)%nat with i by lia. field. lra.
Qed.
Lemma los_sorted l : all_positive l -> sortedR (los_z l).
Proof.
  intros P. unfold los_z. cbv zeta. destruct (Rle_lt_dec (Rsum (ns_ratios l)) 0) as [H|H].
  - assert (Z : Rsum (ns_ratios l) = 0). { apply Rle_antisym; trivial. apply Rsum_nonneg. apply ns_ratios_nonneg. }
    rewrite Z. assert (forall k, sortedR (map (fun i => Rsum (firstn (S i) (ns_ratios l)) / 0) (seq k (length l - 2)))); [|auto].
    intros k. assert (W : forall L, sortedR (map (fun i => Rsum (firstn (S i) (ns_ratios l)) / 0) L)); [|apply W].
    induction L as [|a L IH]; cbn [map]; constructor; trivial. apply Forall_forall. intros x Hx. apply in_map_iff in Hx as (j & <- & _). unfold Rdiv. rewrite Rinv_0. lra.
  - assert (W : forall n k, sortedR (map (fun i => Rsum (firstn (S i) (ns_ratios l)) / Rsum (ns_ratios l)) (seq k n))); [|apply W].
    induction n as [|n IH]; intros k; cbn [seq map]; constructor; trivial; [apply IH|]. apply Forall_forall. intros x Hx. apply in_map_iff in Hx as (j & <- & Hj). apply in_seq in Hj.
    apply Rmult_le_compat_r; [left; now apply Rinv_0_lt_compat|]. replace (S j) with (S k + (j - k))%nat by lia.
    rewrite <- (firstn_skipn (S k) (firstn (S k + (j - k)) (ns_ratios l))). rewrite firstn_firstn, Rsum_app. replace (Nat.min (S k) (S k + (j - k))) with (S k) by lia.
    enough (0 <= Rsum (skipn (S k) (firstn (S k + (j - k)) (ns_ratios l)))) by lra. apply Rsum_nonneg. intros r Hr. apply (ns_ratios_nonneg l).
    assert (I : In r (firstn (S k + (j - k)) (ns_ratios l))). { rewrite <- (firstn_skipn (S k) (firstn (S k + (j - k)) (ns_ratios l))). apply in_or_app. now right. }
    rewrite <- (firstn_skipn (S k + (j - k)) (ns_ratios l)). apply in_or_app. now left.
Qed.
Lemma los_form l v : (3 <= length l)%nat -> los_weibull l = Ok (Some (Fin v)) ->
  let n := length l in let z i := spacing_sum l 1 i / spacing_sum l 1 (n - 1) in
  v = - INR (n - 2) - / INR (n - 2) * Rsum (map (fun i => (2 * INR i - 1) * (ln (z i) + ln (1 - z (n - 1 - i)%nat))) (seq 1 (n - 2))).
Proof.
  intros Hn E n z. unfold los_weibull in E. cbv zeta in E. rewrite (proj2 (Nat.eqb_neq (length l) 2)), (proj2 (Nat.ltb_ge (length l) 2)) in E by lia.
  destruct (ns_ok l) eqn:K; cbn [andb] in E; [|discriminate]. destruct (negb (Reqb (Rsum (ns_ratios l)) 0)); [|discriminate]. apply fin_inj in E. apply ns_ok_iff in K.
  rewrite (rsort_id _ (los_sorted l K)) in E. assert (LZ : length (los_z l) = (n - 2)%nat) by (unfold los_z; now rewrite map_length, seq_length).
  destruct (ad_of_cdf_form _ _ (n - 2) LZ ltac:(unfold n; lia) E) as [_ Ev]. rewrite Ev.
  f_equal. f_equal. apply Rsum_map_ext. intros i Hi. apply in_seq in Hi.
  assert (Z : forall j, (1 <= j)%nat -> (j <= n - 2)%nat -> nth (j - 1) (los_z l) 0 = z j).
  { intros j H1 H2. unfold los_z. cbv zeta. rewrite GraphProofs.nth_map_seq by (unfold n in *; lia). unfold z. rewrite spacing_total by (trivial; intros ->; simpl in Hn; lia). f_equal.
    replace (S (j - 1)) with j by lia. unfold spacing_sum. rewrite (ns_list l K), firstn_map_seq by (unfold n in *; lia). do 3 f_equal. lia. }
  rewrite (Z i) by lia. do 4 f_equal. rewrite <- (Z (n - 1 - i)%nat) by lia. f_equal. lia.
Qed.
(** *** linear estimators *)
Lemma score_value n i : (i < n)%nat -> ln ((INR n + 1) / (INR n - INR (S i) + 1)) = exp_score n (S i).
Proof.
  intros Hi. unfold exp_score. pose proof (position_inside n i Hi) as P. pose proof (pos_INR n). rewrite <- ln_Rinv by lra. f_equal. field.
  assert (INR (S i) < INR n + 1) by (rewrite <- S_INR; apply lt_INR; lia). lra.
Qed.
Lemma w_list n : wpp_w n = map (exp_score n) (seq 1 (n - 1)).
Proof. unfold wpp_w. rewrite map_seq_shift. apply map_ext_in. intros i Hi. apply in_seq in Hi. apply score_value. lia. Qed.
Lemma map_seq_last {A} (f : nat -> A) n : (0 < n)%nat -> map f (seq 1 n) = (map f (seq 1 (n - 1)) ++ [f n])%list.
Proof. intros H. replace n with (S (n - 1)) at 1 by lia. rewrite seq_S, map_app. cbn [map]. do 3 f_equal. lia. Qed.
Lemma wi_list n : (0 < n)%nat -> wpp_wi n = map (weight_1 n) (seq 1 n).
Proof.
  intros H. unfold wpp_wi. rewrite w_list, (map_seq_last _ n) by exact H. f_equal; [|unfold weight_1; now rewrite Nat.ltb_irrefl].
  apply map_ext_in. intros i Hi. apply in_seq in Hi. unfold weight_1. now rewrite (proj2 (Nat.ltb_lt i n)) by lia.
Qed.
Lemma wn_list n : (0 < n)%nat -> wpp_wn n = map (weight_2 n) (seq 1 n).
Proof.
  intros H. unfold wpp_wn. cbv zeta. rewrite w_list, map_map, (map_seq_last _ n) by exact H. f_equal; [|unfold weight_2; now rewrite Nat.ltb_irrefl].
  apply map_ext_in. intros i Hi. apply in_seq in Hi. unfold weight_2. now rewrite (proj2 (Nat.ltb_lt i n)) by lia.
Qed.
Lemma log_order_list l : all_positive l -> rsort (map ln l) = map (log_order l) (seq 1 (length l)).
Proof.
  intros P. rewrite (ln_sorted l P), map_seq_shift. apply (nth_ext _ _ 0 0); [now rewrite !map_length, rsort_length, seq_length|]. intros i Hi. rewrite map_length, rsort_length in Hi.
  rewrite GraphProofs.nth_map_seq by exact Hi. rewrite (nth_indep _ 0 (ln 0)) by (now rewrite map_length, rsort_length). rewrite map_nth. unfold log_order. do 2 f_equal. lia.
Qed.
Lemma dot_seq (f g : nat -> R) L : dot (map f L) (map g L) = Rsum (map (fun i => f i * g i) L).
Proof. unfold dot. induction L as [|a L IH]; [reflexivity|]. cbn [map combine Rsum fold_right fst snd]. cbn [Rsum] in IH. now rewrite <- IH. Qed.
Lemma b_scale l : all_positive l -> l <> [] -> wpp_b (rsort (map ln l)) = len l * dagostino_scale l.
Proof.
  intros P Hne. assert (Hn : (0 < length l)%nat) by (destruct l; [easy|simpl; lia]). pose proof (len_pos l Hne) as PL.
  unfold wpp_b. rewrite rsort_length, map_length, wn_list, wi_list, (log_order_list l P), !dot_seq by exact Hn.
  unfold dagostino_scale. cbv zeta. unfold mean. unfold len at 2. rewrite map_length, seq_length. fold (len l).
  replace (len l * (Rsum (map (fun i => (0.6079 * weight_2 (length l) i - 0.2570 * weight_1 (length l) i) * log_order l i) (seq 1 (length l))) / len l)) with
    (Rsum (map (fun i => (0.6079 * weight_2 (length l) i - 0.2570 * weight_1 (length l) i) * log_order l i) (seq 1 (length l)))) by (field; lra).
  rewrite <- (Rsum_map_scal 0.6079), <- (Rsum_map_scal 0.2570), <- Rsum_map_minus. apply Rsum_map_ext. intros i _. ring.
Qed.
Lemma ssq_logs l : ssq (rsort (map ln l)) = square_sum (map ln l).
Proof. unfold ssq, square_sum. rewrite (GraphInvProofs.mean_perm (rsort (map ln l)) (map ln l)) by apply rsort_perm. apply Rsum_perm, Permutation_map, rsort_perm. Qed.
Lemma sb_form l v : sb_weibull l = Ok (Some (Fin v)) -> v = len l * dagostino_scale l ^ 2 / square_sum (map ln l).
Proof.
  intros E. unfold sb_weibull in E. cbv zeta in E. apply num_inv in E as [N ->]. apply andb_true_iff in N as [P V]. apply all_pos_iff in P.
  assert (Hne : l <> []). { intros ->. unfold varying, ssq in V. cbn in V. apply negb_true_iff, Reqb_false in V. now apply V. }
  pose proof (len_pos l Hne). rewrite (b_scale l P Hne), ssq_logs. do 3 f_equal. field. lra.
Qed.
Lemma ok_sig_downton l : (2 <= length l)%nat -> ok_sig (rsort (map ln l)) = len l * downton_scale l.
Proof.
  intros Hn. pose proof (rank_sum (map ln l)) as RS. unfold ok_sig, downton_scale. rewrite rsort_length, map_length.
  assert (N : 2 <= len l) by (unfold len; replace 2 with (INR 2) by (simpl; lra); now apply le_INR).
  assert (LL : len (rsort (map ln l)) = len l) by (unfold len; now rewrite rsort_length, map_length). rewrite LL.
  assert (D : dot (map (fun i => 2 * INR (S i) - 1 - len l) (seq 0 (length l))) (rsort (map ln l)) = pair_sum (map ln l)).
  { replace (pair_sum (map ln l)) with (2 * (pair_sum (map ln l) / 2)) by field. rewrite <- RS, (imap_seq _ _ 0), rsort_length, map_length.
    rewrite (NormFormProofs.map_seq_nth (rsort (map ln l))) at 1. rewrite rsort_length, map_length, dot_seq, <- Rsum_map_scal. apply Rsum_map_ext. intros i _.
    replace (len (map ln l)) with (len l) by (unfold len; now rewrite map_length). replace 0.5 with (/ 2) by lra. field. }
  rewrite D. assert (0 < ln 2) by (rewrite <- ln_1; apply ln_increasing; lra). field. lra.
Qed.
Lemma ok_form l v : ok_weibull l = Ok (Some (Fin v)) -> (2 <= length l)%nat ->
  v = (dagostino_scale l / downton_scale l - 1 - 0.13 / sqrt (len l) + 1.18 / len l) / (0.49 / sqrt (len l) - 0.36 / len l).
Proof.
  intros E Hn. unfold ok_weibull in E. cbv zeta in E. apply num_inv in E as [N ->]. apply andb_true_iff in N as [P V]. apply all_pos_iff in P. apply negb_true_iff, Reqb_false in V.
  assert (Hne : l <> []) by (intros ->; simpl in Hn; lia). pose proof (len_pos l Hne). rewrite (b_scale l P Hne). rewrite (ok_sig_downton l Hn) in *.
  assert (downton_scale l <> 0) by (intros Z; apply V; rewrite Z; ring).
  replace (len l * dagostino_scale l / (len l * downton_scale l)) with (dagostino_scale l / downton_scale l) by (field; lra). reflexivity.
Qed.
(** *** correlations *)
Lemma cov_dot x m : length x = length m -> dot (map (fun v => v - mean x) x) m = Rsum (map (fun p => (fst p - mean x) * (snd p - mean m)) (combine x m)).
Proof.
  intros L. assert (K : forall c d (a b : list R), length a = length b -> dot (map (fun v => v - c) a) b = Rsum (map (fun p => (fst p - c) * (snd p - d)) (combine a b)) + d * (Rsum a - len a * c)).
  { intros c d. unfold dot. induction a as [|u a IH]; intros [|w b] HL; try discriminate HL; [cbn; unfold len; cbn; ring|]. injection HL as HL. cbn [combine map Rsum fold_right fst snd].
    specialize (IH b HL). cbn [Rsum] in IH. unfold len in *. cbn [length]. rewrite S_INR. rewrite IH. ring. }
  rewrite (K (mean x) (mean m) x m L). assert (Z : Rsum x - len x * mean x = 0).
  { destruct x as [|a x']; [cbn; unfold len; cbn; ring|]. unfold mean. field. pose proof (len_pos (a :: x') ltac:(discriminate)). lra. }
  rewrite Z. ring.
Qed.
Lemma correlation_squared x m : length x = length m -> 0 < ssq x * ssq m ->
  Rsum (map (fun p => (fst p - mean x) * (snd p - mean m)) (combine x m)) ^ 2 / (ssq x * ssq m) = correlation x m ^ 2.
Proof.
  intros L H. unfold correlation. fold (ssq x). fold (ssq m). change (square_sum x) with (ssq x). change (square_sum m) with (ssq m).
  unfold Rdiv at 2. rewrite Rpow_mult_distr, pow_inv, pow2_sqrt by lra. reflexivity.
Qed.
Lemma ssq_pos' l : varying l = true -> 0 < ssq l.
Proof. intros V. unfold varying in V. apply negb_true_iff, Reqb_false in V. assert (0 <= ssq l); [|lra]. unfold ssq. apply Rsum_nonneg. intros r Hr. apply in_map_iff in Hr as (x & <- & _). apply pow2_ge_0. Qed.
Lemma rejg_list n : rejg_scores n 1 = map (fun i => extreme_quantile ((INR i - 0.3175) / (INR n + 0.365))) (seq 1 n).
Proof. unfold rejg_scores. rewrite map_seq_shift. apply map_ext. intros i. unfold extreme_quantile. field. Qed.
Lemma rejg_form minimise l v : in_bounds minimise -> all_positive l -> l <> [] -> rejg_weibull minimise l = Ok (Some (Fin v)) ->
  v = correlation (map (log_order l) (seq 1 (length l))) (map (fun i => extreme_quantile ((INR i - 0.3175) / (INR (length l) + 0.365))) (seq 1 (length l))) ^ 4.
Proof.
  intros HB P Hne E. rewrite rejg_value in E by trivial. unfold rejg_free in E. cbv zeta in E. apply num_inv in E as [N ->]. apply andb_true_iff in N as [N1 N2]. apply ssq_pos' in N1, N2.
  rewrite <- rejg_list, <- (log_order_list l P). set (y := rsort (map ln l)) in *. set (m := rejg_scores (length l) 1) in *.
  assert (L : length y = length m) by (unfold y, m; now rewrite rsort_length, map_length, rejg_scores_length).
  unfold dev. rewrite cov_dot, correlation_squared by (trivial; now apply Rmult_lt_0_compat). ring.
Qed.
Lemma rsb_list n : rsb_scores n = map (fun i => extreme_quantile (INR i / (INR n + 1))) (seq 1 n).
Proof. unfold rsb_scores. rewrite map_seq_shift. apply map_ext. intros i. reflexivity. Qed.
Lemma rsb_form l v : rsb_weibull l = Ok (Some (Fin v)) ->
  v = len l * (1 - correlation (map ln l) (map (fun i => extreme_quantile (INR i / (INR (length l) + 1))) (seq 1 (length l))) ^ 2).
Proof.
  intros E. destruct l as [|a l']; [discriminate|]. set (l := a :: l') in *. change (rsb_weibull l) with (let y := map ln l in let m := rsb_scores (length l) in
         let r := Rsum (map (fun p => (fst p - mean y) * (snd p - mean m)) (combine y m)) ^ 2 / ssq y / ssq m in
         num (all_pos l && varying y && varying m) (len l * (1 - r))) in E. cbv zeta in E. apply num_inv in E as [N ->]. apply andb_true_iff in N as [N N2]. apply andb_true_iff in N as [_ N1]. apply ssq_pos' in N1, N2.
  rewrite <- rsb_list. set (y := map ln l) in *. set (m := rsb_scores (length l)) in *. assert (L : length y = length m) by (unfold y, m, rsb_scores; now rewrite !map_length, seq_length).
  rewrite <- correlation_squared by (trivial; now apply Rmult_lt_0_compat). do 2 f_equal. field. lra.
Qed.
(** *** Kullback-Leibler *)
Lemma ln_nth l i : (i < length l)%nat -> nth i (map ln l) 0 = ln (nth i l 0).
Proof. intros H. rewrite (nth_indep _ 0 (ln 0)) by (now rewrite map_length). apply map_nth. Qed.
Lemma kl_form l v : kl_weibull l = Ok (Some (Fin v)) -> v = - vasicek l (length l / 2) - mean (map ln l) + mean l.
Proof.
  intros E. unfold kl_weibull in E. cbv zeta in E. destruct (Nat.eqb_spec (length l) 1) as [|H1]; [discriminate|]. apply num_inv in E as [N ->]. apply andb_true_iff in N as [N _]. apply andb_true_iff in N as [N P].
  apply Nat.ltb_lt in N. apply all_pos_iff in P. f_equal; [f_equal|].
  - f_equal. unfold vasicek. cbv zeta. unfold mean. unfold len. rewrite map_length, seq_length. f_equal. rewrite map_seq_shift. apply Rsum_map_ext. intros i Hi. apply in_seq in Hi. do 2 f_equal.
    unfold kl_window. cbv zeta. rewrite map_length, rsort_length. set (m := (length l / 2)%nat). rewrite !ln_nth by (rewrite rsort_length; lia). unfold log_order. f_equal; do 2 f_equal; lia.
  - apply GraphInvProofs.mean_perm. rewrite <- (ln_sorted l P). apply rsort_perm.
  - rewrite map_map. rewrite (map_ext_in _ (fun x => x)); [|intros x Hx; apply exp_ln, P; now rewrite rsort_in in Hx]. rewrite map_id. apply GraphInvProofs.mean_perm, rsort_perm.
Qed.
(** *** Cabana-Quiroz *)
Lemma cq_form Gam l v : cq_weibull Gam l = Ok (Some (Fin v)) -> let d1 := transform l (- (1 / 10)) - Gam (11 / 10) in let d2 := transform l (1 / 50) - Gam (49 / 50) in
  l <> [] /\ exists a b, 1.59 * a + 0.91 * b = d1 /\ 0.91 * a + 0.53 * b = d2 /\ v = len l * (a * d1 + b * d2).
Proof.
  intros E d1 d2. unfold cq_weibull in E. cbv zeta in E. apply num_inv in E as [N ->]. apply negb_true_iff, Nat.eqb_neq in N. split; [intros ->; now apply N|].
  assert (T1 : mean (map (fun x => exp (- x * - 0.1)) l) - Gam (1 - - 0.1) = d1).
  { unfold d1, transform. f_equal; [|f_equal; lra]. f_equal. apply map_ext. intros x. f_equal. lra. }
  assert (T2 : mean (map (fun x => exp (- x * 0.02)) l) - Gam (1 - 0.02) = d2).
  { unfold d2, transform. f_equal; [|f_equal; lra]. f_equal. apply map_ext. intros x. f_equal. lra. }
  rewrite T1, T2. assert (S : sqrt (len l) ^ 2 = len l) by (apply pow2_sqrt; unfold len; apply pos_INR). set (s := sqrt (len l)) in *.
  exists ((0.53 * d1 - 0.91 * d2) / 0.0146), ((1.59 * d2 - 0.91 * d1) / 0.0146). split; [lra|]. split; [lra|]. rewrite <- S. 
  replace (1 / (1.59 * 0.53 - 0.91 ^ 2)) with (1 / 0.0146) by (f_equal; lra). lra.
Qed.
Lemma transform_gt s l : s < 0 -> all_positive l -> l <> [] -> 1 < transform l s.
Proof.
  intros Hs P Hne. unfold transform. set (z := map _ l). assert (NZ : z <> []) by (unfold z; destruct l; [easy|discriminate]).
  unfold mean. assert (L : len z = len l) by (unfold z, len; now rewrite map_length). rewrite L. pose proof (len_pos l Hne). apply (Rmult_lt_reg_r (len l)); trivial. unfold Rdiv. rewrite Rmult_assoc, Rinv_l, Rmult_1_r, Rmult_1_l by lra.
  unfold z, len. clear z NZ L. clear H. induction l as [|a l IH]; [easy|]. cbn [map Rsum fold_right length]. rewrite S_INR.
  assert (1 < exp (- (s * a))). { rewrite <- exp_0. apply exp_increasing. pose proof (P a ltac:(now left)). nra. }
  destruct l as [|b l']; [cbn; lra|]. assert (INR (length (b :: l')) < Rsum (map (fun x => exp (- (s * x))) (b :: l'))) by (apply IH; [intros x Hx; apply P; now right|discriminate]). cbn [Rsum] in *. lra.
Qed.
Lemma cq_lower Gam l v : Gam (11 / 10) <= 1 -> all_positive l -> cq_weibull Gam l = Ok (Some (Fin v)) -> len l * (1 - Gam (11 / 10)) ^ 2 / 1.59 <= v.
Proof.
  intros G P E. apply cq_form in E. cbv zeta in E. destruct E as (Hne & a & b & E1 & E2 & ->). pose proof (transform_gt (- (1 / 10)) l ltac:(lra) P Hne) as T. pose proof (len_pos l Hne) as PL.
  set (d1 := transform l (- (1 / 10)) - Gam (11 / 10)) in *. set (d2 := transform l (1 / 50) - Gam (49 / 50)) in *. unfold Rdiv. rewrite Rmult_assoc. apply Rmult_le_compat_l; [lra|].
  assert (K : (1 - Gam (11 / 10)) ^ 2 <= d1 ^ 2) by (unfold d1; apply pow_incr; lra). rewrite <- E1 in K at 1. assert (Q : a * d1 + b * d2 = d1 ^ 2 / 1.59 + b ^ 2 * (0.0146 / 1.59)) by (rewrite <- E1, <- E2; lra).
  rewrite Q. rewrite E1 in K. pose proof (pow2_ge_0 b). lra.
Qed.
(** *** Mahdi-Doostparast *)
Lemma gap_integral c a b : 0 < a -> a <= b -> RInt (fun t => (1 - c - t) ^ 2 / t) a b = (c - 1) ^ 2 * (ln b - ln a) + 2 * ((c - 1) * (b - a)) + (b ^ 2 - a ^ 2) / 2.
Proof.
  intros Ha Hab. apply is_RInt_unique.
  replace ((c - 1) ^ 2 * (ln b - ln a) + 2 * ((c - 1) * (b - a)) + (b ^ 2 - a ^ 2) / 2) with
    (minus ((c - 1) ^ 2 * ln b + 2 * (c - 1) * b + b ^ 2 / 2) ((c - 1) ^ 2 * ln a + 2 * (c - 1) * a + a ^ 2 / 2)) by (unfold minus, plus, opp; simpl; lra).
  apply (is_RInt_derive (fun t => (c - 1) ^ 2 * ln t + 2 * (c - 1) * t + t ^ 2 / 2) (fun t => (1 - c - t) ^ 2 / t)).
  - intros x Hx. rewrite Rmin_left, Rmax_right in Hx by lra. auto_derive; [lra|]. field. lra.
  - intros x Hx. rewrite Rmin_left, Rmax_right in Hx by lra. apply (ex_derive_continuous (fun t => (1 - c - t) ^ 2 / t)). auto_derive. lra.
Qed.
Lemma nth_F (F : R -> R) l i : (i < length l)%nat -> nth i (map F (rsort l)) 0 = at_order F l (S i).
Proof. intros H. rewrite (nth_indep _ 0 (F 0)) by (now rewrite map_length, rsort_length). rewrite map_nth. unfold at_order. do 2 f_equal. lia. Qed.
Lemma md_sums F l v : (1 <= length l)%nat -> md_weibull F l = Ok (Some (Fin v)) -> let u := at_order F l in let n := INR (length l) in
  v = n * (Rsum (map (fun i => (INR i / n - 1) ^ 2 * (ln (u (S i)) - ln (u i)) + 2 * ((INR i / n - 1) * (u (S i) - u i))) (seq 1 (length l - 1))) + 1 / 2).
Proof.
  intros Hn E u n. unfold md_weibull in E. cbv zeta in E. apply num_inv in E as [_ ->]. fold n. rewrite Rsum_map_plus, Rsum_map_scal.
  assert (A : forall g g' : nat -> R, (forall i, (1 <= i < length l)%nat -> g i = g' i) -> Rsum (map g (seq 1 (length l - 1))) = Rsum (map g' (seq 1 (length l - 1)))).
  { intros g g' H. apply Rsum_map_ext. intros i Hi. apply in_seq in Hi. apply H. lia. }
  assert (U : forall i, (1 <= i < length l)%nat -> nth i (map F (rsort l)) 0 = u (S i) /\ nth (i - 1) (map F (rsort l)) 0 = u i).
  { intros i Hi. split; [apply nth_F; lia|]. rewrite nth_F by lia. unfold u. f_equal. lia. }
  rewrite (A _ (fun i => (INR i / n - 1) ^ 2 * (ln (u (S i)) - ln (u i)))) by (intros i Hi; destruct (U i Hi) as [-> ->]; reflexivity).
  rewrite (A (fun i => (INR i / n - 1) * (nth i (map F (rsort l)) 0 - nth (i - 1) (map F (rsort l)) 0)) (fun i => (INR i / n - 1) * (u (S i) - u i))) by (intros i Hi; destruct (U i Hi) as [-> ->]; reflexivity).
  replace 0.5 with (1 / 2) by lra. reflexivity.
Qed.
Lemma at_order_mono F l i j : (forall x y, x <= y -> F x <= F y) -> (i <= j)%nat -> (j <= length l)%nat -> at_order F l i <= at_order F l j.
Proof. intros M Hij Hj. unfold at_order. apply M. destruct (Nat.eq_dec (j - 1) (length l)); [assert (j = 0)%nat by lia; assert (i = 0)%nat by lia; subst; lra|].
  destruct (Nat.eq_dec (length l) 0) as [Z|]; [assert (i = 0)%nat by lia; assert (j = 0)%nat by lia; subst; lra|]. apply sorted_nth_le; [apply rsort_sorted|rewrite rsort_length; lia]. Qed.
Lemma md_form F l v : (1 <= length l)%nat -> (forall x y, x <= y -> F x <= F y) -> (forall x, In x l -> 0 < F x) -> md_weibull F l = Ok (Some (Fin v)) ->
  v = survivor_distance (at_order F l) (length l).
Proof.
  intros Hn M P E. apply (md_sums F l v Hn) in E. cbv zeta in E. rewrite E. unfold survivor_distance. f_equal. set (u := at_order F l). set (n := INR (length l)).
  assert (PU : forall i, (1 <= i <= length l)%nat -> 0 < u i). { intros i Hi. apply P. rewrite <- rsort_in. apply nth_In. rewrite rsort_length. lia. }
  assert (T : Rsum (map (fun i => RInt (fun t => (1 - INR i / n - t) ^ 2 / t) (u i) (u (S i))) (seq 1 (length l - 1)))
    = Rsum (map (fun i => (INR i / n - 1) ^ 2 * (ln (u (S i)) - ln (u i)) + 2 * ((INR i / n - 1) * (u (S i) - u i))) (seq 1 (length l - 1))) + (u (length l) ^ 2 - u 1%nat ^ 2) / 2).
  { replace ((u (length l) ^ 2 - u 1%nat ^ 2) / 2) with (Rsum (map (fun i => u (S i) ^ 2 / 2 - u (S (i - 1)) ^ 2 / 2) (seq 1 (length l - 1)))).
    - rewrite <- Rsum_map_plus. apply Rsum_map_ext. intros i Hi. apply in_seq in Hi. rewrite gap_integral; [|apply PU; lia|apply at_order_mono; trivial; lia]. replace (S (i - 1)) with i by lia. lra.
    - rewrite (telescope (fun i => u (S i) ^ 2 / 2)). replace (S (length l - 1)) with (length l) by lia. lra. }
  rewrite T. lra.
Qed.
Lemma ln_ratio_lower i : (1 <= i)%nat -> 2 / (2 * INR i + 1) <= ln ((INR i + 1) / INR i).
Proof.
  intros Hi. assert (P : 1 <= INR i) by (replace 1 with (INR 1) by reflexivity; now apply le_INR).
  set (x := / INR i). assert (X : 0 < x) by (apply Rinv_0_lt_compat; lra). replace ((INR i + 1) / INR i) with (1 + x) by (unfold x; field; lra). replace (2 / (2 * INR i + 1)) with (2 * x / (2 + x)) by (unfold x; field; split; lra).
  pose proof (derive_nonneg_le (fun t => ln (1 + t) - 2 * t / (2 + t)) (fun t => t ^ 2 / ((1 + t) * (2 + t) ^ 2)) 0 x ltac:(lra)) as D.
  enough (K : ln (1 + 0) - 2 * 0 / (2 + 0) <= ln (1 + x) - 2 * x / (2 + x)). { replace (1 + 0) with 1 in K by ring. rewrite ln_1 in K. lra. }
  apply D.
  - intros c Hc. auto_derive; [repeat split; lra|]. field. lra.
  - intros c Hc. apply Rmult_le_pos; [apply pow2_ge_0|]. left. apply Rinv_0_lt_compat. apply Rmult_lt_0_compat; [lra|]. apply pow_lt. lra.
Qed.
Lemma md_constant F x n v : 0 < F x -> md_weibull F (repeat x (S n)) = Ok (Some (Fin v)) -> v = INR (S n) / 2.
Proof.
  intros P E. apply md_sums in E; [|rewrite repeat_length; lia]. cbv zeta in E. rewrite repeat_length in E. rewrite E. rewrite (Rsum_map_ext _ (fun _ => 0)); [rewrite Rsum_map_const; field|].
  intros i Hi. apply in_seq in Hi. assert (U : forall j, (1 <= j <= S n)%nat -> at_order F (repeat x (S n)) j = F x).
  { intros j Hj. unfold at_order. f_equal. assert (I : In (nth (j - 1) (rsort (repeat x (S n))) 0) (repeat x (S n))) by (rewrite <- rsort_in; apply nth_In; rewrite rsort_length, repeat_length; lia). now apply repeat_spec in I. }
  rewrite !U by lia. ring.
Qed.
Lemma md_perfect F l v : (10 <= length l)%nat -> (forall i, (1 <= i <= length l)%nat -> at_order F l i = INR i / (len l + 1)) ->
  md_weibull F l = Ok (Some (Fin v)) -> len l / 2 < v.
Proof.
  intros Hn U E. apply md_sums in E; [|lia]. cbv zeta in E. rewrite E. fold (len l). assert (N : 10 <= len l) by (unfold len; replace 10 with (INR 10) by (simpl; lra); now apply le_INR).
  set (n := len l) in *. assert (K : 0 < Rsum (map (fun i => (INR i / n - 1) ^ 2 * (ln (at_order F l (S i)) - ln (at_order F l i)) + 2 * ((INR i / n - 1) * (at_order F l (S i) - at_order F l i))) (seq 1 (length l - 1)))); [|nra].
  apply Rlt_le_trans with (Rsum (map (fun i => (1 - INR i / n) ^ 2 * (2 / (2 * INR i + 1)) - 2 / (n + 1) * (1 - INR i / n)) (seq 1 (length l - 1)))).
  2:{ apply Rsum_map_le. intros i Hi. apply in_seq in Hi. rewrite !U by lia. rewrite S_INR. assert (P : 0 < INR i) by (apply lt_0_INR; lia).
      rewrite !ln_quot by lra. pose proof (ln_ratio_lower i ltac:(lia)) as L. rewrite ln_quot in L by lra. 
      replace (INR i / n - 1) with (- (1 - INR i / n)) by ring. set (w := 1 - INR i / n). replace ((- w) ^ 2) with (w ^ 2) by ring.
      replace ((INR i + 1) / (n + 1) - INR i / (n + 1)) with (/ (n + 1)) by (field; lra). 
      replace (ln (INR i + 1) - ln (n + 1) - (ln (INR i) - ln (n + 1))) with (ln (INR i + 1) - ln (INR i)) by ring. pose proof (pow2_ge_0 w). assert (w ^ 2 * (2 / (2 * INR i + 1)) <= w ^ 2 * (ln (INR i + 1) - ln (INR i))) by (apply Rmult_le_compat_l; lra). replace (2 / (n + 1) * w) with (2 * (w * / (n + 1))) by (field; lra). lra. }
  rewrite Rsum_map_minus, Rsum_map_scal.
  assert (A : Rsum (map (fun i => 1 - INR i / n) (seq 1 (length l - 1))) = (n - 1) / 2).
  { assert (Q : forall k, Rsum (map (fun i => 1 - INR i / n) (seq 1 k)) = INR k - INR k * (INR k + 1) / (2 * n)).
    { induction k as [|k IH]; [cbn; field; lra|]. rewrite seq_S, map_app, Rsum_app, IH. cbn [map Rsum fold_right]. replace (1 + k)%nat with (S k) by lia. rewrite S_INR. field. lra. }
    rewrite Q, minus_INR by lia. fold (len l). fold n. cbn [INR]. field. lra. }
  rewrite A. assert (B : 1 < Rsum (map (fun i => (1 - INR i / n) ^ 2 * (2 / (2 * INR i + 1))) (seq 1 (length l - 1)))).
  { replace (length l - 1)%nat with (4 + (length l - 5))%nat by lia. rewrite seq_app, map_app, Rsum_app.
    assert (0 <= Rsum (map (fun i => (1 - INR i / n) ^ 2 * (2 / (2 * INR i + 1))) (seq (1 + 4) (length l - 5)))).
    { apply Rsum_nonneg. intros r Hr. apply in_map_iff in Hr as (i & <- & _). pose proof (pos_INR i). apply Rmult_le_pos; [apply pow2_ge_0|]. left. apply Rdiv_lt_0_compat; lra. }
    assert (W : forall i, (i <= 4)%nat -> (1 - INR i / 10) ^ 2 <= (1 - INR i / n) ^ 2).
    { intros i Hi. assert (0 <= INR i <= 4) by (split; [apply pos_INR|replace 4 with (INR 4) by (simpl; lra); now apply le_INR]). apply pow_incr. split; [lra|].
      assert (INR i / n <= INR i / 10); [|lra]. apply Rmult_le_compat_l; [lra|]. apply Rinv_le_contravar; lra. }
    pose proof (W 1%nat ltac:(lia)) as W1. pose proof (W 2%nat ltac:(lia)) as W2. pose proof (W 3%nat ltac:(lia)) as W3. pose proof (W 4%nat ltac:(lia)) as W4.
    change (seq 1 4) with [1; 2; 3; 4]%nat. cbn [map Rsum fold_right]. 
    replace (INR 1) with 1 in * by reflexivity. replace (INR 2) with 2 in * by (simpl; lra). replace (INR 3) with 3 in * by (simpl; lra). replace (INR 4) with 4 in * by (simpl; lra). lra. }
  assert (C : 2 / (n + 1) * ((n - 1) / 2) < 1). { replace (2 / (n + 1) * ((n - 1) / 2)) with (1 - 2 / (n + 1)) by (field; lra). assert (0 < 2 / (n + 1)) by (apply Rdiv_lt_0_compat; lra). lra. }
  lra.
Qed.
(** *** Liao-Shimokawa *)
Lemma ls_form F l v top : (forall x, In x l -> 0 < F x <= top) -> top < 1 -> ls_weibull F l = Ok (Some (Fin v)) ->
  let p := liao_shimokawa (at_order F l) (length l) in v <= p /\ p <= v * sqrt (1 + 1 / 10 ^ 10 / (1 - top)).
Proof.
  intros P HT E p. unfold ls_weibull in E. cbv zeta in E. apply num_inv in E as [N ->]. apply andb_true_iff in N as [_ N]. apply negb_true_iff, Nat.eqb_neq in N.
  assert (Hne : l <> []) by (intros ->; now apply N). pose proof (len_pos l Hne) as PL.
  assert (LU : len (map F (rsort l)) = len l) by (unfold len; now rewrite map_length, rsort_length). rewrite LU.
  set (eps := 1e-10). assert (EE : eps = 1 / 10 ^ 10) by (unfold eps; lra). assert (E0 : 0 < eps) by (rewrite EE; lra). clearbody eps. rewrite <- EE. clear EE.
  set (u := at_order F l). set (d := fun i => Rmax (INR i / len l - u i) (u i - (INR i - 1) / len l)).
  assert (UP : forall i, (1 <= i <= length l)%nat -> 0 < u i <= top). { intros i Hi. unfold u, at_order. apply P. rewrite <- rsort_in. apply nth_In. rewrite rsort_length. lia. }
  assert (DP : forall i, 0 <= d i). { intros i. unfold d. replace ((INR i - 1) / len l) with (INR i / len l - / len l) by (field; lra). assert (0 < / len l) by now apply Rinv_0_lt_compat.
    pose proof (Rmax_l (INR i / len l - u i) (u i - (INR i / len l - / len l))). pose proof (Rmax_r (INR i / len l - u i) (u i - (INR i / len l - / len l))). lra. }
  assert (V : Rsum (imap (fun i x => Rmax (INR (S i) / len l - x) (x - INR i / len l) / sqrt (x * (1 - x + eps))) (map F (rsort l))) = Rsum (map (fun i => d i / sqrt (u i * (1 - u i + eps))) (seq 1 (length l)))).
  { rewrite (imap_seq _ _ 0), map_length, rsort_length, map_seq_shift. apply Rsum_map_ext. intros i Hi. apply in_seq in Hi. rewrite nth_F by lia. fold u. unfold d. do 3 f_equal. rewrite S_INR. f_equal. ring. }
  rewrite V. assert (SL : 0 < sqrt (len l)) by now apply sqrt_lt_R0. assert (IL : 0 < / sqrt (len l)) by now apply Rinv_0_lt_compat.
  assert (PF : p = / sqrt (len l) * Rsum (map (fun i => d i / sqrt (u i * (1 - u i))) (seq 1 (length l)))) by reflexivity. rewrite PF.
  split.
  - unfold Rdiv at 1. rewrite Rmult_comm. apply Rmult_le_compat_l; [lra|]. apply Rsum_map_le. intros i Hi. apply in_seq in Hi. pose proof (UP i ltac:(lia)). apply Rmult_le_compat_l; [apply DP|].
    apply Rinv_le_contravar; [apply sqrt_lt_R0; apply Rmult_lt_0_compat; lra|]. apply sqrt_le_1_alt. apply Rmult_le_compat_l; lra.
  - set (c := sqrt (1 + eps / (1 - top))). assert (CP : 0 <= c) by apply sqrt_pos. assert (EP : 0 < eps / (1 - top)) by (apply Rdiv_lt_0_compat; lra).
    unfold Rdiv at 2. rewrite (Rmult_comm (Rsum _) (/ _)), Rmult_assoc. apply Rmult_le_compat_l; [lra|]. rewrite (Rmult_comm _ c), <- Rsum_map_scal. apply Rsum_map_le. intros i Hi. apply in_seq in Hi. pose proof (UP i ltac:(lia)) as [U1 U2].
    replace (c * (d i / sqrt (u i * (1 - u i + eps)))) with (d i * (c / sqrt (u i * (1 - u i + eps)))) by (unfold Rdiv; ring). apply Rmult_le_compat_l; [apply DP|].
    assert (S1 : 0 < sqrt (u i * (1 - u i))) by (apply sqrt_lt_R0, Rmult_lt_0_compat; lra). assert (S2 : 0 < sqrt (u i * (1 - u i + eps))) by (apply sqrt_lt_R0, Rmult_lt_0_compat; lra).
    apply (Rmult_le_reg_r (sqrt (u i * (1 - u i)) * sqrt (u i * (1 - u i + eps)))); [now apply Rmult_lt_0_compat|].
    replace (/ sqrt (u i * (1 - u i)) * (sqrt (u i * (1 - u i)) * sqrt (u i * (1 - u i + eps)))) with (sqrt (u i * (1 - u i + eps))) by (field; lra).
    replace (c / sqrt (u i * (1 - u i + eps)) * (sqrt (u i * (1 - u i)) * sqrt (u i * (1 - u i + eps)))) with (c * sqrt (u i * (1 - u i))) by (field; lra).
    unfold c. rewrite <- sqrt_mult_alt by lra. apply sqrt_le_1_alt.
    assert (K : eps <= eps / (1 - top) * (1 - u i)). { replace eps with (eps / (1 - top) * (1 - top)) at 1 by (field; lra). apply Rmult_le_compat_l; lra. }
    replace ((1 + eps / (1 - top)) * (u i * (1 - u i))) with (u i * (1 - u i + eps / (1 - top) * (1 - u i))) by ring. apply Rmult_le_compat_l; lra.
Qed.
(** *** Pearson's statistic *)
Lemma pearson_sum : forall k (f g : nat -> R) a s, pd_sum 1 (map f (seq a k)) (map g (seq a k)) = Some s -> s = Rsum (map (fun i => (f i - g i) ^ 2 / g i) (seq a k)).
Proof.
  induction k as [|k IH]; intros f g a s H; cbn [seq map pd_sum] in H; [injection H as <-; reflexivity|]. unfold pd_term in H. rewrite (proj2 (Reqb_true 1 1)) in H by reflexivity.
  destruct (Reqb (g a) 0); [discriminate|]. destruct (pd_sum 1 _ _) as [s'|] eqn:E; [|discriminate]. injection H as <-. apply IH in E. rewrite E. reflexivity.
Qed.
Lemma between_below a b l : a <= b -> INR (count (fun x => Rleb a x && Rltb x b) l) = below b l - below a l.
Proof.
  intros H. unfold below, count. induction l as [|x l IH]; [simpl; lra|]. cbn [filter]. destruct (Rleb_spec a x), (Rltb_spec x b), (Rltb_spec x a); try lra; cbn [andb]; cbn [length]; rewrite ?S_INR; lra.
Qed.
Lemma from_below a l : INR (count (Rleb a) l) = len l - below a l.
Proof. unfold below, count, len. induction l as [|x l IH]; [simpl; lra|]. cbn [filter]. destruct (Rleb_spec a x), (Rltb_spec x a); try lra; cbn [length]; rewrite ?S_INR; lra. Qed.
Lemma count_ext' {A} (p q : A -> bool) l : (forall x, In x l -> p x = q x) -> count p l = count q l.
Proof. intros H. unfold count. f_equal. apply filter_ext_in. exact H. Qed.
Section Cells.
Variables (lo hi : R) (k : nat) (l : list R).
Hypothesis (Hlt : lo < hi) (Hk : (0 < k)%nat) (Hl : forall x, In x l -> lo <= x <= hi).
Lemma edge_lt i j : (i < j)%nat -> cell_edge lo hi k i < cell_edge lo hi k j.
Proof.
  intros H. unfold cell_edge. assert (0 < INR k) by now apply lt_0_INR. apply lt_INR in H. apply Rplus_lt_compat_l. apply Rmult_lt_compat_r; [now apply Rinv_0_lt_compat|]. apply Rmult_lt_compat_l; lra.
Qed.
Lemma edge_0 : cell_edge lo hi k 0 = lo. Proof. unfold cell_edge. cbn [INR]. unfold Rdiv. ring. Qed.
Lemma edge_k : cell_edge lo hi k k = hi. Proof. unfold cell_edge. assert (0 < INR k) by now apply lt_0_INR. field. lra. Qed.
Lemma below_lo : below lo l = 0.
Proof. unfold below. assert (F : filter (fun x => Rltb x lo) l = []); [|now rewrite F]. rewrite (filter_ext_in _ (fun _ => false)); [induction l; trivial|]. - apply IHl0. intros x Hx. apply Hl. now right. - intros x Hx. apply Rltb_false. pose proof (Hl x Hx). lra. Qed.
Lemma cell_count i : (S i < k)%nat -> INR (count (in_cell lo hi k i) l) = below (cell_edge lo hi k (S i)) l - below (cell_edge lo hi k i) l.
Proof.
  intros Hi. rewrite <- between_below by (left; apply edge_lt; lia). f_equal. apply count_ext'. intros x Hx. unfold in_cell. rewrite (proj2 (Nat.eqb_neq (S i) k)) by lia. cbn [andb]. now rewrite orb_false_r.
Qed.
Lemma cell_count_last : INR (count (in_cell lo hi k (k - 1)) l) = len l - below (cell_edge lo hi k (k - 1)) l.
Proof.
  rewrite <- from_below. f_equal. apply count_ext'. intros x Hx. unfold in_cell. replace (S (k - 1)) with k by lia. rewrite Nat.eqb_refl, edge_k. cbn [andb]. pose proof (Hl x Hx).
  destruct (Rleb_spec (cell_edge lo hi k (k - 1)) x); cbn [andb]; trivial. destruct (Rltb_spec x hi); cbn [orb]; trivial. apply Reqb_true. lra.
Qed.
Lemma cells_total j : (j < k)%nat -> Rsum (map (fun i => INR (count (in_cell lo hi k i) l)) (seq 0 j)) = below (cell_edge lo hi k j) l.
Proof.
  induction j as [|j IH]; intros Hj; [cbn; now rewrite edge_0, below_lo|]. rewrite seq_S, map_app, Rsum_app, IH by lia. cbn [map Rsum fold_right Nat.add]. rewrite cell_count by exact Hj. ring.
Qed.
Lemma cells_histogram : map INR (histogram (map (fun i => cell_edge lo hi k (S i)) (seq 0 (k - 1))) l) = map (fun i => INR (count (in_cell lo hi k i) l)) (seq 0 k).
Proof.
  apply histogram_shares.
  - assert (W : forall n a, sortedR (map (fun i => cell_edge lo hi k (S i)) (seq a n))); [|apply W]. induction n as [|n IH]; intros a; cbn [seq map]; constructor; trivial; [apply IH|].
    apply Forall_forall. intros x Hx. apply in_map_iff in Hx as (j & <- & Hj). apply in_seq in Hj. left. apply edge_lt. lia.
  - rewrite !map_length, !seq_length. lia.
  - assert (SK : seq 0 k = (seq 0 (k - 1) ++ [k - 1])%nat%list) by (replace k with (S (k - 1)) at 1 by lia; now rewrite seq_S). rewrite SK, map_app, Rsum_app, cells_total by lia. cbn [map Rsum fold_right]. rewrite cell_count_last. ring.
  - intros i Hi. rewrite map_length, seq_length in Hi. rewrite GraphProofs.nth_map_seq by exact Hi. rewrite firstn_map_seq by lia. symmetry. apply cells_total. lia.
Qed.
End Cells.
Lemma pearson_form F l lo hi v : In lo l -> In hi l -> lo < hi -> (forall x, In x l -> lo <= x <= hi) -> chi2_weibull F l = Ok (Some (Fin v)) ->
  len l * v = pearson F lo hi (Nat.sqrt_up (length l)) l.
Proof.
  intros I1 I2 Hlt Hb E. assert (Hne : l <> []) by (intros ->; easy). pose proof (len_pos l Hne) as PL.
  assert (R1 : Rminl 0 l = lo). { apply Rle_antisym; [now apply Rminl_le|]. apply Hb. now apply Rminl_in. }
  assert (R2 : Rmaxl 0 l = hi). { apply Rle_antisym; [apply Hb; now apply Rmaxl_in|now apply Rmaxl_ge]. }
  set (k := Nat.sqrt_up (length l)) in *. assert (Hk : (0 < k)%nat) by (apply sqrt_up_pos; destruct l; [easy|simpl; lia]).
  assert (RG : chi2_range l = (lo, hi)). { unfold chi2_range. rewrite R1, R2. cbv zeta. now rewrite (proj2 (Reqb_false lo hi)) by lra. }
  assert (V : chi2_weibull F l = Ok (Some (power_divergence 1 (map (fun c => INR c / len l) (histogram (map (fun i => chi2_edge l k (S i)) (seq 0 (k - 1))) (rsort l))) (diff (map (fun i => F (chi2_edge l k i)) (seq 0 (S k))))))).
  { unfold chi2_weibull. now rewrite match_ne. }
  rewrite V in E. apply fin_inj in E. unfold power_divergence in E. destruct (pd_sum 1 _ _) as [s|] eqn:Es; [|discriminate]. injection E as ->.
  assert (ED : forall i, chi2_edge l k i = cell_edge lo hi k i) by (intros i; unfold chi2_edge, cell_edge; rewrite RG; reflexivity).
  assert (H : map (fun c => INR c / len l) (histogram (map (fun i => chi2_edge l k (S i)) (seq 0 (k - 1))) (rsort l)) = map (fun i => INR (count (in_cell lo hi k i) l) / len l) (seq 0 k)).
  { rewrite <- (map_map INR (fun c => c / len l)). rewrite (map_ext (fun i => chi2_edge l k (S i)) (fun i => cell_edge lo hi k (S i))) by (intros; apply ED).
    rewrite (cells_histogram lo hi k (rsort l) Hlt Hk) by (intros x Hx; rewrite rsort_in in Hx; now apply Hb). rewrite map_map. apply map_ext. intros i. do 2 f_equal. apply count_perm. apply rsort_perm. }
  assert (G : diff (map (fun i => F (chi2_edge l k i)) (seq 0 (S k))) = map (fun i => F (cell_edge lo hi k (S i)) - F (cell_edge lo hi k i)) (seq 0 k)).
  { apply (nth_ext _ _ 0 0); [rewrite NormReflProofs.diff_length, !map_length, !seq_length; lia|]. intros i Hi. rewrite NormReflProofs.diff_length, map_length, seq_length in Hi.
    rewrite GraphLineProofs.diff_nth_gap by (rewrite map_length, seq_length; lia). rewrite !GraphProofs.nth_map_seq by lia. now rewrite !ED. }
  rewrite H, G in Es. pose proof (pearson_sum _ _ _ _ _ Es) as Ev. rewrite Ev. unfold pearson. rewrite <- Rsum_map_scal. apply Rsum_map_ext. intros i Hi. cbv zeta. set (e := F (cell_edge lo hi k (S i)) - F (cell_edge lo hi k i)).
  destruct (Req_dec e 0) as [Z|Z]; [rewrite Z; unfold Rdiv; rewrite !Rmult_0_r, Rinv_0; ring|]. field. split; lra.
Qed.
(** *** Laplace transforms *)
Lemma lt_form Gam a l v : l <> [] ->
  (lt_execute Gam 100 a "LT2_WEIBULL"%string l = Ok (Some (Fin v)) -> v = len l * Rsum (map (fun i => let t := - (INR i / 100) in exp (a * t - exp (a * t)) * (Gam (1 - t) - transform l t) ^ 2) (seq 1 100))) /\
  (lt_execute Gam 100 a "LT3_WEIBULL"%string l = Ok (Some (Fin v)) -> v = len l * Rsum (map (fun i => let t := - 2.5 + 2.99 * (INR i / 99) in exp (a * t - exp (a * t)) * (Gam (1 - t) - transform l t) ^ 2) (seq 0 100))).
Proof.
  intros Hne. assert (K : forall t, exp (- exp (a * t) + a * t) * (Gam (1 - t) - Rsum (map (fun x => exp (- (x * t))) l) / len l) ^ 2 = exp (a * t - exp (a * t)) * (Gam (1 - t) - transform l t) ^ 2).
  { intros t. f_equal; [f_equal; ring|]. f_equal. f_equal. unfold transform, mean, len. rewrite map_length. f_equal. apply Rsum_map_ext. intros x _. do 2 f_equal. ring. }
  split; intros E; unfold lt_execute in E; rewrite String.eqb_refl in E || cbn [String.eqb Ascii.eqb Bool.eqb] in E; cbn [bind] in E; apply num_inv in E as [_ ->]; f_equal; rewrite (Rsum_map_ext _ _ _ (fun t _ => K t)).
  - unfold linspace. rewrite !map_map. 
    rewrite (Rsum_perm _ _ (Permutation_rev (map _ (seq 1 100)))). rewrite <- map_rev. replace (rev (seq 1 100)) with (map (fun i => 100 - i)%nat (seq 0 100)) by (vm_compute; reflexivity). rewrite map_map. apply Rsum_map_ext. intros i Hi. apply in_seq in Hi. cbv zeta.
    rewrite minus_INR by lia. replace (INR 100) with 100 by (simpl; lra). replace ((- (100) + (-1 - - (100)) * INR i / (100 - 1)) / 100) with (- ((100 - INR i) / 100)) by field. reflexivity.
  - unfold linspace. rewrite map_map. apply Rsum_map_ext. intros i Hi. cbv zeta. replace (INR 100) with 100 by (simpl; lra). replace (-2.5 + (0.49 - -2.5) * INR i / (100 - 1)) with (- 2.5 + 2.99 * (INR i / 99)) by lra. reflexivity.
Qed.
