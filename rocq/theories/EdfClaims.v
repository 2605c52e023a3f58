(** Proofs of the theorems stated in [Props_Edf]. *)
From Verif Require Import Base DecModel DecSpec DecProofs EdfModel EdfSpec EdfProofs EdfRotProofs EdfPowerProofs.
From Coq Require Import Lra Lia.

(** ** distribution functions used in the examples *)
Lemma uniform_cdf_range a b x : a < b -> 0 <= uniform_cdf a b x <= 1.
Proof.
  intros H. unfold uniform_cdf. destruct (Rltb_spec x a); [lra|]. destruct (Rltb_spec b x); [lra|].
  split; [apply Rmult_le_pos; [lra|left; apply Rinv_0_lt_compat; lra]|].
  apply (Rmult_le_reg_r (b - a)); [lra|]. unfold Rdiv. rewrite Rmult_assoc, Rinv_l by lra. lra.
Qed.
Lemma uniform_cdf_inside a b x : a <= x <= b -> uniform_cdf a b x = (x - a) / (b - a).
Proof. intros H. unfold uniform_cdf. rewrite !(proj2 (Rltb_false _ _)) by lra. reflexivity. Qed.
Lemma uniform_cdf_as_max a b x : a < b -> uniform_cdf a b x = Rmin 1 (Rmax 0 ((x - a) / (b - a))).
Proof.
  intros H. assert (Hi : 0 < / (b - a)) by (apply Rinv_0_lt_compat; lra). unfold uniform_cdf.
  destruct (Rltb_spec x a) as [L|L].
  - rewrite Rmax_left; [rewrite Rmin_right; lra|]. unfold Rdiv. nra.
  - assert (0 <= (x - a) / (b - a)) by (apply Rmult_le_pos; lra). rewrite Rmax_right by lra.
    destruct (Rltb_spec b x) as [L2|L2].
    + rewrite Rmin_left; [reflexivity|].
      apply (Rmult_le_reg_r (b - a)); [lra|]. unfold Rdiv. rewrite Rmult_assoc, Rinv_l by lra. lra.
    + rewrite Rmin_right; [reflexivity|].
      apply (Rmult_le_reg_r (b - a)); [lra|]. unfold Rdiv. rewrite Rmult_assoc, Rinv_l by lra. lra.
Qed.
Lemma uniform_cdf_continuous_cdf a b : a < b -> continuous_cdf (uniform_cdf a b).
Proof.
  intros H. assert (Hi : 0 < / (b - a)) by (apply Rinv_0_lt_compat; lra). split; [|split].
  - intros x y Hxy. rewrite !uniform_cdf_as_max by exact H. apply Rle_min_compat_l.
    apply Rle_max_compat_l. apply Rmult_le_compat_r; lra.
  - intros x. apply uniform_cdf_range, H.
  - intros x eps Heps.
    exists (eps * (b - a)). split; [apply Rmult_gt_0_compat; lra|].
    intros y [_ Hy]. simpl in *. unfold R_dist in *. rewrite !uniform_cdf_as_max by exact H.
    assert (L : forall p q, Rabs (Rmin 1 (Rmax 0 p) - Rmin 1 (Rmax 0 q)) <= Rabs (p - q)).
    { intros p q. unfold Rmin, Rmax, Rabs. repeat destruct Rle_dec; repeat destruct Rcase_abs; lra. }
    eapply Rle_lt_trans; [apply L|].
    replace ((y - a) / (b - a) - (x - a) / (b - a)) with ((y - x) * / (b - a)) by (field; lra).
    rewrite Rabs_mult, (Rabs_right (/ (b - a))) by lra.
    apply (Rmult_lt_reg_r (b - a)); [lra|]. rewrite Rmult_assoc, Rinv_l by lra. lra.
Qed.

(** *** C47 *)
Lemma C47_ks_is_sup_distance_holds : forall F rvs, continuous_cdf F -> rvs <> [] ->
  (exists d, ks_stat F TWO_TAILED rvs = Ok d /\ supremum (fun x => Rabs (edf rvs x - F x)) d) /\
  (exists d, ks_stat F RIGHT rvs = Ok d /\ supremum (fun x => edf rvs x - F x) d) /\
  (exists d, ks_stat F LEFT rvs = Ok d /\ supremum (fun x => F x - edf rvs x) d).
Proof.
  intros F rvs HF Hne. unfold ks_stat, cdf_vals.
  rewrite !ks_eval by (apply map_ne, rsort_ne, Hne).
  split; [|split]; eexists; (split; [reflexivity|]).
  - apply ks_sup; auto.
  - apply dplus_sup; auto.
  - apply dminus_sup; auto.
Qed.
(** the supremum is unique, so the value is determined by the distance, whatever the order or ties *)
Lemma C47_ks_value_unique_holds : forall F rvs d, continuous_cdf F -> rvs <> [] ->
  supremum (fun x => Rabs (edf rvs x - F x)) d -> ks_stat F TWO_TAILED rvs = Ok d.
Proof.
  intros F rvs d HF Hne Hd. destruct (C47_ks_is_sup_distance_holds F rvs HF Hne) as ((e & E & He) & _).
  rewrite E. f_equal. apply Rle_antisym; [apply (proj2 He), (proj1 Hd)|apply (proj2 Hd), (proj1 He)].
Qed.
Lemma C47_empty_sample_raises_holds : forall F alt, ks_stat F alt [] = Raise ValueError.
Proof. reflexivity. Qed.
Lemma C47_nonvacuous_holds : continuous_cdf (uniform_cdf 0 2) /\ [1; 0.5; 1] <> [].
Proof. split; [apply uniform_cdf_continuous_cdf; lra|discriminate]. Qed.
(** continuity is needed: with a jump the left limit exceeds the reported value *)
Lemma C47_continuity_needed_holds : exists F rvs d,
  (forall x y, x <= y -> F x <= F y) /\ (forall x, 0 <= F x <= 1) /\ rvs <> [] /\
  ks_stat F TWO_TAILED rvs = Ok d /\ ~ supremum (fun x => Rabs (edf rvs x - F x)) d.
Proof.
  exists (fun x => if Rltb x 0 then 0 else 1), [0], 1.
  assert (E0 : (if Rltb 0 0 then 0 else 1) = 1) by (rewrite (proj2 (Rltb_false 0 0)) by lra; reflexivity).
  split; [|split; [|split; [discriminate|split]]].
  - intros x y H. destruct (Rltb_spec x 0), (Rltb_spec y 0); lra.
  - intros x. destruct (Rltb_spec x 0); lra.
  - unfold ks_stat, cdf_vals. rewrite ks_eval by discriminate. f_equal.
    change (rsort [0]) with [0]. cbn [map]. rewrite E0. unfold dpv, dmv, d_plus, d_minus, imap, len. simpl.
    rewrite Rmax_right; lra.
  - intros [_ H]. assert (1 <= 0); [|lra]. apply H. intros v (x & ->).
    unfold edf. cbn [filter length]. destruct (Rleb_spec 0 x), (Rltb_spec x 0); try lra; simpl;
      match goal with |- Rabs ?e <= 0 => replace e with 0 by lra end; rewrite Rabs_R0; lra.
Qed.
(** *** C48 *)
Lemma C48_ranges_holds : forall F rvs, (forall x y, x <= y -> F x <= F y) -> (forall x, 0 <= F x <= 1) -> rvs <> [] ->
  let n := INR (length rvs) in
  (exists d, ks_stat F TWO_TAILED rvs = Ok d /\ 1 / (2 * n) <= d <= 1) /\
  (exists w, cvm_stat F rvs = Ok w /\ 1 / (12 * n) <= w <= n / 3) /\
  (exists v, kuiper_stat F rvs = Ok v /\ 1 / n <= v <= 1) /\
  (exists u, watson_stat F rvs = Ok u /\ 1 / (12 * n) <= u <= n / 3) /\
  watson_gamma_stat F rvs = watson_stat F rvs.
Proof.
  intros F rvs Hm H01 Hne n. unfold ks_stat, cvm_stat, kuiper_stat, watson_stat, watson_gamma_stat, cdf_vals.
  set (u := map F (rsort rvs)).
  assert (Hu : u <> []) by apply map_ne, rsort_ne, Hne.
  assert (H01u : in01 u) by (intros x Hx; apply in_map_iff in Hx; destruct Hx as (y & <- & _); apply H01).
  assert (Hs : sortedR u) by (apply sorted_map_mono; auto using rsort_sorted).
  assert (Hn : len u = n) by (unfold len, u, n; rewrite map_length, rsort_length; reflexivity).
  pose proof (len_pos u Hu) as HL. rewrite Hn in HL.
  assert (Hcvm := cvm_lower u Hu). assert (Hcvu := cvm_upper u Hu H01u Hs). assert (Hw := watson_lower u).
  split; [|split; [|split; [|split]]].
  - rewrite ks_eval by exact Hu. eexists. split; [reflexivity|]. split.
    + replace (1 / (2 * n)) with (/ (2 * len u)) by (rewrite Hn; field; lra). apply ks_lower, Hu.
    + apply Rmax_lub; [apply dpv_le1|apply dmv_le1]; auto.
  - rewrite cvm_eval by exact Hu. eexists. split; [reflexivity|]. rewrite Hn in *. lra.
  - rewrite kuiper_eval by exact Hu. eexists. split; [reflexivity|]. split.
    + replace (1 / n) with (/ len u) by (rewrite Hn; field; lra). apply kuiper_lower, Hu.
    + apply kuiper_le1; auto.
  - rewrite watson_eval by exact Hu. eexists. split; [reflexivity|]. rewrite Hn in *. split; [lra|].
    rewrite watson_center by exact Hu. rewrite <- sq_sym_sum.
    pose proof (cvm_closed u Hu) as C. rewrite Hn in *.
    assert (0 <= n * (mean u - 1 / 2) ^ 2) by (apply Rmult_le_pos; [lra|apply pow2_ge_0]). lra.
  - rewrite watson_eval, watson_gamma_eval by exact Hu. reflexivity.
Qed.
Lemma C48_one_sided_ranges_holds : forall F rvs, (forall x, 0 <= F x <= 1) -> rvs <> [] ->
  (exists d, ks_stat F RIGHT rvs = Ok d /\ 0 <= d <= 1) /\ (exists d, ks_stat F LEFT rvs = Ok d /\ 0 <= d <= 1).
Proof.
  intros F rvs H01 Hne. unfold ks_stat, cdf_vals. set (u := map F (rsort rvs)).
  assert (Hu : u <> []) by apply map_ne, rsort_ne, Hne.
  assert (H01u : in01 u) by (intros x Hx; apply in_map_iff in Hx; destruct Hx as (y & <- & _); apply H01).
  rewrite !ks_eval by exact Hu. split; eexists; (split; [reflexivity|]).
  - split; [apply dpv_nonneg|apply dpv_le1]; auto.
  - split; [apply dmv_nonneg|apply dmv_le1]; auto.
Qed.
(** the lower bounds are attained at the mid-ranks *)
Lemma C48_lower_bounds_attained_holds : forall n, (0 < n)%nat ->
  let v := map (fun i => (2 * INR (S i) - 1) / (2 * INR n)) (seq 0 n) in
  ks_stat (fun x => x) TWO_TAILED v = Ok (1 / (2 * INR n)) /\
  cvm_stat (fun x => x) v = Ok (1 / (12 * INR n)) /\ kuiper_stat (fun x => x) v = Ok (1 / INR n) /\
  watson_stat (fun x => x) v = Ok (1 / (12 * INR n)).
Proof.
  intros n Hn v. assert (HN : 0 < INR n) by (apply lt_0_INR; lia).
  assert (Hv : v <> []) by (unfold v; destruct n; [lia|discriminate]).
  assert (EL : len v = INR n) by (unfold len, v; rewrite map_length, seq_length; reflexivity).
  assert (Hs : rsort v = v).
  { apply rsort_id. unfold v. assert (G : forall k m, sortedR (map (fun i => (2 * INR (S i) - 1) / (2 * INR n)) (seq k m))).
    { intros k m; revert k; induction m as [|m IH]; intros k; cbn [seq map]; constructor; [apply IH|].
      rewrite Forall_forall. intros y Hy. apply in_map_iff in Hy. destruct Hy as (i & <- & Hi). apply in_seq in Hi.
      apply Rmult_le_compat_r; [left; apply Rinv_0_lt_compat; lra|].
      assert (INR (S k) <= INR (S i)) by (apply le_INR; lia). lra. }
    apply G. }
  unfold ks_stat, cvm_stat, kuiper_stat, watson_stat, cdf_vals. rewrite map_id, Hs.
  assert (Hd : devs v = map (fun _ => 0) v).
  { unfold devs. rewrite EL. unfold v. rewrite imap_map, map_map, (imap_seq _ _ 0%nat), seq_length.
    apply map_ext_in. intros i Hi. apply in_seq in Hi. rewrite seq_nth by lia. simpl plus. ring. }
  assert (Hdp : dpv v = 1 / (2 * INR n)).
  { unfold dpv. rewrite d_plus_devs, Hd, map_map, EL by exact Hv. apply Rmaxl_unique.
    - destruct v as [|x v0]; [congruence|]. simpl. left. ring.
    - intros y Hy. apply in_map_iff in Hy. destruct Hy as (z & <- & _). lra. }
  assert (Hdm : dmv v = 1 / (2 * INR n)).
  { unfold dmv. rewrite d_minus_devs, Hd, map_map, EL by exact Hv. apply Rmaxl_unique.
    - destruct v as [|x v0]; [congruence|]. simpl. left. ring.
    - intros y Hy. apply in_map_iff in Hy. destruct Hy as (z & <- & _). lra. }
  assert (Hsq : Rsum (imap (fun i x => (x - (2 * INR (S i) - 1) / (2 * len v)) ^ 2) v) = 0).
  { assert (E : imap (fun i x => (x - (2 * INR (S i) - 1) / (2 * len v)) ^ 2) v = map (fun d => d ^ 2) (devs v))
      by (unfold devs; rewrite map_imap; reflexivity).
    rewrite E, Hd, map_map, Rsum_map_const. ring. }
  rewrite ks_eval, kuiper_eval, cvm_eval, watson_eval by exact Hv.
  rewrite <- cvm_closed by exact Hv. rewrite sq_sym_sum, Hsq, EL, Hdp, Hdm.
  split; [|split; [|split]]; f_equal.
  - apply Rmax_left; lra.
  - lra.
  - field; lra.
  - rewrite watson_center, Hsq, EL by exact Hv.
    pose proof (devs_sum v Hv) as S. rewrite Hd, Rsum_map_const, EL in S.
    assert (Hmean : mean v = 1 / 2) by (unfold mean; rewrite EL; replace (Rsum v) with (INR n / 2) by lra; field; lra).
    rewrite Hmean. field. lra.
Qed.
Lemma C48_nonvacuous_holds : (forall x y, x <= y -> uniform_cdf 0 1 x <= uniform_cdf 0 1 y) /\ (forall x, 0 <= uniform_cdf 0 1 x <= 1).
Proof. destruct (uniform_cdf_continuous_cdf 0 1 ltac:(lra)) as (A & B & _). auto. Qed.

(** *** C50 *)
Lemma C50_ad_nonnegative_holds : forall F rvs, rvs <> [] -> (forall x, In x rvs -> 0 < F x < 1) ->
  exists a, ad_stat F rvs = Fin a /\ 0 <= a.
Proof.
  intros F rvs Hne HF. unfold ad_stat, ad_of_cdf, cdf_vals. set (u := map F (rsort rvs)).
  assert (Hu : u <> []) by apply map_ne, rsort_ne, Hne.
  assert (Hin : forall x, In x u -> 0 < x < 1).
  { intros x Hx. apply in_map_iff in Hx. destruct Hx as (y & <- & Hy). apply HF, rsort_in, Hy. }
  assert (E : forallb (fun x => Rltb 0 x && Rltb x 1) u = true).
  { apply forallb_forall. intros x Hx. destruct (Hin x Hx). rewrite andb_true_iff, !Rltb_true. auto. }
  rewrite E. eexists. split; [reflexivity|].
  eapply Rle_trans; [|apply ad_lower; auto]. apply ad_min_nonneg. destruct u; [congruence|simpl; lia].
Qed.
(** best possible lower bound for each sample size *)
Lemma C50_sharp_lower_bound_holds : forall n, (0 < n)%nat -> exists m,
  0 <= m /\
  (forall F rvs a, length rvs = n -> ad_stat F rvs = Fin a -> m <= a) /\
  (exists v, length v = n /\ ad_stat (fun x => x) v = Fin m).
Proof.
  intros n Hn. exists (ad_min n). split; [apply ad_min_nonneg, Hn|]. split.
  - intros F rvs a HL. unfold ad_stat, ad_of_cdf, cdf_vals. destruct (forallb _ _) eqn:E; [|discriminate].
    intros H; injection H as <-.
    replace n with (length (map F (rsort rvs))) by (rewrite map_length, rsort_length; exact HL).
    apply ad_lower.
    + apply map_ne, rsort_ne. destruct rvs; simpl in HL; [lia|discriminate].
    + intros x Hx. rewrite forallb_forall in E. specialize (E x Hx). rewrite andb_true_iff, !Rltb_true in E. exact E.
  - exists (map (midrank (INR n)) (seq 0 n)). split; [rewrite map_length, seq_length; reflexivity|].
    assert (HN : 0 < INR n) by (apply lt_0_INR; lia).
    assert (Hs : rsort (map (midrank (INR n)) (seq 0 n)) = map (midrank (INR n)) (seq 0 n)).
    { apply rsort_id. generalize 0%nat as k. generalize n at 2 as m. induction m as [|m IH]; intros k; cbn [seq map]; constructor; [apply IH|].
      rewrite Forall_forall. intros y Hy. apply in_map_iff in Hy. destruct Hy as (i & <- & Hi). apply in_seq in Hi.
      unfold midrank. apply Rmult_le_compat_r; [left; apply Rinv_0_lt_compat; lra|].
      assert (INR (S k) <= INR (S i)) by (apply le_INR; lia). lra. }
    unfold ad_stat, ad_of_cdf, cdf_vals. rewrite map_id, Hs.
    assert (E : forallb (fun x => Rltb 0 x && Rltb x 1) (map (midrank (INR n)) (seq 0 n)) = true).
    { apply forallb_forall. intros x Hx. apply in_map_iff in Hx. destruct Hx as (i & <- & Hi). apply in_seq in Hi.
      pose proof (midrank_range (map INR (seq 0 n)) i) as M. unfold len in M. rewrite map_length, seq_length in M.
      specialize (M ltac:(lia)). rewrite andb_true_iff, !Rltb_true. exact M. }
    rewrite E. f_equal. apply (ad_min_attained n Hn).
Qed.
(** an observation where the hypothesised cdf is 0 or 1 makes the statistic infinite *)
Lemma C50_finite_iff_inside_holds : forall F rvs,
  ad_stat F rvs = NonFinite <-> exists x, In x rvs /\ (F x <= 0 \/ 1 <= F x).
Proof.
  intros F rvs. unfold ad_stat, ad_of_cdf, cdf_vals. destruct (forallb _ _) eqn:E.
  - split; [discriminate|]. intros (x & Hx & HF). rewrite forallb_forall in E.
    specialize (E (F x) (in_map F _ _ (proj2 (rsort_in _ _) Hx))). rewrite andb_true_iff, !Rltb_true in E. lra.
  - split; [intros _|reflexivity].
    assert (N : ~ Forall (fun x => 0 < F x < 1) rvs).
    { intros Hf. rewrite Forall_forall in Hf.
      assert (forallb (fun x => Rltb 0 x && Rltb x 1) (map F (rsort rvs)) = true); [|congruence].
      apply forallb_forall. intros x Hx. apply in_map_iff in Hx. destruct Hx as (y & <- & Hy).
      rewrite andb_true_iff, !Rltb_true. apply Hf, rsort_in, Hy. }
    clear E. induction rvs as [|x rvs IH]; [exfalso; apply N; constructor|].
    destruct (Rle_lt_dec (F x) 0) as [L|L]; [exists x; simpl; auto|].
    destruct (Rle_lt_dec 1 (F x)) as [L1|L1]; [exists x; simpl; auto|].
    destruct IH as (y & Hy & HF); [intros Hf; apply N; constructor; auto|]. exists y; simpl; auto.
Qed.
Lemma C50_nonvacuous_holds : forall x, In x [0.5; 1; 0.25] -> 0 < uniform_cdf 0 2 x < 1.
Proof. intros x [<-|[<-|[<-|[]]]]; rewrite uniform_cdf_inside; lra. Qed.

(** *** C51 *)
Lemma C51_watson_kuiper_rotation_holds : forall F x y t, (forall a b, a <= b -> F a <= F b) -> x <> [] -> 0 <= t < 1 ->
  (forall v, In v x -> 0 <= F v < 1) -> Permutation (map F y) (map (fun v => rotate t (F v)) x) ->
  watson_stat F y = watson_stat F x /\ watson_gamma_stat F y = watson_gamma_stat F x /\
  kuiper_stat F y = kuiper_stat F x.
Proof.
  intros F x y t Hm Hx Ht H01 HP. unfold watson_stat, watson_gamma_stat, kuiper_stat, cdf_vals.
  rewrite <- !(rsort_map_mono F) by auto.
  rewrite (rsort_perm_eq _ _ HP). rewrite <- (map_map F (rotate t)).
  set (v := map F x). assert (Hv : v <> []) by apply map_ne, Hx.
  assert (Hv01 : forall a, In a v -> 0 <= a < 1) by (intros a Ha; apply in_map_iff in Ha; destruct Ha as (b & <- & Hb); auto).
  destruct (rotation_devs t v Hv Ht Hv01) as (c & HPd).
  assert (N1 : rsort v <> []) by apply rsort_ne, Hv.
  assert (N2 : rsort (map (rotate t) v) <> []) by apply rsort_ne, map_ne, Hv.
  rewrite !watson_eval, !watson_gamma_eval, !kuiper_eval by assumption.
  rewrite (watson_devs_inv _ _ c N1 N2 HPd), (kuiper_devs_inv _ _ c N1 N2 HPd). auto.
Qed.
(** rotating by 1/2 moves 0.1, 0.7, 0.4 to 0.6, 0.2, 0.9 *)
Lemma C51_nonvacuous_holds :
  (forall v, In v [0.1; 0.7; 0.4] -> 0 <= v < 1) /\ map (rotate (1/2)) [0.1; 0.7; 0.4] = [0.6; 0.2; 0.9].
Proof.
  split; [intros v [<-|[<-|[<-|[]]]]; lra|]. unfold rotate. cbn [map]. rcase. list_eq.
Qed.
(** KS and CvM are not invariant (so the theorem distinguishes them) *)
Lemma C51_ks_is_not_invariant_holds : exists x t,
  (forall v, In v x -> 0 <= v < 1) /\ 0 <= t < 1 /\
  ks_stat (fun v => v) TWO_TAILED (map (rotate t) x) <> ks_stat (fun v => v) TWO_TAILED x.
Proof.
  exists [0], (1/2). split; [intros v [<-|[]]; lra|]. split; [lra|].
  unfold ks_stat, cdf_vals, rotate. cbn [map]. rcase. simpl rsort. cbn [map].
  rewrite !ks_eval by discriminate. unfold dpv, dmv, d_plus, d_minus, imap, len. simpl. intros HH. injection HH as HH.
  revert HH. unfold Rmax. repeat destruct Rle_dec; lra.
Qed.
(** *** C52 *)
(** the uniform variant omits the "- 1/2" of Watson's correction and divides by n *)
Lemma C52_uniform_watson_refuted_holds : exists rvs u code, rvs <> [] /\ (forall x, In x rvs -> 0 <= x <= 1) /\
  watson_stat (uniform_cdf 0 1) rvs = Ok u /\ watson_uniform 0 1 rvs = Ok code /\ code <> u /\ code <> u / INR (length rvs).
Proof.
  exists [1/2], (1/12), (1/12 + 1/4). split; [discriminate|]. split; [intros x [<-|[]]; lra|].
  assert (E : uniform_cdf 0 1 (1/2) = 1/2) by (rewrite uniform_cdf_inside; lra).
  split; [|split; [|split; [lra|simpl; lra]]].
  - unfold watson_stat, cdf_vals. simpl rsort. cbn [map]. rewrite E, watson_eval by discriminate. f_equal.
    unfold watson_val, mean, len, imap. simpl. lra.
  - unfold watson_uniform, uniform_validate. cbn [existsb]. rcase. simpl. unfold watson_uniform_of, uniform_std, mean, len, imap. simpl.
    f_equal. lra.
Qed.
(** exactly what is computed: U^2/n + 1/4, an increasing function of U^2 for each n *)
Lemma C52_uniform_watson_value_holds : forall a b rvs, a < b -> rvs <> [] -> (forall x, In x rvs -> a <= x <= b) ->
  exists u, watson_stat (uniform_cdf a b) rvs = Ok u /\
            watson_uniform a b rvs = Ok (u / INR (length rvs) + 1 / 4).
Proof.
  intros a b rvs Hab Hne Hin. unfold watson_stat, cdf_vals, watson_uniform, uniform_validate.
  assert (Ev : existsb (fun x => Rltb x a || Rltb b x) rvs = false).
  { destruct (existsb _ rvs) eqn:E; auto. apply existsb_exists in E. destruct E as (x & Hx & H).
    specialize (Hin x Hx). rewrite orb_true_iff, !Rltb_true in H. lra. }
  rewrite Ev. cbn [bind].
  assert (E : map (uniform_cdf a b) (rsort rvs) = uniform_std a b (rsort rvs)).
  { apply map_ext_in. intros x Hx. apply uniform_cdf_inside, Hin, rsort_in, Hx. }
  assert (N : uniform_std a b (rsort rvs) <> []) by apply map_ne, rsort_ne, Hne.
  rewrite E, watson_eval, watson_uniform_eval by exact N.
  eexists. split; [reflexivity|]. f_equal. f_equal. f_equal.
  unfold len, uniform_std. rewrite map_length, rsort_length. reflexivity.
Qed.
(** *** C53 *)
Lemma C53_nonnegative_holds : forall lambda_ f_obs f_exp s, length f_obs = length f_exp ->
  (forall o, In o f_obs -> 0 <= o) -> (forall e, In e f_exp -> 0 < e) -> Rsum f_obs = Rsum f_exp ->
  power_divergence lambda_ f_obs f_exp = Fin s -> 0 <= s.
Proof. exact pd_nonneg. Qed.
Lemma C53_zero_when_equal_holds : forall lambda_ f, (forall e, In e f -> 0 < e) -> power_divergence lambda_ f f = Fin 0.
Proof. exact pd_equal. Qed.
Lemma C53_pearson_zero_only_when_equal_holds : forall f_obs f_exp, length f_obs = length f_exp ->
  (forall e, In e f_exp -> 0 < e) -> power_divergence 1 f_obs f_exp = Fin 0 -> f_obs = f_exp.
Proof.
  intros f_obs f_exp HL He H. unfold power_divergence in H. destruct (pd_sum 1 f_obs f_exp) as [s|] eqn:E; [|discriminate].
  injection H as ->. apply (proj2 (pearson_ge _ _ _ HL He E)). reflexivity.
Qed.
Lemma C53_value_exists_holds : forall lambda_ f_obs f_exp, (forall e, In e f_exp -> 0 < e) ->
  0 <= lambda_ \/ (forall o, In o f_obs -> o <> 0) -> exists s, power_divergence lambda_ f_obs f_exp = Fin s.
Proof. exact pd_defined. Qed.
(** without equal totals the likelihood ratio can be negative *)
Lemma C53_totals_needed_holds : exists f_obs f_exp s, length f_obs = length f_exp /\ (forall o, In o f_obs -> 0 <= o) /\
  (forall e, In e f_exp -> 0 < e) /\ power_divergence 0 f_obs f_exp = Fin s /\ s < 0.
Proof.
  exists [1], [2], (2 * (1 * ln (1 / 2)) + 0). split; [reflexivity|]. split; [intros o [<-|[]]; lra|].
  split; [intros e [<-|[]]; lra|]. split.
  - unfold power_divergence, pd_sum, pd_term, xlogy. rewrite (proj2 (Reqb_false 0 1)), (proj2 (Reqb_true 0 0)) by lra.
    rewrite (proj2 (Reqb_false 2 0)), (proj2 (Reqb_false 1 0)) by lra. reflexivity.
  - assert (ln (1 / 2) < 0); [|lra]. rewrite <- ln_1. apply ln_increasing; lra.
Qed.
(** the binned statistics of the library always compare counts with equal totals *)
Lemma C53_binned_statistics_nonnegative_holds : forall ppf lambda_ bins rvs s, (2 <= bins)%nat ->
  binned_stat ppf lambda_ bins rvs = Ok (Fin s) -> 0 <= s.
Proof.
  intros ppf lambda_ bins rvs s Hb H. unfold binned_stat in H. destruct rvs as [|x rvs0] eqn:E; [discriminate|]. rewrite <- E in H.
  assert (Hne : rvs <> []) by (subst; discriminate). clear E. injection H as H.
  assert (HB : 0 < INR bins) by (apply lt_0_INR; lia). pose proof (len_pos rvs Hne).
  refine (pd_nonneg _ _ _ _ _ _ _ _ H).
  - rewrite map_length, histogram_length, map_length, seq_length, repeat_length. lia.
  - intros o Ho. apply in_map_iff in Ho. destruct Ho as (k & <- & _). apply pos_INR.
  - intros e He. apply repeat_spec in He. subst e. apply Rdiv_lt_0_compat; lra.
  - rewrite histogram_total, Rsum_repeat. field. lra.
Qed.
Lemma C53_uniform_chi2_nonnegative_holds : forall a b lambda_ bins rvs s, (2 <= bins)%nat -> rvs <> [] ->
  chi2_uniform a b lambda_ bins rvs = Ok (Fin s) -> 0 <= s.
Proof.
  intros a b lambda_ bins rvs s Hb Hne H. unfold chi2_uniform, uniform_validate in H. destruct (existsb _ rvs); [discriminate|].
  cbn [bind] in H. injection H as H.
  assert (HB : 0 < INR bins) by (apply lt_0_INR; lia). pose proof (len_pos rvs Hne).
  refine (pd_nonneg _ _ _ _ _ _ _ _ H).
  - rewrite map_length, histogram_length, map_length, seq_length, repeat_length. lia.
  - intros o Ho. apply in_map_iff in Ho. destruct Ho as (k & <- & _). apply pos_INR.
  - intros e He. apply repeat_spec in He. subst e. apply Rdiv_lt_0_compat; lra.
  - rewrite histogram_total, Rsum_repeat. field. lra.
Qed.
(** what the histogram counts: bin i holds the observations in [edge_{i-1}, edge_i) *)
Lemma C53_histogram_counts_holds : forall inner s i, StronglySorted Rle inner -> (i <= length inner)%nat ->
  nth i (histogram inner s) 0%nat =
  length (filter (fun x => (match i with O => true | S j => Rleb (nth j inner 0) x end) &&
                           (if (i <? length inner)%nat then Rltb x (nth i inner 0) else true)) s).
Proof. exact histogram_nth. Qed.
Lemma C53_nonvacuous_holds : Rsum [3; 0; 1] = Rsum [1; 2; 1] /\ power_divergence 1 [3; 0; 1] [1; 2; 1] = Fin 6.
Proof.
  split; [simpl; lra|]. unfold power_divergence, pd_sum, pd_term. rewrite (proj2 (Reqb_true 1 1)) by lra.
  rewrite !(proj2 (Reqb_false _ _)) by lra. f_equal. lra.
Qed.

(** *** C54 *)
Lemma C54_order_irrelevant_cdf_based_holds : forall F alt rvs1 rvs2, Permutation rvs1 rvs2 ->
  ks_stat F alt rvs1 = ks_stat F alt rvs2 /\ ad_stat F rvs1 = ad_stat F rvs2 /\ cvm_stat F rvs1 = cvm_stat F rvs2 /\
  watson_stat F rvs1 = watson_stat F rvs2 /\ watson_gamma_stat F rvs1 = watson_gamma_stat F rvs2 /\
  kuiper_stat F rvs1 = kuiper_stat F rvs2 /\ mt_stat F rvs1 = mt_stat F rvs2 /\
  greenwood_stat F rvs1 = greenwood_stat F rvs2 /\ moran_stat F rvs1 = moran_stat F rvs2 /\
  qm_lognormal_stat F rvs1 = qm_lognormal_stat F rvs2.
Proof.
  intros F alt rvs1 rvs2 H.
  unfold ks_stat, ad_stat, cvm_stat, watson_stat, watson_gamma_stat, kuiper_stat, mt_stat, greenwood_stat, moran_stat, qm_lognormal_stat, cdf_vals.
  rewrite (rsort_perm_eq _ _ H), (rsort_perm_eq _ _ (Permutation_map F H)). auto 15.
Qed.
Lemma uniform_validate_perm a b x y : Permutation x y ->
  (exists e, uniform_validate a b x = Raise e /\ uniform_validate a b y = Raise e) \/
  (uniform_validate a b x = Ok x /\ uniform_validate a b y = Ok y).
Proof.
  intros H. unfold uniform_validate.
  assert (E : existsb (fun x => Rltb x a || Rltb b x) x = existsb (fun x => Rltb x a || Rltb b x) y).
  { apply Bool.eq_iff_eq_true. rewrite !existsb_exists. split; intros (z & Hz & Hp); exists z; split; auto;
      [apply (Permutation_in _ H Hz)|apply (Permutation_in _ (Permutation_sym H) Hz)]. }
  rewrite E. destruct (existsb _ y); [left; eauto|right; auto].
Qed.
Lemma histogram_perm inner : forall s1 s2, Permutation s1 s2 -> histogram inner s1 = histogram inner s2.
Proof.
  induction inner as [|e inner IH]; intros s1 s2 H; cbn [histogram].
  - rewrite (Permutation_length H). reflexivity.
  - f_equal; [apply (count_perm (fun x => Rltb x e)), H|]. apply IH.
    clear IH. induction H; simpl; auto.
    + destruct (negb (Rltb x e)); auto.
    + destruct (negb (Rltb x e)), (negb (Rltb y e)); auto. constructor.
    + eapply Permutation_trans; eauto.
Qed.
Lemma C54_order_irrelevant_uniform_holds : forall a b alt lambda_ bins rvs1 rvs2, Permutation rvs1 rvs2 ->
  ks_uniform a b alt rvs1 = ks_uniform a b alt rvs2 /\ ad_uniform a b rvs1 = ad_uniform a b rvs2 /\
  cvm_uniform a b rvs1 = cvm_uniform a b rvs2 /\ chi2_uniform a b lambda_ bins rvs1 = chi2_uniform a b lambda_ bins rvs2 /\
  watson_uniform a b rvs1 = watson_uniform a b rvs2 /\ kuiper_uniform a b rvs1 = kuiper_uniform a b rvs2 /\
  greenwood_uniform a b rvs1 = greenwood_uniform a b rvs2 /\ sherman_uniform a b rvs1 = sherman_uniform a b rvs2 /\
  qm_uniform a b rvs1 = qm_uniform a b rvs2.
Proof.
  intros a b alt lambda_ bins rvs1 rvs2 H.
  unfold ks_uniform, ad_uniform, cvm_uniform, chi2_uniform, watson_uniform, kuiper_uniform, greenwood_uniform, sherman_uniform, qm_uniform.
  destruct (uniform_validate_perm a b _ _ H) as [(e & -> & ->)|(-> & ->)]; cbn [bind]; [auto 15|].
  rewrite (rsort_perm_eq _ _ H), (histogram_perm _ _ _ H). unfold len. rewrite (Permutation_length H). auto 15.
Qed.
Lemma C54_order_irrelevant_binned_holds : forall ppf lambda_ bins rvs1 rvs2, Permutation rvs1 rvs2 ->
  binned_stat ppf lambda_ bins rvs1 = binned_stat ppf lambda_ bins rvs2.
Proof.
  intros ppf lambda_ bins rvs1 rvs2 H. unfold binned_stat. rewrite (histogram_perm _ _ _ H). unfold len.
  rewrite (Permutation_length H). destruct rvs1 as [|x1 r1], rvs2 as [|x2 r2]; auto.
  - apply Permutation_nil_cons in H. destruct H.
  - apply Permutation_sym, Permutation_nil_cons in H. destruct H.
Qed.
Lemma C54_nonvacuous_holds : Permutation [3; 1; 2] [1; 2; 3].
Proof. apply (Permutation_cons_app [1; 2] []). reflexivity. Qed.

(** *** C61 (uniform): location and scale of the hypothesis are used *)
Lemma uniform_cdf_affine a b x : a < b -> uniform_cdf a b (a + (b - a) * x) = uniform_cdf 0 1 x.
Proof.
  intros H. rewrite !uniform_cdf_as_max by lra. f_equal. f_equal. field. lra.
Qed.
Lemma uniform_validate_affine a b rvs : a < b ->
  uniform_validate a b (map (fun x => a + (b - a) * x) rvs) =
  (let! _ := uniform_validate 0 1 rvs in Ok (map (fun x => a + (b - a) * x) rvs)).
Proof.
  intros H. unfold uniform_validate.
  assert (E : existsb (fun x => Rltb x a || Rltb b x) (map (fun x => a + (b - a) * x) rvs)
            = existsb (fun x => Rltb x 0 || Rltb 1 x) rvs).
  { induction rvs as [|x rvs IH]; [reflexivity|]. cbn [map existsb]. rewrite IH. f_equal. f_equal.
    - destruct (Rltb_spec (a + (b - a) * x) a), (Rltb_spec x 0); auto; exfalso; nra.
    - destruct (Rltb_spec b (a + (b - a) * x)), (Rltb_spec 1 x); auto; exfalso; nra. }
  rewrite E. destruct (existsb _ rvs); reflexivity.
Qed.
Lemma C61_uniform_statistics_use_parameters_holds : forall a b alt rvs, a < b ->
  let data := map (fun x => a + (b - a) * x) rvs in
  ks_uniform a b alt data = ks_uniform 0 1 alt rvs /\ ad_uniform a b data = ad_uniform 0 1 rvs /\
  cvm_uniform a b data = cvm_uniform 0 1 rvs.
Proof.
  intros a b alt rvs H data. unfold ks_uniform, ad_uniform, cvm_uniform, data.
  rewrite uniform_validate_affine by exact H.
  unfold uniform_validate. destruct (existsb _ rvs); cbn [bind]; [auto|].
  rewrite (rsort_map_mono (fun x => a + (b - a) * x)) by (intros; nra). rewrite map_map.
  rewrite (map_ext (fun x => uniform_cdf a b (a + (b - a) * x)) (uniform_cdf 0 1)) by (intros; apply uniform_cdf_affine, H).
  auto.
Qed.
(** the same holds for Watson, Kuiper and Greenwood *)
Lemma uniform_std_affine a b l : a < b -> uniform_std a b (map (fun x => a + (b - a) * x) l) = l.
Proof. intros H. unfold uniform_std. rewrite map_map. rewrite <- map_id. apply map_ext. intros x. field. lra. Qed.
Lemma uniform_std_01 l : uniform_std 0 1 l = l.
Proof. unfold uniform_std. rewrite <- map_id. apply map_ext. intros x. field. Qed.
Lemma C61_uniform_watson_kuiper_greenwood_use_parameters_holds : forall a b rvs, a < b ->
  let data := map (fun x => a + (b - a) * x) rvs in
  watson_uniform a b data = watson_uniform 0 1 rvs /\ kuiper_uniform a b data = kuiper_uniform 0 1 rvs /\
  greenwood_uniform a b data = greenwood_uniform 0 1 rvs.
Proof.
  intros a b rvs H data. unfold watson_uniform, kuiper_uniform, greenwood_uniform, data.
  rewrite uniform_validate_affine by exact H.
  unfold uniform_validate. destruct (existsb _ rvs); cbn [bind]; [auto|].
  rewrite (rsort_map_mono (fun x => a + (b - a) * x)) by (intros; nra).
  rewrite uniform_std_affine, !uniform_std_01 by exact H.
  assert (E01 : negb (Reqb 0 0) || negb (Reqb 1 1) = false) by (rewrite !(proj2 (Reqb_true _ _)) by reflexivity; reflexivity).
  rewrite E01. split; [reflexivity|split; [|reflexivity]].
  destruct (negb (Reqb a 0) || negb (Reqb b 1)) eqn:E; [reflexivity|].
  apply orb_false_iff in E. rewrite !negb_false_iff, !Reqb_true in E. destruct E as [-> ->].
  f_equal. rewrite <- map_id. apply map_ext. intros; ring.
Qed.
(** Sherman and Quesenberry-Miller are not standardised: they scale with b - a *)
Lemma C61_uniform_sherman_qm_scale_holds : forall a b rvs v w, a < b ->
  let data := map (fun x => a + (b - a) * x) rvs in
  sherman_uniform 0 1 rvs = Ok v -> qm_uniform 0 1 rvs = Ok w ->
  sherman_uniform a b data = Ok ((b - a) * v) /\ qm_uniform a b data = Ok ((b - a) ^ 2 * w).
Proof.
  intros a b rvs v w H data. unfold sherman_uniform, qm_uniform, data.
  rewrite uniform_validate_affine by exact H.
  unfold uniform_validate. destruct (existsb _ rvs); cbn [bind]; [discriminate|].
  rewrite (rsort_map_mono (fun x => a + (b - a) * x)) by (intros; nra).
  set (s := rsort rvs).
  assert (Esp : spacings a (map (fun x => a + (b - a) * x) s) b = map (fun d => (b - a) * d) (spacings 0 s 1)).
  { unfold spacings.
    assert (G : forall p l, diff (map (fun x => a + (b - a) * x) (p :: l)) = map (fun d => (b - a) * d) (diff (p :: l))).
    { intros p l; revert p; induction l as [|q l IH]; intros p; [reflexivity|].
      change (diff (p :: q :: l)) with ((q - p) :: diff (q :: l)). cbn [map].
      change (diff (?x :: ?y :: ?r)) with ((y - x) :: diff (y :: r)) at 1. f_equal; [ring|]. apply (IH q). }
    rewrite <- G. cbn [map]. rewrite map_app. cbn [map]. f_equal. f_equal; [ring|]. f_equal. f_equal. ring. }
  intros Hv Hw. injection Hv as <-. injection Hw as <-.
  unfold sherman_of, quesenberry_miller_of. rewrite Esp, len_map, !map_map. split; f_equal.
  - rewrite (Rsum_map_ext _ (fun d => (b - a) * Rabs (d - (1 - 0) / (len s + 1)))).
    + rewrite Rsum_map_scal. ring.
    + intros d _. rewrite <- (Rabs_right (b - a)) at 3 by lra. rewrite <- Rabs_mult. f_equal.
      assert (0 <= len s) by apply pos_INR. field. lra.
  - rewrite (Rsum_map_ext _ (fun d => (b - a) ^ 2 * d ^ 2)) by (intros; ring). rewrite Rsum_map_scal.
    assert (G : forall l, consecutive_products (map (fun d => (b - a) * d) l) = (b - a) ^ 2 * consecutive_products l).
    { induction l as [|x l IH]; [simpl; ring|]. destruct l as [|y l]; [simpl; ring|].
      change (consecutive_products (x :: y :: l)) with (x * y + consecutive_products (y :: l)). cbn [map] in *.
      change (consecutive_products (?p :: ?q :: ?r)) with (p * q + consecutive_products (q :: r)) at 1. rewrite IH. ring. }
    rewrite G. ring.
Qed.
Lemma C61_nonvacuous_holds : map (fun x => 2 + (5 - 2) * x) [0; 1/3; 1] = [2; 3; 5].
Proof. cbn [map]. list_eq. Qed.

(** *** C66 *)
Lemma C66_greenwood_range_holds : forall F rvs v, (forall x y, x <= y -> F x <= F y) -> (forall x, 0 <= F x <= 1) ->
  greenwood_stat F rvs = Ok v -> 1 / (INR (length rvs) + 1) <= v <= 1.
Proof.
  intros F rvs v Hm H01 H. unfold greenwood_stat, cdf_vals in H. destruct (existsb _ _); [discriminate|]. injection H as <-.
  pose proof (greenwood_bounds (map F (rsort rvs))) as G. unfold len in G. rewrite map_length, rsort_length in G.
  replace (1 / (INR (length rvs) + 1)) with (/ (INR (length rvs) + 1)) by (pose proof (pos_INR (length rvs)); field; lra).
  apply G; [apply sorted_map_mono; auto using rsort_sorted|].
  intros x Hx. apply in_map_iff in Hx. destruct Hx as (y & <- & _). apply H01.
Qed.
Lemma C66_greenwood_never_raises_holds : forall F rvs, (forall x y, x <= y -> F x <= F y) -> (forall x, 0 <= F x <= 1) ->
  exists v, greenwood_stat F rvs = Ok v.
Proof.
  intros F rvs Hm H01. unfold greenwood_stat, cdf_vals. destruct (existsb _ _) eqn:E; [|eauto].
  apply existsb_exists in E. destruct E as (d & Hd & Hlt). apply Rltb_true in Hlt. exfalso.
  assert (0 <= d); [|lra]. eapply spacings_nonneg; [| | |exact Hd].
  - apply sorted_map_mono; auto using rsort_sorted.
  - lra.
  - intros x Hx. apply in_map_iff in Hx. destruct Hx as (y & <- & _). apply H01.
Qed.
Lemma C66_uniform_spacing_ranges_holds : forall a b rvs, a < b -> (forall x, In x rvs -> a <= x <= b) ->
  let n := INR (length rvs) in
  (exists g, greenwood_uniform a b rvs = Ok g /\ 1 / (n + 1) <= g <= 1) /\
  (exists s, sherman_uniform a b rvs = Ok s /\ 0 <= s <= (b - a) * (n / (n + 1))) /\
  (exists q, qm_uniform a b rvs = Ok q /\ (b - a) ^ 2 / (n + 1) <= q <= (b - a) ^ 2).
Proof.
  intros a b rvs Hab Hin n. unfold greenwood_uniform, sherman_uniform, qm_uniform, uniform_validate.
  assert (Ev : existsb (fun x => Rltb x a || Rltb b x) rvs = false).
  { destruct (existsb _ rvs) eqn:E; auto. apply existsb_exists in E. destruct E as (x & Hx & H).
    specialize (Hin x Hx). rewrite orb_true_iff, !Rltb_true in H. lra. }
  rewrite Ev. cbn [bind]. set (s := rsort rvs).
  assert (Hs : sortedR s) by apply rsort_sorted.
  assert (Hsin : forall x, In x s -> a <= x <= b) by (intros x Hx; apply Hin, rsort_in, Hx).
  assert (HL : len s = n) by apply len_rsort. assert (Hn : 0 <= n) by apply pos_INR.
  assert (Hnn := spacings_nonneg a s b Hs ltac:(lra) Hsin).
  assert (HLs : len (spacings a s b) = n + 1) by (unfold len; rewrite spacings_length, S_INR; rewrite <- HL; reflexivity).
  pose proof (spacings_sum a s b) as Hsum.
  split; [|split]; eexists; (split; [reflexivity|]).
  - replace (1 / (n + 1)) with (/ (len (uniform_std a b s) + 1)) by (unfold uniform_std; rewrite len_map, HL; field; lra).
    assert (Hi : 0 < / (b - a)) by (apply Rinv_0_lt_compat; lra).
    apply greenwood_bounds.
    + apply sorted_map_mono; auto. intros x y Hxy. apply Rmult_le_compat_r; lra.
    + intros x Hx. apply in_map_iff in Hx. destruct Hx as (y & <- & Hy). specialize (Hsin y Hy).
      rewrite <- (uniform_cdf_inside a b y Hsin). apply uniform_cdf_range, Hab.
  - unfold sherman_of. rewrite HL.
    replace ((b - a) * (n / (n + 1))) with ((len (spacings a s b) - 1) * ((b - a) / (n + 1))) by (rewrite HLs; field; lra).
    apply half_abs_dev; auto.
    + intros E. apply (f_equal (@length R)) in E. rewrite spacings_length in E. discriminate.
    + apply Rmult_le_pos; [lra|left; apply Rinv_0_lt_compat; lra].
    + rewrite Hsum, HLs. field. lra.
  - unfold quesenberry_miller_of. pose proof (products_nonneg _ Hnn). pose proof (sumsq_le_sq _ Hnn) as U. rewrite Hsum in U.
    split; [|exact U]. pose proof (cauchy_schwarz_sum (spacings a s b)) as C. rewrite Hsum, HLs in C.
    assert ((b - a) ^ 2 / (n + 1) <= Rsum (map (fun d => d ^ 2) (spacings a s b))); [|lra].
    apply (Rmult_le_reg_r (n + 1)); [lra|]. unfold Rdiv. rewrite Rmult_assoc, Rinv_l by lra. lra.
Qed.
(** in particular Sherman lies in [0,1] only when b - a <= 1 + 1/n *)
Lemma C66_sherman_exceeds_one_refuted_holds : exists a b rvs s, a < b /\ (forall x, In x rvs -> a <= x <= b) /\
  sherman_uniform a b rvs = Ok s /\ 1 < s.
Proof.
  exists 0, 10, [0], 5. split; [lra|]. split; [intros x [<-|[]]; lra|]. split; [|lra].
  unfold sherman_uniform, uniform_validate. cbn [existsb]. rcase. simpl orb. cbn [bind]. simpl rsort.
  unfold sherman_of, spacings, len. simpl. f_equal. unfold Rabs. repeat destruct Rcase_abs; lra.
Qed.
Lemma C66_moran_lower_bound_holds : forall F rvs v, moran_stat F rvs = Ok v ->
  let n := INR (length rvs) in 0 < (n + 1) * ln ((n + 1) / n) <= v.
Proof.
  intros F rvs v H n. unfold moran_stat, cdf_vals in H.
  assert (Hne : map F (rsort rvs) <> []) by (intros E; rewrite E in H; discriminate).
  assert (Hn : len (map F (rsort rvs)) = n) by (rewrite len_map, len_rsort; reflexivity).
  pose proof (len_pos _ Hne) as Hp. pose proof (moran_bound _ _ H) as B. rewrite Hn in *.
  split; [|exact B]. apply Rmult_lt_0_compat; [lra|]. rewrite <- ln_1. apply ln_increasing; [lra|].
  apply (Rmult_lt_reg_r n); [lra|]. unfold Rdiv. rewrite Rmult_assoc, Rinv_l by lra. lra.
Qed.
(** Moran raises exactly when two transformed observations coincide or one is at an end of the support *)
Lemma C66_moran_raises_iff_holds : forall F rvs, rvs <> [] ->
  (moran_stat F rvs = Raise ValueError <-> exists d, In d (spacings 0 (map F (rsort rvs)) 1) /\ d <= 0) /\
  ((exists v, moran_stat F rvs = Ok v) \/ moran_stat F rvs = Raise ValueError).
Proof.
  intros F rvs Hne. unfold moran_stat, cdf_vals, moran_of.
  assert (N : map F (rsort rvs) <> []) by apply map_ne, rsort_ne, Hne.
  destruct (map F (rsort rvs)) as [|x l] eqn:E; [congruence|]. rewrite <- E. clear E N.
  destruct (existsb _ _) eqn:Ex.
  - split; [|auto]. split; [intros _|reflexivity]. apply existsb_exists in Ex. destruct Ex as (d & Hd & Hle).
    exists d. apply Rleb_true in Hle. auto.
  - split; [|left; eauto]. split; [discriminate|]. intros (d & Hd & Hle). exfalso.
    assert (existsb (fun d => Rleb d 0) (spacings 0 (map F (rsort rvs)) 1) = true); [|congruence].
    apply existsb_exists. exists d. split; auto. apply Rleb_true, Hle.
Qed.
Lemma C66_nonvacuous_holds : exists v, moran_stat (fun x => x) [1/2] = Ok v.
Proof.
  unfold moran_stat, cdf_vals, moran_of. simpl rsort. cbn [map]. unfold spacings. simpl app. cbn [diff existsb].
  rcase. simpl. eauto.
Qed.

(** *** C67 (uniform) *)
Lemma C67_uniform_refuses_exactly_outside_holds : forall a b rvs,
  ((exists x, In x rvs /\ ~ (a <= x <= b)) <-> uniform_validate a b rvs = Raise ValueError) /\
  ((forall x, In x rvs -> a <= x <= b) <-> uniform_validate a b rvs = Ok rvs).
Proof.
  intros a b rvs. unfold uniform_validate. destruct (existsb _ rvs) eqn:E.
  - apply existsb_exists in E. destruct E as (x & Hx & H). rewrite orb_true_iff, !Rltb_true in H.
    split; split; intros G; try discriminate; auto.
    + exists x. split; auto. lra.
    + exfalso. specialize (G x Hx). lra.
  - assert (N : forall x, In x rvs -> a <= x <= b).
    { intros x Hx. destruct (Rlt_le_dec x a) as [L|L].
      - assert (existsb (fun x => Rltb x a || Rltb b x) rvs = true); [|congruence].
        apply existsb_exists. exists x. split; auto. rewrite (proj2 (Rltb_true x a) L). reflexivity.
      - destruct (Rlt_le_dec b x) as [L1|L1]; [|lra].
        assert (existsb (fun x => Rltb x a || Rltb b x) rvs = true); [|congruence].
        apply existsb_exists. exists x. split; auto. rewrite (proj2 (Rltb_true b x) L1), orb_true_r. reflexivity. }
    split; split; intros G; auto; try discriminate. destruct G as (x & Hx & G). exfalso. apply G, N, Hx.
Qed.
(** every uniform statistic goes through that check *)
Lemma C67_uniform_statistics_raise_outside_holds : forall a b alt lambda_ bins rvs x, In x rvs -> ~ (a <= x <= b) ->
  ks_uniform a b alt rvs = Raise ValueError /\ ad_uniform a b rvs = Raise ValueError /\
  cvm_uniform a b rvs = Raise ValueError /\ chi2_uniform a b lambda_ bins rvs = Raise ValueError /\
  watson_uniform a b rvs = Raise ValueError /\ kuiper_uniform a b rvs = Raise ValueError /\
  greenwood_uniform a b rvs = Raise ValueError /\ sherman_uniform a b rvs = Raise ValueError /\
  qm_uniform a b rvs = Raise ValueError.
Proof.
  intros a b alt lambda_ bins rvs x Hx Hn.
  assert (E : uniform_validate a b rvs = Raise ValueError) by (apply C67_uniform_refuses_exactly_outside_holds; eauto).
  unfold ks_uniform, ad_uniform, cvm_uniform, chi2_uniform, watson_uniform, kuiper_uniform, greenwood_uniform, sherman_uniform, qm_uniform.
  rewrite E. auto 15.
Qed.
Lemma C67_uniform_constructor_holds : forall a b,
  (uniform_ctor a b = Raise ValueError <-> b <= a) /\ (uniform_ctor a b = Ok (a, b) <-> a < b).
Proof.
  intros a b. unfold uniform_ctor. destruct (Rleb_spec b a); split; split; intros; auto; try discriminate; lra.
Qed.
Lemma C67_nonvacuous_holds : ~ (0 <= 3/2 <= 1).
Proof. lra. Qed.

(** *** C27 *)
Definition ks01 : statistic := {| st_alternative := TWO_TAILED; st_execute := ks_uniform 0 1 TWO_TAILED |}.
(** a sample fitting better than every simulated one is always rejected by the two-tailed rule *)
Lemma C27_best_fits_are_rejected_holds : forall (r : resolver) rvs limit level v, 0 <= level ->
  st_execute ks01 rvs = Ok v -> r ks01 (length rvs) = Ok (Some limit) -> limit <> [] -> (forall y, In y limit -> v < y) ->
  exists res, gof_test (PValueMethod r) ks01 rvs level = Ok res /\ tr_rejected res = true.
Proof.
  intros r rvs limit level v Hl Hv Hr Hne Hlt. unfold gof_test. rewrite Hv. cbn [bind decide]. unfold p_value_decide.
  rewrite Hr. cbn [bind]. eexists. split; [reflexivity|]. cbn [tr_rejected]. apply Rleb_true.
  assert (E : p_value_of TWO_TAILED limit v = 0); [|simpl st_alternative; lra].
  simpl. unfold two_sided_p_value. rewrite ecdf_is_fraction. unfold fraction.
  rewrite count_zero by (intros y Hy; apply Rleb_false, Hlt, Hy). simpl INR. unfold Rdiv. rewrite Rmult_0_l.
  rewrite Rmin_left; lra.
Qed.
Lemma C27_better_fit_rejected_refuted_holds : exists (r : resolver) level good bad dg db rg rb,
  st_execute ks01 good = Ok dg /\ st_execute ks01 bad = Ok db /\ dg < db /\
  gof_test (PValueMethod r) ks01 good level = Ok rg /\ gof_test (PValueMethod r) ks01 bad level = Ok rb /\
  tr_rejected rb = false /\ tr_rejected rg = true.
Proof.
  exists (fun _ _ => Ok (Some [0.6; 0.65; 0.75; 0.8])), 0.1, [0.5], [0.3], 0.5, 0.7.
  assert (K : forall x, 0 <= x <= 0.5 -> st_execute ks01 [x] = Ok (1 - x)).
  { intros x Hx. simpl st_execute. unfold ks_uniform, uniform_validate. cbn [existsb].
    rewrite !(proj2 (Rltb_false _ _)) by lra. simpl orb. cbn [bind]. simpl rsort. cbn [map].
    rewrite uniform_cdf_inside by lra. rewrite ks_eval by discriminate. f_equal.
    unfold dpv, dmv, d_plus, d_minus, imap, len. simpl. unfold Rmax. destruct Rle_dec; lra. }
  eexists. eexists. split; [rewrite K by lra; f_equal; lra|]. split; [rewrite K by lra; f_equal; lra|]. split; [lra|].
  unfold gof_test. rewrite !K by lra. cbn [bind decide]. unfold p_value_decide. cbn [bind].
  split; [reflexivity|]. split; [reflexivity|]. cbn [tr_rejected]. simpl st_alternative. simpl p_value_of.
  unfold two_sided_p_value. rewrite !ecdf_is_fraction. unfold fraction. rewrite !count_cons, !count_nil. split.
  - apply Rleb_false. rcase. simpl. rewrite Rmin_left; lra.
  - apply Rleb_true. rcase. simpl. rewrite Rmin_left; lra.
Qed.
