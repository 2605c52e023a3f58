(** Properties C54, C59, C61, C63, C64, C65, C81 and C82 for the exponentiality statistics. *)
From Coq Require Import String.
From Verif Require Import Base DecModel EdfModel GraphModel RegistryModel ExpModel ExpSpec DecSpec DecProofs EdfProofs ExpProofs ExpRangeProofs.
From Coq Require Import Lra Lia.
Local Open Scope string_scope.
Local Open Scope R_scope.

Ltac each H :=
  repeat (destruct H as [H|H]; [injection H as <- <-; cbn [value sample_after reads sorts]|]); [..|destruct H].

(** *** C54 *)
Lemma C54_exponentiality_holds : forall A name f rvs rvs', In (name, f) (exponentiality_statistics A) ->
  Permutation rvs rvs' -> value (f rvs) = value (f rvs').
Proof.
  intros A name f rvs rvs' H P. unfold exponentiality_statistics in H. each H.
  - now apply ep_perm.
  - now apply ks_exp_perm.
  - now apply ahs_perm.
  - now apply atk_perm.
  - now apply co_perm.
  - now apply cvm_exp_perm.
  - now apply dsp_perm.
  - now rewrite (rsort_perm_eq _ _ P).
  - now rewrite (rsort_perm_eq _ _ P).
  - now apply gini_perm.
  - now apply gd_perm.
  - now apply hm_perm.
  - now apply hg1_perm.
  - now apply hp_perm.
  - now rewrite (rsort_perm_eq _ _ P).
  - now rewrite (rsort_perm_eq _ _ P).
  - now rewrite (rsort_perm_eq _ _ P).
  - now apply mn_perm.
  - now apply pt_perm.
  - now rewrite (rsort_perm_eq _ _ P).
  - now apply rs_perm.
  - now apply we_perm.
  - now apply ww_perm.
  - now rewrite (rsort_perm_eq _ _ P).
Qed.
(** the table lists every class of the module that is not a graph statistic, under the names of the registry *)
Lemma C54_exponentiality_complete_holds : forall A,
  incl (map sc_name exponent_classes)
    (map fst (exponentiality_statistics A) ++ [
      "GraphEdgesNumberExponentialityGofStatistic"; "GraphMaxDegreeExponentialityGofStatistic";
      "GraphAverageDegreeExponentialityGofStatistic"; "GraphConnectedComponentsExponentialityGofStatistic";
      "GraphCliqueNumberExponentialityGofStatistic"; "GraphIndependenceNumberExponentialityGofStatistic"]).
Proof.
  intros A. assert (E : forall x l, existsb (String.eqb x) l = true -> In x l).
  { intros x l H. apply existsb_exists in H. destruct H as (y & Hy & E). apply String.eqb_eq in E. now subst. }
  intros x Hx. apply E. revert x Hx. rewrite <- forallb_forall. vm_compute. reflexivity.
Qed.

(** *** C59 *)
Lemma C59_exponentiality_scale_free_holds : forall A name f c rvs, In (name, f) (exponentiality_statistics A) ->
  ~ In name unit_dependent -> 0 < a_p_atk A -> 0 < c -> value (f (rescaled c rvs)) = value (f rvs).
Proof.
  intros A name f c rvs H Hu Hp Hc. unfold rescaled. fold (sc c rvs).
  unfold exponentiality_statistics in H. each H; try (exfalso; apply Hu; simpl; tauto); try rewrite sc_rsort by exact Hc.
  - now apply ep_sc.
  - now apply ahs_sc.
  - now apply atk_sc.
  - now apply co_sc.
  - now apply dsp_sc.
  - now apply eps_sc.
  - now apply fz_sc.
  - now apply gini_sc.
  - now apply gd_sc.
  - now apply hm_sc.
  - now apply hp_sc.
  - now apply km_sc.
  - now apply kc_sc.
  - now apply lz_sc.
  - now apply mn_sc.
  - now apply pt_sc.
  - now apply sw_sc.
  - now apply rs_sc.
  - now apply we_sc.
  - now apply ww_sc.
Qed.
Lemma exp_scores_1 : exp_scores 1 = [ln 2].
Proof. unfold exp_scores. simpl. f_equal. replace (1 - 1 / (1 + 1)) with (/ 2) by field. rewrite ln_Rinv by lra. ring. Qed.
Lemma ln2_bounds : 0 < ln 2 < 1.
Proof.
  split; [rewrite <- ln_1; apply ln_increasing; lra|]. rewrite <- (ln_exp 1). apply ln_increasing; [lra|].
  pose proof (exp_ineq1 1). lra.
Qed.
(** the Hegazy-Green statistics compare the data with standard exponential quantiles, whatever the unit *)
Lemma C59_hegazy_green_refuted_holds : exists c rvs, 0 < c /\ positive rvs /\
  value (reads hg1 (rescaled c rvs)) <> value (reads hg1 rvs) /\
  value (sorts hg2_sorted (rescaled c rvs)) <> value (sorts hg2_sorted rvs).
Proof.
  exists 2, [1]. split; [lra|]. split; [intros x [<-|[]]; lra|].
  pose proof ln2_bounds as [B1 B2].
  cbn [value reads sorts rescaled map rsort rinsert]. unfold hg1, hg2_sorted, len. cbn [length rsort rinsert].
  rewrite exp_scores_1. cbn [combine map fst snd Rsum]. simpl (INR 1).
  split; intros E; injection E as E.
  - rewrite !Rabs_pos_eq in E by lra. lra.
  - assert ((2 * 1 - ln 2) ^ 2 = (1 - ln 2) ^ 2) by lra. nra.
Qed.
(** with an estimated unit they would be scale free: dividing by the mean first *)
Lemma C59_hegazy_green_after_normalisation_holds : forall c rvs, 0 < c ->
  hg1 (map (fun x => x / mean (rescaled c rvs)) (rescaled c rvs)) = hg1 (map (fun x => x / mean rvs) rvs) /\
  hg2_sorted (rsort (map (fun x => x / mean (rescaled c rvs)) (rescaled c rvs))) = hg2_sorted (rsort (map (fun x => x / mean rvs) rvs)).
Proof. intros c rvs Hc. unfold rescaled. fold (sc c rvs). rewrite map_ratio by exact Hc. split; reflexivity. Qed.

(** *** C61 *)
Lemma C61_exponential_ks_ignores_rate_holds : forall lam lam' alt rvs, ks_exp lam alt rvs = ks_exp lam' alt rvs.
Proof. reflexivity. Qed.
Lemma C61_exponential_ks_refuted_holds : exists lam rvs, 0 < lam /\ positive rvs /\
  ks_exp lam TWO_TAILED rvs <> ks_exp 1 TWO_TAILED (rescaled lam rvs).
Proof.
  exists 2, [1]. split; [lra|]. split; [intros x [<-|[]]; lra|]. unfold ks_exp, rescaled. cbn [map rsort rinsert].
  assert (E1 : exp (-1) < 1 / 2).
  { pose proof (exp_ineq1 1 ltac:(lra)). assert (exp (-1) * exp 1 = 1) by (rewrite <- exp_plus; replace (-1 + 1) with 0 by ring; apply exp_0). pose proof (exp_pos (-1)). nra. }
  assert (E2 : exp (-2) < exp (-1)) by (apply exp_increasing; lra). pose proof (exp_pos (-2)).
  assert (U1 : expon_cdf 1 1 = 1 - exp (-1)). { unfold expon_cdf. destruct (Rleb_spec (1 / 1) 0); [lra|]. do 2 f_equal. field. }
  assert (U2 : expon_cdf 1 (2 * 1) = 1 - exp (-2)). { unfold expon_cdf. destruct (Rleb_spec (2 * 1 / 1) 0); [lra|]. do 2 f_equal. field. }
  rewrite U1, U2, !ks_eval by discriminate. unfold dpv, dmv, d_plus, d_minus, imap, len. cbn [imap_from length Rmaxl bind]. simpl (INR _).
  intros E. injection E as E. rewrite !Rmax_right in E by lra. lra.
Qed.
Lemma expon_cdf_rate lam x : 0 < lam -> expon_cdf (1 / lam) x = expon_cdf 1 (lam * x).
Proof. intros H. unfold expon_cdf. replace (x / (1 / lam)) with (lam * x) by (field; lra). replace (lam * x / 1) with (lam * x) by field. reflexivity. Qed.
Lemma C61_exponential_cvm_uses_rate_holds : forall lam rvs, 0 < lam ->
  cvm_exp lam rvs = cvm_exp 1 (rescaled lam rvs).
Proof.
  intros lam rvs H. unfold cvm_exp, rescaled. fold (sc lam rvs). rewrite !Reqb_pos by lra. rewrite sc_rsort by exact H.
  unfold sc. rewrite map_map. replace (map (fun x => expon_cdf (1 / 1) (lam * x)) (rsort rvs)) with (map (expon_cdf (1 / lam)) (rsort rvs)); [reflexivity|].
  apply map_ext. intros x. rewrite expon_cdf_rate by exact H. f_equal. field.
Qed.

(** *** C63 *)
(** every class returns a finite number on samples of at least three different positive values *)
Lemma C63_exponentiality_holds : forall Gamma digamma1 lam alt name f rvs, lam <> 0 ->
  In (name, f) (exponentiality_statistics (default_exp_args Gamma digamma1 lam alt)) ->
  (3 <= length rvs)%nat -> NoDup rvs -> positive rvs -> exists v, value (f rvs) = Ok (Fin v).
Proof.
  intros Gamma g lam alt name f rvs Hlam H Hn Hd Hp.
  assert (Hne : rvs <> []) by (apply length_ne; lia). pose proof (rsort_ne _ Hne) as Hne'.
  unfold exponentiality_statistics, default_exp_args in H.
  cbn [a_Gamma a_digamma1 a_lam a_alt a_p_atk a_b_dsp a_r_gd a_r_hm a_p_lz] in H. each H.
  - destruct (ep_range _ Hne Hp) as (v & E & _); eauto.
  - unfold ks_exp. rewrite ks_eval by (destruct (rsort rvs); [congruence|discriminate]). cbn [bind]. eauto.
  - destruct (ahs_range _ Hne) as (v & E & _); eauto.
  - destruct (atk_range Gamma (99/100) _ Hne Hp) as (v & E & _); eauto.
  - destruct (co_range _ Hp) as (v & E & _); eauto.
  - unfold cvm_exp. destruct (Reqb_spec lam 0); [congruence|]. rewrite cvm_eval by (destruct (rsort rvs); [congruence|discriminate]). cbn [bind]. eauto.
  - destruct (dsp_any (44/100) rvs ltac:(lia)) as (v & E & _); eauto.
  - destruct (eps_range _ Hne Hp Hd) as (v & E & _); eauto.
  - destruct (fz_range _ Hne Hp) as (v & E & _); eauto.
  - destruct (gini_range rvs ltac:(lia) Hp) as (v & E & _); eauto.
  - destruct (gd_range None rvs Hp Hd ltac:(simpl; lia)) as (v & E & _); eauto.
  - destruct (hm_range None rvs Hp Hd ltac:(simpl; lia)) as (v & E & _); eauto.
  - destruct (hg1_distance _ Hne) as (v & E & _); eauto.
  - destruct (hp_range _ Hn) as (v & E & _); eauto.
  - destruct (km_range _ Hne Hp) as (v & E & _); eauto.
  - destruct (kc_range _ Hne Hp) as (v & E & _); eauto.
  - destruct (lz_range (1/2) _ Hne Hp ltac:(lra)) as (v & E & _); eauto.
  - destruct (mn_range g _ Hne Hp) as (v & E & _); eauto.
  - destruct (pt_range _ Hne Hp) as (v & E & _); eauto.
  - destruct (sw_range rvs ltac:(lia)) as (v & E & _); eauto.
    destruct rvs as [|a [|b rvs]]; try (simpl in Hn; lia). exists a, b. split; [now left|]. split; [now (right; left)|].
    intros ->. apply NoDup_cons_iff in Hd. destruct Hd as [Hd _]. apply Hd. now left.
  - destruct (rs_range _ Hn) as (v & E & _); eauto.
  - destruct (we_range _ Hne Hp) as (v & E & _); eauto.
  - destruct (ww_range _ Hne Hp) as (v & E & _); eauto.
  - destruct (hg2_distance _ Hne) as (v & E & _); eauto.
Qed.
(** the hypotheses are needed: two values give no Hollander-Proshan, Rossberg and Harris statistic, a tie no
    finite Epstein statistic, a constant sample no finite Shapiro-Wilk statistic *)
Lemma C63_exponentiality_small_or_tied_holds : forall x y, 0 < x -> 0 < y ->
  hp [x; y] = Raise ZeroDivisionError /\ rs [x; y] = Raise ValueError /\ hm None [x; y] = Ok NonFinite /\
  eps_sorted (rsort [x; x; y]) = Ok NonFinite /\ sw_sorted (rsort [x; x; x]) = Ok NonFinite.
Proof.
  intros x y Hx Hy. split; [reflexivity|]. split; [reflexivity|]. split; [|split].
  - unfold hm. destruct (rsort [0; x; y]) eqn:E; [|reflexivity].
    apply (f_equal (@length R)) in E. rewrite rsort_length in E. discriminate.
  - assert (H : rsort [x; x; y] = [x; x; y] \/ rsort [x; x; y] = [y; x; x]).
    { destruct (Rle_lt_dec x y) as [L|L]; [left|right].
      - apply rsort_id. repeat (apply SSorted_cons || apply SSorted_nil || apply Forall_cons || apply Forall_nil); lra.
      - rewrite <- (rsort_id [y; x; x]) by (repeat (apply SSorted_cons || apply SSorted_nil || apply Forall_cons || apply Forall_nil); lra). apply rsort_perm_eq.
        apply (Permutation_app_comm [x; x] [y]). }
    assert (Z : forall c : R, Rltb 0 (c * (x - x)) = false) by (intros c; destruct (Rltb_spec 0 (c * (x - x))); [exfalso; lra|reflexivity]).
    destruct H as [-> | ->]; unfold eps_sorted, fin_if, all_pos; cbn [norm_spacings forallb length]; rewrite Z, ?andb_false_r; reflexivity.
  - assert (H : rsort [x; x; x] = [x; x; x]) by (apply rsort_id; repeat (apply SSorted_cons || apply SSorted_nil || apply Forall_cons || apply Forall_nil); lra).
    rewrite H. unfold sw_sorted, fin_if. cbv zeta. replace (mean [x; x; x]) with x by (unfold mean, len; simpl; field).
    cbn [map Rsum]. replace (x - x) with 0 by ring. destruct (Reqb_spec ((len [x; x; x] - 1) * (0 ^ 2 + (0 ^ 2 + (0 ^ 2 + 0)))) 0) as [|N]; [reflexivity|].
    exfalso. apply N. simpl. ring.
Qed.

(** *** C64 *)
Lemma C64_exponentiality_reads_only_holds : forall A name f rvs, In (name, f) (exponentiality_statistics A) ->
  ~ In name sorting_classes -> sample_after (f rvs) = rvs.
Proof.
  intros A name f rvs H Hs. unfold exponentiality_statistics in H.
  each H; first [reflexivity|exfalso; apply Hs; simpl; tauto].
Qed.
Lemma C64_exponentiality_sorts_holds : forall A name f rvs, In (name, f) (exponentiality_statistics A) ->
  In name sorting_classes -> (sample_after (f rvs) = rvs <-> sortedR rvs).
Proof.
  intros A name f rvs H Hs.
  assert (E : rsort rvs = rvs <-> sortedR rvs) by (split; [intros <-; apply rsort_sorted|apply rsort_id]).
  unfold exponentiality_statistics in H.
  each H; first [exact E|exfalso; simpl in Hs; repeat (destruct Hs as [Hs|Hs]; [discriminate|]); exact Hs].
Qed.
Lemma C64_exponentiality_refuted_holds : forall A, exists name f rvs, In (name, f) (exponentiality_statistics A) /\
  positive rvs /\ sample_after (f rvs) <> rvs.
Proof.
  intros A. exists "EpsteinExponentialityGofStatistic", (sorts eps_sorted), [2; 1]. split; [unfold exponentiality_statistics; simpl; tauto|].
  split; [intros x [<-|[<-|[]]]; lra|]. cbn [sample_after sorts]. intros E. assert (S : sortedR [2; 1]) by (rewrite <- E; apply rsort_sorted).
  apply sorted_cons_inv in S. destruct S as [_ S]. specialize (S 1 (or_introl eq_refl)). lra.
Qed.

(** *** C65 *)
Lemma declared name a : existsb (fun c => String.eqb (sc_name c) name && match sc_alt c, a with Fixed LEFT, LEFT | Fixed RIGHT, RIGHT | Fixed TWO_TAILED, TWO_TAILED => true | _, _ => false end) stat_classes = true ->
  declares name a.
Proof.
  intros H. apply existsb_exists in H. destruct H as (c & Hc & H). apply andb_true_iff in H. destruct H as [H1 H2].
  apply String.eqb_eq in H1. exists c. split; [exact Hc|]. split; [exact H1|].
  destruct (sc_alt c) as [[]|[]], a; try discriminate; reflexivity.
Qed.
(** Hegazy-Green: zero exactly for the perfect fit, equal to the (squared) displacement when the perfect
    fit is displaced, and yet small values are rejected *)
Lemma C65_hegazy_green_refuted_holds :
  (forall n, exponential_quantiles n (exp_scores n)) /\
  (forall rvs, rvs <> [] -> exists v w, hg1 rvs = Ok (Fin v) /\ value (sorts hg2_sorted rvs) = Ok (Fin w) /\ 0 <= v /\ 0 <= w /\
     (v = 0 <-> rsort rvs = exp_scores (length rvs)) /\ (w = 0 <-> rsort rvs = exp_scores (length rvs))) /\
  (forall n t, (1 <= n)%nat -> hg1 (map (Rplus t) (exp_scores n)) = Ok (Fin (Rabs t)) /\
     value (sorts hg2_sorted (map (Rplus t) (exp_scores n))) = Ok (Fin (t ^ 2))) /\
  declares "HegazyGreen1ExponentialityGofStatistic" LEFT /\ declares "HegazyGreen2ExponentialityGofStatistic" LEFT.
Proof.
  split; [|split; [|split; [|split]]].
  - intros n. split; [apply exp_scores_length|]. intros i Hi. unfold exp_scores.
    set (f := fun i : nat => - ln (1 - INR (S i) / (INR n + 1))).
    rewrite (nth_indep _ 0 (f 0%nat)) by (rewrite map_length, seq_length; exact Hi).
    rewrite map_nth, seq_nth by exact Hi. unfold f. simpl (0 + i)%nat. rewrite Ropp_involutive, exp_ln; [ring|].
    pose proof (pos_INR n). assert (INR (S i) <= INR n) by (apply le_INR; lia).
    assert (INR (S i) / (INR n + 1) < 1); [|lra]. apply Rmult_lt_reg_r with (INR n + 1); [lra|].
    replace (INR (S i) / (INR n + 1) * (INR n + 1)) with (INR (S i)) by (field; lra). lra.
  - intros rvs Hn. destruct (hg1_distance _ Hn) as (v & Ev & Hv & Zv). destruct (hg2_distance _ Hn) as (w & Ew & Hw & Zw).
    exists v, w. cbn [value sorts]. tauto.
  - intros n t Hn. split; [now apply hg1_shift|now apply hg2_shift].
  - apply declared. vm_compute. reflexivity.
  - apply declared. vm_compute. reflexivity.
Qed.
(** consequence for the test: when every simulated value exceeds 0, the perfect fit has left p-value 0 and the
    p-value decision rejects it at every level *)
Lemma C65_perfect_fit_rejected_holds : forall st (res : resolver) n limit level, st_alternative st = LEFT ->
  res st n = Ok (Some limit) -> limit <> [] -> (forall v, In v limit -> 0 < v) -> 0 <= level ->
  exists r, p_value_decide res st 0 level n = Ok r /\ tr_p_value r = Some 0 /\ tr_rejected r = true.
Proof.
  intros st res n limit level Ha Hr Hn Hp Hl. unfold p_value_decide. rewrite Hr. cbn [bind]. rewrite Ha. cbn [p_value_of]. unfold left_p_value.
  assert (E : ecdf_evaluate limit 0 = 0).
  { rewrite ecdf_is_fraction. unfold fraction. rewrite count_zero; [simpl; unfold Rdiv; ring|].
    intros v Hv. apply Hp in Hv. destruct (Rleb_spec v 0); [lra|reflexivity]. }
  rewrite E. eexists. split; [reflexivity|]. split; [reflexivity|]. now apply Rleb_true.
Qed.
Lemma asin_sqrt_inj a b : 0 <= a <= 1 -> 0 <= b <= 1 ->
  Rabs (2 / PI * asin (sqrt a) - 2 / PI * asin (sqrt b)) = 0 <-> a = b.
Proof.
  intros Ha Hb. split; [|intros ->; rewrite Rminus_diag_eq by reflexivity; apply Rabs_R0].
  intros E. pose proof PI_RGT_0. assert (0 < 2 / PI) by (apply Rdiv_lt_0_compat; lra).
  assert (E' : asin (sqrt a) = asin (sqrt b)).
  { destruct (Req_dec (2 / PI * asin (sqrt a) - 2 / PI * asin (sqrt b)) 0) as [Z|Z]; [nra|]. now apply Rabs_no_R0 in Z. }
  assert (S : forall t, 0 <= t <= 1 -> -1 <= sqrt t <= 1).
  { intros t Ht. pose proof (sqrt_pos t). split; [lra|]. rewrite <- sqrt_1. apply sqrt_le_1_alt. lra. }
  apply (f_equal sin) in E'. rewrite !sin_asin in E' by auto. apply sqrt_inj; lra.
Qed.
(** Kimber-Michael: the largest distance of two stabilised probability plots, zero exactly when the plots
    coincide; small values are rejected *)
Lemma C65_kimber_michael_refuted_holds :
  (forall rvs v, rvs <> [] -> positive rvs -> value (sorts km_sorted rvs) = Ok (Fin v) ->
     0 <= v <= 1 /\
     (v = 0 <-> forall i, (i < length rvs)%nat ->
        1 - exp (- (nth i (rsort rvs) 0 / mean rvs)) = (INR (S i) - 0.5) / len rvs)) /\
  declares "KimberMichaelExponentialityGofStatistic" LEFT.
Proof.
  split; [|apply declared; vm_compute; reflexivity]. intros rvs v Hn Hp Hv. destruct (km_range _ Hn Hp) as (w & Ew & Hw).
  cbn [value sorts] in Hv. assert (w = v) by congruence. subst w. clear Ew. split; [exact Hw|].
  pose proof (rsort_ne _ Hn) as Hn'. pose proof (positive_rsort _ Hp) as Hp'. rewrite <- (mean_rsort rvs), <- (len_rsort rvs), <- (rsort_length rvs).
  set (s := rsort rvs) in *. pose proof (len_pos _ Hn') as Hl. pose proof (mean_pos _ Hn' Hp') as Hm.
  unfold km_sorted in Hv. cbv zeta in Hv. rewrite match_ne in Hv by exact Hn'. unfold fin_if in Hv.
  destruct (negb _ && _); [|discriminate].
  set (F := fun i x => Rabs (2 / PI * asin (sqrt ((INR (S i) - 0.5) / len s)) - 2 / PI * asin (sqrt (1 - exp (- (x / mean s)))))) in *.
  assert (Hv' : v = Rmaxl 0 (imap F s)) by congruence. rewrite Hv'. clear Hv Hv' Hw.
  assert (B : forall i, (i < length s)%nat -> F i (nth i s 0) = 0 <-> 1 - exp (- (nth i s 0 / mean s)) = (INR (S i) - 0.5) / len s).
  { intros i Hi. unfold F. rewrite asin_sqrt_inj.
    - split; congruence.
    - apply div_bounds; [exact Hl|]. rewrite S_INR. pose proof (pos_INR i). assert (Hi' := Hi). apply le_INR in Hi'. rewrite S_INR in Hi'. fold (len s) in Hi'. lra.
    - assert (0 < nth i s 0 / mean s) by (apply Rdiv_lt_0_compat; [apply Hp', nth_In; exact Hi|exact Hm]).
      pose proof (exp_neg_01 _ (Rlt_le _ _ H)). lra. }
  assert (Hne : imap F s <> []) by (apply length_ne; rewrite imap_length; destruct s; [congruence|simpl; lia]).
  split.
  - intros Z i Hi. apply B; [exact Hi|]. assert (In (F i (nth i s 0)) (imap F s)).
    { rewrite <- (imap_nth F s i 0 0) by exact Hi. apply nth_In. now rewrite imap_length. }
    apply (Rmaxl_ge 0) in H. assert (0 <= F i (nth i s 0)) by apply Rabs_pos. lra.
  - intros Z. pose proof (Rmaxl_in 0 _ Hne) as I. apply imap_in in I. destruct I as (i & x & Hi & E). rewrite E.
    destruct (nth_error_nth0 _ _ _ 0 Hi) as [<- Hi']. apply B; auto.
Qed.

(** *** C81 *)
Lemma C81_exponentiality_ranges_holds : forall rvs, (3 <= length rvs)%nat -> NoDup rvs -> positive rvs ->
  (exists v, value (reads ep rvs) = Ok (Fin v) /\ sqrt (48 * len rvs) * (exp (-1) - 1 / 2) <= v < sqrt (48 * len rvs) / 2) /\
  (exists v, value (reads ahs rvs) = Ok (Fin v) /\ -1 <= v <= 1) /\
  (exists v, value (reads co rvs) = Ok (Fin v) /\ v <= len rvs) /\
  (forall b, b < 1 -> exists v, value (reads (dsp b) rvs) = Ok (Fin v) /\ 1 / 2 <= v <= 1) /\
  (exists v, value (sorts eps_sorted rvs) = Ok (Fin v) /\ 0 <= v) /\
  (exists v, value (sorts fz_sorted rvs) = Ok (Fin v) /\ 0 <= v <= sqrt (len rvs)) /\
  (exists v, value (reads gini rvs) = Ok (Fin v) /\ 0 <= v <= 1) /\
  (forall r, (1 <= r < length rvs)%nat -> exists v, value (reads (gd (Some r)) rvs) = Ok (Fin v) /\ 0 < v) /\
  (forall r, (1 <= r)%nat -> (2 * r < length rvs)%nat -> exists v, value (reads (hm (Some r)) rvs) = Ok (Fin v) /\ 0 < v) /\
  (exists v, value (reads hp rvs) = Ok (Fin v) /\ 0 <= v <= 1) /\
  (exists v, value (sorts km_sorted rvs) = Ok (Fin v) /\ 0 <= v <= 1) /\
  (exists v, value (sorts kc_sorted rvs) = Ok (Fin v) /\ Rabs v <= sqrt (108 * len rvs / 17)) /\
  (forall p, 0 <= p <= 1 -> exists v, value (sorts (lz_sorted p) rvs) = Ok (Fin v) /\ 0 <= v <= p) /\
  (forall g, exists v, value (reads (mn g) rvs) = Ok (Fin v) /\ v <= - g) /\
  (exists v, value (reads pt rvs) = Ok (Fin v) /\ 0 <= v <= 1 - 1 / len rvs) /\
  (exists v, value (sorts sw_sorted rvs) = Ok (Fin v) /\ 1 / (len rvs - 1) ^ 2 <= v <= 1) /\
  (exists v, value (reads rs rvs) = Ok (Fin v) /\ -1 <= v <= 1) /\
  (exists v, value (reads we rvs) = Ok (Fin v) /\ 0 <= v <= (1 - 1 / len rvs) ^ 2) /\
  (exists v, value (reads ww rvs) = Ok (Fin v) /\ 1 <= v).
Proof.
  intros rvs Hn Hd Hp. assert (Hne : rvs <> []) by (apply length_ne; lia). cbn [value reads sorts].
  split; [now apply ep_range|]. split; [now apply ahs_range|]. split; [now apply co_range|].
  split; [intros b Hb; apply dsp_half; auto; lia|]. split; [now apply eps_range|]. split; [now apply fz_range|].
  split; [apply gini_range; auto; lia|]. split; [intros r Hr; now apply gd_range|]. split; [intros r H1 H2; now apply hm_range|].
  split; [now apply hp_range|]. split; [now apply km_range|]. split; [now apply kc_range|]. split; [intros p Hpp; now apply lz_range|].
  split; [intros g; now apply mn_range|]. split; [now apply pt_range|].
  split.
  { apply sw_range; [lia|]. destruct rvs as [|a [|b rvs]]; try (simpl in Hn; lia). exists a, b. split; [now left|]. split; [now (right; left)|].
    intros ->. apply NoDup_cons_iff in Hd. destruct Hd as [Hd _]. apply Hd. now left. }
  split; [now apply rs_range|]. split; [now apply we_range|]. now apply ww_range.
Qed.
(** the bounds are attained: Pietra, We and the lower Shapiro-Wilk bound by one dominating observation in the
    limit; exactly here: Shapiro-Wilk reaches its upper bound *)
Lemma C81_shapiro_wilk_upper_attained_holds : forall a b n, a < b -> (2 <= n)%nat ->
  value (sorts sw_sorted (a :: repeat b (n - 1))) = Ok (Fin 1).
Proof.
  intros a b n Hab Hn. cbn [value sorts].
  assert (Hs : sortedR (a :: repeat b (n - 1))).
  { constructor.
    - generalize (n - 1)%nat. intros m. induction m as [|m IH]; cbn [repeat]; constructor; [exact IH|]. apply Forall_forall. intros x Hx. apply repeat_spec in Hx. lra.
    - apply Forall_forall. intros x Hx. apply repeat_spec in Hx. lra. }
  rewrite rsort_id by exact Hs. unfold sw_sorted. cbv zeta. set (l := a :: repeat b (n - 1)).
  assert (Hl : len l = INR n) by (unfold len, l; cbn [length]; rewrite repeat_length; f_equal; lia).
  assert (HN : 2 <= INR n) by (apply le_INR in Hn; simpl in Hn; lra).
  assert (Rs : forall (f : R -> R) m, Rsum (map f (repeat b m)) = INR m * f b).
  { intros f m. induction m as [|m IH]; [simpl; ring|]. cbn [repeat map Rsum]. rewrite IH, S_INR. ring. }
  assert (Hm : mean l = b - (b - a) / INR n).
  { unfold mean. rewrite Hl. unfold l. cbn [Rsum]. rewrite <- (map_id (repeat b (n - 1))), Rs, minus_INR by lia. simpl (INR 1). field. lra. }
  assert (HQ : Rsum (map (fun x => (x - mean l) ^ 2) l) = (b - a) ^ 2 * (INR n - 1) / INR n).
  { unfold l at 2. cbn [map Rsum]. rewrite Rs, Hm, minus_INR by lia. simpl (INR 1). field. lra. }
  rewrite HQ, Hl, Hm. assert (0 < (b - a) ^ 2) by (apply pow_lt; lra).
  assert (0 < (INR n - 1) * ((b - a) ^ 2 * (INR n - 1) / INR n)).
  { apply Rmult_lt_0_compat; [lra|]. apply Rdiv_lt_0_compat; [apply Rmult_lt_0_compat; lra|lra]. }
  rewrite Reqb_pos by assumption. unfold fin_if. cbn [negb]. do 2 f_equal. field. repeat split; lra.
Qed.
Lemma C81_nonvacuous_holds : (3 <= length [1; 2; 3])%nat /\ NoDup [1; 2; 3] /\ positive [1; 2; 3] /\
  value (reads gini [1; 2; 3]) = Ok (Fin (1 / 3)).
Proof.
  split; [simpl; lia|]. split.
  { repeat (apply NoDup_cons || apply NoDup_nil); simpl; intros H; repeat (destruct H as [H|H]; [lra|]); exact H. }
  split; [intros x [<-|[<-|[<-|[]]]]; lra|].
  cbn [value reads]. rewrite gini_pairs by first [simpl; lia|simpl; lra]. do 2 f_equal. unfold pair_distances, len. cbn [sum_pairs map Rsum length].
  replace (1 - 2) with (-1) by ring. replace (1 - 3) with (-2) by ring. replace (2 - 3) with (-1) by ring.
  rewrite !Rabs_left by lra. simpl. field.
Qed.

(** *** C82 *)
Lemma sum_all_pairs l : Rsum (map (fun x => Rsum (map (fun y => Rabs (x - y)) l)) l) = 2 * pair_distances l.
Proof.
  unfold pair_distances. induction l as [|a l IH]; [simpl; ring|]. cbn [map Rsum sum_pairs].
  rewrite Rsum_map_plus, IH. rewrite (Rsum_map_ext (fun x => Rabs (x - a)) (fun x => Rabs (a - x))) by (intros; apply Rabs_minus_sym).
  replace (a - a) with 0 by ring. rewrite Rabs_R0. ring.
Qed.
(** the Gini statistic, computed from the gaps of the sorted sample, is half the relative mean difference *)
Lemma C82_gini_is_relative_mean_difference_holds : forall rvs, (2 <= length rvs)%nat -> Rsum rvs <> 0 ->
  value (reads gini rvs) = Ok (Fin (mean_difference rvs / (2 * mean rvs))).
Proof.
  intros rvs Hn Hs. cbn [value reads]. rewrite gini_pairs by assumption. unfold mean_difference, mean. rewrite sum_all_pairs.
  pose proof (len_ge2 _ Hn). do 2 f_equal. field. repeat split; lra.
Qed.
(** the normalised spacings behind the Epstein, Gnedenko and Harris statistics sum to the total of the sample *)
Lemma C82_spacings_sum_to_total_holds : forall rvs, Rsum (norm_spacings 0 (rsort rvs)) = Rsum rvs.
Proof. intros rvs. rewrite norm_spacings_sum, Rsum_rsort. ring. Qed.
(** the Deshpande statistic is the fraction of ordered pairs (i, k), i <> k, with x_i > b x_k *)
Lemma C82_deshpande_is_fraction_holds : forall b rvs, (2 <= length rvs)%nat -> b < 1 -> positive rvs ->
  value (reads (dsp b) rvs) = Ok (Fin
    ((Rsum (map (fun x => INR (count (fun y => Rltb (b * y) x) rvs)) rvs) - len rvs) / (len rvs * (len rvs - 1)))).
Proof.
  intros b rvs Hn Hb Hp. cbn [value reads]. unfold dsp. destruct (Nat.leb_spec (length rvs) 1); [lia|]. do 3 f_equal.
  assert (C : forall x l, INR (count (fun y => Rltb (b * y) x) l) = Rsum (map (fun y => ind (Rltb (b * y) x)) l)).
  { intros x l. induction l as [|y l IH]; [reflexivity|]. rewrite count_cons, plus_INR, IH. cbn [map Rsum]. destruct (Rltb (b * y) x); simpl; ring. }
  rewrite (Rsum_map_ext _ (fun x => Rsum (map (fun y => ind (Rltb (b * y) x)) rvs))) by (intros; apply C).
  rewrite sum_others_pairs. clear Hn H C. induction rvs as [|a l IH]; [unfold len; simpl; ring|].
  cbn [map Rsum sum_pairs]. rewrite Rsum_map_plus. rewrite IH by (intros x Hx; apply Hp; now right).
  rewrite Rsum_map_plus. unfold len. cbn [length]. rewrite S_INR.
  assert (0 < a) by (apply Hp; now left). destruct (Rltb_spec (b * a) a); [simpl; ring|exfalso; nra].
Qed.
