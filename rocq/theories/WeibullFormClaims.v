(** C106, C107: the form of the Weibull statistics. *)
From Coq Require Import String.
From Coquelicot Require Import Coquelicot.
From Verif Require Import Base DecModel EdfModel GraphModel RegistryModel ExpModel NormModel WeibullModel WeibullSpec NormFormSpec NormMoreSpec ExpSpec WeibullFormSpec EdfProofs NormBoundProofs NormFiniteProofs ChisqClaims WeibullProofs WeibullRangeProofs WeibullMoreProofs WeibullClaims WeibullFormProofs.
From Coq Require Import Lra Lia.
Local Open Scope string_scope.
Local Open Scope R_scope.

(** scipy's routines and the arguments of the constructor *)
Record setting := Setting { min_of : (R -> R) -> R -> R -> R; gamma_of : R -> R; gumbel_of : list R -> result (R * R); args_of : weibull_args }.
Definition proper (S : setting) : Prop := in_bounds (min_of S) /\ valid_args (args_of S).
(** the hypothesised distribution function *)
Definition law (S : setting) : R -> R := SamplerModel.generate_weibull_cdf (wa_a (args_of S)) (wa_k (args_of S)).
(** the class of this name returns the number v on the sample l *)
Definition weibull_returns (S : setting) (name : string) (l : list R) (v : R) : Prop :=
  exists f, In (name, f) (weibull_statistics (min_of S) (gamma_of S) (gumbel_of S) (args_of S)) /\ nvalue (f l) = Ok (Some (Fin v)).
Ltac run H := let f := fresh "f" in let I := fresh "I" in destruct H as (f & I & H); cbn [weibull_statistics In] in I; repeat destruct I as [I|I]; try contradiction; try discriminate I; injection I as <-; cbn [nreads nvalue] in H.
Ltac table := cbn [weibull_statistics In]; repeat (first [left; reflexivity|right]).
Lemma law_mono S x y : valid_args (args_of S) -> x <= y -> law S x <= law S y.
Proof. intros [Ha Hk]. now apply weibull_mono. Qed.
Lemma law_inside S x : valid_args (args_of S) -> 0 < x -> 0 < law S x < 1.
Proof. intros [Ha _]. now apply weibull_inside. Qed.

(** the scores of the normalised spacings are David and Johnson's approximation, with the derivatives of the quantile function *)
Lemma C106_spacing_scores_holds : forall n i, (1 <= i <= n)%nat -> nth (i - 1) (gofns n) 0 = david_johnson extreme_quantile n i.
Proof. intros n i Hi. unfold gofns. rewrite GraphProofs.nth_map_seq by lia. rewrite gofns_dj by lia. f_equal. lia. Qed.
(** Tiku and Singh (1981), Mann, Scheuer and Fertig (1973), Lockhart, O'Reilly and Stephens (1986) *)
Lemma C106_spacings_holds : forall S l v, let n := List.length l in
  (weibull_returns S "TikuSinghWeibullGofStatistic" l v ->
     v = 2 * Rsum (map (fun i => INR (n - 1 - i) * spacing l i) (seq 1 (n - 2))) / (INR (n - 2) * spacing_sum l 1 (n - 1))) /\
  (weibull_returns S "MSFWeibullGofStatistic" l v -> v = spacing_sum l (n / 2 + 1) (n - 1) / spacing_sum l 1 (n - 1)) /\
  ((3 <= n)%nat -> weibull_returns S "LOSWeibullGofStatistic" l v -> let z i := spacing_sum l 1 i / spacing_sum l 1 (n - 1) in
     v = - INR (n - 2) - / INR (n - 2) * Rsum (map (fun i => (2 * INR i - 1) * (ln (z i) + ln (1 - z (n - 1 - i)%nat))) (seq 1 (n - 2)))).
Proof.
  intros S l v n. split; [|split].
  - intros H. run H. now apply ts_form in H.
  - intros H. run H. now apply msf_form in H.
  - intros Hn H. run H. now apply los_form in H.
Qed.
(** the squared scale estimate relative to the sum of squares, and the ratio of two scale estimates *)
Lemma C106_scale_estimates_holds : forall S l v,
  (forall name, In name ["SbWeibullGofStatistic"; "SBWeibullGofStatistic"] -> weibull_returns S name l v ->
     v = len l * dagostino_scale l ^ 2 / square_sum (map ln l)) /\
  ((2 <= List.length l)%nat -> weibull_returns S "OKWeibullGofStatistic" l v ->
     v = (dagostino_scale l / downton_scale l - 1 - 0.13 / sqrt (len l) + 1.18 / len l) / (0.49 / sqrt (len l) - 0.36 / len l)).
Proof.
  intros S l v. split.
  - intros name [<-|[<-|[]]] H; run H; now apply sb_form in H.
  - intros Hn H. run H. now apply ok_form in H.
Qed.
(** REJG is the fourth power of the correlation, whatever the fitted shape *)
Lemma C106_evans_johnson_green_holds : forall S l v, proper S -> all_positive l -> l <> [] ->
  weibull_returns S "REJGWeibullGofStatistic" l v -> v = evans_johnson_green l ^ 2.
Proof. intros S l v [HB _] P Hne H. run H. apply rejg_form in H; trivial. rewrite H. unfold evans_johnson_green. cbv zeta. ring. Qed.
(** RSB is the published statistic of a sample that comes in ascending order *)
Lemma C106_smith_bain_partial_holds : forall S l v, all_positive l -> sortedR l -> weibull_returns S "RSBWeibullGofStatistic" l v -> v = smith_bain l.
Proof.
  intros S l v P HS H. run H. apply rsb_form in H. rewrite H. unfold smith_bain. cbv zeta. rewrite <- log_order_list by exact P. now rewrite (ln_sorted l P), (rsort_id l HS).
Qed.
Lemma C106_smith_bain_refuted_holds : forall S, exists l v, all_positive l /\ weibull_returns S "RSBWeibullGofStatistic" l v /\ v <> smith_bain l.
Proof.
  intros S. pose proof (exp_pos 1) as E1. pose proof (exp_pos 2) as E2. assert (X1 : 1 < exp 1) by (rewrite <- exp_0 at 1; apply exp_increasing; lra). assert (X2 : exp 1 < exp 2) by (apply exp_increasing; lra).
  assert (P : all_positive [exp 1; 1; exp 2]) by (intros x [<-|[<-|[<-|[]]]]; lra). assert (P' : all_positive [1; exp 1; exp 2]) by (intros x [<-|[<-|[<-|[]]]]; lra).
  assert (F : forall x y z, all_positive [x; y; z] -> x <> y -> exists v, rsb_weibull [x; y; z] = Ok (Some (Fin v))) by (intros x y z Q D; rewrite rsb_three by trivial; eexists; reflexivity).
  destruct (F _ _ _ P ltac:(lra)) as (v & Ev). destruct (F _ _ _ P' ltac:(lra)) as (w & Ew). exists [exp 1; 1; exp 2], v. split; [exact P|]. split.
  - eexists. split; [table|]. exact Ev.
  - intros C. apply rsb_order. rewrite Ew, Ev. do 3 f_equal. rewrite C.
    rewrite (C106_smith_bain_partial_holds S [1; exp 1; exp 2] w P'); [|repeat constructor; lra|eexists; split; [table|exact Ew]].
    assert (RS : rsort [1; exp 1; exp 2] = rsort [exp 1; 1; exp 2]) by (apply rsort_perm_eq; apply perm_swap).
    unfold smith_bain. cbv zeta. unfold log_order. rewrite RS. reflexivity.
Qed.
(** the chi-square class works on relative frequencies: it returns Pearson's statistic divided by the sample size *)
Lemma C106_pearson_partial_holds : forall S l lo hi v, In lo l -> In hi l -> lo < hi -> (forall x, In x l -> lo <= x <= hi) ->
  weibull_returns S "Chi2PearsonWeibullGofStatistic" l v -> len l * v = pearson (law S) lo hi (Nat.sqrt_up (List.length l)) l.
Proof. intros S l lo hi v I1 I2 Hlt Hb H. run H. now apply pearson_form. Qed.
Lemma C106_pearson_refuted_holds : forall S l lo hi v, proper S -> all_positive l -> In lo l -> In hi l -> lo < hi -> (forall x, In x l -> lo <= x <= hi) ->
  weibull_returns S "Chi2PearsonWeibullGofStatistic" l v -> v < pearson (law S) lo hi (Nat.sqrt_up (List.length l)) l.
Proof.
  intros S l lo hi v [_ V] P I1 I2 Hlt Hb H. rewrite <- (C106_pearson_partial_holds S l lo hi v I1 I2 Hlt Hb H). destruct H as (f & I & H).
  assert (Pv : 0 < v) by (refine (proj2 (proj2 (C93_weibull_refuted_holds _ _ _ _ f l v V P _ I H))); exists lo, hi; repeat split; trivial; lra).
  assert (2 <= len l); [|nra]. unfold len. replace 2 with (INR 2) by (simpl; lra). apply le_INR. destruct l as [|a [|b l']]; [easy| |simpl; lia]. destruct I1 as [<-|[]], I2 as [<-|[]]. lra.
Qed.
(** Vasicek's entropy estimate of the logarithms with window n / 2 *)
Lemma C106_kullback_leibler_holds : forall S l v, weibull_returns S "KullbackLeiblerWeibullGofStatistic" l v ->
  v = - vasicek l (List.length l / 2) - mean (map ln l) + mean l.
Proof. intros S l v H. run H. now apply kl_form. Qed.
(** the Liao-Shimokawa statistic up to the constant 1e-10 that is added in the denominators *)
Lemma C106_liao_shimokawa_holds : forall S l v top, (forall x, In x l -> 0 < law S x <= top) -> top < 1 ->
  weibull_returns S "LiaoShimokawaWeibullGofStatistic" l v ->
  let published := liao_shimokawa (at_order (law S) l) (List.length l) in v <= published <= v * sqrt (1 + 1 / 10 ^ 10 / (1 - top)).
Proof. intros S l v top P HT H. run H. now apply (ls_form _ _ _ top) in H. Qed.
(** the Cabana-Quiroz statistic is the quadratic form of the two differences with the inverse of the matrix (1.59 0.91; 0.91 0.53) *)
Lemma C106_cabana_quiroz_holds : forall S l v, weibull_returns S "CabanaQuirozWeibullGofStatistic" l v ->
  let d1 := transform l (- (1 / 10)) - gamma_of S (11 / 10) in let d2 := transform l (1 / 50) - gamma_of S (49 / 50) in
  exists a b, 1.59 * a + 0.91 * b = d1 /\ 0.91 * a + 0.53 * b = d2 /\ v = len l * (a * d1 + b * d2).
Proof. intros S l v H d1 d2. run H. apply cq_form in H. exact (proj2 H). Qed.
(** the sums of the Laplace transform classes *)
Lemma C106_laplace_sums_holds : forall Gam a l v, l <> [] -> let term t := exp (a * t - exp (a * t)) * (Gam (1 - t) - transform l t) ^ 2 in
  (lt_execute Gam 100 a "LT2_WEIBULL" l = Ok (Some (Fin v)) -> v = len l * Rsum (map (fun i => term (- (INR i / 100))) (seq 1 100))) /\
  (lt_execute Gam 100 a "LT3_WEIBULL" l = Ok (Some (Fin v)) -> v = len l * Rsum (map (fun i => term (- 2.5 + 2.99 * (INR i / 99))) (seq 0 100))).
Proof. intros Gam a l v Hne term. exact (lt_form Gam a l v Hne). Qed.
(** the Mahdi-Doostparast value is n times the integral of (1 - F_n(x) - F(x))^2 / F(x), so that the distribution function
    is compared with the survivor function of the sample *)
Lemma C107_mahdi_doostparast_holds : forall S l v, proper S -> all_positive l -> l <> [] ->
  weibull_returns S "MahdiDoostparastWeibullGofStatistic" l v -> v = survivor_distance (at_order (law S) l) (List.length l).
Proof.
  intros S l v [_ V] P Hne H. run H. apply md_form; trivial; [destruct l; [easy|simpl; lia]|intros x y; now apply law_mono|intros x Hx; now apply law_inside, P].
Qed.
(** a sample of equal values gets a smaller value than one whose i-th smallest observation is the quantile i / (n + 1), while large
    values are taken as evidence against the law *)
Definition quantile (S : setting) (p : R) : R := Rpower (- ln (1 - Rpower p (1 / wa_a (args_of S)))) (1 / wa_k (args_of S)).
Lemma quantile_law S p : valid_args (args_of S) -> 0 < p < 1 -> 0 < quantile S p /\ law S (quantile S p) = p.
Proof.
  intros [Ha Hk] Hp. unfold quantile. set (a := wa_a (args_of S)) in *. set (k := wa_k (args_of S)) in *. split; [apply exp_pos|].
  assert (Q : 0 < Rpower p (1 / a) < 1) by (apply Rpower_range; [apply Rdiv_lt_0_compat; lra|exact Hp]). set (r := Rpower p (1 / a)) in *.
  assert (L : 0 < - ln (1 - r)) by (pose proof (log_neg r Q); lra). unfold law. fold a k. change (SamplerModel.generate_weibull_cdf a k) with (weibull_cdf a k). rewrite weibull_cdf_pos by apply exp_pos.
  rewrite Rpower_mult. replace (1 / k * k) with 1 by (field; lra). rewrite Rpower_1 by exact L. rewrite Ropp_involutive, exp_ln by lra. replace (1 - (1 - r)) with r by ring.
  unfold r. rewrite Rpower_mult. replace (1 / a * a) with 1 by (field; lra). now apply Rpower_1.
Qed.
Lemma C107_mahdi_doostparast_refuted_holds : forall S n, proper S -> (10 <= n)%nat -> declares "MahdiDoostparastWeibullGofStatistic" RIGHT /\
  exists l v w, List.length l = n /\ all_positive l /\ (forall i, (1 <= i <= n)%nat -> at_order (law S) l i = INR i / (INR n + 1)) /\
    weibull_returns S "MahdiDoostparastWeibullGofStatistic" l v /\ weibull_returns S "MahdiDoostparastWeibullGofStatistic" (repeat 1 n) w /\ w < v.
Proof.
  intros S n [_ V] Hn. split.
  - apply ExpClaims.declared; vm_compute; reflexivity.
  - set (l := map (fun i => quantile S (INR i / (INR n + 1))) (seq 1 n)).
    assert (PI : forall i, (1 <= i <= n)%nat -> 0 < INR i / (INR n + 1) < 1). { intros i Hi. pose proof (position_inside n (i - 1) ltac:(lia)) as Q. now replace (Datatypes.S (i - 1)) with i in Q by lia. }
    assert (LL : List.length l = n) by (unfold l; now rewrite map_length, seq_length).
    assert (P : all_positive l). { intros x Hx. unfold l in Hx. apply in_map_iff in Hx as (i & <- & Hi). apply in_seq in Hi. apply quantile_law; trivial. apply PI. lia. }
    assert (SL : sortedR l).
    { assert (W : forall m a, (1 <= a)%nat -> (a + m <= n + 1)%nat -> sortedR (map (fun i => quantile S (INR i / (INR n + 1))) (seq a m))); [|apply W; lia].
      induction m as [|m IH]; intros a H1 H2; cbn [seq map]; constructor; trivial; [apply IH; lia|]. apply Forall_forall. intros x Hx. apply in_map_iff in Hx as (j & <- & Hj). apply in_seq in Hj.
      apply Rnot_lt_le. intros C. apply Rlt_le in C. apply (law_mono S _ _ V) in C. rewrite (proj2 (quantile_law S _ V (PI a ltac:(lia)))), (proj2 (quantile_law S _ V (PI j ltac:(lia)))) in C.
      assert (INR a < INR j) by (apply lt_INR; lia). pose proof (pos_INR n). apply (Rmult_le_compat_r (INR n + 1)) in C; [|lra]. unfold Rdiv in C. rewrite !Rmult_assoc, Rinv_l in C; lra. }
    assert (AT : forall i, (1 <= i <= n)%nat -> at_order (law S) l i = INR i / (INR n + 1)).
    { intros i Hi. unfold at_order. rewrite (rsort_id l SL). unfold l. rewrite NormMoreProofs.map_seq_shift, GraphProofs.nth_map_seq by lia. replace (Datatypes.S (i - 1)) with i by lia. apply quantile_law; trivial. now apply PI. }
    assert (RT : forall z, all_positive z -> exists v, md_weibull (law S) z = Ok (Some (Fin v))).
    { intros z Pz. unfold md_weibull. cbv zeta. unfold num. assert (A : all_pos (map (law S) (rsort z)) = true); [|rewrite A, orb_true_r; eexists; reflexivity].
      apply all_pos_iff. intros x Hx. apply in_map_iff in Hx as (y & <- & Hy). rewrite rsort_in in Hy. now apply law_inside, Pz. }
    assert (P1 : all_positive (repeat 1 n)) by (intros x Hx; apply repeat_spec in Hx; lra).
    destruct (RT l P) as (v & Ev). destruct (RT _ P1) as (w & Ew). exists l, v, w. split; [exact LL|]. split; [exact P|]. split; [exact AT|]. split; [eexists; split; [table|exact Ev]|]. split; [eexists; split; [table|exact Ew]|].
    assert (Bv : len l / 2 < v). { apply (md_perfect (law S)); trivial; [lia|]. intros i Hi. rewrite LL in Hi. rewrite AT by exact Hi. unfold len. now rewrite LL. }
    replace n with (Datatypes.S (n - 1)) in Ew by lia. apply md_constant in Ew; [|apply law_inside; trivial; lra]. replace (Datatypes.S (n - 1)) with n in Ew by lia. rewrite Ew. unfold len in Bv. now rewrite LL in Bv.
Qed.
(** Cabana and Quiroz compare the transform of log observations with the gamma function; the class takes the transform of the observations
    themselves.  The value grows with the sample size for every positive sample, and exceeds every critical value from some size on *)
Lemma C107_cabana_quiroz_refuted_holds : forall S c, gamma_of S (11 / 10) < 1 -> declares "CabanaQuirozWeibullGofStatistic" RIGHT /\
  (forall l v, all_positive l -> weibull_returns S "CabanaQuirozWeibullGofStatistic" l v -> len l * (1 - gamma_of S (11 / 10)) ^ 2 / 1.59 <= v) /\
  exists N, forall l v, all_positive l -> (N <= List.length l)%nat -> weibull_returns S "CabanaQuirozWeibullGofStatistic" l v -> c < v.
Proof.
  intros S c G. split; [|split].
  - apply ExpClaims.declared; vm_compute; reflexivity.
  - intros l v P H. run H. apply cq_lower in H; trivial; lra.
  - set (d := (1 - gamma_of S (11 / 10)) ^ 2 / 1.59). assert (D : 0 < d) by (apply Rdiv_lt_0_compat; [apply pow_lt; lra|lra]).
    destruct (nfloor_ex (Rmax 0 (c / d)) (Rmax_l _ _)) as (N & HN). exists (Datatypes.S N). intros l v P Hl H. run H. apply cq_lower in H; trivial; [|lra]. apply Rlt_le_trans with (2 := H).
    apply le_INR in Hl. rewrite S_INR in Hl; fold (len l) in Hl. pose proof (Rmax_r 0 (c / d)). replace (len l * (1 - gamma_of S (11 / 10)) ^ 2 / 1.59) with (len l * d) by (unfold d, Rdiv; ring).
    replace c with (c / d * d) by (field; lra). apply Rmult_lt_compat_r; lra.
Qed.
(** not vacuous: on three different positive observations all of these statistics are finite *)
Lemma C106_nonvacuous_holds : forall S, proper S -> forall name, In name ["TikuSinghWeibullGofStatistic"; "MSFWeibullGofStatistic"; "LOSWeibullGofStatistic"; "SbWeibullGofStatistic"; "SBWeibullGofStatistic";
    "OKWeibullGofStatistic"; "REJGWeibullGofStatistic"; "RSBWeibullGofStatistic"; "Chi2PearsonWeibullGofStatistic"; "KullbackLeiblerWeibullGofStatistic"; "LiaoShimokawaWeibullGofStatistic"; "CabanaQuirozWeibullGofStatistic";
    "MahdiDoostparastWeibullGofStatistic"] -> exists v, weibull_returns S name [1; 2; 3] v.
Proof.
  intros S [HB V] name Hn. assert (P : all_positive [1; 2; 3]) by (intros x [<-|[<-|[<-|[]]]]; lra). assert (D : NoDup [1; 2; 3]) by (repeat constructor; intros H; repeat destruct H as [H|H]; trivial; lra).
  assert (F : exists f, In (name, f) (weibull_statistics (min_of S) (gamma_of S) (gumbel_of S) (args_of S))) by (cbn [In] in Hn; repeat destruct Hn as [Hn|Hn]; try contradiction; subst name; eexists; table).
  destruct F as (f & I). destruct (C63_weibull_holds (min_of S) (gamma_of S) (gumbel_of S) (args_of S) name f [1; 2; 3] HB V P D ltac:(simpl; lia) I) as (v & E); [|exists v, f; auto].
  intros B. cbn [broken_weibull In] in B, Hn. repeat destruct B as [B|B]; try contradiction; subst name; repeat destruct Hn as [Hn|Hn]; try contradiction; discriminate Hn.
Qed.
Lemma C107_nonvacuous_holds : proper (Setting (fun _ lo _ => lo) (fun _ => 1 / 2) (fun _ => Raise ValueError) (WeibullArgs 1 5 TWO_TAILED)) /\
  gamma_of (Setting (fun _ lo _ => lo) (fun _ => 1 / 2) (fun _ => Raise ValueError) (WeibullArgs 1 5 TWO_TAILED)) (11 / 10) < 1.
Proof. split; [split; [intros f lo hi H; cbn in *; lra|split; cbn; lra]|cbn; lra]. Qed.
