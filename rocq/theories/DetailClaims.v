(** Further details of C42, C68, C85, C95, C96 and C100: constants, name rules and refusals. *)
From Coq Require Import String.
From Verif Require Import Base Analysis DecModel EdfModel GraphModel RegistryModel NormalLaw ExpModel NormModel NormRangeSpec NormFormSpec LognormModel LognormSpec UniformModel UniformSpec DetailSpec EdfProofs ExpProofs NormProofs NormRangeProofs NormFiniteProofs NormBoundProofs NormFormProofs NormDist2Proofs NormClaims NormTestProofs UniformProofs LognormProofs LognormClaims.
From Coq Require Import Lra Lia.
Local Open Scope string_scope.
Local Open Scope R_scope.

(** ** C42 *)
(** the code of a graph class: the code of its family after the word GRAPH *)
Lemma C42_graph_codes_holds : forall c, In c stat_classes -> (exists s, sc_name c = "Graph" ++ s) ->
  exists family, In (sc_dist c, family) [(NORMAL, "NORMALITY"); (EXPONENTIAL, "EXPONENTIALITY"); (GAMMA, "GAMMA")] /\
    sc_code c = sc_short c ++ "_GRAPH_" ++ family ++ "_GOODNESS_OF_FIT".
Proof.
  intros c H (s & E).
  assert (F : forallb (fun c => negb (String.prefix "Graph" (sc_name c)) ||
     existsb (fun f => (match sc_dist c, fst f with NORMAL, NORMAL | EXPONENTIAL, EXPONENTIAL | GAMMA, GAMMA => true | _, _ => false end) &&
        String.eqb (sc_code c) (sc_short c ++ "_GRAPH_" ++ snd f ++ "_GOODNESS_OF_FIT")) [(NORMAL, "NORMALITY"); (EXPONENTIAL, "EXPONENTIALITY"); (GAMMA, "GAMMA")]) stat_classes = true) by (vm_compute; reflexivity).
  rewrite forallb_forall in F. apply F in H. rewrite E in H. replace (String.prefix "Graph" ("Graph" ++ s)) with true in H by (cbn; now destruct s). cbn [negb orb] in H.
  apply existsb_exists in H as ((d & f) & I & Q). apply andb_true_iff in Q as [D C]. apply String.eqb_eq in C. exists f. split; [|exact C]. cbn [fst] in D. replace (sc_dist c) with d; [exact I|].
  destruct (sc_dist c), d; try discriminate D; reflexivity.
Qed.

(** ** C68 *)
(** every entry of the table is a log-normal class, and the rule which classes of normal.py are derived is the one
    of the registry: no class with an explicit implementation, no abstract class and no graph class *)
Lemma C68_sound_holds : forall s scale alt name g, In (name, g) (lognormal_statistics s scale alt) ->
  exists c, In c stat_classes /\ sc_name c = name /\ sc_dist c = LOG_NORMAL.
Proof.
  intros s scale alt name g H. apply (in_map fst) in H. cbn [fst] in H.
  assert (F : forallb (fun n => existsb (fun c => String.eqb (sc_name c) n && match sc_dist c with LOG_NORMAL => true | _ => false end) stat_classes) (map fst (lognormal_statistics s scale alt)) = true) by (vm_compute; reflexivity).
  rewrite forallb_forall in F. apply F, existsb_exists in H as (c & I & E). apply andb_true_iff in E as [E D]. exists c. split; [exact I|]. split; [now apply String.eqb_eq|]. now destruct (sc_dist c).
Qed.
Lemma C68_derivation_rule_holds : forall c, In c stat_classes -> sc_dist c = NORMAL ->
  (derivable_name (sc_name c) = true <-> ~ (exists s, sc_name c = "Graph" ++ s) /\
    ~ In (sc_name c) ["KolmogorovSmirnovNormalityGofStatistic"; "CramerVonMiseNormalityGofStatistic"; "QuesenberryMillerNormalityGofStatistic"; "BHSNormalityGofStatistic"]).
Proof.
  intros c H D.
  assert (F : forallb (fun c => negb (match sc_dist c with NORMAL => true | _ => false end) || Bool.eqb (derivable_name (sc_name c))
    (negb (String.prefix "Graph" (sc_name c)) && negb (existsb (String.eqb (sc_name c)) ["KolmogorovSmirnovNormalityGofStatistic"; "CramerVonMiseNormalityGofStatistic"; "QuesenberryMillerNormalityGofStatistic"; "BHSNormalityGofStatistic"]))) stat_classes = true) by (vm_compute; reflexivity).
  rewrite forallb_forall in F. apply F in H. rewrite D in H. cbn [negb orb] in H. apply Bool.eqb_prop in H. rewrite H, andb_true_iff, !negb_true_iff.
  assert (P : String.prefix "Graph" (sc_name c) = true <-> exists s, sc_name c = "Graph" ++ s).
  { generalize (sc_name c). clear. intros n. split.
    - intros E. apply prefix_correct in E. exists (substring 5 (String.length n - 5) n). cbn [String.length] in E.
      do 5 (destruct n as [|? n]; [discriminate E|]). cbn [substring] in E. injection E as -> -> -> -> -> _. cbn [append String.length Nat.sub]. rewrite Nat.sub_0_r.
      do 5 f_equal. cbn [substring]. clear. induction n as [|x n IH]; [reflexivity|]. cbn [String.length substring]. now rewrite <- IH.
    - intros (s & ->). cbn. now destruct s. }
  assert (X : existsb (String.eqb (sc_name c)) ["KolmogorovSmirnovNormalityGofStatistic"; "CramerVonMiseNormalityGofStatistic"; "QuesenberryMillerNormalityGofStatistic"; "BHSNormalityGofStatistic"] = true <-> In (sc_name c) ["KolmogorovSmirnovNormalityGofStatistic"; "CramerVonMiseNormalityGofStatistic"; "QuesenberryMillerNormalityGofStatistic"; "BHSNormalityGofStatistic"]).
  { rewrite existsb_exists. split. intros (x & I & E). apply String.eqb_eq in E. now subst. intros I. eexists. split; [exact I|]. apply String.eqb_refl. }
  rewrite <- !not_true_iff_false, P, X. tauto.
Qed.

(** ** C85 *)
Lemma ln_ge x y : 0 < x -> exp y <= x -> y <= ln x.
Proof. intros H [E|E]. rewrite <- (ln_exp y). left. apply ln_increasing; trivial. apply exp_pos. rewrite <- E, ln_exp. lra. Qed.
Lemma ln_le_of x y : 0 < x -> x <= exp y -> ln x <= y.
Proof. intros H E. rewrite <- (ln_exp y). destruct E as [E|E]. left. now apply ln_increasing. rewrite E. lra. Qed.
Lemma exp_mul k x : exp x ^ k = exp (INR k * x).
Proof. induction k as [|k IH]. simpl. now rewrite Rmult_0_l, exp_0. rewrite S_INR. cbn [pow]. rewrite IH, <- exp_plus. f_equal. ring. Qed.
Lemma exp_ge1 x : 1 + x <= exp x.
Proof. apply exp_ineq1_le. Qed.
Lemma ln6 : 1.5 <= ln 6.
Proof.
  apply ln_ge; [lra|]. assert (E : exp 1.5 ^ 2 = exp 1 ^ 3) by (rewrite !exp_mul; f_equal; simpl; lra). pose proof exp_le_3. pose proof (exp_pos 1). pose proof (exp_pos 1.5).
  assert (exp 1 ^ 3 <= 27). { replace 27 with (3 ^ 3) by lra. apply pow_incr. lra. } nra.
Qed.
Lemma ln4_lower : 1.2 <= ln 4.
Proof.
  apply ln_ge; [lra|]. assert (E : exp 1.2 ^ 5 = exp 1 ^ 6) by (rewrite !exp_mul; f_equal; simpl; lra). pose proof exp_le_3. pose proof (exp_pos 1). pose proof (exp_pos 1.2).
  assert (exp 1 ^ 6 <= 729). { replace 729 with (3 ^ 6) by lra. apply pow_incr. lra. }
  destruct (Rle_lt_dec (exp 1.2) 4) as [|B]; [assumption|]. assert (4 ^ 5 <= exp 1.2 ^ 5) by (apply pow_incr; lra). lra.
Qed.
Lemma ln4_upper : ln 4 <= 1.9.
Proof.
  apply ln_le_of; [lra|]. assert (E : exp 1.9 = exp 0.475 ^ 4) by (rewrite exp_mul; f_equal; simpl; lra). rewrite E. pose proof (exp_ge1 0.475).
  assert (1.475 ^ 4 <= exp 0.475 ^ 4) by (apply pow_incr; lra). lra.
Qed.
Lemma ln3_upper : ln 3 <= 1.12.
Proof.
  apply ln_le_of; [lra|]. assert (E : exp 1.12 = exp 0.02 ^ 56) by (rewrite exp_mul; f_equal; rewrite INR_IZR_INZ; simpl; lra). rewrite E. pose proof (exp_ge1 0.02).
  assert (1.02 ^ 56 <= exp 0.02 ^ 56) by (apply pow_incr; lra). assert (3 <= 1.02 ^ 56) by (cbn [pow]; lra). lra.
Qed.
Lemma inv_sqrt n : 0 < n -> 0 < / sqrt n /\ / n = / sqrt n * / sqrt n.
Proof. intros H. assert (0 < sqrt n) by (now apply sqrt_lt_R0). split. now apply Rinv_0_lt_compat. rewrite <- Rinv_mult. now rewrite sqrt_sqrt by lra. Qed.
Lemma sup05 n : kl_sup_critical n 0.05 = Ok (2.67076 - 3.90704 / sqrt n + 1.07162 / n).
Proof. unfold kl_sup_critical. destruct (Reqb_spec 0.05 0.05); [reflexivity|lra]. Qed.
Lemma sup01 n : kl_sup_critical n 0.01 = Ok (4.10183 - 7.48001 / sqrt n + 0.638394 * ln n / sqrt n).
Proof. unfold kl_sup_critical. destruct (Reqb_spec 0.01 0.05); [lra|]. destruct (Reqb_spec 0.01 0.01); [reflexivity|lra]. Qed.
(** the supremum test is stricter at the level 0.01 than at 0.05 for six and more observations... *)
Lemma C85_supremum_levels_ordered_partial_holds : forall n c5 c1, 6 <= n ->
  kl_sup_critical n 0.05 = Ok c5 -> kl_sup_critical n 0.01 = Ok c1 -> c5 < c1.
Proof.
  intros n c5 c1 Hn E5 E1. rewrite sup05 in E5. rewrite sup01 in E1. assert (X5 : c5 = 2.67076 - 3.90704 / sqrt n + 1.07162 / n) by congruence. assert (X1 : c1 = 4.10183 - 7.48001 / sqrt n + 0.638394 * ln n / sqrt n) by congruence. rewrite X5, X1. clear E5 E1 X5 X1.
  assert (L : 1.5 <= ln n). { apply Rle_trans with (1 := ln6). destruct Hn as [h|<-]; [left; apply ln_increasing; lra|lra]. }
  destruct (inv_sqrt n ltac:(lra)) as [T Q]. unfold Rdiv. rewrite Q. set (t := / sqrt n) in *. assert (t * t <= / 6) by (rewrite <- Q; apply Rinv_le_contravar; lra). assert (t < 0.4083) by nra.
  assert (1.5 * t <= ln n * t) by nra. replace (0.638394 * ln n * t) with (0.638394 * (ln n * t)) by ring. set (q := ln n * t) in *. clearbody t q. nra.
Qed.
(** ... but not for four: samples are rejected at 0.01 which are accepted at 0.05 *)
Lemma C85_supremum_levels_ordered_refuted_holds : exists c5 c1, kl_sup_critical 4 0.05 = Ok c5 /\ kl_sup_critical 4 0.01 = Ok c1 /\ c1 < c5.
Proof.
  do 2 eexists. split; [apply sup05|]. split; [apply sup01|]. assert (Q : sqrt 4 = 2) by (replace 4 with (2 * 2) by lra; rewrite sqrt_square; lra). rewrite Q. pose proof ln4_upper. lra.
Qed.
(** the integral test at the level 0.05: the critical value is positive from four observations up to exp 19,
    and negative for at most three observations, so that all of these samples are rejected *)
Lemma int05 n : kl_int_critical n 0.05 = Ok (-2.88971 - 0.130082 * ln n ^ 2 + 2.71403 * ln n).
Proof. unfold kl_int_critical. destruct (Reqb_spec 0.05 0.05); [reflexivity|lra]. Qed.
Lemma C85_integral_tabulated_holds : forall n, 4 <= n -> n <= exp 19 -> exists c, kl_int_critical n 0.05 = Ok c /\ 0 < c.
Proof.
  intros n H1 H2. eexists. split; [apply int05|]. assert (L : 1.2 <= ln n). { apply Rle_trans with (1 := ln4_lower). destruct H1 as [h|<-]; [left; apply ln_increasing; lra|lra]. }
  assert (U : ln n <= 19) by (apply ln_le_of; lra). set (t := ln n) in *. clearbody t. nra.
Qed.
Lemma C85_integral_always_rejects_refuted_holds : forall n, 1 <= n <= 3 ->
  exists c, kl_int_critical n 0.05 = Ok c /\ forall l v, kl_int l = Ok (Some (Fin v)) -> c < v.
Proof.
  intros n H. eexists. split; [apply int05|]. intros l v E. pose proof (C85_nonnegative_holds l v (or_intror E)) as V.
  assert (L : ln n <= 1.12). { apply Rle_trans with (2 := ln3_upper). destruct (proj2 H) as [h|h]; [left; apply ln_increasing; lra|rewrite h; lra]. }
  assert (G : 0 <= ln n). { rewrite <- ln_1. destruct (proj1 H) as [h|<-]; [left; apply ln_increasing; lra|lra]. } set (t := ln n) in *. clearbody t. nra.
Qed.

(** ** C95 *)
(** too few censoring indicators are refused, unless they are an array of zeros *)
Lemma C95_too_few_indicators_holds : forall a b d l, within a b l -> (List.length d < List.length l)%nat ->
  censored_stein a b (IndexList d) l = Raise IndexError /\
  (In true d -> censored_stein a b (IndexArray d) l = Raise IndexError) /\
  (~ In true d -> censored_stein a b (IndexArray d) l = stein_uniform a b l).
Proof.
  intros a b d l W L. unfold censored_stein. rewrite vok by trivial. cbn [bind]. cbv zeta. apply Nat.ltb_lt in L. rewrite L. split; [reflexivity|]. split; intros H.
  - destruct (forallb negb d) eqn:E; [|reflexivity]. rewrite forallb_forall in E. now specialize (E _ H).
  - replace (forallb negb d) with true; [reflexivity|]. symmetry. apply forallb_forall. intros [] Hx; [contradiction|reflexivity].
Qed.

(** ** C96 *)
(** without a bandwidth, the rule of thumb 1.06 sd n^(-1/5) for the standardised sample is used *)
Lemma C96_rule_of_thumb_holds : forall a b l, l <> [] -> let z := map (fun x => (x - a) / (b - a)) l in
  br_uniform a b AutoBandwidth l = br_uniform a b (GivenBandwidth (1.06 * sqrt (Rsum (map (fun x => (x - mean z) ^ 2) z) / len z) / Rpower (len z) (1 / 5))) l.
Proof.
  intros a b l NE z. unfold br_uniform. destruct (uniform_validate a b l) as [l'|] eqn:V; [|reflexivity]. assert (l' = l). { unfold uniform_validate in V. destruct (existsb _ _) in V; congruence. } subst l'.
  cbn [bind]. cbv zeta. destruct l as [|x l]; [easy|]. fold z. change (uniform_std a b (x :: l)) with z.
  assert (E : br_auto z = 1.06 * sqrt (Rsum (map (fun x => (x - mean z) ^ 2) z) / len z) / Rpower (len z) (1 / 5)).
  { unfold br_auto, np_var. rewrite Rpower_Ropp. unfold mean at 1. rewrite len_map. reflexivity. }
  now rewrite E.
Qed.

(** ** C100 *)
Lemma freedom_ku n : anscombe_freedom n = ku_a n /\ kurtosis_skewness n = ku_sqrt_beta1 n.
Proof.
  assert (E : kurtosis_skewness n = ku_sqrt_beta1 n) by (unfold kurtosis_skewness, ku_sqrt_beta1; now replace (n * n) with (n ^ 2) by ring).
  split; [|exact E]. unfold anscombe_freedom, ku_a. now rewrite E.
Qed.
Lemma w2_sk n : dagostino_w2 n = sk_w2 n.
Proof. unfold dagostino_w2, sk_w2, sk_beta2. change (3 * _ * _ * _ / _) with (dagostino_beta2 n). ring. Qed.
Lemma sk_z_dagostino n y : 8 <= n -> sk_z n y = dagostino n y.
Proof.
  intros N. unfold sk_z, dagostino, sk_delta, sk_alpha, arcsinh. cbv zeta. rewrite w2_sk. do 4 f_equal. pose proof (sk_w2_gt1 n N). rewrite <- (sqrt_sqrt (sk_w2 n)) at 1 by lra.
  assert (0 < sqrt (sk_w2 n)) by (apply sqrt_lt_R0; lra). rewrite ln_mult by trivial. lra.
Qed.
(** a skewness of exactly zero is treated as if the standardised skewness were one *)
Lemma C100_skewness_transformation_holds : forall l v, skew_norm l = Ok (Some (Fin v)) ->
  (sample_skewness l <> 0 -> v = dagostino (len l) (skewness_score (len l) (sample_skewness l))) /\
  (sample_skewness l = 0 -> v = dagostino (len l) 1).
Proof.
  intros l v E. apply skew_inv in E as (H8 & V & ->). pose proof (len8 l H8) as N. assert (NE : l <> []) by (intros ->; simpl in H8; lia).
  apply varying_iff in V. rewrite <- skewness_sample by trivial. rewrite sk_z_dagostino by trivial. destruct (Reqb_spec (skewness l) 0); split; intros; try easy.
  f_equal. unfold sk_y, skewness_score. unfold Rdiv at 2. f_equal. rewrite <- sqrt_inv. f_equal. field. repeat split; lra.
Qed.
Lemma ku_root_cube n d : 5 <= n -> d <> 0 -> ku_root n d ^ 3 = (1 - 2 / ku_a n) / Rabs d.
Proof.
  intros N D. unfold ku_root. pose proof (ku_c_pos n N). assert (0 < (1 - 2 / ku_a n) / Rabs d) by (apply Rdiv_lt_0_compat; trivial; now apply Rabs_pos_lt).
  rewrite <- Rpower_pow by apply exp_pos. rewrite Rpower_mult. replace (1 / 3 * INR 3) with 1 by (simpl; field). now apply Rpower_1.
Qed.
(** the real cube root c of (1 - 2/A) / (1 + x sqrt(2/(A-4))) is compared with its approximate mean 1 - 2/(9A) *)
Lemma C100_kurtosis_transformation_holds : forall l v, kurtosis_norm l = Ok (Some (Fin v)) ->
  let A := anscombe_freedom (len l) in
  exists c, c ^ 3 = (1 - 2 / A) / (1 + kurtosis_score (len l) (sample_kurtosis l) * sqrt (2 / (A - 4))) /\
    v = (1 - 2 / (9 * A) - c) / sqrt (2 / (9 * A)).
Proof.
  intros l v E A. apply kurtosis_inv in E as (H5 & V & D & ->). pose proof (len5 l H5) as N. unfold A. rewrite (proj1 (freedom_ku _)).
  replace (1 + _ * _) with (ku_denom (len l) (kurt l)).
  2: { unfold ku_denom, kurtosis_score, ku_e, ku_var. rewrite kurt_sample. now replace ((len l + 1) * (len l + 1)) with ((len l + 1) ^ 2) by ring. }
  set (d := ku_denom (len l) (kurt l)) in *. destruct (Rtotal_order d 0) as [G|[|G]]; [|easy|].
  - exists (- ku_root (len l) d). split. replace ((- ku_root (len l) d) ^ 3) with (- ku_root (len l) d ^ 3) by ring. rewrite ku_root_cube, Rabs_left by trivial. pose proof (ku_a_gt6 _ N). field. lra.
    rewrite ku_value_neg_branch by trivial. f_equal. ring.
  - exists (ku_root (len l) d). split. rewrite ku_root_cube, Rabs_pos_eq by (trivial; lra). reflexivity. now rewrite ku_value_pos_branch.
Qed.
