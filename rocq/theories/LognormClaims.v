(** Properties C47, C48, C54, C61, C63, C64, C66, C67, C68 and C85 for the log-normal statistics. *)
From Coq Require Import String.
From Coquelicot Require Import Coquelicot.
From Verif Require Import Base DecModel EdfModel EdfSpec GraphModel RegistryModel NormalLaw ExpModel ExpSpec NormModel NormSpec NormRangeSpec LognormModel LognormSpec DecProofs EdfProofs EdfRotProofs ExpProofs ExpRangeProofs NormProofs NormSymProofs NormAffProofs NormReflProofs NormRangeProofs NormFiniteProofs NormBoundProofs LognormProofs LognormIntProofs EdfClaims ExpClaims NormClaims NormRangeClaims.
From Coq Require Import Lra Lia.
Local Open Scope string_scope.
Local Open Scope R_scope.

Lemma logs_form s scale l : 0 < scale -> all_positive l -> map (fun v => (v - ln scale) / s) (map ln l) = standardised_logs s scale l.
Proof. intros Hs Hp. unfold standardised_logs. rewrite map_map. apply map_ext_in. intros x Hx. now rewrite ln_div by auto. Qed.
Lemma wrapped_pos f s scale l : 0 < scale -> all_positive l -> nvalue (wrapped f s scale l) = nvalue (f (standardised_logs s scale l)).
Proof. intros Hs Hp. unfold wrapped. cbn [nvalue]. rewrite any_nonpositive_false by trivial. now rewrite logs_form. Qed.
Lemma nodup_map_on (f : R -> R) l : (forall x y, In x l -> In y l -> f x = f y -> x = y) -> NoDup l -> NoDup (map f l).
Proof.
  intros I H. induction H as [|x l N H IH]; simpl; constructor.
  - intros F. apply in_map_iff in F as (y & E & Hy). apply N. rewrite <- (I y x); simpl; auto.
  - apply IH. intros; apply I; simpl; auto.
Qed.
Lemma lognormal_cases s scale alt name g : In (name, g) (lognormal_statistics s scale alt) ->
  (name = "KolmogorovSmirnovLogNormalGofStatistic" /\ g = nreads (ks_lognorm s scale alt)) \/
  (name = "CramerVonMiseLogNormalGofStatistic" /\ g = nreads (cvm_lognorm s scale)) \/
  (name = "QuesenberryMillerLogNormalGofStatistic" /\ g = nreads (qm_lognorm s scale)) \/
  (name = "KLSupremumLogNormalGoFStatistic" /\ g = nreads kl_sup) \/
  (name = "KLIntegralLogNormalGoFStatistic" /\ g = nreads kl_int) \/
  (exists nname f, In (nname, f) (normality_statistics norm_defaults) /\ derivable_name nname = true /\
     name = py_replace nname "Normality" "LogNormal" /\ g = wrapped f s scale).
Proof.
  intros H. unfold lognormal_statistics in H. apply in_app_or in H as [H|H].
  - repeat (destruct H as [H|H]; [injection H as <- <-; tauto|]). destruct H.
  - do 5 right. apply in_map_iff in H as ((nname & f) & E & H). apply filter_In in H as [H D]. injection E as <- <-. exists nname, f. repeat split; trivial.
Qed.
Lemma not_simple nname f : In (nname, f) (normality_statistics norm_defaults) -> derivable_name nname = true -> ~ In nname simple_normal.
Proof. intros _ D [E|[E|[]]]; subst; discriminate D. Qed.
Lemma logs_affine s scale s' scale' l : 0 < s -> 0 < s' -> 0 < scale -> 0 < scale' -> all_positive l ->
  standardised_logs s' scale' l = map (fun x => (ln scale - ln scale') / s' + s / s' * x) (standardised_logs s scale l).
Proof.
  intros Hs Hs' Hc Hc' Hp. unfold standardised_logs. rewrite map_map. apply map_ext_in. intros x Hx. rewrite !ln_div by auto. field. split; lra.
Qed.
Lemma power_positive c b l : 0 < c -> all_positive (power_change c b l).
Proof. intros Hc x Hx. apply in_map_iff in Hx as (y & <- & _). apply Rmult_lt_0_compat; trivial. apply exp_pos. Qed.
Lemma power_logs_affine s scale c b l : 0 < s -> 0 < scale -> 0 < c -> all_positive l ->
  standardised_logs s scale (power_change c b l) = map (fun x => (ln c + (b - 1) * ln scale) / s + b * x) (standardised_logs s scale l).
Proof.
  intros Hs Hc Hc' Hp. unfold standardised_logs, power_change. rewrite !map_map. apply map_ext_in. intros x Hx.
  rewrite !ln_div, ln_mult; auto; try apply exp_pos. unfold Rpower. rewrite ln_exp. field. lra. apply Rmult_lt_0_compat; trivial. apply exp_pos.
Qed.
Lemma inv_positive l : all_positive l -> all_positive (map Rinv l).
Proof. intros H x Hx. apply in_map_iff in Hx as (y & <- & Hy). apply Rinv_0_lt_compat. now apply H. Qed.
Lemma inv_std_logs s scale l : 0 < scale -> all_positive l -> standardised_logs s (/ scale) (map Rinv l) = map Ropp (standardised_logs s scale l).
Proof.
  intros Hc Hp. unfold standardised_logs. rewrite !map_map. apply map_ext_in. intros x Hx. pose proof (Hp x Hx). rewrite ln_div, ln_div, !ln_Rinv; auto using Rinv_0_lt_compat. unfold Rdiv. ring.
Qed.
(** *** C68 *)
(** every class of normal.py (except the fully specified Kolmogorov-Smirnov and Cramer-von Mises ones and the
    Brys-Hubert-Struyf one) has a log-normal counterpart with the value of the standardised logarithms, and the value
    infinity if some observation is not positive *)
Lemma C68_derived_statistics_holds : forall s scale alt name f, 0 < scale ->
  In (name, f) (normality_statistics norm_defaults) -> ~ In name simple_normal ->
  exists name' g, log_named name name' /\ In (name', g) (lognormal_statistics s scale alt) /\
    forall l, (all_positive l -> nvalue (g l) = nvalue (f (standardised_logs s scale l))) /\
              ((exists x, In x l /\ x <= 0) -> nvalue (g l) = Ok (Some NonFinite)).
Proof.
  intros s scale alt name f Hs H N. assert (D : derivable_name name = true /\ log_named name (py_replace name "Normality" "LogNormal")).
  { clear Hs. revert N. unfold normality_statistics in H. neach H; intros N; try (exfalso; apply N; simpl; tauto); (split; [reflexivity|]).
    all: match goal with |- log_named ?n _ => exists (substring 0 (String.length n - 21) n) end; split; vm_compute; reflexivity. }
  destruct D as [D L]. exists (py_replace name "Normality" "LogNormal"), (wrapped f s scale). split; trivial. split.
  - unfold lognormal_statistics. apply in_or_app. right. apply in_map_iff. exists (name, f). split; trivial. apply filter_In. split; trivial.
  - intros l. split. now apply wrapped_pos. intros (x & I & Hx). unfold wrapped. cbn [nvalue]. now rewrite (any_nonpositive_true l x).
Qed.
(** the table contains every log-normal class of the registry *)
Lemma C68_complete_holds : forall s scale alt c, In c stat_classes -> sc_dist c = LOG_NORMAL ->
  In (sc_name c) (map fst (lognormal_statistics s scale alt)).
Proof.
  intros s scale alt c H D. assert (F : forallb (fun c => negb (match sc_dist c with LOG_NORMAL => true | _ => false end) || existsb (String.eqb (sc_name c)) (map fst (lognormal_statistics s scale alt))) stat_classes = true) by (vm_compute; reflexivity).
  rewrite forallb_forall in F. apply F in H. rewrite D in H. apply orb_true_iff in H as [H|H]; [discriminate H|]. apply existsb_exists in H as (n & I & E). apply String.eqb_eq in E. now subst.
Qed.
(** the explicit Kolmogorov-Smirnov and Cramer-von Mises classes agree with the normal ones on positive data *)
Lemma C68_explicit_statistics_holds : forall s scale l, 0 < s -> 0 < scale -> all_positive l ->
  (forall alt, ks_lognorm s scale alt l = ks_norm 0 1 alt (standardised_logs s scale l)) /\
  cvm_lognorm s scale l = cvm_norm (standardised_logs s scale l).
Proof.
  intros s scale l Hs Hc Hp. assert (E : map (lognorm_cdf s scale) (rsort l) = map norm_cdf (rsort (standardised_logs s scale l))).
  { unfold standardised_logs. rewrite rsort_map_mono_on, map_map.
    - apply map_ext_in. intros x Hx. pose proof (Hp x (proj1 (rsort_in l x) Hx)). rewrite lognorm_cdf_pos by assumption. now rewrite ln_div by assumption.
    - intros x y Hx Hy Hxy. unfold Rdiv at 1 3. apply Rmult_le_compat_r. left. now apply Rinv_0_lt_compat. rewrite !ln_div by auto. apply Rplus_le_compat_r.
      destruct Hxy as [h| ->]; [|lra]. left. apply ln_increasing; auto. }
  split; intros; unfold ks_lognorm, cvm_lognorm, ks_norm, cvm_norm; now rewrite E.
Qed.
(** a log-normal sample stays log-normal under x -> c * x ^ b: the tests of lognormality do not notice *)
Lemma C68_unit_and_exponent_free_holds : forall s scale alt name g c b l, 0 < s -> 0 < scale -> 0 < c -> 0 < b -> all_positive l ->
  In (name, g) (lognormal_statistics s scale alt) -> ~ In name simple_lognormal -> kl_sigma_hat l <> 0 ->
  nvalue (g (power_change c b l)) = nvalue (g l).
Proof.
  intros s scale alt name g c b l Hs Hsc Hc Hb Hp H N Hv. pose proof (power_positive c b l Hc) as Hp'.
  apply lognormal_cases in H as [[E ->]|[[E ->]|[[E ->]|[[E ->]|[[E ->]|(nname & f & H & D & E & ->)]]]]]; try (exfalso; apply N; subst; simpl; tauto).
  - unfold nreads. cbn [nvalue]. assert (kl_sigma_hat (power_change c b l) <> 0). { unfold power_change. rewrite power_sigma by trivial. apply Rmult_integral_contrapositive. split; lra. }
    rewrite !kl_sup_eval by trivial. apply (f_equal (num true)). now apply power_kl_value.
  - unfold nreads. cbn [nvalue]. assert (kl_sigma_hat (power_change c b l) <> 0). { unfold power_change. rewrite power_sigma by trivial. apply Rmult_integral_contrapositive. split; lra. }
    rewrite !kl_int_eval by trivial. apply (f_equal (num true)). now apply power_kl_int_value.
  - rewrite !wrapped_pos by trivial. rewrite power_logs_affine by trivial. apply (C60_normality_holds norm_defaults nname); trivial. now apply (not_simple nname f).
Qed.
(** so the parameters of the hypothesis do not matter *)
Lemma C68_parameters_irrelevant_holds : forall s scale s' scale' alt name g l, 0 < s -> 0 < scale -> 0 < s' -> 0 < scale' -> all_positive l ->
  In (name, g) (lognormal_statistics s scale alt) -> ~ In name simple_lognormal ->
  exists g', In (name, g') (lognormal_statistics s' scale' alt) /\ nvalue (g' l) = nvalue (g l).
Proof.
  intros s scale s' scale' alt name g l Hs Hsc Hs' Hsc' Hp H N.
  apply lognormal_cases in H as [[E ->]|[[E ->]|[[E ->]|[[E ->]|[[E ->]|(nname & f & H & D & E & ->)]]]]]; try (exfalso; apply N; subst; simpl; tauto).
  - exists (nreads kl_sup). split; trivial. subst. unfold lognormal_statistics. simpl. tauto.
  - exists (nreads kl_int). split; trivial. subst. unfold lognormal_statistics. simpl. tauto.
  - exists (wrapped f s' scale'). split.
    + unfold lognormal_statistics. apply in_or_app. right. apply in_map_iff. exists (nname, f). subst. split; trivial. apply filter_In. split; trivial.
    + rewrite !wrapped_pos by trivial. rewrite (logs_affine s scale s' scale') by trivial. apply (C60_normality_holds norm_defaults nname); trivial. now apply (not_simple nname f).
      apply Rdiv_lt_0_compat; lra.
Qed.
(** reciprocals of log-normal observations are log-normal *)
Lemma C68_reciprocal_holds : forall s scale alt name g l, 0 < s -> 0 < scale -> all_positive l ->
  In (name, g) (lognormal_statistics s scale alt) -> ~ In name simple_lognormal -> ~ In name directed_lognormal -> kl_sigma_hat l <> 0 ->
  nvalue (g (map Rinv l)) = nvalue (g l).
Proof.
  intros s scale alt name g l Hs Hsc Hp H N N2 Hv. pose proof (inv_positive l Hp) as Hp'.
  apply lognormal_cases in H as [[E ->]|[[E ->]|[[E ->]|[[E ->]|[[E ->]|(nname & f & H & D & E & ->)]]]]]; try (exfalso; apply N; subst; simpl; tauto).
  - unfold nreads. cbn [nvalue]. rewrite !kl_sup_eval; trivial. apply (f_equal (num true)). now apply inv_kl_value. now rewrite inv_sigma.
  - unfold nreads. cbn [nvalue]. rewrite !kl_int_eval; trivial. apply (f_equal (num true)). apply inv_kl_int_value; trivial. now apply sigma_ne. now rewrite inv_sigma.
  - rewrite !wrapped_pos by trivial. rewrite (logs_affine s (/ scale) s scale) by (trivial; now apply Rinv_0_lt_compat). rewrite inv_std_logs by trivial.
    rewrite (C60_normality_holds norm_defaults nname); trivial; [|now apply (not_simple nname f)|apply Rdiv_lt_0_compat; lra].
    apply (C83_normality_reflection_holds norm_defaults nname); trivial; [|cbn; lra].
    intros I. apply N2. subst name. simpl in I. repeat (destruct I as [<-|I]; [try discriminate D; vm_compute; tauto|]). destruct I.
Qed.
(** *** C47, C48, C66 *)
Lemma C47_lognormal_holds : forall s scale l, 0 < s -> 0 < scale -> l <> [] ->
  exists d, ks_lognorm s scale TWO_TAILED l = Ok (Some (Fin d)) /\ supremum (fun x => Rabs (edf l x - lognorm_cdf s scale x)) d.
Proof.
  intros s scale l Hs Hc Hne. destruct (proj1 (C47_ks_is_sup_distance_holds (lognorm_cdf s scale) l (lognorm_cdf_cdf s scale Hs Hc) Hne)) as (d & E & Q). exists d. split; trivial.
  unfold ks_lognorm. unfold ks_stat, cdf_vals in E. now rewrite E.
Qed.
Lemma C48_lognormal_holds : forall s scale l, 0 < s -> 0 < scale -> l <> [] ->
  (exists d, ks_lognorm s scale TWO_TAILED l = Ok (Some (Fin d)) /\ 1 / (2 * len l) <= d <= 1) /\
  (exists w, cvm_lognorm s scale l = Ok (Some (Fin w)) /\ 1 / (12 * len l) <= w <= len l / 3).
Proof.
  intros s scale l Hs Hc Hne. destruct (lognorm_cdf_cdf s scale Hs Hc) as (F1 & F2 & _).
  destruct (C48_ranges_holds (lognorm_cdf s scale) l F1 F2 Hne) as ((d & E & Q) & (w & E' & Q') & _). split.
  - exists d. split; trivial. unfold ks_lognorm. unfold ks_stat, cdf_vals in E. now rewrite E.
  - exists w. split; trivial. unfold cvm_lognorm. unfold cvm_stat, cdf_vals in E'. now rewrite E'.
Qed.
Lemma C66_lognormal_quesenberry_miller_holds : forall s scale l,
  exists q, qm_lognorm s scale l = Ok (Some (Fin q)) /\ 1 / (len l + 1) <= q <= 1.
Proof.
  intros s scale l. eexists. split; [reflexivity|]. set (u := map (lognorm_cdf s scale) l).
  assert (U : forall x, In x u -> 0 <= x <= 1) by (intros x Hx; apply in_map_iff in Hx as (y & <- & _); apply lognorm_cdf_range).
  destruct (C66_uniform_spacing_ranges_holds 0 1 u ltac:(lra) U) as (_ & _ & (q & E & Q)). revert E. unfold qm_uniform, uniform_validate.
  replace (existsb _ u) with false. 2:{ symmetry. apply not_true_is_false. intros T. apply existsb_exists in T as (x & I & T). apply U in I. apply orb_true_iff in T as [T|T]; apply Rltb_true in T; lra. }
  cbn [bind]. intros E. injection E as E. unfold qm_lognormal_stat. fold u. rewrite E. unfold u, len in Q |- *. rewrite map_length in Q. replace ((1 - 0) ^ 2) with 1 in Q by ring. exact Q.
Qed.
(** *** C54 and C64 *)
Lemma C54_lognormal_holds : forall s scale alt name g l l', In (name, g) (lognormal_statistics s scale alt) ->
  Permutation l l' -> nvalue (g l) = nvalue (g l').
Proof.
  intros s scale alt name g l l' H P.
  apply lognormal_cases in H as [[E ->]|[[E ->]|[[E ->]|[[E ->]|[[E ->]|(nname & f & H & D & E & ->)]]]]]; unfold nreads; cbn [nvalue].
  - unfold ks_lognorm. now rewrite (rsort_perm_eq _ _ P).
  - unfold cvm_lognorm. now rewrite (rsort_perm_eq _ _ P).
  - unfold qm_lognorm, qm_lognormal_stat. now rewrite (rsort_perm_eq _ _ (Permutation_map _ P)).
  - destruct (kl_perm l l' P) as (S & Dd & C). unfold kl_sup. rewrite (any_nonpositive_perm l l' P), S. destruct (any_nonpositive l'); trivial. destruct (Reqb _ _).
    + unfold kl_degenerate. rewrite (Permutation_length P). f_equal. f_equal. destruct (forallb _ l) eqn:A, (forallb _ l') eqn:B; trivial; exfalso.
      rewrite forallb_forall in A. rewrite (proj2 (forallb_forall _ l')) in B; [discriminate|]. intros x Hx. apply A. now apply (Permutation_in x (Permutation_sym P)).
      rewrite forallb_forall in B. rewrite (proj2 (forallb_forall _ l)) in A; [discriminate|]. intros x Hx. apply B. now apply (Permutation_in x P).
    + cbv zeta. rewrite !map_length. f_equal. unfold len. rewrite (Permutation_length P). do 2 f_equal. apply map_ext. intros r. now rewrite Dd.
  - destruct (kl_perm l l' P) as (S & Dd & C). unfold kl_int. rewrite (any_nonpositive_perm l l' P), S. destruct (any_nonpositive l'); trivial. destruct (Reqb _ _).
    + unfold kl_degenerate. rewrite (Permutation_length P). f_equal. f_equal. destruct (forallb _ l) eqn:A, (forallb _ l') eqn:B; trivial; exfalso.
      rewrite forallb_forall in A. rewrite (proj2 (forallb_forall _ l')) in B; [discriminate|]. intros x Hx. apply A. now apply (Permutation_in x (Permutation_sym P)).
      rewrite forallb_forall in B. rewrite (proj2 (forallb_forall _ l)) in A; [discriminate|]. intros x Hx. apply B. now apply (Permutation_in x P).
    + f_equal. now apply kl_int_perm.
  - unfold wrapped. cbn [nvalue]. rewrite (any_nonpositive_perm l l' P). destruct (any_nonpositive l'); trivial. apply (C54_normality_holds norm_defaults nname); trivial. now do 2 apply Permutation_map.
Qed.
(** even the classes derived from the ones that sort the caller's array leave it alone *)
Lemma C64_lognormal_holds : forall s scale alt name g l, In (name, g) (lognormal_statistics s scale alt) -> nsample_after (g l) = l.
Proof.
  intros s scale alt name g l H. apply lognormal_cases in H as [[E ->]|[[E ->]|[[E ->]|[[E ->]|[[E ->]|(nname & f & H & D & E & ->)]]]]]; reflexivity.
Qed.
(** *** C61 *)
Lemma C61_lognormal_holds : forall s scale c b l, 0 < s -> 0 < scale -> 0 < c -> 0 < b ->
  all_positive l -> let s' := b * s in let scale' := c * Rpower scale b in let l' := power_change c b l in
  (forall alt, ks_lognorm s' scale' alt l' = ks_lognorm s scale alt l) /\ cvm_lognorm s' scale' l' = cvm_lognorm s scale l /\
  qm_lognorm s' scale' l' = qm_lognorm s scale l.
Proof.
  intros s scale c b l Hs Hsc Hc Hb Hp s' scale' l'. assert (P' : 0 < scale') by (apply Rmult_lt_0_compat; trivial; apply exp_pos). assert (S' : 0 < s') by now apply Rmult_lt_0_compat.
  assert (E : forall x, 0 < x -> lognorm_cdf s' scale' (c * Rpower x b) = lognorm_cdf s scale x).
  { intros x Hx. assert (0 < Rpower x b) by apply exp_pos. assert (0 < Rpower scale b) by apply exp_pos. rewrite !lognorm_cdf_pos; trivial. 2: now apply Rmult_lt_0_compat. f_equal. unfold scale', s'. rewrite !ln_mult by trivial.
    unfold Rpower. rewrite !ln_exp. field. split; lra. }
  assert (K : map (lognorm_cdf s' scale') (rsort l') = map (lognorm_cdf s scale) (rsort l)).
  { unfold l', power_change. rewrite rsort_map_mono_on, map_map. apply map_ext_in. intros x Hx. apply E. apply Hp. now apply rsort_in.
    intros x y Hx Hy Hxy. apply Rmult_le_compat_l; [lra|]. destruct Hxy as [h| ->]; [|lra]. left. apply Rlt_Rpower_l; trivial. split; auto. }
  split; [|split]. intros alt. unfold ks_lognorm. now rewrite K. unfold cvm_lognorm. now rewrite K.
  unfold qm_lognorm, qm_lognormal_stat. replace (map (lognorm_cdf s' scale') l') with (map (lognorm_cdf s scale) l); trivial. unfold l', power_change. rewrite map_map. apply map_ext_in. intros x Hx. symmetry. apply E. now apply Hp.
Qed.
(** *** C63 *)
Lemma C63_lognormal_holds : forall s scale alt name g l, 0 < s -> 0 < scale -> In (name, g) (lognormal_statistics s scale alt) ->
  ~ In name conditional_lognormal -> (10 <= length l)%nat -> NoDup l -> all_positive l -> exists v, nvalue (g l) = Ok (Some (Fin v)).
Proof.
  intros s scale alt name g l Hs Hsc H N Hn Hd Hp. assert (Hne : l <> []) by (apply (ne_of_len l 0); lia).
  assert (Hm : map (lognorm_cdf s scale) (rsort l) <> []) by (apply (ne_of_len _ 0); rewrite map_length, rsort_length; lia).
  assert (ND : forall t u, 0 < t -> 0 < u -> NoDup (standardised_logs t u l)).
  { intros t u Ht Hu. unfold standardised_logs. apply nodup_map_on; trivial. intros x y Hx Hy E. apply ln_inv; auto. rewrite !ln_div in E by auto. apply (f_equal (fun z => z * t)) in E. unfold Rdiv in E. rewrite !Rmult_assoc, Rinv_l, !Rmult_1_r in E by lra. lra. }
  assert (SG : kl_sigma_hat l <> 0).
  { unfold kl_sigma_hat. rewrite np_var_ssq. pose proof (nodup_ssq (map ln l)) as S. assert (0 < sqrt (ssq (map ln l) / len (map ln l))); [|lra]. apply sqrt_lt_R0. apply Rdiv_lt_0_compat.
    apply S. 2: rewrite map_length; lia. specialize (ND 1 1 Rlt_0_1 Rlt_0_1). unfold standardised_logs in ND. rewrite (map_ext_in _ ln) in ND. exact ND. intros x Hx. rewrite Rdiv_1, Rdiv_1. reflexivity.
    apply len_pos. destruct l; [easy|discriminate]. }
  apply lognormal_cases in H as [[E ->]|[[E ->]|[[E ->]|[[E ->]|[[E ->]|(nname & f & H & D & E & ->)]]]]]; unfold nreads; cbn [nvalue].
  - now apply ks_fin.
  - destruct (proj2 (C48_lognormal_holds s scale l Hs Hsc Hne)) as (w & Ew & _). eauto.
  - eexists. reflexivity.
  - rewrite kl_sup_eval by trivial. eexists. reflexivity.
  - rewrite kl_int_eval by trivial. eexists. reflexivity.
  - rewrite wrapped_pos by trivial. apply (C63_normality_holds norm_defaults nname); auto; [cbn; lra| |unfold standardised_logs; rewrite map_length; lia].
    intros I. apply N. subst name. simpl in I. repeat (destruct I as [<-|I]; [vm_compute; tauto|]). destruct I.
Qed.
(** *** C67 *)
Lemma C67_lognormal_constructor_holds : forall s scale, (exists p, lognormal_ctor s scale = Ok p) <-> 0 < s /\ 0 < scale.
Proof.
  intros s scale. unfold lognormal_ctor. destruct (Rleb_spec s 0); [split; [intros [p E]; discriminate|lra]|]. destruct (Rleb_spec scale 0); [split; [intros [p E]; discriminate|lra]|].
  split; [lra|eauto].
Qed.
Lemma C67_lognormal_constructor_raises_holds : forall s scale, lognormal_ctor s scale = Raise ValueError <-> s <= 0 \/ scale <= 0.
Proof.
  intros s scale. unfold lognormal_ctor. destruct (Rleb_spec s 0); [tauto|]. destruct (Rleb_spec scale 0); [tauto|]. split; [discriminate|lra].
Qed.
(** *** C85 *)
Lemma C85_levels_holds : forall n alpha,
  (kl_sup_critical n alpha = Raise ValueError <-> alpha < 0.001 \/ 0.1 < alpha) /\
  (kl_int_critical n alpha = Raise ValueError <-> alpha < 0.001 \/ 0.1 < alpha).
Proof.
  intros n alpha. unfold kl_sup_critical, kl_int_critical. destruct (Reqb_spec alpha 0.05); [split; (split; [discriminate|lra])|]. destruct (Reqb_spec alpha 0.01); [split; (split; [discriminate|lra])|].
  destruct (Rltb_spec alpha 0.001); [cbn [orb]; split; tauto|]. destruct (Rltb_spec 0.1 alpha); [cbn [orb]; split; tauto|]. cbn [orb]. split; (split; [discriminate|lra]).
Qed.
(** both statistics are non-negative *)
Lemma C85_nonnegative_holds : forall l v, kl_sup l = Ok (Some (Fin v)) \/ kl_int l = Ok (Some (Fin v)) -> 0 <= v.
Proof.
  assert (Z : forall b v, num b 0 = Ok (Some (Fin v)) -> 0 <= v) by (intros b v E; apply num_inv in E as [_ ->]; lra).
  assert (X : forall b x v, 0 <= x -> num b x = Ok (Some (Fin v)) -> 0 <= v) by (intros b x v Hx E; apply num_inv in E as [_ ->]; exact Hx).
  intros l v [E|E]; revert E.
  - unfold kl_sup. destruct (any_nonpositive l). apply Z. destruct (Reqb _ _). apply Z. apply X. apply (kl_value_nonneg l).
  - unfold kl_int. destruct (any_nonpositive l). apply Z. destruct (Reqb_spec (kl_sigma_hat l) 0). apply Z. apply X. apply (kl_int_value_nonneg l). now apply sigma_ne.
Qed.
(** the tabulated levels 0.05 and 0.01 of the supremum test have positive critical values *)
Lemma C85_supremum_tabulated_holds : forall n, (2 <= n -> exists c, kl_sup_critical n 0.05 = Ok c /\ 0 < c) /\
  (3 <= n -> exists c, kl_sup_critical n 0.01 = Ok c /\ 0 < c).
Proof.
  intros n. unfold kl_sup_critical. split; intros Hn.
  - destruct (Reqb_spec 0.05 0.05); [|lra]. eexists. split; [reflexivity|]. set (t := / sqrt n). assert (0 < sqrt n) by (apply sqrt_lt_R0; lra). assert (T : 0 < t) by (now apply Rinv_0_lt_compat).
    assert (Q : / n = t * t). { unfold t. rewrite <- Rinv_mult. now rewrite sqrt_sqrt by lra. }
    unfold Rdiv. fold t. rewrite Q. assert (t * t <= / 2). { rewrite <- Q. apply Rinv_le_contravar; lra. } assert (t < 0.8) by nra. clearbody t. nra.
  - destruct (Reqb_spec 0.01 0.05); [lra|]. destruct (Reqb_spec 0.01 0.01); [|lra]. eexists. split; [reflexivity|]. set (t := / sqrt n). assert (0 < sqrt n) by (apply sqrt_lt_R0; lra). assert (T : 0 < t) by (now apply Rinv_0_lt_compat).
    assert (Q : / n = t * t). { unfold t. rewrite <- Rinv_mult. now rewrite sqrt_sqrt by lra. }
    unfold Rdiv. fold t. assert (t * t <= / 3). { rewrite <- Q. apply Rinv_le_contravar; lra. } assert (t < 0.578) by nra.
    assert (1 <= ln n). { rewrite <- (ln_exp 1). pose proof exp_le_3. destruct (Rle_lt_or_eq_dec (exp 1) n) as [h|h]; [lra|left; apply ln_increasing; trivial; apply exp_pos|rewrite h; lra]. }
    assert (t <= ln n * t) by nra. set (q := ln n * t) in *. replace (0.638394 * ln n * t) with (0.638394 * q) by (unfold q; ring). clearbody t q. lra.
Qed.
(** for every other level the critical value of the supremum test is negative, so every sample is rejected *)
Lemma C85_supremum_always_rejects_refuted_holds : forall n alpha, 1 <= n -> 0.001 <= alpha <= 0.1 -> alpha <> 0.05 -> alpha <> 0.01 ->
  exists c, kl_sup_critical n alpha = Ok c /\ forall l v, kl_sup l = Ok (Some (Fin v)) -> c < v.
Proof.
  intros n alpha Hn Ha H5 H1. unfold kl_sup_critical. destruct (Reqb_spec alpha 0.05); [easy|]. destruct (Reqb_spec alpha 0.01); [easy|].
  destruct (Rltb_spec alpha 0.001); [lra|]. destruct (Rltb_spec 0.1 alpha); [lra|]. cbn [orb]. eexists. split; [reflexivity|]. intros l v E.
  pose proof (C85_nonnegative_holds l v (or_introl E)). pose proof (kl_sup_critical_neg n alpha Hn Ha). lra.
Qed.
(** not vacuous: two different positive observations have a finite value *)
Lemma C85_nonvacuous_holds : exists v w, kl_sup [1; exp 1] = Ok (Some (Fin v)) /\ kl_int [1; exp 1] = Ok (Some (Fin w)).
Proof.
  assert (P : all_positive [1; exp 1]) by (intros x [<-|[<-|[]]]; [lra|apply exp_pos]).
  assert (S : kl_sigma_hat [1; exp 1] <> 0).
  { unfold kl_sigma_hat. cbn [map]. rewrite ln_1, ln_exp. assert (0 < sqrt (np_var [0; 1])); [|lra]. apply sqrt_lt_R0. unfold np_var, mean, len. simpl. lra. }
  rewrite kl_sup_eval, kl_int_eval by trivial. do 2 eexists. split; reflexivity.
Qed.
(** not vacuous: a sample whose standardised logarithms are 0, 1, 2 *)
Lemma C68_nonvacuous_holds : all_positive [3; 3 * exp 2; 3 * exp 4] /\ standardised_logs 2 3 [3; 3 * exp 2; 3 * exp 4] = [0; 1; 2].
Proof.
  split. intros x Hx. pose proof (exp_pos 2). pose proof (exp_pos 4). simpl in Hx. intuition (subst; lra).
  unfold standardised_logs. cbn [map]. replace (3 / 3) with 1 by field. replace (3 * exp 2 / 3) with (exp 2) by field. replace (3 * exp 4 / 3) with (exp 4) by field.
  rewrite ln_1, !ln_exp. repeat (f_equal; try field).
Qed.
