(** Claims about the Kullback-Leibler tests of lognormality. *)
From Coquelicot Require Import Coquelicot.
From Verif Require Import Base EdfModel GraphModel NormalLaw ExpModel NormModel LognormModel LognormSpec LogKLSpec EdfProofs ExpProofs ExpRangeProofs NormProofs LognormProofs LognormIntProofs LogKLProofs NormFiniteProofs LogKL2Proofs.
From Coq Require Import Lra Lia.

Lemma scaled_positive l : all_positive (scaled_sample l).
Proof. intros x Hx. apply in_map_iff in Hx as (v & <- & _). apply exp_pos. Qed.
Lemma scaled_ne l : l <> [] -> scaled_sample l <> [].
Proof. destruct l; [easy|discriminate]. Qed.
(** the function D of the code is the difference of the two divergences between the sample and its tilt *)
Lemma C112_asymmetry_holds : forall y r, all_positive y -> y <> [] -> / 10 ^ 8 <= Rabs r -> kl_d y r = asymmetry y r.
Proof. exact kl_d_asymmetry. Qed.
(** for standard lognormal Y the moments are the ones below and the asymmetry is 0; one observation e^z added with weight t
    changes it by infl z * t, whose mean is 0 and whose variance is the squared divisor of the code *)
Lemma C112_variance_holds : forall r,
  normal_mean (fun z => exp (r * z)) (moment_m r) /\ normal_mean (fun z => z) 0 /\ normal_mean (fun z => exp (r * z) * z) (moment_k r) /\
  asymmetry_of_moments r (moment_m r) 0 (moment_k r) = 0 /\
  exists infl, (forall z, is_derive (contaminated r z) 0 (infl z)) /\ normal_mean infl 0 /\
    normal_mean (fun z => infl z ^ 2) (limit_variance r) /\ (1 / 300 <= Rabs r -> kl_sigma r = sqrt (limit_variance r)).
Proof.
  intros r. destruct (moments_normal r) as (A & B & C). repeat (split; [assumption|]). split.
  - unfold asymmetry_of_moments, moment_m, moment_k. rewrite ln_exp. pose proof (exp_pos (r ^ 2 / 2)). field. lra.
  - exists (infl r). split; [apply infl_derive|]. split; [apply infl_mean|]. split; [apply infl_var|apply sigma_exact].
Qed.
(** the variance is positive, of order r^6/6 *)
Lemma C112_variance_bounds_holds : forall r, r ^ 6 / 6 <= limit_variance r <= exp (2 * r ^ 2) * (r ^ 6 / 6).
Proof. intros r. pose proof (variance_low r). pose proof (variance_up r). split; [trivial|]. unfold Rdiv in *. lra. Qed.
(** the supremum statistic uses all 1000 powers, none of the special cases of the code applies *)
Lemma C112_supremum_holds : forall l, all_positive l -> log_sd l <> 0 ->
  kl_sup l = Ok (Some (Fin (sqrt (len l) * Rmaxl 0 (map (fun r => Rabs (standardised_asymmetry (scaled_sample l) r)) powers)))).
Proof.
  intros l P S. change (log_sd l) with (kl_sigma_hat l) in S. rewrite kl_sup_eval by trivial. unfold kl_value, num.
  rewrite kl_points_all, <- scaled_sample_y.
  match goal with |- context [Rmaxl 0 (map ?f powers)] => rewrite (map_ext_in f (fun r => Rabs (standardised_asymmetry (scaled_sample l) r)) powers); [reflexivity|] end.
  intros r Hr. pose proof (grid_far r Hr) as G. unfold standardised_asymmetry. rewrite <- sigma_exact by trivial. rewrite kl_d_asymmetry; [reflexivity|..];
  [apply scaled_positive|apply scaled_ne, sigma_ne, S|lra].
Qed.
(** so does the integral statistic outside the interval from -1/300 to 1/300 *)
Lemma C112_integral_holds : forall l, all_positive l -> log_sd l <> 0 ->
  let f r := standardised_asymmetry (scaled_sample l) r ^ 2 in
  exists rest, 0 <= rest /\ kl_int l = Ok (Some (Fin (len l * (RInt f (-5) (- (1 / 300)) + rest + RInt f (1 / 300) 5)))).
Proof.
  intros l P S f. change (log_sd l) with (kl_sigma_hat l) in S. pose proof (sigma_ne l S) as N.
  assert (Ex : ex_RInt (kl_integrand (kl_y l)) (-5) 5) by (rewrite kl_y_exp; now apply kl_integrand_ex, scaled_logs_ne).
  assert (E : forall r, 1 / 300 <= Rabs r -> kl_integrand (kl_y l) r = f r).
  { intros r Hr. unfold kl_integrand, f, standardised_asymmetry. destruct (Rltb_spec (Rabs r) (/ 10 ^ 8)); [lra|].
    rewrite <- sigma_exact by trivial. rewrite kl_d_asymmetry, <- scaled_sample_y; [ring| | |lra].
    - rewrite <- scaled_sample_y. apply scaled_positive.
    - rewrite <- scaled_sample_y. now apply scaled_ne. }
  assert (E1 : ex_RInt (kl_integrand (kl_y l)) (-5) (- (1 / 300))) by (apply (ex_RInt_Chasles_1 (V := R_CompleteNormedModule) _ _ _ 5); [lra|trivial]).
  assert (E2 : ex_RInt (kl_integrand (kl_y l)) (- (1 / 300)) 5) by (apply (ex_RInt_Chasles_2 (V := R_CompleteNormedModule) _ (-5)); [lra|trivial]).
  assert (E3 : ex_RInt (kl_integrand (kl_y l)) (- (1 / 300)) (1 / 300)) by (apply (ex_RInt_Chasles_1 (V := R_CompleteNormedModule) _ _ _ 5); [lra|trivial]).
  assert (E4 : ex_RInt (kl_integrand (kl_y l)) (1 / 300) 5) by (apply (ex_RInt_Chasles_2 (V := R_CompleteNormedModule) _ (- (1 / 300))); [lra|trivial]).
  exists (RInt (kl_integrand (kl_y l)) (- (1 / 300)) (1 / 300)). split.
  - apply RInt_ge_0; [lra|trivial|]. intros; apply kl_integrand_nonneg.
  - rewrite kl_int_eval by trivial. unfold kl_int_value, num. do 4 f_equal.
    rewrite <- (RInt_Chasles (kl_integrand (kl_y l)) (-5) (- (1 / 300)) 5) by trivial.
    rewrite <- (RInt_Chasles (kl_integrand (kl_y l)) (- (1 / 300)) (1 / 300) 5) by trivial.
    unfold plus; simpl. rewrite (RInt_ext (kl_integrand (kl_y l)) f (-5) (- (1 / 300))), (RInt_ext (kl_integrand (kl_y l)) f (1 / 300) 5).
    + ring.
    + intros x Hx. rewrite Rmin_left, Rmax_right in Hx by lra. apply E. rewrite Rabs_pos_eq by lra. lra.
    + intros x Hx. rewrite Rmin_left, Rmax_right in Hx by lra. apply E. rewrite Rabs_left by lra. lra.
Qed.

(** the expansion at 0 *)
Lemma third_clog w : w <> [] -> third_central w = - clog w.
Proof.
  intros H. unfold third_central, clog. set (m := mean w).
  rewrite (map_ext (fun v => (v - m) ^ 3) (fun v => v ^ 3 + (- 3 * m * v ^ 2 + (3 * m ^ 2 * v + - m ^ 3)))) by (intros; ring).
  rewrite (mean_plus (fun v => v ^ 3) (fun v => - 3 * m * v ^ 2 + (3 * m ^ 2 * v + - m ^ 3))).
  rewrite (mean_plus (fun v => - 3 * m * v ^ 2) (fun v => 3 * m ^ 2 * v + - m ^ 3)).
  rewrite (mean_plus (fun v => 3 * m ^ 2 * v) (fun v => - m ^ 3)).
  rewrite mean_const by trivial. rewrite (mean_scal (- 3 * m) (fun v => v ^ 2)), (mean_scal (3 * m ^ 2) (fun v => v)), map_id. fold m. ring.
Qed.
Lemma positive_exp y : all_positive y -> map exp (map ln y) = y.
Proof. intros P. rewrite map_map. rewrite <- (map_id y) at 2. apply map_ext_in. intros x Hx. apply exp_ln. now apply P. Qed.
Lemma cubic_lim w : w <> [] -> is_lim (fun r => dlog w r / r ^ 3) 0 (clog w / 6).
Proof.
  intros H. intros P [eps HP]. destruct (dlog_cubic w (eps / 2) H) as (d & Hd & B); [pose proof (cond_pos eps); lra|].
  exists (mkposreal d Hd). intros r Hr Hr0. apply HP. change (Rabs (r - 0) < d) in Hr. rewrite Rminus_0_r in Hr. change (Rabs (dlog w r / r ^ 3 - clog w / 6) < eps).
 assert (R0 : 0 < Rabs r) by (now apply Rabs_pos_lt). pose proof (B r ltac:(lra)) as Br.
  assert (R3 : 0 < Rabs r ^ 3) by now apply pow_lt.
  assert (r3 : r ^ 3 <> 0) by now apply pow_nonzero.
  replace (dlog w r / r ^ 3 - clog w / 6) with ((dlog w r - clog w / 6 * r ^ 3) / r ^ 3) by (field; trivial).
  unfold Rdiv. rewrite Rabs_mult, Rabs_inv, <- RPow_abs. apply (Rmult_lt_reg_r (Rabs r ^ 3)); trivial.
  rewrite Rmult_assoc, Rinv_l, Rmult_1_r by lra. pose proof (cond_pos eps). nra.
Qed.
Lemma variance_lim : is_lim (fun r => limit_variance r / r ^ 6) 0 (1 / 6).
Proof.
  apply (is_lim_le_le_loc (fun _ => 1 / 6) (fun r => exp (2 * r ^ 2) / 6)).
  - exists (mkposreal 1 Rlt_0_1). intros r _ Hr. assert (P : 0 < r ^ 6) by (replace (r ^ 6) with ((r ^ 3) ^ 2) by ring; apply pow2_gt_0, pow_nonzero, Hr).
    pose proof (variance_low r). pose proof (variance_up r). split; apply (Rmult_le_reg_r (r ^ 6)); trivial; unfold Rdiv; rewrite ?(Rmult_assoc (limit_variance r)), ?Rinv_l, ?Rmult_1_r by lra; lra.
  - apply is_lim_const.
  - replace (1 / 6) with (exp (2 * 0 ^ 2) / 6) by (replace (2 * 0 ^ 2) with 0 by ring; rewrite exp_0; reflexivity).
    apply (is_lim_continuity (fun r => exp (2 * r ^ 2) / 6)). apply continuity_pt_filterlim. apply (ex_derive_continuous (fun r => exp (2 * r ^ 2) / 6)). auto_derive. trivial.
Qed.
(** near 0 the asymmetry is c r^3 / 6, where c is minus the third central moment of the logarithms, and the square of the
    standardised asymmetry tends to c^2 / 6 *)
Lemma C112_expansion_holds : forall y, all_positive y -> y <> [] -> let c := - third_central (map ln y) in
  is_lim (fun r => asymmetry y r / r ^ 3) 0 (c / 6) /\ is_lim (fun r => standardised_asymmetry y r ^ 2) 0 (c ^ 2 / 6).
Proof.
  intros y P N c. set (w := map ln y). assert (Nw : w <> []) by (unfold w; destruct y; [easy|discriminate]).
  assert (C : c = clog w) by (unfold c; fold w; rewrite third_clog by trivial; ring).
  assert (D : forall r, dlog w r = asymmetry y r) by (intros r; rewrite dlog_asymmetry by trivial; unfold w; now rewrite positive_exp).
  assert (L : is_lim (fun r => asymmetry y r / r ^ 3) 0 (c / 6)).
  { rewrite C. apply (is_lim_ext (fun r => dlog w r / r ^ 3)); [intros r; now rewrite D|]. now apply cubic_lim. }
  split; [exact L|].
  apply (is_lim_ext_loc (fun r => (asymmetry y r / r ^ 3) * (asymmetry y r / r ^ 3) / (limit_variance r / r ^ 6))).
  - exists (mkposreal 1 Rlt_0_1). intros r _ Hr. pose proof (variance_pos r Hr) as V. unfold standardised_asymmetry.
    replace ((asymmetry y r / sqrt (limit_variance r)) ^ 2) with (asymmetry y r ^ 2 / (sqrt (limit_variance r) ^ 2)) by (field; apply Rgt_not_eq, sqrt_lt_R0, V).
    rewrite pow2_sqrt by lra. field. split; trivial. lra.
  - replace (Finite (c ^ 2 / 6)) with (Rbar_div (Rbar_mult (c / 6) (c / 6)) (1 / 6)) by (simpl; f_equal; field).
    apply is_lim_div.
    + apply is_lim_mult; [exact L|exact L|]. simpl. trivial.
    + exact variance_lim.
    + intros E. injection E. lra.
    + simpl. trivial.
Qed.
(** the code uses the coefficient sqrt 6 c / 6 instead of c / 6 ... *)
Lemma C112_small_power_refuted_holds : forall y r, all_positive y -> y <> [] -> 0 < Rabs r < / 10 ^ 8 -> let c := - third_central (map ln y) in
  kl_d y r = sqrt 6 * (c / 6) * r ^ 3 /\ (c <> 0 -> kl_d y r / r ^ 3 <> c / 6).
Proof.
  intros y r P N [H0 H1] c. assert (E : kl_d y r = sqrt 6 * (c / 6) * r ^ 3); [|split; [exact E|]].
  2: { intros C. rewrite E. assert (R0 : r <> 0) by (intros ->; rewrite Rabs_R0 in H0; lra). assert (S : 2 < sqrt 6) by (rewrite <- (sqrt_pow2 2) by lra; apply sqrt_lt_1_alt; lra).
       replace (sqrt 6 * (c / 6) * r ^ 3 / r ^ 3) with (sqrt 6 * (c / 6)) by (field; trivial). intros F.
       assert (G : (sqrt 6 - 1) * c = 0) by lra. apply Rmult_integral in G as [G|G]; lra. }
  unfold kl_d. destruct (Rltb_spec (Rabs r) (/ 10 ^ 8)); [|lra].
  replace (kl_c y) with c; [field|]. unfold c. rewrite third_clog by (destruct y; [easy|discriminate]). rewrite <- kl_c_log, positive_exp by trivial. ring.
Qed.
(** ... and continues the integrand at 0 by c^2 / 36 instead of c^2 / 6 ... *)
Lemma C112_integrand_at_zero_refuted_holds : forall y, all_positive y -> y <> [] -> let c := - third_central (map ln y) in
  kl_integrand y 0 = c ^ 2 / 36 /\ (c <> 0 -> kl_integrand y 0 <> c ^ 2 / 6).
Proof.
  intros y P N c. assert (E : kl_integrand y 0 = c ^ 2 / 36); [|split; [exact E|]].
  2: { intros C. rewrite E. pose proof (pow2_gt_0 c C). lra. }
  unfold kl_integrand. rewrite Rabs_R0. destruct (Rltb_spec 0 (/ 10 ^ 8)); [|lra].
  replace (kl_c y) with c; [field|]. unfold c. rewrite third_clog by (destruct y; [easy|discriminate]). rewrite <- kl_c_log, positive_exp by trivial. ring.
Qed.
(** ... and replaces the standard deviation by 1e-8 where it is smaller, which happens far above the bound 1e-8 for the power *)
Lemma C112_divisor_refuted_holds : kl_sigma (1 / 1000) = / 10 ^ 8 /\ 20 * sqrt (limit_variance (1 / 1000)) < / 10 ^ 8.
Proof.
  pose proof (variance_up (1 / 1000)) as V. pose proof (variance_low (1 / 1000)) as L.
  assert (E : exp (2 * (1 / 1000) ^ 2) < 1.1).
  { pose proof (exp_ineq1_le (- (2 * (1 / 1000) ^ 2))) as X. rewrite exp_Ropp in X. pose proof (exp_pos (2 * (1 / 1000) ^ 2)) as Y.
    apply (Rmult_le_compat_l (exp (2 * (1 / 1000) ^ 2))) in X; [|lra]. rewrite Rinv_r in X by lra. lra. }
  assert (B : limit_variance (1 / 1000) < 2 / 10 ^ 19) by lra.
  split.
  - unfold kl_sigma. rewrite Rabs_pos_eq by lra. destruct (Rltb_spec (1 / 1000) (/ 10 ^ 8)); [lra|].
    change (kl_expr (1 / 1000)) with (limit_variance (1 / 1000)). destruct (Rltb_spec (limit_variance (1 / 1000)) (/ 10 ^ 16)); [reflexivity|lra].
  - assert (S : sqrt (limit_variance (1 / 1000)) < / (20 * 10 ^ 8)); [|lra].
    rewrite <- (sqrt_pow2 (/ (20 * 10 ^ 8))) by lra. apply sqrt_lt_1_alt. lra.
Qed.
(** non-vacuity: a sample whose logarithms are skewed *)
Lemma C112_nonvacuous_holds : all_positive [1; 1; exp 1] /\ log_sd [1; 1; exp 1] <> 0 /\ third_central (map ln [1; 1; exp 1]) <> 0.
Proof.
  split; [|split].
  - intros x [<-|[<-|[<-|[]]]]; try lra. apply exp_pos.
  - unfold log_sd. cbn [map]. rewrite ln_1, ln_exp. unfold mean, len, Rsum. simpl. apply Rgt_not_eq, sqrt_lt_R0. lra.
  - unfold third_central. cbn [map]. rewrite ln_1, ln_exp. unfold mean, len, Rsum. simpl. lra.
Qed.
