(** Facts about the log-normal statistics. *)
From Coq Require Import String Ranalysis.
From Coquelicot Require Import Coquelicot.
From Verif Require Import Base DecModel EdfModel EdfSpec GraphModel RegistryModel NormalLaw ExpModel NormModel LognormModel EdfProofs EdfRotProofs ExpProofs ExpRangeProofs NormProofs NormSymProofs NormAffProofs NormReflProofs NormRangeProofs NormFiniteProofs NormBoundProofs.
From Coq Require Import Lra Lia.
Local Open Scope R_scope.

(** ** the log-normal distribution function *)
Lemma lognorm_cdf_pos s scale x : 0 < x -> 0 < scale -> lognorm_cdf s scale x = norm_cdf ((ln x - ln scale) / s).
Proof.
  intros Hx Hs. unfold lognorm_cdf. destruct (Rleb_spec x 0); [lra|]. now rewrite ln_div.
Qed.
Lemma lognorm_cdf_range s scale x : 0 <= lognorm_cdf s scale x <= 1.
Proof. unfold lognorm_cdf. destruct (Rleb x 0); [lra|]. pose proof (norm_cdf_bounds (ln (x / scale) / s)). lra. Qed.
Lemma lognorm_cdf_mono s scale x y : 0 < s -> 0 < scale -> x <= y -> lognorm_cdf s scale x <= lognorm_cdf s scale y.
Proof.
  intros Hs Hc H. destruct (Rle_lt_dec x 0) as [h|h].
  - replace (lognorm_cdf s scale x) with 0. apply lognorm_cdf_range. unfold lognorm_cdf. now destruct (Rleb_spec x 0); [|lra].
  - rewrite !lognorm_cdf_pos by lra. apply norm_cdf_le. unfold Rdiv. apply Rmult_le_compat_r. left. now apply Rinv_0_lt_compat.
    apply Rplus_le_compat_r. destruct H as [H| ->]; [left; now apply ln_increasing|lra].
Qed.
Lemma lognorm_cdf_continuity s scale : 0 < s -> 0 < scale -> continuity (lognorm_cdf s scale).
Proof.
  intros Hs Hc x. destruct (Rtotal_order x 0) as [h|[h|h]].
  - apply (continuity_pt_ext_loc (fun _ => 0)).
    + exists (mkposreal (- x) ltac:(lra)). intros y Hy. unfold lognorm_cdf. destruct (Rleb_spec y 0); trivial. unfold ball in Hy; simpl in Hy; unfold AbsRing_ball, abs, minus, plus, opp in Hy; simpl in Hy. apply Rabs_def2 in Hy. lra.
    + apply continuity_pt_const. now intros a b.
  - subst x. unfold continuity_pt, continue_in, limit1_in, limit_in. intros eps He. simpl. unfold R_dist.
    set (e := Rmin (eps / 2) (1 / 2)). assert (0 < e < 1). { unfold e. split. apply Rmin_glb_lt; lra. pose proof (Rmin_r (eps / 2) (1 / 2)). lra. }
    assert (e < eps) by (unfold e; pose proof (Rmin_l (eps / 2) (1 / 2)); lra).
    set (d := scale * exp (s * norm_ppf e)). assert (0 < d) by (apply Rmult_lt_0_compat; [lra|apply exp_pos]).
    exists d. split; trivial. intros y (_ & Hy). replace (lognorm_cdf s scale 0) with 0 by (unfold lognorm_cdf; destruct (Rleb_spec 0 0); lra).
    rewrite Rminus_0_r in *. rewrite Rabs_pos_eq by apply lognorm_cdf_range.
    destruct (Rle_lt_dec y 0) as [q|q]. unfold lognorm_cdf. destruct (Rleb_spec y 0); lra.
    rewrite lognorm_cdf_pos by trivial. rewrite Rabs_pos_eq in Hy by lra. apply Rle_lt_trans with (2 := H0). rewrite <- (norm_cdf_ppf e) by trivial. apply norm_cdf_le.
    apply ln_increasing in Hy; trivial. unfold d in Hy. rewrite ln_mult, ln_exp in Hy by (trivial; apply exp_pos).
    apply (Rmult_le_reg_r s); trivial. unfold Rdiv. rewrite Rmult_assoc, Rinv_l by lra. lra.
  - apply (continuity_pt_ext_loc (fun y => norm_cdf (ln (y / scale) / s))).
    + exists (mkposreal x h). intros y Hy. unfold lognorm_cdf. destruct (Rleb_spec y 0); trivial. unfold ball in Hy; simpl in Hy; unfold AbsRing_ball, abs, minus, plus, opp in Hy; simpl in Hy. apply Rabs_def2 in Hy. lra.
    + apply (continuity_pt_comp (fun y => ln (y / scale) / s) norm_cdf); [|apply norm_cdf_continuity].
      apply derivable_continuous_pt, ex_derive_Reals_0. auto_derive. apply Rdiv_lt_0_compat; lra.
Qed.
Lemma lognorm_cdf_cdf s scale : 0 < s -> 0 < scale -> continuous_cdf (lognorm_cdf s scale).
Proof.
  intros Hs Hc. split; [|split]. intros x y. now apply lognorm_cdf_mono. intros x; apply lognorm_cdf_range. now apply lognorm_cdf_continuity.
Qed.

(** ** samples of positive numbers *)
Lemma any_nonpositive_false l : (forall x, In x l -> 0 < x) -> any_nonpositive l = false.
Proof.
  intros H. unfold any_nonpositive. apply not_true_is_false. intros E. apply existsb_exists in E as (x & I & E). apply Rleb_true in E. apply H in I. lra.
Qed.
Lemma any_nonpositive_true l x : In x l -> x <= 0 -> any_nonpositive l = true.
Proof. intros I h. apply existsb_exists. exists x. split; trivial. now apply Rleb_true. Qed.
Lemma any_nonpositive_pos l : any_nonpositive l = false -> forall x, In x l -> 0 < x.
Proof. intros E x I. destruct (Rlt_le_dec 0 x); trivial. rewrite (any_nonpositive_true l x) in E by trivial. discriminate. Qed.
Lemma any_nonpositive_perm l l' : Permutation l l' -> any_nonpositive l = any_nonpositive l'.
Proof.
  intros P. destruct (any_nonpositive l) eqn:E, (any_nonpositive l') eqn:E'; trivial; exfalso.
  - apply existsb_exists in E as (x & I & E). apply Rleb_true in E. rewrite (any_nonpositive_true l' x) in E'; try discriminate; trivial. now apply (Permutation_in x P).
  - apply existsb_exists in E' as (x & I & E'). apply Rleb_true in E'. rewrite (any_nonpositive_true l x) in E; try discriminate; trivial. now apply (Permutation_in x (Permutation_sym P)).
Qed.
(** sorting commutes with a function increasing on the sample *)
Lemma rsort_map_mono_on (f : R -> R) l : (forall x y, In x l -> In y l -> x <= y -> f x <= f y) -> rsort (map f l) = map f (rsort l).
Proof.
  intros H. apply rsort_unique. apply Permutation_map, Permutation_sym, rsort_perm.
  assert (K : forall x y, In x (rsort l) -> In y (rsort l) -> x <= y -> f x <= f y) by (intros x y Hx Hy; apply H; now apply rsort_in).
  pose proof (rsort_sorted l) as S. induction (rsort l) as [|x r IH]. constructor.
  simpl. inversion S as [|? ? S' F]; subst. constructor. apply IH; trivial. intros; apply K; simpl; auto.
  rewrite Forall_forall in *. intros y Hy. apply in_map_iff in Hy as (z & <- & Hz). apply K; simpl; auto.
Qed.

(** ** the Kullback-Leibler statistics as functions of the scaled logarithms *)
Definition scaled_logs (l : list R) : list R := map (fun x => ln x / kl_sigma_hat l) l.
Lemma kl_y_exp l : kl_y l = map exp (scaled_logs l).
Proof. unfold kl_y, scaled_logs. rewrite map_map. apply map_ext. intros x. unfold Rpower. f_equal. unfold Rdiv. ring. Qed.
Lemma ln_exp_map w : map ln (map exp w) = w.
Proof. rewrite map_map. transitivity (map (fun x : R => x) w); [|apply map_id]. apply map_ext. intros; apply ln_exp. Qed.
Definition dlog (w : list R) (r : R) : R :=
  2 * ln (mean (map (fun v => exp (r * v)) w)) - r * mean w - r * mean (map (fun v => exp (r * v) * v) w) / mean (map (fun v => exp (r * v)) w).
Definition clog (w : list R) : R := - mean (map (fun v => v ^ 3) w) + 3 * mean (map (fun v => v ^ 2) w) * mean w - 2 * mean w ^ 3.
Lemma kl_d_log w r : kl_d (map exp w) r = if Rltb (Rabs r) (/ 10 ^ 8) then sqrt 6 / 6 * clog w * r ^ 3 else dlog w r.
Proof.
  unfold kl_d, kl_c, dlog, clog. rewrite ln_exp_map, !map_map. destruct (Rltb _ _); trivial.
  rewrite (map_ext (fun x => Rpower (exp x) r) (fun v => exp (r * v))) by (intros; unfold Rpower; now rewrite ln_exp).
  rewrite (map_ext (fun x => Rpower (exp x) r * ln (exp x)) (fun v => exp (r * v) * v)) by (intros; unfold Rpower; now rewrite !ln_exp). reflexivity.
Qed.
Lemma kl_c_log w : kl_c (map exp w) = clog w.
Proof. unfold kl_c, clog. now rewrite ln_exp_map. Qed.
Lemma mean_exp_pos w r : w <> [] -> 0 < mean (map (fun v => exp (r * v)) w).
Proof.
  intros H. apply mean_pos. destruct w; [easy|discriminate]. intros x Hx. apply in_map_iff in Hx as (v & <- & _). apply exp_pos.
Qed.
(** *** a shift *)
Lemma clog_shift k w : w <> [] -> clog (map (fun v => k + v) w) = clog w.
Proof.
  intros H. unfold clog. rewrite !map_map.
  assert (M1 : mean (map (fun v => k + v) w) = k + mean w).
  { rewrite (mean_plus (fun _ => k) (fun v => v)), mean_const by trivial. now rewrite map_id. }
  assert (M2 : mean (map (fun v => (k + v) ^ 2) w) = k ^ 2 + 2 * k * mean w + mean (map (fun v => v ^ 2) w)).
  { rewrite (map_ext _ (fun v => (k ^ 2 + 2 * k * v) + v ^ 2)) by (intros; ring). rewrite (mean_plus (fun v => k ^ 2 + 2 * k * v) (fun v => v ^ 2)).
    rewrite (mean_plus (fun _ => k ^ 2) (fun v => 2 * k * v)), mean_const by trivial. rewrite (mean_scal (2 * k) (fun v => v)), map_id. ring. }
  assert (M3 : mean (map (fun v => (k + v) ^ 3) w) = k ^ 3 + 3 * k ^ 2 * mean w + 3 * k * mean (map (fun v => v ^ 2) w) + mean (map (fun v => v ^ 3) w)).
  { rewrite (map_ext _ (fun v => (k ^ 3 + 3 * k ^ 2 * v + 3 * k * v ^ 2) + v ^ 3)) by (intros; ring). rewrite (mean_plus (fun v => k ^ 3 + 3 * k ^ 2 * v + 3 * k * v ^ 2) (fun v => v ^ 3)).
    rewrite (mean_plus (fun v => k ^ 3 + 3 * k ^ 2 * v) (fun v => 3 * k * v ^ 2)), (mean_plus (fun _ => k ^ 3) (fun v => 3 * k ^ 2 * v)), mean_const by trivial.
    rewrite (mean_scal (3 * k ^ 2) (fun v => v)), (mean_scal (3 * k) (fun v => v ^ 2)), map_id. ring. }
  rewrite M1, M2, M3. ring.
Qed.
Lemma dlog_shift k w r : w <> [] -> dlog (map (fun v => k + v) w) r = dlog w r.
Proof.
  intros H. unfold dlog. rewrite !map_map. pose proof (mean_exp_pos w r H) as P. pose proof (exp_pos (r * k)) as Q.
  assert (M1 : mean (map (fun v => k + v) w) = k + mean w).
  { rewrite (mean_plus (fun _ => k) (fun v => v)), mean_const by trivial. now rewrite map_id. }
  rewrite (map_ext (fun v => exp (r * (k + v))) (fun v => exp (r * k) * exp (r * v))) by (intros; rewrite <- exp_plus; f_equal; ring).
  rewrite (map_ext (fun v => exp (r * (k + v)) * (k + v)) (fun v => exp (r * k) * (k * exp (r * v) + exp (r * v) * v)))
    by (intros v; replace (r * (k + v)) with (r * k + r * v) by ring; rewrite exp_plus; ring).
  rewrite (mean_scal (exp (r * k)) (fun v => exp (r * v))), (mean_scal (exp (r * k)) (fun v => k * exp (r * v) + exp (r * v) * v)).
  rewrite (mean_plus (fun v => k * exp (r * v)) (fun v => exp (r * v) * v)), (mean_scal k (fun v => exp (r * v))), M1.
  rewrite ln_mult, ln_exp by trivial. field. split; lra.
Qed.
(** *** a reflection *)
Lemma mean_opp (f : R -> R) w : mean (map (fun v => - f v) w) = - mean (map f w).
Proof. rewrite (map_ext _ (fun v => (-1) * f v)) by (intros; ring). rewrite mean_scal. ring. Qed.
Lemma mean_neg_id w : mean (map Ropp w) = - mean w.
Proof. rewrite (mean_opp (fun v => v)), map_id. reflexivity. Qed.
Lemma clog_opp w : clog (map Ropp w) = - clog w.
Proof.
  unfold clog. rewrite !map_map, mean_neg_id. rewrite (map_ext (fun v => (- v) ^ 3) (fun v => - v ^ 3)) by (intros; ring). rewrite (map_ext (fun v => (- v) ^ 2) (fun v => v ^ 2)) by (intros; ring).
  rewrite mean_opp. ring.
Qed.
Lemma dlog_opp w r : dlog (map Ropp w) r = dlog w (- r).
Proof.
  unfold dlog. rewrite !map_map, mean_neg_id. rewrite (map_ext (fun v => exp (r * - v)) (fun v => exp (- r * v))) by (intros; f_equal; ring).
  rewrite (map_ext (fun v => exp (r * - v) * - v) (fun v => - (exp (- r * v) * v))) by (intros v; replace (r * - v) with (- r * v) by ring; ring). rewrite mean_opp. unfold Rdiv. ring.
Qed.
Lemma kl_expr_opp r : kl_expr (- r) = kl_expr r.
Proof. unfold kl_expr. replace ((- r) ^ 2) with (r ^ 2) by ring. now replace ((- r) ^ 4) with (r ^ 4) by ring. Qed.
Lemma kl_sigma_opp r : kl_sigma (- r) = kl_sigma r.
Proof. unfold kl_sigma. now rewrite Rabs_Ropp, kl_expr_opp. Qed.
Lemma kl_d_opp w r : kl_d (map exp (map Ropp w)) r = kl_d (map exp w) (- r).
Proof. rewrite !kl_d_log, Rabs_Ropp, clog_opp, dlog_opp. destruct (Rltb _ _); ring. Qed.
Lemma kl_d_shift k w r : w <> [] -> kl_d (map exp (map (fun v => k + v) w)) r = kl_d (map exp w) r.
Proof. intros H. now rewrite !kl_d_log, clog_shift, dlog_shift. Qed.
Lemma kl_integrand_shift k w r : w <> [] -> kl_integrand (map exp (map (fun v => k + v) w)) r = kl_integrand (map exp w) r.
Proof. intros H. unfold kl_integrand. now rewrite !kl_c_log, clog_shift, kl_d_shift. Qed.
Lemma kl_integrand_opp w r : kl_integrand (map exp (map Ropp w)) r = kl_integrand (map exp w) (- r).
Proof.
  unfold kl_integrand. rewrite !kl_c_log, clog_opp, kl_d_opp, Rabs_Ropp, kl_sigma_opp. destruct (Rltb _ _); trivial. unfold Rdiv. ring.
Qed.
Lemma kl_perm l l' : Permutation l l' -> kl_sigma_hat l = kl_sigma_hat l' /\ (forall r, kl_d (kl_y l) r = kl_d (kl_y l') r) /\ kl_c (kl_y l) = kl_c (kl_y l').
Proof.
  intros P. assert (E : kl_sigma_hat l = kl_sigma_hat l') by (unfold kl_sigma_hat; now rewrite (np_var_perm' _ _ (Permutation_map ln P))).
  assert (Q : Permutation (scaled_logs l) (scaled_logs l')). { unfold scaled_logs. rewrite E. now apply Permutation_map. }
  split; trivial. rewrite !kl_y_exp. split; [intros r; rewrite !kl_d_log|rewrite !kl_c_log].
  - unfold clog, dlog. now rewrite !(mean_perm' _ _ (Permutation_map _ Q)), (mean_perm' _ _ Q).
  - unfold clog. now rewrite !(mean_perm' _ _ (Permutation_map _ Q)), (mean_perm' _ _ Q).
Qed.

(** ** the grid *)
Lemma kl_grid_rev : map Ropp kl_grid = rev kl_grid.
Proof.
  unfold kl_grid. rewrite <- map_rev, map_map.
  assert (E : rev (seq 0 1000) = map (fun i => (999 - i)%nat) (seq 0 1000)) by (vm_compute; reflexivity).
  rewrite E, map_map. apply map_ext_in. intros i Hi. apply in_seq in Hi. rewrite minus_INR by lia. replace (INR 999) with 999 by (rewrite INR_IZR_INZ; reflexivity). field.
Qed.
Lemma filter_rev {A} (P : A -> bool) l : filter P (rev l) = rev (filter P l).
Proof. induction l as [|x l IH]; trivial. simpl. rewrite filter_app, IH. simpl. destruct (P x); simpl; trivial. apply app_nil_r. Qed.
Lemma filter_map_opp (P : R -> bool) l : (forall r, P (- r) = P r) -> filter P (map Ropp l) = map Ropp (filter P l).
Proof. intros H. induction l as [|x l IH]; trivial. simpl. rewrite H, IH. now destruct (P x). Qed.
Lemma kl_points_rev : map Ropp kl_points = rev kl_points.
Proof.
  unfold kl_points. rewrite <- filter_rev, <- kl_grid_rev. symmetry. apply filter_map_opp. intros r. now rewrite kl_sigma_opp.
Qed.
Lemma exp_ge_1 x : 0 <= x -> 1 <= exp x.
Proof. intros [H| <-]; [|rewrite exp_0; lra]. pose proof (exp_ineq1 x ltac:(lra)). lra. Qed.
Lemma kl_expr_5 : 1 <= kl_expr 5.
Proof. unfold kl_expr. pose proof (exp_ge_1 (5 ^ 2) ltac:(lra)). nra. Qed.
Lemma kl_sigma_5 : 1 <= kl_sigma 5.
Proof.
  unfold kl_sigma. rewrite Rabs_pos_eq by lra. destruct (Rltb_spec 5 (/ 10 ^ 8)) as [h|h]; [lra|]. pose proof kl_expr_5 as E.
  destruct (Rltb_spec (kl_expr 5) (/ 10 ^ 16)) as [h'|h']; [lra|]. rewrite <- sqrt_1 at 1. now apply sqrt_le_1_alt.
Qed.
Lemma kl_points_5 : In 5 kl_points.
Proof.
  apply filter_In. split. unfold kl_grid. apply in_map_iff. exists 999%nat. split. replace (INR 999) with 999 by (rewrite INR_IZR_INZ; reflexivity). field. apply in_seq. lia.
  apply Rltb_true. pose proof kl_sigma_5. lra.
Qed.
Lemma kl_points_ne : kl_points <> [].
Proof. intros E. pose proof kl_points_5 as H. now rewrite E in H. Qed.
Definition kl_value (l : list R) : R := sqrt (len l) * Rmaxl 0 (map (fun r => Rabs (kl_d (kl_y l) r / kl_sigma r)) kl_points).
Lemma kl_sup_eval l : (forall x, In x l -> 0 < x) -> kl_sigma_hat l <> 0 -> kl_sup l = num true (kl_value l).
Proof.
  intros Hp Hs. unfold kl_sup. rewrite any_nonpositive_false by trivial. destruct (Reqb_spec (kl_sigma_hat l) 0); [easy|]. cbv zeta.
  rewrite map_length. pose proof kl_points_ne as N. unfold kl_value. generalize dependent kl_points. intros [|p q] N; [easy|reflexivity].
Qed.
Lemma kl_value_nonneg l : 0 <= kl_value l.
Proof.
  apply Rmult_le_pos. apply sqrt_pos. apply Rmaxl_nonneg. intros x Hx. apply in_map_iff in Hx as (r & <- & _). apply Rabs_pos.
Qed.
(** every grid point has a positive denominator *)
Lemma kl_sigma_pos r : r <> 0 -> 0 < kl_sigma r.
Proof.
  intros H. unfold kl_sigma. destruct (Rltb (Rabs r) _).
  - apply Rdiv_lt_0_compat. apply pow_lt, Rabs_pos_lt; trivial. apply sqrt_lt_R0. lra.
  - destruct (Rltb_spec (kl_expr r) (/ 10 ^ 16)); [lra|]. apply sqrt_lt_R0. lra.
Qed.

(** ** changing the unit and the exponent *)
Lemma scaled_logs_ne l : l <> [] -> scaled_logs l <> [].
Proof. now destruct l. Qed.
Lemma power_logs c b l : 0 < c -> 0 < b -> (forall x, In x l -> 0 < x) -> map ln (map (fun x => c * Rpower x b) l) = aff (ln c) b (map ln l).
Proof.
  intros Hc Hb H. unfold aff. rewrite !map_map. apply map_ext_in. intros x Hx. rewrite ln_mult; trivial. unfold Rpower. now rewrite ln_exp. apply exp_pos.
Qed.
Lemma power_sigma c b l : 0 < c -> 0 < b -> (forall x, In x l -> 0 < x) -> kl_sigma_hat (map (fun x => c * Rpower x b) l) = b * kl_sigma_hat l.
Proof.
  intros Hc Hb H. unfold kl_sigma_hat. rewrite power_logs by trivial. rewrite np_var_aff. apply sqrt_sq_scale. lra.
Qed.
Lemma power_scaled c b l : 0 < c -> 0 < b -> (forall x, In x l -> 0 < x) -> kl_sigma_hat l <> 0 ->
  scaled_logs (map (fun x => c * Rpower x b) l) = map (fun v => ln c / (b * kl_sigma_hat l) + v) (scaled_logs l).
Proof.
  intros Hc Hb H Hs. unfold scaled_logs. rewrite power_sigma by trivial. rewrite !map_map. apply map_ext_in. intros x Hx. rewrite ln_mult; trivial. 2: apply exp_pos.
  unfold Rpower. rewrite ln_exp. field. split; lra.
Qed.
Lemma inv_logs l : (forall x, In x l -> 0 < x) -> map ln (map Rinv l) = map Ropp (map ln l).
Proof. intros H. rewrite !map_map. apply map_ext_in. intros x Hx. apply ln_Rinv. now apply H. Qed.
Lemma inv_sigma l : (forall x, In x l -> 0 < x) -> kl_sigma_hat (map Rinv l) = kl_sigma_hat l.
Proof. intros H. unfold kl_sigma_hat. rewrite inv_logs by trivial. f_equal. apply neg_var. Qed.
Lemma inv_scaled l : (forall x, In x l -> 0 < x) -> scaled_logs (map Rinv l) = map Ropp (scaled_logs l).
Proof.
  intros H. unfold scaled_logs. rewrite inv_sigma by trivial. rewrite !map_map. apply map_ext_in. intros x Hx. rewrite ln_Rinv by now apply H. unfold Rdiv. ring.
Qed.
Lemma np_var_nil : np_var [] = 0. Proof. unfold np_var. apply mean_nil. Qed.
Lemma sigma_ne l : kl_sigma_hat l <> 0 -> l <> [].
Proof. intros H E. apply H. subst. unfold kl_sigma_hat. cbn [map]. rewrite np_var_nil. apply sqrt_0. Qed.
Lemma power_kl_value c b l : 0 < c -> 0 < b -> (forall x, In x l -> 0 < x) -> kl_sigma_hat l <> 0 -> kl_value (map (fun x => c * Rpower x b) l) = kl_value l.
Proof.
  intros Hc Hb H Hs. unfold kl_value. rewrite len_map. do 2 f_equal. apply map_ext. intros r. do 2 f_equal. rewrite !kl_y_exp, power_scaled by trivial. apply kl_d_shift, scaled_logs_ne, sigma_ne, Hs.
Qed.
Lemma inv_kl_value l : (forall x, In x l -> 0 < x) -> kl_value (map Rinv l) = kl_value l.
Proof.
  intros H. unfold kl_value. rewrite len_map. f_equal. rewrite !kl_y_exp, inv_scaled by trivial.
  rewrite (map_ext _ (fun r => (fun q => Rabs (kl_d (map exp (scaled_logs l)) q / kl_sigma q)) (- r))) by (intros r; cbv beta; now rewrite kl_d_opp, kl_sigma_opp).
  rewrite <- (map_map Ropp (fun q => Rabs (kl_d (map exp (scaled_logs l)) q / kl_sigma q))), kl_points_rev, map_rev. apply Rmaxl_perm, Permutation_sym, Permutation_rev.
Qed.
