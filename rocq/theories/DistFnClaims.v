(** Property C116: the helpers of core/distributions agree with each other; Tukey's law for C78. *)
From Verif Require Import Base SamplerModel SamplerSpec SamplerClaims DistFnModel DistFnSpec.
From Coquelicot Require Import Coquelicot.
From Coq Require Import Lra Lia.

Lemma len_ne (l : list R) : l <> [] -> 0 < INR (length l).
Proof. intros H. apply lt_0_INR. destruct l; simpl; [congruence|lia]. Qed.
Lemma central_value l k : l <> [] -> central_moment l k = Fin (moment_about (Rsum l / INR (length l)) l k).
Proof. intros H. unfold central_moment, scipy_moment, moment_about, mean, len. destruct l; [congruence|]. rewrite map_length. reflexivity. Qed.

(** [central_moment] is the moment about the sample mean; [moment] with a given centre is the moment about
    it, so centre 0 gives the raw moment *)
Lemma C116_moments_holds : forall l k c, l <> [] ->
  central_moment l k = Fin (moment_about (raw_moment l 1) l k) /\
  moment l k (Some c) = Fin (moment_about c l k) /\ moment l k (Some 0) = Fin (raw_moment l k).
Proof.
  intros l k c H. split; [|split].
  - rewrite central_value by auto. unfold raw_moment.
    rewrite (Rsum_map_ext (fun x => x ^ 1) (fun x => x)) by (intros; ring). rewrite map_id. reflexivity.
  - unfold moment, scipy_moment, moment_about, mean, len. destruct l; [congruence|]. rewrite map_length. reflexivity.
  - unfold moment, scipy_moment, raw_moment, mean, len. destruct l; [congruence|]. rewrite map_length. do 3 f_equal.
    apply map_ext. intros. f_equal. ring.
Qed.
(** the documented raw moment (no centre given) is a central moment for every sample and order, so it is
    wrong as soon as the mean is not zero: order 1 always gives 0 *)
Lemma C116_raw_moment_is_central_holds : forall l k, moment l k None = central_moment l k.
Proof. intros l k. destruct l; reflexivity. Qed.
Lemma mean_dev l : l <> [] -> moment_about (Rsum l / INR (length l)) l 1 = 0.
Proof.
  intros H. pose proof (len_ne l H). unfold moment_about.
  rewrite (Rsum_map_ext _ (fun x => x - Rsum l / INR (length l))) by (intros; ring).
  rewrite (Rsum_map_minus (fun x => x) (fun _ => Rsum l / INR (length l))), map_id, Rsum_map_const. field. lra.
Qed.
Lemma C116_raw_moment_refuted_holds : (forall l, l <> [] -> moment l 1 None = Fin 0) /\
  exists l, l <> [] /\ moment l 1 None <> Fin (raw_moment l 1).
Proof.
  assert (A : forall l, l <> [] -> moment l 1 None = Fin 0).
  { intros l H. rewrite C116_raw_moment_is_central_holds, central_value, mean_dev by auto. reflexivity. }
  split; [exact A|]. exists [1; 2; 3]. split; [discriminate|]. rewrite A by discriminate.
  intros E. injection E as E. unfold raw_moment in E. simpl in E. lra.
Qed.
(** orders 0 and 1 are trivial, order 2 is the mean square minus the squared mean, and every central moment is
    the binomial combination of raw moments *)
Lemma about_binomial l k c : l <> [] ->
  moment_about c l k = sum_f_R0 (fun i => Binomial.C k i * raw_moment l i * (- c) ^ (k - i)) k.
Proof.
  intros H. pose proof (len_ne l H). unfold moment_about, raw_moment.
  assert (E : Rsum (map (fun x => (x - c) ^ k) l) =
    sum_f_R0 (fun i => Binomial.C k i * Rsum (map (fun x => x ^ i) l) * (- c) ^ (k - i)) k).
  { rewrite (Rsum_map_ext _ (fun x => sum_f_R0 (fun i => Binomial.C k i * x ^ i * (- c) ^ (k - i)) k))
      by (intros x _; rewrite <- binomial; f_equal; ring).
    clear H H0. induction l as [|x l IH]; simpl.
    - symmetry. rewrite (sum_eq _ (fun _ => 0)) by (intros; ring). rewrite sum_cte. ring.
    - rewrite IH, <- sum_plus. apply sum_eq. intros. ring. }
  rewrite E. unfold Rdiv. rewrite Rmult_comm, scal_sum. apply sum_eq. intros. ring.
Qed.
Lemma C116_central_from_raw_holds : forall l k, l <> [] ->
  central_moment l 0 = Fin 1 /\ central_moment l 1 = Fin 0 /\
  central_moment l 2 = Fin (raw_moment l 2 - raw_moment l 1 ^ 2) /\
  central_moment l k = Fin (sum_f_R0 (fun i => Binomial.C k i * raw_moment l i * (- raw_moment l 1) ^ (k - i)) k).
Proof.
  intros l k H. pose proof (len_ne l H) as HL.
  assert (E0 : raw_moment l 0 = 1). { unfold raw_moment. simpl. rewrite Rsum_map_const. field. lra. }
  assert (G : forall k, central_moment l k = Fin (sum_f_R0 (fun i => Binomial.C k i * raw_moment l i * (- raw_moment l 1) ^ (k - i)) k)).
  { intros j. rewrite (proj1 (C116_moments_holds l j 0 H)). f_equal. now apply about_binomial. }
  split; [|split; [|split; [|apply G]]].
  - rewrite G. simpl. rewrite E0, C_n_0. f_equal. ring.
  - rewrite central_value, mean_dev by auto. reflexivity.
  - rewrite G. simpl sum_f_R0. rewrite C_n_0, C_n_n. replace (Binomial.C 2 1) with 2 by (unfold Binomial.C; simpl; field).
    rewrite E0. simpl. f_equal. ring.
Qed.
(** shift, scale, reflection: a central moment ignores shifts, is multiplied by s^k, and vanishes for odd
    orders on symmetric samples *)
Lemma C116_central_location_scale_holds : forall l k a s, l <> [] -> forall v, central_moment l k = Fin v ->
  central_moment (map (fun x => a + s * x) l) k = Fin (s ^ k * v).
Proof.
  intros l k a s H v E. rewrite central_value in * by (auto; destruct l; discriminate). injection E as <-. f_equal.
  pose proof (len_ne l H). unfold moment_about. rewrite !map_map, map_length.
  rewrite (Rsum_map_plus (fun _ => a) (fun x => s * x)), Rsum_map_const, (Rsum_map_scal s (fun x => x)), map_id.
  rewrite (Rsum_map_ext _ (fun x => s ^ k * (x - Rsum l / INR (length l)) ^ k)).
  - rewrite Rsum_map_scal. field. lra.
  - intros x _. rewrite <- Rpow_mult_distr. f_equal. field. lra.
Qed.
Lemma pow_odd_opp x k : (- x) ^ (2 * k + 1) = - x ^ (2 * k + 1).
Proof. replace (- x) with ((-1) * x) by ring. rewrite Rpow_mult_distr, Nat.add_1_r, pow_1_odd. ring. Qed.
Lemma C116_central_symmetric_holds : forall l k c, l <> [] -> symmetric_about c l ->
  raw_moment l 1 = c /\ central_moment l (2 * k + 1) = Fin 0.
Proof.
  intros l k c H S. pose proof (len_ne l H) as HL. unfold symmetric_about in S.
  assert (M : Rsum l = INR (length l) * c).
  { pose proof (Rsum_perm _ _ S) as E. rewrite (Rsum_map_minus (fun _ => 2 * c) (fun x => x)), Rsum_map_const, map_id in E. lra. }
  split.
  - unfold raw_moment. rewrite (Rsum_map_ext _ (fun x => x)) by (intros; ring). rewrite map_id, M. field. lra.
  - rewrite central_value by auto. f_equal. replace (Rsum l / INR (length l)) with c by (rewrite M; field; lra).
    unfold moment_about. enough (Rsum (map (fun x => (x - c) ^ (2 * k + 1)) l) = 0) as -> by (unfold Rdiv; ring).
    pose proof (Rsum_map_perm (fun x => (x - c) ^ (2 * k + 1)) _ _ S) as E. rewrite map_map in E.
    rewrite (Rsum_map_ext _ (fun x => - (x - c) ^ (2 * k + 1))) in E.
    + rewrite Rsum_map_opp in E. lra.
    + intros x _. rewrite <- pow_odd_opp. f_equal. ring.
Qed.
(** even orders are not negative, and the fourth moment is at least the squared second: kurtosis is at least 1 *)
Lemma C116_central_even_holds : forall l k v, l <> [] -> central_moment l (2 * k) = Fin v ->
  0 <= v /\ ((0 < k)%nat -> (v = 0 <-> forall x y, In x l -> In y l -> x = y)).
Proof.
  intros l k v H E. rewrite central_value in E by auto.
  assert (EV : v = moment_about (Rsum l / INR (length l)) l (2 * k)) by congruence. subst v. clear E. pose proof (len_ne l H) as HL.
  set (m := Rsum l / INR (length l)). unfold moment_about.
  assert (NN : forall x, 0 <= (x - m) ^ (2 * k)) by (intros x; rewrite pow_mult; apply pow_le, pow2_ge_0).
  assert (N : 0 <= Rsum (map (fun x => (x - m) ^ (2 * k)) l)) by (apply Rsum_map_nonneg; auto).
  split; [apply Rdiv_le_0_compat; lra|]. intros Hk. split.
  - intros Z.
    assert (Z0 : Rsum (map (fun x => (x - m) ^ (2 * k)) l) = 0).
    { apply (Rmult_eq_reg_r (/ INR (length l))); [|apply Rinv_neq_0_compat; lra]. rewrite Rmult_0_l. exact Z. }
    assert (A : forall x, In x l -> x = m).
    { intros x Hx. assert (B : (x - m) ^ (2 * k) = 0).
      { apply (Rsum_zero (map (fun x => (x - m) ^ (2 * k)) l)); auto.
        - intros y Hy. apply in_map_iff in Hy. destruct Hy as (z & <- & _). auto.
        - apply in_map_iff. exists x. auto. }
      destruct (Req_dec (x - m) 0) as [D|D]; [lra|]. exfalso. exact (pow_nonzero _ (2 * k) D B). }
    intros x y Hx Hy. rewrite (A x Hx), (A y Hy). reflexivity.
  - intros A. destruct l as [|x0 l0]; [congruence|]. set (l := x0 :: l0) in *.
    assert (EM : m = x0).
    { unfold m. rewrite <- (map_id l) at 1. rewrite (Rsum_map_ext _ (fun _ => x0)).
      - rewrite Rsum_map_const. field. lra.
      - intros x Hx. apply A; [auto|left; reflexivity]. }
    rewrite (Rsum_map_ext _ (fun _ => 0)).
    + rewrite Rsum_map_const. unfold Rdiv. ring.
    + intros x Hx. rewrite EM, (A x x0 Hx (or_introl eq_refl)), Rminus_eq_0. apply pow_i. lia.
Qed.
Lemma C116_kurtosis_holds : forall l v2 v4, l <> [] -> central_moment l 2 = Fin v2 -> central_moment l 4 = Fin v4 ->
  v2 ^ 2 <= v4.
Proof.
  intros l v2 v4 H E2 E4. rewrite central_value in * by auto. injection E2 as E2. injection E4 as E4.
  pose proof (len_ne l H) as HL. set (m := Rsum l / INR (length l)) in *.
  assert (A : 0 <= Rsum (map (fun x => ((x - m) ^ 2 - v2) ^ 2) l)) by (apply Rsum_map_nonneg; intros; apply pow2_ge_0).
  rewrite (Rsum_map_ext _ (fun x => ((x - m) ^ 4 - (2 * v2) * (x - m) ^ 2) + v2 ^ 2)) in A by (intros; ring).
  rewrite (Rsum_map_plus (fun x => (x - m) ^ 4 - (2 * v2) * (x - m) ^ 2) (fun _ => v2 ^ 2)), Rsum_map_const in A.
  rewrite (Rsum_map_minus (fun x => (x - m) ^ 4) (fun x => (2 * v2) * (x - m) ^ 2)), Rsum_map_scal in A.
  unfold moment_about in *.
  assert (F2 : Rsum (map (fun x => (x - m) ^ 2) l) = INR (length l) * v2) by (rewrite <- E2; field; lra).
  assert (F4 : Rsum (map (fun x => (x - m) ^ 4) l) = INR (length l) * v4) by (rewrite <- E4; field; lra).
  rewrite F2, F4 in A. apply (Rmult_le_reg_l (INR (length l))); [lra|]. lra.
Qed.
(** an empty sample has no moments *)
Lemma C116_empty_holds : forall k c, moment [] k c = NonFinite /\ central_moment [] k = NonFinite.
Proof. split; reflexivity. Qed.

(** the density of the normal law is the derivative of its distribution function *)
Lemma C116_normal_density_holds : forall Phi mean var x, standard_normal Phi -> 0 < var ->
  is_derive (cdf_norm Phi mean var) x (pdf_norm mean var x).
Proof.
  intros Phi mean var x HP Hv. pose proof (sqrt_lt_R0 var Hv) as Hs. unfold cdf_norm, pdf_norm, scipy_norm_pdf.
  set (s := sqrt var) in *.
  replace (exp (- ((x - mean) / s) ^ 2 / 2) / sqrt (2 * PI) / s) with
    (scal (/ s) (exp (- ((x - mean) / s) ^ 2 / 2) / sqrt (2 * PI))) by (unfold scal; simpl; unfold mult; simpl; unfold Rdiv; ring).
  apply (is_derive_comp Phi (fun x => (x - mean) / s)); [apply HP|]. auto_derive; [lra|]. field. lra.
Qed.
(** so areas under the density are differences of the distribution function, and the density is that of the
    normal law with the given variance, symmetric about the mean and falling away from it *)
Lemma pdf_norm_formula mean var x : 0 < var -> pdf_norm mean var x = exp (- (x - mean) ^ 2 / (2 * var)) / sqrt (2 * PI * var).
Proof.
  intros Hv. pose proof (sqrt_lt_R0 var Hv) as Hs. pose proof PI_RGT_0. unfold pdf_norm, scipy_norm_pdf.
  rewrite (sqrt_mult (2 * PI) var) by lra.
  replace (- (x - mean) ^ 2 / (2 * var)) with (- ((x - mean) / sqrt var) ^ 2 / 2).
  - field. split; [lra|]. apply Rgt_not_eq, sqrt_lt_R0. lra.
  - replace var with (sqrt var * sqrt var) at 2 by (apply sqrt_sqrt; lra). field. lra.
Qed.
Lemma pdf_norm_continuous mean var x : 0 < var -> continuous (pdf_norm mean var) x.
Proof.
  intros Hv. apply (@ex_derive_continuous R_AbsRing R_NormedModule). pose proof PI_RGT_0 as HPI.
  assert (0 < sqrt (2 * PI)) by (apply sqrt_lt_R0; lra). pose proof (sqrt_lt_R0 var Hv).
  unfold pdf_norm, scipy_norm_pdf. auto_derive. repeat split; lra.
Qed.
Lemma C116_normal_area_holds : forall Phi mean var a b, standard_normal Phi -> 0 < var ->
  is_RInt (pdf_norm mean var) a b (cdf_norm Phi mean var b - cdf_norm Phi mean var a).
Proof.
  intros Phi mean var a b HP Hv.
  apply (is_RInt_derive (cdf_norm Phi mean var) (pdf_norm mean var)).
  - intros x _. now apply C116_normal_density_holds.
  - intros x _. now apply pdf_norm_continuous.
Qed.
Lemma C116_normal_shape_holds : forall mean var x y, 0 < var ->
  pdf_norm mean var x = exp (- (x - mean) ^ 2 / (2 * var)) / sqrt (2 * PI * var) /\
  0 < pdf_norm mean var x /\ pdf_norm mean var (2 * mean - x) = pdf_norm mean var x /\
  (Rabs (x - mean) < Rabs (y - mean) -> pdf_norm mean var y < pdf_norm mean var x).
Proof.
  intros mean var x y Hv. pose proof PI_RGT_0.
  assert (P : 0 < sqrt (2 * PI * var)) by (apply sqrt_lt_R0; nra).
  split; [now apply pdf_norm_formula|]. rewrite !pdf_norm_formula by auto. split; [|split].
  - apply Rdiv_lt_0_compat; [apply exp_pos|auto].
  - do 2 f_equal. field. lra.
  - intros L. apply Rmult_lt_compat_r; [now apply Rinv_0_lt_compat|]. apply exp_increasing.
    assert (Q : (x - mean) ^ 2 < (y - mean) ^ 2).
    { rewrite <- (pow2_abs (x - mean)), <- (pow2_abs (y - mean)). pose proof (Rabs_pos (x - mean)). nra. }
    unfold Rdiv. assert (0 < / (2 * var)) by (apply Rinv_0_lt_compat; lra). nra.
Qed.
Lemma C116_nonvacuous_normal_holds : exists Phi, standard_normal Phi /\ Phi 0 = 1 / 2.
Proof.
  set (d := fun x => exp (- x ^ 2 / 2) / sqrt (2 * PI)). pose proof PI_RGT_0.
  assert (0 < sqrt (2 * PI)) by (apply sqrt_lt_R0; lra).
  assert (C : forall x, continuous d x).
  { intros x. apply (@ex_derive_continuous R_AbsRing R_NormedModule). unfold d. auto_derive. lra. }
  exists (fun x => 1 / 2 + RInt d 0 x). split.
  - intros x. change (exp (- x ^ 2 / 2) / sqrt (2 * PI)) with (d x).
    replace (d x) with (plus 0 (d x)) by (unfold plus; simpl; ring).
    apply (is_derive_plus (fun _ => 1 / 2) (fun x => RInt d 0 x)); [apply (@is_derive_const R_AbsRing)|].
    apply (is_derive_RInt d (fun x => RInt d 0 x) 0 x); [|apply C].
    apply filter_forall. intros y. apply (RInt_correct d 0 y). apply ex_RInt_continuous. intros z _. apply C.
  - rewrite RInt_point. unfold zero; simpl. ring.
Qed.

(** exponentiated Weibull: the logarithms are those of the distribution function and of its complement *)
Lemma weib_cdf_range a k x : 0 < a -> 0 < x -> 0 < generate_weibull_cdf a k x < 1.
Proof.
  intros Ha Hx. unfold generate_weibull_cdf. destruct (Rleb_spec x 0) as [H|H]; [lra|].
  assert (P : 0 < Rpower x k) by apply exp_pos. assert (E : 0 < exp (- Rpower x k) < 1).
  { split; [apply exp_pos|]. rewrite <- exp_0. apply exp_increasing. lra. }
  split; [apply exp_pos|]. change (exp (a * ln (1 - exp (- Rpower x k))) < 1). apply Rlt_le_trans with (exp 0); [|rewrite exp_0; lra]. apply exp_increasing.
  assert (ln (1 - exp (- Rpower x k)) < 0) by (apply ln_neg; lra). nra.
Qed.
Lemma C116_weibull_logs_holds : forall a k x, 0 < a -> 0 < x ->
  exists c s, generate_weibull_logcdf a k x = Fin c /\ generate_weibull_logsf a k x = Fin s /\
    exp c = generate_weibull_cdf a k x /\ exp s = 1 - generate_weibull_cdf a k x /\ c < 0 /\ s < 0 /\ exp c + exp s = 1.
Proof.
  intros a k x Ha Hx. destruct (weib_cdf_range a k x Ha Hx) as [L U].
  unfold generate_weibull_logcdf, generate_weibull_logsf, np_log.
  destruct (Rleb_spec (generate_weibull_cdf a k x) 0); [lra|]. destruct (Rleb_spec (1 - generate_weibull_cdf a k x) 0); [lra|].
  exists (ln (generate_weibull_cdf a k x)), (ln (1 - generate_weibull_cdf a k x)).
  rewrite !exp_ln by lra. repeat split; try (apply ln_neg; lra); lra.
Qed.
(** explicit values: the logarithm of the distribution function is a ln(1 - exp(-x^k)); for a = 1 that of
    the survival function is -x^k *)
Lemma C116_weibull_closed_form_holds : forall a k x, 0 < a -> 0 < x ->
  generate_weibull_logcdf a k x = Fin (a * ln (1 - exp (- Rpower x k))) /\
  generate_weibull_logsf 1 k x = Fin (- Rpower x k).
Proof.
  intros a k x Ha Hx. split.
  - destruct (weib_cdf_range a k x Ha Hx) as [L U]. unfold generate_weibull_logcdf, np_log.
    destruct (Rleb_spec (generate_weibull_cdf a k x) 0); [lra|]. f_equal. unfold generate_weibull_cdf.
    destruct (Rleb_spec x 0); [lra|]. apply (ln_exp (a * ln (1 - exp (- Rpower x k)))).
  - destruct (weib_cdf_range 1 k x Rlt_0_1 Hx) as [L U]. unfold generate_weibull_logsf, np_log.
    destruct (Rleb_spec (1 - generate_weibull_cdf 1 k x) 0); [lra|]. f_equal. unfold generate_weibull_cdf in *.
    destruct (Rleb_spec x 0); [lra|].
    assert (P : 0 < Rpower x k) by apply exp_pos. assert (exp (- Rpower x k) < 1) by (rewrite <- exp_0; apply exp_increasing; lra).
    rewrite Rpower_1 by lra. replace (1 - (1 - exp (- Rpower x k))) with (exp (- Rpower x k)) by ring. apply ln_exp.
Qed.
Lemma C116_weibull_outside_holds : forall a k x, x <= 0 ->
  generate_weibull_logcdf a k x = NonFinite /\ generate_weibull_logsf a k x = Fin 0.
Proof.
  intros a k x Hx. unfold generate_weibull_logcdf, generate_weibull_logsf, np_log, generate_weibull_cdf.
  destruct (Rleb_spec x 0); [|lra]. destruct (Rleb_spec 0 0); [|lra]. destruct (Rleb_spec (1 - 0) 0); [lra|].
  split; [reflexivity|]. rewrite Rminus_0_r, ln_1. reflexivity.
Qed.

(** Tukey's lambda law: symmetric about 0, within 1/lambda for positive lambda and unbounded otherwise; the
    logistic law for lambda = 0 and uniform laws for lambda = 1 and for the default 2 *)
Lemma tukey_at lam u : generate_tukey lam u = q_tukey lam u.
Proof. unfold generate_tukey, rvs. ring. Qed.
Lemma C78_tukey_symmetric_holds : forall lam u, 0 < u < 1 -> generate_tukey lam (1 - u) = - generate_tukey lam u.
Proof.
  intros lam u Hu. rewrite !tukey_at. unfold q_tukey. replace (1 - (1 - u)) with u by ring. destruct (Reqb_spec lam 0).
  - rewrite !ln_div by lra. ring.
  - field. auto.
Qed.
Lemma rp_lt1 u l : 0 < u < 1 -> 0 < l -> 0 < Rpower u l < 1.
Proof.
  intros Hu Hl. split; [apply exp_pos|]. unfold Rpower. rewrite <- exp_0. apply exp_increasing.
  pose proof (ln_neg u Hu). nra.
Qed.
Lemma C78_tukey_bounded_holds : forall lam, 0 < lam -> within_range (generate_tukey lam) (1 / lam).
Proof.
  intros lam Hl u Hu. rewrite tukey_at. unfold q_tukey. destruct (Reqb_spec lam 0); [lra|].
  pose proof (rp_lt1 u lam Hu Hl). assert (Hu' : 0 < 1 - u < 1) by lra. pose proof (rp_lt1 (1 - u) lam Hu' Hl).
  pose proof (Rinv_0_lt_compat lam Hl). unfold Rdiv. split; nra.
Qed.
Lemma C78_tukey_unbounded_holds : forall lam, lam <= 0 -> unbounded_above (generate_tukey lam).
Proof.
  intros lam Hl m. destruct (Req_dec lam 0) as [->|N].
  - exists (/ (1 + exp (- (Rabs m + 1)))). pose proof (exp_pos (- (Rabs m + 1))) as HE.
    assert (B : 0 < / (1 + exp (- (Rabs m + 1))) < 1).
    { split; [apply Rinv_0_lt_compat; lra|]. apply Rlt_le_trans with (/ 1); [apply Rinv_lt_contravar; lra|rewrite Rinv_1; lra]. }
    split; [exact B|]. rewrite tukey_at. unfold q_tukey. destruct (Reqb_spec 0 0); [|lra].
    replace (/ (1 + exp (- (Rabs m + 1))) / (1 - / (1 + exp (- (Rabs m + 1))))) with (/ exp (- (Rabs m + 1))) by (field; lra).
    rewrite ln_Rinv, ln_exp by lra. pose proof (Rle_abs m). lra.
  - assert (HL : 0 < - lam) by lra. set (y := 2 + (- lam) * Rabs m + Rpower (/ 2) lam).
    assert (P2 : 1 < Rpower (/ 2) lam).
    { unfold Rpower. rewrite <- exp_0. apply exp_increasing. assert (ln (/ 2) < 0) by (apply ln_neg; lra). nra. }
    assert (Hy : Rpower (/ 2) lam < y) by (unfold y; pose proof (Rmult_le_pos (- lam) (Rabs m) (Rlt_le _ _ HL) (Rabs_pos m)); lra).
    set (t := Rpower y (/ lam)).
    assert (ET : Rpower t lam = y).
    { unfold t. rewrite Rpower_mult. replace (/ lam * lam) with 1 by (field; lra). apply Rpower_1. lra. }
    assert (T0 : 0 < t) by apply exp_pos.
    assert (T2 : t < / 2).
    { destruct (Rlt_or_le t (/ 2)) as [|G]; auto. exfalso.
      assert (Rpower t lam <= Rpower (/ 2) lam); [|lra].
      unfold Rpower. assert (ln (/ 2) <= ln t) by (destruct G as [G|G]; [left; apply ln_increasing; lra|rewrite G; lra]).
      assert (lam * ln t <= lam * ln (/ 2)) by nra.
      destruct H0 as [H0|H0]; [left; now apply exp_increasing|rewrite H0; lra]. }
    exists (1 - t). split; [lra|]. rewrite tukey_at. unfold q_tukey. destruct (Reqb_spec lam 0); [lra|].
    replace (1 - (1 - t)) with t by ring. rewrite ET.
    assert (S : Rpower (1 - t) lam < Rpower (/ 2) lam).
    { unfold Rpower. apply exp_increasing. assert (ln (/ 2) < ln (1 - t)) by (apply ln_increasing; lra). nra. }
    replace ((Rpower (1 - t) lam - y) / lam) with ((y - Rpower (1 - t) lam) / (- lam)) by (field; lra).
    apply (Rmult_lt_reg_r (- lam)); [lra|].
    replace ((y - Rpower (1 - t) lam) / - lam * - lam) with (y - Rpower (1 - t) lam) by (field; lra).
    pose proof (Rle_abs m). unfold y. nra.
Qed.
Lemma C78_tukey_special_holds : follows (generate_tukey 0) (logistic_law 0 1) /\
  follows (generate_tukey 1) (uniform_law (-1) 1) /\ follows (generate_tukey 2) (uniform_law (- (1 / 2)) (1 / 2)).
Proof.
  split; [|split].
  - pose proof (proj2 (proj2 (proj2 (C78_cauchy_gumbel_laplace_logistic_holds 0 1 Rlt_0_1)))) as H.
    intros u x Hu. rewrite <- (H u x Hu), tukey_at. unfold generate_logistic, rvs, q_logistic, q_tukey.
    destruct (Reqb_spec 0 0); [|lra]. replace (0 + 1 * ln (u / (1 - u))) with (ln (u / (1 - u))) by ring. tauto.
  - intros u x Hu. rewrite tukey_at. unfold q_tukey, uniform_law. destruct (Reqb_spec 1 0); [lra|].
    rewrite !Rpower_1 by lra. replace ((x - -1) / (1 - -1)) with ((x + 1) / 2) by field.
    destruct (Rleb_spec x (-1)); [lra|]. destruct (Rleb_spec 1 x); lra.
  - intros u x Hu. rewrite tukey_at. unfold q_tukey, uniform_law. destruct (Reqb_spec 2 0); [lra|].
    replace 2 with (INR 2) at 1 2 by (simpl; ring). rewrite !Rpower_pow by lra.
    replace ((u ^ 2 - (1 - u) ^ 2) / 2) with (u - 1 / 2) by field.
    replace ((x - - (1 / 2)) / (1 / 2 - - (1 / 2))) with (x + 1 / 2) by field.
    destruct (Rleb_spec x (- (1 / 2))); [lra|]. destruct (Rleb_spec (1 / 2) x); lra.
Qed.
(** beta, chi-square and Student samplers pass their parameters on unchanged *)
Lemma C78_unscaled_holds : forall qb qc qt a b df F G H, follows (qb a b) F -> follows (qc df) G -> follows (qt df) H ->
  follows (generate_beta qb a b) F /\ follows (generate_chi2 qc df) G /\ follows (generate_t qt df) H.
Proof.
  intros qb qc qt a b df F G H HF HG HH. unfold generate_beta, generate_chi2, generate_t, rvs.
  split; [|split]; intros u x Hu; rewrite Rplus_0_l, Rmult_1_l; auto.
Qed.
Lemma C116_nonvacuous_holds : central_moment [1; 2; 6] 2 = Fin (14 / 3) /\ central_moment [1; 2; 6] 3 = Fin 6 /\
  moment [1; 2; 6] 2 (Some 0) = Fin (41 / 3) /\ symmetric_about 2 [1; 2; 3] /\
  generate_weibull_logsf 1 2 1 = Fin (-1).
Proof.
  repeat split.
  - unfold central_moment, scipy_moment, mean, len. simpl. f_equal. field.
  - unfold central_moment, scipy_moment, mean, len. simpl. f_equal. field.
  - unfold moment, scipy_moment, mean, len. simpl. f_equal. field.
  - unfold symmetric_about. simpl. replace (2 * 2 - 1) with 3 by ring. replace (2 * 2 - 2) with 2 by ring. replace (2 * 2 - 3) with 1 by ring.
    apply (Permutation_trans (l' := [2; 3; 1])); [apply perm_swap|]. apply (Permutation_trans (l' := [2; 1; 3])).
    + apply perm_skip, perm_swap.
    + apply perm_swap.
  - destruct (C116_weibull_closed_form_holds 1 2 1 Rlt_0_1 Rlt_0_1) as [_ ->]. f_equal.
    replace (Rpower 1 2) with 1; [lra|]. unfold Rpower. rewrite ln_1, Rmult_0_r, exp_0. reflexivity.
Qed.
