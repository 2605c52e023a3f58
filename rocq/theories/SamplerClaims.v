(** Property C78: samples follow the documented law. *)
From Verif Require Import Base SamplerModel SamplerSpec.
From Coquelicot Require Import Coquelicot.
From Coq Require Import Lra Lia.

Lemma follows_loc_scale Q F l s : follows Q F -> 0 < s -> follows (rvs Q l s) (fun x => F ((x - l) / s)).
Proof.
  intros H Hs u x Hu. rewrite <- (H u _ Hu). unfold rvs. split; intros A.
  - apply (Rmult_le_reg_r s); [lra|]. unfold Rdiv. rewrite Rmult_assoc, Rinv_l, Rmult_1_r by lra. lra.
  - apply (Rmult_le_compat_r s) in A; [|lra]. unfold Rdiv in A. rewrite Rmult_assoc, Rinv_l, Rmult_1_r in A by lra. lra.
Qed.
Lemma follows_ext Q F G : (forall x, F x = G x) -> follows Q F -> follows Q G.
Proof. intros E H u x Hu. rewrite <- E. auto. Qed.
Lemma follows_unique Q F G : follows Q F -> follows Q G -> (forall x, 0 <= F x <= 1) -> (forall x, 0 <= G x <= 1) ->
  forall x, F x = G x.
Proof.
  intros HF HG BF BG x.
  assert (A : forall u, 0 < u < 1 -> (u <= F x <-> u <= G x)) by (intros u Hu; rewrite <- (HF u x Hu), <- (HG u x Hu); tauto).
  destruct (Rtotal_order (F x) (G x)) as [L|[E|L]]; [|exact E|].
  - specialize (BF x). specialize (BG x). destruct (A ((F x + G x) / 2)) as [_ A2]; [lra|]. lra.
  - specialize (BF x). specialize (BG x). destruct (A ((F x + G x) / 2)) as [A2 _]; [lra|]. lra.
Qed.
Lemma ln_le_iff a x : 0 < a -> (ln a <= x <-> a <= exp x).
Proof.
  intros Ha. split; intros H.
  - rewrite <- (exp_ln a Ha). destruct H as [H| ->]; [left; now apply exp_increasing|right; reflexivity].
  - rewrite <- (ln_exp x). destruct H as [H| ->]; [left; apply ln_increasing; auto|right; reflexivity].
Qed.
Lemma ln_ge_iff a x : 0 < a -> (x <= ln a <-> exp x <= a).
Proof.
  intros Ha. split; intros H.
  - rewrite <- (exp_ln a Ha). destruct H as [H| ->]; [left; now apply exp_increasing|right; reflexivity].
  - rewrite <- (ln_exp x). destruct H as [H| <-]; [left; apply ln_increasing; auto; apply exp_pos|right; reflexivity].
Qed.
Lemma ln_neg u : 0 < u < 1 -> ln u < 0.
Proof. intros H. rewrite <- ln_1. apply ln_increasing; lra. Qed.

Lemma std_expon : follows q_expon (fun y => if Rleb y 0 then 0 else 1 - exp (- y)).
Proof.
  intros u x Hu. unfold q_expon.
  assert (E : - ln (1 - u) <= x <-> exp (- x) <= 1 - u) by (rewrite <- ln_ge_iff by lra; lra).
  rewrite E. destruct (Rleb_spec x 0) as [H|H]; [|lra].
  assert (1 <= exp (- x)) by (rewrite <- exp_0; destruct H as [H| ->]; [left; apply exp_increasing; lra|right; f_equal; lra]). lra.
Qed.
Lemma std_uniform : follows q_uniform (fun y => if Rleb y 0 then 0 else if Rleb 1 y then 1 else y).
Proof. intros u x Hu. unfold q_uniform. destruct (Rleb_spec x 0); [|destruct (Rleb_spec 1 x)]; lra. Qed.
Lemma std_cauchy : follows q_cauchy (fun y => 1 / 2 + atan y / PI).
Proof.
  intros u x Hu. unfold q_cauchy. pose proof PI_RGT_0 as HP.
  assert (Hr : - PI / 2 < PI * (u - 1 / 2) < PI / 2) by (split; nra).
  assert (E : tan (PI * (u - 1 / 2)) <= x <-> PI * (u - 1 / 2) <= atan x).
  { split; intros H.
    - rewrite <- (atan_tan (PI * (u - 1 / 2))) by lra.
      destruct H as [H| ->]; [left; now apply atan_increasing|right; reflexivity].
    - rewrite <- (tan_atan x). destruct (atan_bound x) as [A B]. destruct H as [H| ->]; [left; apply tan_increasing; lra|right; reflexivity]. }
  rewrite E. split; intros H.
  - apply (Rmult_le_reg_l PI); [lra|]. replace (PI * (1 / 2 + atan x / PI)) with (PI / 2 + atan x) by (field; lra). lra.
  - apply (Rmult_le_compat_l PI) in H; [|lra]. replace (PI * (1 / 2 + atan x / PI)) with (PI / 2 + atan x) in H by (field; lra). lra.
Qed.
Lemma std_gumbel : follows q_gumbel_r (fun y => exp (- exp (- y))).
Proof.
  intros u x Hu. unfold q_gumbel_r. pose proof (ln_neg u Hu).
  rewrite <- ln_le_iff by lra.
  assert (E : exp (- x) <= - ln u <-> - x <= ln (- ln u)) by (rewrite ln_ge_iff by lra; tauto). lra.
Qed.
Lemma std_logistic : follows q_logistic (fun y => / (1 + exp (- y))).
Proof.
  intros u x Hu. unfold q_logistic. pose proof (exp_pos (- x)) as He. pose proof (exp_pos x) as Hx.
  rewrite ln_le_iff by (apply Rdiv_lt_0_compat; lra).
  assert (Ex : exp x * exp (- x) = 1) by (rewrite <- exp_plus, Rplus_opp_r; apply exp_0).
  split; intros H.
  - apply (Rmult_le_reg_r (1 + exp (- x))); [lra|]. rewrite Rinv_l by lra.
    apply (Rmult_le_compat_r (1 - u)) in H; [|lra]. unfold Rdiv in H. rewrite Rmult_assoc, Rinv_l in H by lra.
    apply (Rmult_le_compat_r (exp (- x))) in H; [|lra]. nra.
  - apply (Rmult_le_compat_r (1 + exp (- x))) in H; [|lra]. rewrite Rinv_l in H by lra.
    apply (Rmult_le_reg_r (1 - u)); [lra|]. unfold Rdiv. rewrite Rmult_assoc, Rinv_l by lra.
    apply (Rmult_le_reg_r (exp (- x))); [lra|]. nra.
Qed.
Lemma std_laplace : follows q_laplace (fun y => if Rleb y 0 then exp y / 2 else 1 - exp (- y) / 2).
Proof.
  intros u x Hu. unfold q_laplace.
  destruct (Rleb_spec u (1/2)) as [H|H].
  - rewrite ln_le_iff by lra. destruct (Rleb_spec x 0) as [G|G]; [lra|].
    assert (exp (- x) < 1) by (rewrite <- exp_0; apply exp_increasing; lra).
    assert (1 < exp x) by (rewrite <- exp_0; apply exp_increasing; lra). lra.
  - assert (E : - ln (2 * (1 - u)) <= x <-> exp (- x) <= 2 * (1 - u)) by (rewrite <- ln_ge_iff by lra; lra).
    rewrite E. destruct (Rleb_spec x 0) as [G|G]; [|lra].
    assert (1 <= exp (- x)) by (rewrite <- exp_0; destruct G as [G| ->]; [left; apply exp_increasing; lra|right; f_equal; lra]).
    assert (exp x <= 1) by (rewrite <- exp_0; destruct G as [G| ->]; [left; apply exp_increasing; lra|right; reflexivity]). lra.
Qed.
Lemma std_gompertz c : 0 < c -> follows (q_gompertz c) (fun y => if Rleb y 0 then 0 else 1 - exp (- (c * (exp y - 1)))).
Proof.
  intros Hc u x Hu. unfold q_gompertz.
  assert (L : ln (1 - u) < 0) by (apply ln_neg; lra).
  assert (D : 0 < - ln (1 - u) / c) by (apply Rdiv_lt_0_compat; lra).
  replace (1 - ln (1 - u) / c) with (1 + - ln (1 - u) / c) by (field; lra).
  rewrite ln_le_iff by lra.
  destruct (Rleb_spec x 0) as [G|G].
  - assert (exp x <= 1) by (rewrite <- exp_0; destruct G as [G| ->]; [left; apply exp_increasing; lra|right; reflexivity]). lra.
  - assert (E : u <= 1 - exp (- (c * (exp x - 1))) <-> - (c * (exp x - 1)) <= ln (1 - u)).
    { rewrite ln_ge_iff by lra. lra. }
    rewrite E. split; intros H.
    + apply (Rplus_le_compat_l (-1)) in H. apply (Rmult_le_compat_r c) in H; [|lra].
      replace ((-1 + (1 + - ln (1 - u) / c)) * c) with (- ln (1 - u)) in H by (field; lra). lra.
    + apply (Rmult_le_reg_r c); [lra|]. replace ((1 + - ln (1 - u) / c) * c) with (c - ln (1 - u)) by (field; lra). lra.
Qed.
Lemma Rpower_le_iff a b c : 0 < a -> 0 < b -> 0 < c -> (Rpower a c <= Rpower b c <-> a <= b).
Proof.
  intros Ha Hb Hc. split; intros H.
  - apply Rnot_lt_le. intros L. assert (Rpower b c < Rpower a c) by (apply Rlt_Rpower_l; lra). lra.
  - destruct H as [H| ->]; [left; apply Rlt_Rpower_l; lra|right; reflexivity].
Qed.
Lemma Rpower_inv a c : 0 < a -> c <> 0 -> Rpower (Rpower a (/ c)) c = a.
Proof. intros Ha Hc. rewrite Rpower_mult, Rinv_l by exact Hc. now apply Rpower_1. Qed.
Lemma std_exponweib a c : 0 < a -> 0 < c -> follows (q_exponweib a c) (generate_weibull_cdf a c).
Proof.
  intros Ha Hc u x Hu. unfold q_exponweib, generate_weibull_cdf.
  set (w := Rpower u (/ a)).
  assert (Hw : 0 < w < 1).
  { split; [apply exp_pos|]. unfold w, Rpower. rewrite <- exp_0. apply exp_increasing.
    pose proof (ln_neg u Hu). assert (0 < / a) by (apply Rinv_0_lt_compat; lra). nra. }
  assert (L : ln (1 - w) < 0) by (apply ln_neg; lra).
  assert (Hp : 0 < Rpower (- ln (1 - w)) (/ c)) by apply exp_pos.
  destruct (Rleb_spec x 0) as [G|G]; [lra|].
  assert (Hx : 0 < Rpower x c) by apply exp_pos.
  assert (He : exp (- Rpower x c) < 1) by (rewrite <- exp_0; apply exp_increasing; lra).
  rewrite <- (Rpower_le_iff _ x c) by lra. rewrite Rpower_inv by lra.
  assert (E : - ln (1 - w) <= Rpower x c <-> w <= 1 - exp (- Rpower x c)).
  { assert (B : exp (- Rpower x c) <= 1 - w <-> - Rpower x c <= ln (1 - w)) by (rewrite ln_ge_iff by lra; tauto). lra. }
  rewrite E. rewrite <- (Rpower_le_iff w _ a) by lra. unfold w. rewrite Rpower_inv by lra. tauto.
Qed.

(** *** C78 *)
Lemma C78_exponential_holds : forall lam, 0 < lam -> follows (generate_expon lam) (exponential_law lam).
Proof.
  intros lam H. assert (0 < 1 / lam) by (apply Rdiv_lt_0_compat; lra).
  eapply follows_ext; [|apply (follows_loc_scale _ _ 0 (1 / lam) std_expon); auto].
  intros x. unfold exponential_law. replace ((x - 0) / (1 / lam)) with (lam * x) by (field; lra).
  destruct (Rleb_spec (lam * x) 0), (Rleb_spec x 0); auto; nra.
Qed.
Lemma C78_exponential_cdf_holds : forall lam x, 0 < lam -> cdf_expon lam x = exponential_law lam x.
Proof.
  intros lam x H. unfold cdf_expon, exponential_law. replace (x / (1 / lam)) with (lam * x) by (field; lra).
  destruct (Rleb_spec (lam * x) 0), (Rleb_spec x 0); auto; nra.
Qed.
Lemma C78_uniform_holds : forall a b, a < b -> follows (generate_uniform a b) (uniform_law a b).
Proof.
  intros a b H. eapply follows_ext; [|apply (follows_loc_scale _ _ a (b - a) std_uniform); lra].
  intros x. unfold uniform_law. set (y := (x - a) / (b - a)).
  assert (E : x = a + (b - a) * y) by (unfold y; field; lra).
  destruct (Rleb_spec y 0), (Rleb_spec x a); try nra; destruct (Rleb_spec 1 y), (Rleb_spec b x); auto; nra.
Qed.
Lemma C78_cauchy_gumbel_laplace_logistic_holds : forall l s, 0 < s ->
  follows (generate_cauchy l s) (cauchy_law l s) /\ follows (generate_gumbel l s) (gumbel_law l s) /\
  follows (generate_laplace l s) (laplace_law l s) /\ follows (generate_logistic l s) (logistic_law l s).
Proof.
  intros l s H. split; [|split; [|split]].
  - apply (follows_loc_scale _ _ l s std_cauchy H).
  - apply (follows_loc_scale _ _ l s std_gumbel H).
  - eapply follows_ext; [|apply (follows_loc_scale _ _ l s std_laplace H)].
    intros x. unfold laplace_law. cbv beta. set (y := (x - l) / s).
    assert (E : x = l + s * y) by (unfold y; field; lra).
    destruct (Rleb_spec y 0), (Rleb_spec x l); auto; nra.
  - apply (follows_loc_scale _ _ l s std_logistic H).
Qed.
Lemma C78_gompertz_holds : forall eta b, 0 < eta -> 0 < b -> follows (generate_gompertz eta b) (gompertz_law eta b).
Proof.
  intros eta b He Hb. eapply follows_ext; [|apply (follows_loc_scale _ _ 0 b (std_gompertz eta He) Hb)].
  intros x. unfold gompertz_law. cbv beta. rewrite Rminus_0_r. set (y := x / b).
  assert (E : x = b * y) by (unfold y; field; lra).
  destruct (Rleb_spec y 0), (Rleb_spec x 0); auto; nra.
Qed.
(** normal and log-normal, from any representation of a standard normal variate *)
Lemma C78_normal_holds : forall q Phi mean var, follows q Phi -> 0 < var ->
  follows (generate_norm q mean var) (normal_law Phi mean var) /\
  forall x, cdf_norm Phi mean var x = normal_law Phi mean var x.
Proof. intros q Phi mean var H Hv. split; [|reflexivity]. apply follows_loc_scale; auto using sqrt_lt_R0. Qed.
Lemma C78_lognormal_holds : forall q Phi mu s, follows q Phi -> 0 < s ->
  follows (generate_lognorm q mu s) (lognormal_law Phi mu s).
Proof.
  intros q Phi mu s H Hs u x Hu. unfold generate_lognorm, rvs, q_lognorm, lognormal_law.
  rewrite Rplus_0_l, <- exp_plus. pose proof (exp_pos (mu + s * q u)).
  destruct (Rleb_spec x 0) as [G|G]; [lra|].
  rewrite <- (H u _ Hu), <- ln_ge_iff by lra. split; intros A.
  - apply (Rmult_le_reg_r s); [lra|]. unfold Rdiv. rewrite Rmult_assoc, Rinv_l, Rmult_1_r by lra. lra.
  - apply (Rmult_le_compat_r s) in A; [|lra]. unfold Rdiv in A. rewrite Rmult_assoc, Rinv_l, Rmult_1_r in A by lra. lra.
Qed.
(** beta is a rate *)
Lemma C78_gamma_holds : forall qg G alfa beta, follows (qg alfa) (G alfa) -> 0 < beta ->
  follows (generate_gamma qg alfa beta) (gamma_law (G alfa) beta).
Proof.
  intros qg G alfa beta H Hb. assert (0 < 1 / beta) by (apply Rdiv_lt_0_compat; lra).
  eapply follows_ext; [|apply (follows_loc_scale _ _ 0 (1 / beta) H); auto].
  intros x. unfold gamma_law. f_equal. field. lra.
Qed.
(** contaminated normal samples: averaging the conditional law over the selecting number gives the mixture *)
Lemma C78_contaminated_normal_holds : forall q Phi p a b, follows q Phi -> 0 <= p <= 1 -> 0 < b ->
  (exists law : R -> R -> R, (forall v, follows (lo_con_norm_item q p a v) (law v)) /\
     forall x, is_RInt (fun v => law v x) 0 1 (p * normal_law Phi a 1 x + (1 - p) * normal_law Phi 0 1 x)) /\
  (exists law : R -> R -> R, (forall v, follows (mix_con_norm_item q p a b v) (law v)) /\
     forall x, is_RInt (fun v => law v x) 0 1 (p * normal_law Phi a (b ^ 2) x + (1 - p) * normal_law Phi 0 1 x)) /\
  (exists law : R -> R -> R, (forall v, follows (scale_con_norm_item q p b v) (law v)) /\
     forall x, is_RInt (fun v => law v x) 0 1 (p * normal_law Phi 0 (b ^ 2) x + (1 - p) * normal_law Phi 0 1 x)).
Proof.
  intros q Phi p a b H Hp Hb.
  assert (M : forall A B : R, is_RInt (fun v => if Rltb v p then A else B) 0 1 (p * A + (1 - p) * B)).
  { intros A B. apply (is_RInt_Chasles _ 0 p 1 (p * A) ((1 - p) * B)).
    - apply (is_RInt_ext (fun _ => A)).
      + intros v Hv. rewrite Rmin_left, Rmax_right in Hv by lra. destruct (Rltb_spec v p); [reflexivity|lra].
      + replace (p * A) with (scal (p - 0) A) by (unfold scal; simpl; unfold mult; simpl; ring). apply (is_RInt_const (V := R_NormedModule)).
    - apply (is_RInt_ext (fun _ => B)).
      + intros v Hv. rewrite Rmin_left, Rmax_right in Hv by lra. destruct (Rltb_spec v p); [lra|reflexivity].
      + replace ((1 - p) * B) with (scal (1 - p) B) by (unfold scal; simpl; unfold mult; simpl; ring). apply (is_RInt_const (V := R_NormedModule)). }
  assert (N : forall l s, 0 < s -> follows (rvs q l s) (normal_law Phi l (s ^ 2))).
  { intros l s Hs. eapply follows_ext; [|apply (follows_loc_scale q Phi l s H Hs)].
    intros x. unfold normal_law. now rewrite sqrt_pow2 by lra. }
  assert (N1 : forall l, follows (rvs q l 1) (normal_law Phi l 1)).
  { intros l. specialize (N l 1 Rlt_0_1). now rewrite pow1 in N. }
  split; [|split].
  - exists (fun v x => if Rltb v p then normal_law Phi a 1 x else normal_law Phi 0 1 x). split; [|intros x; apply M].
    intros v u x Hu. unfold lo_con_norm_item. destruct (Rltb v p); now apply N1.
  - exists (fun v x => if Rltb v p then normal_law Phi a (b ^ 2) x else normal_law Phi 0 1 x). split; [|intros x; apply M].
    intros v u x Hu. unfold mix_con_norm_item. destruct (Rltb v p); [now apply N|now apply N1].
  - exists (fun v x => if Rltb v p then normal_law Phi 0 (b ^ 2) x else normal_law Phi 0 1 x). split; [|intros x; apply M].
    intros v u x Hu. unfold scale_con_norm_item. destruct (Rltb v p); [now apply N|now apply N1].
Qed.
(** Weibull: the sampler and the cdf of the module agree with each other ... *)
Lemma C78_weibull_exponentiated_holds : forall a k, 0 < a -> 0 < k -> follows (generate_weibull a k) (generate_weibull_cdf a k).
Proof.
  intros a k Ha Hk. eapply follows_ext; [|apply (follows_loc_scale _ _ 0 1 (std_exponweib a k Ha Hk) Rlt_0_1)].
  intros x. cbv beta. replace ((x - 0) / 1) with x by field. reflexivity.
Qed.
(** ... and are the Weibull law when a = 1 ... *)
Lemma C78_weibull_unit_scale_holds : forall k, 0 < k -> follows (generate_weibull 1 k) (weibull_law 1 k).
Proof.
  intros k Hk. eapply follows_ext; [|apply (C78_weibull_exponentiated_holds 1 k Rlt_0_1 Hk)].
  intros x. unfold generate_weibull_cdf, weibull_law. destruct (Rleb_spec x 0) as [G|G]; [reflexivity|].
  replace (x / 1) with x by field. apply Rpower_1.
  assert (exp (- Rpower x k) < 1) by (rewrite <- exp_0; apply exp_increasing; pose proof (exp_pos (k * ln x)); unfold Rpower; lra). lra.
Qed.
(** ... but the parameter documented as scale does not scale the sample *)
Lemma C78_weibull_scale_refuted_holds : ~ follows (generate_weibull 2 1) (weibull_law 2 1).
Proof.
  intros H. pose proof (C78_weibull_exponentiated_holds 2 1 ltac:(lra) ltac:(lra)) as W.
  assert (L2 : 0 < ln 2) by (rewrite <- ln_1; apply ln_increasing; lra).
  set (x := 2 * ln 2).
  assert (E1 : weibull_law 2 1 x = 1 / 2).
  { unfold weibull_law. destruct (Rleb_spec x 0) as [G|G]; [unfold x in G; lra|].
    replace (x / 2) with (ln 2) by (unfold x; field). rewrite Rpower_1 by lra. rewrite exp_Ropp, exp_ln by lra. lra. }
  assert (E2 : generate_weibull_cdf 2 1 x = 9 / 16).
  { unfold generate_weibull_cdf. destruct (Rleb_spec x 0) as [G|G]; [unfold x in G; lra|].
    rewrite Rpower_1 by exact G. unfold x. replace (2 * ln 2) with (ln 2 + ln 2) by ring.
    rewrite exp_Ropp, exp_plus, exp_ln by lra.
    assert (P : forall t, 0 < t -> Rpower t 2 = t * t).
    { intros t Ht. replace 2 with (1 + 1) by lra. now rewrite Rpower_plus, Rpower_1. }
    rewrite P by lra. lra. }
  specialize (H (17 / 32) x ltac:(lra)). specialize (W (17 / 32) x ltac:(lra)).
  rewrite E1 in H. rewrite E2 in W. lra.
Qed.
(** truncated normal: the bounds apply to the standardised variable *)
Lemma C78_truncnorm_bounds_holds : forall q Phi mean var a b u, follows q Phi -> normal_like Phi -> 0 < var -> a < b -> 0 < u < 1 ->
  mean + sqrt var * a < generate_truncnorm q Phi mean var a b u <= mean + sqrt var * b.
Proof.
  intros q Phi mean var a b u H [Hm Hr] Hv Hab Hu. pose proof (sqrt_lt_R0 _ Hv) as Hs.
  unfold generate_truncnorm, rvs, q_truncnorm. pose proof (Hm a b Hab) as Lab. pose proof (Hr a). pose proof (Hr b).
  set (w := Phi a + u * (Phi b - Phi a)).
  assert (Hw : Phi a < w <= Phi b) by (unfold w; split; nra).
  assert (W1 : 0 < w < 1) by lra.
  assert (A : q w <= b) by (apply (H w b W1); lra).
  assert (B : a < q w) by (apply Rnot_le_lt; intros C; apply (H w a W1) in C; lra).
  split; nra.
Qed.
Lemma C78_truncnorm_refuted_holds : exists mean var a b, 0 < var /\ a < b /\
  forall q Phi, follows q Phi -> normal_like Phi -> forall u, 0 < u < 1 -> ~ (a <= generate_truncnorm q Phi mean var a b u <= b).
Proof.
  exists 5, 1, (-1), 1. split; [lra|]. split; [lra|]. intros q Phi H N u Hu.
  pose proof (C78_truncnorm_bounds_holds q Phi 5 1 (-1) 1 u H N ltac:(lra) ltac:(lra) Hu) as B. rewrite sqrt_1 in B. lra.
Qed.
(** inverse Gaussian: the parameter documented as mean is multiplied by the other one *)
Lemma C78_inverse_gaussian_mean_refuted_holds : forall q mu lam, 0 < mu -> 0 < lam -> lam <> 1 ->
  is_RInt_gen (q mu) (at_right 0) (at_left 1) mu ->
  is_RInt_gen (generate_invgauss q mu lam) (at_right 0) (at_left 1) (mu * lam) /\ mu * lam <> mu.
Proof.
  intros q mu lam Hm Hl Hne H. split.
  - apply (is_RInt_gen_ext (fun u => scal lam (q mu u))).
    + apply filter_forall. intros [a b] u _. unfold generate_invgauss, rvs, scal. simpl. unfold mult. simpl. ring.
    + replace (mu * lam) with (scal lam mu) by (unfold scal; simpl; unfold mult; simpl; ring).
      now apply (is_RInt_gen_scal (V := R_NormedModule)).
  - intros E. apply Hne. apply (Rmult_eq_reg_l mu); lra.
Qed.
(** Rice: the sample is the distance of (sigma nu/sqrt 2 + sigma z1, sigma nu/sqrt 2 + sigma z2) from the origin,
    so the centre is at distance sigma nu, not nu *)
Lemma C78_rice_centre_holds : forall nu sigma z1 z2, 0 < sigma ->
  generate_rice nu sigma z1 z2 = sqrt ((sigma * nu / sqrt 2 + sigma * z1) ^ 2 + (sigma * nu / sqrt 2 + sigma * z2) ^ 2).
Proof.
  intros nu sigma z1 z2 H. unfold generate_rice. rewrite Rplus_0_l.
  rewrite <- (sqrt_pow2 sigma) at 1 by lra.
  rewrite <- sqrt_mult_alt by apply pow2_ge_0. f_equal. field. apply Rgt_not_eq, sqrt_lt_R0. lra.
Qed.
Lemma C78_rice_distance_refuted_holds : exists nu sigma, 0 <= nu /\ 0 < sigma /\ generate_rice nu sigma 0 0 <> nu.
Proof.
  exists 1, 2. split; [lra|]. split; [lra|]. unfold generate_rice.
  assert (H2 : 0 < sqrt 2) by (apply sqrt_lt_R0; lra).
  replace ((1 / sqrt 2 + 0) ^ 2 + (1 / sqrt 2 + 0) ^ 2) with 1.
  - rewrite sqrt_1. lra.
  - replace ((1 / sqrt 2 + 0) ^ 2 + (1 / sqrt 2 + 0) ^ 2) with (2 / (sqrt 2 * sqrt 2)) by (field; lra).
    rewrite sqrt_sqrt by lra. field.
Qed.
(** a law is determined: two distribution functions followed by the same sampler coincide *)
Lemma C78_law_is_determined_holds : forall Q F G, follows Q F -> follows Q G ->
  (forall x, 0 <= F x <= 1) -> (forall x, 0 <= G x <= 1) -> forall x, F x = G x.
Proof. exact follows_unique. Qed.
(** the hypotheses on the normal distribution hold, for instance, of the logistic distribution function *)
Lemma C78_nonvacuous_holds : follows q_logistic (logistic_law 0 1) /\ normal_like (logistic_law 0 1) /\
  generate_uniform 2 6 (1 / 4) = 3.
Proof.
  split; [|split].
  - eapply follows_ext; [|exact std_logistic]. intros x. unfold logistic_law. now replace ((x - 0) / 1) with x by field.
  - unfold normal_like, logistic_law. split.
    + intros x y H. apply Rinv_lt_contravar.
      * apply Rmult_lt_0_compat; pose proof (exp_pos (- ((x - 0) / 1))); pose proof (exp_pos (- ((y - 0) / 1))); lra.
      * apply Rplus_lt_compat_l, exp_increasing. lra.
    + intros x. pose proof (exp_pos (- ((x - 0) / 1))). split; [apply Rinv_0_lt_compat; lra|].
      set (e := exp (- ((x - 0) / 1))) in *. assert (/ (1 + e) < / 1) by (apply Rinv_lt_contravar; lra). rewrite Rinv_1 in H0. exact H0.
  - unfold generate_uniform, rvs, q_uniform. lra.
Qed.
