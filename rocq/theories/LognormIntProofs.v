(** The integral statistic and the critical values of log_normal.py. *)
From Coq Require Import String Ranalysis.
From Coquelicot Require Import Coquelicot.
From Verif Require Import Base Analysis DecModel EdfModel GraphModel RegistryModel NormalLaw ExpModel NormModel LognormModel EdfProofs ExpProofs ExpRangeProofs NormProofs NormReflProofs NormFiniteProofs LognormProofs.
From Coq Require Import Lra Lia.
Local Open Scope R_scope.

(** ** the variance of D as a function of r is increasing *)
Definition kl_g (u : R) : R := exp u * (u ^ 2 - 3 * u + 4) - (4 + u).
Lemma kl_expr_g r : kl_expr r = kl_g (r ^ 2).
Proof. unfold kl_expr, kl_g. now replace (r ^ 4) with ((r ^ 2) ^ 2) by ring. Qed.
Lemma kl_g_derive u : is_derive kl_g u (exp u * (u ^ 2 - u + 1) - 1).
Proof. unfold kl_g. auto_derive; trivial. ring. Qed.
Lemma kl_g_mono a b : 0 <= a -> a <= b -> kl_g a <= kl_g b.
Proof.
  intros Ha [H| ->]; [|lra]. destruct (MVT_gen kl_g a b (fun u => exp u * (u ^ 2 - u + 1) - 1)) as (c & Hc & E).
  - intros z _. apply kl_g_derive.
  - intros z _. apply derivable_continuous_pt, ex_derive_Reals_0. eexists. apply kl_g_derive.
  - rewrite Rmin_left, Rmax_right in Hc by lra. assert (0 <= exp c * (c ^ 2 - c + 1) - 1).
    { pose proof (exp_ineq1_le c). assert (0 < c ^ 2 - c + 1) by nra. assert (0 <= c ^ 3) by (apply pow_le; lra). nra. }
    nra.
Qed.
Lemma kl_expr_mono a b : 0 <= a -> a <= b -> kl_expr a <= kl_expr b.
Proof. intros Ha H. rewrite !kl_expr_g. apply kl_g_mono; nra. Qed.
Lemma kl_expr_continuity : continuity kl_expr.
Proof. intros x. apply derivable_continuous_pt, ex_derive_Reals_0. unfold kl_expr. now auto_derive. Qed.
Lemma kl_expr_continuous r : continuous kl_expr r.
Proof. apply continuity_pt_filterlim, kl_expr_continuity. Qed.
(** ** continuity of D *)
Lemma continuous_mean_exp (h : R -> R) w r : continuous (fun q => mean (map (fun v => exp (q * v) * h v) w)) r.
Proof.
  unfold mean. apply (continuous_ext (fun q => Rsum (map (fun v => exp (q * v) * h v) w) * / len w)). { intros q. now rewrite len_map. }
  apply (continuous_mult (fun q => Rsum (map (fun v => exp (q * v) * h v) w)) (fun _ => / len w)); [|apply continuous_const].
  induction w as [|v w IH]; simpl. apply continuous_const.
  apply (continuous_plus (fun q => exp (q * v) * h v) (fun q => Rsum (map (fun v => exp (q * v) * h v) w))); trivial.
  apply (continuous_mult (fun q => exp (q * v)) (fun _ => h v)); [|apply continuous_const].
  apply (ex_derive_continuous (fun q => exp (q * v))). now auto_derive.
Qed.
Lemma continuous_ln_comp (f : R -> R) (x : R) : continuous f x -> 0 < f x -> continuous (fun q => ln (f q)) x.
Proof. intros H P. apply (continuous_comp f ln); trivial. apply (ex_derive_continuous ln). now auto_derive. Qed.
Lemma dlog_continuous w r : w <> [] -> continuous (dlog w) r.
Proof.
  intros H. unfold dlog.
  assert (A : continuous (fun q => mean (map (fun v => exp (q * v)) w)) r).
  { apply (continuous_ext (fun q => mean (map (fun v => exp (q * v) * 1) w))). intros q. f_equal. apply map_ext. intros; ring. apply continuous_mean_exp. }
  pose proof (mean_exp_pos w r H) as P.
  apply (continuous_minus (fun q => 2 * ln (mean (map (fun v => exp (q * v)) w)) - q * mean w)).
  - apply (continuous_minus (fun q => 2 * ln (mean (map (fun v => exp (q * v)) w))) (fun q => q * mean w)).
    + apply (continuous_mult (fun _ => 2) (fun q => ln (mean (map (fun v => exp (q * v)) w)))). apply continuous_const. now apply continuous_ln_comp.
    + apply (continuous_mult (fun q => q) (fun _ => mean w)). apply continuous_id. apply continuous_const.
  - apply (continuous_mult (fun q => q * mean (map (fun v => exp (q * v) * v) w)) (fun q => / mean (map (fun v => exp (q * v)) w))).
    + apply (continuous_mult (fun q => q) (fun q => mean (map (fun v => exp (q * v) * v) w))). apply continuous_id. apply (continuous_mean_exp (fun v => v)).
    + apply (continuous_comp (fun q => mean (map (fun v => exp (q * v)) w)) Rinv); trivial. apply (ex_derive_continuous Rinv). auto_derive. lra.
Qed.
(** ** integrability *)
Lemma threshold : exists t, / 10 ^ 8 <= t <= 5 /\ (forall r, / 10 ^ 8 < r < t -> kl_expr r < / 10 ^ 16) /\ (forall r, t <= r -> / 10 ^ 16 <= kl_expr r).
Proof.
  destruct (Rle_lt_dec (/ 10 ^ 16) (kl_expr (/ 10 ^ 8))) as [h|h].
  - exists (/ 10 ^ 8). split; [lra|]. split; [intros; lra|]. intros r Hr. apply Rle_trans with (1 := h). apply kl_expr_mono; lra.
  - pose proof kl_expr_5 as E5. destruct (IVT_cor (fun r => kl_expr r - / 10 ^ 16) (/ 10 ^ 8) 5) as (t & Ht & E).
    + apply continuity_minus. apply kl_expr_continuity. apply continuity_const. now intros a b.
    + lra.
    + assert (0 < / 10 ^ 16 - kl_expr (/ 10 ^ 8)) by lra. assert (0 < kl_expr 5 - / 10 ^ 16) by lra. nra.
    + exists t. split; trivial. split; [|intros r Hr; pose proof (kl_expr_mono t r ltac:(lra) Hr); lra].
      intros r Hr. destruct (Rle_lt_or_eq_dec (kl_expr r) (kl_expr t)) as [q|q]; [apply kl_expr_mono; lra|lra|]. exfalso.
      destruct (MVT_gen kl_expr r t (fun r => 2 * r * (exp (r ^ 2) * ((r ^ 2) ^ 2 - r ^ 2 + 1) - 1))) as (c & Hc & Ec).
      * intros z _. unfold kl_expr. auto_derive; trivial. simpl. rewrite !Rmult_1_r. ring.
      * intros z _. apply kl_expr_continuity.
      * rewrite Rmin_left, Rmax_right in Hc by lra. assert (0 < c) by lra. set (u := c ^ 2) in *. assert (0 < u) by (unfold u; nra).
        assert (0 < exp u * (u ^ 2 - u + 1) - 1). { pose proof (exp_ineq1_le u). assert (0 < u ^ 2 - u + 1) by nra. assert (0 < u ^ 3) by (apply pow_lt; lra). nra. }
        assert (0 < 2 * c * (exp u * (u ^ 2 - u + 1) - 1)) by (apply Rmult_lt_0_compat; lra). nra.
Qed.
Lemma square_continuous (f : R -> R) x : continuous f x -> continuous (fun q => f q * f q) x.
Proof. intros H. now apply (continuous_mult f f). Qed.
Lemma kl_integrand_right w : w <> [] -> ex_RInt (kl_integrand (map exp w)) 0 5.
Proof.
  intros H. destruct threshold as (t & Ht & T1 & T2).
  assert (P8 : 0 < / 10 ^ 8) by lra.
  apply (ex_RInt_Chasles _ 0 (/ 10 ^ 8)); [|apply (ex_RInt_Chasles _ (/ 10 ^ 8) t)].
  - apply (ex_RInt_ext (fun _ => (clog w / 6) ^ 2)).
    + intros x. rewrite Rmin_left, Rmax_right by lra. intros Hx. unfold kl_integrand. rewrite Rabs_pos_eq by lra. destruct (Rltb_spec x (/ 10 ^ 8)); [|lra]. now rewrite kl_c_log.
    + apply ex_RInt_const.
  - apply (ex_RInt_ext (fun r => (dlog w r / / 10 ^ 8) * (dlog w r / / 10 ^ 8))).
    + intros x. rewrite Rmin_left, Rmax_right by lra. intros Hx. unfold kl_integrand, kl_sigma. rewrite kl_d_log, Rabs_pos_eq by lra. destruct (Rltb_spec x (/ 10 ^ 8)); [lra|].
      destruct (Rltb_spec (kl_expr x) (/ 10 ^ 16)); trivial. pose proof (T1 x Hx). lra.
    + apply (ex_RInt_continuous (V := R_CompleteNormedModule)). intros z _. apply square_continuous. apply (continuous_mult (dlog w) (fun _ => / / 10 ^ 8)). now apply dlog_continuous. apply continuous_const.
  - apply (ex_RInt_ext (fun r => (dlog w r / sqrt (kl_expr r)) * (dlog w r / sqrt (kl_expr r)))).
    + intros x. rewrite Rmin_left, Rmax_right by lra. intros Hx. unfold kl_integrand, kl_sigma. rewrite kl_d_log, Rabs_pos_eq by lra. destruct (Rltb_spec x (/ 10 ^ 8)); [lra|].
      destruct (Rltb_spec (kl_expr x) (/ 10 ^ 16)); trivial. pose proof (T2 x ltac:(lra)). lra.
    + apply (ex_RInt_continuous (V := R_CompleteNormedModule)). intros z. rewrite Rmin_left, Rmax_right by lra. intros Hz. apply square_continuous. apply (continuous_mult (dlog w) (fun r => / sqrt (kl_expr r))). now apply dlog_continuous.
      apply (continuous_comp (fun r => sqrt (kl_expr r)) Rinv).
      * apply (continuous_comp kl_expr sqrt). apply kl_expr_continuous. apply continuous_sqrt.
      * apply (ex_derive_continuous Rinv). auto_derive. pose proof (T2 z ltac:(lra)). pose proof (sqrt_lt_R0 (kl_expr z) ltac:(lra)). lra.
Qed.
Lemma kl_integrand_ex w : w <> [] -> ex_RInt (kl_integrand (map exp w)) (-5) 5.
Proof.
  intros H. apply (ex_RInt_Chasles _ (-5) 0); [|now apply kl_integrand_right].
  assert (H' : map Ropp w <> []) by (destruct w; [easy|discriminate]).
  apply (ex_RInt_ext (fun r => opp (opp (kl_integrand (map exp (map Ropp w)) (- r))))).
  { intros x _. rewrite opp_opp, kl_integrand_opp. now rewrite Ropp_involutive. }
  apply (ex_RInt_opp (fun r => opp (kl_integrand (map exp (map Ropp w)) (- r)))). apply (ex_RInt_comp_opp (kl_integrand (map exp (map Ropp w)))).
  replace (- -5) with 5 by ring. rewrite Ropp_0. apply ex_RInt_swap. now apply kl_integrand_right.
Qed.
Lemma kl_integrand_nonneg y r : 0 <= kl_integrand y r.
Proof. unfold kl_integrand. destruct (Rltb _ _). apply pow2_ge_0. apply Rle_0_sqr. Qed.
Definition kl_int_value (l : list R) : R := len l * RInt (kl_integrand (kl_y l)) (-5) 5.
Lemma kl_int_value_nonneg l : l <> [] -> 0 <= kl_int_value l.
Proof.
  intros H. apply Rmult_le_pos. apply pos_INR. apply RInt_ge_0; [lra| |intros; apply kl_integrand_nonneg]. rewrite kl_y_exp. now apply kl_integrand_ex, scaled_logs_ne.
Qed.
Lemma kl_int_eval l : (forall x, In x l -> 0 < x) -> kl_sigma_hat l <> 0 -> kl_int l = num true (kl_int_value l).
Proof. intros Hp Hs. unfold kl_int. rewrite any_nonpositive_false by trivial. destruct (Reqb_spec (kl_sigma_hat l) 0); easy. Qed.
Lemma power_kl_int_value c b l : 0 < c -> 0 < b -> (forall x, In x l -> 0 < x) -> kl_sigma_hat l <> 0 -> kl_int_value (map (fun x => c * Rpower x b) l) = kl_int_value l.
Proof.
  intros Hc Hb H Hs. unfold kl_int_value. rewrite len_map. f_equal. apply RInt_ext. intros r _. rewrite !kl_y_exp, power_scaled by trivial. apply kl_integrand_shift, scaled_logs_ne, sigma_ne, Hs.
Qed.
Lemma inv_kl_int_value l : l <> [] -> (forall x, In x l -> 0 < x) -> kl_int_value (map Rinv l) = kl_int_value l.
Proof.
  intros Hne H. unfold kl_int_value. rewrite len_map. f_equal. rewrite !kl_y_exp, inv_scaled by trivial. set (w := scaled_logs l).
  assert (Hw : w <> []) by now apply scaled_logs_ne.
  transitivity (RInt (fun r => opp (opp (kl_integrand (map exp w) (- r)))) (-5) 5).
  { apply RInt_ext. intros x _. now rewrite opp_opp, kl_integrand_opp. }
  pose proof (kl_integrand_ex w Hw) as E. assert (E' : ex_RInt (kl_integrand (map exp w)) (- -5) (- (5))) by (replace (- -5) with 5 by ring; now apply ex_RInt_swap).
  rewrite (RInt_opp (fun r => opp (kl_integrand (map exp w) (- r)))) by now apply (ex_RInt_comp_opp (kl_integrand (map exp w))).
  rewrite (is_RInt_unique (fun r => opp (kl_integrand (map exp w) (- r))) (-5) 5 (RInt (kl_integrand (map exp w)) (- -5) (- (5))))
    by (apply (is_RInt_comp_opp (kl_integrand (map exp w))); now apply (RInt_correct (kl_integrand (map exp w)))).
  replace (- -5) with 5 by ring. now rewrite opp_RInt_swap by (now apply ex_RInt_swap).
Qed.
Lemma kl_int_perm l l' : Permutation l l' -> kl_int_value l = kl_int_value l'.
Proof.
  intros P. unfold kl_int_value, len. rewrite (Permutation_length P). f_equal. apply RInt_ext. intros r _. destruct (kl_perm l l' P) as (_ & D & C). unfold kl_integrand. now rewrite D, C.
Qed.
(** ** the critical value for a general level is negative *)
Lemma ln_le_sqrt x : 1 <= x -> ln x <= 2 * (sqrt x - 1).
Proof.
  intros H. assert (0 < sqrt x) by (apply sqrt_lt_R0; lra). rewrite <- (sqrt_sqrt x) at 1 by lra. rewrite ln_mult by trivial.
  pose proof (ln_le_sub1 (sqrt x) H0). lra.
Qed.
Lemma kl_sup_critical_neg n alpha : 1 <= n -> 0.001 <= alpha <= 0.1 ->
  0.48632 - 0.00148063 / alpha - 0.0000699 * n + 0.217752 / sqrt alpha - 2.39217 * sqrt (n / alpha)
  - 0.532872 / (sqrt alpha * n) + 0.179786 * ln (n / alpha) - 0.13083 * ln (alpha * n) < 0.
Proof.
  intros Hn [Ha Hb]. assert (Pa : 0 < alpha) by lra. assert (Sa : 0 < sqrt alpha) by now apply sqrt_lt_R0.
  assert (H1 : 0 <= / alpha) by (left; now apply Rinv_0_lt_compat). assert (H2 : 0 <= / (sqrt alpha * n)) by (left; apply Rinv_0_lt_compat; nra).
  assert (Q : 10 <= n / alpha). { apply (Rmult_le_reg_r alpha); trivial. unfold Rdiv. rewrite Rmult_assoc, Rinv_l by lra. lra. }
  assert (S1 : / sqrt alpha <= sqrt (n / alpha)).
  { rewrite sqrt_div_alt by trivial. unfold Rdiv. rewrite <- (Rmult_1_l (/ sqrt alpha)) at 1. apply Rmult_le_compat_r. left; now apply Rinv_0_lt_compat. rewrite <- sqrt_1. apply sqrt_le_1_alt. lra. }
  pose proof (ln_le_sqrt (n / alpha) ltac:(lra)) as L.
  assert (L2 : - ln (alpha * n) <= ln (n / alpha)).
  { rewrite ln_mult, ln_div by lra. assert (0 <= ln n). { rewrite <- ln_1. destruct Hn as [h| <-]; [left; apply ln_increasing; lra|lra]. } lra. }
  unfold Rdiv in *. set (s := sqrt (n * / alpha)) in *. set (i := / sqrt alpha) in *. set (j := / (sqrt alpha * n)) in *. set (k := / alpha) in *. set (a := ln (n * k)) in *. set (c := ln (alpha * n)) in *.
  assert (0 <= s) by apply sqrt_pos. clearbody s i j k a c. lra.
Qed.
