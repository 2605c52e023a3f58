(** Lemmas about WeibullModel.v. *)
From Coq Require Import String.
From Verif Require Import Base DecModel EdfModel EdfSpec GraphModel RegistryModel ExpModel NormModel WeibullModel WeibullSpec Analysis EdfProofs EdfPowerProofs NormProofs NormRangeProofs NormFiniteProofs GammaProofs.
From Verif Require SamplerModel.
From Coq Require Import Lra Lia Psatz Ranalysis.
From Coquelicot Require Import Coquelicot.
Local Open Scope R_scope.

(** *** the distribution function *)
Lemma weibull_cdf_pos a k x : 0 < x -> weibull_cdf a k x = Rpower (1 - exp (- Rpower x k)) a.
Proof. intros H. unfold weibull_cdf, SamplerModel.generate_weibull_cdf. destruct (Rleb_spec x 0); [lra|reflexivity]. Qed.
Lemma weibull_cdf_neg a k x : x <= 0 -> weibull_cdf a k x = 0.
Proof. intros H. unfold weibull_cdf, SamplerModel.generate_weibull_cdf. destruct (Rleb_spec x 0); [reflexivity|lra]. Qed.
Lemma Rpower_pos x y : 0 < Rpower x y. Proof. apply exp_pos. Qed.
Lemma Rpower_lt_base x y k : 0 < k -> 0 < x -> x < y -> Rpower x k < Rpower y k.
Proof. intros Hk Hx Hxy. unfold Rpower. apply exp_increasing. apply Rmult_lt_compat_l; trivial. apply ln_increasing; trivial. Qed.
Lemma base_range x k : 0 < 1 - exp (- Rpower x k) < 1.
Proof.
  pose proof (exp_pos (- Rpower x k)). pose proof (Rpower_pos x k). assert (exp (- Rpower x k) < exp 0) by (apply exp_increasing; lra).
  rewrite exp_0 in *. lra.
Qed.
Lemma Rpower_range b a : 0 < a -> 0 < b < 1 -> 0 < Rpower b a < 1.
Proof.
  intros Ha Hb. split; [apply Rpower_pos|]. unfold Rpower. rewrite <- exp_0. apply exp_increasing.
  assert (ln b < 0) by (rewrite <- ln_1; apply ln_increasing; lra). nra.
Qed.
Lemma weibull_inside a k x : 0 < a -> 0 < x -> 0 < weibull_cdf a k x < 1.
Proof. intros Ha Hx. rewrite weibull_cdf_pos by trivial. apply Rpower_range; trivial. apply base_range. Qed.
Lemma weibull_bounds a k x : 0 < a -> 0 <= weibull_cdf a k x <= 1.
Proof.
  intros Ha. destruct (Rle_lt_dec x 0) as [H|H]; [rewrite weibull_cdf_neg by trivial; lra|].
  pose proof (weibull_inside a k x Ha H). lra.
Qed.
Lemma weibull_strict a k x y : 0 < a -> 0 < k -> 0 <= x -> x < y -> weibull_cdf a k x < weibull_cdf a k y.
Proof.
  intros Ha Hk Hx Hxy. destruct (Req_dec x 0) as [-> |N].
  - rewrite weibull_cdf_neg by lra. apply weibull_inside; lra.
  - rewrite !weibull_cdf_pos by lra. apply Rpower_lt_base; trivial; [apply base_range|].
    assert (exp (- Rpower y k) < exp (- Rpower x k)); [|lra]. apply exp_increasing. pose proof (Rpower_lt_base x y k Hk ltac:(lra) Hxy). lra.
Qed.
Lemma weibull_mono a k x y : 0 < a -> 0 < k -> x <= y -> weibull_cdf a k x <= weibull_cdf a k y.
Proof.
  intros Ha Hk Hxy. destruct (Rle_lt_dec x 0) as [H|H]; [rewrite weibull_cdf_neg by trivial; apply weibull_bounds, Ha|].
  destruct (Req_dec x y) as [-> |N]; [lra|]. left. apply weibull_strict; lra.
Qed.
Lemma weibull_le_power a k x : 0 < a -> 0 < x -> weibull_cdf a k x <= Rpower x (k * a).
Proof.
  intros Ha Hx. rewrite weibull_cdf_pos by trivial. rewrite <- Rpower_mult. pose proof (base_range x k) as B. apply Rle_Rpower_l; [lra|].
  split; [lra|]. pose proof (exp_ineq1_le (- Rpower x k)). lra.
Qed.
Lemma weibull_continuous a k : 0 < a -> 0 < k -> continuity (weibull_cdf a k).
Proof.
  intros Ha Hk x. apply continuity_pt_filterlim. destruct (Rtotal_order x 0) as [H|[H|H]].
  - apply (continuous_ext_loc (weibull_cdf a k) (fun _ => 0)).
    + exists (mkposreal (- x) ltac:(lra)). intros y Hy. unfold ball in Hy. cbn in Hy. unfold AbsRing_ball, abs, minus, plus, opp in Hy. cbn in Hy.
      apply Rabs_def2 in Hy. symmetry. apply weibull_cdf_neg. lra.
    + apply continuous_const.
  - subst x. intros P (eps & HP). unfold filtermap. assert (W0 : weibull_cdf a k 0 = 0) by (apply weibull_cdf_neg; lra).
    assert (Hka : 0 < k * a) by nra. pose proof (Rpower_pos (eps / 2) (/ (k * a))) as Hd. pose proof (cond_pos eps) as He.
    exists (mkposreal _ Hd). intros y Hy. apply HP. rewrite W0. unfold ball in *. cbn in *. unfold AbsRing_ball, abs, minus, plus, opp in *. cbn in *.
    rewrite Ropp_0, Rplus_0_r in *. apply Rabs_def2 in Hy. rewrite Rabs_pos_eq by apply weibull_bounds, Ha.
    destruct (Rle_lt_dec y 0) as [G|G]; [rewrite weibull_cdf_neg by trivial; trivial|].
    apply Rle_lt_trans with (1 := weibull_le_power a k y Ha G).
    apply Rlt_le_trans with (Rpower (Rpower (eps / 2) (/ (k * a))) (k * a)); [apply Rpower_lt_base; lra|].
    rewrite Rpower_mult, Rinv_l, Rpower_1; lra.
  - apply (continuous_ext_loc (weibull_cdf a k) (fun x => Rpower (1 - exp (- Rpower x k)) a)).
    + exists (mkposreal x H). intros y Hy. unfold ball in Hy. cbn in Hy. unfold AbsRing_ball, abs, minus, plus, opp in Hy. cbn in Hy.
      apply Rabs_def2 in Hy. symmetry. apply weibull_cdf_pos. lra.
    + apply (ex_derive_continuous (fun x => Rpower (1 - exp (- Rpower x k)) a)). unfold Rpower. auto_derive.
      pose proof (base_range x k) as B. unfold Rpower in B. split; [exact H|]. split; [lra|trivial].
Qed.
Lemma weibull_is_cdf a k : 0 < a -> 0 < k -> continuous_cdf (weibull_cdf a k).
Proof. intros Ha Hk. split; [|split]; [intros; now apply weibull_mono|intros; now apply weibull_bounds|now apply weibull_continuous]. Qed.
Lemma weibull_power a k c x : 0 < c -> 0 < x -> weibull_cdf a (k / c) (Rpower x c) = weibull_cdf a k x.
Proof. intros Hc Hx. rewrite !weibull_cdf_pos by (trivial; apply Rpower_pos). rewrite Rpower_mult. do 5 f_equal. field. lra. Qed.

(** *** positive samples and their logarithms *)
Lemma all_pos_iff l : all_pos l = true <-> all_positive l.
Proof. unfold all_pos. rewrite forallb_forall. split; intros H x Hx; specialize (H x Hx); now apply Rltb_true. Qed.
Lemma all_positive_rsort l : all_positive l -> all_positive (rsort l).
Proof. intros H x Hx. apply H. now apply rsort_in. Qed.
Lemma powered_positive c b l : 0 < c -> all_positive (powered c b l).
Proof. intros Hc x Hx. apply in_map_iff in Hx as (y & <- & _). pose proof (Rpower_pos y b). nra. Qed.
Lemma ln_powered c b l : 0 < c -> map ln (powered c b l) = aff (ln c) b (map ln l).
Proof.
  intros Hc. unfold powered, aff. rewrite !map_map. apply map_ext. intros x. rewrite ln_mult by (trivial; apply Rpower_pos).
  unfold Rpower. now rewrite ln_exp.
Qed.
Lemma powered_length c b l : length (powered c b l) = length l. Proof. apply map_length. Qed.
Lemma powered_len c b l : len (powered c b l) = len l. Proof. unfold len. now rewrite powered_length. Qed.
Lemma sorted_ln l : all_positive l -> sortedR l -> sortedR (map ln l).
Proof.
  intros P. induction 1 as [|x l Hs IH Hf]; [constructor|]. cbn [map]. constructor; [apply IH; intros y Hy; apply P; now right|].
  rewrite Forall_forall in *. intros y Hy. apply in_map_iff in Hy as (z & <- & Hz). apply ln_le; [apply P; now left|now apply Hf].
Qed.
Lemma ln_sorted l : all_positive l -> rsort (map ln l) = map ln (rsort l).
Proof.
  intros H. rewrite <- (rsort_id (map ln (rsort l))) by (apply sorted_ln; [now apply all_positive_rsort|apply rsort_sorted]).
  apply rsort_perm_eq, Permutation_map. symmetry. apply rsort_perm.
Qed.
Lemma nodup_ln l : all_positive l -> NoDup l -> NoDup (map ln l).
Proof.
  intros P. induction 1 as [|x l Hx Hd IH]; [constructor|]. cbn [map]. constructor.
  - intros H. apply in_map_iff in H as (y & E & Hy). apply ln_inv in E; [subst; contradiction| |]; apply P; [now right|now left].
  - apply IH. intros y Hy. apply P. now right.
Qed.
