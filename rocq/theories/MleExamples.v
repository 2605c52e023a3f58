(** Samples and fits that meet the hypotheses of the likelihood theorems. *)
From Coq Require Import ZArith String.
From Verif Require Import Base NormModel MleModel MleSpec Analysis EdfProofs ExpRangeProofs MleProofs MleMoreProofs MleFitProofs.
From Coquelicot Require Import Coquelicot.
From Coq Require Import Lra Lia.
Local Open Scope R_scope.

(** *** Cauchy *)
Lemma cauchy_pair m s : 0 < s -> likelihood (cauchy_pdf m s) [-1; 1] <= likelihood (cauchy_pdf 0 1) [-1; 1].
Proof.
  intros Hs. pose proof PI_RGT_0. cbn [likelihood fold_right]. unfold cauchy_pdf.
  assert (Q : forall x, 1 / (PI * s * (1 + ((x - m) / s) ^ 2)) = s / PI * / (s ^ 2 + (x - m) ^ 2)).
  { intros x. pose proof (pow2_ge_0 (x - m)). assert (0 < s ^ 2) by (apply pow_lt; lra). field. repeat split; try lra; nra. }
  rewrite !Q. assert (A : 0 < s ^ 2 + (-1 - m) ^ 2) by (pose proof (pow2_ge_0 (-1 - m)); pose proof (pow_lt s 2 Hs); lra).
  assert (B : 0 < s ^ 2 + (1 - m) ^ 2) by (pose proof (pow2_ge_0 (1 - m)); pose proof (pow_lt s 2 Hs); lra).
  replace (1 / (PI * 1 * (1 + ((-1 - 0) / 1) ^ 2)) * (1 / (PI * 1 * (1 + ((1 - 0) / 1) ^ 2)) * 1)) with (/ PI ^ 2 * / 4) by (field; lra).
  replace (s / PI * / (s ^ 2 + (-1 - m) ^ 2) * (s / PI * / (s ^ 2 + (1 - m) ^ 2) * 1)) with (/ PI ^ 2 * (s ^ 2 * / ((s ^ 2 + (-1 - m) ^ 2) * (s ^ 2 + (1 - m) ^ 2)))) by (field; repeat split; lra).
  apply Rmult_le_compat_l; [left; apply Rinv_0_lt_compat, pow_lt; lra|].
  set (p := s ^ 2 + (-1 - m) ^ 2) in *. set (q := s ^ 2 + (1 - m) ^ 2) in *. assert (0 < p * q) by (now apply Rmult_lt_0_compat).
  apply (Rmult_le_reg_r (4 * (p * q))); [lra|]. replace (s ^ 2 * / (p * q) * (4 * (p * q))) with (4 * s ^ 2) by (field; split; lra). replace (/ 4 * (4 * (p * q))) with (p * q) by field.
  unfold p, q. replace ((s ^ 2 + (-1 - m) ^ 2) * (s ^ 2 + (1 - m) ^ 2)) with (4 * s ^ 2 + (s ^ 2 - (1 - m) * (1 + m)) ^ 2) by ring. pose proof (pow2_ge_0 (s ^ 2 - (1 - m) * (1 + m))). lra.
Qed.
Lemma cauchy_attained : attains (fun p : R * R => 0 < snd p) (fun p => likelihood (cauchy_pdf (fst p) (snd p)) [-1; 1]) (0, 1).
Proof. split; [cbn; lra|]. intros (m, s) Hs. cbn [fst snd] in *. now apply cauchy_pair. Qed.
Lemma location_scale_cauchy m s x : 0 < s -> location_scale (cauchy_pdf 0 1) m s x = cauchy_pdf m s x.
Proof.
  intros Hs. unfold location_scale, cauchy_pdf. pose proof PI_RGT_0. pose proof (pow2_ge_0 ((x - m) / s)). replace (((x - m) / s - 0) / 1) with ((x - m) / s) by (field; lra).
  set (q := ((x - m) / s) ^ 2) in *. field. lra.
Qed.
(** *** a two-parameter family of the Student kind and one of the Fisher kind *)
Definition t_like (df x : R) : R := if Reqb df 1 then cauchy_pdf 0 1 x else 0.
Lemma t_like_nonneg df x : 0 <= t_like df x.
Proof. unfold t_like. destruct (Reqb df 1); [left; apply cauchy_pdf_pos; lra|lra]. Qed.
Lemma t_attained : attains (fun p : R * R * R => 0 < fst (fst p) /\ 0 < snd p) (fun p => likelihood (location_scale (t_like (fst (fst p))) (snd (fst p)) (snd p)) [-1; 1]) (1, 0, 1).
Proof.
  split; [cbn; lra|]. intros ((df, m), s) (Hd & Hs). cbn [fst snd] in *.
  assert (E : forall m s, 0 < s -> likelihood (location_scale (t_like 1) m s) [-1; 1] = likelihood (cauchy_pdf m s) [-1; 1]).
  { intros m' s' H'. apply lik_ext. intros x _. rewrite <- location_scale_cauchy by trivial. unfold location_scale, t_like. now rewrite (proj2 (Reqb_true 1 1) eq_refl). }
  rewrite (E 0 1) by lra. destruct (Req_dec df 1) as [->|N]; [rewrite E by trivial; now apply cauchy_pair|].
  rewrite (lik_zero _ _ 1); [apply lik_nonneg; intros; left; apply cauchy_pdf_pos; lra|simpl; auto|]. unfold location_scale, t_like. rewrite (proj2 (Reqb_false df 1) N). unfold Rdiv. ring.
Qed.
Lemma location_scale_exponential s x : 0 < s -> location_scale (exponential_pdf 1) 0 s x = exponential_pdf (/ s) x.
Proof.
  intros Hs. unfold location_scale, exponential_pdf. rewrite Rminus_0_r. assert (0 < / s) by (now apply Rinv_0_lt_compat).
  replace (Rleb 0 (x / s)) with (Rleb 0 x) by (destruct (Rleb_spec 0 x), (Rleb_spec 0 (x / s)); trivial; unfold Rdiv in *; nra).
  destruct (Rleb 0 x); [|field; lra]. replace (- (1) * (x / s)) with (- / s * x) by (field; lra). field. lra.
Qed.
Definition f_like (d1 d2 x : R) : R := exponential_pdf 1 x.
Lemma f_attained : exists s, attains (fun p : R * R * R => 0 < fst (fst p) /\ 0 < snd (fst p) /\ 0 < snd p) (fun p => likelihood (location_scale (f_like (fst (fst p)) (snd (fst p))) 0 (snd p)) [1; 2]) (1, 1, s).
Proof.
  destruct (exponential_opt KFloat [1; 2]) as (v & _ & ((r & Hr & Er) & M)); [intros x [<-|[<-|[]]]; lra|exists 1; simpl; split; [auto|lra]|].
  exists (/ r). assert (Ir : 0 < / r) by (now apply Rinv_0_lt_compat). split; [cbn; lra|]. intros ((d1, d2), s) (_ & _ & Hs). cbn [fst snd] in *. unfold f_like.
  rewrite (lik_ext (location_scale (exponential_pdf 1) 0 s) (exponential_pdf (/ s))) by (intros; now apply location_scale_exponential).
  rewrite (lik_ext (location_scale (exponential_pdf 1) 0 (/ r)) (exponential_pdf (/ / r))) by (intros; now apply location_scale_exponential).
  rewrite Rinv_inv, Er. apply M. now apply Rinv_0_lt_compat.
Qed.
(** *** gamma and beta shapes with an artificial normalising function *)
Definition gamma_like_norm (a : R) : R := exp ((a - 1) * (ln 2 / 2) - a + a * ln a - a * ln (3/2)).
Lemma gamma_attained : attains (fun p : R * R => 0 < fst p /\ 0 < snd p) (fun p => likelihood (gamma_pdf gamma_like_norm (fst p) (snd p)) [1; 2]) (1, (3/2)).
Proof.
  assert (Lg : forall a s, 0 < a -> 0 < s -> likelihood (gamma_pdf gamma_like_norm a s) [1; 2] = exp (2 * (a * ln ((3/2) / a) + a - a * ln s - (3/2) / s))).
  { intros a s Ha Hs. rewrite lik_exp.
    - f_equal. cbn [map Rsum]. unfold gamma_pdf. rewrite !(proj2 (Rltb_true 0 _)) by lra. assert (0 < gamma_like_norm a * s) by (apply Rmult_lt_0_compat; [apply exp_pos|trivial]).
      rewrite !ln_quot by (trivial; apply Rmult_lt_0_compat; apply exp_pos). rewrite !ln_mult by (trivial; apply exp_pos). unfold Rpower, gamma_like_norm. rewrite !ln_exp, !ln_quot, ln_1 by lra. field. lra.
    - intros x [<-|[<-|[]]]; unfold gamma_pdf; rewrite (proj2 (Rltb_true 0 _)) by lra; (apply Rdiv_lt_0_compat; [apply Rmult_lt_0_compat; apply exp_pos|apply Rmult_lt_0_compat; [apply exp_pos|trivial]]). }
  split; [cbn; lra|]. intros (a, s) (Ha & Hs). cbn [fst snd] in *. rewrite !Lg by lra. apply exp_mono. replace ((3/2) / 1) with (3/2) by field. replace ((3/2) / (3/2)) with 1 by field.
  assert (0 < (3/2) / s) by (apply Rdiv_lt_0_compat; lra). assert (0 < (3/2) / a) by (apply Rdiv_lt_0_compat; lra). pose proof (ln_ratio_le ((3/2) / s) a H Ha) as K. rewrite !ln_quot in * by lra.
  assert (a * ((3/2) / s / a) = (3/2) / s) by (field; lra). nra.
Qed.
Definition beta_like_norm (a : R) : R := if Reqb a 1 then / 8 else 1.
Lemma beta_like_pos a : 0 < beta_like_norm a. Proof. unfold beta_like_norm. destruct (Reqb a 1); lra. Qed.
Lemma beta_like_ratio a b : a <> 1 \/ b <> 1 -> 0 <= beta_like_norm (a + b) / (beta_like_norm a * beta_like_norm b) <= 8.
Proof.
  intros N. unfold beta_like_norm. destruct (Reqb_spec a 1), (Reqb_spec b 1), (Reqb_spec (a + b) 1); try (exfalso; destruct N; contradiction); lra.
Qed.
Lemma beta_attained : attains (fun p : R * R => 0 < fst p /\ 0 < snd p) (fun p => likelihood (beta_pdf beta_like_norm (fst p) (snd p)) [1/2; 1/4]) (1, 1).
Proof.
  split; [cbn; lra|]. intros (a, b) (Ha & Hb). cbn [fst snd] in *.
  assert (E : forall x, 0 < x < 1 -> beta_pdf beta_like_norm 1 1 x = 64).
  { intros x Hx. unfold beta_pdf. rewrite (proj2 (Rltb_true 0 x)), (proj2 (Rltb_true x 1)) by lra. cbn [andb]. replace (1 - 1) with 0 by ring. rewrite !Rpower_O by lra.
    unfold beta_like_norm. rewrite (proj2 (Reqb_true 1 1) eq_refl), (proj2 (Reqb_false (1 + 1) 1)) by lra. field. }
  assert (P : forall x c, 0 < x <= 1 -> 0 < c -> 0 < Rpower x (c - 1) <= / x).
  { intros x c Hx Hc. split; [apply exp_pos|]. unfold Rpower. rewrite <- (exp_ln (/ x)) by (apply Rinv_0_lt_compat; lra). apply exp_mono. rewrite ln_Rinv by lra. assert (ln x <= 0) by (rewrite <- ln_1; apply ln_le; lra). nra. }
  assert (B : forall x, 1/4 <= x <= 1/2 -> 0 <= beta_pdf beta_like_norm a b x <= 64).
  { intros x Hx. destruct (Req_dec a 1) as [Ea|Na]; [destruct (Req_dec b 1) as [Eb|Nb]; [subst; rewrite E by lra; lra|]|].
    all: assert (K : 0 <= beta_like_norm (a + b) / (beta_like_norm a * beta_like_norm b) <= 8) by (apply beta_like_ratio; auto).
    all: unfold beta_pdf; rewrite (proj2 (Rltb_true 0 x)), (proj2 (Rltb_true x 1)) by lra; cbn [andb].
    all: pose proof (P x a ltac:(lra) Ha) as P1; pose proof (P (1 - x) b ltac:(lra) Hb) as P2.
    all: assert (I1 : / x <= 4) by (replace 4 with (/ (1/4)) by field; apply Rinv_le_contravar; lra); assert (I2 : / (1 - x) <= 2) by (replace 2 with (/ (1/2)) by field; apply Rinv_le_contravar; lra).
    all: set (k := beta_like_norm (a + b) / (beta_like_norm a * beta_like_norm b)) in *; set (u := Rpower x (a - 1)) in *; set (w := Rpower (1 - x) (b - 1)) in *.
    all: assert (0 <= k * u <= 32) by (split; [apply Rmult_le_pos; lra|nra]); split; [apply Rmult_le_pos; lra|nra]. }
  cbn [likelihood fold_right]. rewrite !E by lra. pose proof (B (1/2) ltac:(lra)). pose proof (B (1/4) ltac:(lra)). nra.
Qed.
(** *** Wigner: the sample -1, 1 has the optimum sqrt 2 *)
Lemma wigner_attained : attains (fun r => 0 < r) (fun r => likelihood (wigner_pdf r) [1; - (1)]) (sqrt 2).
Proof.
  assert (S2 : sqrt 2 * sqrt 2 = 2) by (apply sqrt_sqrt; lra). assert (S0 : 1 < sqrt 2) by (rewrite <- sqrt_1; apply sqrt_lt_1; lra). pose proof PI_RGT_0.
  split; [lra|]. intros r Hr. rewrite (wigner_pair 1 (sqrt 2)) by lra. replace (sqrt 2 ^ 2) with 2 by (simpl; rewrite Rmult_1_r; lra).
  assert (PP : 0 < (2 / PI) ^ 2) by (apply pow_lt, Rdiv_lt_0_compat; lra).
  destruct (Rlt_dec 1 r) as [H1|H1].
  - rewrite wigner_pair by lra. apply Rmult_le_compat_l; [lra|]. assert (0 < r ^ 2) by nra. apply (Rmult_le_reg_r (4 * (r ^ 2) ^ 2)); [nra|].
    replace ((r ^ 2 - 1 ^ 2) / (r ^ 2) ^ 2 * (4 * (r ^ 2) ^ 2)) with (4 * (r ^ 2 - 1)) by (field; lra). replace ((2 - 1 ^ 2) / 2 ^ 2 * (4 * (r ^ 2) ^ 2)) with ((r ^ 2) ^ 2) by field. pose proof (pow2_ge_0 (r ^ 2 - 2)). lra.
  - rewrite (lik_zero _ _ 1); [|simpl; auto|].
    + apply Rmult_le_pos; lra.
    + unfold wigner_pdf. rewrite Rabs_R1. destruct (Rleb_spec 1 r); [|reflexivity]. replace r with 1 by lra. replace (1 ^ 2 - 1 ^ 2) with 0 by ring. rewrite sqrt_0. ring.
Qed.
(** *** a function with the functional equation of Gamma, and a sample whose two-parameter chi-square fit is exact *)
Fixpoint gseq (n : nat) (x : R) : R :=
  if Rleb x 2 then (if Rleb x 1 then 1 / x else 1)
  else match n with 0%nat => 1 | S n' => (x - 1) * gseq n' (x - 1) end.
Definition stairs_gamma (x : R) : R := gseq (Z.to_nat (up x)) x.
Lemma gseq_fuel n m x : x <= INR n + 2 -> x <= INR m + 2 -> gseq n x = gseq m x.
Proof.
  revert m x. induction n as [|n IH]; intros m x H1 H2.
  - simpl in H1. destruct m; cbn [gseq]; rewrite (proj2 (Rleb_true x 2)) by lra; reflexivity.
  - destruct m as [|m]; [simpl in H2; cbn [gseq]; rewrite (proj2 (Rleb_true x 2)) by lra; reflexivity|]. cbn [gseq]. rewrite S_INR in H1, H2. rewrite (IH m) by lra. reflexivity.
Qed.
Lemma up_fuel x : 0 < x -> x <= INR (Z.to_nat (up x)) + 2.
Proof.
  intros Hx. destruct (archimed x) as (A & B). assert (0 <= up x)%Z by (apply le_IZR; lra). rewrite INR_IZR_INZ, Z2Nat.id by trivial. lra.
Qed.
Lemma stairs_pos x : 0 < x -> 0 < stairs_gamma x.
Proof.
  unfold stairs_gamma. generalize (Z.to_nat (up x)) as n. intros n. revert x. induction n as [|n IH]; intros x Hx; cbn [gseq].
  - destruct (Rleb_spec x 2), (Rleb_spec x 1); try lra; apply Rdiv_lt_0_compat; lra.
  - destruct (Rleb_spec x 2).
    + destruct (Rleb_spec x 1); [apply Rdiv_lt_0_compat; lra|lra].
    + apply Rmult_lt_0_compat; [lra|]. apply IH. lra.
Qed.
Lemma stairs_low x : 0 < x <= 1 -> stairs_gamma x = 1 / x.
Proof. intros Hx. unfold stairs_gamma. destruct (Z.to_nat (up x)); cbn [gseq]; rewrite (proj2 (Rleb_true x 2)), (proj2 (Rleb_true x 1)) by lra; reflexivity. Qed.
Lemma stairs_mid x : 1 < x <= 2 -> stairs_gamma x = 1.
Proof. intros Hx. unfold stairs_gamma. destruct (Z.to_nat (up x)); cbn [gseq]; rewrite (proj2 (Rleb_true x 2)), (proj2 (Rleb_false x 1)) by lra; reflexivity. Qed.
Lemma stairs_gamma_like : gamma_like stairs_gamma.
Proof.
  split; [apply stairs_pos|]. intros x Hx. destruct (Rle_dec x 1) as [H1|H1].
  - rewrite (stairs_low x), (stairs_mid (x + 1)) by lra. field. lra.
  - unfold stairs_gamma at 1. rewrite (gseq_fuel _ (S (Z.to_nat (up x)))).
    + cbn [gseq]. rewrite (proj2 (Rleb_false (x + 1) 2)) by lra. replace (x + 1 - 1) with x by ring. reflexivity.
    + apply up_fuel. lra.
    + pose proof (up_fuel x Hx). rewrite S_INR. lra.
Qed.
(** the profile of the gamma likelihood in the shape [a], per observation *)
Definition shape_profile (a : R) : R := - a * (2 - ln 2) + a * ln a - a - ln (stairs_gamma a).
Lemma profile_low a : 0 < a <= 1 -> shape_profile a = - a * (2 - ln 2) + a * ln a - a + ln a.
Proof. intros Ha. unfold shape_profile. rewrite stairs_low by trivial. unfold Rdiv. rewrite Rmult_1_l, ln_Rinv by lra. ring. Qed.
Lemma ln2_bounds : 1 / 2 <= ln 2 <= 1.
Proof.
  pose proof (ln_le_sub1 2 ltac:(lra)). pose proof (ln_le_sub1 (/ 2) ltac:(lra)) as K. rewrite ln_Rinv in K by lra. lra.
Qed.
Lemma profile_deriv a : 0 < a -> derivable_pt_lim (fun a => - a * (2 - ln 2) + a * ln a - a + ln a) a (ln a + / a - (2 - ln 2)).
Proof.
  intros Ha. replace (ln a + / a - (2 - ln 2)) with ((- (1) * (2 - ln 2) + (- a) * 0) + (1 * ln a + a * / a) - 1 + / a) by (field; lra).
  apply (derivable_pt_lim_plus (fun a => - a * (2 - ln 2) + a * ln a - a) ln); [|now apply derivable_pt_lim_ln].
  apply (derivable_pt_lim_minus (fun a => - a * (2 - ln 2) + a * ln a) (fun a => a)); [|apply derivable_pt_lim_id].
  apply (derivable_pt_lim_plus (fun a => - a * (2 - ln 2)) (fun a => a * ln a)).
  - apply (derivable_pt_lim_mult (fun a => - a) (fun _ => 2 - ln 2)); [apply (derivable_pt_lim_opp (fun a => a)), derivable_pt_lim_id|apply derivable_pt_lim_const].
  - apply (derivable_pt_lim_mult (fun a => a) ln); [apply derivable_pt_lim_id|now apply derivable_pt_lim_ln].
Qed.
Lemma profile_low_max a : 0 < a <= 1 -> shape_profile a <= shape_profile (1/2).
Proof.
  intros Ha. rewrite !profile_low by lra. pose proof ln2_bounds as L2. set (h := fun a => - a * (2 - ln 2) + a * ln a - a + ln a).
  destruct (Rle_dec a (1/2)) as [H|H].
  - apply (derive_nonneg_le h (fun a => ln a + / a - (2 - ln 2)) a (1/2)); [lra|intros c Hc; apply is_derive_Reals, profile_deriv; lra|].
    intros c Hc. pose proof (ln_le_sub1 (1 / (2 * c)) ltac:(apply Rdiv_lt_0_compat; lra)) as K. rewrite ln_quot, ln_1, ln_mult in K by lra.
    assert (Ic : 2 <= / c) by (replace 2 with (/ (1/2)) by field; apply Rinv_le_contravar; lra). replace (1 / (2 * c)) with (/ c / 2) in K by (field; lra). lra.
  - apply Ropp_le_cancel. apply (derive_nonneg_le (fun a => - h a) (fun a => - (ln a + / a - (2 - ln 2))) (1/2) a); [lra|intros c Hc; apply is_derive_Reals, (derivable_pt_lim_opp h), profile_deriv; lra|].
    intros c Hc. pose proof (ln_le_sub1 (2 * c) ltac:(lra)) as K. rewrite ln_mult in K by lra.
    assert (/ c <= 3 - 2 * c); [|lra]. apply (Rmult_le_reg_r c); [lra|]. rewrite Rinv_l by lra. nra.
Qed.
Lemma profile_step a : 1 <= a -> shape_profile (a + 1) <= shape_profile a.
Proof.
  intros Ha. unfold shape_profile. destruct stairs_gamma_like as (HP & HF). rewrite HF by lra. rewrite ln_mult by (try apply HP; lra). pose proof ln2_bounds.
  pose proof (ln_ratio_le (a + 1) a ltac:(lra) ltac:(lra)) as K. replace ((a + 1) / a - 1) with (/ a) in K by (field; lra).
  assert ((a + 1) * (ln (a + 1) - ln a) <= (a + 1) * / a) by (apply Rmult_le_compat_l; lra). replace ((a + 1) * / a) with (1 + / a) in H0 by (field; lra).
  assert (/ a <= 1) by (rewrite <- Rinv_1; apply Rinv_le_contravar; lra). nra.
Qed.
Lemma profile_mid a : 1 <= a <= 2 -> shape_profile a <= shape_profile 1.
Proof.
  intros Ha. assert (E : forall a, 1 <= a <= 2 -> shape_profile a = - a * (2 - ln 2) + a * ln a - a).
  { intros b Hb. unfold shape_profile. destruct (Req_dec b 1) as [->|N]; [rewrite stairs_low by lra; rewrite (ltac:(field) : 1 / 1 = 1), ln_1; ring|]. rewrite stairs_mid by lra. rewrite ln_1. ring. }
  rewrite !E by lra. rewrite ln_1. pose proof ln2_bounds. assert (ln a <= ln 2) by (apply ln_le; lra).
  pose proof (ln_le_sub1 a ltac:(lra)). nra.
Qed.
Lemma profile_high n a : 1 <= a <= 2 + INR n -> shape_profile a <= shape_profile 1.
Proof.
  revert a. induction n as [|n IH]; intros a Ha; [apply profile_mid; simpl in Ha; lra|]. destruct (Rle_dec a 2) as [H|H]; [apply profile_mid; lra|].
  replace a with (a - 1 + 1) by ring. refine (Rle_trans _ _ _ (profile_step (a - 1) ltac:(lra)) (IH (a - 1) _)). rewrite S_INR in Ha. lra.
Qed.
Lemma profile_max a : 0 < a -> shape_profile a <= shape_profile (1/2).
Proof.
  intros Ha. destruct (Rle_dec a 1) as [H|H]; [apply profile_low_max; lra|]. refine (Rle_trans _ _ _ (profile_high (Z.to_nat (up a)) a _) (profile_low_max 1 ltac:(lra))). pose proof (up_fuel a Ha). lra.
Qed.
(** u + 1/u = e^2 *)
Definition cu : R := (exp 2 + sqrt (exp 2 * exp 2 - 4)) / 2.
Lemma exp2_big : 4 <= exp 2.
Proof.
  replace 2 with (1 + 1) by ring. rewrite exp_plus. assert (2 <= exp 1) by (pose proof (exp_ineq1 1 ltac:(lra)); lra). nra.
Qed.
Lemma cu_pos : 0 < cu. Proof. unfold cu. pose proof exp2_big. pose proof (sqrt_pos (exp 2 * exp 2 - 4)). lra. Qed.
Lemma cu_eq : cu + / cu = exp 2.
Proof.
  pose proof cu_pos as P. pose proof exp2_big. assert (Q : cu * cu + 1 = exp 2 * cu).
  { unfold cu. assert (S : sqrt (exp 2 * exp 2 - 4) * sqrt (exp 2 * exp 2 - 4) = exp 2 * exp 2 - 4) by (apply sqrt_sqrt; nra). nra. }
  apply (Rmult_eq_reg_r cu); [|lra]. rewrite Rmult_plus_distr_r, Rinv_l by lra. exact Q.
Qed.
Definition chi2_sample : list R := [10 * cu; 10 * / cu].
Lemma chi2_sample_pos x : In x chi2_sample -> 0 < x.
Proof. pose proof cu_pos. pose proof (Rinv_0_lt_compat _ H). intros [<-|[<-|[]]]; lra. Qed.
Lemma chi2_sample_mean : mean chi2_sample = 5 * exp 2.
Proof. unfold mean, chi2_sample, len. simpl. rewrite <- cu_eq. field. pose proof cu_pos. lra. Qed.
Lemma chi2_sample_ln : Rsum (map ln chi2_sample) = 2 * ln 10.
Proof.
  pose proof cu_pos. pose proof (Rinv_0_lt_compat _ H). simpl. rewrite !ln_mult, ln_Rinv by lra. ring.
Qed.
Lemma chi2_sample_gap : exp (mean (map ln chi2_sample)) < mean chi2_sample - 2.
Proof.
  unfold mean at 1. rewrite chi2_sample_ln. unfold len. rewrite map_length. replace (2 * ln 10 / INR (length chi2_sample)) with (ln 10) by (simpl; field). rewrite exp_ln by lra. rewrite chi2_sample_mean. pose proof exp2_big. lra.
Qed.
Lemma chi2_attained : attains chi2_scale_admissible (fun p => likelihood (location_scale (chi2_pdf stairs_gamma (fst p)) 0 (snd p)) chi2_sample) (1, 5 * exp 2).
Proof.
  pose proof exp2_big as E2. pose proof stairs_pos as SP. split; [split; cbn; lra|]. intros (d, s) (Hd & Hs). cbn [fst snd] in *.
  rewrite !lik_exp by (intros; apply chi2_scaled_pos; trivial; try lra; now apply chi2_sample_pos). apply exp_mono.
  rewrite !sum_ln_chi2 by (trivial; try lra; apply chi2_sample_pos). rewrite chi2_sample_ln. replace (len chi2_sample) with 2 by (unfold len; simpl; ring).
  replace (Rsum chi2_sample) with (10 * exp 2) by (rewrite <- cu_eq; simpl; ring). set (m := 5 * exp 2). replace (10 * exp 2) with (2 * m) by (unfold m; ring). assert (M0 : 0 < m) by (unfold m; lra).
  assert (Lm : ln m = ln 10 + (2 - ln 2)). { unfold m. replace (5 * exp 2) with (10 * exp 2 / 2) by field. rewrite ln_quot, ln_mult, ln_exp by lra. ring. }
  replace (2 * m / (2 * m)) with 1 by (field; lra). set (a := d / 2). assert (A0 : 0 < a) by (unfold a; lra). pose proof (profile_max a A0) as PM. unfold shape_profile in PM.
  assert (Q : 0 < m / (2 * s)) by (apply Rdiv_lt_0_compat; lra). pose proof (ln_ratio_le (m / (2 * s)) a Q A0) as K. rewrite ln_quot, ln_mult in K by lra.
  assert (a * (m / (2 * s) / a) = m / (2 * s)) by (field; lra).
  assert (K' : a * ln m - a * ln 2 - a * ln s - a * ln a <= m / (2 * s) - a) by nra. replace (2 * m / (2 * s)) with (2 * (m / (2 * s))) by (field; lra).
  rewrite ln_quot, ln_1 in PM by lra. rewrite Lm in *. nra.
Qed.
