(** The standard normal law: density, distribution function and quantile function (scipy.stats.norm pdf, cdf,
    ppf), defined by the integral of the density, and the facts about them used elsewhere. *)
From Coq Require Import Reals Lra Psatz.
From Coquelicot Require Import Coquelicot.
Local Open Scope R_scope.

(** the unnormalised density *)
Definition gauss (x : R) : R := exp (- (x ^ 2 / 2)).
Definition norm_pdf (x : R) : R := gauss x / sqrt (2 * PI).
Definition norm_cdf (x : R) : R := 1 / 2 + RInt norm_pdf 0 x.
(** the smallest upper bound of the points with cdf at most p *)
Definition norm_ppf (p : R) : R := real (Lub_Rbar (fun x => norm_cdf x <= p)).

Lemma gauss_pos x : 0 < gauss x. Proof. apply exp_pos. Qed.
Lemma gauss_even x : gauss (- x) = gauss x. Proof. unfold gauss. replace ((- x) ^ 2) with (x ^ 2) by ring. reflexivity. Qed.
Lemma gauss_derive x : is_derive gauss x (- x * gauss x).
Proof. unfold gauss. auto_derive. trivial. unfold Rdiv. simpl. field. Qed.
Lemma gauss_continuous x : continuous gauss x.
Proof. apply (@ex_derive_continuous R_AbsRing R_NormedModule). eexists. apply gauss_derive. Qed.
Lemma gauss_ex a b : ex_RInt gauss a b.
Proof. apply (@ex_RInt_continuous R_CompleteNormedModule). intros z _. apply gauss_continuous. Qed.

Definition gint (x : R) : R := RInt gauss 0 x.
Lemma gint_derive x : is_derive gint x (gauss x).
Proof.
  apply (is_derive_RInt gauss gint 0 x).
  - exists (mkposreal 1 Rlt_0_1). intros y _. apply (@RInt_correct R_CompleteNormedModule). apply gauss_ex.
  - apply gauss_continuous.
Qed.

(** the polar-coordinates argument, without polar coordinates *)
Definition gk (x t : R) : R := 2 * exp (- (x ^ 2 * (1 + t ^ 2) / 2)) / (1 + t ^ 2).
Lemma gk_derive x t : is_derive (fun u => gk u t) x (- 2 * x * exp (- (x ^ 2 * (1 + t ^ 2) / 2))).
Proof.
  unfold gk. assert (0 <= t ^ 2) by nra. simpl in *. auto_derive. lra. unfold Rdiv. simpl. field. lra.
Qed.
Definition gG (x : R) : R := RInt (gk x) 0 1.
Lemma gk_ex x : ex_RInt (gk x) 0 1.
Proof.
  apply (@ex_RInt_continuous R_CompleteNormedModule). intros z _. apply (@ex_derive_continuous R_AbsRing R_NormedModule).
  unfold gk. assert (0 <= z ^ 2) by nra. auto_derive. nra.
Qed.
Lemma gG_derive x : is_derive gG x (- 2 * gauss x * gint x).
Proof.
  assert (E : - 2 * gauss x * gint x = RInt (fun t => Derive (fun u => gk u t) x) 0 1).
  { assert (Hc : is_RInt (fun t => x * gauss (x * t + 0)) 0 1 (gint x)).
    { unfold gint. pose proof (is_RInt_comp_lin gauss x 0 0 1 (RInt gauss 0 x)) as L.
      unfold scal in L; simpl in L; unfold mult in L; simpl in L. apply L.
      replace (x * 0 + 0) with 0 by lra. replace (x * 1 + 0) with x by lra.
      apply (@RInt_correct R_CompleteNormedModule). apply gauss_ex. }
    symmetry. apply is_RInt_unique.
    apply (is_RInt_ext (fun t => (- 2 * gauss x) * (x * gauss (x * t + 0)))).
    { intros t _. replace (Derive (fun u : R => gk u t) x) with (- 2 * x * exp (- (x ^ 2 * (1 + t ^ 2) / 2)))
        by (symmetry; apply is_derive_unique; apply gk_derive).
      unfold gauss.
      replace (- (x ^ 2 * (1 + t ^ 2) / 2)) with (- (x ^ 2 / 2) + - ((x * t + 0) ^ 2 / 2)) by (simpl; field).
      rewrite exp_plus. match goal with |- ?a = ?b => change (@eq R a b) end. ring. }
    apply (@is_RInt_scal R_NormedModule _ _ _ (- 2 * gauss x)). exact Hc. }
  rewrite E. apply is_derive_RInt_param.
  - exists (mkposreal 1 Rlt_0_1). intros y _ t _. eexists. apply gk_derive.
  - intros t _. apply continuity_2d_pt_ext with (fun u v => - 2 * u * exp (- (u ^ 2 * (1 + v ^ 2) / 2))).
    { intros u v. symmetry. apply is_derive_unique. apply gk_derive. }
    apply continuity_2d_pt_mult.
    + apply continuity_2d_pt_mult. apply continuity_2d_pt_const. apply continuity_2d_pt_id1.
    + apply (continuity_1d_2d_pt_comp exp (fun u v => - (u ^ 2 * (1 + v ^ 2) / 2))).
      apply derivable_continuous_pt, derivable_pt_exp.
      apply continuity_2d_pt_opp. unfold Rdiv. apply continuity_2d_pt_mult; [|apply continuity_2d_pt_const].
      apply continuity_2d_pt_mult.
      * simpl. repeat apply continuity_2d_pt_mult; try apply continuity_2d_pt_const; apply continuity_2d_pt_id1.
      * apply continuity_2d_pt_plus. apply continuity_2d_pt_const.
        simpl. repeat apply continuity_2d_pt_mult; try apply continuity_2d_pt_const; apply continuity_2d_pt_id2.
  - exists (mkposreal 1 Rlt_0_1). intros y _. apply gk_ex.
Qed.
Lemma gG_0 : gG 0 = PI / 2.
Proof.
  unfold gG. assert (H : is_RInt (gk 0) 0 1 (minus (2 * atan 1) (2 * atan 0))).
  { apply (is_RInt_derive (fun t => 2 * atan t)).
    - intros t _. unfold gk. auto_derive. trivial.
      replace (- (0 ^ 2 * (1 + t ^ 2) / 2)) with 0 by (simpl; lra). rewrite exp_0.
      unfold Rsqr. field. nra.
    - intros t _. apply (@ex_derive_continuous R_AbsRing R_NormedModule). unfold gk. assert (0 <= t ^ 2) by nra. auto_derive. nra. }
  rewrite (is_RInt_unique _ _ _ _ H). rewrite atan_1, atan_0.
  unfold minus, plus, opp; simpl. lra.
Qed.
Lemma gint_sq x : gint x ^ 2 + gG x = PI / 2.
Proof.
  rewrite <- gG_0. replace (gG 0) with (gint 0 ^ 2 + gG 0).
  2: { unfold gint. rewrite RInt_point. unfold zero; simpl. lra. }
  destruct (Req_dec x 0) as [-> | Hx]; [reflexivity|].
  assert (D : forall y, is_derive (fun y => gint y ^ 2 + gG y) y 0).
  { intros y. evar_last. apply @is_derive_plus. apply is_derive_pow. apply gint_derive. apply gG_derive.
    unfold plus; simpl. ring. }
  destruct (MVT_gen (fun y => gint y ^ 2 + gG y) 0 x (fun _ => 0)) as (c & _ & Hc).
  - intros y _. apply D.
  - intros y _. apply derivable_continuous_pt. exists 0. apply is_derive_Reals. apply D.
  - lra.
Qed.
Lemma gG_bounds x : 0 < gG x <= 2 * gauss x.
Proof.
  split.
  - unfold gG. apply RInt_gt_0. lra.
    + intros t _. unfold gk. apply Rdiv_lt_0_compat. pose proof (exp_pos (- (x ^ 2 * (1 + t ^ 2) / 2))). lra. nra.
    + intros t _. apply (@ex_derive_continuous R_AbsRing R_NormedModule). unfold gk. assert (0 <= t ^ 2) by nra. auto_derive. nra.
  - replace (2 * gauss x) with (RInt (fun _ => 2 * gauss x) 0 1).
    2: { rewrite RInt_const. unfold scal; simpl; unfold mult; simpl. lra. }
    apply RInt_le. lra. apply gk_ex. apply ex_RInt_const.
    intros t [Ht1 Ht2]. unfold gk, gauss.
    assert (0 <= t ^ 2) by nra. assert (0 <= x ^ 2) by nra.
    apply Rle_trans with (2 * exp (- (x ^ 2 * (1 + t ^ 2) / 2))).
    + pose proof (exp_pos (- (x ^ 2 * (1 + t ^ 2) / 2))).
      apply Rmult_le_reg_r with (1 + t ^ 2). lra. unfold Rdiv. rewrite Rmult_assoc, Rinv_l by lra. nra.
    + apply Rmult_le_compat_l. lra. apply Rnot_lt_le; intros Hl; apply exp_lt_inv in Hl; nra.
Qed.

Lemma sqrt_2PI_pos : 0 < sqrt (2 * PI).
Proof. apply sqrt_lt_R0. pose proof PI_RGT_0. lra. Qed.
Lemma norm_pdf_pos x : 0 < norm_pdf x.
Proof. apply Rdiv_lt_0_compat. apply gauss_pos. apply sqrt_2PI_pos. Qed.
Lemma norm_pdf_even x : norm_pdf (- x) = norm_pdf x.
Proof. unfold norm_pdf. now rewrite gauss_even. Qed.
Lemma norm_cdf_gint x : norm_cdf x = 1 / 2 + gint x / sqrt (2 * PI).
Proof.
  unfold norm_cdf. f_equal. apply is_RInt_unique.
  apply (is_RInt_ext (fun t => (/ sqrt (2 * PI)) * gauss t)).
  { intros t _. match goal with |- ?a = ?b => change (@eq R a b) end. unfold norm_pdf. unfold Rdiv. ring. }
  replace (gint x / sqrt (2 * PI)) with (/ sqrt (2 * PI) * gint x) by (unfold Rdiv; ring).
  apply (@is_RInt_scal R_NormedModule gauss 0 x (/ sqrt (2 * PI)) (gint x)).
  apply (@RInt_correct R_CompleteNormedModule). apply gauss_ex.
Qed.
Lemma norm_cdf_derive x : is_derive norm_cdf x (norm_pdf x).
Proof.
  apply (is_derive_ext (fun y => 1 / 2 + gint y / sqrt (2 * PI))).
  { intros t. symmetry. apply norm_cdf_gint. }
  unfold norm_pdf. evar_last.
  apply (@is_derive_plus R_AbsRing R_NormedModule). apply @is_derive_const.
  unfold Rdiv. apply (is_derive_scal_l gint x (gauss x) (/ sqrt (2 * PI))). apply gint_derive.
  unfold plus, scal, zero; simpl. unfold mult; simpl. unfold Rdiv. ring.
Qed.
Lemma norm_cdf_0 : norm_cdf 0 = 1 / 2.
Proof. unfold norm_cdf. rewrite RInt_point. unfold zero; simpl. lra. Qed.
Lemma norm_cdf_increasing x y : x < y -> norm_cdf x < norm_cdf y.
Proof.
  intros H. destruct (MVT_gen norm_cdf x y norm_pdf) as (c & _ & Hc).
  - intros z _. apply norm_cdf_derive.
  - intros z _. apply derivable_continuous_pt. exists (norm_pdf z). apply is_derive_Reals. apply norm_cdf_derive.
  - pose proof (norm_pdf_pos c). nra.
Qed.
Lemma norm_cdf_le x y : x <= y -> norm_cdf x <= norm_cdf y.
Proof. intros [H | ->]; [left; now apply norm_cdf_increasing | lra]. Qed.
Lemma norm_cdf_lt_inv x y : norm_cdf x < norm_cdf y -> x < y.
Proof. intros H. destruct (Rlt_le_dec x y) as [|h]; trivial. apply norm_cdf_le in h. lra. Qed.
Lemma norm_cdf_inj x y : norm_cdf x = norm_cdf y -> x = y.
Proof.
  intros H. destruct (Rtotal_order x y) as [h | [h | h]]; trivial; apply norm_cdf_increasing in h; lra.
Qed.
Lemma gint_odd x : gint (- x) = - gint x.
Proof.
  unfold gint. apply is_RInt_unique.
  pose proof (is_RInt_comp_opp gauss 0 (- x) (RInt gauss 0 x)) as L.
  assert (H : is_RInt gauss (- 0) (- - x) (RInt gauss 0 x)).
  { rewrite Ropp_0, Ropp_involutive. apply (@RInt_correct R_CompleteNormedModule). apply gauss_ex. }
  specialize (L H). apply is_RInt_opp in L.
  apply (is_RInt_ext (fun t => opp (opp (gauss (- t))))).
  { intros t _. rewrite opp_opp. apply gauss_even. }
  exact L.
Qed.
Lemma norm_cdf_sym x : norm_cdf (- x) = 1 - norm_cdf x.
Proof. rewrite !norm_cdf_gint, gint_odd. unfold Rdiv. lra. Qed.

Lemma half_norm : (sqrt (2 * PI) / 2) ^ 2 = PI / 2.
Proof.
  replace ((sqrt (2 * PI) / 2) ^ 2) with ((sqrt (2 * PI) * sqrt (2 * PI)) / 4) by (simpl; field).
  rewrite sqrt_sqrt. lra. pose proof PI_RGT_0. lra.
Qed.
Lemma norm_cdf_bounds x : 0 < norm_cdf x < 1.
Proof.
  rewrite norm_cdf_gint. pose proof sqrt_2PI_pos as S. pose proof half_norm as HN.
  pose proof (gint_sq x) as E. pose proof (gG_bounds x) as [G _].
  set (s := sqrt (2 * PI)) in *. set (g := gint x) in *.
  assert (Hg : g ^ 2 < (s / 2) ^ 2) by lra.
  assert (- (s / 2) < g < s / 2).
  { rewrite <- !Rsqr_pow2 in Hg. apply Rsqr_lt_abs_0 in Hg. rewrite (Rabs_right (s / 2)) in Hg by lra.
    apply Rabs_def2 in Hg. lra. }
  assert (- (1 / 2) < g / s < 1 / 2).
  { split; apply Rmult_lt_reg_r with s; trivial; unfold Rdiv; rewrite ?Rmult_assoc, ?Rinv_l by lra; lra. }
  lra.
Qed.
(** the tail: 1 - cdf x <= gauss x / (cdf x) * (2 / pi), enough to see that it vanishes *)
Lemma norm_cdf_tail x : 0 <= x -> 1 - norm_cdf x <= gauss x.
Proof.
  intros Hx. rewrite norm_cdf_gint. pose proof sqrt_2PI_pos as S. pose proof half_norm as HN.
  pose proof (gint_sq x) as E. pose proof (gG_bounds x) as [G1 G2].
  assert (0 <= gint x).
  { unfold gint. apply RInt_ge_0; trivial. apply gauss_ex. intros y _. pose proof (gauss_pos y). lra. }
  set (s := sqrt (2 * PI)) in *. set (g := gint x) in *. pose proof (gauss_pos x).
  assert (Hs : s ^ 2 = 2 * PI) by (replace (s ^ 2) with (4 * (s / 2) ^ 2) by field; rewrite HN; lra).
  pose proof PI2_3_2. assert (HP : 2 < PI) by (unfold PI2 in *; lra).
  assert (Hg : g ^ 2 <= (s / 2) ^ 2) by lra.
  assert (Hsg : g <= s / 2).
  { rewrite <- !Rsqr_pow2 in Hg. apply Rsqr_le_abs_0 in Hg. rewrite (Rabs_right (s / 2)), (Rabs_right g) in Hg by lra. lra. }
  assert (Hs2 : 2 <= s).
  { apply Rnot_lt_le. intros h. assert (s * s < 2 * 2) by (apply Rmult_le_0_lt_compat; lra). simpl in Hs. lra. }
  assert (P : (s / 2 - g) * (s / 2 + g) <= 2 * gauss x).
  { replace ((s / 2 - g) * (s / 2 + g)) with ((s / 2) ^ 2 - g ^ 2) by ring. lra. }
  apply Rmult_le_reg_r with s; trivial.
  replace ((1 - (1 / 2 + g / s)) * s) with (s / 2 - g) by (field; lra).
  assert ((s / 2 - g) * 1 <= (s / 2 - g) * (s / 2 + g)) by (apply Rmult_le_compat_l; lra).
  assert (gauss x * 2 <= gauss x * s) by (apply Rmult_le_compat_l; lra). lra.
Qed.
Lemma norm_cdf_continuity : continuity norm_cdf.
Proof.
  intros z. apply derivable_continuous_pt. exists (norm_pdf z). apply is_derive_Reals. apply norm_cdf_derive.
Qed.
Lemma norm_cdf_above p : p < 1 -> exists x, 0 <= x /\ p <= norm_cdf x.
Proof.
  intros Hp. destruct (Rle_lt_dec p 0) as [h | h].
  - exists 0. rewrite norm_cdf_0. lra.
  - exists (sqrt (- 2 * ln (1 - p))). split; [apply sqrt_pos|].
    assert (ln (1 - p) <= 0). { rewrite <- ln_1. left. apply ln_increasing; lra. }
    pose proof (norm_cdf_tail _ (sqrt_pos (- 2 * ln (1 - p)))) as T. unfold gauss in T.
    rewrite pow2_sqrt in T by lra. replace (- (-2 * ln (1 - p) / 2)) with (ln (1 - p)) in T by field.
    rewrite exp_ln in T by lra. lra.
Qed.
Lemma norm_cdf_onto p : 0 < p < 1 -> exists x, norm_cdf x = p.
Proof.
  intros [H0 H1]. destruct (norm_cdf_above p H1) as (b & Hb0 & Hb).
  destruct (norm_cdf_above (1 - p)) as (a & Ha0 & Ha); [lra|].
  destruct (IVT_gen norm_cdf (- a) b p norm_cdf_continuity) as (x & _ & Hx).
  - rewrite norm_cdf_sym. unfold Rmin, Rmax. destruct (Rle_dec (1 - norm_cdf a) (norm_cdf b)); lra.
  - now exists x.
Qed.
Lemma norm_ppf_cdf x : norm_ppf (norm_cdf x) = x.
Proof.
  unfold norm_ppf.
  assert (E : Lub_Rbar (fun y => norm_cdf y <= norm_cdf x) = Finite x).
  { apply is_lub_Rbar_unique. split.
    - intros y Hy. simpl. apply Rnot_lt_le. intros h. apply norm_cdf_increasing in h. lra.
    - intros b Hb. apply (Hb x). lra. }
  now rewrite E.
Qed.
Lemma norm_cdf_ppf p : 0 < p < 1 -> norm_cdf (norm_ppf p) = p.
Proof. intros H. destruct (norm_cdf_onto p H) as (x & <-). now rewrite norm_ppf_cdf. Qed.
Lemma norm_ppf_increasing p q : 0 < p -> p < q -> q < 1 -> norm_ppf p < norm_ppf q.
Proof. intros. apply norm_cdf_lt_inv. rewrite !norm_cdf_ppf; lra. Qed.
Lemma norm_ppf_le p q : 0 < p -> p <= q -> q < 1 -> norm_ppf p <= norm_ppf q.
Proof. intros Hp [H | ->] Hq; [left; now apply norm_ppf_increasing | lra]. Qed.
Lemma norm_ppf_sym p : 0 < p < 1 -> norm_ppf (1 - p) = - norm_ppf p.
Proof. intros H. apply norm_cdf_inj. rewrite norm_cdf_sym, !norm_cdf_ppf; lra. Qed.
Lemma norm_ppf_half : norm_ppf (1 / 2) = 0.
Proof. rewrite <- norm_cdf_0. apply norm_ppf_cdf. Qed.
Lemma norm_ppf_pos p : 1 / 2 < p < 1 -> 0 < norm_ppf p.
Proof. intros H. rewrite <- norm_ppf_half. apply norm_ppf_increasing; lra. Qed.
Lemma norm_ppf_neg p : 0 < p < 1 / 2 -> norm_ppf p < 0.
Proof. intros H. rewrite <- norm_ppf_half. apply norm_ppf_increasing; lra. Qed.
